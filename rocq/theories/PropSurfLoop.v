(** SurfaceTransformTask in closed loop: the frame comes to its target. *)
From Verif Require Import SurfLoopSpec SurfLoopWitness KinLoop KinVecFacts SetPointWitness KinTaskFacts.
From Coq Require Import Lra.
Open Scope string_scope.
Open Scope list_scope.
Open Scope R_scope.

(** C152: a SurfaceTransformTask turns its frame X to the orientation of its target, although its speed is not the rate of its error (C105): under a SetPointTask, or a TrajectoryTask without
    references whose damping may be changed at every instant between d1 and d2, if the energy of the rotation is, at the start, below its value at rest a half turn away and below 5/2 d1 sqrt k,
    the angle is always below a half turn and tends to zero exponentially. *)
Theorem C152_rotation : forall rv mb path Xt X K jm H x p b, isLog rv -> rigid Xt -> rigid X -> wfPath mb path -> sized 6 mb jm ->
  (forall s, 0 <= s -> movesAt mb path K (fun s j => p s (b + j)%nat) (fun s j => x s (b + j)%nat) s) ->
  yields 6 mb (fun s => surfTfUpdate rv mb path Xt X (K s) (jm s)) H -> forall k d1 d2 d, 0 < k -> (forall s, 0 <= s -> d1 <= d s <= d2) ->
  driven6 H b x k d ->
  let F := fun s => m3mul (ptE X) (ptE (bkPos (K s))) in
  let e0 := turnEnergy k (ang (bkVelB (K 0))) (angleTo (F 0) (ptE Xt)) in 2 * e0 < k * (PI * PI) -> 0 < leastDamping k d1 e0 ->
  forall s, 0 <= s -> angleTo (F s) (ptE Xt) < PI /\ angleTo (F s) (ptE Xt) * angleTo (F s) (ptE Xt) <= 6 * e0 / k * exp (- turnRate k (leastDamping k d1 e0) (mostDamping k d2 e0) e0 * s).
Proof. exact surface_turns. Qed.
Print Assumptions C152_rotation.
(** The whole pose, with solve() called at every instant, in any history of the solver, among other tasks and constraints compatible with this one. The way to the origin of the target, seen in the
    frame X, decreases as a critically damped spring. With the damping 2 sqrt k of a SetPointTask the second bound on the energy always holds. *)
Theorem C152_pose : forall lssol kinds num ct pre mbs uni bi r k0 W0 w0 ops t0 t x p k b mb path K jm rv Xt X v,
  Forall wfMimic mbs -> nonzeroMimics mbs -> contract num ->
  newSP mbs r k0 W0 w0 = Ok t0 -> spRun ops t0 = Ok t -> k = latest spGiveK k0 ops -> b = latest (spGiveBegin r) 0%nat ops ->
  0 < k -> 0 < latest spGiveWeight w0 ops -> (forall j, (j < vlen (latest spGiveW W0 ops))%nat -> 0 < vget (latest spGiveW W0 ops) j) ->
  vlen (latest spGiveW W0 ops) = 6%nat -> isLog rv -> rigid Xt -> rigid X -> wfPath mb path -> sized 6 mb jm ->
  (forall s, 0 <= s -> movesAt mb path K (fun s j => p s (b + j)%nat) (fun s j => x s (b + j)%nat) s) ->
  tasksLoop lssol kinds num ct pre mbs uni bi (fun s => surfTfUpdate rv mb path Xt X (K s) (jm s)) t k b x ->
  let F := fun s => m3mul (ptE X) (ptE (bkPos (K s))) in
  let way := fun s => m3mulv (F s) (vsub (ptr Xt) (worldPoint (ptr X) (K s))) in
  dV way 0 (vneg v) ->
  let e0 := turnEnergy k (ang (bkVelB (K 0))) (angleTo (F 0) (ptE Xt)) in
  (forall s, 0 <= s -> way s = springWay k (way 0) v s) /\
  (2 * e0 < k * (PI * PI) -> 0 < leastDamping k (2 * sqrt k) e0 /\
  forall s, 0 <= s -> angleTo (F s) (ptE Xt) < PI /\
    angleTo (F s) (ptE Xt) * angleTo (F s) (ptE Xt) <= 6 * e0 / k * exp (- turnRate k (leastDamping k (2 * sqrt k) e0) (mostDamping k (2 * sqrt k) e0) e0 * s)).
Proof. exact solver_surface. Qed.
Print Assumptions C152_pose.
(** A body on a screw, from rest, 1 radian and 1 metre away from its target. *)
Example C152_used : exists H, yields 6 kMb (fun s => surfTfUpdate rvLog kMb [0%nat] screwT screwX (kScrew s) (kJm 6 s)) H /\ driven6 H 0 SetPointWitness.cX 1 (fun _ => 2) /\
  forall s, 0 <= s -> angleTo (m3mul (ptE screwX) (ptE (bkPos (kScrew s)))) (ptE screwT) < PI /\
    angleTo (m3mul (ptE screwX) (ptE (bkPos (kScrew s)))) (ptE screwT) * angleTo (m3mul (ptE screwX) (ptE (bkPos (kScrew s)))) (ptE screwT) <= 6 * / 2 / 1 * exp (- turnRate 1 (9 / 5) (5 / 2) (/ 2) * s).
Proof.
  destruct (surface_transform_tracks rvLog kMb [0%nat] screwT screwX kScrew _ _ 0 (kJm 6) kWf (kSized 6) (rotZ_rigid 1 v0) (kScrew_moves 0)) as (H & Y & _). exists H.
  split; [exact Y|]. split; [exact (screw_surf_driven H Y)|].
  pose proof (C152_rotation rvLog kMb [0%nat] screwT screwX kScrew (kJm 6) H SetPointWitness.cX kSlideAl 0 rvLog_isLog (rotZ_rigid 2 v0) (rotZ_rigid 1 v0) kWf (kSized 6)
    (fun s _ => kScrew_moves s) Y 1 2 2 (fun _ => 2) ltac:(lra) ltac:(intros; lra) (screw_surf_driven H Y)) as C.
  cbv beta zeta in C. rewrite screw_start, screw_left, screw_most in C. apply C; [pose proof PI2_1; nra|lra].
Qed.
Example C152_pose_used : exists t0, newSP [kMb] 0 1 (ones 6) 1 = Ok t0 /\
  tasksLoop true CompatWitness.cmKinds trySolver 0 [] [kMb] [] [] (fun s => surfTfUpdate rvLog kMb [0%nat] screwT screwX (kScrew s) (kJm 6 s)) t0 1 0 SetPointWitness.cX /\
  dV (fun s => m3mulv (m3mul (ptE screwX) (ptE (bkPos (kScrew s)))) (vsub (ptr screwT) (worldPoint (ptr screwX) (kScrew s)))) 0 (vneg v0) /\
  2 * turnEnergy 1 (ang (bkVelB (kScrew 0))) (angleTo (m3mul (ptE screwX) (ptE (bkPos (kScrew 0)))) (ptE screwT)) < 1 * (PI * PI).
Proof.
  destruct screw_surf_tasks as (t0 & N & T). exists t0. split; [exact N|]. split; [exact T|]. split; [exact screw_way|]. rewrite screw_start. pose proof PI2_1. nra.
Qed.
