(** TransformTask in closed loop: the frame comes to its target. *)
From Verif Require Import PoseLoopSpec PoseLoopWitness KinLoop KinVecFacts SetPointWitness KinTaskFacts.
From Coq Require Import Lra.
Open Scope string_scope.
Open Scope list_scope.
Open Scope R_scope.

(** C151: a TransformTask under a SetPointTask, or under a TrajectoryTask without references whose damping may be changed at every instant between d1 and d2, turns the frame X of
    the body to the orientation of its target, whatever the frame C in which the task is written: if the energy of the rotation is, at the start, below its value at rest a half turn away,
    the angle is always below a half turn and tends to zero exponentially. *)
Theorem C151_rotation : forall rv mb path Xt X C K jm H x p b, isLog rv -> rigid Xt -> rigid X -> rotation C -> wfPath mb path -> sized 6 mb jm ->
  (forall s, 0 <= s -> movesAt mb path K (fun s j => p s (b + j)%nat) (fun s j => x s (b + j)%nat) s) ->
  yields 6 mb (fun s => tfUpdate rv mb path Xt X C (K s) (jm s)) H -> forall k d1 d2 d, 0 < k -> 0 < d1 -> (forall s, 0 <= s -> d1 <= d s <= d2) ->
  driven6 H b x k d ->
  let F := fun s => m3mul (ptE X) (ptE (bkPos (K s))) in
  let e0 := turnEnergy k (ang (bkVelB (K 0))) (angleTo (F 0) (ptE Xt)) in 2 * e0 < k * (PI * PI) ->
  forall s, 0 <= s -> angleTo (F s) (ptE Xt) < PI /\ angleTo (F s) (ptE Xt) * angleTo (F s) (ptE Xt) <= 6 * e0 / k * exp (- turnRate k d1 d2 e0 * s).
Proof. exact transform_turns. Qed.
Print Assumptions C151_rotation.
(** The whole pose, with solve() called at every instant, in any history of the solver, among other tasks and constraints compatible with this one: the origin of the frame goes to that of the
    target as a critically damped spring, in the world and whatever C, and the frame turns to its target. *)
Theorem C151_pose : forall lssol kinds num ct pre mbs uni bi r k0 W0 w0 ops t0 t x p k b mb path K jm rv Xt X C v,
  Forall wfMimic mbs -> nonzeroMimics mbs -> contract num ->
  newSP mbs r k0 W0 w0 = Ok t0 -> spRun ops t0 = Ok t -> k = latest spGiveK k0 ops -> b = latest (spGiveBegin r) 0%nat ops ->
  0 < k -> 0 < latest spGiveWeight w0 ops -> (forall j, (j < vlen (latest spGiveW W0 ops))%nat -> 0 < vget (latest spGiveW W0 ops) j) ->
  vlen (latest spGiveW W0 ops) = 6%nat -> isLog rv -> rigid Xt -> rigid X -> rotation C -> wfPath mb path -> sized 6 mb jm ->
  (forall s, 0 <= s -> movesAt mb path K (fun s j => p s (b + j)%nat) (fun s j => x s (b + j)%nat) s) ->
  tasksLoop lssol kinds num ct pre mbs uni bi (fun s => tfUpdate rv mb path Xt X C (K s) (jm s)) t k b x ->
  dV (fun s => worldPoint (ptr X) (K s)) 0 v ->
  let F := fun s => m3mul (ptE X) (ptE (bkPos (K s))) in
  let way := fun s => vsub (ptr Xt) (worldPoint (ptr X) (K s)) in
  let e0 := turnEnergy k (ang (bkVelB (K 0))) (angleTo (F 0) (ptE Xt)) in
  (forall s, 0 <= s -> way s = springWay k (way 0) v s) /\
  (2 * e0 < k * (PI * PI) ->
  forall s, 0 <= s -> angleTo (F s) (ptE Xt) < PI /\ angleTo (F s) (ptE Xt) * angleTo (F s) (ptE Xt) <= 6 * e0 / k * exp (- turnRate k (2 * sqrt k) (2 * sqrt k) e0 * s)).
Proof. exact solver_transform. Qed.
Print Assumptions C151_pose.
(** A body on a screw, from rest, 1 radian and 1 metre away from its target; the frame C is turned by 3 radians. *)
Example C151_used : exists H, yields 6 kMb (fun s => tfUpdate rvLog kMb [0%nat] screwT screwX screwC (kScrew s) (kJm 6 s)) H /\ driven6 H 0 SetPointWitness.cX 1 (fun _ => 2) /\
  forall s, 0 <= s -> angleTo (m3mul (ptE screwX) (ptE (bkPos (kScrew s)))) (ptE screwT) < PI /\
    angleTo (m3mul (ptE screwX) (ptE (bkPos (kScrew s)))) (ptE screwT) * angleTo (m3mul (ptE screwX) (ptE (bkPos (kScrew s)))) (ptE screwT) <= 6 * / 2 / 1 * exp (- turnRate 1 2 2 (/ 2) * s).
Proof.
  destruct (transform_tracks rvLog kMb [0%nat] screwT screwX screwC kScrew _ _ 0 (kJm 6) kWf (kSized 6) (rotZ_rigid 1 v0) (rotZ_rigid 3 v0) (kScrew_moves 0)) as (H & Y & _). exists H.
  split; [exact Y|]. split; [exact (screw_driven H Y)|].
  pose proof (C151_rotation rvLog kMb [0%nat] screwT screwX screwC kScrew (kJm 6) H SetPointWitness.cX kSlideAl 0 rvLog_isLog (rotZ_rigid 2 v0) (rotZ_rigid 1 v0) (rotZ_rigid 3 v0) kWf (kSized 6)
    (fun s _ => kScrew_moves s) Y 1 2 2 (fun _ => 2) ltac:(lra) ltac:(lra) ltac:(intros; lra) (screw_driven H Y)) as C.
  cbv beta zeta in C. rewrite screw_start in C. apply C. pose proof PI2_1. nra.
Qed.
Example C151_pose_used : exists t0, newSP [kMb] 0 1 (ones 6) 1 = Ok t0 /\
  tasksLoop true CompatWitness.cmKinds trySolver 0 [] [kMb] [] [] (fun s => tfUpdate rvLog kMb [0%nat] screwT screwX screwC (kScrew s) (kJm 6 s)) t0 1 0 SetPointWitness.cX /\
  dV (fun s => worldPoint (ptr screwX) (kScrew s)) 0 v0 /\
  2 * turnEnergy 1 (ang (bkVelB (kScrew 0))) (angleTo (m3mul (ptE screwX) (ptE (bkPos (kScrew 0)))) (ptE screwT)) < 1 * (PI * PI).
Proof.
  destruct screw_tasks as (t0 & N & T). exists t0. split; [exact N|]. split; [exact T|]. split; [exact screw_v|]. rewrite screw_start. pose proof PI2_1. nra.
Qed.
