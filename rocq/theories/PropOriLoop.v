(** Orientation tasks in closed loop. *)
From Verif Require Import OriLoopSpec OriLoop OriLoopWitness KinTaskFacts KinLoop.
From Coq Require Import Lra Lia.
Open Scope string_scope.
Open Scope list_scope.
Open Scope R_scope.

(** C148: an OrientationTask under a SetPointTask, or under a TrajectoryTask without references whose damping may be changed at every instant between d1 and d2, turns the body to its
    target: if half the square of the angular velocity plus half the stiffness times the square of the angle is, at the start, below its value at rest a half turn away, the angle is always
    below a half turn and tends to zero exponentially. The task is given the accelerations it asks for (compatible tasks, C141); the error does not decrease at the speed of the task (C103). *)
Theorem C148_orientation : forall rv mb path ori K jm H x p b, isLog rv -> rotation ori -> wfPath mb path -> sized 3 mb jm ->
  (forall s, 0 <= s -> movesAt mb path K (fun s j => p s (b + j)%nat) (fun s j => x s (b + j)%nat) s) ->
  yields 3 mb (fun s => oriUpdate rv mb path ori (K s) (jm s)) H -> forall k d1 d2 d, 0 < k -> 0 < d1 -> (forall s, 0 <= s -> d1 <= d s <= d2) ->
  driven3 H b x k d ->
  let e0 := turnEnergy k (ang (bkVelB (K 0))) (angleTo (ptE (bkPos (K 0))) ori) in 2 * e0 < k * (PI * PI) ->
  forall s, 0 <= s -> angleTo (ptE (bkPos (K s))) ori < PI /\ angleTo (ptE (bkPos (K s))) ori * angleTo (ptE (bkPos (K s))) ori <= 6 * e0 / k * exp (- turnRate k d1 d2 e0 * s).
Proof. exact orientation_converges. Qed.
Print Assumptions C148_orientation.
(** The same for a SurfaceOrientationTask: the angle is that of the frame of the surface. *)
Theorem C148_surface : forall rv mb path ori X K jm H x p b, isLog rv -> rotation ori -> rigid X -> wfPath mb path -> sized 3 mb jm ->
  (forall s, 0 <= s -> movesAt mb path K (fun s j => p s (b + j)%nat) (fun s j => x s (b + j)%nat) s) ->
  yields 3 mb (fun s => surfOriUpdate rv mb path ori X (K s) (jm s)) H -> forall k d1 d2 d, 0 < k -> 0 < d1 -> (forall s, 0 <= s -> d1 <= d s <= d2) ->
  driven3 H b x k d ->
  let F := fun s => m3mul (ptE X) (ptE (bkPos (K s))) in
  let e0 := turnEnergy k (ang (bkVelB (K 0))) (angleTo (F 0) ori) in 2 * e0 < k * (PI * PI) ->
  forall s, 0 <= s -> angleTo (F s) ori < PI /\ angleTo (F s) ori * angleTo (F s) ori <= 6 * e0 / k * exp (- turnRate k d1 d2 e0 * s).
Proof. exact surface_converges. Qed.
Print Assumptions C148_surface.
(** The same with solve() called at every instant, in any history of the solver, among other tasks and constraints compatible with this one. *)
Theorem C148_solver : forall lssol kinds num ct pre mbs uni bi r k0 W0 w0 ops t0 t x p k b mb path K jm rv ori,
  Forall wfMimic mbs -> nonzeroMimics mbs -> contract num ->
  newSP mbs r k0 W0 w0 = Ok t0 -> spRun ops t0 = Ok t -> k = latest spGiveK k0 ops -> b = latest (spGiveBegin r) 0%nat ops ->
  0 < k -> 0 < latest spGiveWeight w0 ops -> (forall j, (j < vlen (latest spGiveW W0 ops))%nat -> 0 < vget (latest spGiveW W0 ops) j) ->
  vlen (latest spGiveW W0 ops) = 3%nat -> isLog rv -> rotation ori -> wfPath mb path -> sized 3 mb jm ->
  (forall s, 0 <= s -> movesAt mb path K (fun s j => p s (b + j)%nat) (fun s j => x s (b + j)%nat) s) ->
  tasksLoop lssol kinds num ct pre mbs uni bi (fun s => oriUpdate rv mb path ori (K s) (jm s)) t k b x ->
  let e0 := turnEnergy k (ang (bkVelB (K 0))) (angleTo (ptE (bkPos (K 0))) ori) in 2 * e0 < k * (PI * PI) ->
  forall s, 0 <= s -> angleTo (ptE (bkPos (K s))) ori < PI /\
    angleTo (ptE (bkPos (K s))) ori * angleTo (ptE (bkPos (K s))) ori <= 6 * e0 / k * exp (- turnRate k (2 * sqrt k) (2 * sqrt k) e0 * s).
Proof. exact solver_orientation. Qed.
Print Assumptions C148_solver.
(** The exponent is negative. *)
Theorem C148_rate : forall k d1 d2 e0, 0 < k -> 0 < d1 -> 0 < d2 -> 0 < e0 -> 2 * e0 < k * (PI * PI) -> 0 < turnRate k d1 d2 e0.
Proof. exact turnRate_pos. Qed.
Print Assumptions C148_rate.
(** A body that one joint turns from rest, 1 radian away from its target: the angle is (1 + s) exp(-s). *)
Example C148_used : exists H, yields 3 kMb (fun s => oriUpdate rvLog kMb [0%nat] (RotZ 1) (kSpin s) (kJm 3 s)) H /\ driven3 H 0 SetPointWitness.cX 1 (fun _ => 2) /\
  (forall s, 0 <= s -> angleTo (ptE (bkPos (kSpin s))) (RotZ 1) = (1 + s) * exp (- s)) /\
  forall s, 0 <= s -> angleTo (ptE (bkPos (kSpin s))) (RotZ 1) < PI /\
    angleTo (ptE (bkPos (kSpin s))) (RotZ 1) * angleTo (ptE (bkPos (kSpin s))) (RotZ 1) <= 6 * / 2 / 1 * exp (- turnRate 1 2 2 (/ 2) * s).
Proof.
  destruct (orientation_tracks rvLog kMb [0%nat] (RotZ 1) kSpin _ _ 0 (kJm 3) kWf (kSized 3) (kSpin_moves 0)) as (H & Y & _). exists H.
  split; [exact Y|]. split; [exact (spin_driven H Y)|]. split; [exact spin_angle_is|].
  pose proof (C148_orientation rvLog kMb [0%nat] (RotZ 1) kSpin (kJm 3) H SetPointWitness.cX kSlideAl 0 rvLog_isLog (rotZ_rigid 1 v0) kWf (kSized 3) (fun s _ => kSpin_moves s) Y 1 2 2 (fun _ => 2)
    ltac:(lra) ltac:(lra) ltac:(intros; lra) (spin_driven H Y)) as C.
  cbv zeta in C. rewrite spin_start in C. apply C. pose proof PI2_1. nra.
Qed.
Example C148_surface_used : exists H, yields 3 kMb (fun s => surfOriUpdate rvLog kMb [0%nat] (RotZ 2) spinX (kSpin s) (kJm 3 s)) H /\ driven3 H 0 SetPointWitness.cX 1 (fun _ => 2) /\
  forall s, 0 <= s -> angleTo (m3mul (ptE spinX) (ptE (bkPos (kSpin s)))) (RotZ 2) < PI /\
    angleTo (m3mul (ptE spinX) (ptE (bkPos (kSpin s)))) (RotZ 2) * angleTo (m3mul (ptE spinX) (ptE (bkPos (kSpin s)))) (RotZ 2) <= 6 * / 2 / 1 * exp (- turnRate 1 2 2 (/ 2) * s).
Proof.
  destruct (surface_orientation_tracks rvLog kMb [0%nat] (RotZ 2) spinX kSpin _ _ 0 (kJm 3) kWf (kSized 3) (kSpin_moves 0)) as (H & Y & _). exists H.
  split; [exact Y|]. split; [exact (spin_surf_driven H Y)|].
  pose proof (C148_surface rvLog kMb [0%nat] (RotZ 2) spinX kSpin (kJm 3) H SetPointWitness.cX kSlideAl 0 rvLog_isLog (rotZ_rigid 2 v0) (rotZ_rigid 1 v0) kWf (kSized 3) (fun s _ => kSpin_moves s) Y 1 2 2 (fun _ => 2)
    ltac:(lra) ltac:(lra) ltac:(intros; lra) (spin_surf_driven H Y)) as C.
  cbv beta zeta in C. rewrite spin_surf_start in C. apply C. pose proof PI2_1. nra.
Qed.
Example C148_solver_used : exists t0, newSP [kMb] 0 1 (ones 3) 1 = Ok t0 /\
  tasksLoop true CompatWitness.cmKinds trySolver 0 [] [kMb] [] [] (fun s => oriUpdate rvLog kMb [0%nat] (RotZ 1) (kSpin s) (kJm 3 s)) t0 1 0 SetPointWitness.cX.
Proof. exact spin_tasks. Qed.
