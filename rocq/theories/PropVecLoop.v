(** A VectorOrientationTask in closed loop. *)
From Verif Require Import VecLoopSpec VecLoop VecLoopWitness KinTaskFacts SetPointWitness.
From Coq Require Import Lra Lia.
Open Scope string_scope.
Open Scope list_scope.
Open Scope R_scope.

(** C147: a set-point task over a VectorOrientationTask alone does not always bring the vector to its target, even if the robot can turn it in every direction: a body on a
    ball joint at rest whose vector points away from the target never moves. *)
Theorem C147_refuted : exists mb path bv target K jm H x p b k, wfPath mb path /\ sized 3 mb jm /\ dot bv bv = 1 /\ dot target target = 1 /\ 0 < k /\
  (forall s, 0 <= s -> movesAt mb path K (fun s j => p s (b + j)%nat) (fun s j => x s (b + j)%nat) s) /\
  yields 3 mb (fun s => vecOriUpdate mb path bv target (K s) (jm s)) H /\
  (forall s, 0 <= s -> exists tk, driveTask s (mkDrive 1 (fun _ => 1) (fun _ => k) (fun _ => 2 * sqrt k) b H) tk /\ minimises tk (x s)) /\
  (forall s tau, dot tau (pointing bv (K s)) = 0 -> exists y : nat -> R, forall i, (i < 3)%nat -> sumn (mcols (hJac (H s))) (fun j => mget (hJac (H s)) i j * y (b + j)%nat) = e3 tau i) /\
  forall s, pointing bv (K s) = vneg target.
Proof.
  destruct ball_loop as (H & Y & D & T). exists bMb, [0%nat], xhat, xback, bK, bJm, H, bX, bX, 0%nat, 1.
  split; [exact bWf|]. split; [exact bSized|]. split; [unfold dot, xhat; cbn; ring|]. split; [unfold dot, xback; cbn; ring|]. split; [lra|].
  split; [intros s _; exact (bK_moves s)|]. split; [exact Y|]. split; [exact D|]. split; [exact T|].
  intros s. unfold pointing, bK, xback, xhat. cbn. unfold m3mulv, dot, vneg. cbn. f_equal; ring.
Qed.
Print Assumptions C147_refuted.
(** It does from every other start, as far as half the square of the velocity of the vector at the start plus the stiffness times (1 - cos of the angle) is below twice the stiffness,
    the value at rest opposite to the target: the distance tends to zero exponentially. The task is a SetPointTask, or a TrajectoryTask without references whose damping may be changed
    at every instant between d1 and d2; its coordinates have the same weight; the vectors are unit vectors; the robot can turn the vector towards the target. *)
Theorem C147_converges : forall mb path bv target K jm H x p b, wfPath mb path -> sized 3 mb jm -> dot bv bv = 1 -> dot target target = 1 ->
  (forall s, 0 <= s -> movesAt mb path K (fun s j => p s (b + j)%nat) (fun s j => x s (b + j)%nat) s) ->
  yields 3 mb (fun s => vecOriUpdate mb path bv target (K s) (jm s)) H -> forall w om k d1 d2 d, 0 < w -> 0 < om -> 0 < k -> 0 < d1 ->
  (forall s, 0 <= s -> d1 <= d s <= d2) ->
  (forall s, 0 <= s -> exists tk, driveTask s (mkDrive w (fun _ => om) (fun _ => k) (fun _ => d s) b H) tk /\ minimises tk (x s)) ->
  (forall s, 0 <= s -> turnsTo (H s) b (pointing bv (K s)) target) ->
  forall v, dV (fun s => pointing bv (K s)) 0 v -> let e0 := swing k v target (pointing bv (K 0)) in e0 < 2 * k ->
  forall s, 0 <= s -> dot (vsub target (pointing bv (K s))) (vsub target (pointing bv (K s))) <= 6 * e0 / k * exp (- swingRate k d1 d2 e0 * s).
Proof. exact vl_converges. Qed.
Print Assumptions C147_converges.
(** The exponent is negative. *)
Theorem C147_rate : forall k d1 d2 e0, 0 < k -> 0 < d1 -> 0 < d2 -> e0 < 2 * k -> 0 < swingRate k d1 d2 e0.
Proof. exact swingRate_pos. Qed.
Print Assumptions C147_rate.
(** What the task asks for is a straight motion of the tip of the vector, which a rotation cannot give: if the accelerations gave it at all times, the vector would be
    on its target at all times. So the critically damped decay of the position tasks (C112) never happens here. *)
Theorem C147_never_attained : forall mb path bv target K jm H x p b, wfPath mb path -> sized 3 mb jm -> dot bv bv = 1 -> dot target target = 1 ->
  (forall s, 0 <= s -> movesAt mb path K (fun s j => p s (b + j)%nat) (fun s j => x s (b + j)%nat) s) ->
  yields 3 mb (fun s => vecOriUpdate mb path bv target (K s) (jm s)) H -> forall k, 0 < k ->
  (forall s i, 0 <= s -> (i < 3)%nat -> taskAcc (H s) b (x s) i = k * vget (hErr (H s)) i - 2 * sqrt k * vget (hSpeed (H s)) i) ->
  forall s, 0 <= s -> pointing bv (K s) = target.
Proof. exact vl_attained. Qed.
Print Assumptions C147_never_attained.
(** A vector turned by one joint, at the angle exp(-s) of its target: stiffness 1, damping 1 + sin(q)/q between 1 and 2, energy at the start 3/2 - cos 1 < 2. *)
Example C147_used : forall s, 0 <= s -> dot (vsub xhat (pointing xhat (kTurn s))) (vsub xhat (pointing xhat (kTurn s))) <=
  6 * (3 / 2 - cos 1) / 1 * exp (- swingRate 1 1 2 (3 / 2 - cos 1) * s).
Proof.
  destruct turn_loop as (H & Y & D & T).
  assert (Mv : forall s, 0 <= s -> movesAt kMb [0%nat] kTurn (fun s j => tAl s (0 + j)%nat) (fun s j => tX s (0 + j)%nat) s) by (intros s _; exact (kTurn_moves s)).
  assert (U : dot xhat xhat = 1) by (unfold dot, xhat; cbn; ring).
  destruct (turn_start) as (V & E).
  pose proof (C147_converges kMb [0%nat] xhat xhat kTurn (kJm 3) H tX tAl 0 kWf (kSized 3) U U Mv Y 1 1 1 1 2 tD ltac:(lra) ltac:(lra) ltac:(lra) ltac:(lra) tD_range D T _ V) as C.
  cbv zeta in C. rewrite E in C. apply C. assert (0 < cos 1) by (apply cos_gt_0; pose proof PI2_1; lra). lra.
Qed.
(** The distance there is 2 sin(exp(-s)/2): it is never zero. *)
Example C147_used_not_zero : forall s, 0 <= s -> dot (vsub xhat (pointing xhat (kTurn s))) (vsub xhat (pointing xhat (kTurn s))) = 2 * (1 - cos (exp (- s))) /\ cos (exp (- s)) < 1.
Proof. exact turn_far. Qed.
