(** Properties of the set-point family: SetPointTask, TrackingTask, TrajectoryTask, PIDTask, TargetObjectiveTask. *)
From Verif Require Import SetPointWitness.
Open Scope string_scope.
Open Scope list_scope.
Open Scope R_scope.

(** C55: whatever operations were made on a SetPointTask since its construction, after an update its cost is, up to a constant,
    its weight times 1/2 sum_i W_i (J x + normalAcc - a)_i^2 with a = k err - 2 sqrt(k) speed, for the gain, weights and place in x last given. *)
Theorem C55_setpoint : forall mbs r k0 W0 w0 ops t0 t h t',
  newSP mbs r k0 W0 w0 = Ok t0 -> spRun ops t0 = Ok t -> spUpdate h t = Ok t' ->
  costs (commonTask (spC t')) (latest spGiveWeight w0 ops)
    (leastSquares h (latest (spGiveBegin r) 0%nat ops) (vget (latest spGiveW W0 ops))
      (fun i => latest spGiveK k0 ops * vget (hErr h) i - 2 * sqrt (latest spGiveK k0 ops) * vget (hSpeed h) i)).
Proof. exact setpoint_lemma. Qed.
Print Assumptions C55_setpoint.
(** The update is defined whenever the wrapped task has as many coordinates as there are dimension weights. *)
Theorem C55_defined : forall h t, hlSizes (vlen (cmDim (spC t))) h -> exists t', spUpdate h t = Ok t'.
Proof. exact setpoint_defined. Qed.
Print Assumptions C55_defined.
(** On the second robot, whose variable is number 2: gain 4, dimension weight 5, weight 3, error 2, speed 1, normal acceleration 1. *)
Example C55_used : exists t0 t t', newSP wMbs 1 1 (ones 1) 1 = Ok t0 /\ spRun sOps t0 = Ok t /\ spUpdate (hl1 2 1 1) t = Ok t' /\
  forall x y, taskCost (commonTask (spC t')) x - taskCost (commonTask (spC t')) y = 15 / 2 * ((x 2%nat + 1 - 4) ^ 2 - (y 2%nat + 1 - 4) ^ 2).
Proof.
  destruct sNew as (t0 & N). destruct (sRun t0 N) as (t & Rn & L). destruct (C55_defined (hl1 2 1 1) t) as (t' & U); [rewrite L; apply hl1_sizes|].
  exists t0, t, t'. split; [exact N|]. split; [exact Rn|]. split; [exact U|]. intros x y. rewrite (C55_setpoint _ _ _ _ _ _ _ _ _ _ N Rn U x y).
  rewrite !hl1_ls. cbn -[sqrt]. rewrite sqrt4. field.
Qed.
(** The same for a TrackingTask: a = gainPos errorPos + gainVel errorVel + refAccel, zero vectors until they are given. *)
Theorem C55_tracking : forall mbs r dim gp0 gv0 W0 w0 ops t0 t h t',
  newTrk mbs r dim gp0 gv0 W0 w0 = Ok t0 -> trkRun ops t0 = Ok t -> trkUpdate h t = Ok t' ->
  costs (commonTask (trC t')) (latest trkGiveWeight w0 ops)
    (leastSquares h (latest (trkGiveBegin r) 0%nat ops) (vget (latest trkGiveW W0 ops))
      (fun i => latest trkGiveGP gp0 ops * vget (latest trkGiveEP (vfill dim 0) ops) i +
                latest trkGiveGV gv0 ops * vget (latest trkGiveEV (vfill dim 0) ops) i + vget (latest trkGiveRA (vfill dim 0) ops) i)).
Proof. exact tracking_lemma. Qed.
Print Assumptions C55_tracking.
Example C55_tracking_used : exists t0 t t', newTrk wMbs 1 1 10 20 (ones 1) 1 = Ok t0 /\
  trkRun [TrkNrVars wData; TrkErrorPos (vfill 1 2); TrkErrorVel (vfill 1 3); TrkGains 4 5; TrkRefAccel (vfill 1 6); TrkDim (vfill 1 2)] t0 = Ok t /\ trkUpdate (hl1 0 0 1) t = Ok t' /\
  forall x y, taskCost (commonTask (trC t')) x - taskCost (commonTask (trC t')) y = (x 2%nat + 1 - 29) ^ 2 - (y 2%nat + 1 - 29) ^ 2.
Proof.
  set (ops := [TrkNrVars wData; TrkErrorPos (vfill 1 2); TrkErrorVel (vfill 1 3); TrkGains 4 5; TrkRefAccel (vfill 1 6); TrkDim (vfill 1 2)]).
  assert (Rn : exists t, trkRun ops wTrk0 = Ok t /\ exists t', trkUpdate (hl1 0 0 1) t = Ok t').
  { unfold ops, wTrk0. cbn [trkRun trkStep trC]. rewrite wNV by reflexivity. cbn. eexists. split; [reflexivity|]. apply tracking_defined; try reflexivity. apply hl1_sizes. }
  destruct Rn as (t & Rn & t' & U). exists wTrk0, t, t'. split; [exact wTrk|]. split; [exact Rn|]. split; [exact U|]. intros x y.
  rewrite (C55_tracking _ _ _ _ _ _ _ _ _ _ _ _ wTrk Rn U x y). rewrite !hl1_ls. cbn. field.
Qed.
(** And for a TrajectoryTask: a = K err + D (refVel - speed) + refAccel with the diagonal gains last given to each coordinate. *)
Theorem C55_trajectory : forall mbs r dim gp0 gv0 W0 w0 ops t0 t h t',
  newTrj mbs r dim gp0 gv0 W0 w0 = Ok t0 -> trjRun ops t0 = Ok t -> trjUpdate h t = Ok t' ->
  costs (commonTask (tjC t')) (latest trjGiveWeight w0 ops)
    (leastSquares h (latest (trjGiveBegin r) 0%nat ops) (vget (latest trjGiveW W0 ops))
      (fun i => latest (trjGiveK i) gp0 ops * vget (hErr h) i +
                latest (trjGiveD i) gv0 ops * (latest (trjGiveRV i) 0 ops - vget (hSpeed h) i) + latest (trjGiveRA i) 0 ops)).
Proof. exact trajectory_lemma. Qed.
Print Assumptions C55_trajectory.
Example C55_trajectory_used : exists t0 t t', newTrj wMbs 1 1 10 20 (ones 1) 1 = Ok t0 /\
  trjRun [TrjNrVars wData; TrjStiffness 3; TrjDampingV (vfill 1 4); TrjRefVel (vfill 1 5); TrjRefAccel (vfill 1 6); TrjWeight 2] t0 = Ok t /\ trjUpdate (hl1 7 3 1) t = Ok t' /\
  forall x y, taskCost (commonTask (tjC t')) x - taskCost (commonTask (tjC t')) y = (x 2%nat + 1 - 35) ^ 2 - (y 2%nat + 1 - 35) ^ 2.
Proof.
  set (ops := [TrjNrVars wData; TrjStiffness 3; TrjDampingV (vfill 1 4); TrjRefVel (vfill 1 5); TrjRefAccel (vfill 1 6); TrjWeight 2]).
  assert (Rn : exists t, trjRun ops wTrj0 = Ok t /\ exists t', trjUpdate (hl1 7 3 1) t = Ok t').
  { unfold ops, wTrj0. cbn [trjRun trjStep tjC]. rewrite wNV by reflexivity. cbn. eexists. split; [reflexivity|]. apply trajectory_defined; try reflexivity. apply hl1_sizes. }
  destruct Rn as (t & Rn & t' & U). exists wTrj0, t, t'. split; [exact wTrj|]. split; [exact Rn|]. split; [exact U|]. intros x y.
  rewrite (C55_trajectory _ _ _ _ _ _ _ _ _ _ _ _ wTrj Rn U x y). rewrite !hl1_ls. cbn. field.
Qed.

(** C56: if at all times x minimises the cost of the updated task and the desired acceleration can be attained, then each task error is
    (e0 + (sqrt k e0 - v0) s) exp(-sqrt k s): it converges to 0, and it crosses zero at most once unless it is always zero. *)
Theorem C56_converges : forall mbs r k0 W0 w0 ops t0 t h x i k b W,
  newSP mbs r k0 W0 w0 = Ok t0 -> spRun ops t0 = Ok t ->
  k = latest spGiveK k0 ops -> b = latest (spGiveBegin r) 0%nat ops -> W = latest spGiveW W0 ops ->
  0 < k -> 0 < latest spGiveWeight w0 ops -> (forall j, (j < vlen W)%nat -> 0 < vget W j) -> (i < vlen W)%nat ->
  (forall s, 0 <= s -> exists t', spUpdate (h s) t = Ok t' /\ minimises (commonTask (spC t')) (x s) /\
     attainable (h s) b (fun j => k * vget (hErr (h s)) j - 2 * sqrt k * vget (hSpeed (h s)) j)) ->
  (forall s, 0 <= s -> derivable_pt_lim (fun s => vget (hErr (h s)) i) s (- vget (hSpeed (h s)) i)) ->
  (forall s, 0 <= s -> derivable_pt_lim (fun s => vget (hSpeed (h s)) i) s (taskAcc (h s) b (x s) i)) ->
  let e s := vget (hErr (h s)) i in
  (forall s, 0 <= s -> e s = (e 0 + (sqrt k * e 0 - vget (hSpeed (h 0)) i) * s) * exp (- sqrt k * s)) /\
  (forall eps, 0 < eps -> exists T, forall s, T <= s -> Rabs (e s) < eps) /\
  (forall s1 s2, 0 <= s1 < s2 -> e s1 = 0 -> e s2 = 0 -> forall s, 0 <= s -> e s = 0).
Proof. exact converges_lemma. Qed.
Print Assumptions C56_converges.
(** Gain 1, from error 1 at rest: such a closed loop exists, the error is (1 + s) exp(-s). *)
Example C56_used : exists t0, newSP wMbs 1 1 (ones 1) 1 = Ok t0 /\
  (forall s, 0 <= s -> exists t', spUpdate (cH s) t0 = Ok t' /\ minimises (commonTask (spC t')) (cX s) /\
     attainable (cH s) 0 (fun j => 1 * vget (hErr (cH s)) j - 2 * sqrt 1 * vget (hSpeed (cH s)) j)) /\
  (forall eps, 0 < eps -> exists T, forall s, T <= s -> Rabs ((1 + s) * exp (- 1 * s)) < eps).
Proof.
  destruct sNew as (t0 & N). exists t0. split; [exact N|].
  assert (U : forall s, 0 <= s -> exists t', spUpdate (cH s) t0 = Ok t' /\ minimises (commonTask (spC t')) (cX s) /\
     attainable (cH s) 0 (fun j => 1 * vget (hErr (cH s)) j - 2 * sqrt 1 * vget (hSpeed (cH s)) j)).
  { intros s Hs. assert (D : vlen (cmDim (spC t0)) = 1%nat) by (apply newSP_Ok in N as (_ & _ & _ & -> & _); auto).
    destruct (C55_defined (cH s) t0) as (t' & U). { rewrite D. apply hl1_sizes. }
    exists t'. split; [exact U|]. split; [|apply hl1_attain].
    pose proof (C55_setpoint wMbs 1%nat 1 (ones 1) 1 [] t0 t0 (cH s) t' N eq_refl U) as C. apply (hl1_min _ _ _ _ _ _ _ _ (cX s) C); cbn -[sqrt]; [lra|lra|].
    rewrite sqrt_1. unfold cX, cE, cV. ring. }
  split; [exact U|].
  refine (proj1 (proj2 (C56_converges wMbs 1%nat 1 (ones 1) 1 [] t0 t0 cH cX 0%nat 1 0%nat (ones 1) N eq_refl eq_refl eq_refl eq_refl _ _ _ _ U _ _))).
  - lra.
  - cbn. lra.
  - intros; cbn; lra.
  - cbn. lia.
  - intros s _. exact (cDe s).
  - intros s _. eapply dlim_eq; [exact (cDv s)|reflexivity|]. unfold cH. rewrite hl1_acc. unfold cX. ring.
Qed.

(** C57 is false: the second of two updates with the same inputs works on the error left by the first one. *)
Theorem C57_refuted : exists t0 h t1 t2, newPid wMbs 1 1 2 0 0 (ones 1) 1 = Ok t0 /\
  pidUpdate h (pidError (vfill 1 1) t0) = Ok t1 /\ pidUpdate h t1 = Ok t2 /\ vget (cmC (pdC t1)) 0 <> vget (cmC (pdC t2)) 0.
Proof.
  eexists _, (hl1 0 0 0), _, _. split; [exact (wPid _ _ _)|]. split; [reflexivity|]. split; [reflexivity|]. cbn. unfold sumn. cbn. lra.
Qed.
Print Assumptions C57_refuted.
(** What holds: one update poses the problem with a = P error - D errorD - I errorI and replaces the member error by a - normalAcc;
    nothing else that an update reads changes. *)
Theorem C57_exact : forall h t t', pidUpdate h t = Ok t' ->
  costs (commonTask (pdC t')) (cmWeight (pdC t)) (leastSquares h (cmBegin (pdC t)) (vget (cmDim (pdC t)))
    (fun i => pdP t * vget (pdE t) i - pdD t * vget (pdED t) i - pdI t * vget (pdEI t) i)) /\
  (forall i, vget (pdE t') i = pdP t * vget (pdE t) i - pdD t * vget (pdED t) i - pdI t * vget (pdEI t) i - vget (hNAcc h) i) /\
  pdP t' = pdP t /\ pdI t' = pdI t /\ pdD t' = pdD t /\ pdED t' = pdED t /\ pdEI t' = pdEI t /\
  cmWeight (pdC t') = cmWeight (pdC t) /\ cmDim (pdC t') = cmDim (pdC t) /\ cmBegin (pdC t') = cmBegin (pdC t).
Proof. exact pid_lemma. Qed.
Print Assumptions C57_exact.
(** So with error() given again before each update, the same inputs give the same Q and C. *)
Theorem C57_given : forall h e t t1 t2, pidUpdate h (pidError e t) = Ok t1 -> pidUpdate h (pidError e t1) = Ok t2 ->
  cmQ (pdC t1) = cmQ (pdC t2) /\ cmC (pdC t1) = cmC (pdC t2).
Proof. exact pid_given. Qed.
Print Assumptions C57_given.
Example C57_used : exists t0 t1 t2, newPid wMbs 1 1 2 3 4 (ones 1) 1 = Ok t0 /\ pidUpdate (hl1 0 0 5) (pidError (vfill 1 6) t0) = Ok t1 /\
  pidUpdate (hl1 0 0 5) (pidError (vfill 1 6) t1) = Ok t2 /\ vget (cmC (pdC t2)) 0 = - 7.
Proof. eexists _, _, _. split; [exact (wPid _ _ _)|]. split; [reflexivity|]. split; [reflexivity|]. cbn. unfold sumn. cbn. lra. Qed.

(** C58. The update poses the least-squares problem of the acceleration phi and counts one period. *)
Theorem C58_cost : forall h t t', tgUpdate h t = Ok t' ->
  costs (commonTask (tgC t')) (cmWeight (tgC t)) (leastSquares h (cmBegin (tgC t)) (vget (cmDim (tgC t))) (vget (tgPhi t'))) /\
  tgDuration t' = tgDuration t - tgDt t.
Proof. exact target_cost. Qed.
Print Assumptions C58_cost.
(** The motion planned by an update: from the speed of the task, with an acceleration going linearly from phi to psi, at the end
    of the duration the displacement is the error and the velocity is objDot. *)
Theorem C58_plan : forall h t t' i p v, tgUpdate h t = Ok t' -> 0 < tgDuration t ->
  p 0 = 0 -> v 0 = vget (hSpeed h) i ->
  (forall s, 0 <= s <= tgDuration t -> derivable_pt_lim p s (v s)) ->
  (forall s, 0 <= s <= tgDuration t -> derivable_pt_lim v s (vget (tgPhi t') i + (vget (tgPsi t') i - vget (tgPhi t') i) * s / tgDuration t)) ->
  p (tgDuration t) = vget (hErr h) i /\ v (tgDuration t) = vget (tgObj t) i.
Proof. exact target_plan. Qed.
Print Assumptions C58_plan.
Example C58_plan_used : exists t' p v, tgUpdate (hl1 1 2 0) (tg0 4) = Ok t' /\ p 0 = 0 /\ v 0 = 2 /\ (forall s, 0 <= s <= tgDuration (tg0 4) -> derivable_pt_lim p s (v s)) /\
  (forall s, 0 <= s <= tgDuration (tg0 4) -> derivable_pt_lim v s (vget (tgPhi t') 0 + (vget (tgPsi t') 0 - vget (tgPhi t') 0) * s / tgDuration (tg0 4))) /\ p (tgDuration (tg0 4)) = 1.
Proof.
  assert (D : tgDuration (tg0 4) = 4) by (unfold tgDuration; cbn; ring). destruct (tgUpdate_defined (hl1 1 2 0) (tg0 4)) as (_ & (t' & U)); try reflexivity; [apply hl1_sizes|cbn; lra|cbn; lia|].
  destruct (plan_motion 2 (vget (tgPhi t') 0) (vget (tgPsi t') 0) (tgDuration (tg0 4))) as (p & v & P & V & Dp & Dv); [rewrite D; lra|]. exists t', p, v.
  repeat (split; [solve [auto]|]). apply (C58_plan _ _ _ 0%nat p v U); auto. rewrite D. lra.
Qed.
(** Following the plan for a period and planning again gives the rest of the same plan. *)
Theorem C58_replan : forall h t t' h' t'' i, tgUpdate h t = Ok t' -> tgUpdate h' t' = Ok t'' ->
  let s := tgDt t in let T := tgDuration t in let a := vget (tgPhi t') i in let c := vget (tgPsi t') i in
  vget (hSpeed h') i = vget (hSpeed h) i + a * s + (c - a) * s ^ 2 / (2 * T) ->
  vget (hErr h') i = vget (hErr h) i - (vget (hSpeed h) i * s + a * s ^ 2 / 2 + (c - a) * s ^ 3 / (6 * T)) ->
  vget (tgPhi t'') i = a + (c - a) * s / T /\ vget (tgPsi t'') i = c.
Proof. exact replan_lemma. Qed.
Print Assumptions C58_replan.
Example C58_replan_used : exists t' h' t'', tgUpdate (hl1 1 2 0) (tg0 4) = Ok t' /\ tgUpdate h' t' = Ok t'' /\
  vget (tgPhi t'') 0 = vget (tgPhi t') 0 + (vget (tgPsi t') 0 - vget (tgPhi t') 0) * 1 / 4.
Proof.
  assert (D : tgDuration (tg0 4) = 4) by (unfold tgDuration; cbn; ring). destruct (tgUpdate_defined (hl1 1 2 0) (tg0 4)) as (_ & (t' & U)); try reflexivity; [apply hl1_sizes|cbn; lra|cbn; lia|].
  set (a := vget (tgPhi t') 0). set (c := vget (tgPsi t') 0). set (h' := hl1 (1 - (2 * 1 + a * 1 ^ 2 / 2 + (c - a) * 1 ^ 3 / (6 * tgDuration (tg0 4)))) (2 + a * 1 + (c - a) * 1 ^ 2 / (2 * tgDuration (tg0 4))) 0).
  destruct (tgUpdate_again _ _ _ h' U) as (t'' & U'); [apply hl1_sizes|reflexivity|cbn; lra|cbn; lia|]. exists t', h', t''. split; [exact U|]. split; [exact U'|].
  destruct (C58_replan _ _ _ _ _ 0%nat U U') as (E & _); [reflexivity|reflexivity|]. rewrite E, D. reflexivity.
Qed.
(** The loop actually run, the acceleration being held during each period: with three periods or more the task reaches
    its objective exactly, at any duration and from any state. *)
Theorem C58_reach : forall n tg h x i, targetLoop n tg h x ->
  0 < cmWeight (tgC (tg 0%nat)) -> (forall i, (i < vlen (cmDim (tgC (tg 0%nat))))%nat -> 0 < vget (cmDim (tgC (tg 0%nat))) i) ->
  (forall j, (j < n)%nat -> attainable (h j) (cmBegin (tgC (tg 0%nat))) (vget (tgPhi (tg (S j))))) ->
  (3 <= n)%nat -> tgN (tg 0%nat) = (tgIter (tg 0%nat) + Z.of_nat n)%Z -> (i < vlen (cmDim (tgC (tg 0%nat))))%nat ->
  vget (hErr (h n)) i = 0 /\ vget (hSpeed (h n)) i = vget (tgObj (tg 0%nat)) i.
Proof. exact (fun n tg h x i L Hw HW At => loop_reach n tg h x L Hw HW At i). Qed.
Print Assumptions C58_reach.
Example C58_used : forall m, exists t0, newTgt wMbs 1 1 1 (INR (3 + m)) (vfill 1 0) (ones 1) 1 = Ok t0 /\ t0 = mT (Z.of_nat (3 + m)) 0 /\
  targetLoop (3 + m) (mT (Z.of_nat (3 + m))) (mH (Z.of_nat (3 + m))) (mX (Z.of_nat (3 + m))) /\
  vget (hErr (mH (Z.of_nat (3 + m)) 0)) 0 = 1 /\ vget (hErr (mH (Z.of_nat (3 + m)) (3 + m))) 0 = 0.
Proof.
  intros m. exists (tg0 (Z.of_nat (3 + m))). split; [exact (tg_new (3 + m))|]. split; [reflexivity|].
  pose proof (mLoop (Z.of_nat (3 + m)) (3 + m) (Z.le_refl _)) as L. split; [exact L|]. split; [reflexivity|].
  refine (proj1 (C58_reach (3 + m) _ _ _ 0%nat L _ _ _ _ _ _)); [cbn; lra|intros; cbn; lra|intros; apply hl1_attain|lia|cbn; lia|cbn; lia].
Qed.
(** With one or two periods it does so exactly when a constant acceleration would: 2 err = duration (speed + objDot). *)
Theorem C58_short : forall n tg h x i, targetLoop n tg h x ->
  0 < cmWeight (tgC (tg 0%nat)) -> (forall i, (i < vlen (cmDim (tgC (tg 0%nat))))%nat -> 0 < vget (cmDim (tgC (tg 0%nat))) i) ->
  (forall j, (j < n)%nat -> attainable (h j) (cmBegin (tgC (tg 0%nat))) (vget (tgPhi (tg (S j))))) ->
  (1 <= n <= 2)%nat -> tgN (tg 0%nat) = (tgIter (tg 0%nat) + Z.of_nat n)%Z -> (i < vlen (cmDim (tgC (tg 0%nat))))%nat ->
  (vget (hErr (h n)) i = 0 /\ vget (hSpeed (h n)) i = vget (tgObj (tg 0%nat)) i <->
   2 * vget (hErr (h 0%nat)) i = tgDuration (tg 0%nat) * (vget (hSpeed (h 0%nat)) i + vget (tgObj (tg 0%nat)) i)).
Proof. exact (fun n tg h x i L Hw HW At => loop_short n tg h x L Hw HW At i). Qed.
Print Assumptions C58_short.
(** So C58 is false as stated: two periods from error 1 at rest. *)
Theorem C58_refuted : exists n tg h x, newTgt wMbs 1 1 1 (INR n) (vfill 1 0) (ones 1) 1 = Ok (tg 0%nat) /\ targetLoop n tg h x /\ tgDuration (tg 0%nat) = 2 /\
  tgDuration (tg n) = 0 /\ ~ (vget (hErr (h n)) 0 = 0 /\ vget (hSpeed (h n)) 0 = vget (tgObj (tg 0%nat)) 0).
Proof.
  exists 2%nat, (mT 2), (mH 2), (mX 2). pose proof (mLoop 2 2 (Z.le_refl _)) as L. split; [exact (tg_new 2)|]. split; [exact L|]. split; [unfold tgDuration; cbn; lra|]. split.
  - destruct (tgSeq_Ok (mH 2) (mH_form 2) 2 2) as (_ & _ & _ & _ & _ & It & N & _); [lia|]. fold (mT 2 2) in *. unfold tgDuration. rewrite It, N. cbn. ring.
  - rewrite (C58_short 2 _ _ _ 0%nat L); [cbn; unfold tgDuration; cbn; lra|cbn; lra|intros; cbn; lra|intros; apply hl1_attain|lia|reflexivity|cbn; lia].
Qed.
Print Assumptions C58_refuted.
(** The duration is the one asked, to half a time step. *)
Theorem C58_duration : forall d t t', 0 < tgDt t -> tgSetDuration d t = Ok t' -> tgIter t' = 0%Z /\ Rabs (tgDuration t' - d) <= tgDt t / 2.
Proof. exact duration_lemma. Qed.
Print Assumptions C58_duration.

(** C86: the objective of the QP of any number of updated SetPointTasks is the sum of their weighted least-squares problems,
    up to a constant and the regularisation of the solver. *)
Theorem C86_objective : forall ts fs n Q C, Forall2 spMeaning ts fs ->
  fillQC (map (fun s => commonTask (spC s)) ts) n (mzero n n) (vfill n 0) = Ok (Q, C) -> forall x y,
  (quad n (mget Q) x / 2 + lin n (vget C) x) - (quad n (mget Q) y / 2 + lin n (vget C) y) =
  sumR (map (fun wf : R * ((nat -> R) -> R) => fst wf * (snd wf x - snd wf y)) fs) +
  (regCost n (map (fun s => commonTask (spC s)) ts) x - regCost n (map (fun s => commonTask (spC s)) ts) y).
Proof. exact setpoints_objective. Qed.
Print Assumptions C86_objective.
Example C86_used : exists s f, spMeaning s (3, f) /\ (exists Q C, fillQC (map (fun s => commonTask (spC s)) [s; s]) 3 (mzero 3 3) (vfill 3 0) = Ok (Q, C)) /\
  forall x y, f x - f y = 5 / 2 * ((x 2%nat + 1 - 4) ^ 2 - (y 2%nat + 1 - 4) ^ 2).
Proof. exact setpoints_used. Qed.

(** C87 is false: once its duration has elapsed, the next update divides by zero. *)
Theorem C87_elapsed : forall h t, tgIter t = tgN t -> tgUpdate h t = UB.
Proof. exact tgUpdate_elapsed. Qed.
Print Assumptions C87_elapsed.
Theorem C87_refuted : exists n tg h x, newTgt wMbs 1 1 1 (INR n) (vfill 1 0) (ones 1) 1 = Ok (tg 0%nat) /\ targetLoop n tg h x /\ n = 4%nat /\ forall h', tgUpdate h' (tg n) = UB.
Proof.
  exists 4%nat, (mT 4), (mH 4), (mX 4). split; [exact (tg_new 4)|]. split; [exact (mLoop 4 4 (Z.le_refl _))|]. split; [reflexivity|]. intros h'. apply C87_elapsed.
  destruct (tgSeq_Ok (mH 4) (mH_form 4) 4 4) as (_ & _ & _ & _ & _ & It & N & _); [lia|]. fold (mT 4 4) in *. rewrite It, N. reflexivity.
Qed.
Print Assumptions C87_refuted.
(** That is the only moment: with matching sizes and a time step, update is defined exactly when the duration has not just elapsed. *)
Theorem C87_exact : forall h t, hlSizes (vlen (cmDim (tgC t))) h -> (vlen (hErr h) <= vlen (tgObj t))%nat -> vlen (tgPhi t) = vlen (hErr h) -> vlen (tgPsi t) = vlen (hErr h) ->
  tgDt t <> 0 -> ((exists t', tgUpdate h t = Ok t') <-> tgIter t <> tgN t).
Proof. exact tgUpdate_defined. Qed.
Print Assumptions C87_exact.
Example C87_used : exists t', tgUpdate (hl1 1 0 0) (tg0 4) = Ok t'.
Proof. apply C87_exact; [apply hl1_sizes|cbn; lia|reflexivity|reflexivity|cbn; lra|cbn; lia]. Qed.
