(** Properties of the multi-robot tasks. *)
From Verif Require Import MultiWitness.
From Coq Require Import Lra.
Open Scope string_scope.
Open Scope list_scope.
Open Scope R_scope.

(** C61: after any calls the weights of the robots sum to 1, and the error is the target minus the centre of mass of all bodies of all robots of the
    task, provided the masses are those last given to the constructor or to updateInertialParameters. *)
Theorem C61_multi_com : forall mbs0 rs c0 ops t0 t mbs t', rs <> [] -> newMCoM mbs0 rs c0 = Ok t0 -> mcRun ops t0 = Ok t -> mcEvalUpdate mbs t = Ok t' ->
  sumR (mcWeights t') = 1 /\ (sameMasses mbs (latest mcGiveM mbs0 ops) -> mcEval t' = vsub (latest mcGiveC c0 ops) (groupCoM (groupBodies mbs rs))).
Proof. exact multi_com_lemma. Qed.
Print Assumptions C61_multi_com.
Theorem C61_defined : forall mbs0 rs c0 ops, rs <> [] -> massive rs mbs0 -> Forall (fun o => match o with McInertia m => massive rs m | McUpdate m => massive rs m | McCom _ => True end) ops ->
  exists t0 t, newMCoM mbs0 rs c0 = Ok t0 /\ mcRun ops t0 = Ok t.
Proof. exact multi_com_defined_lemma. Qed.
Print Assumptions C61_defined.
(** Robots 2 and 0 of three; the second body of robot 0 grows from 1 to 5 and its first body moves. *)
Example C61_used : exists t0 t t', newMCoM (cBodies 1 0) [2; 0]%nat v0 = Ok t0 /\ mcRun [McCom (mkV3 1 1 1); McInertia (cBodies 5 0); McUpdate (cBodies 5 3)] t0 = Ok t /\ mcEvalUpdate (cBodies 5 8) t = Ok t' /\
  mcEval t' = mkV3 0 (3 / 8) 0.
Proof.
  destruct (C61_defined (cBodies 1 0) [2; 0]%nat v0 ([McCom (mkV3 1 1 1); McInertia (cBodies 5 0); McUpdate (cBodies 5 3)] ++ [McUpdate (cBodies 5 8)])) as (t0 & t' & N & R).
  - discriminate.
  - apply cMassive; lra.
  - repeat (constructor; [first [exact I|apply cMassive; lra]|]). constructor.
  - cbn [app mcRun] in R. apply bind_Ok in R as (t1 & R1 & R). apply bind_Ok in R as (t2 & R2 & R). apply bind_Ok in R as (t3 & R3 & R). apply bind_Ok in R as (t4 & R4 & R). injection R as ->.
    exists t0, t3, t'. split; [exact N|]. split; [cbn [mcRun]; rewrite R1; cbn [bind]; rewrite R2; cbn [bind]; rewrite R3; reflexivity|]. split; [exact R4|].
    assert (RR : mcRun [McCom (mkV3 1 1 1); McInertia (cBodies 5 0); McUpdate (cBodies 5 3)] t0 = Ok t3) by (cbn [mcRun]; rewrite R1; cbn [bind]; rewrite R2; cbn [bind]; rewrite R3; reflexivity).
    destruct (C61_multi_com (cBodies 1 0) [2; 0]%nat v0 _ t0 t3 (cBodies 5 8) t' ltac:(discriminate) N RR R4) as (_ & E). rewrite E by reflexivity.
    unfold groupCoM, massOf, groupBodies. cbn. apply V3eq; cbn; field.
Qed.

(** C62: the multi-robot tasks are not the least-squares problem of the stacked Jacobian: a joint acceleration that is exactly the one asked for costs more than
    one that is off by as much again. *)
Theorem C62_stacked_refuted : forall com, exists mbs rs k0 W0 t0 ops t d o t' x y, NoDup rs /\ newMT mbs rs k0 W0 1 = Ok t0 /\ mtHist mbs None ops /\ mtRun com ops t0 = Ok t /\ latest mtGiveD None ops = Some d /\ mtUpdate com d o t = Ok t' /\
  0 < latest mtGiveW 1 ops /\ together 3 d rs (mrJacs o) (vget (latest mtGiveDim W0 ops)) (asked (latest mtGiveK k0 ops) o) y = 0 /\
  8 <= together 3 d rs (mrJacs o) (vget (latest mtGiveDim W0 ops)) (asked (latest mtGiveK k0 ops) o) x /\ minimises (mtTask t') x /\ taskCost (mtTask t') x < taskCost (mtTask t') y.
Proof. exact multi_refuted_lemma. Qed.
Print Assumptions C62_stacked_refuted.
(** The problem that is solved, after any calls in which every update uses the data of the last updateNrVars: every robot on its own is to have the whole
    acceleration. MultiRobotTransformTask (false) may name one robot twice, MultiCoMTask (true) may not. *)
Theorem C62_exact : forall com mbs rs k0 W0 w0 t0 ops d o t t', (com = true -> NoDup rs) -> newMT mbs rs k0 W0 w0 = Ok t0 -> mtHist mbs None ops -> mtRun com ops t0 = Ok t -> latest mtGiveD None ops = Some d -> mtUpdate com d o t = Ok t' ->
  costs (mtTask t') (latest mtGiveW w0 ops) (separate d rs (mrJacs o) (vget (latest mtGiveDim W0 ops)) (asked (latest mtGiveK k0 ops) o)).
Proof. exact multi_task_lemma. Qed.
Print Assumptions C62_exact.
Theorem C62_defined : forall com m mbs rs k0 W0 w0 ops, rs <> [] -> Forall (fun r => (r < length mbs)%nat) rs -> 0 <= k0 -> vlen W0 = m -> mtGood m mbs rs None ops ->
  exists t0 t, newMT mbs rs k0 W0 w0 = Ok t0 /\ mtRun com ops t0 = Ok t.
Proof. exact multi_defined_lemma. Qed.
Print Assumptions C62_defined.
Example C62_used : forall com, exists t0 t t', newMT uMbs uRobots 1 uDim 1 = Ok t0 /\ mtRun com uOps t0 = Ok t /\ mtUpdate com uData uOut t = Ok t' /\
  forall x y, taskCost (mtTask t') x - taskCost (mtTask t') y = 3 * ((/ 2 * (x 3%nat - 4) ^ 2 + / 2 * (x 0%nat - 4) ^ 2) - (/ 2 * (y 3%nat - 4) ^ 2 + / 2 * (y 0%nat - 4) ^ 2)).
Proof.
  intros com. destruct (uRuns com) as (t0 & t & t' & N & R & U). exists t0, t, t'. split; [exact N|]. split; [exact R|]. split; [exact U|]. intros x y.
  rewrite (C62_exact com uMbs uRobots 1 uDim 1 t0 uOps uData uOut t t' (fun _ => uNoDup) N uHist R eq_refl U x y). change (latest mtGiveW 1 uOps) with 3. change (vget (latest mtGiveDim uDim uOps)) with (fun _ : nat => 1).
  change (latest mtGiveK 1 uOps) with 4. change (mrJacs uOut) with [uJac; uJac]. rewrite !uSeparate. reflexivity.
Qed.

(** C100: when every robot can have the acceleration asked for, the robots together have it as many times as there are robots, at every minimum. *)
Theorem C100_overshoot : forall com mbs rs k0 W0 w0 t0 ops d o t t' x, (com = true -> NoDup rs) -> newMT mbs rs k0 W0 w0 = Ok t0 -> mtHist mbs None ops -> mtRun com ops t0 = Ok t -> latest mtGiveD None ops = Some d -> mtUpdate com d o t = Ok t' ->
  0 < latest mtGiveW w0 ops -> (forall k, 0 < vget (latest mtGiveDim W0 ops) k) -> length (mrJacs o) = length rs -> Forall (fun J => mrows J = vlen (mrEval o)) (mrJacs o) ->
  (exists y, eachAttains d rs (mrJacs o) (asked (latest mtGiveK k0 ops) o) y) -> minimises (mtTask t') x ->
  forall k, (k < vlen (mrEval o))%nat -> jointAcc d rs (mrJacs o) x k = INR (length rs) * asked (latest mtGiveK k0 ops) o k.
Proof. exact multi_minimum_lemma. Qed.
Print Assumptions C100_overshoot.
(** Asked for is 4 * 2 - 4 * 1 = 4 along the first axis; at every minimum the two robots together have 8. *)
Example C100_used : forall com, exists t0 t t', newMT uMbs uRobots 1 uDim 1 = Ok t0 /\ mtRun com uOps t0 = Ok t /\ mtUpdate com uData uOut t = Ok t' /\ asked 4 uOut 0 = 4 /\
  forall x, minimises (mtTask t') x -> jointAcc uData uRobots [uJac; uJac] x 0 = 8.
Proof.
  intros com. destruct (uRuns com) as (t0 & t & t' & N & R & U). exists t0, t, t'. split; [exact N|]. split; [exact R|]. split; [exact U|].
  assert (A : asked 4 uOut 0 = 4) by (unfold asked; rewrite sqrt4; cbn; ring). split; [exact A|]. intros x M.
  pose proof (C100_overshoot com uMbs uRobots 1 uDim 1 t0 uOps uData uOut t t' x (fun _ => uNoDup) N uHist R eq_refl U) as X. change (latest mtGiveK 1 uOps) with 4 in X. change (latest mtGiveW 1 uOps) with 3 in X. change (mrJacs uOut) with [uJac; uJac] in X.
  rewrite (X ltac:(lra) ltac:(intros; cbn; lra) eq_refl ltac:(repeat constructor)); [rewrite A; cbn; ring| |exact M|cbn; lia].
  exists (fun _ => 4). cbn [eachAttains uRobots]. unfold robotAcc, asked. rewrite sqrt4. split; [|split; [|exact I]]; intros k Hk; unfold uJac, sumn; cbn in *; destruct k; cbn; ring.
Qed.
