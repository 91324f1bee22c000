(** Properties of the joint selector. *)
From Verif Require Import SelectorFacts SelectorCost SetPointWitness SelectorSpec SetPointFacts.
Open Scope string_scope.
Open Scope list_scope.
Open Scope R_scope.

(** C59: after any number of updates the Jacobian of the selector has the columns of the wrapped task's last Jacobian at the degrees of
    freedom asked for, and zero everywhere else. *)
Theorem C59_columns : forall mbs r dim names dofs mb s0 Js J s,
  nth_error mbs r = Some mb -> NoDup (map jname (joints mb)) -> newSel mbs r dim names dofs = Ok s0 -> slRun (Js ++ [J]) s0 = Ok s ->
  restricted dim (nrDof mb) (asked mb names dofs) J (slJac s).
Proof. exact columns_lemma. Qed.
Print Assumptions C59_columns.
(** Updates are defined for every Jacobian of the task's and the robot's sizes. *)
Theorem C59_defined : forall mbs r dim names dofs mb s0 Js,
  nth_error mbs r = Some mb -> NoDup (map jname (joints mb)) -> newSel mbs r dim names dofs = Ok s0 ->
  (forall J, In J Js -> mrows J = dim /\ mcols J = nrDof mb) -> exists s, slRun Js s0 = Ok s.
Proof. exact run_defined. Qed.
Print Assumptions C59_defined.
(** A free flyer, of which dofs 1, 2 and 4 are asked for, a revolute joint, not asked for, and a spherical joint, asked for, given in another order. *)
Example C59_used : exists s0 s, newSel [sMb] 0 1 ["ball"; "ff"] [("ff", [(1%nat, 2%nat); (4%nat, 1%nat)])] = Ok s0 /\ slRun ([mzero 1 10] ++ [sJ]) s0 = Ok s /\
  forall c, (c < 10)%nat -> mget (slJac s) 0 c = if existsb (Nat.eqb c) [1; 2; 4; 7; 8; 9]%nat then INR (S c) else 0.
Proof.
  eexists. destruct (C59_defined [sMb] 0 1 ["ball"; "ff"] [("ff", [(1%nat, 2%nat); (4%nat, 1%nat)])] sMb _ ([mzero 1 10] ++ [sJ]) eq_refl sMb_nodup eq_refl) as (s & H); [intros J [<-|[<-|[]]]; split; reflexivity|].
  exists s. split; [reflexivity|]. split; [exact H|]. intros c Hc. destruct (C59_columns [sMb] 0 1 ["ball"; "ff"] [("ff", [(1%nat, 2%nat); (4%nat, 1%nat)])] sMb _ _ _ _ eq_refl sMb_nodup eq_refl H) as (_ & _ & C). destruct (C 0%nat c) as (C1 & C2); [lia|exact Hc|].
  rewrite sMb_asked in C1, C2. destruct (existsb (Nat.eqb c) [1; 2; 4; 7; 8; 9]%nat) eqn:E.
  - apply existsb_exists in E as (y & I & E). apply Nat.eqb_eq in E as ->. cbn in I. apply C1. intuition.
  - apply C2. intros F. assert (T : existsb (Nat.eqb c) [1; 2; 4; 7; 8; 9]%nat = true); [|congruence]. apply existsb_exists. exists c. split; [cbn; intuition|apply Nat.eqb_refl].
Qed.
(** UnactiveJoints selects the dofs of exactly the joints whose names are not given, and so agrees with ActiveJoints of the other names. *)
Theorem C59_unactive : forall mbs r dim un ud mb s0 Js J s,
  nth_error mbs r = Some mb -> NoDup (map jname (joints mb)) -> unactiveJoints mbs r dim un ud = Ok s0 -> slRun (Js ++ [J]) s0 = Ok s ->
  restricted dim (nrDof mb) (fun c => exists j k, isDof mb c j k /\ ~ In (jname j) un) J (slJac s).
Proof. exact unactive_lemma. Qed.
Print Assumptions C59_unactive.
Theorem C59_complement : forall mbs r dim names un ud mb s0 s0' Js Js' J s s',
  nth_error mbs r = Some mb -> NoDup (map jname (joints mb)) -> (forall j, In j (joints mb) -> In (jname j) names <-> ~ In (jname j) un) ->
  activeJoints mbs r dim names [] = Ok s0 -> slRun (Js ++ [J]) s0 = Ok s -> unactiveJoints mbs r dim un ud = Ok s0' -> slRun (Js' ++ [J]) s0' = Ok s' ->
  forall i c, (i < dim)%nat -> (c < nrDof mb)%nat -> mget (slJac s) i c = mget (slJac s') i c.
Proof. exact complement_lemma. Qed.
Print Assumptions C59_complement.
Example C59_complement_used : exists s0 s0' s s', activeJoints [sMb] 0 1 ["ff"; "rev"] [] = Ok s0 /\ slRun [sJ] s0 = Ok s /\
  unactiveJoints [sMb] 0 1 ["ball"] [] = Ok s0' /\ slRun [sJ] s0' = Ok s' /\ mget (slJac s') 0 6 = 7 /\ mget (slJac s') 0 7 = 0 /\
  forall i c, (i < 1)%nat -> (c < 10)%nat -> mget (slJac s) i c = mget (slJac s') i c.
Proof.
  assert (Hc : forall j, In j (joints sMb) -> In (jname j) ["ff"; "rev"] <-> ~ In (jname j) ["ball"]) by (intros j [<-|[<-|[<-|[]]]]; cbn; intuition discriminate).
  eexists. eexists. eexists. eexists. split; [reflexivity|]. split; [reflexivity|]. split; [reflexivity|]. split; [reflexivity|]. split; [cbn; lra|]. split; [reflexivity|].
  exact (C59_complement [sMb] 0 1 ["ff"; "rev"] ["ball"] [] sMb _ _ [] [] sJ _ _ eq_refl sMb_nodup Hc eq_refl eq_refl eq_refl eq_refl).
Qed.
(** A SetPointTask built on the selector does not see the variables of the dofs not asked for. *)
Theorem C59_task : forall mbs r k0 W0 w0 ops t0 t h s t' dim names dofs mb s0 Js J x y,
  nth_error mbs r = Some mb -> NoDup (map jname (joints mb)) -> newSel mbs r dim names dofs = Ok s0 -> slRun (Js ++ [J]) s0 = Ok s ->
  newSP mbs r k0 W0 w0 = Ok t0 -> spRun ops t0 = Ok t -> spUpdate (slOut h s) t = Ok t' ->
  (forall c, asked mb names dofs c -> x (latest (spGiveBegin r) 0%nat ops + c)%nat = y (latest (spGiveBegin r) 0%nat ops + c)%nat) ->
  taskCost (commonTask (spC t')) x = taskCost (commonTask (spC t')) y.
Proof. exact selector_setpoint_lemma. Qed.
Print Assumptions C59_task.
(** It costs what the SetPointTask on the wrapped task costs, with the Jacobian restricted: error, speed and normal acceleration are those of the wrapped task. *)
Theorem C59_cost : forall mbs r k0 W0 w0 ops t0 t h s t' dim names dofs mb s0 Js J,
  nth_error mbs r = Some mb -> NoDup (map jname (joints mb)) -> newSel mbs r dim names dofs = Ok s0 -> slRun (Js ++ [J]) s0 = Ok s ->
  newSP mbs r k0 W0 w0 = Ok t0 -> spRun ops t0 = Ok t -> spUpdate (slOut h s) t = Ok t' ->
  exists M, restricted dim (nrDof mb) (asked mb names dofs) J M /\
    costs (commonTask (spC t')) (latest spGiveWeight w0 ops) (leastSquares (mkHL M (hErr h) (hSpeed h) (hNAcc h)) (latest (spGiveBegin r) 0%nat ops) (vget (latest spGiveW W0 ops))
      (fun i => latest spGiveK k0 ops * vget (hErr h) i - 2 * sqrt (latest spGiveK k0 ops) * vget (hSpeed h) i)).
Proof. exact selector_cost_lemma. Qed.
Print Assumptions C59_cost.
Example C59_task_used : exists s0 s t0 t', newSel [sMb] 0 1 ["rev"] [] = Ok s0 /\ slRun ([] ++ [sJ]) s0 = Ok s /\ newSP [sMb] 0 1 (ones 1) 1 = Ok t0 /\
  spUpdate (slOut (mkHL sJ (vfill 1 2) (vfill 1 3) (vfill 1 4)) s) t0 = Ok t' /\
  (forall x y, x 6%nat = y 6%nat -> taskCost (commonTask (spC t')) x = taskCost (commonTask (spC t')) y) /\
  exists M, costs (commonTask (spC t')) 1 (leastSquares (mkHL M (vfill 1 2) (vfill 1 3) (vfill 1 4)) 0 (vget (ones 1)) (fun i => 1 * vget (vfill 1 2) i - 2 * sqrt 1 * vget (vfill 1 3) i)).
Proof.
  eexists. destruct (C59_defined [sMb] 0 1 ["rev"] [] sMb _ ([] ++ [sJ]) eq_refl sMb_nodup eq_refl) as (s & H); [intros J [<-|[]]; split; reflexivity|].
  destruct (C59_columns [sMb] 0 1 ["rev"] [] sMb _ _ _ _ eq_refl sMb_nodup eq_refl H) as (Rs & _ & _).
  assert (N : exists t0, newSP [sMb] 0 1 (ones 1) 1 = Ok t0) by (unfold newSP; cbn; rewrite two1; cbn; eauto). destruct N as (t0 & N).
  assert (L : cmDim (spC t0) = ones 1) by (apply newSP_Ok in N; tauto).
  destruct (setpoint_defined (slOut (mkHL sJ (vfill 1 2) (vfill 1 3) (vfill 1 4)) s) t0) as (t' & U); [rewrite L; repeat split; exact Rs|].
  exists s, t0, t'. split; [reflexivity|]. split; [exact H|]. split; [exact N|]. split; [exact U|]. split.
  2: { destruct (C59_cost [sMb] 0 1 (ones 1) 1 [] t0 t0 _ s t' 1 ["rev"] [] sMb _ [] sJ eq_refl sMb_nodup eq_refl H N eq_refl U) as (M & _ & Q). exists M. exact Q. }
  intros x y E. apply (C59_task [sMb] 0 1 (ones 1) 1 [] t0 t0 _ s t' 1 ["rev"] [] sMb _ [] sJ x y eq_refl sMb_nodup eq_refl H N eq_refl U).
  intros c (j & k & (i & A & B & ->) & [F|[]] & _). destruct i as [|[|[|i]]]; cbn in A; try (injection A as <-; cbn in *; try discriminate). 2: destruct i; discriminate.
  assert (k = 0%nat) as -> by lia. exact E.
Qed.

(** C88 is false: the unactive dofs given to UnactiveJoints are not excluded. *)
Theorem C88_refuted : exists mbs mb un ud s0 s j c, nth_error mbs 0 = Some mb /\ NoDup (map jname (joints mb)) /\ unactiveJoints mbs 0 1 un ud = Ok s0 /\ slRun [sJ] s0 = Ok s /\
  isDof mb c j 4 /\ (exists rs, dfind ud (jname j) = Some rs /\ In (3%nat, 3%nat) rs) /\ mget (slJac s) 0 c <> 0.
Proof.
  exists [sMb], sMb, [], [("ff", [(3%nat, 3%nat)])]. eexists. eexists. exists (mkJoint "ff" 6 7 None), 4%nat. split; [reflexivity|]. split; [exact sMb_nodup|]. split; [reflexivity|]. split; [reflexivity|].
  split; [exists 0%nat; cbn; repeat split; lia|]. split; [exists [(3%nat, 3%nat)]; cbn; auto|]. cbn. lra.
Qed.
Print Assumptions C88_refuted.
(** They have no effect at all, other than that the call is undefined for a joint the robot does not have or an empty list of ranges. *)
Theorem C88_exact : forall mbs r dim un ud mb, nth_error mbs r = Some mb -> (forall nm rs, In (nm, rs) ud -> In nm (map jname (joints mb)) /\ rs <> []) ->
  unactiveJoints mbs r dim un ud = unactiveJoints mbs r dim un [].
Proof. exact unactive_dofs_lemma. Qed.
Print Assumptions C88_exact.
Example C88_used : exists s, unactiveJoints [sMb] 0 1 ["rev"] [("ff", [(3%nat, 3%nat)])] = Ok s.
Proof. rewrite (C88_exact _ _ _ _ _ sMb); [eexists; reflexivity|reflexivity|]. intros nm rs [E|[]]. injection E as <- <-. split; [cbn; auto|discriminate]. Qed.
(** Handing them on would not be enough: when the excluded ranges stop before the last dof, the complement contains a range C89's assertion refuses. *)
Theorem C88_complement_refused : forall pos dof rs a s n, toActive dof (rs ++ [(s, n)]) = Ok a -> (s + n < dof)%nat -> pushRanges pos dof a = UB.
Proof. exact complement_refused. Qed.
Print Assumptions C88_complement_refused.
Example C88_complement_used : toActive 6 ([(0, 1)%nat] ++ [(2, 1)%nat]) = Ok [(1, 1)%nat; (3, 3)%nat] /\ pushRanges 0 6 [(1, 1)%nat; (3, 3)%nat] = UB.
Proof. split; [reflexivity|]. apply (C88_complement_refused 0 6 [(0, 1)%nat] _ 2 1); [reflexivity|lia]. Qed.

(** C89 is false: a range of dofs that exists but reaches the last dof of the joint, the translation of a free flyer for instance, fails the constructor's assertion. *)
Theorem C89_refuted : exists mbs mb names dofs, nth_error mbs 0 = Some mb /\ NoDup (map jname (joints mb)) /\ (forall nm, In nm names -> In nm (map jname (joints mb))) /\
  (forall j rs s n, In j (joints mb) -> dfind dofs (jname j) = Some rs -> In (s, n) rs -> (s + n <= jdof j)%nat) /\ newSel mbs 0 1 names dofs = UB.
Proof.
  exists [sMb], sMb, ["ff"], [("ff", [(3%nat, 3%nat)])]. split; [reflexivity|]. split; [exact sMb_nodup|]. split; [intros nm [<-|[]]; cbn; auto|]. split; [|reflexivity].
  intros j rs s n [<-|[<-|[<-|[]]]] D I; cbn in D; try discriminate. injection D as <-. destruct I as [E|[]]. injection E as <- <-. cbn. lia.
Qed.
Print Assumptions C89_refuted.
(** The selector can be built exactly when every name is a joint of the robot and every range given for it ends before its last dof. *)
Theorem C89_exact : forall mbs r dim names dofs mb, nth_error mbs r = Some mb -> NoDup (map jname (joints mb)) ->
  (exists s, newSel mbs r dim names dofs = Ok s) <->
  (forall nm, In nm names -> exists j, In j (joints mb) /\ jname j = nm /\ forall rs s n, dfind dofs nm = Some rs -> In (s, n) rs -> (s + n < jdof j)%nat).
Proof. exact selector_defined_iff. Qed.
Print Assumptions C89_exact.
Example C89_used : exists s, newSel [sMb] 0 1 ["ball"; "ff"] [("ff", [(0%nat, 3%nat)])] = Ok s.
Proof.
  apply (proj2 (C89_exact [sMb] 0 1 ["ball"; "ff"] [("ff", [(0%nat, 3%nat)])] sMb eq_refl sMb_nodup)). intros nm [<-|[<-|[]]].
  - exists (mkJoint "ball" 3 4 None). split; [cbn; auto|]. split; [reflexivity|]. intros rs s n D. discriminate.
  - exists (mkJoint "ff" 6 7 None). split; [cbn; auto|]. split; [reflexivity|]. intros rs s n D I. cbn in D. injection D as <-. destruct I as [E|[]]. injection E as <- <-. cbn. lia.
Qed.
