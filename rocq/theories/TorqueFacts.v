(** Lemmas about TorqueTask. *)
From Verif Require Import MotionProofs MotionLimits ContactRowsProofs SetPointFacts SelectorFacts.
From Verif Require Export TorqueModel MotionSpec SetPointSpec.
From Coq Require Import Lra.
Open Scope list_scope.
Open Scope R_scope.
Local Arguments sumn : simpl never.

(** Specification vocabulary: sizes, weight of a history; the dofs of the joints of a path but the first joint of the robot. *)
Definition ttGiveD (o : ttOp) : option (option solverData) := match o with TtNrVars d => Some (Some d) | _ => None end.
Definition ttGiveW (o : ttOp) : option R := match o with TtWeight w => Some w | _ => None end.
Definition ttData (P : solverData -> Prop) (o : ttOp) : Prop := match o with TtNrVars d => P d | _ => True end.
Definition onPath (mb : multibody) (p : list nat) (c : nat) : Prop :=
  exists i j k, In i p /\ i <> 0%nat /\ nth_error (joints mb) i = Some j /\ (k < jdof j)%nat /\ c = (jointPosInDof mb i + k)%nat.
(** 1/2 sum of the selected squared torques. *)
Definition torqueCost (n : nat) (S : nat -> R) (tau : (nat -> R) -> nat -> R) (x : nat -> R) : R := / 2 * sumn n (fun j => S j * tau x j ^ 2).

Definition ttInv nm mbs r mb (sel : vec R) (w : R) (od : option solverData) (t : torqueTask) : Prop :=
  mBase mbs r mb (ttMC t) /\ ttSel t = sel /\ ttWeight t = w /\ (od = None -> mcABegin (ttMC t) = (-1)%Z) /\ forall d, od = Some d -> sizesOf mbs d /\ exists b, mInv nm mbs r mb d b (ttMC t).
Lemma mInv_base nm mbs r mb d b m : mInv nm mbs r mb d b m -> vlen (mcCur m) = nrDof mb -> mBase mbs r mb m.
Proof. intros [X1 X2 X3 _ _ _ _ (X4 & X5) _ _ _ _ _] H. unfold mBase. auto 10. Qed.
Lemma ttUpdate_Ok mbs dy t t' : ttUpdate mbs dy t = Ok t' -> exists m, computeMatrix mbs dy (ttMC t) = Ok m /\ ttMC t' = m /\ ttSel t' = ttSel t /\ ttWeight t' = ttWeight t /\
  vlen (ttSel t) = mrows (mcA m) /\ vlen (mcC m) = mrows (mcA m) /\ mrows (ttQ t') = mcols (mcA m) /\ mcols (ttQ t') = mcols (mcA m) /\
  (forall i j, mget (ttQ t') i j = sumn (mrows (mcA m)) (fun k => mget (mcA m) k i * (vget (ttSel t) k * mget (mcA m) k j))) /\
  (forall i, vget (ttC t') i = sumn (mrows (mcA m)) (fun k => vget (ttSel t) k * mget (mcA m) k i * vget (mcC m) k)).
Proof.
  unfold ttUpdate. intros H. apply bind_Ok in H as (m & A & H). apply bind_Ok in H as (SM & B & H). apply bind_Ok in H as (Q & D & H). apply bind_Ok in H as (C & E & H). injection H as <-.
  apply diagm_Ok in B as (B1 & B2 & B3 & B4). apply mmul_Ok in D as (_ & D2 & D3 & D4). apply mvec_Ok in E as (E1 & E2 & E3). exists m. cbn [ttMC ttSel ttWeight ttQ ttC] in *. cbn [mtrans mrows mcols mget] in *.
  split; [auto|]. split; [auto|]. split; [auto|]. split; [auto|]. split; [auto|]. split; [congruence|]. split; [congruence|]. split; [congruence|]. split.
  - intros i j. rewrite D4. apply sumn_ext. intros k _. rewrite B4. auto.
  - intros i. rewrite E3, B2. apply sumn_ext. intros k _. rewrite B4. auto.
Qed.
Lemma tt_run nm mbs r mb sel : pathsWf nm mbs -> forall ops w od t t', Forall (ttData (sizesOf mbs)) ops -> ttInv nm mbs r mb sel w od t -> ttRun nm mbs ops t = Ok t' ->
  ttInv nm mbs r mb sel (latest ttGiveW w ops) (latest ttGiveD od ops) t'.
Proof.
  intros PW. induction ops as [|o ops IH]; intros w od t t' F I H; cbn [ttRun] in H; [injection H as <-; exact I|]. apply Forall_cons_iff in F as (F1 & F). apply bind_Ok in H as (t1 & S1 & H).
  destruct I as (B & E1 & E2 & Z & D). assert (X : ttInv nm mbs r mb sel (latest ttGiveW w [o]) (latest ttGiveD od [o]) t1); [|exact (IH _ _ _ _ F X H)]. clear IH H F.
  destruct o as [d|dy|w']; cbn [ttStep] in S1; unfold latest; cbn [fold_left ttGiveW ttGiveD ttData] in *.
  - unfold ttNrVars in S1. apply bind_Ok in S1 as (m & A & S1). injection S1 as <-. destruct (mcNrVars_inv nm mbs r mb d _ _ B A) as (b & IV & Ec & _). unfold ttInv. cbn. split; [|split; [auto|split; [auto|split; [discriminate|]]]].
    + eapply mInv_base; eauto. rewrite Ec. apply B.
    + intros d' [= <-]. eauto.
  - apply ttUpdate_Ok in S1 as (m & A & S2 & S3 & S4 & _). unfold ttInv. rewrite S2, S3, S4. destruct od as [d|].
    + destruct (D d eq_refl) as (SZ & b & IV). destruct (computeMatrix_ok nm mbs r mb d b dy _ SZ PW IV) as (m' & A2 & IV' & Ec & _). assert (m' = m) as -> by congruence. split; [eapply mInv_base; eauto; rewrite Ec; apply B|]. split; [auto|]. split; [auto|]. split; [discriminate|].
      intros d' [= <-]. eauto.
    + exfalso. unfold computeMatrix in A. apply bind_Ok in A as (mb' & _ & A). apply bind_Ok in A as (b & A & _). rewrite (Z eq_refl) in A. discriminate.
  - injection S1 as <-. unfold ttInv. cbn. auto.
Qed.
Lemma tt_new nm mbs r mb sel w t : nth_error mbs r = Some mb -> newTTsel mbs r sel w = Ok t -> ttInv nm mbs r mb sel w None t.
Proof.
  intros Hm H. unfold newTTsel, newMC in H. rewrite (proj2 (SelectorFacts.vec_at_nth _ _ _) Hm) in H. cbn [bind] in H. injection H as <-. unfold ttInv, mBase. cbn. repeat split; auto; discriminate.
Qed.
(** The cost of an update after any history. *)
Lemma torqueLast_lemma nm mbs r mb sel w0 ops t0 t d dy t' : nth_error mbs r = Some mb -> pathsWf nm mbs -> Forall (ttData (sizesOf mbs)) ops ->
  newTTsel mbs r sel w0 = Ok t0 -> ttRun nm mbs ops t0 = Ok t -> latest ttGiveD None ops = Some d -> ttUpdate mbs dy t = Ok t' ->
  costs (ttTask t') (latest ttGiveW w0 ops) (torqueCost (nrDof mb) (vget sel) (invTorqueLast nm mbs d dy r)).
Proof.
  intros Hm PW F N Rn HD U. pose proof (tt_run nm mbs r mb sel PW ops _ _ _ _ F (tt_new nm _ _ _ _ _ _ Hm N) Rn) as (B & E1 & E2 & _ & D). destruct (D d HD) as (SZ & b & IV).
  destruct (computeMatrix_ok nm mbs r mb d b dy _ SZ PW IV) as (m & A & IV' & _ & _ & _ & HC & _ & _ & _ & _ & Row).
  apply ttUpdate_Ok in U as (m' & A' & _ & _ & S4 & L1 & L2 & Q1 & Q2 & HQ & Hc). assert (m' = m) as -> by congruence. rewrite E1 in *.
  assert (K : forall x, taskCost (ttTask t') x = latest ttGiveW w0 ops * (torqueCost (nrDof mb) (vget sel) (invTorqueLast nm mbs d dy r) x - / 2 * sumn (nrDof mb) (fun k => vget sel k * dC dy r k ^ 2))).
  { intros x. unfold taskCost, ttTask. cbn [tkWeight tkQ tkC tkBegin fst snd Nat.add]. rewrite S4, E2. f_equal. rewrite Q1, Q2. destruct (ivA _ _ _ _ _ _ _ IV') as (R1 & _). rewrite R1 in *.
    rewrite (sumn_ext (mcols (mcA m)) _ (fun i => sumn (mcols (mcA m)) (fun j => x i * sumn (nrDof mb) (fun k => mget (mcA m) k i * (vget sel k * mget (mcA m) k j)) * x j))) by (intros i _; apply sumn_ext; intros j _; rewrite HQ; auto).
    rewrite (quadsum (mcols (mcA m)) (nrDof mb) (fun k i => mget (mcA m) k i) (vget sel) x).
    rewrite (sumn_ext (mcols (mcA m)) (fun i => vget (ttC t') i * x i) (fun i => - sumn (nrDof mb) (fun k => mget (mcA m) k i * (vget sel k * - dC dy r k)) * x i)).
    2:{ intros i _. rewrite Hc, HC. cbn [vget]. f_equal. rewrite <- sumn_opp. apply sumn_ext. intros k _. ring. }
    rewrite (linsum (mcols (mcA m)) (nrDof mb) (fun k i => mget (mcA m) k i) (vget sel) (fun k => - dC dy r k) x).
    unfold torqueCost. rewrite <- Rmult_minus_distr_l, <- sumn_minus, <- sumn_opp. unfold Rdiv. rewrite (Rmult_comm _ (/ 2)), <- !sumn_scal, <- sumn_plus. apply sumn_ext. intros k Hk.
    specialize (Row k x Hk). unfold rowdot in Row. rewrite Row. field. }
  intros x y. rewrite !K. ring.
Qed.
Lemma torque_task_lemma nm mbs r mb sel w0 ops t0 t d dy t' : nth_error mbs r = Some mb -> pathsWf nm mbs -> Forall (ttData (fun d => sizesOf mbs d /\ noSelf r d)) ops ->
  newTTsel mbs r sel w0 = Ok t0 -> ttRun nm mbs ops t0 = Ok t -> latest ttGiveD None ops = Some d -> ttUpdate mbs dy t = Ok t' ->
  costs (ttTask t') (latest ttGiveW w0 ops) (torqueCost (nrDof mb) (vget sel) (invTorque nm mbs d dy r)).
Proof.
  intros Hm PW F N Rn HD U. assert (F' : Forall (ttData (sizesOf mbs)) ops) by (eapply Forall_impl; [|exact F]; intros [] ; cbn; tauto).
  assert (S : noSelf r d). { assert (X : forall l od, Forall (ttData (fun d => sizesOf mbs d /\ noSelf r d)) l -> (forall d, od = Some d -> noSelf r d) -> forall d, latest ttGiveD od l = Some d -> noSelf r d).
    { induction l as [|o l IH]; intros od Fl P d' E; [apply P; exact E|]. apply Forall_cons_iff in Fl as (F1 & Fl). eapply (IH (latest ttGiveD od [o])); eauto. destruct o; cbn in *; auto. intros d2 [= <-]. tauto. }
    eapply X; eauto. discriminate. }
  pose proof (torqueLast_lemma nm mbs r mb sel w0 ops t0 t d dy t' Hm PW F' N Rn HD U) as C. intros x y. rewrite C. unfold torqueCost. do 2 f_equal; f_equal; apply sumn_ext; intros; rewrite invTorque_noSelf; auto.
Qed.
(** Definedness of the update. *)
Lemma torque_task_defined nm mbs r mb sel w0 ops t0 t d dy : nth_error mbs r = Some mb -> pathsWf nm mbs -> Forall (ttData (sizesOf mbs)) ops ->
  newTTsel mbs r sel w0 = Ok t0 -> ttRun nm mbs ops t0 = Ok t -> latest ttGiveD None ops = Some d -> (exists t', ttUpdate mbs dy t = Ok t') <-> vlen sel = nrDof mb.
Proof.
  intros Hm PW F N Rn HD. pose proof (tt_run nm mbs r mb sel PW ops _ _ _ _ F (tt_new nm _ _ _ _ _ _ Hm N) Rn) as (B & E1 & E2 & _ & D). destruct (D d HD) as (SZ & b & IV).
  destruct (computeMatrix_ok nm mbs r mb d b dy _ SZ PW IV) as (m & A & IV' & _ & _ & _ & HC & _ & _ & _ & _ & Row). destruct (ivA _ _ _ _ _ _ _ IV') as (R1 & _). split.
  - intros (t' & U). apply ttUpdate_Ok in U as (m' & A' & _ & _ & S4 & L1 & _). assert (m' = m) as -> by congruence. congruence.
  - intros L. unfold ttUpdate. rewrite A. cbn [bind]. unfold diagm. rewrite E1, L, R1, Nat.eqb_refl. cbn [guard bind].
    match goal with |- context [mmul ?a ?b] => destruct (mmul_def a b) as (q & ->); [cbn; auto|] end. cbn [bind].
    match goal with |- context [mvec ?a ?b] => destruct (mvec_def a b) as (c & ->); [cbn; rewrite HC; auto|] end. cbn [bind]. eauto.
Qed.
(** The selection of an end effector. *)
Lemma pathSel_Ok mb p : (forall i, In i p -> (i < length (joints mb))%nat) -> forall sel sel', pathSel mb p sel = Ok sel' -> vlen sel' = vlen sel /\
  forall c, (onPath mb p c -> vget sel' c = 1) /\ (~ onPath mb p c -> vget sel' c = vget sel c).
Proof.
  induction p as [|i p IH]; intros Hp sel sel' H; cbn [pathSel] in H.
  - injection H as <-. split; auto. intros c. split; auto. intros (i & j & k & [] & _).
  - apply bind_Ok in H as (s1 & A & H). destruct (IH (fun k Hk => Hp k (or_intror Hk)) _ _ H) as (L & V).
    assert (Tl : forall c, onPath mb p c -> onPath mb (i :: p) c) by (intros c (i' & j & k & I & X); exists i', j, k; split; [right; auto|auto]).
    destruct (Nat.eqb_spec i 0) as [->|Ni].
    + injection A as <-. split; auto. intros c. destruct (V c) as (V1 & V2). split.
      * intros (i' & j & k & [<-|I] & N0 & X); [congruence|]. apply V1. exists i', j, k. auto.
      * intros X. apply V2. intros Y. apply X; auto.
    + apply bind_Ok in A as (j & Hj & A). apply SelectorFacts.vec_at_nth in Hj. apply vset_seg_Ok in A as (_ & L1 & A). split; [congruence|]. intros c. destruct (V c) as (V1 & V2). cbn [ones vfill vlen vget] in A. split.
      * intros X. assert (D : onPath mb p c \/ ~ onPath mb p c). 
        { destruct (List.existsb (fun i => negb (Nat.eqb i 0) && inr (jointPosInDof mb i) (match nth_error (joints mb) i with Some j => jdof j | None => 0%nat end) c) p) eqn:E.
          - left. apply existsb_exists in E as (i' & I & E). apply andb_true_iff in E as (E1 & E). apply inr_true in E. destruct (nth_error (joints mb) i') as [j'|] eqn:Ej; [|lia]. exists i', j', (c - jointPosInDof mb i')%nat. repeat split; auto; try lia. intros ->. discriminate.
          - right. intros (i' & j' & k & I & N0 & Hj' & Hk & ->). assert (T : List.existsb (fun i => negb (Nat.eqb i 0) && inr (jointPosInDof mb i) (match nth_error (joints mb) i with Some j => jdof j | None => 0%nat end) (jointPosInDof mb i' + k)) p = true); [|congruence].
            apply existsb_exists. exists i'. split; auto. apply andb_true_iff. split; [apply negb_true_iff, Nat.eqb_neq; auto|]. rewrite Hj'. apply inr_true. lia. }
        destruct D as [D|D]; [auto|]. rewrite V2 by auto. destruct X as (i' & j' & k & [<-|I] & N0 & Hj' & Hk & ->).
        -- assert (j' = j) as -> by congruence. rewrite A. replace (inr _ _ _) with true by (symmetry; apply inr_true; lia). auto.
        -- exfalso. apply D. exists i', j', k. auto.
      * intros X. rewrite V2 by auto. rewrite A. destruct (inr (jointPosInDof mb i) (jdof j) c) eqn:E; auto. apply inr_true in E. exfalso. apply X. exists i, j, (c - jointPosInDof mb i)%nat. repeat split; auto; [left; auto|lia|lia].
Qed.
Lemma ef_lemma nm mbs r mb ef w t p : nth_error mbs r = Some mb -> pathsWf nm mbs -> nPath nm r ef = Ok p -> newTTef nm mbs r ef w = Ok t ->
  exists sel, newTTsel mbs r sel w = Ok t /\ vlen sel = nrDof mb /\ forall c, (onPath mb p c -> vget sel c = 1) /\ (~ onPath mb p c -> vget sel c = 0).
Proof.
  intros Hm PW Hp H. unfold newTTef in H. rewrite (proj2 (SelectorFacts.vec_at_nth _ _ _) Hm), Hp in H. cbn [bind] in H. apply bind_Ok in H as (sel & A & H). exists sel. split; [auto|].
  apply pathSel_Ok in A as (L & V); [|apply (PW r mb ef p Hm Hp)]. split; [exact L|]. intros c. specialize (V c). cbn in V. exact V.
Qed.

(** The constructor without selection. *)
Lemma torque_all_lemma nm mbs r mb w0 ops t0 t d dy t' : nth_error mbs r = Some mb -> pathsWf nm mbs -> Forall (ttData (fun d => sizesOf mbs d /\ noSelf r d)) ops ->
  newTT mbs r w0 = Ok t0 -> ttRun nm mbs ops t0 = Ok t -> latest ttGiveD None ops = Some d -> ttUpdate mbs dy t = Ok t' ->
  costs (ttTask t') (latest ttGiveW w0 ops) (torqueCost (nrDof mb) (fun _ => 1) (invTorque nm mbs d dy r)).
Proof.
  intros M P F N R L U. unfold newTT in N. apply bind_Ok in N as (mb' & E & N). unfold vec_at in E. rewrite M in E. injection E as <-.
  exact (torque_task_lemma nm mbs r mb _ w0 ops t0 t d dy t' M P F N R L U).
Qed.
