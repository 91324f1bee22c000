From Verif Require Import SelectorSpec LayoutSpec LayoutProofs ContactRowsProofs SetPointFacts.
From Coq Require Import Permutation Lra.
Open Scope list_scope.
Open Scope R_scope.
Local Arguments sumn : simpl never.

Lemma insertSel_perm a l : Permutation (insertSel a l) (a :: l).
Proof. induction l as [|b l IH]; cbn [insertSel]; [apply Permutation_refl|]. destruct (Nat.ltb (fst b) (fst a)); [|apply Permutation_refl]. apply perm_trans with (b :: a :: l); [apply perm_skip; auto|apply perm_swap]. Qed.
Lemma sortSel_perm l : Permutation (sortSel l) l.
Proof. induction l as [|a l IH]; [apply Permutation_refl|]. unfold sortSel in *. cbn [fold_right]. apply perm_trans with (a :: fold_right insertSel [] l); [apply insertSel_perm|apply perm_skip; auto]. Qed.

Definition inSel (sd : list (nat * nat)) (c : nat) : Prop := exists p n, In (p, n) sd /\ (p <= c < p + n)%nat.
Lemma copyLoop_Ok J sd : forall M M', copyLoop J sd M = Ok M' -> mrows M' = mrows M /\ mcols M' = mcols M /\
  (forall i c, (i < mrows M)%nat -> (inSel sd c -> mget M' i c = mget J i c) /\ (~ inSel sd c -> mget M' i c = mget M i c)).
Proof.
  induction sd as [|(p, n) sd IH]; intros M M' H; cbn in H.
  - injection H as <-. split; [auto|]. split; [auto|]. intros i c Hi. split; [intros (p & n & [] & _)|auto].
  - apply bind_Ok in H as (b & Hb & H). apply bind_Ok in H as (M1 & H1 & H). apply mblock_Ok in Hb as (B1 & B2 & B3 & B4 & B5).
    apply mset_block_Ok in H1 as (C1 & C2 & C3 & C4 & C5). apply IH in H as (D1 & D2 & D3). split; [congruence|]. split; [congruence|].
    intros i c Hi. rewrite C3 in D3. destruct (D3 i c Hi) as (E1 & E2).
    assert (X : mget M1 i c = if inr p n c then mget J i c else mget M i c).
    { rewrite C5, B3, B4. assert (I : inr 0 (mrows M) i = true) by (apply inr_true; lia). rewrite I. cbn [andb]. destruct (inr p n c) eqn:E; auto.
      apply inr_true in E. rewrite B5. f_equal; lia. }
    assert (Dec : inSel sd c \/ ~ inSel sd c).
    { clear. induction sd as [|(q, m) sd IH]; [right; intros (p & n & [] & _)|]. destruct IH as [IH|IH]; [left; destruct IH as (p & n & A & B); exists p, n; cbn; auto|].
      destruct (inr q m c) eqn:E; [left; exists q, m; apply inr_true in E; cbn; auto|right]. apply inr_false in E. intros (p & n & [A|A] & B); [injection A as <- <-; auto|apply IH; exists p, n; auto]. }
    split.
    + intros (q & m & [A|A] & B).
      * injection A as <- <-. destruct Dec as [Y|Y]; [auto|]. rewrite E2, X by auto. apply inr_true in B. rewrite B. auto.
      * apply E1. exists q, m. auto.
    + intros N. rewrite E2, X. * destruct (inr p n c) eqn:E; auto. exfalso. apply N. exists p, n. apply inr_true in E. cbn. auto.
      * intros (q & m & A & B). apply N. exists q, m. cbn. auto.
Qed.
Lemma copyLoop_def J sd : forall M, (forall p n, In (p, n) sd -> (p + n <= mcols M)%nat) -> (mrows M <= mrows J)%nat -> (mcols M <= mcols J)%nat -> exists M', copyLoop J sd M = Ok M'.
Proof.
  induction sd as [|(p, n) sd IH]; intros M H Hr Hc; cbn; [eauto|].
  assert (Hp : (p + n <= mcols M)%nat) by (apply H; cbn; auto).
  destruct (mblock_def J 0 p (mrows M) n) as (b & Hb); [lia|lia|]. rewrite Hb. cbn [bind]. apply mblock_Ok in Hb as (_ & _ & B3 & B4 & _).
  destruct (mset_block_def M 0 p b) as (M1 & H1); [lia|lia|]. rewrite H1. cbn [bind]. apply mset_block_Ok in H1 as (_ & _ & C3 & C4 & _).
  apply IH; rewrite ?C3, ?C4; auto. intros; apply H; cbn; auto.
Qed.

Lemma pushRanges_Ok pos dof rs l : pushRanges pos dof rs = Ok l -> (forall p n, In (p, n) l <-> exists s, In (s, n) rs /\ p = (pos + s)%nat) /\ (forall s n, In (s, n) rs -> (s + n < dof)%nat).
Proof.
  revert l. induction rs as [|(s, n) rs IH]; intros l H; cbn in H.
  - injection H as <-. split; [intros; split; [intros []|intros (s & [] & _)]|intros s n []].
  - apply bind_Ok in H as (u & G & H). apply bind_Ok in H as (l' & H' & H). injection H as <-. apply guard_Ok, Nat.ltb_lt in G. destruct (IH _ H') as (A & B). split.
    + intros p m. cbn. rewrite A. split.
      * intros [E|(s' & E & ->)]; [injection E as <- <-; exists s; auto|exists s'; auto].
      * intros (s' & [E|E] & ->); [injection E as <- <-; auto|right; exists s'; auto].
    + intros s' m [E|E]; [injection E as <- <-; auto|auto].
Qed.
Lemma pushRanges_def pos dof rs : (forall s n, In (s, n) rs -> (s + n < dof)%nat) -> exists l, pushRanges pos dof rs = Ok l.
Proof.
  induction rs as [|(s, n) rs IH]; intros H; cbn [pushRanges]; [eauto|]. replace (Nat.ltb (s + n) dof) with true; [|symmetry; apply Nat.ltb_lt, H; cbn; auto]. cbn [guard bind].
  destruct IH as (l & ->); [intros; apply H; cbn; auto|]. cbn. eauto.
Qed.
Lemma vec_at_nth {A} (l : list A) i a : vec_at l i = Ok a <-> nth_error l i = Some a.
Proof. unfold vec_at. destruct (nth_error l i); split; intros H; try discriminate; injection H as <-; auto. Qed.
Lemma pushJoints_Ok mb names dofs : NoDup (map jname (joints mb)) -> forall l, pushJoints mb names dofs = Ok l ->
  (forall c, inSel l c <-> asked mb names dofs c) /\
  (forall p n, In (p, n) l -> exists i j, nth_error (joints mb) i = Some j /\ (jointPosInDof mb i <= p)%nat /\ (p + n <= jointPosInDof mb i + jdof j)%nat).
Proof.
  intros ND. induction names as [|nm names IH]; intros l H; cbn in H.
  - injection H as <-. split; [intros c; split; [intros (p & n & [] & _)|intros (j & k & _ & [] & _)]|intros p n []].
  - apply bind_Ok in H as (i & Hi & H). apply bind_Ok in H as (j & Hj & H). apply bind_Ok in H as (l1 & H1 & H). apply bind_Ok in H as (l2 & H2 & H). injection H as <-.
    destruct (IH _ H2) as (A & B). apply vec_at_nth in Hj. apply indexByName_sound in Hi as (j' & Hj' & Nm). assert (j' = j) as -> by congruence.
    assert (K : forall c, inSel l1 c <-> exists k, (k < jdof j)%nat /\ c = (jointPosInDof mb i + k)%nat /\ askedDof dofs j k).
    { intros c. unfold askedDof. rewrite Nm. destruct (dfind dofs nm) as [rs|].
      - apply pushRanges_Ok in H1 as (P & Q). split.
        + intros (p & n & I & Hc). apply P in I as (s & I & ->). pose proof (Q _ _ I). exists (c - jointPosInDof mb i)%nat. repeat split; try lia. exists s, n. split; [auto|lia].
        + intros (k & Hk & -> & s & n & I & Hs). exists (jointPosInDof mb i + s)%nat, n. split; [apply P; eauto|lia].
      - injection H1 as <-. split.
        + intros (p & n & [I|[]] & Hc). injection I as <- <-. exists (c - jointPosInDof mb i)%nat. repeat split; lia.
        + intros (k & Hk & -> & _). exists (jointPosInDof mb i), (jdof j). split; [cbn; auto|lia]. }
    split.
    + intros c. split.
      * intros (p & n & I & Hc). apply in_app_or in I as [I|I].
        -- destruct (proj1 (K c)) as (k & Hk & Ec & Ak); [exists p, n; auto|]. exists j, k. split; [exists i; auto|]. split; [left; auto|auto].
        -- destruct (proj1 (A c)) as (j1 & k & D1 & D2 & D3); [exists p, n; auto|]. exists j1, k. split; [auto|]. split; [right; auto|auto].
      * intros (j1 & k & (i1 & E1 & E2 & E3) & [In1|In1] & Ak).
        -- assert (i1 = i) as ->. { pose proof (indexByName_complete _ _ _ ND E1) as F1. pose proof (indexByName_complete _ _ _ ND Hj) as F2. rewrite <- In1, <- Nm, F2 in F1. congruence. }
           assert (j1 = j) as -> by congruence. destruct (proj2 (K c)) as (p & n & I & Hc); [exists k; auto|]. exists p, n. split; [apply in_or_app; auto|auto].
        -- destruct (proj2 (A c)) as (p & n & I & Hc); [exists j1, k; split; [exists i1; auto|auto]|]. exists p, n. split; [apply in_or_app; auto|auto].
    + intros p n I. apply in_app_or in I as [I|I]; [|apply B; auto]. exists i, j. split; [auto|]. destruct (dfind dofs nm) as [rs|].
      * apply pushRanges_Ok in H1 as (P & Q). apply P in I as (s & I & ->). pose proof (Q _ _ I). lia.
      * injection H1 as <-. destruct I as [I|[]]. injection I as <- <-. lia.
Qed.

Lemma slRun_slData Js : forall s s', slRun Js s = Ok s' -> slData s' = slData s /\ mrows (slJac s') = mrows (slJac s) /\ mcols (slJac s') = mcols (slJac s) /\
  (forall i c, (i < mrows (slJac s))%nat -> ~ inSel (slData s) c -> mget (slJac s') i c = mget (slJac s) i c).
Proof.
  induction Js as [|J Js IH]; intros s s' H; cbn in H; [injection H as <-; auto|]. apply bind_Ok in H as (s1 & U & H). unfold slUpdate in U. apply bind_Ok in U as (M & U & E). injection E as <-.
  apply copyLoop_Ok in U as (A & B & C). apply IH in H as (D1 & D2 & D3 & D4). cbn in *. rewrite A in *. split; [auto|]. split; [auto|]. split; [congruence|].
  intros i c Hi Hc. rewrite D4 by auto. apply C; auto.
Qed.
Lemma slRun_app Js Js' : forall s, slRun (Js ++ Js') s = bind (slRun Js s) (slRun Js').
Proof. induction Js as [|J Js IH]; intros s; cbn; auto. destruct (slUpdate J s); cbn; auto. Qed.
Lemma newSel_Ok mbs r dim names dofs s mb : newSel mbs r dim names dofs = Ok s -> nth_error mbs r = Some mb -> NoDup (map jname (joints mb)) ->
  slJac s = mzero dim (nrDof mb) /\ (forall c, inSel (slData s) c <-> asked mb names dofs c) /\ (forall p n, In (p, n) (slData s) -> (p + n <= nrDof mb)%nat).
Proof.
  intros H Hm ND. unfold newSel in H. apply bind_Ok in H as (mb' & A & H). apply vec_at_nth in A. assert (mb' = mb) as -> by congruence. apply bind_Ok in H as (l & L & H). injection H as <-. cbn.
  destruct (pushJoints_Ok _ _ _ ND _ L) as (P & Q). split; [auto|].
  assert (I : forall a, In a (sortSel l) <-> In a l) by (intros a; split; apply Permutation_in; [apply sortSel_perm|apply Permutation_sym, sortSel_perm]).
  split.
  - intros c. rewrite <- P. split; intros (p & n & X & Y); exists p, n; split; auto; apply I; auto.
  - intros p n X. apply I in X. destruct (Q _ _ X) as (i & j & N & E1 & E2). pose proof (dofBefore_nrDof mb (S i)) as E3. rewrite (dofBefore_S _ _ _ N) in E3. unfold dofBefore in E3. unfold jointPosInDof in E2. lia.
Qed.
Lemma columns_lemma mbs r dim names dofs mb s0 Js J s :
  nth_error mbs r = Some mb -> NoDup (map jname (joints mb)) -> newSel mbs r dim names dofs = Ok s0 -> slRun (Js ++ [J]) s0 = Ok s ->
  restricted dim (nrDof mb) (asked mb names dofs) J (slJac s).
Proof.
  intros Hm ND N H. destruct (newSel_Ok _ _ _ _ _ _ _ N Hm ND) as (Z & P & _). rewrite slRun_app in H. apply bind_Ok in H as (s1 & H1 & H).
  apply slRun_slData in H1 as (A & B & C & D). cbn in H. apply bind_Ok in H as (s2 & U & E). injection E as ->. unfold slUpdate in U. apply bind_Ok in U as (M & U & E). injection E as <-. cbn.
  apply copyLoop_Ok in U as (F1 & F2 & F3). rewrite Z in *. cbn in B, C. split; [congruence|]. split; [congruence|]. intros i c Hi Hc. rewrite A, B in F3. destruct (F3 i c Hi) as (G1 & G2). rewrite <- P. split; [auto|].
  intros Hn. rewrite G2 by auto. rewrite D by auto. reflexivity.
Qed.
Lemma pushJoints_def mb names dofs : (forall nm, In nm names -> In nm (map jname (joints mb))) ->
  (forall nm i j rs s n, In nm names -> jointIndexByName mb nm = Ok i -> nth_error (joints mb) i = Some j -> dfind dofs nm = Some rs -> In (s, n) rs -> (s + n < jdof j)%nat) ->
  exists l, pushJoints mb names dofs = Ok l.
Proof.
  induction names as [|nm names IH]; intros H1 H2; cbn [pushJoints]; [eauto|]. destruct (indexByName_def (joints mb) nm) as (i & Hi); [apply H1; cbn; auto|]. unfold jointIndexByName at 1. rewrite Hi. cbn [bind].
  destruct (indexByName_sound _ _ _ Hi) as (j & Hj & _). rewrite (proj2 (vec_at_nth _ _ _) Hj). cbn [bind]. destruct IH as (l' & Hl'); [intros; apply H1; cbn; auto|intros; eapply H2; eauto; cbn; auto|].
  destruct (dfind dofs nm) as [rs|] eqn:D.
  - destruct (pushRanges_def (jointPosInDof mb i) (jdof j) rs) as (l & Hl); [intros; eapply H2; eauto; cbn; auto|]. rewrite Hl. cbn [bind]. rewrite Hl'. cbn. eauto.
  - cbn [bind]. rewrite Hl'. cbn. eauto.
Qed.
Lemma pushJoints_inv mb dofs names : forall l, pushJoints mb names dofs = Ok l -> forall nm, In nm names ->
  exists i j, jointIndexByName mb nm = Ok i /\ nth_error (joints mb) i = Some j /\ forall rs s n, dfind dofs nm = Some rs -> In (s, n) rs -> (s + n < jdof j)%nat.
Proof.
  induction names as [|a names IH]; intros l H nm I; [destruct I|]. cbn [pushJoints] in H. apply bind_Ok in H as (i & Hi & H). apply bind_Ok in H as (j & Hj & H). apply bind_Ok in H as (l1 & H1 & H). apply bind_Ok in H as (l2 & H2 & H).
  destruct I as [->|I]; [|eapply IH; eauto]. exists i, j. split; [auto|]. split; [apply vec_at_nth; auto|]. intros rs s n D Hs. rewrite D in H1. apply pushRanges_Ok in H1 as (_ & Q). eauto.
Qed.
(** Every range asked for ends before the last degree of freedom of its joint. *)
Lemma selector_defined_iff mbs r dim names dofs mb : nth_error mbs r = Some mb -> NoDup (map jname (joints mb)) ->
  (exists s, newSel mbs r dim names dofs = Ok s) <->
  (forall nm, In nm names -> exists j, In j (joints mb) /\ jname j = nm /\ forall rs s n, dfind dofs nm = Some rs -> In (s, n) rs -> (s + n < jdof j)%nat).
Proof.
  intros Hm ND. unfold newSel. rewrite (proj2 (vec_at_nth _ _ _) Hm). cbn [bind]. split.
  - intros (s & H) nm I. apply bind_Ok in H as (l & L & _). destruct (pushJoints_inv _ _ _ _ L _ I) as (i & j & A & B & C). exists j. apply indexByName_sound in A as (j' & B' & E). assert (j' = j) as -> by congruence.
    split; [eapply nth_error_In; eauto|]. auto.
  - intros H. destruct (pushJoints_def mb names dofs) as (l & L).
    + intros nm I. destruct (H _ I) as (j & A & <- & _). apply in_map; auto.
    + intros nm i j rs s n I A B D Hs. destruct (H _ I) as (j' & A' & E & C). apply In_nth_error in A' as (i' & B'). subst nm. pose proof (indexByName_complete _ _ _ ND B') as F. unfold jointIndexByName in A. rewrite F in A. injection A as <-. assert (j' = j) as -> by congruence. eauto.
    + rewrite L. cbn. eauto.
Qed.
Lemma run_defined mbs r dim names dofs mb s0 Js : nth_error mbs r = Some mb -> NoDup (map jname (joints mb)) -> newSel mbs r dim names dofs = Ok s0 ->
  (forall J, In J Js -> mrows J = dim /\ mcols J = nrDof mb) -> exists s, slRun Js s0 = Ok s.
Proof.
  intros Hm ND N H. destruct (newSel_Ok _ _ _ _ _ _ _ N Hm ND) as (Z & _ & P). assert (Hr : mrows (slJac s0) = dim) by (rewrite Z; auto). assert (Hc : mcols (slJac s0) = nrDof mb) by (rewrite Z; auto). clear N Z. revert s0 P Hr Hc.
  induction Js as [|J Js IH]; intros s0 P Hr Hc; cbn; [eauto|]. unfold slUpdate. destruct (H J) as (A & B); [cbn; auto|].
  destruct (copyLoop_def J (slData s0) (slJac s0)) as (M & E); [intros p n I; rewrite Hc; auto|lia|lia|]. rewrite E. cbn [bind]. apply copyLoop_Ok in E as (C & D & _).
  apply IH; cbn; auto; try congruence. intros; apply H; cbn; auto.
Qed.

Lemma unactive_Ok mbs r dim un ud s mb : unactiveJoints mbs r dim un ud = Ok s -> nth_error mbs r = Some mb ->
  newSel mbs r dim (filter (fun nm => negb (existsb (String.eqb nm) un)) (map jname (joints mb))) [] = Ok s.
Proof. unfold unactiveJoints. intros H Hm. rewrite (proj2 (vec_at_nth _ _ _) Hm) in H. cbn [bind] in H. apply bind_Ok in H as (d & _ & H). auto. Qed.
Lemma filter_un un l nm : In nm (filter (fun nm => negb (existsb (String.eqb nm) un)) l) <-> In nm l /\ ~ In nm un.
Proof.
  rewrite filter_In, negb_true_iff. assert (X : existsb (String.eqb nm) un = true <-> In nm un).
  { rewrite existsb_exists. split; [intros (y & A & B); apply String.eqb_eq in B as ->; auto|intros; exists nm; split; auto; apply String.eqb_refl]. }
  destruct (existsb (String.eqb nm) un); split; intros (A & B); split; auto; [discriminate|exfalso; apply B, X; auto|intros C; apply X in C; discriminate].
Qed.
Lemma isDof_name mb c j k : isDof mb c j k -> In (jname j) (map jname (joints mb)).
Proof. intros (i & A & _). apply in_map. eapply nth_error_In; eauto. Qed.
Lemma unactive_lemma mbs r dim un ud mb s0 Js J s :
  nth_error mbs r = Some mb -> NoDup (map jname (joints mb)) -> unactiveJoints mbs r dim un ud = Ok s0 -> slRun (Js ++ [J]) s0 = Ok s ->
  restricted dim (nrDof mb) (fun c => exists j k, isDof mb c j k /\ ~ In (jname j) un) J (slJac s).
Proof.
  intros Hm ND N H. pose proof (columns_lemma _ _ _ _ _ _ _ _ _ _ Hm ND (unactive_Ok _ _ _ _ _ _ _ N Hm) H) as (A & B & C). split; [auto|]. split; [auto|].
  intros i c Hi Hc. destruct (C i c Hi Hc) as (D & E). split.
  - intros (j & k & P & Q). apply D. exists j, k. split; [auto|]. split; [apply filter_un; split; [eapply isDof_name; eauto|auto]|]. cbn. exact I.
  - intros X. apply E. intros (j & k & P & Q & _). apply X. exists j, k. split; [auto|]. apply filter_un in Q as (_ & Q). auto.
Qed.
Lemma isDof_unique mb c j k j' k' : isDof mb c j k -> isDof mb c j' k' -> j = j' /\ k = k'.
Proof.
  intros (i & A & B & C) (i' & A' & B' & C'). assert (M : forall a b, (a < b)%nat -> forall x, nth_error (joints mb) a = Some x -> (jointPosInDof mb a + jdof x <= jointPosInDof mb b)%nat).
  { intros a b L x X. change (dofBefore mb a + jdof x <= dofBefore mb b)%nat. rewrite <- (dofBefore_S _ _ _ X). clear X. induction L as [|b L IH]; [auto|].
    assert (dofBefore mb b <= dofBefore mb (S b))%nat; [|lia]. destruct (nth_error (joints mb) b) as [y|] eqn:Y; [rewrite (dofBefore_S _ _ _ Y); lia|].
    unfold dofBefore. apply nth_error_None in Y. rewrite !firstn_all2 by lia. lia. }
  destruct (Nat.lt_trichotomy i i') as [L|[->|L]].
  - pose proof (M _ _ L _ A). lia.
  - rewrite A in A'. injection A' as <-. split; [auto|lia].
  - pose proof (M _ _ L _ A'). lia.
Qed.
Lemma restricted_unique m n P Q J M N : restricted m n P J M -> restricted m n Q J N -> (forall c, (c < n)%nat -> P c <-> Q c) -> (forall c, P c \/ ~ P c) ->
  forall i c, (i < m)%nat -> (c < n)%nat -> mget M i c = mget N i c.
Proof.
  intros (_ & _ & A) (_ & _ & B) E D i c Hi Hc. destruct (A i c Hi Hc) as (A1 & A2). destruct (B i c Hi Hc) as (B1 & B2). specialize (E c Hc). destruct (D c) as [X|X].
  - rewrite A1, B1; tauto.
  - rewrite A2, B2; tauto.
Qed.
Lemma complement_lemma mbs r dim names un ud mb s0 s0' Js Js' J s s' :
  nth_error mbs r = Some mb -> NoDup (map jname (joints mb)) -> (forall j, In j (joints mb) -> In (jname j) names <-> ~ In (jname j) un) ->
  activeJoints mbs r dim names [] = Ok s0 -> slRun (Js ++ [J]) s0 = Ok s -> unactiveJoints mbs r dim un ud = Ok s0' -> slRun (Js' ++ [J]) s0' = Ok s' ->
  forall i c, (i < dim)%nat -> (c < nrDof mb)%nat -> mget (slJac s) i c = mget (slJac s') i c.
Proof.
  intros Hm ND Hc A RA U RU. apply (restricted_unique _ _ _ _ J _ _ (columns_lemma _ _ _ _ _ _ _ _ _ _ Hm ND A RA) (unactive_lemma _ _ _ _ _ _ _ _ _ _ Hm ND U RU)).
  - intros c _. split; [intros (j & k & P & Q & _)|intros (j & k & P & Q)]; exists j, k; (split; [auto|]).
    + apply (Hc j); auto. destruct P as (i & P & _). eapply nth_error_In; eauto.
    + split; [|exact I]. apply (Hc j); auto. destruct P as (i & P & _). eapply nth_error_In; eauto.
  - intros c. destruct (newSel_Ok _ _ _ _ _ _ _ A Hm ND) as (_ & X & _). rewrite <- X. generalize (slData s0). clear. intros sd.
    induction sd as [|(q, m) sd IH]; [right; intros (p & n & [] & _)|]. destruct IH as [IH|IH]; [left; destruct IH as (p & n & A & B); exists p, n; cbn; auto|].
    destruct (inr q m c) eqn:E; [left; exists q, m; apply inr_true in E; cbn; auto|right]. apply inr_false in E. intros (p & n & [A|A] & B); [injection A as <- <-; auto|apply IH; exists p, n; auto].
Qed.
Lemma task_lemma mbs r dim names dofs mb s0 Js J s h b W a x y :
  nth_error mbs r = Some mb -> NoDup (map jname (joints mb)) -> newSel mbs r dim names dofs = Ok s0 -> slRun (Js ++ [J]) s0 = Ok s ->
  (forall c, asked mb names dofs c -> x (b + c)%nat = y (b + c)%nat) ->
  leastSquares (slOut h s) b W a x = leastSquares (slOut h s) b W a y.
Proof.
  intros Hm ND N H E. pose proof (columns_lemma _ _ _ _ _ _ _ _ _ _ Hm ND N H) as (A & B & C). destruct (newSel_Ok _ _ _ _ _ _ _ N Hm ND) as (_ & X & _).
  unfold leastSquares, taskAcc. cbn [slOut hJac hNAcc]. rewrite A, B. f_equal. apply sumn_ext. intros i Hi. f_equal. f_equal. f_equal. f_equal. apply sumn_ext. intros c Hc.
  destruct (C i c Hi Hc) as (C1 & C2). destruct (Req_dec (mget (slJac s) i c) 0) as [Z|Z]; [rewrite Z; ring|]. f_equal. apply E.
  assert (D : forall sd, inSel sd c \/ ~ inSel sd c).
  { clear. induction sd as [|(q, m) sd IH]; [right; intros (p & n & [] & _)|]. destruct IH as [IH|IH]; [left; destruct IH as (p & n & A & B); exists p, n; cbn; auto|].
    destruct (inr q m c) eqn:E; [left; exists q, m; apply inr_true in E; cbn; auto|right]. apply inr_false in E. intros (p & n & [A|A] & B); [injection A as <- <-; auto|apply IH; exists p, n; auto]. }
  destruct (D (slData s0)) as [Y|Y]; [apply X; auto|]. exfalso. apply Z, C2. intros Y'. apply Y, X, Y'.
Qed.
Lemma activeDofsOf_iff mb m : (exists a, activeDofsOf mb m = Ok a) <-> forall nm rs, In (nm, rs) m -> In nm (map jname (joints mb)) /\ rs <> [].
Proof.
  induction m as [|(nm, rs) m IH]; cbn [activeDofsOf]; [split; [intros _ ? ? []|eauto]|]. split.
  - intros (a & H) nm' rs' [I|I].
    + injection I as <- <-. apply bind_Ok in H as (i & Hi & H). apply bind_Ok in H as (j & Hj & H). apply bind_Ok in H as (t & T & _). apply indexByName_sound in Hi as (j' & A & <-). split; [apply in_map; eapply nth_error_In; eauto|].
      intros ->. discriminate.
    + apply bind_Ok in H as (i & Hi & H). apply bind_Ok in H as (j & Hj & H). apply bind_Ok in H as (t & T & H). apply bind_Ok in H as (m' & M & _). apply IH; eauto.
  - intros H. destruct (H nm rs) as (A & B); [cbn; auto|]. destruct (indexByName_def _ _ A) as (i & Hi). unfold jointIndexByName. rewrite Hi. cbn [bind]. destruct (indexByName_sound _ _ _ Hi) as (j & Hj & _).
    rewrite (proj2 (vec_at_nth _ _ _) Hj). cbn [bind]. unfold toActive. destruct (rev rs) as [|(s, n) q] eqn:Rv.
    + exfalso. apply B. rewrite <- (rev_involutive rs), Rv. reflexivity.
    + cbn [bind]. destruct (proj2 IH) as (m' & Hm'); [intros; apply H; cbn; auto|]. rewrite Hm'. cbn. eauto.
Qed.
Lemma unactive_dofs_lemma mbs r dim un ud mb : nth_error mbs r = Some mb -> (forall nm rs, In (nm, rs) ud -> In nm (map jname (joints mb)) /\ rs <> []) ->
  unactiveJoints mbs r dim un ud = unactiveJoints mbs r dim un [].
Proof.
  intros Hm H. unfold unactiveJoints. rewrite (proj2 (vec_at_nth _ _ _) Hm). cbn [bind]. destruct (proj2 (activeDofsOf_iff mb ud) H) as (a & ->). reflexivity.
Qed.
Lemma selector_setpoint_lemma mbs r k0 W0 w0 ops t0 t h s t' dim names dofs mb s0 Js J x y :
  nth_error mbs r = Some mb -> NoDup (map jname (joints mb)) -> newSel mbs r dim names dofs = Ok s0 -> slRun (Js ++ [J]) s0 = Ok s ->
  newSP mbs r k0 W0 w0 = Ok t0 -> spRun ops t0 = Ok t -> spUpdate (slOut h s) t = Ok t' ->
  (forall c, asked mb names dofs c -> x (latest (spGiveBegin r) 0%nat ops + c)%nat = y (latest (spGiveBegin r) 0%nat ops + c)%nat) ->
  taskCost (commonTask (spC t')) x = taskCost (commonTask (spC t')) y.
Proof.
  intros Hm ND N H A B C E. pose proof (setpoint_lemma _ _ _ _ _ _ _ _ _ _ A B C x y) as D.
  rewrite (task_lemma _ _ _ _ _ _ _ _ _ _ h _ (vget (latest spGiveW W0 ops)) (fun i => latest spGiveK k0 ops * vget (hErr (slOut h s)) i - 2 * sqrt (latest spGiveK k0 ops) * vget (hSpeed (slOut h s)) i) _ _ Hm ND N H E) in D. lra.
Qed.
(** The complement UnactiveJoints computes always has a range the constructor's assert refuses, unless the excluded ranges reach the last dof. *)
Lemma complement_refused pos dof rs a s n : toActive dof (rs ++ [(s, n)]) = Ok a -> (s + n < dof)%nat -> pushRanges pos dof a = UB.
Proof.
  unfold toActive. rewrite rev_app_distr. cbn [rev app]. intros H L. apply Nat.ltb_lt in L as L'. rewrite L' in H. injection H as <-.
  generalize (gaps 0 (rs ++ [(s, n)])). intros g. induction g as [|(q, m) g IH]; cbn [app pushRanges].
  - replace (Nat.ltb (s + n + (dof - (s + n))) dof) with false; [reflexivity|]. symmetry. apply Nat.ltb_ge. lia.
  - rewrite IH. destruct (guard (Nat.ltb (q + m) dof)) eqn:G; cbn; auto. unfold guard in G. destruct (Nat.ltb (q + m) dof); discriminate.
Qed.

(** A free flyer, a revolute joint and a spherical joint. *)
Definition sMb : multibody := mkMB [mkJoint "ff" 6 7 None; mkJoint "rev" 1 1 None; mkJoint "ball" 3 4 None].
Lemma sMb_nodup : NoDup (map jname (joints sMb)).
Proof. cbn. repeat constructor; cbn; intuition discriminate. Qed.
Definition sJ : mat := mkMat 1 10 (fun _ c => INR (S c)).
Lemma sMb_asked c : asked sMb ["ball"; "ff"]%string [("ff", [(1%nat, 2%nat); (4%nat, 1%nat)])]%string c <-> (c = 1 \/ c = 2 \/ c = 4 \/ c = 7 \/ c = 8 \/ c = 9)%nat.
Proof.
  split.
  - intros (j & k & (i & A & B & ->) & [E|[E|[]]] & D); unfold askedDof in D; rewrite <- E in D; cbn in D.
    + destruct i as [|[|[|i]]]; cbn in A; try (injection A as <-; cbn in *; try discriminate; lia). destruct i; discriminate.
    + destruct i as [|[|[|i]]]; cbn in A; try (injection A as <-; cbn in *; try discriminate). 2: destruct i; discriminate.
      destruct D as (s & n & [F|[F|[]]] & G); injection F as <- <-; lia.
  - intros H. destruct (Nat.lt_ge_cases c 6) as [L|L].
    + exists (mkJoint "ff" 6 7 None), c. split; [exists 0%nat; cbn; auto|]. split; [cbn; auto|]. unfold askedDof. cbn. assert (c = 1 \/ c = 2 \/ c = 4)%nat as [E|[E|E]] by lia; subst c; [exists 1%nat, 2%nat|exists 1%nat, 2%nat|exists 4%nat, 1%nat]; split; auto; lia.
    + exists (mkJoint "ball" 3 4 None), (c - 7)%nat. split; [exists 2%nat; cbn; repeat split; lia|]. split; [cbn; auto|exact I].
Qed.
