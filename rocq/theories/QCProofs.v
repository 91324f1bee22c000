(** Lemmas about the objective (fillQC). *)
From Verif Require Import Lists.
From Verif Require Export FillProofs.

Lemma quad_ext n Q Q' x : (forall i j, (i < n)%nat -> (j < n)%nat -> Q i j = Q' i j) -> quad n Q x = quad n Q' x.
Proof. intros H. unfold quad. apply sumn_ext; intros i Hi. apply sumn_ext; intros j Hj. rewrite H; auto. Qed.

Lemma quad_plus n Q1 Q2 x : quad n (fun i j => Q1 i j + Q2 i j) x = quad n Q1 x + quad n Q2 x.
Proof.
  unfold quad. rewrite <- sumn_plus. apply sumn_ext; intros i _. rewrite <- sumn_plus.
  apply sumn_ext; intros j _. ring.
Qed.

(** Quadratic form of a block placed at (b1, b2). *)
Lemma quad_block n B b1 b2 x :
  (b1 + mrows B <= n)%nat -> (b2 + mcols B <= n)%nat ->
  quad n (fun i j => if inr b1 (mrows B) i && inr b2 (mcols B) j then mget B (i - b1)%nat (j - b2)%nat else 0) x =
  sumn (mrows B) (fun i => sumn (mcols B) (fun j => x (b1 + i)%nat * mget B i j * x (b2 + j)%nat)).
Proof.
  intros H1 H2. unfold quad. rewrite (sumn_window n b1 (mrows B)); [|lia|].
  - apply sumn_ext; intros i Hi. rewrite (sumn_window n b2 (mcols B)); [|lia|].
    + apply sumn_ext; intros j Hj.
      replace (inr b1 (mrows B) (b1 + i)) with true by (symmetry; apply inr_true; lia).
      replace (inr b2 (mcols B) (b2 + j)) with true by (symmetry; apply inr_true; lia). simpl.
      replace (b1 + i - b1)%nat with i by lia. replace (b2 + j - b2)%nat with j by lia. reflexivity.
    + intros j Hj Ho. replace (inr b2 (mcols B) j) with false by (symmetry; apply inr_false; lia).
      rewrite andb_false_r. ring.
  - intros i Hi Ho. apply sumn_0. intros j Hj.
    replace (inr b1 (mrows B) i) with false by (symmetry; apply inr_false; lia). simpl. ring.
Qed.

Lemma madd_block_quad Q b1 b2 B Q' n x :
  madd_block Q b1 b2 B = Ok Q' -> mrows Q = n -> mcols Q = n ->
  mrows Q' = n /\ mcols Q' = n /\
  quad n (mget Q') x = quad n (mget Q) x +
    sumn (mrows B) (fun i => sumn (mcols B) (fun j => x (b1 + i)%nat * mget B i j * x (b2 + j)%nat)).
Proof.
  intros H Hr Hc. apply madd_block_Ok in H as (H1 & H2 & H3 & H4 & H5).
  split; [congruence|]. split; [congruence|].
  rewrite <- (quad_block n B b1 b2 x) by lia. rewrite <- quad_plus.
  apply quad_ext; intros i j _ _. rewrite H5. destruct (_ && _); ring.
Qed.

Lemma vadd_seg_lin v b w v' n x :
  vadd_seg v b w = Ok v' -> vlen v = n ->
  vlen v' = n /\ lin n (vget v') x = lin n (vget v) x + sumn (vlen w) (fun i => vget w i * x (b + i)%nat).
Proof.
  intros H Hn. apply vadd_seg_Ok in H as (H1 & H2 & H3). split; [congruence|].
  assert (E : sumn (vlen w) (fun i => vget w i * x (b + i)%nat) =
              sumn n (fun i => (if inr b (vlen w) i then vget w (i - b)%nat else 0) * x i)).
  { rewrite (sumn_window n b (vlen w)); [|lia|].
    - apply sumn_ext; intros i Hi. replace (inr b (vlen w) (b + i)) with true by (symmetry; apply inr_true; lia).
      replace (b + i - b)%nat with i by lia. reflexivity.
    - intros i Hi Ho. replace (inr b (vlen w) i) with false by (symmetry; apply inr_false; lia). ring. }
  rewrite E. unfold lin. rewrite <- sumn_plus. apply sumn_ext; intros i _. rewrite H3.
  destruct (inr _ _ _); ring.
Qed.

Lemma fillTasks_spec ts n Q C Q' C' :
  fillTasks ts Q C = Ok (Q', C') -> mrows Q = n -> mcols Q = n -> vlen C = n ->
  mrows Q' = n /\ mcols Q' = n /\ vlen C' = n /\
  (forall x, qpcost n (mget Q') (vget C') x = qpcost n (mget Q) (vget C) x + tasksCost ts x) /\
  (forall i, mget Q' i i = mget Q i i + diagSum ts i).
Proof.
  revert Q C; induction ts as [|t ts IH]; intros Q C H Hr Hc Hl.
  - simpl in H. inversion H; subst. unfold tasksCost, diagSum; simpl.
    split; [auto|]. split; [auto|]. split; [auto|]. split; intros; ring.
  - cbn [fillTasks] in H. binds H. rename a into Q1, a1 into C1.
    apply guard_Ok in E0. apply Nat.eqb_eq in E0.
    pose proof (madd_block_Ok _ _ _ _ _ E) as (_ & _ & _ & _ & M5).
    assert (Hq := fun x => madd_block_quad _ _ _ _ _ n x E Hr Hc).
    assert (Hv := fun x => vadd_seg_lin _ _ _ _ n x E1 Hl).
    apply IH in H; [|apply (Hq (fun _ => 0))|apply (Hq (fun _ => 0))|apply (Hv (fun _ => 0))].
    destruct H as (I1 & I2 & I3 & I4 & I5). split; [auto|]. split; [auto|]. split; [auto|]. split.
    + intros x. rewrite I4. unfold qpcost. destruct (Hq x) as (_ & _ & ->). destruct (Hv x) as (_ & ->).
      change (tasksCost (t :: ts) x) with (taskCost t x + tasksCost ts x). unfold taskCost. simpl. rewrite E0.
      rewrite (sumn_ext (mrows (tkQ t)) (fun i => sumn (mcols (tkQ t)) (fun j =>
          x (fst (tkBegin t) + i)%nat * (tkWeight t * mget (tkQ t) i j) * x (snd (tkBegin t) + j)%nat))
        (fun i => tkWeight t * sumn (mcols (tkQ t)) (fun j =>
          x (fst (tkBegin t) + i)%nat * mget (tkQ t) i j * x (snd (tkBegin t) + j)%nat)))
        by (intros i _; rewrite <- sumn_scal; apply sumn_ext; intros; ring).
      rewrite sumn_scal.
      rewrite (sumn_ext (mrows (tkQ t)) (fun i => tkWeight t * vget (tkC t) i * x (fst (tkBegin t) + i)%nat)
        (fun i => tkWeight t * (vget (tkC t) i * x (fst (tkBegin t) + i)%nat)))
        by (intros; ring).
      rewrite sumn_scal. lra.
    + intros i. rewrite I5. unfold diagSum. simpl. unfold taskDiag at 2. rewrite M5. simpl.
      destruct (_ && _); ring.
Qed.

Lemma regularize_spec Q i Q' n :
  regularize Q i = Ok Q' -> mrows Q = n -> mcols Q = n ->
  mrows Q' = n /\ mcols Q' = n /\ (i < n)%nat /\
  (forall r c, mget Q' r c = mget Q r c +
     (if Nat.eqb r i && Nat.eqb c i then if Rlt_dec (Rabs (mget Q i i)) DIAG_CONSTANT then DIAG_CONSTANT else 0 else 0)).
Proof.
  unfold regularize. intros H Hr Hc. apply bind_Ok in H as (B & EB & H).
  apply mblock_Ok in EB as (B1 & B2 & B3 & B4 & B5). rewrite B5 in H. rewrite Nat.add_0_r in H.
  destruct (Rlt_dec _ _) as [Hl|Hl].
  - apply madd_block_Ok in H as (H1 & H2 & H3 & H4 & H5). simpl in *.
    split; [congruence|]. split; [congruence|]. split; [lia|]. intros r c. rewrite H5.
    destruct (Nat.eqb r i) eqn:E1; destruct (Nat.eqb c i) eqn:E2;
      rewrite ?Nat.eqb_eq, ?Nat.eqb_neq in *; subst; simpl.
    + replace (inr i 1 i) with true by (symmetry; apply inr_true; lia). simpl. ring.
    + replace (inr i 1 c) with false by (symmetry; apply inr_false; lia). rewrite andb_false_r. ring.
    + replace (inr i 1 r) with false by (symmetry; apply inr_false; lia). simpl. ring.
    + replace (inr i 1 r) with false by (symmetry; apply inr_false; lia). simpl. ring.
  - inversion H; subst. split; [auto|]. split; [auto|]. split; [lia|]. intros r c.
    destruct (_ && _); ring.
Qed.

Lemma regLoop_spec cnt i Q Q' n :
  regLoop cnt i Q = Ok Q' -> mrows Q = n -> mcols Q = n ->
  mrows Q' = n /\ mcols Q' = n /\
  (forall r c, mget Q' r c = mget Q r c +
     (if Nat.eqb r c && inr i cnt r
      then if Rlt_dec (Rabs (mget Q r r)) DIAG_CONSTANT then DIAG_CONSTANT else 0 else 0)).
Proof.
  revert i Q; induction cnt as [|cnt IH]; intros i Q H Hr Hc.
  - simpl in H. inversion H; subst. split; [auto|]. split; [auto|]. intros r c.
    replace (inr i 0 r) with false by (symmetry; apply inr_false; lia). rewrite andb_false_r. ring.
  - cbn [regLoop] in H. binds H. rename a into Q1.
    destruct (regularize_spec _ _ _ _ E Hr Hc) as (R1 & R2 & R3 & R4).
    apply IH in H; auto. destruct H as (I1 & I2 & I3). split; [auto|]. split; [auto|].
    intros r c. rewrite I3, !R4.
    destruct (Nat.eqb r c) eqn:Erc; rewrite ?Nat.eqb_eq, ?Nat.eqb_neq in Erc.
    + subst c. simpl. destruct (Nat.eqb r i) eqn:Eri; rewrite ?Nat.eqb_eq, ?Nat.eqb_neq in Eri.
      * subst r. simpl. replace (inr (S i) cnt i) with false by (symmetry; apply inr_false; lia).
        replace (inr i (S cnt) i) with true by (symmetry; apply inr_true; lia). ring.
      * simpl. rewrite Rplus_0_r.
        replace (inr i (S cnt) r) with (inr (S i) cnt r); [reflexivity|].
        destruct (inr (S i) cnt r) eqn:E2; symmetry; [apply inr_true|apply inr_false];
          [apply inr_true in E2|apply inr_false in E2]; lia.
    + simpl. replace (Nat.eqb r i && Nat.eqb c i) with false; [ring|].
      symmetry. apply andb_false_iff. destruct (Nat.eqb r i) eqn:Eri; [right|left; auto].
      rewrite Nat.eqb_eq in Eri. subst. apply Nat.eqb_neq. auto.
Qed.

Lemma quad_diag n (d : nat -> R) x :
  quad n (fun i j => if Nat.eqb i j then d i else 0) x = sumn n (fun i => d i * (x i * x i)).
Proof.
  unfold quad. apply sumn_ext; intros i Hi. rewrite (sumn_delta n i).
  - rewrite Nat.eqb_refl. ring.
  - auto.
  - intros j Hj Hne. replace (Nat.eqb i j) with false by (symmetry; apply Nat.eqb_neq; auto). ring.
Qed.

Lemma fillQC_spec ts n Q C :
  fillQC ts n (mzero n n) (vfill n 0) = Ok (Q, C) ->
  mrows Q = n /\ mcols Q = n /\ vlen C = n /\
  (forall x, qpcost n (mget Q) (vget C) x = objective n ts x) /\
  (forall i, (i < n)%nat -> mget Q i i = diagSum ts i +
             (if Rlt_dec (Rabs (diagSum ts i)) (/ 10000) then / 10000 else 0)) /\
  (forall x, quad n (mget Q) x = 2 * objective n ts x - 2 * lin n (vget C) x).
Proof.
  unfold fillQC. intros H. binds H. destruct a as [Q1 C1]. binds H.
  inversion H; subst a C1; clear H.
  destruct (fillTasks_spec _ n _ _ _ _ E eq_refl eq_refl eq_refl) as (T1 & T2 & T3 & T4 & T5).
  destruct (regLoop_spec _ _ _ _ n E0 T1 T2) as (R1 & R2 & R3).
  split; [auto|]. split; [auto|]. split; [auto|].
  assert (D : forall i, mget Q1 i i = diagSum ts i) by (intros i; rewrite T5; simpl; ring).
  assert (HO : forall x, qpcost n (mget Q) (vget C) x = objective n ts x).
  { intros x. unfold objective. 
    assert (E1 : quad n (mget Q) x = quad n (mget Q1) x + 2 * regCost n ts x).
    { rewrite (quad_ext n (mget Q) (fun i j => mget Q1 i j + (if Nat.eqb i j then
        (if Rlt_dec (Rabs (diagSum ts i)) DIAG_CONSTANT then DIAG_CONSTANT else 0) else 0))).
      - rewrite quad_plus, quad_diag. f_equal. unfold regCost. rewrite <- sumn_scal.
        apply sumn_ext; intros i _. unfold DIAG_CONSTANT. destruct (Rlt_dec _ _); lra.
      - intros i j Hi Hj. rewrite R3. f_equal.
        replace (inr 0 n i) with true by (symmetry; apply inr_true; lia). rewrite andb_true_r, D. reflexivity. }
    unfold qpcost. rewrite E1.
    specialize (T4 x). unfold qpcost in T4.
    assert (Z1 : quad n (mget (mzero n n)) x = 0).
    { unfold quad, mzero; simpl. apply sumn_0; intros; apply sumn_0; intros; ring. }
    assert (Z2 : lin n (vget (vfill n 0)) x = 0).
    { unfold lin, vfill; simpl. apply sumn_0; intros; ring. }
    rewrite Z1, Z2 in T4. lra. }
  split; [auto|]. split.
  - intros i Hi. rewrite R3, Nat.eqb_refl, D.
    replace (inr 0 n i) with true by (symmetry; apply inr_true; lia). reflexivity.
  - intros x. rewrite <- HO. unfold qpcost. lra.
Qed.

Lemma fillTasks_def ts n Q C :
  Forall (wfTask n) ts -> mrows Q = n -> mcols Q = n -> vlen C = n -> exists r, fillTasks ts Q C = Ok r.
Proof.
  revert Q C; induction ts as [|t ts IH]; intros Q C W Hr Hc Hl; [simpl; eauto|].
  inversion W as [|? ? (W1 & W2 & W3) W']; subst. cbn [fillTasks].
  unfold madd_block. simpl mrows; simpl mcols. 
  replace ((fst (tkBegin t) + mrows (tkQ t) <=? mrows Q)%nat && (snd (tkBegin t) + mcols (tkQ t) <=? mcols Q)%nat)
    with true by (symmetry; rewrite andb_true_iff, !Nat.leb_le; lia). cbn [bind].
  rewrite W3, Nat.eqb_refl. cbn [guard bind]. unfold vadd_seg. simpl vlen.
  replace (fst (tkBegin t) + vlen (tkC t) <=? vlen C)%nat with true by (symmetry; apply Nat.leb_le; lia).
  cbn [bind]. apply IH; simpl; auto.
Qed.

Lemma regLoop_def cnt i Q n : mrows Q = n -> mcols Q = n -> (i + cnt <= n)%nat -> exists Q', regLoop cnt i Q = Ok Q'.
Proof.
  revert i Q; induction cnt as [|cnt IH]; intros i Q Hr Hc Hle; [simpl; eauto|].
  cbn [regLoop].
  assert (exists Q1, regularize Q i = Ok Q1) as [Q1 E].
  { unfold regularize, mblock.
    replace ((i + 1 <=? mrows Q)%nat && (i + 1 <=? mcols Q)%nat) with true
      by (symmetry; rewrite andb_true_iff, !Nat.leb_le; lia). cbn [bind].
    destruct (Rlt_dec _ _); [|eauto]. unfold madd_block; simpl mrows; simpl mcols.
    replace ((i + 1 <=? mrows Q)%nat && (i + 1 <=? mcols Q)%nat) with true
      by (symmetry; rewrite andb_true_iff, !Nat.leb_le; lia). eauto. }
  rewrite E. cbn [bind]. destruct (regularize_spec _ _ _ _ E Hr Hc) as (R1 & R2 & _).
  apply IH; auto; lia.
Qed.

Lemma fillQC_def ts n : Forall (wfTask n) ts -> exists r, fillQC ts n (mzero n n) (vfill n 0) = Ok r.
Proof.
  intros W. unfold fillQC.
  destruct (fillTasks_def ts n (mzero n n) (vfill n 0) W eq_refl eq_refl eq_refl) as [[Q1 C1] E].
  rewrite E. cbn [bind].
  destruct (fillTasks_spec _ n _ _ _ _ E eq_refl eq_refl eq_refl) as (T1 & T2 & _).
  destruct (regLoop_def n 0 Q1 n T1 T2) as [Q2 E2]; [lia|]. rewrite E2. cbn [bind]. eauto.
Qed.

(** Convexity (C14). *)
Definition taskQuad (t : task) (x : nat -> R) : R :=
  sumn (mrows (tkQ t)) (fun i => sumn (mcols (tkQ t)) (fun j =>
     x (fst (tkBegin t) + i)%nat * mget (tkQ t) i j * x (snd (tkBegin t) + j)%nat)).

Lemma fillTasks_quad ts n Q C Q' C' :
  fillTasks ts Q C = Ok (Q', C') -> mrows Q = n -> mcols Q = n -> vlen C = n ->
  forall x, quad n (mget Q') x = quad n (mget Q) x + sumR (map (fun t => tkWeight t * taskQuad t x) ts).
Proof.
  revert Q C; induction ts as [|t ts IH]; intros Q C H Hr Hc Hl x.
  - simpl in H. inversion H; subst. simpl. ring.
  - cbn [fillTasks] in H. binds H. rename a into Q1, a1 into C1.
    assert (Hq := fun x => madd_block_quad _ _ _ _ _ n x E Hr Hc).
    assert (Hv := fun x => vadd_seg_lin _ _ _ _ n x E1 Hl).
    rewrite (IH _ _ H); [|apply (Hq (fun _ => 0))|apply (Hq (fun _ => 0))|apply (Hv (fun _ => 0))].
    destruct (Hq x) as (_ & _ & ->). simpl. unfold taskQuad at 2.
    rewrite (sumn_ext (mrows (tkQ t)) (fun i => sumn (mcols (tkQ t)) (fun j =>
          x (fst (tkBegin t) + i)%nat * (tkWeight t * mget (tkQ t) i j) * x (snd (tkBegin t) + j)%nat))
        (fun i => tkWeight t * sumn (mcols (tkQ t)) (fun j =>
          x (fst (tkBegin t) + i)%nat * mget (tkQ t) i j * x (snd (tkBegin t) + j)%nat)))
        by (intros i _; rewrite <- sumn_scal; apply sumn_ext; intros; ring).
    rewrite sumn_scal. lra.
Qed.

Lemma sumR_nonneg {A} (f : A -> R) l : Forall (fun a => 0 <= f a) l -> 0 <= sumR (map f l).
Proof. induction 1; simpl; lra. Qed.

Lemma psd_diag Q i : psd Q -> (i < mrows Q)%nat -> 0 <= mget Q i i.
Proof.
  intros [Hs Hp] Hi. specialize (Hp (fun k => if Nat.eqb k i then 1 else 0)). unfold quad in Hp.
  rewrite (sumn_delta _ i) in Hp; [|auto|].
  - rewrite (sumn_delta _ i) in Hp; [|auto|].
    + rewrite Nat.eqb_refl in Hp. lra.
    + intros j Hj Hne. replace (Nat.eqb j i) with false by (symmetry; apply Nat.eqb_neq; auto). ring.
  - intros k Hk Hne. apply sumn_0. intros j _.
    replace (Nat.eqb k i) with false by (symmetry; apply Nat.eqb_neq; auto). ring.
Qed.

Lemma psdTask_diag t i : psdTask t -> 0 <= taskDiag i t.
Proof.
  intros (Hw & Hb & Hp). unfold taskDiag. destruct (_ && _) eqn:E; [|lra].
  apply andb_true_iff in E as [E1 E2]. apply inr_true in E1. rewrite <- Hb.
  apply Rmult_le_pos; auto. apply psd_diag; auto. lia.
Qed.

Lemma psdTask_quad t x : psdTask t -> 0 <= tkWeight t * taskQuad t x.
Proof.
  intros (Hw & Hb & (Hs & Hp)). apply Rmult_le_pos; auto. unfold taskQuad. rewrite <- Hb, <- Hs.
  apply (Hp (fun i => x (fst (tkBegin t) + i)%nat)).
Qed.

Lemma convex_lemma ts n Q C :
  fillQC ts n (mzero n n) (vfill n 0) = Ok (Q, C) -> Forall psdTask ts ->
  (forall x, 0 <= quad n (mget Q) x) /\ (forall i, (i < n)%nat -> / 10000 <= mget Q i i) /\
  (forall x, sumn n (fun i => if Rlt_dec (Rabs (diagSum ts i)) (/ 10000) then / 10000 * (x i * x i) else 0)
             <= quad n (mget Q) x).
Proof.
  intros H W. pose proof (fillQC_spec _ _ _ _ H) as (_ & _ & _ & _ & D & _).
  unfold fillQC in H. binds H. destruct a as [Q1 C1]. binds H.
  inversion H; subst a C1; clear H.
  destruct (fillTasks_spec _ n _ _ _ _ E eq_refl eq_refl eq_refl) as (T1 & T2 & T3 & T4 & T5).
  pose proof (fillTasks_quad _ n _ _ _ _ E eq_refl eq_refl eq_refl) as TQ.
  destruct (regLoop_spec _ _ _ _ n E0 T1 T2) as (R1 & R2 & R3).
  assert (D1 : forall i, mget Q1 i i = diagSum ts i) by (intros i; rewrite T5; simpl; ring).
  assert (Dp : forall i, 0 <= diagSum ts i).
  { intros i. apply sumR_nonneg. eapply Forall_impl; [|exact W]. intros t. apply psdTask_diag. }
  assert (HQ : forall x, quad n (mget Q) x = quad n (mget Q1) x +
     sumn n (fun i => if Rlt_dec (Rabs (diagSum ts i)) (/ 10000) then / 10000 * (x i * x i) else 0)).
  { intros x. rewrite (quad_ext n (mget Q) (fun i j => mget Q1 i j + (if Nat.eqb i j then
        (if Rlt_dec (Rabs (diagSum ts i)) DIAG_CONSTANT then DIAG_CONSTANT else 0) else 0))).
      - rewrite quad_plus, quad_diag. f_equal. unfold DIAG_CONSTANT.
        apply sumn_ext; intros i _. destruct (Rlt_dec _ _); lra.
      - intros i j Hi Hj. rewrite R3. f_equal.
        replace (inr 0 n i) with true by (symmetry; apply inr_true; lia). rewrite andb_true_r, D1. reflexivity. }
  assert (H1 : forall x, 0 <= quad n (mget Q1) x).
  { intros x. rewrite TQ.
    assert (Z1 : quad n (mget (mzero n n)) x = 0).
    { unfold quad, mzero; simpl. apply sumn_0; intros; apply sumn_0; intros; ring. }
    rewrite Z1. assert (0 <= sumR (map (fun t => tkWeight t * taskQuad t x) ts)); [|lra].
    apply sumR_nonneg. eapply Forall_impl; [|exact W]. intros t Ht. apply psdTask_quad; auto. }
  assert (H2 : forall x, 0 <= sumn n (fun i => if Rlt_dec (Rabs (diagSum ts i)) (/ 10000) then / 10000 * (x i * x i) else 0)).
  { intros x. apply sumn_nonneg. intros i _. destruct (Rlt_dec _ _); [|lra]. nra. }
  split; [|split].
  - intros x. rewrite HQ. specialize (H1 x). specialize (H2 x). lra.
  - intros i Hi. rewrite (D i Hi). specialize (Dp i). destruct (Rlt_dec _ _) as [Hl|Hl].
    + lra.
    + rewrite Rabs_right in Hl by lra. lra.
  - intros x. rewrite HQ. specialize (H1 x). lra.
Qed.
