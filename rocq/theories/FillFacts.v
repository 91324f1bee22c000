(** Lemmas behind PropFill.v, and the proofs of its examples. *)
From Coq Require Import Permutation.
From Verif Require Import Lists.
From Verif Require Export BackendProofs.
Open Scope string_scope.
Open Scope list_scope.
Open Scope R_scope.

Lemma lssol_cols b g p : bkDeps b = [] -> lssolMatrix b g = Ok p -> mcols (pgA p) = bkN b.
Proof.
  intros Hd H. unfold lssolMatrix in H. rewrite Hd in H.
  set (rows := (bkEq b + bkIn b + bkGen b)%nat) in *.
  apply bind_Ok in H as ([[[n1 A1] L1] U1] & E1 & H).
  apply bind_Ok in H as ([[[n2 A2] L2] U2] & E2 & H).
  apply bind_Ok in H as ([[[n3 AF] AL] AU] & E3 & H).
  apply bind_Ok in H as ([XLF XUF] & E4 & H).
  apply bind_Ok in H as ([QF CF] & E5 & H).
  assert (ES : fillGenInEqG (stackG g) (bkN b) 0 (mzero rows (bkN b)) (vfill rows (Fin 0)) (vfill rows (Fin 0)) = Ok (n3, AF, AL, AU)).
  { rewrite <- fill3_stack. rewrite E1. cbn [bind]. rewrite E2. cbn [bind]. exact E3. }
  destruct (fillGen_spec _ _ _ _ _ _ _ _ _ _ ES eq_refl) as (_ & _ & C & _).
  binds H. inversion H; subst. simpl. apply mblock_Ok in E as (_ & _ & _ & -> & _). auto.
Qed.

Lemma general_form_lemma b g p n x :
  bkDeps b = [] -> bkN b = n -> lssolMatrix b g = Ok p ->
  ((forall i, (i < mrows (pgA p))%nat ->
      between (vget (pgAL p) i) (sumn n (fun j => mget (pgA p) i j * x j)) (vget (pgAU p) i)) <->
   linFeasible n g x).
Proof.
  intros Hd Hn H. pose proof (lssol_cols _ _ _ Hd H) as HC. rewrite Hn in HC.
  unfold lssolMatrix in H. rewrite Hd, Hn in H.
  set (rows := (bkEq b + bkIn b + bkGen b)%nat) in *.
  apply bind_Ok in H as ([[[n1 A1] L1] U1] & E1 & H).
  apply bind_Ok in H as ([[[n2 A2] L2] U2] & E2 & H).
  apply bind_Ok in H as ([[[n3 AF] AL] AU] & E3 & H).
  apply bind_Ok in H as ([XLF XUF] & E4 & H).
  apply bind_Ok in H as ([QF CF] & E5 & H).
  assert (ES : fillGenInEqG (stackG g) n 0 (mzero rows n) (vfill rows (Fin 0)) (vfill rows (Fin 0)) = Ok (n3, AF, AL, AU)).
  { rewrite <- fill3_stack. rewrite E1. cbn [bind]. rewrite E2. cbn [bind]. exact E3. }
  binds H. inversion H; subst p; clear H. simpl in *.
  rewrite <- stackG_feasible, <- (fillG_feasible _ _ _ _ _ _ _ _ _ x ES eq_refl).
  pose proof (fun i => rowdot_block _ _ _ _ i x E) as RB. apply mblock_Ok in E as (_ & _ & -> & _ & _).
  apply vseg_Ok in E0 as (_ & _ & V1). apply vseg_Ok in E6 as (_ & _ & V2).
  assert (RS : forall i, sumn n (fun j => mget a i j * x j) = rowdot AF i x).
  { intros i. change (rowdot AF i x) with (rowdot AF (0 + i) x). rewrite <- (RB i). unfold rowdot. rewrite HC. reflexivity. }
  split; intros K i Hi; specialize (K i Hi).
  - rewrite V1, V2, RS in K. exact K.
  - rewrite V1, V2, RS. exact K.
Qed.


Lemma standard_form_lemma b g p n x :
  bkDeps b = [] -> bkN b = n -> qldMatrix b g = Ok p ->
  (((forall i, (i < mrows (psAeq p))%nat -> sumn n (fun j => mget (psAeq p) i j * x j) = vget (psBeq p) i) /\
    (forall i, (i < mrows (psAin p))%nat -> ele (Fin (sumn n (fun j => mget (psAin p) i j * x j))) (vget (psBin p) i))) <->
   linFeasible n g x).
Proof.
  intros Hd Hn H. unfold qldMatrix in H. rewrite Hd, Hn in H.
  apply bind_Ok in H as ([[nrE AE] bE] & E1 & H).
  apply bind_Ok in H as ([[nrI0 A0] b0] & E2 & H).
  apply bind_Ok in H as ([[nrI AI] bI] & E3 & H).
  apply bind_Ok in H as ([XLF XUF] & E4 & H).
  apply bind_Ok in H as ([QF CF] & E5 & H).
  rewrite <- (qld_rows g n _ _ _ _ _ _ _ _ _ _ _ x E1 E2 E3).
  rewrite fillEqS_rows in E1. rewrite fillInEqS_rows in E2. apply fillGenInEqS_rows in E3.
  destruct (fillRows_spec _ _ _ _ _ _ _ _ E1 eq_refl) as (_ & _ & CE & _).
  destruct (fillRows_spec _ _ _ _ _ _ _ _ E2 eq_refl) as (_ & _ & C0 & _).
  destruct (fillRows_spec _ _ _ _ _ _ _ _ E3 C0) as (_ & _ & CI & _).
  apply bind_Ok in H as (Aeq1 & G1 & H). apply bind_Ok in H as (beq1 & G2 & H).
  apply bind_Ok in H as (Ain1 & G3 & H). apply bind_Ok in H as (bin1 & G4 & H).
  inversion H; subst p; clear H. simpl.
  apply mblock_Ok in G1 as (_ & _ & -> & _ & M1). apply mblock_Ok in G3 as (_ & _ & -> & _ & M3).
  apply vseg_Ok in G2 as (_ & _ & V2). apply vseg_Ok in G4 as (_ & _ & V4). simpl in *.
  assert (Hr : forall i, sumn n (fun j => mget Aeq1 i j * x j) = rowdot AE i x).
  { intros i. unfold rowdot. rewrite CE. apply sumn_ext. intros j _. rewrite M1. reflexivity. }
  assert (Hs : forall i, sumn n (fun j => mget Ain1 i j * x j) = rowdot AI i x).
  { intros i. unfold rowdot. rewrite CI. apply sumn_ext. intros j _. rewrite M3. reflexivity. }
  split; intros [K1 K2]; split; intros i Hi.
  - rewrite <- Hr, <- V2. exact (K1 i Hi).
  - rewrite <- Hs, <- V4. exact (K2 i Hi).
  - rewrite Hr, V2. exact (K1 i Hi).
  - specialize (K2 i Hi). rewrite <- Hs, <- V4 in K2. exact K2.
Qed.

Lemma ready_sized b0 b n deps a1 a2 a3 :
  wfDeps n deps -> setDependencies b0 n deps = Ok b -> ready n deps (updateSize b n a1 a2 a3).
Proof.
  intros W H. destruct (setDependencies_spec b0 n deps W) as (b1 & red & E & D & _). rewrite H in E. inversion E; subst b1.
  split; [reflexivity|].
  assert (D' : depMaps n deps red (updateSize b n a1 a2 a3)) by (destruct D; constructor; auto).
  pose proof (dm_deps _ _ _ _ D) as P.
  destruct deps as [|d0 deps0].
  - left. split; auto. simpl. apply Permutation_sym, Permutation_nil in P. auto.
  - right. assert (Hne : bkDeps b <> []).
    { intros E0. rewrite E0 in P. apply Permutation_nil in P. discriminate. }
    split; [auto|]. split; [auto|]. split.
    + simpl. destruct (bkDeps b) eqn:E'; [congruence|]. rewrite (Permutation_length P). reflexivity.
    + exists red. auto.
Qed.

Lemma back_ends_agree_lemma n deps me mi mg bl bq g p q y :
  wfDeps n deps ->
  setDependencies (newBackend LSSOL) n deps = Ok bl -> setDependencies (newBackend QLD) n deps = Ok bq ->
  lssolMatrix (updateSize bl n me mi mg) g = Ok p -> qldMatrix (updateSize bq n me mi mg) g = Ok q ->
  (okG p y <-> okS q y) /\ costG p y = costS q y.
Proof.
  intros W Hl Hq Hp Hp'.
  destruct (lssol_meaning _ _ _ _ _ Hp (ready_sized _ _ _ _ me mi mg W Hl)) as (Q1 & C1 & L1 & U1 & A1 & A2 & _ & A4 & A5).
  destruct (qld_meaning _ _ _ _ _ Hp' (ready_sized _ _ _ _ me mi mg W Hq)) as (Q2 & C2 & L2 & U2 & B1 & B2 & _ & B4 & B5).
  rewrite A2 in B2. inversion B2; subst L2 U2.
  assert (E : lift (updateSize bl n me mi mg) y = lift (updateSize bq n me mi mg) y).
  { clear -Hl Hq. unfold setDependencies in *. simpl in *.
    apply bind_Ok in Hl as (u & G & Hl). rewrite G in Hq. cbn [bind] in Hq.
    apply bind_Ok in Hl as ([[f r] t] & F & Hl). rewrite F in Hq. cbn [bind] in Hq.
    apply bind_Ok in Hl as (t2 & T & Hl). rewrite T in Hq. cbn [bind] in Hq.
    apply bind_Ok in Hl as (M & EM & Hl). rewrite EM in Hq. cbn [bind] in Hq.
    inversion Hl; inversion Hq; subst. reflexivity. }
  rewrite A4, B4, A5, B5, E. tauto.
Qed.

Lemma last_wins_lemma bs n XL XU i :
  fillBound bs (vfill n NInf) (vfill n PInf) = Ok (XL, XU) -> Forall wfBound bs -> (i < n)%nat ->
  ((forall b, In b bs -> ~ covers b i) /\ vget XL i = NInf /\ vget XU i = PInf) \/
  (exists k b, nth_error bs k = Some b /\ covers b i /\
     (forall k' b', (k < k')%nat -> nth_error bs k' = Some b' -> ~ covers b' i) /\
     vget XL i = vget (bdL b) (i - bdBegin b) /\ vget XU i = vget (bdU b) (i - bdBegin b)).
Proof.
  intros H W Hi. destruct (fillBound_spec _ _ _ _ _ H W) as (I1 & I2 & I3 & I4 & I5).
  destruct (last_cover bs i) as [C|(k & b & H1 & H2 & H3)].
  - left. split; [auto|]. destruct (I3 i C) as [-> ->]. auto.
  - right. exists k, b. split; [auto|]. split; [auto|]. split; [auto|]. apply (I4 k b i); auto.
Qed.

Lemma bounds_defined_lemma bs n :
  (exists XL XU, fillBound bs (vfill n NInf) (vfill n PInf) = Ok (XL, XU)) <-> Forall (wfBoundIn n) bs.
Proof.
  assert (G : forall XL XU, vlen XL = n -> vlen XU = n ->
    ((exists XL' XU', fillBound bs XL XU = Ok (XL', XU')) <-> Forall (wfBoundIn n) bs)); [|apply G; reflexivity].
  induction bs as [|b bs IH]; intros XL XU H1 H2; [simpl; split; [constructor|eauto]|].
  cbn [fillBound]. split.
  - intros (XL' & XU' & H). binds H. apply vset_seg_Ok in E as (S1 & S2 & _). apply vset_seg_Ok in E0 as (T1 & T2 & _).
    constructor; [split; lia|]. rewrite <- (IH a a0) by lia. eauto.
  - intros W. inversion W as [|? ? (W1 & W2) W']; subst. unfold vset_seg.
    replace (bdBegin b + vlen (bdL b) <=? vlen XL)%nat with true by (symmetry; apply Nat.leb_le; lia). cbn [bind].
    replace (bdBegin b + vlen (bdU b) <=? vlen XU)%nat with true by (symmetry; apply Nat.leb_le; lia). cbn [bind].
    apply IH; auto.
Qed.

Lemma overlapping_refuted_lemma :
  exists b1 b2 n XL XU x,
    fillBound [b1; b2] (vfill n NInf) (vfill n PInf) = Ok (XL, XU) /\ Forall wfBound [b1; b2] /\
    (forall i, (i < n)%nat -> between (vget XL i) (x i) (vget XU i)) /\ ~ holdsBound x b1.
Proof.
  exists (mkBound 0 (vfill 1 (Fin 0)) (vfill 1 (Fin 1))), (mkBound 0 (vfill 1 (Fin (-5))) (vfill 1 (Fin 5))), 1%nat.
  eexists _, _, (fun _ => 3). split; [reflexivity|]. split; [repeat constructor|]. split.
  - intros i Hi. assert (i = 0%nat) by lia. subst i. unfold between; simpl. lra.
  - intros H. destruct (H 0%nat) as [_ H2]. simpl in H2. specialize (H2 ltac:(lia)). lra.
Qed.

Lemma objective_lemma ts n Q C :
  fillQC ts n (mzero n n) (vfill n 0) = Ok (Q, C) ->
  mrows Q = n /\ mcols Q = n /\ vlen C = n /\
  forall x, quad n (mget Q) x / 2 + lin n (vget C) x = tasksCost ts x + regCost n ts x.
Proof.
  intros H. destruct (fillQC_spec _ _ _ _ H) as (A & B & D & E & _). split; [auto|]. split; [auto|]. split; [auto|].
  intros x. exact (E x).
Qed.

Lemma fillTasks_entry ts n Q C Q' C' : fillTasks ts Q C = Ok (Q', C') -> mrows Q = n -> mcols Q = n ->
  forall i j, mget Q' i j = mget Q i j + sumR (map (taskEntry i j) ts).
Proof.
  revert Q C; induction ts as [|t ts IH]; intros Q C H Hr Hc i j.
  - simpl in H. inversion H; subst. simpl. ring.
  - cbn [fillTasks] in H. binds H. rename a into Q1, a1 into C1.
    pose proof (madd_block_Ok _ _ _ _ _ E) as (_ & _ & M3 & M4 & M5).
    rewrite (IH _ _ H) by congruence. simpl. unfold taskEntry at 2. rewrite M5. simpl. destruct (_ && _); ring.
Qed.

Lemma entries_lemma ts n Q C i j :
  fillQC ts n (mzero n n) (vfill n 0) = Ok (Q, C) -> (i < n)%nat -> (j < n)%nat ->
  mget Q i j = sumR (map (taskEntry i j) ts) +
    (if Nat.eqb i j then if Rlt_dec (Rabs (sumR (map (taskEntry i i) ts))) (/ 10000) then / 10000 else 0 else 0).
Proof.
  unfold fillQC. intros H Hi Hj. binds H. destruct a as [Q1 C1]. binds H. inversion H; subst a C1; clear H.
  destruct (fillTasks_spec _ n _ _ _ _ E eq_refl eq_refl eq_refl) as (T1 & T2 & T3 & _).
  pose proof (fillTasks_entry _ n _ _ _ _ E eq_refl eq_refl) as TE.
  destruct (regLoop_spec _ _ _ _ n E0 T1 T2) as (R1 & R2 & R3).
  rewrite R3, !TE. unfold mzero; simpl. rewrite !Rplus_0_l.
  replace (inr 0 n i) with true by (symmetry; apply inr_true; lia). rewrite andb_true_r. reflexivity.
Qed.

Lemma qc_defined_lemma ts n :
  Forall (wfTask n) ts -> exists Q C, fillQC ts n (mzero n n) (vfill n 0) = Ok (Q, C).
Proof. intros W. destruct (fillQC_def ts n W) as ((Q & C) & E). eauto. Qed.

Lemma convex_touch_lemma ts n Q C :
  fillQC ts n (mzero n n) (vfill n 0) = Ok (Q, C) -> Forall psdTask ts ->
  (forall x, 0 <= quad n (mget Q) x) /\ (forall i, (i < n)%nat -> / 10000 <= mget Q i i) /\
  (forall i x, (i < n)%nat -> (forall t, In t ts -> ~ touches t i) ->
     / 10000 * (x i * x i) <= quad n (mget Q) x).
Proof.
  intros H W. destruct (convex_lemma _ _ _ _ H W) as (A & B & D). split; [auto|]. split; [auto|].
  intros i x Hi Ht. eapply Rle_trans; [|apply D].
  assert (Z : diagSum ts i = 0).
  { unfold diagSum. clear -Ht. induction ts as [|t ts IH]; [reflexivity|]. simpl.
    rewrite IH by (intros; apply Ht; right; auto). unfold taskDiag.
    destruct (inr (fst (tkBegin t)) (mrows (tkQ t)) i) eqn:E; [|simpl; ring].
    exfalso. apply (Ht t (or_introl eq_refl)). left. apply inr_true. auto. }
  set (f := fun i0 => if Rlt_dec (Rabs (diagSum ts i0)) (/ 10000) then / 10000 * (x i0 * x i0) else 0).
  assert (Hf : forall k, 0 <= f k).
  { intros k. unfold f. destruct (Rlt_dec _ _); [|lra]. pose proof (Rle_0_sqr (x k)) as S. unfold Rsqr in S.
    apply Rmult_le_pos; [|auto]. lra. }
  assert (E : f i = / 10000 * (x i * x i)).
  { unfold f. rewrite Z, Rabs_R0. destruct (Rlt_dec _ _); [auto|lra]. }
  rewrite <- E. clear -Hi Hf. induction n as [|n IH]; [lia|]. simpl.
  destruct (Nat.eq_dec i n) as [->|Hne].
  - pose proof (sumn_nonneg n f ltac:(auto)). lra.
  - specialize (IH ltac:(lia)). specialize (Hf n). lra.
Qed.

Lemma expandResult_spec n deps red b y x : depMaps n deps red b ->
  expandResult y (bkM b) = Ok x -> vlen x = n /\ forall i, vget x i = expand b (vget y) i.
Proof.
  intros D H. unfold expandResult, mvec in H. destruct (_ =? _)%nat; [|discriminate].
  inversion H; subst; simpl. split; [apply (dm_rows _ _ _ _ D)|]. intros i. reflexivity.
Qed.
Lemma expandResult_def n deps red b y : depMaps n deps red b -> vlen y = (n - length deps)%nat ->
  exists x, expandResult y (bkM b) = Ok x.
Proof.
  intros D H. unfold expandResult, mvec. rewrite (dm_cols _ _ _ _ D), H, Nat.eqb_refl. eauto.
Qed.

Lemma reduction_maps_lemma b n deps : wfDeps n deps ->
  exists b', setDependencies b n deps = Ok b' /\
  (forall i, (i < n)%nat -> ~ In i (map replica deps) ->
     exists j, (j < n - length deps)%nat /\ nth_error (bkF2R b') i = Some (Z.of_nat j) /\
               nth_error (bkR2F b') j = Some (Z.of_nat i)) /\
  (forall j, (j < n - length deps)%nat ->
     exists i, (i < n)%nat /\ ~ In i (map replica deps) /\ nth_error (bkR2F b') j = Some (Z.of_nat i) /\
               nth_error (bkF2R b') i = Some (Z.of_nat j)) /\
  (forall y, vlen y = (n - length deps)%nat ->
     exists x, expandResult y (bkM b') = Ok x /\ vlen x = n /\ honours deps (vget x) /\
       forall i j, (i < n)%nat -> ~ In i (map replica deps) -> nth_error (bkF2R b') i = Some (Z.of_nat j) ->
         vget x i = vget y j) /\
  (forall x, honours deps x ->
     exists y, vlen y = (n - length deps)%nat /\
       (exists x', expandResult y (bkM b') = Ok x' /\ forall i, (i < n)%nat -> vget x' i = x i) /\
       forall y' x', vlen y' = (n - length deps)%nat -> expandResult y' (bkM b') = Ok x' ->
         (forall i, (i < n)%nat -> vget x' i = x i) -> forall j, (j < n - length deps)%nat -> vget y' j = vget y j).
Proof.
  intros W. destruct (setDependencies_spec b n deps W) as (b' & red & E & D & _). exists b'. split; [auto|].
  split; [|split; [|split]].
  - intros i Hi Hn. destruct (dm_F _ _ _ _ D i Hi Hn) as (A & B & C). exists (red i). auto.
  - intros j Hj. destruct (dm_R _ _ _ _ D j Hj) as (i & A & B & C & <-). exists i.
    destruct (dm_F _ _ _ _ D i A B) as (_ & F & _). auto.
  - intros y Hy. destruct (expandResult_def _ _ _ _ y D Hy) as (x & Ex).
    destruct (expandResult_spec _ _ _ _ _ _ D Ex) as (L & V). exists x. split; [auto|]. split; [auto|]. split.
    + intros l r m Hin. rewrite !V. apply (expand_honours n deps red b' W D (vget y) l r m Hin).
    + intros i j Hi Hn Hj. rewrite V, (expand_kept n deps red b' D) by auto. destruct (dm_F _ _ _ _ D i Hi Hn) as (_ & F & _).
      rewrite F in Hj. inversion Hj as [Hj']. apply Nat2Z.inj in Hj'. congruence.
  - intros x Hx. exists (mkVec (n - length deps) (restrict b' x)). split; [reflexivity|]. split.
    + destruct (expandResult_def n deps red b' (mkVec (n - length deps) (restrict b' x)) D eq_refl) as (x' & Ex).
      exists x'. split; [auto|]. destruct (expandResult_spec _ _ _ _ _ _ D Ex) as (L & V).
      intros i Hi. rewrite V. apply (expand_restrict n deps red b' W D); auto.
    + intros y' x' Hl Ex Hx' j Hj. simpl.
      destruct (expandResult_spec _ _ _ _ _ _ D Ex) as (L & V).
      apply (expand_inj n deps red b' D (vget y') (restrict b' x)); auto.
      intros i Hi. rewrite <- V, Hx' by auto. symmetry. apply (expand_restrict n deps red b' W D); auto.
Qed.

Lemma zero_multiplier_lemma b0 b n deps XLF XUF :
  wfDeps n deps -> setDependencies b0 n deps = Ok b -> vlen XLF = n -> vlen XUF = n ->
  exists XL XU,
    reduceBound XLF XUF (n - length deps) (bkF2R b) (bkR2F b) (bkDeps b) = Ok (XL, XU) /\
    forall y x, vlen y = (n - length deps)%nat -> expandResult y (bkM b) = Ok x ->
      ((forall j, (j < n - length deps)%nat -> between (vget XL j) (vget y j) (vget XU j)) <->
       (forall i, (i < n)%nat -> (forall l, ~ In (l, i, 0) deps) -> between (vget XLF i) (vget x i) (vget XUF i))).
Proof.
  intros W H H1 H2. destruct (setDependencies_spec b0 n deps W) as (b1 & red & E & D & _). rewrite H in E. inversion E; subst b1.
  destruct (reduceBound_spec n deps red b W D XLF XUF (bkDeps b) H1 H2 (dm_deps _ _ _ _ D)) as (XL & XU & EB & L1 & L2 & K).
  exists XL, XU. split; [auto|]. intros y x Hy Ex. destruct (expandResult_spec _ _ _ _ _ _ D Ex) as (L & V).
  rewrite K. split; intros HH i Hi Hz; specialize (HH i Hi Hz); rewrite V in *; auto.
Qed.

Lemma reduced_problem_lemma b0 b n deps QF CF AF XLF XUF :
  wfDeps n deps -> setDependencies b0 n deps = Ok b -> (forall l r, ~ In (l, r, 0) deps) ->
  mrows QF = n -> mcols QF = n -> vlen CF = n -> mcols AF = n -> vlen XLF = n -> vlen XUF = n ->
  exists Q C A XL XU,
    reduceQC QF CF (bkM b) = Ok (Q, C) /\ reduceA AF (bkM b) = Ok A /\
    reduceBound XLF XUF (n - length deps) (bkF2R b) (bkR2F b) (bkDeps b) = Ok (XL, XU) /\
    mrows Q = (n - length deps)%nat /\ mcols Q = (n - length deps)%nat /\ mrows A = mrows AF /\ mcols A = (n - length deps)%nat /\
    forall y x, vlen y = (n - length deps)%nat -> expandResult y (bkM b) = Ok x ->
      qpcost (n - length deps) (mget Q) (vget C) (vget y) = qpcost n (mget QF) (vget CF) (vget x) /\
      (forall i, (i < mrows AF)%nat -> rowdot A i (vget y) = rowdot AF i (vget x)) /\
      ((forall j, (j < n - length deps)%nat -> between (vget XL j) (vget y j) (vget XU j)) <->
       (forall i, (i < n)%nat -> between (vget XLF i) (vget x i) (vget XUF i))).
Proof.
  intros W H NZ H1 H2 H3 H4 H5 H6.
  destruct (zero_multiplier_lemma b0 b n deps XLF XUF W H H5 H6) as (XL & XU & EB & KB).
  destruct (setDependencies_spec b0 n deps W) as (b1 & red & E & D & _). rewrite H in E. inversion E; subst b1.
  destruct (reduceQC_def n deps red b QF CF D H1 H2 H3) as ((Q & C) & EQ).
  destruct (mmul_def AF (bkM b)) as (A & EA & R1 & R2); [rewrite (dm_rows _ _ _ _ D); auto|].
  destruct (reduceQC_cost n deps red b D QF CF Q C (fun _ => 0) EQ H1 H2 H3) as (S1 & S2 & _).
  exists Q, C, A, XL, XU. split; [auto|]. split; [exact EA|]. split; [auto|]. split; [auto|]. split; [auto|].
  split; [auto|]. split; [rewrite R2; apply (dm_cols _ _ _ _ D)|].
  intros y x Hy Ex. destruct (expandResult_spec _ _ _ _ _ _ D Ex) as (L & V). split; [|split].
  - destruct (reduceQC_cost n deps red b D QF CF Q C (vget y) EQ H1 H2 H3) as (_ & _ & _ & ->).
    unfold qpcost, quad, lin. f_equal; [f_equal|]; apply sumn_ext; intros i _; [apply sumn_ext; intros j _|]; rewrite ?V; reflexivity.
  - intros i _. rewrite (rowdot_mul b AF A i (vget y) EA). unfold rowdot. apply sumn_ext. intros j _. rewrite V. reflexivity.
  - rewrite (KB y x Hy Ex). split; intros HH i Hi; [apply HH; auto|intros _; auto]; intros l; apply NZ.
Qed.

Lemma zero_multiplier_refuted_lemma :
  exists n deps b XLF XUF XL XU y x,
    wfDeps n deps /\ setDependencies (newBackend QLD) n deps = Ok b /\ vlen XLF = n /\ vlen XUF = n /\
    reduceBound XLF XUF (n - length deps) (bkF2R b) (bkR2F b) (bkDeps b) = Ok (XL, XU) /\
    vlen y = (n - length deps)%nat /\
    (forall j, (j < n - length deps)%nat -> between (vget XL j) (vget y j) (vget XU j)) /\
    expandResult y (bkM b) = Ok x /\
    exists i, (i < n)%nat /\ ~ between (vget XLF i) (vget x i) (vget XUF i).
Proof.
  set (deps := [(0%nat, 1%nat, 0)] : list dep).
  assert (W : wfDeps 2 deps).
  { split; [repeat constructor; simpl; tauto|]. split; [|simpl; lia].
    intros d [<-|[]]. unfold leader, replica; simpl. repeat split; try lia. }
  destruct (setDependencies_spec (newBackend QLD) 2 deps W) as (b & red & E & D & _).
  set (XLF := mkVec 2 (fun i => match i with 0%nat => Fin 0 | _ => Fin 1 end)).
  set (XUF := mkVec 2 (fun i => Fin 2)).
  destruct (zero_multiplier_lemma (newBackend QLD) b 2 deps XLF XUF W E eq_refl eq_refl) as (XL & XU & EB & KB).
  set (y := mkVec 1 (fun _ => 1)).
  destruct (expandResult_def 2 deps red b y D eq_refl) as (x & Ex).
  destruct (expandResult_spec _ _ _ _ _ _ D Ex) as (L & V).
  assert (V0 : vget x 0%nat = 1).
  { rewrite V, (expand_kept 2 deps red b D); [reflexivity|lia|simpl; unfold replica; simpl; lia]. }
  assert (V1 : vget x 1%nat = 0).
  { rewrite V, (expand_replica 2 deps red b W D _ 0%nat 1%nat 0); [ring|left; reflexivity]. }
  exists 2%nat, deps, b, XLF, XUF, XL, XU, y, x.
  split; [auto|]. split; [auto|]. split; [reflexivity|]. split; [reflexivity|]. split; [auto|]. split; [reflexivity|]. split.
  - apply (KB y x eq_refl Ex). intros i Hi Hz. destruct i as [|[|i]]; [| |lia].
    + rewrite V0. unfold between; simpl. lra.
    + exfalso. apply (Hz 0%nat). left. reflexivity.
  - split; [auto|]. exists 1%nat. split; [lia|]. rewrite V1. unfold between; simpl. lra.
Qed.

Lemma chain_refuted_lemma :
  exists n deps, NoDup (map replica deps) /\ (length deps < n)%nat /\
    (forall d, In d deps -> (leader d < n)%nat /\ (replica d < n)%nat /\ leader d <> replica d) /\
    setDependencies (newBackend QLD) n deps = UB.
Proof.
  exists 3%nat, [(0%nat, 1%nat, 1); (1%nat, 2%nat, 1)].
  split; [repeat constructor; simpl; unfold replica; simpl; lia|]. split; [simpl; lia|]. split.
  - intros d [<-|[<-|[]]]; unfold leader, replica; simpl; lia.
  - reflexivity.
Qed.

Lemma chain_stale_lemma :
  exists b b' y x, setDependencies (newBackend QLD) 4 [] = Ok b /\
    setDependencies b 4 [(0%nat, 1%nat, 1); (1%nat, 2%nat, 1)] = Ok b' /\ vlen y = 2%nat /\
    expandResult y (bkM b') = Ok x /\ vget x 1%nat <> vget x 2%nat /\ vget x 2%nat = vget x 3%nat.
Proof.
  eexists _, _, (mkVec 2 (fun i => INR i)), _.
  split; [reflexivity|]. split; [reflexivity|]. split; [reflexivity|]. split; [reflexivity|].
  cbv -[Rplus Rmult R0 R1 Ropp IZR]. split; lra.
Qed.
