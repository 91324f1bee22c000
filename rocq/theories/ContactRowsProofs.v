(** The rows of the contact constraints. *)
From Verif Require Export ContactConstrProofs.
Open Scope R_scope.
Local Arguments sumn : simpl never.

Definition resid (A : mat) (b : vec R) (r : nat) (x : nat -> R) : R := rowdot A r x - vget b r.
Definition sideTerm (m : cmode) (mbs : list multibody) (k : kin) (s : csd) (x : nat -> R) (l : nat) : R :=
  match nth_error mbs (cRobot s) with
  | Some mb => jacDot mb (cPath s) (kJac k (cRobot s) (cPath s) (pt_mul (cX s) (kPosW k (cRobot s) (cBody s))) l) (fun j => x (cBegin s + j)%nat)
               + vget (sideVec m k s) l
  | None => 0
  end.

Lemma mblock_def M r c nr nc : (r + nr <= mrows M)%nat -> (c + nc <= mcols M)%nat -> exists B, mblock M r c nr nc = Ok B.
Proof. intros H1 H2. unfold mblock. rewrite (proj2 (Nat.leb_le _ _) H1), (proj2 (Nat.leb_le _ _) H2). simpl. eauto. Qed.
Lemma mset_block_def M r c B : (r + mrows B <= mrows M)%nat -> (c + mcols B <= mcols M)%nat -> exists M', mset_block M r c B = Ok M'.
Proof. intros H1 H2. unfold mset_block. rewrite (proj2 (Nat.leb_le _ _) H1), (proj2 (Nat.leb_le _ _) H2). simpl. eauto. Qed.
Lemma madd_block_def M r c B : (r + mrows B <= mrows M)%nat -> (c + mcols B <= mcols M)%nat -> exists M', madd_block M r c B = Ok M'.
Proof. intros H1 H2. unfold madd_block. rewrite (proj2 (Nat.leb_le _ _) H1), (proj2 (Nat.leb_le _ _) H2). simpl. eauto. Qed.
Lemma vadd_seg_def v s w : (s + vlen w <= vlen v)%nat -> exists v', vadd_seg v s w = Ok v'.
Proof. intros H1. unfold vadd_seg. rewrite (proj2 (Nat.leb_le _ _) H1). eauto. Qed.
Lemma vset_seg_def {A} (v : vec A) s w : (s + vlen w <= vlen v)%nat -> exists v', vset_seg v s w = Ok v'.
Proof. intros H1. unfold vset_seg. rewrite (proj2 (Nat.leb_le _ _) H1). eauto. Qed.
Lemma mmul_Ok M N P : mmul M N = Ok P -> mcols M = mrows N /\ mrows P = mrows M /\ mcols P = mcols N /\ forall i j, mget P i j = sumn (mcols M) (fun k => mget M i k * mget N k j).
Proof. unfold mmul. destruct (mcols M =? mrows N)%nat eqn:E; [|discriminate]. apply Nat.eqb_eq in E. intros H; inversion H; subst; simpl. auto. Qed.
Lemma mvec_Ok M v w : mvec M v = Ok w -> mcols M = vlen v /\ vlen w = mrows M /\ forall i, vget w i = sumn (mcols M) (fun k => mget M i k * vget v k).
Proof. unfold mvec. destruct (mcols M =? vlen v)%nat eqn:E; [|discriminate]. apply Nat.eqb_eq in E. intros H; inversion H; subst; simpl. auto. Qed.
Lemma mmul_def M N : mcols M = mrows N -> exists P, mmul M N = Ok P.
Proof. intros H. unfold mmul. rewrite H, Nat.eqb_refl. eauto. Qed.
Lemma mvec_def M v : mcols M = vlen v -> exists P, mvec M v = Ok P.
Proof. intros H. unfold mvec. rewrite H, Nat.eqb_refl. eauto. Qed.

(** Adding a block to a matrix adds its product with the block of variables. *)
Lemma rowdot_add_block M r c B M' i x : madd_block M r c B = Ok M' ->
  rowdot M' i x = rowdot M i x + (if inr r (mrows B) i then sumn (mcols B) (fun j => mget B (i - r)%nat j * x (c + j)%nat) else 0).
Proof.
  intros H. apply madd_block_Ok in H as (H1 & H2 & H3 & H4 & H5). unfold rowdot. rewrite H4.
  transitivity (sumn (mcols M) (fun j => mget M i j * x j + (if inr r (mrows B) i && inr c (mcols B) j then mget B (i - r)%nat (j - c)%nat * x j else 0))).
  - apply sumn_ext. intros j _. rewrite H5. destruct (_ && _); ring.
  - rewrite sumn_plus. f_equal. destruct (inr r (mrows B) i) eqn:E; simpl; [|apply sumn_0; auto].
    rewrite (sumn_window (mcols M) c (mcols B)); [|lia|].
    + apply sumn_ext. intros j Hj. replace (inr c (mcols B) (c + j)) with true by (symmetry; apply inr_true; lia).
      f_equal. f_equal. lia.
    + intros j _ Hj. replace (inr c (mcols B) j) with false; [auto|]. symmetry. apply inr_false. lia.
Qed.

Definition sideFits (mbs : list multibody) (dof : mat) (index : nat) (s : csd) (dj full A : mat) (b : vec R) : Prop :=
  exists mb, nth_error mbs (cRobot s) = Some mb /\ mcols dof = 6%nat /\
    (mrows dof <= mrows dj)%nat /\ (pathDof mb (cPath s) <= mcols dj)%nat /\
    (mrows dof <= mrows full)%nat /\ (nrDof mb <= mcols full)%nat /\
    (index + mrows dof <= mrows A)%nat /\ (cBegin s + nrDof mb <= mcols A)%nat /\ (index + mrows dof <= vlen b)%nat.

Lemma fullLoop_dims mb small path : forall pos r r', fullLoop mb path small pos r = Ok r' -> mrows r' = mrows r /\ mcols r' = mcols r.
Proof.
  induction path as [|i p IH]; intros pos r r' H; simpl in H; [inversion H; auto|].
  apply bind_Ok in H as (j & _ & H). apply bind_Ok in H as (blk & _ & H). apply bind_Ok in H as (r1 & H1 & H).
  apply mset_block_Ok in H1 as (_ & _ & H1 & H2 & _). apply IH in H as (-> & ->). auto.
Qed.

Lemma sideUpdate_fits m mbs k dof index s dj full A b res :
  sideUpdate m mbs k dof index s dj full A b = Ok res -> sideFits mbs dof index s dj full A b.
Proof.
  unfold sideUpdate. intros H.
  apply bind_Ok in H as (mb & E1 & H). apply bind_Ok in H as (SJ & E2 & H). apply bind_Ok in H as (dj' & E3 & H).
  apply bind_Ok in H as (small & E4 & H). apply bind_Ok in H as (full' & E5 & H). apply bind_Ok in H as (blk & E6 & H).
  apply bind_Ok in H as (A' & E7 & H). apply bind_Ok in H as (v & E8 & H). apply bind_Ok in H as (b' & E9 & H).
  apply vec_at_Ok in E1. apply mmul_Ok in E2 as (P1 & P2 & P3 & _). apply mset_block_Ok in E3 as (Q1 & Q2 & _).
  apply mblock_Ok in E4 as (R1 & R2 & R3 & R4 & _).
  unfold fullJacobian in E5. apply bind_Ok in E5 as (r0 & E5 & E5').
  apply mset_block_Ok in E5 as (S1 & S2 & S3 & S4 & _). apply fullLoop_dims in E5' as (S5 & S6).
  apply mblock_Ok in E6 as (T1 & T2 & T3 & T4 & _). apply madd_block_Ok in E7 as (U1 & U2 & _).
  apply mvec_Ok in E8 as (V1 & V2 & _). apply vadd_seg_Ok in E9 as (W1 & _). simpl in *.
  exists mb. split; [auto|]. split; [auto|]. repeat split; lia.
Qed.

Lemma sideUpdate_spec m mbs k dof index s dj full A b :
  sideFits mbs dof index s dj full A b -> (forall mb, nth_error mbs (cRobot s) = Some mb -> wfPath mb (cPath s)) ->
  exists dj' full' A' b', sideUpdate m mbs k dof index s dj full A b = Ok (dj', full', A', b') /\
    mrows dj' = mrows dj /\ mcols dj' = mcols dj /\ mrows full' = mrows full /\ mcols full' = mcols full /\
    mrows A' = mrows A /\ mcols A' = mcols A /\ vlen b' = vlen b /\
    (forall i j, (forall mb, nth_error mbs (cRobot s) = Some mb -> cBegin s + nrDof mb <= j)%nat -> mget A' i j = mget A i j) /\
    forall i x, resid A' b' i x = resid A b i x +
      (if inr index (mrows dof) i then cSign s * sumn 6 (fun l => mget dof (i - index)%nat l * sideTerm m mbs k s x l) else 0).
Proof.
  intros (mb & Emb & F1 & F2 & F3 & F4 & F5 & F6 & F7 & F8) W. specialize (W mb Emb).
  unfold sideUpdate. rewrite (proj2 (vec_at_Ok _ _ _) Emb). cbn [bind].
  set (J := mkMat 6 (pathDof mb (cPath s)) (kJac k (cRobot s) (cPath s) (pt_mul (cX s) (kPosW k (cRobot s) (cBody s))))).
  destruct (mmul_def (mscal (cSign s) dof) J) as (SJ & E2); [simpl; auto|]. rewrite E2. cbn [bind]. apply mmul_Ok in E2 as (P1 & P2 & P3 & P4). simpl in P1, P2, P3.
  destruct (mset_block_def dj 0 0 SJ) as (dj' & E3); [lia|lia|]. rewrite E3. cbn [bind]. apply mset_block_Ok in E3 as (Q1 & Q2 & Q3 & Q4 & Q5).
  destruct (mblock_def dj' 0 0 (mrows dof) (pathDof mb (cPath s))) as (small & E4); [lia|lia|]. rewrite E4. cbn [bind]. apply mblock_Ok in E4 as (R1 & R2 & R3 & R4 & R5).
  destruct (fullJacobian_spec mb (cPath s) small full W) as (full' & E5 & S1 & S2 & _ & S3); [lia|lia|lia|]. rewrite E5. cbn [bind].
  destruct (mblock_def full' 0 0 (mrows dof) (nrDof mb)) as (blk & E6); [lia|lia|]. rewrite E6. cbn [bind]. apply mblock_Ok in E6 as (T1 & T2 & T3 & T4 & T5).
  destruct (madd_block_def A index (cBegin s) blk) as (A' & E7); [lia|lia|]. rewrite E7. cbn [bind].
  pose proof (fun i x => rowdot_add_block _ _ _ _ _ i x E7) as RD. apply madd_block_Ok in E7 as (U1 & U2 & U3 & U4 & U5).
  destruct (mvec_def (mscal (cSign s) dof) (sideVec m k s)) as (v & E8); [simpl; auto|]. rewrite E8. cbn [bind]. apply mvec_Ok in E8 as (V1 & V2 & V3). simpl in V1, V2.
  destruct (vadd_seg_def b index (vopp v)) as (b' & E9); [simpl; lia|]. rewrite E9. cbn [bind]. apply vadd_seg_Ok in E9 as (W1 & W2 & W3). simpl in *.
  exists dj', full', A', b'. split; [auto|]. do 7 (split; [lia|]). split.
  - intros i j Hj. specialize (Hj mb Emb). rewrite U5. replace (inr (cBegin s) (mcols blk) j) with false by (symmetry; apply inr_false; lia).
    rewrite andb_false_r. auto.
  - intros i x. unfold resid. rewrite RD, W3. rewrite V2, T3. destruct (inr index (mrows dof) i) eqn:E; [|ring]. apply inr_true in E.
    set (i' := (i - index)%nat). assert (Hi : (i' < mrows dof)%nat) by (unfold i'; lia).
    assert (X : sumn (mcols blk) (fun j => mget blk i' j * x (cBegin s + j)%nat) =
                jacDot mb (cPath s) (fun c => sumn 6 (fun l => cSign s * mget dof i' l * mget J l c)) (fun j => x (cBegin s + j)%nat)).
    { rewrite T4. transitivity (sumn (nrDof mb) (fun j => mget full' i' j * (fun j => x (cBegin s + j)%nat) j)).
      - apply sumn_ext. intros j _. rewrite T5. reflexivity.
      - rewrite S3 by lia. apply jacDot_ext; [|auto]. intros c Hc. rewrite R5, Q5. simpl.
        replace (inr 0 (mrows SJ) i') with true by (symmetry; apply inr_true; lia).
        replace (inr 0 (mcols SJ) c) with true by (symmetry; apply inr_true; rewrite P3; simpl; lia). simpl. rewrite !Nat.sub_0_r, P4. rewrite F1. reflexivity. }
    rewrite X, jacDot_sumn, V3. simpl. rewrite F1.
    unfold sideTerm. rewrite Emb. rewrite <- sumn_scal.
    assert (Y : sumn 6 (fun l => cSign s * (mget dof i' l * (jacDot mb (cPath s) (fun c => mget J l c) (fun j => x (cBegin s + j)%nat) + vget (sideVec m k s) l)))
              = sumn 6 (fun l => jacDot mb (cPath s) (fun c => cSign s * mget dof i' l * mget J l c) (fun j => x (cBegin s + j)%nat))
                + sumn 6 (fun l => cSign s * mget dof i' l * vget (sideVec m k s) l)).
    { rewrite <- sumn_plus. apply sumn_ext. intros l _. rewrite (jacDot_scal mb (cPath s) (cSign s * mget dof i' l) (fun c => mget J l c)). simpl. ring. }
    apply (f_equal (fun z => rowdot A i x - vget b i + z)) in Y. etransitivity; [|symmetry; exact Y].
    assert (L : forall a b p q, a + p - (b + - q) = a - b + (p + q)) by (intros; ring). exact (L _ _ _ _).
Qed.

(* ------------------------------------------------------------------ *)
(** * One contact *)
Definition sideRow (m : cmode) mbs k (dof : mat) (r : nat) (x : nat -> R) (s : csd) : R :=
  cSign s * sumn 6 (fun l => mget dof r l * sideTerm m mbs k s x l).
Definition sideOk (mbs : list multibody) (T : nat) (s : csd) : Prop :=
  forall mb, nth_error mbs (cRobot s) = Some mb -> wfPath mb (cPath s) /\ (cBegin s + nrDof mb <= T)%nat.

Lemma sidesUpdate_ok m mbs k dof index T l : forall dj full A b dj' full' A' b',
  sidesUpdate m mbs k dof index l dj full A b = Ok (dj', full', A', b') ->
  Forall (sideOk mbs T) l ->
  mrows dj' = mrows dj /\ mcols dj' = mcols dj /\ mrows full' = mrows full /\ mcols full' = mcols full /\
  mrows A' = mrows A /\ mcols A' = mcols A /\ vlen b' = vlen b /\
  (forall i j, (T <= j)%nat -> mget A' i j = mget A i j) /\
  forall i x, resid A' b' i x = resid A b i x +
    (if inr index (mrows dof) i then listsum (map (sideRow m mbs k dof (i - index) x) l) else 0).
Proof.
  induction l as [|s l IH]; intros dj full A b dj' full' A' b' H F; simpl in H.
  - inversion H; subst. do 8 (split; [auto|]). intros i x. simpl. destruct (inr _ _ _); ring.
  - inversion F as [|? ? F1 F2]; subst. apply bind_Ok in H as ((((dj1 & full1) & A1) & b1) & E & H).
    pose proof (sideUpdate_fits _ _ _ _ _ _ _ _ _ _ _ E) as SF.
    destruct (sideUpdate_spec m mbs k dof index s dj full A b SF) as (dj2 & full2 & A2 & b2 & E2 & D1 & D2 & D3 & D4 & D5 & D6 & D7 & D8 & D9).
    { intros mb Hmb. apply F1; auto. }
    rewrite E in E2. inversion E2; subst dj2 full2 A2 b2.
    apply IH in H as (K1 & K2 & K3 & K4 & K5 & K6 & K7 & K8 & K9); auto.
    do 7 (split; [lia|]). split.
    + intros i j Hj. rewrite K8, D8; auto. intros mb Hmb. apply F1 in Hmb as (_ & Hmb). lia.
    + intros i x. rewrite K9, D9. unfold sideRow at 2. simpl. destruct (inr index (mrows dof) i); [|ring]. unfold sideRow. ring.
Qed.

Lemma posTerm_ok m sv k c index b b' : posTerm m sv k c index b = Ok b' ->
  vlen b' = vlen b /\ forall i, vget b' i = vget b i +
    (if inr index (mrows (cdDof c)) i then
       match m with CPos dt => sumn 6 (fun l => mget (cdDof c) (i - index)%nat l * (frameError sv k c l / dt)) | _ => 0 end else 0).
Proof.
  destruct m as [|dt|dt]; simpl; intros H.
  1,2: inversion H; subst; split; [auto|]; intros i; destruct (inr _ _ _); ring.
  apply bind_Ok in H as (v & E & H). apply mvec_Ok in E as (E1 & E2 & E3). apply vadd_seg_Ok in H as (_ & H1 & H2). split; [auto|].
  intros i. rewrite H2, E2. destruct (inr index (mrows (cdDof c)) i); [|ring]. f_equal. rewrite E3. simpl in E1. rewrite E1.
  apply sumn_ext. intros l Hl. simpl. f_equal. f_equal. unfold frameError, poseError.
  destruct l as [|[|[|[|[|[|l]]]]]]; try reflexivity. lia.
Qed.

(** Row [r] of a contact: its residual. *)
Definition contRow (m : cmode) mbs sv k (x : nat -> R) (c : cdata) (r : nat) : R :=
  listsum (map (sideRow m mbs k (cdDof c) r x) (cdSides c))
  - match m with CPos dt => sumn 6 (fun l => mget (cdDof c) r l * (frameError sv k c l / dt)) | _ => 0 end.
Fixpoint contrib (row : cdata -> nat -> R) (index : nat) (l : list cdata) (i : nat) : R :=
  match l with
  | [] => 0
  | c :: l' => (if inr index (mrows (cdDof c)) i then row c (i - index)%nat else 0) + contrib row (index + mrows (cdDof c)) l' i
  end.

Lemma cdUpdate_dof sv k c c' : cdUpdate sv k c = Ok c' -> cdDof c' = cdDof c /\ cdId c' = cdId c /\ cdRevDof c' = cdRevDof c /\
  cdR1 c' = cdR1 c /\ cdR2 c' = cdR2 c /\ cdB1 c' = cdB1 c /\ cdB2 c' = cdB2 c /\ cdXcf c' = cdXcf c.
Proof.
  unfold cdUpdate. destruct (cdSides c) as [|s0 rest]; [discriminate|]. destruct (_ && _).
  - intros H; inversion H; subst; auto 10.
  - intros H. apply bind_Ok in H as (X & _ & H). inversion H; subst; simpl. auto 10.
Qed.

Lemma contUpdate_ok m mbs sv k T l : forall index dj full A b l' dj' full' A' b',
  contUpdate m mbs sv k index l dj full A b = Ok (l', dj', full', A', b') ->
  (forall c c', In c l -> cdUpdate sv k c = Ok c' -> Forall (sideOk mbs T) (cdSides c')) ->
  Forall2 (fun c c' => cdUpdate sv k c = Ok c') l l' /\
  mrows dj' = mrows dj /\ mcols dj' = mcols dj /\ mrows full' = mrows full /\ mcols full' = mcols full /\
  mrows A' = mrows A /\ mcols A' = mcols A /\ vlen b' = vlen b /\
  (forall i j, (T <= j)%nat -> mget A' i j = mget A i j) /\
  forall i x, resid A' b' i x = resid A b i x + contrib (contRow m mbs sv k x) index l' i.
Proof.
  induction l as [|c l IH]; intros index dj full A b l' dj' full' A' b' H F; simpl in H.
  - inversion H; subst. split; [constructor|]. do 8 (split; [auto|]). intros. simpl. ring.
  - apply bind_Ok in H as (c' & E1 & H). apply bind_Ok in H as ((((dj1 & full1) & A1) & b1) & E2 & H).
    apply bind_Ok in H as (b2 & E3 & H). apply bind_Ok in H as (((((l2 & dj2) & full2) & A2) & b3) & E4 & H). inversion H; subst; clear H.
    apply (sidesUpdate_ok _ _ _ _ _ T) in E2 as (D1 & D2 & D3 & D4 & D5 & D6 & D7 & D8 & D9); [|apply (F c); simpl; auto].
    apply posTerm_ok in E3 as (P1 & P2).
    apply IH in E4 as (K0 & K1 & K2 & K3 & K4 & K5 & K6 & K7 & K8 & K9); [|intros; eapply F; simpl; eauto].
    split; [constructor; auto|]. do 7 (split; [lia|]). split.
    + intros i j Hj. rewrite K8, D8; auto.
    + intros i x. rewrite K9. simpl. unfold resid at 1. rewrite P2. specialize (D9 i x). unfold resid in D9 |- *.
      assert (CR : contRow m mbs sv k x c' (i - index) = listsum (map (sideRow m mbs k (cdDof c') (i - index) x) (cdSides c'))
        - match m with CPos dt => sumn 6 (fun l => mget (cdDof c') (i - index)%nat l * (frameError sv k c' l / dt)) | _ => 0 end) by reflexivity.
      rewrite CR. clear CR. destruct (inr index (mrows (cdDof c')) i); destruct m; lra.
Qed.

Lemma contrib_zero row l : forall index,
  (forall i, (index <= i < index + sumRows l)%nat -> contrib row index l i = 0) <->
  Forall (fun c => forall r, (r < mrows (cdDof c))%nat -> row c r = 0) l.
Proof.
  assert (Out : forall l index i, (i < index)%nat -> contrib row index l i = 0).
  { induction l0 as [|c l0 IH]; intros index i Hi; simpl; [auto|]. replace (inr index (mrows (cdDof c)) i) with false by (symmetry; apply inr_false; lia).
    rewrite IH by lia. ring. }
  induction l as [|c l IH]; intros index; simpl; [split; auto|].
  unfold sumRows in *. simpl. rewrite Forall_cons_iff. rewrite <- (IH (index + mrows (cdDof c))%nat). split.
  - intros H. split.
    + intros r Hr. specialize (H (index + r)%nat ltac:(lia)). replace (inr index (mrows (cdDof c)) (index + r)) with true in H by (symmetry; apply inr_true; lia).
      rewrite Out in H by lia. replace (index + r - index)%nat with r in H by lia. lra.
    + intros i Hi. specialize (H i ltac:(lia)). replace (inr index (mrows (cdDof c)) i) with false in H by (symmetry; apply inr_false; lia). lra.
  - intros (H1 & H2) i Hi. destruct (inr index (mrows (cdDof c)) i) eqn:E.
    + apply inr_true in E. rewrite H1 by lia. rewrite Out by lia. ring.
    + apply inr_false in E. rewrite H2 by lia. ring.
Qed.

(* ------------------------------------------------------------------ *)
(** * Reference frames *)
Lemma RotX_rotation t : rotation (RotX t).
Proof.
  pose proof (sin2_cos2 t) as H. unfold Rsqr in H. apply det_rotation.
  - unfold RotX, orthonormal, norm2, dot; simpl. repeat split; lra.
  - unfold det3, RotX, dot, cross; simpl. lra.
Qed.
Lemma RotY_rotation t : rotation (RotY t).
Proof.
  pose proof (sin2_cos2 t) as H. unfold Rsqr in H. apply det_rotation.
  - unfold RotY, orthonormal, norm2, dot; simpl. repeat split; lra.
  - unfold det3, RotY, dot, cross; simpl. lra.
Qed.
Lemma RotZ_rotation t : rotation (RotZ t).
Proof.
  pose proof (sin2_cos2 t) as H. unfold Rsqr in H. apply det_rotation.
  - unfold RotZ, orthonormal, norm2, dot; simpl. repeat split; lra.
  - unfold det3, RotZ, dot, cross; simpl. lra.
Qed.

Definition rigidCD (cd : cdata) : Prop := rigid (cdXcf cd) /\ rigid (cdXbb cd).

Lemma cdUpdate_shape sv k c c' : cdUpdate sv k c = Ok c' ->
  c' = c \/ exists s0 rest off, cdSides c = s0 :: rest /\ rigid off /\
    (length (cdSides c) = 2%nat \/ cSign s0 <= 0) /\
    let X := match rest with [s1] => cX s1 | _ => cX s0 end in
    c' = mkCD (setLastX (cdSides c) (pt_mul off X)) (cdDof c) (cdRevDof c) (cdR1 c) (cdR2 c) (cdB1 c) (cdB2 c)
              (pt_mul (pt_inv (pt_mul off X)) (cdXcf c)) (cdXcf c) (cdId c).
Proof.
  unfold cdUpdate. destruct (cdSides c) as [|s0 rest]; [discriminate|].
  destruct (negb (length (s0 :: rest) =? 2)%nat && Rltb 0 (cSign s0)) eqn:B.
  - intros H; inversion H; auto.
  - intros H. right. apply bind_Ok in H as (X & E & H).
    assert (X = match rest with [s1] => cX s1 | _ => cX s0 end) by (destruct rest as [|s1 [|]]; inversion E; auto). subst X.
    exists s0, rest. eexists. split; [auto|]. split; [|split; [|inversion H; subst; reflexivity]].
    + unfold rigid. simpl. apply rotation_mul; [apply rotation_mul; [apply RotX_rotation|apply RotY_rotation]|apply RotZ_rotation].
    + apply andb_false_iff in B as [B|B]; [left; apply negb_false_iff, Nat.eqb_eq in B; auto|right; apply Rltb_false; auto].
Qed.

Lemma cdUpdate_frames nm mbs d sv k c c' : rigidCD c -> dataFor nm mbs d c -> cdUpdate sv k c = Ok c' -> rigidCD c' /\ dataFor nm mbs d c'.
Proof.
  intros (R1 & R2) HD H. destruct (cdUpdate_shape _ _ _ _ H) as [->|(s0 & rest & off & HS & RO & HC & ->)]; [split; [split|]; auto|].
  destruct HD as (mb1 & mb2 & l1 & l2 & Z1 & Z2 & I1 & I2 & M1 & M2 & HS' & S1 & S2 & B1 & B2).
  set (X2 := pt_mul (cdXcf c) (pt_inv (cdXbb c))) in *. assert (RX2 : rigid X2) by (apply rigid_mul; [auto|apply rigid_inv; auto]).
  assert (HX : match rest with [s1] => cX s1 | _ => cX s0 end = X2 /\
               exists b p, l2 = [mkCSD (cdR2 c) b (last p 0%nat) (-1) p X2] /\ (0 < nrDof mb2)%nat /\ alphaDBegin d (cdR2 c) = Ok b /\ nPath nm (cdR2 c) (r2Body (cdId c)) = Ok p /\ p <> [] /\
                 setLastX (cdSides c) (pt_mul off X2) = l1 ++ [mkCSD (cdR2 c) b (last p 0%nat) (-1) p (pt_mul off X2)]).
  { rewrite HS in HS', HC |- *. destruct S2 as [(N2 & ->)|(N2 & b2 & p2 & A2 & P2 & NE2 & ->)].
    - exfalso. rewrite app_nil_r in HS'. destruct S1 as [(N1 & ->)|(N1 & b1 & p1 & A1 & P1 & NE1 & ->)]; [discriminate|].
      inversion HS'; subst. simpl in HC. destruct HC as [HC|HC]; [discriminate|lra].
    - destruct S1 as [(N1 & ->)|(N1 & b1 & p1 & A1 & P1 & NE1 & ->)]; inversion HS'; subst; simpl; (split; [auto|]); exists b2, p2; auto 10. }
  destruct HX as (-> & b & p & -> & N2 & Ab & Pp & NE & HL).
  assert (RX : rigid (pt_mul off X2)) by (apply rigid_mul; auto).
  split; [split; simpl; [auto|apply rigid_mul; [apply rigid_inv; auto|auto]]|].
  exists mb1, mb2, l1, [mkCSD (cdR2 c) b (last p 0%nat) (-1) p (pt_mul off X2)]. simpl.
  do 6 (split; [auto|]). split; [auto|]. split; [auto|]. split; [|auto].
  right. split; [auto|]. exists b, p. do 3 (split; [auto|]). do 2 f_equal.
  rewrite pt_inv_mul, pt_inv_invol by (auto; apply rigid_inv; auto). rewrite <- pt_mul_assoc, pt_mul_inv_r, pt_mul_id_l by auto. reflexivity.
Qed.

(* ------------------------------------------------------------------ *)
(** * Meaning of the rows of a contact *)
Definition velPart (m : cmode) (v : R) : R := match m with CAcc => 0 | CSpeed dt | CPos dt => v / dt end.

Lemma side_row_sum nm mbs d m k dof i x r mb body s X l :
  nth_error mbs r = Some mb -> sideFor nm d r mb body s X l ->
  listsum (map (sideRow m mbs k dof i x) l) =
  s * sumn 6 (fun q => mget dof i q * (bodyAcc nm mbs d k r body X x q + velPart m (bodyVel nm mbs k r body X q))).
Proof.
  intros Hmb [(N & ->)|(N & b & p & A & P & NE & ->)]; simpl.
  - rewrite (sumn_0 6); [ring|]. intros q _. unfold bodyAcc, bodyVel. rewrite Hmb, N. simpl.
    destruct (nPath nm r body); destruct (alphaDBegin d r); destruct m; simpl; unfold Rdiv; ring.
  - rewrite Rplus_0_r. unfold sideRow. simpl. f_equal. apply sumn_ext. intros q _. f_equal. unfold sideTerm, bodyAcc, bodyVel. simpl. rewrite Hmb, A, P.
    rewrite (proj2 (Nat.ltb_lt _ _) N). destruct m; simpl; ring.
Qed.

Lemma listsum_app l1 l2 : listsum (l1 ++ l2) = listsum l1 + listsum l2.
Proof. unfold listsum. induction l1; simpl; [ring|]. rewrite IHl1. ring. Qed.

Lemma contRow_meaning nm mbs d m sv k x c r : dataFor nm mbs d c -> modeOk m ->
  (contRow m mbs sv k x c r = 0 <->
   sumn 6 (fun l => mget (cdDof c) r l * required m (relAcc nm mbs d k c x l) (relVel nm mbs k c l) (frameError sv k c l)) = 0).
Proof.
  intros (mb1 & mb2 & l1 & l2 & Z1 & Z2 & I1 & I2 & M1 & M2 & HS & S1 & S2 & B1 & B2) HM.
  unfold contRow. rewrite HS, map_app, listsum_app.
  rewrite (side_row_sum _ _ _ _ _ _ _ _ _ _ _ _ _ _ M1 S1), (side_row_sum _ _ _ _ _ _ _ _ _ _ _ _ _ _ M2 S2).
  destruct m as [|dt|dt]; simpl in *.
  - match goal with |- ?a = 0 <-> ?b = 0 => assert (E : a = b) end; [|rewrite E; tauto].
    rewrite Rmult_1_l, Rminus_0_r. match goal with |- ?a + -1 * ?b = _ => replace (a + -1 * b) with (a - b) by ring end. rewrite <- sumn_minus. apply sumn_ext. intros l _. unfold relAcc. ring.
  - match goal with |- ?a = 0 <-> ?b = 0 => assert (E : b = dt * a) end.
    { rewrite Rmult_1_l, Rminus_0_r. match goal with |- _ = dt * (?a + -1 * ?b) => replace (a + -1 * b) with (a - b) by ring end.
      rewrite <- sumn_minus, <- sumn_scal. apply sumn_ext. intros l _. unfold relAcc, relVel. field. auto. }
    rewrite E. split; [intros ->; ring|]. intros H. apply Rmult_integral in H as [H|H]; tauto.
  - match goal with |- ?a = 0 <-> ?b = 0 => assert (E : b = dt * a) end.
    { rewrite Rmult_1_l. match goal with |- _ = dt * (?a + -1 * ?b - ?c) => replace (a + -1 * b - c) with (a - b - c) by ring end.
      rewrite <- !sumn_minus, <- sumn_scal. apply sumn_ext. intros l _. unfold relAcc, relVel. field. auto. }
    rewrite E. split; [intros ->; ring|]. intros H. apply Rmult_integral in H as [H|H]; tauto.
Qed.

(* ------------------------------------------------------------------ *)
(** * Invariant of the life of a contact constraint for a given problem *)
Record ccInv (nm : names) (mbs : list multibody) (d : solverData) (c : contactConstr) : Prop := {
  ivRows : mrows (ccA c) = (length (ccCont c) * 6)%nat; ivCols : mcols (ccA c) = sdNrVars d;
  ivB : vlen (ccB c) = (length (ccCont c) * 6)%nat;
  ivTotal : ccTotal c = sdTotalAlphaD d; ivNr : ccNrEq c = sumRows (ccCont c);
  ivZero : forall i j, (sdTotalAlphaD d <= j)%nat -> mget (ccA c) i j = 0;
  ivFullR : mrows (ccFull c) = 6%nat; ivDjR : mrows (ccDofJac c) = 6%nat;
  ivFullC : forall mb, In mb mbs -> (nrDof mb <= mcols (ccFull c))%nat; ivDjC : forall mb, In mb mbs -> (nrDof mb <= mcols (ccDofJac c))%nat;
  ivData : Forall (fun cd => rigidCD cd /\ dataFor nm mbs d cd) (ccCont c) }.

Lemma fold_max_le l n : In n l -> (n <= fold_right Nat.max 0%nat l)%nat.
Proof. induction l as [|a l IH]; simpl; [tauto|]. intros [->|H]; [lia|]. specialize (IH H). lia. Qed.

Lemma inv_nrVars nm mbs uni bi d deps c c' :
  nrVarsData mbs uni bi = Ok (d, deps) -> (forall b, In b (sdAll d) -> rigid (bXcf b) /\ rigid (bXbb b)) -> sortedCC c ->
  updateNrVars nm mbs d c = Ok c' -> ccInv nm mbs d c'.
Proof.
  intros HN HR (SV & SD) H. unfold updateNrVars in H. apply bind_Ok in H as (md & E0 & H). apply bind_Ok in H as (l & E & H). inversion H; subst; clear H.
  assert (Sn : sorted (@nil (contactId * (PT * PT)))) by constructor.
  destruct (commonLoop_spec (ccVirtual c) (sdAll d) SV [] Sn) as (I1 & I2). fold (contactCommonInContact c d) in I1, I2.
  pose proof (contLoop_spec _ _ _ _ _ _ E) as F.
  assert (MD : forall mb, In mb mbs -> (nrDof mb <= md)%nat).
  { intros mb Hmb. unfold maxDof in E0. destruct mbs as [|m0 ms]; [destruct Hmb|]. inversion E0; subst. apply (fold_max_le (map nrDof (m0 :: ms))). apply in_map. auto. }
  constructor; simpl; auto.
  apply Forall_forall. intros cd Hcd. apply In_nth_error in Hcd as (q & Hq).
  assert (G : exists e, nth_error (contactCommonInContact c d) q = Some e /\ cdId cd = fst e /\ cdXcf cd = fst (snd e) /\ cdXbb cd = snd (snd e) /\ dataFor nm mbs d cd).
  { clear -F Hq. revert q Hq. induction F as [|e cd' cs l' HF F IH]; intros [|q] Hq; simpl in *; try discriminate.
    - inversion Hq; subst. exists e. tauto.
    - apply IH; auto. }
  destruct G as ([id [Xcf Xbb]] & Hn & G1 & G2 & G3 & G5). simpl in *. split; [|auto].
  apply nth_error_In in Hn. apply mFind_In in Hn; auto. rewrite I2 in Hn. simpl in Hn. destruct (mFind id (ccVirtual c)); [discriminate|].
  destruct (firstWith id (sdAll d)) as [b|] eqn:EF; [|discriminate]. simpl in Hn. injection Hn as E1 E2. apply firstWith_In in EF as (EF & _).
  unfold rigidCD. rewrite G2, G3, <- E1, <- E2. apply HR; auto.
Qed.

Lemma beginEnd mbs uni bi d deps r b mb : nrVarsData mbs uni bi = Ok (d, deps) -> alphaDBegin d r = Ok b -> nth_error mbs r = Some mb ->
  (b + nrDof mb <= sdTotalAlphaD d)%nat /\ (sdTotalAlphaD d <= sdNrVars d)%nat.
Proof.
  intros H A M. destruct (layout_begin_lemma _ _ _ _ _ H) as (L & _).
  assert (Hr : (r < length mbs)%nat) by (apply nth_error_Some; congruence). rewrite L in A by auto. inversion A; subst.
  apply nrVarsData_spec in H as (_ & _ & _ & _ & _ & T & _ & _ & _ & NV & _). split; [|lia]. rewrite T.
  assert (E : nth_error (map nrDof mbs) r = Some (nrDof mb)) by (rewrite nth_error_map, M; auto).
  rewrite <- (firstn_skipn r (map nrDof mbs)) at 2. rewrite sumnat_app. rewrite (skipn_nth_cons _ _ _ E). simpl. lia.
Qed.

Lemma dataFor_sides nm mbs uni bi d deps cd : nrVarsData mbs uni bi = Ok (d, deps) -> pathsOk nm mbs -> dataFor nm mbs d cd ->
  Forall (sideOk mbs (sdTotalAlphaD d)) (cdSides cd).
Proof.
  intros HN HP (mb1 & mb2 & l1 & l2 & Z1 & Z2 & I1 & I2 & M1 & M2 & HS & S1 & S2 & B1 & B2).
  assert (G : forall r mb body s X l, nth_error mbs r = Some mb -> sideFor nm d r mb body s X l -> Forall (sideOk mbs (sdTotalAlphaD d)) l).
  { intros r mb body s X l Hm [(N & ->)|(N & b & p & A & P & NE & ->)]; constructor; [|constructor]. intros mb' Hm'. simpl in *.
    split; [eapply HP; eauto|]. eapply beginEnd; eauto. }
  rewrite HS. apply Forall_app. split; eauto.
Qed.

Lemma Forall2_nth_r {A B} (P : A -> B -> Prop) l1 l2 k b :
  Forall2 P l1 l2 -> nth_error l2 k = Some b -> exists a, nth_error l1 k = Some a /\ P a b.
Proof.
  intros F; revert k; induction F as [|x y l1 l2 Hp F IH]; intros [|k] H; simpl in *; try discriminate.
  - inversion H; subst. eauto.
  - auto.
Qed.
Lemma Forall2_In_r {A B} (P : A -> B -> Prop) l1 l2 b : Forall2 P l1 l2 -> In b l2 -> exists a, In a l1 /\ P a b.
Proof. intros F H. apply In_nth_error in H as (k & H). destruct (Forall2_nth_r _ _ _ _ _ F H) as (a & Ha & Hp). exists a. split; [eapply nth_error_In; eauto|auto]. Qed.

Lemma clear_ok m c A0 b0 : clear m c = Ok (A0, b0) ->
  mrows A0 = mrows (ccA c) /\ mcols A0 = mcols (ccA c) /\ vlen b0 = vlen (ccB c) /\
  (forall i j, (ccTotal c <= j)%nat -> mget (ccA c) i j = 0 -> mget A0 i j = 0) /\
  (forall i j, (i < ccNrEq c)%nat -> (j < ccTotal c)%nat -> mget A0 i j = 0) /\
  (forall i, (i < ccNrEq c)%nat -> vget b0 i = 0).
Proof.
  assert (G : forall M v, mset_block (ccA c) 0 0 (mzero (ccNrEq c) (ccTotal c)) = Ok M -> vset_seg (ccB c) 0 (vfill (ccNrEq c) 0) = Ok v ->
    mrows M = mrows (ccA c) /\ mcols M = mcols (ccA c) /\ vlen v = vlen (ccB c) /\
    (forall i j, (ccTotal c <= j)%nat -> mget (ccA c) i j = 0 -> mget M i j = 0) /\
    (forall i j, (i < ccNrEq c)%nat -> (j < ccTotal c)%nat -> mget M i j = 0) /\
    (forall i, (i < ccNrEq c)%nat -> vget v i = 0)).
  { intros M v H1 H2. apply mset_block_Ok in H1 as (A1 & A2 & A3 & A4 & A5). apply vset_seg_Ok in H2 as (B1 & B2 & B3). simpl in *.
    do 3 (split; [auto|]). split; [|split].
    - intros i j Hj Hz. rewrite A5. replace (inr 0 (ccTotal c) j) with false by (symmetry; apply inr_false; lia). rewrite andb_false_r. auto.
    - intros i j Hi Hj. rewrite A5. replace (inr 0 (ccTotal c) j) with true by (symmetry; apply inr_true; lia).
      replace (inr 0 (ccNrEq c) i) with true by (symmetry; apply inr_true; lia). auto.
    - intros i Hi. rewrite B3. replace (inr 0 (ccNrEq c) i) with true by (symmetry; apply inr_true; lia). auto. }
  unfold clear. destruct m; intros H.
  - inversion H; subst; simpl. do 3 (split; [auto|]). auto.
  - apply bind_Ok in H as (M & H1 & H). apply bind_Ok in H as (v & H2 & H). inversion H; subst. auto.
  - apply bind_Ok in H as (M & H1 & H). apply bind_Ok in H as (v & H2 & H). inversion H; subst. auto.
Qed.

Lemma Forall2_imp {A B} (P Q : A -> B -> Prop) l l' : (forall a b, P a b -> Q a b) -> Forall2 P l l' -> Forall2 Q l l'.
Proof. intros H. induction 1; constructor; auto. Qed.
Lemma sumRows_F2 l l' : Forall2 (fun c c' => mrows (cdDof c') = mrows (cdDof c)) l l' -> sumRows l' = sumRows l.
Proof. unfold sumRows. induction 1; simpl; auto. Qed.

(** The residual of every row after an update, and the preservation of the invariant. *)
Lemma ccUpdate_ok nm mbs uni bi d deps m sv k c c' :
  nrVarsData mbs uni bi = Ok (d, deps) -> pathsOk nm mbs -> ccInv nm mbs d c -> ccUpdate m mbs sv k c = Ok c' ->
  ccInv nm mbs d c' /\ Forall2 (fun e e' => cdUpdate sv k e = Ok e') (ccCont c) (ccCont c') /\
  forall i x, (i < ccNrEq c')%nat -> resid (ccA c') (ccB c') i x = contrib (contRow m mbs sv k x) 0 (ccCont c') i.
Proof.
  intros HN HP IV H. destruct IV. unfold ccUpdate in H. apply bind_Ok in H as ((A0 & b0) & E0 & H).
  apply bind_Ok in H as (((((l & dj) & full) & A) & b) & E & H). inversion H; subst; clear H. simpl.
  apply clear_ok in E0 as (C1 & C2 & C3 & C4 & C5 & C6).
  apply (contUpdate_ok _ _ _ _ (sdTotalAlphaD d)) in E as (F & D1 & D2 & D3 & D4 & D5 & D6 & D7 & D8 & D9).
  2:{ intros cd cd' Hcd Hu. rewrite Forall_forall in ivData0. destruct (ivData0 cd Hcd) as (Rc & Dc).
      destruct (cdUpdate_frames _ _ _ _ _ _ _ Rc Dc Hu) as (_ & Dc'). eapply dataFor_sides; eauto. }
  assert (HL : length l = length (ccCont c)) by (symmetry; eapply Forall2_len; eauto).
  assert (HSR : sumRows l = sumRows (ccCont c)).
  { apply sumRows_F2. eapply Forall2_imp; [|exact F]. intros e e' He. apply cdUpdate_dof in He as (-> & _). auto. }
  split; [|split; [auto|]].
  - constructor; simpl; try congruence; try lia.
    + intros i j Hj. rewrite D8 by auto. apply C4; [lia|]. auto.
    + intros mb Hmb. rewrite D4. auto.
    + intros mb Hmb. rewrite D2. auto.
    + apply Forall_forall. intros cd' Hcd'. destruct (Forall2_In_r _ _ _ _ F Hcd') as (cd & Hcd & Hu).
      rewrite Forall_forall in ivData0. destruct (ivData0 cd Hcd). eapply cdUpdate_frames; eauto.
  - intros i x Hi. rewrite D9. assert (Z : resid A0 b0 i x = 0); [|rewrite Z; ring].
    unfold resid. rewrite C6 by auto. unfold rowdot. rewrite sumn_0; [ring|]. intros j _. destruct (Nat.lt_ge_cases j (ccTotal c)).
    + rewrite C5 by auto. ring.
    + rewrite C4; [ring|auto|]. apply ivZero0. lia.
Qed.

Lemma dofChange_inv nm mbs d c : ccInv nm mbs d c -> ccInv nm mbs d (updateDofContacts c).
Proof.
  intros []. constructor; simpl; rewrite ?map_length; auto.
  apply Forall_forall. intros cd H. apply in_map_iff in H as (cd0 & <- & H). rewrite Forall_forall in ivData0. apply (ivData0 _ H).
Qed.
Lemma inv_ext nm mbs d c c' : ccCont c' = ccCont c -> ccA c' = ccA c -> ccB c' = ccB c -> ccFull c' = ccFull c -> ccDofJac c' = ccDofJac c ->
  ccNrEq c' = ccNrEq c -> ccTotal c' = ccTotal c -> ccInv nm mbs d c -> ccInv nm mbs d c'.
Proof. intros E1 E2 E3 E4 E5 E6 E7 []. constructor; rewrite ?E1, ?E2, ?E3, ?E4, ?E5, ?E6, ?E7; auto. Qed.

Lemma inv_step nm mbs uni bi d deps c o c' b : nrVarsData mbs uni bi = Ok (d, deps) -> pathsOk nm mbs ->
  sameProblem mbs o -> ccInv nm mbs d c -> ccStep c o = Ok (c', b) -> ccInv nm mbs d c'.
Proof.
  intros HN HP HO IV H. destruct o as [id|id| |id m|id| |id|id|nm' mbs' d'| |m mbs' sv k]; simpl in *; try tauto.
  - unfold addVirtualContact in H. destruct (mInsert _ _ _). inversion H; subst. apply (inv_ext _ _ _ c); auto.
  - unfold removeVirtualContact in H. destruct (mErase _ _). inversion H; subst. apply (inv_ext _ _ _ c); auto.
  - inversion H; subst. apply (inv_ext _ _ _ c); auto.
  - unfold addDofContact in H. destruct (mInsert _ _ _). inversion H; subst. apply (inv_ext _ _ _ c); auto.
  - unfold removeDofContact in H. destruct (mErase _ _). inversion H; subst. apply (inv_ext _ _ _ c); auto.
  - inversion H; subst. apply (inv_ext _ _ _ c); auto.
  - inversion H; subst; auto.
  - inversion H; subst. unfold dofContact. destruct (mFind id (ccDofs c)); simpl; auto. apply (inv_ext _ _ _ c); auto.
  - inversion H; subst. apply dofChange_inv. auto.
  - subst. apply bind_Ok in H as (c1 & H1 & H). inversion H; subst. eapply ccUpdate_ok; eauto.
Qed.
Lemma inv_run nm mbs uni bi d deps ops : nrVarsData mbs uni bi = Ok (d, deps) -> pathsOk nm mbs -> Forall (sameProblem mbs) ops ->
  forall c c' outs, ccInv nm mbs d c -> ccRun c ops = Ok (c', outs) -> ccInv nm mbs d c'.
Proof.
  intros HN HP. induction ops as [|o ops IH]; intros F c c' outs IV H; simpl in H; [inversion H; subst; auto|].
  inversion F; subst. apply bind_Ok in H as ((c1 & b) & H1 & H). apply bind_Ok in H as ((c2 & bs) & H2' & H). inversion H; subst.
  eapply IH; [auto| |eauto]. eapply inv_step; eauto.
Qed.

(** C31 *)
Lemma rows_lemma nm mbs uni bi d deps ops0 c0 o0 c1 ops c2 o1 m sv k c3 x :
  nrVarsData mbs uni bi = Ok (d, deps) -> pathsOk nm mbs -> (forall b, In b (sdAll d) -> rigid (bXcf b) /\ rigid (bXbb b)) -> modeOk m ->
  ccRun newCC ops0 = Ok (c0, o0) -> updateNrVars nm mbs d c0 = Ok c1 ->
  Forall (sameProblem mbs) ops -> ccRun c1 ops = Ok (c2, o1) -> ccUpdate m mbs sv k c2 = Ok c3 ->
  (holdsEq (sdNrVars d) x (ccEquality c3) <-> Forall (fun cd => contactHolds nm mbs d m sv k cd x) (ccCont c3)).
Proof.
  intros HN HP HR HM R0 U R1 R2 H. pose proof (sorted_run _ _ _ _ sorted_new R0) as S0.
  pose proof (inv_nrVars _ _ _ _ _ _ _ _ HN HR S0 U) as I1. pose proof (inv_run _ _ _ _ _ _ _ HN HP R1 _ _ _ I1 R2) as I2.
  destruct (ccUpdate_ok _ _ _ _ _ _ _ _ _ _ _ HN HP I2 H) as (I3 & F & HRes). destruct I3.
  unfold holdsEq. simpl. unfold ccNr.
  assert (G : Forall (fun c => forall r, (r < mrows (cdDof c))%nat -> contRow m mbs sv k x c r = 0) (ccCont c3) <->
              Forall (fun cd => contactHolds nm mbs d m sv k cd x) (ccCont c3)).
  { rewrite !Forall_forall in *. split; intros G cd Hcd; specialize (G cd Hcd); intros r Hr; specialize (G r Hr);
      eapply contRow_meaning; eauto; apply (ivData0 cd Hcd). }
  rewrite <- G, <- (contrib_zero (contRow m mbs sv k x) (ccCont c3) 0). simpl. rewrite <- ivNr0. split.
  - intros HH i Hi. rewrite <- HRes by lia. unfold resid. unfold rowdot. rewrite ivCols0. rewrite HH by lia. ring.
  - intros HH i Hi. specialize (HH i ltac:(lia)). rewrite <- HRes in HH by lia. unfold resid, rowdot in HH. rewrite ivCols0 in HH. lra.
Qed.
