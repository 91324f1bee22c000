(** Proofs of the remaining motion constraint properties: polynomial limits, positivity of the multipliers,
    torque accessor, contact matrix, contact of a robot with itself. *)
From Verif Require Export MotionLimits.
Open Scope list_scope.
Open Scope R_scope.
Local Arguments sumn : simpl never.

(** * Polynomial limits *)
Lemma horner_sum p x : horner p x = sumn (length p) (fun k => nth k p 0 * x ^ k).
Proof.
  induction p as [|c p IH]; [reflexivity|]. simpl length. rewrite sumn_cons. cbn [horner]. rewrite IH, <- sumn_scal. simpl nth.
  rewrite pow_O, Rmult_1_r. f_equal. apply sumn_ext. intros k _. simpl. ring.
Qed.
Lemma polyEval_Ok p x v : polyEval p x = Ok v -> v = sumn (length p) (fun k => nth k p 0 * x ^ k).
Proof. rewrite <- horner_sum. destruct p; [discriminate|]. intros H; injection H as <-. reflexivity. Qed.

Lemma dof_owner mb j : (j < nrDof mb)%nat -> exists i jt k, nth_error (joints mb) i = Some jt /\ (k < jdof jt)%nat /\ j = (jointPosInDof mb i + k)%nat.
Proof.
  unfold nrDof, jointPosInDof. revert j. induction (joints mb) as [|a l IH]; intros j H; [simpl in H; lia|]. simpl in H.
  destruct (Nat.lt_ge_cases j (jdof a)) as [L|L].
  - exists 0%nat, a, j. simpl. auto.
  - destruct (IH (j - jdof a)%nat) as (i & jt & k & H1 & H2 & H3); [lia|]. exists (S i), jt, k. simpl. repeat split; auto. lia.
Qed.

Lemma skipn_tl {A} (l : list A) : forall i, skipn (S i) l = tl (skipn i l).
Proof. induction l as [|a l IH]; intros [|i]; try reflexivity. change (skipn (S i) l = tl (skipn i l)). apply IH. Qed.
Lemma polyBounds_ok mb q pl pu : forall js i bs AL AU AL' AU',
  js = skipn i (joints mb) -> polyLoop js i pl pu = Ok bs -> polyBounds mb q bs AL AU = Ok (AL', AU') ->
  vlen AL' = vlen AL /\ vlen AU' = vlen AU /\
  (forall j, (j < jointPosInDof mb i)%nat -> vget AL' j = vget AL j /\ vget AU' j = vget AU j) /\
  (forall t jt k, nth_error js t = Some jt -> (k < jdof jt)%nat ->
     let j := (jointPosInDof mb (i + t) + k)%nat in
     vget AL' j = (if Nat.eqb (jdof jt) 1 then eaddr (vget AL j) (polyAt pl (i + t) (nth 0 (nth (i + t) q []) 0)) else vget AL j) /\
     vget AU' j = (if Nat.eqb (jdof jt) 1 then eaddr (vget AU j) (polyAt pu (i + t) (nth 0 (nth (i + t) q []) 0)) else vget AU j)).
Proof.
  induction js as [|jt js IH]; intros i bs AL AU AL' AU' HJ HL HB.
  - injection HL as <-. injection HB as <- <-. repeat split; auto; destruct t; discriminate.
  - cbn [polyLoop] in HL. apply bind_Ok in HL as (hd & H1 & HL). apply bind_Ok in HL as (l & H2 & HL). injection HL as <-.
    assert (E0 : nth_error (joints mb) i = Some jt).
    { rewrite <- (firstn_skipn i (joints mb)), <- HJ, nth_error_app2.
      - rewrite firstn_length_le; [rewrite Nat.sub_diag; reflexivity|].
        destruct (Nat.le_gt_cases i (length (joints mb))); [auto|]. rewrite skipn_all2 in HJ by lia. discriminate.
      - rewrite firstn_length. lia. }
    assert (LT : (i < length (joints mb))%nat) by (apply nth_error_Some; congruence).
    assert (HJ' : js = skipn (S i) (joints mb)).
    { rewrite skipn_tl, <- HJ. reflexivity. }
    assert (PS : jointPosInDof mb (S i) = (jointPosInDof mb i + jdof jt)%nat).
    { rewrite posInDof_S by auto. unfold jointDof. rewrite E0. reflexivity. }
    destruct (Nat.eqb (jdof jt) 1) eqn:D1.
    + apply bind_Ok in H1 as (a & A1 & H1). apply bind_Ok in H1 as (a0 & A2 & H1). apply bind_Ok in H1 as (b & B1 & H1). apply bind_Ok in H1 as (b0 & B2 & H1).
      injection H1 as <-. cbn [app polyBounds] in HB.
      apply bind_Ok in HB as (qs & Q1 & HB). apply bind_Ok in HB as (q0 & Q2 & HB). apply bind_Ok in HB as (lv & L1 & HB). apply bind_Ok in HB as (uv & U1 & HB).
      apply bind_Ok in HB as (al & V1 & HB). apply bind_Ok in HB as (au & V2 & HB). apply bind_Ok in HB as (AL1 & P1 & HB). apply bind_Ok in HB as (AU1 & P2 & HB).
      apply vget_at_Ok in V1 as (_ & ->). apply vget_at_Ok in V2 as (_ & ->). apply vput_Ok in P1 as (_ & P11 & P12). apply vput_Ok in P2 as (_ & P21 & P22).
      apply polyEval_Ok in L1. apply polyEval_Ok in U1.
      destruct (IH (S i) l AL1 AU1 AL' AU' HJ' H2 HB) as (K1 & K2 & K3 & K4).
      split; [congruence|]. split; [congruence|]. apply Nat.eqb_eq in D1. split.
      * intros j Hj. destruct (K3 j) as (-> & ->); [lia|]. rewrite P12, P22. rewrite (proj2 (Nat.eqb_neq j (jointPosInDof mb i))) by lia. auto.
      * intros [|t] jt' k Ht Hk; cbn [nth_error] in Ht.
        -- injection Ht as <-. rewrite D1 in *. assert (k = 0%nat) by lia. subst k. cbv zeta. rewrite !Nat.add_0_r. cbn [Nat.eqb].
           destruct (K3 (jointPosInDof mb i)) as (-> & ->); [lia|]. rewrite P12, P22, Nat.eqb_refl. unfold polyAt.
           rewrite (vec_at_nth _ _ _ _ A1), (vec_at_nth _ _ _ _ A2), (vec_at_nth _ _ _ _ B1), (vec_at_nth _ _ _ _ B2),
             (vec_at_nth _ _ _ _ Q1), (vec_at_nth _ _ _ _ Q2). subst. auto.
        -- replace (i + S t)%nat with (S i + t)%nat by lia. cbv zeta. destruct (K4 t jt' k Ht Hk) as (-> & ->).
           rewrite P12, P22. pose proof (posInDof_mono mb (S i) (S i + t) ltac:(lia)) as X.
           rewrite (proj2 (Nat.eqb_neq _ (jointPosInDof mb i))) by lia. auto.
    + injection H1 as <-. cbn [app] in HB. destruct (IH (S i) l AL AU AL' AU' HJ' H2 HB) as (K1 & K2 & K3 & K4).
      split; [auto|]. split; [auto|]. split.
      * intros j Hj. apply K3. lia.
      * intros [|t] jt' k Ht Hk; cbn [nth_error] in Ht.
        -- injection Ht as <-. rewrite D1. cbv zeta. apply K3. rewrite Nat.add_0_r. lia.
        -- replace (i + S t)%nat with (S i + t)%nat by lia. apply (K4 t jt' k Ht Hk).
Qed.

Record mpInv nm mbs r mb (pl pu : list (list (list R))) (h : mhist) (m : motionPoly) : Prop := {
  mpB : mBase mbs r mb (mpC m);
  mpL : polyLoop (joints mb) 0 pl pu = Ok (mpBounds m);
  mpD : forall d, hData h = Some d -> sizesOf mbs d /\ exists b, mInv nm mbs r mb d b (mpC m);
  mpY : forall dy, hDyn h = Some dy -> exists d, hData h = Some d /\
     mcH (mpC m) = mkMat (nrDof mb) (nrDof mb) (dH dy r) /\ mcC (mpC m) = mkVec (nrDof mb) (dC dy r) /\
     (forall i x, (i < nrDof mb)%nat ->
       sumn (sdTotalLambda d) (fun q => mget (mcA (mpC m)) i (sdTotalAlphaD d + q)%nat * x (sdTotalAlphaD d + q)%nat)
       = - contactForces (lastHeldBy r) nm dy mb r (sdAll d) (sdTotalAlphaD d) x i) }.

Lemma mpUpdate_ok nm mbs r mb pl pu h m dy m' d : pathsWf nm mbs -> mpInv nm mbs r mb pl pu h m -> hData h = Some d -> mpUpdate mbs dy m = Ok m' ->
  mpInv nm mbs r mb pl pu (mkMH (Some d) (Some dy) (S (hCount h)) (hCur h)) m' /\
  forall x, holdsGen (sdNrVars d) x (mcGen (mpC m')) <-> polyRow mb pl pu (dQ dy r) (invTorqueLast nm mbs d dy r x).
Proof.
  intros PW [B L D Y] HD H. destruct (D d HD) as (SZ & b & IV). unfold mpUpdate in H.
  rewrite (ivR _ _ _ _ _ _ _ IV) in H. rewrite (ContactProofs.vec_at_Some _ _ _ (ivMb _ _ _ _ _ _ _ IV)) in H. cbn [bind] in H.
  destruct (computeMatrix_ok nm mbs r mb d b dy (mpC m) SZ PW IV) as (c & E & IV' & K1 & K2 & K3 & K4 & K5 & K6 & K7 & K8 & K9).
  rewrite E in H. cbn [bind] in H. rewrite (ivR _ _ _ _ _ _ _ IV') in H. apply bind_Ok in H as ([AL AU] & HB & H). injection H as <-.
  destruct (polyBounds_ok mb _ pl pu (joints mb) 0 _ _ _ _ _ eq_refl L HB) as (V1 & V2 & _ & V3).
  rewrite K5, K6 in V3. rewrite K5 in V1. rewrite K6 in V2. cbn [vlen vget Nat.add] in V1, V2, V3. split.
  - constructor; cbn [mpC mpBounds hData hDyn hCount hCur]; auto.
    + destruct IV' as [X1 X2 X3 _ _ _ _ (X4 & X5) _ _ _ _ _]. unfold mBase, with_limits; cbn [mcRobot mcN mcJT mcCur]. destruct B as (_ & _ & _ & _ & _ & B). rewrite ?K1. auto 10.
    + intros d' X. injection X as <-. split; [auto|]. exists b. destruct IV'. constructor; auto.
    + intros dy' X. injection X as <-. exists d. split; [auto|]. auto.
  - intros x. unfold holdsGen, mcGen. cbn [giNr giL giU giA mpC with_limits mcA mcAL mcAU vget].
    destruct (ivA _ _ _ _ _ _ _ IV') as (A1 & A2). rewrite A1.
    assert (RD : forall j, (j < nrDof mb)%nat -> sumn (sdNrVars d) (fun k => mget (mcA c) j k * x k) = invTorqueLast nm mbs d dy r x j - dC dy r j).
    { intros j Hj. rewrite <- K9 by auto. unfold rowdot. rewrite A2. reflexivity. }
    assert (ROW : forall i jt k, nth_error (joints mb) i = Some jt -> (k < jdof jt)%nat -> let j := (jointPosInDof mb i + k)%nat in (j < nrDof mb)%nat /\
      (between (vget AL j) (sumn (sdNrVars d) (fun k => mget (mcA c) j k * x k)) (vget AU j) <->
       if Nat.eqb (jdof jt) 1 then polyAt pl i (nth 0 (nth i (dQ dy r) []) 0) <= invTorqueLast nm mbs d dy r x j <= polyAt pu i (nth 0 (nth i (dQ dy r) []) 0)
       else invTorqueLast nm mbs d dy r x j = 0)).
    { intros i jt k Hi Hk j. assert (I : (i < length (joints mb))%nat) by (apply nth_error_Some; congruence).
      pose proof (posInDof_le mb i I) as PI. unfold jointDof in PI. rewrite Hi in PI. assert (Hj : (j < nrDof mb)%nat) by (unfold j; lia).
      split; [auto|]. rewrite RD by auto. destruct (V3 i jt k Hi Hk) as (EL & EU). fold j in EL, EU. rewrite EL, EU.
      destruct (Nat.eqb (jdof jt) 1); unfold between, ele, eaddr; lra. }
    split.
    + intros X i jt k Hi Hk. destruct (ROW i jt k Hi Hk) as (Hj & R). apply R. apply X. exact Hj.
    + intros X j Hj. destruct (dof_owner mb j Hj) as (i & jt & k & Hi & Hk & ->). apply (ROW i jt k Hi Hk). apply (X i jt k Hi Hk).
Qed.

Lemma mpRun_inv nm mbs r mb pl pu : pathsWf nm mbs -> forall ops h m h' m',
  Forall (opData (sizesOf mbs)) ops -> mpInv nm mbs r mb pl pu h m ->
  mhRun (fun d dy => invTorqueLast nm mbs d dy r) h ops = Some h' -> mpRun nm mbs m ops = Ok m' ->
  mpInv nm mbs r mb pl pu h' m'.
Proof.
  intros PW. induction ops as [|o ops IH]; intros h m h' m' F IV HR MR.
  - injection HR as <-. injection MR as <-. auto.
  - apply Forall_cons_iff in F as (F1 & F). cbn [mpRun] in MR. apply bind_Ok in MR as (m1 & M1 & MR). cbn [mhRun] in HR.
    destruct (mhStep _ h o) as [h1|] eqn:E; [|discriminate]. refine (IH h1 m1 _ _ F _ HR MR). clear IH.
    destruct o as [d|dy|a l]; cbn [mhStep mpStep opData] in *.
    + injection E as <-. unfold mpNrVars in M1. apply bind_Ok in M1 as (c & HC & M1). injection M1 as <-. destruct IV as [B L D Y].
      destruct (mcNrVars_inv nm mbs r mb d (mpC m) c B HC) as (b & IV & E1 & E2).
      constructor; cbn [mpC mpBounds hData hDyn]; auto; [| |discriminate].
      * destruct B as (B1 & B2 & B3 & B4 & B5 & B6). destruct IV as [X1 X2 X3 _ _ _ _ (X4 & X5) _ _ _ _ _]. unfold mBase. rewrite E1. auto 10.
      * intros d0 X. injection X as <-. split; [auto|]. exists b. auto.
    + destruct (hData h) as [d|] eqn:HD; [|discriminate]. injection E as <-. eapply mpUpdate_ok; eauto.
    + destruct (hData h) as [d|] eqn:HD; [|discriminate]. destruct (hDyn h) as [dy|] eqn:HY; [|discriminate]. injection E as <-.
      apply bind_Ok in M1 as (c & HC & M1). injection M1 as <-. destruct IV as [B L D Y].
      destruct (D d HD) as (SZ & b & IV). destruct (Y dy HY) as (d' & HD' & Y1 & Y2 & Y3). assert (d' = d) by congruence. subst d'.
      destruct (computeTorque_ok nm mbs r mb d b dy (mpC m) a l c IV SZ Y1 Y2 Y3 HC) as (T1 & T2 & T3).
      constructor; cbn [mpC mpBounds hData hDyn]; auto.
      * destruct B as (B1 & B2 & B3 & B4 & B5 & B6). unfold mBase. rewrite T3. simpl. auto 10.
      * intros d0 X. injection X as <-. split; [auto|]. exists b. rewrite T3. destruct IV. constructor; simpl; auto.
      * intros dy0 X. injection X as <-. exists d. split; [auto|]. rewrite T3. simpl. auto.
Qed.
Lemma mpRun_app nm mbs ops1 : forall m ops2, mpRun nm mbs m (ops1 ++ ops2) = do m' <- mpRun nm mbs m ops1; mpRun nm mbs m' ops2.
Proof. induction ops1 as [|o ops1 IH]; intros m ops2; [reflexivity|]. simpl. destruct (mpStep nm mbs m o); simpl; auto. Qed.

Lemma poly_lemma nm mbs r pl pu m0 ops dy m h d :
  newPoly mbs r pl pu = Ok m0 -> pathsWf nm mbs -> Forall (opData (fun d => sizesOf mbs d /\ noSelf r d)) ops ->
  mhRun (fun d dy => invTorque nm mbs d dy r) mh0 ops = Some h -> hData h = Some d ->
  mpRun nm mbs m0 (ops ++ [MOUpdate dy]) = Ok m ->
  exists mb, nth_error mbs r = Some mb /\
  forall x, holdsGen (sdNrVars d) x (mcGen (mpC m)) <-> polyRow mb pl pu (dQ dy r) (invTorque nm mbs d dy r x).
Proof.
  intros HN PW F HR HD MR. rewrite hist_noSelf in HR by auto.
  destruct (hist_data _ (fun d => sizesOf mbs d /\ noSelf r d) ops mh0 h F ltac:(discriminate) HR d HD) as (_ & NS).
  unfold newPoly in HN. apply bind_Ok in HN as (mb & M & HN). apply vec_at_Ok in M. apply bind_Ok in HN as (c & HC & HN). apply bind_Ok in HN as (bs & HP & HN).
  injection HN as <-. unfold newMC in HC. rewrite (ContactProofs.vec_at_Some _ _ _ M) in HC. cbn [bind] in HC. injection HC as <-.
  rewrite mpRun_app in MR. apply bind_Ok in MR as (m1 & M1 & MR). cbn [mpRun] in MR. apply bind_Ok in MR as (m2 & M2 & MR). injection MR as <-.
  assert (I0 : mpInv nm mbs r mb pl pu mh0 (mkMP (mkMC r (-1) (nrDof mb) (-1) (mzero (nrDof mb) (nrDof mb)) (vfill (nrDof mb) 0) (mzero 0 0) (mzero 6 (nrDof mb)) (mzero 0 0) []
            (vfill (nrDof mb) 0) (mzero 0 0) (vfill (nrDof mb) (Fin 0)) (vfill (nrDof mb) (Fin 0)) 0) bs)).
  { constructor; simpl; auto; try discriminate. unfold mBase; simpl; auto 10. }
  assert (F' : Forall (opData (sizesOf mbs)) ops) by (eapply opData_imp; [|exact F]; simpl; tauto).
  pose proof (mpRun_inv nm mbs r mb pl pu PW ops mh0 _ h m1 F' I0 HR M1) as I1.
  destruct (mpUpdate_ok nm mbs r mb pl pu h m1 dy m2 d PW I1 HD M2) as (_ & X).
  exists mb. split; [auto|]. intros x. rewrite X. unfold polyRow.
  split; intros K i jt k Hi Hk; specialize (K i jt k Hi Hk); cbv zeta in *; rewrite invTorque_noSelf in *; auto.
Qed.

(** * Positive multipliers *)
Lemma plLoop_ok d : forall cs i l, plLoop d cs i = Ok l ->
  Forall2 (fun c p => plId p = bId c /\ bNrLambda c = Ok (plNr p)) cs l /\
  forall k p, nth_error l k = Some p -> lambdaBeginAt d (i + k) = Ok (plBegin p).
Proof.
  induction cs as [|c cs IH]; intros i l H; cbn [plLoop] in H.
  - injection H as <-. split; [constructor|]. intros [|k] p X; discriminate.
  - apply bind_Ok in H as (b & HB & H). apply bind_Ok in H as (n & HN & H). apply bind_Ok in H as (l' & HL & H). injection H as <-.
    destruct (IH _ _ HL) as (F & G). split; [constructor; auto|]. intros [|k] p X; simpl in X.
    + injection X as <-. rewrite Nat.add_0_r. auto.
    + replace (i + S k)%nat with (S i + k)%nat by lia. auto.
Qed.

Lemma Forall2_len {A B} (P : A -> B -> Prop) l l' : Forall2 P l l' -> length l = length l'.
Proof. induction 1; simpl; auto. Qed.
Lemma plFind_ok lam : forall l line k p, nth_error l k = Some p -> (lam <= plBegin p)%nat ->
  (forall k', (k' < k)%nat -> forall p', nth_error l k' = Some p' -> (plBegin p' + plNr p' <= plBegin p)%nat) ->
  (plBegin p <= lam + line < plBegin p + plNr p)%nat ->
  plFind (Z.of_nat lam) l line = Some (r1Body (plId p), r2Body (plId p)).
Proof.
  induction l as [|a l IH]; intros line [|k] p HK HG HP HL; simpl in HK; try discriminate; cbn [plFind].
  - injection HK as ->.
    replace ((Z.of_nat (plBegin p) - Z.of_nat lam <=? Z.of_nat line)%Z && (Z.of_nat line <? Z.of_nat (plBegin p) - Z.of_nat lam + Z.of_nat (plNr p))%Z)%bool with true; [auto|].
    symmetry. apply andb_true_iff. split; [apply Z.leb_le|apply Z.ltb_lt]; lia.
  - pose proof (HP 0%nat ltac:(lia) a eq_refl) as X.
    replace ((Z.of_nat (plBegin a) - Z.of_nat lam <=? Z.of_nat line)%Z && (Z.of_nat line <? Z.of_nat (plBegin a) - Z.of_nat lam + Z.of_nat (plNr a))%Z)%bool with false.
    + apply (IH line k p HK HG); auto. intros k' Hk' p' Hp'. apply (HP (S k')); [lia|auto].
    + symmetry. apply andb_false_iff. right. apply Z.ltb_ge. lia.
Qed.

Lemma total_firstn_le cs k k' c : (k' < k)%nat -> nth_error cs k' = Some c -> (total (firstn k' cs) + biLambdaCount c <= total (firstn k cs))%nat.
Proof.
  unfold total. revert k k'. induction cs as [|a cs IH]; intros [|k] [|k'] H E; simpl in *; try discriminate; try lia.
  - injection E as ->. lia.
  - specialize (IH k k' ltac:(lia) E). lia.
Qed.

Lemma positive_lemma mbs d : sizesOf mbs d ->
  exists p b, plNrVars d = Ok p /\ plBound p = Ok b /\
    (forall x, holdsBound x b <-> forall i, (sdTotalAlphaD d <= i < sdNrVars d)%nat -> 0 <= x i) /\
    (forall k c s line, nth_error (sdAll d) k = Some c -> lambdaBeginAt d k = Ok s ->
       (s <= sdTotalAlphaD d + line < s + biLambdaCount c)%nat -> plDesc p line = Some (r1Body (bId c), r2Body (bId c))).
Proof.
  intros SZ. destruct (sizes_begins mbs d SZ) as (BG & TL & NV). destruct SZ as (_ & WF).
  assert (NB : forall c, wfBilateral c -> bNrLambda c = Ok (biLambdaCount c)).
  { intros c (W & _). apply bNrLambda_spec. unfold wfBi. lia. }
  assert (PL : forall cs i, Forall wfBilateral cs -> (forall k c, nth_error cs k = Some c -> exists b, lambdaBeginAt d (i + k) = Ok b) -> exists l, plLoop d cs i = Ok l).
  { induction cs as [|c cs IH]; intros i W HB; [simpl; eauto|]. apply Forall_cons_iff in W as (W1 & W). cbn [plLoop].
    destruct (HB 0%nat c eq_refl) as (b & B0). rewrite Nat.add_0_r in B0. rewrite B0, (NB c W1). cbn [bind].
    destruct (IH (S i) W) as (l & ->); [|simpl; eauto]. intros k c0 Hk. replace (S i + k)%nat with (i + S k)%nat by lia. apply (HB (S k) c0 Hk). }
  destruct (PL (sdAll d) 0%nat WF) as (l & HL).
  { intros k c Hk. exists (sdTotalAlphaD d + total (firstn k (sdAll d)))%nat. apply (BG k c Hk). }
  destruct (plLoop_ok d _ _ _ HL) as (F & G).
  exists (mkPL (Z.of_nat (lambdaBegin d)) (vfill (sdTotalLambda d) (Fin 0)) (vfill (sdTotalLambda d) PInf) l),
    (mkBound (sdTotalAlphaD d) (vfill (sdTotalLambda d) (Fin 0)) (vfill (sdTotalLambda d) PInf)).
  split; [unfold plNrVars; rewrite HL; reflexivity|]. split; [|split].
  - unfold plBound, zidx. cbn [plLam]. replace (0 <=? Z.of_nat (lambdaBegin d))%Z with true by (symmetry; apply Z.leb_le; lia). cbn [bind]. rewrite Nat2Z.id. reflexivity.
  - intros x. unfold holdsBound; simpl. split.
    + intros H i Hi. destruct (H (i - sdTotalAlphaD d)%nat) as (H1 & _). replace (sdTotalAlphaD d + (i - sdTotalAlphaD d))%nat with i in H1 by lia. apply H1. lia.
    + intros H i. split; [|auto]. intros Hi. apply H. lia.
  - intros k c s line Hk Hs Hl. unfold plDesc. cbn [plLam plCont_].
    assert (KL : (k < length l)%nat).
    { rewrite <- (Forall2_len _ _ _ F). apply nth_error_Some. congruence. }
    destruct (nth_error l k) as [p|] eqn:HP; [|apply nth_error_None in HP; lia].
    destruct (Forall2_nth_r _ _ _ _ _ F HP) as (c' & Hc' & E1 & E2). assert (c' = c) by congruence. subst c'.
    assert (EN : plNr p = biLambdaCount c).
    { rewrite NB in E2; [congruence|]. rewrite Forall_forall in WF. apply WF. eapply nth_error_In; eauto. }
    pose proof (G k p HP) as E3. cbn [Nat.add] in E3. assert (EB : plBegin p = s) by congruence.
    rewrite <- E1. apply (plFind_ok (lambdaBegin d) l line k p HP).
    + rewrite EB. unfold lambdaBegin. rewrite (BG k c Hk) in Hs. injection Hs as <-. lia.
    + intros k' Hk' p' Hp'. destruct (Forall2_nth_r _ _ _ _ _ F Hp') as (c1 & Hc1 & E1' & E2').
      pose proof (G k' p' Hp') as E3'. cbn [Nat.add] in E3'.
      rewrite (BG k' c1 Hc1) in E3'. rewrite (BG k c Hk) in Hs.
      assert (plNr p' = biLambdaCount c1). { rewrite NB in E2'; [congruence|]. rewrite Forall_forall in WF. apply WF. eapply nth_error_In; eauto. }
      injection E3' as <-. injection Hs as <-. pose proof (total_firstn_le (sdAll d) k k' c1 Hk' Hc1). rewrite EB. lia.
    + unfold lambdaBegin. rewrite EB, EN. auto.
Qed.

(** * The torque accessor *)
Lemma writeJoint_ok v : forall e pos r, writeJoint e v pos = Ok r -> length r = length e /\ forall k, (k < length e)%nat -> nth_error r k = Some (vget v (pos + k)%nat).
Proof.
  induction e as [|a e IH]; intros pos r H; cbn [writeJoint] in H.
  - injection H as <-. split; [auto|]. simpl; lia.
  - apply bind_Ok in H as (b & HB & H). apply bind_Ok in H as (r' & HR & H). injection H as <-. apply vget_at_Ok in HB as (_ & ->).
    destruct (IH _ _ HR) as (I1 & I2). split; [simpl; auto|]. intros [|k] Hk; simpl in *; [rewrite Nat.add_0_r; auto|].
    rewrite I2 by lia. do 2 f_equal. lia.
Qed.
Lemma writeJoints_ok v : forall es pos r, writeJoints es v pos = Ok r ->
  length r = length es /\ forall i e, nth_error es i = Some e -> exists f, nth_error r i = Some f /\ length f = length e /\
    forall k, (k < length e)%nat -> nth_error f k = Some (vget v (pos + sumnat (map (@length R) (firstn i es)) + k)%nat).
Proof.
  induction es as [|e es IH]; intros pos r H; cbn [writeJoints] in H.
  - injection H as <-. split; [auto|]. intros [|i] e X; discriminate.
  - apply bind_Ok in H as (f & HF & H). apply bind_Ok in H as (r' & HR & H). injection H as <-.
    destruct (writeJoint_ok v e pos f HF) as (W1 & W2). destruct (IH _ _ HR) as (I1 & I2). split; [simpl; auto|].
    intros [|i] e0 X; simpl in X.
    + injection X as <-. exists f. split; [reflexivity|]. split; [auto|]. intros k Hk. rewrite W2 by auto. do 2 f_equal. simpl. lia.
    + destruct (I2 i e0 X) as (g & G1 & G2 & G3). exists g. split; [exact G1|]. split; [auto|]. intros k Hk. rewrite G3 by auto. do 2 f_equal. simpl. lia.
Qed.
Lemma writeJoint_def v : forall e pos, (pos + length e <= vlen v)%nat -> exists r, writeJoint e v pos = Ok r.
Proof.
  induction e as [|a e IH]; intros pos H; [simpl; eauto|]. cbn [writeJoint length] in *. unfold vget_at.
  rewrite (proj2 (Nat.ltb_lt pos (vlen v))) by lia. cbn [bind]. destruct (IH (S pos)) as (r & ->); [lia|]. simpl. eauto.
Qed.
Lemma writeJoints_def v : forall es pos, (pos + sumnat (map (@length R) es) <= vlen v)%nat -> exists r, writeJoints es v pos = Ok r.
Proof.
  induction es as [|e es IH]; intros pos H; [simpl; eauto|]. cbn [writeJoints map sumnat] in *.
  destruct (writeJoint_def v e pos) as (r & ->); [lia|]. cbn [bind]. destruct (IH (pos + length e)%nat) as (l & ->); [lia|]. simpl. eauto.
Qed.

Lemma nth_error_eq {A} (l l' : list A) : (forall i, nth_error l i = nth_error l' i) -> l = l'.
Proof.
  revert l'. induction l as [|a l IH]; intros [|b l'] H; [auto|specialize (H 0%nat); discriminate|specialize (H 0%nat); discriminate|].
  pose proof (H 0%nat) as X. injection X as ->. f_equal. apply IH. intros i. apply (H (S i)).
Qed.
Lemma accessor_lemma mbs m mb jt : nth_error mbs (mcRobot m) = Some mb -> vlen (mcCur m) = nrDof mb -> joints mb <> [] ->
  map (@length R) jt = map jdof (joints mb) ->
  exists jt', writeTorque mbs m jt = Ok jt' /\ map (@length R) jt' = map jdof (joints mb) /\ nth_error jt' 0 = nth_error jt 0 /\
    forall i e k, (0 < i)%nat -> nth_error jt' i = Some e -> (k < length e)%nat ->
      nth_error e k = Some (vget (mcCur m) (jointPosInDof mb i + k)%nat).
Proof.
  intros M V NE HS. unfold writeTorque. rewrite (ContactProofs.vec_at_Some _ _ _ M). cbn [bind].
  unfold jointPosInDof, nrDof in *. destruct (joints mb) as [|j0 js]; [congruence|]. unfold vec_at. simpl nth_error. cbn [bind].
  destruct jt as [|e0 es]; [discriminate|]. simpl in HS. injection HS as E0 ES. simpl in V.
  destruct (writeJoints_def (mcCur m) es (jdof j0)) as (r & HR); [rewrite ES; lia|]. rewrite HR. cbn [bind].
  destruct (writeJoints_ok _ _ _ _ HR) as (W1 & W2).
  exists (e0 :: r). split; [auto|]. 
  assert (LR : map (@length R) r = map (@length R) es).
  { apply nth_error_eq. intros i. rewrite !nth_error_map. destruct (nth_error es i) as [e|] eqn:E.
    - destruct (W2 i e E) as (f & F1 & F2 & _). rewrite F1. simpl. congruence.
    - apply nth_error_None in E. rewrite (proj2 (nth_error_None r i)) by lia. reflexivity. }
  split; [simpl; congruence|]. split; [reflexivity|].
  intros [|i] e k Hi He Hk; [lia|]. simpl in He.
  destruct (nth_error es i) as [e'|] eqn:E'; [|apply nth_error_None in E'; assert (nth_error r i = None) by (apply nth_error_None; lia); congruence].
  destruct (W2 i e' E') as (f & F1 & F2 & F3). assert (f = e) by congruence. subst f. rewrite F3 by lia. do 2 f_equal.
  simpl. rewrite <- !firstn_map, ES, !firstn_map. lia.
Qed.

(** * contactMatrix *)
Lemma contactMatrix_lemma nm mb tl tu tdl tdu dt sj m0 ops dy m h d :
  newMotion [mb] 0 tl tu tdl tdu dt sj = Ok m0 -> pathsWf nm [mb] -> Forall (opData (fun d => sizesOf [mb] d /\ noSelf 0 d)) ops ->
  mhRun (fun d dy => invTorque nm [mb] d dy 0%nat) mh0 ops = Some h -> hData h = Some d ->
  moRun nm [mb] m0 (ops ++ [MOUpdate dy]) = Ok m ->
  exists M, contactMatrix (moC m) = Ok M /\ mrows M = nrDof mb /\ mcols M = sdTotalLambda d /\
  forall x j, (j < nrDof mb)%nat -> sumn (mcols M) (fun q => mget M j q * x (sdTotalAlphaD d + q)%nat)
    = - contactForces (heldBy 0) nm dy mb 0 (sdAll d) (sdTotalAlphaD d) x j.
Proof.
  intros HN PW F HR HD MR. rewrite hist_noSelf in HR by auto.
  destruct (hist_data _ (fun d => sizesOf [mb] d /\ noSelf 0 d) ops mh0 h F ltac:(discriminate) HR d HD) as (_ & NS).
  destruct (newMotion_inv nm _ _ _ _ _ _ _ _ _ HN) as (mb' & M & _ & _ & _ & I0). injection M as <-.
  rewrite moRun_app in MR. apply bind_Ok in MR as (m1 & M1 & MR). cbn [moRun] in MR. apply bind_Ok in MR as (m2 & M2 & MR). injection MR as <-.
  assert (F' : Forall (opData (sizesOf [mb])) ops) by (eapply opData_imp; [|exact F]; simpl; tauto).
  pose proof (moRun_inv nm [mb] 0 mb tl tu tdl tdu dt sj PW ops mh0 m0 h m1 F' I0 HR M1) as I1.
  destruct (moUpdate_ok nm [mb] 0 mb tl tu tdl tdu dt sj h m1 dy m2 d PW I1 HD M2) as (I2 & _).
  destruct (miD _ _ _ _ _ _ _ _ _ _ _ _ I2 d eq_refl) as (SZ & b & IV). destruct (miY _ _ _ _ _ _ _ _ _ _ _ _ I2 dy eq_refl) as (d' & X & _ & _ & S).
  injection X as <-. destruct (sizes_begins _ d SZ) as (_ & TL & NV).
  assert (TA : sdTotalAlphaD d = nrDof mb).
  { destruct SZ as ((uni & bi & deps & HH) & _). apply nrVarsData_spec in HH as (_ & _ & _ & _ & _ & T & _). rewrite T. simpl. lia. }
  destruct (ivA _ _ _ _ _ _ _ IV) as (A1 & A2). pose proof (ivN _ _ _ _ _ _ _ IV) as N.
  unfold contactMatrix. rewrite N.
  destruct (mblock_def (mcA (moC m2)) 0 (nrDof mb) (mrows (mcA (moC m2))) (mcols (mcA (moC m2)) - nrDof mb)) as (B & E); [lia|lia|].
  rewrite E. exists B. split; [auto|]. apply mblock_Ok in E as (_ & _ & R1 & R2 & R3). split; [lia|]. split; [lia|].
  intros x j Hj. rewrite <- contactForces_noSelf by (exact NS). rewrite <- S by auto.
  replace (mcols B) with (sdTotalLambda d) by lia. apply sumn_ext. intros q Hq. rewrite R3, TA. reflexivity.
Qed.
