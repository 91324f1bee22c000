(** Proofs about the torque limits of the motion constraints, along call histories. *)
From Verif Require Export MotionProofs.
Open Scope R_scope.
Local Arguments sumn : simpl never.

Lemma vput_Ok {A} (v : vec A) i a w : vput v i a = Ok w -> (i < vlen v)%nat /\ vlen w = vlen v /\ forall k, vget w k = if Nat.eqb k i then a else vget v k.
Proof. unfold vput. destruct (i <? vlen v)%nat eqn:E; [|discriminate]. apply Nat.ltb_lt in E. intros H; injection H as <-. simpl. auto. Qed.
Lemma vget_at_Ok {A} (v : vec A) i a : vget_at v i = Ok a -> (i < vlen v)%nat /\ a = vget v i.
Proof. unfold vget_at. destruct (i <? vlen v)%nat eqn:E; [|discriminate]. apply Nat.ltb_lt in E. intros H; injection H as <-. auto. Qed.
Lemma vec_at_nth {A} (l : list A) i a dflt : vec_at l i = Ok a -> nth i l dflt = a.
Proof. unfold vec_at. destruct (nth_error l i) eqn:E; [|discriminate]. intros H; injection H as <-. apply nth_error_nth; auto. Qed.

Lemma springBounds_ok mb q al : forall sj ss L U L' U', springLoop mb sj = Ok ss -> springBounds q al ss L U = Ok (L', U') ->
  vlen L' = vlen L /\ vlen U' = vlen U /\
  forall j, vget L' j = match springTorque mb sj q al j with Some t => Fin t | None => vget L j end /\
            vget U' j = match springTorque mb sj q al j with Some t => Fin t | None => vget U j end.
Proof.
  induction sj as [|[[[nm k] c] o] sj IH]; intros ss L U L' U' HS HB.
  - injection HS as <-. injection HB as <- <-. simpl. auto.
  - cbn [springLoop] in HS. apply bind_Ok in HS as (i & Hi & HS). apply bind_Ok in HS as (l & Hl & HS). injection HS as <-.
    cbn [springBounds spIndex spK spC spO spPos] in HB.
    apply bind_Ok in HB as (qs & H1 & HB). apply bind_Ok in HB as (q0 & H2 & HB). apply bind_Ok in HB as (vs & H3 & HB).
    apply bind_Ok in HB as (v1 & H4 & HB). apply bind_Ok in HB as (L1 & H5 & HB). apply bind_Ok in HB as (U1 & H6 & HB).
    apply vput_Ok in H5 as (_ & V1 & V2). apply vput_Ok in H6 as (_ & V3 & V4).
    destruct (IH _ _ _ _ _ Hl HB) as (K1 & K2 & K3). split; [congruence|]. split; [congruence|].
    intros j. destruct (K3 j) as (-> & ->). cbn [springTorque]. destruct (springTorque mb sj q al j) as [t|]; [auto|].
    rewrite V2, V4, Hi. rewrite (Nat.eqb_sym j). destruct (Nat.eqb _ j); [|auto].
    rewrite (vec_at_nth _ _ _ _ H1), (vec_at_nth _ _ _ _ H2), (vec_at_nth _ _ _ _ H3), (vec_at_nth _ _ _ _ H4).
    split; f_equal; ring.
Qed.
Lemma springTorque_none mb sj q al q' al' j : springTorque mb sj q al j = None -> springTorque mb sj q' al' j = None.
Proof.
  induction sj as [|[[[nm k] c] o] sj IH]; [auto|]. cbn [springTorque]. destruct (springTorque mb sj q al j) eqn:E; [discriminate|].
  rewrite (IH eq_refl). destruct (jointIndexByName mb nm); auto. destruct (Nat.eqb _ j); [discriminate|auto].
Qed.

Lemma paramToVector_Ok ps v w : paramToVector ps v = Ok w -> (length (concat ps) <= vlen v)%nat /\ vlen w = vlen v /\ forall j, vget w j = nth j (concat ps) (vget v j).
Proof.
  unfold paramToVector. intros H. apply bind_Ok in H as (u & G & H). apply guard_Ok in G. apply Nat.leb_le in G. injection H as <-. simpl. auto.
Qed.

(** State of the limits. *)
Record moStatic (mbs : list multibody) (r : nat) (mb : multibody) (tl tu tdl tdu : list (list ext)) (dt : R) (sj : list springJoint) (m : motion_) : Prop := {
  msBase : mBase mbs r mb (moC m);
  msSpr : springLoop mb sj = Ok (moSprings m);
  msLenL : vlen (moL m) = nrDof mb; msLenU : vlen (moU m) = nrDof mb;
  msL : forall j q al, springTorque mb sj q al j = None -> vget (moL m) j = nth j (concat tl) NInf;
  msU : forall j q al, springTorque mb sj q al j = None -> vget (moU m) j = nth j (concat tu) PInf;
  msDL : forall j, vget (moDL m) j = emulr (nth j (concat tdl) NInf) dt;
  msDU : forall j, vget (moDU m) j = emulr (nth j (concat tdu) PInf) dt }.

Record moInv nm mbs r mb tl tu tdl tdu dt sj (h : mhist) (m : motion_) : Prop := {
  miS : moStatic mbs r mb tl tu tdl tdu dt sj m;
  miI : mcIter (moC m) = hCount h;
  miC : forall j, (j < nrDof mb)%nat -> vget (mcCur (moC m)) j = hCur h j;
  miD : forall d, hData h = Some d -> sizesOf mbs d /\ exists b, mInv nm mbs r mb d b (moC m);
  miY : forall dy, hDyn h = Some dy -> exists d, hData h = Some d /\
     mcH (moC m) = mkMat (nrDof mb) (nrDof mb) (dH dy r) /\ mcC (moC m) = mkVec (nrDof mb) (dC dy r) /\
     (forall i x, (i < nrDof mb)%nat ->
       sumn (sdTotalLambda d) (fun q => mget (mcA (moC m)) i (sdTotalAlphaD d + q)%nat * x (sdTotalAlphaD d + q)%nat)
       = - contactForces (lastHeldBy r) nm dy mb r (sdAll d) (sdTotalAlphaD d) x i) }.

Lemma newMotion_inv nm mbs r tl tu tdl tdu dt sj m : newMotion mbs r tl tu tdl tdu dt sj = Ok m ->
  exists mb, nth_error mbs r = Some mb /\ 0 < dt /\ length (concat tl) = nrDof mb /\ length (concat tu) = nrDof mb /\
    moInv nm mbs r mb tl tu tdl tdu dt sj mh0 m.
Proof.
  unfold newMotion. intros H. apply bind_Ok in H as (mb & H1 & H). apply vec_at_Ok in H1. exists mb. split; [auto|].
  apply bind_Ok in H as (c & HC & H). unfold newMC in HC. rewrite (ContactProofs.vec_at_Some _ _ _ H1) in HC. cbn [bind] in HC. injection HC as <-.
  apply bind_Ok in H as (u & G & H). apply guard_Ok in G. apply andb_true_iff in G as (G1 & G2). apply Nat.eqb_eq in G1, G2.
  apply bind_Ok in H as (u' & G & H). apply guard_Ok in G. unfold Rltb in G. destruct (Rlt_dec 0 dt) as [P|]; [|discriminate].
  apply bind_Ok in H as (L & P1 & H). apply bind_Ok in H as (U & P2 & H). apply bind_Ok in H as (DL & P3 & H). apply bind_Ok in H as (DU & P4 & H).
  apply bind_Ok in H as (ss & P5 & H). injection H as <-. repeat (split; [auto|]).
  apply paramToVector_Ok in P1 as (_ & L1 & L2). apply paramToVector_Ok in P2 as (_ & U1 & U2).
  apply paramToVector_Ok in P3 as (_ & DL1 & DL2). apply paramToVector_Ok in P4 as (_ & DU1 & DU2).
  constructor; simpl; auto; try discriminate. constructor; simpl; auto.
  - unfold mBase. simpl. repeat split; auto.
  - intros j q al _. rewrite L2. auto.
  - intros j q al _. rewrite U2. auto.
  - intros j. rewrite DL2. auto.
  - intros j. rewrite DU2. auto.
Qed.

Lemma moUpdate_ok nm mbs r mb tl tu tdl tdu dt sj h m dy m' d :
  pathsWf nm mbs -> moInv nm mbs r mb tl tu tdl tdu dt sj h m -> hData h = Some d -> moUpdate mbs dy m = Ok m' ->
  moInv nm mbs r mb tl tu tdl tdu dt sj (mkMH (Some d) (Some dy) (S (hCount h)) (hCur h)) m' /\
  let q := dQ dy r in let al := dAlpha dy r in
  forall x, holdsGen (sdNrVars d) x (mcGen (moC m')) <->
    forall j, (j < nrDof mb)%nat ->
      between (staticLimit mb sj q al tl NInf j) (invTorqueLast nm mbs d dy r x j) (staticLimit mb sj q al tu PInf j) /\
      ((0 < hCount h)%nat -> between (rateLimit tdl NInf dt (hCur h j) j) (invTorqueLast nm mbs d dy r x j) (rateLimit tdu PInf dt (hCur h j) j)).
Proof.
  intros PW [S I C D Y] HD H. destruct (D d HD) as (SZ & b & IV). destruct S as [SB SS SL SU L U DL DU].
  unfold moUpdate in H.
  destruct (computeMatrix_ok nm mbs r mb d b dy (moC m) SZ PW IV) as (c & E & IV' & K1 & K2 & K3 & K4 & K5 & K6 & K7 & K8 & K9).
  rewrite E in H. cbn [bind] in H. rewrite (ivR _ _ _ _ _ _ _ IV') in H.
  apply bind_Ok in H as ([L' U'] & HS & H). apply bind_Ok in H as (u & G & H). injection H as <-.
  destruct (springBounds_ok mb _ _ sj _ _ _ _ _ SS HS) as (B1 & B2 & B3).
  rewrite K5, K6, K2, K1, I in *. cbn [vlen vget] in *. rewrite B1, SL.
  split.
  - constructor; cbn [moC moL moU moDL moDU moSprings with_limits mcIter mcCur hCount hCur hData hDyn]; auto.
    + constructor; cbn [moC moL moU moDL moDU moSprings with_limits]; auto; try congruence.
      * destruct IV' as [X1 X2 X3 _ _ _ _ (X4 & X5) _ _ _ _ _]. unfold mBase, with_limits; cbn [mcRobot mcN mcJT mcCur moC]. destruct SB as (_ & _ & _ & _ & _ & SB). rewrite ?K1. auto 10.
      * intros j q al N. destruct (B3 j) as (-> & _). rewrite (springTorque_none _ _ _ _ (dQ dy r) (dAlpha dy r) _ N). eapply L; eauto.
      * intros j q al N. destruct (B3 j) as (_ & ->). rewrite (springTorque_none _ _ _ _ (dQ dy r) (dAlpha dy r) _ N). eapply U; eauto.
    + rewrite ?K1. auto.
    + intros d' X. injection X as <-. split; [auto|]. exists b. destruct IV'. constructor; auto.
    + intros dy' X. injection X as <-. exists d. split; [auto|]. cbn [mcH mcC mcA]. auto.
  - cbv zeta. intros x. pose (q := dQ dy r). pose (al := dAlpha dy r). unfold holdsGen, mcGen. cbn [giNr giL giU giA moC with_limits mcA mcAL mcAU vget].
    destruct (ivA _ _ _ _ _ _ _ IV') as (A1 & A2). rewrite A1.
    assert (RD : forall j, (j < nrDof mb)%nat -> sumn (sdNrVars d) (fun k => mget (mcA c) j k * x k) = invTorqueLast nm mbs d dy r x j - dC dy r j).
    { intros j Hj. rewrite <- K9 by auto. unfold rowdot. rewrite A2. reflexivity. }
    assert (ROW : forall j, (j < nrDof mb)%nat ->
      (between (if (j <? nrDof mb)%nat then eaddfin (Fin (- dC dy r j)) (if (0 <? hCount h)%nat then emax (vget L' j) (eaddr (vget (moDL m) j) (vget (mcCur (moC m)) j)) else vget L' j) else Fin (- dC dy r j))
         (sumn (sdNrVars d) (fun k => mget (mcA c) j k * x k))
         (if (j <? nrDof mb)%nat then eaddfin (Fin (- dC dy r j)) (if (0 <? hCount h)%nat then emin (vget U' j) (eaddr (vget (moDU m) j) (vget (mcCur (moC m)) j)) else vget U' j) else Fin (- dC dy r j)) <->
       between (staticLimit mb sj q al tl NInf j) (invTorqueLast nm mbs d dy r x j) (staticLimit mb sj q al tu PInf j) /\
       ((0 < hCount h)%nat -> between (rateLimit tdl NInf dt (hCur h j) j) (invTorqueLast nm mbs d dy r x j) (rateLimit tdu PInf dt (hCur h j) j)))).
    { intros j Hj. rewrite (proj2 (Nat.ltb_lt _ _) Hj), RD by auto. cbn [eaddfin]. unfold between. rewrite eaddr_le, eaddr_ge.
      replace (invTorqueLast nm mbs d dy r x j - dC dy r j - - dC dy r j) with (invTorqueLast nm mbs d dy r x j) by ring.
      destruct (B3 j) as (BL & BU).
      assert (EL : vget L' j = staticLimit mb sj q al tl NInf j).
      { rewrite BL. unfold staticLimit, q, al. destruct (springTorque mb sj (dQ dy r) (dAlpha dy r) j) eqn:X; [auto|]. eapply L; eauto. }
      assert (EU : vget U' j = staticLimit mb sj q al tu PInf j).
      { rewrite BU. unfold staticLimit, q, al. destruct (springTorque mb sj (dQ dy r) (dAlpha dy r) j) eqn:X; [auto|]. eapply U; eauto. }
      rewrite EL, EU, DL, DU, C by auto. fold (rateLimit tdl NInf dt (hCur h j) j). fold (rateLimit tdu PInf dt (hCur h j) j).
      destruct (0 <? hCount h)%nat eqn:Z.
      - apply Nat.ltb_lt in Z. rewrite emax_le, emin_ge. intuition.
      - apply Nat.ltb_ge in Z. split; [intros X; split; [exact X|lia]|intros (X & _); exact X]. }
    split; intros X j Hj; apply ROW; auto.
Qed.

Lemma moTorque_ok nm mbs r mb tl tu tdl tdu dt sj h m d dy a l m' :
  moInv nm mbs r mb tl tu tdl tdu dt sj h m -> hData h = Some d -> hDyn h = Some dy -> moTorque a l m = Ok m' ->
  moInv nm mbs r mb tl tu tdl tdu dt sj (mkMH (Some d) (Some dy) (hCount h) (invTorqueLast nm mbs d dy r (join (sdTotalAlphaD d) a l))) m' /\
  vlen (mcCur (moC m')) = nrDof mb /\
  forall j, (j < nrDof mb)%nat -> vget (mcCur (moC m')) j = invTorqueLast nm mbs d dy r (join (sdTotalAlphaD d) a l) j.
Proof.
  intros [S I C D Y] HD HY H. destruct (D d HD) as (SZ & b & IV). destruct (Y dy HY) as (d' & HD' & Y1 & Y2 & Y3).
  assert (d' = d) by congruence. subst d'. unfold moTorque in H. apply bind_Ok in H as (c & HC & H). injection H as <-.
  destruct (computeTorque_ok nm mbs r mb d b dy (moC m) a l c IV SZ Y1 Y2 Y3 HC) as (T1 & T2 & T3).
  split; [|auto]. destruct S. 
  constructor; cbn [moC moL moU moDL moDU moSprings hCount hCur hData hDyn]; auto.
  - constructor; auto. cbn [moC]. destruct msBase0 as (B1 & B2 & B3 & B4 & B5 & B6). unfold mBase. rewrite T3. simpl. auto 10.
  - rewrite T3. simpl. auto.
  - intros d0 X. injection X as <-. split; [auto|]. exists b. rewrite T3. destruct IV. constructor; simpl; auto.
  - intros dy0 X. injection X as <-. exists d. split; [auto|]. rewrite T3. simpl. auto.
Qed.

Lemma moNrVars_ok nm mbs r mb tl tu tdl tdu dt sj h m d m' :
  sizesOf mbs d -> moInv nm mbs r mb tl tu tdl tdu dt sj h m -> moNrVars nm mbs d m = Ok m' ->
  moInv nm mbs r mb tl tu tdl tdu dt sj (mkMH (Some d) None (hCount h) (hCur h)) m'.
Proof.
  intros SZ [S I C D Y] H. unfold moNrVars in H. apply bind_Ok in H as (c & HC & H). injection H as <-. destruct S.
  destruct (mcNrVars_inv nm mbs r mb d (moC m) c msBase0 HC) as (b & IV & E1 & E2).
  constructor; cbn [moC moL moU moDL moDU moSprings hCount hCur hData hDyn]; auto.
  - constructor; auto. cbn [moC]. destruct msBase0 as (B1 & B2 & B3 & B4 & B5 & B6). destruct IV as [X1 X2 X3 _ _ _ _ (X4 & X5) _ _ _ _ _]. unfold mBase. rewrite E1. auto 10.
  - congruence.
  - rewrite E1. auto.
  - intros d0 X. injection X as <-. split; [auto|]. exists b. destruct IV. constructor; simpl; auto.
  - discriminate.
Qed.

Lemma moRun_inv nm mbs r mb tl tu tdl tdu dt sj : pathsWf nm mbs -> forall ops h m h' m',
  Forall (opData (sizesOf mbs)) ops -> moInv nm mbs r mb tl tu tdl tdu dt sj h m ->
  mhRun (fun d dy => invTorqueLast nm mbs d dy r) h ops = Some h' -> moRun nm mbs m ops = Ok m' ->
  moInv nm mbs r mb tl tu tdl tdu dt sj h' m'.
Proof.
  intros PW. induction ops as [|o ops IH]; intros h m h' m' F IV HR MR.
  - injection HR as <-. injection MR as <-. auto.
  - apply Forall_cons_iff in F as (F1 & F). cbn [moRun] in MR. apply bind_Ok in MR as (m1 & M1 & MR). cbn [mhRun] in HR.
    destruct (mhStep _ h o) as [h1|] eqn:E; [|discriminate]. refine (IH h1 m1 _ _ F _ HR MR). clear IH.
    destruct o as [d|dy|a l]; cbn [mhStep moStep opData] in *.
    + injection E as <-. eapply moNrVars_ok; eauto.
    + destruct (hData h) as [d|] eqn:HD; [|discriminate]. injection E as <-. eapply moUpdate_ok; eauto.
    + destruct (hData h) as [d|] eqn:HD; [|discriminate]. destruct (hDyn h) as [dy|] eqn:HY; [|discriminate]. injection E as <-.
      eapply moTorque_ok; eauto.
Qed.

Lemma moRun_app nm mbs ops1 : forall m ops2, moRun nm mbs m (ops1 ++ ops2) = do m' <- moRun nm mbs m ops1; moRun nm mbs m' ops2.
Proof. induction ops1 as [|o ops1 IH]; intros m ops2; [reflexivity|]. simpl. destruct (moStep nm mbs m o); simpl; auto. Qed.

(** Without a contact of the robot with itself, all the sides count. *)
Lemma contactForces_noSelf nm dy mb r x j : forall cs cum,
  Forall (fun c => ~ (r1Index (bId c) = Z.of_nat r /\ r2Index (bId c) = Z.of_nat r)) cs ->
  contactForces (lastHeldBy r) nm dy mb r cs cum x j = contactForces (heldBy r) nm dy mb r cs cum x j.
Proof.
  induction cs as [|c cs IH]; intros cum F; [reflexivity|]. apply Forall_cons_iff in F as (N & F). cbn [contactForces]. rewrite IH by auto. f_equal.
  f_equal. unfold lastHeldBy, heldBy. destruct (Z.eqb_spec (Z.of_nat r) (r1Index (bId c))), (Z.eqb_spec (Z.of_nat r) (r2Index (bId c))); auto.
  exfalso. apply N. split; congruence.
Qed.
Lemma invTorque_noSelf nm mbs d dy r x j : noSelf r d -> invTorqueLast nm mbs d dy r x j = invTorque nm mbs d dy r x j.
Proof.
  intros H. unfold invTorqueLast, invTorque, invTorque_. destruct (nth_error mbs r); [|auto]. destruct (alphaDBegin d r); auto.
  rewrite contactForces_noSelf; auto.
Qed.

(** The limits, for any history. *)
Lemma limitsLast_lemma nm mbs r tl tu tdl tdu dt sj m0 ops dy m h d :
  newMotion mbs r tl tu tdl tdu dt sj = Ok m0 -> pathsWf nm mbs -> Forall (opData (sizesOf mbs)) ops ->
  mhRun (fun d dy => invTorqueLast nm mbs d dy r) mh0 ops = Some h -> hData h = Some d ->
  moRun nm mbs m0 (ops ++ [MOUpdate dy]) = Ok m ->
  exists mb, nth_error mbs r = Some mb /\
  forall x, holdsGen (sdNrVars d) x (mcGen (moC m)) <->
    forall j, (j < nrDof mb)%nat ->
      between (staticLimit mb sj (dQ dy r) (dAlpha dy r) tl NInf j) (invTorqueLast nm mbs d dy r x j)
              (staticLimit mb sj (dQ dy r) (dAlpha dy r) tu PInf j) /\
      ((0 < hCount h)%nat -> between (rateLimit tdl NInf dt (hCur h j) j) (invTorqueLast nm mbs d dy r x j) (rateLimit tdu PInf dt (hCur h j) j)).
Proof.
  intros HN PW F HR HD MR. destruct (newMotion_inv nm _ _ _ _ _ _ _ _ _ HN) as (mb & M & _ & _ & _ & I0).
  rewrite moRun_app in MR. apply bind_Ok in MR as (m1 & M1 & MR). cbn [moRun] in MR. apply bind_Ok in MR as (m2 & M2 & MR). injection MR as <-.
  pose proof (moRun_inv nm mbs r mb tl tu tdl tdu dt sj PW ops mh0 m0 h m1 F I0 HR M1) as I1.
  exists mb. split; [auto|]. eapply moUpdate_ok; eauto.
Qed.

Lemma mhRun_ext tau tau' (P : solverData -> Prop) : (forall d dy x, P d -> tau d dy x = tau' d dy x) -> forall ops h,
  (forall d, hData h = Some d -> P d) -> Forall (opData P) ops -> mhRun tau h ops = mhRun tau' h ops.
Proof.
  intros E. induction ops as [|o ops IH]; intros h HP F; [reflexivity|]. apply Forall_cons_iff in F as (F1 & F). cbn [mhRun].
  assert (S : mhStep tau h o = mhStep tau' h o).
  { destruct o as [d|dy|a l]; cbn [mhStep]; auto. destruct (hData h) as [d|] eqn:HD; [|auto]. destruct (hDyn h); [|auto]. rewrite E by auto. reflexivity. }
  rewrite S. destruct (mhStep tau' h o) as [h1|] eqn:E1; [|auto]. apply IH; auto.
  intros d0 HD0. destruct o as [d|dy|a l]; cbn [mhStep] in E1.
  - injection E1 as <-. injection HD0 as <-. exact F1.
  - destruct (hData h) as [d|] eqn:HD; [|discriminate]. injection E1 as <-. injection HD0 as <-. auto.
  - destruct (hData h) as [d|] eqn:HD; [|discriminate]. destruct (hDyn h); [|discriminate]. injection E1 as <-. injection HD0 as <-. auto.
Qed.

(** * Definedness *)
Lemma newSide_def nm r body lam pts cones p : nPath nm r body = Ok p -> p <> [] -> exists s, newSide nm r body lam pts cones = Ok s.
Proof. intros H N. unfold newSide. rewrite H. cbn [bind]. destruct p; [congruence|]. simpl. eauto. Qed.
Lemma sidesLoop_def nm r d : forall cs i,
  (forall k c, nth_error cs k = Some c -> exists b, lambdaBeginAt d (i + k) = Ok b) ->
  Forall (fun c => forall s, In s (heldBy r c) -> exists p, nPath nm r (fst (fst s)) = Ok p /\ p <> []) cs ->
  exists l, sidesLoop nm r d cs i = Ok l.
Proof.
  induction cs as [|c cs IH]; intros i HB F; [simpl; eauto|]. apply Forall_cons_iff in F as (F1 & F). cbn [sidesLoop].
  destruct (HB 0%nat c eq_refl) as (b & B0). rewrite Nat.add_0_r in B0.
  destruct (IH (S i)) as (l & HL).
  { intros k c0 Hk. replace (S i + k)%nat with (i + S k)%nat by lia. apply (HB (S k) c0 Hk). }
  { auto. }
  unfold heldBy in F1.
  destruct (Z.of_nat r =? r1Index (bId c))%Z eqn:R1; destruct (Z.of_nat r =? r2Index (bId c))%Z eqn:R2; rewrite ?B0; cbn [bind].
  - destruct (F1 (side1 c)) as (p1 & P1 & N1); [simpl; auto|]. destruct (F1 (side2 c)) as (p2 & P2 & N2); [simpl; auto|]. simpl in P1, P2.
    destruct (newSide_def nm r _ b (bR1Points c) (bR1Cones c) p1 P1 N1) as (t1 & ->). cbn [bind].
    destruct (newSide_def nm r _ b (bR2Points c) (bR2Cones c) p2 P2 N2) as (t2 & ->). cbn [bind]. rewrite HL. simpl. eauto.
  - destruct (F1 (side1 c)) as (p1 & P1 & N1); [simpl; auto|]. simpl in P1.
    destruct (newSide_def nm r _ b (bR1Points c) (bR1Cones c) p1 P1 N1) as (t1 & ->). cbn [bind]. rewrite HL. simpl. eauto.
  - destruct (F1 (side2 c)) as (p2 & P2 & N2); [simpl; auto|]. simpl in P2.
    destruct (newSide_def nm r _ b (bR2Points c) (bR2Cones c) p2 P2 N2) as (t2 & ->). cbn [bind]. rewrite HL. simpl. eauto.
  - rewrite HL. simpl. eauto.
Qed.

Lemma springBounds_def mb q al : forall sj ss L U, springLoop mb sj = Ok ss -> springsRead mb sj q al ->
  vlen L = nrDof mb -> vlen U = nrDof mb -> exists L' U', springBounds q al ss L U = Ok (L', U') /\ vlen L' = nrDof mb.
Proof.
  induction sj as [|[[[nm k] c] o] sj IH]; intros ss L U HS HR HL HU.
  - injection HS as <-. simpl. eauto.
  - cbn [springLoop] in HS. apply bind_Ok in HS as (i & Hi & HS). apply bind_Ok in HS as (l & Hl & HS). injection HS as <-.
    apply Forall_cons_iff in HR as ((i' & jt & a & qs & b & vs & E1 & E2 & E3 & E4 & E5) & HR).
    assert (i' = i) by congruence. subst i'. cbn [springBounds spIndex spK spC spO spPos].
    rewrite (ContactProofs.vec_at_Some _ _ _ E4), (ContactProofs.vec_at_Some _ _ _ E5). unfold vec_at. simpl nth_error. cbn [bind].
    assert (P : (jointPosInDof mb i < nrDof mb)%nat).
    { assert (I : (i < length (joints mb))%nat) by (apply nth_error_Some; congruence). pose proof (posInDof_le mb i I) as X.
      unfold jointDof in X. rewrite E2 in X. lia. }
    unfold vput. rewrite HL, HU, (proj2 (Nat.ltb_lt _ _) P). cbn [bind]. apply IH; auto.
Qed.

Lemma defined_lemma nm mbs r tl tu tdl tdu dt sj m0 ops m h :
  newMotion mbs r tl tu tdl tdu dt sj = Ok m0 -> pathsWf nm mbs -> Forall (opData (sizesOf mbs)) ops ->
  mhRun (fun d dy => invTorqueLast nm mbs d dy r) mh0 ops = Some h -> moRun nm mbs m0 ops = Ok m ->
  exists mb, nth_error mbs r = Some mb /\
  (forall d, sizesOf mbs d -> pathsExist nm r d -> exists m', moStep nm mbs m (MONr d) = Ok m') /\
  (forall dy, hData h <> None -> springsRead mb sj (dQ dy r) (dAlpha dy r) -> exists m', moStep nm mbs m (MOUpdate dy) = Ok m') /\
  (forall a l d, hData h = Some d -> hDyn h <> None -> (sdTotalAlphaD d <= vlen a)%nat -> vlen l = sdTotalLambda d ->
     exists m', moStep nm mbs m (MOTorque a l) = Ok m').
Proof.
  intros HN PW F HR MR. destruct (newMotion_inv nm _ _ _ _ _ _ _ _ _ HN) as (mb & M & _ & _ & _ & I0).
  pose proof (moRun_inv nm mbs r mb tl tu tdl tdu dt sj PW ops mh0 m0 h m F I0 HR MR) as [S I C D Y].
  destruct S as [SB SS SL SU L U DL DU]. exists mb. split; [auto|]. split; [|split].
  - intros d SZ PE. cbn [moStep]. unfold moNrVars, mcNrVars. destruct SB as (B1 & B2 & B3 & B4 & B5 & B6).
    rewrite B1, (ContactProofs.vec_at_Some _ _ _ M). cbn [bind].
    destruct SZ as ((uni & bi & deps & HD) & WF). destruct (layout_begin_lemma _ _ _ _ _ HD) as (LB & _).
    rewrite LB by (apply nth_error_Some; congruence). cbn [bind].
    destruct (sizes_begins mbs d) as (BG & _); [split; [eauto|auto]|].
    destruct (sidesLoop_def nm r d (sdAll d) 0) as (l & ->); [intros k c Hk; exists (sdTotalAlphaD d + total (firstn k (sdAll d)))%nat; apply (BG k c Hk)|auto|].
    simpl. eauto.
  - intros dy HD SR. destruct (hData h) as [d|]; [|congruence]. destruct (D d eq_refl) as (SZ & b & IV). cbn [moStep]. unfold moUpdate.
    destruct (computeMatrix_ok nm mbs r mb d b dy (moC m) SZ PW IV) as (c & E & IV' & K1 & K2 & K3 & K4 & K5 & K6 & K7 & K8 & K9).
    rewrite E. cbn [bind]. rewrite (ivR _ _ _ _ _ _ _ IV').
    destruct (springBounds_def mb _ _ sj _ _ _ SS SR SL SU) as (L' & U' & -> & VL). cbn [bind].
    rewrite K5, VL. cbn [vlen]. rewrite Nat.leb_refl. simpl. eauto.
  - intros a l d HD HY LA LL. destruct (hDyn h) as [dy|]; [|congruence]. destruct (Y dy eq_refl) as (d' & HD' & Y1 & Y2 & Y3).
    destruct (D d HD) as (SZ & b & IV). cbn [moStep]. unfold moTorque, computeTorque.
    destruct IV as [XR XM XN XB XAB XLB XS XJT XJL XF XA XZ XQ].
    destruct (sizes_begins mbs d SZ) as (BG & TL & NV). destruct SZ as ((uni & bi & deps & HDD) & WF).
    destruct (beginEnd _ _ _ _ _ _ _ _ HDD XB XM) as (BE & _).
    rewrite XAB, XLB, XN, Y1. unfold zidx.
    replace (0 <=? Z.of_nat b)%Z with true by (symmetry; apply Z.leb_le; lia).
    replace (0 <=? Z.of_nat (sdTotalAlphaD d))%Z with true by (symmetry; apply Z.leb_le; lia). cbn [bind]. rewrite !Nat2Z.id.
    destruct (ContactProofs.vseg_def a b (nrDof mb)) as (seg & -> & V1 & V2); [lia|]. cbn [bind].
    destruct (mvec_def (mkMat (nrDof mb) (nrDof mb) (dH dy r)) seg) as (hv & ->); [simpl; lia|]. cbn [bind].
    destruct (mblock_def (mcA (moC m)) 0 (sdTotalAlphaD d) (nrDof mb) (mcols (mcA (moC m)) - sdTotalAlphaD d)) as (blk & EB); [lia|lia|].
    rewrite EB. cbn [bind]. apply mblock_Ok in EB as (_ & _ & _ & EB & _).
    destruct (mvec_def blk l) as (f & ->); [lia|]. simpl. eauto.
Qed.

(** * The theorems, without self contact *)
Lemma tau_ext nm mbs r : forall d dy x, (sizesOf mbs d /\ noSelf r d) -> invTorque nm mbs d dy r x = invTorqueLast nm mbs d dy r x.
Proof. intros d dy x (_ & H). apply FunctionalExtensionality.functional_extensionality. intros j. symmetry. apply invTorque_noSelf; auto. Qed.
Lemma hist_noSelf nm mbs r ops : Forall (opData (fun d => sizesOf mbs d /\ noSelf r d)) ops ->
  mhRun (fun d dy => invTorque nm mbs d dy r) mh0 ops = mhRun (fun d dy => invTorqueLast nm mbs d dy r) mh0 ops.
Proof. intros F. apply (mhRun_ext _ _ (fun d => sizesOf mbs d /\ noSelf r d)); auto; [apply tau_ext|discriminate]. Qed.
Lemma opData_imp (P Q : solverData -> Prop) ops : (forall d, P d -> Q d) -> Forall (opData P) ops -> Forall (opData Q) ops.
Proof. intros H. apply Forall_impl. intros [d|dy|a l]; simpl; auto. Qed.
Lemma hist_data tau (P : solverData -> Prop) : forall ops h h', Forall (opData P) ops -> (forall d, hData h = Some d -> P d) ->
  mhRun tau h ops = Some h' -> forall d, hData h' = Some d -> P d.
Proof.
  induction ops as [|o ops IH]; intros h h' F HP HR d HD; [injection HR as <-; auto|]. apply Forall_cons_iff in F as (F1 & F). cbn [mhRun] in HR.
  destruct (mhStep tau h o) as [h1|] eqn:E; [|discriminate]. refine (IH h1 h' F _ HR d HD). intros d0 HD0.
  destruct o as [d1|dy|a l]; cbn [mhStep] in E.
  - injection E as <-. injection HD0 as <-. exact F1.
  - destruct (hData h) as [d1|] eqn:HD1; [|discriminate]. injection E as <-. injection HD0 as <-. auto.
  - destruct (hData h) as [d1|] eqn:HD1; [|discriminate]. destruct (hDyn h); [|discriminate]. injection E as <-. injection HD0 as <-. auto.
Qed.

Lemma limits_lemma nm mbs r tl tu tdl tdu dt sj m0 ops dy m h d :
  newMotion mbs r tl tu tdl tdu dt sj = Ok m0 -> pathsWf nm mbs -> Forall (opData (fun d => sizesOf mbs d /\ noSelf r d)) ops ->
  mhRun (fun d dy => invTorque nm mbs d dy r) mh0 ops = Some h -> hData h = Some d ->
  moRun nm mbs m0 (ops ++ [MOUpdate dy]) = Ok m ->
  exists mb, nth_error mbs r = Some mb /\
  forall x, holdsGen (sdNrVars d) x (mcGen (moC m)) <->
    forall j, (j < nrDof mb)%nat ->
      between (staticLimit mb sj (dQ dy r) (dAlpha dy r) tl NInf j) (invTorque nm mbs d dy r x j)
              (staticLimit mb sj (dQ dy r) (dAlpha dy r) tu PInf j) /\
      ((0 < hCount h)%nat -> between (rateLimit tdl NInf dt (hCur h j) j) (invTorque nm mbs d dy r x j) (rateLimit tdu PInf dt (hCur h j) j)).
Proof.
  intros HN PW F HR HD MR. rewrite hist_noSelf in HR by auto.
  destruct (hist_data _ (fun d => sizesOf mbs d /\ noSelf r d) ops mh0 h F ltac:(discriminate) HR d HD) as (_ & NS).
  destruct (limitsLast_lemma nm mbs r tl tu tdl tdu dt sj m0 ops dy m h d HN PW) as (mb & M & X); auto.
  { eapply opData_imp; [|exact F]. simpl. tauto. }
  exists mb. split; [auto|]. intros x. rewrite X. split; intros K j Hj; specialize (K j Hj); rewrite invTorque_noSelf in *; auto.
Qed.

Lemma torque_lemma nm mbs r tl tu tdl tdu dt sj m0 ops a l m h d dy :
  newMotion mbs r tl tu tdl tdu dt sj = Ok m0 -> pathsWf nm mbs -> Forall (opData (fun d => sizesOf mbs d /\ noSelf r d)) ops ->
  mhRun (fun d dy => invTorque nm mbs d dy r) mh0 ops = Some h -> hData h = Some d -> hDyn h = Some dy ->
  moRun nm mbs m0 (ops ++ [MOTorque a l]) = Ok m ->
  exists mb, nth_error mbs r = Some mb /\ vlen (mcCur (moC m)) = nrDof mb /\
  forall j, (j < nrDof mb)%nat -> vget (mcCur (moC m)) j = invTorque nm mbs d dy r (join (sdTotalAlphaD d) a l) j.
Proof.
  intros HN PW F HR HD HY MR. rewrite hist_noSelf in HR by auto.
  destruct (hist_data _ (fun d => sizesOf mbs d /\ noSelf r d) ops mh0 h F ltac:(discriminate) HR d HD) as (_ & NS).
  destruct (newMotion_inv nm _ _ _ _ _ _ _ _ _ HN) as (mb & M & _ & _ & _ & I0).
  rewrite moRun_app in MR. apply bind_Ok in MR as (m1 & M1 & MR). cbn [moRun] in MR. apply bind_Ok in MR as (m2 & M2 & MR). injection MR as <-.
  assert (F' : Forall (opData (sizesOf mbs)) ops) by (eapply opData_imp; [|exact F]; simpl; tauto).
  pose proof (moRun_inv nm mbs r mb tl tu tdl tdu dt sj PW ops mh0 m0 h m1 F' I0 HR M1) as I1.
  destruct (moTorque_ok _ _ _ _ _ _ _ _ _ _ _ _ _ _ _ _ _ I1 HD HY M2) as (_ & V & T).
  exists mb. split; [auto|]. split; [auto|]. intros j Hj. rewrite T by auto. apply invTorque_noSelf; auto.
Qed.
Lemma mhRun_app tau ops1 : forall h ops2, mhRun tau h (ops1 ++ ops2) = match mhRun tau h ops1 with Some h' => mhRun tau h' ops2 | None => None end.
Proof. induction ops1 as [|o ops1 IH]; intros h ops2; [reflexivity|]. simpl. destruct (mhStep tau h o); auto. Qed.

Lemma rate_lemma nm mbs r tl tu tdl tdu dt sj m0 ops a l dy m h d dy0 x :
  newMotion mbs r tl tu tdl tdu dt sj = Ok m0 -> pathsWf nm mbs -> Forall (opData (fun d => sizesOf mbs d /\ noSelf r d)) ops ->
  mhRun (fun d dy => invTorque nm mbs d dy r) mh0 ops = Some h -> hData h = Some d -> hDyn h = Some dy0 ->
  moRun nm mbs m0 (ops ++ [MOTorque a l; MOUpdate dy]) = Ok m ->
  holdsGen (sdNrVars d) x (mcGen (moC m)) ->
  exists mb, nth_error mbs r = Some mb /\ forall j, (j < nrDof mb)%nat ->
    between (emulr (nth j (concat tdl) NInf) dt)
            (invTorque nm mbs d dy r x j - invTorque nm mbs d dy0 r (join (sdTotalAlphaD d) a l) j)
            (emulr (nth j (concat tdu) PInf) dt).
Proof.
  intros HN PW F HR HD HY MR HX.
  assert (C : (0 < hCount h)%nat).
  { clear - HR HY. assert (G : forall ops h h', mhRun (fun d dy => invTorque nm mbs d dy r) h ops = Some h' -> (hDyn h <> None -> (0 < hCount h)%nat) -> hDyn h' <> None -> (0 < hCount h')%nat).
    { induction ops0 as [|o ops0 IH]; intros h0 h' X Y Z; [injection X as <-; auto|]. cbn [mhRun] in X.
      destruct (mhStep _ h0 o) as [h1|] eqn:E; [|discriminate]. apply (IH h1 h' X); [|auto]. intros N.
      destruct o as [d|dy|a l]; cbn [mhStep] in E.
      - injection E as <-. simpl in N. congruence.
      - destruct (hData h0); [|discriminate]. injection E as <-. simpl. lia.
      - destruct (hData h0); [|discriminate]. destruct (hDyn h0); [|discriminate]. injection E as <-. simpl. apply Y. congruence. }
    apply (G ops mh0 h HR); simpl; congruence. }
  destruct (limits_lemma nm mbs r tl tu tdl tdu dt sj m0 (ops ++ [MOTorque a l]) dy m
              (mkMH (Some d) (Some dy0) (hCount h) (invTorque nm mbs d dy0 r (join (sdTotalAlphaD d) a l))) d HN PW) as (mb & M & X).
  - apply Forall_app. split; [auto|]. constructor; [exact Logic.I|constructor].
  - rewrite mhRun_app, HR. cbn [mhRun mhStep]. rewrite HD, HY. reflexivity.
  - reflexivity.
  - rewrite <- app_assoc. exact MR.
  - exists mb. split; [auto|]. intros j Hj. destruct (proj1 (X x) HX j Hj) as (_ & K). specialize (K C). cbn [hCur] in K.
    unfold rateLimit, between in K. rewrite eaddr_le, eaddr_ge in K. exact K.
Qed.

(** Springs on distinct joints. *)
Lemma springTorque_in mb q al : forall sj nm k c o i j,
  In (nm, k, c, o) sj -> NoDup (map (fun s : springJoint => fst (fst (fst s))) sj) ->
  Forall (fun s : springJoint => forall i, jointIndexByName mb (fst (fst (fst s))) = Ok i -> (0 < jointDof mb i)%nat) sj ->
  jointIndexByName mb nm = Ok i -> (i < length (joints mb))%nat -> j = jointPosInDof mb i ->
  springTorque mb sj q al j = Some (- (k * nth 0 (nth i q []) 0 + c * nth 0 (nth i al []) 0 + o)).
Proof.
  induction sj as [|[[[nm' k'] c'] o'] sj IH]; intros nm k c o i j HI ND F HJ HL ->; [destruct HI|].
  cbn [map fst] in ND. apply NoDup_cons_iff in ND as (NI & ND). apply Forall_cons_iff in F as (F1 & F). cbn [fst] in F1. cbn [springTorque].
  destruct HI as [X|HI].
  - injection X as -> -> -> ->. 
    assert (N : springTorque mb sj q al (jointPosInDof mb i) = None).
    { clear IH ND. induction sj as [|[[[nm1 k1] c1] o1] sj IH]; [reflexivity|]. cbn [map fst] in NI. apply Forall_cons_iff in F as (F2 & F). cbn [fst] in F2. cbn [springTorque].
      rewrite IH; [|intros Y; apply NI; right; exact Y|auto].
      destruct (jointIndexByName mb nm1) as [i1| |] eqn:E; auto. destruct (Nat.eqb_spec (jointPosInDof mb i1) (jointPosInDof mb i)) as [P|]; [|auto].
      exfalso. specialize (F2 _ eq_refl). specialize (F1 _ HJ).
      assert (i1 <> i). { intros ->. apply NI. left. unfold jointIndexByName in *. clear - HJ E.
        revert i HJ E. induction (joints mb) as [|jt js IHj]; intros i HJ E; simpl in *; [discriminate|].
        destruct (String.eqb_spec (jname jt) nm); destruct (String.eqb_spec (jname jt) nm1).
        - congruence.
        - injection HJ as <-. destruct (indexByName js nm1); discriminate.
        - injection E as <-. destruct (indexByName js nm); discriminate.
        - destruct (indexByName js nm) as [a| |] eqn:A; try discriminate. destruct (indexByName js nm1) as [b| |] eqn:B; try discriminate.
          cbn [bind] in HJ, E. injection HJ as <-. injection E as E. subst b. eapply IHj; eauto. }
      assert (L1 : (i1 < length (joints mb))%nat).
      { destruct (Nat.lt_ge_cases i1 (length (joints mb))) as [|G]; [auto|]. unfold jointDof in F2. apply nth_error_None in G. rewrite G in F2. lia. }
      apply (posInDof_disjoint mb i i1 (jointPosInDof mb i)); auto; lia. }
    rewrite N, HJ, Nat.eqb_refl. reflexivity.
  - rewrite (IH nm k c o i (jointPosInDof mb i)); auto.
Qed.
