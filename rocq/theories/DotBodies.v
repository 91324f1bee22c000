(** updateDot of the centre of mass and momentum tasks, the columns of a tree, and the two ways to the normal accelerations. *)
From Verif Require Export DotFacts.
From Verif Require Import KinFacts KinTaskFacts TreeFacts JacProofs DepsProofs ComFacts MomFacts.
Require Import Lia Lra FunctionalExtensionality.
Open Scope list_scope.
Open Scope R_scope.
Local Arguments sumn : simpl never.

Lemma fullRow_dl mb path (g : R -> nat -> R) g' q t : (forall c, (c < pathDof mb path)%nat -> dlim (fun s => g s c) t (g' c)) ->
  dlim (fun s => fullRow mb path (g s) q) t (fullRow mb path g' q).
Proof.
  intros H. unfold fullRow. apply (dl_sumn (pathDof mb path) (fun s c => if Nat.eqb (nth c (pathCols mb path) 0%nat) q then g s c else 0)).
  intros c Hc. destruct (Nat.eqb (nth c (pathCols mb path) 0%nat) q); [apply H, Hc|apply dl_const].
Qed.
Lemma bodies_moves mb bs K dcol al ald t : bodiesDot mb bs K dcol al ald t -> forall s, bodiesMove mb bs K al ald s.
Proof. intros M s b x E. destruct (M b x E) as [W MV _ _]. split; [exact W|apply MV]. Qed.

(** *** CoMTask *)
Theorem com_dot mb bs0 com0 weight T0 ops T K dcol al ald t : ctNew bs0 com0 weight = Ok T0 -> ctRun ops T0 = Ok T ->
  let bs := latest ctGiveB bs0 ops in heavy bs -> bodiesDot mb bs K dcol al ald t -> (forall j, dlim (fun s => al s j) t (ald t j)) ->
  exists H D, yields 3 mb (fun s => ctUpdate mb bs (K s) T) H /\ ctUpdateDot mb bs (K t) dcol T = Ok D /\ jacRate 3 mb H t D /\ dotIsNormal 3 mb H al t D.
Proof.
  intros E0 ER bs Hv M A.
  destruct (com_tracks mb bs0 com0 weight T0 ops T K al ald t E0 ER Hv (bodies_moves _ _ _ _ _ _ _ M t)) as (H & Y & _). fold bs in Y.
  assert (F : forall s, hJac (H s) = cjJacobian mb bs (ctJac T) (K s) /\ hNAcc (H s) = mkVec 3 (cjNormalAcc bs (ctJac T) (K s)) /\ guard (Nat.leb (length bs) (length (cjCoeff (ctJac T)))) = Ok tt).
  { intros s. destruct (Y s) as (E & _). unfold ctUpdate in E. apply bind_Ok in E as (c & _ & E). apply bind_Ok in E as ([] & G & E). injection E as <-. auto. }
  eexists H, _. split; [exact Y|]. split; [unfold ctUpdateDot; rewrite (proj2 (proj2 (F t))); cbn [bind]; reflexivity|].
  match goal with |- jacRate _ _ _ _ ?D /\ _ => assert (JR : jacRate 3 mb H t D) end.
  { split; [reflexivity|]. split; [reflexivity|]. intros i q Hi Hq. cbn [mget].
    eapply dl_ext; [intros s; rewrite (proj1 (F s)); reflexivity|]. unfold cjJacobian; cbn [mget].
    apply (cj_dl bs (ctJac T) (fun s b p => fullRow mb (pathOf bs b) (fun c => e3 (linr (rbdColW p (K s b) c)) i) q) (fun b p => fullRow mb (pathOf bs b) (fun c => e3 (linr (rbdColWDot p (K t b) (dcol b) c)) i) q)).
    intros b p x E. unfold pathOf. rewrite E. apply (fullRow_dl mb (cbPath x) (fun s c => e3 (linr (rbdColW p (K s b) c)) i)). intros c Hc. destruct (M b x E) as [W MV C _].
    apply (dV_e3 (fun s => linr (rbdColW p (K s b) c))). apply (colW_rate mb (cbPath x) (fun s => K s b) (dcol b) al ald t p c (MV t) (C c Hc)). }
  split; [exact JR|]. apply (rate_normal 3 mb H t _ al ald (fun s i => cjVelocity bs (ctJac T) (K s) i) JR); [intros s; apply (Y s)| |exact A|].
  - intros s i Hi. rewrite (proj1 (F s)). apply (cj_speed mb bs (ctJac T) K al ald s i (bodies_moves _ _ _ _ _ _ _ M s) Hi).
  - intros i Hi. eapply dl_eq; [apply (cj_acc mb bs (ctJac T) K al ald t i (bodies_moves _ _ _ _ _ _ _ M t) Hi)|]. unfold taskAcc. rewrite (proj1 (F t)), (proj1 (proj2 (F t))). reflexivity.
Qed.

(** *** MomentumTask *)
Lemma momcol_rate mb path K al ald t x c c' (V : R -> Spatial) A : movesAt mb path K al ald t -> dV c t c' -> dS V t A ->
  dS (fun s => transMul (fromCom (c s) (K s)) (inertiaMul x (V s))) t
     (transMul (fromCom (c t) (K t)) (sp_add (inertiaMul x A)
          (crossDual (sp_add (bkVelB (K t)) (sp_neg (pt_mulM (fromCom (c t) (K t)) (mkSp v0 c')))) (inertiaMul x (V t))))).
Proof.
  intros M Dc DV. pose proof M as [RG _ RT RP _]. pose proof (inertiaMul_rate x _ _ _ DV) as (DA & DB).
  assert (RTt : dM (fun s => m3tr (ptE (bkPos (K s)))) t (m3mul (m3tr (ptE (bkPos (K t)))) (skewm (ang (bkVelB (K t)))))).
  { eapply dM_eq; [apply dM_tr, RT|]. apply tr_rate. }
  apply (dS_ext (fun s => mkSp (vadd (m3mulv (m3tr (ptE (bkPos (K s)))) (ang (inertiaMul x (V s)))) (cross (vsub (ptr (bkPos (K s))) (c s)) (m3mulv (m3tr (ptE (bkPos (K s)))) (linr (inertiaMul x (V s))))))
                               (m3mulv (m3tr (ptE (bkPos (K s)))) (linr (inertiaMul x (V s)))))).
  { intros s. unfold transMul. rewrite fromCom_E, fromCom_r. reflexivity. }
  pose proof (dV_mulv _ _ _ _ _ RTt DB) as DF. pose proof (dV_mulv _ _ _ _ _ RTt DA) as DN.
  cbv beta in DF, DN. rewrite m3mul_mulv, skewm_mulv in DF, DN.
  eapply dS_eq; [apply dS_mk; [apply dV_add; [exact DN|apply dV_cross; [apply dV_sub; [exact RP|exact Dc]|exact DF]]|exact DF]|].
  unfold transMul. rewrite fromCom_E, fromCom_r.
  assert (HX : pt_mulM (fromCom (c t) (K t)) (mkSp v0 c') = mkSp v0 (m3mulv (ptE (bkPos (K t))) c')).
  { unfold pt_mulM. rewrite fromCom_E. cbn [ang linr]. apply Spatial_ext; cbn [ang linr]; v3c. }
  rewrite HX. unfold crossDual, sp_add, sp_neg; cbn [ang linr].
  pose proof (rot_tr_cross (ptE (bkPos (K t))) (linr (bkVelB (K t))) c' (linr (inertiaMul x (V t))) (RG t)) as Q.
  set (E := ptE (bkPos (K t))) in *. set (h := inertiaMul x (V t)) in *. set (w := ang (bkVelB (K t))) in *. set (v := linr (bkVelB (K t))) in *.
  clearbody h. set (JA := inertiaMul x A). clearbody JA w v.
  apply Spatial_ext; cbn [ang linr].
  - replace (vadd v (vneg (m3mulv E c'))) with (vsub v (m3mulv E c')) by v3c. replace (vadd w (vneg v0)) with w by v3c.
    transitivity (vadd (vadd (m3mulv (m3tr E) (vadd (cross w (ang h)) (ang JA))) (cross (vsub (m3mulv (m3tr E) v) c') (m3mulv (m3tr E) (linr h))))
      (cross (vsub (ptr (bkPos (K t))) (c t)) (vadd (m3mulv (m3tr E) (cross w (linr h))) (m3mulv (m3tr E) (linr JA))))).
    + v3c.
    + rewrite <- Q. set (z := cross (vsub v (m3mulv E c')) (linr h)). clearbody z. v3c.
  - replace (vadd w (vneg v0)) with w by v3c. v3c.
Qed.
Theorem momentum_dot mb bs mom K dcol al ald t : heavy (map moB bs) -> bodiesDot mb (map moB bs) K dcol al ald t -> (forall j, dlim (fun s => al s j) t (ald t j)) ->
  exists H D, yields 6 mb (fun s => momUpdate mb bs (K s) mom) H /\ momUpdateDot mb bs (K t) dcol = Ok D /\ jacRate 6 mb H t D /\ dotIsNormal 6 mb H al t D.
Proof.
  intros Hv M A. pose proof (bodies_moves _ _ _ _ _ _ _ M) as MV.
  assert (MB : forall s b x, nth_error bs b = Some x -> wfPath mb (cbPath (moB x)) /\ movesAt mb (cbPath (moB x)) (fun s => K s b) al ald s).
  { intros s b x E. apply (MV s). rewrite nth_error_map, E. reflexivity. }
  assert (EC : forall s, computeCoM (worldMasses (map moB bs) (K s)) = Ok (comVec bs (K s))).
  { intros s. destruct (computeCoM_of (map moB bs) (K s) (proj2 Hv)) as (c & EC & HC). rewrite EC. f_equal. unfold comVec. rewrite <- !HC. destruct c; reflexivity. }
  assert (EV : forall s, comVelocity bs (K s) = Ok (comRate bs (K s))) by (intros s; apply comVelocity_of, Hv).
  set (H := fun s => mkHL (centroidalMatrix mb bs (K s) (comVec bs (K s))) (mkVec 6 (fun i => e6 mom i - centroidal bs (K s) (comVec bs (K s)) i)) (mkVec 6 (fun _ => 0)) (mkVec 6 (normalMomentumDot bs (K s) (comVec bs (K s)) (comRate bs (K s))))).
  set (D := mkMat 6 (nrDof mb) (fun i q => overBodies bs (fun b x => fullRow mb (cbPath (moB x)) (fun c => e6 (momColDot (comVec bs (K t)) (comRate bs (K t)) x (K t b) (dcol b) c) i) q))).
  assert (JR : jacRate 6 mb H t D).
  { split; [reflexivity|]. split; [reflexivity|]. intros i q Hi Hq. unfold H, D, centroidalMatrix; cbn [hJac mget].
    apply (ob_dl bs (fun s b x => fullRow mb (cbPath (moB x)) (fun c => e6 (transMul (fromCom (comVec bs (K s)) (K s b)) (inertiaMul x (bkCol (K s b) c))) i) q)
      (fun b x => fullRow mb (cbPath (moB x)) (fun c => e6 (momColDot (comVec bs (K t)) (comRate bs (K t)) x (K t b) (dcol b) c) i) q)).
    intros b x E. apply (fullRow_dl mb (cbPath (moB x)) (fun s c => e6 (transMul (fromCom (comVec bs (K s)) (K s b)) (inertiaMul x (bkCol (K s b) c))) i)). intros c Hc.
    assert (E' : nth_error (map moB bs) b = Some (moB x)) by (rewrite nth_error_map, E; reflexivity). destruct (M b _ E') as [_ MV' C' _].
    apply (dS_e6 (fun s => transMul (fromCom (comVec bs (K s)) (K s b)) (inertiaMul x (bkCol (K s b) c)))).
    exact (momcol_rate mb _ (fun s => K s b) al ald t x (fun s => comVec bs (K s)) _ (fun s => bkCol (K s b) c) _ (MV' t) (comVec_rate _ _ _ _ _ _ (MV t)) (C' c Hc)). }
  exists H, D. split; [|split; [|split; [exact JR|]]].
  - intros s. split; [|split; [unfold hlSizes; repeat split|reflexivity]]. unfold momUpdate. rewrite EC. cbn [bind]. rewrite EV. reflexivity.
  - unfold momUpdateDot. rewrite EC. cbn [bind]. rewrite EV. reflexivity.
  - apply (rate_normal 6 mb H t D al ald (fun s i => centroidal bs (K s) (comVec bs (K s)) i) JR); [reflexivity| |exact A|].
    + intros s i Hi. unfold H; cbn [hJac centroidalMatrix mget]. rewrite ob_jac by (intros b y E; apply (MB s b y E)).
      unfold centroidal. apply ob_ext. intros b x E. rewrite <- e6_jsp, <- jsp_mom. rewrite <- (moves_vel _ _ _ _ _ _ (proj2 (MB s b x E)) : bkVelB (K s b) = _). reflexivity.
    + intros i Hi. unfold taskAcc, H; cbn [hJac hNAcc vget centroidalMatrix mcols mget Nat.add]. rewrite ob_jac by (intros b y E; apply (MB t b y E)).
      unfold normalMomentumDot. rewrite <- ob_plus. unfold centroidal. apply ob_dl. intros b x E.
      eapply dl_eq; [apply (dS_e6 (fun s => transMul (fromCom (comVec bs (K s)) (K s b)) (inertiaMul x (bkVelB (K s b))))); exact (momentum_rate _ _ (fun s => K s b) _ _ _ x _ _ (proj2 (MB t b x E)) (comVec_rate _ _ _ _ _ _ (MV t)))|].
      rewrite e6_add, e6_jsp. reflexivity.
Qed.

(** *** Columns of the Jacobian of a body of a tree *)
Lemma pathAt_app mb p b c : pathAt mb (p ++ [b]) c = if (c <? pathDof mb p)%nat then pathAt mb p c else
  if (c - pathDof mb p <? jointDof mb b)%nat then (b, (c - pathDof mb p)%nat) else (0%nat, (c - pathDof mb p - jointDof mb b)%nat).
Proof.
  revert c. induction p as [|i p IH]; intros c.
  - cbn [app pathAt]. change (pathDof mb []) with 0%nat. rewrite Nat.sub_0_r. reflexivity.
  - cbn [app pathAt]. change (pathDof mb (i :: p)) with (jointDof mb i + pathDof mb p)%nat.
    destruct (Nat.ltb_spec c (jointDof mb i)) as [L|L].
    + replace (c <? jointDof mb i + pathDof mb p)%nat with true by (symmetry; apply Nat.ltb_lt; lia). reflexivity.
    + rewrite IH. replace (c - jointDof mb i - pathDof mb p)%nat with (c - (jointDof mb i + pathDof mb p))%nat by lia.
      destruct (Nat.ltb_spec (c - jointDof mb i) (pathDof mb p)); destruct (Nat.ltb_spec c (jointDof mb i + pathDof mb p)); try lia; reflexivity.
Qed.
Lemma mulM_id v : pt_mulM pt_id v = v.
Proof. unfold pt_mulM, pt_id; cbn [ptE ptr]. destruct v as [[] []]. apply Spatial_ext; cbn [ang linr]; v3c. Qed.
Lemma mulM_mul X Y v : rotation (ptE Y) -> pt_mulM (pt_mul X Y) v = pt_mulM X (pt_mulM Y v).
Proof.
  intros RY. unfold pt_mulM, pt_mul; cbn [ptE ptr ang linr]. apply Spatial_ext; cbn [ang linr].
  - apply m3mul_mulv.
  - rewrite m3mul_mulv. f_equal.
    assert (S : forall A a b, m3mulv A (vsub a b) = vsub (m3mulv A a) (m3mulv A b)) by (intros; unfold m3mulv, vsub, dot; simpl; f_equal; ring).
    assert (C : cross (m3mulv (m3tr (ptE Y)) (ptr X)) (ang v) = m3mulv (m3tr (ptE Y)) (cross (ptr X) (m3mulv (ptE Y) (ang v)))).
    { rewrite <- (rotation_cross _ (ptr X) (m3mulv (ptE Y) (ang v))) by (apply rotation_tr; exact RY). f_equal. rewrite <- m3mul_mulv, rotation_tr_mul by exact RY. destruct v as [[] []]; unfold m3mulv, m3id, dot; simpl; f_equal; ring. }
    replace (cross (vadd (ptr Y) (m3mulv (m3tr (ptE Y)) (ptr X))) (ang v)) with (vadd (cross (ptr Y) (ang v)) (cross (m3mulv (m3tr (ptE Y)) (ptr X)) (ang v))) by (unfold vadd, cross; simpl; f_equal; ring).
    rewrite C. rewrite !S, m3mulv_add, rotation_mulT by exact RY. 
    generalize (m3mulv (ptE Y) (linr v)) (m3mulv (ptE Y) (cross (ptr Y) (ang v))) (cross (ptr X) (m3mulv (ptE Y) (ang v))). intros. unfold vsub, vadd; simpl. f_equal; ring.
Qed.
Lemma mulM_cross X a b : rigid X -> pt_mulM X (sp_cross a b) = sp_cross (pt_mulM X a) (pt_mulM X b).
Proof.
  intros R. unfold rigid in R. unfold pt_mulM, sp_cross; cbn [ang linr]. rewrite !(rotation_cross _ _ _ R).
  apply Spatial_ext; cbn [ang linr]; [reflexivity|]. rewrite <- m3mulv_add. f_equal. set (r := ptr X). clearbody r. clear. destruct a as [[] []], b as [[] []], r. unfold vsub, vadd, cross; simpl. f_equal; ring.
Qed.
Lemma mulM_neg X a : pt_mulM X (sp_neg a) = sp_neg (pt_mulM X a).
Proof. unfold pt_mulM, sp_neg; cbn [ang linr]. apply Spatial_ext; cbn [ang linr]; v3c. Qed.
Section Cols.
  Variables (m : treeMB) (Sub : nat -> nat -> Spatial) (X : R -> nat -> PT) (vj vb : R -> nat -> Spatial) (P : R -> nat -> PT)
    (al ald : R -> nat -> R) (t : R).
  Hypothesis M : treeMoves m Sub X vj vb P al ald t.
  Lemma up_rigid b up s : upTo m b up -> rigid (P s b).
  Proof.
    induction 1 as [b E|b p up E U IH].
    - rewrite (tmRootP _ _ _ _ _ _ _ _ _ M) by exact E. apply (tmRigid _ _ _ _ _ _ _ _ _ M).
    - rewrite (tmSonP _ _ _ _ _ _ _ _ _ M s b p E). unfold rigid, pt_mul; cbn [ptE]. apply rotation_mul; [apply (tmRigid _ _ _ _ _ _ _ _ _ M)|exact IH].
  Qed.
  Lemma cols_rate b up : upTo m b up -> forall c, (c < pathDof (trMB m) (rev up))%nat ->
    rigid (P t (fst (pathAt (trMB m) (rev up) c))) /\
    treeCol (trMB m) (X t) Sub up c = pt_mulM (pt_mul (P t b) (pt_inv (P t (fst (pathAt (trMB m) (rev up) c))))) (Sub (fst (pathAt (trMB m) (rev up) c)) (snd (pathAt (trMB m) (rev up) c))) /\
    dS (fun s => treeCol (trMB m) (X s) Sub up c) t (rbdColBDot (trMB m) (rev up) (P t) (vb t) Sub b c).
  Proof.
    assert (OWN : forall b up, upTo m b up -> forall c rest, up = b :: rest -> (pathDof (trMB m) (rev rest) <= c)%nat -> (c < pathDof (trMB m) (rev up))%nat ->
      rigid (P t (fst (pathAt (trMB m) (rev up) c))) /\
      treeCol (trMB m) (X t) Sub up c = pt_mulM (pt_mul (P t b) (pt_inv (P t (fst (pathAt (trMB m) (rev up) c))))) (Sub (fst (pathAt (trMB m) (rev up) c)) (snd (pathAt (trMB m) (rev up) c))) /\
      dS (fun s => treeCol (trMB m) (X s) Sub up c) t (rbdColBDot (trMB m) (rev up) (P t) (vb t) Sub b c)).
    { intros b0 up0 U c rest -> LE Hc. pose proof (up_rigid b0 _ t U) as RB. cbn [rev] in *. rewrite pathDof_app in Hc. assert (HB : pathDof (trMB m) [b0] = jointDof (trMB m) b0) by (unfold pathDof; simpl; lia). rewrite HB in Hc.
      assert (PA : pathAt (trMB m) (rev rest ++ [b0]) c = (b0, (c - pathDof (trMB m) (rev rest))%nat)).
      { rewrite pathAt_app. replace (c <? pathDof (trMB m) (rev rest))%nat with false by (symmetry; apply Nat.ltb_ge; lia).
        replace (c - pathDof (trMB m) (rev rest) <? jointDof (trMB m) b0)%nat with true by (symmetry; apply Nat.ltb_lt; lia). reflexivity. }
      assert (TC : forall s, treeCol (trMB m) (X s) Sub (b0 :: rest) c = Sub b0 (c - pathDof (trMB m) (rev rest))%nat).
      { intros s. cbn [treeCol]. replace (c <? pathDof (trMB m) (rev rest))%nat with false by (symmetry; apply Nat.ltb_ge; lia). reflexivity. }
      unfold rbdColBDot. rewrite PA. cbn [fst snd]. split; [exact RB|]. rewrite RigidProofs.pt_mul_inv_r by exact RB. rewrite !mulM_id. split; [apply TC|].
      apply (dS_ext (fun _ => Sub b0 (c - pathDof (trMB m) (rev rest))%nat)); [intros s; symmetry; apply TC|]. split; (eapply dV_eq; [apply dV_const|]); cbn [ang linr sp_cross sp_add sp_neg]; v3c. }
    induction 1 as [b E|b p up E U IH]; intros c Hc.
    - apply (OWN b [b] (up_root m b E) c [] eq_refl); [change (pathDof (trMB m) (rev [])) with 0%nat; lia|exact Hc].
    - destruct (Nat.ltb_spec c (pathDof (trMB m) (rev up))) as [L|L].
      2:{ apply (OWN b (b :: up) (up_son m b p up E U) c up eq_refl L Hc). }
      destruct (IH c L) as (RI & TC & DC). pose proof (up_rigid b _ t (up_son m b p up E U)) as RB. pose proof (up_rigid p _ t U) as RP.
      pose proof (tmRigid _ _ _ _ _ _ _ _ _ M t b) as RX.
      assert (PA : pathAt (trMB m) (rev (b :: up)) c = pathAt (trMB m) (rev up) c).
      { cbn [rev]. rewrite pathAt_app. replace (c <? pathDof (trMB m) (rev up))%nat with true by (symmetry; apply Nat.ltb_lt; lia). reflexivity. }
      assert (TS : forall s, treeCol (trMB m) (X s) Sub (b :: up) c = pt_mulM (X s b) (treeCol (trMB m) (X s) Sub up c)).
      { intros s. cbn [treeCol]. replace (c <? pathDof (trMB m) (rev up))%nat with true by (symmetry; apply Nat.ltb_lt; lia). reflexivity. }
      unfold rbdColBDot in DC |- *. rewrite PA. destruct (pathAt (trMB m) (rev up) c) as (i, k). cbn [fst snd] in *. split; [exact RI|].
      assert (RR : rigid (pt_mul (P t p) (pt_inv (P t i)))) by (apply rigid_mul; [exact RP|apply rigid_inv, RI]).
      assert (HX : pt_mul (P t b) (pt_inv (P t i)) = pt_mul (X t b) (pt_mul (P t p) (pt_inv (P t i)))).
      { rewrite (tmSonP _ _ _ _ _ _ _ _ _ M t b p E). apply pt_mul_assoc. }
      rewrite HX, (mulM_mul _ _ (Sub i k) RR), (mulM_mul _ _ (vb t i) RR). split; [rewrite TS, TC; reflexivity|].
      apply (dS_ext (fun s => pt_mulM (X s b) (treeCol (trMB m) (X s) Sub up c))); [intros s; symmetry; apply TS|].
      eapply dS_eq; [apply (seen_rate (fun s => X s b) (fun s => treeCol (trMB m) (X s) Sub up c) t (vj t b) _ RX (tmRot _ _ _ _ _ _ _ _ _ M b) (tmPos _ _ _ _ _ _ _ _ _ M b) DC)|].
      cbv beta. rewrite TC, mulM_cross by exact RX. rewrite mulM_add, mulM_neg, (tmSonV _ _ _ _ _ _ _ _ _ M t b p E).
      generalize (pt_mulM (X t b) (pt_mulM (pt_mul (P t p) (pt_inv (P t i))) (vb t i))) (pt_mulM (X t b) (vb t p)) (pt_mulM (X t b) (pt_mulM (pt_mul (P t p) (pt_inv (P t i))) (Sub i k))) (vj t b).
      clear. intros u v w z. apply Spatial_ext; unfold sp_add, sp_neg, sp_cross, vadd, vneg, cross; simpl; f_equal; ring.
  Qed.
End Cols.

Lemma upTo_det m b l : upTo m b l -> forall l', upTo m b l' -> l = l'.
Proof.
  induction 1 as [b E|b p l E U IH]; intros l' U'; inversion U' as [b' E' Eb|b' p' l2 E' U2 Eb]; subst; try reflexivity.
  - rewrite E in E'. injection E' as E'. lia.
  - rewrite E in E'. injection E' as E'. lia.
  - rewrite E in E'. injection E' as E'. assert (p = p') by lia. subst p'. f_equal. apply IH, U2.
Qed.
Theorem tree_dot ms gs d : (forall t, Forall2 (robotMoves t) ms gs) ->
  exists D : R -> naccData, (forall s, naccCompute ms (configs ms gs s) (naccNrVars ms d) = Ok (D s)) /\
    forall r m g b, nth_error ms r = Some m -> nth_error gs r = Some g -> (0 < nrDof (trMB m))%nat -> (b < trBodies m)%nat -> exists up, upTo m b up /\
      forall t, dotMoves (trMB m) (rev up) (fun s => mkBK (rmP g s b) (rmVb g s b) (nth b (nth r (naAcc (D s)) []) sp0) (treeCol (trMB m) (rmX g s) (rmSub g) up))
                  (rbdColBDot (trMB m) (rev up) (rmP g t) (rmVb g t) (rmSub g) b) (rmAl g) (rmAld g) t.
Proof.
  intros F. destruct (normal_acc_moves ms gs 0 d (F 0)) as (D & C & Q & _). exists D. split; [intros s; apply C|].
  intros r m g b E Eg Hp Hb. destruct (Q r m g E Eg Hp) as (_ & Q0). destruct (Q0 b Hb) as (up & U & W & _). exists up. split; [exact U|].
  assert (MV : forall t, movesAt (trMB m) (rev up) (fun s => mkBK (rmP g s b) (rmVb g s b) (nth b (nth r (naAcc (D s)) []) sp0) (treeCol (trMB m) (rmX g s) (rmSub g) up)) (rmAl g) (rmAld g) t).
  { intros t. destruct (normal_acc_moves ms gs t d (F t)) as (D' & C' & Q' & _). destruct (Q' r m g E Eg Hp) as (_ & Q1). destruct (Q1 b Hb) as (up' & U' & _ & MV).
    rewrite (upTo_det m b up U up' U'). replace D with D'; [exact MV|]. apply functional_extensionality. intros s. destruct (C s) as (C1 & _), (C' s) as (C2 & _). rewrite C1 in C2. injection C2 as C2. symmetry. exact C2. }
  intros t. destruct (Forall2_nth_ex _ _ _ _ _ (F t) E) as (g' & Eg' & (OK & TM) & _). rewrite Eg in Eg'. injection Eg' as <-. split; [exact W|exact MV| |].
  - intros c Hc. cbn [bkCol]. apply (cols_rate m (rmSub g) (rmX g) (rmVj g) (rmVb g) (rmP g) (rmAl g) (rmAld g) t TM b up U c Hc).
  - intros j. apply (tmAl _ _ _ _ _ _ _ _ _ TM).
Qed.

(** *** The two ways to the normal accelerations *)
Definition fitsTree (m : treeMB) (c : treeMBC) : Prop :=
  let n := length (joints (trMB m)) in okTree m /\ length (tcPts c) = n /\ length (tcVj c) = n /\ length (tcVb c) = n.
Lemma map_nth_seq {A} (d : A) l : map (fun i => nth i l d) (seq 0 (length l)) = l.
Proof.
  apply (nth_ext _ _ d d); [rewrite map_length, seq_length; reflexivity|]. intros n Hn. rewrite map_length, seq_length in Hn.
  rewrite (nth_indep _ d (nth 0 l d)) by (rewrite map_length, seq_length; exact Hn). rewrite (map_nth (fun i => nth i l d)), seq_nth by exact Hn. reflexivity.
Qed.
Lemma pathNAcc_app c p q a : pathNAcc c (p ++ q) a = do x <- pathNAcc c p a; pathNAcc c q x.
Proof.
  revert a. induction p as [|i p IH]; intros a; cbn [app pathNAcc]; [reflexivity|].
  destruct (vec_at (tcPts c) i); cbn [bind]; [|reflexivity|reflexivity]. destruct (vec_at (tcVb c) i); cbn [bind]; [|reflexivity|reflexivity]. destruct (vec_at (tcVj c) i); cbn [bind]; [|reflexivity|reflexivity]. apply IH.
Qed.
Lemma treeAt_nth m c : fitsTree m c -> treeAt m (fun _ i => nth i (tcPts c) pt_id) (fun _ i => nth i (tcVj c) sp0) (fun _ i => nth i (tcVb c) sp0) 0 = c.
Proof. intros (_ & L1 & L2 & L3). unfold treeAt. cbv zeta. rewrite <- L1 at 1. rewrite <- L2 at 1. rewrite <- L3 at 1. rewrite !map_nth_seq. destruct c; reflexivity. Qed.
Lemma path_given m c na : fitsTree m c -> length na = trBodies m -> exists na', naccRobot m c na = Ok na' /\ length na' = trBodies m /\
  forall b up, upTo m b up -> vec_at na' b = pathNAcc c (rev up) sp0 /\ exists a, vec_at na' b = Ok a.
Proof.
  intros FT L. pose proof FT as (OK & L1 & L2 & L3).
  destruct (naccRobot_spec m (fun _ i => nth i (tcPts c) pt_id) (fun _ i => nth i (tcVj c) sp0) (fun _ i => nth i (tcVb c) sp0) 0 na OK L) as (na' & E & L' & D).
  rewrite (treeAt_nth m c FT) in E. exists na'. split; [exact E|]. split; [exact L'|].
  assert (AT : forall b, (b < trBodies m)%nat -> vec_at na' b = Ok (nth b na' sp0)).
  { intros b Hb. unfold vec_at. rewrite (nth_error_nth' na' sp0) by lia. reflexivity. }
  assert (G : forall b up, upTo m b up -> (b < trBodies m)%nat -> pathNAcc c (rev up) sp0 = Ok (nth b na' sp0)).
  { induction 1 as [b Eb|b p up Eb U IH]; intros Hb.
    - cbn [rev app pathNAcc]. destruct OK as (TB & _). unfold vec_at. rewrite (nth_error_nth' (tcPts c) pt_id), (nth_error_nth' (tcVb c) sp0), (nth_error_nth' (tcVj c) sp0) by lia. cbn [bind].
      f_equal. destruct (D b Hb) as (D0 & _). rewrite (D0 Eb). cbv beta. generalize (sp_cross (nth b (tcVb c) sp0) (nth b (tcVj c) sp0)) (nth b (tcPts c) pt_id). intros [[] []] [A r].
      apply Spatial_ext; unfold sp_add, pt_mulM, sp0; cbn [ang linr]; v3c.
    - cbn [rev]. rewrite pathNAcc_app. pose proof OK as (TB & _ & LP & PR). destruct (PR b _ Eb) as [F|F]; [lia|]. rewrite IH by lia. cbn [bind pathNAcc].
      unfold vec_at. rewrite (nth_error_nth' (tcPts c) pt_id), (nth_error_nth' (tcVb c) sp0), (nth_error_nth' (tcVj c) sp0) by lia. cbn [bind]. f_equal. destruct (D b Hb) as (_ & D1). rewrite (D1 p Eb). reflexivity. }
  intros b up U. assert (Hb : (b < trBodies m)%nat). { destruct OK as (-> & _ & <- & _). inversion U as [b' Eb|b' p l Eb]; subst; apply nth_error_Some; congruence. }
  rewrite (G b up U Hb), (AT b Hb). eauto.
Qed.
Theorem overloads_agree ms cs d : Forall2 fitsTree ms cs ->
  exists d', naccCompute ms cs (naccNrVars ms d) = Ok d' /\
    forall r m c b up, nth_error ms r = Some m -> nth_error cs r = Some c -> (0 < nrDof (trMB m))%nat -> upTo m b up ->
      forall P vb col, bodyGiven P vb col (nth r (naAcc d') []) b = bodyFound P vb col c (rev up) /\ exists k, bodyFound P vb col c (rev up) = Ok k.
Proof.
  intros F.
  assert (B : forall r m, nth_error ms r = Some m -> exists c na', nth_error cs r = Some c /\ naccRobot m c (resize (nth r (naAcc d) []) (trBodies m) sp0) = Ok na' /\
     forall b up, upTo m b up -> vec_at na' b = pathNAcc c (rev up) sp0 /\ exists a, vec_at na' b = Ok a).
  { intros r m E. destruct (Forall2_nth_ex _ _ _ _ _ F E) as (c & Ec & FT & _). destruct (path_given m c (resize (nth r (naAcc d) []) (trBodies m) sp0) FT (DepsProofs.resize_length _ _ _)) as (na' & En & _ & Q). eauto 10. }
  destruct (naccRobots_spec ms cs (mobileFrom ms 0) (naccSize ms (naAcc d)) (mobileFrom_nodup _ _)) as (acc' & E' & L' & O' & D').
  { intros r Hr. apply mobileFrom_in in Hr. destruct Hr as (_ & m & E & _). rewrite Nat.sub_0_r in E. destruct (B r m E) as (c & na' & Ec & En & _).
    exists m, c, (resize (nth r (naAcc d) []) (trBodies m) sp0), na'. rewrite (naccSize_nth _ _ _ _ E). auto. }
  exists (mkNA (mobileFrom ms 0) acc'). split; [unfold naccCompute, naccNrVars; cbn [naMobile naAcc]; rewrite E'; reflexivity|].
  intros r m c b up E Ec Hp U P vb col. destruct (B r m E) as (c' & na' & Ec' & En & Q). rewrite Ec in Ec'. injection Ec' as <-. cbn [naAcc].
  assert (X : nth_error acc' r = Some na'). { eapply D'; eauto; [|apply naccSize_nth, E]. apply mobileFrom_in. rewrite Nat.sub_0_r. split; [lia|]. eauto. }
  rewrite (nth_error_nth _ _ _ X). destruct (Q b up U) as (Q1 & a & Q2). unfold bodyGiven, bodyFound. rewrite <- Q1, Q2. cbn [bind]. eauto.
Qed.

(** OrientationTrackingTask once updateDot has been called: the acceleration of the task is the right one. *)
Theorem tracking_with_dot rv ftv mb T K dcol al ald t jm jd : sized 3 mb jm -> mrows jd = 3%nat /\ mcols jd = nrDof mb -> dotMoves mb (otPath T) K dcol al ald t ->
  exists H D, otUpdateDot mb T (K t) dcol jd = Ok D /\ yields 3 mb (fun s => otUpdate rv ftv mb T (K s) (al s) D (jm s)) H /\ jacRate 3 mb H t D /\ dotIsNormal 3 mb H al t D /\ speedRate 0 3 H ald t.
Proof.
  intros Sz Jd M. destruct (tracking_dot rv ftv mb T K dcol al ald t jm jd (fun _ => jd) Sz Jd M) as (_ & D & _ & ED & _).
  destruct (tracking_dot rv ftv mb T K dcol al ald t jm jd (fun _ => D) Sz Jd M) as (H & D' & Y & ED' & JR). rewrite ED in ED'. injection ED' as <-.
  exists H, D. split; [exact ED|]. split; [exact Y|]. split; [exact JR|]. destruct JR as (R1 & R2 & R3).
  assert (F : forall s, hSpeed (H s) = mkVec 3 (fun i => sumn (nrDof mb) (fun j => mget (hJac (H s)) i j * al s j)) /\ hNAcc (H s) = mkVec 3 (fun i => sumn (nrDof mb) (fun j => mget D i j * al s j)) /\ mcols (hJac (H s)) = nrDof mb).
  { intros s. destruct (Y s) as (E & _ & C). unfold otUpdate in E. apply bind_Ok in E as (J & _ & E). injection E as E. rewrite <- E in C |- *. cbn [hJac hSpeed hNAcc] in *. rewrite C, R2. auto. }
  assert (DN : dotIsNormal 3 mb H al t D) by (intros i Hi; rewrite (proj1 (proj2 (F t))); reflexivity). split; [exact DN|].
  intros i (_ & Hi). unfold taskAcc. rewrite <- (DN i Hi), (proj2 (proj2 (F t))).
  apply (dl_ext (fun s => sumn (nrDof mb) (fun j => mget (hJac (H s)) i j * al s j))); [intros s; rewrite (proj1 (F s)); reflexivity|].
  eapply dl_eq; [apply (dl_sumn (nrDof mb) (fun s j => mget (hJac (H s)) i j * al s j) t (fun j => mget D i j * al t j + mget (hJac (H t)) i j * ald t j))|].
  - intros j Hj. eapply dl_eq; [apply dl_mult; [apply (R3 i j Hi Hj)|apply (dmAl _ _ _ _ _ _ _ M j)]|]. cbv beta. ring.
  - rewrite sumn_plus. cbn [Nat.add]. ring.
Qed.
