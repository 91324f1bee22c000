(** Lemmas about whole-body control cycles. *)
From Verif Require Export BalanceSpec TorqueCycle ContactFacts ForceTaskFacts.
Open Scope list_scope.
Open Scope R_scope.

Lemma inCone_zero n mu : inCone n mu v0.
Proof.
  unfold inCone. replace (dot n v0) with 0 by (v3unf; ring). replace (tangential n v0) with v0 by (unfold tangential; v3unf; f_equal; ring).
  rewrite norm_v0. lra.
Qed.
Lemma inCone_step n mu a g f : 0 <= a -> inCone n mu g -> inCone n mu f -> inCone n mu (vadd (vsc a g) f).
Proof.
  intros A (G1 & G2) (F1 & F2). assert (D : dot n (vadd (vsc a g) f) = a * dot n g + dot n f) by (v3unf; ring).
  assert (T : tangential n (vadd (vsc a g) f) = vadd (vsc a (tangential n g)) (tangential n f)) by (unfold tangential; v3unf; f_equal; ring).
  unfold inCone. rewrite D, T. split; [nra|]. eapply Rle_trans; [apply norm_triangle|]. rewrite norm_vsc, Rabs_pos_eq by exact A. nra.
Qed.
Lemma comb_inCone n mu gens : forall lam, Forall (inCone n mu) gens -> (forall i, (i < length gens)%nat -> 0 <= lam i) -> inCone n mu (comb gens lam).
Proof.
  induction gens as [|g gs IH]; intros lam F P; [apply inCone_zero|]. inversion F; subst. cbn [comb]. apply inCone_step; [apply P; cbn; lia|auto|].
  apply IH; [auto|]. intros i Hi. apply P. cbn. lia.
Qed.
Lemma forces_inCone n mu cones : forall lam pos p k f, nth_error cones p = Some k -> Forall (inCone n mu) (generators k) ->
  (forall i, (pos <= i < pos + sumnat (sizes cones))%nat -> 0 <= lam i) -> nth_error (forces cones lam pos) p = Some f -> inCone n mu f.
Proof.
  induction cones as [|c cs IH]; intros lam pos [|p] k f E F P Q; try discriminate; cbn [nth_error forces] in E, Q.
  - injection E as ->. injection Q as <-. apply comb_inCone; [exact F|]. intros i Hi. apply P. cbn. lia.
  - apply (IH _ _ _ _ _ E F) in Q; [exact Q|]. intros i Hi. apply P. cbn. fold (sizes cs). lia.
Qed.

Lemma ccRun_snoc ops : forall c c1 o1 op c2 b, ccRun c ops = Ok (c1, o1) -> ccStep c1 op = Ok (c2, b) -> exists o2, ccRun c (ops ++ [op]) = Ok (c2, o2).
Proof.
  induction ops as [|q ops IH]; intros c c1 o1 op c2 b H S.
  - injection H as <- <-. cbn [app ccRun]. rewrite S. cbn. eauto.
  - cbn [ccRun app] in *. apply bind_Ok in H as ([c' b'] & E & H). apply bind_Ok in H as ([c'' b''] & E' & H). injection H as <- <-.
    rewrite E. cbn [bind]. destruct (IH _ _ _ _ _ _ E' S) as (o2 & X). rewrite X. cbn. eauto.
Qed.
Lemma ccRun_join ops1 : forall ops2 c c1 o1 c2 o2, ccRun c ops1 = Ok (c1, o1) -> ccRun c1 ops2 = Ok (c2, o2) -> exists o3, ccRun c (ops1 ++ ops2) = Ok (c2, o3).
Proof.
  induction ops1 as [|q ops1 IH]; intros ops2 c c1 o1 c2 o2 H S; cbn [ccRun app] in *.
  - injection H as <- <-. eauto.
  - apply bind_Ok in H as ([c' b'] & E & H). apply bind_Ok in H as ([c'' b''] & E' & H). injection H as <- <-.
    rewrite E. cbn [bind]. destruct (IH _ _ _ _ _ _ E' S) as (o3 & X). rewrite X. cbn. eauto.
Qed.
Lemma lambdas_nonneg mbs d x q b lam n mu p k f cones : sizesOf mbs d ->
  (forall i, (sdTotalAlphaD d <= i < sdNrVars d)%nat -> 0 <= vget x i) ->
  nth_error (sdAll d) q = Some b -> lambdaVecAt d x q = Ok lam -> cones = bR1Cones b \/ cones = bR2Cones b ->
  nth_error cones p = Some k -> Forall (inCone n mu) (generators k) -> nth_error (forces cones (vget lam) 0) p = Some f -> inCone n mu f.
Proof.
  intros SZ P Eb L Hc Ek F Q. destruct (sizes_begins mbs d SZ) as (BG & TL & NV). unfold lambdaVecAt in L.
  rewrite (BG _ _ Eb) in L. cbn [bind] in L. rewrite (lambda_count _ _ _ _ SZ Eb) in L. cbn [bind] in L.
  unfold vseg in L. destruct (_ <=? _)%nat eqn:LE in L; [|discriminate]. injection L as <-. cbn [vget] in Q.
  destruct SZ as (_ & WF). rewrite Forall_forall in WF. destruct (WF b (nth_error_In _ _ Eb)) as (W1 & W2 & W3 & W4).
  assert (SM : sumnat (sizes cones) = biLambdaCount b).
  { destruct Hc as [-> | ->]; [|rewrite W4]; unfold biLambdaCount; rewrite <- W1, firstn_all; reflexivity. }
  eapply forces_inCone; [exact Ek|exact F| |exact Q]. intros i Hi. cbn beta. rewrite SM in Hi. apply P.
  assert (total (firstn q (sdAll d)) + biLambdaCount b <= total (sdAll d))%nat.
  { clear -Eb. unfold total. revert q Eb. generalize (sdAll d) as cs. induction cs as [|c cs IH]; intros [|q] E; try discriminate; cbn in E |- *.
    { injection E as ->. lia. }
    specialize (IH q E). lia. }
  lia.
Qed.

Section Bodies.
Variables (nm : names) (mbs : list multibody) (lssol : bool) (kinds : nat -> list ckind) (pre : list op) (uni : list unilateral) (bi : list bilateral) (num : numeric) (ce cb cg : nat).
Variables (mode : cmode) (sv : sva) (ops0 : list ccOp) (cc0 : contactConstr) (o0 : list (option bool)) (cc : contactConstr).
Variables (r : nat) (tl tu tdl tdu : list (list ext)) (dt : R) (sj : list springJoint) (m0 : motion_) (d : solverData).
Hypothesis W : Forall wfMimic mbs.
Hypothesis NZ : nonzeroMimics mbs.
Hypothesis C : contract num.
Hypothesis HN : newMotion mbs r tl tu tdl tdu dt sj = Ok m0.
Hypothesis PW : pathsWf nm mbs.
Hypothesis MO : modeOk mode.
Hypothesis RG : forall b, In b (sdAll d) -> rigid (bXcf b) /\ rigid (bXbb b).
Hypothesis WF : Forall wfBilateral (sdAll d).
Hypothesis R0 : ccRun newCC ops0 = Ok (cc0, o0).
Hypothesis UN : updateNrVars nm mbs d cc0 = Ok cc.

Definition between3 (z : contactConstr * motion_ * qpSolver) : Prop :=
  let '(c, m, s) := z in
  between2 nm mbs lssol kinds pre uni bi r m0 d m s /\ exists cops o, Forall (sameProblem mbs) cops /\ ccRun cc cops = Ok (c, o).

Lemma body_torque k dy x z z' : bodyCycle mbs lssol kinds num ce cb cg mode sv k dy x z z' ->
  torqueCycle nm mbs lssol kinds num cg dy x (snd (fst z), snd z) (snd (fst z'), snd z').
Proof.
  destruct z as [[c m] s], z' as [[c' m'] s'].
  intros (ops & cops & o & cc1 & h & p & m1 & ms & ms1 & a & l & X1 & X2 & _ & _ & _ & _ & X0 & X3 & _ & _ & _ & _ & _ & _ & X4 & X5 & X6 & X7 & X8 & X9 & X10 & X11).
  exists ops, h, m1, ms, ms1, a, l. auto 20.
Qed.
Lemma body_step k dy x z z' : between3 z -> bodyCycle mbs lssol kinds num ce cb cg mode sv k dy x z z' -> between3 z' /\
  Forall (fun cd => contactHolds nm mbs d mode sv k cd (vget x)) (ccCont (fst (fst z'))) /\
  (forall i, (sdTotalAlphaD d <= i < sdNrVars d)%nat -> 0 <= vget x i) /\
  exists mb, nth_error mbs r = Some mb /\ forall j, (j < nrDof mb)%nat ->
    storedTorque (snd (fst z')) j = invTorque nm mbs d dy r (vget x) j /\
    between (staticLimit mb sj (dQ dy r) (dAlpha dy r) tl NInf j) (storedTorque (snd (fst z')) j) (staticLimit mb sj (dQ dy r) (dAlpha dy r) tu PInf j).
Proof.
  destruct z as [[c m] s], z' as [[c' m'] s']. intros (B2 & cops0 & oo & SP & CR) Y.
  destruct (torqueCycle_step _ _ _ _ _ _ _ _ _ _ _ _ _ _ _ _ _ _ W NZ C HN PW _ _ _ _ _ _ B2 (body_torque _ _ _ _ _ Y)) as (B3 & TQ). cbn [fst snd] in *.
  destruct Y as (ops & cops & o & cc1 & h & p & m1 & ms & ms1 & a & l & R & HO & _ & I1 & _ & I2 & _ & I3 & SP1 & CR1 & CU & HE & PN & PB & MU & HG & WB & DB & SV & AV & LV & MT).
  pose proof B2 as ((post & H & Hc) & HD & _).
  pose proof (run_extends _ _ _ _ _ _ _ _ _ _ H R) as H'. assert (Hc' : Forall (fun o => ~ resizesOrSwitches o) (post ++ ops)) by (apply Forall_app; auto).
  pose proof (run_data _ _ _ _ _ _ _ _ _ _ H W Hc R HO) as HD'. rewrite HD in HD'.
  destruct (optimal_lemma _ _ _ _ _ _ _ _ _ _ _ _ _ _ H' W NZ Hc' C WB DB SV) as (VX & FX & _ & _). rewrite HD' in VX, FX.
  destruct (layout_after _ _ _ _ _ _ _ _ H' W Hc') as (deps & LY & _). rewrite HD' in LY.
  destruct (ccRun_join _ _ _ _ _ _ _ CR CR1) as (o3 & CR2).
  assert (SP2 : Forall (sameProblem mbs) (cops0 ++ cops)) by (apply Forall_app; auto).
  destruct FX as ((FE & _ & FG) & FB).
  split; [|split; [|split]].
  - split.
    + exact B3.
    + destruct (ccRun_snoc (cops0 ++ cops) cc cc1 o3 (OUpdate mode mbs sv k) c' None CR2) as (o4 & CR3); [cbn; rewrite CU; reflexivity|].
      exists ((cops0 ++ cops) ++ [OUpdate mode mbs sv k]), o4. split; [|exact CR3]. apply Forall_app. split; [exact SP2|]. repeat constructor.
  - apply (rows_lemma nm mbs uni bi d deps ops0 cc0 o0 cc (cops0 ++ cops) cc1 o3 mode sv k c' (vget x) LY PW RG MO R0 UN SP2 CR2 CU).
    rewrite <- HE. rewrite Forall_forall in FE. apply FE. unfold collect. cbn [rgEq]. apply in_map. exact I1.
  - assert (SZ : sizesOf mbs d) by (split; [eauto|exact WF]). rewrite HD' in PN.
    destruct (positive_lemma mbs d SZ) as (p' & b' & P1 & P2 & P3 & _). rewrite PN in P1. injection P1 as <-. rewrite PB in P2. injection P2 as P2.
    apply P3. rewrite <- P2. rewrite Forall_forall in FB. apply FB. unfold collect. cbn [rgBound]. apply in_map. exact I2.
  - exact TQ.
Qed.
Lemma body_steps z z' : between3 z -> bodyCycles mbs lssol kinds num ce cb cg mode sv z z' -> between3 z'.
Proof. intros B X. induction X as [|z1 z2 k dy x X IH Y]; [exact B|]. exact (proj1 (body_step _ _ _ _ _ IH Y)). Qed.
End Bodies.

Lemma body_lemma nm mbs lssol kinds pre uni bi post s num ce cb cg mode sv ops0 cc0 o0 cc r tl tu tdl tdu dt sj m0 ops h m k dy x c1 m1 s1 c2 m2 s2 :
  history lssol kinds (pre ++ OpNrVars mbs uni bi :: post) = Ok s -> Forall wfMimic mbs -> nonzeroMimics mbs ->
  Forall (fun o => ~ resizesOrSwitches o) post -> contract num -> pathsWf nm mbs ->
  (forall b, In b (sdAll (qData s)) -> wfBilateral b /\ rigid (bXcf b) /\ rigid (bXbb b)) ->
  modeOk mode -> ccRun newCC ops0 = Ok (cc0, o0) -> updateNrVars nm mbs (qData s) cc0 = Ok cc ->
  newMotion mbs r tl tu tdl tdu dt sj = Ok m0 ->
  Forall (opData (fun d => sizesOf mbs d /\ noSelf r d)) ops -> mhRun (fun d dy => invTorque nm mbs d dy r) mh0 ops = Some h -> hData h = Some (qData s) ->
  moRun nm mbs m0 ops = Ok m ->
  bodyCycles mbs lssol kinds num ce cb cg mode sv (cc, m, s) (c1, m1, s1) -> bodyCycle mbs lssol kinds num ce cb cg mode sv k dy x (c1, m1, s1) (c2, m2, s2) ->
  Forall (fun cd => contactHolds nm mbs (qData s) mode sv k cd (vget x)) (ccCont c2) /\
  (forall q b lam cones p cone n mu f, nth_error (sdAll (qData s)) q = Some b -> lambdaVecAt (qData s) x q = Ok lam -> cones = bR1Cones b \/ cones = bR2Cones b ->
     nth_error cones p = Some cone -> Forall (inCone n mu) (generators cone) -> nth_error (forces cones (vget lam) 0) p = Some f -> inCone n mu f) /\
  exists mb b, nth_error mbs r = Some mb /\ alphaDBegin (qData s) r = Ok b /\ forall j, (j < nrDof mb)%nat ->
    sumn (nrDof mb) (fun i => dH dy r j i * vget x (b + i)%nat) + dC dy r j =
      storedTorque m2 j + contactForces (heldBy r) nm dy mb r (sdAll (qData s)) (sdTotalAlphaD (qData s)) (vget x) j /\
    between (staticLimit mb sj (dQ dy r) (dAlpha dy r) tl NInf j) (storedTorque m2 j) (staticLimit mb sj (dQ dy r) (dAlpha dy r) tu PInf j).
Proof.
  intros H W NZ Hc C PW RG MO R0 UN HN FO MH HD MR X Y.
  assert (WF : Forall wfBilateral (sdAll (qData s))) by (apply Forall_forall; intros b Hb; apply RG; exact Hb).
  assert (RG' : forall b, In b (sdAll (qData s)) -> rigid (bXcf b) /\ rigid (bXbb b)) by (intros b Hb; apply RG; exact Hb).
  assert (B : between3 nm mbs lssol kinds pre uni bi cc r m0 (qData s) (cc, m, s)).
  { split; [split; [eauto|split; [reflexivity|eauto 10]]|]. exists [], []. split; [constructor|reflexivity]. }
  destruct (layout_after _ _ _ _ _ _ _ _ H W Hc) as (deps & LY & _).
  assert (SZ : sizesOf mbs (qData s)) by (split; [eauto|exact WF]).
  pose proof (body_steps nm mbs lssol kinds pre uni bi num ce cb cg mode sv ops0 cc0 o0 cc r tl tu tdl tdu dt sj m0 (qData s) W NZ C HN PW MO RG' WF R0 UN _ _ B X) as B1.
  destruct (body_step nm mbs lssol kinds pre uni bi num ce cb cg mode sv ops0 cc0 o0 cc r tl tu tdl tdu dt sj m0 (qData s) W NZ C HN PW MO RG' WF R0 UN _ _ _ _ _ B1 Y) as (_ & K1 & K2 & mb & M & K3).
  cbn [fst snd] in *. split; [exact K1|]. split.
  - intros q b lam cones p cone n mu f E1 E2 E3 E4 E5 E6. exact (lambdas_nonneg mbs (qData s) x q b lam n mu p cone f cones SZ K2 E1 E2 E3 E4 E5 E6).
  - destruct (alphaDBegin (qData s) r) as [b| |] eqn:EB.
    2,3: rewrite (proj1 (layout_begin_lemma _ _ _ _ _ LY)) in EB by (apply nth_error_Some; congruence); discriminate EB.
    exists mb, b. split; [exact M|]. split; [reflexivity|]. intros j Hj. destruct (K3 j Hj) as (T1 & T2). split; [|exact T2].
    rewrite T1. unfold invTorque, invTorque_. rewrite M, EB. ring.
Qed.
