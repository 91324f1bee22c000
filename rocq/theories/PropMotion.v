(** Properties of PositiveLambda and of the motion constraints: C34-C38, C71, C72. *)
From Verif Require Import MotionWitness.
Open Scope string_scope.
Open Scope list_scope.
Open Scope R_scope.

(** C34: the bounds of PositiveLambda hold at x iff every contact multiplier is non negative; each line is
    described by the bodies of the contact owning the multiplier. *)
Theorem C34_positive : forall mbs d, sizesOf mbs d ->
  exists p b, plNrVars d = Ok p /\ plBound p = Ok b /\
    (forall x, holdsBound x b <-> forall i, (sdTotalAlphaD d <= i < sdNrVars d)%nat -> 0 <= x i) /\
    (forall k c s line, nth_error (sdAll d) k = Some c -> lambdaBeginAt d k = Ok s ->
       (s <= sdTotalAlphaD d + line < s + biLambdaCount c)%nat -> plDesc p line = Some (r1Body (bId c), r2Body (bId c))).
Proof. exact positive_lemma. Qed.
Print Assumptions C34_positive.
(** One multiplier, variable 3: accelerations are free. *)
Example C34_used : exists p b, plNrVars gData = Ok p /\ plBound p = Ok b /\
  holdsBound (gX (-5) (-6) (-7) 2) b /\ ~ holdsBound (gX 0 0 0 (-1)) b /\ plDesc p 0 = Some ("hand", "box").
Proof.
  destruct (C34_positive wMbs gData gSizes) as (p & b & P & B & X & D). exists p, b.
  split; [exact P|]. split; [exact B|]. split; [|split].
  - apply X. intros i Hi. change (3 <= i < 4)%nat in Hi. assert (i = 3%nat) as -> by lia. simpl. lra.
  - intros H. pose proof (proj1 (X _) H) as H'; clear H; rename H' into H. specialize (H 3%nat ltac:(cbv; lia)). simpl in H. lra.
  - apply (D 0%nat (nth 0 gBi (mkBi wHand [] [] [] [] pt_id pt_id)) 3%nat 0%nat); [reflexivity|reflexivity|cbv; lia].
Qed.

(** C35: after any calls ending with an update, the rows of the motion constraint hold at x iff the torque
    given by inverse dynamics (H alphaD + C minus the contact forces of x) lies within the torque limits
    (spring torque where a spring is attached) and, from the second update on, within rate * dt of the last
    computed torque. *)
Theorem C35_limits : forall nm mbs r tl tu tdl tdu dt sj m0 ops dy m h d,
  newMotion mbs r tl tu tdl tdu dt sj = Ok m0 -> pathsWf nm mbs -> Forall (opData (fun d => sizesOf mbs d /\ noSelf r d)) ops ->
  mhRun (fun d dy => invTorque nm mbs d dy r) mh0 ops = Some h -> hData h = Some d ->
  moRun nm mbs m0 (ops ++ [MOUpdate dy]) = Ok m ->
  exists mb, nth_error mbs r = Some mb /\
  forall x, holdsGen (sdNrVars d) x (mcGen (moC m)) <->
    forall j, (j < nrDof mb)%nat ->
      between (staticLimit mb sj (dQ dy r) (dAlpha dy r) tl NInf j) (invTorque nm mbs d dy r x j)
              (staticLimit mb sj (dQ dy r) (dAlpha dy r) tu PInf j) /\
      ((0 < hCount h)%nat -> between (rateLimit tdl NInf dt (hCur h j) j) (invTorque nm mbs d dy r x j) (rateLimit tdu PInf dt (hCur h j) j)).
Proof. exact limits_lemma. Qed.
Print Assumptions C35_limits.
(** Torque of joint j is alphaD_j + 1 - lambda, limits [0,1]; the first update has no rate limit. *)
Example C35_used : let m := gRun gMo [MONr gData; MOUpdate gDyn] in
  moRun wNames wMbs gMo [MONr gData; MOUpdate gDyn] = Ok m /\
  holdsGen (sdNrVars gData) (gX 1 2 0 2) (mcGen (moC m)) /\ ~ holdsGen (sdNrVars gData) (gX 1 2 0 3) (mcGen (moC m)).
Proof.
  cbv zeta. split; [reflexivity|].
  destruct (C35_limits wNames wMbs 0%nat gTL gTU gDL gDU 1 [] gMo [MONr gData] gDyn (gRun gMo [MONr gData; MOUpdate gDyn])
    (mkMH (Some gData) None 0 (fun _ => 0)) gData gNew gPaths ltac:(constructor; [exact (conj gSizes gNoSelf)|repeat constructor]) eq_refl eq_refl eq_refl) as (mb & M & X).
  injection M as <-. split.
  - apply X. intros j Hj. change (nrDof _) with 2%nat in Hj. rewrite gTau by auto. split; [|simpl; lia].
    unfold staticLimit, between. destruct j as [|[|j]]; [| |lia]; simpl; lra.
  - intros H. pose proof (proj1 (X _) H 0%nat ltac:(cbv; lia)) as H'; clear H; rename H' into H. destruct H as (H & _). rewrite gTau in H by lia. unfold staticLimit, between in H; simpl in H. lra.
Qed.

(** C35: computeTorque stores that same torque at the point it is given. *)
Theorem C35_torque : forall nm mbs r tl tu tdl tdu dt sj m0 ops a l m h d dy,
  newMotion mbs r tl tu tdl tdu dt sj = Ok m0 -> pathsWf nm mbs -> Forall (opData (fun d => sizesOf mbs d /\ noSelf r d)) ops ->
  mhRun (fun d dy => invTorque nm mbs d dy r) mh0 ops = Some h -> hData h = Some d -> hDyn h = Some dy ->
  moRun nm mbs m0 (ops ++ [MOTorque a l]) = Ok m ->
  exists mb, nth_error mbs r = Some mb /\ vlen (mcCur (moC m)) = nrDof mb /\
  forall j, (j < nrDof mb)%nat -> vget (mcCur (moC m)) j = invTorque nm mbs d dy r (join (sdTotalAlphaD d) a l) j.
Proof. exact torque_lemma. Qed.
Print Assumptions C35_torque.
Example C35_torque_used : exists m, moRun wNames wMbs gMo [MONr gData; MOUpdate gDyn; MOTorque (gA 1 2) (gL 2)] = Ok m /\
  vlen (mcCur (moC m)) = 2%nat /\ vget (mcCur (moC m)) 0 = 0 /\ vget (mcCur (moC m)) 1 = 1.
Proof.
  destruct (gRun3 1 2 2) as (m & R). exists m. split; [exact R|].
  destruct (C35_torque wNames wMbs 0%nat gTL gTU gDL gDU 1 [] gMo [MONr gData; MOUpdate gDyn] (gA 1 2) (gL 2) m
    (mkMH (Some gData) (Some gDyn) 1 (fun _ => 0)) gData gDyn gNew gPaths ltac:(constructor; [exact (conj gSizes gNoSelf)|repeat constructor]) eq_refl eq_refl eq_refl R) as (mb & M & L & X).
  injection M as <-. split; [exact L|]. rewrite !X by (cbv; lia). rewrite !gTau by lia. unfold join. simpl. split; ring.
Qed.

(** C35: none of the calls is undefined, when the bodies in contact have paths, the sizes were given, an
    update precedes computeTorque and the joints with springs have a position and a velocity. *)
Theorem C35_defined : forall nm mbs r tl tu tdl tdu dt sj m0 ops m h,
  newMotion mbs r tl tu tdl tdu dt sj = Ok m0 -> pathsWf nm mbs -> Forall (opData (sizesOf mbs)) ops ->
  mhRun (fun d dy => invTorqueLast nm mbs d dy r) mh0 ops = Some h -> moRun nm mbs m0 ops = Ok m ->
  exists mb, nth_error mbs r = Some mb /\
  (forall d, sizesOf mbs d -> pathsExist nm r d -> exists m', moStep nm mbs m (MONr d) = Ok m') /\
  (forall dy, hData h <> None -> springsRead mb sj (dQ dy r) (dAlpha dy r) -> exists m', moStep nm mbs m (MOUpdate dy) = Ok m') /\
  (forall a l d, hData h = Some d -> hDyn h <> None -> (sdTotalAlphaD d <= vlen a)%nat -> vlen l = sdTotalLambda d ->
     exists m', moStep nm mbs m (MOTorque a l) = Ok m').
Proof. exact MotionLimits.defined_lemma. Qed.
Print Assumptions C35_defined.
Example C35_defined_used : forall dy, exists m', moStep wNames wMbs (gRun gMo [MONr gData]) (MOUpdate dy) = Ok m'.
Proof.
  intros dy. destruct (C35_defined wNames wMbs 0%nat gTL gTU gDL gDU 1 [] gMo [MONr gData] (gRun gMo [MONr gData])
    (mkMH (Some gData) None 0 (fun _ => 0)) gNew gPaths ltac:(constructor; [exact gSizes|constructor]) eq_refl eq_refl) as (mb & M & _ & X & _).
  apply X; [discriminate|constructor].
Qed.

(** C36: from the second update on, a feasible torque differs from the last computed torque by at most
    rate * dt, joint by joint. *)
Theorem C36_rate : forall nm mbs r tl tu tdl tdu dt sj m0 ops a l dy m h d dy0 x,
  newMotion mbs r tl tu tdl tdu dt sj = Ok m0 -> pathsWf nm mbs -> Forall (opData (fun d => sizesOf mbs d /\ noSelf r d)) ops ->
  mhRun (fun d dy => invTorque nm mbs d dy r) mh0 ops = Some h -> hData h = Some d -> hDyn h = Some dy0 ->
  moRun nm mbs m0 (ops ++ [MOTorque a l; MOUpdate dy]) = Ok m ->
  holdsGen (sdNrVars d) x (mcGen (moC m)) ->
  exists mb, nth_error mbs r = Some mb /\ forall j, (j < nrDof mb)%nat ->
    between (emulr (nth j (concat tdl) NInf) dt)
            (invTorque nm mbs d dy r x j - invTorque nm mbs d dy0 r (join (sdTotalAlphaD d) a l) j)
            (emulr (nth j (concat tdu) PInf) dt).
Proof. exact rate_lemma. Qed.
Print Assumptions C36_rate.
(** Joint 0 has rate limits [-1,1]; its last torque is -1, so 1/2 is within the static limits but refused. *)
Example C36_used : exists m, moRun wNames wMbs gMo [MONr gData; MOUpdate gDyn; MOTorque (gA 0 2) (gL 2); MOUpdate gDyn] = Ok m /\
  holdsGen (sdNrVars gData) (gX 1 2 0 2) (mcGen (moC m)) /\ ~ holdsGen (sdNrVars gData) (gX (3 / 2) 2 0 2) (mcGen (moC m)).
Proof.
  destruct (gRun4 0 2 2) as (m & R). exists m. split; [exact R|]. split.
  - destruct (C35_limits wNames wMbs 0%nat gTL gTU gDL gDU 1 [] gMo [MONr gData; MOUpdate gDyn; MOTorque (gA 0 2) (gL 2)] gDyn m
      (mkMH (Some gData) (Some gDyn) 1 (invTorque wNames wMbs gData gDyn 0 (join 3 (gA 0 2) (gL 2)))) gData gNew gPaths ltac:(constructor; [exact (conj gSizes gNoSelf)|repeat constructor]) eq_refl eq_refl R) as (mb & M & X).
    injection M as <-. apply X. intros j Hj. change (nrDof _) with 2%nat in Hj. cbn [hCur]. rewrite !gTau by auto. split.
    + unfold staticLimit, between. destruct j as [|[|j]]; [| |lia]; simpl; lra.
    + intros _. unfold rateLimit, between, join. destruct j as [|[|j]]; [| |lia]; simpl; repeat destruct Rlt_dec; simpl; lra.
  - intros H. destruct (C36_rate wNames wMbs 0%nat gTL gTU gDL gDU 1 [] gMo [MONr gData; MOUpdate gDyn] (gA 0 2) (gL 2) gDyn m
      (mkMH (Some gData) (Some gDyn) 1 (fun _ => 0)) gData gDyn _ gNew gPaths ltac:(constructor; [exact (conj gSizes gNoSelf)|repeat constructor]) eq_refl eq_refl eq_refl R H) as (mb & M & X).
    injection M as <-. specialize (X 0%nat ltac:(cbv; lia)). rewrite !gTau in X by lia. unfold between, join in X. simpl in X. lra.
Qed.

(** C37: with a contact of the robot with itself, the rows do not bound its torque: the forces of one side
    of the contact are lost. *)
Theorem C37_self_contact_refuted : exists nm mbs r tl tu m0 d dy m mb x j,
  newMotion mbs r tl tu [] [] 1 [] = Ok m0 /\ pathsWf nm mbs /\ sizesOf mbs d /\
  moRun nm mbs m0 [MONr d; MOUpdate dy] = Ok m /\ nth_error mbs r = Some mb /\
  holdsGen (sdNrVars d) x (mcGen (moC m)) /\ (j < nrDof mb)%nat /\
  ~ between (nth j (concat tl) NInf) (invTorque nm mbs d dy r x j) (nth j (concat tu) PInf).
Proof. exact self_refuted_lemma. Qed.
Print Assumptions C37_self_contact_refuted.
(** C37, what holds of every set of contacts: the rows bound the torque computed with the second side only
    of the contacts of the robot with itself. *)
Theorem C37_exact : forall nm mbs r tl tu tdl tdu dt sj m0 ops dy m h d,
  newMotion mbs r tl tu tdl tdu dt sj = Ok m0 -> pathsWf nm mbs -> Forall (opData (sizesOf mbs)) ops ->
  mhRun (fun d dy => invTorqueLast nm mbs d dy r) mh0 ops = Some h -> hData h = Some d ->
  moRun nm mbs m0 (ops ++ [MOUpdate dy]) = Ok m ->
  exists mb, nth_error mbs r = Some mb /\
  forall x, holdsGen (sdNrVars d) x (mcGen (moC m)) <->
    forall j, (j < nrDof mb)%nat ->
      between (staticLimit mb sj (dQ dy r) (dAlpha dy r) tl NInf j) (invTorqueLast nm mbs d dy r x j)
              (staticLimit mb sj (dQ dy r) (dAlpha dy r) tu PInf j) /\
      ((0 < hCount h)%nat -> between (rateLimit tdl NInf dt (hCur h j) j) (invTorqueLast nm mbs d dy r x j) (rateLimit tdu PInf dt (hCur h j) j)).
Proof. exact limitsLast_lemma. Qed.
Print Assumptions C37_exact.
Example C37_used : let m := gRun gMo [MONr gDataSelf; MOUpdate gDyn] in
  holdsGen (sdNrVars gDataSelf) (gX (-2) (-2) 0 1) (mcGen (moC m)) /\ ~ holdsGen (sdNrVars gDataSelf) (gX 0 (-2) 0 1) (mcGen (moC m)).
Proof.
  cbv zeta.
  destruct (C37_exact wNames wMbs 0%nat gTL gTU gDL gDU 1 [] gMo [MONr gDataSelf] gDyn (gRun gMo [MONr gDataSelf; MOUpdate gDyn])
    (mkMH (Some gDataSelf) None 0 (fun _ => 0)) gDataSelf gNew gPaths ltac:(constructor; [exact gSizesSelf|constructor]) eq_refl eq_refl eq_refl) as (mb & M & X).
  injection M as <-. split.
  - apply X. intros j Hj. change (nrDof _) with 2%nat in Hj. rewrite gTauLast by auto. split; [|simpl; lia].
    unfold staticLimit, between. destruct j as [|[|j]]; [| |lia]; simpl; lra.
  - intros H. pose proof (proj1 (X _) H 0%nat ltac:(cbv; lia)) as H'; clear H; rename H' into H. destruct H as (H & _). rewrite gTauLast in H by lia. unfold staticLimit, between in H; simpl in H. lra.
Qed.

(** C38: at a feasible point a joint with a spring has exactly the spring torque -(K q + C alpha + O). *)
Theorem C38_spring : forall nm mbs r tl tu tdl tdu dt sj m0 ops dy m h d name k c o i mb x,
  newMotion mbs r tl tu tdl tdu dt sj = Ok m0 -> pathsWf nm mbs -> Forall (opData (fun d => sizesOf mbs d /\ noSelf r d)) ops ->
  mhRun (fun d dy => invTorque nm mbs d dy r) mh0 ops = Some h -> hData h = Some d ->
  moRun nm mbs m0 (ops ++ [MOUpdate dy]) = Ok m -> nth_error mbs r = Some mb ->
  In (name, k, c, o) sj -> NoDup (map (fun s : springJoint => fst (fst (fst s))) sj) ->
  Forall (fun s : springJoint => forall i, jointIndexByName mb (fst (fst (fst s))) = Ok i -> (0 < jointDof mb i)%nat) sj ->
  jointIndexByName mb name = Ok i -> (i < length (joints mb))%nat ->
  holdsGen (sdNrVars d) x (mcGen (moC m)) ->
  invTorque nm mbs d dy r x (jointPosInDof mb i) = - (k * nth 0 (nth i (dQ dy r) []) 0 + c * nth 0 (nth i (dAlpha dy r) []) 0 + o).
Proof. exact spring_lemma. Qed.
Print Assumptions C38_spring.
(** Spring of stiffness 2 and damping 1 on joint h1, at position 3 and velocity 1: torque -7, outside [0,1]. *)
Definition exSpring : motion_ := mkMo gMC (gVec gTL NInf) (gVec gTU PInf) (vmap (fun e => emulr e 1) (gVec [] NInf)) (vmap (fun e => emulr e 1) (gVec [] PInf)) [mkSpring 1 1 2 1 0].
Example C38_spring_used : let m := gRun exSpring [MONr gData; MOUpdate gDyn] in
  moRun wNames wMbs exSpring [MONr gData; MOUpdate gDyn] = Ok m /\ holdsGen (sdNrVars gData) (gX 1 (-6) 0 2) (mcGen (moC m)) /\
  forall x, holdsGen (sdNrVars gData) x (mcGen (moC m)) -> invTorque wNames wMbs gData gDyn 0 x 1 = -7.
Proof.
  cbv zeta. split; [reflexivity|]. split.
  - destruct (C35_limits wNames wMbs 0%nat gTL gTU [] [] 1 gSpring exSpring [MONr gData] gDyn (gRun exSpring [MONr gData; MOUpdate gDyn])
      (mkMH (Some gData) None 0 (fun _ => 0)) gData gNewS gPaths ltac:(constructor; [exact (conj gSizes gNoSelf)|repeat constructor]) eq_refl eq_refl eq_refl) as (mb & M & X).
    injection M as <-. apply X. intros j Hj. change (nrDof _) with 2%nat in Hj. rewrite gTau by auto. split; [|simpl; lia].
    unfold staticLimit, between. destruct j as [|[|j]]; [| |lia]; simpl; lra.
  - intros x H. assert (E := C38_spring wNames wMbs 0%nat gTL gTU [] [] 1 gSpring exSpring [MONr gData] gDyn (gRun exSpring [MONr gData; MOUpdate gDyn])
      (mkMH (Some gData) None 0 (fun _ => 0)) gData "h1" 2 1 0 1%nat (mkMB [mkJoint "h0" 1 1 None; mkJoint "h1" 1 1 None]) x gNewS gPaths
      ltac:(constructor; [exact (conj gSizes gNoSelf)|constructor]) eq_refl eq_refl eq_refl eq_refl (or_introl eq_refl)
      ltac:(constructor; [simpl; tauto|constructor]) ltac:(constructor; [intros i Hi; injection Hi as <-; cbv; lia|constructor]) eq_refl ltac:(cbv; lia) H).
    change (jointPosInDof _ 1) with 1%nat in E. rewrite E. simpl. ring.
Qed.

(** C38: the polynomial constraint holds at x iff the torque of each joint with one degree of freedom lies
    between the values of its two polynomials at its position, the other joints having no torque. *)
Theorem C38_poly : forall nm mbs r pl pu m0 ops dy m h d,
  newPoly mbs r pl pu = Ok m0 -> pathsWf nm mbs -> Forall (opData (fun d => sizesOf mbs d /\ noSelf r d)) ops ->
  mhRun (fun d dy => invTorque nm mbs d dy r) mh0 ops = Some h -> hData h = Some d ->
  mpRun nm mbs m0 (ops ++ [MOUpdate dy]) = Ok m ->
  exists mb, nth_error mbs r = Some mb /\
  forall x, holdsGen (sdNrVars d) x (mcGen (mpC m)) <-> polyRow mb pl pu (dQ dy r) (invTorque nm mbs d dy r x).
Proof. exact poly_lemma. Qed.
Print Assumptions C38_poly.
(** Limits [-1, 1 + q^2] for both joints, at positions 0 and 3. *)
Definition exPl : list (list (list R)) := [[[-1]]; [[-1]]].
Definition exPu : list (list (list R)) := [[[1; 0; 1]]; [[1; 0; 1]]].
Definition exPoly : motionPoly := match newPoly wMbs 0 exPl exPu with Ok m => m | _ => mkMP gMC [] end.
Definition exPolyRun (ops : list moOp) : motionPoly := match mpRun wNames wMbs exPoly ops with Ok m => m | _ => exPoly end.
Example C38_poly_used : let m := exPolyRun [MONr gData; MOUpdate gDyn] in
  mpRun wNames wMbs exPoly [MONr gData; MOUpdate gDyn] = Ok m /\ holdsGen (sdNrVars gData) (gX 1 10 0 1) (mcGen (mpC m)) /\
  ~ holdsGen (sdNrVars gData) (gX 10 1 0 1) (mcGen (mpC m)).
Proof.
  cbv zeta. split; [reflexivity|].
  destruct (C38_poly wNames wMbs 0%nat exPl exPu exPoly [MONr gData] gDyn (exPolyRun [MONr gData; MOUpdate gDyn])
      (mkMH (Some gData) None 0 (fun _ => 0)) gData eq_refl gPaths ltac:(constructor; [exact (conj gSizes gNoSelf)|repeat constructor]) eq_refl eq_refl eq_refl) as (mb & M & X).
  injection M as <-. split.
  - apply X. intros i jt k Hi Hk. destruct i as [|[|i]]; [| |destruct i; discriminate]; injection Hi as <-; simpl in Hk; assert (k = 0%nat) as -> by lia;
      cbv zeta; cbn [jdof Nat.eqb]; rewrite gTau by (cbv; lia); unfold polyAt, sumn; simpl; lra.
  - intros H. pose proof (proj1 (X _) H) as H'; clear H; rename H' into H. specialize (H 0%nat _ 0%nat eq_refl ltac:(simpl; lia)). cbv zeta in H. cbn [jdof Nat.eqb] in H. rewrite gTau in H by (cbv; lia).
    unfold polyAt, sumn in H. simpl in H. lra.
Qed.

(** C71: torque(mbs, mbcs) writes the torque of inverse dynamics at the point given to computeTorque into the
    joint torques of every joint but the first, joint by joint, and changes nothing else. *)
Theorem C71_torque_accessor : forall nm mbs r tl tu tdl tdu dt sj m0 ops a l m h d dy mb jt,
  newMotion mbs r tl tu tdl tdu dt sj = Ok m0 -> pathsWf nm mbs -> Forall (opData (fun d => sizesOf mbs d /\ noSelf r d)) ops ->
  mhRun (fun d dy => invTorque nm mbs d dy r) mh0 ops = Some h -> hData h = Some d -> hDyn h = Some dy ->
  moRun nm mbs m0 (ops ++ [MOTorque a l]) = Ok m ->
  nth_error mbs r = Some mb -> joints mb <> [] -> map (@length R) jt = map jdof (joints mb) ->
  exists jt', writeTorque mbs (moC m) jt = Ok jt' /\ map (@length R) jt' = map jdof (joints mb) /\ nth_error jt' 0 = nth_error jt 0 /\
    forall i e k, (0 < i)%nat -> nth_error jt' i = Some e -> (k < length e)%nat ->
      nth_error e k = Some (invTorque nm mbs d dy r (join (sdTotalAlphaD d) a l) (jointPosInDof mb i + k)%nat).
Proof. exact accessor_run_lemma. Qed.
Print Assumptions C71_torque_accessor.
Example C71_used : exists m jt', moRun wNames wMbs gMo [MONr gData; MOUpdate gDyn; MOTorque (gA 1 2) (gL 2)] = Ok m /\
  writeTorque wMbs (moC m) [[8]; [9]] = Ok jt' /\ nth_error jt' 0 = Some [8] /\ forall e, nth_error jt' 1 = Some e -> nth_error e 0 = Some 1.
Proof.
  destruct (gRun3 1 2 2) as (m & R). exists m.
  destruct (C71_torque_accessor wNames wMbs 0%nat gTL gTU gDL gDU 1 [] gMo [MONr gData; MOUpdate gDyn] (gA 1 2) (gL 2) m
    (mkMH (Some gData) (Some gDyn) 1 (fun _ => 0)) gData gDyn (mkMB [mkJoint "h0" 1 1 None; mkJoint "h1" 1 1 None]) [[8]; [9]]
    gNew gPaths ltac:(constructor; [exact (conj gSizes gNoSelf)|repeat constructor]) eq_refl eq_refl eq_refl R eq_refl ltac:(discriminate) eq_refl) as (jt' & W & L & H0 & H).
  exists jt'. split; [exact R|]. split; [exact W|]. split; [exact H0|]. intros e He.
  assert (length e = 1%nat) as Le. { assert (nth_error (map (@length Rdefinitions.R) jt') 1 = Some (length e)) as Q by (rewrite nth_error_map, He; reflexivity). rewrite L in Q. injection Q as <-. reflexivity. }
  rewrite (H 1%nat e 0%nat ltac:(lia) He ltac:(lia)). f_equal. rewrite gTau by (cbv; lia). unfold join; simpl. ring.
Qed.

(** C72: with a single robot, contactMatrix() is the matrix of minus the generalised contact forces in terms
    of the contact multipliers. *)
Theorem C72_contact_matrix : forall nm mb tl tu tdl tdu dt sj m0 ops dy m h d,
  newMotion [mb] 0 tl tu tdl tdu dt sj = Ok m0 -> pathsWf nm [mb] -> Forall (opData (fun d => sizesOf [mb] d /\ noSelf 0 d)) ops ->
  mhRun (fun d dy => invTorque nm [mb] d dy 0%nat) mh0 ops = Some h -> hData h = Some d ->
  moRun nm [mb] m0 (ops ++ [MOUpdate dy]) = Ok m ->
  exists M, contactMatrix (moC m) = Ok M /\ mrows M = nrDof mb /\ mcols M = sdTotalLambda d /\
  forall x j, (j < nrDof mb)%nat -> sumn (mcols M) (fun q => mget M j q * x (sdTotalAlphaD d + q)%nat)
    = - contactForces (heldBy 0) nm dy mb 0 (sdAll d) (sdTotalAlphaD d) x j.
Proof. exact contactMatrix_lemma. Qed.
Print Assumptions C72_contact_matrix.
(** C72: with two robots it does not have one column per multiplier: accelerations of the other robot are
    taken with it. *)
Theorem C72_contact_matrix_refuted : exists nm mbs tl tu m0 d dy m M,
  newMotion mbs 0 tl tu [] [] 1 [] = Ok m0 /\ pathsWf nm mbs /\ sizesOf mbs d /\ noSelf 0 d /\
  moRun nm mbs m0 [MONr d; MOUpdate dy] = Ok m /\ contactMatrix (moC m) = Ok M /\ mcols M <> sdTotalLambda d.
Proof. exact contactMatrix_refuted_lemma. Qed.
Print Assumptions C72_contact_matrix_refuted.
(** One robot alone, its hand pushed along z by something that is not a robot of the list. *)
Definition exOne : list multibody := [mkMB [mkJoint "h0" 1 1 None; mkJoint "h1" 1 1 None]].
Definition exOneData : solverData := match nrVarsData exOne [] gBi with Ok (d, _) => d | _ => initData end.
Definition exOneRun (ops : list moOp) : motion_ := match moRun wNames exOne gMo ops with Ok m => m | _ => gMo end.
Example C72_used : exists M, contactMatrix (moC (exOneRun [MONr exOneData; MOUpdate gDyn])) = Ok M /\ mcols M = 1%nat /\
  mget M 0 0 * 5 = - 5.
Proof.
  destruct (C72_contact_matrix wNames (mkMB [mkJoint "h0" 1 1 None; mkJoint "h1" 1 1 None]) gTL gTU gDL gDU 1 [] gMo [MONr exOneData] gDyn
    (exOneRun [MONr exOneData; MOUpdate gDyn]) (mkMH (Some exOneData) None 0 (fun _ => 0)) exOneData) as (M & E & _ & C & X).
  - unfold newMotion. replace (Rltb 0 1) with true by (symmetry; unfold Rltb; destruct (Rlt_dec 0 1); [auto|lra]). reflexivity.
  - intros r mb body p H Hp. destruct r as [|r]; [|destruct r; discriminate]. exact (gPaths 0%nat mb body p H Hp).
  - constructor; [|constructor]. split; [split; [exists [], gBi, []; reflexivity|repeat constructor]|]. constructor; [|constructor]. simpl. intros (_ & H). discriminate.
  - reflexivity.
  - reflexivity.
  - reflexivity.
  - exists M. split; [exact E|]. split; [exact C|]. specialize (X (fun _ => 5) 0%nat ltac:(cbv; lia)). change (sdTotalLambda exOneData) with 1%nat in C. rewrite C in X.
    unfold sumn in X. simpl in X. rewrite Rplus_0_l in X. rewrite X.
    unfold contactForces, contactForce, sideForce, forceOn, genForce, listsum, power, wsum, forces, comb, sumn; simpl; v3unf; unfold power, sumn; simpl. ring.
Qed.
