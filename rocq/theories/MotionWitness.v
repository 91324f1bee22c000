(** Concrete motion constraints used by the examples and the refutations. *)
From Verif Require Export MotionFacts ContactFacts.
Open Scope string_scope.
Open Scope list_scope.
Open Scope R_scope.
Local Arguments sumn : simpl never.

(** The hand of robot 0 pushes the box of robot 1 along z; and the foot of robot 0 pushes its own hand. *)
Definition gBi : list bilateral := [mkBi wHand [mkV3 1 0 0] [mkV3 0 0 0] [mkCone [mkV3 0 0 1]] [mkCone [mkV3 0 0 (-1)]] pt_id pt_id].
Definition gSelf : list bilateral := [mkBi (mkCId 0 0 "foot" "hand" 0) [v0] [v0] [mkCone [mkV3 0 0 1]] [mkCone [mkV3 0 0 (-1)]] pt_id pt_id].
Definition gDataOf (bi : list bilateral) : solverData := match nrVarsData wMbs [] bi with Ok (d, _) => d | _ => initData end.
Definition gData : solverData := gDataOf gBi.
Definition gDataSelf : solverData := gDataOf gSelf.
(** Unit inertia, unit bias, every joint moves its bodies along z. *)
Definition gDyn : dyn := mkDyn (fun _ i j => if Nat.eqb i j then 1 else 0) (fun _ _ => 1) (fun _ _ _ => mkSp v0 (mkV3 0 0 1))
  (fun _ => [[0]; [3]]) (fun _ => [[0]; [1]]).
Definition gTL : list (list ext) := [[Fin 0]; [Fin 0]].
Definition gTU : list (list ext) := [[Fin 1]; [Fin 1]].
Definition gDL : list (list ext) := [[Fin (-1)]].
Definition gDU : list (list ext) := [[Fin 1]].
Definition gMC : mconstr := mkMC 0 (-1) 2 (-1) (mzero 2 2) (vfill 2 0) (mzero 0 0) (mzero 6 2) (mzero 0 0) [] (vfill 2 0) (mzero 0 0) (vfill 2 (Fin 0)) (vfill 2 (Fin 0)) 0.
Definition gVec (ps : list (list ext)) (e : ext) : vec ext := mkVec 2 (fun i => nth i (concat ps) e).
Definition gMoS (sj : list springJoint) : motion_ :=
  mkMo gMC (gVec gTL NInf) (gVec gTU PInf) (vmap (fun e => emulr e 1) (gVec gDL NInf)) (vmap (fun e => emulr e 1) (gVec gDU PInf))
       (match springLoop (mkMB [mkJoint "h0" 1 1 None; mkJoint "h1" 1 1 None]) sj with Ok l => l | _ => [] end).
Definition gMo : motion_ := gMoS [].
Definition gSpring : list springJoint := [("h1", 2, 1, 0)].
Lemma gNew : newMotion wMbs 0 gTL gTU gDL gDU 1 [] = Ok gMo.
Proof. unfold newMotion. replace (Rltb 0 1) with true by (symmetry; unfold Rltb; destruct (Rlt_dec 0 1); [auto|lra]). reflexivity. Qed.
Lemma gNewS : newMotion wMbs 0 gTL gTU [] [] 1 gSpring = Ok (mkMo gMC (gVec gTL NInf) (gVec gTU PInf) (vmap (fun e => emulr e 1) (gVec [] NInf)) (vmap (fun e => emulr e 1) (gVec [] PInf)) [mkSpring 1 1 2 1 0]).
Proof.
  unfold newMotion. replace (Rltb 0 1) with true by (symmetry; unfold Rltb; destruct (Rlt_dec 0 1); [auto|lra]).
  reflexivity.
Qed.
Lemma gPaths : pathsWf wNames wMbs.
Proof. exact wPaths. Qed.
Lemma gSizes : sizesOf wMbs gData.
Proof. split; [exists [], gBi, []; reflexivity|]. repeat constructor. Qed.
Lemma gSizesSelf : sizesOf wMbs gDataSelf.
Proof. split; [exists [], gSelf, []; reflexivity|]. repeat constructor. Qed.
Lemma gNoSelf : noSelf 0 gData.
Proof. constructor; [|constructor]. simpl. intros (_ & H). discriminate. Qed.
Definition gRun (m : motion_) (ops : list moOp) : motion_ := match moRun wNames wMbs m ops with Ok m' => m' | _ => m end.
Definition gX (a b c l : R) (i : nat) : R := match i with 0%nat => a | 1%nat => b | 2%nat => c | _ => l end.
Definition gA (a b : R) : vec R := mkVec 3 (gX a b 0 0).
Definition gL (l : R) : vec R := mkVec 1 (fun _ => l).

Ltac tau := unfold invTorque, invTorque_, contactForces, contactForce, sideForce, forceOn, genForce, listsum, power, wsum, forces, comb, sumn, join; simpl; v3unf; unfold power, sumn; simpl.
Lemma gTau x j : (j < 2)%nat -> invTorque wNames wMbs gData gDyn 0 x j = x j + 1 - x 3%nat.
Proof. intros H. destruct j as [|[|j]]; [| |lia]; tau; ring. Qed.
Lemma gTauSelf x j : (j < 2)%nat -> invTorque wNames wMbs gDataSelf gDyn 0 x j = x j + 1 + (if Nat.eqb j 0 then 0 else x 3%nat).
Proof. intros H. destruct j as [|[|j]]; [| |lia]; tau; ring. Qed.
Lemma gTauLast x j : (j < 2)%nat -> invTorqueLast wNames wMbs gDataSelf gDyn 0 x j = x j + 1 + x 3%nat.
Proof. intros H. unfold invTorqueLast. destruct j as [|[|j]]; [| |lia]; tau; ring. Qed.

(** Refutation: the row of joint 0 forgets the force on the foot. *)
Lemma self_refuted_lemma : exists nm mbs r tl tu m0 d dy m mb x j,
  newMotion mbs r tl tu [] [] 1 [] = Ok m0 /\ pathsWf nm mbs /\ sizesOf mbs d /\
  moRun nm mbs m0 [MONr d; MOUpdate dy] = Ok m /\ nth_error mbs r = Some mb /\
  holdsGen (sdNrVars d) x (mcGen (moC m)) /\ (j < nrDof mb)%nat /\
  ~ between (nth j (concat tl) NInf) (invTorque nm mbs d dy r x j) (nth j (concat tu) PInf).
Proof.
  pose (m0 := mkMo gMC (gVec gTL NInf) (gVec gTU PInf) (vmap (fun e => emulr e 1) (gVec [] NInf)) (vmap (fun e => emulr e 1) (gVec [] PInf)) []).
  assert (N : newMotion wMbs 0 gTL gTU [] [] 1 [] = Ok m0).
  { unfold newMotion, m0. replace (Rltb 0 1) with true by (symmetry; unfold Rltb; destruct (Rlt_dec 0 1); [auto|lra]).
    reflexivity. }
  pose (m := gRun m0 [MONr gDataSelf; MOUpdate gDyn]).
  assert (R : moRun wNames wMbs m0 ([MONr gDataSelf] ++ [MOUpdate gDyn]) = Ok m) by reflexivity.
  exists wNames, wMbs, 0%nat, gTL, gTU, m0, gDataSelf, gDyn, m, (mkMB [mkJoint "h0" 1 1 None; mkJoint "h1" 1 1 None]), (gX (-2) (-2) 0 1), 0%nat.
  split; [exact N|]. split; [exact gPaths|]. split; [exact gSizesSelf|]. split; [exact R|]. split; [reflexivity|]. split; [|split; [cbv; lia|]].
  - destruct (limitsLast_lemma wNames wMbs 0 gTL gTU [] [] 1 [] m0 [MONr gDataSelf] gDyn m
                (mkMH (Some gDataSelf) None 0 (fun _ => 0)) gDataSelf N gPaths) as (mb & M & X).
    + constructor; [exact gSizesSelf|constructor].
    + reflexivity.
    + reflexivity.
    + exact R.
    + injection M as <-. apply X. intros j Hj. change (nrDof _) with 2%nat in Hj. rewrite gTauLast by auto. split; [|simpl; lia].
      unfold staticLimit, between. destruct j as [|[|j]]; [| |lia]; simpl; lra.
  - rewrite gTauSelf by lia. unfold between; simpl. lra.
Qed.

Lemma spring_lemma nm mbs r tl tu tdl tdu dt sj m0 ops dy m h d name k c o i mb x :
  newMotion mbs r tl tu tdl tdu dt sj = Ok m0 -> pathsWf nm mbs -> Forall (opData (fun d => sizesOf mbs d /\ noSelf r d)) ops ->
  mhRun (fun d dy => invTorque nm mbs d dy r) mh0 ops = Some h -> hData h = Some d ->
  moRun nm mbs m0 (ops ++ [MOUpdate dy]) = Ok m -> nth_error mbs r = Some mb ->
  In (name, k, c, o) sj -> NoDup (map (fun s : springJoint => fst (fst (fst s))) sj) ->
  Forall (fun s : springJoint => forall i, jointIndexByName mb (fst (fst (fst s))) = Ok i -> (0 < jointDof mb i)%nat) sj ->
  jointIndexByName mb name = Ok i -> (i < length (joints mb))%nat ->
  holdsGen (sdNrVars d) x (mcGen (moC m)) ->
  invTorque nm mbs d dy r x (jointPosInDof mb i) = - (k * nth 0 (nth i (dQ dy r) []) 0 + c * nth 0 (nth i (dAlpha dy r) []) 0 + o).
Proof.
  intros HN PW F HR HD MR M IN ND FD JI LI HX.
  destruct (limits_lemma nm mbs r tl tu tdl tdu dt sj m0 ops dy m h d HN PW F HR HD MR) as (mb' & M' & X).
  rewrite M in M'. injection M' as <-. rewrite X in HX.
  assert (J : (jointPosInDof mb i < nrDof mb)%nat).
  { pose proof (proj1 (Forall_forall _ _) FD _ IN i JI) as P. pose proof (posInDof_le mb i LI). cbn [fst] in P. lia. }
  destruct (HX _ J) as (B & _). unfold staticLimit in B. rewrite (springTorque_in mb (dQ dy r) (dAlpha dy r) sj name k c o i _ IN ND FD JI LI eq_refl) in B.
  unfold between in B. simpl in B. lra.
Qed.

Lemma contactMatrix_refuted_lemma : exists nm mbs tl tu m0 d dy m M,
  newMotion mbs 0 tl tu [] [] 1 [] = Ok m0 /\ pathsWf nm mbs /\ sizesOf mbs d /\ noSelf 0 d /\
  moRun nm mbs m0 [MONr d; MOUpdate dy] = Ok m /\ contactMatrix (moC m) = Ok M /\ mcols M <> sdTotalLambda d.
Proof.
  pose (m0 := mkMo gMC (gVec gTL NInf) (gVec gTU PInf) (vmap (fun e => emulr e 1) (gVec [] NInf)) (vmap (fun e => emulr e 1) (gVec [] PInf)) []).
  assert (N : newMotion wMbs 0 gTL gTU [] [] 1 [] = Ok m0).
  { unfold newMotion, m0. replace (Rltb 0 1) with true by (symmetry; unfold Rltb; destruct (Rlt_dec 0 1); [auto|lra]). reflexivity. }
  pose (m := gRun m0 [MONr gData; MOUpdate gDyn]).
  exists wNames, wMbs, gTL, gTU, m0, gData, gDyn, m. eexists.
  split; [exact N|]. split; [exact gPaths|]. split; [exact gSizes|]. split; [exact gNoSelf|]. split; [reflexivity|]. split; [reflexivity|].
  cbv. lia.
Qed.

(** The runs of the examples exist. *)
Lemma gRun3 a b l : exists m, moRun wNames wMbs gMo [MONr gData; MOUpdate gDyn; MOTorque (gA a b) (gL l)] = Ok m.
Proof.
  pose (m2 := gRun gMo [MONr gData; MOUpdate gDyn]). assert (R2 : moRun wNames wMbs gMo [MONr gData; MOUpdate gDyn] = Ok m2) by reflexivity.
  destruct (MotionLimits.defined_lemma wNames wMbs 0 gTL gTU gDL gDU 1 [] gMo [MONr gData; MOUpdate gDyn] m2 (mkMH (Some gData) (Some gDyn) 1 (fun _ => 0)) gNew gPaths)
    as (mb & _ & _ & _ & X); [constructor; [exact gSizes|repeat constructor]|reflexivity|exact R2|].
  destruct (X (gA a b) (gL l) gData eq_refl ltac:(discriminate) (le_n 3) eq_refl) as (m3 & E). exists m3.
  change [MONr gData; MOUpdate gDyn; MOTorque (gA a b) (gL l)] with ([MONr gData; MOUpdate gDyn] ++ [MOTorque (gA a b) (gL l)]).
  rewrite moRun_app, R2. cbn [bind moRun]. rewrite E. reflexivity.
Qed.
Lemma gRun4 a b l : exists m, moRun wNames wMbs gMo [MONr gData; MOUpdate gDyn; MOTorque (gA a b) (gL l); MOUpdate gDyn] = Ok m.
Proof.
  destruct (gRun3 a b l) as (m3 & R3).
  destruct (MotionLimits.defined_lemma wNames wMbs 0 gTL gTU gDL gDU 1 [] gMo [MONr gData; MOUpdate gDyn; MOTorque (gA a b) (gL l)] m3
     (mkMH (Some gData) (Some gDyn) 1 (invTorqueLast wNames wMbs gData gDyn 0 (join 3 (gA a b) (gL l)))) gNew gPaths)
    as (mb & _ & _ & X & _); [constructor; [exact gSizes|repeat constructor]|reflexivity|exact R3|].
  destruct (X gDyn ltac:(discriminate) ltac:(constructor)) as (m4 & E). exists m4.
  change [MONr gData; MOUpdate gDyn; MOTorque (gA a b) (gL l); MOUpdate gDyn] with ([MONr gData; MOUpdate gDyn; MOTorque (gA a b) (gL l)] ++ [MOUpdate gDyn]).
  rewrite moRun_app, R3. cbn [bind moRun]. rewrite E. reflexivity.
Qed.

Lemma accessor_run_lemma nm mbs r tl tu tdl tdu dt sj m0 ops a l m h d dy mb jt :
  newMotion mbs r tl tu tdl tdu dt sj = Ok m0 -> pathsWf nm mbs -> Forall (opData (fun d => sizesOf mbs d /\ noSelf r d)) ops ->
  mhRun (fun d dy => invTorque nm mbs d dy r) mh0 ops = Some h -> hData h = Some d -> hDyn h = Some dy ->
  moRun nm mbs m0 (ops ++ [MOTorque a l]) = Ok m ->
  nth_error mbs r = Some mb -> joints mb <> [] -> map (@length R) jt = map jdof (joints mb) ->
  exists jt', writeTorque mbs (moC m) jt = Ok jt' /\ map (@length R) jt' = map jdof (joints mb) /\ nth_error jt' 0 = nth_error jt 0 /\
    forall i e k, (0 < i)%nat -> nth_error jt' i = Some e -> (k < length e)%nat ->
      nth_error e k = Some (invTorque nm mbs d dy r (join (sdTotalAlphaD d) a l) (jointPosInDof mb i + k)%nat).
Proof.
  intros HN PW F HR HD HY MR M NE HJ.
  destruct (torque_lemma nm mbs r tl tu tdl tdu dt sj m0 ops a l m h d dy HN PW F HR HD HY MR) as (mb' & M' & L & X).
  rewrite M in M'. injection M' as <-.
  assert (B : mcRobot (moC m) = r).
  { rewrite hist_noSelf in HR by auto. destruct (newMotion_inv nm _ _ _ _ _ _ _ _ _ HN) as (mb' & M' & _ & _ & _ & I0).
    assert (HR' : mhRun (fun d dy => invTorqueLast nm mbs d dy r) mh0 (ops ++ [MOTorque a l]) = Some (mkMH (Some d) (Some dy) (hCount h) (invTorqueLast nm mbs d dy r (join (sdTotalAlphaD d) a l)))).
    { rewrite mhRun_app, HR. cbn [mhRun mhStep]. rewrite HD, HY. reflexivity. }
    assert (F' : Forall (opData (sizesOf mbs)) (ops ++ [MOTorque a l])).
    { apply Forall_app. split; [eapply opData_imp; [|exact F]; simpl; tauto|repeat constructor]. }
    pose proof (moRun_inv nm mbs r mb' tl tu tdl tdu dt sj PW _ _ _ _ _ F' I0 HR' MR) as I1.
    destruct (msBase _ _ _ _ _ _ _ _ _ _ (miS _ _ _ _ _ _ _ _ _ _ _ _ I1)) as (E & _). exact E. }
  destruct (accessor_lemma mbs (moC m) mb jt) as (jt' & W & L' & H0 & H); auto; [rewrite B; auto|].
  exists jt'. split; [auto|]. split; [auto|]. split; [auto|]. intros i e k Hi He Hk. rewrite (H i e k Hi He Hk). f_equal. apply X.
  assert (Q : nth_error (map (@length R) jt') i = Some (length e)) by (rewrite nth_error_map, He; reflexivity).
  rewrite L' in Q. assert (LI : (i < length (joints mb))%nat). { rewrite <- (map_length jdof). apply nth_error_Some. congruence. }
  pose proof (posInDof_le mb i LI) as P. rewrite nth_error_map in Q. unfold jointDof in P. destruct (nth_error (joints mb) i) as [jj|]; [|discriminate].
  simpl in Q. injection Q as Q. rewrite Q in P. lia.
Qed.
