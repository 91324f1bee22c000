From Verif Require Import TorqueCycle TrySolver SolverFacts LimitsWitness CycleWitness.
Open Scope string_scope.
Open Scope list_scope.
Open Scope R_scope.
Local Arguments sumn : simpl never.
Lemma update_dims nm mbs r mb tl tu tdl tdu dt sj h m dy m' d :
  pathsWf nm mbs -> MotionLimits.moInv nm mbs r mb tl tu tdl tdu dt sj h m -> hData h = Some d -> moUpdate mbs dy m = Ok m' ->
  giNr (mcGen (moC m')) = nrDof mb /\ wfGen (sdNrVars d) (mcGen (moC m')).
Proof.
  intros PW [S I C D Y] HD H. destruct (D d HD) as (SZ & b & IV).
  destruct (MotionProofs.computeMatrix_ok nm mbs r mb d b dy (moC m) SZ PW IV) as (c & E & IV' & K1 & K2 & K3 & K4 & K5 & K6 & _).
  unfold moUpdate in H. rewrite E in H. cbn [bind] in H.
  apply bind_Ok in H as ([L' U'] & HS & H). apply bind_Ok in H as (u & G & H). injection H as <-.
  destruct (MotionProofs.ivA _ _ _ _ _ _ _ IV') as (A1 & A2).
  unfold mcGen, with_limits, wfGen. cbn [moC mcA mcAL mcAU giNr giA giL giU vlen]. rewrite A1, A2, K5, K6. cbn [vlen]. lia.
Qed.
(** The next cycle from a state reached by any calls. *)
Lemma cyNext ops m h : Forall (opData (fun d => sizesOf wMbs d /\ noSelf 0 d)) ops -> moRun wNames wMbs gMo ops = Ok m ->
  mhRun (fun d dy => invTorque wNames wMbs d dy 0) mh0 ops = Some h -> hData h = Some gData ->
  exists m1, moUpdate wMbs gDyn m = Ok m1 /\ moRun wNames wMbs gMo (ops ++ [MOUpdate gDyn]) = Ok m1 /\ giNr (mcGen (moC m1)) = 2%nat /\ wfGen 4 (mcGen (moC m1)) /\
    forall f, exists m', moTorque (fst (cyFrom f)) (snd (cyFrom f)) m1 = Ok m'.
Proof.
  intros OD R H D.
  assert (OD' : Forall (opData (sizesOf wMbs)) ops) by (eapply Forall_impl; [|exact OD]; intros []; cbn; tauto).
  rewrite hist_noSelf in H by exact OD.
  destruct (MotionLimits.defined_lemma wNames wMbs 0 gTL gTU gDL gDU 1 [] gMo ops m h gNew gPaths OD' H R) as (mb & _ & _ & X & _).
  destruct (X gDyn ltac:(congruence) ltac:(constructor)) as (m1 & U). cbn [moStep] in U. clear X mb.
  destruct (MotionLimits.newMotion_inv wNames _ _ _ _ _ _ _ _ _ gNew) as (mb & MB & _ & _ & _ & I0).
  pose proof (MotionLimits.moRun_inv wNames wMbs 0 mb gTL gTU gDL gDU 1 [] gPaths ops mh0 gMo h m OD' I0 H R) as I2.
  destruct (update_dims wNames wMbs 0 mb gTL gTU gDL gDU 1 [] h m gDyn m1 gData gPaths I2 D U) as (N2 & W2).
  assert (R3 : moRun wNames wMbs gMo (ops ++ [MOUpdate gDyn]) = Ok m1) by (rewrite moRun_app, R; cbn [bind moRun moStep]; rewrite U; reflexivity).
  exists m1. split; [exact U|]. split; [exact R3|]. split; [rewrite N2; injection MB as <-; reflexivity|]. split; [exact W2|].
  intros f.
  destruct (MotionLimits.defined_lemma wNames wMbs 0 gTL gTU gDL gDU 1 [] gMo (ops ++ [MOUpdate gDyn]) m1 (mkMH (Some gData) (Some gDyn) (S (hCount h)) (hCur h)) gNew gPaths) as (mb' & _ & _ & _ & X).
  { apply Forall_app. split; [exact OD'|repeat constructor]. }
  { rewrite mhRun_app, H. cbn [mhRun mhStep]. rewrite D. reflexivity. }
  { exact R3. }
  destruct (X (fst (cyFrom f)) (snd (cyFrom f)) gData eq_refl ltac:(discriminate) ltac:(apply Nat.leb_le; reflexivity) eq_refl) as (m3 & D3). exists m3. exact D3.
Qed.
Lemma cyRate f ops m1 h x : (forall i, (i < 4)%nat -> f i = gX 1 1 0 2 i) -> Forall (opData (fun d => sizesOf wMbs d /\ noSelf 0 d)) ops ->
  mhRun (fun d dy => invTorque wNames wMbs d dy 0) mh0 ops = Some h -> hData h = Some gData ->
  hCur h = invTorque wNames wMbs gData gDyn 0 (join 3 (fst (cyFrom f)) (snd (cyFrom f))) ->
  moRun wNames wMbs gMo (ops ++ [MOUpdate gDyn]) = Ok m1 -> (forall i, (i < 4)%nat -> x i = gX 2 1 0 2 i) -> holdsGen 4 x (mcGen (moC m1)).
Proof.
  intros F OD MH HD HC R3 E.
  destruct (limits_lemma wNames wMbs 0 gTL gTU gDL gDU 1 [] gMo ops gDyn m1 h gData gNew gPaths OD MH HD R3) as (mb & M & Z).
  injection M as <-. apply Z. intros j Hj. change (nrDof _) with 2%nat in Hj. rewrite HC. rewrite !gTau by lia. rewrite !E by lia.
  change (join 3 (fst (cyFrom f)) (snd (cyFrom f)) 3) with (f 3%nat). rewrite (F 3%nat) by lia.
  split; [unfold staticLimit, between; destruct j as [|[|j]]; [| |lia]; simpl; lra|]. intros _. unfold rateLimit, between.
  destruct j as [|[|j]]; [| |lia].
  - change (join 3 (fst (cyFrom f)) (snd (cyFrom f)) 0) with (f 0%nat). rewrite (F 0%nat) by lia. simpl; repeat destruct Rlt_dec; simpl; lra.
  - change (join 3 (fst (cyFrom f)) (snd (cyFrom f)) 1) with (f 1%nat). rewrite (F 1%nat) by lia. simpl; repeat destruct Rlt_dec; simpl; lra.
Qed.
Lemma cyStored m m1 f m2 a b : moRun wNames wMbs gMo [MONr gData] = Ok m -> torqueCycles wNames wMbs true cyKinds trySolver 1 (m, cySolver 1) (m1, cySolver 1) ->
  torqueCycle wNames wMbs true cyKinds trySolver 1 gDyn (mkVec 4 f) (m1, cySolver 1) (m2, cySolver 1) -> (forall i, (i < 4)%nat -> f i = gX a b 0 2 i) ->
  storedTorque m2 0 = a + 1 - 2.
Proof.
  intros R X Y F.
  destruct (torque_kept_lemma wNames wMbs true cyKinds [] [] gBi (cyPost 1) (cySolver 1) trySolver 1 0 gTL gTU gDL gDU 1 [] gMo [MONr gData] (mkMH (Some gData) None 0 (fun _ => 0)) m
    gDyn (mkVec 4 f) m1 (cySolver 1) m2 (cySolver 1) (cyHistory 1) cyMimic cyNonzero (cyKeep 1) trySolver_contract gNew gPaths
    ltac:(constructor; [exact (conj gSizes gNoSelf)|constructor]) eq_refl eq_refl R X Y) as (mb & M & K). injection M as <-.
  destruct (K 0%nat) as (-> & _); [cbv; lia|]. change (qData (cySolver 1)) with gData. rewrite gTau by lia. cbn [vget]. rewrite !F by lia. reflexivity.
Qed.
Lemma torqueUsed m : moRun wNames wMbs gMo [MONr gData] = Ok m -> exists x1 x2 m2 m3,
  torqueCycle wNames wMbs true cyKinds trySolver 1 gDyn x1 (m, cySolver 1) (m2, cySolver 1) /\
  torqueCycle wNames wMbs true cyKinds trySolver 1 gDyn x2 (m2, cySolver 1) (m3, cySolver 1) /\
  storedTorque m2 0 = 0 /\ storedTorque m3 0 = 1.
Proof.
  intros R. pose (h := mkMH (Some gData) None 0 (fun _ => 0)).
  assert (OD : Forall (opData (fun d => sizesOf wMbs d /\ noSelf 0 d)) [MONr gData]) by (constructor; [exact (conj gSizes gNoSelf)|constructor]).
  assert (MH : mhRun (fun d dy => invTorque wNames wMbs d dy 0) mh0 [MONr gData] = Some h) by reflexivity.
  destruct (cyNext [MONr gData] m h OD R MH eq_refl) as (m1 & U & R1 & N1 & W1 & D1).
  destruct (cyTorque m m1 (gX 1 1 0 2) U N1 W1) as (f & F & T1).
  { intros x E. destruct (limits_lemma wNames wMbs 0 gTL gTU gDL gDU 1 [] gMo [MONr gData] gDyn m1 h gData gNew gPaths OD MH eq_refl R1) as (mb & M & Z).
    injection M as <-. apply Z. intros j Hj. change (nrDof _) with 2%nat in Hj. rewrite gTau by lia. rewrite !E by lia. split; [|cbn; lia].
    unfold staticLimit, between. destruct j as [|[|j]]; [| |lia]; simpl; lra. }
  destruct (D1 f) as (m2 & D2). pose proof (T1 m2 D2) as C1. clear D1 T1.
  set (o2 := MOTorque (fst (cyFrom f)) (snd (cyFrom f))).
  assert (R2 : moRun wNames wMbs gMo (([MONr gData] ++ [MOUpdate gDyn]) ++ [o2]) = Ok m2).
  { rewrite moRun_app, R1. unfold o2. cbn [bind moRun moStep]. rewrite D2. reflexivity. }
  pose (h2 := mkMH (Some gData) (Some gDyn) 1 (invTorque wNames wMbs gData gDyn 0 (join 3 (fst (cyFrom f)) (snd (cyFrom f))))).
  assert (OD2 : Forall (opData (fun d => sizesOf wMbs d /\ noSelf 0 d)) (([MONr gData] ++ [MOUpdate gDyn]) ++ [o2])) by (constructor; [exact (conj gSizes gNoSelf)|repeat constructor]).
  assert (MH2 : mhRun (fun d dy => invTorque wNames wMbs d dy 0) mh0 (([MONr gData] ++ [MOUpdate gDyn]) ++ [o2]) = Some h2) by reflexivity.
  destruct (cyNext _ m2 h2 OD2 R2 MH2 eq_refl) as (m1' & U2 & R3 & N2 & W2 & D3).
  destruct (cyTorque m2 m1' (gX 2 1 0 2) U2 N2 W2) as (f2 & F2 & T2).
  { intros x E. exact (cyRate f _ m1' h2 x F OD2 MH2 eq_refl eq_refl R3 E). }
  destruct (D3 f2) as (m3 & D4). pose proof (T2 m3 D4) as C2. clear D3 T2.
  exists (mkVec 4 f), (mkVec 4 f2), m2, m3. split; [exact C1|]. split; [exact C2|].
  rewrite (cyStored m m f m2 1 1 R (torqueCycles0 _ _ _ _ _ _ _) C1 F).
  rewrite (cyStored m m2 f2 m3 2 1 R (torqueCyclesS _ _ _ _ _ _ _ _ _ _ _ (torqueCycles0 _ _ _ _ _ _ _) C1) C2 F2). split; ring.
Qed.
Lemma torque_used_lemma : exists x1 x2 m2 m3,
  newMotion wMbs 0 gTL gTU gDL gDU 1 [] = Ok gMo /\ moRun wNames wMbs gMo [MONr gData] = Ok (gRun gMo [MONr gData]) /\
  Forall (opData (fun d => sizesOf wMbs d /\ noSelf 0 d)) [MONr gData] /\
  mhRun (fun d dy => invTorque wNames wMbs d dy 0) mh0 [MONr gData] = Some (mkMH (Some gData) None 0 (fun _ => 0)) /\ qData (cySolver 1) = gData /\
  torqueCycle wNames wMbs true cyKinds trySolver 1 gDyn x1 (gRun gMo [MONr gData], cySolver 1) (m2, cySolver 1) /\
  torqueCycle wNames wMbs true cyKinds trySolver 1 gDyn x2 (m2, cySolver 1) (m3, cySolver 1) /\
  storedTorque m2 0 = 0 /\ storedTorque m3 0 = 1.
Proof.
  assert (OD : Forall (opData (fun d => sizesOf wMbs d /\ noSelf 0 d)) [MONr gData]) by (constructor; [exact (conj gSizes gNoSelf)|constructor]).
  assert (R : moRun wNames wMbs gMo [MONr gData] = Ok (gRun gMo [MONr gData])) by reflexivity.
  destruct (torqueUsed _ R) as (x1 & x2 & m2 & m3 & C1 & C2 & T1 & T2). exists x1, x2, m2, m3.
  split; [exact gNew|]. split; [exact R|]. split; [exact OD|]. split; [reflexivity|]. split; [reflexivity|]. auto.
Qed.
