(** A whole-body control cycle: the hand of a robot pushes a box. *)
From Verif Require Import BalanceFacts TrySolver SolverFacts LimitsWitness CycleWitness CycleWitness2.
Open Scope string_scope.
Open Scope list_scope.
Open Scope R_scope.
Local Arguments sumn : simpl never.

(** Constraint 0 is the contact constraint, 1 the positivity of the multipliers, 2 the motion constraint. *)
Definition baKinds (c : nat) : list ckind := match c with 0%nat => [KEq] | 1%nat => [KBound] | _ => [KGen] end.
Definition baHeap (t : nat -> R) (eq : equality) (bd : FillModel.bound) (ge : geninequality) : heap :=
  mkHeap (fun _ => pullAt 4 t) (fun _ => eq) (fun _ => mkIneq 0 0 (mzero 0 0) (vfill 0 PInf)) (fun _ => ge) (fun _ => bd).
Definition baPost : list op := [OpAddTask 0; OpAddTo 0; OpAddTo 1; OpAddTo 2; OpUpdateConstrSize (baHeap (fun _ => 0) (mkEq 6 6 (mzero 6 4) (vfill 6 0)) noBound twoRows)].
Definition baSolver : qpSolver := match history true baKinds ([] ++ OpNrVars wMbs [] gBi :: baPost) with Ok s => s | _ => mkQP [] [] [] [] [] [] initData 0 0 0 (newBackend QLD) end.
Lemma baHistory : history true baKinds ([] ++ OpNrVars wMbs [] gBi :: baPost) = Ok baSolver.
Proof. reflexivity. Qed.
Lemma baKeep : Forall (fun o => ~ resizesOrSwitches o) baPost.
Proof. repeat constructor; cbn; tauto. Qed.
Lemma baData : qData baSolver = gData.
Proof. reflexivity. Qed.
(** Every joint moves its bodies along z. *)
Definition baKin : kin := mkKin (fun _ _ => pt_id) (fun _ _ _ l _ => if Nat.eqb l 5 then 1 else 0) (fun _ _ _ _ => 0) (fun _ _ _ _ => 0).
Definition baC1 : contactConstr := match updateNrVars wNames wMbs gData newCC with Ok c => c | _ => newCC end.
Definition baC2 : contactConstr := match ccUpdate CAcc wMbs wSva baKin baC1 with Ok c => c | _ => newCC end.
Lemma baNr : updateNrVars wNames wMbs gData newCC = Ok baC1.
Proof. reflexivity. Qed.
Lemma baUp : ccUpdate CAcc wMbs wSva baKin baC1 = Ok baC2.
Proof. reflexivity. Qed.
Lemma baDims : eqNr (ccEquality baC2) = 6%nat /\ wfEq 4 (ccEquality baC2).
Proof. split; [reflexivity|]. unfold wfEq. repeat split; try reflexivity; apply Nat.leb_le; reflexivity. Qed.
Definition baCd : cdata := match ccCont baC2 with cd :: _ => cd | [] => mkCD [] (mzero 0 0) (revDof (mzero 0 0)) 0 0 0 0 pt_id pt_id wHand end.
Lemma baCont : ccCont baC2 = [baCd].
Proof. reflexivity. Qed.
Lemma baAcc x l : relAcc wNames wMbs gData baKin baCd x l = if Nat.eqb l 5 then x 0%nat + x 1%nat - x 2%nat else 0.
Proof.
  unfold relAcc. change (cdR1 baCd) with 0%nat. change (cdR2 baCd) with 1%nat. change (cdId baCd) with wHand. generalize (cdXcf baCd). intros X. generalize (pt_mul X (pt_inv (cdXbb baCd))). intros Y.
  unfold bodyAcc, jacDot. destruct (Nat.eqb l 5) eqn:E; cbn; rewrite E; unfold sumn; cbn; ring.
Qed.
Lemma baRigid : forall b, In b (sdAll gData) -> wfBilateral b /\ rigid (bXcf b) /\ rigid (bXbb b).
Proof. intros b [<-|[]]. split; [repeat split|]. split; apply rigid_id. Qed.
Definition baT : nat -> R := gX 1 1 2 2.
Lemma baContact x : (forall i, (i < 4)%nat -> x i = baT i) -> holdsEq 4 x (ccEquality baC2).
Proof.
  intros E. apply (proj2 (rows_lemma wNames wMbs [] gBi gData [] [] newCC [] baC1 [] baC1 [] CAcc wSva baKin baC2 x eq_refl wPaths (fun b H => proj2 (baRigid b H)) I eq_refl baNr (Forall_nil _) eq_refl baUp)).
  rewrite baCont. constructor; [|constructor]. intros r Hr. apply sumn_0. intros l Hl. unfold required. rewrite baAcc, !E by lia. cbn. destruct (Nat.eqb l 5); ring.
Qed.
Definition baBound : FillModel.bound := mkBound 3 (vfill 1 (Fin 0)) (vfill 1 PInf).
Definition baPl : positiveLambda := match plNrVars gData with Ok p => p | _ => mkPL 0 (vfill 0 (Fin 0)) (vfill 0 PInf) [] end.
Lemma baPlEq : plNrVars gData = Ok baPl /\ plBound baPl = Ok baBound.
Proof. split; reflexivity. Qed.

Lemma baSolves T (ms : list (mbconfig T)) t eq bd ge :
  (forall x, (forall i, (i < 4)%nat -> x i = t i) -> feasible 4 (collect baSolver (baHeap t eq bd ge)) x) ->
  wfReg 4 (collect baSolver (baHeap t eq bd ge)) -> BackendProofs.fits (qBack baSolver) (collect baSolver (baHeap t eq bd ge)) ->
  Forall wfBound (rgBound (collect baSolver (baHeap t eq bd ge))) -> disjointBounds (rgBound (collect baSolver (baHeap t eq bd ge))) ->
  Forall2 (@fitsRobot T) wMbs ms ->
  exists x ms', solve trySolver baSolver (baHeap t eq bd ge) ms = Ok (true, x, ms') /\ vlen x = 4%nat /\ (forall i, (i < 4)%nat -> vget x i = t i).
Proof.
  intros HF W F WB DB FR. destruct (pullAt_qc 4 t) as (Q & C & E & P & L & V).
  assert (HR : ready 4 [] (qBack baSolver)).
  { destruct (layout_after _ _ _ _ _ _ _ _ baHistory cyMimic baKeep) as (deps & LY & Hr & _). rewrite baData in LY, Hr.
    change (nrVarsData wMbs [] gBi) with (@Ok (solverData * list dep) (gData, [])) in LY. injection LY as <-. exact Hr. }
  pose proof (try_backend (qBack baSolver) (collect baSolver (baHeap t eq bd ge)) 4 Q C HR eq_refl W F WB DB E P (HF _ V)) as S.
  assert (VX : vlen (diagMin Q C) = sdNrVars (qData baSolver)) by (rewrite baData, L; reflexivity).
  destruct (write_lemma _ _ _ _ _ _ _ _ _ _ _ _ _ ms baHistory cyMimic baKeep (S : solveNoMbcUpdate trySolver baSolver (baHeap t eq bd ge) = _) VX FR) as (ms' & S1 & _).
  exists (diagMin Q C), ms'. auto.
Qed.
Definition baMo : motion_ := gRun gMo [MONr gData].
Lemma balance_used_lemma : exists x m2,
  moRun wNames wMbs gMo [MONr gData] = Ok baMo /\
  bodyCycle wMbs true baKinds trySolver 0 1 2 CAcc wSva baKin gDyn x (baC1, baMo, baSolver) (baC2, m2, baSolver) /\
  forall i, (i < 4)%nat -> vget x i = baT i.
Proof.
  assert (R : moRun wNames wMbs gMo [MONr gData] = Ok baMo) by reflexivity.
  pose (h := mkMH (Some gData) None 0 (fun _ => 0)).
  assert (OD : Forall (opData (fun d => sizesOf wMbs d /\ noSelf 0 d)) [MONr gData]) by (constructor; [exact (conj gSizes gNoSelf)|constructor]).
  assert (MH : mhRun (fun d dy => invTorque wNames wMbs d dy 0) mh0 [MONr gData] = Some h) by reflexivity.
  destruct (cyNext [MONr gData] baMo h OD R MH eq_refl) as (m1 & U & R1 & N1 & W1 & D1).
  assert (HG : forall x, (forall i, (i < 4)%nat -> x i = baT i) -> holdsGen 4 x (mcGen (moC m1))).
  { intros x E. destruct (limits_lemma wNames wMbs 0 gTL gTU gDL gDU 1 [] gMo [MONr gData] gDyn m1 h gData gNew gPaths OD MH eq_refl R1) as (mb & M & Z).
    injection M as <-. apply Z. intros j Hj. change (nrDof _) with 2%nat in Hj. rewrite gTau by lia. rewrite !E by lia. split; [|cbn; lia].
    unfold staticLimit, between, baT. destruct j as [|[|j]]; [| |lia]; simpl; lra. }
  set (ge := mcGen (moC m1)) in *. set (g := collect baSolver (baHeap baT (ccEquality baC2) baBound ge)).
  assert (EG : g = mkReg [pullAt 4 baT] [ccEquality baC2] [] [ge] [baBound]) by reflexivity.
  assert (WB : Forall wfBound (rgBound g)) by (rewrite EG; constructor; [reflexivity|constructor]).
  assert (DB : disjointBounds (rgBound g)).
  { rewrite EG. intros k1 k2 b1 b2 i E1 E2 _ _. destruct k1 as [|[|k1]], k2 as [|[|k2]]; cbn [rgBound nth_error] in E1, E2; first [discriminate E1 | discriminate E2 | destruct k1; discriminate E1 | destruct k2; discriminate E2 | reflexivity]. }
  destruct (baSolves unit [mkMbc [[0]; [0]] tt; mkMbc [[0]] tt] baT (ccEquality baC2) baBound ge) as ([n f] & ms' & S & L & V).
  - intros x E. change (feasible 4 g x). rewrite EG. split; [split; [|split]|].
    + constructor; [exact (baContact x E)|constructor].
    + constructor.
    + constructor; [exact (HG x E)|constructor].
    + constructor; [|constructor]. intros i. split; intros Hi; cbn in Hi; assert (i = 0)%nat as -> by lia; cbn; [rewrite (E 3%nat) by lia; cbn; lra|exact I].
  - change (wfReg 4 g). rewrite EG. split; [constructor; [split; [|split]; cbn; lia|constructor]|]. split; [constructor; [exact (proj2 baDims)|constructor]|]. split; [constructor|].
    split; [constructor; [exact W1|constructor]|]. constructor; [split; cbn; lia|constructor].
  - change (BackendProofs.fits (qBack baSolver) g). rewrite EG. unfold BackendProofs.fits. cbn [rgEq rgIneq rgGen map sumnat]. rewrite N1. rewrite (proj1 baDims).
    split; [apply Nat.leb_le; reflexivity|]. split; apply Nat.leb_le; reflexivity.
  - exact WB.
  - exact DB.
  - repeat constructor.
  - cbn in L. subst n. destruct (D1 f) as (m2 & T). exists (mkVec 4 f), m2. split; [exact R|]. split; [|exact V].
    exists [], [], [], baC1, (baHeap baT (ccEquality baC2) baBound ge), baPl, m1, [mkMbc [[0]; [0]] tt; mkMbc [[0]] tt], ms', (fst (cyFrom f)), (snd (cyFrom f)).
    split; [reflexivity|]. split; [constructor|]. do 6 (split; [cbn; tauto|]). split; [constructor|]. split; [reflexivity|]. split; [exact baUp|]. split; [reflexivity|].
    split; [exact (proj1 baPlEq)|]. split; [exact (proj2 baPlEq)|]. split; [exact U|]. split; [reflexivity|].
    split; [exact WB|]. split; [exact DB|]. split; [exact S|]. split; [reflexivity|]. split; [reflexivity|exact T].
Qed.
