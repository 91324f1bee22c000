(** A solver called at every instant keeps two screws together. *)
From Verif Require Import SolvedLoop ContactLoopWitness TrySolver SolverFacts LimitsWitness CycleWitness KinWitness HistoryProofs.
Open Scope string_scope.
Open Scope list_scope.
Open Scope R_scope.
Local Arguments sumn : simpl never.

Definition slKinds (c : nat) : list ckind := [KEq].
Definition slHeap (t : nat -> R) (eq : equality) : heap :=
  mkHeap (fun _ => pullAt 2 t) (fun _ => eq) (fun _ => mkIneq 0 0 (mzero 0 0) (vfill 0 PInf)) (fun _ => twoRows) (fun _ => noBound).
Definition slPost : list op := [OpAddTask 0; OpAddTo 0; OpUpdateConstrSize (slHeap (fun _ => 0) (mkEq 6 6 (mzero 6 2) (vfill 6 0)))].
Definition slSolver : qpSolver := match history true slKinds ([] ++ OpNrVars hzMbs [] hzBi :: slPost) with Ok s => s | _ => mkQP [] [] [] [] [] [] initData 0 0 0 (newBackend QLD) end.
Lemma slHistory : history true slKinds ([] ++ OpNrVars hzMbs [] hzBi :: slPost) = Ok slSolver.
Proof. reflexivity. Qed.
Lemma slKeep : Forall (fun o => ~ resizesOrSwitches o) slPost.
Proof. repeat constructor; cbn; tauto. Qed.
Lemma slMimic : Forall wfMimic hzMbs.
Proof.
  repeat (constructor; [split; [repeat constructor; cbn; intuition discriminate|intros j nm m Hj Hm; cbn in Hj; exfalso; intuition (subst; discriminate)]|]). constructor.
Qed.
Lemma slNonzero : nonzeroMimics hzMbs.
Proof.
  intros mb il ir m Hmb (jl & jr & _ & B & D). cbn in Hmb. destruct Hmb as [<-|[<-|[]]]; cbn in B; destruct ir as [|[|[|ir]]]; cbn in B; try discriminate; inversion B; subst jr; discriminate.
Qed.
Lemma slDims m k c3 : ccUpdate m hzMbs hzSva k hzC1 = Ok c3 -> eqNr (ccEquality c3) = 6%nat /\ wfEq 2 (ccEquality c3).
Proof.
  intros H. assert (E : c3 = match ccUpdate m hzMbs hzSva k hzC1 with Ok c => c | _ => hzC1 end) by (rewrite H; reflexivity). subst c3. clear H.
  destruct m; (split; [reflexivity|]); unfold wfEq; repeat split; apply Nat.leb_le; reflexivity.
Qed.
Lemma slSolves (ms : list (mbconfig unit)) t eq : (forall x, (forall i, (i < 2)%nat -> x i = t i) -> holdsEq 2 x eq) -> eqNr eq = 6%nat -> wfEq 2 eq -> Forall2 (@fitsRobot unit) hzMbs ms ->
  exists x ms', solve trySolver slSolver (slHeap t eq) ms = Ok (true, x, ms') /\ (forall i, (i < 2)%nat -> vget x i = t i).
Proof.
  intros HE N W FR. destruct (pullAt_qc 2 t) as (Q & C & E & P & L & V).
  assert (HR : ready 2 [] (qBack slSolver)).
  { destruct (layout_after _ _ _ _ _ _ _ _ slHistory slMimic slKeep) as (deps & LY & Hr & _). change (qData slSolver) with hzData in LY, Hr.
    change (nrVarsData hzMbs [] hzBi) with (@Ok (solverData * list dep) (hzData, [])) in LY. injection LY as <-. exact Hr. }
  set (g := collect slSolver (slHeap t eq)). assert (EG : g = mkReg [pullAt 2 t] [eq] [] [] []) by reflexivity.
  pose proof (try_backend (qBack slSolver) g 2 Q C HR eq_refl) as S.
  destruct (write_lemma true slKinds [] hzMbs [] hzBi slPost slSolver trySolver (slHeap t eq) true (diagMin Q C) unit ms slHistory slMimic slKeep) as (ms' & S1 & _).
  - apply S.
    + rewrite EG. split; [constructor; [split; [|split]; cbn; lia|constructor]|]. split; [constructor; [exact W|constructor]|]. repeat split; constructor.
    + rewrite EG. unfold BackendProofs.fits. cbn [rgEq rgIneq rgGen map sumnat]. rewrite N. split; [apply Nat.leb_le; reflexivity|]. split; apply Nat.leb_le; reflexivity.
    + rewrite EG. constructor.
    + rewrite EG. intros k1 k2 b1 b2 i E1. destruct k1; discriminate E1.
    + exact E.
    + exact P.
    + rewrite EG. split; [split; [|split]|]; try constructor; [|constructor]. apply HE. exact V.
  - exact L.
  - exact FR.
  - exists (diagMin Q C), ms'. auto.
Qed.
Definition slK : R -> nat -> nat -> bodyKin := hzK 1 1 (hzQ 0 0 3) (hzQ1 0 0 3).
Definition slX : R -> nat -> R := hzX (hzQ2 0 0 3).
Lemma slLoop : solvedLoop true slKinds trySolver 0 [] hzMbs [] hzBi (CPos (2 / 9)) hzSva hzC1 slK slX.
Proof.
  intros s Hs. assert (Z : Rabs 0 <= 1) by (rewrite Rabs_R0; lra).
  destruct (hz_rows 1 1 _ _ _ (hzQ_rate 0 0 3) (hzQ1_rate 0 0 3) (CPos (2 / 9))) with (s := s) as (c3 & U & HE).
  { cbn; lra. } { intros u dt Hu _; apply (hz_under 0 u Z Hu). } { intros u Hu. unfold hzQ, hzQ1, hzQ2; cbn [required]. field. } { exact Hs. }
  change (sdNrVars hzData) with 2%nat in HE. destruct (slDims _ _ _ U) as (N & W).
  destruct (slSolves [mkMbc [[0]] tt; mkMbc [[0]] tt] (slX s) (ccEquality c3)) as (x & ms' & S & V).
  - intros x E. apply (holdsEq_ext 2 x (slX s)); [exact E|exact HE].
  - exact N.
  - exact W.
  - repeat constructor.
  - exists slPost, slSolver, (slHeap (slX s) (ccEquality c3)), [], hzC1, [], c3, [mkMbc [[0]] tt; mkMbc [[0]] tt], ms', x.
    split; [exact slHistory|]. split; [exact slKeep|]. split; [left; reflexivity|]. split; [left; reflexivity|]. split; [constructor|]. split; [reflexivity|].
    split; [exact U|]. split; [reflexivity|]. split; [constructor|]. split; [intros k1 k2 b1 b2 i E1; destruct k1; discriminate E1|]. split; [exact S|].
    intros i Hi. symmetry. apply V. exact Hi.
Qed.
