(** Two tasks added in the two orders. *)
From Verif Require Export ShareWitness.
From Verif Require Import SetPointFacts SetPointLoop SetPointWitness.
Open Scope string_scope.
Open Scope list_scope.
Open Scope R_scope.
Local Arguments sumn : simpl never.

Definition odHeap (t t' : task) : heap :=
  mkHeap (fun i => match i with O => t | _ => t' end) (fun _ => mkEq 0 0 (mzero 0 0) (vfill 0 0)) (fun _ => mkIneq 0 0 (mzero 0 0) (vfill 0 PInf)) (fun _ => mkGen 0 0 (mzero 0 1) (vfill 0 NInf) (vfill 0 PInf)) (fun _ => noBound).
Definition odPost (b : bool) : list op := if b then [OpAddTask 0; OpAddTask 1] else [OpAddTask 1; OpAddTask 0].
Definition odSolver (b : bool) : qpSolver := match history true cmKinds ([] ++ OpNrVars [kMb] [] [] :: odPost b) with Ok s => s | _ => mkQP [] [] [] [] [] [] initData 0 0 0 (newBackend QLD) end.
Lemma odHistory b : history true cmKinds ([] ++ OpNrVars [kMb] [] [] :: odPost b) = Ok (odSolver b).
Proof. destruct b; reflexivity. Qed.
Lemma odKeep b : Forall (fun o => ~ resizesOrSwitches o) (odPost b).
Proof. destruct b; repeat constructor; cbn; tauto. Qed.
Lemma od_qc t t' w w' a a' : oneDim t w a -> oneDim t' w' a' -> 0 <= w -> 0 <= w' -> / 10000 <= w + w' ->
  exists Q C, fillQC [t; t'] 1 (mzero 1 1) (vfill 1 0) = Ok (Q, C) /\ diagPos Q = true /\ vlen (diagMin Q C) = 1%nat.
Proof.
  intros O O' Pw Pw' P. destruct (oneDim_entries t w a O) as (EQ & _), (oneDim_entries t' w' a' O') as (EQ' & _).
  destruct O as (B & R1 & C1 & L & _), O' as (B' & R1' & C1' & L' & _).
  assert (Wf : Forall (wfTask 1) [t; t']) by (constructor; [unfold wfTask; rewrite B, R1, C1, L; cbn; lia|constructor; [unfold wfTask; rewrite B', R1', C1', L'; cbn; lia|constructor]]).
  destruct (qc_defined_lemma _ _ Wf) as (Q & C & E). exists Q, C. split; [exact E|].
  assert (EN : mget Q 0 0 = w + w').
  { rewrite (entries_lemma _ _ _ _ 0 0 E) by lia. cbn [map sumR Nat.eqb]. unfold taskEntry. rewrite B, R1, C1, B', R1', C1'. cbn. rewrite EQ, EQ', Rplus_0_r, Rabs_right by lra.
    destruct (Rlt_dec _ _); lra. }
  destruct (objective_lemma _ _ _ _ E) as (Q1 & _). split; [|exact Q1].
  apply diagPos_spec. rewrite Q1. intros i Hi. assert (i = 0%nat) as -> by lia. rewrite EN. split; [lra|]. intros j Hj Hne. lia.
Qed.
Lemma od_solvedBy b t t' w w' a a' : oneDim t w a -> oneDim t' w' a' -> 0 <= w -> 0 <= w' -> / 10000 <= w + w' -> exists x, solvedBy [kMb] [] [] (odSolver b) (odHeap t t') x.
Proof.
  intros O O' Pw Pw' P.
  assert (HR : ready 1 [] (qBack (odSolver b))).
  { destruct (layout_after _ _ _ _ _ _ _ _ (odHistory b) cmMimic (odKeep b)) as (deps & LY & Hr & _).
    assert (QD : qData (odSolver b) = qData cmSolver) by (destruct b; reflexivity). rewrite QD in LY, Hr. change (sdNrVars (qData cmSolver)) with 1%nat in Hr. replace deps with (@nil dep) in Hr; [exact Hr|].
    change (nrVarsData [kMb] [] []) with (@Ok (solverData * list dep) (qData cmSolver, [])) in LY. injection LY as <-. reflexivity. }
  set (g := collect (odSolver b) (odHeap t t')). assert (EG : g = mkReg (if b then [t; t'] else [t'; t]) [] [] [] []) by (destruct b; reflexivity).
  assert (QC : exists Q C, fillQC (rgTasks g) 1 (mzero 1 1) (vfill 1 0) = Ok (Q, C) /\ diagPos Q = true /\ vlen (diagMin Q C) = 1%nat).
  { rewrite EG. destruct b; cbn [rgTasks]; [apply (od_qc t t' w w' a a')|apply (od_qc t' t w' w a' a)]; auto; lra. }
  destruct QC as (Q & C & E & Pd & L).
  assert (WT : wfTask 1 t /\ wfTask 1 t').
  { destruct O as (B & R1 & C1 & LC & _), O' as (B' & R1' & C1' & LC' & _). unfold wfTask. rewrite B, R1, C1, LC, B', R1', C1', LC'. cbn. lia. }
  assert (S : backendSolve trySolver (qBack (odSolver b)) g = Ok (true, diagMin Q C)).
  { apply (try_backend (qBack (odSolver b)) g 1 Q C HR).
    + destruct b; reflexivity.
    + rewrite EG. split; [destruct WT; destruct b; cbn [rgTasks]; constructor; auto|]. repeat split; constructor.
    + rewrite EG. unfold BackendProofs.fits. cbn [rgEq rgIneq rgGen map sumnat]. split; [apply Nat.le_0_l|]. split; apply Nat.le_0_l.
    + rewrite EG. constructor.
    + rewrite EG. intros k1 k2 b1 b2 i E1. destruct k1; discriminate E1.
    + exact E.
    + exact Pd.
    + rewrite EG. split; [split; [|split]|]; constructor. }
  assert (LD : vlen (diagMin Q C) = sdNrVars (qData (odSolver b))) by (rewrite L; destruct b; reflexivity).
  destruct (write_lemma true cmKinds [] [kMb] [] [] (odPost b) (odSolver b) trySolver (odHeap t t') true (diagMin Q C) unit [mkMbc [[0]] tt] (odHistory b) cmMimic (odKeep b) S LD) as (ms' & S1 & _); [repeat constructor|].
  exists (diagMin Q C), true, cmKinds, [], (odPost b), trySolver, [mkMbc [[0]] tt], ms'. split; [apply odHistory|]. split; [apply odKeep|]. split; [exact trySolver_contract|].
  split; [change (Forall wfBound (rgBound g)); rewrite EG; constructor|]. split; [change (disjointBounds (rgBound g)); rewrite EG; intros k1 k2 b1 b2 i E1; destruct k1; discriminate E1|exact S1].
Qed.
Lemma od_convex D t t' w w' a a' : oneDim t w a -> oneDim t' w' a' -> 0 <= w -> 0 <= w' -> / 10000 <= w + w' -> strictlyConvex D 1 (objective 1 [t; t']).
Proof.
  intros O O' Pw Pw' P x y _ _ (i & Hi & Ne). assert (i = 0%nat) as -> by lia.
  assert (U : unregularised 1 [t; t']).
  { intros i Hj. assert (i = 0%nat) as -> by lia. destruct (oneDim_entries t w a O) as (EQ & _), (oneDim_entries t' w' a' O') as (EQ' & _).
    destruct O as (B & R1 & C1 & L & _), O' as (B' & R1' & C1' & L' & _). unfold diagSum, taskDiag. cbn [map sumR]. rewrite B, R1, C1, B', R1', C1'. cbn. rewrite EQ, EQ', Rplus_0_r, Rabs_right by lra. exact P. }
  unfold objective. rewrite !(reg_none 1 [t; t']) by exact U. unfold tasksCost. cbn [map sumR].
  destruct O as (_ & _ & _ & _ & K), O' as (_ & _ & _ & _ & K').
  pose proof (K (fun i => (x i + y i) / 2) x) as A. pose proof (K (fun i => (x i + y i) / 2) y) as B. pose proof (K' (fun i => (x i + y i) / 2) x) as A'. pose proof (K' (fun i => (x i + y i) / 2) y) as B'. cbv beta in *.
  assert (Sq : 0 < (x 0%nat - y 0%nat) * (x 0%nat - y 0%nat)) by (apply Rlt_0_sqr; lra).
  assert (Q : 0 < (w + w') * ((x 0%nat - y 0%nat) * (x 0%nat - y 0%nat))) by (apply Rmult_lt_0_compat; lra). nra.
Qed.
(** Weights 1 and 3 pull the joint to 3 and -1: in both orders the same result. *)
Lemma order_used_lemma : exists t t' q q' x x', setPointOf t q /\ setPointOf t' q' /\
  solvedBy [kMb] [] [] (odSolver true) (odHeap t t') x /\ solvedBy [kMb] [] [] (odSolver false) (odHeap t t') x' /\
  rgTasks (collect (odSolver true) (odHeap t t')) = [t; t'] /\ rgTasks (collect (odSolver false) (odHeap t t')) = [t'; t] /\ vget x 0 = vget x' 0.
Proof.
  destruct (one_setpoint 1 5 1) as (t & SP & O & _); [lra|]. destruct (one_setpoint 3 3 2) as (t' & SP' & O' & _); [lra|].
  destruct (od_solvedBy true t t' _ _ _ _ O O') as (x & SB); try lra. destruct (od_solvedBy false t t' _ _ _ _ O O') as (x' & SB'); try lra.
  exists t, t'. do 2 eexists. exists x, x'. split; [exact SP|]. split; [exact SP'|]. split; [exact SB|]. split; [exact SB'|]. split; [reflexivity|]. split; [reflexivity|].
  apply (order_same [kMb] [] [] (odSolver true) (odSolver false) (odHeap t t') (odHeap t t') x x' cmMimic cmNonzero SB SB').
  - repeat split; try apply Permutation_refl. apply perm_swap.
  - apply (od_convex _ t t' 1 3 _ _ O O'); lra.
  - apply Nat.ltb_lt. reflexivity.
Qed.
(** A second task of weight zero. *)
Lemma zero_used_lemma : exists t t' x x', tkWeight t' = 0 /\ solvedBy [kMb] [] [] cmSolver (cmHeap t) x /\ solvedBy [kMb] [] [] (odSolver true) (odHeap t t') x' /\
  rgTasks (collect (odSolver true) (odHeap t t')) = [t; t'] /\ vget x 0 = 3 /\ vget x' 0 = 3.
Proof.
  destruct (one_setpoint 1 5 1) as (t & SP & O & _); [lra|]. destruct (one_setpoint 3 3 2) as (u & SP' & O' & _); [lra|].
  set (t' := rescaled 0 u). pose proof (rescaled_oneDim 0 u _ _ O') as OZ. fold t' in OZ.
  destruct (one_solvedBy t _ _ O ltac:(lra)) as (x & SB & V). destruct (od_solvedBy true t t' _ _ _ _ O OZ) as (x' & SB'); try lra.
  exists t, t', x, x'. assert (WZ : tkWeight t' = 0) by (unfold t', rescaled; cbn; ring). split; [exact WZ|]. split; [exact SB|]. split; [exact SB'|]. split; [reflexivity|].
  assert (VX : vget x 0 = 3) by (rewrite V; unfold small; destruct (Rlt_dec _ _); lra). split; [exact VX|]. rewrite <- VX. symmetry.
  destruct (zero_same [kMb] [] [] cmSolver (odSolver true) (cmHeap t) (odHeap t t') x x' [t'] cmMimic cmNonzero SB SB') as (_ & E).
  - repeat split; apply Permutation_refl.
  - apply Permutation_refl.
  - intros z [<-|[]]. exact WZ.
  - apply E; [apply (one_convex _ t 1 _ O); lra|apply Nat.ltb_lt; reflexivity].
Qed.
