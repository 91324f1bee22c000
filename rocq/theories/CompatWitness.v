(** A slider and a set-point task over a PositionTask, with the solver in the loop; weights too small for the regularisation; two joints
    that share one task. *)
From Verif Require Export CompatFacts TrySolver CycleWitness KinWitness HistoryProofs.
From Verif Require Import SetPointFacts SetPointLoop SetPointWitness.
Open Scope string_scope.
Open Scope list_scope.
Open Scope R_scope.
Local Arguments sumn : simpl never.

(** One joint, one task that costs w q (x - a)^2 / 2. *)
Definition cmHeap (t : task) : heap :=
  mkHeap (fun _ => t) (fun _ => mkEq 0 0 (mzero 0 0) (vfill 0 0)) (fun _ => mkIneq 0 0 (mzero 0 0) (vfill 0 PInf)) (fun _ => mkGen 0 0 (mzero 0 1) (vfill 0 NInf) (vfill 0 PInf)) (fun _ => noBound).
Definition cmKinds (c : nat) : list ckind := [].
Definition cmSolver : qpSolver := match history true cmKinds ([] ++ OpNrVars [kMb] [] [] :: [OpAddTask 0]) with Ok s => s | _ => mkQP [] [] [] [] [] [] initData 0 0 0 (newBackend QLD) end.
Lemma cmHistory : history true cmKinds ([] ++ OpNrVars [kMb] [] [] :: [OpAddTask 0]) = Ok cmSolver.
Proof. reflexivity. Qed.
Lemma cmKeep : Forall (fun o => ~ resizesOrSwitches o) [OpAddTask 0].
Proof. repeat constructor; cbn; tauto. Qed.
Lemma cmMimic : Forall wfMimic [kMb].
Proof.
  repeat (constructor; [split; [repeat constructor; cbn; intuition discriminate|intros j nm m Hj Hm; cbn in Hj; exfalso; intuition (subst; discriminate)]|]). constructor.
Qed.
Lemma cmNonzero : nonzeroMimics [kMb].
Proof.
  intros mb il ir m Hmb (jl & jr & _ & B & D). cbn in Hmb. destruct Hmb as [<-|[]]; cbn in B; destruct ir as [|[|ir]]; cbn in B; try discriminate; inversion B; subst jr; discriminate.
Qed.
Definition oneDim (t : task) (w a : R) : Prop :=
  tkBegin t = (0, 0)%nat /\ mrows (tkQ t) = 1%nat /\ mcols (tkQ t) = 1%nat /\ vlen (tkC t) = 1%nat /\
  forall x y, taskCost t x - taskCost t y = w * ((x 0%nat - a) ^ 2 / 2 - (y 0%nat - a) ^ 2 / 2).
Lemma oneDim_entries t w a : oneDim t w a -> tkWeight t * mget (tkQ t) 0 0 = w /\ tkWeight t * vget (tkC t) 0 = - w * a.
Proof.
  intros (B & R1 & C1 & L & K). assert (E : forall x, taskCost t x = tkWeight t * mget (tkQ t) 0 0 * (x 0%nat ^ 2) / 2 + tkWeight t * vget (tkC t) 0 * x 0%nat).
  { intros x. unfold taskCost. rewrite B, R1, C1. cbn [fst snd Nat.add]. unfold sumn. cbn. field. }
  pose proof (K (fun _ => 1) (fun _ => 0)) as K1. pose proof (K (fun _ => -1) (fun _ => 0)) as K2. rewrite !E in K1, K2. lra.
Qed.
Definition small (w : R) : R := if Rlt_dec w (/ 10000) then / 10000 else 0.
Lemma one_qc t w a : oneDim t w a -> 0 < w -> exists Q C, fillQC [t] 1 (mzero 1 1) (vfill 1 0) = Ok (Q, C) /\ diagPos Q = true /\
  vlen (diagMin Q C) = 1%nat /\ vget (diagMin Q C) 0 = w * a / (w + small w).
Proof.
  intros O Pw. destruct (oneDim_entries t w a O) as (EQ & EC). destruct O as (B & R1 & C1 & L & K).
  assert (Wf : Forall (wfTask 1) [t]) by (constructor; [unfold wfTask; rewrite B, R1, C1, L; cbn; lia|constructor]).
  destruct (qc_defined_lemma _ _ Wf) as (Q & C & E). exists Q, C. split; [exact E|].
  assert (EN : mget Q 0 0 = w + small w).
  { rewrite (entries_lemma _ _ _ _ 0 0 E) by lia. cbn [map sumR Nat.eqb]. unfold taskEntry. rewrite B, R1, C1. cbn. rewrite EQ, Rplus_0_r, Rabs_right by lra. reflexivity. }
  assert (SM : 0 <= small w) by (unfold small; destruct (Rlt_dec _ _); lra).
  destruct (objective_lemma _ _ _ _ E) as (Q1 & Q2 & Q3 & OB). split; [|split; [exact Q1|]].
  - apply diagPos_spec. rewrite Q1. intros i Hi. assert (i = 0%nat) as -> by lia. rewrite EN. split; [lra|]. intros j Hj Hne. lia.
  - cbn [diagMin vget]. rewrite EN. pose proof (OB (fun _ => 1)) as K1. pose proof (OB (fun _ => -1)) as K2. unfold quad, lin in K1, K2.
    unfold objective, tasksCost, regCost in K1, K2. cbn [map sumR] in K1, K2.
    assert (ET : forall x, taskCost t x = w * (x 0%nat ^ 2) / 2 - w * a * x 0%nat).
    { intros x. unfold taskCost. rewrite B, R1, C1. cbn [fst snd Nat.add]. unfold sumn. cbn. rewrite <- EQ. replace (tkWeight t * mget (tkQ t) 0 0 * a) with (w * a) by (rewrite EQ; reflexivity). replace (w * a) with (- (tkWeight t * vget (tkC t) 0)) by lra. field. }
    rewrite !ET in K1, K2. unfold sumn in K1, K2. cbn in K1, K2. assert (EC' : vget C 0 = - (w * a)) by (destruct (Rlt_dec _ _); lra).
    rewrite EC'. field. lra.
Qed.
Lemma one_solves t w a : oneDim t w a -> 0 < w -> exists x (ms' : list (mbconfig unit)), solve trySolver cmSolver (cmHeap t) [mkMbc [[0]] tt] = Ok (true, x, ms') /\
  vget x 0 = w * a / (w + small w).
Proof.
  intros O Pw. destruct (one_qc t w a O Pw) as (Q & C & E & P & L & V). destruct O as (B & R1 & C1 & LC & K).
  assert (HR : ready 1 [] (qBack cmSolver)).
  { destruct (layout_after _ _ _ _ _ _ _ _ cmHistory cmMimic cmKeep) as (deps & LY & Hr & _).
    change (sdNrVars (qData cmSolver)) with 1%nat in Hr. replace deps with (@nil dep) in Hr; [exact Hr|].
    change (nrVarsData [kMb] [] []) with (@Ok (solverData * list dep) (qData cmSolver, [])) in LY. injection LY as <-. reflexivity. }
  set (g := collect cmSolver (cmHeap t)). assert (EG : g = mkReg [t] [] [] [] []) by reflexivity.
  pose proof (try_backend (qBack cmSolver) g 1 Q C HR eq_refl) as S.
  destruct (write_lemma true cmKinds [] [kMb] [] [] [OpAddTask 0] cmSolver trySolver (cmHeap t) true (diagMin Q C) unit [mkMbc [[0]] tt] cmHistory cmMimic cmKeep) as (ms' & S1 & _).
  - apply S.
    + rewrite EG. split; [constructor; [unfold wfTask; rewrite B, R1, C1, LC; cbn; lia|constructor]|]. repeat split; constructor.
    + rewrite EG. unfold BackendProofs.fits. cbn [rgEq rgIneq rgGen map sumnat]. split; [apply Nat.leb_le; reflexivity|]. split; apply Nat.leb_le; reflexivity.
    + rewrite EG. constructor.
    + rewrite EG. intros k1 k2 b1 b2 i E1. destruct k1; discriminate E1.
    + exact E.
    + exact P.
    + rewrite EG. split; [split; [|split]|]; constructor.
  - exact L.
  - repeat constructor.
  - exists (diagMin Q C), ms'. auto.
Qed.
Lemma one_solvedBy t w a : oneDim t w a -> 0 < w -> exists x, solvedBy [kMb] [] [] cmSolver (cmHeap t) x /\ vget x 0 = w * a / (w + small w).
Proof.
  intros O Pw. destruct (one_solves t w a O Pw) as (x & ms' & S & V). exists x. split; [|exact V].
  exists true, cmKinds, [], [OpAddTask 0], trySolver, [mkMbc [[0]] tt], ms'. split; [exact cmHistory|]. split; [exact cmKeep|]. split; [exact trySolver_contract|].
  split; [constructor|]. split; [intros k1 k2 b1 b2 i E1; destruct k1; discriminate E1|exact S].
Qed.
Lemma one_feasible t z : feasible 1 (collect cmSolver (cmHeap t)) z.
Proof. split; [split; [|split]|]; constructor. Qed.
Lemma one_mimicked z : mimicked [kMb] (qData cmSolver) z.
Proof.
  intros r mb il ir m b Hr (jl & jr & _ & B & D). destruct r as [|r]; [|destruct r; discriminate Hr]. injection Hr as <-.
  destruct ir as [|[|ir]]; cbn in B; try discriminate; inversion B; subst jr; discriminate.
Qed.

(** A set-point task of stiffness 1 and weight w on the joint. *)
Lemma cmNew w m : exists t0, newSP [kMb] 0 1 (ones m) w = Ok t0.
Proof. unfold newSP. cbn. rewrite two1. cbn. eauto. Qed.
Lemma one_setpoint w e v : 0 < w -> exists t, setPointOf t (hl1 e v 0, 0%nat, fun i => 1 * vget (hErr (hl1 e v 0)) i - 2 * sqrt 1 * vget (hSpeed (hl1 e v 0)) i) /\
  oneDim t w (e - 2 * v) /\ tkWeight t = w /\ mget (tkQ t) 0 0 = 1.
Proof.
  intros Pw. destruct (cmNew w 1) as (t0 & N). assert (D : vlen (cmDim (spC t0)) = 1%nat) by (apply newSP_Ok in N as (_ & _ & _ & -> & _); auto).
  destruct (setpoint_defined (hl1 e v 0) t0) as (t' & U); [rewrite D; apply hl1_sizes|].
  exists (commonTask (spC t')). pose proof (setpoint_lemma [kMb] 0%nat 1 (ones 1) w [] t0 t0 (hl1 e v 0) t' N eq_refl U) as C. cbn [latest fold_left] in C.
  split; [exists [kMb], 0%nat, 1, (ones 1), w, [], t0, t0, t', (hl1 e v 0); cbn [latest fold_left]; repeat (split; [solve [auto]|]); split; [intros j _; cbn; lra|reflexivity]|].
  assert (O : oneDim (commonTask (spC t')) w (e - 2 * v)).
  { pose proof (newSP_Ok _ _ _ _ _ _ N) as (_ & _ & _ & _ & _ & B0).
    apply spUpdate_Ok in U as (_ & _ & er & U & _). apply commonQC_Ok in U as (_ & _ & _ & B & _ & _ & _ & _ & _ & _ & S1 & S2 & S3). cbn in S1, S2, S3. rewrite B0 in B.
    split; [cbn; rewrite B; reflexivity|]. split; [exact S1|]. split; [exact S2|]. split; [exact S3|].
    intros x y. rewrite C, !hl1_ls. cbn -[sqrt]. rewrite sqrt_1. field. }
  split; [exact O|]. assert (WT : tkWeight (commonTask (spC t')) = w).
  { apply newSP_Ok in N as (_ & _ & _ & _ & Wt & _). apply spUpdate_Ok in U as (_ & _ & er & U & _). apply commonQC_Ok in U as (A & _). cbn. congruence. }
  split; [exact WT|]. destruct (oneDim_entries _ _ _ O) as (EQ & _). rewrite WT in EQ. apply (Rmult_eq_reg_l w); lra.
Qed.
Lemma small_task_lemma : exists mbs uni bi s h x z q, Forall wfMimic mbs /\ nonzeroMimics mbs /\ solvedBy mbs uni bi s h x /\
  feasible (sdNrVars (qData s)) (collect s h) z /\ mimicked mbs (qData s) z /\ (exists t, rgTasks (collect s h) = [t] /\ setPointOf t q) /\ meets z q /\
  ~ meets (vget x) q /\ z 0%nat = 1 /\ vget x 0%nat = / 11.
Proof.
  destruct (one_setpoint (/ 100000) 1 0) as (t & SP & O & _); [lra|]. destruct (one_solvedBy t _ _ O ltac:(lra)) as (x & SB & V).
  exists [kMb], [], [], cmSolver, (cmHeap t), x, (fun _ => 1). eexists. split; [exact cmMimic|]. split; [exact cmNonzero|]. split; [exact SB|].
  split; [apply one_feasible|]. split; [apply one_mimicked|]. split; [exists t; split; [reflexivity|exact SP]|].
  assert (VX : vget x 0 = / 11). { rewrite V. unfold small. destruct (Rlt_dec _ _); [field|lra]. }
  split; [|split; [|split; [reflexivity|exact VX]]].
  - intros i Hi. rewrite hl1_acc. cbn -[sqrt]. rewrite sqrt_1. ring.
  - intros M. specialize (M 0%nat ltac:(cbn; lia)). rewrite hl1_acc, VX in M. cbn -[sqrt] in M. rewrite sqrt_1 in M. lra.
Qed.
Lemma unreg_one t w a : oneDim t w a -> / 10000 <= w -> unregularised 1 [t].
Proof.
  intros O Pw i Hi. assert (i = 0%nat) as -> by lia. destruct (oneDim_entries t w a O) as (EQ & _). destruct O as (B & R1 & C1 & _).
  unfold diagSum, taskDiag. cbn [map sumR]. rewrite B, R1, C1. cbn. rewrite EQ, Rplus_0_r, Rabs_right by lra. exact Pw.
Qed.
Lemma compat_used_lemma : exists t x q, solvedBy [kMb] [] [] cmSolver (cmHeap t) x /\ setPointOf t q /\ meets (fun _ => 3) q /\ quiet 1 [t] (fun _ => 3) /\ meets (vget x) q /\ vget x 0 = 3.
Proof.
  destruct (one_setpoint 2 5 1) as (t & SP & O & _); [lra|]. destruct (one_solvedBy t _ _ O ltac:(lra)) as (x & SB & V).
  exists t, x. eexists. split; [exact SB|]. split; [exact SP|].
  assert (M : meets (fun _ => 3) (hl1 5 1 0, 0%nat, fun i => 1 * vget (hErr (hl1 5 1 0)) i - 2 * sqrt 1 * vget (hSpeed (hl1 5 1 0)) i)).
  { intros i Hi. rewrite hl1_acc. cbn -[sqrt]. rewrite sqrt_1. ring. }
  split; [exact M|]. assert (Q : quiet 1 [t] (fun _ => 3)) by (intros i Hi; right; apply (unreg_one t 2 _ O); [lra|exact Hi]). split; [exact Q|].
  pose proof (attained_by [kMb] [] [] cmSolver (cmHeap t) x (fun _ => 3) [(hl1 5 1 0, 0%nat, fun i => 1 * vget (hErr (hl1 5 1 0)) i - 2 * sqrt 1 * vget (hSpeed (hl1 5 1 0)) i)] cmMimic cmNonzero SB
    (one_feasible t _) (one_mimicked _) Q (Forall2_cons _ _ SP (Forall2_nil _)) (Forall_cons _ M (Forall_nil _))) as A. inversion A; subst.
  split; [assumption|]. rewrite V. unfold small. destruct (Rlt_dec _ _); lra.
Qed.

(** The weight alone: weights 1 and 1e-5 of the only task. *)
Lemma one_objective t w a : oneDim t w a -> forall x y, tasksCost [t] x - tasksCost [t] y = w * ((x 0%nat - a) ^ 2 / 2 - (y 0%nat - a) ^ 2 / 2).
Proof. intros (_ & _ & _ & _ & K) x y. unfold tasksCost. cbn [map sumR]. rewrite <- K. ring. Qed.
Lemma one_convex D t w a : oneDim t w a -> / 10000 <= w -> strictlyConvex D 1 (objective 1 [t]).
Proof.
  intros O Pw x y _ _ (i & Hi & Ne). assert (i = 0%nat) as -> by lia. unfold objective. rewrite !(reg_none 1 [t]) by (apply (unreg_one t w a O Pw)).
  pose proof (one_objective t w a O (fun i => (x i + y i) / 2) x) as A. pose proof (one_objective t w a O (fun i => (x i + y i) / 2) y) as B. cbv beta in A, B.
  assert (P : 0 < (x 0%nat - y 0%nat) * (x 0%nat - y 0%nat)) by (apply Rlt_0_sqr; lra).
  assert (Q : 0 < w * ((x 0%nat - y 0%nat) * (x 0%nat - y 0%nat))) by (apply Rmult_lt_0_compat; lra). nra.
Qed.
Lemma rescaled_oneDim c t w a : oneDim t w a -> oneDim (rescaled c t) (c * w) a.
Proof.
  intros (B & R1 & C1 & L & K). repeat (split; [assumption|]). intros x y. rewrite !taskCost_rescaled. rewrite Rmult_assoc, <- K. ring.
Qed.
Lemma weight_refuted_lemma : exists mbs uni bi s s' h h' x x' c, Forall wfMimic mbs /\ nonzeroMimics mbs /\ solvedBy mbs uni bi s h x /\ solvedBy mbs uni bi s' h' x' /\
  sameConstraints (collect s h) (collect s' h') /\ rgTasks (collect s' h') = map (rescaled c) (rgTasks (collect s h)) /\ 0 < c /\
  strictlyConvex (mimicked mbs (qData s)) (sdNrVars (qData s)) (objective (sdNrVars (qData s)) (rgTasks (collect s h))) /\
  vget x 0%nat = 1 /\ vget x' 0%nat = / 11.
Proof.
  destruct (one_setpoint 1 1 0) as (t & SP & O & _); [lra|]. destruct (one_solvedBy t _ _ O ltac:(lra)) as (x & SB & V).
  pose proof (rescaled_oneDim (/ 100000) t _ _ O) as O'. destruct (one_solvedBy _ _ _ O' ltac:(lra)) as (x' & SB' & V').
  exists [kMb], [], [], cmSolver, cmSolver, (cmHeap t), (cmHeap (rescaled (/ 100000) t)), x, x', (/ 100000).
  split; [exact cmMimic|]. split; [exact cmNonzero|]. split; [exact SB|]. split; [exact SB'|]. split; [repeat split; apply Permutation_refl|]. split; [reflexivity|].
  split; [lra|]. split; [apply (one_convex _ t 1 _ O); lra|]. split.
  - rewrite V. unfold small. destruct (Rlt_dec _ _); lra.
  - rewrite V'. unfold small. destruct (Rlt_dec _ _); [field|lra].
Qed.
Lemma weight_used_lemma : exists t x x', let t' := rescaled 7 t in solvedBy [kMb] [] [] cmSolver (cmHeap t) x /\ solvedBy [kMb] [] [] cmSolver (cmHeap t') x' /\
  unregularised 1 [t] /\ unregularised 1 [t'] /\ strictlyConvex (mimicked [kMb] (qData cmSolver)) 1 (objective 1 [t]) /\ vget x 0 = 3 /\ vget x' 0 = 3.
Proof.
  destruct (one_setpoint 2 5 1) as (t & SP & O & _); [lra|]. destruct (one_solvedBy t _ _ O ltac:(lra)) as (x & SB & V).
  pose proof (rescaled_oneDim 7 t _ _ O) as O'. destruct (one_solvedBy _ _ _ O' ltac:(lra)) as (x' & SB' & V').
  exists t, x, x'. intros t'. split; [exact SB|]. split; [exact SB'|]. split; [apply (unreg_one t 2 _ O); lra|]. split; [apply (unreg_one t' _ _ O'); lra|].
  assert (SC : strictlyConvex (mimicked [kMb] (qData cmSolver)) 1 (objective 1 [t])) by (apply (one_convex _ t 2 _ O); lra). split; [exact SC|].
  assert (VX : vget x 0 = 3) by (rewrite V; unfold small; destruct (Rlt_dec _ _); lra). split; [exact VX|]. rewrite <- VX. symmetry.
  destruct (scaling_same [kMb] [] [] cmSolver cmSolver (cmHeap t) (cmHeap t') x x' 7 cmMimic cmNonzero SB SB') as (_ & E);
    [repeat split; apply Permutation_refl|apply Permutation_refl|lra|apply (unreg_one t 2 _ O); lra|apply (unreg_one t' _ _ O'); lra|].
  apply E; [exact SC|]. apply Nat.ltb_lt. reflexivity.
Qed.
