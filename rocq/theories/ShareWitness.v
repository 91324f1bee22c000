(** Two joints that share one task: two numerical solvers that keep their contract return different accelerations. *)
From Verif Require Export CompatWitness.
From Verif Require Import SetPointFacts SetPointLoop SetPointWitness.
Open Scope string_scope.
Open Scope list_scope.
Open Scope R_scope.
Local Arguments sumn : simpl never.

(** A solver that answers (u, v) to the problems whose matrix is full of ones, whose vector is -(u + v) and that (u, v) satisfies. *)
Definition isShare (u v : R) (Q : mat) (C : vec R) : bool :=
  (Nat.eqb (mrows Q) 2 && Reqb (mget Q 0 0) 1 && Reqb (mget Q 0 1) 1 && Reqb (mget Q 1 0) 1 && Reqb (mget Q 1 1) 1 &&
   Reqb (vget C 0) (- (u + v)) && Reqb (vget C 1) (- (u + v)))%bool.
Definition pair (u v : R) : vec R := mkVec 2 (fun i => match i with O => u | _ => v end).
Definition shareS (u v : R) (p : problemS) : bool * vec R :=
  if (isShare u v (psQ p) (psC p) && okSb p (vget (pair u v)))%bool then (true, pair u v) else (false, vfill (mrows (psQ p)) 0).
Definition shareG (u v : R) (p : problemG) : bool * vec R :=
  if (isShare u v (pgQ p) (pgC p) && okGb p (vget (pair u v)))%bool then (true, pair u v) else (false, vfill (mrows (pgQ p)) 0).
Definition shareSolver (u v : R) : numeric := mkNum (shareS u v) (shareG u v).
Lemma share_min u v Q C y : isShare u v Q C = true -> qpcost (mrows Q) (mget Q) (vget C) (vget (pair u v)) <= qpcost (mrows Q) (mget Q) (vget C) y.
Proof.
  unfold isShare. rewrite !andb_true_iff, Nat.eqb_eq, !Reqb_true. intros ((((((-> & A) & B) & D) & E) & F) & G).
  unfold qpcost, quad, lin, sumn. cbn. rewrite A, B, D, E, F, G. pose proof (Rle_0_sqr (y 0%nat + y 1%nat - (u + v))). unfold Rsqr in *. nra.
Qed.
Lemma shareSolver_contract u v : contract (shareSolver u v).
Proof.
  assert (R2 : forall Q C, isShare u v Q C = true -> mrows Q = 2%nat) by (unfold isShare; intros Q C; rewrite !andb_true_iff, Nat.eqb_eq; tauto).
  split; [|split; [|split]]; cbn [shareSolver numQld numLssol]; intros p; unfold shareS, shareG; destruct (_ && _)%bool eqn:E; cbn [snd]; auto.
  - apply andb_true_iff in E as (E & _). cbn. symmetry. exact (R2 _ _ E).
  - apply andb_true_iff in E as (E & _). cbn. symmetry. exact (R2 _ _ E).
  - intros x H. injection H as <-. apply andb_true_iff in E as (E & O). split; [apply okSb_true; exact O|]. intros y _. unfold costS. apply share_min. exact E.
  - discriminate.
  - intros x H. injection H as <-. apply andb_true_iff in E as (E & O). split; [apply okGb_true; exact O|]. intros y _. unfold costG. apply share_min. exact E.
  - discriminate.
Qed.

(** A robot with two joints, and a set-point task on the sum of their accelerations. *)
Definition shMb : multibody := mkMB [mkJoint "p" 1 1 None; mkJoint "q" 1 1 None].
Definition shH : hlOut := mkHL (mkMat 1 2 (fun _ _ => 1)) (vfill 1 1) (vfill 1 0) (vfill 1 0).
Definition shSolver : qpSolver := match history true cmKinds ([] ++ OpNrVars [shMb] [] [] :: [OpAddTask 0]) with Ok s => s | _ => mkQP [] [] [] [] [] [] initData 0 0 0 (newBackend QLD) end.
Lemma shHistory : history true cmKinds ([] ++ OpNrVars [shMb] [] [] :: [OpAddTask 0]) = Ok shSolver.
Proof. reflexivity. Qed.
Lemma shMimic : Forall wfMimic [shMb].
Proof.
  repeat (constructor; [split; [repeat constructor; cbn; intuition discriminate|intros j nm m Hj Hm; cbn in Hj; exfalso; intuition (subst; discriminate)]|]). constructor.
Qed.
Lemma shNonzero : nonzeroMimics [shMb].
Proof.
  intros mb il ir m Hmb (jl & jr & _ & B & D). cbn in Hmb. destruct Hmb as [<-|[]]; cbn in B; destruct ir as [|[|[|ir]]]; cbn in B; try discriminate; inversion B; subst jr; discriminate.
Qed.
Lemma shTask : exists t q, setPointOf t q /\ tkBegin t = (0, 0)%nat /\ mrows (tkQ t) = 2%nat /\ mcols (tkQ t) = 2%nat /\ vlen (tkC t) = 2%nat /\ tkWeight t = 1 /\
  (forall i j, (i < 2)%nat -> (j < 2)%nat -> mget (tkQ t) i j = 1) /\ (forall i, (i < 2)%nat -> vget (tkC t) i = - 1).
Proof.
  assert (N : exists t0, newSP [shMb] 0 1 (ones 1) 1 = Ok t0 /\ t0 = mkSP (mkCommon 1 (ones 1) 0 0 (cmQ (spC t0)) (cmC (spC t0))) 1 (2 * sqrt 1)).
  { unfold newSP. cbn. rewrite two1. cbn. eexists. split; reflexivity. }
  destruct N as (t0 & N & E0). assert (D : vlen (cmDim (spC t0)) = 1%nat) by (rewrite E0; reflexivity).
  destruct (setpoint_defined shH t0) as (t' & U); [rewrite D; repeat split|]. exists (commonTask (spC t')).
  eexists. split.
  { exists [shMb], 0%nat, 1, (ones 1), 1, [], t0, t0, t', shH. cbn [latest fold_left]. repeat (split; [solve [auto]|]). split; [lra|]. split; [intros j _; cbn; lra|reflexivity]. }
  rewrite E0 in U. unfold spUpdate in U. cbn in U. injection U as <-. cbn -[sqrt]. repeat (split; [reflexivity|]). split.
  - intros i j _ _. unfold mmul_ent, sumn. cbn. ring.
  - intros i _. cbn. unfold sumn. cbn -[sqrt]. rewrite sqrt_1. ring.
Qed.
Lemma shSolves t u v : u + v = 1 -> tkBegin t = (0, 0)%nat -> mrows (tkQ t) = 2%nat -> mcols (tkQ t) = 2%nat -> vlen (tkC t) = 2%nat -> tkWeight t = 1 ->
  (forall i j, (i < 2)%nat -> (j < 2)%nat -> mget (tkQ t) i j = 1) -> (forall i, (i < 2)%nat -> vget (tkC t) i = - 1) ->
  solvedBy [shMb] [] [] shSolver (cmHeap t) (pair u v).
Proof.
  intros UV B R1 C1 LC WT EQ EC.
  assert (Wf : Forall (wfTask 2) [t]) by (constructor; [unfold wfTask; rewrite B, R1, C1, LC; cbn; lia|constructor]).
  assert (HR : ready 2 [] (qBack shSolver)).
  { destruct (layout_after _ _ _ _ _ _ _ _ shHistory shMimic cmKeep) as (deps & LY & Hr & _).
    change (sdNrVars (qData shSolver)) with 2%nat in Hr. replace deps with (@nil dep) in Hr; [exact Hr|].
    change (nrVarsData [shMb] [] []) with (@Ok (solverData * list dep) (qData shSolver, [])) in LY. injection LY as <-. reflexivity. }
  set (g := collect shSolver (cmHeap t)). assert (EG : g = mkReg [t] [] [] [] []) by reflexivity.
  assert (WR : wfReg 2 g) by (rewrite EG; split; [exact Wf|repeat split; constructor]).
  assert (FT : BackendProofs.fits (qBack shSolver) g) by (rewrite EG; unfold BackendProofs.fits; cbn [rgEq rgIneq rgGen map sumnat]; split; [apply Nat.leb_le; reflexivity|split; apply Nat.leb_le; reflexivity]).
  destruct (lssol_defined _ g 2 [] HR WR FT) as (p & Ep).
  destruct (lssol_meaning _ _ _ _ _ Ep HR) as (QF & CF & XLF & XUF & M1 & M2 & M3 & M4 & M5).
  assert (E : pgQ p = QF /\ pgC p = CF).
  { clear M5 M4 M3. unfold lssolMatrix in Ep. change (bkDeps (qBack shSolver)) with (@nil dep) in Ep. change (bkN (qBack shSolver)) with 2%nat in Ep.
    apply bind_Ok in Ep as (((( ? & ?) & ?) & ?) & _ & Ep). apply bind_Ok in Ep as (((( ? & ?) & ?) & ?) & _ & Ep). apply bind_Ok in Ep as (((( ? & ?) & ?) & ?) & _ & Ep).
    apply bind_Ok in Ep as ((? & ?) & _ & Ep). apply bind_Ok in Ep as ((Q' & C') & F & Ep). rewrite F in M1. injection M1 as <- <-.
    apply bind_Ok in Ep as (? & _ & Ep). apply bind_Ok in Ep as (? & _ & Ep). apply bind_Ok in Ep as (? & _ & Ep). injection Ep as <-. cbn [pgQ pgC]. auto. }
  destruct E as (E1 & E2). rewrite EG in M1. cbn [rgTasks] in M1.
  assert (ENT : forall i j, (i < 2)%nat -> (j < 2)%nat -> taskEntry i j t = 1).
  { intros i j Hi Hj. unfold taskEntry. rewrite B, R1, C1. cbn [fst snd]. rewrite !Nat.sub_0_r, WT, EQ by assumption.
    replace (inr 0 2 i) with true by (symmetry; apply inr_true; lia). replace (inr 0 2 j) with true by (symmetry; apply inr_true; lia). cbn. ring. }
  assert (EN : forall i j, (i < 2)%nat -> (j < 2)%nat -> mget QF i j = 1).
  { intros i j Hi Hj. rewrite (entries_lemma _ _ _ _ i j M1) by assumption. cbn [map sumR]. rewrite !ENT by assumption. rewrite Rplus_0_r, Rabs_R1.
    destruct (Nat.eqb i j); [|ring]. destruct (Rlt_dec _ _); [lra|ring]. }
  destruct (objective_lemma _ _ _ _ M1) as (Q1 & Q2 & Q3 & OB).
  assert (ECC : vget CF 0 = - 1 /\ vget CF 1 = - 1).
  { assert (RG : forall z, regCost 2 [t] z = 0).
    { intros z. apply reg_none. intros i Hi. unfold diagSum. cbn [map sumR]. change (taskDiag i t) with (taskEntry i i t). rewrite ENT by assumption. rewrite Rplus_0_r, Rabs_R1. lra. }
    assert (ET : forall z, taskCost t z = (z 0%nat + z 1%nat) ^ 2 / 2 - (z 0%nat + z 1%nat)).
    { intros z. unfold taskCost. rewrite B, R1, C1, WT. unfold sumn. cbn [fst snd Nat.add]. cbn. rewrite !EQ, !EC by lia. field. }
    assert (OB' : forall z, quad 2 (mget QF) z / 2 + lin 2 (vget CF) z = (z 0%nat + z 1%nat) ^ 2 / 2 - (z 0%nat + z 1%nat)).
    { intros z. rewrite OB. unfold objective. rewrite RG. unfold tasksCost. cbn [map sumR]. rewrite ET. ring. }
    pose proof (OB' (fun i => match i with O => 1 | _ => 0 end)) as K1. pose proof (OB' (fun i => match i with O => 0 | _ => 1 end)) as K2.
    unfold quad, lin, sumn in K1, K2. cbn in K1, K2. rewrite !EN in K1, K2 by lia. lra. }
  assert (SB : solveNoMbcUpdate (shareSolver u v) shSolver (cmHeap t) = Ok (true, pair u v)).
  { unfold solveNoMbcUpdate, backendSolve. fold g. change (bkKind (qBack shSolver)) with LSSOL. cbv iota. rewrite Ep. cbn [bind shareSolver numLssol].
    unfold shareG. replace (isShare u v (pgQ p) (pgC p)) with true.
    - replace (okGb p (vget (pair u v))) with true; [reflexivity|]. symmetry. apply okGb_true, M5. change (lift (qBack shSolver) (vget (pair u v))) with (vget (pair u v)).
      rewrite EG. split; [split; [|split]; constructor|]. rewrite EG in M2. injection M2 as <- <-. intros i Hi _. split; exact I.
    - symmetry. rewrite E1, E2. unfold isShare. rewrite Q1, !EN by lia. destruct ECC as (-> & ->). rewrite !andb_true_iff, Nat.eqb_eq, !Reqb_true. repeat split; lra. }
  destruct (write_lemma true cmKinds [] [shMb] [] [] [OpAddTask 0] shSolver (shareSolver u v) (cmHeap t) true (pair u v) unit [mkMbc [[0]; [0]] tt] shHistory shMimic cmKeep SB eq_refl) as (ms' & S1 & _); [repeat constructor|].
  exists true, cmKinds, [], [OpAddTask 0], (shareSolver u v), [mkMbc [[0]; [0]] tt], ms'. split; [exact shHistory|]. split; [exact cmKeep|]. split; [apply shareSolver_contract|].
  split; [constructor|]. split; [intros k1 k2 b1 b2 i E3; destruct k1; discriminate E3|exact S1].
Qed.
Lemma share_lemma : exists mbs uni bi s h x x' t q, Forall wfMimic mbs /\ nonzeroMimics mbs /\ solvedBy mbs uni bi s h x /\ solvedBy mbs uni bi s h x' /\
  rgTasks (collect s h) = [t] /\ setPointOf t q /\ vget x 0%nat = 1 /\ vget x' 0%nat = - 5.
Proof.
  destruct shTask as (t & q & SP & B & R1 & C1 & LC & WT & EQ & EC).
  exists [shMb], [], [], shSolver, (cmHeap t), (pair 1 0), (pair (- 5) 6), t, q. split; [exact shMimic|]. split; [exact shNonzero|].
  split; [apply (shSolves t 1 0); auto; lra|]. split; [apply (shSolves t (- 5) 6); auto; lra|]. split; [reflexivity|]. split; [exact SP|]. split; reflexivity.
Qed.
