(** A robot of one revolute joint on a fixed base whose posture task drives it to 0, in control cycles of any period. *)
From Verif Require Export DiscreteFacts CompatWitness.
From Verif Require Import LayoutSpec LayoutProofs SetPointFacts SetPointLoop PostureFacts PostureLoop.
Open Scope string_scope.
Open Scope list_scope.
Open Scope R_scope.
Local Arguments sumn : simpl never.
Local Arguments twoSqrt : simpl never.

Definition dcMb : multibody := mkMB [mkJoint "root" 0 0 None; mkJoint "rev" 1 1 None].
Definition dcSolver : qpSolver := match history true cmKinds ([] ++ OpNrVars [dcMb] [] [] :: [OpAddTask 0]) with Ok s => s | _ => mkQP [] [] [] [] [] [] initData 0 0 0 (newBackend QLD) end.
Lemma dcHistory : history true cmKinds ([] ++ OpNrVars [dcMb] [] [] :: [OpAddTask 0]) = Ok dcSolver.
Proof. reflexivity. Qed.
Lemma dcMimic : Forall wfMimic [dcMb].
Proof. repeat (constructor; [split; [repeat constructor; cbn; intuition discriminate|intros j nm m Hj Hm; cbn in Hj; exfalso; intuition (subst; discriminate)]|]). constructor. Qed.
Lemma dcNonzero : nonzeroMimics [dcMb].
Proof. intros mb il ir m Hmb (jl & jr & _ & B & D). cbn in Hmb. destruct Hmb as [<-|[]]; cbn in B; destruct ir as [|[|[|ir]]]; cbn in B; try discriminate; inversion B; subst jr; discriminate. Qed.
Lemma dcMimicked z : mimicked [dcMb] (qData dcSolver) z.
Proof.
  intros r mb il ir m b Hr (jl & jr & _ & B & D). destruct r as [|r]; [|destruct r; discriminate Hr]. injection Hr as <-.
  destruct ir as [|[|[|ir]]]; cbn in B; try discriminate; inversion B; subst jr; discriminate.
Qed.
(** The posture task: stiffness k, weight 1, target 0. *)
Definition dcT (k : R) (ev : vec R) (jac Q : mat) (C al : vec R) : posture :=
  mkPost 1 (mkLP [[]; [0]] ev jac) k (2 * sqrt k) 0 0 [] Q C al (vfill 1 0) (vfill 1 0) (ones 1).
Definition dcJac : mat := lpJac (newLP dcMb [[]; [0]]).
Definition dcStart (k : R) : posture := dcT k (vfill 1 0) dcJac (mzero 1 1) (vfill 1 0) (vfill 1 0).
Lemma dcNew k : 0 < k -> newPost [dcMb] 0 [[]; [0]] k 1 = Ok (dcStart k).
Proof. intros Hk. unfold newPost. cbn [vec_at nth_error bind]. unfold twoSqrt, Rleb. destruct (Rle_dec 0 k); [|lra]. reflexivity. Qed.
Definition isDcT (k : R) (t : posture) : Prop := exists ev Q C al, t = dcT k ev dcJac Q C al /\ vlen ev = 1%nat /\ vlen C = 1%nat /\ vlen al = 1%nat.
Definition dcRot (i : nat) (w x y z : R) : V3 := mkV3 0 0 0.
Lemma dcUpdate k t q v : isDcT k t -> exists t', poUpdate [dcMb] (mkPCfg [[]; [q]] [[]; [v]] dcRot) t = Ok t' /\ isDcT k t' /\
  oneDim (postTask t') 1 (k * (0 - q) - 2 * sqrt k * v).
Proof.
  intros ((n1, f1) & Q & (n2, f2) & (n3, f3) & -> & L1 & L2 & L3). cbn [vlen] in L1, L2, L3. subst n1 n2 n3.
  eexists. split; [reflexivity|]. split; [eexists _, _, _, _; split; [reflexivity|]; split; [reflexivity|]; split; reflexivity|].
  unfold oneDim, postTask. cbn [tkBegin tkQ tkC poBegin poQ poC]. split; [reflexivity|]. split; [reflexivity|]. split; [reflexivity|]. split; [reflexivity|].
  intros x y. unfold taskCost. cbn. unfold sumn. cbn. field.
Qed.
(** The sequence of configurations: position, velocity, last acceleration. *)
Definition dcNext (k dt th : R) (c : R * R * R) : R * R * R :=
  let '(q, v, _) := c in let a := k * (0 - q) - 2 * sqrt k * v in let v' := v + dt * a in (q + dt * ((1 - th) * v + th * v'), v', a).
Fixpoint dcSeq (k dt th q v : R) (n : nat) : R * R * R := match n with O => (q, v, 0) | S n' => dcNext k dt th (dcSeq k dt th q v n') end.
Definition dcConf (c : R * R * R) : list robotConf := let '(q, v, a) := c in [mkMbc [[]; [a]] ([[]; [q]], [[]; [v]])].
Definition dcPc (c : R * R * R) : pcfg := let '(q, v, _) := c in mkPCfg [[]; [q]] [[]; [v]] dcRot.
Fixpoint dcTask (k dt th q v : R) (n : nat) : posture :=
  match n with O => dcStart k | S n' => match poUpdate [dcMb] (dcPc (dcSeq k dt th q v n')) (dcTask k dt th q v n') with Ok t => t | _ => dcStart k end end.
Definition dcZ (k dt th q v : R) (n : nat) : posture * list robotConf * qpSolver := (dcTask k dt th q v n, dcConf (dcSeq k dt th q v n), dcSolver).
Lemma dcConfsOk c : confsOk [dcMb] (dcConf c).
Proof. destruct c as ((q, v), a). repeat constructor. Qed.
Lemma dcReady : ready 1 [] (qBack dcSolver).
Proof.
  destruct (layout_after _ _ _ _ _ _ _ _ dcHistory dcMimic cmKeep) as (deps & LY & Hr & _).
  change (sdNrVars (qData dcSolver)) with 1%nat in Hr. replace deps with (@nil dep) in Hr; [exact Hr|].
  change (nrVarsData [dcMb] [] []) with (@Ok (solverData * list dep) (qData dcSolver, [])) in LY. injection LY as <-. reflexivity.
Qed.
Lemma dcFeasible t z : feasible 1 (collect dcSolver (cmHeap t)) z.
Proof. split; [split; [|split]|]; constructor. Qed.
Lemma dcSolves t a c : oneDim t 1 a -> exists x ms1, solve trySolver dcSolver (cmHeap t) (dcConf c) = Ok (true, x, ms1) /\ vget x 0 = a.
Proof.
  intros O. destruct (one_qc t 1 a O Rlt_0_1) as (Q & C & E & P & L & V). destruct O as (B & R1 & C1 & LC & K).
  set (g := collect dcSolver (cmHeap t)). assert (EG : g = mkReg [t] [] [] [] []) by reflexivity.
  pose proof (try_backend (qBack dcSolver) g 1 Q C dcReady eq_refl) as S.
  destruct (write_lemma true cmKinds [] [dcMb] [] [] [OpAddTask 0] dcSolver trySolver (cmHeap t) true (diagMin Q C) _ (dcConf c) dcHistory dcMimic cmKeep) as (ms' & S1 & _).
  - apply S.
    + rewrite EG. split; [constructor; [unfold wfTask; rewrite B, R1, C1, LC; cbn; lia|constructor]|]. repeat split; constructor.
    + rewrite EG. unfold BackendProofs.fits. cbn [rgEq rgIneq rgGen map sumnat]. split; [apply Nat.leb_le; reflexivity|]. split; apply Nat.leb_le; reflexivity.
    + rewrite EG. constructor.
    + rewrite EG. intros k1 k2 b1 b2 i E1. destruct k1; discriminate E1.
    + exact E.
    + exact P.
    + rewrite EG. split; [split; [|split]|]; constructor.
  - exact L.
  - destruct c as ((q, v), a0). repeat constructor.
  - exists (diagMin Q C), ms'. split; auto. rewrite V. unfold small. destruct (Rlt_dec 1 (/ 10000)); [lra|field].
Qed.
Lemma dcCycle k dt th t c : isDcT k t -> exists t', poUpdate [dcMb] (dcPc c) t = Ok t' /\ isDcT k t' /\
  postCycle true cmKinds trySolver 0 [dcMb] 0 dt th (t, dcConf c, dcSolver) (t', dcConf (dcNext k dt th c), dcSolver).
Proof.
  intros IT. destruct c as ((q, v), a0). destruct (dcUpdate k t q v IT) as (t' & U & IT' & O). exists t'. split; [exact U|]. split; [exact IT'|].
  destruct (dcSolves (postTask t') _ (q, v, a0) O) as (x & ms1 & HS & HX).
  set (h := cmHeap (postTask t')) in *. assert (WB : Forall wfBound (rgBound (collect dcSolver h))) by constructor.
  assert (DB : disjointBounds (rgBound (collect dcSolver h))) by (intros k1 k2 b1 b2 i E1; destruct k1; discriminate E1).
  destruct (solved_written _ _ _ _ _ _ _ _ _ dcHistory dcMimic dcNonzero cmKeep trySolver_contract _ _ _ _ WB DB (dcConfsOk (q, v, a0)) HS) as (_ & LL & WR).
  destruct (WR 0%nat _ _ eq_refl eq_refl) as (m1 & b & E1 & AB & O1 & PD & V1). injection AB as <-.
  set (a := k * (0 - q) - 2 * sqrt k * v) in *.
  assert (EA : mbcAlphaD m1 = [[]; [a]]).
  { pose proof (V1 1%nat 0%nat ltac:(eexists; split; [reflexivity|cbn; lia])) as V2. cbn in V2. rewrite HX in V2. unfold perDof in PD. cbn in PD.
    destruct (mbcAlphaD m1) as [|l1 [|l2 [|l3 l]]]; try discriminate PD. cbn in PD. injection PD as P1 P2.
    destruct l1; [|discriminate P1]. destruct l2 as [|y [|y' l2]]; try discriminate P2. unfold at2 in V2. cbn in V2. subst y. reflexivity. }
  assert (EM : ms1 = [mkMbc [[]; [a]] ([[]; [q]], [[]; [v]])]).
  { destruct ms1 as [|m [|m' l]]; try discriminate LL. injection E1 as ->. destruct m1 as [ad ot]. cbn in O1, EA. subst. reflexivity. }
  exists [], dcRot, h, x, ms1, (mkMbc [[]; [a0]] ([[]; [q]], [[]; [v]])), (fun _ => a).
  split; [reflexivity|]. split; [constructor|]. split; [left; reflexivity|]. split; [reflexivity|]. split; [exact U|]. split; [reflexivity|].
  split; [exact WB|]. split; [exact DB|]. split; [exact HS|]. split; [apply dcFeasible|]. split; [apply dcMimicked|].
  change (rgTasks (collect dcSolver h)) with [postTask t']. change (sdNrVars (qData dcSolver)) with 1%nat.
  split; [intros i Hi; right; apply (unreg_one (postTask t') 1 a O); [lra|exact Hi]|].
  split. { intros tk [<-|[]] y. destruct O as (_ & _ & _ & _ & K). pose proof (K (fun _ => a) y) as K1. cbv beta in K1. pose proof (pow2_ge_0 (y 0%nat - a)). replace (a - a) with 0 in K1 by ring. lra. }
  rewrite EM. split; [reflexivity|]. intros r mb m m' M E E'. destruct r as [|r]; [|destruct r; discriminate M]. injection M as <-. injection E as <-. cbn in E'. injection E' as <-.
  split; [reflexivity|]. split; [split; [|split]; reflexivity|]. intros i jt kk HJ HP Hkk. destruct i as [|[|i]]; cbn in HJ; [injection HJ as <-; cbn in Hkk; lia| |destruct i; discriminate HJ].
  injection HJ as <-. cbn in Hkk. assert (kk = 0%nat) as -> by lia. unfold at2, confV, confQ. cbn. split; reflexivity.
Qed.
Lemma dcLoop k dt th q v n : 0 < k -> isDcT k (dcTask k dt th q v n) /\ postCycle true cmKinds trySolver 0 [dcMb] 0 dt th (dcZ k dt th q v n) (dcZ k dt th q v (S n)).
Proof.
  intros Hk. assert (IT : isDcT k (dcTask k dt th q v n)).
  { induction n as [|n IH]; [exists (vfill 1 0), (mzero 1 1), (vfill 1 0), (vfill 1 0); repeat split|]. cbn [dcTask]. destruct (dcCycle k dt th _ (dcSeq k dt th q v n) IH) as (t' & U & IT & _). rewrite U. exact IT. }
  split; [exact IT|]. destruct (dcCycle k dt th _ (dcSeq k dt th q v n) IT) as (t' & U & _ & CY). unfold dcZ at 2. cbn [dcTask]. rewrite U. exact CY.
Qed.
Lemma dcPlain : plainJoints dcMb.
Proof. intros j [<-|[]]. cbn. auto. Qed.
Lemma dcNr k : poRun [dcMb] [PoNrVars (qData dcSolver)] (dcStart k) = Ok (dcStart k).
Proof. reflexivity. Qed.
Section Use.
Variables (k dt th q : R).
Hypothesis Hk : 0 < k.
Lemma dcWeights c : (c < nrDof dcMb)%nat -> 0 < vget (latest poGiveW (ones (nrDof dcMb)) [PoNrVars (qData dcSolver)]) c.
Proof. intros _. cbn. lra. Qed.
Lemma dcConverges : 0 < dt -> 0 <= th <= 1 -> sqrt k * dt < 2 -> 0 < 4 - 4 * (sqrt k * dt) + (1 - 2 * th) * (sqrt k * dt) ^ 2 ->
  exists c rho, 0 <= rho < 1 /\ forall n a, nth_error (confsAt (dcZ k dt th q 0) n) 0 = Some a -> Rabs (0 - at2 (confQ a) 1 0 0) <= c * rho ^ n /\ Rabs (at2 (confV a) 1 0 0) <= c * rho ^ n.
Proof.
  intros Hd Ht M1 M2. exact (discrete_converges true cmKinds [] [OpAddTask 0] [dcMb] [] [] dcSolver trySolver 0 0 dcMb [[]; [0]] k 1 [PoNrVars (qData dcSolver)] (dcStart k) (dcStart k) (dcConf (q, 0, 0)) 0 _ k dt th (dcZ k dt th q 0)
    dcHistory dcMimic dcNonzero cmKeep trySolver_contract eq_refl dcPlain (dcNew k Hk) (dcNr k) (fun j o _ I => False_ind _ I) Rlt_0_1 dcWeights eq_refl eq_refl eq_refl eq_refl eq_refl eq_refl eq_refl (dcConfsOk (q, 0, 0)) eq_refl (fun n => proj2 (dcLoop k dt th q 0 n Hk)) Hk Hd Ht M1 M2).
Qed.
Lemma dcDiverges : 0 < dt -> th = 1 / 2 -> 1 < sqrt k * dt -> q <> 0 -> exists c rho, 0 < c /\ 1 < rho /\ forall n a a', nth_error (confsAt (dcZ k dt th q 0) n) 0 = Some a -> nth_error (confsAt (dcZ k dt th q 0) (S n)) 0 = Some a' ->
    c * rho ^ n <= Rabs (0 - at2 (confQ a) 1 0 0) + Rabs (0 - at2 (confQ a') 1 0 0).
Proof.
  intros Hd Ht M1 M2. exact (discrete_diverges true cmKinds [] [OpAddTask 0] [dcMb] [] [] dcSolver trySolver 0 0 dcMb [[]; [0]] k 1 [PoNrVars (qData dcSolver)] (dcStart k) (dcStart k) (dcConf (q, 0, 0)) 0 _ k dt th (dcZ k dt th q 0)
    dcHistory dcMimic dcNonzero cmKeep trySolver_contract eq_refl dcPlain (dcNew k Hk) (dcNr k) (fun j o _ I => False_ind _ I) Rlt_0_1 dcWeights eq_refl eq_refl eq_refl eq_refl eq_refl eq_refl eq_refl (dcConfsOk (q, 0, 0)) eq_refl (fun n => proj2 (dcLoop k dt th q 0 n Hk)) Hk Hd Ht M1
    (fun a E => match E in _ = o return match o with Some a => at2 (confV a) 1 0 0 = 0 /\ at2 (confQ a) 1 0 0 <> 0 | None => True end with eq_refl => conj eq_refl M2 end)).
Qed.
End Use.
Lemma dcConf_at k dt th q v n : exists a, nth_error (confsAt (dcZ k dt th q v) n) 0 = Some a.
Proof. unfold confsAt, dcZ. cbn [fst snd]. destruct (dcSeq k dt th q v n) as ((x, y), w). cbn. eauto. Qed.
(** Stiffness 4, period 1: the error exceeds every bound. *)
Lemma discrete_refuted_lemma : exists lssol kinds pre post mbs uni bi s num ct r mb q0 k0 w0 ops t0 t ms i j k dt z,
  history lssol kinds (pre ++ OpNrVars mbs uni bi :: post) = Ok s /\ Forall wfMimic mbs /\ nonzeroMimics mbs /\
  Forall (fun o => ~ resizesOrSwitches o) post /\ contract num /\ nth_error mbs r = Some mb /\ plainJoints mb /\
  newPost mbs r q0 k0 w0 = Ok t0 /\ poRun mbs ops t0 = Ok t /\
  (forall j o, nth_error (joints mb) 0 = Some j -> In o (latest poGiveJ [] ops) -> fst o <> jname j) /\
  0 < latest poGiveWeight w0 ops /\ (forall c, (c < nrDof mb)%nat -> 0 < vget (latest poGiveW (ones (nrDof mb)) ops) c) /\
  alphaDBegin (qData s) r = Ok (latest (poGiveBegin r) 0%nat ops) /\
  nth_error (joints mb) (S i) = Some j /\ jdof j = 1%nat /\ jparams j = 1%nat /\
  gainsOf (latest poGiveG (k0, 2 * sqrt k0) ops) (latest poGiveJ [] ops) (jname j) = (k, 2 * sqrt k) /\
  vget (latest poGiveRV (vfill (nrDof mb) 0) ops) (jointPosInDof mb (S i)) = 0 /\ vget (latest poGiveRA (vfill (nrDof mb) 0) ops) (jointPosInDof mb (S i)) = 0 /\
  confsOk mbs ms /\ z 0%nat = (t, ms, s) /\ (forall n, postCycle lssol kinds num ct mbs r dt (1 / 2) (z n) (z (S n))) /\ 0 < k /\ 0 < dt /\
  forall bnd, exists n a, nth_error (confsAt z n) r = Some a /\ bnd < Rabs (at2 (latest poGiveQ q0 ops) (S i) 0 0 - at2 (confQ a) (S i) 0 0).
Proof.
  assert (K4 : 0 < 4) by lra. assert (Q4 : sqrt 4 = 2) by (replace 4 with (2 * 2) by ring; apply sqrt_square; lra).
  exists true, cmKinds, [], [OpAddTask 0], [dcMb], [], [], dcSolver, trySolver, 0%nat, 0%nat, dcMb, [[]; [0]], 4, 1, [PoNrVars (qData dcSolver)], (dcStart 4), (dcStart 4), (dcConf (1, 0, 0)), 0%nat. eexists. exists 4, 1, (dcZ 4 1 (1 / 2) 1 0).
  split; [exact dcHistory|]. split; [exact dcMimic|]. split; [exact dcNonzero|]. split; [exact cmKeep|]. split; [exact trySolver_contract|]. split; [reflexivity|]. split; [exact dcPlain|].
  split; [exact (dcNew 4 K4)|]. split; [exact (dcNr 4)|]. split; [exact (fun j o _ I => False_ind _ I)|]. split; [exact Rlt_0_1|]. split; [exact dcWeights|].
  split; [reflexivity|]. split; [reflexivity|]. split; [reflexivity|]. split; [reflexivity|]. split; [reflexivity|]. split; [reflexivity|]. split; [reflexivity|].
  split; [exact (dcConfsOk (1, 0, 0))|]. split; [reflexivity|]. split; [exact (fun n => proj2 (dcLoop 4 1 (1 / 2) 1 0 n K4))|]. split; [lra|]. split; [lra|].
  destruct (dcDiverges 4 1 (1 / 2) 1 K4 Rlt_0_1 eq_refl ltac:(rewrite Q4; lra) ltac:(lra)) as (c & rho & Pc & P1 & G).
  intros bnd. destruct (Pow_x_infinity rho ltac:(rewrite Rabs_right; lra) ((2 * Rabs bnd + 1) / c)) as (n & Hn). specialize (Hn n (Nat.le_refl n)).
  destruct (dcConf_at 4 1 (1 / 2) 1 0 n) as (a & Ea). destruct (dcConf_at 4 1 (1 / 2) 1 0 (S n)) as (a' & Ea'). specialize (G n a a' Ea Ea').
  rewrite Rabs_right in Hn by (apply Rle_ge, pow_le; lra).
  assert (X : 2 * Rabs bnd + 1 <= c * rho ^ n). { apply Rge_le in Hn. apply (Rmult_le_compat_l c) in Hn; [|lra]. replace (c * ((2 * Rabs bnd + 1) / c)) with (2 * Rabs bnd + 1) in Hn by (field; lra). exact Hn. }
  pose proof (Rle_abs bnd). change (at2 (latest poGiveQ [[]; [0]] [PoNrVars (qData dcSolver)]) 1 0 0) with 0.
  destruct (Rlt_le_dec bnd (Rabs (0 - at2 (confQ a) 1 0 0))); [exists n, a; auto|]. exists (S n), a'. split; [exact Ea'|]. lra.
Qed.
