(** Lemmas behind PropSolver.v. *)
From Coq Require Import Permutation.
From Verif Require Import Lists DiagSolver.
From Verif Require Export HistoryProofs FillFacts UtilsModel.
Open Scope string_scope.
Open Scope list_scope.
Open Scope R_scope.

(** ** Registration *)
Lemma kindList_addConstraint s c k : kindList k (addConstraint s c) = kindList k s.
Proof. destruct k; reflexivity. Qed.
Lemma kindList_removeConstraint s c k : kindList k (removeConstraint s c) = kindList k s.
Proof. destruct k; reflexivity. Qed.
Lemma addTo_kind s c ks k : NoDup ks ->
  kindList k (addToSolver s c ks) = if in_dec ckind_eq_dec k ks then kindList k s ++ [c] else kindList k s.
Proof. intros H. unfold addToSolver. rewrite addKinds_kind by auto. rewrite kindList_addConstraint. reflexivity. Qed.
Lemma addTo_constr s c ks : qConstr (addToSolver s c ks) = if mem c (qConstr s) then qConstr s else qConstr s ++ [c].
Proof. unfold addToSolver. destruct (addKinds_proj ks (addConstraint s c) c) as (-> & _). reflexivity. Qed.

Lemma eraseFirst_app_in c l l' : In c l -> eraseFirst c (l ++ l') = eraseFirst c l ++ l'.
Proof.
  induction l as [|x l IH]; intros H; [destruct H|]. simpl. destruct (Nat.eqb x c) eqn:E; [reflexivity|].
  simpl. rewrite IH; [reflexivity|]. destruct H as [->|H]; [rewrite Nat.eqb_refl in E; discriminate|auto].
Qed.
Lemma eraseFirst_app_out c l l' : ~ In c l -> eraseFirst c (l ++ l') = l ++ eraseFirst c l'.
Proof.
  induction l as [|x l IH]; intros H; [reflexivity|]. simpl in *.
  destruct (Nat.eqb x c) eqn:E; [apply Nat.eqb_eq in E; tauto|]. rewrite IH by tauto. reflexivity.
Qed.

Lemma round_trip_lemma s c ks :
  NoDup ks -> ~ In c (qConstr s) -> (forall k, In k ks -> ~ In c (kindList k s)) ->
  exists s', removeFromSolver (addToSolver s c ks) c ks = Ok s' /\
    qConstr s' = qConstr s /\ (forall k, kindList k s' = kindList k s) /\ qTasks s' = qTasks s.
Proof.
  intros HN Hc Hk. unfold removeFromSolver.
  destruct (removeKinds_kind ks (removeConstraint (addToSolver s c ks) c) c HN) as (s' & E & K).
  { intros k Hin. rewrite kindList_removeConstraint, addTo_kind by auto.
    destruct (in_dec ckind_eq_dec k ks); [|contradiction]. apply in_or_app; right; left; auto. }
  exists s'. split; [auto|]. destruct (removeKinds_proj _ _ _ _ E) as (A1 & A2 & _).
  split; [|split].
  - rewrite A1. simpl. rewrite addTo_constr.
    replace (mem c (qConstr s)) with false by (symmetry; apply mem_false; auto).
    replace (mem c (qConstr s ++ [c])) with true by (symmetry; apply mem_In, in_or_app; right; left; auto).
    rewrite eraseFirst_app_out by auto. simpl. rewrite Nat.eqb_refl. apply app_nil_r.
  - intros k. rewrite K, kindList_removeConstraint, addTo_kind by auto.
    destruct (in_dec ckind_eq_dec k ks) as [I|I]; [|auto].
    rewrite eraseFirst_app_out by (apply Hk; auto). simpl. rewrite Nat.eqb_refl. apply app_nil_r.
  - rewrite A2. simpl. unfold addToSolver. destruct (addKinds_proj ks (addConstraint s c) c) as (_ & -> & _). reflexivity.
Qed.

Lemma double_add_lemma s c ks :
  NoDup ks -> NoDup (qConstr s) -> ~ In c (qConstr s) -> (forall k, In k ks -> ~ In c (kindList k s)) ->
  exists s', removeFromSolver (addToSolver (addToSolver s c ks) c ks) c ks = Ok s' /\
    ~ In c (qConstr s') /\ forall k, In k ks -> In c (kindList k s').
Proof.
  intros HN HD Hc Hk. unfold removeFromSolver.
  destruct (removeKinds_kind ks (removeConstraint (addToSolver (addToSolver s c ks) c ks) c) c HN) as (s' & E & K).
  { intros k Hin. rewrite kindList_removeConstraint, addTo_kind by auto.
    destruct (in_dec ckind_eq_dec k ks); [|contradiction]. apply in_or_app; right; left; auto. }
  exists s'. split; [auto|]. destruct (removeKinds_proj _ _ _ _ E) as (A1 & _).
  assert (M1 : mem c (qConstr s) = false) by (apply mem_false; auto).
  assert (M2 : mem c (qConstr s ++ [c]) = true) by (apply mem_In, in_or_app; right; left; auto).
  split.
  - rewrite A1. simpl. rewrite !addTo_constr, M1, M2, M2.
    rewrite eraseFirst_app_out by auto. simpl. rewrite Nat.eqb_refl, app_nil_r. auto.
  - intros k Hin. rewrite K, kindList_removeConstraint, !addTo_kind by auto.
    destruct (in_dec ckind_eq_dec k ks) as [I|I]; [|contradiction].
    rewrite <- app_assoc, eraseFirst_app_out by (apply Hk; auto). simpl. rewrite Nat.eqb_refl.
    apply in_or_app; right; left; auto.
Qed.

Lemma remove_absent_lemma s c k ks :
  ~ In c (kindList k s) -> removeFromSolver s c (k :: ks) = UB.
Proof.
  intros H. unfold removeFromSolver. cbn [fold_left bind].
  replace (removeKind (removeConstraint s c) c k) with (@UB qpSolver).
  - apply fold_bind_not_ok. congruence.
  - apply mem_false in H. destruct k; simpl in *; unfold eraseUnchecked; rewrite H; reflexivity.
Qed.

(** ** Solving without dependencies with the example solver *)
Lemma diag_backend b ts n Q C :
  bkDeps b = [] -> bkN b = n -> fillQC ts n (mzero n n) (vfill n 0) = Ok (Q, C) -> diagPos Q = true ->
  backendSolve diagSolver b (mkReg ts [] [] [] []) = Ok (true, diagMin Q C).
Proof.
  intros Hd Hn HQ HP. unfold backendSolve.
  assert (FB : freeBox (vfill n NInf) (vfill n PInf) = true) by (apply freeBox_spec; intros; split; reflexivity).
  destruct (bkKind b).
  - unfold qldMatrix. rewrite Hd, Hn. cbn [rgEq rgIneq rgGen rgBound rgTasks fillEqS fillInEqS fillGenInEqS fillBound bind].
    rewrite HQ. cbn [bind]. unfold mblock, vseg. simpl. rewrite !Nat.leb_refl. cbn [bind].
    unfold solveS; simpl. rewrite FB, HP. reflexivity.
  - unfold lssolMatrix. rewrite Hd, Hn. cbn [rgEq rgIneq rgGen rgBound rgTasks fillEqG fillInEqG fillGenInEqG fillBound bind].
    rewrite HQ. cbn [bind]. unfold mblock, vseg. simpl. rewrite !Nat.leb_refl. cbn [bind].
    unfold solveG; simpl. rewrite FB, HP. reflexivity.
Qed.

(** Two variables; the task pulls both to 1. *)
Definition pullTask (n : nat) : task := mkTask 1 (0, 0)%nat (mkMat n n (fun i j => if Nat.eqb i j then 1 else 0)) (mkVec n (fun _ => -1)).
Lemma pull_qc n : exists Q C, fillQC [pullTask n] n (mzero n n) (vfill n 0) = Ok (Q, C) /\ diagPos Q = true /\
  forall i, (i < n)%nat -> vget (diagMin Q C) i = 1.
Proof.
  assert (W : Forall (wfTask n) [pullTask n]) by (repeat constructor; simpl; lia).
  destruct (qc_defined_lemma _ _ W) as (Q & C & E). exists Q, C. split; [auto|].
  assert (EN : forall i j, (i < n)%nat -> (j < n)%nat -> mget Q i j = if Nat.eqb i j then 1 else 0).
  { intros i j Hi Hj. rewrite (entries_lemma _ _ _ _ i j E Hi Hj). unfold taskEntry; simpl.
    replace (inr 0 n i) with true by (symmetry; apply inr_true; lia).
    replace (inr 0 n j) with true by (symmetry; apply inr_true; lia). simpl. rewrite !Nat.sub_0_r, Nat.eqb_refl.
    destruct (Nat.eqb i j); [|ring]. destruct (Rlt_dec _ _) as [L|L]; [|ring].
    exfalso. rewrite Rmult_1_l, Rplus_0_r, Rabs_R1 in L. lra. }
  destruct (objective_lemma _ _ _ _ E) as (R1 & R2 & R3 & K).
  split.
  - apply diagPos_spec. rewrite R1. intros i Hi. rewrite EN, Nat.eqb_refl by auto. split; [lra|].
    intros j Hj Hne. rewrite EN by auto. apply Nat.eqb_neq in Hne. rewrite Hne. reflexivity.
  - intros i Hi. simpl. rewrite EN, Nat.eqb_refl by auto.
    assert (HC : vget C i = -1).
    { clear -E Hi. unfold fillQC in E. binds E. destruct a as [Q1 C1]. binds E. inversion E; subst.
      cbn [fillTasks] in E0. binds E0. inversion E0; subst. simpl in *.
      match goal with K : vadd_seg _ _ _ = Ok _ |- _ => apply vadd_seg_Ok in K as (_ & V & W) end. rewrite W. simpl.
      replace (inr 0 n i) with true by (symmetry; apply inr_true; lia). ring. }
    rewrite HC. field.
Qed.

(** Robot with two joints, the second one mimics the first one with factor -2. *)
Definition mimicMb : multibody := mkMB [ mkJoint "a" 1 1 None; mkJoint "b" 1 1 (Some ("a", -2)) ].
Definition pullHeap (n : nat) : heap :=
  mkHeap (fun _ => pullTask n) (fun _ => mkEq 0 0 (mzero 0 0) (vfill 0 0)) (fun _ => mkIneq 0 0 (mzero 0 0) (vfill 0 PInf))
         (fun _ => mkGen 0 0 (mzero 0 0) (vfill 0 NInf) (vfill 0 PInf)) (fun _ => mkBound 0 (vfill 0 NInf) (vfill 0 PInf)).

Lemma mimicMb_wf : wfMimic mimicMb.
Proof.
  split; [repeat constructor; simpl; intuition discriminate|].
  intros j nm m [<-|[<-|[]]]; simpl; intros H; inversion H; subst.
  split; [lia|]. eexists. split; [left; reflexivity|]. simpl. auto.
Qed.
Lemma mimicMb_mimic : mimicOf mimicMb 0 1 (-2).
Proof. eexists _, _. split; [reflexivity|]. split; reflexivity. Qed.

Lemma switch_refuted_lemma :
  exists ops s x, history true (fun _ => []) ops = Ok s /\ Forall usableMimics ops /\
    ops = [OpAddTask 0; OpNrVars [mimicMb] [] []; OpSetSolver "QLD"] /\
    wfMimic mimicMb /\ nonzeroMimics [mimicMb] /\ contract diagSolver /\
    solveNoMbcUpdate diagSolver s (pullHeap 2) = Ok (true, x) /\ ~ mimicked [mimicMb] (qData s) (vget x).
Proof.
  destruct (pull_qc 2) as (Q & C & E & P & V).
  eexists _, _, (diagMin Q C). split; [|split; [|split; [reflexivity|split; [exact mimicMb_wf|split; [|split; [exact diagSolver_contract|split]]]]]].
  - unfold history. cbn [newQPSolver]. vm_compute. reflexivity.
  - constructor; [exact I|]. constructor; [constructor; [exact mimicMb_wf|constructor]|]. constructor; [exact I|constructor].
  - intros mb il ir m [<-|[]] (jl & jr & A & B & D).
    destruct ir as [|[|ir]]; simpl in B; [inversion B; subst; discriminate| |destruct ir; discriminate].
    inversion B; subst. inversion D; subst. lra.
  - unfold solveNoMbcUpdate. eapply diag_backend; [reflexivity|reflexivity| |exact P]. exact E.
  - intros M. specialize (M 0%nat mimicMb 0%nat 1%nat (-2) 0%nat eq_refl mimicMb_mimic eq_refl).
    unfold dofBefore in M; simpl in M.
    pose proof (V 0%nat ltac:(lia)) as V0. pose proof (V 1%nat ltac:(lia)) as V1. simpl in V0, V1.
    simpl in M. rewrite V0, V1 in M. lra.
Qed.

(** Without mimic joints the back end may be changed at any time. *)

Lemma noMimics_wf mbs : noMimics mbs -> Forall (fun mb => NoDup (map jname (joints mb))) mbs -> Forall wfMimic mbs.
Proof.
  intros H HN. rewrite Forall_forall in *. intros mb Hin. split; [apply HN; auto|].
  intros j nm m Hj E. rewrite (H mb j Hin Hj) in E. discriminate.
Qed.
Lemma mimicDeps_none mb js : (forall j, In j js -> jmimic j = None) -> forall b, mimicDeps mb b js = Ok [].
Proof.
  induction js as [|j js IH]; intros H b; [reflexivity|]. simpl. rewrite (H j (or_introl eq_refl)).
  apply IH. intros; apply H; right; auto.
Qed.
Lemma robotLoop_none mbs : noMimics mbs -> forall r cum rl, robotLoop mbs r cum = Ok rl -> rlDeps rl = [].
Proof.
  induction mbs as [|mb mbs IH]; intros H r cum rl E; simpl in E; [inversion E; reflexivity|].
  apply bind_Ok in E as (ds & E1 & E). apply bind_Ok in E as (rl' & E2 & E). inversion E; subst; simpl.
  assert (ds = []).
  { destruct (0 <? nrDof mb)%nat; [|inversion E1; auto].
    rewrite mimicDeps_none in E1; [inversion E1; auto|]. intros j Hj. apply (H mb j (or_introl eq_refl) Hj). }
  subst. simpl. eapply IH; eauto. intros mb' j H1 H2. apply (H mb' j (or_intror H1) H2).
Qed.
Lemma nrVarsData_none mbs uni bi d deps : noMimics mbs -> nrVarsData mbs uni bi = Ok (d, deps) -> deps = [].
Proof.
  intros H E. unfold nrVarsData in E. apply bind_Ok in E as (rl & E1 & E). apply bind_Ok in E as ([[lu bu] cu] & E2 & E).
  apply bind_Ok in E as ([[lb bb] cb] & E3 & E). inversion E; subst. eapply robotLoop_none; eauto.
Qed.

Lemma switches_dec o : ~ resizes o -> (exists nm, o = OpSetSolver nm) \/ ~ resizesOrSwitches o.
Proof. destruct o; simpl; eauto; tauto. Qed.
Lemma run_keeps_none lssol kinds post : forall s s',
  run lssol kinds s post = Ok s' -> Forall (fun o => ~ resizes o) post ->
  ready (sdNrVars (qData s)) [] (qBack s) ->
  qData s' = qData s /\ ready (sdNrVars (qData s)) [] (qBack s').
Proof.
  induction post as [|o post IH]; intros s s' H Hc Hr; [simpl in H; inversion H; subst; auto|].
  change (o :: post) with ([o] ++ post) in H. rewrite run_app in H. apply bind_Ok in H as (s1 & E & H). inversion Hc; subst.
  assert (K : qData s1 = qData s /\ ready (sdNrVars (qData s)) [] (qBack s1)).
  { destruct (switches_dec o H2) as [(nm & ->)|R].
    - cbn [run step] in E. apply bind_Ok in E as (s2 & E & E'). inversion E'; subst s2.
      unfold setSolver in E. apply bind_Ok in E as (b & Eb & E). inversion E; subst; simpl.
      split; [reflexivity|]. split; [reflexivity|]. left. split; [auto|].
      simpl. apply createQPSolver_spec in Eb as [Eb _]. exact Eb.
    - apply (run_keeps lssol kinds [o] s s1 [] E); auto. }
  destruct K as [K1 K2]. rewrite <- K1 in K2. destruct (IH s1 s' H H3 K2) as [A B].
  rewrite A, K1 in *. auto.
Qed.

Lemma switch_lemma lssol kinds pre mbs uni bi post s num h x T (ms ms' : list (mbconfig T)) :
  history lssol kinds (pre ++ OpNrVars mbs uni bi :: post) = Ok s ->
  noMimics mbs -> Forall (fun o => ~ resizes o) post ->
  contract num ->
  Forall wfBound (rgBound (collect s h)) -> disjointBounds (rgBound (collect s h)) ->
  solve num s h ms = Ok (true, x, ms') ->
  let n := sdNrVars (qData s) in let g := collect s h in
  vlen x = n /\ feasible n g (vget x) /\
  forall z, feasible n g z -> objective n (rgTasks g) (vget x) <= objective n (rgTasks g) z.
Proof.
  intros H NM Hc C WB DB HS n g. unfold history in H. apply bind_Ok in H as (s0 & E0 & H). rewrite run_app in H.
  apply bind_Ok in H as (s1 & E1 & H). cbn [run step] in H. apply bind_Ok in H as (s2 & E2 & H).
  pose proof E2 as E2'. unfold nrVars in E2'. apply bind_Ok in E2' as ([d deps] & F1 & E2').
  apply bind_Ok in E2' as (b & F2 & E2'). inversion E2'; subst s2; clear E2'.
  pose proof (nrVarsData_none _ _ _ _ _ NM F1). subst deps.
  destruct (run_keeps_none lssol kinds post _ s H Hc) as [A B].
  { simpl. split; [reflexivity|]. left. split; [auto|]. unfold setDependencies in F2. binds F2. destruct a0 as [[f r] t]. binds F2.
    inversion F2; subst; reflexivity. }
  rewrite <- A in B.
  unfold solve in HS. apply bind_Ok in HS as ([ok x'] & E & HS). apply bind_Ok in HS as (ms'' & E' & HS).
  inversion HS; subst ok x' ms''; clear HS.
  destruct (backend_optimal num (qBack s) g n [] x C B E WB DB) as (A1 & A2 & A3 & A4); [intros l r []|].
  split; [auto|]. split; [auto|]. intros z Z1. apply A4; auto. intros l r m [].
Qed.

(** ** Overrun *)
Definition oneLineHeap : heap :=
  mkHeap (fun _ => pullTask 1) (fun _ => mkEq 1 1 (mkMat 1 1 (fun _ _ => 1)) (vfill 1 0))
         (fun _ => mkIneq 0 0 (mzero 0 0) (vfill 0 PInf))
         (fun _ => mkGen 0 0 (mzero 0 0) (vfill 0 NInf) (vfill 0 PInf)) (fun _ => mkBound 0 (vfill 0 NInf) (vfill 0 PInf)).
Definition oneMb : multibody := mkMB [ mkJoint "p" 1 1 None ].
Lemma overrun_lemma lssol num :
  exists s, history lssol (fun _ => [KEq]) [OpNrVars [oneMb] [] []; OpUpdateConstrSize oneLineHeap; OpAddTo 0] = Ok s /\
    wfReg (sdNrVars (qData s)) (collect s oneLineHeap) /\
    solveNoMbcUpdate num s oneLineHeap = UB.
Proof.
  destruct lssol; eexists; (split; [vm_compute; reflexivity|]); (split; [|reflexivity]);
    (repeat split; try constructor; try constructor; simpl; unfold wfTask, wfEq, wfIneq, wfGen, wfBoundIn; simpl; lia).
Qed.

(** ** Error lines *)
Lemma lineReport_past g i : (sumnat (map eqNr (rgEq g)) + sumnat (map iqNr (rgIneq g)) + sumnat (map giNr (rgGen g)) <= i)%nat ->
  lineReport g i = [].
Proof.
  intros H. unfold lineReport.
  pose proof (constrErrorMsg_spec (map eqNr (rgEq g)) 0 i 0) as S1.
  destruct (constrErrorMsg (map eqNr (rgEq g)) 0 i 0 0) as [[r1 s1] e1]. destruct S1 as [<- [(A & _)|(_ & -> & ->)]]; [lia|].
  pose proof (constrErrorMsg_spec (map iqNr (rgIneq g)) 0 i (0 + sumnat (map eqNr (rgEq g)))) as S2.
  destruct (constrErrorMsg (map iqNr (rgIneq g)) 0 i _ _) as [[r2 s2] e2]. destruct S2 as [<- [(A & _)|(_ & -> & ->)]]; [lia|].
  pose proof (constrErrorMsg_spec (map giNr (rgGen g)) 0 i (0 + sumnat (map eqNr (rgEq g)) + sumnat (map iqNr (rgIneq g)))) as S3.
  destruct (constrErrorMsg (map giNr (rgGen g)) 0 i _ _) as [[r3 s3] e3]. destruct S3 as [<- [(A & _)|(_ & -> & ->)]]; [lia|].
  reflexivity.
Qed.

Lemma lssol_rows b g p : lssolMatrix b g = Ok p ->
  mrows (pgA p) = (sumnat (map eqNr (rgEq g)) + sumnat (map iqNr (rgIneq g)) + sumnat (map giNr (rgGen g)))%nat.
Proof.
  intros H. unfold lssolMatrix in H. set (n := bkN b) in *.
  set (rows := (bkEq b + bkIn b + bkGen b)%nat) in *.
  apply bind_Ok in H as ([[[n1 A1] L1] U1] & E1 & H).
  apply bind_Ok in H as ([[[n2 A2] L2] U2] & E2 & H).
  apply bind_Ok in H as ([[[n3 AF] AL] AU] & E3 & H).
  apply bind_Ok in H as ([XLF XUF] & E4 & H).
  apply bind_Ok in H as ([QF CF] & E5 & H).
  assert (ES : fillGenInEqG (stackG g) n 0 (mzero rows n) (vfill rows (Fin 0)) (vfill rows (Fin 0)) = Ok (n3, AF, AL, AU)).
  { rewrite <- fill3_stack. rewrite E1. cbn [bind]. rewrite E2. cbn [bind]. exact E3. }
  destruct (fillGen_spec _ _ _ _ _ _ _ _ _ _ ES eq_refl) as (N & _). rewrite stackG_nr in N.
  assert (mrows (pgA p) = n3); [|lia].
  destruct (bkDeps b); binds H.
  - inversion H; subst; simpl. apply mblock_Ok in E as (_ & _ & -> & _). auto.
  - destruct a0 as [XL XU]. binds H. destruct a0 as [Q C]. binds H. inversion H; subst; simpl.
    match goal with K : mblock _ _ _ _ _ = Ok _ |- _ => apply mblock_Ok in K as (_ & _ & -> & _) end. auto.
Qed.

Lemma backend_lift num b g n deps p ok x : ready n deps b -> bkKind b = LSSOL -> lssolMatrix b g = Ok p ->
  backendSolve num b g = Ok (ok, x) ->
  fst (numLssol num p) = ok /\ forall j, vget x j = lift b (vget (snd (numLssol num p))) j.
Proof.
  intros Hr Hk Hp H. unfold backendSolve in H. rewrite Hk, Hp in H. cbn [bind] in H.
  destruct (numLssol num p) as [ok' y]. unfold lift. simpl. destruct (bkDeps b); [inversion H; subst; auto|].
  apply bind_Ok in H as (x' & E & H). inversion H; subst. split; [auto|].
  intros j. unfold expandResult, mvec in E. destruct (_ =? _)%nat; inversion E; subst. reflexivity.
Qed.

Lemma error_line_lemma lssol kinds ops s num h p ok x i :
  history lssol kinds ops = Ok s -> Forall usableMimics ops -> bkKind (qBack s) = LSSOL ->
  lssolMatrix (qBack s) (collect s h) = Ok p -> solveNoMbcUpdate num s h = Ok (ok, x) ->
  ((i < mrows (pgA p))%nat ->
   exists r coef lo up, lineReport (collect s h) i = [r] /\
     lineOf (collect s h) r (sdNrVars (qData s)) = Some (coef, lo, up) /\
     vget (pgAL p) i = lo /\ vget (pgAU p) i = up /\
     rowdot (pgA p) i (vget (snd (numLssol num p))) = sumn (sdNrVars (qData s)) (fun j => coef j * vget x j)) /\
  ((mrows (pgA p) <= i)%nat -> lineReport (collect s h) i = []).
Proof.
  intros H W Hk Hp Hs. destruct (history_ready _ _ _ _ H W) as (deps & Hr).
  destruct (backend_lift num _ _ _ _ _ _ _ Hr Hk Hp Hs) as (_ & L). split; intros Hi.
  - destruct (lineReport_spec _ _ _ _ _ _ Hp Hr Hi) as (r & coef & lo & up & A & B & D & E & F).
    exists r, coef, lo, up. split; [auto|]. split; [auto|]. split; [auto|]. split; [auto|].
    rewrite F. apply sumn_ext. intros j _. rewrite L. reflexivity.
  - apply lineReport_past. rewrite <- (lssol_rows _ _ _ Hp). auto.
Qed.

(** Members XL_, XU_, Q_ of the back end stay empty as long as no robot has a mimic joint. *)
Lemma step_red lssol kinds s o s' : step lssol kinds s o = Ok s' -> noMimicOp o ->
  bkRed (qBack s) = 0%nat /\ bkDeps (qBack s) = [] -> bkRed (qBack s') = 0%nat /\ bkDeps (qBack s') = [].
Proof.
  intros H W (R & D). destruct o; cbn [step] in H; try (inversion H; subst; simpl; auto; fail).
  - inversion H; subst. unfold addToSolver. destruct (addKinds_proj (kinds c) (addConstraint s c) c) as (_ & _ & _ & -> & _). auto.
  - apply removeKinds_proj in H as (_ & _ & _ & -> & _). auto.
  - inversion H; subst; simpl. rewrite D. auto.
  - unfold nrVars in H. apply bind_Ok in H as ([d deps] & F1 & H). apply bind_Ok in H as (b & F2 & H). inversion H; subst; simpl.
    pose proof (nrVarsData_none _ _ _ _ _ W F1). subst deps.
    unfold setDependencies in F2. binds F2. destruct a0 as [[f r] t]. binds F2. inversion F2; subst; simpl. auto.
  - unfold setSolver in H. apply bind_Ok in H as (b & F & H). inversion H; subst; simpl.
    unfold createQPSolver in F. destruct (String.eqb _ _); [inversion F; auto|]. destruct (_ && _); inversion F; auto.
Qed.
Lemma history_red lssol kinds ops s : history lssol kinds ops = Ok s -> Forall noMimicOp ops ->
  bkRed (qBack s) = 0%nat /\ bkDeps (qBack s) = [].
Proof.
  intros H W. unfold history in H. apply bind_Ok in H as (s0 & E0 & H).
  assert (B : bkRed (qBack s0) = 0%nat /\ bkDeps (qBack s0) = []).
  { unfold newQPSolver in E0. apply bind_Ok in E0 as (b & F & E0). inversion E0; subst; simpl.
    unfold createQPSolver in F. destruct (String.eqb _ _); [inversion F; auto|]. destruct (_ && _); inversion F; auto. }
  revert s0 E0 B H. induction ops as [|o ops IH]; intros s0 E0 B H; simpl in H; [inversion H; subst; auto|].
  apply bind_Ok in H as (s1 & E & H). inversion W; subst.
  assert (B1 : bkRed (qBack s1) = 0%nat /\ bkDeps (qBack s1) = []) by (eapply step_red; eauto).
  clear E0. revert B1 H. generalize s1. clear -IH H3. intros s1 B1 H.
  revert s1 B1 H. clear IH. induction ops as [|o ops IH]; intros s1 B1 H; simpl in H; [inversion H; subst; auto|].
  apply bind_Ok in H as (s2 & E & H). inversion H3; subst. apply (IH H4 s2); auto. eapply step_red; eauto.
Qed.

Lemma error_msg_lemma lssol kinds ops s g nr istate :
  history lssol kinds ops = Ok s -> Forall noMimicOp ops -> bkKind (qBack s) = LSSOL ->
  errorMsg (qBack s) g nr istate = flat_map (fun i => if (istate i <? 0)%Z then lineReport g i else []) (seq 0 nr).
Proof.
  intros H W Hk. unfold errorMsg, errNrVars. rewrite Hk. destruct (history_red _ _ _ _ H W) as (-> & _). simpl.
  apply flat_map_ext. intros i. rewrite Nat.add_0_r. reflexivity.
Qed.

(** ** Joint descriptions *)
Definition dofSum (js : list joint) : nat := sumnat (map jdof js).
Lemma findLoop_spec js : forall j start line, js <> [] -> (start <= line)%nat -> (line <= start + dofSum js)%nat ->
  exists k, findLoop js j start line = Some (j + k)%nat /\ (k < length js)%nat /\
    (line <= start + dofSum (firstn (S k) js))%nat /\ (k = 0%nat \/ (start + dofSum (firstn k js) < line)%nat).
Proof.
  induction js as [|jt js IH]; intros j start line Hne H1 H2; [congruence|]. simpl findLoop.
  replace (start <=? line)%nat with true by (symmetry; apply Nat.leb_le; auto). simpl andb.
  destruct (line <=? start + jdof jt)%nat eqn:E.
  - apply Nat.leb_le in E. exists 0%nat. rewrite Nat.add_0_r. split; [auto|]. simpl. unfold dofSum; simpl. split; [lia|]. split; [lia|auto].
  - apply Nat.leb_gt in E. unfold dofSum in *. simpl in H2. destruct js as [|j2 js]; [simpl in H2; lia|].
    destruct (IH (S j) (start + jdof jt)%nat line) as (k & A & B & C & D); [congruence|lia|lia|].
    exists (S k). split; [rewrite A; f_equal; lia|]. split; [simpl in *; lia|]. split.
    + change (firstn (S (S k)) (jt :: j2 :: js)) with (jt :: firstn (S k) (j2 :: js)). simpl in *. lia.
    + right. change (firstn (S k) (jt :: j2 :: js)) with (jt :: firstn k (j2 :: js)). destruct D as [->|D]; simpl in *; lia.
Qed.
Lemma findLoop_before js : forall j start line, (line < start)%nat -> findLoop js j start line = None.
Proof.
  induction js as [|jt js IH]; intros j start line H; [reflexivity|]. simpl.
  replace (start <=? line)%nat with false by (symmetry; apply Nat.leb_gt; auto). simpl. apply IH. lia.
Qed.

Lemma dofBefore_mono mb a b : (a <= b)%nat -> (dofBefore mb a <= dofBefore mb b)%nat.
Proof.
  intros H. unfold dofBefore. replace b with (a + (b - a))%nat by lia. clear H. generalize (b - a)%nat as k. intros k.
  revert a. generalize (joints mb) as l. induction l as [|x l IH]; intros a.
  - rewrite !firstn_nil. lia.
  - destruct a as [|a]; [simpl; lia|]. simpl. specialize (IH a). lia.
Qed.

Lemma dofBefore_all mb j : (length (joints mb) <= j)%nat -> dofBefore mb j = dofSum (joints mb).
Proof. intros H. unfold dofBefore. rewrite firstn_all2 by auto. reflexivity. Qed.

Lemma desc_base_lemma mb j d : ownsDof mb j d ->
  exists j', findJointFromVector mb d true = Some j' /\ (j' < length (joints mb))%nat /\
    (j' = j <-> (j = 0%nat \/ (dofBefore mb j < d)%nat)) /\ (j' <= j)%nat.
Proof.
  intros (Hj & Hd). unfold findJointFromVector. simpl skipn.
  destruct (findLoop_spec (joints mb) 0 0 d) as (k & A & B & C & D).
  - intros E. rewrite E in Hj. simpl in Hj. lia.
  - lia.
  - pose proof (dofBefore_mono mb (S j) (length (joints mb)) ltac:(lia)) as M. rewrite (dofBefore_all mb (length (joints mb))) in M by auto. simpl. lia.
  - exists k. split; [exact A|]. split; [auto|]. simpl in C, D. fold (dofBefore mb k) in D.
    change (d <= dofBefore mb (S k))%nat in C. change (k = 0%nat \/ (dofBefore mb k < d)%nat) in D.
    assert (K : (k <= j)%nat).
    { destruct (Nat.le_gt_cases k j); auto. pose proof (dofBefore_mono mb (S j) k ltac:(lia)). lia. }
    split; [|auto]. split.
    + intros ->. auto.
    + intros H. destruct (Nat.eq_dec k j) as [->|Hne]; [auto|]. exfalso.
      pose proof (dofBefore_mono mb (S k) j ltac:(lia)). lia.
Qed.

Lemma desc_nobase_lemma mb j d : ownsDof mb j d -> dofBefore mb 1 = 0%nat ->
  (findJointFromVector mb d false = Some j <->
   ((dofBefore mb j < d)%nat /\ (j = 1%nat \/ (S (dofBefore mb j) < d)%nat))).
Proof.
  intros (Hj & Hd) H0. unfold findJointFromVector.
  assert (J1 : (1 <= j)%nat). { destruct j; [|lia]. rewrite H0 in Hd. lia. }
  destruct (joints mb) as [|j0 js] eqn:EJ; [simpl in Hj; lia|]. simpl skipn.
  assert (D0 : jdof j0 = 0%nat). { unfold dofBefore in H0. rewrite EJ in H0. simpl in H0. lia. }
  assert (F : forall k, dofSum (firstn k js) = dofBefore mb (S k)).
  { intros k. unfold dofBefore, dofSum. rewrite EJ. simpl. lia. }
  simpl in Hj.
  destruct (Nat.eq_dec d 0) as [->|Hd0].
  { rewrite findLoop_before by lia. split; [discriminate|]. intros [? _]. lia. }
  destruct (findLoop_spec js 1 1 d) as (k & A & B & C & D).
  - intros E. rewrite E in Hj. simpl in Hj. lia.
  - lia.
  - assert (E : dofSum js = dofBefore mb (S (length js))) by (rewrite <- F, firstn_all; reflexivity).
    pose proof (dofBefore_mono mb (S j) (S (length js)) ltac:(lia)). lia.
  - rewrite A. rewrite F in C, D. split.
    + intros E. inversion E as [E']. subst j. split.
      * destruct D as [->|D]; [rewrite H0; lia|]. simpl in *. lia.
      * destruct D as [->|D]; [left; lia|right]. simpl in *. lia.
    + intros [E1 E2]. f_equal. destruct (Nat.lt_trichotomy (S k) j) as [L|[L|L]]; [|lia|].
      * exfalso. pose proof (dofBefore_mono mb (S (S k)) j ltac:(lia)). destruct E2 as [E2|E2]; [lia|].
        lia.
      * exfalso. destruct D as [->|D]; [lia|]. pose proof (dofBefore_mono mb (S j) (S k) ltac:(lia)). lia.
Qed.

Lemma firstn_S_nth {A} (l : list A) j a : nth_error l j = Some a -> firstn (S j) l = firstn j l ++ [a].
Proof.
  revert j; induction l as [|x l IH]; intros [|j] H; simpl in H; try discriminate; [inversion H; reflexivity|].
  simpl. rewrite <- (IH j H). reflexivity.
Qed.
Lemma desc_1dof_lemma mb j d : ownsDof mb j d -> dofBefore mb 1 = 0%nat -> (forall jt, In jt (joints mb) -> (jdof jt <= 1)%nat) ->
  findJointFromVector mb d false <> Some j.
Proof.
  intros H H0 H1 E. apply (proj1 (desc_nobase_lemma mb j d H H0)) in E as [E _]. destruct H as (Hj & Hd).
  destruct (nth_error (joints mb) j) as [jt|] eqn:En; [|apply nth_error_None in En; lia].
  assert (dofBefore mb (S j) = (dofBefore mb j + jdof jt)%nat).
  { unfold dofBefore. rewrite (firstn_S_nth _ _ _ En). rewrite map_app, sumnat_app. simpl. lia. }
  specialize (H1 jt (nth_error_In _ _ En)). lia.
Qed.
