(** Concrete control cycles. *)
From Verif Require Import TorqueCycle TrySolver SolverFacts LimitsWitness.
Open Scope string_scope.
Open Scope list_scope.
Open Scope R_scope.
Local Arguments sumn : simpl never.

(** The task pulls variable i to [t i]. *)
Definition pullAt (n : nat) (t : nat -> R) : task := mkTask 1 (0, 0)%nat (mkMat n n (fun i j => if Nat.eqb i j then 1 else 0)) (mkVec n (fun i => - t i)).
Lemma pullAt_qc n t : exists Q C, fillQC [pullAt n t] n (mzero n n) (vfill n 0) = Ok (Q, C) /\ diagPos Q = true /\
  vlen (diagMin Q C) = n /\ forall i, (i < n)%nat -> vget (diagMin Q C) i = t i.
Proof.
  assert (W : Forall (wfTask n) [pullAt n t]) by (repeat constructor; simpl; lia).
  destruct (qc_defined_lemma _ _ W) as (Q & C & E). exists Q, C. split; [auto|].
  assert (EN : forall i j, (i < n)%nat -> (j < n)%nat -> mget Q i j = if Nat.eqb i j then 1 else 0).
  { intros i j Hi Hj. rewrite (entries_lemma _ _ _ _ i j E Hi Hj). unfold taskEntry; simpl.
    replace (inr 0 n i) with true by (symmetry; apply inr_true; lia).
    replace (inr 0 n j) with true by (symmetry; apply inr_true; lia). simpl. rewrite !Nat.sub_0_r, Nat.eqb_refl.
    destruct (Nat.eqb i j); [|ring]. destruct (Rlt_dec _ _) as [L|L]; [|ring].
    exfalso. rewrite Rmult_1_l, Rplus_0_r, Rabs_R1 in L. lra. }
  destruct (objective_lemma _ _ _ _ E) as (R1 & R2 & R3 & K).
  split; [|split; [exact R1|]].
  - apply diagPos_spec. rewrite R1. intros i Hi. rewrite EN, Nat.eqb_refl by auto. split; [lra|].
    intros j Hj Hne. rewrite EN by auto. apply Nat.eqb_neq in Hne. rewrite Hne. reflexivity.
  - intros i Hi. simpl. rewrite EN, Nat.eqb_refl by auto.
    assert (HC : vget C i = - t i).
    { clear -E Hi. unfold fillQC in E. binds E. destruct a as [Q1 C1]. binds E. inversion E; subst.
      cbn [fillTasks] in E0. binds E0. inversion E0; subst. simpl in *.
      match goal with K : vadd_seg _ _ _ = Ok _ |- _ => apply vadd_seg_Ok in K as (_ & V & W) end. rewrite W. simpl.
      replace (inr 0 n i) with true by (symmetry; apply inr_true; lia). rewrite Nat.sub_0_r. ring. }
    rewrite HC. field.
Qed.

(** Two robots in contact (four variables); constraint 0 bounds variables, constraint 1 bounds rows. *)
Definition cyKinds (c : nat) : list ckind := match c with 0%nat => [KBound] | _ => [KGen] end.
Definition cyHeap (t : nat -> R) (bd : FillModel.bound) (ge : geninequality) : heap :=
  mkHeap (fun _ => pullAt 4 t) (fun _ => mkEq 0 0 (mzero 0 0) (vfill 0 0)) (fun _ => mkIneq 0 0 (mzero 0 0) (vfill 0 PInf)) (fun _ => ge) (fun _ => bd).
Definition noBound : FillModel.bound := mkBound 0 (vfill 0 NInf) (vfill 0 PInf).
Definition twoRows : geninequality := mkGen 2 2 (mzero 2 4) (vfill 2 NInf) (vfill 2 PInf).
Definition cyPost (c : nat) : list op := [OpAddTask 0; OpAddTo c; OpUpdateConstrSize (cyHeap (fun _ => 0) noBound twoRows)].
Definition cySolver (c : nat) : qpSolver := match history true cyKinds ([] ++ OpNrVars wMbs [] gBi :: cyPost c) with Ok s => s | _ => mkQP [] [] [] [] [] [] initData 0 0 0 (newBackend QLD) end.
Lemma cyHistory c : history true cyKinds ([] ++ OpNrVars wMbs [] gBi :: cyPost c) = Ok (cySolver c).
Proof. destruct c; reflexivity. Qed.
Lemma cyKeep c : Forall (fun o => ~ resizesOrSwitches o) (cyPost c).
Proof. repeat constructor; cbn; tauto. Qed.
Lemma cyMimic : Forall wfMimic wMbs.
Proof.
  repeat (constructor; [split; [repeat constructor; cbn; intuition discriminate|intros j nm m Hj Hm; cbn in Hj; exfalso; intuition (subst; discriminate)]|]). constructor.
Qed.
Lemma cyNonzero : nonzeroMimics wMbs.
Proof.
  intros mb il ir m Hmb (jl & jr & _ & B & D). cbn in Hmb. destruct Hmb as [<-|[<-|[]]]; cbn in B; destruct ir as [|[|[|ir]]]; cbn in B; try discriminate; inversion B; subst jr; discriminate.
Qed.

(** The solver succeeds on the pulled point when it is feasible. *)
Lemma cySolves T (ms : list (mbconfig T)) c t bd ge :
  (forall x, (forall i, (i < 4)%nat -> x i = t i) -> feasible 4 (collect (cySolver c) (cyHeap t bd ge)) x) ->
  wfReg 4 (collect (cySolver c) (cyHeap t bd ge)) -> fits (qBack (cySolver c)) (collect (cySolver c) (cyHeap t bd ge)) ->
  Forall wfBound (rgBound (collect (cySolver c) (cyHeap t bd ge))) -> disjointBounds (rgBound (collect (cySolver c) (cyHeap t bd ge))) ->
  Forall2 (@fitsRobot T) wMbs ms ->
  exists x ms', solve trySolver (cySolver c) (cyHeap t bd ge) ms = Ok (true, x, ms') /\ vlen x = 4%nat /\ (forall i, (i < 4)%nat -> vget x i = t i) /\
    length ms' = length ms /\
    forall r m, nth_error ms r = Some m -> exists m' w, nth_error ms' r = Some m' /\
       alphaDVecAt gData x r = Ok w /\ concat (mbcAlphaD m') = vlist w /\
       map (@length R) (mbcAlphaD m') = map (@length R) (mbcAlphaD m) /\ mbcOther m' = mbcOther m.
Proof.
  intros HF W F WB DB FR. destruct (pullAt_qc 4 t) as (Q & C & E & P & L & V).
  assert (HD : qData (cySolver c) = gData) by (destruct c; reflexivity).
  assert (HT : rgTasks (collect (cySolver c) (cyHeap t bd ge)) = [pullAt 4 t]) by (destruct c; reflexivity).
  assert (HR : ready 4 [] (qBack (cySolver c))).
  { destruct (layout_after _ _ _ _ _ _ _ _ (cyHistory c) cyMimic (cyKeep c)) as (deps & LY & Hr & _). rewrite HD in LY, Hr.
    change (nrVarsData wMbs [] gBi) with (@Ok (solverData * list dep) (gData, [])) in LY. injection LY as <-. exact Hr. }
  assert (HB : bkDeps (qBack (cySolver c)) = []) by (destruct c; reflexivity).
  pose proof (try_backend (qBack (cySolver c)) (collect (cySolver c) (cyHeap t bd ge)) 4 Q C HR HB W F WB DB ltac:(rewrite HT; exact E) P (HF _ V)) as S.
  assert (VX : vlen (diagMin Q C) = sdNrVars (qData (cySolver c))) by (rewrite HD, L; reflexivity).
  destruct (write_lemma _ _ _ _ _ _ _ _ _ _ _ _ _ ms (cyHistory c) cyMimic (cyKeep c) (S : solveNoMbcUpdate trySolver (cySolver c) (cyHeap t bd ge) = _) VX FR) as (ms' & S1 & S2 & _ & S3).
  exists (diagMin Q C), ms'. split; [exact S1|]. split; [exact L|]. split; [exact V|]. split; [exact S2|]. rewrite HD in S3. exact (S3 eq_refl).
Qed.

(** A bound constraint on variable 2 met by the pulled point. *)
Lemma cyBound T (ms : list (mbconfig T)) t bd : bdBegin bd = 2%nat -> vlen (bdL bd) = 1%nat -> vlen (bdU bd) = 1%nat ->
  holdsBound t bd -> Forall2 (@fitsRobot T) wMbs ms ->
  Forall wfBound (rgBound (collect (cySolver 0) (cyHeap t bd twoRows))) /\ disjointBounds (rgBound (collect (cySolver 0) (cyHeap t bd twoRows))) /\
  exists x ms', solve trySolver (cySolver 0) (cyHeap t bd twoRows) ms = Ok (true, x, ms') /\ (forall i, (i < 4)%nat -> vget x i = t i).
Proof.
  intros B L U HB FR. set (g := collect (cySolver 0) (cyHeap t bd twoRows)).
  assert (EG : g = mkReg [pullAt 4 t] [] [] [] [bd]) by reflexivity.
  assert (WB : Forall wfBound (rgBound g)) by (rewrite EG; constructor; [unfold wfBound; congruence|constructor]).
  assert (DB : disjointBounds (rgBound g)).
  { rewrite EG. intros k1 k2 b1 b2 i E1 E2 _ _. destruct k1 as [|[|k1]], k2 as [|[|k2]]; cbn in E1, E2; try discriminate; reflexivity. }
  split; [exact WB|]. split; [exact DB|].
  destruct (cySolves T ms 0 t bd twoRows) as (x & ms' & S & _ & V & _).
  - intros x E. change (feasible 4 g x). rewrite EG. split; [repeat constructor|]. constructor; [|constructor].
    intros i. specialize (HB i). rewrite L, U, B in *. split; intros Hi; rewrite E by lia; apply HB; exact Hi.
  - change (wfReg 4 g). rewrite EG. repeat split; try constructor; try constructor; cbn; unfold wfTask, wfBoundIn; rewrite ?B, ?L, ?U; cbn; lia.
  - change (fits (qBack (cySolver 0)) g). rewrite EG. unfold fits. cbn. lia.
  - exact WB.
  - exact DB.
  - exact FR.
  - eauto.
Qed.

(** A caller that integrates the robots without spherical or free joints. *)
Fixpoint zipW {A B C} (f : A -> B -> C) (l : list A) (l' : list B) : list C :=
  match l, l' with a :: l1, b :: l2 => f a b :: zipW f l1 l2 | _, _ => [] end.
Lemma zipW_nth {A B C} (f : A -> B -> C) da db dc l : forall l' k, length l = length l' -> (k < length l)%nat -> nth k (zipW f l l') dc = f (nth k l da) (nth k l' db).
Proof. induction l as [|a l IH]; intros [|b l'] k E K; try discriminate; cbn in K; [lia|]. destruct k as [|k]; [reflexivity|]. cbn. apply IH; [injection E; auto|lia]. Qed.
Lemma zipW_length {A B C} (f : A -> B -> C) l : forall l', length l = length l' -> length (zipW f l l') = length l.
Proof. induction l as [|a l IH]; intros [|b l'] E; try discriminate; [reflexivity|]. cbn. f_equal. apply IH. injection E; auto. Qed.
Lemma zipW_lengths (f : R -> R -> R) l : forall l' js, map (@length R) l = js -> map (@length R) l' = js -> map (@length R) (zipW (zipW f) l l') = js.
Proof.
  induction l as [|a l IH]; intros [|b l'] js E E'; subst js; try discriminate; [reflexivity|]. cbn in *. injection E' as E1 E2.
  f_equal; [apply zipW_length; auto|apply IH; auto].
Qed.
Lemma zipW_at2 (f : R -> R -> R) l l' i k js : map (@length R) l = js -> map (@length R) l' = js -> (i < length js)%nat -> (k < nth i js 0)%nat ->
  at2 (zipW (zipW f) l l') i k 0 = f (at2 l i k 0) (at2 l' i k 0).
Proof.
  intros E E' I K. unfold at2. assert (L1 : length l = length js) by (subst js; rewrite map_length; reflexivity). assert (L2 : length l' = length js) by (rewrite <- E', map_length; reflexivity).
  rewrite (zipW_nth (zipW f) [] [] []) by lia.
  assert (N1 : length (nth i l []) = nth i js 0%nat) by (rewrite <- E; symmetry; exact (map_nth (@length R) l [] i)).
  assert (N2 : length (nth i l' []) = nth i js 0%nat) by (rewrite <- E'; symmetry; exact (map_nth (@length R) l' [] i)).
  apply (zipW_nth f 0 0 0); lia.
Qed.
Definition integr (dt th : R) (m : robotConf) : robotConf :=
  let v' := zipW (zipW (fun v a => v + dt * a)) (confV m) (mbcAlphaD m) in
  let mean := zipW (zipW (fun v w => (1 - th) * v + th * w)) (confV m) v' in
  mkMbc (mbcAlphaD m) (zipW (zipW (fun q w => q + dt * w)) (confQ m) mean, v').
Lemma integr_moved mb dt th m : flat mb -> cfgOk mb (cfgOf m) -> moved mb dt th m (integr dt th m).
Proof.
  intros FL (C1 & C2 & C3). cbn [cfgOf cfQ cfAlpha cfAlphaD] in *. unfold perDof in *.
  assert (C1' : map (@length R) (confQ m) = map jdof (joints mb)).
  { rewrite C1. clear -FL. unfold flat in FL. induction FL as [|j js A B IH]; [reflexivity|]. cbn. congruence. }
  pose proof (zipW_lengths (fun v a => v + dt * a) _ _ _ C2 C3) as LV.
  pose proof (zipW_lengths (fun v w => (1 - th) * v + th * w) _ _ _ C2 LV) as LM.
  pose proof (zipW_lengths (fun q w => q + dt * w) _ _ _ C1' LM) as LQ.
  split; [reflexivity|]. split.
  - split; [|split]; cbn [cfgOf cfQ cfAlpha cfAlphaD]; [|exact LV|exact C3]. rewrite <- C1, C1'. exact LQ.
  - intros i jt k HJ HP K.
    assert (I : (i < length (map jdof (joints mb)))%nat) by (rewrite map_length; apply nth_error_Some; congruence).
    assert (K' : (k < nth i (map jdof (joints mb)) 0)%nat).
    { rewrite (nth_indep _ 0%nat (jdof jt)) by exact I. rewrite (map_nth jdof). rewrite (nth_error_nth _ _ _ HJ). exact K. }
    unfold integr, confV, confQ. cbn [mbcOther fst snd]. split.
    + rewrite (zipW_at2 _ _ _ _ _ _ C2 C3 I K'). reflexivity.
    + rewrite (zipW_at2 _ _ _ _ _ _ C1' LM I K'), (zipW_at2 _ _ _ _ _ _ C2 LV I K'). reflexivity.
Qed.
Lemma integr_moves mbs dt th ms : Forall flat mbs -> confsOk mbs ms -> moves mbs dt th ms (map (integr dt th) ms).
Proof.
  intros FL CK. split; [apply map_length|]. intros r mb m m' M E E'. rewrite nth_error_map, E in E'. injection E' as <-.
  apply integr_moved; [exact (proj1 (Forall_forall _ _) FL mb (nth_error_In _ _ M))|exact (Forall2_nth _ _ _ CK r mb m M E)].
Qed.

(** Robot 1 is a slide at position 9 with limits 0 and 10, at rest. *)
Definition cyConf (q v a : R) : list robotConf := [mkMbc [[0]; [0]] ([[0]; [0]], [[0]; [0]]); mkMbc [[a]] ([[q]], [[v]])].
Lemma cyConfsOk q v a : confsOk wMbs (cyConf q v a).
Proof. repeat constructor. Qed.
Lemma cyFlat : Forall flat wMbs.
Proof. repeat constructor. Qed.
Lemma cyFits q v a : Forall2 (@fitsRobot _) wMbs (cyConf q v a).
Proof. repeat constructor. Qed.
(** A cycle of any bound constraint on robot 1 whose bounds the pulled point [t] meets. *)
Lemma cyCycle {A} (upd : list mbcfg -> A -> res A) bnd (m m' : A) q v a dt th t bd :
  upd (map cfgOf (cyConf q v a)) m = Ok m' -> bnd m' = Ok bd -> bdBegin bd = 2%nat -> vlen (bdL bd) = 1%nat -> vlen (bdU bd) = 1%nat -> holdsBound t bd ->
  exists ms' b, cycle upd bnd true cyKinds trySolver 0 wMbs dt th (m, cyConf q v a, cySolver 0) (m', ms', cySolver 0) /\
    nth_error ms' 1 = Some b /\ at2 (mbcAlphaD b) 0 0 0 = t 2%nat /\ at2 (confV b) 0 0 0 = v + dt * t 2%nat /\
    at2 (confQ b) 0 0 0 = q + dt * ((1 - th) * v + th * (v + dt * t 2%nat)).
Proof.
  intros U B B1 L1 L2 HB. destruct (cyBound _ (cyConf q v a) t bd B1 L1 L2 HB (cyFits q v a)) as (WB & DB & x & ms1 & S & V).
  pose proof (solved_written _ _ _ _ _ _ _ _ _ (cyHistory 0) cyMimic cyNonzero (cyKeep 0) trySolver_contract _ _ _ _ WB DB (cyConfsOk q v a) S) as (_ & LL & WR).
  destruct (WR 0%nat _ _ eq_refl eq_refl) as (a0 & b0 & E0 & _ & O0 & P0 & _).
  destruct (WR 1%nat _ _ eq_refl eq_refl) as (a1 & b1 & E1 & AB & O1 & P1 & W1).
  assert (CK : confsOk wMbs ms1).
  { apply Forall2_intro; [rewrite LL; reflexivity|]. intros r mb c M E. destruct r as [|[|r]].
    - rewrite E0 in E. injection E as <-. injection M as <-. split; [|split]; cbn [cfgOf cfQ cfAlpha cfAlphaD]; unfold confQ, confV; rewrite ?O0; [reflexivity|reflexivity|exact P0].
    - rewrite E1 in E. injection E as <-. injection M as <-. split; [|split]; cbn [cfgOf cfQ cfAlpha cfAlphaD]; unfold confQ, confV; rewrite ?O1; [reflexivity|reflexivity|exact P1].
    - destruct r; discriminate. }
  pose proof (integr_moves wMbs dt th ms1 cyFlat CK) as MV.
  exists (map (integr dt th) ms1), (integr dt th a1). split.
  - exists [], (cyHeap t bd twoRows), x, ms1. split; [reflexivity|]. split; [constructor|]. split; [left; reflexivity|]. split; [left; reflexivity|].
    split; [exact U|]. split; [exact B|]. split; [exact WB|]. split; [exact DB|]. split; [exact S|exact MV].
  - assert (EE : nth_error (map (integr dt th) ms1) 1 = Some (integr dt th a1)) by (rewrite nth_error_map, E1; reflexivity).
    split; [exact EE|]. destruct (proj2 MV 1%nat _ _ _ (eq_refl : nth_error wMbs 1 = Some (mkMB [mkJoint "b0" 1 1 None])) E1 EE) as (AD & _ & M3).
    destruct (M3 0%nat _ 0%nat eq_refl eq_refl ltac:(cbn; lia)) as (V1 & V2).
    assert (b1 = 2%nat) as -> by (injection AB; auto).
    assert (AA : at2 (mbcAlphaD a1) 0 0 0 = t 2%nat). { rewrite (W1 0%nat 0%nat ltac:(eexists; split; [reflexivity|cbn; lia])). apply V. cbn. lia. }
    rewrite AD. rewrite V2, V1, AA. unfold confV, confQ. rewrite O1. split; [reflexivity|]. split; reflexivity.
Qed.

(** Joint limits: the slide accelerates by 1 to position 9.5. *)
Definition cyA : jlim := hJLOf [[Fin (-3)]] [[Fin 3]] [[Fin (-2)]] [[Fin 2]].
Lemma limits_used_lemma : exists m m' ms' b,
  newJL wMbs 1 hL hU [[Fin (-3)]] [[Fin 3]] [[Fin (-2)]] [[Fin 2]] 1 = Ok cyA /\ nth_error wMbs 1 = Some hBox /\ fixedBase hBox /\ flat hBox /\
  jlRun cyA [LNr gData] = Ok m /\ lastSizes [LNr gData] = Some (qData (cySolver 0)) /\ confsOk wMbs (cyConf 9 0 0) /\
  cycle jlUpdate jlBound true cyKinds trySolver 0 wMbs 1 (1 / 2) (m, cyConf 9 0 0, cySolver 0) (m', ms', cySolver 0) /\
  nth_error ms' 1 = Some b /\ at2 (mbcAlphaD b) 0 0 0 = 1 /\ at2 (confQ b) 0 0 0 = 9 + 1 / 2.
Proof.
  destruct (hRobot _ _ _ _ _ hNewJ) as (m & R1).
  destruct (newJL_inv _ _ _ _ _ _ _ _ _ _ hNewJ) as (mb & M & _ & I). injection M as <-.
  pose proof (jlRun_inv _ _ _ _ _ _ _ _ _ _ _ _ _ I R1) as I1. cbn [fold_left nextSizes] in I1.
  assert (CK : cfgOk hBox (hC 9 0 0)) by (split; [reflexivity|split; reflexivity]).
  destruct (jlUpdate_get _ _ _ _ _ _ _ _ _ _ _ (map cfgOf (cyConf 9 0 0)) (hC 9 0 0) I1 hFixed ltac:(cbn; lia) eq_refl CK) as (m' & U & BB & LL & LU & VV).
  destruct (jvB _ _ _ _ _ _ _ _ _ _ _ I1) as (b & AB & BE). assert (b = 2%nat) as -> by (injection AB; auto).
  rewrite (jvOff _ _ _ _ _ _ _ _ _ _ _ I1) in BE. change (jlBegin m = 2%Z) in BE.
  assert (B : jlBound m' = Ok (mkBound 2 (jlLow m') (jlUp m'))) by (unfold jlBound; rewrite BB, BE; reflexivity).
  assert (HB : holdsBound (fun _ => 1) (mkBound 2 (jlLow m') (jlUp m'))).
  { destruct (jointLimits_lemma _ _ _ _ _ _ _ _ _ _ [LNr gData] (map cfgOf (cyConf 9 0 0)) hBox (hC 9 0 0) gData hNewJ eq_refl hFixed hFlat eq_refl eq_refl
      (or_intror eq_refl) (or_intror eq_refl) (or_intror eq_refl) (or_intror eq_refl) eq_refl eq_refl CK (ex_intro _ _ R1)) as (m2 & bd & b & R2 & _ & B2 & Z).
    rewrite jlRun_app, R1 in R2. cbn [bind jlRun jlStep_] in R2. rewrite U in R2. injection R2 as <-. rewrite B in B2. injection B2 as <-.
    apply Z. intros i k D. apply hDof in D as (-> & ->). cbv zeta. unfold posOk, between, jerkOk, at2. cbn [nth hL hU hC cfQ cfAlpha cfAlphaD ele]. repeat split; unfold Rdiv; rewrite ?Rinv_1; cbn [ele]; lra. }
  destruct (cyCycle jlUpdate jlBound m m' 9 0 0 1 (1 / 2) (fun _ => 1) _ U B eq_refl LL LU HB) as (ms' & b & CY & E & A1 & A2 & A3).
  exists m, m', ms', b. split; [exact hNewJ|]. split; [reflexivity|]. split; [exact hFixed|]. split; [exact hFlat|]. split; [exact R1|]. split; [reflexivity|].
  split; [apply cyConfsOk|]. split; [exact CY|]. split; [exact E|]. split; [exact A1|]. rewrite A3. field.
Qed.

(** Damped joint limits: the slide at 5 with velocity limits 1/10 and a step of 1 starts moving. *)
Lemma damper_used_lemma : exists m0 m m' ms' b,
  newDJ wMbs 1 hL hU (hVl (1 / 10)) (hVu (1 / 10)) [] [] [] [] (1 / 5) (1 / 10) (1 / 100) 1 = Ok m0 /\ djRun m0 [LNr gData] = Ok m /\
  lastSizes [LNr gData] = Some (qData (cySolver 0)) /\ confsOk wMbs (cyConf 5 0 0) /\
  tuned 0 10 (- (1 / 10)) (1 / 10) (1 / 5) (1 / 10) (1 / 100) 1 (1 / 10) /\ startsOk 0 10 (1 / 10) 1 (1 / 10) 5 0 /\
  cycles djUpdate djBound true cyKinds trySolver 0 wMbs 1 1 (m, cyConf 5 0 0, cySolver 0) (m', ms', cySolver 0) /\
  nth_error ms' 1 = Some b /\ at2 (confQ b) 0 0 0 = 5 + 1 / 20.
Proof.
  destruct (hDJ (1 / 10) (1 / 5) (1 / 10) (1 / 100) 1 ltac:(lra)) as (m0 & m & N & R1 & I1).
  assert (CK : cfgOk hBox (hC 5 0 0)) by (split; [reflexivity|split; reflexivity]).
  destruct (djUpdate_def hBox 1 hL hU (hVl (1 / 10)) (hVu (1 / 10)) [] [] [] [] (1 / 5) (1 / 10) (1 / 100) 1 (Some gData) [] m (map cfgOf (cyConf 5 0 0)) (hC 5 0 0) I1 eq_refl CK) as (m' & U).
  { intros i jt HJ D1. destruct i as [|i]; [|destruct i; discriminate]. injection HJ as <-. split; [reflexivity|]. exists 0, 10. split; [reflexivity|]. split; [reflexivity|]. split; [lra|].
    intros z _ _ NF. unfold at2; cbn. destruct z; cbn [gap]; try congruence; lra. }
  { lra. }
  pose proof (djStep_inv _ _ _ _ _ _ _ _ _ _ _ _ _ _ (Some gData) [] m (LUp (map cfgOf (cyConf 5 0 0))) m' (or_introl eq_refl) (or_introl eq_refl) (or_introl eq_refl) (or_introl eq_refl) I1 U ltac:(constructor; [exact CK|constructor])) as I2.
  change (djInv hBox 1 hL hU (hVl (1 / 10)) (hVu (1 / 10)) [] [] [] [] (1 / 5) (1 / 10) (1 / 100) 1 (Some gData) [hC 5 0 0] m') in I2.
  pose proof (LimitsWitness.hBound _ _ _ _ _ _ _ I2) as B.
  assert (HB : holdsBound (fun _ => 1 / 20) (mkBound 2 (djLow m') (djUp m'))).
  { apply (hHolds _ _ _ _ _ _ _ _ _ I2 B). cbv zeta. unfold at2. cbn [hC cfAlpha nth]. split; [lra|]. intros pre q al E.
    destruct pre as [|p pre]; [|destruct pre; discriminate]. injection E as <- <-.
    assert (Z : zoneOf 0 10 (1 / 5) 5 = Free) by (unfold zoneOf; destruct (Rlt_dec _ _); [lra|]; destruct (Rlt_dec _ _); [lra|auto]).
    match goal with |- context [zoneOf 0 10 _ ?q] => change q with 5 end. rewrite Z. exact I. }
  pose proof (dvLow _ _ _ _ _ _ _ _ _ _ _ _ _ _ _ _ _ I2) as LL. pose proof (dvUp _ _ _ _ _ _ _ _ _ _ _ _ _ _ _ _ _ I2) as LU.
  destruct (cyCycle djUpdate djBound m m' 5 0 0 1 1 (fun _ => 1 / 20) _ U B eq_refl LL LU HB) as (ms' & b & CY & E & A1 & A2 & A3).
  exists m0, m, m', ms', b. split; [exact N|]. split; [exact R1|]. split; [reflexivity|]. split; [apply cyConfsOk|]. split; [unfold tuned; lra|]. split; [unfold startsOk; rewrite Rabs_R0; lra|].
  split; [eapply cyclesS; [apply cycles0|exact CY]|]. split; [exact E|]. rewrite A3. field.
Qed.

(** Torque limits 0 and 1, rate limits -1 and 1 on the first joint: the torques go from (0, 0) to (1, 0). *)
Definition cyFrom (f : nat -> R) : vec R * vec R := (mkVec 3 (fun i => f (0 + i)%nat), mkVec 1 (fun i => f (3 + i)%nat)).
Lemma cyTorque m m1 t : moUpdate wMbs gDyn m = Ok m1 -> giNr (mcGen (moC m1)) = 2%nat -> wfGen 4 (mcGen (moC m1)) ->
  (forall x, (forall i, (i < 4)%nat -> x i = t i) -> holdsGen 4 x (mcGen (moC m1))) ->
  exists f, (forall i, (i < 4)%nat -> f i = t i) /\
    forall m', moTorque (fst (cyFrom f)) (snd (cyFrom f)) m1 = Ok m' ->
      torqueCycle wNames wMbs true cyKinds trySolver 1 gDyn (mkVec 4 f) (m, cySolver 1) (m', cySolver 1).
Proof.
  intros U N W HG. set (ge := mcGen (moC m1)) in *. set (g := collect (cySolver 1) (cyHeap t noBound ge)).
  assert (EG : g = mkReg [pullAt 4 t] [] [] [ge] []) by reflexivity.
  assert (WB : Forall wfBound (rgBound g)) by (rewrite EG; constructor).
  assert (DB : disjointBounds (rgBound g)) by (rewrite EG; intros k1 k2 b1 b2 i E1; destruct k1; discriminate).
  destruct (cySolves unit [mkMbc [[0]; [0]] tt; mkMbc [[0]] tt] 1 t noBound ge) as ([n f] & ms' & S & L & V & _).
  - intros x E. change (feasible 4 g x). rewrite EG. split; [|constructor]. split; [constructor|]. split; [constructor|]. constructor; [apply HG; exact E|constructor].
  - change (wfReg 4 g). rewrite EG. split; [repeat constructor; cbn; lia|]. split; [constructor|]. split; [constructor|]. split; [constructor; [exact W|constructor]|constructor].
  - change (fits (qBack (cySolver 1)) g). rewrite EG. unfold fits. cbn [rgEq rgIneq rgGen map sumnat]. rewrite N. cbn. lia.
  - exact WB.
  - exact DB.
  - repeat constructor.
  - cbn in L. subst n. exists f. split; [exact V|]. intros m' T.
    exists [], (cyHeap t noBound ge), m1, [mkMbc [[0]; [0]] tt; mkMbc [[0]] tt], ms', (fst (cyFrom f)), (snd (cyFrom f)).
    split; [reflexivity|]. split; [constructor|]. split; [left; reflexivity|]. split; [left; reflexivity|]. split; [exact U|]. split; [reflexivity|].
    split; [exact WB|]. split; [exact DB|]. split; [exact S|]. split; [reflexivity|]. split; [reflexivity|exact T].
Qed.
