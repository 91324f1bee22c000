(** Lemmas about whole control cycles. *)
From Verif Require Export CycleSpec LimitsProofs HistoryProofs DamperLoop.
Open Scope list_scope.
Open Scope R_scope.

Section Solved.
Variables (lssol : bool) (kinds : nat -> list ckind) (pre post : list op) (mbs : list multibody) (uni : list unilateral) (bi : list bilateral) (s : qpSolver) (num : numeric).
Hypothesis H : history lssol kinds (pre ++ OpNrVars mbs uni bi :: post) = Ok s.
Hypothesis W : Forall wfMimic mbs.
Hypothesis NZ : nonzeroMimics mbs.
Hypothesis Hc : Forall (fun o => ~ resizesOrSwitches o) post.
Hypothesis C : contract num.

(** What a successful solve leaves in the configurations satisfies the registered constraints. *)
Lemma solved_written h ms x ms' :
  Forall wfBound (rgBound (collect s h)) -> disjointBounds (rgBound (collect s h)) ->
  confsOk mbs ms -> solve num s h ms = Ok (true, x, ms') ->
  feasible (sdNrVars (qData s)) (collect s h) (vget x) /\ length ms' = length ms /\
  forall r mb m, nth_error mbs r = Some mb -> nth_error ms r = Some m -> exists m' b,
    nth_error ms' r = Some m' /\ alphaDBegin (qData s) r = Ok b /\ mbcOther m' = mbcOther m /\ perDof mb (mbcAlphaD m') /\
    forall i k, isDof mb i k -> at2 (mbcAlphaD m') i k 0 = vget x (b + jointPosInDof mb i + k)%nat.
Proof.
  intros WB DB CK HS. destruct (optimal_lemma _ _ _ _ _ _ _ _ _ _ _ _ _ _ H W NZ Hc C WB DB HS) as (VX & FX & _ & _).
  assert (FR : Forall2 fitsRobot mbs ms). { unfold confsOk in CK. clear -CK. induction CK as [|a b l l' A B IH]; constructor; auto. exact (proj2 (proj2 A)). }
  pose proof HS as HS0. unfold solve in HS0. apply bind_Ok in HS0 as ([ok x'] & E & HS0). apply bind_Ok in HS0 as (ms2 & E' & HS0). injection HS0 as -> -> ->.
  destruct (write_lemma _ _ _ _ _ _ _ _ _ _ _ _ _ _ H W Hc E VX FR) as (ms3 & HS1 & HLen & _ & HW).
  rewrite HS in HS1. injection HS1 as <-. split; [exact FX|]. split; [exact HLen|].
  intros r mb m M HM. destruct (HW eq_refl r m HM) as (m' & w & M' & AV & CC & LL & OO).
  unfold alphaDVecAt in AV. apply bind_Ok in AV as (b & AB & AV). apply bind_Ok in AV as (n & AN & AV).
  assert (PD : perDof mb (mbcAlphaD m')).
  { unfold perDof. rewrite LL. assert (FF : fitsRobot mb m); [|exact FF].
    clear -FR M HM. revert r M HM. induction FR as [|a b l l' A B IH]; intros [|r] M HM; try discriminate; cbn in M, HM. injection M as <-; injection HM as <-; auto. eauto. }
  exists m', b. split; [auto|]. split; [auto|]. split; [auto|]. split; [auto|].
  intros i k D. rewrite <- (nth_perDof 0 mb (mbcAlphaD m') i k (or_intror PD) D).
  assert (LT : (jointPosInDof mb i + k < nrDof mb)%nat).
  { destruct D as (jt & HJ & K). rewrite <- (perDof_len mb (mbcAlphaD m') PD).
    destruct (Nat.lt_ge_cases (jointPosInDof mb i + k) (length (concat (mbcAlphaD m')))) as [L|G]; [exact L|exfalso].
    clear -PD HJ K G. rewrite length_concat', PD in G. unfold jointPosInDof in G. revert i HJ G. induction (joints mb) as [|j js IH]; intros i HJ G; [destruct i; discriminate|].
    destruct i as [|i]; cbn in HJ, G; [injection HJ as ->; lia|]. apply (IH i HJ). lia. }
  rewrite <- (perDof_len mb (mbcAlphaD m') PD), CC, vlist_length in LT.
  rewrite CC. unfold vlist. rewrite (nth_indep _ 0 (vget w 0)) by (rewrite map_length, seq_length; exact LT).
  rewrite map_nth, seq_nth by exact LT.
  unfold vseg in AV. destruct (b + n <=? vlen x)%nat; [|discriminate]. injection AV as <-. cbn [vget]. f_equal. lia.
Qed.
End Solved.

Lemma run_extends lssol kinds pre mbs uni bi post s ops s' :
  history lssol kinds (pre ++ OpNrVars mbs uni bi :: post) = Ok s -> run lssol kinds s ops = Ok s' ->
  history lssol kinds (pre ++ OpNrVars mbs uni bi :: (post ++ ops)) = Ok s'.
Proof.
  intros H R. unfold history in *. apply bind_Ok in H as (s0 & E & H). rewrite E. cbn [bind].
  change (pre ++ OpNrVars mbs uni bi :: post ++ ops) with (pre ++ (OpNrVars mbs uni bi :: post) ++ ops).
  rewrite app_assoc, HistoryProofs.run_app, H. exact R.
Qed.
Lemma run_data lssol kinds pre mbs uni bi post s ops s' :
  history lssol kinds (pre ++ OpNrVars mbs uni bi :: post) = Ok s -> Forall wfMimic mbs -> Forall (fun o => ~ resizesOrSwitches o) post ->
  run lssol kinds s ops = Ok s' -> Forall (fun o => ~ resizesOrSwitches o) ops -> qData s' = qData s.
Proof.
  intros H W Hc R Hc2. destruct (layout_after _ _ _ _ _ _ _ _ H W Hc) as (d1 & L1 & _).
  assert (Hc3 : Forall (fun o => ~ resizesOrSwitches o) (post ++ ops)) by (apply Forall_app; auto).
  destruct (layout_after _ _ _ _ _ _ _ _ (run_extends _ _ _ _ _ _ _ _ _ _ H R) W Hc3) as (d2 & L2 & _). congruence.
Qed.
Lemma Forall2_nth {A B} (P : A -> B -> Prop) l l' : Forall2 P l l' -> forall r a b, nth_error l r = Some a -> nth_error l' r = Some b -> P a b.
Proof. induction 1 as [|a b l l' X Y IH]; intros [|r] a' b' E F; try discriminate; cbn in E, F; [injection E as <-; injection F as <-; auto|eauto]. Qed.
Lemma Forall2_intro {A B} (P : A -> B -> Prop) l : forall l', length l = length l' -> (forall r a b, nth_error l r = Some a -> nth_error l' r = Some b -> P a b) -> Forall2 P l l'.
Proof.
  induction l as [|a l IH]; intros [|b l'] E F; try discriminate; constructor; [apply (F 0%nat); reflexivity|].
  apply IH; [injection E; auto|]. intros r. exact (F (S r)).
Qed.
Lemma Forall2_len {A B} (P : A -> B -> Prop) l l' : Forall2 P l l' -> length l = length l'.
Proof. induction 1; cbn; congruence. Qed.

(** One cycle: the accelerations satisfy the bounds of constraint [c] and are integrated. *)
Lemma cycle_step {A} upd bnd lssol kinds pre post mbs uni bi num c dt th (m m' : A) ms ms' s s' :
  history lssol kinds (pre ++ OpNrVars mbs uni bi :: post) = Ok s -> Forall wfMimic mbs -> nonzeroMimics mbs ->
  Forall (fun o => ~ resizesOrSwitches o) post -> contract num -> confsOk mbs ms ->
  cycle upd bnd lssol kinds num c mbs dt th (m, ms, s) (m', ms', s') ->
  (exists post', history lssol kinds (pre ++ OpNrVars mbs uni bi :: post') = Ok s' /\ Forall (fun o => ~ resizesOrSwitches o) post') /\
  qData s' = qData s /\ confsOk mbs ms' /\
  exists bd x, upd (map cfgOf ms) m = Ok m' /\ bnd m' = Ok bd /\ holdsBound x bd /\
  forall r mb a a', nth_error mbs r = Some mb -> nth_error ms r = Some a -> nth_error ms' r = Some a' ->
  exists b, alphaDBegin (qData s) r = Ok b /\
    (forall i k, isDof mb i k -> at2 (mbcAlphaD a') i k 0 = x (b + jointPosInDof mb i + k)%nat) /\
    forall i jt k, nth_error (joints mb) i = Some jt -> jparams jt = jdof jt -> (k < jdof jt)%nat ->
      at2 (confV a') i k 0 = at2 (confV a) i k 0 + dt * at2 (mbcAlphaD a') i k 0 /\
      at2 (confQ a') i k 0 = at2 (confQ a) i k 0 + dt * ((1 - th) * at2 (confV a) i k 0 + th * at2 (confV a') i k 0).
Proof.
  intros H W NZ Hc C CK (ops & h & x & ms1 & R & HO & I1 & I2 & U & B & WB & DB & S & (L & M)).
  pose proof (run_extends _ _ _ _ _ _ _ _ _ _ H R) as H'. assert (Hc' : Forall (fun o => ~ resizesOrSwitches o) (post ++ ops)) by (apply Forall_app; auto).
  pose proof (run_data _ _ _ _ _ _ _ _ _ _ H W Hc R HO) as HD.
  destruct (solved_written _ _ _ _ _ _ _ _ _ H' W NZ Hc' C _ _ _ _ WB DB CK S) as (F & L1 & WR).
  split; [eauto|]. split; [exact HD|]. split.
  { apply Forall2_intro; [rewrite L, L1; exact (Forall2_len _ _ _ CK)|]. intros r mb a' E1 E2.
    destruct (nth_error ms r) as [a|] eqn:Ea. 2:{ apply nth_error_None in Ea. rewrite <- L1, <- L in Ea. apply nth_error_None in Ea. congruence. }
    destruct (WR r mb a E1 Ea) as (a1 & b & E3 & _). exact (proj1 (proj2 (M r mb a1 a' E1 E3 E2))). }
  exists (hBound h c), (vget x). split; [exact U|]. split; [exact B|]. split.
  { destruct F as (_ & F). rewrite Forall_forall in F. apply F. unfold collect. cbn [rgBound]. apply in_map. exact I2. }
  intros r mb a a' E1 E2 E3. destruct (WR r mb a E1 E2) as (a1 & b & E4 & AB & OO & PD & V).
  destruct (M r mb a1 a' E1 E4 E3) as (AD & _ & MV). exists b. split; [congruence|].
  rewrite AD. split; [exact V|]. intros i jt k HJ HP K. destruct (MV i jt k HJ HP K) as (V1 & V2). unfold confQ, confV in *. rewrite OO in V1, V2. split; assumption.
Qed.

(** Any number of cycles. *)
Lemma cycles_step {A} upd bnd lssol kinds pre post mbs uni bi num c dt th (m m' : A) ms ms' s s' :
  history lssol kinds (pre ++ OpNrVars mbs uni bi :: post) = Ok s -> Forall wfMimic mbs -> nonzeroMimics mbs ->
  Forall (fun o => ~ resizesOrSwitches o) post -> contract num -> confsOk mbs ms ->
  cycles upd bnd lssol kinds num c mbs dt th (m, ms, s) (m', ms', s') ->
  (exists post', history lssol kinds (pre ++ OpNrVars mbs uni bi :: post') = Ok s' /\ Forall (fun o => ~ resizesOrSwitches o) post') /\
  qData s' = qData s /\ confsOk mbs ms'.
Proof.
  intros H W NZ Hc C CK X. remember (m', ms', s') as z' eqn:E. revert m' ms' s' E. induction X as [|[[m1 ms1] s1] z2 X IH Y]; intros m' ms' s' E.
  - injection E as <- <- <-. split; [eauto|]. auto.
  - subst z2. destruct (IH _ _ _ eq_refl) as ((post' & H1 & Hc1) & D1 & C1).
    destruct (cycle_step _ _ _ _ _ _ _ _ _ _ _ _ _ _ _ _ _ _ _ H1 W NZ Hc1 C C1 Y) as (A1 & A2 & A3 & _). split; [exact A1|]. split; [congruence|exact A3].
Qed.

(** ** JointLimitsConstr *)
Lemma lastSizes_ups ops cs : lastSizes (ops ++ [LUp cs]) = lastSizes ops.
Proof. induction ops as [|[d|cs'] ops IH]; cbn; [reflexivity| |exact IH]. rewrite IH. reflexivity. Qed.
Lemma cycles_jlRun lssol kinds num c mbs dt th m0 m ms s m' ms' s' ops :
  jlRun m0 ops = Ok m -> cycles jlUpdate jlBound lssol kinds num c mbs dt th (m, ms, s) (m', ms', s') ->
  exists ops', jlRun m0 ops' = Ok m' /\ lastSizes ops' = lastSizes ops.
Proof.
  intros R X. remember (m', ms', s') as z' eqn:E. revert m' ms' s' E. induction X as [|[[m1 ms1] s1] z2 X IH Y]; intros m' ms' s' E.
  - injection E as <- <- <-. eauto.
  - subst z2. destruct (IH _ _ _ eq_refl) as (ops' & R' & L'). destruct Y as (o & h & x & ms2 & _ & _ & _ & _ & U & _).
    exists (ops' ++ [LUp (map cfgOf ms1)]). rewrite jlRun_app, R'. cbn [bind jlRun jlStep_]. rewrite U. split; [reflexivity|]. rewrite lastSizes_ups. exact L'.
Qed.

Lemma limits_kept_lemma lssol kinds pre mbs uni bi post s num r mb lq uq lad uad ladd uadd dt m0 ops m ms c m1 ms1 s1 m2 ms2 s2 a a' :
  history lssol kinds (pre ++ OpNrVars mbs uni bi :: post) = Ok s -> Forall wfMimic mbs -> nonzeroMimics mbs ->
  Forall (fun o => ~ resizesOrSwitches o) post -> contract num ->
  newJL mbs r lq uq lad uad ladd uadd dt = Ok m0 -> nth_error mbs r = Some mb -> fixedBase mb -> flat mb ->
  perDof mb lq -> perDof mb uq -> perDofOpt mb lad -> perDofOpt mb uad -> perDofOpt mb ladd -> perDofOpt mb uadd ->
  jlRun m0 ops = Ok m -> lastSizes ops = Some (qData s) -> confsOk mbs ms ->
  cycles jlUpdate jlBound lssol kinds num c mbs dt (1 / 2) (m, ms, s) (m1, ms1, s1) ->
  cycle jlUpdate jlBound lssol kinds num c mbs dt (1 / 2) (m1, ms1, s1) (m2, ms2, s2) ->
  nth_error ms1 r = Some a -> nth_error ms2 r = Some a' ->
  forall i k, isDof mb i k ->
    between (at2 lq i k NInf) (at2 (confQ a') i k 0) (at2 uq i k PInf) /\
    between (at2 lad i k NInf) (at2 (mbcAlphaD a') i k 0) (at2 uad i k PInf) /\
    jerkOk dt (at2 ladd i k NInf) (at2 uadd i k PInf) (at2 (mbcAlphaD a) i k 0) (at2 (mbcAlphaD a') i k 0).
Proof.
  intros H W NZ Hc C HN M FB FL P1 P2 P3 P4 P5 P6 R LS CK X Y Ea Ea' i k D.
  destruct (cycles_step _ _ _ _ _ _ _ _ _ _ _ _ _ _ _ _ _ _ _ H W NZ Hc C CK X) as ((post' & H1 & Hc1) & D1 & C1).
  destruct (cycle_step _ _ _ _ _ _ _ _ _ _ _ _ _ _ _ _ _ _ _ H1 W NZ Hc1 C C1 Y) as (_ & _ & _ & bd & x & U & B & HB & MV).
  destruct (cycles_jlRun _ _ _ _ _ _ _ _ _ _ _ _ _ _ _ R X) as (ops' & R' & L').
  destruct (MV r mb a a' M Ea Ea') as (b & AB & V & MQ).
  assert (HC : nth_error (map cfgOf ms1) r = Some (cfgOf a)) by (rewrite nth_error_map, Ea; reflexivity).
  destruct (jointLimits_lemma _ _ _ _ _ _ _ _ _ _ ops' (map cfgOf ms1) mb (cfgOf a) (qData s) HN M FB FL P1 P2 P3 P4 P5 P6 ltac:(congruence) HC (Forall2_nth _ _ _ C1 r _ _ M Ea) (ex_intro _ _ R'))
    as (m' & bd' & b' & R2 & AB' & B' & Z).
  rewrite jlRun_app, R' in R2. cbn [bind jlRun jlStep_] in R2. rewrite U in R2. injection R2 as <-. rewrite B in B'. injection B' as <-.
  assert (b' = b) as -> by congruence. pose proof (proj1 (Z x) HB i k D) as (Q1 & Q2 & Q3). rewrite <- (V i k D) in Q1, Q2, Q3.
  split; [|split; [exact Q2|exact Q3]]. unfold posOk in Q1. cbn [cfgOf cfQ cfAlpha] in Q1.
  destruct D as (jt & HJ & K). destruct (MQ i jt k HJ (proj1 (Forall_forall _ _) FL jt (nth_error_In _ _ HJ)) K) as (V1 & V2). rewrite V2, V1.
  match goal with |- between _ ?q _ => match type of Q1 with between _ ?q' _ => replace q with q' by (unfold confV, confQ; field) end end. exact Q1.
Qed.

(** ** DamperJointLimitsConstr *)
Lemma cycles_loop lssol kinds pre mbs uni bi post s num r mb b dt th m ms c m' ms' s' a a' :
  history lssol kinds (pre ++ OpNrVars mbs uni bi :: post) = Ok s -> Forall wfMimic mbs -> nonzeroMimics mbs ->
  Forall (fun o => ~ resizesOrSwitches o) post -> contract num ->
  nth_error mbs r = Some mb -> (forall j, In j (joints mb) -> jdof j = 1%nat -> jparams j = 1%nat) ->
  alphaDBegin (qData s) r = Ok b -> confsOk mbs ms ->
  cycles djUpdate djBound lssol kinds num c mbs dt th (m, ms, s) (m', ms', s') ->
  nth_error ms r = Some a -> nth_error ms' r = Some a' -> loop mb r b dt th m (cfgOf a) m' (cfgOf a').
Proof.
  intros H W NZ Hc C M SL AB CK X Ea. remember (m', ms', s') as z' eqn:E. revert m' ms' s' E a'. induction X as [|[[m1 ms1] s1] z2 X IH Y]; intros m' ms' s' E a' Ea'.
  - injection E as <- <- <-. rewrite Ea in Ea'. injection Ea' as <-. constructor.
  - subst z2. destruct (cycles_step _ _ _ _ _ _ _ _ _ _ _ _ _ _ _ _ _ _ _ H W NZ Hc C CK X) as ((post' & H1 & Hc1) & D1 & C1).
    destruct (cycle_step _ _ _ _ _ _ _ _ _ _ _ _ _ _ _ _ _ _ _ H1 W NZ Hc1 C C1 Y) as (_ & _ & C2 & bd & x & U & B & HB & MV).
    destruct (nth_error ms1 r) as [a1|] eqn:E1.
    2:{ apply nth_error_None in E1. rewrite <- (Forall2_len _ _ _ C1) in E1. apply nth_error_None in E1. congruence. }
    destruct (MV r mb a1 a' M E1 Ea') as (b' & AB' & V & MQ). assert (b' = b) as -> by congruence.
    apply (loopS mb r b dt th m (cfgOf a) m1 (cfgOf a1) (map cfgOf ms1) m' bd x (cfgOf a') (IH _ _ _ eq_refl a1 E1)).
    + rewrite nth_error_map, E1. reflexivity.
    + exact U.
    + exact B.
    + exact HB.
    + intros i jt HJ D. cbn [cfgOf cfAlpha cfQ]. destruct (MQ i jt 0%nat HJ) as (V1 & V2); [rewrite D; apply SL; [eapply nth_error_In; eauto|auto]|lia|].
      rewrite (V i 0%nat ltac:(exists jt; split; [auto|lia])), Nat.add_0_r in V1. split; [exact V1|exact V2].
    + exact (Forall2_nth _ _ _ C2 r _ _ M Ea').
Qed.
Lemma damper_kept_lemma lssol kinds pre mbs uni bi post s num r mb lq uq la ua lad uad ladd uadd inter secu off dt th m0 ops m ms c m' ms' s' a a' i jt l u vl vu V :
  history lssol kinds (pre ++ OpNrVars mbs uni bi :: post) = Ok s -> Forall wfMimic mbs -> nonzeroMimics mbs ->
  Forall (fun o => ~ resizesOrSwitches o) post -> contract num ->
  newDJ mbs r lq uq la ua lad uad ladd uadd inter secu off dt = Ok m0 -> nth_error mbs r = Some mb ->
  (forall j, In j (joints mb) -> jdof j = 1%nat -> jparams j = 1%nat) ->
  perDof mb la -> perDof mb ua -> perDofOpt mb lad -> perDofOpt mb uad -> perDofOpt mb ladd -> perDofOpt mb uadd ->
  djRun m0 ops = Ok m -> configs r ops = [] -> lastSizes ops = Some (qData s) -> confsOk mbs ms -> nth_error ms r = Some a ->
  nth_error (joints mb) i = Some jt -> jdof jt = 1%nat ->
  at2 lq i 0 NInf = Fin l -> at2 uq i 0 PInf = Fin u -> at2 la i 0 NInf = Fin vl -> at2 ua i 0 PInf = Fin vu ->
  tuned l u vl vu inter secu off dt V -> startsOk l u secu dt V (at2 (confQ a) i 0 0) (at2 (confV a) i 0 0) -> 0 <= th <= 1 ->
  cycles djUpdate djBound lssol kinds num c mbs dt th (m, ms, s) (m', ms', s') -> nth_error ms' r = Some a' ->
  l + (u - l) * secu <= at2 (confQ a') i 0 0 <= u - (u - l) * secu.
Proof.
  intros H W NZ Hc C HN M SL PA PU P1 P2 P3 P4 R CF LS CK Ea HJ D1 L U VL VU TU ST Hth X Ea'.
  assert (AB : exists b, alphaDBegin (qData s) r = Ok b).
  { destruct (layout_after _ _ _ _ _ _ _ _ H W Hc) as (deps & LY & _). unfold alphaDBegin. destruct (vec_at (sdAlphaDBegin (qData s)) r) as [b| |] eqn:E; eauto; exfalso.
    - pose proof (start_inv _ _ _ _ _ _ _ _ _ _ _ _ _ _ _ _ _ _ _ HN M PA PU P1 P2 P3 P4 R CF LS) as I1.
      destruct (dvB _ _ _ _ _ _ _ _ _ _ _ _ _ _ _ _ _ I1) as (b & AB & _). unfold alphaDBegin in AB. congruence.
    - pose proof (start_inv _ _ _ _ _ _ _ _ _ _ _ _ _ _ _ _ _ _ _ HN M PA PU P1 P2 P3 P4 R CF LS) as I1.
      destruct (dvB _ _ _ _ _ _ _ _ _ _ _ _ _ _ _ _ _ I1) as (b & AB & _). unfold alphaDBegin in AB. congruence. }
  destruct AB as (b & AB).
  exact (inside_lemma _ _ _ _ _ _ _ _ _ _ _ _ _ _ _ _ _ _ _ _ _ _ _ _ _ _ _ _ _ _ _ HN M PA PU P1 P2 P3 P4 R CF LS AB (Forall2_nth _ _ _ CK r _ _ M Ea) HJ D1 L U VL VU TU ST Hth
    (cycles_loop _ _ _ _ _ _ _ _ _ _ _ _ _ _ _ _ _ _ _ _ _ _ H W NZ Hc C M SL AB CK X Ea Ea')).
Qed.
