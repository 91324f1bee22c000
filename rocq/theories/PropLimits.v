(** Properties of the joint limit constraints: C39-C43, C73. *)
From Verif Require Import LimitsWitness.
Open Scope string_scope.
Open Scope list_scope.
Open Scope R_scope.

(** C39: robot with a fixed base and no quaternion, no acceleration limits: after any calls in which the sizes were
    given, update is defined and its bounds hold at x iff every coordinate lies within its limits after one step under
    the accelerations of x. *)
Theorem C39_position : forall mbs r lq uq dt m0 ops cs mb c d,
  newJL mbs r lq uq [] [] [] [] dt = Ok m0 -> nth_error mbs r = Some mb -> fixedBase mb -> flat mb ->
  perDof mb lq -> perDof mb uq ->
  lastSizes ops = Some d -> nth_error cs r = Some c -> cfgOk mb c ->
  (exists m, jlRun m0 ops = Ok m) ->
  exists m bd b, jlRun m0 (ops ++ [LUp cs]) = Ok m /\ alphaDBegin d r = Ok b /\ jlBound m = Ok bd /\
  forall x, holdsBound x bd <-> forall i k, isDof mb i k ->
    between (at2 lq i k NInf) (at2 (cfQ c) i k 0 + at2 (cfAlpha c) i k 0 * dt + x (b + jointPosInDof mb i + k)%nat * (dt * dt) / 2) (at2 uq i k PInf).
Proof. exact position_lemma. Qed.
Print Assumptions C39_position.
(** At position 4 with velocity 4 and limit 10, steps of 1: acceleration 4 reaches the limit, 5 leaves it. *)
Example C39_used : exists m bd, jlRun (hJLOf [] [] [] []) [LNr gData; LUp (hCs (hC 4 4 0))] = Ok m /\ jlBound m = Ok bd /\
  holdsBound (fun _ => 4) bd /\ ~ holdsBound (fun _ => 5) bd.
Proof.
  destruct (C39_position wMbs 1 hL hU 1 (hJLOf [] [] [] []) [LNr gData] (hCs (hC 4 4 0)) hBox (hC 4 4 0) gData hNew eq_refl hFixed hFlat eq_refl eq_refl eq_refl eq_refl
    ltac:(split; [reflexivity|split; reflexivity]) (hRobot _ _ _ _ _ hNew)) as (m & bd & b & R & B & JB & X).
  exists m, bd. split; [exact R|]. split; [exact JB|]. split.
  - apply X. intros i k D. apply hDof in D as (-> & ->). unfold between, at2. cbn. lra.
  - intros H. pose proof (proj1 (X _) H 0%nat 0%nat ltac:(apply hDof; auto)) as Q. unfold between, at2 in Q. cbn in Q. lra.
Qed.

(** C39, finding: with a free or spherical first joint the sizes of the position and acceleration limits differ and
    every update is undefined behaviour (a size assertion of Eigen). *)
Theorem C39_floating_undefined : forall mbs r lq uq lad uad ladd uadd dt m0 ops cs mb m j0,
  newJL mbs r lq uq lad uad ladd uadd dt = Ok m0 -> nth_error mbs r = Some mb ->
  nth_error (joints mb) 0 = Some j0 -> (1 < jdof j0)%nat -> jlRun m0 ops = Ok m -> jlUpdate cs m = UB.
Proof. exact floating_lemma. Qed.
Print Assumptions C39_floating_undefined.
Theorem C39_floating_refuted : exists mbs r lq uq dt mb c d m0 m,
  nth_error mbs r = Some mb /\ perDof mb lq /\ perDof mb uq /\ cfgOk mb c /\ newJL mbs r lq uq [] [] [] [] dt = Ok m0 /\
  jlRun m0 [LNr d] = Ok m /\ jlRun m0 [LNr d; LUp [c]] = UB.
Proof. exact floating_refuted_lemma. Qed.
Print Assumptions C39_floating_refuted.

(** C39, finding: with a ball joint further in the chain, the bounds hold although the position of another joint leaves
    its limits (its position is read in the quaternion). *)
Theorem C39_spherical_refuted : exists mbs r lq uq dt mb c d m0 m bd b x,
  nth_error mbs r = Some mb /\ fixedBase mb /\ perDof mb lq /\ perDof mb uq /\ cfgOk mb c /\ newJL mbs r lq uq [] [] [] [] dt = Ok m0 /\
  jlRun m0 [LNr d; LUp [c]] = Ok m /\ alphaDBegin d r = Ok b /\ jlBound m = Ok bd /\ holdsBound x bd /\
  ~ between (at2 lq 0 0 NInf) (at2 (cfQ c) 0 0 0 + at2 (cfAlpha c) 0 0 0 * dt + x (b + jointPosInDof mb 0)%nat * (dt * dt) / 2) (at2 uq 0 0 PInf).
Proof. exact spherical_refuted_lemma. Qed.
Print Assumptions C39_spherical_refuted.

(** C40: with acceleration and jerk limits, the bounds hold iff the position after one step, the acceleration and its
    rate of change from the alphaD of the last update are all within their limits. *)
Theorem C40_exact : forall mbs r lq uq lad uad ladd uadd dt m0 ops cs mb c d,
  newJL mbs r lq uq lad uad ladd uadd dt = Ok m0 -> nth_error mbs r = Some mb -> fixedBase mb -> flat mb ->
  perDof mb lq -> perDof mb uq -> perDofOpt mb lad -> perDofOpt mb uad -> perDofOpt mb ladd -> perDofOpt mb uadd ->
  lastSizes ops = Some d -> nth_error cs r = Some c -> cfgOk mb c ->
  (exists m, jlRun m0 ops = Ok m) ->
  exists m bd b, jlRun m0 (ops ++ [LUp cs]) = Ok m /\ alphaDBegin d r = Ok b /\ jlBound m = Ok bd /\
  forall x, holdsBound x bd <-> forall i k, isDof mb i k -> let a := x (b + jointPosInDof mb i + k)%nat in
    posOk lq uq dt c i k a /\
    between (at2 lad i k NInf) a (at2 uad i k PInf) /\
    jerkOk dt (at2 ladd i k NInf) (at2 uadd i k PInf) (at2 (cfAlphaD c) i k 0) a.
Proof. exact jointLimits_lemma. Qed.
Print Assumptions C40_exact.
(** Acceleration limits 3, jerk limits 2, last acceleration 0: 2 is the largest acceleration allowed. *)
Example C40_used : exists m bd, jlRun (hJLOf [[Fin (-3)]] [[Fin 3]] [[Fin (-2)]] [[Fin 2]]) [LNr gData; LUp (hCs (hC 4 4 0))] = Ok m /\ jlBound m = Ok bd /\
  holdsBound (fun _ => 2) bd /\ ~ holdsBound (fun _ => 5 / 2) bd.
Proof.
  destruct (C40_exact wMbs 1 hL hU [[Fin (-3)]] [[Fin 3]] [[Fin (-2)]] [[Fin 2]] 1 _ [LNr gData] (hCs (hC 4 4 0)) hBox (hC 4 4 0) gData hNewJ eq_refl hFixed hFlat eq_refl eq_refl
    (or_intror eq_refl) (or_intror eq_refl) (or_intror eq_refl) (or_intror eq_refl) eq_refl eq_refl
    ltac:(split; [reflexivity|split; reflexivity]) (hRobot _ _ _ _ _ hNewJ)) as (m & bd & b & R & B & JB & X).
  exists m, bd. split; [exact R|]. split; [exact JB|]. split.
  - apply X. intros i k D. apply hDof in D as (-> & ->). unfold posOk, jerkOk, between, at2. cbn. lra.
  - intros H. pose proof (proj1 (X _) H 0%nat 0%nat ltac:(apply hDof; auto)) as Q. unfold posOk, jerkOk, between, at2 in Q. cbn in Q. lra.
Qed.

(** C41: after any calls ending with an update, the bounds hold at x iff, for joints with one degree of freedom, the
    velocity after the step lies within the velocity limits and the damper (whose damping was chosen when the joint entered
    its current zone and whose bound shrinks linearly to zero at the security distance), and acceleration and jerk within
    theirs. For the other joints (C73) the velocity limits bound the acceleration and the jerk limits of every past
    update stay in force. *)
Theorem C41_exact : forall mbs r lq uq la ua lad uad ladd uadd inter secu off dt m0 ops cs mb c d m,
  newDJ mbs r lq uq la ua lad uad ladd uadd inter secu off dt = Ok m0 -> nth_error mbs r = Some mb ->
  perDof mb la -> perDof mb ua -> perDofOpt mb lad -> perDofOpt mb uad -> perDofOpt mb ladd -> perDofOpt mb uadd ->
  lastSizes ops = Some d -> nth_error cs r = Some c -> Forall (cfgOk mb) (configs r ops) -> cfgOk mb c ->
  djRun m0 (ops ++ [LUp cs]) = Ok m ->
  let past := configs r ops ++ [c] in
  exists bd b, alphaDBegin d r = Ok b /\ djBound m = Ok bd /\
  forall x, holdsBound x bd <-> forall i jt k, nth_error (joints mb) i = Some jt -> (k < jdof jt)%nat ->
    let a := x (b + jointPosInDof mb i + k)%nat in
    between (at2 lad i k NInf) a (at2 uad i k PInf) /\
    if Nat.eqb (jdof jt) 1 then
      let v := at2 (cfAlpha c) i 0 0 + dt * a in
      jerkOk dt (at2 ladd i k NInf) (at2 uadd i k PInf) (at2 (cfAlphaD c) i k 0) a /\
      between (at2 la i 0 NInf) v (at2 ua i 0 PInf) /\ damperOk (at2 lq i 0 NInf) (at2 uq i 0 PInf) inter secu off (track i past) v
    else
      between (at2 la i k NInf) a (at2 ua i k PInf) /\
      (forall c', In c' past -> jerkOk dt (at2 ladd i k NInf) (at2 uadd i k PInf) (at2 (cfAlphaD c') i k 0) a).
Proof. exact damper_lemma. Qed.
Print Assumptions C41_exact.
(** Position 2 of [0, 10], interactive distance 3, security distance 1, velocity -1, offset 1: the damping is 3 and the
    velocity is bounded below by -3/2; the velocity limits are 5. *)
Example C41_exact_used : exists m0 m bd, newDJ wMbs 1 hL hU (hVl 5) (hVu 5) [] [] [] [] (3 / 10) (1 / 10) 1 1 = Ok m0 /\
  djRun m0 ([LNr gData] ++ [LUp (hCs (hC 2 (-1) 0))]) = Ok m /\ djBound m = Ok bd /\
  holdsBound (fun _ => - (1 / 2)) bd /\ ~ holdsBound (fun _ => -1) bd /\ holdsBound (fun _ => 6) bd /\ ~ holdsBound (fun _ => 7) bd.
Proof.
  destruct (hDJ 5 (3 / 10) (1 / 10) 1 1 ltac:(lra)) as (m0 & m1 & N & R1 & I1).
  destruct (hUpdate 5 (3 / 10) (1 / 10) 1 1 m1 2 (-1) 0 I1 ltac:(lra) ltac:(lra) ltac:(lra)) as (m & U & I).
  assert (RR : djRun m0 ([LNr gData] ++ [LUp (hCs (hC 2 (-1) 0))]) = Ok m) by (rewrite djRun_app, R1; cbn [bind djRun djStep_]; rewrite U; reflexivity).
  destruct (C41_exact wMbs 1 hL hU (hVl 5) (hVu 5) [] [] [] [] (3 / 10) (1 / 10) 1 1 m0 [LNr gData] (hCs (hC 2 (-1) 0)) hBox (hC 2 (-1) 0) gData m N
    eq_refl eq_refl eq_refl (or_introl eq_refl) (or_introl eq_refl) (or_introl eq_refl) (or_introl eq_refl) eq_refl eq_refl ltac:(constructor)
    ltac:(split; [reflexivity|split; reflexivity]) RR) as (bd & b & _ & B & X). cbv zeta in X.
  exists m0, m, bd. split; [exact N|]. split; [exact RR|]. split; [exact B|].
  assert (Z : zoneOf 0 10 (3 / 10) 2 = Low) by (unfold zoneOf; destruct (Rlt_dec _ _); [auto|lra]).
  assert (DM : damping_ 0 10 (3 / 10) (1 / 10) 1 Low (2, -1) = 3).
  { unfold damping_. cbn [fst snd gap]. replace (((10 - 0) * (3 / 10) - (10 - 0) * (1 / 10)) / (2 - 0 - (10 - 0) * (1 / 10)) * -1) with (-2) by field. rewrite Rabs_left by lra. lra. }
  assert (D : forall v, damperOk (Fin 0) (Fin 10) (3 / 10) (1 / 10) 1 (track 0 ([] ++ [hC 2 (-1) 0])) v <-> - (3 / 2) <= v).
  { intros v. assert (EN : enteredWith 0 10 (3 / 10) Low [(2, -1)] (2, -1)) by (apply (entered_now 0 10 (3 / 10) [] 2 (-1) Low Z); auto). split.
    - intros H. specialize (H [] 2 (-1) eq_refl). rewrite Z in H. destruct H as (e & E & H). rewrite (entered_unique _ _ _ _ _ _ _ E EN), DM in H. unfold damperSpeed in H. lra.
    - intros H pre q al E. destruct pre as [|p pre]; [|destruct pre; discriminate]. injection E as <- <-. match goal with |- context [zoneOf 0 10 _ ?q] => change q with 2 end. rewrite Z.
      exists (2, -1). split; [exact EN|]. rewrite DM. unfold damperSpeed. lra. }
  assert (A : forall a, holdsBound (fun _ => a) bd <-> - (1 / 2) <= a <= 6).
  { intros a. rewrite X. split.
    - intros H. specialize (H 0%nat (mkJoint "b0" 1 1 None) 0%nat eq_refl ltac:(simpl; lia)). destruct H as (_ & _ & HV & HD).
      apply D in HD. unfold between, at2 in HV. unfold at2 in HD. cbn in HV, HD. lra.
    - intros H i jt k HJ K. destruct i as [|i]; [|destruct i; discriminate]. injection HJ as <-. cbn in K. assert (k = 0%nat) as -> by lia.
      split; [unfold between; simpl; auto|]. split; [unfold jerkOk, between; simpl; auto|]. split; [unfold between, at2; cbn; lra|].
      apply D. unfold at2; cbn. lra. }
  repeat split; try (intros H; apply A in H; lra); apply A; lra.
Qed.

(** C41: closed loop of updates, any accelerations within the bounds and integration (explicit, semi-implicit Euler or
    in between): a tuned joint never comes closer to its limits than the security distance. *)
Theorem C41_inside : forall mbs r lq uq la ua lad uad ladd uadd inter secu off dt m0 ops mb d b m c0 i jt l u vl vu V th m' c',
  newDJ mbs r lq uq la ua lad uad ladd uadd inter secu off dt = Ok m0 -> nth_error mbs r = Some mb ->
  perDof mb la -> perDof mb ua -> perDofOpt mb lad -> perDofOpt mb uad -> perDofOpt mb ladd -> perDofOpt mb uadd ->
  djRun m0 ops = Ok m -> configs r ops = [] -> lastSizes ops = Some d -> alphaDBegin d r = Ok b -> cfgOk mb c0 ->
  nth_error (joints mb) i = Some jt -> jdof jt = 1%nat ->
  at2 lq i 0 NInf = Fin l -> at2 uq i 0 PInf = Fin u -> at2 la i 0 NInf = Fin vl -> at2 ua i 0 PInf = Fin vu ->
  tuned l u vl vu inter secu off dt V -> startsOk l u secu dt V (at2 (cfQ c0) i 0 0) (at2 (cfAlpha c0) i 0 0) -> 0 <= th <= 1 ->
  loop mb r b dt th m c0 m' c' ->
  l + (u - l) * secu <= at2 (cfQ c') i 0 0 <= u - (u - l) * secu.
Proof. exact inside_lemma. Qed.
Print Assumptions C41_inside.
(** C41: along that loop no update is undefined (no joint is at its security distance when it enters a zone). *)
Theorem C41_defined : forall mbs r lq uq la ua lad uad ladd uadd inter secu off dt m0 ops mb d b m c0 th m' c' mcs,
  newDJ mbs r lq uq la ua lad uad ladd uadd inter secu off dt = Ok m0 -> nth_error mbs r = Some mb ->
  perDof mb la -> perDof mb ua -> perDofOpt mb lad -> perDofOpt mb uad -> perDofOpt mb ladd -> perDofOpt mb uadd ->
  djRun m0 ops = Ok m -> configs r ops = [] -> lastSizes ops = Some d -> alphaDBegin d r = Ok b -> cfgOk mb c0 -> 0 <= th <= 1 ->
  secu <> inter ->
  (forall i jt, nth_error (joints mb) i = Some jt -> jdof jt = 1%nat -> jparams jt = 1%nat /\ tunedJoint lq uq la ua inter secu off dt c0 i) ->
  loop mb r b dt th m c0 m' c' -> nth_error mcs r = Some c' ->
  exists m'', djUpdate mcs m' = Ok m''.
Proof. exact loop_defined_lemma. Qed.
Print Assumptions C41_defined.
(** C41: and stopping every joint stays allowed: the bounds never become empty. *)
Theorem C41_stop : forall mbs r lq uq la ua inter secu off dt m0 ops mb d b m c0 th m' c' mcs m2,
  newDJ mbs r lq uq la ua [] [] [] [] inter secu off dt = Ok m0 -> nth_error mbs r = Some mb ->
  perDof mb la -> perDof mb ua ->
  djRun m0 ops = Ok m -> configs r ops = [] -> lastSizes ops = Some d -> alphaDBegin d r = Ok b -> cfgOk mb c0 -> 0 <= th <= 1 ->
  (forall i jt, nth_error (joints mb) i = Some jt -> jdof jt = 1%nat /\ tunedJoint lq uq la ua inter secu off dt c0 i /\ between (at2 la i 0 NInf) 0 (at2 ua i 0 PInf)) ->
  loop mb r b dt th m c0 m' c' -> nth_error mcs r = Some c' -> djUpdate mcs m' = Ok m2 ->
  exists bd, djBound m2 = Ok bd /\
  forall x, (forall i jt, nth_error (joints mb) i = Some jt -> x (b + jointPosInDof mb i)%nat = - at2 (cfAlpha c') i 0 0 / dt) -> holdsBound x bd.
Proof. exact stop_lemma. Qed.
Print Assumptions C41_stop.
(** Position 5 of [0, 10], velocity 1, steps of 1/10: one round of the loop, stopping the joint. *)
Example C41_used : exists m0 m m' c', newDJ wMbs 1 hL hU (hVl 1) (hVu 1) [] [] [] [] (3 / 10) (1 / 10) 1 (1 / 10) = Ok m0 /\ djRun m0 [LNr gData] = Ok m /\
  loop hBox 1 2 (1 / 10) (1 / 2) m (hC 5 1 0) m' c' /\ at2 (cfQ c') 0 0 0 = 5 + 1 / 20 /\ 1 <= at2 (cfQ c') 0 0 0 <= 9.
Proof.
  destruct (hDJ 1 (3 / 10) (1 / 10) 1 (1 / 10) ltac:(lra)) as (m0 & m & N & R1 & I1).
  assert (CK : forall q a ad, cfgOk hBox (hC q a ad)) by (intros; split; [reflexivity|split; reflexivity]).
  assert (TU : tuned 0 10 (-1) 1 (3 / 10) (1 / 10) 1 (1 / 10) 1) by (unfold tuned; lra).
  assert (ST : startsOk 0 10 (1 / 10) (1 / 10) 1 5 1) by (unfold startsOk; rewrite Rabs_right by lra; lra).
  assert (TJ : tunedJoint hL hU (hVl 1) (hVu 1) (3 / 10) (1 / 10) 1 (1 / 10) (hC 5 1 0) 0).
  { exists 0, 10, (-1), 1, 1. repeat (split; [reflexivity|]). split; [exact TU|exact ST]. }
  assert (JJ : forall i jt, nth_error (joints hBox) i = Some jt -> i = 0%nat /\ jt = mkJoint "b0" 1 1 None).
  { intros i jt HJ. destruct i as [|i]; [|destruct i; discriminate]. injection HJ as <-. auto. }
  destruct (C41_defined wMbs 1 hL hU (hVl 1) (hVu 1) [] [] [] [] (3 / 10) (1 / 10) 1 (1 / 10) m0 [LNr gData] hBox gData 2 m (hC 5 1 0) (1 / 2) m (hC 5 1 0) (hCs (hC 5 1 0)) N
    eq_refl eq_refl eq_refl (or_introl eq_refl) (or_introl eq_refl) (or_introl eq_refl) (or_introl eq_refl) R1 eq_refl eq_refl eq_refl (CK _ _ _) ltac:(lra) ltac:(lra)) as (m' & U).
  { intros i jt HJ _. destruct (JJ i jt HJ) as (-> & ->). split; [reflexivity|exact TJ]. }
  { constructor. }
  { reflexivity. }
  destruct (C41_stop wMbs 1 hL hU (hVl 1) (hVu 1) (3 / 10) (1 / 10) 1 (1 / 10) m0 [LNr gData] hBox gData 2 m (hC 5 1 0) (1 / 2) m (hC 5 1 0) (hCs (hC 5 1 0)) m' N
    eq_refl eq_refl eq_refl R1 eq_refl eq_refl eq_refl (CK _ _ _) ltac:(lra)) as (bd & B & X).
  { intros i jt HJ. destruct (JJ i jt HJ) as (-> & ->). split; [reflexivity|]. split; [exact TJ|]. unfold between, at2. cbn. lra. }
  { constructor. }
  { reflexivity. }
  { exact U. }
  assert (LP : loop hBox 1 2 (1 / 10) (1 / 2) m (hC 5 1 0) m' (hC (5 + 1 / 20) 0 (-10))).
  { apply (loopS hBox 1 2 (1 / 10) (1 / 2) m (hC 5 1 0) m (hC 5 1 0) (hCs (hC 5 1 0)) m' bd (fun _ => -10)).
    - constructor.
    - reflexivity.
    - exact U.
    - exact B.
    - apply X. intros i jt HJ. destruct (JJ i jt HJ) as (-> & _). unfold at2. cbn. lra.
    - intros i jt HJ _. destruct (JJ i jt HJ) as (-> & _). unfold at2. cbn. lra.
    - apply CK. }
  exists m0, m, m', (hC (5 + 1 / 20) 0 (-10)). split; [exact N|]. split; [exact R1|]. split; [exact LP|]. split; [reflexivity|].
  pose proof (C41_inside wMbs 1 hL hU (hVl 1) (hVu 1) [] [] [] [] (3 / 10) (1 / 10) 1 (1 / 10) m0 [LNr gData] hBox gData 2 m (hC 5 1 0) 0 (mkJoint "b0" 1 1 None) 0 10 (-1) 1 1 (1 / 2) m' _ N
    eq_refl eq_refl eq_refl (or_introl eq_refl) (or_introl eq_refl) (or_introl eq_refl) (or_introl eq_refl) R1 eq_refl eq_refl eq_refl (CK _ _ _) eq_refl eq_refl eq_refl eq_refl eq_refl eq_refl TU ST ltac:(lra) LP). lra.
Qed.

(** C42: when a joint enters a zone beyond the security distance, with a velocity within its limits, the null
    acceleration is allowed: the damper admits the current velocity. *)
Theorem C42_no_jump : forall mbs r lq uq la ua inter secu off dt m0 ops cs mb c d m i jt l u,
  newDJ mbs r lq uq la ua [] [] [] [] inter secu off dt = Ok m0 -> nth_error mbs r = Some mb -> perDof mb la -> perDof mb ua ->
  lastSizes ops = Some d -> nth_error cs r = Some c -> Forall (cfgOk mb) (configs r ops) -> cfgOk mb c ->
  djRun m0 (ops ++ [LUp cs]) = Ok m ->
  nth_error (joints mb) i = Some jt -> jdof jt = 1%nat -> at2 lq i 0 NInf = Fin l -> at2 uq i 0 PInf = Fin u ->
  l < u -> secu < inter -> 0 <= off ->
  let q := at2 (cfQ c) i 0 0 in let al := at2 (cfAlpha c) i 0 0 in let z := zoneOf l u inter q in
  (z <> Free -> lastZone l u inter (track i (configs r ops)) <> z /\ (u - l) * secu < gap l u z q) ->
  between (at2 la i 0 NInf) al (at2 ua i 0 PInf) ->
  exists bd, djBound m = Ok bd /\ between (vget (bdL bd) (jointPosInDof mb i)) 0 (vget (bdU bd) (jointPosInDof mb i)).
Proof. exact nojump_lemma. Qed.
Print Assumptions C42_no_jump.
(** At position 2 with velocity -4, first update: the zone is entered at speed 4. *)
Example C42_used : exists m0 m bd, newDJ wMbs 1 hL hU (hVl 5) (hVu 5) [] [] [] [] (3 / 10) (1 / 10) 1 1 = Ok m0 /\
  djRun m0 ([LNr gData] ++ [LUp (hCs (hC 2 (-4) 0))]) = Ok m /\ djBound m = Ok bd /\ between (vget (bdL bd) 0) 0 (vget (bdU bd) 0).
Proof.
  destruct (hDJ 5 (3 / 10) (1 / 10) 1 1 ltac:(lra)) as (m0 & m1 & N & R1 & I1).
  destruct (hUpdate 5 (3 / 10) (1 / 10) 1 1 m1 2 (-4) 0 I1 ltac:(lra) ltac:(lra) ltac:(lra)) as (m & U & I).
  assert (RR : djRun m0 ([LNr gData] ++ [LUp (hCs (hC 2 (-4) 0))]) = Ok m) by (rewrite djRun_app, R1; cbn [bind djRun djStep_]; rewrite U; reflexivity).
  destruct (C42_no_jump wMbs 1 hL hU (hVl 5) (hVu 5) (3 / 10) (1 / 10) 1 1 m0 [LNr gData] (hCs (hC 2 (-4) 0)) hBox (hC 2 (-4) 0) gData m 0 (mkJoint "b0" 1 1 None) 0 10 N
    eq_refl eq_refl eq_refl eq_refl eq_refl ltac:(constructor) ltac:(split; [reflexivity|split; reflexivity]) RR eq_refl eq_refl eq_refl eq_refl ltac:(lra) ltac:(lra) ltac:(lra)) as (bd & B & X).
  - intros _. assert (Z : zoneOf 0 10 (3 / 10) 2 = Low) by (unfold zoneOf; destruct (Rlt_dec _ _); [auto|lra]).
    change (at2 (cfQ (hC 2 (-4) 0)) 0 0 0) with 2. rewrite Z. split; [discriminate|]. cbn [gap]. lra.
  - unfold between, at2. cbn. lra.
  - exists m0, m, bd. auto.
Qed.

(** C42, finding: a joint found at rest within its security distance at the first update must accelerate: its null
    acceleration is refused. *)
Theorem C42_refuted : exists mbs r lq uq la ua inter secu off dt m0 d mb c m bd q,
  newDJ mbs r lq uq la ua [] [] [] [] inter secu off dt = Ok m0 /\ nth_error mbs r = Some mb /\ cfgOk mb c /\
  0 <= secu < inter /\ inter <= 1 / 2 /\ 0 < off /\
  djRun m0 [LNr d; LUp (hCs c)] = Ok m /\ djBound m = Ok bd /\
  at2 lq 0 0 NInf = Fin 0 /\ at2 uq 0 0 PInf = Fin 10 /\ at2 (cfQ c) 0 0 0 = q /\ 0 < q < 10 /\ at2 (cfAlpha c) 0 0 0 = 0 /\
  between (at2 la 0 0 NInf) 0 (at2 ua 0 0 PInf) /\
  forall x, holdsBound x bd -> x 2%nat <> 0.
Proof. exact entry_refuted_lemma. Qed.
Print Assumptions C42_refuted.

(** C43, finding: with interactive zones of more than half of the range, only the lower limit is protected where they
    overlap: all the other conditions of C41_inside hold and the joint leaves its upper limit. C41_inside protects both
    limits when the zones are disjoint. *)
Theorem C43_refuted : exists mbs r lq uq la ua inter secu off dt th m0 ops d mb b m c0 m' c' l u V,
  newDJ mbs r lq uq la ua [] [] [] [] inter secu off dt = Ok m0 /\ nth_error mbs r = Some mb /\ cfgOk mb c0 /\ jdof (nth 0 (joints mb) (mkJoint "" 0 0 None)) = 1%nat /\
  djRun m0 ops = Ok m /\ configs r ops = [] /\ lastSizes ops = Some d /\ alphaDBegin d r = Ok b /\
  at2 lq 0 0 NInf = Fin l /\ at2 uq 0 0 PInf = Fin u /\ at2 la 0 0 NInf = Fin (- V) /\ at2 ua 0 0 PInf = Fin V /\
  0 <= secu < inter /\ inter < 1 /\ 0 <= off /\ 9 * (dt * V) <= (u - l) * (inter - secu) /\ 8 * (dt * off) <= (u - l) * (inter - secu) /\
  startsOk l u secu dt V (at2 (cfQ c0) 0 0 0) (at2 (cfAlpha c0) 0 0 0) /\ 0 <= th <= 1 /\
  loop mb r b dt th m c0 m' c' /\ u < at2 (cfQ c') 0 0 0.
Proof. exact both_refuted_lemma. Qed.
Print Assumptions C43_refuted.

(** C73, findings: on a floating base the jerk limits of earlier updates stay in force and can leave no acceleration at
    all, although zero meets every limit; and the velocity limits are applied to the accelerations. *)
Theorem C73_ratchet_refuted : exists mbs r lq uq la ua ladd uadd inter secu off dt m0 d mb c c' m bd,
  newDJ mbs r lq uq la ua [] [] ladd uadd inter secu off dt = Ok m0 /\ nth_error mbs r = Some mb /\ cfgOk mb c /\ cfgOk mb c' /\
  djRun m0 ([LNr d; LUp [c]] ++ [LUp [c']]) = Ok m /\ djBound m = Ok bd /\
  (forall i k, isDof mb i k -> between (at2 la i k NInf) 0 (at2 ua i k PInf) /\ jerkOk dt (at2 ladd i k NInf) (at2 uadd i k PInf) (at2 (cfAlphaD c') i k 0) 0) /\
  forall x, ~ holdsBound x bd.
Proof. exact ratchet_refuted_lemma. Qed.
Print Assumptions C73_ratchet_refuted.
Theorem C73_velocity_refuted : exists mbs r lq uq la ua inter secu off dt m0 d mb c m bd x,
  newDJ mbs r lq uq la ua [] [] [] [] inter secu off dt = Ok m0 /\ nth_error mbs r = Some mb /\ cfgOk mb c /\
  djRun m0 ([LNr d; LUp [c]] ++ [LUp [c]]) = Ok m /\ djBound m = Ok bd /\
  (forall i k, isDof mb i k -> between (at2 la i k NInf) (at2 (cfAlpha c) i k 0 + dt * x (jointPosInDof mb i + k)%nat) (at2 ua i k PInf)) /\
  ~ holdsBound x bd.
Proof. exact multi_refuted_lemma. Qed.
Print Assumptions C73_velocity_refuted.
