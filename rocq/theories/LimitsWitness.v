(** Consequences and concrete cases of the joint limit constraints. *)
From Verif Require Export DamperLoop MotionWitness.
Open Scope string_scope.
Open Scope list_scope.
Open Scope R_scope.

(** ** JointLimitsConstr *)
Lemma position_lemma mbs r lq uq dt m0 ops cs mb c d :
  newJL mbs r lq uq [] [] [] [] dt = Ok m0 -> nth_error mbs r = Some mb -> fixedBase mb -> flat mb ->
  perDof mb lq -> perDof mb uq ->
  lastSizes ops = Some d -> nth_error cs r = Some c -> cfgOk mb c ->
  (exists m, jlRun m0 ops = Ok m) ->
  exists m bd b, jlRun m0 (ops ++ [LUp cs]) = Ok m /\ alphaDBegin d r = Ok b /\ jlBound m = Ok bd /\
  forall x, holdsBound x bd <-> forall i k, isDof mb i k ->
    between (at2 lq i k NInf) (at2 (cfQ c) i k 0 + at2 (cfAlpha c) i k 0 * dt + x (b + jointPosInDof mb i + k)%nat * (dt * dt) / 2) (at2 uq i k PInf).
Proof.
  intros HN M FB FL P1 P2 HL HC CC HR.
  destruct (jointLimits_lemma _ _ _ _ _ _ _ _ _ _ _ _ _ _ _ HN M FB FL P1 P2 (or_introl eq_refl) (or_introl eq_refl) (or_introl eq_refl) (or_introl eq_refl) HL HC CC HR)
    as (m & bd & b & A & B & C & D).
  exists m, bd, b. split; [auto|]. split; [auto|]. split; [auto|]. intros x. rewrite D.
  assert (EMP : forall i k (dflt : ext), at2 [] i k dflt = dflt) by (intros; unfold at2; destruct i; destruct k; reflexivity).
  split; intros H i k Dk; specialize (H i k Dk); cbv zeta in *.
  - exact (proj1 H).
  - rewrite !EMP. unfold jerkOk. repeat split; apply H.
Qed.

(** Bounds after an update, on a robot of any joints with a fixed base: positions are taken from the end of q. *)
Lemma jlUpdate_get mb r lq uq lad uad ladd uadd dt od m cs c :
  jlInv mb r lq uq lad uad ladd uadd dt od m -> fixedBase mb -> (nrDof mb <= nrParams mb)%nat -> nth_error cs r = Some c -> cfgOk mb c ->
  exists m', jlUpdate cs m = Ok m' /\ jlBegin m' = jlBegin m /\ vlen (jlLow m') = nrDof mb /\ vlen (jlUp m') = nrDof mb /\
  forall j, (j < nrDof mb)%nat -> let qa := (nth (nrParams mb - nrDof mb + j) (concat (cfQ c)) 0, nth j (concat (cfAlpha c)) 0) in let p := nth j (concat (cfAlphaD c)) 0 in
    vget (jlLow m') j = emax (emax (stepLimit dt (nth j (concat lq) NInf) qa) (nth j (concat lad) NInf)) (eaddr (emulr (nth j (concat ladd) NInf) dt) p) /\
    vget (jlUp m') j = emin (emin (stepLimit dt (nth j (concat uq) PInf) qa) (nth j (concat uad) PInf)) (eaddr (emulr (nth j (concat uadd) PInf) dt) p).
Proof.
  intros [V1 V2 V3 V4 V5 V6 V7 V8 V9 V10 V11 V12 V13 V14 V15 V16] FB LE HC (C1 & C2 & C3).
  assert (O : jlOff m = 0%nat).
  { rewrite V4. destruct (nth_error (joints mb) 0) as [j|] eqn:E; auto. specialize (FB j E). destruct (Nat.ltb_spec 1 (jdof j)); [lia|auto]. }
  rewrite O in *. rewrite Nat.sub_0_r in *. specialize (V7 eq_refl). specialize (V8 eq_refl).
  assert (LQ : length (concat (cfQ c)) = nrParams mb) by (rewrite length_concat', C1; reflexivity).
  pose proof (perDof_len _ _ C2) as LA. pose proof (perDof_len _ _ C3) as LP.
  unfold jlUpdate. rewrite V1, (ContactProofs.vec_at_Some _ _ _ HC). cbn [bind].
  rewrite !paramTo_def by (rewrite ?V9, ?V10, ?V11; lia). cbn [bind]. rewrite V9, V10, V11, V5.
  rewrite !vtail_def by (simpl; lia). cbn [bind vlen vget]. rewrite Nat.sub_diag. cbn [Nat.add].
  rewrite (vzip_def pair) by reflexivity. cbn [bind vlen vget].
  rewrite (vzip_def _ (jlQMin m)), (vzip_def _ (jlQMax m)) by (simpl; auto). cbn [bind vlen vget]. rewrite V5, V6.
  rewrite V12, V13, V14, V15.
  repeat (rewrite vzip_def by reflexivity; cbn [bind vlen vget]). eexists. split; [reflexivity|]. cbn [jlBegin jlLow jlUp vlen vget].
  repeat (split; [reflexivity|]). intros j Hj. rewrite V2, V7, V8 by auto.
  rewrite (nth_indep (concat (cfQ c)) _ 0), (nth_indep (concat (cfAlpha c)) _ 0), (nth_indep (concat (cfAlphaD c)) _ 0) by lia. auto.
Qed.

Lemma Rltb01 : Rltb 0 1 = true.
Proof. unfold Rltb. destruct (Rlt_dec 0 1); [auto|lra]. Qed.

(** Robot 1 of wMbs: a slide with position limits 0 and 10; it starts at variable 2. *)
Definition hC (q a ad : R) : mbcfg := mkCfg [[q]] [[a]] [[ad]].
Definition hBox : multibody := mkMB [mkJoint "b0" 1 1 None].
Definition hL : list (list ext) := [[Fin 0]].
Definition hU : list (list ext) := [[Fin 10]].
Definition hJLOf (lad uad ladd uadd : list (list ext)) : jlim :=
  match newJL wMbs 1 hL hU lad uad ladd uadd 1 with Ok m => m | _ => mkJL 0 0 0 0 (vfill 0 NInf) (vfill 0 NInf) (vfill 0 0) (vfill 0 0) (vfill 0 NInf) (vfill 0 NInf) (vfill 0 NInf) (vfill 0 NInf) (vfill 0 NInf) (vfill 0 NInf) (vfill 0 0) end.
Lemma hNew : newJL wMbs 1 hL hU [] [] [] [] 1 = Ok (hJLOf [] [] [] []).
Proof. unfold hJLOf, newJL. rewrite Rltb01. reflexivity. Qed.
Lemma hNewJ : newJL wMbs 1 hL hU [[Fin (-3)]] [[Fin 3]] [[Fin (-2)]] [[Fin 2]] 1 = Ok (hJLOf [[Fin (-3)]] [[Fin 3]] [[Fin (-2)]] [[Fin 2]]).
Proof. unfold hJLOf, newJL. rewrite Rltb01. reflexivity. Qed.
Lemma hFixed : fixedBase hBox.
Proof. intros j H. injection H as <-. simpl. lia. Qed.
Lemma hFlat : flat hBox.
Proof. repeat constructor. Qed.
Lemma hRobot m lad uad ladd uadd : newJL wMbs 1 hL hU lad uad ladd uadd 1 = Ok m -> exists m', jlRun m [LNr gData] = Ok m'.
Proof.
  intros H. destruct (newJL_inv _ _ _ _ _ _ _ _ _ _ H) as (mb & _ & _ & I). cbn [jlRun jlStep_]. unfold jlNrVars. rewrite (jvR _ _ _ _ _ _ _ _ _ _ _ I). cbn. eauto.
Qed.
Lemma hDof i k : isDof hBox i k <-> i = 0%nat /\ k = 0%nat.
Proof.
  split; [intros (jt & E & K)|intros (-> & ->); exists (mkJoint "b0" 1 1 None); simpl; auto].
  destruct i as [|i]; [|destruct i; discriminate]. injection E as <-. simpl in K. split; [auto|lia].
Qed.

(** A floating base followed by a slide: the sizes of position and acceleration limits differ. *)
Definition hFloat : list multibody := [mkMB [mkJoint "root" 6 7 None; mkJoint "s" 1 1 None]].
Definition hDataF : solverData := match nrVarsData hFloat [] [] with Ok (d, _) => d | _ => initData end.
Lemma floating_refuted_lemma : exists mbs r lq uq dt mb c d m0 m,
  nth_error mbs r = Some mb /\ perDof mb lq /\ perDof mb uq /\ cfgOk mb c /\ newJL mbs r lq uq [] [] [] [] dt = Ok m0 /\
  jlRun m0 [LNr d] = Ok m /\ jlRun m0 [LNr d; LUp [c]] = UB.
Proof.
  pose (six := fun e : ext => [[e; e; e; e; e; e]; [e]]).
  exists hFloat, 0%nat, (six (Fin 0)), (six (Fin 1)), 1, (mkMB [mkJoint "root" 6 7 None; mkJoint "s" 1 1 None]),
    (mkCfg [[1; 0; 0; 0; 0; 0; 0]; [0]] [[0; 0; 0; 0; 0; 0]; [0]] [[0; 0; 0; 0; 0; 0]; [0]]), hDataF.
  assert (N : exists m0, newJL hFloat 0 (six (Fin 0)) (six (Fin 1)) [] [] [] [] 1 = Ok m0) by (unfold newJL; rewrite Rltb01; cbn; eauto).
  destruct N as (m0 & N). exists m0.
  assert (R1 : exists m, jlRun m0 [LNr hDataF] = Ok m).
  { destruct (newJL_inv _ _ _ _ _ _ _ _ _ _ N) as (mb & _ & _ & I). cbn [jlRun jlStep_]. unfold jlNrVars. rewrite (jvR _ _ _ _ _ _ _ _ _ _ _ I). cbn. eauto. }
  destruct R1 as (m & R1). exists m. repeat (split; [first [exact N|exact R1|reflexivity|(split; [reflexivity|split; reflexivity])]|]).
  change [LNr hDataF; LUp [mkCfg [[1; 0; 0; 0; 0; 0; 0]; [0]] [[0; 0; 0; 0; 0; 0]; [0]] [[0; 0; 0; 0; 0; 0]; [0]]]] with
    ([LNr hDataF] ++ [LUp [mkCfg [[1; 0; 0; 0; 0; 0; 0]; [0]] [[0; 0; 0; 0; 0; 0]; [0]] [[0; 0; 0; 0; 0; 0]; [0]]]]).
  rewrite jlRun_app, R1. cbn [bind jlRun jlStep_].
  rewrite (floating_lemma _ _ _ _ _ _ _ _ _ _ [LNr hDataF] _ _ m _ N eq_refl eq_refl ltac:(simpl; lia) R1). reflexivity.
Qed.

(** A slide followed by a ball joint: the position of the slide is read in the quaternion. *)
Definition hBall : multibody := mkMB [mkJoint "s" 1 1 None; mkJoint "ball" 3 4 None].
Definition hDataB : solverData := match nrVarsData [hBall] [] [] with Ok (d, _) => d | _ => initData end.
Lemma spherical_refuted_lemma : exists mbs r lq uq dt mb c d m0 m bd b x,
  nth_error mbs r = Some mb /\ fixedBase mb /\ perDof mb lq /\ perDof mb uq /\ cfgOk mb c /\ newJL mbs r lq uq [] [] [] [] dt = Ok m0 /\
  jlRun m0 [LNr d; LUp [c]] = Ok m /\ alphaDBegin d r = Ok b /\ jlBound m = Ok bd /\ holdsBound x bd /\
  ~ between (at2 lq 0 0 NInf) (at2 (cfQ c) 0 0 0 + at2 (cfAlpha c) 0 0 0 * dt + x (b + jointPosInDof mb 0)%nat * (dt * dt) / 2) (at2 uq 0 0 PInf).
Proof.
  pose (lq := [[Fin 0]; [NInf; NInf; NInf]]). pose (uq := [[Fin 1]; [PInf; PInf; PInf]]).
  assert (N : newJL [hBall] 0 lq uq [] [] [] [] 1 = Ok (match newJL [hBall] 0 lq uq [] [] [] [] 1 with Ok m => m | _ => hJLOf [] [] [] [] end)) by (unfold newJL; rewrite Rltb01; reflexivity).
  set (m0 := match newJL [hBall] 0 lq uq [] [] [] [] 1 with Ok m => m | _ => hJLOf [] [] [] [] end) in *.
  pose (c := mkCfg [[1]; [0; 1; 0; 0]] [[1]; [0; 0; 0]] [[0]; [0; 0; 0]]).
  destruct (newJL_inv _ _ _ _ _ _ _ _ _ _ N) as (mb & MB & _ & I0). injection MB as <-.
  assert (R0 : exists m1, jlRun m0 [LNr hDataB] = Ok m1) by (cbn [jlRun jlStep_]; unfold jlNrVars; rewrite (jvR _ _ _ _ _ _ _ _ _ _ _ I0); cbn; eauto).
  destruct R0 as (m1 & R0). pose proof (jlRun_inv _ _ _ _ _ _ _ _ _ _ _ _ _ I0 R0) as I1. cbn [fold_left nextSizes] in I1.
  destruct (jlUpdate_get hBall 0 lq uq [] [] [] [] 1 (Some hDataB) m1 [c] c I1 ltac:(intros j H; injection H as <-; simpl; lia) ltac:(vm_compute; lia) eq_refl ltac:(split; [reflexivity|split; reflexivity])) as (m & U & B0 & L1 & L2 & G).
  assert (R1 : jlRun m0 ([LNr hDataB] ++ [LUp [c]]) = Ok m) by (rewrite jlRun_app, R0; cbn [bind jlRun jlStep_]; rewrite U; reflexivity). cbn [app] in R1.
  destruct (jvB _ _ _ _ _ _ _ _ _ _ _ I1) as (b0 & AB & BB). injection AB as <-. rewrite (jvOff _ _ _ _ _ _ _ _ _ _ _ I1) in BB. change (jlBegin m1 = 0%Z) in BB. rewrite <- B0 in BB. clear B0; rename BB into B0.
  assert (E1 : forall e, eaddr (emulr NInf 1) e = NInf) by (intros; unfold emulr; destruct (Rlt_dec 0 1); [auto|lra]).
  assert (E2 : forall e, eaddr (emulr PInf 1) e = PInf) by (intros; unfold emulr; destruct (Rlt_dec 0 1); [auto|lra]).
  assert (EMN : forall j (dflt : ext), nth j (concat (@nil (list ext))) dflt = dflt) by (intros [|j] dflt; reflexivity).
  change (nrDof hBall) with 4%nat in *. change (nrParams hBall) with 5%nat in G.
  exists [hBall], 0%nat, lq, uq, 1, hBall, c, hDataB, m0, m, (mkBound 0 (jlLow m) (jlUp m)), 0%nat, (fun _ => 0).
  split; [reflexivity|]. split; [intros j H; injection H as <-; simpl; lia|]. split; [reflexivity|]. split; [reflexivity|].
  split; [split; [reflexivity|split; reflexivity]|]. split; [exact N|]. split; [exact R1|]. split; [reflexivity|].
  split; [unfold jlBound; rewrite B0; reflexivity|]. split.
  - assert (A : forall j, (j < 4)%nat -> between (vget (jlLow m) j) 0 (vget (jlUp m) j)).
    { intros j Hj. destruct (G j Hj) as (-> & ->). rewrite between_emax_emin, !EMN, E1, E2. split; [|unfold between; simpl; auto].
      rewrite stepLimit_between by lra. unfold between. destruct j as [|[|[|[|j]]]]; [| | | |lia]; simpl; auto. lra. }
    unfold holdsBound. cbn [bdL bdU bdBegin]. rewrite L1, L2. intros j. split; intros Hj; apply A; auto.
  - unfold at2, c, lq, uq. cbn. unfold between. simpl. lra.
Qed.

(** ** DamperJointLimitsConstr *)
Lemma nojump_lemma mbs r lq uq la ua inter secu off dt m0 ops cs mb c d m i jt l u :
  newDJ mbs r lq uq la ua [] [] [] [] inter secu off dt = Ok m0 -> nth_error mbs r = Some mb -> perDof mb la -> perDof mb ua ->
  lastSizes ops = Some d -> nth_error cs r = Some c -> Forall (cfgOk mb) (configs r ops) -> cfgOk mb c ->
  djRun m0 (ops ++ [LUp cs]) = Ok m ->
  nth_error (joints mb) i = Some jt -> jdof jt = 1%nat -> at2 lq i 0 NInf = Fin l -> at2 uq i 0 PInf = Fin u ->
  l < u -> secu < inter -> 0 <= off ->
  let q := at2 (cfQ c) i 0 0 in let al := at2 (cfAlpha c) i 0 0 in let z := zoneOf l u inter q in
  (z <> Free -> lastZone l u inter (track i (configs r ops)) <> z /\ (u - l) * secu < gap l u z q) ->
  between (at2 la i 0 NInf) al (at2 ua i 0 PInf) ->
  exists bd, djBound m = Ok bd /\ between (vget (bdL bd) (jointPosInDof mb i)) 0 (vget (bdU bd) (jointPosInDof mb i)).
Proof.
  intros HN M PA PU HL HC FC CC HR HJ D1 L U Hlu Hsi Hoff q al z Hz HV.
  pose proof (newDJ_inv _ _ _ _ _ _ _ _ _ _ _ _ _ _ _ _ HN M PA PU) as I0.
  assert (CF : configs r (ops ++ [LUp cs]) = configs r ops ++ [c]) by (rewrite configs_app; simpl; rewrite HC; auto).
  pose proof (djRun_inv _ _ _ _ _ _ _ _ _ _ _ _ _ _ _ (or_introl eq_refl) (or_introl eq_refl) (or_introl eq_refl) (or_introl eq_refl) I0 _ _ HR
    ltac:(rewrite CF; apply Forall_app; auto)) as I1. rewrite CF, lastSizes_app in I1. cbn [nextSizes] in I1. rewrite HL in I1.
  destruct I1 as [V1 V2 V3 V4 V5 V6 V7 V8 V9 V10 V11 (b & V12 & V12') V13 V14 V15 V16].
  eexists. unfold djBound, zidx. rewrite V12'. replace (0 <=? Z.of_nat b)%Z with true by (symmetry; apply Z.leb_le; lia). cbn [bind]. rewrite Nat2Z.id. split; [reflexivity|].
  cbn [bdL bdU]. apply (V16 i ltac:(exists jt; auto) _ _ eq_refl). cbv zeta. fold al. replace (al + dt * 0) with al by ring.
  assert (EMP : forall dflt : ext, at2 [] i 0 dflt = dflt) by (intros; unfold at2; destruct i; reflexivity). rewrite !EMP. unfold jerkOk, between at 2 3. split; [|simpl; auto].
  split; [auto|]. rewrite L, U. unfold damperOk. intros pre q0 a0 E.
  assert (TR : track i (configs r ops ++ [c]) = track i (configs r ops) ++ [(q, al)]) by (unfold track; rewrite map_app; auto).
  rewrite TR in *. apply app_inj_tail in E as (_ & E). injection E as <- <-. fold z.
  assert (SP : forall d0, (u - l) * secu < d0 -> Rabs al <= damperSpeed l u inter secu (Rabs ((((u - l) * inter - (u - l) * secu) / (d0 - (u - l) * secu)) * al) + off) d0).
  { intros d0 Hd. unfold damperSpeed. assert (HK : 0 < (u - l) * inter - (u - l) * secu) by nra. set (K := (u - l) * inter - (u - l) * secu) in *.
    assert (He : 0 < d0 - (u - l) * secu) by lra. set (e := d0 - (u - l) * secu) in *.
    rewrite Rabs_mult, (Rabs_right (K / e)) by (apply Rle_ge; unfold Rdiv; apply Rmult_le_pos; [lra|left; apply Rinv_0_lt_compat; auto]).
    replace ((K / e * Rabs al + off) * (e / K)) with (Rabs al + off * (e / K)) by (field; lra).
    assert (0 <= off * (e / K)) by (apply Rmult_le_pos; [auto|]; unfold Rdiv; apply Rmult_le_pos; [lra|left; apply Rinv_0_lt_compat; auto]). lra. }
  pose proof (Rle_abs al) as A1. pose proof (Rle_abs (- al)) as A2. rewrite Rabs_Ropp in A2.
  assert (EN : z <> Free -> enteredWith l u inter z (track i (configs r ops) ++ [(q, al)]) (q, al)).
  { intros NF. destruct (Hz NF) as (LZ & _). apply entered_now; [reflexivity|]. destruct (track i (configs r ops)) as [|p hs _] using rev_ind; [auto|].
    right. exists p, hs. split; [auto|]. destruct p. rewrite lastZone_app in LZ. auto. }
  destruct z eqn:Z; [| |auto].
  - exists (q, al). split; [apply EN; discriminate|]. destruct (Hz ltac:(discriminate)) as (_ & G). cbn [gap] in G. pose proof (SP _ G). unfold damping_. cbn [fst snd gap]. lra.
  - exists (q, al). split; [apply EN; discriminate|]. destruct (Hz ltac:(discriminate)) as (_ & G). cbn [gap] in G. pose proof (SP _ G). unfold damping_. cbn [fst snd gap]. lra.
Qed.

(** The damper of the slide of robot 1: positions in [0, 10], velocities in [-V, V], steps of [dt]. *)
Definition hVl (V : R) : list (list ext) := [[Fin (- V)]].
Definition hVu (V : R) : list (list ext) := [[Fin V]].
Definition hCs (c : mbcfg) : list mbcfg := [mkCfg [] [] []; c].
Lemma hDJ V inter secu off dt : 0 < dt -> exists m0 m, newDJ wMbs 1 hL hU (hVl V) (hVu V) [] [] [] [] inter secu off dt = Ok m0 /\ djRun m0 [LNr gData] = Ok m /\
  djInv hBox 1 hL hU (hVl V) (hVu V) [] [] [] [] inter secu off dt (Some gData) [] m.
Proof.
  intros H. assert (R0 : Rltb 0 dt = true) by (unfold Rltb; destruct (Rlt_dec 0 dt); [auto|lra]).
  assert (N : exists m0, newDJ wMbs 1 hL hU (hVl V) (hVu V) [] [] [] [] inter secu off dt = Ok m0) by (unfold newDJ; rewrite R0; cbn; eauto).
  destruct N as (m0 & N). exists m0.
  assert (R1 : exists m, djRun m0 [LNr gData] = Ok m).
  { pose proof (newDJ_inv _ _ _ _ _ _ _ _ _ _ _ _ _ _ _ _ N (eq_refl : _ = Some hBox) eq_refl eq_refl) as I. cbn [djRun djStep_]. unfold djNrVars. rewrite (dvR _ _ _ _ _ _ _ _ _ _ _ _ _ _ _ _ _ I). cbn. eauto. }
  destruct R1 as (m & R1). exists m. split; [exact N|]. split; [exact R1|].
  apply (start_inv _ _ _ _ _ _ _ _ _ _ _ _ _ _ _ [LNr gData] hBox gData m N); try reflexivity; try (left; reflexivity). exact R1.
Qed.
Lemma hUpdate V inter secu off dt m q a ad : djInv hBox 1 hL hU (hVl V) (hVu V) [] [] [] [] inter secu off dt (Some gData) [] m -> inter <> secu ->
  q <> 10 * secu -> 10 - q <> 10 * secu ->
  exists m', djUpdate (hCs (hC q a ad)) m = Ok m' /\ djInv hBox 1 hL hU (hVl V) (hVu V) [] [] [] [] inter secu off dt (Some gData) [hC q a ad] m'.
Proof.
  intros I NI N1 N2.
  destruct (djUpdate_def hBox 1 hL hU (hVl V) (hVu V) [] [] [] [] inter secu off dt (Some gData) [] m (hCs (hC q a ad)) (hC q a ad) I eq_refl) as (m' & U); auto.
  - split; [reflexivity|split; reflexivity].
  - intros i jt HJ D1. destruct i as [|i]; [|destruct i; discriminate]. injection HJ as <-. split; [reflexivity|]. exists 0, 10. split; [reflexivity|]. split; [reflexivity|]. split; [lra|].
    intros z _ _ NF. unfold at2; cbn. destruct z; cbn [gap]; try congruence; intros E; [apply N1|apply N2]; lra.
  - exists m'. split; [auto|].
    assert (C : cfgOk hBox (hC q a ad)) by (split; [reflexivity|split; reflexivity]).
    exact (djStep_inv _ _ _ _ _ _ _ _ _ _ _ _ _ _ (Some gData) [] m (LUp (hCs (hC q a ad))) m' (or_introl eq_refl) (or_introl eq_refl) (or_introl eq_refl) (or_introl eq_refl) I U ltac:(constructor; [exact C|constructor])).
Qed.
Lemma hHolds V inter secu off dt m c x bd : djInv hBox 1 hL hU (hVl V) (hVu V) [] [] [] [] inter secu off dt (Some gData) [c] m -> djBound m = Ok bd ->
  (holdsBound x bd <-> let v := at2 (cfAlpha c) 0 0 0 + dt * x 2%nat in (- V <= v <= V) /\ damperOk (Fin 0) (Fin 10) inter secu off (track 0 [c]) v).
Proof.
  intros I B. pose proof (dvOne _ _ _ _ _ _ _ _ _ _ _ _ _ _ _ _ _ I 0%nat ltac:(eexists; split; reflexivity) [] c eq_refl) as H.
  pose proof (dvB _ _ _ _ _ _ _ _ _ _ _ _ _ _ _ _ _ I) as (b & AB & BB). injection AB as <-. change (djBegin m = 2%Z) in BB.
  pose proof (dvLow _ _ _ _ _ _ _ _ _ _ _ _ _ _ _ _ _ I) as LL. pose proof (dvUp _ _ _ _ _ _ _ _ _ _ _ _ _ _ _ _ _ I) as LU.
  unfold djBound in B. rewrite BB in B. cbn in B. injection B as <-. unfold holdsBound. cbn [bdL bdU bdBegin]. rewrite LL, LU. change (nrDof hBox) with 1%nat. change (jointPosInDof hBox 0) with 0%nat in H.
  specialize (H (x 2%nat)). cbv zeta in *.
  transitivity (between (vget (djLow m) 0) (x 2%nat) (vget (djUp m) 0)).
  - unfold between. split; [intros K; destruct (K 0%nat) as (K1 & K2); split; [apply K1|apply K2]; lia|].
    intros (K1 & K2) j. split; intros Hj; assert (j = 0%nat) as -> by lia; auto.
  - rewrite H. change (at2 hL 0 0 NInf) with (Fin 0). change (at2 hU 0 0 PInf) with (Fin 10). change (at2 (hVl V) 0 0 NInf) with (Fin (- V)). change (at2 (hVu V) 0 0 PInf) with (Fin V).
    change (at2 [] 0 0 NInf) with NInf. change (at2 [] 0 0 PInf) with PInf. change ([] ++ [c]) with [c]. unfold jerkOk, between. cbn [ele]. tauto.
Qed.

Lemma hBound V inter secu off dt cs m : djInv hBox 1 hL hU (hVl V) (hVu V) [] [] [] [] inter secu off dt (Some gData) cs m -> djBound m = Ok (mkBound 2 (djLow m) (djUp m)).
Proof.
  intros I. pose proof (dvB _ _ _ _ _ _ _ _ _ _ _ _ _ _ _ _ _ I) as (b & AB & BB). injection AB as <-. change (djBegin m = 2%Z) in BB. unfold djBound. rewrite BB. reflexivity.
Qed.
(** Refutation: first update within the security distance; the null acceleration is refused although the joint is at rest. *)
Lemma entry_refuted_lemma : exists mbs r lq uq la ua inter secu off dt m0 d mb c m bd q,
  newDJ mbs r lq uq la ua [] [] [] [] inter secu off dt = Ok m0 /\ nth_error mbs r = Some mb /\ cfgOk mb c /\
  0 <= secu < inter /\ inter <= 1 / 2 /\ 0 < off /\
  djRun m0 [LNr d; LUp (hCs c)] = Ok m /\ djBound m = Ok bd /\
  at2 lq 0 0 NInf = Fin 0 /\ at2 uq 0 0 PInf = Fin 10 /\ at2 (cfQ c) 0 0 0 = q /\ 0 < q < 10 /\ at2 (cfAlpha c) 0 0 0 = 0 /\
  between (at2 la 0 0 NInf) 0 (at2 ua 0 0 PInf) /\
  forall x, holdsBound x bd -> x 2%nat <> 0.
Proof.
  destruct (hDJ 1 (3 / 10) (1 / 5) 1 1 ltac:(lra)) as (m0 & m1 & N & R1 & I1).
  destruct (hUpdate 1 (3 / 10) (1 / 5) 1 1 m1 1 0 0 I1 ltac:(lra) ltac:(lra) ltac:(lra)) as (m & U & I).
  exists wMbs, 1%nat, hL, hU, (hVl 1), (hVu 1), (3 / 10), (1 / 5), 1, 1, m0, gData, hBox, (hC 1 0 0), m, (mkBound 2 (djLow m) (djUp m)), 1.
  split; [exact N|]. split; [reflexivity|]. split; [split; [reflexivity|split; reflexivity]|]. split; [lra|]. split; [lra|]. split; [lra|].
  split. { change [LNr gData; LUp (hCs (hC 1 0 0))] with ([LNr gData] ++ [LUp (hCs (hC 1 0 0))]). rewrite djRun_app, R1. cbn [bind djRun djStep_]. rewrite U. reflexivity. }
  pose proof (hBound _ _ _ _ _ _ _ I) as B.
  split; [exact B|]. split; [reflexivity|]. split; [reflexivity|]. split; [reflexivity|]. split; [lra|]. split; [reflexivity|].
  split; [unfold between; simpl; lra|]. intros x HX E0.
  apply (hHolds _ _ _ _ _ _ _ _ _ I B) in HX. cbv zeta in HX. rewrite E0 in HX. destruct HX as (_ & D). specialize (D [] 1 0 eq_refl).
  assert (Z : zoneOf 0 10 (3 / 10) 1 = Low) by (unfold zoneOf; destruct (Rlt_dec _ _); [auto|lra]). rewrite Z in D. destruct D as (e & E & D).
  assert (e = (1, 0)) as ->. { eapply entered_unique; [exact E|]. apply (entered_now 0 10 (3 / 10) [] 1 0 Low Z). auto. }
  unfold damperSpeed, damping_ in D. cbn in D. rewrite Rmult_0_r, Rabs_R0 in D. lra.
Qed.
(** Refutation: with zones of more than half of the range, the joint leaves its upper limit in one step. *)
Lemma both_refuted_lemma : exists mbs r lq uq la ua inter secu off dt th m0 ops d mb b m c0 m' c' l u V,
  newDJ mbs r lq uq la ua [] [] [] [] inter secu off dt = Ok m0 /\ nth_error mbs r = Some mb /\ cfgOk mb c0 /\ jdof (nth 0 (joints mb) (mkJoint "" 0 0 None)) = 1%nat /\
  djRun m0 ops = Ok m /\ configs r ops = [] /\ lastSizes ops = Some d /\ alphaDBegin d r = Ok b /\
  at2 lq 0 0 NInf = Fin l /\ at2 uq 0 0 PInf = Fin u /\ at2 la 0 0 NInf = Fin (- V) /\ at2 ua 0 0 PInf = Fin V /\
  0 <= secu < inter /\ inter < 1 /\ 0 <= off /\ 9 * (dt * V) <= (u - l) * (inter - secu) /\ 8 * (dt * off) <= (u - l) * (inter - secu) /\
  startsOk l u secu dt V (at2 (cfQ c0) 0 0 0) (at2 (cfAlpha c0) 0 0 0) /\ 0 <= th <= 1 /\
  loop mb r b dt th m c0 m' c' /\ u < at2 (cfQ c') 0 0 0.
Proof.
  destruct (hDJ 1 (19 / 20) 0 0 1 ltac:(lra)) as (m0 & m1 & N & R1 & I1).
  destruct (hUpdate 1 (19 / 20) 0 0 1 m1 (94 / 10) 0 0 I1 ltac:(lra) ltac:(lra) ltac:(lra)) as (m & U & I).
  exists wMbs, 1%nat, hL, hU, (hVl 1), (hVu 1), (19 / 20), 0, 0, 1, 1, m0, [LNr gData], gData, hBox, 2%nat, m1, (hC (94 / 10) 0 0), m, (hC (104 / 10) 1 1), 0, 10, 1.
  split; [exact N|]. split; [reflexivity|]. split; [split; [reflexivity|split; reflexivity]|]. split; [reflexivity|]. split; [exact R1|].
  split; [reflexivity|]. split; [reflexivity|]. split; [reflexivity|]. split; [reflexivity|]. split; [reflexivity|]. split; [reflexivity|]. split; [reflexivity|].
  split; [lra|]. split; [lra|]. split; [lra|]. split; [lra|]. split; [lra|].
  split. { unfold startsOk, at2. simpl. rewrite Rabs_R0. lra. }
  split; [lra|]. split; [|unfold at2; simpl; lra].
  pose proof (hBound _ _ _ _ _ _ _ I) as B.
  apply (loopS hBox 1 2 1 1 m1 (hC (94 / 10) 0 0) m1 (hC (94 / 10) 0 0) (hCs (hC (94 / 10) 0 0)) m (mkBound 2 (djLow m) (djUp m)) (fun _ => 1)).
  - constructor.
  - reflexivity.
  - exact U.
  - exact B.
  - apply (hHolds _ _ _ _ _ _ _ _ _ I B). cbv zeta. unfold at2. cbn [hC cfAlpha nth]. split; [lra|]. intros pre q al E.
    destruct pre as [|p pre]; [|destruct pre; discriminate]. injection E as <- <-.
    assert (Z : zoneOf 0 10 (19 / 20) (94 / 10) = Low) by (unfold zoneOf; destruct (Rlt_dec _ _); [auto|lra]).
    match goal with |- context [zoneOf 0 10 _ ?q] => change q with (94 / 10) end. rewrite Z. exists (94 / 10, 0). split; [apply (entered_now 0 10 (19 / 20) [] (94 / 10) 0 Low Z); auto|].
    unfold damperSpeed, damping_. cbn. rewrite Rmult_0_r, Rabs_R0. lra.
  - intros i jt HJ D1. destruct i as [|i]; [|destruct i; discriminate]. unfold at2. cbn. lra.
  - split; [reflexivity|split; reflexivity].
Qed.
(** Refutation: on a floating base, two updates leave no acceleration. *)
Definition hSix (e : ext) : list (list ext) := [[e; e; e; e; e; e]].
Definition hSixR (a : R) : list (list R) := [[a; a; a; a; a; a]].
Definition hRoot : multibody := mkMB [mkJoint "root" 6 7 None].
Definition hDataR : solverData := match nrVarsData [hRoot] [] [] with Ok (d, _) => d | _ => initData end.
Definition hCR (ad : R) : mbcfg := mkCfg [[1; 0; 0; 0; 0; 0; 0]] (hSixR 0) (hSixR ad).
Lemma hRootRun m0 (vl vu jl ju : ext) ad1 ad2 : newDJ [hRoot] 0 (hSix NInf) (hSix PInf) (hSix vl) (hSix vu) [] [] (hSix jl) (hSix ju) (1 / 10) 0 0 1 = Ok m0 ->
  exists m, djRun m0 ([LNr hDataR; LUp [hCR ad1]] ++ [LUp [hCR ad2]]) = Ok m.
Proof.
  intros N. pose proof (newDJ_inv _ _ _ _ _ _ _ _ _ _ _ _ _ _ _ hRoot N eq_refl eq_refl eq_refl) as I0.
  assert (PJ : forall e, perDofOpt hRoot (hSix e)) by (intros; right; reflexivity).
  assert (CK : forall a, cfgOk hRoot (hCR a)) by (intros; split; [reflexivity|split; reflexivity]).
  assert (UP : forall od cs m a, djInv hRoot 0 (hSix NInf) (hSix PInf) (hSix vl) (hSix vu) [] [] (hSix jl) (hSix ju) (1 / 10) 0 0 1 od cs m ->
     exists m', djStep_ m (LUp [hCR a]) = Ok m' /\ djInv hRoot 0 (hSix NInf) (hSix PInf) (hSix vl) (hSix vu) [] [] (hSix jl) (hSix ju) (1 / 10) 0 0 1 od (cs ++ [hCR a]) m').
  { intros od cs m a I. destruct (djUpdate_def _ _ _ _ _ _ _ _ _ _ _ _ _ _ _ _ _ [hCR a] (hCR a) I eq_refl (CK a)) as (m' & U); [|lra|].
    - intros i jt HJ D1. destruct i as [|i]; [|destruct i; discriminate]. injection HJ as <-. discriminate.
    - exists m'. split; [exact U|]. exact (djStep_inv _ _ _ _ _ _ _ _ _ _ _ _ _ _ od cs m (LUp [hCR a]) m' (or_introl eq_refl) (or_introl eq_refl) (PJ jl) (PJ ju) I U ltac:(constructor; [apply CK|constructor])). }
  assert (R1 : exists m1, djStep_ m0 (LNr hDataR) = Ok m1) by (cbn [djStep_]; unfold djNrVars; rewrite (dvR _ _ _ _ _ _ _ _ _ _ _ _ _ _ _ _ _ I0); cbn; eauto).
  destruct R1 as (m1 & R1). pose proof (djStep_inv _ _ _ _ _ _ _ _ _ _ _ _ _ _ _ _ _ _ _ (or_introl eq_refl) (or_introl eq_refl) (PJ jl) (PJ ju) I0 R1 ltac:(constructor)) as I1.
  destruct (UP _ _ _ ad1 I1) as (m2 & R2 & I2). destruct (UP _ _ _ ad2 I2) as (m3 & R3 & _). exists m3. cbn [app djRun]. rewrite R1. cbn [bind]. rewrite R2. cbn [bind]. rewrite R3. reflexivity.
Qed.
Lemma hRootNew (vl vu jl ju : ext) : exists m0, newDJ [hRoot] 0 (hSix NInf) (hSix PInf) (hSix vl) (hSix vu) [] [] (hSix jl) (hSix ju) (1 / 10) 0 0 1 = Ok m0.
Proof. unfold newDJ. rewrite Rltb01. cbn. eauto. Qed.
Lemma ratchet_refuted_lemma : exists mbs r lq uq la ua ladd uadd inter secu off dt m0 d mb c c' m bd,
  newDJ mbs r lq uq la ua [] [] ladd uadd inter secu off dt = Ok m0 /\ nth_error mbs r = Some mb /\ cfgOk mb c /\ cfgOk mb c' /\
  djRun m0 ([LNr d; LUp [c]] ++ [LUp [c']]) = Ok m /\ djBound m = Ok bd /\
  (forall i k, isDof mb i k -> between (at2 la i k NInf) 0 (at2 ua i k PInf) /\ jerkOk dt (at2 ladd i k NInf) (at2 uadd i k PInf) (at2 (cfAlphaD c') i k 0) 0) /\
  forall x, ~ holdsBound x bd.
Proof.
  destruct (hRootNew NInf PInf (Fin (-1)) (Fin 1)) as (m0 & N). destruct (hRootRun _ _ _ _ _ 5 0 N) as (m & R1).
  assert (CK : forall a, cfgOk hRoot (hCR a)) by (intros; split; [reflexivity|split; reflexivity]).
  destruct (damper_lemma [hRoot] 0 (hSix NInf) (hSix PInf) (hSix NInf) (hSix PInf) [] [] (hSix (Fin (-1))) (hSix (Fin 1)) (1 / 10) 0 0 1 m0 [LNr hDataR; LUp [hCR 5]] [hCR 0] hRoot (hCR 0) hDataR m N
     eq_refl eq_refl eq_refl (or_introl eq_refl) (or_introl eq_refl) (or_intror eq_refl) (or_intror eq_refl) eq_refl eq_refl ltac:(constructor; [apply CK|constructor]) (CK 0) R1) as (bd & b & _ & B & X).
  exists [hRoot], 0%nat, (hSix NInf), (hSix PInf), (hSix NInf), (hSix PInf), (hSix (Fin (-1))), (hSix (Fin 1)), (1 / 10), 0, 0, 1, m0, hDataR, hRoot, (hCR 5), (hCR 0), m, bd.
  split; [exact N|]. split; [reflexivity|]. split; [apply CK|]. split; [apply CK|]. split; [exact R1|]. split; [exact B|]. split.
  - intros i k (jt & HJ & K). destruct i as [|i]; [|destruct i; discriminate]. injection HJ as <-. simpl in K.
    unfold at2, jerkOk, between. do 6 (destruct k as [|k]; [cbn; split; [auto|lra]|]). lia.
  - intros x H. pose proof (proj1 (X x) H 0%nat (mkJoint "root" 6 7 None) 0%nat eq_refl ltac:(simpl; lia)) as Q. cbv zeta in Q. destruct Q as (_ & _ & J). cbn [jdof] in J.
    pose proof (J (hCR 5) ltac:(simpl; auto)) as J1. pose proof (J (hCR 0) ltac:(simpl; auto)) as J2.
    unfold jerkOk, between, at2 in J1, J2. cbn in J1, J2. lra.
Qed.
(** Refutation: on a floating base, the velocity limits bound the acceleration. *)
Lemma multi_refuted_lemma : exists mbs r lq uq la ua inter secu off dt m0 d mb c m bd x,
  newDJ mbs r lq uq la ua [] [] [] [] inter secu off dt = Ok m0 /\ nth_error mbs r = Some mb /\ cfgOk mb c /\
  djRun m0 ([LNr d; LUp [c]] ++ [LUp [c]]) = Ok m /\ djBound m = Ok bd /\
  (forall i k, isDof mb i k -> between (at2 la i k NInf) (at2 (cfAlpha c) i k 0 + dt * x (jointPosInDof mb i + k)%nat) (at2 ua i k PInf)) /\
  ~ holdsBound x bd.
Proof.
  pose (c := mkCfg [[1; 0; 0; 0; 0; 0; 0]] (hSixR (-2)) (hSixR 0)).
  assert (CK : cfgOk hRoot c) by (split; [reflexivity|split; reflexivity]).
  assert (N' : exists m0, newDJ [hRoot] 0 (hSix NInf) (hSix PInf) (hSix (Fin (-2))) (hSix (Fin 1)) [] [] [] [] (1 / 10) 0 0 1 = Ok m0) by (unfold newDJ; rewrite Rltb01; cbn; eauto).
  destruct N' as (m0' & N).
  pose proof (newDJ_inv _ _ _ _ _ _ _ _ _ _ _ _ _ _ _ hRoot N eq_refl eq_refl eq_refl) as I0.
  assert (UP : forall od cs m, djInv hRoot 0 (hSix NInf) (hSix PInf) (hSix (Fin (-2))) (hSix (Fin 1)) [] [] [] [] (1 / 10) 0 0 1 od cs m ->
     exists m', djStep_ m (LUp [c]) = Ok m' /\ djInv hRoot 0 (hSix NInf) (hSix PInf) (hSix (Fin (-2))) (hSix (Fin 1)) [] [] [] [] (1 / 10) 0 0 1 od (cs ++ [c]) m').
  { intros od cs m I. destruct (djUpdate_def _ _ _ _ _ _ _ _ _ _ _ _ _ _ _ _ _ [c] c I eq_refl CK) as (m' & U); [|lra|].
    - intros i jt HJ D1. destruct i as [|i]; [|destruct i; discriminate]. injection HJ as <-. discriminate.
    - exists m'. split; [exact U|]. exact (djStep_inv _ _ _ _ _ _ _ _ _ _ _ _ _ _ od cs m (LUp [c]) m' (or_introl eq_refl) (or_introl eq_refl) (or_introl eq_refl) (or_introl eq_refl) I U ltac:(constructor; [apply CK|constructor])). }
  assert (R1 : exists m1, djStep_ m0' (LNr hDataR) = Ok m1) by (cbn [djStep_]; unfold djNrVars; rewrite (dvR _ _ _ _ _ _ _ _ _ _ _ _ _ _ _ _ _ I0); cbn; eauto).
  destruct R1 as (m1 & R1). pose proof (djStep_inv _ _ _ _ _ _ _ _ _ _ _ _ _ _ _ _ _ _ _ (or_introl eq_refl) (or_introl eq_refl) (or_introl eq_refl) (or_introl eq_refl) I0 R1 ltac:(constructor)) as I1.
  destruct (UP _ _ _ I1) as (m2 & R2 & I2). destruct (UP _ _ _ I2) as (m & R3 & _).
  assert (RR : djRun m0' ([LNr hDataR; LUp [c]] ++ [LUp [c]]) = Ok m) by (cbn [app djRun]; rewrite R1; cbn [bind]; rewrite R2; cbn [bind]; rewrite R3; reflexivity).
  destruct (damper_lemma [hRoot] 0 (hSix NInf) (hSix PInf) (hSix (Fin (-2))) (hSix (Fin 1)) [] [] [] [] (1 / 10) 0 0 1 m0' [LNr hDataR; LUp [c]] [c] hRoot c hDataR m N
     eq_refl eq_refl eq_refl (or_introl eq_refl) (or_introl eq_refl) (or_introl eq_refl) (or_introl eq_refl) eq_refl eq_refl ltac:(constructor; [apply CK|constructor]) CK RR) as (bd & b & AB & B & X).
  injection AB as <-.
  exists [hRoot], 0%nat, (hSix NInf), (hSix PInf), (hSix (Fin (-2))), (hSix (Fin 1)), (1 / 10), 0, 0, 1, m0', hDataR, hRoot, c, m, bd, (fun _ => 2).
  split; [exact N|]. split; [reflexivity|]. split; [apply CK|]. split; [exact RR|]. split; [exact B|]. split.
  - intros i k (jt & HJ & K). destruct i as [|i]; [|destruct i; discriminate]. injection HJ as <-. simpl in K.
    unfold at2, between. do 6 (destruct k as [|k]; [cbn; lra|]). lia.
  - intros H. pose proof (proj1 (X _) H 0%nat (mkJoint "root" 6 7 None) 0%nat eq_refl ltac:(simpl; lia)) as Q. cbv zeta in Q. destruct Q as (_ & Q & _).
    unfold between, at2 in Q. cbn in Q. lra.
Qed.
