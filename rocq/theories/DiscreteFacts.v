(** Lemmas: second-order recurrences, and the posture task in control cycles. *)
From Verif Require Export DiscreteSpec CycleFacts CompatFacts.
From Verif Require Import LayoutSpec LayoutProofs SetPointFacts SetPointLoop PostureFacts PostureLoop.
From Coq Require Import Lra Psatz.
Open Scope list_scope.
Open Scope R_scope.
Local Arguments sumn : simpl never.

(** Sequences s (n + 2) = (a + b) s (n + 1) - a b s n. *)
Definition second (a b : R) (s : nat -> R) : Prop := forall n, s (S (S n)) = (a + b) * s (S n) - a * b * s n.
Lemma second_step a b s : second a b s -> forall n, s (S n) - a * s n = b ^ n * (s 1%nat - a * s 0%nat).
Proof. intros H n. induction n as [|n IH]; [cbn; ring|]. rewrite (H n). cbn [pow]. replace (b * b ^ n * (s 1%nat - a * s 0%nat)) with (b * (b ^ n * (s 1%nat - a * s 0%nat))) by ring. rewrite <- IH. ring. Qed.
Lemma second_bound a b rho s : 0 < rho -> Rabs a <= rho -> Rabs b <= rho -> second a b s ->
  forall n, Rabs (s n) <= rho ^ n * (Rabs (s 0%nat) + INR n * (Rabs (s 1%nat - a * s 0%nat) / rho)).
Proof.
  intros P A B H n. induction n as [|n IH]; [cbn; lra|].
  replace (s (S n)) with (a * s n + b ^ n * (s 1%nat - a * s 0%nat)) by (rewrite <- (second_step a b s H n); ring).
  eapply Rle_trans; [apply Rabs_triang|]. rewrite !Rabs_mult, <- RPow_abs. rewrite S_INR. cbn [pow].
  set (u := Rabs (s 1%nat - a * s 0%nat)) in *. assert (U : 0 <= u) by apply Rabs_pos. set (e := Rabs (s 0%nat)) in *. assert (0 <= e) by apply Rabs_pos.
  assert (Pn : 0 < rho ^ n) by (apply pow_lt; auto). assert (Bn : Rabs b ^ n <= rho ^ n) by (apply pow_incr; split; [apply Rabs_pos|auto]).
  assert (Q1 : Rabs a * Rabs (s n) <= rho * (rho ^ n * (e + INR n * (u / rho)))).
  { apply Rmult_le_compat; auto using Rabs_pos. }
  assert (Q2 : Rabs b ^ n * u <= rho ^ n * u) by (apply Rmult_le_compat_r; auto).
  replace (rho * rho ^ n * (e + (INR n + 1) * (u / rho))) with (rho * (rho ^ n * (e + INR n * (u / rho))) + rho ^ n * u) by (field; lra). lra.
Qed.
(** A geometric bound with a ratio below 1. *)
Lemma second_geo a b : Rabs a < 1 -> Rabs b < 1 -> exists rho, 0 <= rho < 1 /\ forall s, second a b s -> exists C, forall n, Rabs (s n) <= C * rho ^ n.
Proof.
  intros A B. set (m := Rmax (/ 2) (Rmax (Rabs a) (Rabs b))).
  assert (M1 : / 2 <= m) by apply Rmax_l. assert (M2 : Rabs a <= m) by (eapply Rle_trans; [apply Rmax_l|apply Rmax_r]). assert (M3 : Rabs b <= m) by (eapply Rle_trans; [apply Rmax_r|apply Rmax_r]).
  assert (M4 : m < 1) by (unfold m; repeat apply Rmax_lub_lt; lra).
  set (rho := (1 + m) / 2). assert (R1 : m < rho < 1) by (unfold rho; lra). exists rho. split; [lra|]. intros s H.
  set (u := Rabs (s 1%nat - a * s 0%nat)). set (e := Rabs (s 0%nat)). assert (U : 0 <= u) by apply Rabs_pos. assert (E0 : 0 <= e) by apply Rabs_pos.
  set (d := rho / m - 1). assert (Pd : 0 < d). { unfold d. assert (1 < rho / m) by (apply Rmult_lt_reg_r with m; [lra|]; unfold Rdiv; rewrite Rmult_assoc, Rinv_l by lra; lra). lra. }
  exists (e + u / m / d). intros n. pose proof (second_bound a b m s ltac:(lra) M2 M3 H n) as K. fold u e in K.
  assert (G : 1 + INR n * d <= (rho / m) ^ n). { replace (rho / m) with (1 + d) by (unfold d; ring). apply poly; auto. }
  assert (Pm : 0 < m ^ n) by (apply pow_lt; lra).
  assert (EQ : rho ^ n = m ^ n * (rho / m) ^ n). { rewrite <- Rpow_mult_distr. f_equal. field. lra. }
  rewrite EQ. eapply Rle_trans; [exact K|]. rewrite (Rmult_comm (e + u / m / d)), Rmult_assoc. apply Rmult_le_compat_l; [lra|].
  assert (N0 : 0 <= INR n) by apply pos_INR. assert (U2 : 0 <= u / m) by (apply Rmult_le_pos; [lra|left; apply Rinv_0_lt_compat; lra]).
  set (g := (rho / m) ^ n) in *. assert (G1 : 1 <= g) by nra. assert (G2 : INR n <= g / d).
  { apply Rmult_le_reg_r with d; auto. unfold Rdiv. rewrite Rmult_assoc, Rinv_l by lra. lra. }
  rewrite Rmult_plus_distr_l. replace (g * (u / m / d)) with (g / d * (u / m)) by (field; lra). nra.
Qed.
(** Growth when one root is beyond 1. *)
Lemma second_grows a b s : second a b s -> s 1%nat - a * s 0%nat <> 0 -> exists c, 0 < c /\ forall n, c * Rabs b ^ n <= Rabs (s n) + Rabs (s (S n)).
Proof.
  intros H N. set (u := Rabs (s 1%nat - a * s 0%nat)). assert (U : 0 < u) by (apply Rabs_pos_lt; auto). assert (A : 0 <= Rabs a) by apply Rabs_pos.
  exists (u / (1 + Rabs a)). split; [apply Rmult_lt_0_compat; [auto|apply Rinv_0_lt_compat; lra]|]. intros n.
  pose proof (second_step a b s H n) as E. assert (E' : Rabs b ^ n * u <= Rabs (s (S n)) + Rabs a * Rabs (s n)).
  { unfold u. rewrite RPow_abs, <- Rabs_mult, <- E. unfold Rminus. eapply Rle_trans; [apply Rabs_triang|]. rewrite Rabs_Ropp, Rabs_mult. lra. }
  apply Rmult_le_reg_r with (1 + Rabs a); [lra|]. replace (u / (1 + Rabs a) * Rabs b ^ n * (1 + Rabs a)) with (Rabs b ^ n * u) by (field; lra).
  pose proof (Rabs_pos (s n)). pose proof (Rabs_pos (s (S n))). nra.
Qed.

(** The critically damped loop with the acceleration held during dt; w = sqrt k. *)
Section Held.
Variables (w dt th : R) (e v : nat -> R).
Hypothesis Hw : 0 < w.
Hypothesis Hdt : 0 < dt.
Hypothesis Hth : 0 <= th <= 1.
Hypothesis Hv : forall n, v (S n) = v n + dt * (w * w * e n - 2 * w * v n).
Hypothesis He : forall n, e (S n) = e n - dt * ((1 - th) * v n + th * v (S n)).
Let m := w * dt.
Definition heldR : R := sqrt (th * th * (m * m) / 4 + th * m).
Definition heldA : R := 1 - m - th * (m * m) / 2 + m * heldR.
Definition heldB : R := 1 - m - th * (m * m) / 2 - m * heldR.
Lemma held_m : 0 < m.
Proof. unfold m. apply Rmult_lt_0_compat; auto. Qed.
Lemma held_sq : heldR * heldR = th * th * (m * m) / 4 + th * m.
Proof. apply sqrt_sqrt. pose proof held_m. nra. Qed.
Lemma held_pos : 0 <= heldR.
Proof. apply sqrt_pos. Qed.
Lemma held_sum : heldA + heldB = 2 - 2 * m - th * (m * m).
Proof. unfold heldA, heldB. field. Qed.
Lemma held_prod : heldA * heldB = 1 - 2 * m + (1 - th) * (m * m).
Proof. unfold heldA, heldB. replace ((1 - m - th * (m * m) / 2 + m * heldR) * (1 - m - th * (m * m) / 2 - m * heldR)) with ((1 - m - th * (m * m) / 2) ^ 2 - m * m * (heldR * heldR)) by ring. rewrite held_sq. field. Qed.
Lemma held_e : second heldA heldB e.
Proof. intros n. rewrite held_sum, held_prod. rewrite (He (S n)), (Hv (S n)), (He n), (Hv n). unfold m. ring. Qed.
Lemma held_v : second heldA heldB v.
Proof. intros n. rewrite held_sum, held_prod. rewrite (Hv (S n)), (He n), (Hv n). unfold m. ring. Qed.
Lemma held_roots : m < 2 -> 0 < 4 - 4 * m + (1 - 2 * th) * (m * m) -> Rabs heldA < 1 /\ Rabs heldB < 1.
Proof.
  intros M2 C. pose proof held_m as M0. pose proof held_sq as S. pose proof held_pos as R0.
  assert (X : heldR < 1 + th * m / 2). { assert (0 < 1 + th * m / 2) by nra. apply Rsqr_incrst_0; unfold Rsqr; nra. }
  assert (Y : m * heldR < 2 - m - th * (m * m) / 2).
  { assert (0 < 2 - m - th * (m * m) / 2) by nra. apply Rsqr_incrst_0; unfold Rsqr; nra. }
  assert (0 <= m * heldR) by nra. assert (m * heldR < m * (1 + th * m / 2)) by nra.
  unfold heldA, heldB. split; apply Rabs_def1; nra.
Qed.
Lemma held_converges : m < 2 -> 0 < 4 - 4 * m + (1 - 2 * th) * (m * m) -> exists C rho, 0 <= rho < 1 /\ forall n, Rabs (e n) <= C * rho ^ n /\ Rabs (v n) <= C * rho ^ n.
Proof.
  intros M2 C. destruct (held_roots M2 C) as (A & B). destruct (second_geo _ _ A B) as (rho & R1 & G).
  destruct (G e held_e) as (C1 & K1). destruct (G v held_v) as (C2 & K2). exists (Rmax C1 C2), rho. split; auto. intros n. assert (0 <= rho ^ n) by (apply pow_le; lra).
  split; [eapply Rle_trans; [apply K1|apply Rmult_le_compat_r; [auto|apply Rmax_l]]|eapply Rle_trans; [apply K2|apply Rmult_le_compat_r; [auto|apply Rmax_r]]].
Qed.
(** Constant acceleration, from rest, sqrt k dt > 1: the error grows geometrically. *)
Lemma held_diverges : th = 1 / 2 -> 1 < m -> v 0%nat = 0 -> e 0%nat <> 0 -> exists c rho, 0 < c /\ 1 < rho /\ forall n, c * rho ^ n <= Rabs (e n) + Rabs (e (S n)).
Proof.
  intros T M1 V0 E0. pose proof held_m as M0. pose proof held_sq as S. pose proof held_pos as R0.
  assert (S' : heldR * heldR = m * m / 16 + m / 2) by (rewrite S, T; field). assert (R1 : 3 / 4 < heldR) by nra.
  assert (B1 : heldB < -1). { unfold heldB. rewrite T. nra. }
  destruct (second_grows heldA heldB e held_e) as (c & Pc & G).
  - rewrite (He 0%nat), (Hv 0%nat), V0. unfold heldA. rewrite T.
    replace (e 0%nat - dt * ((1 - 1 / 2) * 0 + 1 / 2 * (0 + dt * (w * w * e 0%nat - 2 * w * 0))) - (1 - m - 1 / 2 * (m * m) / 2 + m * heldR) * e 0%nat) with (e 0%nat * (m * (1 - m / 4 - heldR))) by (unfold m; field).
    apply Rmult_integral_contrapositive_currified; auto. apply Rmult_integral_contrapositive_currified; lra.
  - exists c, (Rabs heldB). split; auto. split; auto. rewrite Rabs_left by lra. lra.
Qed.
End Held.

Lemma poRun_app mbs ops ops' t : poRun mbs (ops ++ ops') t = bind (poRun mbs ops t) (poRun mbs ops').
Proof. revert t. induction ops as [|o ops IH]; intros t; [reflexivity|]. cbn [app poRun]. destruct (poStep mbs t o); cbn [bind]; auto. Qed.
Lemma latest_updates {A} (g : poOp -> option A) d ops Ks : (forall K, g (PoUpdate K) = None) -> latest g d (ops ++ map PoUpdate Ks) = latest g d ops.
Proof. intros H. unfold latest. rewrite fold_left_app. generalize (fold_left (fun c o => match g o with Some v => v | None => c end) ops d). induction Ks as [|K Ks IH]; intros c; [reflexivity|]. cbn [map fold_left]. rewrite H. apply IH. Qed.

(** The loop of the posture task. *)
Section Loop.
Variables (lssol : bool) (kinds : nat -> list ckind) (pre post : list op) (mbs : list multibody) (uni : list unilateral) (bi : list bilateral) (s : qpSolver) (num : numeric) (ct : nat).
Variables (r : nat) (mb : multibody) (q0 : list (list R)) (k0 w0 : R) (ops : list poOp) (t0 t : posture) (ms : list robotConf) (i : nat) (j : joint) (k dt th : R).
Variable z : nat -> posture * list robotConf * qpSolver.
Hypothesis H : history lssol kinds (pre ++ OpNrVars mbs uni bi :: post) = Ok s.
Hypothesis W : Forall wfMimic mbs.
Hypothesis NZ : nonzeroMimics mbs.
Hypothesis Hc : Forall (fun o => ~ resizesOrSwitches o) post.
Hypothesis C : contract num.
Hypothesis Hm : nth_error mbs r = Some mb.
Hypothesis Pl : plainJoints mb.
Hypothesis N : newPost mbs r q0 k0 w0 = Ok t0.
Hypothesis Rn : poRun mbs ops t0 = Ok t.
Hypothesis Ho : forall j o, nth_error (joints mb) 0 = Some j -> In o (latest poGiveJ [] ops) -> fst o <> jname j.
Hypothesis Hw : 0 < latest poGiveWeight w0 ops.
Hypothesis HW : forall c, (c < nrDof mb)%nat -> 0 < vget (latest poGiveW (ones (nrDof mb)) ops) c.
Hypothesis Hb : alphaDBegin (qData s) r = Ok (latest (poGiveBegin r) 0%nat ops).
Hypothesis Hj : nth_error (joints mb) (S i) = Some j.
Hypothesis H1 : jdof j = 1%nat.
Hypothesis H2 : jparams j = 1%nat.
Hypothesis Hg : gainsOf (latest poGiveG (k0, 2 * sqrt k0) ops) (latest poGiveJ [] ops) (jname j) = (k, 2 * sqrt k).
Hypothesis Hv : vget (latest poGiveRV (vfill (nrDof mb) 0) ops) (jointPosInDof mb (S i)) = 0.
Hypothesis Hr : vget (latest poGiveRA (vfill (nrDof mb) 0) ops) (jointPosInDof mb (S i)) = 0.
Hypothesis CK : confsOk mbs ms.
Hypothesis Z0 : z 0%nat = (t, ms, s).
Hypothesis ZS : forall n, postCycle lssol kinds num ct mbs r dt th (z n) (z (S n)).

Definition reachedAt (y : posture * list robotConf * qpSolver) : Prop :=
  let '(t', ms', s') := y in
  (exists post', history lssol kinds (pre ++ OpNrVars mbs uni bi :: post') = Ok s' /\ Forall (fun o => ~ resizesOrSwitches o) post') /\
  qData s' = qData s /\ confsOk mbs ms' /\ exists Ks, poRun mbs (ops ++ map PoUpdate Ks) t0 = Ok t'.
Lemma cycle_keeps y y' : reachedAt y -> postCycle lssol kinds num ct mbs r dt th y y' -> reachedAt y' /\
  forall a a', nth_error (snd (fst y)) r = Some a -> nth_error (snd (fst y')) r = Some a' ->
    let q b := at2 (confQ b) (S i) 0 0 in let v b := at2 (confV b) (S i) 0 0 in
    v a' = v a + dt * (k * (at2 (latest poGiveQ q0 ops) (S i) 0 0 - q a) - 2 * sqrt k * v a) /\
    q a' = q a + dt * ((1 - th) * v a + th * v a').
Proof.
  destruct y as ((t1, ms1), s1), y' as ((t2, ms3), s2). intros ((post1 & G1 & F1) & D1 & CK1 & Ks & Rn1) (ops1 & rot & h & x & ms2 & m & y & R1 & O1 & I1 & M1 & U & HT & WB & DB & S1 & FZ & MZ & QZ & PZ & (LM & MV)).
  pose proof (run_extends _ _ _ _ _ _ _ _ _ _ G1 R1) as G2. assert (F2 : Forall (fun o => ~ resizesOrSwitches o) (post1 ++ ops1)) by (apply Forall_app; auto).
  pose proof (run_data _ _ _ _ _ _ _ _ _ _ G1 W F1 R1 O1) as D2.
  destruct (solved_written _ _ _ _ _ _ _ _ _ G2 W NZ F2 C _ _ _ _ WB DB CK1 S1) as (FX & L1 & WR).
  split.
  { split; [exists (post1 ++ ops1); auto|]. split; [congruence|]. split.
    - apply Forall2_intro; [rewrite LM, L1; exact (Forall2_len _ _ _ CK1)|]. intros r' mb' a' E1 E2.
      destruct (nth_error ms1 r') as [a|] eqn:Ea. 2:{ apply nth_error_None in Ea. rewrite <- L1, <- LM in Ea. apply nth_error_None in Ea. congruence. }
      destruct (WR r' mb' a E1 Ea) as (a1 & b & E3 & _). exact (proj1 (proj2 (MV r' mb' a1 a' E1 E3 E2))).
    - exists (Ks ++ [mkPCfg (confQ m) (confV m) rot]). rewrite map_app, app_assoc, poRun_app, Rn1. cbn [bind map poRun poStep]. rewrite U. reflexivity. }
  intros a a' Ea Ea'. cbn [fst snd] in Ea, Ea'. cbv zeta. assert (m = a) as -> by congruence.
  destruct (WR r mb a Hm Ea) as (a1 & b & E3 & AB & OO & PD & V). destruct (MV r mb a1 a' Hm E3 Ea') as (AD & _ & MM).
  destruct (MM (S i) j 0%nat Hj ltac:(congruence) ltac:(lia)) as (V1 & Q1).
  assert (CV : confV a1 = confV a) by (unfold confV; rewrite OO; reflexivity). assert (CQ : confQ a1 = confQ a) by (unfold confQ; rewrite OO; reflexivity).
  rewrite CV in V1, Q1. rewrite CQ in Q1. split; [|exact Q1].
  rewrite V1. f_equal. f_equal.
  assert (PX : minimises (postTask t2) (vget x)).
  { apply (compatible_lemma _ _ _ _ _ _ _ _ _ _ _ _ _ _ _ G2 W NZ F2 C WB DB S1 FZ MZ QZ PZ). rewrite <- HT. unfold collect. cbn [rgTasks]. apply in_map. exact I1. }
  pose proof (Forall2_nth _ _ _ CK1 r mb a Hm Ea) as (_ & SH & _). cbn [cfgOf cfAlpha] in SH.
  pose proof (Forall_forall wfMimic mbs) as FW. pose proof (proj1 FW W mb (nth_error_In _ _ Hm)) as WM.
  destruct (posture_lemma mbs r mb q0 k0 w0 (ops ++ map PoUpdate Ks) t0 t1 (mkPCfg (confQ a) (confV a) rot) t2 Hm (proj1 WM) Pl N Rn1 U SH) as (acc & (_ & A) & CO).
  { rewrite latest_updates by reflexivity. exact Ho. }
  rewrite !latest_updates in CO by reflexivity.
  pose proof (pos_ge1 _ _ _ Hj) as L. assert (Hn : (jointPosInDof mb (S i) < nrDof mb)%nat). { pose proof (dofBefore_lt mb (S i) j Hj) as X. apply X. lia. }
  rewrite (V (S i) 0%nat) by (exists j; split; [exact Hj|lia]). rewrite D2, D1 in AB. rewrite Hb in AB. injection AB as <-. rewrite Nat.add_0_r.
  rewrite (proj1 (minimum_lemma _ _ _ _ _ _ _ CO Hw HW) PX (jointPosInDof mb (S i)) Hn (driven_rest _ _ L)).
  specialize (A i j 0%nat Hj). rewrite Nat.add_0_r in A. rewrite A by lia.
  unfold askedAcc. rewrite !latest_updates by reflexivity. rewrite Hg, Nat.add_0_r, Hv, Hr. cbn [fst snd]. unfold postureErr. rewrite H1. cbn [Nat.eqb]. unfold speedOf, at2. cbn [pfQ pfAlpha]. ring.
Qed.
Lemma loop_reached n : reachedAt (z n).
Proof.
  induction n as [|n IH]; [|exact (proj1 (cycle_keeps _ _ IH (ZS n)))].
  rewrite Z0. split; [exists post; auto|]. split; [reflexivity|]. split; [exact CK|]. exists []. cbn [map]. rewrite app_nil_r. exact Rn.
Qed.
Definition confAt (n : nat) : robotConf := match nth_error (confsAt z n) r with Some a => a | None => mkMbc [] ([], []) end.
Lemma confAt_spec n : nth_error (confsAt z n) r = Some (confAt n).
Proof.
  unfold confAt. pose proof (loop_reached n) as RR. unfold confsAt. destruct (z n) as ((t1, ms1), s1). destruct RR as (_ & _ & CK1 & _). cbn [fst snd].
  destruct (nth_error ms1 r) eqn:E; [reflexivity|]. apply nth_error_None in E. rewrite <- (Forall2_len _ _ _ CK1) in E. apply nth_error_None in E. congruence.
Qed.
Definition errAt (n : nat) : R := at2 (latest poGiveQ q0 ops) (S i) 0 0 - at2 (confQ (confAt n)) (S i) 0 0.
Definition velAt (n : nat) : R := at2 (confV (confAt n)) (S i) 0 0.
Hypothesis Hk : 0 < k.
Lemma loop_step n : velAt (S n) = velAt n + dt * (sqrt k * sqrt k * errAt n - 2 * sqrt k * velAt n) /\ errAt (S n) = errAt n - dt * ((1 - th) * velAt n + th * velAt (S n)).
Proof.
  destruct (proj2 (cycle_keeps _ _ (loop_reached n) (ZS n)) _ _ (confAt_spec n) (confAt_spec (S n))) as (A & B). cbv zeta in A, B.
  unfold velAt, errAt. rewrite sqrt_sqrt by lra. split; [exact A|]. rewrite B. ring.
Qed.
Hypothesis Hdt : 0 < dt.
Lemma discrete_converges : 0 <= th <= 1 -> sqrt k * dt < 2 -> 0 < 4 - 4 * (sqrt k * dt) + (1 - 2 * th) * (sqrt k * dt) ^ 2 ->
  exists c rho, 0 <= rho < 1 /\ forall n a, nth_error (confsAt z n) r = Some a ->
    Rabs (at2 (latest poGiveQ q0 ops) (S i) 0 0 - at2 (confQ a) (S i) 0 0) <= c * rho ^ n /\ Rabs (at2 (confV a) (S i) 0 0) <= c * rho ^ n.
Proof.
  intros Ht M2 Cd. assert (Sp : 0 < sqrt k) by (apply sqrt_lt_R0; auto).
  destruct (held_converges (sqrt k) dt th errAt velAt Sp Hdt Ht (fun n => proj1 (loop_step n)) (fun n => proj2 (loop_step n)) M2) as (c & rho & R1 & K).
  { replace (sqrt k * dt * (sqrt k * dt)) with ((sqrt k * dt) ^ 2) by ring. exact Cd. }
  exists c, rho. split; auto. intros n a E. rewrite confAt_spec in E. injection E as <-. exact (K n).
Qed.
Lemma discrete_diverges : th = 1 / 2 -> 1 < sqrt k * dt -> (forall a, nth_error ms r = Some a -> at2 (confV a) (S i) 0 0 = 0 /\ at2 (confQ a) (S i) 0 0 <> at2 (latest poGiveQ q0 ops) (S i) 0 0) ->
  exists c rho, 0 < c /\ 1 < rho /\ forall n a a', nth_error (confsAt z n) r = Some a -> nth_error (confsAt z (S n)) r = Some a' ->
    let e b := at2 (latest poGiveQ q0 ops) (S i) 0 0 - at2 (confQ b) (S i) 0 0 in c * rho ^ n <= Rabs (e a) + Rabs (e a').
Proof.
  intros Ht M2 Cd. assert (Sp : 0 < sqrt k) by (apply sqrt_lt_R0; auto).
  pose proof (confAt_spec 0%nat) as X. unfold confsAt in X. rewrite Z0 in X. cbn [fst snd] in X. destruct (Cd _ X) as (V0 & E0).
  destruct (held_diverges (sqrt k) dt th errAt velAt Sp Hdt ltac:(lra) (fun n => proj1 (loop_step n)) (fun n => proj2 (loop_step n)) Ht M2 V0 ltac:(unfold errAt; lra)) as (c & rho & P & R1 & K).
  exists c, rho. split; auto. split; auto. intros n a a' E E'. rewrite confAt_spec in E, E'. injection E as <-. injection E' as <-. exact (K n).
Qed.
End Loop.
