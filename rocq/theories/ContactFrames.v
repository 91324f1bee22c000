(** Two moving frames: equal velocities keep them together; the rate of the angle between them. *)
From Verif Require Export ContactLoopSpec.
From Verif Require KinMultiFacts.
From Verif Require Import KinFacts KinTaskFacts VisFacts SetPointLoop.
Open Scope list_scope.
Open Scope R_scope.

(** ** Analysis *)
Lemma const_ray f : (forall s, 0 <= s -> dlim f s 0) -> forall s, 0 <= s -> f s = f 0.
Proof. intros D s Hs. apply (const_int f s); [|lra]. intros u Hu. apply D. lra. Qed.
Lemma decr_ray f f' : (forall s, 0 <= s -> dlim f s (f' s)) -> (forall s, 0 <= s -> f' s <= 0) -> forall s u, 0 <= s <= u -> f u <= f s.
Proof.
  intros D N s u H. destruct (Req_dec s u) as [->|NE]; [lra|].
  destruct (MVT_cor2 f f' s u) as (c & E & Hc); [lra|intros; apply D; lra|].
  assert (f' c * (u - s) <= 0) by (pose proof (N c ltac:(lra)); nra). lra.
Qed.
Lemma exp_ray f w : (forall s, 0 <= s -> dlim f s (- w * f s)) -> forall s, 0 <= s -> f s = f 0 * exp (- w * s).
Proof.
  intros D s Hs. assert (E : f s * exp (w * s) = f 0 * exp (w * 0)).
  { apply (const_ray (fun s => f s * exp (w * s))); [|exact Hs]. intros u Hu. eapply dl_eq; [apply dl_mult; [apply D; exact Hu|apply dlim_exp]|cbv beta; ring]. }
  rewrite Rmult_0_r, exp_0, Rmult_1_r in E. rewrite <- E, Rmult_assoc, <- exp_plus. replace (w * s + - w * s) with 0 by ring. rewrite exp_0. ring.
Qed.

(** ** Frames with the same velocity *)
Lemma dV_ray f : (forall s, 0 <= s -> dV f s v0) -> forall s, 0 <= s -> f s = f 0.
Proof.
  intros D s Hs. apply V3_ext; [apply (const_ray (fun s => vx (f s)))|apply (const_ray (fun s => vy (f s)))|apply (const_ray (fun s => vz (f s)))]; try exact Hs; intros u Hu; apply (D u Hu).
Qed.
Lemma dM_ray F : (forall s, 0 <= s -> dM F s (mkM3 v0 v0 v0)) -> forall s, 0 <= s -> F s = F 0.
Proof.
  intros D s Hs. apply M3_ext; [apply (dV_ray (fun s => row0 (F s)))|apply (dV_ray (fun s => row1 (F s)))|apply (dV_ray (fun s => row2 (F s)))]; try exact Hs; intros u Hu; apply (D u Hu).
Qed.
Lemma no_rate A S B : m3add (m3mul (m3mul A S) B) (m3mul A (m3neg (m3mul S B))) = mkM3 v0 v0 v0.
Proof.
  rewrite m3mul_assoc. set (C := m3mul S B). clearbody C. destruct A as [[] [] []], C as [[] [] []]. unfold m3add, m3neg, m3mul, m3tr, m3mulv, dot, vadd, vneg, v0; cbn. unfold dot; cbn. f_equal; f_equal; ring.
Qed.
Lemma together X1 X2 V : (forall s, rigid (X1 s)) -> (forall s, 0 <= s -> frameMoves X1 s (V s)) -> (forall s, 0 <= s -> frameMoves X2 s (V s)) ->
  X1 0 = X2 0 -> forall s, 0 <= s -> X1 s = X2 s.
Proof.
  intros R1 M1 M2 E0.
  assert (G : forall s, 0 <= s -> ptE (X2 s) = ptE (X1 s)).
  { intros s Hs. assert (C : m3mul (m3tr (ptE (X1 s))) (ptE (X2 s)) = m3mul (m3tr (ptE (X1 0))) (ptE (X2 0))).
    { apply (dM_ray (fun s => m3mul (m3tr (ptE (X1 s))) (ptE (X2 s)))); [|exact Hs]. intros u Hu.
      destruct (M1 u Hu) as (A1 & _), (M2 u Hu) as (A2 & _). eapply dM_eq; [apply dM_mul; [apply dM_tr; exact A1|exact A2]|].
      rewrite tr_rate. apply no_rate. }
    rewrite <- E0, (rotation_tr_mul _ (R1 0)) in C. apply (f_equal (m3mul (ptE (X1 s)))) in C.
    rewrite <- m3mul_assoc, (rotation_mul_tr _ (R1 s)), m3mul_id_l, m3mul_id_r in C. exact C. }
  intros s Hs. apply PT_ext; [symmetry; apply G; exact Hs|].
  assert (C : vsub (ptr (X1 s)) (ptr (X2 s)) = vsub (ptr (X1 0)) (ptr (X2 0))).
  { apply (dV_ray (fun s => vsub (ptr (X1 s)) (ptr (X2 s)))); [|exact Hs]. intros u Hu.
    destruct (M1 u Hu) as (_ & B1), (M2 u Hu) as (_ & B2). eapply dV_eq; [apply dV_sub; [exact B1|exact B2]|]. rewrite (G u Hu). v3c. }
  rewrite E0 in C. destruct (ptr (X1 s)), (ptr (X2 s)), (ptr (X2 0)); unfold vsub, vadd, vneg in C; cbn in C. injection C as C1 C2 C3. f_equal; lra.
Qed.

(** ** The angle between two frames *)
Definition cosAngle (A B : M3) : R := let C := m3mul B (m3tr A) in (vx (row0 C) + vy (row1 C) + vz (row2 C) - 1) / 2.
Lemma cos_lower x : 0 <= x <= 1 -> x * x <= 3 * (1 - cos x).
Proof.
  intros H. assert (P : 1 <= PI / 2) by (pose proof PI_RGT_0; pose proof PI2_1; lra).
  destruct (cos_bound x 0 ltac:(lra) ltac:(lra)) as (_ & U). unfold cos_approx, cos_term in U. simpl in U.
  match type of U with _ <= ?r => replace r with (1 - x * x / 2 + x * x * (x * x) / 24) in U by field end.
  assert (Q : 0 <= x * x <= 1) by nra. revert Q U. generalize (x * x). intros y Q U. nra.
Qed.
Lemma acos_rate x : -1 < x < 1 -> dlim acos x (- 1 / sqrt (1 - x²)).
Proof. intros H. rewrite <- (derive_pt_acos x H). unfold derive_pt, dlim. destruct (derivable_pt_acos x H) as (l & P). exact P. Qed.
Lemma acos_sqr c t c' : dlim c t c' -> -1 < c t <= 1 -> (forall s, c s <= 1) -> (c t = 1 -> c' = 0) ->
  dlim (fun s => acos (c s) * acos (c s)) t (if Rlt_dec (c t) 1 then - 2 * acos (c t) / sqrt (1 - (c t)²) * c' else 0).
Proof.
  intros D B U Z. destruct (Rlt_dec (c t) 1) as [L|L].
  - assert (A : dlim (fun s => acos (c s)) t (- 1 / sqrt (1 - (c t)²) * c')) by (apply (dl_comp c acos); [exact D|exact (acos_rate (c t) ltac:(lra))]).
    eapply dl_eq; [apply dl_mult; exact A|]. cbv beta. field. apply Rgt_not_eq, sqrt_lt_R0. unfold Rsqr. nra.
  - assert (E : c t = 1) by lra. rewrite (Z E) in D. intros eps He.
    destruct (D (eps / 3) ltac:(lra)) as (d1 & D1).
    assert (CT : continuity_pt c t) by (apply derivable_continuous_pt; exists 0; exact D).
    destruct (CT (1 - cos 1)) as (d2 & Hd2 & D2). { pose proof (cos_lower 1 ltac:(lra)). lra. }
    exists (mkposreal (Rmin d1 d2) (Rmin_pos _ _ (cond_pos d1) Hd2)). intros h Hh Hd. cbn [pos] in Hd.
    specialize (D1 h Hh ltac:(eapply Rlt_le_trans; [exact Hd|apply Rmin_l])).
    assert (C1 : cos 1 < c (t + h)).
    { specialize (D2 (t + h)). unfold dist in D2; simpl in D2; unfold R_dist in D2. assert (N : Rabs (c (t + h) - c t) < 1 - cos 1).
      { apply D2. split; [split; [exact I|intros Q; apply Hh; lra]|]. replace (t + h - t) with h by ring. eapply Rlt_le_trans; [exact Hd|apply Rmin_r]. }
      rewrite E in N. apply Rabs_def2 in N. lra. }
    rewrite E, acos_1, Rmult_0_l, !Rminus_0_r.
    set (th := acos (c (t + h))). pose proof (acos_bound (c (t + h))) as AB. fold th in AB.
    assert (CC : cos th = c (t + h)) by (apply cos_acos; pose proof (U (t + h)); pose proof (COS_bound 1); lra).
    assert (T1 : th <= 1).
    { destruct (Rle_dec th 1) as [Q|Q]; [exact Q|]. exfalso. assert (cos th < cos 1) by (apply cos_decreasing_1; pose proof PI2_1; lra). lra. }
    pose proof (cos_lower th ltac:(lra)) as K. rewrite CC in K.
    rewrite E, Rminus_0_r in D1. unfold Rdiv in *. rewrite Rabs_mult in *. rewrite (Rabs_pos_eq (th * th)) by nra.
    rewrite (Rabs_left1 (c (t + h) - 1)) in D1 by (pose proof (U (t + h)); lra).
    pose proof (Rabs_pos (/ h)). nra.
Qed.
Lemma cosAngle_axis A B a th : norm a = 1 -> m3mul B (m3tr A) = rotAxis a th -> cosAngle A B = cos th.
Proof. intros U E. apply unit2 in U. unfold cosAngle. rewrite E. unfold rotAxis; cbn [row0 row1 row2 vx vy vz]. cbv zeta.
  match goal with |- ?l = _ => replace l with ((3 * cos th + (1 - cos th) * (vx a * vx a + vy a * vy a + vz a * vz a) - 1) / 2) by field end. rewrite U. field.
Qed.
Lemma cosAngle_le A B : rotation A -> rotation B -> cosAngle A B <= 1.
Proof.
  intros RA RB. assert (RC : rotation (m3mul B (m3tr A))) by (apply rotation_mul; [exact RB|apply rotation_tr; exact RA]).
  unfold cosAngle. cbv zeta. set (C := m3mul B (m3tr A)) in *. clearbody C.
  pose proof (rotation_mul_tr _ RC) as O. destruct C as [[a b c] [d e f] [g h i]]. unfold m3mul, m3tr, m3id in O. cbn in O. unfold dot in O. cbn in O.
  injection O as O1 _ _ _ O2 _ _ _ O3. unfold dot in O1, O2, O3. cbn in *. assert (Q : forall p q r, p * p + q * q + r * r = 1 -> p <= 1) by (intros; nra).
  pose proof (Q a b c ltac:(lra)). pose proof (Q e d f ltac:(lra)). pose proof (Q i g h ltac:(lra)). lra.
Qed.
Lemma angle_rate X1 X2 V1 V2 t a th : (forall s, rigid (X1 s)) -> (forall s, rigid (X2 s)) -> frameMoves X1 t V1 -> frameMoves X2 t V2 ->
  norm a = 1 -> m3mul (ptE (X2 t)) (m3tr (ptE (X1 t))) = rotAxis a th ->
  dlim (fun s => cosAngle (ptE (X1 s)) (ptE (X2 s))) t (sin th * (dot a (ang V1) - dot a (ang V2))).
Proof.
  intros R1 R2 (A1 & _) (A2 & _) U E.
  assert (D : dM (fun s => m3mul (ptE (X2 s)) (m3tr (ptE (X1 s)))) t (m3add (m3mul (m3neg (skewm (ang V2))) (rotAxis a th)) (m3mul (rotAxis a th) (skewm (ang V1))))).
  { eapply dM_eq; [apply dM_mul; [exact A2|apply dM_tr; exact A1]|]. cbv beta. rewrite tr_rate, <- m3mul_assoc, E. f_equal.
    rewrite <- E, <- m3mul_assoc, !KinMultiFacts.neg_mul. reflexivity. }
  destruct D as ((D0 & _) & (_ & D1 & _) & (_ & _ & D2)).
  unfold cosAngle. cbv zeta. apply unit2 in U.
  eapply dl_eq; [apply (dl_ext (fun s => (vx (row0 (m3mul (ptE (X2 s)) (m3tr (ptE (X1 s))))) + vy (row1 (m3mul (ptE (X2 s)) (m3tr (ptE (X1 s))))) + vz (row2 (m3mul (ptE (X2 s)) (m3tr (ptE (X1 s))))) - 1) * (/ 2)))|].
  - intros s. reflexivity.
  - apply dl_mult; [apply dl_minus; [apply dl_plus; [apply dl_plus; [exact D0|exact D1]|exact D2]|apply dl_const]|apply dl_const].
  - destruct a as [a1 a2 a3], (ang V1) as [p1 p2 p3], (ang V2) as [q1 q2 q3]. unfold m3add, m3neg, m3mul, m3tr, skewm, rotAxis, dot, vadd, vneg; cbn. unfold dot; cbn. field.
Qed.
(** The square of the angle. *)
Definition angle2 (A B : M3) : R := acos (cosAngle A B) * acos (cosAngle A B).
Lemma angle2_axis A B a th : norm a = 1 -> Rabs th < PI -> m3mul B (m3tr A) = rotAxis a th -> angle2 A B = th * th.
Proof.
  intros U H E. unfold angle2. rewrite (cosAngle_axis A B a th U E).
  assert (Q : acos (cos th) = Rabs th). { unfold Rabs in *. destruct (Rcase_abs th); [rewrite <- cos_neg, acos_cos by lra; reflexivity|rewrite acos_cos by lra; reflexivity]. }
  rewrite Q. unfold Rabs. destruct (Rcase_abs th); ring.
Qed.
Lemma angle2_rate X1 X2 V1 V2 t a th : (forall s, rigid (X1 s)) -> (forall s, rigid (X2 s)) -> frameMoves X1 t V1 -> frameMoves X2 t V2 ->
  norm a = 1 -> Rabs th < PI -> m3mul (ptE (X2 t)) (m3tr (ptE (X1 t))) = rotAxis a th ->
  dlim (fun s => angle2 (ptE (X1 s)) (ptE (X2 s))) t (- 2 * (th * (dot a (ang V1) - dot a (ang V2)))).
Proof.
  intros R1 R2 M1 M2 U H E. pose proof (angle_rate X1 X2 V1 V2 t a th R1 R2 M1 M2 U E) as D.
  pose proof (cosAngle_axis _ _ a th U E) as CA. set (k := dot a (ang V1) - dot a (ang V2)) in *.
  assert (SC := sin2_cos2 th). unfold Rsqr in SC.
  assert (NZ : th = 0 \/ sin th <> 0 /\ cos th < 1 /\ -1 < cos th).
  { destruct (Req_dec th 0) as [->|N]; [auto|right]. assert (S : sin th <> 0).
    { unfold Rabs in H. destruct (Rcase_abs th); [assert (0 < sin (- th)) by (apply sin_gt_0; lra); rewrite sin_neg in *; lra|assert (0 < sin th) by (apply sin_gt_0; lra); lra]. }
    assert (0 < sin th * sin th) by nra. split; [exact S|]. split; nra. }
  unfold angle2. eapply dl_eq; [apply (acos_sqr (fun s => cosAngle (ptE (X1 s)) (ptE (X2 s)))); [exact D| | |]|].
  - rewrite CA. destruct NZ as [->|(_ & N1 & N2)]; [rewrite cos_0; lra|lra].
  - intros s. apply cosAngle_le; [apply R1|apply R2].
  - rewrite CA. intros C1. destruct NZ as [->|(_ & N1 & N2)]; [rewrite sin_0; ring|lra].
  - cbv beta. rewrite CA. destruct NZ as [->|(N0 & N1 & N2)].
    + rewrite cos_0. destruct (Rlt_dec 1 1); [lra|ring].
    + destruct (Rlt_dec (cos th) 1) as [L|L]; [|lra].
      replace (1 - (cos th)²) with (sin th * sin th) by (unfold Rsqr; lra). fold (Rsqr (sin th)). rewrite sqrt_Rsqr_abs.
      unfold Rabs in *. destruct (Rcase_abs th) as [T|T].
      * assert (0 < sin (- th)) by (apply sin_gt_0; lra). rewrite sin_neg in *. rewrite <- (cos_neg th), acos_cos by lra. destruct (Rcase_abs (sin th)); [|lra]. field. lra.
      * assert (th <> 0) by (intros ->; rewrite sin_0 in N0; lra). assert (0 < sin th) by (apply sin_gt_0; lra). rewrite acos_cos by lra. destruct (Rcase_abs (sin th)); [lra|]. field. lra.
Qed.
