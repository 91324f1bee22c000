(** The angular error of the orientation tasks: exact about a fixed axis, not in general. *)
From Verif Require Export KinWitness.
From Coq Require Import Lra Ratan.
Open Scope list_scope.
Open Scope R_scope.
Local Arguments sumn : simpl never.
Local Arguments e3 : simpl never.

(** Rotation by the angle x about a: matrix from the fixed to the turned frame (the convention of sva). *)
Definition rotAxis (a : V3) (x : R) : M3 :=
  mkM3 (mkV3 (cos x + (1 - cos x) * (vx a * vx a)) (sin x * vz a + (1 - cos x) * (vx a * vy a)) (- (sin x * vy a) + (1 - cos x) * (vx a * vz a)))
       (mkV3 (- (sin x * vz a) + (1 - cos x) * (vy a * vx a)) (cos x + (1 - cos x) * (vy a * vy a)) (sin x * vx a + (1 - cos x) * (vy a * vz a)))
       (mkV3 (sin x * vy a + (1 - cos x) * (vz a * vx a)) (- (sin x * vx a) + (1 - cos x) * (vz a * vy a)) (cos x + (1 - cos x) * (vz a * vz a))).
(** rv is the rotation vector: the logarithm, for angles below a half turn. *)
Definition isLog (rv : M3 -> V3) : Prop := forall a x, norm a = 1 -> Rabs x < PI -> rv (rotAxis a x) = vsc x a.
(** sva::rotationVelocity. *)
Definition sincInv (x : R) : R := if Req_EM_T x 0 then 1 else x / sin x.
Definition rvLog (E : M3) : V3 :=
  vsc (sincInv (acos ((vx (row0 E) + vy (row1 E) + vz (row2 E) - 1) / 2)) / 2)
      (mkV3 (vz (row1 E) - vy (row2 E)) (vx (row2 E) - vz (row0 E)) (vy (row0 E) - vx (row1 E))).

Lemma unit2 a : norm a = 1 -> vx a * vx a + vy a * vy a + vz a * vz a = 1.
Proof. intros H. pose proof (norm2_nonneg a) as P. apply (f_equal (fun x => x * x)) in H. unfold norm in H. rewrite sqrt_def in H by exact P. unfold norm2, dot in H. lra. Qed.
Lemma axis_mulv a x v : m3mulv (rotAxis a x) v = vadd (vsc (cos x) v) (vadd (vsc (- sin x) (cross a v)) (vsc ((1 - cos x) * dot a v) a)).
Proof. unfold rotAxis, m3mulv, vadd, vsc, cross, dot; simpl. f_equal; ring. Qed.
Lemma axis_tr a x : m3tr (rotAxis a x) = rotAxis a (- x).
Proof. unfold m3tr, rotAxis; simpl. rewrite cos_neg, sin_neg. f_equal; f_equal; ring. Qed.
Lemma axis_mul a x y : norm a = 1 -> m3mul (rotAxis a x) (rotAxis a y) = rotAxis a (x + y).
Proof.
  intros U. apply unit2 in U. apply m3_ext_v. intros v. rewrite m3mul_mulv, !axis_mulv, cos_plus, sin_plus.
  destruct a as [a1 a2 a3], v as [v1 v2 v3]; unfold vadd, vsc, cross, dot in *; simpl in *.
  assert (A : a1 * a1 = 1 - a2 * a2 - a3 * a3) by lra.
  f_equal; ring [A].
Qed.
Lemma axis_fix a x : norm a = 1 -> m3mulv (rotAxis a x) a = a.
Proof.
  intros U. apply unit2 in U. rewrite axis_mulv. destruct a as [a1 a2 a3]; unfold vadd, vsc, cross, dot in *; simpl in *.
  assert (A : a1 * a1 = 1 - a2 * a2 - a3 * a3) by lra. f_equal; ring [A].
Qed.
Lemma rvLog_isLog : isLog rvLog.
Proof.
  intros a x U Hx. apply unit2 in U. unfold rvLog, rotAxis; cbn [row0 row1 row2 vx vy vz].
  replace ((cos x + (1 - cos x) * (vx a * vx a) + (cos x + (1 - cos x) * (vy a * vy a)) + (cos x + (1 - cos x) * (vz a * vz a)) - 1) / 2) with (cos x).
  2: { replace (cos x + (1 - cos x) * (vx a * vx a) + (cos x + (1 - cos x) * (vy a * vy a)) + (cos x + (1 - cos x) * (vz a * vz a)) - 1)
       with (3 * cos x + (1 - cos x) * (vx a * vx a + vy a * vy a + vz a * vz a) - 1) by ring. rewrite U. field. }
  assert (Q : acos (cos x) = Rabs x).
  { unfold Rabs in *. destruct (Rcase_abs x) as [L|L].
    - rewrite <- (cos_neg x), acos_cos by lra. reflexivity.
    - rewrite acos_cos by lra. reflexivity. }
  rewrite Q. assert (S : sincInv (Rabs x) / 2 * (2 * sin x) = x).
  { unfold sincInv. destruct (Req_EM_T (Rabs x) 0) as [Z|NZ].
    - assert (x = 0) by (unfold Rabs in Z; destruct (Rcase_abs x); lra). subst x. rewrite sin_0. ring.
    - unfold Rabs in *. destruct (Rcase_abs x) as [L|L].
      + rewrite sin_neg. assert (0 < sin (- x)) by (apply sin_gt_0; lra). rewrite sin_neg in H. field. lra.
      + assert (0 < sin x) by (apply sin_gt_0; lra). field. lra. }
  unfold vsc; simpl.
  replace (vsc x a) with (mkV3 (x * vx a) (x * vy a) (x * vz a)) by reflexivity.
  revert S. generalize (sincInv (Rabs x) / 2). intros k S.
  f_equal; [transitivity (k * (2 * sin x) * vx a)|transitivity (k * (2 * sin x) * vy a)|transitivity (k * (2 * sin x) * vz a)]; try ring; rewrite S; reflexivity.
Qed.

(** Error between two rotations about one axis. *)
Lemma axis_error rv a x y : isLog rv -> norm a = 1 -> Rabs (y - x) < PI -> rotError rv (rotAxis a x) (rotAxis a y) = vsc (y - x) a.
Proof.
  intros L U B. unfold rotError. rewrite axis_tr, axis_mul by exact U. replace (y + - x) with (y - x) by ring. rewrite (L a (y - x) U B).
  replace (m3mulv (rotAxis a (- x)) (vsc (y - x) a)) with (vsc (y - x) (m3mulv (rotAxis a (- x)) a)) by (unfold m3mulv, vsc, dot; simpl; f_equal; ring).
  rewrite axis_fix by exact U. reflexivity.
Qed.
Lemma axis_rate a f t d : norm a = 1 -> dlim f t d -> dM (fun s => rotAxis a (f s)) t (m3neg (m3mul (skewm (vsc d a)) (rotAxis a (f t)))).
Proof.
  intros U D. apply unit2 in U.
  assert (S : dlim (fun s => sin (f s)) t (cos (f t) * d)) by (apply (dl_comp f sin); [exact D|apply derivable_pt_lim_sin]).
  assert (C : dlim (fun s => cos (f s)) t (- sin (f t) * d)) by (apply (dl_comp f cos); [exact D|apply derivable_pt_lim_cos]).
  destruct a as [a1 a2 a3]; simpl in U. assert (A : a1 * a1 = 1 - a2 * a2 - a3 * a3) by lra.
  unfold rotAxis, m3neg, m3mul, skewm, m3mulv, vneg, vsc, dot, m3tr.
  repeat split; simpl;
    (eapply dl_eq; [repeat first [exact S|exact C|apply dl_plus|apply dl_opp|apply dl_mult|apply dl_minus|apply dl_const]|cbv beta; ring [A]]).
Qed.
Lemma skewm_inj E w u : rotation E -> m3neg (m3mul (skewm w) E) = m3neg (m3mul (skewm u) E) -> w = u.
Proof.
  intros R H.
  assert (N : forall A u, m3mulv (m3neg A) u = vneg (m3mulv A u)) by (intros; unfold m3neg, m3mulv, vneg, dot; simpl; f_equal; ring).
  assert (Q : forall v, cross w v = cross u v).
  { intros v. apply (f_equal (fun A => m3mulv A (m3mulv (m3tr E) v))) in H. rewrite !N, !m3mul_mulv, rotation_mulT, !skewm_mulv in H by exact R.
    apply (f_equal vneg) in H. destruct (cross w v), (cross u v); unfold vneg in H; simpl in H. injection H as A B C. f_equal; lra. }
  pose proof (Q (mkV3 1 0 0)) as Q1. pose proof (Q (mkV3 0 1 0)) as Q2. destruct w as [w1 w2 w3], u as [u1 u2 u3]; unfold cross in *; simpl in *.
  injection Q1 as A B C. injection Q2 as D E' F. f_equal; lra.
Qed.
Lemma dM_unique E t A B : dM E t A -> dM E t B -> A = B.
Proof. intros (A1 & A2 & A3) (B1 & B2 & B3). apply M3_ext; eapply dV_unique; eassumption. Qed.
Lemma near_bound f t d c : dlim f t d -> Rabs (c - f t) < PI -> exists e, 0 < e /\ forall s, Rabs (s - t) < e -> Rabs (c - f s) < PI.
Proof.
  intros D B. assert (CT : continuity_pt f t) by (apply derivable_continuous_pt; exists d; exact D).
  destruct (CT (PI - Rabs (c - f t))) as (e & He & Hs); [lra|]. exists e. split; [exact He|]. intros s Hd.
  destruct (Req_dec s t) as [->|NE]; [exact B|].
  assert (X : R_dist (f s) (f t) < PI - Rabs (c - f t)).
  { apply Hs. split; [split; [exact I|auto]|exact Hd]. }
  unfold R_dist in X. replace (c - f s) with ((c - f t) + - (f s - f t)) by ring. eapply Rle_lt_trans; [apply Rabs_triang|]. rewrite Rabs_Ropp. lra.
Qed.

(** The body turns about a fixed axis on which the target lies. *)
Theorem orientation_axis rv mb path a f d y K al ald t jm : isLog rv -> wfPath mb path -> sized 3 mb jm -> movesAt mb path K al ald t ->
  norm a = 1 -> (forall s, ptE (bkPos (K s)) = rotAxis a (f s)) -> dlim f t d -> Rabs (y - f t) < PI ->
  exists H, yields 3 mb (fun s => oriUpdate rv mb path (rotAxis a y) (K s) (jm s)) H /\ errorRate 0 3 H t /\
    forall i, (i < 3)%nat -> vget (hErr (H t)) i = (y - f t) * e3 a i /\ vget (hSpeed (H t)) i = d * e3 a i.
Proof.
  intros L W Sz M U EK D B. pose proof M as [RG _ RT _ _].
  destruct (orientation_tracks rv mb path (rotAxis a y) K al ald t jm W Sz M) as (H & Y & HE & HS & _).
  assert (AV : ang (bkVelB (K t)) = vsc d a).
  { apply (skewm_inj (ptE (bkPos (K t))) _ _ (RG t)). eapply dM_unique; [exact RT|]. rewrite EK. eapply dM_ext; [|apply (axis_rate a f t d U D)]. intros s. symmetry. apply EK. }
  assert (SP : forall i, (i < 3)%nat -> vget (hSpeed (H t)) i = d * e3 a i).
  { intros i Hi. rewrite HS, AV, EK, axis_tr by exact Hi. replace (m3mulv (rotAxis a (- f t)) (vsc d a)) with (vsc d (m3mulv (rotAxis a (- f t)) a)) by (unfold m3mulv, vsc, dot; simpl; f_equal; ring).
    rewrite axis_fix by exact U. apply e3_sc. }
  exists H. split; [exact Y|]. split.
  - intros i Hi. rewrite SP by lia. destruct (near_bound f t d y D B) as (e & He & Hn).
    apply (dl_near (fun s => (y - f s) * e3 a i) _ t _ e He).
    + intros s Hs. rewrite HE, EK, (axis_error rv a (f s) y L U (Hn s Hs)) by lia. symmetry. apply e3_sc.
    + eapply dl_eq; [apply dl_mult; [apply dl_minus; [apply dl_const|exact D]|apply dl_const]|]. cbv beta. ring.
  - intros i Hi. split; [|apply SP, Hi]. rewrite HE, EK, (axis_error rv a (f t) y L U B) by exact Hi. apply e3_sc.
Qed.
Theorem surface_axis rv mb path a f d y p X K al ald t jm : isLog rv -> wfPath mb path -> sized 6 mb jm -> rigid X -> movesAt mb path K al ald t ->
  norm a = 1 -> (forall s, m3mul (ptE X) (ptE (bkPos (K s))) = rotAxis a (f s)) -> dlim f t d -> Rabs (y - f t) < PI ->
  exists H, yields 6 mb (fun s => surfTfUpdate rv mb path (mkPT (rotAxis a y) p) X (K s) (jm s)) H /\ errorRate 0 6 H t /\ speedRate 0 6 H ald t /\
    forall i, (i < 3)%nat -> vget (hErr (H t)) i = (y - f t) * e3 a i /\ vget (hSpeed (H t)) i = d * e3 a i.
Proof.
  intros L W Sz RX M U EK D B. pose proof M as [RG _ RT _ _].
  destruct (surface_transform_tracks rv mb path (mkPT (rotAxis a y) p) X K al ald t jm W Sz RX M) as (H & Y & _ & HE & HS & _ & ER & SR & AR).
  assert (AV : m3mulv (ptE X) (ang (bkVelB (K t))) = vsc d a).
  { apply (skewm_inj (m3mul (ptE X) (ptE (bkPos (K t)))) _ _ (rotation_mul _ _ RX (RG t))). eapply dM_unique; [|rewrite EK; eapply dM_ext; [|apply (axis_rate a f t d U D)]; intros s; symmetry; apply EK].
    eapply dM_eq; [apply dM_mul; [apply dM_const|exact RT]|]. cbv beta.
    apply m3_ext_v. intros v.
    assert (N : forall A u, m3mulv (m3neg A) u = vneg (m3mulv A u)) by (intros; unfold m3neg, m3mulv, vneg, dot; simpl; f_equal; ring).
    assert (AD : forall A B u, m3mulv (m3add A B) u = vadd (m3mulv A u) (m3mulv B u)) by (intros; unfold m3add, m3mulv, vadd, dot; simpl; f_equal; ring).
    rewrite AD, !m3mul_mulv, !N, !m3mul_mulv, !skewm_mulv, m3mulv_neg, <- rotation_cross by exact RX.
    generalize (cross (m3mulv (ptE X) (ang (bkVelB (K t)))) (m3mulv (ptE X) (m3mulv (ptE (bkPos (K t))) v))) (m3mulv (ptE (bkPos (K t))) v).
    intros [] []; unfold vadd, vneg, m3mulv, dot, v0; simpl; f_equal; ring. }
  assert (EE : forall s, Rabs (y - f s) < PI -> rv (m3mul (rotAxis a y) (m3tr (m3mul (ptE X) (ptE (bkPos (K s)))))) = vsc (y - f s) a).
  { intros s Bs. rewrite EK, axis_tr, axis_mul by exact U. replace (y + - f s) with (y - f s) by ring. apply L; assumption. }
  assert (SP : forall i, (i < 3)%nat -> vget (hSpeed (H t)) i = d * e3 a i).
  { intros i Hi. rewrite HS by exact Hi. cbv zeta. cbn [ptE]. rewrite AV, EE by exact B. rewrite <- e3_sc. f_equal. destruct a; unfold vsub, vsc, cross; simpl; f_equal; ring. }
  assert (EA : errorRate 0 3 H t).
  { intros i Hi. rewrite SP by lia. destruct (near_bound f t d y D B) as (e & He & Hn).
    apply (dl_near (fun s => (y - f s) * e3 a i) _ t _ e He).
    + intros s Hs. rewrite HE by lia. cbn [ptE]. rewrite EE by (apply Hn, Hs). symmetry. apply e3_sc.
    + eapply dl_eq; [apply dl_mult; [apply dl_minus; [apply dl_const|exact D]|apply dl_const]|]. cbv beta. ring. }
  exists H. split; [exact Y|]. split; [|split].
  - intros i Hi. destruct (Nat.lt_ge_cases i 3); [apply EA; lia|apply ER; lia].
  - intros i Hi. destruct (Nat.lt_ge_cases i 3); [apply AR; [exact EA|lia]|apply SR; lia].
  - intros i Hi. split; [|apply SP, Hi]. rewrite HE by exact Hi. cbn [ptE]. rewrite EE by exact B. apply e3_sc.
Qed.

(** *** Not in general: the target is a quarter turn about z away and the body turns about x. *)
Definition kRoll (s : R) : bodyKin := mkBK (mkPT (RotX s) v0) (mkSp xhat v0) sp0 (fun _ => mkSp xhat v0).
Lemma kRoll_moves t : movesAt kMb [0%nat] kRoll (kAl 1 0) (kAld 0) t.
Proof.
  apply moves_of; unfold kRoll; cbn [bkPos bkVelB bkNAccB bkCol ptE ptr ang linr].
  - intros s. exact (RotX_rotation s).
  - apply Spatial_ext; apply V3_ext; cbn; unfold kAl; ring.
  - unfold RotX, m3neg, m3mul, skewm, m3mulv, dot, xhat. repeat split; cbn;
      (eapply dl_eq; [first [apply dl_const|apply derivable_pt_lim_sin|apply derivable_pt_lim_cos|apply dl_opp, derivable_pt_lim_sin]|ring]).
  - eapply dV_eq; [apply dV_const|]. unfold m3mulv, dot, v0; cbn. f_equal; ring.
  - repeat split; cbn; (eapply dl_eq; [apply dl_const|unfold kAld; cbn; ring]).
Qed.
Lemma angular_refuted_lemma : exists mb path ori K al ald t jm H, rotation ori /\ wfPath mb path /\ sized 3 mb jm /\ movesAt mb path K al ald t /\
  yields 3 mb (fun s => oriUpdate rvLog mb path ori (K s) (jm s)) H /\ ~ errorRate 0 3 H t.
Proof.
  set (ori := mkM3 (mkV3 0 1 0) (mkV3 (-1) 0 0) (mkV3 0 0 1)).
  destruct (orientation_tracks rvLog kMb [0%nat] ori kRoll (kAl 1 0) (kAld 0) 0 (kJm 3) kWf (kSized 3) (kRoll_moves 0)) as (H & Y & HE & HS & _).
  exists kMb, [0%nat], ori, kRoll, (kAl 1 0), (kAld 0), 0, (kJm 3), H.
  split. { pose proof (RotZ_rotation (PI / 2)) as R. unfold RotZ in R. rewrite cos_PI2, sin_PI2 in R. exact R. }
  split; [apply kWf|]. split; [apply kSized|]. split; [apply kRoll_moves|]. split; [exact Y|].
  intros ER. specialize (ER 1%nat ltac:(lia)).
  assert (S0 : vget (hSpeed (H 0)) 1 = 0). { rewrite HS by lia. unfold kRoll, RotX, xhat, m3mulv, m3tr, dot, e3; cbn. ring. }
  rewrite S0 in ER.
  set (th := fun s => acos ((cos s - 1) / 2)).
  assert (TH0 : th 0 = PI / 2). { unfold th. rewrite cos_0. replace ((1 - 1) / 2) with 0 by field. apply acos_0. }
  assert (E1 : forall s, vget (hErr (H s)) 1 = - (th s / sin (th s) / 2) * sin s).
  { intros s. rewrite HE by lia. unfold rotError, kRoll; cbn [bkPos ptE].
    assert (Q : m3mul ori (m3tr (RotX s)) = mkM3 (mkV3 0 (cos s) (- sin s)) (mkV3 (-1) 0 0) (mkV3 0 (sin s) (cos s))) by (unfold ori, RotX, m3mul, m3tr, m3mulv, dot; cbn; f_equal; f_equal; ring).
    rewrite Q. unfold rvLog; cbn [row0 row1 row2 vx vy vz]. replace ((0 + 0 + cos s - 1) / 2) with ((cos s - 1) / 2) by field. fold (th s).
    assert (T : th s <> 0).
    { unfold th. intros Z. assert (C : cos (acos ((cos s - 1) / 2)) = (cos s - 1) / 2) by (apply cos_acos; pose proof (COS_bound s); lra). rewrite Z, cos_0 in C. pose proof (COS_bound s). lra. }
    unfold sincInv. destruct (Req_EM_T (th s) 0) as [Z|_]; [contradiction|]. unfold RotX, m3mulv, m3tr, vsc, dot, e3; cbn. generalize (th s / sin (th s)). intros f. field. }
  assert (DT : exists dd, dlim th 0 dd).
  { exists (derive_pt acos 0 (derivable_pt_acos 0 ltac:(lra)) * ((- sin 0) * / 2)). unfold th. apply (dl_comp (fun s => (cos s - 1) / 2) acos).
    - unfold Rdiv. eapply dl_eq; [apply dl_mult; [apply dl_minus; [apply derivable_pt_lim_cos|apply dl_const]|apply dl_const]|]. cbv beta. ring.
    - rewrite cos_0. replace ((1 - 1) / 2) with 0 by field. apply derive_pt_eq_1 with (pr := derivable_pt_acos 0 ltac:(lra)). reflexivity. }
  destruct DT as (dd & DT).
  assert (S1 : sin (th 0) = 1) by (rewrite TH0; apply sin_PI2).
  assert (DF : exists df, dlim (fun s => - (th s / sin (th s) / 2)) 0 df).
  { eexists. apply dl_opp. unfold Rdiv. apply dl_mult; [|apply dl_const]. apply dl_mult; [exact DT|].
    apply (dl_inv (fun s => sin (th s))); [lra|]. apply (dl_comp th sin); [exact DT|apply derivable_pt_lim_sin]. }
  destruct DF as (df & DF).
  assert (D : dlim (fun s => vget (hErr (H s)) 1) 0 (- (PI / 4))).
  { eapply dl_ext; [intros s; symmetry; apply E1|]. eapply dl_eq; [apply dl_mult; [exact DF|apply derivable_pt_lim_sin]|]. cbv beta. rewrite sin_0, cos_0, S1, TH0. field. }
  pose proof (dl_unique _ _ _ _ D ER). pose proof PI_RGT_0. lra.
Qed.
