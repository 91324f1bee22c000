(** Euler's theorem on rotations, and energies of two moving frames. *)
From Verif Require Export ContactFrames.
From Verif Require Import KinFacts KinTaskFacts VisFacts SetPointLoop.
From Coq Require Import Lra Psatz Ratan.
Open Scope list_scope.
Open Scope R_scope.

(** ** A rotation other than a half turn is a rotation of less than a half turn about an axis *)
Definition cosOf (C : M3) : R := (vx (row0 C) + vy (row1 C) + vz (row2 C) - 1) / 2.
Lemma id_axis a : norm a = 1 -> rotAxis a 0 = m3id.
Proof. intros _. unfold rotAxis, m3id. rewrite cos_0, sin_0. f_equal; f_equal; ring. Qed.
Lemma rotation_eqs a b c d e f g h i : rotation (mkM3 (mkV3 a b c) (mkV3 d e f) (mkV3 g h i)) ->
  (a*a+b*b+c*c = 1 /\ d*d+e*e+f*f = 1 /\ g*g+h*h+i*i = 1) /\ (a*d+b*e+c*f = 0 /\ a*g+b*h+c*i = 0 /\ d*g+e*h+f*i = 0) /\
  (a*a+d*d+g*g = 1 /\ b*b+e*e+h*h = 1 /\ c*c+f*f+i*i = 1) /\ (a*b+d*e+g*h = 0 /\ a*c+d*f+g*i = 0 /\ b*c+e*f+h*i = 0) /\
  (b*f-c*e = g /\ c*d-a*f = h /\ a*e-b*d = i) /\ (e*i-f*h = a /\ f*g-d*i = b /\ d*h-e*g = c) /\ (h*c-i*b = d /\ i*a-g*c = e /\ g*b-h*a = f).
Proof.
  intros RC. pose proof (rotation_tr _ RC) as ((T1 & T2 & T3 & T4 & T5 & T6) & TR). pose proof RC as ((O1 & O2 & O3 & O4 & O5 & O6) & OR).
  unfold norm2, dot, cross, righthanded, m3tr in *. cbn in *. unfold cross in *. cbn in *.
  injection OR as R1 R2 R3. injection TR as S1 S2 S3.
  assert (G : rotation (mkM3 (mkV3 d e f) (mkV3 g h i) (mkV3 a b c))).
  { apply det_rotation; [unfold orthonormal, norm2, dot; cbn; repeat split; lra|]. rewrite <- (rotation_det _ RC). unfold det3, dot, cross; cbn. ring. }
  assert (H : rotation (mkM3 (mkV3 g h i) (mkV3 a b c) (mkV3 d e f))).
  { apply det_rotation; [unfold orthonormal, norm2, dot; cbn; repeat split; lra|]. rewrite <- (rotation_det _ RC). unfold det3, dot, cross; cbn. ring. }
  destruct G as (_ & G), H as (_ & H). unfold righthanded, cross in G, H. cbn in G, H. injection G as G1 G2 G3. injection H as H1 H2 H3.
  repeat split; lra.
Qed.
Lemma euler_axis C : rotation C -> -1 < cosOf C -> exists a th, norm a = 1 /\ 0 <= th < PI /\ C = rotAxis a th.
Proof.
  intros RC HC. destruct C as [[a b c] [d e f] [g h i]].
  destruct (rotation_eqs _ _ _ _ _ _ _ _ _ RC) as ((N1 & N2 & N3) & (O1 & O2 & O3) & (M1 & M2 & M3) & (P1 & P2 & P3) & (R1 & R2 & R3) & (S1 & S2 & S3) & (T1 & T2 & T3)).
  unfold cosOf in HC; cbn in HC. set (k := (a + e + i - 1) / 2) in *. assert (Hk : a + e + i = 2 * k + 1) by (unfold k; field).
  assert (Q : forall p q r, p * p + q * q + r * r = 1 -> p <= 1) by (intros; nra).
  pose proof (Q a b c ltac:(lra)). pose proof (Q e d f ltac:(lra)). pose proof (Q i g h ltac:(lra)).
  destruct (Req_dec k 1) as [K1|K1].
  - exists (mkV3 1 0 0), 0. split; [unfold norm, norm2, dot; cbn; replace (1 * 1 + 0 * 0 + 0 * 0) with 1 by ring; apply sqrt_1|]. split; [pose proof PI_RGT_0; lra|].
    rewrite id_axis by (unfold norm, norm2, dot; cbn; replace (1 * 1 + 0 * 0 + 0 * 0) with 1 by ring; apply sqrt_1).
    assert (a = 1) by lra. assert (e = 1) by lra. assert (i = 1) by lra. clear R1 R2 R3 S1 S2 S3 T1 T2 T3 RC K1 HC Hk. clearbody k. subst.
    assert (b * b + c * c = 0) by lra. assert (d * d + f * f = 0) by lra. assert (g * g + h * h = 0) by lra.
    assert (Z : forall p q, p * p + q * q = 0 -> p = 0 /\ q = 0) by (intros p q PQ; destruct (sum_sqr_0 p q 0 ltac:(lra)) as (? & ? & _); auto).
    destruct (Z b c), (Z d f), (Z g h); try assumption. subst. reflexivity.
  - assert (K2 : k < 1) by lra. set (th := acos k). assert (CT : cos th = k) by (apply cos_acos; lra).
    pose proof (acos_bound_lt k ltac:(lra)) as TB. fold th in TB. set (s := sin th). assert (SP : 0 < s) by (apply sin_gt_0; lra).
    assert (SS : s * s = 1 - k * k). { pose proof (sin2_cos2 th) as X. unfold Rsqr in X. fold s in X. rewrite CT in X. lra. }
    assert (U : (f - h) * (f - h) + (g - c) * (g - c) + (b - d) * (b - d) = 4 * (s * s)).
    { transitivity ((3 - (a + e + i)) * (1 + (a + e + i))); [|rewrite Hk, SS; ring].
      transitivity (3 - (a*a+e*e+i*i) - 2 * (a*e - i + (a*i - e) + (e*i - a))).
      - assert (f*h = e*i-a) by lra. assert (c*g = a*i-e) by lra. assert (b*d = a*e-i) by lra.
        transitivity (f*f+h*h+g*g+c*c+b*b+d*d - 2*(f*h) - 2*(c*g) - 2*(b*d)); [ring|]. rewrite H2, H3, H4. lra.
      - ring. }
    exists (mkV3 ((f - h) / (2 * s)) ((g - c) / (2 * s)) ((b - d) / (2 * s))), th.
    split; [|split; [lra|]].
    + unfold norm, norm2, dot; cbn. rewrite <- sqrt_1. f_equal.
      transitivity (((f - h) * (f - h) + (g - c) * (g - c) + (b - d) * (b - d)) / (4 * (s * s))); [field; lra|]. rewrite U. field. lra.
    + assert (NK : 1 + k <> 0) by lra. assert (NS : s <> 0) by lra.
      assert (W : forall p q, (1 - k) * (p / (2 * s) * (q / (2 * s))) = p * q / (4 * (1 + k))).
      { intros p q. transitivity ((1 - k) * (p * q) / (4 * (s * s))); [field; lra|]. rewrite SS. field. split; [lra|]. replace (1 - k * k) with ((1 - k) * (1 + k)) by ring. apply Rmult_integral_contrapositive_currified; lra. }
      assert (Y : forall p, s * (p / (2 * s)) = p / 2) by (intros; field; lra).
      unfold rotAxis; cbn. rewrite CT. fold s. rewrite !W, !Y.
      assert (A1 : (f - h) * (g - c) = (b + d) * (2 + 2 * k)). { replace (2 + 2 * k) with (1 + (a + e + i)) by lra. transitivity (f*g - c*f - g*h + c*h); [ring|]. replace (f*g) with (b + d*i) by lra. replace (h*c) with (d + i*b) by lra. replace (c*f) with (-(a*d+b*e)) by lra. replace (g*h) with (-(a*b+d*e)) by lra. replace (c*h) with (d + i*b) by lra. ring. }
      assert (A2 : (f - h) * (b - d) = (c + g) * (2 + 2 * k)). { replace (2 + 2 * k) with (1 + (a + e + i)) by lra. transitivity (b*f - d*f - b*h + d*h); [ring|]. replace (b*f) with (g + c*e) by lra. replace (d*h) with (c + e*g) by lra. replace (d*f) with (-(a*c+g*i)) by lra. replace (b*h) with (-(a*g+c*i)) by lra. ring. }
      assert (A3 : (g - c) * (b - d) = (f + h) * (2 + 2 * k)). { replace (2 + 2 * k) with (1 + (a + e + i)) by lra. transitivity (b*g - d*g - b*c + c*d); [ring|]. replace (b*g) with (f + h*a) by lra. replace (c*d) with (h + a*f) by lra. replace (d*g) with (-(e*h+f*i)) by lra. replace (b*c) with (-(e*f+h*i)) by lra. ring. }
      assert (B1 : (f - h) * (f - h) = (2 + 2 * k) * (2 * (a - k))). { replace (2 + 2 * k) with (1 + (a + e + i)) by lra. replace (2 * (a - k)) with (1 + a - e - i) by lra. transitivity (f*f + h*h - 2*(f*h)); [ring|]. replace (f*h) with (e*i-a) by lra. replace (f*f) with (1-d*d-e*e) by lra. replace (h*h) with (1 - g*g-i*i) by lra. replace (d*d) with (1-a*a-g*g) by lra. ring. }
      assert (B2 : (g - c) * (g - c) = (2 + 2 * k) * (2 * (e - k))). { replace (2 + 2 * k) with (1 + (a + e + i)) by lra. replace (2 * (e - k)) with (1 + e - a - i) by lra. transitivity (g*g + c*c - 2*(c*g)); [ring|]. replace (c*g) with (a*i-e) by lra. replace (g*g) with (1-h*h-i*i) by lra. replace (c*c) with (1 - a*a-b*b) by lra. replace (h*h) with (1-b*b-e*e) by lra. ring. }
      assert (B3 : (b - d) * (b - d) = (2 + 2 * k) * (2 * (i - k))). { replace (2 + 2 * k) with (1 + (a + e + i)) by lra. replace (2 * (i - k)) with (1 + i - a - e) by lra. transitivity (b*b + d*d - 2*(b*d)); [ring|]. replace (b*d) with (a*e-i) by lra. replace (b*b) with (1-a*a-c*c) by lra. replace (d*d) with (1 - e*e-f*f) by lra. replace (c*c) with (1-f*f-i*i) by lra. ring. }
      f_equal; f_equal; try (rewrite ?(Rmult_comm (g - c) (f - h)), ?(Rmult_comm (b - d) (f - h)), ?(Rmult_comm (b - d) (g - c)); rewrite ?A1, ?A2, ?A3, ?B1, ?B2, ?B3; field; lra).
Qed.
Lemma half_turn_iff A B : rotation A -> rotation B -> (underHalfTurn A B <-> -1 < cosAngle A B).
Proof.
  intros RA RB. split.
  - intros (a & th & U & H & E). rewrite (cosAngle_axis A B a th U E). pose proof PI_RGT_0.
    assert (C : cos PI < cos (Rabs th)) by (apply cos_decreasing_1; pose proof (Rabs_pos th); lra). rewrite cos_PI in C.
    unfold Rabs in C. destruct (Rcase_abs th); [rewrite cos_neg in C|]; exact C.
  - intros H. destruct (euler_axis (m3mul B (m3tr A))) as (a & th & U & T & E).
    + apply rotation_mul; [exact RB|apply rotation_tr; exact RA].
    + exact H.
    + exists a, th. split; [exact U|]. split; [rewrite Rabs_pos_eq by lra; lra|exact E].
Qed.
Lemma cosAngle_one A B : rotation A -> rotation B -> cosAngle A B = 1 -> A = B.
Proof.
  intros RA RB H. destruct (euler_axis (m3mul B (m3tr A))) as (a & th & U & T & E).
  - apply rotation_mul; [exact RB|apply rotation_tr; exact RA].
  - change (-1 < cosAngle A B). lra.
  - assert (Z : th = 0).
    { rewrite (cosAngle_axis A B a th U E) in H. destruct (Req_dec th 0) as [Z|NZ]; [exact Z|]. exfalso.
      assert (cos th < cos 0) by (apply cos_decreasing_1; lra). rewrite cos_0 in *. lra. }
    subst th. rewrite (id_axis a U) in E. apply (f_equal (fun M => m3mul M A)) in E.
    rewrite m3mul_assoc, (rotation_tr_mul _ RA), m3mul_id_l, m3mul_id_r in E. auto.
Qed.
Lemma angle2_pos A B : 0 <= angle2 A B.
Proof. unfold angle2. apply Rle_0_sqr. Qed.
Lemma angle2_zero A B : rotation A -> rotation B -> angle2 A B = 0 -> A = B.
Proof.
  intros RA RB H. apply cosAngle_one; [exact RA|exact RB|]. unfold angle2 in H. apply Rsqr_0_uniq in H.
  pose proof (cosAngle_le A B RA RB). destruct (Rlt_dec (cosAngle A B) (-1)) as [L|L].
  - exfalso. unfold acos in H. rewrite atan_opp in H || idtac. revert H. unfold acos. destruct (Rle_dec (cosAngle A B) (-1)); [pose proof PI_RGT_0; lra|lra].
  - rewrite <- (cos_acos (cosAngle A B)) by lra. rewrite H. apply cos_0.
Qed.

(** ** Staying above a level *)
Lemma decr_int f f' b : (forall s, 0 <= s <= b -> dlim f s (f' s)) -> (forall s, 0 <= s <= b -> f' s <= 0) -> forall s u, 0 <= s <= u -> u <= b -> f u <= f s.
Proof.
  intros D N s u H B. destruct (Req_dec s u) as [->|NE]; [lra|].
  destruct (MVT_cor2 f f' s u) as (c & E & Hc); [lra|intros; apply D; lra|].
  assert (f' c * (u - s) <= 0) by (pose proof (N c ltac:(lra)); nra). lra.
Qed.
Lemma cont_near c s e : continuity_pt c s -> 0 < e -> exists d, 0 < d /\ forall u, Rabs (u - s) < d -> Rabs (c u - c s) < e.
Proof.
  intros C He. destruct (C e He) as (d & Hd & D). exists d. split; [exact Hd|]. intros u Hu.
  destruct (Req_dec u s) as [->|N]; [rewrite Rminus_diag_eq, Rabs_R0 by reflexivity; exact He|].
  apply (D u). split; [split; [exact I|auto]|exact Hu].
Qed.
Lemma barrier c lo hi : (forall s, 0 <= s -> continuity_pt c s) -> lo < hi ->
  (forall s, 0 <= s -> (forall u, 0 <= u < s -> lo < c u) -> hi <= c s \/ s = 0 /\ lo < c 0) -> forall s, 0 <= s -> lo < c s.
Proof.
  intros C L B s1 H1. destruct (Rlt_dec lo (c s1)) as [?|N]; [assumption|exfalso].
  set (E := fun s => 0 <= s <= s1 /\ forall u, 0 <= u < s -> lo < c u).
  destruct (completeness E) as (sg & UB & LUB).
  - exists s1. intros s (Hs & _). lra.
  - exists 0. split; [lra|]. intros u Hu. lra.
  - assert (S0 : 0 <= sg) by (apply UB; split; [lra|intros u Hu; lra]).
    assert (S1 : sg <= s1) by (apply LUB; intros s (Hs & _); lra).
    assert (BE : forall u, 0 <= u < sg -> lo < c u).
    { intros u Hu. destruct (Rlt_dec lo (c u)) as [?|NU]; [assumption|exfalso].
      assert (sg <= u); [|lra]. apply LUB. intros s (Hs & HA). destruct (Rle_dec s u); [assumption|exfalso]. apply NU, HA. lra. }
    assert (CS : lo < c sg) by (destruct (B sg S0 BE) as [Q|(-> & Q)]; lra).
    destruct (cont_near c sg (c sg - lo) (C sg S0) ltac:(lra)) as (d & Hd & D).
    assert (SL : sg < s1) by (destruct (Req_dec sg s1) as [->|]; [lra|lra]).
    assert (EX : E (Rmin s1 (sg + d))).
    { split; [split; [apply Rmin_glb; lra|apply Rmin_l]|]. intros u Hu. destruct (Rlt_dec u sg) as [Q|Q]; [apply BE; lra|].
      assert (u < sg + d) by (pose proof (Rmin_r s1 (sg + d)); lra).
      assert (AB : Rabs (c u - c sg) < c sg - lo) by (apply D; rewrite Rabs_pos_eq by lra; lra). apply Rabs_def2 in AB. lra. }
    pose proof (UB _ EX) as K. unfold Rmin in K. destruct (Rle_dec s1 (sg + d)); lra.
Qed.
Lemma cont_le c s hi : 0 < s -> continuity_pt c s -> (forall u, 0 <= u < s -> hi <= c u) -> hi <= c s.
Proof.
  intros Hs C H. destruct (Rle_dec hi (c s)) as [?|N]; [assumption|exfalso].
  destruct (cont_near c s (hi - c s) C ltac:(lra)) as (d & Hd & D).
  set (u := s - Rmin s (d / 2)). assert (M1 := Rmin_l s (d / 2)). assert (M2 := Rmin_r s (d / 2)).
  assert (M3 : 0 < Rmin s (d / 2)) by (apply Rmin_pos; lra).
  assert (Q : Rabs (c u - c s) < hi - c s).
  { apply D. unfold u. replace (s - Rmin s (d / 2) - s) with (- Rmin s (d / 2)) by ring. rewrite Rabs_Ropp, Rabs_pos_eq by lra. lra. }
  apply Rabs_def2 in Q. pose proof (H u ltac:(unfold u; lra)). lra.
Qed.
Lemma acos_level c m : 0 <= m < PI * PI -> c <= 1 -> acos c * acos c <= m -> cos (sqrt m) <= c.
Proof.
  intros Hm C1 A. pose proof PI_RGT_0. pose proof (sqrt_pos m) as P. pose proof (sqrt_def m ltac:(lra)) as SD.
  assert (SL : sqrt m < PI) by nra. pose proof (acos_bound c) as AB.
  assert (AL : acos c <= sqrt m) by nra.
  destruct (Rlt_dec c (-1)) as [L|L].
  - exfalso. assert (acos c = PI) by (unfold acos; destruct (Rle_dec c (-1)); lra). lra.
  - rewrite <- (cos_acos c) at 1 by lra. rewrite (cos_acos c) by lra. rewrite <- (cos_acos c) by lra.
    apply cos_decr_1; lra.
Qed.
Lemma cos_level m : 0 <= m < PI * PI -> -1 < cos (sqrt m).
Proof.
  intros Hm. pose proof PI_RGT_0. pose proof (sqrt_pos m) as P. pose proof (sqrt_def m ltac:(lra)) as SD. assert (SL : sqrt m < PI) by nra.
  rewrite <- cos_PI. apply cos_decreasing_1; lra.
Qed.

(** ** Two frames: the position feedback on the rotation *)
Section Energy.
Variables (X1 X2 : R -> PT) (V1 V2 : R -> Spatial) (dt : R) (rv : M3 -> V3).
Hypothesis Hdt : 0 < dt.
Hypothesis R1 : forall s, rigid (X1 s).
Hypothesis R2 : forall s, rigid (X2 s).
Hypothesis F1 : forall s, 0 <= s -> frameMoves X1 s (V1 s).
Hypothesis F2 : forall s, 0 <= s -> frameMoves X2 s (V2 s).
Hypothesis HL : isLog rv.
Hypothesis DW : forall s, 0 <= s -> dV (fun u => vsub (ang (V1 u)) (ang (V2 u))) s
  (vsc (/ dt) (vsub (rv (m3mul (ptE (X2 s)) (m3tr (ptE (X1 s))))) (vsub (ang (V1 s)) (ang (V2 s))))).
Let c s := cosAngle (ptE (X1 s)) (ptE (X2 s)).
Let w s := vsub (ang (V1 s)) (ang (V2 s)).
Let W s := norm2 (w s) + angle2 (ptE (X1 s)) (ptE (X2 s)) / dt.

Lemma norm2_rate f t f' : dV f t f' -> dlim (fun s => norm2 (f s)) t (2 * dot (f t) f').
Proof.
  intros (D1 & D2 & D3). unfold norm2, dot. eapply dl_eq; [apply dl_plus; [apply dl_plus|]; apply dl_mult; eassumption|]. cbv beta. ring.
Qed.
Lemma rot_rate s : 0 <= s -> -1 < c s -> dlim W s (- 2 * norm2 (w s) / dt).
Proof.
  intros Hs HC. destruct (proj2 (half_turn_iff (ptE (X1 s)) (ptE (X2 s)) (R1 s) (R2 s)) HC) as (a & th & U & H & E).
  unfold W. eapply dl_eq; [apply dl_plus; [apply (norm2_rate w s); apply (DW s Hs)|]|].
  - apply (dl_mult _ (fun _ => / dt)); [apply (angle2_rate X1 X2 (V1 s) (V2 s) s a th R1 R2 (F1 s Hs) (F2 s Hs) U H E)|apply dl_const].
  - cbv beta. rewrite E, (HL a th U H). unfold w. destruct a, (ang (V1 s)), (ang (V2 s)). unfold norm2, dot, vsub, vadd, vneg, vsc; cbn. field. lra.
Qed.
Lemma c_cont s : 0 <= s -> continuity_pt c s.
Proof.
  intros Hs. apply derivable_continuous_pt. destruct (F1 s Hs) as (A1 & _), (F2 s Hs) as (A2 & _).
  pose proof (dM_mul _ _ _ _ _ A2 (dM_tr _ _ _ A1)) as ((D0 & _) & (_ & D1 & _) & (_ & _ & D2)). unfold c, cosAngle.
  eexists. apply (dl_ext (fun s => (vx (row0 (m3mul (ptE (X2 s)) (m3tr (ptE (X1 s))))) + vy (row1 (m3mul (ptE (X2 s)) (m3tr (ptE (X1 s))))) + vz (row2 (m3mul (ptE (X2 s)) (m3tr (ptE (X1 s))))) - 1) * (/ 2))).
  - intros u. reflexivity.
  - apply dl_mult; [apply dl_minus; [apply dl_plus; [apply dl_plus; [exact D0|exact D1]|exact D2]|apply dl_const]|apply dl_const].
Qed.
Lemma W_angle s : angle2 (ptE (X1 s)) (ptE (X2 s)) <= dt * W s.
Proof. unfold W. pose proof (norm2_nonneg (w s)). replace (dt * (norm2 (w s) + angle2 (ptE (X1 s)) (ptE (X2 s)) / dt)) with (dt * norm2 (w s) + angle2 (ptE (X1 s)) (ptE (X2 s))) by (field; lra). nra. Qed.
Lemma W_pos s : 0 <= W s.
Proof. unfold W. pose proof (norm2_nonneg (w s)). pose proof (angle2_pos (ptE (X1 s)) (ptE (X2 s))). assert (0 <= angle2 (ptE (X1 s)) (ptE (X2 s)) / dt) by (apply Rmult_le_pos; [assumption|left; apply Rinv_0_lt_compat; lra]). lra. Qed.
Lemma rot_energy : dt * W 0 < PI * PI -> (forall s, 0 <= s -> -1 < c s) /\ forall s u, 0 <= s <= u -> W u <= W s.
Proof.
  intros H0. set (m := dt * W 0). assert (Hm : 0 <= m < PI * PI) by (unfold m; split; [pose proof (W_pos 0); nra|exact H0]).
  assert (G : forall b, (forall s, 0 <= s <= b -> -1 < c s) -> forall s u, 0 <= s <= u -> u <= b -> W u <= W s).
  { intros b Hb. apply (decr_int W (fun s => - 2 * norm2 (w s) / dt) b); intros s Hs; [apply rot_rate; [lra|apply Hb; lra]|].
    pose proof (norm2_nonneg (w s)). unfold Rdiv. assert (0 < / dt) by (apply Rinv_0_lt_compat; lra). nra. }
  assert (A : forall s, 0 <= s -> -1 < c s).
  { apply (barrier c (-1) (cos (sqrt m)) c_cont (cos_level m Hm)). intros s Hs B.
    assert (LV : forall u, W u <= W 0 -> cos (sqrt m) <= c u).
    { intros u Hu. apply (acos_level (c u) m Hm); [apply cosAngle_le; [apply R1|apply R2]|]. change (angle2 (ptE (X1 u)) (ptE (X2 u)) <= m).
      pose proof (W_angle u). assert (dt * W u <= dt * W 0) by (apply Rmult_le_compat_l; lra). unfold m. lra. }
    destruct (Req_dec s 0) as [->|NZ].
    - left. apply LV. lra.
    - left. apply cont_le; [lra|apply c_cont; exact Hs|]. intros u Hu. apply LV. apply (G u); [|lra|lra]. intros v Hv. apply B. lra. }
  split; [exact A|]. intros s u Hu. apply (G u); [|exact Hu|lra]. intros v Hv. apply A. lra.
Qed.

(** Aligned frames: the position feedback on the translation. *)
Hypothesis AL : forall s, 0 <= s -> ptE (X1 s) = ptE (X2 s).
Hypothesis DT : forall s, 0 <= s -> dV (fun u => vsub (linr (V1 u)) (linr (V2 u))) s
  (vsc (/ dt) (vsub (m3mulv (ptE (X1 s)) (vsub (ptr (X2 s)) (ptr (X1 s)))) (vsub (linr (V1 s)) (linr (V2 s))))).
Let T s := norm2 (vsub (linr (V1 s)) (linr (V2 s))) + norm2 (vsub (ptr (X2 s)) (ptr (X1 s))) / dt.
Lemma trans_rate s : 0 <= s -> dlim T s (- 2 * norm2 (vsub (linr (V1 s)) (linr (V2 s))) / dt).
Proof.
  intros Hs. unfold T. eapply dl_eq; [apply dl_plus; [apply norm2_rate; exact (DT s Hs)|]|].
  - apply (dl_mult _ (fun _ => / dt)); [apply norm2_rate; apply dV_sub; [apply (F2 s Hs)|apply (F1 s Hs)]|apply dl_const].
  - cbv beta. rewrite <- (AL s Hs). destruct (ptE (X1 s)) as [[] [] []], (ptr (X1 s)), (ptr (X2 s)), (linr (V1 s)), (linr (V2 s)).
    unfold norm2, m3mulv, m3tr, dot, vsub, vadd, vneg, vsc; cbn. unfold dot; cbn. field. lra.
Qed.
Lemma trans_energy s u : 0 <= s <= u -> T u <= T s.
Proof.
  intros H. apply (decr_ray T (fun s => - 2 * norm2 (vsub (linr (V1 s)) (linr (V2 s))) / dt)); [intros v Hv; apply trans_rate; exact Hv| |exact H].
  intros v Hv. pose proof (norm2_nonneg (vsub (linr (V1 v)) (linr (V2 v)))). assert (0 < / dt) by (apply Rinv_0_lt_compat; lra). unfold Rdiv. nra.
Qed.
End Energy.
