(** Lemmas: a rotation driven towards another one by its rotation vector. *)
From Verif Require Export ContactEnergy.
From Verif Require Import KinFacts KinTaskFacts VisFacts SetPointFacts SetPointLoop.
From Coq Require Import Lra Psatz Ratan.
Open Scope list_scope.
Open Scope R_scope.

Definition sinc (m : R) : R := sin m / m.
Lemma sin_xcos x : 0 <= x <= PI -> x * cos x <= sin x.
Proof.
  intros H. assert (D : forall s u, 0 <= s <= u -> u <= PI -> u * cos u - sin u <= s * cos s - sin s).
  { apply (decr_int (fun x => x * cos x - sin x) (fun x => - (x * sin x)) PI); intros s Hs.
    - eapply dl_eq; [apply dl_minus; [apply dl_mult; [apply derivable_pt_lim_id|apply derivable_pt_lim_cos]|apply derivable_pt_lim_sin]|cbv beta; unfold id; ring].
    - pose proof (sin_ge_0 s ltac:(lra) ltac:(lra)). nra. }
  pose proof (D 0 x ltac:(lra) ltac:(lra)) as Q. rewrite sin_0 in Q. lra.
Qed.
Lemma sinc_decr x m : 0 < x <= m -> m <= PI -> sinc m <= sinc x.
Proof.
  intros H B. destruct (Req_dec x m) as [->|NE]; [lra|].
  destruct (MVT_cor2 sinc (fun c => (c * cos c - sin c) / (c * c)) x m) as (c & E & Hc); [lra| |].
  - intros c Hc. unfold sinc. eapply dl_eq; [apply derivable_pt_lim_div; [apply derivable_pt_lim_sin|apply derivable_pt_lim_id|unfold id; lra]|unfold id, Rsqr; field; lra].
  - pose proof (sin_xcos c ltac:(lra)) as S. assert (0 <= (sin c - c * cos c) / (c * c)) by (apply Rmult_le_pos; [lra|left; apply Rinv_0_lt_compat; nra]).
    assert (Q : (c * cos c - sin c) / (c * c) = - ((sin c - c * cos c) / (c * c))) by (field; lra). rewrite Q in E. nra.
Qed.
Lemma sinc_low th m : Rabs th <= m -> m < PI -> sinc m * (th * th) <= th * sin th.
Proof.
  intros H B. assert (P : forall x, 0 <= x <= m -> sinc m * (x * x) <= x * sin x).
  { intros x Hx. destruct (Req_dec x 0) as [->|NZ]; [rewrite sin_0; lra|]. pose proof (sinc_decr x m ltac:(lra) ltac:(lra)) as D.
    apply Rle_trans with (sinc x * (x * x)); [apply Rmult_le_compat_r; nra|]. unfold sinc. right. field. lra. }
  unfold Rabs in H. destruct (Rcase_abs th); [|apply P; lra]. pose proof (P (- th) ltac:(lra)) as Q. rewrite sin_neg in Q. lra.
Qed.
Lemma sin_sqr th : Rabs th < PI -> sin th * sin th <= th * sin th /\ th * sin th <= th * th.
Proof.
  intros H. assert (P : forall x, 0 <= x < PI -> sin x * sin x <= x * sin x /\ x * sin x <= x * x).
  { intros x Hx. destruct (Req_dec x 0) as [->|NZ]; [rewrite sin_0; lra|]. pose proof (sin_lt_x x ltac:(lra)). pose proof (sin_ge_0 x ltac:(lra) ltac:(lra)). split; nra. }
  unfold Rabs in H. destruct (Rcase_abs th); [|apply P; lra]. pose proof (P (- th) ltac:(lra)) as Q. rewrite sin_neg in Q. lra.
Qed.
Lemma sinc_le m : 0 <= m < PI -> 0 <= sinc m <= 1.
Proof.
  intros H. unfold sinc. destruct (Req_dec m 0) as [->|NZ]; [rewrite sin_0; unfold Rdiv; lra|]. pose proof (sin_lt_x m ltac:(lra)). pose proof (sin_ge_0 m ltac:(lra) ltac:(lra)).
  split; [apply Rmult_le_pos; [lra|left; apply Rinv_0_lt_compat; lra]|]. apply Rmult_le_reg_r with m; [lra|]. unfold Rdiv. rewrite Rmult_assoc, Rinv_l by lra. lra.
Qed.
(** The vector of the antisymmetric part. *)
Definition vee (C : M3) : V3 := mkV3 ((vz (row1 C) - vy (row2 C)) / 2) ((vx (row2 C) - vz (row0 C)) / 2) ((vy (row0 C) - vx (row1 C)) / 2).
Lemma vee_axis a th : vee (rotAxis a th) = vsc (sin th) a.
Proof. destruct a as [x y z]. unfold vee, rotAxis, vsc; cbn. f_equal; field. Qed.
Lemma vee_turn a th w : norm a = 1 -> dot (vee (m3mul (rotAxis a th) (skewm w))) w = - / 2 * ((1 + cos th) * dot w w - (1 - cos th) * (dot a w * dot a w)).
Proof.
  intros U. apply unit2 in U. destruct a as [x y z], w as [p q r]. unfold vee, m3mul, m3tr, skewm, rotAxis, dot; cbn. unfold dot; cbn. unfold norm2, dot in U. cbn in U.
  match goal with |- ?l = ?rr => transitivity (l - (1 - cos th) * (p * p + q * q + r * r) / 2 * (1 - (x * x + y * y + z * z))); [rewrite U; field|field] end.
Qed.

Section Turn.
Variables (E : R -> M3) (w A : R -> V3) (B : M3) (k d1 d2 : R) (d : R -> R) (rv : M3 -> V3).
Hypotheses (Pk : 0 < k) (Pd1 : 0 < d1) (Bd : forall s, 0 <= s -> d1 <= d s <= d2) (RE : forall s, rotation (E s)) (RB : rotation B) (HL : isLog rv).
Hypothesis DE : forall s, 0 <= s -> dM E s (m3neg (m3mul (skewm (w s)) (E s))).
Hypothesis DW : forall s, 0 <= s -> dV w s (vsub (vsc k (rv (m3mul B (m3tr (E s))))) (vsc (d s) (w s))).
Let X1 s := mkPT (E s) v0.
Let X2 (s : R) := mkPT B v0.
Let R1 : forall s, rigid (X1 s). Proof. exact RE. Qed.
Let R2 : forall s, rigid (X2 s). Proof. intros s. exact RB. Qed.
Let F1 : forall s, 0 <= s -> frameMoves X1 s (mkSp (w s) v0).
Proof. intros s Hs. split; [exact (DE s Hs)|]. unfold X1. cbn [ptr]. eapply dV_eq; [apply dV_const|]. unfold m3mulv, dot, v0; cbn. f_equal; ring. Qed.
Let F2 : forall s, 0 <= s -> frameMoves X2 s sp0.
Proof.
  intros s Hs. split; unfold X2; cbn; [|eapply dV_eq; [apply dV_const|]; unfold m3mulv, dot, v0; cbn; f_equal; ring].
  eapply dM_eq; [apply dM_const|]. destruct B as [[]]. unfold m3neg, m3mul, skewm, dot, m3tr, sp0, v0, vneg; cbn. unfold dot; cbn. f_equal; f_equal; ring.
Qed.
Definition tuC s := cosAngle (E s) B.
Definition tuA s := angle2 (E s) B.
Definition tuN s := norm2 (w s).
Definition tuV s := tuN s / 2 + k * tuA s / 2.
Definition tuW s := dot (vee (m3mul B (m3tr (E s)))) (w s).
Lemma tu_axis s : -1 < tuC s -> exists a th, norm a = 1 /\ Rabs th < PI /\ m3mul B (m3tr (E s)) = rotAxis a th.
Proof. intros HC. exact (proj2 (half_turn_iff (E s) B (RE s) RB) HC). Qed.
Lemma tu_dV s : 0 <= s -> -1 < tuC s -> dlim tuV s (- (d s * tuN s)).
Proof.
  intros Hs HC. destruct (tu_axis s HC) as (a & th & U & H & Q). pose proof (angle2_rate X1 X2 _ _ s a th R1 R2 (F1 s Hs) (F2 s Hs) U H Q) as DA.
  cbn [ang] in DA. pose proof (norm2_rate _ _ _ (DW s Hs)) as DN. rewrite Q, (HL a th U H) in DN.
  unfold tuV. eapply dl_eq; [apply (dl_ext (fun s => tuN s * / 2 + tuA s * (k / 2))); [intros; unfold Rdiv; ring|apply dl_plus; [apply (dl_mult tuN (fun _ => / 2)); [exact DN|apply dl_const]|apply (dl_mult tuA (fun _ => k / 2)); [exact DA|apply dl_const]]]|].
  cbv beta. unfold tuN. destruct a, (w s). unfold norm2, dot, vsub, vadd, vneg, vsc, sp0, v0; cbn. field.
Qed.
Lemma tu_cont s : 0 <= s -> continuity_pt tuC s.
Proof. intros Hs. exact (c_cont X1 X2 (fun s => mkSp (w s) v0) (fun _ => sp0) F1 F2 s Hs). Qed.
Lemma tu_Nnn s : 0 <= tuN s. Proof. apply norm2_nonneg. Qed.
Lemma tu_Ann s : 0 <= tuA s. Proof. apply angle2_pos. Qed.
Lemma tu_energy : 2 * tuV 0 / k < PI * PI -> (forall s, 0 <= s -> -1 < tuC s) /\ forall s u, 0 <= s <= u -> tuV u <= tuV s.
Proof.
  intros H0. set (m := 2 * tuV 0 / k). assert (KV : forall s, tuA s <= 2 * tuV s / k).
  { intros s. apply Rmult_le_reg_r with k; [exact Pk|]. replace (2 * tuV s / k * k) with (2 * tuV s) by (field; lra). unfold tuV. pose proof (tu_Nnn s). lra. }
  assert (Hm : 0 <= m < PI * PI) by (split; [pose proof (KV 0); pose proof (tu_Ann 0); unfold m; lra|exact H0]).
  assert (G : forall b, (forall s, 0 <= s <= b -> -1 < tuC s) -> forall s u, 0 <= s <= u -> u <= b -> tuV u <= tuV s).
  { intros b Hb. apply (decr_int tuV (fun s => - (d s * tuN s)) b); intros s Hs; [apply tu_dV; [lra|apply Hb; lra]|].
    pose proof (tu_Nnn s). pose proof (Bd s (proj1 Hs)). assert (0 <= d s * tuN s) by (apply Rmult_le_pos; lra). lra. }
  assert (LV : forall u, tuV u <= tuV 0 -> cos (sqrt m) <= tuC u).
  { intros u Hu. apply (acos_level (tuC u) m Hm); [apply cosAngle_le; [apply RE|apply RB]|]. change (tuA u <= m).
    apply Rle_trans with (2 * tuV u / k); [apply KV|]. unfold m, Rdiv. apply Rmult_le_compat_r; [left; apply Rinv_0_lt_compat; exact Pk|lra]. }
  assert (AA : forall s, 0 <= s -> -1 < tuC s).
  { apply (barrier tuC (-1) (cos (sqrt m)) tu_cont (cos_level m Hm)). intros s Hs BB. left. destruct (Req_dec s 0) as [->|NZ].
    - apply LV. lra.
    - apply cont_le; [lra|apply tu_cont; exact Hs|]. intros u Hu. apply LV. apply (G u); [|lra|lra]. intros v Hv. apply BB. lra. }
  split; [exact AA|]. intros s u Hu. apply (G u); [|exact Hu|lra]. intros v Hv. apply AA. lra.
Qed.
Definition tuW' s := dot (vee (m3mul (m3mul B (m3tr (E s))) (skewm (w s)))) (w s) + dot (vee (m3mul B (m3tr (E s)))) (vsub (vsc k (rv (m3mul B (m3tr (E s))))) (vsc (d s) (w s))).
Lemma tu_dW s : 0 <= s -> dlim tuW s (tuW' s).
Proof.
  intros Hs.
  assert (D : dM (fun s => m3mul B (m3tr (E s))) s (m3mul (m3mul B (m3tr (E s))) (skewm (w s)))).
  { eapply dM_eq; [apply dM_mul; [apply dM_const|apply dM_tr; exact (DE s Hs)]|]. cbv beta. rewrite tr_rate, <- m3mul_assoc.
    generalize (m3mul (m3mul B (m3tr (E s))) (skewm (w s))). generalize (m3mul (m3tr (E s)) (skewm (w s))). intros [[] [] []] [[] [] []]. unfold m3add, m3mul, m3tr, vadd, v0; cbn. unfold dot; cbn. f_equal; f_equal; ring. }
  assert (DP : dV (fun s => vee (m3mul B (m3tr (E s)))) s (vee (m3mul (m3mul B (m3tr (E s))) (skewm (w s))))).
  { destruct D as ((D0 & D1 & D2) & (D3 & D4 & D5) & (D6 & D7 & D8)). unfold vee. repeat split; cbn [vx vy vz]; (eapply dl_eq; [apply (dl_mult _ (fun _ => / 2)); [apply dl_minus; eassumption|apply dl_const]|cbv beta; field]). }
  unfold tuW. apply dl_dot; [exact DP|exact (DW s Hs)].
Qed.
Lemma tu_W' s a th : norm a = 1 -> Rabs th < PI -> m3mul B (m3tr (E s)) = rotAxis a th ->
  tuW' s = - / 2 * ((1 + cos th) * tuN s - (1 - cos th) * (dot a (w s) * dot a (w s))) + k * (th * sin th) - d s * tuW s.
Proof.
  intros U H Q. unfold tuW', tuW, tuN. rewrite Q, vee_turn, (HL a th U H), vee_axis by exact U.
  apply unit2 in U. destruct a as [x y z], (w s) as [p q r]. unfold norm2, dot, vsub, vsc in *; cbn in *.
  match goal with |- ?l = ?rr => transitivity (l + k * (th * sin th) * (1 - (x * x + y * y + z * z))); [rewrite U; ring|field] end.
Qed.
(** Exponential convergence for a start below the energy of a half turn. *)
Definition tuEps : R := d1 * k / (2 * k + d2 * d2).
Lemma tu_converges s : 2 * tuV 0 / k < PI * PI -> 0 <= s -> tuV s <= 3 * tuV 0 * exp (- (2 / 3 * (tuEps * sinc (sqrt (2 * tuV 0 / k)))) * s).
Proof.
  intros H0 Hs. destruct (tu_energy H0) as (HC & Dec). set (ep := tuEps). set (mm := 2 * tuV 0 / k) in *. set (m := sqrt mm). set (sn := sinc m).
  pose proof PI_RGT_0 as PI0.
  assert (V0n : 0 <= tuV 0) by (unfold tuV; pose proof (tu_Nnn 0); pose proof (tu_Ann 0); nra).
  assert (Mn : 0 <= mm) by (unfold mm; apply Rmult_le_pos; [lra|left; apply Rinv_0_lt_compat; exact Pk]).
  assert (Pm : 0 <= m) by apply sqrt_pos. assert (Mm : m * m = mm) by (apply sqrt_sqrt; exact Mn). assert (LM : m < PI) by nra.
  destruct (sinc_le m ltac:(lra)) as (S0 & S1). fold sn in S0, S1.
  assert (D12 : 0 < d1 <= d2) by (pose proof (Bd 0 (Rle_refl 0)); lra).
  assert (PM : 0 < 2 * k + d2 * d2) by nra.
  assert (Pe : 0 < ep) by (unfold ep, tuEps; apply Rdiv_lt_0_compat; [apply Rmult_lt_0_compat; lra|exact PM]).
  assert (EM : ep * (2 * k + d2 * d2) = d1 * k) by (unfold ep, tuEps; field; lra).
  assert (E1 : forall x, 0 <= x -> ep * (2 * k + d x * d x) <= d x * k).
  { intros x Hx. pose proof (Bd x Hx). apply Rle_trans with (ep * (2 * k + d2 * d2)); [apply Rmult_le_compat_l; nra|rewrite EM; apply Rmult_le_compat_r; lra]. }
  assert (E2 : ep <= d1 / 2) by (apply Rmult_le_reg_r with (2 * k + d2 * d2); [exact PM|rewrite EM; nra]).
  set (c := sqrt k). assert (Pc : 0 < c) by (apply sqrt_lt_R0; exact Pk). assert (Cc : c * c = k) by (apply sqrt_sqrt; lra).
  assert (E3 : ep <= c / 2).
  { apply Rmult_le_reg_r with (2 * k + d2 * d2); [exact PM|]. rewrite EM. apply Rle_trans with (d2 * k); [apply Rmult_le_compat_r; lra|]. rewrite <- Cc.
    replace (c / 2 * (2 * (c * c) + d2 * d2)) with (d2 * (c * c) + c * ((c - d2) ^ 2 + c * c) / 2) by field. pose proof (pow2_ge_0 (c - d2)). assert (0 <= c * ((c - d2) ^ 2 + c * c)) by (apply Rmult_le_pos; nra). lra. }
  set (L := fun s => tuV s - ep * tuW s). set (rt := 2 / 3 * (ep * sn)).
  (* at an instant: the axis and the angle *)
  assert (AX : forall x, 0 <= x -> exists a th, norm a = 1 /\ Rabs th < PI /\ m3mul B (m3tr (E x)) = rotAxis a th /\ tuA x = th * th /\ sn * (th * th) <= th * sin th /\
    tuW x * tuW x <= tuN x * (sin th * sin th)).
  { intros x Hx. destruct (tu_axis x (HC x Hx)) as (a & th & U & H & Q). exists a, th. split; [exact U|]. split; [exact H|]. split; [exact Q|].
    assert (AT : tuA x = th * th) by (exact (angle2_axis (E x) B a th U H Q)). split; [exact AT|]. split.
    - apply sinc_low; [|exact LM]. apply Rsqr_incr_0_var; [|exact Pm]. unfold Rsqr. rewrite Mm, <- Rabs_mult, Rabs_right by (apply Rle_ge, Rle_0_sqr). rewrite <- AT.
      pose proof (Dec 0 x ltac:(lra)) as DD. unfold mm. apply Rmult_le_reg_r with k; [exact Pk|]. replace (2 * tuV 0 / k * k) with (2 * tuV 0) by (field; lra). unfold tuV at 1 in DD. pose proof (tu_Nnn x). lra.
    - unfold tuW. rewrite Q, vee_axis. unfold tuN. apply unit2 in U. destruct a as [x1 y1 z1], (w x) as [p q r]. unfold norm2, dot, vsc in *; cbn in *.
      set (sg := sin th). replace ((sg * x1 * p + sg * y1 * q + sg * z1 * r) * (sg * x1 * p + sg * y1 * q + sg * z1 * r)) with ((sg * sg) * ((x1 * p + y1 * q + z1 * r) * (x1 * p + y1 * q + z1 * r))) by ring.
      rewrite (Rmult_comm _ (sg * sg)). apply Rmult_le_compat_l; [apply Rle_0_sqr|].
      assert (Z : (x1 * p + y1 * q + z1 * r) * (x1 * p + y1 * q + z1 * r) = (x1 * x1 + y1 * y1 + z1 * z1) * (p * p + q * q + r * r) - ((x1 * q - y1 * p) ^ 2 + (x1 * r - z1 * p) ^ 2 + (y1 * r - z1 * q) ^ 2)) by ring.
      rewrite U in Z. rewrite Z. pose proof (pow2_ge_0 (x1 * q - y1 * p)). pose proof (pow2_ge_0 (x1 * r - z1 * p)). pose proof (pow2_ge_0 (y1 * r - z1 * q)). lra. }
  assert (YO : forall n r W b, 0 <= n -> 0 <= r -> W * W <= n * r -> 0 < b -> 2 * Rabs W <= b * n + r / b).
  { intros n r W b Nn Nr C Pb. apply Rsqr_incr_0_var; [|assert (0 <= r / b) by (apply Rmult_le_pos; [exact Nr|left; apply Rinv_0_lt_compat; exact Pb]); nra].
    unfold Rsqr. replace (2 * Rabs W * (2 * Rabs W)) with (4 * (Rabs W * Rabs W)) by ring.
    replace (Rabs W * Rabs W) with (W * W) by (rewrite <- Rabs_mult; rewrite Rabs_right; [reflexivity|apply Rle_ge, Rle_0_sqr]).
    apply Rle_trans with (4 * (n * r)); [apply Rmult_le_compat_l; [lra|exact C]|].
    replace ((b * n + r / b) * (b * n + r / b)) with (4 * (n * r) + (b * n - r / b) ^ 2) by (field; lra). pose proof (pow2_ge_0 (b * n - r / b)). lra. }
  assert (LV : forall s, 0 <= s -> tuV s / 2 <= L s <= 3 / 2 * tuV s).
  { intros x Hx. destruct (AX x Hx) as (a & th & U & H & Q & AT & _ & CW). pose proof (sin_sqr th H) as (B1 & B2). pose proof (tu_Nnn x) as N.
    pose proof (YO _ _ _ (/ c) N (Rle_0_sqr (sin th)) CW (Rinv_0_lt_compat _ Pc)) as C. unfold Rsqr in C.
    pose proof (Rle_abs (tuW x)) as A1. pose proof (Rle_abs (- tuW x)) as A2. rewrite Rabs_Ropp in A2.
    assert (C' : 2 * (c * Rabs (tuW x)) <= tuN x + k * (sin th * sin th)).
    { rewrite <- Cc. replace (tuN x + c * c * (sin th * sin th)) with (c * (/ c * tuN x + sin th * sin th / / c)) by (field; lra). replace (2 * (c * Rabs (tuW x))) with (c * (2 * Rabs (tuW x))) by ring. apply Rmult_le_compat_l; lra. }
    assert (K : c * Rabs (tuW x) <= tuV x) by (unfold tuV; rewrite AT; assert (k * (sin th * sin th) <= k * (th * th)) by (apply Rmult_le_compat_l; lra); lra). pose proof (Rabs_pos (tuW x)) as PW.
    assert (K0 : ep * Rabs (tuW x) <= c / 2 * Rabs (tuW x)) by (apply Rmult_le_compat_r; lra).
    assert (K1 : ep * tuW x <= ep * Rabs (tuW x)) by (apply Rmult_le_compat_l; lra). assert (K2 : - (ep * tuW x) <= ep * Rabs (tuW x)) by (rewrite <- Ropp_mult_distr_r_reverse; apply Rmult_le_compat_l; lra).
    unfold L. split; lra. }
  set (L' := fun x => - (d x * tuN x) - (0 * tuW x + ep * tuW' x)).
  assert (PD : forall x, 0 <= x -> dlim L x (L' x)).
  { intros x Hx. unfold L, L'. apply dl_minus; [apply tu_dV; [exact Hx|exact (HC x Hx)]|apply (dl_mult (fun _ => ep) tuW); [apply dl_const|exact (tu_dW x Hx)]]. }
  assert (BD' : forall x, 0 <= x -> L' x <= - rt * L x).
  { intros x Hx. destruct (AX x Hx) as (a & th & U & H & Q & AT & SL & CW). unfold L'. rewrite (tu_W' x a th U H Q).
    pose proof (Bd x Hx) as Bx. assert (Pdx : 0 < d x) by lra. pose proof (tu_Nnn x) as N. pose proof (sin_sqr th H) as (B1 & B2).
    pose proof (YO _ _ _ (d x / k) N (Rle_0_sqr (sin th)) CW (Rdiv_lt_0_compat _ _ Pdx Pk)) as C. unfold Rsqr in C. pose proof (Rle_abs (tuW x)) as A1.
    pose proof (LV x Hx) as (_ & LU). pose proof (E1 x Hx) as E1x. set (n := tuN x) in *. set (D := d x) in *. set (q := dot a (w x)). set (r := sin th * sin th) in *. set (z := th * sin th) in *.
    assert (A2 : D * tuW x <= D * D * n / (2 * k) + k * r / 2).
    { replace (D * D * n / (2 * k) + k * r / 2) with (D * ((D / k * n + r / (D / k)) / 2)) by (field; split; lra). apply Rmult_le_compat_l; lra. }
    assert (A3 : / 2 * ((1 + cos th) * n - (1 - cos th) * (q * q)) <= n).
    { pose proof (COS_bound th) as CB. assert (0 <= (1 - cos th) * (q * q)) by (apply Rmult_le_pos; [lra|apply Rle_0_sqr]). assert ((1 + cos th) * n <= 2 * n) by (apply Rmult_le_compat_r; lra). lra. }
    assert (E1n : ep * (n + D * D * n / (2 * k)) <= D * n / 2).
    { replace (ep * (n + D * D * n / (2 * k))) with (ep * (2 * k + D * D) * (n / (2 * k))) by (field; lra). replace (D * n / 2) with (D * k * (n / (2 * k))) by (field; lra). apply Rmult_le_compat_r; [|exact E1x].
      apply Rmult_le_pos; [exact N|left; apply Rinv_0_lt_compat; lra]. }
    apply Rle_trans with (- (d1 / 2 * n) - ep * (k * (sn * (th * th))) / 2).
    - assert (G1 : ep * (D * tuW x) <= ep * (D * D * n / (2 * k) + k * r / 2)) by (apply Rmult_le_compat_l; lra).
      assert (G2 : ep * (/ 2 * ((1 + cos th) * n - (1 - cos th) * (q * q))) <= ep * n) by (apply Rmult_le_compat_l; lra).
      assert (G3 : ep * (k * (sn * (th * th))) <= ep * (k * z)) by (repeat apply Rmult_le_compat_l; try lra). assert (G4 : d1 * n <= D * n) by (apply Rmult_le_compat_r; lra).
      assert (G5 : ep * (k * r) <= ep * (k * z)) by (repeat apply Rmult_le_compat_l; try lra). lra.
    - assert (Pr : 0 <= rt) by (unfold rt; apply Rmult_le_pos; [lra|apply Rmult_le_pos; lra]).
      assert (WL : rt * L x <= rt * (3 / 2 * tuV x)) by (apply Rmult_le_compat_l; lra). unfold tuV in WL. rewrite AT in WL. fold n in WL.
      assert (C1 : rt * (3 / 2 * (n / 2 + k * (th * th) / 2)) = ep * sn * n / 2 + ep * (k * (sn * (th * th))) / 2) by (unfold rt; field).
      assert (C2 : ep * sn * n <= d1 * n) by (apply Rmult_le_compat_r; [exact N|]; nra).
      lra. }
  assert (GR : L s * exp (rt * s) <= L 0 * exp (rt * 0)).
  { destruct (Req_dec s 0) as [->|NZ]; [lra|].
    apply (decr_ray (fun s => L s * exp (rt * s)) (fun s => L' s * exp (rt * s) + L s * (rt * exp (rt * s)))); [| |lra].
    - intros x Hx. apply (dl_mult L (fun s => exp (rt * s))); [apply PD; exact Hx|apply dlim_exp].
    - intros x Hx. pose proof (BD' x Hx) as G. pose proof (exp_pos (rt * x)) as P. replace (L' x * exp (rt * x) + L x * (rt * exp (rt * x))) with ((L' x - (- rt * L x)) * exp (rt * x)) by ring.
      rewrite <- (Rmult_0_l (exp (rt * x))). apply Rmult_le_compat_r; lra. }
  rewrite Rmult_0_r, exp_0, Rmult_1_r in GR. pose proof (LV s Hs) as (L1 & _). pose proof (LV 0 ltac:(lra)) as (_ & L2).
  assert (LS : L s <= L 0 * exp (- rt * s)).
  { apply Rmult_le_reg_r with (exp (rt * s)); [apply exp_pos|]. rewrite Rmult_assoc, <- exp_plus. replace (- rt * s + rt * s) with 0 by ring. rewrite exp_0. lra. }
  pose proof (exp_pos (- rt * s)) as P. assert (L0E : L 0 * exp (- rt * s) <= 3 / 2 * tuV 0 * exp (- rt * s)) by (apply Rmult_le_compat_r; lra).
  unfold rt in *. lra.
Qed.
End Turn.
