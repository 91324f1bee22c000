(** Lemmas: a rotation driven towards another one by its rotation vector, against a resistance that dissipates below a given energy. *)
From Verif Require Export OriLoopFacts.
From Verif Require Import KinFacts KinTaskFacts VisFacts SetPointFacts SetPointLoop.
From Coq Require Import Lra Psatz Ratan.
Open Scope list_scope.
Open Scope R_scope.

(** A function that does not increase below a level f1 above its start does not increase. *)
Lemma trap f f' b f1 : (forall s, 0 <= s <= b -> dlim f s (f' s)) -> f 0 < f1 -> (forall s, 0 <= s <= b -> f s < f1 -> f' s <= 0) ->
  forall s u, 0 <= s <= u -> u <= b -> f u <= f s.
Proof.
  intros D L N. destruct (Rlt_dec b 0) as [Hb|Hb]; [intros; lra|].
  assert (CC : forall s, 0 <= s <= b -> continuity_pt f s) by (intros s Hs; apply derivable_continuous_pt; exists (f' s); apply D; exact Hs).
  set (cl := fun s => (s + b - Rabs (s - b)) / 2).
  assert (C1 : forall s, s <= b -> cl s = s) by (intros s Hs; unfold cl; rewrite Rabs_left1 by lra; field).
  assert (C2 : forall s, b <= s -> cl s = b) by (intros s Hs; unfold cl; rewrite Rabs_right by lra; field).
  assert (C3 : forall s, continuity_pt cl s).
  { intros s. unfold cl, Rdiv. apply (continuity_pt_mult (fun s => s + b - Rabs (s - b)) (fun _ => / 2)); [|apply continuity_pt_const; intros ? ?; reflexivity].
    apply (continuity_pt_minus (fun s => s + b) (fun s => Rabs (s - b))).
    - apply (continuity_pt_plus (fun s => s) (fun _ => b)); [apply derivable_continuous_pt, derivable_pt_id|apply continuity_pt_const; intros ? ?; reflexivity].
    - apply (continuity_pt_comp (fun s => s - b) Rabs); [|apply Rcontinuity_abs].
      apply (continuity_pt_minus (fun s => s) (fun _ => b)); [apply derivable_continuous_pt, derivable_pt_id|apply continuity_pt_const; intros ? ?; reflexivity]. }
  assert (B : forall s, 0 <= s -> - f1 < - f (cl s)).
  { apply (barrier (fun s => - f (cl s)) (- f1) (- f 0)); [|lra|].
    - intros s Hs. apply (continuity_pt_opp (fun s => f (cl s))). apply (continuity_pt_comp cl f); [apply C3|]. destruct (Rle_dec s b); [rewrite C1 by lra; apply CC; lra|rewrite C2 by lra; apply CC; lra].
    - intros s Hs HB. left. destruct (Req_dec s 0) as [->|NZ]; [rewrite C1 by lra; lra|].
      assert (Q : forall s, 0 < s <= b -> (forall u, 0 <= u < s -> - f1 < - f (cl u)) -> - f 0 <= - f s).
      { intros x Hx HX. apply (cont_le (fun s => - f s)); [lra|apply (continuity_pt_opp f), CC; lra|]. intros u Hu.
        assert (f u <= f 0); [|lra]. apply (decr_int f f' u); [intros; apply D; lra| |lra|lra]. intros v Hv. apply N; [lra|]. specialize (HX v ltac:(lra)). rewrite C1 in HX by lra. lra. }
      destruct (Rle_dec s b) as [Q1|Q1]; [rewrite C1 by lra; apply Q; [lra|exact HB]|]. rewrite C2 by lra. destruct (Req_dec b 0) as [->|NB]; [lra|]. apply Q; [lra|]. intros u Hu. apply HB. lra. }
  intros s u Hs Hu. apply (decr_int f f' b); [exact D| |exact Hs|exact Hu]. intros v Hv. apply N; [exact Hv|]. specialize (B v ltac:(lra)). rewrite C1 in B by lra. lra.
Qed.
Lemma cauchy2 a b : dot a b * dot a b <= norm2 a * norm2 b.
Proof.
  destruct a as [x y z], b as [p q r]. unfold dot, norm2, dot; cbn.
  pose proof (pow2_ge_0 (x * q - y * p)). pose proof (pow2_ge_0 (x * r - z * p)). pose proof (pow2_ge_0 (y * r - z * q)).
  replace ((x * x + y * y + z * z) * (p * p + q * q + r * r)) with ((x * p + y * q + z * r) * (x * p + y * q + z * r) + ((x * q - y * p) ^ 2 + (x * r - z * p) ^ 2 + (y * r - z * q) ^ 2)) by ring. lra.
Qed.

Section Turn.
Variables (E : R -> M3) (w g : R -> V3) (B : M3) (k d1 d2 v1 : R) (rv : M3 -> V3).
Let C := tuC E B.
Let A := tuA E B.
Let N := tuN w.
Let V := tuV E w B k.
Let W := tuW E w B.
Hypotheses (Pk : 0 < k) (Pd1 : 0 < d1) (Pd2 : d1 <= d2) (RE : forall s, rotation (E s)) (RB : rotation B) (HL : isLog rv).
Hypothesis DE : forall s, 0 <= s -> dM E s (m3neg (m3mul (skewm (w s)) (E s))).
Hypothesis DW : forall s, 0 <= s -> dV w s (vsub (vsc k (rv (m3mul B (m3tr (E s))))) (g s)).
Hypotheses (H0 : 2 * V 0 / k < PI * PI) (H1 : V 0 < v1).
Hypothesis GA : forall s, 0 <= s -> -1 < C s -> V s < v1 -> 0 <= dot (w s) (g s).
Hypothesis GB : forall s, 0 <= s -> -1 < C s -> V s <= V 0 -> d1 * N s <= dot (w s) (g s) /\ norm2 (g s) <= d2 * d2 * N s.
Let X1 s := mkPT (E s) v0.
Let X2 (s : R) := mkPT B v0.
Let R1 : forall s, rigid (X1 s). Proof. exact RE. Qed.
Let R2 : forall s, rigid (X2 s). Proof. intros s. exact RB. Qed.
Let F1 : forall s, 0 <= s -> frameMoves X1 s (mkSp (w s) v0).
Proof. intros s Hs. split; [exact (DE s Hs)|]. unfold X1. cbn [ptr]. eapply dV_eq; [apply dV_const|]. unfold m3mulv, dot, v0; cbn. f_equal; ring. Qed.
Let F2 : forall s, 0 <= s -> frameMoves X2 s sp0.
Proof.
  intros s Hs. split; unfold X2; cbn; [|eapply dV_eq; [apply dV_const|]; unfold m3mulv, dot, v0; cbn; f_equal; ring].
  eapply dM_eq; [apply dM_const|]. destruct B as [[]]. unfold m3neg, m3mul, skewm, dot, m3tr, sp0, v0, vneg; cbn. unfold dot; cbn. f_equal; f_equal; ring.
Qed.
Lemma gu_axis s : -1 < C s -> exists a th, norm a = 1 /\ Rabs th < PI /\ m3mul B (m3tr (E s)) = rotAxis a th.
Proof. intros HC. exact (proj2 (half_turn_iff (E s) B (RE s) RB) HC). Qed.
Lemma gu_dV s : 0 <= s -> -1 < C s -> dlim V s (- dot (w s) (g s)).
Proof.
  intros Hs HC. destruct (gu_axis s HC) as (a & th & U & H & Q). pose proof (angle2_rate X1 X2 _ _ s a th R1 R2 (F1 s Hs) (F2 s Hs) U H Q) as DA.
  cbn [ang] in DA. pose proof (norm2_rate _ _ _ (DW s Hs)) as DN. rewrite Q, (HL a th U H) in DN.
  unfold V, tuV. eapply dl_eq; [apply (dl_ext (fun s => N s * / 2 + A s * (k / 2))); [intros; unfold N, A, Rdiv; ring|apply dl_plus; [apply (dl_mult N (fun _ => / 2)); [exact DN|apply dl_const]|apply (dl_mult A (fun _ => k / 2)); [exact DA|apply dl_const]]]|].
  cbv beta. unfold N, tuN. destruct a, (w s), (g s). unfold norm2, dot, vsub, vadd, vneg, vsc, sp0, v0; cbn. field.
Qed.
Lemma gu_cont s : 0 <= s -> continuity_pt C s.
Proof. intros Hs. exact (c_cont X1 X2 (fun s => mkSp (w s) v0) (fun _ => sp0) F1 F2 s Hs). Qed.
Lemma gu_Nnn s : 0 <= N s. Proof. apply norm2_nonneg. Qed.
Lemma gu_Ann s : 0 <= A s. Proof. apply angle2_pos. Qed.
Lemma gu_energy : (forall s, 0 <= s -> -1 < C s) /\ forall s u, 0 <= s <= u -> V u <= V s.
Proof.
  set (m := 2 * V 0 / k). assert (KV : forall s, A s <= 2 * V s / k).
  { intros s. apply Rmult_le_reg_r with k; [exact Pk|]. replace (2 * V s / k * k) with (2 * V s) by (field; lra). unfold V, tuV. fold (A s) (N s). pose proof (gu_Nnn s). lra. }
  assert (Hm : 0 <= m < PI * PI) by (split; [pose proof (KV 0); pose proof (gu_Ann 0); unfold m; lra|exact H0]).
  assert (G : forall b, (forall s, 0 <= s <= b -> -1 < C s) -> forall s u, 0 <= s <= u -> u <= b -> V u <= V s).
  { intros b Hb. apply (trap V (fun s => - dot (w s) (g s)) b v1); [intros s Hs; apply gu_dV; [lra|apply Hb; lra]|exact H1|].
    intros s Hs L. pose proof (GA s (proj1 Hs) (Hb s Hs) L). lra. }
  assert (LV : forall u, V u <= V 0 -> cos (sqrt m) <= C u).
  { intros u Hu. apply (acos_level (C u) m Hm); [apply cosAngle_le; [apply RE|apply RB]|]. change (A u <= m).
    apply Rle_trans with (2 * V u / k); [apply KV|]. unfold m, Rdiv. apply Rmult_le_compat_r; [left; apply Rinv_0_lt_compat; exact Pk|lra]. }
  assert (AA : forall s, 0 <= s -> -1 < C s).
  { apply (barrier C (-1) (cos (sqrt m)) gu_cont (cos_level m Hm)). intros s Hs BB. left. destruct (Req_dec s 0) as [->|NZ].
    - apply LV. lra.
    - apply cont_le; [lra|apply gu_cont; exact Hs|]. intros u Hu. apply LV. apply (G u); [|lra|lra]. intros v Hv. apply BB. lra. }
  split; [exact AA|]. intros s u Hu. apply (G u); [|exact Hu|lra]. intros v Hv. apply AA. lra.
Qed.
Definition guW' s := dot (vee (m3mul (m3mul B (m3tr (E s))) (skewm (w s)))) (w s) + dot (vee (m3mul B (m3tr (E s)))) (vsub (vsc k (rv (m3mul B (m3tr (E s))))) (g s)).
Lemma gu_dW s : 0 <= s -> dlim W s (guW' s).
Proof.
  intros Hs.
  assert (D : dM (fun s => m3mul B (m3tr (E s))) s (m3mul (m3mul B (m3tr (E s))) (skewm (w s)))).
  { eapply dM_eq; [apply dM_mul; [apply dM_const|apply dM_tr; exact (DE s Hs)]|]. cbv beta. rewrite tr_rate, <- m3mul_assoc.
    generalize (m3mul (m3mul B (m3tr (E s))) (skewm (w s))). generalize (m3mul (m3tr (E s)) (skewm (w s))). intros [[] [] []] [[] [] []]. unfold m3add, m3mul, m3tr, vadd, v0; cbn. unfold dot; cbn. f_equal; f_equal; ring. }
  assert (DP : dV (fun s => vee (m3mul B (m3tr (E s)))) s (vee (m3mul (m3mul B (m3tr (E s))) (skewm (w s))))).
  { destruct D as ((D0 & D1 & D2) & (D3 & D4 & D5) & (D6 & D7 & D8)). unfold vee. repeat split; cbn [vx vy vz]; (eapply dl_eq; [apply (dl_mult _ (fun _ => / 2)); [apply dl_minus; eassumption|apply dl_const]|cbv beta; field]). }
  unfold W, tuW. apply dl_dot; [exact DP|exact (DW s Hs)].
Qed.
Lemma gu_W' s a th : norm a = 1 -> Rabs th < PI -> m3mul B (m3tr (E s)) = rotAxis a th ->
  guW' s = - / 2 * ((1 + cos th) * N s - (1 - cos th) * (dot a (w s) * dot a (w s))) + k * (th * sin th) - sin th * dot a (g s).
Proof.
  intros U H Q. unfold guW', N, tuN. rewrite Q, vee_turn, (HL a th U H), vee_axis by exact U.
  apply unit2 in U. destruct a as [x y z], (w s) as [p q r], (g s) as [p' q' r']. unfold norm2, dot, vsub, vsc in *; cbn in *.
  match goal with |- ?l = ?rr => transitivity (l + k * (th * sin th) * (1 - (x * x + y * y + z * z))); [rewrite U; ring|field] end.
Qed.
Definition guEps : R := d1 * k / (2 * k + d2 * d2).
Lemma gu_converges s : 0 <= s -> V s <= 3 * V 0 * exp (- (2 / 3 * (guEps * sinc (sqrt (2 * V 0 / k)))) * s).
Proof.
  intros Hs. destruct gu_energy as (HC & Dec). set (ep := guEps). set (mm := 2 * V 0 / k) in *. set (m := sqrt mm). set (sn := sinc m).
  pose proof PI_RGT_0 as PI0.
  assert (VD : forall x, V x = N x / 2 + k * A x / 2) by (intros x; reflexivity).
  assert (V0n : 0 <= V 0) by (rewrite VD; pose proof (gu_Nnn 0); pose proof (gu_Ann 0); nra).
  assert (Mn : 0 <= mm) by (unfold mm; apply Rmult_le_pos; [lra|left; apply Rinv_0_lt_compat; exact Pk]).
  assert (Pm : 0 <= m) by apply sqrt_pos. assert (Mm : m * m = mm) by (apply sqrt_sqrt; exact Mn). assert (LM : m < PI) by nra.
  destruct (sinc_le m ltac:(lra)) as (S0 & S1). fold sn in S0, S1.
  assert (PM : 0 < 2 * k + d2 * d2) by nra.
  assert (Pe : 0 < ep) by (unfold ep, guEps; apply Rdiv_lt_0_compat; [apply Rmult_lt_0_compat; lra|exact PM]).
  assert (EM : ep * (2 * k + d2 * d2) = d1 * k) by (unfold ep, guEps; field; lra).
  assert (E2 : ep <= d1 / 2) by (apply Rmult_le_reg_r with (2 * k + d2 * d2); [exact PM|rewrite EM; nra]).
  set (c := sqrt k). assert (Pc : 0 < c) by (apply sqrt_lt_R0; exact Pk). assert (Cc : c * c = k) by (apply sqrt_sqrt; lra).
  assert (E3 : ep <= c / 2).
  { apply Rmult_le_reg_r with (2 * k + d2 * d2); [exact PM|]. rewrite EM. apply Rle_trans with (d2 * k); [apply Rmult_le_compat_r; lra|]. rewrite <- Cc.
    replace (c / 2 * (2 * (c * c) + d2 * d2)) with (d2 * (c * c) + c * ((c - d2) ^ 2 + c * c) / 2) by field. pose proof (pow2_ge_0 (c - d2)). assert (0 <= c * ((c - d2) ^ 2 + c * c)) by (apply Rmult_le_pos; nra). lra. }
  set (L := fun s => V s - ep * W s). set (rt := 2 / 3 * (ep * sn)).
  (* at an instant: the axis and the angle *)
  assert (AX : forall x, 0 <= x -> exists a th, norm a = 1 /\ Rabs th < PI /\ m3mul B (m3tr (E x)) = rotAxis a th /\ A x = th * th /\ sn * (th * th) <= th * sin th /\
    W x * W x <= N x * (sin th * sin th)).
  { intros x Hx. destruct (gu_axis x (HC x Hx)) as (a & th & U & H & Q). exists a, th. split; [exact U|]. split; [exact H|]. split; [exact Q|].
    assert (AT : A x = th * th) by (exact (angle2_axis (E x) B a th U H Q)). split; [exact AT|]. split.
    - apply sinc_low; [|exact LM]. apply Rsqr_incr_0_var; [|exact Pm]. unfold Rsqr. rewrite Mm, <- Rabs_mult, Rabs_right by (apply Rle_ge, Rle_0_sqr). rewrite <- AT.
      pose proof (Dec 0 x ltac:(lra)) as DD. unfold mm. apply Rmult_le_reg_r with k; [exact Pk|]. replace (2 * V 0 / k * k) with (2 * V 0) by (field; lra). rewrite (VD x) in DD. pose proof (gu_Nnn x). lra.
    - unfold W, tuW. rewrite Q, vee_axis. pose proof (cauchy2 a (w x)) as CA. assert (NA : norm2 a = 1) by (unfold norm2, dot; exact (unit2 a U)). rewrite NA, Rmult_1_l in CA. fold (tuN w x) in CA. fold (N x) in CA.
      replace (dot (vsc (sin th) a) (w x) * dot (vsc (sin th) a) (w x)) with ((sin th * sin th) * (dot a (w x) * dot a (w x))) by (destruct a, (w x); unfold dot, vsc; cbn; ring).
      rewrite (Rmult_comm (N x)). apply Rmult_le_compat_l; [apply Rle_0_sqr|exact CA]. }
  assert (YO : forall n r w b, 0 <= n -> 0 <= r -> w * w <= n * r -> 0 < b -> 2 * Rabs w <= b * n + r / b).
  { intros n r w0 b Nn Nr CC Pb. apply Rsqr_incr_0_var; [|assert (0 <= r / b) by (apply Rmult_le_pos; [exact Nr|left; apply Rinv_0_lt_compat; exact Pb]); nra].
    unfold Rsqr. replace (2 * Rabs w0 * (2 * Rabs w0)) with (4 * (Rabs w0 * Rabs w0)) by ring.
    replace (Rabs w0 * Rabs w0) with (w0 * w0) by (rewrite <- Rabs_mult; rewrite Rabs_right; [reflexivity|apply Rle_ge, Rle_0_sqr]).
    apply Rle_trans with (4 * (n * r)); [apply Rmult_le_compat_l; [lra|exact CC]|].
    replace ((b * n + r / b) * (b * n + r / b)) with (4 * (n * r) + (b * n - r / b) ^ 2) by (field; lra). pose proof (pow2_ge_0 (b * n - r / b)). lra. }
  assert (LV : forall s, 0 <= s -> V s / 2 <= L s <= 3 / 2 * V s).
  { intros x Hx. destruct (AX x Hx) as (a & th & U & H & Q & AT & _ & CW). pose proof (sin_sqr th H) as (B1 & B2). pose proof (gu_Nnn x) as Nn.
    pose proof (YO _ _ _ (/ c) Nn (Rle_0_sqr (sin th)) CW (Rinv_0_lt_compat _ Pc)) as C0. unfold Rsqr in C0.
    pose proof (Rle_abs (W x)) as A1. pose proof (Rle_abs (- W x)) as A2. rewrite Rabs_Ropp in A2.
    assert (C' : 2 * (c * Rabs (W x)) <= N x + k * (sin th * sin th)).
    { rewrite <- Cc. replace (N x + c * c * (sin th * sin th)) with (c * (/ c * N x + sin th * sin th / / c)) by (field; lra). replace (2 * (c * Rabs (W x))) with (c * (2 * Rabs (W x))) by ring. apply Rmult_le_compat_l; lra. }
    assert (K : c * Rabs (W x) <= V x) by (rewrite VD, AT; assert (k * (sin th * sin th) <= k * (th * th)) by (apply Rmult_le_compat_l; lra); lra). pose proof (Rabs_pos (W x)) as PW.
    assert (K0 : ep * Rabs (W x) <= c / 2 * Rabs (W x)) by (apply Rmult_le_compat_r; lra).
    assert (K1 : ep * W x <= ep * Rabs (W x)) by (apply Rmult_le_compat_l; lra). assert (K2 : - (ep * W x) <= ep * Rabs (W x)) by (rewrite <- Ropp_mult_distr_r_reverse; apply Rmult_le_compat_l; lra).
    unfold L. split; lra. }
  set (L' := fun x => - dot (w x) (g x) - (0 * W x + ep * guW' x)).
  assert (PD : forall x, 0 <= x -> dlim L x (L' x)).
  { intros x Hx. unfold L, L'. apply dl_minus; [apply gu_dV; [exact Hx|exact (HC x Hx)]|apply (dl_mult (fun _ => ep) W); [apply dl_const|exact (gu_dW x Hx)]]. }
  assert (BD' : forall x, 0 <= x -> L' x <= - rt * L x).
  { intros x Hx. destruct (AX x Hx) as (a & th & U & H & Q & AT & SL & CW). unfold L'. rewrite (gu_W' x a th U H Q).
    destruct (GB x Hx (HC x Hx) (Dec 0 x ltac:(lra))) as (G1 & G2). pose proof (gu_Nnn x) as Nn. pose proof (sin_sqr th H) as (B1 & B2).
    pose proof (LV x Hx) as (_ & LU). set (n := N x) in *. set (q := dot a (w x)). set (r := sin th * sin th) in *. set (z := th * sin th) in *. set (y := sin th * dot a (g x)).
    assert (A2 : y <= d2 * d2 * n / (2 * k) + k * r / 2).
    { pose proof (cauchy2 a (g x)) as CA. assert (NA : norm2 a = 1) by (unfold norm2, dot; exact (unit2 a U)). rewrite NA, Rmult_1_l in CA.
      assert (Y2 : y * y <= norm2 (g x) * r) by (unfold y, r; replace (sin th * dot a (g x) * (sin th * dot a (g x))) with ((sin th * sin th) * (dot a (g x) * dot a (g x))) by ring; rewrite (Rmult_comm (norm2 _)); apply Rmult_le_compat_l; [apply Rle_0_sqr|exact CA]).
      pose proof (YO _ _ _ (/ k) (norm2_nonneg (g x)) (Rle_0_sqr (sin th)) Y2 (Rinv_0_lt_compat _ Pk)) as YY. unfold Rsqr in YY. fold r in YY. pose proof (Rle_abs y) as A1.
      assert (Z : / k * norm2 (g x) <= / k * (d2 * d2 * n)) by (apply Rmult_le_compat_l; [left; apply Rinv_0_lt_compat; exact Pk|exact G2]).
      replace (d2 * d2 * n / (2 * k) + k * r / 2) with ((/ k * (d2 * d2 * n) + r / / k) / 2) by (field; lra). lra. }
    assert (A3 : / 2 * ((1 + cos th) * n - (1 - cos th) * (q * q)) <= n).
    { pose proof (COS_bound th) as CB. assert (0 <= (1 - cos th) * (q * q)) by (apply Rmult_le_pos; [lra|apply Rle_0_sqr]). assert ((1 + cos th) * n <= 2 * n) by (apply Rmult_le_compat_r; lra). lra. }
    assert (E1n : ep * (n + d2 * d2 * n / (2 * k)) = d1 * n / 2).
    { replace (ep * (n + d2 * d2 * n / (2 * k))) with (ep * (2 * k + d2 * d2) * (n / (2 * k))) by (field; lra). rewrite EM. field. lra. }
    apply Rle_trans with (- (d1 / 2 * n) - ep * (k * (sn * (th * th))) / 2).
    - assert (K1 : ep * y <= ep * (d2 * d2 * n / (2 * k) + k * r / 2)) by (apply Rmult_le_compat_l; lra).
      assert (K2 : ep * (/ 2 * ((1 + cos th) * n - (1 - cos th) * (q * q))) <= ep * n) by (apply Rmult_le_compat_l; lra).
      assert (K3 : ep * (k * (sn * (th * th))) <= ep * (k * z)) by (repeat apply Rmult_le_compat_l; try lra).
      assert (K5 : ep * (k * r) <= ep * (k * z)) by (repeat apply Rmult_le_compat_l; try lra). lra.
    - assert (Pr : 0 <= rt) by (unfold rt; apply Rmult_le_pos; [lra|apply Rmult_le_pos; lra]).
      assert (WL : rt * L x <= rt * (3 / 2 * V x)) by (apply Rmult_le_compat_l; lra). rewrite VD, AT in WL. fold n in WL.
      assert (C1 : rt * (3 / 2 * (n / 2 + k * (th * th) / 2)) = ep * sn * n / 2 + ep * (k * (sn * (th * th))) / 2) by (unfold rt; field).
      assert (C2 : ep * sn * n <= d1 * n) by (apply Rmult_le_compat_r; [exact Nn|]; nra).
      lra. }
  assert (GR : L s * exp (rt * s) <= L 0 * exp (rt * 0)).
  { destruct (Req_dec s 0) as [->|NZ]; [lra|].
    apply (decr_ray (fun s => L s * exp (rt * s)) (fun s => L' s * exp (rt * s) + L s * (rt * exp (rt * s)))); [| |lra].
    - intros x Hx. apply (dl_mult L (fun s => exp (rt * s))); [apply PD; exact Hx|apply dlim_exp].
    - intros x Hx. pose proof (BD' x Hx) as G. pose proof (exp_pos (rt * x)) as P. replace (L' x * exp (rt * x) + L x * (rt * exp (rt * x))) with ((L' x - (- rt * L x)) * exp (rt * x)) by ring.
      rewrite <- (Rmult_0_l (exp (rt * x))). apply Rmult_le_compat_r; lra. }
  rewrite Rmult_0_r, exp_0, Rmult_1_r in GR. pose proof (LV s Hs) as (L1 & _). pose proof (LV 0 ltac:(lra)) as (_ & L2).
  assert (LS : L s <= L 0 * exp (- rt * s)).
  { apply Rmult_le_reg_r with (exp (rt * s)); [apply exp_pos|]. rewrite Rmult_assoc, <- exp_plus. replace (- rt * s + rt * s) with 0 by ring. rewrite exp_0. lra. }
  pose proof (exp_pos (- rt * s)) as P. assert (L0E : L 0 * exp (- rt * s) <= 3 / 2 * V 0 * exp (- rt * s)) by (apply Rmult_le_compat_r; lra).
  unfold rt in *. lra.
Qed.
End Turn.
