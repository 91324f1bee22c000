(** Lemmas: a rotation driven by the law of a SurfaceTransformTask. *)
From Verif Require Export SurfLoopSpec TurnGen.
From Verif Require Import KinFacts KinTaskFacts VisFacts SetPointFacts SetPointLoop OriLoop.
From Coq Require Import Lra Psatz Ratan.
Open Scope list_scope.
Open Scope R_scope.

Lemma PI2_10 : PI * PI < 10.
Proof.
  destruct (Rlt_dec PI (79 / 25)) as [H|H]; [pose proof PI_RGT_0; nra|exfalso]. apply Rnot_lt_le in H. pose proof PI_RGT_0 as P.
  destruct (cos_bound (79 / 50) 1) as (_ & U); [lra|lra|]. assert (0 <= cos (79 / 50)) by (apply cos_ge_0; lra).
  assert (F : forall n, INR (fact (S n)) = INR (S n) * INR (fact n)) by (intros n; rewrite fact_simpl, mult_INR; reflexivity).
  assert (F2 : INR (fact 2) = 2) by (rewrite !F; cbn; ring). assert (F4 : INR (fact 4) = 24) by (rewrite 2!F, F2; cbn; ring).
  assert (F6 : INR (fact 6) = 720) by (rewrite 2!F, F4; cbn; ring). assert (F8 : INR (fact 8) = 40320) by (rewrite 2!F, F6; cbn; ring).
  unfold cos_approx, sum_f_R0, cos_term in U. cbn [Nat.mul Nat.add] in U. rewrite F2, F4, F6, F8 in U. change (INR (fact 0)) with 1 in U. lra.
Qed.
(** The inverse of x -> x - e x x. *)
Lemma surf_inv e r : vsc (1 + norm2 e) r = let c := vsub r (cross e r) in vadd (vadd c (cross e c)) (vsc (dot e c) e).
Proof. destruct e, r. unfold norm2, vsc, vadd, vsub, cross, dot; cbn. f_equal; ring. Qed.
Lemma surf_dot e w r : vsub r (cross e r) = cross (cross e w) w -> (1 + norm2 e) * dot w r = - (dot e w * norm2 (cross e w)).
Proof.
  intros Q. pose proof (surf_inv e r) as I. cbv zeta in I. rewrite Q in I. assert (D : dot w (vsc (1 + norm2 e) r) = (1 + norm2 e) * dot w r) by (destruct w, r; unfold dot, vsc; cbn; ring).
  rewrite <- D, I. destruct e, w. unfold norm2, vsc, vadd, vsub, cross, dot; cbn. ring.
Qed.
Lemma surf_norm e w r : vsub r (cross e r) = cross (cross e w) w -> norm2 r <= norm2 e * (norm2 w * norm2 w).
Proof.
  intros Q. assert (A : norm2 (vsub r (cross e r)) = norm2 r + norm2 (cross e r)) by (destruct e, r; unfold norm2, dot, vsub, cross; cbn; ring).
  assert (B : norm2 (cross (cross e w) w) = norm2 e * (norm2 w * norm2 w) - dot e w * dot e w * norm2 w) by (destruct e, w; unfold norm2, dot, cross; cbn; ring).
  rewrite Q, B in A. pose proof (norm2_nonneg (cross e r)). pose proof (norm2_nonneg w). assert (0 <= dot e w * dot e w * norm2 w) by (apply Rmult_le_pos; [apply Rle_0_sqr|assumption]). lra.
Qed.
Lemma surf_dot2 e w r : vsub r (cross e r) = cross (cross e w) w -> dot w r * dot w r <= 4 / 25 * (norm2 e * (norm2 w * norm2 w * norm2 w)).
Proof.
  intros Q. pose proof (surf_dot e w r Q) as D. set (y := dot w r) in *. set (A := norm2 e) in *. set (N := norm2 w). set (u := dot e w) in *. set (q := norm2 (cross e w)) in *.
  assert (PA : 0 <= A) by apply norm2_nonneg. assert (PN : 0 <= N) by apply norm2_nonneg. assert (Pq : 0 <= q) by apply norm2_nonneg.
  assert (L : u * u + q = A * N) by (unfold u, q, A, N; destruct e, w; unfold norm2, dot, cross; cbn; ring).
  set (m := A * N) in *. assert (Pm : 0 <= m) by (apply Rmult_le_pos; assumption).
  assert (C : 27 * (u * u * (q * q)) <= 4 * (m * m * m)).
  { replace (u * u) with (m - q) by lra. assert (0 <= (2 * m - 3 * q) * (2 * m - 3 * q) * (m + 3 * q)) by (apply Rmult_le_pos; [apply Rle_0_sqr|lra]).
    replace (4 * (m * m * m)) with (27 * ((m - q) * (q * q)) + (2 * m - 3 * q) * (2 * m - 3 * q) * (m + 3 * q)) by ring. lra. }
  assert (S2 : (1 + A) * (1 + A) * (y * y) = u * u * (q * q)) by (replace ((1 + A) * (1 + A) * (y * y)) with (((1 + A) * y) * ((1 + A) * y)) by ring; rewrite D; ring).
  assert (M3 : m * m * m = A * A * (A * (N * N * N))) by (unfold m; ring).
  assert (Pz : 0 <= A * (N * N * N)) by (apply Rmult_le_pos; [|apply Rmult_le_pos; [apply Rmult_le_pos|]]; assumption).
  apply Rmult_le_reg_l with ((1 + A) * (1 + A)); [nra|]. rewrite S2.
  assert (A * A * (A * (N * N * N)) <= (1 + A) * (1 + A) * (A * (N * N * N))) by (apply Rmult_le_compat_r; [exact Pz|nra]).
  assert (0 <= m * m * m) by (rewrite M3; apply Rmult_le_pos; [apply Rle_0_sqr|exact Pz]). nra.
Qed.
Lemma abs_of_sqr x b : 0 <= b -> x * x <= b * b -> - b <= x <= b.
Proof. intros Pb H. split; nra. Qed.

Section Surf.
Variables (E : R -> M3) (w w' : R -> V3) (B : M3) (k d1 d2 : R) (d : R -> R) (rv : M3 -> V3).
Hypotheses (Pk : 0 < k) (Bd : forall s, 0 <= s -> d1 <= d s <= d2) (RE : forall s, rotation (E s)) (RB : rotation B) (HL : isLog rv).
Hypothesis DE : forall s, 0 <= s -> dM E s (m3neg (m3mul (skewm (w s)) (E s))).
Hypothesis DW : forall s, 0 <= s -> dV w s (w' s).
Let e s := rv (m3mul B (m3tr (E s))).
Hypothesis Law : forall s, 0 <= s -> vsub (vsub (w' s) (cross (e s) (w' s))) (cross (cross (e s) (w s)) (w s)) = vsub (vsc k (e s)) (vsc (d s) (vsub (w s) (cross (e s) (w s)))).
Let V := tuV E w B k.
Let N := tuN w.
Let g s := vsub (vsc k (e s)) (w' s).
Lemma surf_resist s : 0 <= s -> -1 < tuC E B s -> (d s - 2 / 5 * (V s / sqrt k)) * N s <= dot (w s) (g s) /\ (0 <= d s -> norm2 (g s) <= (d s + V s / sqrt k) * (d s + V s / sqrt k) * N s).
Proof.
  intros Hs HC. destruct (proj2 (half_turn_iff (E s) B (RE s) RB) HC) as (a & th & U & H & Q).
  assert (EA : norm2 (e s) = tuA E B s).
  { unfold e. rewrite Q, (HL a th U H). unfold tuA. rewrite (angle2_axis (E s) B a th U H Q). apply unit2 in U. destruct a as [x y z]. unfold norm2, dot, vsc; cbn in *. transitivity (th * th * (x * x + y * y + z * z)); [ring|rewrite U; ring]. }
  set (r := vsub (vsc (d s) (w s)) (g s)).
  assert (LR : vsub r (cross (e s) r) = cross (cross (e s) (w s)) (w s)).
  { pose proof (Law s Hs) as LW. unfold r, g. revert LW. generalize (e s) (w s) (w' s) (d s). intros [] [] [] D LW. unfold vsub, vsc, cross in *; cbn in *. injection LW as L1 L2 L3. f_equal; lra. }
  assert (GR : g s = vsub (vsc (d s) (w s)) r) by (unfold r; destruct (g s), (vsc (d s) (w s)); unfold vsub; cbn; f_equal; ring).
  clearbody r. pose proof (surf_dot2 _ _ _ LR) as D2. pose proof (surf_norm _ _ _ LR) as D3. rewrite EA in D2, D3. fold (tuN w s) in D2, D3. fold (N s) in D2, D3.
  assert (PN : 0 <= N s) by apply norm2_nonneg. assert (PA : 0 <= tuA E B s) by apply angle2_pos.
  set (c := sqrt k). assert (Pc : 0 < c) by (apply sqrt_lt_R0; exact Pk). assert (Cc : c * c = k) by (apply sqrt_sqrt; lra).
  set (rho := V s / c). assert (RV : rho * c = V s) by (unfold rho; field; lra). assert (VV : V s = N s / 2 + k * tuA E B s / 2) by reflexivity.
  assert (PV : 0 <= V s) by (rewrite VV; nra). assert (Pr : 0 <= rho) by (unfold rho; apply Rmult_le_pos; [exact PV|left; apply Rinv_0_lt_compat; exact Pc]).
  set (A := tuA E B s) in *. set (n := N s) in *. set (y := dot (w s) r) in *.
  assert (AN : A * n <= rho * rho).
  { apply Rmult_le_reg_r with k; [exact Pk|]. replace (rho * rho * k) with (V s * V s) by (rewrite <- RV, <- Cc; ring). rewrite VV. pose proof (pow2_ge_0 (n - k * A)). replace ((n / 2 + k * A / 2) * (n / 2 + k * A / 2)) with (A * n * k + (n - k * A) ^ 2 / 4) by field. lra. }
  assert (Y2 : y * y <= (2 / 5 * rho * n) * (2 / 5 * rho * n)).
  { apply Rle_trans with (4 / 25 * (A * (n * n * n))); [exact D2|]. replace (2 / 5 * rho * n * (2 / 5 * rho * n)) with (4 / 25 * (rho * rho * (n * n))) by field. replace (A * (n * n * n)) with (A * n * (n * n)) by ring.
    apply Rmult_le_compat_l; [lra|]. apply Rmult_le_compat_r; [apply Rle_0_sqr|exact AN]. }
  assert (Pn2 : 0 <= 2 / 5 * rho * n) by (apply Rmult_le_pos; [lra|exact PN]).
  pose proof (abs_of_sqr y _ Pn2 Y2) as (Y3 & Y4).
  assert (R2 : norm2 r <= rho * rho * n).
  { apply Rle_trans with (A * (n * n)); [exact D3|]. replace (A * (n * n)) with (A * n * n) by ring. apply Rmult_le_compat_r; [exact PN|exact AN]. }
  split.
  - rewrite GR. replace (dot (w s) (vsub (vsc (d s) (w s)) r)) with (d s * n - y); [nra|]. unfold n, N, tuN, y, norm2. destruct (w s), r; unfold dot, vsub, vsc; cbn; ring.
  - intros Pd. rewrite GR. replace (norm2 (vsub (vsc (d s) (w s)) r)) with (d s * d s * n - 2 * d s * y + norm2 r) by (unfold n, N, tuN, y, norm2; destruct (w s), r; unfold dot, vsub, vsc; cbn; ring).
    assert (- (d s * y) <= d s * (2 / 5 * rho * n)) by nra. assert (0 <= d s * rho * n) by (apply Rmult_le_pos; [apply Rmult_le_pos|]; assumption). nra.
Qed.
Lemma surf_core : let e0 := turnEnergy k (w 0) (angleTo (E 0) B) in 2 * e0 < k * (PI * PI) -> 0 < leastDamping k d1 e0 ->
  forall s, 0 <= s -> angleTo (E s) B < PI /\ angleTo (E s) B * angleTo (E s) B <= 6 * e0 / k * exp (- turnRate k (leastDamping k d1 e0) (mostDamping k d2 e0) e0 * s).
Proof.
  intros e0 Hlt HD s Hs. assert (E0 : V 0 = e0) by reflexivity.
  assert (LT : 2 * V 0 / k < PI * PI).
  { rewrite E0. apply Rmult_lt_reg_r with k; [exact Pk|]. replace (2 * e0 / k * k) with (2 * e0) by (field; lra). lra. }
  assert (Pc : 0 < sqrt k) by (apply sqrt_lt_R0; exact Pk). set (c := sqrt k) in *.
  assert (P0 : 0 <= V 0) by (unfold V, tuV; pose proof (norm2_nonneg (w 0)); pose proof (angle2_pos (E 0) B); unfold tuN, tuA; nra).
  assert (PR : 0 <= V 0 / c) by (apply Rmult_le_pos; [exact P0|left; apply Rinv_0_lt_compat; exact Pc]).
  assert (HD' : 2 / 5 * (V 0 / c) < d1) by (unfold leastDamping in HD; fold c in HD; rewrite E0; lra).
  assert (H1 : V 0 < 5 / 2 * d1 * c) by (replace (V 0) with (V 0 / c * c) by (field; lra); nra).
  pose proof (Bd 0 (Rle_refl 0)) as B0.
  assert (PD : leastDamping k d1 e0 <= mostDamping k d2 e0) by (unfold leastDamping, mostDamping; fold c; rewrite <- E0; lra).
  assert (DG : forall s, 0 <= s -> dV w s (vsub (vsc k (rv (m3mul B (m3tr (E s))))) (g s))).
  { intros u Hu. eapply dV_eq; [exact (DW u Hu)|]. unfold g, e. destruct (w' u), (vsc k (rv (m3mul B (m3tr (E u))))). unfold vsub; cbn. f_equal; ring. }
  assert (GA : forall s, 0 <= s -> -1 < tuC E B s -> V s < 5 / 2 * d1 * c -> 0 <= dot (w s) (g s)).
  { intros u Hu HC HV. destruct (surf_resist u Hu HC) as (G1 & _). pose proof (Bd u Hu). assert (PN : 0 <= N u) by apply norm2_nonneg. fold c in G1.
    assert (2 / 5 * (V u / c) < d1) by (apply Rmult_lt_reg_r with c; [exact Pc|]; replace (2 / 5 * (V u / c) * c) with (2 / 5 * V u) by (field; lra); lra).
    assert (0 <= (d u - 2 / 5 * (V u / c)) * N u) by (apply Rmult_le_pos; lra). lra. }
  assert (GB : forall s, 0 <= s -> -1 < tuC E B s -> V s <= V 0 -> leastDamping k d1 e0 * N s <= dot (w s) (g s) /\ norm2 (g s) <= mostDamping k d2 e0 * mostDamping k d2 e0 * N s).
  { intros u Hu HC HV. destruct (surf_resist u Hu HC) as (G1 & G2). pose proof (Bd u Hu). assert (PN : 0 <= N u) by apply norm2_nonneg. fold c in G1, G2.
    assert (PV : 0 <= V u) by (unfold V, tuV; pose proof (norm2_nonneg (w u)); pose proof (angle2_pos (E u) B); unfold tuN, tuA; nra).
    assert (L1 : V u / c <= V 0 / c) by (apply Rmult_le_compat_r; [left; apply Rinv_0_lt_compat; exact Pc|exact HV]).
    assert (L0 : 0 <= V u / c) by (apply Rmult_le_pos; [exact PV|left; apply Rinv_0_lt_compat; exact Pc]).
    unfold leastDamping, mostDamping. fold c. rewrite <- E0. split.
    - eapply Rle_trans; [|exact G1]. apply Rmult_le_compat_r; lra.
    - eapply Rle_trans; [apply G2; lra|]. apply Rmult_le_compat_r; [exact PN|]. apply Rmult_le_compat; lra. }
  pose proof (gu_converges E w g B k _ _ _ rv Pk HD PD RE RB HL DE DG LT H1 GA GB s Hs) as C. destruct (gu_energy E w g B k _ _ _ rv Pk RE RB HL DE DG LT H1 GA GB) as (HC & _).
  split.
  - specialize (HC s Hs). pose proof (cosAngle_le (E s) B (RE s) RB) as U. unfold tuC in HC. change (acos (cosAngle (E s) B) < PI).
    destruct (Req_dec (cosAngle (E s) B) 1) as [->|NE]; [rewrite acos_1; apply PI_RGT_0|]. apply acos_bound_lt. lra.
  - change (tuV E w B k 0) with e0 in C. unfold tuV, guEps in C. pose proof (norm2_nonneg (w s)) as NN. unfold tuN in C. unfold turnRate. rewrite angleTo_sqr. unfold tuA, sinc in C.
    apply Rmult_le_reg_l with (k / 2); [lra|]. match goal with |- _ <= k / 2 * (6 * e0 / k * ?e) => replace (k / 2 * (6 * e0 / k * e)) with (3 * e0 * e) by (field; lra) end. lra.
Qed.
End Surf.
