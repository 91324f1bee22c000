(** Lemmas: a unit vector driven towards another one; the closed loop of VectorOrientationTask. *)
From Verif Require Export EnergyFacts.
From Verif Require Import KinTaskFacts KinVecFacts SetPointFacts SetPointLoop KinFacts.
From Coq Require Import Lra Lia Psatz.
Open Scope list_scope.
Open Scope R_scope.
Local Arguments sumn : simpl never.

Lemma vsub_l a b d : dot (vsub a b) d = dot a d - dot b d. Proof. unfold dot, vsub; cbn; ring. Qed.
Lemma vsub_r a b d : dot a (vsub b d) = dot a b - dot a d. Proof. unfold dot, vsub; cbn; ring. Qed.
Section Sphere.
Variables (u v A : R -> V3) (t : V3) (k d1 d2 : R) (d : R -> R).
Hypotheses (Pk : 0 < k) (Pd1 : 0 < d1) (Bd : forall s, 0 <= s -> d1 <= d s <= d2) (Du : forall s, 0 <= s -> dV u s (v s)) (Dv : forall s, 0 <= s -> dV v s (A s)) (Nu : forall s, dot (u s) (u s) = 1) (Nt : dot t t = 1).
Hypothesis Opt : forall s tau, 0 <= s -> tau = v s \/ tau = vsub t (vsc (dot t (u s)) (u s)) -> dot (A s) tau = k * dot t tau - d s * dot (v s) tau.
Definition spN (s : R) : R := dot (v s) (v s).
Definition spY (s : R) : R := dot t (u s).
Definition spW (s : R) : R := dot t (v s).
Definition spE (s : R) : R := spN s / 2 + k * (1 - spY s).
Lemma sp_tangent s : 0 <= s -> dot (v s) (u s) = 0.
Proof.
  intros Hs. assert (D : dlim (fun s => dot (u s) (u s)) s (dot (v s) (u s) + dot (u s) (v s))) by (apply dl_dot; apply Du; exact Hs).
  assert (D0 : dlim (fun s => dot (u s) (u s)) s 0) by (eapply dl_ext; [|apply (dl_const 1)]; intros; cbv beta; rewrite Nu; reflexivity).
  pose proof (dl_unique _ _ _ _ D D0) as E. rewrite (dot_comm (u s) (v s)) in E. lra.
Qed.
Lemma sp_dY s : 0 <= s -> dlim spY s (spW s).
Proof. intros Hs. unfold spY, spW. eapply dl_eq; [apply dl_dot; [apply dV_const|apply Du; exact Hs]|]. unfold v0, dot. cbn. ring. Qed.
Lemma sp_dE s : 0 <= s -> dlim spE s (- (d s * spN s)).
Proof.
  intros Hs. pose proof (Opt s (v s) Hs (or_introl eq_refl)) as O. unfold spE.
  eapply dl_eq; [apply dl_plus; [eapply dl_ext; [|apply dl_mult; [apply (dl_const (/ 2))|apply dl_dot; [apply Dv; exact Hs|apply Dv; exact Hs]]]|apply dl_mult; [apply dl_const|apply dl_minus; [apply dl_const|apply sp_dY; exact Hs]]]|].
  - intros x. cbv beta. unfold spN. field.
  - cbv beta. rewrite (dot_comm (v s) (A s)), O. unfold spN, spW, spY. field.
Qed.
Lemma right_zero f s l : 0 <= s -> (forall x, 0 <= x -> f x = 0) -> dlim f s l -> l = 0.
Proof.
  intros Hs Z D. destruct (Req_dec l 0) as [|NZ]; [auto|exfalso]. destruct (D (Rabs l)) as (dd & Dd); [apply Rabs_pos_lt; auto|].
  specialize (Dd (pos dd / 2)). pose proof (cond_pos dd) as Pd. rewrite !Z in Dd by lra. rewrite (Rabs_right (dd / 2)) in Dd by lra. specialize (Dd ltac:(lra) ltac:(lra)).
  replace ((0 - 0) / (dd / 2) - l) with (- l) in Dd by (field; lra). rewrite Rabs_Ropp in Dd. lra.
Qed.
Lemma sp_radial s : 0 <= s -> dot (A s) (u s) = - spN s.
Proof.
  intros Hs. assert (D : dlim (fun s => dot (v s) (u s)) s (dot (A s) (u s) + dot (v s) (v s))) by (apply dl_dot; [apply Dv; exact Hs|apply Du; exact Hs]).
  pose proof (right_zero _ _ _ Hs (fun x Hx => sp_tangent x Hx) D). unfold spN. lra.
Qed.
Lemma sp_dW s : 0 <= s -> dlim spW s (- spY s * spN s + k * (1 - spY s * spY s) - d s * spW s).
Proof.
  intros Hs. unfold spW at 1. eapply dl_eq; [apply dl_dot; [apply dV_const|apply Dv; exact Hs]|].
  set (tau := vsub t (vsc (spY s) (u s))).
  assert (T0 : dot tau (u s) = 0) by (pose proof (Nu s) as N; unfold tau; rewrite vsub_l, dot_vsc_l, N; unfold spY; ring).
  pose proof (Opt s tau Hs (or_intror eq_refl)) as O. pose proof (sp_radial s Hs) as Rd. pose proof (sp_tangent s Hs) as Tg.
  assert (E1 : dot (A s) tau = dot t (A s) - spY s * dot (A s) (u s)) by (unfold tau; rewrite vsub_r, dot_vsc_r, (dot_comm (A s) t); ring).
  assert (E2 : dot t tau = 1 - spY s * spY s) by (unfold tau; rewrite vsub_r, dot_vsc_r, Nt; unfold spY; ring).
  assert (E3 : dot (v s) tau = spW s) by (unfold tau; rewrite vsub_r, dot_vsc_r, Tg, (dot_comm (v s) t); unfold spW; ring).
  rewrite E1, E2, E3, Rd in O. replace (dot v0 (v s)) with 0 by (unfold v0, dot; cbn; ring). unfold spW in *. lra.
Qed.
Lemma sp_cauchy s : 0 <= s -> spW s * spW s <= spN s * (1 - spY s * spY s).
Proof.
  intros Hs. set (tau := vsub t (vsc (spY s) (u s))). pose proof (sp_tangent s Hs) as Tg.
  assert (E1 : dot tau tau = 1 - spY s * spY s).
  { unfold tau. rewrite !vsub_l, !vsub_r, !dot_vsc_l, !dot_vsc_r, Nt, Nu, (dot_comm (u s) t). fold (spY s). ring. }
  assert (E3 : dot (v s) tau = spW s) by (unfold tau; rewrite vsub_r, dot_vsc_r, Tg, (dot_comm (v s) t); unfold spW; ring).
  rewrite <- E1, <- E3. unfold spN. clear. generalize tau. intros [a b e]. destruct (v s) as [x y z]. unfold dot. cbn.
  assert (Q : 0 <= (x * b - y * a) ^ 2 + (x * e - z * a) ^ 2 + (y * e - z * b) ^ 2) by (repeat apply Rplus_le_le_0_compat; apply pow2_ge_0). nra.
Qed.
Lemma sp_range s : -1 <= spY s <= 1.
Proof.
  unfold spY. assert (Q : dot t (u s) * dot t (u s) <= 1).
  { pose proof (Nu s) as N. revert Nt N. clear. destruct t as [a b e], (u s) as [x y z]. unfold dot. cbn. intros H1 H2.
    assert (Q : 0 <= (x * b - y * a) ^ 2 + (x * e - z * a) ^ 2 + (y * e - z * b) ^ 2) by (repeat apply Rplus_le_le_0_compat; apply pow2_ge_0). 
    assert (E : (a * x + b * y + e * z) * (a * x + b * y + e * z) = (a * a + b * b + e * e) * (x * x + y * y + z * z) - ((x * b - y * a) ^ 2 + (x * e - z * a) ^ 2 + (y * e - z * b) ^ 2)) by ring. rewrite H1, H2 in E. lra. }
  split; nra.
Qed.
Lemma sp_Nnn s : 0 <= spN s.
Proof. unfold spN, dot. pose proof (Rle_0_sqr (vx (v s))) as A1. pose proof (Rle_0_sqr (vy (v s))) as A2. pose proof (Rle_0_sqr (vz (v s))) as A3. unfold Rsqr in *. lra. Qed.
Lemma sp_decreases s x : 0 <= s <= x -> spE x <= spE s.
Proof. apply (decr_ray spE (fun s => - (d s * spN s))); [apply sp_dE|]. intros y Hy. pose proof (sp_Nnn y). pose proof (Bd y Hy). assert (0 <= d y * spN y) by (apply Rmult_le_pos; lra). lra. Qed.
(** Exponential convergence for a start below the energy of the opposite direction. *)
Definition spEps : R := d1 * k / (2 * k + d2 * d2).
Lemma sp_converges s : spE 0 < 2 * k -> 0 <= s -> spE s <= 3 * spE 0 * exp (- (spEps * (2 - spE 0 / k) / 3) * s).
Proof.
  intros H0 Hs. set (dl := 2 - spE 0 / k). set (ep := spEps).
  assert (Pd : 0 < dl). { unfold dl. assert (spE 0 / k < 2) by (apply Rmult_lt_reg_r with k; [exact Pk|]; unfold Rdiv; rewrite Rmult_assoc, Rinv_l by lra; lra). lra. }
  assert (D12 : 0 < d1 <= d2) by (pose proof (Bd 0 (Rle_refl 0)); lra).
  assert (PM : 0 < 2 * k + d2 * d2) by nra.
  assert (Pe : 0 < ep) by (unfold ep, spEps; apply Rdiv_lt_0_compat; [apply Rmult_lt_0_compat; lra|exact PM]).
  assert (EM : ep * (2 * k + d2 * d2) = d1 * k) by (unfold ep, spEps; field; lra).
  assert (E1 : forall x, 0 <= x -> ep * (2 * k + d x * d x) <= d x * k).
  { intros x Hx. pose proof (Bd x Hx). apply Rle_trans with (ep * (2 * k + d2 * d2)); [apply Rmult_le_compat_l; nra|rewrite EM; apply Rmult_le_compat_r; lra]. }
  assert (E2 : ep <= d1 / 2) by (apply Rmult_le_reg_r with (2 * k + d2 * d2); [exact PM|rewrite EM; nra]).
  set (c := sqrt k). assert (Pc : 0 < c) by (apply sqrt_lt_R0; exact Pk). assert (Cc : c * c = k) by (apply sqrt_sqrt; lra).
  assert (E3 : ep <= c / 2).
  { apply Rmult_le_reg_r with (2 * k + d2 * d2); [exact PM|]. rewrite EM. apply Rle_trans with (d2 * k); [apply Rmult_le_compat_r; lra|]. rewrite <- Cc.
    replace (c / 2 * (2 * (c * c) + d2 * d2)) with (d2 * (c * c) + c * ((c - d2) ^ 2 + c * c) / 2) by field. pose proof (pow2_ge_0 (c - d2)). assert (0 <= c * ((c - d2) ^ 2 + c * c)) by (apply Rmult_le_pos; nra). lra. }
  set (L := fun s => spE s - ep * spW s). set (w := ep * dl / 3).
  assert (Z : forall s, 0 <= s -> 1 - spY s <= 2 - dl).
  { intros x Hx. pose proof (sp_decreases 0 x ltac:(lra)) as D. pose proof (sp_Nnn x). unfold spE at 1 in D. unfold dl. replace (2 - (2 - spE 0 / k)) with (spE 0 / k) by ring.
    apply Rmult_le_reg_r with k; [exact Pk|]. replace (spE 0 / k * k) with (spE 0) by (field; lra). lra. }
  assert (R2 : forall s, 0 <= s -> dl * (1 - spY s) <= 1 - spY s * spY s <= 2 * (1 - spY s)).
  { intros x Hx. pose proof (sp_range x). pose proof (Z x Hx). split; nra. }
  assert (CW : forall s, 0 <= s -> forall b, 0 < b -> 2 * Rabs (spW s) <= b * spN s + (1 - spY s * spY s) / b).
  { intros x Hx b Pb. pose proof (sp_cauchy x Hx) as C. pose proof (sp_Nnn x) as N. pose proof (R2 x Hx) as Rr. pose proof (sp_range x) as Sr.
    set (r := 1 - spY x * spY x) in *. assert (Pr : 0 <= r) by nra.
    apply Rsqr_incr_0_var; [|assert (0 <= r / b) by (apply Rmult_le_pos; [exact Pr|left; apply Rinv_0_lt_compat; exact Pb]); nra].
    unfold Rsqr. replace (2 * Rabs (spW x) * (2 * Rabs (spW x))) with (4 * (Rabs (spW x) * Rabs (spW x))) by ring.
    replace (Rabs (spW x) * Rabs (spW x)) with (spW x * spW x) by (rewrite <- Rabs_mult; rewrite Rabs_right; [reflexivity|apply Rle_ge, Rle_0_sqr]).
    apply Rle_trans with (4 * (spN x * r)); [apply Rmult_le_compat_l; [lra|exact C]|].
    replace ((b * spN x + r / b) * (b * spN x + r / b)) with (4 * (spN x * r) + (b * spN x - r / b) ^ 2) by (field; lra). pose proof (pow2_ge_0 (b * spN x - r / b)). lra. }
  assert (LV : forall s, 0 <= s -> spE s / 2 <= L s <= 3 / 2 * spE s).
  { intros x Hx. pose proof (CW x Hx (/ c) (Rinv_0_lt_compat _ Pc)) as C. pose proof (R2 x Hx) as Rr. pose proof (Rle_abs (spW x)) as A1. pose proof (Rle_abs (- spW x)) as A2. rewrite Rabs_Ropp in A2.
    assert (C' : 2 * (c * Rabs (spW x)) <= spN x + k * (1 - spY x * spY x)).
    { rewrite <- Cc. replace (spN x + c * c * (1 - spY x * spY x)) with (c * (/ c * spN x + (1 - spY x * spY x) / / c)) by (field; lra). replace (2 * (c * Rabs (spW x))) with (c * (2 * Rabs (spW x))) by ring. apply Rmult_le_compat_l; lra. }
    assert (K : c * Rabs (spW x) <= spE x) by (unfold spE; nra). pose proof (Rabs_pos (spW x)) as PW.
    assert (K0 : ep * Rabs (spW x) <= c / 2 * Rabs (spW x)) by (apply Rmult_le_compat_r; lra).
    assert (K1 : ep * spW x <= ep * Rabs (spW x)) by (apply Rmult_le_compat_l; lra). assert (K2 : - (ep * spW x) <= ep * Rabs (spW x)) by (rewrite <- Ropp_mult_distr_r_reverse; apply Rmult_le_compat_l; lra).
    unfold L. split; lra. }
  set (L' := fun s => - (d s * spN s) - ep * (- spY s * spN s + k * (1 - spY s * spY s) - d s * spW s)).
  assert (DLn : forall s, 0 <= s -> dlim L s (L' s)).
  { intros x Hx. unfold L, L'. eapply dl_eq; [apply dl_minus; [apply sp_dE; exact Hx|apply dl_mult; [apply dl_const|apply sp_dW; exact Hx]]|cbv beta; field]. }
  assert (BD' : forall s, 0 <= s -> L' s <= - w * L s).
  { intros x Hx. pose proof (Bd x Hx) as B. assert (Pdx : 0 < d x) by lra. pose proof (CW x Hx (d x / k) (Rdiv_lt_0_compat _ _ Pdx Pk)) as C. pose proof (R2 x Hx) as (R1 & _). pose proof (sp_range x) as Sr. pose proof (sp_Nnn x) as N. pose proof (Rle_abs (spW x)) as A1.
    pose proof (LV x Hx) as (_ & LU). pose proof (E1 x Hx) as E1x. unfold L'. set (n := spN x) in *. set (y := spY x) in *. set (r := 1 - y * y) in *. set (z := 1 - y) in *. set (D := d x) in *.
    assert (A2 : D * spW x <= D * D * n / (2 * k) + k * r / 2).
    { replace (D * D * n / (2 * k) + k * r / 2) with (D * ((D / k * n + r / (D / k)) / 2)) by (field; split; lra). apply Rmult_le_compat_l; lra. }
    assert (A3 : y * n <= n) by (assert (y <= 1) by lra; nra).
    assert (E1n : ep * (n + D * D * n / (2 * k)) <= D * n / 2).
    { replace (ep * (n + D * D * n / (2 * k))) with (ep * (2 * k + D * D) * (n / (2 * k))) by (field; lra). replace (D * n / 2) with (D * k * (n / (2 * k))) by (field; lra). apply Rmult_le_compat_r; [|exact E1x].
      apply Rmult_le_pos; [exact N|left; apply Rinv_0_lt_compat; lra]. }
    apply Rle_trans with (- (d1 / 2 * n) - ep * (k * (dl * z)) / 2).
    - assert (B1 : ep * (D * spW x) <= ep * (D * D * n / (2 * k) + k * r / 2)) by (apply Rmult_le_compat_l; lra). assert (B2 : ep * (y * n) <= ep * n) by (apply Rmult_le_compat_l; lra).
      assert (B3 : ep * (k * (dl * z)) <= ep * (k * r)) by (repeat apply Rmult_le_compat_l; try lra). assert (B4 : d1 * n <= D * n) by (apply Rmult_le_compat_r; lra). lra.
    - assert (Dl2 : dl <= 2) by (pose proof (Z x Hx) as ZZ; fold y z in ZZ; unfold z, y in *; lra).
      assert (Pw : 0 < w) by (unfold w; apply Rdiv_lt_0_compat; [apply Rmult_lt_0_compat; lra|lra]).
      assert (WL : w * L x <= w * (3 / 2 * spE x)) by (apply Rmult_le_compat_l; lra). unfold spE in WL. fold n y z in WL.
      assert (C1 : w * (3 / 2 * (n / 2 + k * z)) = ep * dl * n / 4 + ep * (k * (dl * z)) / 2) by (unfold w; field).
      assert (C2 : ep * dl * n <= d1 * n) by (apply Rmult_le_compat_r; [exact N|]; nra).
      assert (C3 : 0 <= d1 * n) by (apply Rmult_le_pos; lra). lra. }
  assert (GR : L s * exp (w * s) <= L 0 * exp (w * 0)).
  { apply (decr_ray (fun s => L s * exp (w * s)) (fun s => L' s * exp (w * s) + L s * (w * exp (w * s)))); [| |lra].
    - intros x Hx. apply (dl_mult L (fun s => exp (w * s))); [apply DLn; exact Hx|apply dlim_exp].
    - intros x Hx. pose proof (BD' x Hx) as B. pose proof (exp_pos (w * x)) as P. replace (L' x * exp (w * x) + L x * (w * exp (w * x))) with ((L' x - (- w * L x)) * exp (w * x)) by ring.
      rewrite <- (Rmult_0_l (exp (w * x))). apply Rmult_le_compat_r; lra. }
  rewrite Rmult_0_r, exp_0, Rmult_1_r in GR. pose proof (LV s Hs) as (L1 & _). pose proof (LV 0 ltac:(lra)) as (_ & L2).
  assert (LS : L s <= L 0 * exp (- w * s)).
  { apply Rmult_le_reg_r with (exp (w * s)); [apply exp_pos|]. rewrite Rmult_assoc, <- exp_plus. replace (- w * s + w * s) with 0 by ring. rewrite exp_0. lra. }
  pose proof (exp_pos (- w * s)) as P. assert (L0E : L 0 * exp (- w * s) <= 3 / 2 * spE 0 * exp (- w * s)) by (apply Rmult_le_compat_r; lra).
  unfold w in *. lra.
Qed.
End Sphere.

