From Verif Require Import SetPointSpec ContactRowsProofs SetPointFacts.
From Coq Require Import Lra Psatz.
Open Scope list_scope.
Open Scope R_scope.
Local Arguments sumn : simpl never.

Lemma sumn_null n f : (forall i, (i < n)%nat -> 0 <= f i) -> sumn n f <= 0 -> forall i, (i < n)%nat -> f i = 0.
Proof.
  induction n as [|n IH]; intros P Sm i Hi; [lia|].
  assert (E : sumn (S n) f = sumn n f + f n) by reflexivity.
  assert (A : 0 <= sumn n f) by (apply sumn_nonneg; auto). assert (B : 0 <= f n) by auto.
  destruct (Nat.eq_dec i n) as [->|]; [lra|]. apply IH; auto; [lra|lia].
Qed.
Lemma ls_nonneg h b W a x : (forall i, (i < mrows (hJac h))%nat -> 0 < W i) -> 0 <= leastSquares h b W a x.
Proof. intros P. unfold leastSquares. apply Rmult_le_pos; [lra|]. apply sumn_nonneg. intros i Hi. apply Rmult_le_pos; [left; auto|apply pow2_ge_0]. Qed.
Lemma met t w h b W a x : costs t w (leastSquares h b W a) -> 0 < w -> (forall i, (i < mrows (hJac h))%nat -> 0 < W i) ->
  attainable h b a -> minimises t x -> forall i, (i < mrows (hJac h))%nat -> taskAcc h b x i = a i.
Proof.
  intros C Hw HW (y & Y) M i Hi. specialize (M y). specialize (C x y).
  assert (Z : leastSquares h b W a y = 0).
  { unfold leastSquares. rewrite sumn_0; [ring|]. intros j Hj. rewrite Y by auto. ring. }
  assert (L : leastSquares h b W a x <= 0) by nra.
  unfold leastSquares in L.
  pose proof (sumn_null (mrows (hJac h)) (fun i => W i * (taskAcc h b x i - a i) ^ 2)) as N. cbv beta in N.
  assert (K : W i * (taskAcc h b x i - a i) ^ 2 = 0).
  { apply N; auto; [|lra]. intros j Hj. apply Rmult_le_pos; [left; auto|apply pow2_ge_0]. }
  pose proof (HW i Hi). apply Rmult_integral in K as [K|K]; [lra|]. assert (taskAcc h b x i - a i = 0); [|lra].
  destruct (Req_dec (taskAcc h b x i - a i) 0); auto. exfalso. apply (pow_nonzero _ 2) in H0. auto.
Qed.

(** ** Analysis *)
Lemma const_int f T : (forall s, 0 <= s <= T -> derivable_pt_lim f s 0) -> forall s, 0 <= s <= T -> f s = f 0.
Proof.
  intros D s Hs. destruct (Req_dec s 0) as [->|N]; auto.
  destruct (MVT_cor2 f (fun _ => 0) 0 s) as (c & E & _); [lra|intros; apply D; lra|lra].
Qed.
Lemma dlim_eq f g s l l' : derivable_pt_lim f s l -> (forall u, f u = g u) -> l = l' -> derivable_pt_lim g s l'.
Proof. intros D E <- eps He. destruct (D eps He) as (d & H). exists d. intros u. rewrite <- !E. apply H. Qed.
Lemma dlim_exp w s : derivable_pt_lim (fun s => exp (w * s)) s (w * exp (w * s)).
Proof.
  eapply dlim_eq; [apply (derivable_pt_lim_comp (fun s => w * s) exp s w (exp (w * s)))| |].
  - eapply dlim_eq; [apply (derivable_pt_lim_scal id w s 1); apply derivable_pt_lim_id| |]; [reflexivity|ring].
  - apply derivable_pt_lim_exp.
  - reflexivity.
  - ring.
Qed.
Section Critical.
Variables (w : R) (e v : R -> R).
Hypothesis Hw : 0 < w.
Hypothesis De : forall s, 0 <= s -> derivable_pt_lim e s (- v s).
Hypothesis Dv : forall s, 0 <= s -> derivable_pt_lim v s (w * w * e s - 2 * w * v s).
Lemma crit_g s : 0 <= s -> (w * e s - v s) * exp (w * s) = w * e 0 - v 0.
Proof.
  intros Hs. pose proof (const_int (fun s => (w * e s - v s) * exp (w * s)) s) as K. cbv beta in K.
  rewrite K; [rewrite Rmult_0_r, exp_0; ring| |lra]. intros u Hu.
  eapply dlim_eq; [apply (derivable_pt_lim_mult (fun s => w * e s - v s) (fun s => exp (w * s)) u (w * - v u - (w * w * e u - 2 * w * v u)) (w * exp (w * u)))| |].
  - apply (derivable_pt_lim_minus (fun s => w * e s) v u); [apply (derivable_pt_lim_scal e w u); apply De; lra|apply Dv; lra].
  - apply dlim_exp.
  - reflexivity.
  - cbv beta. ring.
Qed.
Lemma crit_form s : 0 <= s -> e s = (e 0 + (w * e 0 - v 0) * s) * exp (- w * s).
Proof.
  intros Hs. pose proof (const_int (fun s => e s * exp (w * s) - (w * e 0 - v 0) * s) s) as K. cbv beta in K.
  assert (E : e s * exp (w * s) - (w * e 0 - v 0) * s = e 0).
  { rewrite K; [rewrite Rmult_0_r, exp_0; ring| |lra]. intros u Hu.
    eapply dlim_eq; [apply (derivable_pt_lim_minus (fun s => e s * exp (w * s)) (fun s => (w * e 0 - v 0) * s) u (- v u * exp (w * u) + e u * (w * exp (w * u))) (w * e 0 - v 0))| |].
    - apply (derivable_pt_lim_mult e (fun s => exp (w * s))); [apply De; lra|apply dlim_exp].
    - eapply dlim_eq; [apply (derivable_pt_lim_scal id (w * e 0 - v 0) u 1); apply derivable_pt_lim_id|reflexivity|ring].
    - reflexivity.
    - rewrite <- (crit_g u) by lra. ring. }
  assert (X : exp (w * s) * exp (- w * s) = 1) by (rewrite <- exp_plus; replace (w * s + - w * s) with 0 by ring; apply exp_0).
  replace (e 0 + (w * e 0 - v 0) * s) with (e s * exp (w * s)) by lra. rewrite Rmult_assoc, X. ring.
Qed.
Lemma crit_limit eps : 0 < eps -> exists T, forall s, T <= s -> Rabs (e s) < eps.
Proof.
  intros He. set (A := e 0). set (B := w * e 0 - v 0). set (M := Rabs A + 2 * Rabs B / w).
  assert (Pa : 0 <= Rabs A) by apply Rabs_pos. assert (Pb : 0 <= Rabs B) by apply Rabs_pos.
  assert (Pm : 0 <= M). { unfold M. apply Rplus_le_le_0_compat; auto. apply Rmult_le_pos; [lra|]. left. apply Rinv_0_lt_compat. auto. }
  exists (2 * M / (w * eps)). intros s Hs.
  assert (Wp : 0 < w * eps) by (apply Rmult_lt_0_compat; auto).
  assert (Hs' : 2 * M <= s * (w * eps)).
  { replace (2 * M) with (2 * M / (w * eps) * (w * eps)) by (field; lra). apply Rmult_le_compat_r; lra. }
  assert (S0 : 0 <= s). { apply Rle_trans with (2 * M / (w * eps)); auto. apply Rmult_le_pos; [lra|]. left. apply Rinv_0_lt_compat. auto. }
  set (y := 1 + w * s / 2). assert (Wy : 0 <= w * s) by (apply Rmult_le_pos; lra). assert (Y1 : 1 <= y) by (unfold y; lra).
  assert (Y2 : y <= exp (w * s / 2)) by (unfold y; apply exp_ineq1_le).
  rewrite crit_form by auto. fold A B. rewrite Rabs_mult, (Rabs_pos_eq (exp _)) by (left; apply exp_pos).
  assert (E : exp (w * s / 2) * exp (w * s / 2) * exp (- w * s) = 1).
  { rewrite <- !exp_plus. replace (w * s / 2 + w * s / 2 + - w * s) with 0 by field. apply exp_0. }
  assert (Q : Rabs (A + B * s) <= M * y).
  { apply Rle_trans with (Rabs A + Rabs B * s).
    - eapply Rle_trans; [apply Rabs_triang|]. rewrite Rabs_mult, (Rabs_pos_eq s) by auto. lra.
    - unfold M, y. replace ((Rabs A + 2 * Rabs B / w) * (1 + w * s / 2)) with (Rabs A + Rabs B * s + (Rabs A * (w * s) / 2 + 2 * (Rabs B / w))) by (field; lra).
      assert (0 <= Rabs A * (w * s)) by (apply Rmult_le_pos; auto).
      assert (0 <= Rabs B / w) by (apply Rmult_le_pos; [auto|left; apply Rinv_0_lt_compat; auto]). lra. }
  set (E1 := exp (w * s / 2)) in *. set (E2 := exp (- w * s)) in *. assert (P2 : 0 < E2) by apply exp_pos.
  assert (F : y * y * E2 <= 1). { rewrite <- E. apply Rmult_le_compat_r; [lra|]. apply Rmult_le_compat; lra. }
  (* |e| y <= M (y y E2) <= M < eps y *)
  assert (G : Rabs (A + B * s) * E2 * y <= M).
  { apply Rle_trans with (M * y * E2 * y); [|].
    - apply Rmult_le_compat_r; [lra|]. apply Rmult_le_compat_r; lra.
    - replace (M * y * E2 * y) with (M * (y * y * E2)) by ring. rewrite <- (Rmult_1_r M) at 2. apply Rmult_le_compat_l; auto. }
  assert (H : M < eps * y) by (unfold y; lra).
  apply Rmult_lt_reg_r with y; [lra|]. eapply Rle_lt_trans; [exact G|exact H].
Qed.
Lemma crit_once s1 s2 : 0 <= s1 < s2 -> e s1 = 0 -> e s2 = 0 -> forall s, 0 <= s -> e s = 0.
Proof.
  intros O Z1 Z2 s Hs. rewrite crit_form in Z1, Z2 by lra. rewrite crit_form by auto.
  apply Rmult_integral in Z1 as [Z1|Z1]; [|pose proof (exp_pos (- w * s1)); lra].
  apply Rmult_integral in Z2 as [Z2|Z2]; [|pose proof (exp_pos (- w * s2)); lra].
  set (B := w * e 0 - v 0) in *. assert (B * (s2 - s1) = 0) by lra. apply Rmult_integral in H as [H|H]; [|lra].
  rewrite H in *. replace (e 0) with 0 by lra. ring.
Qed.
End Critical.

Lemma converges_lemma mbs r k0 W0 w0 ops t0 t h x i k b W :
  newSP mbs r k0 W0 w0 = Ok t0 -> spRun ops t0 = Ok t ->
  k = latest spGiveK k0 ops -> b = latest (spGiveBegin r) 0%nat ops -> W = latest spGiveW W0 ops ->
  0 < k -> 0 < latest spGiveWeight w0 ops -> (forall j, (j < vlen W)%nat -> 0 < vget W j) -> (i < vlen W)%nat ->
  (forall s, 0 <= s -> exists t', spUpdate (h s) t = Ok t' /\ minimises (commonTask (spC t')) (x s) /\
     attainable (h s) b (fun j => k * vget (hErr (h s)) j - 2 * sqrt k * vget (hSpeed (h s)) j)) ->
  (forall s, 0 <= s -> derivable_pt_lim (fun s => vget (hErr (h s)) i) s (- vget (hSpeed (h s)) i)) ->
  (forall s, 0 <= s -> derivable_pt_lim (fun s => vget (hSpeed (h s)) i) s (taskAcc (h s) b (x s) i)) ->
  let e s := vget (hErr (h s)) i in
  (forall s, 0 <= s -> e s = (e 0 + (sqrt k * e 0 - vget (hSpeed (h 0)) i) * s) * exp (- sqrt k * s)) /\
  (forall eps, 0 < eps -> exists T, forall s, T <= s -> Rabs (e s) < eps) /\
  (forall s1 s2, 0 <= s1 < s2 -> e s1 = 0 -> e s2 = 0 -> forall s, 0 <= s -> e s = 0).
Proof.
  intros N Rn Ek Eb EW Hk Hw HW Hi U De Dv e.
  assert (Sq : sqrt k * sqrt k = k) by (apply sqrt_sqrt; lra). assert (Sp : 0 < sqrt k) by (apply sqrt_lt_R0; auto).
  assert (Dv' : forall s, 0 <= s -> derivable_pt_lim (fun s => vget (hSpeed (h s)) i) s (sqrt k * sqrt k * e s - 2 * sqrt k * vget (hSpeed (h s)) i)).
  { intros s Hs. eapply dlim_eq; [apply Dv; auto|reflexivity|]. destruct (U s Hs) as (t' & Up & M & At).
    pose proof (setpoint_lemma _ _ _ _ _ _ _ _ _ _ N Rn Up) as C. rewrite <- Ek, <- Eb, <- EW in C.
    assert (L : vlen W = mrows (hJac (h s))).
    { apply newSP_Ok in N as (G & _ & _ & C1 & _). apply spRun_Ok in Rn as (_ & _ & _ & B1 & _); auto.
      apply spUpdate_Ok in Up as (_ & _ & e' & Up & _). apply commonQC_Ok in Up as (_ & _ & _ & _ & _ & L & _).
      rewrite EW, <- C1, <- B1. auto. }
    rewrite L in *. rewrite (met _ _ _ _ _ _ _ C Hw HW At M i Hi). rewrite Sq. auto. }
  split; [|split].
  - intros s Hs. apply (crit_form (sqrt k) e (fun s => vget (hSpeed (h s)) i)); auto.
  - apply (crit_limit (sqrt k) e (fun s => vget (hSpeed (h s)) i)); auto.
  - intros s1 s2. apply (crit_once (sqrt k) e (fun s => vget (hSpeed (h s)) i)); auto.
Qed.
