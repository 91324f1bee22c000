(** Lemmas: the energy of several tasks that share a robot driven by the solver. *)
From Verif Require Export EnergySpec CompatFacts ContactFrames.
From Verif Require Import SetPointFacts SetPointLoop PostureFacts PostureLoop KinTaskFacts KinVecFacts.
From Coq Require Import Lra Lia Psatz.
Open Scope list_scope.
Open Scope R_scope.
Local Arguments sumn : simpl never.

Lemma id_row n c (J : nat -> R) (z : nat -> R) b : (c < n)%nat -> (forall j, J j = if Nat.eqb c j then 1 else 0) -> sumn n (fun j => J j * z (b + j)%nat) = z (b + c)%nat.
Proof.
  intros Hc HJ. rewrite (sumn_delta n c); [rewrite HJ, Nat.eqb_refl; ring|exact Hc|].
  intros j Hj Hn. rewrite HJ. replace (Nat.eqb c j) with false; [ring|]. symmetry. apply Nat.eqb_neq. auto.
Qed.
Lemma sumn_one n f i : (forall i, (i < n)%nat -> 0 <= f i) -> (i < n)%nat -> f i <= sumn n f.
Proof.
  intros P H. eapply Rle_trans; [|apply (sumn_le n (fun j => if Nat.eqb j i then f j else 0))].
  - rewrite (sumn_delta n i); [rewrite Nat.eqb_refl; lra|exact H|]. intros j Hj Hn. apply Nat.eqb_neq in Hn. rewrite Hn. reflexivity.
  - intros j Hj. pose proof (P j Hj). destruct (Nat.eqb j i); lra.
Qed.
Definition dvAsks (g : drive) (s : R) (i : nat) : R := dvK g i * dvErr g s i - dvD g i * dvSpeed g s i.
Lemma drive_costs s g tk : driveTask s g tk -> costs tk (dvWeight g) (leastSquares (dvOut g s) (dvBegin g) (dvDim g) (dvAsks g s)).
Proof.
  intros [mbs r k0 W0 w0 ops t0 t t' N Rn U -> E1 E2 E3 E4 E5|mbs r dim gp0 gv0 W0 w0 ops t0 t t' N Rn U -> RV RA E1 E2 E3 E4 E5|
    mbs r mb q0 k0 w0 ops t0 t K t' Hm ND Pl N Rn U Sh -> Ho RV RA R1 C1 J1 NA AS RT E1 E2 E5] x y.
  - rewrite (setpoint_lemma _ _ _ _ _ _ _ _ _ _ N Rn U x y), E1, E5. unfold leastSquares. f_equal. f_equal; f_equal; apply sumn_ext; intros i Hi; unfold dvAsks; rewrite E2, E3, E4; reflexivity.
  - rewrite (trajectory_lemma _ _ _ _ _ _ _ _ _ _ _ _ N Rn U x y), E1, E5. unfold leastSquares. f_equal. f_equal; f_equal; apply sumn_ext; intros i Hi; unfold dvAsks; rewrite E2, E3, E4, RV, RA; unfold dvErr, dvSpeed; f_equal; f_equal; ring.
  - destruct (posture_lemma _ _ _ _ _ _ _ _ _ _ _ Hm ND Pl N Rn U Sh Ho) as (a & (A0 & A1) & C). rewrite (C x y), E1, E5.
    assert (AE : forall c, (c < nrDof mb)%nat -> a c = dvAsks g s c).
    { intros c Hc. unfold dvAsks. destruct (dofs_cover mb c Hc) as (i & j & k & Hj & Hk & ->). destruct i as [|i].
      - rewrite (A0 (jointPosInDof mb 0 + k)%nat).
        + destruct (RT (jointPosInDof mb 0 + k)%nat) as (-> & ->); [|ring]. destruct (joints mb) as [|j0 js] eqn:EJ; [discriminate Hj|]. rewrite (pos1 mb j0 js EJ). injection Hj as ->. exact Hk.
        + destruct (joints mb) as [|j0 js] eqn:EJ; [discriminate Hj|]. rewrite (pos1 mb j0 js EJ). injection Hj as ->. exact Hk.
      - rewrite (A1 i j k Hj Hk). destruct (AS i j k Hj Hk) as (-> & -> & -> & ->). unfold askedAcc. rewrite RV, RA. ring. }
    unfold postureCost, leastSquares. rewrite R1. f_equal.
    assert (TA : forall z c, (c < nrDof mb)%nat -> taskAcc (dvOut g s) (latest (poGiveBegin r) 0%nat ops) z c = z (latest (poGiveBegin r) 0%nat ops + c)%nat).
    { intros z c Hc. unfold taskAcc. rewrite C1, NA, Rplus_0_r. apply (id_row (nrDof mb) c (fun j => mget (hJac (dvOut g s)) c j) z (latest (poGiveBegin r) 0%nat ops) Hc). intros j. apply J1. }
    f_equal; f_equal; apply sumn_ext; intros c Hc; rewrite TA, AE, E2 by exact Hc; reflexivity.
Qed.

(** Along a line, a least-squares cost. *)
Definition along (h : hlOut) (b : nat) (p : nat -> R) (i : nat) : R := sumn (mcols (hJac h)) (fun j => mget (hJac h) i j * p (b + j)%nat).
Lemma taskAcc_along h b x p e i : taskAcc h b (fun j => x j + e * p j) i = taskAcc h b x i + e * along h b p i.
Proof.
  unfold taskAcc, along. rewrite <- sumn_scal.
  rewrite (sumn_ext _ _ (fun j => mget (hJac h) i j * x (b + j)%nat + e * (mget (hJac h) i j * p (b + j)%nat))) by (intros; ring). rewrite sumn_plus. ring.
Qed.
Lemma ls_along h b W a x p e : leastSquares h b W a (fun j => x j + e * p j) - leastSquares h b W a x =
  e * sumn (mrows (hJac h)) (fun i => W i * ((taskAcc h b x i - a i) * along h b p i)) + e * e * (/ 2 * sumn (mrows (hJac h)) (fun i => W i * along h b p i ^ 2)).
Proof.
  unfold leastSquares. rewrite <- !sumn_scal. rewrite <- sumn_plus.
  replace (sumn (mrows (hJac h)) (fun i => / 2 * (W i * (taskAcc h b (fun j => x j + e * p j) i - a i) ^ 2)) - sumn (mrows (hJac h)) (fun i => / 2 * (W i * (taskAcc h b x i - a i) ^ 2)))
    with (sumn (mrows (hJac h)) (fun i => / 2 * (W i * (taskAcc h b (fun j => x j + e * p j) i - a i) ^ 2) + - (/ 2 * (W i * (taskAcc h b x i - a i) ^ 2)))).
  - apply sumn_ext. intros i Hi. rewrite taskAcc_along. field.
  - rewrite sumn_plus. rewrite sumn_opp. ring.
Qed.
Lemma stationary A B e0 : 0 < e0 -> (forall e, Rabs e <= e0 -> 0 <= e * A + e * e * B) -> A = 0.
Proof.
  intros P H. destruct (Req_dec A 0) as [|NZ]; [auto|exfalso].
  set (m := Rabs A / (Rabs B + 1)). assert (PB : 0 <= Rabs B) by apply Rabs_pos. assert (PA : 0 < Rabs A) by (apply Rabs_pos_lt; auto).
  assert (Pm : 0 < m) by (apply Rdiv_lt_0_compat; lra). set (e := Rmin e0 m). assert (Pe : 0 < e) by (apply Rmin_glb_lt; auto).
  assert (Le : e <= e0) by apply Rmin_l. assert (Lm : e <= m) by apply Rmin_r.
  assert (K : e * (Rabs B + 1) <= Rabs A) by (replace (Rabs A) with (m * (Rabs B + 1)) by (unfold m; field; lra); apply Rmult_le_compat_r; lra).
  assert (BB : B <= Rabs B) by apply Rle_abs.
  destruct (Rcase_abs A) as [NA|NA].
  - rewrite (Rabs_left A NA) in *. specialize (H e). rewrite Rabs_right in H by lra. specialize (H Le). nra.
  - rewrite (Rabs_right A NA) in *. specialize (H (- e)). rewrite Rabs_left in H by lra. specialize (H ltac:(lra)). nra.
Qed.

Section Energy.
Variables (mbs : list multibody) (uni : list unilateral) (bi : list bilateral) (n : nat) (reg : nat -> bool) (gs : list (nat * drive)) (x p : R -> nat -> R).
Hypotheses (Wm : Forall wfMimic mbs) (NZ : nonzeroMimics mbs) (DL : drivesLoop mbs uni bi n reg gs x p).
Hypothesis Mv : Forall (fun g => moving g x p) gs.
Hypothesis Rg : forall i, (i < n)%nat -> reg i = true -> (forall s, p s i = 0) \/ (forall s, 0 <= s -> dlim (fun s => p s i) s (x s i)).

Definition work (s : R) (g : nat * drive) : R :=
  dvWeight (snd g) * sumn (fst g) (fun i => dvDim (snd g) i * ((taskAcc (dvOut (snd g) s) (dvBegin (snd g)) (x s) i - dvAsks (snd g) s i) * dvSpeed (snd g) s i)).
Definition curve (s : R) (g : nat * drive) : R := dvWeight (snd g) * (/ 2 * sumn (fst g) (fun i => dvDim (snd g) i * dvSpeed (snd g) s i ^ 2)).
Lemma sumR_lin {A} (f g h : A -> R) e l : (forall a, In a l -> f a = e * g a + e * e * h a) -> sumR (map f l) = e * sumR (map g l) + e * e * sumR (map h l).
Proof. induction l as [|a l IH]; intros H; cbn [map sumR]; [ring|]. rewrite H by (left; reflexivity). rewrite IH by (intros; apply H; right; auto). ring. Qed.
Lemma tasks_along s (ts : list task) e : 0 <= s -> Forall (fun g => moving g x p) gs ->
  Forall2 (fun g tk => dvRows (snd g) s = fst g /\ driveTask s (snd g) tk /\ wfTask n tk) gs ts ->
  tasksCost ts (fun j => x s j + e * p s j) - tasksCost ts (x s) = e * sumR (map (work s) gs) + e * e * sumR (map (curve s) gs).
Proof.
  intros Hs M F. unfold tasksCost. clear - Hs M F. induction F as [|g tk gs ts (RW & DT & WF) F IH]; cbn [map sumR]; [ring|].
  inversion M as [|g' gs' MG MR]; subst. specialize (IH MR).
  pose proof (drive_costs s (snd g) tk DT (fun j => x s j + e * p s j) (x s)) as C. rewrite ls_along in C. unfold dvRows in RW. rewrite RW in C.
  assert (AE : forall i, (i < fst g)%nat -> along (dvOut (snd g) s) (dvBegin (snd g)) (p s) i = dvSpeed (snd g) s i).
  { intros i Hi. symmetry. apply (MG s i Hs Hi). }
  assert (W1 : dvWeight (snd g) * sumn (fst g) (fun i => dvDim (snd g) i * ((taskAcc (dvOut (snd g) s) (dvBegin (snd g)) (x s) i - dvAsks (snd g) s i) * along (dvOut (snd g) s) (dvBegin (snd g)) (p s) i)) = work s g).
  { unfold work. f_equal. apply sumn_ext. intros i Hi. rewrite AE by exact Hi. reflexivity. }
  assert (W2 : dvWeight (snd g) * (/ 2 * sumn (fst g) (fun i => dvDim (snd g) i * along (dvOut (snd g) s) (dvBegin (snd g)) (p s) i ^ 2)) = curve s g).
  { unfold curve. f_equal. f_equal. apply sumn_ext. intros i Hi. rewrite AE by exact Hi. reflexivity. }
  rewrite Rmult_plus_distr_l in C. rewrite <- W1, <- W2. lra.
Qed.
Lemma balanced s : 0 <= s -> sumR (map (work s) gs) + sumn n (fun i => if reg i then / 10000 * (x s i * p s i) else 0) = 0.
Proof.
  intros Hs. destruct (DL s Hs) as (q & hp & xv & SB & En & F & RE & X & (e0 & P0 & RM)).
  destruct SB as (lssol & kinds & pre & post & num & ms & ms' & H & Hc & Ct & WB & DB & SV).
  destruct (optimal_lemma _ _ _ _ _ _ _ _ _ _ _ _ _ _ H Wm NZ Hc Ct WB DB SV) as (_ & _ & _ & O). rewrite En in O. set (ts := rgTasks (collect q hp)) in *.
  assert (EX : forall y, (forall i, (i < n)%nat -> y i = vget xv i + 0) -> objective n ts y = objective n ts (vget xv)).
  { intros y Hy. unfold objective, tasksCost, regCost. f_equal.
    - f_equal. apply map_ext_in. intros t Ht. apply (taskCost_ext n).
      + clear - F Ht. induction F as [|g tk gs' ts' (_ & _ & W) F IH]; [destruct Ht|]. destruct Ht as [<-|Ht]; auto.
      + intros i Hi. rewrite Hy by exact Hi. ring.
    - apply sumn_ext. intros i Hi. rewrite Hy by exact Hi. destruct (Rlt_dec _ _); ring. }
  assert (EX2 : forall e, objective n ts (fun i => vget xv i + e * p s i) = objective n ts (fun i => x s i + e * p s i)).
  { intros e. unfold objective, tasksCost, regCost. f_equal.
    - f_equal. apply map_ext_in. intros t Ht. apply (taskCost_ext n).
      + clear - F Ht. induction F as [|g tk gs' ts' (_ & _ & W) F IH]; [destruct Ht|]. destruct Ht as [<-|Ht]; auto.
      + intros i Hi. rewrite X by exact Hi. reflexivity.
    - apply sumn_ext. intros i Hi. rewrite X by exact Hi. reflexivity. }
  apply (stationary _ (sumR (map (curve s) gs) + sumn n (fun i => if reg i then / 10000 / 2 * (p s i * p s i) else 0)) e0 P0).
  intros e He. destruct (RM e He) as (FE & ME). specialize (O _ FE ME). rewrite EX2 in O.
  rewrite <- (EX (x s)) in O by (intros; rewrite X by auto; ring).
  pose proof (tasks_along s ts e Hs Mv F) as TA. unfold objective in O.
  assert (RA : regCost n ts (fun i => x s i + e * p s i) - regCost n ts (x s) = e * sumn n (fun i => if reg i then / 10000 * (x s i * p s i) else 0) + e * e * sumn n (fun i => if reg i then / 10000 / 2 * (p s i * p s i) else 0)).
  { unfold regCost. rewrite <- !sumn_scal, <- sumn_plus.
    assert (SB : forall f g, sumn n f - sumn n g = sumn n (fun i => f i + - g i)) by (intros; rewrite sumn_plus, sumn_opp; ring). rewrite SB. apply sumn_ext. intros i Hi.
    specialize (RE i Hi). destruct (Rlt_dec _ _) as [L|L].
    - replace (reg i) with true by (symmetry; apply RE; exact L). field.
    - replace (reg i) with false; [ring|]. destruct (reg i); [|reflexivity]. exfalso. apply L, RE. reflexivity. }
  lra.
Qed.
Lemma stored_rate g s : moving g x p -> 0 <= s -> dlim (stored (fst g) (snd g)) s (work s g - lost (fst g) (snd g) s).
Proof.
  intros M Hs. unfold stored. eapply dl_eq.
  - apply dl_mult; [apply dl_const|]. apply (dl_sumn (fst g) (fun s i => dvDim (snd g) i * ((dvSpeed (snd g) s i ^ 2 + dvK (snd g) i * dvErr (snd g) s i ^ 2) / 2)) s
      (fun i => dvDim (snd g) i * (taskAcc (dvOut (snd g) s) (dvBegin (snd g)) (x s) i * dvSpeed (snd g) s i - dvK (snd g) i * dvErr (snd g) s i * dvSpeed (snd g) s i))).
    intros i Hi. destruct (M s i Hs Hi) as (_ & DE & DS).
    eapply dl_eq; [eapply dl_ext; [|apply dl_mult; [apply (dl_const (dvDim (snd g) i / 2))|apply dl_plus; [apply dl_mult; [exact DS|exact DS]|apply dl_mult; [apply (dl_const (dvK (snd g) i))|apply dl_mult; [exact DE|exact DE]]]]]|cbv beta; field].
    intros u. cbv beta. field.
  - unfold work, lost. rewrite Rmult_0_l, Rplus_0_l. rewrite <- Rmult_minus_distr_l. f_equal.
    assert (SB : forall m f g, sumn m f - sumn m g = sumn m (fun i => f i + - g i)) by (intros; rewrite sumn_plus, sumn_opp; ring). rewrite SB. apply sumn_ext. intros i Hi. unfold dvAsks. ring.
Qed.
Lemma energy_rate s : 0 <= s -> dlim (totalEnergy n reg gs p) s (- totalLost gs s).
Proof.
  intros Hs. unfold totalEnergy. eapply dl_eq.
  - apply dl_plus.
    + assert (L : forall l, Forall (fun g => moving g x p) l -> dlim (fun s => sumR (map (fun g => stored (fst g) (snd g) s) l)) s (sumR (map (work s) l) - sumR (map (fun g => lost (fst g) (snd g) s) l))).
      { induction 1 as [|g l M F IH]; cbn [map sumR].
        - eapply dl_eq; [apply dl_const|ring].
        - eapply dl_eq; [apply dl_plus; [apply stored_rate; auto|exact IH]|ring]. }
      apply L. exact Mv.
    + apply (dl_sumn n (fun s i => if reg i then / 10000 / 2 * (p s i * p s i) else 0) s (fun i => if reg i then / 10000 * (x s i * p s i) else 0)).
      intros i Hi. destruct (reg i) eqn:E; [|apply dl_const]. destruct (Rg i Hi E) as [Z|D].
      * rewrite (Z s). eapply dl_eq; [eapply dl_ext; [|apply (dl_const 0)]|ring]. intros u. cbv beta. rewrite Z. ring.
      * eapply dl_eq; [apply dl_mult; [apply dl_const|apply dl_mult; [apply D; exact Hs|apply D; exact Hs]]|cbv beta; field].
  - pose proof (balanced s Hs) as B. unfold totalLost. lra.
Qed.
Hypothesis Pos : Forall (fun g => 0 <= dvWeight (snd g) /\ forall i, (i < fst g)%nat -> 0 <= dvDim (snd g) i /\ 0 <= dvK (snd g) i /\ 0 <= dvD (snd g) i) gs.
Lemma lost_nonneg s : 0 <= totalLost gs s.
Proof.
  unfold totalLost. clear - Pos. induction gs as [|g l IH]; cbn [map sumR]; [lra|]. inversion Pos as [|g' l' (Hw & H) F]; subst. specialize (IH F).
  assert (0 <= lost (fst g) (snd g) s); [|lra]. apply Rmult_le_pos; [exact Hw|]. apply sumn_nonneg. intros i Hi. destruct (H i Hi) as (A & B & C). apply Rmult_le_pos; [exact A|]. apply Rmult_le_pos; [exact C|apply pow2_ge_0].
Qed.
Lemma energy_decreases s u : 0 <= s <= u -> totalEnergy n reg gs p u <= totalEnergy n reg gs p s.
Proof. apply (decr_ray _ (fun s => - totalLost gs s)); [apply energy_rate|]. intros v Hv. pose proof (lost_nonneg v). lra. Qed.
Lemma stored_nonneg g s : In g gs -> 0 <= stored (fst g) (snd g) s.
Proof.
  intros Hg. rewrite Forall_forall in Pos. destruct (Pos g Hg) as (Hw & H). apply Rmult_le_pos; [exact Hw|]. apply sumn_nonneg. intros i Hi. destruct (H i Hi) as (A & B & C).
  apply Rmult_le_pos; [exact A|]. pose proof (pow2_ge_0 (dvSpeed (snd g) s i)). pose proof (Rmult_le_pos _ _ B (pow2_ge_0 (dvErr (snd g) s i))). lra.
Qed.
Lemma sumR_one {A} (f : A -> R) l a : (forall a, In a l -> 0 <= f a) -> In a l -> f a <= sumR (map f l).
Proof.
  induction l as [|b l IH]; intros P H; [destruct H|]. cbn [map sumR]. assert (PL : 0 <= sumR (map f l)).
  { clear - P. assert (Q : forall a, In a l -> 0 <= f a) by (intros; apply P; right; auto). clear P. induction l as [|c l IH]; cbn [map sumR]; [lra|]. pose proof (Q c (or_introl eq_refl)). assert (0 <= sumR (map f l)) by (apply IH; intros; apply Q; right; auto). lra. }
  destruct H as [->|H]; [lra|]. pose proof (P b (or_introl eq_refl)). pose proof (IH (fun a Ha => P a (or_intror Ha)) H). lra.
Qed.
(** Every coordinate of every error stays below what the energy at the start allows. *)
Lemma error_bounded g i s : In g gs -> (i < fst g)%nat -> 0 <= s ->
  dvWeight (snd g) * dvDim (snd g) i * dvK (snd g) i * dvErr (snd g) s i ^ 2 / 2 <= totalEnergy n reg gs p 0.
Proof.
  intros Hg Hi Hs. eapply Rle_trans; [|apply (energy_decreases 0 s); lra].
  assert (S1 : stored (fst g) (snd g) s <= sumR (map (fun g => stored (fst g) (snd g) s) gs)) by (apply (sumR_one (fun g => stored (fst g) (snd g) s)); [intros; apply stored_nonneg; auto|exact Hg]).
  assert (S2 : 0 <= sumn n (fun i => if reg i then / 10000 / 2 * (p s i * p s i) else 0)).
  { apply sumn_nonneg. intros j Hj. destruct (reg j); [|lra]. pose proof (Rle_0_sqr (p s j)) as Q. unfold Rsqr in Q. lra. }
  unfold totalEnergy. rewrite Forall_forall in Pos. destruct (Pos g Hg) as (Hw & H). destruct (H i Hi) as (A & B & C).
  assert (S3 : dvDim (snd g) i * ((dvSpeed (snd g) s i ^ 2 + dvK (snd g) i * dvErr (snd g) s i ^ 2) / 2) <= sumn (fst g) (fun i => dvDim (snd g) i * ((dvSpeed (snd g) s i ^ 2 + dvK (snd g) i * dvErr (snd g) s i ^ 2) / 2))).
  { apply (sumn_one (fst g) (fun i => dvDim (snd g) i * ((dvSpeed (snd g) s i ^ 2 + dvK (snd g) i * dvErr (snd g) s i ^ 2) / 2))); [|exact Hi]. intros j Hj. destruct (H j Hj) as (A' & B' & _).
    apply Rmult_le_pos; [exact A'|]. pose proof (pow2_ge_0 (dvSpeed (snd g) s j)). pose proof (Rmult_le_pos _ _ B' (pow2_ge_0 (dvErr (snd g) s j))). lra. }
  assert (S4 : dvWeight (snd g) * (dvDim (snd g) i * (dvK (snd g) i * dvErr (snd g) s i ^ 2 / 2)) <= stored (fst g) (snd g) s).
  { unfold stored. apply Rmult_le_compat_l; [exact Hw|]. eapply Rle_trans; [|exact S3]. apply Rmult_le_compat_l; [exact A|]. pose proof (pow2_ge_0 (dvSpeed (snd g) s i)). lra. }
  lra.
Qed.
End Energy.

(** ** Constraints that leave room *)
Definition soon (P : R -> Prop) : Prop := exists e0, 0 < e0 /\ forall e, Rabs e <= e0 -> P e.
Lemma soon_and (P Q : R -> Prop) : soon P -> soon Q -> soon (fun e => P e /\ Q e).
Proof.
  intros (a & Ha & A) (b & Hb & B). exists (Rmin a b). split; [apply Rmin_glb_lt; auto|]. intros e He.
  split; [apply A; eapply Rle_trans; [exact He|apply Rmin_l]|apply B; eapply Rle_trans; [exact He|apply Rmin_r]].
Qed.
Lemma soon_all (P : R -> Prop) : (forall e, P e) -> soon P.
Proof. intros H. exists 1. split; [lra|auto]. Qed.
Lemma soon_impl (P Q : R -> Prop) : (forall e, P e -> Q e) -> soon P -> soon Q.
Proof. intros H (a & Ha & A). exists a. split; auto. Qed.
Lemma soon_lt k (P : nat -> R -> Prop) : (forall i, (i < k)%nat -> soon (P i)) -> soon (fun e => forall i, (i < k)%nat -> P i e).
Proof.
  induction k as [|k IH]; intros H; [apply soon_all; intros; lia|].
  apply (soon_impl (fun e => (forall i, (i < k)%nat -> P i e) /\ P k e)).
  - intros e (A & B) i Hi. destruct (Nat.eq_dec i k) as [->|]; [exact B|apply A; lia].
  - apply soon_and; [apply IH; intros; apply H; lia|apply H; lia].
Qed.
Lemma soon_Forall {A} (P : A -> R -> Prop) l : Forall (fun a => soon (P a)) l -> soon (fun e => Forall (fun a => P a e) l).
Proof.
  induction 1 as [|a l H F IH]; [apply soon_all; constructor|]. apply (soon_impl (fun e => P a e /\ Forall (fun a => P a e) l)); [intros e (X & Y); constructor; auto|apply soon_and; auto].
Qed.
Lemma row_along n (a x p : nat -> R) e : sumn n (fun j => a j * (x j + e * p j)) = sumn n (fun j => a j * x j) + e * sumn n (fun j => a j * p j).
Proof. rewrite <- sumn_scal, <- sumn_plus. apply sumn_ext. intros. ring. Qed.
Lemma soon_small v d : 0 < d -> soon (fun e => - d <= e * v <= d).
Proof.
  intros P. exists (d / (Rabs v + 1)). pose proof (Rabs_pos v) as V. split; [apply Rdiv_lt_0_compat; lra|]. intros e He.
  assert (K : Rabs (e * v) <= d).
  { rewrite Rabs_mult. apply Rle_trans with (d / (Rabs v + 1) * Rabs v); [apply Rmult_le_compat_r; auto|]. replace d with (d / (Rabs v + 1) * (Rabs v + 1)) at 2 by (field; lra).
    apply Rmult_le_compat_l; [|lra]. apply Rlt_le, Rdiv_lt_0_compat; lra. }
  pose proof (Rle_abs (e * v)). pose proof (Rle_abs (- (e * v))) as K2. rewrite Rabs_Ropp in K2. lra.
Qed.
Lemma ele_up a b u : ele (Fin b) u -> a <= b -> ele (Fin a) u.
Proof. destruct u; cbn; auto. intros. lra. Qed.
Lemma ele_down a b u : ele u (Fin b) -> b <= a -> ele u (Fin a).
Proof. destruct u; cbn; auto. intros. lra. Qed.
Lemma mimicked_along mbs d x p e : mimicked mbs d x -> mimicked mbs d p -> mimicked mbs d (fun i => x i + e * p i).
Proof. intros X P r mb il ir m b H1 H2 H3. rewrite (X _ _ _ _ _ _ H1 H2 H3), (P _ _ _ _ _ _ H1 H2 H3). ring. Qed.
Lemma Forall_both {A} (P Q S : A -> Prop) l : (forall a, P a -> Q a -> S a) -> Forall P l -> Forall Q l -> Forall S l.
Proof. intros H F G. induction F; inversion G; subst; constructor; auto. Qed.
Lemma calm_room mbs d n g x p : feasible n g x -> mimicked mbs d x -> mimicked mbs d p -> Forall wfBound (rgBound g) -> calm n g x p -> room mbs d n g x p.
Proof.
  intros ((FE & FI & FG) & FB) MX MP WB (CE & CI & CG & CB). cbv zeta in *.
  assert (S : soon (fun e => feasible n g (fun i => x i + e * p i))).
  { unfold feasible, linFeasible. repeat apply soon_and.
    - apply soon_Forall. eapply Forall_both; [|exact FE|exact CE]. intros c F C. apply soon_all. intros e i Hi. rewrite row_along, C, F by exact Hi. ring.
    - apply soon_Forall. eapply Forall_both; [|exact FI|exact CI]. intros c F C. apply soon_lt. intros i Hi. destruct (C i Hi) as [Z|(dd & Pd & B)].
      + apply soon_all. intros e. rewrite row_along, Z, Rmult_0_r, Rplus_0_r. apply F. exact Hi.
      + eapply soon_impl; [|apply (soon_small (sumn n (fun j => mget (iqA c) i j * p j)) dd Pd)]. intros e He. rewrite row_along. eapply ele_up; [exact B|lra].
    - apply soon_Forall. eapply Forall_both; [|exact FG|exact CG]. intros c F C. apply soon_lt. intros i Hi. destruct (C i Hi) as [Z|(dd & Pd & B1 & B2)].
      + apply soon_all. intros e. rewrite row_along, Z, Rmult_0_r, Rplus_0_r. apply F. exact Hi.
      + eapply soon_impl; [|apply (soon_small (sumn n (fun j => mget (giA c) i j * p j)) dd Pd)]. intros e He. rewrite row_along. split; [eapply ele_down; [exact B1|lra]|eapply ele_up; [exact B2|lra]].
    - apply soon_Forall. rewrite Forall_forall in FB, CB, WB |- *. intros b Hb. specialize (FB b Hb). specialize (CB b Hb). specialize (WB b Hb).
      apply (soon_impl (fun e => forall i, (i < vlen (bdL b))%nat -> ele (vget (bdL b) i) (Fin (x (bdBegin b + i)%nat + e * p (bdBegin b + i)%nat)) /\ ele (Fin (x (bdBegin b + i)%nat + e * p (bdBegin b + i)%nat)) (vget (bdU b) i))).
      { intros e He i. split; intros Hi; [|rewrite <- WB in Hi]; apply (He i Hi). }
      apply soon_lt. intros i Hi. destruct (CB i Hi) as [Z|(dd & Pd & B1 & B2)].
      + apply soon_all. intros e. rewrite Z, Rmult_0_r, Rplus_0_r. destruct (FB i) as (L & U). split; [apply L|apply U]; [|rewrite <- WB]; exact Hi.
      + eapply soon_impl; [|apply (soon_small (p (bdBegin b + i)%nat) dd Pd)]. intros e He. cbv beta. split; [eapply ele_down; [exact B1|lra]|eapply ele_up; [exact B2|lra]]. }
  destruct S as (e0 & P0 & H). exists e0. split; [exact P0|]. intros e He. split; [apply H; exact He|apply mimicked_along; auto].
Qed.

(** ** The kinematic tasks *)
Lemma tracks_moving m mb U H w W k d b x p : yields m mb U H ->
  (forall s, 0 <= s -> exists H' al, yields m mb U H' /\ (forall j, al s j = p s (b + j)%nat) /\ speedIsJac m H' al s /\ errorRate 0 m H' s /\ speedRate 0 m H' (fun s j => x s (b + j)%nat) s) ->
  moving (m, mkDrive w W k d b H) x p.
Proof.
  intros Y R s i Hs Hi. cbn [fst snd dvOut dvBegin] in *. unfold dvSpeed, dvErr. cbn [dvOut].
  destruct (R s Hs) as (H' & al & Y' & AL & SJ & ER & SR). pose proof (yields_same _ _ _ _ _ Y Y') as E. rewrite !E. split; [|split].
  - rewrite <- (SJ i Hi). apply sumn_ext. intros j Hj. rewrite AL. reflexivity.
  - refine (dl_ext _ _ _ _ _ (ER i _)); [|lia]. intros u. cbv beta. rewrite E. reflexivity.
  - refine (dl_eq _ _ _ _ (dl_ext _ _ _ _ _ (SR i _)) _); [|lia|reflexivity]. intros u. cbv beta. rewrite E. reflexivity.
Qed.
Lemma position_moving mb path pos bp ops K jm w W k d b x p : wfPath mb path -> sized 3 mb jm -> latest posGivePoint bp ops = bp ->
  (forall s, 0 <= s -> movesAt mb path K (fun s j => p s (b + j)%nat) (fun s j => x s (b + j)%nat) s) ->
  exists H, yields 3 mb (fun s => posUpdate mb (fold_left posStep ops (posInit pos bp path)) (K s) (jm s)) H /\
    (forall s i, (i < 3)%nat -> vget (hErr (H s)) i = e3 (latest posGivePos pos ops) i - e3 (worldPoint bp (K s)) i) /\
    moving (3%nat, mkDrive w W k d b H) x p.
Proof.
  intros Wf Sz PT Mv. destruct (position_tracks mb path pos bp ops K _ _ 0 jm Wf Sz (Mv 0 (Rle_refl 0))) as (H & Y & HE & _). exists H. split; [exact Y|]. split; [exact HE|].
  eapply tracks_moving; [exact Y|]. intros s Hs. destruct (position_tracks mb path pos bp ops K _ _ s jm Wf Sz (Mv s Hs)) as (H' & Y' & _ & _ & SJ & SR & ER).
  exists H', (fun s j => p s (b + j)%nat). split; [exact Y'|]. split; [reflexivity|]. split; [exact SJ|]. split; [exact (ER PT)|exact SR].
Qed.
Lemma vector_moving mb path v target K jm w W k d b x p : wfPath mb path -> sized 3 mb jm ->
  (forall s, 0 <= s -> movesAt mb path K (fun s j => p s (b + j)%nat) (fun s j => x s (b + j)%nat) s) ->
  exists H, yields 3 mb (fun s => vecOriUpdate mb path v target (K s) (jm s)) H /\
    (forall s i, (i < 3)%nat -> vget (hErr (H s)) i = e3 target i - e3 (m3mulv (m3tr (ptE (bkPos (K s)))) v) i) /\
    moving (3%nat, mkDrive w W k d b H) x p.
Proof.
  intros Wf Sz Mv. destruct (vector_tracks mb path v target K _ _ 0 jm Wf Sz (Mv 0 (Rle_refl 0))) as (H & Y & HE & _). exists H. split; [exact Y|]. split; [exact HE|].
  eapply tracks_moving; [exact Y|]. intros s Hs. destruct (vector_tracks mb path v target K _ _ s jm Wf Sz (Mv s Hs)) as (H' & Y' & _ & SJ & ER & SR).
  exists H', (fun s j => p s (b + j)%nat). split; [exact Y'|]. split; [reflexivity|]. split; [exact SJ|]. split; [exact ER|exact SR].
Qed.
