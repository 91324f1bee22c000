(** Lemmas: a VectorOrientationTask in closed loop. *)
From Verif Require Export VecLoopSpec VecLoopFacts.
From Verif Require Import KinTaskFacts KinVecFacts KinLoop SetPointFacts SetPointLoop KinFacts ContactProofs.
From Coq Require Import Lra Lia Psatz FunctionalExtensionality.
Open Scope list_scope.
Open Scope R_scope.
Local Arguments sumn : simpl never.

Lemma rot_dot E v : rotation E -> dot (m3mulv (m3tr E) v) (m3mulv (m3tr E) v) = dot v v.
Proof.
  intros Rt. rewrite <- (rotation_mulT E v Rt) at 3. set (w := m3mulv (m3tr E) v). rewrite <- (rotation_mulT E v Rt). fold w. 
  assert (F : dot (m3mulv E w) (m3mulv E w) = dot w (m3mulv (m3tr E) (m3mulv E w))) by (unfold dot, m3mulv, m3tr, dot; cbn; ring).
  rewrite F, (rotation_Tmul E w Rt). reflexivity.
Qed.
Lemma e3_ext a c : (forall i, (i < 3)%nat -> e3 a i = e3 c i) -> a = c.
Proof. intros H. apply V3_ext; [exact (H 0%nat ltac:(lia))|exact (H 1%nat ltac:(lia))|exact (H 2%nat ltac:(lia))]. Qed.
Definition tov3 (f : nat -> R) : V3 := mkV3 (f 0%nat) (f 1%nat) (f 2%nat).
Lemma tov3_dot f (a : V3) : dot (tov3 f) a = sumn 3 (fun i => f i * e3 a i).
Proof. unfold sumn. cbn. unfold dot. cbn. ring. Qed.
Lemma tov3_e3 f i : (i < 3)%nat -> e3 (tov3 f) i = f i.
Proof. intros Hi. destruct i as [|[|[|]]]; [reflexivity|reflexivity|reflexivity|lia]. Qed.

Section VecLoop.
Variables (mb : multibody) (path : list nat) (bv target : V3) (K : R -> bodyKin) (jm : R -> mat) (H : R -> hlOut) (x p : R -> nat -> R) (b : nat).
Hypotheses (Wf : wfPath mb path) (Sz : sized 3 mb jm) (Nb : dot bv bv = 1) (Nt : dot target target = 1).
Hypothesis Mv : forall s, 0 <= s -> movesAt mb path K (fun s j => p s (b + j)%nat) (fun s j => x s (b + j)%nat) s.
Hypothesis Y : yields 3 mb (fun s => vecOriUpdate mb path bv target (K s) (jm s)) H.

Definition vlV (s : R) : V3 := tov3 (vget (hSpeed (H s))).
Definition vlA (s : R) : V3 := tov3 (taskAcc (H s) b (x s)).
Lemma vl_moving w W k d : (forall s i, (i < 3)%nat -> vget (hErr (H s)) i = e3 target i - e3 (pointing bv (K s)) i) /\ moving (3%nat, mkDrive w W k d b H) x p.
Proof.
  destruct (vector_moving mb path bv target K jm w W k d b x p Wf Sz Mv) as (H' & Y' & HE & M).
  assert (HH : H = H') by (apply functional_extensionality; intros s; apply (yields_same _ _ _ _ _ Y Y')). rewrite HH. split; [exact HE|exact M].
Qed.
Lemma vl_unit s : dot (pointing bv (K s)) (pointing bv (K s)) = 1.
Proof. unfold pointing. rewrite rot_dot; [exact Nb|]. exact (mvRigid _ _ _ _ _ _ (Mv 0 (Rle_refl 0)) s). Qed.
Lemma vl_du s : 0 <= s -> dV (fun s => pointing bv (K s)) s (vlV s).
Proof.
  intros Hs. destruct (vl_moving 1 (fun _ => 1) (fun _ => 1) (fun _ => 1)) as (HE & M).
  assert (D : forall i, (i < 3)%nat -> dlim (fun s => e3 (pointing bv (K s)) i) s (e3 (vlV s) i)).
  { intros i Hi. destruct (M s i Hs Hi) as (_ & De & _). unfold dvErr, dvSpeed in De. cbn [snd dvOut] in De. unfold vlV. rewrite tov3_e3 by exact Hi.
    eapply dl_eq; [eapply dl_ext; [|apply dl_minus; [apply (dl_const (e3 target i))|exact De]]|ring]. intros u. cbv beta. rewrite HE by exact Hi. ring. }
  repeat split; [exact (D 0%nat ltac:(lia))|exact (D 1%nat ltac:(lia))|exact (D 2%nat ltac:(lia))].
Qed.
Lemma vl_dv s : 0 <= s -> dV vlV s (vlA s).
Proof.
  intros Hs. destruct (vl_moving 1 (fun _ => 1) (fun _ => 1) (fun _ => 1)) as (_ & M).
  assert (D : forall i, (i < 3)%nat -> dlim (fun s => e3 (vlV s) i) s (e3 (vlA s) i)).
  { intros i Hi. destruct (M s i Hs Hi) as (_ & _ & De). unfold dvSpeed in De. cbn [snd dvOut dvBegin] in De. unfold vlV, vlA. rewrite tov3_e3 by exact Hi.
    eapply dl_ext; [|exact De]. intros u. cbv beta. rewrite tov3_e3 by exact Hi. reflexivity. }
  repeat split; [exact (D 0%nat ltac:(lia))|exact (D 1%nat ltac:(lia))|exact (D 2%nat ltac:(lia))].
Qed.
Lemma vl_err s : tov3 (vget (hErr (H s))) = vsub target (pointing bv (K s)).
Proof. destruct (vl_moving 1 (fun _ => 1) (fun _ => 1) (fun _ => 1)) as (HE & _). apply e3_ext. intros i Hi. rewrite tov3_e3, HE by exact Hi. destruct i as [|[|[|]]]; [reflexivity|reflexivity|reflexivity|lia]. Qed.
Lemma vl_dist s : dot (vsub target (pointing bv (K s))) (vsub target (pointing bv (K s))) = 2 * (1 - dot target (pointing bv (K s))).
Proof. rewrite !vsub_l, !vsub_r, vl_unit, Nt, (dot_comm (pointing bv (K s)) target). ring. Qed.

(** ** The minimum *)
Section Min.
Variables (w om k d1 d2 : R) (d : R -> R).
Hypotheses (Pw : 0 < w) (Po : 0 < om) (Pk : 0 < k) (Pd1 : 0 < d1) (Bd : forall s, 0 <= s -> d1 <= d s <= d2).
Hypothesis Min : forall s, 0 <= s -> exists tk, driveTask s (mkDrive w (fun _ => om) (fun _ => k) (fun _ => d s) b H) tk /\ minimises tk (x s).
Hypothesis Can : forall s, 0 <= s -> turnsTo (H s) b (pointing bv (K s)) target.

Lemma vl_first s y tau : 0 <= s -> (forall i, (i < 3)%nat -> along (H s) b y i = e3 tau i) ->
  dot (vlA s) tau = k * dot (vsub target (pointing bv (K s))) tau - d s * dot (vlV s) tau.
Proof.
  intros Hs J. destruct (Min s Hs) as (tk & D & M). pose proof (drive_costs s _ tk D) as C. cbn [dvWeight dvOut dvBegin dvDim] in C.
  set (g := mkDrive w (fun _ => om) (fun _ => k) (fun _ => d s) b H) in *. destruct (Y s) as (_ & (Rw & _) & _).
  assert (Z : sumn 3 (fun i => om * ((taskAcc (H s) b (x s) i - dvAsks g s i) * along (H s) b y i)) = 0).
  { apply (stationary _ (/ 2 * sumn 3 (fun i => om * along (H s) b y i ^ 2)) 1); [lra|]. intros e _.
    pose proof (M (fun j => x s j + e * y j)) as Q. pose proof (C (fun j => x s j + e * y j) (x s)) as Cx. rewrite ls_along, Rw in Cx.
    apply Rmult_le_reg_l with w; [exact Pw|]. lra. }
  rewrite (sumn_ext _ _ (fun i => om * ((taskAcc (H s) b (x s) i - dvAsks g s i) * e3 tau i))) in Z by (intros i Hi; rewrite J by exact Hi; reflexivity).
  rewrite sumn_scal in Z. apply Rmult_integral in Z as [Z|Z]; [lra|].
  rewrite <- vl_err. unfold vlA, vlV. rewrite !tov3_dot. rewrite <- !sumn_scal. unfold dvAsks, dvErr, dvSpeed, g in Z. cbn [dvK dvD dvOut] in Z.
  unfold sumn in *. cbn in *. lra.
Qed.
Lemma vl_opt s tau : 0 <= s -> tau = vlV s \/ tau = vsub target (vsc (dot target (pointing bv (K s))) (pointing bv (K s))) ->
  dot (vlA s) tau = k * dot target tau - d s * dot (vlV s) tau.
Proof.
  intros Hs T. assert (T0 : dot tau (pointing bv (K s)) = 0).
  { destruct T as [->| ->]; [exact (sp_tangent (fun s => pointing bv (K s)) vlV vl_du vl_unit s Hs)|]. rewrite vsub_l, dot_vsc_l, vl_unit. ring. }
  assert (F : dot (vlA s) tau = k * dot (vsub target (pointing bv (K s))) tau - d s * dot (vlV s) tau).
  { destruct T as [->| ->].
    - apply (vl_first s (p s)); [exact Hs|]. intros i Hi. destruct (vl_moving 1 (fun _ => 1) (fun _ => 1) (fun _ => 1)) as (_ & M). destruct (M s i Hs Hi) as (E & _).
      unfold dvSpeed in E. cbn [snd dvOut dvBegin] in E. unfold along. rewrite <- E. unfold vlV. rewrite tov3_e3 by exact Hi. reflexivity.
    - destruct (Can s Hs) as (y & Cy). apply (vl_first s y); [exact Hs|]. exact Cy. }
  rewrite F, vsub_l, (dot_comm (pointing bv (K s)) tau), T0. ring.
Qed.
Lemma vl_converges v : dV (fun s => pointing bv (K s)) 0 v -> let e0 := swing k v target (pointing bv (K 0)) in e0 < 2 * k ->
  forall s, 0 <= s -> dot (vsub target (pointing bv (K s))) (vsub target (pointing bv (K s))) <= 6 * e0 / k * exp (- swingRate k d1 d2 e0 * s).
Proof.
  intros Dv e0 L s Hs. assert (EV : v = vlV 0).
  { pose proof (vl_du 0 (Rle_refl 0)) as (A1 & A2 & A3). destruct Dv as (B1 & B2 & B3). apply V3_ext; eapply dl_unique; eauto. }
  assert (E0 : spE (fun s => pointing bv (K s)) vlV target k 0 = e0) by (unfold spE, spN, spY, e0, swing; rewrite EV; reflexivity).
  pose proof (sp_converges (fun s => pointing bv (K s)) vlV vlA target k d1 d2 d Pk Pd1 Bd vl_du vl_dv vl_unit Nt vl_opt s) as C. rewrite E0 in C. specialize (C L Hs).
  rewrite vl_dist. pose proof (sp_Nnn vlV s) as Nn. unfold spE, spY in C. unfold spEps in C. fold (swingRate k d1 d2 e0) in C.
  apply Rmult_le_reg_l with (k / 2); [lra|]. replace (k / 2 * (6 * e0 / k * exp (- swingRate k d1 d2 e0 * s))) with (3 * e0 * exp (- swingRate k d1 d2 e0 * s)) by (field; lra). lra.
Qed.
End Min.

(** ** What the task asks for is never attained *)
Lemma vl_attained k : 0 < k -> (forall s i, 0 <= s -> (i < 3)%nat -> taskAcc (H s) b (x s) i = k * vget (hErr (H s)) i - 2 * sqrt k * vget (hSpeed (H s)) i) ->
  forall s, 0 <= s -> pointing bv (K s) = target.
Proof.
  intros Pk At. set (c := sqrt k). assert (Pc : 0 < c) by (apply sqrt_lt_R0; exact Pk). assert (Cc : c * c = k) by (apply sqrt_sqrt; lra).
  set (u := fun s => pointing bv (K s)). set (N := spN vlV). set (Yy := spY u target). set (W := spW vlV target).
  assert (AA : forall s, 0 <= s -> forall tau, dot (vlA s) tau = k * (dot target tau - dot (u s) tau) - 2 * c * dot (vlV s) tau).
  { intros s Hs tau. unfold u. replace (dot target tau - dot (pointing bv (K s)) tau) with (dot (vsub target (pointing bv (K s))) tau) by (rewrite vsub_l; reflexivity). rewrite <- vl_err. unfold vlA, vlV. rewrite !tov3_dot. rewrite <- !sumn_scal.
    unfold sumn. cbn [fold_right]. cbn. rewrite !At by (auto; lia). fold c. ring. }
  assert (Tg : forall s, 0 <= s -> dot (vlV s) (u s) = 0) by (intros s Hs; exact (sp_tangent u vlV vl_du vl_unit s Hs)).
  assert (Rd : forall s, 0 <= s -> dot (vlA s) (u s) = - N s) by (intros s Hs; exact (sp_radial u vlV vlA vl_du vl_dv vl_unit s Hs)).
  assert (NY : forall s, 0 <= s -> N s = k * (1 - Yy s)).
  { intros s Hs. pose proof (AA s Hs (u s)) as E. rewrite Rd, Tg in E by exact Hs. unfold u in E at 2 3. rewrite vl_unit in E. unfold Yy, spY. fold (u s) in *. lra. }
  assert (dY : forall s, 0 <= s -> dlim Yy s (W s)) by (intros s Hs; exact (sp_dY u vlV target vl_du s Hs)).
  assert (dN : forall s, 0 <= s -> dlim N s (2 * (k * W s - 2 * c * N s))).
  { intros s Hs. eapply dl_eq; [apply dl_dot; [apply vl_dv; exact Hs|apply vl_dv; exact Hs]|]. rewrite (dot_comm (vlV s) (vlA s)), (AA s Hs), (dot_comm (u s)), Tg by exact Hs. unfold N, W, spN, spW. ring. }
  assert (WN : forall s, 0 <= s -> W s = 4 * N s / (3 * c)).
  { intros s Hs. assert (Z : 2 * (k * W s - 2 * c * N s) - k * (0 - W s) = 0).
    { apply (right_zero (fun s => N s - k * (1 - Yy s)) s); [exact Hs|intros q Hq; rewrite NY by exact Hq; ring|]. eapply dl_eq; [apply dl_minus; [apply dN; exact Hs|apply dl_mult; [apply dl_const|apply dl_minus; [apply dl_const|apply dY; exact Hs]]]|cbv beta; ring]. }
    apply Rmult_eq_reg_l with (3 * k); [|lra]. replace (3 * k * (4 * N s / (3 * c))) with (4 * c * N s) by (rewrite <- Cc; field; lra). lra. }
  assert (N0 : forall s, 0 <= s -> N s = 0).
  { intros s Hs. assert (dW : dlim W s (k * (1 - Yy s) - 2 * c * W s)).
    { eapply dl_eq; [apply dl_dot; [apply dV_const|apply vl_dv; exact Hs]|]. cbv beta. rewrite (dot_comm target (vlA s)), (AA s Hs), Nt, (dot_comm (u s) target), (dot_comm (vlV s) target). unfold Yy, W, spY, spW. unfold v0, dot. cbn. ring. }
    assert (Z : k * (1 - Yy s) - 2 * c * W s - 4 / (3 * c) * (2 * (k * W s - 2 * c * N s)) = 0).
    { apply (right_zero (fun s => W s - 4 / (3 * c) * N s) s); [exact Hs|intros q Hq; rewrite WN by exact Hq; field; lra|]. eapply dl_eq; [apply dl_minus; [exact dW|apply dl_mult; [apply dl_const|apply dN; exact Hs]]|cbv beta; ring]. }
    rewrite <- NY in Z by exact Hs. rewrite WN in Z by exact Hs. rewrite <- Cc in Z.
    assert (Z' : N s / 9 = 0) by (rewrite <- Z; field; lra). lra. }
  intros s Hs. pose proof (NY s Hs) as E. rewrite N0 in E by exact Hs. symmetry in E. apply Rmult_integral in E as [E|E]; [lra|].
  pose proof (vl_dist s) as D. fold (u s) in *. unfold Yy, spY in E. fold (u s) in E. rewrite E in D.
  assert (S : vsub target (u s) = v0). { revert D. generalize (vsub target (u s)). intros [a1 a2 a3]. unfold dot. cbn. intros D. pose proof (Rle_0_sqr a1) as Q1. pose proof (Rle_0_sqr a2) as Q2. pose proof (Rle_0_sqr a3) as Q3. unfold Rsqr in *.
    unfold v0. f_equal; apply Rsqr_0_uniq; unfold Rsqr; lra. }
  change (u s = target). revert S. generalize (u s). intros us S. apply V3_ext; [apply (f_equal vx) in S|apply (f_equal vy) in S|apply (f_equal vz) in S]; unfold vsub, v0 in S; cbn in S; lra.
Qed.
End VecLoop.
Lemma swingRate_pos k d1 d2 e0 : 0 < k -> 0 < d1 -> 0 < d2 -> e0 < 2 * k -> 0 < swingRate k d1 d2 e0.
Proof.
  intros A B C D. unfold swingRate. assert (e0 / k < 2) by (apply Rmult_lt_reg_r with k; [exact A|]; unfold Rdiv; rewrite Rmult_assoc, Rinv_l by lra; lra).
  apply Rdiv_lt_0_compat; [|lra]. apply Rmult_lt_0_compat; [|lra]. apply Rdiv_lt_0_compat; nra.
Qed.
