(** Concrete motions for the properties of OrientationTrackingTask. *)
From Verif Require Export TrackFacts TrackSpec KinWitness.
From Coq Require Import Lra Lia Ratan.
Open Scope string_scope.
Open Scope list_scope.
Open Scope R_scope.
Local Arguments sumn : simpl never.

(** The rotation of a onto b by Rodrigues' formula. *)
Definition rodrigues (a b : V3) : M3 :=
  let n := cross a b in let c := dot a b in let h := / (1 + c) in
  mkM3 (mkV3 (c + h * (vx n * vx n)) (- vz n + h * (vx n * vy n)) (vy n + h * (vx n * vz n)))
       (mkV3 (vz n + h * (vy n * vx n)) (c + h * (vy n * vy n)) (- vx n + h * (vy n * vz n)))
       (mkV3 (- vy n + h * (vz n * vx n)) (vx n + h * (vz n * vy n)) (c + h * (vz n * vz n))).
Lemma rodrigues_mulv a b v : m3mulv (rodrigues a b) v = vadd (vsc (dot a b) v) (vadd (cross (cross a b) v) (vsc (/ (1 + dot a b) * dot (cross a b) v) (cross a b))).
Proof. unfold rodrigues, m3mulv, vadd, vsc. generalize (/ (1 + dot a b)) (dot a b) (cross a b). intros h c n. unfold cross, dot; simpl. f_equal; ring. Qed.
Lemma rodrigues_isTurn : isTurn rodrigues.
Proof.
  split.
  - intros u a x U A P X. apply m3_ext_v. intros v. rewrite rodrigues_mulv. rewrite !axis_tr, !axis_mulv, cos_neg, sin_neg, Ropp_involutive. rewrite P.
    set (b := vadd (vsc (cos x) a) (vadd (vsc (sin x) (cross u a)) (vsc ((1 - cos x) * 0) u))).
    assert (A2 := unit2 a A).
    assert (D : dot a b = cos x).
    { unfold b. transitivity (cos x * (vx a * vx a + vy a * vy a + vz a * vz a) + (1 - cos x) * 0 * dot u a); [|rewrite A2; ring]. unfold vadd, vsc, cross, dot; simpl. ring. }
    assert (N : cross a b = vsc (sin x) u).
    { transitivity (vsub (vsc (sin x * (vx a * vx a + vy a * vy a + vz a * vz a)) u) (vsc (sin x * dot u a) a)); [|rewrite A2, P; v3c].
      unfold b. clear. unfold vadd, vsub, vsc, cross, dot; simpl. f_equal; ring. }
    rewrite D, N. assert (C : 0 < 1 + cos x).
    { pose proof (COS_bound x) as (L & _). destruct L as [L|L]; [lra|]. exfalso. pose proof (cos_decreasing_1 x PI ltac:(lra) ltac:(lra) ltac:(lra) ltac:(lra) ltac:(lra)) as Q. rewrite cos_PI in Q. lra. }
    assert (S : / (1 + cos x) * (sin x * sin x) = 1 - cos x).
    { pose proof (sin2_cos2 x) as Q. unfold Rsqr in Q. replace (sin x * sin x) with ((1 - cos x) * (1 + cos x)) by lra. field. lra. }
    rewrite dot_vsc_l. rewrite <- S. generalize (/ (1 + cos x)). intros h. unfold vadd, vsc, cross, dot; simpl. f_equal; ring.
  - intros a A. assert (A2 := unit2 a A). apply m3_ext_v. intros v. rewrite rodrigues_mulv.
    replace (cross a a) with v0 by v3c. replace (dot a a) with 1 by (unfold dot; lra). unfold vadd, vsc, cross, dot, v0, m3id, m3mulv; simpl. unfold dot; simpl. f_equal; ring.
Qed.

(** A body mounted upside down (a half turn about x) on a joint that turns at the speed w. *)
Definition tFlip : M3 := mkM3 (mkV3 1 0 0) (mkV3 0 (-1) 0) (mkV3 0 0 (-1)).
Definition tRev (w s : R) : bodyKin := mkBK (mkPT (m3mul tFlip (RotZ (kQ w 0 s))) v0) (mkSp (mkV3 0 0 (- w)) v0) sp0 (fun _ => mkSp (mkV3 0 0 (-1)) v0).
Lemma tFlip_rotation : rotation tFlip.
Proof.
  replace tFlip with (RotX PI); [apply RotX_rotation|]. unfold RotX, tFlip. rewrite cos_PI, sin_PI, Ropp_0. reflexivity.
Qed.
Lemma tRev_moves w t : movesAt kMb [0%nat] (tRev w) (kAl w 0) (kAld 0) t.
Proof.
  apply moves_of; unfold tRev; cbn [bkPos bkVelB bkNAccB bkCol ptE ptr ang linr].
  - intros s. unfold rigid; cbn. apply rotation_mul; [exact tFlip_rotation|apply RotZ_rotation].
  - apply Spatial_ext; apply V3_ext; cbn; unfold kAl; ring.
  - eapply dM_eq; [apply (dM_mul (fun _ => tFlip)); [apply dM_const|exact (rotZ_rate w 0 t)]|].
    generalize (RotZ (kQ w 0 t)). intros Z. unfold m3add, m3mul, m3neg, skewm, tFlip, v0, m3mulv, m3tr, dot; simpl. f_equal; unfold vadd, vneg; simpl; f_equal; ring.
  - eapply dV_eq; [apply dV_const|]. unfold m3mulv, dot, v0; cbn. f_equal; ring.
  - unfold jsp, spsum, kAld; simpl. repeat split; cbn; (eapply dl_eq; [apply dl_const|cbn; ring]).
Qed.
Definition yhat : V3 := mkV3 0 1 0.
Definition zhat : V3 := mkV3 0 0 1.
Lemma tInit path bp ba tp : path = [0%nat] -> otInit kMb path bp ba ["q"] tp = Ok (mkOT (pt_trans bp) ba [] tp path).
Proof. intros ->. reflexivity. Qed.
Lemma unit_self v : norm2 v = 1 -> unitOf v = v.
Proof. intros H. unfold unitOf, norm. rewrite H, sqrt_1, Rinv_1. destruct v; unfold vsc; simpl. f_equal; ring. Qed.
Lemma target_y K : (forall s : R, ptr (bkPos (K s)) = v0) -> forall s, targetDir v0 yhat (K s) = yhat.
Proof.
  intros P s. unfold targetDir. rewrite P. replace (vsub yhat (vadd v0 (m3mulv (m3tr (ptE (bkPos (K s)))) v0))) with yhat.
  - apply unit_self. unfold norm2, dot, yhat; simpl. ring.
  - unfold yhat, vsub, vadd, v0, m3mulv, dot; simpl. f_equal; ring.
Qed.
Lemma tRev_E w : ptE (bkPos (tRev w 0)) = tFlip.
Proof. unfold tRev, kQ; cbn. replace (w * 0 + 0 * (0 * 0) / 2) with 0 by field. unfold RotZ. rewrite cos_0, sin_0. unfold m3mul, tFlip, m3mulv, m3tr, dot; simpl. f_equal; f_equal; ring. Qed.
Lemma kRev_E w : ptE (bkPos (kRev w 0 0)) = m3id.
Proof. unfold kRev, kQ; cbn. replace (w * 0 + 0 * (0 * 0) / 2) with 0 by field. unfold RotZ. rewrite cos_0, sin_0, Ropp_0. reflexivity. Qed.
Lemma axis_x E k : ptE (bkPos k) = E -> m3mulv (m3tr E) xhat = xhat -> axisDir xhat k = xhat.
Proof. intros H Q. unfold axisDir. rewrite H, Q. apply unit_self. unfold norm2, dot, xhat; simpl. ring. Qed.
Lemma xy : dot xhat yhat = 0 /\ cross xhat yhat = zhat /\ acos 0 = PI / 2 /\ sin (PI / 2) = 1.
Proof. split; [unfold dot, xhat, yhat; simpl; ring|]. split; [unfold cross, xhat, yhat, zhat; simpl; f_equal; ring|]. split; [apply acos_0|apply sin_PI2]. Qed.

(** Whatever FromTwoVectors and rotationVelocity are, as long as they do what their names say. *)
Theorem track_error_refuted rv ftv : isLog rv -> isTurn ftv -> exists mb path names bp ba tp T0 K al ald t, otInit mb path bp ba names tp = Ok T0 /\ wfPath mb path /\
  (forall s, movesAt mb path K al ald s) /\ (forall s, targetDir bp tp (K s) = targetDir bp tp (K t)) /\ -1 < dot (axisDir ba (K t)) (targetDir bp tp (K t)) < 1 /\
  turnRate (K t) = otEval rv ftv T0 (K t) /\ dlim (fun s => dot (axisDir ba (K s)) (targetDir bp tp (K s))) t (- (PI / 2)).
Proof.
  intros L F. destruct xy as (X1 & X2 & X3 & X4).
  exists kMb, [0%nat], ["q"], v0, xhat, yhat, (mkOT (pt_trans v0) xhat [] yhat [0%nat]), (tRev (- (PI / 2))), (kAl (- (PI / 2)) 0), (kAld 0), 0.
  assert (I : otInit kMb [0%nat] v0 xhat ["q"] yhat = Ok (mkOT (pt_trans v0) xhat [] yhat [0%nat])) by (apply tInit; reflexivity).
  assert (TY : forall s, targetDir v0 yhat (tRev (- (PI / 2)) s) = yhat) by (apply target_y; reflexivity).
  assert (AX : axisDir xhat (tRev (- (PI / 2)) 0) = xhat).
  { apply (axis_x tFlip); [apply tRev_E|]. unfold xhat, tFlip, m3mulv, m3tr, dot; simpl. f_equal; ring. }
  assert (NX : xhat <> v0) by (intros Q; injection Q; lra).
  assert (NY : yhat <> vadd (ptr (bkPos (tRev (- (PI / 2)) 0))) (m3mulv (m3tr (ptE (bkPos (tRev (- (PI / 2)) 0)))) v0)).
  { rewrite tRev_E. unfold tRev; cbn. intros Q. injection Q as Q0 Q1 Q2. unfold dot in Q1; simpl in Q1. lra. }
  pose proof (track_error rv ftv kMb [0%nat] v0 xhat ["q"] yhat _ [] (tRev (- (PI / 2))) (kAl (- (PI / 2)) 0) (kAld 0) 0 L F I (tRev_moves _ 0) NX NY) as (_ & Q).
  cbn [latest fold_left] in Q. rewrite TY, AX, X1, X2, X3, X4, tRev_E in Q. specialize (Q ltac:(lra)) as (Q & R).
  split; [exact I|]. split; [exact kWf|]. split; [exact (tRev_moves _)|]. split; [intros s; rewrite !TY; reflexivity|]. split; [rewrite TY, AX, X1; lra|].
  assert (TR : turnRate (tRev (- (PI / 2)) 0) = otEval rv ftv (mkOT (pt_trans v0) xhat [] yhat [0%nat]) (tRev (- (PI / 2)) 0)).
  { rewrite Q. unfold turnRate. rewrite tRev_E. unfold tRev, zhat, tFlip, m3mulv, m3tr, vsc, dot; simpl. f_equal; field. }
  split; [exact TR|]. destruct (R TR TY) as (D & _). eapply dl_eq; [exact D|]. unfold zhat, tFlip, m3mulv, dot; simpl. field.
Qed.
