(** MultiRobotTransformTask and RelativeDistTask: what they keep of their promises. *)
From Verif Require Import KinMultiModel KinSpec KinFacts KinTaskFacts JacProofs.
Open Scope list_scope.
Open Scope R_scope.
Local Arguments sumn : simpl never.
Local Arguments e3 : simpl never.
Local Arguments e6 : simpl never.

(** *** MultiRobotTransformTask *)
(** Rotation of the frame of the second surface, oriented like the first one. *)
Definition mrtF (X1 : PT) (k1 k2 : bodyKin) : M3 := m3mul (m3mul (ptE X1) (ptE (bkPos k1))) (m3tr (ptE (bkPos k2))).
Lemma mrt_frame X1 X2 P1 P2 : rigid X2 ->
  pt_mul (pt_rot (m3tr (ptE (pt_mul (pt_mul X2 P2) (pt_inv (pt_mul X1 P1)))))) X2 =
  mkPT (m3mul (m3mul (ptE X1) (ptE P1)) (m3tr (ptE P2))) (ptr X2).
Proof.
  intros RX. unfold pt_mul, pt_rot, pt_inv; simpl. apply PT_ext; simpl.
  - rewrite m3tr_mul, m3tr_invol, (m3tr_mul (ptE X2)), !m3mul_assoc, (rotation_tr_mul _ RX), m3mul_id_r. reflexivity.
  - rewrite m3mulv_v0. apply vadd_0_r.
Qed.
Lemma mrt_col X1 X2 P1 k2 c : rigid X2 -> rigid (bkPos k2) ->
  rbdColX (pt_mul (pt_rot (m3tr (ptE (pt_mul (pt_mul X2 (bkPos k2)) (pt_inv (pt_mul X1 P1)))))) (pt_mul X2 (bkPos k2))) k2 c =
  pt_mulM (mkPT (m3mul (m3mul (ptE X1) (ptE P1)) (m3tr (ptE (bkPos k2)))) (ptr X2)) (bkCol k2 c).
Proof.
  intros RX RK. rewrite <- (mrt_frame X1 X2 P1 (bkPos k2) RX). rewrite <- colX by exact RK. f_equal.
  set (E := m3tr _). clearbody E. apply PT_ext; unfold pt_mul, pt_rot; simpl.
  - rewrite !m3mul_assoc. reflexivity.
  - rewrite !m3mulv_v0, !vadd_0_r. reflexivity.
Qed.
Lemma neg_mul A B : m3mul (m3neg A) B = m3neg (m3mul A B).
Proof. destruct A as [[] [] []], B as [[] [] []]; apply M3_ext; v3c. Qed.
Lemma mul_neg A B : m3mul A (m3neg B) = m3neg (m3mul A B).
Proof. destruct A as [[] [] []], B as [[] [] []]; apply M3_ext; v3c. Qed.
Lemma mrt_rate_alg (w1 f : V3) F : m3add (m3neg (m3mul (skewm w1) F)) (m3mul (skewm f) F) = m3mul (skewm (vsub f w1)) F.
Proof. destruct w1, f, F as [[] [] []]. apply M3_ext; unfold skewm; v3c. Qed.
Lemma add_zero_l A B : m3add (m3mul (mkM3 v0 v0 v0) A) B = B.
Proof. apply zero_mul. Qed.
Lemma mrt_frame_rate mb1 mb2 p1 p2 K1 K2 al1 ald1 al2 ald2 t X1 : rigid X1 -> movesAt mb1 p1 K1 al1 ald1 t -> movesAt mb2 p2 K2 al2 ald2 t ->
  dM (fun s => mrtF X1 (K1 s) (K2 s)) t
    (m3mul (skewm (vsub (m3mulv (mrtF X1 (K1 t) (K2 t)) (ang (bkVelB (K2 t)))) (m3mulv (ptE X1) (ang (bkVelB (K1 t)))))) (mrtF X1 (K1 t) (K2 t))).
Proof.
  intros RX M1 M2. pose proof M1 as [RG1 _ RT1 _ _]. pose proof M2 as [RG2 _ RT2 _ _].
  assert (D1 : dM (fun s => m3mul (ptE X1) (ptE (bkPos (K1 s)))) t
      (m3neg (m3mul (skewm (m3mulv (ptE X1) (ang (bkVelB (K1 t))))) (m3mul (ptE X1) (ptE (bkPos (K1 t))))))).
  { eapply dM_eq; [apply dM_mul; [apply dM_const|exact RT1]|]. cbv beta. rewrite zero_mul, mul_neg. f_equal.
    rewrite <- !m3mul_assoc, (skew_rot (ptE X1)) by exact RX. reflexivity. }
  assert (D2 : dM (fun s => m3tr (ptE (bkPos (K2 s)))) t (m3mul (m3tr (ptE (bkPos (K2 t)))) (skewm (ang (bkVelB (K2 t)))))).
  { eapply dM_eq; [apply dM_tr, RT2|apply tr_rate]. }
  eapply dM_eq; [apply (dM_mul _ _ t _ _ D1 D2)|]. cbv beta. rewrite neg_mul, m3mul_assoc.
  change (m3mul (m3mul (ptE X1) (ptE (bkPos (K1 t)))) (m3tr (ptE (bkPos (K2 t))))) with (mrtF X1 (K1 t) (K2 t)).
  rewrite <- (m3mul_assoc (m3mul (ptE X1) (ptE (bkPos (K1 t))))).
  change (m3mul (m3mul (ptE X1) (ptE (bkPos (K1 t)))) (m3tr (ptE (bkPos (K2 t))))) with (mrtF X1 (K1 t) (K2 t)).
  assert (RF : rotation (mrtF X1 (K1 t) (K2 t))).
  { unfold mrtF. apply rotation_mul; [apply rotation_mul; [exact RX|apply RG1]|apply rotation_tr, RG2]. }
  rewrite (skew_rot _ _ RF). apply mrt_rate_alg.
Qed.

(** Linear part of the error: the second point seen from the first frame. *)
Lemma mrt_lin rv X1 X2 k1 k2 :
  linr (tfVelocity rv (pt_mul (pt_mul X2 (bkPos k2)) (pt_inv (pt_mul X1 (bkPos k1))))) =
  m3mulv (m3mul (ptE X1) (ptE (bkPos k1))) (vsub (worldPoint (ptr X2) k2) (worldPoint (ptr X1) k1)).
Proof.
  unfold tfVelocity, pt_mul, pt_inv; cbn [ptE ptr linr]. rewrite m3tr_invol.
  fold (worldPoint (ptr X1) k1) (worldPoint (ptr X2) k2).
  set (E := m3mul (ptE X1) (ptE (bkPos k1))). generalize (worldPoint (ptr X1) k1) (worldPoint (ptr X2) k2) E. clear. v3c.
Qed.
Lemma mrt_lin_alg X1 E1 e w v1 W2 d : rigid X1 -> rotation E1 ->
  e = m3mulv (m3mul (ptE X1) E1) d ->
  vadd (m3mulv (m3neg (m3mul (skewm (m3mulv (ptE X1) w)) (m3mul (ptE X1) E1))) d)
       (m3mulv (m3mul (ptE X1) E1) (vsub W2 (m3mulv (m3tr E1) v1))) =
  vadd (cross e (m3mulv (ptE X1) w)) (vsub (m3mulv (m3mul (ptE X1) E1) W2) (m3mulv (ptE X1) v1)).
Proof.
  intros RX RE ->.
  replace (m3mulv (m3neg (m3mul (skewm (m3mulv (ptE X1) w)) (m3mul (ptE X1) E1))) d) with
    (vneg (cross (m3mulv (ptE X1) w) (m3mulv (m3mul (ptE X1) E1) d))).
  2:{ rewrite <- skewm_mulv, <- m3mul_mulv. generalize (m3mul (skewm (m3mulv (ptE X1) w)) (m3mul (ptE X1) E1)). v3c. }
  replace (m3mulv (m3mul (ptE X1) E1) (vsub W2 (m3mulv (m3tr E1) v1))) with
    (vsub (m3mulv (m3mul (ptE X1) E1) W2) (m3mulv (ptE X1) v1)).
  2:{ rewrite <- (rotation_mulT E1 v1) at 1 by exact RE. rewrite <- m3mul_mulv. generalize (m3mul (ptE X1) E1) (m3mulv (m3tr E1) v1). v3c. }
  generalize (m3mulv (m3mul (ptE X1) E1) d) (m3mulv (ptE X1) w) (vsub (m3mulv (m3mul (ptE X1) E1) W2) (m3mulv (ptE X1) v1)). v3c.
Qed.
Lemma mrt_lin_rate rv mb1 mb2 p1 p2 K1 K2 al1 ald1 al2 ald2 t X1 X2 : rigid X1 -> movesAt mb1 p1 K1 al1 ald1 t -> movesAt mb2 p2 K2 al2 ald2 t ->
  let e s := linr (tfVelocity rv (pt_mul (pt_mul X2 (bkPos (K2 s))) (pt_inv (pt_mul X1 (bkPos (K1 s)))))) in
  dV e t (vadd (cross (e t) (ang (rbdVel X1 (K1 t)))) (vsub (linr (rbdVel (mkPT (mrtF X1 (K1 t) (K2 t)) (ptr X2)) (K2 t))) (linr (rbdVel X1 (K1 t))))).
Proof.
  intros RX M1 M2 e. pose proof M1 as [RG1 _ RT1 _ _].
  assert (D1 : dM (fun s => m3mul (ptE X1) (ptE (bkPos (K1 s)))) t
      (m3neg (m3mul (skewm (m3mulv (ptE X1) (ang (bkVelB (K1 t))))) (m3mul (ptE X1) (ptE (bkPos (K1 t))))))).
  { eapply dM_eq; [apply dM_mul; [apply dM_const|exact RT1]|]. cbv beta. rewrite zero_mul, mul_neg. f_equal.
    rewrite <- !m3mul_assoc, (skew_rot (ptE X1)) by exact RX. reflexivity. }
  eapply dV_ext; [intros s; symmetry; apply mrt_lin|].
  eapply dV_eq; [apply dV_mulv; [exact D1|apply dV_sub; [apply (worldPoint_rate _ _ _ _ _ _ _ M2)|apply (worldPoint_rate _ _ _ _ _ _ _ M1)]]|].
  cbv beta.
  change (linr (rbdVelW (ptr X1) (K1 t))) with (m3mulv (m3tr (ptE (bkPos (K1 t)))) (vsub (linr (bkVelB (K1 t))) (cross (ptr X1) (ang (bkVelB (K1 t)))))).
  rewrite (mrt_lin_alg X1 (ptE (bkPos (K1 t))) (e t) _ _ _ _ RX (RG1 t) (mrt_lin rv X1 X2 (K1 t) (K2 t))).
  f_equal. f_equal. unfold rbdVel, pt_mulM, mrtF; cbn [linr ptE ptr]. rewrite (m3mul_mulv (m3mul (ptE X1) (ptE (bkPos (K1 t))))). reflexivity.
Qed.

(** Algebra of the rows. *)
Definition mrtVerr (e V1 V2 : Spatial) : Spatial := sp_add (sp_cross e (mkSp (ang V1) v0)) (sp_add V2 (sp_neg V1)).
Definition mrtNacc (e V1 V2 A1 A2 : Spatial) : Spatial :=
  sp_neg (sp_add (sp_add (sp_cross (mrtVerr e V1 V2) (mkSp (ang V1) v0)) (sp_cross e (mkSp (ang A1) v0))) (sp_add A2 (sp_neg A1))).
Lemma mrt_alg_V e V1 V2 : sp_neg (mrtVerr e V1 V2) = sp_add (sp_neg (surfVerr e V1)) (sp_neg V2).
Proof. unfold mrtVerr, surfVerr. apply Spatial_ext; simpl; v3c. Qed.
Lemma mrt_alg_lin e V1 V2 : linr (sp_neg (mrtVerr e V1 V2)) = vneg (vadd (cross (linr e) (ang V1)) (vsub (linr V2) (linr V1))).
Proof. unfold mrtVerr; simpl. v3c. Qed.
Lemma mrt_alg_acc e V1 V2 A1 A2 J1 J2 :
  sp_add (sp_add (sp_neg (surfVerr e J1)) (sp_neg J2)) (mrtNacc e V1 V2 A1 A2) =
  sp_neg (sp_add (sp_add (sp_cross (mrtVerr e V1 V2) (mkSp (ang V1) v0)) (sp_cross e (mkSp (ang (sp_add J1 A1)) v0)))
     (sp_add (sp_add J2 A2) (sp_neg (sp_add J1 A1)))).
Proof. unfold mrtNacc, mrtVerr, surfVerr. apply Spatial_ext; simpl; v3c. Qed.
Lemma mrt_alg_acc_lin e V1 V2 A1 A2 J1 J2 :
  linr (sp_add (sp_add (sp_neg (surfVerr e J1)) (sp_neg J2)) (mrtNacc e V1 V2 A1 A2)) =
  vneg (vadd (vadd (cross (vadd (cross (linr e) (ang V1)) (vsub (linr V2) (linr V1))) (ang V1)) (cross (linr e) (ang (sp_add J1 A1))))
     (vsub (linr (sp_add J2 A2)) (linr (sp_add J1 A1)))).
Proof. unfold mrtNacc, mrtVerr, surfVerr. simpl; v3c. Qed.

(** Acceleration of the task for given accelerations of the two robots. *)
Definition mrtAcc (h : mrtOut) (x1 x2 : nat -> R) (i : nat) : R :=
  sumn (mcols (mrJac1 h)) (fun j => mget (mrJac1 h) i j * x1 j) + sumn (mcols (mrJac2 h)) (fun j => mget (mrJac2 h) i j * x2 j) + vget (mrNAcc h) i.

Lemma mrt_rates mb1 mb2 p1 p2 cols1 cols2 (ev V1 V2 A1 A2 : R -> Spatial) (al1 ald1 al2 ald2 : R -> nat -> R) t (H : R -> mrtOut) :
  (forall s, mrErr (H s) = vec6 (ev s) /\ mrSpeed (H s) = vec6 (sp_neg (mrtVerr (ev s) (V1 s) (V2 s))) /\
     mrNAcc (H s) = vec6 (mrtNacc (ev s) (V1 s) (V2 s) (A1 s) (A2 s))) ->
  (forall i x, (i < 6)%nat -> sumn (mcols (mrJac1 (H t))) (fun j => mget (mrJac1 (H t)) i j * x j) = jacDot mb1 p1 (fun c => e6 (sp_neg (surfVerr (ev t) (cols1 c))) i) x) ->
  (forall i x, (i < 6)%nat -> sumn (mcols (mrJac2 (H t))) (fun j => mget (mrJac2 (H t)) i j * x j) = jacDot mb2 p2 (fun c => e6 (sp_neg (cols2 c)) i) x) ->
  V1 t = jsp mb1 p1 cols1 (al1 t) -> V2 t = jsp mb2 p2 cols2 (al2 t) ->
  dS V1 t (sp_add (jsp mb1 p1 cols1 (ald1 t)) (A1 t)) -> dS V2 t (sp_add (jsp mb2 p2 cols2 (ald2 t)) (A2 t)) ->
  dV (fun s => linr (ev s)) t (vadd (cross (linr (ev t)) (ang (V1 t))) (vsub (linr (V2 t)) (linr (V1 t)))) ->
  (forall i, (i < 6)%nat -> sumn (mcols (mrJac1 (H t))) (fun j => mget (mrJac1 (H t)) i j * al1 t j) +
      sumn (mcols (mrJac2 (H t))) (fun j => mget (mrJac2 (H t)) i j * al2 t j) = vget (mrSpeed (H t)) i) /\
  (forall i, (3 <= i < 6)%nat -> dlim (fun s => vget (mrErr (H s)) i) t (- vget (mrSpeed (H t)) i)) /\
  (forall i, (3 <= i < 6)%nat -> dlim (fun s => vget (mrSpeed (H s)) i) t (mrtAcc (H t) (ald1 t) (ald2 t) i)) /\
  ((forall i, (i < 3)%nat -> dlim (fun s => vget (mrErr (H s)) i) t (- vget (mrSpeed (H t)) i)) ->
   forall i, (i < 3)%nat -> dlim (fun s => vget (mrSpeed (H s)) i) t (mrtAcc (H t) (ald1 t) (ald2 t) i)).
Proof.
  intros HV HJ1 HJ2 VJ1 VJ2 DV1 DV2 DE.
  assert (L1 : forall x, jsp mb1 p1 (fun c => sp_neg (surfVerr (ev t) (cols1 c))) x = sp_neg (surfVerr (ev t) (jsp mb1 p1 cols1 x))).
  { intros x. symmetry. apply (jsp_lin (fun a => sp_neg (surfVerr (ev t) a))); [apply surf_L_add|apply surf_L_sc]. }
  assert (L2 : forall x, jsp mb2 p2 (fun c => sp_neg (cols2 c)) x = sp_neg (jsp mb2 p2 cols2 x)).
  { intros x. symmetry. apply (jsp_lin sp_neg); sp. }
  assert (TJ : forall i x1 x2, (i < 6)%nat -> sumn (mcols (mrJac1 (H t))) (fun j => mget (mrJac1 (H t)) i j * x1 j) +
      sumn (mcols (mrJac2 (H t))) (fun j => mget (mrJac2 (H t)) i j * x2 j) =
      e6 (sp_add (sp_neg (surfVerr (ev t) (jsp mb1 p1 cols1 x1))) (sp_neg (jsp mb2 p2 cols2 x2))) i).
  { intros i x1 x2 Hi. rewrite HJ1, HJ2 by exact Hi. rewrite e6_add, <- L1, <- L2, !e6_jsp. reflexivity. }
  assert (TA : forall i, (i < 6)%nat -> mrtAcc (H t) (ald1 t) (ald2 t) i =
      e6 (sp_add (sp_add (sp_neg (surfVerr (ev t) (jsp mb1 p1 cols1 (ald1 t)))) (sp_neg (jsp mb2 p2 cols2 (ald2 t)))) (mrtNacc (ev t) (V1 t) (V2 t) (A1 t) (A2 t))) i).
  { intros i Hi. unfold mrtAcc. rewrite TJ by exact Hi. destruct (HV t) as (_ & _ & ->). unfold vec6; cbn [vget]. rewrite <- e6_add. reflexivity. }
  assert (ER : forall i, (3 <= i < 6)%nat -> dlim (fun s => vget (mrErr (H s)) i) t (- vget (mrSpeed (H t)) i)).
  { intros i Hi. destruct (HV t) as (_ & -> & _). unfold vec6; cbn [vget].
    apply dl_ext with (f := fun s => e3 (linr (ev s)) (i - 3)).
    - intros s. destruct (HV s) as (-> & _ & _). unfold vec6; cbn [vget]. rewrite e6_linr. f_equal. lia.
    - eapply dl_eq; [apply (dV_e3 (fun s => linr (ev s))), DE|].
      replace i with (3 + (i - 3))%nat at 2 by lia. rewrite <- e6_linr, mrt_alg_lin, e3_neg. ring. }
  split; [|split; [exact ER|split]].
  - intros i Hi. rewrite TJ by exact Hi. destruct (HV t) as (_ & -> & _). unfold vec6; cbn [vget]. rewrite mrt_alg_V, VJ1, VJ2. reflexivity.
  - intros i Hi. rewrite TA by lia.
    apply dl_ext with (f := fun s => e3 (vneg (vadd (cross (linr (ev s)) (ang (V1 s))) (vsub (linr (V2 s)) (linr (V1 s))))) (i - 3)).
    + intros s. destruct (HV s) as (_ & -> & _). unfold vec6; cbn [vget]. rewrite <- mrt_alg_lin, e6_linr. f_equal. lia.
    + destruct DV1 as (DW1 & DU1), DV2 as (DW2 & DU2).
      eapply dl_eq; [apply (dV_e3 (fun s => vneg (vadd (cross (linr (ev s)) (ang (V1 s))) (vsub (linr (V2 s)) (linr (V1 s))))));
        apply dV_neg, dV_add; [apply dV_cross; [exact DE|exact DW1]|apply dV_sub; [exact DU2|exact DU1]]|].
      replace i with (3 + (i - 3))%nat at 2 by lia. rewrite <- e6_linr, mrt_alg_acc_lin. reflexivity.
  - intros EA i Hi. rewrite TA by lia.
    assert (De : dS ev t (mrtVerr (ev t) (V1 t) (V2 t))).
    { apply dS_of_e6. intros j Hj.
      assert (X : dlim (fun s => vget (mrErr (H s)) j) t (- vget (mrSpeed (H t)) j)).
      { destruct (Nat.lt_ge_cases j 3) as [Lj|Lj]; [apply EA; lia|apply ER; lia]. }
      eapply dl_ext; [|eapply dl_eq; [exact X|]].
      - intros s. cbv beta. destruct (HV s) as (-> & _ & _). reflexivity.
      - destruct (HV t) as (_ & -> & _). unfold vec6; cbn [vget]. rewrite e6_neg. ring. }
    apply dl_ext with (f := fun s => e6 (sp_neg (mrtVerr (ev s) (V1 s) (V2 s))) i).
    + intros s. destruct (HV s) as (_ & -> & _). reflexivity.
    + rewrite mrt_alg_acc. apply (dS_e6 (fun s => sp_neg (mrtVerr (ev s) (V1 s) (V2 s)))). unfold mrtVerr at 1.
      apply dS_neg, dS_add; [|apply dS_add; [exact DV2|apply dS_neg, DV1]].
      apply (dS_cross ev (fun s => mkSp (ang (V1 s)) v0)); [exact De|]. apply (dS_mk (fun s => ang (V1 s)) (fun _ => v0)); [exact (proj1 DV1)|apply dV_const].
Qed.

Lemma mrt_alg_ang e V1 V2 : ang (sp_neg (mrtVerr e V1 V2)) = vsub (vsub (ang V1) (ang V2)) (cross (ang e) (ang V1)).
Proof. unfold mrtVerr; simpl. v3c. Qed.
Theorem multi_transform_tracks rv mb1 mb2 p1 p2 X1 X2 K1 K2 al1 ald1 al2 ald2 t f1 f2 :
  wfPath mb1 p1 -> wfPath mb2 p2 -> sized 6 mb1 f1 -> sized 6 mb2 f2 -> rigid X1 -> rigid X2 ->
  movesAt mb1 p1 K1 al1 ald1 t -> movesAt mb2 p2 K2 al2 ald2 t ->
  exists H : R -> mrtOut, (forall s, mrtUpdate rv mb1 mb2 p1 p2 X1 X2 (K1 s) (K2 s) (f1 s) (f2 s) = Ok (H s)) /\
    (forall s, mrows (mrJac1 (H s)) = 6%nat /\ mcols (mrJac1 (H s)) = nrDof mb1 /\ mrows (mrJac2 (H s)) = 6%nat /\ mcols (mrJac2 (H s)) = nrDof mb2) /\
    (forall s i, (i < 3)%nat -> vget (mrErr (H s)) (3 + i) =
       e3 (m3mulv (ptE X1) (m3mulv (ptE (bkPos (K1 s))) (vsub (worldPoint (ptr X2) (K2 s)) (worldPoint (ptr X1) (K1 s))))) i) /\
    (forall s i, (i < 3)%nat -> vget (mrErr (H s)) i = e3 (rv (m3mul (m3mul (ptE X2) (ptE (bkPos (K2 s)))) (m3tr (m3mul (ptE X1) (ptE (bkPos (K1 s))))))) i) /\
    (forall s i, (i < 3)%nat -> vget (mrSpeed (H s)) i =
       e3 (let w1 := m3mulv (ptE X1) (ang (bkVelB (K1 s))) in
           let w2 := m3mulv (ptE X1) (m3mulv (ptE (bkPos (K1 s))) (m3mulv (m3tr (ptE (bkPos (K2 s)))) (ang (bkVelB (K2 s))))) in
           vsub (vsub w1 w2) (cross (rv (m3mul (m3mul (ptE X2) (ptE (bkPos (K2 s)))) (m3tr (m3mul (ptE X1) (ptE (bkPos (K1 s))))))) w1)) i) /\
    (forall i, (i < 6)%nat -> sumn (nrDof mb1) (fun j => mget (mrJac1 (H t)) i j * al1 t j) +
        sumn (nrDof mb2) (fun j => mget (mrJac2 (H t)) i j * al2 t j) = vget (mrSpeed (H t)) i) /\
    (forall i, (3 <= i < 6)%nat -> dlim (fun s => vget (mrErr (H s)) i) t (- vget (mrSpeed (H t)) i)) /\
    (forall i, (3 <= i < 6)%nat -> dlim (fun s => vget (mrSpeed (H s)) i) t (mrtAcc (H t) (ald1 t) (ald2 t) i)) /\
    ((forall i, (i < 3)%nat -> dlim (fun s => vget (mrErr (H s)) i) t (- vget (mrSpeed (H t)) i)) ->
     forall i, (i < 3)%nat -> dlim (fun s => vget (mrSpeed (H s)) i) t (mrtAcc (H t) (ald1 t) (ald2 t) i)).
Proof.
  intros W1 W2 S1 S2 RX1 RX2 M1 M2. pose proof (mvRigid _ _ _ _ _ _ M1) as RG1. pose proof (mvRigid _ _ _ _ _ _ M2) as RG2.
  set (ev := fun s => tfVelocity rv (pt_mul (pt_mul X2 (bkPos (K2 s))) (pt_inv (pt_mul X1 (bkPos (K1 s)))))).
  set (XF := fun s => mkPT (mrtF X1 (K1 s) (K2 s)) (ptr X2)).
  set (V1 := fun s => rbdVel X1 (K1 s)). set (V2 := fun s => rbdVel (XF s) (K2 s)).
  set (A1 := fun s => rbdNAcc X1 sp0 (K1 s)).
  set (A2 := fun s => rbdNAcc (XF s) (mkSp (vsub (ang (V2 s)) (ang (V1 s))) v0) (K2 s)).
  set (U := fun s => mrtUpdate rv mb1 mb2 p1 p2 X1 X2 (K1 s) (K2 s) (f1 s) (f2 s)).
  assert (HU : forall s, exists J1 J2, U s = Ok (mkMrt (vec6 (ev s)) (vec6 (sp_neg (mrtVerr (ev s) (V1 s) (V2 s))))
       (vec6 (mrtNacc (ev s) (V1 s) (V2 s) (A1 s) (A2 s))) J1 J2) /\
     mrows J1 = 6%nat /\ mcols J1 = nrDof mb1 /\ mrows J2 = 6%nat /\ mcols J2 = nrDof mb2 /\
     (forall i x, (i < 6)%nat -> sumn (nrDof mb1) (fun j => mget J1 i j * x j) = jacDot mb1 p1 (fun c => e6 (sp_neg (surfVerr (ev s) (pt_mulM X1 (bkCol (K1 s) c)))) i) x) /\
     (forall i x, (i < 6)%nat -> sumn (nrDof mb2) (fun j => mget J2 i j * x j) = jacDot mb2 p2 (fun c => e6 (sp_neg (pt_mulM (XF s) (bkCol (K2 s) c))) i) x)).
  { intros s. destruct (S1 s) as (R1 & C1). destruct (S2 s) as (R2 & C2).
    set (c1 := fun c => rbdColX (pt_mul X1 (bkPos (K1 s))) (K1 s) c).
    destruct (fullJacobian_spec mb1 p1 (short6 (pathDof mb1 p1) (fun c => sp_add (c1 c) (sp_neg (sp_cross (ev s) (mkSp (ang (c1 c)) v0))))) (f1 s))
      as (J1 & E1 & Q1 & Q2 & _ & D1); [exact W1|simpl; lia|simpl; lia|lia|].
    set (c2 := fun c => sp_neg (rbdColX (pt_mul (pt_rot (m3tr (ptE (pt_mul (pt_mul X2 (bkPos (K2 s))) (pt_inv (pt_mul X1 (bkPos (K1 s)))))))) (pt_mul X2 (bkPos (K2 s)))) (K2 s) c)).
    destruct (fullJacobian_spec mb2 p2 (short6 (pathDof mb2 p2) c2) (f2 s))
      as (J2 & E2 & Q3 & Q4 & _ & D2); [exact W2|simpl; lia|simpl; lia|lia|].
    exists J1, J2. split; [|split; [lia|split; [lia|split; [lia|split; [lia|split]]]]].
    - set (Xc := pt_mul (pt_rot (m3tr (ptE (pt_mul (pt_mul X2 (bkPos (K2 s))) (pt_inv (pt_mul X1 (bkPos (K1 s)))))))) X2).
      assert (EU : U s = (do J1 <- fullJacobian mb1 p1 (short6 (pathDof mb1 p1) (fun c => sp_add (c1 c) (sp_neg (sp_cross (ev s) (mkSp (ang (c1 c)) v0))))) (f1 s);
          do J2 <- fullJacobian mb2 p2 (short6 (pathDof mb2 p2) c2) (f2 s);
          Ok (mkMrt (vec6 (ev s)) (vec6 (sp_neg (mrtVerr (ev s) (V1 s) (rbdVel Xc (K2 s)))))
            (vec6 (mrtNacc (ev s) (V1 s) (rbdVel Xc (K2 s)) (A1 s) (rbdNAcc Xc (mkSp (ang (sp_add (rbdVel Xc (K2 s)) (sp_neg (V1 s)))) v0) (K2 s)))) J1 J2))) by reflexivity.
      rewrite EU, E1. cbn [bind]. rewrite E2. cbn [bind]. f_equal.
      assert (EX : Xc = XF s) by exact (mrt_frame X1 X2 (bkPos (K1 s)) (bkPos (K2 s)) RX2). rewrite EX. fold (V2 s).
      replace (mkSp (ang (sp_add (V2 s) (sp_neg (V1 s)))) v0) with (mkSp (vsub (ang (V2 s)) (ang (V1 s))) v0).
      + reflexivity.
      + f_equal.
    - intros i x Hi. rewrite D1 by exact Hi. apply sumn_ext. intros c _. cbn [mget short6]. rewrite surf_alg_col. unfold c1. rewrite (colX X1 (K1 s) c (RG1 s)). reflexivity.
    - intros i x Hi. rewrite D2 by exact Hi. apply sumn_ext. intros c _. cbn [mget short6]. unfold c2.
      rewrite (mrt_col X1 X2 (bkPos (K1 s)) (K2 s) c RX2 (RG2 s)). reflexivity. }
  set (H := fun s => match U s with Ok h => h | _ => mkMrt (vfill 0 0) (vfill 0 0) (vfill 0 0) (mzero 0 0) (mzero 0 0) end).
  exists H. split; [|split; [|split; [|split; [|split]]]].
  - intros s. destruct (HU s) as (J1 & J2 & E & _). unfold H. fold (U s). rewrite E. reflexivity.
  - intros s. destruct (HU s) as (J1 & J2 & E & R1 & C1 & R2 & C2 & _). unfold H. rewrite E. simpl. auto.
  - intros s i Hi. destruct (HU s) as (J1 & J2 & E & _). unfold H. rewrite E. cbn [mrErr]. unfold vec6; cbn [vget]. rewrite <- e6_linr.
    unfold ev. rewrite mrt_lin, m3mul_mulv. reflexivity.
  - intros s i Hi. destruct (HU s) as (J1 & J2 & E & _). unfold H. rewrite E. cbn [mrErr]. unfold vec6; cbn [vget]. rewrite <- e6_ang by exact Hi. reflexivity.
  - intros s i Hi. destruct (HU s) as (J1 & J2 & E & _). unfold H. rewrite E. cbn [mrSpeed]. unfold vec6; cbn [vget]. rewrite <- e6_ang by exact Hi. rewrite mrt_alg_ang. f_equal. cbv zeta.
    change (ang (V1 s)) with (m3mulv (ptE X1) (ang (bkVelB (K1 s)))). change (ang (V2 s)) with (m3mulv (mrtF X1 (K1 s) (K2 s)) (ang (bkVelB (K2 s)))). unfold mrtF. rewrite !m3mul_mulv. reflexivity.
  - assert (CJ : mcols (mrJac1 (H t)) = nrDof mb1 /\ mcols (mrJac2 (H t)) = nrDof mb2).
    { destruct (HU t) as (J1 & J2 & E & R1 & C1 & R2 & C2 & _). unfold H. rewrite E. simpl. auto. }
    destruct CJ as (CJ1 & CJ2).
    edestruct (mrt_rates mb1 mb2 p1 p2 (fun c => pt_mulM X1 (bkCol (K1 t) c)) (fun c => pt_mulM (XF t) (bkCol (K2 t) c)) ev V1 V2 A1 A2 al1 ald1 al2 ald2 t H) as (P1 & P2);
      [..|split; [intros i Hi; rewrite <- CJ1, <- CJ2; apply P1, Hi|exact P2]].
    + intros s. destruct (HU s) as (J1 & J2 & E & _). unfold H. rewrite E. simpl. auto.
    + intros i x Hi. rewrite CJ1. destruct (HU t) as (J1 & J2 & E & _ & _ & _ & _ & D1 & _). unfold H. rewrite E. apply D1, Hi.
    + intros i x Hi. rewrite CJ2. destruct (HU t) as (J1 & J2 & E & _ & _ & _ & _ & _ & D2). unfold H. rewrite E. apply D2, Hi.
    + apply (vel_jac _ _ _ _ _ _ _ M1).
    + apply (vel_jac _ _ _ _ _ _ _ M2).
    + apply (vel_rate _ _ _ _ _ _ _ M1).
    + apply (turning_acc _ _ _ _ _ _ (fun s => mrtF X1 (K1 s) (K2 s)) (ptr X2) _ M2).
      apply (mrt_frame_rate mb1 mb2 p1 p2 K1 K2 al1 ald1 al2 ald2 t X1 RX1 M1 M2).
    + apply (mrt_lin_rate rv mb1 mb2 p1 p2 K1 K2 al1 ald1 al2 ald2 t X1 X2 RX1 M1 M2).
Qed.
