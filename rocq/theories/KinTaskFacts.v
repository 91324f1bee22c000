(** Each kinematic task keeps its promises. *)
From Verif Require Import KinModel KinSpec KinFacts JacProofs SetPointFacts.
Open Scope list_scope.
Open Scope R_scope.
Local Arguments sumn : simpl never.
Local Arguments rbdVelW : simpl never.
Local Arguments rbdColW : simpl never.
Local Arguments rbdNAccW : simpl never.
Local Arguments rbdVel : simpl never.
Local Arguments rbdNAcc : simpl never.
Local Arguments rbdColX : simpl never.
Local Arguments e3 : simpl never.
Local Arguments e6 : simpl never.

Ltac v3c :=
  intros; apply V3_ext; unfold norm2, m3mul, m3mulv, m3tr, m3neg, dot, cross, vadd, vsub, vneg, vsc, v0, m3id; simpl; ring.

(** Where a point fixed to the body is in the world. *)
Definition worldPoint (p : V3) (k : bodyKin) : V3 := vadd (ptr (bkPos k)) (m3mulv (m3tr (ptE (bkPos k))) p).
Lemma worldPoint_rate mb path K al ald t p : movesAt mb path K al ald t ->
  dV (fun s => worldPoint p (K s)) t (linr (rbdVelW p (K t))).
Proof.
  intros M. pose proof M as [_ _ RT RP _]. unfold worldPoint.
  eapply dV_eq; [apply dV_add; [exact RP|apply dV_mulv; [apply dM_tr, RT|apply dV_const]]|].
  cbv beta. rewrite tr_rate, m3mul_mulv, skewm_mulv. unfold rbdVelW, rbdVel, rbdFrameW, pt_mulM. simpl. v3c.
Qed.

Definition sized (m : nat) (mb : multibody) (jm : R -> mat) : Prop := forall s, mrows (jm s) = m /\ mcols (jm s) = nrDof mb.

(** *** From motion vectors to rows *)
Lemma rows_lin mb path f x v i : (i < 3)%nat -> v = jsp mb path f x -> jacDot mb path (fun c => e3 (linr (f c)) i) x = e3 (linr v) i.
Proof. intros Hi ->. rewrite e6_linr, e6_jsp. apply sumn_ext. intros c _. rewrite e6_linr. reflexivity. Qed.
Lemma rows_ang mb path f x v i : (i < 3)%nat -> v = jsp mb path f x -> jacDot mb path (fun c => e3 (ang (f c)) i) x = e3 (ang v) i.
Proof. intros Hi ->. rewrite e6_ang, e6_jsp by exact Hi. apply sumn_ext. intros c _. rewrite e6_ang by exact Hi. reflexivity. Qed.
Lemma rows_six mb path f x v i : v = jsp mb path f x -> jacDot mb path (fun c => e6 (f c) i) x = e6 v i.
Proof. intros ->. rewrite e6_jsp. reflexivity. Qed.

Lemma e3_sub a b i : e3 (vsub a b) i = e3 a i - e3 b i.
Proof. destruct i as [|[|i]]; reflexivity. Qed.

(** *** PositionTask, for any two points *)
Lemma position_gen mb T K al ald t jm : wfPath mb (ptPath T) -> sized 3 mb jm -> movesAt mb (ptPath T) K al ald t ->
  exists H, yields 3 mb (fun s => posUpdate mb T (K s) (jm s)) H /\
    (forall s i, (i < 3)%nat -> vget (hErr (H s)) i = e3 (ptPos T) i - e3 (ptr (pt_mul (ptPoint T) (bkPos (K s)))) i) /\
    (forall s i, (i < 3)%nat -> vget (hSpeed (H s)) i = e3 (linr (rbdVelW (ptJacP T) (K s))) i) /\
    speedIsJac 3 H al t /\ speedRate 0 3 H ald t.
Proof.
  intros W Sz M.
  destruct (kin_gen 3 mb (ptPath T) (fun s i c => e3 (linr (rbdColW (ptJacP T) (K s) c)) i) jm
     (fun s => vec3 (vsub (ptPos T) (ptr (pt_mul (ptPoint T) (bkPos (K s))))))
     (fun s => vec3 (linr (rbdVelW (ptJacP T) (K s)))) (fun s => vec3 (linr (rbdNAccW (ptJacP T) (K s))))
     (fun s => posUpdate mb T (K s) (jm s))) as (H & Y & HV & HJ); auto.
  exists H. split; [exact Y|]. split; [|split; [|split]].
  - intros s i Hi. destruct (HV s) as (-> & _ & _). unfold vec3; cbn [vget]. apply e3_sub.
  - intros s i Hi. destruct (HV s) as (_ & -> & _). reflexivity.
  - intros i Hi. rewrite HJ by exact Hi. destruct (HV t) as (_ & -> & _). unfold vec3; cbn [vget].
    apply rows_lin; [exact Hi|]. apply (velW_jac _ _ _ _ _ _ _ M).
  - intros i Hi. unfold taskAcc. cbn [Nat.add]. rewrite HJ by lia. destruct (HV t) as (_ & _ & ->). unfold vec3; cbn [vget].
    rewrite (rows_lin _ _ _ _ _ i (proj2 Hi) eq_refl), <- e3_add.
    apply dl_ext with (f := fun s => e3 (linr (rbdVelW (ptJacP T) (K s))) i).
    + intros s. destruct (HV s) as (_ & -> & _). reflexivity.
    + apply (dV_e3 (fun s => linr (rbdVelW (ptJacP T) (K s))) t (linr (sp_add (jsp mb (ptPath T) (fun c => rbdColW (ptJacP T) (K t) c) (ald t)) (rbdNAccW (ptJacP T) (K t))))).
      apply (velW_rate _ _ _ _ _ _ (ptJacP T) M).
Qed.

(** Histories of a PositionTask. *)
Definition posGivePos (o : posOp) : option V3 := match o with PosTarget p => Some p | _ => None end.
Definition posGivePoint (o : posOp) : option V3 := match o with PosBodyPoint p => Some p | _ => None end.
Lemma pos_history pos bp path ops :
  fold_left posStep ops (posInit pos bp path) =
  mkPosT (latest posGivePos pos ops) (pt_trans bp) (latest posGivePoint bp ops) path.
Proof.
  unfold latest. change (posInit pos bp path) with (mkPosT pos (pt_trans bp) bp path). generalize bp at 2 4 as q. revert pos.
  induction ops as [|o ops IH]; intros pos q; simpl; [reflexivity|].
  destruct o; simpl; apply IH.
Qed.
Lemma trans_point bp P : ptr (pt_mul (pt_trans bp) P) = vadd (ptr P) (m3mulv (m3tr (ptE P)) bp).
Proof. reflexivity. Qed.

Theorem position_tracks mb path pos bp ops K al ald t jm : wfPath mb path -> sized 3 mb jm -> movesAt mb path K al ald t ->
  exists H, yields 3 mb (fun s => posUpdate mb (fold_left posStep ops (posInit pos bp path)) (K s) (jm s)) H /\
    (forall s i, (i < 3)%nat -> vget (hErr (H s)) i = e3 (latest posGivePos pos ops) i - e3 (worldPoint bp (K s)) i) /\
    (forall i, (i < 3)%nat -> dlim (fun s => e3 (worldPoint (latest posGivePoint bp ops) (K s)) i) t (vget (hSpeed (H t)) i)) /\
    speedIsJac 3 H al t /\ speedRate 0 3 H ald t /\
    (latest posGivePoint bp ops = bp -> errorRate 0 3 H t).
Proof.
  intros W Sz M. rewrite pos_history. set (T := mkPosT _ _ _ _).
  destruct (position_gen mb T K al ald t jm W Sz M) as (H & Y & HE & HS & HJ & HR). exists H.
  assert (P : forall i, (i < 3)%nat -> dlim (fun s => e3 (worldPoint (latest posGivePoint bp ops) (K s)) i) t (vget (hSpeed (H t)) i)).
  { intros i Hi. rewrite HS by exact Hi. apply (dV_e3 (fun s => worldPoint _ (K s))), (worldPoint_rate _ _ _ _ _ _ _ M). }
  split; [exact Y|]. split; [exact HE|]. split; [exact P|]. split; [exact HJ|]. split; [exact HR|].
  intros Q i Hi. rewrite Q in P. eapply dl_ext; [|eapply dl_eq; [apply dl_minus; [apply dl_const|apply (P i); lia]|ring]].
  intros s. cbv beta. symmetry. apply HE. lia.
Qed.

(** *** OrientationTask and SurfaceOrientationTask *)
Theorem orientation_tracks rv mb path ori K al ald t jm : wfPath mb path -> sized 3 mb jm -> movesAt mb path K al ald t ->
  exists H, yields 3 mb (fun s => oriUpdate rv mb path ori (K s) (jm s)) H /\
    (forall s i, (i < 3)%nat -> vget (hErr (H s)) i = e3 (rotError rv (ptE (bkPos (K s))) ori) i) /\
    (forall s i, (i < 3)%nat -> vget (hSpeed (H s)) i = e3 (m3mulv (m3tr (ptE (bkPos (K s)))) (ang (bkVelB (K s)))) i) /\
    speedIsJac 3 H al t /\ speedRate 0 3 H ald t.
Proof.
  intros W Sz M.
  destruct (kin_gen 3 mb path (fun s i c => e3 (ang (rbdColW v0 (K s) c)) i) jm
     (fun s => vec3 (rotError rv (ptE (bkPos (K s))) ori))
     (fun s => vec3 (ang (rbdVelW v0 (K s)))) (fun s => vec3 (ang (rbdNAccW v0 (K s))))
     (fun s => oriUpdate rv mb path ori (K s) (jm s))) as (H & Y & HV & HJ); auto.
  exists H. split; [exact Y|]. split; [|split; [|split]].
  - intros s i Hi. destruct (HV s) as (-> & _ & _). reflexivity.
  - intros s i Hi. destruct (HV s) as (_ & -> & _). reflexivity.
  - intros i Hi. rewrite HJ by exact Hi. destruct (HV t) as (_ & -> & _). unfold vec3; cbn [vget]. apply rows_ang; [exact Hi|]. apply (velW_jac _ _ _ _ _ _ _ M).
  - intros i Hi. unfold taskAcc. cbn [Nat.add]. rewrite HJ by lia. destruct (HV t) as (_ & _ & ->). unfold vec3; cbn [vget].
    rewrite (rows_ang _ _ _ _ _ i (proj2 Hi) eq_refl), <- e3_add.
    apply dl_ext with (f := fun s => e3 (ang (rbdVelW v0 (K s))) i).
    + intros s. destruct (HV s) as (_ & -> & _). reflexivity.
    + apply (dV_e3 (fun s => ang (rbdVelW v0 (K s))) t (ang (sp_add (jsp mb path (fun c => rbdColW v0 (K t) c) (ald t)) (rbdNAccW v0 (K t))))).
      apply (velW_rate _ _ _ _ _ _ v0 M).
Qed.
Theorem surface_orientation_tracks rv mb path ori X K al ald t jm : wfPath mb path -> sized 3 mb jm -> movesAt mb path K al ald t ->
  exists H, yields 3 mb (fun s => surfOriUpdate rv mb path ori X (K s) (jm s)) H /\
    (forall s i, (i < 3)%nat -> vget (hErr (H s)) i = e3 (rv (m3mul (m3mul ori (m3tr (ptE (bkPos (K s))))) (m3tr (ptE X)))) i) /\
    (forall s i, (i < 3)%nat -> vget (hSpeed (H s)) i = e3 (m3mulv (ptE X) (ang (bkVelB (K s)))) i) /\
    speedIsJac 3 H al t /\ speedRate 0 3 H ald t.
Proof.
  intros W Sz M. pose proof (mvRigid _ _ _ _ _ _ M) as RG.
  destruct (kin_gen 3 mb path (fun s i c => e3 (ang (rbdColX (pt_mul X (bkPos (K s))) (K s) c)) i) jm
     (fun s => vec3 (rv (m3mul (m3mul ori (m3tr (ptE (bkPos (K s))))) (m3tr (ptE X)))))
     (fun s => vec3 (ang (rbdVel X (K s)))) (fun s => vec3 (ang (rbdNAcc X sp0 (K s))))
     (fun s => surfOriUpdate rv mb path ori X (K s) (jm s))) as (H & Y & HV & HJ); auto.
  exists H. split; [exact Y|]. split; [|split; [|split]].
  - intros s i Hi. destruct (HV s) as (-> & _ & _). reflexivity.
  - intros s i Hi. destruct (HV s) as (_ & -> & _). reflexivity.
  - intros i Hi. rewrite HJ by exact Hi. destruct (HV t) as (_ & -> & _). unfold vec3; cbn [vget]. apply rows_ang; [exact Hi|].
    rewrite (vel_jac _ _ _ _ _ _ _ M). apply jsp_ext. intros c. symmetry. apply colX, RG.
  - intros i Hi. unfold taskAcc. cbn [Nat.add]. rewrite HJ by lia. destruct (HV t) as (_ & _ & ->). unfold vec3; cbn [vget].
    rewrite (rows_ang _ _ _ _ _ i (proj2 Hi) eq_refl), <- e3_add.
    apply dl_ext with (f := fun s => e3 (ang (rbdVel X (K s))) i).
    + intros s. destruct (HV s) as (_ & -> & _). reflexivity.
    + eapply dl_eq; [apply (dV_e3 (fun s => ang (rbdVel X (K s)))), (vel_rate _ _ _ _ _ _ X M)|].
      rewrite (jsp_ext mb path (rbdColX (pt_mul X (bkPos (K t))) (K t)) (fun c => pt_mulM X (bkCol (K t) c))); [reflexivity|]. intros c. apply colX, RG.
Qed.

(** *** LinVelocityTask: the error is a velocity, the acceleration is its rate *)
Theorem linvel_tracks mb path vel p K al ald t jm : wfPath mb path -> sized 3 mb jm -> movesAt mb path K al ald t ->
  exists H, yields 3 mb (fun s => linVelUpdate mb path vel p (K s) (jm s)) H /\
    (forall i, (i < 3)%nat -> dlim (fun s => e3 (worldPoint p (K s)) i) t (e3 vel i - vget (hErr (H t)) i)) /\
    (forall s i, (i < 3)%nat -> vget (hSpeed (H s)) i = 0) /\
    (forall i, (i < 3)%nat -> dlim (fun s => vget (hErr (H s)) i) t (- taskAcc (H t) 0 (ald t) i)).
Proof.
  intros W Sz M.
  destruct (kin_gen 3 mb path (fun s i c => e3 (linr (rbdColW p (K s) c)) i) jm
     (fun s => vec3 (vsub vel (linr (rbdVelW p (K s)))))
     (fun s => vec3 v0) (fun s => vec3 (linr (rbdNAccW p (K s))))
     (fun s => linVelUpdate mb path vel p (K s) (jm s))) as (H & Y & HV & HJ); auto.
  exists H. split; [exact Y|]. split; [|split].
  - intros i Hi. destruct (HV t) as (-> & _ & _). unfold vec3; cbn [vget]. rewrite e3_sub.
    replace (e3 vel i - (e3 vel i - e3 (linr (rbdVelW p (K t))) i)) with (e3 (linr (rbdVelW p (K t))) i) by ring.
    apply (dV_e3 (fun s => worldPoint p (K s))), (worldPoint_rate _ _ _ _ _ _ _ M).
  - intros s i Hi. destruct (HV s) as (_ & -> & _). simpl. destruct i as [|[|i]]; reflexivity.
  - intros i Hi. unfold taskAcc. cbn [Nat.add]. rewrite HJ by lia. destruct (HV t) as (_ & _ & ->). unfold vec3; cbn [vget].
    rewrite (rows_lin _ _ _ _ _ i Hi eq_refl), <- e3_add.
    apply dl_ext with (f := fun s => e3 vel i - e3 (linr (rbdVelW p (K s))) i).
    + intros s. destruct (HV s) as (-> & _ & _). unfold vec3; cbn [vget]. symmetry. apply e3_sub.
    + eapply dl_eq; [apply dl_minus; [apply dl_const|]|].
      * apply (dV_e3 (fun s => linr (rbdVelW p (K s))) t (linr (sp_add (jsp mb path (fun c => rbdColW p (K t) c) (ald t)) (rbdNAccW p (K t))))).
        apply (velW_rate _ _ _ _ _ _ p M).
      * rewrite Rminus_0_l. reflexivity.
Qed.

(** *** TransformTask *)
Lemma tf_frame E_0_c X P : rigid X ->
  pt_mul (pt_rot (m3mul E_0_c (m3tr (ptE (pt_mul X P))))) X = mkPT (m3mul E_0_c (m3tr (ptE P))) (ptr X).
Proof.
  intros RX. unfold pt_mul, pt_rot; simpl. apply PT_ext; simpl.
  - rewrite m3tr_mul, !m3mul_assoc, (rotation_tr_mul _ RX), m3mul_id_r. reflexivity.
  - rewrite m3mulv_v0. apply vadd_0_r.
Qed.
Lemma tf_col E_0_c X k c : rigid X -> rigid (bkPos k) ->
  rbdColX (pt_mul (pt_rot (m3mul E_0_c (m3tr (ptE (pt_mul X (bkPos k)))))) (pt_mul X (bkPos k))) k c =
  pt_mulM (mkPT (m3mul E_0_c (m3tr (ptE (bkPos k)))) (ptr X)) (bkCol k c).
Proof.
  intros RX RK. rewrite <- (tf_frame E_0_c X (bkPos k) RX).
  rewrite <- colX by exact RK. f_equal. apply PT_ext; unfold pt_mul, pt_rot; simpl.
  - rewrite !m3mul_assoc. reflexivity.
  - rewrite !m3mulv_v0, !vadd_0_r. reflexivity.
Qed.
Lemma zero_mul A B : m3add (m3mul (mkM3 v0 v0 v0) A) B = B.
Proof. destruct A as [[] [] []], B as [[] [] []]; apply M3_ext; v3c. Qed.
Lemma tf_frame_rate mb path K al ald t E_0_c : rotation E_0_c -> movesAt mb path K al ald t ->
  dM (fun s => m3mul E_0_c (m3tr (ptE (bkPos (K s))))) t
    (m3mul (skewm (m3mulv (m3mul E_0_c (m3tr (ptE (bkPos (K t))))) (ang (bkVelB (K t))))) (m3mul E_0_c (m3tr (ptE (bkPos (K t)))))).
Proof.
  intros RC M. eapply dM_eq; [apply dM_mul; [apply dM_const|apply (frameW_rate _ _ _ _ _ _ M)]|]. cbv beta.
  set (E := m3tr (ptE (bkPos (K t)))). set (w := ang (bkVelB (K t))).
  rewrite m3mul_mulv, <- (m3mul_assoc E_0_c (skewm (m3mulv E w)) E), (skew_rot E_0_c) by exact RC. rewrite m3mul_assoc.
  apply zero_mul.
Qed.
Lemma tfErr_lin rv A B : rigid A -> linr (tfError rv A B) = vsub (ptr B) (ptr A).
Proof.
  intros RA. unfold tfError, tfVelocity, pt_mulM, pt_rot, pt_mul, pt_inv; simpl. rewrite m3tr_invol.
  replace (vsub (vadd (vneg (m3mulv (ptE A) (ptr A))) (m3mulv (ptE A) (ptr B))) (cross v0 (rv (m3mul (ptE B) (m3tr (ptE A))))))
    with (m3mulv (ptE A) (vsub (ptr B) (ptr A))) by v3c.
  apply rotation_Tmul, RA.
Qed.
Theorem transform_tracks rv mb path X_0_t X_b_p E_0_c K al ald t jm : wfPath mb path -> sized 6 mb jm ->
  rigid X_b_p -> rotation E_0_c -> movesAt mb path K al ald t ->
  exists H, yields 6 mb (fun s => tfUpdate rv mb path X_0_t X_b_p E_0_c (K s) (jm s)) H /\
    (forall s i, (i < 3)%nat -> vget (hErr (H s)) (3 + i) = e3 (m3mulv E_0_c (vsub (ptr X_0_t) (worldPoint (ptr X_b_p) (K s)))) i) /\
    (forall s i, (i < 3)%nat -> vget (hErr (H s)) i = e3 (m3mulv E_0_c (rotError rv (m3mul (ptE X_b_p) (ptE (bkPos (K s)))) (ptE X_0_t))) i) /\
    (forall s i, (i < 3)%nat -> vget (hSpeed (H s)) i = e3 (m3mulv E_0_c (m3mulv (m3tr (ptE (bkPos (K s)))) (ang (bkVelB (K s))))) i) /\
    speedIsJac 6 H al t /\ errorRate 3 6 H t /\ speedRate 0 6 H ald t.
Proof.
  intros W Sz RX RC M. pose proof (mvRigid _ _ _ _ _ _ M) as RG.
  set (F := fun s => mkPT (m3mul E_0_c (m3tr (ptE (bkPos (K s))))) (ptr X_b_p)).
  set (X0p := fun s => pt_mul X_b_p (bkPos (K s))).
  set (ev := fun s => pt_mulM (pt_rot E_0_c) (tfError rv (X0p s) X_0_t)).
  set (Xc := fun s => pt_mul (pt_rot (m3mul E_0_c (m3tr (ptE (X0p s))))) X_b_p).
  assert (FX : forall s, Xc s = F s) by (intros s; exact (tf_frame E_0_c X_b_p (bkPos (K s)) RX)).
  destruct (kin_gen 6 mb path (fun s i c => e6 (rbdColX (pt_mul (pt_rot (m3mul E_0_c (m3tr (ptE (X0p s))))) (X0p s)) (K s) c) i) jm
     (fun s => vec6 (ev s)) (fun s => vec6 (rbdVel (Xc s) (K s)))
     (fun s => vec6 (rbdNAcc (Xc s) (mkSp (ang (rbdVel (Xc s) (K s))) v0) (K s)))
     (fun s => tfUpdate rv mb path X_0_t X_b_p E_0_c (K s) (jm s))) as (H & Y & HV & HJ);
    [exact W|exact Sz|intros s; repeat split|intros s; reflexivity|].
  assert (EV : forall s, linr (ev s) = m3mulv E_0_c (vsub (ptr X_0_t) (worldPoint (ptr X_b_p) (K s)))).
  { intros s. unfold ev. change (linr (pt_mulM (pt_rot E_0_c) (tfError rv (X0p s) X_0_t))) with
      (m3mulv E_0_c (vsub (linr (tfError rv (X0p s) X_0_t)) (cross v0 (ang (tfError rv (X0p s) X_0_t))))). rewrite tfErr_lin by (apply rotation_mul; [exact RX|apply RG]).
    f_equal. change (ptr (X0p s)) with (worldPoint (ptr X_b_p) (K s)). generalize (ang (tfError rv (X0p s) X_0_t)). v3c. }
  exists H. split; [exact Y|]. split; [|split; [|split; [|split; [|split]]]].
  - intros s i Hi. destruct (HV s) as (-> & _ & _). unfold vec6; cbn [vget]. rewrite <- EV, e6_linr. reflexivity.
  - intros s i Hi. destruct (HV s) as (-> & _ & _). unfold vec6; cbn [vget]. rewrite <- e6_ang by exact Hi. reflexivity.
  - intros s i Hi. destruct (HV s) as (_ & -> & _). unfold vec6; cbn [vget]. rewrite FX, <- e6_ang by exact Hi. unfold rbdVel, F; simpl. rewrite m3mul_mulv. reflexivity.
  - intros i Hi. rewrite HJ by exact Hi. destruct (HV t) as (_ & -> & _). unfold vec6; cbn [vget]. apply rows_six.
    rewrite FX, (vel_jac _ _ _ _ _ _ _ M). apply jsp_ext. intros c. symmetry. exact (tf_col E_0_c X_b_p (K t) c RX (RG t)).
  - intros i Hi. destruct (HV t) as (_ & -> & _). unfold vec6; cbn [vget].
    apply dl_ext with (f := fun s => e3 (m3mulv E_0_c (vsub (ptr X_0_t) (worldPoint (ptr X_b_p) (K s)))) (i - 3)).
    + intros s. destruct (HV s) as (-> & _ & _). unfold vec6; cbn [vget]. rewrite <- EV, e6_linr. f_equal. lia.
    + eapply dl_eq; [apply (dV_e3 (fun s => m3mulv E_0_c (vsub (ptr X_0_t) (worldPoint (ptr X_b_p) (K s)))))|].
      * apply dV_mulv; [apply dM_const|apply dV_sub; [apply dV_const|apply (worldPoint_rate _ _ _ _ _ _ _ M)]].
      * rewrite FX. replace i with (3 + (i - 3))%nat at 2 by lia. rewrite <- e6_linr, <- e3_neg. f_equal.
        unfold rbdVel, F, rbdVelW, rbdFrameW, rbdVel, pt_mulM; simpl. rewrite m3mul_mulv. v3c.
  - intros i Hi. unfold taskAcc. cbn [Nat.add]. rewrite HJ by lia. destruct (HV t) as (_ & _ & ->). unfold vec6; cbn [vget].
    rewrite (rows_six _ _ _ _ _ i eq_refl), <- e6_add.
    apply dl_ext with (f := fun s => e6 (rbdVel (F s) (K s)) i).
    + intros s. destruct (HV s) as (_ & -> & _). unfold vec6; cbn [vget]. rewrite FX. reflexivity.
    + eapply dl_eq; [apply (dS_e6 (fun s => rbdVel (F s) (K s))); eapply (turning_acc _ _ _ _ _ _ _ (ptr X_b_p) _ M), (tf_frame_rate _ _ _ _ _ _ _ RC M)|].
      cbv beta. f_equal. f_equal.
      * apply jsp_ext. intros c. symmetry. exact (tf_col E_0_c X_b_p (K t) c RX (RG t)).
      * rewrite FX. reflexivity.
Qed.

(** *** SurfaceTransformTask *)
Definition surfErr (rv : M3 -> V3) (X_0_t X_b_p : PT) (k : bodyKin) : Spatial :=
  tfVelocity rv (pt_mul X_0_t (pt_inv (pt_mul X_b_p (bkPos k)))).
Lemma surf_lin rv X_0_t X k : rigid X -> rigid (bkPos k) ->
  linr (surfErr rv X_0_t X k) = m3mulv (ptE X) (m3mulv (ptE (bkPos k)) (vsub (ptr X_0_t) (worldPoint (ptr X) k))).
Proof.
  intros RX RK. unfold surfErr, tfVelocity, pt_mul, pt_inv, worldPoint; simpl. rewrite m3tr_invol.
  replace (vadd (vneg (m3mulv (m3mul (ptE X) (ptE (bkPos k))) (vadd (ptr (bkPos k)) (m3mulv (m3tr (ptE (bkPos k))) (ptr X)))))
       (m3mulv (m3mul (ptE X) (ptE (bkPos k))) (ptr X_0_t)))
    with (m3mulv (m3mul (ptE X) (ptE (bkPos k))) (vsub (ptr X_0_t) (vadd (ptr (bkPos k)) (m3mulv (m3tr (ptE (bkPos k))) (ptr X))))) by v3c.
  apply m3mul_mulv.
Qed.
Lemma surf_lin_rate rv X_0_t X mb path K al ald t : rigid X -> movesAt mb path K al ald t ->
  dV (fun s => linr (surfErr rv X_0_t X (K s))) t
     (vsub (cross (linr (surfErr rv X_0_t X (K t))) (ang (rbdVel X (K t)))) (linr (rbdVel X (K t)))).
Proof.
  intros RX M. pose proof M as [RG _ RT _ _].
  apply dV_ext with (f := fun s => m3mulv (ptE X) (m3mulv (ptE (bkPos (K s))) (vsub (ptr X_0_t) (worldPoint (ptr X) (K s))))).
  - intros s. symmetry. apply surf_lin; [exact RX|apply RG].
  - rewrite surf_lin by (auto; apply RG).
    eapply dV_eq; [apply dV_mulv; [apply dM_const|apply dV_mulv; [exact RT|apply dV_sub; [apply dV_const|apply (worldPoint_rate _ _ _ _ _ _ _ M)]]]|].
    cbv beta. unfold rbdVelW, rbdVel, rbdFrameW, pt_mulM; simpl.
    set (e := vsub (ptr X_0_t) (worldPoint (ptr X) (K t))). set (w := ang (bkVelB (K t))). set (E := ptE (bkPos (K t))).
    rewrite rotation_cross by exact RX.
    replace (m3mulv E (vsub v0 (m3mulv (m3tr E) (vsub (linr (bkVelB (K t))) (cross (ptr X) w))))) with
      (vneg (vsub (linr (bkVelB (K t))) (cross (ptr X) w))).
    + replace (m3mulv (m3neg (m3mul (skewm w) E)) e) with (vneg (cross w (m3mulv E e))).
      * v3c.
      * replace (m3mulv (m3neg (m3mul (skewm w) E)) e) with (vneg (m3mulv (m3mul (skewm w) E) e)) by v3c. rewrite m3mul_mulv, skewm_mulv. reflexivity.
    + rewrite <- (rotation_mulT E (vneg (vsub (linr (bkVelB (K t))) (cross (ptr X) w)))) at 1 by (apply RG). f_equal. v3c.
Qed.
(** Speed of the task as a function of the error and of the body velocity. *)
Definition surfVerr (e V : Spatial) : Spatial := sp_add (sp_cross e (mkSp (ang V) v0)) (sp_neg V).
Lemma surf_L_add e a b : sp_neg (surfVerr e (sp_add a b)) = sp_add (sp_neg (surfVerr e a)) (sp_neg (surfVerr e b)).
Proof. unfold surfVerr; sp. Qed.
Lemma surf_L_sc e k a : sp_neg (surfVerr e (sp_sc k a)) = sp_sc k (sp_neg (surfVerr e a)).
Proof. unfold surfVerr; sp. Qed.


Definition surfNacc (e V A : Spatial) : Spatial :=
  sp_neg (sp_add (sp_add (sp_cross (surfVerr e V) (mkSp (ang V) v0)) (sp_cross e (mkSp (ang A) v0))) (sp_neg A)).
Lemma surf_alg_col e c : sp_add c (sp_neg (sp_cross e (mkSp (ang c) v0))) = sp_neg (surfVerr e c).
Proof. unfold surfVerr. apply Spatial_ext; simpl; v3c. Qed.
Lemma surf_alg_lin e V : linr (sp_neg (surfVerr e V)) = vneg (vsub (cross (linr e) (ang V)) (linr V)).
Proof. unfold surfVerr; simpl. v3c. Qed.
Lemma surf_alg_ang e V : ang (sp_neg (surfVerr e V)) = vsub (ang V) (cross (ang e) (ang V)).
Proof. unfold surfVerr; simpl. v3c. Qed.
Lemma surf_alg_acc_lin (e J A V : Spatial) :
  linr (sp_add (sp_neg (surfVerr e J)) (surfNacc e V A)) =
  vneg (vsub (vadd (cross (vsub (cross (linr e) (ang V)) (linr V)) (ang V)) (cross (linr e) (ang (sp_add J A)))) (linr (sp_add J A))).
Proof. unfold surfNacc, surfVerr; simpl. v3c. Qed.
Lemma surf_alg_acc (e J A V : Spatial) :
  sp_add (sp_neg (surfVerr e J)) (surfNacc e V A) =
  sp_neg (sp_add (sp_add (sp_cross (surfVerr e V) (mkSp (ang V) v0)) (sp_cross e (mkSp (ang (sp_add J A)) v0))) (sp_neg (sp_add J A))).
Proof. unfold surfNacc, surfVerr. apply Spatial_ext; simpl; v3c. Qed.

Lemma surf_rates mb path cols (ev vl an : R -> Spatial) al ald t (H : R -> hlOut) :
  (forall s, hErr (H s) = vec6 (ev s) /\ hSpeed (H s) = vec6 (sp_neg (surfVerr (ev s) (vl s))) /\ hNAcc (H s) = vec6 (surfNacc (ev s) (vl s) (an s))) ->
  (forall i x, (i < 6)%nat -> sumn (mcols (hJac (H t))) (fun j => mget (hJac (H t)) i j * x j) =
     jacDot mb path (fun c => e6 (sp_neg (surfVerr (ev t) (cols c))) i) x) ->
  vl t = jsp mb path cols (al t) -> dS vl t (sp_add (jsp mb path cols (ald t)) (an t)) ->
  dV (fun s => linr (ev s)) t (vsub (cross (linr (ev t)) (ang (vl t))) (linr (vl t))) ->
  speedIsJac 6 H al t /\ errorRate 3 6 H t /\ speedRate 3 6 H ald t /\ (errorRate 0 3 H t -> speedRate 0 3 H ald t).
Proof.
  intros HV HJ VJ DV DE.
  assert (L : forall x, jsp mb path (fun c => sp_neg (surfVerr (ev t) (cols c))) x = sp_neg (surfVerr (ev t) (jsp mb path cols x))).
  { intros x. symmetry. apply (jsp_lin (fun a => sp_neg (surfVerr (ev t) a))); [apply surf_L_add|apply surf_L_sc]. }
  assert (TA : forall i, (i < 6)%nat -> taskAcc (H t) 0 (ald t) i = e6 (sp_add (sp_neg (surfVerr (ev t) (jsp mb path cols (ald t)))) (surfNacc (ev t) (vl t) (an t))) i).
  { intros i Hi. unfold taskAcc. cbn [Nat.add]. rewrite HJ by exact Hi. destruct (HV t) as (_ & _ & ->). unfold vec6; cbn [vget].
    rewrite e6_add, <- L, e6_jsp. reflexivity. }
  assert (ER : errorRate 3 6 H t).
  { intros i Hi. destruct (HV t) as (_ & -> & _). unfold vec6; cbn [vget].
    apply dl_ext with (f := fun s => e3 (linr (ev s)) (i - 3)).
    - intros s. destruct (HV s) as (-> & _ & _). unfold vec6; cbn [vget]. rewrite e6_linr. f_equal. lia.
    - eapply dl_eq; [apply (dV_e3 (fun s => linr (ev s))), DE|].
      replace i with (3 + (i - 3))%nat at 2 by lia. rewrite <- e6_linr, surf_alg_lin, e3_neg. ring. }
  split; [|split; [exact ER|split]].
  - intros i Hi. rewrite HJ by exact Hi. destruct (HV t) as (_ & -> & _). unfold vec6; cbn [vget]. apply rows_six. rewrite L, VJ. reflexivity.
  - intros i Hi. rewrite TA by lia.
    apply dl_ext with (f := fun s => e3 (vneg (vsub (cross (linr (ev s)) (ang (vl s))) (linr (vl s)))) (i - 3)).
    + intros s. destruct (HV s) as (_ & -> & _). unfold vec6; cbn [vget]. rewrite <- surf_alg_lin, e6_linr. f_equal. lia.
    + destruct DV as (DW & DU).
      eapply dl_eq; [apply (dV_e3 (fun s => vneg (vsub (cross (linr (ev s)) (ang (vl s))) (linr (vl s))))); apply dV_neg, dV_sub; [apply dV_cross; [exact DE|exact DW]|exact DU]|].
      replace i with (3 + (i - 3))%nat at 2 by lia. rewrite <- e6_linr, surf_alg_acc_lin. reflexivity.
  - intros EA i Hi. rewrite TA by lia.
    assert (De : dS ev t (surfVerr (ev t) (vl t))).
    { apply dS_of_e6. intros j Hj. destruct (Nat.lt_ge_cases j 3) as [Lj|Lj].
      - eapply dl_ext; [|eapply dl_eq; [apply (EA j); lia|]].
        + intros s. cbv beta. destruct (HV s) as (-> & _ & _). reflexivity.
        + destruct (HV t) as (_ & -> & _). unfold vec6; cbn [vget]. rewrite e6_neg. ring.
      - eapply dl_ext; [|eapply dl_eq; [apply (ER j); lia|]].
        + intros s. cbv beta. destruct (HV s) as (-> & _ & _). reflexivity.
        + destruct (HV t) as (_ & -> & _). unfold vec6; cbn [vget]. rewrite e6_neg. ring. }
    apply dl_ext with (f := fun s => e6 (sp_neg (surfVerr (ev s) (vl s))) i).
    + intros s. destruct (HV s) as (_ & -> & _). reflexivity.
    + rewrite surf_alg_acc. apply (dS_e6 (fun s => sp_neg (surfVerr (ev s) (vl s)))). unfold surfVerr at 1. apply dS_neg, dS_add; [|apply dS_neg, DV].
      apply (dS_cross ev (fun s => mkSp (ang (vl s)) v0)); [exact De|]. apply (dS_mk (fun s => ang (vl s)) (fun _ => v0)); [exact (proj1 DV)|apply dV_const].
Qed.

Theorem surface_transform_tracks rv mb path X_0_t X_b_p K al ald t jm : wfPath mb path -> sized 6 mb jm ->
  rigid X_b_p -> movesAt mb path K al ald t ->
  exists H, yields 6 mb (fun s => surfTfUpdate rv mb path X_0_t X_b_p (K s) (jm s)) H /\
    (forall s i, (i < 3)%nat -> vget (hErr (H s)) (3 + i) =
       e3 (m3mulv (ptE X_b_p) (m3mulv (ptE (bkPos (K s))) (vsub (ptr X_0_t) (worldPoint (ptr X_b_p) (K s))))) i) /\
    (forall s i, (i < 3)%nat -> vget (hErr (H s)) i = e3 (rv (m3mul (ptE X_0_t) (m3tr (m3mul (ptE X_b_p) (ptE (bkPos (K s))))))) i) /\
    (forall s i, (i < 3)%nat -> vget (hSpeed (H s)) i =
       e3 (let w := m3mulv (ptE X_b_p) (ang (bkVelB (K s))) in vsub w (cross (rv (m3mul (ptE X_0_t) (m3tr (m3mul (ptE X_b_p) (ptE (bkPos (K s))))))) w)) i) /\
    speedIsJac 6 H al t /\ errorRate 3 6 H t /\ speedRate 3 6 H ald t /\
    (errorRate 0 3 H t -> speedRate 0 3 H ald t).
Proof.
  intros W Sz RX M. pose proof (mvRigid _ _ _ _ _ _ M) as RG.
  destruct (kin_gen 6 mb path
     (fun s i c => e6 (sp_add (rbdColX (pt_mul X_b_p (bkPos (K s))) (K s) c) (sp_neg (sp_cross (surfErr rv X_0_t X_b_p (K s)) (mkSp (ang (rbdColX (pt_mul X_b_p (bkPos (K s))) (K s) c)) v0)))) i) jm
     (fun s => vec6 (surfErr rv X_0_t X_b_p (K s))) (fun s => vec6 (sp_neg (surfVerr (surfErr rv X_0_t X_b_p (K s)) (rbdVel X_b_p (K s)))))
     (fun s => vec6 (surfNacc (surfErr rv X_0_t X_b_p (K s)) (rbdVel X_b_p (K s)) (rbdNAcc X_b_p sp0 (K s))))
     (fun s => surfTfUpdate rv mb path X_0_t X_b_p (K s) (jm s))) as (H & Y & HV & HJ);
    [exact W|exact Sz|intros s; repeat split|intros s; reflexivity|].
  exists H. split; [exact Y|]. split.
  - intros s i Hi. destruct (HV s) as (-> & _ & _). unfold vec6; cbn [vget]. rewrite <- e6_linr, (surf_lin rv X_0_t X_b_p (K s) RX (RG s)). reflexivity.
  - split; [|split].
    { intros s i Hi. destruct (HV s) as (-> & _ & _). unfold vec6; cbn [vget]. rewrite <- e6_ang by exact Hi. reflexivity. }
    { intros s i Hi. destruct (HV s) as (_ & -> & _). unfold vec6; cbn [vget]. rewrite <- e6_ang by exact Hi. rewrite surf_alg_ang. reflexivity. }
    apply (surf_rates mb path (fun c => pt_mulM X_b_p (bkCol (K t) c)) (fun s => surfErr rv X_0_t X_b_p (K s)) (fun s => rbdVel X_b_p (K s)) (fun s => rbdNAcc X_b_p sp0 (K s))).
    + exact HV.
    + intros i x Hi. rewrite HJ by exact Hi. apply sumn_ext. intros c _. rewrite surf_alg_col, (colX X_b_p (K t) c (RG t)). reflexivity.
    + apply (vel_jac _ _ _ _ _ _ _ M).
    + apply (vel_rate _ _ _ _ _ _ _ M).
    + apply (surf_lin_rate _ _ _ _ _ _ _ _ _ RX M).
Qed.
