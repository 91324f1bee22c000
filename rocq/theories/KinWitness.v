(** Concrete motions used by the examples and the refutations of the kinematic tasks. *)
From Verif Require Export KinFacts KinTaskFacts KinVecFacts KinMultiFacts KinDistFacts TreeFacts KinSpec TreeSpec ContactRowsProofs.
Open Scope string_scope.
Open Scope list_scope.
Open Scope R_scope.
Local Arguments sumn : simpl never.

(** One revolute joint about z, angle w s + a s^2 / 2. *)
Definition kMb : multibody := mkMB [mkJoint "q" 1 1 None].
Definition kQ (w a s : R) : R := w * s + a * (s * s) / 2.
Definition kRev (w a s : R) : bodyKin := mkBK (mkPT (RotZ (kQ w a s)) v0) (mkSp (mkV3 0 0 (w + a * s)) v0) sp0 (fun _ => mkSp (mkV3 0 0 1) v0).
Definition kAl (w a s : R) (j : nat) : R := w + a * s.
Definition kAld (a s : R) (j : nat) : R := a.
Definition kJm (m : nat) (s : R) : mat := mzero m 1.
Lemma kWf : wfPath kMb [0%nat].
Proof. split; [constructor; [simpl; tauto|constructor]|]. intros i [<-|[]]. simpl. lia. Qed.
Lemma kSized m : sized m kMb (kJm m).
Proof. intros s. split; reflexivity. Qed.
Lemma kQ_rate w a t : dlim (kQ w a) t (w + a * t).
Proof.
  unfold kQ. eapply dl_eq; [apply dl_plus; [apply dl_mult; [apply dl_const|apply dl_id]|
    apply (dl_ext (fun s => (a / 2) * (s * s))); [intros; field|apply dl_mult; [apply dl_const|apply dl_mult; apply dl_id]]]|]. cbv beta. field.
Qed.
Lemma rotZ_rigid x p : rigid (mkPT (RotZ x) p).
Proof. exact (RotZ_rotation x). Qed.
Lemma rotZ_rate w a t : dM (fun s => RotZ (kQ w a s)) t (m3neg (m3mul (skewm (mkV3 0 0 (w + a * t))) (RotZ (kQ w a t)))).
Proof.
  assert (S : dlim (fun s => sin (kQ w a s)) t (cos (kQ w a t) * (w + a * t))) by (apply (dl_comp (kQ w a) sin); [apply kQ_rate|apply derivable_pt_lim_sin]).
  assert (C : dlim (fun s => cos (kQ w a s)) t (- sin (kQ w a t) * (w + a * t))) by (apply (dl_comp (kQ w a) cos); [apply kQ_rate|apply derivable_pt_lim_cos]).
  unfold RotZ, m3neg, m3mul, skewm, m3mulv, dot. repeat split; cbn;
    (eapply dl_eq; [first [exact S|exact C|apply dl_opp; exact S|apply dl_const]|ring]).
Qed.
Lemma kRev_moves w a t : movesAt kMb [0%nat] (kRev w a) (kAl w a) (kAld a) t.
Proof.
  apply moves_of; unfold kRev; cbn [bkPos bkVelB bkNAccB bkCol ptE ptr ang linr].
  - intros s. apply rotZ_rigid.
  - apply Spatial_ext; apply V3_ext; cbn; unfold kAl; ring.
  - apply rotZ_rate.
  - eapply dV_eq; [apply dV_const|]. unfold m3mulv, dot, v0; cbn. f_equal; ring.
  - unfold jsp, spsum, kAld; simpl. repeat split; cbn;
      (eapply dl_eq; [first [apply dl_const|apply dl_plus; [apply dl_const|apply dl_mult; [apply dl_const|apply dl_id]]]|cbv beta; unfold kAld; cbn; ring]).
Qed.
(** One prismatic joint along x at unit speed; a body that does not move. *)
Definition kPri (s : R) : bodyKin := mkBK (mkPT m3id (mkV3 s 0 0)) (mkSp v0 (mkV3 1 0 0)) sp0 (fun _ => mkSp v0 (mkV3 1 0 0)).
Lemma id_rigid p : rigid (mkPT m3id p).
Proof. exact rotation_id. Qed.
Lemma kPri_moves t : movesAt kMb [0%nat] kPri (kAl 1 0) (kAld 0) t.
Proof.
  apply moves_of; unfold kPri; cbn [bkPos bkVelB bkNAccB bkCol ptE ptr ang linr].
  - intros s. apply id_rigid.
  - apply Spatial_ext; apply V3_ext; cbn; unfold kAl; ring.
  - eapply dM_eq; [apply dM_const|]. apply M3_ext; v3c.
  - repeat split; cbn; (eapply dl_eq; [first [apply dl_id|apply dl_const]|unfold m3mulv, dot; cbn; ring]).
  - unfold jsp, spsum, kAld; simpl. repeat split; cbn; (eapply dl_eq; [apply dl_const|unfold kAld; cbn; ring]).
Qed.
Definition kStill (p : V3) (s : R) : bodyKin := mkBK (mkPT m3id p) sp0 sp0 (fun _ => sp0).
Lemma kStill_moves mb p al ald t : movesAt mb [] (kStill p) al ald t.
Proof.
  apply moves_of; unfold kStill; cbn [bkPos bkVelB bkNAccB bkCol ptE ptr ang linr sp0].
  - intros s. apply id_rigid.
  - unfold jsp, spsum; simpl. reflexivity.
  - eapply dM_eq; [apply dM_const|]. apply M3_ext; v3c.
  - eapply dV_eq; [apply dV_const|]. v3c.
  - unfold jsp, spsum; simpl. repeat split; cbn; (eapply dl_eq; [apply dl_const|cbn; ring]).
Qed.

(** *** PositionTask *)
Definition xhat : V3 := mkV3 1 0 0.
Lemma position_refuted_lemma : exists mb path K al ald t jm pos bp ops p H, wfPath mb path /\ sized 3 mb jm /\ movesAt mb path K al ald t /\
  latest posGivePoint bp ops = p /\ posBodyPoint (fold_left posStep ops (posInit pos bp path)) = p /\
  yields 3 mb (fun s => posUpdate mb (fold_left posStep ops (posInit pos bp path)) (K s) (jm s)) H /\
  vget (hErr (H t)) 0 <> e3 pos 0 - e3 (worldPoint p (K t)) 0 /\ ~ errorRate 0 3 H t.
Proof.
  destruct (position_tracks kMb [0%nat] v0 v0 [PosBodyPoint xhat] (kRev 1 0) (kAl 1 0) (kAld 0) 0 (kJm 3) kWf (kSized 3) (kRev_moves 1 0 0)) as (H & Y & HE & HS & _).
  exists kMb, [0%nat], (kRev 1 0), (kAl 1 0), (kAld 0), 0, (kJm 3), v0, v0, [PosBodyPoint xhat], xhat, H.
  split; [apply kWf|]. split; [apply kSized|]. split; [apply kRev_moves|]. split; [reflexivity|]. split; [reflexivity|]. split; [exact Y|].
  assert (WP : forall p s, worldPoint p (kRev 1 0 s) = m3mulv (m3tr (RotZ s)) p).
  { intros p s. unfold worldPoint, kRev, kQ, pt_mul, pt_trans; cbn. replace (1 * s + 0 * (s * s) / 2) with s by field. unfold m3mulv, vadd, dot; cbn. f_equal; ring. }
  split.
  - rewrite HE by lia. cbn [latest fold_left posGivePos]. rewrite !WP. unfold RotZ, xhat, v0, m3mulv, m3tr, dot. cbn. rewrite cos_0, sin_0. lra.
  - intros ER. assert (Z : vget (hSpeed (H 0)) 1 = 0).
    { assert (D : dlim (fun s => vget (hErr (H s)) 1) 0 0).
      { eapply dl_ext; [|apply (dl_const 0)]. intros s. rewrite HE by lia. cbn [latest fold_left posGivePos]. rewrite WP. unfold RotZ, v0, m3mulv, m3tr, dot. cbn. ring. }
      pose proof (dl_unique _ _ _ _ D (ER 1%nat ltac:(lia))). lra. }
    assert (D : dlim (fun s => e3 (worldPoint xhat (kRev 1 0 s)) 1) 0 1).
    { eapply dl_ext; [intros s; rewrite WP; unfold RotZ, xhat, m3mulv, m3tr, dot; cbn; reflexivity|].
      eapply dl_ext; [|eapply dl_eq; [apply derivable_pt_lim_sin|apply cos_0]]. intros s. cbv beta. ring. }
    pose proof (HS 1%nat ltac:(lia)) as D2. cbn [latest fold_left posGivePoint] in D2. pose proof (dl_unique _ _ _ _ D D2). lra.
Qed.
