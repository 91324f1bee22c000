(** Concrete motions used by the examples and the refutations of the visual tasks. *)
From Verif Require Export VisFacts KinWitness VisSpec.
From Coq Require Import Lra Lia.
Open Scope string_scope.
Open Scope list_scope.
Open Scope R_scope.
Local Arguments sumn : simpl never.
Local Arguments e6 : simpl never.

(** A camera that slides along x at unit speed and rolls about x by sin(s) / 2. *)
Definition gMb : multibody := mkMB [mkJoint "slide" 1 1 None; mkJoint "roll" 1 1 None].
Definition gQ (s : R) : R := sin s * / 2.
Definition gK (s : R) : bodyKin := mkBK (mkPT (RotX (gQ s)) (mkV3 s 0 0)) (mkSp (mkV3 (cos s * / 2) 0 0) xhat) sp0
  (fun c => match c with 0%nat => mkSp v0 xhat | _ => mkSp xhat v0 end).
Definition gAl (s : R) (j : nat) : R := match j with 0%nat => 1 | _ => cos s * / 2 end.
Definition gAld (s : R) (j : nat) : R := match j with 0%nat => 0 | _ => - sin s * / 2 end.
Definition gJm (s : R) : mat := mzero 2 2.
Lemma gWf : wfPath gMb [0%nat; 1%nat].
Proof. split; [repeat constructor; simpl; lia|]. intros i [<-|[<-|[]]]; simpl; lia. Qed.
Lemma gSized : sized 2 gMb gJm.
Proof. intros s. split; reflexivity. Qed.
Lemma gQ_rate t : dlim gQ t (cos t * / 2).
Proof. unfold gQ. eapply dl_eq; [apply dl_mult; [apply derivable_pt_lim_sin|apply dl_const]|]. cbv beta. ring. Qed.
Lemma gW_rate t : dlim (fun s => cos s * / 2) t (- sin t * / 2).
Proof. eapply dl_eq; [apply dl_mult; [apply derivable_pt_lim_cos|apply dl_const]|]. cbv beta. ring. Qed.
Lemma gMoves t : movesAt gMb [0%nat; 1%nat] gK gAl gAld t.
Proof.
  apply moves_of; unfold gK; cbn [bkPos bkVelB bkNAccB bkCol ptE ptr ang linr].
  - intros s. exact (RotX_rotation (gQ s)).
  - apply Spatial_ext; apply V3_ext; cbn; ring.
  - assert (S : dlim (fun s => sin (gQ s)) t (cos (gQ t) * (cos t * / 2))) by (apply (dl_comp gQ sin); [apply gQ_rate|apply derivable_pt_lim_sin]).
    assert (C : dlim (fun s => cos (gQ s)) t (- sin (gQ t) * (cos t * / 2))) by (apply (dl_comp gQ cos); [apply gQ_rate|apply derivable_pt_lim_cos]).
    unfold RotX, m3neg, m3mul, skewm, m3mulv, dot. repeat split; cbn; (eapply dl_eq; [first [exact S|exact C|apply dl_opp; exact S|apply dl_const]|ring]).
  - repeat split; cbn; (eapply dl_eq; [first [apply dl_id|apply dl_const]|unfold m3mulv, dot; cbn; ring]).
  - unfold jsp, spsum; simpl. repeat split; cbn; (eapply dl_eq; [first [apply dl_const|apply gW_rate]|cbn; ring]).
Qed.
(** Two points of the world in front of it. *)
Definition gPt (a : R) : V3 := mkV3 a a 1.
Lemma gSeen a s : inCamera pt_id (gK s) (gPt a) = mkV3 (a - s) (cos (gQ s) * a + sin (gQ s)) (- sin (gQ s) * a + cos (gQ s)).
Proof.
  unfold inCamera, gK, gPt, pt_mul, pt_id; cbn [bkPos ptE ptr].
  unfold m3mulv, m3mul, m3tr, m3id, vsub, vadd, RotX, dot, v0; cbn [vx vy vz row0 row1 row2]. apply V3_ext; cbn [vx vy vz row0 row1 row2].
  all: unfold m3mulv, dot; cbn [vx vy vz row0 row1 row2]; ring.
Qed.
Lemma gDepth a s : a = 1 \/ a = -1 -> vz (inCamera pt_id (gK s) (gPt a)) <> 0.
Proof.
  intros A. rewrite gSeen; cbn. assert (C : 0 < cos (2 * gQ s)).
  { unfold gQ. replace (2 * (sin s * / 2)) with (sin s) by field. pose proof (SIN_bound s). pose proof PI2_1. apply cos_gt_0; lra. }
  rewrite cos_2a in C. intros E. destruct A as [-> | ->].
  - assert (Q : cos (gQ s) = sin (gQ s)) by lra. rewrite Q in C. lra.
  - assert (Q : cos (gQ s) = - sin (gQ s)) by lra. rewrite Q in C. nra.
Qed.
Lemma g0 : gQ 0 = 0.
Proof. unfold gQ. rewrite sin_0. ring. Qed.
Lemma gVel0 : rbdVel pt_id (gK 0) = mkSp (mkV3 (/ 2) 0 0) xhat.
Proof. unfold rbdVel, gK, pt_mulM, pt_id, xhat, v0; cbn. rewrite cos_0. apply Spatial_ext; apply V3_ext; unfold m3mulv, m3id, cross, vsub, dot; cbn; ring. Qed.
Lemma gSeen0 a : inCamera pt_id (gK 0) (gPt a) = gPt a.
Proof. rewrite gSeen, g0, cos_0, sin_0. unfold gPt. f_equal; ring. Qed.
Lemma gDepthRate a : dlim (fun s => vz (inCamera pt_id (gK s) (gPt a))) 0 (- a / 2).
Proof.
  pose proof (inCamera_rate gMb [0%nat; 1%nat] gK gAl gAld 0 pt_id (gPt a) (gMoves 0) rotation_id) as (_ & _ & D). eapply dl_eq; [exact D|].
  rewrite gVel0, gSeen0. unfold gPt, xhat, cross, vadd, vneg; cbn. field.
Qed.
(** The two points have the same image speed and the same depth: the depth rate used is the same. *)
Lemma gUsed F : gzUsedRate F (rbdVel pt_id (gK 0)) (inCamera pt_id (gK 0) (gPt 1)) = gzUsedRate F (rbdVel pt_id (gK 0)) (inCamera pt_id (gK 0) (gPt (-1))).
Proof.
  rewrite gVel0, !gSeen0. unfold gzUsedRate, gPt; cbn [vx vy vz].
  assert (S : forall m, (m < 2)%nat -> sumn 6 (fun k => interaction (1 / 1, 1 / 1) 1 m k * e6 (mkSp (mkV3 (/ 2) 0 0) xhat) k) =
                       sumn 6 (fun k => interaction (-1 / 1, -1 / 1) 1 m k * e6 (mkSp (mkV3 (/ 2) 0 0) xhat) k)).
  { intros m Hm. destruct (e6_at (mkSp (mkV3 (/ 2) 0 0) xhat)) as (E0 & E1 & E2 & E3 & E4 & E5). rewrite !sum6, E0, E1, E2, E3, E4, E5.
    destruct m as [|[|]]; [| |lia]; unfold interaction, xhat; cbn; field. }
  rewrite !S by lia. reflexivity.
Qed.
Definition gTask (ref : V2) : gazeTask := mkGz (0, 0) ref 1 pt_id [0%nat; 1%nat].
Lemma gaze_acc_refuted F : usesInteraction F -> exists mb path p ref T K al ald t jm H, wfPath mb path /\ gzPath T = path /\ rigid (gzX T) /\ sized 2 mb jm /\
  (forall s, movesAt mb path K al ald s) /\ (forall s, vz (inCamera (gzX T) (K s) p) <> 0) /\
  yields 2 mb (fun s => gzTrack F mb (inCamera (gzX T) (K s) p) ref T (K s) (jm s)) H /\ ~ speedRate 0 2 H ald t.
Proof.
  intros UF.
  assert (X : exists a, (a = 1 \/ a = -1) /\ - a / 2 <> gzUsedRate F (rbdVel pt_id (gK 0)) (inCamera pt_id (gK 0) (gPt a))).
  { pose proof (gUsed F) as U. destruct (Req_EM_T (- 1 / 2) (gzUsedRate F (rbdVel pt_id (gK 0)) (inCamera pt_id (gK 0) (gPt 1)))) as [E|E].
    - exists (-1). split; [auto|]. rewrite <- U, <- E. lra.
    - exists 1. split; auto. }
  destruct X as (a & A & NE).
  destruct (gaze_tracks F gMb [0%nat; 1%nat] (gPt a) (0, 0) (gTask (0, 0)) gK gAl gAld 0 gJm UF gWf eq_refl rotation_id gSized (gMoves 0) (fun s => gDepth a s A)) as (H & Y & _ & _ & _ & SR).
  exists gMb, [0%nat; 1%nat], (gPt a), (0, 0), (gTask (0, 0)), gK, gAl, gAld, 0, gJm, H.
  split; [apply gWf|]. split; [reflexivity|]. split; [exact rotation_id|]. split; [apply gSized|]. split; [exact gMoves|]. split; [exact (fun s => gDepth a s A)|]. split; [exact Y|].
  intros R. specialize (R 0%nat ltac:(lia)). pose proof (dl_unique _ _ _ _ R (SR _ (gDepthRate a) 0%nat ltac:(lia))) as E. cbn [gzX gTask] in E.
  set (u := gzUsedRate F _ _) in *. rewrite gVel0, gSeen0 in E. cbn [gPt vz] in E. destruct (e6_at (mkSp (mkV3 (/ 2) 0 0) xhat)) as (_ & _ & _ & E3 & _ & E5).
  cbn [Nat.add] in E. rewrite E3, E5 in E. cbn in E. apply NE. field_simplify in E. lra.
Qed.
Lemma feature_refuted_lemma F step : usesInteraction F -> 0 < step -> exists mb path X p K al ald t full bc u a, wfPath mb path /\ rigid X /\
  (forall s, movesAt mb path K al ald s) /\ (forall s, vz (inCamera X (K s) p) <> 0) /\
  components F (gzKin X (K t)) mb path step (vx (inCamera X (K t) p) / vz (inCamera X (K t) p), vy (inCamera X (K t) p) / vz (inCamera X (K t) p)) (vz (inCamera X (K t) p)) = Ok (full, bc) /\
  (forall s, dlim (fun s => vx (inCamera X (K s) p) / vz (inCamera X (K s) p)) s (u s)) /\ dlim u t a /\
  sumn (mcols full) (fun j => mget full 0 j * ald t j) - ax bc 0 <> step * u t + step * step / 2 * a.
Proof.
  intros UF Hs.
  assert (X : exists a, (a = 1 \/ a = -1) /\ - a / 2 <> gzUsedRate F (rbdVel pt_id (gK 0)) (inCamera pt_id (gK 0) (gPt a))).
  { pose proof (gUsed F) as U. destruct (Req_EM_T (- 1 / 2) (gzUsedRate F (rbdVel pt_id (gK 0)) (inCamera pt_id (gK 0) (gPt 1)))) as [E|E].
    - exists (-1). split; [auto|]. rewrite <- U, <- E. lra.
    - exists 1. split; auto. }
  destruct X as (a & A & NE).
  destruct (feature_prediction F gMb [0%nat; 1%nat] pt_id (gPt a) step gK gAl gAld 0 UF gWf rotation_id gMoves (fun s => gDepth a s A)) as (full & bc & E & _ & _ & P).
  destruct (image_motion gMb [0%nat; 1%nat] pt_id (gPt a) gK gAl gAld 0 0 gWf rotation_id gMoves (fun s => gDepth a s A) ltac:(lia)) as (u & b & DU & DA).
  exists gMb, [0%nat; 1%nat], pt_id, (gPt a), gK, gAl, gAld, 0, full, bc, u, b.
  split; [apply gWf|]. split; [exact rotation_id|]. split; [exact gMoves|]. split; [exact (fun s => gDepth a s A)|]. split; [exact E|]. split; [exact DU|]. split; [exact DA|].
  rewrite (P 0%nat u b _ ltac:(lia) DU DA (gDepthRate a)).
  set (w := gzUsedRate F _ _) in *. rewrite gVel0, gSeen0. cbn [gPt vz]. destruct (e6_at (mkSp (mkV3 (/ 2) 0 0) xhat)) as (_ & _ & _ & E3 & _ & E5).
  cbn [Nat.add]. rewrite E3, E5. cbn [xhat linr vx vz e3]. intros Q. apply NE. assert (Z : step * step / 2 * (- a / 2 - w) = 0) by (field_simplify in Q; field_simplify; nra).
  apply Rmult_integral in Z as [Z|Z]; [nra|lra].
Qed.

(** *** PositionBasedVisServoTask *)
(** A sensor on an arm of length one that turns at unit speed. *)
Definition pSensor : PT := pt_trans xhat.
Lemma pRigid : rigid pSensor.
Proof. exact rotation_id. Qed.
Lemma pbvs_acc_refuted F : usesPose F -> (forall w, pfSkew F w = skewm w) -> exists mb path X_0_t X K al ald t jm H, wfPath mb path /\ sized 6 mb jm /\ rigid X /\ rigid X_0_t /\ (forall s, movesAt mb path K al ald s) /\
  yields 6 mb (fun s => pbUpdate F mb path (seenFrom X_0_t X (K s)) X (K s) (jm s)) H /\ ~ speedRate 3 6 H ald t.
Proof.
  intros UP SK. destruct (pbvs_tracks F kMb [0%nat] pt_id pSensor (kRev 1 0) (kAl 1 0) (kAld 0) 0 (kJm 6) UP kWf (kSized 6) pRigid (kRev_moves 1 0 0)) as (H & Y & _ & _ & _ & _ & SR).
  exists kMb, [0%nat], pt_id, pSensor, (kRev 1 0), (kAl 1 0), (kAld 0), 0, (kJm 6), H.
  split; [apply kWf|]. split; [apply kSized|]. split; [apply pRigid|]. split; [exact rotation_id|]. split; [apply kRev_moves|]. split; [exact Y|].
  intros Q. specialize (Q 3%nat ltac:(lia)). pose proof (dl_unique _ _ _ _ Q (SR 0%nat ltac:(lia))) as E. rewrite SK, skewm_mulv in E.
  assert (V : rbdVel pSensor (kRev 1 0 0) = mkSp (mkV3 0 0 1) (mkV3 0 1 0)).
  { unfold rbdVel, kRev, pt_mulM, pSensor, pt_trans, xhat, v0; cbn. apply Spatial_ext; apply V3_ext; unfold m3mulv, m3id, cross, vsub, dot; cbn; ring. }
  assert (S : m3tr (ptE (seenFrom pt_id pSensor (kRev 1 0 0))) = m3id).
  { rewrite seen_E. unfold kRev, kQ, pSensor, pt_trans, pt_id; cbn. replace (1 * 0 + 0 * (0 * 0) / 2) with 0 by field. unfold RotZ. rewrite cos_0, sin_0. unfold m3mul, m3tr, m3id, m3mulv, dot; cbn. apply M3_ext; apply V3_ext; unfold m3mulv, dot; cbn; ring. }
  rewrite V, S in E. cbn [ang linr] in E. unfold cross, vadd, m3mulv, m3id, dot in E; cbn [vx vy vz row0 row1 row2 e3] in E. cbn [Nat.add] in E. lra.
Qed.
(** External functions for the examples. *)
Definition vF : imgFun := mkImg interaction (fun _ _ _ => 0) interactionDot.
Lemma vF_ok : usesInteraction vF.
Proof. split; reflexivity. Qed.
Lemma vF_rate V q : gzUsedRate vF V q = 0.
Proof. unfold gzUsedRate, vF; cbn [imgDepthDot]. rewrite sum6. ring. Qed.
Lemma gStill : dlim (fun s => vz (inCamera pt_id (gK s) (gPt 1))) (PI / 2) 0.
Proof.
  pose proof (inCamera_rate gMb [0%nat; 1%nat] gK gAl gAld (PI / 2) pt_id (gPt 1) (gMoves (PI / 2)) rotation_id) as (_ & _ & D). eapply dl_eq; [exact D|].
  assert (V : rbdVel pt_id (gK (PI / 2)) = mkSp v0 xhat).
  { unfold rbdVel, gK, pt_mulM, pt_id, xhat, v0; cbn [bkVelB ang linr ptE ptr]. rewrite cos_PI2. apply Spatial_ext; apply V3_ext; unfold m3mulv, m3id, cross, vsub, dot; cbn; ring. }
  rewrite V. unfold xhat, cross, vadd, vneg, v0; cbn [vx vy vz ang linr]. ring.
Qed.
Definition vP : poseFun := mkPF (fun _ => (0, v0))
  (fun E i q => if (i <? 3)%nat then (if (i =? q)%nat then 1 else 0) else if (q <? 3)%nat then 0 else m3ent (m3tr E) (i - 3) (q - 3)) skewm.
Lemma vP_ok : usesPose vP.
Proof.
  intros E i q Hi Hq. unfold vP; cbn [pfJac]. destruct i as [|[|[|]]]; try lia; destruct q as [|[|[|]]]; try lia; repeat split.
Qed.
