(** Properties of the visual tasks and of the features of ImageConstr. *)
From Verif Require Import VisModel VisSpec KinTaskFacts VisWitness.
From Coq Require Import Lra Lia.
Open Scope string_scope.
Open Scope list_scope.
Open Scope R_scope.

(** C113: whatever the task was given before, following a point of the world that is never in the plane of the camera: the error is the reference minus the
    projection of the point, it decreases at the speed of the task, and the speed is the Jacobian times the joint velocities. *)
Theorem C113_gaze : forall F mb path p ref T K al ald t jm, usesInteraction F -> wfPath mb path -> gzPath T = path -> rigid (gzX T) -> sized 2 mb jm -> movesAt mb path K al ald t ->
  (forall s, vz (inCamera (gzX T) (K s) p) <> 0) ->
  exists H, yields 2 mb (fun s => gzTrack F mb (inCamera (gzX T) (K s) p) ref T (K s) (jm s)) H /\
    (forall s m, (m < 2)%nat -> vget (hErr (H s)) m = ax ref m - e3 (inCamera (gzX T) (K s) p) m / vz (inCamera (gzX T) (K s) p)) /\
    speedIsJac 2 H al t /\ errorRate 0 2 H t.
Proof. exact gaze_lemma. Qed.
Print Assumptions C113_gaze.
Example C113_used : exists H, yields 2 gMb (fun s => gzTrack vF gMb (inCamera pt_id (gK s) (gPt 1)) (0, 0) (gTask (3, 4)) (gK s) (gJm s)) H /\ errorRate 0 2 H 2.
Proof.
  destruct (C113_gaze vF gMb [0%nat; 1%nat] (gPt 1) (0, 0) (gTask (3, 4)) gK gAl gAld 2 gJm vF_ok gWf eq_refl rotation_id gSized (gMoves 2) (fun s => gDepth 1 s (or_introl eq_refl))) as (H & Y & _ & _ & E).
  exists H. auto.
Qed.

(** C114: the normal acceleration of GazeTask is not that of the image motion, whatever the depth-rate Jacobian of the library is: it is called with the image speed in
    place of the image point, and two points with the same image speed and depth can have different depth rates. *)
Theorem C114_gaze_acceleration_refuted : forall F, usesInteraction F -> exists mb path p ref T K al ald t jm H, wfPath mb path /\ gzPath T = path /\ rigid (gzX T) /\ sized 2 mb jm /\
  (forall s, movesAt mb path K al ald s) /\ (forall s, vz (inCamera (gzX T) (K s) p) <> 0) /\
  yields 2 mb (fun s => gzTrack F mb (inCamera (gzX T) (K s) p) ref T (K s) (jm s)) H /\ ~ speedRate 0 2 H ald t.
Proof. exact gaze_acc_refuted. Qed.
Print Assumptions C114_gaze_acceleration_refuted.
(** The exact error; none when the rate of the depth is the one used. *)
Theorem C114_exact : forall F mb path p ref T K al ald t jm zd, usesInteraction F -> wfPath mb path -> gzPath T = path -> rigid (gzX T) -> sized 2 mb jm -> movesAt mb path K al ald t ->
  (forall s, vz (inCamera (gzX T) (K s) p) <> 0) -> dlim (fun s => vz (inCamera (gzX T) (K s) p)) t zd ->
  exists H, yields 2 mb (fun s => gzTrack F mb (inCamera (gzX T) (K s) p) ref T (K s) (jm s)) H /\
    (forall m, (m < 2)%nat -> dlim (fun s => vget (hSpeed (H s)) m) t (taskAcc (H t) 0 (ald t) m +
         (zd - gzUsedRate F (rbdVel (gzX T) (K t)) (inCamera (gzX T) (K t) p)) *
         (e6 (rbdVel (gzX T) (K t)) (3 + m) - e3 (inCamera (gzX T) (K t) p) m / vz (inCamera (gzX T) (K t) p) * e6 (rbdVel (gzX T) (K t)) 5)
         / (vz (inCamera (gzX T) (K t) p) * vz (inCamera (gzX T) (K t) p)))) /\
    (gzUsedRate F (rbdVel (gzX T) (K t)) (inCamera (gzX T) (K t) p) = zd -> speedRate 0 2 H ald t).
Proof. exact gaze_acc_exact. Qed.
Print Assumptions C114_exact.
(** At the quarter of a period the camera does not roll: the depth rate is zero, which a zero depth-rate Jacobian gives. *)
Example C114_used : exists H, yields 2 gMb (fun s => gzTrack vF gMb (inCamera pt_id (gK s) (gPt 1)) (0, 0) (gTask (3, 4)) (gK s) (gJm s)) H /\ speedRate 0 2 H gAld (PI / 2).
Proof.
  destruct (C114_exact vF gMb [0%nat; 1%nat] (gPt 1) (0, 0) (gTask (3, 4)) gK gAl gAld (PI / 2) gJm 0 vF_ok gWf eq_refl rotation_id gSized (gMoves (PI / 2)) (fun s => gDepth 1 s (or_introl eq_refl)) gStill)
    as (H & Y & _ & R).
  exists H. split; [exact Y|]. apply R. apply vF_rate.
Qed.

(** C115: the rows of ImageConstr do not predict the feature to second order of the step, whatever the depth-rate Jacobian is. *)
Theorem C115_feature_refuted : forall F step, usesInteraction F -> 0 < step -> exists mb path X p K al ald t full bc u a, wfPath mb path /\ rigid X /\
  (forall s, movesAt mb path K al ald s) /\ (forall s, vz (inCamera X (K s) p) <> 0) /\
  components F (gzKin X (K t)) mb path step (vx (inCamera X (K t) p) / vz (inCamera X (K t) p), vy (inCamera X (K t) p) / vz (inCamera X (K t) p)) (vz (inCamera X (K t) p)) = Ok (full, bc) /\
  (forall s, dlim (fun s => vx (inCamera X (K s) p) / vz (inCamera X (K s) p)) s (u s)) /\ dlim u t a /\
  sumn (mcols full) (fun j => mget full 0 j * ald t j) - ax bc 0 <> step * u t + step * step / 2 * a.
Proof. exact feature_refuted_lemma. Qed.
Print Assumptions C115_feature_refuted.
(** What they predict: step times the image speed plus half the squared step times the image acceleration, up to the error of the depth rate. *)
Theorem C115_exact : forall F mb path X p step K al ald t, usesInteraction F -> wfPath mb path -> rigid X ->
  (forall s, movesAt mb path K al ald s) -> (forall s, vz (inCamera X (K s) p) <> 0) ->
  exists full bc, components F (gzKin X (K t)) mb path step (vx (inCamera X (K t) p) / vz (inCamera X (K t) p), vy (inCamera X (K t) p) / vz (inCamera X (K t) p)) (vz (inCamera X (K t) p)) = Ok (full, bc) /\
    mrows full = 2%nat /\ mcols full = nrDof mb /\
    forall m u a zd, (m < 2)%nat -> (forall s, dlim (fun s => e3 (inCamera X (K s) p) m / vz (inCamera X (K s) p)) s (u s)) -> dlim u t a ->
      dlim (fun s => vz (inCamera X (K s) p)) t zd ->
      sumn (mcols full) (fun j => mget full m j * ald t j) - ax bc m = step * u t + step * step / 2 * (a -
        (zd - gzUsedRate F (rbdVel X (K t)) (inCamera X (K t) p)) *
        (e6 (rbdVel X (K t)) (3 + m) - e3 (inCamera X (K t) p) m / vz (inCamera X (K t) p) * e6 (rbdVel X (K t)) 5)
        / (vz (inCamera X (K t) p) * vz (inCamera X (K t) p))).
Proof. exact feature_prediction. Qed.
Print Assumptions C115_exact.
Example C115_used : exists full bc u a, components vF (gzKin pt_id (gK (PI / 2))) gMb [0%nat; 1%nat] (1 / 100)
    (vx (inCamera pt_id (gK (PI / 2)) (gPt 1)) / vz (inCamera pt_id (gK (PI / 2)) (gPt 1)), vy (inCamera pt_id (gK (PI / 2)) (gPt 1)) / vz (inCamera pt_id (gK (PI / 2)) (gPt 1)))
    (vz (inCamera pt_id (gK (PI / 2)) (gPt 1))) = Ok (full, bc) /\
  (forall s, dlim (fun s => vx (inCamera pt_id (gK s) (gPt 1)) / vz (inCamera pt_id (gK s) (gPt 1))) s (u s)) /\ dlim u (PI / 2) a /\
  sumn (mcols full) (fun j => mget full 0 j * gAld (PI / 2) j) - ax bc 0 = 1 / 100 * u (PI / 2) + 1 / 100 * (1 / 100) / 2 * a.
Proof.
  destruct (C115_exact vF gMb [0%nat; 1%nat] pt_id (gPt 1) (1 / 100) gK gAl gAld (PI / 2) vF_ok gWf rotation_id gMoves (fun s => gDepth 1 s (or_introl eq_refl))) as (full & bc & E & _ & _ & P).
  destruct (image_motion gMb [0%nat; 1%nat] pt_id (gPt 1) gK gAl gAld (PI / 2) 0 gWf rotation_id gMoves (fun s => gDepth 1 s (or_introl eq_refl)) ltac:(lia)) as (u & a & DU & DA).
  exists full, bc, u, a. split; [exact E|]. split; [exact DU|]. split; [exact DA|]. rewrite (P 0%nat u a 0 ltac:(lia) DU DA gStill), vF_rate.
  unfold Rdiv. ring.
Qed.

(** C116: PositionBasedVisServoTask given the pose of the sensor as seen from a fixed target: the linear error is the vector to the target in the frame of the target,
    it decreases at the linear speed, the angular error is angle times axis of the rotation back, and the speed is the Jacobian times the joint velocities. *)
Theorem C116_pose : forall F mb path X_0_t X K al ald t jm, usesPose F -> wfPath mb path -> sized 6 mb jm -> rigid X -> movesAt mb path K al ald t ->
  exists H, yields 6 mb (fun s => pbUpdate F mb path (seenFrom X_0_t X (K s)) X (K s) (jm s)) H /\
    (forall s i, (i < 3)%nat -> vget (hErr (H s)) (3 + i) = e3 (m3mulv (ptE X_0_t) (vsub (ptr X_0_t) (worldPoint (ptr X) (K s)))) i) /\
    (forall s i, (i < 3)%nat -> vget (hErr (H s)) i = fst (pfAngle F (m3tr (ptE (seenFrom X_0_t X (K s))))) * e3 (snd (pfAngle F (m3tr (ptE (seenFrom X_0_t X (K s)))))) i) /\
    speedIsJac 6 H al t /\ errorRate 3 6 H t.
Proof. exact pbvs_lemma. Qed.
Print Assumptions C116_pose.
Example C116_used : exists H, yields 6 kMb (fun s => pbUpdate vP kMb [0%nat] (seenFrom pt_id pSensor (kRev 1 0 s)) pSensor (kRev 1 0 s) (kJm 6 s)) H /\ errorRate 3 6 H 1.
Proof.
  destruct (C116_pose vP kMb [0%nat] pt_id pSensor (kRev 1 0) (kAl 1 0) (kAld 0) 1 (kJm 6) vP_ok kWf (kSized 6) pRigid (kRev_moves 1 0 1)) as (H & Y & _ & _ & _ & E).
  exists H. auto.
Qed.

(** C117: its linear normal acceleration has the wrong sign in the term of the turning frame when getSkewSym gives the matrix of the cross product. *)
Theorem C117_pose_acceleration_refuted : forall F, usesPose F -> (forall w, pfSkew F w = skewm w) -> exists mb path X_0_t X K al ald t jm H,
  wfPath mb path /\ sized 6 mb jm /\ rigid X /\ rigid X_0_t /\ (forall s, movesAt mb path K al ald s) /\
  yields 6 mb (fun s => pbUpdate F mb path (seenFrom X_0_t X (K s)) X (K s) (jm s)) H /\ ~ speedRate 3 6 H ald t.
Proof. exact pbvs_acc_refuted. Qed.
Print Assumptions C117_pose_acceleration_refuted.
(** The exact error: none when the sensor does not turn, or turns about the direction it moves in, or with the matrix of the opposite sign. *)
Theorem C117_exact : forall F mb path X_0_t X K al ald t jm, usesPose F -> wfPath mb path -> sized 6 mb jm -> rigid X -> movesAt mb path K al ald t ->
  exists H, yields 6 mb (fun s => pbUpdate F mb path (seenFrom X_0_t X (K s)) X (K s) (jm s)) H /\
    (forall i, (i < 3)%nat -> dlim (fun s => vget (hSpeed (H s)) (3 + i)) t (taskAcc (H t) 0 (ald t) (3 + i) +
      e3 (m3mulv (m3tr (ptE (seenFrom X_0_t X (K t))))
            (vadd (cross (ang (rbdVel X (K t))) (linr (rbdVel X (K t)))) (m3mulv (pfSkew F (ang (rbdVel X (K t)))) (linr (rbdVel X (K t)))))) i)) /\
    ((forall w, pfSkew F w = skewm w) -> cross (ang (rbdVel X (K t))) (linr (rbdVel X (K t))) = v0 -> speedRate 3 6 H ald t) /\
    ((forall w, pfSkew F w = m3neg (skewm w)) -> speedRate 3 6 H ald t).
Proof. exact pbvs_acc_exact. Qed.
Print Assumptions C117_exact.
(** A sensor on the axis of rotation. *)
Example C117_used : exists H, yields 6 kMb (fun s => pbUpdate vP kMb [0%nat] (seenFrom pt_id pt_id (kRev 1 0 s)) pt_id (kRev 1 0 s) (kJm 6 s)) H /\ speedRate 3 6 H (kAld 0) 1.
Proof.
  destruct (C117_exact vP kMb [0%nat] pt_id pt_id (kRev 1 0) (kAl 1 0) (kAld 0) 1 (kJm 6) vP_ok kWf (kSized 6) rotation_id (kRev_moves 1 0 1)) as (H & Y & _ & R & _).
  exists H. split; [exact Y|]. apply R; [reflexivity|]. unfold rbdVel, kRev, pt_mulM, pt_id, m3id, v0; cbn. apply V3_ext; unfold m3mulv, cross, vsub, dot; cbn; ring.
Qed.
