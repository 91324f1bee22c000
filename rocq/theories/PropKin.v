(** Properties of the kinematic tasks: what they promise about the motion of the robot. *)
From Verif Require Import KinModel KinMultiModel KinSpec TreeModel TreeSpec KinWitness DistWitness TreeWitness KinAxis.
From Coq Require Import Lra Lia.
Open Scope string_scope.
Open Scope list_scope.
Open Scope R_scope.

(** C64: whatever the solver was used for before, after nrVars and computeNormalAccB on any robots in motion, the Jacobian of every body of every mobile
    robot times the joint accelerations, plus the computed acceleration, is the derivative of the velocity of the body. *)
Theorem C64_normal_accelerations : forall ms gs t d, Forall2 (robotMoves t) ms gs ->
  exists D : R -> naccData, (forall s, naccCompute ms (configs ms gs s) (naccNrVars ms d) = Ok (D s) /\ length (naAcc (D s)) = length ms) /\
    (forall r m g, nth_error ms r = Some m -> nth_error gs r = Some g -> (0 < nrDof (trMB m))%nat ->
       (forall s, length (nth r (naAcc (D s)) []) = trBodies m) /\
       forall b, (b < trBodies m)%nat -> exists up, upTo m b up /\ wfPath (trMB m) (rev up) /\
         movesAt (trMB m) (rev up) (fun s => mkBK (rmP g s b) (rmVb g s b) (nth b (nth r (naAcc (D s)) []) sp0) (treeCol (trMB m) (rmX g s) (rmSub g) up))
           (rmAl g) (rmAld g) t) /\
    (forall r m s, nth_error ms r = Some m -> nrDof (trMB m) = 0%nat -> nth r (naAcc (D s)) [] = resize (nth r (naAcc d) []) (trBodies m) sp0).
Proof. exact normal_acc_moves. Qed.
Print Assumptions C64_normal_accelerations.
(** A slider on a turntable, both at unit speed: the solver finds the Coriolis acceleration. *)
Example C64_used : exists D, (forall s, naccCompute [tTree] (configs [tTree] [tMotion] s) (naccNrVars [tTree] naccInit) = Ok (D s)) /\ e6 (nth 1 (nth 0 (naAcc (D 1)) []) sp0) 4 = 1.
Proof.
  destruct (C64_normal_accelerations [tTree] [tMotion] 1 naccInit) as (D & C & M & _); [constructor; [apply tMoves|constructor]|].
  exists D. split; [intros s; apply C|]. destruct (M 0%nat tTree tMotion eq_refl eq_refl) as (_ & MB); [change (0 < 2)%nat; lia|].
  destruct (MB 1%nat) as (up & _ & _ & [_ _ _ _ A]); [change (1 < 2)%nat; lia|]. specialize (A 4%nat ltac:(lia)). cbn [bkVelB bkNAccB bkCol tMotion rmVb rmAld] in A.
  assert (DV : dlim (fun s => e6 (tVb s 1) 4) 1 1) by (eapply dl_ext; [|apply dl_id]; intros s; reflexivity).
  pose proof (dl_unique _ _ _ _ A DV) as E. revert E. unfold jacDot. rewrite (sumn_ext _ _ (fun _ => 0)) by (intros; unfold kAld; ring).
  rewrite sumn_zero by auto. intros E. lra.
Qed.

(** C101: a robot without degrees of freedom keeps the accelerations of the robot that had its index before. *)
Theorem C101_fixed_robot_refuted : exists ms cs ops d r m, naccRun naccInit (ops ++ [NaNrVars ms; NaCompute ms cs]) = Ok d /\ nth_error ms r = Some m /\ nrDof (trMB m) = 0%nat /\
  length cs = length ms /\ ~ Forall (fun a => a = sp0) (nth r (naAcc d) []).
Proof. exact stale_refuted_lemma. Qed.
Print Assumptions C101_fixed_robot_refuted.
(** They are zero if no robot of that index ever had a degree of freedom. *)
Theorem C101_never_mobile : forall ops d r, Forall (neverMobile r) ops -> naccRun naccInit ops = Ok d -> Forall (fun a => a = sp0) (nth r (naAcc d) []).
Proof. exact fixed_zero_lemma. Qed.
Print Assumptions C101_never_mobile.
Example C101_used : exists d, naccRun naccInit [NaNrVars [tFix]; NaCompute [tFix] [tFixCfg]; NaNrVars [tFix; tTree]] = Ok d /\ nth 0 (naAcc d) [] = [sp0; sp0] /\
  Forall (neverMobile 0) [NaNrVars [tFix]; NaCompute [tFix] [tFixCfg]; NaNrVars [tFix; tTree]].
Proof.
  eexists. split; [reflexivity|]. split; [reflexivity|]. constructor; [intros m E; injection E as <-; reflexivity|]. constructor; [exact I|]. constructor; [|constructor].
  intros m E; injection E as <-; reflexivity.
Qed.

(** C65: error, speed, Jacobian and normal acceleration of VectorOrientationTask. *)
Theorem C65_vector : forall mb path v target K al ald t jm, wfPath mb path -> sized 3 mb jm -> movesAt mb path K al ald t ->
  exists H, yields 3 mb (fun s => vecOriUpdate mb path v target (K s) (jm s)) H /\
    (forall s i, (i < 3)%nat -> vget (hErr (H s)) i = e3 target i - e3 (m3mulv (m3tr (ptE (bkPos (K s)))) v) i) /\
    speedIsJac 3 H al t /\ errorRate 0 3 H t /\ speedRate 0 3 H ald t.
Proof. exact vector_tracks. Qed.
Print Assumptions C65_vector.
Theorem C65_bound : forall E target v, rotation E -> norm target = 1 -> norm v = 1 -> norm (vsub target (m3mulv (m3tr E) v)) <= 2.
Proof. exact vector_error_bound. Qed.
Print Assumptions C65_bound.
Theorem C65_skew : forall v u, m3mulv (skewMatrix v) u = cross v u.
Proof. exact skewMatrix_cross. Qed.
Print Assumptions C65_skew.
(** A joint that turns faster and faster about z. *)
Example C65_used : forall w a t v target, exists H, yields 3 kMb (fun s => vecOriUpdate kMb [0%nat] v target (kRev w a s) (kJm 3 s)) H /\ errorRate 0 3 H t /\ speedRate 0 3 H (kAld a) t.
Proof.
  intros w a t v target. destruct (C65_vector kMb [0%nat] v target (kRev w a) (kAl w a) (kAld a) t (kJm 3) kWf (kSized 3) (kRev_moves w a t)) as (H & Y & _ & _ & E & S). exists H. auto.
Qed.

(** C66: after bodyPoint(p) the Jacobian is at p and the error still at the point of the constructor. *)
Theorem C66_body_point_refuted : exists mb path K al ald t jm pos bp ops p H, wfPath mb path /\ sized 3 mb jm /\ movesAt mb path K al ald t /\
  latest posGivePoint bp ops = p /\ posBodyPoint (fold_left posStep ops (posInit pos bp path)) = p /\
  yields 3 mb (fun s => posUpdate mb (fold_left posStep ops (posInit pos bp path)) (K s) (jm s)) H /\
  vget (hErr (H t)) 0 <> e3 pos 0 - e3 (worldPoint p (K t)) 0 /\ ~ errorRate 0 3 H t.
Proof. exact position_refuted_lemma. Qed.
Print Assumptions C66_body_point_refuted.
(** Exactly: the error is at the point of the constructor; the speed, the Jacobian and the normal acceleration are at the last point given. *)
Theorem C66_exact : forall mb path pos bp ops K al ald t jm, wfPath mb path -> sized 3 mb jm -> movesAt mb path K al ald t ->
  exists H, yields 3 mb (fun s => posUpdate mb (fold_left posStep ops (posInit pos bp path)) (K s) (jm s)) H /\
    (forall s i, (i < 3)%nat -> vget (hErr (H s)) i = e3 (latest posGivePos pos ops) i - e3 (worldPoint bp (K s)) i) /\
    (forall i, (i < 3)%nat -> dlim (fun s => e3 (worldPoint (latest posGivePoint bp ops) (K s)) i) t (vget (hSpeed (H t)) i)) /\
    speedIsJac 3 H al t /\ speedRate 0 3 H ald t /\
    (latest posGivePoint bp ops = bp -> errorRate 0 3 H t).
Proof. exact position_tracks. Qed.
Print Assumptions C66_exact.
Example C66_used : forall w a t, exists H, yields 3 kMb (fun s => posUpdate kMb (fold_left posStep [PosTarget (mkV3 1 2 3)] (posInit v0 xhat [0%nat])) (kRev w a s) (kJm 3 s)) H /\ errorRate 0 3 H t.
Proof.
  intros w a t. destruct (C66_exact kMb [0%nat] v0 xhat [PosTarget (mkV3 1 2 3)] (kRev w a) (kAl w a) (kAld a) t (kJm 3) kWf (kSized 3) (kRev_moves w a t)) as (H & Y & _ & _ & _ & _ & E).
  exists H. split; [exact Y|]. apply E. reflexivity.
Qed.

(** C102: OrientationTask and SurfaceOrientationTask. rv is sva::rotationVelocity. *)
Theorem C102_orientation : forall rv mb path ori K al ald t jm, wfPath mb path -> sized 3 mb jm -> movesAt mb path K al ald t ->
  exists H, yields 3 mb (fun s => oriUpdate rv mb path ori (K s) (jm s)) H /\
    (forall s i, (i < 3)%nat -> vget (hErr (H s)) i = e3 (rotError rv (ptE (bkPos (K s))) ori) i) /\
    (forall s i, (i < 3)%nat -> vget (hSpeed (H s)) i = e3 (m3mulv (m3tr (ptE (bkPos (K s)))) (ang (bkVelB (K s)))) i) /\
    speedIsJac 3 H al t /\ speedRate 0 3 H ald t.
Proof. exact orientation_tracks. Qed.
Print Assumptions C102_orientation.
Theorem C102_surface_orientation : forall rv mb path ori X K al ald t jm, wfPath mb path -> sized 3 mb jm -> movesAt mb path K al ald t ->
  exists H, yields 3 mb (fun s => surfOriUpdate rv mb path ori X (K s) (jm s)) H /\
    (forall s i, (i < 3)%nat -> vget (hErr (H s)) i = e3 (rv (m3mul (m3mul ori (m3tr (ptE (bkPos (K s))))) (m3tr (ptE X)))) i) /\
    (forall s i, (i < 3)%nat -> vget (hSpeed (H s)) i = e3 (m3mulv (ptE X) (ang (bkVelB (K s)))) i) /\
    speedIsJac 3 H al t /\ speedRate 0 3 H ald t.
Proof. exact surface_orientation_tracks. Qed.
Print Assumptions C102_surface_orientation.
Example C102_used : forall rv w a t ori X, (exists H, yields 3 kMb (fun s => oriUpdate rv kMb [0%nat] ori (kRev w a s) (kJm 3 s)) H /\ speedRate 0 3 H (kAld a) t) /\
  exists H, yields 3 kMb (fun s => surfOriUpdate rv kMb [0%nat] ori X (kRev w a s) (kJm 3 s)) H /\ speedRate 0 3 H (kAld a) t.
Proof.
  intros rv w a t ori X. split.
  - destruct (C102_orientation rv kMb [0%nat] ori (kRev w a) (kAl w a) (kAld a) t (kJm 3) kWf (kSized 3) (kRev_moves w a t)) as (H & Y & _ & _ & _ & S). exists H. auto.
  - destruct (C102_surface_orientation rv kMb [0%nat] ori X (kRev w a) (kAl w a) (kAld a) t (kJm 3) kWf (kSized 3) (kRev_moves w a t)) as (H & Y & _ & _ & _ & S). exists H. auto.
Qed.

(** C103: the angular error does not decrease at the speed of the task: a quarter turn about z is to be done while the body turns about x. *)
Theorem C103_angular_refuted : exists mb path ori K al ald t jm H, rotation ori /\ wfPath mb path /\ sized 3 mb jm /\ movesAt mb path K al ald t /\
  yields 3 mb (fun s => oriUpdate rvLog mb path ori (K s) (jm s)) H /\ ~ errorRate 0 3 H t.
Proof. exact angular_refuted_lemma. Qed.
Print Assumptions C103_angular_refuted.
(** It does when the body turns about the axis of the error, by less than a half turn. *)
Theorem C103_axis : forall rv mb path a f d y K al ald t jm, isLog rv -> wfPath mb path -> sized 3 mb jm -> movesAt mb path K al ald t ->
  norm a = 1 -> (forall s, ptE (bkPos (K s)) = rotAxis a (f s)) -> dlim f t d -> Rabs (y - f t) < PI ->
  exists H, yields 3 mb (fun s => oriUpdate rv mb path (rotAxis a y) (K s) (jm s)) H /\ errorRate 0 3 H t /\
    forall i, (i < 3)%nat -> vget (hErr (H t)) i = (y - f t) * e3 a i /\ vget (hSpeed (H t)) i = d * e3 a i.
Proof. exact orientation_axis. Qed.
Print Assumptions C103_axis.
Theorem C103_surface_axis : forall rv mb path a f d y p X K al ald t jm, isLog rv -> wfPath mb path -> sized 6 mb jm -> rigid X -> movesAt mb path K al ald t ->
  norm a = 1 -> (forall s, m3mul (ptE X) (ptE (bkPos (K s))) = rotAxis a (f s)) -> dlim f t d -> Rabs (y - f t) < PI ->
  exists H, yields 6 mb (fun s => surfTfUpdate rv mb path (mkPT (rotAxis a y) p) X (K s) (jm s)) H /\ errorRate 0 6 H t /\ speedRate 0 6 H ald t /\
    forall i, (i < 3)%nat -> vget (hErr (H t)) i = (y - f t) * e3 a i /\ vget (hSpeed (H t)) i = d * e3 a i.
Proof. exact surface_axis. Qed.
Print Assumptions C103_surface_axis.
(** rvLog is such a function. *)
Theorem C103_log : isLog rvLog.
Proof. exact rvLog_isLog. Qed.
Print Assumptions C103_log.
Example C103_used : forall w a, exists H, yields 3 kMb (fun s => oriUpdate rvLog kMb [0%nat] (rotAxis zhat 2) (kRev w a s) (kJm 3 s)) H /\ errorRate 0 3 H 0 /\ vget (hErr (H 0)) 2 = 2 /\ vget (hSpeed (H 0)) 2 = w.
Proof.
  intros w a. assert (U : norm zhat = 1) by (unfold norm, norm2, zhat, dot; cbn; replace (0 * 0 + 0 * 0 + 1 * 1) with 1 by ring; apply sqrt_1).
  destruct (C103_axis rvLog kMb [0%nat] zhat (kQ w a) (w + a * 0) 2 (kRev w a) (kAl w a) (kAld a) 0 (kJm 3) C103_log kWf (kSized 3) (kRev_moves w a 0) U) as (H & Y & E & V).
  - intros s. unfold kRev, RotZ, rotAxis, zhat; cbn. f_equal; f_equal; ring.
  - apply kQ_rate.
  - unfold kQ. replace (2 - (w * 0 + a * (0 * 0) / 2)) with 2 by field. rewrite Rabs_right by lra. pose proof PI2_3_2. unfold PI2 in *. lra.
  - exists H. split; [exact Y|]. split; [exact E|]. destruct (V 2%nat ltac:(lia)) as (-> & ->). unfold kQ, zhat, e3; cbn. split; field.
Qed.

(** C104: TransformTask. The linear part of the error decreases at the speed of the task; the speed is the Jacobian times the joint velocities, its derivative
    the Jacobian times the joint accelerations plus the normal acceleration. *)
Theorem C104_transform : forall rv mb path X_0_t X_b_p E_0_c K al ald t jm, wfPath mb path -> sized 6 mb jm ->
  rigid X_b_p -> rotation E_0_c -> movesAt mb path K al ald t ->
  exists H, yields 6 mb (fun s => tfUpdate rv mb path X_0_t X_b_p E_0_c (K s) (jm s)) H /\
    (forall s i, (i < 3)%nat -> vget (hErr (H s)) (3 + i) = e3 (m3mulv E_0_c (vsub (ptr X_0_t) (worldPoint (ptr X_b_p) (K s)))) i) /\
    (forall s i, (i < 3)%nat -> vget (hErr (H s)) i = e3 (m3mulv E_0_c (rotError rv (m3mul (ptE X_b_p) (ptE (bkPos (K s)))) (ptE X_0_t))) i) /\
    (forall s i, (i < 3)%nat -> vget (hSpeed (H s)) i = e3 (m3mulv E_0_c (m3mulv (m3tr (ptE (bkPos (K s)))) (ang (bkVelB (K s))))) i) /\
    speedIsJac 6 H al t /\ errorRate 3 6 H t /\ speedRate 0 6 H ald t.
Proof. exact transform_tracks. Qed.
Print Assumptions C104_transform.
Example C104_used : forall rv w a t X_0_t, exists H, yields 6 kMb (fun s => tfUpdate rv kMb [0%nat] X_0_t (mkPT (RotX 1) xhat) (RotZ 3) (kRev w a s) (kJm 6 s)) H /\ errorRate 3 6 H t /\ speedRate 0 6 H (kAld a) t.
Proof.
  intros rv w a t X. destruct (C104_transform rv kMb [0%nat] X (mkPT (RotX 1) xhat) (RotZ 3) (kRev w a) (kAl w a) (kAld a) t (kJm 6) kWf (kSized 6) (RotX_rotation 1) (RotZ_rotation 3) (kRev_moves w a t))
    as (H & Y & _ & _ & _ & _ & E & S). exists H. auto.
Qed.

(** C105: SurfaceTransformTask, in the frame of the surface. *)
Theorem C105_surface_transform : forall rv mb path X_0_t X_b_p K al ald t jm, wfPath mb path -> sized 6 mb jm ->
  rigid X_b_p -> movesAt mb path K al ald t ->
  exists H, yields 6 mb (fun s => surfTfUpdate rv mb path X_0_t X_b_p (K s) (jm s)) H /\
    (forall s i, (i < 3)%nat -> vget (hErr (H s)) (3 + i) =
       e3 (m3mulv (ptE X_b_p) (m3mulv (ptE (bkPos (K s))) (vsub (ptr X_0_t) (worldPoint (ptr X_b_p) (K s))))) i) /\
    (forall s i, (i < 3)%nat -> vget (hErr (H s)) i = e3 (rv (m3mul (ptE X_0_t) (m3tr (m3mul (ptE X_b_p) (ptE (bkPos (K s))))))) i) /\
    (forall s i, (i < 3)%nat -> vget (hSpeed (H s)) i =
       e3 (let w := m3mulv (ptE X_b_p) (ang (bkVelB (K s))) in vsub w (cross (rv (m3mul (ptE X_0_t) (m3tr (m3mul (ptE X_b_p) (ptE (bkPos (K s))))))) w)) i) /\
    speedIsJac 6 H al t /\ errorRate 3 6 H t /\ speedRate 3 6 H ald t /\
    (errorRate 0 3 H t -> speedRate 0 3 H ald t).
Proof. exact surface_transform_tracks. Qed.
Print Assumptions C105_surface_transform.
Example C105_used : forall rv w a t X_0_t, exists H, yields 6 kMb (fun s => surfTfUpdate rv kMb [0%nat] X_0_t (mkPT (RotX 1) xhat) (kRev w a s) (kJm 6 s)) H /\ errorRate 3 6 H t /\ speedRate 3 6 H (kAld a) t.
Proof.
  intros rv w a t X. destruct (C105_surface_transform rv kMb [0%nat] X (mkPT (RotX 1) xhat) (kRev w a) (kAl w a) (kAld a) t (kJm 6) kWf (kSized 6) (RotX_rotation 1) (kRev_moves w a t))
    as (H & Y & _ & _ & _ & _ & E & S & _). exists H. auto.
Qed.

(** C106: LinVelocityTask: the error is the target minus the velocity of the last point given, and decreases at the acceleration of the task. *)
Theorem C106_linear_velocity : forall mb path vel p K al ald t jm, wfPath mb path -> sized 3 mb jm -> movesAt mb path K al ald t ->
  exists H, yields 3 mb (fun s => linVelUpdate mb path vel p (K s) (jm s)) H /\
    (forall i, (i < 3)%nat -> dlim (fun s => e3 (worldPoint p (K s)) i) t (e3 vel i - vget (hErr (H t)) i)) /\
    (forall s i, (i < 3)%nat -> vget (hSpeed (H s)) i = 0) /\
    (forall i, (i < 3)%nat -> dlim (fun s => vget (hErr (H s)) i) t (- taskAcc (H t) 0 (ald t) i)).
Proof. exact linvel_tracks. Qed.
Print Assumptions C106_linear_velocity.
Example C106_used : forall w a t vel, exists H, yields 3 kMb (fun s => linVelUpdate kMb [0%nat] vel xhat (kRev w a s) (kJm 3 s)) H /\
  forall i, (i < 3)%nat -> dlim (fun s => vget (hErr (H s)) i) t (- taskAcc (H t) 0 (kAld a t) i).
Proof.
  intros w a t vel. destruct (C106_linear_velocity kMb [0%nat] vel xhat (kRev w a) (kAl w a) (kAld a) t (kJm 3) kWf (kSized 3) (kRev_moves w a t)) as (H & Y & _ & _ & E). exists H. auto.
Qed.

(** C107: MultiRobotTransformTask: the two Jacobians together give the speed, the linear error decreases at the speed, and the Jacobians and normal
    acceleration give its derivative. *)
Theorem C107_multi_transform : forall rv mb1 mb2 p1 p2 X1 X2 K1 K2 al1 ald1 al2 ald2 t f1 f2,
  wfPath mb1 p1 -> wfPath mb2 p2 -> sized 6 mb1 f1 -> sized 6 mb2 f2 -> rigid X1 -> rigid X2 ->
  movesAt mb1 p1 K1 al1 ald1 t -> movesAt mb2 p2 K2 al2 ald2 t ->
  exists H : R -> mrtOut, (forall s, mrtUpdate rv mb1 mb2 p1 p2 X1 X2 (K1 s) (K2 s) (f1 s) (f2 s) = Ok (H s)) /\
    (forall s, mrows (mrJac1 (H s)) = 6%nat /\ mcols (mrJac1 (H s)) = nrDof mb1 /\ mrows (mrJac2 (H s)) = 6%nat /\ mcols (mrJac2 (H s)) = nrDof mb2) /\
    (forall s i, (i < 3)%nat -> vget (mrErr (H s)) (3 + i) =
       e3 (m3mulv (ptE X1) (m3mulv (ptE (bkPos (K1 s))) (vsub (worldPoint (ptr X2) (K2 s)) (worldPoint (ptr X1) (K1 s))))) i) /\
    (forall s i, (i < 3)%nat -> vget (mrErr (H s)) i = e3 (rv (m3mul (m3mul (ptE X2) (ptE (bkPos (K2 s)))) (m3tr (m3mul (ptE X1) (ptE (bkPos (K1 s))))))) i) /\
    (forall s i, (i < 3)%nat -> vget (mrSpeed (H s)) i =
       e3 (let w1 := m3mulv (ptE X1) (ang (bkVelB (K1 s))) in
           let w2 := m3mulv (ptE X1) (m3mulv (ptE (bkPos (K1 s))) (m3mulv (m3tr (ptE (bkPos (K2 s)))) (ang (bkVelB (K2 s))))) in
           vsub (vsub w1 w2) (cross (rv (m3mul (m3mul (ptE X2) (ptE (bkPos (K2 s)))) (m3tr (m3mul (ptE X1) (ptE (bkPos (K1 s))))))) w1)) i) /\
    (forall i, (i < 6)%nat -> sumn (nrDof mb1) (fun j => mget (mrJac1 (H t)) i j * al1 t j) +
        sumn (nrDof mb2) (fun j => mget (mrJac2 (H t)) i j * al2 t j) = vget (mrSpeed (H t)) i) /\
    (forall i, (3 <= i < 6)%nat -> dlim (fun s => vget (mrErr (H s)) i) t (- vget (mrSpeed (H t)) i)) /\
    (forall i, (3 <= i < 6)%nat -> dlim (fun s => vget (mrSpeed (H s)) i) t (mrtAcc (H t) (ald1 t) (ald2 t) i)) /\
    ((forall i, (i < 3)%nat -> dlim (fun s => vget (mrErr (H s)) i) t (- vget (mrSpeed (H t)) i)) ->
     forall i, (i < 3)%nat -> dlim (fun s => vget (mrSpeed (H s)) i) t (mrtAcc (H t) (ald1 t) (ald2 t) i)).
Proof. exact multi_transform_tracks. Qed.
Print Assumptions C107_multi_transform.
Example C107_used : forall rv w a t, exists H, (forall s, mrtUpdate rv kMb kMb [0%nat] [0%nat] (mkPT (RotX 1) xhat) (mkPT (RotZ 2) xhat) (kRev w a s) (kPri s) (kJm 6 s) (kJm 6 s) = Ok (H s)) /\
  forall i, (3 <= i < 6)%nat -> dlim (fun s => vget (mrSpeed (H s)) i) t (mrtAcc (H t) (kAld a t) (kAld 0 t) i).
Proof.
  intros rv w a t. destruct (C107_multi_transform rv kMb kMb [0%nat] [0%nat] (mkPT (RotX 1) xhat) (mkPT (RotZ 2) xhat) (kRev w a) kPri (kAl w a) (kAld a) (kAl 1 0) (kAld 0) t (kJm 6) (kJm 6)
    kWf kWf (kSized 6) (kSized 6) (RotX_rotation 1) (RotZ_rotation 2) (kRev_moves w a t) (kPri_moves t)) as (H & Y & _ & _ & _ & _ & _ & _ & S & _). exists H. auto.
Qed.

(** C108: RelativeDistTask without fixed directions, after any calls: the error is the difference of the two distances and decreases at the speed of the task. The
    derivative of the speed is what the task announces plus what the finite difference of the directions is off by. *)
Theorem C108_distance : forall mb T K al ald t fresh, rdFrom mb T -> rdMoves mb T K al ald t -> sized 3 mb fresh ->
  rdFixed T = false -> rdDt T <> 0 ->
  (forall s, norm (rdVecOf (rdA T) (K (rdBody (rdA T)) s)) <> 0 /\ norm (rdVecOf (rdB T) (K (rdBody (rdB T)) s)) <> 0) ->
  exists H, yields 1 mb (fun s => rdOut mb T (fun b => K b s) (al s) (fresh s)) H /\
    (forall s, vget (hErr (H s)) 0 = norm (rdVecOf (rdA T) (K (rdBody (rdA T)) s)) - norm (rdVecOf (rdB T) (K (rdBody (rdB T)) s))) /\
    speedIsJac 1 H al t /\ errorRate 0 1 H t /\
    (forall nA' nB', dV (fun s => rdDir (rdA T) (K (rdBody (rdA T)) s)) t nA' -> dV (fun s => rdDir (rdB T) (K (rdBody (rdB T)) s)) t nB' ->
       dlim (fun s => vget (hSpeed (H s)) 0) t (taskAcc (H t) 0 (ald t) 0 +
         (dot (rdVelA T K t) (vsub nA' (vsc (/ rdDt T) (vsub (rdDir (rdA T) (K (rdBody (rdA T)) t)) (rdOffn (rdA T)))))
          - dot (rdVelBB T K t) (vsub nB' (vsc (/ rdDt T) (vsub (rdDir (rdB T) (K (rdBody (rdB T)) t)) (rdOffn (rdB T)))))))).
Proof. exact rd_free_tracks. Qed.
Print Assumptions C108_distance.
Example C108_used : forall t, exists H, yields 1 kMb (fun s => rdOut kMb (dTask v0) (fun b => dK b s) (kAl 1 0 s) (kJm 3 s)) H /\ errorRate 0 1 H t.
Proof.
  intros t. assert (FX : rdFixed (dTask v0) = false). { simpl. replace (v3eqb v0 v0) with true; [reflexivity|]. symmetry. apply v3eqb_eq. reflexivity. }
  destruct (C108_distance kMb (dTask v0) dK (kAl 1 0) (kAld 0) t (kJm 3) (dFrom v0) (dMoves v0 t) (kSized 3) FX (dDt v0) (dNonzero v0)) as (H & Y & _ & _ & E & _). exists H. auto.
Qed.

(** C109: the normal acceleration of that mode is not that of the motion. *)
Theorem C109_distance_acceleration_refuted : exists mb T K al ald t fresh H, rdFrom mb T /\ rdMoves mb T K al ald t /\ sized 3 mb fresh /\ rdFixed T = false /\ 0 < rdDt T /\
  (forall s, norm (rdVecOf (rdA T) (K (rdBody (rdA T)) s)) <> 0 /\ norm (rdVecOf (rdB T) (K (rdBody (rdB T)) s)) <> 0) /\
  yields 1 mb (fun s => rdOut mb T (fun b => K b s) (al s) (fresh s)) H /\ ~ speedRate 0 1 H ald t.
Proof. exact dist_nacc_refuted_lemma. Qed.
Print Assumptions C109_distance_acceleration_refuted.
(** At the first update the announced acceleration is off by the speed divided by the time step. *)
Theorem C109_first_update : forall mb dt b1 p1 e1 q1 u1 b2 p2 e2 q2 u2 ops K al ald t fresh, Forall rdSetter ops ->
  let T := fold_left (rdStep mb) ops (rdInit dt b1 p1 e1 q1 u1 b2 p2 e2 q2 u2) in
  rdMoves mb T K al ald t -> sized 3 mb fresh -> u1 = v0 \/ u2 = v0 -> rdDt T <> 0 ->
  (forall s, norm (rdVecOf (rdA T) (K (rdBody (rdA T)) s)) <> 0 /\ norm (rdVecOf (rdB T) (K (rdBody (rdB T)) s)) <> 0) ->
  exists H nA' nB', yields 1 mb (fun s => rdOut mb T (fun b => K b s) (al s) (fresh s)) H /\
    dV (fun s => rdDir (rdA T) (K (rdBody (rdA T)) s)) t nA' /\ dV (fun s => rdDir (rdB T) (K (rdBody (rdB T)) s)) t nB' /\
    dlim (fun s => vget (hSpeed (H s)) 0) t
      (taskAcc (H t) 0 (ald t) 0 + (dot (rdVelA T K t) nA' - dot (rdVelBB T K t) nB') - vget (hSpeed (H t)) 0 / rdDt T).
Proof. exact rd_first_update. Qed.
Print Assumptions C109_first_update.
Example C109_used : forall t, exists H nA' nB', yields 1 kMb (fun s => rdOut kMb (dTask v0) (fun b => dK b s) (kAl 1 0 s) (kJm 3 s)) H /\
  dlim (fun s => vget (hSpeed (H s)) 0) t (taskAcc (H t) 0 (kAld 0 t) 0 + (dot (rdVelA (dTask v0) dK t) nA' - dot (rdVelBB (dTask v0) dK t) nB') - vget (hSpeed (H t)) 0 / (1 / 200)).
Proof.
  intros t. destruct (C109_first_update kMb (1 / 200) 0 v0 dEnv [0%nat] v0 1 v0 dEnv [] v0 [] dK (kAl 1 0) (kAld 0) t (kJm 3) ltac:(constructor) (dMoves v0 t) (kSized 3) ltac:(left; reflexivity) (dDt v0) (dNonzero v0))
    as (H & nA' & nB' & Y & _ & _ & E). exists H, nA', nB'. auto.
Qed.

(** C110: with fixed directions the task drives the wrong way when they point to the other side. *)
Theorem C110_direction_refuted : exists mb T K al ald t fresh H, rdFrom mb T /\ rdMoves mb T K al ald t /\ sized 3 mb fresh /\ rdFixed T = true /\
  dot (rdVecOf (rdA T) (K (rdBody (rdA T)) t)) (rdU (rdA T)) <> 0 /\ dot (rdVecOf (rdB T) (K (rdBody (rdB T)) t)) (rdU (rdB T)) <> 0 /\
  yields 1 mb (fun s => rdOut mb T (fun b => K b s) (al s) (fresh s)) H /\ ~ errorRate 0 1 H t.
Proof. exact dist_fixed_refuted_lemma. Qed.
Print Assumptions C110_direction_refuted.
(** Exactly: right when both bodies are on the side the directions point to, with the sign reversed when both are on the other side; the speed and the normal
    acceleration agree in any case. *)
Theorem C110_exact : forall mb T K al ald t fresh, rdFrom mb T -> rdMoves mb T K al ald t -> sized 3 mb fresh ->
  rdFixed T = true ->
  exists H, yields 1 mb (fun s => rdOut mb T (fun b => K b s) (al s) (fresh s)) H /\
    (forall s, vget (hErr (H s)) 0 = Rabs (dot (rdVecOf (rdA T) (K (rdBody (rdA T)) s)) (rdU (rdA T))) - Rabs (dot (rdVecOf (rdB T) (K (rdBody (rdB T)) s)) (rdU (rdB T)))) /\
    speedIsJac 1 H al t /\ speedRate 0 1 H ald t /\
    (0 < dot (rdVecOf (rdA T) (K (rdBody (rdA T)) t)) (rdU (rdA T)) -> 0 < dot (rdVecOf (rdB T) (K (rdBody (rdB T)) t)) (rdU (rdB T)) -> errorRate 0 1 H t) /\
    (dot (rdVecOf (rdA T) (K (rdBody (rdA T)) t)) (rdU (rdA T)) < 0 -> dot (rdVecOf (rdB T) (K (rdBody (rdB T)) t)) (rdU (rdB T)) < 0 ->
       dlim (fun s => vget (hErr (H s)) 0) t (vget (hSpeed (H t)) 0)).
Proof. exact rd_fixed_tracks. Qed.
Print Assumptions C110_exact.
Example C110_used : exists H, yields 1 kMb (fun s => rdOut kMb (dTask dUp) (fun b => dK b s) (kAl 1 0 s) (kJm 3 s)) H /\ errorRate 0 1 H 1.
Proof.
  destruct (C110_exact kMb (dTask dUp) dK (kAl 1 0) (kAld 0) 1 (kJm 3) (dFrom dUp) (dMoves dUp 1) (kSized 3)) as (H & Y & _ & _ & _ & E & _).
  - apply dFixed. unfold dUp, v0. intros Q. injection Q. lra.
  - exists H. split; [exact Y|]. apply E.
    + change (rdBody (rdA (dTask dUp))) with 0%nat. rewrite dVecA. unfold dot; cbn. lra.
    + change (rdBody (rdB (dTask dUp))) with 1%nat. rewrite dVecB. unfold dot; cbn. lra.
Qed.

(** C111: the mode of RelativeDistTask is fixed by the constructor: giving a direction later never changes it. *)
Theorem C111_mode : forall mb dt b1 p1 e1 q1 u1 b2 p2 e2 q2 u2 ops,
  rdFixed (fold_left (rdStep mb) ops (rdInit dt b1 p1 e1 q1 u1 b2 p2 e2 q2 u2)) = true <-> u1 <> v0 /\ u2 <> v0.
Proof. exact rd_mode. Qed.
Print Assumptions C111_mode.
Example C111_used : rdFixed (fold_left (rdStep kMb) [RdVector 0 xhat; RdVector 1 xhat] (dTask v0)) = false /\ rdFixed (fold_left (rdStep kMb) [RdVector 0 v0; RdVector 1 v0] (dTask xhat)) = true.
Proof.
  split.
  - apply not_true_iff_false. intros Q. apply C111_mode in Q. destruct Q as (Q & _). apply Q. reflexivity.
  - apply (C111_mode kMb (1 / 200) 0 v0 dEnv [0%nat] xhat 1 v0 dEnv [] xhat [RdVector 0 v0; RdVector 1 v0]). split; unfold xhat, v0; intros Q; injection Q; lra.
Qed.
