(** Properties of OrientationTrackingTask. *)
From Verif Require Import TrackModel TrackSpec KinTaskFacts VisWitness TrackFacts TrackWitness.
From Coq Require Import Lra Lia Ratan.
Open Scope string_scope.
Open Scope list_scope.
Open Scope R_scope.

(** C118: after any calls to the setters, the Jacobian of the task is the world angular Jacobian of the body restricted to the joints named at construction; its speed is the Jacobian
    times the joint velocities, and the angular velocity of the body when the other joints of the path are at rest. *)
Theorem C118_tracking_jacobian : forall rv ftv mb path bp ba names tp T0 ops K al ald t jd jm, otInit mb path bp ba names tp = Ok T0 -> wfPath mb path -> sized 3 mb jm -> movesAt mb path K al ald t ->
  exists H tr, Forall2 (fun nm i => jointIndexByName mb nm = Ok i) names tr /\
    yields 3 mb (fun s => otUpdate rv ftv mb (fold_left otStep ops T0) (K s) (al s) jd (jm s)) H /\ speedIsJac 3 H al t /\
    (forall i, (i < 3)%nat -> vget (hErr (H t)) i = e3 (otEval rv ftv (fold_left otStep ops T0) (K t)) i) /\
    (forall i x, (i < 3)%nat -> sumn (mcols (hJac (H t))) (fun j => mget (hJac (H t)) i j * x j) =
        jacDot mb path (fun c => e3 (ang (rbdColW v0 (K t) c)) i) (onlyJoints mb tr x)) /\
    ((forall j, In j (pathCols mb path) -> (forall m, In m tr -> ofJoint mb m j = false) -> al t j = 0) -> forall i, (i < 3)%nat -> vget (hSpeed (H t)) i = e3 (turnRate (K t)) i).
Proof. exact track_velocity. Qed.
Print Assumptions C118_tracking_jacobian.
(** The constructor succeeds whenever the names are those of joints of the robot. *)
Theorem C118_construction : forall mb path bp ba names tp, wfPath mb path -> (forall nm, In nm names -> In nm (map jname (joints mb))) -> exists T, otInit mb path bp ba names tp = Ok T.
Proof. exact otInit_def. Qed.
Print Assumptions C118_construction.
(** A body that slides and rolls: tracking with the slide only, the task does not see the roll. *)
Example C118_used : forall rv ftv jd, exists T H, otInit gMb [0%nat; 1%nat] v0 xhat ["slide"] yhat = Ok T /\
  yields 3 gMb (fun s => otUpdate rv ftv gMb (fold_left otStep [OtAxis zhat] T) (gK s) (gAl s) jd (mzero 3 2)) H /\ vget (hSpeed (H 0)) 0 = 0 /\ e3 (turnRate (gK 0)) 0 = / 2.
Proof.
  intros rv ftv jd. destruct (C118_construction gMb [0%nat; 1%nat] v0 xhat ["slide"] yhat gWf) as (T & HT). { intros nm [<-|[]]. simpl. auto. }
  destruct (C118_tracking_jacobian rv ftv gMb [0%nat; 1%nat] v0 xhat ["slide"] yhat T [OtAxis zhat] gK gAl gAld 0 jd (fun _ => mzero 3 2) HT gWf (fun _ => conj eq_refl eq_refl) (gMoves 0)) as (H & tr & F & Y & SJ & _ & J & _).
  exists T, H. split; [exact HT|]. split; [exact Y|]. split.
  - rewrite <- (SJ 0%nat ltac:(lia)), J by lia. inversion F as [|a b c d E F' e f]; subst. inversion F'; subst. injection E as <-. unfold jacDot, onlyJoints, ofJoint; cbn. unfold dot; cbn. ring.
  - unfold turnRate, gK, gQ; cbn. unfold dot; cbn. rewrite cos_0. lra.
Qed.

(** C119: the error does not turn the axis of the body towards the tracked point: the target orientation is composed on the wrong side. A body that follows the error exactly, turning about
    the point of the task, can have its axis move away from the tracked point. *)
Theorem C119_tracking_error_refuted : forall rv ftv, isLog rv -> isTurn ftv -> exists mb path names bp ba tp T0 K al ald t, otInit mb path bp ba names tp = Ok T0 /\ wfPath mb path /\
  (forall s, movesAt mb path K al ald s) /\ (forall s, targetDir bp tp (K s) = targetDir bp tp (K t)) /\ -1 < dot (axisDir ba (K t)) (targetDir bp tp (K t)) < 1 /\
  turnRate (K t) = otEval rv ftv T0 (K t) /\ dlim (fun s => dot (axisDir ba (K s)) (targetDir bp tp (K s))) t (- (PI / 2)).
Proof. exact track_error_refuted. Qed.
Print Assumptions C119_tracking_error_refuted.
(** What the error is, with a the axis, b the direction of the tracked point and x their angle: x / sin x times the common normal a x b turned by the
    rotation from the body to the world, although it is already given in the world. It vanishes when the axis points at the target, and turns the axis towards it when the body frame shares the common normal with the world. *)
Theorem C119_exact : forall rv ftv mb path bp0 ba0 names tp0 T0 ops K al ald t, isLog rv -> isTurn ftv -> otInit mb path bp0 ba0 names tp0 = Ok T0 ->
  let bp := latest otGiveP bp0 ops in let ba := latest otGiveA ba0 ops in let tp := latest otGiveT tp0 ops in
  let e := otEval rv ftv (fold_left otStep ops T0) (K t) in let a := axisDir ba (K t) in let b := targetDir bp tp (K t) in let E := ptE (bkPos (K t)) in let x := acos (dot a b) in
  movesAt mb path K al ald t -> ba <> v0 -> tp <> vadd (ptr (bkPos (K t))) (m3mulv (m3tr E) bp) ->
  (a = b -> e = v0) /\
  (-1 < dot a b < 1 -> e = vsc (x / sin x) (m3mulv (m3tr E) (cross a b)) /\
    (turnRate (K t) = e -> (forall s, targetDir bp tp (K s) = b) ->
       dlim (fun s => dot (axisDir ba (K s)) (targetDir bp tp (K s))) t (x / sin x * dot (cross a b) (m3mulv E (cross a b))) /\
       (m3mulv E (cross a b) = cross a b -> 0 < x / sin x * dot (cross a b) (m3mulv E (cross a b))))).
Proof. exact track_error. Qed.
Print Assumptions C119_exact.
(** rotationVelocity and Rodrigues' formula meet the hypotheses; a body whose frame is that of the world turns from x towards y at the rate pi / 2. *)
Example C119_used : isLog rvLog /\ isTurn rodrigues /\ exists T, otInit kMb [0%nat] v0 zhat ["q"] xhat = Ok T /\
  turnRate (kRev (PI / 2) 0 0) = otEval rvLog rodrigues (fold_left otStep [OtAxis xhat; OtTracked yhat] T) (kRev (PI / 2) 0 0) /\
  dlim (fun s => dot (axisDir xhat (kRev (PI / 2) 0 s)) (targetDir v0 yhat (kRev (PI / 2) 0 s))) 0 (PI / 2).
Proof.
  split; [exact rvLog_isLog|]. split; [exact rodrigues_isTurn|]. exists (mkOT (pt_trans v0) zhat [] xhat [0%nat]).
  assert (I : otInit kMb [0%nat] v0 zhat ["q"] xhat = Ok (mkOT (pt_trans v0) zhat [] xhat [0%nat])) by (apply tInit; reflexivity). split; [exact I|].
  destruct xy as (X1 & X2 & X3 & X4).
  assert (TY : forall s, targetDir v0 yhat (kRev (PI / 2) 0 s) = yhat) by (apply target_y; reflexivity).
  assert (AX : axisDir xhat (kRev (PI / 2) 0 0) = xhat). { apply (axis_x m3id); [apply kRev_E|]. unfold xhat, m3id, m3mulv, m3tr, dot; simpl. f_equal; ring. }
  assert (NX : xhat <> v0) by (intros Q; injection Q; lra).
  assert (NY : yhat <> vadd (ptr (bkPos (kRev (PI / 2) 0 0))) (m3mulv (m3tr (ptE (bkPos (kRev (PI / 2) 0 0)))) v0)).
  { rewrite kRev_E. unfold kRev; cbn. intros Q. injection Q as Q0 Q1 Q2. unfold dot in Q1; simpl in Q1. lra. }
  pose proof (C119_exact rvLog rodrigues kMb [0%nat] v0 zhat ["q"] xhat _ [OtAxis xhat; OtTracked yhat] (kRev (PI / 2) 0) (kAl (PI / 2) 0) (kAld 0) 0 rvLog_isLog rodrigues_isTurn I (kRev_moves _ _ 0) NX NY) as (_ & Q).
  cbn [latest fold_left otGiveP otGiveA otGiveT] in Q. rewrite TY, AX, X1, X2, X3, X4, kRev_E in Q. specialize (Q ltac:(lra)) as (Q & R).
  assert (TR : turnRate (kRev (PI / 2) 0 0) = otEval rvLog rodrigues (fold_left otStep [OtAxis xhat; OtTracked yhat] (mkOT (pt_trans v0) zhat [] xhat [0%nat])) (kRev (PI / 2) 0 0)).
  { cbn [fold_left]. rewrite Q. unfold turnRate. rewrite kRev_E. unfold kRev, zhat, m3id, m3mulv, m3tr, vsc, dot; simpl. f_equal; field. }
  split; [exact TR|]. destruct (R TR TY) as (D & _). eapply dl_eq; [exact D|]. unfold zhat, m3id, m3mulv, dot; simpl. field.
Qed.

(** C120: the normal acceleration of the QP task is the product of a matrix that is never written with the joint velocities: on any motion of a robot that is not at rest, some content of
    the memory makes it wrong. *)
Theorem C120_normal_acceleration_refuted : forall rv ftv mb path bp ba names tp T0 ops K al ald t jm, otInit mb path bp ba names tp = Ok T0 -> wfPath mb path -> sized 3 mb jm ->
  (exists j, (j < nrDof mb)%nat /\ al t j <> 0) -> exists jd H, mrows jd = 3%nat /\ mcols jd = nrDof mb /\
    yields 3 mb (fun s => otUpdate rv ftv mb (fold_left otStep ops T0) (K s) (al s) jd (jm s)) H /\ ~ speedRate 0 3 H ald t.
Proof. exact track_acc_any. Qed.
Print Assumptions C120_normal_acceleration_refuted.
(** When every joint of the path tracks, it is right exactly when the memory, times the joint velocities, gives the normal angular acceleration of the body. *)
Theorem C120_exact : forall rv ftv mb path bp ba names tp T0 ops K al ald t jd jm, otInit mb path bp ba names tp = Ok T0 -> wfPath mb path -> sized 3 mb jm -> (forall s, movesAt mb path K al ald s) ->
  (forall j, In j (pathCols mb path) -> exists nm m, In nm names /\ jointIndexByName mb nm = Ok m /\ ofJoint mb m j = true) ->
  exists H, yields 3 mb (fun s => otUpdate rv ftv mb (fold_left otStep ops T0) (K s) (al s) jd (jm s)) H /\
    (forall s i, (i < 3)%nat -> vget (hSpeed (H s)) i = e3 (turnRate (K s)) i) /\
    (speedRate 0 3 H ald t <-> forall i, (i < 3)%nat -> sumn (mcols jd) (fun j => mget jd i j * al t j) = e3 (ang (rbdNAccW v0 (K t))) i).
Proof. exact track_acc_exact. Qed.
Print Assumptions C120_exact.
Example C120_used : forall rv ftv, exists T, otInit kMb [0%nat] v0 xhat ["q"] yhat = Ok T /\
  (exists jd H, mrows jd = 3%nat /\ mcols jd = 1%nat /\ yields 3 kMb (fun s => otUpdate rv ftv kMb T (kRev 1 2 s) (kAl 1 2 s) jd (kJm 3 s)) H /\ ~ speedRate 0 3 H (kAld 2) 0) /\
  (exists H, yields 3 kMb (fun s => otUpdate rv ftv kMb T (kRev 1 2 s) (kAl 1 2 s) (mzero 3 1) (kJm 3 s)) H /\ speedRate 0 3 H (kAld 2) 0).
Proof.
  intros rv ftv. exists (mkOT (pt_trans v0) xhat [] yhat [0%nat]).
  assert (I : otInit kMb [0%nat] v0 xhat ["q"] yhat = Ok (mkOT (pt_trans v0) xhat [] yhat [0%nat])) by (apply tInit; reflexivity). split; [exact I|]. split.
  - apply (C120_normal_acceleration_refuted rv ftv kMb [0%nat] v0 xhat ["q"] yhat _ [] (kRev 1 2) (kAl 1 2) (kAld 2) 0 (kJm 3) I kWf (kSized 3)). exists 0%nat. unfold kAl; cbn. split; [lia|lra].
  - destruct (C120_exact rv ftv kMb [0%nat] v0 xhat ["q"] yhat _ [] (kRev 1 2) (kAl 1 2) (kAld 2) 0 (mzero 3 1) (kJm 3) I kWf (kSized 3) (fun s => kRev_moves 1 2 s)) as (H & Y & _ & S).
    + intros j [<-|[]]. exists "q", 0%nat. split; [left; reflexivity|]. split; reflexivity.
    + exists H. split; [exact Y|]. apply S. intros i Hi. cbn. unfold kRev, rbdNAccW, rbdNAcc, rbdFrameW; cbn. unfold kQ. replace (1 * 0 + 2 * (0 * 0) / 2) with 0 by field.
      unfold RotZ. rewrite cos_0, sin_0. unfold m3mulv, m3tr, cross, vadd, dot, v0; cbn. destruct i as [|[|]]; cbn; ring.
Qed.
