(** Properties of updateDot, of the two ways to the normal accelerations, and of GazeTask fed with image points. *)
From Verif Require Import DotModel DotSpec DotFacts DotBodies DotWitness GazeModel GazeFacts KinTaskFacts VisWitness.
From Coq Require Import Lra Lia.
Open Scope string_scope.
Open Scope list_scope.
Open Scope R_scope.

(** C134: updateDot of PositionTask, whatever was set before: the derivative of the Jacobian, and its product with the joint velocities is the normal acceleration. *)
Theorem C134_position : forall mb path pos bp ops K dcol al ald t jm jd, sized 3 mb jm -> mrows jd = 3%nat /\ mcols jd = nrDof mb -> dotMoves mb path K dcol al ald t ->
  let T := fold_left posStep ops (posInit pos bp path) in
  exists H D, yields 3 mb (fun s => posUpdate mb T (K s) (jm s)) H /\ posUpdateDot mb T (K t) dcol jd = Ok D /\ jacRate 3 mb H t D /\ dotIsNormal 3 mb H al t D.
Proof. exact position_dot. Qed.
Print Assumptions C134_position.
(** OrientationTask. *)
Theorem C134_orientation : forall rv mb path ori K dcol al ald t jm jd, sized 3 mb jm -> mrows jd = 3%nat /\ mcols jd = nrDof mb -> dotMoves mb path K dcol al ald t ->
  exists H D, yields 3 mb (fun s => oriUpdate rv mb path ori (K s) (jm s)) H /\ oriUpdateDot mb path (K t) dcol jd = Ok D /\ jacRate 3 mb H t D /\ dotIsNormal 3 mb H al t D.
Proof. exact orientation_dot. Qed.
Print Assumptions C134_orientation.
(** LinVelocityTask. *)
Theorem C134_linear_velocity : forall mb path vel p K dcol al ald t jm jd, sized 3 mb jm -> mrows jd = 3%nat /\ mcols jd = nrDof mb -> dotMoves mb path K dcol al ald t ->
  exists H D, yields 3 mb (fun s => linVelUpdate mb path vel p (K s) (jm s)) H /\ linVelUpdateDot mb path p (K t) dcol jd = Ok D /\ jacRate 3 mb H t D /\ dotIsNormal 3 mb H al t D.
Proof. exact linvel_dot. Qed.
Print Assumptions C134_linear_velocity.
(** OrientationTrackingTask: with the matrix of updateDot the task of the QP, which multiplies it with the joint velocities, has the right acceleration. *)
Theorem C134_tracking : forall rv ftv mb T K dcol al ald t jm jd, sized 3 mb jm -> mrows jd = 3%nat /\ mcols jd = nrDof mb -> dotMoves mb (otPath T) K dcol al ald t ->
  exists H D, otUpdateDot mb T (K t) dcol jd = Ok D /\ yields 3 mb (fun s => otUpdate rv ftv mb T (K s) (al s) D (jm s)) H /\ jacRate 3 mb H t D /\ dotIsNormal 3 mb H al t D /\ speedRate 0 3 H ald t.
Proof. exact tracking_with_dot. Qed.
Print Assumptions C134_tracking.
(** A wrist with two axes: the derivative of the Jacobian times the velocities is the acceleration that one joint gives the other. *)
Example C134_used : exists H D, yields 3 (trMB wTree) (fun s => oriUpdate (fun _ => v0) (trMB wTree) [0%nat; 1%nat] m3id (wK s) (mzero 3 2)) H /\
  oriUpdateDot (trMB wTree) [0%nat; 1%nat] (wK 0) wDcol (mzero 3 2) = Ok D /\ jacRate 3 (trMB wTree) H 0 D /\ mget D 1 0 * kAl 1 0 0 0 + mget D 1 1 * kAl 1 0 0 1 = 1.
Proof.
  destruct (C134_orientation (fun _ => v0) (trMB wTree) [0%nat; 1%nat] m3id wK wDcol (kAl 1 0) (kAld 0) 0 (fun _ => mzero 3 2) (mzero 3 2)) as (H & D & Y & E & JR & DN); [intros s; split; reflexivity|split; reflexivity|apply wDot|].
  exists H, D. split; [exact Y|]. split; [exact E|]. split; [exact JR|]. pose proof (DN 1%nat ltac:(lia)) as Q. rewrite (wNacc _ _ _ _ Y) in Q. change (nrDof (trMB wTree)) with 2%nat in Q. unfold sumn in Q. lra.
Qed.

(** C135: updateDot of CoMTask after any history. *)
Theorem C135_centre_of_mass : forall mb bs0 com0 weight T0 ops T K dcol al ald t, ctNew bs0 com0 weight = Ok T0 -> ctRun ops T0 = Ok T ->
  let bs := latest ctGiveB bs0 ops in heavy bs -> bodiesDot mb bs K dcol al ald t -> (forall j, dlim (fun s => al s j) t (ald t j)) ->
  exists H D, yields 3 mb (fun s => ctUpdate mb bs (K s) T) H /\ ctUpdateDot mb bs (K t) dcol T = Ok D /\ jacRate 3 mb H t D /\ dotIsNormal 3 mb H al t D.
Proof. exact com_dot. Qed.
Print Assumptions C135_centre_of_mass.
(** MomentumTask. *)
Theorem C135_momentum : forall mb bs mom K dcol al ald t, heavy (map moB bs) -> bodiesDot mb (map moB bs) K dcol al ald t -> (forall j, dlim (fun s => al s j) t (ald t j)) ->
  exists H D, yields 6 mb (fun s => momUpdate mb bs (K s) mom) H /\ momUpdateDot mb bs (K t) dcol = Ok D /\ jacRate 6 mb H t D /\ dotIsNormal 6 mb H al t D.
Proof. exact momentum_dot. Qed.
Print Assumptions C135_momentum.
(** Robots in motion meet the hypotheses of C134 and C135: with the configurations the solver is given, the columns that bodyJacobianDot computes are the derivatives of the columns of
    the Jacobian of every body of every mobile robot. *)
Theorem C135_robots : forall ms gs d, (forall t, Forall2 (robotMoves t) ms gs) ->
  exists D : R -> naccData, (forall s, naccCompute ms (configs ms gs s) (naccNrVars ms d) = Ok (D s)) /\
    forall r m g b, nth_error ms r = Some m -> nth_error gs r = Some g -> (0 < nrDof (trMB m))%nat -> (b < trBodies m)%nat -> exists up, upTo m b up /\
      forall t, dotMoves (trMB m) (rev up) (fun s => mkBK (rmP g s b) (rmVb g s b) (nth b (nth r (naAcc (D s)) []) sp0) (treeCol (trMB m) (rmX g s) (rmSub g) up))
                  (rbdColBDot (trMB m) (rev up) (rmP g t) (rmVb g t) (rmSub g) b) (rmAl g) (rmAld g) t.
Proof. exact tree_dot. Qed.
Print Assumptions C135_robots.
(** A unit mass that turns around a mass of three, after its mass was changed; the two axes of the wrist. *)
Example C135_used : (exists T0 T H D, ctNew (mBodies 1) v0 None = Ok T0 /\ ctRun [CtInertia (mBodies 2)] T0 = Ok T /\ yields 3 kMb (fun s => ctUpdate kMb (mBodies 2) (mK s) T) H /\
    ctUpdateDot kMb (mBodies 2) (mK 1) (fun _ _ => sp0) T = Ok D /\ jacRate 3 kMb H 1 D /\ dotIsNormal 3 kMb H (kAl 1 0) 1 D) /\
  (exists H D, yields 6 kMb (fun s => momUpdate kMb nBodies (mK s) sp0) H /\ momUpdateDot kMb nBodies (mK 1) (fun _ _ => sp0) = Ok D /\ jacRate 6 kMb H 1 D /\ dotIsNormal 6 kMb H (kAl 1 0) 1 D) /\
  rbdColBDot (trMB wTree) [0%nat; 1%nat] (wP 0) (wVb 0) wSub 1 0 = mkSp (mkV3 0 1 0) v0.
Proof.
  split; [|split].
  - destruct (ct_defined (mBodies 1) v0 None [CtInertia (mBodies 2)] (mHeavy 1 ltac:(lra)) I) as (T0 & T & E0 & E).
    { constructor; [split; [apply mHeavy; lra|simpl; lia]|constructor]. }
    destruct (C135_centre_of_mass kMb (mBodies 1) v0 None T0 [CtInertia (mBodies 2)] T mK (fun _ _ => sp0) (kAl 1 0) (kAld 0) 1 E0 E (mHeavy 2 ltac:(lra)) (mDot 2 1) (kAl_rate 1)) as (H & D & Y & ED & JR & DN).
    exists T0, T, H, D. auto 10.
  - destruct (C135_momentum kMb nBodies sp0 mK (fun _ _ => sp0) (kAl 1 0) (kAld 0) 1 (mHeavy 1 ltac:(lra)) (mDot 1 1) (kAl_rate 1)) as (H & D & Y & ED & JR & DN). exists H, D. auto.
  - exact wDcol0.
Qed.

(** C136: updateDot of SurfaceOrientationTask leaves out the surface frame that update uses: what it fills is not the derivative of the Jacobian, nor does it give the normal acceleration. *)
Theorem C136_surface_refuted : exists rv mb path ori X K dcol al ald t jm jd H D,
  rigid X /\ sized 3 mb jm /\ (mrows jd = 3%nat /\ mcols jd = nrDof mb) /\ dotMoves mb path K dcol al ald t /\
  yields 3 mb (fun s => surfOriUpdate rv mb path ori X (K s) (jm s)) H /\ surfOriUpdateDot mb path dcol jd = Ok D /\
  ~ jacRate 3 mb H t D /\ ~ dotIsNormal 3 mb H al t D.
Proof. exact surface_dot_refuted_lemma. Qed.
Print Assumptions C136_surface_refuted.
(** What it fills: the derivative before the rotation of the surface frame. *)
Theorem C136_exact : forall rv mb path ori X K dcol al ald t jm jd, sized 3 mb jm -> mrows jd = 3%nat /\ mcols jd = nrDof mb -> dotMoves mb path K dcol al ald t ->
  exists H D, yields 3 mb (fun s => surfOriUpdate rv mb path ori X (K s) (jm s)) H /\ surfOriUpdateDot mb path dcol jd = Ok D /\ mrows D = 3%nat /\ mcols D = nrDof mb /\
    let turned := mkMat 3 (nrDof mb) (fun i j => e3 (m3mulv (ptE X) (mkV3 (mget D 0 j) (mget D 1 j) (mget D 2 j))) i) in
    jacRate 3 mb H t turned /\ dotIsNormal 3 mb H al t turned.
Proof. exact surface_orientation_dot. Qed.
Print Assumptions C136_exact.
(** It is right when the surface is parallel to the frame of the body. *)
Theorem C136_parallel : forall rv mb path ori X K dcol al ald t jm jd, sized 3 mb jm -> mrows jd = 3%nat /\ mcols jd = nrDof mb -> dotMoves mb path K dcol al ald t -> ptE X = m3id ->
  exists H D, yields 3 mb (fun s => surfOriUpdate rv mb path ori X (K s) (jm s)) H /\ surfOriUpdateDot mb path dcol jd = Ok D /\ jacRate 3 mb H t D /\ dotIsNormal 3 mb H al t D.
Proof. exact surface_dot_plain_lemma. Qed.
Print Assumptions C136_parallel.
Example C136_used : exists H D, yields 3 (trMB wTree) (fun s => surfOriUpdate (fun _ => v0) (trMB wTree) [0%nat; 1%nat] m3id (pt_trans xhat) (wK s) (mzero 3 2)) H /\
  surfOriUpdateDot (trMB wTree) [0%nat; 1%nat] wDcol (mzero 3 2) = Ok D /\ jacRate 3 (trMB wTree) H 0 D.
Proof.
  destruct (C136_parallel (fun _ => v0) (trMB wTree) [0%nat; 1%nat] m3id (pt_trans xhat) wK wDcol (kAl 1 0) (kAld 0) 0 (fun _ => mzero 3 2) (mzero 3 2)) as (H & D & Y & E & JR & _); [intros s; split; reflexivity|split; reflexivity|apply wDot|reflexivity|].
  exists H, D. auto.
Qed.

(** C137: update(mb, mbc) and update(mb, mbc, normalAccB) read the same body: after nrVars and computeNormalAccB on any robots, whatever the solver held before, the acceleration that RBDyn
    finds along the path of a body of a mobile robot is the one at its index in normalAccB. *)
Theorem C137_overloads : forall ms cs d, Forall2 fitsTree ms cs ->
  exists d', naccCompute ms cs (naccNrVars ms d) = Ok d' /\
    forall r m c b up, nth_error ms r = Some m -> nth_error cs r = Some c -> (0 < nrDof (trMB m))%nat -> upTo m b up ->
      forall P vb col, bodyGiven P vb col (nth r (naAcc d') []) b = bodyFound P vb col c (rev up) /\ exists k, bodyFound P vb col c (rev up) = Ok k.
Proof. exact overloads_agree. Qed.
Print Assumptions C137_overloads.
(** The slider on a turntable. *)
Example C137_used : exists d', naccCompute [tTree] [tCfg 2] (naccNrVars [tTree] naccInit) = Ok d' /\
  bodyGiven pt_id sp0 (fun _ => sp0) (nth 0 (naAcc d') []) 1 = bodyFound pt_id sp0 (fun _ => sp0) (tCfg 2) [0%nat; 1%nat].
Proof.
  destruct (C137_overloads [tTree] [tCfg 2] naccInit (tFits 2)) as (d' & E & Q). exists d'. split; [exact E|]. apply (Q 0%nat tTree (tCfg 2) 1%nat [1%nat; 0%nat] eq_refl eq_refl); [change (0 < 2)%nat; lia|apply tUp].
Qed.

(** C138: after any calls of the two error methods the point, the reference and the depth of GazeTask are the last ones given, the depth by the last point in space; a point in the plane of
    the camera is undefined. *)
Theorem C138_history : forall ops T0, Forall gzSeen ops -> exists T, gzRun ops T0 = Ok T /\
  gzRef T = latest gzGiveRef (gzRef T0) ops /\ gzPoint T = latest gzGivePoint (gzPoint T0) ops /\ gzDepth T = latest gzGiveDepth (gzDepth T0) ops /\ gzX T = gzX T0 /\ gzPath T = gzPath T0.
Proof. exact gaze_history. Qed.
Print Assumptions C138_history.
Theorem C138_undefined : forall ops T0, ~ Forall gzSeen ops -> gzRun ops T0 = UB.
Proof. exact gaze_undefined. Qed.
Print Assumptions C138_undefined.
(** Fed with the image of a point of the world: the speed is minus the rate of the error exactly when the depth last given is the true one or the camera does not move across the line of
    sight; otherwise the difference is the difference of the inverse depths times that motion. *)
Theorem C138_image_points : forall F mb path T0 ops p ref K al ald t jm, usesInteraction F -> wfPath mb path -> gzPath T0 = path -> rigid (gzX T0) -> sized 2 mb jm -> movesAt mb path K al ald t ->
  Forall gzSeen ops -> (forall s, vz (inCamera (gzX T0) (K s) p) <> 0) -> let d := latest gzGiveDepth (gzDepth T0) ops in d <> 0 ->
  exists T H, gzRun ops T0 = Ok T /\ yields 2 mb (fun s => gzTrack2 F mb (inCamera (gzX T0) (K s) p) ref T (K s) (jm s)) H /\ speedIsJac 2 H al t /\
    (forall s m, (m < 2)%nat -> vget (hErr (H s)) m = ax ref m - e3 (inCamera (gzX T0) (K s) p) m / vz (inCamera (gzX T0) (K s) p)) /\
    (forall m, (m < 2)%nat -> dlim (fun s => vget (hErr (H s)) m) t (- vget (hSpeed (H t)) m + (/ vz (inCamera (gzX T0) (K t) p) - / d) *
       (e6 (rbdVel (gzX T0) (K t)) (3 + m) - e3 (inCamera (gzX T0) (K t) p) m / vz (inCamera (gzX T0) (K t) p) * e6 (rbdVel (gzX T0) (K t)) 5))) /\
    (errorRate 0 2 H t <-> d = vz (inCamera (gzX T0) (K t) p) \/
       (forall m, (m < 2)%nat -> e6 (rbdVel (gzX T0) (K t)) (3 + m) = e3 (inCamera (gzX T0) (K t) p) m / vz (inCamera (gzX T0) (K t) p) * e6 (rbdVel (gzX T0) (K t)) 5)).
Proof. exact gaze_image. Qed.
Print Assumptions C138_image_points.
(** A camera that slides along x, given the image of a point at depth 1 after it was given one at depth 2: the speed is wrong. *)
Example C138_used : exists T H, gzRun [GzSpace (mkV3 0 0 2) (0, 0); GzImage (1, 1) (3, 4)] (gTask (0, 0)) = Ok T /\
  yields 2 gMb (fun s => gzTrack2 vF gMb (inCamera pt_id (gK s) (gPt 1)) (0, 0) T (gK s) (gJm s)) H /\ ~ errorRate 0 2 H 0.
Proof.
  destruct (C138_image_points vF gMb [0%nat; 1%nat] (gTask (0, 0)) [GzSpace (mkV3 0 0 2) (0, 0); GzImage (1, 1) (3, 4)] (gPt 1) (0, 0) gK gAl gAld 0 gJm vF_ok gWf eq_refl rotation_id gSized (gMoves 0)) as (T & H & E & Y & _ & _ & _ & ER).
  - constructor; [cbn; lra|]. constructor; [exact I|constructor].
  - intros s. apply gDepth. auto.
  - cbn. lra.
  - exists T, H. split; [exact E|]. split; [exact Y|]. rewrite ER. cbn [latest fold_left gzGiveDepth gzX gTask vz]. rewrite gVel0, gSeen0. unfold gPt, xhat; cbn [vz]. intros [Q|Q]; [lra|]. specialize (Q 0%nat ltac:(lia)).
    destruct (e6_at (mkSp (mkV3 (/ 2) 0 0) (mkV3 1 0 0))) as (_ & _ & _ & E3 & _ & E5). cbn [Nat.add] in Q. rewrite E3, E5 in Q. cbn in Q. lra.
Qed.
