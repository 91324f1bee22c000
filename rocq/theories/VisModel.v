(** Visual servoing tasks: model of /repo/src/Tasks.cpp (GazeTask, 465-571; PositionBasedVisServoTask, 590-667). As in KinModel, update returns
    eval_, speed_, normalAcc_ and jacMat_, and takes what jacMat_ held before; L_img_, surfaceVelocity_, L_Z_dot_, L_img_dot_, L_pbvs_, L_pbvs_dot_ are
    written before they are read: local values. *)
From Verif Require Export KinModel ImageModel.
Open Scope list_scope.
Open Scope R_scope.

(** *** GazeTask *)
(** Members: *point2d_, *point2d_ref_, depthEstimate_, X_b_gaze_, and the path of jac_. *)
Record gazeTask := mkGz { gzPoint : V2; gzRef : V2; gzDepth : R; gzX : PT; gzPath : list nat }.
(** Constructors, Tasks.cpp:465-497. *)
Definition newGaze2 (p : V2) (depth : R) (X : PT) (ref : V2) (path : list nat) : gazeTask := mkGz p ref depth X path.
Definition newGaze3 (p : V3) (X : PT) (ref : V2) (path : list nat) : res gazeTask := do q <- project p; Ok (mkGz q ref (vz p) X path).
(** error, 533-543: the first one keeps the depth. *)
Definition gzError2 (p ref : V2) (T : gazeTask) : gazeTask := mkGz p ref (gzDepth T) (gzX T) (gzPath T).
Definition gzError3 (p : V3) (ref : V2) (T : gazeTask) : res gazeTask := do q <- project p; Ok (mkGz q ref (vz p) (gzX T) (gzPath T)).
(** What jac_ gives at X_b_gaze_, as ImageConstr sees it. *)
Definition gzKin (X : PT) (k : bodyKin) : camKin :=
  mkCam (fun q c => e6 (rbdColX (pt_mul X (bkPos k)) k c) q) (e6 (rbdVel X k)) (e6 (rbdNAcc X sp0 k)).
Definition vec2 (v : V2) : vec R := mkVec 2 (ax v).
(** GazeTask::update, 545-569. *)
Definition gzUpdate (F : imgFun) (mb : multibody) (T : gazeTask) (k : bodyKin) (jacMat : mat) : res hlOut :=
  let p := gzPoint T in
  let depth := gzDepth T in
  let eval := (fst (gzRef T) - fst p, snd (gzRef T) - snd p) in
  let V q := e6 (rbdVel (gzX T) k) q in
  let speed := (sumn 6 (fun q => imgJac F p depth 0 q * V q), sumn 6 (fun q => imgJac F p depth 1 q * V q)) in
  let depthDot := sumn 6 (fun q => imgDepthDot F speed depth q * V q) in
  let nacc m := sumn 6 (fun q => imgJac F p depth m q * e6 (rbdNAcc (gzX T) sp0 k) q)
                + sumn 6 (fun q => imgJacDot F p speed depth depthDot m q * V q) in
  let col c := rbdColX (pt_mul (gzX T) (bkPos k)) k c in
  do J <- fullJacobian mb (gzPath T) (mkMat 2 (pathDof mb (gzPath T)) (fun m c => sumn 6 (fun q => imgJac F p depth m q * e6 (col c) q))) jacMat;
  Ok (mkHL J (vec2 eval) (vec2 speed) (vec2 (nacc 0%nat, nacc 1%nat))).
(** error(point3d, ref) followed by update. *)
Definition gzTrack (F : imgFun) (mb : multibody) (p : V3) (ref : V2) (T : gazeTask) (k : bodyKin) (jacMat : mat) : res hlOut :=
  do T' <- gzError3 p ref T; gzUpdate F mb T' k jacMat.

(** *** PositionBasedVisServoTask *)
(** External functions of RBDyn: getAngleAxis, poseJacobian (6x6), getSkewSym. *)
Record poseFun := mkPF { pfAngle : M3 -> R * V3; pfJac : M3 -> nat -> nat -> R; pfSkew : V3 -> M3 }.
Definition m3ent (A : M3) (i j : nat) : R := e3 (match i with 0%nat => row0 A | 1%nat => row1 A | _ => row2 A end) j.
(** PositionBasedVisServoTask::update, 638-665. *)
Definition pbUpdate (F : poseFun) (mb : multibody) (path : list nat) (X_t_s X_b_s : PT) (k : bodyKin) (jacMat : mat) : res hlOut :=
  let '(angle, axis) := pfAngle F (m3tr (ptE X_t_s)) in
  let eval := mkSp (vsc angle axis) (vneg (ptr X_t_s)) in
  let L := pfJac F (ptE X_t_s) in
  let V := rbdVel X_b_s k in
  let speed i := sumn 6 (fun q => L i q * e6 V q) in
  let D := m3mul (m3neg (m3tr (ptE X_t_s))) (pfSkew F (ang V)) in
  let Ldot i q := if ((3 <=? i) && (3 <=? q))%nat then m3ent D (i - 3) (q - 3) else 0 in
  let nacc i := sumn 6 (fun q => L i q * e6 (rbdNAcc X_b_s sp0 k) q) + sumn 6 (fun q => Ldot i q * e6 V q) in
  let col c := rbdColX (pt_mul X_b_s (bkPos k)) k c in
  do J <- fullJacobian mb path (mkMat 6 (pathDof mb path) (fun i c => sumn 6 (fun q => L i q * e6 (col c) q))) jacMat;
  Ok (mkHL J (vec6 eval) (mkVec 6 speed) (mkVec 6 nacc)).
