(** Kinematic tasks of one robot: model of /repo/src/Tasks.cpp (PositionTask, OrientationTask, SurfaceTransformTask,
    TransformTask, SurfaceOrientationTask, LinVelocityTask, VectorOrientationTask) and /repo/src/Tasks/Tasks.h.
    Simplified: eval_, speed_, normalAcc_ and jacMat_ are returned by update (record hlOut) instead of being stored
    in the task; what jacMat_ held before the call is an argument. The two overloads of update differ only in where
    the normal accelerations of the bodies come from (RBDyn computes them again when they are not given). *)
From Verif Require Export SetPointModel JacModel RigidProofs.
Open Scope list_scope.
Open Scope R_scope.

(** What RBDyn knows about the body a Jacobian is built on, at one instant: mbc.bodyPosW[b], mbc.bodyVelB[b],
    normalAccB[b] and column c of the body Jacobian at the origin of the body (motion vector, body frame). *)
Record bodyKin := mkBK { bkPos : PT; bkVelB : Spatial; bkNAccB : Spatial; bkCol : nat -> Spatial }.

(** *** rbd::Jacobian (RBDyn, external: transcribed from its documentation) *)
(** velocity(mb, mbc, X_b_p): X_b_p * bodyVelB. *)
Definition rbdVel (X : PT) (k : bodyKin) : Spatial := pt_mulM X (bkVelB k).
(** normalAcceleration(mb, mbc, normalAccB, X_b_p, V_b_p): X_b_p * normalAccB + V_b_p.cross(X_b_p * bodyVelB). *)
Definition rbdNAcc (X : PT) (V : Spatial) (k : bodyKin) : Spatial :=
  sp_add (pt_mulM X (bkNAccB k)) (sp_cross V (pt_mulM X (bkVelB k))).
(** jacobian(mb, mbc, X_0_p): the columns seen from the frame X_0_p. *)
Definition rbdColX (X_0_p : PT) (k : bodyKin) (c : nat) : Spatial :=
  pt_mulM (pt_mul X_0_p (pt_inv (bkPos k))) (bkCol k c).
(** Frame used by velocity(mb, mbc), jacobian(mb, mbc) and normalAcceleration(mb, mbc): origin at the point of the
    Jacobian, axes of the world. *)
Definition rbdFrameW (p : V3) (k : bodyKin) : PT := mkPT (m3tr (ptE (bkPos k))) p.
Definition rbdVelW (p : V3) (k : bodyKin) : Spatial := rbdVel (rbdFrameW p k) k.
Definition rbdColW (p : V3) (k : bodyKin) (c : nat) : Spatial := pt_mulM (rbdFrameW p k) (bkCol k c).
Definition rbdNAccW (p : V3) (k : bodyKin) : Spatial :=
  rbdNAcc (rbdFrameW p k) (mkSp (m3mulv (m3tr (ptE (bkPos k))) (ang (bkVelB k))) v0) k.
(** bodyJacobian, bodyVelocity, bodyNormalAcceleration for a Jacobian at the origin of the body. *)
Definition rbdColB (k : bodyKin) (c : nat) : Spatial := bkCol k c.
Definition rbdVelB (k : bodyKin) : Spatial := bkVelB k.
Definition rbdNAccB (k : bodyKin) : Spatial := bkNAccB k.

(** *** sva (external). rotationVelocity is any function rv. *)
(** sva::transformVelocity(X) = (rotationVelocity(X.rotation()), X.translation()). *)
Definition tfVelocity (rv : M3 -> V3) (X : PT) : Spatial := mkSp (rv (ptE X)) (ptr X).
(** sva::rotationError(E_a_b, E_a_c) = E_a_b' * rotationVelocity(E_a_c * E_a_b'). *)
Definition rotError (rv : M3 -> V3) (A B : M3) : V3 := m3mulv (m3tr A) (rv (m3mul B (m3tr A))).
(** sva::transformError(X_a_b, X_a_c) = PTransform(E_a_b').transformVelocity(X_a_c * X_a_b.inv()). *)
Definition tfError (rv : M3 -> V3) (A B : PT) : Spatial :=
  pt_mulM (pt_rot (m3tr (ptE A))) (tfVelocity rv (pt_mul B (pt_inv A))).

(** Entry i of an Eigen::Vector3d and of the six-vector of a motion vector. *)
Definition e3 (v : V3) (i : nat) : R := match i with 0%nat => vx v | 1%nat => vy v | _ => vz v end.
Definition e6 (s : Spatial) (i : nat) : R := if (i <? 3)%nat then e3 (ang s) i else e3 (linr s) (i - 3).
Definition vec3 (v : V3) : vec R := mkVec 3 (e3 v).
Definition vec6 (s : Spatial) : vec R := mkVec 6 (e6 s).
(** shortJacMat: jac_.jacobian(...) or one of its blocks of three rows. *)
Definition short3 (n : nat) (f : nat -> V3) : mat := mkMat 3 n (fun i c => e3 (f c) i).
Definition short6 (n : nat) (f : nat -> Spatial) : mat := mkMat 6 n (fun i c => e6 (f c) i).

(** *** PositionTask *)
(** Members (Tasks.h: PositionTask); ptJac is the point of jac_, ptPath its jointsPath(). *)
Record posTask := mkPosT { ptPos : V3; ptPoint : PT; ptJacP : V3; ptPath : list nat }.
(** PositionTask::PositionTask (Tasks.cpp:24-31). *)
Definition posInit (pos bodyPoint : V3) (path : list nat) : posTask := mkPosT pos (pt_trans bodyPoint) bodyPoint path.
(** position (33-34), bodyPoint (39-40: only the point of jac_ is set). *)
Definition posSetPos (p : V3) (T : posTask) : posTask := mkPosT p (ptPoint T) (ptJacP T) (ptPath T).
Definition posSetPoint (p : V3) (T : posTask) : posTask := mkPosT (ptPos T) (ptPoint T) p (ptPath T).
Inductive posOp := PosTarget (p : V3) | PosBodyPoint (p : V3).
Definition posStep (T : posTask) (o : posOp) : posTask :=
  match o with PosTarget p => posSetPos p T | PosBodyPoint p => posSetPoint p T end.
(** bodyPoint() (42-43): the point of jac_. *)
Definition posBodyPoint (T : posTask) : V3 := ptJacP T.
(** PositionTask::update (45-65). *)
Definition posUpdate (mb : multibody) (T : posTask) (k : bodyKin) (jacMat : mat) : res hlOut :=
  let eval := vsub (ptPos T) (ptr (pt_mul (ptPoint T) (bkPos k))) in
  let speed := linr (rbdVelW (ptJacP T) k) in
  let normalAcc := linr (rbdNAccW (ptJacP T) k) in
  do J <- fullJacobian mb (ptPath T) (short3 (pathDof mb (ptPath T)) (fun c => linr (rbdColW (ptJacP T) k c))) jacMat;
  Ok (mkHL J (vec3 eval) (vec3 speed) (vec3 normalAcc)).

(** *** OrientationTask *)
(** OrientationTask::update (115-135); the point of jac_ is the origin of the body (constructors, 92-104). *)
Definition oriUpdate (rv : M3 -> V3) (mb : multibody) (path : list nat) (ori : M3) (k : bodyKin) (jacMat : mat) : res hlOut :=
  let eval := rotError rv (ptE (bkPos k)) ori in
  let speed := ang (rbdVelW v0 k) in
  let normalAcc := ang (rbdNAccW v0 k) in
  do J <- fullJacobian mb path (short3 (pathDof mb path) (fun c => ang (rbdColW v0 k c))) jacMat;
  Ok (mkHL J (vec3 eval) (vec3 speed) (vec3 normalAcc)).

(** *** SurfaceOrientationTask *)
(** SurfaceOrientationTask::update (412-438). *)
Definition surfOriUpdate (rv : M3 -> V3) (mb : multibody) (path : list nat) (ori : M3) (X_b_s : PT) (k : bodyKin)
    (jacMat : mat) : res hlOut :=
  let eval := rv (m3mul (m3mul ori (m3tr (ptE (bkPos k)))) (m3tr (ptE X_b_s))) in
  let speed := ang (rbdVel X_b_s k) in
  let normalAcc := ang (rbdNAcc X_b_s sp0 k) in
  do J <- fullJacobian mb path (short3 (pathDof mb path) (fun c => ang (rbdColX (pt_mul X_b_s (bkPos k)) k c))) jacMat;
  Ok (mkHL J (vec3 eval) (vec3 speed) (vec3 normalAcc)).

(** *** SurfaceTransformTask *)
(** SurfaceTransformTask::update (207-236). *)
Definition surfTfUpdate (rv : M3 -> V3) (mb : multibody) (path : list nat) (X_0_t X_b_p : PT) (k : bodyKin)
    (jacMat : mat) : res hlOut :=
  let X_0_p := pt_mul X_b_p (bkPos k) in
  let X_p_t := pt_mul X_0_t (pt_inv X_0_p) in
  let err_p := tfVelocity rv X_p_t in
  let V_p_p := rbdVel X_b_p k in
  let w_p_p := mkSp (ang V_p_p) v0 in
  let AN_p_p := rbdNAcc X_b_p sp0 k in
  let wAN_p_p := mkSp (ang AN_p_p) v0 in
  let V_err_p := sp_add (sp_cross err_p w_p_p) (sp_neg V_p_p) in
  let normalAcc := sp_neg (sp_add (sp_add (sp_cross V_err_p w_p_p) (sp_cross err_p wAN_p_p)) (sp_neg AN_p_p)) in
  let col c := rbdColX X_0_p k c in
  let tmp c := sp_add (col c) (sp_neg (sp_cross err_p (mkSp (ang (col c)) v0))) in
  do J <- fullJacobian mb path (short6 (pathDof mb path) tmp) jacMat;
  Ok (mkHL J (vec6 err_p) (vec6 (sp_neg V_err_p)) (vec6 normalAcc)).

(** *** TransformTask *)
(** TransformTask::update (257-273). *)
Definition tfUpdate (rv : M3 -> V3) (mb : multibody) (path : list nat) (X_0_t X_b_p : PT) (E_0_c : M3) (k : bodyKin)
    (jacMat : mat) : res hlOut :=
  let X_0_p := pt_mul X_b_p (bkPos k) in
  let E_p_c := pt_rot (m3mul E_0_c (m3tr (ptE X_0_p))) in
  let X_b_p_c := pt_mul E_p_c X_b_p in
  let V_p_c := rbdVel X_b_p_c k in
  let w_p_c := mkSp (ang V_p_c) v0 in
  let eval := pt_mulM (pt_rot E_0_c) (tfError rv X_0_p X_0_t) in
  let normalAcc := rbdNAcc X_b_p_c w_p_c k in
  do J <- fullJacobian mb path (short6 (pathDof mb path) (rbdColX (pt_mul E_p_c X_0_p) k)) jacMat;
  Ok (mkHL J (vec6 eval) (vec6 V_p_c) (vec6 normalAcc)).

(** *** LinVelocityTask *)
(** LinVelocityTask::update (1037-1055): speed_ is zero since the constructor (1014-1023); bodyPoint (1031-1032)
    sets the point of jac_, the only one update reads. *)
Definition linVelUpdate (mb : multibody) (path : list nat) (vel jacPoint : V3) (k : bodyKin) (jacMat : mat) : res hlOut :=
  let eval := vsub vel (linr (rbdVelW jacPoint k)) in
  let normalAcc := linr (rbdNAccW jacPoint k) in
  do J <- fullJacobian mb path (short3 (pathDof mb path) (fun c => linr (rbdColW jacPoint k c))) jacMat;
  Ok (mkHL J (vec3 eval) (vec3 v0) (vec3 normalAcc)).

(** *** VectorOrientationTask *)
(** VectorOrientationTask::skewMatrix (1322-1327). *)
Definition skewMatrix (v : V3) : M3 :=
  mkM3 (mkV3 0 (- vz v) (vy v)) (mkV3 (vz v) 0 (- vx v)) (mkV3 (- vy v) (vx v) 0).
(** A 3x3 matrix as a general one. *)
Definition mat3 (A : M3) : mat :=
  mkMat 3 3 (fun i j => e3 (match i with 0%nat => row0 A | 1%nat => row1 A | _ => row2 A end) j).
(** VectorOrientationTask::update (1298-1320). fullJac is a fresh matrix. *)
Definition vecOriUpdate (mb : multibody) (path : list nat) (bodyVector target : V3) (k : bodyKin) (fresh : mat) : res hlOut :=
  let E_0_b := m3tr (ptE (bkPos k)) in
  let actual := m3mulv E_0_b bodyVector in
  let eval := vsub target actual in
  do fullJac <- fullJacobian mb path (short3 (pathDof mb path) (fun c => ang (rbdColB k c))) fresh;
  do J <- mmul (mat3 (m3mul (m3neg E_0_b) (skewMatrix bodyVector))) fullJac;
  let w_b_b := ang (rbdVelB k) in
  let speed := m3mulv E_0_b (cross w_b_b bodyVector) in
  let bodyNormalAcc := ang (rbdNAccB k) in
  let normalAcc := m3mulv E_0_b (vadd (cross w_b_b (cross w_b_b bodyVector)) (cross bodyNormalAcc bodyVector)) in
  Ok (mkHL J (vec3 eval) (vec3 speed) (vec3 normalAcc)).
