(** The updateDot methods of /repo/src/Tasks.cpp and the update overloads that let RBDyn compute the normal accelerations. As in KinModel, the matrix that is
    filled (jacDotMat_) is returned, and what it held before is an argument. rbd::Jacobian::bodyJacobianDot, jacobianDot and normalAcceleration(mb, mbc),
    CoMJacobian::jacobianDot and CentroidalMomentumMatrix::computeMatrixDot are RBDyn's: modelled here by what they compute. *)
From Verif Require Export TreeModel TrackModel MomModel.
Open Scope list_scope.
Open Scope R_scope.

(** *** rbd::Jacobian *)
(** Joint of column c of a Jacobian and column inside its motion subspace: the loop over jointsPath() with curJ. *)
Fixpoint pathAt (mb : multibody) (path : list nat) (c : nat) : nat * nat :=
  match path with
  | [] => (0%nat, c)
  | i :: p => if (c <? jointDof mb i)%nat then (i, c) else pathAt mb p (c - jointDof mb i)
  end.
(** bodyJacobianDot(mb, mbc) at the origin of body N, one column: with X_i_N = bodyPosW[N] * bodyPosW[i].inv(),
    (X_i_N * bodyVelB[i] - bodyVelB[N]).cross(X_i_N * motionSubspace[i].col(k)). *)
Definition rbdColBDot (mb : multibody) (path : list nat) (P : nat -> PT) (vb : nat -> Spatial) (Sub : nat -> nat -> Spatial) (N c : nat) : Spatial :=
  let (i, k) := pathAt mb path c in
  let X_i_N := pt_mul (P N) (pt_inv (P i)) in
  sp_cross (sp_add (pt_mulM X_i_N (vb i)) (sp_neg (vb N))) (pt_mulM X_i_N (Sub i k)).
(** jacobianDot(mb, mbc): the same seen from the frame of jacobian(mb, mbc), which turns with respect to the body. [dcol] are the columns of bodyJacobianDot. *)
Definition rbdColWDot (p : V3) (k : bodyKin) (dcol : nat -> Spatial) (c : nat) : Spatial :=
  sp_add (pt_mulM (rbdFrameW p k) (dcol c)) (sp_cross (mkSp (m3mulv (m3tr (ptE (bkPos k))) (ang (bkVelB k))) v0) (rbdColW p k c)).
(** normalAcceleration(mb, mbc): loop over jointsPath(), accel = parentToSon[i] * accel + bodyVelB[i].cross(jointVelocity[i]). *)
Fixpoint pathNAcc (c : treeMBC) (path : list nat) (accel : Spatial) : res Spatial :=
  match path with
  | [] => Ok accel
  | i :: p => do X <- vec_at (tcPts c) i; do vb <- vec_at (tcVb c) i; do vj <- vec_at (tcVj c) i;
              pathNAcc c p (sp_add (pt_mulM X accel) (sp_cross vb vj))
  end.
(** The body of a Jacobian as update(mb, mbc, normalAccB) reads it: normalAccB[b] is the only difference between the overloads. *)
Definition bodyGiven (P : PT) (vb : Spatial) (col : nat -> Spatial) (na : list Spatial) (b : nat) : res bodyKin :=
  do a <- vec_at na b; Ok (mkBK P vb a col).
(** The same as update(mb, mbc) reads it. *)
Definition bodyFound (P : PT) (vb : Spatial) (col : nat -> Spatial) (c : treeMBC) (path : list nat) : res bodyKin :=
  do a <- pathNAcc c path sp0; Ok (mkBK P vb a col).

(** *** updateDot *)
(** PositionTask::updateDot (Tasks.cpp:67-71). *)
Definition posUpdateDot (mb : multibody) (T : posTask) (k : bodyKin) (dcol : nat -> Spatial) (jacDotMat : mat) : res mat :=
  fullJacobian mb (ptPath T) (short3 (pathDof mb (ptPath T)) (fun c => linr (rbdColWDot (ptJacP T) k dcol c))) jacDotMat.
(** OrientationTask::updateDot (137-141). *)
Definition oriUpdateDot (mb : multibody) (path : list nat) (k : bodyKin) (dcol : nat -> Spatial) (jacDotMat : mat) : res mat :=
  fullJacobian mb path (short3 (pathDof mb path) (fun c => ang (rbdColWDot v0 k dcol c))) jacDotMat.
(** SurfaceOrientationTask::updateDot (440-444): bodyJacobianDot, without X_b_s_. *)
Definition surfOriUpdateDot (mb : multibody) (path : list nat) (dcol : nat -> Spatial) (jacDotMat : mat) : res mat :=
  fullJacobian mb path (short3 (pathDof mb path) (fun c => ang (dcol c))) jacDotMat.
(** LinVelocityTask::updateDot (1057-1061). *)
Definition linVelUpdateDot (mb : multibody) (path : list nat) (jacPoint : V3) (k : bodyKin) (dcol : nat -> Spatial) (jacDotMat : mat) : res mat :=
  fullJacobian mb path (short3 (pathDof mb path) (fun c => linr (rbdColWDot jacPoint k dcol c))) jacDotMat.
(** OrientationTrackingTask::updateDot (1145-1150). *)
Definition otUpdateDot (mb : multibody) (T : trackTask) (k : bodyKin) (dcol : nat -> Spatial) (jacDotMat : mat) : res mat :=
  let col c := if existsb (Nat.eqb c) (otZero T) then v0 else ang (rbdColWDot v0 k dcol c) in
  fullJacobian mb (otPath T) (short3 (pathDof mb (otPath T)) col) jacDotMat.
(** CoMTask::updateDot (795-796). [dcol b]: bodyJacobianDot of body b. *)
Definition ctUpdateDot (mb : multibody) (bs : list comBody) (K : nat -> bodyKin) (dcol : nat -> nat -> Spatial) (T : comTask) : res mat :=
  do _ <- guard (Nat.leb (length bs) (length (cjCoeff (ctJac T))));
  Ok (mkMat 3 (nrDof mb) (fun i q => cjBodies bs (ctJac T) (fun b p => fullRow mb (pathOf bs b) (fun c => e3 (linr (rbdColWDot p (K b) (dcol b) c)) i) q))).
(** CentroidalMomentumMatrix::computeMatrixDot, one column of one body: X_com_i.transMul(I * jacDot + (V - X_com_i * comDot).crossDual(I * jac)). *)
Definition momColDot (com comDot : V3) (x : momBody) (k : bodyKin) (dcol : nat -> Spatial) (c : nat) : Spatial :=
  let X := fromCom com k in
  transMul X (sp_add (inertiaMul x (dcol c)) (crossDual (sp_add (bkVelB k) (sp_neg (pt_mulM X (mkSp v0 comDot)))) (inertiaMul x (bkCol k c)))).
(** MomentumTask::updateDot (989-993). *)
Definition momUpdateDot (mb : multibody) (bs : list momBody) (K : nat -> bodyKin) (dcol : nat -> nat -> Spatial) : res mat :=
  do com <- computeCoM (worldMasses (map moB bs) K);
  do comDot <- comVelocity bs K;
  Ok (mkMat 6 (nrDof mb) (fun i q => overBodies bs (fun b x => fullRow mb (cbPath (moB x)) (fun c => e6 (momColDot com comDot x (K b) (dcol b) c) i) q))).
