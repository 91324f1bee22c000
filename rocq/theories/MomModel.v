(** Model of tasks::MomentumTask (/repo/src/Tasks.cpp:954-995) as the QP task updates it (/repo/src/QPTasks.cpp:1233-1260). rbd::computeCoMVelocity, rbd::computeCentroidalMomentum and
    rbd::CentroidalMomentumMatrix are RBDyn's and sva::RBInertia, ForceVec::transMul and MotionVec::crossDual SpaceVecAlg's: modelled here by what they compute.
    Simplifications: a division by a null total mass is [UB]; the matrix is written as the sum over the bodies of the momentum of each column of their Jacobian, RBDyn loops over the
    bodies in the same way but adds each Jacobian through fullJacobian; the update without normal accelerations (which lets RBDyn compute them) is not modelled. *)
From Verif Require Export ComModel.
Open Scope list_scope.
Open Scope R_scope.

(** sva::RBInertia: mass, momentum (mass times centre of mass) and inertia matrix at the origin of the body. *)
Record momBody := mkMom { moB : comBody; moI : M3 }.
(** RBInertia * MotionVec: a force vector, couple in [ang], force in [linr]. *)
Definition inertiaMul (x : momBody) (V : Spatial) : Spatial :=
  let m := cbMass (moB x) in let h := vsc m (cbCom (moB x)) in
  mkSp (vadd (m3mulv (moI x) (ang V)) (cross h (linr V))) (vsub (vsc m (linr V)) (cross h (ang V))).
(** MotionVec::crossDual. *)
Definition crossDual (V F : Spatial) : Spatial := mkSp (vadd (cross (ang V) (ang F)) (cross (linr V) (linr F))) (cross (ang V) (linr F)).
(** PTransform::transMul. *)
Definition transMul (X : PT) (F : Spatial) : Spatial :=
  mkSp (vadd (m3mulv (m3tr (ptE X)) (ang F)) (cross (ptr X) (m3mulv (m3tr (ptE X)) (linr F)))) (m3mulv (m3tr (ptE X)) (linr F)).
(** X_com_i = bodyPosW[i] * X_0_com.inv(). *)
Definition fromCom (com : V3) (k : bodyKin) : PT := pt_mul (bkPos k) (pt_inv (pt_trans com)).
(** Sum over the bodies, one component. *)
Definition overBodies {A} (bs : list A) (f : nat -> A -> R) : R := sumn (length bs) (fun b => match nth_error bs b with Some x => f b x | None => 0 end).
(** computeCoMVelocity. *)
Definition comVelocity (bs : list momBody) (K : nat -> bodyKin) : res V3 :=
  let M := overBodies bs (fun _ x => cbMass (moB x)) in
  let mv i := overBodies bs (fun b x => e3 (m3mulv (m3tr (ptE (bkPos (K b))))
                (vsub (vsc (cbMass (moB x)) (linr (bkVelB (K b)))) (cross (vsc (cbMass (moB x)) (cbCom (moB x))) (ang (bkVelB (K b)))))) i) in
  do a <- divOk (mv 0%nat) M; do b <- divOk (mv 1%nat) M; do c <- divOk (mv 2%nat) M; Ok (mkV3 a b c).
(** computeCentroidalMomentum. *)
Definition centroidal (bs : list momBody) (K : nat -> bodyKin) (com : V3) (i : nat) : R :=
  overBodies bs (fun b x => e6 (transMul (fromCom com (K b)) (inertiaMul x (bkVelB (K b)))) i).
(** CentroidalMomentumMatrix::computeMatrix. *)
Definition centroidalMatrix (mb : multibody) (bs : list momBody) (K : nat -> bodyKin) (com : V3) : mat :=
  mkMat 6 (nrDof mb) (fun i q => overBodies bs (fun b x =>
    fullRow mb (cbPath (moB x)) (fun c => e6 (transMul (fromCom com (K b)) (inertiaMul x (bkCol (K b) c))) i) q)).
(** CentroidalMomentumMatrix::normalMomentumDot. *)
Definition normalMomentumDot (bs : list momBody) (K : nat -> bodyKin) (com comDot : V3) (i : nat) : R :=
  overBodies bs (fun b x => let X := fromCom com (K b) in
    e6 (transMul X (sp_add (inertiaMul x (bkNAccB (K b)))
          (crossDual (sp_add (bkVelB (K b)) (sp_neg (pt_mulM X (mkSp v0 comDot)))) (inertiaMul x (bkVelB (K b)))))) i).

(** The task holds momentum_, set by the constructor (954-958) and momentum (960-961). speed_ is zeroed by the constructor and never written again. *)
Inductive momOp := MomSet (h : Spatial).
Definition momStep (_ : Spatial) (o : momOp) : Spatial := match o with MomSet h => h end.
(** update, 976-987. *)
Definition momUpdate (mb : multibody) (bs : list momBody) (K : nat -> bodyKin) (mom : Spatial) : res hlOut :=
  do com <- computeCoM (worldMasses (map moB bs) K);
  do comDot <- comVelocity bs K;
  Ok (mkHL (centroidalMatrix mb bs K com) (mkVec 6 (fun i => e6 mom i - centroidal bs K com i)) (mkVec 6 (fun _ => 0)) (mkVec 6 (normalMomentumDot bs K com comDot))).
