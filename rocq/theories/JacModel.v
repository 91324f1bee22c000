(** The part of rbd::Jacobian that /repo/src relies on. RBDyn is not part of the repository: the
    formulas below are transcribed from it and belong to the trusted base. The numerical content of a
    Jacobian (jacobian(), normalAcceleration(), velocity()) stays abstract: it is an argument of the
    model, so that every theorem holds for all its values. *)
From Verif Require Export LayoutModel.
Open Scope list_scope.
Open Scope R_scope.

(** rbd::Jacobian::dof(): sum of the dof of the joints of the path. A path is a list of joint indices
    from the root to the body (jointsPath()). *)
Definition jointDof (mb : multibody) (i : nat) : nat :=
  match nth_error (joints mb) i with Some j => jdof j | None => 0%nat end.
Definition pathDof (mb : multibody) (path : list nat) : nat := sumnat (map (jointDof mb) path).

(** Loop of rbd::Jacobian::fullJacobian: one block of columns per joint of the path. *)
Fixpoint fullLoop (mb : multibody) (path : list nat) (small : mat) (pos : nat) (r : mat) : res mat :=
  match path with
  | [] => Ok r
  | i :: p =>
    do j <- vec_at (joints mb) i;
    do blk <- mblock small 0 pos (mrows small) (jdof j);
    do r' <- mset_block r 0 (jointPosInDof mb i) blk;
    fullLoop mb p small (pos + jdof j)%nat r'
  end.
(** rbd::Jacobian::fullJacobian(mb, jac, res):
    res.block(0, 0, jac.rows(), mb.nrDof()).setZero(), then the loop. *)
Definition fullJacobian (mb : multibody) (path : list nat) (small r : mat) : res mat :=
  do r0 <- mset_block r 0 0 (mzero (mrows small) (nrDof mb));
  fullLoop mb path small 0 r0.

(** Index inside the robot of each column of a Jacobian (specification side). *)
Definition pathCols (mb : multibody) (path : list nat) : list nat :=
  flat_map (fun i => seq (jointPosInDof mb i) (jointDof mb i)) path.
(** A path goes through distinct joints of the robot. *)
Definition wfPath (mb : multibody) (path : list nat) : Prop :=
  NoDup path /\ forall i, In i path -> (i < length (joints mb))%nat.

(** Product of row [i] of a Jacobian with the accelerations of the joints of its path:
    sum over the columns c of small(i, c) * x(column c). *)
Definition listsum (l : list R) : R := fold_right Rplus 0 l.
Definition jacDot (mb : multibody) (path : list nat) (f : nat -> R) (x : nat -> R) : R :=
  sumn (pathDof mb path) (fun c => f c * x (nth c (pathCols mb path) 0%nat)).

(** External name resolution: rbd::Jacobian(mb, bodyName).jointsPath() (throws on an unknown name),
    MultiBody::bodyIndexByName and MultiBody::body(i).name(), for robot number r. *)
Record names := mkNames {
  nPath : nat -> string -> res (list nat);
  nBodyIndex : nat -> string -> res nat;
  nBodyName : nat -> nat -> string }.

(** External kinematics of the current configuration of robot number r: body poses (mbc.bodyPosW), and for
    a Jacobian with the given path and a point X_b_p: entries of jacobian(), 6-vectors
    normalAcceleration() and velocity(). Row 0-2 angular, 3-5 linear. *)
Record kin := mkKin {
  kPosW : nat -> nat -> PT;
  kJac : nat -> list nat -> PT -> nat -> nat -> R;
  kNAcc : nat -> list nat -> PT -> nat -> R;
  kVel : nat -> list nat -> PT -> nat -> R }.
