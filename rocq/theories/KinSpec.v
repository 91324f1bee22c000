(** What a kinematic task promises, said about time: independent of the code. *)
From Verif Require Export KinModel Deriv SetPointSpec.
Open Scope R_scope.

(** The body of a Jacobian along a motion of the robot, around time t. E is the rotation from the world to the
    body: E' = -[w] E and r' = E' v with (w, v) the velocity of the body in its own frame; the velocity is the body
    Jacobian times the joint velocities [al]; its derivative is the body Jacobian times the joint accelerations
    [ald] plus the normal acceleration. *)
Record movesAt (mb : multibody) (path : list nat) (K : R -> bodyKin) (al ald : R -> nat -> R) (t : R) : Prop := mkMoves {
  mvRigid : forall s, rigid (bkPos (K s));
  mvVel : forall i, (i < 6)%nat -> e6 (bkVelB (K t)) i = jacDot mb path (fun c => e6 (bkCol (K t) c) i) (al t);
  mvRot : dM (fun s => ptE (bkPos (K s))) t (m3neg (m3mul (skewm (ang (bkVelB (K t)))) (ptE (bkPos (K t)))));
  mvPos : dV (fun s => ptr (bkPos (K s))) t (m3mulv (m3tr (ptE (bkPos (K t)))) (linr (bkVelB (K t))));
  mvAcc : forall i, (i < 6)%nat -> dlim (fun s => e6 (bkVelB (K s)) i) t
            (jacDot mb path (fun c => e6 (bkCol (K t) c) i) (ald t) + e6 (bkNAccB (K t)) i) }.

(** The update never fails and yields outputs of m rows. *)
Definition yields (m : nat) (mb : multibody) (U : R -> res hlOut) (H : R -> hlOut) : Prop :=
  forall s, U s = Ok (H s) /\ hlSizes m (H s) /\ mcols (hJac (H s)) = nrDof mb.
(** The speed is the Jacobian times the joint velocities. *)
Definition speedIsJac (m : nat) (H : R -> hlOut) (al : R -> nat -> R) (t : R) : Prop :=
  forall i, (i < m)%nat -> sumn (mcols (hJac (H t))) (fun j => mget (hJac (H t)) i j * al t j) = vget (hSpeed (H t)) i.
(** The error decreases at the speed of the task (rows [lo] to [m] - 1). *)
Definition errorRate (lo m : nat) (H : R -> hlOut) (t : R) : Prop :=
  forall i, (lo <= i < m)%nat -> dlim (fun s => vget (hErr (H s)) i) t (- vget (hSpeed (H t)) i).
(** The derivative of the speed is the Jacobian times the joint accelerations plus the normal acceleration. *)
Definition speedRate (lo m : nat) (H : R -> hlOut) (ald : R -> nat -> R) (t : R) : Prop :=
  forall i, (lo <= i < m)%nat -> dlim (fun s => vget (hSpeed (H s)) i) t (taskAcc (H t) 0 (ald t) i).
