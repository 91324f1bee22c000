(** What OrientationTrackingTask promises: independent of the code. *)
From Verif Require Export TrackModel KinSpec KinAxis.
Open Scope list_scope.
Open Scope R_scope.

(** The joint velocities of the joints [tr] only. *)
Definition ofJoint (mb : multibody) (i j : nat) : bool := ((jointPosInDof mb i <=? j) && (j <? jointPosInDof mb i + jointDof mb i))%nat.
Definition onlyJoints (mb : multibody) (tr : list nat) (x : nat -> R) (j : nat) : R := if existsb (fun i => ofJoint mb i j) tr then x j else 0.
(** FromTwoVectors gives the rotation by the angle between the vectors about their common normal (Eigen: vectors that are not opposite). *)
Definition isTurn (ftv : V3 -> V3 -> M3) : Prop :=
  (forall u a x, norm u = 1 -> norm a = 1 -> dot u a = 0 -> 0 < x < PI -> ftv a (m3mulv (m3tr (rotAxis u x)) a) = m3tr (rotAxis u x)) /\
  (forall a, norm a = 1 -> ftv a a = m3id).
(** The direction of the axis of the body, and the direction to the tracked point from the point of the body. *)
Definition unitOf (v : V3) : V3 := vsc (/ norm v) v.
Definition axisDir (axis : V3) (k : bodyKin) : V3 := unitOf (m3mulv (m3tr (ptE (bkPos k))) axis).
Definition targetDir (bp tracked : V3) (k : bodyKin) : V3 := unitOf (vsub tracked (vadd (ptr (bkPos k)) (m3mulv (m3tr (ptE (bkPos k))) bp))).
(** The angular velocity of the body, in the world. *)
Definition turnRate (k : bodyKin) : V3 := m3mulv (m3tr (ptE (bkPos k))) (ang (bkVelB k)).
