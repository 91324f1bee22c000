(** Vocabulary: where a vector of a body points, and what it takes to turn it. *)
From Verif Require Export EnergySpec KinSpec KinModel.
Open Scope list_scope.
Open Scope R_scope.

(** The vector v of the body, in the world. *)
Definition pointing (v : V3) (B : bodyKin) : V3 := m3mulv (m3tr (ptE (bkPos B))) v.
(** Some accelerations turn the vector from u straight towards the target: the Jacobian can produce the part of target orthogonal to u. *)
Definition turnsTo (h : hlOut) (b : nat) (u target : V3) : Prop :=
  exists y : nat -> R, forall i, (i < 3)%nat -> sumn (mcols (hJac h)) (fun j => mget (hJac h) i j * y (b + j)%nat) = e3 (vsub target (vsc (dot target u) u)) i.
(** Half the square of its velocity, plus the stiffness times the distance to the target along the target. *)
Definition swing (k : R) (v target u : V3) : R := dot v v / 2 + k * (1 - dot target u).
(** Half the rate of the decay of the squared error, for a damping between d1 and d2 and this energy at the start. *)
Definition swingRate (k d1 d2 e0 : R) : R := d1 * k / (2 * k + d2 * d2) * (2 - e0 / k) / 3.
