(** Vocabulary of the contact properties: sums of vectors, combinations of generators,
    wrenches of point forces, membership in a friction cone. Nothing here is modelled code. *)
From Verif Require Export ContactModel.
Open Scope R_scope.

(** Sum of a list of vectors, and sum of l(i) * gens(i). *)
Fixpoint vsum (l : list V3) : V3 := match l with [] => v0 | a :: l' => vadd a (vsum l') end.
Fixpoint comb (gens : list V3) (l : nat -> R) : V3 :=
  match gens with [] => v0 | g :: gs => vadd (vsc (l 0%nat) g) (comb gs (fun i => l (S i))) end.


(** Per-point forces: point after point, each takes as many multipliers as its cone has
    generators, starting at [pos]. *)
Fixpoint forces (cones : list cone) (lam : nat -> R) (pos : nat) : list V3 :=
  match cones with
  | [] => []
  | k :: ks => comb (generators k) (fun i => lam (pos + i)%nat)
               :: forces ks lam (pos + length (generators k))
  end.

(** Wrench at the origin of a force applied at [p], and sum over the points. *)
Definition pointWrench (p f : V3) : Spatial := mkSp (cross p f) f.
Fixpoint wsum (ps fs : list V3) : Spatial :=
  match ps, fs with p :: ps', f :: fs' => sp_add (pointWrench p f) (wsum ps' fs') | _, _ => sp0 end.

(** Number of generators of each cone, and their total. *)
Definition sizes (cones : list cone) : list nat := map (fun k => length (generators k)) cones.

(** A bilateral contact has one cone per point on each side. *)
Definition wfBilateral (c : bilateral) : Prop :=
  length (bR1Cones c) = length (bR1Points c) /\ length (bR2Cones c) = length (bR1Points c) /\
  length (bR2Points c) = length (bR1Points c) /\ sizes (bR2Cones c) = sizes (bR1Cones c).
Definition wfUni (c : unilateral) : Prop :=
  length (uR2Points c) = length (uR1Points c) /\
  length (generators (uR2Cone c)) = length (generators (uR1Cone c)).

Definition nonneg (lam : vec R) : Prop := forall i, (i < vlen lam)%nat -> 0 <= vget lam i.

(** [f] is in the friction cone of normal [n] (a unit vector) and coefficient [mu]. *)
Definition tangential (n f : V3) : V3 := vsub f (vsc (dot n f) n).
Definition inCone (n : V3) (mu : R) (f : V3) : Prop :=
  0 <= dot n f /\ norm (tangential n f) <= mu * dot n f.

Definition veclin (a : R) (l1 : vec R) (b : R) (l2 : vec R) : vec R :=
  mkVec (vlen l1) (fun i => a * vget l1 i + b * vget l2 i).
Definition vecsum {A} (f : A -> V3) (l : list A) : V3 := vsum (map f l).

(** A point index out of the range of [n] points. *)
Definition badPoint (p : Z) (n : nat) : Prop := (p < 0 \/ Z.of_nat n <= p)%Z.
