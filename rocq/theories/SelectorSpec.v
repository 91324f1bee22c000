(** Specification vocabulary of the joint selector. *)
From Verif Require Export SelectorModel SetPointSpec.
Open Scope list_scope.
Open Scope R_scope.

(** Column [c] of a Jacobian of the robot is degree of freedom [k] of joint [j]. *)
Definition isDof (mb : multibody) (c : nat) (j : joint) (k : nat) : Prop :=
  exists i, nth_error (joints mb) i = Some j /\ (k < jdof j)%nat /\ c = (jointPosInDof mb i + k)%nat.
(** Degree of freedom [k] is asked for by the entry of the joint in the dof map; without an entry all are. *)
Definition askedDof (dofs : dofMap) (j : joint) (k : nat) : Prop :=
  match dfind dofs (jname j) with None => True | Some rs => exists s n, In (s, n) rs /\ (s <= k < s + n)%nat end.
Definition asked (mb : multibody) (names : list string) (dofs : dofMap) (c : nat) : Prop :=
  exists j k, isDof mb c j k /\ In (jname j) names /\ askedDof dofs j k.
(** [M] has the columns of [J] where [P] holds and zero elsewhere. *)
Definition restricted (m n : nat) (P : nat -> Prop) (J M : mat) : Prop :=
  mrows M = m /\ mcols M = n /\ forall i c, (i < m)%nat -> (c < n)%nat -> (P c -> mget M i c = mget J i c) /\ (~ P c -> mget M i c = 0).
