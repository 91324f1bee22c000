(** Notions used to state what error reports say. *)
From Verif Require Export SolverSpec ErrorModel.
Open Scope list_scope.
Open Scope R_scope.

(** Bound [k] is the first one that bounds variable [v], which is its line [l]. *)
Definition boundOwner (bs : list bound) (v k l : nat) : Prop :=
  (exists b, nth_error bs k = Some b /\ (bdBegin b + l = v)%nat /\ (l < vlen (bdL b))%nat) /\
  forall k' b', (k' < k)%nat -> nth_error bs k' = Some b' -> ~ (bdBegin b' <= v < bdBegin b' + vlen (bdL b'))%nat.
Definition unbounded (bs : list bound) (v : nat) : Prop :=
  forall b, In b bs -> ~ (bdBegin b <= v < bdBegin b + vlen (bdL b))%nat.
(** Matrices without columns beyond the variables of the problem. *)
Definition exactColumns (n : nat) (g : registered) : Prop :=
  Forall (fun e => mcols (eqA e) = n) (rgEq g) /\ Forall (fun e => mcols (iqA e) = n) (rgIneq g) /\ Forall (fun e => mcols (giA e) = n) (rgGen g).
