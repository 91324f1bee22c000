(** What updateDot promises: independent of the code. *)
From Verif Require Export DotModel TreeSpec MomSpec.
Open Scope list_scope.
Open Scope R_scope.

(** A body that moves at all times; [dcol] are the derivatives of the columns of its Jacobian at t, [ald] those of the joint velocities. *)
Definition colsMove (mb : multibody) (path : list nat) (K : R -> bodyKin) (dcol : nat -> Spatial) (t : R) : Prop :=
  forall c, (c < pathDof mb path)%nat -> dS (fun s => bkCol (K s) c) t (dcol c).
Record dotMoves (mb : multibody) (path : list nat) (K : R -> bodyKin) (dcol : nat -> Spatial) (al ald : R -> nat -> R) (t : R) : Prop := mkDM {
  dmWf : wfPath mb path;
  dmMoves : forall s, movesAt mb path K al ald s;
  dmCols : colsMove mb path K dcol t;
  dmAl : forall j, dlim (fun s => al s j) t (ald t j) }.
(** The matrix is the derivative of the Jacobian of the task, entry by entry. *)
Definition jacRate (m : nat) (mb : multibody) (H : R -> hlOut) (t : R) (D : mat) : Prop :=
  mrows D = m /\ mcols D = nrDof mb /\ forall i j, (i < m)%nat -> (j < nrDof mb)%nat -> dlim (fun s => mget (hJac (H s)) i j) t (mget D i j).
(** Its product with the joint velocities is the normal acceleration of the task. *)
Definition dotIsNormal (m : nat) (mb : multibody) (H : R -> hlOut) (al : R -> nat -> R) (t : R) (D : mat) : Prop :=
  forall i, (i < m)%nat -> sumn (nrDof mb) (fun j => mget D i j * al t j) = vget (hNAcc (H t)) i.
(** All bodies of a robot. *)
Definition bodiesDot (mb : multibody) (bs : list comBody) (K : R -> nat -> bodyKin) (dcol : nat -> nat -> Spatial) (al ald : R -> nat -> R) (t : R) : Prop :=
  forall b x, nth_error bs b = Some x -> dotMoves mb (cbPath x) (fun s => K s b) (dcol b) al ald t.
