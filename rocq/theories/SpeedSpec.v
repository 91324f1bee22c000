(** Vocabulary of the properties of the speed bounds. *)
From Verif Require Export SpeedModel CollisionSpec.
Open Scope list_scope.
Open Scope R_scope.

(** Calls. *)
Inductive sOp := SAdd (s : speedSpec) | SRm (body : string) | SReset | SSizes | SNr (d : solverData) | SUp (K : bkin).
Definition sStep (nm : names) (mbs : list multibody) (c : speedConstr) (o : sOp) : res speedConstr :=
  match o with
  | SAdd s => addSpeed nm s c
  | SRm b => Ok (fst (removeSpeed b c))
  | SReset => Ok (resetSpeeds c)
  | SSizes => Ok (updateSpeeds c)
  | SNr d => speedNrVars d c
  | SUp K => speedUpdate mbs K c
  end.
Fixpoint sRun (nm : names) (mbs : list multibody) (c : speedConstr) (ops : list sOp) : res speedConstr :=
  match ops with [] => Ok c | o :: ops' => do c' <- sStep nm mbs c o; sRun nm mbs c' ops' end.

(** Speed bounds in force after the calls, oldest first. *)
Fixpoint dropSpeed (b : string) (l : list speedSpec) : list speedSpec :=
  match l with [] => [] | s :: l' => if string_dec (spBody s) b then l' else s :: dropSpeed b l' end.
Fixpoint speedsFrom (l : list speedSpec) (ops : list sOp) : list speedSpec :=
  match ops with
  | [] => l
  | SAdd s :: ops' => speedsFrom (l ++ [s]) ops'
  | SRm b :: ops' => speedsFrom (dropSpeed b l) ops'
  | SReset :: ops' => speedsFrom [] ops'
  | _ :: ops' => speedsFrom l ops'
  end.
Definition speedsAfter (ops : list sOp) : list speedSpec := speedsFrom [] ops.
(** The data of the problem were given last by [d], and the matrices were allocated after the last change of the list. *)
Definition sNoNr (o : sOp) : Prop := match o with SNr _ => False | _ => True end.
Definition sOnlyUp (o : sOp) : Prop := match o with SUp _ => True | _ => False end.
Definition sSized (d : solverData) (ops : list sOp) : Prop :=
  exists pre post1 post2, ops = pre ++ SNr d :: post1 ++ post2 /\ Forall sNoNr post1 /\ Forall sOnlyUp post2 /\
    (post1 = [] \/ exists q, post1 = q ++ [SSizes]).
Definition sReaches (nm : names) (mbs : list multibody) (r : nat) (d : solverData) (step : R) (ops : list sOp) (c : speedConstr) : Prop :=
  (exists uni bi deps, nrVarsData mbs uni bi = Ok (d, deps)) /\ pathsOk nm mbs /\ (exists c0, newSpeed mbs r step = Ok c0 /\ sRun nm mbs c0 ops = Ok c) /\ sSized d ops.
(** The selection matrices have six columns and the bounds one entry per row. *)
Definition speedOk (s : speedSpec) : Prop := mcols (spDof s) = 6%nat /\ vlen (spL s) = mrows (spDof s) /\ vlen (spU s) = mrows (spDof s).

(** The rows, in order: speed bound and number of the row of its selection matrix. *)
Definition speedRows (l : list speedSpec) : list (speedSpec * nat) := flat_map (fun s => map (pair s) (seq 0 (mrows (spDof s)))) l.
(** Coordinate [q] of the velocity of the body after a time [dt] under the accelerations of [x]. *)
Definition pathTo (nm : names) (r : nat) (b : string) : list nat := match nPath nm r b with Ok p => p | _ => [] end.
Definition bodyAcc (mb : multibody) (beg : nat) (p : list nat) (K : bkin) (pt : V3) (x : nat -> R) (q : nat) : R :=
  jacDot mb p (bkJac K p pt q) (fun j => x (beg + j)%nat) + bkNAcc K p pt q.
Definition nextVel (nm : names) (mbs : list multibody) (r : nat) (d : solverData) (dt : R) (s : speedSpec) (K : bkin) (x : nat -> R) (q : nat) : R :=
  let p := pathTo nm r (spBody s) in
  bkVel K p (spPoint s) q + dt * bodyAcc (robot mbs r) (beginOf d r) p K (spPoint s) x q.
Definition selected (S : mat) (k : nat) (v : nat -> R) : R := sumn 6 (fun q => mget S k q * v q).
(** Row [i] of a two-sided constraint holds. *)
Definition holdsGenRow (n : nat) (x : nat -> R) (g : geninequality) (i : nat) : Prop :=
  between (vget (giL g) i) (sumn n (fun j => mget (giA g) i j * x j)) (vget (giU g) i).
(** Names of bodies: the last joint of the path to a body carries that body. *)
Definition endsAt (nm : names) : Prop := forall r b p, nPath nm r b = Ok p -> nBodyName nm r (last p 0%nat) = b.
