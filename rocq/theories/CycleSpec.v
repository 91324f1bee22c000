(** Vocabulary of whole control cycles: the constraint is updated, the solver solves and writes the accelerations back,
    the caller integrates them and starts again. *)
From Verif Require Export LimitsSpec SolverSpec.
Open Scope list_scope.
Open Scope R_scope.

(** The configuration of a robot: accelerations, and the positions and velocities that solve() leaves alone. *)
Notation robotConf := (mbconfig (list (list R) * list (list R))).
Definition confQ (m : robotConf) : list (list R) := fst (mbcOther m).
Definition confV (m : robotConf) : list (list R) := snd (mbcOther m).
(** What a constraint reads in it. *)
Definition cfgOf (m : robotConf) : mbcfg := mkCfg (confQ m) (confV m) (mbcAlphaD m).
Definition confsOk (mbs : list multibody) (ms : list robotConf) : Prop := Forall2 (fun mb m => cfgOk mb (cfgOf m)) mbs ms.

(** The caller integrates the accelerations during [dt]: [th] = 0 is explicit Euler, [th] = 1/2 constant acceleration,
    [th] = 1 semi-implicit Euler. Nothing is asked of the spherical and free joints but the sizes. *)
Definition moved (mb : multibody) (dt th : R) (m m' : robotConf) : Prop :=
  mbcAlphaD m' = mbcAlphaD m /\ cfgOk mb (cfgOf m') /\
  forall i jt k, nth_error (joints mb) i = Some jt -> jparams jt = jdof jt -> (k < jdof jt)%nat ->
    at2 (confV m') i k 0 = at2 (confV m) i k 0 + dt * at2 (mbcAlphaD m) i k 0 /\
    at2 (confQ m') i k 0 = at2 (confQ m) i k 0 + dt * ((1 - th) * at2 (confV m) i k 0 + th * at2 (confV m') i k 0).
Definition moves (mbs : list multibody) (dt th : R) (ms ms' : list robotConf) : Prop :=
  length ms' = length ms /\ forall r mb m m', nth_error mbs r = Some mb -> nth_error ms r = Some m -> nth_error ms' r = Some m' -> moved mb dt th m m'.

(** One cycle. Between two cycles any tasks and constraints may be added and removed ([ops]); then solve() updates the
    constraint objects (QPSolver.cpp:326-333; [upd] is the update of the bound constraint [c], [bnd] what it tells the
    solver, the other objects of the heap [h] are arbitrary), succeeds and writes the accelerations (QPSolver.cpp:42-49). *)
Definition cycle {A} (upd : list mbcfg -> A -> res A) (bnd : A -> res FillModel.bound) (lssol : bool) (kinds : nat -> list ckind) (num : numeric)
    (c : nat) (mbs : list multibody) (dt th : R) (z z' : A * list robotConf * qpSolver) : Prop :=
  let '(m, ms, s) := z in let '(m', ms', s') := z' in
  exists ops h x ms1,
    run lssol kinds s ops = Ok s' /\ Forall (fun o => ~ resizesOrSwitches o) ops /\
    In c (qConstr s') /\ In c (qBound s') /\
    upd (map cfgOf ms) m = Ok m' /\ bnd m' = Ok (hBound h c) /\
    Forall wfBound (rgBound (collect s' h)) /\ disjointBounds (rgBound (collect s' h)) /\
    solve num s' h ms = Ok (true, x, ms1) /\
    moves mbs dt th ms1 ms'.
(** Any number of them. *)
Inductive cycles {A} (upd : list mbcfg -> A -> res A) (bnd : A -> res FillModel.bound) (lssol : bool) (kinds : nat -> list ckind) (num : numeric)
    (c : nat) (mbs : list multibody) (dt th : R) (z : A * list robotConf * qpSolver) : A * list robotConf * qpSolver -> Prop :=
| cycles0 : cycles upd bnd lssol kinds num c mbs dt th z z
| cyclesS z1 z2 : cycles upd bnd lssol kinds num c mbs dt th z z1 -> cycle upd bnd lssol kinds num c mbs dt th z1 z2 ->
    cycles upd bnd lssol kinds num c mbs dt th z z2.
