(** Vocabulary of control cycles with torque limits: the motion constraint is updated, the solver solves, the caller
    computes the torques to send to the motors. *)
From Verif Require Export MotionSpec SolverSpec.
Open Scope list_scope.
Open Scope R_scope.

(** One cycle, with the dynamics [dy] of the robots at that time and the result [x] of the solver. Between two cycles any
    tasks and constraints may be added and removed ([ops]); then solve() updates the constraint objects (QPSolver.cpp:326-333;
    the objects of the heap [h] other than constraint [c] are arbitrary) and succeeds; then the caller calls
    computeTorque(solver.alphaDVec(), solver.lambdaVec()) (QPMotionConstr.cpp:113-118, QPSolver.cpp:294-301). *)
Definition torqueCycle (nm : names) (mbs : list multibody) (lssol : bool) (kinds : nat -> list ckind) (num : numeric) (c : nat)
    (dy : dyn) (x : vec R) (z z' : motion_ * qpSolver) : Prop :=
  let '(m, s) := z in let '(m', s') := z' in
  exists ops h m1 (ms ms1 : list (mbconfig unit)) a l,
    run lssol kinds s ops = Ok s' /\ Forall (fun o => ~ resizesOrSwitches o) ops /\
    In c (qConstr s') /\ In c (qGen s') /\
    moUpdate mbs dy m = Ok m1 /\ hGen h c = mcGen (moC m1) /\
    Forall wfBound (rgBound (collect s' h)) /\ disjointBounds (rgBound (collect s' h)) /\
    solve num s' h ms = Ok (true, x, ms1) /\
    alphaDVec (qData s') x = Ok a /\ lambdaVec (qData s') x = Ok l /\ moTorque a l m1 = Ok m'.
(** Any number of them. *)
Inductive torqueCycles (nm : names) (mbs : list multibody) (lssol : bool) (kinds : nat -> list ckind) (num : numeric) (c : nat)
    (z : motion_ * qpSolver) : motion_ * qpSolver -> Prop :=
| torqueCycles0 : torqueCycles nm mbs lssol kinds num c z z
| torqueCyclesS z1 z2 dy x : torqueCycles nm mbs lssol kinds num c z z1 -> torqueCycle nm mbs lssol kinds num c dy x z1 z2 ->
    torqueCycles nm mbs lssol kinds num c z z2.
(** Torque stored by the constraint, as torque() gives it. *)
Definition storedTorque (m : motion_) (j : nat) : R := vget (mcCur (moC m)) j.
