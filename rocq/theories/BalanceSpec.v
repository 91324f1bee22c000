(** Vocabulary of whole-body control cycles: contacts, contact forces, torques and equation of motion at once. *)
From Verif Require Export TorqueCycleSpec ContactConstrSpec.
Open Scope list_scope.
Open Scope R_scope.

(** One cycle with a contact constraint (number [ce]), a PositiveLambda constraint (number [cb]) and a motion constraint
    (number [cg]). Between two cycles any tasks and constraints may be added and removed ([ops]) and virtual contacts and
    selection matrices changed ([cops]); then solve() updates the constraint objects (QPSolver.cpp:326-333; the objects of
    the heap [h] other than these three are arbitrary) and succeeds; then the caller calls computeTorque(solver.alphaDVec(),
    solver.lambdaVec()) (QPMotionConstr.cpp:113-118, QPSolver.cpp:294-301). *)
Definition bodyCycle (mbs : list multibody) (lssol : bool) (kinds : nat -> list ckind) (num : numeric) (ce cb cg : nat)
    (mode : cmode) (sv : sva) (k : kin) (dy : dyn) (x : vec R) (z z' : contactConstr * motion_ * qpSolver) : Prop :=
  let '(cc, m, s) := z in let '(cc', m', s') := z' in
  exists ops cops o cc1 h p m1 (ms ms1 : list (mbconfig unit)) a l,
    run lssol kinds s ops = Ok s' /\ Forall (fun o => ~ resizesOrSwitches o) ops /\
    In ce (qConstr s') /\ In ce (qEq s') /\ In cb (qConstr s') /\ In cb (qBound s') /\ In cg (qConstr s') /\ In cg (qGen s') /\
    Forall (sameProblem mbs) cops /\ ccRun cc cops = Ok (cc1, o) /\ ccUpdate mode mbs sv k cc1 = Ok cc' /\ hEq h ce = ccEquality cc' /\
    plNrVars (qData s') = Ok p /\ plBound p = Ok (hBound h cb) /\
    moUpdate mbs dy m = Ok m1 /\ hGen h cg = mcGen (moC m1) /\
    Forall wfBound (rgBound (collect s' h)) /\ disjointBounds (rgBound (collect s' h)) /\
    solve num s' h ms = Ok (true, x, ms1) /\
    alphaDVec (qData s') x = Ok a /\ lambdaVec (qData s') x = Ok l /\ moTorque a l m1 = Ok m'.
(** Any number of them. *)
Inductive bodyCycles (mbs : list multibody) (lssol : bool) (kinds : nat -> list ckind) (num : numeric) (ce cb cg : nat) (mode : cmode) (sv : sva)
    (z : contactConstr * motion_ * qpSolver) : contactConstr * motion_ * qpSolver -> Prop :=
| bodyCycles0 : bodyCycles mbs lssol kinds num ce cb cg mode sv z z
| bodyCyclesS z1 z2 k dy x : bodyCycles mbs lssol kinds num ce cb cg mode sv z z1 -> bodyCycle mbs lssol kinds num ce cb cg mode sv k dy x z1 z2 ->
    bodyCycles mbs lssol kinds num ce cb cg mode sv z z2.
