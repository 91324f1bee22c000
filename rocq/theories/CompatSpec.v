(** Vocabulary: tasks that can be achieved together, problems that are the same up to the order or the scale of the tasks, and a solver
    called at every instant with a set-point task. *)
From Verif Require Export SolverSpec KinLoop.
From Coq Require Export Permutation.
Open Scope list_scope.
Open Scope R_scope.

(** The point z is 0 on every variable that the code regularises (diagonal entry below 1e-4, GenQPUtils.h:25, 55). *)
Definition quiet (n : nat) (ts : list task) (z : nat -> R) : Prop :=
  forall i, (i < n)%nat -> z i = 0 \/ / 10000 <= Rabs (diagSum ts i).
(** No variable is regularised. *)
Definition unregularised (n : nat) (ts : list task) : Prop := forall i, (i < n)%nat -> / 10000 <= Rabs (diagSum ts i).
(** z minimises the cost of every task by itself. *)
Definition pleasesAll (ts : list task) (z : nat -> R) : Prop := forall t, In t ts -> minimises t z.

(** The same tasks and constraints, in any order. *)
Definition sameRegistered (g g' : registered) : Prop :=
  Permutation (rgTasks g) (rgTasks g') /\ Permutation (rgEq g) (rgEq g') /\ Permutation (rgIneq g) (rgIneq g') /\
  Permutation (rgGen g) (rgGen g') /\ Permutation (rgBound g) (rgBound g').
Definition sameConstraints (g g' : registered) : Prop :=
  Permutation (rgEq g) (rgEq g') /\ Permutation (rgIneq g) (rgIneq g') /\ Permutation (rgGen g) (rgGen g') /\ Permutation (rgBound g) (rgBound g').
(** The task with its weight multiplied by c. *)
Definition rescaled (c : R) (t : task) : task := mkTask (c * tkWeight t) (tkBegin t) (tkQ t) (tkC t).
(** Two points of the set D that differ on one of the n variables have a mean of strictly lower f than their average. *)
Definition strictlyConvex (D : (nat -> R) -> Prop) (n : nat) (f : (nat -> R) -> R) : Prop :=
  forall x y, D x -> D y -> (exists i, (i < n)%nat /\ x i <> y i) -> f (fun i => (x i + y i) / 2) < (f x + f y) / 2.

(** At every instant the solver, in any state reached by adding and removing tasks and constraints since nrVars, holds task number [ct],
    which is the set-point task of state [t] updated with what the kinematic task gives ([U]), on variables of the problem; solve() succeeds and the robots get the
    accelerations it finds; and there is a point that meets all the constraints and mimic relations of the moment, gives the set-point
    task the acceleration it asks for, pleases the other tasks, and is 0 on the regularised variables. *)
Definition tasksLoop (lssol : bool) (kinds : nat -> list ckind) (num : numeric) (ct : nat) (pre : list op) (mbs : list multibody)
    (uni : list unilateral) (bi : list bilateral) (U : R -> res hlOut) (t : setPoint) (k : R) (b : nat) (x : R -> nat -> R) : Prop :=
  forall s, 0 <= s -> exists post q hp h t' (ms ms1 : list (mbconfig unit)) xv z,
    history lssol kinds (pre ++ OpNrVars mbs uni bi :: post) = Ok q /\ Forall (fun o => ~ resizesOrSwitches o) post /\
    In ct (qTasks q) /\ U s = Ok h /\ spUpdate h t = Ok t' /\ hTask hp ct = commonTask (spC t') /\ wfTask (sdNrVars (qData q)) (hTask hp ct) /\
    Forall wfBound (rgBound (collect q hp)) /\ disjointBounds (rgBound (collect q hp)) /\
    solve num q hp ms = Ok (true, xv, ms1) /\ (forall i, (i < sdNrVars (qData q))%nat -> x s i = vget xv i) /\
    feasible (sdNrVars (qData q)) (collect q hp) z /\ mimicked mbs (qData q) z /\
    quiet (sdNrVars (qData q)) (rgTasks (collect q hp)) z /\ pleasesAll (rgTasks (collect q hp)) z /\
    forall i, (i < mrows (hJac h))%nat -> taskAcc h b z i = k * vget (hErr h) i - 2 * sqrt k * vget (hSpeed h) i.

(** x is a result that a successful solve() may leave in the solver state s: any history since nrVars, any numerical solver that meets
    its contract, any values of the registered objects with disjoint bounds. *)
Definition solvedBy (mbs : list multibody) (uni : list unilateral) (bi : list bilateral) (s : qpSolver) (h : heap) (x : vec R) : Prop :=
  exists lssol kinds pre post num (ms ms' : list (mbconfig unit)),
    history lssol kinds (pre ++ OpNrVars mbs uni bi :: post) = Ok s /\ Forall (fun o => ~ resizesOrSwitches o) post /\ contract num /\
    Forall wfBound (rgBound (collect s h)) /\ disjointBounds (rgBound (collect s h)) /\ solve num s h ms = Ok (true, x, ms').
(** What a task asks for: the accelerations a of a kinematic task h on the variables from b. *)
Definition demand : Type := hlOut * nat * (nat -> R).
Definition meets (x : nat -> R) (q : demand) : Prop :=
  let '(h, b, a) := q in forall i, (i < mrows (hJac h))%nat -> taskAcc h b x i = a i.
(** The registered task is a set-point task with positive weights, after any setters, updated with h; it asks for k err - 2 sqrt k speed. *)
Definition setPointOf (tk : task) (q : demand) : Prop :=
  exists mbs r k0 W0 w0 ops t0 t t' h, newSP mbs r k0 W0 w0 = Ok t0 /\ spRun ops t0 = Ok t /\ spUpdate h t = Ok t' /\ tk = commonTask (spC t') /\
    0 < latest spGiveWeight w0 ops /\ (forall j, (j < mrows (hJac h))%nat -> 0 < vget (latest spGiveW W0 ops) j) /\
    q = (h, latest (spGiveBegin r) 0%nat ops,
         fun i => latest spGiveK k0 ops * vget (hErr h) i - 2 * sqrt (latest spGiveK k0 ops) * vget (hSpeed h) i).
