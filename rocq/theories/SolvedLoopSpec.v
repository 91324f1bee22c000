(** Vocabulary: a solver called at every instant with a contact constraint. *)
From Verif Require Export SolverSpec ContactLoopSpec.
Open Scope list_scope.
Open Scope R_scope.

(** At every instant the solver, in any state reached by adding and removing tasks and constraints since nrVars, holds the contact
    constraint (number [ce]), which has been updated after any calls that keep the selection matrices in use; solve() succeeds, and
    the robots get the accelerations it finds. The other objects of the heap [h] are arbitrary. *)
Definition solvedLoop (lssol : bool) (kinds : nat -> list ckind) (num : numeric) (ce : nat) (pre : list op) (mbs : list multibody)
    (uni : list unilateral) (bi : list bilateral) (m : cmode) (sv : sva) (c1 : contactConstr)
    (K : R -> nat -> nat -> bodyKin) (x : R -> nat -> R) : Prop :=
  forall s, 0 <= s -> exists post q h ops c2 o c3 (ms ms1 : list (mbconfig unit)) xv,
    history lssol kinds (pre ++ OpNrVars mbs uni bi :: post) = Ok q /\ Forall (fun o => ~ resizesOrSwitches o) post /\
    In ce (qConstr q) /\ In ce (qEq q) /\
    Forall (keepsDof mbs) ops /\ ccRun c1 ops = Ok (c2, o) /\ ccUpdate m mbs sv (kinOf (K s)) c2 = Ok c3 /\ hEq h ce = ccEquality c3 /\
    Forall wfBound (rgBound (collect q h)) /\ disjointBounds (rgBound (collect q h)) /\
    solve num q h ms = Ok (true, xv, ms1) /\ forall i, (i < sdNrVars (qData q))%nat -> x s i = vget xv i.
