(** Vocabulary: a posture task in control cycles. The task is updated with the configuration of its robot, the solver solves and writes the
    accelerations back, and the caller integrates them during the control period. *)
From Verif Require Export CycleSpec PostureSpec CompatSpec.
Open Scope list_scope.
Open Scope R_scope.

(** One cycle. Between two cycles any tasks and constraints may be added and removed ([ops]); solve() (QPSolver.cpp:326-345) updates task
    number [ct], the posture task of robot [r], with the configuration of the robot (the rotation errors of its spherical joints are
    arbitrary), succeeds and writes the accelerations (QPSolver.cpp:42-49); there is a point [y] that meets all the constraints and mimic
    relations of the moment, pleases all the tasks, and is 0 on the regularised variables. *)
Definition postCycle (lssol : bool) (kinds : nat -> list ckind) (num : numeric) (ct : nat) (mbs : list multibody) (r : nat) (dt th : R)
    (z z' : posture * list robotConf * qpSolver) : Prop :=
  let '(t, ms, s) := z in let '(t', ms', s') := z' in
  exists ops rot h x ms1 m y,
    run lssol kinds s ops = Ok s' /\ Forall (fun o => ~ resizesOrSwitches o) ops /\ In ct (qTasks s') /\
    nth_error ms r = Some m /\ poUpdate mbs (mkPCfg (confQ m) (confV m) rot) t = Ok t' /\ hTask h ct = postTask t' /\
    Forall wfBound (rgBound (collect s' h)) /\ disjointBounds (rgBound (collect s' h)) /\
    solve num s' h ms = Ok (true, x, ms1) /\
    feasible (sdNrVars (qData s')) (collect s' h) y /\ mimicked mbs (qData s') y /\
    quiet (sdNrVars (qData s')) (rgTasks (collect s' h)) y /\ pleasesAll (rgTasks (collect s' h)) y /\
    moves mbs dt th ms1 ms'.
(** The configurations of cycle n. *)
Definition confsAt (z : nat -> posture * list robotConf * qpSolver) (n : nat) : list robotConf := snd (fst (z n)).
