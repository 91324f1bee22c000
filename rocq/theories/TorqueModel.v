(** Model of tasks::qp::TorqueTask (/repo/src/QPTasks.cpp:566-650, /repo/src/Tasks/QPTasks.h:348-408). Lines without a file are lines of QPTasks.cpp.
    Simplifications: of its member motionConstr the task reads matrix() and fd().C() only, so that the member is modelled by its base
    [mconstr]; the torque bounds that MotionConstr::update computes besides (not a number when dt is 0, as in the first three constructors)
    are not read by anything. alphaDBegin_ and lambdaBegin_ are written but never read. *)
From Verif Require Export MotionModel SetPointModel.
Open Scope list_scope.
Open Scope R_scope.

Record torqueTask := mkTT { ttWeight : R; ttMC : mconstr; ttSel : vec R; ttQ : mat; ttC : vec R }.
(** Constructor with jointSelect, lines 601-611. Q_ and C_ are not initialised by the code; here zero. *)
Definition newTTsel (mbs : list multibody) (r : nat) (sel : vec R) (w : R) : res torqueTask :=
  do mb <- vec_at mbs r; do m <- newMC mbs r; Ok (mkTT w m sel (mzero (nrDof mb) (nrDof mb)) (vfill (nrDof mb) 0)).
(** Constructor without selection, lines 590-599. *)
Definition newTT (mbs : list multibody) (r : nat) (w : R) : res torqueTask :=
  do mb <- vec_at mbs r; newTTsel mbs r (ones (nrDof mb)) w.
(** The loop over jac.jointsPath(), lines 625-629. *)
Fixpoint pathSel (mb : multibody) (path : list nat) (sel : vec R) : res (vec R) :=
  match path with
  | [] => Ok sel
  | i :: path' =>
    do sel' <- (if Nat.eqb i 0 then Ok sel else do j <- vec_at (joints mb) i; vset_seg sel (jointPosInDof mb i) (ones (jdof j)));
    pathSel mb path' sel'
  end.
(** Constructor with an end effector, lines 613-631. *)
Definition newTTef (nm : names) (mbs : list multibody) (r : nat) (ef : string) (w : R) : res torqueTask :=
  do mb <- vec_at mbs r; do p <- nPath nm r ef; do sel <- pathSel mb p (vfill (nrDof mb) 0); newTTsel mbs r sel w.
(** updateNrVars, lines 633-640; resize leaves the entries undefined, here zero. *)
Definition ttNrVars (nm : names) (mbs : list multibody) (d : solverData) (t : torqueTask) : res torqueTask :=
  do m <- mcNrVars nm mbs d (ttMC t); Ok (mkTT (ttWeight t) m (ttSel t) (mzero (sdNrVars d) (sdNrVars d)) (vfill (sdNrVars d) 0)).
(** update, lines 642-650: Q = M^T S M, C = c^T S M. *)
Definition ttUpdate (mbs : list multibody) (dy : dyn) (t : torqueTask) : res torqueTask :=
  do m <- computeMatrix mbs dy (ttMC t);
  do SM <- diagm (ttSel t) (mcA m);
  do Q <- mmul (mtrans (mcA m)) SM;
  do C <- mvec (mtrans SM) (mcC m);
  Ok (mkTT (ttWeight t) m (ttSel t) Q C).
(** What the solver reads; begin() is (0, 0), QPTasks.h:393. *)
Definition ttTask (t : torqueTask) : task := mkTask (ttWeight t) (0%nat, 0%nat) (ttQ t) (ttC t).

Inductive ttOp := TtNrVars (d : solverData) | TtUpdate (dy : dyn) | TtWeight (w : R).
Definition ttStep (nm : names) (mbs : list multibody) (t : torqueTask) (o : ttOp) : res torqueTask :=
  match o with
  | TtNrVars d => ttNrVars nm mbs d t
  | TtUpdate dy => ttUpdate mbs dy t
  | TtWeight w => Ok (mkTT w (ttMC t) (ttSel t) (ttQ t) (ttC t))
  end.
Fixpoint ttRun (nm : names) (mbs : list multibody) (ops : list ttOp) (t : torqueTask) : res torqueTask :=
  match ops with [] => Ok t | o :: ops' => do t' <- ttStep nm mbs t o; ttRun nm mbs ops' t' end.
