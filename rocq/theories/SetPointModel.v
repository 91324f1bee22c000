(** Model of the set-point family: SetPointTaskCommon, SetPointTask, TrackingTask, TrajectoryTask, PIDTask and
    TargetObjectiveTask (/repo/src/QPTasks.cpp:30-450, /repo/src/Tasks/QPTasks.h:34-280). Lines without a file are
    lines of QPTasks.cpp.
    Simplifications: every update begins with hlTask_->update(...), a virtual call: what it leaves in jac(), eval(),
    speed() and normalAcc() is an arbitrary argument ([hlOut]) of the model's update functions. preQ_, preC_, CVecSum_ are
    written before they are read in each update: local values. Getters are the projections of the records. *)
From Verif Require Export FillModel LayoutModel.
Open Scope list_scope.
Open Scope R_scope.

(** The results of HighLevelTask::update read by the tasks: jac, eval, speed, normalAcc (QPSolver.h:302-318). *)
Record hlOut := mkHL { hJac : mat; hErr : vec R; hSpeed : vec R; hNAcc : vec R }.

(** Coefficient-wise Eigen operations: different sizes are a violated Eigen precondition. *)
Definition vsame (a b : vec R) : res unit := guard (Nat.eqb (vlen a) (vlen b)).
Definition vplus (a b : vec R) : res (vec R) := do _ <- vsame a b; Ok (mkVec (vlen a) (fun i => vget a i + vget b i)).
Definition vminus (a b : vec R) : res (vec R) := do _ <- vsame a b; Ok (mkVec (vlen a) (fun i => vget a i - vget b i)).
(** W.asDiagonal() * v and W.asDiagonal() * M. *)
Definition diagv (W v : vec R) : res (vec R) := do _ <- vsame W v; Ok (mkVec (vlen v) (fun i => vget W i * vget v i)).
Definition diagm (W : vec R) (M : mat) : res mat :=
  do _ <- guard (Nat.eqb (vlen W) (mrows M)); Ok (mkMat (mrows M) (mcols M) (fun i j => vget W i * mget M i j)).

(** preC_ = W e, C_ = -J^T preC_, preQ_ = W J, Q_ = J^T preQ_: lines 67-71, and 434-439 in the other order. *)
Definition lsQC (W : vec R) (J : mat) (e : vec R) : res (mat * vec R) :=
  do preC <- diagv W e;
  do C <- mvec (mopp (mtrans J)) preC;
  do preQ <- diagm W J;
  do Q <- mmul (mtrans J) preQ;
  Ok (Q, C).
(** SetPointTaskCommon::computeQC, lines 61-72: what it leaves in its argument [error], Q_ and C_. *)
Definition computeQC (W : vec R) (h : hlOut) (error : vec R) : res (vec R * mat * vec R) :=
  do e <- vminus error (hNAcc h);
  do (Q, C) <- lsQC W (hJac h) e;
  Ok (e, Q, C).

(** SetPointTaskCommon, QPTasks.h:34-70. error_ is overwritten before it is read by SetPointTask, TrackingTask and
    TrajectoryTask: a local value of their updates (PIDTask hides it by a member of its own). *)
Record common := mkCommon { cmWeight : R; cmDim : vec R; cmRobot : nat; cmBegin : nat; cmQ : mat; cmC : vec R }.
(** Constructors, lines 35-53: the one without dimWeight uses VectorXd::Ones(dim). Q_ and C_ are not initialised by the
    code; here zero. *)
Definition newCommon (mbs : list multibody) (r : nat) (W : vec R) (weight : R) : res common :=
  do mb <- vec_at mbs r; Ok (mkCommon weight W r 0 (mzero (nrDof mb) (nrDof mb)) (vfill (nrDof mb) 0)).
Definition ones (dim : nat) : vec R := vfill dim 1.
(** dimWeight, lines 55-56. *)
Definition setDim (W : vec R) (c : common) : common := mkCommon (cmWeight c) W (cmRobot c) (cmBegin c) (cmQ c) (cmC c).
(** Task::weight, QPSolver.h:286. *)
Definition setWeight (w : R) (c : common) : common := mkCommon w (cmDim c) (cmRobot c) (cmBegin c) (cmQ c) (cmC c).
(** updateNrVars, lines 58-59 (TargetObjectiveTask: 381-382). *)
Definition commonNrVars (d : solverData) (c : common) : res common :=
  do b <- alphaDBegin d (cmRobot c); Ok (mkCommon (cmWeight c) (cmDim c) (cmRobot c) b (cmQ c) (cmC c)).
Definition setQC (Q : mat) (C : vec R) (c : common) : common := mkCommon (cmWeight c) (cmDim c) (cmRobot c) (cmBegin c) Q C.
(** computeQC on the members: the error left behind and the new members. *)
Definition commonQC (h : hlOut) (error : vec R) (c : common) : res (vec R * common) :=
  do (e, Q, C) <- computeQC (cmDim c) h error; Ok (e, setQC Q C c).
(** What the solver reads from the task: weight(), begin() (QPTasks.h:44 and 254), Q(), C(). *)
Definition commonTask (c : common) : task := mkTask (cmWeight c) (cmBegin c, cmBegin c) (cmQ c) (cmC c).

(** ** SetPointTask, lines 80-122, QPTasks.h:73-98 *)
Record setPoint := mkSP { spC : common; spK : R; spKs : R }.
(** 2. * std::sqrt(stiffness); the square root of a negative number is NaN, rendered as [UB]. *)
Definition twoSqrt (k : R) : res R := do _ <- guard (Rleb 0 k); Ok (2 * sqrt k).
(** Constructors, lines 84-102. *)
Definition newSP (mbs : list multibody) (r : nat) (k : R) (W : vec R) (weight : R) : res setPoint :=
  do c <- newCommon mbs r W weight; do s <- twoSqrt k; Ok (mkSP c k s).
(** stiffness, lines 104-108. *)
Definition spStiffness (k : R) (t : setPoint) : res setPoint := do s <- twoSqrt k; Ok (mkSP (spC t) k s).
(** update, lines 110-122. *)
Definition spUpdate (h : hlOut) (t : setPoint) : res setPoint :=
  do e <- vminus (vscal (spK t) (hErr h)) (vscal (spKs t) (hSpeed h));
  do (_, c) <- commonQC h e (spC t);
  Ok (mkSP c (spK t) (spKs t)).
(** The public operations of a SetPointTask, in any order. *)
Inductive spOp := SpStiffness (k : R) | SpDim (W : vec R) | SpWeight (w : R) | SpNrVars (d : solverData) | SpUpdate (h : hlOut).
Definition spStep (t : setPoint) (o : spOp) : res setPoint :=
  match o with
  | SpStiffness k => spStiffness k t
  | SpDim W => Ok (mkSP (setDim W (spC t)) (spK t) (spKs t))
  | SpWeight w => Ok (mkSP (setWeight w (spC t)) (spK t) (spKs t))
  | SpNrVars d => do c <- commonNrVars d (spC t); Ok (mkSP c (spK t) (spKs t))
  | SpUpdate h => spUpdate h t
  end.
Fixpoint spRun (ops : list spOp) (t : setPoint) : res setPoint :=
  match ops with [] => Ok t | o :: ops' => do t' <- spStep t o; spRun ops' t' end.

(** ** TrackingTask, lines 124-179, QPTasks.h:101-131 *)
Record tracking := mkTrk { trC : common; trGP : R; trGV : R; trEP : vec R; trEV : vec R; trRA : vec R }.
(** Constructors, lines 128-151. *)
Definition newTrk (mbs : list multibody) (r dim : nat) (gp gv : R) (W : vec R) (weight : R) : res tracking :=
  do c <- newCommon mbs r W weight; Ok (mkTrk c gp gv (vfill dim 0) (vfill dim 0) (vfill dim 0)).
(** setGains, errorPos, errorVel, refAccel, lines 153-166, and the operations of the base class. *)
Inductive trkOp := TrkGains (gp gv : R) | TrkErrorPos (e : vec R) | TrkErrorVel (e : vec R) | TrkRefAccel (a : vec R)
  | TrkDim (W : vec R) | TrkWeight (w : R) | TrkNrVars (d : solverData) | TrkUpdate (h : hlOut).
(** update, lines 168-179: the error and the speed of the wrapped task are not read. *)
Definition trkUpdate (h : hlOut) (t : tracking) : res tracking :=
  do e1 <- vplus (vscal (trGP t) (trEP t)) (vscal (trGV t) (trEV t));
  do e <- vplus e1 (trRA t);
  do (_, c) <- commonQC h e (trC t);
  Ok (mkTrk c (trGP t) (trGV t) (trEP t) (trEV t) (trRA t)).
Definition trkStep (t : tracking) (o : trkOp) : res tracking :=
  match o with
  | TrkGains gp gv => Ok (mkTrk (trC t) gp gv (trEP t) (trEV t) (trRA t))
  | TrkErrorPos e => Ok (mkTrk (trC t) (trGP t) (trGV t) e (trEV t) (trRA t))
  | TrkErrorVel e => Ok (mkTrk (trC t) (trGP t) (trGV t) (trEP t) e (trRA t))
  | TrkRefAccel a => Ok (mkTrk (trC t) (trGP t) (trGV t) (trEP t) (trEV t) a)
  | TrkDim W => Ok (mkTrk (setDim W (trC t)) (trGP t) (trGV t) (trEP t) (trEV t) (trRA t))
  | TrkWeight w => Ok (mkTrk (setWeight w (trC t)) (trGP t) (trGV t) (trEP t) (trEV t) (trRA t))
  | TrkNrVars d => do c <- commonNrVars d (trC t); Ok (mkTrk c (trGP t) (trGV t) (trEP t) (trEV t) (trRA t))
  | TrkUpdate h => trkUpdate h t
  end.
Fixpoint trkRun (ops : list trkOp) (t : tracking) : res tracking :=
  match ops with [] => Ok t | o :: ops' => do t' <- trkStep t o; trkRun ops' t' end.

(** ** TrajectoryTask, lines 180-273, QPTasks.h:134-173 *)
Record trajectory := mkTrj { tjC : common; tjDim : nat; tjK : vec R; tjD : vec R; tjRV : vec R; tjRA : vec R }.
(** Constructors, lines 184-207. [tjDim] is hlTask_->dim(). *)
Definition newTrj (mbs : list multibody) (r dim : nat) (gp gv : R) (W : vec R) (weight : R) : res trajectory :=
  do c <- newCommon mbs r W weight; Ok (mkTrj c dim (vscal gp (ones dim)) (vscal gv (ones dim)) (vfill dim 0) (vfill dim 0)).
(** update, lines 259-273. *)
Definition trjUpdate (h : hlOut) (t : trajectory) : res trajectory :=
  do e0 <- diagv (tjK t) (hErr h);
  do v <- vminus (tjRV t) (hSpeed h);
  do dv <- diagv (tjD t) v;
  do e1 <- vplus e0 dv;
  do e <- vplus e1 (tjRA t);
  do (_, c) <- commonQC h e (tjC t);
  Ok (mkTrj c (tjDim t) (tjK t) (tjD t) (tjRV t) (tjRA t)).
(** setGains with scalars or vectors, stiffness, damping with a scalar or a vector, refVel, refAccel, lines 209-257, and the
    operations of the base class. The vector versions assert the sizes. *)
Inductive trjOp := TrjGains (gp gv : R) | TrjGainsV (k d : vec R) | TrjStiffness (k : R) | TrjStiffnessV (k : vec R)
  | TrjDamping (d : R) | TrjDampingV (d : vec R) | TrjRefVel (v : vec R) | TrjRefAccel (a : vec R)
  | TrjDim (W : vec R) | TrjWeight (w : R) | TrjNrVars (d : solverData) | TrjUpdate (h : hlOut).
Definition trjStep (t : trajectory) (o : trjOp) : res trajectory :=
  match o with
  | TrjGains gp gv => Ok (mkTrj (tjC t) (tjDim t) (vscal gp (ones (tjDim t))) (vscal gv (ones (tjDim t))) (tjRV t) (tjRA t))
  | TrjGainsV k d => do _ <- vsame k (tjK t); do _ <- vsame d (tjD t); Ok (mkTrj (tjC t) (tjDim t) k d (tjRV t) (tjRA t))
  | TrjStiffness k => Ok (mkTrj (tjC t) (tjDim t) (vscal k (ones (tjDim t))) (tjD t) (tjRV t) (tjRA t))
  | TrjStiffnessV k => do _ <- vsame k (tjK t); Ok (mkTrj (tjC t) (tjDim t) k (tjD t) (tjRV t) (tjRA t))
  | TrjDamping d => Ok (mkTrj (tjC t) (tjDim t) (tjK t) (vscal d (ones (tjDim t))) (tjRV t) (tjRA t))
  | TrjDampingV d => do _ <- vsame d (tjD t); Ok (mkTrj (tjC t) (tjDim t) (tjK t) d (tjRV t) (tjRA t))
  | TrjRefVel v => Ok (mkTrj (tjC t) (tjDim t) (tjK t) (tjD t) v (tjRA t))
  | TrjRefAccel a => Ok (mkTrj (tjC t) (tjDim t) (tjK t) (tjD t) (tjRV t) a)
  | TrjDim W => Ok (mkTrj (setDim W (tjC t)) (tjDim t) (tjK t) (tjD t) (tjRV t) (tjRA t))
  | TrjWeight w => Ok (mkTrj (setWeight w (tjC t)) (tjDim t) (tjK t) (tjD t) (tjRV t) (tjRA t))
  | TrjNrVars d => do c <- commonNrVars d (tjC t); Ok (mkTrj c (tjDim t) (tjK t) (tjD t) (tjRV t) (tjRA t))
  | TrjUpdate h => trjUpdate h t
  end.
Fixpoint trjRun (ops : list trjOp) (t : trajectory) : res trajectory :=
  match ops with [] => Ok t | o :: ops' => do t' <- trjStep t o; trjRun ops' t' end.

(** ** PIDTask, lines 274-341, QPTasks.h:176-214: error_ is read and written by update *)
Record pid := mkPid { pdC : common; pdP : R; pdI : R; pdD : R; pdE : vec R; pdED : vec R; pdEI : vec R }.
(** Constructors, lines 278-302. *)
Definition newPid (mbs : list multibody) (r dim : nat) (P I D : R) (W : vec R) (weight : R) : res pid :=
  do c <- newCommon mbs r W weight; Ok (mkPid c P I D (vfill dim 0) (vfill dim 0) (vfill dim 0)).
(** error, errorD, errorI, lines 322-329. *)
Definition pidError (e : vec R) (t : pid) : pid := mkPid (pdC t) (pdP t) (pdI t) (pdD t) e (pdED t) (pdEI t).
Definition pidErrorD (e : vec R) (t : pid) : pid := mkPid (pdC t) (pdP t) (pdI t) (pdD t) (pdE t) e (pdEI t).
Definition pidErrorI (e : vec R) (t : pid) : pid := mkPid (pdC t) (pdP t) (pdI t) (pdD t) (pdE t) (pdED t) e.
(** update, lines 331-341. *)
Definition pidUpdate (h : hlOut) (t : pid) : res pid :=
  do e1 <- vminus (vscal (pdP t) (pdE t)) (vscal (pdD t) (pdED t));
  do e2 <- vminus e1 (vscal (pdI t) (pdEI t));
  do (e, c) <- commonQC h e2 (pdC t);
  Ok (mkPid c (pdP t) (pdI t) (pdD t) e (pdED t) (pdEI t)).

(** ** TargetObjectiveTask, lines 343-450, QPTasks.h:216-280. It derives from Task directly but has the members of [common]. *)
Record target := mkTgt { tgC : common; tgDt : R; tgN : Z; tgIter : Z; tgObj : vec R; tgPhi : vec R; tgPsi : vec R }.
(** std::round: to the nearest integer, halves away from zero. The conversion to int is taken without overflow. *)
Definition round (x : R) : Z := if Rle_dec 0 x then Int_part (x + / 2) else (- Int_part (- x + / 2))%Z.
(** duration(), lines 372-373. *)
Definition tgDuration (t : target) : R := IZR (tgN t - tgIter t) * tgDt t.
(** duration(double), lines 375-379: d / dt_ with dt_ = 0 is rendered as [UB]. *)
Definition tgSetDuration (d : R) (t : target) : res target :=
  do _ <- guard (negb (Reqb (tgDt t) 0));
  Ok (mkTgt (tgC t) (tgDt t) (round (d / tgDt t)) 0 (tgObj t) (tgPhi t) (tgPsi t)).
(** Constructors, lines 347-370: phi_ and psi_ are not initialised by the code; here zero. *)
Definition newTgt (mbs : list multibody) (r dim : nat) (dt dur : R) (obj W : vec R) (weight : R) : res target :=
  do c <- newCommon mbs r W weight; tgSetDuration dur (mkTgt c dt 0 0 obj (vfill dim 0) (vfill dim 0)).
(** update, lines 384-444; 6. / ds, 2. / (-d), 4. / d with d = 0 are rendered as [UB]. The loop runs over hlTask_->dim(), taken to
    be the size of eval(). *)
Definition tgUpdate (h : hlOut) (t : target) : res target :=
  let d := IZR (tgN t - tgIter t) * tgDt t in
  let ds := d * d in
  let n := vlen (hErr h) in
  do _ <- guard (negb (Reqb d 0));
  do _ <- guard (Nat.leb n (vlen (hSpeed h)) && Nat.leb n (vlen (tgObj t)) && Nat.eqb n (vlen (tgPhi t)) && Nat.eqb n (vlen (tgPsi t)));
  let o1 i := vget (hErr h) i - d * vget (hSpeed h) i in
  let o2 i := vget (tgObj t) i - vget (hSpeed h) i in
  let phi := mkVec n (fun i => 6 / ds * o1 i + 2 / (- d) * o2 i) in
  let psi := mkVec n (fun i => 6 / (- ds) * o1 i + 4 / d * o2 i) in
  do e <- vminus phi (hNAcc h);
  do (Q, C) <- lsQC (cmDim (tgC t)) (hJac h) e;
  Ok (mkTgt (setQC Q C (tgC t)) (tgDt t) (tgN t) (tgIter t + 1) (tgObj t) phi psi).
