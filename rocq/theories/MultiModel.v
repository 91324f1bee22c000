(** Model of tasks::qp::MultiCoMTask and tasks::qp::MultiRobotTransformTask (/repo/src/QPTasks.cpp:1035-1228, /repo/src/Tasks/QPTasks.h), and of
    the weights and the error of tasks::MultiCoMTask (/repo/src/Tasks.cpp:816-936). Lines without a file are lines of QPTasks.cpp.
    Simplifications: the results of mct_.update and mrtt_.update are an argument of the update functions ([mrOut]). CSum_ and preQ_ are
    written before they are read: local values, of preQ_ the number of columns is kept. alphaDBegin_ is -1 until the first updateNrVars, here 0:
    Q_ and C_ are empty then. Robot indexes are not negative. *)
From Verif Require Export SetPointModel Vec3.
Open Scope list_scope.
Open Scope R_scope.

(** eval, speed, normalAcc, and jac(0), jac(1), ... *)
Record mrOut := mkMR { mrEval : vec R; mrSpeed : vec R; mrNAcc : vec R; mrJacs : list mat }.
(** Members of the two tasks: weight, stiffness_, stiffnessSqrt_, dimWeight_, the robot indexes, posInQ_, alphaDBegin_, Q_, C_, columns of preQ_. *)
Record multiTask := mkMT { mtWeight : R; mtK : R; mtKs : R; mtDim : vec R; mtRobots : list nat; mtPos : list nat; mtBegin : nat; mtQ : mat; mtC : vec R; mtMax : nat }.
(** init, lines 1120-1125, and 1143-1147. *)
Fixpoint robotsMaxDof (mbs : list multibody) (rs : list nat) : res nat :=
  match rs with [] => Ok 0%nat | r :: rs' => do mb <- vec_at mbs r; do m <- robotsMaxDof mbs rs'; Ok (Nat.max (nrDof mb) m) end.
(** Constructors of MultiCoMTask, lines 1039-1057, and of MultiRobotTransformTask, lines 1131-1148, with [rs] = [r1; r2]. The former has
    posInQ_ of rI.size() zeros, the latter twice -1, here also 0: an update before updateNrVars runs out of the empty Q_ unless the robots have no
    degree of freedom. *)
Definition newMT (mbs : list multibody) (rs : list nat) (k : R) (W : vec R) (w : R) : res multiTask :=
  do s <- twoSqrt k; do m <- robotsMaxDof mbs rs; Ok (mkMT w k s W rs (repeat 0%nat (length rs)) 0 (mzero 0 0) (vfill 0 0) m).
Definition mtStiffness (k : R) (t : multiTask) : res multiTask :=
  do s <- twoSqrt k; Ok (mkMT (mtWeight t) k s (mtDim t) (mtRobots t) (mtPos t) (mtBegin t) (mtQ t) (mtC t) (mtMax t)).
Definition mtDimWeight (W : vec R) (t : multiTask) : multiTask := mkMT (mtWeight t) (mtK t) (mtKs t) W (mtRobots t) (mtPos t) (mtBegin t) (mtQ t) (mtC t) (mtMax t).
Definition mtSetWeight (w : R) (t : multiTask) : multiTask := mkMT w (mtK t) (mtKs t) (mtDim t) (mtRobots t) (mtPos t) (mtBegin t) (mtQ t) (mtC t) (mtMax t).
(** std::minmax_element: first minimum, last maximum; the end iterator of an empty vector is dereferenced. *)
Fixpoint minmax (rs : list nat) : res (nat * nat) :=
  match rs with
  | [] => UB
  | [r] => Ok (r, r)
  | r :: rs' => do (a, b) <- minmax rs'; Ok (Nat.min r a, Nat.max r b)
  end.
(** int difference used as an index: negative is out of range. *)
Definition natSub (a b : nat) : res nat := do _ <- guard (Nat.leb b a); Ok (a - b)%nat.
(** The loop of lines 1084 and 1181. *)
Fixpoint posLoop (d : solverData) (begin : nat) (rs : list nat) : res (list nat) :=
  match rs with [] => Ok [] | r :: rs' => do b <- alphaDBegin d r; do p <- natSub b begin; do l <- posLoop d begin rs'; Ok (p :: l) end.
(** updateNrVars, lines 1071-1085 and 1168-1182. *)
Definition mtNrVars (d : solverData) (t : multiTask) : res multiTask :=
  do (lo, hi) <- minmax (mtRobots t);
  do begin <- alphaDBegin d lo; do last <- alphaDBegin d hi; do n <- alphaD d hi;
  do size <- natSub (last + n) begin;
  do pos <- posLoop d begin (mtRobots t);
  Ok (mkMT (mtWeight t) (mtK t) (mtKs t) (mtDim t) (mtRobots t) pos begin (mzero size size) (vfill size 0) (mtMax t)).
(** CSum_, lines 1092-1094 and 1189-1191. *)
Definition csum (k s : R) (o : mrOut) : res (vec R) := do e <- vminus (vscal k (mrEval o)) (vscal s (mrSpeed o)); vminus e (mrNAcc o).
(** J^T W J and -J^T W CSum_ of robot number i; preQ_.block(0, 0, ., dof) and the blocks of Q_ and C_ have [dof] columns. *)
Definition mtBlock (d : solverData) (t : multiTask) (cs : vec R) (o : mrOut) (i : nat) : res (nat * mat * vec R) :=
  do r <- vec_at (mtRobots t) i; do p <- vec_at (mtPos t) i; do dof <- alphaD d r;
  do J <- vec_at (mrJacs o) i;
  do _ <- guard (Nat.eqb (mcols J) dof && Nat.leb dof (mtMax t));
  do (Q, C) <- lsQC (mtDim t) J cs;
  Ok (p, Q, C).
(** Loop of MultiCoMTask::update, lines 1095-1106: the blocks are assigned. *)
Fixpoint comLoop (d : solverData) (t : multiTask) (cs : vec R) (o : mrOut) (cnt i : nat) (Q : mat) (C : vec R) : res (mat * vec R) :=
  match cnt with
  | O => Ok (Q, C)
  | S cnt' => do (p, Qi, Ci) <- mtBlock d t cs o i; do Q' <- mset_block Q p p Qi; do C' <- vset_seg C p Ci; comLoop d t cs o cnt' (S i) Q' C'
  end.
Definition mcUpdate (d : solverData) (o : mrOut) (t : multiTask) : res multiTask :=
  do cs <- csum (mtK t) (mtKs t) o;
  do (Q, C) <- comLoop d t cs o (length (mtPos t)) 0 (mtQ t) (mtC t);
  Ok (mkMT (mtWeight t) (mtK t) (mtKs t) (mtDim t) (mtRobots t) (mtPos t) (mtBegin t) Q C (mtMax t)).
(** First loop of MultiRobotTransformTask::update, lines 1194-1201: the blocks are zeroed. *)
Fixpoint zeroLoop (d : solverData) (t : multiTask) (cnt i : nat) (Q : mat) (C : vec R) : res (mat * vec R) :=
  match cnt with
  | O => Ok (Q, C)
  | S cnt' =>
    do r <- vec_at (mtRobots t) i; do p <- vec_at (mtPos t) i; do dof <- alphaD d r;
    do Q' <- mset_block Q p p (mzero dof dof); do C' <- vset_seg C p (vfill dof 0); zeroLoop d t cnt' (S i) Q' C'
  end.
(** Second loop, lines 1203-1216: the blocks are incremented. *)
Fixpoint addLoop (d : solverData) (t : multiTask) (cs : vec R) (o : mrOut) (cnt i : nat) (Q : mat) (C : vec R) : res (mat * vec R) :=
  match cnt with
  | O => Ok (Q, C)
  | S cnt' => do (p, Qi, Ci) <- mtBlock d t cs o i; do Q' <- madd_block Q p p Qi; do C' <- vadd_seg C p Ci; addLoop d t cs o cnt' (S i) Q' C'
  end.
Definition mrUpdate (d : solverData) (o : mrOut) (t : multiTask) : res multiTask :=
  do cs <- csum (mtK t) (mtKs t) o;
  do (Q0, C0) <- zeroLoop d t (length (mtPos t)) 0 (mtQ t) (mtC t);
  do (Q, C) <- addLoop d t cs o (length (mtPos t)) 0 Q0 C0;
  Ok (mkMT (mtWeight t) (mtK t) (mtKs t) (mtDim t) (mtRobots t) (mtPos t) (mtBegin t) Q C (mtMax t)).
(** What the solver reads. *)
Definition mtTask (t : multiTask) : task := mkTask (mtWeight t) (mtBegin t, mtBegin t) (mtQ t) (mtC t).

(** Calls; the flag tells the two classes apart. The data of an update are those of the last updateNrVars. *)
Inductive mtOp := MtNrVars (d : solverData) | MtUpdate (d : solverData) (o : mrOut) | MtStiffness (k : R) | MtDim (W : vec R) | MtWeight (w : R).
Definition mtUpdate (com : bool) (d : solverData) (o : mrOut) (t : multiTask) : res multiTask := if com then mcUpdate d o t else mrUpdate d o t.
Definition mtStep (com : bool) (t : multiTask) (op : mtOp) : res multiTask :=
  match op with
  | MtNrVars d => mtNrVars d t
  | MtUpdate d o => mtUpdate com d o t
  | MtStiffness k => mtStiffness k t
  | MtDim W => Ok (mtDimWeight W t)
  | MtWeight w => Ok (mtSetWeight w t)
  end.
Fixpoint mtRun (com : bool) (ops : list mtOp) (t : multiTask) : res multiTask :=
  match ops with [] => Ok t | o :: ops' => do t' <- mtStep com t o; mtRun com ops' t' end.

(** ** tasks::MultiCoMTask *)

(** A robot as computeCoM and the mass sum see it: mass and world position of the centre of mass of every body. RBDyn's computeCoM is the sum of mass times
    position divided by the total mass; its division by zero is rendered as [UB]. *)
Definition bodyMasses := list (R * V3).
Definition robotMass (b : bodyMasses) : R := fold_left (fun ac m => ac + fst m) b 0.
Definition divOk (a b : R) : res R := if Req_EM_T b 0 then UB else Ok (a / b).
Definition computeCoM (b : bodyMasses) : res V3 :=
  let s := fold_left (fun ac m => vadd ac (vsc (fst m) (snd m))) b v0 in
  do x <- divOk (vx s) (robotMass b); do y <- divOk (vy s) (robotMass b); do z <- divOk (vz s) (robotMass b); Ok (mkV3 x y z).
(** Members used by the error: com_, robotIndexes_, robotsWeight_, eval_. *)
Record multiCoM := mkMCoM { mcCom : V3; mcRobots : list nat; mcWeights : list R; mcEval : V3 }.
(** computeRobotsWeight, Tasks.cpp:918-936; the masses are summed from the back. *)
Fixpoint massLoop (mbs : list bodyMasses) (rs : list nat) : res (list R * R) :=
  match rs with
  | [] => Ok ([], 0)
  | r :: rs' => do b <- vec_at mbs r; do (l, tot) <- massLoop mbs rs'; Ok (robotMass b :: l, robotMass b + tot)
  end.
Fixpoint divLoop (tot : R) (l : list R) : res (list R) :=
  match l with [] => Ok [] | m :: l' => do w <- divOk m tot; do ws <- divLoop tot l'; Ok (w :: ws) end.
Definition robotsWeight (mbs : list bodyMasses) (rs : list nat) : res (list R) := do (l, tot) <- massLoop mbs rs; divLoop tot l.
(** Constructor, Tasks.cpp:816-834, and updateInertialParameters, 845-857. *)
Definition newMCoM (mbs : list bodyMasses) (rs : list nat) (com : V3) : res multiCoM := do ws <- robotsWeight mbs rs; Ok (mkMCoM com rs ws v0).
Definition mcInertia (mbs : list bodyMasses) (t : multiCoM) : res multiCoM := do ws <- robotsWeight mbs (mcRobots t); Ok (mkMCoM (mcCom t) (mcRobots t) ws (mcEval t)).
(** The error of update, Tasks.cpp:859-895: eval_ = com_, minus every robot's centre of mass times its weight. *)
Fixpoint evalLoop (mbs : list bodyMasses) (rs : list nat) (ws : list R) (e : V3) : res V3 :=
  match rs, ws with
  | [], _ => Ok e
  | r :: rs', w :: ws' => do b <- vec_at mbs r; do c <- computeCoM b; evalLoop mbs rs' ws' (vsub e (vsc w c))
  | _ :: _, [] => UB
  end.
Definition mcEvalUpdate (mbs : list bodyMasses) (t : multiCoM) : res multiCoM :=
  do e <- evalLoop mbs (mcRobots t) (mcWeights t) (mcCom t); Ok (mkMCoM (mcCom t) (mcRobots t) (mcWeights t) e).
Inductive mcOp := McInertia (mbs : list bodyMasses) | McCom (c : V3) | McUpdate (mbs : list bodyMasses).
Definition mcStep (t : multiCoM) (o : mcOp) : res multiCoM :=
  match o with
  | McInertia mbs => mcInertia mbs t
  | McCom c => Ok (mkMCoM c (mcRobots t) (mcWeights t) (mcEval t))
  | McUpdate mbs => mcEvalUpdate mbs t
  end.
Fixpoint mcRun (ops : list mcOp) (t : multiCoM) : res multiCoM := match ops with [] => Ok t | o :: ops' => do t' <- mcStep t o; mcRun ops' t' end.
