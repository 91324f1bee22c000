(** Model of tasks::qp::ContactTask (/repo/src/QPTasks.cpp:1265-1323, /repo/src/Tasks/QPTasks.h:911-943) and tasks::qp::GripperTorqueTask
    (QPTasks.cpp:1329-1387, QPTasks.h:945-971). Lines without a file are lines of QPTasks.cpp. *)
From Verif Require Export MotionModel GripperModel SetPointModel.
Open Scope list_scope.
Open Scope R_scope.

(** Members of ContactTask, QPTasks.h:931-942. *)
Record contactTask := mkCT { ctWeight : R; ctId : contactId; ctBegin : nat; ctStiff : R; ctJac : mat; ctErr : V3; ctErrD : V3; ctQ : mat; ctC : vec R }.
(** Constructor, QPTasks.h:914-918; a default-constructed Eigen matrix is empty. *)
Definition newCT (id : contactId) (stiffness w : R) : contactTask := mkCT w id 0 stiffness (mzero 0 0) v0 v0 (mzero 0 0) (vfill 0 0).
(** error and errorD, lines 1265-1269. *)
Definition ctError (e : V3) (t : contactTask) : contactTask := mkCT (ctWeight t) (ctId t) (ctBegin t) (ctStiff t) (ctJac t) e (ctErrD t) (ctQ t) (ctC t).
Definition ctErrorD (e : V3) (t : contactTask) : contactTask := mkCT (ctWeight t) (ctId t) (ctBegin t) (ctStiff t) (ctJac t) (ctErr t) e (ctQ t) (ctC t).
(** Loop over allContacts(), lines 1280-1291: begin_, nrLambda and cones when it is left. *)
Fixpoint ctFind (id : contactId) (cs : list bilateral) (begin : nat) : res (nat * nat * list cone) :=
  match cs with
  | [] => Ok (begin, 0%nat, [])
  | c :: cs' =>
    do cur <- bNrLambda c;
    if cid_eqb (bId c) id then Ok (begin, cur, bR1Cones c) else ctFind id cs' (begin + cur)%nat
  end.
(** Inner loop over the generators, lines 1298-1302. *)
Fixpoint ctGens (gens : list V3) (index : nat) (J : mat) : res (nat * mat) :=
  match gens with
  | [] => Ok (index, J)
  | g :: gens' => do J' <- mset_block J 0 index (mkMat 3 1 (fun i _ => MotionModel.v3get g i)); ctGens gens' (S index) J'
  end.
(** Loop over the cones, lines 1296-1303. *)
Fixpoint ctCones (cones : list cone) (index : nat) (J : mat) : res mat :=
  match cones with
  | [] => Ok J
  | k :: cones' => do (index', J') <- ctGens (generators k) index J; ctCones cones' index' J'
  end.
(** updateNrVars, lines 1271-1308. conesJac_.resize leaves the entries undefined, here zero. *)
Definition ctNrVars (d : solverData) (t : contactTask) : res contactTask :=
  do (begin, nr, cones) <- ctFind (ctId t) (sdAll d) (lambdaBegin d);
  do J <- ctCones cones 0 (mzero 3 nr);
  do Q <- mmul (mtrans J) J;
  Ok (mkCT (ctWeight t) (ctId t) begin (ctStiff t) J (ctErr t) (ctErrD t) Q (vfill nr 0)).
(** update, lines 1310-1317; the product has undefined behaviour before the first updateNrVars, when conesJac_ is empty. *)
Definition ctUpdate (t : contactTask) : res contactTask :=
  do C <- mvec (mopp (mtrans (ctJac t))) (mkVec 3 (MotionModel.v3get (ctErr t)));
  Ok (mkCT (ctWeight t) (ctId t) (ctBegin t) (ctStiff t) (ctJac t) (ctErr t) (ctErrD t) (ctQ t) C).
(** What the solver reads: weight(), begin(), Q(), C(). *)
Definition ctTask (t : contactTask) : task := mkTask (ctWeight t) (ctBegin t, ctBegin t) (ctQ t) (ctC t).

Inductive ctOp := CtNrVars (d : solverData) | CtError (e : V3) | CtErrorD (e : V3) | CtWeight (w : R) | CtUpdate.
Definition ctStep (t : contactTask) (o : ctOp) : res contactTask :=
  match o with
  | CtNrVars d => ctNrVars d t
  | CtError e => Ok (ctError e t)
  | CtErrorD e => Ok (ctErrorD e t)
  | CtWeight w => Ok (mkCT w (ctId t) (ctBegin t) (ctStiff t) (ctJac t) (ctErr t) (ctErrD t) (ctQ t) (ctC t))
  | CtUpdate => ctUpdate t
  end.
Fixpoint ctRun (ops : list ctOp) (t : contactTask) : res contactTask :=
  match ops with [] => Ok t | o :: ops' => do t' <- ctStep t o; ctRun ops' t' end.

(** Members of GripperTorqueTask, QPTasks.h:962-970. *)
Record gripTask := mkGT { gtWeight : R; gtId : contactId; gtOrigin : V3; gtAxis : V3; gtBegin : nat; gtQ : mat; gtC : vec R }.
(** Constructor, QPTasks.h:948-951. *)
Definition newGT (id : contactId) (origin axis : V3) (w : R) : gripTask := mkGT w id origin axis 0 (mzero 0 0) (vfill 0 0).
(** Inner loop over the generators, lines 1353-1359. *)
Fixpoint gtGens (axis top : V3) (gens : list V3) (pos : nat) (C : vec R) : res (nat * vec R) :=
  match gens with
  | [] => Ok (pos, C)
  | g :: gens' => do C' <- vput C pos (Rabs (dot axis (cross top g))); gtGens axis top gens' (S pos) C'
  end.
(** Loop over the cones, lines 1350-1360; r1Points[i] is read for every cone. *)
Fixpoint gtCones (origin axis : V3) (pts : list V3) (cones : list cone) (i pos : nat) (C : vec R) : res (vec R) :=
  match cones with
  | [] => Ok C
  | k :: cones' =>
    do p <- vec_at pts i;
    do (pos', C') <- gtGens axis (vsub p origin) (generators k) pos C;
    gtCones origin axis pts cones' (S i) pos' C'
  end.
(** Loop over bilateralContacts(), lines 1335-1365: begin_, and the size of Q_ with C_ when a contact was found. C_.resize leaves the
    entries undefined, here zero. *)
Fixpoint gtFind (t : gripTask) (bs : list bilateral) (begin : nat) : res (nat * option (nat * vec R)) :=
  match bs with
  | [] => Ok (begin, None)
  | b :: bs' =>
    do cur <- sumLambda (bNrLambdaAt b) 0 (length (bR1Points b));
    if cid_eqb (bId b) (gtId t) then do C <- gtCones (gtOrigin t) (gtAxis t) (bR1Points b) (bR1Cones b) 0 0 (vfill cur 0); Ok (begin, Some (cur, C))
    else gtFind t bs' (begin + cur)%nat
  end.
(** updateNrVars, lines 1329-1375. *)
Definition gtNrVars (d : solverData) (t : gripTask) : res gripTask :=
  do (begin, f) <- gtFind t (sdBi d) (bilateralBegin d);
  match f with
  | Some (n, C) => Ok (mkGT (gtWeight t) (gtId t) (gtOrigin t) (gtAxis t) begin (mzero n n) C)
  | None => Ok (mkGT (gtWeight t) (gtId t) (gtOrigin t) (gtAxis t) 0 (mzero 0 0) (vfill 0 0))
  end.
Definition gtTask (t : gripTask) : task := mkTask (gtWeight t) (gtBegin t, gtBegin t) (gtQ t) (gtC t).

(** update does nothing, lines 1377-1381. *)
Inductive gtOp := GtNrVars (d : solverData) | GtWeight (w : R) | GtUpdate.
Definition gtStep (t : gripTask) (o : gtOp) : res gripTask :=
  match o with
  | GtNrVars d => gtNrVars d t
  | GtWeight w => Ok (mkGT w (gtId t) (gtOrigin t) (gtAxis t) (gtBegin t) (gtQ t) (gtC t))
  | GtUpdate => Ok t
  end.
Fixpoint gtRun (ops : list gtOp) (t : gripTask) : res gripTask :=
  match ops with [] => Ok t | o :: ops' => do t' <- gtStep t o; gtRun ops' t' end.
