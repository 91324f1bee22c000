(** Model of what LSSOLQPSolver::errorMsg prints beside the names (/repo/src/LSSOLQPSolver.cpp:123-175, /repo/src/GenQPUtils.h:347-398):
    the value of the violated variable or line. [y] is lssol_.result(), the vector the numerical solver returned. *)
From Verif Require Export SolverModel.
Open Scope list_scope.
Open Scope R_scope.

(** constr->A().row(line) * result, GenQPUtils.h:354, 361, 368: the row has to exist and to have as many entries as the vector
    (assertions of Eigen; without them the product reads past the end of the shorter one). *)
Definition rowTimes (A : mat) (line : nat) (y : vec R) : res R :=
  do _ <- guard ((line <? mrows A) && (mcols A =? vlen y))%nat; Ok (rowdot A line (vget y)).
(** printConstr of the constraint named by a report, GenQPUtils.h:351-371 as called from constrErrorMsg, 391. The bounds printed beside
    the value are left out. *)
Definition printConstr (g : registered) (y : vec R) (r : report) : res (list (report * R)) :=
  match r with
  | RBound _ _ => Ok []
  | REq c l => do e <- vec_at (rgEq g) c; do v <- rowTimes (eqA e) l y; Ok [(r, v)]
  | RIneq c l => do e <- vec_at (rgIneq g) c; do v <- rowTimes (iqA e) l y; Ok [(r, v)]
  | RGen c l => do e <- vec_at (rgGen g) c; do v <- rowTimes (giA e) l y; Ok [(r, v)]
  end.
(** A loop that prints, in order. *)
Fixpoint printAll {A B} (f : A -> res (list B)) (l : list A) : res (list B) :=
  match l with
  | [] => Ok []
  | a :: l' => do x <- f a; do xs <- printAll f l'; Ok (x ++ xs)
  end.
(** One pass of the loop over the variables, LSSOLQPSolver.cpp:140-157: result()(i) beside the name. XL_(i) and XU_(i), which have
    as many entries as Q_ has rows, are left out. *)
Definition printVar (g : registered) (istate : nat -> Z) (y : vec R) (i : nat) : res (list (report * R)) :=
  if (istate i <? 0)%Z then
    match boundReport (rgBound g) 0 i with
    | [] => Ok []
    | r :: _ => do v <- vget_at y i; Ok [(r, v)]
    end
  else Ok [].
(** One pass of the loop over the lines, LSSOLQPSolver.cpp:160-173; [red] is nrVars, line 131. *)
Definition printLine (g : registered) (red : nat) (istate : nat -> Z) (y : vec R) (i : nat) : res (list (report * R)) :=
  if (istate (i + red)%nat <? 0)%Z then printAll (printConstr g y) (lineReport g i) else Ok [].
(** errorMsg, LSSOLQPSolver.cpp:123-175; nothing for QLD, QLDQPSolver.cpp:133-140. *)
Definition errorPrint (b : backend) (g : registered) (nrALines : nat) (istate : nat -> Z) (y : vec R) : res (list (report * R)) :=
  match bkKind b with
  | QLD => Ok []
  | LSSOL =>
    do vs <- printAll (printVar g istate y) (seq 0 (errNrVars b));
    do ls <- printAll (printLine g (errNrVars b) istate y) (seq 0 nrALines);
    Ok (vs ++ ls)
  end.
