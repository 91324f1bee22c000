(** Model of /repo/src/GenQPUtils.h: how registered tasks and constraints are copied into the
    matrices of the quadratic program, and of the interfaces it reads (Tasks/QPSolver.h).

    Sizes and indices are natural numbers (C++ int; a negative value never passes the Eigen range
    checks). Every Eigen block or segment access is range checked ([UB] when violated). *)
From Verif Require Export LayoutModel.

(* ------------------------------------------------------------------ *)
(** * What the solver reads of a registered object *)

(** class Equality, Tasks/QPSolver.h:206-222: maxEq, nrEq, AEq, bEq. *)
Record equality := mkEq { eqMax : nat; eqNr : nat; eqA : mat; eqB : vec R }.
(** class Inequality, Tasks/QPSolver.h:224-240 (an upper bound may be infinite). *)
Record inequality := mkIneq { iqMax : nat; iqNr : nat; iqA : mat; iqB : vec ext }.
(** class GenInequality, Tasks/QPSolver.h:242-259. *)
Record geninequality := mkGen { giMax : nat; giNr : nat; giA : mat; giL : vec ext; giU : vec ext }.
(** class Bound, Tasks/QPSolver.h:261-276. *)
Record bound := mkBound { bdBegin : nat; bdL : vec ext; bdU : vec ext }.
(** class Task, Tasks/QPSolver.h:278-300. *)
Record task := mkTask { tkWeight : R; tkBegin : nat * nat; tkQ : mat; tkC : vec R }.

(* ------------------------------------------------------------------ *)
(** * Objective *)

(** First loop of fillQC, GenQPUtils.h:33-44. *)
Fixpoint fillTasks (ts : list task) (Q : mat) (C : vec R) : res (mat * vec R) :=
  match ts with
  | [] => Ok (Q, C)
  | t :: ts' =>
    do Q1 <- madd_block Q (fst (tkBegin t)) (snd (tkBegin t)) (mscal (tkWeight t) (tkQ t));
    (* C.segment(b.first, r) += weight * Ci: Ci must have r entries *)
    do _ <- guard (Nat.eqb (vlen (tkC t)) (mrows (tkQ t)));
    do C1 <- vadd_seg C (fst (tkBegin t)) (vscal (tkWeight t) (tkC t));
    fillTasks ts' Q1 C1
  end.

(** DIAG_CONSTANT, GenQPUtils.h:25. *)
Definition DIAG_CONSTANT : R := / 10000.

(** One iteration of the regularisation loop, GenQPUtils.h:55. *)
Definition regularize (Q : mat) (i : nat) : res mat :=
  do B <- mblock Q i i 1 1;
  if Rlt_dec (Rabs (mget B 0%nat 0%nat)) DIAG_CONSTANT
  then madd_block Q i i (mkMat 1 1 (fun _ _ => DIAG_CONSTANT))
  else Ok Q.

(** Second loop of fillQC, GenQPUtils.h:53-56. *)
Fixpoint regLoop (n i : nat) (Q : mat) : res mat :=
  match n with
  | O => Ok Q
  | S k => do Q1 <- regularize Q i; regLoop k (S i) Q1
  end.

(** fillQC, GenQPUtils.h:31-57. *)
Definition fillQC (ts : list task) (nrVars : nat) (Q : mat) (C : vec R) : res (mat * vec R) :=
  do (Q1, C1) <- fillTasks ts Q C;
  do Q2 <- regLoop nrVars 0 Q1;
  Ok (Q2, C1).

(** reduceQC, GenQPUtils.h:78-86. *)
Definition reduceQC (QFull : mat) (CFull : vec R) (M : mat) : res (mat * vec R) :=
  do MtQ <- mmul (mtrans M) QFull;
  do Q <- mmul MtQ M;
  do C <- mvec (mtrans M) CFull;
  Ok (Q, C).

(* ------------------------------------------------------------------ *)
(** * Constraints, general form: L <= A x <= U *)

(** fillEq (general form), GenQPUtils.h:94-117. *)
Fixpoint fillEqG (eqs : list equality) (nrVars n : nat) (A : mat) (AL AU : vec ext)
    : res (nat * mat * vec ext * vec ext) :=
  match eqs with
  | [] => Ok (n, A, AL, AU)
  | e :: eqs' =>
    do Ai <- mblock (eqA e) 0 0 (eqNr e) nrVars;
    do bi <- vhead (eqB e) (eqNr e);
    do A1 <- mset_block A n 0 Ai;
    do AL1 <- vset_seg AL n (vmap Fin bi);
    do AU1 <- vset_seg AU n (vmap Fin bi);
    fillEqG eqs' nrVars (n + eqNr e) A1 AL1 AU1
  end.

(** fillInEq (general form), GenQPUtils.h:123-146. *)
Fixpoint fillInEqG (iqs : list inequality) (nrVars n : nat) (A : mat) (AL AU : vec ext)
    : res (nat * mat * vec ext * vec ext) :=
  match iqs with
  | [] => Ok (n, A, AL, AU)
  | e :: iqs' =>
    do Ai <- mblock (iqA e) 0 0 (iqNr e) nrVars;
    do bi <- vhead (iqB e) (iqNr e);
    do A1 <- mset_block A n 0 Ai;
    do AL1 <- vset_seg AL n (vfill (iqNr e) NInf);
    do AU1 <- vset_seg AU n bi;
    fillInEqG iqs' nrVars (n + iqNr e) A1 AL1 AU1
  end.

(** fillGenInEq (general form), GenQPUtils.h:152-176. *)
Fixpoint fillGenInEqG (gis : list geninequality) (nrVars n : nat) (A : mat) (AL AU : vec ext)
    : res (nat * mat * vec ext * vec ext) :=
  match gis with
  | [] => Ok (n, A, AL, AU)
  | e :: gis' =>
    do Ai <- mblock (giA e) 0 0 (giNr e) nrVars;
    do Li <- vhead (giL e) (giNr e);
    do Ui <- vhead (giU e) (giNr e);
    do A1 <- mset_block A n 0 Ai;
    do AL1 <- vset_seg AL n Li;
    do AU1 <- vset_seg AU n Ui;
    fillGenInEqG gis' nrVars (n + giNr e) A1 AL1 AU1
  end.

(* ------------------------------------------------------------------ *)
(** * Constraints, standard form: Aeq x = beq, Aineq x <= bineq *)

(** fillEq (standard form), GenQPUtils.h:184-201. *)
Fixpoint fillEqS (eqs : list equality) (nrVars n : nat) (A : mat) (b : vec R) : res (nat * mat * vec R) :=
  match eqs with
  | [] => Ok (n, A, b)
  | e :: eqs' =>
    do Ai <- mblock (eqA e) 0 0 (eqNr e) nrVars;
    do bi <- vhead (eqB e) (eqNr e);
    do A1 <- mset_block A n 0 Ai;
    do b1 <- vset_seg b n bi;
    fillEqS eqs' nrVars (n + eqNr e) A1 b1
  end.

(** fillInEq (standard form), GenQPUtils.h:207-228. *)
Fixpoint fillInEqS (iqs : list inequality) (nrVars n : nat) (A : mat) (b : vec ext) : res (nat * mat * vec ext) :=
  match iqs with
  | [] => Ok (n, A, b)
  | e :: iqs' =>
    do Ai <- mblock (iqA e) 0 0 (iqNr e) nrVars;
    do bi <- vhead (iqB e) (iqNr e);
    do A1 <- mset_block A n 0 Ai;
    do b1 <- vset_seg b n bi;
    fillInEqS iqs' nrVars (n + iqNr e) A1 b1
  end.

(** fillGenInEq (standard form), GenQPUtils.h:234-261: -A x <= -L, then A x <= U. *)
Fixpoint fillGenInEqS (gis : list geninequality) (nrVars n : nat) (A : mat) (b : vec ext) : res (nat * mat * vec ext) :=
  match gis with
  | [] => Ok (n, A, b)
  | e :: gis' =>
    do Ai <- mblock (giA e) 0 0 (giNr e) nrVars;
    do Li <- vhead (giL e) (giNr e);
    do Ui <- vhead (giU e) (giNr e);
    do A1 <- mset_block A n 0 (mopp Ai);
    do b1 <- vset_seg b n (vmap eopp Li);
    do A2 <- mset_block A1 (n + giNr e) 0 Ai;
    do b2 <- vset_seg b1 (n + giNr e) Ui;
    fillGenInEqS gis' nrVars (n + giNr e + giNr e) A2 b2
  end.

(* ------------------------------------------------------------------ *)
(** * Bounds *)

(** fillBound, GenQPUtils.h:267-278. *)
Fixpoint fillBound (bs : list bound) (XL XU : vec ext) : res (vec ext * vec ext) :=
  match bs with
  | [] => Ok (XL, XU)
  | b :: bs' =>
    do XL1 <- vset_seg XL (bdBegin b) (bdL b);
    do XU1 <- vset_seg XU (bdBegin b) (bdU b);
    fillBound bs' XL1 XU1
  end.

(* ------------------------------------------------------------------ *)
(** * Reduction by the dependencies *)

(** reduceA, GenQPUtils.h:297-298. *)
Definition reduceA (AFull M : mat) : res mat := mmul AFull M.

(** v(i) as an rvalue and as an lvalue. *)
Definition vget_at {A} (v : vec A) (i : nat) : res A := if (i <? vlen v)%nat then Ok (vget v i) else UB.
Definition vput {A} (v : vec A) (i : nat) (a : A) : res (vec A) :=
  if (i <? vlen v)%nat then Ok (mkVec (vlen v) (fun k => if Nat.eqb k i then a else vget v k)) else UB.
(** An int used as an index: negative is out of range. *)
Definition zidx (z : Z) : res nat := if (0 <=? z)%Z then Ok (Z.to_nat z) else UB.

(** First loop of reduceBound, GenQPUtils.h:311-315. *)
Fixpoint copyBounds (cnt i : nat) (XLF XUF : vec ext) (r2f : list Z) (XL XU : vec ext) : res (vec ext * vec ext) :=
  match cnt with
  | O => Ok (XL, XU)
  | S k =>
    do z <- vec_at r2f i;
    do f <- zidx z;
    do l <- vget_at XLF f;
    do u <- vget_at XUF f;
    do XL1 <- vput XL i l;
    do XU1 <- vput XU i u;
    copyBounds k (S i) XLF XUF r2f XL1 XU1
  end.

(** Second loop of reduceBound, GenQPUtils.h:316-336. *)
Fixpoint depBounds (deps : list dep) (XLF XUF : vec ext) (f2r : list Z) (XL XU : vec ext) : res (vec ext * vec ext) :=
  match deps with
  | [] => Ok (XL, XU)
  | (p, r, alpha) :: deps' =>
    do z <- vec_at f2r p;
    if Req_EM_T alpha 0 then depBounds deps' XLF XUF f2r XL XU
    else
      do k <- zidx z;
      do xl <- vget_at XL k;
      do xu <- vget_at XU k;
      do lf <- vget_at XLF r;
      do uf <- vget_at XUF r;
      do (XL1, XU1) <-
        (if Rlt_dec alpha 0 then
           do XL1 <- vput XL k (emax xl (edivr uf alpha));
           do XU1 <- vput XU k (emin xu (edivr lf alpha));
           Ok (XL1, XU1)
         else
           do XL1 <- vput XL k (emax xl (edivr lf alpha));
           do XU1 <- vput XU k (emin xu (edivr uf alpha));
           Ok (XL1, XU1));
      depBounds deps' XLF XUF f2r XL1 XU1
  end.

(** reduceBound, GenQPUtils.h:303-337. [red] is XL.rows(). *)
Definition reduceBound (XLF XUF : vec ext) (red : nat) (f2r r2f : list Z) (deps : list dep) : res (vec ext * vec ext) :=
  do (XL, XU) <- copyBounds red 0 XLF XUF r2f (vfill red NInf) (vfill red PInf);
  depBounds deps XLF XUF f2r XL XU.

(** expandResult, GenQPUtils.h:342-345. *)
Definition expandResult (y : vec R) (M : mat) : res (vec R) := mvec M y.

(* ------------------------------------------------------------------ *)
(** * Error reports *)

(** constrErrorMsg, GenQPUtils.h:374-397, for a list of constraints given by their current numbers
    of lines. Returns the report (position in the list, local line) and the final start and end. *)
Fixpoint constrErrorMsg (nrLines : list nat) (k ALine start stop : nat) : option (nat * nat) * nat * nat :=
  match nrLines with
  | [] => (None, start, stop)
  | n :: rest =>
    let stop' := (stop + n)%nat in
    if ((start <=? ALine) && (ALine <? stop'))%nat then (Some (k, ALine - start)%nat, stop', stop')
    else constrErrorMsg rest (S k) ALine stop' stop'
  end.
