(** Model of the QP back ends (/repo/src/GenQPSolver.cpp, QLDQPSolver.cpp, LSSOLQPSolver.cpp) and of
    QPSolver (/repo/src/QPSolver.cpp, Tasks/QPSolver.h).

    The numerical solvers eigen-qld and eigen-lssol are function arguments. *)
From Verif Require Export FillModel.
Open Scope string_scope.
Open Scope list_scope.
Open Scope R_scope.

(* ------------------------------------------------------------------ *)
(** * GenQPSolver::setDependencies *)

Definition leader (d : dep) : nat := fst (fst d).
Definition replica (d : dep) : nat := snd (fst d).
Definition mult (d : dep) : R := snd d.

(** std::sort by replica index, GenQPSolver.cpp:51-52. The result of std::sort is determined when
    replicas are distinct; otherwise the order of equal elements is unspecified and the model
    keeps their order. *)
Fixpoint insertDep (d : dep) (l : list dep) : list dep :=
  match l with
  | [] => [d]
  | e :: l' => if (replica d <=? replica e)%nat then d :: l else e :: insertDep d l'
  end.
Fixpoint sortDeps (l : list dep) : list dep :=
  match l with [] => [] | d :: l' => insertDep d (sortDeps l') end.

(** std::vector::resize(n, v): existing elements are kept. *)
Definition resize {A} (l : list A) (n : nat) (v : A) : list A := firstn n l ++ repeat v (n - length l).
(** l[i] = a. *)
Fixpoint lset {A} (l : list A) (i : nat) (a : A) : res (list A) :=
  match l, i with
  | [], _ => UB
  | _ :: l', O => Ok (a :: l')
  | x :: l', S k => do r <- lset l' k a; Ok (x :: r)
  end.

(** Eigen::Triplet: row, column, value. The column is an int that may be -1. *)
Definition triplet := (nat * Z * R)%type.

(** Loop over the full variables, GenQPSolver.cpp:60-71. *)
Fixpoint depLoop (cnt i shift : nat) (deps : list dep) (f2r r2f : list Z) (ts : list triplet)
    : res (list Z * list Z * list triplet) :=
  match cnt with
  | O => Ok (f2r, r2f, ts)
  | S c =>
    let skip := match nth_error deps shift with Some d => Nat.eqb (replica d) i | None => false end in
    if skip then depLoop c (S i) (S shift) deps f2r r2f ts
    else
      do f2r1 <- lset f2r i (Z.of_nat (i - shift));
      do r2f1 <- lset r2f (i - shift) (Z.of_nat i);
      depLoop c (S i) shift deps f2r1 r2f1 (ts ++ [(i, Z.of_nat (i - shift), 1)])
  end.

(** Loop over the dependencies, GenQPSolver.cpp:72-78. *)
Fixpoint depTriplets (deps : list dep) (f2r : list Z) : res (list triplet) :=
  match deps with
  | [] => Ok []
  | d :: deps' =>
    do z <- vec_at f2r (leader d);
    do ts <- depTriplets deps' f2r;
    Ok ((replica d, z, mult d) :: ts)
  end.

(** SparseMatrix::setFromTriplets, GenQPSolver.cpp:79: values at the same position are added;
    positions out of range are undefined behaviour. *)
Definition tripletSum (ts : list triplet) (i j : nat) : R :=
  fold_right (fun t acc => (if Nat.eqb (fst (fst t)) i && Z.eqb (snd (fst t)) (Z.of_nat j) then snd t else 0) + acc) 0 ts.
Definition tripletOk (r c : nat) (t : triplet) : bool :=
  ((fst (fst t) <? r)%nat && (0 <=? snd (fst t))%Z && (snd (fst t) <? Z.of_nat c)%Z).
Definition setFromTriplets (r c : nat) (ts : list triplet) : res mat :=
  do _ <- guard (forallb (tripletOk r c) ts);
  Ok (mkMat r c (tripletSum ts)).

(** Back ends. [bkN], [bkEq], [bkIn], [bkGen] are the last arguments of updateSize, which determine
    the sizes of all the members AeqFull_, AineqFull_, beq_, ..., QFull_, CFull_; [bkRed] is the
    size of XL_ and XU_ (0 before they are first resized). The contents of the members are
    overwritten by every updateMatrix, hence not part of the state. *)
Inductive kind := QLD | LSSOL.
Record backend := mkBk {
  bkKind : kind;
  bkDeps : list dep; bkF2R : list Z; bkR2F : list Z; bkM : mat;
  bkN : nat; bkEq : nat; bkIn : nat; bkGen : nat; bkRed : nat }.
Definition newBackend (k : kind) : backend := mkBk k [] [] [] (mzero 0 0) 0 0 0 0 0.

(** createQPSolver, GenQPSolver.cpp:36-43: map::at throws on an unknown name. [lssolFound] is
    the compile-time option LSSOL_SOLVER_FOUND. *)
Definition createQPSolver (lssolFound : bool) (name : string) : res backend :=
  if String.eqb name "QLD" then Ok (newBackend QLD)
  else if lssolFound && String.eqb name "LSSOL" then Ok (newBackend LSSOL)
  else Throw.
(** default_qp_solver, GenQPSolver.cpp:26-30. *)
Definition default_qp_solver (lssolFound : bool) : string := if lssolFound then "LSSOL" else "QLD".

(** GenQPSolver::setDependencies, GenQPSolver.cpp:45-80. The assert of line 47 is a guard. *)
Definition setDependencies (b : backend) (nrVars : nat) (deps : list dep) : res backend :=
  do _ <- guard (length deps <? nrVars)%nat;
  let ds := sortDeps deps in
  let f2r := resize (bkF2R b) nrVars (-1)%Z in
  let r2f := resize (bkR2F b) (nrVars - length ds) (-1)%Z in
  do (f2r1, r2f1, ts1) <- depLoop nrVars 0 0 ds f2r r2f [];
  do ts2 <- depTriplets ds f2r1;
  do M <- setFromTriplets nrVars (nrVars - length deps) (ts1 ++ ts2);
  Ok (mkBk (bkKind b) ds f2r1 r2f1 M (bkN b) (bkEq b) (bkIn b) (bkGen b) (bkRed b)).

(** updateSize, QLDQPSolver.cpp:25-63 and LSSOLQPSolver.cpp:31-62. *)
Definition updateSize (b : backend) (nrVars nrEq nrInEq nrGenInEq : nat) : backend :=
  mkBk (bkKind b) (bkDeps b) (bkF2R b) (bkR2F b) (bkM b) nrVars nrEq nrInEq nrGenInEq
       (match bkDeps b with [] => bkRed b | _ => (nrVars - length (bkDeps b))%nat end).

(* ------------------------------------------------------------------ *)
(** * updateMatrix and solve of the two back ends *)

(** Arguments of Eigen::QLD::solve, as passed in QLDQPSolver.cpp:110-112 and 117-119. *)
Record problemS := mkPS {
  psQ : mat; psC : vec R; psAeq : mat; psBeq : vec R; psAin : mat; psBin : vec ext;
  psXL : vec ext; psXU : vec ext }.
(** Arguments of Eigen::LSSOL_QP::solve, as passed in LSSOLQPSolver.cpp:101-109. *)
Record problemG := mkPG {
  pgXL : vec ext; pgXU : vec ext; pgQ : mat; pgC : vec R; pgA : mat; pgAL : vec ext; pgAU : vec ext }.

(** Objects registered in the solver, read when updateMatrix is called. *)
Record registered := mkReg {
  rgTasks : list task; rgEq : list equality; rgIneq : list inequality;
  rgGen : list geninequality; rgBound : list bound }.

(** QLDQPSolver::updateMatrix then the arguments of solve, QLDQPSolver.cpp:65-122. *)
Definition qldMatrix (b : backend) (g : registered) : res problemS :=
  let n := bkN b in
  let rowsIn := (bkIn b + bkGen b * 2)%nat in
  do (nrEq, AeqFull, beq) <- fillEqS (rgEq g) n 0 (mzero (bkEq b) n) (vfill (bkEq b) 0);
  do (nrIn0, Ain0, bin0) <- fillInEqS (rgIneq g) n 0 (mzero rowsIn n) (vfill rowsIn (Fin 0));
  do (nrIn, AinFull, bin) <- fillGenInEqS (rgGen g) n nrIn0 Ain0 bin0;
  do (XLF, XUF) <- fillBound (rgBound g) (vfill n NInf) (vfill n PInf);
  do (QF, CF) <- fillQC (rgTasks g) n (mzero n n) (vfill n 0);
  match bkDeps b with
  | [] =>
    do Aeq1 <- mblock AeqFull 0 0 nrEq (mcols AeqFull);
    do beq1 <- vseg beq 0 nrEq;
    do Ain1 <- mblock AinFull 0 0 nrIn (mcols AinFull);
    do bin1 <- vseg bin 0 nrIn;
    Ok (mkPS QF CF Aeq1 beq1 Ain1 bin1 XLF XUF)
  | _ =>
    do Aeq <- reduceA AeqFull (bkM b);
    do Ain <- reduceA AinFull (bkM b);
    do (XL, XU) <- reduceBound XLF XUF (bkRed b) (bkF2R b) (bkR2F b) (bkDeps b);
    do (Q, C) <- reduceQC QF CF (bkM b);
    do Aeq1 <- mblock Aeq 0 0 nrEq (mcols Aeq);
    do beq1 <- vseg beq 0 nrEq;
    do Ain1 <- mblock Ain 0 0 nrIn (mcols Ain);
    do bin1 <- vseg bin 0 nrIn;
    Ok (mkPS Q C Aeq1 beq1 Ain1 bin1 XL XU)
  end.

(** LSSOLQPSolver::updateMatrix then the arguments of solve, LSSOLQPSolver.cpp:64-112. *)
Definition lssolMatrix (b : backend) (g : registered) : res problemG :=
  let n := bkN b in
  let rows := (bkEq b + bkIn b + bkGen b)%nat in
  do (n1, A1, AL1, AU1) <- fillEqG (rgEq g) n 0 (mzero rows n) (vfill rows (Fin 0)) (vfill rows (Fin 0));
  do (n2, A2, AL2, AU2) <- fillInEqG (rgIneq g) n n1 A1 AL1 AU1;
  do (n3, AF, AL, AU) <- fillGenInEqG (rgGen g) n n2 A2 AL2 AU2;
  do (XLF, XUF) <- fillBound (rgBound g) (vfill n NInf) (vfill n PInf);
  do (QF, CF) <- fillQC (rgTasks g) n (mzero n n) (vfill n 0);
  match bkDeps b with
  | [] =>
    do Ab <- mblock AF 0 0 n3 (mcols AF);
    do ALb <- vseg AL 0 n3;
    do AUb <- vseg AU 0 n3;
    Ok (mkPG XLF XUF QF CF Ab ALb AUb)
  | _ =>
    do A <- reduceA AF (bkM b);
    do (XL, XU) <- reduceBound XLF XUF (bkRed b) (bkF2R b) (bkR2F b) (bkDeps b);
    do (Q, C) <- reduceQC QF CF (bkM b);
    do Ab <- mblock A 0 0 n3 (mcols A);
    do ALb <- vseg AL 0 n3;
    do AUb <- vseg AU 0 n3;
    Ok (mkPG XL XU Q C Ab ALb AUb)
  end.

(** The numerical solvers: success flag and result vector. *)
Record numeric := mkNum { numQld : problemS -> bool * vec R; numLssol : problemG -> bool * vec R }.

(** updateMatrix; solve; result, QLDQPSolver.cpp:105-131 and LSSOLQPSolver.cpp:96-121: the result of
    the numerical solver is expanded when there are dependencies (on success or not). *)
Definition backendSolve (num : numeric) (b : backend) (g : registered) : res (bool * vec R) :=
  do (ok, y) <- (match bkKind b with
                 | QLD => do p <- qldMatrix b g; Ok (numQld num p)
                 | LSSOL => do p <- lssolMatrix b g; Ok (numLssol num p)
                 end);
  match bkDeps b with
  | [] => Ok (ok, y)
  | _ => do x <- expandResult y (bkM b); Ok (ok, x)
  end.

(* ------------------------------------------------------------------ *)
(** * QPSolver *)

(** Objects are identified by numbers (their addresses); their contents are the heap. A constraint
    object has any mix of the four kinds (ConstraintFunction<Fun...>, Tasks/QPSolver.h:162-204). *)
Inductive ckind := KEq | KIneq | KGen | KBound.
Record heap := mkHeap {
  hTask : nat -> task; hEq : nat -> equality; hIneq : nat -> inequality;
  hGen : nat -> geninequality; hBound : nat -> bound }.

(** class QPSolver, Tasks/QPSolver.h:118-146. *)
Record qpSolver := mkQP {
  qConstr : list nat; qEq : list nat; qIneq : list nat; qGen : list nat; qBound : list nat;
  qTasks : list nat; qData : solverData;
  qMaxEq : nat; qMaxIneq : nat; qMaxGen : nat; qBack : backend }.

(** std::find(...) != end(). *)
Definition mem (x : nat) (l : list nat) : bool := existsb (Nat.eqb x) l.
(** erase(find(x)) when x is present. *)
Fixpoint eraseFirst (x : nat) (l : list nat) : list nat :=
  match l with [] => [] | y :: l' => if Nat.eqb y x then l' else y :: eraseFirst x l' end.
(** erase(find(x)) without test, as in QPSolver.cpp:193, 202, 211, 220: erasing end() is UB. *)
Definition eraseUnchecked (x : nat) (l : list nat) : res (list nat) :=
  if mem x l then Ok (eraseFirst x l) else UB.

Definition with_lists (s : qpSolver) (c e i g b t : list nat) : qpSolver :=
  mkQP c e i g b t (qData s) (qMaxEq s) (qMaxIneq s) (qMaxGen s) (qBack s).

(** QPSolver::QPSolver, QPSolver.cpp:33-37. *)
Definition newQPSolver (lssolFound : bool) : res qpSolver :=
  do b <- createQPSolver lssolFound (default_qp_solver lssolFound);
  Ok (mkQP [] [] [] [] [] [] initData 0 0 0 b).

(** addTask, QPSolver.cpp:249-262 (both overloads change the list in the same way). *)
Definition addTask (s : qpSolver) (t : nat) : qpSolver :=
  with_lists s (qConstr s) (qEq s) (qIneq s) (qGen s) (qBound s)
             (if mem t (qTasks s) then qTasks s else qTasks s ++ [t]).
(** removeTask, QPSolver.cpp:264-268. *)
Definition removeTask (s : qpSolver) (t : nat) : qpSolver :=
  with_lists s (qConstr s) (qEq s) (qIneq s) (qGen s) (qBound s)
             (if mem t (qTasks s) then eraseFirst t (qTasks s) else qTasks s).
(** resetTasks, QPSolver.cpp:282-283. *)
Definition resetTasks (s : qpSolver) : qpSolver :=
  with_lists s (qConstr s) (qEq s) (qIneq s) (qGen s) (qBound s) [].
(** addConstraint, QPSolver.cpp:225-238. *)
Definition addConstraint (s : qpSolver) (c : nat) : qpSolver :=
  with_lists s (if mem c (qConstr s) then qConstr s else qConstr s ++ [c])
             (qEq s) (qIneq s) (qGen s) (qBound s) (qTasks s).
(** removeConstraint, QPSolver.cpp:240-244. *)
Definition removeConstraint (s : qpSolver) (c : nat) : qpSolver :=
  with_lists s (if mem c (qConstr s) then eraseFirst c (qConstr s) else qConstr s)
             (qEq s) (qIneq s) (qGen s) (qBound s) (qTasks s).
Definition nrTasks (s : qpSolver) : nat := length (qTasks s).
Definition nrConstraints (s : qpSolver) : nat := length (qConstr s).

(** addEqualityConstraint, addInequalityConstraint, addGenInequalityConstraint, addBoundConstraint,
    QPSolver.cpp:189-190, 198-199, 207-208, 216-217. *)
Definition addKind (s : qpSolver) (c : nat) (k : ckind) : qpSolver :=
  match k with
  | KEq => with_lists s (qConstr s) (qEq s ++ [c]) (qIneq s) (qGen s) (qBound s) (qTasks s)
  | KIneq => with_lists s (qConstr s) (qEq s) (qIneq s ++ [c]) (qGen s) (qBound s) (qTasks s)
  | KGen => with_lists s (qConstr s) (qEq s) (qIneq s) (qGen s ++ [c]) (qBound s) (qTasks s)
  | KBound => with_lists s (qConstr s) (qEq s) (qIneq s) (qGen s) (qBound s ++ [c]) (qTasks s)
  end.
(** removeEqualityConstraint, ..., QPSolver.cpp:192-193, 201-202, 210-211, 219-220. *)
Definition removeKind (s : qpSolver) (c : nat) (k : ckind) : res qpSolver :=
  match k with
  | KEq => do l <- eraseUnchecked c (qEq s);
           Ok (with_lists s (qConstr s) l (qIneq s) (qGen s) (qBound s) (qTasks s))
  | KIneq => do l <- eraseUnchecked c (qIneq s);
             Ok (with_lists s (qConstr s) (qEq s) l (qGen s) (qBound s) (qTasks s))
  | KGen => do l <- eraseUnchecked c (qGen s);
            Ok (with_lists s (qConstr s) (qEq s) (qIneq s) l (qBound s) (qTasks s))
  | KBound => do l <- eraseUnchecked c (qBound s);
              Ok (with_lists s (qConstr s) (qEq s) (qIneq s) (qGen s) l (qTasks s))
  end.

(** ConstraintFunction::addToSolver, Tasks/QPSolver.h:168-178 and 186-194: [ks] is the pack Fun... *)
Definition addToSolver (s : qpSolver) (c : nat) (ks : list ckind) : qpSolver :=
  fold_left (fun s' k => addKind s' c k) ks (addConstraint s c).
(** ConstraintFunction::removeFromSolver, Tasks/QPSolver.h:180-184 and 196-203. *)
Definition removeFromSolver (s : qpSolver) (c : nat) (ks : list ckind) : res qpSolver :=
  fold_left (fun r k => do s' <- r; removeKind s' c k) ks (Ok (removeConstraint s c)).

(** QPSolver::updateConstrSize, QPSolver.cpp:76-83. *)
Definition updateConstrSize (s : qpSolver) (h : heap) : qpSolver :=
  let me := sumnat (map (fun c => eqMax (hEq h c)) (qEq s)) in
  let mi := sumnat (map (fun c => iqMax (hIneq h c)) (qIneq s)) in
  let mg := sumnat (map (fun c => giMax (hGen h c)) (qGen s)) in
  mkQP (qConstr s) (qEq s) (qIneq s) (qGen s) (qBound s) (qTasks s) (qData s) me mi mg
       (updateSize (qBack s) (sdNrVars (qData s)) me mi mg).

(** QPSolver::nrVars(mbs, uni, bi), QPSolver.cpp:85-168. The updateNrVars calls of lines 162-164
    act on the registered objects (the heap), not on the solver. *)
Definition nrVars (s : qpSolver) (mbs : list multibody) (uni : list unilateral) (bi : list bilateral) : res qpSolver :=
  do (d, deps) <- nrVarsData mbs uni bi;
  do b1 <- setDependencies (qBack s) (sdNrVars d) deps;
  Ok (mkQP (qConstr s) (qEq s) (qIneq s) (qGen s) (qBound s) (qTasks s) d
           (qMaxEq s) (qMaxIneq s) (qMaxGen s)
           (updateSize b1 (sdNrVars d) (qMaxEq s) (qMaxIneq s) (qMaxGen s))).

(** QPSolver::solver(name), QPSolver.cpp:273-277. *)
Definition setSolver (lssolFound : bool) (s : qpSolver) (name : string) : res qpSolver :=
  do b <- createQPSolver lssolFound name;
  Ok (mkQP (qConstr s) (qEq s) (qIneq s) (qGen s) (qBound s) (qTasks s) (qData s)
           (qMaxEq s) (qMaxIneq s) (qMaxGen s)
           (updateSize b (sdNrVars (qData s)) (qMaxEq s) (qMaxIneq s) (qMaxGen s))).

(** What updateMatrix reads (QPSolver.cpp:333), [h] being the state of the registered objects after
    their update(mbs, mbcs, data) calls (QPSolver.cpp:329-331). *)
Definition collect (s : qpSolver) (h : heap) : registered :=
  mkReg (map (hTask h) (qTasks s)) (map (hEq h) (qEq s)) (map (hIneq h) (qIneq s))
        (map (hGen h) (qGen s)) (map (hBound h) (qBound s)).

(** QPSolver::solveNoMbcUpdate, QPSolver.cpp:51-67 (timers and the message on cerr left out). *)
Definition solveNoMbcUpdate (num : numeric) (s : qpSolver) (h : heap) : res (bool * vec R) :=
  backendSolve num (qBack s) (collect s h).

(** rbd::MultiBodyConfig: alphaD (one list of values per joint) and everything else. *)
Record mbconfig (T : Type) := mkMbc { mbcAlphaD : list (list R); mbcOther : T }.
Arguments mkMbc {T} mbcAlphaD mbcOther.
Arguments mbcAlphaD {T} m.
Arguments mbcOther {T} m.

(** rbd::vectorToParam (RBDyn): fills the existing per-joint vectors in order. *)
Fixpoint fillJoint (e : list R) (v : vec R) (pos : nat) : res (list R) :=
  match e with
  | [] => Ok []
  | _ :: e' => do a <- vget_at v pos; do r <- fillJoint e' v (S pos); Ok (a :: r)
  end.
Fixpoint vectorToParam (es : list (list R)) (v : vec R) (pos : nat) : res (list (list R)) :=
  match es with
  | [] => Ok []
  | e :: es' => do e1 <- fillJoint e v pos; do r <- vectorToParam es' v (pos + length e); Ok (e1 :: r)
  end.

(** QPSolver::updateMbc, QPSolver.cpp:69-70. *)
Definition updateMbc {T} (d : solverData) (x : vec R) (m : mbconfig T) (r : nat) : res (mbconfig T) :=
  do s <- alphaDVecAt d x r;
  do a <- vectorToParam (mbcAlphaD m) s 0;
  Ok (mkMbc a (mbcOther m)).

(** Loop of QPSolver::postUpdate, QPSolver.cpp:336-347. *)
Fixpoint updateMbcs {T} (d : solverData) (x : vec R) (ms : list (mbconfig T)) (r : nat) : res (list (mbconfig T)) :=
  match ms with
  | [] => Ok []
  | m :: ms' => do m1 <- updateMbc d x m r; do rest <- updateMbcs d x ms' (S r); Ok (m1 :: rest)
  end.
Definition postUpdate {T} (d : solverData) (x : vec R) (ms : list (mbconfig T)) (success : bool) : res (list (mbconfig T)) :=
  if success then updateMbcs d x ms 0 else Ok ms.

(** QPSolver::solve, QPSolver.cpp:42-49: success flag, result vector and new configurations. *)
Definition solve {T} (num : numeric) (s : qpSolver) (h : heap) (ms : list (mbconfig T))
    : res (bool * vec R * list (mbconfig T)) :=
  do (ok, x) <- solveNoMbcUpdate num s h;
  do ms' <- postUpdate (qData s) x ms ok;
  Ok (ok, x, ms').

(* ------------------------------------------------------------------ *)
(** * Error reports *)

(** What errorMsg prints about one line: the constraint (kind and position in its list) and the
    local line. *)
Inductive report := RBound (b line : nat) | REq (c line : nat) | RIneq (c line : nat) | RGen (c line : nat).

Definition optList {A} (o : option A) : list A := match o with Some a => [a] | None => [] end.

(** The three constrErrorMsg calls for one line, LSSOLQPSolver.cpp:165-170. *)
Definition lineReport (g : registered) (i : nat) : list report :=
  let '(r1, s1, e1) := constrErrorMsg (map eqNr (rgEq g)) 0 i 0 0 in
  let '(r2, s2, e2) := constrErrorMsg (map iqNr (rgIneq g)) 0 i s1 e1 in
  let '(r3, _, _) := constrErrorMsg (map giNr (rgGen g)) 0 i s2 e2 in
  map (fun p => REq (fst p) (snd p)) (optList r1) ++
  map (fun p => RIneq (fst p) (snd p)) (optList r2) ++
  map (fun p => RGen (fst p) (snd p)) (optList r3).

(** Search of the bound constraint of variable i, LSSOLQPSolver.cpp:143-155. *)
Fixpoint boundReport (bs : list bound) (k i : nat) : list report :=
  match bs with
  | [] => []
  | b :: bs' => if ((bdBegin b <=? i) && (i <? bdBegin b + vlen (bdL b)))%nat
                then [RBound k (i - bdBegin b)] else boundReport bs' (S k) i
  end.

(** Rows of the member Q_ (the reduced matrix): it is only resized when there are dependencies
    (updateSize) or assigned (reduceQC); 0 in a solver that never had any. *)
Definition errNrVars (b : backend) : nat := bkRed b.

(** LSSOLQPSolver::errorMsg, LSSOLQPSolver.cpp:123-175: [istate] is the state vector of lssol, first
    the variables then the lines. The printed values (lines 152, 390 of GenQPUtils.h) are left out.
    QLDQPSolver::errorMsg prints nothing (QLDQPSolver.cpp:133-140). *)
Definition errorMsg (b : backend) (g : registered) (nrALines : nat) (istate : nat -> Z) : list report :=
  match bkKind b with
  | QLD => []
  | LSSOL =>
    flat_map (fun i => if (istate i <? 0)%Z then boundReport (rgBound g) 0 i else []) (seq 0 (errNrVars b)) ++
    flat_map (fun i => if (istate (i + errNrVars b)%nat <? 0)%Z then lineReport g i else []) (seq 0 nrALines)
  end.
