(** Model of the variable layout: QPSolver::nrVars (/repo/src/QPSolver.cpp:85-168),
    SolverData accessors (/repo/src/Tasks/QPSolverData.h) and the result accessors of QPSolver. *)
From Verif Require Export ContactModel.

(** What the library reads of an rbd::Joint. [jparams] is the number of position parameters
    (1-dof joint: 1, spherical: 4, free: 7). [jmimic] is (mimicName, mimicMultiplier). *)
Record joint := mkJoint { jname : string; jdof : nat; jparams : nat; jmimic : option (string * R) }.

(** What the library reads of an rbd::MultiBody: its joints in order. RBDyn (not part of the
    repository) defines nrDof() as the sum of the joints' dof, jointPosInDof(i) as the sum of the
    dof of the joints before i, and jointIndexByName by map lookup: dereferencing the end iterator
    for an unknown name is undefined behaviour. Names are assumed unique (MultiBodyGraph ensures it). *)
Record multibody := mkMB { joints : list joint }.
Definition nrDof (mb : multibody) : nat := sumnat (map jdof (joints mb)).
Definition nrParams (mb : multibody) : nat := sumnat (map jparams (joints mb)).
Definition jointPosInDof (mb : multibody) (i : nat) : nat := sumnat (map jdof (firstn i (joints mb))).
Definition jointPosInParam (mb : multibody) (i : nat) : nat := sumnat (map jparams (firstn i (joints mb))).
Fixpoint indexByName (js : list joint) (nm : string) : res nat :=
  match js with
  | [] => UB
  | j :: js' => if String.eqb (jname j) nm then Ok 0%nat
                else do k <- indexByName js' nm; Ok (S k)
  end.
Definition jointIndexByName (mb : multibody) (nm : string) : res nat := indexByName (joints mb) nm.

(** Tuple (leader, replica, multiplier) of QPSolver.cpp:89, 119-121. *)
Definition dep := (nat * nat * R)%type.

(** Inner loop over the joints of a robot, QPSolver.cpp:115-123. *)
Fixpoint mimicDeps (mb : multibody) (begin : nat) (js : list joint) : res (list dep) :=
  match js with
  | [] => Ok []
  | j :: js' =>
    match jmimic j with
    | None => mimicDeps mb begin js'
    | Some (leader, mult) =>
      do il <- jointIndexByName mb leader;
      do ir <- jointIndexByName mb (jname j);
      do ds <- mimicDeps mb begin js';
      Ok ((begin + jointPosInDof mb il, begin + jointPosInDof mb ir, mult)%nat :: ds)
    end
  end.

(** Loop over the robots, QPSolver.cpp:104-126: returns alphaD_, alphaDBegin_, mobileRobotIndex_,
    the dependencies and the final cumAlphaD. *)
Record robotLayout := mkRL {
  rlAlphaD : list nat; rlBegin : list nat; rlMobile : list nat; rlDeps : list dep; rlTotal : nat }.
Fixpoint robotLoop (mbs : list multibody) (r cum : nat) : res robotLayout :=
  match mbs with
  | [] => Ok (mkRL [] [] [] [] cum)
  | mb :: mbs' =>
    do ds <- (if (0 <? nrDof mb)%nat then mimicDeps mb cum (joints mb) else Ok []);
    do rl <- robotLoop mbs' (S r) (cum + nrDof mb);
    Ok (mkRL (nrDof mb :: rlAlphaD rl) (cum :: rlBegin rl)
             (if (0 <? nrDof mb)%nat then r :: rlMobile rl else rlMobile rl)
             (ds ++ rlDeps rl) (rlTotal rl))
  end.

(** Loops over the contacts, QPSolver.cpp:128-142 and 146-156: returns lambda_, lambdaBegin_ and
    the final cumLambda. [nr] is the sum over the points of nrLambda(p). *)
Fixpoint contactLoop {C} (nr : C -> res nat) (cs : list C) (cum : nat) : res (list nat * list nat * nat) :=
  match cs with
  | [] => Ok ([], [], cum)
  | c :: cs' =>
    do l <- nr c;
    do (ls, bs, tot) <- contactLoop nr cs' (cum + l)%nat;
    Ok (l :: ls, cum :: bs, tot)
  end.

(** SolverData, Tasks/QPSolverData.h:74-89 (normalAccB_ is modelled separately). *)
Record solverData := mkSD {
  sdAlphaD : list nat; sdAlphaDBegin : list nat;
  sdLambda : list nat; sdLambdaBegin : list nat;
  sdTotalAlphaD : nat; sdTotalLambda : nat; sdNrUniLambda : nat; sdNrBiLambda : nat; sdNrVars : nat;
  sdUni : list unilateral; sdBi : list bilateral; sdAll : list bilateral; sdMobile : list nat }.

(** SolverData::SolverData, QPSolverData.cpp:19-23. *)
Definition initData : solverData := mkSD [] [] [] [] 0 0 0 0 0 [] [] [] [].

(** QPSolver::nrVars up to the update of tasks and constraints, QPSolver.cpp:85-160. The vectors
    lambda_ and lambdaBegin_ are resized to nrContacts and filled in order (cIndex): the model
    returns them as the concatenation of the unilateral and the bilateral part. *)
Definition nrVarsData (mbs : list multibody) (uni : list unilateral) (bi : list bilateral)
    : res (solverData * list dep) :=
  do rl <- robotLoop mbs 0 0;
  let cumAlphaD := rlTotal rl in
  do (lu, bu, cumU) <- contactLoop uNrLambda uni cumAlphaD;
  let nrUni := (cumU - cumAlphaD)%nat in
  do (lb, bb, cumB) <- contactLoop bNrLambda bi cumU;
  let nrBi := (cumB - nrUni - cumAlphaD)%nat in
  let totalLambda := (nrUni + nrBi)%nat in
  Ok (mkSD (rlAlphaD rl) (rlBegin rl) (lu ++ lb) (bu ++ bb) cumAlphaD totalLambda nrUni nrBi
           (cumAlphaD + totalLambda) uni bi (map biOfUni uni ++ bi) (rlMobile rl),
      rlDeps rl).

(** SolverData accessors, Tasks/QPSolverData.h:40-60. *)
Definition alphaD (d : solverData) (r : nat) : res nat := vec_at (sdAlphaD d) r.
Definition alphaDBegin (d : solverData) (r : nat) : res nat := vec_at (sdAlphaDBegin d) r.
Definition lambda (d : solverData) (c : nat) : res nat := vec_at (sdLambda d) c.
Definition lambdaBeginAt (d : solverData) (c : nat) : res nat := vec_at (sdLambdaBegin d) c.
Definition lambdaBegin (d : solverData) : nat := sdTotalAlphaD d.
Definition unilateralBegin (d : solverData) : nat := lambdaBegin d.
Definition bilateralBegin (d : solverData) : nat := (unilateralBegin d + sdNrUniLambda d)%nat.
Definition nrContacts (d : solverData) : nat := (length (sdUni d) + length (sdBi d))%nat.

(** QPSolver::alphaDVec(), alphaDVec(r), lambdaVec(), lambdaVec(c), QPSolver.cpp:294-304,
    as functions of the back end's result vector. *)
Definition alphaDVec (d : solverData) (x : vec R) : res (vec R) := vhead x (sdTotalAlphaD d).
Definition alphaDVecAt (d : solverData) (x : vec R) (r : nat) : res (vec R) :=
  do b <- alphaDBegin d r; do n <- alphaD d r; vseg x b n.
Definition lambdaVec (d : solverData) (x : vec R) : res (vec R) :=
  vseg x (lambdaBegin d) (sdTotalLambda d).
Definition lambdaVecAt (d : solverData) (x : vec R) (c : nat) : res (vec R) :=
  do b <- lambdaBeginAt d c; do n <- lambda d c; vseg x b n.

(** QPSolver::contactLambdaPosition, QPSolver.cpp:306-318. *)
Fixpoint positionLoop (cs : list bilateral) (cid : contactId) (pos : nat) : res Z :=
  match cs with
  | [] => Ok (-1)%Z
  | c :: cs' => if cid_eqb (bId c) cid then Ok (Z.of_nat pos)
                else do l <- bNrLambda c; positionLoop cs' cid (pos + l)
  end.
Definition contactLambdaPosition (d : solverData) (cid : contactId) : res Z :=
  positionLoop (sdAll d) cid 0.
