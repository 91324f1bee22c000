(** Model of BoundedSpeedConstr (/repo/src/QPConstr.cpp:917-1045, Tasks/QPConstr.h:649-779). *)
From Verif Require Export FillModel JacModel.
Open Scope list_scope.
Open Scope R_scope.

(** External kinematics (RBDyn) of the robot at one update: for the rbd::Jacobian with the given path and point, the entries
    of bodyJacobian, and the 6-vectors bodyVelocity and bodyNormalAcceleration (angular part first). *)
Record bkin := mkBK { bkJac : list nat -> V3 -> nat -> nat -> R; bkVel : list nat -> V3 -> nat -> R; bkNAcc : list nat -> V3 -> nat -> R }.
(** Arguments of addBoundedSpeed, QPConstr.h:704-709. *)
Record speedSpec := mkSpd { spBody : string; spPoint : V3; spDof : mat; spL : vec R; spU : vec R }.
(** addBoundedSpeed with one speed, cpp:928-933. *)
Definition fixedSpeed (body : string) (point : V3) (S : mat) (v : vec R) : speedSpec := mkSpd body point S v v.
(** struct BoundedSpeedData, QPConstr.h:746-763: the arguments and jac.jointsPath(). *)
Record speedData := mkSD_ { sdSpec : speedSpec; sdPath : list nat }.
(** Members, QPConstr.h:769-778. alphaDBegin_ has no value before updateNrVars: [None]. fullJac_ is overwritten before it is read in
    every turn of the loop of update and is a local value there. *)
Record speedConstr := mkSC {
  scRobot : nat; scBegin : option nat; scData : list speedData; scA : mat; scL : vec R; scU : vec R; scVars : nat; scStep : R }.

(** Constructor, cpp:921-926. *)
Definition newSpeed (mbs : list multibody) (robot : nat) (step : R) : res speedConstr :=
  do _ <- vec_at mbs robot;
  Ok (mkSC robot None [] (mzero 0 0) (vfill 0 0) (vfill 0 0) 0 step).
Definition with_speeds (c : speedConstr) (l : list speedData) : speedConstr :=
  mkSC (scRobot c) (scBegin c) l (scA c) (scL c) (scU c) (scVars c) (scStep c).
(** addBoundedSpeed, cpp:935-944, with the constructor of BoundedSpeedData (jointsPath().back() needs a path that is not empty). *)
Definition addSpeed (nm : names) (s : speedSpec) (c : speedConstr) : res speedConstr :=
  do p <- nPath nm (scRobot c) (spBody s);
  do _ <- guard (negb (Nat.eqb (length p) 0));
  Ok (with_speeds c (scData c ++ [mkSD_ s p])).
(** removeBoundedSpeed, cpp:946-958. *)
Fixpoint eraseSpeed (body : string) (l : list speedData) : list speedData * bool :=
  match l with
  | [] => ([], false)
  | e :: l' => if String.eqb (spBody (sdSpec e)) body then (l', true) else let (l2, b) := eraseSpeed body l' in (e :: l2, b)
  end.
Definition removeSpeed (body : string) (c : speedConstr) : speedConstr * bool :=
  let (l, b) := eraseSpeed body (scData c) in (with_speeds c l, b).
(** resetBoundedSpeeds, nrBoundedSpeeds, cpp:960-964. *)
Definition resetSpeeds (c : speedConstr) : speedConstr := with_speeds c [].
Definition nrSpeeds (c : speedConstr) : nat := length (scData c).
(** updateNrEq, cpp:1036-1044. *)
Definition spRows (e : speedData) : nat := mrows (spDof (sdSpec e)).
Definition updateNrEq (c : speedConstr) : speedConstr :=
  let n := sumnat (map spRows (scData c)) in
  mkSC (scRobot c) (scBegin c) (scData c) (mzero n (scVars c)) (vfill n 0) (vfill n 0) (scVars c) (scStep c).
(** updateBoundedSpeeds, cpp:966-967. *)
Definition updateSpeeds (c : speedConstr) : speedConstr := updateNrEq c.
(** updateNrVars, cpp:969-974. *)
Definition speedNrVars (d : solverData) (c : speedConstr) : res speedConstr :=
  do b <- alphaDBegin d (scRobot c);
  Ok (updateNrEq (mkSC (scRobot c) (Some b) (scData c) (scA c) (scL c) (scU c) (sdNrVars d) (scStep c))).

(** Loop of update, cpp:990-1012. dof * fullJac_ and dof * (6-vector) need six columns, the sum with the bounds needs their sizes to
    agree, and the division needs a time step that is not zero. *)
Fixpoint speedLoop (mb : multibody) (K : bkin) (beg : option nat) (step : R) (l : list speedData) (index : nat) (A : mat) (L U : vec R)
    : res (mat * vec R * vec R) :=
  match l with
  | [] => Ok (A, L, U)
  | e :: l' =>
    let s := sdSpec e in
    let rows := spRows e in
    do full <- fullJacobian mb (sdPath e) (mkMat 6 (pathDof mb (sdPath e)) (bkJac K (sdPath e) (spPoint s))) (mzero 6 (nrDof mb));
    do blk <- mmul (spDof s) full;
    do b <- (match beg with Some b => Ok b | None => UB end);
    do A' <- mset_block A index b blk;
    do _ <- guard (negb (Reqb step 0));
    do low <- mvec (spDof s) (mkVec 6 (fun q => - bkNAcc K (sdPath e) (spPoint s) q - bkVel K (sdPath e) (spPoint s) q / step));
    do L1 <- vset_seg L index low;
    do seg <- vseg L1 index rows;
    do U1 <- vset_seg U index seg;
    do _ <- guard (Nat.eqb (vlen (spL s)) rows && Nat.eqb (vlen (spU s)) rows);
    do L2 <- vadd_seg L1 index (mkVec rows (fun i => vget (spL s) i / step));
    do U2 <- vadd_seg U1 index (mkVec rows (fun i => vget (spU s) i / step));
    speedLoop mb K beg step l' (index + rows)%nat A' L2 U2
  end.
(** update, cpp:976-1013. *)
Definition speedUpdate (mbs : list multibody) (K : bkin) (c : speedConstr) : res speedConstr :=
  do mb <- vec_at mbs (scRobot c);
  do (A, L, U) <- speedLoop mb K (scBegin c) (scStep c) (scData c) 0 (scA c) (scL c) (scU c);
  Ok (mkSC (scRobot c) (scBegin c) (scData c) A L U (scVars c) (scStep c)).
(** descGenInEq, cpp:1018-1027: "Body: " followed by the name, as the name. The empty string is [None]. *)
Fixpoint speedDescLoop (nm : names) (r line cur : nat) (l : list speedData) : option string :=
  match l with
  | [] => None
  | e :: l' => if Nat.ltb line (cur + spRows e) then Some (nBodyName nm r (last (sdPath e) 0%nat)) else speedDescLoop nm r line (cur + spRows e) l'
  end.
Definition speedDesc (nm : names) (c : speedConstr) (line : nat) : option string := speedDescLoop nm (scRobot c) line 0 (scData c).
(** maxGenInEq, AGenInEq, LowerGenInEq, UpperGenInEq, cpp:1025-1034; nrGenInEq is maxGenInEq (QPSolver.h, class GenInequality). *)
Definition speedGen (c : speedConstr) : geninequality :=
  mkGen (mrows (scA c)) (mrows (scA c)) (scA c) (vmap Fin (scL c)) (vmap Fin (scU c)).
