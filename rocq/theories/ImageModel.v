(** Model of ImageConstr (/repo/src/QPConstr.cpp:1047-1346, Tasks/QPConstr.h:781-918). *)
From Verif Require Export FillModel JacModel.
Open Scope list_scope.
Open Scope R_scope.

(** Eigen::Vector2d, and its element access for the indices 0 and 1. *)
Definition V2 := (R * R)%type.
Definition ax (v : V2) (i : nat) : R := match i with 0%nat => fst v | _ => snd v end.
(** External functions of RBDyn: imagePointJacobian (2x6), depthDotJacobian (1x6), imagePointJacobianDot (2x6). *)
Record imgFun := mkImg {
  imgJac : V2 -> R -> nat -> nat -> R;
  imgDepthDot : V2 -> R -> nat -> R;
  imgJacDot : V2 -> V2 -> R -> R -> nat -> nat -> R }.
(** External kinematics of the camera at one update: jacobian, velocity and normalAcceleration of jac_ at X_b_gaze_. *)
Record camKin := mkCam { cmJac : nat -> nat -> R; cmVel : nat -> R; cmNAcc : nat -> R }.

(** struct PointData, QPConstr.h:885-891; struct RobotPointData, QPConstr.h:892-900, of which update reads nothing: the name. *)
Record imPoint := mkIP { ipAt : V2; ipDepth : R }.
(** iDistMin_ ... constrDirection_, QPConstr.h:917-918. *)
Record imLim := mkLim { lIMin : V2; lIMax : V2; lSMin : V2; lSMax : V2; lDamp : R; lOff : R }.
(** Members, QPConstr.h:901-921. alphaDBegin_ is -1 before updateNrVars: [None]. The buffers L_img_ ... normalAcc_, jacMat_ are
    overwritten before they are read: local values. *)
Record imgConstr := mkIC {
  icPoints : list imPoint; icRob : list string; icRobot : nat; icPath : list nat; icBegin : option nat; icVars : nat;
  icStep : R; icNr : nat; icLim : imLim; icInv : R; icDir : R; icA : mat; icB : vec R }.

(** Constructor, cpp:1058-1078. *)
Definition newImage (nm : names) (mbs : list multibody) (robot : nat) (body : string) (step dir : R) : res imgConstr :=
  do _ <- vec_at mbs robot;
  do _ <- nBodyIndex nm robot body;
  do p <- nPath nm robot body;
  Ok (mkIC [] [] robot p None 0 step 0 (mkLim (0, 0) (0, 0) (0, 0) (0, 0) 0 0) 1 dir (mzero 0 0) (vfill 0 0)).
Definition with_points (c : imgConstr) (l : list imPoint) (rb : list string) : imgConstr :=
  mkIC l rb (icRobot c) (icPath c) (icBegin c) (icVars c) (icStep c) (icNr c) (icLim c) (icInv c) (icDir c) (icA c) (icB c).
(** addPoint, cpp:1131-1147: by image point and depth, by 3d point, and for a point of the robot. *)
Definition imAdd2 (p : V2) (depth : R) (c : imgConstr) : imgConstr * nat :=
  (with_points c (icPoints c ++ [mkIP p depth]) (icRob c), length (icPoints c)).
Definition project (p : V3) : res V2 :=
  do _ <- guard (negb (Reqb (vz p) 0)); Ok (vx p / vz p, vy p / vz p).
Definition imAdd3 (p : V3) (c : imgConstr) : res (imgConstr * nat) := do q <- project p; Ok (imAdd2 q (vz p) c).
Definition imAddRob (nm : names) (body : string) (c : imgConstr) : res imgConstr :=
  do _ <- nPath nm (icRobot c) body; Ok (with_points c (icPoints c) (icRob c ++ [body])).
(** reset, cpp:1149-1153. *)
Definition imReset (c : imgConstr) : imgConstr := with_points c [] [].
(** dataVec_[id] = p. *)
Fixpoint putAt {A} (i : nat) (f : A -> A) (l : list A) : res (list A) :=
  match l, i with [], _ => UB | a :: l', 0%nat => Ok (f a :: l') | a :: l', S i' => do l2 <- putAt i' f l'; Ok (a :: l2) end.
(** updatePoint, cpp:1155-1165. *)
Definition imMove (id : nat) (p : V2) (c : imgConstr) : res imgConstr :=
  do l <- putAt id (fun q => mkIP p (ipDepth q)) (icPoints c); Ok (with_points c l (icRob c)).
Definition imMove2 (id : nat) (p : V2) (depth : R) (c : imgConstr) : res imgConstr :=
  do l <- putAt id (fun _ => mkIP p depth) (icPoints c); Ok (with_points c l (icRob c)).
Definition imMove3 (id : nat) (p : V3) (c : imgConstr) : res imgConstr :=
  do q <- project p; imMove2 id q (vz p) c.
(** setLimits, cpp:1167-1183. *)
Definition v2lin (a : V2) (k : R) (b : V2) : V2 := (fst a + k * fst b, snd a + k * snd b).
Definition setLimits (mn mx : V2) (iP sP damping offP : R) (c : imgConstr) : imgConstr :=
  let dist := v2lin mx (- 1) mn in
  let dir := icDir c in
  mkIC (icPoints c) (icRob c) (icRobot c) (icPath c) (icBegin c) (icVars c) (icStep c) (icNr c)
    (mkLim (v2lin mn (dir * iP) dist) (v2lin mx (- (dir * iP)) dist) (v2lin mn (dir * sP) dist) (v2lin mx (- (dir * sP)) dist) damping (dir * offP * damping))
    (icInv c) dir (icA c) (icB c).
(** updateNrVars, cpp:1219-1226; maxInEq, cpp:1339-1340. *)
Definition imMax (c : imgConstr) : nat := (2 * (length (icPoints c) + length (icRob c)))%nat.
Definition imNrVars (d : solverData) (c : imgConstr) : res imgConstr :=
  do b <- alphaDBegin d (icRobot c);
  Ok (mkIC (icPoints c) (icRob c) (icRobot c) (icPath c) (Some b) (sdNrVars d) (icStep c) (icNr c) (icLim c) (icInv c) (icDir c)
           (mzero (imMax c) (sdNrVars d)) (vfill (imMax c) 0)).

(** computeComponents, cpp:1185-1217: fullJacobian and bCommonTerm. accelFactor_ = step * step / 2. *)
Definition imSpeed (F : imgFun) (K : camKin) (p : V2) (depth : R) : V2 :=
  let row m := sumn 6 (fun q => imgJac F p depth m q * cmVel K q) in (row 0%nat, row 1%nat).
Definition imNAcc (F : imgFun) (K : camKin) (p : V2) (depth : R) : V2 :=
  let speed := imSpeed F K p depth in
  let depthDot := sumn 6 (fun q => imgDepthDot F speed depth q * cmVel K q) in
  let row m := sumn 6 (fun q => imgJac F p depth m q * cmNAcc K q) + sumn 6 (fun q => imgJacDot F p speed depth depthDot m q * cmVel K q) in
  (row 0%nat, row 1%nat).
Definition components (F : imgFun) (K : camKin) (mb : multibody) (path : list nat) (step : R) (p : V2) (depth : R) : res (mat * V2) :=
  let accel := 5 / 10 * step * step in
  let short := mkMat 2 (pathDof mb path) (fun m c => sumn 6 (fun q => accel * imgJac F p depth m q * cmJac K q c)) in
  do full <- fullJacobian mb path short (mzero 2 (nrDof mb));
  Ok (full, v2lin (v2lin (0, 0) (- step) (imSpeed F K p depth)) (- accel) (imNAcc F K p depth)).

(** cpp:1249-1294: whether the row is needed, ineqInversion_ and bInEq_. *)
Definition imCheck (lim : imLim) (dir : R) (p bc : V2) (i nr : nat) (inv : R) (B : vec R) : res (bool * R * vec R) :=
  let o := if Nat.eqb i 0 then 1%nat else 0%nat in
  if Reqb dir 1 || (Rltb (ax (lIMin lim) o) (ax p o) && Rltb (ax p o) (ax (lIMax lim) o)) then
    if Rltb (dir * ax p i) (dir * ax (lIMin lim) i) && (Reqb dir 1 || Rltb (ax p i) 0) then
      if Rltb (dir * ax (lSMin lim) i) (dir * ax p i) then
        let inv' := - 1 * dir in
        do B' <- vput B nr (dir * (lDamp lim * ((ax p i - ax (lSMin lim) i) / (ax (lIMin lim) i - ax (lSMin lim) i)) - lOff lim) + inv' * ax bc i);
        Ok (true, inv', B')
      else do B' <- vput B nr (- dir * lOff lim + inv * ax bc i); Ok (false, inv, B')
    else if Rltb (dir * ax (lIMax lim) i) (dir * ax p i) && (Reqb dir 1 || Rltb 0 (ax p i)) then
      if Rltb (dir * ax p i) (dir * ax (lSMax lim) i) then
        let inv' := 1 * dir in
        do B' <- vput B nr (dir * (lDamp lim * ((ax p i - ax (lSMax lim) i) / (ax (lIMax lim) i - ax (lSMax lim) i)) - lOff lim) + inv' * ax bc i);
        Ok (true, inv', B')
      else do B' <- vput B nr (- dir * lOff lim + inv * ax bc i); Ok (false, inv, B')
    else Ok (false, inv, B)
  else Ok (false, inv, B).
(** Loop over x and y, cpp:1247-1303. *)
Fixpoint imAxes (lim : imLim) (dir : R) (mb : multibody) (beg : option nat) (p : V2) (full : mat) (bc : V2) (axes : list nat) (nr : nat) (inv : R) (A : mat) (B : vec R)
    : res (nat * R * mat * vec R) :=
  match axes with
  | [] => Ok (nr, inv, A, B)
  | i :: axes' =>
    do (act, inv', B') <- imCheck lim dir p bc i nr inv B;
    if (act : bool) then
      do b <- (match beg with Some b => Ok b | None => UB end);
      do A' <- mset_block A nr b (mkMat 1 (nrDof mb) (fun _ j => inv' * mget full i j));
      imAxes lim dir mb beg p full bc axes' (S nr) inv' A' B'
    else imAxes lim dir mb beg p full bc axes' nr inv' A B'
  end.
(** Loop over the points, cpp:1238-1304. *)
Fixpoint imPoints (F : imgFun) (K : camKin) (lim : imLim) (dir step : R) (mb : multibody) (path : list nat) (beg : option nat) (l : list imPoint) (nr : nat) (inv : R)
    (A : mat) (B : vec R) : res (nat * R * mat * vec R) :=
  match l with
  | [] => Ok (nr, inv, A, B)
  | p :: l' =>
    do (full, bc) <- components F K mb path step (ipAt p) (ipDepth p);
    do (nr', inv', A', B') <- imAxes lim dir mb beg (ipAt p) full bc [0%nat; 1%nat] nr inv A B;
    imPoints F K lim dir step mb path beg l' nr' inv' A' B'
  end.
(** update, cpp:1228-1305. *)
Definition imUpdate (F : imgFun) (mbs : list multibody) (K : camKin) (c : imgConstr) : res imgConstr :=
  do mb <- vec_at mbs (icRobot c);
  do (nr, inv, A, B) <- imPoints F K (icLim c) (icDir c) (icStep c) mb (icPath c) (icBegin c) (icPoints c) 0 (icInv c) (icA c) (icB c);
  Ok (mkIC (icPoints c) (icRob c) (icRobot c) (icPath c) (icBegin c) (icVars c) (icStep c) nr (icLim c) inv (icDir c) A B).
(** descInEq, cpp:1310-1334: number of the point, axis, and location. The empty string is [None]. *)
Fixpoint imDescLoop (line cur i : nat) (l : list imPoint) : option (nat * nat * V2) :=
  match l with
  | [] => None
  | p :: l' =>
    if Nat.eqb cur line then Some (i, 0%nat, ipAt p)
    else if Nat.eqb (S cur) line then Some (i, 1%nat, ipAt p)
    else imDescLoop line (S (S cur)) (S i) l'
  end.
Definition imDesc (c : imgConstr) (line : nat) : option (nat * nat * V2) := imDescLoop line 0 0 (icPoints c).
(** nrInEq, maxInEq, AInEq, bInEq, cpp:1336-1346. *)
Definition imInEq (c : imgConstr) : inequality := mkIneq (imMax c) (icNr c) (icA c) (vmap Fin (icB c)).
