(** Model of the posture task: tasks::PostureTask (/repo/src/Tasks.cpp:686-742, "low") and tasks::qp::PostureTask
    (/repo/src/QPTasks.cpp:656-752, /repo/src/Tasks/QPTasks.h:410-487). Lines without a file are lines of QPTasks.cpp.
    Simplifications: rbd::Joint::Free is the joint type with six dofs (no other RBDyn type has six); jacDot is not modelled; getters are the
    projections of the records. *)
From Verif Require Export SetPointModel LimitsModel.
Open Scope list_scope.
Open Scope R_scope.

(** What update reads of an rbd::MultiBodyConfig: q, alpha, and sva::rotationError(jointConfig[i].rotation(), Quaterniond(w, x, y, z).matrix()),
    an arbitrary function of the joint and the quaternion. *)
Record pcfg := mkPCfg { pfQ : list (list R); pfAlpha : list (list R); pfRot : nat -> R -> R -> R -> R -> V3 }.

(** Members of tasks::PostureTask, Tasks.h. *)
Record lowPosture := mkLP { lpQ : list (list R); lpEval : vec R; lpJac : mat }.
Definition isFree (j : joint) : bool := Nat.eqb (jdof j) 6.
(** Constructor, Tasks.cpp:686-697. *)
Definition newLP (mb : multibody) (q : list (list R)) : lowPosture :=
  let n := nrDof mb in
  let free := match joints mb with j :: _ => Nat.ltb 0 n && isFree j | [] => false end in
  mkLP q (vfill n 0) (mkMat n n (fun i j => if Nat.eqb i j then (if free && Nat.ltb i 6 then 0 else 1) else 0)).
(** v[i][k]. *)
Definition qat (v : list (list R)) (i k : nat) : res R := do l <- vec_at v i; vec_at l k.
(** The loop of update, Tasks.cpp:712-730: [js] are the joints from number [i] on. *)
Fixpoint lpLoop (K : pcfg) (q : list (list R)) (js : list joint) (i pos : nat) (eval : vec R) : res (vec R) :=
  match js with
  | [] => Ok eval
  | j :: js' =>
    if Nat.eqb (jdof j) 1 then
      do a <- qat q i 0; do b <- qat (pfQ K) i 0;
      do eval' <- vput eval pos (a - b);
      lpLoop K q js' (S i) (S pos) eval'
    else if Nat.eqb (jdof j) 3 then
      do w <- qat q i 0; do x <- qat q i 1; do y <- qat q i 2; do z <- qat q i 3;
      let err := pfRot K i w x y z in
      do eval' <- vset_seg eval pos (mkVec 3 (fun m => match m with 0%nat => vx err | 1%nat => vy err | _ => vz err end));
      lpLoop K q js' (S i) (pos + 3) eval'
    else lpLoop K q js' (S i) pos eval
  end.
(** mb.jointPosInDof(1): an unchecked vector access, undefined if the robot has one joint only. *)
Definition posOf1 (mb : multibody) : res nat := do _ <- guard (Nat.ltb 1 (length (joints mb))); Ok (jointPosInDof mb 1).
(** update, Tasks.cpp:705-731. *)
Definition lpUpdate (mb : multibody) (K : pcfg) (p : lowPosture) : res lowPosture :=
  do pos <- posOf1 mb;
  do e <- lpLoop K (lpQ p) (tl (joints mb)) 1 pos (lpEval p);
  Ok (mkLP (lpQ p) e (lpJac p)).

(** struct JointData, QPTasks.h:465-469: stiffness, damping, start, size. *)
Record jdata := mkJD { jdK : R; jdD : R; jdStart : nat; jdSize : nat }.
(** Members, QPTasks.h:471-486. *)
Record posture := mkPost {
  poWeight : R; poLow : lowPosture; poK : R; poD : R; poRobot : nat; poBegin : nat; poJD : list jdata;
  poQ : mat; poC : vec R; poAlpha : vec R; poRV : vec R; poRA : vec R; poW : vec R }.
(** Constructor, lines 656-669. Q_, C_ and alphaVec_ are not initialised by the code; here zero. *)
Definition newPost (mbs : list multibody) (r : nat) (q : list (list R)) (k weight : R) : res posture :=
  do mb <- vec_at mbs r;
  do d <- twoSqrt k;
  let n := nrDof mb in
  Ok (mkPost weight (newLP mb q) k d r 0 [] (mzero n n) (vfill n 0) (vfill n 0) (vfill n 0) (vfill n 0) (ones n)).
(** jointsStiffness, lines 689-702; jointsGains, lines 704-716: the entry of one joint. *)
Definition jointData (mb : multibody) (nm : string) (k d : R) : res jdata :=
  do i <- jointIndexByName mb nm; do j <- vec_at (joints mb) i; Ok (mkJD k d (jointPosInDof mb i) (jdof j)).
Fixpoint jointsK (mb : multibody) (l : list (string * R)) : res (list jdata) :=
  match l with [] => Ok [] | (nm, k) :: l' => do d <- twoSqrt k; do e <- jointData mb nm k d; do es <- jointsK mb l'; Ok (e :: es) end.
Fixpoint jointsG (mb : multibody) (l : list (string * (R * R))) : res (list jdata) :=
  match l with [] => Ok [] | (nm, (k, d)) :: l' => do e <- jointData mb nm k d; do es <- jointsG mb l'; Ok (e :: es) end.
(** C.segment(s, n) = -k eval.segment(s, n) + d (alpha.segment(s, n) - refVel.segment(s, n)) - refAccel.segment(s, n): lines 737-739, 743-746. *)
Definition poSeg (k d : R) (s n : nat) (ev al rv ra C : vec R) : res (vec R) :=
  do e <- vseg ev s n; do a <- vseg al s n; do v <- vseg rv s n; do u <- vseg ra s n;
  vset_seg C s (mkVec n (fun i => - k * vget e i + d * (vget a i - vget v i) - vget u i)).
(** The loop over jointDatas_, lines 741-747. *)
Fixpoint poSegs (l : list jdata) (ev al rv ra C : vec R) : res (vec R) :=
  match l with [] => Ok C | j :: l' => do C' <- poSeg (jdK j) (jdD j) (jdStart j) (jdSize j) ev al rv ra C; poSegs l' ev al rv ra C' end.
(** update, lines 721-749. *)
Definition poUpdate (mbs : list multibody) (K : pcfg) (t : posture) : res posture :=
  do mb <- vec_at mbs (poRobot t);
  do low <- lpUpdate mb K (poLow t);
  do al <- paramTo (pfAlpha K) (poAlpha t);
  do Q <- diagm (poW t) (lpJac low);
  do deb <- posOf1 mb;
  let num := (nrDof mb - deb)%nat in
  do C1 <- poSeg (poK t) (poD t) deb num (lpEval low) al (poRV t) (poRA t) (vfill (vlen (poC t)) 0);
  do C2 <- poSegs (poJD t) (lpEval low) al (poRV t) (poRA t) C1;
  do C <- diagv (poW t) C2;
  Ok (mkPost (poWeight t) low (poK t) (poD t) (poRobot t) (poBegin t) (poJD t) Q C al (poRV t) (poRA t) (poW t)).
(** What the solver reads: weight(), begin() (QPTasks.h:436), Q(), C(). *)
Definition postTask (t : posture) : task := mkTask (poWeight t) (poBegin t, poBegin t) (poQ t) (poC t).

Definition withLow (l : lowPosture) (t : posture) : posture :=
  mkPost (poWeight t) l (poK t) (poD t) (poRobot t) (poBegin t) (poJD t) (poQ t) (poC t) (poAlpha t) (poRV t) (poRA t) (poW t).
Definition withGains (k d : R) (t : posture) : posture :=
  mkPost (poWeight t) (poLow t) k d (poRobot t) (poBegin t) (poJD t) (poQ t) (poC t) (poAlpha t) (poRV t) (poRA t) (poW t).
Definition withJD (l : list jdata) (t : posture) : posture :=
  mkPost (poWeight t) (poLow t) (poK t) (poD t) (poRobot t) (poBegin t) l (poQ t) (poC t) (poAlpha t) (poRV t) (poRA t) (poW t).
(** The public operations: posture (Tasks.cpp:699-700), stiffness and gains (lines 671-687), jointsStiffness, jointsGains, refVel, refAccel,
    dimWeight (QPTasks.h:448-463; the last two assert the size), weight, updateNrVars (lines 718-719), update. *)
Inductive poOp := PoPosture (q : list (list R)) | PoStiffness (k : R) | PoGains (k d : R) | PoJointsK (l : list (string * R)) | PoJointsG (l : list (string * (R * R)))
  | PoRefVel (v : vec R) | PoRefAccel (a : vec R) | PoDim (W : vec R) | PoWeight (w : R) | PoNrVars (d : solverData) | PoUpdate (K : pcfg).
Definition poStep (mbs : list multibody) (t : posture) (o : poOp) : res posture :=
  match o with
  | PoPosture q => Ok (withLow (mkLP q (lpEval (poLow t)) (lpJac (poLow t))) t)
  | PoStiffness k => do d <- twoSqrt k; Ok (withGains k d t)
  | PoGains k d => Ok (withGains k d t)
  | PoJointsK l => do mb <- vec_at mbs (poRobot t); do es <- jointsK mb l; Ok (withJD es t)
  | PoJointsG l => do mb <- vec_at mbs (poRobot t); do es <- jointsG mb l; Ok (withJD es t)
  | PoRefVel v => Ok (mkPost (poWeight t) (poLow t) (poK t) (poD t) (poRobot t) (poBegin t) (poJD t) (poQ t) (poC t) (poAlpha t) v (poRA t) (poW t))
  | PoRefAccel a => do _ <- vsame a (poRA t);
      Ok (mkPost (poWeight t) (poLow t) (poK t) (poD t) (poRobot t) (poBegin t) (poJD t) (poQ t) (poC t) (poAlpha t) (poRV t) a (poW t))
  | PoDim W => do _ <- vsame W (poW t);
      Ok (mkPost (poWeight t) (poLow t) (poK t) (poD t) (poRobot t) (poBegin t) (poJD t) (poQ t) (poC t) (poAlpha t) (poRV t) (poRA t) W)
  | PoWeight w => Ok (mkPost w (poLow t) (poK t) (poD t) (poRobot t) (poBegin t) (poJD t) (poQ t) (poC t) (poAlpha t) (poRV t) (poRA t) (poW t))
  | PoNrVars d => do b <- alphaDBegin d (poRobot t);
      Ok (mkPost (poWeight t) (poLow t) (poK t) (poD t) (poRobot t) b (poJD t) (poQ t) (poC t) (poAlpha t) (poRV t) (poRA t) (poW t))
  | PoUpdate K => poUpdate mbs K t
  end.
Fixpoint poRun (mbs : list multibody) (ops : list poOp) (t : posture) : res posture :=
  match ops with [] => Ok t | o :: ops' => do t' <- poStep mbs t o; poRun mbs ops' t' end.
