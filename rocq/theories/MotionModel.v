(** Model of /repo/src/QPMotionConstr.cpp and /repo/src/Tasks/QPMotionConstr.h. *)
From Verif Require Export FillModel JacModel.
Open Scope list_scope.
Open Scope R_scope.

(* ------------------------------------------------------------------ *)
(** * PositiveLambda *)

(** struct PositiveLambda::ContactData, QPMotionConstr.h:56-60. *)
Record plCont := mkPLC { plId : contactId; plBegin : nat; plNr : nat }.
(** PositiveLambda, QPMotionConstr.h:62-66; lambdaBegin_ is -1 before updateNrVars (cpp:31). *)
Record positiveLambda := mkPL { plLam : Z; plXL : vec ext; plXU : vec ext; plCont_ : list plCont }.
Definition newPL : positiveLambda := mkPL (-1) (vfill 0 NInf) (vfill 0 PInf) [].
(** Loop of updateNrVars, cpp:42-45. *)
Fixpoint plLoop (d : solverData) (cs : list bilateral) (i : nat) : res (list plCont) :=
  match cs with
  | [] => Ok []
  | c :: cs' =>
    do b <- lambdaBeginAt d i;
    do n <- bNrLambda c;
    do l <- plLoop d cs' (S i);
    Ok (mkPLC (bId c) b n :: l)
  end.
(** PositiveLambda::updateNrVars, cpp:33-46. update (cpp:48-52) does nothing. *)
Definition plNrVars (d : solverData) : res positiveLambda :=
  do l <- plLoop d (sdAll d) 0;
  Ok (mkPL (Z.of_nat (lambdaBegin d)) (vfill (sdTotalLambda d) (Fin 0)) (vfill (sdTotalLambda d) PInf) l).
(** beginVar, Lower, Upper, cpp:77-84, as read by the solver. *)
Definition plBound (p : positiveLambda) : res FillModel.bound :=
  do b <- zidx (plLam p); Ok (mkBound b (plXL p) (plXU p)).
(** descBound, cpp:57-75: names of the two bodies, nothing when no contact matches. *)
Fixpoint plFind (lam : Z) (cs : list plCont) (line : nat) : option (string * string) :=
  match cs with
  | [] => None
  | c :: cs' =>
    let b := (Z.of_nat (plBegin c) - lam)%Z in
    if ((b <=? Z.of_nat line) && (Z.of_nat line <? b + Z.of_nat (plNr c)))%Z
    then Some (r1Body (plId c), r2Body (plId c)) else plFind lam cs' line
  end.
Definition plDesc (p : positiveLambda) (line : nat) : option (string * string) := plFind (plLam p) (plCont_ p) line.

(* ------------------------------------------------------------------ *)
(** * MotionConstrCommon *)

(** External dynamics and configuration of robot number r: inertia matrix fd_.H(), bias fd_.C() computed by
    computeH and computeC; column c of bodyJacobian() of the Jacobian with the given path (angular, linear);
    mbc.q and mbc.alpha. *)
Record dyn := mkDyn {
  dH : nat -> nat -> nat -> R; dC : nat -> nat -> R; dBJ : nat -> list nat -> nat -> Spatial;
  dQ : nat -> list (list R); dAlpha : nat -> list (list R) }.

(** struct MotionConstrCommon::ContactData, QPMotionConstr.h:104-122. bodyIndex is not read. [msMinus] are
    the columns of minusGenerators. *)
Record mside := mkMS { msLam : nat; msPath : list nat; msPts : list V3; msMinus : list (list V3) }.
(** Members of MotionConstrCommon, QPMotionConstr.h:125-136. *)
Record mconstr := mkMC {
  mcRobot : nat; mcABegin : Z; mcN : nat; mcLBegin : Z; mcH : mat; mcC : vec R;
  mcFull : mat; mcJT : mat; mcJL : mat; mcSides : list mside; mcCur : vec R;
  mcA : mat; mcAL : vec ext; mcAU : vec ext; mcIter : nat }.

(** Constructor, cpp:104-111. H, C, AL_ and AU_ are not initialised by the code: the model uses zero. *)
Definition newMC (mbs : list multibody) (r : nat) : res mconstr :=
  do mb <- vec_at mbs r;
  let n := nrDof mb in
  Ok (mkMC r (-1) n (-1) (mzero n n) (vfill n 0) (mzero 0 0) (mzero 6 n) (mzero 0 0) [] (vfill n 0)
           (mzero 0 0) (vfill n (Fin 0)) (vfill n (Fin 0)) 0).

(** ContactData constructor, cpp:89-102: back() of an empty path is undefined. *)
Definition newSide (nm : names) (r : nat) (body : string) (lam : nat) (pts : list V3) (cones : list cone) : res mside :=
  do p <- nPath nm r body;
  do _ <- guard (negb (match p with [] => true | _ => false end));
  Ok (mkMS lam p pts (map (fun k => map vneg (generators k)) cones)).

(** Loop over the contacts, cpp:147-160. *)
Fixpoint sidesLoop (nm : names) (r : nat) (d : solverData) (cs : list bilateral) (i : nat) : res (list mside) :=
  match cs with
  | [] => Ok []
  | c :: cs' =>
    do s1 <- (if Z.eqb (Z.of_nat r) (r1Index (bId c))
              then do b <- lambdaBeginAt d i; do s <- newSide nm r (r1Body (bId c)) b (bR1Points c) (bR1Cones c); Ok [s]
              else Ok []);
    do s2 <- (if Z.eqb (Z.of_nat r) (r2Index (bId c))
              then do b <- lambdaBeginAt d i; do s <- newSide nm r (r2Body (bId c)) b (bR2Points c) (bR2Cones c); Ok [s]
              else Ok []);
    do l <- sidesLoop nm r d cs' (S i);
    Ok (s1 ++ s2 ++ l)
  end.

(** updateNrVars, cpp:139-167. *)
Definition mcNrVars (nm : names) (mbs : list multibody) (d : solverData) (m : mconstr) : res mconstr :=
  do _ <- vec_at mbs (mcRobot m);
  do b <- alphaDBegin d (mcRobot m);
  do l <- sidesLoop nm (mcRobot m) d (sdAll d) 0;
  Ok (mkMC (mcRobot m) (Z.of_nat b) (mcN m) (Z.of_nat (lambdaBegin d)) (mcH m) (mcC m)
           (mzero (sdTotalLambda d) (mcN m)) (mcJT m) (mzero (sdTotalLambda d) (mcN m)) l (mcCur m)
           (mzero (mcN m) (sdNrVars d)) (mcAL m) (mcAU m) (mcIter m)).

Definition spGet (s : Spatial) (i : nat) : R :=
  match i with
  | 0%nat => vx (ang s) | 1%nat => vy (ang s) | 2%nat => vz (ang s)
  | 3%nat => vx (linr s) | 4%nat => vy (linr s) | _ => vz (linr s)
  end.
Definition v3get (v : V3) (i : nat) : R := match i with 0%nat => vx v | 1%nat => vy v | _ => vz v end.

(** Loop over the points of a contact, cpp:189-206. translateBodyJacobian (RBDyn) writes column c of
    jacTrans_ as PTransformd(point) * MotionVecd(jac.col(c)). minusGenerators[j] must exist. *)
Fixpoint pointLoop (n : nat) (mb : multibody) (path : list nat) (bj : nat -> Spatial) (col : nat)
    (pts : list V3) (mins : list (list V3)) (jt jl full A : mat) : res (mat * mat * mat * mat) :=
  match pts with
  | [] => Ok (jt, jl, full, A)
  | p :: pts' =>
    match mins with
    | [] => UB
    | g :: mins' =>
      let dof := pathDof mb path in
      let nr := length g in
      do jt' <- mset_block jt 0 0 (mkMat 6 dof (fun i c => spGet (pt_mulM (pt_trans p) (bj c)) i));
      do lin <- mblock jt' 3 0 3 dof;
      do GJ <- mmul (mkMat nr 3 (fun i l => v3get (nth i g v0) l)) lin;
      do jl' <- mset_block jl 0 0 GJ;
      do small <- mblock jl' 0 0 nr dof;
      do full' <- fullJacobian mb path small full;
      do fb <- mblock full' 0 0 nr n;
      do A' <- mset_block A 0 col (mtrans fb);
      pointLoop n mb path bj (col + nr) pts' mins' jt' jl' full' A'
    end
  end.

(** Loop over the contacts, cpp:184-207. *)
Fixpoint sideMatrix (n : nat) (mb : multibody) (bj : list nat -> nat -> Spatial) (l : list mside) (jt jl full A : mat)
    : res (mat * mat * mat * mat) :=
  match l with
  | [] => Ok (jt, jl, full, A)
  | s :: l' =>
    do (jt', jl', full', A') <- pointLoop n mb (msPath s) (bj (msPath s)) (msLam s) (msPts s) (msMinus s) jt jl full A;
    sideMatrix n mb bj l' jt' jl' full' A'
  end.

(** computeMatrix, cpp:169-213. *)
Definition computeMatrix (mbs : list multibody) (dy : dyn) (m : mconstr) : res mconstr :=
  do mb <- vec_at mbs (mcRobot m);
  let n := nrDof mb in
  let H := mkMat n n (dH dy (mcRobot m)) in
  let C := mkVec n (dC dy (mcRobot m)) in
  do b <- zidx (mcABegin m);
  do _ <- guard (Nat.eqb n (mcN m));
  do A1 <- mset_block (mcA m) 0 b H;
  do (jt, jl, full, A2) <- sideMatrix (mcN m) mb (dBJ dy (mcRobot m)) (mcSides m) (mcJT m) (mcJL m) (mcFull m) A1;
  Ok (mkMC (mcRobot m) (mcABegin m) (mcN m) (mcLBegin m) H C full jt jl (mcSides m) (mcCur m)
           A2 (vmap (fun c => Fin (- c)) C) (vmap (fun c => Fin (- c)) C) (mcIter m)).

(** computeTorque, cpp:113-118. *)
Definition computeTorque (alphaDv lambdav : vec R) (m : mconstr) : res mconstr :=
  do b <- zidx (mcABegin m);
  do seg <- vseg alphaDv b (mcN m);
  do h <- mvec (mcH m) seg;
  do lb <- zidx (mcLBegin m);
  do blk <- mblock (mcA m) 0 lb (mcN m) (mcols (mcA m) - lb);
  do f <- mvec blk lambdav;
  Ok (mkMC (mcRobot m) (mcABegin m) (mcN m) (mcLBegin m) (mcH m) (mcC m) (mcFull m) (mcJT m) (mcJL m) (mcSides m)
           (mkVec (mcN m) (fun i => vget h i + vget (mcC m) i + vget f i))
           (mcA m) (mcAL m) (mcAU m) (mcIter m)).

(** torque(mbs, mbcs), cpp:123-137: jointTorque of the joints from number 1 on. *)
Fixpoint writeJoint (e : list R) (v : vec R) (pos : nat) : res (list R) :=
  match e with
  | [] => Ok []
  | _ :: e' => do a <- vget_at v pos; do r <- writeJoint e' v (S pos); Ok (a :: r)
  end.
Fixpoint writeJoints (es : list (list R)) (v : vec R) (pos : nat) : res (list (list R)) :=
  match es with
  | [] => Ok []
  | e :: es' => do e1 <- writeJoint e v pos; do r <- writeJoints es' v (pos + length e); Ok (e1 :: r)
  end.
Definition writeTorque (mbs : list multibody) (m : mconstr) (jointTorque : list (list R)) : res (list (list R)) :=
  do mb <- vec_at mbs (mcRobot m);
  do j0 <- vec_at (joints mb) 0;
  match jointTorque with
  | [] => Ok []
  | e0 :: es => do r <- writeJoints es (mcCur m) (jdof j0); Ok (e0 :: r)
  end.

(** What the solver reads: maxGenInEq (also nrGenInEq by default, Tasks/QPSolver.h:250), AGenInEq,
    LowerGenInEq, UpperGenInEq, cpp:215-226. *)
Definition mcGen (m : mconstr) : geninequality :=
  mkGen (mrows (mcA m)) (mrows (mcA m)) (mcA m) (mcAL m) (mcAU m).
(** MotionConstr::contactMatrix, cpp:282-283. *)
Definition contactMatrix (m : mconstr) : res mat :=
  mblock (mcA m) 0 (mcN m) (mrows (mcA m)) (mcols (mcA m) - mcN m).

(* ------------------------------------------------------------------ *)
(** * MotionConstr and MotionSpringConstr *)

(** struct MotionSpringConstr::SpringJointData, QPMotionConstr.h:203-210. *)
Record spring := mkSpring { spIndex : nat; spPos : nat; spK : R; spC : R; spO : R }.
(** struct SpringJoint, QPMotionConstr.h:170-177: (name, K, C, O). *)
Definition springJoint := (string * R * R * R)%type.
(** MotionConstr (QPMotionConstr.h:163-166) and MotionSpringConstr (springs_): a MotionConstr is a
    MotionSpringConstr without springs (their update functions differ by the loop over springs_ only). *)
Record motion_ := mkMo {
  moC : mconstr; moL : vec ext; moU : vec ext; moDL : vec ext; moDU : vec ext; moSprings : list spring }.

(** rbd::paramToVector (RBDyn): e(pos++) = d over all the values. *)
Definition paramToVector (ps : list (list ext)) (v : vec ext) : res (vec ext) :=
  do _ <- guard (length (concat ps) <=? vlen v)%nat;
  Ok (mkVec (vlen v) (fun i => nth i (concat ps) (vget v i))).
(** Loop of the spring constructor, cpp:310-315. *)
Fixpoint springLoop (mb : multibody) (sj : list springJoint) : res (list spring) :=
  match sj with
  | [] => Ok []
  | (nm, k, c, o) :: sj' =>
    do i <- jointIndexByName mb nm;
    do l <- springLoop mb sj';
    Ok (mkSpring i (jointPosInDof mb i) k c o :: l)
  end.
(** Constructors, cpp:240-260 and 292-316. torqueL_ and torqueU_ are not initialised: entries left without a
    value would be read by update, hence the guards on the numbers of values. A time step dt <= 0 (where
    infinity * 0 is not a number) is left out. *)
Definition newMotion (mbs : list multibody) (r : nat) (tl tu tdl tdu : list (list ext)) (dt : R) (sj : list springJoint) : res motion_ :=
  do mb <- vec_at mbs r;
  do m <- newMC mbs r;
  let n := nrDof mb in
  do _ <- guard (Nat.eqb (length (concat tl)) n && Nat.eqb (length (concat tu)) n)%bool;
  do _ <- guard (Rltb 0 dt);
  do L <- paramToVector tl (vfill n NInf);
  do U <- paramToVector tu (vfill n PInf);
  do DL <- paramToVector tdl (vfill n NInf);
  do DU <- paramToVector tdu (vfill n PInf);
  do ss <- springLoop mb sj;
  Ok (mkMo m L U (vmap (fun e => emulr e dt) DL) (vmap (fun e => emulr e dt) DU) ss).

(** Loop over the springs, cpp:326-331. *)
Fixpoint springBounds (q al : list (list R)) (ss : list spring) (L U : vec ext) : res (vec ext * vec ext) :=
  match ss with
  | [] => Ok (L, U)
  | s :: ss' =>
    do qs <- vec_at q (spIndex s); do q0 <- vec_at qs 0;
    do vs <- vec_at al (spIndex s); do v0 <- vec_at vs 0;
    let sp := q0 * spK s + v0 * spC s + spO s in
    do L' <- vput L (spPos s) (Fin (- sp));
    do U' <- vput U (spPos s) (Fin (- sp));
    springBounds q al ss' L' U'
  end.
Definition with_limits (m : mconstr) (AL AU : vec ext) (it : nat) : mconstr :=
  mkMC (mcRobot m) (mcABegin m) (mcN m) (mcLBegin m) (mcH m) (mcC m) (mcFull m) (mcJT m) (mcJL m) (mcSides m) (mcCur m)
       (mcA m) AL AU it.
(** eaddv a b: a + b where the finite part of the sum is in a (AL_ = -C). *)
Definition eaddfin (a b : ext) : ext := match a with Fin x => eaddr b x | _ => a end.
(** update, cpp:262-280 and 318-342. *)
Definition moUpdate (mbs : list multibody) (dy : dyn) (m : motion_) : res motion_ :=
  do c <- computeMatrix mbs dy (moC m);
  do (L, U) <- springBounds (dQ dy (mcRobot c)) (dAlpha dy (mcRobot c)) (moSprings m) (moL m) (moU m);
  let lo i := if (0 <? mcIter c)%nat then emax (vget L i) (eaddr (vget (moDL m) i) (vget (mcCur c) i)) else vget L i in
  let up i := if (0 <? mcIter c)%nat then emin (vget U i) (eaddr (vget (moDU m) i) (vget (mcCur c) i)) else vget U i in
  do _ <- guard (vlen L <=? vlen (mcAL c))%nat;
  Ok (mkMo (with_limits c (mkVec (vlen (mcAL c)) (fun i => if (i <? vlen L)%nat then eaddfin (vget (mcAL c) i) (lo i) else vget (mcAL c) i))
                          (mkVec (vlen (mcAU c)) (fun i => if (i <? vlen L)%nat then eaddfin (vget (mcAU c) i) (up i) else vget (mcAU c) i))
                          (S (mcIter c)))
           L U (moDL m) (moDU m) (moSprings m)).
Definition moNrVars (nm : names) (mbs : list multibody) (d : solverData) (m : motion_) : res motion_ :=
  do c <- mcNrVars nm mbs d (moC m); Ok (mkMo c (moL m) (moU m) (moDL m) (moDU m) (moSprings m)).
Definition moTorque (a l : vec R) (m : motion_) : res motion_ :=
  do c <- computeTorque a l (moC m); Ok (mkMo c (moL m) (moU m) (moDL m) (moDU m) (moSprings m)).

(* ------------------------------------------------------------------ *)
(** * MotionPolyConstr *)

(** Members of MotionPolyConstr, QPMotionConstr.h:231-232: (jointIndex_, torqueL_, torqueU_), coefficients
    by increasing degree. *)
Record motionPoly := mkMP { mpC : mconstr; mpBounds : list (nat * list R * list R) }.
(** Loop of the constructor, cpp:353-361. *)
Fixpoint polyLoop (js : list joint) (i : nat) (pl pu : list (list (list R))) : res (list (nat * list R * list R)) :=
  match js with
  | [] => Ok []
  | j :: js' =>
    do hd <- (if Nat.eqb (jdof j) 1
              then do a <- vec_at pl i; do a0 <- vec_at a 0; do b <- vec_at pu i; do b0 <- vec_at b 0; Ok [(i, a0, b0)]
              else Ok []);
    do l <- polyLoop js' (S i) pl pu;
    Ok (hd ++ l)
  end.
Definition newPoly (mbs : list multibody) (r : nat) (pl pu : list (list (list R))) : res motionPoly :=
  do mb <- vec_at mbs r;
  do m <- newMC mbs r;
  do l <- polyLoop (joints mb) 0 pl pu;
  Ok (mkMP m l).
(** Eigen::poly_eval: the value of the polynomial; an empty vector has no poly[size-1]. *)
Fixpoint horner (p : list R) (x : R) : R := match p with [] => 0 | c :: p' => c + x * horner p' x end.
Definition polyEval (p : list R) (x : R) : res R := match p with [] => UB | _ => Ok (horner p x) end.
(** Loop of update, cpp:372-378. *)
Fixpoint polyBounds (mb : multibody) (q : list (list R)) (bs : list (nat * list R * list R)) (AL AU : vec ext) : res (vec ext * vec ext) :=
  match bs with
  | [] => Ok (AL, AU)
  | (i, pl, pu) :: bs' =>
    let pos := jointPosInDof mb i in
    do qs <- vec_at q i; do q0 <- vec_at qs 0;
    do l <- polyEval pl q0; do u <- polyEval pu q0;
    do al <- vget_at AL pos; do au <- vget_at AU pos;
    do AL' <- vput AL pos (eaddr al l);
    do AU' <- vput AU pos (eaddr au u);
    polyBounds mb q bs' AL' AU'
  end.
(** update, cpp:363-379. *)
Definition mpUpdate (mbs : list multibody) (dy : dyn) (m : motionPoly) : res motionPoly :=
  do mb <- vec_at mbs (mcRobot (mpC m));
  do c <- computeMatrix mbs dy (mpC m);
  do (AL, AU) <- polyBounds mb (dQ dy (mcRobot c)) (mpBounds m) (mcAL c) (mcAU c);
  Ok (mkMP (with_limits c AL AU (mcIter c)) (mpBounds m)).
Definition mpNrVars (nm : names) (mbs : list multibody) (d : solverData) (m : motionPoly) : res motionPoly :=
  do c <- mcNrVars nm mbs d (mpC m); Ok (mkMP c (mpBounds m)).
