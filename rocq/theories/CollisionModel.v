(** Model of CollisionConstr (/repo/src/QPConstr.cpp:333-619, Tasks/QPConstr.h:288-452). *)
From Verif Require Export ContactConstrModel.
Open Scope list_scope.
Open Scope R_scope.

Definition v3get (v : V3) (l : nat) : R := match l with 0%nat => vx v | 1%nat => vy v | _ => vz v end.

(** External kinematics of robot number r (RBDyn): body poses (mbc.bodyPosW) and, for a Jacobian with the given path and
    a point given in the frame of its last body (jac.point): rows 3-5 of jacobian(mb, mbc), velocity(mb, mbc).linear() and
    normalAcceleration(mb, mbc, normalAccB).linear(). *)
Record pkin := mkPK {
  pPosW : nat -> nat -> PT;
  pJac : nat -> list nat -> V3 -> nat -> nat -> R;
  pVel : nat -> list nat -> V3 -> V3;
  pNAcc : nat -> list nat -> V3 -> V3 }.

(** External distance computation (sch-core): a hull is a number (the pointer), the closest points of two hulls are a
    function of their transformations: signed square of the distance, the two points, and the constant sch::epsilon. CD_Pair
    also keeps a cache from one call to the next, which is left out. *)
Record geom := mkGeom {
  gDist2 : nat -> nat -> PT -> PT -> R;
  gP1 : nat -> nat -> PT -> PT -> V3;
  gP2 : nat -> nat -> PT -> PT -> V3;
  gEps : R }.
(** Transformations held by the hulls (S_Object::setTransformation). The conversion tosch, QPConstr.cpp:315-331, is left out. *)
Definition hulls := nat -> PT.
Definition setHull (h : hulls) (o : nat) (X : PT) : hulls := fun i => if Nat.eqb i o then X else h i.

(** struct BodyCollData, QPConstr.h:376-391, constructor cpp:333-341. The point of the Jacobian is set by every update
    before it is read and is passed as an argument. *)
Record bcd := mkBCD { bHull : nat; bPath : list nat; bX : PT; bR : nat; bBody : nat; bSel : vec R }.
Inductive dampingType := DHard | DSoft | DFree.
(** struct CollData, QPConstr.h:393-426. p1 and p2 are written but only read by the user; they are left out. *)
Record coll := mkColl {
  clId : Z; clH1 : nat; clH2 : nat; clDist : R; clN : V3; clDi : R; clDs : R; clDamping : R;
  clBodies : list bcd; clType : dampingType; clOff : R }.
(** Members, QPConstr.h:439-448. totalAlphaD_ is -1 before updateNrVars and nrVars_ is not initialised: [None]. *)
Record collConstr := mkCol {
  coData : list coll; coStep : R; coNr : nat; coTotal : option nat; coVars : option nat;
  coA : mat; coB : vec R; coFull : mat; coDist : mat }.

(** Arguments of addCollision, QPConstr.h:324-339. *)
Record pairSpec := mkPS {
  psId : Z; psR1 : nat; psB1 : string; psH1 : nat; psX1 : PT; psR2 : nat; psB2 : string; psH2 : nat; psX2 : PT;
  psDi : R; psDs : R; psDamping : R; psOff : R; psSel1 : vec R; psSel2 : vec R }.

(** Constructor, cpp:357-363. resize() leaves unspecified contents: the model uses zero, which no result depends on. *)
Definition newCol (mbs : list multibody) (step : R) : res collConstr :=
  do md <- maxDof mbs;
  Ok (mkCol [] step 0 None None (mzero 0 0) (vfill 0 0) (mzero 1 md) (mzero 1 md)).
Definition with_data (c : collConstr) (l : list coll) : collConstr :=
  mkCol l (coStep c) (coNr c) (coTotal c) (coVars c) (coA c) (coB c) (coFull c) (coDist c).

(** One of the two if of addCollision, cpp:385-394: the selector must be empty or have one entry per dof (assert). *)
Definition addBody (nm : names) (mbs : list multibody) (r : nat) (body : string) (o : nat) (X : PT) (chk sel : vec R) : res (list bcd) :=
  do mb <- vec_at mbs r;
  if (0 <? nrDof mb)%nat then
    do _ <- guard (Nat.eqb (vlen chk) 0 || Nat.eqb (vlen chk) (nrDof mb))%bool;
    do p <- nPath nm r body;
    do bi <- nBodyIndex nm r body;
    Ok [mkBCD o p X r bi sel]
  else Ok [].
(** addCollision, cpp:365-396, with the constructor of CollData, cpp:343-355. *)
Definition addCollision (nm : names) (mbs : list multibody) (p : pairSpec) (c : collConstr) : res collConstr :=
  do b1 <- addBody nm mbs (psR1 p) (psB1 p) (psH1 p) (psX1 p) (psSel1 p) (psSel1 p);
  do b2 <- addBody nm mbs (psR2 p) (psB2 p) (psH2 p) (psX2 p) (psSel2 p)
                   (if Nat.eqb (psR1 p) (psR2 p) then psSel1 p else psSel2 p);
  Ok (with_data c (coData c ++
    [mkColl (psId p) (psH1 p) (psH2 p) (2 * psDi p) v0 (psDi p) (psDs p) (psDamping p) (b1 ++ b2)
            (if Rltb 0 (psDamping p) then DHard else DFree) (psOff p)])).

(** std::find_if and erase, cpp:398-409. *)
Fixpoint eraseId (id : Z) (l : list coll) : list coll * bool :=
  match l with
  | [] => ([], false)
  | c :: l' => if Z.eqb (clId c) id then (l', true) else let (l2, b) := eraseId id l' in (c :: l2, b)
  end.
Definition rmCollision (id : Z) (c : collConstr) : collConstr * bool :=
  let (l, b) := eraseId id (coData c) in (with_data c l, b).
(** getCollisionData, cpp:411-417. *)
Definition getCollisionData (id : Z) (c : collConstr) : res coll :=
  match find (fun d => Z.eqb (clId d) id) (coData c) with Some d => Ok d | None => Throw end.
(** nrCollisions, cpp:419-420; reset, cpp:422-423. *)
Definition nrCollisions (c : collConstr) : nat := length (coData c).
Definition colReset (c : collConstr) : collConstr := with_data c [].
(** updateNrCollisions, cpp:425-429. *)
Definition updateNrCollisions (c : collConstr) : res collConstr :=
  do n <- (match coVars c with Some n => Ok n | None => UB end);
  Ok (mkCol (coData c) (coStep c) (coNr c) (coTotal c) (coVars c)
            (mzero (length (coData c)) n) (vfill (length (coData c)) 0) (coFull c) (coDist c)).
(** updateNrVars, cpp:431-436. *)
Definition colNrVars (d : solverData) (c : collConstr) : res collConstr :=
  updateNrCollisions (mkCol (coData c) (coStep c) (coNr c) (Some (sdTotalAlphaD d)) (Some (sdNrVars d)) (coA c) (coB c) (coFull c) (coDist c)).

(** cpp:461: d >= 0 ? sqrt(d) : -sqrt(-d). *)
Definition sdist (s : R) : R := if Rle_dec 0 s then sqrt s else - sqrt (- s).
(** Loop over the moving hulls, cpp:453-458. *)
Fixpoint moveHulls (K : pkin) (bs : list bcd) (h : hulls) : hulls :=
  match bs with
  | [] => h
  | b :: bs' => moveHulls K bs' (setHull h (bHull b) (pt_mul (bX b) (pPosW K (bR b) (bBody b))))
  end.
(** cpp:470-481: body number 0 gets p1, the next ones get p2, in body coordinates; the sign of the other loops
    (cpp:500-541, 600-612) goes from 1 to -1 the same way. *)
Definition toPoint (K : pkin) (p : V3) (b : bcd) : V3 :=
  ptr (pt_mul (pt_trans p) (pt_inv (pPosW K (bR b) (bBody b)))).
Definition withPoints (K : pkin) (p1 p2 : V3) (bs : list bcd) : list (bcd * V3 * R) :=
  match bs with
  | [] => []
  | b :: bs' => (b, toPoint K p1 b, 1) :: map (fun b' => (b', toPoint K p2 b', -1)) bs'
  end.
(** computeDamping, cpp:592-619. A division by zero is rendered as [UB] (the result is infinite or not a number). *)
Definition diffVel (K : pkin) (l : list (bcd * V3 * R)) : V3 :=
  fold_left (fun v x => vadd v (vsc (snd x) (pVel K (bR (fst (fst x))) (bPath (fst (fst x))) (snd (fst x))))) l v0.
Definition colDamping (K : pkin) (l : list (bcd * V3 * R)) (di ds off : R) (n : V3) (dist : R) : res R :=
  let distDot := Rabs (dot (diffVel K l) n) in
  let fixedDist := if Rle_dec dist ds then ds + (di - ds) * (2 / 10) else dist in
  do _ <- guard (negb (Reqb (fixedDist - ds) 0));
  Ok (((di - ds) / (fixedDist - ds)) * distDot + off).

(** Scratch and result matrices during update. *)
Record crow := mkRow { rwDist : mat; rwFull : mat; rwA : mat; rwB : vec R }.
(** cpp:524-533. *)
Definition selected (sel : vec R) (M : mat) : res mat :=
  if Nat.eqb (vlen sel) 0 then Ok M
  else do _ <- guard (Nat.eqb (mcols M) (vlen sel)); Ok (mkMat (mrows M) (mcols M) (fun i j => mget M i j * vget sel j)).
(** Body of the loop over the bodies, cpp:503-539. *)
Definition bodyRow (mbs : list multibody) (d : solverData) (K : pkin) (step : R) (nf dnf : V3) (nr : nat) (x : bcd * V3 * R) (w : crow)
  : res crow :=
  let b := fst (fst x) in let pt := snd (fst x) in let sign := snd x in
  do mb <- vec_at mbs (bR b);
  let dof := pathDof mb (bPath b) in
  let row := mkMat 1 dof (fun _ j => sumn 3 (fun l => v3get (vsc sign (vsc step nf)) l * pJac K (bR b) (bPath b) pt l j)) in
  let pSpeed := pVel K (bR b) (bPath b) pt in
  let pNormalAcc := pNAcc K (bR b) (bPath b) pt in
  do dj <- mset_block (rwDist w) 0 0 row;
  do small <- mblock dj 0 0 1 dof;
  do full <- fullJacobian mb (bPath b) small (rwFull w);
  do blk <- mblock full 0 0 1 (nrDof mb);
  do sel <- selected (bSel b) blk;
  do beg <- alphaDBegin d (bR b);
  do A <- madd_block (rwA w) nr beg (mopp sel);
  do B <- vadd_seg (rwB w) nr
            (vfill 1 (sign * (dot pSpeed nf + dot pSpeed (vsc step dnf) + dot pNormalAcc (vsc step nf))));
  Ok (mkRow dj full A B).
Fixpoint bodyRows (mbs : list multibody) (d : solverData) (K : pkin) (step : R) (nf dnf : V3) (nr : nat) (l : list (bcd * V3 * R)) (w : crow)
  : res crow :=
  match l with
  | [] => Ok w
  | x :: l' => do w' <- bodyRow mbs d K step nf dnf nr x w; bodyRows mbs d K step nf dnf nr l' w'
  end.

(** Body of the loop over the pairs, cpp:451-549. *)
Definition colPair (mbs : list multibody) (d : solverData) (G : geom) (K : pkin) (step : R) (total : option nat) (c : coll)
    (h : hulls) (nr : nat) (w : crow) : res (coll * hulls * nat * crow) :=
  let h' := moveHulls K (clBodies c) h in
  let X1 := h' (clH1 c) in let X2 := h' (clH2 c) in
  let dist := sdist (gDist2 G (clH1 c) (clH2 c) X1 X2) in
  let p1 := gP1 G (clH1 c) (clH2 c) X1 X2 in
  let p2 := gP2 G (clH1 c) (clH2 c) X1 X2 in
  let nf := vsc (/ (if Req_EM_T dist 0 then gEps G else dist)) (vsub p1 p2) in
  let l := withPoints K p1 p2 (clBodies c) in
  let upd damping ty := mkColl (clId c) (clH1 c) (clH2 c) dist nf (clDi c) (clDs c) damping (clBodies c) ty (clOff c) in
  if Rltb dist (clDi c) then
    do (damping, ty) <- (match clType c with
                         | DFree => do k <- colDamping K l (clDi c) (clDs c) (clOff c) nf dist; Ok (k, DSoft)
                         | ty => Ok (clDamping c, ty)
                         end);
    do _ <- guard (negb (Reqb (clDi c - clDs c) 0) && negb (Reqb step 0))%bool;
    let dampers := damping * ((dist - clDs c) / (clDi c - clDs c)) in
    let dnf := vsc (/ step) (vsub nf (clN c)) in
    do B <- vput (rwB w) nr dampers;
    do tot <- (match total with Some n => Ok n | None => UB end);
    do A <- mset_block (rwA w) nr 0 (mzero 1 tot);
    do w' <- bodyRows mbs d K step nf dnf nr l (mkRow (rwDist w) (rwFull w) A B);
    Ok (upd damping ty, h', S nr, w')
  else Ok (upd (clDamping c) (match clType c with DSoft => DFree | ty => ty end), h', nr, w).
Fixpoint colPairs (mbs : list multibody) (d : solverData) (G : geom) (K : pkin) (step : R) (total : option nat) (l : list coll)
    (h : hulls) (nr : nat) (w : crow) : res (list coll * hulls * nat * crow) :=
  match l with
  | [] => Ok ([], h, nr, w)
  | c :: l' =>
    do (c', h1, nr1, w1) <- colPair mbs d G K step total c h nr w;
    do (l2, h2, nr2, w2) <- colPairs mbs d G K step total l' h1 nr1 w1;
    Ok (c' :: l2, h2, nr2, w2)
  end.
(** update, cpp:438-550. *)
Definition colUpdate (mbs : list multibody) (d : solverData) (G : geom) (K : pkin) (h : hulls) (c : collConstr) : res (collConstr * hulls) :=
  do (l, h', nr, w) <- colPairs mbs d G K (coStep c) (coTotal c) (coData c) h 0 (mkRow (coDist c) (coFull c) (coA c) (coB c));
  Ok (mkCol l (coStep c) nr (coTotal c) (coVars c) (rwA w) (rwB w) (rwFull w) (rwDist w), h').

(** descInEq, cpp:555-585: robots and bodies, collId, dist, di, ds, damp. The empty string is [None]. *)
Record colDesc := mkCDesc { deBodies : list (nat * string); deId : Z; deDist : R; deDi : R; deDs : R; deDamp : R }.
Fixpoint descLoop (nm : names) (G : geom) (h : hulls) (line cur : nat) (l : list coll) : option colDesc :=
  match l with
  | [] => None
  | c :: l' =>
    let dist := sdist (gDist2 G (clH1 c) (clH2 c) (h (clH1 c)) (h (clH2 c))) in
    if Rltb dist (clDi c) then
      if Nat.eqb cur line then
        Some (mkCDesc (map (fun b => (bR b, nBodyName nm (bR b) (bBody b))) (clBodies c)) (clId c) dist (clDi c) (clDs c)
                      (clDamping c + clOff c))
      else descLoop nm G h line (S cur) l'
    else descLoop nm G h line cur l'
  end.
Definition descInEq (nm : names) (G : geom) (h : hulls) (c : collConstr) (line : nat) : option colDesc :=
  descLoop nm G h line 0 (coData c).
(** nrInEq, maxInEq, AInEq, bInEq, cpp:587-597. *)
Definition colMax (c : collConstr) : nat := length (coData c).
Definition colInEq (c : collConstr) : inequality := mkIneq (colMax c) (coNr c) (coA c) (vmap Fin (coB c)).
