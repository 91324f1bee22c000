(** Model of /repo/src/QPContactConstr.cpp and /repo/src/Tasks/QPContactConstr.h. *)
From Verif Require Export FillModel JacModel.
Open Scope list_scope.
Open Scope R_scope.

(* ------------------------------------------------------------------ *)
(** * std::set / std::map keyed by ContactId *)

(** The ordered containers are kept as lists sorted by operator<; two keys are the same when neither
    is smaller (C++ [associative.reqmts]). insert() keeps the element that is already there. *)
Fixpoint mInsert {V} (k : contactId) (v : V) (m : list (contactId * V)) : list (contactId * V) * bool :=
  match m with
  | [] => ([(k, v)], true)
  | (k', v') :: m' =>
    if cid_ltb k k' then ((k, v) :: m, true)
    else if cid_ltb k' k then (let (m'', b) := mInsert k v m' in ((k', v') :: m'', b))
    else (m, false)
  end.
Fixpoint mErase {V} (k : contactId) (m : list (contactId * V)) : list (contactId * V) * bool :=
  match m with
  | [] => ([], false)
  | (k', v') :: m' =>
    if cid_ltb k k' then (m, false)
    else if cid_ltb k' k then (let (m'', b) := mErase k m' in ((k', v') :: m'', b))
    else (m', true)
  end.
Fixpoint mFind {V} (k : contactId) (m : list (contactId * V)) : option V :=
  match m with
  | [] => None
  | (k', v') :: m' =>
    if cid_ltb k k' then None else if cid_ltb k' k then mFind k m' else Some v'
  end.

(* ------------------------------------------------------------------ *)
(** * Data *)

(** struct ContactConstr::ContactSideData, QPContactConstr.h:137-148. [cPath] is jac.jointsPath(). *)
Record csd := mkCSD { cRobot : nat; cBegin : nat; cBody : nat; cSign : R; cPath : list nat; cX : PT }.

(** struct ContactConstr::ContactData, QPContactConstr.h:150-187. *)
Record cdata := mkCD {
  cdSides : list csd; cdDof : mat; cdRevDof : nat -> nat -> R;
  cdR1 : nat; cdR2 : nat; cdB1 : nat; cdB2 : nat; cdXbb : PT; cdXcf : PT; cdId : contactId }.

(** Constructor body, QPContactConstr.h:163-173: revDof is the identity restricted to the columns of dof
    that have no entry equal to 1. [dof(r, j)] with j < 6 must exist. *)
Definition colActive (dof : mat) (j : nat) : bool :=
  existsb (fun r => Reqb (mget dof r j) 1) (seq 0 (mrows dof)).
Definition revDof (dof : mat) (i j : nat) : R :=
  if (Nat.eqb i j && (j <? 6)%nat && negb (colActive dof j))%bool then 1 else 0.
Definition newCD (sides : list csd) (dof : mat) (r1 r2 b1 b2 : nat) (Xbb Xcf : PT) (id : contactId) : res cdata :=
  do _ <- guard ((mrows dof =? 0) || (6 <=? mcols dof))%nat;
  Ok (mkCD sides dof (revDof dof) r1 r2 b1 b2 Xbb Xcf id).

(** Members of ContactConstrCommon and ContactConstr, QPContactConstr.h:97-99 and 192-200. *)
Record contactConstr := mkCC {
  ccVirtual : list (contactId * unit); ccDofs : list (contactId * mat);
  ccCont : list cdata; ccFull : mat; ccDofJac : mat; ccA : mat; ccB : vec R; ccNrEq : nat; ccTotal : nat }.

(** ContactConstr::ContactConstr, QPContactConstr.cpp:104. *)
Definition newCC : contactConstr :=
  mkCC [] [] [] (mzero 0 0) (mzero 0 0) (mzero 0 0) (vfill 0 0) 0 0.
Definition with_virtual (c : contactConstr) v := mkCC v (ccDofs c) (ccCont c) (ccFull c) (ccDofJac c) (ccA c) (ccB c) (ccNrEq c) (ccTotal c).
Definition with_dofs (c : contactConstr) d := mkCC (ccVirtual c) d (ccCont c) (ccFull c) (ccDofJac c) (ccA c) (ccB c) (ccNrEq c) (ccTotal c).

(* ------------------------------------------------------------------ *)
(** * Registries, QPContactConstr.cpp:35-57 *)

(** addVirtualContact, line 35-36. *)
Definition addVirtualContact (c : contactConstr) (id : contactId) : contactConstr * bool :=
  let (v, b) := mInsert id tt (ccVirtual c) in (with_virtual c v, b).
(** removeVirtualContact, line 38-39. *)
Definition removeVirtualContact (c : contactConstr) (id : contactId) : contactConstr * bool :=
  let (v, b) := mErase id (ccVirtual c) in (with_virtual c v, b).
(** resetVirtualContacts, line 41-42. *)
Definition resetVirtualContacts (c : contactConstr) : contactConstr := with_virtual c [].
(** addDofContact, line 44-45. *)
Definition addDofContact (c : contactConstr) (id : contactId) (dof : mat) : contactConstr * bool :=
  let (d, b) := mInsert id dof (ccDofs c) in (with_dofs c d, b).
(** removeDofContact, line 47-48. *)
Definition removeDofContact (c : contactConstr) (id : contactId) : contactConstr * bool :=
  let (d, b) := mErase id (ccDofs c) in (with_dofs c d, b).
(** hasDoFContact, line 50-51. *)
Definition hasDoFContact (c : contactConstr) (id : contactId) : bool :=
  match mFind id (ccDofs c) with Some _ => true | None => false end.
(** dofContact, line 53-54: std::map::operator[] inserts an empty matrix when the key is absent. *)
Definition dofContact (c : contactConstr) (id : contactId) : contactConstr * mat :=
  match mFind id (ccDofs c) with
  | Some m => (c, m)
  | None => (with_dofs c (fst (mInsert id (mzero 0 0) (ccDofs c))), mzero 0 0)
  end.
(** resetDofContacts, line 56-57. *)
Definition resetDofContacts (c : contactConstr) : contactConstr := with_dofs c [].

(** contactCommonInContact, line 59-76. The set is keyed by the id (ContactCommon::operator<,
    line 32-33); the value is (X_b1_cf, X_b1_b2). *)
Fixpoint commonLoop (virt : list (contactId * unit)) (cs : list bilateral) (m : list (contactId * (PT * PT)))
  : list (contactId * (PT * PT)) :=
  match cs with
  | [] => m
  | b :: cs' =>
    commonLoop virt cs'
      (match mFind (bId b) virt with
       | None => fst (mInsert (bId b) (bXcf b, bXbb b) m)
       | Some _ => m
       end)
  end.
Definition contactCommonInContact (c : contactConstr) (d : solverData) : list (contactId * (PT * PT)) :=
  commonLoop (ccVirtual c) (sdAll d) [].

(* ------------------------------------------------------------------ *)
(** * Sizes *)

(** compareDof and std::max_element, line 125 (utils.h): the end iterator is dereferenced when
    there is no robot. *)
Definition maxDof (mbs : list multibody) : res nat :=
  match mbs with [] => UB | _ => Ok (fold_right Nat.max 0%nat (map nrDof mbs)) end.

Definition identity6 : mat := mkMat 6 6 (fun i j => if Nat.eqb i j then 1 else 0).
Definition dofOf (dofs : list (contactId * mat)) (id : contactId) : mat :=
  match mFind id dofs with Some m => m | None => identity6 end.

(** Lambda addContact, line 136-145. *)
Definition addSide (nm : names) (mbs : list multibody) (d : solverData) (r : Z) (body : string) (sign : R) (X : PT)
    (sides : list csd) : res (list csd * nat) :=
  do ri <- zidx r;
  do mb <- vec_at mbs ri;
  if (0 <? nrDof mb)%nat then
    do b <- alphaDBegin d ri;
    do p <- nPath nm ri body;
    do bi <- match rev p with [] => UB | k :: _ => Ok k end;
    Ok (sides ++ [mkCSD ri b bi sign p X], bi)
  else do bi <- nBodyIndex nm ri body; Ok (sides, bi).

(** Loop of updateNrVars, line 130-152. *)
Fixpoint contLoop (nm : names) (mbs : list multibody) (d : solverData) (dofs : list (contactId * mat))
    (cs : list (contactId * (PT * PT))) : res (list cdata) :=
  match cs with
  | [] => Ok []
  | (id, (Xcf, Xbb)) :: cs' =>
    let dof := dofOf dofs id in
    do (s1, b1) <- addSide nm mbs d (r1Index id) (r1Body id) 1 Xcf [];
    do (s2, b2) <- addSide nm mbs d (r2Index id) (r2Body id) (-1) (pt_mul Xcf (pt_inv Xbb)) s1;
    do i1 <- zidx (r1Index id);
    do i2 <- zidx (r2Index id);
    do cd <- newCD s2 dof i1 i2 b1 b2 Xbb Xcf id;
    do l <- contLoop nm mbs d dofs cs';
    Ok (cd :: l)
  end.

(** updateNrEq, line 184-188. *)
Definition sumRows (l : list cdata) : nat := sumnat (map (fun c => mrows (cdDof c)) l).

(** updateNrVars, line 120-157. resize() leaves fullJac_ and dofJac_ with unspecified contents: the
    model uses zero, which no result depends on (see fullJacobian). *)
Definition updateNrVars (nm : names) (mbs : list multibody) (d : solverData) (c : contactConstr) : res contactConstr :=
  do md <- maxDof mbs;
  do l <- contLoop nm mbs d (ccDofs c) (contactCommonInContact c d);
  Ok (mkCC (ccVirtual c) (ccDofs c) l (mzero 6 md) (mzero 6 md)
           (mzero (length l * 6) (sdNrVars d)) (vfill (length l * 6) 0) (sumRows l) (sdTotalAlphaD d)).

(** updateDofContacts, line 106-118. revDof is not recomputed. *)
Definition updateDofContacts (c : contactConstr) : contactConstr :=
  let l := map (fun cd => mkCD (cdSides cd) (dofOf (ccDofs c) (cdId cd)) (cdRevDof cd) (cdR1 cd) (cdR2 cd)
                               (cdB1 cd) (cdB2 cd) (cdXbb cd) (cdXcf cd) (cdId cd)) (ccCont c) in
  mkCC (ccVirtual c) (ccDofs c) l (ccFull c) (ccDofJac c) (ccA c) (ccB c) (sumRows l) (ccTotal c).

(** nrEq, line 159-160; maxEq, line 174-175. *)
Definition ccNr (c : contactConstr) : nat := ccNrEq c.
Definition ccMax (c : contactConstr) : nat := mrows (ccA c).
(** descEq, line 162-172: the names of the bodies of contact number line / 6. *)
Definition descEq (nm : names) (c : contactConstr) (line : nat) : res (list string) :=
  do cd <- vec_at (ccCont c) (line / 6)%nat;
  Ok (map (fun s => nBodyName nm (cRobot s) (cBody s)) (cdSides cd)).

(* ------------------------------------------------------------------ *)
(** * Update *)

(** sva::RotX, RotY, RotZ (SpaceVecAlg). *)
Definition RotX (t : R) : M3 := mkM3 (mkV3 1 0 0) (mkV3 0 (cos t) (sin t)) (mkV3 0 (- sin t) (cos t)).
Definition RotY (t : R) : M3 := mkM3 (mkV3 (cos t) 0 (- sin t)) (mkV3 0 1 0) (mkV3 (sin t) 0 (cos t)).
Definition RotZ (t : R) : M3 := mkM3 (mkV3 (cos t) (sin t) 0) (mkV3 (- sin t) (cos t) 0) (mkV3 0 0 1).

(** External functions of SpaceVecAlg: transformError (a 6-vector) and rotationVelocity. *)
Record sva := mkSva { transformError : PT -> PT -> nat -> R; rotationVelocity : M3 -> V3 }.

Definition setLastX (l : list csd) (X : PT) : list csd :=
  match l with
  | [s1; s2] => [s1; mkCSD (cRobot s2) (cBegin s2) (cBody s2) (cSign s2) (cPath s2) X]
  | s1 :: r => mkCSD (cRobot s1) (cBegin s1) (cBody s1) (cSign s1) (cPath s1) X :: r
  | [] => []
  end.
(** ContactData::update, line 82-102. With no side (both robots without dof) contacts[0] is out of range. *)
Definition cdUpdate (sv : sva) (k : kin) (c : cdata) : res cdata :=
  match cdSides c with
  | [] => UB
  | s0 :: rest =>
    if (negb (Nat.eqb (length (cdSides c)) 2) && Rltb 0 (cSign s0))%bool then Ok c
    else
      do Xb2cf <- (match rest with [s1] => Ok (cX s1) | _ => Ok (cX s0) end);
      let X01 := kPosW k (cdR1 c) (cdB1 c) in
      let X02 := kPosW k (cdR2 c) (cdB2 c) in
      let Xbb_cur := pt_mul X02 (pt_inv X01) in
      let Xb2cf_cur := pt_mul (cdXcf c) (pt_inv Xbb_cur) in
      let te := transformError sv (pt_inv Xb2cf_cur) (pt_inv Xb2cf) in
      let error := fun i => sumn 6 (fun j => cdRevDof c i j * te j) in
      let offset := mkPT (m3mul (m3mul (RotX (error 0%nat)) (RotY (error 1%nat))) (RotZ (error 2%nat)))
                         (mkV3 (error 3%nat) (error 4%nat) (error 5%nat)) in
      let X' := pt_mul offset Xb2cf in
      Ok (mkCD (setLastX (cdSides c) X') (cdDof c) (cdRevDof c) (cdR1 c) (cdR2 c) (cdB1 c) (cdB2 c)
               (pt_mul (pt_inv X') (cdXcf c)) (cdXcf c) (cdId c))
  end.

(** The three constraints: ContactAccConstr, ContactSpeedConstr(dt), ContactPosConstr(dt). *)
Inductive cmode := CAcc | CSpeed (dt : R) | CPos (dt : R).

(** Right-hand side vector of a side: normalAcc, or normalAcc + velocity / timeStep
    (lines 225-229, 276-281, 328-333). *)
Definition sideVec (m : cmode) (k : kin) (s : csd) : vec R :=
  mkVec 6 (fun l => match m with
                    | CAcc => kNAcc k (cRobot s) (cPath s) (cX s) l
                    | CSpeed dt | CPos dt => kNAcc k (cRobot s) (cPath s) (cX s) l + kVel k (cRobot s) (cPath s) (cX s) l / dt
                    end).

(** Body of the loop over the sides, lines 211-230, 262-282, 314-334. *)
Definition sideUpdate (m : cmode) (mbs : list multibody) (k : kin) (dof : mat) (index : nat) (s : csd)
    (dj full A : mat) (b : vec R) : res (mat * mat * mat * vec R) :=
  do mb <- vec_at mbs (cRobot s);
  let X0p := pt_mul (cX s) (kPosW k (cRobot s) (cBody s)) in
  let J := mkMat 6 (pathDof mb (cPath s)) (kJac k (cRobot s) (cPath s) X0p) in
  do SJ <- mmul (mscal (cSign s) dof) J;
  do dj' <- mset_block dj 0 0 SJ;
  do small <- mblock dj' 0 0 (mrows dof) (pathDof mb (cPath s));
  do full' <- fullJacobian mb (cPath s) small full;
  do blk <- mblock full' 0 0 (mrows dof) (nrDof mb);
  do A' <- madd_block A index (cBegin s) blk;
  do v <- mvec (mscal (cSign s) dof) (sideVec m k s);
  do b' <- vadd_seg b index (vopp v);
  Ok (dj', full', A', b').
Fixpoint sidesUpdate (m : cmode) (mbs : list multibody) (k : kin) (dof : mat) (index : nat) (l : list csd)
    (dj full A : mat) (b : vec R) : res (mat * mat * mat * vec R) :=
  match l with
  | [] => Ok (dj, full, A, b)
  | s :: l' =>
    do (dj', full', A', b') <- sideUpdate m mbs k dof index s dj full A b;
    sidesUpdate m mbs k dof index l' dj' full' A' b'
  end.

(** Position error of ContactPosConstr, lines 336-343. *)
Definition posError (sv : sva) (k : kin) (c : cdata) : vec R :=
  let X1 := pt_mul (cdXcf c) (kPosW k (cdR1 c) (cdB1 c)) in
  let X2 := pt_mul (pt_mul (cdXcf c) (pt_inv (cdXbb c))) (kPosW k (cdR2 c) (cdB2 c)) in
  let X12 := pt_mul X2 (pt_inv X1) in
  let w := rotationVelocity sv (ptE X12) in
  let t := ptr X12 in
  mkVec 6 (fun i => nth i [vx w; vy w; vz w; vx t; vy t; vz t] 0).
(** Line 344, only for ContactPosConstr: b_.segment(index, rows) += dof * (error / timeStep). *)
Definition posTerm (m : cmode) (sv : sva) (k : kin) (c : cdata) (index : nat) (b : vec R) : res (vec R) :=
  match m with
  | CPos dt => do v <- mvec (cdDof c) (vmap (fun e => e / dt) (posError sv k c)); vadd_seg b index v
  | _ => Ok b
  end.

(** Loop over the contacts, lines 201-232, 252-285, 304-347. *)
Fixpoint contUpdate (m : cmode) (mbs : list multibody) (sv : sva) (k : kin) (index : nat) (l : list cdata)
    (dj full A : mat) (b : vec R) : res (list cdata * mat * mat * mat * vec R) :=
  match l with
  | [] => Ok ([], dj, full, A, b)
  | c :: l' =>
    do c' <- cdUpdate sv k c;
    do (dj1, full1, A1, b1) <- sidesUpdate m mbs k (cdDof c') index (cdSides c') dj full A b;
    do b2 <- posTerm m sv k c' index b1;
    do (l2, dj2, full2, A2, b3) <- contUpdate m mbs sv k (index + mrows (cdDof c')) l' dj1 full1 A1 b2;
    Ok (c' :: l2, dj2, full2, A2, b3)
  end.

(** Clearing of A_ and b_: everything for ContactAccConstr (line 197-198), the first nrEq_ rows of the
    acceleration columns for the others (lines 248-249, 300-301). *)
Definition clear (m : cmode) (c : contactConstr) : res (mat * vec R) :=
  match m with
  | CAcc => Ok (mzero (mrows (ccA c)) (mcols (ccA c)), vfill (vlen (ccB c)) 0)
  | _ => do A <- mset_block (ccA c) 0 0 (mzero (ccNrEq c) (ccTotal c));
         do b <- vset_seg (ccB c) 0 (vfill (ccNrEq c) 0);
         Ok (A, b)
  end.
(** update(mbs, mbcs, data), lines 190-233, 241-286, 293-348. *)
Definition ccUpdate (m : cmode) (mbs : list multibody) (sv : sva) (k : kin) (c : contactConstr) : res contactConstr :=
  do (A0, b0) <- clear m c;
  do (l, dj, full, A, b) <- contUpdate m mbs sv k 0 (ccCont c) (ccDofJac c) (ccFull c) A0 b0;
  Ok (mkCC (ccVirtual c) (ccDofs c) l full dj A b (ccNrEq c) (ccTotal c)).

(** What the solver reads: AEq(), bEq(), nrEq(), maxEq(). *)
Definition ccEquality (c : contactConstr) : equality := mkEq (ccMax c) (ccNr c) (ccA c) (ccB c).
