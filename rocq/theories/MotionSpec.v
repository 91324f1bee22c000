(** Vocabulary of the motion constraint properties: inverse dynamics with contact forces, torque limits,
    call histories. Nothing here is modelled code except the step function. *)
From Verif Require Export MotionModel FillSpec LayoutSpec ContactSpec.
Open Scope list_scope.
Open Scope R_scope.

(** Power of a wrench along a motion, both expressed at the same frame. *)
Definition power (F m : Spatial) : R := dot (ang F) (ang m) + dot (linr F) (linr m).
(** Generalised force on degree of freedom [j] of a robot, of a wrench applied to the body at the end of
    [path], whose motion is the combination of the columns [bj]. *)
Definition genForce (mb : multibody) (path : list nat) (bj : nat -> Spatial) (F : Spatial) (j : nat) : R :=
  sumn (pathDof mb path) (fun c => if Nat.eqb (nth c (pathCols mb path) 0%nat) j then power F (bj c) else 0).
Definition forceOn (nm : names) (dy : dyn) (mb : multibody) (r : nat) (body : string) (F : Spatial) (j : nat) : R :=
  match nPath nm r body with Ok p => genForce mb p (dBJ dy r p) F j | _ => 0 end.

(** One side of a contact: body, points, cones. *)
Definition cside := (string * list V3 * list cone)%type.
Definition side1 (c : bilateral) : cside := (r1Body (bId c), bR1Points c, bR1Cones c).
Definition side2 (c : bilateral) : cside := (r2Body (bId c), bR2Points c, bR2Cones c).
(** The sides of a contact held by robot [r]; and what is left when a second side replaces the first. *)
Definition heldBy (r : nat) (c : bilateral) : list cside :=
  (if Z.eqb (Z.of_nat r) (r1Index (bId c)) then [side1 c] else []) ++
  (if Z.eqb (Z.of_nat r) (r2Index (bId c)) then [side2 c] else []).
Definition lastHeldBy (r : nat) (c : bilateral) : list cside :=
  if Z.eqb (Z.of_nat r) (r2Index (bId c)) then [side2 c]
  else if Z.eqb (Z.of_nat r) (r1Index (bId c)) then [side1 c] else [].
Definition sideForce (nm : names) (dy : dyn) (mb : multibody) (r : nat) (lam : nat -> R) (j : nat) (s : cside) : R :=
  let '(body, pts, cones) := s in forceOn nm dy mb r body (wsum pts (forces cones lam 0)) j.
Definition contactForce nm dy mb r lam j (sides : list cside) : R := listsum (map (sideForce nm dy mb r lam j) sides).
(** Sum over the contacts; the multipliers of the first one start at variable [cum]. *)
Fixpoint contactForces (sel : bilateral -> list cside) nm dy mb r (cs : list bilateral) (cum : nat) (x : nat -> R) (j : nat) : R :=
  match cs with
  | [] => 0
  | c :: cs' => contactForce nm dy mb r (fun q => x (cum + q)%nat) j (sel c)
                + contactForces sel nm dy mb r cs' (cum + biLambdaCount c) x j
  end.

(** Joint torque of robot [r] given by inverse dynamics: H alphaD + C minus the generalised forces of the
    contacts, at the point [x] of the problem described by [d]. *)
Definition invTorque_ (sel : bilateral -> list cside) nm (mbs : list multibody) (d : solverData) (dy : dyn) (r : nat) (x : nat -> R) (j : nat) : R :=
  match nth_error mbs r, alphaDBegin d r with
  | Some mb, Ok b => sumn (nrDof mb) (fun k => dH dy r j k * x (b + k)%nat) + dC dy r j
                     - contactForces sel nm dy mb r (sdAll d) (sdTotalAlphaD d) x j
  | _, _ => 0
  end.
Definition invTorque nm mbs d dy r := invTorque_ (heldBy r) nm mbs d dy r.
(** The same when the second side of a contact of the robot with itself replaces the first. *)
Definition invTorqueLast nm mbs d dy r := invTorque_ (lastHeldBy r) nm mbs d dy r.

(** A vector of the problem from its accelerations and its multipliers. *)
Definition join (T : nat) (a l : vec R) (j : nat) : R := if (j <? T)%nat then vget a j else vget l (j - T)%nat.

(** Torque imposed by the springs on degree of freedom [j]: the last spring listed on it. *)
Fixpoint springTorque (mb : multibody) (sj : list springJoint) (q al : list (list R)) (j : nat) : option R :=
  match sj with
  | [] => None
  | (nm, k, c, o) :: sj' =>
    match springTorque mb sj' q al j with
    | Some t => Some t
    | None => match jointIndexByName mb nm with
              | Ok i => if Nat.eqb (jointPosInDof mb i) j
                        then Some (- (k * nth 0 (nth i q []) 0 + c * nth 0 (nth i al []) 0 + o)) else None
              | _ => None
              end
    end
  end.
Definition staticLimit (mb : multibody) (sj : list springJoint) (q al : list (list R)) (ps : list (list ext)) (dflt : ext) (j : nat) : ext :=
  match springTorque mb sj q al j with Some t => Fin t | None => nth j (concat ps) dflt end.
(** Limits given by a rate: dt * rate away from the current torque; [dflt] for the degrees of freedom without rate. *)
Definition rateLimit (ps : list (list ext)) (dflt : ext) (dt cur : R) (j : nat) : ext := eaddr (emulr (nth j (concat ps) dflt) dt) cur.

(** Calls of a motion constraint of one robot, their effect (code) and their history (specification). *)
Inductive moOp :=
| MONr (d : solverData)
| MOUpdate (dy : dyn)
| MOTorque (a l : vec R).
Definition moStep (nm : names) (mbs : list multibody) (m : motion_) (o : moOp) : res motion_ :=
  match o with
  | MONr d => moNrVars nm mbs d m
  | MOUpdate dy => moUpdate mbs dy m
  | MOTorque a l => moTorque a l m
  end.
Fixpoint moRun nm mbs (m : motion_) (ops : list moOp) : res motion_ :=
  match ops with [] => Ok m | o :: ops' => do m' <- moStep nm mbs m o; moRun nm mbs m' ops' end.

(** Problem sizes, dynamics of the last update since then, number of updates, last torque computed. *)
Record mhist := mkMH { hData : option solverData; hDyn : option dyn; hCount : nat; hCur : nat -> R }.
Definition mh0 : mhist := mkMH None None 0 (fun _ => 0).
(** The torque may be computed only after an update that follows the last change of the sizes. *)
Definition mhStep (tau : solverData -> dyn -> (nat -> R) -> nat -> R) (h : mhist) (o : moOp) : option mhist :=
  match o, hData h, hDyn h with
  | MONr d, _, _ => Some (mkMH (Some d) None (hCount h) (hCur h))
  | MOUpdate dy, Some d, _ => Some (mkMH (Some d) (Some dy) (S (hCount h)) (hCur h))
  | MOTorque a l, Some d, Some dy => Some (mkMH (Some d) (Some dy) (hCount h) (tau d dy (join (sdTotalAlphaD d) a l)))
  | _, _, _ => None
  end.
Fixpoint mhRun tau (h : mhist) (ops : list moOp) : option mhist :=
  match ops with [] => Some h | o :: ops' => match mhStep tau h o with Some h' => mhRun tau h' ops' | None => None end end.

(** Sizes come from QPSolver::nrVars for these robots, with complete contacts. *)
Definition sizesOf (mbs : list multibody) (d : solverData) : Prop :=
  (exists uni bi deps, nrVarsData mbs uni bi = Ok (d, deps)) /\ Forall wfBilateral (sdAll d).
Definition noSelf (r : nat) (d : solverData) : Prop :=
  Forall (fun c => ~ (r1Index (bId c) = Z.of_nat r /\ r2Index (bId c) = Z.of_nat r)) (sdAll d).
Definition opData (P : solverData -> Prop) (o : moOp) : Prop := match o with MONr d => P d | _ => True end.
Definition pathsWf (nm : names) (mbs : list multibody) : Prop :=
  forall r mb body p, nth_error mbs r = Some mb -> nPath nm r body = Ok p -> wfPath mb p.

(** Limits of a polynomial constraint: the value of the polynomials of a joint with one degree of freedom at
    its position, zero for the other joints. *)
Definition polyAt (ps : list (list (list R))) (i : nat) (q : R) : R :=
  let p := nth 0 (nth i ps []) [] in sumn (length p) (fun k => nth k p 0 * q ^ k).

Definition polyRow (mb : multibody) (pl pu : list (list (list R))) (q : list (list R)) (tau : nat -> R) : Prop :=
  forall i jt k, nth_error (joints mb) i = Some jt -> (k < jdof jt)%nat ->
    let j := (jointPosInDof mb i + k)%nat in
    if Nat.eqb (jdof jt) 1 then polyAt pl i (nth 0 (nth i q []) 0) <= tau j <= polyAt pu i (nth 0 (nth i q []) 0) else tau j = 0.

(** Calls of a polynomial constraint. *)
Definition mpStep (nm : names) (mbs : list multibody) (m : motionPoly) (o : moOp) : res motionPoly :=
  match o with
  | MONr d => mpNrVars nm mbs d m
  | MOUpdate dy => mpUpdate mbs dy m
  | MOTorque a l => do c <- computeTorque a l (mpC m); Ok (mkMP c (mpBounds m))
  end.
Fixpoint mpRun nm mbs (m : motionPoly) (ops : list moOp) : res motionPoly :=
  match ops with [] => Ok m | o :: ops' => do m' <- mpStep nm mbs m o; mpRun nm mbs m' ops' end.

(** The bodies of the contacts held by robot [r] have a path. *)
Definition pathsExist (nm : names) (r : nat) (d : solverData) : Prop :=
  Forall (fun c => forall s, In s (heldBy r c) -> exists p, nPath nm r (fst (fst s)) = Ok p /\ p <> []) (sdAll d).
(** The positions and velocities of the joints with a spring can be read. *)
Definition springsRead (mb : multibody) (sj : list springJoint) (q al : list (list R)) : Prop :=
  Forall (fun s : springJoint => let '(nm, _, _, _) := s in
    exists i j a qs b vs, jointIndexByName mb nm = Ok i /\ nth_error (joints mb) i = Some j /\ (0 < jdof j)%nat /\
      nth_error q i = Some (a :: qs) /\ nth_error al i = Some (b :: vs)) sj.
