(** Vocabulary of the collision properties. *)
From Verif Require Export CollisionModel ContactConstrSpec FillSpec LayoutSpec.
Open Scope list_scope.
Open Scope R_scope.

(** What an update finds: the kinematics, and the transformations of the hulls before the call. *)
Record cenv := mkEnv { eK : pkin; eH : hulls }.
(** Calls. *)
Inductive colOp := CAdd (p : pairSpec) | CRm (id : Z) | CReset | CSizes | CNr (d : solverData) | CUp (d : solverData) (e : cenv).
Definition colStep (nm : names) (mbs : list multibody) (G : geom) (c : collConstr) (o : colOp) : res collConstr :=
  match o with
  | CAdd p => addCollision nm mbs p c
  | CRm id => Ok (fst (rmCollision id c))
  | CReset => Ok (colReset c)
  | CSizes => updateNrCollisions c
  | CNr d => colNrVars d c
  | CUp d e => do (c', _) <- colUpdate mbs d G (eK e) (eH e) c; Ok c'
  end.
Fixpoint colRun (nm : names) (mbs : list multibody) (G : geom) (c : collConstr) (ops : list colOp) : res collConstr :=
  match ops with [] => Ok c | o :: ops' => do c' <- colStep nm mbs G c o; colRun nm mbs G c' ops' end.

(** Pairs in force after the calls, oldest first, each with what the updates since its addition have found. *)
Fixpoint dropFirst (id : Z) (l : list (pairSpec * list cenv)) : list (pairSpec * list cenv) :=
  match l with [] => [] | ph :: l' => if Z.eqb (psId (fst ph)) id then l' else ph :: dropFirst id l' end.
Fixpoint aliveFrom (l : list (pairSpec * list cenv)) (ops : list colOp) : list (pairSpec * list cenv) :=
  match ops with
  | [] => l
  | CAdd p :: ops' => aliveFrom (l ++ [(p, [])]) ops'
  | CRm id :: ops' => aliveFrom (dropFirst id l) ops'
  | CReset :: ops' => aliveFrom [] ops'
  | CUp _ e :: ops' => aliveFrom (map (fun ph => (fst ph, snd ph ++ [e])) l) ops'
  | _ :: ops' => aliveFrom l ops'
  end.
Definition alive (ops : list colOp) : list (pairSpec * list cenv) := aliveFrom [] ops.
Definition addsOf (ops : list colOp) : list pairSpec := flat_map (fun o => match o with CAdd p => [p] | _ => [] end) ops.

(** The sizes were given for the data [d] which the updates have used since, and the matrices were allocated after the
    last addition. *)
Definition sameData (d : solverData) (o : colOp) : Prop := match o with CNr _ => False | CUp d' _ => d' = d | _ => True end.
Definition noAdd (o : colOp) : Prop := match o with CAdd _ => False | _ => True end.
Definition sizedFor (d : solverData) (ops : list colOp) : Prop :=
  exists pre post1 post2, ops = pre ++ CNr d :: post1 ++ post2 /\ Forall (sameData d) (post1 ++ post2) /\ Forall noAdd post2 /\
    (post1 = [] \/ exists q, post1 = q ++ [CSizes]).

(** The robot has a degree of freedom. *)
Definition movable (mbs : list multibody) (r : nat) : bool := match nth_error mbs r with Some mb => (0 <? nrDof mb)%nat | None => false end.
Definition bodyIdx (nm : names) (r : nat) (b : string) : nat := match nBodyIndex nm r b with Ok i => i | _ => 0%nat end.
Definition pathOf (nm : names) (r : nat) (b : string) : list nat := match nPath nm r b with Ok p => p | _ => [] end.
Definition robot (mbs : list multibody) (r : nat) : multibody := nth r mbs (mkMB []).
Definition beginOf (d : solverData) (r : nat) : nat := match alphaDBegin d r with Ok b => b | _ => 0%nat end.

Section Geometry.
Variables (nm : names) (mbs : list multibody) (G : geom).

(** Pose of a hull: attached to its body, or where it was left when the robot cannot move. *)
Definition sidePose (e : cenv) (r : nat) (b : string) (o : nat) (X : PT) : PT :=
  if movable mbs r then pt_mul X (pPosW (eK e) r (bodyIdx nm r b)) else eH e o.
Definition pose1 (p : pairSpec) (e : cenv) : PT := sidePose e (psR1 p) (psB1 p) (psH1 p) (psX1 p).
Definition pose2 (p : pairSpec) (e : cenv) : PT := sidePose e (psR2 p) (psB2 p) (psH2 p) (psX2 p).
(** Signed distance of a pair (the square of which, with the sign of the penetration, is what sch gives), its closest points and the unit
    normal from the second to the first. *)
Definition signedRoot (s : R) : R := if Rlt_dec s 0 then - sqrt (Rabs s) else sqrt (Rabs s).
Definition pDist (p : pairSpec) (e : cenv) : R := signedRoot (gDist2 G (psH1 p) (psH2 p) (pose1 p e) (pose2 p e)).
Definition pW1 (p : pairSpec) (e : cenv) : V3 := gP1 G (psH1 p) (psH2 p) (pose1 p e) (pose2 p e).
Definition pW2 (p : pairSpec) (e : cenv) : V3 := gP2 G (psH1 p) (psH2 p) (pose1 p e) (pose2 p e).
Definition pNormal (p : pairSpec) (e : cenv) : V3 :=
  vsc (/ (if Req_EM_T (pDist p e) 0 then gEps G else pDist p e)) (vsub (pW1 p e) (pW2 p e)).
Definition near (p : pairSpec) (e : cenv) : Prop := pDist p e < psDi p.

(** Coordinates of the world point [w] in the frame of a body. *)
Definition bodyCoord (X : PT) (w : V3) : V3 := m3mulv (ptE X) (vsub w (ptr X)).
Definition ptOf (e : cenv) (r : nat) (b : string) (w : V3) : V3 := bodyCoord (pPosW (eK e) r (bodyIdx nm r b)) w.
(** Velocity of the point of a body that lies at [w], and its acceleration under the accelerations of [x], of which the
    joints are weighted by the selector. *)
Definition ptVel (e : cenv) (r : nat) (b : string) (w : V3) : V3 := pVel (eK e) r (pathOf nm r b) (ptOf e r b w).
Definition weight (sel : vec R) (j : nat) : R := if Nat.eqb (vlen sel) 0 then 1 else vget sel j.
Definition ptAcc (d : solverData) (e : cenv) (r : nat) (b : string) (w : V3) (sel : vec R) (x : nat -> R) : V3 :=
  let J l := jacDot (robot mbs r) (pathOf nm r b) (pJac (eK e) r (pathOf nm r b) (ptOf e r b w) l) (fun j => weight sel j * x (beginOf d r + j)%nat) in
  vadd (mkV3 (J 0%nat) (J 1%nat) (J 2%nat)) (pNAcc (eK e) r (pathOf nm r b) (ptOf e r b w)).
(** Selector of the second body. *)
Definition sel2 (p : pairSpec) : vec R := if Nat.eqb (psR1 p) (psR2 p) then psSel1 p else psSel2 p.
(** Velocities and accelerations of the closest points of the two bodies; a robot without degree of freedom is at rest. *)
Definition vel1 (p : pairSpec) (e : cenv) : V3 := if movable mbs (psR1 p) then ptVel e (psR1 p) (psB1 p) (pW1 p e) else v0.
Definition vel2 (p : pairSpec) (e : cenv) : V3 := if movable mbs (psR2 p) then ptVel e (psR2 p) (psB2 p) (pW2 p e) else v0.
Definition acc1 (d : solverData) (p : pairSpec) (e : cenv) (x : nat -> R) : V3 :=
  if movable mbs (psR1 p) then ptAcc d e (psR1 p) (psB1 p) (pW1 p e) (psSel1 p) x else v0.
Definition acc2 (d : solverData) (p : pairSpec) (e : cenv) (x : nat -> R) : V3 :=
  if movable mbs (psR2 p) then ptAcc d e (psR2 p) (psB2 p) (pW2 p e) (sel2 p) x else v0.

(** Rate of change of the distance, and its value after a time [dt] under [x] when the normal changes as it did since the
    normal [n0] of the previous update. *)
Definition distRate (p : pairSpec) (e : cenv) : R := dot (pNormal p e) (vsub (vel1 p e) (vel2 p e)).
Definition nextRate (d : solverData) (dt : R) (p : pairSpec) (n0 : V3) (e : cenv) (x : nat -> R) : R :=
  distRate p e + dt * (dot (pNormal p e) (vsub (acc1 d p e x) (acc2 d p e x))
                       + dot (vsc (/ dt) (vsub (pNormal p e) n0)) (vsub (vel1 p e) (vel2 p e))).
(** Normal at the last update; zero before the first one. *)
Definition lastNormal (p : pairSpec) (hs : list cenv) : V3 := match rev hs with [] => v0 | e :: _ => pNormal p e end.

(** The last stay in a region began with [e]. *)
Definition entered {A} (P : A -> Prop) (hs : list A) (e : A) : Prop :=
  exists pre post, hs = pre ++ e :: post /\ Forall P (e :: post) /\ (pre = [] \/ exists q pre', pre = pre' ++ [q] /\ ~ P q).
(** Damping chosen on entry for the speed [v] at distance [dist]. *)
Definition entryDamping (di ds off dist v : R) : R :=
  (di - ds) / (if Rle_dec dist ds then (di - ds) * (2 / 10) else dist - ds) * Rabs v + off.
(** Damping in force: the one given by the user, else the one chosen when the pair came within the interactive distance. *)
Definition inForce (rate : pairSpec -> cenv -> R) (p : pairSpec) (hs : list cenv) (xi : R) : Prop :=
  (0 < psDamping p /\ xi = psDamping p) \/
  (psDamping p <= 0 /\ exists e, entered (near p) hs e /\ xi = entryDamping (psDi p) (psDs p) (psOff p) (pDist p e) (rate p e)).
(** Pairs within their interactive distance. *)
Definition nearb (p : pairSpec) (e : cenv) : bool := Rltb (pDist p e) (psDi p).
Definition nearPairs (e : cenv) (l : list (pairSpec * list cenv)) : list (pairSpec * list cenv) := filter (fun ph => nearb (fst ph) e) l.

(** Every hull belongs to one body, at one place. *)
Definition ownerOf (r : nat) (b : string) (X : PT) : option (nat * nat * PT) :=
  if movable mbs r then Some (r, bodyIdx nm r b, X) else None.
Definition hullsOk (ps : list pairSpec) : Prop :=
  exists own : nat -> option (nat * nat * PT), forall p, In p ps ->
    own (psH1 p) = ownerOf (psR1 p) (psB1 p) (psX1 p) /\ own (psH2 p) = ownerOf (psR2 p) (psB2 p) (psX2 p).

(** What descInEq should say. *)
Definition mobileBodies (p : pairSpec) : list (nat * string) :=
  (if movable mbs (psR1 p) then [(psR1 p, psB1 p)] else []) ++ (if movable mbs (psR2 p) then [(psR2 p, psB2 p)] else []).
End Geometry.
(** body(bodyIndexByName(b)).name() = b. *)
Definition namesOk (nm : names) : Prop := forall r b i, nBodyIndex nm r b = Ok i -> nBodyName nm r i = b.

(** State [c] reached by the calls [ops], with matrices allocated for the data [d] of the problem. *)
Definition reaches (nm : names) (mbs : list multibody) (G : geom) (d : solverData) (step : R) (ops : list colOp) (c : collConstr) : Prop :=
  (exists c0, newCol mbs step = Ok c0 /\ colRun nm mbs G c0 ops = Ok c) /\ (exists uni bi deps, nrVarsData mbs uni bi = Ok (d, deps)) /\
  sizedFor d ops.
(** Arguments: paths of RBDyn, one owner for every hull, distinct interactive and security distances, a time step. *)
Definition sound (nm : names) (mbs : list multibody) (step : R) (ps : list pairSpec) : Prop :=
  pathsOk nm mbs /\ hullsOk nm mbs ps /\ step <> 0 /\ (forall p, In p ps -> psDi p <> psDs p).
(** Row number k of an inequality holds. *)
Definition holdsRow (n : nat) (x : nat -> R) (q : inequality) (k : nat) : Prop :=
  ele (Fin (sumn n (fun j => mget (iqA q) k j * x j))) (vget (iqB q) k).
