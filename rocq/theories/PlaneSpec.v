(** Vocabulary of the properties of the planes for the centre of mass. *)
From Verif Require Export PlaneModel CollisionSpec.
Open Scope list_scope.
Open Scope R_scope.

(** Calls. *)
Inductive plOp := LAdd (p : planeSpec) | LRm (id : Z) | LReset | LSel (s : vec R) | LSizes | LNr (d : solverData) | LUp (K : ckin).
Definition plStep (mbs : list multibody) (c : planeConstr) (o : plOp) : res planeConstr :=
  match o with
  | LAdd p => Ok (addPlane p c)
  | LRm id => Ok (fst (rmPlane id c))
  | LReset => Ok (plReset c)
  | LSel s => Ok (setSelector s c)
  | LSizes => Ok (updateNrPlanes c)
  | LNr d => plNrVars d c
  | LUp K => plUpdate mbs K c
  end.
Fixpoint plRun (mbs : list multibody) (c : planeConstr) (ops : list plOp) : res planeConstr :=
  match ops with [] => Ok c | o :: ops' => do c' <- plStep mbs c o; plRun mbs c' ops' end.

(** Planes in force after the calls, oldest first, each with what the updates since its addition have found. *)
Fixpoint dropPlane (id : Z) (l : list (planeSpec * list ckin)) : list (planeSpec * list ckin) :=
  match l with [] => [] | ph :: l' => if Z.eqb (plId (fst ph)) id then l' else ph :: dropPlane id l' end.
Fixpoint planesFrom (l : list (planeSpec * list ckin)) (ops : list plOp) : list (planeSpec * list ckin) :=
  match ops with
  | [] => l
  | LAdd p :: ops' => planesFrom (l ++ [(p, [])]) ops'
  | LRm id :: ops' => planesFrom (dropPlane id l) ops'
  | LReset :: ops' => planesFrom [] ops'
  | LUp K :: ops' => planesFrom (map (fun ph => (fst ph, snd ph ++ [K])) l) ops'
  | _ :: ops' => planesFrom l ops'
  end.
Definition planesAfter (ops : list plOp) : list (planeSpec * list ckin) := planesFrom [] ops.
(** The selector in force: the last one given, else all ones. *)
Fixpoint selFrom (s : vec R) (ops : list plOp) : vec R :=
  match ops with [] => s | LSel s' :: ops' => selFrom s' ops' | _ :: ops' => selFrom s ops' end.

(** The data of the problem were given last by [d], and the matrices were allocated after the last addition. *)
Definition noNr (o : plOp) : Prop := match o with LNr _ => False | _ => True end.
Definition plNoAdd (o : plOp) : Prop := match o with LAdd _ => False | _ => True end.
Definition plSized (d : solverData) (ops : list plOp) : Prop :=
  exists pre post1 post2, ops = pre ++ LNr d :: post1 ++ post2 /\ Forall noNr (post1 ++ post2) /\ Forall plNoAdd post2 /\
    (post1 = [] \/ exists q, post1 = q ++ [LSizes]).

(** Signed distance of the centre of mass to a plane, and its rate with respect to the moving plane. *)
Definition plDist (p : planeSpec) (K : ckin) : R := dot (plN p) (ckCom K) + plO p.
Definition plRate (p : planeSpec) (K : ckin) : R := dot (plN p) (vsub (ckVel K) (plSpeed p)).
Definition within (p : planeSpec) (K : ckin) : Prop := plDist p K <= plDi p.
(** Acceleration of the centre of mass under the accelerations of [x], which start at [beg]. *)
Definition comAcc (dof beg : nat) (sel : vec R) (K : ckin) (x : nat -> R) : V3 :=
  let J m := sumn dof (fun j => ckJac K m j * (vget sel j * x (beg + j)%nat)) in
  vadd (mkV3 (J 0%nat) (J 1%nat) (J 2%nat)) (ckNAcc K).
(** Rate after a time [dt]. *)
Definition plNext (dt : R) (dof beg : nat) (sel : vec R) (p : planeSpec) (K : ckin) (x : nat -> R) : R :=
  plRate p K + dt * (dot (plN p) (comAcc dof beg sel K x) + dot (plNDot p) (vsub (ckVel K) (plSpeed p))).
(** Damping chosen on entry: signed, so that a plane from which the centre of mass moves away gets a negative one. *)
Definition plEntry (p : planeSpec) (K : ckin) : R :=
  - ((plDi p - plDs p) / (if Rle_dec (plDist p K) (plDs p) then (plDi p - plDs p) * (2 / 10) else plDist p K - plDs p)) * plRate p K + plOff p.
Definition plForce (p : planeSpec) (hs : list ckin) (xi : R) : Prop :=
  (0 < plDamping p /\ xi = plDamping p) \/ (plDamping p <= 0 /\ exists K, entered (within p) hs K /\ xi = plEntry p K).
Definition withinb (p : planeSpec) (K : ckin) : bool := Rleb (plDist p K) (plDi p).
Definition withinPlanes (K : ckin) (l : list (planeSpec * list ckin)) : list (planeSpec * list ckin) := filter (fun ph => withinb (fst ph) K) l.
(** What descInEq should print. *)
Definition plText (p : planeSpec) (K : ckin) (xi : R) : plDesc :=
  mkPDesc (plId p) (plN p) (plO p) (plDist p K) (plDi p) (plDs p) xi (plSpeed p) (plNDot p).

(** State [c] reached by the calls [ops], with matrices allocated for the data [d] of the problem. *)
Definition plReaches (mbs : list multibody) (robot : nat) (d : solverData) (step : R) (ops : list plOp) (c : planeConstr) : Prop :=
  (exists c0, newPlanes mbs robot step = Ok c0 /\ plRun mbs c0 ops = Ok c) /\ (exists uni bi deps, nrVarsData mbs uni bi = Ok (d, deps)) /\
  plSized d ops.
Definition plSound (ps : list (planeSpec * list ckin)) : Prop := Forall (fun ph => plDi (fst ph) <> plDs (fst ph)) ps.
