(** Vocabulary of the properties of ImageConstr. *)
From Verif Require Export ImageModel CollisionSpec.
Open Scope list_scope.
Open Scope R_scope.

(** Arguments of setLimits. *)
Record limArgs := mkLA { aMin : V2; aMax : V2; aI : R; aS : R; aDamp : R; aOff : R }.
(** Calls. *)
Inductive iOp := IAdd (p : V2) (depth : R) | IAdd3 (p : V3) | IRob (body : string) | IReset | IMove (id : nat) (p : V2) | IMove2 (id : nat) (p : V2) (depth : R)
  | IMove3 (id : nat) (p : V3) | ILim (a : limArgs) | INr (d : solverData) | IUp (K : camKin).
Definition iStep (F : imgFun) (nm : names) (mbs : list multibody) (c : imgConstr) (o : iOp) : res imgConstr :=
  match o with
  | IAdd p z => Ok (fst (imAdd2 p z c))
  | IAdd3 p => do r <- imAdd3 p c; Ok (fst r)
  | IRob b => imAddRob nm b c
  | IReset => Ok (imReset c)
  | IMove id p => imMove id p c
  | IMove2 id p z => imMove2 id p z c
  | IMove3 id p => imMove3 id p c
  | ILim a => Ok (setLimits (aMin a) (aMax a) (aI a) (aS a) (aDamp a) (aOff a) c)
  | INr d => imNrVars d c
  | IUp K => imUpdate F mbs K c
  end.
Fixpoint iRun (F : imgFun) (nm : names) (mbs : list multibody) (c : imgConstr) (ops : list iOp) : res imgConstr :=
  match ops with [] => Ok c | o :: ops' => do c' <- iStep F nm mbs c o; iRun F nm mbs c' ops' end.

(** Points of the environment after the calls, by number; points of the robot; limits last given. *)
Definition change {A} (id : nat) (f : A -> A) (l : list A) : list A := map (fun ia => if Nat.eqb (fst ia) id then f (snd ia) else snd ia) (combine (seq 0 (length l)) l).
Definition over (p : V3) : V2 := (vx p / vz p, vy p / vz p).
Fixpoint pointsFrom (l : list imPoint) (ops : list iOp) : list imPoint :=
  match ops with
  | [] => l
  | IAdd p z :: ops' => pointsFrom (l ++ [mkIP p z]) ops'
  | IAdd3 p :: ops' => pointsFrom (l ++ [mkIP (over p) (vz p)]) ops'
  | IReset :: ops' => pointsFrom [] ops'
  | IMove id p :: ops' => pointsFrom (change id (fun q => mkIP p (ipDepth q)) l) ops'
  | IMove2 id p z :: ops' => pointsFrom (change id (fun _ => mkIP p z) l) ops'
  | IMove3 id p :: ops' => pointsFrom (change id (fun _ => mkIP (over p) (vz p)) l) ops'
  | _ :: ops' => pointsFrom l ops'
  end.
Definition pointsAfter (ops : list iOp) : list imPoint := pointsFrom [] ops.
Fixpoint robFrom (l : list string) (ops : list iOp) : list string :=
  match ops with [] => l | IRob b :: ops' => robFrom (l ++ [b]) ops' | IReset :: ops' => robFrom [] ops' | _ :: ops' => robFrom l ops' end.
Definition robAfter (ops : list iOp) : list string := robFrom [] ops.
Definition lastLimits (a : limArgs) (ops : list iOp) : Prop := exists pre post, ops = pre ++ ILim a :: post /\ forall a', ~ In (ILim a') post.
(** The matrices were allocated after the last addition. *)
Definition iSized (d : solverData) (ops : list iOp) : Prop :=
  exists pre post, ops = pre ++ INr d :: post /\ Forall (fun o => match o with IAdd _ _ | IAdd3 _ | IRob _ | INr _ => False | _ => True end) post.
Definition iReaches (F : imgFun) (nm : names) (mbs : list multibody) (r : nat) (body : string) (d : solverData) (step dir : R) (ops : list iOp) (a : limArgs) (c : imgConstr) : Prop :=
  (exists uni bi deps, nrVarsData mbs uni bi = Ok (d, deps)) /\ pathsOk nm mbs /\ (exists c0, newImage nm mbs r body step dir = Ok c0 /\ iRun F nm mbs c0 ops = Ok c) /\
  iSized d ops /\ lastLimits a ops.

(** Motion of the image of a fixed point: velocity, acceleration under the accelerations of [x], and how far coordinate [i] goes in one
    step at that velocity and acceleration. *)
Section Motion.
Variables (F : imgFun) (K : camKin).
Definition featVel (p : imPoint) (i : nat) : R := sumn 6 (fun q => imgJac F (ipAt p) (ipDepth p) i q * cmVel K q).
Definition depthRate (p : imPoint) : R := sumn 6 (fun q => imgDepthDot F (featVel p 0, featVel p 1) (ipDepth p) q * cmVel K q).
Definition featAcc (mb : multibody) (path : list nat) (p : imPoint) (qdd : nat -> R) (i : nat) : R :=
  sumn 6 (fun q => imgJac F (ipAt p) (ipDepth p) i q * (jacDot mb path (cmJac K q) qdd + cmNAcc K q)) +
  sumn 6 (fun q => imgJacDot F (ipAt p) (featVel p 0, featVel p 1) (ipDepth p) (depthRate p) i q * cmVel K q).
End Motion.
Definition moved (F : imgFun) (nm : names) (mbs : list multibody) (r : nat) (body : string) (d : solverData) (step : R) (K : camKin) (p : imPoint) (x : nat -> R) (i : nat) : R :=
  step * featVel F K p i + step * step / 2 * featAcc F K (robot mbs r) (pathOf nm r body) p (fun j => x (beginOf d r + j)%nat) i.

(** Field of view: interactive and safety limits inside the image [aMin, aMax]. *)
Definition width (a : limArgs) (i : nat) : R := ax (aMax a) i - ax (aMin a) i.
Definition lowI (a : limArgs) (i : nat) : R := ax (aMin a) i + aI a * width a i.
Definition highI (a : limArgs) (i : nat) : R := ax (aMax a) i - aI a * width a i.
Definition lowS (a : limArgs) (i : nat) : R := ax (aMin a) i + aS a * width a i.
Definition highS (a : limArgs) (i : nat) : R := ax (aMax a) i - aS a * width a i.
(** Sensible arguments: a nonempty image, and the safety limits outside the interactive limits. *)
Definition limOk (a : limArgs) : Prop := 0 < width a 0 /\ 0 < width a 1 /\ 0 <= aS a < aI a /\ aI a <= 1 / 2.
Definition nearLow (a : limArgs) (p : imPoint) (i : nat) : Prop := lowS a i < ax (ipAt p) i < lowI a i.
Definition nearHigh (a : limArgs) (p : imPoint) (i : nat) : Prop := highI a i < ax (ipAt p) i < highS a i.
Definition inb (u v w : R) : bool := if Rlt_dec u v then if Rlt_dec v w then true else false else false.
(** The sides which a feature approaches, in the order of the rows: feature number, feature, axis, and whether it is the upper side. *)
Definition fovSide (a : limArgs) (p : imPoint) (i : nat) : list bool :=
  if inb (lowS a i) (ax (ipAt p) i) (lowI a i) then [false] else if inb (highI a i) (ax (ipAt p) i) (highS a i) then [true] else [].
(** Occlusion: the zones lie outside the rectangle, a side counts when the other coordinate is within the interactive limits, and the sign of the coordinate chooses the side. *)
Definition oLowI (a : limArgs) (i : nat) : R := ax (aMin a) i - aI a * width a i.
Definition oHighI (a : limArgs) (i : nat) : R := ax (aMax a) i + aI a * width a i.
Definition oLowS (a : limArgs) (i : nat) : R := ax (aMin a) i - aS a * width a i.
Definition oHighS (a : limArgs) (i : nat) : R := ax (aMax a) i + aS a * width a i.
Definition occSide (a : limArgs) (p : imPoint) (i : nat) : list bool :=
  if inb (oLowI a (1 - i)) (ax (ipAt p) (1 - i)) (oHighI a (1 - i)) then
    if inb (oLowI a i) (ax (ipAt p) i) (Rmin 0 (oLowS a i)) then [false]
    else if inb (Rmax 0 (oHighS a i)) (ax (ipAt p) i) (oHighI a i) then [true] else []
  else [].
Definition numbered {A} (l : list A) : list (nat * A) := combine (seq 0 (length l)) l.
Definition sideRows (side : imPoint -> nat -> list bool) (l : list imPoint) : list (nat * imPoint * nat * bool) :=
  flat_map (fun kp => flat_map (fun i => map (fun s => (fst kp, snd kp, i, s)) (side (snd kp) i)) [0%nat; 1%nat]) (numbered l).
(** What the row of a side asks in the field of view: coordinate [i] moves towards the limit by at most [aDamp] times the part of the zone that is left, less the offset. *)
Definition fovAsk (a : limArgs) (p : imPoint) (i : nat) (s : bool) (move : R) : Prop :=
  if s then move <= aDamp a * ((highS a i - ax (ipAt p) i) / (highS a i - highI a i)) - aOff a * aDamp a
  else - move <= aDamp a * ((ax (ipAt p) i - lowS a i) / (lowI a i - lowS a i)) - aOff a * aDamp a.
(** What the row of a side asks with occlusion: the coordinate moves away by at least this much. *)
Definition occAsk (a : limArgs) (p : imPoint) (i : nat) (s : bool) (move : R) : Prop :=
  if s then aDamp a * ((ax (ipAt p) i - oHighS a i) / (oHighI a i - oHighS a i)) + aOff a * aDamp a <= move
  else aDamp a * ((oLowS a i - ax (ipAt p) i) / (oLowS a i - oLowI a i)) + aOff a * aDamp a <= - move.
(** A feature is measured and the constraint updated [n] times. *)
Definition tracks (id : nat) (ps : nat -> imPoint) (Ks : nat -> camKin) (n : nat) : list iOp :=
  flat_map (fun m => [IMove2 id (ipAt (ps m)) (ipDepth (ps m)); IUp (Ks m)]) (seq 0 n).
