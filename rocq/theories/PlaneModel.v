(** Model of CoMIncPlaneConstr (/repo/src/QPConstr.cpp:621-811, Tasks/QPConstr.h:455-601). *)
From Verif Require Export CollisionModel.
Open Scope list_scope.
Open Scope R_scope.

(** External kinematics (RBDyn), for the configuration of one update: rbd::computeCoM, and jacobian, velocity and
    normalAcceleration of rbd::CoMJacobian. *)
Record ckin := mkCK { ckCom : V3; ckJac : nat -> nat -> R; ckVel : V3; ckNAcc : V3 }.

(** Arguments of addPlane, QPConstr.h:495-511. The first overload is the second one with zero speed and normalDot. *)
Record planeSpec := mkPlS {
  plId : Z; plN : V3; plO : R; plDi : R; plDs : R; plDamping : R; plOff : R; plSpeed : V3; plNDot : V3 }.
Definition stillPlane (id : Z) (n : V3) (o di ds damping off : R) : planeSpec := mkPlS id n o di ds damping off v0 v0.
(** struct PlaneData, QPConstr.h:560-587: what addPlane gave, and the members which change: dist, damping, dampingType. *)
Record plane := mkPlane { pnS : planeSpec; pnDist : R; pnDamping : R; pnType : dampingType }.
(** Members, QPConstr.h:590-600. alphaDBegin_ is -1 before updateNrVars: [None]. activated_ is empty between two calls and is
    a local list of [plUpdate]. *)
Record planeConstr := mkPC {
  pcRobot : nat; pcBegin : option nat; pcData : list plane; pcStep : R; pcVars : nat; pcNr : nat; pcSel : vec R;
  pcA : mat; pcB : vec R }.

(** Constructor, cpp:639-644. *)
Definition newPlanes (mbs : list multibody) (robot : nat) (step : R) : res planeConstr :=
  do mb <- vec_at mbs robot;
  Ok (mkPC robot None [] step 0 0 (vfill (nrDof mb) 1) (mzero 0 0) (vfill 0 0)).
Definition with_planes (c : planeConstr) (l : list plane) : planeConstr :=
  mkPC (pcRobot c) (pcBegin c) l (pcStep c) (pcVars c) (pcNr c) (pcSel c) (pcA c) (pcB c).
(** addPlane, cpp:646-671, with the constructor of PlaneData, cpp:625-637. *)
Definition addPlane (p : planeSpec) (c : planeConstr) : planeConstr :=
  with_planes c (pcData c ++ [mkPlane p 0 (plDamping p) (if Rltb 0 (plDamping p) then DHard else DFree)]).
(** rmPlane, cpp:673-686. *)
Fixpoint erasePlane (id : Z) (l : list plane) : list plane * bool :=
  match l with
  | [] => ([], false)
  | p :: l' => if Z.eqb (plId (pnS p)) id then (l', true) else let (l2, b) := erasePlane id l' in (p :: l2, b)
  end.
Definition rmPlane (id : Z) (c : planeConstr) : planeConstr * bool :=
  let (l, b) := erasePlane id (pcData c) in (with_planes c l, b).
(** nrPlanes, cpp:688-689; reset, cpp:691-692. *)
Definition nrPlanes (c : planeConstr) : nat := length (pcData c).
Definition plReset (c : planeConstr) : planeConstr := with_planes c [].
(** Assignment to selector(), QPConstr.h:531. *)
Definition setSelector (s : vec R) (c : planeConstr) : planeConstr :=
  mkPC (pcRobot c) (pcBegin c) (pcData c) (pcStep c) (pcVars c) (pcNr c) s (pcA c) (pcB c).
(** updateNrPlanes, cpp:694-698. *)
Definition updateNrPlanes (c : planeConstr) : planeConstr :=
  mkPC (pcRobot c) (pcBegin c) (pcData c) (pcStep c) (pcVars c) (pcNr c) (pcSel c)
       (mzero (length (pcData c)) (pcVars c)) (vfill (length (pcData c)) 0).
(** updateNrVars, cpp:700-705. *)
Definition plNrVars (d : solverData) (c : planeConstr) : res planeConstr :=
  do beg <- alphaDBegin d (pcRobot c);
  Ok (updateNrPlanes (mkPC (pcRobot c) (Some beg) (pcData c) (pcStep c) (sdNrVars d) (pcNr c) (pcSel c) (pcA c) (pcB c))).

(** First loop of update, cpp:717-730: the planes, and the content of activated_. *)
Fixpoint plScan (com : V3) (i : nat) (l : list plane) : list plane * list nat :=
  match l with
  | [] => ([], [])
  | p :: l' =>
    let dist := dot (plN (pnS p)) com + plO (pnS p) in
    let (l2, act) := plScan com (S i) l' in
    if Rleb dist (plDi (pnS p)) then (mkPlane (pnS p) dist (pnDamping p) (pnType p) :: l2, i :: act)
    else (mkPlane (pnS p) dist (pnDamping p) (match pnType p with DSoft => DFree | ty => ty end) :: l2, act)
  end.
(** dataVec_[i] = p. *)
Fixpoint setAt {A} (i : nat) (a : A) (l : list A) : list A :=
  match l, i with [], _ => [] | _ :: l', 0%nat => a :: l' | b :: l', S i' => b :: setAt i' a l' end.
(** cpp:745-753: damping and dampingType of an activated plane. Division by zero: [UB]. *)
Definition plDamp (p : plane) (distDot : R) : res (R * dampingType) :=
  match pnType p with
  | DFree =>
    let di := plDi (pnS p) in let ds := plDs (pnS p) in
    let fixedDist := if Rle_dec (pnDist p) ds then ds + (di - ds) * (2 / 10) else pnDist p in
    do _ <- guard (negb (Reqb (fixedDist - ds) 0));
    Ok (- ((di - ds) / (fixedDist - ds)) * distDot + plOff (pnS p), DSoft)
  | ty => Ok (pnDamping p, ty)
  end.
(** Second loop of update, cpp:739-765. The block of AInEq_ is written twice, the second time with the selector
    (cpp:758-760): the model keeps the second assignment, which writes the same block. *)
Fixpoint plRows (K : ckin) (dof : nat) (beg : option nat) (step : R) (sel : vec R) (act : list nat) (l : list plane) (nr : nat) (A : mat)
    (B : vec R) : res (list plane * nat * mat * vec R) :=
  match act with
  | [] => Ok (l, nr, A, B)
  | i :: act' =>
    do p <- vec_at l i;
    let s := pnS p in
    let distDot := dot (plN s) (vsub (ckVel K) (plSpeed s)) in
    let distDDot := dot (plNDot s) (vsub (ckVel K) (plSpeed s)) in
    do (k, ty) <- plDamp p distDot;
    do _ <- guard (negb (Reqb (plDi s - plDs s) 0));
    let dampers := k * ((pnDist p - plDs s) / (plDi s - plDs s)) in
    do b <- (match beg with Some b => Ok b | None => UB end);
    do A' <- mset_block A nr b
      (mkMat 1 dof (fun _ j => - sumn 3 (fun m => step * v3get (plN s) m * ckJac K m j) * vget sel j));
    do B' <- vput B nr (dampers + distDot + step * (dot (plN s) (ckNAcc K) + distDDot));
    plRows K dof beg step sel act' (setAt i (mkPlane s (pnDist p) k ty) l) (S nr) A' B'
  end.
(** update, cpp:707-769. *)
Definition plUpdate (mbs : list multibody) (K : ckin) (c : planeConstr) : res planeConstr :=
  do mb <- vec_at mbs (pcRobot c);
  do _ <- guard (Nat.eqb (vlen (pcSel c)) (nrDof mb));
  let (l, act) := plScan (ckCom K) 0 (pcData c) in
  do (l', nr, A, B) <- plRows K (nrDof mb) (pcBegin c) (pcStep c) (pcSel c) act l 0 (pcA c) (pcB c);
  Ok (mkPC (pcRobot c) (pcBegin c) l' (pcStep c) (pcVars c) nr (pcSel c) A B).

(** descInEq, cpp:774-799. The empty string is [None]. *)
Record plDesc := mkPDesc { dpId : Z; dpN : V3; dpO : R; dpDist : R; dpDi : R; dpDs : R; dpDamp : R; dpSpeed : V3; dpNDot : V3 }.
Fixpoint plDescLoop (line cur : nat) (l : list plane) : option plDesc :=
  match l with
  | [] => None
  | p :: l' =>
    if Rltb (pnDist p) (plDi (pnS p)) then
      if Nat.eqb cur line then
        Some (mkPDesc (plId (pnS p)) (plN (pnS p)) (plO (pnS p)) (pnDist p) (plDi (pnS p)) (plDs (pnS p)) (pnDamping p)
                      (plSpeed (pnS p)) (plNDot (pnS p)))
      else plDescLoop line (S cur) l'
    else plDescLoop line cur l'
  end.
Definition plDescInEq (c : planeConstr) (line : nat) : option plDesc := plDescLoop line 0 (pcData c).
(** nrInEq, maxInEq, AInEq, bInEq, cpp:801-811. *)
Definition plInEq (c : planeConstr) : inequality := mkIneq (length (pcData c)) (pcNr c) (pcA c) (vmap Fin (pcB c)).
