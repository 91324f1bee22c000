(** Vocabulary of the contact constraint properties. *)
From Coq Require Import Sorted.
From Verif Require Export FillSpec ContactConstrModel.
Open Scope R_scope.

(* ------------------------------------------------------------------ *)
(** * Call histories *)

(** Public calls on a contact constraint. *)
Inductive ccOp :=
| OAddVirtual (id : contactId) | ORemVirtual (id : contactId) | OResetVirtual
| OAddDof (id : contactId) (m : mat) | ORemDof (id : contactId) | OResetDof
| OHasDof (id : contactId) | OGetDof (id : contactId)
| ONrVars (nm : names) (mbs : list multibody) (d : solverData)
| OUpdateDof | OUpdate (m : cmode) (mbs : list multibody) (sv : sva) (k : kin).

(** New state and, for the calls that return a boolean, that boolean. *)
Definition ccStep (c : contactConstr) (o : ccOp) : res (contactConstr * option bool) :=
  match o with
  | OAddVirtual id => let (c', b) := addVirtualContact c id in Ok (c', Some b)
  | ORemVirtual id => let (c', b) := removeVirtualContact c id in Ok (c', Some b)
  | OResetVirtual => Ok (resetVirtualContacts c, None)
  | OAddDof id m => let (c', b) := addDofContact c id m in Ok (c', Some b)
  | ORemDof id => let (c', b) := removeDofContact c id in Ok (c', Some b)
  | OResetDof => Ok (resetDofContacts c, None)
  | OHasDof id => Ok (c, Some (hasDoFContact c id))
  | OGetDof id => Ok (fst (dofContact c id), None)
  | ONrVars nm mbs d => do c' <- updateNrVars nm mbs d c; Ok (c', None)
  | OUpdateDof => Ok (updateDofContacts c, None)
  | OUpdate m mbs sv k => do c' <- ccUpdate m mbs sv k c; Ok (c', None)
  end.
Fixpoint ccRun (c : contactConstr) (ops : list ccOp) : res (contactConstr * list (option bool)) :=
  match ops with
  | [] => Ok (c, [])
  | o :: ops' =>
    do (c1, b) <- ccStep c o;
    do (c2, bs) <- ccRun c1 ops';
    Ok (c2, b :: bs)
  end.

(** ** What the registries should be: a set and a finite map. *)
Record registry := mkRegistry { aVirt : contactId -> Prop; aDof : contactId -> option mat }.
Definition emptyRegistry : registry := mkRegistry (fun _ => False) (fun _ => None).
(** Effect of a call, and what the returned boolean should say. *)
Inductive regStep : registry -> ccOp -> registry -> (option bool -> Prop) -> Prop :=
| rsAddV g id : regStep g (OAddVirtual id) (mkRegistry (fun i => i = id \/ aVirt g i) (aDof g))
                        (fun o => exists b, o = Some b /\ (b = true <-> ~ aVirt g id))
| rsRemV g id : regStep g (ORemVirtual id) (mkRegistry (fun i => i <> id /\ aVirt g i) (aDof g))
                        (fun o => exists b, o = Some b /\ (b = true <-> aVirt g id))
| rsResetV g : regStep g OResetVirtual (mkRegistry (fun _ => False) (aDof g)) (fun o => o = None)
| rsAddDnew g id m f : aDof g id = None -> f id = Some m -> (forall i, i <> id -> f i = aDof g i) ->
    regStep g (OAddDof id m) (mkRegistry (aVirt g) f) (fun o => o = Some true)
| rsAddDold g id m m0 : aDof g id = Some m0 -> regStep g (OAddDof id m) g (fun o => o = Some false)
| rsRemDold g id m0 f : aDof g id = Some m0 -> f id = None -> (forall i, i <> id -> f i = aDof g i) ->
    regStep g (ORemDof id) (mkRegistry (aVirt g) f) (fun o => o = Some true)
| rsRemDnew g id : aDof g id = None -> regStep g (ORemDof id) g (fun o => o = Some false)
| rsResetD g : regStep g OResetDof (mkRegistry (aVirt g) (fun _ => None)) (fun o => o = None)
| rsHas g id : regStep g (OHasDof id) g (fun o => exists b, o = Some b /\ (b = true <-> aDof g id <> None))
| rsNr g nm mbs d : regStep g (ONrVars nm mbs d) g (fun o => o = None)
| rsUpD g : regStep g OUpdateDof g (fun o => o = None)
| rsUp g m mbs sv k : regStep g (OUpdate m mbs sv k) g (fun o => o = None).
Inductive regRun : registry -> list ccOp -> registry -> list (option bool) -> Prop :=
| rrNil g : regRun g [] g []
| rrCons g o ops g1 g2 P b bs : regStep g o g1 P -> P b -> regRun g1 ops g2 bs -> regRun g (o :: ops) g2 (b :: bs).

(** ** The same, read off the history. *)
(** The last operation on [id] made it virtual. *)
Definition addedLast (id : contactId) (ops : list ccOp) : Prop :=
  exists pre post, ops = pre ++ OAddVirtual id :: post /\ ~ In (ORemVirtual id) post /\ ~ In OResetVirtual post.
(** Every matrix given to [id] has been removed since. *)
Definition dofAbsent (id : contactId) (ops : list ccOp) : Prop :=
  forall pre m post, ops = pre ++ OAddDof id m :: post -> In (ORemDof id) post \/ In OResetDof post.
(** [m] was given to [id] when it had no matrix, and has not been removed since. *)
Definition dofGiven (id : contactId) (m : mat) (ops : list ccOp) : Prop :=
  exists pre post, ops = pre ++ OAddDof id m :: post /\ ~ In (ORemDof id) post /\ ~ In OResetDof post /\ dofAbsent id pre.

(** What the constraint holds after a history. *)
Definition isVirtual (c : contactConstr) (id : contactId) : Prop := In id (map fst (ccVirtual c)).
Definition dofIs (c : contactConstr) (id : contactId) (m : mat) : Prop := In (id, m) (ccDofs c).
Definition noGet (o : ccOp) : Prop := match o with OGetDof _ => False | _ => True end.

(* ------------------------------------------------------------------ *)
(** * Contacts used *)

(** First contact of a list with the given id. *)
Fixpoint firstWith (id : contactId) (cs : list bilateral) : option bilateral :=
  match cs with [] => None | b :: cs' => if cid_eqb (bId b) id then Some b else firstWith id cs' end.
(** Strictly increasing ids. *)
Definition increasing (ids : list contactId) : Prop := StronglySorted (fun a b => cid_ltb a b = true) ids.

(** The entry of robot [r] in the sides of a contact: none when the robot has no degree of freedom. *)
Definition sideFor (nm : names) (d : solverData) (r : nat) (mb : multibody) (body : string) (s : R) (X : PT) (l : list csd) : Prop :=
  (nrDof mb = 0%nat /\ l = []) \/
  ((0 < nrDof mb)%nat /\ exists b p, alphaDBegin d r = Ok b /\ nPath nm r body = Ok p /\ p <> [] /\
     l = [mkCSD r b (last p 0%nat) s p X]).
(** Index of the body of a contact in its robot. *)
Definition bodyFor (nm : names) (r : nat) (mb : multibody) (body : string) (b : nat) : Prop :=
  (nrDof mb = 0%nat /\ nBodyIndex nm r body = Ok b) \/
  ((0 < nrDof mb)%nat /\ exists p, nPath nm r body = Ok p /\ p <> [] /\ b = last p 0%nat).
(** The data kept for a contact: its sides are the mobile robots it involves, first robot first with sign 1. *)
Definition dataFor (nm : names) (mbs : list multibody) (d : solverData) (cd : cdata) : Prop :=
  exists mb1 mb2 l1 l2,
    (0 <= r1Index (cdId cd))%Z /\ (0 <= r2Index (cdId cd))%Z /\
    cdR1 cd = Z.to_nat (r1Index (cdId cd)) /\ cdR2 cd = Z.to_nat (r2Index (cdId cd)) /\
    nth_error mbs (cdR1 cd) = Some mb1 /\ nth_error mbs (cdR2 cd) = Some mb2 /\
    cdSides cd = l1 ++ l2 /\
    sideFor nm d (cdR1 cd) mb1 (r1Body (cdId cd)) 1 (cdXcf cd) l1 /\
    sideFor nm d (cdR2 cd) mb2 (r2Body (cdId cd)) (-1) (pt_mul (cdXcf cd) (pt_inv (cdXbb cd))) l2 /\
    bodyFor nm (cdR1 cd) mb1 (r1Body (cdId cd)) (cdB1 cd) /\ bodyFor nm (cdR2 cd) mb2 (r2Body (cdId cd)) (cdB2 cd).

(* ------------------------------------------------------------------ *)
(** * Meaning of the rows *)

(** Component [l] of the spatial acceleration of a body of robot [r] at the frame [X] (in the body's
    coordinates) when the decision variables are [x]; zero for a robot without degree of freedom. *)
Definition bodyAcc (nm : names) (mbs : list multibody) (d : solverData) (k : kin) (r : nat) (body : string) (X : PT)
    (x : nat -> R) (l : nat) : R :=
  match nth_error mbs r, nPath nm r body, alphaDBegin d r with
  | Some mb, Ok p, Ok b =>
      if (0 <? nrDof mb)%nat
      then jacDot mb p (kJac k r p (pt_mul X (kPosW k r (last p 0%nat))) l) (fun j => x (b + j)%nat) + kNAcc k r p X l
      else 0
  | _, _, _ => 0
  end.
(** Its current spatial velocity. *)
Definition bodyVel (nm : names) (mbs : list multibody) (k : kin) (r : nat) (body : string) (X : PT) (l : nat) : R :=
  match nth_error mbs r, nPath nm r body with
  | Some mb, Ok p => if (0 <? nrDof mb)%nat then kVel k r p X l else 0
  | _, _ => 0
  end.
(** Relative acceleration and velocity at the contact frame: first body minus second body. *)
Definition relAcc nm mbs d k (cd : cdata) (x : nat -> R) (l : nat) : R :=
  bodyAcc nm mbs d k (cdR1 cd) (r1Body (cdId cd)) (cdXcf cd) x l
  - bodyAcc nm mbs d k (cdR2 cd) (r2Body (cdId cd)) (pt_mul (cdXcf cd) (pt_inv (cdXbb cd))) x l.
Definition relVel nm mbs k (cd : cdata) (l : nat) : R :=
  bodyVel nm mbs k (cdR1 cd) (r1Body (cdId cd)) (cdXcf cd) l
  - bodyVel nm mbs k (cdR2 cd) (r2Body (cdId cd)) (pt_mul (cdXcf cd) (pt_inv (cdXbb cd))) l.
(** Difference between the two poses of the contact frame: rotation then translation. *)
Definition poseError (sv : sva) (X1 X2 : PT) (l : nat) : R :=
  let X := pt_mul X2 (pt_inv X1) in
  match l with
  | 0%nat => vx (rotationVelocity sv (ptE X)) | 1%nat => vy (rotationVelocity sv (ptE X)) | 2%nat => vz (rotationVelocity sv (ptE X))
  | 3%nat => vx (ptr X) | 4%nat => vy (ptr X) | 5%nat => vz (ptr X) | _ => 0
  end.
Definition frameError (sv : sva) (k : kin) (cd : cdata) (l : nat) : R :=
  poseError sv (pt_mul (cdXcf cd) (kPosW k (cdR1 cd) (cdB1 cd)))
               (pt_mul (pt_mul (cdXcf cd) (pt_inv (cdXbb cd))) (kPosW k (cdR2 cd) (cdB2 cd))) l.
(** The quantity that a contact constraint asks to vanish: the relative acceleration, the relative
    velocity at the end of the step, that velocity minus the pose error. *)
Definition required (m : cmode) (a v e : R) : R :=
  match m with CAcc => a | CSpeed dt => v + dt * a | CPos dt => v + dt * a - e end.
Definition modeOk (m : cmode) : Prop := match m with CAcc => True | CSpeed dt | CPos dt => dt <> 0 end.
(** The selected components of the required quantity vanish. *)
Definition contactHolds nm mbs d m sv k (cd : cdata) (x : nat -> R) : Prop :=
  forall r, (r < mrows (cdDof cd))%nat ->
    sumn 6 (fun l => mget (cdDof cd) r l * required m (relAcc nm mbs d k cd x l) (relVel nm mbs k cd l) (frameError sv k cd l)) = 0.

(** Calls that leave the robots and the variables as they are. *)
Definition sameProblem (mbs : list multibody) (o : ccOp) : Prop :=
  match o with ONrVars _ _ _ => False | OUpdate _ mbs' _ _ => mbs' = mbs | _ => True end.
(** The paths returned by RBDyn go through distinct joints of the robot. *)
Definition pathsOk (nm : names) (mbs : list multibody) : Prop :=
  forall r mb body p, nth_error mbs r = Some mb -> nPath nm r body = Ok p -> wfPath mb p.

(** A line belongs to a contact. *)
Definition ownsLine (cs : list cdata) (i line : nat) : Prop :=
  (sumnat (map (fun c => mrows (cdDof c)) (firstn i cs)) <= line < sumnat (map (fun c => mrows (cdDof c)) (firstn (S i) cs)))%nat
  /\ (i < length cs)%nat.

(** Selection matrices with six columns and at most six rows. *)
Definition wfDof (m : mat) : Prop := (mrows m <= 6)%nat /\ mcols m = 6%nat.
(** All the matrices a call gives to the constraint satisfy [P]. The getter dofContact inserts an empty
    matrix when the contact has none. *)
Definition addsOnly (P : mat -> Prop) (o : ccOp) : Prop := match o with OAddDof _ m => P m | OGetDof _ => P (mzero 0 0) | _ => True end.
(** One of the two robots of a contact has a degree of freedom. *)
Definition mobile (mbs : list multibody) (id : contactId) : Prop :=
  exists mb, (nth_error mbs (Z.to_nat (r1Index id)) = Some mb \/ nth_error mbs (Z.to_nat (r2Index id)) = Some mb) /\ (0 < nrDof mb)%nat.

(** Names of the bodies of a contact, as descEq should list them. *)
Definition bodyNames (nm : names) (cd : cdata) : list string := map (fun s => nBodyName nm (cRobot s) (cBody s)) (cdSides cd).
(** Every direction of the contact is selected. *)
Definition allSelected (dof : mat) : Prop := forall j, (j < 6)%nat -> exists r, (r < mrows dof)%nat /\ mget dof r j = 1.
(** sva::transformError between two poses of the same orientation is the difference of the positions. *)
Definition translationError (sv : sva) : Prop :=
  forall X1 X2, ptE X1 = m3id -> ptE X2 = m3id ->
    transformError sv X1 X2 0 = 0 /\ transformError sv X1 X2 1 = 0 /\ transformError sv X1 X2 2 = 0 /\
    transformError sv X1 X2 3 = vx (ptr X2) - vx (ptr X1) /\ transformError sv X1 X2 4 = vy (ptr X2) - vy (ptr X1) /\
    transformError sv X1 X2 5 = vz (ptr X2) - vz (ptr X1).
(** A motion of the reference frame given by six coordinates: three successive rotations and a translation. *)
Definition motion (e : nat -> R) : PT :=
  mkPT (m3mul (m3mul (RotX (e 0%nat)) (RotY (e 1%nat))) (RotZ (e 2%nat))) (mkV3 (e 3%nat) (e 4%nat) (e 5%nat)).
