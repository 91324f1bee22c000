(** Vocabulary of the properties of the gripper torque constraint. *)
From Verif Require Export GripperModel CollisionSpec ContactSpec.
Open Scope list_scope.
Open Scope R_scope.

(** Calls. *)
Inductive gOp := GAdd (g : gripper) | GRm (id : contactId) | GReset | GNr (d : solverData) | GUp.
Definition gStep (c : gripConstr) (o : gOp) : res gripConstr :=
  match o with
  | GAdd g => Ok (addGripper g c)
  | GRm id => Ok (fst (rmGripper id c))
  | GReset => Ok (gripReset c)
  | GNr d => gripNrVars d c
  | GUp => Ok (gripUpdate c)
  end.
Fixpoint gRun (c : gripConstr) (ops : list gOp) : res gripConstr :=
  match ops with [] => Ok c | o :: ops' => do c' <- gStep c o; gRun c' ops' end.

(** Grippers in force after the calls, oldest first. *)
Definition cid_dec (a b : contactId) : {a = b} + {a <> b}.
Proof. decide equality; try apply Z.eq_dec; apply string_dec. Defined.
Fixpoint dropGrip (id : contactId) (l : list gripper) : list gripper :=
  match l with [] => [] | g :: l' => if cid_dec (grId g) id then l' else g :: dropGrip id l' end.
Fixpoint gripsFrom (l : list gripper) (ops : list gOp) : list gripper :=
  match ops with
  | [] => l
  | GAdd g :: ops' => gripsFrom (l ++ [g]) ops'
  | GRm id :: ops' => gripsFrom (dropGrip id l) ops'
  | GReset :: ops' => gripsFrom [] ops'
  | _ :: ops' => gripsFrom l ops'
  end.
Definition gripsAfter (ops : list gOp) : list gripper := gripsFrom [] ops.
(** The last call other than update is updateNrVars with data [d]. *)
Definition gSized (d : solverData) (ops : list gOp) : Prop := exists pre n, ops = pre ++ GNr d :: repeat GUp n.

(** [b] is the first bilateral contact with the id of [g], and has number [k] among them. *)
Definition contactOf (bi : list bilateral) (g : gripper) (k : nat) (b : bilateral) : Prop :=
  nth_error bi k = Some b /\ bId b = grId g /\ forall k' b', (k' < k)%nat -> nth_error bi k' = Some b' -> bId b' <> grId g.
(** Grippers which have a contact. *)
Definition gripped (bi : list bilateral) (gs : list gripper) : list gripper :=
  filter (fun g => existsb (fun b => if cid_dec (bId b) (grId g) then true else false) bi) gs.
(** Torque about the axis through the origin of the gripper of the forces [fs] applied at the points [ps]. *)
Fixpoint torqueAbout (o axis : V3) (ps fs : list V3) : R :=
  match ps, fs with p :: ps', f :: fs' => dot axis (cross (vsub p o) f) + torqueAbout o axis ps' fs' | _, _ => 0 end.
(** The one of the contact forces of contact [b] for the multipliers which start at [pos] in [x]. *)
Definition gripTorque (g : gripper) (b : bilateral) (x : nat -> R) (pos : nat) : R :=
  torqueAbout (grOrigin g) (grAxis g) (bR1Points b) (forces (bR1Cones b) x pos).
(** No generator of the contact turns backwards about the axis. *)
Definition forwardOnly (g : gripper) (b : bilateral) : Prop :=
  forall i p k gen, nth_error (bR1Points b) i = Some p -> nth_error (bR1Cones b) i = Some k -> In gen (generators k) ->
    0 <= dot (grAxis g) (cross (vsub p (grOrigin g)) gen).
