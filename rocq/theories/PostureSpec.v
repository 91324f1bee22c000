(** Specification vocabulary of the posture task. *)
From Verif Require Export PostureModel SetPointSpec.
Open Scope list_scope.
Open Scope R_scope.

(** The posture error of dof [k] of joint number [i]: difference of the angles, or component of the rotation error. *)
Definition postureErr (q : list (list R)) (K : pcfg) (i : nat) (j : joint) (k : nat) : R :=
  let a m := nth m (nth i q []) 0 in
  if Nat.eqb (jdof j) 1 then a 0%nat - nth 0 (nth i (pfQ K) []) 0
  else let e := pfRot K i (a 0%nat) (a 1%nat) (a 2%nat) (a 3%nat) in match k with 0%nat => vx e | 1%nat => vy e | _ => vz e end.
(** mbc.alpha has the shape of the robot. *)
Definition shaped (mb : multibody) (v : list (list R)) : Prop := map (@length R) v = map jdof (joints mb).
Definition speedOf (K : pcfg) (i k : nat) : R := nth k (nth i (pfAlpha K) []) 0.
(** The kinds of joint the code mentions: fixed, prismatic or revolute, spherical. *)
Definition plainJoints (mb : multibody) : Prop := forall j, In j (tl (joints mb)) -> jdof j = 0%nat \/ jdof j = 1%nat \/ jdof j = 3%nat.

(** The gains of a joint: the last ones given by name since the list was last replaced, else those of the task. *)
Definition gainsOf (g : R * R) (ov : list (string * (R * R))) (nm : string) : R * R :=
  fold_left (fun g (o : string * (R * R)) => if String.eqb (fst o) nm then snd o else g) ov g.
(** Operations read by the histories. *)
Definition poGiveQ (o : poOp) := match o with PoPosture q => Some q | _ => None end.
Definition poGiveG (o : poOp) := match o with PoStiffness k => Some (k, 2 * sqrt k) | PoGains k d => Some (k, d) | _ => None end.
Definition poGiveJ (o : poOp) := match o with PoJointsK l => Some (map (fun o : string * R => (fst o, (snd o, 2 * sqrt (snd o)))) l) | PoJointsG l => Some l | _ => None end.
Definition poGiveRV (o : poOp) := match o with PoRefVel v => Some v | _ => None end.
Definition poGiveRA (o : poOp) := match o with PoRefAccel v => Some v | _ => None end.
Definition poGiveW (o : poOp) := match o with PoDim v => Some v | _ => None end.
Definition poGiveWeight (o : poOp) := match o with PoWeight w => Some w | _ => None end.
Definition poGiveBegin (r : nat) (o : poOp) := match o with PoNrVars d => nth_error (sdAlphaDBegin d) r | _ => None end.

(** The acceleration a joint's dof is asked for: k err - d (alpha - refVel) + refAccel with the gains of its joint. *)
Definition askedAcc (mb : multibody) (k0 : R) (ops : list poOp) (q0 : list (list R)) (K : pcfg) (i : nat) (j : joint) (k : nat) : R :=
  let g := gainsOf (latest poGiveG (k0, 2 * sqrt k0) ops) (latest poGiveJ [] ops) (jname j) in
  let c := (jointPosInDof mb i + k)%nat in
  fst g * postureErr (latest poGiveQ q0 ops) K i j k - snd g * (speedOf K i k - vget (latest poGiveRV (vfill (nrDof mb) 0) ops) c)
  + vget (latest poGiveRA (vfill (nrDof mb) 0) ops) c.
(** Every dof of the joints behind the first has this acceleration in [a]; the dofs of the first joint have 0. *)
Definition isAsked (mb : multibody) (acc : nat -> joint -> nat -> R) (a : nat -> R) : Prop :=
  (forall c, (c < jointPosInDof mb 1)%nat -> a c = 0) /\
  (forall i j k, nth_error (joints mb) (S i) = Some j -> (k < jdof j)%nat -> a (jointPosInDof mb (S i) + k)%nat = acc (S i) j k).
(** The dofs of a free flyer at the root are not the task's. *)
Definition driven (mb : multibody) (c : nat) : R := match joints mb with j :: _ => if isFree j && Nat.ltb c 6 then 0 else 1 | [] => 1 end.
Definition postureCost (mb : multibody) (b : nat) (W a x : nat -> R) : R :=
  / 2 * sumn (nrDof mb) (fun c => driven mb c * W c * (x (b + c)%nat - a c) ^ 2).
