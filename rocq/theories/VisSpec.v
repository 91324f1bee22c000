(** What the visual tasks promise: independent of the code. *)
From Verif Require Export VisModel KinSpec.
Open Scope R_scope.

(** The camera frame is X on the body; the point [p] of the world in that frame. *)
Definition inCamera (X : PT) (k : bodyKin) (p : V3) : V3 := m3mulv (m3mul (ptE X) (ptE (bkPos k))) (vsub p (ptr (pt_mul X (bkPos k)))).
(** The interaction matrix of a point at (x, y) and depth z: the image speed of a point of the world as seen from a camera of velocity (w, v). *)
Definition interaction (p : V2) (z : R) (m q : nat) : R :=
  let x := fst p in let y := snd p in
  match m, q with
  | 0%nat, 0%nat => x * y | 0%nat, 1%nat => - (1 + x * x) | 0%nat, 2%nat => y | 0%nat, 3%nat => - / z | 0%nat, 4%nat => 0 | 0%nat, _ => x / z
  | _, 0%nat => 1 + y * y | _, 1%nat => - (x * y) | _, 2%nat => - x | _, 3%nat => 0 | _, 4%nat => - / z | _, _ => y / z
  end.
(** Its derivative, the image speed being u and the rate of the depth zd. *)
Definition interactionDot (p u : V2) (z zd : R) (m q : nat) : R :=
  let x := fst p in let y := snd p in let xd := fst u in let yd := snd u in
  match m, q with
  | 0%nat, 0%nat => xd * y + x * yd | 0%nat, 1%nat => - (2 * x * xd) | 0%nat, 2%nat => yd | 0%nat, 3%nat => zd / (z * z) | 0%nat, 4%nat => 0
  | 0%nat, _ => (xd * z - x * zd) / (z * z)
  | _, 0%nat => 2 * y * yd | _, 1%nat => - (xd * y + x * yd) | _, 2%nat => - xd | _, 3%nat => 0 | _, 4%nat => zd / (z * z)
  | _, _ => (yd * z - y * zd) / (z * z)
  end.
Definition usesInteraction (F : imgFun) : Prop :=
  (forall p z m q, (m < 2)%nat -> (q < 6)%nat -> imgJac F p z m q = interaction p z m q) /\
  (forall p u z zd m q, (m < 2)%nat -> (q < 6)%nat -> imgJacDot F p u z zd m q = interactionDot p u z zd m q).
(** The pose Jacobian is block diagonal and its linear block is the transposed rotation. *)
Definition usesPose (F : poseFun) : Prop :=
  forall E i q, (i < 3)%nat -> (q < 3)%nat -> pfJac F E (3 + i) q = 0 /\ pfJac F E i (3 + q) = 0 /\ pfJac F E (3 + i) (3 + q) = m3ent (m3tr E) i q.
(** The rate of the depth that depthDotJacobian gives for the point [q] of the camera frame, called with the image speed as the tasks do. *)
Definition gzUsedRate (F : imgFun) (V : Spatial) (q : V3) : R :=
  let p := (vx q / vz q, vy q / vz q) in
  let speed := (sumn 6 (fun k => interaction p (vz q) 0 k * e6 V k), sumn 6 (fun k => interaction p (vz q) 1 k * e6 V k)) in
  sumn 6 (fun k => imgDepthDot F speed (vz q) k * e6 V k).
(** The pose of the sensor frame as seen from the target, the way error() is given it. *)
Definition seenFrom (X_0_t X_b_s : PT) (k : bodyKin) : PT := pt_mul (pt_mul X_b_s (bkPos k)) (pt_inv X_0_t).
