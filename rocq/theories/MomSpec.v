(** What the momentum task promises: independent of the code. *)
From Verif Require Export MomModel ComSpec.
Open Scope list_scope.
Open Scope R_scope.

(** A body as particles: mass and position in its frame. Its mass, centre of mass and inertia are theirs. *)
Notation particle := (R * V3)%type.
Fixpoint partSum (ps : list particle) (f : R -> V3 -> R) : R := match ps with [] => 0 | (m, p) :: ps' => f m p + partSum ps' f end.
Definition partVec (ps : list particle) (f : R -> V3 -> V3) : V3 := mkV3 (partSum ps (fun m p => vx (f m p))) (partSum ps (fun m p => vy (f m p))) (partSum ps (fun m p => vz (f m p))).
Definition madeOf (x : momBody) (ps : list particle) : Prop :=
  cbMass (moB x) = partSum ps (fun m _ => m) /\ vsc (cbMass (moB x)) (cbCom (moB x)) = partVec ps (fun m p => vsc m p) /\
  (forall w, m3mulv (moI x) w = partVec ps (fun m p => vsc m (cross p (cross w p)))).
(** Position of a point of a body in the world. *)
Definition placed (p : V3) (k : bodyKin) : V3 := vadd (ptr (bkPos k)) (m3mulv (m3tr (ptE (bkPos k))) p).
(** Momentum of the particles about a point c when their velocities are [pv]. *)
Definition linMomentum (parts : list (list particle)) (pv : nat -> V3 -> V3) (i : nat) : R :=
  overBodies parts (fun b ps => partSum ps (fun m p => m * e3 (pv b p) i)).
Definition angMomentum (parts : list (list particle)) (K : nat -> bodyKin) (c : V3) (pv : nat -> V3 -> V3) (i : nat) : R :=
  overBodies parts (fun b ps => partSum ps (fun m p => m * e3 (cross (vsub (placed p (K b)) c) (pv b p)) i)).
(** Momentum task: the error decreases at the rate of the task acceleration. *)
Definition errorAcc (m : nat) (H : R -> hlOut) (ald : R -> nat -> R) (t : R) : Prop :=
  forall i, (i < m)%nat -> dlim (fun s => vget (hErr (H s)) i) t (- taskAcc (H t) 0 (ald t) i).
