(** Vocabulary: how far a body is turned away from its target, and an orientation task in closed loop. *)
From Verif Require Export VecLoopSpec KinAxis.
Open Scope list_scope.
Open Scope R_scope.

(** The angle of the rotation from the orientation A to the orientation B, in [0, PI]: its cosine is (trace (B A^T) - 1) / 2. *)
Definition angleTo (A B : M3) : R := let C := m3mul B (m3tr A) in acos ((vx (row0 C) + vy (row1 C) + vz (row2 C) - 1) / 2).
(** Half the square of the angular velocity, plus half the stiffness times the square of the angle. *)
Definition turnEnergy (k : R) (omega : V3) (angle : R) : R := dot omega omega / 2 + k * (angle * angle) / 2.
(** The rate of the decay of the squared angle, for a damping between d1 and d2 and this energy at the start. *)
Definition turnRate (k d1 d2 e0 : R) : R := let m := sqrt (2 * e0 / k) in 2 / 3 * (d1 * k / (2 * k + d2 * d2) * (sin m / m)).
(** At every instant the accelerations x minimise the cost of a SetPointTask, or of a TrajectoryTask without references, over the kinematic
    task H, with stiffness k, damping d and positive weights; and some accelerations give what it asks for. *)
Definition driven3 (H : R -> hlOut) (b : nat) (x : R -> nat -> R) (k : R) (d : R -> R) : Prop :=
  forall s, 0 <= s -> exists w om tk, 0 < w /\ (forall i, (i < 3)%nat -> 0 < om i) /\
    driveTask s (mkDrive w om (fun _ => k) (fun _ => d s) b H) tk /\ minimises tk (x s) /\
    attainable (H s) b (fun i => k * vget (hErr (H s)) i - d s * vget (hSpeed (H s)) i).
