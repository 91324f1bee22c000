(** Vocabulary: a kinematic task of six rows in closed loop, and the motion of a point of a body to its target. *)
From Verif Require Export OriLoopSpec.
Open Scope list_scope.
Open Scope R_scope.

(** At every instant the accelerations x minimise the cost of a SetPointTask, or of a TrajectoryTask without references, over the kinematic
    task H of six rows, with stiffness k, damping d and positive weights; and some accelerations give what it asks for. *)
Definition driven6 (H : R -> hlOut) (b : nat) (x : R -> nat -> R) (k : R) (d : R -> R) : Prop :=
  forall s, 0 <= s -> exists w om tk, 0 < w /\ (forall i, (i < 6)%nat -> 0 < om i) /\
    driveTask s (mkDrive w om (fun _ => k) (fun _ => d s) b H) tk /\ minimises tk (x s) /\
    attainable (H s) b (fun i => k * vget (hErr (H s)) i - d s * vget (hSpeed (H s)) i).
(** What is left of the way to the target when it decreases as a critically damped spring of stiffness k, from the way e0 and the velocity v at time 0. *)
Definition springWay (k : R) (e0 v : V3) (s : R) : V3 := vsc (exp (- sqrt k * s)) (vadd e0 (vsc s (vsub (vsc (sqrt k) e0) v))).
