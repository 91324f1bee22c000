(** Vocabulary: the resistance met by the rotation of a SurfaceTransformTask. *)
From Verif Require Export PoseLoopSpec.
Open Scope list_scope.
Open Scope R_scope.

(** A SurfaceTransformTask takes w - e x w for the rate of its rotation error e, which is right only up to second order: the difference acts as a resistance of magnitude up to
    e0 / sqrt k for an energy e0 at the start. The damping that remains, and the largest resistance, for a damping between d1 and d2. *)
Definition leastDamping (k d1 e0 : R) : R := d1 - 2 / 5 * (e0 / sqrt k).
Definition mostDamping (k d2 e0 : R) : R := d2 + e0 / sqrt k.
