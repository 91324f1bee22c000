(** Histories of a GazeTask: /repo/src/Tasks.cpp:465-543. *)
From Verif Require Export VisModel SetPointSpec.
Open Scope list_scope.
Open Scope R_scope.

(** error(point2d, point2d_ref), Tasks.cpp:533-537, and error(point3d, point2d_ref), 539-543. *)
Inductive gzOp := GzImage (p ref : V2) | GzSpace (p : V3) (ref : V2).
Definition gzStep (o : gzOp) (T : gazeTask) : res gazeTask := match o with GzImage p ref => Ok (gzError2 p ref T) | GzSpace p ref => gzError3 p ref T end.
Fixpoint gzRun (ops : list gzOp) (T : gazeTask) : res gazeTask := match ops with [] => Ok T | o :: ops' => do T' <- gzStep o T; gzRun ops' T' end.

(** What the calls give, read off the history. *)
Definition gzGiveRef (o : gzOp) : option V2 := match o with GzImage _ r => Some r | GzSpace _ r => Some r end.
Definition gzGivePoint (o : gzOp) : option V2 := match o with GzImage p _ => Some p | GzSpace p _ => Some (vx p / vz p, vy p / vz p) end.
Definition gzGiveDepth (o : gzOp) : option R := match o with GzImage _ _ => None | GzSpace p _ => Some (vz p) end.
Definition gzSeen (o : gzOp) : Prop := match o with GzImage _ _ => True | GzSpace p _ => vz p <> 0 end.
(** error(point2d, ref) with the image of a point of the camera frame, then update. *)
Definition gzTrack2 (F : imgFun) (mb : multibody) (p : V3) (ref : V2) (T : gazeTask) (k : bodyKin) (jacMat : mat) : res hlOut :=
  gzUpdate F mb (gzError2 (vx p / vz p, vy p / vz p) ref T) k jacMat.
