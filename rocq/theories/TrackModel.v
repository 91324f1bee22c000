(** Model of OrientationTrackingTask: /repo/src/Tasks.cpp:1082-1166, /repo/src/Tasks/Tasks.h:552-593 and the QP task around it, /repo/src/QPTasks.cpp:1428-1452.
    As in KinModel, update returns eval_, speed_, normalAcc_ and jacMat_ and takes what jacMat_ held before. jacDotMat_ is allocated by the constructor without being
    written, and the QP task never calls updateDot: its content is an argument [jd]. alphaVec_ is the vector of the joint velocities [al]. *)
From Verif Require Export KinModel.
Open Scope list_scope.
Open Scope R_scope.

(** Eigen's normalize(): a null vector is left as it is. *)
Definition vnormalize (v : V3) : V3 := if Rltb 0 (norm2 v) then vsc (/ norm v) v else v.
(** Members; otPath is jointsPath() of jac_. *)
Record trackTask := mkOT { otPoint : PT; otAxis : V3; otZero : list nat; otTracked : V3; otPath : list nat }.
(** trackingJointsIndex, 1092-1093. *)
Fixpoint otJoints (mb : multibody) (names : list string) : res (list nat) :=
  match names with [] => Ok [] | nm :: l => do i <- jointIndexByName mb nm; do r <- otJoints mb l; Ok (i :: r) end.
(** Loop over the path, 1095-1106. *)
Fixpoint otZeroLoop (mb : multibody) (tracking path : list nat) (jacPos : nat) : res (list nat) :=
  match path with
  | [] => Ok []
  | i :: p => do j <- vec_at (joints mb) i; do r <- otZeroLoop mb tracking p (jacPos + jdof j)%nat;
              Ok ((if existsb (Nat.eqb i) tracking then [] else seq jacPos (jdof j)) ++ r)
  end.
(** Constructor, 1082-1107. *)
Definition otInit (mb : multibody) (path : list nat) (bodyPoint bodyAxis : V3) (names : list string) (tracked : V3) : res trackTask :=
  do tr <- otJoints mb names;
  do z <- otZeroLoop mb tr path 0;
  Ok (mkOT (pt_trans bodyPoint) bodyAxis z tracked path).
(** trackedPoint, bodyPoint, bodyAxis, 1109-1125. *)
Inductive otOp := OtTracked (p : V3) | OtPoint (p : V3) | OtAxis (a : V3).
Definition otStep (T : trackTask) (o : otOp) : trackTask :=
  match o with
  | OtTracked p => mkOT (otPoint T) (otAxis T) (otZero T) p (otPath T)
  | OtPoint p => mkOT (pt_trans p) (otAxis T) (otZero T) (otTracked T) (otPath T)
  | OtAxis a => mkOT (otPoint T) a (otZero T) (otTracked T) (otPath T)
  end.
(** eval_, 1130-1141. [ftv] is Quaterniond::FromTwoVectors as a matrix, [rv] sva::rotationVelocity. *)
Definition otEval (rv : M3 -> V3) (ftv : V3 -> V3 -> M3) (T : trackTask) (k : bodyKin) : V3 :=
  let desDir := vnormalize (vsub (otTracked T) (ptr (pt_mul (otPoint T) (bkPos k)))) in
  let curDir := vnormalize (m3mulv (m3tr (ptE (bkPos k))) (otAxis T)) in
  let targetOri := m3tr (ftv curDir desDir) in
  rotError rv (ptE (bkPos k)) (m3mul targetOri (ptE (bkPos k))).
(** OrientationTrackingTask::update, 1127-1146, zeroJacobian, 1163-1166, and the QP task's update, QPTasks.cpp:1443-1452. *)
Definition otUpdate (rv : M3 -> V3) (ftv : V3 -> V3 -> M3) (mb : multibody) (T : trackTask) (k : bodyKin) (al : nat -> R) (jd jacMat : mat) : res hlOut :=
  let col c := if existsb (Nat.eqb c) (otZero T) then v0 else ang (rbdColW v0 k c) in
  do J <- fullJacobian mb (otPath T) (short3 (pathDof mb (otPath T)) col) jacMat;
  Ok (mkHL J (vec3 (otEval rv ftv T k))
        (mkVec 3 (fun i => sumn (mcols J) (fun j => mget J i j * al j)))
        (mkVec 3 (fun i => sumn (mcols jd) (fun j => mget jd i j * al j)))).
