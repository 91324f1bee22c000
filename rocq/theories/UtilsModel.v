(** Model of findJointFromVector (/repo/src/utils.h:13-22) and of the joint descriptions built on it. *)
From Verif Require Export LayoutModel.

(** Loop of findJointFromVector, utils.h:16-20; -1 (line 21) is [None]. *)
Fixpoint findLoop (js : list joint) (j start line : nat) : option nat :=
  match js with
  | [] => None
  | jt :: js' => if ((start <=? line) && (line <=? start + jdof jt))%nat then Some j
                 else findLoop js' (S j) (start + jdof jt)%nat line
  end.
(** findJointFromVector, utils.h:13-22: [start] is both the first joint and the first line. *)
Definition findJointFromVector (mb : multibody) (line : nat) (withBase : bool) : option nat :=
  let start := if withBase then 0%nat else 1%nat in
  findLoop (skipn start (joints mb)) start start line.
(** MotionConstrCommon::descGenInEq, QPMotionConstr.cpp:230-234 ([withBase] true);
    JointLimitsConstr::descBound and DamperJointLimitsConstr::descBound, QPConstr.cpp:135-139 and
    290-294 ([withBase] false). mb.joint(-1) is undefined. *)
Definition descJoint (mb : multibody) (line : nat) (withBase : bool) : res string :=
  match findJointFromVector mb line withBase with
  | None => UB
  | Some j => do jt <- vec_at (joints mb) j; Ok (jname jt)
  end.
