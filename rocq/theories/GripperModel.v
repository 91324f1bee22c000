(** Model of GripperTorqueConstr (/repo/src/QPConstr.cpp:813-915, Tasks/QPConstr.h:595-647). *)
From Verif Require Export FillModel.
Open Scope list_scope.
Open Scope R_scope.

(** struct GripperData, QPConstr.h:632-640. *)
Record gripper := mkGr { grId : contactId; grLimit : R; grOrigin : V3; grAxis : V3 }.
(** Members, QPConstr.h:643-646. *)
Record gripConstr := mkGC { gcData : list gripper; gcA : mat; gcB : vec R }.
(** Constructor, cpp:825. *)
Definition newGrip : gripConstr := mkGC [] (mzero 0 0) (vfill 0 0).
(** addGripper, cpp:827-831. *)
Definition addGripper (g : gripper) (c : gripConstr) : gripConstr := mkGC (gcData c ++ [g]) (gcA c) (gcB c).
(** rmGripper, cpp:833-845. *)
Fixpoint eraseGrip (id : contactId) (l : list gripper) : list gripper * bool :=
  match l with
  | [] => ([], false)
  | g :: l' => if cid_eqb (grId g) id then (l', true) else let (l2, b) := eraseGrip id l' in (g :: l2, b)
  end.
Definition rmGripper (id : contactId) (c : gripConstr) : gripConstr * bool :=
  let (l, b) := eraseGrip id (gcData c) in (mkGC l (gcA c) (gcB c), b).
(** reset, cpp:847-848. *)
Definition gripReset (c : gripConstr) : gripConstr := mkGC [] (gcA c) (gcB c).

(** AInEq_(line, col) = v. *)
Definition cell (A : mat) (line col : nat) (v : R) : res mat := mset_block A line col (mkMat 1 1 (fun _ _ => v)).
(** Loop over the generators, cpp:872-878. *)
Fixpoint gripGens (axis top : V3) (gens : list V3) (line col : nat) (A : mat) : res (nat * mat) :=
  match gens with
  | [] => Ok (col, A)
  | g :: gens' => do A' <- cell A line col (Rabs (dot axis (cross top g))); gripGens axis top gens' line (S col) A'
  end.
(** Loop over the cones, cpp:869-879: r1Points[i] is read for every i below r1Cones.size(). *)
Fixpoint gripCones (g : gripper) (pts : list V3) (cones : list cone) (i line col : nat) (A : mat) : res mat :=
  match cones with
  | [] => Ok A
  | k :: cones' =>
    do p <- vec_at pts i;
    do (col', A') <- gripGens (grAxis g) (vsub p (grOrigin g)) (generators k) line col A;
    gripCones g pts cones' (S i) line col' A'
  end.
(** Loop over the bilateral contacts, cpp:859-884, which the first contact with the id of the gripper leaves. The boolean tells
    whether there was one. *)
Fixpoint gripContacts (d : solverData) (g : gripper) (bs : list bilateral) (bi line : nat) (A : mat) (B : vec R) : res (bool * mat * vec R) :=
  match bs with
  | [] => Ok (false, A, B)
  | bc :: bs' =>
    if cid_eqb (bId bc) (grId g) then
      do col <- lambdaBeginAt d (bi + length (sdUni d));
      do A' <- gripCones g (bR1Points bc) (bR1Cones bc) 0 line col A;
      do B' <- vput B line (grLimit g);
      Ok (true, A', B')
    else gripContacts d g bs' (S bi) line A B
  end.
(** Loop over the grippers, cpp:857-887. *)
Fixpoint gripLoop (d : solverData) (gs : list gripper) (line : nat) (A : mat) (B : vec R) : res (mat * vec R) :=
  match gs with
  | [] => Ok (A, B)
  | g :: gs' =>
    do (found, A', B') <- gripContacts d g (sdBi d) 0 line A B;
    gripLoop d gs' (if found then S line else line) A' B'
  end.
(** updateNrVars, cpp:850-888. *)
Definition gripNrVars (d : solverData) (c : gripConstr) : res gripConstr :=
  let n := length (gcData c) in
  do (A, B) <- gripLoop d (gcData c) 0 (mzero n (sdNrVars d)) (vfill n 0);
  Ok (mkGC (gcData c) A B).
(** update, cpp:890-894, does nothing. *)
Definition gripUpdate (c : gripConstr) : gripConstr := c.
(** descInEq, cpp:899-907: dataVec_[line], shown by its two bodies and its limit. *)
Definition gripDesc (c : gripConstr) (line : nat) : res (string * string * R) :=
  do g <- vec_at (gcData c) line; Ok (r1Body (grId g), r2Body (grId g), grLimit g).
(** maxInEq, AInEq, bInEq, cpp:909-915; nrInEq is maxInEq (QPSolver.h, class Inequality). *)
Definition gripInEq (c : gripConstr) : inequality := mkIneq (length (gcData c)) (length (gcData c)) (gcA c) (vmap Fin (gcB c)).
