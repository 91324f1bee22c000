(** A kinematic tree in motion, and the Jacobian of one of its bodies: independent of the code. *)
From Verif Require Export TreeModel KinSpec.
Open Scope list_scope.
Open Scope R_scope.

(** The tree of RBDyn: joint i moves body i, whose parent comes before it. *)
Definition okTree (m : treeMB) : Prop :=
  let n := length (joints (trMB m)) in
  trBodies m = n /\ trSucc m = seq 0 n /\ length (trPred m) = n /\
  forall i p, nth_error (trPred m) i = Some p -> (p = -1 \/ 0 <= p < Z.of_nat i)%Z.

Fixpoint spSum (n : nat) (f : nat -> Spatial) : Spatial :=
  match n with 0%nat => sp0 | S n => sp_add (spSum n f) (f n) end.

(** Bodies from [b] up to the root. *)
Inductive upTo (m : treeMB) : nat -> list nat -> Prop :=
| up_root b : nth_error (trPred m) b = Some (-1)%Z -> upTo m b [b]
| up_son b p l : nth_error (trPred m) b = Some (Z.of_nat p) -> upTo m p l -> upTo m b (b :: l).

(** Motion of the tree around t. X, vj, vb, P: parentToSon, jointVelocity, bodyVelB, bodyPosW. [Sub] are the motion
    subspaces of the joints, constant in the frame of the body they move. *)
Record treeMoves (m : treeMB) (Sub : nat -> nat -> Spatial) (X : R -> nat -> PT) (vj vb : R -> nat -> Spatial) (P : R -> nat -> PT)
    (al ald : R -> nat -> R) (t : R) : Prop := mkTM {
  tmRigid : forall s i, rigid (X s i);
  tmJoint : forall s i, vj s i = spSum (jointDof (trMB m) i) (fun k => sp_sc (al s (jointPosInDof (trMB m) i + k)%nat) (Sub i k));
  tmRot : forall i, dM (fun s => ptE (X s i)) t (m3neg (m3mul (skewm (ang (vj t i))) (ptE (X t i))));
  tmPos : forall i, dV (fun s => ptr (X s i)) t (m3mulv (m3tr (ptE (X t i))) (linr (vj t i)));
  tmAl : forall j, dlim (fun s => al s j) t (ald t j);
  tmRootV : forall s i, nth_error (trPred m) i = Some (-1)%Z -> vb s i = vj s i;
  tmRootP : forall s i, nth_error (trPred m) i = Some (-1)%Z -> P s i = X s i;
  tmSonV : forall s i p, nth_error (trPred m) i = Some (Z.of_nat p) -> vb s i = sp_add (pt_mulM (X s i) (vb s p)) (vj s i);
  tmSonP : forall s i p, nth_error (trPred m) i = Some (Z.of_nat p) -> P s i = pt_mul (X s i) (P s p) }.
(** The configuration given to the solver at time s. *)
Definition treeAt (m : treeMB) (X : R -> nat -> PT) (vj vb : R -> nat -> Spatial) (s : R) : treeMBC :=
  let is := seq 0 (length (joints (trMB m))) in mkTC (map (X s) is) (map (vj s) is) (map (vb s) is).

(** Column c of the body Jacobian of a body, from the subspaces of the joints above it ([up]: from the body to the
    root): the columns of the parent seen from the body, then the subspace of its own joint. *)
Fixpoint treeCol (mb : multibody) (X : nat -> PT) (Sub : nat -> nat -> Spatial) (up : list nat) (c : nat) : Spatial :=
  match up with
  | [] => sp0
  | b :: up' => let n := pathDof mb (rev up') in
                if (c <? n)%nat then pt_mulM (X b) (treeCol mb X Sub up' c) else Sub b (c - n)%nat
  end.

(** Robots in motion: robot r is tree [nth r ms] with its own motion. *)
Record robotMotion := mkRM { rmSub : nat -> nat -> Spatial; rmX : R -> nat -> PT; rmVj : R -> nat -> Spatial; rmVb : R -> nat -> Spatial;
  rmP : R -> nat -> PT; rmAl : R -> nat -> R; rmAld : R -> nat -> R }.
Definition robotMoves (t : R) (m : treeMB) (g : robotMotion) : Prop :=
  okTree m /\ treeMoves m (rmSub g) (rmX g) (rmVj g) (rmVb g) (rmP g) (rmAl g) (rmAld g) t.
Definition configs (ms : list treeMB) (gs : list robotMotion) (s : R) : list treeMBC :=
  map (fun p => treeAt (fst p) (rmX (snd p)) (rmVj (snd p)) (rmVb (snd p)) s) (combine ms gs).
