(** What the centre of mass tasks promise: independent of the code. *)
From Verif Require Export ComModel KinSpec.
Open Scope list_scope.
Open Scope R_scope.

(** All bodies of a robot move. *)
Definition bodiesMove (mb : multibody) (bs : list comBody) (K : R -> nat -> bodyKin) (al ald : R -> nat -> R) (t : R) : Prop :=
  forall b x, nth_error bs b = Some x -> wfPath mb (cbPath x) /\ movesAt mb (cbPath x) (fun s => K s b) al ald t.
(** Mass and centre of mass, the latter as the sum over the bodies of mass over total mass times the position of their centre of mass; the same with a factor on every body. *)
Definition mass (bs : list comBody) : R := sumn (length bs) (fun b => match nth_error bs b with Some x => cbMass x | None => 0 end).
Definition comOf (w : nat -> R) (bs : list comBody) (K : nat -> bodyKin) (i : nat) : R :=
  sumn (length bs) (fun b => match nth_error bs b with Some x => w b * cbMass x / mass bs * e3 (vadd (ptr (bkPos (K b))) (m3mulv (m3tr (ptE (bkPos (K b)))) (cbCom x))) i | None => 0 end).
Definition one (b : nat) : R := 1.
(** Masses of a robot: none negative, not all zero. *)
Definition heavy (bs : list comBody) : Prop := (forall x, In x bs -> 0 <= cbMass x) /\ 0 < mass bs.
(** The Jacobians of several robots times what is read for each of them. *)
Fixpoint jacsDot (rs : list nat) (Js : list mat) (x : nat -> nat -> R) (i : nat) : R :=
  match rs, Js with r :: rs', J :: Js' => sumn (mcols J) (fun q => mget J i q * x r q) + jacsDot rs' Js' x i | _, _ => 0 end.
(** Total mass and centre of mass of several robots, a robot named twice counted twice. *)
Definition bodiesOf (rb : list robot) (r : nat) : list comBody := match nth_error rb r with Some m => snd m | None => [] end.
Fixpoint groupMass (rb : list robot) (rs : list nat) : R := match rs with [] => 0 | r :: rs' => mass (bodiesOf rb r) + groupMass rb rs' end.
Fixpoint groupSum (rb : list robot) (K : nat -> nat -> bodyKin) (rs : list nat) (i : nat) : R :=
  match rs with [] => 0 | r :: rs' => mass (bodiesOf rb r) * comOf one (bodiesOf rb r) (K r) i + groupSum rb K rs' i end.
