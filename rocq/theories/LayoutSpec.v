(** Specification vocabulary for the variable layout: what a user means by "the variables of
    robot r" and "the variables of contact c". *)
From Verif Require Export LayoutModel.

(** Number of force variables of a contact: one per point and generator. *)
Definition uniLambdaCount (c : unilateral) : nat :=
  (length (uR1Points c) * length (generators (uR1Cone c)))%nat.
Definition biLambdaCount (c : bilateral) : nat :=
  sumnat (map (fun k => length (generators k)) (firstn (length (bR1Points c)) (bR1Cones c))).
(** A bilateral contact that has one cone per point (what the constructors produce). *)
Definition wfBi (c : bilateral) : Prop := (length (bR1Points c) <= length (bR1Cones c))%nat.

(** Owner of a decision variable. *)
Inductive owner := Robot (r : nat) | Contact (c : nat).
Definition owns (d : solverData) (o : owner) (i : nat) : Prop :=
  match o with
  | Robot r => exists b n, alphaDBegin d r = Ok b /\ alphaD d r = Ok n /\ (b <= i < b + n)%nat
  | Contact c => exists b n, lambdaBeginAt d c = Ok b /\ lambda d c = Ok n /\ (b <= i < b + n)%nat
  end.

(** Ids of the contacts, unilateral first: the order in which they are numbered. *)
Definition contactIds (uni : list unilateral) (bi : list bilateral) : list contactId :=
  map uId uni ++ map bId bi.

(** The entries of a vector, as a list. *)
Definition vlist {A} (v : vec A) : list A := map (vget v) (seq 0 (vlen v)).

(** Mimic joints. Joint number [ir] of [mb] is a mimic of joint number [il] with factor [m]. *)
Definition mimicOf (mb : multibody) (il ir : nat) (m : R) : Prop :=
  exists jl jr, nth_error (joints mb) il = Some jl /\ nth_error (joints mb) ir = Some jr /\
                jmimic jr = Some (jname jl, m).
(** Index, inside the robot, of the first dof of joint number i. *)
Definition dofBefore (mb : multibody) (i : nat) : nat := sumnat (map jdof (firstn i (joints mb))).
(** Robots whose mimic joints are usable: unique names, every mimic joint and its leader have a
    degree of freedom, the leader exists and is not itself a mimic joint. *)
Definition wfMimic (mb : multibody) : Prop :=
  NoDup (map jname (joints mb)) /\
  forall j nm m, In j (joints mb) -> jmimic j = Some (nm, m) ->
    (1 <= jdof j)%nat /\
    exists jl, In jl (joints mb) /\ jname jl = nm /\ jmimic jl = None /\ (1 <= jdof jl)%nat.
