(** Specification vocabulary for histories of calls on a QPSolver. *)
From Verif Require Export FillSpec LayoutSpec.

(** One call on a QPSolver. [OpAddTo c] is c.addToSolver(solver), [OpRemoveFrom c] is
    c.removeFromSolver(solver). Calls that do not change the solver are left out. *)
Inductive op :=
| OpAddTask (t : nat) | OpRemoveTask (t : nat) | OpResetTasks
| OpAddConstraint (c : nat) | OpRemoveConstraint (c : nat)
| OpAddTo (c : nat) | OpRemoveFrom (c : nat)
| OpUpdateConstrSize (h : heap)
| OpNrVars (mbs : list multibody) (uni : list unilateral) (bi : list bilateral)
| OpSetSolver (name : string).

(** [kinds c] are the kinds of the constraint object c (the template arguments Fun...). *)
Definition step (lssol : bool) (kinds : nat -> list ckind) (s : qpSolver) (o : op) : res qpSolver :=
  match o with
  | OpAddTask t => Ok (addTask s t)
  | OpRemoveTask t => Ok (removeTask s t)
  | OpResetTasks => Ok (resetTasks s)
  | OpAddConstraint c => Ok (addConstraint s c)
  | OpRemoveConstraint c => Ok (removeConstraint s c)
  | OpAddTo c => Ok (addToSolver s c (kinds c))
  | OpRemoveFrom c => removeFromSolver s c (kinds c)
  | OpUpdateConstrSize h => Ok (updateConstrSize s h)
  | OpNrVars mbs uni bi => nrVars s mbs uni bi
  | OpSetSolver name => setSolver lssol s name
  end.
Fixpoint run (lssol : bool) (kinds : nat -> list ckind) (s : qpSolver) (ops : list op) : res qpSolver :=
  match ops with
  | [] => Ok s
  | o :: ops' => do s1 <- step lssol kinds s o; run lssol kinds s1 ops'
  end.
(** A new solver on which the calls [ops] were made. *)
Definition history (lssol : bool) (kinds : nat -> list ckind) (ops : list op) : res qpSolver :=
  do s <- newQPSolver lssol; run lssol kinds s ops.

(** ** Sets of live objects *)
(** What a call means for one set of objects. *)
Inductive ev := EAdd (t : nat) | EDel (t : nat) | EClear | ENone.
Definition taskEv (o : op) : ev :=
  match o with OpAddTask t => EAdd t | OpRemoveTask t => EDel t | OpResetTasks => EClear | _ => ENone end.
Definition constrEv (o : op) : ev :=
  match o with
  | OpAddConstraint c | OpAddTo c => EAdd c
  | OpRemoveConstraint c | OpRemoveFrom c => EDel c
  | _ => ENone
  end.
(** Registration through addToSolver/removeFromSolver. *)
Definition regEv (o : op) : ev :=
  match o with OpAddTo c => EAdd c | OpRemoveFrom c => EDel c | _ => ENone end.

(** An object is live when it was added and neither removed nor cleared since. *)
Definition live (evs : list ev) (t : nat) : Prop :=
  exists k, nth_error evs k = Some (EAdd t) /\
    forall k', (k < k')%nat -> nth_error evs k' <> Some (EDel t) /\ nth_error evs k' <> Some EClear.
(** The insertion that made it live: call number k, which found it absent. *)
Definition bornAt (evs : list ev) (t k : nat) : Prop :=
  nth_error evs k = Some (EAdd t) /\ ~ live (firstn k evs) t /\
  forall k', (k < k')%nat -> nth_error evs k' <> Some (EDel t) /\ nth_error evs k' <> Some EClear.
(** The list holds exactly the live objects, once each, in order of insertion. *)
Definition inOrder (evs : list ev) (l : list nat) : Prop :=
  forall i j ti tj, nth_error l i = Some ti -> nth_error l j = Some tj -> (i < j)%nat ->
    exists ki kj, bornAt evs ti ki /\ bornAt evs tj kj /\ (ki < kj)%nat.
Definition orderedSet (evs : list ev) (l : list nat) : Prop :=
  NoDup l /\ (forall t, In t l <-> live evs t) /\ inOrder evs l.

(** Objects are added only while absent and removed only while present. *)
Definition alternating (evs : list ev) : Prop :=
  forall k c, (nth_error evs k = Some (EAdd c) -> ~ live (firstn k evs) c) /\
              (nth_error evs k = Some (EDel c) -> live (firstn k evs) c).

(** The list of the constraints of one kind. *)
Definition kindList (k : ckind) (s : qpSolver) : list nat :=
  match k with KEq => qEq s | KIneq => qIneq s | KGen => qGen s | KBound => qBound s end.

(** Two states of the constraint objects that differ at most on object c. *)
Definition sameExcept (c : nat) (h h' : heap) : Prop :=
  (forall t, hTask h t = hTask h' t) /\
  forall c', c' <> c -> hEq h c' = hEq h' c' /\ hIneq h c' = hIneq h' c' /\
                        hGen h c' = hGen h' c' /\ hBound h c' = hBound h' c'.

(** The numbers of lines in [h2] do not exceed the maxima announced in [h1]. *)
Definition withinMax (h1 h2 : heap) : Prop :=
  forall c, (eqNr (hEq h2 c) <= eqMax (hEq h1 c))%nat /\ (iqNr (hIneq h2 c) <= iqMax (hIneq h1 c))%nat /\
            (giNr (hGen h2 c) <= giMax (hGen h1 c))%nat.

Definition changesConstraints (o : op) : Prop :=
  match o with OpAddTo _ | OpRemoveFrom _ => True | _ => False end.
Definition usableMimics (o : op) : Prop :=
  match o with OpNrVars mbs _ _ => Forall wfMimic mbs | _ => True end.
Definition resizesOrSwitches (o : op) : Prop :=
  match o with OpNrVars _ _ _ | OpSetSolver _ => True | _ => False end.

(** [x] satisfies every mimic relation of the robots [mbs] laid out by [d]. *)
Definition mimicked (mbs : list multibody) (d : solverData) (x : nat -> R) : Prop :=
  forall r mb il ir m b, nth_error mbs r = Some mb -> mimicOf mb il ir m -> alphaDBegin d r = Ok b ->
    x (b + dofBefore mb ir)%nat = m * x (b + dofBefore mb il)%nat.
Definition nonzeroMimics (mbs : list multibody) : Prop :=
  forall mb il ir m, In mb mbs -> mimicOf mb il ir m -> m <> 0.

(** A configuration with the right numbers of values for the joints of a robot. *)
Definition fitsRobot {T} (mb : multibody) (m : mbconfig T) : Prop :=
  map (@length R) (mbcAlphaD m) = map jdof (joints mb).

(** ** Line ownership *)
(** Line i of the stacked matrix belongs to the constraint and local line named by the report. *)
Definition lineOf (g : registered) (r : report) (n : nat) : option ((nat -> R) * ext * ext) :=
  match r with
  | REq c l => match nth_error (rgEq g) c with
               | Some e => if (l <? eqNr e)%nat then Some (fun j => mget (eqA e) l j, Fin (vget (eqB e) l), Fin (vget (eqB e) l)) else None
               | None => None end
  | RIneq c l => match nth_error (rgIneq g) c with
                 | Some e => if (l <? iqNr e)%nat then Some (fun j => mget (iqA e) l j, NInf, vget (iqB e) l) else None
                 | None => None end
  | RGen c l => match nth_error (rgGen g) c with
                | Some e => if (l <? giNr e)%nat then Some (fun j => mget (giA e) l j, vget (giL e) l, vget (giU e) l) else None
                | None => None end
  | RBound _ _ => None
  end.

(** Robots without mimic joints. *)
Definition noMimics (mbs : list multibody) : Prop := forall mb j, In mb mbs -> In j (joints mb) -> jmimic j = None.
Definition resizes (o : op) : Prop := match o with OpNrVars _ _ _ => True | _ => False end.
Definition noMimicOp (o : op) : Prop := match o with OpNrVars mbs _ _ => noMimics mbs | _ => True end.
(** Joint j owns the line of degree of freedom d. *)
Definition ownsDof (mb : multibody) (j d : nat) : Prop :=
  (j < length (joints mb))%nat /\ (dofBefore mb j <= d < dofBefore mb (S j))%nat.
