(** Vocabulary of contacts along motions of the robots: independent of the code. *)
From Verif Require Export ContactConstrSpec KinSpec KinAxis.
Open Scope list_scope.
Open Scope R_scope.

(** What a contact constraint reads of the robots (kin), made of what RBDyn knows about body [b] of robot [r]. *)
Definition kinOf (K : nat -> nat -> bodyKin) : kin := mkKin
  (fun r b => bkPos (K r b))
  (fun r p X_0_p l c => e6 (rbdColX X_0_p (K r (last p 0%nat)) c) l)
  (fun r p X l => e6 (rbdNAcc X sp0 (K r (last p 0%nat))) l)
  (fun r p X l => e6 (rbdVel X (K r (last p 0%nat))) l).

(** The robots move around time [t]: those with degrees of freedom with joint velocities [al] and with the accelerations found in
    the decision variables [x]; the others stay. *)
Definition robotsMove (nm : names) (mbs : list multibody) (d : solverData) (K : R -> nat -> nat -> bodyKin)
    (al : nat -> R -> nat -> R) (x : R -> nat -> R) (t : R) : Prop :=
  (forall r mb body p b, nth_error mbs r = Some mb -> (0 < nrDof mb)%nat -> nPath nm r body = Ok p -> alphaDBegin d r = Ok b ->
     movesAt mb p (fun s => K s r (last p 0%nat)) (al r) (fun s j => x s (b + j)%nat) t) /\
  (forall r mb body i, nth_error mbs r = Some mb -> nrDof mb = 0%nat -> nBodyIndex nm r body = Ok i ->
     forall s, bkPos (K s r i) = bkPos (K t r i) /\ rigid (bkPos (K s r i))).

(** The contact frame as carried by the first and by the second body, in the world. *)
Definition frame1 (K : nat -> nat -> bodyKin) (cd : cdata) : PT := pt_mul (cdXcf cd) (bkPos (K (cdR1 cd) (cdB1 cd))).
Definition frame2 (K : nat -> nat -> bodyKin) (cd : cdata) : PT := pt_mul (pt_mul (cdXcf cd) (pt_inv (cdXbb cd))) (bkPos (K (cdR2 cd) (cdB2 cd))).
(** A frame moves with the velocity (w, v), seen from itself. *)
Definition frameMoves (X : R -> PT) (t : R) (V : Spatial) : Prop :=
  dM (fun s => ptE (X s)) t (m3neg (m3mul (skewm (ang V)) (ptE (X t)))) /\
  dV (fun s => ptr (X s)) t (m3mulv (m3tr (ptE (X t))) (linr V)).

(** Every direction is selected alone by some row. *)
Definition selectsAll (dof : mat) : Prop :=
  forall l, (l < 6)%nat -> exists r, (r < mrows dof)%nat /\ forall j, (j < 6)%nat -> mget dof r j = if Nat.eqb j l then 1 else 0.
(** Calls after updateNrVars that leave the problem and the selection matrices in use as they are. *)
Definition keepsDof (mbs : list multibody) (o : ccOp) : Prop := sameProblem mbs o /\ o <> OUpdateDof.
(** At every instant the constraint, after any such calls, is updated, and the decision variables satisfy its rows. *)
Definition heldLoop (mbs : list multibody) (d : solverData) (m : cmode) (sv : sva) (c1 : contactConstr)
    (K : R -> nat -> nat -> bodyKin) (x : R -> nat -> R) : Prop :=
  forall s, 0 <= s -> exists ops c2 o c3, Forall (keepsDof mbs) ops /\ ccRun c1 ops = Ok (c2, o) /\
    ccUpdate m mbs sv (kinOf (K s)) c2 = Ok c3 /\ holdsEq (sdNrVars d) (x s) (ccEquality c3).

(** One orientation is less than half a turn away from another. *)
Definition underHalfTurn (A B : M3) : Prop := exists a th, norm a = 1 /\ Rabs th < PI /\ m3mul B (m3tr A) = rotAxis a th.
(** Sum of the squares of three consecutive numbers. *)
Definition sq3 (f : nat -> R) (i : nat) : R := f i * f i + f (i + 1)%nat * f (i + 1)%nat + f (i + 2)%nat * f (i + 2)%nat.
(** The reference of a contact does not move at update: every direction is selected, or the second robot cannot move. *)
Definition refStays (mbs : list multibody) (cd : cdata) : Prop :=
  allSelected (cdDof cd) \/ forall mb, nth_error mbs (cdR2 cd) = Some mb -> nrDof mb = 0%nat.
(** Relative velocity at the contact along row [r] of the selection matrix. *)
Definition rowVel nm mbs (k : kin) (cd : cdata) (r : nat) : R := sumn 6 (fun l => mget (cdDof cd) r l * relVel nm mbs k cd l).
(** Energy of the relative motion at a contact, rotation ([i] = 0) or translation ([i] = 3). *)
Definition contactEnergy nm mbs sv (dt : R) (k : kin) (cd : cdata) (i : nat) : R :=
  sq3 (relVel nm mbs k cd) i + sq3 (frameError sv k cd) i / dt.
Definition modePos (m : cmode) : Prop := match m with CAcc => True | CSpeed dt => dt <> 0 | CPos dt => 0 < dt end.
