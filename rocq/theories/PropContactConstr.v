(** Properties of the contact constraints: C25, C26, C31-C33, C69, C70. *)
From Verif Require Import ContactFacts ContactGetter.
Open Scope string_scope.
Open Scope list_scope.
Open Scope R_scope.

(** C25: after any history of calls followed by updateNrVars, the constraint holds every non-virtual
    contact of the solver once, by increasing id, with the frames of the first contact bearing that id,
    its mobile sides, and the registered selection matrix (the identity by default). *)
Theorem C25_contacts : forall ops c outs nm mbs d c',
  ccRun newCC ops = Ok (c, outs) -> updateNrVars nm mbs d c = Ok c' ->
  increasing (map cdId (ccCont c')) /\
  (forall id, In id (map cdId (ccCont c')) <-> ~ isVirtual c id /\ exists b, In b (sdAll d) /\ bId b = id) /\
  (forall cd, In cd (ccCont c') ->
     dataFor nm mbs d cd /\
     (exists b, firstWith (cdId cd) (sdAll d) = Some b /\ cdXcf cd = bXcf b /\ cdXbb cd = bXbb b) /\
     (forall m, dofIs c (cdId cd) m -> cdDof cd = m) /\
     ((forall m, ~ dofIs c (cdId cd) m) -> cdDof cd = identity6)).
Proof. exact contacts_lemma. Qed.
Print Assumptions C25_contacts.
(** Three contacts given out of order, one id twice. *)
Example C25_used : exists c', updateNrVars wNames wMbs wData (wRun newCC [OAddDof wFoot wTrans]) = Ok c' /\
  map cdId (ccCont c') = [wFoot; wHand] /\ increasing [wFoot; wHand].
Proof.
  exists (wNr (wRun newCC [OAddDof wFoot wTrans])). split; [reflexivity|]. split; [reflexivity|].
  assert (H := C25_contacts [OAddDof wFoot wTrans] (wRun newCC [OAddDof wFoot wTrans]) (wOuts newCC [OAddDof wFoot wTrans]) wNames wMbs wData _ eq_refl eq_refl).
  exact (proj1 H).
Qed.
Example C25_used_virtual : exists c', updateNrVars wNames wMbs wData (wRun newCC [OAddVirtual wFoot]) = Ok c' /\ map cdId (ccCont c') = [wHand].
Proof. exists (wNr (wRun newCC [OAddVirtual wFoot])). split; reflexivity. Qed.

(** C26: the registries behave as a set and a finite map, and the booleans tell whether the call changed
    anything. *)
Theorem C26_registry : forall ops c outs, Forall noGet ops -> ccRun newCC ops = Ok (c, outs) ->
  exists g, regRun emptyRegistry ops g outs /\ (forall id, isVirtual c id <-> aVirt g id) /\
            (forall id m, dofIs c id m <-> aDof g id = Some m).
Proof. exact registry_lemma. Qed.
Print Assumptions C26_registry.
(** C26 read off the history. *)
Theorem C26_history : forall ops c outs, Forall noGet ops -> ccRun newCC ops = Ok (c, outs) -> forall id,
  (isVirtual c id <-> addedLast id ops) /\ (forall m, dofIs c id m <-> dofGiven id m ops) /\
  (hasDoFContact c id = false <-> dofAbsent id ops).
Proof. exact registry_trace_lemma. Qed.
Print Assumptions C26_history.
(** dofContact() answers the matrix that was given and changes nothing, as long as there is one. *)
Theorem C26_getter : forall ops c outs, Forall noGet ops -> ccRun newCC ops = Ok (c, outs) -> forall id m, dofGiven id m ops -> dofContact c id = (c, m).
Proof. exact getter_lemma. Qed.
Print Assumptions C26_getter.
Definition exOps : list ccOp := [OAddVirtual wFoot; OAddVirtual wFoot; OAddDof wHand wTrans; OAddDof wHand wRot; ORemVirtual wHand; OHasDof wHand; ORemVirtual wFoot; ORemDof wFoot].
Example C26_used : ccRun newCC exOps = Ok (wRun newCC exOps, [Some true; Some false; Some true; Some false; Some false; Some true; Some true; Some false])
  /\ dofGiven wHand wTrans exOps.
Proof.
  split; [reflexivity|].
  assert (H := C26_history exOps (wRun newCC exOps) (wOuts newCC exOps) ltac:(repeat constructor) eq_refl wHand).
  apply (proj1 (proj2 H)). simpl. left. reflexivity.
Qed.

Example C26_getter_used : dofContact (wRun newCC exOps) wHand = (wRun newCC exOps, wTrans).
Proof. exact (C26_getter exOps (wRun newCC exOps) (wOuts newCC exOps) ltac:(repeat constructor) eq_refl wHand wTrans (proj2 C26_used)). Qed.

(** C31: after any calls that keep the robots, the rows written by update() hold at x iff, for every
    contact, the selected components of the relative acceleration (CAcc), of the relative velocity at the
    end of the step (CSpeed) or of that velocity minus the pose error (CPos) vanish. *)
Theorem C31_rows : forall nm mbs uni bi d deps ops0 c0 o0 c1 ops c2 o1 m sv k c3 x,
  nrVarsData mbs uni bi = Ok (d, deps) -> pathsOk nm mbs ->
  (forall b, In b (sdAll d) -> rigid (bXcf b) /\ rigid (bXbb b)) -> modeOk m ->
  ccRun newCC ops0 = Ok (c0, o0) -> updateNrVars nm mbs d c0 = Ok c1 ->
  Forall (sameProblem mbs) ops -> ccRun c1 ops = Ok (c2, o1) -> ccUpdate m mbs sv k c2 = Ok c3 ->
  (holdsEq (sdNrVars d) x (ccEquality c3) <-> Forall (fun cd => contactHolds nm mbs d m sv k cd x) (ccCont c3)).
Proof. exact rows_lemma. Qed.
Print Assumptions C31_rows.
(** C31: update() is defined in those states when the selection matrices have six columns and at most six
    rows and every contact touches a mobile robot. *)
Theorem C31_defined : forall nm mbs uni bi d deps ops0 c0 o0 c1 ops c2 o1 m sv k,
  nrVarsData mbs uni bi = Ok (d, deps) -> pathsOk nm mbs ->
  (forall b, In b (sdAll d) -> rigid (bXcf b) /\ rigid (bXbb b) /\ mobile mbs (bId b)) ->
  Forall (addsOnly wfDof) ops0 -> Forall (addsOnly wfDof) ops ->
  ccRun newCC ops0 = Ok (c0, o0) -> updateNrVars nm mbs d c0 = Ok c1 ->
  Forall (sameProblem mbs) ops -> ccRun c1 ops = Ok (c2, o1) -> exists c3, ccUpdate m mbs sv k c2 = Ok c3.
Proof. exact defined_lemma. Qed.
Print Assumptions C31_defined.
Example C31_used : exists c3, ccUpdate (CPos (1/100)) wMbs wSva wKin (wNr (wRun newCC [OAddDof wFoot wTrans])) = Ok c3 /\
  forall x, holdsEq (sdNrVars wData) x (ccEquality c3) <->
    Forall (fun cd => contactHolds wNames wMbs wData (CPos (1/100)) wSva wKin cd x) (ccCont c3).
Proof.
  assert (A : Forall (addsOnly wfDof) [OAddDof wFoot wTrans]) by (repeat constructor; apply wTrans_wf).
  destruct (C31_defined wNames wMbs [] wBi wData wDeps [OAddDof wFoot wTrans] (wRun newCC [OAddDof wFoot wTrans]) (wOuts newCC [OAddDof wFoot wTrans])
    (wNr (wRun newCC [OAddDof wFoot wTrans])) [] (wNr (wRun newCC [OAddDof wFoot wTrans])) [] (CPos (1/100)) wSva wKin wData_eq wPaths wContacts A (Forall_nil _) eq_refl eq_refl (Forall_nil _) eq_refl) as (c3 & H).
  exists c3. split; [exact H|]. intros x.
  apply (C31_rows wNames wMbs [] wBi wData wDeps [OAddDof wFoot wTrans] (wRun newCC [OAddDof wFoot wTrans]) (wOuts newCC [OAddDof wFoot wTrans])
    (wNr (wRun newCC [OAddDof wFoot wTrans])) [] (wNr (wRun newCC [OAddDof wFoot wTrans])) []); auto using wData_eq, wPaths, wRigid. simpl. lra.
Qed.

(** C32: with selection matrices of at most six rows, nrEq() <= maxEq() after any history; every reported
    line belongs to exactly one contact. *)
Theorem C32_lines : forall ops c outs,
  Forall (addsOnly (fun m => mrows m <= 6)%nat) ops -> ccRun newCC ops = Ok (c, outs) -> (ccNr c <= ccMax c)%nat.
Proof. exact lines_lemma. Qed.
Print Assumptions C32_lines.
Theorem C32_owner : forall cs line, (line < sumRows cs)%nat ->
  exists i, ownsLine cs i line /\ forall j, ownsLine cs j line -> j = i.
Proof. exact owner_lemma. Qed.
Print Assumptions C32_owner.
Definition exHist : list ccOp := [OAddDof wFoot wTrans; ONrVars wNames wMbs wData; ORemDof wFoot; OUpdateDof].
Example C32_used : ccRun newCC exHist = Ok (wRun newCC exHist, wOuts newCC exHist) /\ ccNr (wRun newCC exHist) = 12%nat /\ ccMax (wRun newCC exHist) = 12%nat.
Proof. split; [reflexivity|]. split; reflexivity. Qed.

(** C33 is false: with a selection matrix of three rows on the first contact, line 3 belongs to the hand
    contact and descEq names the foot. *)
Theorem C33_desc_refuted : exists ops c outs nm i line cd l,
  ccRun newCC ops = Ok (c, outs) /\ Forall (addsOnly wfDof) ops /\
  ownsLine (ccCont c) i line /\ nth_error (ccCont c) i = Some cd /\
  descEq nm c line = Ok l /\ l <> bodyNames nm cd.
Proof. exact desc_refuted_lemma. Qed.
Print Assumptions C33_desc_refuted.
(** C33, what holds: the attribution is right when every contact has six rows. *)
Theorem C33_desc_six_rows : forall nm c i line cd,
  Forall (fun c => mrows (cdDof c) = 6%nat) (ccCont c) -> ownsLine (ccCont c) i line -> nth_error (ccCont c) i = Some cd ->
  descEq nm c line = Ok (bodyNames nm cd).
Proof. exact desc_six. Qed.
Print Assumptions C33_desc_six_rows.
Example C33_six_used : ownsLine (ccCont (wNr newCC)) 1 7 /\ descEq wNames (wNr newCC) 7 = Ok ["hand"; "box"].
Proof. split; [split; simpl; lia|reflexivity]. Qed.
(** C33, exactly when it fails: as soon as the contacts before contact i have fewer than six rows each on
    average, a line of contact i is attributed to an earlier one. *)
Theorem C33_desc_wrong : forall c i, Forall (fun c => mrows (cdDof c) <= 6)%nat (ccCont c) ->
  (sumnat (map (fun c => mrows (cdDof c)) (firstn i (ccCont c))) < 6 * i)%nat -> (i < length (ccCont c))%nat ->
  (forall cd, nth_error (ccCont c) i = Some cd -> 0 < mrows (cdDof cd))%nat ->
  exists line, ownsLine (ccCont c) i line /\ (line / 6 < i)%nat.
Proof. exact desc_wrong. Qed.
Print Assumptions C33_desc_wrong.
Example C33_wrong_used : map (fun c => mrows (cdDof c)) (ccCont (wNr (wRun newCC [OAddDof wFoot wTrans]))) = [3%nat; 6%nat].
Proof. reflexivity. Qed.

(** C69: a contact whose selection matrix had a 1 in every column at updateNrVars keeps its reference
    frames whatever the later calls. *)
Theorem C69_reference_kept : forall nm mbs uni bi d deps ops0 c0 o0 c1 ops c2 o1 q a b,
  nrVarsData mbs uni bi = Ok (d, deps) -> pathsOk nm mbs -> (forall b, In b (sdAll d) -> rigid (bXcf b) /\ rigid (bXbb b)) ->
  ccRun newCC ops0 = Ok (c0, o0) -> updateNrVars nm mbs d c0 = Ok c1 ->
  Forall (sameProblem mbs) ops -> ccRun c1 ops = Ok (c2, o1) ->
  nth_error (ccCont c1) q = Some a -> nth_error (ccCont c2) q = Some b -> allSelected (cdDof a) ->
  cdId b = cdId a /\ cdSides b = cdSides a /\ cdXbb b = cdXbb a /\ cdXcf b = cdXcf a.
Proof. exact reference_lemma. Qed.
Print Assumptions C69_reference_kept.
Example C69_used : exists cd, nth_error (ccCont (wNr newCC)) 1 = Some cd /\ allSelected (cdDof cd).
Proof.
  eexists. split; [reflexivity|]. intros j Hj. exists j. split; [simpl; lia|]. simpl. rewrite Nat.eqb_refl. reflexivity.
Qed.
(** C69: one update moves the frame of the second body only along directions whose column has no 1 in the
    selection matrix used by updateNrVars. *)
Theorem C69_motion : forall nm mbs d sv k c c' dof, rigidCD c -> dataFor nm mbs d c -> cdRevDof c = revDof dof -> cdUpdate sv k c = Ok c' ->
  cdXcf c' = cdXcf c /\
  exists e, (forall j, (exists r, (r < mrows dof)%nat /\ mget dof r j = 1) -> e j = 0) /\
    pt_mul (cdXcf c') (pt_inv (cdXbb c')) = pt_mul (motion e) (pt_mul (cdXcf c) (pt_inv (cdXbb c))).
Proof. exact motion_lemma. Qed.
Print Assumptions C69_motion.
(** C69 is false for the current selection matrix: after updateDofContacts the free directions are still
    those of the matrix used by updateNrVars. *)
Theorem C69_reference_refuted :
  exists nm mbs uni bi d deps ops0 c0 o0 c1 ops c2 o1 k q cd,
    nrVarsData mbs uni bi = Ok (d, deps) /\ pathsOk nm mbs /\ (forall b, In b (sdAll d) -> rigid (bXcf b) /\ rigid (bXbb b)) /\
    Forall (addsOnly wfDof) ops0 /\ ccRun newCC ops0 = Ok (c0, o0) /\ updateNrVars nm mbs d c0 = Ok c1 /\
    Forall (sameProblem mbs) ops /\ ccRun c1 ops = Ok (c2, o1) /\
    nth_error (ccCont c2) q = Some cd /\ cdDof cd = identity6 /\
    forall sv, translationError sv -> exists c3 cd3, ccUpdate CAcc mbs sv k c2 = Ok c3 /\ nth_error (ccCont c3) q = Some cd3 /\ cdXbb cd3 <> cdXbb cd.
Proof. exact stale_lemma. Qed.
Print Assumptions C69_reference_refuted.
Example C69_translationError_used : translationError wSva.
Proof. intros X1 X2 _ _. simpl. repeat split; reflexivity. Qed.

(** C70 is false: reading the selection matrix of a contact without one, then calling updateDofContacts,
    makes the next update undefined although it was defined before. *)
Theorem C70_getter_refuted : exists ops c outs id m mbs sv k,
  ccRun newCC ops = Ok (c, outs) /\ In id (map cdId (ccCont c)) /\
  (exists c3, ccUpdate m mbs sv k (updateDofContacts c) = Ok c3) /\
  forall c3, ccUpdate m mbs sv k (updateDofContacts (fst (dofContact c id))) <> Ok c3.
Proof. exact getter_refuted_lemma. Qed.
Print Assumptions C70_getter_refuted.
(** C70, in general. *)
Theorem C70_getter_breaks : forall ops c outs id m mbs sv k, ccRun newCC ops = Ok (c, outs) -> hasDoFContact c id = false -> In id (map cdId (ccCont c)) ->
  hasDoFContact (fst (dofContact c id)) id = true /\
  forall c', ccUpdate m mbs sv k (updateDofContacts (fst (dofContact c id))) <> Ok c'.
Proof. exact getter_breaks. Qed.
Print Assumptions C70_getter_breaks.
