(** Properties of the torque task. *)
From Verif Require Import TorqueWitness.
Open Scope string_scope.
Open Scope list_scope.
Open Scope R_scope.

(** C94: after any calls, the cost of the torque task is its weight times half the sum of the selected squared joint torques that inverse
    dynamics gives for the decision variables, up to a constant. The condition asks that the robot does not touch itself. *)
Theorem C94_torque : forall nm mbs r mb sel w0 ops t0 t d dy t',
  nth_error mbs r = Some mb -> pathsWf nm mbs -> Forall (ttData (fun d => sizesOf mbs d /\ noSelf r d)) ops ->
  newTTsel mbs r sel w0 = Ok t0 -> ttRun nm mbs ops t0 = Ok t -> latest ttGiveD None ops = Some d -> ttUpdate mbs dy t = Ok t' ->
  costs (ttTask t') (latest ttGiveW w0 ops) (torqueCost (nrDof mb) (vget sel) (invTorque nm mbs d dy r)).
Proof. exact torque_task_lemma. Qed.
Print Assumptions C94_torque.
(** The task constructed without a selection counts every joint. *)
Theorem C94_torque_all : forall nm mbs r mb w0 ops t0 t d dy t',
  nth_error mbs r = Some mb -> pathsWf nm mbs -> Forall (ttData (fun d => sizesOf mbs d /\ noSelf r d)) ops ->
  newTT mbs r w0 = Ok t0 -> ttRun nm mbs ops t0 = Ok t -> latest ttGiveD None ops = Some d -> ttUpdate mbs dy t = Ok t' ->
  costs (ttTask t') (latest ttGiveW w0 ops) (torqueCost (nrDof mb) (fun _ => 1) (invTorque nm mbs d dy r)).
Proof. exact torque_all_lemma. Qed.
Print Assumptions C94_torque_all.
(** The update is defined exactly for a selection with one entry per degree of freedom, the length of which nothing checks. *)
Theorem C94_defined : forall nm mbs r mb sel w0 ops t0 t d dy,
  nth_error mbs r = Some mb -> pathsWf nm mbs -> Forall (ttData (sizesOf mbs)) ops ->
  newTTsel mbs r sel w0 = Ok t0 -> ttRun nm mbs ops t0 = Ok t -> latest ttGiveD None ops = Some d ->
  ((exists t', ttUpdate mbs dy t = Ok t') <-> vlen sel = nrDof mb).
Proof. exact torque_task_defined. Qed.
Print Assumptions C94_defined.
(** Robot 0 of the witness, whose torque is x_j + 1 - x_3; joint 1 alone is selected, the weight was changed to 4. *)
Example C94_used : exists t0 t t', newTTsel wMbs 0 c94Sel 1 = Ok t0 /\ ttRun wNames wMbs [TtWeight 4; TtNrVars gData] t0 = Ok t /\ ttUpdate wMbs gDyn t = Ok t' /\
  forall x y, taskCost (ttTask t') x - taskCost (ttTask t') y = 4 * (/ 2 * (x 1%nat + 1 - x 3%nat) ^ 2 - / 2 * (y 1%nat + 1 - y 3%nat) ^ 2).
Proof.
  destruct (newTTsel wMbs 0 c94Sel 1) as [t0| |] eqn:N; try discriminate.
  destruct (ttRun wNames wMbs [TtWeight 4; TtNrVars gData] t0) as [t| |] eqn:R; try (injection N as <-; discriminate).
  pose proof (ttFor (fun d => sizesOf wMbs d /\ noSelf 0 d) 4 gData (conj gSizes gNoSelf)) as F.
  pose proof (ttFor (sizesOf wMbs) 4 gData gSizes) as F'.
  destruct (proj2 (C94_defined wNames wMbs 0 _ c94Sel 1 _ t0 t gData gDyn eq_refl gPaths F' N R eq_refl) eq_refl) as (t' & U).
  exists t0, t, t'. split; [auto|]. split; [auto|]. split; [auto|]. intros x y.
  rewrite (C94_torque wNames wMbs 0 _ c94Sel 1 _ t0 t gData gDyn t' eq_refl gPaths F N R eq_refl U x y).
  unfold torqueCost. change (nrDof _) with 2%nat. unfold sumn. rewrite !gTau by lia. cbn. change (latest ttGiveW 1 [TtWeight 4; TtNrVars gData]) with 4. lra.
Qed.
(** Without a selection: x_0 + 1 - x_3 and x_1 + 1 - x_3 are both counted. *)
Example C94_all_used : exists t0 t t', newTT wMbs 0 1 = Ok t0 /\ ttRun wNames wMbs [TtWeight 4; TtNrVars gData] t0 = Ok t /\ ttUpdate wMbs gDyn t = Ok t' /\
  forall x y, taskCost (ttTask t') x - taskCost (ttTask t') y =
    4 * (/ 2 * ((x 0%nat + 1 - x 3%nat) ^ 2 + (x 1%nat + 1 - x 3%nat) ^ 2) - / 2 * ((y 0%nat + 1 - y 3%nat) ^ 2 + (y 1%nat + 1 - y 3%nat) ^ 2)).
Proof.
  destruct (newTT wMbs 0 1) as [t0| |] eqn:N; try discriminate.
  destruct (ttRun wNames wMbs [TtWeight 4; TtNrVars gData] t0) as [t| |] eqn:R; try (injection N as <-; discriminate).
  pose proof (ttFor (fun d => sizesOf wMbs d /\ noSelf 0 d) 4 gData (conj gSizes gNoSelf)) as F.
  pose proof (ttFor (sizesOf wMbs) 4 gData gSizes) as F'.
  destruct (proj2 (C94_defined wNames wMbs 0 _ _ 1 _ t0 t gData gDyn eq_refl gPaths F' N R eq_refl) eq_refl) as (t' & U).
  exists t0, t, t'. split; [auto|]. split; [auto|]. split; [auto|]. intros x y.
  rewrite (C94_torque_all wNames wMbs 0 _ 1 _ t0 t gData gDyn t' eq_refl gPaths F N R eq_refl U x y).
  unfold torqueCost. change (nrDof _) with 2%nat. unfold sumn. rewrite !gTau by lia. cbn. change (latest ttGiveW 1 [TtWeight 4; TtNrVars gData]) with 4. lra.
Qed.

(** C95 without that condition is false: two points of zero torque in every joint have different costs, since of a contact of the robot
    with itself the task counts the force on one body only. *)
Theorem C95_self_refuted : exists nm mbs r mb sel ops t0 t d dy t' x y,
  nth_error mbs r = Some mb /\ pathsWf nm mbs /\ Forall (ttData (sizesOf mbs)) ops /\ newTTsel mbs r sel 1 = Ok t0 /\ ttRun nm mbs ops t0 = Ok t /\
  latest ttGiveD None ops = Some d /\ ttUpdate mbs dy t = Ok t' /\ (forall j, (j < nrDof mb)%nat -> invTorque nm mbs d dy r x j = 0 /\ invTorque nm mbs d dy r y j = 0) /\
  taskCost (ttTask t') x < taskCost (ttTask t') y.
Proof. exact tt_self_refuted. Qed.
Print Assumptions C95_self_refuted.
(** What holds for every set of contacts: the torques counted are those in which a contact of the robot with itself acts on its last body only. *)
Theorem C95_exact : forall nm mbs r mb sel w0 ops t0 t d dy t',
  nth_error mbs r = Some mb -> pathsWf nm mbs -> Forall (ttData (sizesOf mbs)) ops ->
  newTTsel mbs r sel w0 = Ok t0 -> ttRun nm mbs ops t0 = Ok t -> latest ttGiveD None ops = Some d -> ttUpdate mbs dy t = Ok t' ->
  costs (ttTask t') (latest ttGiveW w0 ops) (torqueCost (nrDof mb) (vget sel) (invTorqueLast nm mbs d dy r)).
Proof. exact torqueLast_lemma. Qed.
Print Assumptions C95_exact.
(** The self-contact of the witness: the task sees x_j + 1 + x_3 in both joints although joint 0 carries none of the contact. *)
Example C95_used : exists t0 t t', newTTsel wMbs 0 c94Sel 1 = Ok t0 /\ ttRun wNames wMbs [TtWeight 4; TtNrVars gDataSelf] t0 = Ok t /\ ttUpdate wMbs gDyn t = Ok t' /\
  forall x y, taskCost (ttTask t') x - taskCost (ttTask t') y = 4 * (/ 2 * (x 1%nat + 1 + x 3%nat) ^ 2 - / 2 * (y 1%nat + 1 + y 3%nat) ^ 2).
Proof.
  destruct (newTTsel wMbs 0 c94Sel 1) as [t0| |] eqn:N; try discriminate.
  destruct (ttRun wNames wMbs [TtWeight 4; TtNrVars gDataSelf] t0) as [t| |] eqn:R; try (injection N as <-; discriminate).
  pose proof (ttFor (sizesOf wMbs) 4 gDataSelf gSizesSelf) as F.
  destruct (proj2 (C94_defined wNames wMbs 0 _ c94Sel 1 _ t0 t gDataSelf gDyn eq_refl gPaths F N R eq_refl) eq_refl) as (t' & U).
  exists t0, t, t'. split; [auto|]. split; [auto|]. split; [auto|]. intros x y.
  rewrite (C95_exact wNames wMbs 0 _ c94Sel 1 _ t0 t gDataSelf gDyn t' eq_refl gPaths F N R eq_refl U x y).
  unfold torqueCost. change (nrDof _) with 2%nat. unfold sumn. rewrite !gTauLast by lia. cbn. change (latest ttGiveW 1 [TtWeight 4; TtNrVars gDataSelf]) with 4. lra.
Qed.

(** C96: the constructor with an end effector selects exactly the degrees of freedom of the joints between the base and that body,
    the joint of the base excluded. *)
Theorem C96_end_effector : forall nm mbs r mb ef w t p,
  nth_error mbs r = Some mb -> pathsWf nm mbs -> nPath nm r ef = Ok p -> newTTef nm mbs r ef w = Ok t ->
  exists sel, newTTsel mbs r sel w = Ok t /\ vlen sel = nrDof mb /\ forall c, (onPath mb p c -> vget sel c = 1) /\ (~ onPath mb p c -> vget sel c = 0).
Proof. exact ef_lemma. Qed.
Print Assumptions C96_end_effector.
(** The hand of the witness robot: joint 1 is selected, joint 0 is the joint of the base. *)
Example C96_used : exists t sel, newTTef wNames wMbs 0 "hand" 3 = Ok t /\ newTTsel wMbs 0 sel 3 = Ok t /\ vget sel 0 = 0 /\ vget sel 1 = 1.
Proof.
  destruct (newTTef wNames wMbs 0 "hand" 3) as [t| |] eqn:N; try discriminate. destruct (nPath wNames 0 "hand") as [p| |] eqn:P; try discriminate.
  destruct (C96_end_effector wNames wMbs 0 _ "hand" 3 t p eq_refl wPaths P N) as (sel & S & _ & V). exists t, sel. split; [auto|]. split; [auto|]. injection P as <-. split.
  - apply V. intros (i & j & k & Hi & N0 & Hj & Hk & E). cbn in Hi. destruct Hi as [<-|[<-|[]]]; [congruence|]. cbn in E. lia.
  - apply V. exists 1%nat, (mkJoint "h1" 1 1 None), 0%nat. repeat split; auto; cbn; auto.
Qed.
