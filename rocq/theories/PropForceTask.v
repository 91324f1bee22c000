(** Properties of the contact task and of the gripper torque task. *)
From Verif Require Import ForceTaskWitness.
Open Scope string_scope.
Open Scope list_scope.
Open Scope R_scope.

(** C63, contact task: after any calls with valid data, the last updateNrVars of which had data [d], it acts on exactly the multipliers
    of the first contact with its id, and nowhere if there is none. *)
Theorem C63_contact : forall mbs id k0 w0 ops t d t',
  Forall (ctData (sizesOf mbs)) ops -> ctRun ops (newCT id k0 w0) = Ok t -> latest ctGiveD None ops = Some d -> ctUpdate t = Ok t' ->
  (forall k c, isFirst id (sdAll d) k c -> exists pos n, lambdaBeginAt d k = Ok pos /\ lambda d k = Ok n /\ actsOn (ctTask t') pos n) /\
  ((forall c, In c (sdAll d) -> bId c <> id) -> actsNowhere (ctTask t')).
Proof. exact contact_place. Qed.
Print Assumptions C63_contact.
(** Gripper task: the same for the bilateral contacts. *)
Theorem C63_gripper : forall mbs id o ax w0 ops t d,
  Forall (gtData (sizesOf mbs)) ops -> gtRun ops (newGT id o ax w0) = Ok t -> latest gtGiveD None ops = Some d ->
  (forall k b, isFirst id (sdBi d) k b -> exists pos n, lambdaBeginAt d (length (sdUni d) + k) = Ok pos /\ lambda d (length (sdUni d) + k) = Ok n /\ actsOn (gtTask t) pos n) /\
  ((forall b, In b (sdBi d) -> bId b <> id) -> actsNowhere (gtTask t)).
Proof. exact gripper_place. Qed.
Print Assumptions C63_gripper.
(** No call is undefined, apart from an update of the contact task before its first updateNrVars. *)
Theorem C63_contact_defined : forall mbs id k0 w0 ops t d,
  Forall (ctData (sizesOf mbs)) ops -> ctRun ops (newCT id k0 w0) = Ok t ->
  (sizesOf mbs d -> exists t', ctNrVars d t = Ok t') /\ (latest ctGiveD None ops = Some d -> exists t', ctUpdate t = Ok t').
Proof. exact contact_task_defined. Qed.
Print Assumptions C63_contact_defined.
Theorem C63_gripper_defined : forall mbs d t, sizesOf mbs d -> exists t', gtNrVars d t = Ok t'.
Proof. exact gripper_task_defined. Qed.
Print Assumptions C63_gripper_defined.
(** The hand is contact 1, behind a foot with two variables: both tasks act on the variables 3, 4, 5. The gripper task of the
    unilateral contact acts nowhere. *)
Example C63_used : exists t t' g g', ctRun fOps (newCT fHand 7 1) = Ok t /\ ctUpdate t = Ok t' /\ actsOn (ctTask t') 3 3 /\
  gtRun [GtNrVars fData; GtUpdate] (newGT fHand v0 (mkV3 0 0 1) 1) = Ok g /\ actsOn (gtTask g) 3 3 /\
  gtRun [GtNrVars fData; GtUpdate] (newGT fFoot v0 (mkV3 0 0 1) 1) = Ok g' /\ actsNowhere (gtTask g').
Proof.
  destruct (ctRun fOps (newCT fHand 7 1)) as [t| |] eqn:R; try discriminate. destruct (proj2 (C63_contact_defined fMbs fHand 7 1 fOps t fData fOps_ok R) eq_refl) as (t' & U).
  destruct (gtRun [GtNrVars fData; GtUpdate] (newGT fHand v0 (mkV3 0 0 1) 1)) as [g| |] eqn:G; try discriminate.
  destruct (gtRun [GtNrVars fData; GtUpdate] (newGT fFoot v0 (mkV3 0 0 1) 1)) as [g'| |] eqn:G'; try discriminate.
  exists t, t', g, g'. split; [reflexivity|]. split; [exact U|]. split.
  - destruct (proj1 (C63_contact fMbs fHand 7 1 fOps t fData t' fOps_ok R eq_refl U) 1%nat fBi fFirstHand) as (pos & n & P & N & A). injection P as <-. injection N as <-. exact A.
  - split; [reflexivity|]. split.
    + destruct (proj1 (C63_gripper fMbs fHand v0 (mkV3 0 0 1) 1 _ g fData gOps_ok G eq_refl) 0%nat fBi fFirstBi) as (pos & n & P & N & A). injection P as <-. injection N as <-. exact A.
    + split; [reflexivity|]. apply (proj2 (C63_gripper fMbs fFoot v0 (mkV3 0 0 1) 1 _ g' fData gOps_ok G' eq_refl)). intros b [<-|[]]. discriminate.
Qed.

(** C97: the cost of the contact task is, up to a constant, its weight times half the squared distance of the force of the contact
    on its first body to the vector last given to error(). *)
Theorem C97_pull : forall mbs id k0 w0 ops t d t' k c pos,
  Forall (ctData (sizesOf mbs)) ops -> ctRun ops (newCT id k0 w0) = Ok t -> latest ctGiveD None ops = Some d -> ctUpdate t = Ok t' ->
  isFirst id (sdAll d) k c -> lambdaBeginAt d k = Ok pos ->
  costs (ctTask t') (latest ctGiveW w0 ops) (fun x => / 2 * norm2 (vsub (contactPush c x pos) (latest ctGiveE v0 ops))).
Proof. exact contact_pull. Qed.
Print Assumptions C97_pull.
(** At the multipliers (2, 5, 1) the hand pushes with (1, 2, 5); the target is (1, 2, 3). *)
Example C97_used : exists t t', ctRun fOps (newCT fHand 7 1) = Ok t /\ ctUpdate t = Ok t' /\ taskCost (ctTask t') fX - taskCost (ctTask t') (fun _ => 0) = 4 * (/ 2 * 4 - / 2 * 14).
Proof.
  destruct (ctRun fOps (newCT fHand 7 1)) as [t| |] eqn:R; try discriminate. destruct (proj2 (C63_contact_defined fMbs fHand 7 1 fOps t fData fOps_ok R) eq_refl) as (t' & U).
  exists t, t'. split; [reflexivity|]. split; [exact U|]. rewrite (C97_pull fMbs fHand 7 1 fOps t fData t' 1 fBi 3 fOps_ok R eq_refl U fFirstHand eq_refl).
  change (latest ctGiveW 1 fOps) with 4. change (latest ctGiveE v0 fOps) with (mkV3 1 2 3). unfold norm2, dot, vsub, contactPush, vadd, vsc, v0. cbn. lra.
Qed.

(** C98: that the cost of the gripper task is its weight times the magnitude of the torque of the contact about the axis is false when
    generators turn both ways. *)
Theorem C98_gripper_refuted : exists mbs id o ax ops t d k b pos x,
  Forall (gtData (sizesOf mbs)) ops /\ gtRun ops (newGT id o ax 1) = Ok t /\ latest gtGiveD None ops = Some d /\
  isFirst id (sdBi d) k b /\ lambdaBeginAt d (length (sdUni d) + k) = Ok pos /\ (forall q, 0 <= x q) /\
  latest gtGiveW 1 ops = 1 /\ Rabs (torqueAbout o ax (bR1Points b) (forces (bR1Cones b) x pos)) < taskCost (gtTask t) x.
Proof. exact gripper_refuted_lemma. Qed.
Print Assumptions C98_gripper_refuted.
(** What holds for nonnegative multipliers: the cost is the weight times the sum of the magnitudes of the torques along each generator,
    which is at least the magnitude of the torque, and is the torque when no generator turns backwards. *)
Theorem C98_gripper : forall mbs id o ax w0 ops t d k b pos x,
  Forall (gtData (sizesOf mbs)) ops -> gtRun ops (newGT id o ax w0) = Ok t -> latest gtGiveD None ops = Some d ->
  isFirst id (sdBi d) k b -> lambdaBeginAt d (length (sdUni d) + k) = Ok pos -> (forall q, (sdTotalAlphaD d <= q < sdNrVars d)%nat -> 0 <= x q) ->
  taskCost (gtTask t) x = latest gtGiveW w0 ops * turnAbout o ax (bR1Points b) (bR1Cones b) x pos /\
  Rabs (torqueAbout o ax (bR1Points b) (forces (bR1Cones b) x pos)) <= turnAbout o ax (bR1Points b) (bR1Cones b) x pos /\
  (forwardOnly (mkGr id 0 o ax) b -> turnAbout o ax (bR1Points b) (bR1Cones b) x pos = torqueAbout o ax (bR1Points b) (forces (bR1Cones b) x pos)).
Proof. exact gripper_cost. Qed.
Print Assumptions C98_gripper.
(** About the z axis the hand turns by 2 - 1 = 1 and the cost is 3. *)
Example C98_used : exists g, gtRun [GtNrVars fData; GtUpdate] (newGT fHand v0 (mkV3 0 0 1) 1) = Ok g /\ taskCost (gtTask g) fX = 3 /\
  torqueAbout v0 (mkV3 0 0 1) (bR1Points fBi) (forces (bR1Cones fBi) fX 3) = 1.
Proof.
  destruct (gtRun [GtNrVars fData; GtUpdate] (newGT fHand v0 (mkV3 0 0 1) 1)) as [g| |] eqn:G; try discriminate. exists g. split; [reflexivity|]. split.
  - destruct (C98_gripper fMbs fHand v0 (mkV3 0 0 1) 1 _ g fData 0 fBi 3 fX gOps_ok G eq_refl fFirstBi eq_refl ltac:(intros; apply fX_nonneg)) as (E & _). rewrite E. change (latest _ _ _) with 1.
    cbn. unfold dot, cross, vsub, vsc, vadd, v0. cbn. repeat match goal with |- context [Rabs ?a] => (rewrite (Rabs_right a) by lra) || (rewrite (Rabs_left a) by lra) end. lra.
  - cbn. unfold dot, cross, vsub, vsc, vadd, v0. cbn. lra.
Qed.

(** C99: that the target of the contact task is the error scaled by the stiffness given to the constructor is false. *)
Theorem C99_stiffness_refuted : exists mbs id k0 ops t d t' k c pos,
  Forall (ctData (sizesOf mbs)) ops /\ ctRun ops (newCT id k0 1) = Ok t /\ latest ctGiveD None ops = Some d /\ ctUpdate t = Ok t' /\
  isFirst id (sdAll d) k c /\ lambdaBeginAt d k = Ok pos /\ latest ctGiveW 1 ops = 4 /\
  exists x y, taskCost (ctTask t') x - taskCost (ctTask t') y <>
    4 * (/ 2 * norm2 (vsub (contactPush c x pos) (vsc k0 (latest ctGiveE v0 ops))) - / 2 * norm2 (vsub (contactPush c y pos) (vsc k0 (latest ctGiveE v0 ops)))).
Proof. exact contact_stiff_refuted. Qed.
Print Assumptions C99_stiffness_refuted.
(** Neither the stiffness nor any call of errorD() changes anything the solver reads. *)
Theorem C99_no_effect : forall id k1 k2 w0 ops t1,
  ctRun ops (newCT id k1 w0) = Ok t1 ->
  exists t2, ctRun (filter (fun o => match o with CtErrorD _ => false | _ => true end) ops) (newCT id k2 w0) = Ok t2 /\ ctTask t1 = ctTask t2.
Proof. exact contact_extra. Qed.
Print Assumptions C99_no_effect.
Example C99_used : exists t1 t2, ctRun fOps (newCT fHand 7 1) = Ok t1 /\ ctRun [CtError (mkV3 1 2 3); CtWeight 4; CtNrVars fData] (newCT fHand 1000 1) = Ok t2 /\ ctTask t1 = ctTask t2.
Proof.
  destruct (ctRun fOps (newCT fHand 7 1)) as [t1| |] eqn:R; try discriminate. destruct (C99_no_effect fHand 7 1000 1 fOps t1 R) as (t2 & R2 & E). exists t1, t2. auto.
Qed.
