(** A concrete torque task, and the refutation for a robot that touches itself. *)
From Verif Require Export TorqueFacts MotionWitness.
Open Scope string_scope.
Open Scope list_scope.
Open Scope R_scope.

(** Selection of the second joint. *)
Definition c94Sel : vec R := mkVec 2 (fun i => if Nat.eqb i 1 then 1 else 0).
Lemma ttFor (P : solverData -> Prop) w d : P d -> Forall (ttData P) [TtWeight w; TtNrVars d].
Proof. intros H. constructor; [exact I|]. constructor; [exact H|constructor]. Qed.
Lemma tt_self_refuted : exists nm mbs r mb sel ops t0 t d dy t' x y,
  nth_error mbs r = Some mb /\ pathsWf nm mbs /\ Forall (ttData (sizesOf mbs)) ops /\ newTTsel mbs r sel 1 = Ok t0 /\ ttRun nm mbs ops t0 = Ok t /\
  latest ttGiveD None ops = Some d /\ ttUpdate mbs dy t = Ok t' /\ (forall j, (j < nrDof mb)%nat -> invTorque nm mbs d dy r x j = 0 /\ invTorque nm mbs d dy r y j = 0) /\
  taskCost (ttTask t') x < taskCost (ttTask t') y.
Proof.
  destruct (newTTsel wMbs 0 (ones 2) 1) as [t0| |] eqn:N; try discriminate.
  destruct (ttRun wNames wMbs [TtWeight 1; TtNrVars gDataSelf] t0) as [t| |] eqn:R; try (injection N as <-; discriminate).
  pose proof (ttFor (sizesOf wMbs) 1 gDataSelf gSizesSelf) as F.
  destruct (proj2 (torque_task_defined wNames wMbs 0 _ (ones 2) 1 _ t0 t gDataSelf gDyn eq_refl gPaths F N R eq_refl) eq_refl) as (t' & U).
  pose proof (torqueLast_lemma wNames wMbs 0 _ (ones 2) 1 _ t0 t gDataSelf gDyn t' eq_refl gPaths F N R eq_refl U) as C.
  exists wNames, wMbs, 0%nat, (mkMB [mkJoint "h0" 1 1 None; mkJoint "h1" 1 1 None]), (ones 2), [TtWeight 1; TtNrVars gDataSelf], t0, t, gDataSelf, gDyn, t', (gX (-1) (-1) 0 0), (gX (-1) (-2) 0 1).
  split; [reflexivity|]. split; [exact gPaths|]. split; [exact F|]. split; [exact N|]. split; [exact R|]. split; [reflexivity|]. split; [exact U|]. split.
  - intros j Hj. change (nrDof _) with 2%nat in Hj. rewrite !gTauSelf by auto. destruct j as [|[|j]]; [| |lia]; cbn; lra.
  - specialize (C (gX (-1) (-1) 0 0) (gX (-1) (-2) 0 1)). change (latest ttGiveW 1 _) with 1 in C. revert C. unfold torqueCost. change (nrDof _) with 2%nat. unfold sumn. rewrite !gTauLast by lia. cbn. intros C. lra.
Qed.
