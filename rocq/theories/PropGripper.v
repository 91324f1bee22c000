(** Properties of GripperTorqueConstr. *)
From Verif Require Import GripperWitness.
Open Scope string_scope.
Open Scope list_scope.
Open Scope R_scope.

(** C50: after updateNrVars there are as many rows as grippers. Row k belongs to the k-th gripper that has a bilateral contact. If it holds at a
    point with nonnegative multipliers, the torque of the contact forces of the first contact of the gripper about its axis is at most
    the limit in magnitude; the row asks no more than that when no generator turns backwards. The other rows restrict
    nothing. *)
Theorem C50_torque : forall mbs uni bi d deps ops c,
  nrVarsData mbs uni bi = Ok (d, deps) -> Forall (fun b => length (bR1Cones b) = length (bR1Points b)) bi ->
  gSized d ops -> gRun newGrip ops = Ok c ->
  iqNr (gripInEq c) = length (gripsAfter ops) /\ mrows (iqA (gripInEq c)) = length (gripsAfter ops) /\ mcols (iqA (gripInEq c)) = sdNrVars d /\
  vlen (iqB (gripInEq c)) = length (gripsAfter ops) /\
  (forall k g, nth_error (gripped bi (gripsAfter ops)) k = Some g -> exists kc b pos, contactOf bi g kc b /\ lambdaBeginAt d (length uni + kc) = Ok pos /\
     forall x, (forall i, (sdTotalAlphaD d <= i < sdNrVars d)%nat -> 0 <= x i) ->
       (holdsRow (sdNrVars d) x (gripInEq c) k -> Rabs (gripTorque g b x pos) <= grLimit g) /\
       (forwardOnly g b -> gripTorque g b x pos <= grLimit g -> holdsRow (sdNrVars d) x (gripInEq c) k)) /\
  (forall k x, (length (gripped bi (gripsAfter ops)) <= k < length (gripsAfter ops))%nat -> holdsRow (sdNrVars d) x (gripInEq c) k).
Proof. intros mbs uni bi d deps ops c H1 H2. exact (grip_rows mbs uni bi d deps H1 H2 ops c). Qed.
Print Assumptions C50_torque.
(** updateNrVars never runs out of the matrix. *)
Theorem C50_defined : forall mbs uni bi d deps c,
  nrVarsData mbs uni bi = Ok (d, deps) -> Forall (fun b => length (bR1Cones b) = length (bR1Points b)) bi -> exists c', gripNrVars d c = Ok c'.
Proof. intros mbs uni bi d deps c H1 H2. exact (grip_defined mbs uni bi d deps H1 H2 c). Qed.
Print Assumptions C50_defined.
(** A gripper without contact, then one whose contact has two points: at multipliers (2, 5, 1) the torque is 1, within the limit 3. *)
Example C50_used : exists c, gRun newGrip [GAdd gLostG; GAdd gHandG; GNr gData; GUp] = Ok c /\
  Rabs (gripTorque gHandG gBi gX 1) <= 3 /\ gripTorque gHandG gBi gX 1 = 1 /\ holdsRow 4 gX (gripInEq c) 0 /\ holdsRow 4 gX (gripInEq c) 1.
Proof.
  destruct (C50_defined gMbs [] [gBi] gData [] (addGripper gHandG (addGripper gLostG newGrip)) gData_eq gPoints) as (c & E). exists c.
  assert (RUN : gRun newGrip [GAdd gLostG; GAdd gHandG; GNr gData; GUp] = Ok c) by (cbn [gRun gStep bind]; rewrite E; reflexivity).
  assert (SZ : gSized gData [GAdd gLostG; GAdd gHandG; GNr gData; GUp]) by (exists [GAdd gLostG; GAdd gHandG], 1%nat; reflexivity).
  assert (ROW : holdsRow 4 gX (gripInEq c) 0).
  { cbn in E. injection E as <-. unfold holdsRow. cbn. unfold dot, cross, vsub. cbn.
    repeat match goal with |- context [Rabs ?a] => let r := fresh "r" in remember (Rabs a) as r end. repeat match goal with H : ?r = Rabs ?a |- _ => (rewrite Rabs_right in H by lra) || (rewrite Rabs_left in H by lra) end. lra. }
  split; [exact RUN|]. destruct (C50_torque gMbs [] [gBi] gData [] _ c gData_eq gPoints SZ RUN) as (_ & _ & _ & _ & T & Z).
  split; [|split; [unfold gripTorque; cbn; unfold dot, cross, vsub, vadd, vsc; cbn; lra|split; [exact ROW|apply (Z 1%nat); cbn; lia]]].
  destruct (T 0%nat gHandG eq_refl) as (kc & b & pos & (CO & _ & _) & LB & X). destruct kc as [|kc]; [|destruct kc; discriminate]. injection CO as <-. injection LB as <-.
  apply (X gX); [|exact ROW]. intros i _. destruct i as [|[|[|[|i]]]]; cbn; lra.
Qed.

(** C51: descInEq names the bodies and the limit of the gripper of the row when every gripper has a contact. *)
Theorem C51_description : forall bi ops c, gRun newGrip ops = Ok c ->
  (forall g, In g (gripsAfter ops) -> exists b, In b bi /\ bId b = grId g) ->
  forall k g, nth_error (gripped bi (gripsAfter ops)) k = Some g -> gripDesc c k = Ok (r1Body (grId g), r2Body (grId g), grLimit g).
Proof. intros bi ops c. exact (grip_desc bi ops c). Qed.
Print Assumptions C51_description.
Example C51_used : exists c, gRun newGrip [GAdd gHandG; GAdd gHandG; GNr gData] = Ok c /\ gripDesc c 1 = Ok ("hand", "bar", 3).
Proof.
  destruct (C50_defined gMbs [] [gBi] gData [] (addGripper gHandG (addGripper gHandG newGrip)) gData_eq gPoints) as (c & E). exists c.
  assert (RUN : gRun newGrip [GAdd gHandG; GAdd gHandG; GNr gData] = Ok c) by (cbn [gRun gStep bind]; rewrite E; reflexivity).
  split; [exact RUN|]. apply (C51_description [gBi] _ c RUN) with (g := gHandG); [|reflexivity]. intros g [<-|[<-|[]]]; exists gBi; cbn; auto.
Qed.
(** C51 refuted as stated: the rows skip the grippers without contact, descInEq does not: row 0 belongs to the second gripper and is
    described as the first one. *)
Theorem C51_refuted : exists mbs uni bi d deps ops c g a b l, nrVarsData mbs uni bi = Ok (d, deps) /\
  Forall (fun b => length (bR1Cones b) = length (bR1Points b)) bi /\ gSized d ops /\ gRun newGrip ops = Ok c /\
  nth_error (gripped bi (gripsAfter ops)) 0 = Some g /\ gripDesc c 0 = Ok (a, b, l) /\ a <> r1Body (grId g) /\ l <> grLimit g.
Proof. exact grip_desc_refuted_lemma. Qed.
Print Assumptions C51_refuted.

(** C79: the registry of grippers is a list, and rmGripper says whether it removed one. *)
Theorem C79_gripper_registry : forall ops c, gRun newGrip ops = Ok c ->
  iqMax (gripInEq c) = length (gripsAfter ops) /\ gcData c = gripsAfter ops /\
  forall id, snd (rmGripper id c) = true <-> In id (map grId (gripsAfter ops)).
Proof. exact grip_registry. Qed.
Print Assumptions C79_gripper_registry.
Example C79_used : exists c, gRun newGrip [GAdd gHandG; GAdd gLostG; GAdd gHandG; GRm gHand; GUp] = Ok c /\ gcData c = [gLostG; gHandG] /\ snd (rmGripper gHand c) = true.
Proof.
  eexists. split; [reflexivity|]. destruct (C79_gripper_registry [GAdd gHandG; GAdd gLostG; GAdd gHandG; GRm gHand; GUp] _ eq_refl) as (_ & D & F). split; [exact D|]. apply F. cbn. auto.
Qed.
