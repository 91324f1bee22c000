(** Concrete grippers, and the refutation of the description. *)
From Verif Require Export GripperFacts.
Open Scope string_scope.
Open Scope list_scope.
Open Scope R_scope.

Definition gMbs : list multibody := [mkMB [mkJoint "j0" 1 1 None]].
Definition gHand : contactId := mkCId 0 1 "hand" "bar" (-1).
Definition gLost : contactId := mkCId 0 1 "other" "bar" (-1).
(** Two points; the second one has a generator that turns backwards about the z axis. *)
Definition gBi : bilateral := mkBi gHand [mkV3 1 0 0; mkV3 0 1 0] [mkV3 1 0 0; mkV3 0 1 0] [mkCone [mkV3 0 1 0; mkV3 0 0 1]; mkCone [mkV3 1 0 0]]
  [mkCone [mkV3 0 1 0; mkV3 0 0 1]; mkCone [mkV3 1 0 0]] pt_id pt_id.
Definition gData : solverData := match nrVarsData gMbs [] [gBi] with Ok (d, _) => d | _ => initData end.
Lemma gData_eq : nrVarsData gMbs [] [gBi] = Ok (gData, []).
Proof. reflexivity. Qed.
Lemma gPoints : Forall (fun b => length (bR1Cones b) = length (bR1Points b)) [gBi].
Proof. repeat constructor. Qed.
Definition gHandG : gripper := mkGr gHand 3 v0 (mkV3 0 0 1).
Definition gLostG : gripper := mkGr gLost 7 v0 (mkV3 0 0 1).
Definition gX (i : nat) : R := match i with 1%nat => 2 | 2%nat => 5 | 3%nat => 1 | _ => 0 end.

Lemma grip_desc_refuted_lemma : exists mbs uni bi d deps ops c g a b l, nrVarsData mbs uni bi = Ok (d, deps) /\
  Forall (fun b => length (bR1Cones b) = length (bR1Points b)) bi /\ gSized d ops /\ gRun newGrip ops = Ok c /\
  nth_error (gripped bi (gripsAfter ops)) 0 = Some g /\ gripDesc c 0 = Ok (a, b, l) /\ a <> r1Body (grId g) /\ l <> grLimit g.
Proof.
  destruct (gripNrVars gData (addGripper gHandG (addGripper gLostG newGrip))) as [c| |] eqn:E.
  - exists gMbs, [], [gBi], gData, [], [GAdd gLostG; GAdd gHandG; GNr gData], c, gHandG, "other", "bar", 7.
    split; [exact gData_eq|]. split; [exact gPoints|]. split; [exists [GAdd gLostG; GAdd gHandG], 0%nat; reflexivity|]. cbn [gRun gStep bind]. rewrite E.
    split; [reflexivity|]. split; [reflexivity|]. unfold gripNrVars in E. apply bind_Ok in E as ((A & B) & _ & E). injection E as <-. split; [reflexivity|].
    split; [discriminate|cbn; lra].
  - exfalso. destruct (grip_defined gMbs [] [gBi] gData [] gData_eq gPoints (addGripper gHandG (addGripper gLostG newGrip))) as (c & X). congruence.
  - exfalso. destruct (grip_defined gMbs [] [gBi] gData [] gData_eq gPoints (addGripper gHandG (addGripper gLostG newGrip))) as (c & X). congruence.
Qed.
