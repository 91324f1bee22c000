(** Properties of the kinematics of the centre of mass tasks. *)
From Verif Require Import ComModel ComSpec ComFacts ComMultiFacts ComWitness.
From Coq Require Import Lra Lia.
Open Scope string_scope.
Open Scope list_scope.
Open Scope R_scope.

(** C121: CoMTask without weights, or with all weights one, after any calls to com and updateInertialParameters, the last of which gave the robot's masses: the error is the target minus
    the centre of mass, it decreases at the speed of the task, the speed is the Jacobian times the joint velocities, and its derivative is the task acceleration. *)
Theorem C121_centre_of_mass : forall mb bs0 com0 weight T0 ops T K al ald t, ctNew bs0 com0 weight = Ok T0 -> ctRun ops T0 = Ok T ->
  let bs := latest ctGiveB bs0 ops in let com := latest ctGiveC com0 ops in
  (forall b, (b < length bs)%nat -> nth b (weightsOf bs0 weight) 0 = 1) -> heavy bs -> bodiesMove mb bs K al ald t ->
  exists H, yields 3 mb (fun s => ctUpdate mb bs (K s) T) H /\
    (forall s i, (i < 3)%nat -> vget (hErr (H s)) i = e3 com i - comOf one bs (K s) i) /\ speedIsJac 3 H al t /\ errorRate 0 3 H t /\ speedRate 0 3 H ald t.
Proof. exact com_error. Qed.
Print Assumptions C121_centre_of_mass.
(** The calls succeed when there is one weight per body, the masses are not negative and not all zero, and the robot does not get more bodies. *)
Theorem C121_defined : forall bs0 com0 weight ops, heavy bs0 -> (match weight with Some w => length w = length bs0 | None => True end) ->
  Forall (fun o => match o with CtInertia b => heavy b /\ (length b <= length bs0)%nat | CtCom _ => True end) ops -> exists T0 T, ctNew bs0 com0 weight = Ok T0 /\ ctRun ops T0 = Ok T.
Proof. exact ct_defined. Qed.
Print Assumptions C121_defined.
(** The mass of the arm goes from 1 to 2: the error follows the new centre of mass. *)
Example C121_used : exists T0 T H, ctNew (mBodies 1) v0 None = Ok T0 /\ ctRun [CtInertia (mBodies 2); CtCom xhat] T0 = Ok T /\
  yields 3 kMb (fun s => ctUpdate kMb (mBodies 2) (mK s) T) H /\ errorRate 0 3 H 0 /\ (forall s, vget (hErr (H s)) 1 = - (2 / 5 * sin s)).
Proof.
  destruct (C121_defined (mBodies 1) v0 None [CtInertia (mBodies 2); CtCom xhat] (mHeavy 1 ltac:(lra)) I) as (T0 & T & E0 & E).
  { constructor; [split; [apply mHeavy; lra|simpl; lia]|]. constructor; [exact I|constructor]. }
  destruct (C121_centre_of_mass kMb (mBodies 1) v0 None T0 [CtInertia (mBodies 2); CtCom xhat] T mK (kAl 1 0) (kAld 0) 0 E0 E) as (H & Y & HE & _ & R & _).
  - intros [|[|b]] Hb; cbn in Hb |- *; try reflexivity; lia.
  - apply mHeavy. lra.
  - exact (mMoves 2 0).
  - exists T0, T, H. split; [exact E0|]. split; [exact E|]. split; [exact Y|]. split; [exact R|]. intros s. rewrite HE by lia. cbn [latest fold_left ctGiveB ctGiveC]. rewrite mCom by lra. unfold one; cbn. field.
Qed.

(** C122: with a weight per body the error does not decrease at the speed of the task: the error is that of the true centre of mass, the Jacobian and the speed are those of the
    weighted one. *)
Theorem C122_weights_refuted : exists mb bs com w T K al ald t H, ctNew bs com (Some w) = Ok T /\ (forall x, In x w -> 0 < x) /\ heavy bs /\ (forall s, bodiesMove mb bs K al ald s) /\
  yields 3 mb (fun s => ctUpdate mb bs (K s) T) H /\ ~ errorRate 0 3 H t.
Proof. exact com_weights_refuted. Qed.
Print Assumptions C122_weights_refuted.
(** With any weights: the speed is the rate of the weighted sum of the centres of mass of the bodies, and speed, Jacobian and normal acceleration agree. *)
Theorem C122_exact : forall mb bs0 com0 weight T0 ops T K al ald t, ctNew bs0 com0 weight = Ok T0 -> ctRun ops T0 = Ok T ->
  let bs := latest ctGiveB bs0 ops in let com := latest ctGiveC com0 ops in let w b := nth b (weightsOf bs0 weight) 0 in
  heavy bs -> bodiesMove mb bs K al ald t ->
  exists H, yields 3 mb (fun s => ctUpdate mb bs (K s) T) H /\
    (forall s i, (i < 3)%nat -> vget (hErr (H s)) i = e3 com i - comOf one bs (K s) i) /\ speedIsJac 3 H al t /\ speedRate 0 3 H ald t /\
    (forall i, (i < 3)%nat -> dlim (fun s => comOf w bs (K s) i) t (vget (hSpeed (H t)) i)).
Proof. exact com_tracks. Qed.
Print Assumptions C122_exact.
Example C122_used : exists T H, ctNew (mBodies 1) v0 (Some [2; 1]) = Ok T /\ yields 3 kMb (fun s => ctUpdate kMb (mBodies 1) (mK s) T) H /\ dlim (fun s => 1 / 2 * sin s) 0 (vget (hSpeed (H 0)) 1).
Proof.
  destruct (C121_defined (mBodies 1) v0 (Some [2; 1]) [] (mHeavy 1 ltac:(lra)) eq_refl (Forall_nil _)) as (T & T' & E & ET). injection ET as <-.
  destruct (C122_exact kMb (mBodies 1) v0 (Some [2; 1]) T [] T mK (kAl 1 0) (kAld 0) 0 E eq_refl (mHeavy 1 ltac:(lra)) (mMoves 1 0)) as (H & Y & _ & _ & _ & D).
  exists T, H. split; [exact E|]. split; [exact Y|]. apply (dl_ext (fun s => comOf (fun b => nth b [2; 1] 0) (mBodies 1) (mK s) 1)); [|exact (D 1%nat ltac:(lia))]. intros s. rewrite mCom by lra. cbn. field.
Qed.

(** C123: MultiCoMTask, after any calls to com and updateInertialParameters, the last of which gave the masses of the robots: the error is the target minus the common centre of mass, it
    decreases at the speed of the task, the speed is the sum of the Jacobians times the joint velocities of their robots, and its derivative is the sum of the Jacobians times the joint
    accelerations plus the normal acceleration. A robot named twice counts twice. *)
Theorem C123_common_centre_of_mass : forall rb0 rs com0 T0 ops T K al ald t, rs <> [] -> mjNew rb0 rs com0 = Ok T0 -> mjRun ops T0 = Ok T ->
  let rb := latest mjGiveR rb0 ops in let com := latest mjGiveC com0 ops in
  Forall (fun r => heavy (bodiesOf rb r)) rs -> Forall (fun r => bodiesMove (mbOf rb r) (bodiesOf rb r) (fun s => K s r) (al r) (ald r) t) rs ->
  exists O, (forall s, mjUpdate rb (K s) T = Ok (O s)) /\
    (forall s i, (i < 3)%nat -> vget (mrEval (O s)) i = e3 com i - groupSum rb (K s) rs i / groupMass rb rs) /\
    (forall i, (i < 3)%nat -> vget (mrSpeed (O t)) i = jacsDot rs (mrJacs (O t)) (fun r q => al r t q) i) /\
    (forall i, (i < 3)%nat -> dlim (fun s => vget (mrEval (O s)) i) t (- vget (mrSpeed (O t)) i)) /\
    (forall i, (i < 3)%nat -> dlim (fun s => vget (mrSpeed (O s)) i) t (jacsDot rs (mrJacs (O t)) (fun r q => ald r t q) i + vget (mrNAcc (O t)) i)).
Proof. exact multi_com_tracks. Qed.
Print Assumptions C123_common_centre_of_mass.
Theorem C123_defined : forall rb0 rs com0 ops, rs <> [] -> Forall (fun r => (r < length rb0)%nat /\ heavy (bodiesOf rb0 r)) rs ->
  Forall (fun o => match o with MjInertia rb => Forall (fun r => (r < length rb)%nat /\ heavy (bodiesOf rb r)) rs | MjCom _ => True end) ops -> exists T0 T, mjNew rb0 rs com0 = Ok T0 /\ mjRun ops T0 = Ok T.
Proof. exact multi_defined. Qed.
Print Assumptions C123_defined.
Example C123_used : exists T0 T O, mjNew (mRobots 1) [1%nat; 0%nat] v0 = Ok T0 /\ mjRun [MjInertia (mRobots 4)] T0 = Ok T /\ (forall s, mjUpdate (mRobots 4) (mKs s) T = Ok (O s)) /\
  (forall s, vget (mrEval (O s)) 1 = - (1 / 2 * sin s)) /\ dlim (fun s => vget (mrEval (O s)) 1) 0 (- vget (mrSpeed (O 0)) 1).
Proof.
  destruct (C123_defined (mRobots 1) [1%nat; 0%nat] v0 [MjInertia (mRobots 4)] ltac:(discriminate) (mGroup 1 ltac:(lra))) as (T0 & T & E0 & E). { constructor; [apply (mGroup 4); lra|constructor]. }
  destruct (C123_common_centre_of_mass (mRobots 1) [1%nat; 0%nat] v0 T0 [MjInertia (mRobots 4)] T mKs (fun _ => kAl 1 0) (fun _ => kAld 0) 0 ltac:(discriminate) E0 E (mGroupHeavy 4 ltac:(lra)) (mGroupMoves 4 0)) as (O & U & HE & _ & R & _).
  exists T0, T, O. split; [exact E0|]. split; [exact E|]. split; [exact U|]. split; [|exact (R 1%nat ltac:(lia))]. intros s. rewrite HE by lia. cbn [latest fold_left mjGiveR mjGiveC groupSum groupMass mRobots bodiesOf nth_error snd mKs].
  change (mKs s 1%nat) with (mK s). change (mKs s 0%nat) with (mK s). rewrite !mCom, !mMass by lra. unfold one; cbn. field.
Qed.
