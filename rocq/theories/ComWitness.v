(** Concrete robots for the properties of the centre of mass tasks. *)
From Verif Require Export ComFacts ComMultiFacts ComSpec KinWitness.
From Coq Require Import Lra Lia.
Open Scope string_scope.
Open Scope list_scope.
Open Scope R_scope.
Local Arguments sumn : simpl never.

(** A point of mass m on an arm of length one that turns at unit speed, and a fixed body. *)
Definition mBodies (m : R) : list comBody := [mkCB m xhat [0%nat]; mkCB 3 v0 []].
Definition mK (s : R) (b : nat) : bodyKin := match b with 0%nat => kRev 1 0 s | _ => kStill v0 s end.
Lemma wf_nil mb : wfPath mb [].
Proof. split; [constructor|]. intros i []. Qed.
Lemma mMoves m t : bodiesMove kMb (mBodies m) mK (kAl 1 0) (kAld 0) t.
Proof.
  intros [|[|b]] x E; cbn in E; [injection E as <-|injection E as <-|destruct b; discriminate].
  - split; [exact kWf|]. exact (kRev_moves 1 0 t).
  - split; [apply wf_nil|]. exact (kStill_moves kMb v0 (kAl 1 0) (kAld 0) t).
Qed.
Lemma mMass m : mass (mBodies m) = m + 3.
Proof. unfold mass, sumn; simpl. ring. Qed.
Lemma mHeavy m : 0 <= m -> heavy (mBodies m).
Proof. intros H. split; [|rewrite mMass; lra]. intros x [<-|[<-|[]]]; cbn; lra. Qed.
Lemma mCom w m s : 0 <= m -> comOf w (mBodies m) (mK s) 1 = w 0%nat * m / (m + 3) * sin s.
Proof.
  intros H. unfold comOf. rewrite mMass. unfold mBodies, sumn; simpl. unfold kQ, dot; simpl. replace (1 * s + 0 * (s * s) / 2) with s by field. field. lra.
Qed.
Theorem com_weights_refuted : exists mb bs com w T K al ald t H, ctNew bs com (Some w) = Ok T /\ (forall x, In x w -> 0 < x) /\ heavy bs /\ (forall s, bodiesMove mb bs K al ald s) /\
  yields 3 mb (fun s => ctUpdate mb bs (K s) T) H /\ ~ errorRate 0 3 H t.
Proof.
  destruct (ct_defined (mBodies 1) v0 (Some [2; 1]) [] (mHeavy 1 ltac:(lra)) eq_refl (Forall_nil _)) as (T & T' & E & ET). injection ET as <-.
  destruct (com_tracks kMb (mBodies 1) v0 (Some [2; 1]) T [] T mK (kAl 1 0) (kAld 0) 0 E eq_refl (mHeavy 1 ltac:(lra)) (mMoves 1 0)) as (H & Y & HE & _ & _ & D).
  cbn [latest fold_left] in Y, HE, D. exists kMb, (mBodies 1), v0, [2; 1], T, mK, (kAl 1 0), (kAld 0), 0, H.
  split; [exact E|]. split; [intros x [<-|[<-|[]]]; lra|]. split; [apply mHeavy; lra|]. split; [intros s; apply mMoves|]. split; [exact Y|].
  intros Q. specialize (Q 1%nat ltac:(lia)). specialize (D 1%nat ltac:(lia)).
  assert (S : forall k, dlim (fun s => k * sin s) 0 k).
  { intros k. eapply dl_eq; [apply dl_mult; [apply dl_const|apply derivable_pt_lim_sin]|]. cbv beta. rewrite cos_0. ring. }
  assert (A : vget (hSpeed (H 0)) 1 = / 2).
  { apply (dl_unique _ _ _ _ D). apply (dl_ext (fun s => / 2 * sin s)); [|apply S]. intros s. rewrite mCom by lra. cbn. field. }
  assert (B : - vget (hSpeed (H 0)) 1 = - / 4).
  { apply (dl_unique _ _ _ _ Q). apply (dl_ext (fun s => - / 4 * sin s)); [|apply S]. intros s. rewrite HE by lia. rewrite mCom by lra. unfold one; cbn. field. }
  lra.
Qed.
(** Two such robots. *)
Definition mRobots (m : R) : list robot := [(kMb, mBodies m); (kMb, mBodies 2)].
Definition mKs (s : R) (r b : nat) : bodyKin := mK s b.
Lemma mGroup m : 0 <= m -> Forall (fun r => (r < length (mRobots m))%nat /\ heavy (bodiesOf (mRobots m) r)) [1%nat; 0%nat].
Proof. intros H. constructor; [|constructor; [|constructor]]; (split; [cbn; lia|]); apply mHeavy; lra. Qed.
Lemma mGroupHeavy m : 0 <= m -> Forall (fun r => heavy (bodiesOf (mRobots m) r)) [1%nat; 0%nat].
Proof. intros H. eapply Forall_impl; [|exact (mGroup m H)]. intros r (_ & Q). exact Q. Qed.
Lemma mGroupMoves m t : Forall (fun r => bodiesMove (mbOf (mRobots m) r) (bodiesOf (mRobots m) r) (fun s => mKs s r) (kAl 1 0) (kAld 0) t) [1%nat; 0%nat].
Proof. constructor; [|constructor; [|constructor]]; exact (mMoves _ t). Qed.
