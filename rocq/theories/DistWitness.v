(** Concrete RelativeDistTasks: a body that moves along x past an environment point, and one that does not move. *)
From Verif Require Export KinMultiModel KinWitness.
Open Scope list_scope.
Open Scope R_scope.
Local Arguments sumn : simpl never.

Definition dK (b : nat) : R -> bodyKin := if Nat.eqb b 0 then kPri else kStill v0.
Definition dEnv : V3 := mkV3 0 (-1) 0.
Definition dTask (u : V3) : rdTask := rdInit (1 / 200) 0 v0 dEnv [0%nat] u 1 v0 dEnv [] u.
Lemma dMoves u t : rdMoves kMb (dTask u) dK (kAl 1 0) (kAld 0) t.
Proof.
  split; simpl.
  - apply kPri_moves.
  - apply kStill_moves.
  - apply kWf.
  - split; [constructor|]. intros i [].
Qed.
Lemma dFrom u : rdFrom kMb (dTask u).
Proof. exists (1 / 200), 0%nat, v0, dEnv, [0%nat], u, 1%nat, v0, dEnv, [], u, []. reflexivity. Qed.
Lemma dVecA u s : rdVecOf (rdA (dTask u)) (dK 0 s) = mkV3 s 1 0.
Proof. unfold rdVecOf, worldPoint, dEnv, dK. cbn. unfold vsub, vadd, m3mulv, dot; cbn. f_equal; ring. Qed.
Lemma dVecB u s : rdVecOf (rdB (dTask u)) (dK 1 s) = mkV3 0 1 0.
Proof. unfold rdVecOf, worldPoint, dEnv, dK. cbn. unfold vsub, vadd, m3mulv, dot; cbn. f_equal; ring. Qed.
Lemma dNonzero u s : norm (rdVecOf (rdA (dTask u)) (dK (rdBody (rdA (dTask u))) s)) <> 0 /\ norm (rdVecOf (rdB (dTask u)) (dK (rdBody (rdB (dTask u))) s)) <> 0.
Proof.
  change (rdBody (rdA (dTask u))) with 0%nat. change (rdBody (rdB (dTask u))) with 1%nat. rewrite dVecA, dVecB.
  split; apply Rgt_not_eq, sqrt_lt_R0; unfold norm2, dot; simpl; nra.
Qed.
Lemma dVelA u : rdVelA (dTask u) dK 0 = mkV3 1 0 0.
Proof. unfold rdVelA, rbdVelW, rbdVel, rbdFrameW, dK, pt_mulM. cbn. unfold m3mulv, m3tr, m3id, vsub, cross, dot, v0; cbn. f_equal; ring. Qed.
Lemma dVelB u : rdVelBB (dTask u) dK 0 = mkV3 0 0 0.
Proof. unfold rdVelBB, rbdVelW, rbdVel, rbdFrameW, dK, pt_mulM. cbn. unfold m3mulv, m3tr, m3id, vsub, cross, dot, v0; cbn. f_equal; ring. Qed.
Lemma dDt u : rdDt (dTask u) <> 0.
Proof. simpl. lra. Qed.

(** The speed is - s / sqrt (s^2 + 1): its derivative at 0 is - 1, the task announces 0. *)
Lemma dist_nacc_refuted_lemma : exists mb T K al ald t fresh H, rdFrom mb T /\ rdMoves mb T K al ald t /\ sized 3 mb fresh /\ rdFixed T = false /\ 0 < rdDt T /\
  (forall s, norm (rdVecOf (rdA T) (K (rdBody (rdA T)) s)) <> 0 /\ norm (rdVecOf (rdB T) (K (rdBody (rdB T)) s)) <> 0) /\
  yields 1 mb (fun s => rdOut mb T (fun b => K b s) (al s) (fresh s)) H /\ ~ speedRate 0 1 H ald t.
Proof.
  assert (FX : rdFixed (dTask v0) = false). { simpl. replace (v3eqb v0 v0) with true; [reflexivity|]. symmetry. apply v3eqb_eq. reflexivity. }
  destruct (rd_first_update kMb (1 / 200) 0 v0 dEnv [0%nat] v0 1 v0 dEnv [] v0 [] dK (kAl 1 0) (kAld 0) 0 (kJm 3)) as (H & nA' & nB' & Y & DA & DB & R).
  - constructor.
  - apply (dMoves v0 0).
  - apply kSized.
  - left. reflexivity.
  - apply (dDt v0).
  - apply (dNonzero v0).
  - exists kMb, (dTask v0), dK, (kAl 1 0), (kAld 0), 0, (kJm 3), H.
    split; [apply dFrom|]. split; [apply dMoves|]. split; [apply kSized|]. split; [exact FX|]. split; [simpl; lra|]. split; [apply dNonzero|]. split; [exact Y|].
    intros SR. specialize (SR 0%nat ltac:(lia)).
    change (fold_left _ _ _) with (dTask v0) in R, DA, DB.
    pose proof (dl_unique _ _ _ _ R SR) as E. rewrite dVelA, dVelB in E.
    destruct (rd_free_tracks kMb (dTask v0) dK (kAl 1 0) (kAld 0) 0 (kJm 3) (dFrom v0) (dMoves v0 0) (kSized 3) FX (dDt v0) (dNonzero v0)) as (H2 & Y2 & E2 & _ & ER2 & _).
    assert (HH : forall s, H s = H2 s) by (intros s; destruct (Y s) as (Y1 & _); destruct (Y2 s) as (Y3 & _); pose proof (eq_trans (eq_sym Y1) Y3) as Q; injection Q; auto).
    assert (S0 : vget (hSpeed (H 0)) 0 = 0).
    { rewrite HH. assert (D : dlim (fun s => vget (hErr (H2 s)) 0) 0 0).
      { eapply dl_ext; [intros s; symmetry; apply E2|].
        eapply dl_ext; [intros s; change (rdBody (rdA (dTask v0))) with 0%nat; change (rdBody (rdB (dTask v0))) with 1%nat; rewrite dVecA, dVecB; unfold norm, norm2, dot; cbn; reflexivity|].
        eapply dl_eq; [apply dl_minus; [apply (dl_sqrt (fun s => s * s + 1 * 1 + 0 * 0)); [lra|repeat first [apply dl_plus|apply dl_mult|apply dl_id|apply dl_const]]|apply dl_const]|].
        cbv beta. unfold Rdiv. ring. }
      pose proof (dl_unique _ _ _ _ D (ER2 0%nat ltac:(lia))). lra. }
    rewrite S0 in E.
    assert (NX : vx nA' = -1).
    { destruct DA as (DX & _). eapply dl_unique; [exact DX|].
      eapply dl_ext; [intros s; change (rdBody (rdA (dTask v0))) with 0%nat; unfold rdDir; rewrite dVecA; unfold norm, norm2, dot; cbn; reflexivity|].
      eapply dl_eq; [apply dl_mult; [apply (dl_inv (fun s => sqrt (s * s + 1 * 1 + 0 * 0)));
         [apply Rgt_not_eq, sqrt_lt_R0; lra|apply (dl_sqrt (fun s => s * s + 1 * 1 + 0 * 0)); [lra|repeat first [apply dl_plus|apply dl_mult|apply dl_id|apply dl_const]]]|apply dl_opp, dl_id]|].
      cbv beta. replace (0 * 0 + 1 * 1 + 0 * 0) with 1 by ring. rewrite sqrt_1. field. }
    unfold dot in E; cbn [vx vy vz] in E. rewrite NX in E. lra.
Qed.

(** Fixed direction opposite to the side on which the body is. *)
Definition dUp : V3 := mkV3 (3 / 5) (4 / 5) 0.
Lemma dFixed u : u <> v0 -> rdFixed (dTask u) = true.
Proof. intros H. simpl. destruct (v3eqb u v0) eqn:E; [|reflexivity]. apply v3eqb_eq in E. contradiction. Qed.
Definition dUx : V3 := mkV3 (-1) (-1) 0.
Lemma dist_fixed_refuted_lemma : exists mb T K al ald t fresh H, rdFrom mb T /\ rdMoves mb T K al ald t /\ sized 3 mb fresh /\ rdFixed T = true /\
  dot (rdVecOf (rdA T) (K (rdBody (rdA T)) t)) (rdU (rdA T)) <> 0 /\ dot (rdVecOf (rdB T) (K (rdBody (rdB T)) t)) (rdU (rdB T)) <> 0 /\
  yields 1 mb (fun s => rdOut mb T (fun b => K b s) (al s) (fresh s)) H /\ ~ errorRate 0 1 H t.
Proof.
  assert (NZ : dUx <> v0) by (unfold dUx, v0; intros E; injection E; lra).
  destruct (rd_fixed_tracks kMb (dTask dUx) dK (kAl 1 0) (kAld 0) 0 (kJm 3) (dFrom _) (dMoves _ 0) (kSized 3) (dFixed _ NZ)) as (H & Y & HE & _ & _ & _ & BAD).
  assert (QA : dot (rdVecOf (rdA (dTask dUx)) (dK (rdBody (rdA (dTask dUx))) 0)) (rdU (rdA (dTask dUx))) = -1).
  { change (rdBody (rdA (dTask dUx))) with 0%nat. rewrite dVecA. unfold dot; cbn. ring. }
  assert (QB : dot (rdVecOf (rdB (dTask dUx)) (dK (rdBody (rdB (dTask dUx))) 0)) (rdU (rdB (dTask dUx))) = -1).
  { change (rdBody (rdB (dTask dUx))) with 1%nat. rewrite dVecB. unfold dot; cbn. ring. }
  exists kMb, (dTask dUx), dK, (kAl 1 0), (kAld 0), 0, (kJm 3), H.
  split; [apply dFrom|]. split; [apply dMoves|]. split; [apply kSized|]. split; [apply dFixed, NZ|]. split; [rewrite QA; lra|]. split; [rewrite QB; lra|]. split; [exact Y|].
  intros ER. specialize (ER 0%nat ltac:(lia)). specialize (BAD ltac:(rewrite QA; lra) ltac:(rewrite QB; lra)). pose proof (dl_unique _ _ _ _ ER BAD) as E.
  assert (D : dlim (fun s => vget (hErr (H s)) 0) 0 1).
  { eapply dl_ext; [intros s; symmetry; apply HE|].
    eapply dl_ext; [intros s; change (rdBody (rdA (dTask dUx))) with 0%nat; change (rdBody (rdB (dTask dUx))) with 1%nat; rewrite dVecA, dVecB; unfold dot; cbn; reflexivity|].
    eapply dl_eq; [apply dl_minus; [apply (dl_comp (fun s => s * -1 + 1 * -1 + 0 * 0) Rabs); [repeat first [apply dl_plus|apply dl_mult|apply dl_id|apply dl_const]|apply Rabs_derive_2; lra]|apply dl_const]|].
    cbv beta. ring. }
  pose proof (dl_unique _ _ _ _ D BAD). lra.
Qed.
