(** A wrist that turns about two axes, seen from a surface frame that is turned half a turn. *)
From Verif Require Export TreeWitness DotBodies ComWitness MomWitness.
From Verif Require Import KinFacts TreeFacts JacProofs DepsProofs ContactRowsProofs.
Require Import Lia Lra.
Open Scope string_scope.
Open Scope list_scope.
Open Scope R_scope.
Local Arguments sumn : simpl never.

Definition RotXs (s : R) : M3 := mkM3 (mkV3 1 0 0) (mkV3 0 (cos s) (sin s)) (mkV3 0 (- sin s) (cos s)).
(** Joint 0 turns about z, joint 1 about x, both at unit speed. *)
Definition wTree : treeMB := mkTree (mkMB [mkJoint "yaw" 1 1 None; mkJoint "roll" 1 1 None]) [(-1)%Z; 0%Z] [0%nat; 1%nat] 2.
Definition wSub (i k : nat) : Spatial := match i with 0%nat => mkSp zhat v0 | _ => mkSp xhat v0 end.
Definition wX (s : R) (i : nat) : PT := match i with 0%nat => mkPT (RotZ s) v0 | 1%nat => mkPT (RotXs s) v0 | _ => pt_id end.
Definition wVj (s : R) (i : nat) : Spatial := match i with 0%nat => mkSp zhat v0 | 1%nat => mkSp xhat v0 | _ => sp0 end.
Definition wVb (s : R) (i : nat) : Spatial := match i with 0%nat => mkSp zhat v0 | 1%nat => mkSp (mkV3 1 (sin s) (cos s)) v0 | _ => sp0 end.
Definition wP (s : R) (i : nat) : PT := match i with 0%nat => mkPT (RotZ s) v0 | 1%nat => pt_mul (mkPT (RotXs s) v0) (mkPT (RotZ s) v0) | _ => pt_id end.
Definition wMotion : robotMotion := mkRM wSub wX wVj wVb wP (kAl 1 0) (kAld 0).
Lemma wOk : okTree wTree.
Proof. repeat split. intros [|[|[|i]]] p H; simpl in H; try discriminate; injection H as <-; simpl; auto. right. lia. Qed.
Lemma RotXs_rotation s : rotation (RotXs s).
Proof.
  pose proof (sin2_cos2 s) as Q. unfold Rsqr in Q. apply det_rotation.
  - unfold RotXs, orthonormal, norm2, dot; simpl. repeat split; lra.
  - unfold det3, RotXs, dot, cross; simpl. lra.
Qed.
Lemma RotXs_rate t : dM RotXs t (m3neg (m3mul (skewm xhat) (RotXs t))).
Proof.
  unfold RotXs, xhat, m3neg, m3mul, skewm, m3mulv, dot. repeat split; cbn;
    (eapply dl_eq; [first [apply dl_const|apply derivable_pt_lim_sin|apply derivable_pt_lim_cos|apply dl_opp; apply derivable_pt_lim_sin]|ring]).
Qed.
Lemma wPred i p : nth_error (trPred wTree) i = Some p -> (i = 0%nat /\ p = (-1)%Z) \/ (i = 1%nat /\ p = 0%Z).
Proof. intros H. destruct i as [|[|[|i]]]; simpl in H; try discriminate; injection H as <-; auto. Qed.
Lemma wMoves t : robotMoves t wTree wMotion.
Proof.
  split; [apply wOk|]. unfold wMotion; cbn [rmSub rmX rmVj rmVb rmP rmAl rmAld]. split.
  - intros s i. unfold wX. destruct i as [|[|i]]; [apply RotZ_rotation|apply RotXs_rotation|apply rotation_id].
  - intros s i. unfold wVj, wSub. destruct i as [|[|i]].
    + apply Spatial_ext; apply V3_ext; cbn; unfold kAl; ring.
    + apply Spatial_ext; apply V3_ext; cbn; unfold kAl; ring.
    + replace (jointDof (trMB wTree) (S (S i))) with 0%nat; [reflexivity|]. unfold jointDof. simpl. destruct i; reflexivity.
  - intros i. unfold wX, wVj. destruct i as [|[|i]]; cbn [ptE ang pt_id].
    + apply RotZ_rate1.
    + apply RotXs_rate.
    + eapply dM_eq; [apply dM_const|]. apply M3_ext; v3c.
  - intros i. unfold wX, wVj. destruct i as [|[|i]]; cbn [ptE ptr linr pt_id sp0];
      (eapply dV_eq; [apply dV_const|]; unfold m3mulv, dot, v0; cbn; f_equal; ring).
  - intros j. unfold kAl, kAld. eapply dl_ext; [|apply (dl_const 1)]. intros s. cbv beta. ring.
  - intros s i E. apply wPred in E. destruct E as [(-> & _)|(_ & F)]; [reflexivity|discriminate].
  - intros s i E. apply wPred in E. destruct E as [(-> & _)|(_ & F)]; [reflexivity|discriminate].
  - intros s i p E. apply wPred in E. destruct E as [(_ & F)|(-> & F)]; [lia|]. assert (p = 0%nat) by lia. subst p.
    cbn. apply Spatial_ext; apply V3_ext; cbn; unfold zhat, xhat, dot; cbn; ring.
  - intros s i p E. apply wPred in E. destruct E as [(_ & F)|(-> & F)]; [lia|]. assert (p = 0%nat) by lia. subst p. reflexivity.
Qed.
Lemma wAll t : Forall2 (robotMoves t) [wTree] [wMotion].
Proof. constructor; [apply wMoves|constructor]. Qed.
Definition wK (s : R) : bodyKin := mkBK (wP s 1) (wVb s 1) (sp_cross (mkSp (mkV3 1 (sin s) (cos s)) v0) (mkSp xhat v0)) (treeCol (trMB wTree) (wX s) wSub [1%nat; 0%nat]).
Definition wDcol : nat -> Spatial := rbdColBDot (trMB wTree) [0%nat; 1%nat] (wP 0) (wVb 0) wSub 1.
Lemma wUp : upTo wTree 1 [1%nat; 0%nat].
Proof. apply (up_son wTree 1 0); [reflexivity|]. apply up_root. reflexivity. Qed.
Lemma wDot : dotMoves (trMB wTree) [0%nat; 1%nat] wK wDcol (kAl 1 0) (kAld 0) 0.
Proof.
  destruct (tree_dot [wTree] [wMotion] naccInit wAll) as (D & E & Q). destruct (Q 0%nat wTree wMotion 1%nat eq_refl eq_refl) as (up & U & M); [apply Nat.ltb_lt; reflexivity|apply Nat.ltb_lt; reflexivity|].
  rewrite <- (upTo_det _ _ _ wUp _ U) in M. specialize (M 0).
  assert (N : forall s, nth 1 (nth 0 (naAcc (D s)) []) sp0 = sp_cross (mkSp (mkV3 1 (sin s) (cos s)) v0) (mkSp xhat v0)).
  { intros s. specialize (E s). destruct (naccRobot_spec wTree wX wVj wVb s [sp0; sp0] wOk eq_refl) as (na & En & _ & Dn).
    change (naccNrVars [wTree] naccInit) with (mkNA [0%nat] [[sp0; sp0]]) in E. unfold naccCompute in E; cbn [naMobile naAcc naccRobots] in E. unfold vec_at in E.
    change (configs [wTree] [wMotion] s) with [treeAt wTree wX wVj wVb s] in E. cbn [nth_error bind] in E. rewrite En in E. cbn [lset bind] in E. injection E as E. rewrite <- E. cbn [naAcc nth].
    destruct (Dn 1%nat) as (_ & D1); [simpl; lia|]. rewrite (D1 0%nat eq_refl). destruct (Dn 0%nat) as (D0 & _); [simpl; lia|]. cbv beta. rewrite (D0 eq_refl).
    unfold wX, wVb, wVj. apply Spatial_ext; apply V3_ext; cbn; unfold zhat, xhat, dot; cbn; ring. }
  assert (Ex : (fun s => mkBK (rmP wMotion s 1) (rmVb wMotion s 1) (nth 1 (nth 0 (naAcc (D s)) []) sp0) (treeCol (trMB wTree) (rmX wMotion s) (rmSub wMotion) [1%nat; 0%nat])) = wK).
  { apply FunctionalExtensionality.functional_extensionality. intros s. rewrite N. reflexivity. }
  rewrite Ex in M. exact M.
Qed.
Lemma wDcol0 : wDcol 0 = mkSp (mkV3 0 1 0) v0.
Proof.
  unfold wDcol, rbdColBDot. change (pathAt (trMB wTree) [0%nat; 1%nat] 0) with (0%nat, 0%nat). cbv iota.
  unfold wP, wVb, wSub, RotXs, RotZ. rewrite sin_0, cos_0. apply Spatial_ext; apply V3_ext; cbn; unfold zhat, xhat; repeat (unfold dot, m3mulv, v0; cbn); ring.
Qed.
Lemma wDcol1 : wDcol 1 = sp0.
Proof.
  unfold wDcol, rbdColBDot. change (pathAt (trMB wTree) [0%nat; 1%nat] 1) with (1%nat, 0%nat). cbv iota.
  unfold wP, wVb, wSub, RotXs, RotZ. rewrite sin_0, cos_0. apply Spatial_ext; apply V3_ext; cbn; unfold zhat, xhat; repeat (unfold dot, m3mulv, v0; cbn); ring.
Qed.
(** Half a turn about x. *)
Definition flipX : PT := mkPT (mkM3 (mkV3 1 0 0) (mkV3 0 (-1) 0) (mkV3 0 0 (-1))) v0.
Lemma flipX_rigid : rigid flipX.
Proof. apply det_rotation; [unfold flipX, orthonormal, norm2, dot; simpl; repeat split; lra|unfold det3, flipX, dot, cross; simpl; lra]. Qed.
Lemma surface_dot_refuted_lemma : exists rv mb path ori X K dcol al ald t jm jd H D,
  rigid X /\ sized 3 mb jm /\ (mrows jd = 3%nat /\ mcols jd = nrDof mb) /\ dotMoves mb path K dcol al ald t /\
  yields 3 mb (fun s => surfOriUpdate rv mb path ori X (K s) (jm s)) H /\ surfOriUpdateDot mb path dcol jd = Ok D /\
  ~ jacRate 3 mb H t D /\ ~ dotIsNormal 3 mb H al t D.
Proof.
  assert (Sz : sized 3 (trMB wTree) (fun _ => mzero 3 2)) by (intros s; split; reflexivity).
  destruct (surface_orientation_dot (fun _ => v0) (trMB wTree) [0%nat; 1%nat] m3id flipX wK wDcol (kAl 1 0) (kAld 0) 0 _ (mzero 3 2) Sz (conj eq_refl eq_refl) wDot) as (H & D & Y & ED & R & C & JR & DN).
  exists (fun _ => v0), (trMB wTree), [0%nat; 1%nat], m3id, flipX, wK, wDcol, (kAl 1 0), (kAld 0), 0, (fun _ => mzero 3 2), (mzero 3 2), H, D.
  split; [apply flipX_rigid|]. split; [exact Sz|]. split; [split; reflexivity|]. split; [apply wDot|]. split; [exact Y|]. split; [exact ED|].
  assert (EN : nrDof (trMB wTree) = 2%nat) by reflexivity.
  assert (DX : forall x, mget D 1 0 * x 0%nat + mget D 1 1 * x 1%nat = x 0%nat).
  { intros x. unfold surfOriUpdateDot in ED.
    destruct (fullJacobian_spec (trMB wTree) [0%nat; 1%nat] (short3 (pathDof (trMB wTree) [0%nat; 1%nat]) (fun c => ang (wDcol c))) (mzero 3 2) (dmWf _ _ _ _ _ _ _ wDot)) as (D' & E' & _ & _ & _ & SM); [simpl; lia|simpl; lia|rewrite EN; simpl; lia|].
    rewrite ED in E'. injection E' as <-. specialize (SM 1%nat x). rewrite EN in SM. assert (S1 := SM ltac:(simpl; lia)). clear SM. unfold jacDot in S1. change (pathDof (trMB wTree) [0%nat; 1%nat]) with 2%nat in S1. change (pathCols (trMB wTree) [0%nat; 1%nat]) with [0%nat; 1%nat] in S1.
    unfold sumn in S1. cbn -[wDcol] in S1. rewrite wDcol0, wDcol1 in S1. cbn in S1. lra. }
  pose proof (DX (fun j => if Nat.eqb j 0 then 1 else 0)) as D0. cbn in D0. assert (V : mget D 1 0 = 1) by lra. clear D0.
  assert (W : mget D 1 1 = 0). { pose proof (DX (fun j => if Nat.eqb j 1 then 1 else 0)) as D0. cbn in D0. lra. }
  split.
  - intros (_ & _ & Q). destruct JR as (_ & _ & Q'). assert (I0 : (0 < nrDof (trMB wTree))%nat) by (rewrite EN; lia). assert (I1 : (1 < 3)%nat) by lia.
    pose proof (dl_unique _ _ _ _ (Q 1%nat 0%nat I1 I0) (Q' 1%nat 0%nat I1 I0)) as U. cbn in U. unfold m3mulv, dot in U. cbn in U. rewrite V in U. lra.
  - intros Q. assert (I1 : (1 < 3)%nat) by lia. specialize (Q 1%nat I1). specialize (DN 1%nat I1). rewrite <- Q in DN. rewrite EN in DN. unfold sumn in DN. cbn in DN. unfold m3mulv, dot, kAl in DN. cbn in DN. rewrite V, W in DN. lra.
Qed.
Lemma surface_dot_plain_lemma rv mb path ori X K dcol al ald t jm jd : sized 3 mb jm -> mrows jd = 3%nat /\ mcols jd = nrDof mb -> dotMoves mb path K dcol al ald t -> ptE X = m3id ->
  exists H D, yields 3 mb (fun s => surfOriUpdate rv mb path ori X (K s) (jm s)) H /\ surfOriUpdateDot mb path dcol jd = Ok D /\ jacRate 3 mb H t D /\ dotIsNormal 3 mb H al t D.
Proof.
  intros Sz Jd M EX. destruct (surface_orientation_dot rv mb path ori X K dcol al ald t jm jd Sz Jd M) as (H & D & Y & ED & R & C & JR & DN). exists H, D. split; [exact Y|]. split; [exact ED|].
  assert (G : forall i j, (i < 3)%nat -> e3 (m3mulv (ptE X) (mkV3 (mget D 0 j) (mget D 1 j) (mget D 2 j))) i = mget D i j).
  { intros i j Hi. rewrite EX. destruct i as [|[|[|i]]]; [| | |lia]; unfold m3mulv, m3id, dot; cbn; ring. }
  split.
  - split; [exact R|]. split; [exact C|]. intros i j Hi Hj. destruct JR as (_ & _ & Q). specialize (Q i j Hi Hj). cbn [mget] in Q. rewrite (G i j Hi) in Q. exact Q.
  - intros i Hi. rewrite <- (DN i Hi). apply sumn_ext. intros j _. cbn [mget]. rewrite (G i j Hi). reflexivity.
Qed.
(** The wrist accelerates about the second axis that the first one turns. *)
Lemma wNacc rv ori jm H : yields 3 (trMB wTree) (fun s => oriUpdate rv (trMB wTree) [0%nat; 1%nat] ori (wK s) (jm s)) H -> vget (hNAcc (H 0)) 1 = 1.
Proof.
  intros Y. destruct (Y 0) as (E & _). unfold oriUpdate in E. apply bind_Ok in E as (J & _ & E). injection E as <-. cbn [hNAcc].
  unfold wK, wP, RotXs, RotZ, vec3, rbdNAccW, rbdNAcc, rbdFrameW; cbn [vget bkPos bkVelB bkNAccB]. rewrite sin_0, cos_0. cbn. unfold xhat; repeat (unfold dot, m3mulv, v0; cbn); ring.
Qed.
(** The bodies of ComWitness: the columns of their Jacobians do not change. *)
Lemma mDot m t : bodiesDot kMb (mBodies m) mK (fun _ _ => sp0) (kAl 1 0) (kAld 0) t.
Proof.
  intros b x E. pose proof (fun s => mMoves m s b x E) as M. split; [apply (M t)|intros s; apply M| |].
  - intros c Hc. destruct b as [|[|b]]; [| |destruct b; discriminate]; (split; first [exact (dV_const (mkV3 0 0 1) t)|exact (dV_const v0 t)]).
  - intros j. unfold kAl, kAld. eapply dl_ext; [|apply (dl_const 1)]. intros s. cbv beta. ring.
Qed.
Lemma kAl_rate t j : dlim (fun s => kAl 1 0 s j) t (kAld 0 t j).
Proof. unfold kAl, kAld. eapply dl_ext; [|apply (dl_const 1)]. intros s. cbv beta. ring. Qed.
Definition tFits (s : R) : Forall2 fitsTree [tTree] [tCfg s].
Proof. constructor; [|constructor]. split; [apply tOk|]. repeat split. Defined.
Lemma tUp : upTo tTree 1 [1%nat; 0%nat].
Proof. apply (up_son tTree 1 0); [reflexivity|]. apply up_root. reflexivity. Qed.
