(** A slider on a turntable, and a solver that is used for other robots later. *)
From Verif Require Export KinWitness.
From Verif Require Import TreeModel DepsProofs.
Open Scope string_scope.
Open Scope list_scope.
Open Scope R_scope.
Local Arguments sumn : simpl never.

Definition zhat : V3 := mkV3 0 0 1.
(** Joint 0 turns about z at unit speed, joint 1 slides along x at unit speed. *)
Definition tTree : treeMB := mkTree (mkMB [mkJoint "turn" 1 1 None; mkJoint "slide" 1 1 None]) [(-1)%Z; 0%Z] [0%nat; 1%nat] 2.
Definition tSub (i k : nat) : Spatial := match i with 0%nat => mkSp zhat v0 | _ => mkSp v0 xhat end.
Definition tX (s : R) (i : nat) : PT := match i with 0%nat => mkPT (RotZ s) v0 | 1%nat => mkPT m3id (mkV3 s 0 0) | _ => pt_id end.
Definition tVj (s : R) (i : nat) : Spatial := match i with 0%nat => mkSp zhat v0 | 1%nat => mkSp v0 xhat | _ => sp0 end.
Definition tVb (s : R) (i : nat) : Spatial := match i with 0%nat => mkSp zhat v0 | 1%nat => mkSp zhat (mkV3 1 s 0) | _ => sp0 end.
Definition tP (s : R) (i : nat) : PT := match i with 0%nat => mkPT (RotZ s) v0 | 1%nat => pt_mul (mkPT m3id (mkV3 s 0 0)) (mkPT (RotZ s) v0) | _ => pt_id end.
Definition tMotion : robotMotion := mkRM tSub tX tVj tVb tP (kAl 1 0) (kAld 0).
Lemma tOk : okTree tTree.
Proof. repeat split. intros [|[|[|i]]] p H; simpl in H; try discriminate; injection H as <-; simpl; auto. right. lia. Qed.
Lemma RotZ_rate1 t : dM RotZ t (m3neg (m3mul (skewm zhat) (RotZ t))).
Proof.
  unfold zhat. eapply dM_ext; [|eapply dM_eq; [apply (rotZ_rate 1 0 t)|]].
  - intros s. cbv beta. unfold kQ. f_equal. field.
  - unfold kQ. replace (1 * t + 0 * (t * t) / 2) with t by field. replace (1 + 0 * t) with 1 by ring. reflexivity.
Qed.
Lemma tPred i p : nth_error (trPred tTree) i = Some p -> (i = 0%nat /\ p = (-1)%Z) \/ (i = 1%nat /\ p = 0%Z).
Proof. intros H. destruct i as [|[|[|i]]]; simpl in H; try discriminate; injection H as <-; auto. Qed.
Lemma tMoves t : robotMoves t tTree tMotion.
Proof.
  split; [apply tOk|]. unfold tMotion; cbn [rmSub rmX rmVj rmVb rmP rmAl rmAld]. split.
  - intros s i. unfold tX. destruct i as [|[|i]]; [apply RotZ_rotation|apply rotation_id|apply rotation_id].
  - intros s i. unfold tVj, tSub. destruct i as [|[|i]].
    + apply Spatial_ext; apply V3_ext; cbn; unfold kAl; ring.
    + apply Spatial_ext; apply V3_ext; cbn; unfold kAl; ring.
    + replace (jointDof (trMB tTree) (S (S i))) with 0%nat; [reflexivity|]. unfold jointDof. simpl. destruct i; reflexivity.
  - intros i. unfold tX, tVj. destruct i as [|[|i]]; cbn [ptE ang pt_id].
    + apply RotZ_rate1.
    + eapply dM_eq; [apply dM_const|]. apply M3_ext; v3c.
    + eapply dM_eq; [apply dM_const|]. apply M3_ext; v3c.
  - intros i. unfold tX, tVj. destruct i as [|[|i]]; cbn [ptE ptr linr pt_id sp0].
    + eapply dV_eq; [apply dV_const|]. unfold m3mulv, dot, v0; cbn. f_equal; ring.
    + repeat split; cbn; (eapply dl_eq; [first [apply dl_id|apply dl_const]|unfold m3mulv, dot; cbn; ring]).
    + eapply dV_eq; [apply dV_const|]. unfold m3mulv, dot, v0; cbn. f_equal; ring.
  - intros j. unfold kAl, kAld. eapply dl_ext; [|apply (dl_const 1)]. intros s. cbv beta. ring.
  - intros s i E. apply tPred in E. destruct E as [(-> & _)|(_ & F)]; [reflexivity|discriminate].
  - intros s i E. apply tPred in E. destruct E as [(-> & _)|(_ & F)]; [reflexivity|discriminate].
  - intros s i p E. apply tPred in E. destruct E as [(_ & F)|(-> & F)]; [lia|]. assert (p = 0%nat) by lia. subst p.
    cbn. apply Spatial_ext; apply V3_ext; cbn; unfold zhat, xhat, dot; cbn; ring.
  - intros s i p E. apply tPred in E. destruct E as [(_ & F)|(-> & F)]; [lia|]. assert (p = 0%nat) by lia. subst p. reflexivity.
Qed.
Definition tCfg (s : R) : treeMBC := treeAt tTree tX tVj tVb s.
(** Coriolis acceleration of the slider. *)
Lemma tNacc s old : length old = 2%nat -> exists na, naccRobot tTree (tCfg s) old = Ok na /\ nth 1 na sp0 = mkSp v0 (mkV3 0 1 0).
Proof.
  intros L. destruct (naccRobot_spec tTree tX tVj tVb s old tOk L) as (na & E & _ & D). exists na. split; [exact E|].
  destruct (D 1%nat) as (_ & D1); [simpl; lia|]. rewrite (D1 0%nat eq_refl). destruct (D 0%nat) as (D0 & _); [simpl; lia|]. cbv beta. rewrite (D0 eq_refl).
  cbn. apply Spatial_ext; apply V3_ext; cbn; unfold zhat, xhat, dot; cbn; ring.
Qed.

(** The same number of bodies, no degree of freedom. *)
Definition tFix : treeMB := mkTree (mkMB [mkJoint "a" 0 0 None; mkJoint "b" 0 0 None]) [(-1)%Z; 0%Z] [0%nat; 1%nat] 2.
Definition tFixCfg : treeMBC := mkTC [pt_id; pt_id] [sp0; sp0] [sp0; sp0].
Lemma stale_refuted_lemma : exists ms cs ops d r m, naccRun naccInit (ops ++ [NaNrVars ms; NaCompute ms cs]) = Ok d /\ nth_error ms r = Some m /\ nrDof (trMB m) = 0%nat /\
  length cs = length ms /\ ~ Forall (fun a => a = sp0) (nth r (naAcc d) []).
Proof.
  destruct (tNacc 0 [sp0; sp0] eq_refl) as (na & E & N).
  assert (L : length na = 2%nat) by (destruct (naccRobot_spec tTree tX tVj tVb 0 [sp0; sp0] tOk eq_refl) as (na2 & E2 & L2 & _); unfold tCfg in E; rewrite E in E2; injection E2 as ->; exact L2).
  exists [tFix], [tFixCfg], [NaNrVars [tTree]; NaCompute [tTree] [tCfg 0]], (mkNA [] [na]), 0%nat, tFix.
  split; [|split; [reflexivity|split; [reflexivity|split; [reflexivity|]]]].
  - assert (E1 : naccCompute [tTree] [tCfg 0] (naccNrVars [tTree] naccInit) = Ok (mkNA [0%nat] [na])).
    { change (naccNrVars [tTree] naccInit) with (mkNA [0%nat] [[sp0; sp0]]). unfold naccCompute; cbn [naMobile naAcc naccRobots]. unfold vec_at. cbn [nth_error bind]. rewrite E. reflexivity. }
    cbn [app naccRun naccOpStep bind]. rewrite E1. cbn [bind].
    assert (E2 : naccNrVars [tFix] (mkNA [0%nat] [na]) = mkNA [] [na]).
    { unfold naccNrVars, naccSize, resize. cbn [naAcc hd tl trBodies tFix]. rewrite L, firstn_all2 by lia. rewrite app_nil_r. reflexivity. }
    rewrite E2. reflexivity.
  - cbn [naAcc nth]. intros F. rewrite Forall_forall in F. assert (I : In (nth 1 na sp0) na) by (apply nth_In; lia). apply F in I. rewrite N in I. apply (f_equal (fun x => vy (linr x))) in I. simpl in I. lra.
Qed.
(** A robot that never has a degree of freedom keeps zeros. *)
Definition neverMobile (r : nat) (o : naccOp) : Prop :=
  match o with NaNrVars ms => forall m, nth_error ms r = Some m -> nrDof (trMB m) = 0%nat | NaCompute _ _ => True end.
Lemma naccRobots_out ms cs rs acc acc' r : naccRobots ms cs rs acc = Ok acc' -> ~ In r rs -> nth r acc' [] = nth r acc [].
Proof.
  revert acc. induction rs as [|q rs IH]; intros acc E N; simpl in E; [injection E as ->; reflexivity|].
  apply bind_Ok in E as (m & _ & E). apply bind_Ok in E as (c & _ & E). apply bind_Ok in E as (na & EN & E). apply bind_Ok in E as (na' & _ & E). apply bind_Ok in E as (acc1 & EL & E).
  simpl in N. rewrite (IH acc1 E) by tauto. unfold vec_at in EN. destruct (nth_error acc q) eqn:Q; [|discriminate].
  assert (L : (q < length acc)%nat) by (apply nth_error_Some; congruence). destruct (lset_spec acc q na' L) as (acc2 & E2 & L2 & _ & O). rewrite EL in E2. injection E2 as <-.
  assert (NQ : r <> q) by (intros ->; tauto). specialize (O r NQ).
  destruct (nth_error acc1 r) as [x|] eqn:EJ.
  - rewrite (nth_error_nth _ _ _ EJ). symmetry in O. rewrite (nth_error_nth _ _ _ O). reflexivity.
  - apply nth_error_None in EJ. symmetry in O. apply nth_error_None in O. rewrite !nth_overflow by auto. reflexivity.
Qed.
Lemma Forall_firstn {A} (P : A -> Prop) n l : Forall P l -> Forall P (firstn n l).
Proof. revert n. induction l as [|a l IH]; intros [|n] H; simpl; auto. inversion H. auto. Qed.
Lemma Forall_repeat {A} (P : A -> Prop) a n : P a -> Forall P (repeat a n).
Proof. intros H. induction n; simpl; auto. Qed.
Lemma fixed_zero_lemma ops d r : Forall (neverMobile r) ops -> naccRun naccInit ops = Ok d -> Forall (fun a => a = sp0) (nth r (naAcc d) []).
Proof.
  assert (G : forall ops d0 d, Forall (neverMobile r) ops -> naccRun d0 ops = Ok d -> ~ In r (naMobile d0) /\ Forall (fun a => a = sp0) (nth r (naAcc d0) []) ->
     Forall (fun a => a = sp0) (nth r (naAcc d) [])).
  { clear. induction ops as [|o ops IH]; intros d0 d F E I; simpl in E; [injection E as <-; apply I|].
    apply bind_Ok in E as (d1 & E1 & E). inversion_clear F. eapply IH; [assumption|exact E|]. destruct I as (NM & Z). destruct o as [ms|ms cs]; simpl in E1.
    - injection E1 as <-. simpl. split.
      + rewrite mobileFrom_in, Nat.sub_0_r. intros (_ & m & Em & P). specialize (H m Em). lia.
      + destruct (nth_error ms r) as [m|] eqn:Em.
        * rewrite (nth_error_nth _ _ _ (naccSize_nth ms (naAcc d0) r m Em)). unfold resize. apply Forall_app. split; [apply Forall_firstn, Z|apply Forall_repeat; reflexivity].
        * apply nth_error_None in Em. rewrite nth_overflow by (rewrite naccSize_length; exact Em). constructor.
    - unfold naccCompute in E1. apply bind_Ok in E1 as (acc & EA & E1). injection E1 as <-. simpl. split; [exact NM|]. rewrite (naccRobots_out _ _ _ _ _ _ EA NM). exact Z. }
  intros F E. apply (G ops naccInit d F E). simpl. split; [tauto|]. destruct r; constructor.
Qed.
