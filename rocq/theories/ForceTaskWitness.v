(** Placement and objective of the contact and gripper tasks stated apart, a concrete layout, and the refutations. *)
From Verif Require Export ForceTaskFacts.
From Verif Require Import LayoutProofs MotionProofs ContactProofs ContactRowsProofs GripperFacts.
From Coq Require Import Lra.
Open Scope string_scope.
Open Scope list_scope.
Open Scope R_scope.
Local Arguments sumn : simpl never.

Lemma contact_place mbs id k0 w0 ops t d t' : Forall (ctData (sizesOf mbs)) ops -> ctRun ops (newCT id k0 w0) = Ok t -> latest ctGiveD None ops = Some d -> ctUpdate t = Ok t' ->
  (forall k c, isFirst id (sdAll d) k c -> exists pos n, lambdaBeginAt d k = Ok pos /\ lambda d k = Ok n /\ actsOn (ctTask t') pos n) /\
  ((forall c, In c (sdAll d) -> bId c <> id) -> actsNowhere (ctTask t')).
Proof.
  intros F R D U. destruct (contact_task_lemma _ _ _ _ _ _ _ _ F R D U) as (A & B). split; [|exact B]. intros k c H. destruct (A k c H) as (pos & n & X1 & X2 & X3 & _). eauto.
Qed.
Lemma contact_pull mbs id k0 w0 ops t d t' k c pos : Forall (ctData (sizesOf mbs)) ops -> ctRun ops (newCT id k0 w0) = Ok t -> latest ctGiveD None ops = Some d -> ctUpdate t = Ok t' ->
  isFirst id (sdAll d) k c -> lambdaBeginAt d k = Ok pos ->
  costs (ctTask t') (latest ctGiveW w0 ops) (fun x => / 2 * norm2 (vsub (contactPush c x pos) (latest ctGiveE v0 ops))).
Proof.
  intros F R D U H P. destruct (contact_task_lemma _ _ _ _ _ _ _ _ F R D U) as (A & _). destruct (A k c H) as (pos' & n & X1 & _ & _ & X). rewrite P in X1. injection X1 as <-. exact X.
Qed.
Lemma gripper_place mbs id o ax w0 ops t d : Forall (gtData (sizesOf mbs)) ops -> gtRun ops (newGT id o ax w0) = Ok t -> latest gtGiveD None ops = Some d ->
  (forall k b, isFirst id (sdBi d) k b -> exists pos n, lambdaBeginAt d (length (sdUni d) + k) = Ok pos /\ lambda d (length (sdUni d) + k) = Ok n /\ actsOn (gtTask t) pos n) /\
  ((forall b, In b (sdBi d) -> bId b <> id) -> actsNowhere (gtTask t)).
Proof.
  intros F R D. destruct (gripper_task_lemma _ _ _ _ _ _ _ _ F R D) as (A & B). split; [|exact B]. intros k c H. destruct (A k c H) as (pos & n & X1 & X2 & X3 & _). eauto.
Qed.
Lemma gripper_cost mbs id o ax w0 ops t d k b pos x : Forall (gtData (sizesOf mbs)) ops -> gtRun ops (newGT id o ax w0) = Ok t -> latest gtGiveD None ops = Some d ->
  isFirst id (sdBi d) k b -> lambdaBeginAt d (length (sdUni d) + k) = Ok pos -> (forall q, (sdTotalAlphaD d <= q < sdNrVars d)%nat -> 0 <= x q) ->
  taskCost (gtTask t) x = latest gtGiveW w0 ops * turnAbout o ax (bR1Points b) (bR1Cones b) x pos /\
  Rabs (torqueAbout o ax (bR1Points b) (forces (bR1Cones b) x pos)) <= turnAbout o ax (bR1Points b) (bR1Cones b) x pos /\
  (forwardOnly (mkGr id 0 o ax) b -> turnAbout o ax (bR1Points b) (bR1Cones b) x pos = torqueAbout o ax (bR1Points b) (forces (bR1Cones b) x pos)).
Proof.
  intros F R D H P N. destruct (gripper_task_lemma _ _ _ _ _ _ _ _ F R D) as (A & _). destruct (A k b H) as (pos' & n & X1 & X2 & _ & X). rewrite P in X1. injection X1 as <-. apply X.
  assert (SZ : sizesOf mbs d).
  { eapply (latest_sat gtGiveD gtData); [|exact F| |exact D]; [|discriminate]. intros [] d'; cbn; try discriminate. intros Y [= <-]. exact Y. }
  destruct SZ as ((uni & bi & deps & L) & _). apply nrVarsData_spec in L as (_ & E1 & E2 & L1 & L2 & Ta & Tu & Tb & Tl & Nv & Eu & Eb & Ea & T1 & T2 & _).
  unfold lambdaBeginAt in P. unfold lambda in X2. apply vec_at_Ok in P. apply vec_at_Ok in X2.
  pose proof (tiles_nth_ge _ _ _ _ _ _ T2 (proj2 (nth_error_combine _ _ _ _ _) (conj P X2))). intros q Hq. apply N. lia.
Qed.
Lemma contact_extra id k1 k2 w0 ops t1 : ctRun ops (newCT id k1 w0) = Ok t1 ->
  exists t2, ctRun (filter (fun o => match o with CtErrorD _ => false | _ => true end) ops) (newCT id k2 w0) = Ok t2 /\ ctTask t1 = ctTask t2.
Proof.
  set (same := fun a b : contactTask => ctWeight a = ctWeight b /\ ctId a = ctId b /\ ctBegin a = ctBegin b /\ ctJac a = ctJac b /\ ctErr a = ctErr b /\ ctQ a = ctQ b /\ ctC a = ctC b).
  assert (G : forall l0 a b a', same a b -> ctRun l0 a = Ok a' -> exists b', ctRun (filter (fun o => match o with CtErrorD _ => false | _ => true end) l0) b = Ok b' /\ same a' b').
  { induction l0 as [|o l IH]; intros a b a' S H; cbn [ctRun] in H; [injection H as <-; exists b; auto|]. apply bind_Ok in H as (a1 & H1 & H).
    assert (X : match o with CtErrorD _ => same a1 b | _ => exists b1, ctStep b o = Ok b1 /\ same a1 b1 end).
    { destruct S as (S1 & S2 & S3 & S4 & S5 & S6 & S7). destruct o; cbn [ctStep] in *.
      - unfold ctNrVars in *. rewrite S2 in H1. destruct (ctFind (ctId b) (sdAll d) (lambdaBegin d)) as [((bg & nr) & cones)| |]; cbn [bind] in *; try discriminate.
        destruct (ctCones cones 0 (mzero 3 nr)) as [J| |]; cbn [bind] in *; try discriminate. destruct (mmul (mtrans J) J) as [Q| |]; cbn [bind] in *; try discriminate.
        injection H1 as <-. eexists. split; [reflexivity|]. unfold same. cbn. auto 10.
      - injection H1 as <-. eexists. split; [reflexivity|]. unfold same. cbn. auto 10.
      - injection H1 as <-. unfold same. cbn. auto 10.
      - injection H1 as <-. eexists. split; [reflexivity|]. unfold same. cbn. auto 10.
      - unfold ctUpdate in *. rewrite S4, S5 in H1. destruct (mvec (mopp (mtrans (ctJac b))) (mkVec 3 (MotionModel.v3get (ctErr b)))) as [C| |]; cbn [bind] in *; try discriminate.
        injection H1 as <-. eexists. split; [reflexivity|]. unfold same. cbn. auto 10. }
    destruct o; cbn [filter]; try (destruct X as (b1 & X1 & X); destruct (IH _ _ _ X H) as (b' & B1 & B2); exists b'; cbn [ctRun]; rewrite X1; auto). exact (IH _ _ _ X H). }
  assert (S0 : same (newCT id k1 w0) (newCT id k2 w0)) by (unfold same; cbn; auto 10). intros H. destruct (G ops _ (newCT id k2 w0) t1 S0 H) as (t2 & R & (S1 & S2 & S3 & S4 & S5 & S6 & S7)). exists t2. split; [exact R|].
  unfold ctTask. congruence.
Qed.

(** One joint; a foot with two points pushing up; a hand with two points, the second of which has a generator that turns backwards. *)
Definition fMbs : list multibody := [mkMB [mkJoint "j0" 1 1 None]].
Definition fFoot : contactId := mkCId 0 1 "foot" "floor" (-1).
Definition fHand : contactId := mkCId 0 1 "hand" "bar" (-1).
Definition fLost : contactId := mkCId 0 1 "other" "bar" (-1).
Definition fUni : unilateral := mkUni fFoot [mkV3 1 0 0; mkV3 0 1 0] [mkV3 1 0 0; mkV3 0 1 0] (mkCone [mkV3 0 0 1]) (mkCone [mkV3 0 0 1]) pt_id pt_id.
Definition fBi : bilateral := mkBi fHand [mkV3 1 0 0; mkV3 0 1 0] [mkV3 1 0 0; mkV3 0 1 0] [mkCone [mkV3 0 1 0; mkV3 0 0 1]; mkCone [mkV3 1 0 0]]
  [mkCone [mkV3 0 1 0; mkV3 0 0 1]; mkCone [mkV3 1 0 0]] pt_id pt_id.
Definition fData : solverData := match nrVarsData fMbs [fUni] [fBi] with Ok (d, _) => d | _ => initData end.
Lemma fSizes : sizesOf fMbs fData.
Proof. split; [exists [fUni], [fBi], []; reflexivity|]. repeat constructor. Qed.
Definition fX (i : nat) : R := match i with 3%nat => 2 | 4%nat => 5 | 5%nat => 1 | _ => 0 end.
Lemma fX_nonneg q : 0 <= fX q.
Proof. unfold fX. destruct q as [|[|[|[|[|[|q]]]]]]; lra. Qed.
Lemma fFirstHand : isFirst fHand (sdAll fData) 1 fBi.
Proof. split; [reflexivity|]. split; [reflexivity|]. intros [|k'] c' L H; [|lia]. injection H as <-. discriminate. Qed.
Lemma fFirstBi : isFirst fHand (sdBi fData) 0 fBi.
Proof. split; [reflexivity|]. split; [reflexivity|]. intros k' c' L. lia. Qed.
Definition fOps : list ctOp := [CtError (mkV3 1 2 3); CtErrorD (mkV3 9 9 9); CtWeight 4; CtNrVars fData].
Lemma fOps_ok : Forall (ctData (sizesOf fMbs)) fOps.
Proof. repeat (constructor; [exact I|]). constructor; [exact fSizes|constructor]. Qed.
Lemma gOps_ok : Forall (gtData (sizesOf fMbs)) [GtNrVars fData; GtUpdate].
Proof. constructor; [exact fSizes|]. constructor; [exact I|constructor]. Qed.

(** With the generator that turns backwards the cost is more than the torque. *)
Lemma gripper_refuted_lemma : exists mbs id o ax ops t d k b pos x, Forall (gtData (sizesOf mbs)) ops /\ gtRun ops (newGT id o ax 1) = Ok t /\ latest gtGiveD None ops = Some d /\
  isFirst id (sdBi d) k b /\ lambdaBeginAt d (length (sdUni d) + k) = Ok pos /\ (forall q, 0 <= x q) /\
  latest gtGiveW 1 ops = 1 /\ Rabs (torqueAbout o ax (bR1Points b) (forces (bR1Cones b) x pos)) < taskCost (gtTask t) x.
Proof.
  destruct (gtRun [GtNrVars fData; GtUpdate] (newGT fHand v0 (mkV3 0 0 1) 1)) as [t| |] eqn:R; try discriminate.
  exists fMbs, fHand, v0, (mkV3 0 0 1), [GtNrVars fData; GtUpdate], t, fData, 0%nat, fBi, 3%nat, fX.
  split; [exact gOps_ok|]. split; [exact R|]. split; [reflexivity|]. split; [exact fFirstBi|]. split; [reflexivity|]. split; [exact fX_nonneg|]. split; [reflexivity|].
  destruct (gripper_cost fMbs fHand v0 (mkV3 0 0 1) 1 _ t fData 0 fBi 3 fX gOps_ok R eq_refl fFirstBi eq_refl ltac:(intros; apply fX_nonneg)) as (E & _). rewrite E. change (latest _ _ _) with 1.
  cbn. unfold dot, cross, vsub, vsc, vadd, v0. cbn.
  repeat match goal with |- context [Rabs ?a] => let r := fresh "r" in let E := fresh "E" in remember (Rabs a) as r eqn:E end. repeat match goal with H : ?r = Rabs ?a |- _ => (rewrite Rabs_right in H by lra) || (rewrite Rabs_left in H by lra) end. lra.
Qed.
(** The stiffness does not scale the target. *)
Lemma contact_stiff_refuted : exists mbs id k0 ops t d t' k c pos, Forall (ctData (sizesOf mbs)) ops /\ ctRun ops (newCT id k0 1) = Ok t /\ latest ctGiveD None ops = Some d /\ ctUpdate t = Ok t' /\
  isFirst id (sdAll d) k c /\ lambdaBeginAt d k = Ok pos /\ latest ctGiveW 1 ops = 4 /\
  exists x y, taskCost (ctTask t') x - taskCost (ctTask t') y <>
    4 * (/ 2 * norm2 (vsub (contactPush c x pos) (vsc k0 (latest ctGiveE v0 ops))) - / 2 * norm2 (vsub (contactPush c y pos) (vsc k0 (latest ctGiveE v0 ops)))).
Proof.
  destruct (ctRun fOps (newCT fHand 2 1)) as [t| |] eqn:R; try discriminate. destruct (proj2 (contact_task_defined fMbs fHand 2 1 fOps t fData fOps_ok R) eq_refl) as (t' & U).
  exists fMbs, fHand, 2, fOps, t, fData, t', 1%nat, fBi, 3%nat. split; [exact fOps_ok|]. split; [exact R|]. split; [reflexivity|]. split; [exact U|]. split; [exact fFirstHand|]. split; [reflexivity|]. split; [reflexivity|].
  exists fX, (fun _ => 0). rewrite (contact_pull fMbs fHand 2 1 fOps t fData t' 1 fBi 3 fOps_ok R eq_refl U fFirstHand eq_refl). change (latest ctGiveW 1 fOps) with 4. change (latest ctGiveE v0 fOps) with (mkV3 1 2 3).
  unfold norm2, dot, vsub, vsc, contactPush, vadd, v0. cbn. lra.
Qed.
