(** computeNormalAccB gives the derivative of the velocities at zero joint acceleration. *)
From Verif Require Import TreeModel TreeSpec KinFacts JacProofs DepsProofs.
Open Scope list_scope.
Open Scope R_scope.
Local Arguments sumn : simpl never.

Lemma upTo_lt m b l : okTree m -> upTo m b l -> Forall (fun i => (i <= b)%nat) l.
Proof.
  intros (_ & _ & _ & OK). induction 1 as [b H|b p l H U IH]; [constructor; [lia|constructor]|].
  constructor; [lia|]. apply OK in H. eapply Forall_impl; [|exact IH]. simpl. intros; lia.
Qed.
Lemma upTo_wf m b l : okTree m -> upTo m b l -> wfPath (trMB m) (rev l).
Proof.
  intros T U. pose proof T as (_ & _ & L & OK). split.
  - apply NoDup_rev. induction U as [b H|b p l H U IH]; [constructor; [simpl; tauto|constructor]|].
    constructor; [|exact IH]. intros I. apply upTo_lt in U; [|exact T]. rewrite Forall_forall in U. apply U in I. apply OK in H. lia.
  - intros i I. apply in_rev in I. rewrite <- L. induction U as [b H|b p l H U IH].
    + destruct I as [->|[]]. apply nth_error_Some. congruence.
    + destruct I as [->|I]; [apply nth_error_Some; congruence|exact (IH I)].
Qed.
Lemma upTo_ex m b : okTree m -> (b < length (joints (trMB m)))%nat -> exists l, upTo m b l.
Proof.
  intros T. pose proof T as (_ & _ & L & OK). induction b as [b IH] using lt_wf_ind. intros Hb.
  destruct (nth_error (trPred m) b) as [p|] eqn:E; [|apply nth_error_None in E; lia].
  destruct (OK _ _ E) as [->|R]; [exists [b]; constructor; exact E|].
  destruct (IH (Z.to_nat p)) as (l & U); [lia|lia|]. exists (b :: l). apply (up_son m b (Z.to_nat p) l); [rewrite Z2Nat.id by lia; exact E|exact U].
Qed.
Lemma upTo_head m b l : upTo m b l -> exists l', l = b :: l'.
Proof. destruct 1; eauto. Qed.

(** The recursion. *)
Definition naccRec (m : treeMB) (X : nat -> PT) (vj vb : nat -> Spatial) (na : nat -> Spatial) (i : nat) : Prop :=
  (nth_error (trPred m) i = Some (-1)%Z -> na i = sp_cross (vb i) (vj i)) /\
  (forall p, nth_error (trPred m) i = Some (Z.of_nat p) -> na i = sp_add (pt_mulM (X i) (na p)) (sp_cross (vb i) (vj i))).
Lemma seq_map_at {A} (f : nat -> A) n i : (i < n)%nat -> vec_at (map f (seq 0 n)) i = Ok (f i).
Proof. intros H. unfold vec_at. rewrite (map_nth_error f i (seq 0 n) (d := i)); [reflexivity|]. rewrite nth_error_nth' with (d := 0%nat) by (rewrite seq_length; lia). rewrite seq_nth by lia. reflexivity. Qed.
Lemma naccRobot_spec m X vj vb s na : okTree m -> length na = trBodies m ->
  exists na', naccRobot m (treeAt m X vj vb s) na = Ok na' /\ length na' = trBodies m /\
    forall i, (i < trBodies m)%nat -> naccRec m (X s) (vj s) (vb s) (fun j => nth j na' sp0) i.
Proof.
  intros (TB & TS & LP & OK) L. unfold naccRobot. set (n := length (joints (trMB m))) in *.
  assert (G : forall k i0 na, (i0 + k = n)%nat -> length na = n ->
     (forall i, (i < i0)%nat -> naccRec m (X s) (vj s) (vb s) (fun j => nth j na sp0) i) ->
     exists na', naccLoop m (treeAt m X vj vb s) (seq i0 k) na = Ok na' /\ length na' = n /\
       forall i, (i < n)%nat -> naccRec m (X s) (vj s) (vb s) (fun j => nth j na' sp0) i).
  { induction k as [|k IH]; intros i0 na0 E LN D.
    - exists na0. simpl. split; [reflexivity|]. split; [exact LN|]. intros i Hi. apply D. lia.
    - simpl. assert (Hi : (i0 < n)%nat) by lia.
      assert (HS : exists na1 v, naccStep m (treeAt m X vj vb s) i0 na0 = Ok na1 /\ lset na0 i0 v = Ok na1 /\
        (nth_error (trPred m) i0 = Some (-1)%Z -> v = sp_cross (vb s i0) (vj s i0)) /\
        (forall p, nth_error (trPred m) i0 = Some (Z.of_nat p) -> (p < i0)%nat /\ v = sp_add (pt_mulM (X s i0) (nth p na0 sp0)) (sp_cross (vb s i0) (vj s i0)))).
      { unfold naccStep, treeAt; cbn [tcPts tcVj tcVb]. fold n. rewrite !seq_map_at by exact Hi. cbn [bind].
        destruct (nth_error (trPred m) i0) as [p|] eqn:EP; [|apply nth_error_None in EP; lia].
        unfold vec_at at 1. rewrite EP. cbn [bind]. unfold vec_at at 1. rewrite TS.
        rewrite nth_error_nth' with (d := 0%nat) by (rewrite seq_length; exact Hi). rewrite seq_nth by exact Hi. cbn [bind Nat.add].
        destruct (OK _ _ EP) as [->|R].
        - simpl. destruct (lset_spec na0 i0 (sp_cross (vb s i0) (vj s i0))) as (na1 & E1 & _); [lia|].
          exists na1, (sp_cross (vb s i0) (vj s i0)). rewrite E1. repeat split; auto; try discriminate; injection H; lia.
        - replace (p =? -1)%Z with false by (symmetry; apply Z.eqb_neq; lia). replace (0 <=? p)%Z with true by (symmetry; apply Z.leb_le; lia). cbn [negb guard bind].
          unfold vec_at. destruct (nth_error na0 (Z.to_nat p)) as [a|] eqn:EA; [|apply nth_error_None in EA; lia]. cbn [bind].
          destruct (lset_spec na0 i0 (sp_add (pt_mulM (X s i0) a) (sp_cross (vb s i0) (vj s i0)))) as (na1 & E1 & _); [lia|].
          exists na1, (sp_add (pt_mulM (X s i0) a) (sp_cross (vb s i0) (vj s i0))). rewrite E1. split; [reflexivity|]. split; [reflexivity|]. split.
          + intros Q. injection Q as Q. lia.
          + intros q Q. injection Q as Q. split; [lia|]. subst p. rewrite Nat2Z.id in EA. rewrite (nth_error_nth _ _ _ EA). reflexivity. }
      destruct HS as (na1 & v & E1 & EL & HR & HSn). rewrite E1. cbn [bind].
      destruct (lset_spec na0 i0 v) as (na1' & EL' & LN1 & NI & NO); [lia|]. rewrite EL in EL'. injection EL' as <-.
      assert (NI' : nth i0 na1 sp0 = v) by (apply nth_error_nth; exact NI).
      assert (NO' : forall j, j <> i0 -> nth j na1 sp0 = nth j na0 sp0).
      { intros j Hj. specialize (NO j Hj). destruct (nth_error na1 j) as [x|] eqn:EJ.
        - rewrite (nth_error_nth _ _ _ EJ). symmetry in NO. rewrite (nth_error_nth _ _ _ NO). reflexivity.
        - apply nth_error_None in EJ. symmetry in NO. apply nth_error_None in NO. rewrite !nth_overflow by auto. reflexivity. }
      destruct (IH (S i0) na1) as (na' & E' & L' & D'); [lia|lia| |exists na'; auto].
      intros i Hi'. destruct (Nat.eq_dec i i0) as [->|NE].
      + split; [intros Q; rewrite NI'; auto|]. intros p Q. destruct (HSn p Q) as (Hp & ->). rewrite NI'. rewrite NO' by lia. reflexivity.
      + destruct (D i) as (D1 & D2); [lia|]. split; [intros Q; rewrite NO' by lia; auto|].
        intros p Q. pose proof (OK _ _ Q). rewrite !NO' by lia. apply D2, Q. }
  destruct (G n 0%nat na) as (na' & E & L' & D); [lia|lia|intros; lia|]. exists na'. rewrite TB. auto.
Qed.

(** *** Composition of a motion with a joint *)
Ltac v3d := intros; repeat match goal with v : V3 |- _ => destruct v | v : M3 |- _ => destruct v | v : Spatial |- _ => destruct v | v : PT |- _ => destruct v end.
Lemma rot_comp EX EP wj wp : rotation EX ->
  m3add (m3mul (m3neg (m3mul (skewm wj) EX)) EP) (m3mul EX (m3neg (m3mul (skewm wp) EP))) =
  m3neg (m3mul (skewm (vadd (m3mulv EX wp) wj)) (m3mul EX EP)).
Proof.
  intros R. apply m3_ext_v. intros v.
  assert (A : forall A B u, m3mulv (m3add A B) u = vadd (m3mulv A u) (m3mulv B u)) by (intros; unfold m3add, m3mulv, vadd, dot; simpl; f_equal; ring).
  assert (N : forall A u, m3mulv (m3neg A) u = vneg (m3mulv A u)) by (intros; unfold m3neg, m3mulv, vneg, dot; simpl; f_equal; ring).
  rewrite A, !m3mul_mulv, !N, !m3mul_mulv, !skewm_mulv, m3mulv_neg, <- rotation_cross by exact R.
  generalize (m3mulv EX (m3mulv EP v)) (m3mulv EX wp). intros. unfold vadd, vneg, cross; simpl. f_equal; ring.
Qed.
Lemma pos_comp EX EP rX (vp : Spatial) (vj : Spatial) : rotation EX ->
  vadd (m3mulv (m3tr EP) (linr vp))
       (vadd (m3mulv (m3tr (m3neg (m3mul (skewm (ang vp)) EP))) rX) (m3mulv (m3tr EP) (m3mulv (m3tr EX) (linr vj)))) =
  m3mulv (m3tr (m3mul EX EP)) (linr (sp_add (pt_mulM (mkPT EX rX) vp) vj)).
Proof.
  intros R. rewrite tr_rate, m3tr_mul, !m3mul_mulv, skewm_mulv. unfold pt_mulM, sp_add; cbn [linr ptE ptr ang].
  rewrite m3mulv_add, rotation_Tmul by exact R. rewrite m3mulv_add.
  assert (S : forall A a b, m3mulv A (vsub a b) = vsub (m3mulv A a) (m3mulv A b)) by (intros; unfold m3mulv, vsub, dot; simpl; f_equal; ring).
  assert (C : cross rX (ang vp) = vneg (cross (ang vp) rX)) by (unfold cross, vneg; simpl; f_equal; ring).
  rewrite S, C, m3mulv_neg. generalize (m3mulv (m3tr EP) (linr vp)) (m3mulv (m3tr EP) (cross (ang vp) rX)) (m3mulv (m3tr EP) (m3mulv (m3tr EX) (linr vj))).
  intros. unfold vadd, vsub, vneg; simpl. f_equal; ring.
Qed.
(** Velocity of the parent seen from a body that moves by vj with respect to it. *)
Lemma seen_rate (X : R -> PT) (V : R -> Spatial) t vj A : rigid (X t) ->
  dM (fun s => ptE (X s)) t (m3neg (m3mul (skewm (ang vj)) (ptE (X t)))) ->
  dV (fun s => ptr (X s)) t (m3mulv (m3tr (ptE (X t))) (linr vj)) -> dS V t A ->
  dS (fun s => pt_mulM (X s) (V s)) t (sp_add (pt_mulM (X t) A) (sp_neg (sp_cross vj (pt_mulM (X t) (V t))))).
Proof.
  intros R HE HP (HA & HB).
  assert (N : forall A u, m3mulv (m3neg A) u = vneg (m3mulv A u)) by (intros; unfold m3neg, m3mulv, vneg, dot; simpl; f_equal; ring).
  assert (S : forall A a b, m3mulv A (vsub a b) = vsub (m3mulv A a) (m3mulv A b)) by (intros; unfold m3mulv, vsub, dot; simpl; f_equal; ring).
  unfold pt_mulM; split; cbn [ang linr sp_add sp_neg sp_cross].
  - eapply dV_eq; [apply dV_mulv; [exact HE|exact HA]|]. rewrite N, m3mul_mulv, skewm_mulv.
    generalize (m3mulv (ptE (X t)) (ang A)) (m3mulv (ptE (X t)) (ang (V t))). intros. unfold vadd, vneg, cross; simpl. f_equal; ring.
  - eapply dV_eq; [apply dV_mulv; [exact HE|apply dV_sub; [exact HB|apply dV_cross; [exact HP|exact HA]]]|].
    cbv beta. rewrite N, m3mul_mulv, skewm_mulv. rewrite !S, !m3mulv_add, <- (rotation_cross _ (m3mulv (m3tr (ptE (X t))) (linr vj))) by exact R.
    rewrite rotation_mulT by exact R.
    generalize (m3mulv (ptE (X t)) (linr (V t))) (m3mulv (ptE (X t)) (linr A)) (m3mulv (ptE (X t)) (cross (ptr (X t)) (ang (V t))))
      (m3mulv (ptE (X t)) (cross (ptr (X t)) (ang A))) (m3mulv (ptE (X t)) (ang (V t))).
    intros. unfold vadd, vsub, vneg, cross; simpl. f_equal; ring.
Qed.

(** *** Jacobian of a body *)
Lemma pathDof_app mb p q : pathDof mb (p ++ q) = (pathDof mb p + pathDof mb q)%nat.
Proof. unfold pathDof. induction p as [|i p IH]; simpl; [reflexivity|]. simpl in IH. rewrite IH. lia. Qed.
Lemma pathCols_app mb p q : pathCols mb (p ++ q) = pathCols mb p ++ pathCols mb q.
Proof. apply flat_map_app. Qed.
Lemma spsum_app n k f : spsum (n + k) f = sp_add (spsum n f) (spsum k (fun c => f (n + c)%nat)).
Proof.
  induction k as [|k IH]; simpl.
  - rewrite Nat.add_0_r. sp.
  - rewrite Nat.add_succ_r. simpl. rewrite IH. generalize (spsum n f) (spsum k (fun c => f (n + c)%nat)) (f (n + k)%nat). sp.
Qed.
Lemma spsum_lt n f g : (forall c, (c < n)%nat -> f c = g c) -> spsum n f = spsum n g.
Proof. intros H. induction n as [|n IH]; simpl; [reflexivity|]. rewrite IH by (intros; apply H; lia). rewrite H by lia. reflexivity. Qed.
Lemma spSum_spsum n f : spSum n f = spsum n f.
Proof. induction n as [|n IH]; simpl; [|rewrite IH]; reflexivity. Qed.
Lemma jsp_son mb X Sub b up x : jsp mb (rev (b :: up)) (treeCol mb X Sub (b :: up)) x =
  sp_add (pt_mulM (X b) (jsp mb (rev up) (treeCol mb X Sub up) x))
         (spsum (jointDof mb b) (fun k => sp_sc (x (jointPosInDof mb b + k)%nat) (Sub b k))).
Proof.
  rewrite jsp_mulM. unfold jsp. simpl rev. rewrite pathDof_app, pathCols_app, spsum_app. f_equal.
  - apply spsum_lt. intros c Hc. rewrite app_nth1 by (rewrite pathCols_length; exact Hc). f_equal. unfold treeCol; fold treeCol.
    replace (c <? pathDof mb (rev up))%nat with true by (symmetry; apply Nat.ltb_lt; exact Hc). reflexivity.
  - replace (pathDof mb [b]) with (jointDof mb b) by (unfold pathDof; simpl; lia). apply spsum_lt. intros c Hc.
    rewrite app_nth2 by (rewrite pathCols_length; lia). rewrite pathCols_length.
    replace (pathDof mb (rev up) + c - pathDof mb (rev up))%nat with c by lia.
    unfold treeCol; fold treeCol. replace (pathDof mb (rev up) + c <? pathDof mb (rev up))%nat with false by (symmetry; apply Nat.ltb_ge; lia).
    replace (pathDof mb (rev up) + c - pathDof mb (rev up))%nat with c by lia. unfold pathCols; simpl. rewrite app_nil_r, seq_nth by exact Hc. reflexivity.
Qed.
Lemma jsp_root mb X Sub b x : jsp mb (rev [b]) (treeCol mb X Sub [b]) x =
  spsum (jointDof mb b) (fun k => sp_sc (x (jointPosInDof mb b + k)%nat) (Sub b k)).
Proof.
  rewrite jsp_son. assert (Z : jsp mb (rev []) (treeCol mb X Sub []) x = sp0) by reflexivity. rewrite Z.
  generalize (spsum (jointDof mb b) (fun k => sp_sc (x (jointPosInDof mb b + k)%nat) (Sub b k))). sp.
Qed.
Lemma dS_spsum n F t D : (forall k, (k < n)%nat -> dS (fun s => F s k) t (D k)) -> dS (fun s => spsum n (F s)) t (spsum n D).
Proof.
  intros H. induction n as [|n IH]; simpl.
  - split; apply dV_const.
  - apply (dS_add (fun s => spsum n (F s)) (fun s => F s n)); [apply IH; intros; apply H; lia|apply H; lia].
Qed.
Lemma dS_sc_const k t a v : dlim k t a -> dS (fun s => sp_sc (k s) v) t (sp_sc a v).
Proof.
  intros H. unfold sp_sc. split; cbn [ang linr].
  - eapply dV_eq; [apply (dV_sc k (fun _ => ang v)); [exact H|apply dV_const]|]. cbv beta. unfold vadd, vsc, v0; simpl. destruct v as [[] []]; simpl. f_equal; ring.
  - eapply dV_eq; [apply (dV_sc k (fun _ => linr v)); [exact H|apply dV_const]|]. cbv beta. unfold vadd, vsc, v0; simpl. destruct v as [[] []]; simpl. f_equal; ring.
Qed.

Lemma moves_of mb path K al ald t : (forall s, rigid (bkPos (K s))) -> bkVelB (K t) = jsp mb path (bkCol (K t)) (al t) ->
  dM (fun s => ptE (bkPos (K s))) t (m3neg (m3mul (skewm (ang (bkVelB (K t)))) (ptE (bkPos (K t))))) ->
  dV (fun s => ptr (bkPos (K s))) t (m3mulv (m3tr (ptE (bkPos (K t)))) (linr (bkVelB (K t)))) ->
  dS (fun s => bkVelB (K s)) t (sp_add (jsp mb path (bkCol (K t)) (ald t)) (bkNAccB (K t))) -> movesAt mb path K al ald t.
Proof.
  intros A B C D E. split; auto.
  - intros i Hi. rewrite B, e6_jsp. reflexivity.
  - intros i Hi. eapply dl_eq; [apply (dS_e6 _ _ _ i E)|]. rewrite e6_add, e6_jsp. reflexivity.
Qed.

Section Motion.
  Variables (m : treeMB) (Sub : nat -> nat -> Spatial) (X : R -> nat -> PT) (vj vb : R -> nat -> Spatial) (P : R -> nat -> PT)
    (al ald : R -> nat -> R) (t : R) (na : R -> nat -> Spatial).
  Hypothesis T : okTree m.
  Hypothesis M : treeMoves m Sub X vj vb P al ald t.
  Hypothesis N : forall s i, (i < trBodies m)%nat -> naccRec m (X s) (vj s) (vb s) (na s) i.
  Definition bodyOf (b : nat) (up : list nat) (s : R) : bodyKin := mkBK (P s b) (vb s b) (na s b) (treeCol (trMB m) (X s) Sub up).
  Lemma vj_rate i : dS (fun s => vj s i) t (spsum (jointDof (trMB m) i) (fun k => sp_sc (ald t (jointPosInDof (trMB m) i + k)%nat) (Sub i k))).
  Proof.
    eapply dS_ext; [intros s; symmetry; rewrite (tmJoint _ _ _ _ _ _ _ _ _ M), spSum_spsum; reflexivity|].
    apply (dS_spsum _ (fun s k => sp_sc (al s (jointPosInDof (trMB m) i + k)%nat) (Sub i k))). intros k _. apply dS_sc_const, (tmAl _ _ _ _ _ _ _ _ _ M).
  Qed.
  Lemma pred_lt b p : nth_error (trPred m) b = Some p -> (b < trBodies m)%nat.
  Proof. intros H. destruct T as (-> & _ & <- & _). apply nth_error_Some. congruence. Qed.
  Lemma body_moves b up : upTo m b up -> movesAt (trMB m) (rev up) (bodyOf b up) al ald t.
  Proof.
    induction 1 as [b E|b p up E U IH].
    - apply moves_of; unfold bodyOf; cbn [bkPos bkVelB bkNAccB bkCol].
      + intros s. rewrite (tmRootP _ _ _ _ _ _ _ _ _ M) by exact E. apply (tmRigid _ _ _ _ _ _ _ _ _ M).
      + rewrite jsp_root, (tmRootV _ _ _ _ _ _ _ _ _ M), (tmJoint _ _ _ _ _ _ _ _ _ M), spSum_spsum by exact E. reflexivity.
      + eapply dM_ext; [intros s; rewrite (tmRootP _ _ _ _ _ _ _ _ _ M) by exact E; reflexivity|].
        rewrite (tmRootP _ _ _ _ _ _ _ _ _ M), (tmRootV _ _ _ _ _ _ _ _ _ M) by exact E. apply (tmRot _ _ _ _ _ _ _ _ _ M).
      + eapply dV_ext; [intros s; rewrite (tmRootP _ _ _ _ _ _ _ _ _ M) by exact E; reflexivity|].
        rewrite (tmRootP _ _ _ _ _ _ _ _ _ M), (tmRootV _ _ _ _ _ _ _ _ _ M) by exact E. apply (tmPos _ _ _ _ _ _ _ _ _ M).
      + apply (dS_ext (fun s => vj s b)); [intros s; symmetry; apply (tmRootV _ _ _ _ _ _ _ _ _ M), E|].
        rewrite jsp_root. destruct (N t b (pred_lt _ _ E)) as (N1 & _). rewrite N1, (tmRootV _ _ _ _ _ _ _ _ _ M) by exact E.
        eapply dS_eq; [apply vj_rate|]. generalize (spsum (jointDof (trMB m) b) (fun k => sp_sc (ald t (jointPosInDof (trMB m) b + k)%nat) (Sub b k))) (vj t b). sp.
    - pose proof IH as IH0. destruct IH0 as [R0 _ RT0 RP0 _].
      pose proof (moves_vel _ _ _ _ _ _ IH) as V0. pose proof (moves_acc _ _ _ _ _ _ IH) as A0. unfold bodyOf in R0, RT0, RP0, V0, A0; cbn [bkPos bkVelB bkNAccB bkCol] in R0, RT0, RP0, V0, A0.
      pose proof (tmRigid _ _ _ _ _ _ _ _ _ M t b) as RX.
      apply moves_of; unfold bodyOf; cbn [bkPos bkVelB bkNAccB bkCol].
      + intros s. rewrite (tmSonP _ _ _ _ _ _ _ _ _ M s b p E). unfold rigid, pt_mul; cbn [ptE]. apply rotation_mul; [apply (tmRigid _ _ _ _ _ _ _ _ _ M)|apply R0].
      + rewrite jsp_son, <- V0, (tmSonV _ _ _ _ _ _ _ _ _ M t b p E), (tmJoint _ _ _ _ _ _ _ _ _ M), spSum_spsum. reflexivity.
      + eapply dM_ext; [intros s; rewrite (tmSonP _ _ _ _ _ _ _ _ _ M s b p E); reflexivity|].
        rewrite (tmSonP _ _ _ _ _ _ _ _ _ M t b p E), (tmSonV _ _ _ _ _ _ _ _ _ M t b p E). cbn [pt_mul ptE].
        eapply dM_eq; [apply (dM_mul (fun s => ptE (X s b)) (fun s => ptE (P s p))); [apply (tmRot _ _ _ _ _ _ _ _ _ M)|exact RT0]|].
        cbv beta. apply rot_comp, RX.
      + eapply dV_ext; [intros s; rewrite (tmSonP _ _ _ _ _ _ _ _ _ M s b p E); reflexivity|].
        rewrite (tmSonP _ _ _ _ _ _ _ _ _ M t b p E), (tmSonV _ _ _ _ _ _ _ _ _ M t b p E). cbn [pt_mul ptr ptE].
        eapply dV_eq; [apply dV_add; [exact RP0|apply (dV_mulv (fun s => m3tr (ptE (P s p))) (fun s => ptr (X s b))); [apply dM_tr, RT0|apply (tmPos _ _ _ _ _ _ _ _ _ M)]]|].
        cbv beta. rewrite pos_comp by exact RX. destruct (X t b); reflexivity.
      + apply (dS_ext (fun s => sp_add (pt_mulM (X s b) (vb s p)) (vj s b))); [intros s; symmetry; apply (tmSonV _ _ _ _ _ _ _ _ _ M s b p E)|].
        rewrite jsp_son. destruct (N t b (pred_lt _ _ E)) as (_ & N2). rewrite (N2 p E), (tmSonV _ _ _ _ _ _ _ _ _ M t b p E).
        eapply dS_eq; [apply (dS_add (fun s => pt_mulM (X s b) (vb s p)) (fun s => vj s b));
          [apply (seen_rate (fun s => X s b) (fun s => vb s p) t (vj t b) _ RX (tmRot _ _ _ _ _ _ _ _ _ M b) (tmPos _ _ _ _ _ _ _ _ _ M b) A0)|apply vj_rate]|].
        rewrite mulM_add. cbv beta.
        generalize (spsum (jointDof (trMB m) b) (fun k => sp_sc (ald t (jointPosInDof (trMB m) b + k)%nat) (Sub b k)))
          (pt_mulM (X t b) (jsp (trMB m) (rev up) (treeCol (trMB m) (X t) Sub up) (ald t))) (pt_mulM (X t b) (na t p)) (pt_mulM (X t b) (vb t p)) (vj t b).
        clear. intros a b c d e. apply Spatial_ext; unfold sp_add, sp_neg, sp_cross, vadd, vneg, cross; simpl; f_equal; ring.
  Qed.
End Motion.

(** *** All the robots *)
Lemma naccSize_length ms old : length (naccSize ms old) = length ms.
Proof. revert old. induction ms as [|m ms IH]; intros old; simpl; auto. Qed.
Lemma naccSize_nth ms old r m : nth_error ms r = Some m -> nth_error (naccSize ms old) r = Some (resize (nth r old []) (trBodies m) sp0).
Proof.
  revert old r. induction ms as [|m' ms IH]; intros old [|r] H; simpl in *; try discriminate.
  - injection H as ->. destruct old; reflexivity.
  - rewrite (IH (tl old) r H). destruct old as [|o old]; simpl; [destruct r|]; reflexivity.
Qed.
Lemma mobileFrom_in ms r0 r : In r (mobileFrom ms r0) <-> (r0 <= r)%nat /\ exists m, nth_error ms (r - r0) = Some m /\ (0 < nrDof (trMB m))%nat.
Proof.
  revert r0. induction ms as [|m ms IH]; intros r0; simpl.
  - split; [tauto|]. intros (_ & m & E & _). destruct (r - r0)%nat; discriminate.
  - assert (Q : (r0 <= r)%nat -> r <> r0 -> (r - r0 = S (r - S r0))%nat) by lia.
    destruct (0 <? nrDof (trMB m))%nat eqn:D; [apply Nat.ltb_lt in D|apply Nat.ltb_ge in D]; simpl; rewrite ?IH.
    + split.
      * intros [<-|(L & m' & E & P)]; [split; [lia|]; exists m; rewrite Nat.sub_diag; auto|]. split; [lia|]. exists m'. rewrite Q by lia. auto.
      * intros (L & m' & E & P). destruct (Nat.eq_dec r r0) as [->|NE]; [auto|]. right. split; [lia|]. exists m'. rewrite Q in E by lia. auto.
    + split.
      * intros (L & m' & E & P). split; [lia|]. exists m'. rewrite Q by lia. auto.
      * intros (L & m' & E & P). destruct (Nat.eq_dec r r0) as [->|NE]; [rewrite Nat.sub_diag in E; simpl in E; injection E as ->; lia|].
        split; [lia|]. exists m'. rewrite Q in E by lia. auto.
Qed.
Lemma mobileFrom_nodup ms r0 : NoDup (mobileFrom ms r0).
Proof.
  revert r0. induction ms as [|m ms IH]; intros r0; simpl; [constructor|].
  destruct (0 <? nrDof (trMB m))%nat; [|apply IH]. constructor; [|apply IH]. rewrite mobileFrom_in. lia.
Qed.
Lemma naccRobots_spec ms cs rs acc : NoDup rs ->
  (forall r, In r rs -> exists m c na na', nth_error ms r = Some m /\ nth_error cs r = Some c /\ nth_error acc r = Some na /\ naccRobot m c na = Ok na') ->
  exists acc', naccRobots ms cs rs acc = Ok acc' /\ length acc' = length acc /\
    (forall r, ~ In r rs -> nth_error acc' r = nth_error acc r) /\
    (forall r m c na na', In r rs -> nth_error ms r = Some m -> nth_error cs r = Some c -> nth_error acc r = Some na ->
       naccRobot m c na = Ok na' -> nth_error acc' r = Some na').
Proof.
  revert acc. induction rs as [|r rs IH]; intros acc ND H.
  - exists acc. simpl. repeat split; auto. intros; tauto.
  - inversion_clear ND. destruct (H r) as (m & c & na & na' & E1 & E2 & E3 & E4); [simpl; auto|].
    assert (L : (r < length acc)%nat) by (apply nth_error_Some; congruence).
    destruct (lset_spec acc r na' L) as (acc1 & E5 & L1 & N1 & O1).
    destruct (IH acc1) as (acc' & E' & L' & O' & D'); [assumption| |].
    + intros q Hq. destruct (H q) as (m2 & c2 & na2 & na2' & F1 & F2 & F3 & F4); [simpl; auto|].
      exists m2, c2, na2, na2'. rewrite O1 by (intros ->; contradiction). auto.
    + exists acc'. simpl. unfold vec_at. rewrite E1. cbn [bind]. rewrite E2. cbn [bind]. rewrite E3. cbn [bind]. rewrite E4. cbn [bind]. rewrite E5. cbn [bind].
      split; [exact E'|]. split; [lia|]. split.
      * intros q Hq. simpl in Hq. rewrite O' by tauto. apply O1. intros ->. tauto.
      * intros q m2 c2 na2 na2' Hq F1 F2 F3 F4. destruct (Nat.eq_dec q r) as [->|NE].
        -- rewrite O' by assumption. rewrite N1. rewrite E1 in F1. rewrite E2 in F2. rewrite E3 in F3. injection F1 as ->. injection F2 as ->. injection F3 as ->. congruence.
        -- destruct Hq as [->|Hq]; [congruence|]. eapply D'; eauto. rewrite O1 by exact NE. exact F3.
Qed.

Lemma Forall2_nth_ex {A B} (Q : A -> B -> Prop) l l' r a : Forall2 Q l l' -> nth_error l r = Some a ->
  exists b, nth_error l' r = Some b /\ Q a b /\ nth_error (combine l l') r = Some (a, b).
Proof. intros F. revert r. induction F as [|x y l l' H F IH]; intros [|r] E; simpl in *; try discriminate; [injection E as ->; eauto|apply IH, E]. Qed.

Theorem normal_acc_moves ms gs t d : Forall2 (robotMoves t) ms gs ->
  exists D : R -> naccData, (forall s, naccCompute ms (configs ms gs s) (naccNrVars ms d) = Ok (D s) /\ length (naAcc (D s)) = length ms) /\
    (forall r m g, nth_error ms r = Some m -> nth_error gs r = Some g -> (0 < nrDof (trMB m))%nat ->
       (forall s, length (nth r (naAcc (D s)) []) = trBodies m) /\
       forall b, (b < trBodies m)%nat -> exists up, upTo m b up /\ wfPath (trMB m) (rev up) /\
         movesAt (trMB m) (rev up) (fun s => mkBK (rmP g s b) (rmVb g s b) (nth b (nth r (naAcc (D s)) []) sp0) (treeCol (trMB m) (rmX g s) (rmSub g) up))
           (rmAl g) (rmAld g) t) /\
    (forall r m s, nth_error ms r = Some m -> nrDof (trMB m) = 0%nat -> nth r (naAcc (D s)) [] = resize (nth r (naAcc d) []) (trBodies m) sp0).
Proof.
  intros F.
  assert (A : forall s, exists acc', naccRobots ms (configs ms gs s) (mobileFrom ms 0) (naccSize ms (naAcc d)) = Ok acc' /\ length acc' = length ms /\
    (forall r m, nth_error ms r = Some m -> nrDof (trMB m) = 0%nat -> nth r acc' [] = resize (nth r (naAcc d) []) (trBodies m) sp0) /\
    (forall r m g, nth_error ms r = Some m -> nth_error gs r = Some g -> (0 < nrDof (trMB m))%nat ->
       length (nth r acc' []) = trBodies m /\ forall i, (i < trBodies m)%nat -> naccRec m (rmX g s) (rmVj g s) (rmVb g s) (fun j => nth j (nth r acc' []) sp0) i)).
  { intros s.
    assert (B : forall r m, nth_error ms r = Some m -> exists g na', nth_error gs r = Some g /\ nth_error (configs ms gs s) r = Some (treeAt m (rmX g) (rmVj g) (rmVb g) s) /\
       naccRobot m (treeAt m (rmX g) (rmVj g) (rmVb g) s) (resize (nth r (naAcc d) []) (trBodies m) sp0) = Ok na' /\ length na' = trBodies m /\
       forall i, (i < trBodies m)%nat -> naccRec m (rmX g s) (rmVj g s) (rmVb g s) (fun j => nth j na' sp0) i).
    { intros r m E. destruct (Forall2_nth_ex _ _ _ _ _ F E) as (g & Eg & (OK & _) & Ec).
      destruct (naccRobot_spec m (rmX g) (rmVj g) (rmVb g) s (resize (nth r (naAcc d) []) (trBodies m) sp0) OK (resize_length _ _ _)) as (na' & E' & L' & D').
      exists g, na'. repeat split; auto.
      - unfold configs. rewrite (map_nth_error _ _ _ Ec). reflexivity.
      - apply D'; assumption.
      - apply D'; assumption. }
    destruct (naccRobots_spec ms (configs ms gs s) (mobileFrom ms 0) (naccSize ms (naAcc d)) (mobileFrom_nodup _ _)) as (acc' & E' & L' & O' & D').
    { intros r Hr. apply mobileFrom_in in Hr. destruct Hr as (_ & m & E & _). rewrite Nat.sub_0_r in E. destruct (B r m E) as (g & na' & Eg & Ec & En & _).
      exists m, (treeAt m (rmX g) (rmVj g) (rmVb g) s), (resize (nth r (naAcc d) []) (trBodies m) sp0), na'. rewrite (naccSize_nth _ _ _ _ E). auto. }
    exists acc'. split; [exact E'|]. split; [rewrite L'; apply naccSize_length|]. split.
    - intros r m E Z. apply nth_error_nth. rewrite O'; [apply naccSize_nth, E|]. rewrite mobileFrom_in, Nat.sub_0_r. intros (_ & m' & E2 & P). rewrite E in E2. injection E2 as <-. lia.
    - intros r m g E Eg P. destruct (B r m E) as (g' & na' & Eg' & Ec & En & Ln & Dn). rewrite Eg in Eg'. injection Eg' as <-.
      assert (Q : nth_error acc' r = Some na'). { eapply D'; eauto; [|apply naccSize_nth, E]. apply mobileFrom_in. rewrite Nat.sub_0_r. split; [lia|]. eauto. }
      rewrite (nth_error_nth _ _ _ Q). auto. }
  set (D := fun s => match naccCompute ms (configs ms gs s) (naccNrVars ms d) with Ok x => x | _ => d end).
  assert (DS : forall s acc, naccRobots ms (configs ms gs s) (mobileFrom ms 0) (naccSize ms (naAcc d)) = Ok acc -> naccCompute ms (configs ms gs s) (naccNrVars ms d) = Ok (mkNA (mobileFrom ms 0) acc) /\ D s = mkNA (mobileFrom ms 0) acc).
  { intros s acc E. unfold D, naccCompute, naccNrVars; cbn [naMobile naAcc]. rewrite E. auto. }
  exists D. split; [|split].
  - intros s. destruct (A s) as (acc & E & L & _). destruct (DS s acc E) as (E1 & E2). rewrite E1, E2. auto.
  - intros r m g E Eg P. split.
    + intros s. destruct (A s) as (acc & E' & L & _ & Q). destruct (DS s acc E') as (_ & ->). apply (Q r m g E Eg P).
    + intros b Hb. destruct (Forall2_nth_ex _ _ _ _ _ F E) as (g' & Eg' & (OK & MV) & _). rewrite Eg in Eg'. injection Eg' as <-.
      destruct (upTo_ex m b OK) as (up & U); [destruct OK as (<- & _); exact Hb|]. exists up. split; [exact U|]. split; [apply (upTo_wf m b); assumption|].
      apply (body_moves m (rmSub g) (rmX g) (rmVj g) (rmVb g) (rmP g) (rmAl g) (rmAld g) t (fun s b => nth b (nth r (naAcc (D s)) []) sp0) OK MV); [|exact U].
      intros s i Hi. destruct (A s) as (acc & E' & L & _ & Q). destruct (DS s acc E') as (_ & ->). cbn [naAcc]. destruct (Q r m g E Eg P) as (_ & W). exact (W i Hi).
  - intros r m s E Z. destruct (A s) as (acc & E' & L & Q & _). destruct (DS s acc E') as (_ & ->). apply Q; assumption.
Qed.
