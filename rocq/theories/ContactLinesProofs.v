(** Definedness of the updates, line counts and descriptions, reference frames. *)
From Verif Require Export ContactRowsProofs.
Open Scope R_scope.
Local Arguments sumn : simpl never.

(* ------------------------------------------------------------------ *)
(** * Definedness *)
Lemma pathDof_le mb p : wfPath mb p -> (pathDof mb p <= nrDof mb)%nat.
Proof.
  intros (ND & IN). rewrite <- pathCols_length. rewrite <- (seq_length (nrDof mb) 0). apply NoDup_incl_length.
  - clear -ND IN. unfold pathCols. induction p as [|i p IH]; simpl; [constructor|]. inversion ND; subst. apply NoDup_app_intro.
    + apply seq_NoDup.
    + apply IH; auto. intros j Hj. apply IN. simpl; auto.
    + intros c Hc1 Hc2. apply in_seq in Hc1. fold (pathCols mb p) in Hc2. apply in_pathCols in Hc2 as (i' & Hi' & Hc2).
      eapply (posInDof_disjoint mb i i' c); eauto; [apply IN; simpl; auto|apply IN; simpl; auto|intros ->; auto].
  - intros c Hc. apply in_pathCols in Hc as (i & Hi & Hc). apply in_seq. pose proof (posInDof_le mb i (IN i Hi)). lia.
Qed.


Definition sideIn (mbs : list multibody) (T : nat) (s : csd) : Prop :=
  exists mb, nth_error mbs (cRobot s) = Some mb /\ wfPath mb (cPath s) /\ (cBegin s + nrDof mb <= T)%nat.

Lemma sidesUpdate_def m mbs k dof index T l : wfDof dof -> forall dj full A b,
  Forall (sideIn mbs T) l -> (T <= mcols A)%nat -> (index + mrows dof <= mrows A)%nat -> (index + mrows dof <= vlen b)%nat ->
  mrows dj = 6%nat -> mrows full = 6%nat -> (forall mb, In mb mbs -> nrDof mb <= mcols dj)%nat -> (forall mb, In mb mbs -> nrDof mb <= mcols full)%nat ->
  exists res, sidesUpdate m mbs k dof index l dj full A b = Ok res.
Proof.
  intros (W1 & W2). induction l as [|s l IH]; intros dj full A b F HT HA HB R1 R2 C1 C2; simpl; [eauto|].
  inversion F as [|? ? (mb & Hmb & Wp & Hb) F2]; subst. pose proof (nth_error_In _ _ Hmb) as Hin. pose proof (pathDof_le mb _ Wp).
  destruct (sideUpdate_spec m mbs k dof index s dj full A b) as (dj1 & full1 & A1 & b1 & E & D1 & D2 & D3 & D4 & D5 & D6 & D7 & _).
  { exists mb. specialize (C1 mb Hin). specialize (C2 mb Hin). split; [auto|]. split; [auto|]. repeat split; lia. }
  { intros mb' H'. congruence. }
  rewrite E. simpl. apply IH; auto; try lia.
  - intros mb' H'. rewrite D2. auto.
  - intros mb' H'. rewrite D4. auto.
Qed.

Lemma posTerm_def m sv k c index b : mcols (cdDof c) = 6%nat -> (index + mrows (cdDof c) <= vlen b)%nat -> exists b', posTerm m sv k c index b = Ok b'.
Proof.
  intros H H'. destruct m; simpl; eauto. destruct (mvec_def (cdDof c) (vmap (fun e => e / dt) (posError sv k c))) as (v & E); [simpl; auto|].
  rewrite E. simpl. apply mvec_Ok in E as (_ & E & _). apply vadd_seg_def. lia.
Qed.

Definition cdReady (mbs : list multibody) (T : nat) (sv : sva) (k : kin) (cd : cdata) : Prop :=
  exists cd', cdUpdate sv k cd = Ok cd' /\ wfDof (cdDof cd') /\ Forall (sideIn mbs T) (cdSides cd').

Lemma contUpdate_def m mbs sv k T l : forall index dj full A b,
  Forall (cdReady mbs T sv k) l -> (T <= mcols A)%nat -> (index + sumRows l <= mrows A)%nat -> (index + sumRows l <= vlen b)%nat ->
  mrows dj = 6%nat -> mrows full = 6%nat -> (forall mb, In mb mbs -> nrDof mb <= mcols dj)%nat -> (forall mb, In mb mbs -> nrDof mb <= mcols full)%nat ->
  exists res, contUpdate m mbs sv k index l dj full A b = Ok res.
Proof.
  induction l as [|c l IH]; intros index dj full A b F HT HA HB R1 R2 C1 C2; simpl; [eauto|].
  inversion F as [|? ? (cd' & E1 & W & FS) F2]; subst. rewrite E1. simpl. unfold sumRows in *. simpl in HA, HB.
  pose proof (cdUpdate_dof _ _ _ _ E1) as (ED & _). rewrite ED in *.
  destruct (sidesUpdate_def m mbs k (cdDof c) index T (cdSides cd') W dj full A b) as ((((dj1 & full1) & A1) & b1) & E2); auto; try lia.
  rewrite E2. simpl. apply (sidesUpdate_ok _ _ _ _ _ T) in E2 as (D1 & D2 & D3 & D4 & D5 & D6 & D7 & _).
  2:{ eapply Forall_impl; [|exact FS]. intros s (mb & Hmb & Wp & Hb) mb' H'. assert (mb' = mb) by congruence. subst. auto. }
  destruct (posTerm_def m sv k cd' index b1) as (b2 & E3); [rewrite ED; apply W|rewrite ED; lia|]. rewrite E3. simpl.
  apply posTerm_ok in E3 as (P1 & _).
  destruct (IH (index + mrows (cdDof c))%nat dj1 full1 A1 b2) as (((((l2 & dj2) & full2) & A2) & b3) & E4); auto; try lia.
  - intros mb' H'. rewrite D2. auto.
  - intros mb' H'. rewrite D4. auto.
  - rewrite E4. simpl. eauto.
Qed.

Lemma sumRows_le l : Forall (fun c => mrows (cdDof c) <= 6)%nat l -> (sumRows l <= length l * 6)%nat.
Proof. unfold sumRows. induction 1; simpl; lia. Qed.

Lemma dataFor_ready nm mbs uni bi d deps sv k cd : nrVarsData mbs uni bi = Ok (d, deps) -> pathsOk nm mbs -> rigidCD cd -> dataFor nm mbs d cd ->
  cdSides cd <> [] -> wfDof (cdDof cd) -> cdReady mbs (sdTotalAlphaD d) sv k cd.
Proof.
  intros HN HP HR HD HS HW. assert (exists cd', cdUpdate sv k cd = Ok cd') as (cd' & E).
  { unfold cdUpdate. destruct (cdSides cd) as [|s0 rest]; [congruence|]. destruct (_ && _); [eauto|].
    destruct rest as [|s1 [|]]; simpl; eauto. }
  exists cd'. split; [auto|]. pose proof (cdUpdate_dof _ _ _ _ E) as (ED & _). split; [rewrite ED; auto|].
  destruct (cdUpdate_frames _ _ _ _ _ _ _ HR HD E) as (_ & HD').
  destruct HD' as (mb1 & mb2 & l1 & l2 & Z1 & Z2 & I1 & I2 & M1 & M2 & HS' & S1 & S2 & B1 & B2). rewrite HS'.
  assert (G : forall r mb body s X l, nth_error mbs r = Some mb -> sideFor nm d r mb body s X l -> Forall (sideIn mbs (sdTotalAlphaD d)) l).
  { intros r mb body s X l Hm [(N & ->)|(N & b & p & A & P & NE & ->)]; constructor; [|constructor]. exists mb. simpl.
    split; [auto|]. split; [eapply HP; eauto|]. eapply beginEnd; eauto. }
  apply Forall_app. split; eauto.
Qed.

Lemma ccUpdate_def nm mbs uni bi d deps m sv k c :
  nrVarsData mbs uni bi = Ok (d, deps) -> pathsOk nm mbs -> ccInv nm mbs d c ->
  Forall (fun cd => wfDof (cdDof cd) /\ cdSides cd <> []) (ccCont c) -> exists c', ccUpdate m mbs sv k c = Ok c'.
Proof.
  intros HN HP IV F. destruct IV as [iR iC iB iT iN iZ iFR iDR iFC iDC iD]. unfold ccUpdate.
  assert (HS : (ccNrEq c <= length (ccCont c) * 6)%nat).
  { rewrite iN. apply sumRows_le. eapply Forall_impl; [|exact F]. intros cd ((H & _) & _). auto. }
  assert (HT : (sdTotalAlphaD d <= sdNrVars d)%nat).
  { apply nrVarsData_spec in HN as (_ & _ & _ & _ & _ & T & _ & _ & _ & NV & _). lia. }
  assert (exists A0 b0, clear m c = Ok (A0, b0)) as (A0 & b0 & E0).
  { destruct (mset_block_def (ccA c) 0 0 (mzero (ccNrEq c) (ccTotal c))) as (A0 & E1); [simpl; lia|simpl; lia|].
    destruct (vset_seg_def (ccB c) 0 (vfill (ccNrEq c) 0)) as (b0 & E2); [simpl; lia|].
    unfold clear. rewrite E1, E2. destruct m; simpl; eauto. }
  rewrite E0. simpl. apply clear_ok in E0 as (C1 & C2 & C3 & _).
  destruct (contUpdate_def m mbs sv k (sdTotalAlphaD d) (ccCont c) 0 (ccDofJac c) (ccFull c) A0 b0) as (((((l2 & dj2) & full2) & A2) & b3) & E4); auto; try lia.
  - rewrite Forall_forall in *. intros cd Hcd. destruct (F cd Hcd). destruct (iD cd Hcd). eapply dataFor_ready; eauto.
  - rewrite E4. simpl. eauto.
Qed.

(** ** The matrices in use come from the registered ones. *)
Definition regDofs (P : mat -> Prop) (c : contactConstr) : Prop :=
  P identity6 /\ sortedCC c /\ (forall id m, In (id, m) (ccDofs c) -> P m) /\ Forall (fun cd => P (cdDof cd)) (ccCont c).

Lemma dofOf_P (P : mat -> Prop) dofs id : sorted dofs -> P identity6 -> (forall id m, In (id, m) dofs -> P m) -> P (dofOf dofs id).
Proof. intros S H1 H2. unfold dofOf. destruct (mFind id dofs) eqn:E; auto. apply mFind_In in E; eauto. Qed.

Lemma contUpdate_F2 m mbs sv k l : forall index dj full A b l' dj' full' A' b',
  contUpdate m mbs sv k index l dj full A b = Ok (l', dj', full', A', b') -> Forall2 (fun c c' => cdUpdate sv k c = Ok c') l l'.
Proof.
  induction l as [|c l IH]; intros index dj full A b l' dj' full' A' b' H; simpl in H; [inversion H; constructor|].
  apply bind_Ok in H as (c' & E1 & H). apply bind_Ok in H as ((((dj1 & full1) & A1) & b1) & E2 & H).
  apply bind_Ok in H as (b2 & E3 & H). apply bind_Ok in H as (((((l2 & dj2) & full2) & A2) & b3) & E4 & H). inversion H; subst.
  constructor; eauto.
Qed.
Lemma ccUpdate_F2 m mbs sv k c c' : ccUpdate m mbs sv k c = Ok c' -> Forall2 (fun e e' => cdUpdate sv k e = Ok e') (ccCont c) (ccCont c').
Proof.
  unfold ccUpdate. intros H. apply bind_Ok in H as ((A0 & b0) & _ & H).
  apply bind_Ok in H as (((((l & dj) & full) & A) & b) & E & H). inversion H; subst. simpl. eapply contUpdate_F2; eauto.
Qed.

Lemma regDofs_step P c o c' b : addsOnly P o -> regDofs P c -> ccStep c o = Ok (c', b) -> regDofs P c'.
Proof.
  intros HO (HI & HS & HD & HC) H. pose proof (sorted_step _ _ _ _ HS H) as HS'. split; [auto|]. split; [auto|].
  destruct HS as (SV & SD). destruct o as [id|id| |id m|id| |id|id|nm mbs d| |m mbs sv k]; simpl in *.
  - unfold addVirtualContact in H. destruct (mInsert id tt (ccVirtual c)). inversion H; subst. auto.
  - unfold removeVirtualContact in H. destruct (mErase id (ccVirtual c)). inversion H; subst. auto.
  - inversion H; subst. auto.
  - unfold addDofContact in H. pose proof (mInsert_spec id m (ccDofs c) SD) as (_ & _ & _ & I). destruct (mInsert id m (ccDofs c)). inversion H; subst. simpl in *.
    split; [|auto]. intros i m' Hi. apply I in Hi as [Hi|Hi]; [inversion Hi; subst; auto|eauto].
  - unfold removeDofContact in H. pose proof (mErase_spec id (ccDofs c) SD) as (_ & _ & _ & I). destruct (mErase id (ccDofs c)). inversion H; subst. simpl in *.
    split; [|auto]. eauto.
  - inversion H; subst. simpl. split; [tauto|auto].
  - inversion H; subst. auto.
  - inversion H; subst. unfold dofContact in *. destruct (mFind id (ccDofs c)); simpl; auto. split; [|auto].
    pose proof (mInsert_spec id (mzero 0 0) (ccDofs c) SD) as (_ & _ & _ & I). intros i m' Hi. apply I in Hi as [Hi|Hi]; [inversion Hi; subst; auto|eauto].
  - apply bind_Ok in H as (c1 & H1 & H). inversion H; subst. pose proof (updateNrVars_reg _ _ _ _ _ H1) as (_ & E). rewrite E. split; [auto|].
    unfold updateNrVars in H1. apply bind_Ok in H1 as (md & _ & H1). apply bind_Ok in H1 as (l & E1 & H1). inversion H1; subst; simpl.
    apply contLoop_spec in E1. clear -E1 HI HD SD. induction E1 as [|e cd cs l (_ & _ & _ & A & _) F IH]; constructor; auto. rewrite A. apply dofOf_P; auto.
  - inversion H; subst. simpl. split; [auto|]. apply Forall_forall. intros cd Hcd. apply in_map_iff in Hcd as (cd0 & <- & _). simpl. apply dofOf_P; auto.
  - apply bind_Ok in H as (c1 & H1 & H). inversion H; subst. pose proof (ccUpdate_reg _ _ _ _ _ _ H1) as (_ & E). rewrite E. split; [auto|].
    apply ccUpdate_F2 in H1. apply Forall_forall. intros cd Hcd. destruct (Forall2_In_r _ _ _ _ H1 Hcd) as (cd0 & Hcd0 & Hu).
    apply cdUpdate_dof in Hu as (-> & _). rewrite Forall_forall in HC. auto.
Qed.
Lemma regDofs_run P ops : Forall (addsOnly P) ops -> forall c c' outs, regDofs P c -> ccRun c ops = Ok (c', outs) -> regDofs P c'.
Proof.
  induction ops as [|o ops IH]; intros F c c' outs IV H; simpl in H; [inversion H; subst; auto|].
  inversion F; subst. apply bind_Ok in H as ((c1 & b) & H1 & H). apply bind_Ok in H as ((c2 & bs) & H2' & H). inversion H; subst.
  eapply IH; [auto| |eauto]. eapply regDofs_step; eauto.
Qed.
Lemma regDofs_new (P : mat -> Prop) : P identity6 -> regDofs P newCC.
Proof. intros H. split; [auto|]. split; [apply sorted_new|]. split; [simpl; tauto|constructor]. Qed.
Lemma wfDof_id : wfDof identity6.
Proof. split; simpl; lia. Qed.

Lemma run_app ops1 : forall ops2 c c2 outs, ccRun c (ops1 ++ ops2) = Ok (c2, outs) <->
  exists c1 o1 o2, ccRun c ops1 = Ok (c1, o1) /\ ccRun c1 ops2 = Ok (c2, o2) /\ outs = o1 ++ o2.
Proof.
  induction ops1 as [|o ops IH]; intros ops2 c c2 outs; simpl.
  - split; [intros H; exists c, [], outs; auto|]. intros (c1 & o1 & o2 & H1 & H2 & ->). inversion H1; subst. auto.
  - split.
    + intros H. apply bind_Ok in H as ((c1 & b) & H1 & H). apply bind_Ok in H as ((c3 & bs) & H2 & H). inversion H; subst.
      apply IH in H2 as (c1' & o1 & o2 & A & B & ->). exists c1', (b :: o1), o2. rewrite H1. simpl. rewrite A. simpl. auto.
    + intros (c1 & o1 & o2 & H1 & H2 & ->). apply bind_Ok in H1 as ((c1' & b) & H1 & H). apply bind_Ok in H as ((c3 & bs) & H3 & H). inversion H; subst.
      rewrite H1. simpl. assert (X : ccRun c1' (ops ++ ops2) = Ok (c2, bs ++ o2)) by (apply IH; eauto 10). rewrite X. auto.
Qed.

(** The contacts keep at least one mobile robot. *)
Lemma sides_nonempty nm mbs d cd : dataFor nm mbs d cd ->
  (exists mb, (nth_error mbs (Z.to_nat (r1Index (cdId cd))) = Some mb \/ nth_error mbs (Z.to_nat (r2Index (cdId cd))) = Some mb) /\ (0 < nrDof mb)%nat) ->
  cdSides cd <> [].
Proof.
  intros (mb1 & mb2 & l1 & l2 & Z1 & Z2 & I1 & I2 & M1 & M2 & HS & S1 & S2 & B1 & B2) (mb & H & N). rewrite HS, <- I1, <- I2 in *.
  intros E. apply app_eq_nil in E as (-> & ->). destruct S1 as [(N1 & _)|(_ & ? & ? & _ & _ & _ & ?)]; [|discriminate].
  destruct S2 as [(N2 & _)|(_ & ? & ? & _ & _ & _ & ?)]; [|discriminate]. destruct H; assert (mb = mb1 \/ mb = mb2) as [->| ->] by (left + right; congruence); lia.
Qed.

Lemma ids_step mbs c o c' b : sameProblem mbs o -> ccStep c o = Ok (c', b) -> map cdId (ccCont c') = map cdId (ccCont c).
Proof.
  intros HO H. destruct o as [id|id| |id m|id| |id|id|nm' mbs' d'| |m mbs' sv k]; simpl in *; try tauto.
  - unfold addVirtualContact in H. destruct (mInsert _ _ _). inversion H; subst. auto.
  - unfold removeVirtualContact in H. destruct (mErase _ _). inversion H; subst. auto.
  - inversion H; subst. auto.
  - unfold addDofContact in H. destruct (mInsert _ _ _). inversion H; subst. auto.
  - unfold removeDofContact in H. destruct (mErase _ _). inversion H; subst. auto.
  - inversion H; subst. auto.
  - inversion H; subst; auto.
  - inversion H; subst. unfold dofContact. destruct (mFind id (ccDofs c)); simpl; auto.
  - inversion H; subst. simpl. rewrite map_map. auto.
  - apply bind_Ok in H as (c1 & H1 & H). inversion H; subst. apply ccUpdate_F2 in H1. clear -H1. induction H1 as [|e e' l l' He F IH]; simpl; auto.
    apply cdUpdate_dof in He as (_ & -> & _). rewrite IH. auto.
Qed.
Lemma ids_run mbs ops : Forall (sameProblem mbs) ops -> forall c c' outs, ccRun c ops = Ok (c', outs) -> map cdId (ccCont c') = map cdId (ccCont c).
Proof.
  induction ops as [|o ops IH]; intros F c c' outs H; simpl in H; [inversion H; subst; auto|].
  inversion F; subst. apply bind_Ok in H as ((c1 & b) & H1 & H). apply bind_Ok in H as ((c2 & bs) & H2' & H). inversion H; subst.
  rewrite (IH H3 _ _ _ H2'). eapply ids_step; eauto.
Qed.


Lemma defined_lemma nm mbs uni bi d deps ops0 c0 o0 c1 ops c2 o1 m sv k :
  nrVarsData mbs uni bi = Ok (d, deps) -> pathsOk nm mbs -> (forall b, In b (sdAll d) -> rigid (bXcf b) /\ rigid (bXbb b) /\ mobile mbs (bId b)) ->
  Forall (addsOnly wfDof) ops0 -> Forall (addsOnly wfDof) ops ->
  ccRun newCC ops0 = Ok (c0, o0) -> updateNrVars nm mbs d c0 = Ok c1 ->
  Forall (sameProblem mbs) ops -> ccRun c1 ops = Ok (c2, o1) -> exists c3, ccUpdate m mbs sv k c2 = Ok c3.
Proof.
  intros HN HP HR W0 W1 R0 U R1 R2. pose proof (sorted_run _ _ _ _ sorted_new R0) as S0.
  assert (HR' : forall b, In b (sdAll d) -> rigid (bXcf b) /\ rigid (bXbb b)) by (intros b Hb; destruct (HR b Hb) as (A & B & _); auto).
  pose proof (inv_nrVars _ _ _ _ _ _ _ _ HN HR' S0 U) as I1. pose proof (inv_run _ _ _ _ _ _ _ HN HP R1 _ _ _ I1 R2) as I2.
  pose proof (regDofs_run _ _ W0 _ _ _ (regDofs_new _ wfDof_id) R0) as D0.
  assert (D1 : regDofs wfDof c1) by (apply (regDofs_step wfDof c0 (ONrVars nm mbs d) c1 None); simpl; auto; rewrite U; auto).
  pose proof (regDofs_run _ _ W1 _ _ _ D1 R2) as (_ & _ & _ & D2).
  eapply ccUpdate_def; eauto. pose proof (ivData _ _ _ _ I2) as DT. pose proof (ids_run _ _ R1 _ _ _ R2) as EI.
  rewrite Forall_forall in *. intros cd Hcd. split; [auto|]. destruct (DT cd Hcd) as (_ & DF). eapply sides_nonempty; eauto.
  assert (Hid : In (cdId cd) (map cdId (ccCont c1))) by (rewrite <- EI; apply in_map; auto).
  destruct (contacts_lemma _ _ _ _ _ _ _ R0 U) as (_ & L & _). apply L in Hid as (_ & b & Hb & <-). apply HR; auto.
Qed.

(* ------------------------------------------------------------------ *)
(** * Line counts *)
Lemma sideUpdate_dims m mbs k dof index s dj full A b dj' full' A' b' :
  sideUpdate m mbs k dof index s dj full A b = Ok (dj', full', A', b') -> mrows A' = mrows A.
Proof.
  unfold sideUpdate. intros H.
  apply bind_Ok in H as (mb & E1 & H). apply bind_Ok in H as (SJ & E2 & H). apply bind_Ok in H as (dj1 & E3 & H).
  apply bind_Ok in H as (small & E4 & H). apply bind_Ok in H as (full1 & E5 & H). apply bind_Ok in H as (blk & E6 & H).
  apply bind_Ok in H as (A1 & E7 & H). apply bind_Ok in H as (v & E8 & H). apply bind_Ok in H as (b1 & E9 & H). inversion H; subst.
  apply madd_block_Ok in E7 as (_ & _ & E7 & _). auto.
Qed.
Lemma sidesUpdate_dims m mbs k dof index l : forall dj full A b dj' full' A' b',
  sidesUpdate m mbs k dof index l dj full A b = Ok (dj', full', A', b') -> mrows A' = mrows A.
Proof.
  induction l as [|s l IH]; intros dj full A b dj' full' A' b' H; simpl in H; [inversion H; auto|].
  apply bind_Ok in H as ((((dj1 & full1) & A1) & b1) & E & H). apply IH in H. apply sideUpdate_dims in E. congruence.
Qed.
Lemma contUpdate_dims m mbs sv k l : forall index dj full A b l' dj' full' A' b',
  contUpdate m mbs sv k index l dj full A b = Ok (l', dj', full', A', b') -> mrows A' = mrows A.
Proof.
  induction l as [|c l IH]; intros index dj full A b l' dj' full' A' b' H; simpl in H; [inversion H; auto|].
  apply bind_Ok in H as (c' & E1 & H). apply bind_Ok in H as ((((dj1 & full1) & A1) & b1) & E2 & H).
  apply bind_Ok in H as (b2 & E3 & H). apply bind_Ok in H as (((((l2 & dj2) & full2) & A2) & b3) & E4 & H). inversion H; subst.
  apply IH in E4. apply sidesUpdate_dims in E2. congruence.
Qed.
Definition dimsCC (c : contactConstr) : Prop := mrows (ccA c) = (length (ccCont c) * 6)%nat /\ ccNrEq c = sumRows (ccCont c).
Lemma dims_step c o c' b : dimsCC c -> ccStep c o = Ok (c', b) -> dimsCC c'.
Proof.
  intros (D1 & D2) H. destruct o as [id|id| |id m|id| |id|id|nm' mbs' d'| |m mbs' sv k]; simpl in *; try tauto.
  - unfold addVirtualContact in H. destruct (mInsert _ _ _). inversion H; subst. split; auto.
  - unfold removeVirtualContact in H. destruct (mErase _ _). inversion H; subst. split; auto.
  - inversion H; subst. split; auto.
  - unfold addDofContact in H. destruct (mInsert _ _ _). inversion H; subst. split; auto.
  - unfold removeDofContact in H. destruct (mErase _ _). inversion H; subst. split; auto.
  - inversion H; subst. split; auto.
  - inversion H; subst; split; auto.
  - inversion H; subst. unfold dofContact. destruct (mFind id (ccDofs c)); simpl; split; auto.
  - apply bind_Ok in H as (c1 & H1 & H). inversion H; subst. unfold updateNrVars in H1. apply bind_Ok in H1 as (md & _ & H1).
    apply bind_Ok in H1 as (l & E1 & H1). inversion H1; subst; simpl. split; auto.
  - inversion H; subst. split; simpl; rewrite ?map_length; auto.
  - apply bind_Ok in H as (c1 & H1 & H). inversion H; subst. pose proof (ccUpdate_F2 _ _ _ _ _ _ H1) as F.
    unfold ccUpdate in H1. apply bind_Ok in H1 as ((A0 & b0) & E0 & H1).
    apply bind_Ok in H1 as (((((l & dj) & full) & A) & bb) & E & H1). inversion H1; subst. simpl in *.
    apply contUpdate_dims in E. apply clear_ok in E0 as (C1 & _). split; simpl.
    + rewrite E, C1, D1. f_equal. eapply Forall2_len; eauto.
    + rewrite D2. symmetry. apply sumRows_F2. eapply Forall2_imp; [|exact F]. intros e e' He. apply cdUpdate_dof in He as (-> & _). auto.
Qed.
Lemma dims_run ops : forall c c' outs, dimsCC c -> ccRun c ops = Ok (c', outs) -> dimsCC c'.
Proof.
  induction ops as [|o ops IH]; intros c c' outs S H; simpl in H; [inversion H; subst; auto|].
  apply bind_Ok in H as ((c1 & b) & H1 & H). apply bind_Ok in H as ((c2 & bs) & H2 & H). inversion H; subst.
  eapply IH; [|eauto]. eapply dims_step; eauto.
Qed.
Lemma lines_lemma ops c outs : Forall (addsOnly (fun m => mrows m <= 6)%nat) ops -> ccRun newCC ops = Ok (c, outs) -> (ccNr c <= ccMax c)%nat.
Proof.
  intros F H. assert (D : dimsCC c) by (eapply dims_run; [|eauto]; split; auto).
  destruct (regDofs_run _ _ F _ _ _ (regDofs_new (fun m => mrows m <= 6)%nat ltac:(simpl; lia)) H) as (_ & _ & _ & G).
  destruct D as (D1 & D2). unfold ccNr, ccMax. rewrite D1, D2. apply sumRows_le. auto.
Qed.
(** Conversely a matrix with more than six rows on every contact exceeds the allocated rows. *)

Lemma ownsLine_exists cs : forall line, (line < sumRows cs)%nat -> exists i, ownsLine cs i line.
Proof.
  unfold sumRows, ownsLine. induction cs as [|c cs IH]; intros line H; simpl in H; [lia|].
  destruct (Nat.lt_ge_cases line (mrows (cdDof c))) as [L|L].
  - exists 0%nat. simpl. lia.
  - destruct (IH (line - mrows (cdDof c))%nat ltac:(lia)) as (i & A & B). exists (S i). simpl firstn in *. simpl map in *. simpl sumnat in *. split; [|simpl; lia].
    destruct cs as [|c' cs']; simpl in B; [lia|]. simpl in A |- *. lia.
Qed.
Lemma ownsLine_unique cs line i j : ownsLine cs i line -> ownsLine cs j line -> i = j.
Proof.
  assert (M : forall a b, (a <= b)%nat -> (sumnat (map (fun c => mrows (cdDof c)) (firstn a cs)) <= sumnat (map (fun c => mrows (cdDof c)) (firstn b cs)))%nat).
  { intros a b H. rewrite <- (firstn_skipn a (firstn b cs)), map_app, sumnat_app, firstn_firstn, Nat.min_l by auto. lia. }
  intros (A & _) (B & _). destruct (Nat.lt_total i j) as [L|[L|L]]; auto.
  - pose proof (M (S i) j L). lia.
  - pose proof (M (S j) i L). lia.
Qed.

(* ------------------------------------------------------------------ *)
(** * Descriptions *)
Lemma six_rows cs i : Forall (fun c => mrows (cdDof c) = 6%nat) cs -> (i <= length cs)%nat -> sumnat (map (fun c => mrows (cdDof c)) (firstn i cs)) = (6 * i)%nat.
Proof.
  intros F; revert i; induction F as [|c cs H F IH]; intros [|i] L; simpl in *; auto; try lia. rewrite IH by lia. lia.
Qed.
Lemma desc_six nm c i line cd : Forall (fun c => mrows (cdDof c) = 6%nat) (ccCont c) -> ownsLine (ccCont c) i line -> nth_error (ccCont c) i = Some cd ->
  descEq nm c line = Ok (map (fun s => nBodyName nm (cRobot s) (cBody s)) (cdSides cd)).
Proof.
  intros F (O & L) H. rewrite !six_rows in O by (auto; lia). unfold descEq. replace (line / 6)%nat with i.
  - rewrite (proj2 (vec_at_Ok _ _ _) H). reflexivity.
  - apply (Nat.div_unique line 6 i (line - 6 * i)); lia.
Qed.
(** As soon as the contacts before [i] have fewer than six rows each, some line of contact [i] is described as another contact. *)
Lemma desc_wrong c i : Forall (fun c => mrows (cdDof c) <= 6)%nat (ccCont c) ->
  (sumnat (map (fun c => mrows (cdDof c)) (firstn i (ccCont c))) < 6 * i)%nat -> (i < length (ccCont c))%nat ->
  (forall cd, nth_error (ccCont c) i = Some cd -> 0 < mrows (cdDof cd))%nat ->
  exists line, ownsLine (ccCont c) i line /\ (line / 6 < i)%nat.
Proof.
  intros F H L N. exists (sumnat (map (fun c => mrows (cdDof c)) (firstn i (ccCont c)))). split.
  - split; [|auto]. split; [lia|]. destruct (nth_error (ccCont c) i) as [cd|] eqn:E; [|apply nth_error_None in E; lia].
    rewrite (firstn_snoc_nth _ _ _ E), map_app, sumnat_app. simpl. specialize (N cd eq_refl). lia.
  - apply Nat.div_lt_upper_bound; lia.
Qed.

(* ------------------------------------------------------------------ *)
(** * The dof getter *)
Lemma getter_breaks ops c outs id m mbs sv k : ccRun newCC ops = Ok (c, outs) -> hasDoFContact c id = false -> In id (map cdId (ccCont c)) ->
  hasDoFContact (fst (dofContact c id)) id = true /\
  forall c', ccUpdate m mbs sv k (updateDofContacts (fst (dofContact c id))) <> Ok c'.
Proof.
  intros R H Hin. pose proof (sorted_run _ _ _ _ sorted_new R) as (_ & SD).
  destruct (getter_mutates c id SD H) as (G1 & G2). split; [auto|]. intros c' U.
  assert (EC : ccCont (fst (dofContact c id)) = ccCont c) by (unfold dofContact; destruct (mFind id (ccDofs c)); auto).
  set (c1 := fst (dofContact c id)) in *.
  unfold ccUpdate in U. apply bind_Ok in U as ((A0 & b0) & _ & U). apply bind_Ok in U as (((((l & dj) & full) & A) & b) & U & _).
  assert (X : exists cd, In cd (ccCont (updateDofContacts c1)) /\ mcols (cdDof cd) = 0%nat).
  { apply in_map_iff in Hin as (cd & E & Hcd). simpl. rewrite EC.
    exists (mkCD (cdSides cd) (dofOf (ccDofs c1) (cdId cd)) (cdRevDof cd) (cdR1 cd) (cdR2 cd) (cdB1 cd) (cdB2 cd) (cdXbb cd) (cdXcf cd) (cdId cd)).
    split; [apply in_map_iff; eauto|]. simpl. rewrite E, G2. auto. }
  clear -X U. destruct X as (cd & Hcd & Z). revert U. generalize 0%nat at 1 as index, (ccDofJac (updateDofContacts c1)) as dj0, (ccFull (updateDofContacts c1)) as full0.
  revert A0 b0 l dj full A b. induction (ccCont (updateDofContacts c1)) as [|e es IH]; intros A0 b0 l dj full A b index dj0 full0 U; [destruct Hcd|].
  simpl in U. apply bind_Ok in U as (e' & E1 & U). apply bind_Ok in U as ((((dj1 & full1) & A1) & b1) & E2 & U).
  apply bind_Ok in U as (b2 & E3 & U). apply bind_Ok in U as (((((l2 & dj2) & full2) & A2) & b3) & E4 & U). destruct Hcd as [->|Hcd].
  - pose proof (cdUpdate_dof _ _ _ _ E1) as (ED & _). destruct (cdSides e') as [|s ss] eqn:ES.
    + destruct (cdUpdate_shape _ _ _ _ E1) as [->|(s0 & rest & off & HS & _ & _ & ->)].
      * unfold cdUpdate in E1. rewrite ES in E1. discriminate.
      * simpl in ES. rewrite HS in ES. destruct rest as [|? [|]]; discriminate.
    + simpl in E2. apply bind_Ok in E2 as (r & E2 & _). apply sideUpdate_fits in E2 as (mb & _ & E2 & _). rewrite ED in E2. lia.
  - eapply IH; eauto.
Qed.

(* ------------------------------------------------------------------ *)
(** * Reference frames *)
Lemma rot0 : m3mul (m3mul (RotX 0) (RotY 0)) (RotZ 0) = m3id.
Proof.
  unfold RotX, RotY, RotZ. rewrite cos_0, sin_0. unfold m3mul, m3mulv, m3tr, m3id, dot; apply M3_ext; simpl; apply V3_ext; simpl; ring.
Qed.
Lemma csd_eta s : mkCSD (cRobot s) (cBegin s) (cBody s) (cSign s) (cPath s) (cX s) = s.
Proof. destruct s; auto. Qed.
Lemma cd_eta c : mkCD (cdSides c) (cdDof c) (cdRevDof c) (cdR1 c) (cdR2 c) (cdB1 c) (cdB2 c) (cdXbb c) (cdXcf c) (cdId c) = c.
Proof. destruct c; auto. Qed.

(** Without free direction the reference does not move. *)
Lemma cdUpdate_fixed nm mbs d sv k c c' : rigidCD c -> dataFor nm mbs d c -> (forall i j, (j < 6)%nat -> cdRevDof c i j = 0) ->
  cdUpdate sv k c = Ok c' -> c' = c.
Proof.
  intros (R1 & R2) HD Z H. destruct HD as (mb1 & mb2 & l1 & l2 & Z1 & Z2 & I1 & I2 & M1 & M2 & HS & S1 & S2 & B1 & B2).
  unfold cdUpdate in H. rewrite HS in H.
  assert (E0 : forall te i, sumn 6 (fun j => cdRevDof c i j * te j) = 0) by (intros te i; apply sumn_0; intros j Hj; rewrite Z by auto; ring).
  set (X2 := pt_mul (cdXcf c) (pt_inv (cdXbb c))) in *.
  assert (RX2 : rigid X2) by (apply rigid_mul; [auto|apply rigid_inv; auto]).
  assert (EX : pt_mul (pt_inv X2) (cdXcf c) = cdXbb c).
  { unfold X2. rewrite pt_inv_mul, pt_inv_invol by (auto; apply rigid_inv; auto). rewrite pt_mul_assoc, pt_mul_inv_l, pt_mul_id_r by auto. auto. }
  destruct S1 as [(N1 & ->)|(N1 & b1 & p1 & A1 & P1 & NE1 & ->)]; destruct S2 as [(N2 & ->)|(N2 & b2 & p2 & A2 & P2 & NE2 & ->)]; cbn [app length] in H; try discriminate.
  - unfold Rltb in H. destruct (Rlt_dec 0 _) as [L|L]; [simpl in L; lra|]. simpl in H. rewrite !E0, rot0 in H. fold v0 pt_id in H. rewrite pt_mul_id_l, EX in H.
    inversion H. etransitivity; [|apply (cd_eta c)]. rewrite HS. reflexivity.
  - unfold Rltb in H. destruct (Rlt_dec 0 _) as [L|L]; [|simpl in L; lra]. simpl in H. inversion H; auto.
  - simpl in H. rewrite !E0, rot0 in H. fold v0 pt_id in H. rewrite pt_mul_id_l, EX in H.
    inversion H. etransitivity; [|apply (cd_eta c)]. rewrite HS. reflexivity.
Qed.
