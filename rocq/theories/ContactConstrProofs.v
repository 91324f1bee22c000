(** Proofs about the contact constraints. *)
From Coq Require Import Sorted.
From Verif Require Export OrdMapProofs JacProofs RigidProofs ContactConstrSpec LayoutProofs.
Open Scope R_scope.

(* ------------------------------------------------------------------ *)
(** * Registries *)
Definition regRel (c : contactConstr) (g : registry) : Prop :=
  sorted (ccVirtual c) /\ sorted (ccDofs c) /\ (forall id, isVirtual c id <-> aVirt g id) /\
  (forall id, mFind id (ccDofs c) = aDof g id).

Lemma isVirtual_find c id : sorted (ccVirtual c) -> (isVirtual c id <-> mFind id (ccVirtual c) <> None).
Proof.
  intros S. unfold isVirtual. fold (keys (ccVirtual c)). destruct (mFind id (ccVirtual c)) eqn:E.
  - split; [discriminate|]. intros _. apply mFind_In in E; auto. apply (in_map fst) in E. exact E.
  - apply mFind_None in E; auto. tauto.
Qed.
Lemma ccUpdate_reg m mbs sv k c c' : ccUpdate m mbs sv k c = Ok c' -> ccVirtual c' = ccVirtual c /\ ccDofs c' = ccDofs c.
Proof.
  unfold ccUpdate. intros H. apply bind_Ok in H as ((A0 & b0) & _ & H).
  apply bind_Ok in H as (((((l & dj) & full) & A) & b) & _ & H). inversion H; subst. auto.
Qed.
Lemma updateNrVars_reg nm mbs d c c' : updateNrVars nm mbs d c = Ok c' -> ccVirtual c' = ccVirtual c /\ ccDofs c' = ccDofs c.
Proof.
  unfold updateNrVars. intros H. apply bind_Ok in H as (md & _ & H). apply bind_Ok in H as (l & _ & H). inversion H; subst. auto.
Qed.

Lemma regRel_same c c' g : ccVirtual c' = ccVirtual c -> ccDofs c' = ccDofs c -> regRel c g -> regRel c' g.
Proof. intros H1 H2. unfold regRel, isVirtual. rewrite H1, H2. auto. Qed.

Lemma reg_step c g o c' b : noGet o -> regRel c g -> ccStep c o = Ok (c', b) ->
  exists g' P, regStep g o g' P /\ P b /\ regRel c' g'.
Proof.
  intros N (SV & SD & HV & HD) H.
  destruct o as [id|id| |id m|id| |id|id|nm mbs d| |m mbs sv k]; simpl in *; try tauto.
  - unfold addVirtualContact in H. pose proof (mInsert_spec id tt (ccVirtual c) SV) as (I1 & I2 & I3 & _).
    destruct (mInsert id tt (ccVirtual c)) as [v bb] eqn:E. simpl in *. inversion H; subst; clear H.
    eexists _, _. split; [constructor|]. split.
    + exists bb. split; [auto|]. rewrite <- HV, isVirtual_find, I3 by auto. destruct (mFind id (ccVirtual c)); intuition congruence.
    + split; [auto|]. split; [auto|]. split; [|auto]. intros i. simpl. rewrite <- HV, !isVirtual_find by auto. simpl. rewrite I2.
      destruct (cid_dec i id); [subst; split; [auto|discriminate]|]. tauto.
  - unfold removeVirtualContact in H. pose proof (mErase_spec id (ccVirtual c) SV) as (I1 & I2 & I3 & _).
    destruct (mErase id (ccVirtual c)) as [v bb] eqn:E. simpl in *. inversion H; subst; clear H.
    eexists _, _. split; [constructor|]. split.
    + exists bb. split; [auto|]. rewrite <- HV, isVirtual_find by auto. auto.
    + split; [auto|]. split; [auto|]. split; [|auto]. intros i. simpl. rewrite <- HV, !isVirtual_find by auto. simpl. rewrite I2.
      destruct (cid_dec i id); tauto.
  - inversion H; subst; clear H. eexists _, _. split; [constructor|]. split; [auto|].
    split; [constructor|]. split; [auto|]. split; [|auto]. intros i. unfold isVirtual. simpl. tauto.
  - unfold addDofContact in H. pose proof (mInsert_spec id m (ccDofs c) SD) as (I1 & I2 & I3 & _).
    destruct (mInsert id m (ccDofs c)) as [v bb] eqn:E. simpl in *. inversion H; subst; clear H.
    destruct (mFind id (ccDofs c)) as [m0|] eqn:F.
    + assert (bb = false) by (destruct bb; auto; destruct I3 as (I3 & _); discriminate I3; auto). subst.
      exists g, (fun o => o = Some false). split; [apply rsAddDold with m0; rewrite <- HD; auto|]. split; [auto|].
      split; [auto|]. split; [auto|]. split; [auto|]. intros i. simpl. rewrite I2. destruct (cid_dec i id); subst; rewrite <- HD; auto.
    + assert (bb = true) by (apply I3; auto). subst.
      exists (mkRegistry (aVirt g) (fun i => mFind i v)), (fun o => o = Some true). split.
      { constructor; [rewrite <- HD; auto|rewrite I2; destruct (cid_dec id id); congruence|].
        intros i Hi. rewrite I2. destruct (cid_dec i id); [congruence|apply HD]. }
      split; [auto|]. split; [auto|]. split; [auto|]. split; [auto|]. auto.
  - unfold removeDofContact in H. pose proof (mErase_spec id (ccDofs c) SD) as (I1 & I2 & I3 & _).
    destruct (mErase id (ccDofs c)) as [v bb] eqn:E. simpl in *. inversion H; subst; clear H.
    destruct (mFind id (ccDofs c)) as [m0|] eqn:F.
    + assert (bb = true) by (apply I3; discriminate). subst.
      exists (mkRegistry (aVirt g) (fun i => mFind i v)), (fun o => o = Some true). split.
      { apply rsRemDold with m0; [rewrite <- HD; auto|rewrite I2; destruct (cid_dec id id); congruence|].
        intros i Hi. rewrite I2. destruct (cid_dec i id); [congruence|apply HD]. }
      split; [auto|]. split; [auto|]. split; [auto|]. split; [auto|]. auto.
    + assert (bb = false) by (destruct bb; auto; destruct I3 as (I3 & _); exfalso; apply I3; auto). subst.
      exists g, (fun o => o = Some false). split; [apply rsRemDnew; rewrite <- HD; auto|]. split; [auto|].
      split; [auto|]. split; [auto|]. split; [auto|]. intros i. simpl. rewrite I2. destruct (cid_dec i id); subst; rewrite <- HD; auto.
  - inversion H; subst; clear H. eexists _, _. split; [constructor|]. split; [auto|].
    split; [auto|]. split; [constructor|]. split; [auto|]. intros i. reflexivity.
  - inversion H; subst; clear H. exists g. eexists. split; [constructor|]. split.
    + exists (hasDoFContact c' id). split; [auto|]. unfold hasDoFContact. rewrite <- HD. destruct (mFind id (ccDofs c')); split; congruence.
    + split; [auto|]. split; [auto|]. split; [auto|]. auto.
  - apply bind_Ok in H as (c1 & H1 & H). inversion H; subst; clear H. apply updateNrVars_reg in H1 as (? & ?).
    exists g. eexists. split; [constructor|]. split; [auto|]. eapply regRel_same; eauto. split; [auto|]. split; [auto|]. split; [auto|]. auto.
  - inversion H; subst; clear H. exists g. eexists. split; [constructor|]. split; [auto|]. apply (regRel_same c); auto. split; [auto|]. split; [auto|]. split; [auto|]. auto.
  - apply bind_Ok in H as (c1 & H1 & H). inversion H; subst; clear H. apply ccUpdate_reg in H1 as (? & ?).
    exists g. eexists. split; [constructor|]. split; [auto|]. eapply regRel_same; eauto. split; [auto|]. split; [auto|]. split; [auto|]. auto.
Qed.

Lemma reg_run ops : forall c g c' outs, Forall noGet ops -> regRel c g -> ccRun c ops = Ok (c', outs) ->
  exists g', regRun g ops g' outs /\ regRel c' g'.
Proof.
  induction ops as [|o ops IH]; intros c g c' outs N R H; simpl in H.
  - inversion H; subst. exists g. split; [constructor|auto].
  - inversion N; subst. apply bind_Ok in H as ((c1 & b) & H1 & H). apply bind_Ok in H as ((c2 & bs) & H2' & H). inversion H; subst.
    destruct (reg_step _ _ _ _ _ H2 R H1) as (g1 & P & S1 & S2 & S3). destruct (IH _ _ _ _ H3 S3 H2') as (g' & S4 & S5).
    exists g'. split; [econstructor; eauto|auto].
Qed.
Lemma regRel_empty : regRel newCC emptyRegistry.
Proof. unfold regRel, isVirtual; simpl. split; [constructor|]. split; [constructor|]. split; [tauto|auto]. Qed.

Lemma registry_lemma ops c outs : Forall noGet ops -> ccRun newCC ops = Ok (c, outs) ->
  exists g, regRun emptyRegistry ops g outs /\ (forall id, isVirtual c id <-> aVirt g id) /\
            (forall id m, dofIs c id m <-> aDof g id = Some m).
Proof.
  intros N H. destruct (reg_run _ _ _ _ _ N regRel_empty H) as (g & R & SV & SD & HV & HD). exists g. split; [auto|]. split; [auto|].
  intros id m. unfold dofIs. rewrite <- HD. symmetry. apply mFind_In. auto.
Qed.

(** dofContact() on an unknown id inserts an empty matrix. *)
Lemma getter_mutates c id : sorted (ccDofs c) -> hasDoFContact c id = false ->
  let c' := fst (dofContact c id) in hasDoFContact c' id = true /\ dofOf (ccDofs c') id = mzero 0 0.
Proof.
  intros S H. unfold hasDoFContact, dofContact, dofOf in *. destruct (mFind id (ccDofs c)) eqn:E; [discriminate|]. simpl.
  destruct (mInsert_spec id (mzero 0 0) (ccDofs c) S) as (_ & I & _). rewrite I, E. destruct (cid_dec id id); [auto|congruence].
Qed.

(** ** Reading of the registry as the last operations of the history. *)
Lemma regRun_app g ops1 ops2 g2 outs : regRun g (ops1 ++ ops2) g2 outs ->
  exists g1 o1 o2, regRun g ops1 g1 o1 /\ regRun g1 ops2 g2 o2 /\ outs = o1 ++ o2.
Proof.
  revert g outs; induction ops1 as [|o ops IH]; intros g outs H; simpl in *.
  - exists g, [], outs. split; [constructor|]. auto.
  - inversion H; subst. destruct (IH _ _ H7) as (g1' & o1 & o2 & A & B & C). subst.
    exists g1', (b :: o1), o2. split; [econstructor; eauto|]. auto.
Qed.

Lemma snoc_split {A} (l : list A) o pre x post : l ++ [o] = pre ++ x :: post ->
  (post = [] /\ x = o /\ pre = l) \/ exists post', post = post' ++ [o] /\ l = pre ++ x :: post'.
Proof.
  intros H. destruct post as [|y q] using rev_ind.
  - left. apply app_inj_tail in H as (-> & ->). auto.
  - right. clear IHq. exists q. rewrite app_comm_cons, app_assoc in H. apply app_inj_tail in H as (-> & ->). auto.
Qed.

Lemma addedLast_snoc id ops o : addedLast id (ops ++ [o]) <->
  o = OAddVirtual id \/ (o <> ORemVirtual id /\ o <> OResetVirtual /\ addedLast id ops).
Proof.
  split.
  - intros (pre & post & E & N1 & N2). apply snoc_split in E as [(-> & E & _)|(post' & -> & E)]; [left; auto|right].
    rewrite in_app_iff in N1, N2. simpl in N1, N2. split; [intuition|]. split; [intuition|]. exists pre, post'. tauto.
  - intros [->|(N1 & N2 & pre & post & E & N3 & N4)].
    + exists ops, []. simpl. tauto.
    + exists pre, (post ++ [o]). rewrite E, <- app_assoc. rewrite !in_app_iff. simpl. intuition.
Qed.
Lemma dofAbsent_snoc id ops o : dofAbsent id (ops ++ [o]) <->
  (o = ORemDof id \/ o = OResetDof \/ ((forall m, o <> OAddDof id m) /\ dofAbsent id ops)).
Proof.
  split.
  - intros H. destruct o as [i|i| |i m|i| |i|i|nm mbs d| |m mbs sv k].
    all: try (right; right; split; [intros; discriminate|]; intros pre m0 post E;
      destruct (H pre m0 (post ++ [_]) ltac:(rewrite E, <- app_assoc; reflexivity)) as [K|K]; rewrite in_app_iff in K; simpl in K; intuition discriminate).
    + right; right. destruct (cid_dec i id) as [->|Hi].
      * destruct (H ops m [] eq_refl) as [[]|[]].
      * split; [intros m' F; inversion F; congruence|]. intros pre m0 post E.
        destruct (H pre m0 (post ++ [_]) ltac:(rewrite E, <- app_assoc; reflexivity)) as [K|K]; rewrite in_app_iff in K; simpl in K; intuition discriminate.
    + destruct (cid_dec i id) as [->|Hi]; [auto|]. right; right. split; [discriminate|]. intros pre m0 post E.
        destruct (H pre m0 (post ++ [_]) ltac:(rewrite E, <- app_assoc; reflexivity)) as [K|K]; rewrite in_app_iff in K; simpl in K; intuition congruence.
    + auto.
  - intros H pre m post E. apply snoc_split in E as [(-> & E & ->)|(post' & -> & E)].
    + subst. destruct H as [H|[H|(H & _)]]; try discriminate. exfalso. apply (H m); auto.
    + rewrite !in_app_iff. simpl. destruct H as [H|[H|(_ & H)]]; auto. destruct (H _ _ _ E); auto.
Qed.
Lemma dofGiven_snoc id m ops o : dofGiven id m (ops ++ [o]) <->
  (o = OAddDof id m /\ dofAbsent id ops) \/ (o <> ORemDof id /\ o <> OResetDof /\ dofGiven id m ops).
Proof.
  split.
  - intros (pre & post & E & N1 & N2 & N3). apply snoc_split in E as [(-> & E & ->)|(post' & -> & E)]; [left; auto|right].
    rewrite in_app_iff in N1, N2. simpl in N1, N2. split; [intuition|]. split; [intuition|]. exists pre, post'. tauto.
  - intros [(-> & H)|(N1 & N2 & pre & post & E & N3 & N4 & N5)].
    + exists ops, []. simpl. tauto.
    + exists pre, (post ++ [o]). rewrite E, <- app_assoc. rewrite !in_app_iff. simpl. intuition.
Qed.

Lemma regRun_trace ops : forall g outs id, regRun emptyRegistry ops g outs ->
  (aVirt g id <-> addedLast id ops) /\ (forall m, aDof g id = Some m <-> dofGiven id m ops) /\ (aDof g id = None <-> dofAbsent id ops).
Proof.
  induction ops as [|o ops IH] using rev_ind; intros g outs id H.
  - inversion H; subst. simpl. split; [|split].
    + split; [tauto|]. intros (pre & post & E & _). destruct pre; discriminate.
    + intros m. split; [discriminate|]. intros (pre & post & E & _). destruct pre; discriminate.
    + split; [|auto]. intros _ pre m post E. destruct pre; discriminate.
  - apply regRun_app in H as (g1 & o1 & o2 & R1 & R2 & _). destruct (IH _ _ id R1) as (IV & ID & IN).
    inversion R2; subst. inversion H6; subst. clear R2 H6.
    rewrite addedLast_snoc, dofAbsent_snoc. split; [|split; [intros m; rewrite dofGiven_snoc|]].
    all: clear H3; inversion H1; subst; simpl in *; try (rewrite <- IV); try (rewrite <- ID); try (rewrite <- IN).
    all: try (intuition congruence).
    all: try (destruct (cid_dec id0 id) as [->|Hi]; intuition congruence).
    all: destruct (cid_dec id0 id) as [->|Hi]; [rewrite ?H0|rewrite (H2 id) by congruence].
    + rewrite H. split; [intros E; inversion E; auto|]. intros [(E & _)|(_ & _ & E)]; congruence.
    + split; [intros E; right; repeat split; congruence|]. intros [(E & _)|(_ & _ & E)]; congruence.
    + split; [congruence|]. intros [(E & _)|(E & _)]; congruence.
    + split; [intros E; right; repeat split; congruence|]. intros [(E & _)|(_ & _ & E)]; congruence.
    + split; [congruence|]. intros [E|[E|(E & _)]]; try discriminate. exfalso; apply (E m); auto.
    + split; [intros E; right; right; split; congruence|]. intros [E|[E|(_ & E)]]; congruence.
    + split; [auto|]. congruence.
    + split; [intros E; right; right; split; congruence|]. intros [E|[E|(_ & E)]]; congruence.
Qed.
Lemma registry_trace_lemma ops c outs : Forall noGet ops -> ccRun newCC ops = Ok (c, outs) -> forall id,
  (isVirtual c id <-> addedLast id ops) /\ (forall m, dofIs c id m <-> dofGiven id m ops) /\
  (hasDoFContact c id = false <-> dofAbsent id ops).
Proof.
  intros N H id. destruct (reg_run _ _ _ _ _ N regRel_empty H) as (g & R & SV & SD & HV & HD).
  destruct (regRun_trace _ _ _ id R) as (A & B & C). rewrite HV, <- C, <- HD. split; [auto|]. split.
  - intros m. rewrite <- B, <- HD. unfold dofIs. symmetry. apply mFind_In. auto.
  - unfold hasDoFContact. destruct (mFind id (ccDofs c)); split; congruence.
Qed.

(* ------------------------------------------------------------------ *)
(** * Contacts used *)
Definition sortedCC (c : contactConstr) : Prop := sorted (ccVirtual c) /\ sorted (ccDofs c).
Lemma sorted_step c o c' b : sortedCC c -> ccStep c o = Ok (c', b) -> sortedCC c'.
Proof.
  intros (SV & SD) H. destruct o as [id|id| |id m|id| |id|id|nm mbs d| |m mbs sv k]; simpl in *.
  - unfold addVirtualContact in H. pose proof (mInsert_spec id tt (ccVirtual c) SV) as (I1 & _).
    destruct (mInsert id tt (ccVirtual c)). inversion H; subst. split; auto.
  - unfold removeVirtualContact in H. pose proof (mErase_spec id (ccVirtual c) SV) as (I1 & _).
    destruct (mErase id (ccVirtual c)). inversion H; subst. split; auto.
  - inversion H; subst. split; [constructor|auto].
  - unfold addDofContact in H. pose proof (mInsert_spec id m (ccDofs c) SD) as (I1 & _).
    destruct (mInsert id m (ccDofs c)). inversion H; subst. split; auto.
  - unfold removeDofContact in H. pose proof (mErase_spec id (ccDofs c) SD) as (I1 & _).
    destruct (mErase id (ccDofs c)). inversion H; subst. split; auto.
  - inversion H; subst. split; [auto|constructor].
  - inversion H; subst. split; auto.
  - inversion H; subst. unfold dofContact. destruct (mFind id (ccDofs c)); simpl; [split; auto|]. split; [auto|]. simpl.
    apply (mInsert_spec id (mzero 0 0) (ccDofs c) SD).
  - apply bind_Ok in H as (c1 & H1 & H). inversion H; subst. apply updateNrVars_reg in H1 as (E1 & E2). unfold sortedCC. rewrite E1, E2. auto.
  - inversion H; subst. split; auto.
  - apply bind_Ok in H as (c1 & H1 & H). inversion H; subst. apply ccUpdate_reg in H1 as (E1 & E2). unfold sortedCC. rewrite E1, E2. auto.
Qed.
Lemma sorted_run ops : forall c c' outs, sortedCC c -> ccRun c ops = Ok (c', outs) -> sortedCC c'.
Proof.
  induction ops as [|o ops IH]; intros c c' outs S H; simpl in H; [inversion H; subst; auto|].
  apply bind_Ok in H as ((c1 & b) & H1 & H). apply bind_Ok in H as ((c2 & bs) & H2 & H). inversion H; subst.
  eapply IH; [|eauto]. eapply sorted_step; eauto.
Qed.
Lemma sorted_new : sortedCC newCC.
Proof. split; constructor. Qed.

Lemma cid_eqb_refl id : cid_eqb id id = true.
Proof. apply cid_eqb_spec. auto. Qed.
Lemma cid_eqb_neq a b : a <> b -> cid_eqb a b = false.
Proof. intros N. destruct (cid_eqb a b) eqn:E; auto. apply cid_eqb_spec in E. congruence. Qed.

Lemma commonLoop_spec virt cs : sorted virt -> forall m, sorted m ->
  sorted (commonLoop virt cs m) /\
  (forall id, mFind id (commonLoop virt cs m) =
     match mFind id m with
     | Some v => Some v
     | None => match mFind id virt with
               | Some _ => None
               | None => option_map (fun b => (bXcf b, bXbb b)) (firstWith id cs)
               end
     end).
Proof.
  intros SV. induction cs as [|b cs IH]; intros m S; simpl.
  - split; [auto|]. intros id. destruct (mFind id m); auto. destruct (mFind id virt); auto.
  - destruct (mFind (bId b) virt) as [u|] eqn:EV.
    + destruct (IH m S) as (I1 & I2). split; [auto|]. intros id. rewrite I2.
      destruct (mFind id m); auto. destruct (mFind id virt) eqn:E; auto.
      rewrite cid_eqb_neq; auto. intros F. subst. congruence.
    + destruct (mInsert_spec (bId b) (bXcf b, bXbb b) m S) as (J1 & J2 & _).
      destruct (IH _ J1) as (I1 & I2). split; [auto|]. intros id. rewrite I2, J2. destruct (cid_dec id (bId b)) as [->|N].
      * destruct (mFind (bId b) m); auto. rewrite EV, cid_eqb_refl. reflexivity.
      * rewrite (cid_eqb_neq (bId b) id) by auto. reflexivity.
Qed.

Lemma firstWith_In id cs b : firstWith id cs = Some b -> In b cs /\ bId b = id.
Proof.
  induction cs as [|b' cs IH]; simpl; [discriminate|]. destruct (cid_eqb (bId b') id) eqn:E.
  - intros H; inversion H; subst. apply cid_eqb_spec in E. auto.
  - intros H. destruct (IH H). auto.
Qed.
Lemma firstWith_ex cs b : In b cs -> exists b', firstWith (bId b) cs = Some b'.
Proof.
  induction cs as [|b' cs IH]; simpl; [tauto|]. intros [->|H].
  - rewrite cid_eqb_refl. eauto.
  - destruct (cid_eqb (bId b') (bId b)); eauto.
Qed.

Lemma zidx_Ok z n : zidx z = Ok n -> (0 <= z)%Z /\ n = Z.to_nat z.
Proof. unfold zidx. destruct (0 <=? z)%Z eqn:E; [|discriminate]. apply Z.leb_le in E. intros H; inversion H; auto. Qed.

Lemma rev_last {A} (p : list A) a q d : rev p = a :: q -> last p d = a /\ p <> [].
Proof.
  intros H. assert (E : p = rev q ++ [a]) by (rewrite <- (rev_involutive p), H; reflexivity). subst. rewrite last_last. split; [auto|].
  destruct (rev q); discriminate.
Qed.

Lemma addSide_Ok nm mbs d r body s X sides res b : addSide nm mbs d r body s X sides = Ok (res, b) ->
  (0 <= r)%Z /\ exists mb l, nth_error mbs (Z.to_nat r) = Some mb /\ res = sides ++ l /\
    sideFor nm d (Z.to_nat r) mb body s X l /\ bodyFor nm (Z.to_nat r) mb body b.
Proof.
  unfold addSide. intros H. apply bind_Ok in H as (ri & E & H). apply zidx_Ok in E as (Hz & ->). split; [auto|].
  apply bind_Ok in H as (mb & E & H). apply vec_at_Ok in E. destruct (0 <? nrDof mb)%nat eqn:D.
  - apply Nat.ltb_lt in D. apply bind_Ok in H as (bg & E1 & H). apply bind_Ok in H as (p & E2 & H).
    apply bind_Ok in H as (bi & E3 & H). inversion H; subst. destruct (rev p) eqn:E4; [discriminate|]. inversion E3; subst.
    destruct (rev_last p b l 0%nat E4) as (L & NE).
    exists mb, [mkCSD (Z.to_nat r) bg b s p X]. split; [auto|]. split; [auto|]. split.
    + right. split; [auto|]. exists bg, p. rewrite L. auto.
    + right. split; [auto|]. exists p. auto.
  - apply Nat.ltb_ge in D. apply bind_Ok in H as (bi & E1 & H). inversion H; subst. exists mb, []. rewrite app_nil_r.
    split; [auto|]. split; [auto|]. split; [left; split; [lia|auto]|left; split; [lia|auto]].
Qed.

Lemma contLoop_spec nm mbs d dofs cs : forall l, contLoop nm mbs d dofs cs = Ok l ->
  Forall2 (fun e cd => cdId cd = fst e /\ cdXcf cd = fst (snd e) /\ cdXbb cd = snd (snd e) /\
                       cdDof cd = dofOf dofs (fst e) /\ cdRevDof cd = revDof (cdDof cd) /\ dataFor nm mbs d cd) cs l.
Proof.
  induction cs as [|[id [Xcf Xbb]] cs IH]; intros l H; simpl in H.
  - inversion H; subst. constructor.
  - apply bind_Ok in H as ((s1 & b1) & E1 & H). apply bind_Ok in H as ((s2 & b2) & E2 & H).
    apply bind_Ok in H as (i1 & E3 & H). apply bind_Ok in H as (i2 & E4 & H).
    apply bind_Ok in H as (cd & E5 & H). apply bind_Ok in H as (l' & E6 & H). inversion H; subst.
    constructor; [|apply IH; auto].
    apply zidx_Ok in E3 as (Z1 & ->). apply zidx_Ok in E4 as (Z2 & ->).
    unfold newCD in E5. apply bind_Ok in E5 as (u & _ & E5). inversion E5; subst. simpl.
    apply addSide_Ok in E1 as (_ & mb1 & l1 & M1 & -> & S1 & B1). apply addSide_Ok in E2 as (_ & mb2 & l2 & M2 & -> & S2 & B2).
    split; [auto|]. split; [auto|]. split; [auto|]. split; [auto|]. split; [auto|].
    exists mb1, mb2, l1, l2. simpl. auto 15.
Qed.

Lemma contacts_lemma ops c outs nm mbs d c' :
  ccRun newCC ops = Ok (c, outs) -> updateNrVars nm mbs d c = Ok c' ->
  increasing (map cdId (ccCont c')) /\
  (forall id, In id (map cdId (ccCont c')) <-> ~ isVirtual c id /\ exists b, In b (sdAll d) /\ bId b = id) /\
  (forall cd, In cd (ccCont c') ->
     dataFor nm mbs d cd /\
     (exists b, firstWith (cdId cd) (sdAll d) = Some b /\ cdXcf cd = bXcf b /\ cdXbb cd = bXbb b) /\
     (forall m, dofIs c (cdId cd) m -> cdDof cd = m) /\
     ((forall m, ~ dofIs c (cdId cd) m) -> cdDof cd = identity6)).
Proof.
  intros HR H. pose proof (sorted_run _ _ _ _ sorted_new HR) as (SV & SD).
  unfold updateNrVars in H. apply bind_Ok in H as (md & _ & H). apply bind_Ok in H as (l & E & H). inversion H; subst; clear H. simpl.
  assert (Sn : sorted (@nil (contactId * (PT * PT)))) by constructor.
  destruct (commonLoop_spec (ccVirtual c) (sdAll d) SV [] Sn) as (I1 & I2). fold (contactCommonInContact c d) in I1, I2.
  pose proof (contLoop_spec _ _ _ _ _ _ E) as F.
  assert (K : map cdId l = keys (contactCommonInContact c d)).
  { clear -F. induction F as [|e cd cs l (A & _) F IH]; simpl; [auto|]. rewrite A, IH. auto. }
  split; [|split].
  - rewrite K. unfold increasing. unfold sorted in I1. clear -I1. induction I1; constructor; auto.
    eapply Forall_impl; [|eauto]. intros b Hb. apply cid_ltb_spec. auto.
  - intros id. rewrite K, isVirtual_find by auto. destruct (mFind id (contactCommonInContact c d)) as [v|] eqn:EM.
    + assert (Hin : In id (keys (contactCommonInContact c d))) by (apply mFind_In in EM; auto; apply (in_map fst) in EM; auto).
      split; [|auto]. intros _. rewrite I2 in EM. simpl in EM. destruct (mFind id (ccVirtual c)); [discriminate|]. split; [tauto|].
      destruct (firstWith id (sdAll d)) as [b|] eqn:EF; [|discriminate]. apply firstWith_In in EF. eauto.
    + split; [intros Hin; apply mFind_None in EM; auto; tauto|]. intros (NV & b & Hb & <-). exfalso.
      rewrite I2 in EM. simpl in EM. destruct (mFind (bId b) (ccVirtual c)); [apply NV; discriminate|].
      destruct (firstWith_ex _ _ Hb) as (b' & Eb). rewrite Eb in EM. discriminate.
  - intros cd Hcd. apply In_nth_error in Hcd as (k & Hk).
    assert (G : exists e, nth_error (contactCommonInContact c d) k = Some e /\ cdId cd = fst e /\ cdXcf cd = fst (snd e) /\ cdXbb cd = snd (snd e) /\
                       cdDof cd = dofOf (ccDofs c) (fst e) /\ dataFor nm mbs d cd).
    { clear -F Hk. revert k Hk. induction F as [|e cd' cs l' HF F IH]; intros [|k] Hk; simpl in *; try discriminate.
      - inversion Hk; subst. exists e. tauto.
      - apply IH; auto. }
    destruct G as ([id [Xcf Xbb]] & Hn & G1 & G2 & G3 & G4 & G5). simpl in *. split; [auto|].
    apply nth_error_In in Hn. apply mFind_In in Hn; auto. split.
    + rewrite I2 in Hn. simpl in Hn. destruct (mFind id (ccVirtual c)); [discriminate|].
      rewrite G1. destruct (firstWith id (sdAll d)) as [b|] eqn:EF; [|discriminate]. simpl in Hn. inversion Hn; subst. exists b. auto.
    + rewrite G1, G4. unfold dofOf, dofIs. split.
      * intros m Hm. apply mFind_In in Hm; auto. rewrite Hm. auto.
      * intros Hm. destruct (mFind id (ccDofs c)) as [m|] eqn:EM; auto. exfalso. apply (Hm m). apply mFind_In; auto.
Qed.
