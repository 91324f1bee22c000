(** Histories of the planes for the centre of mass. *)
From Verif Require Export PlaneProofs LayoutProofs.
Open Scope list_scope.
Open Scope R_scope.
Local Arguments sumn : simpl never.

Lemma plRun_app mbs : forall o1 o2 c, plRun mbs c (o1 ++ o2) = do c' <- plRun mbs c o1; plRun mbs c' o2.
Proof. induction o1 as [|o o1 IH]; intros o2 c; simpl; [auto|]. destruct (plStep mbs c o); simpl; auto. Qed.
Lemma planesFrom_app : forall o1 o2 l, planesFrom l (o1 ++ o2) = planesFrom (planesFrom l o1) o2.
Proof. induction o1 as [|o o1 IH]; intros o2 l; [auto|]. destruct o; simpl; auto. Qed.
Lemma selFrom_app : forall o1 o2 s, selFrom s (o1 ++ o2) = selFrom (selFrom s o1) o2.
Proof. induction o1 as [|o o1 IH]; intros o2 l; [auto|]. destruct o; simpl; auto. Qed.

Lemma erasePlane_rel id : forall ps l, Forall2 relP ps l -> Forall2 relP (dropPlane id ps) (fst (erasePlane id l)) /\
  snd (erasePlane id l) = existsb (fun ph => Z.eqb (plId (fst ph)) id) ps.
Proof.
  intros ps l F. induction F as [|ph q ps l H F IH]; simpl; [auto|]. rewrite (proj1 H). destruct (Z.eqb (plId (fst ph)) id); simpl; [auto|].
  destruct (erasePlane id l). simpl in *. destruct IH. auto.
Qed.
Lemma erasePlane_length id l : (length (fst (erasePlane id l)) <= length l)%nat.
Proof. induction l as [|c l IH]; simpl; [auto|]. destruct (Z.eqb _ _); simpl; [lia|]. destruct (erasePlane id l). simpl in *. lia. Qed.

Section Run.
Variables (mbs : list multibody) (r : nat) (step : R).
Definition dof := nrDof (robot mbs r).

Definition plInv (ps : list (planeSpec * list ckin)) (s : vec R) (c : planeConstr) : Prop :=
  pcRobot c = r /\ pcStep c = step /\ pcSel c = s /\ Forall2 relP ps (pcData c) /\ mrows (pcA c) = vlen (pcB c).

Lemma update_Ok K c c' : plUpdate mbs K c = Ok c' -> exists mb, nth_error mbs (pcRobot c) = Some mb /\ vlen (pcSel c) = nrDof mb /\
  pcRobot c' = pcRobot c /\ pcBegin c' = pcBegin c /\ pcStep c' = pcStep c /\ pcVars c' = pcVars c /\ pcSel c' = pcSel c /\
  exists l act, plScan (ckCom K) 0 (pcData c) = (l, act) /\
    plRows K (nrDof mb) (pcBegin c) (pcStep c) (pcSel c) act l 0 (pcA c) (pcB c) = Ok (pcData c', pcNr c', pcA c', pcB c').
Proof.
  unfold plUpdate. intros H. apply bind_Ok in H as (mb & M & H). apply vec_at_Ok in M. apply bind_Ok in H as (u & GU & H). apply guard_Ok, Nat.eqb_eq in GU.
  destruct (plScan (ckCom K) 0 (pcData c)) as (l & act) eqn:S. apply bind_Ok in H as ([[[l' nr] A] B] & H & E). injection E as <-. cbn.
  exists mb. repeat (split; [solve [auto]|]). exists l, act. auto.
Qed.

Lemma inv_step ps s c o c' : plInv ps s c -> plStep mbs c o = Ok c' -> plInv (planesFrom ps [o]) (selFrom s [o]) c'.
Proof.
  intros (I1 & I2 & I3 & I4 & I5) H. destruct o as [p|id| |s'| |d|K]; simpl in H |- *.
  - injection H as <-. repeat (split; [solve [auto]|]). split; [|auto]. cbn [addPlane with_planes pcData]. apply Forall2_app; [auto|]. constructor; [apply relP_new|constructor].
  - injection H as <-. destruct (erasePlane_rel id _ _ I4) as (E & _). unfold rmPlane. destruct (erasePlane id (pcData c)) as (l & b). simpl in *. repeat (split; [solve [auto]|]). auto.
  - injection H as <-. repeat (split; [solve [auto]|]). split; [constructor|auto].
  - injection H as <-. repeat (split; [solve [auto]|]). auto.
  - injection H as <-. repeat (split; [solve [auto]|]). reflexivity.
  - unfold plNrVars in H. apply bind_Ok in H as (b & _ & H). injection H as <-. repeat (split; [solve [auto]|]). reflexivity.
  - apply update_Ok in H as (mb & M & SL & E1 & E2 & E3 & E4 & E5 & l & act & SC & H).
    apply (rows_all K (nrDof mb) (pcStep c) (pcSel c) (pcBegin c) (pcData c) ps [] 0) in H as (l3 & L & F & _ & D1 & D2 & D3 & _); auto.
    simpl in L. rewrite <- L in F. unfold plInv. split; [congruence|]. split; [congruence|]. split; [congruence|]. split; [exact F|congruence].
Qed.
Lemma inv_run : forall ops ps s c c', plInv ps s c -> plRun mbs c ops = Ok c' -> plInv (planesFrom ps ops) (selFrom s ops) c'.
Proof.
  induction ops as [|o ops IH]; intros ps s c c' I H; simpl in H; [injection H as <-; exact I|]. apply bind_Ok in H as (c1 & H1 & H).
  change (o :: ops) with ([o] ++ ops). rewrite planesFrom_app, selFrom_app. eapply IH; [|exact H]. eapply inv_step; eauto.
Qed.

Variables (d : solverData) (beg : nat).
Hypothesis HBeg : alphaDBegin d r = Ok beg.
Definition plZ (c : planeConstr) : Prop :=
  pcBegin c = Some beg /\ pcVars c = sdNrVars d /\ mcols (pcA c) = sdNrVars d /\
  (forall i j, ~ (beg <= j < beg + dof)%nat -> mget (pcA c) i j = 0).
Definition plRoomy (c : planeConstr) : Prop := (length (pcData c) <= mrows (pcA c))%nat.
Lemma z_step ps s c o c' : plInv ps s c -> plZ c -> noNr o -> plStep mbs c o = Ok c' -> plZ c' /\ (plNoAdd o -> plRoomy c -> plRoomy c').
Proof.
  intros I (Z1 & Z2 & Z3 & Z4) S H. destruct o as [p|id| |s'| |d'|K]; simpl in H, S |- *.
  - injection H as <-. split; [|tauto]. repeat (split; [solve [auto]|]). auto.
  - injection H as <-. unfold rmPlane. pose proof (erasePlane_length id (pcData c)) as L. destruct (erasePlane id (pcData c)) as (l & b). simpl in *. split.
    + repeat (split; [solve [auto]|]). auto.
    + unfold plRoomy; simpl. lia.
  - injection H as <-. split; [|unfold plRoomy; simpl; lia]. repeat (split; [solve [auto]|]). auto.
  - injection H as <-. split; [|auto]. repeat (split; [solve [auto]|]). auto.
  - injection H as <-. split; [|unfold plRoomy; simpl; lia]. unfold plZ; cbn. repeat (split; [solve [auto]|]). auto.
  - tauto.
  - destruct I as (I1 & I2 & I3 & I4 & I5). apply update_Ok in H as (mb & M & SL & E1 & E2 & E3 & E4 & E5 & l & act & SC & H).
    assert (LL : length (pcData c') = length (pcData c)).
    { pose proof H as H'. apply (rows_all K (nrDof mb) (pcStep c) (pcSel c) (pcBegin c) (pcData c) ps [] 0) in H' as (l3 & L & F & _); auto.
      simpl in L. rewrite L. apply Forall2_len in F. apply Forall2_len in I4. rewrite map_length in F. lia. }
    apply (rows_all K (nrDof mb) (pcStep c) (pcSel c) (pcBegin c) (pcData c) ps [] 0) in H as (l3 & L & F & _ & D1 & D2 & D3 & _ & OUT & _); auto.
    assert (MB : nrDof mb = dof) by (unfold dof, robot; rewrite <- I1; erewrite nth_error_nth; eauto).
    split; [|unfold plRoomy; lia]. split; [congruence|]. split; [congruence|]. split; [congruence|]. intros i j Hj. rewrite OUT; [auto|]. intros b Hb. rewrite MB. congruence.
Qed.
Lemma z_run : forall ops ps s c c', plInv ps s c -> plZ c -> Forall noNr ops -> plRun mbs c ops = Ok c' -> plZ c' /\ (Forall plNoAdd ops -> plRoomy c -> plRoomy c').
Proof.
  induction ops as [|o ops IH]; intros ps s c c' I Z F H; simpl in H; [injection H as <-; auto|]. apply bind_Ok in H as (c1 & H1 & H). inversion F as [|? ? F1 F2]; subst.
  destruct (z_step _ _ _ _ _ I Z F1 H1) as (Z1 & R1). pose proof (inv_step _ _ _ _ _ I H1) as I1. destruct (IH _ _ _ _ I1 Z1 F2 H) as (Z2 & R2). split; [auto|]. intros N R. inversion N; subst. auto.
Qed.
Lemma z_sized ops c0 c ps s : plInv ps s c0 -> plSized d ops -> plRun mbs c0 ops = Ok c -> plZ c /\ plRoomy c.
Proof.
  intros I0 (pre & post1 & post2 & -> & F & N & P) H. rewrite plRun_app in H. apply bind_Ok in H as (c1 & H1 & H). simpl in H. apply bind_Ok in H as (c2 & H2 & H).
  pose proof (inv_run _ _ _ _ _ I0 H1) as I1. pose proof (inv_step _ _ _ (LNr d) _ I1 H2) as I2.
  assert (S2 : plZ c2 /\ plRoomy c2).
  { unfold plNrVars in H2. destruct I1 as (R1 & _). rewrite R1, HBeg in H2. simpl in H2. injection H2 as <-. split; [|unfold plRoomy; simpl; lia]. unfold plZ; cbn. repeat (split; [solve [auto]|]). auto. }
  destruct S2 as (S2 & R2). apply Forall_app in F as (F1 & F2). rewrite plRun_app in H. apply bind_Ok in H as (c3 & H3 & H).
  pose proof (inv_run _ _ _ _ _ I2 H3) as I3.
  assert (S3 : plZ c3 /\ plRoomy c3).
  { destruct P as [->|(q & ->)]; [simpl in H3; injection H3 as <-; auto|]. rewrite plRun_app in H3. apply bind_Ok in H3 as (c4 & H4 & H3). simpl in H3. injection H3 as <-.
    apply Forall_app in F1 as (F1 & _). destruct (z_run _ _ _ _ _ I2 S2 F1 H4) as (S4 & _). pose proof (inv_run _ _ _ _ _ I2 H4) as I4.
    destruct (z_step _ _ c4 LSizes (updateNrPlanes c4) I4 S4 I eq_refl) as (S5 & _). split; [auto|]. unfold plRoomy; simpl; lia. }
  destruct S3 as (S3 & R3). destruct (z_run _ _ _ _ _ I3 S3 F2 H) as (S4 & R4). auto.
Qed.
End Run.
