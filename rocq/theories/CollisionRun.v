(** Collision constraints over histories. *)
From Verif Require Export CollisionRows.
Open Scope list_scope.
Open Scope R_scope.
Local Arguments sumn : simpl never.

Lemma aliveFrom_app l ops1 ops2 : aliveFrom l (ops1 ++ ops2) = aliveFrom (aliveFrom l ops1) ops2.
Proof. revert l. induction ops1 as [|o ops IH]; intros l; [reflexivity|]. destruct o; simpl; auto. Qed.
Lemma addsOf_app ops1 ops2 : addsOf (ops1 ++ ops2) = addsOf ops1 ++ addsOf ops2.
Proof. unfold addsOf. apply flat_map_app. Qed.
Lemma dropFirst_In id l ph : In ph (dropFirst id l) -> In ph l.
Proof. induction l as [|a l IH]; simpl; [auto|]. destruct (Z.eqb _ _); simpl; intuition. Qed.
Lemma alive_In ops : forall l ph, In ph (aliveFrom l ops) -> In (fst ph) (map fst l ++ addsOf ops).
Proof.
  induction ops as [|o ops IH]; intros l ph H; simpl in *.
  - rewrite app_nil_r. apply in_map. auto.
  - destruct o as [p|id| | |d|d e]; simpl; apply IH in H.
    + rewrite map_app in H. simpl in H. rewrite <- app_assoc in H. exact H.
    + apply in_app_or in H as [H|H]; apply in_or_app; [left|right; auto]. apply in_map_iff in H as (q & <- & H). apply in_map. eapply dropFirst_In; eauto.
    + apply in_or_app. right. exact H.
    + exact H.
    + exact H.
    + rewrite map_map in H. exact H.
Qed.
Lemma alive_adds ops p hs : In (p, hs) (alive ops) -> In p (addsOf ops).
Proof. intros H. apply alive_In in H. exact H. Qed.

Lemma colRun_app nm mbs G ops1 : forall c ops2, colRun nm mbs G c (ops1 ++ ops2) = (do c' <- colRun nm mbs G c ops1; colRun nm mbs G c' ops2).
Proof. induction ops1 as [|o ops IH]; intros c ops2; simpl; [reflexivity|]. destruct (colStep nm mbs G c o) as [c1| |]; simpl; auto. Qed.

(* ------------------------------------------------------------------ *)
(** * Registry *)

Section Run.
Variables (nm : names) (mbs : list multibody) (G : geom).

(** What the pair keeps of its arguments. *)
Definition relS (ph : pairSpec * list cenv) (c : coll) : Prop :=
  let p := fst ph in
  pairWf nm mbs p /\ clId c = psId p /\ clH1 c = psH1 p /\ clH2 c = psH2 p /\ clDi c = psDi p /\ clDs c = psDs p /\ clOff c = psOff p /\
  clBodies c = bodiesOf nm mbs p.

Lemma erase_rel {P : pairSpec * list cenv -> coll -> Prop} id : (forall ph c, P ph c -> clId c = psId (fst ph)) ->
  forall ps l, Forall2 P ps l -> Forall2 P (dropFirst id ps) (fst (eraseId id l)) /\ snd (eraseId id l) = existsb (fun ph => Z.eqb (psId (fst ph)) id) ps.
Proof.
  intros HP ps l F. induction F as [|ph c ps l H F (IH1 & IH2)]; simpl; [auto|]. rewrite (HP _ _ H). destruct (Z.eqb (psId (fst ph)) id); simpl; [auto|].
  destruct (eraseId id l) as (l2 & b). simpl in *. split; auto.
Qed.
Lemma find_rel {P : pairSpec * list cenv -> coll -> Prop} id : (forall ph c, P ph c -> clId c = psId (fst ph)) ->
  forall ps l, Forall2 P ps l -> match find (fun ph => Z.eqb (psId (fst ph)) id) ps, find (fun d => Z.eqb (clId d) id) l with
    | Some ph, Some c => P ph c | None, None => True | _, _ => False end.
Proof.
  intros HP ps l F. induction F as [|ph c ps l H F IH]; simpl; [auto|]. rewrite (HP _ _ H). destruct (Z.eqb (psId (fst ph)) id); auto.
Qed.

Lemma colPair_static d K step tot c h nr w c' h' nr' w' : colPair mbs d G K step tot c h nr w = Ok (c', h', nr', w') ->
  clId c' = clId c /\ clH1 c' = clH1 c /\ clH2 c' = clH2 c /\ clDi c' = clDi c /\ clDs c' = clDs c /\ clOff c' = clOff c /\ clBodies c' = clBodies c.
Proof.
  unfold colPair. cbv zeta. intros H. destruct (Rltb _ _).
  - apply bind_Ok in H as ((k & ty) & _ & H). apply bind_Ok in H as (u & _ & H). apply bind_Ok in H as (B1 & _ & H).
    apply bind_Ok in H as (t & _ & H). apply bind_Ok in H as (A1 & _ & H). apply bind_Ok in H as (w1 & _ & H). injection H as <- <- <- <-. cbn. auto 10.
  - injection H as <- <- <- <-. cbn. auto 10.
Qed.
Lemma colPairs_static d K step tot e : forall l ps h nr w l' h' nr' w', Forall2 relS ps l -> colPairs mbs d G K step tot l h nr w = Ok (l', h', nr', w') ->
  Forall2 relS (map (fun ph => (fst ph, snd ph ++ [e])) ps) l'.
Proof.
  induction l as [|c l IH]; intros ps h nr w l' h' nr' w' F H; inversion F as [|ph ? ps' ? RL F']; subst; simpl in H.
  - injection H as <- <- <- <-. constructor.
  - apply bind_Ok in H as ([[[c1 h1] nr1] w1] & H1 & H). apply bind_Ok in H as ([[[l2 h2] nr2] w2] & H2 & H). injection H as <- <- <- <-. simpl. constructor; [|eauto].
    apply colPair_static in H1 as (A1 & A2 & A3 & A4 & A5 & A6 & A7). unfold relS in *. cbn [fst]. rewrite A1, A2, A3, A4, A5, A6, A7. exact RL.
Qed.
Lemma static_run : forall ops c c' l, Forall2 relS l (coData c) -> colRun nm mbs G c ops = Ok c' -> Forall2 relS (aliveFrom l ops) (coData c').
Proof.
  induction ops as [|o ops IH]; intros c c' l F H; simpl in H; [injection H as <-; auto|].
  apply bind_Ok in H as (c1 & H1 & H). destruct o as [p|id| | |d|d e]; simpl in H1 |- *; (eapply IH; [|exact H]).
  - apply addCollision_Ok in H1 as (W & ->). cbn [with_data coData]. apply Forall2_app; [auto|]. constructor; [|constructor]. unfold relS; cbn. auto 10.
  - injection H1 as <-. unfold rmCollision. pose proof (proj1 (@erase_rel relS id ltac:(intros ph q X; apply X) _ _ F)) as E. destruct (eraseId id (coData c)). exact E.
  - injection H1 as <-. constructor.
  - unfold updateNrCollisions in H1. apply bind_Ok in H1 as (n & _ & H1). injection H1 as <-. exact F.
  - unfold colNrVars, updateNrCollisions in H1. simpl in H1. injection H1 as <-. exact F.
  - apply bind_Ok in H1 as ((c2 & h2) & H1 & E). injection E as <-. unfold colUpdate in H1. apply bind_Ok in H1 as ([[[l2 h3] nr2] w2] & H1 & E). injection E as <- _. cbn [coData].
    eapply colPairs_static; eauto.
Qed.

(** Full relation, when every hull has one owner. *)
Lemma data_run own : forall ops c c' l, (forall p, In p (addsOf ops) -> ownsPair nm mbs own p) -> Forall (fun ph => ownsPair nm mbs own (fst ph)) l ->
  Forall2 (rel nm mbs G) l (coData c) -> colRun nm mbs G c ops = Ok c' ->
  Forall2 (rel nm mbs G) (aliveFrom l ops) (coData c').
Proof.
  induction ops as [|o ops IH]; intros c c' l O OL F H; simpl in H; [injection H as <-; auto|].
  apply bind_Ok in H as (c1 & H1 & H).
  assert (O' : forall p, In p (addsOf ops) -> ownsPair nm mbs own p) by (intros q Hq; apply O; destruct o; simpl; auto).
  destruct o as [p|id| | |d|d e]; simpl in H1 |- *; (eapply IH; [exact O'| | |exact H]).
  - apply Forall_app. split; [auto|]. constructor; [|constructor]. apply O. simpl. auto.
  - apply addCollision_Ok in H1 as (W & ->). cbn [with_data coData]. apply Forall2_app; [auto|]. constructor; [|constructor].
    unfold rel; cbn. repeat (split; [solve [auto]|]). unfold dampRel. cbn. destruct (Rltb 0 (psDamping p)); auto.
  - apply Forall_forall. intros ph Hph. rewrite Forall_forall in OL. apply OL. eapply dropFirst_In; eauto.
  - injection H1 as <-. unfold rmCollision. pose proof (proj1 (@erase_rel (rel nm mbs G) id ltac:(intros [q hq] qq X; apply X) _ _ F)) as E. destruct (eraseId id (coData c)). exact E.
  - constructor.
  - injection H1 as <-. constructor.
  - auto.
  - unfold updateNrCollisions in H1. apply bind_Ok in H1 as (n & _ & H1). injection H1 as <-. exact F.
  - auto.
  - unfold colNrVars, updateNrCollisions in H1. simpl in H1. injection H1 as <-. exact F.
  - rewrite Forall_map. exact OL.
  - apply bind_Ok in H1 as ((c2 & h2) & H1 & E). injection E as <-. unfold colUpdate in H1. apply bind_Ok in H1 as ([[[l2 h3] nr2] w2] & H1 & E). injection E as <- _. cbn [coData].
    eapply colPairs_rel in H1; [apply H1|exact OL|apply hInv_start|exact F].
Qed.

(* ------------------------------------------------------------------ *)
(** * Sizes *)

Lemma bodyRow_dims d K step nf dnf nr y w w' : bodyRow mbs d K step nf dnf nr y w = Ok w' ->
  mrows (rwDist w') = mrows (rwDist w) /\ mcols (rwDist w') = mcols (rwDist w) /\ mrows (rwFull w') = mrows (rwFull w) /\ mcols (rwFull w') = mcols (rwFull w).
Proof.
  intros H. unfold bodyRow in H. cbv zeta in H.
  apply bind_Ok in H as (mb & M & H). apply bind_Ok in H as (dj & D1 & H). apply bind_Ok in H as (small & S1 & H).
  apply bind_Ok in H as (full & F1 & H). apply bind_Ok in H as (blk & B1 & H). apply bind_Ok in H as (sel & S2 & H). apply bind_Ok in H as (beg & BG & H).
  apply bind_Ok in H as (A & HA & H). apply bind_Ok in H as (B & HBv & H). injection H as <-. cbn.
  apply mset_block_Ok in D1 as (_ & _ & D1 & D2 & _). apply fullJacobian_dims in F1 as (F1 & F2). auto.
Qed.
Definition sameDims (w w' : crow) : Prop :=
  mrows (rwDist w') = mrows (rwDist w) /\ mcols (rwDist w') = mcols (rwDist w) /\ mrows (rwFull w') = mrows (rwFull w) /\ mcols (rwFull w') = mcols (rwFull w).
Lemma sameDims_trans a b c : sameDims a b -> sameDims b c -> sameDims a c.
Proof. unfold sameDims. intuition congruence. Qed.
Lemma bodyRows_dims d K step nf dnf nr : forall l w w', bodyRows mbs d K step nf dnf nr l w = Ok w' -> sameDims w w'.
Proof.
  induction l as [|y l IH]; intros w w' H; simpl in H; [injection H as <-; unfold sameDims; auto|].
  apply bind_Ok in H as (w1 & H1 & H). apply bodyRow_dims in H1. apply IH in H. eapply sameDims_trans; eauto.
Qed.
Lemma colPairs_dims d K step tot : forall l h nr w l' h' nr' w', colPairs mbs d G K step tot l h nr w = Ok (l', h', nr', w') -> sameDims w w' /\ length l' = length l.
Proof.
  induction l as [|c l IH]; intros h nr w l' h' nr' w' H; simpl in H.
  - injection H as <- <- <- <-. unfold sameDims. auto 10.
  - apply bind_Ok in H as ([[[c1 h1] nr1] w1] & H1 & H). apply bind_Ok in H as ([[[l2 h2] nr2] w2] & H2 & H). injection H as <- <- <- <-.
    apply IH in H2 as (H2 & L). split; [|simpl; auto]. eapply sameDims_trans; [|exact H2]. clear -H1.
    unfold colPair in H1. cbv zeta in H1. destruct (Rltb _ _).
    + apply bind_Ok in H1 as ((k & ty) & _ & H1). apply bind_Ok in H1 as (u & _ & H1). apply bind_Ok in H1 as (B1 & _ & H1).
      apply bind_Ok in H1 as (t & _ & H1). apply bind_Ok in H1 as (A1 & _ & H1). apply bind_Ok in H1 as (w2 & HR & H1). injection H1 as <- <- <- <-.
      apply bodyRows_dims in HR. exact HR.
    + injection H1 as <- <- <- <-. unfold sameDims. auto.
Qed.

Definition rowsOf (c : collConstr) : crow := mkRow (coDist c) (coFull c) (coA c) (coB c).
Definition dimInv (md : nat) (step : R) (c : collConstr) : Prop :=
  coStep c = step /\ mrows (coDist c) = 1%nat /\ mcols (coDist c) = md /\ mrows (coFull c) = 1%nat /\ mcols (coFull c) = md.
Lemma dim_step md step c o c' : dimInv md step c -> colStep nm mbs G c o = Ok c' -> dimInv md step c'.
Proof.
  intros I H. destruct o as [p|id| | |d|d e]; simpl in H.
  - apply addCollision_Ok in H as (_ & ->). exact I.
  - injection H as <-. unfold rmCollision. destruct (eraseId id (coData c)). exact I.
  - injection H as <-. exact I.
  - unfold updateNrCollisions in H. apply bind_Ok in H as (n & _ & H). injection H as <-. exact I.
  - unfold colNrVars, updateNrCollisions in H. simpl in H. injection H as <-. exact I.
  - apply bind_Ok in H as ((c2 & h2) & H & E). injection E as <-. unfold colUpdate in H. apply bind_Ok in H as ([[[l2 h3] nr2] w2] & H & E). injection E as <- _.
    apply colPairs_dims in H as ((D1 & D2 & D3 & D4) & _). destruct I as (I0 & I1 & I2 & I3 & I4). unfold dimInv; cbn in *. repeat split; congruence.
Qed.
Lemma dim_run md step : forall ops c c', dimInv md step c -> colRun nm mbs G c ops = Ok c' -> dimInv md step c'.
Proof.
  induction ops as [|o ops IH]; intros c c' I H; simpl in H; [injection H as <-; auto|]. apply bind_Ok in H as (c1 & H1 & H). eapply IH; [|eauto]. eapply dim_step; eauto.
Qed.

Variables (d : solverData) (md : nat) (step : R).
Hypothesis HB : forall r mb beg, nth_error mbs r = Some mb -> alphaDBegin d r = Ok beg -> (beg + nrDof mb <= sdTotalAlphaD d)%nat.
Hypothesis TC : (sdTotalAlphaD d <= sdNrVars d)%nat.

Definition szInv (c : collConstr) : Prop :=
  dimInv md step c /\ coTotal c = Some (sdTotalAlphaD d) /\ coVars c = Some (sdNrVars d) /\
  exists rows, wInv md (sdTotalAlphaD d) (sdNrVars d) rows (rowsOf c).
Definition roomy (c : collConstr) : Prop := (length (coData c) <= mrows (coA c))%nat.
Lemma sz_fresh c : dimInv md step c -> wInv md (sdTotalAlphaD d) (sdNrVars d) (length (coData c)) (mkRow (coDist c) (coFull c) (mzero (length (coData c)) (sdNrVars d)) (vfill (length (coData c)) 0)).
Proof. intros (I0 & I1 & I2 & I3 & I4). unfold wInv; cbn. repeat (split; [auto|]). auto. Qed.
Lemma eraseId_length id l : (length (fst (eraseId id l)) <= length l)%nat.
Proof. induction l as [|c l IH]; simpl; [auto|]. destruct (Z.eqb _ _); simpl; [lia|]. destruct (eraseId id l). simpl in *. lia. Qed.
Lemma sz_step c o c' : szInv c -> sameData d o -> colStep nm mbs G c o = Ok c' -> szInv c' /\ (noAdd o -> roomy c -> roomy c').
Proof.
  intros (I & T & V & rows & W) S H. pose proof (dim_step _ _ _ _ _ I H) as I'. destruct o as [p|id| | |d'|d' e]; simpl in H, S; [| | | |tauto|].
  - apply addCollision_Ok in H as (_ & ->). split; [|simpl; tauto]. split; [auto|]. split; [auto|]. split; [auto|]. exists rows. exact W.
  - injection H as <-. unfold rmCollision, roomy in *. pose proof (eraseId_length id (coData c)) as L. destruct (eraseId id (coData c)) as (l2 & b). split; [|cbn in *; lia].
    split; [auto|]. split; [auto|]. split; [auto|]. exists rows. exact W.
  - injection H as <-. split; [|unfold roomy; simpl; lia]. split; [auto|]. split; [auto|]. split; [auto|]. exists rows. exact W.
  - unfold updateNrCollisions in H. rewrite V in H. simpl in H. injection H as <-. split; [|unfold roomy; simpl; lia]. split; [auto|]. cbn [coTotal coVars]. split; [auto|]. split; [auto|].
    exists (length (coData c)). apply sz_fresh; auto.
  - subst d'. apply bind_Ok in H as ((c2 & h2) & H & E). injection E as <-. unfold colUpdate in H. apply bind_Ok in H as ([[[l2 h3] nr2] w2] & H & E). injection E as <- _.
    pose proof (colPairs_dims _ _ _ _ _ _ _ _ _ _ _ _ H) as (_ & L). rewrite T in H. apply (colPairs_keep mbs G d _ _ _ md (sdNrVars d) rows) in H as (W2 & _); auto.
    split.
    + split; [auto|]. cbn [coTotal coVars]. split; [auto|]. split; [auto|]. exists rows. unfold rowsOf; cbn. destruct w2; exact W2.
    + intros _. unfold roomy; cbn. destruct W as (_ & _ & _ & _ & W & _). destruct W2 as (_ & _ & _ & _ & W2 & _). cbn in W. lia.
Qed.
Lemma sz_run : forall ops c c', szInv c -> Forall (sameData d) ops -> colRun nm mbs G c ops = Ok c' -> szInv c' /\ (Forall noAdd ops -> roomy c -> roomy c').
Proof.
  induction ops as [|o ops IH]; intros c c' I F H; simpl in H; [injection H as <-; auto|]. apply bind_Ok in H as (c1 & H1 & H). inversion F as [|? ? F1 F2]; subst.
  destruct (sz_step _ _ _ I F1 H1) as (I1 & R1). destruct (IH _ _ I1 F2 H) as (I2 & R2). split; [auto|]. intros N R. inversion N; subst. auto.
Qed.
Lemma sized_lemma ops c0 c : dimInv md step c0 -> sizedFor d ops -> colRun nm mbs G c0 ops = Ok c -> szInv c /\ roomy c.
Proof.
  intros I0 (pre & post1 & post2 & -> & F & N & P) H. rewrite colRun_app in H. apply bind_Ok in H as (c1 & H1 & H). simpl in H.
  pose proof (dim_run _ _ _ _ _ I0 H1) as I1.
  match type of H with colRun _ _ _ ?c _ = _ => assert (S2 : szInv c /\ roomy c) end.
  { split; [|unfold roomy; simpl; lia]. split; [exact I1|]. cbn [coTotal coVars]. split; [auto|]. split; [auto|]. exists (length (coData c1)). apply sz_fresh; auto. }
  destruct S2 as (S2 & R2). apply Forall_app in F as (F1 & F2). rewrite colRun_app in H. apply bind_Ok in H as (c3 & H3 & H).
  assert (S3 : szInv c3 /\ roomy c3).
  { destruct P as [->|(q & ->)]; [simpl in H3; injection H3 as <-; auto|]. rewrite colRun_app in H3. apply bind_Ok in H3 as (c4 & H4 & H3). simpl in H3.
    apply Forall_app in F1 as (F1 & _). destruct (sz_run _ _ _ S2 F1 H4) as (S4 & _). apply bind_Ok in H3 as (c5 & H5 & H3). injection H3 as <-.
    destruct (sz_step c4 CSizes c5 S4 I H5) as (S5 & _). split; [auto|]. destruct S4 as (_ & _ & V & _). unfold updateNrCollisions in H5. rewrite V in H5. simpl in H5. injection H5 as <-. unfold roomy; simpl; lia. }
  destruct S3 as (S3 & R3). destruct (sz_run _ _ _ S3 F2 H) as (S4 & R4). auto.
Qed.
End Run.
