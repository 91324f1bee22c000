(** What the updates do to the data of the pairs. *)
From Verif Require Export CollisionSpec ContactLinesProofs.
Open Scope list_scope.
Open Scope R_scope.
Local Arguments sumn : simpl never.

Lemma toPoint_eq K p b : toPoint K p b = bodyCoord (pPosW K (bR b) (bBody b)) p.
Proof. unfold toPoint, bodyCoord, pt_mul, pt_inv, pt_trans. cbn [ptr ptE]. rewrite m3tr_tr. destruct (pPosW K (bR b) (bBody b)) as [E r]; cbn [ptE ptr]. v3. Qed.

(** Data of one side. *)
Definition sideBCD (nm : names) (mbs : list multibody) (r : nat) (b : string) (o : nat) (X : PT) (sel : vec R) : list bcd :=
  if movable mbs r then [mkBCD o (pathOf nm r b) X r (bodyIdx nm r b) sel] else [].
Definition bodiesOf (nm : names) (mbs : list multibody) (p : pairSpec) : list bcd :=
  sideBCD nm mbs (psR1 p) (psB1 p) (psH1 p) (psX1 p) (psSel1 p) ++ sideBCD nm mbs (psR2 p) (psB2 p) (psH2 p) (psX2 p) (sel2 p).
(** Bodies with their points and signs at an update. *)
Definition pointsAt (nm : names) (mbs : list multibody) (G : geom) (p : pairSpec) (e : cenv) : list (bcd * V3 * R) :=
  withPoints (eK e) (pW1 nm mbs G p e) (pW2 nm mbs G p e) (bodiesOf nm mbs p).
(** The rate that the code computes. *)
Definition codeRate (nm : names) (mbs : list multibody) (G : geom) (p : pairSpec) (e : cenv) : R :=
  dot (diffVel (eK e) (pointsAt nm mbs G p e)) (pNormal nm mbs G p e).

(** A side that was accepted by addCollision. *)
Definition sideWf (nm : names) (mbs : list multibody) (r : nat) (b : string) (sel : vec R) : Prop :=
  exists mb, nth_error mbs r = Some mb /\
    (movable mbs r = true -> nPath nm r b = Ok (pathOf nm r b) /\ nBodyIndex nm r b = Ok (bodyIdx nm r b) /\ (vlen sel = 0%nat \/ vlen sel = nrDof mb)).
Definition pairWf (nm : names) (mbs : list multibody) (p : pairSpec) : Prop :=
  sideWf nm mbs (psR1 p) (psB1 p) (psSel1 p) /\ sideWf nm mbs (psR2 p) (psB2 p) (sel2 p).

Lemma addBody_Ok nm mbs r b o X chk sel l : addBody nm mbs r b o X chk sel = Ok l ->
  l = sideBCD nm mbs r b o X sel /\ exists mb, nth_error mbs r = Some mb /\
    (movable mbs r = true -> nPath nm r b = Ok (pathOf nm r b) /\ nBodyIndex nm r b = Ok (bodyIdx nm r b) /\ (vlen chk = 0%nat \/ vlen chk = nrDof mb)).
Proof.
  unfold addBody, sideBCD, movable. intros H. apply bind_Ok in H as (mb & E & H). apply vec_at_Ok in E. rewrite E.
  destruct (0 <? nrDof mb)%nat eqn:P.
  - apply bind_Ok in H as (u & Gd & H). apply guard_Ok in Gd. apply bind_Ok in H as (pa & Pa & H). apply bind_Ok in H as (bi & Bi & H). injection H as <-.
    split; [unfold pathOf, bodyIdx; rewrite Pa, Bi; reflexivity|]. exists mb. split; [reflexivity|]. intros _. split; [unfold pathOf; rewrite Pa; auto|].
    split; [unfold bodyIdx; rewrite Bi; auto|]. apply orb_true_iff in Gd as [Gd|Gd]; apply Nat.eqb_eq in Gd; auto.
  - injection H as <-. split; [reflexivity|]. exists mb. split; [reflexivity|]. discriminate.
Qed.
Lemma addCollision_Ok nm mbs p c c' : addCollision nm mbs p c = Ok c' -> pairWf nm mbs p /\
  c' = with_data c (coData c ++ [mkColl (psId p) (psH1 p) (psH2 p) (2 * psDi p) v0 (psDi p) (psDs p) (psDamping p) (bodiesOf nm mbs p)
            (if Rltb 0 (psDamping p) then DHard else DFree) (psOff p)]).
Proof.
  unfold addCollision. intros H. apply bind_Ok in H as (b1 & H1 & H). apply bind_Ok in H as (b2 & H2 & H). injection H as <-.
  apply addBody_Ok in H1 as (-> & mb1 & M1 & W1). apply addBody_Ok in H2 as (-> & mb2 & M2 & W2). split; [|reflexivity]. split.
  - exists mb1. split; auto.
  - exists mb2. split; [auto|]. intros V. destruct (W2 V) as (A & B & C). split; [auto|]. split; [auto|]. unfold sel2.
    destruct (Nat.eqb (psR1 p) (psR2 p)) eqn:E; [|auto]. apply Nat.eqb_eq in E. rewrite E in *. assert (mb1 = mb2) as -> by congruence. apply W1; auto.
Qed.

(* ------------------------------------------------------------------ *)
(** * Hulls *)

(** Pose of a hull given its owner. *)
Definition hPose (own : nat -> option (nat * nat * PT)) (e : cenv) (o : nat) : PT :=
  match own o with Some (r, b, X) => pt_mul X (pPosW (eK e) r b) | None => eH e o end.
Definition ownsPair nm mbs (own : nat -> option (nat * nat * PT)) (p : pairSpec) : Prop :=
  own (psH1 p) = ownerOf nm mbs (psR1 p) (psB1 p) (psX1 p) /\ own (psH2 p) = ownerOf nm mbs (psR2 p) (psB2 p) (psX2 p).
Lemma hPose1 nm mbs own p e : ownsPair nm mbs own p -> hPose own e (psH1 p) = pose1 nm mbs p e.
Proof. intros (H & _). unfold hPose, pose1, sidePose. rewrite H. unfold ownerOf. destruct (movable _ _); reflexivity. Qed.
Lemma hPose2 nm mbs own p e : ownsPair nm mbs own p -> hPose own e (psH2 p) = pose2 nm mbs p e.
Proof. intros (_ & H). unfold hPose, pose2, sidePose. rewrite H. unfold ownerOf. destruct (movable _ _); reflexivity. Qed.

(** Every hull is where it was or where its owner puts it. *)
Definition hInv (own : nat -> option (nat * nat * PT)) (e : cenv) (h : hulls) : Prop :=
  forall o, h o = hPose own e o \/ (own o <> None /\ h o = eH e o).
Lemma hInv_start own e : hInv own e (eH e).
Proof. intros o. unfold hPose. destruct (own o) eqn:E; [right; split; congruence|left; reflexivity]. Qed.

Lemma moveHulls_other K bs : forall h o, (forall b, In b bs -> bHull b <> o) -> moveHulls K bs h o = h o.
Proof.
  induction bs as [|b bs IH]; intros h o H; simpl; [auto|]. rewrite IH by (intros; apply H; simpl; auto).
  unfold setHull. rewrite (proj2 (Nat.eqb_neq _ _)); [auto|]. intros ->. apply (H b); simpl; auto.
Qed.
Lemma moveHulls_in own e bs : (forall b, In b bs -> own (bHull b) = Some (bR b, bBody b, bX b)) ->
  forall h o, (exists b, In b bs /\ bHull b = o) \/ h o = hPose own e o -> moveHulls (eK e) bs h o = hPose own e o.
Proof.
  induction bs as [|b bs IH]; intros HO h o H; simpl; [destruct H as [(b & [] & _)|H]; auto|].
  apply IH; [intros; apply HO; simpl; auto|]. destruct (Nat.eq_dec o (bHull b)) as [->|N].
  - right. unfold setHull. rewrite Nat.eqb_refl. unfold hPose. rewrite (HO b) by (simpl; auto). reflexivity.
  - destruct H as [(b' & [->|I] & E)|H]; [congruence|left; eauto|]. right. unfold setHull. rewrite (proj2 (Nat.eqb_neq _ _) N). auto.
Qed.
Lemma bodiesOf_own nm mbs own p : ownsPair nm mbs own p -> forall b, In b (bodiesOf nm mbs p) -> own (bHull b) = Some (bR b, bBody b, bX b).
Proof.
  intros (H1 & H2) b I. unfold bodiesOf, sideBCD in I. apply in_app_or in I as [I|I]; unfold ownerOf in *.
  - destruct (movable mbs (psR1 p)); [|destruct I]. destruct I as [<-|[]]. simpl. auto.
  - destruct (movable mbs (psR2 p)); [|destruct I]. destruct I as [<-|[]]. simpl. auto.
Qed.
Lemma moveHulls_inv nm mbs own e p h : ownsPair nm mbs own p -> hInv own e h ->
  let h' := moveHulls (eK e) (bodiesOf nm mbs p) h in
  hInv own e h' /\ h' (psH1 p) = pose1 nm mbs p e /\ h' (psH2 p) = pose2 nm mbs p e /\ (forall o, h o = hPose own e o -> h' o = hPose own e o).
Proof.
  intros O I h'. pose proof (bodiesOf_own _ _ _ _ O) as HO.
  assert (KEEP : forall o, h o = hPose own e o -> h' o = hPose own e o) by (intros o Ho; unfold h'; apply moveHulls_in; auto).
  assert (W : forall o, (exists b, In b (bodiesOf nm mbs p) /\ bHull b = o) -> h' o = hPose own e o) by (intros o Ho; unfold h'; apply moveHulls_in; auto).
  split; [|split; [|split; [|exact KEEP]]].
  - intros o. destruct (in_dec Nat.eq_dec o (map bHull (bodiesOf nm mbs p))) as [J|J].
    + left. apply W. apply in_map_iff in J as (b & E & J). eauto.
    + destruct (I o) as [Ho|(N & Ho)]; [left; auto|]. right. split; [auto|]. unfold h'. rewrite moveHulls_other; auto. intros b Hb <-. apply J. apply in_map. auto.
  - rewrite <- (hPose1 _ _ _ _ e O). destruct (movable mbs (psR1 p)) eqn:M.
    + apply W. exists (mkBCD (psH1 p) (pathOf nm (psR1 p) (psB1 p)) (psX1 p) (psR1 p) (bodyIdx nm (psR1 p) (psB1 p)) (psSel1 p)). split; [|reflexivity].
      unfold bodiesOf, sideBCD. rewrite M. simpl. auto.
    + destruct (I (psH1 p)) as [Ho|(N & Ho)]; [auto|]. exfalso. apply N. destruct O as (O & _). rewrite O. unfold ownerOf. rewrite M. auto.
  - rewrite <- (hPose2 _ _ _ _ e O). destruct (movable mbs (psR2 p)) eqn:M.
    + apply W. exists (mkBCD (psH2 p) (pathOf nm (psR2 p) (psB2 p)) (psX2 p) (psR2 p) (bodyIdx nm (psR2 p) (psB2 p)) (sel2 p)). split; [|reflexivity].
      unfold bodiesOf, sideBCD. rewrite M. apply in_or_app. right. simpl. auto.
    + destruct (I (psH2 p)) as [Ho|(N & Ho)]; [auto|]. exfalso. apply N. destruct O as (_ & O). rewrite O. unfold ownerOf. rewrite M. auto.
Qed.

(* ------------------------------------------------------------------ *)
(** * Damping *)

Lemma entered_now {A} (P : A -> Prop) hs e : P e -> (hs = [] \/ exists q pre, hs = pre ++ [q] /\ ~ P q) -> entered P (hs ++ [e]) e.
Proof. intros HP H. exists hs, []. split; [auto|]. split; [constructor; auto|]. destruct H as [->|(q & pre & -> & N)]; [auto|]. right. eauto. Qed.
Lemma entered_stay {A} (P : A -> Prop) hs e e' : entered P hs e -> P e' -> entered P (hs ++ [e']) e.
Proof.
  intros (pre & post & -> & F & N) HP. exists pre, (post ++ [e']). rewrite <- app_assoc. split; [auto|]. split; [|auto].
  inversion F; subst. constructor; [auto|]. apply Forall_app. auto.
Qed.
Lemma entered_uniq {A} (P : A -> Prop) hs e e' : entered P hs e -> entered P hs e' -> e = e'.
Proof.
  assert (G : forall pre1 post1 pre2 post2 (a b : A), pre1 ++ a :: post1 = pre2 ++ b :: post2 -> Forall P (a :: post1) -> Forall P (b :: post2) ->
    (pre1 = [] \/ exists q pre', pre1 = pre' ++ [q] /\ ~ P q) -> (pre2 = [] \/ exists q pre', pre2 = pre' ++ [q] /\ ~ P q) -> (length pre1 <= length pre2)%nat -> a = b).
  { intros pre1 post1 pre2 post2 a b E F1 F2 N1 N2 L. destruct (Nat.eq_dec (length pre1) (length pre2)) as [EQ|NE].
    - assert (pre1 = pre2 /\ a :: post1 = b :: post2) as (_ & H); [|congruence].
      apply (f_equal (firstn (length pre1))) in E as E1. rewrite firstn_app, Nat.sub_diag, firstn_all, firstn_O, app_nil_r in E1.
      rewrite EQ, firstn_app, Nat.sub_diag, firstn_all, firstn_O, app_nil_r in E1. subst. split; auto. eapply app_inv_head; eauto.
    - destruct N2 as [->|(q & pre' & -> & N)]; [simpl in L, NE; lia|]. exfalso. apply N.
      assert (I : In q (a :: post1)); [|rewrite Forall_forall in F1; auto].
      apply (f_equal (fun l => nth_error l (length pre'))) in E. rewrite <- app_assoc in E. rewrite (nth_error_app2 pre') in E by lia.
      rewrite Nat.sub_diag in E. cbn [nth_error app] in E. rewrite app_length in NE, L. simpl in NE, L. rewrite nth_error_app2 in E by lia. apply nth_error_In in E. auto. }
  intros (pre1 & post1 & -> & F1 & N1) (pre2 & post2 & E & F2 & N2).
  destruct (Nat.le_ge_cases (length pre1) (length pre2)); [eapply G; eauto|]. symmetry. eapply G; eauto.
Qed.
Lemma entered_last {A} (P : A -> Prop) hs e : P e -> (forall a, P a \/ ~ P a) -> exists e0, entered P (hs ++ [e]) e0.
Proof.
  intros HP D. revert e HP. induction hs as [|q hs IH] using rev_ind; intros e HP.
  - exists e. apply (entered_now P []); auto.
  - destruct (D q) as [Q|Q].
    + destruct (IH q Q) as (e0 & E). exists e0. apply entered_stay; auto.
    + exists e. apply entered_now; [auto|]. right. eauto.
Qed.

Section Rel.
Variables (nm : names) (mbs : list multibody) (G : geom).
Let near_ := near nm mbs G.
Let dist_ := pDist nm mbs G.

Definition dampRel (p : pairSpec) (hs : list cenv) (c : coll) : Prop :=
  if Rltb 0 (psDamping p) then clType c = DHard /\ clDamping c = psDamping p
  else match rev hs with
       | [] => clType c = DFree
       | e :: _ => if nearb nm mbs G p e then clType c = DSoft /\ inForce nm mbs G (codeRate nm mbs G) p hs (clDamping c) else clType c = DFree
       end.
Definition rel (ph : pairSpec * list cenv) (c : coll) : Prop :=
  let (p, hs) := ph in
  pairWf nm mbs p /\ clId c = psId p /\ clH1 c = psH1 p /\ clH2 c = psH2 p /\ clDi c = psDi p /\ clDs c = psDs p /\ clOff c = psOff p /\
  clBodies c = bodiesOf nm mbs p /\ clN c = lastNormal nm mbs G p hs /\ dampRel p hs c.

Lemma sdist_root s : sdist s = signedRoot s.
Proof.
  unfold sdist, signedRoot. destruct (Rle_dec 0 s), (Rlt_dec s 0); try lra; [rewrite Rabs_right by lra|rewrite Rabs_left by lra]; reflexivity.
Qed.
Lemma colDamping_Ok K l di ds off n dist k : colDamping K l di ds off n dist = Ok k -> k = entryDamping di ds off dist (dot (diffVel K l) n).
Proof.
  unfold colDamping, entryDamping. intros H. apply bind_Ok in H as (u & _ & H). injection H as <-. destruct (Rle_dec dist ds); [|reflexivity].
  replace (ds + (di - ds) * (2 / 10) - ds) with ((di - ds) * (2 / 10)) by ring. reflexivity.
Qed.

(** One pair: what update computes first. *)
Lemma pair_view own p hs c e h : ownsPair nm mbs own p -> hInv own e h -> rel (p, hs) c ->
  let h' := moveHulls (eK e) (clBodies c) h in
  hInv own e h' /\ (forall o, h o = hPose own e o -> h' o = hPose own e o) /\
  h' (psH1 p) = hPose own e (psH1 p) /\ h' (psH2 p) = hPose own e (psH2 p) /\
  sdist (gDist2 G (clH1 c) (clH2 c) (h' (clH1 c)) (h' (clH2 c))) = dist_ p e /\
  gP1 G (clH1 c) (clH2 c) (h' (clH1 c)) (h' (clH2 c)) = pW1 nm mbs G p e /\
  gP2 G (clH1 c) (clH2 c) (h' (clH1 c)) (h' (clH2 c)) = pW2 nm mbs G p e.
Proof.
  intros O I (_ & _ & R1 & R2 & _ & _ & _ & RB & _) h'. unfold h'. rewrite RB.
  destruct (moveHulls_inv nm mbs own e p h O I) as (A & B & C & D). cbv zeta in *.
  rewrite R1, R2, B, C. split; [auto|]. split; [auto|]. rewrite (hPose1 _ _ _ _ e O), (hPose2 _ _ _ _ e O), sdist_root. repeat split; reflexivity.
Qed.

Lemma lastNormal_snoc p hs e : lastNormal nm mbs G p (hs ++ [e]) = pNormal nm mbs G p e.
Proof. unfold lastNormal. rewrite rev_app_distr. reflexivity. Qed.
Lemma rev_snoc {A} (l : list A) a : rev (l ++ [a]) = a :: rev l.
Proof. rewrite rev_app_distr. reflexivity. Qed.
Lemma nearb_true p e : nearb nm mbs G p e = true <-> near_ p e.
Proof. apply Rltb_true. Qed.
Lemma nearb_false p e : nearb nm mbs G p e = false <-> ~ near_ p e.
Proof. unfold nearb, near_, near. rewrite Rltb_false. split; lra. Qed.

Lemma damp_next p hs c e k ty : dampRel p hs c -> near_ p e ->
  (match clType c with DFree => k = entryDamping (psDi p) (psDs p) (psOff p) (dist_ p e) (codeRate nm mbs G p e) /\ ty = DSoft | t => k = clDamping c /\ ty = t end) ->
  inForce nm mbs G (codeRate nm mbs G) p (hs ++ [e]) k /\
  forall c', clType c' = ty -> clDamping c' = k -> dampRel p (hs ++ [e]) c'.
Proof.
  unfold dampRel. intros D N H. destruct (Rltb 0 (psDamping p)) eqn:P.
  - destruct D as (D1 & D2). rewrite D1 in H. destruct H as (-> & ->). rewrite D2. apply Rltb_true in P. split; [left; auto|]. auto.
  - apply Rltb_false in P. rewrite rev_snoc. rewrite (proj2 (nearb_true p e) N).
    assert (F : clType c = DFree -> (hs = [] \/ exists q pre, hs = pre ++ [q] /\ ~ near_ p q)).
    { intros T. destruct (rev hs) as [|q rh] eqn:E; [left; apply (f_equal (@rev _)) in E; rewrite rev_involutive in E; auto|].
      right. exists q, (rev rh). split; [apply (f_equal (@rev _)) in E; rewrite rev_involutive in E; simpl in E; auto|].
      destruct (nearb nm mbs G p q) eqn:B; [destruct D; congruence|]. apply nearb_false; auto. }
    destruct (clType c) eqn:T.
    + destruct (rev hs) as [|q rh]; [discriminate|]. destruct (nearb nm mbs G p q); [destruct D as (D & _)|]; discriminate.
    + destruct H as (-> & ->). destruct (rev hs) as [|q rh] eqn:E; [discriminate|]. destruct (nearb nm mbs G p q); [|discriminate]. destruct D as (_ & D).
      assert (IF : inForce nm mbs G (codeRate nm mbs G) p (hs ++ [e]) (clDamping c)).
      { destruct D as [D|(_ & e0 & EN & EX)]; [left; auto|]. right. split; [auto|]. exists e0. split; [apply entered_stay; auto|auto]. }
      split; [auto|]. intros c' -> ->. auto.
    + destruct H as (-> & ->).
      assert (IF : inForce nm mbs G (codeRate nm mbs G) p (hs ++ [e]) (entryDamping (psDi p) (psDs p) (psOff p) (dist_ p e) (codeRate nm mbs G p e))).
      { right. split; [auto|]. exists e. split; [|reflexivity]. apply entered_now; auto. }
      split; [auto|]. intros c' -> ->. auto.
Qed.
Lemma damp_away p hs c e c' : dampRel p hs c -> ~ near_ p e ->
  clType c' = match clType c with DSoft => DFree | t => t end -> clDamping c' = clDamping c -> dampRel p (hs ++ [e]) c'.
Proof.
  unfold dampRel. intros D N H1 H2. destruct (Rltb 0 (psDamping p)) eqn:P.
  - destruct D as (D1 & D2). rewrite D1 in H1. split; congruence.
  - rewrite rev_snoc. rewrite (proj2 (nearb_false p e) N). rewrite H1. destruct (rev hs) as [|q rh]; [rewrite D; auto|].
    destruct (nearb nm mbs G p q); [destruct D as (-> & _)|rewrite D]; auto.
Qed.

Lemma colPair_rel own d step total p hs c e h nr w c' h' nr' w' :
  ownsPair nm mbs own p -> hInv own e h -> rel (p, hs) c -> colPair mbs d G (eK e) step total c h nr w = Ok (c', h', nr', w') ->
  rel (p, hs ++ [e]) c' /\ hInv own e h' /\ (forall o, h o = hPose own e o -> h' o = hPose own e o) /\
  h' (psH1 p) = hPose own e (psH1 p) /\ h' (psH2 p) = hPose own e (psH2 p).
Proof.
  intros O I RL H. destruct (pair_view own p hs c e h O I RL) as (V1 & V2 & V3 & V4 & V5 & V6 & V7). cbv zeta in *.
  unfold colPair in H. cbv zeta in H. rewrite V5, V6, V7 in H.
  destruct RL as (R0 & R1 & R2 & R3 & R4 & R5 & R6 & R7 & R8 & R9).
  assert (P : rel (p, hs ++ [e]) c' /\ h' = moveHulls (eK e) (clBodies c) h).
  { rewrite R4, R5, R6, R7 in H. fold (pointsAt nm mbs G p e) in H. fold (pNormal nm mbs G p e) in H. rewrite R7.
    destruct (Rltb (dist_ p e) (psDi p)) eqn:B.
    - apply Rltb_true in B. apply bind_Ok in H as ((k & ty) & HD & H). apply bind_Ok in H as (u & _ & H). apply bind_Ok in H as (B1 & _ & H).
      apply bind_Ok in H as (tot & _ & H). apply bind_Ok in H as (A1 & _ & H). apply bind_Ok in H as (w1 & _ & H). injection H as <- <- <- <-. split; [|reflexivity].
      assert (HT : match clType c with DFree => k = entryDamping (psDi p) (psDs p) (psOff p) (dist_ p e) (codeRate nm mbs G p e) /\ ty = DSoft | t => k = clDamping c /\ ty = t end).
      { destruct (clType c); [injection HD as <- <-; auto|injection HD as <- <-; auto|]. apply bind_Ok in HD as (k' & HD & E). injection E as <- <-.
        apply colDamping_Ok in HD. split; [exact HD|reflexivity]. }
      destruct (damp_next p hs c e k ty R9 B HT) as (_ & DN).
      split; [exact R0|]. cbn [clId clH1 clH2 clDi clDs clOff clBodies clN]. repeat (split; [solve [auto]|]). rewrite lastNormal_snoc. split; [reflexivity|]. apply DN; reflexivity.
    - assert (N : ~ near_ p e) by (apply nearb_false; exact B). injection H as <- <- <- <-. split; [|reflexivity].
      split; [exact R0|]. cbn [clId clH1 clH2 clDi clDs clOff clBodies clN]. repeat (split; [solve [auto]|]). rewrite lastNormal_snoc. split; [reflexivity|].
      eapply damp_away; eauto. }
  destruct P as (P & ->). auto.
Qed.

Lemma colPairs_rel own d step total e : forall l ps h nr w l' h' nr' w',
  Forall (fun ph => ownsPair nm mbs own (fst ph)) ps -> hInv own e h -> Forall2 rel ps l ->
  colPairs mbs d G (eK e) step total l h nr w = Ok (l', h', nr', w') ->
  Forall2 rel (map (fun ph => (fst ph, snd ph ++ [e])) ps) l' /\ hInv own e h' /\ (forall o, h o = hPose own e o -> h' o = hPose own e o) /\
  Forall (fun ph => h' (psH1 (fst ph)) = hPose own e (psH1 (fst ph)) /\ h' (psH2 (fst ph)) = hPose own e (psH2 (fst ph))) ps.
Proof.
  induction l as [|c l IH]; intros ps h nr w l' h' nr' w' O I F H; inversion F as [|[p hs] ? ps' ? RL F']; subst; simpl in H.
  - injection H as <- <- <- <-. simpl. split; [constructor|]. split; [auto|]. split; [auto|]. constructor.
  - inversion O as [|? ? O1 O2]; subst. simpl in O1. apply bind_Ok in H as ([[[c1 h1] nr1] w1] & H1 & H). apply bind_Ok in H as ([[[l2 h2] nr2] w2] & H2 & H).
    injection H as <- <- <- <-. destruct (colPair_rel own d step total p hs c e h nr w c1 h1 nr1 w1 O1 I RL H1) as (A1 & A2 & A3 & A4 & A5).
    destruct (IH ps' h1 nr1 w1 l2 h2 nr2 w2 O2 A2 F' H2) as (B1 & B2 & B3 & B4). simpl.
    split; [constructor; auto|]. split; [auto|]. split; [auto|]. constructor; auto.
Qed.
End Rel.
