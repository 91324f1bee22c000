(** Lemmas about GripperTorqueConstr. *)
From Verif Require Import MotionProofs PlaneProofs LayoutProofs ContactProofs ContactRowsProofs.
From Verif Require Export GripperSpec.
Open Scope list_scope.
Open Scope R_scope.
Local Arguments sumn : simpl never.

Lemma inr_one l i : inr l 1 i = Nat.eqb i l.
Proof. unfold inr. destruct (Nat.eqb_spec i l), (Nat.leb_spec l i), (Nat.ltb_spec i (l + 1)); cbn; try lia; reflexivity. Qed.
Lemma cell_Ok A l c v A' : cell A l c v = Ok A' -> (l < mrows A)%nat /\ (c < mcols A)%nat /\ mrows A' = mrows A /\ mcols A' = mcols A /\
  forall i j, mget A' i j = if (Nat.eqb i l && Nat.eqb j c)%bool then v else mget A i j.
Proof.
  unfold cell. intros H. apply mset_block_Ok in H as (H1 & H2 & H3 & H4 & H5). cbn in *. repeat (split; [lia|]). intros i j. rewrite H5, !inr_one. reflexivity.
Qed.
Lemma cell_def A l c v : (l < mrows A)%nat -> (c < mcols A)%nat -> exists A', cell A l c v = Ok A'.
Proof. intros H1 H2. apply mset_block_def; cbn; lia. Qed.

(** What a contact writes: the magnitudes of the torques of its generators. *)
Definition mags (g : gripper) (p : V3) (gens : list V3) : list R := map (fun v => Rabs (dot (grAxis g) (cross (vsub p (grOrigin g)) v))) gens.
Fixpoint coefs (g : gripper) (pts : list V3) (cones : list cone) : list R :=
  match pts, cones with p :: pts', k :: cones' => mags g p (generators k) ++ coefs g pts' cones' | _, _ => [] end.
Definition rowAt (A A' : mat) (line col : nat) (cs : list R) : Prop :=
  mrows A' = mrows A /\ mcols A' = mcols A /\ (col + length cs <= Nat.max col (mcols A))%nat /\ (cs <> [] -> (line < mrows A)%nat) /\
  forall i j, mget A' i j = if (Nat.eqb i line && inr col (length cs) j)%bool then nth (j - col) cs 0 else mget A i j.

Lemma rowAt_nil A line col : rowAt A A line col [].
Proof. repeat split; cbn; try lia; try congruence. intros i j. unfold inr. destruct (Nat.leb_spec col j), (Nat.ltb_spec j (col + 0)); cbn; try lia; rewrite andb_false_r; reflexivity. Qed.
Lemma rowAt_app A A1 A2 line col c1 c2 : rowAt A A1 line col c1 -> rowAt A1 A2 line (col + length c1) c2 -> rowAt A A2 line col (c1 ++ c2).
Proof.
  intros (H1 & H2 & H3 & H4 & H5) (G1 & G2 & G3 & G4 & G5). repeat split; try congruence.
  - rewrite app_length. rewrite H2 in G3. destruct c2; cbn [length] in *; lia.
  - intros N. destruct c1; [|apply H4; discriminate]. rewrite <- H1. apply G4. destruct c2; [exfalso; apply N; reflexivity|discriminate].
  - intros i j. rewrite G5, H5, app_length. destruct (Nat.eqb i line); cbn; [|reflexivity]. unfold inr.
    destruct (Nat.leb_spec (col + length c1) j), (Nat.ltb_spec j (col + length c1 + length c2)), (Nat.leb_spec col j), (Nat.ltb_spec j (col + length c1)), (Nat.ltb_spec j (col + (length c1 + length c2))); cbn; try lia; try reflexivity.
    + rewrite app_nth2 by lia. f_equal. lia.
    + rewrite app_nth1 by lia. reflexivity.
Qed.
Lemma gripGens_Ok g p : forall gens line col A col' A', gripGens (grAxis g) (vsub p (grOrigin g)) gens line col A = Ok (col', A') ->
  col' = (col + length gens)%nat /\ rowAt A A' line col (mags g p gens).
Proof.
  induction gens as [|v gens IH]; intros line col A col' A'; cbn [gripGens].
  - intros H. injection H as <- <-. split; [cbn; lia|apply rowAt_nil].
  - intros H. apply bind_Ok in H as (A1 & HC & H). apply IH in H as (-> & HR). split; [cbn; lia|].
    change (mags g p (v :: gens)) with ([Rabs (dot (grAxis g) (cross (vsub p (grOrigin g)) v))] ++ mags g p gens).
    apply (rowAt_app A A1 A'); [|cbn [length]; replace (col + 1)%nat with (S col) by lia; exact HR].
    apply cell_Ok in HC as (L1 & L2 & L3 & L4 & L5). repeat split; auto; [cbn; lia|]. intros i j. rewrite L5. cbn [length]. rewrite inr_one.
    destruct (Nat.eqb_spec i line), (Nat.eqb_spec j col); cbn; try reflexivity. subst. rewrite Nat.sub_diag. reflexivity.
Qed.
Lemma gripGens_def ax top : forall gens line col A, (line < mrows A)%nat -> (col + length gens <= mcols A)%nat -> exists r, gripGens ax top gens line col A = Ok r.
Proof.
  induction gens as [|v gens IH]; intros line col A H1 H2; cbn [gripGens]; [eauto|]. cbn in H2.
  destruct (cell_def A line col (Rabs (dot ax (cross top v)))) as (A1 & E); [lia..|]. rewrite E. cbn.
  apply cell_Ok in E as (_ & _ & E1 & E2 & _). apply IH; lia.
Qed.
Lemma gripCones_Ok g pts : forall cones i line col A A', gripCones g pts cones i line col A = Ok A' -> (i + length cones <= Nat.max i (length pts))%nat /\ rowAt A A' line col (coefs g (skipn i pts) cones).
Proof.
  induction cones as [|k cones IH]; intros i line col A A'; cbn [gripCones].
  - intros H. injection H as <-. split; [cbn; lia|]. destruct (skipn i pts); apply rowAt_nil.
  - intros H. apply bind_Ok in H as (p & HP & H). apply bind_Ok in H as ((col' & A1) & HG & H). apply vec_at_Ok in HP.
    apply gripGens_Ok in HG as (-> & R1). apply IH in H as (L & R2). assert (LT : (i < length pts)%nat) by (apply nth_error_Some; congruence).
    split; [cbn [length] in *; lia|]. rewrite (skipn_nth_cons _ _ _ HP). cbn [coefs]. apply (rowAt_app A A1 A'); [exact R1|].
    unfold mags. rewrite map_length. exact R2.
Qed.
Lemma gripCones_def g pts : forall cones i line col A, (line < mrows A)%nat -> (i + length cones <= length pts)%nat ->
  (col + sumnat (sizes cones) <= mcols A)%nat -> exists A', gripCones g pts cones i line col A = Ok A'.
Proof.
  induction cones as [|k cones IH]; intros i line col A H1 H2 H3; cbn [gripCones]; [eauto|]. cbn in H2, H3.
  destruct (vec_at_lt' pts i) as (p & _ & ->); [lia|]. cbn.
  destruct (gripGens_def (grAxis g) (vsub p (grOrigin g)) (generators k) line col A) as ((col' & A1) & E); [lia..|]. rewrite E. cbn.
  apply gripGens_Ok in E as (-> & (E1 & E2 & _)). apply IH; [lia..|]. unfold sizes. lia.
Qed.

(** The row bounds the torque. *)
Lemma coefs_length g : forall pts cones, (length cones <= length pts)%nat -> length (coefs g pts cones) = sumnat (sizes cones).
Proof.
  induction pts as [|p pts IH]; intros [|k cones] H; cbn in *; try reflexivity; [lia|]. rewrite app_length, IH by lia. unfold mags. rewrite map_length. reflexivity.
Qed.
Lemma sumn_app_split (a b : list R) f : sumn (length (a ++ b)) (fun q => nth q (a ++ b) 0 * f q) =
  sumn (length a) (fun q => nth q a 0 * f q) + sumn (length b) (fun q => nth q b 0 * f (length a + q)%nat).
Proof.
  rewrite app_length, sumn_split. f_equal; apply sumn_ext; intros q Hq; [rewrite app_nth1 by lia|rewrite app_nth2 by lia; rewrite (Nat.add_comm (length a) q), Nat.add_sub, (Nat.add_comm q)]; reflexivity.
Qed.
Lemma dot_cross_comb ax r : forall gens y, dot ax (cross r (comb gens y)) = sumn (length gens) (fun q => dot ax (cross r (nth q gens v0)) * y q).
Proof.
  induction gens as [|v gens IH]; intros y; [cbn [comb length]; unfold sumn, dot, cross, v0; cbn; ring|].
  cbn [length comb]. change (S (length gens)) with (1 + length gens)%nat. rewrite sumn_split. cbn [nth]. unfold sumn at 1. cbn [plus nth]. rewrite <- (IH (fun i => y (S i))). unfold dot, cross, vadd, vsc. cbn. ring.
Qed.

Lemma torque_exact g x : forall pts cones pos, (length cones <= length pts)%nat ->
  (forall i p k gen, nth_error pts i = Some p -> nth_error cones i = Some k -> In gen (generators k) -> 0 <= dot (grAxis g) (cross (vsub p (grOrigin g)) gen)) ->
  torqueAbout (grOrigin g) (grAxis g) pts (forces cones x pos) = sumn (length (coefs g pts cones)) (fun q => nth q (coefs g pts cones) 0 * x (pos + q)%nat).
Proof.
  induction pts as [|p pts IH]; intros [|k cones] pos L H; try reflexivity. cbn [forces torqueAbout coefs].
  rewrite sumn_app_split, (IH cones) by (cbn in L; try lia; intros i; apply (H (S i))). rewrite dot_cross_comb. f_equal.
  - unfold mags. rewrite map_length. apply sumn_ext. intros q Hq. rewrite (nth_indep _ 0 (Rabs (dot (grAxis g) (cross (vsub p (grOrigin g)) v0)))) by (rewrite map_length; exact Hq).
    rewrite (map_nth (fun v => Rabs (dot (grAxis g) (cross (vsub p (grOrigin g)) v)))). rewrite Rabs_right; [reflexivity|]. apply Rle_ge.
    apply (H 0%nat p k); auto. apply nth_In. exact Hq.
  - unfold mags. rewrite map_length. apply sumn_ext. intros q _. rewrite Nat.add_assoc. reflexivity.
Qed.
Lemma torque_bound g x : forall pts cones pos, (length cones <= length pts)%nat ->
  (forall q, (q < sumnat (sizes cones))%nat -> 0 <= x (pos + q)%nat) ->
  Rabs (torqueAbout (grOrigin g) (grAxis g) pts (forces cones x pos)) <= sumn (length (coefs g pts cones)) (fun q => nth q (coefs g pts cones) 0 * x (pos + q)%nat).
Proof.
  induction pts as [|p pts IH]; intros [|k cones] pos L H; try (cbn; unfold sumn; rewrite Rabs_R0; lra). cbn [forces torqueAbout coefs].
  rewrite sumn_app_split. eapply Rle_trans; [apply Rabs_triang|]. apply Rplus_le_compat.
  - rewrite dot_cross_comb. eapply Rle_trans; [apply sumn_abs|]. unfold mags. rewrite map_length. apply sumn_le. intros q Hq.
    rewrite (nth_indep _ 0 (Rabs (dot (grAxis g) (cross (vsub p (grOrigin g)) v0)))) by (rewrite map_length; exact Hq).
    rewrite (map_nth (fun v => Rabs (dot (grAxis g) (cross (vsub p (grOrigin g)) v)))). rewrite Rabs_mult, (Rabs_right (x _)); [lra|]. apply Rle_ge, H. cbn. lia.
  - eapply Rle_trans; [apply IH; [cbn in L; lia|]|].
    + intros q Hq. rewrite <- Nat.add_assoc. apply H. cbn. fold (sizes cones). lia.
    + right. unfold mags. rewrite map_length. apply sumn_ext. intros q _. rewrite Nat.add_assoc. reflexivity.
Qed.

(** The contact of a gripper. *)
Definition hasContact (bi : list bilateral) (g : gripper) : bool := existsb (fun b => if cid_dec (bId b) (grId g) then true else false) bi.
Lemma cid_eqb_dec a b : cid_eqb a b = if cid_dec a b then true else false.
Proof. destruct (cid_dec a b) as [E|E]; [apply cid_eqb_true; exact E|]. destruct (cid_eqb a b) eqn:X; [apply cid_eqb_true in X; contradiction|reflexivity]. Qed.
Lemma gripContacts_Ok d g line A B : forall bs pre found A' B', sdBi d = pre ++ bs -> (forall b, In b pre -> bId b <> grId g) ->
  gripContacts d g bs (length pre) line A B = Ok (found, A', B') ->
  found = hasContact bs g /\
  if found then exists k b col, contactOf (sdBi d) g k b /\ lambdaBeginAt d (k + length (sdUni d)) = Ok col /\
      (length (bR1Cones b) <= length (bR1Points b))%nat /\ rowAt A A' line col (coefs g (bR1Points b) (bR1Cones b)) /\
      (line < vlen B)%nat /\ vlen B' = vlen B /\ forall i, vget B' i = if Nat.eqb i line then grLimit g else vget B i
  else A' = A /\ B' = B.
Proof.
  induction bs as [|bc bs IH]; intros pre found A' B' E NP; cbn [gripContacts].
  - intros H. injection H as <- <- <-. auto.
  - unfold hasContact. cbn [existsb]. rewrite cid_eqb_dec. destruct (cid_dec (bId bc) (grId g)) as [EQ|NE]; cbn [orb].
    + intros H. apply bind_Ok in H as (col & HC & H). apply bind_Ok in H as (A1 & HA & H). apply bind_Ok in H as (B1 & HB & H). injection H as <- <- <-. split; [reflexivity|].
      exists (length pre), bc, col. apply gripCones_Ok in HA as (L & R1). apply vput_at in HB as (V1 & V2 & V3). repeat (split; [solve [auto]|]). split; [|auto].
      * split; [rewrite E, nth_error_app2, Nat.sub_diag by lia; reflexivity|]. split; [exact EQ|]. intros k' b' Hk HN. apply NP. rewrite E, nth_error_app1 in HN by exact Hk. apply nth_error_In in HN. exact HN.
      * split; [exact HC|]. split; [lia|]. split; [exact R1|]. auto.
    + intros H. replace (S (length pre)) with (length (pre ++ [bc])) in H by (rewrite app_length; cbn; lia). apply IH in H.
      * exact H.
      * rewrite <- app_assoc. exact E.
      * intros b HB. apply in_app_or in HB as [HB|[<-|[]]]; auto.
Qed.

Section Layout.
Context (mbs : list multibody) (uni : list unilateral) (bi : list bilateral) (d : solverData) (deps : list dep).
Hypothesis HN : nrVarsData mbs uni bi = Ok (d, deps).
Hypothesis HP : Forall (fun b => length (bR1Cones b) = length (bR1Points b)) bi.

Lemma data_uni : sdUni d = uni. Proof. apply nrVarsData_spec in HN. tauto. Qed.
Lemma data_bi : sdBi d = bi. Proof. apply nrVarsData_spec in HN. tauto. Qed.
Lemma contact_segment k b : nth_error bi k = Some b -> exists col, lambdaBeginAt d (k + length uni) = Ok col /\ (col + sumnat (sizes (bR1Cones b)) <= sdNrVars d)%nat.
Proof.
  intros Hb. pose proof (nrVarsData_spec _ _ _ _ _ HN) as (W & E1 & E2 & L1 & L2 & Ta & Tu & Tb & Tl & Nv & Eu & Eb & Ea & T1 & T2 & _).
  assert (LB : (k < length bi)%nat) by (apply nth_error_Some; congruence).
  destruct (vec_at_lt' (sdLambdaBegin d) (k + length uni)) as (col & Hc & Hc'); [lia|]. exists col. split; [exact Hc'|].
  assert (HL : nth_error (sdLambda d) (k + length uni) = Some (biLambdaCount b)).
  { rewrite E2, nth_error_app2; rewrite map_length; [|lia]. rewrite Nat.add_sub. apply nth_error_map_some. exact Hb. }
  pose proof (tiles_nth_ge _ _ _ _ _ _ T2 (proj2 (nth_error_combine _ _ _ _ _) (conj Hc HL))) as (_ & H).
  unfold biLambdaCount in H. rewrite Forall_forall in HP. apply nth_error_In in Hb. rewrite <- (HP b Hb), firstn_all in H. exact H.
Qed.

Lemma gripContacts_def g line A B : forall bs pre, bi = pre ++ bs -> (line < mrows A)%nat -> mcols A = sdNrVars d -> (line < vlen B)%nat ->
  exists r, gripContacts d g bs (length pre) line A B = Ok r.
Proof.
  induction bs as [|bc bs IH]; intros pre E H1 H2 H3; cbn [gripContacts]; [eauto|]. destruct (cid_eqb (bId bc) (grId g)).
  - rewrite data_uni. destruct (contact_segment (length pre) bc) as (col & EC & LC); [rewrite E, nth_error_app2, Nat.sub_diag by lia; reflexivity|].
    rewrite EC. cbn. destruct (gripCones_def g (bR1Points bc) (bR1Cones bc) 0 line col A) as (A1 & E1); [auto| |lia|].
    + rewrite Forall_forall in HP. cbn. rewrite (HP bc); [lia|]. rewrite E. apply in_or_app. right. left. reflexivity.
    + rewrite E1. cbn. destruct (vput_def' B line (grLimit g) H3) as (B1 & E2). rewrite E2. cbn. eauto.
  - replace (S (length pre)) with (length (pre ++ [bc])) by (rewrite app_length; cbn; lia). apply IH; auto. rewrite <- app_assoc. exact E.
Qed.

(** Row [i] belongs to [g]. *)
Definition rowOf (A' : mat) (B' : vec R) (A : mat) (i : nat) (g : gripper) : Prop :=
  exists k b col, contactOf bi g k b /\ lambdaBeginAt d (k + length uni) = Ok col /\ (length (bR1Cones b) <= length (bR1Points b))%nat /\
    vget B' i = grLimit g /\ (col + length (coefs g (bR1Points b) (bR1Cones b)) <= Nat.max col (mcols A'))%nat /\
    forall j, mget A' i j = if inr col (length (coefs g (bR1Points b) (bR1Cones b))) j then nth (j - col) (coefs g (bR1Points b) (bR1Cones b)) 0 else mget A i j.
Lemma gripLoop_Ok : forall gs line A B A' B', gripLoop d gs line A B = Ok (A', B') ->
  mrows A' = mrows A /\ mcols A' = mcols A /\ vlen B' = vlen B /\
  (forall k g, nth_error (gripped bi gs) k = Some g -> rowOf A' B' A (line + k) g) /\
  (forall i, (i < line)%nat \/ (line + length (gripped bi gs) <= i)%nat -> vget B' i = vget B i /\ forall j, mget A' i j = mget A i j).
Proof.
  induction gs as [|g gs IH]; intros line A B A' B'; cbn [gripLoop].
  - intros H. injection H as <- <-. repeat (split; [reflexivity|]). split; [intros [|k]; discriminate|auto].
  - intros H. apply bind_Ok in H as (((fnd & A1) & B1) & HC & H). rewrite data_bi in HC.
    apply (gripContacts_Ok d g line A B bi []) in HC as (EF & HC); [|rewrite data_bi; reflexivity|intros b []].
    apply IH in H as (R1 & R2 & R3 & ROWS & KEEP). unfold gripped. cbn [filter]. fold (hasContact bi g). rewrite <- EF. destruct fnd.
    + destruct HC as (k0 & b & col & CO & LB & LC & (Q1 & Q2 & Q3 & Q4 & Q5) & V1 & V2 & V3). rewrite data_bi in CO. rewrite data_uni in LB.
      repeat (split; [congruence|]). split.
      * intros [|k] g' Hk.
        -- cbn in Hk. injection Hk as <-. exists k0, b, col. rewrite Nat.add_0_r. destruct (KEEP line) as (K1 & K2); [left; lia|].
           repeat (split; [solve [auto]|]). split; [rewrite K1, V3, Nat.eqb_refl; reflexivity|]. split; [rewrite R2, Q2; exact Q3|].
           intros j. rewrite K2, Q5, Nat.eqb_refl. reflexivity.
        -- cbn in Hk. destruct (ROWS k g' Hk) as (k1 & b1 & col1 & C1 & C2 & C3 & C4 & C5 & C6). exists k1, b1, col1.
           replace (line + S k)%nat with (S line + k)%nat by lia. repeat (split; [solve [auto]|]). intros j. rewrite C6, Q5.
           destruct (Nat.eqb_spec (S line + k) line); [lia|]. reflexivity.
      * cbn [length]. intros i Hi. destruct (KEEP i) as (K1 & K2); [unfold gripped, hasContact in *; lia|].
        rewrite K1, V3. destruct (Nat.eqb_spec i line); [lia|]. split; [reflexivity|]. intros j. rewrite K2, Q5. destruct (Nat.eqb_spec i line); [lia|]. reflexivity.
    + destruct HC as (-> & ->). repeat (split; [assumption|]). exact KEEP.
Qed.
Lemma gripped_le gs : (length (gripped bi gs) <= length gs)%nat.
Proof. induction gs as [|g gs IH]; cbn; [lia|]. destruct (existsb _ bi); cbn; unfold gripped in IH; lia. Qed.
Lemma gripLoop_def : forall gs line A B, (line + length gs <= mrows A)%nat -> mcols A = sdNrVars d -> vlen B = mrows A -> exists r, gripLoop d gs line A B = Ok r.
Proof.
  induction gs as [|g gs IH]; intros line A B H1 H2 H3; cbn [gripLoop]; [eauto|]. cbn in H1. rewrite data_bi.
  destruct (gripContacts_def g line A B bi []) as (((fnd & A1) & B1) & E); [reflexivity|lia|exact H2|lia|]. cbn [length] in E. rewrite E. cbn.
  apply (gripContacts_Ok d g line A B bi []) in E as (_ & HC); [|rewrite data_bi; reflexivity|intros b []]. destruct fnd.
  - destruct HC as (_ & b & col & _ & _ & _ & (Q1 & Q2 & _) & _ & V2 & _). apply IH; [lia|congruence|congruence].
  - destruct HC as (-> & ->). apply IH; [lia|congruence|congruence].
Qed.

Lemma gripAfter_run : forall ops c c' l, gcData c = l -> gRun c ops = Ok c' -> gcData c' = gripsFrom l ops.
Proof.
  induction ops as [|o ops IH]; intros c c' l E; cbn [gRun gripsFrom].
  - intros H. injection H as <-. exact E.
  - intros H. apply bind_Ok in H as (c1 & HS & H). destruct o; cbn [gStep] in HS; try (injection HS as <-).
    + apply (IH _ _ (l ++ [g])) in H; [exact H|]. cbn. rewrite E. reflexivity.
    + apply (IH _ _ (dropGrip id l)) in H; [exact H|]. rewrite <- E. unfold rmGripper. destruct (eraseGrip id (gcData c)) as (l2, b0) eqn:X. cbn. clear - X.
      revert l2 b0 X. induction (gcData c) as [|g l0 IH]; intros l2 b0; cbn; [intros X; injection X as <- <-; reflexivity|]. rewrite cid_eqb_dec. destruct (cid_dec (grId g) id).
      * intros X; injection X as <- <-; reflexivity.
      * destruct (eraseGrip id l0) as (l3, b1). intros X; injection X as <- <-. f_equal. eapply IH; reflexivity.
    + apply (IH _ _ []) in H; [exact H|]. reflexivity.
    + unfold gripNrVars in HS. apply bind_Ok in HS as ((A & B) & _ & HS). injection HS as <-. apply (IH _ _ l) in H; [exact H|exact E].
    + apply (IH _ _ l) in H; [exact H|exact E].
Qed.

Lemma gRun_app : forall o1 o2 c, gRun c (o1 ++ o2) = do c' <- gRun c o1; gRun c' o2.
Proof. induction o1 as [|o o1 IH]; intros o2 c; [reflexivity|]. cbn. destruct (gStep c o); cbn; auto. Qed.
Lemma gRun_ups n : forall c, gRun c (repeat GUp n) = Ok c.
Proof. induction n as [|n IH]; intros c; cbn; auto. Qed.

(** The rows. *)
Lemma grip_rows ops c : gSized d ops -> gRun newGrip ops = Ok c ->
  iqNr (gripInEq c) = length (gripsAfter ops) /\ mrows (iqA (gripInEq c)) = length (gripsAfter ops) /\ mcols (iqA (gripInEq c)) = sdNrVars d /\
  vlen (iqB (gripInEq c)) = length (gripsAfter ops) /\
  (forall k g, nth_error (gripped bi (gripsAfter ops)) k = Some g -> exists kc b pos, contactOf bi g kc b /\ lambdaBeginAt d (length uni + kc) = Ok pos /\
     forall x, (forall i, (sdTotalAlphaD d <= i < sdNrVars d)%nat -> 0 <= x i) ->
       (holdsRow (sdNrVars d) x (gripInEq c) k -> Rabs (gripTorque g b x pos) <= grLimit g) /\
       (forwardOnly g b -> gripTorque g b x pos <= grLimit g -> holdsRow (sdNrVars d) x (gripInEq c) k)) /\
  (forall k x, (length (gripped bi (gripsAfter ops)) <= k < length (gripsAfter ops))%nat -> holdsRow (sdNrVars d) x (gripInEq c) k).
Proof.
  intros (pre & n & ->) H. pose proof (gripAfter_run _ newGrip _ [] eq_refl H) as EL. rewrite gRun_app in H. apply bind_Ok in H as (c0 & H0 & H). cbn [gRun gStep] in H.
  apply bind_Ok in H as (c1 & HG & H). rewrite gRun_ups in H. injection H as <-. fold (gripsAfter (pre ++ GNr d :: repeat GUp n)) in EL. rewrite <- EL. clear EL.
  unfold gripNrVars in HG. apply bind_Ok in HG as ((A & B) & HL & HG). injection HG as <-. cbn [gcData gripInEq iqNr iqA iqB gcA gcB vlen vmap].
  apply gripLoop_Ok in HL as (R1 & R2 & R3 & ROWS & KEEP). cbn in R1, R2, R3. repeat (split; [solve [auto]|]). split.
  - intros k g Hk. destruct (ROWS k g Hk) as (kc & b & col & CO & LB & LC & HB & HS & HA). cbn in HA, HB. exists kc, b, col. split; [exact CO|]. rewrite Nat.add_comm. split; [exact LB|].
    intros x POS. assert (Hb : nth_error bi kc = Some b) by apply CO. destruct (contact_segment kc b Hb) as (col' & E1 & E2). rewrite LB in E1. injection E1 as <-.
    assert (GE : (sdTotalAlphaD d <= col)%nat).
    { pose proof (nrVarsData_spec _ _ _ _ _ HN) as (W & E1 & E3 & L1 & L2 & Ta & Tu & Tb & Tl & Nv & Eu & Eb & Ea & T1 & T2 & _).
      assert (HLm : nth_error (sdLambda d) (kc + length uni) = Some (biLambdaCount b)).
      { rewrite E3, nth_error_app2; rewrite map_length; [|lia]. rewrite Nat.add_sub. apply nth_error_map_some. exact Hb. }
      apply vec_at_Ok in LB. pose proof (tiles_nth_ge _ _ _ _ _ _ T2 (proj2 (nth_error_combine _ _ _ _ _) (conj LB HLm))). lia. }
    rewrite <- (coefs_length g (bR1Points b)) in E2 by exact LC.
    unfold holdsRow. cbn [gripInEq iqA iqB gcA gcB vget vmap ele]. rewrite HB.
    assert (SUM : sumn (sdNrVars d) (fun j => mget A k j * x j) = sumn (length (coefs g (bR1Points b) (bR1Cones b))) (fun q => nth q (coefs g (bR1Points b) (bR1Cones b)) 0 * x (col + q)%nat)).
    { rewrite (sumn_window _ col (length (coefs g (bR1Points b) (bR1Cones b)))); [|exact E2|].
      - apply sumn_ext. intros q Hq. rewrite HA. unfold inr. destruct (Nat.leb_spec col (col + q)), (Nat.ltb_spec (col + q) (col + length (coefs g (bR1Points b) (bR1Cones b)))); try lia. cbn. rewrite Nat.add_comm, Nat.add_sub, Nat.add_comm. reflexivity.
      - intros i _ Hi. rewrite HA. unfold inr. destruct (Nat.leb_spec col i), (Nat.ltb_spec i (col + length (coefs g (bR1Points b) (bR1Cones b)))); try lia; cbn; ring. }
    rewrite SUM. split.
    + intros HR. eapply Rle_trans; [|exact HR]. apply torque_bound; [exact LC|]. intros q Hq. apply POS. rewrite <- (coefs_length g (bR1Points b)) in Hq by exact LC. lia.
    + intros FW HR. rewrite <- (torque_exact g x (bR1Points b) (bR1Cones b) col LC FW). exact HR.
  - intros k x Hk. destruct (KEEP k) as (K1 & K2); [lia|]. unfold holdsRow. cbn [gripInEq iqA iqB gcA gcB vget vmap ele]. rewrite K1. cbn.
    rewrite sumn_0; [lra|]. intros i _. rewrite K2. cbn. ring.
Qed.
(** updateNrVars is always defined. *)
Lemma grip_defined c : exists c', gripNrVars d c = Ok c'.
Proof.
  unfold gripNrVars. destruct (gripLoop_def (gcData c) 0 (mzero (length (gcData c)) (sdNrVars d)) (vfill (length (gcData c)) 0)) as ((A & B) & E); [cbn; lia|reflexivity|reflexivity|]. rewrite E. cbn. eauto.
Qed.
(** descInEq. *)
Lemma gripped_all gs : (forall g, In g gs -> exists b, In b bi /\ bId b = grId g) -> gripped bi gs = gs.
Proof.
  induction gs as [|g gs IH]; intros H; [reflexivity|]. unfold gripped. cbn [filter]. destruct (H g) as (b & HB & HE); [left; reflexivity|].
  replace (existsb _ bi) with true. - f_equal. apply IH. intros g' Hg. apply H. right. exact Hg.
  - symmetry. apply existsb_exists. exists b. split; [exact HB|]. destruct (cid_dec _ _); [reflexivity|contradiction].
Qed.
Lemma grip_desc ops c : gRun newGrip ops = Ok c ->
  (forall g, In g (gripsAfter ops) -> exists b, In b bi /\ bId b = grId g) ->
  forall k g, nth_error (gripped bi (gripsAfter ops)) k = Some g -> gripDesc c k = Ok (r1Body (grId g), r2Body (grId g), grLimit g).
Proof.
  intros H ALL k g. rewrite gripped_all by exact ALL. unfold gripDesc. rewrite (gripAfter_run _ newGrip _ [] eq_refl H). fold (gripsAfter ops).
  intros Hk. apply vec_at_Ok in Hk. rewrite Hk. reflexivity.
Qed.
Lemma erase_found id : forall l, snd (eraseGrip id l) = true <-> In id (map grId l).
Proof.
  induction l as [|g l IH]; cbn; [split; [discriminate|tauto]|]. rewrite cid_eqb_dec. destruct (cid_dec (grId g) id) as [E|E]; [tauto|].
  destruct (eraseGrip id l) as (l2, b). cbn in *. rewrite IH. tauto.
Qed.
Lemma grip_registry ops c : gRun newGrip ops = Ok c -> iqMax (gripInEq c) = length (gripsAfter ops) /\ gcData c = gripsAfter ops /\
  forall id, snd (rmGripper id c) = true <-> In id (map grId (gripsAfter ops)).
Proof.
  intros H. pose proof (gripAfter_run _ newGrip _ [] eq_refl H) as E. fold (gripsAfter ops) in E. cbn. rewrite <- E. split; [reflexivity|]. split; [reflexivity|]. intros id. rewrite <- erase_found.
  unfold rmGripper. destruct (eraseGrip id (gcData c)). reflexivity.
Qed.
End Layout.
