From Verif Require Import LimitsProofs DamperProofs.
From Verif Require Import LayoutSpec LayoutProofs ContactRowsProofs SetPointFacts SelectorSpec SelectorFacts PostureSpec.
From Coq Require Import Lra.
Open Scope list_scope.
Open Scope R_scope.
Local Arguments sumn : simpl never.
Local Arguments twoSqrt : simpl never.

Lemma qat_Ok v i k a : qat v i k = Ok a -> nth k (nth i v []) 0 = a.
Proof.
  unfold qat. intros H. apply bind_Ok in H as (l & A & B). apply vec_at_nth in A, B. rewrite (nth_error_nth _ _ _ A). apply nth_error_nth; auto.
Qed.
Lemma lpLoop_prefix K q js : forall i pos ev ev', lpLoop K q js i pos ev = Ok ev' -> vlen ev' = vlen ev /\ forall c, (c < pos)%nat -> vget ev' c = vget ev c.
Proof.
  induction js as [|j js IH]; intros i pos ev ev' H; cbn [lpLoop] in H; [injection H as <-; auto|].
  destruct (Nat.eqb (jdof j) 1).
  - apply bind_Ok in H as (a & _ & H). apply bind_Ok in H as (b & _ & H). apply bind_Ok in H as (e1 & P & H). apply vput_Ok in P as (P1 & P2 & P3 & P4). apply IH in H as (A & B). split; [congruence|].
    intros c Hc. rewrite B by lia. apply P4. lia.
  - destruct (Nat.eqb (jdof j) 3).
    + apply bind_Ok in H as (a & _ & H). apply bind_Ok in H as (b & _ & H). apply bind_Ok in H as (a2 & _ & H). apply bind_Ok in H as (a3 & _ & H). apply bind_Ok in H as (e1 & P & H).
      apply vset_seg_Ok in P as (P1 & P2 & P3). apply IH in H as (A & B). split; [congruence|]. intros c Hc. rewrite B by lia. rewrite P3. destruct (inr pos _ c) eqn:E; auto. apply inr_true in E. lia.
    + apply IH in H. auto.
Qed.
Lemma lpLoop_Ok K q js : (forall j, In j js -> jdof j = 0%nat \/ jdof j = 1%nat \/ jdof j = 3%nat) -> forall i pos ev ev', lpLoop K q js i pos ev = Ok ev' ->
  forall m j k, nth_error js m = Some j -> (k < jdof j)%nat -> vget ev' (pos + sumnat (map jdof (firstn m js)) + k)%nat = postureErr q K (i + m) j k.
Proof.
  intros Pl. induction js as [|j js IH]; intros i pos ev ev' H m j' k Hm Hk; [destruct m; discriminate|]. cbn [lpLoop] in H.
  assert (Pl' : forall j, In j js -> jdof j = 0%nat \/ jdof j = 1%nat \/ jdof j = 3%nat) by (intros; apply Pl; cbn; auto). specialize (IH Pl').
  destruct (Nat.eqb (jdof j) 1) eqn:E1.
  - apply bind_Ok in H as (a & Ha & H). apply bind_Ok in H as (b & Hb & H). apply bind_Ok in H as (e1 & P & H). apply vput_Ok in P as (P1 & P2 & P3 & P4). apply Nat.eqb_eq in E1.
    destruct m as [|m].
    + injection Hm as <-. assert (k = 0%nat) as -> by lia. apply lpLoop_prefix in H as (_ & H). replace (pos + sumnat (map jdof (firstn 0 (j :: js))) + 0)%nat with pos by (cbn; lia). rewrite H by lia. rewrite P3.
      unfold postureErr. rewrite E1. cbn [Nat.eqb]. rewrite Nat.add_0_r, (qat_Ok _ _ _ _ Ha), (qat_Ok _ _ _ _ Hb). auto.
    + cbn [nth_error] in Hm. pose proof (IH _ _ _ _ H m j' k Hm Hk) as R. replace (S i + m)%nat with (i + S m)%nat in R by lia. rewrite <- R. f_equal. cbn [firstn map sumnat]. rewrite E1. cbn. lia.
  - destruct (Nat.eqb (jdof j) 3) eqn:E3.
    + apply bind_Ok in H as (a & Ha & H). apply bind_Ok in H as (b & Hb & H). apply bind_Ok in H as (a2 & Ha2 & H). apply bind_Ok in H as (a3 & Ha3 & H). apply bind_Ok in H as (e1 & P & H).
      apply vset_seg_Ok in P as (P1 & P2 & P3). apply Nat.eqb_eq in E3. destruct m as [|m].
      * injection Hm as <-. apply lpLoop_prefix in H as (_ & H). replace (pos + sumnat (map jdof (firstn 0 (j :: js))) + k)%nat with (pos + k)%nat by (cbn; lia). rewrite H by lia. rewrite P3. cbn [vlen vget].
        replace (inr pos 3 (pos + k)) with true by (symmetry; apply inr_true; lia). replace (pos + k - pos)%nat with k by lia. unfold postureErr. rewrite E1, Nat.add_0_r, (qat_Ok _ _ _ _ Ha), (qat_Ok _ _ _ _ Hb), (qat_Ok _ _ _ _ Ha2), (qat_Ok _ _ _ _ Ha3). auto.
      * cbn [nth_error] in Hm. pose proof (IH _ _ _ _ H m j' k Hm Hk) as R. replace (S i + m)%nat with (i + S m)%nat in R by lia. rewrite <- R. f_equal. cbn [firstn map]. change (sumnat (jdof j :: map jdof (firstn m js))) with (jdof j + sumnat (map jdof (firstn m js)))%nat. rewrite E3. lia.
    + assert (E0 : jdof j = 0%nat). { apply Nat.eqb_neq in E1, E3. destruct (Pl j) as [X|[X|X]]; [cbn; auto|auto|congruence|congruence]. }
      destruct m as [|m]; [injection Hm as <-; lia|]. cbn [nth_error] in Hm. pose proof (IH _ _ _ _ H m j' k Hm Hk) as R. replace (S i + m)%nat with (i + S m)%nat in R by lia. rewrite <- R. f_equal. cbn [firstn map].
      change (sumnat (jdof j :: map jdof (firstn m js))) with (jdof j + sumnat (map jdof (firstn m js)))%nat. lia.
Qed.
Lemma posOf1_Ok mb p : posOf1 mb = Ok p -> p = jointPosInDof mb 1 /\ exists j js, joints mb = j :: js /\ js <> [].
Proof.
  unfold posOf1. intros H. apply bind_Ok in H as (u & G & H). injection H as <-. apply guard_Ok, Nat.ltb_lt in G. split; [auto|]. destruct (joints mb) as [|j [|j' js]]; cbn in G; try lia. exists j, (j' :: js). split; [auto|discriminate].
Qed.
Lemma lpUpdate_Ok mb K p p' : lpUpdate mb K p = Ok p' -> lpQ p' = lpQ p /\ lpJac p' = lpJac p /\ vlen (lpEval p') = vlen (lpEval p) /\
  (forall c, (c < jointPosInDof mb 1)%nat -> vget (lpEval p') c = vget (lpEval p) c) /\
  (plainJoints mb -> forall i j k, nth_error (joints mb) (S i) = Some j -> (k < jdof j)%nat -> vget (lpEval p') (jointPosInDof mb (S i) + k)%nat = postureErr (lpQ p) K (S i) j k).
Proof.
  unfold lpUpdate. intros H. apply bind_Ok in H as (pos & P & H). apply bind_Ok in H as (e & L & H). injection H as <-. cbn [lpQ lpJac lpEval]. apply posOf1_Ok in P as (-> & j0 & js & E & _).
  destruct (lpLoop_prefix _ _ _ _ _ _ _ L) as (A & B). split; [auto|]. split; [auto|]. split; [auto|]. split; [auto|]. intros Pl i j k Hj Hk. unfold plainJoints in Pl. rewrite E in *. cbn [tl nth_error] in *.
  change (S i) with (1 + i)%nat. rewrite <- (lpLoop_Ok _ _ _ Pl _ _ _ _ L i j k Hj Hk). f_equal. change (1 + i)%nat with (S i). unfold jointPosInDof. rewrite E. cbn [firstn map]. 
  change (sumnat (jdof j0 :: map jdof (firstn i js))) with (jdof j0 + sumnat (map jdof (firstn i js)))%nat. change (sumnat [jdof j0]) with (jdof j0 + 0)%nat. lia.
Qed.

(** The gradient before the weights. *)
Definition gterm (ev al rv ra : vec R) (c : nat) (g : R * R) : R := - fst g * vget ev c + snd g * (vget al c - vget rv c) - vget ra c.
Lemma poSeg_Ok k d s n ev al rv ra C C' : poSeg k d s n ev al rv ra C = Ok C' -> vlen C' = vlen C /\
  forall c, vget C' c = if inr s n c then gterm ev al rv ra c (k, d) else vget C c.
Proof.
  unfold poSeg. intros H. apply bind_Ok in H as (e & A & H). apply bind_Ok in H as (a & B & H). apply bind_Ok in H as (v & D & H). apply bind_Ok in H as (u & E & H).
  apply vseg_Ok in A as (_ & _ & A), B as (_ & _ & B), D as (_ & _ & D), E as (_ & _ & E). apply vset_seg_Ok in H as (_ & F & G). split; [auto|]. intros c. rewrite G. cbn [vlen vget]. destruct (inr s n c) eqn:I; auto.
  apply inr_true in I. rewrite A, B, D, E. unfold gterm. cbn [fst snd]. replace (s + (c - s))%nat with c by lia. auto.
Qed.
Definition inJD (c : nat) (e : jdata) : bool := inr (jdStart e) (jdSize e) c.
Lemma poSegs_Ok l ev al rv ra : forall C C', poSegs l ev al rv ra C = Ok C' -> vlen C' = vlen C /\
  forall c, vget C' c = fold_left (fun v e => if inJD c e then gterm ev al rv ra c (jdK e, jdD e) else v) l (vget C c).
Proof.
  induction l as [|e l IH]; intros C C' H; cbn [poSegs] in H; [injection H as <-; auto|]. apply bind_Ok in H as (C1 & A & H). apply poSeg_Ok in A as (A & B). apply IH in H as (D & E). split; [congruence|].
  intros c. rewrite E, B. reflexivity.
Qed.
Lemma jointsG_dof mb ov : NoDup (map jname (joints mb)) -> forall es ev al rv ra i j k g, jointsG mb ov = Ok es -> nth_error (joints mb) i = Some j -> (k < jdof j)%nat ->
  let c := (jointPosInDof mb i + k)%nat in
  fold_left (fun v e => if inJD c e then gterm ev al rv ra c (jdK e, jdD e) else v) es (gterm ev al rv ra c g) = gterm ev al rv ra c (gainsOf g ov (jname j)).
Proof.
  intros ND. induction ov as [|(nm, (kk, dd)) ov IH]; intros es ev al rv ra i j k g H Hj Hk c; cbn [jointsG] in H; [injection H as <-; auto|].
  apply bind_Ok in H as (e & A & H). apply bind_Ok in H as (es' & B & H). injection H as <-. unfold jointData in A. apply bind_Ok in A as (i' & A1 & A). apply bind_Ok in A as (j' & A2 & A). injection A as <-. apply vec_at_nth in A2.
  apply indexByName_sound in A1 as A3. destruct A3 as (j2 & A3 & A4). assert (j2 = j') as -> by congruence. cbn [fold_left inJD jdStart jdSize jdK jdD]. unfold gainsOf. cbn [fold_left fst snd].
  destruct (String.eqb nm (jname j)) eqn:E.
  - apply String.eqb_eq in E. assert (i' = i) as ->. { pose proof (indexByName_complete _ _ _ ND Hj) as X. unfold jointIndexByName in A1. rewrite <- E in X. congruence. }
    assert (j' = j) as -> by congruence. replace (inJD c (mkJD kk dd (jointPosInDof mb i) (jdof j))) with true by (symmetry; apply inr_true; cbn; subst c; lia). apply (IH es' ev al rv ra i j k (kk, dd)); auto.
  - assert (X : inJD c (mkJD kk dd (jointPosInDof mb i') (jdof j')) = false).
    { destruct (inJD c _) eqn:I; auto. apply inr_true in I. cbn in I. destruct (isDof_unique mb c j k j' (c - jointPosInDof mb i')) as (Y & _); [exists i; auto|exists i'; repeat split; auto; lia|]. subst j'. rewrite <- A4, String.eqb_refl in E. discriminate. }
    rewrite X. apply (IH es' ev al rv ra i j k g); auto.
Qed.
(** A dof of a joint that is not in the list keeps its value. *)
Lemma jointsG_other mb ov : NoDup (map jname (joints mb)) -> forall es ev al rv ra i j k v, jointsG mb ov = Ok es -> nth_error (joints mb) i = Some j -> (k < jdof j)%nat ->
  (forall o, In o ov -> fst o <> jname j) -> let c := (jointPosInDof mb i + k)%nat in
  fold_left (fun v e => if inJD c e then gterm ev al rv ra c (jdK e, jdD e) else v) es v = v.
Proof.
  intros ND. induction ov as [|(nm, (kk, dd)) ov IH]; intros es ev al rv ra i j k v H Hj Hk Ho c; cbn [jointsG] in H; [injection H as <-; auto|].
  apply bind_Ok in H as (e & A & H). apply bind_Ok in H as (es' & B & H). injection H as <-. unfold jointData in A. apply bind_Ok in A as (i' & A1 & A). apply bind_Ok in A as (j' & A2 & A). injection A as <-. apply vec_at_nth in A2.
  apply indexByName_sound in A1 as A3. destruct A3 as (j2 & A3 & A4). assert (j2 = j') as -> by congruence. cbn [fold_left].
  assert (X : inJD c (mkJD kk dd (jointPosInDof mb i') (jdof j')) = false).
  { destruct (inJD c _) eqn:I; auto. apply inr_true in I. cbn in I. destruct (isDof_unique mb c j k j' (c - jointPosInDof mb i')) as (Y & _); [exists i; auto|exists i'; repeat split; auto; lia|]. subst j'. exfalso. apply (Ho (nm, (kk, dd))); cbn; auto. }
  rewrite X. apply (IH es' ev al rv ra i j k v); auto. intros; apply Ho; cbn; auto.
Qed.
Lemma jointsK_G mb l es : jointsK mb l = Ok es -> jointsG mb (map (fun o : string * R => (fst o, (snd o, 2 * sqrt (snd o)))) l) = Ok es.
Proof.
  revert es. induction l as [|(nm, k) l IH]; intros es H; cbn [jointsK] in H; [auto|]. apply bind_Ok in H as (d & A & H). apply bind_Ok in H as (e & B & H). apply bind_Ok in H as (es' & C & H). injection H as <-.
  apply twoSqrt_Ok in A as (_ & ->). cbn [map fst snd jointsG]. rewrite B. cbn [bind]. rewrite (IH _ C). auto.
Qed.

(** The members after any history. *)
Record poGood (mb : multibody) (r : nat) (q : list (list R)) (g : R * R) (ov : list (string * (R * R))) (rv ra W : vec R) (w : R) (b : nat) (t : posture) : Prop := mkGood {
  pgRobot : poRobot t = r; pgTq : lpQ (poLow t) = q; pgK : poK t = fst g; pgD : poD t = snd g; pgJ : jointsG mb ov = Ok (poJD t); pgRV : poRV t = rv; pgRA : poRA t = ra; pgW : poW t = W;
  pgWeight : poWeight t = w; pgBegin : poBegin t = b; pgC : vlen (poC t) = nrDof mb; pgAl : vlen (poAlpha t) = nrDof mb; pgEv : vlen (lpEval (poLow t)) = nrDof mb;
  pgRoot : forall c, (c < jointPosInDof mb 1)%nat -> vget (lpEval (poLow t)) c = 0; pgJac : lpJac (poLow t) = lpJac (newLP mb []) }.
Lemma poUpdate_Ok mbs K t t' : poUpdate mbs K t = Ok t' -> exists mb low C1 C2, vec_at mbs (poRobot t) = Ok mb /\ lpUpdate mb K (poLow t) = Ok low /\ (length (concat (pfAlpha K)) <= vlen (poAlpha t))%nat /\
  posOf1 mb = Ok (jointPosInDof mb 1) /\
  vlen (poAlpha t') = vlen (poAlpha t) /\ (forall i, vget (poAlpha t') i = nth i (concat (pfAlpha K)) (vget (poAlpha t) i)) /\ diagm (poW t) (lpJac low) = Ok (poQ t') /\
  poSeg (poK t) (poD t) (jointPosInDof mb 1) (nrDof mb - jointPosInDof mb 1) (lpEval low) (poAlpha t') (poRV t) (poRA t) (vfill (vlen (poC t)) 0) = Ok C1 /\
  poSegs (poJD t) (lpEval low) (poAlpha t') (poRV t) (poRA t) C1 = Ok C2 /\ diagv (poW t) C2 = Ok (poC t') /\
  poLow t' = low /\ poK t' = poK t /\ poD t' = poD t /\ poRobot t' = poRobot t /\ poBegin t' = poBegin t /\ poJD t' = poJD t /\ poRV t' = poRV t /\ poRA t' = poRA t /\ poW t' = poW t /\ poWeight t' = poWeight t.
Proof.
  unfold poUpdate. intros H. apply bind_Ok in H as (mb & A & H). apply bind_Ok in H as (low & B & H). apply bind_Ok in H as (al & C & H). apply bind_Ok in H as (Q & D & H). apply bind_Ok in H as (deb & E & H).
  apply bind_Ok in H as (C1 & F & H). apply bind_Ok in H as (C2 & G & H). apply bind_Ok in H as (C3 & I & H). injection H as <-. pose proof E as E'. apply posOf1_Ok in E as (-> & _). apply paramTo_Ok in C as (C & ->).
  exists mb, low, C1, C2. cbn. auto 30.
Qed.
Lemma good_new mbs r q k w mb t : nth_error mbs r = Some mb -> newPost mbs r q k w = Ok t ->
  poGood mb r q (k, 2 * sqrt k) [] (vfill (nrDof mb) 0) (vfill (nrDof mb) 0) (ones (nrDof mb)) w 0 t.
Proof.
  intros Hm H. unfold newPost in H. rewrite (proj2 (vec_at_nth _ _ _) Hm) in H. cbn [bind] in H. apply bind_Ok in H as (d & D & H). injection H as <-. apply twoSqrt_Ok in D as (_ & ->).
  constructor; try reflexivity.
Qed.
Lemma good_step mbs r mb q g ov rv ra W w b t o t' : nth_error mbs r = Some mb -> poGood mb r q g ov rv ra W w b t -> poStep mbs t o = Ok t' ->
  poGood mb r (latest poGiveQ q [o]) (latest poGiveG g [o]) (latest poGiveJ ov [o]) (latest poGiveRV rv [o]) (latest poGiveRA ra [o]) (latest poGiveW W [o]) (latest poGiveWeight w [o]) (latest (poGiveBegin r) b [o]) t'.
Proof.
  intros Hm [] H. unfold latest. destruct o; cbn [poStep] in H; cbn [fold_left poGiveQ poGiveG poGiveJ poGiveRV poGiveRA poGiveW poGiveWeight poGiveBegin].
  - injection H as <-. constructor; auto.
  - apply bind_Ok in H as (d & D & H). injection H as <-. apply twoSqrt_Ok in D as (_ & ->). constructor; auto.
  - injection H as <-. constructor; auto.
  - rewrite pgRobot0, (proj2 (vec_at_nth _ _ _) Hm) in H. cbn [bind] in H. apply bind_Ok in H as (es & E & H). injection H as <-. apply jointsK_G in E. constructor; auto.
  - rewrite pgRobot0, (proj2 (vec_at_nth _ _ _) Hm) in H. cbn [bind] in H. apply bind_Ok in H as (es & E & H). injection H as <-. constructor; auto.
  - injection H as <-. constructor; auto.
  - apply bind_Ok in H as (u & _ & H). injection H as <-. constructor; auto.
  - apply bind_Ok in H as (u & _ & H). injection H as <-. constructor; auto.
  - injection H as <-. constructor; auto.
  - apply bind_Ok in H as (b' & B & H). injection H as <-. rewrite pgRobot0 in B. unfold alphaDBegin in B. apply vec_at_nth in B. rewrite B. constructor; auto.
  - apply poUpdate_Ok in H as (mb' & low & C1 & C2 & A & B & _ & _ & A1 & _ & _ & S1 & S2 & S3 & E1 & E2 & E3 & E4 & E5 & E6 & E7 & E8 & E9 & E10). rewrite pgRobot0 in A. apply vec_at_nth in A. assert (mb' = mb) as -> by congruence.
    apply lpUpdate_Ok in B as (B1 & B2 & B3 & B4 & _). apply poSeg_Ok in S1 as (S1 & _). apply poSegs_Ok in S2 as (S2 & _). apply diagv_Ok in S3 as (_ & S3 & _). cbn in S1. subst low.
    constructor; try congruence. intros c Hc. rewrite B4; auto.
Qed.
Lemma good_run mbs r mb ops : nth_error mbs r = Some mb -> forall q g ov rv ra W w b t t', poGood mb r q g ov rv ra W w b t -> poRun mbs ops t = Ok t' ->
  poGood mb r (latest poGiveQ q ops) (latest poGiveG g ops) (latest poGiveJ ov ops) (latest poGiveRV rv ops) (latest poGiveRA ra ops) (latest poGiveW W ops) (latest poGiveWeight w ops) (latest (poGiveBegin r) b ops) t'.
Proof.
  intros Hm. induction ops as [|o ops IH]; intros q g ov rv ra W w b t t' G H; cbn [poRun] in H; [injection H as <-; exact G|]. apply bind_Ok in H as (t1 & A & H).
  pose proof (IH _ _ _ _ _ _ _ _ _ _ (good_step _ _ _ _ _ _ _ _ _ _ _ _ _ _ Hm G A) H) as X. exact X.
Qed.

Lemma dofs_cover mb c : (c < nrDof mb)%nat -> exists i j k, nth_error (joints mb) i = Some j /\ (k < jdof j)%nat /\ c = (jointPosInDof mb i + k)%nat.
Proof. intros H. destruct (dof_owner mb c H) as (i & jt & k & A & B & C). exists i, jt, k. auto. Qed.
Lemma newLP_jac mb q i j : mget (lpJac (newLP mb q)) i j = if Nat.eqb i j then driven mb i else 0.
Proof.
  unfold newLP, driven. cbn [lpJac mget]. destruct (Nat.eqb i j); auto. destruct (joints mb) as [|j0 js] eqn:E; auto. destruct (isFree j0) eqn:F; [|rewrite andb_false_r; auto].
  assert (0 < nrDof mb)%nat as L. { unfold nrDof. rewrite E. cbn. apply Nat.eqb_eq in F. lia. } apply Nat.ltb_lt in L. rewrite L. auto.
Qed.
(** The cost, whatever the gains and joints. *)
Lemma post_cost mb W Q C w b t x : poWeight t = w -> poBegin t = b -> poQ t = Q -> poC t = C -> diagm W (lpJac (newLP mb [])) = Ok Q -> (exists G, diagv W G = Ok C) ->
  taskCost (postTask t) x = w * sumn (nrDof mb) (fun c => driven mb c * vget W c * x (b + c)%nat ^ 2 / 2 + vget C c * x (b + c)%nat).
Proof.
  intros <- <- <- <- HQ HC. apply diagm_Ok in HQ as (A1 & A2 & A3 & A4). unfold taskCost, postTask. cbn [tkWeight tkQ tkC tkBegin fst snd]. f_equal.
  replace (mrows (lpJac (newLP mb []))) with (nrDof mb) in A2 by reflexivity. replace (mcols (lpJac (newLP mb []))) with (nrDof mb) in A3 by reflexivity. rewrite A2, A3, sumn_plus. f_equal.
  unfold Rdiv. rewrite <- sumn_scal_r. apply sumn_ext. intros i Hi. rewrite (sumn_delta _ i); auto.
  - rewrite A4, newLP_jac, Nat.eqb_refl. field.
  - intros j Hj N. rewrite A4, newLP_jac. destruct (Nat.eqb_spec i j); [congruence|]. ring.
Qed.
Lemma pos1 mb j js : joints mb = j :: js -> jointPosInDof mb 1 = jdof j.
Proof. intros E. unfold jointPosInDof. rewrite E. cbn. lia. Qed.
Lemma pos_ge1 mb i j : nth_error (joints mb) (S i) = Some j -> (jointPosInDof mb 1 <= jointPosInDof mb (S i))%nat.
Proof. intros H. unfold jointPosInDof. destruct (joints mb) as [|j0 js]; [discriminate|]. cbn. lia. Qed.
Lemma driven_cases mb c : (driven mb c = 0 /\ (c < jointPosInDof mb 1)%nat) \/ driven mb c = 1.
Proof.
  unfold driven. destruct (joints mb) as [|j js] eqn:E; auto. destruct (isFree j) eqn:F; cbn [andb]; auto. destruct (Nat.ltb_spec c 6) as [L|L]; auto. left. split; auto. rewrite (pos1 _ _ _ E). apply Nat.eqb_eq in F. lia.
Qed.
Lemma driven_rest mb c : (jointPosInDof mb 1 <= c)%nat -> driven mb c = 1.
Proof. intros H. destruct (driven_cases mb c) as [(_ & X)|X]; auto. lia. Qed.
Lemma post_gradient mbs r mb q g ov rv ra W w b t K t' : nth_error mbs r = Some mb -> NoDup (map jname (joints mb)) -> poGood mb r q g ov rv ra W w b t -> poUpdate mbs K t = Ok t' -> shaped mb (pfAlpha K) ->
  poGood mb r q g ov rv ra W w b t' /\ diagm W (lpJac (newLP mb [])) = Ok (poQ t') /\ exists G, diagv W G = Ok (poC t') /\
  (forall i j k, nth_error (joints mb) i = Some j -> (k < jdof j)%nat -> let c := (jointPosInDof mb i + k)%nat in
    vget G c = match i with
               | 0%nat => if existsb (fun o => String.eqb (fst o) (jname j)) ov then - 0 * fst (gainsOf g ov (jname j)) + snd (gainsOf g ov (jname j)) * (speedOf K i k - vget rv c) - vget ra c else 0
               | S _ => - fst (gainsOf g ov (jname j)) * vget (lpEval (poLow t')) c + snd (gainsOf g ov (jname j)) * (speedOf K i k - vget rv c) - vget ra c
               end) /\
  (plainJoints mb -> forall i j k, nth_error (joints mb) (S i) = Some j -> (k < jdof j)%nat -> vget (lpEval (poLow t')) (jointPosInDof mb (S i) + k)%nat = postureErr q K (S i) j k).
Proof.
  intros Hm ND G U Sh. pose proof (good_step mbs r mb q g ov rv ra W w b t (PoUpdate K) t' Hm G U) as G'. cbn in G'. split; [exact G'|]. destruct G.
  apply poUpdate_Ok in U as (mb' & low & C1 & C2 & A & B & LA & _ & A1 & A2 & DQ & S1 & S2 & S3 & E1 & _). rewrite pgRobot0 in A. apply vec_at_nth in A. assert (mb' = mb) as -> by congruence.
  apply lpUpdate_Ok in B as (B1 & B2 & B3 & B4 & B5). rewrite B2, pgJac0, pgW0 in DQ. split; [exact DQ|]. rewrite pgW0 in S3. exists C2. split; [exact S3|]. rewrite E1, pgTq0 in *. split; [|exact B5].
  intros i j k Hj Hk c. apply poSeg_Ok in S1 as (_ & S1). apply poSegs_Ok in S2 as (_ & S2). rewrite S2, S1. cbn [vget vfill].
  assert (Hn : (c < nrDof mb)%nat). { pose proof (dofBefore_nrDof mb (S i)) as X. rewrite (dofBefore_S _ _ _ Hj) in X. unfold dofBefore in X. subst c. unfold jointPosInDof. lia. }
  assert (Ha : vget (poAlpha t') c = speedOf K i k).
  { rewrite A2. unfold c, jointPosInDof, speedOf. rewrite (nth_concat _ (joints mb) _ _ j _ Sh Hj Hk). apply nth_indep. assert (X : nth_error (map (@length R) (pfAlpha K)) i = Some (jdof j)) by (rewrite Sh; apply map_nth_error; auto).
    rewrite nth_error_map in X. destruct (nth_error (pfAlpha K) i) as [l|] eqn:E; [|discriminate]. cbn in X. injection X as X. rewrite (nth_error_nth _ _ _ E). lia. }
  destruct i as [|i].
  - assert (L : (c < jointPosInDof mb 1)%nat). { destruct (joints mb) as [|j0 js] eqn:E; [discriminate|]. injection Hj as ->. rewrite (pos1 _ _ _ E). subst c. unfold jointPosInDof. cbn. lia. }
    replace (inr (jointPosInDof mb 1) (nrDof mb - jointPosInDof mb 1) c) with false by (symmetry; apply inr_false; lia).
    destruct (existsb _ ov) eqn:Ex.
    + assert (Z : forall ov' es v g1, jointsG mb ov' = Ok es -> existsb (fun o => String.eqb (fst o) (jname j)) ov' = true ->
        fold_left (fun v e => if inJD c e then gterm (lpEval low) (poAlpha t') (poRV t) (poRA t) c (jdK e, jdD e) else v) es v = gterm (lpEval low) (poAlpha t') (poRV t) (poRA t) c (gainsOf g1 ov' (jname j))).
      { clear - ND Hj Hk. induction ov' as [|(nm, (kk, dd)) ov' IH]; intros es v g1 H X; [discriminate|]. cbn [existsb fst] in X. destruct (existsb (fun o => String.eqb (fst o) (jname j)) ov') eqn:Y.
        - cbn [jointsG] in H. apply bind_Ok in H as (e & _ & H). apply bind_Ok in H as (es' & Hes & H). injection H as <-. cbn [fold_left]. unfold gainsOf. cbn [fold_left fst snd]. apply IH; auto.
        - rewrite orb_false_r in X. pose proof H as H'. cbn [jointsG] in H. apply bind_Ok in H as (e & He & H). apply bind_Ok in H as (es' & Hes & H). injection H as <-. unfold jointData in He. apply bind_Ok in He as (i' & A1 & He). apply bind_Ok in He as (j' & A2 & He). injection He as <-.
          apply String.eqb_eq in X. subst nm. pose proof (indexByName_complete _ _ _ ND Hj) as Y1. unfold jointIndexByName in A1. rewrite Y1 in A1. injection A1 as <-. apply vec_at_nth in A2. assert (j' = j) as -> by congruence.
          pose proof (jointsG_dof mb ((jname j, (kk, dd)) :: ov') ND _ (lpEval low) (poAlpha t') (poRV t) (poRA t) 0%nat j k g1 H' Hj Hk) as Z. cbv zeta in Z. cbn [fold_left] in *.
          assert (X : inJD c (mkJD kk dd (jointPosInDof mb 0) (jdof j)) = true) by (apply inr_true; cbn; subst c; lia). fold c in Z. rewrite X in *. exact Z. }
      rewrite (Z _ _ _ g pgJ0 Ex). unfold gterm. rewrite B4, pgRoot0, Ha, pgRV0, pgRA0 by auto. ring.
    + apply (jointsG_other mb ov ND _ _ _ _ _ 0%nat j k _ pgJ0 Hj Hk). intros o Ho E. assert (X : existsb (fun o => String.eqb (fst o) (jname j)) ov = true); [|congruence]. apply existsb_exists. exists o. split; auto. apply String.eqb_eq; auto.
  - pose proof (pos_ge1 _ _ _ Hj) as L. replace (inr (jointPosInDof mb 1) (nrDof mb - jointPosInDof mb 1) c) with true by (symmetry; apply inr_true; subst c; lia).
    rewrite (surjective_pairing g) in *. cbn [fst snd] in pgK0, pgD0. rewrite pgK0, pgD0. pose proof (jointsG_dof mb ov ND _ (lpEval low) (poAlpha t') (poRV t) (poRA t) (S i) j k (fst g, snd g) pgJ0 Hj Hk) as Z. cbv zeta in Z. fold c in Z. rewrite Z.
    unfold gterm. rewrite Ha, pgRV0, pgRA0. reflexivity.
Qed.
Lemma posture_lemma mbs r mb q0 k0 w0 ops t0 t K t' : nth_error mbs r = Some mb -> NoDup (map jname (joints mb)) -> plainJoints mb ->
  newPost mbs r q0 k0 w0 = Ok t0 -> poRun mbs ops t0 = Ok t -> poUpdate mbs K t = Ok t' -> shaped mb (pfAlpha K) ->
  (forall j o, nth_error (joints mb) 0 = Some j -> In o (latest poGiveJ [] ops) -> fst o <> jname j) ->
  exists a, isAsked mb (askedAcc mb k0 ops q0 K) a /\
    costs (postTask t') (latest poGiveWeight w0 ops) (postureCost mb (latest (poGiveBegin r) 0%nat ops) (vget (latest poGiveW (ones (nrDof mb)) ops)) a).
Proof.
  intros Hm ND Pl N Rn U Sh Ho. pose proof (good_run _ _ _ _ Hm _ _ _ _ _ _ _ _ _ _ (good_new _ _ _ _ _ _ _ Hm N) Rn) as G. cbv beta in G.
  destruct (post_gradient _ _ _ _ _ _ _ _ _ _ _ _ _ _ Hm ND G U Sh) as (G' & DQ & C & DC & HC & He). specialize (He Pl).
  set (g := latest poGiveG (k0, 2 * sqrt k0) ops) in *. set (ov := latest poGiveJ [] ops) in *. set (W := latest poGiveW (ones (nrDof mb)) ops) in *. set (b := latest (poGiveBegin r) 0%nat ops) in *.
  exists (fun c => - vget C c). assert (Root : forall c, (c < jointPosInDof mb 1)%nat -> vget C c = 0).
  { intros c Hc. destruct (joints mb) as [|j0 js] eqn:E; [unfold jointPosInDof in Hc; rewrite E in Hc; cbn in Hc; lia|]. rewrite (pos1 _ _ _ E) in Hc. replace c with (jointPosInDof mb 0 + c)%nat by (unfold jointPosInDof; cbn; lia).
    rewrite (HC 0%nat j0 c) by auto. replace (existsb _ ov) with false; auto. symmetry. destruct (existsb _ ov) eqn:X; auto. apply existsb_exists in X as (o & I & X). apply String.eqb_eq in X. exfalso. apply (Ho j0 o); auto. }
  split; [split|].
  - intros c Hc. rewrite Root by auto. ring.
  - intros i j k Hj Hk. rewrite (HC (S i) j k Hj Hk), (He i j k Hj Hk). unfold askedAcc. fold g ov. ring.
  - destruct G'. assert (T : forall x, taskCost (postTask t') x = latest poGiveWeight w0 ops * sumn (nrDof mb) (fun c => driven mb c * vget W c * x (b + c)%nat ^ 2 / 2 + vget (poC t') c * x (b + c)%nat))
      by (intros x; eapply post_cost; eauto).
    intros x y. rewrite !T, <- Rmult_minus_distr_l. f_equal. unfold postureCost. rewrite <- Rmult_minus_distr_l, <- !sumn_minus, <- sumn_scal. apply sumn_ext. intros c Hc.
    apply diagv_Ok in DC as (_ & _ & DC). rewrite DC. destruct (driven_cases mb c) as [(D & L)|D]; rewrite D; [rewrite (Root _ L)|]; field.
Qed.
