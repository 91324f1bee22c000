(** Lemmas about DamperJointLimitsConstr. *)
From Verif Require Export LimitsProofs.
Open Scope list_scope.
Open Scope R_scope.

(** ** Entering a zone *)
Lemma entered_unique l u inter z : forall hs e e', enteredWith l u inter z hs e -> enteredWith l u inter z hs e' -> e = e'.
Proof.
  assert (W : forall (pre1 : list (R * R)) e1 post1 pre2 e2 post2, pre1 ++ e1 :: post1 = pre2 ++ e2 :: post2 ->
     Forall (fun qa => zoneOf l u inter (fst qa) = z) (e1 :: post1) ->
     (pre2 = [] \/ exists p pre', pre2 = pre' ++ [p] /\ zoneOf l u inter (fst p) <> z) -> (length pre2 <= length pre1)%nat).
  { intros pre1 e1 post1 pre2 e2 post2 E F [->|(p & pre' & -> & N)]; [simpl; lia|].
    destruct (Nat.le_gt_cases (length (pre' ++ [p])) (length pre1)) as [L|L]; [auto|]. exfalso. apply N.
    rewrite app_length in L. simpl in L.
    assert (P : nth_error (pre1 ++ e1 :: post1) (length pre') = Some p).
    { rewrite E, <- app_assoc. rewrite nth_error_app2 by lia. rewrite Nat.sub_diag. reflexivity. }
    rewrite nth_error_app2 in P by lia. apply nth_error_In in P. rewrite Forall_forall in F. apply (F p P). }
  intros hs e e' (p1 & q1 & E1 & F1 & B1) (p2 & q2 & E2 & F2 & B2).
  assert (E : p1 ++ e :: q1 = p2 ++ e' :: q2) by congruence.
  pose proof (W _ _ _ _ _ _ E F1 B2). pose proof (W _ _ _ _ _ _ (eq_sym E) F2 B1).
  assert (L : length p1 = length p2) by lia. clear - E L.
  revert p2 E L. induction p1 as [|a p1 IH]; intros [|b p2] E L; simpl in *; try discriminate; [injection E; auto|].
  injection E as _ E. apply (IH p2); auto.
Qed.
Lemma entered_now l u inter hs q al z : zoneOf l u inter q = z -> (hs = [] \/ exists p hs', hs = hs' ++ [p] /\ zoneOf l u inter (fst p) <> z) ->
  enteredWith l u inter z (hs ++ [(q, al)]) (q, al).
Proof. intros Z H. exists hs, []. split; [auto|]. split; [repeat constructor; auto|auto]. Qed.
Lemma entered_stay l u inter hs q al z e : zoneOf l u inter q = z -> enteredWith l u inter z hs e -> enteredWith l u inter z (hs ++ [(q, al)]) e.
Proof.
  intros Z (pre & post & -> & F & B). exists pre, (post ++ [(q, al)]). split; [rewrite <- app_assoc; reflexivity|]. split; [|auto].
  inversion F; subst. constructor; auto. apply Forall_app. split; auto.
Qed.

(** ** One joint *)
Record dInv (l u vl vu : ext) (inter secu off : R) (hs : list (R * R)) (d : damp) : Prop := {
  diMin : dpMin d = l; diMax : dpMax d = u; diVl : dpMinVel d = vl; diVu : dpMaxVel d = vu;
  diFin : forall a b, l = Fin a -> u = Fin b ->
    dpI d = Fin ((b - a) * inter) /\ dpS d = Fin ((b - a) * secu) /\
    (hs = [] -> dpState d = Free) /\
    (forall pre q al, hs = pre ++ [(q, al)] -> dpState d = zoneOf a b inter q) /\
    (dpState d <> Free -> exists e, enteredWith a b inter (dpState d) hs e /\ dpDamping d = damping_ a b inter secu off (dpState d) e);
  diInf : (l = NInf \/ l = PInf \/ u = NInf \/ u = PInf) -> forall y, dpI d <> Fin y }.

Lemma velBound vl vu al dt x : 0 < dt -> (between (edivr (eaddr vl (- al)) dt) x (edivr (eaddr vu (- al)) dt) <-> between vl (al + dt * x) vu).
Proof.
  intros H. unfold between. rewrite edivr_pos_le, edivr_pos_ge, eaddr_le, eaddr_ge by auto.
  replace (dt * x - - al) with (al + dt * x) by ring. tauto.
Qed.
Lemma damperIn_Ok off al st z dm di ii ss r : damperIn off al st z dm di ii ss = Ok r ->
  exists d i s, di = Fin d /\ ii = Fin i /\ ss = Fin s /\ i <> s /\
    fst r = (if match st, z with Low, Low | Upp, Upp | Free, Free => true | _, _ => false end then dm else Rabs (((i - s) / (d - s)) * al) + off) /\
    (st <> z -> d <> s) /\ snd r = fst r * ((d - s) / (i - s)).
Proof.
  unfold damperIn. intros H. apply bind_Ok in H as (d & D & H). apply bind_Ok in H as (i & I & H). apply bind_Ok in H as (s & S & H).
  destruct di; try discriminate. destruct ii; try discriminate. destruct ss; try discriminate.
  injection D as ->. injection I as ->. injection S as ->.
  apply bind_Ok in H as (k & K & H). apply bind_Ok in H as (w & W & H). injection H as <-.
  unfold computeDamper in W. apply bind_Ok in W as ([] & G & W). apply guard_Ok in G. apply negb_true_iff in G. apply Reqb_false in G. injection W as <-.
  exists d, i, s. repeat (split; [solve [auto]|]). split; [lra|]. cbn [fst snd].
  assert (CD : forall k, (do k0 <- computeDamping al d i s; Ok (Rabs k0 + off)) = Ok k -> d <> s /\ k = Rabs (((i - s) / (d - s)) * al) + off).
  { intros k' Q. unfold computeDamping in Q. apply bind_Ok in Q as (v & Q & Q'). apply bind_Ok in Q as ([] & G' & Q). apply guard_Ok in G'.
    apply negb_true_iff in G'. apply Reqb_false in G'. injection Q as <-. injection Q' as <-. split; [lra|auto]. }
  destruct st, z; try (injection K as ->; split; [auto|split; [congruence|auto]]);
    apply CD in K as (N & ->); (split; [auto|split; [auto|auto]]).
Qed.
Lemma eltb_Fin a b : eltb (Fin a) (Fin b) = if Rlt_dec a b then true else false.
Proof. reflexivity. Qed.

Lemma dampStep_ok l u vl vu inter secu off hs d dt q al d' lo up : 0 < dt ->
  dInv l u vl vu inter secu off hs d -> dampStep off dt q al d = Ok (d', lo, up) ->
  dInv l u vl vu inter secu off (hs ++ [(q, al)]) d' /\ dpJoint d' = dpJoint d /\ dpPos d' = dpPos d /\
  forall x, between lo x up <-> between vl (al + dt * x) vu /\ damperOk l u inter secu off (hs ++ [(q, al)]) (al + dt * x).
Proof.
  intros Hdt [M1 M2 M3 M4 FI IF] H. unfold dampStep in H. rewrite M1, M2, M3, M4 in H.
  apply bind_Ok in H as (ld & LD & H). apply bind_Ok in H as (ud & UD & H).
  assert (NF : (l = NInf \/ l = PInf \/ u = NInf \/ u = PInf) ->
     d' = mkDamp l u vl vu (dpI d) (dpS d) (dpJoint d) (dpPos d) (dpDamping d) Free /\ lo = edivr (eaddr vl (- al)) dt /\ up = edivr (eaddr vu (- al)) dt).
  { intros C. specialize (IF C). destruct (eltb ld (dpI d)) eqn:EL.
    - apply bind_Ok in H as ((dm & w) & D & H). apply damperIn_Ok in D as (? & i & ? & _ & D & _). destruct (IF i D).
    - destruct (eltb ud (dpI d)) eqn:EU.
      + apply bind_Ok in H as ((dm & w) & D & H). apply damperIn_Ok in D as (? & i & ? & _ & D & _). destruct (IF i D).
      + injection H as <- <- <-. auto. }
  assert (CASE : (l = NInf \/ l = PInf \/ u = NInf \/ u = PInf) \/ exists a b, l = Fin a /\ u = Fin b).
  { destruct l; auto. destruct u; auto. right. eauto. }
  destruct CASE as [C|(a & b & -> & ->)].
  - destruct (NF C) as (-> & -> & ->). split; [|split; [reflexivity|split; [reflexivity|]]].
    + constructor; simpl; auto. intros a b -> ->. exfalso. intuition discriminate.
    + intros x. rewrite velBound by auto. assert (damperOk l u inter secu off (hs ++ [(q, al)]) (al + dt * x)).
      { unfold damperOk. destruct l; auto. destruct u; auto. exfalso. intuition discriminate. }
      tauto.
  - clear NF IF. destruct (FI a b eq_refl eq_refl) as (I1 & I2 & S1 & S2 & S3). injection LD as <-. injection UD as <-. rewrite I1, I2 in H.
    rewrite !eltb_Fin in H.
    assert (PREV : forall z, dpState d <> z -> z <> Free -> hs = [] \/ exists p hs', hs = hs' ++ [p] /\ zoneOf a b inter (fst p) <> z).
    { intros z N NFr. destruct hs as [|p0 hs0] using rev_ind; [auto|]. right. exists p0, hs0. split; [auto|]. destruct p0 as [q0 a0]. cbn [fst]. rewrite <- (S2 _ _ _ eq_refl). auto. }
    assert (LASTQ : forall pre q0 a0, hs ++ [(q, al)] = pre ++ [(q0, a0)] -> q0 = q /\ a0 = al).
    { intros pre q0 a0 E. apply app_inj_tail in E as (_ & E). injection E; auto. }
    set (I := (b - a) * inter) in *. set (S := (b - a) * secu) in *.
    destruct (Rlt_dec (q - a) I) as [ZL|ZL].
    + assert (Z : zoneOf a b inter q = Low) by (unfold zoneOf; fold I; destruct (Rlt_dec (q - a) I); [auto|lra]).
      apply bind_Ok in H as ((dm & w) & D & H). injection H as <- <- <-.
      destruct (damperIn_Ok _ _ _ _ _ _ _ _ _ D) as (d0 & i0 & s0 & E1 & E2 & E3 & NE & DM & DS & W). cbn [fst snd] in DM, W.
      injection E1 as <-. injection E2 as <-. injection E3 as <-.
      assert (EN : exists e, enteredWith a b inter Low (hs ++ [(q, al)]) e /\ dm = damping_ a b inter secu off Low e).
      { destruct (dpState d) eqn:ST.
        - destruct S3 as (e & E & K); [congruence|]. exists e. split; [apply entered_stay; auto|congruence].
        - exists (q, al). split; [apply entered_now; auto; apply PREV; congruence|]. exact DM.
        - exists (q, al). split; [apply entered_now; auto; apply PREV; congruence|]. exact DM. }
      split; [|split; [reflexivity|split; [reflexivity|]]].
      * constructor; simpl; auto.
        -- intros a' b' Ea Eb. injection Ea as <-. injection Eb as <-. split; [auto|]. split; [auto|]. split; [intros E; destruct hs; discriminate|]. split.
           ++ intros pre q0 a0 E. destruct (LASTQ _ _ _ E) as (-> & _). auto.
           ++ intros _. exact EN.
        -- intros C. exfalso. intuition discriminate.
      * intros x. unfold between at 1. rewrite emax_le.
        assert (B : ele (Fin ((- w - al) / dt)) (Fin x) <-> - w <= al + dt * x).
        { cbn [ele]. assert (Q : ((- w - al) / dt) * dt = - w - al) by (field; lra). remember ((- w - al) / dt) as y. split; intros; nra. }
        rewrite B. destruct EN as (e & E & ->).
        assert (DO : damperOk (Fin a) (Fin b) inter secu off (hs ++ [(q, al)]) (al + dt * x) <-> - w <= al + dt * x).
        { unfold damperOk. split.
          - intros K. specialize (K hs q al eq_refl). rewrite Z in K. destruct K as (e' & E' & K). rewrite (entered_unique _ _ _ _ _ _ _ E' E) in K.
            unfold damperSpeed in K. fold I S in K. rewrite W. exact K.
          - intros K pre q0 a0 E0. destruct (LASTQ _ _ _ E0) as (-> & ->). rewrite Z. exists e. split; [auto|]. unfold damperSpeed. fold I S. rewrite W in K. exact K. }
        rewrite DO, <- velBound by auto. unfold between. tauto.
    + destruct (Rlt_dec (b - q) I) as [ZU|ZU].
      * assert (Z : zoneOf a b inter q = Upp) by (unfold zoneOf; fold I; destruct (Rlt_dec (q - a) I); [lra|]; destruct (Rlt_dec (b - q) I); [auto|lra]).
        apply bind_Ok in H as ((dm & w) & D & H). injection H as <- <- <-.
        destruct (damperIn_Ok _ _ _ _ _ _ _ _ _ D) as (d0 & i0 & s0 & E1 & E2 & E3 & NE & DM & DS & W). cbn [fst snd] in DM, W.
        injection E1 as <-. injection E2 as <-. injection E3 as <-.
        assert (EN : exists e, enteredWith a b inter Upp (hs ++ [(q, al)]) e /\ dm = damping_ a b inter secu off Upp e).
        { destruct (dpState d) eqn:ST.
          - exists (q, al). split; [apply entered_now; auto; apply PREV; congruence|]. exact DM.
          - destruct S3 as (e & E & K); [congruence|]. exists e. split; [apply entered_stay; auto|congruence].
          - exists (q, al). split; [apply entered_now; auto; apply PREV; congruence|]. exact DM. }
        split; [|split; [reflexivity|split; [reflexivity|]]].
        -- constructor; simpl; auto.
           ++ intros a' b' Ea Eb. injection Ea as <-. injection Eb as <-. split; [auto|]. split; [auto|]. split; [intros E; destruct hs; discriminate|]. split.
              ** intros pre q0 a0 E. destruct (LASTQ _ _ _ E) as (-> & _). auto.
              ** intros _. exact EN.
           ++ intros C. exfalso. intuition discriminate.
        -- intros x. unfold between at 1. rewrite emin_ge.
           assert (B : ele (Fin x) (Fin ((w - al) / dt)) <-> al + dt * x <= w).
           { cbn [ele]. assert (Q : ((w - al) / dt) * dt = w - al) by (field; lra). remember ((w - al) / dt) as y. split; intros; nra. }
           rewrite B. destruct EN as (e & E & ->).
           assert (DO : damperOk (Fin a) (Fin b) inter secu off (hs ++ [(q, al)]) (al + dt * x) <-> al + dt * x <= w).
           { unfold damperOk. split.
             - intros K. specialize (K hs q al eq_refl). rewrite Z in K. destruct K as (e' & E' & K). rewrite (entered_unique _ _ _ _ _ _ _ E' E) in K.
               unfold damperSpeed in K. fold I S in K. rewrite W. exact K.
             - intros K pre q0 a0 E0. destruct (LASTQ _ _ _ E0) as (-> & ->). rewrite Z. exists e. split; [auto|]. unfold damperSpeed. fold I S. rewrite W in K. exact K. }
           rewrite DO, <- velBound by auto. unfold between. tauto.
      * assert (Z : zoneOf a b inter q = Free) by (unfold zoneOf; fold I; destruct (Rlt_dec (q - a) I); [lra|]; destruct (Rlt_dec (b - q) I); [lra|auto]).
        injection H as <- <- <-. split; [|split; [reflexivity|split; [reflexivity|]]].
        -- constructor; simpl; auto.
           ++ intros a' b' Ea Eb. injection Ea as <-. injection Eb as <-. split; [auto|]. split; [auto|]. split; [intros E; destruct hs; discriminate|]. split.
              ** intros pre q0 a0 E. destruct (LASTQ _ _ _ E) as (-> & _). auto.
              ** congruence.
           ++ intros C. exfalso. intuition discriminate.
        -- intros x. rewrite velBound by auto. split; [|tauto]. intros K. split; [auto|]. intros pre q0 a0 E0. destruct (LASTQ _ _ _ E0) as (-> & ->). rewrite Z. auto.
Qed.

(** ** The joints with one degree of freedom *)
Definition ones (mb : multibody) : list nat := filter (fun i => Nat.eqb (jointDof mb i) 1) (seq 0 (length (joints mb))).
Lemma ones_In mb i : In i (ones mb) <-> exists jt, nth_error (joints mb) i = Some jt /\ jdof jt = 1%nat.
Proof.
  unfold ones. rewrite filter_In, in_seq, Nat.eqb_eq. unfold jointDof. split.
  - intros ((_ & L) & H). destruct (nth_error (joints mb) i) as [jt|] eqn:E; [exists jt; auto|]. apply nth_error_None in E. lia.
  - intros (jt & E & D). rewrite E. split; [|auto]. split; [lia|]. apply nth_error_Some. congruence.
Qed.
Lemma posInDof_next mb i j : (i < j)%nat -> (j <= length (joints mb))%nat -> (jointPosInDof mb i + jointDof mb i <= jointPosInDof mb j)%nat.
Proof.
  intros L. unfold jointPosInDof, jointDof. revert i j L. induction (joints mb) as [|a js IH]; intros i j L H; simpl in H; [lia|].
  destruct j as [|j]; [lia|]. destruct i as [|i]; simpl; [lia|].
  specialize (IH i j ltac:(lia) ltac:(lia)). destruct (nth_error js i); lia.
Qed.
Lemma isDof_inj mb i k i' k' : isDof mb i k -> isDof mb i' k' -> (jointPosInDof mb i + k = jointPosInDof mb i' + k')%nat -> i = i' /\ k = k'.
Proof.
  intros (jt & E & K) (jt' & E' & K') H.
  assert (L : (i < length (joints mb))%nat) by (apply nth_error_Some; congruence).
  assert (L' : (i' < length (joints mb))%nat) by (apply nth_error_Some; congruence).
  destruct (Nat.lt_trichotomy i i') as [C|[C|C]].
  - pose proof (posInDof_next mb i i' C ltac:(lia)) as P. unfold jointDof in P. rewrite E in P. lia.
  - subst i'. split; [auto|lia].
  - pose proof (posInDof_next mb i' i C ltac:(lia)) as P. unfold jointDof in P. rewrite E' in P. lia.
Qed.

Lemma first2_Ok {A} (ps : list (list A)) i d v : first2 ps i = Ok v -> at2 ps i 0 d = v.
Proof.
  unfold first2, at2. intros H. apply bind_Ok in H as (l & L & H). apply vec_at_Ok in L. apply vec_at_Ok in H.
  rewrite (nth_error_nth _ _ _ L). apply nth_error_nth. auto.
Qed.
Lemma dampLoop_ok mb lq uq la ua inter secu off : forall js i ds,
  (forall k j, nth_error js k = Some j -> jointDof mb (i + k) = jdof j) -> dampLoop mb js i lq uq la ua inter secu = Ok ds ->
  map dpJoint ds = filter (fun i => Nat.eqb (jointDof mb i) 1) (seq i (length js)) /\
  Forall (fun d => dpPos d = jointPosInDof mb (dpJoint d) /\
    dInv (at2 lq (dpJoint d) 0 NInf) (at2 uq (dpJoint d) 0 PInf) (at2 la (dpJoint d) 0 NInf) (at2 ua (dpJoint d) 0 PInf) inter secu off [] d) ds.
Proof.
  induction js as [|j js IH]; intros i ds HJ H; simpl in H; [injection H as <-; split; constructor|].
  apply bind_Ok in H as (hd & HD & H). apply bind_Ok in H as (ds' & D & H). injection H as <-.
  destruct (IH (S i) ds') as (E & F); [intros k j' Hk; rewrite Nat.add_succ_comm; apply HJ; auto|auto|].
  pose proof (HJ 0%nat j eq_refl) as HJ0. rewrite Nat.add_0_r in HJ0. simpl. rewrite HJ0.
  destruct (Nat.eqb (jdof j) 1).
  - apply bind_Ok in HD as (u & U & HD). apply bind_Ok in HD as (l & L & HD). apply bind_Ok in HD as (dist & DI & HD).
    apply bind_Ok in HD as (vl & VL & HD). apply bind_Ok in HD as (vu & VU & HD). apply bind_Ok in HD as (id & ID & HD).
    apply bind_Ok in HD as (sd & SD & HD). injection HD as <-. simpl. split; [f_equal; auto|]. constructor; [|auto]. cbn [dpPos dpJoint]. split; [auto|].
    rewrite (first2_Ok _ _ PInf _ U), (first2_Ok _ _ NInf _ L), (first2_Ok _ _ NInf _ VL), (first2_Ok _ _ PInf _ VU).
    constructor; cbn [dpMin dpMax dpMinVel dpMaxVel dpI dpS dpState dpDamping]; auto.
    + intros a b -> ->. injection DI as <-. injection ID as <-. injection SD as <-. split; [auto|]. split; [auto|]. split; [auto|]. split; [|congruence].
      intros pre q al E0. destruct pre; discriminate.
    + intros C y Q. subst id. assert (N : dist = PInf \/ dist = NInf).
      { destruct u, l; simpl in DI; try discriminate; injection DI as <-; auto; exfalso; intuition discriminate. }
      destruct N as [->| ->]; simpl in ID; destruct (Reqb inter 0); try discriminate; unfold emulr in ID; destruct (Rlt_dec 0 inter); try discriminate;
        destruct (Rlt_dec inter 0); try discriminate.
  - injection HD as <-. simpl. auto.
Qed.

Lemma vput_Ok {A} (v v' : vec A) i x : vput v i x = Ok v' -> (i < vlen v)%nat /\ vlen v' = vlen v /\ vget v' i = x /\ forall j, j <> i -> vget v' j = vget v j.
Proof.
  unfold vput. destruct (Nat.ltb_spec i (vlen v)); [|discriminate]. intros H0; injection H0 as <-. cbn. rewrite Nat.eqb_refl. repeat split; auto.
  intros j Hj. destruct (Nat.eqb_spec j i); [contradiction|auto].
Qed.
Lemma dampsStep_ok mb lq uq la ua inter secu off dt c : 0 < dt -> forall ds (HS : nat -> list (R * R)) lo up ds' lo' up',
  Forall (fun d => dpPos d = jointPosInDof mb (dpJoint d) /\
    dInv (at2 lq (dpJoint d) 0 NInf) (at2 uq (dpJoint d) 0 PInf) (at2 la (dpJoint d) 0 NInf) (at2 ua (dpJoint d) 0 PInf) inter secu off (HS (dpJoint d)) d) ds ->
  NoDup (map dpPos ds) ->
  dampsStep off dt c ds lo up = Ok (ds', lo', up') ->
  let HS' i := HS i ++ [(at2 (cfQ c) i 0 0, at2 (cfAlpha c) i 0 0)] in
  map dpJoint ds' = map dpJoint ds /\
  Forall (fun d => dpPos d = jointPosInDof mb (dpJoint d) /\
    dInv (at2 lq (dpJoint d) 0 NInf) (at2 uq (dpJoint d) 0 PInf) (at2 la (dpJoint d) 0 NInf) (at2 ua (dpJoint d) 0 PInf) inter secu off (HS' (dpJoint d)) d) ds' /\
  vlen lo' = vlen lo /\ vlen up' = vlen up /\
  (forall j, ~ In j (map dpPos ds) -> vget lo' j = vget lo j /\ vget up' j = vget up j) /\
  (forall i, In i (map dpJoint ds) -> forall x, between (vget lo' (jointPosInDof mb i)) x (vget up' (jointPosInDof mb i)) <->
     let v := at2 (cfAlpha c) i 0 0 + dt * x in
     between (at2 la i 0 NInf) v (at2 ua i 0 PInf) /\ damperOk (at2 lq i 0 NInf) (at2 uq i 0 PInf) inter secu off (HS' i) v).
Proof.
  intros Hdt. induction ds as [|d ds IH]; intros HS lo up ds' lo' up' F ND H; simpl in H; cbv zeta.
  - injection H as <- <- <-. repeat split; auto; intros; contradiction.
  - apply bind_Ok in H as (q & Q & H). apply bind_Ok in H as (al & AL & H). apply bind_Ok in H as (((d1 & l) & u) & D & H).
    apply bind_Ok in H as (lo1 & L1 & H). apply bind_Ok in H as (up1 & U1 & H). apply bind_Ok in H as (((ds2 & lo2) & up2) & R2 & H). injection H as <- <- <-.
    inversion F as [|? ? (P & DI) F']; subst. simpl in ND. inversion ND as [|? ? N1 ND']; subst.
    destruct (dampStep_ok _ _ _ _ _ _ _ _ _ _ _ _ _ _ _ Hdt DI D) as (DI' & J' & P' & BT).
    apply vput_Ok in L1 as (B1 & LL & G1 & O1). apply vput_Ok in U1 as (B2 & UU & G2 & O2).
    destruct (IH HS lo1 up1 ds2 lo2 up2 F' ND' R2) as (E1 & E2 & E3 & E4 & E5 & E6). cbv zeta in *.
    simpl.
    pose proof (first2_Ok _ _ 0 _ Q) as QE. pose proof (first2_Ok _ _ 0 _ AL) as AE.
    split; [congruence|]. split; [|split; [congruence|split; [congruence|split]]].
    + constructor; [|exact E2]. rewrite P', J', QE, AE. auto.
    + intros j Hj. destruct (E5 j) as (-> & ->); [tauto|]. split; [apply O1|apply O2]; intros ->; tauto.
    + intros i [<-|Hi] x; [|apply E6; auto].
      rewrite <- P. destruct (E5 (dpPos d) N1) as (-> & ->). rewrite G1, G2, QE, AE. apply BT.
Qed.

(** ** The constraint *)
Definition oneDof (mb : multibody) (i : nat) : Prop := exists jt, nth_error (joints mb) i = Some jt /\ jdof jt = 1%nat.
Record djInv (mb : multibody) (r : nat) (lq uq la ua lad uad ladd uadd : list (list ext)) (inter secu off dt : R) (od : option solverData) (cs : list mbcfg) (m : djlim) : Prop := {
  dvR : djRobot m = r; dvStep : djStep m = dt; dvOff : djOff m = off; dvDt : 0 < dt;
  dvLow : vlen (djLow m) = nrDof mb; dvUp : vlen (djUp m) = nrDof mb; dvP : vlen (djPrev m) = nrDof mb;
  dvADL : djADL m = mkVec (nrDof mb) (fun j => nth j (concat lad) NInf); dvADU : djADU m = mkVec (nrDof mb) (fun j => nth j (concat uad) PInf);
  dvADDL : djADDL m = mkVec (nrDof mb) (fun j => emulr (nth j (concat ladd) NInf) dt);
  dvADDU : djADDU m = mkVec (nrDof mb) (fun j => emulr (nth j (concat uadd) PInf) dt);
  dvB : match od with Some d => exists b, alphaDBegin d r = Ok b /\ djBegin m = Z.of_nat b | None => True end;
  dvJ : map dpJoint (djData m) = ones mb;
  dvD : Forall (fun d => dpPos d = jointPosInDof mb (dpJoint d) /\
    dInv (at2 lq (dpJoint d) 0 NInf) (at2 uq (dpJoint d) 0 PInf) (at2 la (dpJoint d) 0 NInf) (at2 ua (dpJoint d) 0 PInf) inter secu off (track (dpJoint d) cs) d) (djData m);
  dvMulti : forall i k, isDof mb i k -> ~ oneDof mb i -> forall x,
    between (vget (djLow m) (jointPosInDof mb i + k)) x (vget (djUp m) (jointPosInDof mb i + k)) <->
    between (at2 la i k NInf) x (at2 ua i k PInf) /\
    (forall c, In c cs -> between (at2 lad i k NInf) x (at2 uad i k PInf) /\ jerkOk dt (at2 ladd i k NInf) (at2 uadd i k PInf) (at2 (cfAlphaD c) i k 0) x);
  dvOne : forall i, oneDof mb i -> forall pre c, cs = pre ++ [c] -> forall x,
    between (vget (djLow m) (jointPosInDof mb i)) x (vget (djUp m) (jointPosInDof mb i)) <->
    let v := at2 (cfAlpha c) i 0 0 + dt * x in
    (between (at2 la i 0 NInf) v (at2 ua i 0 PInf) /\ damperOk (at2 lq i 0 NInf) (at2 uq i 0 PInf) inter secu off (track i cs) v) /\
    between (at2 lad i 0 NInf) x (at2 uad i 0 PInf) /\ jerkOk dt (at2 ladd i 0 NInf) (at2 uadd i 0 PInf) (at2 (cfAlphaD c) i 0 0) x }.

Lemma oneDof_isDof mb i : oneDof mb i -> isDof mb i 0.
Proof. intros (jt & E & D). exists jt. split; [auto|lia]. Qed.
Lemma ones_NoDup mb : NoDup (ones mb).
Proof. apply NoDup_filter, seq_NoDup. Qed.
Lemma pos_NoDup mb ds : map dpJoint ds = ones mb -> Forall (fun d => dpPos d = jointPosInDof mb (dpJoint d)) ds -> NoDup (map dpPos ds).
Proof.
  intros J F. assert (map dpPos ds = map (jointPosInDof mb) (ones mb)) as ->.
  { rewrite <- J, map_map. apply map_ext_in. intros d Hd. rewrite Forall_forall in F. auto. }
  assert (A : forall i, In i (ones mb) -> oneDof mb i) by (intros i; apply ones_In). pose proof (ones_NoDup mb) as N. revert A N. clear.
  induction (ones mb) as [|i l IH]; intros A N; [constructor|]. inversion N as [|? ? N1 N2]; subst. simpl. constructor; [|apply IH; auto; intros; apply A; simpl; auto].
  intros H. apply in_map_iff in H as (k & E & K). apply N1.
  destruct (isDof_inj mb k 0 i 0) as (<- & _); auto; try lia; apply oneDof_isDof, A; simpl; auto.
Qed.
Lemma multi_notIn mb ds i k : map dpJoint ds = ones mb -> Forall (fun d => dpPos d = jointPosInDof mb (dpJoint d)) ds ->
  isDof mb i k -> ~ oneDof mb i -> ~ In (jointPosInDof mb i + k)%nat (map dpPos ds).
Proof.
  intros J F D N H. apply in_map_iff in H as (d & E & Hd). rewrite Forall_forall in F. rewrite (F d Hd) in E. apply N.
  assert (O : oneDof mb (dpJoint d)) by (apply ones_In; rewrite <- J; apply in_map; auto).
  destruct (isDof_inj mb (dpJoint d) 0 i k) as (<- & _); auto; try lia; apply oneDof_isDof; auto.
Qed.

Lemma newDJ_inv mbs r lq uq la ua lad uad ladd uadd inter secu off dt m mb : newDJ mbs r lq uq la ua lad uad ladd uadd inter secu off dt = Ok m ->
  nth_error mbs r = Some mb -> perDof mb la -> perDof mb ua ->
  djInv mb r lq uq la ua lad uad ladd uadd inter secu off dt None [] m.
Proof.
  unfold newDJ. intros H M PA PU. apply bind_Ok in H as (mb' & M' & H). apply vec_at_Ok in M'. rewrite M in M'. injection M' as <-.
  apply bind_Ok in H as ([] & G & H). apply guard_Ok in G. apply Rltb_true in G.
  apply bind_Ok in H as (ds & DS & H). apply bind_Ok in H as ([] & G2 & H).
  apply bind_Ok in H as (a1 & A1 & H). apply bind_Ok in H as (a2 & A2 & H). apply bind_Ok in H as (a3 & A3 & H).
  apply bind_Ok in H as (a4 & A4 & H). apply bind_Ok in H as (a5 & A5 & H). apply bind_Ok in H as (a6 & A6 & H). injection H as <-.
  apply paramTo_Ok in A1 as (_ & ->), A2 as (_ & ->), A3 as (_ & ->), A4 as (_ & ->), A5 as (_ & ->), A6 as (_ & ->).
  destruct (dampLoop_ok mb lq uq la ua inter secu off (joints mb) 0 ds) as (E & F); auto.
  { intros k j Hk. unfold jointDof. simpl. rewrite Hk. auto. }
  constructor; cbn [djRobot djStep djOff djLow djUp djPrev djADL djADU djADDL djADDU djBegin djData vfill vmap vlen vget]; auto.
  - intros i k D N x. rewrite !nth_perDof by (auto; right; auto). split; [intros A; split; [exact A|intros c []]|intros (A & _); exact A].
  - intros i O pre c E0. destruct pre; discriminate.
Qed.

Definition nextCfg (r : nat) (o : limOp) : list mbcfg := match o with LNr _ => [] | LUp cs => match nth_error cs r with Some c => [c] | None => [] end end.
Lemma configs_app r ops o : configs r (ops ++ [o]) = configs r ops ++ nextCfg r o.
Proof.
  induction ops as [|[d|cs] ops IH]; simpl; [destruct o; simpl; auto; destruct (nth_error cs r); auto|auto|].
  destruct (nth_error cs r); simpl; rewrite IH; auto.
Qed.
Lemma lastSizes_app ops o : lastSizes (ops ++ [o]) = nextSizes (lastSizes ops) o.
Proof.
  induction ops as [|[d|cs] ops IH]; simpl; [destruct o; auto| |auto]. rewrite IH. destruct o; simpl; auto. 
Qed.
Lemma djRun_app m ops ops' : djRun m (ops ++ ops') = bind (djRun m ops) (fun m' => djRun m' ops').
Proof. revert m; induction ops as [|o ops IH]; intros m; simpl; [reflexivity|]. destruct (djStep_ m o); simpl; auto. Qed.

Lemma djStep_inv mb r lq uq la ua lad uad ladd uadd inter secu off dt od cs m o m' :
  perDofOpt mb lad -> perDofOpt mb uad -> perDofOpt mb ladd -> perDofOpt mb uadd ->
  djInv mb r lq uq la ua lad uad ladd uadd inter secu off dt od cs m -> djStep_ m o = Ok m' -> Forall (cfgOk mb) (nextCfg r o) ->
  djInv mb r lq uq la ua lad uad ladd uadd inter secu off dt (nextSizes od o) (cs ++ nextCfg r o) m'.
Proof.
  intros P1 P2 P3 P4 [V1 V2 V3 V4 V5 V6 V7 V8 V9 V10 V11 V12 V13 V14 V15 V16] H FC. destruct o as [d|mcs]; cbn [djStep_ nextSizes nextCfg] in *.
  - rewrite app_nil_r. unfold djNrVars in H. apply bind_Ok in H as (b & B & H). injection H as <-. constructor; simpl; auto. exists b. rewrite <- V1. auto.
  - unfold djUpdate in H. apply bind_Ok in H as (c & C & H). apply vec_at_Ok in C. rewrite V1 in C. rewrite C in FC |- *.
    apply bind_Ok in H as (p & P & H). apply paramTo_Ok in P as (_ & ->). apply bind_Ok in H as (((ds & lo) & up) & D & H).
    inversion FC as [|? ? (C1 & C2 & C3) _]; subst.
    assert (FP : Forall (fun d => dpPos d = jointPosInDof mb (dpJoint d)) (djData m)) by (eapply Forall_impl; [|exact V14]; simpl; tauto).
    pose proof (pos_NoDup mb _ V13 FP) as ND.
    destruct (dampsStep_ok mb lq uq la ua inter secu _ _ c V4 _ (fun i => track i cs) _ _ _ _ _ V14 ND D) as (E1 & E2 & E3 & E4 & E5 & E6). cbv zeta in *.
    assert (TR : forall i, track i cs ++ [(at2 (cfQ c) i 0 0, at2 (cfAlpha c) i 0 0)] = track i (cs ++ [c])) by (intros; unfold track; rewrite map_app; auto).
    pose proof (perDof_len _ _ C3) as LP.
    repeat (apply bind_Ok in H as (? & Hz & H); apply vzip_Ok in Hz as (_ & ->); cbn [vlen vget] in H). injection H as <-.
    rewrite V8, V9, V10, V11. cbn [vlen vget].
    assert (ROW : forall i k, isDof mb i k -> let j := (jointPosInDof mb i + k)%nat in forall x,
      between (emax (emax (vget lo j) (nth j (concat lad) NInf)) (eaddr (emulr (nth j (concat ladd) NInf) (djStep m)) (nth j (concat (cfAlphaD c)) (vget (djPrev m) j)))) x
              (emin (emin (vget up j) (nth j (concat uad) PInf)) (eaddr (emulr (nth j (concat uadd) PInf) (djStep m)) (nth j (concat (cfAlphaD c)) (vget (djPrev m) j)))) <->
      between (vget lo j) x (vget up j) /\ between (at2 lad i k NInf) x (at2 uad i k PInf) /\ jerkOk (djStep m) (at2 ladd i k NInf) (at2 uadd i k PInf) (at2 (cfAlphaD c) i k 0) x).
    { intros i k DF j x. pose proof (isDof_lt _ _ _ DF) as Lj. rewrite between_emax_emin, emulr_addr_between by auto.
      unfold j. rewrite (nth_indep (concat (cfAlphaD c)) _ 0) by lia. rewrite !nth_perDof by (auto; right; auto). tauto. }
    constructor; cbn [djRobot djStep djOff djLow djUp djPrev djADL djADU djADDL djADDU djBegin djData vlen vget]; auto.
    + congruence.
    + congruence.
    + rewrite V13 in E1. exact E1.
    + eapply Forall_impl; [|exact E2]. simpl. intros d. rewrite TR. auto.
    + intros i k DF N x. rewrite ROW by auto. destruct (E5 _ (multi_notIn mb _ i k V13 FP DF N)) as (-> & ->). rewrite V15 by auto.
      split.
      * intros ((A & B) & J). split; [auto|]. intros c0 Hc. apply in_app_or in Hc as [Hc|[<-|[]]]; auto.
      * intros (A & B). split; [split; [auto|]; intros c0 Hc; apply B; apply in_or_app; auto|]. apply B. apply in_or_app. simpl. auto.
    + intros i O pre c0 E x. apply app_inj_tail in E as (_ & <-). pose proof (ROW i 0%nat (oneDof_isDof mb i O)) as R0. rewrite Nat.add_0_r in R0. rewrite R0.
      rewrite E6 by (rewrite V13; apply ones_In; exact O). rewrite TR. tauto.
Qed.
Lemma djRun_inv mb r lq uq la ua lad uad ladd uadd inter secu off dt m0 :
  perDofOpt mb lad -> perDofOpt mb uad -> perDofOpt mb ladd -> perDofOpt mb uadd ->
  djInv mb r lq uq la ua lad uad ladd uadd inter secu off dt None [] m0 ->
  forall ops m, djRun m0 ops = Ok m -> Forall (cfgOk mb) (configs r ops) ->
  djInv mb r lq uq la ua lad uad ladd uadd inter secu off dt (lastSizes ops) (configs r ops) m.
Proof.
  intros P1 P2 P3 P4 I0. induction ops as [|o ops IH] using rev_ind; intros m H F; [simpl in *; injection H as <-; auto|].
  rewrite djRun_app in H. apply bind_Ok in H as (m1 & H1 & H). cbn [djRun] in H. apply bind_Ok in H as (m2 & H2 & H). injection H as ->.
  rewrite configs_app in *. rewrite lastSizes_app. apply Forall_app in F as (F1 & F2).
  eapply djStep_inv; eauto.
Qed.

Lemma damper_lemma mbs r lq uq la ua lad uad ladd uadd inter secu off dt m0 ops cs mb c d m :
  newDJ mbs r lq uq la ua lad uad ladd uadd inter secu off dt = Ok m0 -> nth_error mbs r = Some mb ->
  perDof mb la -> perDof mb ua -> perDofOpt mb lad -> perDofOpt mb uad -> perDofOpt mb ladd -> perDofOpt mb uadd ->
  lastSizes ops = Some d -> nth_error cs r = Some c -> Forall (cfgOk mb) (configs r ops) -> cfgOk mb c ->
  djRun m0 (ops ++ [LUp cs]) = Ok m ->
  let past := configs r ops ++ [c] in
  exists bd b, alphaDBegin d r = Ok b /\ djBound m = Ok bd /\
  forall x, holdsBound x bd <-> forall i jt k, nth_error (joints mb) i = Some jt -> (k < jdof jt)%nat ->
    let a := x (b + jointPosInDof mb i + k)%nat in
    between (at2 lad i k NInf) a (at2 uad i k PInf) /\
    if Nat.eqb (jdof jt) 1 then
      let v := at2 (cfAlpha c) i 0 0 + dt * a in
      jerkOk dt (at2 ladd i k NInf) (at2 uadd i k PInf) (at2 (cfAlphaD c) i k 0) a /\
      between (at2 la i 0 NInf) v (at2 ua i 0 PInf) /\ damperOk (at2 lq i 0 NInf) (at2 uq i 0 PInf) inter secu off (track i past) v
    else
      between (at2 la i k NInf) a (at2 ua i k PInf) /\
      (forall c', In c' past -> jerkOk dt (at2 ladd i k NInf) (at2 uadd i k PInf) (at2 (cfAlphaD c') i k 0) a).
Proof.
  intros HN M PA PU P1 P2 P3 P4 HL HC FC CC HR past.
  pose proof (newDJ_inv _ _ _ _ _ _ _ _ _ _ _ _ _ _ _ _ HN M PA PU) as I0.
  assert (CF : configs r (ops ++ [LUp cs]) = past) by (rewrite configs_app; simpl; rewrite HC; auto).
  assert (FP : Forall (cfgOk mb) past) by (apply Forall_app; auto).
  pose proof (djRun_inv _ _ _ _ _ _ _ _ _ _ _ _ _ _ _ P1 P2 P3 P4 I0 _ _ HR ltac:(rewrite CF; auto)) as I1. rewrite CF, lastSizes_app in I1. cbn [nextSizes] in I1. rewrite HL in I1.
  destruct I1 as [V1 V2 V3 V4 V5 V6 V7 V8 V9 V10 V11 (b & V12 & V12') V13 V14 V15 V16].
  eexists. exists b. split; [auto|]. unfold djBound, zidx. rewrite V12'. replace (0 <=? Z.of_nat b)%Z with true by (symmetry; apply Z.leb_le; lia). cbn [bind]. rewrite Nat2Z.id.
  split; [reflexivity|]. intros x. unfold holdsBound. cbn [bdL bdU bdBegin vlen vget]. rewrite V5, V6.
  transitivity (forall j, (j < nrDof mb)%nat -> between (vget (djLow m) j) (x (b + j)%nat) (vget (djUp m) j)).
  { unfold between. split; [intros H j Hj; destruct (H j); auto|intros H j; split; intros Hj; apply H; auto]. }
  rewrite <- isDof_all. 
  assert (EQ : forall i jt k, nth_error (joints mb) i = Some jt -> (k < jdof jt)%nat ->
     (between (vget (djLow m) (jointPosInDof mb i + k)) (x (b + (jointPosInDof mb i + k))%nat) (vget (djUp m) (jointPosInDof mb i + k)) <->
      let a := x (b + jointPosInDof mb i + k)%nat in
    between (at2 lad i k NInf) a (at2 uad i k PInf) /\
    if Nat.eqb (jdof jt) 1 then
      let v := at2 (cfAlpha c) i 0 0 + dt * a in
      jerkOk dt (at2 ladd i k NInf) (at2 uadd i k PInf) (at2 (cfAlphaD c) i k 0) a /\
      between (at2 la i 0 NInf) v (at2 ua i 0 PInf) /\ damperOk (at2 lq i 0 NInf) (at2 uq i 0 PInf) inter secu off (track i past) v
    else
      between (at2 la i k NInf) a (at2 ua i k PInf) /\
      (forall c', In c' past -> jerkOk dt (at2 ladd i k NInf) (at2 uadd i k PInf) (at2 (cfAlphaD c') i k 0) a))).
  { intros i jt k E K. cbv zeta. rewrite Nat.add_assoc. destruct (Nat.eqb_spec (jdof jt) 1) as [D|D].
    - assert (k = 0%nat) as -> by lia. rewrite !Nat.add_0_r. rewrite (V16 i ltac:(exists jt; auto) _ _ eq_refl). cbv zeta. tauto.
    - rewrite V15; [|exists jt; auto|intros (jt' & E' & D'); rewrite E in E'; injection E' as <-; auto].
      split.
      + intros (A & B). split; [apply (B c); apply in_or_app; simpl; auto|]. split; [auto|]. intros c' Hc. apply B; auto.
      + intros (A & B & J). split; [auto|]. intros c' Hc. auto. }
  split.
  - intros H i jt k E K. apply EQ; auto. apply H. exists jt; auto.
  - intros H i k (jt & E & K). apply (EQ i jt k E K). apply H; auto.
Qed.
