(** Lemmas about the variable layout. *)
From Coq Require Import Sorting.Sorted.
From Verif Require Import Lists LayoutSpec.

(** Consecutive segments from [s] to [e]. *)
Fixpoint tiles (s : nat) (l : list (nat * nat)) (e : nat) : Prop :=
  match l with
  | [] => s = e
  | (b, n) :: l' => b = s /\ tiles (s + n)%nat l' e
  end.

Lemma tiles_le s l e : tiles s l e -> (s <= e)%nat.
Proof.
  revert s; induction l as [|[b n] l IH]; simpl; intros s H; [lia|].
  destruct H as [_ H]. apply IH in H. lia.
Qed.

Lemma tiles_app s l1 m l2 e : tiles s l1 m -> tiles m l2 e -> tiles s (l1 ++ l2) e.
Proof.
  revert s; induction l1 as [|[b n] l1 IH]; simpl; intros s H1 H2; [subst; auto|].
  destruct H1 as [-> H1]. split; auto.
Qed.

Definition inseg (l : list (nat * nat)) (k i : nat) : Prop :=
  exists b n, nth_error l k = Some (b, n) /\ (b <= i < b + n)%nat.

Lemma tiles_nth_ge s l e k b n : tiles s l e -> nth_error l k = Some (b, n) -> (s <= b /\ b + n <= e)%nat.
Proof.
  revert s k; induction l as [|[b' n'] l IH]; intros s k Ht Hn; [destruct k; discriminate|].
  simpl in Ht. destruct Ht as [-> Ht]. destruct k as [|k]; simpl in Hn.
  - inversion Hn; subst. apply tiles_le in Ht. lia.
  - specialize (IH _ _ Ht Hn). lia.
Qed.

Lemma tiles_unique s l e : tiles s l e ->
  forall i, (s <= i < e)%nat <-> (exists! k, inseg l k i).
Proof.
  revert s; induction l as [|[b n] l IH]; intros s Ht i; simpl in Ht.
  - subst. split; [lia|]. intros [k [[b [n [Hn _]]] _]]. destruct k; discriminate.
  - destruct Ht as [-> Ht]. specialize (IH _ Ht i).
    pose proof (tiles_le _ _ _ Ht) as Hle.
    split.
    + intros Hi. destruct (Nat.lt_ge_cases i (s + n)) as [Hlt|Hge].
      * exists O. split.
        { exists s, n. simpl. split; auto. lia. }
        intros [|k]; [reflexivity|]. intros [b [m [Hn Hbi]]]. simpl in Hn.
        destruct (tiles_nth_ge _ _ _ _ _ _ Ht Hn). lia.
      * destruct (proj1 IH) as [k [[b [m [Hn Hbi]]] Hu]]; [lia|].
        exists (S k). split.
        { exists b, m. simpl. auto. }
        intros [|k'] [b' [m' [Hn' Hbi']]]; simpl in Hn'.
        { inversion Hn'; subst. lia. }
        f_equal. apply Hu. exists b', m'. auto.
    + intros [k [[b [m [Hn Hbi]]] _]].
      destruct k as [|k]; simpl in Hn.
      * inversion Hn; subst. lia.
      * destruct (tiles_nth_ge _ _ _ _ _ _ Ht Hn). lia.
Qed.

(** * Sums of lambda *)

Lemma sumLambda_uni c i n :
  sumLambda (fun i => Ok (uNrLambdaAt c i)) i n = Ok (n * length (generators (uR1Cone c)))%nat.
Proof.
  revert i; induction n as [|n IH]; intros i; simpl; [reflexivity|].
  rewrite IH. simpl. unfold uNrLambdaAt. f_equal.
Qed.

Lemma uNrLambda_spec c : uNrLambda c = Ok (uniLambdaCount c).
Proof. apply sumLambda_uni. Qed.

Lemma sumLambda_bi c i n :
  (i + n <= length (bR1Cones c))%nat ->
  sumLambda (bNrLambdaAt c) i n =
  Ok (sumnat (map (fun k => length (generators k)) (firstn n (skipn i (bR1Cones c))))).
Proof.
  revert i; induction n as [|n IH]; intros i H; [reflexivity|].
  change (sumLambda (bNrLambdaAt c) i (S n)) with
    (do a <- bNrLambdaAt c i; do b <- sumLambda (bNrLambdaAt c) (S i) n; Ok (a + b)%nat).
  unfold bNrLambdaAt at 1, vec_at.
  destruct (nth_error (bR1Cones c) i) as [k|] eqn:E.
  - cbn [bind]. rewrite IH by lia. cbn [bind]. rewrite (skipn_nth_cons _ _ _ E). reflexivity.
  - apply nth_error_None in E. lia.
Qed.

Lemma sumLambda_bi_Ok c i n t :
  sumLambda (bNrLambdaAt c) i n = Ok t -> (n = 0 \/ i + n <= length (bR1Cones c))%nat.
Proof.
  revert i t; induction n as [|n IH]; intros i t H; [auto|right].
  change (sumLambda (bNrLambdaAt c) i (S n)) with
    (do a <- bNrLambdaAt c i; do b <- sumLambda (bNrLambdaAt c) (S i) n; Ok (a + b)%nat) in H.
  apply bind_Ok in H as [a [Ha H]]. apply bind_Ok in H as [b [Hb H]].
  apply IH in Hb. unfold bNrLambdaAt, vec_at in Ha.
  destruct (nth_error (bR1Cones c) i) as [k|] eqn:E; [|discriminate].
  assert (i < length (bR1Cones c))%nat by (apply nth_error_Some; congruence). lia.
Qed.

Lemma bNrLambda_spec c : wfBi c -> bNrLambda c = Ok (biLambdaCount c).
Proof. intros H. unfold bNrLambda. rewrite sumLambda_bi by exact H. reflexivity. Qed.

Lemma bNrLambda_Ok_wf c t : bNrLambda c = Ok t -> wfBi c.
Proof. intros H. apply sumLambda_bi_Ok in H. unfold wfBi. lia. Qed.

Lemma biOfUni_wf c : wfBi (biOfUni c).
Proof. unfold wfBi; simpl. rewrite repeat_length. lia. Qed.

Lemma biOfUni_count c : biLambdaCount (biOfUni c) = uniLambdaCount c.
Proof.
  unfold biLambdaCount, uniLambdaCount; simpl.
  rewrite firstn_all2 by (rewrite repeat_length; lia).
  induction (length (uR1Points c)) as [|n IH]; simpl; [reflexivity|]. rewrite IH. reflexivity.
Qed.

(** * Loops *)

Lemma robotLoop_spec mbs r cum rl :
  robotLoop mbs r cum = Ok rl ->
  rlAlphaD rl = map nrDof mbs /\ length (rlBegin rl) = length mbs /\
  tiles cum (combine (rlBegin rl) (rlAlphaD rl)) (rlTotal rl) /\
  rlTotal rl = (cum + sumnat (map nrDof mbs))%nat.
Proof.
  revert r cum rl; induction mbs as [|mb mbs IH]; intros r cum rl H.
  - simpl in H. inversion H; subst; simpl. repeat split; lia.
  - cbn [robotLoop] in H. apply bind_Ok in H as [ds [Hds H]]. apply bind_Ok in H as [rl' [Hrl H]].
    inversion H; subst; clear H. simpl. apply IH in Hrl as (H1 & H2 & H3 & H4).
    rewrite H1 in *. repeat split; auto; lia.
Qed.

Lemma robotLoop_begin mbs r cum rl :
  robotLoop mbs r cum = Ok rl ->
  forall k mb, nth_error mbs k = Some mb ->
  nth_error (rlBegin rl) k = Some (cum + sumnat (map nrDof (firstn k mbs)))%nat.
Proof.
  revert r cum rl; induction mbs as [|mb0 mbs IH]; intros r cum rl H k mb Hk; [destruct k; discriminate|].
  cbn [robotLoop] in H. apply bind_Ok in H as [ds [Hds H]]. apply bind_Ok in H as [rl' [Hrl H]].
  inversion H; subst; clear H. destruct k as [|k]; simpl in *.
  - rewrite Nat.add_0_r. reflexivity.
  - rewrite (IH _ _ _ Hrl _ _ Hk). f_equal. lia.
Qed.

Lemma contactLoop_spec {C} (nr : C -> res nat) (cnt : C -> nat) cs cum ls bs tot :
  (forall c t, nr c = Ok t -> t = cnt c) ->
  contactLoop nr cs cum = Ok (ls, bs, tot) ->
  ls = map cnt cs /\ length bs = length cs /\
  tiles cum (combine bs ls) tot /\ tot = (cum + sumnat (map cnt cs))%nat.
Proof.
  intros Hnr. revert cum ls bs tot; induction cs as [|c cs IH]; intros cum ls bs tot H.
  - simpl in H. inversion H; subst; simpl. repeat split; lia.
  - cbn [contactLoop] in H. apply bind_Ok in H as [l [Hl H]].
    apply bind_Ok in H as [[[ls' bs'] tot'] [Hc H]]. inversion H; subst; clear H.
    apply IH in Hc as (H1 & H2 & H3 & H4). rewrite (Hnr _ _ Hl) in *. simpl. subst.
    repeat split; auto; lia.
Qed.

Lemma contactLoop_def {C} (nr : C -> res nat) (cnt : C -> nat) cs cum :
  (forall c, In c cs -> nr c = Ok (cnt c)) ->
  exists ls bs tot, contactLoop nr cs cum = Ok (ls, bs, tot).
Proof.
  revert cum; induction cs as [|c cs IH]; intros cum H; [simpl; eauto|].
  cbn [contactLoop]. rewrite H by (left; reflexivity). cbn [bind].
  destruct (IH (cum + cnt c)%nat) as (ls & bs & tot & E).
  { intros; apply H; right; auto. }
  rewrite E. cbn. eauto.
Qed.

Lemma contactLoop_Ok_each {C} (nr : C -> res nat) cs cum r :
  contactLoop nr cs cum = Ok r -> forall c, In c cs -> exists t, nr c = Ok t.
Proof.
  revert cum r; induction cs as [|c cs IH]; intros cum r H c' Hin; [destruct Hin|].
  cbn [contactLoop] in H. apply bind_Ok in H as [l [Hl H]].
  apply bind_Ok in H as [[[ls' bs'] tot'] [Hc H]].
  destruct Hin as [->|Hin]; [eauto|]. eapply IH; eauto.
Qed.

(** Everything nrVars computes, in closed form. *)
Lemma nrVarsData_spec mbs uni bi d deps :
  nrVarsData mbs uni bi = Ok (d, deps) ->
  Forall wfBi bi /\
  sdAlphaD d = map nrDof mbs /\ sdLambda d = map uniLambdaCount uni ++ map biLambdaCount bi /\
  length (sdAlphaDBegin d) = length mbs /\ length (sdLambdaBegin d) = (length uni + length bi)%nat /\
  sdTotalAlphaD d = sumnat (map nrDof mbs) /\
  sdNrUniLambda d = sumnat (map uniLambdaCount uni) /\
  sdNrBiLambda d = sumnat (map biLambdaCount bi) /\
  sdTotalLambda d = (sdNrUniLambda d + sdNrBiLambda d)%nat /\
  sdNrVars d = (sdTotalAlphaD d + sdTotalLambda d)%nat /\
  sdUni d = uni /\ sdBi d = bi /\ sdAll d = map biOfUni uni ++ bi /\
  tiles 0 (combine (sdAlphaDBegin d) (sdAlphaD d)) (sdTotalAlphaD d) /\
  tiles (sdTotalAlphaD d) (combine (sdLambdaBegin d) (sdLambda d)) (sdNrVars d) /\
  (exists rl, robotLoop mbs 0 0 = Ok rl /\ sdAlphaDBegin d = rlBegin rl /\ deps = rlDeps rl /\
              sdMobile d = rlMobile rl).
Proof.
  unfold nrVarsData. intros H.
  apply bind_Ok in H as [rl [Hrl H]].
  apply bind_Ok in H as [[[lu bu] cumU] [Hu H]].
  apply bind_Ok in H as [[[lb bb] cumB] [Hb H]].
  inversion H; subst; clear H. simpl.
  assert (Hwf : Forall wfBi bi).
  { apply Forall_forall. intros c Hc. destruct (contactLoop_Ok_each _ _ _ _ Hb c Hc) as [t Ht].
    eapply bNrLambda_Ok_wf; eauto. }
  pose proof (robotLoop_spec _ _ _ _ Hrl) as (R1 & R2 & R3 & R4).
  apply (contactLoop_spec _ uniLambdaCount) in Hu as (U1 & U2 & U3 & U4);
    [|intros c t E; rewrite uNrLambda_spec in E; congruence].
  apply (contactLoop_spec _ biLambdaCount) in Hb as (B1 & B2 & B3 & B4);
    [|intros c t E; pose proof (bNrLambda_Ok_wf _ _ E) as W; rewrite (bNrLambda_spec _ W) in E; congruence].
  simpl in R4. repeat split; auto.
  - congruence.
  - rewrite app_length; lia.
  - lia.
  - lia.
  - replace (rlTotal rl + (cumU - rlTotal rl + (cumB - (cumU - rlTotal rl) - rlTotal rl)))%nat with cumB by lia.
    assert (Hc : combine (bu ++ bb) (lu ++ lb) = combine bu lu ++ combine bb lb).
    { clear -U1 U2. assert (Hl : length bu = length lu) by (rewrite U1, map_length; auto). clear U1 U2.
      revert lu Hl; induction bu as [|b bu IH]; intros [|l lu] Hl; simpl in *; try lia; auto.
      rewrite IH by lia. reflexivity. }
    rewrite Hc. eapply tiles_app; eauto.
  - exists rl. auto.
Qed.

Lemma owns_robot d r i : owns d (Robot r) i <-> inseg (combine (sdAlphaDBegin d) (sdAlphaD d)) r i.
Proof.
  unfold owns, inseg, alphaDBegin, alphaD. split; intros (b & n & H).
  - destruct H as (H1 & H2 & H3). rewrite vec_at_Ok in *. exists b, n. rewrite nth_error_combine. auto.
  - destruct H as (H1 & H3). rewrite nth_error_combine in H1. exists b, n. rewrite !vec_at_Ok. tauto.
Qed.

Lemma owns_contact d c i : owns d (Contact c) i <-> inseg (combine (sdLambdaBegin d) (sdLambda d)) c i.
Proof.
  unfold owns, inseg, lambdaBeginAt, lambda. split; intros (b & n & H).
  - destruct H as (H1 & H2 & H3). rewrite vec_at_Ok in *. exists b, n. rewrite nth_error_combine. auto.
  - destruct H as (H1 & H3). rewrite nth_error_combine in H1. exists b, n. rewrite !vec_at_Ok. tauto.
Qed.

Lemma inseg_bounds s l e k i : tiles s l e -> inseg l k i -> (s <= i < e)%nat.
Proof. intros Ht (b & n & Hn & Hi). destruct (tiles_nth_ge _ _ _ _ _ _ Ht Hn). lia. Qed.

(** * C01 *)
Lemma layout_partition_lemma mbs uni bi d deps :
  nrVarsData mbs uni bi = Ok (d, deps) ->
  (forall i, (i < sdNrVars d)%nat <-> exists! o, owns d o i) /\
  (forall r i, owns d (Robot r) i -> (i < sdTotalAlphaD d)%nat) /\
  (forall c i, owns d (Contact c) i -> (sdTotalAlphaD d <= i < sdNrVars d)%nat).
Proof.
  intros H. apply nrVarsData_spec in H.
  destruct H as (_ & _ & _ & _ & _ & _ & _ & _ & _ & Hnv & _ & _ & _ & T1 & T2 & _).
  assert (A1 : forall r i, owns d (Robot r) i -> (i < sdTotalAlphaD d)%nat).
  { intros r i Ho. apply owns_robot in Ho. eapply inseg_bounds in Ho; eauto. lia. }
  assert (A2 : forall c i, owns d (Contact c) i -> (sdTotalAlphaD d <= i < sdNrVars d)%nat).
  { intros r i Ho. apply owns_contact in Ho. eapply inseg_bounds in Ho; eauto. }
  split; [|auto]. intros i. split.
  - intros Hi. destruct (Nat.lt_ge_cases i (sdTotalAlphaD d)) as [Hlt|Hge].
    + destruct (proj1 (tiles_unique _ _ _ T1 i)) as [k [Hk Hu]]; [lia|].
      exists (Robot k). split; [apply owns_robot; auto|].
      intros [r|c] Ho.
      * apply owns_robot in Ho. f_equal. auto.
      * apply A2 in Ho. lia.
    + destruct (proj1 (tiles_unique _ _ _ T2 i)) as [k [Hk Hu]]; [lia|].
      exists (Contact k). split; [apply owns_contact; auto|].
      intros [r|c] Ho.
      * apply A1 in Ho. lia.
      * apply owns_contact in Ho. f_equal. auto.
  - intros [[r|c] [Ho _]]; [apply A1 in Ho|apply A2 in Ho]; lia.
Qed.

Lemma robotLoop_mobile mbs : forall r cum rl, robotLoop mbs r cum = Ok rl ->
  StronglySorted lt (rlMobile rl) /\
  forall k, In k (rlMobile rl) <-> (r <= k)%nat /\ exists mb, nth_error mbs (k - r) = Some mb /\ (0 < nrDof mb)%nat.
Proof.
  induction mbs as [|mb mbs IH]; intros r cum rl H.
  - injection H as <-. split; [constructor|]. simpl. intros k. split; [tauto|]. intros (_ & mb & E & _). destruct (k - r)%nat; discriminate.
  - cbn [robotLoop] in H. apply bind_Ok in H as [ds [Hds H]]. apply bind_Ok in H as [rl' [Hrl H]]. injection H as <-. cbn [rlMobile].
    destruct (IH _ _ _ Hrl) as (S1 & S2).
    assert (T : forall k, (r <= k)%nat /\ (exists mb', nth_error (mb :: mbs) (k - r) = Some mb' /\ (0 < nrDof mb')%nat)
              <-> (k = r /\ (0 < nrDof mb)%nat) \/ In k (rlMobile rl')).
    { intros k. rewrite S2. destruct (Nat.eq_dec k r) as [->|N].
      - rewrite Nat.sub_diag. simpl. split.
        + intros (_ & mb' & E & P). injection E as <-. auto.
        + intros [(_ & P)|(L & _)]; [|lia]. split; [lia|]. eauto.
      - split.
        + intros (L & mb' & E & P). right. split; [lia|]. exists mb'. replace (k - r)%nat with (S (k - S r)) in E by lia. auto.
        + intros [(E & _)|(L & mb' & E & P)]; [lia|]. split; [lia|]. exists mb'. replace (k - r)%nat with (S (k - S r)) by lia. auto. }
    destruct (Nat.ltb_spec 0 (nrDof mb)).
    + split.
      * constructor; [auto|]. apply Forall_forall. intros k Hk. apply S2 in Hk as (L & _). lia.
      * intros k. rewrite T. simpl. intuition auto.
    + split; [auto|]. intros k. rewrite T. intuition lia.
Qed.
Lemma layout_mobile_lemma mbs uni bi d deps :
  nrVarsData mbs uni bi = Ok (d, deps) ->
  StronglySorted lt (sdMobile d) /\
  forall r, In r (sdMobile d) <-> exists mb, nth_error mbs r = Some mb /\ (0 < nrDof mb)%nat.
Proof.
  intros H. pose proof (nrVarsData_spec _ _ _ _ _ H) as (_&_&_&_&_&_&_&_&_&_&_&_&_&_&_&rl & E & _ & _ & M). rewrite M.
  destruct (robotLoop_mobile _ _ _ _ E) as (S1 & S2). split; [auto|]. intros r. rewrite S2, Nat.sub_0_r. split; [tauto|]. split; [lia|auto].
Qed.

Lemma layout_counts_lemma mbs uni bi d deps :
  nrVarsData mbs uni bi = Ok (d, deps) ->
  (forall r mb, nth_error mbs r = Some mb -> alphaD d r = Ok (nrDof mb)) /\
  (forall c u, nth_error uni c = Some u -> lambda d c = Ok (uniLambdaCount u)) /\
  (forall c b, nth_error bi c = Some b -> lambda d (length uni + c) = Ok (biLambdaCount b)) /\
  nrContacts d = (length uni + length bi)%nat /\
  sdTotalAlphaD d = sumnat (map nrDof mbs) /\
  sdNrUniLambda d = sumnat (map uniLambdaCount uni) /\
  sdNrBiLambda d = sumnat (map biLambdaCount bi) /\
  sdTotalLambda d = (sdNrUniLambda d + sdNrBiLambda d)%nat /\
  sdNrVars d = (sdTotalAlphaD d + sdTotalLambda d)%nat /\
  (forall c i, owns d (Contact c) i ->
     ((c < length uni)%nat <-> (unilateralBegin d <= i < bilateralBegin d)%nat)).
Proof.
  intros H. pose proof (nrVarsData_spec _ _ _ _ _ H) as
    (W & E1 & E2 & L1 & L2 & Ta & Tu & Tb & Tl & Nv & Eu & Eb & _ & T1 & T2 & _).
  split; [|split; [|split; [|split; [|split; [|split; [|split; [|split; [|split]]]]]]]]; auto.
  - intros r mb Hn. apply vec_at_Ok. rewrite E1. apply nth_error_map_some; auto.
  - intros c u Hn. apply vec_at_Ok. rewrite E2.
    rewrite nth_error_app1; [apply nth_error_map_some; auto|].
    rewrite map_length. apply nth_error_Some. congruence.
  - intros c b Hn. apply vec_at_Ok. rewrite E2.
    rewrite nth_error_app2; rewrite map_length; [|lia].
    replace (length uni + c - length uni)%nat with c by lia. apply nth_error_map_some; auto.
  - unfold nrContacts. rewrite Eu, Eb. reflexivity.
  - intros c i Ho. apply owns_contact in Ho.
    unfold bilateralBegin, unilateralBegin, lambdaBegin.
    (* split the tiling at the bilateral contacts *)
    assert (Hsplit : exists bu bb, sdLambdaBegin d = bu ++ bb /\ length bu = length uni /\
      tiles (sdTotalAlphaD d) (combine bu (map uniLambdaCount uni)) (sdTotalAlphaD d + sdNrUniLambda d) /\
      tiles (sdTotalAlphaD d + sdNrUniLambda d) (combine bb (map biLambdaCount bi)) (sdNrVars d)).
    { clear Ho i c. unfold nrVarsData in H.
      apply bind_Ok in H as [rl [Hrl H]].
      apply bind_Ok in H as [[[lu bu] cumU] [Hu H]].
      apply bind_Ok in H as [[[lb bb] cumB] [Hb H]].
      inversion H; subst; clear H. simpl in *.
      apply (contactLoop_spec _ uniLambdaCount) in Hu as (U1 & U2 & U3 & U4);
        [|intros c t E; rewrite uNrLambda_spec in E; congruence].
      apply (contactLoop_spec _ biLambdaCount) in Hb as (B1 & B2 & B3 & B4);
        [|intros c t E; pose proof (bNrLambda_Ok_wf _ _ E) as W'; rewrite (bNrLambda_spec _ W') in E; congruence].
      exists bu, bb. subst lu lb. split; [reflexivity|]. split; [auto|]. split.
      - replace (rlTotal rl + (cumU - rlTotal rl))%nat with cumU by lia. auto.
      - replace (rlTotal rl + (cumU - rlTotal rl))%nat with cumU by lia.
        replace (rlTotal rl + (cumU - rlTotal rl + (cumB - (cumU - rlTotal rl) - rlTotal rl)))%nat with cumB by lia.
        auto. }
    destruct Hsplit as (bu & bb & Hbb & Hlen & Tu' & Tb').
    destruct Ho as (b & n & Hn & Hi). rewrite E2, Hbb in Hn. rewrite nth_error_combine in Hn.
    destruct Hn as [Hn1 Hn2].
    destruct (Nat.lt_ge_cases c (length uni)) as [Hlt|Hge].
    + split; [intros _|lia].
      rewrite nth_error_app1 in Hn1 by lia. rewrite nth_error_app1 in Hn2 by (rewrite map_length; lia).
      assert (Hc : nth_error (combine bu (map uniLambdaCount uni)) c = Some (b, n)).
      { rewrite nth_error_combine; auto. }
      destruct (tiles_nth_ge _ _ _ _ _ _ Tu' Hc). lia.
    + split; [lia|]. intros Hr.
      rewrite nth_error_app2 in Hn1 by lia. rewrite nth_error_app2 in Hn2 by (rewrite map_length; lia).
      rewrite map_length in Hn2. rewrite Hlen in Hn1.
      assert (Hc : nth_error (combine bb (map biLambdaCount bi)) (c - length uni) = Some (b, n)).
      { rewrite nth_error_combine; auto. }
      destruct (tiles_nth_ge _ _ _ _ _ _ Tb' Hc). lia.
Qed.

(** * C02 *)
Lemma vlist_length {A} (v : vec A) : length (vlist v) = vlen v.
Proof. unfold vlist. rewrite map_length, seq_length. reflexivity. Qed.

Lemma vseg_vlist {A} (v : vec A) s n w : vseg v s n = Ok w -> vlist w = firstn n (skipn s (vlist v)).
Proof.
  intros H. apply vseg_Ok in H as (H1 & H2 & H3).
  unfold vlist. rewrite H2. rewrite skipn_map, firstn_map.
  replace (firstn n (skipn s (seq 0 (vlen v)))) with (seq s n).
  - clear H1 H2.
    assert (E : forall k, map (vget w) (seq k n) = map (vget v) (seq (s + k) n)).
    { induction n as [|n IH]; intros k; simpl; [reflexivity|]. rewrite H3. f_equal.
      rewrite IH. rewrite Nat.add_succ_r. reflexivity. }
    rewrite E, Nat.add_0_r. reflexivity.
  - replace (vlen v) with (s + (n + (vlen v - s - n)))%nat by lia.
    rewrite seq_app, skipn_app, seq_length, Nat.sub_diag. simpl.
    rewrite skipn_all2 by (rewrite seq_length; lia). simpl.
    rewrite seq_app, firstn_app, seq_length, Nat.sub_diag. simpl.
    rewrite firstn_all2 by (rewrite seq_length; lia). rewrite app_nil_r. reflexivity.
Qed.

Lemma vseg_def {A} (v : vec A) s n : (s + n <= vlen v)%nat -> exists w, vseg v s n = Ok w.
Proof. intros H. unfold vseg. apply Nat.leb_le in H. rewrite H. eauto. Qed.

(** Reading every segment of a tiling and concatenating reads the whole range. *)
Lemma tiles_concat (x : vec R) s l e :
  tiles s l e -> (e <= vlen x)%nat ->
  exists ws, Forall2 (fun bn w => vseg x (fst bn) (snd bn) = Ok w) l ws /\
             concat (map vlist ws) = firstn (e - s) (skipn s (vlist x)).
Proof.
  revert s; induction l as [|[b n] l IH]; intros s Ht He; simpl in Ht.
  - subst. exists []. rewrite Nat.sub_diag. split; [constructor|reflexivity].
  - destruct Ht as [-> Ht]. destruct (IH _ Ht He) as (ws & F & C).
    pose proof (tiles_le _ _ _ Ht) as Hle.
    destruct (vseg_def x s n) as [w Hw]; [lia|].
    exists (w :: ws). split; [constructor; auto|]. simpl. rewrite C, (vseg_vlist _ _ _ _ Hw).
    replace (e - s)%nat with (n + (e - (s + n)))%nat by lia.
    rewrite firstn_add, skipn_add. reflexivity.
Qed.

Lemma accessors_lemma mbs uni bi d deps (x : vec R) :
  nrVarsData mbs uni bi = Ok (d, deps) -> vlen x = sdNrVars d ->
  exists ra rl a l,
    length ra = length mbs /\ length rl = (length uni + length bi)%nat /\
    (forall r w, nth_error ra r = Some w -> alphaDVecAt d x r = Ok w) /\
    (forall c w, nth_error rl c = Some w -> lambdaVecAt d x c = Ok w) /\
    alphaDVec d x = Ok a /\ lambdaVec d x = Ok l /\
    vlist a = concat (map vlist ra) /\ vlist l = concat (map vlist rl) /\
    vlist x = vlist a ++ vlist l.
Proof.
  intros H Hx. pose proof (nrVarsData_spec _ _ _ _ _ H) as
    (W & E1 & E2 & L1 & L2 & Ta & Tu & Tb & Tl & Nv & Eu & Eb & _ & T1 & T2 & _).
  destruct (tiles_concat x _ _ _ T1) as (ra & F1 & C1); [lia|].
  destruct (tiles_concat x _ _ _ T2) as (rl & F2 & C2); [lia|].
  destruct (vseg_def x 0 (sdTotalAlphaD d)) as [a Ha]; [lia|].
  destruct (vseg_def x (lambdaBegin d) (sdTotalLambda d)) as [l Hl]; [unfold lambdaBegin; lia|].
  exists ra, rl, a, l.
  assert (Lc1 : length (combine (sdAlphaDBegin d) (sdAlphaD d)) = length mbs).
  { rewrite combine_length, E1, map_length, L1. lia. }
  assert (Lc2 : length (combine (sdLambdaBegin d) (sdLambda d)) = (length uni + length bi)%nat).
  { rewrite combine_length, E2, app_length, !map_length, L2. lia. }
  assert (R1 : length ra = length mbs) by (rewrite <- (Forall2_len _ _ _ F1); auto).
  assert (R2 : length rl = (length uni + length bi)%nat) by (rewrite <- (Forall2_len _ _ _ F2); auto).
  split; [auto|]. split; [auto|]. split; [|split; [|split; [|split; [|split; [|split]]]]]; auto.
  - intros r w Hr.
    assert (Hlt : (r < length ra)%nat) by (apply nth_error_Some; congruence).
    destruct (nth_error (combine (sdAlphaDBegin d) (sdAlphaD d)) r) as [[b n]|] eqn:En;
      [|apply nth_error_None in En; lia].
    destruct (Forall2_nth_l _ _ _ _ _ F1 En) as (w' & Hw' & Hs). simpl in Hs.
    rewrite nth_error_combine in En. destruct En as [En1 En2].
    unfold alphaDVecAt, alphaDBegin, alphaD, vec_at. rewrite En1, En2. cbn [bind]. congruence.
  - intros r w Hr.
    assert (Hlt : (r < length rl)%nat) by (apply nth_error_Some; congruence).
    destruct (nth_error (combine (sdLambdaBegin d) (sdLambda d)) r) as [[b n]|] eqn:En;
      [|apply nth_error_None in En; lia].
    destruct (Forall2_nth_l _ _ _ _ _ F2 En) as (w' & Hw' & Hs). simpl in Hs.
    rewrite nth_error_combine in En. destruct En as [En1 En2].
    unfold lambdaVecAt, lambdaBeginAt, lambda, vec_at. rewrite En1, En2. cbn [bind]. congruence.
  - rewrite (vseg_vlist _ _ _ _ Ha). rewrite C1. f_equal. lia.
  - rewrite (vseg_vlist _ _ _ _ Hl). rewrite C2. f_equal. lia.
  - rewrite (vseg_vlist _ _ _ _ Ha), (vseg_vlist _ _ _ _ Hl). simpl.
    rewrite <- (firstn_skipn (sdTotalAlphaD d) (vlist x)) at 1. f_equal.
    unfold lambdaBegin. symmetry. apply firstn_all2. rewrite skipn_length, vlist_length. lia.
Qed.

(** * C03 *)
Lemma cid_eqb_true a b : cid_eqb a b = true <-> a = b.
Proof.
  unfold cid_eqb. destruct a, b; simpl.
  rewrite !andb_true_iff, !Z.eqb_eq, !String.eqb_eq. split.
  - intros [[[[-> ->] ->] ->] ->]. reflexivity.
  - intros E; inversion E; auto 10.
Qed.

Lemma positionLoop_spec cs cid pos :
  Forall wfBi cs ->
  (positionLoop cs cid pos = Ok (-1)%Z /\ ~ In cid (map bId cs)) \/
  (exists k c, nth_error cs k = Some c /\ bId c = cid /\ ~ In cid (map bId (firstn k cs)) /\
     positionLoop cs cid pos = Ok (Z.of_nat (pos + sumnat (map biLambdaCount (firstn k cs))))).
Proof.
  revert pos; induction cs as [|c cs IH]; intros pos W; simpl; [left; auto|].
  inversion W as [|? ? W1 W2]; subst.
  destruct (cid_eqb (bId c) cid) eqn:E.
  - apply cid_eqb_true in E. right. exists 0%nat, c. simpl. rewrite Nat.add_0_r. auto.
  - assert (Hne : bId c <> cid) by (intros Heq; apply cid_eqb_true in Heq; congruence).
    rewrite (bNrLambda_spec _ W1). cbn [bind].
    destruct (IH (pos + biLambdaCount c)%nat W2) as [[H1 H2]|(k & c' & H1 & H2 & H3 & H4)].
    + left. split; [auto|]. intros [Heq|Hin]; auto.
    + right. exists (S k), c'. simpl. split; [auto|]. split; [auto|]. split.
      * intros [Heq|Hin]; auto.
      * rewrite H4. f_equal. lia.
Qed.

Lemma tiles_begin s l e k b n : tiles s l e -> nth_error l k = Some (b, n) ->
  b = (s + sumnat (map snd (firstn k l)))%nat.
Proof.
  revert s k; induction l as [|[b' n'] l IH]; intros s k Ht Hn; [destruct k; discriminate|].
  simpl in Ht. destruct Ht as [-> Ht]. destruct k as [|k]; simpl in *.
  - inversion Hn; subst. lia.
  - rewrite (IH _ _ Ht Hn). lia.
Qed.

Lemma position_lemma mbs uni bi d deps cid :
  nrVarsData mbs uni bi = Ok (d, deps) ->
  (contactLambdaPosition d cid = Ok (-1)%Z <-> ~ In cid (contactIds uni bi)) /\
  (In cid (contactIds uni bi) ->
   exists c p, nth_error (contactIds uni bi) c = Some cid /\
     ~ In cid (firstn c (contactIds uni bi)) /\
     contactLambdaPosition d cid = Ok (Z.of_nat p) /\
     lambdaBeginAt d c = Ok (lambdaBegin d + p)%nat).
Proof.
  intros H. pose proof (nrVarsData_spec _ _ _ _ _ H) as
    (W & E1 & E2 & L1 & L2 & Ta & Tu & Tb & Tl & Nv & Eu & Eb & Ea & T1 & T2 & _).
  assert (Hids : map bId (sdAll d) = contactIds uni bi).
  { rewrite Ea. unfold contactIds. rewrite map_app, map_map. reflexivity. }
  assert (Hcnt : map biLambdaCount (sdAll d) = sdLambda d).
  { rewrite Ea, E2, map_app, map_map. f_equal. apply map_ext. apply biOfUni_count. }
  assert (Wall : Forall wfBi (sdAll d)).
  { rewrite Ea. apply Forall_app. split; [|auto]. apply Forall_forall. intros c Hc.
    apply in_map_iff in Hc as (u & <- & _). apply biOfUni_wf. }
  unfold contactLambdaPosition.
  destruct (positionLoop_spec _ cid 0 Wall) as [[P1 P2]|(k & c & P1 & P2 & P3 & P4)].
  - rewrite Hids in P2. split; [tauto|]. tauto.
  - rewrite P4.
    assert (Hin : In cid (contactIds uni bi)).
    { rewrite <- Hids. apply in_map_iff. exists c. split; auto. eapply nth_error_In; eauto. }
    split.
    + split; [|tauto]. intros Heq. inversion Heq. lia.
    + intros _. exists k, (sumnat (map biLambdaCount (firstn k (sdAll d)))).
      rewrite <- Hids. split; [|split; [|split]].
      * rewrite nth_error_map, P1. simpl. congruence.
      * rewrite firstn_map. auto.
      * reflexivity.
      * assert (Hk : (k < length (sdAll d))%nat) by (apply nth_error_Some; congruence).
        assert (Hlen : length (sdLambda d) = length (sdLambdaBegin d)).
        { rewrite E2, L2, app_length, !map_length. reflexivity. }
        assert (Hkl : (k < length (sdLambda d))%nat) by (rewrite <- Hcnt, map_length; auto).
        destruct (nth_error (combine (sdLambdaBegin d) (sdLambda d)) k) as [[b n]|] eqn:En;
          [|apply nth_error_None in En; rewrite combine_length in En; lia].
        pose proof (tiles_begin _ _ _ _ _ _ T2 En) as Hb.
        rewrite nth_error_combine in En. unfold lambdaBeginAt. apply vec_at_Ok.
        rewrite (proj1 En). f_equal. rewrite Hb. unfold lambdaBegin. f_equal. f_equal.
        rewrite <- firstn_map, map_snd_combine by auto. rewrite <- Hcnt. rewrite firstn_map. reflexivity.
Qed.

(** * Mimic dependencies (C67) *)

Lemma indexByName_sound js nm k :
  indexByName js nm = Ok k -> exists j, nth_error js k = Some j /\ jname j = nm.
Proof.
  revert k; induction js as [|j js IH]; intros k H; simpl in H; [discriminate|].
  destruct (String.eqb (jname j) nm) eqn:E.
  - inversion H; subst. exists j. split; auto. apply String.eqb_eq; auto.
  - apply bind_Ok in H as (k' & Hk & H). inversion H; subst. simpl. auto.
Qed.

Lemma indexByName_complete js k j :
  NoDup (map jname js) -> nth_error js k = Some j -> indexByName js (jname j) = Ok k.
Proof.
  revert k; induction js as [|j0 js IH]; intros k Hnd Hk; [destruct k; discriminate|].
  simpl in *. inversion Hnd as [|? ? Hn Hnd']; subst. destruct k as [|k]; simpl in Hk.
  - inversion Hk; subst. rewrite String.eqb_refl. reflexivity.
  - destruct (String.eqb (jname j0) (jname j)) eqn:E.
    + apply String.eqb_eq in E. exfalso. apply Hn. rewrite E. apply in_map. eapply nth_error_In; eauto.
    + rewrite (IH _ Hnd' Hk). reflexivity.
Qed.

Lemma indexByName_def js nm : In nm (map jname js) -> exists k, indexByName js nm = Ok k.
Proof.
  induction js as [|j js IH]; intros H; simpl in *; [destruct H|].
  destruct (String.eqb (jname j) nm) eqn:E; [eauto|].
  destruct H as [H|H]; [rewrite H, String.eqb_refl in E; discriminate|].
  destruct (IH H) as [k Hk]. rewrite Hk. cbn. eauto.
Qed.

Lemma firstn_snoc_nth {A} (l : list A) k a : nth_error l k = Some a -> firstn (S k) l = firstn k l ++ [a].
Proof.
  revert k; induction l as [|x l IH]; intros [|k] H; simpl in *; try discriminate.
  - inversion H; reflexivity.
  - f_equal. apply IH; auto.
Qed.

Lemma dofBefore_S mb k j : nth_error (joints mb) k = Some j -> dofBefore mb (S k) = (dofBefore mb k + jdof j)%nat.
Proof.
  intros H. unfold dofBefore. rewrite (firstn_snoc_nth _ _ _ H), map_app, sumnat_app. simpl. lia.
Qed.

Lemma dofBefore_mono mb k1 k2 : (k1 <= k2)%nat -> (dofBefore mb k1 <= dofBefore mb k2)%nat.
Proof.
  intros H. unfold dofBefore. replace k2 with (k1 + (k2 - k1))%nat by lia.
  rewrite firstn_add, map_app, sumnat_app. lia.
Qed.

Lemma dofBefore_nrDof mb k : (dofBefore mb k <= nrDof mb)%nat.
Proof.
  unfold dofBefore, nrDof. rewrite <- (firstn_skipn k (joints mb)) at 2.
  rewrite map_app, sumnat_app. lia.
Qed.

Lemma dofBefore_lt mb k j : nth_error (joints mb) k = Some j -> (1 <= jdof j)%nat -> (dofBefore mb k < nrDof mb)%nat.
Proof. intros H Hd. pose proof (dofBefore_nrDof mb (S k)). rewrite (dofBefore_S _ _ _ H) in *. lia. Qed.

(** Two joints with a dof at the same position are the same joint. *)
Lemma dofBefore_inj mb k1 k2 j1 j2 :
  nth_error (joints mb) k1 = Some j1 -> nth_error (joints mb) k2 = Some j2 ->
  (1 <= jdof j1)%nat -> (1 <= jdof j2)%nat -> dofBefore mb k1 = dofBefore mb k2 -> k1 = k2.
Proof.
  intros H1 H2 D1 D2 E. destruct (Nat.lt_trichotomy k1 k2) as [H|[H|H]]; auto.
  - pose proof (dofBefore_mono mb (S k1) k2 H). rewrite (dofBefore_S _ _ _ H1) in *. lia.
  - pose proof (dofBefore_mono mb (S k2) k1 H). rewrite (dofBefore_S _ _ _ H2) in *. lia.
Qed.

(** The dependencies of one robot, from joint number [k] on. *)
Lemma mimicDeps_In mb b js k ds :
  NoDup (map jname (joints mb)) -> js = skipn k (joints mb) ->
  mimicDeps mb b js = Ok ds ->
  forall l rp m, In (l, rp, m) ds <->
    exists il ir, (k <= ir)%nat /\ mimicOf mb il ir m /\
                  l = (b + dofBefore mb il)%nat /\ rp = (b + dofBefore mb ir)%nat.
Proof.
  intros Hnd. revert k ds; induction js as [|j js IH]; intros k ds Hjs H l rp m.
  - simpl in H. inversion H; subst. split; [intros []|].
    intros (il & ir & Hk & (jl & jr & _ & Hr & _) & _).
    assert (length (skipn k (joints mb)) = 0)%nat by (rewrite <- Hjs; reflexivity).
    rewrite skipn_length in *.
    assert (ir < length (joints mb))%nat by (apply nth_error_Some; congruence). lia.
  - assert (Hk : nth_error (joints mb) k = Some j).
    { clear -Hjs. revert Hjs. generalize (joints mb) as L. induction k as [|k IH]; intros [|x L] H; simpl in *; try discriminate.
      - inversion H; reflexivity.
      - auto. }
    assert (Hjs' : js = skipn (S k) (joints mb)).
    { rewrite (skipn_nth_cons _ _ _ Hk) in Hjs. inversion Hjs; auto. }
    simpl in H. destruct (jmimic j) as [[nm mu]|] eqn:Em.
    + apply bind_Ok in H as (il & Hil & H). apply bind_Ok in H as (ir & Hir & H).
      apply bind_Ok in H as (ds' & Hds & H). inversion H; subst ds; clear H.
      unfold jointIndexByName in *. rewrite (indexByName_complete _ _ _ Hnd Hk) in Hir.
      inversion Hir; subst ir; clear Hir.
      apply indexByName_sound in Hil as (jl & Hjl & Hnm).
      pose proof (IH _ _ Hjs' Hds l rp m) as IH'. simpl. split.
      * intros [E|Hin].
        { inversion E; subst. exists il, k. split; [lia|]. split; [|auto].
          exists jl, j. rewrite Em. auto. }
        { apply IH' in Hin as (il' & ir' & H1 & H2). exists il', ir'. split; [lia|auto]. }
      * intros (il' & ir' & H1 & H2 & H3 & H4).
        destruct (Nat.eq_dec ir' k) as [->|Hne].
        { left. destruct H2 as (jl' & jr' & N1 & N2 & N3).
          assert (jr' = j) by congruence. subst jr'. rewrite Em in N3. inversion N3; subst.
          assert (il' = il); [|subst; reflexivity].
          assert (jname jl = jname jl') by congruence.
          pose proof (indexByName_complete _ _ _ Hnd N1) as C1.
          pose proof (indexByName_complete _ _ _ Hnd Hjl) as C2.
          rewrite H in C2. congruence. }
        { right. apply IH'. exists il', ir'. split; [lia|auto]. }
    + pose proof (IH _ _ Hjs' H l rp m) as IH'. rewrite IH'. split.
      * intros (il & ir & H1 & H2). exists il, ir. split; [lia|auto].
      * intros (il & ir & H1 & H2 & H3). exists il, ir. split; [|auto].
        destruct (Nat.eq_dec ir k) as [->|Hne]; [|lia].
        destruct H2 as (jl & jr & N1 & N2 & N3). congruence.
Qed.

Lemma mimicDeps_replicas mb b js k ds :
  wfMimic mb -> js = skipn k (joints mb) -> mimicDeps mb b js = Ok ds ->
  NoDup (map (fun d => snd (fst d)) ds).
Proof.
  intros [Hnd Hwf]. revert k ds; induction js as [|j js IH]; intros k ds Hjs H.
  - simpl in H. inversion H. constructor.
  - assert (Hk : nth_error (joints mb) k = Some j).
    { clear -Hjs. revert Hjs. generalize (joints mb) as L. induction k as [|k IH]; intros [|x L] H; simpl in *; try discriminate.
      - inversion H; reflexivity.
      - auto. }
    assert (Hjs' : js = skipn (S k) (joints mb)).
    { rewrite (skipn_nth_cons _ _ _ Hk) in Hjs. inversion Hjs; auto. }
    simpl in H. destruct (jmimic j) as [[nm mu]|] eqn:Em; [|eapply IH; eauto].
    apply bind_Ok in H as (il & Hil & H). apply bind_Ok in H as (ir & Hir & H).
    apply bind_Ok in H as (ds' & Hds & H). inversion H; subst ds; clear H.
    unfold jointIndexByName in *. rewrite (indexByName_complete _ _ _ Hnd Hk) in Hir.
    inversion Hir; subst ir; clear Hir.
    simpl. constructor; [|eapply IH; eauto].
    intros Hin. apply in_map_iff in Hin as ([[l rp] m] & E & Hin). simpl in E.
    apply (mimicDeps_In mb b js (S k) ds' Hnd Hjs' Hds) in Hin as (il' & ir' & H1 & H2 & H3 & H4).
    destruct H2 as (jl' & jr' & N1 & N2 & N3).
    assert (ir' = k); [|lia].
    eapply dofBefore_inj; eauto.
    + eapply Hwf; [eapply nth_error_In; exact N2|exact N3].
    + eapply Hwf; [eapply nth_error_In; exact Hk|exact Em].
    + unfold jointPosInDof in E. unfold dofBefore. unfold dofBefore in H4. lia.
Qed.

Lemma robotLoop_deps mbs r0 cum rl :
  Forall wfMimic mbs -> robotLoop mbs r0 cum = Ok rl ->
  (forall l rp m, In (l, rp, m) (rlDeps rl) <->
     exists r mb il ir b, nth_error mbs r = Some mb /\ nth_error (rlBegin rl) r = Some b /\
       mimicOf mb il ir m /\ l = (b + dofBefore mb il)%nat /\ rp = (b + dofBefore mb ir)%nat) /\
  NoDup (map (fun d => snd (fst d)) (rlDeps rl)) /\
  (forall l rp m, In (l, rp, m) (rlDeps rl) -> (cum <= l < rlTotal rl /\ cum <= rp < rlTotal rl)%nat).
Proof.
  revert r0 cum rl; induction mbs as [|mb mbs IH]; intros r0 cum rl W H.
  - simpl in H. inversion H; subst; simpl. split; [|split; [constructor|tauto]].
    intros l rp m. split; [tauto|]. intros (r & mb & _ & _ & _ & Hn & _). destruct r; discriminate.
  - inversion W as [|? ? W1 W2]; subst.
    pose proof (robotLoop_spec _ _ _ _ H) as (_ & _ & _ & Htot).
    cbn [robotLoop] in H. apply bind_Ok in H as [ds [Hds H]]. apply bind_Ok in H as [rl' [Hrl H]].
    inversion H; subst; clear H. simpl. simpl in Htot.
    destruct (IH _ _ _ W2 Hrl) as (I1 & I2 & I3).
    assert (D : (forall l rp m, In (l, rp, m) ds <->
       exists il ir, mimicOf mb il ir m /\ l = (cum + dofBefore mb il)%nat /\ rp = (cum + dofBefore mb ir)%nat)
       /\ NoDup (map (fun d => snd (fst d)) ds)).
    { destruct (0 <? nrDof mb)%nat eqn:E0.
      - split.
        + intros l rp m. rewrite (mimicDeps_In mb cum (joints mb) 0 ds (proj1 W1) eq_refl Hds).
          split; intros (il & ir & Hx); exists il, ir; [tauto|split; [lia|tauto]].
        + eapply (mimicDeps_replicas mb cum (joints mb) 0); eauto.
      - inversion Hds; subst. split; [|constructor].
        intros l rp m. split; [intros []|].
        intros (il & ir & (jl & jr & N1 & N2 & N3) & _).
        apply Nat.ltb_ge in E0.
        assert (1 <= jdof jr)%nat by (eapply W1; [eapply nth_error_In; exact N2|exact N3]).
        pose proof (dofBefore_lt _ _ _ N2 H). lia. }
    destruct D as [D1 D2].
    assert (Db : forall l rp m, In (l, rp, m) ds -> (cum <= l < cum + nrDof mb /\ cum <= rp < cum + nrDof mb)%nat).
    { intros l rp m Hin. apply D1 in Hin as (il & ir & (jl & jr & N1 & N2 & N3) & -> & ->).
      destruct (proj2 W1 _ _ _ (nth_error_In _ _ N2) N3) as (Dr & jl' & Hl' & Hn' & _ & Dl).
      assert (jl' = jl).
      { apply In_nth_error in Hl' as (k' & Hk').
        pose proof (indexByName_complete _ _ _ (proj1 W1) N1) as C1.
        pose proof (indexByName_complete _ _ _ (proj1 W1) Hk') as C2.
        rewrite Hn' in C2. rewrite C1 in C2. inversion C2; subst. congruence. }
      subst jl'.
      pose proof (dofBefore_lt _ _ _ N1 Dl). pose proof (dofBefore_lt _ _ _ N2 Dr). lia. }
    pose proof (robotLoop_spec _ _ _ _ Hrl) as (_ & _ & _ & Htot').
    split; [|split].
    + intros l rp m. rewrite in_app_iff, D1, I1. split.
      * intros [(il & ir & Hx)|(r & mb' & il & ir & b & Hx)].
        { exists 0%nat, mb, il, ir, cum. simpl. tauto. }
        { exists (S r), mb', il, ir, b. simpl. tauto. }
      * intros (r & mb' & il & ir & b & H1 & H2 & H3). destruct r as [|r]; simpl in *.
        { inversion H1; inversion H2; subst. left. exists il, ir. tauto. }
        { right. exists r, mb', il, ir, b. tauto. }
    + rewrite map_app. clear I1 D1. apply NoDup_app_intro; auto.
      intros x Hx1 Hx2. apply in_map_iff in Hx1 as ([[l1 r1] m1] & E1 & H1).
      apply in_map_iff in Hx2 as ([[l2 r2] m2] & E2 & H2). simpl in *; subst.
      apply Db in H1. apply I3 in H2. lia.
    + intros l rp m Hin. apply in_app_iff in Hin as [Hin|Hin]; [apply Db in Hin|apply I3 in Hin]; lia.
Qed.

Lemma mimicDeps_def mb b js :
  (forall j nm m, In j js -> jmimic j = Some (nm, m) -> In nm (map jname (joints mb))) ->
  (forall j, In j js -> In j (joints mb)) ->
  exists ds, mimicDeps mb b js = Ok ds.
Proof.
  induction js as [|j js IH]; intros H1 H2; [simpl; eauto|].
  destruct IH as [ds Hds].
  { intros; eapply H1; eauto; right; eauto. }
  { intros; apply H2; right; auto. }
  simpl. destruct (jmimic j) as [[nm mu]|] eqn:E; [|eauto].
  destruct (indexByName_def (joints mb) nm) as [k Hk]; [eapply H1; eauto; left; auto|].
  destruct (indexByName_def (joints mb) (jname j)) as [k' Hk'].
  { apply in_map. apply H2. left; auto. }
  unfold jointIndexByName. rewrite Hk, Hk', Hds. cbn. eauto.
Qed.

Lemma robotLoop_def mbs r cum :
  (forall mb j nm m, In mb mbs -> In j (joints mb) -> jmimic j = Some (nm, m) -> In nm (map jname (joints mb))) ->
  exists rl, robotLoop mbs r cum = Ok rl.
Proof.
  revert r cum; induction mbs as [|mb mbs IH]; intros r cum H; [simpl; eauto|].
  cbn [robotLoop].
  destruct (IH (S r) (cum + nrDof mb)%nat) as [rl Hrl].
  { intros; eapply H; eauto; right; auto. }
  destruct (mimicDeps_def mb cum (joints mb)) as [ds Hds]; auto.
  { intros; eapply H; eauto; left; auto. }
  destruct (0 <? nrDof mb)%nat; [rewrite Hds|]; cbn [bind]; rewrite Hrl; cbn; eauto.
Qed.

Lemma layout_defined_lemma mbs uni bi :
  Forall wfBi bi ->
  (forall mb j nm m, In mb mbs -> In j (joints mb) -> jmimic j = Some (nm, m) -> In nm (map jname (joints mb))) ->
  exists d deps, nrVarsData mbs uni bi = Ok (d, deps).
Proof.
  intros W Hm. unfold nrVarsData.
  destruct (robotLoop_def mbs 0 0 Hm) as [rl Hrl]. rewrite Hrl. cbn [bind].
  destruct (contactLoop_def uNrLambda uniLambdaCount uni (rlTotal rl)) as (ls & bs & tot & E).
  { intros; apply uNrLambda_spec. }
  rewrite E. cbn [bind].
  destruct (contactLoop_def bNrLambda biLambdaCount bi tot) as (ls' & bs' & tot' & E').
  { intros c Hc. apply bNrLambda_spec. rewrite Forall_forall in W. auto. }
  rewrite E'. cbn [bind]. eauto.
Qed.

Lemma layout_deps_lemma mbs uni bi d deps :
  Forall wfMimic mbs -> nrVarsData mbs uni bi = Ok (d, deps) ->
  (forall l rp m, In (l, rp, m) deps <->
     exists r mb il ir b, nth_error mbs r = Some mb /\ alphaDBegin d r = Ok b /\
       mimicOf mb il ir m /\ l = (b + dofBefore mb il)%nat /\ rp = (b + dofBefore mb ir)%nat) /\
  NoDup (map (fun x => snd (fst x)) deps) /\
  (forall l rp m, In (l, rp, m) deps ->
     (l < sdTotalAlphaD d)%nat /\ (rp < sdTotalAlphaD d)%nat /\ ~ In l (map (fun x => snd (fst x)) deps)).
Proof.
  intros W H. pose proof (nrVarsData_spec _ _ _ _ _ H) as
    (_ & _ & _ & _ & _ & Ta & _ & _ & _ & _ & _ & _ & _ & _ & _ & rl & Hrl & Eb & -> & _).
  pose proof (robotLoop_spec _ _ _ _ Hrl) as (_ & _ & Tl & Htot). simpl in Htot.
  destruct (robotLoop_deps _ _ _ _ W Hrl) as (I1 & I2 & I3).
  assert (I1' : forall l rp m, In (l, rp, m) (rlDeps rl) <->
     exists r mb il ir b, nth_error mbs r = Some mb /\ alphaDBegin d r = Ok b /\
       mimicOf mb il ir m /\ l = (b + dofBefore mb il)%nat /\ rp = (b + dofBefore mb ir)%nat).
  { intros l rp m. rewrite I1. unfold alphaDBegin. rewrite Eb.
    split; intros (r & mb & il & ir & b & Hx); exists r, mb, il, ir, b; rewrite vec_at_Ok in *; auto. }
  split; [auto|]. split; [auto|].
  intros l rp m Hin. pose proof (I3 _ _ _ Hin). split; [lia|]. split; [lia|].
  intros Hl. apply in_map_iff in Hl as ([[l' rp'] m'] & E & Hin'). simpl in E; subst rp'.
  apply I1 in Hin as (r & mb & il & ir & b & Hmb & Hb & (jl & jr & N1 & N2 & N3) & -> & ->).
  apply I1 in Hin' as (r' & mb' & il' & ir' & b' & Hmb' & Hb' & (jl' & jr' & N1' & N2' & N3') & _ & E').
  rewrite Forall_forall in W.
  pose proof (W _ (nth_error_In _ _ Hmb)) as Wmb. pose proof (W _ (nth_error_In _ _ Hmb')) as Wmb'.
  destruct (proj2 Wmb _ _ _ (nth_error_In _ _ N2) N3) as (Dr & jl2 & Hl2 & Hn2 & Hnone & Dl).
  assert (jl2 = jl).
  { apply In_nth_error in Hl2 as (k' & Hk').
    pose proof (indexByName_complete _ _ _ (proj1 Wmb) N1) as C1.
    pose proof (indexByName_complete _ _ _ (proj1 Wmb) Hk') as C2.
    rewrite Hn2 in C2. rewrite C1 in C2. inversion C2; subst. congruence. }
  subst jl2.
  assert (Dr' : (1 <= jdof jr')%nat) by (eapply Wmb'; [eapply nth_error_In; exact N2'|exact N3']).
  pose proof (dofBefore_lt _ _ _ N1 Dl) as B1. pose proof (dofBefore_lt _ _ _ N2' Dr') as B2.
  (* both indices lie in the segment of their robot, hence r = r' *)
  pose proof (robotLoop_spec _ _ _ _ Hrl) as (Ea & Lb & _ & _).
  assert (S1 : inseg (combine (rlBegin rl) (rlAlphaD rl)) r (b + dofBefore mb il)).
  { exists b, (nrDof mb). rewrite nth_error_combine, Ea. split; [split; auto; apply nth_error_map_some; auto|lia]. }
  assert (S2 : inseg (combine (rlBegin rl) (rlAlphaD rl)) r' (b + dofBefore mb il)).
  { rewrite E'. exists b', (nrDof mb'). rewrite nth_error_combine, Ea.
    split; [split; auto; apply nth_error_map_some; auto|lia]. }
  destruct (proj1 (tiles_unique _ _ _ Tl (b + dofBefore mb il)%nat)) as (k & _ & Hu).
  { eapply inseg_bounds; eauto. }
  assert (r = r') by (rewrite <- (Hu _ S1), <- (Hu _ S2); reflexivity). subst r'.
  assert (mb' = mb) by congruence. assert (b' = b) by congruence. subst.
  assert (il = ir') by (eapply dofBefore_inj; eauto; lia). subst. congruence.
Qed.

(** * Order of the segments (C01) *)
Lemma layout_begin_lemma mbs uni bi d deps :
  nrVarsData mbs uni bi = Ok (d, deps) ->
  (forall r, (r < length mbs)%nat -> alphaDBegin d r = Ok (sumnat (firstn r (map nrDof mbs)))) /\
  (forall c, (c < length uni + length bi)%nat ->
     lambdaBeginAt d c = Ok (sumnat (map nrDof mbs) +
                             sumnat (firstn c (map uniLambdaCount uni ++ map biLambdaCount bi)))%nat).
Proof.
  intros H. pose proof (nrVarsData_spec _ _ _ _ _ H) as
    (W & E1 & E2 & L1 & L2 & Ta & Tu & Tb & Tl & Nv & Eu & Eb & Ea & T1 & T2 & _).
  split.
  - intros r Hr.
    assert (Hlen : length (sdAlphaDBegin d) = length (sdAlphaD d)) by (rewrite E1, map_length; auto).
    destruct (nth_error (combine (sdAlphaDBegin d) (sdAlphaD d)) r) as [[b n]|] eqn:En;
      [|apply nth_error_None in En; rewrite combine_length in En; lia].
    pose proof (tiles_begin _ _ _ _ _ _ T1 En) as Hb. rewrite nth_error_combine in En.
    unfold alphaDBegin. apply vec_at_Ok. rewrite (proj1 En). f_equal. rewrite Hb. simpl.
    rewrite <- firstn_map, map_snd_combine by auto. rewrite E1. reflexivity.
  - intros c Hc.
    assert (Hlen : length (sdLambdaBegin d) = length (sdLambda d))
      by (rewrite E2, L2, app_length, !map_length; reflexivity).
    destruct (nth_error (combine (sdLambdaBegin d) (sdLambda d)) c) as [[b n]|] eqn:En;
      [|apply nth_error_None in En; rewrite combine_length in En; lia].
    pose proof (tiles_begin _ _ _ _ _ _ T2 En) as Hb. rewrite nth_error_combine in En.
    unfold lambdaBeginAt. apply vec_at_Ok. rewrite (proj1 En). f_equal. rewrite Hb.
    rewrite <- firstn_map, map_snd_combine by auto. rewrite E2, Ta. reflexivity.
Qed.
