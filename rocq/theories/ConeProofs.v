(** Lemmas about friction cones and the checked contact functions. *)
From Coq Require Import Ratan.
From Verif Require Export ContactProofs.
Open Scope R_scope.

(* ------------------------------------------------------------------ *)
(** * Friction cones (C27) *)
Lemma tangential_add n a b : tangential n (vadd a b) = vadd (tangential n a) (tangential n b).
Proof. unfold tangential. rewrite dot_vadd_r. v3. Qed.
Lemma tangential_sc n k a : tangential n (vsc k a) = vsc k (tangential n a).
Proof. unfold tangential. rewrite dot_vsc_r. v3. Qed.
Lemma inCone_0 n mu : inCone n mu v0.
Proof.
  unfold inCone, tangential. replace (dot n v0) with 0 by (v3unf; ring).
  replace (vsub v0 (vsc 0 n)) with v0 by v3. rewrite norm_v0. lra.
Qed.
Lemma inCone_add n mu a b : inCone n mu a -> inCone n mu b -> inCone n mu (vadd a b).
Proof.
  intros (A1 & A2) (B1 & B2). split; rewrite dot_vadd_r; [lra|].
  rewrite tangential_add. pose proof (norm_triangle (tangential n a) (tangential n b)). lra.
Qed.
Lemma inCone_sc n mu k a : 0 <= k -> inCone n mu a -> inCone n mu (vsc k a).
Proof.
  intros K (A1 & A2). split; rewrite dot_vsc_r; [nra|].
  rewrite tangential_sc, norm_vsc, Rabs_right by lra. nra.
Qed.
Lemma inCone_comb n mu gens l : (forall g, In g gens -> inCone n mu g) -> (forall i, (i < length gens)%nat -> 0 <= l i) ->
  inCone n mu (comb gens l).
Proof.
  revert l; induction gens as [|g gs IH]; intros l HG HL; simpl; [apply inCone_0|].
  apply inCone_add; [apply inCone_sc; [apply HL; simpl; lia|apply HG; simpl; auto]|].
  apply IH; [intros; apply HG; simpl; auto|]. intros i Hi. apply HL. simpl; lia.
Qed.

Lemma rotate_dot_axis x n g : norm2 n = 1 -> dot n (rotate x n g) = dot n g.
Proof.
  intros H. unfold rotate. rewrite !dot_vadd_r, !dot_vsc_r, dot_cross_l. unfold norm2 in H. rewrite H. ring.
Qed.
(** Inner product of two rotated vectors about the same unit axis. *)
Lemma rotate_dot x y n g h : norm2 n = 1 ->
  dot (rotate x n g) (rotate y n h) =
  cos (x - y) * dot g h + (1 - cos (x - y)) * (dot n g * dot n h) + sin (x - y) * dot (cross n g) h.
Proof.
  intros Hn. rewrite cos_minus, sin_minus. unfold rotate.
  rewrite !dot_vadd_l, !dot_vadd_r, !dot_vsc_l, !dot_vsc_r.
  assert (A : dot (cross n g) (cross n h) = dot g h - dot n h * dot n g).
  { rewrite binet. unfold norm2 in Hn. rewrite Hn, (dot_comm g n). ring. }
  assert (B : dot g (cross n h) = - dot (cross n g) h) by (v3unf; ring).
  assert (C : dot n (cross n h) = 0) by apply dot_cross_l.
  assert (D : dot (cross n g) n = 0) by (rewrite dot_comm; apply dot_cross_l).
  rewrite A, B, C, D, (dot_comm g n). unfold norm2 in Hn. rewrite Hn. ring.
Qed.

Section Cone.
Variables (frame : M3) (nrGen : nat) (mu dir : R).
Hypothesis Horth : orthonormal frame.
Hypothesis Hdir : dir * dir = 1.
Let n := row2 frame.
Let t := vsc dir (row0 frame).
Let g0 := rotate (atan mu) t n.
Let ang i := dir * (PI * 2 / INR nrGen) * INR i.

Lemma cone_nn : norm2 n = 1. Proof. destruct Horth as (_ & _ & H & _). exact H. Qed.
Lemma cone_tt : norm2 t = 1.
Proof. destruct Horth as (H & _). unfold t, norm2 in *. rewrite dot_vsc_l, dot_vsc_r, H. lra. Qed.
Lemma cone_tn : dot t n = 0.
Proof. destruct Horth as (_ & _ & _ & _ & H & _). unfold t, n. rewrite dot_vsc_l, H. ring. Qed.
Lemma cone_g0 : g0 = vadd (vsc (cos (atan mu)) n) (vsc (sin (atan mu)) (cross t n)).
Proof. unfold g0, rotate. rewrite cone_tn, Rmult_0_r, vsc_0, vadd_0_r. reflexivity. Qed.
Lemma cone_n_g0 : dot n g0 = cos (atan mu).
Proof. rewrite cone_g0, dot_vadd_r, !dot_vsc_r, dot_cross_r. pose proof cone_nn as H. unfold norm2 in H. rewrite H. ring. Qed.
Lemma cone_g0_g0 : dot g0 g0 = 1.
Proof.
  unfold g0. rewrite rotate_dot by apply cone_tt. pose proof cone_nn as H. unfold norm2 in H. rewrite Rminus_eq_0, cos_0, sin_0, H. ring.
Qed.
Lemma cone_cross_g0 : dot (cross n g0) g0 = 0.
Proof. v3unf; ring. Qed.

Lemma cone_nth i g : nth_error (generators (mkFrictionCone frame nrGen mu dir)) i = Some g ->
  (i < nrGen)%nat /\ g = rotate (ang i) n g0.
Proof.
  simpl. rewrite nth_error_map. intros H. destruct (nth_error (seq 0 nrGen) i) eqn:E; [|discriminate].
  assert (L : (i < nrGen)%nat) by (rewrite <- (seq_length nrGen 0); apply nth_error_Some; congruence).
  split; [exact L|]. rewrite (nth_error_nth' _ 0%nat) in E by (rewrite seq_length; auto).
  rewrite seq_nth in E by auto. inversion E; subst. simpl in H. inversion H. reflexivity.
Qed.
Lemma cone_dot i j g h :
  nth_error (generators (mkFrictionCone frame nrGen mu dir)) i = Some g ->
  nth_error (generators (mkFrictionCone frame nrGen mu dir)) j = Some h ->
  dot n g = cos (atan mu) /\ dot g g = 1 /\
  dot (tangential n g) (tangential n h) = sin (atan mu) * sin (atan mu) * cos (2 * PI / INR nrGen * (INR i - INR j)).
Proof.
  intros Hg Hh. apply cone_nth in Hg as (Li & ->). apply cone_nth in Hh as (Lj & ->).
  assert (N : forall k, dot n (rotate (ang k) n g0) = cos (atan mu)) by (intros; rewrite rotate_dot_axis, cone_n_g0; [auto|apply cone_nn]).
  assert (G : forall x y, dot (rotate x n g0) (rotate y n g0) = cos (x - y) * 1 + (1 - cos (x - y)) * (cos (atan mu) * cos (atan mu))).
  { intros. rewrite rotate_dot by apply cone_nn. rewrite cone_g0_g0, cone_n_g0, cone_cross_g0. ring. }
  split; [apply N|]. split; [rewrite G, Rminus_eq_0, cos_0; ring|].
  unfold tangential. rewrite N. rewrite (N j).
  assert (X : forall a b c, dot (vsub a (vsc c n)) (vsub b (vsc c n)) = dot a b - c * dot n b - c * dot n a + c * c * norm2 n) by (intros; v3unf; ring).
  rewrite X, G, !N, cone_nn.
  assert (C : cos (ang i - ang j) = cos (2 * PI / INR nrGen * (INR i - INR j))).
  { unfold ang. assert (D : dir = 1 \/ dir = -1).
    { assert (K : (dir - 1) * (dir + 1) = 0) by lra. apply Rmult_integral in K as [K|K]; [left|right]; lra. }
    destruct D as [-> | ->].
    - f_equal. unfold Rdiv. ring.
    - rewrite <- cos_neg. f_equal. unfold Rdiv. ring. }
  rewrite C. pose proof (sin2_cos2 (atan mu)) as S. unfold Rsqr in S.
  replace (sin (atan mu) * sin (atan mu)) with (1 - cos (atan mu) * cos (atan mu)) by lra. ring.
Qed.

Lemma sin_atan_mu : 0 <= mu -> sin (atan mu) = mu * cos (atan mu) /\ 0 < cos (atan mu) /\ 0 <= sin (atan mu).
Proof.
  intros H. pose proof (atan_bound mu) as (B1 & B2).
  assert (C : 0 < cos (atan mu)) by (apply cos_gt_0; lra).
  assert (S : sin (atan mu) = mu * cos (atan mu)).
  { rewrite <- (tan_atan mu) at 2. unfold tan. field. lra. }
  split; [auto|split; [auto|]]. rewrite S. apply Rmult_le_pos; lra.
Qed.
Lemma cone_generator i g : 0 <= mu ->
  nth_error (generators (mkFrictionCone frame nrGen mu dir)) i = Some g ->
  norm g = 1 /\ 0 < dot n g /\ norm (tangential n g) = mu * dot n g.
Proof.
  intros Hmu Hg. destruct (cone_dot i i g g Hg Hg) as (N & G & T).
  destruct (sin_atan_mu Hmu) as (S1 & S2 & S3).
  split; [|split].
  - unfold norm, norm2. rewrite G. apply sqrt_1.
  - lra.
  - unfold norm, norm2. rewrite T. rewrite Rminus_eq_0, Rmult_0_r, cos_0, Rmult_1_r, N, <- S1. apply sqrt_square; auto.
Qed.
Lemma cone_in g : 0 <= mu -> In g (generators (mkFrictionCone frame nrGen mu dir)) -> inCone n mu g.
Proof.
  intros Hmu H. apply In_nth_error in H as (i & H). destruct (cone_generator i g Hmu H) as (_ & A & B). split; lra.
Qed.
End Cone.

Lemma inCone_forces n mu : forall ks l pos, (forall k g, In k ks -> In g (generators k) -> inCone n mu g) ->
  (forall i, (pos <= i < pos + sumnat (sizes ks))%nat -> 0 <= l i) ->
  inCone n mu (vsum (forces ks l pos)).
Proof.
  induction ks as [|k ks IH]; intros l pos HG HL; simpl; [apply inCone_0|].
  simpl in HL. apply inCone_add.
  - apply inCone_comb; [intros; eapply HG; simpl; eauto|]. intros i Hi. apply HL. lia.
  - apply IH; [intros; eapply HG; simpl; eauto|]. intros i Hi. apply HL. lia.
Qed.

Lemma cone_unilateral cid pts frame X n mu Xcf lam f :
  orthonormal frame -> rotation (ptE X) -> 0 <= mu -> nonneg lam ->
  let c := newUnilateral cid pts frame X n mu Xcf in
  (uForce c lam (uR1Cone c) = Ok f -> inCone (row2 frame) mu f) /\
  (uForce c lam (uR2Cone c) = Ok f -> inCone (vneg (m3mulv (ptE X) (row2 frame))) mu f).
Proof.
  intros HF HX Hmu Hlam c. pose proof (newUni_wf cid pts frame X n mu Xcf) as (W1 & W2). fold c in W1, W2.
  split; intros H.
  - apply uForce_total in H as (L & ->); auto. apply inCone_forces.
    + intros k g Hk Hg. apply repeat_spec in Hk. subst k. eapply (cone_in frame n mu 1); eauto. lra.
    + intros i Hi. apply Hlam. rewrite sizes_repeat, sumnat_repeat in Hi. lia.
  - apply uForce_total in H as (L & ->); auto. apply inCone_forces.
    + intros k g Hk Hg. apply repeat_spec in Hk. subst k.
      pose proof (cone_in (m3neg (m3mul frame (m3tr (ptE X)))) n mu (-1) (orthonormal_neg _ (rotation_orthonormal_rows _ _ HX HF))) as P.
      simpl row2 in P. rewrite m3tr_tr in P. apply P; auto. lra.
    + intros i Hi. apply Hlam. rewrite sizes_repeat, sumnat_repeat in Hi. lia.
Qed.

Lemma cone_bilateral cid pts frames X n mu Xcf c p frame lam f :
  newBilateral cid pts frames X n mu Xcf = Ok c -> nth_error frames p = Some frame ->
  orthonormal frame -> rotation (ptE X) -> 0 <= mu -> nonneg lam ->
  (bForceAt lam p (bR1Cones c) = Ok f -> inCone (row2 frame) mu f) /\
  (bForceAt lam p (bR2Cones c) = Ok f -> inCone (vneg (m3mulv (ptE X) (row2 frame))) mu f).
Proof.
  intros HB HN HF HX Hmu Hlam. apply newBi_facts in HB as (L & P1 & P2 & C1 & C2). unfold bForceAt. rewrite C1, C2.
  split; intros H; apply bind_Ok in H as (k & E & H); unfold vec_at in E; rewrite nth_error_map, HN in E; cbn [option_map] in E;
    [assert (k = mkFrictionCone frame n mu 1) by congruence | assert (k = mkFrictionCone (m3neg (m3mul frame (m3tr (ptE X)))) n mu (-1)) by congruence];
    subst k; apply forceGens_Ok in H as (Lf & ->); apply inCone_comb.
  - intros g Hg. eapply (cone_in frame n mu 1); eauto. lra.
  - intros i Hi. apply Hlam. lia.
  - intros g Hg.
    pose proof (cone_in (m3neg (m3mul frame (m3tr (ptE X)))) n mu (-1) (orthonormal_neg _ (rotation_orthonormal_rows _ _ HX HF))) as P.
    simpl row2 in P. rewrite m3tr_tr in P. apply P; auto. lra.
  - intros i Hi. apply Hlam. lia.
Qed.

(* ------------------------------------------------------------------ *)
(** * Checked functions (C30) *)
Lemma checkRange_spec p pts : (badPoint p (length pts) /\ checkRange p pts = Throw) \/ (~ badPoint p (length pts) /\ checkRange p pts = Ok tt).
Proof.
  unfold checkRange, badPoint. destruct (p <? 0)%Z eqn:E; simpl; [apply Z.ltb_lt in E; left; split; [lia|auto]|].
  apply Z.ltb_ge in E. destruct (Z.of_nat (length pts) <=? p)%Z eqn:E2; [apply Z.leb_le in E2; left; split; [lia|auto]|].
  apply Z.leb_gt in E2. right. split; [lia|auto].
Qed.
Lemma forceGens_noThrow gens lam : forall i F, forceGens gens lam i F <> Throw.
Proof. induction gens; intros; simpl; [discriminate|]. destruct (_ <? _)%nat; [auto|discriminate]. Qed.
Lemma forceLoop_noThrow nrAt forceAt lam : (forall i, nrAt i <> Throw) -> (forall s i, forceAt s i <> Throw) ->
  forall n i pos F, forceLoop nrAt forceAt lam i n pos F <> Throw.
Proof.
  intros H1 H2. induction n as [|n IH]; intros i pos F; simpl; [discriminate|].
  destruct (nrAt i) eqn:E; simpl; [|discriminate|exfalso; eapply H1; eauto].
  unfold vseg. destruct (_ <=? _)%nat; simpl; [|discriminate].
  destruct (forceAt _ i) eqn:E2; simpl; [auto|discriminate|exfalso; eapply H2; eauto].
Qed.
Lemma wrenchLoop_noThrow nrAt forceAt lam : (forall i, nrAt i <> Throw) -> (forall s i, forceAt s i <> Throw) ->
  forall ps i pos F, wrenchLoop nrAt forceAt lam ps i pos F <> Throw.
Proof.
  intros H1 H2. induction ps as [|p ps IH]; intros i pos F; simpl; [discriminate|].
  destruct (nrAt i) eqn:E; simpl; [|discriminate|exfalso; eapply H1; eauto].
  unfold vseg. destruct (_ <=? _)%nat; simpl; [|discriminate].
  destruct (forceAt _ i) eqn:E2; simpl; [auto|discriminate|exfalso; eapply H2; eauto].
Qed.
Lemma bForceAt_noThrow s i ks : bForceAt s i ks <> Throw.
Proof. unfold bForceAt, vec_at. destruct (nth_error ks i); simpl; [apply forceGens_noThrow|discriminate]. Qed.
Lemma bNrLambdaAt_noThrow c i : bNrLambdaAt c i <> Throw.
Proof. unfold bNrLambdaAt, vec_at. destruct (nth_error _ i); simpl; discriminate. Qed.

Lemma if_neqb {A} a b (x : res A) (Q : x <> Throw) :
  ((if negb (a =? b)%nat then Throw else x) = Throw <-> a <> b) /\ (a = b -> (if negb (a =? b)%nat then Throw else x) = x).
Proof.
  destruct (Nat.eqb_spec a b); simpl; split; try tauto.
Qed.

Lemma checked_unilateral c lam p ps k :
  (* sForce(lambda, point, cone) *)
  (uSForceAt c lam p k = Throw <-> badPoint p (length (uR1Points c)) \/ vlen lam <> length (generators (uR1Cone c))) /\
  (uSForceAt c lam p k <> Throw -> uSForceAt c lam p k = uForceAt lam k) /\
  (* sForce(lambda, cone) *)
  (uSForce c lam k = Throw <-> vlen lam <> (length (uR1Points c) * length (generators (uR1Cone c)))%nat) /\
  (uSForce c lam k <> Throw -> uSForce c lam k = uForce c lam k) /\
  (* sForce(lambda, points, cone) *)
  (uSWrench c lam ps k = Throw <-> vlen lam <> (length (uR1Points c) * length (generators (uR1Cone c)))%nat) /\
  (uSWrench c lam ps k <> Throw -> uSWrench c lam ps k = uWrench c lam ps k) /\
  (* sNrLambda(point) *)
  (uSNrLambda c p = Throw <-> badPoint p (length (uR1Points c))) /\
  (uSNrLambda c p <> Throw -> uSNrLambda c p = Ok (length (generators (uR1Cone c)))).
Proof.
  unfold uSForceAt, uSForce, uSWrench, uSNrLambda. rewrite uNrLambda_def. simpl bind.
  assert (T1 : uForceAt lam k <> Throw) by apply forceGens_noThrow.
  assert (T2 : uForce c lam k <> Throw) by (apply forceLoop_noThrow; [discriminate|intros; apply forceGens_noThrow]).
  assert (T3 : uWrench c lam ps k <> Throw) by (apply wrenchLoop_noThrow; [discriminate|intros; apply forceGens_noThrow]).
  destruct (if_neqb (vlen lam) (uNrLambdaAt c (Z.to_nat p)) _ T1) as (A1 & A2).
  destruct (if_neqb (vlen lam) (length (uR1Points c) * length (generators (uR1Cone c))) _ T2) as (B1 & B2).
  destruct (if_neqb (vlen lam) (length (uR1Points c) * length (generators (uR1Cone c))) _ T3) as (C1 & C2).
  unfold uNrLambdaAt in *.
  split; [|split; [|split; [|split; [|split; [|split; [|split]]]]]]; try assumption.
  - destruct (checkRange_spec p (uR1Points c)) as [(K & ->)|(K & ->)]; simpl; tauto.
  - destruct (checkRange_spec p (uR1Points c)) as [(K & ->)|(K & ->)]; simpl; [tauto|]. intros N. apply A2. destruct (Nat.eq_dec (vlen lam) (length (generators (uR1Cone c)))); auto. tauto.
  - intros N. apply B2. destruct (Nat.eq_dec (vlen lam) (length (uR1Points c) * length (generators (uR1Cone c)))); auto. tauto.
  - intros N. apply C2. destruct (Nat.eq_dec (vlen lam) (length (uR1Points c) * length (generators (uR1Cone c)))); auto. tauto.
  - destruct (checkRange_spec p (uR1Points c)) as [(K & ->)|(K & ->)]; simpl; [tauto|]. split; [discriminate|tauto].
  - destruct (checkRange_spec p (uR1Points c)) as [(K & ->)|(K & ->)]; simpl; tauto.
Qed.

Lemma vec_at_lt {A} (l : list A) i : (i < length l)%nat -> exists a, nth_error l i = Some a /\ vec_at l i = Ok a.
Proof.
  intros H. destruct (nth_error l i) eqn:E; [exists a; split; auto; apply vec_at_Some; auto|]. apply nth_error_None in E. lia.
Qed.
Lemma checked_bilateral c lam p ps ks :
  length (bR1Cones c) = length (bR1Points c) ->
  (bSForceAt c lam p ks = Throw <->
     badPoint p (length (bR1Points c)) \/
     (forall k, nth_error (bR1Cones c) (Z.to_nat p) = Some k -> vlen lam <> length (generators k))) /\
  (bSForceAt c lam p ks <> Throw -> bSForceAt c lam p ks = bForceAt lam (Z.to_nat p) ks) /\
  (bSForce c lam ks = Throw <-> vlen lam <> sumnat (sizes (bR1Cones c))) /\
  (bSForce c lam ks <> Throw -> bSForce c lam ks = bForce c lam ks) /\
  (bSWrench c lam ps ks = Throw <-> vlen lam <> sumnat (sizes (bR1Cones c))) /\
  (bSWrench c lam ps ks <> Throw -> bSWrench c lam ps ks = bWrench c lam ps ks) /\
  (bSNrLambda c p = Throw <-> badPoint p (length (bR1Points c))) /\
  (bSNrLambda c p <> Throw -> exists k, nth_error (bR1Cones c) (Z.to_nat p) = Some k /\ bSNrLambda c p = Ok (length (generators k))).
Proof.
  intros HW. unfold bSForceAt, bSForce, bSWrench, bSNrLambda. rewrite bNrLambda_def by auto. simpl bind.
  assert (T1 : bForceAt lam (Z.to_nat p) ks <> Throw) by apply bForceAt_noThrow.
  assert (T2 : bForce c lam ks <> Throw) by (apply forceLoop_noThrow; [apply bNrLambdaAt_noThrow|intros; apply bForceAt_noThrow]).
  assert (T3 : bWrench c lam ps ks <> Throw) by (apply wrenchLoop_noThrow; [apply bNrLambdaAt_noThrow|intros; apply bForceAt_noThrow]).
  destruct (if_neqb (vlen lam) (sumnat (sizes (bR1Cones c))) _ T2) as (B1 & B2).
  destruct (if_neqb (vlen lam) (sumnat (sizes (bR1Cones c))) _ T3) as (C1 & C2).
  assert (G : ~ badPoint p (length (bR1Points c)) -> exists k, nth_error (bR1Cones c) (Z.to_nat p) = Some k /\ bNrLambdaAt c (Z.to_nat p) = Ok (length (generators k))).
  { intros K. unfold badPoint in K. destruct (vec_at_lt (bR1Cones c) (Z.to_nat p)) as (k & E1 & E2); [lia|]. exists k. split; auto.
    unfold bNrLambdaAt. rewrite E2. reflexivity. }
  split; [|split; [|split; [|split; [|split; [|split; [|split]]]]]]; try assumption.
  - destruct (checkRange_spec p (bR1Points c)) as [(K & ->)|(K & ->)]; simpl; [tauto|].
    destruct (G K) as (k & E1 & ->). simpl. destruct (if_neqb (vlen lam) (length (generators k)) _ T1) as (A1 & A2). rewrite A1. split.
    + intros N. right. intros k' E. congruence.
    + intros [N|N]; [tauto|]. auto.
  - destruct (checkRange_spec p (bR1Points c)) as [(K & ->)|(K & ->)]; simpl; [tauto|].
    destruct (G K) as (k & E1 & ->). simpl. destruct (if_neqb (vlen lam) (length (generators k)) _ T1) as (A1 & A2).
    intros N. apply A2. destruct (Nat.eq_dec (vlen lam) (length (generators k))); auto. tauto.
  - intros N. apply B2. destruct (Nat.eq_dec (vlen lam) (sumnat (sizes (bR1Cones c)))); auto. tauto.
  - intros N. apply C2. destruct (Nat.eq_dec (vlen lam) (sumnat (sizes (bR1Cones c)))); auto. tauto.
  - destruct (checkRange_spec p (bR1Points c)) as [(K & ->)|(K & ->)]; simpl; [tauto|]. destruct (G K) as (k & E1 & ->). split; [discriminate|tauto].
  - destruct (checkRange_spec p (bR1Points c)) as [(K & ->)|(K & ->)]; simpl; [tauto|]. destruct (G K) as (k & E1 & ->). eauto.
Qed.

(** When the arguments come from the contact itself, nothing is read outside. *)
Lemma checked_safe_uni c lam p k : wfUni c -> k = uR1Cone c \/ k = uR2Cone c ->
  uSForceAt c lam p k <> UB /\ uSForce c lam k <> UB /\
  uSWrench c lam (uR1Points c) k <> UB /\ uSWrench c lam (uR2Points c) k <> UB /\ uSNrLambda c p <> UB.
Proof.
  intros (W1 & W2) HK.
  assert (L : length (generators k) = length (generators (uR1Cone c))) by (destruct HK; subst; auto).
  unfold uSForceAt, uSForce, uSWrench, uSNrLambda. rewrite uNrLambda_def. simpl bind. unfold uNrLambdaAt.
  split; [|split; [|split; [|split]]].
  - destruct (checkRange_spec p (uR1Points c)) as [(K & ->)|(K & ->)]; simpl; [discriminate|].
    destruct (Nat.eqb_spec (vlen lam) (length (generators (uR1Cone c)))); simpl; [|discriminate].
    unfold uForceAt. rewrite forceGens_def by lia. discriminate.
  - destruct (Nat.eqb_spec (vlen lam) (length (uR1Points c) * length (generators (uR1Cone c)))) as [E|E]; simpl; [|discriminate].
    rewrite uForce_def by (auto; rewrite L; lia). discriminate.
  - destruct (Nat.eqb_spec (vlen lam) (length (uR1Points c) * length (generators (uR1Cone c)))) as [E|E]; simpl; [|discriminate].
    rewrite uWrench_def by (auto; rewrite L; lia). discriminate.
  - destruct (Nat.eqb_spec (vlen lam) (length (uR1Points c) * length (generators (uR1Cone c)))) as [E|E]; simpl; [|discriminate].
    rewrite uWrench_def by (auto; rewrite L, W1; lia). discriminate.
  - destruct (checkRange_spec p (uR1Points c)) as [(K & ->)|(K & ->)]; simpl; discriminate.
Qed.
Lemma checked_safe_bi c lam p ks : wfBilateral c -> ks = bR1Cones c \/ ks = bR2Cones c ->
  bSForceAt c lam p ks <> UB /\ bSForce c lam ks <> UB /\
  bSWrench c lam (bR1Points c) ks <> UB /\ bSWrench c lam (bR2Points c) ks <> UB /\ bSNrLambda c p <> UB.
Proof.
  intros (W1 & W2 & W3 & W4) HK.
  assert (L : sizes ks = sizes (bR1Cones c)) by (destruct HK; subst; auto).
  unfold bSForceAt, bSForce, bSWrench, bSNrLambda. rewrite bNrLambda_def by auto. simpl bind.
  assert (G : ~ badPoint p (length (bR1Points c)) -> exists k k', nth_error (bR1Cones c) (Z.to_nat p) = Some k /\ bNrLambdaAt c (Z.to_nat p) = Ok (length (generators k)) /\
             vec_at ks (Z.to_nat p) = Ok k' /\ length (generators k') = length (generators k)).
  { intros K. unfold badPoint in K. destruct (vec_at_lt (bR1Cones c) (Z.to_nat p)) as (k & E1 & E2); [lia|].
    destruct (vec_at_lt ks (Z.to_nat p)) as (k' & E3 & E4); [rewrite (sizes_length _ _ L); lia|]. exists k, k'. split; auto. split.
    { unfold bNrLambdaAt. rewrite E2. reflexivity. } split; [auto|].
    pose proof (f_equal (fun l => nth_error l (Z.to_nat p)) L) as Q. unfold sizes in Q. simpl in Q. rewrite !nth_error_map, E1, E3 in Q. simpl in Q. congruence. }
  split; [|split; [|split; [|split]]].
  - destruct (checkRange_spec p (bR1Points c)) as [(K & ->)|(K & ->)]; simpl; [discriminate|].
    destruct (G K) as (k & k' & E1 & -> & E3 & E4). simpl.
    destruct (Nat.eqb_spec (vlen lam) (length (generators k))); simpl; [|discriminate].
    unfold bForceAt. rewrite E3. simpl. rewrite forceGens_def by lia. discriminate.
  - destruct (Nat.eqb_spec (vlen lam) (sumnat (sizes (bR1Cones c)))) as [E|E]; simpl; [|discriminate].
    rewrite bForce_def by (auto; rewrite L; lia). discriminate.
  - destruct (Nat.eqb_spec (vlen lam) (sumnat (sizes (bR1Cones c)))) as [E|E]; simpl; [|discriminate].
    rewrite bWrench_def by (auto; rewrite L; lia). discriminate.
  - destruct (Nat.eqb_spec (vlen lam) (sumnat (sizes (bR1Cones c)))) as [E|E]; simpl; [|discriminate].
    rewrite bWrench_def; [discriminate|congruence|auto|rewrite L; lia].
  - destruct (checkRange_spec p (bR1Points c)) as [(K & ->)|(K & ->)]; simpl; [discriminate|].
    destruct (G K) as (k & k' & E1 & -> & E3 & E4). discriminate.
Qed.

(** What the checks miss: a larger cone, more points, a shorter list of cones. *)
Lemma checked_big_cone c lam k :
  vlen lam = (length (uR1Points c) * length (generators (uR1Cone c)))%nat ->
  (0 < length (uR1Points c))%nat -> (length (generators (uR1Cone c)) < length (generators k))%nat ->
  uSForce c lam k = UB.
Proof.
  intros H1 H2 H3. unfold uSForce. rewrite uNrLambda_def. simpl bind. rewrite <- H1, Nat.eqb_refl. simpl negb. cbv iota.
  unfold uForce. destruct (length (uR1Points c)) as [|n]; [lia|]. simpl. unfold uNrLambdaAt.
  destruct (vseg_def lam 0 (length (generators (uR1Cone c)))) as (w & E & W1 & W2); [simpl; lia|]. rewrite E. simpl.
  unfold uForceAt. rewrite forceGens_ub by lia. reflexivity.
Qed.
Lemma checked_more_points c lam ps :
  vlen lam = (length (uR1Points c) * length (generators (uR1Cone c)))%nat ->
  (length (uR1Points c) < length ps)%nat -> (0 < length (generators (uR1Cone c)))%nat ->
  uSWrench c lam ps (uR1Cone c) = UB.
Proof.
  intros H1 H2 H3. unfold uSWrench. rewrite uNrLambda_def. simpl bind. rewrite <- H1, Nat.eqb_refl. simpl negb. cbv iota.
  apply uWrench_short; auto. rewrite H1. nia.
Qed.
Lemma checked_few_cones c lam p ks :
  length (bR1Cones c) = length (bR1Points c) ->
  (Z.to_nat p < length (bR1Points c))%nat -> (0 <= p)%Z -> (length ks <= Z.to_nat p)%nat ->
  (forall k, nth_error (bR1Cones c) (Z.to_nat p) = Some k -> vlen lam = length (generators k)) ->
  bSForceAt c lam p ks = UB.
Proof.
  intros HW H1 H2 H3 H4. unfold bSForceAt.
  destruct (checkRange_spec p (bR1Points c)) as [(K & ->)|(K & ->)]; [unfold badPoint in K; lia|]. simpl bind.
  destruct (vec_at_lt (bR1Cones c) (Z.to_nat p)) as (k & E1 & E2); [lia|]. unfold bNrLambdaAt. rewrite E2. simpl.
  rewrite (H4 k E1), Nat.eqb_refl. simpl. unfold bForceAt, vec_at. rewrite (proj2 (nth_error_None ks (Z.to_nat p))) by lia. reflexivity.
Qed.
Lemma checked_refuted :
  (exists c lam k, wfUni c /\ uSForce c lam k = UB) /\
  (exists c lam ps, wfUni c /\ uSWrench c lam ps (uR1Cone c) = UB) /\
  (exists c lam p ks, wfBilateral c /\ bSForceAt c lam p ks = UB).
Proof.
  set (u := mkUni (mkCId 0 1 "a" "b" 0) [v0] [v0] (mkCone [v0]) (mkCone [v0]) pt_id pt_id).
  split; [|split].
  - exists u, (mkVec 1 (fun _ => 0)), (mkCone [v0; v0]). split; [split; reflexivity|]. apply checked_big_cone; simpl; lia.
  - exists u, (mkVec 1 (fun _ => 0)), [v0; v0]. split; [split; reflexivity|]. apply checked_more_points; simpl; lia.
  - exists (biOfUni u), (mkVec 1 (fun _ => 0)), 0%Z, []. split; [repeat split|]. apply checked_few_cones; simpl; try lia; auto.
    intros k E. inversion E. reflexivity.
Qed.
Lemma cone_spread frame nrGen mu dir :
  orthonormal frame -> dir * dir = 1 -> 0 <= mu ->
  length (generators (mkFrictionCone frame nrGen mu dir)) = nrGen /\
  forall i j g h,
  nth_error (generators (mkFrictionCone frame nrGen mu dir)) i = Some g ->
  nth_error (generators (mkFrictionCone frame nrGen mu dir)) j = Some h ->
  norm g = 1 /\ 0 < dot (row2 frame) g /\ norm (tangential (row2 frame) g) = mu * dot (row2 frame) g /\
  dot (tangential (row2 frame) g) (tangential (row2 frame) h) =
    norm (tangential (row2 frame) g) * norm (tangential (row2 frame) h) * cos (2 * PI / INR nrGen * (INR i - INR j)).
Proof.
  intros HF HD Hmu. split; [simpl; rewrite map_length, seq_length; auto|].
  intros i j g h Hg Hh.
  destruct (cone_generator frame nrGen mu dir HF HD i g Hmu Hg) as (A & B & C).
  destruct (cone_generator frame nrGen mu dir HF HD j h Hmu Hh) as (_ & _ & C').
  destruct (cone_dot frame nrGen mu dir HF HD i j g h Hg Hh) as (D & _ & E).
  destruct (cone_dot frame nrGen mu dir HF HD j i h g Hh Hg) as (D' & _ & _).
  split; [auto|split; [auto|split; [auto|]]]. rewrite E, C, C', D, D'.
  destruct (sin_atan_mu mu Hmu) as (S1 & _). rewrite S1. ring.
Qed.
