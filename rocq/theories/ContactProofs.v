(** Lemmas about contact ids, friction cones and contact forces. *)
From Coq Require Import Ascii Ratan.
From Verif Require Import Lists.
From Verif Require Export ContactSpec.
Open Scope R_scope.

(* ------------------------------------------------------------------ *)
(** * Order on contact ids *)
Lemma ascii_compare_spec a b : Ascii.compare a b = N.compare (N_of_ascii a) (N_of_ascii b).
Proof. reflexivity. Qed.

Lemma ascii_compare_Eq a b : Ascii.compare a b = Eq <-> a = b.
Proof.
  rewrite ascii_compare_spec, N.compare_eq_iff. split; [|congruence].
  intros H. rewrite <- (ascii_N_embedding a), <- (ascii_N_embedding b), H. reflexivity.
Qed.
Lemma string_compare_Lt_trans a : forall b c,
  String.compare a b = Lt -> String.compare b c = Lt -> String.compare a c = Lt.
Proof.
  induction a as [|x a IH]; intros [|y b] [|z c]; simpl; try congruence.
  destruct (Ascii.compare x y) eqn:E1; try discriminate; destruct (Ascii.compare y z) eqn:E2; try discriminate; intros H1 H2.
  - apply ascii_compare_Eq in E1. apply ascii_compare_Eq in E2. subst. rewrite (proj2 (ascii_compare_Eq z z) eq_refl). eauto.
  - apply ascii_compare_Eq in E1. subst. rewrite E2. reflexivity.
  - apply ascii_compare_Eq in E2. subst. rewrite E1. reflexivity.
  - rewrite ascii_compare_spec in *. rewrite N.compare_lt_iff in *.
    replace (N_of_ascii x ?= N_of_ascii z)%N with Lt; [reflexivity|]. symmetry. apply N.compare_lt_iff.
    eapply N.lt_trans; eauto.
Qed.
Lemma string_compare_antisym a : forall b, String.compare a b = CompOpp (String.compare b a).
Proof.
  induction a as [|x a IH]; intros [|y b]; simpl; try reflexivity.
  rewrite (ascii_compare_spec x y), N.compare_antisym, <- ascii_compare_spec.
  destruct (Ascii.compare y x); simpl; auto.
Qed.
Lemma string_compare_Eq a : forall b, String.compare a b = Eq <-> a = b.
Proof.
  induction a as [|x a IH]; intros [|y b]; simpl; try (split; congruence).
  destruct (Ascii.compare x y) eqn:E.
  - apply ascii_compare_Eq in E. subst. rewrite IH. split; congruence.
  - split; [discriminate|]. intros H; inversion H; subst. rewrite (proj2 (ascii_compare_Eq y y) eq_refl) in E. discriminate.
  - split; [discriminate|]. intros H; inversion H; subst. rewrite (proj2 (ascii_compare_Eq y y) eq_refl) in E. discriminate.
Qed.
Lemma string_ltb_spec a b : String.ltb a b = true <-> String.compare a b = Lt.
Proof. unfold String.ltb. destruct (String.compare a b); split; congruence. Qed.

Definition slt (a b : string) : Prop := String.compare a b = Lt.
Lemma slt_irr a : ~ slt a a.
Proof. unfold slt. rewrite (proj2 (string_compare_Eq a a) eq_refl). discriminate. Qed.
Lemma slt_trans a b c : slt a b -> slt b c -> slt a c.
Proof. apply string_compare_Lt_trans. Qed.
Lemma slt_total a b : slt a b \/ a = b \/ slt b a.
Proof.
  unfold slt. destruct (String.compare a b) eqn:E; auto.
  - right; left. apply string_compare_Eq; auto.
  - right; right. rewrite string_compare_antisym, E. reflexivity.
Qed.

(** The lexicographic order that operator< writes out. *)
Definition cid_lt (a b : contactId) : Prop :=
  (r1Index a < r1Index b)%Z \/
  (r1Index a = r1Index b /\ (slt (r1Body a) (r1Body b) \/
  (r1Body a = r1Body b /\ ((r2Index a < r2Index b)%Z \/
  (r2Index a = r2Index b /\ (slt (r2Body a) (r2Body b) \/
  (r2Body a = r2Body b /\ (ambId a < ambId b)%Z))))))).

Lemma cid_ltb_spec a b : cid_ltb a b = true <-> cid_lt a b.
Proof.
  unfold cid_ltb, cid_lt, slt. rewrite !orb_true_iff, !andb_true_iff, !Z.ltb_lt, !Z.eqb_eq, !String.eqb_eq, !string_ltb_spec. tauto.
Qed.
Lemma cid_eqb_spec a b : cid_eqb a b = true <-> a = b.
Proof.
  unfold cid_eqb. rewrite !andb_true_iff, !Z.eqb_eq, !String.eqb_eq. destruct a, b; simpl. split.
  - intros [[[[-> ->] ->] ->] ->]. reflexivity.
  - intros H; inversion H; auto.
Qed.
Lemma cid_lt_irr a : ~ cid_lt a a.
Proof. intros [H|(_ & [H|(_ & [H|(_ & [H|(_ & H)])])])]; try lia; eapply slt_irr; eauto. Qed.
Lemma cid_lt_trans a b c : cid_lt a b -> cid_lt b c -> cid_lt a c.
Proof.
  unfold cid_lt.
  intros [H|(E & [H|(E2 & [H|(E3 & [H|(E4 & H)])])])] [K|(F & [K|(F2 & [K|(F3 & [K|(F4 & K)])])])];
    try rewrite E in *; try rewrite E2 in *; try rewrite E3 in *; try rewrite E4 in *;
    try rewrite F in *; try rewrite F2 in *; try rewrite F3 in *; try rewrite F4 in *;
    try (left; lia); right; (split; [congruence|]);
    try (left; first [assumption | eapply slt_trans; eassumption]); right; (split; [congruence|]);
    try (left; lia); right; (split; [congruence|]);
    try (left; first [assumption | eapply slt_trans; eassumption]); right; (split; [congruence|lia]).
Qed.
Lemma cid_lt_total a b : cid_lt a b \/ a = b \/ cid_lt b a.
Proof.
  unfold cid_lt.
  destruct (Z.lt_trichotomy (r1Index a) (r1Index b)) as [H|[H|H]]; [tauto| |tauto].
  destruct (slt_total (r1Body a) (r1Body b)) as [H1|[H1|H1]]; [tauto| |right; right; right; auto].
  destruct (Z.lt_trichotomy (r2Index a) (r2Index b)) as [H2|[H2|H2]]; [tauto| |right; right; right; auto].
  destruct (slt_total (r2Body a) (r2Body b)) as [H3|[H3|H3]]; [tauto| |right; right; right; split; auto; right; auto 10].
  destruct (Z.lt_trichotomy (ambId a) (ambId b)) as [H4|[H4|H4]]; [tauto| |right; right; right; split; auto; right; auto 10].
  right; left. destruct a, b; simpl in *; subst; reflexivity.
Qed.

Lemma order_lemma :
  (forall a, cid_ltb a a = false) /\
  (forall a b c, cid_ltb a b = true -> cid_ltb b c = true -> cid_ltb a c = true) /\
  (forall a b, cid_ltb a b = true \/ a = b \/ cid_ltb b a = true) /\
  (forall a b, cid_eqb a b = true <->
     (r1Index a = r1Index b /\ r2Index a = r2Index b /\ r1Body a = r1Body b /\ r2Body a = r2Body b /\ ambId a = ambId b)) /\
  (forall a b, cid_neqb a b = negb (cid_eqb a b)) /\
  (forall a b, (cid_ltb a b = false /\ cid_ltb b a = false) <-> cid_eqb a b = true).
Proof.
  assert (I : forall a, cid_ltb a a = false).
  { intros a. destruct (cid_ltb a a) eqn:E; auto. apply cid_ltb_spec in E. exfalso; eapply cid_lt_irr; eauto. }
  split; [exact I|]. split; [|split; [|split; [|split; [reflexivity|]]]].
  - intros a b c. rewrite !cid_ltb_spec. apply cid_lt_trans.
  - intros a b. rewrite !cid_ltb_spec. apply cid_lt_total.
  - intros a b. rewrite cid_eqb_spec. destruct a, b; simpl. split; [intros H; inversion H; auto 10|].
    intros (-> & -> & -> & -> & ->). reflexivity.
  - intros a b. rewrite cid_eqb_spec. split.
    + intros [H1 H2]. destruct (cid_lt_total a b) as [H|[H|H]]; auto; apply cid_ltb_spec in H; congruence.
    + intros ->. auto.
Qed.

(* ------------------------------------------------------------------ *)
(** * Sums of vectors *)
Lemma comb_ext gens l l' : (forall i, (i < length gens)%nat -> l i = l' i) -> comb gens l = comb gens l'.
Proof.
  revert l l'; induction gens as [|g gs IH]; intros l l' H; [reflexivity|]. simpl.
  rewrite (H 0%nat) by (simpl; lia). f_equal. apply IH. intros i Hi. apply H. simpl; lia.
Qed.
Lemma comb_lin gens a b l l' : comb gens (fun i => a * l i + b * l' i) = vadd (vsc a (comb gens l)) (vsc b (comb gens l')).
Proof.
  revert l l'; induction gens as [|g gs IH]; intros l l'; simpl; [v3|]. rewrite IH. v3.
Qed.
Lemma comb_map E gens l : comb (map (m3mulv E) gens) l = m3mulv E (comb gens l).
Proof.
  revert l; induction gens as [|g gs IH]; intros l; simpl; [v3|]. rewrite IH. v3.
Qed.
Lemma comb_neg gens l : comb (map vneg gens) l = vneg (comb gens l).
Proof. revert l; induction gens as [|g gs IH]; intros l; simpl; [v3|]. rewrite IH. v3. Qed.

Lemma forceGens_spec gens lam : forall i F,
  ((i + length gens <= vlen lam)%nat -> forceGens gens lam i F = Ok (vadd F (comb gens (fun k => vget lam (i + k)%nat)))) /\
  (gens <> [] -> (vlen lam < i + length gens)%nat -> forceGens gens lam i F = UB).
Proof.
  induction gens as [|g gs IH]; intros i F; simpl; split; try congruence.
  - intros _. rewrite vadd_0_r. reflexivity.
  - intros H. replace (i <? vlen lam)%nat with true by (symmetry; apply Nat.ltb_lt; lia).
    rewrite (proj1 (IH (S i) _)) by lia. f_equal. rewrite Nat.add_0_r, <- vadd_assoc. f_equal.
    f_equal. apply comb_ext. intros k _. f_equal. lia.
  - intros _ H. destruct (i <? vlen lam)%nat eqn:E; [|reflexivity]. apply Nat.ltb_lt in E.
    destruct gs as [|g2 gs]; [simpl in H; lia|]. apply IH; [congruence|simpl in *; lia].
Qed.
Lemma forceGens_def gens lam : (length gens <= vlen lam)%nat -> forceGens gens lam 0 v0 = Ok (comb gens (vget lam)).
Proof. intros H. rewrite (proj1 (forceGens_spec gens lam 0 v0)) by (simpl; lia). rewrite vadd_0_l. reflexivity. Qed.
Lemma forceGens_ub gens lam : (vlen lam < length gens)%nat -> forceGens gens lam 0 v0 = UB.
Proof. intros H. apply forceGens_spec; [destruct gens; simpl in H; [lia|congruence]|simpl; lia]. Qed.
Lemma forceGens_Ok gens lam f : forceGens gens lam 0 v0 = Ok f -> (length gens <= vlen lam)%nat /\ f = comb gens (vget lam).
Proof.
  intros H. destruct (Nat.le_gt_cases (length gens) (vlen lam)) as [L|L].
  - rewrite forceGens_def in H by auto. inversion H; auto.
  - rewrite forceGens_ub in H by auto. discriminate.
Qed.

Lemma transMul_point p f : pt_transMul (pt_trans p) (mkSp v0 f) = pointWrench p f.
Proof.
  unfold pt_transMul, pointWrench, pt_trans. simpl.
  replace (m3mulv (m3tr m3id) f) with f by v3. f_equal. v3.
Qed.
Lemma sp_add_assoc a b c : sp_add a (sp_add b c) = sp_add (sp_add a b) c.
Proof. apply Spatial_ext; simpl; apply vadd_assoc. Qed.
Lemma sp_add_0_r a : sp_add a sp0 = a.
Proof. apply Spatial_ext; simpl; apply vadd_0_r. Qed.
Lemma sp_add_0_l a : sp_add sp0 a = a.
Proof. apply Spatial_ext; simpl; apply vadd_0_l. Qed.

(** forceLoop over the cones of the remaining points. *)
Lemma forces_ext cones l l' : forall pos,
  (forall i, (pos <= i < pos + sumnat (sizes cones))%nat -> l i = l' i) -> forces cones l pos = forces cones l' pos.
Proof.
  induction cones as [|k ks IH]; intros pos H; [reflexivity|]. simpl in *. f_equal.
  - apply comb_ext. intros i Hi. apply H. lia.
  - apply IH. intros i Hi. apply H. lia.
Qed.
Lemma forces_length cones l pos : length (forces cones l pos) = length cones.
Proof. revert pos; induction cones; intros; simpl; auto. Qed.

Lemma vseg_def {A} (v : vec A) s n : (s + n <= vlen v)%nat -> exists w, vseg v s n = Ok w /\ vlen w = n /\ forall i, vget w i = vget v (s + i)%nat.
Proof.
  intros H. unfold vseg. replace (s + n <=? vlen v)%nat with true by (symmetry; apply Nat.leb_le; lia).
  eexists; split; [reflexivity|]. simpl. auto.
Qed.
Lemma vseg_ub {A} (v : vec A) s n : (vlen v < s + n)%nat -> vseg v s n = UB.
Proof. intros H. unfold vseg. replace (s + n <=? vlen v)%nat with false by (symmetry; apply Nat.leb_gt; lia). reflexivity. Qed.

(** [nrAt] and [forceAt] read the sizes [ss] and the cones [ks] from point [i] on. *)
Definition reads (nrAt : nat -> res nat) (forceAt : vec R -> nat -> res V3) (ss : list nat) (ks : list cone) (i : nat) : Prop :=
  length ss = length ks /\
  (forall k s, nth_error ss k = Some s -> nrAt (i + k)%nat = Ok s) /\
  (forall k c l, nth_error ks k = Some c -> forceAt l (i + k)%nat = forceGens (generators c) l 0 v0).
Lemma reads_tail nrAt forceAt s ss k ks i :
  reads nrAt forceAt (s :: ss) (k :: ks) i ->
  nrAt i = Ok s /\ (forall l, forceAt l i = forceGens (generators k) l 0 v0) /\ reads nrAt forceAt ss ks (S i).
Proof.
  intros (L & H1 & H2). repeat split.
  - rewrite <- (H1 0%nat s eq_refl). f_equal. lia.
  - intros l. rewrite <- (H2 0%nat k l eq_refl). f_equal. lia.
  - simpl in L; lia.
  - intros j t Hj. rewrite <- (H1 (S j) t Hj). f_equal. lia.
  - intros j t l Hj. rewrite <- (H2 (S j) t l Hj). f_equal. lia.
Qed.

Lemma forceLoop_def nrAt forceAt lam : forall ks i pos F,
  reads nrAt forceAt (sizes ks) ks i -> (pos + sumnat (sizes ks) <= vlen lam)%nat ->
  forceLoop nrAt forceAt lam i (length ks) pos F = Ok (vadd F (vsum (forces ks (vget lam) pos))).
Proof.
  induction ks as [|k ks IH]; intros i pos F HR HL; simpl in *.
  - rewrite vadd_0_r. reflexivity.
  - destruct (reads_tail _ _ _ _ _ _ _ HR) as (R1 & R2 & R3). rewrite R1. simpl.
    destruct (vseg_def lam pos (length (generators k))) as (w & E & W1 & W2); [lia|]. rewrite E. simpl. rewrite R2.
    rewrite forceGens_def by lia. simpl. rewrite IH by (auto; lia). rewrite vadd_assoc. f_equal. f_equal. f_equal.
    apply comb_ext. intros j _. apply W2.
Qed.
Lemma forceLoop_short nrAt forceAt lam : forall ks i pos F,
  reads nrAt forceAt (sizes ks) ks i -> (vlen lam < pos + sumnat (sizes ks))%nat -> (pos <= vlen lam)%nat ->
  forceLoop nrAt forceAt lam i (length ks) pos F = UB.
Proof.
  induction ks as [|k ks IH]; intros i pos F HR HL HP; simpl in *; [lia|].
  destruct (reads_tail _ _ _ _ _ _ _ HR) as (R1 & R2 & R3). rewrite R1. simpl.
  destruct (Nat.le_gt_cases (pos + length (generators k)) (vlen lam)) as [L|L].
  - destruct (vseg_def lam pos (length (generators k))) as (w & E & W1 & W2); [lia|]. rewrite E. simpl. rewrite R2.
    rewrite forceGens_def by lia. simpl. apply IH; auto; lia.
  - rewrite vseg_ub by lia. reflexivity.
Qed.
Lemma wrenchLoop_def nrAt forceAt lam : forall ks pts i pos F,
  reads nrAt forceAt (sizes ks) ks i -> (pos + sumnat (sizes ks) <= vlen lam)%nat -> length pts = length ks ->
  wrenchLoop nrAt forceAt lam pts i pos F = Ok (sp_add F (wsum pts (forces ks (vget lam) pos))).
Proof.
  induction ks as [|k ks IH]; intros [|p pts] i pos F HR HL HP; simpl in *; try discriminate.
  - rewrite sp_add_0_r. reflexivity.
  - destruct (reads_tail _ _ _ _ _ _ _ HR) as (R1 & R2 & R3). rewrite R1. simpl.
    destruct (vseg_def lam pos (length (generators k))) as (w & E & W1 & W2); [lia|]. rewrite E. simpl. rewrite R2.
    rewrite forceGens_def by lia. simpl. rewrite IH by (auto; lia). rewrite transMul_point, sp_add_assoc. f_equal. f_equal. f_equal. f_equal.
    apply comb_ext. intros j _. apply W2.
Qed.
Lemma wrenchLoop_short nrAt forceAt lam : forall ks pts i pos F,
  reads nrAt forceAt (sizes ks) ks i -> (vlen lam < pos + sumnat (sizes ks))%nat -> (pos <= vlen lam)%nat -> length pts = length ks ->
  wrenchLoop nrAt forceAt lam pts i pos F = UB.
Proof.
  induction ks as [|k ks IH]; intros [|p pts] i pos F HR HL HP HQ; simpl in *; try discriminate; [lia|].
  destruct (reads_tail _ _ _ _ _ _ _ HR) as (R1 & R2 & R3). rewrite R1. simpl.
  destruct (Nat.le_gt_cases (pos + length (generators k)) (vlen lam)) as [L|L].
  - destruct (vseg_def lam pos (length (generators k))) as (w & E & W1 & W2); [lia|]. rewrite E. simpl. rewrite R2.
    rewrite forceGens_def by lia. simpl. apply IH; auto; lia.
  - rewrite vseg_ub by lia. reflexivity.
Qed.

Lemma vec_at_Some {A} (l : list A) i a : nth_error l i = Some a -> vec_at l i = Ok a.
Proof. intros H. unfold vec_at. rewrite H. reflexivity. Qed.

Lemma reads_bi c cones : sizes cones = sizes (bR1Cones c) ->
  reads (bNrLambdaAt c) (fun s i => bForceAt s i cones) (sizes cones) cones 0.
Proof.
  intros H. split; [|split].
  - unfold sizes. apply map_length.
  - intros k s Hk. rewrite H in Hk. unfold sizes in Hk. rewrite nth_error_map in Hk. unfold bNrLambdaAt. simpl.
    destruct (nth_error (bR1Cones c) k) eqn:E; [|discriminate]. rewrite (vec_at_Some _ _ _ E). simpl in *. inversion Hk; auto.
  - intros k d l Hk. unfold bForceAt. simpl. rewrite (vec_at_Some _ _ _ Hk). reflexivity.
Qed.
Lemma sizes_length a b : sizes a = sizes b -> length a = length b.
Proof. intros H. apply (f_equal (@length nat)) in H. unfold sizes in H. now rewrite !map_length in H. Qed.

Lemma bForce_def c lam cones :
  length (bR1Cones c) = length (bR1Points c) -> sizes cones = sizes (bR1Cones c) ->
  (sumnat (sizes cones) <= vlen lam)%nat -> bForce c lam cones = Ok (vsum (forces cones (vget lam) 0)).
Proof.
  intros HW HS HL. unfold bForce. rewrite <- HW, <- (sizes_length _ _ HS), forceLoop_def; [rewrite vadd_0_l; auto| apply reads_bi; auto|simpl; lia].
Qed.
Lemma bForce_short c lam cones :
  length (bR1Cones c) = length (bR1Points c) -> sizes cones = sizes (bR1Cones c) ->
  (vlen lam < sumnat (sizes cones))%nat -> bForce c lam cones = UB.
Proof.
  intros HW HS HL. unfold bForce. rewrite <- HW, <- (sizes_length _ _ HS), forceLoop_short; auto; [apply reads_bi; auto|lia].
Qed.
Lemma bWrench_def c lam pts cones :
  length (bR1Cones c) = length pts -> sizes cones = sizes (bR1Cones c) ->
  (sumnat (sizes cones) <= vlen lam)%nat -> bWrench c lam pts cones = Ok (wsum pts (forces cones (vget lam) 0)).
Proof.
  intros HW HS HL. unfold bWrench. rewrite (wrenchLoop_def _ _ _ cones); [rewrite sp_add_0_l; auto| apply reads_bi; auto|simpl; lia|].
  rewrite <- HW. symmetry. apply sizes_length; auto.
Qed.
Lemma bWrench_short c lam pts cones :
  length (bR1Cones c) = length pts -> sizes cones = sizes (bR1Cones c) ->
  (vlen lam < sumnat (sizes cones))%nat -> bWrench c lam pts cones = UB.
Proof.
  intros HW HS HL. unfold bWrench. apply (wrenchLoop_short _ _ _ cones); auto; [apply reads_bi; auto|lia|].
  rewrite <- HW. symmetry. apply sizes_length; auto.
Qed.

(** Unilateral contacts: the same cone at every point. *)
Lemma sizes_repeat k n : sizes (repeat k n) = repeat (length (generators k)) n.
Proof. unfold sizes. induction n; simpl; f_equal; auto. Qed.
Lemma sumnat_repeat a n : sumnat (repeat a n) = (n * a)%nat.
Proof. induction n; simpl; lia. Qed.
Lemma nth_error_repeat' {A} (a : A) n k b : nth_error (repeat a n) k = Some b -> b = a.
Proof. intros H. apply nth_error_In in H. apply repeat_spec in H. auto. Qed.
Lemma reads_uni c k n : length (generators k) = length (generators (uR1Cone c)) ->
  reads (fun i => Ok (uNrLambdaAt c i)) (fun s _ => uForceAt s k) (sizes (repeat k n)) (repeat k n) 0.
Proof.
  intros H. split; [|split].
  - unfold sizes. apply map_length.
  - intros j s Hj. rewrite sizes_repeat in Hj. apply nth_error_repeat' in Hj. unfold uNrLambdaAt. congruence.
  - intros j d l Hj. apply nth_error_repeat' in Hj. subst. reflexivity.
Qed.
Lemma uForce_def c lam k :
  length (generators k) = length (generators (uR1Cone c)) ->
  (length (uR1Points c) * length (generators k) <= vlen lam)%nat ->
  uForce c lam k = Ok (vsum (forces (repeat k (length (uR1Points c))) (vget lam) 0)).
Proof.
  intros HK HL. unfold uForce.
  rewrite <- (repeat_length k (length (uR1Points c))) at 1.
  rewrite forceLoop_def; [rewrite vadd_0_l; auto| apply reads_uni; auto|rewrite sizes_repeat, sumnat_repeat; simpl; lia].
Qed.
Lemma uForce_short c lam k :
  length (generators k) = length (generators (uR1Cone c)) ->
  (vlen lam < length (uR1Points c) * length (generators k))%nat -> uForce c lam k = UB.
Proof.
  intros HK HL. unfold uForce.
  rewrite <- (repeat_length k (length (uR1Points c))).
  apply forceLoop_short; [apply reads_uni; auto|rewrite sizes_repeat, sumnat_repeat; simpl; lia|lia].
Qed.
Lemma uWrench_def c lam pts k :
  length (generators k) = length (generators (uR1Cone c)) ->
  (length pts * length (generators k) <= vlen lam)%nat ->
  uWrench c lam pts k = Ok (wsum pts (forces (repeat k (length pts)) (vget lam) 0)).
Proof.
  intros HK HL. unfold uWrench.
  rewrite (wrenchLoop_def _ _ _ (repeat k (length pts))); [rewrite sp_add_0_l; auto| apply reads_uni; auto|rewrite sizes_repeat, sumnat_repeat; simpl; lia|].
  symmetry; apply repeat_length.
Qed.
Lemma uWrench_short c lam pts k :
  length (generators k) = length (generators (uR1Cone c)) ->
  (vlen lam < length pts * length (generators k))%nat -> uWrench c lam pts k = UB.
Proof.
  intros HK HL. unfold uWrench.
  apply (wrenchLoop_short _ _ _ (repeat k (length pts))); [apply reads_uni; auto|rewrite sizes_repeat, sumnat_repeat; simpl; lia|lia|].
  symmetry; apply repeat_length.
Qed.

(** nrLambda. *)
Lemma sumLambda_def nrAt : forall ss i, (forall k s, nth_error ss k = Some s -> nrAt (i + k)%nat = Ok s) ->
  sumLambda nrAt i (length ss) = Ok (sumnat ss).
Proof.
  induction ss as [|s ss IH]; intros i H; [reflexivity|]. simpl.
  rewrite <- (Nat.add_0_r i) at 1. rewrite (H 0%nat s eq_refl). simpl. rewrite IH; [reflexivity|].
  intros k t Hk. rewrite <- (H (S k) t Hk). f_equal. lia.
Qed.
Lemma uNrLambda_def c : uNrLambda c = Ok (length (uR1Points c) * length (generators (uR1Cone c)))%nat.
Proof.
  unfold uNrLambda. rewrite <- (repeat_length (length (generators (uR1Cone c))) (length (uR1Points c))) at 1.
  rewrite sumLambda_def; [now rewrite sumnat_repeat|]. intros k s Hk. apply nth_error_repeat' in Hk. now subst.
Qed.
Lemma bNrLambda_def c : length (bR1Cones c) = length (bR1Points c) -> bNrLambda c = Ok (sumnat (sizes (bR1Cones c))).
Proof.
  intros H. unfold bNrLambda. rewrite <- H. replace (length (bR1Cones c)) with (length (sizes (bR1Cones c))) by apply map_length.
  apply sumLambda_def. intros k s Hk. unfold sizes in Hk. rewrite nth_error_map in Hk. unfold bNrLambdaAt. simpl.
  destruct (nth_error (bR1Cones c) k) eqn:E; [|discriminate]. rewrite (vec_at_Some _ _ _ E). simpl in *. inversion Hk; auto.
Qed.

(* ------------------------------------------------------------------ *)
(** * Linearity (C29) *)
Lemma forces_lin cones a b l1 l2 : forall pos,
  forces cones (fun i => a * l1 i + b * l2 i) pos =
  map (fun fg => vadd (vsc a (fst fg)) (vsc b (snd fg))) (combine (forces cones l1 pos) (forces cones l2 pos)).
Proof.
  induction cones as [|k ks IH]; intros pos; [reflexivity|]. simpl. rewrite IH. f_equal.
  apply (comb_lin (generators k) a b (fun i => l1 (pos + i)%nat) (fun i => l2 (pos + i)%nat)).
Qed.
Lemma vsum_lin a b : forall fs gs, length fs = length gs ->
  vsum (map (fun fg => vadd (vsc a (fst fg)) (vsc b (snd fg))) (combine fs gs)) = vadd (vsc a (vsum fs)) (vsc b (vsum gs)).
Proof.
  induction fs as [|f fs IH]; intros [|g gs] H; simpl in *; try discriminate; [v3|].
  rewrite IH by lia. v3.
Qed.
Lemma wsum_lin a b : forall ps fs gs, length fs = length gs ->
  wsum ps (map (fun fg => vadd (vsc a (fst fg)) (vsc b (snd fg))) (combine fs gs)) = sp_add (sp_sc a (wsum ps fs)) (sp_sc b (wsum ps gs)).
Proof.
  assert (Z : sp0 = sp_add (sp_sc a sp0) (sp_sc b sp0)) by (apply Spatial_ext; simpl; v3).
  induction ps as [|p ps IH]; intros [|f fs] [|g gs] H; simpl in *; try discriminate; auto.
  rewrite IH by lia. apply Spatial_ext; simpl; v3.
Qed.

Lemma forceGens_comp gens lam f : forceGens gens lam 0 v0 = Ok f -> f = comb gens (vget lam).
Proof. apply forceGens_Ok. Qed.

(** Any run of forceLoop that ends has read inside lambda: the general linearity statement needs no
    assumption on the cones. *)
Lemma forceLoop_lin nrAt forceAt a b l1 l2 :
  vlen l2 = vlen l1 ->
  (forall s1 s2 i f1 f2, vlen s2 = vlen s1 -> forceAt s1 i = Ok f1 -> forceAt s2 i = Ok f2 ->
     forall s, vlen s = vlen s1 -> (forall j, (j < vlen s)%nat -> vget s j = a * vget s1 j + b * vget s2 j) ->
     forceAt s i = Ok (vadd (vsc a f1) (vsc b f2))) ->
  forall n i pos F1 F2 G1 G2,
  forceLoop nrAt forceAt l1 i n pos F1 = Ok G1 -> forceLoop nrAt forceAt l2 i n pos F2 = Ok G2 ->
  forceLoop nrAt forceAt (veclin a l1 b l2) i n pos (vadd (vsc a F1) (vsc b F2)) = Ok (vadd (vsc a G1) (vsc b G2)).
Proof.
  intros HL HA n. induction n as [|n IH]; intros i pos F1 F2 G1 G2 H1 H2; simpl in *.
  - inversion H1; inversion H2; subst. reflexivity.
  - apply bind_Ok in H1 as (c & E & H1). rewrite E in *. simpl in *.
    apply bind_Ok in H1 as (s1 & S1 & H1). apply bind_Ok in H1 as (f1 & K1 & H1).
    apply bind_Ok in H2 as (s2 & S2 & H2). apply bind_Ok in H2 as (f2 & K2 & H2).
    apply vseg_Ok in S1 as (A1 & A2 & A3). apply vseg_Ok in S2 as (B1 & B2 & B3).
    destruct (vseg_def (veclin a l1 b l2) pos c) as (s & Es & Ls & Gs); [simpl; lia|]. rewrite Es. simpl.
    rewrite (HA s1 s2 i f1 f2); auto; try congruence.
    + simpl. rewrite <- (IH (S i) (pos + c)%nat _ _ _ _ H1 H2). f_equal. v3.
    + intros j Hj. rewrite Gs. simpl. rewrite A3, B3 by lia. reflexivity.
Qed.
Lemma wrenchLoop_lin nrAt forceAt a b l1 l2 :
  vlen l2 = vlen l1 ->
  (forall s1 s2 i f1 f2, vlen s2 = vlen s1 -> forceAt s1 i = Ok f1 -> forceAt s2 i = Ok f2 ->
     forall s, vlen s = vlen s1 -> (forall j, (j < vlen s)%nat -> vget s j = a * vget s1 j + b * vget s2 j) ->
     forceAt s i = Ok (vadd (vsc a f1) (vsc b f2))) ->
  forall ps i pos F1 F2 G1 G2,
  wrenchLoop nrAt forceAt l1 ps i pos F1 = Ok G1 -> wrenchLoop nrAt forceAt l2 ps i pos F2 = Ok G2 ->
  wrenchLoop nrAt forceAt (veclin a l1 b l2) ps i pos (sp_add (sp_sc a F1) (sp_sc b F2)) = Ok (sp_add (sp_sc a G1) (sp_sc b G2)).
Proof.
  intros HL HA ps. induction ps as [|p ps IH]; intros i pos F1 F2 G1 G2 H1 H2; simpl in *.
  - inversion H1; inversion H2; subst. reflexivity.
  - apply bind_Ok in H1 as (c & E & H1). rewrite E in *. simpl in *.
    apply bind_Ok in H1 as (s1 & S1 & H1). apply bind_Ok in H1 as (f1 & K1 & H1).
    apply bind_Ok in H2 as (s2 & S2 & H2). apply bind_Ok in H2 as (f2 & K2 & H2).
    apply vseg_Ok in S1 as (A1 & A2 & A3). apply vseg_Ok in S2 as (B1 & B2 & B3).
    destruct (vseg_def (veclin a l1 b l2) pos c) as (s & Es & Ls & Gs); [simpl; lia|]. rewrite Es. simpl.
    rewrite (HA s1 s2 i f1 f2); auto; try congruence.
    + simpl. rewrite <- (IH (S i) (pos + c)%nat _ _ _ _ H1 H2). f_equal. rewrite !transMul_point. apply Spatial_ext; simpl; v3.
    + intros j Hj. rewrite Gs. simpl. rewrite A3, B3 by lia. reflexivity.
Qed.
Lemma gens_lin gens a b s1 s2 f1 f2 s : vlen s2 = vlen s1 ->
  forceGens gens s1 0 v0 = Ok f1 -> forceGens gens s2 0 v0 = Ok f2 ->
  vlen s = vlen s1 -> (forall j, (j < vlen s)%nat -> vget s j = a * vget s1 j + b * vget s2 j) ->
  forceGens gens s 0 v0 = Ok (vadd (vsc a f1) (vsc b f2)).
Proof.
  intros L H1 H2 Ls Hs. apply forceGens_Ok in H1 as (A1 & ->). apply forceGens_Ok in H2 as (B1 & ->).
  rewrite forceGens_def by lia. rewrite <- comb_lin. f_equal. apply comb_ext. intros i Hi. apply Hs. lia.
Qed.
Lemma bForceAt_lin cones a b s1 s2 i f1 f2 : vlen s2 = vlen s1 -> bForceAt s1 i cones = Ok f1 -> bForceAt s2 i cones = Ok f2 ->
  forall s, vlen s = vlen s1 -> (forall j, (j < vlen s)%nat -> vget s j = a * vget s1 j + b * vget s2 j) ->
  bForceAt s i cones = Ok (vadd (vsc a f1) (vsc b f2)).
Proof.
  unfold bForceAt. intros L H1 H2 s Ls Hs. apply bind_Ok in H1 as (k & E & H1). rewrite E in *. simpl in *.
  apply (gens_lin _ a b s1 s2 f1 f2); auto.
Qed.
Lemma zero_lin a b : v0 = vadd (vsc a v0) (vsc b v0).
Proof. v3. Qed.
Lemma sp_zero_lin a b : sp0 = sp_add (sp_sc a sp0) (sp_sc b sp0).
Proof. apply Spatial_ext; simpl; v3. Qed.

Lemma linear_lemma a b l1 l2 : vlen l2 = vlen l1 ->
  (forall c k f1 f2, uForce c l1 k = Ok f1 -> uForce c l2 k = Ok f2 ->
     uForce c (veclin a l1 b l2) k = Ok (vadd (vsc a f1) (vsc b f2))) /\
  (forall c ks f1 f2, bForce c l1 ks = Ok f1 -> bForce c l2 ks = Ok f2 ->
     bForce c (veclin a l1 b l2) ks = Ok (vadd (vsc a f1) (vsc b f2))) /\
  (forall c ps k f1 f2, uWrench c l1 ps k = Ok f1 -> uWrench c l2 ps k = Ok f2 ->
     uWrench c (veclin a l1 b l2) ps k = Ok (sp_add (sp_sc a f1) (sp_sc b f2))) /\
  (forall c ps ks f1 f2, bWrench c l1 ps ks = Ok f1 -> bWrench c l2 ps ks = Ok f2 ->
     bWrench c (veclin a l1 b l2) ps ks = Ok (sp_add (sp_sc a f1) (sp_sc b f2))).
Proof.
  intros HL. split; [|split; [|split]].
  - intros c k f1 f2 H1 H2. unfold uForce. rewrite (zero_lin a b). apply forceLoop_lin; auto.
    intros. eapply (gens_lin _ a b s1 s2); eauto.
  - intros c k f1 f2 H1 H2. unfold bForce. rewrite (zero_lin a b). apply forceLoop_lin; auto.
    intros. eapply (bForceAt_lin _ a b s1 s2); eauto.
  - intros c ps k f1 f2 H1 H2. unfold uWrench. rewrite (sp_zero_lin a b). apply wrenchLoop_lin; auto.
    intros. eapply (gens_lin _ a b s1 s2); eauto.
  - intros c ps k f1 f2 H1 H2. unfold bWrench. rewrite (sp_zero_lin a b). apply wrenchLoop_lin; auto.
    intros. eapply (bForceAt_lin _ a b s1 s2); eauto.
Qed.

Lemma additive_lemma :
  (forall c lam k, length (generators k) = length (generators (uR1Cone c)) ->
     ((length (uR1Points c) * length (generators k) <= vlen lam)%nat ->
        uForce c lam k = Ok (vsum (forces (repeat k (length (uR1Points c))) (vget lam) 0))) /\
     (forall ps, (length ps * length (generators k) <= vlen lam)%nat ->
        uWrench c lam ps k = Ok (wsum ps (forces (repeat k (length ps)) (vget lam) 0)))) /\
  (forall c lam ks, length (bR1Cones c) = length (bR1Points c) -> sizes ks = sizes (bR1Cones c) ->
     (sumnat (sizes ks) <= vlen lam)%nat ->
     bForce c lam ks = Ok (vsum (forces ks (vget lam) 0)) /\
     (forall ps, length ps = length (bR1Points c) ->
        bWrench c lam ps ks = Ok (wsum ps (forces ks (vget lam) 0)))).
Proof.
  split.
  - intros c lam k HK. split; intros; [apply uForce_def|apply uWrench_def]; auto.
  - intros c lam ks HW HS HL. split; [apply bForce_def; auto|]. intros ps Hp. apply bWrench_def; auto. congruence.
Qed.

(** The bilateral version of a unilateral contact gives the same forces. *)
Lemma biOfUni_force c lam : wfUni c ->
  bForce (biOfUni c) lam (bR1Cones (biOfUni c)) = uForce c lam (uR1Cone c) /\
  bForce (biOfUni c) lam (bR2Cones (biOfUni c)) = uForce c lam (uR2Cone c) /\
  bWrench (biOfUni c) lam (bR1Points (biOfUni c)) (bR1Cones (biOfUni c)) = uWrench c lam (uR1Points c) (uR1Cone c) /\
  bWrench (biOfUni c) lam (bR2Points (biOfUni c)) (bR2Cones (biOfUni c)) = uWrench c lam (uR2Points c) (uR2Cone c) /\
  bNrLambda (biOfUni c) = uNrLambda c.
Proof.
  intros (W1 & W2).
  assert (S1 : sizes (bR1Cones (biOfUni c)) = sizes (bR1Cones (biOfUni c))) by auto.
  assert (S2 : sizes (bR2Cones (biOfUni c)) = sizes (bR1Cones (biOfUni c))) by (simpl; rewrite !sizes_repeat; congruence).
  assert (L1 : length (bR1Cones (biOfUni c)) = length (bR1Points (biOfUni c))) by (simpl; apply repeat_length).
  assert (E1 : sumnat (sizes (bR1Cones (biOfUni c))) = (length (uR1Points c) * length (generators (uR1Cone c)))%nat)
    by (simpl; rewrite sizes_repeat, sumnat_repeat; auto).
  assert (E2 : sumnat (sizes (bR2Cones (biOfUni c))) = (length (uR1Points c) * length (generators (uR2Cone c)))%nat)
    by (simpl; rewrite sizes_repeat, sumnat_repeat; auto).
  assert (L2 : length (bR1Cones (biOfUni c)) = length (bR2Points (biOfUni c))) by (simpl; rewrite repeat_length; auto).
  split; [|split; [|split; [|split]]].
  - destruct (Nat.le_gt_cases (length (uR1Points c) * length (generators (uR1Cone c))) (vlen lam)) as [L|L].
    + rewrite bForce_def, uForce_def by (auto; lia). reflexivity.
    + rewrite bForce_short, uForce_short by (auto; lia). reflexivity.
  - destruct (Nat.le_gt_cases (length (uR1Points c) * length (generators (uR2Cone c))) (vlen lam)) as [L|L].
    + rewrite bForce_def, uForce_def by (auto; lia). reflexivity.
    + rewrite bForce_short, uForce_short by (auto; lia). reflexivity.
  - destruct (Nat.le_gt_cases (length (uR1Points c) * length (generators (uR1Cone c))) (vlen lam)) as [L|L].
    + rewrite bWrench_def, uWrench_def by (auto; lia). reflexivity.
    + rewrite bWrench_short, uWrench_short by (auto; lia). reflexivity.
  - destruct (Nat.le_gt_cases (length (uR1Points c) * length (generators (uR2Cone c))) (vlen lam)) as [L|L].
    + rewrite bWrench_def, uWrench_def by (auto; try rewrite E2; try rewrite W1; lia). simpl. rewrite W1. reflexivity.
    + rewrite bWrench_short, uWrench_short by (auto; try rewrite E2; try rewrite W1; lia). reflexivity.
  - rewrite bNrLambda_def by auto. rewrite uNrLambda_def, E1. reflexivity.
Qed.

(* ------------------------------------------------------------------ *)
(** * Rotations *)
Lemma cross_jacobi a b c : cross a (cross b c) = vsub (vsc (dot a c) b) (vsc (dot a b) c).
Proof. v3. Qed.
Lemma binet a b c d : dot (cross a b) (cross c d) = dot a c * dot b d - dot a d * dot b c.
Proof. v3unf; ring. Qed.
Lemma cross_anti a b : cross a b = vneg (cross b a). Proof. v3. Qed.
Lemma rotation_rows E : rotation E ->
  cross (row0 E) (row1 E) = row2 E /\ cross (row1 E) (row2 E) = row0 E /\ cross (row2 E) (row0 E) = row1 E.
Proof.
  intros ((n0 & n1 & n2 & d01 & d02 & d12) & H). unfold righthanded, norm2 in *. split; [auto|].
  split.
  - rewrite <- H, cross_jacobi, n1, (dot_comm (row1 E) (row0 E)), d01. v3.
  - rewrite cross_anti, <- H, cross_jacobi, n0, d01. v3.
Qed.
Lemma rotation_cross E a b : rotation E -> cross (m3mulv E a) (m3mulv E b) = m3mulv E (cross a b).
Proof.
  intros H. destruct (rotation_rows E H) as (H2 & H0 & H1). unfold m3mulv.
  apply V3_ext; simpl.
  - transitivity (dot (cross (row1 E) (row2 E)) (cross a b)); [rewrite binet; ring|rewrite H0; auto].
  - transitivity (dot (cross (row2 E) (row0 E)) (cross a b)); [rewrite binet; ring|rewrite H1; auto].
  - transitivity (dot (cross (row0 E) (row1 E)) (cross a b)); [rewrite binet; ring|rewrite H2; auto].
Qed.
Lemma rotation_mulT E v : rotation E -> m3mulv E (m3mulv (m3tr E) v) = v.
Proof.
  intros ((n0 & n1 & n2 & d01 & d02 & d12) & _). unfold norm2 in *.
  assert (X : m3mulv (m3tr E) v = vadd (vadd (vsc (vx v) (row0 E)) (vsc (vy v) (row1 E))) (vsc (vz v) (row2 E))) by v3.
  rewrite X. unfold m3mulv. apply V3_ext; simpl; rewrite !dot_vadd_r, !dot_vsc_r;
    rewrite ?n0, ?n1, ?n2, ?d01, ?d02, ?d12, ?(dot_comm (row1 E) (row0 E)), ?(dot_comm (row2 E) (row0 E)), ?(dot_comm (row2 E) (row1 E)), ?d01, ?d02, ?d12; ring.
Qed.
Lemma norm2_zero a : norm2 a = 0 -> a = v0.
Proof. unfold norm2, dot. intros H. apply V3_ext; simpl; nra. Qed.
Lemma rotation_inj E w : rotation E -> m3mulv E w = v0 -> w = v0.
Proof.
  intros HR H. destruct (rotation_rows E HR) as (H2 & _). destruct HR as ((n0 & n1 & n2 & _) & _).
  pose proof (f_equal vx H) as X. pose proof (f_equal vy H) as Y. pose proof (f_equal vz H) as Z. simpl in X, Y, Z.
  apply norm2_zero. pose proof (lagrange w (row2 E)) as L. rewrite n2 in L.
  rewrite <- H2 in L at 1. rewrite cross_jacobi, (dot_comm w (row1 E)), (dot_comm w (row0 E)), X, Y, (dot_comm w (row2 E)), Z in L.
  assert (K : norm2 (vsub (vsc 0 (row0 E)) (vsc 0 (row1 E))) = 0) by (v3unf; ring). lra.
Qed.
Lemma rotation_Tmul E v : rotation E -> m3mulv (m3tr E) (m3mulv E v) = v.
Proof.
  intros H. assert (K : vsub (m3mulv (m3tr E) (m3mulv E v)) v = v0).
  { apply (rotation_inj E); auto. replace (m3mulv E (vsub (m3mulv (m3tr E) (m3mulv E v)) v)) with (vsub (m3mulv E (m3mulv (m3tr E) (m3mulv E v))) (m3mulv E v)) by v3.
    rewrite rotation_mulT by auto. v3. }
  pose proof (f_equal vx K). pose proof (f_equal vy K). pose proof (f_equal vz K). v3unf. apply V3_ext; simpl; lra.
Qed.
Lemma rotation_dot E a b : rotation E -> dot (m3mulv E a) (m3mulv E b) = dot a b.
Proof. intros H. rewrite dot_m3mulv, rotation_Tmul; auto. Qed.
Lemma rotation_orthonormal_rows E F : rotation E -> orthonormal F -> orthonormal (m3mul F (m3tr E)).
Proof.
  intros HE (n0 & n1 & n2 & d01 & d02 & d12). unfold orthonormal, m3mul, norm2 in *. simpl. rewrite m3tr_tr, !rotation_dot by auto. auto 10.
Qed.
Lemma orthonormal_neg F : orthonormal F -> orthonormal (m3neg F).
Proof.
  intros (n0 & n1 & n2 & d01 & d02 & d12). unfold orthonormal, m3neg, norm2 in *. simpl.
  rewrite !dot_vneg_l, !dot_vneg_r, !Ropp_involutive. auto 10.
Qed.

(* ------------------------------------------------------------------ *)
(** * Action and reaction (C28) *)
Lemma mirror_cone E frame n mu : rotation E ->
  generators (mkFrictionCone (m3neg (m3mul frame (m3tr E))) n mu (-1)) =
  map (fun g => vneg (m3mulv E g)) (generators (mkFrictionCone frame n mu 1)).
Proof.
  intros HE. unfold mkFrictionCone. simpl. rewrite map_map. apply map_ext. intros i.
  set (nn := row2 frame). set (t := row0 frame). rewrite m3tr_tr.
  set (step := PI * 2 / INR n).
  replace (-1 * step * INR i) with (- (1 * step * INR i)) by ring. set (x := 1 * step * INR i).
  replace (vsc (-1) (vneg (m3mulv E t))) with (m3mulv E t) by v3.
  replace (vsc 1 t) with t by v3.
  set (th := atan mu).
  assert (G : rotate th (m3mulv E t) (vneg (m3mulv E nn)) = vneg (m3mulv E (rotate th t nn))).
  { unfold rotate. rewrite dot_vneg_r, rotation_dot by auto.
    replace (cross (m3mulv E t) (vneg (m3mulv E nn))) with (vneg (m3mulv E (cross t nn))).
    2:{ rewrite <- rotation_cross by auto. v3. }
    rewrite !m3mulv_vadd, !m3mulv_vsc. generalize (m3mulv E nn) (m3mulv E t) (m3mulv E (cross t nn)). intros. v3. }
  rewrite G. set (g := rotate th t nn).
  unfold rotate at 1. rewrite dot_vneg_r, dot_vneg_l, rotation_dot, cos_neg, sin_neg by auto.
  replace (cross (vneg (m3mulv E nn)) (vneg (m3mulv E g))) with (m3mulv E (cross nn g)).
  2:{ rewrite <- rotation_cross by auto. v3. }
  unfold rotate. rewrite !m3mulv_vadd, !m3mulv_vsc. generalize (m3mulv E nn) (m3mulv E g) (m3mulv E (cross nn g)). intros. v3.
Qed.

Lemma forces_mirror E : forall ks ks' lam pos,
  Forall2 (fun k k' => generators k' = map (fun g => vneg (m3mulv E g)) (generators k)) ks ks' ->
  forces ks' lam pos = map (fun f => vneg (m3mulv E f)) (forces ks lam pos).
Proof.
  intros ks ks' lam pos H. revert pos. induction H as [|k k' ks ks' Hk H IH]; intros pos; [reflexivity|]. simpl.
  rewrite Hk, map_length, IH. f_equal. rewrite <- (map_map (m3mulv E) vneg), comb_neg, comb_map. reflexivity.
Qed.
Lemma vsum_mirror E : forall fs, vsum (map (fun f => vneg (m3mulv E f)) fs) = vneg (m3mulv E (vsum fs)).
Proof.
  induction fs as [|f fs IH]; simpl; [v3|]. rewrite IH, m3mulv_vadd, vneg_vadd. reflexivity.
Qed.
Definition point2 (X : PT) (p : V3) : V3 := m3mulv (ptE X) (vsub p (ptr X)).
Lemma wsum_mirror X : rotation (ptE X) -> forall ps fs,
  pt_transMul X (wsum (map (point2 X) ps) (map (fun f => vneg (m3mulv (ptE X) f)) fs)) = sp_neg (wsum ps fs).
Proof.
  intros HE. set (E := ptE X).
  assert (Z : pt_transMul X sp0 = sp_neg sp0) by (apply Spatial_ext; simpl; v3).
  assert (A : forall F G, pt_transMul X (sp_add F G) = sp_add (pt_transMul X F) (pt_transMul X G)).
  { intros F G. apply Spatial_ext; simpl; v3. }
  induction ps as [|p ps IH]; intros [|f fs]; simpl; auto.
  rewrite A, IH. unfold pointWrench, point2, sp_neg, pt_transMul. simpl. fold E.
  assert (C : cross (m3mulv E (vsub p (ptr X))) (vneg (m3mulv E f)) = m3mulv E (vneg (cross (vsub p (ptr X)) f))).
  { rewrite m3mulv_vneg, <- rotation_cross by auto. v3. }
  rewrite C, <- m3mulv_vneg, !(rotation_Tmul E) by auto. apply Spatial_ext; simpl; v3.
Qed.

Lemma newUni_points2 cid pts frame X n mu Xcf : uR2Points (newUnilateral cid pts frame X n mu Xcf) = map (point2 X) pts.
Proof. simpl. apply map_ext. intros p. unfold point2. v3. Qed.
Lemma newUni_wf cid pts frame X n mu Xcf : wfUni (newUnilateral cid pts frame X n mu Xcf).
Proof. split; simpl; rewrite !map_length; auto. Qed.
Lemma newUni_cone2 cid pts frame X n mu Xcf : rotation (ptE X) ->
  generators (uR2Cone (newUnilateral cid pts frame X n mu Xcf)) =
  map (fun g => vneg (m3mulv (ptE X) g)) (generators (uR1Cone (newUnilateral cid pts frame X n mu Xcf))).
Proof. intros H. simpl uR2Cone. simpl uR1Cone. apply (mirror_cone (ptE X) frame n mu H). Qed.

Lemma Forall2_repeat {A B} (P : A -> B -> Prop) a b n : P a b -> Forall2 P (repeat a n) (repeat b n).
Proof. intros. induction n; simpl; auto. Qed.

Lemma uForce_total c lam k f : length (generators k) = length (generators (uR1Cone c)) -> uForce c lam k = Ok f ->
  (length (uR1Points c) * length (generators k) <= vlen lam)%nat /\ f = vsum (forces (repeat k (length (uR1Points c))) (vget lam) 0).
Proof.
  intros HK H. destruct (Nat.le_gt_cases (length (uR1Points c) * length (generators k)) (vlen lam)) as [L|L].
  - rewrite uForce_def in H by auto. inversion H; auto.
  - rewrite uForce_short in H by auto. discriminate.
Qed.
Lemma uWrench_total c lam ps k f : length (generators k) = length (generators (uR1Cone c)) -> uWrench c lam ps k = Ok f ->
  (length ps * length (generators k) <= vlen lam)%nat /\ f = wsum ps (forces (repeat k (length ps)) (vget lam) 0).
Proof.
  intros HK H. destruct (Nat.le_gt_cases (length ps * length (generators k)) (vlen lam)) as [L|L].
  - rewrite uWrench_def in H by auto. inversion H; auto.
  - rewrite uWrench_short in H by auto. discriminate.
Qed.
Lemma bForce_total c lam ks f : length (bR1Cones c) = length (bR1Points c) -> sizes ks = sizes (bR1Cones c) -> bForce c lam ks = Ok f ->
  (sumnat (sizes ks) <= vlen lam)%nat /\ f = vsum (forces ks (vget lam) 0).
Proof.
  intros HW HS H. destruct (Nat.le_gt_cases (sumnat (sizes ks)) (vlen lam)) as [L|L].
  - rewrite bForce_def in H by auto. inversion H; auto.
  - rewrite bForce_short in H by auto. discriminate.
Qed.
Lemma bWrench_total c lam ps ks f : length (bR1Cones c) = length ps -> sizes ks = sizes (bR1Cones c) -> bWrench c lam ps ks = Ok f ->
  (sumnat (sizes ks) <= vlen lam)%nat /\ f = wsum ps (forces ks (vget lam) 0).
Proof.
  intros HW HS H. destruct (Nat.le_gt_cases (sumnat (sizes ks)) (vlen lam)) as [L|L].
  - rewrite bWrench_def in H by auto. inversion H; auto.
  - rewrite bWrench_short in H by auto. discriminate.
Qed.

Lemma reaction_uni cid pts frame X n mu Xcf lam :
  rotation (ptE X) ->
  let c := newUnilateral cid pts frame X n mu Xcf in
  (forall f1, uForce c lam (uR1Cone c) = Ok f1 -> uForce c lam (uR2Cone c) = Ok (vneg (m3mulv (ptE X) f1))) /\
  (forall w1, uWrench c lam (uR1Points c) (uR1Cone c) = Ok w1 ->
     exists w2, uWrench c lam (uR2Points c) (uR2Cone c) = Ok w2 /\ sp_add w1 (pt_transMul X w2) = sp0).
Proof.
  intros HX c.
  assert (HG : generators (uR2Cone c) = map (fun g => vneg (m3mulv (ptE X) g)) (generators (uR1Cone c))) by (apply newUni_cone2; auto).
  assert (HP : uR2Points c = map (point2 X) (uR1Points c)) by apply newUni_points2.
  assert (HL : length (generators (uR2Cone c)) = length (generators (uR1Cone c))) by (rewrite HG, map_length; auto).
  assert (F2 : forall m, Forall2 (fun k k' => generators k' = map (fun g => vneg (m3mulv (ptE X) g)) (generators k)) (repeat (uR1Cone c) m) (repeat (uR2Cone c) m))
    by (intros m; apply Forall2_repeat; auto).
  split.
  - intros f1 H1. apply uForce_total in H1 as (L & ->); auto.
    rewrite uForce_def by (auto; rewrite HL; auto).
    rewrite (forces_mirror (ptE X) (repeat (uR1Cone c) (length (uR1Points c))) (repeat (uR2Cone c) (length (uR1Points c)))) by auto. rewrite vsum_mirror. reflexivity.
  - intros w1 H1. apply uWrench_total in H1 as (L & ->); auto.
    exists (wsum (uR2Points c) (forces (repeat (uR2Cone c) (length (uR2Points c))) (vget lam) 0)). split.
    + apply uWrench_def; auto. rewrite HP, map_length, HL. auto.
    + rewrite HP, map_length. rewrite (forces_mirror (ptE X) (repeat (uR1Cone c) (length (uR1Points c))) (repeat (uR2Cone c) (length (uR1Points c)))) by auto.
      rewrite wsum_mirror by auto. apply Spatial_ext; simpl; v3.
Qed.

Lemma newBi_facts cid pts frames X n mu Xcf c : newBilateral cid pts frames X n mu Xcf = Ok c ->
  length pts = length frames /\ bR1Points c = pts /\ bR2Points c = map (point2 X) pts /\
  bR1Cones c = map (fun F => mkFrictionCone F n mu 1) frames /\
  bR2Cones c = map (fun F => mkFrictionCone (m3neg (m3mul F (m3tr (ptE X)))) n mu (-1)) frames.
Proof.
  unfold newBilateral. destruct (Nat.eqb _ _) eqn:E; [|discriminate]. apply Nat.eqb_eq in E.
  intros H; inversion H; subst; clear H. simpl. split; [auto|]. split; [auto|]. split; [|split].
  - transitivity (map (point2 X) (map fst (combine pts frames))).
    + rewrite map_map. apply map_ext. intros [p F]. unfold point2. simpl. v3.
    + f_equal. clear -E. revert frames E. induction pts as [|p pts IH]; intros [|F frames] E; simpl in *; try discriminate; auto. f_equal; auto.
  - rewrite <- (map_map snd (fun F => mkFrictionCone F n mu 1)). f_equal. clear -E. revert frames E. induction pts as [|p pts IH]; intros [|F frames] E; simpl in *; try discriminate; auto. f_equal; auto.
  - rewrite <- (map_map snd (fun F => mkFrictionCone (m3neg (m3mul F (m3tr (ptE X)))) n mu (-1))). f_equal. clear -E. revert frames E. induction pts as [|p pts IH]; intros [|F frames] E; simpl in *; try discriminate; auto. f_equal; auto.
Qed.
Lemma newBi_wf cid pts frames X n mu Xcf c : newBilateral cid pts frames X n mu Xcf = Ok c -> wfBilateral c.
Proof.
  intros H. apply newBi_facts in H as (L & P1 & P2 & C1 & C2). unfold wfBilateral, sizes. rewrite P1, P2, C1, C2, !map_length, !map_map.
  repeat split; auto. apply map_ext. intros F. simpl. rewrite !map_length. reflexivity.
Qed.
Lemma reaction_bi cid pts frames X n mu Xcf c lam :
  rotation (ptE X) -> newBilateral cid pts frames X n mu Xcf = Ok c ->
  (forall p s f1, bForceAt s p (bR1Cones c) = Ok f1 -> bForceAt s p (bR2Cones c) = Ok (vneg (m3mulv (ptE X) f1))) /\
  (forall f1, bForce c lam (bR1Cones c) = Ok f1 -> bForce c lam (bR2Cones c) = Ok (vneg (m3mulv (ptE X) f1))) /\
  (forall w1, bWrench c lam (bR1Points c) (bR1Cones c) = Ok w1 ->
     exists w2, bWrench c lam (bR2Points c) (bR2Cones c) = Ok w2 /\ sp_add w1 (pt_transMul X w2) = sp0).
Proof.
  intros HX H. pose proof (newBi_wf _ _ _ _ _ _ _ _ H) as (W1 & W2 & W3 & W4).
  apply newBi_facts in H as (L & P1 & P2 & C1 & C2).
  assert (F2 : Forall2 (fun k k' => generators k' = map (fun g => vneg (m3mulv (ptE X) g)) (generators k)) (bR1Cones c) (bR2Cones c)).
  { rewrite C1, C2. clear -HX. induction frames as [|F frames IH]; simpl; constructor; auto. apply mirror_cone; auto. }
  split; [|split].
  - intros p s f1 H1. unfold bForceAt in *. apply bind_Ok in H1 as (k & E & H1). rewrite C1 in E. rewrite C2. unfold vec_at in *.
    rewrite nth_error_map in *. destruct (nth_error frames p) as [F0|]; cbn [option_map bind] in *; [|discriminate].
    assert (k = mkFrictionCone F0 n mu 1) by congruence. clear E. subst k. apply forceGens_Ok in H1 as (L1 & ->). rewrite mirror_cone by auto.
    rewrite forceGens_def by (rewrite map_length; auto). rewrite <- (map_map (m3mulv (ptE X)) vneg), comb_neg, comb_map. reflexivity.
  - intros f1 H1. apply bForce_total in H1 as (L1 & ->); auto. rewrite bForce_def by (auto; rewrite W4; auto).
    rewrite (forces_mirror (ptE X) (bR1Cones c) (bR2Cones c)) by auto. rewrite vsum_mirror. reflexivity.
  - intros w1 H1. apply bWrench_total in H1 as (L1 & ->); auto.
    exists (wsum (bR2Points c) (forces (bR2Cones c) (vget lam) 0)). split.
    + apply bWrench_def; auto; [congruence|rewrite W4; auto].
    + rewrite P2, <- P1. rewrite (forces_mirror (ptE X) (bR1Cones c) (bR2Cones c)) by auto. rewrite wsum_mirror by auto. apply Spatial_ext; simpl; v3.
Qed.
