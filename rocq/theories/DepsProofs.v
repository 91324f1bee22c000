(** Lemmas about setDependencies and the reduction by dependencies. *)
From Coq Require Import Permutation Sorted.
From Verif Require Import Lists.
From Verif Require Export QCProofs.

(* ------------------------------------------------------------------ *)
(** * Sorting *)
Definition rlt (a b : dep) : Prop := (replica a < replica b)%nat.
Definition rle (a b : dep) : Prop := (replica a <= replica b)%nat.

Lemma insertDep_perm d l : Permutation (insertDep d l) (d :: l).
Proof.
  induction l as [|e l IH]; simpl; [reflexivity|].
  destruct (replica d <=? replica e)%nat; [reflexivity|].
  rewrite IH. apply perm_swap.
Qed.
Lemma sortDeps_perm l : Permutation (sortDeps l) l.
Proof. induction l as [|d l IH]; simpl; [reflexivity|]. rewrite insertDep_perm. constructor. auto. Qed.

Lemma insertDep_sorted d l : StronglySorted rle l -> StronglySorted rle (insertDep d l).
Proof.
  induction 1 as [|e l Hs IH Hf]; simpl; [repeat constructor|].
  destruct (replica d <=? replica e)%nat eqn:E.
  - apply Nat.leb_le in E. constructor; [constructor; auto|]. constructor; [exact E|].
    eapply Forall_impl; [|exact Hf]. intros a Ha. unfold rle in *. lia.
  - apply Nat.leb_gt in E. constructor; auto.
    apply Forall_forall. intros a Ha. apply (Permutation_in _ (insertDep_perm d l)) in Ha.
    destruct Ha as [<-|Ha]; [unfold rle; lia|]. rewrite Forall_forall in Hf. auto.
Qed.
Lemma sortDeps_sorted l : StronglySorted rle (sortDeps l).
Proof. induction l as [|d l IH]; simpl; [constructor|]. apply insertDep_sorted. auto. Qed.

Lemma sorted_strict l : StronglySorted rle l -> NoDup (map replica l) -> StronglySorted rlt l.
Proof.
  induction 1 as [|e l Hs IH Hf]; intros Hn; [constructor|].
  simpl in Hn. inversion Hn; subst. constructor; [auto|].
  apply Forall_forall. intros a Ha. rewrite Forall_forall in Hf. specialize (Hf a Ha).
  unfold rle, rlt in *. assert (replica e <> replica a); [|lia].
  intros Heq. apply H1. rewrite Heq. apply in_map. auto.
Qed.

Lemma StronglySorted_app_inv (l1 l2 : list dep) :
  StronglySorted rlt (l1 ++ l2) -> StronglySorted rlt l2.
Proof. induction l1; simpl; intros H; [auto|]. inversion H; auto. Qed.

(* ------------------------------------------------------------------ *)
(** * lset, resize *)
Lemma lset_spec {A} (l : list A) i a : (i < length l)%nat ->
  exists l', lset l i a = Ok l' /\ length l' = length l /\ nth_error l' i = Some a /\
             (forall j, j <> i -> nth_error l' j = nth_error l j).
Proof.
  revert i; induction l as [|x l IH]; intros [|i] H; simpl in *; try lia.
  - exists (a :: l). repeat split; auto. intros [|j] Hj; simpl; auto; lia.
  - destruct (IH i) as (l' & E & H1 & H2 & H3); [lia|]. rewrite E. cbn.
    exists (x :: l'). repeat split; simpl; auto.
    intros [|j] Hj; simpl; auto.
Qed.

Lemma resize_length {A} (l : list A) n v : length (resize l n v) = n.
Proof. unfold resize. rewrite app_length, firstn_length, repeat_length. lia. Qed.

(* ------------------------------------------------------------------ *)
(** * Counting *)
Lemma nodup_range_length l a b :
  NoDup l -> (forall x, In x l -> (a <= x < b)%nat) -> (length l <= b - a)%nat.
Proof.
  intros Hn H. rewrite <- (seq_length (b - a) a). apply NoDup_incl_length; auto.
  intros x Hx. apply in_seq. specialize (H x Hx). lia.
Qed.

(* ------------------------------------------------------------------ *)
(** * The loop *)
Lemma tripletSum_app ts1 ts2 i j : tripletSum (ts1 ++ ts2) i j = tripletSum ts1 i j + tripletSum ts2 i j.
Proof.
  unfold tripletSum. induction ts1 as [|t ts1 IH]; simpl; [ring|]. rewrite IH. ring.
Qed.

Section Loop.
Variables (n : nat) (ds : list dep).
Hypothesis Hsort : StronglySorted rlt ds.
Hypothesis Hnd : NoDup (map replica ds).
Hypothesis Hrange : forall d, In d ds -> (replica d < n)%nat.
Let k := length ds.
Definition isRep (i : nat) : Prop := In i (map replica ds).

Record loopInv (i shift : nat) (f2r r2f : list Z) (ts : list triplet) : Prop := {
  li_f2r : length f2r = n;
  li_r2f : length r2f = (n - k)%nat;
  li_F : forall i', (i' < i)%nat -> ~ isRep i' -> exists j, (j < i - shift)%nat /\
           nth_error f2r i' = Some (Z.of_nat j) /\ nth_error r2f j = Some (Z.of_nat i');
  li_R : forall j, (j < i - shift)%nat -> exists i', (i' < i)%nat /\ ~ isRep i' /\
           nth_error r2f j = Some (Z.of_nat i') /\ nth_error f2r i' = Some (Z.of_nat j);
  li_T1 : forall r c, (r < i)%nat -> ~ isRep r -> nth_error f2r r = Some (Z.of_nat c) -> tripletSum ts r c = 1;
  li_T0 : forall r c, ~ ((r < i)%nat /\ ~ isRep r /\ nth_error f2r r = Some (Z.of_nat c)) -> tripletSum ts r c = 0;
  li_TO : forallb (tripletOk n (n - k)) ts = true }.

Lemma depLoop_spec cnt : forall i pre post f2r r2f ts,
  ds = pre ++ post -> (i + cnt = n)%nat ->
  (forall d, In d pre -> (replica d < i)%nat) -> (forall d, In d post -> (i <= replica d)%nat) ->
  loopInv i (length pre) f2r r2f ts ->
  exists f2r' r2f' ts', depLoop cnt i (length pre) ds f2r r2f ts = Ok (f2r', r2f', ts') /\
    loopInv n k f2r' r2f' ts'.
Proof.
  induction cnt as [|cnt IH]; intros i pre post f2r r2f ts Hds Hi Hpre Hpost Inv.
  - exists f2r, r2f, ts. split; [reflexivity|].
    assert (i = n) by lia. subst i.
    assert (post = []).
    { destruct post as [|d post]; auto. exfalso.
      assert (In d ds) by (rewrite Hds; apply in_or_app; right; left; auto).
      pose proof (Hrange d H). pose proof (Hpost d (or_introl eq_refl)). lia. }
    subst post. rewrite app_nil_r in Hds. unfold k. rewrite Hds. exact Inv.
  - cbn [depLoop].
    assert (Hnth : nth_error ds (length pre) = hd_error post).
    { rewrite Hds, nth_error_app2 by lia. rewrite Nat.sub_diag. destruct post; reflexivity. }
    rewrite Hnth.
    assert (Hpl : (length pre <= i)%nat).
    { rewrite <- (map_length replica). rewrite <- (Nat.sub_0_r i).
      apply nodup_range_length.
      - rewrite Hds, map_app in Hnd. apply NoDup_app_remove_r in Hnd. auto.
      - intros x Hx. apply in_map_iff in Hx as (d & <- & Hd). specialize (Hpre d Hd). lia. }
    destruct post as [|d post].
    + (* no dependency left *)
      simpl. rewrite app_nil_r in Hds.
      assert (Hk : k = length pre) by (unfold k; rewrite Hds; auto).
      assert (Hnr : ~ isRep i).
      { intros Hr. apply in_map_iff in Hr as (d & Hd & Hin). rewrite Hds in Hin. specialize (Hpre d Hin). lia. }
      destruct Inv as [Lf Lr F R T1 T0 TO].
      destruct (lset_spec f2r i (Z.of_nat (i - length pre))) as (f1 & Ef & Lf1 & Nf & Of); [lia|].
      destruct (lset_spec r2f (i - length pre) (Z.of_nat i)) as (r1 & Er & Lr1 & Nr & Or); [lia|].
      rewrite Ef. cbn [bind]. rewrite Er. cbn [bind].
      apply (IH (S i) pre []).
      * rewrite app_nil_r; auto.
      * lia.
      * intros d Hd. specialize (Hpre d Hd). lia.
      * intros d [].
      * constructor; try congruence.
        { intros i' Hi' Hn'. destruct (Nat.eq_dec i' i) as [->|Hne].
          - exists (i - length pre)%nat. split; [lia|]. auto.
          - destruct (F i') as (j & J1 & J2 & J3); [lia|auto|]. exists j. split; [lia|].
            rewrite Of, Or by lia. auto. }
        { intros j Hj. destruct (Nat.eq_dec j (i - length pre)) as [->|Hne].
          - exists i. split; [lia|]. auto.
          - destruct (R j) as (i' & I1 & I2 & I3 & I4); [lia|]. exists i'. split; [lia|]. split; [auto|].
            rewrite Of, Or by lia. auto. }
        { intros r c Hr Hnr' Hc. rewrite tripletSum_app. unfold tripletSum at 2. simpl.
          destruct (Nat.eq_dec r i) as [->|Hne].
          - rewrite Nat.eqb_refl. rewrite Nf in Hc. inversion Hc as [Hc']. rewrite Hc', Z.eqb_refl. simpl.
            rewrite T0 by lia. ring.
          - replace (Nat.eqb i r) with false by (symmetry; apply Nat.eqb_neq; auto). simpl.
            rewrite Of in Hc by auto. rewrite T1; auto; [ring|lia]. }
        { intros r c Hno. rewrite tripletSum_app. unfold tripletSum at 2. simpl.
          destruct (Nat.eq_dec r i) as [->|Hne].
          - rewrite Nat.eqb_refl. destruct (Z.eqb _ _) eqn:Ez.
            + apply Z.eqb_eq in Ez. exfalso. apply Hno. split; [lia|]. split; [auto|]. rewrite Nf, Ez. auto.
            + simpl. rewrite T0 by lia. ring.
          - replace (Nat.eqb i r) with false by (symmetry; apply Nat.eqb_neq; auto). simpl.
            rewrite T0; [ring|]. intros (H1 & H2 & H3). apply Hno. split; [lia|]. split; [auto|].
            rewrite Of; auto. }
        { rewrite forallb_app, TO. simpl. rewrite andb_true_r. unfold tripletOk. simpl.
          rewrite !andb_true_iff, Nat.ltb_lt, Z.leb_le, Z.ltb_lt. lia. }
    + simpl hd_error. cbv iota beta.
      destruct (Nat.eqb (replica d) i) eqn:Ed.
      * (* skip a replica *)
        apply Nat.eqb_eq in Ed.
        replace (S (length pre)) with (length (pre ++ [d])) by (rewrite app_length; simpl; lia).
        assert (Hir : isRep i).
        { unfold isRep. rewrite <- Ed. apply in_map. rewrite Hds. apply in_or_app; right; left; auto. }
        assert (Hposts : forall d', In d' post -> (i < replica d')%nat).
        { rewrite Hds in Hsort. apply StronglySorted_app_inv in Hsort as Hs.
          inversion Hs as [|? ? _ Hf]; subst. rewrite Forall_forall in Hf.
          intros d' Hd'. specialize (Hf d' Hd'). unfold rlt in Hf. lia. }
        apply (IH (S i) (pre ++ [d]) post).
        { rewrite <- app_assoc; auto. }
        { lia. }
        { intros d' Hd'. apply in_app_iff in Hd' as [Hd'|[<-|[]]]; [specialize (Hpre d' Hd'); lia|lia]. }
        { intros d' Hd'. specialize (Hposts d' Hd'). lia. }
        destruct Inv as [Lf Lr F R T1 T0 TO].
        replace (length (pre ++ [d])) with (S (length pre)) by (rewrite app_length; simpl; lia).
        constructor; auto.
        { intros i' Hi' Hn'. assert (i' <> i) by (intros ->; auto).
          destruct (F i') as (j & J); [lia|auto|]. exists j. simpl. exact J. }
        { intros j Hj. destruct (R j) as (i' & I1 & I2); [lia|]. exists i'. split; [lia|auto]. }
        { intros r c Hr Hnr Hc. assert (r <> i) by (intros ->; auto). apply T1; auto. lia. }
        { intros r c Hno. apply T0. intros (H1 & H2). apply Hno. split; [lia|auto]. }
      * (* ordinary variable before the next replica *)
        apply Nat.eqb_neq in Ed.
        pose proof (Hpost d (or_introl eq_refl)) as Hd.
        assert (Hposts : forall d', In d' (d :: post) -> (i < replica d')%nat).
        { rewrite Hds in Hsort. apply StronglySorted_app_inv in Hsort as Hs.
          inversion Hs as [|? ? _ Hf]; subst. rewrite Forall_forall in Hf.
          intros d' [<-|Hd']; [lia|]. specialize (Hf d' Hd'). unfold rlt in Hf. lia. }
        assert (Hnr : ~ isRep i).
        { intros Hr. apply in_map_iff in Hr as (d' & Hd' & Hin). rewrite Hds in Hin.
          apply in_app_iff in Hin as [Hin|Hin]; [specialize (Hpre d' Hin)|specialize (Hposts d' Hin)]; lia. }
        assert (Hlast : (i - length pre < n - k)%nat).
        { assert (length (map replica (d :: post)) <= n - S i)%nat as Hl.
          { apply nodup_range_length.
            - rewrite Hds, map_app in Hnd. apply NoDup_app_remove_l in Hnd. auto.
            - intros x Hx. apply in_map_iff in Hx as (d' & <- & Hd'). split; [specialize (Hposts d' Hd'); lia|].
              apply Hrange. rewrite Hds. apply in_or_app; auto. }
          rewrite map_length in Hl. unfold k. rewrite Hds, app_length. lia. }
        destruct Inv as [Lf Lr F R T1 T0 TO].
        destruct (lset_spec f2r i (Z.of_nat (i - length pre))) as (f1 & Ef & Lf1 & Nf & Of); [lia|].
        destruct (lset_spec r2f (i - length pre) (Z.of_nat i)) as (r1 & Er & Lr1 & Nr & Or); [lia|].
        rewrite Ef. cbn [bind]. rewrite Er. cbn [bind].
        apply (IH (S i) pre (d :: post)).
        { auto. }
        { lia. }
        { intros d' Hd'. specialize (Hpre d' Hd'). lia. }
        { intros d' Hd'. specialize (Hposts d' Hd'). lia. }
        constructor; try congruence.
        { intros i' Hi' Hn'. destruct (Nat.eq_dec i' i) as [->|Hne].
          - exists (i - length pre)%nat. split; [lia|]. auto.
          - destruct (F i') as (j & J1 & J2 & J3); [lia|auto|]. exists j. split; [lia|].
            rewrite Of, Or by lia. auto. }
        { intros j Hj. destruct (Nat.eq_dec j (i - length pre)) as [->|Hne].
          - exists i. split; [lia|]. auto.
          - destruct (R j) as (i' & I1 & I2 & I3 & I4); [lia|]. exists i'. split; [lia|]. split; [auto|].
            rewrite Of, Or by lia. auto. }
        { intros r c Hr Hnr' Hc. rewrite tripletSum_app. unfold tripletSum at 2. simpl.
          destruct (Nat.eq_dec r i) as [->|Hne].
          - rewrite Nat.eqb_refl. rewrite Nf in Hc. inversion Hc as [Hc']. rewrite Hc', Z.eqb_refl. simpl.
            rewrite T0 by lia. ring.
          - replace (Nat.eqb i r) with false by (symmetry; apply Nat.eqb_neq; auto). simpl.
            rewrite Of in Hc by auto. rewrite T1; auto; [ring|lia]. }
        { intros r c Hno. rewrite tripletSum_app. unfold tripletSum at 2. simpl.
          destruct (Nat.eq_dec r i) as [->|Hne].
          - rewrite Nat.eqb_refl. destruct (Z.eqb _ _) eqn:Ez.
            + apply Z.eqb_eq in Ez. exfalso. apply Hno. split; [lia|]. split; [auto|]. rewrite Nf, Ez. auto.
            + simpl. rewrite T0 by lia. ring.
          - replace (Nat.eqb i r) with false by (symmetry; apply Nat.eqb_neq; auto). simpl.
            rewrite T0; [ring|]. intros (H1 & H2 & H3). apply Hno. split; [lia|]. split; [auto|].
            rewrite Of; auto. }
        { rewrite forallb_app, TO. simpl. rewrite andb_true_r. unfold tripletOk. simpl.
          rewrite !andb_true_iff, Nat.ltb_lt, Z.leb_le, Z.ltb_lt. lia. }
Qed.
End Loop.

(* ------------------------------------------------------------------ *)
(** * Multiplier matrix *)
Lemma depTriplets_spec ds f2r (red : nat -> nat) :
  (forall d, In d ds -> nth_error f2r (leader d) = Some (Z.of_nat (red (leader d)))) ->
  depTriplets ds f2r = Ok (map (fun d => (replica d, Z.of_nat (red (leader d)), mult d)) ds).
Proof.
  induction ds as [|d ds IH]; intros H; simpl; [reflexivity|].
  rewrite (proj2 (vec_at_Ok _ _ _) (H d (or_introl eq_refl))). cbn [bind].
  rewrite IH by (intros; apply H; right; auto). reflexivity.
Qed.

Lemma depTriplets_sum0 (ds : list dep) (red : nat -> nat) i j :
  ~ In i (map replica ds) ->
  tripletSum (map (fun d => (replica d, Z.of_nat (red (leader d)), mult d)) ds) i j = 0.
Proof.
  induction ds as [|d ds IH]; intros H; [reflexivity|]. unfold tripletSum in *. simpl.
  rewrite IH by (intros Hi; apply H; right; auto).
  replace (Nat.eqb (replica d) i) with false by (symmetry; apply Nat.eqb_neq; intros Heq; apply H; left; auto).
  simpl. ring.
Qed.
Lemma depTriplets_sum1 (ds : list dep) (red : nat -> nat) d j :
  NoDup (map replica ds) -> In d ds ->
  tripletSum (map (fun d => (replica d, Z.of_nat (red (leader d)), mult d)) ds) (replica d) j =
  if Nat.eqb (red (leader d)) j then mult d else 0.
Proof.
  induction ds as [|e ds IH]; intros Hn Hin; [destruct Hin|].
  simpl in Hn. inversion Hn; subst. destruct Hin as [->|Hin].
  - pose proof (depTriplets_sum0 ds red (replica d) j H1) as Z0. unfold tripletSum in *. simpl.
    rewrite Z0, Nat.eqb_refl. simpl.
    destruct (Nat.eqb (red (leader d)) j) eqn:E.
    + apply Nat.eqb_eq in E. subst. rewrite Z.eqb_refl. ring.
    + apply Nat.eqb_neq in E. replace (Z.eqb _ _) with false by (symmetry; apply Z.eqb_neq; lia). ring.
  - specialize (IH H2 Hin). unfold tripletSum in *. simpl. rewrite IH.
    replace (Nat.eqb (replica e) (replica d)) with false; [simpl; ring|].
    symmetry. apply Nat.eqb_neq. intros Heq. apply H1. rewrite Heq. apply in_map. auto.
Qed.

(** What setDependencies establishes. [red] maps a kept variable to its reduced index. *)
Record depMaps (n : nat) (deps : list dep) (red : nat -> nat) (b : backend) : Prop := {
  dm_deps : Permutation (bkDeps b) deps;
  dm_rows : mrows (bkM b) = n;
  dm_cols : mcols (bkM b) = (n - length deps)%nat;
  dm_f2r : length (bkF2R b) = n;
  dm_r2f : length (bkR2F b) = (n - length deps)%nat;
  dm_F : forall i, (i < n)%nat -> ~ In i (map replica deps) ->
     (red i < n - length deps)%nat /\ nth_error (bkF2R b) i = Some (Z.of_nat (red i)) /\
     nth_error (bkR2F b) (red i) = Some (Z.of_nat i);
  dm_R : forall j, (j < n - length deps)%nat -> exists i, (i < n)%nat /\ ~ In i (map replica deps) /\
     nth_error (bkR2F b) j = Some (Z.of_nat i) /\ red i = j;
  dm_M0 : forall i j, (i < n)%nat -> ~ In i (map replica deps) -> mget (bkM b) i j = if Nat.eqb (red i) j then 1 else 0;
  dm_M1 : forall l r m j, In (l, r, m) deps -> mget (bkM b) r j = if Nat.eqb (red l) j then m else 0 }.

Lemma setDependencies_spec b n deps :
  wfDeps n deps ->
  exists b' red, setDependencies b n deps = Ok b' /\ depMaps n deps red b' /\
    bkKind b' = bkKind b /\ bkN b' = bkN b /\ bkEq b' = bkEq b /\ bkIn b' = bkIn b /\ bkGen b' = bkGen b /\
    bkRed b' = bkRed b.
Proof.
  intros (Hnd & Hr & Hlen). unfold setDependencies.
  replace (length deps <? n)%nat with true by (symmetry; apply Nat.ltb_lt; auto). cbn [guard bind].
  set (ds := sortDeps deps).
  assert (Hp : Permutation ds deps) by apply sortDeps_perm.
  assert (Hl : length ds = length deps) by (apply Permutation_length; auto).
  assert (Hpr : Permutation (map replica ds) (map replica deps)) by (apply Permutation_map; auto).
  assert (Hnd' : NoDup (map replica ds)) by (eapply Permutation_NoDup; [apply Permutation_sym; exact Hpr|auto]).
  assert (Hs : StronglySorted rlt ds) by (apply sorted_strict; auto; apply sortDeps_sorted).
  assert (Hrange : forall d, In d ds -> (replica d < n)%nat).
  { intros d Hd. apply Hr. eapply Permutation_in; eauto. }
  destruct (depLoop_spec n ds Hs Hnd' Hrange n 0 [] ds (resize (bkF2R b) n (-1)%Z)
              (resize (bkR2F b) (n - length ds) (-1)%Z) []) as (f1 & r1 & ts & E & Inv).
  { reflexivity. } { lia. } { intros d []. } { intros; lia. }
  { constructor; simpl; auto; try (rewrite resize_length; reflexivity); try (intros; lia). }
  simpl in E. rewrite E. cbn [bind].
  destruct Inv as [Lf Lr F R T1 T0 TO].
  assert (HrepEq : forall i, isRep ds i <-> In i (map replica deps)).
  { intros i. unfold isRep. split; intros H; (eapply Permutation_in; [|exact H]); auto. apply Permutation_sym; auto. }
  set (red := fun i => match nth_error f1 i with Some z => Z.to_nat z | None => 0%nat end).
  assert (Hred : forall i, (i < n)%nat -> ~ isRep ds i ->
     nth_error f1 i = Some (Z.of_nat (red i)) /\ (red i < n - length ds)%nat /\
     nth_error r1 (red i) = Some (Z.of_nat i)).
  { intros i Hi Hn. destruct (F i Hi Hn) as (j & J1 & J2 & J3).
    assert (Hrj : red i = j) by (unfold red; rewrite J2; apply Nat2Z.id). rewrite Hrj. auto. }
  assert (Hlead : forall d, In d ds -> nth_error f1 (leader d) = Some (Z.of_nat (red (leader d)))).
  { intros d Hd. assert (Hd' : In d deps) by (eapply Permutation_in; eauto).
    destruct (Hr d Hd') as (L1 & L2 & L3). apply Hred; auto. rewrite HrepEq. auto. }
  rewrite (depTriplets_spec ds f1 red Hlead). cbn [bind].
  unfold setFromTriplets. rewrite forallb_app. rewrite <- Hl, TO.
  assert (TO2 : forallb (tripletOk n (n - length ds)) (map (fun d => (replica d, Z.of_nat (red (leader d)), mult d)) ds) = true).
  { apply forallb_forall. intros t Ht. apply in_map_iff in Ht as (d & <- & Hd).
    assert (Hd' : In d deps) by (eapply Permutation_in; eauto).
    destruct (Hr d Hd') as (L1 & L2 & L3).
    destruct (Hred (leader d)) as (_ & Hx & _); auto; [rewrite HrepEq; auto|].
    unfold tripletOk. simpl. rewrite !andb_true_iff, Nat.ltb_lt, Z.leb_le, Z.ltb_lt. lia. }
  rewrite TO2. cbn [guard bind andb].
  eexists _, red. split; [reflexivity|]. split; [|simpl; auto 10].
  constructor; simpl; auto.
  - rewrite <- Hl; auto.
  - intros i Hi Hn. rewrite <- HrepEq in Hn. rewrite <- Hl.
    destruct (Hred i Hi Hn) as (A1 & A2 & A3). auto.
  - intros j Hj. rewrite <- Hl in Hj. destruct (R j Hj) as (i & I1 & I2 & I3 & I4).
    exists i. split; [auto|]. split; [rewrite <- HrepEq; auto|]. split; [auto|].
    unfold red. rewrite I4. apply Nat2Z.id.
  - intros i j Hi Hn. rewrite <- HrepEq in Hn. rewrite tripletSum_app.
    rewrite depTriplets_sum0 by auto. rewrite Rplus_0_r.
    destruct (Hred i Hi Hn) as (A1 & A2 & A3).
    destruct (Nat.eqb (red i) j) eqn:Ej.
    + apply Nat.eqb_eq in Ej. subst j. apply T1; auto.
    + apply Nat.eqb_neq in Ej. apply T0. intros (_ & _ & H3). rewrite A1 in H3. inversion H3. lia.
  - intros l r m j Hin.
    assert (Hin' : In (l, r, m) ds) by (eapply Permutation_in; [apply Permutation_sym; eauto|auto]).
    rewrite tripletSum_app.
    rewrite T0 by (intros (_ & H2 & _); apply H2; apply (in_map replica) in Hin'; exact Hin').
    rewrite Rplus_0_l. exact (depTriplets_sum1 ds red (l, r, m) j Hnd' Hin').
Qed.

(* ------------------------------------------------------------------ *)
(** * Expansion *)
Section Expand.
Variables (n : nat) (deps : list dep) (red : nat -> nat) (b : backend).
Hypothesis Hwf : wfDeps n deps.
Hypothesis D : depMaps n deps red b.
Let m := (n - length deps)%nat.

(** x = M y. *)
Definition expand (y : nat -> R) (i : nat) : R := rowdot (bkM b) i y.

Lemma expand_kept y i : (i < n)%nat -> ~ In i (map replica deps) -> expand y i = y (red i).
Proof.
  intros Hi Hn. unfold expand, rowdot. destruct (dm_F _ _ _ _ D i Hi Hn) as (H1 & _ & _).
  rewrite (sumn_delta _ (red i)).
  - rewrite (dm_M0 _ _ _ _ D) by auto. rewrite Nat.eqb_refl. ring.
  - rewrite (dm_cols _ _ _ _ D). auto.
  - intros j Hj Hne. rewrite (dm_M0 _ _ _ _ D) by auto.
    replace (Nat.eqb (red i) j) with false by (symmetry; apply Nat.eqb_neq; auto). ring.
Qed.

Lemma expand_replica y l r c : In (l, r, c) deps -> expand y r = c * y (red l).
Proof.
  intros Hin. destruct Hwf as (Hnd & Hr & Hlen). destruct (Hr _ Hin) as (L1 & L2 & L3).
  unfold leader, replica in *; simpl in *.
  unfold expand, rowdot. destruct (dm_F _ _ _ _ D l L1 L3) as (H1 & _ & _).
  rewrite (sumn_delta _ (red l)).
  - rewrite (dm_M1 _ _ _ _ D _ _ _ _ Hin). rewrite Nat.eqb_refl. ring.
  - rewrite (dm_cols _ _ _ _ D). auto.
  - intros j Hj Hne. rewrite (dm_M1 _ _ _ _ D _ _ _ _ Hin).
    replace (Nat.eqb (red l) j) with false by (symmetry; apply Nat.eqb_neq; auto). ring.
Qed.

Lemma expand_honours y : honours deps (expand y).
Proof.
  intros l r c Hin. rewrite (expand_replica y l r c Hin).
  destruct Hwf as (Hnd & Hr & Hlen). destruct (Hr _ Hin) as (L1 & L2 & L3). unfold leader in *; simpl in *.
  rewrite (expand_kept y l) by auto. reflexivity.
Qed.

(** Converse: a vector that honours the dependencies is the expansion of its restriction. *)
Definition restrict (x : nat -> R) (j : nat) : R :=
  match nth_error (bkR2F b) j with Some z => x (Z.to_nat z) | None => 0 end.

Lemma restrict_red x i : (i < n)%nat -> ~ In i (map replica deps) -> restrict x (red i) = x i.
Proof.
  intros Hi Hn. unfold restrict. destruct (dm_F _ _ _ _ D i Hi Hn) as (_ & _ & ->). rewrite Nat2Z.id. auto.
Qed.

Lemma expand_restrict x : honours deps x -> forall i, (i < n)%nat -> expand (restrict x) i = x i.
Proof.
  intros Hx i Hi. destruct (in_dec Nat.eq_dec i (map replica deps)) as [Hin|Hn].
  - apply in_map_iff in Hin as ([[l r] c] & Hr' & Hin). unfold replica in Hr'; simpl in Hr'. subst r.
    rewrite (expand_replica _ l i c Hin).
    destruct Hwf as (Hnd & Hr & Hlen). destruct (Hr _ Hin) as (L1 & L2 & L3). unfold leader in *; simpl in *.
    rewrite restrict_red by auto. symmetry. apply (Hx l i c Hin).
  - rewrite expand_kept by auto. apply restrict_red; auto.
Qed.

Lemma expand_inj y1 y2 : (forall i, (i < n)%nat -> expand y1 i = expand y2 i) ->
  forall j, (j < m)%nat -> y1 j = y2 j.
Proof.
  intros H j Hj. destruct (dm_R _ _ _ _ D j Hj) as (i & I1 & I2 & I3 & <-).
  specialize (H i I1). rewrite !expand_kept in H by auto. auto.
Qed.

(** Products with the multiplier matrix. *)
Lemma rowdot_mul A A' i y :
  mmul A (bkM b) = Ok A' -> rowdot A' i y = sumn (mcols A) (fun j => mget A i j * expand y j).
Proof.
  unfold mmul. destruct (_ =? _)%nat eqn:E; [|discriminate]. apply Nat.eqb_eq in E.
  intros H; inversion H; subst A'. unfold rowdot, expand, rowdot, mmul_ent; simpl.
  rewrite (sumn_ext _ _ (fun j => sumn (mcols A) (fun k => mget A i k * mget (bkM b) k j * y j))).
  - rewrite sumn_swap. apply sumn_ext; intros k _. rewrite <- sumn_scal. apply sumn_ext; intros; ring.
  - intros j _. rewrite <- sumn_scal_r. reflexivity.
Qed.

Lemma lin_sumn k f g x : (forall i, (i < k)%nat -> f i = g i) -> lin k f x = lin k g x.
Proof. intros H. unfold lin. apply sumn_ext. intros; rewrite H; auto. Qed.

Lemma reduceQC_cost QF CF Q C y :
  reduceQC QF CF (bkM b) = Ok (Q, C) -> mrows QF = n -> mcols QF = n -> vlen CF = n ->
  mrows Q = m /\ mcols Q = m /\ vlen C = m /\
  qpcost m (mget Q) (vget C) y = qpcost n (mget QF) (vget CF) (expand y).
Proof.
  unfold reduceQC. intros H Hr Hc Hl. binds H. inversion H; subst a0 a1; clear H.
  unfold mmul in E at 1. destruct (_ =? _)%nat eqn:E'; [|discriminate]. apply Nat.eqb_eq in E'.
  inversion E; subst a; clear E. unfold mmul in E0 at 1. simpl in E0.
  destruct (_ =? _)%nat eqn:E2 in E0; [|discriminate]. apply Nat.eqb_eq in E2.
  inversion E0; subst Q; clear E0.
  unfold mvec in E1. simpl in E1. destruct (_ =? _)%nat eqn:E3 in E1; [|discriminate].
  inversion E1; subst C; clear E1. simpl in E'. apply Nat.eqb_eq in E3.
  pose proof (dm_rows _ _ _ _ D) as Dr. pose proof (dm_cols _ _ _ _ D) as Dc. fold m in Dc.
  simpl. split; [auto|]. split; [auto|]. split; [auto|].
  unfold qpcost, quad, lin. simpl. f_equal; [f_equal|].
  - (* quadratic part *)
    unfold mmul_ent; simpl. unfold mmul_ent; simpl. unfold expand, rowdot. rewrite Dc, Dr, Hc.
    (* LHS: sum_i sum_j y i * (sum_k (sum_l M l i * QF l k) * M k j) * y j *)
    transitivity (sumn n (fun l => sumn n (fun k => sumn m (fun i => sumn m (fun j =>
        mget (bkM b) l i * y i * mget QF l k * (mget (bkM b) k j * y j)))))).
    + transitivity (sumn m (fun i => sumn m (fun j => sumn n (fun k => sumn n (fun l =>
        mget (bkM b) l i * y i * mget QF l k * (mget (bkM b) k j * y j)))))).
      * apply sumn_ext; intros i _. apply sumn_ext; intros j _.
        rewrite <- sumn_scal, <- sumn_scal_r. apply sumn_ext; intros k _.
        rewrite <- sumn_scal_r, <- sumn_scal, <- sumn_scal_r. apply sumn_ext; intros l _. ring.
      * transitivity (sumn m (fun i => sumn n (fun k => sumn n (fun l => sumn m (fun j =>
          mget (bkM b) l i * y i * mget QF l k * (mget (bkM b) k j * y j)))))).
        { apply sumn_ext; intros i _. rewrite sumn_swap. apply sumn_ext; intros k _. apply sumn_swap. }
        rewrite sumn_swap.
        transitivity (sumn n (fun k => sumn n (fun l => sumn m (fun i => sumn m (fun j =>
          mget (bkM b) l i * y i * mget QF l k * (mget (bkM b) k j * y j)))))).
        { apply sumn_ext; intros k _. apply sumn_swap. }
        apply sumn_swap.
    + apply sumn_ext; intros l _. apply sumn_ext; intros k _.
      rewrite <- sumn_scal_r, sumn_mult. apply sumn_ext; intros i _. apply sumn_ext; intros j _. ring.
  - unfold expand, rowdot. rewrite Dc, Dr.
    transitivity (sumn m (fun i => sumn n (fun k => vget CF k * (mget (bkM b) k i * y i)))).
    + apply sumn_ext; intros i _. rewrite <- sumn_scal_r. apply sumn_ext; intros k _. ring.
    + rewrite sumn_swap. apply sumn_ext; intros k _. rewrite sumn_scal. reflexivity.
Qed.

(** Bounds. *)
Lemma copyBounds_spec cnt : forall i XLF XUF XL XU,
  vlen XLF = n -> vlen XUF = n -> vlen XL = m -> vlen XU = m -> (i + cnt = m)%nat ->
  exists XL' XU', copyBounds cnt i XLF XUF (bkR2F b) XL XU = Ok (XL', XU') /\
    vlen XL' = m /\ vlen XU' = m /\
    (forall j, (j < i)%nat -> vget XL' j = vget XL j /\ vget XU' j = vget XU j) /\
    (forall f, (f < n)%nat -> ~ In f (map replica deps) -> (i <= red f)%nat ->
       vget XL' (red f) = vget XLF f /\ vget XU' (red f) = vget XUF f).
Proof.
  induction cnt as [|cnt IH]; intros i XLF XUF XL XU H1 H2 H3 H4 H5.
  - exists XL, XU. split; [reflexivity|]. split; [auto|]. split; [auto|]. split; [auto|].
    intros f Hf Hn Hi. destruct (dm_F _ _ _ _ D f Hf Hn) as (Hx & _ & _). fold m in Hx. lia.
  - cbn [copyBounds]. destruct (dm_R _ _ _ _ D i) as (f & F1 & F2 & F3 & F4); [fold m; lia|].
    rewrite (proj2 (vec_at_Ok _ _ _) F3). cbn [bind].
    unfold zidx. replace (0 <=? Z.of_nat f)%Z with true by (symmetry; apply Z.leb_le; lia). cbn [bind].
    rewrite Nat2Z.id. unfold vget_at. rewrite H1, H2.
    replace (f <? n)%nat with true by (symmetry; apply Nat.ltb_lt; auto). cbn [bind].
    unfold vput. rewrite H3, H4.
    replace (i <? m)%nat with true by (symmetry; apply Nat.ltb_lt; lia). cbn [bind].
    destruct (IH (S i) XLF XUF (mkVec m (fun k => if Nat.eqb k i then vget XLF f else vget XL k))
                 (mkVec m (fun k => if Nat.eqb k i then vget XUF f else vget XU k)))
      as (XL' & XU' & E & J1 & J2 & J3 & J4); auto; [lia|].
    exists XL', XU'. split; [exact E|]. split; [auto|]. split; [auto|]. split.
    + intros j Hj. destruct (J3 j) as [-> ->]; [lia|]. simpl.
      replace (Nat.eqb j i) with false by (symmetry; apply Nat.eqb_neq; lia). auto.
    + intros f' Hf' Hn' Hi'. destruct (Nat.eq_dec (red f') i) as [He|He].
      * destruct (J3 (red f')) as [-> ->]; [lia|]. simpl. rewrite He, Nat.eqb_refl.
        destruct (dm_F _ _ _ _ D f' Hf' Hn') as (_ & _ & Hr). rewrite He in Hr.
        rewrite F3 in Hr. inversion Hr. replace f' with f by lia. auto.
      * apply J4; auto. lia.
Qed.

Lemma depBounds_spec ds : forall XLF XUF XL XU,
  (forall d, In d ds -> In d deps) ->
  vlen XLF = n -> vlen XUF = n -> vlen XL = m -> vlen XU = m ->
  exists XL' XU', depBounds ds XLF XUF (bkF2R b) XL XU = Ok (XL', XU') /\
    vlen XL' = m /\ vlen XU' = m /\
    forall y : nat -> R,
      (forall j, (j < m)%nat -> between (vget XL' j) (y j) (vget XU' j)) <->
      ((forall j, (j < m)%nat -> between (vget XL j) (y j) (vget XU j)) /\
       forall l r c, In (l, r, c) ds -> c <> 0 -> between (vget XLF r) (c * y (red l)) (vget XUF r)).
Proof.
  destruct Hwf as (Hnd & Hr & Hlen).
  induction ds as [|[[l r] c] ds IH]; intros XLF XUF XL XU Hsub H1 H2 H3 H4.
  - exists XL, XU. split; [reflexivity|]. split; [auto|]. split; [auto|]. intros y. split.
    + intros H. split; [auto|]. intros l r c [].
    + intros [H _]. auto.
  - cbn [depBounds].
    pose proof (Hsub _ (or_introl eq_refl)) as Hin. destruct (Hr _ Hin) as (L1 & L2 & L3).
    unfold leader, replica in L1, L2, L3; simpl in L1, L2, L3.
    destruct (dm_F _ _ _ _ D l L1 L3) as (F1 & F2 & F3). fold m in F1.
    rewrite (proj2 (vec_at_Ok _ _ _) F2). cbn [bind].
    destruct (Req_EM_T c 0) as [Hc|Hc].
    + destruct (IH XLF XUF XL XU) as (XL' & XU' & E & J1 & J2 & J3); auto.
      { intros d Hd; apply Hsub; right; auto. }
      exists XL', XU'. split; [exact E|]. split; [auto|]. split; [auto|]. intros y. rewrite J3. split.
      * intros [A1 A2]. split; [auto|]. intros l' r' c' [Heq|Hin'] Hc'; [inversion Heq; subst; lra|eauto].
      * intros [A1 A2]. split; [auto|]. intros; eapply A2; eauto; right; auto.
    + unfold zidx. replace (0 <=? Z.of_nat (red l))%Z with true by (symmetry; apply Z.leb_le; lia). cbn [bind].
      rewrite Nat2Z.id. unfold vget_at. rewrite H1, H2, H3, H4.
      replace (red l <? m)%nat with true by (symmetry; apply Nat.ltb_lt; auto). cbn [bind].
      replace (r <? n)%nat with true by (symmetry; apply Nat.ltb_lt; auto). cbn [bind].
      unfold vput. rewrite H3, H4.
      replace (red l <? m)%nat with true by (symmetry; apply Nat.ltb_lt; auto).
      assert (Hcase : exists lo up,
        (if Rlt_dec c 0
         then
          do XL1 <- Ok (mkVec m (fun k => if Nat.eqb k (red l) then emax (vget XL (red l)) (edivr (vget XUF r) c) else vget XL k));
          do XU1 <- Ok (mkVec m (fun k => if Nat.eqb k (red l) then emin (vget XU (red l)) (edivr (vget XLF r) c) else vget XU k));
          Ok (XL1, XU1)
         else
          do XL1 <- Ok (mkVec m (fun k => if Nat.eqb k (red l) then emax (vget XL (red l)) (edivr (vget XLF r) c) else vget XL k));
          do XU1 <- Ok (mkVec m (fun k => if Nat.eqb k (red l) then emin (vget XU (red l)) (edivr (vget XUF r) c) else vget XU k));
          Ok (XL1, XU1)) =
        Ok (mkVec m (fun k => if Nat.eqb k (red l) then lo else vget XL k),
            mkVec m (fun k => if Nat.eqb k (red l) then up else vget XU k)) /\
        forall v, between lo v up <-> between (vget XL (red l)) v (vget XU (red l)) /\ between (vget XLF r) (c * v) (vget XUF r)).
      { destruct (Rlt_dec c 0) as [Hn|Hn]; eexists _, _; (split; [reflexivity|]); intros v; unfold between;
          rewrite emax_le, emin_ge.
        - rewrite edivr_neg_le, edivr_neg_ge by auto. tauto.
        - assert (0 < c) by lra. rewrite edivr_pos_le, edivr_pos_ge by auto. tauto. }
      destruct Hcase as (lo & up & -> & Hb). cbn [bind].
      destruct (IH XLF XUF (mkVec m (fun k => if Nat.eqb k (red l) then lo else vget XL k))
                  (mkVec m (fun k => if Nat.eqb k (red l) then up else vget XU k)))
        as (XL' & XU' & E & J1 & J2 & J3); auto.
      { intros d Hd; apply Hsub; right; auto. }
      exists XL', XU'. split; [exact E|]. split; [auto|]. split; [auto|]. intros y. rewrite J3. simpl. split.
      * intros [A1 A2]. pose proof (A1 (red l) F1) as A3. rewrite Nat.eqb_refl in A3. apply Hb in A3 as [A3 A4].
        split.
        { intros j Hj. destruct (Nat.eq_dec j (red l)) as [->|Hne]; [auto|].
          specialize (A1 j Hj). replace (Nat.eqb j (red l)) with false in A1 by (symmetry; apply Nat.eqb_neq; auto). auto. }
        intros l' r' c' [Heq|Hin'] Hc'; [inversion Heq; subst; auto|eauto].
      * intros [A1 A2]. split.
        { intros j Hj. destruct (Nat.eqb j (red l)) eqn:Ej; [|auto].
          apply Nat.eqb_eq in Ej. subst j. apply Hb. split; [auto|]. eapply A2; eauto. }
        intros; eapply A2; eauto.
Qed.

(** The reduced bounds at y hold iff the full bounds hold at the expansion of y, for every variable
    that is not a replica with a zero multiplier. *)
Lemma reduceBound_spec XLF XUF ds :
  vlen XLF = n -> vlen XUF = n -> Permutation ds deps ->
  exists XL XU, reduceBound XLF XUF m (bkF2R b) (bkR2F b) ds = Ok (XL, XU) /\ vlen XL = m /\ vlen XU = m /\
    forall y, (forall j, (j < m)%nat -> between (vget XL j) (y j) (vget XU j)) <->
      (forall i, (i < n)%nat -> (forall l, ~ In (l, i, 0) deps) -> between (vget XLF i) (expand y i) (vget XUF i)).
Proof.
  intros H1 H2 Hp. unfold reduceBound.
  destruct (copyBounds_spec m 0 XLF XUF (vfill m NInf) (vfill m PInf)) as (XL & XU & E & J1 & J2 & _ & J4); auto.
  rewrite E. cbn [bind].
  destruct (depBounds_spec ds XLF XUF XL XU) as (XL' & XU' & E' & K1 & K2 & K3); auto.
  { intros d Hd. eapply Permutation_in; eauto. }
  exists XL', XU'. split; [exact E'|]. split; [auto|]. split; [auto|]. intros y. rewrite K3.
  pose proof Hwf as (Hnd & Hr & Hlen). split.
  - intros [A1 A2] i Hi Hz. destruct (in_dec Nat.eq_dec i (map replica deps)) as [Hin|Hn].
    + apply in_map_iff in Hin as ([[l r] c] & Hr' & Hin). unfold replica in Hr'; simpl in Hr'. subst r.
      rewrite (expand_replica y l i c Hin). apply A2.
      * eapply Permutation_in; [apply Permutation_sym; eauto|auto].
      * intros ->. apply (Hz l); auto.
    + rewrite expand_kept by auto. destruct (J4 i Hi Hn) as [<- <-]; [lia|].
      apply A1. apply (dm_F _ _ _ _ D i Hi Hn).
  - intros A. split.
    + intros j Hj. destruct (dm_R _ _ _ _ D j Hj) as (i & I1 & I2 & I3 & <-).
      destruct (J4 i I1 I2) as [-> ->]; [lia|]. rewrite <- (expand_kept y i I1 I2). apply A; auto.
      intros l Hin. apply I2. apply (in_map replica) in Hin. exact Hin.
    + intros l r c Hin Hc. assert (Hin' : In (l, r, c) deps) by (eapply Permutation_in; eauto).
      rewrite <- (expand_replica y l r c Hin'). apply A; [apply (Hr _ Hin')|].
      intros l' Hin0. assert (c = 0 /\ l = l').
      { clear -Hnd Hin' Hin0. revert Hnd Hin' Hin0. induction deps as [|d ds' IHd]; intros Hn A1 A2; [destruct A1|].
        simpl in Hn. inversion Hn; subst. destruct A1 as [->|A1], A2 as [A2|A2].
        - inversion A2; auto.
        - exfalso. apply H1. apply (in_map replica) in A2. exact A2.
        - subst d. exfalso. apply H1. apply (in_map replica) in A1. exact A1.
        - auto. }
      tauto.
Qed.
End Expand.
