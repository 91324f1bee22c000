(** The ordered containers of ContactConstrCommon behave like maps from contact ids. *)
From Coq Require Import Sorted.
From Verif Require Export ContactConstrModel ContactProofs.
Open Scope R_scope.

Definition keys {V} (m : list (contactId * V)) : list contactId := map fst m.
Definition sorted {V} (m : list (contactId * V)) : Prop := StronglySorted cid_lt (keys m).

Lemma cid_ltb_false a b : cid_ltb a b = false <-> ~ cid_lt a b.
Proof. rewrite <- cid_ltb_spec. destruct (cid_ltb a b); intuition congruence. Qed.
Lemma cid_not_lt a b : ~ cid_lt a b -> ~ cid_lt b a -> a = b.
Proof. intros H K. destruct (cid_lt_total a b) as [L|[L|L]]; tauto. Qed.
Definition cid_dec (a b : contactId) : {a = b} + {a <> b}.
Proof. destruct (cid_eqb a b) eqn:E; [left; apply cid_eqb_spec; auto|right; intros H; apply cid_eqb_spec in H; congruence]. Defined.

Lemma sorted_tail {V} (x : contactId * V) m : sorted (x :: m) -> sorted m /\ forall y, In y m -> cid_lt (fst x) (fst y).
Proof.
  unfold sorted, keys. simpl. intros H. inversion H as [|? ? H1 H2]; subst. split; [auto|].
  intros y Hy. rewrite Forall_forall in H2. apply H2. apply in_map; auto.
Qed.
Lemma sorted_cons {V} (x : contactId * V) m : sorted m -> (forall y, In y m -> cid_lt (fst x) (fst y)) -> sorted (x :: m).
Proof.
  unfold sorted, keys. simpl. intros H K. constructor; auto. apply Forall_forall. intros k Hk. apply in_map_iff in Hk as (y & <- & Hy). auto.
Qed.

Lemma mFind_In {V} k (v : V) m : sorted m -> (mFind k m = Some v <-> In (k, v) m).
Proof.
  induction m as [|[k' v'] m IH]; intros S; simpl; [intuition congruence|].
  apply sorted_tail in S as (S & L). simpl in L.
  destruct (cid_ltb k k') eqn:E1.
  - apply cid_ltb_spec in E1. split; [discriminate|]. intros [H|H].
    + inversion H; subst. exfalso; eapply cid_lt_irr; eauto.
    + apply L in H. simpl in H. exfalso. eapply cid_lt_irr. eapply cid_lt_trans; eauto.
  - apply cid_ltb_false in E1. destruct (cid_ltb k' k) eqn:E2.
    + apply cid_ltb_spec in E2. rewrite IH by auto. split; [auto|]. intros [H|H]; auto. inversion H; subst. exfalso; eapply cid_lt_irr; eauto.
    + apply cid_ltb_false in E2. assert (k = k') by (apply cid_not_lt; auto). subst. split.
      * intros H; inversion H; auto.
      * intros [H|H]; [inversion H; auto|]. apply L in H. simpl in H. exfalso; eapply cid_lt_irr; eauto.
Qed.
Lemma mFind_None {V} k (m : list (contactId * V)) : sorted m -> (mFind k m = None <-> ~ In k (keys m)).
Proof.
  intros S. destruct (mFind k m) eqn:E.
  - split; [discriminate|]. intros N. exfalso. apply N. apply mFind_In in E; auto. apply (in_map fst) in E. exact E.
  - split; auto. intros _ H. apply in_map_iff in H as ([k' v] & F & H). simpl in F. subst. apply mFind_In in H; auto. congruence.
Qed.

Lemma mInsert_spec {V} k (v : V) m : sorted m ->
  sorted (fst (mInsert k v m)) /\
  (forall k', mFind k' (fst (mInsert k v m)) = if cid_dec k' k then Some (match mFind k m with Some w => w | None => v end) else mFind k' m) /\
  (snd (mInsert k v m) = true <-> mFind k m = None) /\
  (forall y, In y (fst (mInsert k v m)) -> y = (k, v) \/ In y m).
Proof.
  induction m as [|[k1 v1] m IH]; intros S.
  - simpl. split; [apply sorted_cons; [constructor|simpl; tauto]|]. split.
    + intros k'. destruct (cid_ltb k' k) eqn:E1; [apply cid_ltb_spec in E1; destruct (cid_dec k' k); auto; subst; exfalso; eapply cid_lt_irr; eauto|].
      destruct (cid_ltb k k') eqn:E2; [apply cid_ltb_spec in E2; destruct (cid_dec k' k); auto; subst; exfalso; eapply cid_lt_irr; eauto|].
      apply cid_ltb_false in E1. apply cid_ltb_false in E2. destruct (cid_dec k' k); auto. exfalso; apply n; apply cid_not_lt; auto.
    + split; [tauto|]. intros y [H|H]; auto.
  - pose proof S as S0. apply sorted_tail in S as (S & L). simpl in L. simpl.
    destruct (cid_ltb k k1) eqn:E1.
    + apply cid_ltb_spec in E1. simpl. split.
      { apply sorted_cons; auto. simpl. intros y [<-|Hy]; simpl; auto. eapply cid_lt_trans; eauto. }
      split.
      { intros k'. destruct (cid_ltb k' k) eqn:F1.
        - apply cid_ltb_spec in F1. destruct (cid_dec k' k); [subst; exfalso; eapply cid_lt_irr; eauto|].
          replace (cid_ltb k' k1) with true; auto. symmetry. apply cid_ltb_spec. eapply cid_lt_trans; eauto.
        - apply cid_ltb_false in F1. destruct (cid_ltb k k') eqn:F2.
          + apply cid_ltb_spec in F2. destruct (cid_dec k' k); [subst; exfalso; eapply cid_lt_irr; eauto|]. reflexivity.
          + apply cid_ltb_false in F2. destruct (cid_dec k' k); auto. exfalso; apply n; apply cid_not_lt; auto. }
      split; [tauto|]. intros y [H|[H|H]]; auto.
    + apply cid_ltb_false in E1. destruct (cid_ltb k1 k) eqn:E2.
      * apply cid_ltb_spec in E2. destruct (IH S) as (I1 & I2 & I3 & I4). destruct (mInsert k v m) as [m2 b] eqn:EM. simpl in *.
        split.
        { apply sorted_cons; auto. intros y Hy. destruct (I4 y Hy) as [->|Hy']; simpl; auto. }
        split.
        { intros k'. destruct (cid_ltb k' k1) eqn:F1.
          - apply cid_ltb_spec in F1. destruct (cid_dec k' k); [|auto]. subst. exfalso. eapply cid_lt_irr. eapply cid_lt_trans; eauto.
          - destruct (cid_ltb k1 k') eqn:F2.
            + rewrite I2. reflexivity.
            + apply cid_ltb_false in F1. apply cid_ltb_false in F2. assert (k' = k1) by (apply cid_not_lt; auto). subst.
              destruct (cid_dec k1 k); auto. subst. exfalso; eapply cid_lt_irr; eauto. }
        split; [exact I3|]. intros y [H|H]; auto. destruct (I4 y H); auto.
      * apply cid_ltb_false in E2. assert (k = k1) by (apply cid_not_lt; auto). subst. simpl. split; [auto|]. split.
        { intros k'. destruct (cid_dec k' k1); auto. subst.
          destruct (cid_ltb k1 k1) eqn:F; auto. apply cid_ltb_spec in F. exfalso; eapply cid_lt_irr; eauto. }
        split; [split; discriminate|]. auto.
Qed.

Lemma mErase_spec {V} k (m : list (contactId * V)) : sorted m ->
  sorted (fst (mErase k m)) /\
  (forall k', mFind k' (fst (mErase k m)) = if cid_dec k' k then None else mFind k' m) /\
  (snd (mErase k m) = true <-> mFind k m <> None) /\
  (forall y, In y (fst (mErase k m)) -> In y m).
Proof.
  induction m as [|[k1 v1] m IH]; intros S.
  - simpl. split; [constructor|]. split; [intros; destruct (cid_dec k' k); auto|]. split; [intuition congruence|auto].
  - pose proof S as S0. apply sorted_tail in S as (S & L). simpl in L. simpl.
    destruct (cid_ltb k k1) eqn:E1.
    + apply cid_ltb_spec in E1. simpl. split; [auto|]. split.
      { intros k'. destruct (cid_dec k' k); [|auto]. subst. rewrite (proj2 (cid_ltb_spec k k1) E1). auto. }
      split; [intuition congruence|auto].
    + pose proof E1 as E1'. apply cid_ltb_false in E1. destruct (cid_ltb k1 k) eqn:E2.
      * apply cid_ltb_spec in E2. destruct (IH S) as (I1 & I2 & I3 & I4). destruct (mErase k m) as [m2 b] eqn:EM. simpl in *.
        split; [apply sorted_cons; auto|]. split.
        { intros k'. destruct (cid_ltb k' k1) eqn:F1.
          - destruct (cid_dec k' k); auto.
          - destruct (cid_ltb k1 k') eqn:F2; [apply I2|].
            apply cid_ltb_false in F1. apply cid_ltb_false in F2. assert (k' = k1) by (apply cid_not_lt; auto). subst.
            destruct (cid_dec k1 k); auto. subst. exfalso; eapply cid_lt_irr; eauto. }
        split; [exact I3|]. intros y [H|H]; auto.
      * apply cid_ltb_false in E2. assert (k = k1) by (apply cid_not_lt; auto). subst. simpl. split; [auto|]. split.
        { intros k'. destruct (cid_dec k' k1).
          - subst. apply mFind_None; auto. intros H. apply in_map_iff in H as (y & F & H). apply L in H. rewrite F in H. eapply cid_lt_irr; eauto.
          - destruct (cid_ltb k' k1) eqn:F1.
            + apply cid_ltb_spec in F1. apply mFind_None; auto. intros H. apply in_map_iff in H as (y & F & H). apply L in H. rewrite F in H.
              eapply cid_lt_irr; eapply cid_lt_trans; eauto.
            + destruct (cid_ltb k1 k') eqn:F2; auto. apply cid_ltb_false in F1. apply cid_ltb_false in F2. exfalso; apply n; apply cid_not_lt; auto. }
        split; [split; congruence|]. auto.
Qed.
