(** Generic list lemmas. *)
From Verif Require Export Base.

Lemma skipn_nth_cons {A} (l : list A) i a : nth_error l i = Some a -> skipn i l = a :: skipn (S i) l.
Proof.
  revert i; induction l as [|x l IH]; intros [|i] H; simpl in *; try discriminate.
  - congruence.
  - apply IH; auto.
Qed.

Lemma firstn_add {A} n m (l : list A) : firstn (n + m) l = firstn n l ++ firstn m (skipn n l).
Proof.
  revert l; induction n as [|n IH]; intros l; simpl; [reflexivity|].
  destruct l as [|a l]; simpl; [rewrite firstn_nil; reflexivity|]. rewrite IH. reflexivity.
Qed.

Lemma skipn_add {A} n s (l : list A) : skipn n (skipn s l) = skipn (s + n) l.
Proof.
  revert l; induction s as [|s IH]; intros l; simpl; [reflexivity|].
  destruct l as [|a l]; simpl; [apply skipn_nil|]. apply IH.
Qed.

Lemma Forall2_nth_l {A B} (P : A -> B -> Prop) l1 l2 k a :
  Forall2 P l1 l2 -> nth_error l1 k = Some a -> exists b, nth_error l2 k = Some b /\ P a b.
Proof.
  intros F; revert k; induction F as [|x y l1 l2 Hp F IH]; intros [|k] H; simpl in *; try discriminate.
  - inversion H; subst. eauto.
  - auto.
Qed.

Lemma nth_error_combine {A B} (l1 : list A) (l2 : list B) k a b :
  nth_error (combine l1 l2) k = Some (a, b) <-> nth_error l1 k = Some a /\ nth_error l2 k = Some b.
Proof.
  revert l2 k; induction l1 as [|x l1 IH]; intros [|y l2] [|k]; simpl; split; intros H; try tauto;
    try (destruct H; congruence); try discriminate; try (inversion H; auto; fail).
  - apply IH in H. auto.
  - apply IH. auto.
Qed.

Lemma nth_error_map_some {A B} (f : A -> B) l k a : nth_error l k = Some a -> nth_error (map f l) k = Some (f a).
Proof. intros H. rewrite nth_error_map, H. reflexivity. Qed.

Lemma map_snd_combine {A B} (l1 : list A) (l2 : list B) : length l1 = length l2 -> map snd (combine l1 l2) = l2.
Proof. revert l2; induction l1; intros [|b l2] H; simpl in *; try lia; auto. rewrite IHl1 by lia. reflexivity. Qed.

Lemma vec_at_Ok {A} (l : list A) i a : vec_at l i = Ok a <-> nth_error l i = Some a.
Proof. unfold vec_at. destruct (nth_error l i); split; congruence. Qed.

Lemma Forall2_len {A B} (P : A -> B -> Prop) l1 l2 : Forall2 P l1 l2 -> length l1 = length l2.
Proof. induction 1; simpl; lia. Qed.

Lemma NoDup_app_intro {A} (l1 l2 : list A) :
  NoDup l1 -> NoDup l2 -> (forall x, In x l1 -> In x l2 -> False) -> NoDup (l1 ++ l2).
Proof.
  induction l1 as [|a l1 IH]; intros H1 H2 H; simpl; [auto|].
  inversion H1; subst. constructor.
  - rewrite in_app_iff. intros [Hi|Hi]; [auto|]. eapply H; [left; reflexivity|auto].
  - apply IH; auto. intros x Hx1 Hx2. eapply H; [right; exact Hx1|auto].
Qed.

Lemma NoDup_app_remove_l {A} (l1 l2 : list A) : NoDup (l1 ++ l2) -> NoDup l2.
Proof. induction l1; simpl; intros H; [auto|]. inversion H; auto. Qed.
Lemma NoDup_app_remove_r {A} (l1 l2 : list A) : NoDup (l1 ++ l2) -> NoDup l1.
Proof.
  induction l1; simpl; intros H; [constructor|]. inversion H; subst. constructor; auto.
  intros Hin. apply H2. apply in_or_app; auto.
Qed.
