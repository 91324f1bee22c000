(** Lemmas about histories of calls. *)
From Coq Require Import Permutation Sorted.
From Verif Require Import Lists.
From Verif Require Export SolverSpec BackendProofs LayoutProofs.

(** * Ordered sets driven by events *)
Definition evStep (l : list nat) (e : ev) : list nat :=
  match e with
  | EAdd t => if mem t l then l else l ++ [t]
  | EDel t => if mem t l then eraseFirst t l else l
  | EClear => []
  | ENone => l
  end.

Lemma mem_In x l : mem x l = true <-> In x l.
Proof.
  unfold mem. rewrite existsb_exists. split.
  - intros (y & H & E). apply Nat.eqb_eq in E. subst; auto.
  - intros H. exists x. split; auto. apply Nat.eqb_refl.
Qed.
Lemma mem_false x l : mem x l = false <-> ~ In x l.
Proof. rewrite <- mem_In. destruct (mem x l); split; congruence. Qed.

Lemma eraseFirst_In x l y : NoDup l -> (In y (eraseFirst x l) <-> In y l /\ y <> x).
Proof.
  induction l as [|z l IH]; intros Hn; simpl; [tauto|]. inversion Hn; subst.
  destruct (Nat.eqb z x) eqn:E.
  - apply Nat.eqb_eq in E. subst. split.
    + intros H. split; [auto|]. intros ->. auto.
    + intros [[H|H] Hx]; auto. congruence.
  - apply Nat.eqb_neq in E. simpl. rewrite IH by auto. split.
    + intros [->|[K1 K2]]; auto.
    + intros [[->|H] Hx]; auto.
Qed.
Lemma eraseFirst_subl x l : forall y, In y (eraseFirst x l) -> In y l.
Proof.
  induction l as [|z l IH]; intros y H; simpl in *; [auto|].
  destruct (Nat.eqb z x); [auto|]. destruct H; auto.
Qed.
Lemma eraseFirst_NoDup x l : NoDup l -> NoDup (eraseFirst x l).
Proof.
  induction 1 as [|z l Hz Hn IH]; simpl; [constructor|]. destruct (Nat.eqb z x); auto.
  constructor; auto. intros H. apply Hz. eapply eraseFirst_subl; eauto.
Qed.
Lemma eraseFirst_sorted (P : nat -> nat -> Prop) x l : StronglySorted P l -> StronglySorted P (eraseFirst x l).
Proof.
  induction 1 as [|z l Hs IH Hf]; simpl; [constructor|]. destruct (Nat.eqb z x); auto.
  constructor; auto. rewrite Forall_forall in *. intros y Hy. apply Hf. eapply eraseFirst_subl; eauto.
Qed.

(** ** Liveness, one event at a time *)
Lemma nth_snoc {A} (l : list A) a k x : nth_error (l ++ [a]) k = Some x <->
  (nth_error l k = Some x \/ (k = length l /\ a = x)).
Proof.
  destruct (Nat.lt_trichotomy k (length l)) as [H|[H|H]].
  - rewrite nth_error_app1 by auto. split; [auto|]. intros [E|[E _]]; [auto|lia].
  - subst. rewrite nth_error_app2, Nat.sub_diag by lia. simpl. split.
    + intros E; inversion E; auto.
    + intros [E|[_ ->]]; auto. assert (length l < length l)%nat; [|lia]. apply nth_error_Some. congruence.
  - rewrite nth_error_app2 by lia. destruct (k - length l)%nat eqn:Ek; [lia|]. simpl.
    split; [destruct n; discriminate|]. intros [E|[E _]]; [|lia].
    assert (k < length l)%nat; [|lia]. apply nth_error_Some. congruence.
Qed.

Definition kills (e : ev) (t : nat) : Prop := e = EDel t \/ e = EClear.

Lemma live_snoc evs e t :
  live (evs ++ [e]) t <-> e = EAdd t \/ (live evs t /\ ~ kills e t).
Proof.
  split.
  - intros (k & Hk & Hl). apply nth_snoc in Hk as [Hk|[Hk He]]; [right|left; auto].
    split.
    + exists k. split; [auto|]. intros k' Hk'. destruct (Hl k' Hk') as [A B]. split; intros C.
      * apply A. apply nth_snoc. auto.
      * apply B. apply nth_snoc. auto.
    + assert (Hlt : (k < length evs)%nat) by (apply nth_error_Some; congruence).
      destruct (Hl (length evs) Hlt) as [A B]. intros [->| ->].
      * apply A. apply nth_snoc. auto.
      * apply B. apply nth_snoc. auto.
  - intros [->|[(k & Hk & Hl) Hn]].
    + exists (length evs). split; [apply nth_snoc; auto|]. intros k' Hk'.
      split; intros C; apply nth_snoc in C as [C|[C _]]; try lia;
        (assert (k' < length evs)%nat; [apply nth_error_Some; congruence|lia]).
    + exists k. split; [apply nth_snoc; auto|]. intros k' Hk'. destruct (Hl k' Hk') as [A B].
      split; intros C; apply nth_snoc in C as [C|[_ C]]; auto; apply Hn; unfold kills; auto.
Qed.

Lemma live_nil t : ~ live [] t.
Proof. intros (k & Hk & _). destruct k; discriminate. Qed.

Lemma live_dec evs t : live evs t \/ ~ live evs t.
Proof.
  induction evs as [|e evs IH] using rev_ind; [right; apply live_nil|].
  rewrite live_snoc.
  assert (D1 : e = EAdd t \/ e <> EAdd t).
  { destruct e; try (right; discriminate). destruct (Nat.eq_dec t t0); [left|right]; congruence. }
  assert (D2 : kills e t \/ ~ kills e t).
  { unfold kills. destruct e; try (right; intros [?|?]; discriminate); [|left; auto].
    destruct (Nat.eq_dec t0 t); [left; left; congruence|right; intros [?|?]; congruence]. }
  tauto.
Qed.

Lemma bornAt_snoc evs e t k :
  bornAt (evs ++ [e]) t k <->
  (bornAt evs t k /\ ~ kills e t) \/ (k = length evs /\ e = EAdd t /\ ~ live evs t).
Proof.
  unfold bornAt. split.
  - intros (Hk & Hf & Hl). apply nth_snoc in Hk as [Hk|[-> He]].
    + left. assert (Hlt : (k < length evs)%nat) by (apply nth_error_Some; congruence).
      rewrite firstn_app in Hf. replace (k - length evs)%nat with 0%nat in Hf by lia. simpl in Hf. rewrite app_nil_r in Hf.
      split; [split; [auto|split; [auto|]]|].
      * intros k' Hk'. destruct (Hl k' Hk') as [A B]. split; intros C; [apply A|apply B]; apply nth_snoc; auto.
      * destruct (Hl (length evs) Hlt) as [A B]. intros [->| ->]; [apply A|apply B]; apply nth_snoc; auto.
    + right. rewrite firstn_app, Nat.sub_diag in Hf. simpl in Hf. rewrite app_nil_r, firstn_all in Hf. auto.
  - intros [[(Hk & Hf & Hl) Hn]|(-> & -> & Hf)].
    + assert (Hlt : (k < length evs)%nat) by (apply nth_error_Some; congruence).
      split; [apply nth_snoc; auto|]. split.
      * rewrite firstn_app. replace (k - length evs)%nat with 0%nat by lia. simpl. rewrite app_nil_r. auto.
      * intros k' Hk'. destruct (Hl k' Hk') as [A B].
        split; intros C; apply nth_snoc in C as [C|[_ C]]; auto; apply Hn; unfold kills; auto.
    + split; [apply nth_snoc; auto|]. split.
      * rewrite firstn_app, Nat.sub_diag. simpl. rewrite app_nil_r, firstn_all. auto.
      * intros k' Hk'. split; intros C; apply nth_snoc in C as [C|[C _]]; try lia;
          (assert (k' < length evs)%nat; [apply nth_error_Some; congruence|lia]).
Qed.

Definition before (evs : list ev) (a b : nat) : Prop :=
  exists ka kb, bornAt evs a ka /\ bornAt evs b kb /\ (ka < kb)%nat.

(** Invariant: sorted by birth, everybody born. *)
Record setInv (evs : list ev) (l : list nat) : Prop := {
  si_nodup : NoDup l;
  si_live : forall t, In t l <-> live evs t;
  si_born : forall t, In t l -> exists k, bornAt evs t k;
  si_sorted : StronglySorted (before evs) l }.

Lemma StronglySorted_impl_in {A} (P Q : A -> A -> Prop) l :
  (forall a b, In a l -> In b l -> P a b -> Q a b) -> StronglySorted P l -> StronglySorted Q l.
Proof.
  induction l as [|x l IH]; intros H Hs; [constructor|]. inversion Hs; subst. constructor.
  - apply IH; auto. intros; apply H; auto; right; auto.
  - rewrite Forall_forall in *. intros y Hy. apply H; [left; auto|right; auto|auto].
Qed.
Lemma StronglySorted_snoc {A} (P : A -> A -> Prop) l x :
  StronglySorted P l -> (forall a, In a l -> P a x) -> StronglySorted P (l ++ [x]).
Proof.
  induction 1 as [|y l Hs IH Hf]; intros H; simpl; [repeat constructor|].
  constructor; [apply IH; intros; apply H; right; auto|].
  apply Forall_app. split; [auto|]. constructor; [apply H; left; auto|constructor].
Qed.

Lemma setInv_step evs l e : setInv evs l -> setInv (evs ++ [e]) (evStep l e).
Proof.
  intros [N L B S].
  assert (Keep : forall t k, ~ kills e t -> bornAt evs t k -> bornAt (evs ++ [e]) t k).
  { intros t k H1 H2. apply bornAt_snoc. auto. }
  assert (KeepB : forall a b, ~ kills e a -> ~ kills e b -> before evs a b -> before (evs ++ [e]) a b).
  { intros a b H1 H2 (ka & kb & K1 & K2 & K3). exists ka, kb. auto. }
  destruct e as [t|t| |]; simpl.
  - destruct (mem t l) eqn:M.
    + apply mem_In in M. constructor; auto.
      * intros t'. rewrite live_snoc, L. split.
        { intros H. right. split; auto. intros [?|?]; discriminate. }
        { intros [H|[H _]]; [inversion H; subst; apply L; auto|auto]. }
      * intros t' Ht'. destruct (B t' Ht') as (k & Hk). exists k. apply Keep; auto. intros [?|?]; discriminate.
      * eapply StronglySorted_impl_in; [|exact S]. intros a b _ _. apply KeepB; intros [?|?]; discriminate.
    + apply mem_false in M.
      assert (Born : bornAt (evs ++ [EAdd t]) t (length evs)).
      { apply bornAt_snoc. right. rewrite <- L. auto. }
      constructor.
      * apply NoDup_app_intro; auto; [repeat constructor; auto|]. intros x Hx [<-|[]]. auto.
      * intros t'. rewrite in_app_iff, live_snoc, L. simpl. split.
        { intros [H|[->|[]]]; auto. right. split; auto. intros [?|?]; discriminate. }
        { intros [H|[H _]]; [inversion H; auto|auto]. }
      * intros t' Ht'. apply in_app_iff in Ht' as [Ht'|[<-|[]]]; [|eauto].
        destruct (B t' Ht') as (k & Hk). exists k. apply Keep; auto. intros [?|?]; discriminate.
      * apply StronglySorted_snoc.
        { eapply StronglySorted_impl_in; [|exact S]. intros a b _ _. apply KeepB; intros [?|?]; discriminate. }
        { intros a Ha. destruct (B a Ha) as (k & Hk). exists k, (length evs).
          split; [apply Keep; auto; intros [?|?]; discriminate|]. split; [auto|].
          destruct Hk as (Hk & _). apply nth_error_Some. congruence. }
  - destruct (mem t l) eqn:M.
    + constructor.
      * apply eraseFirst_NoDup; auto.
      * intros t'. rewrite eraseFirst_In, live_snoc, L by auto. split.
        { intros [H Hne]. right. split; auto. intros [K|K]; inversion K; congruence. }
        { intros [H|[H Hk]]; [discriminate|]. split; auto. intros ->. apply Hk. left; auto. }
      * intros t' Ht'. apply eraseFirst_In in Ht' as [Ht' Hne]; auto.
        destruct (B t' Ht') as (k & Hk). exists k. apply Keep; auto. intros [K|K]; inversion K; congruence.
      * eapply StronglySorted_impl_in; [|apply eraseFirst_sorted; exact S].
        intros a b Ha Hb. apply eraseFirst_In in Ha as [_ Ha]; auto. apply eraseFirst_In in Hb as [_ Hb]; auto.
        apply KeepB; intros [K|K]; inversion K; congruence.
    + apply mem_false in M.
      assert (NK : forall a, In a l -> ~ kills (EDel t) a) by (intros a Ha [K|K]; inversion K; subst; auto).
      constructor; auto.
      * intros t'. rewrite live_snoc, L. split.
        { intros H. right. split; auto. apply NK. apply L; auto. }
        { intros [H|[H _]]; [discriminate|auto]. }
      * intros t' Ht'. destruct (B t' Ht') as (k & Hk). exists k. apply Keep; auto.
      * eapply StronglySorted_impl_in; [|exact S]. intros a b Ha Hb. apply KeepB; auto.
  - constructor; try constructor.
    + intros [].
    + intros H. exfalso. apply live_snoc in H as [H|[_ H]]; [discriminate|]. apply H. right; auto.
    + intros t [].
  - constructor; auto.
    + intros t'. rewrite live_snoc, L. split.
      { intros H. right. split; auto. intros [?|?]; discriminate. }
      { intros [H|[H _]]; [discriminate|auto]. }
    + intros t' Ht'. destruct (B t' Ht') as (k & Hk). exists k. apply Keep; auto. intros [?|?]; discriminate.
    + eapply StronglySorted_impl_in; [|exact S]. intros a b _ _. apply KeepB; intros [?|?]; discriminate.
Qed.

Lemma setInv_fold evs : setInv evs (fold_left evStep evs []).
Proof.
  induction evs as [|e evs IH] using rev_ind.
  - simpl. constructor; try constructor.
    + intros [].
    + intros H. exfalso. eapply live_nil; eauto.
    + intros t [].
  - rewrite fold_left_app. simpl. apply setInv_step; auto.
Qed.

Lemma StronglySorted_nth {A} (P : A -> A -> Prop) l i j a b :
  StronglySorted P l -> nth_error l i = Some a -> nth_error l j = Some b -> (i < j)%nat -> P a b.
Proof.
  intros Hs; revert i j; induction Hs as [|x l Hs IH Hf]; intros i j Hi Hj Hlt; [destruct i; discriminate|].
  destruct j as [|j]; [lia|]. simpl in Hj. destruct i as [|i]; simpl in Hi.
  - inversion Hi; subst. rewrite Forall_forall in Hf. apply Hf. eapply nth_error_In; eauto.
  - eapply IH; eauto. lia.
Qed.

Lemma setInv_ordered evs l : setInv evs l -> orderedSet evs l.
Proof.
  intros [N L B S]. split; [auto|]. split; [auto|].
  intros i j ti tj Hi Hj Hlt. exact (StronglySorted_nth _ _ _ _ _ _ S Hi Hj Hlt).
Qed.

(* ------------------------------------------------------------------ *)
(** * Running histories *)
Lemma run_app lssol kinds ops1 ops2 s :
  run lssol kinds s (ops1 ++ ops2) = do s1 <- run lssol kinds s ops1; run lssol kinds s1 ops2.
Proof.
  revert s; induction ops1 as [|o ops1 IH]; intros s; simpl; [reflexivity|].
  destruct (step lssol kinds s o); simpl; auto.
Qed.

Lemma run_snoc_inv lssol kinds ops o s s' :
  run lssol kinds s (ops ++ [o]) = Ok s' ->
  exists s1, run lssol kinds s ops = Ok s1 /\ step lssol kinds s1 o = Ok s'.
Proof.
  rewrite run_app. intros H. apply bind_Ok in H as (s1 & H1 & H2). exists s1. split; auto.
  simpl in H2. apply bind_Ok in H2 as (s2 & H2 & H3). inversion H3; subst. auto.
Qed.

Lemma newQPSolver_spec lssol s : newQPSolver lssol = Ok s ->
  exists b, s = mkQP [] [] [] [] [] [] initData 0 0 0 b /\ bkDeps b = [] /\ bkN b = 0%nat.
Proof.
  unfold newQPSolver. intros H. apply bind_Ok in H as (b & Hb & H). inversion H; subst.
  exists b. split; [auto|]. unfold createQPSolver in Hb.
  destruct (String.eqb _ _) in Hb; [inversion Hb; auto|]. destruct (_ && _) in Hb; inversion Hb; auto.
Qed.

(** ** Effect of one call on each component *)
Lemma addKinds_proj ks : forall s c,
  let s' := fold_left (fun s' k => addKind s' c k) ks s in
  qConstr s' = qConstr s /\ qTasks s' = qTasks s /\ qData s' = qData s /\ qBack s' = qBack s /\
  qMaxEq s' = qMaxEq s /\ qMaxIneq s' = qMaxIneq s /\ qMaxGen s' = qMaxGen s.
Proof.
  induction ks as [|k ks IH]; intros s c; simpl; [auto 10|].
  specialize (IH (addKind s c k) c). simpl in IH. destruct k; simpl in *; exact IH.
Qed.

Definition ckind_eq_dec (a b : ckind) : {a = b} + {a <> b}.
Proof. decide equality. Defined.

Lemma addKinds_kind ks : forall s c k, NoDup ks ->
  kindList k (fold_left (fun s' k => addKind s' c k) ks s) =
  if in_dec ckind_eq_dec k ks then kindList k s ++ [c] else kindList k s.
Proof.
  induction ks as [|k0 ks IH]; intros s c k Hn; [reflexivity|].
  inversion Hn; subst. cbn [fold_left]. rewrite IH by auto.
  destruct (ckind_eq_dec k k0) as [->|Hne].
  - destruct (in_dec ckind_eq_dec k0 ks); [contradiction|].
    destruct (in_dec ckind_eq_dec k0 (k0 :: ks)) as [_|C]; [|exfalso; apply C; left; auto].
    destruct k0; reflexivity.
  - assert (E : kindList k (addKind s c k0) = kindList k s) by (destruct k, k0; try congruence; reflexivity).
    rewrite E. destruct (in_dec ckind_eq_dec k ks) as [I|I], (in_dec ckind_eq_dec k (k0 :: ks)) as [J|J]; auto.
    + exfalso; apply J; right; auto.
    + exfalso. destruct J; [congruence|auto].
Qed.

Lemma fold_bind_not_ok {A B} (f : A -> B -> res A) l (r : res A) :
  (forall a, r <> Ok a) -> fold_left (fun r k => do s <- r; f s k) l r = r.
Proof.
  revert r; induction l as [|x l IH]; intros r H; simpl; [auto|].
  rewrite IH; destruct r; simpl; auto; try (exfalso; eapply H; reflexivity); congruence.
Qed.

Lemma removeKind_proj s c k s' : removeKind s c k = Ok s' ->
  qConstr s' = qConstr s /\ qTasks s' = qTasks s /\ qData s' = qData s /\ qBack s' = qBack s /\
  qMaxEq s' = qMaxEq s /\ qMaxIneq s' = qMaxIneq s /\ qMaxGen s' = qMaxGen s.
Proof. destruct k; simpl; intros H; binds H; inversion H; subst; simpl; auto 10. Qed.

Lemma removeKinds_proj ks : forall s c s',
  fold_left (fun r k => do s' <- r; removeKind s' c k) ks (Ok s) = Ok s' ->
  qConstr s' = qConstr s /\ qTasks s' = qTasks s /\ qData s' = qData s /\ qBack s' = qBack s /\
  qMaxEq s' = qMaxEq s /\ qMaxIneq s' = qMaxIneq s /\ qMaxGen s' = qMaxGen s.
Proof.
  induction ks as [|k ks IH]; intros s c s' H; simpl in H; [inversion H; subst; auto 10|].
  destruct (removeKind s c k) as [s1| |] eqn:E.
  - destruct (removeKind_proj _ _ _ _ E) as (A1 & A2 & A3 & A4 & A5 & A6 & A7).
    destruct (IH _ _ _ H) as (B1 & B2 & B3 & B4 & B5 & B6 & B7). repeat split; congruence.
  - rewrite fold_bind_not_ok in H by congruence. discriminate.
  - rewrite fold_bind_not_ok in H by congruence. discriminate.
Qed.

Lemma removeKinds_kind ks : forall s c, NoDup ks ->
  (forall k, In k ks -> In c (kindList k s)) ->
  exists s', fold_left (fun r k => do s' <- r; removeKind s' c k) ks (Ok s) = Ok s' /\
    forall k, kindList k s' = if in_dec ckind_eq_dec k ks then eraseFirst c (kindList k s) else kindList k s.
Proof.
  induction ks as [|k0 ks IH]; intros s c Hn Hin; [exists s; split; [reflexivity|auto]|].
  inversion Hn; subst. cbn [fold_left bind].
  pose proof (Hin k0 (or_introl eq_refl)) as H0. apply mem_In in H0.
  assert (E : exists s1, removeKind s c k0 = Ok s1 /\
            forall k, kindList k s1 = if ckind_eq_dec k k0 then eraseFirst c (kindList k s) else kindList k s).
  { destruct k0; simpl in *; unfold eraseUnchecked; rewrite H0; cbn [bind]; eexists; (split; [reflexivity|]);
      intros k; destruct k; reflexivity. }
  destruct E as (s1 & E & K). rewrite E.
  destruct (IH s1 c) as (s' & E' & K'); auto.
  { intros k Hk. rewrite K. destruct (ckind_eq_dec k k0); [congruence|]. apply Hin; right; auto. }
  exists s'. split; [auto|]. intros k. rewrite K', K.
  destruct (ckind_eq_dec k k0) as [->|Hne].
  - destruct (in_dec ckind_eq_dec k0 ks); [contradiction|].
    destruct (in_dec ckind_eq_dec k0 (k0 :: ks)) as [_|C]; [auto|exfalso; apply C; left; auto].
  - destruct (in_dec ckind_eq_dec k ks) as [I|I], (in_dec ckind_eq_dec k (k0 :: ks)) as [J|J]; auto.
    + exfalso; apply J; right; auto.
    + exfalso. destruct J; [congruence|auto].
Qed.

Lemma nrVars_proj s mbs uni bi s' : nrVars s mbs uni bi = Ok s' ->
  qConstr s' = qConstr s /\ qTasks s' = qTasks s /\ (forall k, kindList k s' = kindList k s) /\
  qMaxEq s' = qMaxEq s /\ qMaxIneq s' = qMaxIneq s /\ qMaxGen s' = qMaxGen s.
Proof.
  unfold nrVars. intros H. apply bind_Ok in H as ([d deps] & E1 & H). apply bind_Ok in H as (b & E2 & H).
  inversion H; subst; simpl. repeat split; try (intros []); reflexivity.
Qed.
Lemma setSolver_proj lssol s nm s' : setSolver lssol s nm = Ok s' ->
  qConstr s' = qConstr s /\ qTasks s' = qTasks s /\ (forall k, kindList k s' = kindList k s) /\
  qMaxEq s' = qMaxEq s /\ qMaxIneq s' = qMaxIneq s /\ qMaxGen s' = qMaxGen s /\ qData s' = qData s.
Proof.
  unfold setSolver. intros H. apply bind_Ok in H as (b & E2 & H).
  inversion H; subst; simpl. repeat split; try (intros []); reflexivity.
Qed.

Lemma step_tasks lssol kinds s o s' : step lssol kinds s o = Ok s' -> qTasks s' = evStep (qTasks s) (taskEv o).
Proof.
  destruct o; simpl; intros H; try (inversion H; subst; simpl; reflexivity).
  - inversion H; subst. unfold addToSolver. destruct (addKinds_proj (kinds c) (addConstraint s c) c) as (_ & -> & _). reflexivity.
  - apply removeKinds_proj in H as (_ & -> & _). reflexivity.
  - apply nrVars_proj in H as (_ & -> & _). reflexivity.
  - apply setSolver_proj in H as (_ & -> & _). reflexivity.
Qed.
Lemma step_constr lssol kinds s o s' : step lssol kinds s o = Ok s' -> qConstr s' = evStep (qConstr s) (constrEv o).
Proof.
  destruct o; simpl; intros H; try (inversion H; subst; simpl; reflexivity).
  - inversion H; subst. unfold addToSolver. destruct (addKinds_proj (kinds c) (addConstraint s c) c) as (-> & _). reflexivity.
  - apply removeKinds_proj in H as (-> & _). reflexivity.
  - apply nrVars_proj in H as (-> & _). reflexivity.
  - apply setSolver_proj in H as (-> & _). reflexivity.
Qed.

Lemma run_proj lssol kinds (proj : qpSolver -> list nat) (f : op -> ev) :
  (forall s o s', step lssol kinds s o = Ok s' -> proj s' = evStep (proj s) (f o)) ->
  forall ops s s', run lssol kinds s ops = Ok s' -> proj s' = fold_left evStep (map f ops) (proj s).
Proof.
  intros Hp. induction ops as [|o ops IH]; intros s s' H; simpl in *; [inversion H; auto|].
  apply bind_Ok in H as (s1 & E & H). rewrite (IH _ _ H), (Hp _ _ _ E). reflexivity.
Qed.

Lemma tasks_ordered lssol kinds ops s :
  history lssol kinds ops = Ok s -> orderedSet (map taskEv ops) (qTasks s).
Proof.
  unfold history. intros H. apply bind_Ok in H as (s0 & E0 & H).
  destruct (newQPSolver_spec _ _ E0) as (b & -> & _).
  rewrite (run_proj lssol kinds qTasks taskEv (step_tasks lssol kinds) _ _ _ H). simpl.
  apply setInv_ordered, setInv_fold.
Qed.
Lemma constr_ordered lssol kinds ops s :
  history lssol kinds ops = Ok s -> orderedSet (map constrEv ops) (qConstr s).
Proof.
  unfold history. intros H. apply bind_Ok in H as (s0 & E0 & H).
  destruct (newQPSolver_spec _ _ E0) as (b & -> & _).
  rewrite (run_proj lssol kinds qConstr constrEv (step_constr lssol kinds) _ _ _ H). simpl.
  apply setInv_ordered, setInv_fold.
Qed.

(* ------------------------------------------------------------------ *)
(** * Kinds *)
Definition kindEv (kinds : nat -> list ckind) (k : ckind) (o : op) : ev :=
  match regEv o with
  | EAdd c => if in_dec ckind_eq_dec k (kinds c) then EAdd c else ENone
  | EDel c => if in_dec ckind_eq_dec k (kinds c) then EDel c else ENone
  | e => e
  end.

Lemma regEv_noclear o : regEv o <> EClear.
Proof. destruct o; discriminate. Qed.

Lemma live_kind kinds k ops c : live (map (kindEv kinds k) ops) c <-> live (map regEv ops) c /\ In k (kinds c).
Proof.
  induction ops as [|o ops IH] using rev_ind.
  - simpl. split; [intros H; exfalso; eapply live_nil; eauto|intros [H _]; exfalso; eapply live_nil; eauto].
  - rewrite !map_app. simpl. rewrite !live_snoc, IH. unfold kindEv.
    pose proof (regEv_noclear o) as NC.
    destruct (regEv o) as [c'|c'| |] eqn:E; try congruence.
    + destruct (in_dec ckind_eq_dec k (kinds c')) as [I|I]; unfold kills; split.
      * intros [H|[[H1 H2] _]]; [inversion H; subst; auto|]. split; auto. right. split; auto. intros [?|?]; discriminate.
      * intros [[H|[H _]] Hk]; [left; auto|right]. split; auto. intros [?|?]; discriminate.
      * intros [H|[[H1 H2] _]]; [discriminate|]. split; auto. right. split; auto. intros [?|?]; discriminate.
      * intros [[H|[H _]] Hk]; [inversion H; subst; contradiction|right]. split; auto. intros [?|?]; discriminate.
    + destruct (in_dec ckind_eq_dec k (kinds c')) as [I|I]; unfold kills; split.
      * intros [H|[[H1 H2] Hn]]; [discriminate|]. split; auto.
      * intros [[H|[H Hn]] Hk]; [discriminate|right]. auto.
      * intros [H|[[H1 H2] Hn]]; [discriminate|]. split; auto. right. split; auto.
        intros [K|K]; inversion K; subst; contradiction.
      * intros [[H|[H Hn]] Hk]; [discriminate|right]. split; auto. intros [?|?]; discriminate.
    + unfold kills; split.
      * intros [H|[[H1 H2] _]]; [discriminate|]. split; auto. right. split; auto. intros [?|?]; discriminate.
      * intros [[H|[H _]] Hk]; [discriminate|right]. split; auto. intros [?|?]; discriminate.
Qed.

Lemma alternating_snoc evs e : alternating (evs ++ [e]) ->
  alternating evs /\ (forall c, (e = EAdd c -> ~ live evs c) /\ (e = EDel c -> live evs c)).
Proof.
  intros H. split.
  - intros k c. destruct (H k c) as [A B]. split; intros K.
    + assert (Hlt : (k < length evs)%nat) by (apply nth_error_Some; congruence).
      specialize (A ltac:(apply nth_snoc; auto)).
      rewrite firstn_app in A. replace (k - length evs)%nat with 0%nat in A by lia. simpl in A. rewrite app_nil_r in A. auto.
    + assert (Hlt : (k < length evs)%nat) by (apply nth_error_Some; congruence).
      specialize (B ltac:(apply nth_snoc; auto)).
      rewrite firstn_app in B. replace (k - length evs)%nat with 0%nat in B by lia. simpl in B. rewrite app_nil_r in B. auto.
  - intros c. destruct (H (length evs) c) as [A B].
    rewrite firstn_app, Nat.sub_diag in A, B. simpl in A, B. rewrite app_nil_r, firstn_all in A, B.
    split; intros ->; [apply A|apply B]; apply nth_snoc; auto.
Qed.

Lemma kinds_setInv lssol kinds ops s k :
  (forall c, NoDup (kinds c)) -> history lssol kinds ops = Ok s -> alternating (map regEv ops) ->
  setInv (map (kindEv kinds k) ops) (kindList k s).
Proof.
  intros HN. revert s k. induction ops as [|o ops IH] using rev_ind; intros s k H Alt.
  - unfold history in H. apply bind_Ok in H as (s0 & E0 & H). simpl in H. inversion H; subst s0; clear H.
    destruct (newQPSolver_spec _ _ E0) as (b & -> & _).
    replace (kindList k _) with (@nil nat) by (destruct k; reflexivity). apply (setInv_fold []).
  - unfold history in H. apply bind_Ok in H as (s0 & E0 & H). apply run_snoc_inv in H as (s1 & H1 & H2).
    rewrite map_app in Alt. simpl in Alt. apply alternating_snoc in Alt as [Alt Ae].
    assert (Hh : history lssol kinds ops = Ok s1) by (unfold history; rewrite E0; auto).
    pose proof (IH s1 k Hh Alt) as Inv. rewrite map_app. simpl.
    assert (E : kindList k s = evStep (kindList k s1) (kindEv kinds k o)).
    { unfold kindEv. destruct o; cbn [step regEv] in H2 |- *; try (inversion H2; subst; destruct k; reflexivity).
      - inversion H2; subst. unfold addToSolver. rewrite addKinds_kind by auto.
        replace (kindList k (addConstraint s1 c)) with (kindList k s1) by (destruct k; reflexivity).
        destruct (in_dec ckind_eq_dec k (kinds c)) as [I|I]; [|reflexivity]. simpl.
        replace (mem c (kindList k s1)) with false; [reflexivity|]. symmetry. apply mem_false.
        intros Hin. apply (si_live _ _ Inv) in Hin. apply live_kind in Hin as [Hin _].
        destruct (Ae c) as [A _]. apply A; auto.
      - unfold removeFromSolver in H2. destruct (Ae c) as [_ B]. specialize (B eq_refl).
        destruct (removeKinds_kind (kinds c) (removeConstraint s1 c) c) as (s' & E' & K'); auto.
        { intros k' Hk'. replace (kindList k' (removeConstraint s1 c)) with (kindList k' s1) by (destruct k'; reflexivity).
          apply (si_live _ _ (IH s1 k' Hh Alt)). apply live_kind. auto. }
        rewrite E' in H2. inversion H2; subst. rewrite K'.
        replace (kindList k (removeConstraint s1 c)) with (kindList k s1) by (destruct k; reflexivity).
        destruct (in_dec ckind_eq_dec k (kinds c)) as [I|I]; [|reflexivity]. simpl.
        replace (mem c (kindList k s1)) with true; [reflexivity|]. symmetry. apply mem_In.
        apply (si_live _ _ Inv). apply live_kind. auto.
      - apply nrVars_proj in H2 as (_ & _ & -> & _). reflexivity.
      - apply setSolver_proj in H2 as (_ & _ & -> & _). reflexivity. }
    rewrite E. apply setInv_step. auto.
Qed.

Lemma born_kind kinds k ops c kk : bornAt (map (kindEv kinds k) ops) c kk -> bornAt (map regEv ops) c kk.
Proof.
  induction ops as [|o ops IH] using rev_ind.
  - intros (H & _). destruct kk; discriminate.
  - rewrite !map_app. simpl. rewrite !bornAt_snoc, !map_length.
    intros [[H Hk]|(H1 & H2 & H3)].
    + left. split; [auto|]. intros K. apply Hk. unfold kills, kindEv in *. pose proof (regEv_noclear o).
      destruct K as [K|K]; [|congruence]. rewrite K.
      assert (live (map (kindEv kinds k) ops) c).
      { destruct H as (Ha & Hb & Hc). exists kk. auto. }
      apply live_kind in H1 as [_ H1]. destruct (in_dec ckind_eq_dec k (kinds c)); [auto|contradiction].
    + right. split; [auto|]. unfold kindEv in H2. destruct (regEv o) eqn:E.
      * destruct (in_dec ckind_eq_dec k (kinds t)) as [I|I]; [|discriminate]. inversion H2; subst. split; auto.
        intros L. apply H3. apply live_kind. auto.
      * destruct (in_dec ckind_eq_dec k (kinds t)); discriminate.
      * discriminate.
      * discriminate.
Qed.

(** C05 *)
Lemma kinds_lemma lssol kinds ops s :
  (forall c, NoDup (kinds c)) -> history lssol kinds ops = Ok s -> alternating (map regEv ops) ->
  forall k, NoDup (kindList k s) /\
    (forall c, In c (kindList k s) <-> live (map regEv ops) c /\ In k (kinds c)) /\
    inOrder (map regEv ops) (kindList k s).
Proof.
  intros HN H Alt k. pose proof (kinds_setInv lssol kinds ops s k HN H Alt) as Inv.
  split; [apply (si_nodup _ _ Inv)|]. split.
  - intros c. rewrite (si_live _ _ Inv). apply live_kind.
  - intros i j ti tj Hi Hj Hlt.
    destruct (StronglySorted_nth _ _ _ _ _ _ (si_sorted _ _ Inv) Hi Hj Hlt) as (ki & kj & A & B & C).
    exists ki, kj. split; [eapply born_kind; eauto|]. split; [eapply born_kind; eauto|auto].
Qed.

Lemma remove_defined_lemma lssol kinds ops s c :
  (forall c, NoDup (kinds c)) -> history lssol kinds ops = Ok s -> alternating (map regEv (ops ++ [OpRemoveFrom c])) ->
  exists s', step lssol kinds s (OpRemoveFrom c) = Ok s'.
Proof.
  intros HN H Alt. rewrite map_app in Alt. simpl in Alt. apply alternating_snoc in Alt as [Alt Ae].
  destruct (Ae c) as [_ B]. specialize (B eq_refl). simpl. unfold removeFromSolver.
  destruct (removeKinds_kind (kinds c) (removeConstraint s c) c) as (s' & E' & K'); auto; [|eauto].
  intros k' Hk'. replace (kindList k' (removeConstraint s c)) with (kindList k' s) by (destruct k'; reflexivity).
  apply (proj1 (proj2 (kinds_lemma lssol kinds ops s HN H Alt k'))). auto.
Qed.

Lemma no_influence_lemma lssol kinds ops s c num h h' :
  (forall c, NoDup (kinds c)) -> history lssol kinds ops = Ok s -> alternating (map regEv ops) ->
  ~ live (map regEv ops) c -> sameExcept c h h' ->
  solveNoMbcUpdate num s h = solveNoMbcUpdate num s h'.
Proof.
  intros HN H Alt Hc (ST & SE). unfold solveNoMbcUpdate. f_equal. unfold collect.
  pose proof (kinds_lemma lssol kinds ops s HN H Alt) as K.
  assert (Hne : forall k c', In c' (kindList k s) -> c' <> c).
  { intros k c' Hin ->. apply (proj1 (proj2 (K k))) in Hin as [Hin _]. auto. }
  f_equal; apply map_ext_in; intros a Ha; [auto| | | |].
  - apply SE. apply (Hne KEq); auto.
  - apply SE. apply (Hne KIneq); auto.
  - apply SE. apply (Hne KGen); auto.
  - apply SE. apply (Hne KBound); auto.
Qed.

(* ------------------------------------------------------------------ *)
(** * The back end follows the layout *)
Lemma wfDeps_of_layout mbs uni bi d deps :
  Forall wfMimic mbs -> nrVarsData mbs uni bi = Ok (d, deps) -> (length deps < sdNrVars d)%nat ->
  wfDeps (sdNrVars d) deps.
Proof.
  intros W H Hl. destruct (layout_deps_lemma _ _ _ _ _ W H) as (_ & N & R).
  assert (sdTotalAlphaD d <= sdNrVars d)%nat.
  { destruct (layout_counts_lemma _ _ _ _ _ H) as (_ & _ & _ & _ & _ & _ & _ & _ & -> & _). lia. }
  split; [exact N|]. split; [|auto]. intros [[l r] m] Hin. unfold leader, replica; simpl.
  destruct (R l r m Hin) as (A & B & C). split; [lia|]. split; [lia|exact C].
Qed.

Lemma depMaps_updateSize n deps red b nv a1 a2 a3 : depMaps n deps red b -> depMaps n deps red (updateSize b nv a1 a2 a3).
Proof. intros [H1 H2 H3 H4 H5 H6 H7 H8 H9]. constructor; auto. Qed.

Lemma ready_updateSize n deps b a1 a2 a3 : ready n deps b -> ready n deps (updateSize b n a1 a2 a3).
Proof.
  intros (HN & [[-> Hd]|(Hne & Hwf & Hred & red & D)]).
  - split; [reflexivity|]. left. auto.
  - split; [reflexivity|]. right. split; [auto|]. split; [auto|]. split.
    + simpl. destruct (bkDeps b) eqn:E; [congruence|]. rewrite <- E. rewrite (Permutation_length (dm_deps _ _ _ _ D)). auto.
    + exists red. apply depMaps_updateSize; auto.
Qed.

Lemma ready_setDependencies b n deps b' a1 a2 a3 :
  setDependencies b n deps = Ok b' -> wfDeps n deps -> ready n deps (updateSize b' n a1 a2 a3).
Proof.
  intros H W. destruct (setDependencies_spec b n deps W) as (b1 & red & E & D & _). rewrite H in E. inversion E; subst b1.
  split; [reflexivity|].
  pose proof (dm_deps _ _ _ _ D) as P.
  destruct deps as [|d0 deps0].
  - left. split; auto. simpl. apply Permutation_sym, Permutation_nil in P. auto.
  - right. assert (Hne : bkDeps b' <> []).
    { intros E0. rewrite E0 in P. apply Permutation_nil in P. discriminate. }
    split; [auto|]. split; [auto|]. split.
    + simpl. destruct (bkDeps b') eqn:E'; [congruence|]. rewrite (Permutation_length P). reflexivity.
    + exists red. apply depMaps_updateSize; auto.
Qed.

Lemma createQPSolver_spec lssol nm b : createQPSolver lssol nm = Ok b -> bkDeps b = [] /\ bkN b = 0%nat.
Proof.
  unfold createQPSolver. destruct (String.eqb _ _); [intros H; inversion H; auto|].
  destruct (_ && _); intros H; inversion H; auto.
Qed.

Lemma step_ready lssol kinds s o s' :
  step lssol kinds s o = Ok s' -> usableMimics o ->
  (exists deps, ready (sdNrVars (qData s)) deps (qBack s)) ->
  exists deps, ready (sdNrVars (qData s')) deps (qBack s').
Proof.
  intros H W (deps & Hr). destruct o; cbn [step] in H; try (inversion H; subst; exists deps; exact Hr).
  - inversion H; subst. exists deps. unfold addToSolver.
    destruct (addKinds_proj (kinds c) (addConstraint s c) c) as (_ & _ & -> & -> & _). exact Hr.
  - apply removeKinds_proj in H as (_ & _ & -> & -> & _). exists deps. exact Hr.
  - inversion H; subst. exists deps. apply ready_updateSize. auto.
  - unfold nrVars in H. apply bind_Ok in H as ([d deps'] & E1 & H). apply bind_Ok in H as (b & E2 & H).
    inversion H; subst. simpl. exists deps'. eapply ready_setDependencies; eauto.
    eapply wfDeps_of_layout; eauto. unfold setDependencies in E2. apply bind_Ok in E2 as (u & G & _).
    apply guard_Ok in G. apply Nat.ltb_lt in G. auto.
  - unfold setSolver in H. apply bind_Ok in H as (b & E2 & H). inversion H; subst. simpl.
    exists []. split; [reflexivity|]. left. split; auto. simpl. apply (createQPSolver_spec _ _ _ E2).
Qed.

Lemma history_ready lssol kinds ops s :
  history lssol kinds ops = Ok s -> Forall usableMimics ops ->
  exists deps, ready (sdNrVars (qData s)) deps (qBack s).
Proof.
  revert s. induction ops as [|o ops IH] using rev_ind; intros s H W; unfold history in H;
    apply bind_Ok in H as (s0 & E0 & H).
  - simpl in H. inversion H; subst. destruct (newQPSolver_spec _ _ E0) as (b & -> & B1 & B2).
    exists []. split; [auto|]. left; auto.
  - apply run_snoc_inv in H as (s1 & H1 & H2). apply Forall_app in W as [W1 W2]. inversion W2; subst.
    eapply step_ready; eauto. apply IH; auto. unfold history. rewrite E0. auto.
Qed.

Lemma step_sizes lssol kinds s o s' :
  step lssol kinds s o = Ok s' -> ~ changesConstraints o ->
  (forall k, kindList k s' = kindList k s) /\
  (match o with OpUpdateConstrSize h => False | _ => True end ->
   qMaxEq s' = qMaxEq s /\ qMaxIneq s' = qMaxIneq s /\ qMaxGen s' = qMaxGen s /\
   (bkEq (qBack s) = qMaxEq s /\ bkIn (qBack s) = qMaxIneq s /\ bkGen (qBack s) = qMaxGen s ->
    bkEq (qBack s') = qMaxEq s' /\ bkIn (qBack s') = qMaxIneq s' /\ bkGen (qBack s') = qMaxGen s')).
Proof.
  intros H Hc. destruct o; cbn [step] in H; simpl in Hc; try tauto;
    try (inversion H; subst; split; [intros []; reflexivity|simpl; tauto]).
  - split.
    + apply nrVars_proj in H as (_ & _ & K & _). exact K.
    + intros _. unfold nrVars in H. apply bind_Ok in H as ([d deps'] & E1 & H). apply bind_Ok in H as (b & E2 & H).
      inversion H; subst. simpl. auto 10.
  - split.
    + apply setSolver_proj in H as (_ & _ & K & _). exact K.
    + intros _. unfold setSolver in H. apply bind_Ok in H as (b & E2 & H). inversion H; subst. simpl. auto 10.
Qed.

Definition okSizes (s : qpSolver) (h2 : heap) : Prop :=
  (sumnat (map (fun c => eqNr (hEq h2 c)) (qEq s)) <= qMaxEq s)%nat /\
  (sumnat (map (fun c => iqNr (hIneq h2 c)) (qIneq s)) <= qMaxIneq s)%nat /\
  (sumnat (map (fun c => giNr (hGen h2 c)) (qGen s)) <= qMaxGen s)%nat.

Lemma sumnat_map_le {A} (f g : A -> nat) l : (forall a, (f a <= g a)%nat) -> (sumnat (map f l) <= sumnat (map g l))%nat.
Proof. intros H. induction l; simpl; [lia|]. specialize (H a). lia. Qed.

(** Sizes after the last updateConstrSize. Later updateConstrSize calls are allowed when they see
    maxima that still cover the lines. *)
Lemma sizes_lemma lssol kinds post : forall s s' h2,
  run lssol kinds s post = Ok s' -> Forall (fun o => ~ changesConstraints o) post ->
  (forall h, In (OpUpdateConstrSize h) post -> withinMax h h2) ->
  okSizes s h2 -> bkEq (qBack s) = qMaxEq s /\ bkIn (qBack s) = qMaxIneq s /\ bkGen (qBack s) = qMaxGen s ->
  okSizes s' h2 /\ bkEq (qBack s') = qMaxEq s' /\ bkIn (qBack s') = qMaxIneq s' /\ bkGen (qBack s') = qMaxGen s'.
Proof.
  induction post as [|o post IH]; intros s s' h2 H Hc Hw Hs Hb; simpl in H; [inversion H; subst; auto|].
  apply bind_Ok in H as (s1 & E & H). inversion Hc; subst.
  apply (IH s1 s' h2 H); auto.
  - intros h Hh. apply Hw. right; auto.
  - destruct (step_sizes _ _ _ _ _ E H2) as (K & M).
    assert (D : (exists h, o = OpUpdateConstrSize h) \/ match o with OpUpdateConstrSize _ => False | _ => True end)
      by (destruct o; eauto).
    destruct D as [(h & ->)|D].
    + simpl in E. inversion E; subst. unfold okSizes; simpl.
      repeat split; apply sumnat_map_le; intros c; apply (Hw h (or_introl eq_refl)).
    + destruct (M D) as (M1 & M2 & M3 & _). unfold okSizes.
      pose proof (K KEq) as K1. pose proof (K KIneq) as K2. pose proof (K KGen) as K3. simpl in K1, K2, K3.
      rewrite K1, K2, K3, M1, M2, M3. exact Hs.
  - destruct (step_sizes _ _ _ _ _ E H2) as (K & M).
    destruct o; try (apply M; [exact I|auto]). simpl in E. inversion E; subst. simpl. auto.
Qed.

Lemma safe_lemma lssol kinds pre h1 post s h2 num :
  history lssol kinds (pre ++ OpUpdateConstrSize h1 :: post) = Ok s ->
  Forall usableMimics (pre ++ OpUpdateConstrSize h1 :: post) ->
  Forall (fun o => ~ changesConstraints o) post ->
  (forall h, In (OpUpdateConstrSize h) (OpUpdateConstrSize h1 :: post) -> withinMax h h2) ->
  wfReg (sdNrVars (qData s)) (collect s h2) -> contract num ->
  exists ok x, solveNoMbcUpdate num s h2 = Ok (ok, x) /\ vlen x = sdNrVars (qData s).
Proof.
  intros H W Hc Hw Hwf C. destruct (history_ready _ _ _ _ H W) as (deps & Hr).
  unfold history in H. apply bind_Ok in H as (s0 & E0 & H). rewrite run_app in H.
  apply bind_Ok in H as (s1 & E1 & H). cbn [run step bind] in H.
  destruct (sizes_lemma lssol kinds post (updateConstrSize s1 h1) s h2 H Hc) as (S & B1 & B2 & B3).
  { intros h Hh. apply Hw; right; auto. }
  { unfold okSizes; simpl. repeat split; apply sumnat_map_le; intros c; apply (Hw h1 (or_introl eq_refl)). }
  { simpl; auto. }
  eapply backendSolve_defined; eauto. unfold fits, collect; simpl. rewrite !map_map. rewrite B1, B2, B3.
  unfold okSizes in S. exact S.
Qed.

(** The layout and the dependencies after a history whose last nrVars call is known. *)
Lemma run_keeps lssol kinds post : forall s s' deps,
  run lssol kinds s post = Ok s' -> Forall (fun o => ~ resizesOrSwitches o) post ->
  ready (sdNrVars (qData s)) deps (qBack s) ->
  qData s' = qData s /\ ready (sdNrVars (qData s)) deps (qBack s').
Proof.
  induction post as [|o post IH]; intros s s' deps H Hc Hr; simpl in H; [inversion H; subst; auto|].
  apply bind_Ok in H as (s1 & E & H). inversion Hc; subst.
  assert (K : qData s1 = qData s /\ ready (sdNrVars (qData s)) deps (qBack s1)).
  { destruct o; cbn [step] in E; simpl in H2; try tauto; try (inversion E; subst; split; [reflexivity|exact Hr]).
    - inversion E; subst. unfold addToSolver.
      destruct (addKinds_proj (kinds c) (addConstraint s c) c) as (_ & _ & -> & -> & _). split; [reflexivity|exact Hr].
    - apply removeKinds_proj in E as (_ & _ & -> & -> & _). split; [reflexivity|exact Hr].
    - inversion E; subst. split; [reflexivity|]. apply ready_updateSize. auto. }
  destruct K as [K1 K2]. rewrite <- K1 in K2. destruct (IH s1 s' deps H H3 K2) as [A B].
  rewrite A, K1 in *. auto.
Qed.

Lemma layout_after lssol kinds pre mbs uni bi post s :
  history lssol kinds (pre ++ OpNrVars mbs uni bi :: post) = Ok s ->
  Forall wfMimic mbs -> Forall (fun o => ~ resizesOrSwitches o) post ->
  exists deps, nrVarsData mbs uni bi = Ok (qData s, deps) /\ ready (sdNrVars (qData s)) deps (qBack s) /\
    (length deps < sdNrVars (qData s))%nat.
Proof.
  intros H W Hc. unfold history in H. apply bind_Ok in H as (s0 & E0 & H). rewrite run_app in H.
  apply bind_Ok in H as (s1 & E1 & H). cbn [run step] in H. apply bind_Ok in H as (s2 & E2 & H).
  pose proof E2 as E2'. unfold nrVars in E2'. apply bind_Ok in E2' as ([d deps] & F1 & E2').
  apply bind_Ok in E2' as (b & F2 & E2'). inversion E2'; subst s2; clear E2'.
  assert (G : (length deps < sdNrVars d)%nat).
  { unfold setDependencies in F2. apply bind_Ok in F2 as (u & G & _). apply guard_Ok in G. apply Nat.ltb_lt in G. auto. }
  destruct (run_keeps lssol kinds post _ s deps H Hc) as [A B].
  { simpl. eapply ready_setDependencies; eauto. eapply wfDeps_of_layout; eauto. }
  simpl in A, B. exists deps. rewrite A. auto.
Qed.

Lemma mimicked_honours mbs uni bi d deps x :
  Forall wfMimic mbs -> nrVarsData mbs uni bi = Ok (d, deps) -> (mimicked mbs d x <-> honours deps x).
Proof.
  intros W H. destruct (layout_deps_lemma _ _ _ _ _ W H) as (E & _). split.
  - intros M l r m Hin. apply E in Hin as (r0 & mb & il & ir & b & A1 & A2 & A3 & -> & ->). eapply M; eauto.
  - intros M r mb il ir m b A1 A2 A3. apply M. apply E. exists r, mb, il, ir, b. auto.
Qed.

Lemma optimal_lemma lssol kinds pre mbs uni bi post s num h x T (ms ms' : list (mbconfig T)) :
  history lssol kinds (pre ++ OpNrVars mbs uni bi :: post) = Ok s ->
  Forall wfMimic mbs -> nonzeroMimics mbs -> Forall (fun o => ~ resizesOrSwitches o) post ->
  contract num ->
  Forall wfBound (rgBound (collect s h)) -> disjointBounds (rgBound (collect s h)) ->
  solve num s h ms = Ok (true, x, ms') ->
  let n := sdNrVars (qData s) in let g := collect s h in
  vlen x = n /\ feasible n g (vget x) /\ mimicked mbs (qData s) (vget x) /\
  forall z, feasible n g z -> mimicked mbs (qData s) z ->
    objective n (rgTasks g) (vget x) <= objective n (rgTasks g) z.
Proof.
  intros H W NZ Hc C WB DB HS n g. destruct (layout_after _ _ _ _ _ _ _ _ H W Hc) as (deps & L & Hr & Hl).
  unfold solve in HS. apply bind_Ok in HS as ([ok x'] & E & HS). apply bind_Ok in HS as (ms'' & E' & HS).
  inversion HS; subst ok x' ms''; clear HS.
  destruct (layout_deps_lemma _ _ _ _ _ W L) as (ED & _).
  destruct (backend_optimal num (qBack s) g n deps x C Hr E WB DB) as (A1 & A2 & A3 & A4).
  { intros l r Hin. apply ED in Hin as (r0 & mb & il & ir & b & B1 & B2 & B3 & _).
    eapply NZ; eauto. eapply nth_error_In; eauto. }
  split; [auto|]. split; [auto|]. split; [eapply mimicked_honours; eauto|].
  intros z Z1 Z2. apply A4; auto. eapply mimicked_honours; eauto.
Qed.

(* ------------------------------------------------------------------ *)
(** * Writing the accelerations back *)
Lemma fillJoint_spec e v : forall pos, (pos + length e <= vlen v)%nat ->
  fillJoint e v pos = Ok (map (vget v) (seq pos (length e))).
Proof.
  induction e as [|a e IH]; intros pos H; simpl in *; [reflexivity|].
  unfold vget_at. replace (pos <? vlen v)%nat with true by (symmetry; apply Nat.ltb_lt; lia). cbn [bind].
  rewrite IH by lia. reflexivity.
Qed.
Lemma vectorToParam_spec es v : forall pos, (pos + sumnat (map (@length R) es) <= vlen v)%nat ->
  exists es', vectorToParam es v pos = Ok es' /\ map (@length R) es' = map (@length R) es /\
    concat es' = map (vget v) (seq pos (sumnat (map (@length R) es))).
Proof.
  induction es as [|e es IH]; intros pos H; simpl in *; [exists []; auto|].
  rewrite fillJoint_spec by lia. cbn [bind].
  destruct (IH (pos + length e)%nat) as (es' & -> & A & B); [lia|]. cbn [bind].
  eexists. split; [reflexivity|]. simpl. rewrite map_length, seq_length, A. split; [auto|].
  rewrite B, seq_app, map_app. reflexivity.
Qed.

Lemma updateMbcs_spec {T} mbs uni bi d deps x : forall (ms : list (mbconfig T)) r0 mbs2,
  nrVarsData mbs uni bi = Ok (d, deps) -> vlen x = sdNrVars d ->
  (forall k, nth_error mbs2 k = nth_error mbs (r0 + k)) -> Forall2 fitsRobot mbs2 ms ->
  exists ms', updateMbcs d x ms r0 = Ok ms' /\ length ms' = length ms /\
    forall k m, nth_error ms k = Some m -> exists m' w, nth_error ms' k = Some m' /\
      alphaDVecAt d x (r0 + k) = Ok w /\ concat (mbcAlphaD m') = vlist w /\
      map (@length R) (mbcAlphaD m') = map (@length R) (mbcAlphaD m) /\ mbcOther m' = mbcOther m.
Proof.
  induction ms as [|m ms IH]; intros r0 mbs2 L Hx Hn HF.
  - exists []. split; [reflexivity|]. split; [reflexivity|]. intros k m Hk. destruct k; discriminate.
  - inversion HF as [|mb ? mbs3 ? Hfit HF']; subst. cbn [updateMbcs]. unfold updateMbc.
    destruct (layout_counts_lemma _ _ _ _ _ L) as (A1 & _).
    destruct (accessors_lemma _ _ _ _ _ x L Hx) as (ra & rl & a & l & R1 & R2 & R3 & _).
    assert (Hmb : nth_error mbs r0 = Some mb) by (specialize (Hn 0%nat); simpl in Hn; rewrite Nat.add_0_r in Hn; auto).
    assert (Hr0 : (r0 < length ra)%nat).
    { rewrite R1. apply nth_error_Some. congruence. }
    destruct (nth_error ra r0) as [w|] eqn:Ew; [|apply nth_error_None in Ew; lia].
    pose proof (R3 _ _ Ew) as Hw. rewrite Hw. cbn [bind].
    assert (Hlw : vlen w = nrDof mb).
    { unfold alphaDVecAt in Hw. rewrite (A1 _ _ Hmb) in Hw. apply bind_Ok in Hw as (b & _ & Hw). cbn [bind] in Hw.
      apply vseg_Ok in Hw. tauto. }
    destruct (vectorToParam_spec (mbcAlphaD m) w 0) as (es' & E & B1 & B2).
    { simpl. unfold fitsRobot in Hfit. rewrite Hfit, Hlw. unfold nrDof. lia. }
    rewrite E. cbn [bind].
    destruct (IH (S r0) mbs3 L Hx) as (ms' & E' & C1 & C2); auto.
    { intros k. specialize (Hn (S k)). simpl in Hn. rewrite Hn. f_equal. lia. }
    rewrite E'. cbn [bind]. eexists. split; [reflexivity|]. split; [simpl; auto|].
    intros [|k] m0 Hk; simpl in Hk.
    + inversion Hk; subst m0. exists (mkMbc es' (mbcOther m)), w. split; [reflexivity|].
      rewrite Nat.add_0_r. split; [auto|]. simpl. split; [|auto]. rewrite B2. unfold vlist.
      unfold fitsRobot in Hfit. rewrite Hfit, Hlw. reflexivity.
    + destruct (C2 k m0 Hk) as (m' & w' & D1 & D2 & D3). exists m', w'. split; [auto|].
      replace (r0 + S k)%nat with (S r0 + k)%nat by lia. auto.
Qed.

Lemma write_lemma lssol kinds pre mbs uni bi post s num h ok x T (ms : list (mbconfig T)) :
  history lssol kinds (pre ++ OpNrVars mbs uni bi :: post) = Ok s ->
  Forall wfMimic mbs -> Forall (fun o => ~ resizesOrSwitches o) post ->
  solveNoMbcUpdate num s h = Ok (ok, x) -> vlen x = sdNrVars (qData s) -> Forall2 fitsRobot mbs ms ->
  exists ms', solve num s h ms = Ok (ok, x, ms') /\ length ms' = length ms /\
    (ok = false -> ms' = ms) /\
    (ok = true -> forall r m, nth_error ms r = Some m -> exists m' w, nth_error ms' r = Some m' /\
       alphaDVecAt (qData s) x r = Ok w /\ concat (mbcAlphaD m') = vlist w /\
       map (@length R) (mbcAlphaD m') = map (@length R) (mbcAlphaD m) /\ mbcOther m' = mbcOther m).
Proof.
  intros H W Hc E Hx HF. destruct (layout_after _ _ _ _ _ _ _ _ H W Hc) as (deps & L & Hr & Hl).
  unfold solve. rewrite E. cbn [bind]. unfold postUpdate. destruct ok.
  - destruct (updateMbcs_spec mbs uni bi (qData s) deps x ms 0 mbs L Hx (fun k => eq_refl) HF) as (ms' & -> & A & B).
    cbn [bind]. exists ms'. split; [reflexivity|]. split; [auto|]. split; [discriminate|]. intros _. exact B.
  - cbn [bind]. exists ms. split; [reflexivity|]. split; [auto|]. split; [auto|discriminate].
Qed.

(* ------------------------------------------------------------------ *)
(** * Error lines *)
Lemma constrErrorMsg_spec l : forall k i start,
  let '(r, s, e) := constrErrorMsg l k i start start in
  s = e /\
  (((start <= i < start + sumnat l)%nat /\ exists c n line, nth_error l c = Some n /\ (line < n)%nat /\
      i = (start + sumnat (firstn c l) + line)%nat /\ r = Some ((k + c)%nat, line) /\ (i < s)%nat) \/
   (~ (start <= i < start + sumnat l)%nat /\ r = None /\ s = (start + sumnat l)%nat)).
Proof.
  induction l as [|n l IH]; intros k i start; simpl.
  - split; [auto|]. right. split; [lia|]. split; [auto|lia].
  - destruct ((start <=? i) && (i <? start + n))%nat eqn:E.
    + rewrite andb_true_iff, Nat.leb_le, Nat.ltb_lt in E. split; [auto|]. left. split; [lia|].
      exists 0%nat, n, (i - start)%nat. split; [reflexivity|]. split; [lia|]. split; [simpl; lia|]. rewrite Nat.add_0_r. split; [auto|lia].
    + rewrite andb_false_iff, Nat.leb_gt, Nat.ltb_ge in E.
      specialize (IH (S k) i (start + n)%nat).
      destruct (constrErrorMsg l (S k) i (start + n) (start + n)) as [[r s] e].
      destruct IH as [-> [(A & c & m & line & B1 & B2 & B3 & B4 & B5)|(A & B & C)]]; (split; [auto|]).
      * left. split; [lia|]. exists (S c), m, line. simpl. split; [auto|]. split; [auto|]. split; [lia|].
        split; [rewrite B4; f_equal; f_equal; lia|auto].
      * right. split; [lia|]. split; [auto|lia].
Qed.

(** A line index that precedes [start] is never reported. *)
Lemma constrErrorMsg_past l k i start : (i < start)%nat ->
  exists s e, constrErrorMsg l k i start start = (None, s, e) /\ s = e /\ (i < s)%nat.
Proof.
  intros H. pose proof (constrErrorMsg_spec l k i start) as S.
  destruct (constrErrorMsg l k i start start) as [[r s] e]. destruct S as [-> [(A & _)|(A & -> & ->)]]; [lia|].
  eexists _, _. split; [reflexivity|]. split; [auto|lia].
Qed.

Lemma lineReport_spec g n b p deps i :
  lssolMatrix b g = Ok p -> ready n deps b -> (i < mrows (pgA p))%nat ->
  exists r coef lo up, lineReport g i = [r] /\ lineOf g r n = Some (coef, lo, up) /\
    vget (pgAL p) i = lo /\ vget (pgAU p) i = up /\
    forall y, rowdot (pgA p) i y = sumn n (fun j => coef j * lift b y j).
Proof.
  intros H (HN & Hd) Hi.
  (* the stack *)
  unfold lssolMatrix in H. rewrite HN in H.
  set (rows := (bkEq b + bkIn b + bkGen b)%nat) in *.
  apply bind_Ok in H as ([[[n1 A1] L1] U1] & E1 & H).
  apply bind_Ok in H as ([[[n2 A2] L2] U2] & E2 & H).
  apply bind_Ok in H as ([[[n3 AF] AL] AU] & E3 & H).
  apply bind_Ok in H as ([XLF XUF] & E4 & H).
  apply bind_Ok in H as ([QF CF] & E5 & H).
  assert (ES : fillGenInEqG (stackG g) n 0 (mzero rows n) (vfill rows (Fin 0)) (vfill rows (Fin 0)) = Ok (n3, AF, AL, AU)).
  { rewrite <- fill3_stack. rewrite E1. cbn [bind]. rewrite E2. cbn [bind]. exact E3. }
  clear E1 E2 E3.
  destruct (fillGen_spec _ _ _ _ _ _ _ _ _ _ ES eq_refl) as (S0 & _ & S2 & _ & _ & _ & _ & _ & _ & SR).
  assert (P : mrows (pgA p) = n3 /\ vget (pgAL p) i = vget AL i /\ vget (pgAU p) i = vget AU i /\
              forall y, rowdot (pgA p) i y = rowdot AF i (lift b y)).
  { unfold lift. destruct Hd as [[-> Hnil]|(Hne & Hwf & Hred & red & D)].
    - rewrite Hnil in *. binds H. inversion H; subst p; clear H. simpl.
      pose proof (fun y => rowdot_block _ _ _ _ i y E) as RB. apply mblock_Ok in E as (_ & _ & R1 & _ & _).
      apply vseg_Ok in E0 as (_ & _ & V1). apply vseg_Ok in E1 as (_ & _ & V2).
      rewrite V1, V2. auto.
    - destruct (bkDeps b) as [|d0 ds0] eqn:Eds; [congruence|]. rewrite <- Eds in *.
      apply bind_Ok in H as (A & F1 & H). apply bind_Ok in H as ([XL XU] & F2 & H). apply bind_Ok in H as ([Q C] & F3 & H).
      binds H. inversion H; subst p; clear H. simpl.
      pose proof (fun y => rowdot_block _ _ _ _ i y E) as RB. apply mblock_Ok in E as (_ & _ & R1 & _ & _).
      apply vseg_Ok in E0 as (_ & _ & V1). apply vseg_Ok in E1 as (_ & _ & V2).
      rewrite V1, V2. split; [auto|]. split; [auto|]. split; [auto|]. intros y. rewrite RB. exact (rowdot_mul b AF A i y F1). }
  destruct P as (P1 & P2 & P3 & P4). rewrite P1 in Hi. rewrite P2, P3.
  assert (Hrow : forall k e l, nth_error (stackG g) k = Some e -> (l < giNr e)%nat ->
    i = (sumnat (map giNr (firstn k (stackG g))) + l)%nat ->
    vget AL i = vget (giL e) l /\ vget AU i = vget (giU e) l /\
    forall y, rowdot (pgA p) i y = sumn n (fun j => mget (giA e) l j * lift b y j)).
  { intros k e l Hk Hl ->. destruct (SR k e l Hk Hl) as (Ra & Rb & Rc). simpl in Ra, Rb, Rc.
    split; [auto|]. split; [auto|]. intros y. rewrite P4. unfold rowdot. rewrite S2.
    apply sumn_ext. intros j Hj. rewrite Ra by auto. reflexivity. }
  clear P2 P3 P4 H.
  assert (S1 : (i < sumnat (map eqNr (rgEq g)) + (sumnat (map iqNr (rgIneq g)) + sumnat (map giNr (rgGen g))))%nat).
  { rewrite stackG_nr in S0. simpl in S0. lia. }
  assert (M1 : forall l, map giNr (map genOfEq l) = map eqNr l) by (intros l; rewrite map_map; reflexivity).
  assert (M2 : forall l, map giNr (map genOfIneq l) = map iqNr l) by (intros l; rewrite map_map; reflexivity).
  unfold lineReport.
  pose proof (constrErrorMsg_spec (map eqNr (rgEq g)) 0 i 0) as C1.
  destruct (constrErrorMsg (map eqNr (rgEq g)) 0 i 0 0) as [[r1 s1] e1].
  destruct C1 as [<- [(Q1 & c & m & line & B1 & B2 & B3 & -> & B5)|(Q1 & -> & ->)]].
  - destruct (constrErrorMsg_past (map iqNr (rgIneq g)) 0 i s1 B5) as (s2 & e2 & -> & <- & B6).
    destruct (constrErrorMsg_past (map giNr (rgGen g)) 0 i s2 B6) as (s3 & e3 & -> & _).
    simpl. rewrite nth_error_map in B1. destruct (nth_error (rgEq g) c) as [e|] eqn:Ee; [|discriminate].
    simpl in B1. inversion B1; subst m.
    destruct (Hrow c (genOfEq e) line) as (Ha & Hb & Hc).
    { unfold stackG. rewrite nth_error_app1; [|rewrite map_length; apply nth_error_Some; congruence].
      rewrite nth_error_map, Ee. reflexivity. }
    { exact B2. }
    { unfold stackG. rewrite firstn_app. rewrite map_app, sumnat_app.
      rewrite map_length. assert (Hlt : (c < length (rgEq g))%nat) by (apply nth_error_Some; congruence).
      replace (c - length (rgEq g))%nat with 0%nat by lia. simpl. rewrite Nat.add_0_r.
      rewrite firstn_map, M1, <- firstn_map. simpl in B3. lia. }
    eexists _, _, _, _. split; [reflexivity|]. simpl. rewrite Ee.
    replace (line <? eqNr e)%nat with true by (symmetry; apply Nat.ltb_lt; auto). split; [reflexivity|]. auto.
  - simpl in Q1. rewrite Nat.add_0_l.
    pose proof (constrErrorMsg_spec (map iqNr (rgIneq g)) 0 i (sumnat (map eqNr (rgEq g)))) as C2.
    destruct (constrErrorMsg (map iqNr (rgIneq g)) 0 i _ _) as [[r2 s2] e2].
    destruct C2 as [<- [(Q2 & c & m & line & B1 & B2 & B3 & -> & B5)|(Q2 & -> & ->)]].
    + destruct (constrErrorMsg_past (map giNr (rgGen g)) 0 i s2 B5) as (s3 & e3 & -> & _).
      simpl. rewrite nth_error_map in B1. destruct (nth_error (rgIneq g) c) as [e|] eqn:Ee; [|discriminate].
      simpl in B1. inversion B1; subst m.
      assert (Hlt : (c < length (rgIneq g))%nat) by (apply nth_error_Some; congruence).
      destruct (Hrow (length (rgEq g) + c)%nat (genOfIneq e) line) as (Ha & Hb & Hc).
      { unfold stackG. rewrite nth_error_app2; [|rewrite map_length; lia]. rewrite map_length.
        replace (length (rgEq g) + c - length (rgEq g))%nat with c by lia.
        rewrite nth_error_app1; [|rewrite map_length; lia]. rewrite nth_error_map, Ee. reflexivity. }
      { exact B2. }
      { unfold stackG. rewrite firstn_app, map_app, sumnat_app, map_length.
        rewrite firstn_all2 by (rewrite map_length; lia).
        replace (length (rgEq g) + c - length (rgEq g))%nat with c by lia.
        rewrite firstn_app, map_app, sumnat_app, map_length.
        replace (c - length (rgIneq g))%nat with 0%nat by lia. simpl. rewrite Nat.add_0_r.
        rewrite M1, firstn_map, M2, <- firstn_map. simpl in B3. lia. }
      eexists _, _, _, _. split; [reflexivity|]. simpl. rewrite Ee.
      replace (line <? iqNr e)%nat with true by (symmetry; apply Nat.ltb_lt; auto). split; [reflexivity|].
      simpl in Ha. auto.
    + pose proof (constrErrorMsg_spec (map giNr (rgGen g)) 0 i (sumnat (map eqNr (rgEq g)) + sumnat (map iqNr (rgIneq g)))) as C3.
      destruct (constrErrorMsg (map giNr (rgGen g)) 0 i _ _) as [[r3 s3] e3].
      destruct C3 as [<- [(Q3 & c & m & line & B1 & B2 & B3 & -> & B5)|(Q3 & -> & ->)]]; [|lia].
      simpl. rewrite nth_error_map in B1. destruct (nth_error (rgGen g) c) as [e|] eqn:Ee; [|discriminate].
      simpl in B1. inversion B1; subst m.
      assert (Hlt : (c < length (rgGen g))%nat) by (apply nth_error_Some; congruence).
      destruct (Hrow (length (rgEq g) + (length (rgIneq g) + c))%nat e line) as (Ha & Hb & Hc).
      { unfold stackG. rewrite nth_error_app2; [|rewrite map_length; lia]. rewrite map_length.
        rewrite nth_error_app2; [|rewrite map_length; lia]. rewrite map_length.
        replace (length (rgEq g) + (length (rgIneq g) + c) - length (rgEq g) - length (rgIneq g))%nat with c by lia. auto. }
      { exact B2. }
      { unfold stackG. rewrite firstn_app, map_app, sumnat_app, map_length.
        rewrite firstn_all2 by (rewrite map_length; lia).
        replace (length (rgEq g) + (length (rgIneq g) + c) - length (rgEq g))%nat with (length (rgIneq g) + c)%nat by lia.
        rewrite firstn_app, map_app, sumnat_app, map_length.
        rewrite firstn_all2 by (rewrite map_length; lia).
        replace (length (rgIneq g) + c - length (rgIneq g))%nat with c by lia.
        rewrite M1, M2, <- firstn_map. simpl in B3. lia. }
      eexists _, _, _, _. split; [reflexivity|]. simpl. rewrite Ee.
      replace (line <? giNr e)%nat with true by (symmetry; apply Nat.ltb_lt; auto). split; [reflexivity|]. auto.
Qed.
