(** Shared vocabulary: outcomes, finite sums, vectors, matrices, extended reals.
    Nothing here models a particular function of the repository, except the Eigen
    access primitives ([block], [segment], [head], indexing), whose documented
    precondition (indices in range) is made explicit: a violated precondition is
    the outcome [UB]. *)
From Coq Require Export List Arith ZArith Bool Reals Lra Lia.
Export ListNotations.
Open Scope R_scope.

(* ------------------------------------------------------------------ *)
(** * Outcomes of a C++ call *)

Inductive res (A : Type) : Type :=
| Ok (a : A)      (* normal return *)
| UB              (* undefined behaviour: violated precondition *)
| Throw.          (* C++ exception *)
Arguments Ok {A} a.
Arguments UB {A}.
Arguments Throw {A}.

Definition bind {A B} (m : res A) (f : A -> res B) : res B :=
  match m with Ok a => f a | UB => UB | Throw => Throw end.
Notation "'do' x <- m ; k" := (bind m (fun x => k))
  (at level 200, x pattern, m at level 100, k at level 200, right associativity).

Definition guard (b : bool) : res unit := if b then Ok tt else UB.

Lemma bind_Ok {A B} (m : res A) (f : A -> res B) b :
  bind m f = Ok b -> exists a, m = Ok a /\ f a = Ok b.
Proof. destruct m; simpl; intros H; try discriminate. eauto. Qed.

Lemma guard_Ok b u : guard b = Ok u -> b = true.
Proof. destruct b; simpl; congruence. Qed.

(** Element access of a std::vector: out of range is undefined behaviour. *)
Definition vec_at {A} (l : list A) (i : nat) : res A :=
  match nth_error l i with Some a => Ok a | None => UB end.

(* ------------------------------------------------------------------ *)
(** * Finite sums *)

Fixpoint sumn (n : nat) (f : nat -> R) : R :=
  match n with
  | O => 0
  | S k => sumn k f + f k
  end.

Fixpoint sumnat (l : list nat) : nat :=
  match l with
  | [] => 0
  | x :: l' => x + sumnat l'
  end%nat.

Lemma sumn_ext n f g : (forall i, (i < n)%nat -> f i = g i) -> sumn n f = sumn n g.
Proof.
  induction n as [|n IH]; intros H; simpl; [reflexivity|].
  rewrite IH by (intros; apply H; lia). rewrite H by lia. reflexivity.
Qed.

Lemma sumn_zero n : sumn n (fun _ => 0) = 0.
Proof. induction n as [|n IH]; simpl; [|rewrite IH]; lra. Qed.

Lemma sumn_0 n f : (forall i, (i < n)%nat -> f i = 0) -> sumn n f = 0.
Proof. intros H. rewrite (sumn_ext n f (fun _ => 0)) by auto. apply sumn_zero. Qed.

Lemma sumn_plus n f g : sumn n (fun i => f i + g i) = sumn n f + sumn n g.
Proof. induction n as [|n IH]; simpl; [|rewrite IH]; lra. Qed.

Lemma sumn_minus n f g : sumn n (fun i => f i - g i) = sumn n f - sumn n g.
Proof. induction n as [|n IH]; simpl; [|rewrite IH]; lra. Qed.

Lemma sumn_opp n f : sumn n (fun i => - f i) = - sumn n f.
Proof. induction n as [|n IH]; simpl; [|rewrite IH]; lra. Qed.

Lemma sumn_scal n k f : sumn n (fun i => k * f i) = k * sumn n f.
Proof. induction n as [|n IH]; simpl; [|rewrite IH]; lra. Qed.

Lemma sumn_scal_r n k f : sumn n (fun i => f i * k) = sumn n f * k.
Proof. induction n as [|n IH]; simpl; [|rewrite IH]; lra. Qed.

Lemma sumn_swap n m f :
  sumn n (fun i => sumn m (fun j => f i j)) = sumn m (fun j => sumn n (fun i => f i j)).
Proof.
  induction n as [|n IH]; simpl.
  - symmetry. apply sumn_zero.
  - rewrite IH. rewrite <- sumn_plus. reflexivity.
Qed.

Lemma sumn_split n m f : sumn (n + m) f = sumn n f + sumn m (fun i => f (n + i)%nat).
Proof.
  induction m as [|m IH]; simpl.
  - rewrite Nat.add_0_r. lra.
  - rewrite Nat.add_succ_r. simpl. rewrite IH. lra.
Qed.

Lemma sumn_delta n k f :
  (k < n)%nat -> (forall i, (i < n)%nat -> i <> k -> f i = 0) -> sumn n f = f k.
Proof.
  induction n as [|n IH]; intros Hk H; [lia|]. simpl.
  destruct (Nat.eq_dec k n) as [->|Hne].
  - rewrite sumn_0 by (intros; apply H; lia). lra.
  - rewrite IH; [|lia|intros; apply H; lia]. rewrite (H n); [lra|lia|lia].
Qed.

Lemma sumn_nonneg n f : (forall i, (i < n)%nat -> 0 <= f i) -> 0 <= sumn n f.
Proof.
  induction n as [|n IH]; intros H; simpl; [lra|].
  assert (0 <= sumn n f) by (apply IH; intros; apply H; lia).
  assert (0 <= f n) by (apply H; lia). lra.
Qed.

Lemma sumn_le n f g : (forall i, (i < n)%nat -> f i <= g i) -> sumn n f <= sumn n g.
Proof.
  induction n as [|n IH]; intros H; simpl; [lra|].
  assert (sumn n f <= sumn n g) by (apply IH; intros; apply H; lia).
  assert (f n <= g n) by (apply H; lia). lra.
Qed.

Lemma sumn_mult n m f g :
  sumn n f * sumn m g = sumn n (fun i => sumn m (fun j => f i * g j)).
Proof.
  rewrite <- sumn_scal_r. apply sumn_ext; intros i _. rewrite sumn_scal. reflexivity.
Qed.

(** A sum whose terms vanish outside a window. *)
Lemma sumn_window n s k f :
  (s + k <= n)%nat ->
  (forall i, (i < n)%nat -> (i < s \/ s + k <= i)%nat -> f i = 0) ->
  sumn n f = sumn k (fun i => f (s + i)%nat).
Proof.
  intros Hle H.
  replace n with (s + (k + (n - s - k)))%nat by lia.
  rewrite sumn_split, sumn_split.
  rewrite (sumn_0 s) by (intros; apply H; lia).
  rewrite (sumn_0 (n - s - k)) by (intros; apply H; lia).
  lra.
Qed.

Lemma sumn_abs n f : Rabs (sumn n f) <= sumn n (fun i => Rabs (f i)).
Proof.
  induction n as [|n IH]; simpl.
  - rewrite Rabs_R0. lra.
  - eapply Rle_trans; [apply Rabs_triang|]. lra.
Qed.

Lemma sumnat_app l1 l2 : sumnat (l1 ++ l2) = (sumnat l1 + sumnat l2)%nat.
Proof. induction l1; simpl; lia. Qed.

(* ------------------------------------------------------------------ *)
(** * Vectors and matrices of dynamic size *)

(** Eigen::VectorXd (with any scalar type, so that bounds can be infinite). *)
Record vec (A : Type) := mkVec { vlen : nat; vget : nat -> A }.
Arguments mkVec {A} vlen vget.
Arguments vlen {A} v.
Arguments vget {A} v i.

(** Eigen::MatrixXd. *)
Record mat := mkMat { mrows : nat; mcols : nat; mget : nat -> nat -> R }.

Definition leb_le := Nat.leb_le.

(** M.block(r, c, nr, nc) as an rvalue. *)
Definition mblock (M : mat) (r c nr nc : nat) : res mat :=
  if ((r + nr <=? mrows M) && (c + nc <=? mcols M))%nat
  then Ok (mkMat nr nc (fun i j => mget M (r + i)%nat (c + j)%nat))
  else UB.

(** Is index [i] in [s, s+n)? *)
Definition inr (s n i : nat) : bool := ((s <=? i) && (i <? s + n))%nat.

(** M.block(r, c, B.rows(), B.cols()) = B. *)
Definition mset_block (M : mat) (r c : nat) (B : mat) : res mat :=
  if ((r + mrows B <=? mrows M) && (c + mcols B <=? mcols M))%nat
  then Ok (mkMat (mrows M) (mcols M)
             (fun i j => if inr r (mrows B) i && inr c (mcols B) j
                         then mget B (i - r)%nat (j - c)%nat else mget M i j))
  else UB.

(** M.block(r, c, B.rows(), B.cols()) += B. *)
Definition madd_block (M : mat) (r c : nat) (B : mat) : res mat :=
  if ((r + mrows B <=? mrows M) && (c + mcols B <=? mcols M))%nat
  then Ok (mkMat (mrows M) (mcols M)
             (fun i j => if inr r (mrows B) i && inr c (mcols B) j
                         then mget M i j + mget B (i - r)%nat (j - c)%nat else mget M i j))
  else UB.

(** v.segment(s, n) as an rvalue; v.head(n) is v.segment(0, n). *)
Definition vseg {A} (v : vec A) (s n : nat) : res (vec A) :=
  if (s + n <=? vlen v)%nat then Ok (mkVec n (fun i => vget v (s + i)%nat)) else UB.
Definition vhead {A} (v : vec A) (n : nat) : res (vec A) := vseg v 0 n.

(** v.segment(s, w.size()) = w. *)
Definition vset_seg {A} (v : vec A) (s : nat) (w : vec A) : res (vec A) :=
  if (s + vlen w <=? vlen v)%nat
  then Ok (mkVec (vlen v) (fun i => if inr s (vlen w) i then vget w (i - s)%nat else vget v i))
  else UB.

(** v.segment(s, w.size()) += w. *)
Definition vadd_seg (v : vec R) (s : nat) (w : vec R) : res (vec R) :=
  if (s + vlen w <=? vlen v)%nat
  then Ok (mkVec (vlen v) (fun i => if inr s (vlen w) i then vget v i + vget w (i - s)%nat else vget v i))
  else UB.

Definition mzero (r c : nat) : mat := mkMat r c (fun _ _ => 0).
Definition vfill {A} (n : nat) (a : A) : vec A := mkVec n (fun _ => a).
Definition mscal (k : R) (M : mat) : mat := mkMat (mrows M) (mcols M) (fun i j => k * mget M i j).
Definition vscal (k : R) (v : vec R) : vec R := mkVec (vlen v) (fun i => k * vget v i).
Definition mopp (M : mat) : mat := mkMat (mrows M) (mcols M) (fun i j => - mget M i j).
Definition vmap {A B} (f : A -> B) (v : vec A) : vec B := mkVec (vlen v) (fun i => f (vget v i)).
Definition vopp (v : vec R) : vec R := vmap Ropp v.
Definition mtrans (M : mat) : mat := mkMat (mcols M) (mrows M) (fun i j => mget M j i).

(** Products: a dimension mismatch is an Eigen precondition violation. *)
Definition mmul_ent (M N : mat) (i j : nat) : R := sumn (mcols M) (fun k => mget M i k * mget N k j).
Definition mmul (M N : mat) : res mat :=
  if (mcols M =? mrows N)%nat then Ok (mkMat (mrows M) (mcols N) (mmul_ent M N)) else UB.
Definition mvec (M : mat) (v : vec R) : res (vec R) :=
  if (mcols M =? vlen v)%nat
  then Ok (mkVec (mrows M) (fun i => sumn (mcols M) (fun k => mget M i k * vget v k))) else UB.

(** Row [i] of [M] applied to the coordinates [x] (specification side). *)
Definition rowdot (M : mat) (i : nat) (x : nat -> R) : R := sumn (mcols M) (fun j => mget M i j * x j).
(** Quadratic cost x'Qx/2 + C'x (specification side). *)
Definition quad (n : nat) (Q : nat -> nat -> R) (x : nat -> R) : R :=
  sumn n (fun i => sumn n (fun j => x i * Q i j * x j)).
Definition lin (n : nat) (C : nat -> R) (x : nat -> R) : R := sumn n (fun i => C i * x i).
Definition qpcost (n : nat) (Q : nat -> nat -> R) (C : nat -> R) (x : nat -> R) : R :=
  quad n Q x / 2 + lin n C x.

Lemma inr_true s n i : inr s n i = true <-> (s <= i < s + n)%nat.
Proof. unfold inr. rewrite andb_true_iff, Nat.leb_le, Nat.ltb_lt. tauto. Qed.
Lemma inr_false s n i : inr s n i = false <-> ~ (s <= i < s + n)%nat.
Proof. rewrite <- inr_true. destruct (inr s n i); split; congruence. Qed.

Lemma mblock_Ok M r c nr nc B :
  mblock M r c nr nc = Ok B ->
  (r + nr <= mrows M)%nat /\ (c + nc <= mcols M)%nat /\
  mrows B = nr /\ mcols B = nc /\ (forall i j, mget B i j = mget M (r + i)%nat (c + j)%nat).
Proof.
  unfold mblock. destruct (_ && _) eqn:E; [|discriminate].
  rewrite andb_true_iff, !Nat.leb_le in E. intros H; inversion H; subst; simpl. intuition.
Qed.

Lemma mset_block_Ok M r c B M' :
  mset_block M r c B = Ok M' ->
  (r + mrows B <= mrows M)%nat /\ (c + mcols B <= mcols M)%nat /\
  mrows M' = mrows M /\ mcols M' = mcols M /\
  (forall i j, mget M' i j = if inr r (mrows B) i && inr c (mcols B) j
                             then mget B (i - r)%nat (j - c)%nat else mget M i j).
Proof.
  unfold mset_block. destruct (_ && _) eqn:E; [|discriminate].
  rewrite andb_true_iff, !Nat.leb_le in E. intros H; inversion H; subst; simpl. intuition.
Qed.

Lemma madd_block_Ok M r c B M' :
  madd_block M r c B = Ok M' ->
  (r + mrows B <= mrows M)%nat /\ (c + mcols B <= mcols M)%nat /\
  mrows M' = mrows M /\ mcols M' = mcols M /\
  (forall i j, mget M' i j = if inr r (mrows B) i && inr c (mcols B) j
                             then mget M i j + mget B (i - r)%nat (j - c)%nat else mget M i j).
Proof.
  unfold madd_block. destruct (_ && _) eqn:E; [|discriminate].
  rewrite andb_true_iff, !Nat.leb_le in E. intros H; inversion H; subst; simpl. intuition.
Qed.

Lemma vseg_Ok {A} (v : vec A) s n w :
  vseg v s n = Ok w ->
  (s + n <= vlen v)%nat /\ vlen w = n /\ (forall i, vget w i = vget v (s + i)%nat).
Proof.
  unfold vseg. destruct (_ <=? _)%nat eqn:E; [|discriminate].
  rewrite Nat.leb_le in E. intros H; inversion H; subst; simpl. intuition.
Qed.

Lemma vset_seg_Ok {A} (v : vec A) s w v' :
  vset_seg v s w = Ok v' ->
  (s + vlen w <= vlen v)%nat /\ vlen v' = vlen v /\
  (forall i, vget v' i = if inr s (vlen w) i then vget w (i - s)%nat else vget v i).
Proof.
  unfold vset_seg. destruct (_ <=? _)%nat eqn:E; [|discriminate].
  rewrite Nat.leb_le in E. intros H; inversion H; subst; simpl. intuition.
Qed.

Lemma vadd_seg_Ok v s w v' :
  vadd_seg v s w = Ok v' ->
  (s + vlen w <= vlen v)%nat /\ vlen v' = vlen v /\
  (forall i, vget v' i = if inr s (vlen w) i then vget v i + vget w (i - s)%nat else vget v i).
Proof.
  unfold vadd_seg. destruct (_ <=? _)%nat eqn:E; [|discriminate].
  rewrite Nat.leb_le in E. intros H; inversion H; subst; simpl. intuition.
Qed.

(* ------------------------------------------------------------------ *)
(** * Extended reals, for bounds *)

Inductive ext := NInf | Fin (r : R) | PInf.

(** [ele a b]: a <= b. *)
Definition ele (a b : ext) : Prop :=
  match a, b with
  | NInf, _ => True
  | _, PInf => True
  | Fin x, Fin y => x <= y
  | _, _ => False
  end.

Definition eltb (a b : ext) : bool :=
  match a, b with
  | NInf, NInf => false
  | NInf, _ => true
  | _, NInf => false
  | PInf, _ => false
  | Fin x, PInf => true
  | Fin x, Fin y => if Rlt_dec x y then true else false
  end.

(** std::max(a, b) and std::min(a, b). *)
Definition emax (a b : ext) : ext := if eltb a b then b else a.
Definition emin (a b : ext) : ext := if eltb b a then b else a.

(** Unary minus, addition of a finite number, multiplication and division by a finite non-zero number. *)
Definition eopp (a : ext) : ext :=
  match a with NInf => PInf | Fin x => Fin (- x) | PInf => NInf end.
Definition eaddr (a : ext) (k : R) : ext :=
  match a with NInf => NInf | Fin x => Fin (x + k) | PInf => PInf end.
Definition emulr (a : ext) (k : R) : ext :=
  match a with
  | Fin x => Fin (x * k)
  | NInf => if Rlt_dec 0 k then NInf else PInf
  | PInf => if Rlt_dec 0 k then PInf else NInf
  end.
Definition edivr (a : ext) (k : R) : ext := emulr a (/ k).

(** A real number meets a pair of extended bounds. *)
Definition between (l : ext) (x : R) (u : ext) : Prop := ele l (Fin x) /\ ele (Fin x) u.

Lemma ele_refl a : ele a a.
Proof. destruct a; simpl; auto. lra. Qed.
Lemma ele_trans a b c : ele a b -> ele b c -> ele a c.
Proof. destruct a, b, c; simpl; try tauto; lra. Qed.
Lemma eltb_true a b : eltb a b = true -> ele a b.
Proof. destruct a, b; simpl; try congruence; auto. destruct (Rlt_dec r r0); intros; [lra|congruence]. Qed.
Lemma eltb_false a b : eltb a b = false -> ele b a.
Proof. destruct a, b; simpl; try congruence; auto. destruct (Rlt_dec r r0); intros; [congruence|lra]. Qed.

Lemma emax_le a b x : ele (emax a b) (Fin x) <-> ele a (Fin x) /\ ele b (Fin x).
Proof.
  unfold emax. destruct (eltb a b) eqn:E.
  - apply eltb_true in E. split; [intros H; split; auto; eapply ele_trans; eauto|tauto].
  - apply eltb_false in E. split; [intros H; split; auto; eapply ele_trans; eauto|tauto].
Qed.

Lemma emin_ge a b x : ele (Fin x) (emin a b) <-> ele (Fin x) a /\ ele (Fin x) b.
Proof.
  unfold emin. destruct (eltb b a) eqn:E.
  - apply eltb_true in E. split; [intros H; split; auto; eapply ele_trans; eauto|tauto].
  - apply eltb_false in E. split; [intros H; split; auto; eapply ele_trans; eauto|tauto].
Qed.

Lemma eopp_le a x : ele (Fin (- x)) (eopp a) <-> ele a (Fin x).
Proof. destruct a; simpl; try tauto. lra. Qed.
Lemma ele_eopp a x : ele (eopp a) (Fin (- x)) <-> ele (Fin x) a.
Proof. destruct a; simpl; try tauto. lra. Qed.

Lemma eaddr_le a k x : ele (eaddr a k) (Fin x) <-> ele a (Fin (x - k)).
Proof. destruct a; simpl; try tauto. lra. Qed.
Lemma eaddr_ge a k x : ele (Fin x) (eaddr a k) <-> ele (Fin (x - k)) a.
Proof. destruct a; simpl; try tauto. lra. Qed.

Lemma edivr_pos_le a k x : 0 < k -> (ele (edivr a k) (Fin x) <-> ele a (Fin (k * x))).
Proof.
  intros Hk. unfold edivr, emulr. assert (Hi : 0 < / k) by (apply Rinv_0_lt_compat; auto).
  destruct a as [|r|]; simpl; destruct (Rlt_dec 0 (/ k)); try lra; simpl; try tauto.
  all: assert (Hr : r = k * (r * / k)) by (field; lra).
  all: remember (r * / k) as y; split; intros H; nra.
Qed.
Lemma edivr_pos_ge a k x : 0 < k -> (ele (Fin x) (edivr a k) <-> ele (Fin (k * x)) a).
Proof.
  intros Hk. unfold edivr, emulr. assert (Hi : 0 < / k) by (apply Rinv_0_lt_compat; auto).
  destruct a as [|r|]; simpl; destruct (Rlt_dec 0 (/ k)); try lra; simpl; try tauto.
  all: assert (Hr : r = k * (r * / k)) by (field; lra).
  all: remember (r * / k) as y; split; intros H; nra.
Qed.
Lemma edivr_neg_le a k x : k < 0 -> (ele (edivr a k) (Fin x) <-> ele (Fin (k * x)) a).
Proof.
  intros Hk. unfold edivr, emulr. assert (Hi : / k < 0) by (apply Rinv_lt_0_compat; auto).
  destruct a as [|r|]; simpl; destruct (Rlt_dec 0 (/ k)); try lra; simpl; try tauto.
  all: assert (Hr : r = k * (r * / k)) by (field; lra).
  all: remember (r * / k) as y; split; intros H; nra.
Qed.
Lemma edivr_neg_ge a k x : k < 0 -> (ele (Fin x) (edivr a k) <-> ele a (Fin (k * x))).
Proof.
  intros Hk. unfold edivr, emulr. assert (Hi : / k < 0) by (apply Rinv_lt_0_compat; auto).
  destruct a as [|r|]; simpl; destruct (Rlt_dec 0 (/ k)); try lra; simpl; try tauto.
  all: assert (Hr : r = k * (r * / k)) by (field; lra).
  all: remember (r * / k) as y; split; intros H; nra.
Qed.

(* ------------------------------------------------------------------ *)
(** * Boolean comparisons on reals *)
Definition Rltb (x y : R) : bool := if Rlt_dec x y then true else false.
Definition Rleb (x y : R) : bool := if Rle_dec x y then true else false.
Definition Reqb (x y : R) : bool := if Req_EM_T x y then true else false.

Lemma Rltb_true x y : Rltb x y = true <-> x < y.
Proof. unfold Rltb. destruct (Rlt_dec x y); split; auto; congruence. Qed.
Lemma Rltb_false x y : Rltb x y = false <-> y <= x.
Proof. unfold Rltb. destruct (Rlt_dec x y); split; intros; try congruence; lra. Qed.
Lemma Rleb_true x y : Rleb x y = true <-> x <= y.
Proof. unfold Rleb. destruct (Rle_dec x y); split; auto; congruence. Qed.
Lemma Rleb_false x y : Rleb x y = false <-> y < x.
Proof. unfold Rleb. destruct (Rle_dec x y); split; intros; try congruence; lra. Qed.
Lemma Reqb_true x y : Reqb x y = true <-> x = y.
Proof. unfold Reqb. destruct (Req_EM_T x y); split; auto; congruence. Qed.
Lemma Reqb_false x y : Reqb x y = false <-> x <> y.
Proof. unfold Reqb. destruct (Req_EM_T x y); split; intros; try congruence; tauto. Qed.

(** Decide real comparisons appearing in boolean tests. *)
Ltac rdec :=
  repeat match goal with
  | |- context [Rltb ?x ?y] => let E := fresh "E" in destruct (Rltb x y) eqn:E;
        [rewrite Rltb_true in E|rewrite Rltb_false in E]
  | |- context [Rleb ?x ?y] => let E := fresh "E" in destruct (Rleb x y) eqn:E;
        [rewrite Rleb_true in E|rewrite Rleb_false in E]
  | H : context [Rltb ?x ?y] |- _ => let E := fresh "E" in destruct (Rltb x y) eqn:E;
        [rewrite Rltb_true in E|rewrite Rltb_false in E]
  | H : context [Rleb ?x ?y] |- _ => let E := fresh "E" in destruct (Rleb x y) eqn:E;
        [rewrite Rleb_true in E|rewrite Rleb_false in E]
  end.
