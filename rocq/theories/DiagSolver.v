(** A small numerical solver, used by the examples only: it solves unconstrained problems with a
    positive diagonal matrix and reports failure on all the others. It shows that the hypothesis
    [contract] of the theorems about solve() is met by an actual solver. *)
From Verif Require Import FillSpec.

Definition freeBox (XL XU : vec ext) : bool :=
  forallb (fun i => match vget XL i, vget XU i with NInf, PInf => true | _, _ => false end) (seq 0 (vlen XL)).
Definition diagPos (Q : mat) : bool :=
  forallb (fun i => Rltb 0 (mget Q i i) &&
                    forallb (fun j => Nat.eqb i j || Reqb (mget Q i j) 0) (seq 0 (mrows Q))) (seq 0 (mrows Q)).
Definition diagMin (Q : mat) (C : vec R) : vec R := mkVec (mrows Q) (fun i => - vget C i / mget Q i i).

Definition solveS (p : problemS) : bool * vec R :=
  if (Nat.eqb (mrows (psAeq p)) 0 && Nat.eqb (mrows (psAin p)) 0 && freeBox (psXL p) (psXU p) && diagPos (psQ p))%bool
  then (true, diagMin (psQ p) (psC p)) else (false, vfill (mrows (psQ p)) 0).
Definition solveG (p : problemG) : bool * vec R :=
  if (Nat.eqb (mrows (pgA p)) 0 && freeBox (pgXL p) (pgXU p) && diagPos (pgQ p))%bool
  then (true, diagMin (pgQ p) (pgC p)) else (false, vfill (mrows (pgQ p)) 0).
Definition diagSolver : numeric := mkNum solveS solveG.

Lemma forallb_seq f n : forallb f (seq 0 n) = true <-> forall i, (i < n)%nat -> f i = true.
Proof.
  rewrite forallb_forall. split; intros H i Hi; apply H; [apply in_seq; lia|apply in_seq in Hi; lia].
Qed.
Lemma diagPos_spec Q : diagPos Q = true <->
  forall i, (i < mrows Q)%nat -> 0 < mget Q i i /\ forall j, (j < mrows Q)%nat -> i <> j -> mget Q i j = 0.
Proof.
  unfold diagPos. rewrite forallb_seq. split; intros H i Hi; specialize (H i Hi).
  - rewrite andb_true_iff, Rltb_true, forallb_seq in H. destruct H as [H1 H2]. split; auto.
    intros j Hj Hne. specialize (H2 j Hj). rewrite orb_true_iff, Nat.eqb_eq, Reqb_true in H2. tauto.
  - rewrite andb_true_iff, Rltb_true, forallb_seq. destruct H as [H1 H2]. split; auto.
    intros j Hj. rewrite orb_true_iff, Nat.eqb_eq, Reqb_true.
    destruct (Nat.eq_dec i j); auto.
Qed.
Lemma freeBox_spec XL XU : freeBox XL XU = true <-> forall i, (i < vlen XL)%nat -> vget XL i = NInf /\ vget XU i = PInf.
Proof.
  unfold freeBox. rewrite forallb_seq. split; intros H i Hi; specialize (H i Hi);
    destruct (vget XL i), (vget XU i); try discriminate; auto; destruct H; discriminate.
Qed.

Lemma diag_cost Q C y : diagPos Q = true ->
  qpcost (mrows Q) (mget Q) (vget C) y = sumn (mrows Q) (fun i => mget Q i i * (y i * y i) / 2 + vget C i * y i).
Proof.
  rewrite diagPos_spec. intros H. unfold qpcost, quad, lin. rewrite sumn_plus. f_equal.
  unfold Rdiv. rewrite <- sumn_scal_r. apply sumn_ext. intros i Hi. f_equal.
  rewrite (sumn_delta _ i); [ring|auto|]. intros j Hj Hne. rewrite (proj2 (H i Hi) j) by auto. ring.
Qed.
Lemma diag_min Q C y : diagPos Q = true ->
  qpcost (mrows Q) (mget Q) (vget C) (vget (diagMin Q C)) <= qpcost (mrows Q) (mget Q) (vget C) y.
Proof.
  intros H. rewrite !diag_cost by auto. apply sumn_le. intros i Hi. simpl.
  rewrite diagPos_spec in H. destruct (H i Hi) as [Hp _]. set (q := mget Q i i) in *. set (c := vget C i).
  assert (E : q * (y i * y i) / 2 + c * y i - (q * (- c / q * (- c / q)) / 2 + c * (- c / q))
              = (q * (y i + c / q) * (y i + c / q)) / 2) by (field; lra).
  assert (0 <= q * (y i + c / q) * (y i + c / q)).
  { replace (q * (y i + c / q) * (y i + c / q)) with (q * ((y i + c / q) * (y i + c / q))) by ring.
    apply Rmult_le_pos; [lra|]. apply Rle_0_sqr. }
  lra.
Qed.

Lemma diagSolver_contract : contract diagSolver.
Proof.
  split; [|split; [|split]]; simpl.
  - intros p. unfold solveS. destruct (_ && _ && _ && _)%bool; reflexivity.
  - intros p. unfold solveG. destruct (_ && _ && _)%bool; reflexivity.
  - intros p x. unfold solveS. destruct (_ && _ && _ && _)%bool eqn:E; intros H; inversion H; subst x; clear H.
    rewrite !andb_true_iff, !Nat.eqb_eq in E. destruct E as [[[E1 E2] E3] E4]. split.
    + split; [intros i Hi; lia|]. split; [intros i Hi; lia|]. intros i Hi. rewrite freeBox_spec in E3.
      destruct (E3 i Hi) as [-> ->]. split; exact I.
    + intros y _. apply diag_min; auto.
  - intros p x. unfold solveG. destruct (_ && _ && _)%bool eqn:E; intros H; inversion H; subst x; clear H.
    rewrite !andb_true_iff, !Nat.eqb_eq in E. destruct E as [[E1 E3] E4]. split.
    + split; [intros i Hi; lia|]. intros i Hi. rewrite freeBox_spec in E3.
      destruct (E3 i Hi) as [-> ->]. split; exact I.
    + intros y _. apply diag_min; auto.
Qed.

(** When it succeeds. *)
Lemma solveS_true p : mrows (psAeq p) = 0%nat -> mrows (psAin p) = 0%nat -> freeBox (psXL p) (psXU p) = true ->
  diagPos (psQ p) = true -> solveS p = (true, diagMin (psQ p) (psC p)).
Proof. intros A B C D. unfold solveS. rewrite A, B, C, D. reflexivity. Qed.
Lemma solveG_true p : mrows (pgA p) = 0%nat -> freeBox (pgXL p) (pgXU p) = true ->
  diagPos (pgQ p) = true -> solveG p = (true, diagMin (pgQ p) (pgC p)).
Proof. intros A B C. unfold solveG. rewrite A, B, C. reflexivity. Qed.
