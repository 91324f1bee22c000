(** Lemmas about full Jacobians. *)
From Verif Require Export Lists JacModel.
Open Scope R_scope.

Lemma vec_at_lt' {A} (l : list A) i : (i < length l)%nat -> exists a, nth_error l i = Some a /\ vec_at l i = Ok a.
Proof.
  intros H. destruct (nth_error l i) eqn:E; [exists a; split; auto; apply vec_at_Ok; auto|]. apply nth_error_None in E. lia.
Qed.
Lemma firstn_S_nth' {A} (l : list A) j a : nth_error l j = Some a -> firstn (S j) l = firstn j l ++ [a].
Proof.
  revert j; induction l as [|b l IH]; intros [|j] H; simpl in *; try discriminate; [inversion H; auto|].
  f_equal. apply IH; auto.
Qed.
Lemma posInDof_S mb i : (i < length (joints mb))%nat -> jointPosInDof mb (S i) = (jointPosInDof mb i + jointDof mb i)%nat.
Proof.
  intros H. destruct (vec_at_lt' (joints mb) i H) as (a & E & _). unfold jointPosInDof, jointDof. rewrite E.
  rewrite (firstn_S_nth' _ _ _ E), map_app, sumnat_app. simpl. lia.
Qed.
Lemma posInDof_mono mb a b : (a <= b)%nat -> (jointPosInDof mb a <= jointPosInDof mb b)%nat.
Proof.
  intros H. unfold jointPosInDof. rewrite <- (firstn_skipn a (firstn b (joints mb))), map_app, sumnat_app, firstn_firstn, Nat.min_l by auto. lia.
Qed.
Lemma posInDof_le mb i : (i < length (joints mb))%nat -> (jointPosInDof mb i + jointDof mb i <= nrDof mb)%nat.
Proof.
  intros H. rewrite <- posInDof_S by auto. unfold jointPosInDof, nrDof.
  rewrite <- (firstn_skipn (S i) (joints mb)) at 2. rewrite map_app, sumnat_app. lia.
Qed.
Lemma posInDof_disjoint mb i i' c : (i < length (joints mb))%nat -> (i' < length (joints mb))%nat -> i <> i' ->
  (jointPosInDof mb i <= c < jointPosInDof mb i + jointDof mb i)%nat ->
  ~ (jointPosInDof mb i' <= c < jointPosInDof mb i' + jointDof mb i')%nat.
Proof.
  intros H H' N C C'. destruct (Nat.lt_total i i') as [L|[L|L]]; [|congruence|].
  - pose proof (posInDof_mono mb (S i) i' L). rewrite posInDof_S in * by auto. lia.
  - pose proof (posInDof_mono mb (S i') i L). rewrite posInDof_S in * by auto. lia.
Qed.
Lemma in_pathCols mb path c : In c (pathCols mb path) <-> exists i, In i path /\ (jointPosInDof mb i <= c < jointPosInDof mb i + jointDof mb i)%nat.
Proof.
  unfold pathCols. rewrite in_flat_map. split; intros (i & H & K); exists i; split; auto; apply in_seq; auto.
Qed.
Lemma pathCols_length mb path : length (pathCols mb path) = pathDof mb path.
Proof. unfold pathCols, pathDof. induction path as [|i p IH]; simpl; [auto|]. rewrite app_length, seq_length, IH. auto. Qed.

Lemma jacDot_cons mb i p f x :
  jacDot mb (i :: p) f x =
  sumn (jointDof mb i) (fun k => f k * x (jointPosInDof mb i + k)%nat) + jacDot mb p (fun c => f (jointDof mb i + c)%nat) x.
Proof.
  unfold jacDot. unfold pathDof at 1. simpl map. simpl sumnat. fold (pathDof mb p). rewrite sumn_split. f_equal.
  - apply sumn_ext. intros k Hk. unfold pathCols. simpl. rewrite app_nth1 by (rewrite seq_length; auto). rewrite seq_nth by auto. reflexivity.
  - apply sumn_ext. intros k Hk. unfold pathCols. simpl. rewrite app_nth2 by (rewrite seq_length; lia).
    rewrite seq_length. replace (jointDof mb i + k - jointDof mb i)%nat with k by lia. reflexivity.
Qed.
Lemma jacDot_ext mb p f g x y : (forall c, (c < pathDof mb p)%nat -> f c = g c) ->
  (forall j, In j (pathCols mb p) -> x j = y j) -> jacDot mb p f x = jacDot mb p g y.
Proof.
  intros H K. unfold jacDot. apply sumn_ext. intros c Hc. rewrite H by auto. f_equal. apply K. apply nth_In. rewrite pathCols_length. auto.
Qed.
Lemma jacDot_plus mb p f g x : jacDot mb p (fun c => f c + g c) x = jacDot mb p f x + jacDot mb p g x.
Proof. unfold jacDot. rewrite <- sumn_plus. apply sumn_ext. intros; ring. Qed.
Lemma jacDot_scal mb p k f x : jacDot mb p (fun c => k * f c) x = k * jacDot mb p f x.
Proof. unfold jacDot. rewrite <- sumn_scal. apply sumn_ext. intros; ring. Qed.
Lemma jacDot_sumn mb p n (f : nat -> nat -> R) x : jacDot mb p (fun c => sumn n (fun k => f k c)) x = sumn n (fun k => jacDot mb p (f k) x).
Proof.
  unfold jacDot. rewrite sumn_swap. apply sumn_ext. intros c Hc. rewrite sumn_scal_r. reflexivity.
Qed.

(** Effect of the loop: definedness, entries outside the path, product with a vector. *)
Lemma fullLoop_spec mb small : forall path pos r,
  wfPath mb path -> (pos + pathDof mb path <= mcols small)%nat -> (mrows small <= mrows r)%nat -> (nrDof mb <= mcols r)%nat ->
  exists r', fullLoop mb path small pos r = Ok r' /\ mrows r' = mrows r /\ mcols r' = mcols r /\
    (forall i j, ~ ((i < mrows small)%nat /\ In j (pathCols mb path)) -> mget r' i j = mget r i j) /\
    (forall i x, (i < mrows small)%nat -> (forall j, In j (pathCols mb path) -> mget r i j = 0) ->
       sumn (nrDof mb) (fun j => mget r' i j * x j) =
       sumn (nrDof mb) (fun j => mget r i j * x j) + jacDot mb path (fun c => mget small i (pos + c)%nat) x).
Proof.
  induction path as [|i p IH]; intros pos r (HN & HI) HP HR HC; simpl.
  - exists r. split; [auto|]. split; [auto|]. split; [auto|]. split; [auto|]. intros. unfold jacDot. simpl. ring.
  - inversion HN as [|? ? Hi HN']; subst.
    assert (Li : (i < length (joints mb))%nat) by (apply HI; simpl; auto).
    destruct (vec_at_lt' (joints mb) i Li) as (j & Ej & E). rewrite E. simpl.
    assert (Dj : jointDof mb i = jdof j) by (unfold jointDof; rewrite Ej; auto).
    unfold pathDof in HP. simpl in HP. fold (pathDof mb p) in HP. rewrite Dj in HP.
    unfold mblock. replace ((0 + mrows small <=? mrows small) && (pos + jdof j <=? mcols small))%nat with true
      by (symmetry; rewrite andb_true_iff, !Nat.leb_le; lia). simpl.
    pose proof (posInDof_le mb i Li) as PL. rewrite Dj in PL.
    destruct (mset_block r 0 (jointPosInDof mb i) (mkMat (mrows small) (jdof j) (fun i0 j0 => mget small i0 (pos + j0)%nat))) as [r1| |] eqn:E1.
    2,3: unfold mset_block in E1; simpl in E1; replace ((mrows small <=? mrows r) && (jointPosInDof mb i + jdof j <=? mcols r))%nat with true in E1
      by (symmetry; rewrite andb_true_iff, !Nat.leb_le; lia); discriminate.
    simpl. pose proof E1 as E1'. apply mset_block_Ok in E1' as (A1 & A2 & A3 & A4 & A5). simpl in *.
    destruct (IH (pos + jdof j)%nat r1) as (r' & B1 & B2 & B3 & B4 & B5); try lia.
    { split; auto. }
    exists r'. split; [exact B1|]. split; [lia|]. split; [lia|]. split.
    + intros a b N. rewrite B4.
      * rewrite A5. destruct (inr 0 (mrows small) a && inr (jointPosInDof mb i) (jdof j) b) eqn:C; [|auto].
        apply andb_true_iff in C as (C1 & C2). apply inr_true in C1. apply inr_true in C2. exfalso. apply N. split; [lia|].
        apply in_or_app. left. apply in_seq. rewrite Dj. lia.
      * intros (C1 & C2). apply N. split; auto. apply in_or_app. auto.
    + intros a x La Z. rewrite B5; auto.
      * rewrite jacDot_cons, Dj.
        assert (S : sumn (nrDof mb) (fun j0 => mget r1 a j0 * x j0) =
                    sumn (nrDof mb) (fun j0 => mget r a j0 * x j0) + sumn (jdof j) (fun k => mget small a (pos + k)%nat * x (jointPosInDof mb i + k)%nat)).
        { assert (W : forall j0, (j0 < nrDof mb)%nat -> mget r1 a j0 * x j0 = mget r a j0 * x j0 +
                      (if inr (jointPosInDof mb i) (jdof j) j0 then mget small a (pos + (j0 - jointPosInDof mb i))%nat * x j0 else 0)).
          { intros j0 _. rewrite A5. replace (inr 0 (mrows small) a) with true by (symmetry; apply inr_true; lia). simpl.
            destruct (inr (jointPosInDof mb i) (jdof j) j0) eqn:C; [|ring]. rewrite Nat.sub_0_r. apply inr_true in C. rewrite (Z j0); [ring|].
            apply in_or_app. left. apply in_seq. lia. }
          rewrite (sumn_ext _ _ _ W), sumn_plus. f_equal.
          rewrite (sumn_window (nrDof mb) (jointPosInDof mb i) (jdof j)).
          - apply sumn_ext. intros k Hk. replace (inr (jointPosInDof mb i) (jdof j) (jointPosInDof mb i + k)) with true by (symmetry; apply inr_true; lia).
            f_equal. f_equal. lia.
          - lia.
          - intros k _ Hk. replace (inr (jointPosInDof mb i) (jdof j) k) with false by (symmetry; apply inr_false; lia). reflexivity. }
        rewrite S, Rplus_assoc. f_equal. f_equal. apply jacDot_ext; auto. intros. f_equal. lia.
      * intros b Hb. rewrite A5. destruct (inr 0 (mrows small) a && inr (jointPosInDof mb i) (jdof j) b) eqn:C; [|apply Z; apply in_or_app; auto].
        apply andb_true_iff in C as (C1 & C2). apply inr_true in C2. apply in_pathCols in Hb as (i' & Hi' & Hc).
        exfalso. apply (posInDof_disjoint mb i i' b Li); [apply HI; simpl; auto|intros ->; auto|lia|exact Hc].
Qed.

Lemma fullJacobian_spec mb path small r :
  wfPath mb path -> (pathDof mb path <= mcols small)%nat -> (mrows small <= mrows r)%nat -> (nrDof mb <= mcols r)%nat ->
  exists r', fullJacobian mb path small r = Ok r' /\ mrows r' = mrows r /\ mcols r' = mcols r /\
    (forall i j, (i < mrows small)%nat -> (j < nrDof mb)%nat -> ~ In j (pathCols mb path) -> mget r' i j = 0) /\
    (forall i x, (i < mrows small)%nat ->
       sumn (nrDof mb) (fun j => mget r' i j * x j) = jacDot mb path (fun c => mget small i c) x).
Proof.
  intros HW HP HR HC. unfold fullJacobian.
  destruct (mset_block r 0 0 (mzero (mrows small) (nrDof mb))) as [r0| |] eqn:E1.
  2,3: unfold mset_block in E1; simpl in E1; replace ((mrows small <=? mrows r) && (nrDof mb <=? mcols r))%nat with true in E1
      by (symmetry; rewrite andb_true_iff, !Nat.leb_le; lia); discriminate.
  simpl. apply mset_block_Ok in E1 as (A1 & A2 & A3 & A4 & A5). simpl in *.
  assert (Z : forall i j, (i < mrows small)%nat -> (j < nrDof mb)%nat -> mget r0 i j = 0).
  { intros i j Hi Hj. rewrite A5. replace (inr 0 (mrows small) i) with true by (symmetry; apply inr_true; lia).
    replace (inr 0 (nrDof mb) j) with true by (symmetry; apply inr_true; lia). reflexivity. }
  destruct (fullLoop_spec mb small path 0 r0) as (r' & B1 & B2 & B3 & B4 & B5); auto; try lia.
  exists r'. split; [auto|]. split; [lia|]. split; [lia|]. split.
  - intros i j Hi Hj N. rewrite B4 by tauto. auto.
  - intros i x Hi. rewrite B5; auto.
    + rewrite sumn_0; [simpl; ring|]. intros j Hj. rewrite Z by auto. ring.
    + intros j Hj. apply Z; auto. apply in_pathCols in Hj as (k & Hk & Hc). destruct HW as (_ & HI). pose proof (posInDof_le mb k (HI k Hk)). lia.
Qed.
