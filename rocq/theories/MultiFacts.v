(** Lemmas about the multi-robot tasks. *)
From Verif Require Import LayoutProofs ContactRowsProofs SetPointFacts.
From Verif Require Export MultiModel SetPointSpec LayoutSpec.
From Coq Require Import Lra.
Open Scope list_scope.
Open Scope R_scope.
Local Arguments sumn : simpl never.

(** ** Vocabulary *)

(** J x of robot [r], x read at its variables. *)
Definition robotAcc (d : solverData) (r : nat) (J : mat) (x : nat -> R) (k : nat) : R :=
  match alphaDBegin d r with Ok b => sumn (mcols J) (fun j => mget J k j * x (b + j)%nat) | _ => 0 end.
(** Acceleration of all robots together: stacked Jacobian times x. *)
Fixpoint jointAcc (d : solverData) (rs : list nat) (Js : list mat) (x : nat -> R) (k : nat) : R :=
  match rs, Js with r :: rs', J :: Js' => robotAcc d r J x k + jointAcc d rs' Js' x k | _, _ => 0 end.
(** 1/2 sum_k W_k (sum_i J_i x - a)_k^2, the documented problem. *)
Definition together (m : nat) (d : solverData) (rs : list nat) (Js : list mat) (W a : nat -> R) (x : nat -> R) : R :=
  / 2 * sumn m (fun k => W k * (jointAcc d rs Js x k - a k) ^ 2).
(** sum_i 1/2 sum_k W_k (J_i x - a)_k^2: every robot on its own for the whole acceleration. *)
Fixpoint separate (d : solverData) (rs : list nat) (Js : list mat) (W a : nat -> R) (x : nat -> R) : R :=
  match rs, Js with
  | r :: rs', J :: Js' => / 2 * sumn (mrows J) (fun k => W k * (robotAcc d r J x k - a k) ^ 2) + separate d rs' Js' W a x
  | _, _ => 0
  end.
(** The acceleration the task asks for: stiffness times error, minus damping times speed, minus the normal acceleration. *)
Definition asked (k : R) (o : mrOut) (i : nat) : R := k * vget (mrEval o) i - 2 * sqrt k * vget (mrSpeed o) i - vget (mrNAcc o) i.

Definition mtGiveD (o : mtOp) : option (option solverData) := match o with MtNrVars d => Some (Some d) | _ => None end.
Definition mtGiveK (o : mtOp) : option R := match o with MtStiffness k => Some k | _ => None end.
Definition mtGiveDim (o : mtOp) : option (vec R) := match o with MtDim W => Some W | _ => None end.
Definition mtGiveW (o : mtOp) : option R := match o with MtWeight w => Some w | _ => None end.
(** Histories: every updateNrVars gets data of the robots [mbs], every update those of the last updateNrVars. *)
Fixpoint mtHist (mbs : list multibody) (od : option solverData) (ops : list mtOp) : Prop :=
  match ops with
  | [] => True
  | MtNrVars d :: ops' => (exists uni bi deps, nrVarsData mbs uni bi = Ok (d, deps)) /\ mtHist mbs (Some d) ops'
  | MtUpdate d _ :: ops' => od = Some d /\ mtHist mbs od ops'
  | _ :: ops' => mtHist mbs od ops'
  end.

(** ** Lists of blocks *)
Definition blk : Type := nat * mat * vec R.
Definition inBlk (b : blk) (i : nat) : bool := inr (fst (fst b)) (mrows (snd (fst b))) i.
Definition sqBlk (b : blk) : Prop := mcols (snd (fst b)) = mrows (snd (fst b)) /\ vlen (snd b) = mrows (snd (fst b)).
Fixpoint setAll (bs : list blk) (Q : mat) (C : vec R) : res (mat * vec R) :=
  match bs with [] => Ok (Q, C) | (p, Qi, Ci) :: bs' => do Q' <- mset_block Q p p Qi; do C' <- vset_seg C p Ci; setAll bs' Q' C' end.
Fixpoint addAll (bs : list blk) (Q : mat) (C : vec R) : res (mat * vec R) :=
  match bs with [] => Ok (Q, C) | (p, Qi, Ci) :: bs' => do Q' <- madd_block Q p p Qi; do C' <- vadd_seg C p Ci; addAll bs' Q' C' end.
Fixpoint qsum (bs : list blk) (a b : nat) : R :=
  match bs with [] => 0 | k :: bs' => (if inBlk k a && inBlk k b then mget (snd (fst k)) (a - fst (fst k)) (b - fst (fst k)) else 0) + qsum bs' a b end.
Fixpoint vsum (bs : list blk) (a : nat) : R :=
  match bs with [] => 0 | k :: bs' => (if inBlk k a then vget (snd k) (a - fst (fst k)) else 0) + vsum bs' a end.
Fixpoint disj (bs : list blk) : Prop := match bs with [] => True | k :: bs' => (forall k', In k' bs' -> forall i, inBlk k i && inBlk k' i = false) /\ disj bs' end.
Definition inAny (bs : list blk) (a b : nat) : bool := existsb (fun k => inBlk k a && inBlk k b) bs.
Definition fits (n : nat) (bs : list blk) : Prop := forall k, In k bs -> (fst (fst k) + mrows (snd (fst k)) <= n)%nat.

Lemma qsum_out bs a b : inAny bs a b = false -> qsum bs a b = 0.
Proof. induction bs as [|k bs IH]; cbn; auto. intros H. apply orb_false_iff in H as (H1 & H2). rewrite H1, IH by exact H2. ring. Qed.
Lemma vsum_out bs a : inAny bs a a = false -> vsum bs a = 0.
Proof. induction bs as [|k bs IH]; cbn; auto. intros H. apply orb_false_iff in H as (H1 & H2). rewrite andb_diag in H1. rewrite H1, IH by exact H2. ring. Qed.
Lemma later_out k bs a b : (forall k', In k' bs -> forall i, inBlk k i && inBlk k' i = false) -> inAny bs a b = true -> inBlk k a = false /\ inBlk k b = false.
Proof.
  intros D H. apply existsb_exists in H as (k' & I & H). apply andb_true_iff in H as (H1 & H2). pose proof (D k' I a) as X. pose proof (D k' I b) as Y. rewrite H1, andb_true_r in X. rewrite H2, andb_true_r in Y. auto.
Qed.
Lemma setAll_Ok : forall bs Q C Q' C', Forall sqBlk bs -> disj bs -> setAll bs Q C = Ok (Q', C') ->
  mrows Q' = mrows Q /\ mcols Q' = mcols Q /\ vlen C' = vlen C /\ fits (mrows Q) bs /\
  (forall a b, mget Q' a b = if inAny bs a b then qsum bs a b else mget Q a b) /\ (forall a, vget C' a = if inAny bs a a then vsum bs a else vget C a).
Proof.
  induction bs as [|((p & Qi) & Ci) bs IH]; intros Q C Q' C' F D H; cbn [setAll] in H.
  - injection H as <- <-. repeat split; auto. intros k [].
  - apply Forall_cons_iff in F as ((F1 & F2) & F). destruct D as (D1 & D). cbn [fst snd] in F1, F2. apply bind_Ok in H as (Q1 & H1 & H). apply bind_Ok in H as (C1 & H2 & H).
    apply mset_block_Ok in H1 as (B1 & B2 & B3 & B4 & B5). apply vset_seg_Ok in H2 as (V1 & V2 & V3). apply (IH _ _ _ _ F D) in H as (R1 & R2 & R3 & R4 & R5 & R6).
    split; [congruence|]. split; [congruence|]. split; [congruence|]. split; [|split].
    + intros k [<-|I]; [exact B1|]. rewrite <- B3. apply R4. exact I.
    + intros a b. rewrite R5. cbn [inAny existsb qsum]. fold (inAny bs a b). destruct (inAny bs a b) eqn:E.
      * rewrite orb_true_r. destruct (later_out _ _ _ _ D1 E) as (-> & _). cbn. ring.
      * rewrite orb_false_r, qsum_out by exact E. rewrite B5, F1. unfold inBlk. cbn [fst snd]. destruct (_ && _)%bool; [ring|reflexivity].
    + intros a. rewrite R6. cbn [inAny existsb vsum]. fold (inAny bs a a). destruct (inAny bs a a) eqn:E.
      * rewrite orb_true_r. destruct (later_out _ _ _ _ D1 E) as (-> & _). ring.
      * rewrite orb_false_r, vsum_out by exact E. rewrite V3, F2, andb_diag. unfold inBlk. cbn [fst snd]. destruct (inr _ _ _); [ring|reflexivity].
Qed.
Lemma addAll_Ok : forall bs Q C Q' C', Forall sqBlk bs -> addAll bs Q C = Ok (Q', C') ->
  mrows Q' = mrows Q /\ mcols Q' = mcols Q /\ vlen C' = vlen C /\ fits (mrows Q) bs /\
  (forall a b, mget Q' a b = mget Q a b + qsum bs a b) /\ (forall a, vget C' a = vget C a + vsum bs a).
Proof.
  induction bs as [|((p & Qi) & Ci) bs IH]; intros Q C Q' C' F H; cbn [addAll] in H.
  - injection H as <- <-. repeat split; auto; try (intros; cbn; ring). intros k [].
  - apply Forall_cons_iff in F as ((F1 & F2) & F). cbn [fst snd] in F1, F2. apply bind_Ok in H as (Q1 & H1 & H). apply bind_Ok in H as (C1 & H2 & H).
    apply madd_block_Ok in H1 as (B1 & B2 & B3 & B4 & B5). apply vadd_seg_Ok in H2 as (V1 & V2 & V3). apply (IH _ _ _ _ F) in H as (R1 & R2 & R3 & R4 & R5 & R6).
    split; [congruence|]. split; [congruence|]. split; [congruence|]. split; [|split].
    + intros k [<-|I]; [exact B1|]. rewrite <- B3. apply R4. exact I.
    + intros a b. rewrite R5. cbn [qsum]. rewrite B5, F1. unfold inBlk. cbn [fst snd]. destruct (_ && _)%bool; ring.
    + intros a. rewrite R6. cbn [vsum]. rewrite V3, F2. unfold inBlk. cbn [fst snd]. destruct (inr _ _ _); ring.
Qed.

(** The cost of a sum of blocks. *)
Definition blkCost (B : nat) (x : nat -> R) (k : blk) : R :=
  sumn (mrows (snd (fst k))) (fun i => sumn (mrows (snd (fst k))) (fun j => x (B + (fst (fst k) + i))%nat * mget (snd (fst k)) i j * x (B + (fst (fst k) + j))%nat)) / 2
  + sumn (mrows (snd (fst k))) (fun i => vget (snd k) i * x (B + (fst (fst k) + i))%nat).
Fixpoint blksCost (B : nat) (x : nat -> R) (bs : list blk) : R := match bs with [] => 0 | k :: bs' => blkCost B x k + blksCost B x bs' end.
Lemma blks_cost n B x : forall bs, fits n bs ->
  sumn n (fun a => sumn n (fun b => x (B + a)%nat * qsum bs a b * x (B + b)%nat)) / 2 + sumn n (fun a => vsum bs a * x (B + a)%nat) = blksCost B x bs.
Proof.
  induction bs as [|k bs IH]; intros F; cbn [qsum vsum blksCost].
  - rewrite !sumn_0; [field| |]; intros; [|apply sumn_0; intros]; ring.
  - rewrite <- IH by (intros k' I; apply F; right; exact I). destruct k as ((p & Qi) & Ci). pose proof (F (p, Qi, Ci) (or_introl eq_refl)) as L. cbn [fst snd] in *. set (m := mrows Qi) in *.
    unfold blkCost. cbn [fst snd]. fold m.
    rewrite (sumn_ext n _ (fun a => sumn n (fun b => x (B + a)%nat * (if inr p m a && inr p m b then mget Qi (a - p) (b - p) else 0) * x (B + b)%nat) + sumn n (fun b => x (B + a)%nat * qsum bs a b * x (B + b)%nat))).
    2:{ intros a _. rewrite <- sumn_plus. apply sumn_ext. intros b _. unfold inBlk. cbn [fst snd]. fold m. ring. }
    rewrite sumn_plus. rewrite (sumn_ext n (fun a => (_ + vsum bs a) * _) (fun a => (if inr p m a then vget Ci (a - p) else 0) * x (B + a)%nat + vsum bs a * x (B + a)%nat)) by (intros a _; unfold inBlk; cbn [fst snd]; fold m; ring).
    rewrite sumn_plus. rewrite (sumn_window n p m (fun a => sumn n _) L).
    2:{ intros i _ Hi. apply sumn_0. intros j _. replace (inr p m i) with false; [cbn; ring|]. symmetry. unfold inr. destruct (Nat.leb_spec p i), (Nat.ltb_spec i (p + m)); cbn; auto; lia. }
    rewrite (sumn_window n p m (fun a => (if inr p m a then _ else _) * _) L).
    2:{ intros i _ Hi. replace (inr p m i) with false; [ring|]. symmetry. unfold inr. destruct (Nat.leb_spec p i), (Nat.ltb_spec i (p + m)); cbn; auto; lia. }
    rewrite (sumn_ext m (fun i => sumn n (fun b => x (B + (p + i))%nat * _ * _)) (fun i => sumn m (fun j => x (B + (p + i))%nat * mget Qi i j * x (B + (p + j))%nat))).
    2:{ intros i Hi. rewrite (sumn_window n p m _ L).
        - apply sumn_ext. intros j Hj. replace (inr p m (p + i)) with true by (symmetry; apply inr_true; lia). replace (inr p m (p + j)) with true by (symmetry; apply inr_true; lia). cbn [andb]. do 2 f_equal. f_equal; lia.
        - intros j _ Hj. replace (inr p m j) with false; [rewrite andb_false_r; ring|]. symmetry. unfold inr. destruct (Nat.leb_spec p j), (Nat.ltb_spec j (p + m)); cbn; auto; lia. }
    rewrite (sumn_ext m (fun i => (if inr p m (p + i) then _ else _) * _) (fun i => vget Ci i * x (B + (p + i))%nat)).
    2:{ intros i Hi. replace (inr p m (p + i)) with true by (symmetry; apply inr_true; lia). do 2 f_equal. lia. }
    field.
Qed.

(** ** The loops *)
Fixpoint blocksFrom (d : solverData) (t : multiTask) (cs : vec R) (o : mrOut) (cnt i : nat) : res (list blk) :=
  match cnt with O => Ok [] | S cnt' => do b <- mtBlock d t cs o i; do l <- blocksFrom d t cs o cnt' (S i); Ok (b :: l) end.
Lemma comLoop_blocks d t cs o : forall cnt i Q C r, comLoop d t cs o cnt i Q C = Ok r -> exists bs, blocksFrom d t cs o cnt i = Ok bs /\ setAll bs Q C = Ok r.
Proof.
  induction cnt as [|cnt IH]; intros i Q C r H; cbn [comLoop blocksFrom] in *; [exists []; auto|]. apply bind_Ok in H as (((p & Qi) & Ci) & E & H). apply bind_Ok in H as (Q1 & H1 & H). apply bind_Ok in H as (C1 & H2 & H).
  apply IH in H as (bs & B1 & B2). rewrite E, B1. cbn [bind]. eexists. split; [reflexivity|]. cbn [setAll]. rewrite H1. cbn [bind]. rewrite H2. exact B2.
Qed.
Lemma addLoop_blocks d t cs o : forall cnt i Q C r, addLoop d t cs o cnt i Q C = Ok r -> exists bs, blocksFrom d t cs o cnt i = Ok bs /\ addAll bs Q C = Ok r.
Proof.
  induction cnt as [|cnt IH]; intros i Q C r H; cbn [addLoop blocksFrom] in *; [exists []; auto|]. apply bind_Ok in H as (((p & Qi) & Ci) & E & H). apply bind_Ok in H as (Q1 & H1 & H). apply bind_Ok in H as (C1 & H2 & H).
  apply IH in H as (bs & B1 & B2). rewrite E, B1. cbn [bind]. eexists. split; [reflexivity|]. cbn [addAll]. rewrite H1. cbn [bind]. rewrite H2. exact B2.
Qed.
(** Where the blocks are: position and number of degrees of freedom, as zero blocks. *)
Definition robotDofs (d : solverData) (r : nat) : nat := match alphaD d r with Ok n => n | _ => 0%nat end.
Definition spots (d : solverData) (rs pos : list nat) : list blk := map (fun rp => (snd rp, mzero (robotDofs d (fst rp)) (robotDofs d (fst rp)), vfill (robotDofs d (fst rp)) 0)) (combine rs pos).
Lemma skipn_S {A} (l : list A) i a : nth_error l i = Some a -> skipn i l = a :: skipn (S i) l.
Proof. revert i. induction l as [|b l IH]; intros [|i] H; cbn in *; try discriminate; [congruence|auto]. Qed.
Lemma blocksFrom_Ok d t cs o : length (mtPos t) = length (mtRobots t) -> forall cnt i bs, blocksFrom d t cs o cnt i = Ok bs -> (i + cnt = length (mtPos t))%nat ->
  map (fun b : blk => (fst (fst b), mrows (snd (fst b)))) bs = map (fun b : blk => (fst (fst b), mrows (snd (fst b)))) (spots d (skipn i (mtRobots t)) (skipn i (mtPos t))) /\ Forall sqBlk bs /\
  forall B x y, (forall r p, In (r, p) (combine (skipn i (mtRobots t)) (skipn i (mtPos t))) -> alphaDBegin d r = Ok (B + p)%nat) ->
    blksCost B x bs - blksCost B y bs = separate d (skipn i (mtRobots t)) (skipn i (mrJacs o)) (vget (mtDim t)) (vget cs) x - separate d (skipn i (mtRobots t)) (skipn i (mrJacs o)) (vget (mtDim t)) (vget cs) y.
Proof.
  intros L. induction cnt as [|cnt IH]; intros i bs H E; cbn [blocksFrom] in H.
  - injection H as <-. rewrite (skipn_all2 (mtRobots t)) by lia. cbn. split; [reflexivity|]. split; [constructor|]. intros. ring.
  - apply bind_Ok in H as (b & HB & H). apply bind_Ok in H as (l & HL & H). injection H as <-. destruct (IH (S i) l HL ltac:(lia)) as (I1 & I2 & I3). clear IH HL.
    unfold mtBlock in HB. apply bind_Ok in HB as (r & H1 & HB). apply bind_Ok in HB as (p & H2 & HB). apply bind_Ok in HB as (dof & H3 & HB). apply bind_Ok in HB as (J & H4 & HB).
    apply bind_Ok in HB as ([] & HG & HB). apply bind_Ok in HB as ((Qi & Ci) & HQ & HB). injection HB as <-. apply vec_at_Ok in H1. apply vec_at_Ok in H2. apply vec_at_Ok in H4.
    unfold guard in HG. destruct (_ && _)%bool eqn:G in HG; [|discriminate]. apply andb_true_iff in G as (G & _). apply Nat.eqb_eq in G.
    apply lsQC_Ok in HQ as (S1 & S2 & S3 & S4 & S5 & HQ & HC). rewrite (skipn_S _ _ _ H1), (skipn_S _ _ _ H2), (skipn_S _ _ _ H4).
    split; [|split].
    + cbn [map spots combine]. f_equal; [|exact I1]. cbn. rewrite S3, G. unfold robotDofs. rewrite H3. reflexivity.
    + constructor; [unfold sqBlk; cbn; split; congruence|exact I2].
    + intros B x y HB. cbn [blksCost separate]. specialize (I3 B x y ltac:(intros r' p' I; apply HB; right; exact I)).
      assert (K : forall z, blkCost B z (p, Qi, Ci) = / 2 * sumn (mrows J) (fun k => vget (mtDim t) k * (robotAcc d r J z k - vget cs k) ^ 2) - / 2 * sumn (mrows J) (fun k => vget (mtDim t) k * vget cs k ^ 2)); [|rewrite !K; lra].
      intros z. unfold blkCost, robotAcc. cbn [fst snd]. rewrite (HB r p (or_introl eq_refl)), S3.
      rewrite (sumn_ext (mcols J) (fun i => sumn _ _) (fun i => sumn (mcols J) (fun j => z (B + p + i)%nat * sumn (mrows J) (fun k => mget J k i * (vget (mtDim t) k * mget J k j)) * z (B + p + j)%nat)))
        by (intros a _; apply sumn_ext; intros b _; rewrite HQ, !Nat.add_assoc; reflexivity).
      rewrite (quadsum (mcols J) (mrows J) (fun k i => mget J k i) (vget (mtDim t)) (fun i => z (B + p + i)%nat)).
      rewrite (sumn_ext (mcols J) (fun i => vget Ci i * _) (fun i => - sumn (mrows J) (fun k => mget J k i * (vget (mtDim t) k * vget cs k)) * z (B + p + i)%nat)) by (intros a _; rewrite HC, Nat.add_assoc; reflexivity).
      rewrite (linsum (mcols J) (mrows J) (fun k i => mget J k i) (vget (mtDim t)) (vget cs) (fun i => z (B + p + i)%nat)).
      rewrite <- Rmult_minus_distr_l, <- sumn_minus, <- sumn_opp. unfold Rdiv. rewrite (Rmult_comm _ (/ 2)), <- !sumn_scal, <- sumn_plus. apply sumn_ext. intros k _. field.
Qed.
(** Only the places matter. *)
Definition places (bs : list blk) : list (nat * nat) := map (fun b : blk => (fst (fst b), mrows (snd (fst b)))) bs.
Lemma inAny_places : forall bs bs' a b, places bs = places bs' -> inAny bs a b = inAny bs' a b.
Proof.
  induction bs as [|((p & Q) & C) bs IH]; intros [|((p' & Q') & C') bs'] a b H; try discriminate; [reflexivity|]. cbn [places map fst snd] in H. injection H as H1 H2 H. cbn [inAny existsb]. unfold inBlk at 1 2 3 4. cbn [fst snd]. rewrite H1, H2. f_equal. apply IH. exact H.
Qed.
Lemma disj_places : forall bs bs', places bs = places bs' -> disj bs -> disj bs'.
Proof.
  induction bs as [|((p & Q) & C) bs IH]; intros [|((p' & Q') & C') bs'] H D; try discriminate; [exact I|]. cbn [places map fst snd] in H. injection H as H1 H2 H. assert (H' : places bs = places bs') by exact H. clear H. rename H' into H. destruct D as (D1 & D). split; [|exact (IH _ H D)].
  intros k' I i. destruct (In_nth_error _ _ I) as (q & Eq). assert (M : nth_error (places bs) q = Some (fst (fst k'), mrows (snd (fst k')))) by (rewrite H; unfold places; rewrite nth_error_map, Eq; reflexivity).
  unfold places in M. rewrite nth_error_map in M. destruct (nth_error bs q) as [k|] eqn:Ek; [|discriminate]. injection M as M1 M2. specialize (D1 k (nth_error_In _ _ Ek) i). unfold inBlk in *. cbn [fst snd] in *. rewrite <- H1, <- H2, <- M1, <- M2. exact D1.
Qed.

(** ** The layout of the robots *)
Lemma tiles_sep : forall l s e r r' b n b' n', tiles s l e -> (r < r')%nat -> nth_error l r = Some (b, n) -> nth_error l r' = Some (b', n') -> (b + n <= b')%nat.
Proof.
  induction l as [|(b0, n0) l IH]; intros s e r r' b n b' n' T L H H'; [destruct r; discriminate|]. destruct T as (-> & T). destruct r' as [|r']; [lia|]. cbn in H'.
  destruct r as [|r]; cbn in H; [injection H as <- <-; exact (proj1 (tiles_nth_ge _ _ _ _ _ _ T H'))|]. eapply (IH _ _ r r'); eauto. lia.
Qed.
Definition spans (d : solverData) (r b n : nat) : Prop := alphaDBegin d r = Ok b /\ alphaD d r = Ok n.
Lemma spans_sep mbs uni bi d deps r r' b n b' n' : nrVarsData mbs uni bi = Ok (d, deps) -> spans d r b n -> spans d r' b' n' -> (r < r')%nat -> (b + n <= b')%nat.
Proof.
  intros H (H1 & H2) (H3 & H4) L. apply nrVarsData_spec in H as (_ & E1 & _ & L1 & _ & _ & _ & _ & _ & _ & _ & _ & _ & T & _). unfold alphaDBegin, alphaD in *. apply vec_at_Ok in H1, H2, H3, H4.
  apply (tiles_sep _ _ _ r r' b n b' n' T L); apply nth_error_combine; split; assumption.
Qed.
Lemma posLoop_Ok d B : forall rs pos, posLoop d B rs = Ok pos -> length pos = length rs /\ forall r p, In (r, p) (combine rs pos) -> alphaDBegin d r = Ok (B + p)%nat.
Proof.
  induction rs as [|r rs IH]; intros pos H; cbn [posLoop] in H; [injection H as <-; split; [reflexivity|intros ? ? []]|].
  apply bind_Ok in H as (b & H1 & H). apply bind_Ok in H as (p & H2 & H). apply bind_Ok in H as (l & H3 & H). injection H as <-. destruct (IH _ H3) as (I1 & I2).
  unfold natSub in H2. apply bind_Ok in H2 as ([] & G & H2). injection H2 as <-. unfold guard in G. destruct (Nat.leb_spec B b); [|discriminate].
  split; [cbn; congruence|]. intros r' p' [E|I]; [injection E as <- <-; rewrite H1; f_equal; lia|exact (I2 _ _ I)].
Qed.
Lemma spots_disj mbs uni bi d deps B : nrVarsData mbs uni bi = Ok (d, deps) -> forall rs pos, NoDup rs ->
  (forall r p, In (r, p) (combine rs pos) -> alphaDBegin d r = Ok (B + p)%nat) -> disj (spots d rs pos).
Proof.
  intros HN. induction rs as [|r rs IH]; intros [|p pos] N H; cbn [combine spots map disj]; try exact I. apply NoDup_cons_iff in N as (N1 & N). split; [|apply IH; auto; intros r' p' I'; apply H; right; exact I'].
  intros k' I i. apply in_map_iff in I as ((r' & p') & <- & I). unfold inBlk. cbn [fst snd mrows mzero]. apply not_true_is_false. intros X. apply andb_true_iff in X as (X1 & X2). apply inr_true in X1, X2.
  pose proof (H r p (or_introl eq_refl)) as E1. pose proof (H r' p' (or_intror I)) as E2.
  assert (Q : forall q n0, (n0 < robotDofs d q)%nat -> alphaD d q = Ok (robotDofs d q)) by (intros q n0; unfold robotDofs; destruct (alphaD d q); auto; lia).
  assert (S1 : spans d r (B + p) (robotDofs d r)) by (split; [exact E1|apply (Q _ (i - p)%nat); lia]). assert (S2 : spans d r' (B + p') (robotDofs d r')) by (split; [exact E2|apply (Q _ (i - p')%nat); lia]).
  destruct (lt_eq_lt_dec r r') as [[L|E]|L]; [pose proof (spans_sep _ _ _ _ _ _ _ _ _ _ _ HN S1 S2 L); lia| |pose proof (spans_sep _ _ _ _ _ _ _ _ _ _ _ HN S2 S1 L); lia].
  apply N1. subst r'. apply in_combine_l in I. exact I.
Qed.

(** ** Histories *)
Definition isData (mbs : list multibody) (d : solverData) : Prop := exists uni bi deps, nrVarsData mbs uni bi = Ok (d, deps).
Definition mtInv (mbs : list multibody) (rs : list nat) (w k : R) (W : vec R) (od : option solverData) (t : multiTask) : Prop :=
  mtRobots t = rs /\ mtWeight t = w /\ mtK t = k /\ 0 <= k /\ mtKs t = 2 * sqrt k /\ mtDim t = W /\ length (mtPos t) = length rs /\
  forall d, od = Some d -> isData mbs d /\ posLoop d (mtBegin t) rs = Ok (mtPos t) /\ mcols (mtQ t) = mrows (mtQ t) /\ vlen (mtC t) = mrows (mtQ t) /\
    (forall a b, inAny (spots d rs (mtPos t)) a b = false -> mget (mtQ t) a b = 0) /\ (forall a, inAny (spots d rs (mtPos t)) a a = false -> vget (mtC t) a = 0).
Lemma csum_Ok k o cs : csum k (2 * sqrt k) o = Ok cs -> (forall i, vget cs i = asked k o i) /\ vlen (mrSpeed o) = vlen (mrEval o) /\ vlen (mrNAcc o) = vlen (mrEval o) /\ vlen cs = vlen (mrEval o).
Proof.
  unfold csum. intros H. apply bind_Ok in H as (e & H1 & H2). apply vminus_Ok in H1 as (A1 & A2 & A3). apply vminus_Ok in H2 as (B1 & B2 & B3). split; [|cbn in *; split; [congruence|split; congruence]].
  intros i. rewrite B3, A3. reflexivity.
Qed.
Lemma separate_ext d : forall rs Js W a a' x, (forall i, a i = a' i) -> separate d rs Js W a x = separate d rs Js W a' x.
Proof.
  induction rs as [|r rs IH]; intros [|J Js] W a a' x H; cbn [separate]; auto. rewrite (IH Js W a a' x H). do 2 f_equal. apply sumn_ext. intros k _. rewrite H. reflexivity.
Qed.
Lemma skipn_0' {A} (l : list A) : skipn 0 l = l. Proof. reflexivity. Qed.
(** What an update computes. *)
Lemma inAny_spots d r rs p pos a b : inAny (spots d (r :: rs) (p :: pos)) a b = (inr p (robotDofs d r) a && inr p (robotDofs d r) b) || inAny (spots d rs pos) a b.
Proof. reflexivity. Qed.
Lemma zeroLoop_Ok d t : length (mtPos t) = length (mtRobots t) -> forall cnt i Q C Q' C', zeroLoop d t cnt i Q C = Ok (Q', C') -> (i + cnt = length (mtPos t))%nat ->
  mrows Q' = mrows Q /\ mcols Q' = mcols Q /\ vlen C' = vlen C /\
  (forall a b, mget Q' a b = if inAny (spots d (skipn i (mtRobots t)) (skipn i (mtPos t))) a b then 0 else mget Q a b) /\
  (forall a, vget C' a = if inAny (spots d (skipn i (mtRobots t)) (skipn i (mtPos t))) a a then 0 else vget C a).
Proof.
  intros L. induction cnt as [|cnt IH]; intros i Q C Q' C' H E; cbn [zeroLoop] in H.
  - injection H as <- <-. rewrite (skipn_all2 (mtRobots t)) by lia. cbn. auto.
  - apply bind_Ok in H as (r & H1 & H). apply bind_Ok in H as (p & H2 & H). apply bind_Ok in H as (dof & H3 & H). apply bind_Ok in H as (Q1 & H4 & H). apply bind_Ok in H as (C1 & H5 & H).
    apply vec_at_Ok in H1, H2. rewrite (skipn_S _ _ _ H1), (skipn_S _ _ _ H2). apply mset_block_Ok in H4 as (B1 & B2 & B3 & B4 & B5). apply vset_seg_Ok in H5 as (V1 & V2 & V3).
    destruct (IH (S i) Q1 C1 Q' C' H ltac:(lia)) as (I1 & I2 & I3 & I4 & I5). split; [congruence|]. split; [congruence|]. split; [congruence|].
    assert (D : robotDofs d r = dof) by (unfold robotDofs; rewrite H3; reflexivity). split.
    + intros a b. rewrite inAny_spots, D, I4, B5. destruct (inAny _ a b); [rewrite orb_true_r; reflexivity|]. rewrite orb_false_r. cbn [mrows mcols mzero mget]. reflexivity.
    + intros a. rewrite inAny_spots, D, I5, V3. destruct (inAny _ a a); [rewrite orb_true_r; reflexivity|]. rewrite orb_false_r, andb_diag. cbn [vlen vfill vget]. reflexivity.
Qed.
Lemma update_Ok com mbs rs w k W d t o t' : (com = true -> NoDup rs) -> mtInv mbs rs w k W (Some d) t -> mtUpdate com d o t = Ok t' ->
  mtInv mbs rs w k W (Some d) t' /\ costs (mtTask t') w (separate d rs (mrJacs o) (vget W) (asked k o)).
Proof.
  intros N (I1 & I2 & I3 & I4 & I5 & I6 & I7 & I8) H. destruct (I8 d eq_refl) as (D1 & D2 & D3 & D4 & D5 & D6). destruct (posLoop_Ok _ _ _ _ D2) as (P1 & P2).
  assert (X : exists cs bs Q C, csum k (2 * sqrt k) o = Ok cs /\ blocksFrom d t cs o (length (mtPos t)) 0 = Ok bs /\ Forall sqBlk bs /\ places bs = places (spots d rs (mtPos t)) /\
    t' = mkMT (mtWeight t) (mtK t) (mtKs t) (mtDim t) (mtRobots t) (mtPos t) (mtBegin t) Q C (mtMax t) /\ mrows Q = mrows (mtQ t) /\ mcols Q = mrows (mtQ t) /\ vlen C = mrows (mtQ t) /\ fits (mrows Q) bs /\
    (forall a b, mget Q a b = qsum bs a b) /\ (forall a, vget C a = vsum bs a)).
  { destruct com; cbn [mtUpdate] in H.
    - unfold mcUpdate in H. apply bind_Ok in H as (cs & H1 & H). apply bind_Ok in H as ((Q & C) & H2 & H). injection H as <-. rewrite I3, I5 in H1. apply comLoop_blocks in H2 as (bs & B1 & B2).
      destruct (blocksFrom_Ok d t cs o ltac:(congruence) _ _ _ B1 ltac:(lia)) as (K1 & K2 & _). rewrite !skipn_0', I1 in K1.
      assert (KP : places bs = places (spots d rs (mtPos t))) by exact K1.
      assert (DJ : disj bs). { destruct D1 as (uni & bi & deps & HN). apply (disj_places (spots d rs (mtPos t))); [symmetry; exact KP|]. eapply spots_disj; eauto. }
      destruct (setAll_Ok _ _ _ _ _ K2 DJ B2) as (S1 & S2 & S3 & S4 & S5 & S6). exists cs, bs, Q, C.
      split; [exact H1|]. split; [exact B1|]. split; [exact K2|]. split; [exact KP|]. split; [reflexivity|]. split; [exact S1|]. split; [congruence|]. split; [congruence|]. split; [rewrite S1; exact S4|]. split.
      + intros a b. rewrite S5. destruct (inAny bs a b) eqn:E; [reflexivity|]. rewrite (qsum_out _ _ _ E). apply D5. rewrite <- (inAny_places _ _ a b KP). exact E.
      + intros a. rewrite S6. destruct (inAny bs a a) eqn:E; [reflexivity|]. rewrite (vsum_out _ _ E). apply D6. rewrite <- (inAny_places _ _ a a KP). exact E.
    - unfold mrUpdate in H. apply bind_Ok in H as (cs & H1 & H). apply bind_Ok in H as ((Q0 & C0) & H0 & H). apply bind_Ok in H as ((Q & C) & H2 & H). injection H as <-. rewrite I3, I5 in H1. apply addLoop_blocks in H2 as (bs & B1 & B2).
      destruct (blocksFrom_Ok d t cs o ltac:(congruence) _ _ _ B1 ltac:(lia)) as (K1 & K2 & _). rewrite !skipn_0', I1 in K1.
      assert (KP : places bs = places (spots d rs (mtPos t))) by exact K1.
      destruct (zeroLoop_Ok d t ltac:(congruence) _ _ _ _ _ _ H0 ltac:(lia)) as (Z1 & Z2 & Z3 & Z4 & Z5). rewrite !skipn_0', I1 in Z4, Z5.
      destruct (addAll_Ok _ _ _ _ _ K2 B2) as (S1 & S2 & S3 & S4 & S5 & S6). exists cs, bs, Q, C.
      split; [exact H1|]. split; [exact B1|]. split; [exact K2|]. split; [exact KP|]. split; [reflexivity|]. split; [congruence|]. split; [congruence|]. split; [congruence|]. split; [rewrite S1; exact S4|]. split.
      + intros a b. rewrite S5, Z4. destruct (inAny (spots d rs (mtPos t)) a b) eqn:E; [ring|]. rewrite (D5 _ _ E). ring.
      + intros a. rewrite S6, Z5. destruct (inAny (spots d rs (mtPos t)) a a) eqn:E; [ring|]. rewrite (D6 _ E). ring. }
  destruct X as (cs & bs & Q & C & X1 & X2 & X3 & X4 & -> & X6 & X7 & X8 & X9 & XQ & XC). split.
  - split; [exact I1|]. split; [exact I2|]. split; [exact I3|]. split; [exact I4|]. split; [exact I5|]. split; [exact I6|]. split; [exact I7|]. cbn [mtQ mtC mtPos mtBegin]. intros d' [= <-]. split; [exact D1|]. split; [exact D2|]. split; [congruence|]. split; [congruence|]. split.
    + intros a b E. rewrite XQ. apply qsum_out. rewrite (inAny_places _ _ a b X4). exact E.
    + intros a E. rewrite XC. apply vsum_out. rewrite (inAny_places _ _ a a X4). exact E.
  - destruct (blocksFrom_Ok d t cs o ltac:(congruence) _ _ _ X2 ltac:(lia)) as (_ & _ & K3). rewrite !skipn_0', I1, I6 in K3. destruct (csum_Ok _ _ _ X1) as (A & _).
    assert (T : forall x, taskCost (mtTask (mkMT (mtWeight t) (mtK t) (mtKs t) (mtDim t) (mtRobots t) (mtPos t) (mtBegin t) Q C (mtMax t))) x = w * blksCost (mtBegin t) x bs).
    { intros x. unfold taskCost, mtTask. cbn [tkWeight tkQ tkC tkBegin mtWeight mtQ mtC mtBegin fst snd]. rewrite I2, X7, <- X6. f_equal. rewrite <- (blks_cost (mrows Q) (mtBegin t) x bs X9). f_equal; [f_equal|]; apply sumn_ext; intros a _; [apply sumn_ext; intros b _; rewrite XQ; reflexivity|rewrite XC; reflexivity]. }
    intros x y. rewrite !T, <- Rmult_minus_distr_l, (K3 (mtBegin t) x y P2). f_equal. f_equal; apply separate_ext; exact A.
Qed.
Lemma mt_run com mbs rs : (com = true -> NoDup rs) -> forall ops w k W od t t', mtInv mbs rs w k W od t -> mtHist mbs od ops -> mtRun com ops t = Ok t' ->
  mtInv mbs rs (latest mtGiveW w ops) (latest mtGiveK k ops) (latest mtGiveDim W ops) (latest mtGiveD od ops) t'.
Proof.
  intros N. induction ops as [|op ops IH]; intros w k W od t t' I HH H; cbn [mtRun] in H; [injection H as <-; exact I|]. apply bind_Ok in H as (t1 & S1 & H).
  assert (X : mtInv mbs rs (latest mtGiveW w [op]) (latest mtGiveK k [op]) (latest mtGiveDim W [op]) (latest mtGiveD od [op]) t1 /\ mtHist mbs (latest mtGiveD od [op]) ops); [|destruct X as (X1 & X2); exact (IH _ _ _ _ _ _ X1 X2 H)].
  destruct op as [d|d o|k'|W'|w']; cbn [mtStep] in S1; unfold latest; cbn [fold_left mtGiveW mtGiveK mtGiveDim mtGiveD mtHist] in *.
  - destruct HH as (HD & HH). split; [|exact HH]. destruct I as (I1 & I2 & I3 & I4 & I5 & I6 & I7 & I8). unfold mtNrVars in S1. rewrite I1 in S1. apply bind_Ok in S1 as ((lo & hi) & _ & S1). apply bind_Ok in S1 as (b & _ & S1).
    apply bind_Ok in S1 as (l & _ & S1). apply bind_Ok in S1 as (n & _ & S1). apply bind_Ok in S1 as (sz & _ & S1). apply bind_Ok in S1 as (pos & P & S1). injection S1 as <-.
    split; [reflexivity|]. split; [exact I2|]. split; [exact I3|]. split; [exact I4|]. split; [exact I5|]. split; [exact I6|]. split; [exact (proj1 (posLoop_Ok _ _ _ _ P))|]. cbn [mtQ mtC mtPos mtBegin mzero vfill mrows mcols vlen mget vget].
    intros d' [= <-]. split; [exact HD|]. split; [exact P|]. auto.
  - destruct HH as (-> & HH). split; [|exact HH]. exact (proj1 (update_Ok _ _ _ _ _ _ _ _ _ _ N I S1)).
  - split; [|exact HH]. destruct I as (I1 & I2 & I3 & I4 & I5 & I6 & I7 & I8). unfold mtStiffness in S1. apply bind_Ok in S1 as (s & S2 & S1). injection S1 as <-. apply twoSqrt_Ok in S2 as (A & ->).
    split; [exact I1|]. split; [exact I2|]. split; [reflexivity|]. split; [exact A|]. split; [reflexivity|]. split; [exact I6|]. split; [exact I7|]. exact I8.
  - split; [|exact HH]. destruct I as (I1 & I2 & I3 & I4 & I5 & I6 & I7 & I8). injection S1 as <-.
    split; [exact I1|]. split; [exact I2|]. split; [exact I3|]. split; [exact I4|]. split; [exact I5|]. split; [reflexivity|]. split; [exact I7|]. exact I8.
  - split; [|exact HH]. destruct I as (I1 & I2 & I3 & I4 & I5 & I6 & I7 & I8). injection S1 as <-.
    split; [exact I1|]. split; [reflexivity|]. split; [exact I3|]. split; [exact I4|]. split; [exact I5|]. split; [exact I6|]. split; [exact I7|]. exact I8.
Qed.
Lemma newMT_inv mbs rs k W w t : newMT mbs rs k W w = Ok t -> mtInv mbs rs w k W None t.
Proof.
  unfold newMT. intros H. apply bind_Ok in H as (s & H1 & H). apply bind_Ok in H as (m & H2 & H). injection H as <-. apply twoSqrt_Ok in H1 as (A & ->).
  split; [reflexivity|]. split; [reflexivity|]. split; [reflexivity|]. split; [exact A|]. split; [reflexivity|]. split; [reflexivity|]. split; [apply repeat_length|]. discriminate.
Qed.
Lemma multi_task_lemma com mbs rs k0 W0 w0 t0 ops d o t t' : (com = true -> NoDup rs) -> newMT mbs rs k0 W0 w0 = Ok t0 -> mtHist mbs None ops -> mtRun com ops t0 = Ok t -> latest mtGiveD None ops = Some d -> mtUpdate com d o t = Ok t' ->
  costs (mtTask t') (latest mtGiveW w0 ops) (separate d rs (mrJacs o) (vget (latest mtGiveDim W0 ops)) (asked (latest mtGiveK k0 ops) o)).
Proof. intros N H0 HH HR HD HU. pose proof (mt_run _ _ _ N _ _ _ _ _ _ _ (newMT_inv _ _ _ _ _ _ H0) HH HR) as I. rewrite HD in I. exact (proj2 (update_Ok _ _ _ _ _ _ _ _ _ _ N I HU)). Qed.
