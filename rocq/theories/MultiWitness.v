(** Definedness and minimum of the multi-robot tasks, the error of the multi-robot CoM task, and concrete robots. *)
From Verif Require Export MultiFacts.
From Verif Require Import LayoutProofs ContactRowsProofs SetPointFacts.
From Coq Require Import Lra.
Open Scope string_scope.
Open Scope list_scope.
Open Scope R_scope.
Local Arguments sumn : simpl never.

(** ** Definedness *)
Definition mrSizes (m : nat) (d : solverData) (rs : list nat) (o : mrOut) : Prop :=
  vlen (mrEval o) = m /\ vlen (mrSpeed o) = m /\ vlen (mrNAcc o) = m /\ forall i r, nth_error rs i = Some r -> exists J, nth_error (mrJacs o) i = Some J /\ mrows J = m /\ alphaD d r = Ok (mcols J).
Fixpoint mtGood (m : nat) (mbs : list multibody) (rs : list nat) (od : option solverData) (ops : list mtOp) : Prop :=
  match ops with
  | [] => True
  | MtNrVars d :: ops' => (exists uni bi deps, nrVarsData mbs uni bi = Ok (d, deps)) /\ mtGood m mbs rs (Some d) ops'
  | MtUpdate d o :: ops' => (od = Some d /\ mrSizes m d rs o) /\ mtGood m mbs rs od ops'
  | MtStiffness k :: ops' => 0 <= k /\ mtGood m mbs rs od ops'
  | MtDim W :: ops' => vlen W = m /\ mtGood m mbs rs od ops'
  | MtWeight _ :: ops' => mtGood m mbs rs od ops'
  end.
Lemma robotsMaxDof_def mbs : forall rs, Forall (fun r => (r < length mbs)%nat) rs -> exists m, robotsMaxDof mbs rs = Ok m /\ forall r mb, In r rs -> nth_error mbs r = Some mb -> (nrDof mb <= m)%nat.
Proof.
  induction rs as [|r rs IH]; intros F; cbn [robotsMaxDof]; [exists 0%nat; split; [reflexivity|intros ? ? []]|]. apply Forall_cons_iff in F as (F1 & F). destruct (IH F) as (m & E & B).
  destruct (nth_error mbs r) as [mb|] eqn:N; [|apply nth_error_None in N; lia]. unfold vec_at. rewrite N. cbn [bind]. rewrite E. cbn [bind]. eexists. split; [reflexivity|].
  intros r' mb' [<-|I] N'; [rewrite N in N'; injection N' as <-; lia|]. specialize (B _ _ I N'). lia.
Qed.
Lemma minmax_def : forall rs, rs <> [] -> exists lo hi, minmax rs = Ok (lo, hi) /\ In lo rs /\ In hi rs /\ forall r, In r rs -> (lo <= r <= hi)%nat.
Proof.
  induction rs as [|r rs IH]; intros N; [congruence|]. destruct rs as [|r' rs]; [exists r, r; cbn; split; [reflexivity|]; split; [auto|]; split; [auto|]; intros q [<-|[]]; lia|].
  destruct (IH ltac:(discriminate)) as (lo & hi & E & I1 & I2 & B). change (minmax (r :: r' :: rs)) with (do (a, b) <- minmax (r' :: rs); Ok (Nat.min r a, Nat.max r b)). rewrite E. cbn [bind]. do 2 eexists. split; [reflexivity|].
  split; [destruct (Nat.min_dec r lo) as [-> | ->]; [left|right]; auto|]. split; [destruct (Nat.max_dec r hi) as [-> | ->]; [left|right]; auto|]. intros q [<-|I]; [lia|]. specialize (B _ I). lia.
Qed.
Lemma spans_def mbs d r : isData mbs d -> (r < length mbs)%nat -> exists b mb, nth_error mbs r = Some mb /\ spans d r b (nrDof mb).
Proof.
  intros (uni & bi & deps & HN) L. destruct (nth_error mbs r) as [mb|] eqn:N; [|apply nth_error_None in N; lia]. pose proof (layout_counts_lemma _ _ _ _ _ HN) as (C & _). pose proof (layout_begin_lemma _ _ _ _ _ HN) as (B & _).
  exists (sumnat (firstn r (map nrDof mbs))), mb. split; [reflexivity|]. split; [apply B; exact L|apply C; exact N].
Qed.
Lemma posLoop_def d B : forall rs, (forall r, In r rs -> exists b, alphaDBegin d r = Ok b /\ (B <= b)%nat) -> exists pos, posLoop d B rs = Ok pos.
Proof.
  induction rs as [|r rs IH]; intros H; cbn [posLoop]; [eauto|]. destruct (H r (or_introl eq_refl)) as (b & -> & L). cbn [bind]. unfold natSub, guard. rewrite (proj2 (Nat.leb_le _ _) L). cbn [bind].
  destruct IH as (pos & ->); [intros; apply H; right; auto|]. cbn [bind]. eauto.
Qed.
Definition mtDef (m : nat) (mbs : list multibody) (rs : list nat) (od : option solverData) (t : multiTask) : Prop :=
  mtRobots t = rs /\ vlen (mtDim t) = m /\ length (mtPos t) = length rs /\ (forall r mb, In r rs -> nth_error mbs r = Some mb -> (nrDof mb <= mtMax t)%nat) /\
  forall d, od = Some d -> isData mbs d /\ posLoop d (mtBegin t) rs = Ok (mtPos t) /\ mcols (mtQ t) = mrows (mtQ t) /\ vlen (mtC t) = mrows (mtQ t) /\ fits (mrows (mtQ t)) (spots d rs (mtPos t)).
Lemma nrvars_def m mbs rs od t d : rs <> [] -> Forall (fun r => (r < length mbs)%nat) rs -> mtDef m mbs rs od t -> isData mbs d -> exists t', mtNrVars d t = Ok t' /\ mtDef m mbs rs (Some d) t'.
Proof.
  intros N F (I1 & I2 & I3 & I4 & _) HD. unfold mtNrVars. rewrite I1. destruct (minmax_def rs N) as (lo & hi & -> & L1 & L2 & LB). cbn [bind]. rewrite Forall_forall in F.
  destruct (spans_def _ _ _ HD (F _ L1)) as (b & mb & _ & (S1 & S1')). destruct (spans_def _ _ _ HD (F _ L2)) as (b' & mb' & _ & (S2 & S2')). rewrite S1. cbn [bind]. rewrite S2. cbn [bind]. rewrite S2'. cbn [bind].
  assert (G : forall r, In r rs -> exists c n, spans d r c n /\ (b <= c)%nat /\ (c + n <= b' + nrDof mb')%nat).
  { intros r I. destruct (spans_def _ _ _ HD (F _ I)) as (c & mc & _ & SC). exists c, (nrDof mc). split; [exact SC|]. destruct HD as (uni & bi & deps & HN). specialize (LB _ I). split.
    - destruct (Nat.eq_dec lo r) as [<-|]; [destruct SC as (SC & _); rewrite S1 in SC; injection SC as ->; lia|]. pose proof (spans_sep _ _ _ _ _ lo r _ _ _ _ HN (conj S1 S1') SC ltac:(lia)). lia.
    - destruct (Nat.eq_dec r hi) as [->|]; [destruct SC as (SC & SC'); rewrite S2 in SC; rewrite S2' in SC'; injection SC as ->; injection SC' as ->; lia|]. pose proof (spans_sep _ _ _ _ _ r hi _ _ _ _ HN SC (conj S2 S2') ltac:(lia)). lia. }
  destruct (G hi L2) as (c0 & n0 & (G1 & G2) & G3 & G4). rewrite S2 in G1. injection G1 as <-.
  unfold natSub at 1, guard at 1. rewrite (proj2 (Nat.leb_le b (b' + nrDof mb')) ltac:(lia)). cbn [bind].
  destruct (posLoop_def d b rs) as (pos & P); [intros r I; destruct (G r I) as (c & n & (X & _) & Y & _); eauto|]. rewrite P. cbn [bind]. eexists. split; [reflexivity|]. destruct (posLoop_Ok _ _ _ _ P) as (P1 & P2).
  split; [reflexivity|]. split; [exact I2|]. split; [exact P1|]. split; [exact I4|]. cbn [mtQ mtC mtPos mtBegin mzero vfill mrows mcols vlen]. intros d' [= <-]. split; [exact HD|]. split; [exact P|]. split; [reflexivity|]. split; [reflexivity|].
  intros k I. apply in_map_iff in I as ((r & p) & <- & I). cbn [fst snd mzero mrows]. specialize (P2 _ _ I). destruct (G r (in_combine_l _ _ _ _ I)) as (c & n & (X & X') & Y & Z). rewrite P2 in X. injection X as <-. replace (robotDofs d r) with n by (unfold robotDofs; rewrite X'; reflexivity). lia.
Qed.
Lemma setAll_def : forall bs Q C, Forall sqBlk bs -> mcols Q = mrows Q -> vlen C = mrows Q -> fits (mrows Q) bs -> exists Q' C', setAll bs Q C = Ok (Q', C') /\ mrows Q' = mrows Q /\ mcols Q' = mrows Q /\ vlen C' = mrows Q.
Proof.
  induction bs as [|((p & Qi) & Ci) bs IH]; intros Q C F H1 H2 H3; cbn [setAll]; [exists Q, C; auto|]. apply Forall_cons_iff in F as ((F1 & F2) & F). cbn [fst snd] in *. pose proof (H3 _ (or_introl eq_refl)) as L. cbn [fst snd] in L.
  destruct (mset_block_def Q p p Qi) as (Q1 & E1); [lia|lia|]. rewrite E1. cbn [bind]. destruct (vset_seg_def C p Ci) as (C1 & E2); [lia|]. rewrite E2. cbn [bind].
  apply mset_block_Ok in E1 as (_ & _ & B3 & B4 & _). apply vset_seg_Ok in E2 as (_ & V2 & _). destruct (IH Q1 C1 F) as (Q' & C' & E & X1 & X2 & X3); [congruence|congruence|rewrite B3; intros k I; apply H3; right; exact I|]. exists Q', C'. rewrite E, <- B3. auto.
Qed.
Lemma addAll_def : forall bs Q C, Forall sqBlk bs -> mcols Q = mrows Q -> vlen C = mrows Q -> fits (mrows Q) bs -> exists Q' C', addAll bs Q C = Ok (Q', C') /\ mrows Q' = mrows Q /\ mcols Q' = mrows Q /\ vlen C' = mrows Q.
Proof.
  induction bs as [|((p & Qi) & Ci) bs IH]; intros Q C F H1 H2 H3; cbn [addAll]; [exists Q, C; auto|]. apply Forall_cons_iff in F as ((F1 & F2) & F). cbn [fst snd] in *. pose proof (H3 _ (or_introl eq_refl)) as L. cbn [fst snd] in L.
  destruct (madd_block_def Q p p Qi) as (Q1 & E1); [lia|lia|]. rewrite E1. cbn [bind]. destruct (vadd_seg_def C p Ci) as (C1 & E2); [lia|]. rewrite E2. cbn [bind].
  apply madd_block_Ok in E1 as (_ & _ & B3 & B4 & _). apply vadd_seg_Ok in E2 as (_ & V2 & _). destruct (IH Q1 C1 F) as (Q' & C' & E & X1 & X2 & X3); [congruence|congruence|rewrite B3; intros k I; apply H3; right; exact I|]. exists Q', C'. rewrite E, <- B3. auto.
Qed.
Lemma comLoop_setAll d t cs o : forall cnt i Q C bs, blocksFrom d t cs o cnt i = Ok bs -> comLoop d t cs o cnt i Q C = setAll bs Q C.
Proof.
  induction cnt as [|cnt IH]; intros i Q C bs H; cbn [blocksFrom comLoop] in *; [injection H as <-; reflexivity|]. apply bind_Ok in H as (((p & Qi) & Ci) & H1 & H). apply bind_Ok in H as (l & H2 & H). injection H as <-. rewrite H1. cbn [bind setAll].
  destruct (mset_block Q p p Qi); cbn [bind]; auto. destruct (vset_seg C p Ci); cbn [bind]; auto.
Qed.
Lemma addLoop_addAll d t cs o : forall cnt i Q C bs, blocksFrom d t cs o cnt i = Ok bs -> addLoop d t cs o cnt i Q C = addAll bs Q C.
Proof.
  induction cnt as [|cnt IH]; intros i Q C bs H; cbn [blocksFrom addLoop] in *; [injection H as <-; reflexivity|]. apply bind_Ok in H as (((p & Qi) & Ci) & H1 & H). apply bind_Ok in H as (l & H2 & H). injection H as <-. rewrite H1. cbn [bind addAll].
  destruct (madd_block Q p p Qi); cbn [bind]; auto. destruct (vadd_seg C p Ci); cbn [bind]; auto.
Qed.
Lemma zeroLoop_setAll d t : length (mtPos t) = length (mtRobots t) -> (forall r, In r (mtRobots t) -> exists n, alphaD d r = Ok n) -> forall cnt i Q C, (i + cnt = length (mtPos t))%nat ->
  zeroLoop d t cnt i Q C = setAll (spots d (skipn i (mtRobots t)) (skipn i (mtPos t))) Q C.
Proof.
  intros L HA. induction cnt as [|cnt IH]; intros i Q C E; cbn [zeroLoop]; [rewrite (skipn_all2 (mtRobots t)) by lia; reflexivity|].
  destruct (nth_error (mtRobots t) i) as [r|] eqn:N1; [|apply nth_error_None in N1; lia]. destruct (nth_error (mtPos t) i) as [p|] eqn:N2; [|apply nth_error_None in N2; lia].
  unfold vec_at at 1 2. rewrite N1. cbn [bind]. rewrite N2. cbn [bind]. destruct (HA r (nth_error_In _ _ N1)) as (n & A). rewrite A. cbn [bind].
  rewrite (skipn_S _ _ _ N1), (skipn_S _ _ _ N2). cbn [spots combine map setAll fst snd]. unfold robotDofs at 1 2 3. rewrite A.
  destruct (mset_block Q p p (mzero n n)); cbn [bind]; auto. destruct (vset_seg C p (vfill n 0)); cbn [bind]; auto. apply IH. lia.
Qed.
Lemma blocksFrom_def m mbs rs d t cs o : mtDef m mbs rs (Some d) t -> Forall (fun r => (r < length mbs)%nat) rs -> mrSizes m d rs o -> vlen cs = m -> forall cnt i, (i + cnt = length (mtPos t))%nat -> exists bs, blocksFrom d t cs o cnt i = Ok bs.
Proof.
  intros (I1 & I2 & I3 & I4 & I5) F (_ & _ & _ & SJ) SC. induction cnt as [|cnt IH]; intros i E; cbn [blocksFrom]; [eauto|]. destruct (IH (S i) ltac:(lia)) as (l & HL).
  destruct (nth_error rs i) as [r|] eqn:N1; [|apply nth_error_None in N1; lia]. destruct (nth_error (mtPos t) i) as [p|] eqn:N2; [|apply nth_error_None in N2; lia]. destruct (SJ _ _ N1) as (J & J1 & J2 & J3).
  unfold mtBlock. rewrite I1. unfold vec_at. rewrite N1. cbn [bind]. rewrite N2. cbn [bind]. rewrite J3. cbn [bind]. rewrite J1. cbn [bind]. rewrite Nat.eqb_refl.
  destruct (I5 d eq_refl) as (HD & _). rewrite Forall_forall in F. destruct (spans_def _ _ _ HD (F _ (nth_error_In _ _ N1))) as (b & mb & M & (_ & S2)). rewrite J3 in S2. injection S2 as S2.
  pose proof (I4 _ _ (nth_error_In _ _ N1) M) as LE. rewrite <- S2 in LE. rewrite (proj2 (Nat.leb_le _ _) LE). cbn [andb guard bind].
  destruct (lsQC_def (mtDim t) J cs) as (Q & C & ->); [congruence|congruence|]. cbn [bind]. rewrite HL. cbn [bind]. eauto.
Qed.
Lemma fits_places n bs bs' : places bs = places bs' -> fits n bs' -> fits n bs.
Proof.
  intros H F k I. destruct (In_nth_error _ _ I) as (q & Eq). assert (M : nth_error (places bs') q = Some (fst (fst k), mrows (snd (fst k)))) by (rewrite <- H; unfold places; rewrite nth_error_map, Eq; reflexivity).
  unfold places in M. rewrite nth_error_map in M. destruct (nth_error bs' q) as [k'|] eqn:Ek; [|discriminate]. injection M as M1 M2. rewrite <- M1, <- M2. apply F. exact (nth_error_In _ _ Ek).
Qed.
Lemma update_def com m mbs rs d t o : mtDef m mbs rs (Some d) t -> Forall (fun r => (r < length mbs)%nat) rs -> mrSizes m d rs o -> exists t', mtUpdate com d o t = Ok t' /\ mtDef m mbs rs (Some d) t'.
Proof.
  intros I F S. assert (CS : exists cs, csum (mtK t) (mtKs t) o = Ok cs /\ vlen cs = m).
  { destruct S as (S1 & S2 & S3 & _). unfold csum, vminus, vsame, guard. cbn [vlen vscal]. rewrite S1, S2, Nat.eqb_refl. cbn [bind vlen]. rewrite ?S1, ?S3, ?Nat.eqb_refl. cbn [bind]. eexists. split; [reflexivity|]. cbn. congruence. }
  destruct CS as (cs & CS & LS). destruct (blocksFrom_def _ _ _ _ _ _ _ I F S LS (length (mtPos t)) 0 ltac:(lia)) as (bs & HB). destruct I as (I1 & I2 & I3 & I4 & I5). destruct (I5 d eq_refl) as (D1 & D2 & D3 & D4 & D5).
  destruct (blocksFrom_Ok d t cs o ltac:(congruence) _ _ _ HB ltac:(lia)) as (K1 & K2 & _). rewrite !skipn_0', I1 in K1. assert (KP : places bs = places (spots d rs (mtPos t))) by exact K1.
  assert (Fi : fits (mrows (mtQ t)) bs) by (eapply fits_places; eauto).
  assert (X : exists Q C, mtUpdate com d o t = Ok (mkMT (mtWeight t) (mtK t) (mtKs t) (mtDim t) (mtRobots t) (mtPos t) (mtBegin t) Q C (mtMax t)) /\ mrows Q = mrows (mtQ t) /\ mcols Q = mrows (mtQ t) /\ vlen C = mrows (mtQ t)).
  { destruct com; cbn [mtUpdate]; [unfold mcUpdate|unfold mrUpdate]; rewrite CS; cbn [bind].
    - rewrite (comLoop_setAll _ _ _ _ _ _ _ _ _ HB). destruct (setAll_def bs (mtQ t) (mtC t) K2 D3 D4 Fi) as (Q & C & -> & Y). cbn [bind]. eauto.
    - rewrite zeroLoop_setAll; [|congruence|rewrite I1; intros r Ir; rewrite Forall_forall in F; destruct (spans_def _ _ _ D1 (F _ Ir)) as (? & mb & _ & (_ & A)); eauto|lia]. rewrite !skipn_0', I1.
      destruct (setAll_def (spots d rs (mtPos t)) (mtQ t) (mtC t)) as (Q0 & C0 & -> & Y1 & Y2 & Y3); auto.
      { apply Forall_forall. intros k Ik. apply in_map_iff in Ik as ((r & p) & <- & _). unfold sqBlk. cbn. auto. }
      cbn [bind]. rewrite (addLoop_addAll _ _ _ _ _ _ _ _ _ HB). destruct (addAll_def bs Q0 C0 K2) as (Q & C & -> & Z1 & Z2 & Z3); [congruence|congruence|rewrite Y1; exact Fi|]. cbn [bind]. do 2 eexists. split; [rewrite ?I1; reflexivity|]. repeat split; congruence. }
  destruct X as (Q & C & X & X1 & X2 & X3). eexists. split; [exact X|]. split; [exact I1|]. split; [exact I2|]. split; [exact I3|]. split; [exact I4|]. cbn [mtQ mtC mtPos mtBegin]. intros d' [= <-]. split; [exact D1|]. split; [exact D2|]. split; [congruence|]. split; [congruence|]. rewrite X1. exact D5.
Qed.
Lemma multi_defined_lemma com m mbs rs k0 W0 w0 ops : rs <> [] -> Forall (fun r => (r < length mbs)%nat) rs -> 0 <= k0 -> vlen W0 = m -> mtGood m mbs rs None ops ->
  exists t0 t, newMT mbs rs k0 W0 w0 = Ok t0 /\ mtRun com ops t0 = Ok t.
Proof.
  intros N F K LW G. destruct (robotsMaxDof_def mbs rs F) as (mx & E & B). unfold newMT, twoSqrt, guard, Rleb. destruct (Rle_dec 0 k0); [|lra]. cbn [bind]. rewrite E. cbn [bind]. eexists. 
  match goal with |- exists t, Ok ?a = Ok _ /\ _ => set (t0 := a) end.
  assert (D0 : mtDef m mbs rs None t0) by (split; [reflexivity|]; split; [exact LW|]; split; [apply repeat_length|]; split; [exact B|]; discriminate).
  assert (X : exists t, mtRun com ops t0 = Ok t); [|destruct X as (t & X); exists t; split; [reflexivity|exact X]].
  clear B. clearbody t0. clear E. generalize dependent t0. generalize dependent (@None solverData). clear k0 K r LW W0 w0. induction ops as [|op ops IH]; intros od G t0 D0; cbn [mtRun]; [eauto|].
  destruct op as [d|d o|k|W|w]; cbn [mtGood mtStep] in *; [destruct G as (G1 & G)..|].
  - destruct (nrvars_def _ _ _ _ _ _ N F D0 G1) as (t1 & -> & D1). cbn [bind]. exact (IH _ G _ D1).
  - destruct G1 as (-> & SZ). destruct (update_def com _ _ _ _ _ _ D0 F SZ) as (t1 & -> & D1). cbn [bind]. exact (IH _ G _ D1).
  - unfold mtStiffness, twoSqrt, guard, Rleb. destruct (Rle_dec 0 k); [|lra]. cbn [bind]. apply (IH _ G). exact D0.
  - cbn [bind]. apply (IH _ G). destruct D0 as (I1 & I2 & I3 & I4 & I5). split; [exact I1|]. split; [exact G1|]. split; [exact I3|]. split; [exact I4|]. exact I5.
  - cbn [bind]. apply (IH _ G). exact D0.
Qed.

(** ** The minimum *)
Fixpoint eachAttains (d : solverData) (rs : list nat) (Js : list mat) (a : nat -> R) (x : nat -> R) : Prop :=
  match rs, Js with
  | r :: rs', J :: Js' => (forall k, (k < mrows J)%nat -> robotAcc d r J x k = a k) /\ eachAttains d rs' Js' a x
  | _, _ => True
  end.
Lemma separate_nonneg d W a x : (forall k, 0 <= W k) -> forall rs Js, 0 <= separate d rs Js W a x.
Proof.
  intros HW. induction rs as [|r rs IH]; intros [|J Js]; cbn [separate]; try lra. specialize (IH Js). assert (0 <= sumn (mrows J) (fun k => W k * (robotAcc d r J x k - a k) ^ 2)); [|lra].
  apply sumn_nonneg. intros k _. apply Rmult_le_pos; [apply HW|apply pow2_ge_0].
Qed.
Lemma separate_zero d W a x : (forall k, 0 < W k) -> forall rs Js, separate d rs Js W a x = 0 <-> eachAttains d rs Js a x.
Proof.
  intros HW. induction rs as [|r rs IH]; intros [|J Js]; cbn [separate eachAttains]; try tauto. rewrite <- IH.
  assert (P : forall k, (k < mrows J)%nat -> 0 <= W k * (robotAcc d r J x k - a k) ^ 2) by (intros k _; apply Rmult_le_pos; [apply Rlt_le, HW|apply pow2_ge_0]).
  pose proof (sumn_nonneg _ _ P) as S. pose proof (separate_nonneg d W a x (fun k => Rlt_le _ _ (HW k)) rs Js) as S'. split.
  - intros H. split; [|lra]. intros k Hk. assert (Z : sumn (mrows J) (fun k => W k * (robotAcc d r J x k - a k) ^ 2) = 0) by lra.
    pose proof (sumn_le (mrows J) (fun i => if Nat.eqb i k then W k * (robotAcc d r J x k - a k) ^ 2 else 0) (fun k => W k * (robotAcc d r J x k - a k) ^ 2)) as LE.
    assert (LE' : sumn (mrows J) (fun i => if Nat.eqb i k then W k * (robotAcc d r J x k - a k) ^ 2 else 0) <= 0). { eapply Rle_trans; [apply LE|rewrite Z; lra]. intros i Hi. destruct (Nat.eqb_spec i k) as [->|]; [lra|apply P; exact Hi]. }
    assert (DE : sumn (mrows J) (fun i => if Nat.eqb i k then W k * (robotAcc d r J x k - a k) ^ 2 else 0) = W k * (robotAcc d r J x k - a k) ^ 2).
    { rewrite (sumn_window (mrows J) k 1); [|lia|intros i _ Hi; destruct (Nat.eqb_spec i k); [lia|reflexivity]]. unfold sumn. cbn. rewrite Nat.add_0_r, Nat.eqb_refl. ring. }
    rewrite DE in LE'. specialize (P k Hk). assert (Y : W k * (robotAcc d r J x k - a k) ^ 2 = 0) by lra. apply Rmult_integral in Y as [Y|Y]; [specialize (HW k); lra|]. assert (robotAcc d r J x k - a k = 0); [|lra].
    destruct (Req_dec (robotAcc d r J x k - a k) 0) as [|NZ]; auto. apply (pow_nonzero _ 2) in NZ. contradiction.
  - intros (H1 & H2). rewrite H2. rewrite (sumn_0 (mrows J)); [ring|]. intros k Hk. rewrite (H1 k Hk). ring.
Qed.
Lemma eachAttains_joint d a x m : forall rs Js, length Js = length rs -> Forall (fun J => mrows J = m) Js -> eachAttains d rs Js a x -> forall k, (k < m)%nat -> jointAcc d rs Js x k = INR (length rs) * a k.
Proof.
  induction rs as [|r rs IH]; intros [|J Js] L F H k Hk; try discriminate; [cbn; ring|]. apply Forall_cons_iff in F as (F1 & F). destruct H as (H1 & H). cbn [jointAcc]. change (length (r :: rs)) with (S (length rs)). rewrite (IH Js (eq_add_S _ _ L) F H k Hk), H1, S_INR by lia. ring.
Qed.
Lemma multi_minimum_lemma com mbs rs k0 W0 w0 t0 ops d o t t' x : (com = true -> NoDup rs) -> newMT mbs rs k0 W0 w0 = Ok t0 -> mtHist mbs None ops -> mtRun com ops t0 = Ok t -> latest mtGiveD None ops = Some d -> mtUpdate com d o t = Ok t' ->
  0 < latest mtGiveW w0 ops -> (forall k, 0 < vget (latest mtGiveDim W0 ops) k) -> length (mrJacs o) = length rs -> Forall (fun J => mrows J = vlen (mrEval o)) (mrJacs o) ->
  (exists y, eachAttains d rs (mrJacs o) (asked (latest mtGiveK k0 ops) o) y) -> minimises (mtTask t') x ->
  forall k, (k < vlen (mrEval o))%nat -> jointAcc d rs (mrJacs o) x k = INR (length rs) * asked (latest mtGiveK k0 ops) o k.
Proof.
  intros N H0 HH HR HD HU PW PD LJ FJ (y & Hy) HM. pose proof (multi_task_lemma _ _ _ _ _ _ _ _ _ _ _ _ N H0 HH HR HD HU) as HC. specialize (HC x y). specialize (HM y).
  apply (separate_zero d _ _ y PD) in Hy. rewrite Hy in HC. pose proof (separate_nonneg d (vget (latest mtGiveDim W0 ops)) (asked (latest mtGiveK k0 ops) o) x (fun k => Rlt_le _ _ (PD k)) rs (mrJacs o)) as P.
  assert (Z : separate d rs (mrJacs o) (vget (latest mtGiveDim W0 ops)) (asked (latest mtGiveK k0 ops) o) x = 0) by nra. apply (separate_zero d _ _ x PD) in Z. exact (eachAttains_joint d _ x _ _ _ LJ FJ Z).
Qed.

(** ** The error of the multi-robot CoM task *)
Definition massOf (l : bodyMasses) : R := sumR (map fst l).
Fixpoint momentOf (l : bodyMasses) : V3 := match l with [] => v0 | m :: l' => vadd (vsc (fst m) (snd m)) (momentOf l') end.
(** The centre of mass of a set of bodies. *)
Definition groupCoM (l : bodyMasses) : V3 := vsc (/ massOf l) (momentOf l).
(** All bodies of the robots [rs]. *)
Definition groupBodies (mbs : list bodyMasses) (rs : list nat) : bodyMasses := concat (map (fun r => nth r mbs []) rs).
Definition mcGiveM (o : mcOp) : option (list bodyMasses) := match o with McInertia mbs => Some mbs | _ => None end.
Definition mcGiveC (o : mcOp) : option V3 := match o with McCom c => Some c | _ => None end.
Definition sameMasses (a b : list bodyMasses) : Prop := map (map fst) a = map (map fst) b.

Lemma V3eq a b : vx a = vx b -> vy a = vy b -> vz a = vz b -> a = b.
Proof. destruct a, b; cbn; intros -> -> ->; reflexivity. Qed.
Lemma robotMass_sum l : robotMass l = massOf l.
Proof.
  unfold robotMass, massOf. enough (G : forall l0 a, fold_left (fun ac m => ac + fst m) l0 a = a + sumR (map fst (l0 : bodyMasses))) by (rewrite G; ring).
  induction l0 as [|m l0 IH]; intros a; cbn; [ring|]. rewrite IH. ring.
Qed.
Lemma computeCoM_Ok l c : computeCoM l = Ok c -> massOf l <> 0 /\ c = groupCoM l.
Proof.
  unfold computeCoM, divOk. rewrite robotMass_sum.
  assert (G : fold_left (fun ac m => vadd ac (vsc (fst m) (snd m))) l v0 = momentOf l).
  { enough (G : forall (l0 : bodyMasses) a, fold_left (fun ac m => vadd ac (vsc (fst m) (snd m))) l0 a = vadd a (momentOf l0)) by (rewrite G; apply V3eq; cbn; ring).
    induction l0 as [|m l0 IH]; intros a; cbn [fold_left momentOf]; [apply V3eq; cbn; ring|]. rewrite IH. apply V3eq; cbn; ring. }
  rewrite G. destruct (Req_EM_T (massOf l) 0) as [|N]; [discriminate|]. cbn [bind]. intros [= <-]. split; [exact N|]. unfold groupCoM. apply V3eq; cbn; field; exact N.
Qed.
Lemma massOf_app a b : massOf (a ++ b) = massOf a + massOf b.
Proof. unfold massOf. induction a as [|m a IH]; cbn; [ring|]. rewrite IH. ring. Qed.
Lemma momentOf_app a b : momentOf (a ++ b) = vadd (momentOf a) (momentOf b).
Proof. induction a as [|m a IH]; cbn [app momentOf]; [apply V3eq; cbn; ring|]. rewrite IH. apply V3eq; cbn; ring. Qed.
Lemma group_cons mbs r rs : groupBodies mbs (r :: rs) = nth r mbs [] ++ groupBodies mbs rs.
Proof. reflexivity. Qed.
Lemma massLoop_Ok mbs : forall rs l tot, massLoop mbs rs = Ok (l, tot) -> l = map (fun r => massOf (nth r mbs [])) rs /\ tot = massOf (groupBodies mbs rs).
Proof.
  induction rs as [|r rs IH]; intros l tot H; cbn [massLoop] in H; [injection H as <- <-; split; reflexivity|]. apply bind_Ok in H as (b & H1 & H). apply bind_Ok in H as ((l' & tot') & H2 & H). injection H as <- <-. destruct (IH _ _ H2) as (-> & ->).
  apply vec_at_Ok in H1. unfold groupBodies. cbn [map concat]. rewrite massOf_app, robotMass_sum, (nth_error_nth _ _ _ H1). auto.
Qed.
Lemma divLoop_Ok tot : forall l ws, divLoop tot l = Ok ws -> ws = map (fun m => m / tot) l /\ (l <> [] -> tot <> 0).
Proof.
  induction l as [|m l IH]; intros ws H; cbn [divLoop] in H; [injection H as <-; split; [reflexivity|congruence]|]. apply bind_Ok in H as (w & H1 & H). apply bind_Ok in H as (ws' & H2 & H). injection H as <-. destruct (IH _ H2) as (-> & _).
  unfold divOk in H1. destruct (Req_EM_T tot 0); [discriminate|]. injection H1 as <-. split; [reflexivity|auto].
Qed.
Lemma robotsWeight_Ok mbs rs ws : robotsWeight mbs rs = Ok ws -> ws = map (fun r => massOf (nth r mbs []) / massOf (groupBodies mbs rs)) rs /\ (rs <> [] -> massOf (groupBodies mbs rs) <> 0).
Proof.
  unfold robotsWeight. intros H. apply bind_Ok in H as ((l & tot) & H1 & H). apply massLoop_Ok in H1 as (-> & ->). apply divLoop_Ok in H as (-> & N). rewrite map_map. split; [reflexivity|]. intros X. apply N. destruct rs; [congruence|discriminate].
Qed.
Lemma weights_sum mbs rs T : T <> 0 -> sumR (map (fun r => massOf (nth r mbs []) / T) rs) = massOf (groupBodies mbs rs) / T.
Proof.
  intros N. induction rs as [|r rs IH]; [unfold massOf; cbn; field; exact N|]. rewrite group_cons, massOf_app. cbn [map sumR]. rewrite IH. unfold Rdiv. rewrite Rmult_plus_distr_r. reflexivity.
Qed.
Lemma same_mass a b r : sameMasses a b -> massOf (nth r a []) = massOf (nth r b []).
Proof. intros H. unfold massOf. change (@nil (R * V3)) with (@nil (R * V3)). rewrite <- (map_nth (map fst) a []), <- (map_nth (map fst) b []). unfold sameMasses in H. rewrite H. reflexivity. Qed.
Lemma same_group a b rs : sameMasses a b -> massOf (groupBodies a rs) = massOf (groupBodies b rs).
Proof. intros H. induction rs as [|r rs IH]; unfold groupBodies in *; cbn [map concat]; [reflexivity|]. rewrite !massOf_app, IH, (same_mass a b r H). reflexivity. Qed.
Lemma evalLoop_Ok mbs mbs1 T : sameMasses mbs mbs1 -> T <> 0 -> forall rs e e', evalLoop mbs rs (map (fun r => massOf (nth r mbs1 []) / T) rs) e = Ok e' -> e' = vsub e (vsc (/ T) (momentOf (groupBodies mbs rs))).
Proof.
  intros SM N. induction rs as [|r rs IH]; intros e e' H; cbn [evalLoop map] in H; [injection H as <-; apply V3eq; cbn; ring|]. apply bind_Ok in H as (b & H1 & H). apply bind_Ok in H as (c & H2 & H).
  apply vec_at_Ok in H1. apply computeCoM_Ok in H2 as (NB & ->). apply IH in H. rewrite H. unfold groupBodies. cbn [map concat]. rewrite momentOf_app, <- (same_mass mbs mbs1 r SM), (nth_error_nth _ _ _ H1). unfold groupCoM. apply V3eq; cbn; field; auto.
Qed.
Lemma mc_run rs : forall ops c M t t', mcRobots t = rs -> mcCom t = c -> robotsWeight M rs = Ok (mcWeights t) -> mcRun ops t = Ok t' ->
  mcRobots t' = rs /\ mcCom t' = latest mcGiveC c ops /\ robotsWeight (latest mcGiveM M ops) rs = Ok (mcWeights t').
Proof.
  induction ops as [|o ops IH]; intros c M t t' H1 H2 H3 H; cbn [mcRun] in H; [injection H as <-; auto|]. apply bind_Ok in H as (t1 & S1 & H).
  destruct o as [m|c'|m]; cbn [mcStep] in S1; unfold latest; cbn [fold_left mcGiveM mcGiveC].
  - unfold mcInertia in S1. apply bind_Ok in S1 as (ws & S2 & S1). injection S1 as <-. rewrite H1 in S2. exact (IH c m (mkMCoM (mcCom t) (mcRobots t) ws (mcEval t)) _ H1 H2 S2 H).
  - injection S1 as <-. exact (IH c' M (mkMCoM c' (mcRobots t) (mcWeights t) (mcEval t)) _ H1 eq_refl H3 H).
  - unfold mcEvalUpdate in S1. apply bind_Ok in S1 as (e & S2 & S1). injection S1 as <-. exact (IH c M (mkMCoM (mcCom t) (mcRobots t) (mcWeights t) e) _ H1 H2 H3 H).
Qed.
Lemma multi_com_lemma mbs0 rs c0 ops t0 t mbs t' : rs <> [] -> newMCoM mbs0 rs c0 = Ok t0 -> mcRun ops t0 = Ok t -> mcEvalUpdate mbs t = Ok t' ->
  sumR (mcWeights t') = 1 /\ (sameMasses mbs (latest mcGiveM mbs0 ops) -> mcEval t' = vsub (latest mcGiveC c0 ops) (groupCoM (groupBodies mbs rs))).
Proof.
  intros N H0 HR HU. unfold newMCoM in H0. apply bind_Ok in H0 as (ws & HW & H0). injection H0 as <-. destruct (mc_run rs _ c0 mbs0 (mkMCoM c0 rs ws v0) _ eq_refl eq_refl HW HR) as (R1 & R2 & R3). apply robotsWeight_Ok in R3 as (R3 & NT). specialize (NT N).
  unfold mcEvalUpdate in HU. apply bind_Ok in HU as (e & HE & HU). injection HU as <-. cbn [mcWeights mcEval]. split.
  - rewrite R3, weights_sum by exact NT. field. exact NT.
  - intros SM. rewrite R1, R2, R3 in HE. apply (evalLoop_Ok mbs _ _ SM NT) in HE. rewrite HE. unfold groupCoM. rewrite (same_group mbs _ rs SM). reflexivity.
Qed.
Lemma computeCoM_def l : massOf l <> 0 -> exists c, computeCoM l = Ok c.
Proof. intros N. unfold computeCoM, divOk. rewrite robotMass_sum. destruct (Req_EM_T (massOf l) 0) as [|]; [contradiction|]. cbn [bind]. eauto. Qed.
(** Two bodies and one body, then the first robot grows and moves. *)
Definition cBodies (m x : R) : list bodyMasses := [[(1, mkV3 x 0 0); (m, mkV3 0 1 0)]; [(5, v0)]; [(2, mkV3 0 0 4)]].

(** ** Three robots with 1, 2 and 1 joints; the task moves robots 2 and 0 along one direction. *)
Definition uMbs : list multibody := [mkMB [mkJoint "a" 1 1 None]; mkMB [mkJoint "b" 1 1 None; mkJoint "c" 1 1 None]; mkMB [mkJoint "d" 1 1 None]].
Definition uData : solverData := match nrVarsData uMbs [] [] with Ok (d, _) => d | _ => initData end.
Lemma uData_ok : exists uni bi deps, nrVarsData uMbs uni bi = Ok (uData, deps).
Proof. exists [], [], []. reflexivity. Qed.
Definition uRobots : list nat := [2; 0]%nat.
Definition uJac : mat := mkMat 3 1 (fun i _ => match i with O => 1 | _ => 0 end).
Definition uDim : vec R := mkVec 3 (fun _ => 1).
Definition uOut : mrOut := mkMR (mkVec 3 (fun i => match i with O => 2 | _ => 0 end)) (mkVec 3 (fun i => match i with O => 1 | _ => 0 end)) (mkVec 3 (fun _ => 0)) [uJac; uJac].
Definition uOps : list mtOp := [MtStiffness 4; MtWeight 3; MtDim uDim; MtNrVars uData; MtUpdate uData uOut].
Lemma uSizes : mrSizes 3 uData uRobots uOut.
Proof. split; [reflexivity|]. split; [reflexivity|]. split; [reflexivity|]. intros [|[|i]] r H; cbn in H; try (injection H as <-); [exists uJac; auto..|destruct i; discriminate]. Qed.
Lemma uGood : mtGood 3 uMbs uRobots None uOps.
Proof. cbn. split; [lra|]. split; [reflexivity|]. split; [exact uData_ok|]. split; [split; [reflexivity|exact uSizes]|exact I]. Qed.
Lemma uHist : mtHist uMbs None uOps.
Proof. cbn. split; [exact uData_ok|]. split; [reflexivity|exact I]. Qed.
Lemma uNoDup : NoDup uRobots.
Proof. repeat constructor; cbn; intuition lia. Qed.
Lemma uIn : Forall (fun r => (r < length uMbs)%nat) uRobots.
Proof. repeat constructor. Qed.
Lemma uRuns com : exists t0 t t', newMT uMbs uRobots 1 uDim 1 = Ok t0 /\ mtRun com uOps t0 = Ok t /\ mtUpdate com uData uOut t = Ok t'.
Proof.
  destruct (multi_defined_lemma com 3 uMbs uRobots 1 uDim 1 (uOps ++ [MtUpdate uData uOut])) as (t0 & t' & N & R); [discriminate|exact uIn|lra|reflexivity|cbn; split; [lra|]; split; [reflexivity|]; split; [exact uData_ok|]; split; [split; [reflexivity|exact uSizes]|]; split; [split; [reflexivity|exact uSizes]|exact I]|].
  assert (G : forall l l2 a b, mtRun com (l ++ l2) a = Ok b -> exists c, mtRun com l a = Ok c /\ mtRun com l2 c = Ok b).
  { induction l as [|o l IH]; intros l2 a b H; cbn [app mtRun] in *; [eauto|]. apply bind_Ok in H as (a1 & H1 & H). apply IH in H as (c & C1 & C2). exists c. rewrite H1. auto. }
  apply G in R as (t & R1 & R2). cbn [mtRun mtStep] in R2. apply bind_Ok in R2 as (t1 & R2 & R3). injection R3 as <-. exists t0, t, t1. auto.
Qed.
Lemma sqrt4 : sqrt 4 = 2.
Proof. replace 4 with (2 * 2) by ring. apply sqrt_square. lra. Qed.
Lemma uSeparate x : separate uData uRobots [uJac; uJac] (fun _ => 1) (asked 4 uOut) x = / 2 * (x 3%nat - 4) ^ 2 + / 2 * (x 0%nat - 4) ^ 2.
Proof. cbn [separate uRobots]. unfold robotAcc, asked. rewrite sqrt4. unfold uJac, sumn. cbn. ring. Qed.
Lemma uTogether x : together 3 uData uRobots [uJac; uJac] (fun _ => 1) (asked 4 uOut) x = / 2 * (x 3%nat + x 0%nat - 4) ^ 2.
Proof. unfold together. cbn [jointAcc uRobots]. unfold robotAcc, asked. rewrite sqrt4. unfold uJac, sumn. cbn. ring. Qed.
(** Both robots move by 4 although 4 is asked of both together. *)
Lemma multi_refuted_lemma com : exists mbs rs k0 W0 t0 ops t d o t' x y, NoDup rs /\ newMT mbs rs k0 W0 1 = Ok t0 /\ mtHist mbs None ops /\ mtRun com ops t0 = Ok t /\ latest mtGiveD None ops = Some d /\ mtUpdate com d o t = Ok t' /\
  0 < latest mtGiveW 1 ops /\ together 3 d rs (mrJacs o) (vget (latest mtGiveDim W0 ops)) (asked (latest mtGiveK k0 ops) o) y = 0 /\
  8 <= together 3 d rs (mrJacs o) (vget (latest mtGiveDim W0 ops)) (asked (latest mtGiveK k0 ops) o) x /\ minimises (mtTask t') x /\ taskCost (mtTask t') x < taskCost (mtTask t') y.
Proof.
  destruct (uRuns com) as (t0 & t & t' & N & R & U). exists uMbs, uRobots, 1, uDim, t0, uOps, t, uData, uOut, t', (fun _ => 4), (fun _ => 2). change (latest mtGiveDim uDim uOps) with uDim. change (latest mtGiveK 1 uOps) with 4. change (latest mtGiveW 1 uOps) with 3.
  change (mrJacs uOut) with [uJac; uJac]. change (vget uDim) with (fun _ : nat => 1). rewrite !uTogether.
  split; [exact uNoDup|]. split; [exact N|]. split; [exact uHist|]. split; [exact R|]. split; [reflexivity|]. split; [exact U|]. split; [lra|]. split; [lra|]. split; [lra|].
  assert (C : forall a b, taskCost (mtTask t') a - taskCost (mtTask t') b = 3 * ((/ 2 * (a 3%nat - 4) ^ 2 + / 2 * (a 0%nat - 4) ^ 2) - (/ 2 * (b 3%nat - 4) ^ 2 + / 2 * (b 0%nat - 4) ^ 2))).
  { intros a b. rewrite (multi_task_lemma com uMbs uRobots 1 uDim 1 t0 uOps uData uOut t t' (fun _ => uNoDup) N uHist R eq_refl U a b). change (latest mtGiveW 1 uOps) with 3. change (latest mtGiveDim uDim uOps) with uDim. change (latest mtGiveK 1 uOps) with 4. change (mrJacs uOut) with [uJac; uJac]. change (vget uDim) with (fun _ : nat => 1). rewrite !uSeparate. reflexivity. }
  split.
  - intros z. specialize (C (fun _ => 4) z). cbv beta in C. pose proof (pow2_ge_0 (z 3%nat - 4)). pose proof (pow2_ge_0 (z 0%nat - 4)). lra.
  - specialize (C (fun _ => 4) (fun _ => 2)). cbv beta in C. lra.
Qed.

(** ** Definedness of the error *)
Definition massive (rs : list nat) (mbs : list bodyMasses) : Prop := Forall (fun r => (r < length mbs)%nat /\ 0 < massOf (nth r mbs [])) rs.
Lemma massLoop_def mbs : forall rs, massive rs mbs -> exists l tot, massLoop mbs rs = Ok (l, tot).
Proof.
  induction rs as [|r rs IH]; intros F; cbn [massLoop]; [eauto|]. apply Forall_cons_iff in F as ((F1 & _) & F). destruct (IH F) as (l & tot & E). unfold vec_at. destruct (nth_error mbs r) eqn:N; [|apply nth_error_None in N; lia]. cbn [bind]. rewrite E. cbn [bind]. eauto.
Qed.
Lemma group_nonneg mbs : forall rs, massive rs mbs -> 0 <= massOf (groupBodies mbs rs).
Proof. induction rs as [|r rs IH]; intros F; [unfold massOf; cbn; lra|]. apply Forall_cons_iff in F as ((_ & F1) & F). specialize (IH F). rewrite group_cons, massOf_app. apply Rplus_le_le_0_compat; [apply Rlt_le; exact F1|exact IH]. Qed.
Lemma group_pos mbs rs : rs <> [] -> massive rs mbs -> 0 < massOf (groupBodies mbs rs).
Proof. intros N F. destruct rs as [|r rs]; [congruence|]. apply Forall_cons_iff in F as ((_ & F1) & F). pose proof (group_nonneg _ _ F). rewrite group_cons, massOf_app. apply Rplus_lt_le_0_compat; assumption. Qed.
Lemma divLoop_def tot : tot <> 0 -> forall l, exists ws, divLoop tot l = Ok ws.
Proof. intros N. induction l as [|m l (ws & IH)]; cbn [divLoop]; [eauto|]. unfold divOk. destruct (Req_EM_T tot 0); [contradiction|]. cbn [bind]. rewrite IH. cbn [bind]. eauto. Qed.
Lemma robotsWeight_def mbs rs : rs <> [] -> massive rs mbs -> exists ws, robotsWeight mbs rs = Ok ws.
Proof.
  intros N F. unfold robotsWeight. destruct (massLoop_def _ _ F) as (l & tot & E). rewrite E. cbn [bind]. apply massLoop_Ok in E as (_ & ->). apply divLoop_def. pose proof (group_pos _ _ N F). lra.
Qed.
Lemma evalLoop_def mbs : forall rs ws e, length ws = length rs -> massive rs mbs -> exists e', evalLoop mbs rs ws e = Ok e'.
Proof.
  induction rs as [|r rs IH]; intros [|w ws] e L F; try discriminate; cbn [evalLoop]; [eauto|]. apply Forall_cons_iff in F as ((F1 & F2) & F). unfold vec_at. destruct (nth_error mbs r) as [b|] eqn:N; [|apply nth_error_None in N; lia]. cbn [bind].
  rewrite (nth_error_nth _ _ _ N) in F2. destruct (computeCoM_def b ltac:(lra)) as (c & ->). cbn [bind]. apply IH; auto.
Qed.
Lemma multi_com_defined_lemma mbs0 rs c0 ops : rs <> [] -> massive rs mbs0 -> Forall (fun o => match o with McInertia m => massive rs m | McUpdate m => massive rs m | McCom _ => True end) ops ->
  exists t0 t, newMCoM mbs0 rs c0 = Ok t0 /\ mcRun ops t0 = Ok t.
Proof.
  intros N F H. destruct (robotsWeight_def _ _ N F) as (ws & E). unfold newMCoM. rewrite E. cbn [bind]. exists (mkMCoM c0 rs ws v0). assert (X : exists t, mcRun ops (mkMCoM c0 rs ws v0) = Ok t); [|destruct X as (t & X); exists t; auto].
  assert (L : length ws = length rs) by (apply robotsWeight_Ok in E as (-> & _); apply map_length). clear E F. revert L. generalize c0 ws v0. clear c0 ws. induction ops as [|o ops IH]; intros c ws e L; cbn [mcRun]; [eauto|]. apply Forall_cons_iff in H as (H1 & H).
  destruct o as [m|c'|m]; cbn [mcStep].
  - unfold mcInertia. cbn [mcRobots]. destruct (robotsWeight_def _ _ N H1) as (ws' & E). rewrite E. cbn [bind mcCom mcEval]. apply (IH H). apply robotsWeight_Ok in E as (-> & _). apply map_length.
  - cbn [bind mcRobots mcWeights mcEval]. apply (IH H). exact L.
  - unfold mcEvalUpdate. cbn [mcRobots mcWeights mcCom]. destruct (evalLoop_def m rs ws c L H1) as (e' & ->). cbn [bind]. apply (IH H). exact L.
Qed.
Lemma cMassive m x : 0 < m -> massive [2; 0]%nat (cBodies m x).
Proof. intros H. repeat constructor; cbn; unfold massOf; cbn; lra. Qed.
