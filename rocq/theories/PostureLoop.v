From Verif Require Import LimitsProofs DamperProofs.
From Verif Require Import LayoutSpec LayoutProofs ContactRowsProofs SetPointFacts SetPointLoop SelectorSpec SelectorFacts PostureSpec PostureFacts.
From Coq Require Import Lra Psatz.
Open Scope list_scope.
Open Scope R_scope.
Local Arguments sumn : simpl never.
Local Arguments twoSqrt : simpl never.

Lemma pcost_nonneg mb b W a x : (forall c, (c < nrDof mb)%nat -> 0 < W c) -> 0 <= postureCost mb b W a x.
Proof.
  intros P. unfold postureCost. apply Rmult_le_pos; [lra|]. apply sumn_nonneg. intros c Hc. apply Rmult_le_pos; [|apply pow2_ge_0]. pose proof (P c Hc). destruct (driven_cases mb c) as [(-> & _)| ->]; lra.
Qed.
Lemma minimum_lemma mb T w b W a x : costs T w (postureCost mb b W a) -> 0 < w -> (forall c, (c < nrDof mb)%nat -> 0 < W c) ->
  minimises T x <-> forall c, (c < nrDof mb)%nat -> driven mb c = 1 -> x (b + c)%nat = a c.
Proof.
  intros C Hw HW. split.
  - intros M c Hc D. set (y := fun v => a (v - b)%nat). specialize (M y). specialize (C x y).
    assert (Z : postureCost mb b W a y = 0). { unfold postureCost. rewrite sumn_0; [ring|]. intros i Hi. unfold y. replace (b + i - b)%nat with i by lia. ring. }
    assert (L : postureCost mb b W a x <= 0) by nra. unfold postureCost in L.
    pose proof (sumn_null (nrDof mb) (fun c => driven mb c * W c * (x (b + c)%nat - a c) ^ 2)) as N. cbv beta in N.
    assert (K : driven mb c * W c * (x (b + c)%nat - a c) ^ 2 = 0).
    { apply N; auto; [|lra]. intros i Hi. apply Rmult_le_pos; [|apply pow2_ge_0]. pose proof (HW i Hi). destruct (driven_cases mb i) as [(-> & _)| ->]; lra. }
    rewrite D in K. pose proof (HW c Hc). apply Rmult_integral in K as [K|K]; [lra|]. destruct (Req_dec (x (b + c)%nat - a c) 0); [lra|]. exfalso. apply (pow_nonzero _ 2) in H0. auto.
  - intros E y. specialize (C x y). assert (Z : postureCost mb b W a x = 0).
    { unfold postureCost. rewrite sumn_0; [ring|]. intros i Hi. destruct (driven_cases mb i) as [(-> & _)|D]; [ring|]. rewrite E by auto. ring. }
    pose proof (pcost_nonneg mb b W a y HW). nra.
Qed.

Section Loop.
Variables (mbs : list multibody) (r : nat) (mb : multibody) (q0 : list (list R)) (k0 w0 : R) (ops : list poOp) (t0 t : posture) (K : R -> pcfg) (x : R -> nat -> R) (i : nat) (j : joint) (k : R).
Hypothesis Hm : nth_error mbs r = Some mb.
Hypothesis ND : NoDup (map jname (joints mb)).
Hypothesis Pl : plainJoints mb.
Hypothesis N : newPost mbs r q0 k0 w0 = Ok t0.
Hypothesis Rn : poRun mbs ops t0 = Ok t.
Hypothesis Ho : forall j o, nth_error (joints mb) 0 = Some j -> In o (latest poGiveJ [] ops) -> fst o <> jname j.
Hypothesis Hw : 0 < latest poGiveWeight w0 ops.
Hypothesis HW : forall c, (c < nrDof mb)%nat -> 0 < vget (latest poGiveW (ones (nrDof mb)) ops) c.
Hypothesis Hj : nth_error (joints mb) (S i) = Some j.
Hypothesis H1 : jdof j = 1%nat.
Hypothesis Hk : 0 < k.
Hypothesis Hg : gainsOf (latest poGiveG (k0, 2 * sqrt k0) ops) (latest poGiveJ [] ops) (jname j) = (k, 2 * sqrt k).
Hypothesis Hv : vget (latest poGiveRV (vfill (nrDof mb) 0) ops) (jointPosInDof mb (S i)) = 0.
Hypothesis Hr : vget (latest poGiveRA (vfill (nrDof mb) 0) ops) (jointPosInDof mb (S i)) = 0.
Hypothesis U : forall s, 0 <= s -> exists t', poUpdate mbs (K s) t = Ok t' /\ minimises (postTask t') (x s) /\ shaped mb (pfAlpha (K s)).
Hypothesis Dq : forall s, 0 <= s -> derivable_pt_lim (fun s => nth 0 (nth (S i) (pfQ (K s)) []) 0) s (speedOf (K s) (S i) 0).
Hypothesis Dv : forall s, 0 <= s -> derivable_pt_lim (fun s => speedOf (K s) (S i) 0) s (x s (latest (poGiveBegin r) 0%nat ops + jointPosInDof mb (S i))%nat).
Definition pErr (s : R) : R := nth 0 (nth (S i) (latest poGiveQ q0 ops) []) 0 - nth 0 (nth (S i) (pfQ (K s)) []) 0.
Lemma posture_de s : 0 <= s -> derivable_pt_lim pErr s (- speedOf (K s) (S i) 0).
Proof.
  intros Hs. eapply dlim_eq; [apply (derivable_pt_lim_minus (fun _ => nth 0 (nth (S i) (latest poGiveQ q0 ops) []) 0) _ s 0 _ (derivable_pt_lim_const _ s) (Dq s Hs))| |]; [reflexivity|ring].
Qed.
Lemma posture_dv s : 0 <= s -> derivable_pt_lim (fun s => speedOf (K s) (S i) 0) s (sqrt k * sqrt k * pErr s - 2 * sqrt k * speedOf (K s) (S i) 0).
Proof.
  intros Hs. eapply dlim_eq; [apply Dv; auto|reflexivity|]. destruct (U s Hs) as (t' & Up & M & Sh). destruct (posture_lemma _ _ _ _ _ _ _ _ _ _ _ Hm ND Pl N Rn Up Sh Ho) as (a & (_ & A) & C).
  pose proof (pos_ge1 _ _ _ Hj) as L. assert (Hn : (jointPosInDof mb (S i) < nrDof mb)%nat). { pose proof (dofBefore_lt mb (S i) j Hj) as X. apply X. lia. }
  rewrite (proj1 (minimum_lemma _ _ _ _ _ _ _ C Hw HW) M (jointPosInDof mb (S i)) Hn (driven_rest _ _ L)). specialize (A i j 0%nat Hj). rewrite Nat.add_0_r in A. rewrite A by lia.
  unfold askedAcc. rewrite Hg, Nat.add_0_r, Hv, Hr. cbn [fst snd]. unfold postureErr. rewrite H1. cbn [Nat.eqb]. rewrite (sqrt_sqrt k) by lra. unfold pErr. ring.
Qed.
Lemma posture_loop_lemma :
  (forall s, 0 <= s -> pErr s = (pErr 0 + (sqrt k * pErr 0 - speedOf (K 0) (S i) 0) * s) * exp (- sqrt k * s)) /\
  (forall eps, 0 < eps -> exists T, forall s, T <= s -> Rabs (pErr s) < eps) /\
  (forall s1 s2, 0 <= s1 < s2 -> pErr s1 = 0 -> pErr s2 = 0 -> forall s, 0 <= s -> pErr s = 0).
Proof.
  assert (Sp : 0 < sqrt k) by (apply sqrt_lt_R0; auto). split; [|split].
  - intros s Hs. apply (crit_form (sqrt k) pErr (fun s => speedOf (K s) (S i) 0)); auto using posture_de, posture_dv.
  - intros eps He. apply (crit_limit (sqrt k) pErr (fun s => speedOf (K s) (S i) 0)); auto using posture_de, posture_dv.
  - apply (crit_once (sqrt k) pErr (fun s => speedOf (K s) (S i) 0)); auto using posture_de, posture_dv.
Qed.
End Loop.

(** Definedness. *)
Definition enough (mb : multibody) (q : list (list R)) (K : pcfg) : Prop := forall i j, nth_error (joints mb) (S i) = Some j ->
  (jdof j = 1%nat -> (1 <= length (nth (S i) q []))%nat /\ (1 <= length (nth (S i) (pfQ K) []))%nat) /\ (jdof j = 3%nat -> (4 <= length (nth (S i) q []))%nat).
Lemma qat_def v i k : (k < length (nth i v []))%nat -> exists a, qat v i k = Ok a.
Proof.
  intros H. unfold qat, vec_at. destruct (nth_error v i) as [l|] eqn:E; [rewrite (nth_error_nth _ _ _ E) in H|rewrite nth_overflow in H; [cbn in H; lia|apply nth_error_None; auto]].
  cbn [bind]. destruct (nth_error l k) eqn:E2; [eauto|]. apply nth_error_None in E2. lia.
Qed.
Lemma lpLoop_def K q js : forall i pos ev, (forall m j, nth_error js m = Some j -> (jdof j = 1%nat -> (1 <= length (nth (i + m) q []))%nat /\ (1 <= length (nth (i + m) (pfQ K) []))%nat) /\ (jdof j = 3%nat -> (4 <= length (nth (i + m) q []))%nat)) ->
  (pos + sumnat (map jdof js) <= vlen ev)%nat -> exists ev', lpLoop K q js i pos ev = Ok ev'.
Proof.
  induction js as [|j js IH]; intros i pos ev H L; cbn [lpLoop]; [eauto|]. cbn [map] in L. change (sumnat (jdof j :: map jdof js)) with (jdof j + sumnat (map jdof js))%nat in L.
  destruct (H 0%nat j eq_refl) as (A1 & A3). rewrite Nat.add_0_r in *.
  assert (H' : forall m j, nth_error js m = Some j -> (jdof j = 1%nat -> (1 <= length (nth (S i + m) q []))%nat /\ (1 <= length (nth (S i + m) (pfQ K) []))%nat) /\ (jdof j = 3%nat -> (4 <= length (nth (S i + m) q []))%nat)).
  { intros m j' Hm. specialize (H (S m) j' Hm). replace (i + S m)%nat with (S i + m)%nat in H by lia. auto. }
  destruct (Nat.eqb_spec (jdof j) 1) as [E|E].
  - destruct (A1 E) as (B1 & B2). destruct (qat_def q i 0) as (a & ->); [lia|]. destruct (qat_def (pfQ K) i 0) as (b & ->); [lia|]. cbn [bind]. unfold vput. replace (Nat.ltb pos (vlen ev)) with true by (symmetry; apply Nat.ltb_lt; lia). cbn [bind].
    apply IH; cbn; auto. lia.
  - destruct (Nat.eqb_spec (jdof j) 3) as [E3|E3]; [|apply IH; auto; lia]. specialize (A3 E3).
    destruct (qat_def q i 0) as (a & ->); [lia|]. destruct (qat_def q i 1) as (b & ->); [lia|]. destruct (qat_def q i 2) as (c & ->); [lia|]. destruct (qat_def q i 3) as (d & ->); [lia|]. cbn [bind].
    destruct (vset_seg_def ev pos (mkVec 3 (fun m => match m with 0%nat => vx (pfRot K i a b c d) | 1%nat => vy (pfRot K i a b c d) | _ => vz (pfRot K i a b c d) end))) as (v & V); [cbn; lia|]. rewrite V. cbn [bind]. apply vset_seg_Ok in V as (_ & V & _). apply IH; auto. lia.
Qed.
Lemma good_sizes mbs r mb ops : nth_error mbs r = Some mb -> forall t t', poRun mbs ops t = Ok t' -> vlen (poRA t) = nrDof mb -> vlen (poW t) = nrDof mb -> vlen (poRA t') = nrDof mb /\ vlen (poW t') = nrDof mb.
Proof.
  intros Hm. induction ops as [|o ops IH]; intros t t' H A B; cbn [poRun] in H; [injection H as <-; auto|]. apply bind_Ok in H as (t1 & S1 & H). apply IH in H; auto; clear H IH; destruct o; cbn [poStep] in S1;
  repeat (match type of S1 with bind _ _ = Ok _ => apply bind_Ok in S1 as (? & ? & S1) end); try (injection S1 as <-; cbn [poRA poW withLow withGains withJD]; auto);
  try (match goal with X : vsame _ _ = Ok _ |- _ => apply vsame_Ok in X; congruence end); apply poUpdate_Ok in S1; decompose [ex and] S1; congruence.
Qed.
Lemma poSeg_def k d s n ev al rv ra C : (s + n <= vlen ev)%nat -> (s + n <= vlen al)%nat -> (s + n <= vlen rv)%nat -> (s + n <= vlen ra)%nat -> (s + n <= vlen C)%nat -> exists C', poSeg k d s n ev al rv ra C = Ok C'.
Proof.
  intros A B D E F. unfold poSeg, vseg. rewrite !(proj2 (Nat.leb_le _ _)) by auto. cbn [bind]. apply vset_seg_def. auto.
Qed.
Lemma posture_defined mbs r mb q0 k0 w0 ops t0 t K : nth_error mbs r = Some mb -> newPost mbs r q0 k0 w0 = Ok t0 -> poRun mbs ops t0 = Ok t ->
  (1 < length (joints mb))%nat -> enough mb (latest poGiveQ q0 ops) K -> shaped mb (pfAlpha K) -> (nrDof mb <= vlen (latest poGiveRV (vfill (nrDof mb) 0%R) ops))%nat -> exists t', poUpdate mbs K t = Ok t'.
Proof.
  intros Hm N Rn Len En Sh Hv. pose proof (good_new _ _ _ _ _ _ _ Hm N) as G0. pose proof (good_run _ _ _ _ Hm _ _ _ _ _ _ _ _ _ _ G0 Rn) as G. cbv beta in G.
  destruct (good_sizes _ _ _ _ Hm _ _ Rn) as (Sa & Sw); [rewrite (pgRA _ _ _ _ _ _ _ _ _ _ _ G0); auto|rewrite (pgW _ _ _ _ _ _ _ _ _ _ _ G0); auto|]. destruct G as [pgRobot0 pgTq0 pgK0 pgD0 pgJ0 pgRV0 pgRA0 pgW0 pgWeight0 pgBegin0 pgC0 pgAl0 pgEv0 pgRoot0 pgJac0].
  assert (P1 : posOf1 mb = Ok (jointPosInDof mb 1)) by (unfold posOf1; apply Nat.ltb_lt in Len; rewrite Len; auto).
  assert (L1 : (jointPosInDof mb 1 <= nrDof mb)%nat) by apply (dofBefore_nrDof mb 1).
  unfold poUpdate. rewrite pgRobot0, (proj2 (vec_at_nth _ _ _) Hm). cbn [bind]. unfold lpUpdate. rewrite P1. cbn [bind].
  destruct (lpLoop_def K (lpQ (poLow t)) (tl (joints mb)) 1 (jointPosInDof mb 1) (lpEval (poLow t))) as (ev & Hev).
  { intros m j Hj. rewrite pgTq0. apply En. destruct (joints mb); [destruct m; discriminate|exact Hj]. }
  { rewrite pgEv0. unfold nrDof, jointPosInDof. destruct (joints mb); cbn; lia. }
  pose proof Hev as Hev'. apply lpLoop_prefix in Hev' as (Lev & _). rewrite Hev. cbn [bind]. rewrite paramTo_def by (rewrite pgAl0, length_concat', Sh; unfold nrDof; auto). cbn [bind].
  unfold diagm. cbn [lpJac]. rewrite pgJac0. replace (Nat.eqb (vlen (poW t)) (mrows (lpJac (newLP mb [])))) with true by (symmetry; apply Nat.eqb_eq; rewrite Sw; auto). cbn [guard bind]. cbn [lpEval].
  match goal with |- context [poSeg ?a ?b ?c ?d ?e ?f ?g ?h ?i] => destruct (poSeg_def a b c d e f g h i) as (C1 & HC1); [rewrite Lev; lia|cbn [vlen]; lia|rewrite pgRV0; lia|lia|cbn [vlen vfill]; lia|] end. rewrite HC1. cbn [bind]. apply poSeg_Ok in HC1 as (LC & _). cbn [vlen vfill] in LC.
  match goal with |- context [poSegs ?l ?e ?f ?g ?h ?i] => assert (X : exists C2, poSegs l e f g h i = Ok C2) end.
  { clear HC1 || idtac. assert (J : forall e, In e (poJD t) -> (jdStart e + jdSize e <= nrDof mb)%nat).
    { revert pgJ0. generalize (latest poGiveJ [] ops) (poJD t). induction l as [|(nm, (kk, dd)) l IH]; intros es H e I; cbn [jointsG] in H; [injection H as <-; destruct I|].
      apply bind_Ok in H as (e0 & A & H). apply bind_Ok in H as (es' & B & H). injection H as <-. destruct I as [<-|I]; [|eauto]. unfold jointData in A. apply bind_Ok in A as (i' & A1 & A). apply bind_Ok in A as (j' & A2 & A). injection A as <-. cbn. apply vec_at_nth in A2.
      pose proof (dofBefore_nrDof mb (S i')) as D. rewrite (dofBefore_S _ _ _ A2) in D. exact D. }
    assert (LC' : vlen C1 = nrDof mb) by congruence. clear LC. revert J C1 LC'. generalize (poJD t). induction l as [|e l IH]; intros J C1 LC; cbn [poSegs]; [eauto|].
    assert (Je : (jdStart e + jdSize e <= nrDof mb)%nat) by (apply J; cbn; auto).
    match goal with |- context [poSeg ?a ?b ?c ?d ?e ?f ?g ?h ?i] => destruct (poSeg_def a b c d e f g h i) as (C2 & HC2); [rewrite Lev; lia|cbn; lia|rewrite pgRV0; lia|lia|lia|] end.
    rewrite HC2. cbn [bind]. apply poSeg_Ok in HC2 as (LC2 & _). apply IH; [intros; apply J; cbn; auto|congruence]. }
  destruct X as (C2 & HC2). rewrite HC2. cbn [bind]. apply poSegs_Ok in HC2 as (LC2 & _). unfold diagv, vsame. replace (Nat.eqb (vlen (poW t)) (vlen C2)) with true by (symmetry; apply Nat.eqb_eq; congruence). cbn [guard bind]. eauto.
Qed.
Lemma single_lemma mbs r mb t K j : nth_error mbs r = Some mb -> poRobot t = r -> joints mb = [j] -> poUpdate mbs K t = UB.
Proof. intros Hm Hr E. unfold poUpdate. rewrite Hr, (proj2 (vec_at_nth _ _ _) Hm). cbn [bind]. unfold lpUpdate, posOf1. rewrite E. reflexivity. Qed.

(** A free flyer at the root with gains of its own: along its dofs the cost is linear. *)
Lemma free_root_lemma mbs r mb q0 k0 w0 ops t0 t K t' j k x s : nth_error mbs r = Some mb -> NoDup (map jname (joints mb)) ->
  newPost mbs r q0 k0 w0 = Ok t0 -> poRun mbs ops t0 = Ok t -> poUpdate mbs K t = Ok t' -> shaped mb (pfAlpha K) ->
  nth_error (joints mb) 0 = Some j -> jdof j = 6%nat -> (k < 6)%nat -> (exists o, In o (latest poGiveJ [] ops) /\ fst o = jname j) ->
  let b := latest (poGiveBegin r) 0%nat ops in
  taskCost (postTask t') (fun v => if Nat.eqb v (b + k) then x v + s else x v) - taskCost (postTask t') x =
  latest poGiveWeight w0 ops * vget (latest poGiveW (ones (nrDof mb)) ops) k *
    (snd (gainsOf (latest poGiveG (k0, 2 * sqrt k0) ops) (latest poGiveJ [] ops) (jname j)) * (speedOf K 0 k - vget (latest poGiveRV (vfill (nrDof mb) 0) ops) k)
     - vget (latest poGiveRA (vfill (nrDof mb) 0) ops) k) * s.
Proof.
  intros Hm ND N Rn U Sh Hj H6 Hk (o & Io & Eo) b. pose proof (good_run _ _ _ _ Hm _ _ _ _ _ _ _ _ _ _ (good_new _ _ _ _ _ _ _ Hm N) Rn) as G. cbv beta in G.
  destruct (post_gradient _ _ _ _ _ _ _ _ _ _ _ _ _ _ Hm ND G U Sh) as (G' & DQ & C & DC & HC & _). destruct G' as [pgRobot0 pgTq0 pgK0 pgD0 pgJ0 pgRV0 pgRA0 pgW0 pgWeight0 pgBegin0 pgC0 pgAl0 pgEv0 pgRoot0 pgJac0].
  assert (T : forall x, taskCost (postTask t') x = latest poGiveWeight w0 ops * sumn (nrDof mb) (fun c => driven mb c * vget (latest poGiveW (ones (nrDof mb)) ops) c * x (b + c)%nat ^ 2 / 2 + vget (poC t') c * x (b + c)%nat))
      by (intros y; eapply post_cost; eauto).
  rewrite !T, <- Rmult_minus_distr_l, <- sumn_minus. assert (Hn : (k < nrDof mb)%nat). { pose proof (dofBefore_nrDof mb 1) as D. rewrite (dofBefore_S _ _ _ Hj), H6 in D. lia. }
  rewrite (sumn_delta _ k); auto.
  - rewrite Nat.eqb_refl. assert (D : driven mb k = 0). { unfold driven. destruct (joints mb) as [|j0 js]; [discriminate|]. injection Hj as ->. unfold isFree. rewrite H6. cbn [Nat.eqb andb]. replace (Nat.ltb k 6) with true by (symmetry; apply Nat.ltb_lt; lia). auto. }
    rewrite D. apply diagv_Ok in DC as (_ & _ & DC). rewrite DC. specialize (HC 0%nat j k Hj). cbv zeta in HC. replace (jointPosInDof mb 0 + k)%nat with k in HC by (unfold jointPosInDof; cbn; lia). rewrite HC by lia.
    replace (existsb _ (latest poGiveJ [] ops)) with true; [field|]. symmetry. apply existsb_exists. exists o. split; auto. apply String.eqb_eq; auto.
  - intros c Hc Nc. replace (Nat.eqb (b + c) (b + k)) with false by (symmetry; apply Nat.eqb_neq; lia). ring.
Qed.
Lemma poRun_robot mbs ops : forall t t', poRun mbs ops t = Ok t' -> poRobot t' = poRobot t.
Proof.
  induction ops as [|o ops IH]; intros t t' H; cbn [poRun] in H; [injection H as <-; auto|]. apply bind_Ok in H as (t1 & S1 & H). rewrite (IH _ _ H). clear H IH. destruct o; cbn [poStep] in S1;
  repeat (match type of S1 with bind _ _ = Ok _ => apply bind_Ok in S1 as (? & ? & S1) end); try (injection S1 as <-; auto). apply poUpdate_Ok in S1. decompose [ex and] S1. congruence.
Qed.
Lemma single_iff mbs r mb q0 k0 w0 ops t0 t K : nth_error mbs r = Some mb -> newPost mbs r q0 k0 w0 = Ok t0 -> poRun mbs ops t0 = Ok t ->
  enough mb (latest poGiveQ q0 ops) K -> shaped mb (pfAlpha K) -> (nrDof mb <= vlen (latest poGiveRV (vfill (nrDof mb) 0%R) ops))%nat ->
  ((exists t', poUpdate mbs K t = Ok t') <-> (1 < length (joints mb))%nat) /\ ((length (joints mb) <= 1)%nat -> poUpdate mbs K t = UB).
Proof.
  intros Hm N Rn En Sh Hv. split; [split|].
  - intros (t' & U). apply poUpdate_Ok in U as (mb' & low & C1 & C2 & A & _ & _ & P & _). rewrite (poRun_robot _ _ _ _ Rn) in A. pose proof (good_new _ _ _ _ _ _ _ Hm N) as G. rewrite (pgRobot _ _ _ _ _ _ _ _ _ _ _ G) in A. apply vec_at_nth in A. assert (mb' = mb) as -> by congruence.
    unfold posOf1 in P. apply bind_Ok in P as (u & P & _). apply guard_Ok, Nat.ltb_lt in P. exact P.
  - intros L. eapply posture_defined; eauto.
  - intros L. unfold poUpdate. rewrite (poRun_robot _ _ _ _ Rn). pose proof (good_new _ _ _ _ _ _ _ Hm N) as G. rewrite (pgRobot _ _ _ _ _ _ _ _ _ _ _ G), (proj2 (vec_at_nth _ _ _) Hm). cbn [bind]. unfold lpUpdate, posOf1.
    replace (Nat.ltb 1 (length (joints mb))) with false by (symmetry; apply Nat.ltb_ge; auto). reflexivity.
Qed.
