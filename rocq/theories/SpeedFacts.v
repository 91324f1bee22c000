(** Lemmas about BoundedSpeedConstr. *)
From Verif Require Import MotionProofs PlaneProofs LayoutProofs ContactProofs ContactRowsProofs JacProofs.
From Verif Require Export SpeedSpec.
Open Scope list_scope.
Open Scope R_scope.
Local Arguments sumn : simpl never.

Lemma inr_true s n i : inr s n i = true <-> (s <= i < s + n)%nat.
Proof. unfold inr. rewrite andb_true_iff, Nat.leb_le, Nat.ltb_lt. tauto. Qed.
Lemma inr_false s n i : inr s n i = false <-> ~ (s <= i < s + n)%nat.
Proof. rewrite <- not_true_iff_false, inr_true. tauto. Qed.

(** One turn of the loop. *)
Section Turn.
Variables (mb : multibody) (K : bkin) (n b : nat) (step : R).
Definition zOut (A : mat) : Prop := mcols A = n /\ forall i j, ~ (b <= j < b + nrDof mb)%nat -> mget A i j = 0.
Definition rowIs (A : mat) (L U : vec R) (e : speedData) (k i : nat) : Prop :=
  let s := sdSpec e in let p := sdPath e in
  (forall x, sumn n (fun j => mget A i j * x j) = selected (spDof s) k (fun q => jacDot mb p (bkJac K p (spPoint s) q) (fun j => x (b + j)%nat))) /\
  vget L i = selected (spDof s) k (fun q => - bkNAcc K p (spPoint s) q - bkVel K p (spPoint s) q / step) + vget (spL s) k / step /\
  vget U i = selected (spDof s) k (fun q => - bkNAcc K p (spPoint s) q - bkVel K p (spPoint s) q / step) + vget (spU s) k / step.
Definition sameRow (A A' : mat) (L L' U U' : vec R) (i : nat) : Prop :=
  (forall j, mget A' i j = mget A i j) /\ vget L' i = vget L i /\ vget U' i = vget U i.
Definition sameDims (A A' : mat) (L L' U U' : vec R) : Prop := mrows A' = mrows A /\ mcols A' = mcols A /\ vlen L' = vlen L /\ vlen U' = vlen U.
Definition dataOk (e : speedData) : Prop := wfPath mb (sdPath e) /\ speedOk (sdSpec e).
Definition cells (l : list speedData) : list (speedData * nat) := flat_map (fun e => map (pair e) (seq 0 (spRows e))) l.
Lemma cells_length l : length (cells l) = sumnat (map spRows l).
Proof. induction l as [|e l IH]; [reflexivity|]. unfold cells in *. cbn [flat_map map sumnat]. rewrite app_length, map_length, seq_length, IH. reflexivity. Qed.

Lemma speedLoop_step e l index A L U r : speedLoop mb K (Some b) step (e :: l) index A L U = Ok r -> wfPath mb (sdPath e) -> zOut A -> (b + nrDof mb <= n)%nat ->
  exists A1 L1 U1, speedLoop mb K (Some b) step l (index + spRows e) A1 L1 U1 = Ok r /\ zOut A1 /\ sameDims A A1 L L1 U U1 /\ step <> 0 /\ speedOk (sdSpec e) /\
    (forall k, (k < spRows e)%nat -> rowIs A1 L1 U1 e k (index + k)) /\
    (forall i, (i < index)%nat \/ (index + spRows e <= i)%nat -> sameRow A A1 L L1 U U1 i).
Proof.
  intros H WP (Z1 & Z2) LE. cbn [speedLoop] in H. apply bind_Ok in H as (full & HF & H). apply bind_Ok in H as (blk & HB & H). cbn [bind] in H.
  apply bind_Ok in H as (A1 & HA & H). apply bind_Ok in H as (u & G1 & H). apply bind_Ok in H as (low & HW & H). apply bind_Ok in H as (L1 & HL & H).
  apply bind_Ok in H as (seg & HS & H). apply bind_Ok in H as (U1 & HU & H). apply bind_Ok in H as (u2 & G2 & H). apply bind_Ok in H as (L2 & HL2 & H). apply bind_Ok in H as (U2 & HU2 & H).
  destruct (fullJacobian_spec mb (sdPath e) (mkMat 6 (pathDof mb (sdPath e)) (bkJac K (sdPath e) (spPoint (sdSpec e)))) (mzero 6 (nrDof mb)) WP) as (full' & F1 & F2 & F3 & _ & F5); [cbn; lia..|].
  rewrite HF in F1. injection F1 as <-. cbn in F2, F3, F5. apply mmul_Ok in HB as (B1 & B2 & B3 & B4). rewrite F2 in B1.
  apply mset_block_Ok in HA as (A2 & A3 & A4 & A5 & A6). rewrite B2, B3, F3 in *. fold (spRows e) in *.
  apply guard_Ok in G1. apply guard_Ok, andb_true_iff in G2 as (G2 & G3). apply Nat.eqb_eq in G2, G3.
  apply mvec_Ok in HW as (_ & W2 & W3). apply vset_seg_Ok in HL as (L3 & L4 & L5). apply vseg_Ok in HS as (S1 & S2 & S3).
  apply vset_seg_Ok in HU as (U3 & U4 & U5). apply vadd_seg_Ok in HL2 as (Q1 & Q2 & Q3). apply vadd_seg_Ok in HU2 as (P1 & P2 & P3). cbn in Q1, Q3, P1, P3.
  fold (spRows e) in W2. rewrite W2 in *. rewrite S2 in *.
  exists A1, L2, U2. split; [exact H|]. split; [|split; [|split; [|split; [|split]]]].
  - split; [congruence|]. intros i j Hj. rewrite A6. replace (inr b (nrDof mb) j) with false by (symmetry; apply inr_false; exact Hj). rewrite andb_false_r. auto.
  - repeat (split; [congruence|]). congruence.
  - intros E. rewrite E in G1. unfold Reqb in G1. destruct (Req_EM_T 0 0); [discriminate|contradiction].
  - split; [exact B1|]. split; [exact G2|exact G3].
  - intros k Hk. assert (IN : inr index (spRows e) (index + k) = true) by (apply inr_true; lia). split; [|split].
    + intros x. rewrite (sumn_window n b (nrDof mb)); [|exact LE|].
      * erewrite sumn_ext; [|intros j Hj; rewrite A6, IN; replace (inr b (nrDof mb) (b + j)) with true by (symmetry; apply inr_true; lia); cbn [andb];
          replace (index + k - index)%nat with k by lia; replace (b + j - b)%nat with j by lia; rewrite B4, B1, <- sumn_scal_r; reflexivity].
        rewrite sumn_swap. unfold selected. apply sumn_ext. intros q Hq. erewrite sumn_ext; [|intros j Hj; rewrite Rmult_assoc; reflexivity]. rewrite sumn_scal. f_equal.
        exact (F5 q (fun j => x (b + j)%nat) Hq).
      * intros j _ Hj. rewrite A6. replace (inr b (nrDof mb) j) with false by (symmetry; apply inr_false; lia). rewrite andb_false_r, Z2 by lia. ring.
    + rewrite Q3, IN, L5, IN. replace (index + k - index)%nat with k by lia. cbn. rewrite W3, B1. reflexivity.
    + rewrite P3, IN, U5, IN. replace (index + k - index)%nat with k by lia. cbn. rewrite S3, L5, IN. replace (index + k - index)%nat with k by lia. rewrite W3, B1. reflexivity.
  - intros i Hi. assert (OUT : inr index (spRows e) i = false) by (apply inr_false; lia). split; [|split].
    + intros j. rewrite A6, OUT. reflexivity.
    + rewrite Q3, OUT, L5, OUT. reflexivity.
    + rewrite P3, OUT, U5, OUT. reflexivity.
Qed.
Lemma rowIs_same A A' L L' U U' e k i : sameRow A A' L L' U U' i -> rowIs A L U e k i -> rowIs A' L' U' e k i.
Proof. intros (S1 & S2 & S3) (R1 & R2 & R3). split; [|split; congruence]. intros x. rewrite <- R1. apply sumn_ext. intros j _. rewrite S1. reflexivity. Qed.
Lemma speedLoop_Ok : forall l index A L U A' L' U', speedLoop mb K (Some b) step l index A L U = Ok (A', L', U') -> Forall (fun e => wfPath mb (sdPath e)) l -> zOut A ->
  (b + nrDof mb <= n)%nat -> zOut A' /\ sameDims A A' L L' U U' /\ (l <> [] -> step <> 0) /\ Forall (fun e => speedOk (sdSpec e)) l /\
  (forall i e k, nth_error (cells l) i = Some (e, k) -> rowIs A' L' U' e k (index + i)) /\
  (forall i, (i < index)%nat \/ (index + length (cells l) <= i)%nat -> sameRow A A' L L' U U' i).
Proof.
  induction l as [|e l IH]; intros index A L U A' L' U' H WF Z LE.
  - cbn in H. injection H as <- <- <-. split; [exact Z|]. split; [repeat split|]. split; [congruence|]. split; [constructor|]. split; [intros [|i]; discriminate|]. intros; repeat split.
  - inversion WF as [|e0 l0 W1 W2]; subst. apply speedLoop_step in H as (A1 & L1 & U1 & H & Z1 & (D1 & D2 & D3 & D4) & NZ & OKE & ROWS & KEEP); auto.
    apply IH in H as (Z2 & (E1 & E2 & E3 & E4) & _ & OKL & ROWS2 & KEEP2); auto. split; [exact Z2|]. split; [repeat split; congruence|]. split; [auto|]. split; [constructor; auto|].
    unfold cells in *. cbn [flat_map]. split.
    + intros i e' k Hi. destruct (Nat.lt_ge_cases i (spRows e)) as [LT|GE].
      * rewrite nth_error_app1 in Hi by (rewrite map_length, seq_length; exact LT). rewrite nth_error_map, nth_error_nth' with (d := 0%nat) in Hi by (rewrite seq_length; exact LT).
        rewrite seq_nth in Hi by exact LT. injection Hi as <- <-. eapply rowIs_same; [|apply ROWS; exact LT]. apply KEEP2. lia.
      * rewrite nth_error_app2 in Hi by (rewrite map_length, seq_length; exact GE). rewrite map_length, seq_length in Hi. replace (index + i)%nat with (index + spRows e + (i - spRows e))%nat by lia. auto.
    + rewrite app_length, map_length, seq_length. intros i Hi. destruct (KEEP i) as (K1 & K2 & K3); [lia|]. destruct (KEEP2 i) as (K4 & K5 & K6); [lia|].
      split; [|split; congruence]. intros j. rewrite K4. apply K1.
Qed.
Lemma speedLoop_def : forall l index A L U, Forall dataOk l -> step <> 0 -> zOut A -> (b + nrDof mb <= n)%nat ->
  (index + sumnat (map spRows l) <= mrows A)%nat -> vlen L = mrows A -> vlen U = mrows A -> exists r, speedLoop mb K (Some b) step l index A L U = Ok r.
Proof.
  induction l as [|e l IH]; intros index A L U WF NZ Z LE HR HL HU; [cbn; eauto|]. inversion WF as [|e0 l0 (W1 & S1 & S2 & S3) W2]; subst. cbn [map sumnat] in HR.
  assert (X : forall m : res (mat * vec R * vec R), (forall A1 L1 U1, m = speedLoop mb K (Some b) step l (index + spRows e) A1 L1 U1 -> zOut A1 -> sameDims A A1 L L1 U U1 -> exists r, m = Ok r)).
  { intros m A1 L1 U1 -> Z1 (D1 & D2 & D3 & D4). apply IH; auto; lia. }
  destruct Z as (Z1 & Z2). cbn [speedLoop].
  destruct (fullJacobian_spec mb (sdPath e) (mkMat 6 (pathDof mb (sdPath e)) (bkJac K (sdPath e) (spPoint (sdSpec e)))) (mzero 6 (nrDof mb)) W1) as (full & F1 & F2 & F3 & _); [cbn; lia..|].
  rewrite F1. cbn [bind]. cbn in F2, F3. destruct (mmul_def (spDof (sdSpec e)) full) as (blk & EB); [lia|]. rewrite EB. cbn [bind]. apply mmul_Ok in EB as (B1 & B2 & B3 & _).
  destruct (mset_block_def A index b blk) as (A1 & EA); [rewrite B2; fold (spRows e); lia|lia|]. rewrite EA. cbn [bind]. apply mset_block_Ok in EA as (_ & _ & A4 & A5 & A6).
  replace (guard (negb (Reqb step 0))) with (Ok tt) by (unfold Reqb; destruct (Req_EM_T step 0); [contradiction|reflexivity]). cbn [bind].
  destruct (mvec_def (spDof (sdSpec e)) (mkVec 6 (fun q => - bkNAcc K (sdPath e) (spPoint (sdSpec e)) q - bkVel K (sdPath e) (spPoint (sdSpec e)) q / step))) as (low & EW); [cbn; lia|].
  rewrite EW. cbn [bind]. apply mvec_Ok in EW as (_ & W3 & _).
  destruct (vset_seg_def L index low) as (L1 & EL); [rewrite W3; fold (spRows e); lia|]. rewrite EL. cbn [bind]. apply vset_seg_Ok in EL as (_ & L4 & _).
  destruct (vseg_def L1 index (spRows e)) as (seg & ES); [lia|]. rewrite ES. cbn [bind]. apply vseg_Ok in ES as (_ & S4 & _).
  destruct (vset_seg_def U index seg) as (U1 & EU); [lia|]. rewrite EU. cbn [bind]. apply vset_seg_Ok in EU as (_ & U4 & _).
  fold (spRows e) in S2, S3. rewrite S2, S3, Nat.eqb_refl. cbn [andb guard bind].
  destruct (vadd_seg_def L1 index (mkVec (spRows e) (fun i => vget (spL (sdSpec e)) i / step))) as (L2 & EL2); [cbn; lia|]. rewrite EL2. cbn [bind]. apply vadd_seg_Ok in EL2 as (_ & L6 & _).
  destruct (vadd_seg_def U1 index (mkVec (spRows e) (fun i => vget (spU (sdSpec e)) i / step))) as (U2 & EU2); [cbn; lia|]. rewrite EU2. cbn [bind]. apply vadd_seg_Ok in EU2 as (_ & U6 & _).
  eapply X; [reflexivity| |repeat split; congruence].
  split; [congruence|]. intros i j Hj. rewrite A6, B3, F3. replace (inr b (nrDof mb) j) with false by (symmetry; apply inr_false; exact Hj). rewrite andb_false_r. auto.
Qed.
End Turn.

(** Histories. *)
Lemma sRun_app nm mbs : forall o1 o2 c, sRun nm mbs c (o1 ++ o2) = do c' <- sRun nm mbs c o1; sRun nm mbs c' o2.
Proof. induction o1 as [|o o1 IH]; intros o2 c; simpl; [auto|]. destruct (sStep nm mbs c o); simpl; auto. Qed.
Lemma speedsFrom_app : forall o1 o2 l, speedsFrom l (o1 ++ o2) = speedsFrom (speedsFrom l o1) o2.
Proof. induction o1 as [|o o1 IH]; intros o2 l; [auto|]. destruct o; simpl; auto. Qed.
Lemma eqb_dec a b : String.eqb a b = if string_dec a b then true else false.
Proof. destruct (string_dec a b) as [E|E]; [apply String.eqb_eq|apply String.eqb_neq]; exact E. Qed.

Section Run.
Variables (nm : names) (mbs : list multibody) (r : nat) (step : R).
Definition sInv (l : list speedSpec) (c : speedConstr) : Prop :=
  scRobot c = r /\ scStep c = step /\ map sdSpec (scData c) = l /\ Forall (fun e => nPath nm r (spBody (sdSpec e)) = Ok (sdPath e)) (scData c).
Lemma erase_data body : forall l, map sdSpec (fst (eraseSpeed body l)) = dropSpeed body (map sdSpec l) /\
  (forall P, Forall P l -> Forall P (fst (eraseSpeed body l))) /\ (snd (eraseSpeed body l) = true <-> In body (map spBody (map sdSpec l))).
Proof.
  induction l as [|e l (I1 & I2 & I3)]; cbn [eraseSpeed map]; [split; [reflexivity|split; [auto|split; [discriminate|intros []]]]|].
  cbn [dropSpeed]. rewrite eqb_dec. destruct (string_dec (spBody (sdSpec e)) body) as [E|E]; cbn [fst snd].
  - split; [reflexivity|]. split; [|cbn; tauto]. intros P H. inversion H; auto.
  - destruct (eraseSpeed body l) as (l2, b2). cbn [fst snd map] in *. split; [congruence|]. split; [|cbn; rewrite <- I3; tauto].
    intros P H. inversion H; subst. constructor; auto.
Qed.
Lemma sUpdate_Ok K c c' : speedUpdate mbs K c = Ok c' -> exists mb, nth_error mbs (scRobot c) = Some mb /\ scRobot c' = scRobot c /\ scBegin c' = scBegin c /\
  scData c' = scData c /\ scVars c' = scVars c /\ scStep c' = scStep c /\ speedLoop mb K (scBegin c) (scStep c) (scData c) 0 (scA c) (scL c) (scU c) = Ok (scA c', scL c', scU c').
Proof.
  unfold speedUpdate. intros H. apply bind_Ok in H as (mb & M & H). apply vec_at_Ok in M. apply bind_Ok in H as (((A & L) & U) & HL & H). injection H as <-.
  exists mb. repeat (split; [solve [auto]|]). exact HL.
Qed.
Lemma s_step l c o c' : sInv l c -> sStep nm mbs c o = Ok c' -> sInv (speedsFrom l [o]) c'.
Proof.
  intros (I1 & I2 & I3 & I4) H. destruct o as [s|b| | |d|K]; cbn [sStep speedsFrom] in *.
  - unfold addSpeed in H. apply bind_Ok in H as (p & HP & H). apply bind_Ok in H as (u & _ & H). injection H as <-. unfold sInv. cbn. rewrite map_app, I3. repeat (split; [solve [auto]|]).
    apply Forall_app. split; [exact I4|]. constructor; [|constructor]. cbn. rewrite <- I1. exact HP.
  - injection H as <-. unfold removeSpeed. destruct (erase_data b (scData c)) as (E1 & E2 & _). destruct (eraseSpeed b (scData c)) as (l2, b2). unfold sInv. cbn in *. rewrite <- I3. repeat (split; [solve [auto]|]). auto.
  - injection H as <-. unfold sInv. cbn. auto.
  - injection H as <-. unfold sInv. cbn. auto.
  - unfold speedNrVars in H. apply bind_Ok in H as (b & _ & H). injection H as <-. unfold sInv. cbn. auto.
  - apply sUpdate_Ok in H as (mb & M & E1 & E2 & E3 & E4 & E5 & _). unfold sInv. rewrite E1, E5, E3. auto.
Qed.
Lemma s_run : forall ops l c c', sInv l c -> sRun nm mbs c ops = Ok c' -> sInv (speedsFrom l ops) c'.
Proof.
  induction ops as [|o ops IH]; intros l c c' I H; cbn in H; [injection H as <-; exact I|]. apply bind_Ok in H as (c1 & H1 & H).
  change (o :: ops) with ([o] ++ ops). rewrite speedsFrom_app. eapply IH; [|exact H]. eapply s_step; eauto.
Qed.
Lemma s_new c0 : newSpeed mbs r step = Ok c0 -> sInv [] c0.
Proof. unfold newSpeed. intros H. apply bind_Ok in H as (mb & _ & H). injection H as <-. unfold sInv. cbn. auto. Qed.

Variables (d : solverData) (b : nat).
Hypothesis HB : alphaDBegin d r = Ok b.
Hypothesis HF : (b + nrDof (robot mbs r) <= sdNrVars d)%nat.
Hypothesis HPaths : pathsOk nm mbs.
Definition zS (c : speedConstr) : Prop :=
  scBegin c = Some b /\ scVars c = sdNrVars d /\ zOut (robot mbs r) (sdNrVars d) b (scA c) /\ vlen (scL c) = mrows (scA c) /\ vlen (scU c) = mrows (scA c).
Definition fitted (c : speedConstr) : Prop := mrows (scA c) = sumnat (map spRows (scData c)).
Lemma robot_eq mb i : nth_error mbs i = Some mb -> robot mbs i = mb.
Proof. intros H. unfold robot. apply nth_error_nth with (d := mkMB []) in H. exact H. Qed.
Lemma zero_out m : zOut (robot mbs r) (sdNrVars d) b (mzero m (sdNrVars d)).
Proof. split; reflexivity. Qed.
Lemma paths_wf l c mb : sInv l c -> nth_error mbs r = Some mb -> Forall (fun e => wfPath mb (sdPath e)) (scData c).
Proof. intros (I1 & I2 & I3 & I4) M. eapply Forall_impl; [|exact I4]. intros e He. exact (HPaths r mb _ _ M He). Qed.
Lemma sz_step l c o c' : sInv l c -> zS c -> sNoNr o -> sStep nm mbs c o = Ok c' -> zS c' /\ (sOnlyUp o -> fitted c -> fitted c').
Proof.
  intros I (Z1 & Z2 & Z3 & Z4 & Z5) S H. destruct o as [s|bo| | |d'|K]; cbn [sStep sNoNr sOnlyUp] in *; try contradiction.
  - unfold addSpeed in H. apply bind_Ok in H as (p & HP & H). apply bind_Ok in H as (u & _ & H). injection H as <-. split; [|tauto]. unfold zS. cbn. auto.
  - injection H as <-. unfold removeSpeed. destruct (eraseSpeed bo (scData c)) as (l2, b2). split; [|tauto]. unfold zS. cbn. auto.
  - injection H as <-. split; [|tauto]. unfold zS. cbn. auto.
  - injection H as <-. split; [|tauto]. unfold zS. cbn. rewrite Z1, Z2. repeat (split; [solve [auto]|]). split; [apply zero_out|auto].
  - apply sUpdate_Ok in H as (mb & M & E1 & E2 & E3 & E4 & E5 & HL). rewrite (proj1 I) in M. rewrite Z1 in HL. rewrite (robot_eq mb r M) in *.
    apply speedLoop_Ok with (n := sdNrVars d) in HL as (Q1 & (D1 & D2 & D3 & D4) & _); auto; [|exact (paths_wf _ _ _ I M)].
    split; [|intros _; unfold fitted; congruence]. unfold zS. rewrite (robot_eq mb r M). split; [congruence|]. split; [congruence|]. split; [exact Q1|]. split; congruence.
Qed.
Lemma sz_run : forall ops l c c', sInv l c -> zS c -> Forall sNoNr ops -> sRun nm mbs c ops = Ok c' -> zS c' /\ (Forall sOnlyUp ops -> fitted c -> fitted c').
Proof.
  induction ops as [|o ops IH]; intros l c c' I Z S H; cbn in H; [injection H as <-; auto|]. apply bind_Ok in H as (c1 & H1 & H). inversion S; subst.
  destruct (sz_step l c o c1) as (Z1 & F1); auto. destruct (IH (speedsFrom l [o]) c1 c') as (Z2 & F2); auto; [eapply s_step; eauto|].
  split; [exact Z2|]. intros U. inversion U; subst. auto.
Qed.
Lemma onlyUp_noNr l : Forall sOnlyUp l -> Forall sNoNr l.
Proof. apply Forall_impl. intros [] ?; cbn in *; tauto. Qed.
Lemma sz_sized ops c0 c : newSpeed mbs r step = Ok c0 -> sRun nm mbs c0 ops = Ok c -> sSized d ops -> sInv (speedsAfter ops) c /\ zS c /\ fitted c.
Proof.
  intros H0 H (pre & p1 & p2 & -> & N1 & N2 & SZ). split; [eapply s_run; [apply s_new; exact H0|exact H]|].
  rewrite sRun_app in H. apply bind_Ok in H as (c1 & H1 & H). cbn [sRun sStep] in H. apply bind_Ok in H as (c2 & H2 & H). rewrite sRun_app in H. apply bind_Ok in H as (c3 & H3 & H).
  assert (I1 : sInv (speedsAfter pre) c1) by (eapply s_run; [apply s_new; exact H0|exact H1]).
  assert (I2 : sInv (speedsFrom (speedsAfter pre) [SNr d]) c2) by (eapply s_step; [exact I1|exact H2]).
  assert (Z2 : zS c2 /\ fitted c2).
  { unfold speedNrVars in H2. rewrite (proj1 I1), HB in H2. cbn in H2. injection H2 as <-. split; [|reflexivity]. unfold zS. cbn [updateNrEq scBegin scVars scA scL scU]. split; [reflexivity|]. split; [reflexivity|]. split; [apply zero_out|auto]. }
  destruct Z2 as (Z2 & F2). assert (Z3 : zS c3 /\ fitted c3).
  { destruct SZ as [->|(q & ->)]; [cbn in H3; injection H3 as <-; auto|]. rewrite sRun_app in H3. apply bind_Ok in H3 as (c4 & H4 & H3). cbn in H3. injection H3 as <-.
    apply Forall_app in N1 as (N1 & _). destruct (sz_run q _ c2 c4 I2 Z2 N1 H4) as (Z4 & _). destruct Z4 as (Q1 & Q2 & Q3 & Q4 & Q5). split; [|reflexivity].
    unfold zS. cbn [updateSpeeds updateNrEq scBegin scVars scA scL scU]. rewrite Q1, Q2. split; [reflexivity|]. split; [reflexivity|]. split; [apply zero_out|auto]. }
  destruct Z3 as (Z3 & F3). assert (I3 : sInv (speedsFrom (speedsFrom (speedsAfter pre) [SNr d]) p1) c3) by (eapply s_run; [exact I2|exact H3]).
  destruct (sz_run p2 _ c3 c I3 Z3 (onlyUp_noNr _ N2) H) as (Z5 & F5). auto.
Qed.
End Run.

Lemma cells_specs l : map (fun ek => (sdSpec (fst ek), snd ek)) (cells l) = speedRows (map sdSpec l).
Proof.
  induction l as [|e l IH]; [reflexivity|]. unfold cells, speedRows in *. cbn [flat_map map]. rewrite map_app, IH. f_equal. rewrite map_map. reflexivity.
Qed.
Lemma speedRows_length l : length (speedRows l) = sumnat (map (fun s => mrows (spDof s)) l).
Proof. induction l as [|e l IH]; [reflexivity|]. unfold speedRows in *. cbn [flat_map map sumnat]. rewrite app_length, map_length, seq_length, IH. reflexivity. Qed.

Lemma selected_lin S k f g h a : selected S k (fun q => f q + a * (g q + h q)) = selected S k f + a * (selected S k g + selected S k h).
Proof. unfold selected. rewrite <- sumn_plus, <- sumn_scal, <- sumn_plus. apply sumn_ext. intros q _. ring. Qed.
Lemma row_means A L U l u x v na g step : 0 < step -> A = x -> L = - na - v / step + l / step -> U = - na - v / step + u / step -> g = v + step * (x + na) ->
  (L <= A <= U <-> l <= g <= u).
Proof.
  intros P -> -> -> ->. assert (X : forall t, - na - v / step + t / step <= x <-> t <= v + step * (x + na)).
  { intros t. split; intros H.
    - apply (Rmult_le_compat_l step) in H; [|lra]. replace (step * (- na - v / step + t / step)) with (- step * na - v + t) in H by (field; lra). lra.
    - apply (Rmult_le_reg_l step); [lra|]. replace (step * (- na - v / step + t / step)) with (- step * na - v + t) by (field; lra). lra. }
  assert (Y : forall t, x <= - na - v / step + t / step <-> v + step * (x + na) <= t).
  { intros t. split; intros H.
    - apply (Rmult_le_compat_l step) in H; [|lra]. replace (step * (- na - v / step + t / step)) with (- step * na - v + t) in H by (field; lra). lra.
    - apply (Rmult_le_reg_l step); [lra|]. replace (step * (- na - v / step + t / step)) with (- step * na - v + t) by (field; lra). lra. }
  rewrite X, Y. tauto.
Qed.

Section Main.
Variables (nm : names) (mbs : list multibody) (r : nat) (d : solverData) (step : R).
Definition speedMeans (c : speedConstr) (K : bkin) (s : speedSpec) (k i : nat) : Prop :=
  forall x, holdsGenRow (sdNrVars d) x (speedGen c) i <->
    vget (spL s) k <= selected (spDof s) k (nextVel nm mbs r d step s K x) <= vget (spU s) k.
Lemma reach_facts ops c : sReaches nm mbs r d step ops c -> exists b mb, nth_error mbs r = Some mb /\ alphaDBegin d r = Ok b /\ (b + nrDof (robot mbs r) <= sdNrVars d)%nat /\
  pathsOk nm mbs /\ sInv nm r step (speedsAfter ops) c /\ zS mbs r d b c /\ fitted c.
Proof.
  intros ((uni & bi & deps & HN) & HP & (c0 & H0 & H) & SZ).
  assert (M : exists mb, nth_error mbs r = Some mb). { unfold newSpeed in H0. apply bind_Ok in H0 as (mb & M & _). apply vec_at_Ok in M. eauto. }
  destruct M as (mb & M). destruct (layout_begin_lemma _ _ _ _ _ HN) as (B & _).
  assert (LT : (r < length mbs)%nat) by (apply nth_error_Some; congruence). specialize (B r LT).
  destruct (beginEnd _ _ _ _ _ _ _ _ HN B M) as (E1 & E2). rewrite <- (robot_eq mbs mb r M) in E1.
  destruct (sz_sized nm mbs r step d _ B ltac:(lia) HP ops c0 c H0 H SZ) as (I & Z & F). eexists. exists mb. split; [exact M|]. split; [exact B|]. split; [lia|]. auto.
Qed.
Lemma speed_rows ops c K : sReaches nm mbs r d step ops c -> Forall speedOk (speedsAfter ops) -> 0 < step ->
  exists c', speedUpdate mbs K c = Ok c' /\ giNr (speedGen c') = length (speedRows (speedsAfter ops)) /\
    forall i s k, nth_error (speedRows (speedsAfter ops)) i = Some (s, k) -> speedMeans c' K s k i.
Proof.
  intros HR SO PS. destruct (reach_facts ops c HR) as (b & mb & M & HB & LE & HP & I & (Z1 & Z2 & Z3 & Z4 & Z5) & F).
  pose proof I as (I1 & I2 & I3 & I4). pose proof (paths_wf nm mbs r step HP _ _ _ I M) as WP.
  assert (ALL : Forall (dataOk mb) (scData c)).
  { apply Forall_forall. intros e He. split; [rewrite Forall_forall in WP; auto|]. rewrite Forall_forall in SO. apply SO. rewrite <- I3. apply in_map. exact He. }
  rewrite (robot_eq mbs mb r M) in *.
  destruct (speedLoop_def mb K (sdNrVars d) b step (scData c) 0 (scA c) (scL c) (scU c)) as (((A & L) & U) & E); auto; [lra|rewrite F; cbn; lia|].
  unfold speedUpdate. rewrite I1, Z1, I2. apply vec_at_Ok in M as M'. rewrite M'. cbn [bind]. rewrite E. cbn [bind]. eexists. split; [reflexivity|].
  apply speedLoop_Ok with (n := sdNrVars d) in E as (Q1 & (D1 & D2 & D3 & D4) & _ & _ & ROWS & _); auto. split.
  - cbn. rewrite D1, F, speedRows_length, <- I3, map_map. reflexivity.
  - intros i s k Hi. rewrite <- I3, <- cells_specs, nth_error_map in Hi. destruct (nth_error (cells (scData c)) i) as [(e, k')|] eqn:CE; [|discriminate]. cbn in Hi. injection Hi as <- <-.
    destruct (ROWS i e k' CE) as (R1 & R2 & R3). cbn [plus] in R1, R2, R3. intros x. unfold holdsGenRow, between. cbn [speedGen giL giA giU scA scL scU vget vmap ele].
    assert (PE : pathTo nm r (spBody (sdSpec e)) = sdPath e).
    { unfold pathTo. rewrite Forall_forall in I4. rewrite I4; [reflexivity|]. apply nth_error_In in CE. unfold cells in CE. apply in_flat_map in CE as (e' & H1 & H2). apply in_map_iff in H2 as (q & H2 & _). injection H2 as <- <-. exact H1. }
    assert (NV : forall q, nextVel nm mbs r d step (sdSpec e) K x q = bkVel K (sdPath e) (spPoint (sdSpec e)) q + step * (jacDot mb (sdPath e) (bkJac K (sdPath e) (spPoint (sdSpec e)) q) (fun j => x (b + j)%nat) + bkNAcc K (sdPath e) (spPoint (sdSpec e)) q)).
    { intros q. unfold nextVel, bodyAcc, beginOf. rewrite PE, HB, (robot_eq mbs mb r M). reflexivity. }
    eapply row_means with (step := step) (na := selected (spDof (sdSpec e)) k' (bkNAcc K (sdPath e) (spPoint (sdSpec e)))) (v := selected (spDof (sdSpec e)) k' (bkVel K (sdPath e) (spPoint (sdSpec e)))); [exact PS|apply R1| | |].
    + rewrite R2. f_equal. unfold selected, Rdiv. rewrite <- sumn_scal_r, <- sumn_opp, <- sumn_minus. apply sumn_ext. intros q _. ring.
    + rewrite R3. f_equal. unfold selected, Rdiv. rewrite <- sumn_scal_r, <- sumn_opp, <- sumn_minus. apply sumn_ext. intros q _. ring.
    + rewrite <- selected_lin. unfold selected. apply sumn_ext. intros q _. rewrite NV. reflexivity.
Qed.
Lemma desc_loop rr : forall l line cur, (cur <= line)%nat ->
  speedDescLoop nm rr line cur l = match nth_error (cells l) (line - cur) with Some (e, _) => Some (nBodyName nm rr (last (sdPath e) 0%nat)) | None => None end.
Proof.
  induction l as [|e l IH]; intros line cur LE; cbn [speedDescLoop].
  - destruct (line - cur)%nat; reflexivity.
  - unfold cells. cbn [flat_map]. fold (cells l). destruct (Nat.ltb_spec line (cur + spRows e)) as [LT|GE].
    + rewrite nth_error_app1 by (rewrite map_length, seq_length; lia). rewrite nth_error_map, nth_error_nth' with (d := 0%nat) by (rewrite seq_length; lia). reflexivity.
    + rewrite nth_error_app2 by (rewrite map_length, seq_length; lia). rewrite map_length, seq_length. rewrite IH by lia. replace (line - cur - spRows e)%nat with (line - (cur + spRows e))%nat by lia. reflexivity.
Qed.
Lemma speed_registry ops c0 c : newSpeed mbs r step = Ok c0 -> sRun nm mbs c0 ops = Ok c ->
  nrSpeeds c = length (speedsAfter ops) /\ map sdSpec (scData c) = speedsAfter ops /\
  (forall b, snd (removeSpeed b c) = true <-> In b (map spBody (speedsAfter ops))) /\
  giMax (speedGen (updateSpeeds c)) = length (speedRows (speedsAfter ops)) /\
  (endsAt nm -> forall i, speedDesc nm c i = match nth_error (speedRows (speedsAfter ops)) i with Some (s, _) => Some (spBody s) | None => None end).
Proof.
  intros H0 H. pose proof (s_run nm mbs r step ops [] c0 c (s_new nm mbs r step c0 H0) H) as (I1 & I2 & I3 & I4). fold (speedsAfter ops) in I3.
  rewrite <- I3. split; [unfold nrSpeeds; rewrite map_length; reflexivity|]. split; [reflexivity|]. split; [|split].
  - intros b. destruct (erase_data b (scData c)) as (_ & _ & E). unfold removeSpeed. destruct (eraseSpeed b (scData c)). exact E.
  - cbn. rewrite speedRows_length, map_map. reflexivity.
  - intros BN i. unfold speedDesc. rewrite desc_loop by lia. rewrite Nat.sub_0_r, <- cells_specs, nth_error_map. destruct (nth_error (cells (scData c)) i) as [(e, k)|] eqn:CE; [|reflexivity]. cbn. f_equal.
    rewrite I1. apply BN. rewrite Forall_forall in I4. apply I4. apply nth_error_In in CE. unfold cells in CE. apply in_flat_map in CE as (e' & Q1 & Q2). apply in_map_iff in Q2 as (q & Q2 & _). injection Q2 as <- <-. exact Q1.
Qed.
(** What the registered constraint means as a whole. *)
Lemma speed_all ops c K c' : sReaches nm mbs r d step ops c -> Forall speedOk (speedsAfter ops) -> 0 < step -> speedUpdate mbs K c = Ok c' ->
  forall x, holdsGen (sdNrVars d) x (speedGen c') <-> forall s k, In s (speedsAfter ops) -> (k < mrows (spDof s))%nat ->
    vget (spL s) k <= selected (spDof s) k (nextVel nm mbs r d step s K x) <= vget (spU s) k.
Proof.
  intros HR SO PS U x. destruct (speed_rows ops c K HR SO PS) as (c2 & E & N & ROWS). rewrite U in E. injection E as <-. split.
  - intros H s k HS HK. assert (IN : In (s, k) (speedRows (speedsAfter ops))). { unfold speedRows. apply in_flat_map. exists s. split; [exact HS|]. apply in_map, in_seq. lia. }
    apply In_nth_error in IN as (i & Hi). apply (ROWS i s k Hi). apply H. rewrite N. apply nth_error_Some. congruence.
  - intros H i Hi. rewrite N in Hi. destruct (nth_error (speedRows (speedsAfter ops)) i) as [(s, k)|] eqn:Q; [|apply nth_error_None in Q; lia].
    apply (ROWS i s k Q). apply nth_error_In in Q. unfold speedRows in Q. apply in_flat_map in Q as (s' & Q1 & Q2). apply in_map_iff in Q2 as (k' & Q2 & Q3). injection Q2 as -> ->. apply in_seq in Q3. apply H; [exact Q1|lia].
Qed.
End Main.
