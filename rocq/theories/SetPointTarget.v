From Verif Require Import SetPointSpec ContactRowsProofs SetPointFacts SetPointLoop.
From Coq Require Import Lra Psatz.
Open Scope list_scope.
Open Scope R_scope.
Local Arguments sumn : simpl never.

(** ** PIDTask *)
Lemma pid_lemma h t t' : pidUpdate h t = Ok t' ->
  costs (commonTask (pdC t')) (cmWeight (pdC t)) (leastSquares h (cmBegin (pdC t)) (vget (cmDim (pdC t)))
    (fun i => pdP t * vget (pdE t) i - pdD t * vget (pdED t) i - pdI t * vget (pdEI t) i)) /\
  (forall i, vget (pdE t') i = pdP t * vget (pdE t) i - pdD t * vget (pdED t) i - pdI t * vget (pdEI t) i - vget (hNAcc h) i) /\
  pdP t' = pdP t /\ pdI t' = pdI t /\ pdD t' = pdD t /\ pdED t' = pdED t /\ pdEI t' = pdEI t /\
  cmWeight (pdC t') = cmWeight (pdC t) /\ cmDim (pdC t') = cmDim (pdC t) /\ cmBegin (pdC t') = cmBegin (pdC t).
Proof.
  intros H. apply bind_Ok in H as (e1 & H1 & H). apply bind_Ok in H as (e2 & H2 & H). apply bind_Ok in H as ((e, c) & H3 & H). injection H as <-. cbn.
  apply vminus_Ok in H1 as (_ & _ & H1). apply vminus_Ok in H2 as (_ & _ & H2). cbn in H1, H2.
  assert (E : forall i, vget e2 i = pdP t * vget (pdE t) i - pdD t * vget (pdED t) i - pdI t * vget (pdEI t) i) by (intros; rewrite H2, H1; auto).
  apply commonQC_Ok in H3 as (A1 & A2 & A3 & A4 & A5 & _ & _ & _ & _ & C & _).
  split; [|split; [|auto 12]].
  - eapply costs_ext; [exact C|]. intros x. apply leastSquares_ext. intros; auto.
  - intros i. rewrite A5, E. auto.
Qed.

(** ** TargetObjectiveTask *)
Lemma tgUpdate_Ok h t t' : tgUpdate h t = Ok t' ->
  let d := tgDuration t in
  d <> 0 /\ tgDt t' = tgDt t /\ tgN t' = tgN t /\ tgIter t' = (tgIter t + 1)%Z /\ tgObj t' = tgObj t /\
  cmWeight (tgC t') = cmWeight (tgC t) /\ cmDim (tgC t') = cmDim (tgC t) /\ cmBegin (tgC t') = cmBegin (tgC t) /\
  vlen (cmDim (tgC t)) = mrows (hJac h) /\
  (forall i, vget (tgPhi t') i = 6 / (d * d) * (vget (hErr h) i - d * vget (hSpeed h) i) - 2 / d * (vget (tgObj t) i - vget (hSpeed h) i)) /\
  (forall i, vget (tgPsi t') i = - 6 / (d * d) * (vget (hErr h) i - d * vget (hSpeed h) i) + 4 / d * (vget (tgObj t) i - vget (hSpeed h) i)) /\
  costs (commonTask (tgC t')) (cmWeight (tgC t)) (leastSquares h (cmBegin (tgC t)) (vget (cmDim (tgC t))) (vget (tgPhi t'))).
Proof.
  intros H d. unfold tgUpdate in H. fold (tgDuration t) in H. fold d in H.
  apply bind_Ok in H as (u & G & H). apply guard_Ok, negb_true_iff, Reqb_false in G. apply bind_Ok in H as (u' & G' & H).
  apply bind_Ok in H as (e & H1 & H). apply bind_Ok in H as ((Q, C) & H2 & H). injection H as <-. cbn.
  apply vminus_Ok in H1 as (_ & _ & H1). cbn in H1. pose proof (lsQC_Ok _ _ _ _ _ H2) as (L & _).
  repeat (split; [solve [auto]|]). split; [|split].
  - intros i. field. auto.
  - intros i. field. auto.
  - intros x y. refine (ls_cost (cmWeight (tgC t)) (cmBegin (tgC t)) h (cmDim (tgC t)) e _ Q C (cmRobot (tgC t)) H2 _ x y). intros i _. rewrite H1. auto.
Qed.

Lemma plan_lemma h t t' i p v : tgUpdate h t = Ok t' -> 0 < tgDuration t ->
  p 0 = 0 -> v 0 = vget (hSpeed h) i ->
  (forall s, 0 <= s <= tgDuration t -> derivable_pt_lim p s (v s)) ->
  (forall s, 0 <= s <= tgDuration t -> derivable_pt_lim v s (vget (tgPhi t') i + (vget (tgPsi t') i - vget (tgPhi t') i) * s / tgDuration t)) ->
  (forall s, 0 <= s <= tgDuration t ->
     v s = vget (hSpeed h) i + vget (tgPhi t') i * s + (vget (tgPsi t') i - vget (tgPhi t') i) * s ^ 2 / (2 * tgDuration t) /\
     p s = vget (hSpeed h) i * s + vget (tgPhi t') i * s ^ 2 / 2 + (vget (tgPsi t') i - vget (tgPhi t') i) * s ^ 3 / (6 * tgDuration t)) /\
  p (tgDuration t) = vget (hErr h) i /\ v (tgDuration t) = vget (tgObj t) i.
Proof.
  intros U HT P0 V0 Dp Dv. apply tgUpdate_Ok in U as (_ & _ & _ & _ & _ & _ & _ & _ & _ & Hphi & Hpsi & _).
  set (T := tgDuration t) in *. set (a := vget (tgPhi t') i) in *. set (c := vget (tgPsi t') i) in *. set (v0 := vget (hSpeed h) i) in *.
  assert (Pw : forall k s, derivable_pt_lim (fun s => s ^ k) s (INR k * s ^ pred k)) by (intros; apply derivable_pt_lim_pow).
  assert (V : forall s, 0 <= s <= T -> v s = v0 + a * s + (c - a) * s ^ 2 / (2 * T)).
  { intros s Hs. pose proof (const_int (fun s => v s - (a * s ^ 1 + (c - a) / (2 * T) * s ^ 2)) T) as K. cbv beta in K.
    assert (K' : v s - (a * s ^ 1 + (c - a) / (2 * T) * s ^ 2) = v 0 - (a * 0 ^ 1 + (c - a) / (2 * T) * 0 ^ 2)).
    { apply K; auto. intros u Hu.
      eapply dlim_eq; [apply (derivable_pt_lim_minus v (fun s => a * s ^ 1 + (c - a) / (2 * T) * s ^ 2) u); [apply Dv; auto|
        apply (derivable_pt_lim_plus (fun s => a * s ^ 1) (fun s => (c - a) / (2 * T) * s ^ 2) u); [apply (derivable_pt_lim_scal (fun s => s ^ 1) a u), Pw|apply (derivable_pt_lim_scal (fun s => s ^ 2) _ u), Pw]]|reflexivity|].
      cbn. field. lra. }
    rewrite V0 in K'. replace (v s) with (v0 + (a * s ^ 1 + (c - a) / (2 * T) * s ^ 2)) by (cbn in *; lra). field. lra. }
  assert (P : forall s, 0 <= s <= T -> p s = v0 * s + a * s ^ 2 / 2 + (c - a) * s ^ 3 / (6 * T)).
  { intros s Hs. pose proof (const_int (fun s => p s - (v0 * s ^ 1 + (a / 2 * s ^ 2 + (c - a) / (6 * T) * s ^ 3))) T) as K. cbv beta in K.
    assert (K' : p s - (v0 * s ^ 1 + (a / 2 * s ^ 2 + (c - a) / (6 * T) * s ^ 3)) = p 0 - (v0 * 0 ^ 1 + (a / 2 * 0 ^ 2 + (c - a) / (6 * T) * 0 ^ 3))).
    { apply K; auto. intros u Hu.
      eapply dlim_eq; [apply (derivable_pt_lim_minus p (fun s => v0 * s ^ 1 + (a / 2 * s ^ 2 + (c - a) / (6 * T) * s ^ 3)) u); [apply Dp; auto|
        apply (derivable_pt_lim_plus (fun s => v0 * s ^ 1) (fun s => a / 2 * s ^ 2 + (c - a) / (6 * T) * s ^ 3) u); [apply (derivable_pt_lim_scal (fun s => s ^ 1) v0 u), Pw|
        apply (derivable_pt_lim_plus (fun s => a / 2 * s ^ 2) (fun s => (c - a) / (6 * T) * s ^ 3) u); [apply (derivable_pt_lim_scal (fun s => s ^ 2) (a / 2) u), Pw|apply (derivable_pt_lim_scal (fun s => s ^ 3) _ u), Pw]]]|reflexivity|].
      rewrite V by auto. cbn. field. lra. }
    rewrite P0 in K'. replace (p s) with (v0 * s ^ 1 + (a / 2 * s ^ 2 + (c - a) / (6 * T) * s ^ 3)) by (cbn in *; lra). field. lra. }
  split; [auto|]. rewrite P, V by lra. unfold a, c. rewrite Hphi, Hpsi. fold v0. split; field; lra.
Qed.

Lemma replan_lemma h t t' h' t'' i : tgUpdate h t = Ok t' -> tgUpdate h' t' = Ok t'' ->
  let s := tgDt t in let T := tgDuration t in let a := vget (tgPhi t') i in let c := vget (tgPsi t') i in
  vget (hSpeed h') i = vget (hSpeed h) i + a * s + (c - a) * s ^ 2 / (2 * T) ->
  vget (hErr h') i = vget (hErr h) i - (vget (hSpeed h) i * s + a * s ^ 2 / 2 + (c - a) * s ^ 3 / (6 * T)) ->
  vget (tgPhi t'') i = a + (c - a) * s / T /\ vget (tgPsi t'') i = c.
Proof.
  intros U1 U2 s T a c Hs He. pose proof (tgUpdate_Ok _ _ _ U1) as (D1 & E1 & E2 & E3 & E4 & _ & _ & _ & _ & Hphi & Hpsi & _).
  apply tgUpdate_Ok in U2 as (D2 & _ & _ & _ & _ & _ & _ & _ & _ & Hphi' & Hpsi' & _).
  assert (K : tgDuration t' = T - s). { unfold tgDuration, T, s, tgDuration. rewrite E1, E2, E3, !minus_IZR, plus_IZR. ring. }
  rewrite Hphi', Hpsi', E4, K, He, Hs. rewrite K in D2. fold T in D1. unfold c, a. rewrite Hphi, Hpsi. fold T. split; field; auto.
Qed.

Lemma round_half x : Rabs (IZR (round x) - x) <= / 2.
Proof.
  unfold round. destruct (Rle_dec 0 x).
  - destruct (base_Int_part (x + / 2)). apply Rabs_le. lra.
  - destruct (base_Int_part (- x + / 2)). rewrite opp_IZR. apply Rabs_le. lra.
Qed.
Lemma duration_lemma d t t' : 0 < tgDt t -> tgSetDuration d t = Ok t' -> tgIter t' = 0%Z /\ Rabs (tgDuration t' - d) <= tgDt t / 2.
Proof.
  intros P H. apply bind_Ok in H as (u & _ & H). injection H as <-. split; [auto|]. unfold tgDuration. cbn. rewrite Z.sub_0_r.
  replace (IZR (round (d / tgDt t)) * tgDt t - d) with ((IZR (round (d / tgDt t)) - d / tgDt t) * tgDt t) by (field; lra).
  rewrite Rabs_mult, (Rabs_pos_eq (tgDt t)) by lra. pose proof (round_half (d / tgDt t)). nra.
Qed.

(** The discrete loop. *)
Section Loop.
Variables (n : nat) (tg : nat -> target) (h : nat -> hlOut) (x : nat -> nat -> R).
Hypothesis L : targetLoop n tg h x.
Let t0 := tg 0%nat.
Hypothesis Hw : 0 < cmWeight (tgC t0).
Hypothesis HW : forall i, (i < vlen (cmDim (tgC t0)))%nat -> 0 < vget (cmDim (tgC t0)) i.
Hypothesis At : forall j, (j < n)%nat -> attainable (h j) (cmBegin (tgC t0)) (vget (tgPhi (tg (S j)))).
Lemma loop_const j : (j <= n)%nat -> tgDt (tg j) = tgDt t0 /\ tgN (tg j) = tgN t0 /\ tgIter (tg j) = (tgIter t0 + Z.of_nat j)%Z /\ tgObj (tg j) = tgObj t0 /\
  cmWeight (tgC (tg j)) = cmWeight (tgC t0) /\ cmDim (tgC (tg j)) = cmDim (tgC t0) /\ cmBegin (tgC (tg j)) = cmBegin (tgC t0).
Proof.
  induction j as [|j IH]; intros Hj. { rewrite Z.add_0_r. auto 10. }
  destruct IH as (A & B & C & D & E & F & G); [lia|]. destruct (L j) as (U & _); [lia|].
  apply tgUpdate_Ok in U as (_ & A' & B' & C' & D' & E' & F' & G' & _). rewrite A', B', C', D', E', F', G'.
  repeat (split; [congruence || lia|]). congruence.
Qed.
Lemma loop_step j i : (j < n)%nat -> (i < vlen (cmDim (tgC t0)))%nat ->
  let d := IZR (tgN t0 - (tgIter t0 + Z.of_nat j)) * tgDt t0 in
  let a := 6 / (d * d) * (vget (hErr (h j)) i - d * vget (hSpeed (h j)) i) - 2 / d * (vget (tgObj t0) i - vget (hSpeed (h j)) i) in
  d <> 0 /\ holds1 (tgDt t0) (h j) (h (S j)) i a.
Proof.
  intros Hj Hi d a. destruct (loop_const j) as (A & B & C & D & E & F & G); [lia|].
  destruct (L j Hj) as (U & M & Hd). pose proof (At j Hj) as Aj.
  apply tgUpdate_Ok in U as (Dn & _ & _ & _ & _ & _ & _ & _ & Len & Hphi & _ & Co).
  rewrite E, F, G in Co. rewrite F in Len. rewrite Len in HW, Hi.
  pose proof (met _ _ _ _ _ _ _ Co Hw HW Aj M i Hi) as X. specialize (Hd i Hi). fold t0 in Hd. rewrite X, Hphi in Hd.
  unfold tgDuration in Hd, Dn. rewrite A, B, C, D in *. auto.
Qed.
Lemma loop_reach i : (3 <= n)%nat -> tgN t0 = (tgIter t0 + Z.of_nat n)%Z -> (i < vlen (cmDim (tgC t0)))%nat ->
  vget (hErr (h n)) i = 0 /\ vget (hSpeed (h n)) i = vget (tgObj t0) i.
Proof.
  intros Hn HN Hi. destruct n as [|[|[|m]]] eqn:En; [lia|lia|lia|]. rewrite <- En in *.
  destruct (loop_step m i) as (D3 & E3 & V3); [lia|auto|]. destruct (loop_step (S m) i) as (D2 & E2 & V2); [lia|auto|].
  destruct (loop_step (S (S m)) i) as (D1 & E1 & V1); [lia|auto|]. rewrite En in *.
  replace (tgN t0 - (tgIter t0 + Z.of_nat m))%Z with 3%Z in * by lia. replace (tgN t0 - (tgIter t0 + Z.of_nat (S m)))%Z with 2%Z in * by lia.
  replace (tgN t0 - (tgIter t0 + Z.of_nat (S (S m))))%Z with 1%Z in * by lia.
  assert (Dt : tgDt t0 <> 0) by (intros Z; apply D1; rewrite Z; ring).
  rewrite E1, V1, E2, V2, E3, V3. split; field; auto.
Qed.
Lemma loop_short i : (1 <= n <= 2)%nat -> tgN t0 = (tgIter t0 + Z.of_nat n)%Z -> (i < vlen (cmDim (tgC t0)))%nat ->
  (vget (hErr (h n)) i = 0 /\ vget (hSpeed (h n)) i = vget (tgObj t0) i <->
   2 * vget (hErr (h 0%nat)) i = tgDuration t0 * (vget (hSpeed (h 0%nat)) i + vget (tgObj t0) i)).
Proof.
  intros Hn HN Hi. unfold tgDuration. destruct n as [|[|[|m]]] eqn:En; [lia| | |lia]; rewrite <- En in *.
  - destruct (loop_step 0%nat i) as (D1 & E1 & V1); [lia|auto|]. replace (tgN t0 - (tgIter t0 + Z.of_nat 0))%Z with 1%Z in * by lia. rewrite En in *.
    replace (tgN t0 - tgIter t0)%Z with 1%Z in * by lia.
    assert (Dt : tgDt t0 <> 0) by (intros Z; apply D1; rewrite Z; ring).
    set (e := vget (hErr (h 0%nat)) i) in *. set (v := vget (hSpeed (h 0%nat)) i) in *. set (o := vget (tgObj t0) i) in *. set (dt := tgDt t0) in *.
    assert (E : vget (hErr (h 1%nat)) i = - (2 * e - dt * (v + o))) by (rewrite E1; field; auto).
    assert (V : vget (hSpeed (h 1%nat)) i = o + 3 * (2 * e - dt * (v + o)) / dt) by (rewrite V1; field; auto).
    rewrite E, V. split; [intros (Z & _); lra|]. intros Z. replace (2 * e - dt * (v + o)) with 0 by lra. split; [ring|field; auto].
  - destruct (loop_step 0%nat i) as (D2 & E2 & V2); [lia|auto|]. destruct (loop_step 1%nat i) as (D1 & E1 & V1); [lia|auto|].
    replace (tgN t0 - (tgIter t0 + Z.of_nat 0))%Z with 2%Z in * by lia. replace (tgN t0 - (tgIter t0 + Z.of_nat 1))%Z with 1%Z in * by lia. rewrite En in *.
    replace (tgN t0 - tgIter t0)%Z with 2%Z in * by lia.
    assert (Dt : tgDt t0 <> 0) by (intros Z; apply D1; rewrite Z; ring). rewrite E2, V2 in E1, V1. clear E2 V2.
    set (e := vget (hErr (h 0%nat)) i) in *. set (v := vget (hSpeed (h 0%nat)) i) in *. set (o := vget (tgObj t0) i) in *. set (dt := tgDt t0) in *.
    assert (E : vget (hErr (h 2%nat)) i = e - dt * (v + o)) by (rewrite E1; field; auto).
    assert (V : vget (hSpeed (h 2%nat)) i = o - 3 * (e - dt * (v + o)) / dt) by (rewrite V1; field; auto).
    rewrite E, V. split; [intros (Z & _); lra|]. intros Z. replace (e - dt * (v + o)) with 0 by lra. split; [ring|field; auto].
Qed.
End Loop.

Lemma tgUpdate_defined h t : hlSizes (vlen (cmDim (tgC t))) h -> (vlen (hErr h) <= vlen (tgObj t))%nat -> vlen (tgPhi t) = vlen (hErr h) -> vlen (tgPsi t) = vlen (hErr h) ->
  tgDt t <> 0 -> ((exists t', tgUpdate h t = Ok t') <-> tgIter t <> tgN t).
Proof.
  intros (A & B & C & D) Lo L1 L2 Hd. split.
  - intros (t' & H) Z. apply tgUpdate_Ok in H as (H & _). apply H. unfold tgDuration. rewrite Z, Z.sub_diag. ring.
  - intros N. unfold tgUpdate.
    assert (G : negb (Reqb (IZR (tgN t - tgIter t) * tgDt t) 0) = true).
    { apply negb_true_iff, Reqb_false. intros Z. apply Rmult_integral in Z as [Z|Z]; [|auto]. apply eq_IZR in Z. lia. }
    rewrite G. cbn [guard bind]. rewrite L1, L2, C, !Nat.eqb_refl. apply Nat.leb_le in Lo. rewrite Lo. rewrite B, Nat.leb_refl. cbn [guard andb bind].
    unfold vminus, vsame. cbn [vlen]. rewrite D, Nat.eqb_refl. cbn [guard bind].
    match goal with |- context [lsQC ?a ?b ?c] => destruct (lsQC_def a b c) as (Q & C' & ->); [auto|cbn; congruence|] end. cbn [bind]. eauto.
Qed.
Lemma tgUpdate_elapsed h t : tgIter t = tgN t -> tgUpdate h t = UB.
Proof.
  intros Z. unfold tgUpdate. rewrite Z, Z.sub_diag. replace (Reqb (IZR 0 * tgDt t) 0) with true; [auto|]. symmetry. apply Reqb_true. ring.
Qed.

(** ** All the set-point tasks of a solver *)
Lemma costs_sum ts fs : Forall2 (fun t wf => costs t (fst wf) (snd wf)) ts fs -> forall x y,
  tasksCost ts x - tasksCost ts y = sumR (map (fun wf : R * ((nat -> R) -> R) => fst wf * (snd wf x - snd wf y)) fs).
Proof.
  unfold tasksCost. intros F x y. induction F as [|t wf ts fs H F IH]; cbn; [ring|]. specialize (H x y). lra.
Qed.
Lemma pid_given h e t t1 t2 : pidUpdate h (pidError e t) = Ok t1 -> pidUpdate h (pidError e t1) = Ok t2 ->
  cmQ (pdC t1) = cmQ (pdC t2) /\ cmC (pdC t1) = cmC (pdC t2).
Proof.
  intros U1 U2. pose proof (pid_lemma _ _ _ U1) as (_ & _ & A & B & C & D & E & _ & F & _).
  unfold pidUpdate, pidError in U1, U2. cbn in *. rewrite A, B, C, D, E in U2.
  apply bind_Ok in U1 as (e1 & H1 & U1). apply bind_Ok in U1 as (e2 & H2 & U1). apply bind_Ok in U1 as ((e3, c) & H3 & U1). injection U1 as <-.
  rewrite H1 in U2. cbn [bind] in U2. rewrite H2 in U2. cbn [bind] in U2. apply bind_Ok in U2 as ((e4, c') & H4 & U2). injection U2 as <-. cbn in *.
  unfold commonQC in H3, H4. rewrite F in H4. apply bind_Ok in H3 as (((a, Q), C0) & H3 & H3'). injection H3' as <- <-. rewrite H3 in H4. cbn in H4. injection H4 as <- <-. auto.
Qed.
Lemma target_cost h t t' : tgUpdate h t = Ok t' ->
  costs (commonTask (tgC t')) (cmWeight (tgC t)) (leastSquares h (cmBegin (tgC t)) (vget (cmDim (tgC t))) (vget (tgPhi t'))) /\
  tgDuration t' = tgDuration t - tgDt t.
Proof.
  intros U. apply tgUpdate_Ok in U as (_ & A & B & C & _ & _ & _ & _ & _ & _ & _ & Co). split; auto.
  unfold tgDuration. rewrite A, B, C, !minus_IZR, plus_IZR. ring.
Qed.
Lemma target_plan h t t' i p v : tgUpdate h t = Ok t' -> 0 < tgDuration t ->
  p 0 = 0 -> v 0 = vget (hSpeed h) i ->
  (forall s, 0 <= s <= tgDuration t -> derivable_pt_lim p s (v s)) ->
  (forall s, 0 <= s <= tgDuration t -> derivable_pt_lim v s (vget (tgPhi t') i + (vget (tgPsi t') i - vget (tgPhi t') i) * s / tgDuration t)) ->
  p (tgDuration t) = vget (hErr h) i /\ v (tgDuration t) = vget (tgObj t) i.
Proof. intros U T P V Dp Dv. exact (proj2 (plan_lemma h t t' i p v U T P V Dp Dv)). Qed.
