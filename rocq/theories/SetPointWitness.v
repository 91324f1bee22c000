(** Concrete cases for the set-point theorems. *)
From Verif Require Export SetPointTarget SetPointLoop SetPointFacts SetPointSpec ContactFacts FillFacts.
From Coq Require Export Lra.
Open Scope string_scope.
Open Scope list_scope.
Open Scope R_scope.
Local Arguments sumn : simpl never.
Local Arguments twoSqrt : simpl never.
Local Arguments spUpdate : simpl never.
Local Arguments tgUpdate : simpl never.

(** A task of one coordinate, the acceleration of the only joint of the second robot plus [n]. *)
Definition hl1 (e v n : R) : hlOut := mkHL (mkMat 1 1 (fun _ _ => 1)) (vfill 1 e) (vfill 1 v) (vfill 1 n).
Lemma hl1_sizes e v n : hlSizes 1 (hl1 e v n).
Proof. repeat split. Qed.
Lemma hl1_acc e v n b x i : taskAcc (hl1 e v n) b x i = x b + n.
Proof. unfold taskAcc, hl1. cbn. unfold sumn. cbn. rewrite Nat.add_0_r. ring. Qed.
Lemma hl1_ls e v n b W a x : leastSquares (hl1 e v n) b W a x = / 2 * (W 0%nat * (x b + n - a 0%nat) ^ 2).
Proof. unfold leastSquares. rewrite (sumn_ext _ _ (fun i => W i * (x b + n - a i) ^ 2)) by (intros; rewrite hl1_acc; auto). unfold sumn. cbn. ring. Qed.
Lemma hl1_attain e v n b a : attainable (hl1 e v n) b a.
Proof. exists (fun _ => a 0%nat - n). intros i Hi. rewrite hl1_acc. cbn in Hi. assert (i = 0%nat) as -> by lia. ring. Qed.
Lemma hl1_min t w e v n b W a x : costs t w (leastSquares (hl1 e v n) b W a) -> 0 < w -> 0 < W 0%nat -> x b + n = a 0%nat -> minimises t x.
Proof.
  intros C Hw HW E y. specialize (C x y). rewrite !hl1_ls, E in C.
  assert (0 <= w * (/ 2 * (W 0%nat * (y b + n - a 0%nat) ^ 2))).
  { apply Rmult_le_pos; [lra|]. apply Rmult_le_pos; [lra|]. apply Rmult_le_pos; [lra|apply pow2_ge_0]. }
  replace ((a 0%nat - a 0%nat) ^ 2) with 0 in C by ring. lra.
Qed.

Definition sOps : list spOp := [SpNrVars wData; SpStiffness 4; SpDim (vfill 1 5); SpUpdate (hl1 7 7 7); SpWeight 3].
Lemma two4 : twoSqrt 4 = Ok (2 * sqrt 4).
Proof. unfold twoSqrt. replace (Rleb 0 4) with true; [auto|]. symmetry. apply Rleb_true. lra. Qed.
Lemma two1 : twoSqrt 1 = Ok (2 * sqrt 1).
Proof. unfold twoSqrt. replace (Rleb 0 1) with true; [auto|]. symmetry. apply Rleb_true. lra. Qed.
Lemma sqrt4 : sqrt 4 = 2.
Proof. replace 4 with (2 * 2) by ring. apply sqrt_square. lra. Qed.
Lemma sNew : exists t0, newSP wMbs 1 1 (ones 1) 1 = Ok t0.
Proof. unfold newSP. cbn. rewrite two1. cbn. eauto. Qed.
Lemma sRun t0 : newSP wMbs 1 1 (ones 1) 1 = Ok t0 -> exists t, spRun sOps t0 = Ok t /\ vlen (cmDim (spC t)) = 1%nat.
Proof.
  unfold newSP. cbn. rewrite two1. cbn. intros H. injection H as <-. unfold sOps. cbn [spRun spStep]. replace (commonNrVars wData _) with (Ok (mkCommon 1 (ones 1) 1 2 (mzero 1 1) (vfill 1 0))) by reflexivity. cbn [bind spC spK spKs]. unfold spStiffness. rewrite two4. cbn [bind spC].
  match goal with |- context [spUpdate ?h ?t] => destruct (setpoint_defined h t) as (t' & E); [apply hl1_sizes|]; rewrite E end. cbn [bind].
  eexists. split; [reflexivity|]. cbn. apply spUpdate_Ok in E as (_ & _ & e & E & _). apply commonQC_Ok in E as (_ & -> & _). auto.
Qed.

(** The critically damped loop with k = 1, from error 1 at rest: the error is (1 + s) exp(-s). *)
Definition cE (s : R) : R := (1 + s) * exp (- 1 * s).
Definition cV (s : R) : R := s * exp (- 1 * s).
Definition cH (s : R) : hlOut := hl1 (cE s) (cV s) 0.
Definition cX (s : R) : nat -> R := fun _ => (1 - s) * exp (- 1 * s).
Lemma dlim_lin a b s : derivable_pt_lim (fun s => a + b * s) s b.
Proof.
  eapply dlim_eq; [apply (derivable_pt_lim_plus (fct_cte a) (fun s => b * s) s 0 b)| |].
  - apply derivable_pt_lim_const.
  - eapply dlim_eq; [apply (derivable_pt_lim_scal id b s 1); apply derivable_pt_lim_id|reflexivity|ring].
  - reflexivity.
  - ring.
Qed.
Lemma cDe s : derivable_pt_lim cE s (- cV s).
Proof.
  eapply dlim_eq; [apply (derivable_pt_lim_mult (fun s => 1 + 1 * s) (fun s => exp (- 1 * s)) s 1 (- 1 * exp (- 1 * s)) (dlim_lin 1 1 s) (dlim_exp (- 1) s))| |].
  - intros u. unfold mult_fct, cE. f_equal. ring.
  - unfold cV. ring.
Qed.
Lemma cDv s : derivable_pt_lim cV s ((1 - s) * exp (- 1 * s)).
Proof.
  eapply dlim_eq; [apply (derivable_pt_lim_mult (fun s => 0 + 1 * s) (fun s => exp (- 1 * s)) s 1 (- 1 * exp (- 1 * s)) (dlim_lin 0 1 s) (dlim_exp (- 1) s))| |].
  - intros u. unfold mult_fct, cV. f_equal. ring.
  - ring.
Qed.

(** A TargetObjectiveTask of [N] periods of length 1 from error 1 at rest to rest, and a given motion. *)
Definition tg0 (N : Z) : target := mkTgt (mkCommon 1 (ones 1) 1 0 (mzero 1 1) (vfill 1 0)) 1 N 0 (vfill 1 0) (vfill 1 0) (vfill 1 0).
Lemma tg_new (N : nat) : newTgt wMbs 1 1 1 (INR N) (vfill 1 0) (ones 1) 1 = Ok (tg0 (Z.of_nat N)).
Proof.
  unfold newTgt, tgSetDuration. cbn. replace (Reqb 1 0) with false by (symmetry; apply Reqb_false; lra). cbn. unfold tg0. do 2 f_equal.
  unfold Rdiv. rewrite Rinv_1, Rmult_1_r. unfold round. destruct (Rle_dec 0 (INR N)); [|exfalso; pose proof (pos_INR N); lra].
  destruct (base_Int_part (INR N + / 2)) as (A & B). rewrite INR_IZR_INZ in *. set (z := Int_part _) in *.
  assert (z < Z.of_nat N + 1)%Z by (apply lt_IZR; rewrite plus_IZR; lra). assert (Z.of_nat N - 1 < z)%Z by (apply lt_IZR; rewrite minus_IZR; lra). lia.
Qed.
Section Seq.
Variable h : nat -> hlOut.
Fixpoint tgSeq (N : Z) (j : nat) : target := match j with O => tg0 N | S j' => match tgUpdate (h j') (tgSeq N j') with Ok t => t | _ => tgSeq N j' end end.
Hypothesis Hh : forall j, exists e v, h j = hl1 e v 0.
Lemma tgSeq_Ok N j : (Z.of_nat j <= N)%Z -> let t := tgSeq N j in
  vlen (cmDim (tgC t)) = 1%nat /\ vlen (tgObj t) = 1%nat /\ vlen (tgPhi t) = 1%nat /\ vlen (tgPsi t) = 1%nat /\ tgDt t = 1 /\ tgIter t = Z.of_nat j /\ tgN t = N /\
  ((Z.of_nat j < N)%Z -> tgUpdate (h j) t = Ok (tgSeq N (S j))).
Proof.
  induction j as [|j IH]; intros Hj t.
  - repeat (split; [solve [auto]|]). intros Hl. unfold t. cbn. destruct (Hh 0) as (e & v & ->).
    destruct (proj2 (tgUpdate_defined (hl1 e v 0) (tg0 N) (hl1_sizes e v 0) (le_n 1) eq_refl eq_refl R1_neq_R0)) as (t' & ->); [cbn; lia|auto].
  - destruct IH as (A & B & C & D & E & F & G & U); [lia|]. specialize (U ltac:(lia)). fold (tgSeq N (S j)) in U. fold t in U.
    assert (Ph : vlen (tgPhi t) = vlen (hErr (h j)) /\ vlen (tgPsi t) = vlen (hErr (h j))).
    { pose proof U as U'. unfold tgUpdate in U'. apply bind_Ok in U' as (? & _ & U'). apply bind_Ok in U' as (? & _ & U'). apply bind_Ok in U' as (? & _ & U').
      apply bind_Ok in U' as ((? & ?) & _ & U'). injection U' as <-. auto. }
    apply tgUpdate_Ok in U as (_ & U1 & U2 & U3 & U4 & _ & U5 & _). destruct (Hh j) as (e & v & Ej). rewrite Ej in Ph. cbn in Ph. destruct Ph as (P1 & P2).
    rewrite U1, U2, U3, U4, U5. repeat (split; [solve [auto] || lia|]). intros Hl.
    destruct (Hh (S j)) as (e' & v' & E'). 
    assert (Df : exists t', tgUpdate (h (S j)) t = Ok t').
    { apply tgUpdate_defined; rewrite ?E', ?U1, ?U2, ?U3, ?U4, ?U5, ?A, ?B, ?P1, ?P2, ?E; auto using hl1_sizes; try lra; try lia. }
    destruct Df as (t' & Ht).
    change (tgSeq N (S (S j))) with (match tgUpdate (h (S j)) t with Ok t => t | _ => t end). rewrite Ht. auto.
Qed.
End Seq.

(** The motion of the loop of [N] periods: error and speed at the beginning of period j. *)
Fixpoint mot (N : Z) (j : nat) : R * R :=
  match j with
  | O => (1, 0)
  | S j' => let (e, v) := mot N j' in let d := IZR (N - Z.of_nat j') in let a := 6 / (d * d) * (e - d * v) + 2 / d * v in
            (e - (v + a / 2), v + a)
  end.
Definition mH (N : Z) (j : nat) : hlOut := hl1 (fst (mot N j)) (snd (mot N j)) 0.
Definition mT (N : Z) : nat -> target := tgSeq (mH N) N.
Definition mX (N : Z) (j : nat) : nat -> R := fun _ => vget (tgPhi (mT N (S j))) 0.
Lemma mH_form N j : exists e v, mH N j = hl1 e v 0.
Proof. unfold mH. eauto. Qed.
Lemma mT_const N j : (Z.of_nat j <= N)%Z -> tgObj (mT N j) = vfill 1 0 /\ cmWeight (tgC (mT N j)) = 1 /\ cmDim (tgC (mT N j)) = ones 1 /\ cmBegin (tgC (mT N j)) = 0%nat.
Proof.
  induction j as [|j IH]; intros Hj; [cbn; auto|]. destruct IH as (A & B & C & D); [lia|].
  destruct (tgSeq_Ok (mH N) (mH_form N) N j) as (_ & _ & _ & _ & _ & _ & _ & U); [lia|]. specialize (U ltac:(lia)).
  fold (mT N (S j)) in U. fold (mT N j) in U. apply tgUpdate_Ok in U as (_ & _ & _ & _ & U4 & U5 & U6 & U7 & _). rewrite U4, U5, U6, U7. auto.
Qed.
Lemma mLoop N n : (Z.of_nat n <= N)%Z -> targetLoop n (mT N) (mH N) (mX N).
Proof.
  intros Hn j Hj. destruct (tgSeq_Ok (mH N) (mH_form N) N j) as (_ & _ & _ & _ & Dt & It & Nn & U); [lia|]. specialize (U ltac:(lia)).
  fold (mT N (S j)) in U. fold (mT N j) in *. destruct (mT_const N j) as (A & B & C & D); [lia|].
  split; [exact U|]. apply tgUpdate_Ok in U as (_ & _ & _ & _ & _ & _ & _ & _ & _ & Hphi & _ & Co). rewrite B, C, D in Co. split.
  - unfold mH in Co. apply (hl1_min _ _ _ _ _ _ _ _ (mX N j) Co); [lra|cbn; lra|unfold mX; ring].
  - intros i Hi. cbn in Hi. assert (i = 0%nat) as -> by lia. cbn [mT tgSeq tg0 tgDt tgC cmBegin]. unfold mH. rewrite hl1_acc. fold (mH N j). unfold mX.
    unfold holds1. rewrite Hphi, A. unfold tgDuration. rewrite Dt, It, Nn. unfold mH. cbn [hl1 hErr hSpeed vget vfill mot]. destruct (mot N j) as (e, v). cbn [fst snd].
    assert (NZ : IZR (N - Z.of_nat j) <> 0) by (apply not_0_IZR; lia). split; field; auto.
Qed.

Lemma setpoints_objective ts fs n Q C : Forall2 spMeaning ts fs ->
  fillQC (map (fun s => commonTask (spC s)) ts) n (mzero n n) (vfill n 0) = Ok (Q, C) -> forall x y,
  (quad n (mget Q) x / 2 + lin n (vget C) x) - (quad n (mget Q) y / 2 + lin n (vget C) y) =
  sumR (map (fun wf : R * ((nat -> R) -> R) => fst wf * (snd wf x - snd wf y)) fs) +
  (regCost n (map (fun s => commonTask (spC s)) ts) x - regCost n (map (fun s => commonTask (spC s)) ts) y).
Proof.
  intros M F x y. apply objective_lemma in F as (_ & _ & _ & F). rewrite !F.
  rewrite <- (costs_sum (map (fun s => commonTask (spC s)) ts) fs); [ring|].
  clear F. induction M as [|s wf ts fs H M IH]; cbn; constructor; auto.
  destruct H as (mbs & r & k0 & W0 & w0 & ops & t0 & t & h & H1 & H2 & H3 & -> & ->). eapply setpoint_lemma; eauto.
Qed.
Lemma setpoints_used : exists s f, spMeaning s (3, f) /\ (exists Q C, fillQC (map (fun s => commonTask (spC s)) [s; s]) 3 (mzero 3 3) (vfill 3 0) = Ok (Q, C)) /\
  forall x y, f x - f y = 5 / 2 * ((x 2%nat + 1 - 4) ^ 2 - (y 2%nat + 1 - 4) ^ 2).
Proof.
  destruct sNew as (t0 & N). destruct (sRun t0 N) as (t & Rn & L). destruct (setpoint_defined (hl1 2 1 1) t) as (t' & U); [rewrite L; apply hl1_sizes|].
  exists t'. eexists. split; [exists wMbs, 1%nat, 1, (ones 1), 1, sOps, t0, t, (hl1 2 1 1); repeat (split; [solve [auto]|]); reflexivity|]. split.
  - assert (Bg : cmBegin (spC t) = 2%nat). { apply newSP_Ok in N as (G & _ & Rb & _ & _ & B0). apply spRun_Ok in Rn as (_ & _ & _ & _ & _ & ->); auto. rewrite Rb, B0. reflexivity. }
    apply spUpdate_Ok in U as (_ & _ & e & U & _). apply commonQC_Ok in U as (_ & _ & _ & B & _ & _ & _ & _ & _ & _ & S1 & S2 & S3). cbn in S1, S2, S3. rewrite Bg in B.
    apply qc_defined_lemma. assert (Wf : wfTask 3 (commonTask (spC t'))). { unfold wfTask. cbn. rewrite B, S1, S2, S3. lia. } cbn [map]. constructor; [exact Wf|]. constructor; [exact Wf|constructor].
  - intros x y. rewrite !hl1_ls. cbn -[sqrt]. rewrite sqrt4. field.
Qed.
Lemma wNV c : cmRobot c = 1%nat -> commonNrVars wData c = Ok (mkCommon (cmWeight c) (cmDim c) 1 2 (cmQ c) (cmC c)).
Proof. intros H. unfold commonNrVars. rewrite H. reflexivity. Qed.
Definition wTrk0 := mkTrk (mkCommon 1 (ones 1) 1 0 (mzero 1 1) (vfill 1 0)) 10 20 (vfill 1 0) (vfill 1 0) (vfill 1 0).
Lemma wTrk : newTrk wMbs 1 1 10 20 (ones 1) 1 = Ok wTrk0.
Proof. reflexivity. Qed.
Definition wTrj0 := mkTrj (mkCommon 1 (ones 1) 1 0 (mzero 1 1) (vfill 1 0)) 1 (vscal 10 (ones 1)) (vscal 20 (ones 1)) (vfill 1 0) (vfill 1 0).
Lemma wTrj : newTrj wMbs 1 1 10 20 (ones 1) 1 = Ok wTrj0.
Proof. reflexivity. Qed.
Lemma wPid P I D : newPid wMbs 1 1 P I D (ones 1) 1 = Ok (mkPid (mkCommon 1 (ones 1) 1 0 (mzero 1 1) (vfill 1 0)) P I D (vfill 1 0) (vfill 1 0) (vfill 1 0)).
Proof. reflexivity. Qed.

(** The motion with a linear acceleration. *)
Lemma cubic a b c d s : derivable_pt_lim (fun s => a + b * s + c * s ^ 2 + d * s ^ 3) s (b + 2 * c * s + 3 * d * s ^ 2).
Proof.
  assert (Pw : forall k s, derivable_pt_lim (fun s => s ^ k) s (INR k * s ^ pred k)) by (intros; apply derivable_pt_lim_pow).
  eapply dlim_eq; [apply (derivable_pt_lim_plus (fun s => a + b * s + c * s ^ 2) (fun s => d * s ^ 3) s);
    [apply (derivable_pt_lim_plus (fun s => a + b * s) (fun s => c * s ^ 2) s); [apply dlim_lin|apply (derivable_pt_lim_scal (fun s => s ^ 2) c s), Pw]|apply (derivable_pt_lim_scal (fun s => s ^ 3) d s), Pw]|reflexivity|].
  cbn. ring.
Qed.
Lemma plan_motion v0 a c T : T <> 0 -> exists p v : R -> R, p 0 = 0 /\ v 0 = v0 /\ (forall s, derivable_pt_lim p s (v s)) /\ forall s, derivable_pt_lim v s (a + (c - a) * s / T).
Proof.
  intros HT. exists (fun s => 0 + v0 * s + a / 2 * s ^ 2 + (c - a) / (6 * T) * s ^ 3), (fun s => v0 + a * s + (c - a) / (2 * T) * s ^ 2 + 0 * s ^ 3).
  split; [ring|]. split; [ring|]. split; intros s.
  - eapply dlim_eq; [apply cubic|reflexivity|]. field. auto.
  - eapply dlim_eq; [apply cubic|reflexivity|]. field. auto.
Qed.
Lemma tgUpdate_again h t t' h' : tgUpdate h t = Ok t' -> hlSizes (vlen (cmDim (tgC t))) h' -> vlen (hErr h') = vlen (hErr h) -> tgDt t <> 0 -> (tgIter t + 1 <> tgN t)%Z ->
  exists t'', tgUpdate h' t' = Ok t''.
Proof.
  intros U S E D N. pose proof (tgUpdate_Ok _ _ _ U) as (_ & A1 & A2 & A3 & A4 & _ & A5 & _).
  unfold tgUpdate in U. apply bind_Ok in U as (? & _ & U). apply bind_Ok in U as (u & G & U). apply bind_Ok in U as (? & _ & U).
  apply bind_Ok in U as ((? & ?) & _ & U). injection U as <-. apply guard_Ok in G. rewrite !andb_true_iff, !Nat.leb_le in G.
  apply tgUpdate_defined; cbn in *; auto; try congruence; try lia.
Qed.
