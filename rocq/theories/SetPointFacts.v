From Verif Require Import SetPointSpec ContactRowsProofs.
From Coq Require Import Lra Psatz.
Open Scope list_scope.
Open Scope R_scope.
Local Arguments sumn : simpl never.

Lemma vsame_Ok a b u : vsame a b = Ok u -> vlen a = vlen b.
Proof. intros H. apply guard_Ok in H. apply Nat.eqb_eq. auto. Qed.
Lemma vminus_Ok a b c : vminus a b = Ok c -> vlen a = vlen b /\ vlen c = vlen a /\ forall i, vget c i = vget a i - vget b i.
Proof. intros H. apply bind_Ok in H as (u & G & H). apply vsame_Ok in G. injection H as <-. auto. Qed.
Lemma vplus_Ok a b c : vplus a b = Ok c -> vlen a = vlen b /\ vlen c = vlen a /\ forall i, vget c i = vget a i + vget b i.
Proof. intros H. apply bind_Ok in H as (u & G & H). apply vsame_Ok in G. injection H as <-. auto. Qed.
Lemma diagv_Ok a b c : diagv a b = Ok c -> vlen a = vlen b /\ vlen c = vlen b /\ forall i, vget c i = vget a i * vget b i.
Proof. intros H. apply bind_Ok in H as (u & G & H). apply vsame_Ok in G. injection H as <-. auto. Qed.
Lemma diagm_Ok a b c : diagm a b = Ok c -> vlen a = mrows b /\ mrows c = mrows b /\ mcols c = mcols b /\ forall i j, mget c i j = vget a i * mget b i j.
Proof. intros H. apply bind_Ok in H as (u & G & H). apply guard_Ok, Nat.eqb_eq in G. injection H as <-. auto. Qed.

Lemma lsQC_Ok W J e Q C : lsQC W J e = Ok (Q, C) ->
  vlen W = mrows J /\ vlen e = mrows J /\ mrows Q = mcols J /\ mcols Q = mcols J /\ vlen C = mcols J /\
  (forall i j, mget Q i j = sumn (mrows J) (fun k => mget J k i * (vget W k * mget J k j))) /\
  (forall i, vget C i = - sumn (mrows J) (fun k => mget J k i * (vget W k * vget e k))).
Proof.
  unfold lsQC. intros H. apply bind_Ok in H as (pc & H1 & H). apply bind_Ok in H as (c & H2 & H). apply bind_Ok in H as (pq & H3 & H).
  apply bind_Ok in H as (q & H4 & H). injection H as <- <-.
  apply diagv_Ok in H1 as (A1 & A2 & A3). apply mvec_Ok in H2 as (B1 & B2 & B3). apply diagm_Ok in H3 as (D1 & D2 & D3 & D4).
  apply mmul_Ok in H4 as (E1 & E2 & E3 & E4). cbn in *.
  repeat split; try congruence.
  - intros i j. rewrite E4. apply sumn_ext. intros k _. rewrite D4. auto.
  - intros i. rewrite B3, <- sumn_opp. apply sumn_ext. intros k _. rewrite A3. ring.
Qed.
Lemma lsQC_def W J e : vlen W = mrows J -> vlen e = mrows J -> exists Q C, lsQC W J e = Ok (Q, C).
Proof.
  intros A B. unfold lsQC, diagv, vsame. rewrite A, B, Nat.eqb_refl. cbn [guard bind].
  match goal with |- context [mvec ?a ?b] => destruct (mvec_def a b) as (c & ->); [cbn; auto|] end. cbn [bind].
  unfold diagm. rewrite A, Nat.eqb_refl. cbn [guard bind].
  match goal with |- context [mmul ?a ?b] => destruct (mmul_def a b) as (q & ->); [cbn; auto|] end. cbn [bind]. eauto.
Qed.

(** The algebra: x'Qx/2 + C'x. *)
Lemma quadsum n m (J : nat -> nat -> R) W z :
  sumn n (fun i => sumn n (fun j => z i * sumn m (fun k => J k i * (W k * J k j)) * z j)) =
  sumn m (fun k => W k * (sumn n (fun j => J k j * z j)) ^ 2).
Proof.
  transitivity (sumn m (fun k => sumn n (fun i => sumn n (fun j => W k * ((J k i * z i) * (J k j * z j)))))).
  - rewrite (sumn_swap m n). apply sumn_ext. intros i _. rewrite (sumn_swap m n). apply sumn_ext. intros j _.
    rewrite <- sumn_scal. rewrite <- sumn_scal_r. apply sumn_ext. intros k _. ring.
  - apply sumn_ext. intros k _. replace (sumn n (fun j => J k j * z j) ^ 2) with (sumn n (fun j => J k j * z j) * sumn n (fun j => J k j * z j)) by ring.
    rewrite <- sumn_scal_r, <- sumn_scal. apply sumn_ext. intros i _. rewrite <- !sumn_scal. apply sumn_ext. intros j _. ring.
Qed.
Lemma linsum n m (J : nat -> nat -> R) W e z :
  sumn n (fun i => - sumn m (fun k => J k i * (W k * e k)) * z i) = - sumn m (fun k => W k * e k * sumn n (fun j => J k j * z j)).
Proof.
  transitivity (- sumn m (fun k => sumn n (fun j => W k * e k * (J k j * z j)))).
  - rewrite (sumn_swap m n), <- sumn_opp. apply sumn_ext. intros i _.
    rewrite <- sumn_opp, <- sumn_scal_r, <- sumn_opp. apply sumn_ext. intros k _. ring.
  - f_equal. apply sumn_ext. intros k _. rewrite <- sumn_scal. auto.
Qed.

Lemma ls_cost wt b h W (e : vec R) (a : nat -> R) Q C r' : lsQC W (hJac h) e = Ok (Q, C) ->
  (forall i, (i < mrows (hJac h))%nat -> vget e i = a i - vget (hNAcc h) i) ->
  costs (commonTask (setQC Q C (mkCommon wt W r' b Q C))) wt (leastSquares h b (vget W) a).
Proof.
  intros H He. apply lsQC_Ok in H as (S1 & S2 & S3 & S4 & S5 & HQ & HC).
  assert (K : forall x, taskCost (commonTask (setQC Q C (mkCommon wt W r' b Q C))) x =
    wt * (leastSquares h b (vget W) a x - / 2 * sumn (mrows (hJac h)) (fun i => vget W i * vget e i ^ 2))).
  { intros x. unfold taskCost, commonTask, setQC. cbn [tkWeight tkQ tkC tkBegin cmWeight cmBegin cmQ cmC fst snd]. f_equal.
    rewrite S3, S4. unfold leastSquares, taskAcc.
    rewrite (sumn_ext (mcols (hJac h)) (fun i => vget C i * x (b + i)%nat) (fun i => - sumn (mrows (hJac h)) (fun k => mget (hJac h) k i * (vget W k * vget e k)) * x (b + i)%nat)) by (intros; rewrite HC; auto).
    rewrite (linsum (mcols (hJac h)) (mrows (hJac h)) (mget (hJac h)) (vget W) (vget e) (fun i => x (b + i)%nat)).
    rewrite (sumn_ext (mcols (hJac h)) _ (fun i => sumn (mcols (hJac h)) (fun j => x (b + i)%nat * sumn (mrows (hJac h)) (fun k => mget (hJac h) k i * (vget W k * mget (hJac h) k j)) * x (b + j)%nat)))
      by (intros i Hi; apply sumn_ext; intros j Hj; rewrite HQ; auto).
    rewrite (quadsum (mcols (hJac h)) (mrows (hJac h)) (mget (hJac h)) (vget W) (fun i => x (b + i)%nat)).
    set (y := fun k => sumn (mcols (hJac h)) (fun j => mget (hJac h) k j * x (b + j)%nat)).
    change (sumn (mrows (hJac h)) (fun k => vget W k * y k ^ 2) / 2 + - sumn (mrows (hJac h)) (fun k => vget W k * vget e k * y k) =
      / 2 * sumn (mrows (hJac h)) (fun i => vget W i * (y i + vget (hNAcc h) i - a i) ^ 2) - / 2 * sumn (mrows (hJac h)) (fun i => vget W i * vget e i ^ 2)).
    unfold Rdiv. rewrite <- sumn_scal_r, <- sumn_opp, <- !sumn_scal, <- sumn_plus, <- sumn_minus.
    apply sumn_ext. intros i Hi. rewrite (He i Hi). field. }
  intros x y. rewrite !K. ring.
Qed.
Lemma computeQC_Ok W h er e Q C : computeQC W h er = Ok (e, Q, C) ->
  vlen er = vlen (hNAcc h) /\ vlen e = vlen er /\ lsQC W (hJac h) e = Ok (Q, C) /\ forall i, vget e i = vget er i - vget (hNAcc h) i.
Proof. unfold computeQC. intros H. apply bind_Ok in H as (e' & H1 & H). apply bind_Ok in H as ((q, c) & H2 & H). injection H as <- <- <-. apply vminus_Ok in H1 as (A & B & D). auto. Qed.
Lemma commonQC_Ok h er c e c' : commonQC h er c = Ok (e, c') ->
  cmWeight c' = cmWeight c /\ cmDim c' = cmDim c /\ cmRobot c' = cmRobot c /\ cmBegin c' = cmBegin c /\ (forall i, vget e i = vget er i - vget (hNAcc h) i) /\ vlen (cmDim c) = mrows (hJac h) /\ vlen er = mrows (hJac h) /\ vlen (hNAcc h) = mrows (hJac h) /\ vlen e = mrows (hJac h) /\ costs (commonTask c') (cmWeight c) (leastSquares h (cmBegin c) (vget (cmDim c)) (vget er)) /\ mrows (cmQ c') = mcols (hJac h) /\ mcols (cmQ c') = mcols (hJac h) /\ vlen (cmC c') = mcols (hJac h).
Proof.
  unfold commonQC. intros H. apply bind_Ok in H as (((e' & Q) & C) & H1 & H). injection H as <- <-. apply computeQC_Ok in H1 as (A & L & B & D).
  pose proof (lsQC_Ok _ _ _ _ _ B) as (S1 & S2 & S3 & S4 & S5 & _).
  repeat split; auto; try congruence.
  intros x y. exact (ls_cost (cmWeight c) (cmBegin c) h (cmDim c) e' (vget er) Q C (cmRobot c) B (fun i _ => D i) x y).
Qed.

(** ** SetPointTask *)
Lemma newCommon_Ok mbs r W w c : newCommon mbs r W w = Ok c -> cmWeight c = w /\ cmDim c = W /\ cmRobot c = r /\ cmBegin c = 0%nat.
Proof. intros H. apply bind_Ok in H as (mb & _ & H). injection H as <-. auto. Qed.
Lemma commonNrVars_Ok d c c' : commonNrVars d c = Ok c' ->
  nth_error (sdAlphaDBegin d) (cmRobot c) = Some (cmBegin c') /\ cmWeight c' = cmWeight c /\ cmDim c' = cmDim c /\ cmRobot c' = cmRobot c.
Proof.
  intros H. apply bind_Ok in H as (b & Hb & H). injection H as <-. cbn. unfold alphaDBegin, vec_at in Hb.
  destruct (nth_error (sdAlphaDBegin d) (cmRobot c)); [injection Hb as <-; auto|discriminate].
Qed.
Lemma twoSqrt_Ok k s : twoSqrt k = Ok s -> 0 <= k /\ s = 2 * sqrt k.
Proof. intros H. apply bind_Ok in H as (u & G & H). apply guard_Ok, Rleb_true in G. injection H as <-. auto. Qed.

Lemma spUpdate_Ok h t t' : spUpdate h t = Ok t' ->
  spK t' = spK t /\ spKs t' = spKs t /\ exists e, commonQC h (mkVec (vlen (hErr h)) (fun i => spK t * vget (hErr h) i - spKs t * vget (hSpeed h) i)) (spC t) = Ok (e, spC t') /\
  vlen (hErr h) = vlen (hSpeed h).
Proof.
  intros H. apply bind_Ok in H as (e & H1 & H). apply bind_Ok in H as ((e', c) & H2 & H). injection H as <-. cbn.
  split; [auto|]. split; [auto|]. exists e'. apply bind_Ok in H1 as (u & G & H1). apply vsame_Ok in G. cbn in G. injection H1 as <-. auto.
Qed.

Definition spGood (t : setPoint) : Prop := 0 <= spK t /\ spKs t = 2 * sqrt (spK t).
Lemma spStep_Ok t o t' : spStep t o = Ok t' -> spGood t -> spGood t' /\ cmRobot (spC t') = cmRobot (spC t) /\
  spK t' = latest spGiveK (spK t) [o] /\ cmDim (spC t') = latest spGiveW (cmDim (spC t)) [o] /\
  cmWeight (spC t') = latest spGiveWeight (cmWeight (spC t)) [o] /\ cmBegin (spC t') = latest (spGiveBegin (cmRobot (spC t))) (cmBegin (spC t)) [o].
Proof.
  intros H G. destruct o; cbn [spStep] in H.
  - apply bind_Ok in H as (s & H1 & H). apply twoSqrt_Ok in H1. injection H as <-. cbn. repeat split; tauto.
  - injection H as <-. cbn. repeat split; auto; apply G.
  - injection H as <-. cbn. repeat split; auto; apply G.
  - apply bind_Ok in H as (c & H1 & H). injection H as <-. apply commonNrVars_Ok in H1 as (A & B & D & E). cbn. rewrite A. repeat split; auto; apply G.
  - apply spUpdate_Ok in H as (A & B & e & H & _). apply commonQC_Ok in H as (W1 & W2 & W3 & W4 & _). cbn. rewrite W1, W2, W3, W4.
    repeat split; auto. { rewrite A. apply G. } { rewrite A, B. apply G. }
Qed.
Lemma latest_cons {O A : Type} (f : O -> option A) a o ops b : b = latest f a [o] -> latest f a (o :: ops) = latest f b ops.
Proof. intros ->. auto. Qed.
Lemma spRun_Ok ops : forall t t', spRun ops t = Ok t' -> spGood t -> spGood t' /\ cmRobot (spC t') = cmRobot (spC t) /\
  spK t' = latest spGiveK (spK t) ops /\ cmDim (spC t') = latest spGiveW (cmDim (spC t)) ops /\
  cmWeight (spC t') = latest spGiveWeight (cmWeight (spC t)) ops /\ cmBegin (spC t') = latest (spGiveBegin (cmRobot (spC t))) (cmBegin (spC t)) ops.
Proof.
  induction ops as [|o ops IH]; intros t t' H G; cbn [spRun] in H.
  - injection H as <-. cbn. auto 10.
  - apply bind_Ok in H as (t1 & H1 & H). apply spStep_Ok in H1 as (G1 & R1 & A1 & B1 & C1 & D1); auto.
    apply IH in H as (G2 & R2 & A2 & B2 & C2 & D2); auto.
    rewrite (latest_cons _ _ _ ops _ A1), (latest_cons _ _ _ ops _ B1), (latest_cons _ _ _ ops _ C1), (latest_cons _ _ _ ops _ D1). rewrite R1 in *. auto 10.
Qed.
Lemma newSP_Ok mbs r k W w t : newSP mbs r k W w = Ok t ->
  spGood t /\ spK t = k /\ cmRobot (spC t) = r /\ cmDim (spC t) = W /\ cmWeight (spC t) = w /\ cmBegin (spC t) = 0%nat.
Proof.
  intros H. apply bind_Ok in H as (c & H1 & H). apply bind_Ok in H as (s & H2 & H). injection H as <-.
  apply newCommon_Ok in H1 as (A & B & D & E). apply twoSqrt_Ok in H2 as (F & G). unfold spGood. cbn. auto 10.
Qed.

Lemma costs_ext t w f g : costs t w f -> (forall x, f x = g x) -> costs t w g.
Proof. intros H E x y. rewrite <- !E. apply H. Qed.
Lemma leastSquares_ext h b W a a' x : (forall i, (i < mrows (hJac h))%nat -> a i = a' i) -> leastSquares h b W a x = leastSquares h b W a' x.
Proof. intros E. unfold leastSquares. f_equal. apply sumn_ext. intros i Hi. rewrite E; auto. Qed.

Lemma setpoint_lemma mbs r k0 W0 w0 ops t0 t h t' :
  newSP mbs r k0 W0 w0 = Ok t0 -> spRun ops t0 = Ok t -> spUpdate h t = Ok t' ->
  costs (commonTask (spC t')) (latest spGiveWeight w0 ops)
    (leastSquares h (latest (spGiveBegin r) 0%nat ops) (vget (latest spGiveW W0 ops))
      (fun i => latest spGiveK k0 ops * vget (hErr h) i - 2 * sqrt (latest spGiveK k0 ops) * vget (hSpeed h) i)).
Proof.
  intros N Rn U. apply newSP_Ok in N as (G & A & B & C & D & E). apply spRun_Ok in Rn as (G1 & R1 & A1 & B1 & C1 & D1); auto.
  apply spUpdate_Ok in U as (K1 & K2 & e & U & _). apply commonQC_Ok in U as (_ & _ & _ & _ & _ & _ & _ & _ & _ & U & _).
  rewrite A, B, C, D, E in *. rewrite <- A1, <- B1, <- C1, <- D1. destruct G1 as (_ & G1).
  eapply costs_ext; [exact U|]. intros x. apply leastSquares_ext. intros i _. cbn. rewrite G1. ring.
Qed.
Lemma setpoint_defined h t : hlSizes (vlen (cmDim (spC t))) h -> exists t', spUpdate h t = Ok t'.
Proof.
  intros (A & B & C & D). unfold spUpdate, vminus, vsame. cbn [vlen vscal]. rewrite B, C, Nat.eqb_refl. cbn [guard bind].
  unfold commonQC, computeQC, vminus, vsame. cbn [vlen vscal]. rewrite ?B, D, Nat.eqb_refl. cbn [guard bind].
  match goal with |- context [lsQC ?a ?b ?c] => destruct (lsQC_def a b c) as (Q & C' & ->); [auto|cbn; congruence|] end. cbn [bind]. eauto.
Qed.

(** ** TrackingTask *)
Lemma trkUpdate_Ok h t t' : trkUpdate h t = Ok t' ->
  trGP t' = trGP t /\ trGV t' = trGV t /\ trEP t' = trEP t /\ trEV t' = trEV t /\ trRA t' = trRA t /\
  exists e er, commonQC h er (trC t) = Ok (e, trC t') /\ forall i, vget er i = trGP t * vget (trEP t) i + trGV t * vget (trEV t) i + vget (trRA t) i.
Proof.
  intros H. apply bind_Ok in H as (e1 & H1 & H). apply bind_Ok in H as (e & H2 & H). apply bind_Ok in H as ((e', c) & H3 & H). injection H as <-. cbn.
  repeat (split; [solve [auto]|]). exists e', e. split; auto. intros i. apply vplus_Ok in H1 as (_ & _ & H1). apply vplus_Ok in H2 as (_ & _ & H2). rewrite H2, H1. auto.
Qed.
Lemma trkStep_Ok t o t' : trkStep t o = Ok t' -> cmRobot (trC t') = cmRobot (trC t) /\
  trGP t' = latest trkGiveGP (trGP t) [o] /\ trGV t' = latest trkGiveGV (trGV t) [o] /\
  trEP t' = latest trkGiveEP (trEP t) [o] /\ trEV t' = latest trkGiveEV (trEV t) [o] /\ trRA t' = latest trkGiveRA (trRA t) [o] /\
  cmDim (trC t') = latest trkGiveW (cmDim (trC t)) [o] /\
  cmWeight (trC t') = latest trkGiveWeight (cmWeight (trC t)) [o] /\ cmBegin (trC t') = latest (trkGiveBegin (cmRobot (trC t))) (cmBegin (trC t)) [o].
Proof.
  intros H. destruct o; cbn [trkStep] in H; try (injection H as <-; cbn; repeat split; auto; fail).
  - apply bind_Ok in H as (c & H1 & H). injection H as <-. apply commonNrVars_Ok in H1 as (A & B & D & E). cbn. rewrite A. auto 10.
  - apply trkUpdate_Ok in H as (A & B & C & D & E & e & er & H & _). apply commonQC_Ok in H as (W1 & W2 & W3 & W4 & _). cbn. auto 10.
Qed.
Lemma trkRun_Ok ops : forall t t', trkRun ops t = Ok t' -> cmRobot (trC t') = cmRobot (trC t) /\
  trGP t' = latest trkGiveGP (trGP t) ops /\ trGV t' = latest trkGiveGV (trGV t) ops /\
  trEP t' = latest trkGiveEP (trEP t) ops /\ trEV t' = latest trkGiveEV (trEV t) ops /\ trRA t' = latest trkGiveRA (trRA t) ops /\
  cmDim (trC t') = latest trkGiveW (cmDim (trC t)) ops /\
  cmWeight (trC t') = latest trkGiveWeight (cmWeight (trC t)) ops /\ cmBegin (trC t') = latest (trkGiveBegin (cmRobot (trC t))) (cmBegin (trC t)) ops.
Proof.
  induction ops as [|o ops IH]; intros t t' H; cbn [trkRun] in H.
  - injection H as <-. cbn. auto 10.
  - apply bind_Ok in H as (t1 & H1 & H). apply trkStep_Ok in H1 as (R1 & A1 & B1 & C1 & D1 & E1 & F1 & G1 & H1).
    apply IH in H as (R2 & A2 & B2 & C2 & D2 & E2 & F2 & G2 & H2).
    rewrite (latest_cons _ _ _ ops _ A1), (latest_cons _ _ _ ops _ B1), (latest_cons _ _ _ ops _ C1), (latest_cons _ _ _ ops _ D1), (latest_cons _ _ _ ops _ E1), (latest_cons _ _ _ ops _ F1), (latest_cons _ _ _ ops _ G1), (latest_cons _ _ _ ops _ H1). rewrite R1 in *. auto 12.
Qed.
Lemma tracking_lemma mbs r dim gp0 gv0 W0 w0 ops t0 t h t' :
  newTrk mbs r dim gp0 gv0 W0 w0 = Ok t0 -> trkRun ops t0 = Ok t -> trkUpdate h t = Ok t' ->
  costs (commonTask (trC t')) (latest trkGiveWeight w0 ops)
    (leastSquares h (latest (trkGiveBegin r) 0%nat ops) (vget (latest trkGiveW W0 ops))
      (fun i => latest trkGiveGP gp0 ops * vget (latest trkGiveEP (vfill dim 0) ops) i +
                latest trkGiveGV gv0 ops * vget (latest trkGiveEV (vfill dim 0) ops) i + vget (latest trkGiveRA (vfill dim 0) ops) i)).
Proof.
  intros N Rn U. apply bind_Ok in N as (c & N & N'). apply newCommon_Ok in N as (N1 & N2 & N3 & N4). injection N' as <-.
  apply trkRun_Ok in Rn as (R2 & A2 & B2 & C2 & D2 & E2 & F2 & G2 & H2). cbn in *. rewrite N1, N2, N3, N4 in *.
  rewrite <- A2, <- B2, <- C2, <- D2, <- E2, <- F2, <- G2, <- H2.
  apply trkUpdate_Ok in U as (_ & _ & _ & _ & _ & e & er & U & V). apply commonQC_Ok in U as (_ & _ & _ & _ & _ & _ & _ & _ & _ & U & _).
  eapply costs_ext; [exact U|]. intros x. apply leastSquares_ext. intros i _. apply V.
Qed.

(** ** TrajectoryTask *)
Lemma trjUpdate_Ok h t t' : trjUpdate h t = Ok t' ->
  tjDim t' = tjDim t /\ tjK t' = tjK t /\ tjD t' = tjD t /\ tjRV t' = tjRV t /\ tjRA t' = tjRA t /\
  exists e er, commonQC h er (tjC t) = Ok (e, tjC t') /\
    forall i, vget er i = vget (tjK t) i * vget (hErr h) i + vget (tjD t) i * (vget (tjRV t) i - vget (hSpeed h) i) + vget (tjRA t) i.
Proof.
  intros H. apply bind_Ok in H as (e0 & H0 & H). apply bind_Ok in H as (v & H1 & H). apply bind_Ok in H as (dv & H2 & H).
  apply bind_Ok in H as (e1 & H3 & H). apply bind_Ok in H as (e & H4 & H). apply bind_Ok in H as ((e', c) & H5 & H). injection H as <-. cbn.
  repeat (split; [solve [auto]|]). exists e', e. split; auto. intros i.
  apply diagv_Ok in H0 as (_ & _ & H0). apply vminus_Ok in H1 as (_ & _ & H1). apply diagv_Ok in H2 as (_ & _ & H2).
  apply vplus_Ok in H3 as (_ & _ & H3). apply vplus_Ok in H4 as (_ & _ & H4). rewrite H4, H3, H2, H1, H0. auto.
Qed.
Lemma trjStep_Ok t o t' : trjStep t o = Ok t' -> cmRobot (tjC t') = cmRobot (tjC t) /\
  (forall i, vget (tjK t') i = latest (trjGiveK i) (vget (tjK t) i) [o] /\ vget (tjD t') i = latest (trjGiveD i) (vget (tjD t) i) [o] /\
    vget (tjRV t') i = latest (trjGiveRV i) (vget (tjRV t) i) [o] /\ vget (tjRA t') i = latest (trjGiveRA i) (vget (tjRA t) i) [o]) /\
  cmDim (tjC t') = latest trjGiveW (cmDim (tjC t)) [o] /\
  cmWeight (tjC t') = latest trjGiveWeight (cmWeight (tjC t)) [o] /\ cmBegin (tjC t') = latest (trjGiveBegin (cmRobot (tjC t))) (cmBegin (tjC t)) [o].
Proof.
  intros H. destruct o; cbn [trjStep] in H.
  2: { apply bind_Ok in H as (? & _ & H). apply bind_Ok in H as (? & _ & H). injection H as <-. cbn. repeat split; auto. }
  3: { apply bind_Ok in H as (? & _ & H). injection H as <-. cbn. repeat split; auto. }
  4: { apply bind_Ok in H as (? & _ & H). injection H as <-. cbn. repeat split; auto. }
  1-7: injection H as <-; cbn; repeat split; auto; ring.
  - apply bind_Ok in H as (c & H1 & H). injection H as <-. apply commonNrVars_Ok in H1 as (A & B & D & E). cbn. rewrite A. auto 10.
  - apply trjUpdate_Ok in H as (Z & A & B & C & D & e & er & H & _). apply commonQC_Ok in H as (W1 & W2 & W3 & W4 & _). cbn. rewrite A, B, C, D. auto 10.
Qed.
Lemma trjRun_Ok ops : forall t t', trjRun ops t = Ok t' -> cmRobot (tjC t') = cmRobot (tjC t) /\
  (forall i, vget (tjK t') i = latest (trjGiveK i) (vget (tjK t) i) ops /\ vget (tjD t') i = latest (trjGiveD i) (vget (tjD t) i) ops /\
    vget (tjRV t') i = latest (trjGiveRV i) (vget (tjRV t) i) ops /\ vget (tjRA t') i = latest (trjGiveRA i) (vget (tjRA t) i) ops) /\
  cmDim (tjC t') = latest trjGiveW (cmDim (tjC t)) ops /\
  cmWeight (tjC t') = latest trjGiveWeight (cmWeight (tjC t)) ops /\ cmBegin (tjC t') = latest (trjGiveBegin (cmRobot (tjC t))) (cmBegin (tjC t)) ops.
Proof.
  induction ops as [|o ops IH]; intros t t' H; cbn [trjRun] in H.
  - injection H as <-. cbn. auto 10.
  - apply bind_Ok in H as (t1 & H1 & H). apply trjStep_Ok in H1 as (R1 & A1 & F1 & G1 & H1).
    apply IH in H as (R2 & A2 & F2 & G2 & H2). rewrite R1 in *. split; [auto|]. split.
    + intros i. destruct (A1 i) as (P1 & P2 & P3 & P4). rewrite (latest_cons _ _ _ ops _ P1), (latest_cons _ _ _ ops _ P2), (latest_cons _ _ _ ops _ P3), (latest_cons _ _ _ ops _ P4). auto.
    + rewrite (latest_cons _ _ _ ops _ F1), (latest_cons _ _ _ ops _ G1), (latest_cons _ _ _ ops _ H1). auto.
Qed.
Lemma trajectory_lemma mbs r dim gp0 gv0 W0 w0 ops t0 t h t' :
  newTrj mbs r dim gp0 gv0 W0 w0 = Ok t0 -> trjRun ops t0 = Ok t -> trjUpdate h t = Ok t' ->
  costs (commonTask (tjC t')) (latest trjGiveWeight w0 ops)
    (leastSquares h (latest (trjGiveBegin r) 0%nat ops) (vget (latest trjGiveW W0 ops))
      (fun i => latest (trjGiveK i) gp0 ops * vget (hErr h) i +
                latest (trjGiveD i) gv0 ops * (latest (trjGiveRV i) 0 ops - vget (hSpeed h) i) + latest (trjGiveRA i) 0 ops)).
Proof.
  intros N Rn U. apply bind_Ok in N as (c & N & N'). apply newCommon_Ok in N as (N1 & N2 & N3 & N4). injection N' as <-.
  apply trjRun_Ok in Rn as (R2 & A2 & F2 & G2 & H2). cbn in *. rewrite N1, N2, N3, N4 in *.
  rewrite <- F2, <- G2, <- H2.
  apply trjUpdate_Ok in U as (_ & _ & _ & _ & _ & e & er & U & V). apply commonQC_Ok in U as (_ & _ & _ & _ & _ & _ & _ & _ & _ & U & _).
  eapply costs_ext; [exact U|]. intros x. apply leastSquares_ext. intros i _. rewrite V. destruct (A2 i) as (P1 & P2 & P3 & P4).
  rewrite P1, P2, P3, P4, !Rmult_1_r. auto.
Qed.
Lemma commonQC_def h er c : vlen (cmDim c) = mrows (hJac h) -> vlen er = mrows (hJac h) -> vlen (hNAcc h) = mrows (hJac h) -> exists e c', commonQC h er c = Ok (e, c').
Proof.
  intros A B C. unfold commonQC, computeQC, vminus, vsame. rewrite B, C, Nat.eqb_refl. cbn [guard bind].
  match goal with |- context [lsQC ?a ?b ?c] => destruct (lsQC_def a b c) as (Q & C' & ->); [auto|cbn; congruence|] end. cbn [bind]. eauto.
Qed.
Lemma tracking_defined h t : hlSizes (vlen (cmDim (trC t))) h -> vlen (trEP t) = vlen (cmDim (trC t)) -> vlen (trEV t) = vlen (cmDim (trC t)) -> vlen (trRA t) = vlen (cmDim (trC t)) ->
  exists t', trkUpdate h t = Ok t'.
Proof.
  intros (A & B & C & D) E F G. unfold trkUpdate, vplus, vsame. cbn [vlen vscal]. rewrite E, F, G, Nat.eqb_refl. cbn [guard bind vlen vscal]. rewrite ?E, Nat.eqb_refl. cbn [guard bind].
  match goal with |- context [commonQC ?a ?b ?c] => destruct (commonQC_def a b c) as (e & c' & ->); [congruence|cbn; congruence|congruence|] end. cbn [bind]. eauto.
Qed.
Lemma trajectory_defined h t : hlSizes (vlen (cmDim (tjC t))) h -> vlen (tjK t) = vlen (cmDim (tjC t)) -> vlen (tjD t) = vlen (cmDim (tjC t)) ->
  vlen (tjRV t) = vlen (cmDim (tjC t)) -> vlen (tjRA t) = vlen (cmDim (tjC t)) -> exists t', trjUpdate h t = Ok t'.
Proof.
  intros (A & B & C & D) E F G H. unfold trjUpdate, diagv, vplus, vminus, vsame. rewrite E, B, Nat.eqb_refl. cbn [guard bind]. rewrite G, C, Nat.eqb_refl. cbn [guard bind vlen].
  rewrite F, ?G, Nat.eqb_refl. cbn [guard bind vlen]. rewrite ?B, ?G, Nat.eqb_refl. cbn [guard bind vlen]. rewrite ?B, H, Nat.eqb_refl. cbn [guard bind].
  match goal with |- context [commonQC ?a ?b ?c] => destruct (commonQC_def a b c) as (e & c' & ->); [congruence|cbn; congruence|congruence|] end. cbn [bind]. eauto.
Qed.
