(** Concrete motions of two hinges in contact. *)
From Verif Require Export ContactLoop.
From Verif Require Import ContactFacts ContactRowsProofs ContactEnergy ContactLinesProofs KinWitness SetPointLoop.
From Coq Require Import Lra Lia.
Open Scope string_scope.
Open Scope list_scope.
Open Scope R_scope.
Local Arguments sumn : simpl never.

Definition hzMbs : list multibody := [kMb; kMb].
Definition hzNames : names := mkNames
  (fun r b => match r with 0%nat => if String.eqb b "foot" then Ok [0%nat] else Throw | 1%nat => if String.eqb b "box" then Ok [0%nat] else Throw | _ => UB end)
  (fun r b => match r with 0%nat => if String.eqb b "foot" then Ok 0%nat else Throw | 1%nat => if String.eqb b "box" then Ok 0%nat else Throw | _ => UB end)
  (fun r _ => match r with 0%nat => "foot" | _ => "box" end).
Definition hzXcf : PT := pt_trans (mkV3 0 0 1).
Definition hzBi : list bilateral := [mkBi wFoot [] [] [] [] pt_id hzXcf].
Definition hzData : solverData := match nrVarsData hzMbs [] hzBi with Ok (d, _) => d | _ => mkSD [] [] [] [] 0 0 0 0 0 [] [] [] [] end.
Definition hzDeps : list dep := match nrVarsData hzMbs [] hzBi with Ok (_, p) => p | _ => [] end.
Definition hzC1 : contactConstr := match updateNrVars hzNames hzMbs hzData newCC with Ok c' => c' | _ => newCC end.
Definition hzCd : cdata := mkCD [mkCSD 0 0 0 1 [0%nat] hzXcf; mkCSD 1 1 0 (-1) [0%nat] (pt_mul hzXcf (pt_inv pt_id))] identity6 (revDof identity6) 0 1 0 0 pt_id hzXcf wFoot.
Lemma hzCont : ccCont hzC1 = [hzCd].
Proof. reflexivity. Qed.
Lemma hzData_eq : nrVarsData hzMbs [] hzBi = Ok (hzData, hzDeps).
Proof. reflexivity. Qed.
Lemma hzPaths : pathsOk hzNames hzMbs.
Proof.
  intros r mb body p H1 H2. unfold hzMbs in H1. destruct r as [|[|r]]; simpl in H1; [| |destruct r; discriminate]; inversion H1; subst; simpl in H2.
  - destruct (String.eqb body "foot"); inversion H2; subst. apply kWf.
  - destruct (String.eqb body "box"); inversion H2; subst. apply kWf.
Qed.
Lemma hzContacts : forall b, In b (sdAll hzData) -> rigid (bXcf b) /\ rigid (bXbb b) /\ mobile hzMbs (bId b).
Proof. intros b H. simpl in H. destruct H as [<-|[]]. split; [apply rotation_id|]. split; [apply rigid_id|]. exists kMb. split; [right; reflexivity|cbv; lia]. Qed.
Lemma hzRigid : forall b, In b (sdAll hzData) -> rigid (bXcf b) /\ rigid (bXbb b).
Proof. intros b H. destruct (hzContacts b H) as (A & B & _). auto. Qed.
Lemma hzNr : updateNrVars hzNames hzMbs hzData newCC = Ok hzC1.
Proof. reflexivity. Qed.
Lemma hzAll : selectsAll (cdDof hzCd).
Proof. intros l Hl. exists l. split; [exact Hl|]. intros j Hj. cbn. rewrite Nat.eqb_sym. reflexivity. Qed.

(** Two screws along z: joint r turns by cz q r s and slides by cp q r s. *)
Section Screws.
Variables cz cp : R.
Variables q q1 q2 : nat -> R -> R.
Hypothesis Q1 : forall r s, dlim (q r) s (q1 r s).
Hypothesis Q2 : forall r s, dlim (q1 r) s (q2 r s).
Definition hzK (s : R) (r b : nat) : bodyKin := mkBK (mkPT (RotZ (cz * q r s)) (mkV3 0 0 (cp * q r s))) (mkSp (mkV3 0 0 (cz * q1 r s)) (mkV3 0 0 (cp * q1 r s))) sp0 (fun _ => mkSp (mkV3 0 0 cz) (mkV3 0 0 cp)).
Definition hzX (s : R) (j : nat) : R := q2 j s.
Definition hzAl (r : nat) (s : R) (j : nat) : R := q1 r s.
Lemma dl_scal k f t f' : dlim f t f' -> dlim (fun s => k * f s) t (k * f').
Proof. intros D. eapply dl_eq; [apply dl_mult; [apply dl_const|exact D]|]. cbv beta. ring. Qed.
Lemma hz_moves r b t ald : ald t 0%nat = q2 r t -> movesAt kMb [0%nat] (fun s => hzK s r b) (hzAl r) ald t.
Proof.
  intros HA. pose proof (dl_scal cz _ _ _ (Q1 r t)) as DZ. pose proof (dl_scal cp _ _ _ (Q1 r t)) as DP.
  apply moves_of; unfold hzK; cbn [bkPos bkVelB bkNAccB bkCol ptE ptr ang linr].
  - intros s. apply rotZ_rigid.
  - apply Spatial_ext; apply V3_ext; cbn; unfold hzAl; ring.
  - assert (S : dlim (fun s => sin (cz * q r s)) t (cos (cz * q r t) * (cz * q1 r t))) by (apply (dl_comp (fun s => cz * q r s) sin); [exact DZ|apply derivable_pt_lim_sin]).
    assert (C : dlim (fun s => cos (cz * q r s)) t (- sin (cz * q r t) * (cz * q1 r t))) by (apply (dl_comp (fun s => cz * q r s) cos); [exact DZ|apply derivable_pt_lim_cos]).
    unfold RotZ, m3neg, m3mul, skewm, m3mulv, dot. repeat split; cbn;
    (eapply dl_eq; [first [exact S|exact C|apply dl_opp; exact S|apply dl_const]|ring]).
  - repeat split; cbn; (eapply dl_eq; [first [apply dl_const|exact DP]|unfold m3mulv, m3tr, RotZ, dot; cbn; unfold dot; cbn; ring]).
  - unfold jsp, spsum; simpl. repeat split; cbn; (eapply dl_eq; [first [apply dl_const|apply dl_scal; apply Q2]|cbv beta; cbn; rewrite ?HA; ring]).
Qed.
Lemma hz_robots t : robotsMove hzNames hzMbs hzData hzK hzAl hzX t.
Proof.
  split.
  - intros r mb body p b H1 H2 H3 H4. unfold hzMbs in H1. destruct r as [|[|r]]; simpl in H1; [| |destruct r; discriminate]; inversion H1; subst; simpl in H3, H4.
    + destruct (String.eqb body "foot"); inversion H3; subst. inversion H4; subst. cbn [last]. apply hz_moves. reflexivity.
    + destruct (String.eqb body "box"); inversion H3; subst. inversion H4; subst. cbn [last]. apply hz_moves. reflexivity.
  - intros r mb body i H1 H2. unfold hzMbs in H1. destruct r as [|[|r]]; simpl in H1; [| |destruct r; discriminate]; inversion H1; subst; discriminate.
Qed.
(** The part of direction l along the screw. *)
Definition hzD (l : nat) : R := match l with 2%nat => cz | 5%nat => cp | _ => 0 end.
Lemma hz_vel s l : (l < 6)%nat -> relVel hzNames hzMbs (kinOf (hzK s)) hzCd l = hzD l * (q1 0%nat s - q1 1%nat s).
Proof.
  intros Hl. do 6 (destruct l as [|l]; [unfold relVel, bodyVel; cbn; unfold e6, rbdVel, pt_mulM, m3mulv, m3id, m3mul, cross, vadd, vneg, dot; cbn; ring|]). lia.
Qed.
Lemma hz_data : dataFor hzNames hzMbs hzData hzCd.
Proof. pose proof (inv_nrVars _ _ _ _ _ _ _ _ hzData_eq hzRigid sorted_new hzNr) as I1. pose proof (ivData _ _ _ _ I1) as DT. rewrite hzCont in DT. inversion DT as [|? ? (_ & Y)]; exact Y. Qed.
Lemma hz_acc s l : (l < 6)%nat -> relAcc hzNames hzMbs hzData (kinOf (hzK s)) hzCd (hzX s) l = hzD l * (q2 0%nat s - q2 1%nat s).
Proof.
  intros Hl. pose proof (contact_rates hzNames hzMbs hzData hzK hzAl hzX s hzCd) as CR.
  destruct CR as (_ & _ & _ & _ & D); [split; [apply rotation_id|apply rigid_id]|exact hz_data|apply hz_robots|].
  specialize (D l Hl). eapply dl_unique; [exact D|]. apply (dl_ext (fun s => hzD l * (q1 0%nat s - q1 1%nat s))); [intros u; rewrite hz_vel by exact Hl; reflexivity|].
  apply dl_scal, dl_minus; apply Q2.
Qed.
Lemma hz_mul p x y : pt_mul (pt_trans (mkV3 0 0 p)) (mkPT (RotZ x) (mkV3 0 0 y)) = mkPT (RotZ x) (mkV3 0 0 (y + p)).
Proof. unfold pt_mul, pt_trans. cbn [ptE ptr]. rewrite m3mul_id_l. f_equal. unfold vadd, v0, m3mulv, m3tr, RotZ, dot; cbn. f_equal; ring. Qed.
Lemma hz_frame1 s : frame1 (hzK s) hzCd = mkPT (RotZ (cz * q 0%nat s)) (mkV3 0 0 (cp * q 0%nat s + 1)).
Proof. apply (hz_mul 1). Qed.
Lemma hz_inv : pt_inv pt_id = pt_id.
Proof. unfold pt_inv, pt_id, m3tr, m3id, m3mulv, vneg, v0, dot; cbn. unfold dot; cbn. f_equal. f_equal; ring. Qed.
Lemma hz_frame2 s : frame2 (hzK s) hzCd = mkPT (RotZ (cz * q 1%nat s)) (mkV3 0 0 (cp * q 1%nat s + 1)).
Proof. unfold frame2. cbn [cdXcf cdXbb hzCd]. rewrite hz_inv, pt_mul_id_r. apply (hz_mul 1). Qed.
Lemma RotZ_turn x y : m3mul (RotZ y) (m3tr (RotZ x)) = rotAxis (mkV3 0 0 1) (y - x).
Proof.
  unfold RotZ, rotAxis, m3mul, m3tr, m3mulv, dot; cbn. rewrite cos_minus, sin_minus. f_equal; f_equal; ring.
Qed.
Lemma zhat_norm : norm (mkV3 0 0 1) = 1.
Proof. unfold norm, norm2, dot; cbn. replace (0 * 0 + 0 * 0 + 1 * 1) with 1 by ring. apply sqrt_1. Qed.
Definition hzSva : sva := mkSva (fun _ _ _ => 0) rvLog.
Lemma hz_half s : Rabs (cz * q 1%nat s - cz * q 0%nat s) < PI -> underHalfTurn (ptE (frame1 (hzK s) hzCd)) (ptE (frame2 (hzK s) hzCd)).
Proof. intros H. rewrite hz_frame1, hz_frame2. exists (mkV3 0 0 1), (cz * q 1%nat s - cz * q 0%nat s). split; [apply zhat_norm|]. split; [exact H|]. apply RotZ_turn. Qed.
Lemma hz_err s l : Rabs (cz * q 1%nat s - cz * q 0%nat s) < PI -> (l < 6)%nat -> frameError hzSva (kinOf (hzK s)) hzCd l = hzD l * (q 1%nat s - q 0%nat s).
Proof.
  intros HP Hl. change (frameError hzSva (kinOf (hzK s)) hzCd l) with (poseError hzSva (frame1 (hzK s) hzCd) (frame2 (hzK s) hzCd) l).
  rewrite hz_frame1, hz_frame2. unfold poseError, pt_mul, pt_inv. cbn [ptE ptr rotationVelocity hzSva]. rewrite RotZ_turn, (rvLog_isLog _ _ zhat_norm HP).
  generalize (q 1%nat s). generalize (q 0%nat s). intros x y.
  do 6 (destruct l as [|l]; [unfold vsc, m3mulv, m3tr, RotZ, vadd, vneg, dot; cbn; unfold dot; cbn; ring|]). lia.
Qed.
Lemma hz_rows m : modeOk m -> (forall s dt, 0 <= s -> m = CPos dt -> Rabs (cz * q 1%nat s - cz * q 0%nat s) < PI) ->
  (forall s, 0 <= s -> required m (q2 0%nat s - q2 1%nat s) (q1 0%nat s - q1 1%nat s) (q 1%nat s - q 0%nat s) = 0) ->
  forall s, 0 <= s -> exists c3, ccUpdate m hzMbs hzSva (kinOf (hzK s)) hzC1 = Ok c3 /\ holdsEq (sdNrVars hzData) (hzX s) (ccEquality c3).
Proof.
  intros MO HP RQ s Hs.
  destruct (defined_lemma hzNames hzMbs [] hzBi hzData hzDeps [] newCC [] hzC1 [] hzC1 [] m hzSva (kinOf (hzK s)) hzData_eq hzPaths hzContacts) as (c3 & U);
    [constructor|constructor|reflexivity|exact hzNr|constructor|reflexivity|].
  exists c3. split; [exact U|].
  apply (proj2 (rows_lemma hzNames hzMbs [] hzBi hzData hzDeps [] newCC [] hzC1 [] hzC1 [] m hzSva (kinOf (hzK s)) c3 (hzX s) hzData_eq hzPaths hzRigid MO eq_refl hzNr (Forall_nil _) eq_refl U)).
  pose proof (inv_nrVars _ _ _ _ _ _ _ _ hzData_eq hzRigid sorted_new hzNr) as I1.
  pose proof (stays_list _ _ _ _ _ _ _ _ (ivData _ _ _ _ I1) (stays_refl _) (ccUpdate_F2 _ _ _ _ _ _ U)) as ST. rewrite hzCont in ST.
  inversion ST as [|? cd3 ? l3 S1 S2 E1 E2]; subst. inversion S2; subst. constructor; [|constructor].
  assert (FX : fixedRef hzCd).
  { left. intros i j Hj. cbn [cdRevDof hzCd]. apply revDof_zero. destruct (hzAll j Hj) as (r & Hr & E). exists r. split; [exact Hr|]. cbn [cdDof hzCd] in E. rewrite E by exact Hj. rewrite Nat.eqb_refl. reflexivity. }
  rewrite (S1 FX). intros r Hr. apply sumn_0. intros l Hl. rewrite hz_vel, hz_acc by exact Hl.
  specialize (RQ s Hs). destruct m as [|dt|dt]; cbn [required] in *.
  - rewrite RQ. ring.
  - replace (hzD l * (q1 0%nat s - q1 1%nat s) + dt * (hzD l * (q2 0%nat s - q2 1%nat s))) with (hzD l * (q1 0%nat s - q1 1%nat s + dt * (q2 0%nat s - q2 1%nat s))) by ring. rewrite RQ. ring.
  - rewrite hz_err by (try exact Hl; apply (HP s dt Hs eq_refl)).
    match goal with |- _ * ?z = 0 => replace z with (hzD l * (q1 0%nat s - q1 1%nat s + dt * (q2 0%nat s - q2 1%nat s) - (q 1%nat s - q 0%nat s))) by ring end. rewrite RQ. ring.
Qed.
Lemma hz_loop m : modeOk m -> (forall s dt, 0 <= s -> m = CPos dt -> Rabs (cz * q 1%nat s - cz * q 0%nat s) < PI) ->
  (forall s, 0 <= s -> required m (q2 0%nat s - q2 1%nat s) (q1 0%nat s - q1 1%nat s) (q 1%nat s - q 0%nat s) = 0) ->
  heldLoop hzMbs hzData m hzSva hzC1 hzK hzX.
Proof.
  intros MO HP RQ s Hs. destruct (hz_rows m MO HP RQ s Hs) as (c3 & U & H).
  exists [], hzC1, [], c3. split; [constructor|]. split; [reflexivity|]. split; [exact U|exact H].
Qed.
End Screws.

(** Both joints accelerate; the second one is ahead by A exp(- k s) + B s. *)
Definition hzQ (A B k : R) (r : nat) (s : R) : R := kQ 1 1 s + match r with 0%nat => 0 | _ => A * exp (- k * s) + B * s end.
Definition hzQ1 (A B k : R) (r : nat) (s : R) : R := 1 + 1 * s + match r with 0%nat => 0 | _ => - k * A * exp (- k * s) + B end.
Definition hzQ2 (A B k : R) (r : nat) (s : R) : R := 1 + match r with 0%nat => 0 | _ => k * k * A * exp (- k * s) end.
Lemma hzE k s : dlim (fun s => exp (- k * s)) s (- k * exp (- k * s)).
Proof. eapply dl_eq; [apply dlim_exp|]. cbv beta. ring. Qed.
Lemma hzQ_rate A B k r s : dlim (hzQ A B k r) s (hzQ1 A B k r s).
Proof.
  unfold hzQ, hzQ1. destruct r; (eapply dl_eq; [apply dl_plus; [apply kQ_rate|]|]).
  - apply dl_const.
  - ring.
  - apply dl_plus; [apply dl_mult; [apply dl_const|apply hzE]|apply dl_mult; [apply dl_const|apply dl_id]].
  - cbv beta; ring.
Qed.
Lemma hzQ1_rate A B k r s : dlim (hzQ1 A B k r) s (hzQ2 A B k r s).
Proof.
  unfold hzQ1, hzQ2. destruct r; (eapply dl_eq; [apply dl_plus; [apply dl_plus; [apply dl_const|apply dl_mult; [apply dl_const|apply dl_id]]|]|]).
  - apply dl_const.
  - cbv beta; ring.
  - apply dl_plus; [apply dl_mult; [apply dl_const|apply hzE]|apply dl_const].
  - cbv beta; ring.
Qed.
Lemma exp_small k s : 0 < k -> 0 <= s -> 0 < exp (- k * s) <= 1.
Proof. intros Hk Hs. split; [apply exp_pos|]. rewrite <- exp_0. destruct (Req_dec s 0) as [->|N]; [right; f_equal; ring|left; apply exp_increasing; nra]. Qed.
Lemma hz_keep : heldLoop hzMbs hzData CAcc hzSva hzC1 (hzK 1 1 (hzQ 0 2 1) (hzQ1 0 2 1)) (hzX (hzQ2 0 2 1)).
Proof. apply (hz_loop 1 1 _ _ _ (hzQ_rate 0 2 1) (hzQ1_rate 0 2 1)); [exact I|discriminate|]. intros s Hs. unfold hzQ2; cbn [required]. ring. Qed.
Lemma hz_decay : heldLoop hzMbs hzData (CSpeed (1/2)) hzSva hzC1 (hzK 1 1 (hzQ 1 0 2) (hzQ1 1 0 2)) (hzX (hzQ2 1 0 2)).
Proof. apply (hz_loop 1 1 _ _ _ (hzQ_rate 1 0 2) (hzQ1_rate 1 0 2)); [cbn; lra|discriminate|]. intros s Hs. unfold hzQ1, hzQ2; cbn [required]. field. Qed.
Lemma hz_under A s : Rabs A <= 1 -> 0 <= s -> Rabs (1 * hzQ A 0 3 1 s - 1 * hzQ A 0 3 0 s) < PI.
Proof.
  intros HA Hs. pose proof PI2_1. pose proof (exp_small 3 s ltac:(lra) Hs) as E. unfold hzQ. cbn match.
  match goal with |- Rabs ?x < _ => replace x with (A * exp (Ropp 3 * s)) by ring end. rewrite Rabs_mult, (Rabs_pos_eq (exp _)) by lra. pose proof (Rabs_pos A). nra.
Qed.
Lemma hz_spring A : Rabs A <= 1 -> heldLoop hzMbs hzData (CPos (2/9)) hzSva hzC1 (hzK 1 1 (hzQ A 0 3) (hzQ1 A 0 3)) (hzX (hzQ2 A 0 3)).
Proof.
  intros HA. apply (hz_loop 1 1 _ _ _ (hzQ_rate A 0 3) (hzQ1_rate A 0 3)); [cbn; lra|intros s dt Hs _; apply (hz_under A s HA Hs)|].
  intros s Hs. unfold hzQ, hzQ1, hzQ2; cbn [required]. field.
Qed.
Lemma hz_slide : heldLoop hzMbs hzData (CPos (2/9)) hzSva hzC1 (hzK 0 1 (hzQ 5 0 3) (hzQ1 5 0 3)) (hzX (hzQ2 5 0 3)).
Proof.
  apply (hz_loop 0 1 _ _ _ (hzQ_rate 5 0 3) (hzQ1_rate 5 0 3)); [cbn; lra|intros s dt Hs _; rewrite !Rmult_0_l, Rminus_0_r, Rabs_R0; apply PI_RGT_0|].
  intros s Hs. unfold hzQ, hzQ1, hzQ2; cbn [required]. field.
Qed.
