(** A vector turned by one joint, and a vector that points away from its target. *)
From Verif Require Export VecLoop KinWitness.
From Verif Require Import SetPointFacts SetPointLoop SetPointWitness KinLoop KinVecFacts KinTaskFacts.
From Coq Require Import Lra Lia Psatz.
Open Scope string_scope.
Open Scope list_scope.
Open Scope R_scope.
Local Arguments sumn : simpl never.

Lemma min_if t w h b W a x : costs t w (leastSquares h b W a) -> 0 <= w -> (forall i, (i < mrows (hJac h))%nat -> 0 <= W i) ->
  (forall p, sumn (mrows (hJac h)) (fun i => W i * ((taskAcc h b x i - a i) * along h b p i)) = 0) -> minimises t x.
Proof.
  intros C Hw HW Z y. pose proof (ls_along h b W a x (fun j => y j - x j) 1) as L. rewrite Z in L.
  assert (E : leastSquares h b W a (fun j => x j + 1 * (y j - x j)) = leastSquares h b W a y).
  { unfold leastSquares. f_equal. apply sumn_ext. intros i Hi. f_equal. f_equal. f_equal. unfold taskAcc. f_equal. apply sumn_ext. intros j Hj. ring. }
  rewrite E in L. assert (P : 0 <= sumn (mrows (hJac h)) (fun i => W i * along h b (fun j => y j - x j) i ^ 2)).
  { apply sumn_nonneg. intros i Hi. apply Rmult_le_pos; [apply HW; exact Hi|apply pow2_ge_0]. }
  specialize (C y x). rewrite L in C. assert (0 <= w * (1 * 0 + 1 * 1 * (/ 2 * sumn (mrows (hJac h)) (fun i => W i * along h b (fun j => y j - x j) i ^ 2)))) by (apply Rmult_le_pos; lra). lra.
Qed.

(** One joint about z; the vector is at the angle exp(-s) of its target, and the damping is 1 + sin(q)/q. *)
Definition tQ (s : R) : R := exp (- 1 * s).
Definition kTurn (s : R) : bodyKin := mkBK (mkPT (RotZ (tQ s)) v0) (mkSp (mkV3 0 0 (- tQ s)) v0) sp0 (fun _ => mkSp (mkV3 0 0 1) v0).
Definition tAl (s : R) (_ : nat) : R := - tQ s.
Definition tX (s : R) (_ : nat) : R := tQ s.
Definition tD (s : R) : R := 1 + sin (tQ s) / tQ s.
Lemma tQ_pos s : 0 < tQ s. Proof. apply exp_pos. Qed.
Lemma tQ_rate s : dlim tQ s (- tQ s).
Proof. unfold tQ. eapply dl_eq; [apply (dlim_exp (-1))|ring]. Qed.
Lemma kTurn_moves t : movesAt kMb [0%nat] kTurn tAl tX t.
Proof.
  assert (S : dlim (fun s => sin (tQ s)) t (cos (tQ t) * - tQ t)) by (apply (dl_comp tQ sin); [apply tQ_rate|apply derivable_pt_lim_sin]).
  assert (C : dlim (fun s => cos (tQ s)) t (- sin (tQ t) * - tQ t)) by (apply (dl_comp tQ cos); [apply tQ_rate|apply derivable_pt_lim_cos]).
  apply moves_of; unfold kTurn; cbn [bkPos bkVelB bkNAccB bkCol ptE ptr ang linr].
  - intros s. apply rotZ_rigid.
  - apply Spatial_ext; apply V3_ext; cbn; unfold tAl; ring.
  - unfold RotZ, m3neg, m3mul, skewm, m3mulv, dot. repeat split; cbn; (eapply dl_eq; [first [exact S|exact C|apply dl_opp; exact S|apply dl_const]|ring]).
  - eapply dV_eq; [apply dV_const|]. unfold m3mulv, dot, v0; cbn. f_equal; ring.
  - unfold jsp, spsum, tX; simpl. repeat split; cbn; (eapply dl_eq; [first [apply dl_const|apply dl_opp; apply tQ_rate]|cbv beta; unfold tX; cbn; ring]).
Qed.
Lemma tQ_le s : 0 <= s -> tQ s <= 1.
Proof. intros Hs. unfold tQ. rewrite <- exp_0. destruct (Rle_lt_or_eq_dec 0 s Hs) as [L|E]; [left; apply exp_increasing; lra|right; f_equal; lra]. Qed.
Lemma tD_range s : 0 <= s -> 1 <= tD s <= 2.
Proof.
  intros Hs. pose proof (tQ_pos s) as P. pose proof (tQ_le s Hs) as L. pose proof (sin_lt_x (tQ s) P) as S. assert (S0 : 0 < sin (tQ s)) by (apply sin_gt_0; [exact P|pose proof PI2_1; lra]).
  unfold tD. assert (0 < sin (tQ s) / tQ s) by (apply Rdiv_lt_0_compat; auto). assert (sin (tQ s) / tQ s <= 1) by (apply Rmult_le_reg_r with (tQ s); [exact P|]; unfold Rdiv; rewrite Rmult_assoc, Rinv_l; lra). lra.
Qed.
Lemma turn_out s : exists h, vecOriUpdate kMb [0%nat] xhat xhat (kTurn s) (kJm 3 s) = Ok h /\ hlSizes 3 h /\ mcols (hJac h) = 1%nat /\
  (forall i, (i < 3)%nat -> mget (hJac h) i 0 = e3 (mkV3 (- sin (tQ s)) (cos (tQ s)) 0) i /\ vget (hErr h) i = e3 (mkV3 (1 - cos (tQ s)) (- sin (tQ s)) 0) i /\
    vget (hSpeed h) i = e3 (mkV3 (tQ s * sin (tQ s)) (- tQ s * cos (tQ s)) 0) i /\ vget (hNAcc h) i = e3 (mkV3 (- (tQ s * tQ s) * cos (tQ s)) (- (tQ s * tQ s) * sin (tQ s)) 0) i).
Proof.
  eexists. split; [reflexivity|]. split; [repeat split|]. split; [reflexivity|]. intros i Hi. destruct i as [|[|[|]]]; [| | |lia].
  all: repeat split; cbn; unfold sumn; cbn; repeat (unfold dot, m3mulv, v0, vadd, cross; cbn); try ring.
  all: unfold mmul_ent, sumn; cbn; repeat (unfold dot, m3mulv, xhat; cbn); ring.
Qed.

(** The closed loop of this vector: a TrajectoryTask of stiffness 1 whose damping is set at every instant. *)
Lemma turn_loop : exists H, yields 3 kMb (fun s => vecOriUpdate kMb [0%nat] xhat xhat (kTurn s) (kJm 3 s)) H /\
  (forall s, 0 <= s -> exists tk, driveTask s (mkDrive 1 (fun _ => 1) (fun _ => 1) (fun _ => tD s) 0 H) tk /\ minimises tk (tX s)) /\
  (forall s, 0 <= s -> turnsTo (H s) 0 (pointing xhat (kTurn s)) xhat).
Proof.
  assert (Mv : forall s, 0 <= s -> movesAt kMb [0%nat] kTurn (fun s j => tAl s (0 + j)%nat) (fun s j => tX s (0 + j)%nat) s) by (intros s _; exact (kTurn_moves s)).
  destruct (vector_moving kMb [0%nat] xhat xhat kTurn (kJm 3) 1 (fun _ => 1) (fun _ => 1) (fun _ => 1) 0 tX tAl kWf (kSized 3) Mv) as (H & Y & _ & _).
  exists H. split; [exact Y|].
  assert (V : forall s, mrows (hJac (H s)) = 3%nat /\ hlSizes 3 (H s) /\ mcols (hJac (H s)) = 1%nat /\ (forall i, (i < 3)%nat -> mget (hJac (H s)) i 0 = e3 (mkV3 (- sin (tQ s)) (cos (tQ s)) 0) i /\ vget (hErr (H s)) i = e3 (mkV3 (1 - cos (tQ s)) (- sin (tQ s)) 0) i /\
    vget (hSpeed (H s)) i = e3 (mkV3 (tQ s * sin (tQ s)) (- tQ s * cos (tQ s)) 0) i /\ vget (hNAcc (H s)) i = e3 (mkV3 (- (tQ s * tQ s) * cos (tQ s)) (- (tQ s * tQ s) * sin (tQ s)) 0) i)).
  { intros s. destruct (Y s) as (E & _). destruct (turn_out s) as (h & Eh & Sz & Cl & HV). rewrite E in Eh. injection Eh as <-. split; [apply Sz|]. auto. }
  split.
  - intros s Hs. destruct (V s) as (Rw & Sz & Cl & HV).
    assert (N : exists t0, newTrj [kMb] 0 3 1 1 (ones 3) 1 = Ok t0) by (unfold newTrj; cbn; eauto). destruct N as (t0 & N).
    assert (Rn : exists t, trjRun [TrjDamping (tD s)] t0 = Ok t) by (cbn; eauto). destruct Rn as (t & Rn).
    assert (U : exists t', trjUpdate (H s) t = Ok t').
    { unfold newTrj in N. cbn in N. injection N as <-. cbn in Rn. injection Rn as <-. apply trajectory_defined; cbn; try reflexivity. exact Sz. }
    destruct U as (t' & U). exists (commonTask (tjC t')).
    assert (D : driveTask s (mkDrive 1 (fun _ => 1) (fun _ => 1) (fun _ => tD s) 0 H) (commonTask (tjC t'))).
    { exact (DriveTrajectory s (mkDrive 1 (fun _ => 1) (fun _ => 1) (fun _ => tD s) 0 H) _ [kMb] 0%nat 3%nat 1 1 (ones 3) 1 [TrjDamping (tD s)] t0 t t' N Rn U eq_refl (fun _ => eq_refl) (fun _ => eq_refl) eq_refl (fun _ => eq_refl) (fun _ => eq_refl) (fun _ => eq_refl) eq_refl). }
    split; [exact D|]. pose proof (drive_costs _ _ _ D) as C. cbn [dvWeight dvOut dvBegin dvDim] in C.
    eapply min_if; [exact C|lra|intros; lra|]. intros p. rewrite Rw. unfold dvAsks, dvErr, dvSpeed. cbn [dvK dvD dvOut]. unfold taskAcc, along. rewrite Cl. unfold sumn. cbn [fold_right seq map Nat.add].
    destruct (HV 0%nat) as (A0 & B0 & C0 & D0); [lia|]. destruct (HV 1%nat) as (A1 & B1 & C1 & D1); [lia|]. destruct (HV 2%nat) as (A2 & B2 & C2 & D2); [lia|].
    rewrite A0, A1, A2, B0, B1, B2, C0, C1, C2, D0, D1, D2. cbn. unfold tX, tD. pose proof (sin2_cos2 (tQ s)) as SC. unfold Rsqr in SC. pose proof (tQ_pos s) as P.
    set (S := sin (tQ s)) in *. set (Co := cos (tQ s)) in *. set (q := tQ s) in *. 
    match goal with |- ?l = 0 => replace l with (p 0%nat * (S * (1 - (S * S + Co * Co)))) by (field; lra) end.
    rewrite SC. ring.
  - intros s Hs. destruct (V s) as (Rw & Sz & Cl & HV). exists (fun _ => - sin (tQ s)). intros i Hi. rewrite Cl. unfold sumn. cbn [fold_right seq map].
    destruct (HV i Hi) as (-> & _). pose proof (sin2_cos2 (tQ s)) as SC. unfold Rsqr in SC.
    destruct i as [|[|[|]]]; [| | |lia]; cbn; repeat (unfold pointing, m3mulv, dot, xhat; cbn); try nra.
Qed.

(** A ball joint, which turns the body about every axis, at rest; the vector points away from its target. *)
Definition bMb : multibody := mkMB [mkJoint "b" 3 4 None].
Definition bK (_ : R) : bodyKin := mkBK (mkPT m3id v0) sp0 sp0 (fun c => mkSp (match c with 0%nat => mkV3 1 0 0 | 1%nat => mkV3 0 1 0 | _ => mkV3 0 0 1 end) v0).
Definition bJm (_ : R) : mat := mzero 3 3.
Definition bX (_ : R) (_ : nat) : R := 0.
Definition xback : V3 := mkV3 (-1) 0 0.
Lemma bWf : wfPath bMb [0%nat].
Proof. split; [constructor; [simpl; tauto|constructor]|]. intros i [<-|[]]. simpl. lia. Qed.
Lemma bSized : sized 3 bMb bJm.
Proof. intros s. split; reflexivity. Qed.
Lemma bK_moves t : movesAt bMb [0%nat] bK bX bX t.
Proof.
  apply moves_of; unfold bK; cbn [bkPos bkVelB bkNAccB bkCol ptE ptr ang linr].
  - intros s. apply id_rigid.
  - apply Spatial_ext; apply V3_ext; cbn; unfold bX; ring.
  - eapply dM_eq; [apply dM_const|]. apply M3_ext; v3c.
  - eapply dV_eq; [apply dV_const|]. unfold m3mulv, dot, v0; cbn. f_equal; ring.
  - unfold jsp, spsum, bX; simpl. repeat split; cbn; (eapply dl_eq; [apply dl_const|cbv beta; cbn; ring]).
Qed.
Lemma ball_out s : exists h, vecOriUpdate bMb [0%nat] xhat xback (bK s) (bJm s) = Ok h /\ hlSizes 3 h /\ mcols (hJac h) = 3%nat /\
  (forall i, (i < 3)%nat -> mget (hJac h) i 0 = 0 /\ mget (hJac h) i 1 = e3 (mkV3 0 0 (-1)) i /\ mget (hJac h) i 2 = e3 (mkV3 0 1 0) i /\
    vget (hErr h) i = e3 (mkV3 (-2) 0 0) i /\ vget (hSpeed h) i = 0 /\ vget (hNAcc h) i = 0).
Proof.
  eexists. split; [reflexivity|]. split; [repeat split|]. split; [reflexivity|]. intros i Hi. destruct i as [|[|[|]]]; [| | |lia].
  all: repeat split; cbn; unfold mmul_ent, sumn; cbn; repeat (unfold dot, m3mulv, v0, vadd, cross, xhat, xback; cbn); ring.
Qed.
Lemma ball_loop : exists H, yields 3 bMb (fun s => vecOriUpdate bMb [0%nat] xhat xback (bK s) (bJm s)) H /\
  (forall s, 0 <= s -> exists tk, driveTask s (mkDrive 1 (fun _ => 1) (fun _ => 1) (fun _ => 2 * sqrt 1) 0 H) tk /\ minimises tk (bX s)) /\
  (forall s tau, dot tau (pointing xhat (bK s)) = 0 -> exists y : nat -> R, forall i, (i < 3)%nat -> sumn (mcols (hJac (H s))) (fun j => mget (hJac (H s)) i j * y (0 + j)%nat) = e3 tau i).
Proof.
  assert (Mv : forall s, 0 <= s -> movesAt bMb [0%nat] bK (fun s j => bX s (0 + j)%nat) (fun s j => bX s (0 + j)%nat) s) by (intros s _; exact (bK_moves s)).
  destruct (vector_moving bMb [0%nat] xhat xback bK bJm 1 (fun _ => 1) (fun _ => 1) (fun _ => 1) 0 bX bX bWf bSized Mv) as (H & Y & _ & _).
  exists H. split; [exact Y|].
  assert (V : forall s, mrows (hJac (H s)) = 3%nat /\ hlSizes 3 (H s) /\ mcols (hJac (H s)) = 3%nat /\ (forall i, (i < 3)%nat -> mget (hJac (H s)) i 0 = 0 /\ mget (hJac (H s)) i 1 = e3 (mkV3 0 0 (-1)) i /\ mget (hJac (H s)) i 2 = e3 (mkV3 0 1 0) i /\
    vget (hErr (H s)) i = e3 (mkV3 (-2) 0 0) i /\ vget (hSpeed (H s)) i = 0 /\ vget (hNAcc (H s)) i = 0)).
  { intros s. destruct (Y s) as (E & _). destruct (ball_out s) as (h & Eh & Sz & Cl & HV). rewrite E in Eh. injection Eh as <-. split; [apply Sz|]. auto. }
  split.
  - intros s Hs. destruct (V s) as (Rw & Sz & Cl & HV).
    assert (N : exists t0, newSP [bMb] 0 1 (ones 3) 1 = Ok t0) by (unfold newSP; cbn; rewrite two1; cbn; eauto). destruct N as (t0 & N).
    assert (D3 : vlen (cmDim (SetPointModel.spC t0)) = 3%nat) by (apply newSP_Ok in N as (_ & _ & _ & -> & _); auto).
    destruct (setpoint_defined (H s) t0) as (t' & U); [rewrite D3; exact Sz|]. exists (commonTask (SetPointModel.spC t')).
    assert (D : driveTask s (mkDrive 1 (fun _ => 1) (fun _ => 1) (fun _ => 2 * sqrt 1) 0 H) (commonTask (SetPointModel.spC t'))).
    { exact (DriveSetPoint s (mkDrive 1 (fun _ => 1) (fun _ => 1) (fun _ => 2 * sqrt 1) 0 H) _ [bMb] 0%nat 1 (ones 3) 1 [] t0 t0 t' N eq_refl U eq_refl eq_refl (fun _ => eq_refl) (fun _ => eq_refl) (fun _ => eq_refl) eq_refl). }
    split; [exact D|]. pose proof (drive_costs _ _ _ D) as C. cbn [dvWeight dvOut dvBegin dvDim] in C.
    eapply min_if; [exact C|lra|intros; lra|]. intros p. rewrite Rw. unfold dvAsks, dvErr, dvSpeed. cbn [dvK dvD dvOut]. unfold taskAcc, along. rewrite Cl. unfold sumn. cbn [fold_right seq map Nat.add].
    destruct (HV 0%nat) as (A0 & B0 & C0 & D0 & E0 & F0); [lia|]. destruct (HV 1%nat) as (A1 & B1 & C1 & D1 & E1 & F1); [lia|]. destruct (HV 2%nat) as (A2 & B2 & C2 & D2 & E2 & F2); [lia|].
    rewrite A0, A1, A2, B0, B1, B2, C0, C1, C2, D0, D1, D2, E0, E1, E2, F0, F1, F2. cbn. unfold bX. ring.
  - intros s tau T. destruct (V s) as (Rw & Sz & Cl & HV). exists (fun j => match j with 1%nat => - vz tau | 2%nat => vy tau | _ => 0 end).
    assert (T0 : vx tau = 0) by (unfold pointing, dot, m3mulv, bK, xhat in T; cbn in T; unfold dot in T; cbn in T; lra).
    intros i Hi. rewrite Cl. unfold sumn. cbn [fold_right seq map Nat.add]. destruct (HV i Hi) as (-> & -> & -> & _).
    destruct i as [|[|[|]]]; [| | |lia]; cbn; lra.
Qed.
Lemma turn_point s : pointing xhat (kTurn s) = mkV3 (cos (tQ s)) (sin (tQ s)) 0.
Proof. unfold pointing, kTurn, xhat. cbn. unfold m3mulv, dot. cbn. f_equal; ring. Qed.
Lemma turn_start : dV (fun s => pointing xhat (kTurn s)) 0 (mkV3 (sin 1) (- cos 1) 0) /\ swing 1 (mkV3 (sin 1) (- cos 1) 0) xhat (pointing xhat (kTurn 0)) = 3 / 2 - cos 1.
Proof.
  assert (Q0 : tQ 0 = 1) by (unfold tQ; replace (-1 * 0) with 0 by ring; apply exp_0). split.
  - assert (S : dlim (fun s => sin (tQ s)) 0 (cos (tQ 0) * - tQ 0)) by (apply (dl_comp tQ sin); [apply tQ_rate|apply derivable_pt_lim_sin]).
    assert (C : dlim (fun s => cos (tQ s)) 0 (- sin (tQ 0) * - tQ 0)) by (apply (dl_comp tQ cos); [apply tQ_rate|apply derivable_pt_lim_cos]). rewrite Q0 in S, C.
    split; [|split].
    + apply (dl_ext (fun s => cos (tQ s))); [intros s; rewrite turn_point; reflexivity|]. eapply dl_eq; [exact C|cbn; ring].
    + apply (dl_ext (fun s => sin (tQ s))); [intros s; rewrite turn_point; reflexivity|]. eapply dl_eq; [exact S|cbn; ring].
    + apply (dl_ext (fun s => 0)); [intros s; rewrite turn_point; reflexivity|]. apply dl_const.
  - rewrite turn_point, Q0. unfold swing, dot, xhat. cbn. pose proof (sin2_cos2 1) as SC. unfold Rsqr in SC. lra.
Qed.
Lemma turn_far s : 0 <= s -> dot (vsub xhat (pointing xhat (kTurn s))) (vsub xhat (pointing xhat (kTurn s))) = 2 * (1 - cos (exp (- s))) /\ cos (exp (- s)) < 1.
Proof.
  intros Hs. rewrite turn_point. unfold tQ. replace (-1 * s) with (- s) by ring. set (q := exp (- s)). split.
  - unfold dot, vsub, xhat. cbn. pose proof (sin2_cos2 q) as SC. unfold Rsqr in SC. lra.
  - assert (Q1 : q <= 1) by (pose proof (tQ_le s Hs) as T; unfold tQ in T; replace (-1 * s) with (- s) in T by ring; exact T). assert (Q0 : 0 < q) by apply exp_pos. pose proof PI2_1.
    rewrite <- cos_0. apply cos_decreasing_1; lra.
Qed.
