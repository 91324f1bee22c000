(** A body on a screw, brought to its target by a TransformTask. *)
From Verif Require Export PoseLoop OriLoopWitness.
From Verif Require Import SetPointFacts SetPointLoop SetPointWitness KinLoop KinVecFacts KinTaskFacts KinAxis TreeWitness.
From Verif Require ContactLoopWitness.
From Coq Require Import Lra Lia Psatz.
Open Scope string_scope.
Open Scope list_scope.
Open Scope R_scope.
Local Arguments sumn : simpl never.
Local Notation cX := SetPointWitness.cX.
Local Notation spC := SetPointModel.spC.

(** The joint turns about z and moves along z from 0 to 1; the rest of the way is (1 + s) exp(-s). *)
Definition kScrew (s : R) : bodyKin := mkBK (mkPT (RotZ (1 - cE s)) (mkV3 0 0 (1 - cE s))) (mkSp (mkV3 0 0 (cV s)) (mkV3 0 0 (cV s))) sp0 (fun _ => mkSp (mkV3 0 0 1) (mkV3 0 0 1)).
Lemma kScrew_moves t : movesAt kMb [0%nat] kScrew kSlideAl cX t.
Proof.
  assert (Q : dlim (fun s => 1 - cE s) t (cV t)) by (eapply dl_eq; [apply dl_minus; [apply dl_const|apply cDe]|ring]).
  assert (S : dlim (fun s => sin (1 - cE s)) t (cos (1 - cE t) * cV t)) by (apply (dl_comp (fun s => 1 - cE s) sin); [exact Q|apply derivable_pt_lim_sin]).
  assert (C : dlim (fun s => cos (1 - cE s)) t (- sin (1 - cE t) * cV t)) by (apply (dl_comp (fun s => 1 - cE s) cos); [exact Q|apply derivable_pt_lim_cos]).
  apply moves_of; unfold kScrew; cbn [bkPos bkVelB bkNAccB bkCol ptE ptr ang linr].
  - intros s. apply rotZ_rigid.
  - apply Spatial_ext; apply V3_ext; cbn; unfold kSlideAl; ring.
  - unfold RotZ, m3neg, m3mul, skewm, m3mulv, dot. repeat split; cbn; (eapply dl_eq; [first [exact S|exact C|apply dl_opp; exact S|apply dl_const]|ring]).
  - unfold m3mulv, m3tr, RotZ, dot. repeat split; cbn; (eapply dl_eq; [first [exact Q|apply dl_const]|ring]).
  - unfold jsp, spsum; simpl. repeat split; cbn; (eapply dl_eq; [first [apply dl_const|apply cDv]|cbv beta; unfold cX; cbn; ring]).
Qed.
(** The frame of the surface and its target. *)
Definition screwX : PT := mkPT (RotZ 1) (mkV3 0 0 1).
Definition screwT : PT := mkPT (RotZ 2) (mkV3 0 0 2).
Definition screwC : M3 := RotZ 3.
Definition e33 (i : nat) (a : R) : R := match i with 2%nat | 5%nat => a | _ => 0 end.
Lemma screw_out s : 0 <= s -> exists h, tfUpdate rvLog kMb [0%nat] screwT screwX screwC (kScrew s) (kJm 6 s) = Ok h /\ hlSizes 6 h /\ mcols (hJac h) = 1%nat /\
  (forall i, (i < 6)%nat -> mget (hJac h) i 0 = e33 i 1 /\ vget (hErr h) i = e33 i (cE s) /\ vget (hSpeed h) i = e33 i (cV s) /\ vget (hNAcc h) i = 0).
Proof.
  intros Hs. destruct (transform_tracks rvLog kMb [0%nat] screwT screwX screwC kScrew _ _ 0 (kJm 6) kWf (kSized 6) (rotZ_rigid 1 v0) (rotZ_rigid 3 v0) (kScrew_moves 0)) as (H & Y & HL & HA & _).
  destruct (Y s) as (E & Sz & Cl). exists (H s). split; [exact E|]. split; [exact Sz|]. split; [rewrite Cl; reflexivity|].
  assert (RE : rotError rvLog (m3mul (ptE screwX) (ptE (bkPos (kScrew s)))) (ptE screwT) = mkV3 0 0 (cE s)).
  { unfold rotError, kScrew, screwX, screwT. cbn [bkPos ptE]. rewrite RotZ_mul, ContactLoopWitness.RotZ_turn. replace (2 - (1 + (1 - cE s))) with (cE s) by ring. rewrite spin_angle.
    - unfold m3mulv, m3tr, RotZ, dot; cbn. f_equal; ring.
    - pose proof (cE_range s Hs). rewrite Rabs_right by lra. pose proof PI2_1. lra. }
  assert (WP : vsub (ptr screwT) (worldPoint (ptr screwX) (kScrew s)) = mkV3 0 0 (cE s)).
  { unfold worldPoint, kScrew, pt_mul, pt_trans, screwX, screwT; cbn. apply V3_ext; unfold m3mulv, m3tr, vadd, vsub, RotZ, dot, v0; cbn; ring. }
  assert (J : tfUpdate rvLog kMb [0%nat] screwT screwX screwC (kScrew s) (kJm 6 s) = Ok (H s)) by exact E.
  assert (G : forall i, (i < 6)%nat -> mget (hJac (H s)) i 0 = e33 i 1 /\ vget (hSpeed (H s)) i = e33 i (cV s) /\ vget (hNAcc (H s)) i = 0).
  { pose proof (sin2_cos2 1) as SC1. pose proof (sin2_cos2 3) as SC3. unfold Rsqr in SC1, SC3. unfold tfUpdate in J. cbv beta zeta in J. 
    remember (vec6 (pt_mulM (pt_rot screwC) (tfError rvLog (pt_mul screwX (bkPos (kScrew s))) screwT))) as ev eqn:EV. clear EV. injection J as <-.
    intros i Hi. destruct i as [|[|[|[|[|[|]]]]]]; [| | | | | |lia].
    all: split; [|split]; cbn; repeat (unfold dot, m3mulv, v0, vadd, vneg, vsub, cross; cbn); ring. }
  intros i Hi. destruct (G i Hi) as (-> & -> & ->). split; [reflexivity|]. split; [|split; reflexivity].
  destruct (Nat.lt_ge_cases i 3) as [L|L].
  - rewrite (HA s i L), RE. unfold screwC, m3mulv, RotZ, dot. destruct i as [|[|[|]]]; [| | |lia]; cbn; ring.
  - replace i with (3 + (i - 3))%nat by lia. rewrite (HL s (i - 3)%nat ltac:(lia)), WP. unfold screwC, m3mulv, RotZ, dot. destruct i as [|[|[|[|[|[|]]]]]]; try lia; cbn; ring.
Qed.
Lemma screw_h s h : hlSizes 6 h -> mcols (hJac h) = 1%nat ->
  (forall i, (i < 6)%nat -> mget (hJac h) i 0 = e33 i 1 /\ vget (hErr h) i = e33 i (cE s) /\ vget (hSpeed h) i = e33 i (cV s) /\ vget (hNAcc h) i = 0) ->
  exists t0 t', newSP [kMb] 0 1 (ones 6) 1 = Ok t0 /\ spUpdate h t0 = Ok t' /\ mrows (hJac h) = 6%nat /\
  costs (commonTask (spC t')) 1 (leastSquares h 0 (vget (ones 6)) (fun i => 1 * vget (hErr h) i - 2 * sqrt 1 * vget (hSpeed h) i)) /\
  oneDim (commonTask (spC t')) 2 ((1 - s) * exp (- 1 * s)) /\
  (forall i, (i < mrows (hJac h))%nat -> taskAcc h 0 (cX s) i = 1 * vget (hErr h) i - 2 * sqrt 1 * vget (hSpeed h) i).
Proof.
  intros Sz Cl HV. destruct (cmNew 1 6) as (t0 & N).
  assert (D : vlen (cmDim (spC t0)) = 6%nat) by (apply newSP_Ok in N as (_ & _ & _ & -> & _); auto).
  destruct (setpoint_defined h t0) as (t' & U); [rewrite D; exact Sz|].
  pose proof (setpoint_lemma [kMb] 0%nat 1 (ones 6) 1 [] t0 t0 h t' N eq_refl U) as C. cbn [latest fold_left] in C.
  set (a := (1 - s) * exp (- 1 * s)).
  assert (TA : forall x i, (i < 6)%nat -> taskAcc h 0 x i = e33 i 1 * x 0%nat).
  { intros x i Hi. unfold taskAcc. rewrite Cl. unfold sumn. cbn [Nat.add]. destruct (HV i Hi) as (-> & _ & _ & ->). cbn. ring. }
  assert (DA : forall i, (i < 6)%nat -> 1 * vget (hErr h) i - 2 * sqrt 1 * vget (hSpeed h) i = e33 i a).
  { intros i Hi. destruct (HV i Hi) as (_ & -> & -> & _). rewrite sqrt_1. destruct i as [|[|[|[|[|[|]]]]]]; [| | | | | |lia]; cbn; unfold a, cE, cV; ring. }
  destruct Sz as (Rw & Sz'). exists t0, t'. split; [exact N|]. split; [exact U|]. split; [exact Rw|]. split; [exact C|]. split.
  - pose proof (newSP_Ok _ _ _ _ _ _ N) as (_ & _ & _ & _ & _ & B0).
    pose proof (spUpdate_Ok _ _ _ U) as (_ & _ & er & U' & _). apply commonQC_Ok in U' as (_ & _ & _ & B & _ & _ & _ & _ & _ & _ & S1 & S2 & S3). rewrite Cl in S1, S2, S3. rewrite B0 in B.
    split; [cbn; rewrite B; reflexivity|]. split; [exact S1|]. split; [exact S2|]. split; [exact S3|].
    assert (LS : forall x, leastSquares h 0 (vget (ones 6)) (fun i => 1 * vget (hErr h) i - 2 * sqrt 1 * vget (hSpeed h) i) x = (x 0%nat - a) ^ 2).
    { intros x. unfold leastSquares. rewrite Rw. unfold sumn. cbn [fold_right]. rewrite !TA, !DA by lia. cbn. field. }
    intros x y. rewrite C, !LS. field.
  - intros i Hi. rewrite Rw in Hi. rewrite TA, DA by exact Hi. destruct i as [|[|[|[|[|[|]]]]]]; [| | | | | |lia]; cbn; unfold cX, a; ring.
Qed.
Lemma screw_tasks : exists t0, newSP [kMb] 0 1 (ones 6) 1 = Ok t0 /\
  tasksLoop true cmKinds trySolver 0 [] [kMb] [] [] (fun s => tfUpdate rvLog kMb [0%nat] screwT screwX screwC (kScrew s) (kJm 6 s)) t0 1 0 cX.
Proof.
  destruct (cmNew 1 6) as (t0 & N). exists t0. split; [exact N|]. intros s Hs. destruct (screw_out s Hs) as (h & E & Sz & Cl & HV). destruct (screw_h s h Sz Cl HV) as (t0' & t' & N' & U & Rw & C & O & AZ).
  rewrite N in N'. injection N' as <-. destruct (one_solves _ _ _ O ltac:(lra)) as (xv & ms1 & SV & V).
  exists [OpAddTask 0], cmSolver, (cmHeap (commonTask (spC t'))), h, t', [mkMbc [[0]] tt], ms1, xv, (cX s).
  split; [exact cmHistory|]. split; [exact cmKeep|]. split; [left; reflexivity|]. split; [exact E|]. split; [exact U|]. split; [reflexivity|].
  split. { change (wfTask 1 (commonTask (spC t'))). destruct O as (B & R1 & C1 & L & _). unfold wfTask. rewrite B, R1, C1, L. cbn; lia. }
  split; [constructor|]. split; [intros k1 k2 b1 b2 i E1; destruct k1; discriminate E1|]. split; [exact SV|].
  split. { intros i Hi. change (i < 1)%nat in Hi. assert (i = 0%nat) as -> by lia. rewrite V. unfold small. destruct (Rlt_dec _ _); [lra|]. unfold cX. field. }
  split; [apply one_feasible|]. split; [apply one_mimicked|].
  split; [intros i Hi; right; apply (unreg_one _ 2 _ O); [lra|exact Hi]|]. split; [|exact AZ].
  intros t [<-|[]]. eapply zero_min; [exact C|lra|intros; cbn; lra|exact AZ].
Qed.
Lemma screw_driven H : yields 6 kMb (fun s => tfUpdate rvLog kMb [0%nat] screwT screwX screwC (kScrew s) (kJm 6 s)) H -> driven6 H 0 cX 1 (fun _ => 2).
Proof.
  intros Y s Hs. destruct (screw_out s Hs) as (h & E & Sz & Cl & HV). destruct (screw_h s h Sz Cl HV) as (t0 & t' & N & U & Rw & C & _ & AZ). destruct (Y s) as (E' & _). rewrite E in E'. injection E' as ->.
  exists 1, (vget (ones 6)), (commonTask (spC t')). split; [lra|]. split; [intros i Hi; cbn; lra|]. split.
  - exact (DriveSetPoint s (mkDrive 1 (vget (ones 6)) (fun _ => 1) (fun _ => 2) 0 H) _ [kMb] 0%nat 1 (ones 6) 1 [] t0 t0 t' N eq_refl U eq_refl eq_refl (fun _ => eq_refl) (fun _ => eq_refl) (fun _ => two2) eq_refl).
  - split; [eapply zero_min; [exact C|lra|intros; cbn; lra|exact AZ]|]. exists (cX s). intros i Hi. rewrite (AZ i Hi), <- two2. reflexivity.
Qed.
Lemma screw_start : turnEnergy 1 (ang (bkVelB (kScrew 0))) (angleTo (m3mul (ptE screwX) (ptE (bkPos (kScrew 0)))) (ptE screwT)) = / 2.
Proof. exact spin_surf_start. Qed.
Lemma screw_v : dV (fun s => worldPoint (ptr screwX) (kScrew s)) 0 v0.
Proof.
  assert (Q : dlim (fun s => 2 - cE s) 0 0) by (eapply dl_eq; [apply dl_minus; [apply dl_const|apply cDe]|unfold cV; ring]).
  assert (W : forall s, worldPoint (ptr screwX) (kScrew s) = mkV3 0 0 (2 - cE s)).
  { intros s. unfold worldPoint, kScrew, pt_mul, pt_trans, screwX; cbn. apply V3_ext; unfold m3mulv, m3tr, vadd, RotZ, dot, v0; cbn; ring. }
  eapply dV_ext; [intros u; symmetry; apply W|]. repeat split; cbn; [apply dl_const|apply dl_const|exact Q].
Qed.
