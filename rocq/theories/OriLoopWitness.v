(** A body turned by one joint to its target by an OrientationTask. *)
From Verif Require Export OriLoop KinWitness CompatLoop.
From Verif Require Import SetPointFacts SetPointLoop SetPointWitness KinLoop KinVecFacts KinTaskFacts KinAxis TreeWitness.
From Verif Require ContactLoopWitness.
From Coq Require Import Lra Lia Psatz.
Open Scope string_scope.
Open Scope list_scope.
Open Scope R_scope.
Local Arguments sumn : simpl never.
Local Notation cX := SetPointWitness.cX.
Local Notation spC := SetPointModel.spC.

(** The joint turns about z from 0 to 1; the rest of the way is (1 + s) exp(-s). *)
Definition kSpin (s : R) : bodyKin := mkBK (mkPT (RotZ (1 - cE s)) v0) (mkSp (mkV3 0 0 (cV s)) v0) sp0 (fun _ => mkSp (mkV3 0 0 1) v0).
Lemma kSpin_moves t : movesAt kMb [0%nat] kSpin kSlideAl cX t.
Proof.
  assert (Q : dlim (fun s => 1 - cE s) t (cV t)) by (eapply dl_eq; [apply dl_minus; [apply dl_const|apply cDe]|ring]).
  assert (S : dlim (fun s => sin (1 - cE s)) t (cos (1 - cE t) * cV t)) by (apply (dl_comp (fun s => 1 - cE s) sin); [exact Q|apply derivable_pt_lim_sin]).
  assert (C : dlim (fun s => cos (1 - cE s)) t (- sin (1 - cE t) * cV t)) by (apply (dl_comp (fun s => 1 - cE s) cos); [exact Q|apply derivable_pt_lim_cos]).
  apply moves_of; unfold kSpin; cbn [bkPos bkVelB bkNAccB bkCol ptE ptr ang linr].
  - intros s. apply rotZ_rigid.
  - apply Spatial_ext; apply V3_ext; cbn; unfold kSlideAl; ring.
  - unfold RotZ, m3neg, m3mul, skewm, m3mulv, dot. repeat split; cbn; (eapply dl_eq; [first [exact S|exact C|apply dl_opp; exact S|apply dl_const]|ring]).
  - eapply dV_eq; [apply dV_const|]. unfold m3mulv, dot, v0; cbn. f_equal; ring.
  - unfold jsp, spsum; simpl. repeat split; cbn; (eapply dl_eq; [first [apply dl_const|apply cDv]|cbv beta; unfold cX; cbn; ring]).
Qed.
Lemma cE_range s : 0 <= s -> 0 < cE s <= 1.
Proof.
  intros Hs. unfold cE. pose proof (exp_pos (- 1 * s)) as P. split; [nra|]. pose proof (exp_ineq1_le s) as I. 
  apply Rmult_le_reg_r with (exp s); [apply exp_pos|]. rewrite Rmult_assoc, <- exp_plus. replace (-1 * s + s) with 0 by ring. rewrite exp_0. lra.
Qed.
Lemma RotZ_axis x : RotZ x = rotAxis (mkV3 0 0 1) x.
Proof. unfold RotZ, rotAxis; cbn. f_equal; f_equal; ring. Qed.
Lemma spin_angle x : Rabs x < PI -> rvLog (rotAxis (mkV3 0 0 1) x) = mkV3 0 0 x.
Proof. intros H. rewrite (rvLog_isLog _ _ ContactLoopWitness.zhat_norm H). unfold vsc; cbn. f_equal; ring. Qed.
Lemma spin_out s : 0 <= s -> exists h, oriUpdate rvLog kMb [0%nat] (RotZ 1) (kSpin s) (kJm 3 s) = Ok h /\ hlSizes 3 h /\ mcols (hJac h) = 1%nat /\
  (forall i, (i < 3)%nat -> mget (hJac h) i 0 = e3 (mkV3 0 0 1) i /\ vget (hErr h) i = e3 (mkV3 0 0 (cE s)) i /\ vget (hSpeed h) i = e3 (mkV3 0 0 (cV s)) i /\ vget (hNAcc h) i = 0).
Proof.
  intros Hs. assert (RE : rotError rvLog (ptE (bkPos (kSpin s))) (RotZ 1) = mkV3 0 0 (cE s)).
  { unfold rotError, kSpin. cbn [bkPos ptE]. rewrite ContactLoopWitness.RotZ_turn. replace (1 - (1 - cE s)) with (cE s) by ring. rewrite spin_angle.
    - unfold m3mulv, m3tr, RotZ, dot; cbn. f_equal; ring.
    - pose proof (cE_range s Hs). rewrite Rabs_right by lra. pose proof PI2_1. lra. }
  eexists. split; [unfold oriUpdate; rewrite RE; reflexivity|]. split; [repeat split|]. split; [reflexivity|]. intros i Hi. destruct i as [|[|[|]]]; [| | |lia].
  all: repeat split; cbn; repeat (unfold dot, m3mulv, v0, vadd, cross; cbn); ring.
Qed.

(** The solver in the loop: a SetPointTask of stiffness 1 over this task. *)
Lemma spin_h s h : hlSizes 3 h -> mcols (hJac h) = 1%nat ->
  (forall i, (i < 3)%nat -> mget (hJac h) i 0 = e3 (mkV3 0 0 1) i /\ vget (hErr h) i = e3 (mkV3 0 0 (cE s)) i /\ vget (hSpeed h) i = e3 (mkV3 0 0 (cV s)) i /\ vget (hNAcc h) i = 0) ->
  exists t0 t', newSP [kMb] 0 1 (ones 3) 1 = Ok t0 /\ spUpdate h t0 = Ok t' /\ mrows (hJac h) = 3%nat /\
  costs (commonTask (spC t')) 1 (leastSquares h 0 (vget (ones 3)) (fun i => 1 * vget (hErr h) i - 2 * sqrt 1 * vget (hSpeed h) i)) /\
  oneDim (commonTask (spC t')) 1 ((1 - s) * exp (- 1 * s)) /\
  (forall i, (i < mrows (hJac h))%nat -> taskAcc h 0 (cX s) i = 1 * vget (hErr h) i - 2 * sqrt 1 * vget (hSpeed h) i).
Proof.
  intros Sz Cl HV. destruct (cmNew 1 3) as (t0 & N).
  assert (D : vlen (cmDim (spC t0)) = 3%nat) by (apply newSP_Ok in N as (_ & _ & _ & -> & _); auto).
  destruct (setpoint_defined h t0) as (t' & U); [rewrite D; exact Sz|].
  pose proof (setpoint_lemma [kMb] 0%nat 1 (ones 3) 1 [] t0 t0 h t' N eq_refl U) as C. cbn [latest fold_left] in C.
  set (a := (1 - s) * exp (- 1 * s)).
  assert (TA : forall x i, (i < 3)%nat -> taskAcc h 0 x i = e3 (mkV3 0 0 1) i * x 0%nat).
  { intros x i Hi. unfold taskAcc. rewrite Cl. unfold sumn. cbn [Nat.add]. destruct (HV i Hi) as (-> & _ & _ & ->). cbn. ring. }
  assert (DA : forall i, (i < 3)%nat -> 1 * vget (hErr h) i - 2 * sqrt 1 * vget (hSpeed h) i = e3 (mkV3 0 0 a) i).
  { intros i Hi. destruct (HV i Hi) as (_ & -> & -> & _). rewrite sqrt_1. destruct i as [|[|[|]]]; [| | |lia]; cbn; unfold a, cE, cV; ring. }
  destruct Sz as (Rw & Sz'). exists t0, t'. split; [exact N|]. split; [exact U|]. split; [exact Rw|]. split; [exact C|]. split.
  - pose proof (newSP_Ok _ _ _ _ _ _ N) as (_ & _ & _ & _ & _ & B0).
    pose proof (spUpdate_Ok _ _ _ U) as (_ & _ & er & U' & _). apply commonQC_Ok in U' as (_ & _ & _ & B & _ & _ & _ & _ & _ & _ & S1 & S2 & S3). rewrite Cl in S1, S2, S3. rewrite B0 in B.
    split; [cbn; rewrite B; reflexivity|]. split; [exact S1|]. split; [exact S2|]. split; [exact S3|].
    assert (LS : forall x, leastSquares h 0 (vget (ones 3)) (fun i => 1 * vget (hErr h) i - 2 * sqrt 1 * vget (hSpeed h) i) x = / 2 * (x 0%nat - a) ^ 2).
    { intros x. unfold leastSquares. rewrite Rw. unfold sumn. cbn [fold_right]. rewrite !TA, !DA by lia. cbn. ring. }
    intros x y. rewrite C, !LS. field.
  - intros i Hi. rewrite Rw in Hi. rewrite TA, DA by exact Hi. destruct i as [|[|[|]]]; [| | |lia]; cbn; unfold cX, a; ring.
Qed.
Lemma spin_one s : 0 <= s -> exists h t0 t', oriUpdate rvLog kMb [0%nat] (RotZ 1) (kSpin s) (kJm 3 s) = Ok h /\ newSP [kMb] 0 1 (ones 3) 1 = Ok t0 /\ spUpdate h t0 = Ok t' /\
  mrows (hJac h) = 3%nat /\
  costs (commonTask (spC t')) 1 (leastSquares h 0 (vget (ones 3)) (fun i => 1 * vget (hErr h) i - 2 * sqrt 1 * vget (hSpeed h) i)) /\
  oneDim (commonTask (spC t')) 1 ((1 - s) * exp (- 1 * s)) /\
  (forall i, (i < mrows (hJac h))%nat -> taskAcc h 0 (cX s) i = 1 * vget (hErr h) i - 2 * sqrt 1 * vget (hSpeed h) i).
Proof. intros Hs. destruct (spin_out s Hs) as (h & E & Sz & Cl & HV). destruct (spin_h s h Sz Cl HV) as (t0 & t' & Q). exists h, t0, t'. split; [exact E|exact Q]. Qed.
Lemma spin_tasks : exists t0, newSP [kMb] 0 1 (ones 3) 1 = Ok t0 /\
  tasksLoop true cmKinds trySolver 0 [] [kMb] [] [] (fun s => oriUpdate rvLog kMb [0%nat] (RotZ 1) (kSpin s) (kJm 3 s)) t0 1 0 cX.
Proof.
  destruct (cmNew 1 3) as (t0 & N). exists t0. split; [exact N|]. intros s Hs. destruct (spin_one s Hs) as (h & t0' & t' & E & N' & U & Rw & C & O & AZ).
  rewrite N in N'. injection N' as <-. destruct (one_solves _ _ _ O Rlt_0_1) as (xv & ms1 & SV & V).
  exists [OpAddTask 0], cmSolver, (cmHeap (commonTask (spC t'))), h, t', [mkMbc [[0]] tt], ms1, xv, (cX s).
  split; [exact cmHistory|]. split; [exact cmKeep|]. split; [left; reflexivity|]. split; [exact E|]. split; [exact U|]. split; [reflexivity|].
  split. { change (wfTask 1 (commonTask (spC t'))). destruct O as (B & R1 & C1 & L & _). unfold wfTask. rewrite B, R1, C1, L. cbn; lia. }
  split; [constructor|]. split; [intros k1 k2 b1 b2 i E1; destruct k1; discriminate E1|]. split; [exact SV|].
  split. { intros i Hi. change (i < 1)%nat in Hi. assert (i = 0%nat) as -> by lia. rewrite V. unfold small. destruct (Rlt_dec _ _); [lra|]. unfold cX. field. }
  split; [apply one_feasible|]. split; [apply one_mimicked|].
  split; [intros i Hi; right; apply (unreg_one _ 1 _ O); [lra|exact Hi]|]. split; [|exact AZ].
  intros t [<-|[]]. eapply zero_min; [exact C|lra|intros; cbn; lra|exact AZ].
Qed.
Lemma two2 : 2 = 2 * sqrt 1. Proof. rewrite sqrt_1. ring. Qed.
Lemma spin_driven H : yields 3 kMb (fun s => oriUpdate rvLog kMb [0%nat] (RotZ 1) (kSpin s) (kJm 3 s)) H -> driven3 H 0 cX 1 (fun _ => 2).
Proof.
  intros Y s Hs. destruct (spin_one s Hs) as (h & t0 & t' & E & N & U & Rw & C & _ & AZ). destruct (Y s) as (E' & _). rewrite E in E'. injection E' as ->.
  exists 1, (vget (ones 3)), (commonTask (spC t')). split; [lra|]. split; [intros i Hi; cbn; lra|]. split.
  - exact (DriveSetPoint s (mkDrive 1 (vget (ones 3)) (fun _ => 1) (fun _ => 2) 0 H) _ [kMb] 0%nat 1 (ones 3) 1 [] t0 t0 t' N eq_refl U eq_refl eq_refl (fun _ => eq_refl) (fun _ => eq_refl) (fun _ => two2) eq_refl).
  - split; [eapply zero_min; [exact C|lra|intros; cbn; lra|exact AZ]|]. exists (cX s). intros i Hi. rewrite (AZ i Hi), <- two2. reflexivity.
Qed.
Lemma spin_start : turnEnergy 1 (ang (bkVelB (kSpin 0))) (angleTo (ptE (bkPos (kSpin 0))) (RotZ 1)) = / 2.
Proof.
  unfold turnEnergy. rewrite angleTo_sqr, (angle2_axis _ _ (mkV3 0 0 1) 1 ContactLoopWitness.zhat_norm).
  - unfold kSpin, dot, cV; cbn. field.
  - rewrite Rabs_right by lra. pose proof PI2_1. lra.
  - unfold kSpin, cE; cbn [bkPos ptE]. rewrite ContactLoopWitness.RotZ_turn. f_equal. rewrite Rmult_0_r, exp_0. ring.
Qed.
Lemma spin_angle_is s : 0 <= s -> angleTo (ptE (bkPos (kSpin s))) (RotZ 1) = (1 + s) * exp (- s).
Proof.
  intros Hs. pose proof (cE_range s Hs) as B. pose proof PI2_1. unfold angleTo. cbv zeta. change (acos (cosAngle (ptE (bkPos (kSpin s))) (RotZ 1)) = (1 + s) * exp (- s)).
  rewrite (cosAngle_axis _ _ (mkV3 0 0 1) (cE s) ContactLoopWitness.zhat_norm).
  - rewrite acos_cos by lra. unfold cE. f_equal. f_equal. ring.
  - unfold kSpin; cbn [bkPos ptE]. rewrite ContactLoopWitness.RotZ_turn. f_equal. ring.
Qed.

(** The same with a frame of the surface turned by 1 about z from the body. *)
Definition spinX : PT := mkPT (RotZ 1) (mkV3 0 0 1).
Lemma RotZ_mul x y : m3mul (RotZ x) (RotZ y) = RotZ (x + y).
Proof. rewrite !RotZ_axis. apply axis_mul. apply ContactLoopWitness.zhat_norm. Qed.
Lemma spin_surf s : 0 <= s -> exists h, surfOriUpdate rvLog kMb [0%nat] (RotZ 2) spinX (kSpin s) (kJm 3 s) = Ok h /\ hlSizes 3 h /\ mcols (hJac h) = 1%nat /\
  (forall i, (i < 3)%nat -> mget (hJac h) i 0 = e3 (mkV3 0 0 1) i /\ vget (hErr h) i = e3 (mkV3 0 0 (cE s)) i /\ vget (hSpeed h) i = e3 (mkV3 0 0 (cV s)) i /\ vget (hNAcc h) i = 0).
Proof.
  intros Hs. assert (RE : rvLog (m3mul (m3mul (RotZ 2) (m3tr (ptE (bkPos (kSpin s))))) (m3tr (ptE spinX))) = mkV3 0 0 (cE s)).
  { unfold kSpin, spinX. cbn [bkPos ptE]. rewrite ContactLoopWitness.RotZ_turn, <- RotZ_axis, ContactLoopWitness.RotZ_turn. replace (2 - (1 - cE s) - 1) with (cE s) by ring. rewrite spin_angle; [reflexivity|].
    pose proof (cE_range s Hs). rewrite Rabs_right by lra. pose proof PI2_1. lra. }
  pose proof (sin2_cos2 1) as SC. unfold Rsqr in SC.
  eexists. split; [unfold surfOriUpdate; rewrite RE; reflexivity|]. split; [repeat split|]. split; [reflexivity|]. intros i Hi. destruct i as [|[|[|]]]; [| | |lia].
  all: split; [|split; [|split]]; cbn; repeat (unfold dot, m3mulv, v0, vadd, vneg, vsub, cross; cbn); try ring.
Qed.
Lemma spin_surf_driven H : yields 3 kMb (fun s => surfOriUpdate rvLog kMb [0%nat] (RotZ 2) spinX (kSpin s) (kJm 3 s)) H -> driven3 H 0 cX 1 (fun _ => 2).
Proof.
  intros Y s Hs. destruct (spin_surf s Hs) as (h & E & Sz & Cl & HV). destruct (spin_h s h Sz Cl HV) as (t0 & t' & N & U & Rw & C & _ & AZ). destruct (Y s) as (E' & _). rewrite E in E'. injection E' as ->.
  exists 1, (vget (ones 3)), (commonTask (spC t')). split; [lra|]. split; [intros i Hi; cbn; lra|]. split.
  - exact (DriveSetPoint s (mkDrive 1 (vget (ones 3)) (fun _ => 1) (fun _ => 2) 0 H) _ [kMb] 0%nat 1 (ones 3) 1 [] t0 t0 t' N eq_refl U eq_refl eq_refl (fun _ => eq_refl) (fun _ => eq_refl) (fun _ => two2) eq_refl).
  - split; [eapply zero_min; [exact C|lra|intros; cbn; lra|exact AZ]|]. exists (cX s). intros i Hi. rewrite (AZ i Hi), <- two2. reflexivity.
Qed.
Lemma spin_surf_start : turnEnergy 1 (ang (bkVelB (kSpin 0))) (angleTo (m3mul (ptE spinX) (ptE (bkPos (kSpin 0)))) (RotZ 2)) = / 2.
Proof.
  unfold turnEnergy. rewrite angleTo_sqr, (angle2_axis _ _ (mkV3 0 0 1) 1 ContactLoopWitness.zhat_norm).
  - unfold kSpin, dot, cV; cbn. field.
  - rewrite Rabs_right by lra. pose proof PI2_1. lra.
  - unfold kSpin, spinX, cE; cbn [bkPos ptE]. rewrite RotZ_mul, ContactLoopWitness.RotZ_turn. f_equal. rewrite Rmult_0_r, exp_0. ring.
Qed.
