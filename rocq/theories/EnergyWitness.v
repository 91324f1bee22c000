(** A slider pulled to two places at once. *)
From Verif Require Export EnergyFacts OrderWitness.
From Verif Require Import CompatLoop SetPointFacts SetPointLoop SetPointWitness KinTaskFacts KinVecFacts.
Open Scope string_scope.
Open Scope list_scope.
Open Scope R_scope.
Local Arguments sumn : simpl never.

Lemma slideTo c s : exists h, posUpdate kMb (fold_left posStep [] (posInit (mkV3 c 0 0) v0 [0%nat])) (kSlide s) (kJm 3 s) = Ok h /\ hlSizes 3 h /\ mcols (hJac h) = 1%nat /\
  (forall i, (i < 3)%nat -> mget (hJac h) i 0 = e3 (mkV3 1 0 0) i /\ vget (hErr h) i = e3 (mkV3 (c - 1 + cE s) 0 0) i /\ vget (hSpeed h) i = e3 (mkV3 (cV s) 0 0) i /\ vget (hNAcc h) i = 0).
Proof.
  eexists. split; [reflexivity|]. split; [repeat split|]. split; [reflexivity|]. intros i Hi. destruct i as [|[|[|]]]; [| | |lia].
  all: repeat split; cbn; repeat (unfold dot, m3mulv, v0; cbn); ring.
Qed.
Lemma slideTask c s t0 h : newSP [kMb] 0 1 (ones 3) 1 = Ok t0 -> posUpdate kMb (fold_left posStep [] (posInit (mkV3 c 0 0) v0 [0%nat])) (kSlide s) (kJm 3 s) = Ok h ->
  exists t', spUpdate h t0 = Ok t' /\ oneDim (commonTask (SetPointModel.spC t')) 1 (c - 1 + (1 - s) * exp (- 1 * s)).
Proof.
  intros N E. destruct (slideTo c s) as (h' & E' & Sz & Cl & HV). rewrite E in E'. injection E' as <-.
  assert (D : vlen (cmDim (SetPointModel.spC t0)) = 3%nat) by (apply newSP_Ok in N as (_ & _ & _ & -> & _); auto).
  destruct (setpoint_defined h t0) as (t' & U); [rewrite D; exact Sz|]. exists t'. split; [exact U|].
  pose proof (setpoint_lemma [kMb] 0%nat 1 (ones 3) 1 [] t0 t0 h t' N eq_refl U) as C. cbn [latest fold_left] in C.
  set (a := c - 1 + (1 - s) * exp (- 1 * s)).
  assert (TA : forall x i, (i < 3)%nat -> taskAcc h 0 x i = e3 (mkV3 1 0 0) i * x 0%nat).
  { intros x i Hi. unfold taskAcc. rewrite Cl. unfold sumn. cbn [Nat.add]. destruct (HV i Hi) as (-> & _ & _ & ->). cbn. ring. }
  assert (DA : forall i, (i < 3)%nat -> 1 * vget (hErr h) i - 2 * sqrt 1 * vget (hSpeed h) i = e3 (mkV3 a 0 0) i).
  { intros i Hi. destruct (HV i Hi) as (_ & -> & -> & _). rewrite sqrt_1. destruct i as [|[|[|]]]; [| | |lia]; cbn; unfold a, cE, cV; ring. }
  destruct Sz as (Rw & Sz').
  pose proof (newSP_Ok _ _ _ _ _ _ N) as (_ & _ & _ & _ & _ & B0).
  pose proof (spUpdate_Ok _ _ _ U) as (_ & _ & er & U' & _). apply commonQC_Ok in U' as (_ & _ & _ & B & _ & _ & _ & _ & _ & _ & S1 & S2 & S3). rewrite Cl in S1, S2, S3. rewrite B0 in B.
  split; [cbn; rewrite B; reflexivity|]. split; [exact S1|]. split; [exact S2|]. split; [exact S3|].
  assert (LS : forall x, leastSquares h 0 (vget (ones 3)) (fun i => 1 * vget (hErr h) i - 2 * sqrt 1 * vget (hSpeed h) i) x = / 2 * (x 0%nat - a) ^ 2).
  { intros x. unfold leastSquares. rewrite Rw. unfold sumn. cbn [fold_right]. rewrite !TA, !DA by lia. cbn. ring. }
  intros x y. rewrite C, !LS. field.
Qed.
Lemma od_value t t' a a' xv : oneDim t 1 a -> oneDim t' 1 a' -> solvedBy [kMb] [] [] (odSolver true) (odHeap t t') xv -> vget xv 0 = (a + a') / 2.
Proof.
  intros O O' (lssol & kinds & pre & post & num & ms & ms' & H & Hc & Ct & WB & DB & SV).
  destruct (optimal_lemma _ _ _ _ _ _ _ _ _ _ _ _ _ _ H cmMimic cmNonzero Hc Ct WB DB SV) as (_ & _ & _ & M).
  assert (U : unregularised 1 [t; t']).
  { intros i Hj. assert (i = 0%nat) as -> by lia. destruct (oneDim_entries t 1 a O) as (EQ & _), (oneDim_entries t' 1 a' O') as (EQ' & _).
    destruct O as (B & R1 & C1 & L & _), O' as (B' & R1' & C1' & L' & _). unfold diagSum, taskDiag. cbn [map sumR]. rewrite B, R1, C1, B', R1', C1'. cbn. rewrite EQ, EQ', Rplus_0_r, Rabs_right by lra. lra. }
  assert (FZ : feasible 1 (collect (odSolver true) (odHeap t t')) (fun _ => (a + a') / 2)) by (split; [split; [|split]|]; constructor).
  assert (MZ : mimicked [kMb] (qData (odSolver true)) (fun _ => (a + a') / 2)) by (exact (one_mimicked _)).
  specialize (M _ FZ MZ). change (rgTasks (collect (odSolver true) (odHeap t t'))) with [t; t'] in M. change (sdNrVars (qData (odSolver true))) with 1%nat in M.
  unfold objective in M. rewrite !(reg_none 1 [t; t'] _ U) in M. unfold tasksCost in M. cbn [map sumR] in M.
  destruct O as (_ & _ & _ & _ & K), O' as (_ & _ & _ & _ & K'). specialize (K (vget xv) (fun _ => (a + a') / 2)). specialize (K' (vget xv) (fun _ => (a + a') / 2)). cbv beta in *.
  assert (Q : (vget xv 0 - (a + a') / 2) * (vget xv 0 - (a + a') / 2) <= 0) by nra.
  destruct (Req_dec (vget xv 0 - (a + a') / 2) 0) as [Z|NZ]; [lra|]. apply Rsqr_pos_lt in NZ. unfold Rsqr in NZ. lra.
Qed.
Definition slideDrive (H : R -> hlOut) : nat * drive := (3%nat, mkDrive 1 (vget (ones 3)) (fun _ => 1) (fun _ => 2 * sqrt 1) 0 H).
(** Targets 3 and -1: the slider goes from 0 to 1; the first task is left with the error 2, the second with -2. *)
Lemma conflict_lemma : exists H H',
  drivesLoop [kMb] [] [] 1 (fun _ => false) [slideDrive H; slideDrive H'] cX (fun s _ => cV s) /\
  Forall (fun g => moving g cX (fun s _ => cV s)) [slideDrive H; slideDrive H'] /\
  (forall s, vget (hErr (H s)) 0 = 2 + cE s /\ vget (hErr (H' s)) 0 = - 2 + cE s) /\
  totalEnergy 1 (fun _ => false) [slideDrive H; slideDrive H'] (fun s _ => cV s) 0 = 5.
Proof.
  assert (MV : forall s, 0 <= s -> movesAt kMb [0%nat] kSlide (fun s j => (fun s _ => cV s) s (0 + j)%nat) (fun s j => cX s (0 + j)%nat) s) by (intros s _; exact (kSlide_moves s)).
  destruct (position_moving kMb [0%nat] (mkV3 3 0 0) v0 [] kSlide (kJm 3) 1 (vget (ones 3)) (fun _ => 1) (fun _ => 2 * sqrt 1) 0 cX (fun s _ => cV s) kWf (kSized 3) eq_refl MV) as (H & Y & HE & M).
  destruct (position_moving kMb [0%nat] (mkV3 (-1) 0 0) v0 [] kSlide (kJm 3) 1 (vget (ones 3)) (fun _ => 1) (fun _ => 2 * sqrt 1) 0 cX (fun s _ => cV s) kWf (kSized 3) eq_refl MV) as (H' & Y' & HE' & M').
  exists H, H'. destruct (cmNew 1 3) as (t0 & N).
  assert (V : forall s, (forall i, (i < 3)%nat -> vget (hErr (H s)) i = e3 (mkV3 (2 + cE s) 0 0) i /\ vget (hSpeed (H s)) i = e3 (mkV3 (cV s) 0 0) i) /\
    (forall i, (i < 3)%nat -> vget (hErr (H' s)) i = e3 (mkV3 (- 2 + cE s) 0 0) i /\ vget (hSpeed (H' s)) i = e3 (mkV3 (cV s) 0 0) i)).
  { intros s. destruct (Y s) as (E & _), (Y' s) as (E' & _). destruct (slideTo 3 s) as (h & Eh & _ & _ & HV), (slideTo (-1) s) as (h' & Eh' & _ & _ & HV').
    rewrite E in Eh. injection Eh as <-. rewrite E' in Eh'. injection Eh' as <-. split; intros i Hi.
    - destruct (HV i Hi) as (_ & -> & -> & _). split; [|reflexivity]. f_equal. f_equal. ring.
    - destruct (HV' i Hi) as (_ & -> & -> & _). split; [|reflexivity]. f_equal. f_equal. ring. }
  split; [|split; [|split]].
  - intros s Hs. destruct (Y s) as (E & (R1 & _) & _), (Y' s) as (E' & (R1' & _) & _).
    destruct (slideTask 3 s t0 (H s) N E) as (t & U & O), (slideTask (-1) s t0 (H' s) N E') as (t' & U' & O').
    set (tk := commonTask (SetPointModel.spC t)) in *. set (tk' := commonTask (SetPointModel.spC t')) in *.
    destruct (od_solvedBy true tk tk' _ _ _ _ O O') as (xv & SB); try lra.
    pose proof (od_value _ _ _ _ _ O O' SB) as XV.
    exists (odSolver true), (odHeap tk tk'), xv. split; [exact SB|]. split; [reflexivity|]. split; [|split; [|split]].
    + constructor; [|constructor; [|constructor]]; (split; [assumption|split]).
      * exact (DriveSetPoint s (snd (slideDrive H)) tk [kMb] 0%nat 1 (ones 3) 1 [] t0 t0 t N eq_refl U eq_refl eq_refl (fun _ => eq_refl) (fun _ => eq_refl) (fun _ => eq_refl) eq_refl).
      * change (wfTask 1 tk). destruct O as (B & A1 & A2 & A3 & _). unfold wfTask. rewrite B, A1, A2, A3. cbn; lia.
      * exact (DriveSetPoint s (snd (slideDrive H')) tk' [kMb] 0%nat 1 (ones 3) 1 [] t0 t0 t' N eq_refl U' eq_refl eq_refl (fun _ => eq_refl) (fun _ => eq_refl) (fun _ => eq_refl) eq_refl).
      * change (wfTask 1 tk'). destruct O' as (B & A1 & A2 & A3 & _). unfold wfTask. rewrite B, A1, A2, A3. cbn; lia.
    + intros i Hi. assert (i = 0%nat) as -> by lia. split; [discriminate|]. intros L. exfalso. clearbody tk tk'.
      change (rgTasks (collect (odSolver true) (odHeap tk tk'))) with [tk; tk'] in L.
      destruct (oneDim_entries _ _ _ O) as (EQ & _), (oneDim_entries _ _ _ O') as (EQ' & _).
      destruct O as (B & A1 & A2 & _), O' as (B' & A1' & A2' & _). unfold diagSum, taskDiag in L. cbn [map sumR] in L. rewrite B, A1, A2, B', A1', A2' in L. cbn in L. rewrite EQ, EQ', Rplus_0_r, Rabs_right in L by lra. lra.
    + intros i Hi. assert (i = 0%nat) as -> by lia. rewrite XV. unfold cX. field.
    + exists 1. split; [lra|]. intros e _. split; [split; [split; [|split]|]; constructor|exact (one_mimicked _)].
  - constructor; [exact M|constructor; [exact M'|constructor]].
  - intros s. destruct (V s) as (A & B). destruct (A 0%nat) as (-> & _); [lia|]. destruct (B 0%nat) as (-> & _); [lia|]. split; reflexivity.
  - unfold totalEnergy, stored. cbn [map sumR slideDrive fst snd dvWeight dvDim dvK]. unfold dvSpeed, dvErr. cbn [dvOut].
    destruct (V 0) as (A & B). unfold sumn. cbn [fold_right].
    destruct (A 0%nat) as (-> & ->); [lia|]. destruct (A 1%nat) as (-> & ->); [lia|]. destruct (A 2%nat) as (-> & ->); [lia|].
    destruct (B 0%nat) as (-> & ->); [lia|]. destruct (B 1%nat) as (-> & ->); [lia|]. destruct (B 2%nat) as (-> & ->); [lia|].
    cbn. unfold cE, cV. replace (-1 * 0) with 0 by ring. rewrite exp_0. field.
Qed.
