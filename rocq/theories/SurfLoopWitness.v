(** The body on a screw, brought to its target by a SurfaceTransformTask. *)
From Verif Require Export SurfLoop PoseLoopWitness.
From Verif Require Import SetPointFacts SetPointLoop SetPointWitness KinLoop KinVecFacts KinTaskFacts KinAxis TreeWitness.
From Verif Require ContactLoopWitness.
From Coq Require Import Lra Lia Psatz.
Open Scope string_scope.
Open Scope list_scope.
Open Scope R_scope.
Local Arguments sumn : simpl never.
Local Notation cX := SetPointWitness.cX.
Local Notation spC := SetPointModel.spC.

Lemma screw_err s : 0 <= s -> tfVelocity rvLog (pt_mul screwT (pt_inv (pt_mul screwX (bkPos (kScrew s))))) = mkSp (mkV3 0 0 (cE s)) (mkV3 0 0 (cE s)).
Proof.
  intros Hs. change (surfErr rvLog screwT screwX (kScrew s) = mkSp (mkV3 0 0 (cE s)) (mkV3 0 0 (cE s))).
  apply Spatial_ext.
  - change (rvLog (m3mul (ptE screwT) (m3tr (m3mul (ptE screwX) (ptE (bkPos (kScrew s)))))) = mkV3 0 0 (cE s)).
    unfold kScrew, screwX, screwT. cbn [bkPos ptE]. rewrite RotZ_mul, ContactLoopWitness.RotZ_turn. replace (2 - (1 + (1 - cE s))) with (cE s) by ring. apply spin_angle.
    pose proof (cE_range s Hs). rewrite Rabs_right by lra. pose proof PI2_1. lra.
  - rewrite (surf_lin rvLog screwT screwX (kScrew s) (rotZ_rigid 1 v0) (rotZ_rigid _ v0)). unfold worldPoint, kScrew, pt_mul, pt_trans, screwX, screwT; cbn.
    apply V3_ext; unfold m3mulv, m3tr, vadd, vsub, RotZ, dot, v0; cbn; repeat (unfold dot; cbn); ring.
Qed.
Lemma screw_surf s : 0 <= s -> exists h, surfTfUpdate rvLog kMb [0%nat] screwT screwX (kScrew s) (kJm 6 s) = Ok h /\ hlSizes 6 h /\ mcols (hJac h) = 1%nat /\
  (forall i, (i < 6)%nat -> mget (hJac h) i 0 = e33 i 1 /\ vget (hErr h) i = e33 i (cE s) /\ vget (hSpeed h) i = e33 i (cV s) /\ vget (hNAcc h) i = 0).
Proof.
  intros Hs. unfold surfTfUpdate. cbv zeta. rewrite (screw_err s Hs). eexists. split; [reflexivity|]. split; [repeat split|]. split; [reflexivity|].
  intros i Hi. destruct i as [|[|[|[|[|[|]]]]]]; [| | | | | |lia].
  all: split; [|split; [|split]]; cbn; repeat (unfold dot, m3mulv, v0, vadd, vneg, vsub, cross; cbn); ring.
Qed.
Lemma screw_surf_tasks : exists t0, newSP [kMb] 0 1 (ones 6) 1 = Ok t0 /\
  tasksLoop true cmKinds trySolver 0 [] [kMb] [] [] (fun s => surfTfUpdate rvLog kMb [0%nat] screwT screwX (kScrew s) (kJm 6 s)) t0 1 0 cX.
Proof.
  destruct (cmNew 1 6) as (t0 & N). exists t0. split; [exact N|]. intros s Hs. destruct (screw_surf s Hs) as (h & E & Sz & Cl & HV). destruct (screw_h s h Sz Cl HV) as (t0' & t' & N' & U & Rw & C & O & AZ).
  rewrite N in N'. injection N' as <-. destruct (one_solves _ _ _ O ltac:(lra)) as (xv & ms1 & SV & V).
  exists [OpAddTask 0], cmSolver, (cmHeap (commonTask (spC t'))), h, t', [mkMbc [[0]] tt], ms1, xv, (cX s).
  split; [exact cmHistory|]. split; [exact cmKeep|]. split; [left; reflexivity|]. split; [exact E|]. split; [exact U|]. split; [reflexivity|].
  split. { change (wfTask 1 (commonTask (spC t'))). destruct O as (B & R1 & C1 & L & _). unfold wfTask. rewrite B, R1, C1, L. cbn; lia. }
  split; [constructor|]. split; [intros k1 k2 b1 b2 i E1; destruct k1; discriminate E1|]. split; [exact SV|].
  split. { intros i Hi. change (i < 1)%nat in Hi. assert (i = 0%nat) as -> by lia. rewrite V. unfold small. destruct (Rlt_dec _ _); [lra|]. unfold cX. field. }
  split; [apply one_feasible|]. split; [apply one_mimicked|].
  split; [intros i Hi; right; apply (unreg_one _ 2 _ O); [lra|exact Hi]|]. split; [|exact AZ].
  intros t [<-|[]]. eapply zero_min; [exact C|lra|intros; cbn; lra|exact AZ].
Qed.
Lemma screw_surf_driven H : yields 6 kMb (fun s => surfTfUpdate rvLog kMb [0%nat] screwT screwX (kScrew s) (kJm 6 s)) H -> driven6 H 0 cX 1 (fun _ => 2).
Proof.
  intros Y s Hs. destruct (screw_surf s Hs) as (h & E & Sz & Cl & HV). destruct (screw_h s h Sz Cl HV) as (t0 & t' & N & U & Rw & C & _ & AZ). destruct (Y s) as (E' & _). rewrite E in E'. injection E' as ->.
  exists 1, (vget (ones 6)), (commonTask (spC t')). split; [lra|]. split; [intros i Hi; cbn; lra|]. split.
  - exact (DriveSetPoint s (mkDrive 1 (vget (ones 6)) (fun _ => 1) (fun _ => 2) 0 H) _ [kMb] 0%nat 1 (ones 6) 1 [] t0 t0 t' N eq_refl U eq_refl eq_refl (fun _ => eq_refl) (fun _ => eq_refl) (fun _ => two2) eq_refl).
  - split; [eapply zero_min; [exact C|lra|intros; cbn; lra|exact AZ]|]. exists (cX s). intros i Hi. rewrite (AZ i Hi), <- two2. reflexivity.
Qed.
Lemma screw_left : leastDamping 1 2 (/ 2) = 9 / 5. Proof. unfold leastDamping. rewrite sqrt_1. field. Qed.
Lemma screw_most : mostDamping 1 2 (/ 2) = 5 / 2. Proof. unfold mostDamping. rewrite sqrt_1. field. Qed.
Lemma screw_way : dV (fun s => m3mulv (m3mul (ptE screwX) (ptE (bkPos (kScrew s)))) (vsub (ptr screwT) (worldPoint (ptr screwX) (kScrew s)))) 0 (vneg v0).
Proof.
  assert (Q : dlim cE 0 0) by (eapply dl_eq; [apply cDe|unfold cV; ring]).
  assert (W : forall s, m3mulv (m3mul (ptE screwX) (ptE (bkPos (kScrew s)))) (vsub (ptr screwT) (worldPoint (ptr screwX) (kScrew s))) = mkV3 0 0 (cE s)).
  { intros s. rewrite m3mulv_mul. unfold worldPoint, kScrew, pt_mul, pt_trans, screwX, screwT; cbn. apply V3_ext; unfold m3mulv, m3tr, vadd, vsub, RotZ, dot, v0; cbn; repeat (unfold dot; cbn); ring. }
  eapply dV_ext; [intros u; symmetry; apply W|]. repeat split; cbn; (eapply dl_eq; [first [exact Q|apply dl_const]|ring]).
Qed.
