(** A slider driven by a TransformTask. *)
From Verif Require Export KinLoop KinWitness.
From Verif Require Import SetPointFacts SetPointLoop SetPointWitness KinTaskFacts.
From Coq Require Import Lra Lia.
Open Scope list_scope.
Open Scope R_scope.
Local Arguments sumn : simpl never.

Definition tfGoal : PT := mkPT m3id (mkV3 1 0 0).
Definition tfHere : PT := mkPT m3id v0.
Lemma idM A : m3mul m3id A = A. Proof. destruct A as [[] [] []]. apply M3_ext; apply V3_ext; cbn; unfold dot; cbn; ring. Qed.
Lemma idV v : m3mulv m3id v = v. Proof. destruct v. unfold m3mulv, dot. cbn. f_equal; ring. Qed.
Lemma idT : m3tr m3id = m3id. Proof. reflexivity. Qed.
Lemma tf_out rv s : rv m3id = v0 -> exists h, tfUpdate rv kMb [0%nat] tfGoal tfHere m3id (kSlide s) (kJm 6 s) = Ok h /\ hlSizes 6 h /\ mcols (hJac h) = 1%nat /\
  (forall i, (i < 6)%nat -> mget (hJac h) i 0 = e6 (mkSp v0 (mkV3 1 0 0)) i /\ vget (hErr h) i = e6 (mkSp v0 (mkV3 (cE s) 0 0)) i /\ vget (hSpeed h) i = e6 (mkSp v0 (mkV3 (cV s) 0 0)) i /\ vget (hNAcc h) i = 0).
Proof.
  intros R0. eexists. split; [reflexivity|]. split; [repeat split|]. split; [reflexivity|].
  intros i Hi. cbn [hErr hJac hSpeed hNAcc].
  unfold tfError, tfVelocity, rbdVel, rbdNAcc, pt_mul, pt_inv, pt_rot, pt_mulM, tfGoal, tfHere, kSlide.  cbn [ptE ptr bkPos bkVelB bkNAccB ang linr]. rewrite ?idT, ?idM, ?idT, ?idM, R0. rewrite ?idV.
  destruct i as [|[|[|[|[|[|]]]]]]; [| | | | | |lia].
  all: repeat split; cbn; rewrite ?idM, ?idV; cbn; repeat (unfold dot, m3mulv, v0, vadd, vsub, cross; cbn); try ring.
Qed.
Lemma slide_tf rv : rv m3id = v0 -> exists t0, newSP [kMb] 0 1 (ones 6) 1 = Ok t0 /\
  closedLoop (fun s => tfUpdate rv kMb [0%nat] tfGoal tfHere m3id (kSlide s) (kJm 6 s)) t0 1 0 cX.
Proof.
  intros R0. assert (N : exists t0, newSP [kMb] 0 1 (ones 6) 1 = Ok t0) by (unfold newSP; cbn; rewrite two1; cbn; eauto).
  destruct N as (t0 & N). exists t0. split; [exact N|]. intros s Hs. destruct (tf_out rv s R0) as (h & E & Sz & Cl & HV).
  assert (D : vlen (cmDim (SetPointModel.spC t0)) = 6%nat) by (apply newSP_Ok in N as (_ & _ & _ & -> & _); auto).
  destruct (setpoint_defined h t0) as (t' & U); [rewrite D; exact Sz|]. exists h, t'. split; [exact E|]. split; [exact U|].
  assert (A : forall i, (i < 6)%nat -> taskAcc h 0 (cX s) i = 1 * vget (hErr h) i - 2 * sqrt 1 * vget (hSpeed h) i).
  { intros i Hi. unfold taskAcc. rewrite Cl, sqrt_1. unfold sumn. cbn [fold_right seq map Nat.add]. destruct (HV i Hi) as (-> & -> & -> & ->). unfold cX, cE, cV.
    destruct i as [|[|[|[|[|[|]]]]]]; [| | | | | |lia]; cbn; ring. }
  destruct Sz as (Rw & _). split.
  - eapply zero_min; [exact (setpoint_lemma [kMb] 0%nat 1 (ones 6) 1 [] t0 t0 h t' N eq_refl U)|cbn; lra|intros; cbn; lra|].
    intros i Hi. rewrite Rw in Hi. apply A. exact Hi.
  - exists (cX s). intros i Hi. rewrite Rw in Hi. apply A. exact Hi.
Qed.
