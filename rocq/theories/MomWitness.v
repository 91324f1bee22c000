(** Concrete robots for the properties of the momentum task. *)
From Verif Require Export MomModel MomSpec MomFacts MomParts ComWitness KinLoop.
From Verif Require Import SetPointLoop SetPointFacts SetPointWitness KinFacts KinTaskFacts.
From Coq Require Import Lra Lia.
Open Scope string_scope.
Open Scope list_scope.
Open Scope R_scope.
Local Arguments sumn : simpl never.

(** The robot of ComWitness: a particle on an arm of length one that turns, and a fixed body of three particles. *)
Definition nParts : list (list particle) := [[(1, xhat)]; [(2, v0); (1, v0)]].
Definition nBodies : list momBody := [mkMom (mkCB 1 xhat [0%nat]) (mkM3 v0 (mkV3 0 1 0) (mkV3 0 0 1)); mkMom (mkCB 3 v0 []) (mkM3 v0 v0 v0)].
Lemma nMap : map moB nBodies = mBodies 1. Proof. reflexivity. Qed.
Lemma nMade : Forall2 madeOf nBodies nParts.
Proof.
  constructor; [|constructor; [|constructor]]; unfold madeOf, partVec; cbn; repeat split; try ring; try (intros w); apply V3_ext; unfold m3mulv, dot, cross, vsc, xhat, v0; cbn; ring.
Qed.
Definition nVel (s : R) (b : nat) (p : V3) : V3 := match b with 0%nat => linr (rbdVelW p (kRev 1 0 s)) | _ => v0 end.
Lemma nVel_rate t b p : (b < length nBodies)%nat -> dV (fun s => placed p (mK s b)) t (nVel t b p).
Proof.
  destruct b as [|[|b]]; cbn; intros Hb; [| |lia].
  - exact (worldPoint_rate _ _ _ _ _ _ p (kRev_moves 1 0 t)).
  - eapply dV_eq; [exact (worldPoint_rate _ _ _ _ _ _ p (kStill_moves kMb v0 (kAl 1 0) (kAld 0) t))|]. unfold kStill, rbdVelW, rbdVel, rbdFrameW, pt_mulM; cbn [bkVelB bkPos ptE ptr linr ang]. v3c.
Qed.

(** A slider of mass one whose momentum goes to one. *)
Definition sV (s : R) : R := 1 - exp (- 1 * s).
Definition sP (s : R) : R := s + exp (- 1 * s).
Definition sA (s : R) (_ : nat) : R := exp (- 1 * s).
Definition kPush (s : R) (b : nat) : bodyKin := mkBK (mkPT m3id (mkV3 (sP s) 0 0)) (mkSp v0 (mkV3 (sV s) 0 0)) sp0 (fun _ => mkSp v0 (mkV3 1 0 0)).
Definition kPushAl (s : R) (_ : nat) : R := sV s.
Definition pBodies : list momBody := [mkMom (mkCB 1 v0 [0%nat]) m3id].
Lemma pDv t : dlim sV t (exp (- 1 * t)).
Proof. unfold sV. eapply dl_eq; [apply dl_minus; [apply dl_const|apply dlim_exp]|]. ring. Qed.
Lemma pDp t : dlim sP t (sV t).
Proof. unfold sP, sV. eapply dl_eq; [apply dl_plus; [apply dl_id|apply dlim_exp]|]. ring. Qed.
Lemma kPush_moves t : bodiesMove kMb (map moB pBodies) kPush kPushAl sA t.
Proof.
  intros [|[|b]] x E; cbn in E; try discriminate. injection E as <-. split; [exact kWf|].
  apply moves_of; unfold kPush; cbn [bkPos bkVelB bkNAccB bkCol ptE ptr ang linr cbPath].
  - intros s. apply id_rigid.
  - apply Spatial_ext; apply V3_ext; cbn; unfold kPushAl; ring.
  - eapply dM_eq; [apply dM_const|]. apply M3_ext; v3c.
  - repeat split; cbn; try (eapply dl_eq; [apply dl_const|unfold m3mulv, dot; cbn; ring]).
    eapply dl_eq; [apply pDp|unfold m3mulv, dot; cbn; ring].
  - unfold jsp, spsum; simpl. repeat split; cbn; try (eapply dl_eq; [apply dl_const|cbn; ring]).
    eapply dl_eq; [apply pDv|unfold sA; cbn; ring].
Qed.
Lemma pHeavy : heavy (map moB pBodies).
Proof. split; [intros x [<-|[]]; cbn; lra|]. unfold mass, sumn; simpl. lra. Qed.
Lemma pCom s : comVec pBodies (kPush s) = mkV3 (sP s) 0 0.
Proof. unfold comVec, comOf, mass, pBodies, sumn; simpl. unfold one. apply V3_ext; cbn; unfold dot; cbn; field. Qed.
Definition pTarget : Spatial := mkSp v0 xhat.
Lemma pErr s h : momUpdate kMb pBodies (kPush s) pTarget = Ok h -> forall i, (i < 6)%nat -> vget (hErr h) i = if Nat.eqb i 3 then exp (- 1 * s) else 0.
Proof.
  intros E i Hi. destruct (momentum_tracks kMb pBodies pTarget [] kPush kPushAl sA s pHeavy (kPush_moves s)) as (H & Y & HE & _).
  destruct (Y s) as (E' & _). cbn [fold_left] in E'. rewrite E in E'. injection E' as ->. rewrite HE by exact Hi. cbn [latest fold_left].
  rewrite pCom. unfold centroidal, overBodies, sumn; simpl. unfold transMul, inertiaMul; cbn [moB moI cbMass cbCom].
  destruct i as [|[|[|[|[|[|i]]]]]]; try lia; unfold e6, pTarget, xhat; cbn; unfold dot, sV; cbn.
  all: generalize (exp (- 1 * s)); intros y; unfold dot; cbn; ring.
Qed.
Lemma push_loop : exists t0, newSP [kMb] 0 1 (ones 6) 1 = Ok t0 /\ closedLoop (fun s => momUpdate kMb pBodies (kPush s) (fold_left momStep [] pTarget)) t0 1 0 sA.
Proof.
  assert (N : exists t0, newSP [kMb] 0 1 (ones 6) 1 = Ok t0) by (unfold newSP; cbn; rewrite two1; cbn; eauto).
  destruct N as (t0 & N). exists t0. split; [exact N|]. intros s Hs.
  destruct (momentum_tracks kMb pBodies pTarget [] kPush kPushAl sA s pHeavy (kPush_moves s)) as (H & Y & _ & _ & Z & EA).
  destruct (Y s) as (E & Sz & Cc). assert (D : vlen (cmDim (spC t0)) = 6%nat) by (apply newSP_Ok in N as (_ & _ & _ & -> & _); auto).
  destruct (setpoint_defined (H s) t0) as (t' & U); [rewrite D; exact Sz|]. exists (H s), t'. split; [exact E|]. split; [exact U|].
  assert (A : forall i, (i < 6)%nat -> taskAcc (H s) 0 (sA s) i = 1 * vget (hErr (H s)) i - 2 * sqrt 1 * vget (hSpeed (H s)) i).
  { intros i Hi. rewrite (Z s i Hi), (pErr s (H s) E i Hi).
    assert (DE : dlim (fun u => vget (hErr (H u)) i) s (if Nat.eqb i 3 then - exp (- 1 * s) else 0)).
    { eapply dl_ext; [intros u; symmetry; apply (pErr u (H u) (proj1 (Y u)) i Hi)|]. destruct (Nat.eqb i 3); [|apply dl_const]. eapply dl_eq; [apply dlim_exp|ring]. }
    pose proof (dl_unique _ _ _ _ (EA i Hi) DE) as Q. destruct (Nat.eqb i 3); lra. }
  destruct Sz as (Rw & _). split.
  - eapply zero_min; [exact (setpoint_lemma [kMb] 0%nat 1 (ones 6) 1 [] t0 t0 (H s) t' N eq_refl U)|cbn; lra|intros; cbn; lra|].
    intros i Hi. rewrite Rw in Hi. apply A. exact Hi.
  - exists (sA s). intros i Hi. rewrite Rw in Hi. apply A. exact Hi.
Qed.
