(** The kinematic tasks in the closed loop of a set-point task. *)
From Verif Require Import KinTaskFacts KinVecFacts SetPointLoop SetPointFacts SetPointWitness TreeFacts KinWitness.
From Verif Require Export KinSpec.
From Coq Require Import Lra Lia.
Open Scope list_scope.
Open Scope R_scope.

(** At all times the set-point task of state [t] is updated with what the kinematic task gives, the accelerations [x] minimise its cost, and
    the acceleration it asks for can be attained. *)
Definition closedLoop (U : R -> res hlOut) (t : setPoint) (k : R) (b : nat) (x : R -> nat -> R) : Prop :=
  forall s, 0 <= s -> exists h t', U s = Ok h /\ spUpdate h t = Ok t' /\ minimises (commonTask (spC t')) (x s) /\
    attainable h b (fun j => k * vget (hErr h) j - 2 * sqrt k * vget (hSpeed h) j).
(** The critically damped decay of an error [e] that has derivative -v at time 0. *)
Definition decays (k : R) (e : R -> R) (v : R) : Prop :=
  (forall s, 0 <= s -> e s = (e 0 + (sqrt k * e 0 - v) * s) * exp (- sqrt k * s)) /\
  (forall eps, 0 < eps -> exists T, forall s, T <= s -> Rabs (e s) < eps) /\
  (forall s1 s2, 0 <= s1 < s2 -> e s1 = 0 -> e s2 = 0 -> forall s, 0 <= s -> e s = 0).

Lemma yields_same m mb U H H' : yields m mb U H -> yields m mb U H' -> forall s, H s = H' s.
Proof. intros Y Y' s. destruct (Y s) as (E & _), (Y' s) as (E' & _). rewrite E in E'. injection E' as ->. reflexivity. Qed.
Lemma loop_decays mbs r k0 W0 w0 ops t0 t x i k b W m mb U H lo :
  newSP mbs r k0 W0 w0 = Ok t0 -> spRun ops t0 = Ok t ->
  k = latest spGiveK k0 ops -> b = latest (spGiveBegin r) 0%nat ops -> W = latest spGiveW W0 ops ->
  0 < k -> 0 < latest spGiveWeight w0 ops -> vlen W = m -> (forall j, (j < m)%nat -> 0 < vget W j) -> (lo <= i < m)%nat ->
  yields m mb U H -> closedLoop U t k b x ->
  (forall s, 0 <= s -> exists H', yields m mb U H' /\ errorRate lo m H' s /\ speedRate lo m H' (fun s j => x s (b + j)%nat) s) ->
  decays k (fun s => vget (hErr (H s)) i) (vget (hSpeed (H 0)) i).
Proof.
  intros N Rn Ek Eb EW Pk Pw LW PW Hi Y CL R. unfold decays.
  refine (converges_lemma mbs r k0 W0 w0 ops t0 t H x i k b W N Rn Ek Eb EW Pk Pw _ _ _ _ _); try (rewrite LW; auto; lia).
  - intros s Hs. destruct (CL s Hs) as (h & t' & E & Up & Mi & At). destruct (Y s) as (E' & _). rewrite E in E'. injection E' as ->. eauto.
  - intros s Hs. destruct (R s Hs) as (H' & Y' & ER & _). pose proof (yields_same _ _ _ _ _ Y Y') as S. rewrite S.
    refine (dl_ext _ _ _ _ _ (ER i Hi)). intros u. cbv beta. rewrite S. reflexivity.
  - intros s Hs. destruct (R s Hs) as (H' & Y' & _ & SR). pose proof (yields_same _ _ _ _ _ Y Y') as S. rewrite S.
    refine (dl_ext _ _ _ _ _ (SR i Hi)). intros u. cbv beta. rewrite S. reflexivity.
Qed.

Section Loops.
Variables (mbs : list multibody) (r : nat) (k0 : R) (W0 : vec R) (w0 : R) (ops : list spOp) (t0 t : setPoint) (x : R -> nat -> R) (k : R) (b : nat) (mb : multibody)
  (path : list nat) (K : R -> bodyKin) (al : R -> nat -> R) (jm : R -> mat).
Hypotheses (N : newSP mbs r k0 W0 w0 = Ok t0) (Rn : spRun ops t0 = Ok t) (Ek : k = latest spGiveK k0 ops) (Eb : b = latest (spGiveBegin r) 0%nat ops)
  (Pk : 0 < k) (Pw : 0 < latest spGiveWeight w0 ops) (PW : forall j, (j < vlen (latest spGiveW W0 ops))%nat -> 0 < vget (latest spGiveW W0 ops) j)
  (Wf : wfPath mb path) (Mv : forall s, 0 <= s -> movesAt mb path K al (fun s j => x s (b + j)%nat) s).

Lemma position_loop pos bp pops i v : vlen (latest spGiveW W0 ops) = 3%nat -> sized 3 mb jm -> latest posGivePoint bp pops = bp ->
  closedLoop (fun s => posUpdate mb (fold_left posStep pops (posInit pos bp path)) (K s) (jm s)) t k b x ->
  (i < 3)%nat -> dlim (fun s => e3 (worldPoint bp (K s)) i) 0 v ->
  decays k (fun s => e3 (latest posGivePos pos pops) i - e3 (worldPoint bp (K s)) i) v.
Proof.
  intros LW Sz PT CL Hi Dv. destruct (position_tracks mb path pos bp pops K al _ 0 jm Wf Sz (Mv 0 (Rle_refl 0))) as (H & Y & HE & HS & _).
  assert (E : vget (hSpeed (H 0)) i = v). { eapply dl_unique; [|exact Dv]. rewrite PT in HS. apply HS. exact Hi. }
  assert (Dc : decays k (fun s => vget (hErr (H s)) i) (vget (hSpeed (H 0)) i)).
  { eapply (loop_decays mbs r k0 W0 w0 ops t0 t x i k b _ 3 mb _ H 0 N Rn Ek Eb eq_refl Pk Pw LW); [rewrite <- LW; exact PW|lia|exact Y|exact CL|].
    intros s Hs. destruct (position_tracks mb path pos bp pops K al _ s jm Wf Sz (Mv s Hs)) as (H' & Y' & _ & _ & _ & SR & ER). exists H'. auto. }
  rewrite E in Dc. destruct Dc as (D1 & D2 & D3). unfold decays.
  split; [|split].
  - intros s Hs. rewrite <- !HE by exact Hi. apply D1. exact Hs.
  - intros eps He. destruct (D2 eps He) as (T & D). exists T. intros s Hs. rewrite <- HE by exact Hi. apply D. exact Hs.
  - intros s1 s2 H12 Z1 Z2 s Hs. rewrite <- HE in * by exact Hi. eapply D3; eauto; rewrite HE by exact Hi; auto.
Qed.
(** Linear part of a TransformTask, in the frame E_0_c. *)
Lemma transform_loop rv X_0_t X_b_p E_0_c i : vlen (latest spGiveW W0 ops) = 6%nat -> sized 6 mb jm -> rigid X_b_p -> rotation E_0_c ->
  closedLoop (fun s => tfUpdate rv mb path X_0_t X_b_p E_0_c (K s) (jm s)) t k b x -> (i < 3)%nat ->
  exists u, dlim (fun s => e3 (m3mulv E_0_c (worldPoint (ptr X_b_p) (K s))) i) 0 u /\
    decays k (fun s => e3 (m3mulv E_0_c (vsub (ptr X_0_t) (worldPoint (ptr X_b_p) (K s)))) i) u.
Proof.
  intros LW Sz RX RE CL Hi. destruct (transform_tracks rv mb path X_0_t X_b_p E_0_c K al _ 0 jm Wf Sz RX RE (Mv 0 (Rle_refl 0))) as (H & Y & HE & _ & _ & _ & ER0 & _).
  assert (Dc : decays k (fun s => vget (hErr (H s)) (3 + i)) (vget (hSpeed (H 0)) (3 + i))).
  { eapply (loop_decays mbs r k0 W0 w0 ops t0 t x (3 + i) k b _ 6 mb _ H 3 N Rn Ek Eb eq_refl Pk Pw LW); [rewrite <- LW; exact PW|lia|exact Y|exact CL|].
    intros s Hs. destruct (transform_tracks rv mb path X_0_t X_b_p E_0_c K al _ s jm Wf Sz RX RE (Mv s Hs)) as (H' & Y' & _ & _ & _ & _ & ER & SR). exists H'.
    split; [exact Y'|]. split; [exact ER|]. intros j Hj. apply SR. lia. }
  exists (vget (hSpeed (H 0)) (3 + i)). split.
  { eapply dl_ext; [|eapply dl_eq; [apply dl_minus; [apply (dl_const (e3 (m3mulv E_0_c (ptr X_0_t)) i))|apply (ER0 (3 + i)%nat); lia]|ring]].
    intros s. cbv beta. rewrite HE by exact Hi. replace (m3mulv E_0_c (vsub (ptr X_0_t) (worldPoint (ptr X_b_p) (K s)))) with (vsub (m3mulv E_0_c (ptr X_0_t)) (m3mulv E_0_c (worldPoint (ptr X_b_p) (K s)))) by (generalize (worldPoint (ptr X_b_p) (K s)); intros; v3c). rewrite e3_sub. ring. }
  destruct Dc as (D1 & D2 & D3). unfold decays.
  split; [|split].
  - intros s Hs. rewrite <- !HE by exact Hi. apply D1. exact Hs.
  - intros eps He. destruct (D2 eps He) as (T & D). exists T. intros s Hs. rewrite <- HE by exact Hi. apply D. exact Hs.
  - intros s1 s2 H12 Z1 Z2 s Hs. rewrite <- HE in * by exact Hi. eapply D3; eauto; rewrite HE by exact Hi; auto.
Qed.
End Loops.

(** A slider driven to 1 by a PositionTask of gain 1: it is at 1 - (1 + s) exp(-s). *)
Definition kSlide (s : R) : bodyKin := mkBK (mkPT m3id (mkV3 (1 - cE s) 0 0)) (mkSp v0 (mkV3 (cV s) 0 0)) sp0 (fun _ => mkSp v0 (mkV3 1 0 0)).
Definition kSlideAl (s : R) (_ : nat) : R := cV s.
Lemma kSlide_moves t : movesAt kMb [0%nat] kSlide kSlideAl SetPointWitness.cX t.
Proof.
  apply moves_of; unfold kSlide; cbn [bkPos bkVelB bkNAccB bkCol ptE ptr ang linr].
  - intros s. apply id_rigid.
  - apply Spatial_ext; apply V3_ext; cbn; unfold kSlideAl; ring.
  - eapply dM_eq; [apply dM_const|]. apply M3_ext; v3c.
  - repeat split; cbn; try (eapply dl_eq; [apply dl_const|unfold m3mulv, dot; cbn; ring]).
    eapply dl_eq; [apply dl_minus; [apply dl_const|apply cDe]|unfold m3mulv, dot; cbn; ring].
  - unfold jsp, spsum, kAld; simpl. repeat split; cbn; try (eapply dl_eq; [apply dl_const|cbn; ring]).
    eapply dl_eq; [apply cDv|unfold SetPointWitness.cX; cbn; ring].
Qed.
Lemma zero_min t w h b W a x : costs t w (leastSquares h b W a) -> 0 <= w -> (forall i, (i < mrows (hJac h))%nat -> 0 <= W i) ->
  (forall i, (i < mrows (hJac h))%nat -> taskAcc h b x i = a i) -> minimises t x.
Proof.
  intros C Hw HW E y. specialize (C x y). assert (Z : leastSquares h b W a x = 0).
  { unfold leastSquares. rewrite (sumn_ext _ _ (fun _ => 0)); [rewrite sumn_zero by auto; ring|]. intros i Hi. rewrite E by exact Hi. ring. }
  assert (P : 0 <= leastSquares h b W a y).
  { unfold leastSquares. apply Rmult_le_pos; [lra|]. apply sumn_nonneg. intros i Hi. apply Rmult_le_pos; [apply HW; exact Hi|apply pow2_ge_0]. }
  rewrite Z in C. pose proof (Rmult_le_pos _ _ Hw P). lra.
Qed.
Lemma slide_loop : exists t0, newSP [kMb] 0 1 (ones 3) 1 = Ok t0 /\
  closedLoop (fun s => posUpdate kMb (fold_left posStep [] (posInit (mkV3 1 0 0) v0 [0%nat])) (kSlide s) (kJm 3 s)) t0 1 0 SetPointWitness.cX.
Proof.
  assert (N : exists t0, newSP [kMb] 0 1 (ones 3) 1 = Ok t0) by (unfold newSP; cbn; rewrite two1; cbn; eauto).
  destruct N as (t0 & N). exists t0. split; [exact N|]. intros s Hs.
  destruct (position_tracks kMb [0%nat] (mkV3 1 0 0) v0 [] kSlide kSlideAl SetPointWitness.cX s (kJm 3) kWf (kSized 3) (kSlide_moves s)) as (H & Y & HE & HS & _ & SR & _).
  destruct (Y s) as (E & Sz & Cc). assert (D : vlen (cmDim (spC t0)) = 3%nat) by (apply newSP_Ok in N as (_ & _ & _ & -> & _); auto).
  destruct (setpoint_defined (H s) t0) as (t' & U); [rewrite D; exact Sz|]. exists (H s), t'. split; [exact E|]. split; [exact U|].
  assert (A : forall i, (i < 3)%nat -> taskAcc (H s) 0 (SetPointWitness.cX s) i = 1 * vget (hErr (H s)) i - 2 * sqrt 1 * vget (hSpeed (H s)) i).
  { intros i Hi. rewrite HE by exact Hi. rewrite sqrt_1. cbn [latest fold_left].
    assert (WP : forall u, worldPoint v0 (kSlide u) = mkV3 (1 - cE u) 0 0) by (intros u; unfold worldPoint, kSlide, pt_mul, pt_trans; cbn; apply V3_ext; unfold m3mulv, vadd, dot, v0; cbn; ring).
    rewrite WP. assert (V : vget (hSpeed (H s)) i = e3 (mkV3 (cV s) 0 0) i).
    { eapply dl_unique; [apply HS; exact Hi|]. cbn [latest fold_left]. eapply dl_ext; [intros u; rewrite WP; reflexivity|].
      destruct i as [|[|[|]]]; [| | |lia]; cbn; [eapply dl_eq; [apply dl_minus; [apply dl_const|apply cDe]|ring]|apply dl_const|apply dl_const]. }
    rewrite V. assert (DV : dlim (fun u => vget (hSpeed (H u)) i) s (e3 (mkV3 ((1 - s) * exp (- 1 * s)) 0 0) i)).
    { assert (VU : forall u, vget (hSpeed (H u)) i = e3 (mkV3 (cV u) 0 0) i).
      { intros u. destruct (position_tracks kMb [0%nat] (mkV3 1 0 0) v0 [] kSlide kSlideAl SetPointWitness.cX u (kJm 3) kWf (kSized 3) (kSlide_moves u)) as (H' & Y' & _ & HS' & _).
        rewrite (yields_same _ _ _ _ _ Y Y' u). eapply dl_unique; [apply HS'; exact Hi|]. cbn [latest fold_left]. eapply dl_ext; [intros q; rewrite WP; reflexivity|].
        destruct i as [|[|[|]]]; [| | |lia]; cbn; [eapply dl_eq; [apply dl_minus; [apply dl_const|apply cDe]|ring]|apply dl_const|apply dl_const]. }
      eapply dl_ext; [intros u; symmetry; apply VU|]. destruct i as [|[|[|]]]; [| | |lia]; cbn; [apply cDv|apply dl_const|apply dl_const]. }
    rewrite (dl_unique _ _ _ _ (SR i ltac:(lia)) DV). destruct i as [|[|[|]]]; [| | |lia]; cbn; unfold cE, cV; ring. }
  destruct Sz as (Rw & _). split.
  - eapply zero_min; [exact (setpoint_lemma [kMb] 0%nat 1 (ones 3) 1 [] t0 t0 (H s) t' N eq_refl U)|cbn; lra|intros; cbn; lra|].
    intros i Hi. rewrite Rw in Hi. apply A. exact Hi.
  - exists (SetPointWitness.cX s). intros i Hi. rewrite Rw in Hi. apply A. exact Hi.
Qed.
