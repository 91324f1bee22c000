(** The kinematic tasks in closed loop: from the motion of the robot to the decay of the error. *)
From Verif Require Import KinModel KinSpec KinTaskFacts KinLoop SetPointSpec SetPointWitness KinWitness TfLoopWitness.
From Coq Require Import Lra Lia.
Open Scope string_scope.
Open Scope list_scope.
Open Scope R_scope.

(** C112: a robot moves under the accelerations that minimise the cost of a set-point task over a PositionTask, and what the task asks for can be attained: every
    coordinate of the position error of the body point (as the robot moves, not as the task stores it) is critically damped, tends to zero and does not
    oscillate; the same with the position of TransformTask. For VectorOrientationTask see C147. *)
Theorem C112_position_converges : forall mbs r k0 W0 w0 ops t0 t x k b mb path K al jm,
  newSP mbs r k0 W0 w0 = Ok t0 -> spRun ops t0 = Ok t -> k = latest spGiveK k0 ops -> b = latest (spGiveBegin r) 0%nat ops ->
  0 < k -> 0 < latest spGiveWeight w0 ops -> (forall j, (j < vlen (latest spGiveW W0 ops))%nat -> 0 < vget (latest spGiveW W0 ops) j) ->
  wfPath mb path -> (forall s, 0 <= s -> movesAt mb path K al (fun s j => x s (b + j)%nat) s) -> forall pos bp pops i v,
  vlen (latest spGiveW W0 ops) = 3%nat -> sized 3 mb jm -> latest posGivePoint bp pops = bp ->
  closedLoop (fun s => posUpdate mb (fold_left posStep pops (posInit pos bp path)) (K s) (jm s)) t k b x ->
  (i < 3)%nat -> dlim (fun s => e3 (worldPoint bp (K s)) i) 0 v ->
  decays k (fun s => e3 (latest posGivePos pos pops) i - e3 (worldPoint bp (K s)) i) v.
Proof. exact position_loop. Qed.
Print Assumptions C112_position_converges.
Theorem C112_transform_converges : forall mbs r k0 W0 w0 ops t0 t x k b mb path K al jm,
  newSP mbs r k0 W0 w0 = Ok t0 -> spRun ops t0 = Ok t -> k = latest spGiveK k0 ops -> b = latest (spGiveBegin r) 0%nat ops ->
  0 < k -> 0 < latest spGiveWeight w0 ops -> (forall j, (j < vlen (latest spGiveW W0 ops))%nat -> 0 < vget (latest spGiveW W0 ops) j) ->
  wfPath mb path -> (forall s, 0 <= s -> movesAt mb path K al (fun s j => x s (b + j)%nat) s) -> forall rv X_0_t X_b_p E_0_c i,
  vlen (latest spGiveW W0 ops) = 6%nat -> sized 6 mb jm -> rigid X_b_p -> rotation E_0_c ->
  closedLoop (fun s => tfUpdate rv mb path X_0_t X_b_p E_0_c (K s) (jm s)) t k b x -> (i < 3)%nat ->
  exists u, dlim (fun s => e3 (m3mulv E_0_c (worldPoint (ptr X_b_p) (K s))) i) 0 u /\
    decays k (fun s => e3 (m3mulv E_0_c (vsub (ptr X_0_t) (worldPoint (ptr X_b_p) (K s)))) i) u.
Proof. exact transform_loop. Qed.
Print Assumptions C112_transform_converges.
(** A slider that starts at rest at 0 and is driven to 1 with stiffness 1: its distance to the target is (1 + s) exp(- s). *)
Example C112_used : forall s, 0 <= s -> e3 (mkV3 1 0 0) 0 - e3 (worldPoint v0 (kSlide s)) 0 = (1 + s) * exp (- s).
Proof.
  destruct slide_loop as (t0 & N & CL). intros s Hs.
  assert (WP : forall u, worldPoint v0 (kSlide u) = mkV3 (1 - cE u) 0 0) by (intros u; unfold worldPoint, kSlide, pt_mul, pt_trans; cbn; apply V3_ext; unfold m3mulv, vadd, dot, v0; cbn; ring).
  assert (D : dlim (fun s => e3 (worldPoint v0 (kSlide s)) 0) 0 0).
  { eapply dl_ext; [intros u; rewrite WP; reflexivity|]. cbn. eapply dl_eq; [apply dl_minus; [apply dl_const|apply cDe]|unfold cV; ring]. }
  destruct (C112_position_converges [kMb] 0 1 (ones 3) 1 [] t0 t0 SetPointWitness.cX 1 0 kMb [0%nat] kSlide kSlideAl (kJm 3) N eq_refl eq_refl eq_refl) with (pos := mkV3 1 0 0) (bp := v0) (pops := @nil posOp) (i := 0%nat) (v := 0) as (F & _);
    cbn [latest fold_left]; try lra; auto.
  - intros j Hj. cbn. lra.
  - exact kWf.
  - intros u _. apply kSlide_moves.
  - exact (kSized 3).
  - specialize (F s Hs). cbn [latest fold_left] in F. rewrite F. rewrite WP. cbn. unfold cE. rewrite sqrt_1.
    replace (- 1 * s) with (- s) by ring. replace (- (1) * s) with (- s) by ring. replace (- 1 * 0) with 0 by ring. rewrite exp_0. ring.
Qed.
(** The same slider with a TransformTask whose target has the orientation of the body. *)
Example C112_transform_used : forall rv, rv m3id = v0 -> forall s, 0 <= s -> e3 (m3mulv m3id (vsub (ptr tfGoal) (worldPoint (ptr tfHere) (kSlide s)))) 0 = (1 + s) * exp (- s).
Proof.
  intros rv R0 s Hs. destruct (slide_tf rv R0) as (t0 & N & CL).
  destruct (C112_transform_converges [kMb] 0 1 (ones 6) 1 [] t0 t0 SetPointWitness.cX 1 0 kMb [0%nat] kSlide kSlideAl (kJm 6) N eq_refl eq_refl eq_refl) with (rv := rv) (X_0_t := tfGoal) (X_b_p := tfHere) (E_0_c := m3id) (i := 0%nat) as (u & Du & F & _);
    cbn [latest fold_left]; try lra; auto.
  - intros j Hj. cbn. lra.
  - exact kWf.
  - intros q _. apply kSlide_moves.
  - exact (kSized 6).
  - exact (id_rigid v0).
  - exact (id_rigid v0).
  - assert (WP : forall u, worldPoint (ptr tfHere) (kSlide u) = mkV3 (1 - cE u) 0 0) by (intros q; unfold worldPoint, kSlide, tfHere, pt_mul, pt_trans; cbn; apply V3_ext; unfold m3mulv, vadd, dot, v0; cbn; ring).
    assert (U0 : u = 0).
    { eapply dl_unique; [exact Du|]. apply (dl_ext (fun s => 1 - cE s)); [intros q; rewrite WP, idV; reflexivity|]. eapply dl_eq; [apply dl_minus; [apply dl_const|apply cDe]|unfold cV; ring]. }
    specialize (F s Hs). rewrite F, U0. rewrite !WP, !idV. cbn. unfold cE. rewrite sqrt_1.
    replace (- (1) * s) with (- s) by ring. replace (- 1 * s) with (- s) by ring. replace (- 1 * 0) with 0 by ring. rewrite exp_0. ring.
Qed.
