(** Properties of the momentum task. *)
From Verif Require Import MomModel MomSpec MomFacts MomParts MomWitness.
From Coq Require Import Lra Lia.
Open Scope string_scope.
Open Scope list_scope.
Open Scope R_scope.

(** C124: MomentumTask along a motion of the robot: the Jacobian times the joint velocities is the target minus the error, the speed is zero, and the error decreases at the rate of the
    task acceleration (Jacobian times joint accelerations plus normal acceleration). *)
Theorem C124_momentum_rates : forall mb bs mom0 ops K al ald t, heavy (map moB bs) -> bodiesMove mb (map moB bs) K al ald t ->
  exists H, yields 6 mb (fun s => momUpdate mb bs (K s) (fold_left momStep ops mom0)) H /\
    (forall i, (i < 6)%nat -> sumn (mcols (hJac (H t))) (fun q => mget (hJac (H t)) i q * al t q) = e6 (latest momGive mom0 ops) i - vget (hErr (H t)) i) /\
    (forall s i, (i < 6)%nat -> vget (hSpeed (H s)) i = 0) /\ errorAcc 6 H ald t.
Proof. exact momentum_rates. Qed.
Print Assumptions C124_momentum_rates.
(** A unit mass that turns around a fixed mass of three: its momentum, whatever the target. *)
Example C124_used : forall target, exists H, yields 6 kMb (fun s => momUpdate kMb nBodies (mK s) target) H /\
  sumn (mcols (hJac (H 0))) (fun q => mget (hJac (H 0)) 2 q * 1) = vz (ang target) - vget (hErr (H 0)) 2 /\ errorAcc 6 H (kAld 0) 0.
Proof.
  intros target. destruct (C124_momentum_rates kMb nBodies target [] mK (kAl 1 0) (kAld 0) 0 (mHeavy 1 ltac:(lra)) (mMoves 1 0)) as (H & Y & J & _ & A).
  exists H. split; [exact Y|]. split; [|exact A]. refine (eq_trans _ (J 2%nat ltac:(lia))). apply sumn_ext. intros q _. unfold kAl. ring.
Qed.

(** C125: when the bodies are made of particles, the error is the target minus the momentum of the particles: the couple is their angular momentum about the centre of mass, the force
    their linear momentum, which is the mass times the velocity of the centre of mass. *)
Theorem C125_particles : forall mb bs mom0 ops K al ald t parts pv c, heavy (map moB bs) -> bodiesMove mb (map moB bs) K al ald t -> Forall2 madeOf bs parts ->
  (forall b p, (b < length bs)%nat -> dV (fun s => placed p (K s b)) t (pv b p)) -> (forall i, (i < 3)%nat -> e3 c i = comOf one (map moB bs) (K t) i) ->
  exists h, momUpdate mb bs (K t) (fold_left momStep ops mom0) = Ok h /\
    (forall i, (i < 3)%nat -> vget (hErr h) i = e3 (ang (latest momGive mom0 ops)) i - angMomentum parts (K t) c pv i /\
       vget (hErr h) (3 + i) = e3 (linr (latest momGive mom0 ops)) i - linMomentum parts pv i) /\
    (forall i, (i < 3)%nat -> dlim (fun s => mass (map moB bs) * comOf one (map moB bs) (K s) i) t (linMomentum parts pv i)).
Proof. exact momentum_particles. Qed.
Print Assumptions C125_particles.
(** A unit mass that turns at unit speed around a fixed mass of three: its angular momentum about the centre of mass is 3/4. *)
Example C125_used : exists h, momUpdate kMb nBodies (mK 0) (fold_left momStep [MomSet sp0] pTarget) = Ok h /\ vget (hErr h) 2 = - (3 / 4).
Proof.
  destruct (C125_particles kMb nBodies pTarget [MomSet sp0] mK (kAl 1 0) (kAld 0) 0 nParts (nVel 0) (mkV3 (/ 4) 0 0) (mHeavy 1 ltac:(lra)) (mMoves 1 0) nMade (nVel_rate 0)) as (h & E & HE & _).
  - assert (Q : forall i, (i < 3)%nat -> comOf one (mBodies 1) (mK 0) i = e3 (mkV3 (/ 4) 0 0) i).
    { intros i Hi. unfold comOf. rewrite mMass. unfold mBodies, sumn; simpl. unfold kQ, dot, one; cbn. replace (1 * 0 + 0 * (0 * 0) / 2) with 0 by field.
      destruct i as [|[|[|i]]]; [| | |lia]; cbn; unfold dot; cbn; rewrite ?sin_0, ?cos_0; field. }
    intros i Hi. rewrite nMap, Q by exact Hi. reflexivity.
  - exists h. split; [exact E|]. rewrite (proj1 (HE 2%nat ltac:(lia))). unfold angMomentum, overBodies, nParts, sumn; simpl. unfold placed, mK, kRev, kStill, kQ, xhat; cbn. unfold cross, dot; cbn. unfold dot; cbn.
    replace (1 * 0 + 0 * (0 * 0) / 2) with 0 by field. rewrite ?sin_0, ?cos_0. field.
Qed.

(** C126: a robot moves under the accelerations that minimise the cost of a set-point task over a MomentumTask, and what the task asks for can be attained: every coordinate of the
    error of the momentum decays as exp(- k s), k the stiffness. *)
Theorem C126_momentum_converges : forall mbs r k0 W0 w0 ops t0 t x k b mb bs mom0 mops K al, newSP mbs r k0 W0 w0 = Ok t0 -> spRun ops t0 = Ok t ->
  k = latest spGiveK k0 ops -> b = latest (spGiveBegin r) 0%nat ops ->
  0 < latest spGiveWeight w0 ops -> vlen (latest spGiveW W0 ops) = 6%nat -> (forall j, (j < 6)%nat -> 0 < vget (latest spGiveW W0 ops) j) ->
  heavy (map moB bs) -> (forall s, 0 <= s -> bodiesMove mb (map moB bs) K al (fun s j => x s (b + j)%nat) s) ->
  closedLoop (fun s => momUpdate mb bs (K s) (fold_left momStep mops mom0)) t k b x ->
  exists H, yields 6 mb (fun s => momUpdate mb bs (K s) (fold_left momStep mops mom0)) H /\ forall i s, (i < 6)%nat -> 0 <= s -> vget (hErr (H s)) i = vget (hErr (H 0)) i * exp (- k * s).
Proof. exact momentum_loop. Qed.
Print Assumptions C126_momentum_converges.
(** A slider of mass one at rest, asked for the momentum one. *)
Example C126_used : exists H, yields 6 kMb (fun s => momUpdate kMb pBodies (kPush s) pTarget) H /\ vget (hErr (H 0)) 3 = 1 /\ forall s, 0 <= s -> vget (hErr (H s)) 3 = exp (- 1 * s).
Proof.
  destruct push_loop as (t0 & N & CL).
  destruct (C126_momentum_converges [kMb] 0 1 (ones 6) 1 [] t0 t0 sA 1 0 kMb pBodies pTarget [] kPush kPushAl N eq_refl eq_refl eq_refl) as (H & Y & D); cbn; try lra; try reflexivity.
  - intros; lra.
  - exact pHeavy.
  - intros s _. exact (kPush_moves s).
  - exact CL.
  - exists H. split; [exact Y|]. assert (Z : vget (hErr (H 0)) 3 = 1). { rewrite (pErr 0 (H 0) (proj1 (Y 0)) 3%nat ltac:(lia)). cbn. rewrite Rmult_0_r. apply exp_0. }
    split; [exact Z|]. intros s Hs. rewrite (D 3%nat s ltac:(lia) Hs), Z. rewrite Rmult_1_l. reflexivity.
Qed.
