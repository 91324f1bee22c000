(** C145. Property theorems only: the posture task in control cycles that hold the accelerations. *)
From Verif Require Import DiscreteSpec DiscreteFacts DiscreteWitness.
Open Scope string_scope.
Open Scope list_scope.
Open Scope R_scope.

(** C145 as one would hope, that the posture task brings the joint to its target whatever the stiffness and the control period, fails. *)
Theorem C145_refuted : exists lssol kinds pre post mbs uni bi s num ct r mb q0 k0 w0 ops t0 t ms i j k dt z,
  history lssol kinds (pre ++ OpNrVars mbs uni bi :: post) = Ok s /\ Forall wfMimic mbs /\ nonzeroMimics mbs /\
  Forall (fun o => ~ resizesOrSwitches o) post /\ contract num /\ nth_error mbs r = Some mb /\ plainJoints mb /\
  newPost mbs r q0 k0 w0 = Ok t0 /\ poRun mbs ops t0 = Ok t /\
  (forall j o, nth_error (joints mb) 0 = Some j -> In o (latest poGiveJ [] ops) -> fst o <> jname j) /\
  0 < latest poGiveWeight w0 ops /\ (forall c, (c < nrDof mb)%nat -> 0 < vget (latest poGiveW (ones (nrDof mb)) ops) c) /\
  alphaDBegin (qData s) r = Ok (latest (poGiveBegin r) 0%nat ops) /\
  nth_error (joints mb) (S i) = Some j /\ jdof j = 1%nat /\ jparams j = 1%nat /\
  gainsOf (latest poGiveG (k0, 2 * sqrt k0) ops) (latest poGiveJ [] ops) (jname j) = (k, 2 * sqrt k) /\
  vget (latest poGiveRV (vfill (nrDof mb) 0) ops) (jointPosInDof mb (S i)) = 0 /\ vget (latest poGiveRA (vfill (nrDof mb) 0) ops) (jointPosInDof mb (S i)) = 0 /\
  confsOk mbs ms /\ z 0%nat = (t, ms, s) /\ (forall n, postCycle lssol kinds num ct mbs r dt (1 / 2) (z n) (z (S n))) /\ 0 < k /\ 0 < dt /\
  forall bnd, exists n a, nth_error (confsAt z n) r = Some a /\ bnd < Rabs (at2 (latest poGiveQ q0 ops) (S i) 0 0 - at2 (confQ a) (S i) 0 0).
Proof. exact discrete_refuted_lemma. Qed.
Print Assumptions C145_refuted.

(** It holds, and exponentially, when sqrt k dt is small enough: below 2 if the caller integrates the velocity before the acceleration (th = 0),
    below 1 if the acceleration is constant (th = 1/2), below 2 sqrt 2 - 2 if the caller integrates the acceleration first (th = 1). *)
Theorem C145_converges : forall lssol kinds pre post mbs uni bi s num ct r mb q0 k0 w0 ops t0 t ms i j k dt th z,
  history lssol kinds (pre ++ OpNrVars mbs uni bi :: post) = Ok s -> Forall wfMimic mbs -> nonzeroMimics mbs ->
  Forall (fun o => ~ resizesOrSwitches o) post -> contract num -> nth_error mbs r = Some mb -> plainJoints mb ->
  newPost mbs r q0 k0 w0 = Ok t0 -> poRun mbs ops t0 = Ok t ->
  (forall j o, nth_error (joints mb) 0 = Some j -> In o (latest poGiveJ [] ops) -> fst o <> jname j) ->
  0 < latest poGiveWeight w0 ops -> (forall c, (c < nrDof mb)%nat -> 0 < vget (latest poGiveW (ones (nrDof mb)) ops) c) ->
  alphaDBegin (qData s) r = Ok (latest (poGiveBegin r) 0%nat ops) ->
  nth_error (joints mb) (S i) = Some j -> jdof j = 1%nat -> jparams j = 1%nat ->
  gainsOf (latest poGiveG (k0, 2 * sqrt k0) ops) (latest poGiveJ [] ops) (jname j) = (k, 2 * sqrt k) ->
  vget (latest poGiveRV (vfill (nrDof mb) 0) ops) (jointPosInDof mb (S i)) = 0 -> vget (latest poGiveRA (vfill (nrDof mb) 0) ops) (jointPosInDof mb (S i)) = 0 ->
  confsOk mbs ms -> z 0%nat = (t, ms, s) -> (forall n, postCycle lssol kinds num ct mbs r dt th (z n) (z (S n))) -> 0 < k -> 0 < dt ->
  0 <= th <= 1 -> sqrt k * dt < 2 -> 0 < 4 - 4 * (sqrt k * dt) + (1 - 2 * th) * (sqrt k * dt) ^ 2 ->
  exists c rho, 0 <= rho < 1 /\ forall n a, nth_error (confsAt z n) r = Some a ->
    Rabs (at2 (latest poGiveQ q0 ops) (S i) 0 0 - at2 (confQ a) (S i) 0 0) <= c * rho ^ n /\ Rabs (at2 (confV a) (S i) 0 0) <= c * rho ^ n.
Proof. exact discrete_converges. Qed.
Print Assumptions C145_converges.
(** The joint from 1 at rest to 0, stiffness 4, period 1/4: cycles for ever, and the joint converges. *)
Example C145_converges_used : 0 < 4 - 4 * (2 * / 4) + (1 - 2 * (1 / 2)) * (2 * / 4) ^ 2 /\
  (forall n, postCycle true cmKinds trySolver 0 [dcMb] 0 (/ 4) (1 / 2) (dcZ 4 (/ 4) (1 / 2) 1 0 n) (dcZ 4 (/ 4) (1 / 2) 1 0 (S n))) /\
  exists c rho, 0 <= rho < 1 /\ forall n a, nth_error (confsAt (dcZ 4 (/ 4) (1 / 2) 1 0) n) 0 = Some a ->
    Rabs (0 - at2 (confQ a) 1 0 0) <= c * rho ^ n /\ Rabs (at2 (confV a) 1 0 0) <= c * rho ^ n.
Proof.
  assert (Q4 : sqrt 4 = 2) by (replace 4 with (2 * 2) by ring; apply sqrt_square; lra). split; [lra|]. split; [intros n; apply dcLoop; lra|].
  apply dcConverges; rewrite ?Q4; lra.
Qed.

(** With constant accelerations and sqrt k dt above 1, a joint at rest away from its target never settles: the error grows exponentially. *)
Theorem C145_diverges : forall lssol kinds pre post mbs uni bi s num ct r mb q0 k0 w0 ops t0 t ms i j k dt th z,
  history lssol kinds (pre ++ OpNrVars mbs uni bi :: post) = Ok s -> Forall wfMimic mbs -> nonzeroMimics mbs ->
  Forall (fun o => ~ resizesOrSwitches o) post -> contract num -> nth_error mbs r = Some mb -> plainJoints mb ->
  newPost mbs r q0 k0 w0 = Ok t0 -> poRun mbs ops t0 = Ok t ->
  (forall j o, nth_error (joints mb) 0 = Some j -> In o (latest poGiveJ [] ops) -> fst o <> jname j) ->
  0 < latest poGiveWeight w0 ops -> (forall c, (c < nrDof mb)%nat -> 0 < vget (latest poGiveW (ones (nrDof mb)) ops) c) ->
  alphaDBegin (qData s) r = Ok (latest (poGiveBegin r) 0%nat ops) ->
  nth_error (joints mb) (S i) = Some j -> jdof j = 1%nat -> jparams j = 1%nat ->
  gainsOf (latest poGiveG (k0, 2 * sqrt k0) ops) (latest poGiveJ [] ops) (jname j) = (k, 2 * sqrt k) ->
  vget (latest poGiveRV (vfill (nrDof mb) 0) ops) (jointPosInDof mb (S i)) = 0 -> vget (latest poGiveRA (vfill (nrDof mb) 0) ops) (jointPosInDof mb (S i)) = 0 ->
  confsOk mbs ms -> z 0%nat = (t, ms, s) -> (forall n, postCycle lssol kinds num ct mbs r dt th (z n) (z (S n))) -> 0 < k -> 0 < dt ->
  th = 1 / 2 -> 1 < sqrt k * dt ->
  (forall a, nth_error ms r = Some a -> at2 (confV a) (S i) 0 0 = 0 /\ at2 (confQ a) (S i) 0 0 <> at2 (latest poGiveQ q0 ops) (S i) 0 0) ->
  exists c rho, 0 < c /\ 1 < rho /\ forall n a a', nth_error (confsAt z n) r = Some a -> nth_error (confsAt z (S n)) r = Some a' ->
    let e b := at2 (latest poGiveQ q0 ops) (S i) 0 0 - at2 (confQ b) (S i) 0 0 in c * rho ^ n <= Rabs (e a) + Rabs (e a').
Proof. exact discrete_diverges. Qed.
Print Assumptions C145_diverges.
(** Stiffness 4, period 1. *)
Example C145_diverges_used : (forall n, postCycle true cmKinds trySolver 0 [dcMb] 0 1 (1 / 2) (dcZ 4 1 (1 / 2) 1 0 n) (dcZ 4 1 (1 / 2) 1 0 (S n))) /\
  exists c rho, 0 < c /\ 1 < rho /\ forall n a a', nth_error (confsAt (dcZ 4 1 (1 / 2) 1 0) n) 0 = Some a -> nth_error (confsAt (dcZ 4 1 (1 / 2) 1 0) (S n)) 0 = Some a' ->
    c * rho ^ n <= Rabs (0 - at2 (confQ a) 1 0 0) + Rabs (0 - at2 (confQ a') 1 0 0).
Proof.
  assert (Q4 : sqrt 4 = 2) by (replace 4 with (2 * 2) by ring; apply sqrt_square; lra). split; [intros n; apply dcLoop; lra|].
  apply dcDiverges; rewrite ?Q4; lra.
Qed.
