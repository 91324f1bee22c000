(** Properties of BoundedSpeedConstr. *)
From Verif Require Import SpeedWitness.
Open Scope string_scope.
Open Scope list_scope.
Open Scope R_scope.

(** C52: when the matrices were allocated after the last change of the list, update is defined, and row i, which is row k of the selection matrix S of some
    speed bound, holds at x exactly when coordinate k of S v is between the bounds, where v is the velocity of the body after
    one time step under the accelerations of x. *)
Theorem C52_rows : forall nm mbs r d step ops c K,
  sReaches nm mbs r d step ops c -> Forall speedOk (speedsAfter ops) -> 0 < step ->
  exists c', speedUpdate mbs K c = Ok c' /\ giNr (speedGen c') = length (speedRows (speedsAfter ops)) /\
    forall i s k, nth_error (speedRows (speedsAfter ops)) i = Some (s, k) ->
      forall x, holdsGenRow (sdNrVars d) x (speedGen c') i <->
        vget (spL s) k <= selected (spDof s) k (nextVel nm mbs r d step s K x) <= vget (spU s) k.
Proof. exact speed_rows. Qed.
Print Assumptions C52_rows.
(** As a whole: the constraint holds exactly when every selected speed of every bound in force is within its bounds. *)
Theorem C52_constraint : forall nm mbs r d step ops c K c',
  sReaches nm mbs r d step ops c -> Forall speedOk (speedsAfter ops) -> 0 < step -> speedUpdate mbs K c = Ok c' ->
  forall x, holdsGen (sdNrVars d) x (speedGen c') <-> forall s k, In s (speedsAfter ops) -> (k < mrows (spDof s))%nat ->
    vget (spL s) k <= selected (spDof s) k (nextVel nm mbs r d step s K x) <= vget (spU s) k.
Proof. exact speed_all. Qed.
Print Assumptions C52_constraint.
(** Three rows; exactly the accelerations with 1/2 + x0 = 2, - x0 = - 1 (impossible), while the hand row alone is met by x0 + x1 in [-1/2, 1/2]. *)
Example C52_used : exists c c', sReaches wNames wMbs 0 wData 1 sOps c /\ speedUpdate wMbs sK c = Ok c' /\ giNr (speedGen c') = 3%nat /\
  (forall x, holdsGenRow 3 x (speedGen c') 0 <-> - 1 / 2 <= x 0%nat + x 1%nat <= 1 / 2) /\ (forall x, holdsGenRow 3 x (speedGen c') 1 <-> x 0%nat = 3 / 2) /\
  (forall x, ~ holdsGen 3 x (speedGen c')).
Proof.
  destruct sReach as (c & HR). destruct (C52_rows _ _ _ _ _ _ c sK HR) as (c' & U & N & ROWS); [repeat constructor|lra|].
  exists c, c'. split; [exact HR|]. split; [exact U|]. split; [exact N|]. change (sdNrVars wData) with 3%nat in ROWS.
  pose proof (ROWS 0%nat sHand 0%nat eq_refl) as R0. pose proof (ROWS 1%nat sFoot 0%nat eq_refl) as R1. pose proof (ROWS 2%nat sFoot 1%nat eq_refl) as R2.
  split; [|split].
  - intros x. rewrite (R0 x), sNext. cbn. split; lra.
  - intros x. rewrite (R1 x), sNextFoot by lia. cbn. split; lra.
  - intros x H. assert (Q1 : holdsGenRow 3 x (speedGen c') 1) by (apply H; rewrite N; cbn; lia). assert (Q2 : holdsGenRow 3 x (speedGen c') 2) by (apply H; rewrite N; cbn; lia).
    apply (R1 x) in Q1. apply (R2 x) in Q2. rewrite sNextFoot in Q1, Q2 by lia. cbn in Q1, Q2. lra.
Qed.

(** C53: the registry, the result of removeBoundedSpeed, the number of rows after updateBoundedSpeeds, and the description of a
    row: the body of the bound it belongs to. *)
Theorem C53_registry : forall nm mbs r step ops c0 c, newSpeed mbs r step = Ok c0 -> sRun nm mbs c0 ops = Ok c ->
  nrSpeeds c = length (speedsAfter ops) /\ map sdSpec (scData c) = speedsAfter ops /\
  (forall b, snd (removeSpeed b c) = true <-> In b (map spBody (speedsAfter ops))) /\
  giMax (speedGen (updateSpeeds c)) = length (speedRows (speedsAfter ops)) /\
  (endsAt nm -> forall i, speedDesc nm c i = match nth_error (speedRows (speedsAfter ops)) i with Some (s, _) => Some (spBody s) | None => None end).
Proof. exact speed_registry. Qed.
Print Assumptions C53_registry.
Example C53_used : exists c0 c, newSpeed wMbs 0 1 = Ok c0 /\ sRun wNames wMbs c0 [SAdd sHand; SAdd sFoot; SAdd sHand; SRm "hand"; SNr wData] = Ok c /\
  nrSpeeds c = 2%nat /\ snd (removeSpeed "hand" c) = true /\ snd (removeSpeed "box" c) = false /\ speedDesc wNames c 1 = Some "foot" /\ speedDesc wNames c 2 = Some "hand" /\ speedDesc wNames c 3 = None.
Proof.
  assert (X : exists c0 c, newSpeed wMbs 0 1 = Ok c0 /\ sRun wNames wMbs c0 [SAdd sHand; SAdd sFoot; SAdd sHand; SRm "hand"; SNr wData] = Ok c) by (do 2 eexists; split; reflexivity).
  destruct X as (c0 & c & H0 & H). exists c0, c. split; [exact H0|]. split; [exact H|]. destruct (C53_registry _ _ _ _ _ _ _ H0 H) as (A & _ & B & _ & D).
  split; [exact A|]. split; [apply B; cbn; auto|]. split; [destruct (snd (removeSpeed "box" c)) eqn:E; [|reflexivity]; apply B in E; cbn in E; destruct E as [E|[E|[]]]; discriminate|].
  rewrite !(D wBodyNames). repeat split.
Qed.

(** C80 refuted as stated: removeBoundedSpeed leaves the rows; until updateBoundedSpeeds is called the removed bound goes on restricting
    (with the values of the last update). The guarded version is C52_constraint: after updateBoundedSpeeds or updateNrVars only
    the bounds in force restrict. *)
Theorem C80_refuted : exists nm mbs r d step ops c0 c K c' x, (exists uni bi deps, nrVarsData mbs uni bi = Ok (d, deps)) /\ pathsOk nm mbs /\ 0 < step /\
  newSpeed mbs r step = Ok c0 /\ sRun nm mbs c0 ops = Ok c /\ In (SNr d) ops /\ speedsAfter ops = [] /\ speedUpdate mbs K c = Ok c' /\ ~ holdsGen (sdNrVars d) x (speedGen c').
Proof. exact stale_speed_lemma. Qed.
Print Assumptions C80_refuted.
