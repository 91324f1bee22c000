(** Whole control cycles: the constraints of the library, its solver and the caller's integration, run any number of
    times, keep the limits the constraints were given. *)
From Verif Require Import CycleFacts TorqueCycle TrySolver SolverFacts LimitsWitness CycleWitness CycleWitness2.
Open Scope string_scope.
Open Scope list_scope.
Open Scope R_scope.

(** C127: a robot with joint limits is driven by solve() in a loop, the accelerations being held during each period. After every cycle the positions, the accelerations and the jerk between
    cycles are within the limits given to the constructor, whatever tasks and other constraints are added or removed between cycles. *)
Theorem C127_limits_kept : forall lssol kinds pre mbs uni bi post s num r mb lq uq lad uad ladd uadd dt m0 ops m ms c m1 ms1 s1 m2 ms2 s2 a a',
  history lssol kinds (pre ++ OpNrVars mbs uni bi :: post) = Ok s -> Forall wfMimic mbs -> nonzeroMimics mbs ->
  Forall (fun o => ~ resizesOrSwitches o) post -> contract num ->
  newJL mbs r lq uq lad uad ladd uadd dt = Ok m0 -> nth_error mbs r = Some mb -> fixedBase mb -> flat mb ->
  perDof mb lq -> perDof mb uq -> perDofOpt mb lad -> perDofOpt mb uad -> perDofOpt mb ladd -> perDofOpt mb uadd ->
  jlRun m0 ops = Ok m -> lastSizes ops = Some (qData s) -> confsOk mbs ms ->
  cycles jlUpdate jlBound lssol kinds num c mbs dt (1 / 2) (m, ms, s) (m1, ms1, s1) ->
  cycle jlUpdate jlBound lssol kinds num c mbs dt (1 / 2) (m1, ms1, s1) (m2, ms2, s2) ->
  nth_error ms1 r = Some a -> nth_error ms2 r = Some a' ->
  forall i k, isDof mb i k ->
    between (at2 lq i k NInf) (at2 (confQ a') i k 0) (at2 uq i k PInf) /\
    between (at2 lad i k NInf) (at2 (mbcAlphaD a') i k 0) (at2 uad i k PInf) /\
    jerkOk dt (at2 ladd i k NInf) (at2 uadd i k PInf) (at2 (mbcAlphaD a) i k 0) (at2 (mbcAlphaD a') i k 0).
Proof. exact limits_kept_lemma. Qed.
Print Assumptions C127_limits_kept.
(** The slide of the box goes from 9 to 9.5, below its limit 10, with accelerations within 3 and jerks within 2. *)
Example C127_used : exists m m' ms' b,
  cycle jlUpdate jlBound true cyKinds trySolver 0 wMbs 1 (1 / 2) (m, cyConf 9 0 0, cySolver 0) (m', ms', cySolver 0) /\
  nth_error ms' 1 = Some b /\ at2 (confQ b) 0 0 0 = 9 + 1 / 2 /\ between (at2 hL 0 0 NInf) (at2 (confQ b) 0 0 0) (at2 hU 0 0 PInf).
Proof.
  destruct limits_used_lemma as (m & m' & ms' & b & N & M & FB & FL & R & L & K & Y & E & _ & Q). exists m, m', ms', b. split; [exact Y|]. split; [exact E|]. split; [exact Q|].
  refine (proj1 (C127_limits_kept true cyKinds [] wMbs [] gBi (cyPost 0) (cySolver 0) trySolver 1 hBox hL hU _ _ _ _ 1 cyA [LNr gData] m _ 0 _ _ _ _ _ _ _ b (cyHistory 0) cyMimic cyNonzero (cyKeep 0) trySolver_contract
    N M FB FL eq_refl eq_refl (or_intror eq_refl) (or_intror eq_refl) (or_intror eq_refl) (or_intror eq_refl) R L K (cycles0 _ _ _ _ _ _ _ _ _ _) Y eq_refl E 0%nat 0%nat _)).
  eexists. split; [reflexivity|cbv; lia].
Qed.

(** C128: the same with the velocity damper. With parameters as in C41 ([tuned]) and a start at the safety margin or farther and slow enough, the position of a joint with one degree
    of freedom stays at least the safety distance away from both limits after any number of cycles, for every integration rule between explicit and semi-implicit Euler. *)
Theorem C128_damper_kept : forall lssol kinds pre mbs uni bi post s num r mb lq uq la ua lad uad ladd uadd inter secu off dt th m0 ops m ms c m' ms' s' a a' i jt l u vl vu V,
  history lssol kinds (pre ++ OpNrVars mbs uni bi :: post) = Ok s -> Forall wfMimic mbs -> nonzeroMimics mbs ->
  Forall (fun o => ~ resizesOrSwitches o) post -> contract num ->
  newDJ mbs r lq uq la ua lad uad ladd uadd inter secu off dt = Ok m0 -> nth_error mbs r = Some mb ->
  (forall j, In j (joints mb) -> jdof j = 1%nat -> jparams j = 1%nat) ->
  perDof mb la -> perDof mb ua -> perDofOpt mb lad -> perDofOpt mb uad -> perDofOpt mb ladd -> perDofOpt mb uadd ->
  djRun m0 ops = Ok m -> configs r ops = [] -> lastSizes ops = Some (qData s) -> confsOk mbs ms -> nth_error ms r = Some a ->
  nth_error (joints mb) i = Some jt -> jdof jt = 1%nat ->
  at2 lq i 0 NInf = Fin l -> at2 uq i 0 PInf = Fin u -> at2 la i 0 NInf = Fin vl -> at2 ua i 0 PInf = Fin vu ->
  tuned l u vl vu inter secu off dt V -> startsOk l u secu dt V (at2 (confQ a) i 0 0) (at2 (confV a) i 0 0) -> 0 <= th <= 1 ->
  cycles djUpdate djBound lssol kinds num c mbs dt th (m, ms, s) (m', ms', s') -> nth_error ms' r = Some a' ->
  l + (u - l) * secu <= at2 (confQ a') i 0 0 <= u - (u - l) * secu.
Proof. exact damper_kept_lemma. Qed.
Print Assumptions C128_damper_kept.
(** The slide of the box, between 0 and 10 with safety distance 1, goes from 5 to 5.05. *)
Example C128_used : exists m m' ms' b,
  cycles djUpdate djBound true cyKinds trySolver 0 wMbs 1 1 (m, cyConf 5 0 0, cySolver 0) (m', ms', cySolver 0) /\
  nth_error ms' 1 = Some b /\ at2 (confQ b) 0 0 0 = 5 + 1 / 20 /\ 0 + (10 - 0) * (1 / 10) <= at2 (confQ b) 0 0 0 <= 10 - (10 - 0) * (1 / 10).
Proof.
  destruct damper_used_lemma as (m0 & m & m' & ms' & b & N & R & L & K & T & ST & Y & E & Q). exists m, m', ms', b. split; [exact Y|]. split; [exact E|]. split; [exact Q|].
  exact (C128_damper_kept true cyKinds [] wMbs [] gBi (cyPost 0) (cySolver 0) trySolver 1 hBox hL hU _ _ _ _ _ _ _ _ _ 1 1 m0 [LNr gData] m _ 0 _ _ _ _ b 0 _ 0 10 _ _ _ (cyHistory 0) cyMimic cyNonzero (cyKeep 0) trySolver_contract
    N eq_refl ltac:(intros j [<-|[]] _; reflexivity) eq_refl eq_refl (or_introl eq_refl) (or_introl eq_refl) (or_introl eq_refl) (or_introl eq_refl) R eq_refl L K eq_refl eq_refl eq_refl eq_refl eq_refl eq_refl eq_refl T ST ltac:(lra) Y E).
Qed.

(** C129: the motion constraint is updated, the solver solves, the caller computes the torques from the solution, any number of times. The torques kept by the constraint are those of
    inverse dynamics for the solution of the solver, and within the limits. *)
Theorem C129_torque_kept : forall nm mbs lssol kinds pre uni bi post s num c r tl tu tdl tdu dt sj m0 ops h m dy x m1 s1 m2 s2,
  history lssol kinds (pre ++ OpNrVars mbs uni bi :: post) = Ok s -> Forall wfMimic mbs -> nonzeroMimics mbs ->
  Forall (fun o => ~ resizesOrSwitches o) post -> contract num ->
  newMotion mbs r tl tu tdl tdu dt sj = Ok m0 -> pathsWf nm mbs ->
  Forall (opData (fun d => sizesOf mbs d /\ noSelf r d)) ops -> mhRun (fun d dy => invTorque nm mbs d dy r) mh0 ops = Some h -> hData h = Some (qData s) ->
  moRun nm mbs m0 ops = Ok m ->
  torqueCycles nm mbs lssol kinds num c (m, s) (m1, s1) -> torqueCycle nm mbs lssol kinds num c dy x (m1, s1) (m2, s2) ->
  exists mb, nth_error mbs r = Some mb /\ forall j, (j < nrDof mb)%nat ->
    storedTorque m2 j = invTorque nm mbs (qData s) dy r (vget x) j /\
    between (staticLimit mb sj (dQ dy r) (dAlpha dy r) tl NInf j) (storedTorque m2 j) (staticLimit mb sj (dQ dy r) (dAlpha dy r) tu PInf j).
Proof. exact torque_kept_lemma. Qed.
Print Assumptions C129_torque_kept.
(** The torques of two consecutive cycles differ by at most the rate limits times the period. *)
Theorem C129_torque_rate : forall nm mbs lssol kinds pre uni bi post s num c r tl tu tdl tdu dt sj m0 ops h m dy1 x1 dy2 x2 m1 s1 m2 s2 m3 s3,
  history lssol kinds (pre ++ OpNrVars mbs uni bi :: post) = Ok s -> Forall wfMimic mbs -> nonzeroMimics mbs ->
  Forall (fun o => ~ resizesOrSwitches o) post -> contract num ->
  newMotion mbs r tl tu tdl tdu dt sj = Ok m0 -> pathsWf nm mbs ->
  Forall (opData (fun d => sizesOf mbs d /\ noSelf r d)) ops -> mhRun (fun d dy => invTorque nm mbs d dy r) mh0 ops = Some h -> hData h = Some (qData s) ->
  moRun nm mbs m0 ops = Ok m ->
  torqueCycles nm mbs lssol kinds num c (m, s) (m1, s1) -> torqueCycle nm mbs lssol kinds num c dy1 x1 (m1, s1) (m2, s2) ->
  torqueCycle nm mbs lssol kinds num c dy2 x2 (m2, s2) (m3, s3) ->
  exists mb, nth_error mbs r = Some mb /\ forall j, (j < nrDof mb)%nat ->
    between (emulr (nth j (concat tdl) NInf) dt) (storedTorque m3 j - storedTorque m2 j) (emulr (nth j (concat tdu) PInf) dt).
Proof. exact torque_rate_lemma. Qed.
Print Assumptions C129_torque_rate.
(** Torque limits 0 and 1, rate limits -1 and 1 on the first joint: the torque goes from 0 to 1. *)
Example C129_used : exists x1 x2 m2 m3,
  torqueCycle wNames wMbs true cyKinds trySolver 1 gDyn x1 (gRun gMo [MONr gData], cySolver 1) (m2, cySolver 1) /\
  torqueCycle wNames wMbs true cyKinds trySolver 1 gDyn x2 (m2, cySolver 1) (m3, cySolver 1) /\
  storedTorque m2 0 = 0 /\ storedTorque m3 0 = 1 /\
  between (emulr (nth 0 (concat gDL) NInf) 1) (storedTorque m3 0 - storedTorque m2 0) (emulr (nth 0 (concat gDU) PInf) 1).
Proof.
  destruct torque_used_lemma as (x1 & x2 & m2 & m3 & N & R & OD & MH & D & C1 & C2 & T2 & T3). exists x1, x2, m2, m3. repeat (split; [assumption|]).
  destruct (C129_torque_rate wNames wMbs true cyKinds [] [] gBi (cyPost 1) (cySolver 1) trySolver 1 0 gTL gTU gDL gDU 1 [] gMo [MONr gData] _ _ gDyn x1 gDyn x2 _ _ m2 (cySolver 1) m3 (cySolver 1)
    (cyHistory 1) cyMimic cyNonzero (cyKeep 1) trySolver_contract N gPaths OD MH (f_equal Some (eq_sym D)) R (torqueCycles0 _ _ _ _ _ _ _) C1 C2) as (mb & M & K).
  injection M as <-. apply K. cbv. lia.
Qed.
