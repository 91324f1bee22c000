(** Properties of whole-body control cycles. *)
From Verif Require Import BalanceFacts TrySolver LimitsWitness CycleWitness BalanceWitness SolvedLoop ContactLoopWitness SolvedLoopWitness SetPointLoop.
Open Scope string_scope.
Open Scope list_scope.
Open Scope R_scope.

(** C139: a solver holds a contact constraint, a PositiveLambda constraint and a motion constraint among any others; it is called in a loop. In every
    cycle: the selected components of the acceleration (velocity, pose) condition of every contact are zero; the force at every
    contact point lies in the friction cone of that point; the accelerations found, the forces and the torques stored by the motion
    constraint satisfy the equation of motion of the robot, and the torques are within the limits. *)
Theorem C139_whole_body : forall nm mbs lssol kinds pre uni bi post s num ce cb cg mode sv ops0 cc0 o0 cc r tl tu tdl tdu dt sj m0 ops h m k dy x c1 m1 s1 c2 m2 s2,
  history lssol kinds (pre ++ OpNrVars mbs uni bi :: post) = Ok s -> Forall wfMimic mbs -> nonzeroMimics mbs ->
  Forall (fun o => ~ resizesOrSwitches o) post -> contract num -> pathsWf nm mbs ->
  (forall b, In b (sdAll (qData s)) -> wfBilateral b /\ rigid (bXcf b) /\ rigid (bXbb b)) ->
  modeOk mode -> ccRun newCC ops0 = Ok (cc0, o0) -> updateNrVars nm mbs (qData s) cc0 = Ok cc ->
  newMotion mbs r tl tu tdl tdu dt sj = Ok m0 ->
  Forall (opData (fun d => sizesOf mbs d /\ noSelf r d)) ops -> mhRun (fun d dy => invTorque nm mbs d dy r) mh0 ops = Some h -> hData h = Some (qData s) ->
  moRun nm mbs m0 ops = Ok m ->
  bodyCycles mbs lssol kinds num ce cb cg mode sv (cc, m, s) (c1, m1, s1) -> bodyCycle mbs lssol kinds num ce cb cg mode sv k dy x (c1, m1, s1) (c2, m2, s2) ->
  Forall (fun cd => contactHolds nm mbs (qData s) mode sv k cd (vget x)) (ccCont c2) /\
  (forall q b lam cones p cone n mu f, nth_error (sdAll (qData s)) q = Some b -> lambdaVecAt (qData s) x q = Ok lam -> cones = bR1Cones b \/ cones = bR2Cones b ->
     nth_error cones p = Some cone -> Forall (inCone n mu) (generators cone) -> nth_error (forces cones (vget lam) 0) p = Some f -> inCone n mu f) /\
  exists mb b, nth_error mbs r = Some mb /\ alphaDBegin (qData s) r = Ok b /\ forall j, (j < nrDof mb)%nat ->
    sumn (nrDof mb) (fun i => dH dy r j i * vget x (b + i)%nat) + dC dy r j =
      storedTorque m2 j + contactForces (heldBy r) nm dy mb r (sdAll (qData s)) (sdTotalAlphaD (qData s)) (vget x) j /\
    between (staticLimit mb sj (dQ dy r) (dAlpha dy r) tl NInf j) (storedTorque m2 j) (staticLimit mb sj (dQ dy r) (dAlpha dy r) tu PInf j).
Proof. exact body_lemma. Qed.
Print Assumptions C139_whole_body.
(** The hand pushes the box up with force 2; unit inertia and unit weight on both joints, accelerations 1 and 1 of the robot and 2 of the box: the joints need no torque. *)
Example C139_used : exists x m2,
  bodyCycle wMbs true baKinds trySolver 0 1 2 CAcc wSva baKin gDyn x (baC1, baMo, baSolver) (baC2, m2, baSolver) /\
  vget x 2 = 2 /\ relAcc wNames wMbs gData baKin baCd (vget x) 5 = 0 /\
  1 * vget x 0%nat + 0 * vget x 1%nat + 1 = storedTorque m2 0 + 2 /\ storedTorque m2 0 = 0.
Proof.
  destruct balance_used_lemma as (x & m2 & R & B & V). exists x, m2. split; [exact B|].
  destruct (C139_whole_body wNames wMbs true baKinds [] [] gBi baPost baSolver trySolver 0 1 2 CAcc wSva [] newCC [] baC1 0 gTL gTU gDL gDU 1 [] gMo [MONr gData]
    (mkMH (Some gData) None 0 (fun _ => 0)) baMo baKin gDyn x baC1 baMo baSolver baC2 m2 baSolver baHistory cyMimic cyNonzero baKeep trySolver_contract gPaths baRigid I eq_refl baNr gNew
    ltac:(constructor; [exact (conj gSizes gNoSelf)|constructor]) eq_refl eq_refl R (bodyCycles0 _ _ _ _ _ _ _ _ _ _) B) as (_ & _ & mb & b & M & E & K).
  injection M as <-. injection E as <-. destruct (K 0%nat ltac:(apply Nat.ltb_lt; reflexivity)) as (K1 & _).
  assert (S0 : storedTorque m2 0 = 0).
  { revert K1. change (qData baSolver) with gData. unfold contactForces, contactForce, sideForce, forceOn, genForce, listsum, power, wsum, forces, comb, sumn; simpl; v3unf; unfold power, sumn; simpl.
    rewrite !V by lia. unfold baT; simpl. lra. }
  rewrite baAcc, !V by lia. rewrite S0. unfold baT; cbn. repeat split; ring.
Qed.

(** C140: a solver whose registry holds the contact constraint is called at every instant, in whatever state the tasks and the other constraints are, and always succeeds:
    what it finds satisfies the rows of the constraint ([heldLoop], the hypothesis of C131 to C133). *)
Theorem C140_solved : forall lssol kinds num ce pre mbs uni bi d deps m sv c1 K x,
  Forall wfMimic mbs -> nonzeroMimics mbs -> contract num -> nrVarsData mbs uni bi = Ok (d, deps) ->
  solvedLoop lssol kinds num ce pre mbs uni bi m sv c1 K x -> heldLoop mbs d m sv c1 K x.
Proof. exact solved_held. Qed.
Print Assumptions C140_solved.
(** So two bodies in contact, at rest with respect to each other at the start, stay together while the robots move with the accelerations found by the solver. *)
Theorem C140_together : forall nm lssol kinds num ce pre mbs uni bi d deps ops0 c0 o0 c1 m sv K al x cd,
  Forall wfMimic mbs -> nonzeroMimics mbs -> contract num ->
  nrVarsData mbs uni bi = Ok (d, deps) -> pathsOk nm mbs -> (forall b, In b (sdAll d) -> rigid (bXcf b) /\ rigid (bXbb b)) ->
  modePos m -> isLog (rotationVelocity sv) ->
  ccRun newCC ops0 = Ok (c0, o0) -> updateNrVars nm mbs d c0 = Ok c1 ->
  solvedLoop lssol kinds num ce pre mbs uni bi m sv c1 K x -> In cd (ccCont c1) -> selectsAll (cdDof cd) ->
  (forall t, 0 <= t -> robotsMove nm mbs d K al x t) ->
  frame1 (K 0) cd = frame2 (K 0) cd -> (forall l, (l < 6)%nat -> relVel nm mbs (kinOf (K 0)) cd l = 0) ->
  forall s, 0 <= s -> frame1 (K s) cd = frame2 (K s) cd /\ forall l, (l < 6)%nat -> relVel nm mbs (kinOf (K s)) cd l = 0.
Proof. exact solved_together. Qed.
Print Assumptions C140_together.
(** Two screws that a solver accelerates together. *)
Example C140_used : forall s, 0 <= s -> frame1 (slK s) hzCd = frame2 (slK s) hzCd.
Proof.
  intros s Hs.
  destruct (C140_together hzNames true slKinds trySolver 0 [] hzMbs [] hzBi hzData hzDeps [] newCC [] hzC1 (CPos (2 / 9)) hzSva slK (hzAl (hzQ1 0 0 3)) slX hzCd slMimic slNonzero trySolver_contract
    hzData_eq hzPaths hzRigid ltac:(cbn; lra) rvLog_isLog eq_refl hzNr slLoop (or_introl eq_refl) hzAll
    (fun t _ => hz_robots 1 1 _ _ _ (hzQ_rate 0 0 3) (hzQ1_rate 0 0 3) t)) with (s := s) as (A & _).
  - unfold slK. rewrite hz_frame1, hz_frame2. unfold hzQ. f_equal; [f_equal; ring|f_equal; ring].
  - intros l Hl. unfold slK. rewrite hz_vel by exact Hl. unfold hzQ1. ring.
  - exact Hs.
  - exact A.
Qed.
