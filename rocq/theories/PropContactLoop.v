(** Properties of the contact constraints along motions of the robots: C130-C133. *)
From Verif Require Import ContactFacts ContactLoop ContactLoopWitness KinWitness.
From Coq Require Import Lra Lia.
Open Scope string_scope.
Open Scope list_scope.
Open Scope R_scope.

(** C130: for every contact held after any history, the relative velocity of which the rows speak is the difference of the velocities with
    which the contact frame is carried by its two bodies, and its derivative is the relative acceleration of which the rows speak. *)
Theorem C130_rates : forall nm mbs uni bi d deps ops0 c0 o0 c1 ops c2 o1 K al x t cd,
  nrVarsData mbs uni bi = Ok (d, deps) -> pathsOk nm mbs -> (forall b, In b (sdAll d) -> rigid (bXcf b) /\ rigid (bXbb b)) ->
  ccRun newCC ops0 = Ok (c0, o0) -> updateNrVars nm mbs d c0 = Ok c1 -> Forall (sameProblem mbs) ops -> ccRun c1 ops = Ok (c2, o1) ->
  In cd (ccCont c2) -> robotsMove nm mbs d K al x t ->
  exists V1 V2, frameMoves (fun s => frame1 (K s) cd) t V1 /\ frameMoves (fun s => frame2 (K s) cd) t V2 /\
    (forall l, (l < 6)%nat -> relVel nm mbs (kinOf (K t)) cd l = e6 V1 l - e6 V2 l) /\
    forall l, (l < 6)%nat -> dlim (fun s => relVel nm mbs (kinOf (K s)) cd l) t (relAcc nm mbs d (kinOf (K t)) cd (x t) l).
Proof. exact rates_lemma. Qed.
Print Assumptions C130_rates.
(** Two screws turning and sliding at different speeds. *)
Example C130_used : exists V1 V2, frameMoves (fun s => frame1 (hzK 1 1 (hzQ 1 0 2) (hzQ1 1 0 2) s) hzCd) 0 V1 /\ frameMoves (fun s => frame2 (hzK 1 1 (hzQ 1 0 2) (hzQ1 1 0 2) s) hzCd) 0 V2 /\
  e6 V1 2 - e6 V2 2 = 2.
Proof.
  destruct (C130_rates hzNames hzMbs [] hzBi hzData hzDeps [] newCC [] hzC1 [] hzC1 [] (hzK 1 1 (hzQ 1 0 2) (hzQ1 1 0 2)) (hzAl (hzQ1 1 0 2)) (hzX (hzQ2 1 0 2)) 0 hzCd
    hzData_eq hzPaths hzRigid eq_refl hzNr (Forall_nil _) eq_refl (or_introl eq_refl) (hz_robots 1 1 _ _ _ (hzQ_rate 1 0 2) (hzQ1_rate 1 0 2) 0)) as (V1 & V2 & A & B & C & _).
  exists V1, V2. split; [exact A|]. split; [exact B|]. rewrite <- (C 2%nat ltac:(lia)), hz_vel by lia. unfold hzQ1, hzD. rewrite !Rmult_0_r, exp_0. ring.
Qed.

(** C131: when the decision variables satisfy the rows of ContactAccConstr at every instant, the relative velocity along every selected row is
    constant; with ContactSpeedConstr it decays as exp(- s / dt). The contact either selects every direction or its second robot is fixed. *)
Theorem C131_constant : forall nm mbs uni bi d deps ops0 c0 o0 c1 sv K al x cd r,
  nrVarsData mbs uni bi = Ok (d, deps) -> pathsOk nm mbs -> (forall b, In b (sdAll d) -> rigid (bXcf b) /\ rigid (bXbb b)) ->
  ccRun newCC ops0 = Ok (c0, o0) -> updateNrVars nm mbs d c0 = Ok c1 -> heldLoop mbs d CAcc sv c1 K x -> In cd (ccCont c1) -> refStays mbs cd ->
  (forall t, 0 <= t -> robotsMove nm mbs d K al x t) -> (r < mrows (cdDof cd))%nat ->
  forall s, 0 <= s -> rowVel nm mbs (kinOf (K s)) cd r = rowVel nm mbs (kinOf (K 0)) cd r.
Proof. exact keep_lemma. Qed.
Print Assumptions C131_constant.
Theorem C131_decay : forall nm mbs uni bi d deps ops0 c0 o0 c1 dt sv K al x cd r,
  nrVarsData mbs uni bi = Ok (d, deps) -> pathsOk nm mbs -> (forall b, In b (sdAll d) -> rigid (bXcf b) /\ rigid (bXbb b)) -> dt <> 0 ->
  ccRun newCC ops0 = Ok (c0, o0) -> updateNrVars nm mbs d c0 = Ok c1 -> heldLoop mbs d (CSpeed dt) sv c1 K x -> In cd (ccCont c1) -> refStays mbs cd ->
  (forall t, 0 <= t -> robotsMove nm mbs d K al x t) -> (r < mrows (cdDof cd))%nat ->
  forall s, 0 <= s -> rowVel nm mbs (kinOf (K s)) cd r = rowVel nm mbs (kinOf (K 0)) cd r * exp (- s / dt).
Proof. exact decay_lemma. Qed.
Print Assumptions C131_decay.
(** Relative speed -2 kept; relative speed 2 that decays. *)
Example C131_used : (forall s, 0 <= s -> rowVel hzNames hzMbs (kinOf (hzK 1 1 (hzQ 0 2 1) (hzQ1 0 2 1) s)) hzCd 2 = rowVel hzNames hzMbs (kinOf (hzK 1 1 (hzQ 0 2 1) (hzQ1 0 2 1) 0)) hzCd 2) /\
  relVel hzNames hzMbs (kinOf (hzK 1 1 (hzQ 0 2 1) (hzQ1 0 2 1) 0)) hzCd 2 = - 2 /\
  (forall s, 0 <= s -> rowVel hzNames hzMbs (kinOf (hzK 1 1 (hzQ 1 0 2) (hzQ1 1 0 2) s)) hzCd 5 = rowVel hzNames hzMbs (kinOf (hzK 1 1 (hzQ 1 0 2) (hzQ1 1 0 2) 0)) hzCd 5 * exp (- s / (1 / 2))) /\
  relVel hzNames hzMbs (kinOf (hzK 1 1 (hzQ 1 0 2) (hzQ1 1 0 2) 0)) hzCd 5 = 2.
Proof.
  split; [|split; [|split]].
  - exact (C131_constant hzNames hzMbs [] hzBi hzData hzDeps [] newCC [] hzC1 hzSva _ (hzAl (hzQ1 0 2 1)) _ hzCd 2%nat hzData_eq hzPaths hzRigid eq_refl hzNr hz_keep (or_introl eq_refl) (selects_stays _ _ hzAll)
      (fun t _ => hz_robots 1 1 _ _ _ (hzQ_rate 0 2 1) (hzQ1_rate 0 2 1) t) ltac:(cbn; lia)).
  - rewrite hz_vel by lia. unfold hzQ1, hzD. ring.
  - exact (C131_decay hzNames hzMbs [] hzBi hzData hzDeps [] newCC [] hzC1 (1 / 2) hzSva _ (hzAl (hzQ1 1 0 2)) _ hzCd 5%nat hzData_eq hzPaths hzRigid ltac:(lra) eq_refl hzNr hz_decay (or_introl eq_refl) (selects_stays _ _ hzAll)
      (fun t _ => hz_robots 1 1 _ _ _ (hzQ_rate 1 0 2) (hzQ1_rate 1 0 2) t) ltac:(cbn; lia)).
  - rewrite hz_vel by lia. unfold hzQ1, hzD. rewrite !Rmult_0_r, exp_0. ring.
Qed.

(** C132: with any of the three contact constraints, two bodies whose contact frames coincide and move together at the start stay together for ever. *)
Theorem C132_together : forall nm mbs uni bi d deps ops0 c0 o0 c1 m sv K al x cd,
  nrVarsData mbs uni bi = Ok (d, deps) -> pathsOk nm mbs -> (forall b, In b (sdAll d) -> rigid (bXcf b) /\ rigid (bXbb b)) ->
  modePos m -> isLog (rotationVelocity sv) ->
  ccRun newCC ops0 = Ok (c0, o0) -> updateNrVars nm mbs d c0 = Ok c1 -> heldLoop mbs d m sv c1 K x -> In cd (ccCont c1) -> selectsAll (cdDof cd) ->
  (forall t, 0 <= t -> robotsMove nm mbs d K al x t) ->
  frame1 (K 0) cd = frame2 (K 0) cd -> (forall l, (l < 6)%nat -> relVel nm mbs (kinOf (K 0)) cd l = 0) ->
  forall s, 0 <= s -> frame1 (K s) cd = frame2 (K s) cd /\ forall l, (l < 6)%nat -> relVel nm mbs (kinOf (K s)) cd l = 0.
Proof. exact together_lemma. Qed.
Print Assumptions C132_together.
Example C132_used : forall s, 0 <= s -> frame1 (hzK 1 1 (hzQ 0 0 3) (hzQ1 0 0 3) s) hzCd = frame2 (hzK 1 1 (hzQ 0 0 3) (hzQ1 0 0 3) s) hzCd.
Proof.
  intros s Hs. assert (Z : Rabs 0 <= 1) by (rewrite Rabs_R0; lra).
  destruct (C132_together hzNames hzMbs [] hzBi hzData hzDeps [] newCC [] hzC1 (CPos (2 / 9)) hzSva _ (hzAl (hzQ1 0 0 3)) _ hzCd hzData_eq hzPaths hzRigid ltac:(cbn; lra) rvLog_isLog eq_refl hzNr (hz_spring 0 Z) (or_introl eq_refl) hzAll
    (fun t _ => hz_robots 1 1 _ _ _ (hzQ_rate 0 0 3) (hzQ1_rate 0 0 3) t)) with (s := s) as (A & _).
  - rewrite hz_frame1, hz_frame2. unfold hzQ. f_equal; [f_equal; ring|f_equal; ring].
  - intros l Hl. rewrite hz_vel by exact Hl. unfold hzQ1. ring.
  - exact Hs.
  - exact A.
Qed.

(** C133: with ContactPosConstr, the energy |w|^2 + angle^2 / dt of the relative rotation never grows and two frames that start less than half
    a turn apart, with not enough relative speed to get there, never reach half a turn; when the orientations agree and the relative rotation has
    stopped, they stay so and the energy |v|^2 + |error|^2 / dt of the relative translation never grows. *)
Theorem C133_rotation : forall nm mbs uni bi d deps ops0 c0 o0 c1 dt sv K al x cd,
  nrVarsData mbs uni bi = Ok (d, deps) -> pathsOk nm mbs -> (forall b, In b (sdAll d) -> rigid (bXcf b) /\ rigid (bXbb b)) ->
  0 < dt -> isLog (rotationVelocity sv) ->
  ccRun newCC ops0 = Ok (c0, o0) -> updateNrVars nm mbs d c0 = Ok c1 -> heldLoop mbs d (CPos dt) sv c1 K x -> In cd (ccCont c1) -> selectsAll (cdDof cd) ->
  (forall t, 0 <= t -> robotsMove nm mbs d K al x t) ->
  underHalfTurn (ptE (frame1 (K 0) cd)) (ptE (frame2 (K 0) cd)) -> dt * contactEnergy nm mbs sv dt (kinOf (K 0)) cd 0 < PI * PI ->
  (forall s, 0 <= s -> underHalfTurn (ptE (frame1 (K s) cd)) (ptE (frame2 (K s) cd))) /\
  forall s u, 0 <= s <= u -> contactEnergy nm mbs sv dt (kinOf (K u)) cd 0 <= contactEnergy nm mbs sv dt (kinOf (K s)) cd 0.
Proof. exact turn_lemma. Qed.
Print Assumptions C133_rotation.
Theorem C133_translation : forall nm mbs uni bi d deps ops0 c0 o0 c1 dt sv K al x cd,
  nrVarsData mbs uni bi = Ok (d, deps) -> pathsOk nm mbs -> (forall b, In b (sdAll d) -> rigid (bXcf b) /\ rigid (bXbb b)) ->
  0 < dt -> isLog (rotationVelocity sv) ->
  ccRun newCC ops0 = Ok (c0, o0) -> updateNrVars nm mbs d c0 = Ok c1 -> heldLoop mbs d (CPos dt) sv c1 K x -> In cd (ccCont c1) -> selectsAll (cdDof cd) ->
  (forall t, 0 <= t -> robotsMove nm mbs d K al x t) ->
  ptE (frame1 (K 0) cd) = ptE (frame2 (K 0) cd) -> (forall l, (l < 3)%nat -> relVel nm mbs (kinOf (K 0)) cd l = 0) ->
  (forall s, 0 <= s -> ptE (frame1 (K s) cd) = ptE (frame2 (K s) cd) /\ forall l, (l < 3)%nat -> relVel nm mbs (kinOf (K s)) cd l = 0) /\
  forall s u, 0 <= s <= u -> contactEnergy nm mbs sv dt (kinOf (K u)) cd 3 <= contactEnergy nm mbs sv dt (kinOf (K s)) cd 3.
Proof. exact aligned_lemma. Qed.
Print Assumptions C133_translation.
(** One radian apart and closing at three radians per second; five metres apart. *)
Example C133_used : (forall s u, 0 <= s <= u -> contactEnergy hzNames hzMbs hzSva (2/9) (kinOf (hzK 1 1 (hzQ 1 0 3) (hzQ1 1 0 3) u)) hzCd 0 <= contactEnergy hzNames hzMbs hzSva (2/9) (kinOf (hzK 1 1 (hzQ 1 0 3) (hzQ1 1 0 3) s)) hzCd 0) /\
  contactEnergy hzNames hzMbs hzSva (2/9) (kinOf (hzK 1 1 (hzQ 1 0 3) (hzQ1 1 0 3) 0)) hzCd 0 = 9 + 9 / 2.
Proof.
  assert (O : Rabs 1 <= 1) by (rewrite Rabs_R1; lra). pose proof (hz_under 1 0 O (Rle_refl 0)) as UH.
  assert (E : contactEnergy hzNames hzMbs hzSva (2/9) (kinOf (hzK 1 1 (hzQ 1 0 3) (hzQ1 1 0 3) 0)) hzCd 0 = 9 + 9 / 2).
  { unfold contactEnergy, sq3. rewrite !hz_vel, !hz_err by (try exact UH; cbn; lia). unfold hzD, hzQ, hzQ1; cbn. rewrite !Rmult_0_r, exp_0. field. }
  split; [|exact E].
  apply (C133_rotation hzNames hzMbs [] hzBi hzData hzDeps [] newCC [] hzC1 (2 / 9) hzSva _ (hzAl (hzQ1 1 0 3)) _ hzCd hzData_eq hzPaths hzRigid ltac:(lra) rvLog_isLog eq_refl hzNr (hz_spring 1 O) (or_introl eq_refl) hzAll
    (fun t _ => hz_robots 1 1 _ _ _ (hzQ_rate 1 0 3) (hzQ1_rate 1 0 3) t)).
  - apply hz_half. exact UH.
  - rewrite E. pose proof PI2_1. nra.
Qed.
Example C133_used_slide : forall s u, 0 <= s <= u -> contactEnergy hzNames hzMbs hzSva (2/9) (kinOf (hzK 0 1 (hzQ 5 0 3) (hzQ1 5 0 3) u)) hzCd 3 <= contactEnergy hzNames hzMbs hzSva (2/9) (kinOf (hzK 0 1 (hzQ 5 0 3) (hzQ1 5 0 3) s)) hzCd 3.
Proof.
  apply (C133_translation hzNames hzMbs [] hzBi hzData hzDeps [] newCC [] hzC1 (2 / 9) hzSva _ (hzAl (hzQ1 5 0 3)) _ hzCd hzData_eq hzPaths hzRigid ltac:(lra) rvLog_isLog eq_refl hzNr hz_slide (or_introl eq_refl) hzAll
    (fun t _ => hz_robots 0 1 _ _ _ (hzQ_rate 5 0 3) (hzQ1_rate 5 0 3) t)).
  - rewrite hz_frame1, hz_frame2. cbn [ptE]. rewrite !Rmult_0_l. reflexivity.
  - intros l Hl. rewrite hz_vel by lia. do 3 (destruct l as [|l]; [unfold hzD; ring|]). lia.
Qed.
