(** Several tasks that pull the robot in different directions. *)
From Verif Require Import EnergySpec EnergyFacts EnergyWitness KinTaskFacts SetPointWitness.
From Coq Require Import Lra Lia.
Open Scope string_scope.
Open Scope list_scope.
Open Scope R_scope.

(** C146: any number of SetPointTasks, of TrajectoryTasks and PostureTasks without references, in conflict or not, are given to the solver at every instant,
    with constraints that leave room along the motion, and the robot moves with the accelerations found: the weighted sum of the energies of the tasks (half the
    square of the speed plus half the stiffness times the square of the error, coordinate by coordinate), plus 1e-4/2 times the squares of the velocities
    of the variables that no task weighs, changes at exactly minus the damping times the squares of the speeds. *)
Theorem C146_energy : forall mbs uni bi n reg gs x p, Forall wfMimic mbs -> nonzeroMimics mbs -> drivesLoop mbs uni bi n reg gs x p ->
  Forall (fun g => moving g x p) gs ->
  (forall i, (i < n)%nat -> reg i = true -> (forall s, p s i = 0) \/ (forall s, 0 <= s -> dlim (fun s => p s i) s (x s i))) ->
  forall s, 0 <= s -> dlim (totalEnergy n reg gs p) s (- totalLost gs s).
Proof. exact energy_rate. Qed.
Print Assumptions C146_energy.
(** With weights and gains that are not negative it never increases, and it bounds every error for ever: no choice of tasks, targets and weights makes the
    robot run away. *)
Theorem C146_decreases : forall mbs uni bi n reg gs x p, Forall wfMimic mbs -> nonzeroMimics mbs -> drivesLoop mbs uni bi n reg gs x p ->
  Forall (fun g => moving g x p) gs ->
  (forall i, (i < n)%nat -> reg i = true -> (forall s, p s i = 0) \/ (forall s, 0 <= s -> dlim (fun s => p s i) s (x s i))) ->
  Forall (fun g => 0 <= dvWeight (snd g) /\ forall i, (i < fst g)%nat -> 0 <= dvDim (snd g) i /\ 0 <= dvK (snd g) i /\ 0 <= dvD (snd g) i) gs ->
  forall s u, 0 <= s <= u -> totalEnergy n reg gs p u <= totalEnergy n reg gs p s.
Proof. exact energy_decreases. Qed.
Print Assumptions C146_decreases.
Theorem C146_bounded : forall mbs uni bi n reg gs x p, Forall wfMimic mbs -> nonzeroMimics mbs -> drivesLoop mbs uni bi n reg gs x p ->
  Forall (fun g => moving g x p) gs ->
  (forall i, (i < n)%nat -> reg i = true -> (forall s, p s i = 0) \/ (forall s, 0 <= s -> dlim (fun s => p s i) s (x s i))) ->
  Forall (fun g => 0 <= dvWeight (snd g) /\ forall i, (i < fst g)%nat -> 0 <= dvDim (snd g) i /\ 0 <= dvK (snd g) i /\ 0 <= dvD (snd g) i) gs ->
  forall g i s, In g gs -> (i < fst g)%nat -> 0 <= s ->
  dvWeight (snd g) * dvDim (snd g) i * dvK (snd g) i * dvErr (snd g) s i ^ 2 / 2 <= totalEnergy n reg gs p 0.
Proof. exact error_bounded. Qed.
Print Assumptions C146_bounded.
(** The constraints leave room along the motion when every row and every bound is constant along it (a contact that holds) or not reached (a limit). *)
Theorem C146_room : forall mbs d n g x p, feasible n g x -> mimicked mbs d x -> mimicked mbs d p -> Forall wfBound (rgBound g) -> calm n g x p -> room mbs d n g x p.
Proof. exact calm_room. Qed.
Print Assumptions C146_room.
(** PositionTask and VectorOrientationTask of a moving robot are tasks of this kind: their outputs satisfy [moving]. *)
Theorem C146_position : forall mb path pos bp ops K jm w W k d b x p, wfPath mb path -> sized 3 mb jm -> latest posGivePoint bp ops = bp ->
  (forall s, 0 <= s -> movesAt mb path K (fun s j => p s (b + j)%nat) (fun s j => x s (b + j)%nat) s) ->
  exists H, yields 3 mb (fun s => posUpdate mb (fold_left posStep ops (posInit pos bp path)) (K s) (jm s)) H /\
    (forall s i, (i < 3)%nat -> vget (hErr (H s)) i = e3 (latest posGivePos pos ops) i - e3 (worldPoint bp (K s)) i) /\
    moving (3%nat, mkDrive w W k d b H) x p.
Proof. exact position_moving. Qed.
Print Assumptions C146_position.
Theorem C146_direction : forall mb path v target K jm w W k d b x p, wfPath mb path -> sized 3 mb jm ->
  (forall s, 0 <= s -> movesAt mb path K (fun s j => p s (b + j)%nat) (fun s j => x s (b + j)%nat) s) ->
  exists H, yields 3 mb (fun s => vecOriUpdate mb path v target (K s) (jm s)) H /\
    (forall s i, (i < 3)%nat -> vget (hErr (H s)) i = e3 target i - e3 (m3mulv (m3tr (ptE (bkPos (K s)))) v) i) /\
    moving (3%nat, mkDrive w W k d b H) x p.
Proof. exact vector_moving. Qed.
Print Assumptions C146_direction.
(** A slider drawn to 3 and to -1 by two tasks of the same weight starts at 0 and goes to 1: neither error vanishes, the energy is 5 at first, and every error
    stays below the bound it gives. *)
Example C146_used : exists H H', drivesLoop [kMb] [] [] 1 (fun _ => false) [slideDrive H; slideDrive H'] cX (fun s _ => cV s) /\
  (forall s, vget (hErr (H s)) 0 = 2 + cE s /\ vget (hErr (H' s)) 0 = - 2 + cE s) /\
  (forall s, 0 <= s -> totalEnergy 1 (fun _ => false) [slideDrive H; slideDrive H'] (fun s _ => cV s) s <= 5) /\
  (forall s, 0 <= s -> (2 + cE s) ^ 2 <= 10).
Proof.
  destruct conflict_lemma as (H & H' & DL & Mv & EH & E0). exists H, H'. split; [exact DL|]. split; [exact EH|].
  assert (Wm : Forall wfMimic [kMb]) by exact cmMimic. assert (NZ : nonzeroMimics [kMb]) by exact cmNonzero.
  assert (Rg : forall i, (i < 1)%nat -> false = true -> (forall s : R, cV s = 0) \/ (forall s, 0 <= s -> dlim (fun s => cV s) s (cX s i))) by (intros i _ E; discriminate E).
  assert (Pos : Forall (fun g : nat * drive => 0 <= dvWeight (snd g) /\ forall i, (i < fst g)%nat -> 0 <= dvDim (snd g) i /\ 0 <= dvK (snd g) i /\ 0 <= dvD (snd g) i) [slideDrive H; slideDrive H']).
  { assert (Q : 0 <= 2 * sqrt 1) by (rewrite sqrt_1; lra). constructor; [|constructor; [|constructor]]; cbn [snd fst slideDrive dvWeight dvDim dvK dvD]; (split; [lra|intros i _; cbn; repeat split; lra]). }
  split; intros s Hs.
  - rewrite <- E0. apply (C146_decreases _ _ _ _ _ _ _ _ Wm NZ DL Mv Rg Pos). lra.
  - pose proof (C146_bounded _ _ _ _ _ _ _ _ Wm NZ DL Mv Rg Pos (slideDrive H) 0%nat s (or_introl eq_refl) ltac:(cbn; lia) Hs) as B. rewrite E0 in B.
    cbn [snd fst slideDrive dvWeight dvDim dvK] in B. unfold dvErr in B. cbn [dvOut] in B. rewrite (proj1 (EH s)) in B. cbn in B. cbn. lra.
Qed.
