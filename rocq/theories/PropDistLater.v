(** RelativeDistTask without fixed directions, from the second update on: the rest of C109. *)
From Verif Require Import KinDistLater DistWitness.
From Coq Require Import Lra.
Open Scope list_scope.
Open Scope R_scope.

(** After an update at t0, the announced acceleration at t is off by what separates the rates of the two directions
    from their change since t0 divided by the time step. *)
Theorem C109_later : forall mb T K al ald t0 t fresh, rdFrom mb T -> rdMoves mb T K al ald t -> sized 3 mb fresh ->
  rdFixed T = false -> rdDt T <> 0 ->
  (forall s, norm (rdVecOf (rdA T) (K (rdBody (rdA T)) s)) <> 0 /\ norm (rdVecOf (rdB T) (K (rdBody (rdB T)) s)) <> 0) ->
  let dirA s := rdDir (rdA T) (K (rdBody (rdA T)) s) in let dirB s := rdDir (rdB T) (K (rdBody (rdB T)) s) in
  exists H nA' nB', yields 1 mb (fun s => rdOut mb (rdAfter mb T K al fresh t0) (fun b => K b s) (al s) (fresh s)) H /\
    dV dirA t nA' /\ dV dirB t nB' /\
    dlim (fun s => vget (hSpeed (H s)) 0) t (taskAcc (H t) 0 (ald t) 0 +
      (dot (rdVelA T K t) (vsub nA' (vsc (/ rdDt T) (vsub (dirA t) (dirA t0)))) - dot (rdVelBB T K t) (vsub nB' (vsc (/ rdDt T) (vsub (dirB t) (dirB t0)))))).
Proof. exact rd_later. Qed.
Print Assumptions C109_later.
(** So with an update one time step before, the error vanishes with the time step. *)
Theorem C109_vanishes : forall mb b1 p1 e1 q1 u1 b2 p2 e2 q2 u2 K al ald t fresh, let T dt := rdInit dt b1 p1 e1 q1 u1 b2 p2 e2 q2 u2 in
  rdMoves mb (T 1) K al ald t -> sized 3 mb fresh -> u1 = v0 \/ u2 = v0 ->
  (forall s, norm (rdVecOf (rdA (T 1)) (K b1 s)) <> 0 /\ norm (rdVecOf (rdB (T 1)) (K b2 s)) <> 0) ->
  forall eps, 0 < eps -> exists delta, 0 < delta /\ forall dt, 0 < dt < delta ->
    exists H e, yields 1 mb (fun s => rdOut mb (rdAfter mb (T dt) K al fresh (t - dt)) (fun b => K b s) (al s) (fresh s)) H /\
      dlim (fun s => vget (hSpeed (H s)) 0) t (taskAcc (H t) 0 (ald t) 0 + e) /\ Rabs e < eps.
Proof. exact rd_vanishes. Qed.
Print Assumptions C109_vanishes.
(** A body passing an environment point: its task, 1/200 off at most for small time steps. *)
Example C109_later_used : forall t, exists H nA' nB',
  yields 1 kMb (fun s => rdOut kMb (rdAfter kMb (dTask v0) dK (kAl 1 0) (kJm 3) (t - 1 / 200)) (fun b => dK b s) (kAl 1 0 s) (kJm 3 s)) H /\
  dV (fun s => rdDir (rdA (dTask v0)) (dK 0 s)) t nA' /\ dV (fun s => rdDir (rdB (dTask v0)) (dK 1 s)) t nB'.
Proof.
  intros t. assert (FX : rdFixed (dTask v0) = false). { simpl. replace (v3eqb v0 v0) with true; [reflexivity|]. symmetry. apply v3eqb_eq. reflexivity. }
  destruct (C109_later kMb (dTask v0) dK (kAl 1 0) (kAld 0) (t - 1 / 200) t (kJm 3) (dFrom v0) (dMoves v0 t) (kSized 3) FX (dDt v0) (dNonzero v0)) as (H & nA' & nB' & Y & DA & DB & _).
  exists H, nA', nB'. auto.
Qed.
Example C109_vanishes_used : forall t, exists delta, 0 < delta /\ forall dt, 0 < dt < delta ->
  exists H e, yields 1 kMb (fun s => rdOut kMb (rdAfter kMb (rdInit dt 0 v0 dEnv [0%nat] v0 1 v0 dEnv [] v0) dK (kAl 1 0) (kJm 3) (t - dt)) (fun b => dK b s) (kAl 1 0 s) (kJm 3 s)) H /\
    dlim (fun s => vget (hSpeed (H s)) 0) t (taskAcc (H t) 0 (kAld 0 t) 0 + e) /\ Rabs e < 1 / 200.
Proof.
  intros t. pose proof (dMoves v0 t) as [MA MB WA WB].
  exact (C109_vanishes kMb 0 v0 dEnv [0%nat] v0 1 v0 dEnv [] v0 dK (kAl 1 0) (kAld 0) t (kJm 3)
    (Build_rdMoves kMb (rdInit 1 0 v0 dEnv [0%nat] v0 1 v0 dEnv [] v0) dK (kAl 1 0) (kAld 0) t MA MB WA WB) (kSized 3) (or_introl eq_refl) (dNonzero v0) (1 / 200) ltac:(lra)).
Qed.

(** C153: the points and directions of both pairs are the last ones given for their body, whatever updates come between; the Jacobian is at the point. *)
Theorem C153_last_given : forall mb dt b1 p1 e1 q1 u1 b2 p2 e2 q2 u2 ops,
  let T := fold_left (rdStep mb) ops (rdInit dt b1 p1 e1 q1 u1 b2 p2 e2 q2 u2) in rdDt T = dt /\
  rdPairIs (rdA T) b1 (latest (rdGiveP b1) p1 ops) (latest (rdGiveE b1) e1 ops) q1 (latest (rdGiveU b1) u1 ops) /\
  rdPairIs (rdB T) b2 (latest (rdGiveP b2) p2 ops) (latest (rdGiveE b2) e2 ops) q2 (latest (rdGiveU b2) u2 ops).
Proof. exact rd_last. Qed.
Print Assumptions C153_last_given.
(** Two pairs of one body: the point given moves both, and the updates keep it. *)
Example C153_used : let T := fold_left (rdStep kMb) [RdRobotPoint 0 dUp; RdUpdate (fun b => dK b 0) (kAl 1 0 0) (kJm 3 0); RdEnvPoint 1 dUp; RdEnvPoint 0 xhat]
    (rdInit (1 / 200) 0 v0 dEnv [0%nat] v0 0 v0 dEnv [] v0) in
  rdP (rdA T) = dUp /\ rdP (rdB T) = dUp /\ rdJacP (rdB T) = dUp /\ rdEnv (rdB T) = xhat.
Proof.
  intros T. destruct (C153_last_given kMb (1 / 200) 0 v0 dEnv [0%nat] v0 0 v0 dEnv [] v0 [RdRobotPoint 0 dUp; RdUpdate (fun b => dK b 0) (kAl 1 0 0) (kJm 3 0); RdEnvPoint 1 dUp; RdEnvPoint 0 xhat])
    as (_ & (_ & A & _) & (_ & B & C & D & _)). split; [exact A|]. split; [exact B|]. split; [exact C|exact D].
Qed.
