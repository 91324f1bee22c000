(** RelativeDistTask without fixed directions, from the second update on. *)
From Verif Require Export KinMultiModel KinSpec KinFacts KinTaskFacts JacProofs KinDistFacts SetPointSpec.
From Coq Require Import Lra Lia.
Open Scope list_scope.
Open Scope R_scope.
Local Arguments sumn : simpl never.

(** The task after an update at time t0. *)
Definition rdAfter (mb : multibody) (T : rdTask) (K : nat -> R -> bodyKin) (al : R -> nat -> R) (fresh : R -> mat) (t0 : R) : rdTask :=
  rdStep mb T (RdUpdate (fun b => K b t0) (al t0) (fresh t0)).
Lemma rd_after mb T K al fresh t0 : wfPath mb (rdPath (rdA T)) -> wfPath mb (rdPath (rdB T)) -> sized 3 mb fresh -> rdFixed T = false -> rdDt T <> 0 ->
  norm (rdVecOf (rdA T) (K (rdBody (rdA T)) t0)) <> 0 -> norm (rdVecOf (rdB T) (K (rdBody (rdB T)) t0)) <> 0 ->
  rdAfter mb T K al fresh t0 = mkRDT (rdDt T) (rdFixed T) (rdSetOffn (rdDir (rdA T) (K (rdBody (rdA T)) t0)) (rdA T)) (rdSetOffn (rdDir (rdB T) (K (rdBody (rdB T)) t0)) (rdB T)).
Proof.
  intros WA WB Sz FX DT NA NB. unfold rdAfter, rdStep, rdUpdate. rewrite FX.
  destruct (rd_free mb (rdDt T) (rdA T) (K (rdBody (rdA T)) t0) (al t0) (fresh t0) WA (proj1 (Sz t0)) (proj2 (Sz t0)) DT NA) as (r1 & s1 & a1 & E1 & _).
  destruct (rd_free mb (rdDt T) (rdB T) (K (rdBody (rdB T)) t0) (al t0) (fresh t0) WB (proj1 (Sz t0)) (proj2 (Sz t0)) DT NB) as (r2 & s2 & a2 & E2 & _).
  rewrite E1, E2. reflexivity.
Qed.
Lemma rdFrom_step mb T o : rdFrom mb T -> rdFrom mb (rdStep mb T o).
Proof.
  intros (dt & b1 & p1 & e1 & q1 & u1 & b2 & p2 & e2 & q2 & u2 & ops & E). exists dt, b1, p1, e1, q1, u1, b2, p2, e2, q2, u2, (ops ++ [o]).
  rewrite fold_left_app, <- E. reflexivity.
Qed.
(** The rate of the direction is replaced by the difference with that of the last update, divided by the time step. *)
Theorem rd_later mb T K al ald t0 t fresh : rdFrom mb T -> rdMoves mb T K al ald t -> sized 3 mb fresh ->
  rdFixed T = false -> rdDt T <> 0 ->
  (forall s, norm (rdVecOf (rdA T) (K (rdBody (rdA T)) s)) <> 0 /\ norm (rdVecOf (rdB T) (K (rdBody (rdB T)) s)) <> 0) ->
  let dirA s := rdDir (rdA T) (K (rdBody (rdA T)) s) in let dirB s := rdDir (rdB T) (K (rdBody (rdB T)) s) in
  exists H nA' nB', yields 1 mb (fun s => rdOut mb (rdAfter mb T K al fresh t0) (fun b => K b s) (al s) (fresh s)) H /\
    dV dirA t nA' /\ dV dirB t nB' /\
    dlim (fun s => vget (hSpeed (H s)) 0) t (taskAcc (H t) 0 (ald t) 0 +
      (dot (rdVelA T K t) (vsub nA' (vsc (/ rdDt T) (vsub (dirA t) (dirA t0)))) - dot (rdVelBB T K t) (vsub nB' (vsc (/ rdDt T) (vsub (dirB t) (dirB t0)))))).
Proof.
  intros FR MV Sz FX DT NZ dirA dirB. destruct (rd_point _ _ FR) as (PA & PB). pose proof MV as [MA MB WA WB].
  pose proof (rdFrom_step mb T (RdUpdate (fun b => K b t0) (al t0) (fresh t0)) FR) as FR'. fold (rdAfter mb T K al fresh t0) in FR'.
  destruct (NZ t0) as (N1 & N2). rewrite (rd_after mb T K al fresh t0 WA WB Sz FX DT N1 N2) in *.
  destruct (dir_rate _ t _ (proj1 (NZ t)) (rdVec_rate _ _ _ _ _ _ PA MA)) as (nA' & DA).
  destruct (dir_rate _ t _ (proj2 (NZ t)) (rdVec_rate _ _ _ _ _ _ PB MB)) as (nB' & DB).
  match goal with FR' : rdFrom mb ?X |- _ => destruct (rd_free_tracks mb X K al ald t fresh FR' (Build_rdMoves mb X K al ald t MA MB WA WB) Sz FX DT NZ) as (H & Y & _ & _ & _ & HR) end.
  exists H, nA', nB'. split; [exact Y|]. split; [exact DA|]. split; [exact DB|]. exact (HR nA' nB' DA DB).
Qed.
(** With updates at each time step the error of the announced acceleration vanishes with the time step. *)
Lemma dV_backward f t a v eps : dV f t a -> 0 < eps -> exists delta, 0 < delta /\ forall dt, 0 < dt < delta ->
  Rabs (dot v (vsub a (vsc (/ dt) (vsub (f t) (f (t - dt)))))) < eps.
Proof.
  intros D E. assert (G : dlim (fun s => dot v (f s)) t (dot v a)).
  { eapply dl_eq; [apply dl_dot; [apply dV_const|exact D]|]. unfold dot, v0; simpl. ring. }
  destruct (G eps E) as (de & Q). exists (pos de). split; [apply cond_pos|]. intros dt (P1 & P2).
  specialize (Q (- dt)). rewrite <- Rabs_Ropp.
  replace (- dot v (vsub a (vsc (/ dt) (vsub (f t) (f (t - dt)))))) with ((dot v (f (t + - dt)) - dot v (f t)) / - dt - dot v a).
  - apply Q; [lra|]. rewrite Rabs_Ropp, Rabs_pos_eq; lra.
  - replace (t + - dt) with (t - dt) by ring. generalize (f (t - dt)) (f t). intros x y. unfold dot, vsub, vsc; simpl. field. lra.
Qed.
Theorem rd_vanishes mb b1 p1 e1 q1 u1 b2 p2 e2 q2 u2 K al ald t fresh : let T dt := rdInit dt b1 p1 e1 q1 u1 b2 p2 e2 q2 u2 in
  rdMoves mb (T 1) K al ald t -> sized 3 mb fresh -> u1 = v0 \/ u2 = v0 ->
  (forall s, norm (rdVecOf (rdA (T 1)) (K b1 s)) <> 0 /\ norm (rdVecOf (rdB (T 1)) (K b2 s)) <> 0) ->
  forall eps, 0 < eps -> exists delta, 0 < delta /\ forall dt, 0 < dt < delta ->
    exists H e, yields 1 mb (fun s => rdOut mb (rdAfter mb (T dt) K al fresh (t - dt)) (fun b => K b s) (al s) (fresh s)) H /\
      dlim (fun s => vget (hSpeed (H s)) 0) t (taskAcc (H t) 0 (ald t) 0 + e) /\ Rabs e < eps.
Proof.
  intros T MV Sz U NZ eps E. pose proof MV as [MA MB WA WB].
  assert (FR : forall dt, rdFrom mb (T dt)) by (intros dt; exists dt, b1, p1, e1, q1, u1, b2, p2, e2, q2, u2, []; reflexivity).
  assert (FX : forall dt, rdFixed (T dt) = false). { intros dt. apply not_true_iff_false. pose proof (rd_mode mb dt b1 p1 e1 q1 u1 b2 p2 e2 q2 u2 []) as Q. simpl in Q. unfold T. simpl. rewrite Q. tauto. }
  destruct (rd_point _ _ (FR 1)) as (PA & PB).
  destruct (dir_rate _ t _ (proj1 (NZ t)) (rdVec_rate _ _ _ _ _ _ PA MA)) as (nA' & DA).
  destruct (dir_rate _ t _ (proj2 (NZ t)) (rdVec_rate _ _ _ _ _ _ PB MB)) as (nB' & DB).
  destruct (dV_backward _ t nA' (rdVelA (T 1) K t) (eps / 2) DA ltac:(lra)) as (d1 & D1 & B1).
  destruct (dV_backward _ t nB' (rdVelBB (T 1) K t) (eps / 2) DB ltac:(lra)) as (d2 & D2 & B2).
  exists (Rmin d1 d2). split; [apply Rmin_pos; assumption|]. intros dt (P1 & P2).
  pose proof (Rmin_l d1 d2). pose proof (Rmin_r d1 d2).
  assert (DT : rdDt (T dt) <> 0) by (simpl; lra).
  destruct (rd_later mb (T dt) K al ald (t - dt) t fresh (FR dt) (Build_rdMoves mb (T dt) K al ald t MA MB WA WB) Sz (FX dt) DT NZ) as (H' & nA & nB & Y & DA2 & DB2 & L).
  assert (EA : nA = nA') by exact (dV_unique _ _ _ _ DA2 DA). assert (EB : nB = nB') by exact (dV_unique _ _ _ _ DB2 DB). subst nA nB.
  eexists H', _. split; [exact Y|]. split; [exact L|].
  specialize (B1 dt ltac:(lra)). specialize (B2 dt ltac:(lra)).
  eapply Rle_lt_trans; [unfold Rminus; apply Rabs_triang|]. rewrite Rabs_Ropp.
  replace eps with (eps / 2 + eps / 2) by field. apply Rplus_lt_compat; assumption.
Qed.

(** *** Setters: every pair of the body gets the point or the direction *)
Definition rdGiveP (b : nat) (o : rdOp) : option V3 := match o with RdRobotPoint b' p => if (b =? b')%nat then Some p else None | _ => None end.
Definition rdGiveE (b : nat) (o : rdOp) : option V3 := match o with RdEnvPoint b' p => if (b =? b')%nat then Some p else None | _ => None end.
Definition rdGiveU (b : nat) (o : rdOp) : option V3 := match o with RdVector b' u => if (b =? b')%nat then Some u else None | _ => None end.
(** A pair that is the body b with these points, direction and path. *)
Definition rdPairIs (i : rdInfo) (b : nat) (p e : V3) (q : list nat) (u : V3) : Prop :=
  rdBody i = b /\ rdP i = p /\ rdJacP i = p /\ rdEnv i = e /\ rdPath i = q /\ rdU i = u.
Definition give {A} (f : option A) (a : A) : A := match f with Some a' => a' | None => a end.
Lemma rd_last_step mb T o b1 p1 e1 q1 u1 b2 p2 e2 q2 u2 : rdPairIs (rdA T) b1 p1 e1 q1 u1 -> rdPairIs (rdB T) b2 p2 e2 q2 u2 ->
  rdDt (rdStep mb T o) = rdDt T /\
  rdPairIs (rdA (rdStep mb T o)) b1 (give (rdGiveP b1 o) p1) (give (rdGiveE b1 o) e1) q1 (give (rdGiveU b1 o) u1) /\
  rdPairIs (rdB (rdStep mb T o)) b2 (give (rdGiveP b2 o) p2) (give (rdGiveE b2 o) e2) q2 (give (rdGiveU b2 o) u2).
Proof.
  intros (<- & <- & E1 & <- & <- & <-) (<- & <- & E2 & <- & <- & <-). unfold rdPairIs. destruct o as [b p|b p|b u|kin al fresh]; simpl.
  - destruct (rdBody (rdA T) =? b)%nat, (rdBody (rdB T) =? b)%nat; simpl; repeat split; auto.
  - destruct (rdBody (rdA T) =? b)%nat, (rdBody (rdB T) =? b)%nat; simpl; repeat split; auto.
  - destruct (rdBody (rdA T) =? b)%nat, (rdBody (rdB T) =? b)%nat; simpl; repeat split; auto.
  - unfold rdUpdate. destruct (rdPair mb (rdDt T) (rdFixed T) (rdA T) _ al fresh) as [[[[[d1 r1] s1] a1] n1]| |]; simpl; [|repeat split; auto..].
    destruct (rdPair mb (rdDt T) (rdFixed T) (rdB T) _ al fresh) as [[[[[d2 r2] s2] a2] n2]| |]; simpl; repeat split; auto.
Qed.
Lemma rd_last_gen mb ops : forall T b1 p1 e1 q1 u1 b2 p2 e2 q2 u2, rdPairIs (rdA T) b1 p1 e1 q1 u1 -> rdPairIs (rdB T) b2 p2 e2 q2 u2 ->
  let T' := fold_left (rdStep mb) ops T in rdDt T' = rdDt T /\
  rdPairIs (rdA T') b1 (latest (rdGiveP b1) p1 ops) (latest (rdGiveE b1) e1 ops) q1 (latest (rdGiveU b1) u1 ops) /\
  rdPairIs (rdB T') b2 (latest (rdGiveP b2) p2 ops) (latest (rdGiveE b2) e2 ops) q2 (latest (rdGiveU b2) u2 ops).
Proof.
  induction ops as [|o ops IH]; intros T b1 p1 e1 q1 u1 b2 p2 e2 q2 u2 A B; [exact (conj eq_refl (conj A B))|].
  destruct (rd_last_step mb T o _ _ _ _ _ _ _ _ _ _ A B) as (D & A' & B'). destruct (IH _ _ _ _ _ _ _ _ _ _ _ A' B') as (D2 & Q). cbn [fold_left]. split; [rewrite D2; exact D|exact Q].
Qed.
Theorem rd_last mb dt b1 p1 e1 q1 u1 b2 p2 e2 q2 u2 ops : let T := fold_left (rdStep mb) ops (rdInit dt b1 p1 e1 q1 u1 b2 p2 e2 q2 u2) in rdDt T = dt /\
  rdPairIs (rdA T) b1 (latest (rdGiveP b1) p1 ops) (latest (rdGiveE b1) e1 ops) q1 (latest (rdGiveU b1) u1 ops) /\
  rdPairIs (rdB T) b2 (latest (rdGiveP b2) p2 ops) (latest (rdGiveE b2) e2 ops) q2 (latest (rdGiveU b2) u2 ops).
Proof. apply (rd_last_gen mb ops (rdInit dt b1 p1 e1 q1 u1 b2 p2 e2 q2 u2)); repeat split. Qed.
