(** Properties of the posture task. *)
From Verif Require Import PostureWitness.
Open Scope string_scope.
Open Scope list_scope.
Open Scope R_scope.

(** C60: whatever operations were made since the construction, for a robot whose joints behind the first are fixed, of one dof or spherical, the
    cost after an update is, up to a constant, weight * 1/2 sum_c W_c (x_c - a_c)^2 over the dofs but those of a free root, where at the place of
    dof k of joint i a is k_i err - d_i (alpha - refVel) + refAccel with the gains of that joint: the last given by its name, else the task's. *)
Theorem C60_independent : forall mbs r mb q0 k0 w0 ops t0 t K t', nth_error mbs r = Some mb -> NoDup (map jname (joints mb)) -> plainJoints mb ->
  newPost mbs r q0 k0 w0 = Ok t0 -> poRun mbs ops t0 = Ok t -> poUpdate mbs K t = Ok t' -> shaped mb (pfAlpha K) ->
  (forall j o, nth_error (joints mb) 0 = Some j -> In o (latest poGiveJ [] ops) -> fst o <> jname j) ->
  exists a, isAsked mb (askedAcc mb k0 ops q0 K) a /\
    costs (postTask t') (latest poGiveWeight w0 ops) (postureCost mb (latest (poGiveBegin r) 0%nat ops) (vget (latest poGiveW (ones (nrDof mb)) ops)) a).
Proof. exact posture_lemma. Qed.
Print Assumptions C60_independent.
(** With positive weights the minimum is where every dof has the acceleration asked for, and only there. *)
Theorem C60_minimum : forall mb T w b W a x, costs T w (postureCost mb b W a) -> 0 < w -> (forall c, (c < nrDof mb)%nat -> 0 < W c) ->
  minimises T x <-> forall c, (c < nrDof mb)%nat -> driven mb c = 1 -> x (b + c)%nat = a c.
Proof. exact minimum_lemma. Qed.
Print Assumptions C60_minimum.
(** The second robot after a history: gains (4, 4) for the revolute joint, error 5, speed 1; gains (1, 0) for the spherical joint, error (2, 3, 4). *)
Example C60_used : exists t0 t t', newPost pMbs 1 pQ0 1 1 = Ok t0 /\ poRun pMbs pOps t0 = Ok t /\ poUpdate pMbs pK t = Ok t' /\
  forall x, minimises (postTask t') x <-> x 7%nat = 16 /\ x 8%nat = 2 /\ x 9%nat = 3 /\ x 10%nat = 4.
Proof.
  destruct pNew as (t0 & N). destruct (pRun t0 N) as (t & Rn). destruct (pUpd pOps t0 t N Rn) as (t' & U); [right; reflexivity|reflexivity|].
  exists t0, t, t'. split; [exact N|]. split; [exact Rn|]. split; [exact U|]. intros x.
  destruct (C60_independent pMbs 1 sMb pQ0 1 1 pOps t0 t pK t' eq_refl sMb_nodup pPlain N Rn U pShape pRoot) as (a & (_ & A) & C).
  rewrite (C60_minimum _ _ _ _ _ _ x C); [|cbn; lra|intros; cbn; lra].
  pose proof (A 0%nat _ 0%nat eq_refl ltac:(cbn; lia)) as A6. pose proof (A 1%nat _ 0%nat eq_refl ltac:(cbn; lia)) as A7. pose proof (A 1%nat _ 1%nat eq_refl ltac:(cbn; lia)) as A8. pose proof (A 1%nat _ 2%nat eq_refl ltac:(cbn; lia)) as A9.
  unfold askedAcc in A6, A7, A8, A9. cbn -[sqrt] in A6, A7, A8, A9. rewrite sqrt4 in *. change (latest (poGiveBegin 1) 0%nat pOps) with 1%nat. change (nrDof sMb) with 10%nat. split.
  - intros H. split; [|split; [|split]]; [rewrite (H 6%nat ltac:(lia) eq_refl : x 7%nat = _), A6|rewrite (H 7%nat ltac:(lia) eq_refl : x 8%nat = _), A7|rewrite (H 8%nat ltac:(lia) eq_refl : x 9%nat = _), A8|rewrite (H 9%nat ltac:(lia) eq_refl : x 10%nat = _), A9]; ring.
  - intros (X7 & X8 & X9 & X10) c Hc D. do 6 (destruct c as [|c]; [cbn in D; lra|]). destruct c as [|[|[|[|c]]]]; [| | | |lia]; cbn [Nat.add]; rewrite ?X7, ?X8, ?X9, ?X10, ?A6, ?A7, ?A8, ?A9; ring.
Qed.
(** An update is defined when the target and the configuration have the parameters the joints need and refVel is long enough. *)
Theorem C60_defined : forall mbs r mb q0 k0 w0 ops t0 t K, nth_error mbs r = Some mb -> newPost mbs r q0 k0 w0 = Ok t0 -> poRun mbs ops t0 = Ok t ->
  (1 < length (joints mb))%nat -> enough mb (latest poGiveQ q0 ops) K -> shaped mb (pfAlpha K) -> (nrDof mb <= vlen (latest poGiveRV (vfill (nrDof mb) 0%R) ops))%nat -> exists t', poUpdate mbs K t = Ok t'.
Proof. exact posture_defined. Qed.
Print Assumptions C60_defined.
Example C60_defined_used : exists t0 t t', newPost pMbs 1 pQ0 1 1 = Ok t0 /\ poRun pMbs pOps t0 = Ok t /\ poUpdate pMbs pK t = Ok t'.
Proof. destruct pNew as (t0 & N). destruct (pRun t0 N) as (t & Rn). destruct (pUpd pOps t0 t N Rn) as (t' & U); [right; reflexivity|reflexivity|]. eauto 6. Qed.

(** C90, refuted: with a cylindrical joint (two dofs) before it, a joint is not asked for its own error. *)
Theorem C90_refuted : exists mb q K t0 t', NoDup (map jname (joints mb)) /\ shaped mb (pfAlpha K) /\ (1 < length (joints mb))%nat /\
  newPost [mb] 0 q 1 1 = Ok t0 /\ poUpdate [mb] K t0 = Ok t' /\
  ~ exists a, isAsked mb (askedAcc mb 1 [] q K) a /\ costs (postTask t') 1 (postureCost mb 0 (vget (ones (nrDof mb))) a).
Proof.
  destruct cyl_lemma as (t0 & t' & N & U & C). exists cMb, [[]; [0; 0]; [1]], cK, t0, t'. split; [repeat constructor; cbn; intuition discriminate|]. split; [reflexivity|]. split; [cbn; lia|]. split; [exact N|]. split; [exact U|].
  intros (a & (_ & A) & D). pose proof (A 1%nat _ 0%nat eq_refl ltac:(cbn; lia)) as A2. unfold askedAcc in A2. cbn -[sqrt] in A2. rewrite sqrt_1 in A2.
  specialize (D (fun _ => 0) (fun c => if Nat.eqb c 2 then 1 else 0)). rewrite !C in D. unfold postureCost, sumn in D. cbn in D. rewrite A2 in D. lra.
Qed.
Print Assumptions C90_refuted.
(** And the update of a robot with a planar joint (three dofs, three parameters) reads a fourth parameter that is not there. *)
Theorem C90_planar_refuted : exists mb q K t0, map (@length R) q = map jparams (joints mb) /\ map (@length R) (pfQ K) = map jparams (joints mb) /\ shaped mb (pfAlpha K) /\
  (1 < length (joints mb))%nat /\ newPost [mb] 0 q 1 1 = Ok t0 /\ poUpdate [mb] K t0 = UB.
Proof. destruct planar_lemma as (t0 & N & U). exists plMb, [[]; [0; 0; 0]], plK, t0. repeat split; auto. Qed.
Print Assumptions C90_planar_refuted.

(** C91, refuted: a posture task of a robot with one joint cannot be updated. *)
Theorem C91_refuted : exists mb q K t0, map (@length R) q = map jparams (joints mb) /\ map (@length R) (pfQ K) = map jparams (joints mb) /\ shaped mb (pfAlpha K) /\
  newPost [mb] 0 q 1 1 = Ok t0 /\ poUpdate [mb] K t0 = UB.
Proof. destruct one_new as (t0 & N). exists oMb, [[1]], oK, t0. repeat split; auto. apply (single_lemma [oMb] 0 oMb _ _ (mkJoint "rev" 1 1 None)); auto. pose proof (good_new [oMb] 0 [[1]] 1 1 oMb t0 eq_refl N) as G. apply G. Qed.
Print Assumptions C91_refuted.
(** Exactly: with data of the right shapes an update is defined if and only if the robot has two joints or more. *)
Theorem C91_exact : forall mbs r mb q0 k0 w0 ops t0 t K, nth_error mbs r = Some mb -> newPost mbs r q0 k0 w0 = Ok t0 -> poRun mbs ops t0 = Ok t ->
  enough mb (latest poGiveQ q0 ops) K -> shaped mb (pfAlpha K) -> (nrDof mb <= vlen (latest poGiveRV (vfill (nrDof mb) 0%R) ops))%nat ->
  ((exists t', poUpdate mbs K t = Ok t') <-> (1 < length (joints mb))%nat) /\ ((length (joints mb) <= 1)%nat -> poUpdate mbs K t = UB).
Proof. exact single_iff. Qed.
Print Assumptions C91_exact.
Example C91_used : exists t0, newPost [oMb] 0 [[1]] 1 1 = Ok t0 /\ poUpdate [oMb] oK t0 = UB.
Proof.
  destruct one_new as (t0 & N). exists t0. split; [exact N|]. apply (C91_exact [oMb] 0 oMb [[1]] 1 1 [] t0 t0 oK eq_refl N eq_refl); [|reflexivity|cbn; lia|cbn; lia]. intros i j H. destruct i; discriminate H.
Qed.

(** C92: gains given by name to a free root: along its dofs the cost is linear, with a slope proportional to d (alpha - refVel) - refAccel. *)
Theorem C92_linear : forall mbs r mb q0 k0 w0 ops t0 t K t' j k x s, nth_error mbs r = Some mb -> NoDup (map jname (joints mb)) ->
  newPost mbs r q0 k0 w0 = Ok t0 -> poRun mbs ops t0 = Ok t -> poUpdate mbs K t = Ok t' -> shaped mb (pfAlpha K) ->
  nth_error (joints mb) 0 = Some j -> jdof j = 6%nat -> (k < 6)%nat -> (exists o, In o (latest poGiveJ [] ops) /\ fst o = jname j) ->
  let b := latest (poGiveBegin r) 0%nat ops in
  taskCost (postTask t') (fun v => if Nat.eqb v (b + k) then x v + s else x v) - taskCost (postTask t') x =
  latest poGiveWeight w0 ops * vget (latest poGiveW (ones (nrDof mb)) ops) k *
    (snd (gainsOf (latest poGiveG (k0, 2 * sqrt k0) ops) (latest poGiveJ [] ops) (jname j)) * (speedOf K 0 k - vget (latest poGiveRV (vfill (nrDof mb) 0) ops) k)
     - vget (latest poGiveRA (vfill (nrDof mb) 0) ops) k) * s.
Proof. exact free_root_lemma. Qed.
Print Assumptions C92_linear.
(** C92, refuted: so the cost of a posture task with positive weights is not bounded below. *)
Theorem C92_refuted : exists mbs r q k w ops t0 t K t' mb, nth_error mbs r = Some mb /\ newPost mbs r q k w = Ok t0 /\ poRun mbs ops t0 = Ok t /\ poUpdate mbs K t = Ok t' /\ shaped mb (pfAlpha K) /\
  0 < latest poGiveWeight w ops /\ (forall c, (c < nrDof mb)%nat -> 0 < vget (latest poGiveW (ones (nrDof mb)) ops) c) /\
  forall M, exists x, taskCost (postTask t') x < M.
Proof.
  destruct pNew as (t0 & N). assert (Rn : exists t, poRun pMbs [PoJointsG [("ff", (1, 2))]] t0 = Ok t) by (unfold newPost in N; cbn in N; rewrite two1 in N; cbn in N; injection N as <-; cbn; eauto).
  destruct Rn as (t & Rn). destruct (pUpd _ _ _ N Rn) as (t' & U); [auto|reflexivity|]. exists pMbs, 1%nat, pQ0, 1, 1, [PoJointsG [("ff", (1, 2))]], t0, t, pK, t', sMb.
  split; [reflexivity|]. split; [exact N|]. split; [exact Rn|]. split; [exact U|]. split; [reflexivity|]. split; [cbn; lra|]. split; [intros; cbn; lra|]. intros M.
  set (s := (M - taskCost (postTask t') (fun _ => 0) - 1) / 2). exists (fun v => if Nat.eqb v (0 + 0) then 0 + s else 0).
  pose proof (C92_linear pMbs 1 sMb pQ0 1 1 _ t0 t pK t' (mkJoint "ff" 6 7 None) 0 (fun _ => 0) s eq_refl sMb_nodup N Rn U eq_refl eq_refl eq_refl ltac:(lia)) as L. cbv zeta in L.
  specialize (L (ex_intro _ _ (conj (or_introl eq_refl) eq_refl))). cbn [latest fold_left poGiveBegin poGiveWeight poGiveW poGiveG poGiveJ poGiveRV poGiveRA gainsOf fst snd jname] in L. change (latest (poGiveBegin 1) 0%nat [PoJointsG [("ff", (1, 2))]]) with 0%nat in L.
  cbn -[sqrt Nat.eqb Nat.add taskCost s] in L. change (vget (ones 10) 0) with 1 in L. unfold s in L at 2. lra.
Qed.
Print Assumptions C92_refuted.

(** C93: the closed loop. Joint S i has one dof and gains (k, 2 sqrt k), no reference speed or acceleration; the accelerations minimise the task at every
    time. Then its error is (e0 + (sqrt k e0 - v0) s) exp(-sqrt k s): it converges to 0 and crosses zero at most once unless it is always zero. *)
Theorem C93_converges : forall mbs r mb q0 k0 w0 ops t0 t K x i j k,
  nth_error mbs r = Some mb -> NoDup (map jname (joints mb)) -> plainJoints mb -> newPost mbs r q0 k0 w0 = Ok t0 -> poRun mbs ops t0 = Ok t ->
  (forall j o, nth_error (joints mb) 0 = Some j -> In o (latest poGiveJ [] ops) -> fst o <> jname j) ->
  0 < latest poGiveWeight w0 ops -> (forall c, (c < nrDof mb)%nat -> 0 < vget (latest poGiveW (ones (nrDof mb)) ops) c) ->
  nth_error (joints mb) (S i) = Some j -> jdof j = 1%nat -> 0 < k ->
  gainsOf (latest poGiveG (k0, 2 * sqrt k0) ops) (latest poGiveJ [] ops) (jname j) = (k, 2 * sqrt k) ->
  vget (latest poGiveRV (vfill (nrDof mb) 0) ops) (jointPosInDof mb (S i)) = 0 -> vget (latest poGiveRA (vfill (nrDof mb) 0) ops) (jointPosInDof mb (S i)) = 0 ->
  (forall s, 0 <= s -> exists t', poUpdate mbs (K s) t = Ok t' /\ minimises (postTask t') (x s) /\ shaped mb (pfAlpha (K s))) ->
  (forall s, 0 <= s -> derivable_pt_lim (fun s => nth 0 (nth (S i) (pfQ (K s)) []) 0) s (speedOf (K s) (S i) 0)) ->
  (forall s, 0 <= s -> derivable_pt_lim (fun s => speedOf (K s) (S i) 0) s (x s (latest (poGiveBegin r) 0%nat ops + jointPosInDof mb (S i))%nat)) ->
  let e s := nth 0 (nth (S i) (latest poGiveQ q0 ops) []) 0 - nth 0 (nth (S i) (pfQ (K s)) []) 0 in
  (forall s, 0 <= s -> e s = (e 0 + (sqrt k * e 0 - speedOf (K 0) (S i) 0) * s) * exp (- sqrt k * s)) /\
  (forall eps, 0 < eps -> exists T, forall s, T <= s -> Rabs (e s) < eps) /\
  (forall s1 s2, 0 <= s1 < s2 -> e s1 = 0 -> e s2 = 0 -> forall s, 0 <= s -> e s = 0).
Proof. exact posture_loop_lemma. Qed.
Print Assumptions C93_converges.
(** The revolute joint from 0 at rest to 1, the others at their targets. *)
Example C93_used : exists t0 t, newPost pMbs 1 lQ 1 1 = Ok t0 /\ poRun pMbs [PoNrVars pData] t0 = Ok t /\
  forall eps, 0 < eps -> exists T, forall s, T <= s -> Rabs (1 - (1 - cE s)) < eps.
Proof.
  destruct lNew as (t0 & N). assert (Rn : exists t, poRun pMbs [PoNrVars pData] t0 = Ok t) by (unfold newPost in N; cbn in N; rewrite two1 in N; cbn in N; injection N as <-; cbn; eauto).
  destruct Rn as (t & Rn). exists t0, t. split; [exact N|]. split; [exact Rn|].
  assert (Rt : forall (j : joint) (o : string * (R * R)), nth_error (joints sMb) 0 = Some j -> In o (latest poGiveJ [] [PoNrVars pData]) -> fst o <> jname j) by (intros j o _ []).
  refine (proj1 (proj2 (C93_converges pMbs 1%nat sMb lQ 1 1 [PoNrVars pData] t0 t lK lX 0%nat (mkJoint "rev" 1 1 None) 1 eq_refl sMb_nodup pPlain N Rn Rt _ _ eq_refl eq_refl _ eq_refl eq_refl eq_refl _ _ _))).
  - cbn. lra.
  - intros. cbn. lra.
  - lra.
  - intros s Hs. destruct (C60_defined pMbs 1 sMb lQ 1 1 [PoNrVars pData] t0 t (lK s) eq_refl N Rn) as (t' & U); [cbn; lia|apply lEnough|reflexivity|cbn; lia|]. exists t'. split; [exact U|]. split; [|reflexivity].
    destruct (C60_independent pMbs 1 sMb lQ 1 1 [PoNrVars pData] t0 t (lK s) t' eq_refl sMb_nodup pPlain N Rn U eq_refl Rt) as (a & (_ & A) & C).
    apply (C60_minimum _ _ _ _ _ _ (lX s) C); [cbn; lra|intros; cbn; lra|].
    pose proof (A 0%nat _ 0%nat eq_refl ltac:(cbn; lia)) as A6. pose proof (A 1%nat _ 0%nat eq_refl ltac:(cbn; lia)) as A7. pose proof (A 1%nat _ 1%nat eq_refl ltac:(cbn; lia)) as A8. pose proof (A 1%nat _ 2%nat eq_refl ltac:(cbn; lia)) as A9.
    unfold askedAcc in A6, A7, A8, A9. cbn -[sqrt cE cV] in A6, A7, A8, A9. rewrite sqrt_1 in *. change (latest (poGiveBegin 1) 0%nat [PoNrVars pData]) with 1%nat. change (nrDof sMb) with 10%nat.
    intros c Hc D. do 6 (destruct c as [|c]; [cbn in D; lra|]). unfold cE, cV in *. destruct c as [|[|[|[|c]]]]; [| | | |lia]; unfold lX; cbn [Nat.add Nat.eqb]; rewrite ?A6, ?A7, ?A8, ?A9; ring.
  - intros s Hs. eapply dlim_eq; [apply (derivable_pt_lim_minus (fun _ => 1) cE s 0 _ (derivable_pt_lim_const 1 s) (cDe s))|reflexivity|]. change (speedOf (lK s) 1 0) with (cV s). ring.
  - intros s Hs. exact (cDv s).
Qed.
