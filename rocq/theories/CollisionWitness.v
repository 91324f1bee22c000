(** Concrete collision histories. *)
From Verif Require Export CollisionLoop ContactFacts.
Open Scope string_scope.
Open Scope list_scope.
Open Scope R_scope.
Local Arguments sumn : simpl never.

(** Points on the x axis: the hulls are the origins of their frames. *)
Definition qG : geom := mkGeom (fun _ _ X1 X2 => Rsqr (vx (ptr X1) - vx (ptr X2))) (fun _ _ X1 _ => ptr X1) (fun _ _ _ X2 => ptr X2) 1.
(** Robot 0 at position t with speed v along x, its joint moves it along x; robot 1 at the origin, at rest. *)
Definition qK (t v : R) : pkin := mkPK (fun r _ => if Nat.eqb r 0 then pt_trans (mkV3 t 0 0) else pt_id)
  (fun r _ _ l j => if Nat.eqb l 0 then if Nat.eqb r 0 then if Nat.eqb j 0 then 1 else 0 else 0 else 0)
  (fun r _ _ => if Nat.eqb r 0 then mkV3 v 0 0 else v0) (fun _ _ _ => v0).
Definition qE (t v : R) : cenv := mkEnv (qK t v) (fun _ => pt_id).
Definition qP (damping off : R) (X : PT) : pairSpec := CollisionModel.mkPS 7%Z 0 "foot" 0 X 1 "box" 1 pt_id 4 1 damping off (vfill 0 0) (vfill 0 0).

Lemma qSound damping off X : sound wNames wMbs 1 [qP damping off X].
Proof.
  split; [exact wPaths|]. split; [|split; [lra|]].
  - exists (fun o => if Nat.eqb o 0 then Some (0%nat, 0%nat, X) else Some (1%nat, 0%nat, pt_id)). intros p [<-|[]]. split; reflexivity.
  - intros p [<-|[]]. cbn. lra.
Qed.
Lemma qReaches damping off X : exists c, reaches wNames wMbs qG wData 1 [CAdd (qP damping off X); CNr wData] c.
Proof.
  eexists. split; [|split; [exists [], wBi, wDeps; exact wData_eq|]].
  - eexists. split; [reflexivity|]. cbn. reflexivity.
  - exists [CAdd (qP damping off X)], [], []. split; [reflexivity|]. split; [constructor|]. split; [constructor|]. left. reflexivity.
Qed.
Lemma sdist_sqr a : 0 <= a -> signedRoot (Rsqr a) = a.
Proof. intros H. rewrite <- sdist_root. unfold sdist. destruct (Rle_dec 0 (Rsqr a)) as [_|N]; [apply sqrt_Rsqr; auto|]. exfalso. apply N. apply Rle_0_sqr. Qed.
Lemma qPose1 damping off s t v : pose1 wNames wMbs (qP damping off (pt_trans (mkV3 s 0 0))) (qE t v) = pt_trans (mkV3 (t + s) 0 0).
Proof. unfold pose1, sidePose. cbn. unfold pt_mul, pt_trans. cbn. f_equal; [apply m3mul_id_r|]. v3. Qed.
Lemma qPose2 damping off X t v : pose2 wNames wMbs (qP damping off X) (qE t v) = pt_id.
Proof. unfold pose2, sidePose. cbn. unfold pt_mul, pt_id. cbn. f_equal; [apply m3mul_id_r|]. v3. Qed.
Lemma qDist damping off s t v : 0 <= t + s -> pDist wNames wMbs qG (qP damping off (pt_trans (mkV3 s 0 0))) (qE t v) = t + s.
Proof. intros H. unfold pDist. rewrite qPose1, qPose2. cbn. rewrite Rminus_0_r. apply sdist_sqr. auto. Qed.
Lemma qNormal damping off t v : 0 < t -> pNormal wNames wMbs qG (qP damping off (pt_trans (mkV3 0 0 0))) (qE t v) = mkV3 1 0 0.
Proof.
  intros H. unfold pNormal. rewrite qDist by lra. unfold pW1, pW2. rewrite qPose1, qPose2. cbn. rewrite Rplus_0_r. destruct (Req_EM_T t 0); [lra|]. unfold vsc, vsub; cbn. f_equal; field; lra.
Qed.
Definition qX : PT := pt_trans (mkV3 0 0 0).
Lemma qRate damping off t v n0 x : 0 < t ->
  nextRate wNames wMbs qG wData 1 (qP damping off qX) n0 (qE t v) x = v + x 0%nat + (1 - vx n0) * v.
Proof.
  intros H. unfold nextRate, distRate, qX. rewrite qNormal by auto. unfold vel1, vel2, acc1, acc2, ptVel, ptAcc.
  cbn [movable wMbs nth_error psR1 psR2 qP nrDof joints map sumnat jdof]. 
  replace (movable wMbs 0) with true by reflexivity. replace (movable wMbs 1) with true by reflexivity.
  unfold jacDot, pathOf. cbn. unfold sumn, dot, vsc, vsub, vadd; cbn. field.
Qed.

Lemma qNearPairs damping off t v ops hs : alive ops = [(qP damping off qX, hs)] -> 0 < t < 4 ->
  nearPairs wNames wMbs qG (qE t v) (alive ops) = [(qP damping off qX, hs)].
Proof. intros -> H. unfold nearPairs. simpl. replace (nearb wNames wMbs qG (qP damping off qX) (qE t v)) with true; [reflexivity|]. symmetry. apply nearb_true. unfold near, qX. rewrite qDist by lra. cbn. lra. Qed.
(** After one update at position 2 and speed -1 the row bounds the acceleration of the joint from below. *)
Lemma qTwo : exists c c' h' , reaches wNames wMbs qG wData 1 [CAdd (qP 3 0 qX); CNr wData; CUp wData (qE 2 (-1))] c /\
  colUpdate wMbs wData qG (eK (qE 2 (-1))) (eH (qE 2 (-1))) c = Ok (c', h') /\
  nth_error (nearPairs wNames wMbs qG (qE 2 (-1)) (alive [CAdd (qP 3 0 qX); CNr wData; CUp wData (qE 2 (-1))])) 0 = Some (qP 3 0 qX, [qE 2 (-1)]).
Proof.
  destruct (qReaches 3 0 qX) as (c0 & HR). destruct (reaches_up wNames wMbs qG wData 1 _ c0 (qE 2 (-1)) HR (qSound 3 0 qX)) as (c & h & E & HR').
  destruct (reaches_up wNames wMbs qG wData 1 _ c (qE 2 (-1)) HR' (qSound 3 0 qX)) as (c' & h' & E' & _). exists c, c', h'. split; [exact HR'|]. split; [exact E'|].
  rewrite (qNearPairs 3 0 2 (-1) _ [qE 2 (-1)]); [reflexivity|reflexivity|lra].
Qed.

(** First update: the row holds although the distance will decrease too fast. *)
Lemma first_refuted_lemma : exists nm mbs G d step ops c e c' h' p xi x,
  reaches nm mbs G d step ops c /\ sound nm mbs step (addsOf ops) /\ colUpdate mbs d G (eK e) (eH e) c = Ok (c', h') /\
  nth_error (nearPairs nm mbs G e (alive ops)) 0 = Some (p, []) /\ movable mbs (psR1 p) = true /\ movable mbs (psR2 p) = true /\
  inForce nm mbs G (distRate nm mbs G) p [e] xi /\ holdsRow (sdNrVars d) x (colInEq c') 0 /\
  nextRate nm mbs G d step p (pNormal nm mbs G p e) e x < - xi * ((pDist nm mbs G p e - psDs p) / (psDi p - psDs p)).
Proof.
  destruct (qReaches 3 0 qX) as (c & HR). destruct (reaches_up wNames wMbs qG wData 1 _ c (qE 2 1) HR (qSound 3 0 qX)) as (c' & h' & E & _).
  assert (NP : nth_error (nearPairs wNames wMbs qG (qE 2 1) (alive [CAdd (qP 3 0 qX); CNr wData])) 0 = Some (qP 3 0 qX, [])) by (rewrite (qNearPairs 3 0 2 1 _ []); [reflexivity|reflexivity|lra]).
  destruct (row_lemma wNames wMbs qG wData 1 _ c (qE 2 1) c' h' 0 _ _ HR (qSound 3 0 qX) E NP eq_refl) as (xi & IF & RW).
  exists wNames, wMbs, qG, wData, 1, [CAdd (qP 3 0 qX); CNr wData], c, (qE 2 1), c', h', (qP 3 0 qX), xi, (fun j => if Nat.eqb j 0 then -3 else 0).
  split; [auto|]. split; [apply qSound|]. split; [auto|]. split; [auto|]. split; [reflexivity|]. split; [reflexivity|]. split; [exact IF|].
  assert (xi = 3) as -> by (destruct IF as [(_ & ->)|(H & _)]; [reflexivity|cbn in H; lra]).
  split.
  - apply RW. rewrite qRate by lra. cbn [lastNormal rev]. unfold qX. rewrite qDist by lra. cbn. lra.
  - rewrite qRate by lra. unfold qX. rewrite qDist, qNormal by lra. cbn. lra.
Qed.

(** descInEq reports the sum of the damping in force and the offset. *)
Lemma desc_damping_lemma : exists nm mbs G d step ops c e c' h' p xi dsc,
  reaches nm mbs G d step ops c /\ sound nm mbs step (addsOf ops) /\ namesOk nm /\ colUpdate mbs d G (eK e) (eH e) c = Ok (c', h') /\
  nth_error (nearPairs nm mbs G e (alive ops)) 0 = Some (p, []) /\ inForce nm mbs G (distRate nm mbs G) p [e] xi /\
  descInEq nm G h' c' 0 = Some dsc /\ deDamp dsc <> xi.
Proof.
  destruct (qReaches 3 1 qX) as (c & HR). destruct (reaches_up wNames wMbs qG wData 1 _ c (qE 2 1) HR (qSound 3 1 qX)) as (c' & h' & E & _).
  assert (NP : nth_error (nearPairs wNames wMbs qG (qE 2 1) (alive [CAdd (qP 3 1 qX); CNr wData])) 0 = Some (qP 3 1 qX, [])) by (rewrite (qNearPairs 3 1 2 1 _ []); [reflexivity|reflexivity|lra]).
  assert (NK : namesOk wNames).
  { intros r b i H. destruct r as [|[|r]]; simpl in H; [| |discriminate].
    - destruct (String.eqb_spec b "foot"); [injection H as <-; simpl; auto|]. destruct (String.eqb_spec b "hand"); [injection H as <-; simpl; auto|discriminate].
    - destruct (String.eqb_spec b "box"); [|discriminate]. simpl. destruct i; auto. }
  pose proof (desc_lemma wNames wMbs qG wData 1 _ c (qE 2 1) c' h' 0 HR (qSound 3 1 qX) NK E) as D. rewrite NP in D. destruct D as (xi & IF & D).
  do 11 eexists. exists xi. eexists. split; [exact HR|]. split; [apply qSound|]. split; [exact NK|]. split; [exact E|]. split; [exact NP|]. split; [apply inForce_mobile; [reflexivity|exact IF]|].
  split; [exact D|]. cbn. lra.
Qed.

(** A robot without degree of freedom, and a box. *)
Definition sMbs : list multibody := [mkMB []; mkMB [mkJoint "b0" 1 1 None]].
Definition sNames : names := mkNames
  (fun r b => match r with 1%nat => if String.eqb b "box" then Ok [0%nat] else Throw | _ => Throw end)
  (fun r b => match r with 1%nat => if String.eqb b "box" then Ok 0%nat else Throw | _ => Throw end) (fun _ _ => "box").
Definition sData : solverData := match nrVarsData sMbs [] [] with Ok (d, _) => d | _ => mkSD [] [] [] [] 0 0 0 0 0 [] [] [] [] end.
Definition sDeps : list dep := match nrVarsData sMbs [] [] with Ok (_, p) => p | _ => [] end.
Lemma sData_eq : nrVarsData sMbs [] [] = Ok (sData, sDeps).
Proof. reflexivity. Qed.
Lemma sPaths : pathsOk sNames sMbs.
Proof.
  intros r mb body p H1 H2. destruct r as [|[|r]]; simpl in H2; [discriminate| |discriminate]. simpl in H1. injection H1 as <-.
  destruct (String.eqb body "box"); inversion H2; subst; split; simpl; try (repeat constructor; simpl; intuition discriminate); simpl; intuition lia.
Qed.
(** The box at position t with speed v, the hulls of the other robot at s and at the origin. *)
Definition sE (s t v : R) : cenv := mkEnv (mkPK (fun r _ => pt_trans (mkV3 t 0 0)) (fun r _ _ l j => if Nat.eqb l 0 then 1 else 0) (fun r _ _ => mkV3 v 0 0) (fun _ _ _ => v0))
  (fun o => if Nat.eqb o 1 then pt_trans (mkV3 s 0 0) else pt_trans (mkV3 0 0 0)).
Definition sP : pairSpec := CollisionModel.mkPS 7%Z 0 "base" 0 pt_id 1 "box" 2 (pt_trans (mkV3 0 0 0)) 4 1 3 0 (vfill 0 0) (vfill 0 0).
Definition sP' : pairSpec := CollisionModel.mkPS 8%Z 0 "base" 1 pt_id 0 "base" 0 pt_id 4 1 3 0 (vfill 0 0) (vfill 0 0).
Lemma sSound p : p = sP \/ p = sP' -> sound sNames sMbs 1 [p].
Proof.
  intros H. split; [exact sPaths|]. split; [|split; [lra|]].
  - exists (fun o => if Nat.eqb o 2 then Some (1%nat, 0%nat, pt_trans (mkV3 0 0 0)) else None). intros q [<-|[]]. destruct H as [-> | ->]; split; reflexivity.
  - intros q [<-|[]]. destruct H as [-> | ->]; cbn; lra.
Qed.
Lemma sReaches p : p = sP \/ p = sP' -> exists c, reaches sNames sMbs qG sData 1 [CAdd p; CNr sData] c.
Proof.
  intros H. destruct H as [-> | ->]; (eexists; split; [eexists; split; [reflexivity|cbn; reflexivity]|split; [exists [], [], sDeps; exact sData_eq|]]).
  - exists [CAdd sP], [], []. split; [reflexivity|]. split; [constructor|]. split; [constructor|]. left. reflexivity.
  - exists [CAdd sP'], [], []. split; [reflexivity|]. split; [constructor|]. split; [constructor|]. left. reflexivity.
Qed.

Lemma sPose2 s t v : pose2 sNames sMbs sP (sE s t v) = pt_trans (mkV3 t 0 0).
Proof. unfold pose2, sidePose. cbn. unfold pt_mul, pt_trans. cbn. f_equal; [apply m3mul_id_r|]. v3. Qed.
Lemma sDist s t v : 0 <= t -> pDist sNames sMbs qG sP (sE s t v) = t.
Proof.
  intros H. unfold pDist. rewrite sPose2. cbn. replace (0 - t) with (- t) by ring. rewrite <- Rsqr_neg. apply sdist_sqr. auto.
Qed.
Lemma sNormal s t v : 0 < t -> pNormal sNames sMbs qG sP (sE s t v) = mkV3 (-1) 0 0.
Proof.
  intros H. unfold pNormal. rewrite sDist by lra. unfold pW1, pW2. rewrite sPose2. cbn. destruct (Req_EM_T t 0); [lra|]. unfold vsc, vsub; cbn. f_equal; field; lra.
Qed.

(** Only the second robot can move: the row holds although the pair closes too fast, whatever the previous normal. *)
Lemma second_refuted_lemma : exists nm mbs G d step ops c e c' h' p xi x,
  reaches nm mbs G d step ops c /\ sound nm mbs step (addsOf ops) /\ colUpdate mbs d G (eK e) (eH e) c = Ok (c', h') /\
  nth_error (nearPairs nm mbs G e (alive ops)) 0 = Some (p, []) /\ movable mbs (psR1 p) = false /\ movable mbs (psR2 p) = true /\
  inForce nm mbs G (distRate nm mbs G) p [e] xi /\ holdsRow (sdNrVars d) x (colInEq c') 0 /\
  forall n0, nextRate nm mbs G d step p n0 e x < - xi * ((pDist nm mbs G p e - psDs p) / (psDi p - psDs p)).
Proof.
  destruct (sReaches sP ltac:(auto)) as (c & HR). pose proof (sSound sP ltac:(auto)) as HS. destruct (reaches_up sNames sMbs qG sData 1 _ c (sE 0 2 0) HR HS) as (c' & h' & E & _).
  assert (NP : nth_error (nearPairs sNames sMbs qG (sE 0 2 0) (alive [CAdd sP; CNr sData])) 0 = Some (sP, [])).
  { unfold nearPairs, alive. simpl. replace (nearb sNames sMbs qG sP (sE 0 2 0)) with true; [reflexivity|]. symmetry. apply nearb_true. unfold near. rewrite sDist by lra. cbn. lra. }
  destruct (row_second_lemma sNames sMbs qG sData 1 _ c (sE 0 2 0) c' h' 0 _ _ HR HS E NP eq_refl eq_refl) as (xi & IF & RW).
  assert (xi = 3) as -> by (destruct IF as [(_ & ->)|(H & _)]; [reflexivity|cbn in H; lra]).
  exists sNames, sMbs, qG, sData, 1, [CAdd sP; CNr sData], c, (sE 0 2 0), c', h', sP, 3, (fun _ => -5).
  split; [auto|]. split; [auto|]. split; [auto|]. split; [auto|]. split; [reflexivity|]. split; [reflexivity|]. split; [left; cbn; lra|]. split.
  - apply RW. rewrite sNormal, sDist by lra. unfold ptVel, ptAcc, jacDot, pathOf. cbn. unfold sumn, dot, vsc, vsub, vadd; cbn. lra.
  - intros n0. unfold nextRate, distRate, vel1, vel2, acc1, acc2. rewrite sNormal, sDist by lra. unfold ptVel, ptAcc, jacDot, pathOf. cbn. unfold sumn, dot, vsc, vsub, vadd; cbn. lra.
Qed.

(** Two hulls of a robot that cannot move, closer than the security distance: no solution. *)
Lemma immobile_refuted_lemma : exists nm mbs G d step ops c e c' h' p,
  reaches nm mbs G d step ops c /\ sound nm mbs step (addsOf ops) /\ colUpdate mbs d G (eK e) (eH e) c = Ok (c', h') /\
  nth_error (nearPairs nm mbs G e (alive ops)) 0 = Some (p, []) /\ movable mbs (psR1 p) = false /\ movable mbs (psR2 p) = false /\
  forall x, ~ holdsIneq (sdNrVars d) x (colInEq c').
Proof.
  destruct (sReaches sP' ltac:(auto)) as (c & HR). pose proof (sSound sP' ltac:(auto)) as HS.
  destruct (update_lemma sNames sMbs qG sData 1 _ c (sE (/ 2) 2 0) HR HS) as (c' & h' & own & E & N & _).
  assert (DI : pDist sNames sMbs qG sP' (sE (/ 2) 2 0) = / 2) by (unfold pDist; cbn; rewrite Rminus_0_r; apply sdist_sqr; lra).
  assert (NP : nearPairs sNames sMbs qG (sE (/ 2) 2 0) (alive [CAdd sP'; CNr sData]) = [(sP', [])]).
  { unfold nearPairs, alive. simpl. replace (nearb sNames sMbs qG sP' (sE (/ 2) 2 0)) with true; [reflexivity|]. symmetry. apply nearb_true. unfold near. rewrite DI. cbn. lra. }
  assert (NP0 : nth_error (nearPairs sNames sMbs qG (sE (/ 2) 2 0) (alive [CAdd sP'; CNr sData])) 0 = Some (sP', [])) by (rewrite NP; reflexivity).
  exists sNames, sMbs, qG, sData, 1, [CAdd sP'; CNr sData], c, (sE (/ 2) 2 0), c', h', sP'.
  split; [auto|]. split; [auto|]. split; [auto|]. split; [auto|]. split; [reflexivity|]. split; [reflexivity|].
  intros x H. assert (HR0 : holdsRow (sdNrVars sData) x (colInEq c') 0) by (apply (H 0%nat); cbn [colInEq iqNr]; rewrite N, NP; simpl; lia).
  rewrite (row_none_lemma sNames sMbs qG sData 1 _ c (sE (/ 2) 2 0) c' h' 0 _ _ HR HS E NP0 eq_refl eq_refl) in HR0 by (cbn; lra). rewrite DI in HR0. cbn in HR0. lra.
Qed.

(** A converging trajectory. *)
Definition tH (k : nat) : R := (/ 2) ^ k.
Definition tE (k : nat) : cenv := qE (1 + 4 * tH k) (- 4 * tH k).
Definition tX (k j : nat) : R := if Nat.eqb j 0 then 2 * tH k else 0.
Lemma tH_pos k : 0 < tH k.
Proof. apply pow_lt. lra. Qed.
Lemma tDist k : pDist wNames wMbs qG (qP (3 / 2) 0 qX) (tE k) = 1 + 4 * tH k.
Proof. unfold tE, qX. pose proof (tH_pos k). rewrite qDist by lra. ring. Qed.
Lemma tNormal k : pNormal wNames wMbs qG (qP (3 / 2) 0 qX) (tE k) = mkV3 1 0 0.
Proof. unfold tE, qX. pose proof (tH_pos k). apply qNormal. lra. Qed.
Lemma tLoop c : reaches wNames wMbs qG wData 1 [CAdd (qP (3 / 2) 0 qX); CNr wData] c ->
  (forall n c', colRun wNames wMbs qG c (updates wData tE (S n)) = Ok c' -> holdsIneq (sdNrVars wData) (tX n) (colInEq c')) /\
  ~ near wNames wMbs qG (qP (3 / 2) 0 qX) (tE 0) /\
  (forall n, near wNames wMbs qG (qP (3 / 2) 0 qX) (tE (S n)) -> pDist wNames wMbs qG (qP (3 / 2) 0 qX) (tE (S (S n))) =
     pDist wNames wMbs qG (qP (3 / 2) 0 qX) (tE (S n)) + 1 * nextRate wNames wMbs qG wData 1 (qP (3 / 2) 0 qX) (pNormal wNames wMbs qG (qP (3 / 2) 0 qX) (tE n)) (tE (S n)) (tX (S n))) /\
  (forall n, ~ near wNames wMbs qG (qP (3 / 2) 0 qX) (tE n) -> pDist wNames wMbs qG (qP (3 / 2) 0 qX) (tE n) - (4 - 1) <= pDist wNames wMbs qG (qP (3 / 2) 0 qX) (tE (S n))).
Proof.
  intros HR. set (p := qP (3 / 2) 0 qX). set (ops := [CAdd p; CNr wData]).
  assert (N0 : ~ near wNames wMbs qG p (tE 0)) by (unfold near, p; rewrite tDist; cbn; unfold tH; simpl; lra).
  assert (HRate : forall n m, nextRate wNames wMbs qG wData 1 p (pNormal wNames wMbs qG p (tE m)) (tE n) (tX n) = - 2 * tH n).
  { intros n m. unfold p. rewrite tNormal. unfold tE at 1. pose proof (tH_pos n). rewrite qRate by lra. cbn. ring. }
  split; [|split; [exact N0|split]].
  - intros n c' H. rewrite updates_S, colRun_app in H. apply bind_Ok in H as (c1 & E1 & H).
    destruct (reaches_ups wNames wMbs qG wData 1 ops c tE HR (qSound _ _ _) n) as (c2 & E2 & R2). assert (c2 = c1) as -> by congruence.
    cbn [colRun colStep] in H. apply bind_Ok in H as (c3 & H & E3). injection E3 as <-. apply bind_Ok in H as ((c4 & h4) & H & E4). injection E4 as <-.
    assert (HS1 : sound wNames wMbs 1 (addsOf (ops ++ updates wData tE n))) by (rewrite addsOf_app, adds_updates; apply qSound).
    destruct (update_lemma wNames wMbs qG wData 1 _ c1 (tE n) R2 HS1) as (c5 & h5 & own & E5 & N5 & _). assert (c5 = c4) as -> by congruence.
    assert (AL : alive (ops ++ updates wData tE n) = [(p, map tE (seq 0 n))]) by (rewrite alive_updates; reflexivity).
    intros i Hi. cbn [colInEq iqNr] in Hi. rewrite N5, AL in Hi. unfold nearPairs in Hi. cbn [filter fst] in Hi. destruct (nearb wNames wMbs qG p (tE n)) eqn:B; [|simpl in Hi; lia]. simpl in Hi. assert (i = 0)%nat as -> by lia.
    destruct n as [|n]; [exfalso; apply N0; apply nearb_true; exact B|].
    assert (NP : nth_error (nearPairs wNames wMbs qG (tE (S n)) (alive (ops ++ updates wData tE (S n)))) 0 = Some (p, map tE (seq 0 (S n)))) by (rewrite AL; unfold nearPairs; cbn [filter fst]; rewrite B; reflexivity).
    destruct (row_lemma wNames wMbs qG wData 1 _ c1 (tE (S n)) c4 h4 0 p _ R2 HS1 H NP eq_refl) as (xi & IF & RW).
    assert (xi = 3 / 2) as -> by (destruct IF as [(_ & ->)|(HH & _)]; [reflexivity|cbn in HH; lra]).
    apply RW. rewrite lastNormal_seq, HRate. unfold p. rewrite tDist. cbn. lra.
  - intros n _. rewrite HRate. unfold p. rewrite !tDist. unfold tH. simpl. lra.
  - intros n _. unfold p. rewrite !tDist. unfold tH. simpl. pose proof (tH_pos n) as P. unfold tH in P.
    assert ((/ 2) ^ n <= 1) by (clear; induction n; simpl; lra). lra.
Qed.

(** A hull used in two pairs at different places of its body: the row of the first pair has no description. *)
Definition qP2 : pairSpec := CollisionModel.mkPS 8%Z 0 "foot" 0 (pt_trans (mkV3 100 0 0)) 1 "box" 1 pt_id 4 1 3 0 (vfill 0 0) (vfill 0 0).
Lemma q2Dist t v h : 0 <= t + 100 -> pDist wNames wMbs qG qP2 (mkEnv (qK t v) h) = t + 100.
Proof. intros H. exact (qDist 3 0 100 t v H). Qed.
Definition qOwn (X : PT) (o : nat) : option (nat * nat * PT) := if Nat.eqb o 0 then Some (0%nat, 0%nat, X) else Some (1%nat, 0%nat, pt_id).
Lemma shared_refuted_lemma : exists nm mbs G d step ops c e c' h',
  reaches nm mbs G d step ops c /\ pathsOk nm mbs /\ namesOk nm /\ step <> 0 /\ (forall p, In p (addsOf ops) -> psDi p <> psDs p) /\
  colUpdate mbs d G (eK e) (eH e) c = Ok (c', h') /\ coNr c' = 1%nat /\ descInEq nm G h' c' 0 = None.
Proof.
  set (p := qP 3 0 qX). set (e := qE 2 0).
  assert (NK : namesOk wNames).
  { intros r b i H. destruct r as [|[|r]]; simpl in H; [| |discriminate].
    - destruct (String.eqb_spec b "foot"); [injection H as <-; simpl; auto|]. destruct (String.eqb_spec b "hand"); [injection H as <-; simpl; auto|discriminate].
    - destruct (String.eqb_spec b "box"); [|discriminate]. simpl. destruct i; auto. }
  assert (HR : exists c0 c, newCol wMbs 1 = Ok c0 /\ colRun wNames wMbs qG c0 [CAdd p; CAdd qP2; CNr wData] = Ok c) by (do 2 eexists; split; [reflexivity|cbn; reflexivity]).
  destruct HR as (c0 & c & N0 & RN). pose proof N0 as N0'. unfold newCol in N0. apply bind_Ok in N0 as (md & HM & N0). injection N0 as <-.
  assert (HB : forall r mb beg, nth_error wMbs r = Some mb -> alphaDBegin wData r = Ok beg -> (beg + nrDof mb <= sdTotalAlphaD wData)%nat) by (intros; eapply beginEnd; eauto; exact wData_eq).
  assert (TC : (sdTotalAlphaD wData <= sdNrVars wData)%nat) by (cbv; lia).
  assert (SZ : sizedFor wData [CAdd p; CAdd qP2; CNr wData]) by (exists [CAdd p; CAdd qP2], [], []; split; [reflexivity|]; split; [constructor|]; split; [constructor|]; left; reflexivity).
  assert (SI : szInv wData md 1 c /\ roomy c) by (eapply (sized_lemma wNames wMbs qG wData md 1 HB TC); [|exact SZ|exact RN]; repeat split).
  destruct SI as (((I0 & _) & T & V & rows & W) & RM). 
  assert (RW : mrows (coA c) = rows) by (destruct W as (_ & _ & _ & _ & W & _); exact W). unfold roomy in RM.
  assert (ST : exists a b, coData c = [a; b] /\ rel wNames wMbs qG (p, []) a /\ rel wNames wMbs qG (qP2, []) b).
  { cbn [colRun colStep] in RN. apply bind_Ok in RN as (c1 & R1 & RN). apply bind_Ok in RN as (c2 & R2 & RN). apply bind_Ok in RN as (c3 & R3 & RN). injection RN as ->.
    apply addCollision_Ok in R1 as (W1 & ->). apply addCollision_Ok in R2 as (W2 & ->). unfold colNrVars, updateNrCollisions in R3. cbn in R3. injection R3 as <-.
    do 2 eexists. split; [reflexivity|]. split; (split; [assumption|]; cbn; repeat (split; [reflexivity|]); unfold dampRel; cbn; destruct (Rltb 0 3) eqn:B3; [auto|apply Rltb_false in B3; lra]). }
  destruct ST as (a & b & DT & RA & RB). rewrite DT in RM. simpl in RM.
  assert (D1 : pDist wNames wMbs qG p e = 2) by (unfold p, e, qX; rewrite qDist by lra; ring).
  assert (B1 : nearb wNames wMbs qG p e = true) by (apply nearb_true; unfold near; rewrite D1; cbn; lra).
  assert (F1 : Forall (bFits wMbs wData md (sdTotalAlphaD wData)) (bodiesOf wNames wMbs p)) by (eapply pairFits; [exact wData_eq|exact wPaths|exact HM|apply RA]).
  assert (F2 : Forall (bFits wMbs wData md (sdTotalAlphaD wData)) (bodiesOf wNames wMbs qP2)) by (eapply pairFits; [exact wData_eq|exact wPaths|exact HM|apply RB]).
  assert (O1 : ownsPair wNames wMbs (qOwn qX) p) by (split; reflexivity).
  destruct (colPair_ok wNames wMbs qG wData (qOwn qX) 1 (sdTotalAlphaD wData) md (sdNrVars wData) rows p [] a e (eH e) 0 (rowsOf c) O1 (hInv_start _ e) RA W TC F1 ltac:(cbn; lra) ltac:(lra) ltac:(intros _; lia)) as (a' & h1 & nr1 & w1 & E1 & N1 & _).
  pose proof (colPair_rel wNames wMbs qG _ wData 1 _ p [] a e _ _ _ _ _ _ _ O1 (hInv_start _ e) RA E1) as (RA' & _).
  pose proof (colPair_keep wMbs qG wData (eK e) 1 _ md (sdNrVars wData) rows _ _ _ _ _ _ _ _ W TC HB E1) as (W1 & _).
  set (e2 := mkEnv (eK e) h1). assert (O2 : ownsPair wNames wMbs (qOwn (pt_trans (mkV3 100 0 0))) qP2) by (split; reflexivity).
  assert (D2 : pDist wNames wMbs qG qP2 e2 = 102) by (unfold e2, e, qE; cbn [eK]; rewrite q2Dist by lra; ring).
  assert (B2 : nearb wNames wMbs qG qP2 e2 = false) by (apply nearb_false; unfold near; rewrite D2; cbn; lra).
  destruct (colPair_ok wNames wMbs qG wData _ 1 (sdTotalAlphaD wData) md (sdNrVars wData) rows qP2 [] b e2 h1 nr1 w1 O2 (hInv_start _ e2) RB W1 TC F2 ltac:(cbn; lra) ltac:(lra) ltac:(intros X; congruence)) as (b' & h2 & nr2 & w2 & E2 & N2 & _).
  pose proof (colPair_rel wNames wMbs qG _ wData 1 _ qP2 [] b e2 _ _ _ _ _ _ _ O2 (hInv_start _ e2) RB E2) as (RB' & _ & _ & P1 & P2).
  rewrite B1 in N1. rewrite B2 in N2. subst nr1 nr2. rewrite (hPose1 _ _ _ _ _ O2) in P1. rewrite (hPose2 _ _ _ _ _ O2) in P2.
  exists wNames, wMbs, qG, wData, 1, [CAdd p; CAdd qP2; CNr wData], c, e. do 2 eexists.
  split; [split; [eauto|split; [exists [], wBi, wDeps; exact wData_eq|exact SZ]]|]. split; [exact wPaths|]. split; [exact NK|]. split; [lra|]. split; [intros q [<-|[<-|[]]]; cbn; lra|].
  split; [unfold colUpdate; rewrite I0, T, DT; cbn [colPairs]; fold (rowsOf c); rewrite E1; cbn [bind]; change (eK e) with (eK e2); rewrite E2; cbn [bind]; reflexivity|].
  cbn [coNr]. split; [reflexivity|]. unfold descInEq. cbn [coData descLoop]. cbv zeta.
  destruct RA' as (_ & _ & A1 & A2 & A3 & _). destruct RB' as (_ & _ & A4 & A5 & A6 & _). rewrite A1, A2, A3, A4, A5, A6.
  change (psH1 p) with (psH1 qP2). change (psH2 p) with (psH2 qP2). rewrite P1, P2.
  assert (DD : sdist (gDist2 qG (psH1 qP2) (psH2 qP2) (pose1 wNames wMbs qP2 e2) (pose2 wNames wMbs qP2 e2)) = 102) by (rewrite sdist_root; exact D2). rewrite DD.
  cbn. unfold Rltb. destruct (Rlt_dec 102 4) as [X|_]; [lra|]. reflexivity.
Qed.

Lemma wNamesOk : namesOk wNames.
Proof.
  intros r b i H. destruct r as [|[|r]]; simpl in H; [| |discriminate].
  - destruct (String.eqb_spec b "foot"); [injection H as <-; simpl; auto|]. destruct (String.eqb_spec b "hand"); [injection H as <-; simpl; auto|discriminate].
  - destruct (String.eqb_spec b "box"); [|discriminate]. simpl. destruct i; auto.
Qed.
Lemma number_lemma nm mbs G d step ops c e : reaches nm mbs G d step ops c -> sound nm mbs step (addsOf ops) ->
  exists c' h', colUpdate mbs d G (eK e) (eH e) c = Ok (c', h') /\ iqNr (colInEq c') = length (nearPairs nm mbs G e (alive ops)) /\
    iqMax (colInEq c') = length (alive ops) /\ mcols (iqA (colInEq c')) = sdNrVars d.
Proof.
  intros HR HS. destruct (update_lemma nm mbs G d step ops c e HR HS) as (c' & h' & own & E & N & C & _ & F & _). exists c', h'. split; [exact E|]. split; [exact N|]. split; [|exact C].
  cbn. unfold colMax. apply Forall2_len in F. rewrite map_length in F. auto.
Qed.
Lemma desc_lemma' nm mbs G d step ops c e c' h' k : reaches nm mbs G d step ops c -> sound nm mbs step (addsOf ops) -> namesOk nm ->
  colUpdate mbs d G (eK e) (eH e) c = Ok (c', h') ->
  match nth_error (nearPairs nm mbs G e (alive ops)) k with
  | Some (p, _) => exists damp, descInEq nm G h' c' k = Some (mkCDesc (mobileBodies mbs p) (psId p) (pDist nm mbs G p e) (psDi p) (psDs p) damp)
  | None => descInEq nm G h' c' k = None
  end.
Proof.
  intros HR HS HN HU. pose proof (desc_lemma nm mbs G d step ops c e c' h' k HR HS HN HU) as D. destruct (nth_error _ k) as [[p hs]|]; [|auto]. destruct D as (xi & _ & D). eauto.
Qed.
Lemma desc_damping_exact nm mbs G d step ops c e c' h' k p hs : reaches nm mbs G d step ops c -> sound nm mbs step (addsOf ops) -> namesOk nm ->
  colUpdate mbs d G (eK e) (eH e) c = Ok (c', h') -> nth_error (nearPairs nm mbs G e (alive ops)) k = Some (p, hs) -> movable mbs (psR1 p) = true ->
  exists xi dsc, inForce nm mbs G (distRate nm mbs G) p (hs ++ [e]) xi /\ descInEq nm G h' c' k = Some dsc /\ deDamp dsc = xi + psOff p.
Proof.
  intros HR HS HN HU Hk M. pose proof (desc_lemma nm mbs G d step ops c e c' h' k HR HS HN HU) as D. rewrite Hk in D. destruct D as (xi & IF & D).
  do 2 eexists. split; [apply inForce_mobile; eauto|]. split; [exact D|]. reflexivity.
Qed.
