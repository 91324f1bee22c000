(** Properties of CoMIncPlaneConstr. *)
From Verif Require Import PlaneWitness.
Open Scope string_scope.
Open Scope list_scope.
Open Scope R_scope.

(** C49: after any calls that allocate the matrices after the last addition, an update is defined, gives one row for each plane
    within its interactive distance, in order of addition, and row k holds exactly when the rate of the distance after one
    time step, under the accelerations of x weighted by the selector, is at least - xi (dist - ds) / (di - ds), with the damping in force xi. *)
Theorem C49_rows : forall mbs r d step ops c K,
  plReaches mbs r d step ops c -> plSound (planesAfter ops) -> vlen (selOf mbs r ops) = nrDof (robot mbs r) ->
  exists c', plUpdate mbs K c = Ok c' /\ iqNr (plInEq c') = length (withinPlanes K (planesAfter ops)) /\
    forall k p hs, nth_error (withinPlanes K (planesAfter ops)) k = Some (p, hs) ->
      exists xi, plForce p (hs ++ [K]) xi /\ forall x, holdsRow (sdNrVars d) x (plInEq c') k <->
        - xi * ((plDist p K - plDs p) / (plDi p - plDs p)) <= plNext step (nrDof (robot mbs r)) (beginOf d r) (selOf mbs r ops) p K x.
Proof. intros mbs r d step ops c K. exact (plane_rows mbs r d step ops c K). Qed.
Print Assumptions C49_rows.
(** Two planes out of reach, then both within reach: the damping of the first one is the one of the user, the damping of the
    second one was chosen from the speed at entry. *)
Example C49_rows_used : exists c1 c', plReaches wMbs 0 wData 1 (aOps ++ [LUp (aK 3 3 0 0)]) c1 /\ plUpdate wMbs aNow c1 = Ok c' /\ iqNr (plInEq c') = 2%nat /\
  exists xi, plForce (aY 0 (1 / 4)) [aK 3 3 0 0; aNow] xi /\ xi = 5 / 4.
Proof.
  destruct aReach as (c & c1 & _ & HR & _). destruct (C49_rows _ _ _ _ _ c1 aNow HR) as (c' & E & N & ROWS).
  - repeat constructor; cbn; lra.
  - reflexivity.
  - exists c1, c'. split; [exact HR|]. split; [exact E|]. cbn [planesAfter aOps planesFrom app map fst snd] in N, ROWS. rewrite aWithin in N, ROWS. split; [exact N|].
    destruct (ROWS 1%nat _ _ eq_refl) as (xi & FO & _). exists xi. split; [exact FO|].
    destruct FO as [(H & _)|(_ & K0 & EN & ->)]; [cbn in H; lra|].
    assert (K0 = aNow) as ->.
    { apply (entered_uniq _ _ _ _ EN). apply (entered_now _ [aK 3 3 0 0]); [unfold within, aNow; rewrite aDistY; cbn; lra|].
      right. exists (aK 3 3 0 0), []. split; [reflexivity|]. unfold within. rewrite aDistY. cbn. lra. }
    unfold plEntry, aNow. rewrite aDistY, aRateY. cbn. destruct (Rle_dec _ _); lra.
Qed.

(** C49: when no plane is exactly at its interactive distance, descInEq names the plane of row k with the damping in force, and nothing after the
    last row. *)
Theorem C49_description : forall mbs r d step ops c K c',
  plReaches mbs r d step ops c -> plSound (planesAfter ops) -> vlen (selOf mbs r ops) = nrDof (robot mbs r) -> plUpdate mbs K c = Ok c' ->
  (forall p hs, In (p, hs) (planesAfter ops) -> plDist p K <> plDi p) ->
  forall k, match nth_error (withinPlanes K (planesAfter ops)) k with
    | Some (p, hs) => exists xi, plForce p (hs ++ [K]) xi /\ plDescInEq c' k = Some (plText p K xi) /\
        forall x, holdsRow (sdNrVars d) x (plInEq c') k <->
          - xi * ((plDist p K - plDs p) / (plDi p - plDs p)) <= plNext step (nrDof (robot mbs r)) (beginOf d r) (selOf mbs r ops) p K x
    | None => plDescInEq c' k = None end.
Proof. intros mbs r d step ops c K c'. exact (desc_plane mbs r d step ops c K c'). Qed.
Print Assumptions C49_description.
Example C49_description_used : exists c1 c' xi, plReaches wMbs 0 wData 1 (aOps ++ [LUp (aK 3 3 0 0)]) c1 /\ plUpdate wMbs aNow c1 = Ok c' /\
  plDescInEq c' 1 = Some (plText (aY 0 (1 / 4)) aNow xi) /\ plDescInEq c' 2 = None.
Proof.
  destruct aReach as (c & c1 & _ & HR & _). destruct (C49_rows _ _ _ _ _ c1 aNow HR) as (c' & E & _); [repeat constructor; cbn; lra|reflexivity|].
  assert (D := C49_description _ _ _ _ _ c1 aNow c' HR ltac:(repeat constructor; cbn; lra) eq_refl E).
  cbn [planesAfter aOps planesFrom app map fst snd] in D. rewrite aWithin in D.
  assert (NB : forall p hs, In (p, hs) [(aX (3 / 2) 0, [aK 3 3 0 0]); (aY 0 (1 / 4), [aK 3 3 0 0])] -> plDist p aNow <> plDi p).
  { intros p hs [X|[X|[]]]; injection X as <- <-; unfold aNow; [rewrite aDistX|rewrite aDistY]; cbn; lra. }
  pose proof (D NB 1%nat) as D1. pose proof (D NB 2%nat) as D2. cbn in D1, D2. destruct D1 as (xi & _ & D1 & _). exists c1, c', xi. auto.
Qed.
(** C49 refuted as stated: a plane exactly at its interactive distance has a row (dist <= di) that descInEq does not count (dist < di): line 0 is described as
    the second plane, and line 1 is not described. *)
Theorem C49_description_refuted : exists mbs r d step ops c K c' p hs q, plReaches mbs r d step ops c /\ plSound (planesAfter ops) /\
  vlen (selOf mbs r ops) = nrDof (robot mbs r) /\ plUpdate mbs K c = Ok c' /\
  nth_error (withinPlanes K (planesAfter ops)) 0 = Some (p, hs) /\ plDescInEq c' 0 = Some q /\ dpId q <> plId p /\
  iqNr (plInEq c') = 2%nat /\ plDescInEq c' 1 = None.
Proof. exact desc_plane_refuted_lemma. Qed.
Print Assumptions C49_description_refuted.

(** C76: after any calls: number of planes, the planes in order of addition, the selector, and what rmPlane reports. *)
Theorem C76_plane_registry : forall mbs r step ops c0 c,
  newPlanes mbs r step = Ok c0 -> plRun mbs c0 ops = Ok c ->
  nrPlanes c = length (planesAfter ops) /\ map pnS (pcData c) = map fst (planesAfter ops) /\ pcSel c = selOf mbs r ops /\
  forall id, snd (rmPlane id c) = true <-> In id (map (fun ph => plId (fst ph)) (planesAfter ops)).
Proof. intros mbs r step. exact (plane_registry mbs r step). Qed.
Print Assumptions C76_plane_registry.
(** Two planes with number 1 and one with number 2; one removal of 1 leaves the second one. *)
Example C76_used : exists c0 c, newPlanes wMbs 0 1 = Ok c0 /\
  plRun wMbs c0 [LAdd (aX 0 0); LAdd (aY 0 0); LAdd (aX 5 6); LRm 1%Z; LRm 9%Z] = Ok c /\ nrPlanes c = 2%nat /\ map pnS (pcData c) = [aY 0 0; aX 5 6] /\
  snd (rmPlane 1%Z c) = true /\ snd (rmPlane 9%Z c) = false.
Proof.
  assert (X : exists c0 c, newPlanes wMbs 0 1 = Ok c0 /\ plRun wMbs c0 [LAdd (aX 0 0); LAdd (aY 0 0); LAdd (aX 5 6); LRm 1%Z; LRm 9%Z] = Ok c) by (do 2 eexists; split; cbn; reflexivity).
  destruct X as (c0 & c & N0 & RN). exists c0, c. split; [exact N0|]. split; [exact RN|]. destruct (C76_plane_registry _ _ _ _ _ _ N0 RN) as (A & B & _ & D). split; [exact A|]. split; [exact B|].
  split; [apply D; cbn; auto|]. destruct (snd (rmPlane 9%Z c)) eqn:E; [|reflexivity]. apply D in E. cbn in E. destruct E as [E|[E|[]]]; discriminate.
Qed.

(** C77: along any trajectory of updates whose solutions satisfy the rows, the centre of mass starting beyond the security distance of a plane
    and moving with the predicted rate never comes closer, if step * damping is at most di - ds and no step taken out of reach is
    longer than di - ds. *)
Theorem C77_plane_security : forall mbs r d step ops c i p Ks xs,
  plReaches mbs r d step ops c -> plSound (planesAfter ops) -> vlen (selOf mbs r ops) = nrDof (robot mbs r) ->
  nth_error (planesAfter ops) i = Some (p, []) -> 0 < step -> plDs p < plDi p ->
  (forall n c', plRun mbs c (ups Ks (S n)) = Ok c' -> holdsIneq (sdNrVars d) (xs n) (plInEq c')) ->
  plDs p <= plDist p (Ks 0%nat) ->
  (forall n, within p (Ks n) -> plDist p (Ks (S n)) = plDist p (Ks n) + step * plNext step (nrDof (robot mbs r)) (beginOf d r) (selOf mbs r ops) p (Ks n) (xs n)) ->
  (forall n, ~ within p (Ks n) -> plDist p (Ks n) - (plDi p - plDs p) <= plDist p (Ks (S n))) ->
  (forall n xi, plForce p (map Ks (seq 0 n)) xi -> step * xi <= plDi p - plDs p) ->
  forall n, plDs p <= plDist p (Ks n).
Proof. intros mbs r d step. exact (plane_security mbs r d step). Qed.
Print Assumptions C77_plane_security.
(** Distances 2, 3/2, 5/4, ... *)
Example C77_used : (forall n, 1 <= plDist (aX (1 / 2) 0) (bK n)) /\ plDist (aX (1 / 2) 0) (bK 2) = 5 / 4.
Proof.
  destruct bReach as (c & HR). split; [|unfold bK; rewrite aDistX; simpl; lra].
  refine (C77_plane_security _ _ _ _ _ _ 0 (aX (1 / 2) 0) bK bX HR bSound eq_refl eq_refl _ _ (bRows c HR) _ _ _ _).
  - lra.
  - cbn; lra.
  - unfold bK. rewrite aDistX. simpl. lra.
  - intros n _. rewrite bNext. unfold bK. rewrite !aDistX. simpl. lra.
  - intros n H. exfalso. apply H. unfold within, bK. rewrite aDistX. cbn. pose proof (half_le n). lra.
  - intros n xi [(_ & ->)|(H & _)]; cbn in *; lra.
Qed.

(** C78: a plane whose damping in force is not negative accepts every motion away from it. The automatic damping is not negative when the centre of mass was
    approaching at entry and the offset is not negative. *)
Theorem C78_exact : forall mbs r d step ops c K c' k p hs x,
  plReaches mbs r d step ops c -> plSound (planesAfter ops) -> vlen (selOf mbs r ops) = nrDof (robot mbs r) -> plUpdate mbs K c = Ok c' ->
  nth_error (withinPlanes K (planesAfter ops)) k = Some (p, hs) -> plDs p < plDi p -> plDs p <= plDist p K ->
  0 < plDamping p \/ (0 <= plOff p /\ forall K0, entered (within p) (hs ++ [K]) K0 -> plRate p K0 <= 0) ->
  0 <= plNext step (nrDof (robot mbs r)) (beginOf d r) (selOf mbs r ops) p K x -> holdsRow (sdNrVars d) x (plInEq c') k.
Proof. exact away_exact_lemma. Qed.
Print Assumptions C78_exact.
(** A centre of mass at rest after an approach. *)
Example C78_used : exists c1 c', plUpdate wMbs aNow c1 = Ok c' /\ holdsRow (sdNrVars wData) (fun j => if Nat.eqb j 1 then 1 else 2) (plInEq c') 1.
Proof.
  destruct aReach as (c & c1 & _ & HR & _). destruct (C49_rows _ _ _ _ _ c1 aNow HR) as (c' & E & _); [repeat constructor; cbn; lra|reflexivity|].
  exists c1, c'. split; [exact E|]. apply (C78_exact _ _ _ _ _ c1 aNow c' 1 (aY 0 (1 / 4)) [aK 3 3 0 0] _ HR); auto.
  - repeat constructor; cbn; lra.
  - cbn [planesAfter aOps planesFrom app map fst snd]. rewrite aWithin. reflexivity.
  - cbn. lra.
  - unfold aNow. rewrite aDistY. cbn. lra.
  - right. split; [cbn; lra|]. intros K0 EN.
    assert (K0 = aNow) as ->.
    { apply (entered_uniq _ _ _ _ EN). apply (entered_now _ [aK 3 3 0 0]); [unfold within, aNow; rewrite aDistY; cbn; lra|].
      right. exists (aK 3 3 0 0), []. split; [reflexivity|]. unfold within. rewrite aDistY. cbn. lra. }
    unfold aNow. rewrite aRateY. lra.
  - unfold plNext, aNow. rewrite aRateY. unfold comAcc, dot, vadd, vsub. cbn. lra.
Qed.
(** C78 refuted as stated: the automatic damping of a plane added while the centre of mass is within reach and moves away is negative: a motion that
    goes on moving away, but slower, violates the row. *)
Theorem C78_refuted : exists mbs r d step ops c K c' p x, plReaches mbs r d step ops c /\ plSound (planesAfter ops) /\
  vlen (selOf mbs r ops) = nrDof (robot mbs r) /\ plUpdate mbs K c = Ok c' /\ nth_error (withinPlanes K (planesAfter ops)) 0 = Some (p, []) /\
  plDs p < plDist p K /\ 0 <= plDamping p /\ 0 <= plOff p /\ 0 < plRate p K /\ 0 < plNext step (nrDof (robot mbs r)) (beginOf d r) (selOf mbs r ops) p K x /\
  ~ holdsRow (sdNrVars d) x (plInEq c') 0.
Proof. exact away_refuted_lemma. Qed.
Print Assumptions C78_refuted.
