(** Properties of ImageConstr. *)
From Verif Require Import ImageWitness.
Open Scope string_scope.
Open Scope list_scope.
Open Scope R_scope.

(** C54, what holds: in the field of view, row k is the k-th side which a feature approaches, and it holds at x exactly when
    the coordinate, moving for one step with its velocity and with the acceleration which x gives it, goes towards the safety
    limit by at most damping * (what is left of the zone / width of the zone) - offset. *)
Theorem C54_rows : forall F nm mbs r body d step ops a c K,
  iReaches F nm mbs r body d step 1 ops a c -> limOk a ->
  exists c', imUpdate F mbs K c = Ok c' /\ iqNr (imInEq c') = length (sideRows (fovSide a) (pointsAfter ops)) /\
    forall k j p i s, nth_error (sideRows (fovSide a) (pointsAfter ops)) k = Some (j, p, i, s) -> forall x, holdsRow (sdNrVars d) x (imInEq c') k <->
      fovAsk a p i s (moved F nm mbs r body d step K p x i).
Proof. exact fov_rows. Qed.
Print Assumptions C54_rows.
(** As a whole: exactly the features strictly between an interactive limit and its safety limit are restricted. *)
Theorem C54_exact : forall F nm mbs r body d step ops a c K c',
  iReaches F nm mbs r body d step 1 ops a c -> limOk a -> imUpdate F mbs K c = Ok c' ->
  forall x, holdsIneq (sdNrVars d) x (imInEq c') <-> forall p i, In p (pointsAfter ops) -> (i < 2)%nat ->
    (nearLow a p i -> fovAsk a p i false (moved F nm mbs r body d step K p x i)) /\ (nearHigh a p i -> fovAsk a p i true (moved F nm mbs r body d step K p x i)).
Proof. exact fov_all. Qed.
Print Assumptions C54_exact.
(** Two features, the first near the right and upper limits, the second in the middle. *)
Example C54_used : exists c c', iReaches iF wNames wMbs 0 "hand" wData 1 1 (iOps [(5 / 8, 5 / 8); (0, 0)]) iA c /\ imUpdate iF wMbs iK c = Ok c' /\ iqNr (imInEq c') = 2%nat /\
  forall x, holdsIneq (sdNrVars wData) x (imInEq c') <-> 1 / 2 * (x 0%nat + x 1%nat) <= 1 / 16.
Proof.
  destruct (iReach 1 [(5 / 8, 5 / 8); (0, 0)]) as (c & HR). destruct (C54_rows _ _ _ _ _ _ _ _ _ _ iK HR iOk) as (c' & U & N & _). exists c, c'. split; [exact HR|]. split; [exact U|]. split.
  - rewrite N, iPoints. unfold sideRows, numbered. cbn [map length seq combine flat_map fst snd]. rewrite !iSide. cbn [ax ipAt fst snd].
    rewrite (inb_f _ 0 (- 1 / 2)) by lra. rewrite (inb_f _ 0 (3 / 4)) by lra. rewrite (inb_f _ (5 / 8) (- 1 / 2)) by lra. rewrite (inb_t (1 / 2) (5 / 8) (3 / 4)) by lra. reflexivity.
  - intros x. rewrite (C54_exact _ _ _ _ _ _ _ _ _ _ _ _ HR iOk U x). rewrite iPoints. cbn [map In]. split.
    + intros H. destruct (H (mkIP (5 / 8, 5 / 8) 1) 0%nat) as (_ & Q); [auto|lia|]. unfold nearHigh, fovAsk in Q. rewrite iHighS, iHighI, iShift in Q. cbn [ax ipAt fst iA aDamp aOff] in Q. specialize (Q ltac:(lra)). lra.
    + intros H p i [<-|[<-|[]]] Hi; destruct i as [|[|i]]; try lia; unfold nearLow, nearHigh, fovAsk; rewrite iLowS, iLowI, iHighS, iHighI; rewrite ?iShift, ?iShiftY; cbn [ax ipAt fst snd iA aDamp aOff]; split; intros; lra.
Qed.
(** C54 refuted as stated: a feature inside the image but beyond the safety limit has no row: every solution is accepted,
    also those which send it out of the image. *)
Theorem C54_refuted : exists F nm mbs r body d step ops a c p, iReaches F nm mbs r body d step 1 ops a c /\ limOk a /\ 0 < step /\ In p (pointsAfter ops) /\ highS a 0 < ax (ipAt p) 0 /\ ax (ipAt p) 0 <= ax (aMax a) 0 /\
  exists K c', imUpdate F mbs K c = Ok c' /\ (forall x, holdsIneq (sdNrVars d) x (imInEq c')) /\ exists x, 1000 < moved F nm mbs r body d step K p x 0.
Proof. exact beyond_lemma. Qed.
Print Assumptions C54_refuted.

(** C81 refuted as stated: a point of the robot (addPoint with a body) takes two rows of the maximum and never gets one. *)
Theorem C81_refuted : exists F nm mbs r body d step ops a c, iReaches F nm mbs r body d step 1 ops a c /\ limOk a /\ robAfter ops <> [] /\ iqMax (imInEq c) = 2%nat /\
  forall K c', imUpdate F mbs K c = Ok c' -> iqNr (imInEq c') = 0%nat.
Proof. exact robot_point_lemma. Qed.
Print Assumptions C81_refuted.

(** C82, what holds with occlusion: a row asks the coordinate to move away from the rectangle, by an amount that is largest at the
    interactive limit and zero at the safety limit. *)
Theorem C82_occlusion : forall F nm mbs r body d step ops a c K,
  iReaches F nm mbs r body d step (- 1) ops a c -> limOk a ->
  exists c', imUpdate F mbs K c = Ok c' /\ iqNr (imInEq c') = length (sideRows (occSide a) (pointsAfter ops)) /\
    forall k j p i s, nth_error (sideRows (occSide a) (pointsAfter ops)) k = Some (j, p, i, s) -> forall x, holdsRow (sdNrVars d) x (imInEq c') k <->
      occAsk a p i s (moved F nm mbs r body d step K p x i).
Proof. exact occ_rows. Qed.
Print Assumptions C82_occlusion.
(** In the field of view a solution that leaves every feature where it is satisfies the constraint, if the offset is zero. *)
Theorem C82_still : forall F nm mbs r body d step ops a c K c' x,
  iReaches F nm mbs r body d step 1 ops a c -> limOk a -> imUpdate F mbs K c = Ok c' -> 0 <= aDamp a -> aOff a = 0 ->
  (forall p i, In p (pointsAfter ops) -> (i < 2)%nat -> moved F nm mbs r body d step K p x i = 0) -> holdsIneq (sdNrVars d) x (imInEq c').
Proof. exact still_ok. Qed.
Print Assumptions C82_still.
Example C82_used : exists c c', iReaches iF wNames wMbs 0 "hand" wData 1 1 (iOps [(5 / 8, 5 / 8)]) iA c /\ imUpdate iF wMbs iK c = Ok c' /\ holdsIneq (sdNrVars wData) (fun j => if Nat.eqb j 0 then 3 else if Nat.eqb j 1 then - 3 else 7) (imInEq c').
Proof.
  destruct (iReach 1 [(5 / 8, 5 / 8)]) as (c & HR). destruct (C54_rows _ _ _ _ _ _ _ _ _ _ iK HR iOk) as (c' & U & _). exists c, c'. split; [exact HR|]. split; [exact U|].
  apply (C82_still _ _ _ _ _ _ _ _ _ _ _ _ _ HR iOk U); [cbn; lra|reflexivity|]. intros p [|[|i]] _ Hi; [rewrite iShift; cbn; lra|apply iShiftY|lia].
Qed.
(** C82 refuted as stated: with occlusion the motionless feature is refused. *)
Theorem C82_refuted : exists F nm mbs r body d step ops a c p, iReaches F nm mbs r body d step (- 1) ops a c /\ limOk a /\ 0 < step /\ 0 < aDamp a /\ aOff a = 0 /\ pointsAfter ops = [p] /\
  exists K c' x, imUpdate F mbs K c = Ok c' /\ (forall i, (i < 2)%nat -> moved F nm mbs r body d step K p x i = 0) /\ ~ holdsIneq (sdNrVars d) x (imInEq c').
Proof. exact still_lemma. Qed.
Print Assumptions C82_refuted.

(** C83: a feature measured before every update, which moves as predicted while it is in a zone and never by more than the width of a zone, stays
    strictly inside the safety limits, if the damping is less than the width of the zone. *)
Theorem C83_image_safety : forall F nm mbs r body d step ops a c id i ps Ks xs,
  iReaches F nm mbs r body d step 1 ops a c -> limOk a -> (id < length (pointsAfter ops))%nat -> (i < 2)%nat ->
  0 < aDamp a < (aI a - aS a) * width a i -> 0 <= aOff a ->
  (forall n c', iRun F nm mbs c (tracks id ps Ks (S n)) = Ok c' -> holdsIneq (sdNrVars d) (xs n) (imInEq c')) ->
  lowS a i < ax (ipAt (ps 0%nat)) i < highS a i ->
  (forall n, nearLow a (ps n) i \/ nearHigh a (ps n) i -> ax (ipAt (ps (S n))) i = ax (ipAt (ps n)) i + moved F nm mbs r body d step (Ks n) (ps n) (xs n) i) ->
  (forall n, Rabs (ax (ipAt (ps (S n))) i - ax (ipAt (ps n)) i) < (aI a - aS a) * width a i) ->
  forall n, lowS a i < ax (ipAt (ps n)) i < highS a i.
Proof. exact fov_safe. Qed.
Print Assumptions C83_image_safety.
(** 3/4 - 1/8, 3/4 - 1/16, ... *)
Example C83_used : (forall n, ax (ipAt (hp n)) 0 < 3 / 4) /\ ax (ipAt (hp 1)) 0 = 11 / 16.
Proof.
  split; [|cbn; lra]. destruct (iReach 1 [(5 / 8, 0)]) as (c & HR). intros n. rewrite <- (iHighS 0).
  apply (C83_image_safety iF wNames wMbs 0 "hand" wData 1 (iOps [(5 / 8, 0)]) iA c 0 0 hp (fun _ => iK) hx HR iOk); unfold width; cbn [iA aI aS aDamp aOff aMin aMax ax fst].
  - rewrite iPoints. cbn. lia.
  - lia.
  - lra.
  - lra.
  - exact (hRows c HR).
  - rewrite iHighS, iLowS. cbn. lra.
  - intros m _. rewrite iShift. unfold hx, hp. cbn. lra.
  - intros m. pose proof (half_pos m). apply Rabs_def1; cbn; lra.
Qed.

(** C84: the description of line l is that of feature l / 2 and axis l mod 2. *)
Theorem C84_exact : forall c line, imDesc c line = match nth_error (icPoints c) (line / 2) with Some p => Some ((line / 2)%nat, (line mod 2)%nat, ipAt p) | None => None end.
Proof. exact image_desc. Qed.
Print Assumptions C84_exact.
Example C84_used : exists c, iReaches iF wNames wMbs 0 "hand" wData 1 1 (iOps [(5 / 8, 0); (1 / 8, 0)]) iA c /\ imDesc c 3 = Some (1%nat, 1%nat, (1 / 8, 0)) /\ imDesc c 4 = None.
Proof.
  destruct (iReach 1 [(5 / 8, 0); (1 / 8, 0)]) as (c & HR). exists c. split; [exact HR|]. destruct HR as (_ & _ & (c0 & H0 & H) & _).
  rewrite !C84_exact, (proj1 (image_registry _ _ _ _ _ _ _ _ _ _ H0 H)), iPoints. split; reflexivity.
Qed.
(** C84 refuted as stated: row 0 may belong to another axis. *)
Theorem C84_refuted : exists F nm mbs r body d step ops a c K c' j p i s, iReaches F nm mbs r body d step 1 ops a c /\ limOk a /\ imUpdate F mbs K c = Ok c' /\
  nth_error (sideRows (fovSide a) (pointsAfter ops)) 0 = Some (j, p, i, s) /\ imDesc c' 0 <> Some (j, i, ipAt p).
Proof. exact mislabel_lemma. Qed.
Print Assumptions C84_refuted.

(** C85: the registry: numbers given by addPoint, effect of updatePoint and when it is defined, maximum of rows. *)
Theorem C85_image_registry : forall F nm mbs r body step dir ops c0 c, newImage nm mbs r body step dir = Ok c0 -> iRun F nm mbs c0 ops = Ok c ->
  icPoints c = pointsAfter ops /\ icRob c = robAfter ops /\ iqMax (imInEq c) = (2 * (length (pointsAfter ops) + length (robAfter ops)))%nat /\
  (forall p z, snd (imAdd2 p z c) = length (pointsAfter ops)) /\ (forall id p z, (exists c', imMove2 id p z c = Ok c') <-> (id < length (pointsAfter ops))%nat).
Proof. exact image_registry. Qed.
Print Assumptions C85_image_registry.
Example C85_used : exists c0 c, newImage wNames wMbs 0 "hand" 1 1 = Ok c0 /\ iRun iF wNames wMbs c0 [IAdd (1, 2) 3; IAdd (4, 5) 6; IMove 1 (7, 8); IMove2 0 (9, 10) 11; IRob "foot"] = Ok c /\
  icPoints c = [mkIP (9, 10) 11; mkIP (7, 8) 6] /\ snd (imAdd2 (0, 0) 1 c) = 2%nat /\ iqMax (imInEq c) = 6%nat /\ ~ exists c', imMove2 2 (0, 0) 1 c = Ok c'.
Proof.
  assert (X : exists c0 c, newImage wNames wMbs 0 "hand" 1 1 = Ok c0 /\ iRun iF wNames wMbs c0 [IAdd (1, 2) 3; IAdd (4, 5) 6; IMove 1 (7, 8); IMove2 0 (9, 10) 11; IRob "foot"] = Ok c) by (do 2 eexists; split; reflexivity).
  destruct X as (c0 & c & H0 & H). exists c0, c. split; [exact H0|]. split; [exact H|]. destruct (C85_image_registry _ _ _ _ _ _ _ _ _ _ H0 H) as (A & _ & B & D & E).
  split; [exact A|]. split; [apply D|]. split; [exact B|]. rewrite (E 2%nat). cbn. lia.
Qed.
