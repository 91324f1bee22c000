(** Concrete image constraints. *)
From Verif Require Export ImageFacts ContactFacts.
Open Scope string_scope.
Open Scope list_scope.
Open Scope R_scope.

(** The camera is on the hand and the x coordinate of every feature follows the hand. *)
Definition iF : imgFun := mkImg (fun _ _ i q => if Nat.eqb i q then 1 else 0) (fun _ _ _ => 0) (fun _ _ _ _ _ _ => 0).
Definition iK : camKin := mkCam (fun q _ => if Nat.eqb q 0 then 1 else 0) (fun _ => 0) (fun _ => 0).
(** Image [-1, 1] x [-1, 1]; interactive limits 1/2 from the edges, safety limits 1/4 from the edges. *)
Definition iA : limArgs := mkLA (- 1, - 1) (1, 1) (1 / 4) (1 / 8) (1 / 8) 0.
Lemma iOk : limOk iA. Proof. unfold limOk, width. cbn. lra. Qed.
Lemma iHighS i : highS iA i = 3 / 4. Proof. unfold highS, width. destruct i; cbn; lra. Qed.
Lemma iHighI i : highI iA i = 1 / 2. Proof. unfold highI, width. destruct i; cbn; lra. Qed.
Lemma iLowS i : lowS iA i = - 3 / 4. Proof. unfold lowS, width. destruct i; cbn; lra. Qed.
Lemma iLowI i : lowI iA i = - 1 / 2. Proof. unfold lowI, width. destruct i; cbn; lra. Qed.
Definition iOps (l : list V2) : list iOp := ILim iA :: map (fun p => IAdd p 1) l ++ [INr wData].
Lemma iRun_adds : forall l c, exists c', iRun iF wNames wMbs c (map (fun p => IAdd p 1) l) = Ok c' /\ icRobot c' = icRobot c.
Proof. induction l as [|p l IH]; intros c; [exists c; split; reflexivity|]. cbn [map iRun iStep bind]. exact (IH (fst (imAdd2 p 1 c))). Qed.
Lemma iReach dir l : exists c, iReaches iF wNames wMbs 0 "hand" wData 1 dir (iOps l) iA c.
Proof.
  assert (X : exists c0 c, newImage wNames wMbs 0 "hand" 1 dir = Ok c0 /\ iRun iF wNames wMbs c0 (iOps l) = Ok c).
  { assert (N : exists c0, newImage wNames wMbs 0 "hand" 1 dir = Ok c0 /\ icRobot c0 = 0%nat) by (eexists; split; reflexivity). destruct N as (c0 & N & RB).
    destruct (iRun_adds l (setLimits (aMin iA) (aMax iA) (aI iA) (aS iA) (aDamp iA) (aOff iA) c0)) as (c1 & E & E2).
    destruct (imNrVars wData c1) as [c2| |] eqn:E3; [|unfold imNrVars in E3; rewrite E2 in E3; cbn [setLimits icRobot] in E3; rewrite RB in E3; discriminate..].
    exists c0, c2. split; [exact N|]. unfold iOps. cbn [iRun iStep bind]. rewrite iRun_app, E. cbn [bind iRun iStep]. rewrite E3. reflexivity. }
  destruct X as (c0 & c & H0 & H). exists c. split; [exists [], wBi, wDeps; apply wData_eq|]. split; [apply wPaths|]. split; [exists c0; auto|]. split.
  - exists (ILim iA :: map (fun p => IAdd p 1) l), []. split; [reflexivity|constructor].
  - exists [], (map (fun p => IAdd p 1) l ++ [INr wData]). split; [reflexivity|]. intros a Ha. apply in_app_iff in Ha as [Ha|[Ha|[]]]; [|discriminate]. apply in_map_iff in Ha as (p & Ha & _). discriminate.
Qed.
Lemma iPts l : forall l0, pointsFrom l0 (map (fun p => IAdd p 1) l ++ [INr wData]) = l0 ++ map (fun p => mkIP p 1) l.
Proof. induction l as [|p l IH]; intros l0; [cbn; rewrite app_nil_r; reflexivity|]. cbn [map app pointsFrom]. rewrite IH, <- app_assoc. reflexivity. Qed.
Lemma iPoints l : pointsAfter (iOps l) = map (fun p => mkIP p 1) l.
Proof. unfold pointsAfter, iOps. cbn [pointsFrom]. apply iPts. Qed.
Lemma iShift p x : moved iF wNames wMbs 0 "hand" wData 1 iK p x 0 = 1 / 2 * (x 0%nat + x 1%nat).
Proof. unfold moved, featAcc, featVel, jacDot, sumn. cbn. lra. Qed.
Lemma iShiftY p x : moved iF wNames wMbs 0 "hand" wData 1 iK p x 1 = 0.
Proof. unfold moved, featAcc, featVel, jacDot, sumn. cbn. lra. Qed.
Lemma inb_t u v w : u < v < w -> inb u v w = true. Proof. apply inb_true. Qed.
Lemma inb_f u v w : ~ u < v < w -> inb u v w = false. Proof. apply inb_false. Qed.
Lemma iSide p i : fovSide iA p i = if inb (- 3 / 4) (ax (ipAt p) i) (- 1 / 2) then [false] else if inb (1 / 2) (ax (ipAt p) i) (3 / 4) then [true] else [].
Proof. unfold fovSide. rewrite iLowS, iLowI, iHighS, iHighI. reflexivity. Qed.

(** A feature beyond the safety limit on the right: no row. *)
Lemma beyond_lemma : exists F nm mbs r body d step ops a c p, iReaches F nm mbs r body d step 1 ops a c /\ limOk a /\ 0 < step /\ In p (pointsAfter ops) /\ highS a 0 < ax (ipAt p) 0 /\ ax (ipAt p) 0 <= ax (aMax a) 0 /\
  exists K c', imUpdate F mbs K c = Ok c' /\ (forall x, holdsIneq (sdNrVars d) x (imInEq c')) /\ exists x, 1000 < moved F nm mbs r body d step K p x 0.
Proof.
  destruct (iReach 1 [(7 / 8, 0)]) as (c & HR). exists iF, wNames, wMbs, 0%nat, "hand", wData, 1, (iOps [(7 / 8, 0)]), iA, c, (mkIP (7 / 8, 0) 1).
  split; [exact HR|]. split; [exact iOk|]. split; [lra|]. split; [left; reflexivity|]. split; [rewrite iHighS; cbn; lra|]. split; [cbn; lra|].
  destruct (fov_rows _ _ _ _ _ _ _ _ _ _ iK HR iOk) as (c' & U & _). exists iK, c'. split; [exact U|]. split; [|exists (fun _ => 2000); rewrite iShift; lra].
  intros x. apply (fov_all _ _ _ _ _ _ _ _ _ _ _ _ HR iOk U x). rewrite iPoints. intros p i [<-|[]] Hi. unfold nearLow, nearHigh. rewrite iLowS, iLowI, iHighS, iHighI.
  destruct i as [|[|i]]; cbn [ax ipAt fst snd]; [| |lia]; split; intros H; lra.
Qed.
(** A point of the robot: no row whatever the camera does. *)
Lemma robot_point_lemma : exists F nm mbs r body d step ops a c, iReaches F nm mbs r body d step 1 ops a c /\ limOk a /\ robAfter ops <> [] /\ iqMax (imInEq c) = 2%nat /\
  forall K c', imUpdate F mbs K c = Ok c' -> iqNr (imInEq c') = 0%nat.
Proof.
  assert (X : exists c0 c, newImage wNames wMbs 0 "hand" 1 1 = Ok c0 /\ iRun iF wNames wMbs c0 [ILim iA; IRob "foot"; INr wData] = Ok c) by (do 2 eexists; split; reflexivity).
  destruct X as (c0 & c & H0 & H). assert (HR : iReaches iF wNames wMbs 0 "hand" wData 1 1 [ILim iA; IRob "foot"; INr wData] iA c).
  { split; [exists [], wBi, wDeps; apply wData_eq|]. split; [apply wPaths|]. split; [exists c0; auto|]. split; [exists [ILim iA; IRob "foot"], []; split; [reflexivity|constructor]|].
    exists [], [IRob "foot"; INr wData]. split; [reflexivity|]. intros a [Q|[Q|[]]]; discriminate. }
  exists iF, wNames, wMbs, 0%nat, "hand", wData, 1, [ILim iA; IRob "foot"; INr wData], iA, c. split; [exact HR|]. split; [exact iOk|]. split; [discriminate|].
  split; [apply (image_registry _ _ _ _ _ _ _ _ _ _ H0 H)|]. intros K c' U. destruct (fov_rows _ _ _ _ _ _ _ _ _ _ K HR iOk) as (c2 & U2 & N & _). rewrite U in U2. injection U2 as <-. exact N.
Qed.
(** Occlusion: a feature left of the rectangle at rest is not accepted. *)
Lemma oSide : occSide iA (mkIP (- 11 / 8, 0) 1) 0 = [false].
Proof.
  unfold occSide, oLowI, oHighI, oLowS, oHighS, width. cbn [Nat.sub ax ipAt iA aMin aMax aI aS fst snd]. rewrite inb_t by lra. rewrite inb_t; [reflexivity|]. split; [lra|]. apply Rmin_glb_lt; lra.
Qed.
Lemma still_lemma : exists F nm mbs r body d step ops a c p, iReaches F nm mbs r body d step (- 1) ops a c /\ limOk a /\ 0 < step /\ 0 < aDamp a /\ aOff a = 0 /\ pointsAfter ops = [p] /\
  exists K c' x, imUpdate F mbs K c = Ok c' /\ (forall i, (i < 2)%nat -> moved F nm mbs r body d step K p x i = 0) /\ ~ holdsIneq (sdNrVars d) x (imInEq c').
Proof.
  destruct (iReach (- 1) [(- 11 / 8, 0)]) as (c & HR). exists iF, wNames, wMbs, 0%nat, "hand", wData, 1, (iOps [(- 11 / 8, 0)]), iA, c, (mkIP (- 11 / 8, 0) 1).
  split; [exact HR|]. split; [exact iOk|]. split; [lra|]. split; [cbn; lra|]. split; [reflexivity|]. split; [reflexivity|].
  destruct (occ_rows _ _ _ _ _ _ _ _ _ _ iK HR iOk) as (c' & U & N & ROWS). exists iK, c', (fun _ => 0). split; [exact U|].
  split; [intros [|[|i]] Hi; [rewrite iShift; lra|rewrite iShiftY; reflexivity|lia]|]. intros H.
  destruct (sideRows_in (occSide iA) (pointsAfter (iOps [(- 11 / 8, 0)])) 0 (mkIP (- 11 / 8, 0) 1) 0 false eq_refl ltac:(lia)) as (k & Hk); [rewrite oSide; left; reflexivity|].
  assert (Q : holdsRow (sdNrVars wData) (fun _ => 0) (imInEq c') k) by (apply H; rewrite N; apply nth_error_Some; congruence). apply (ROWS k _ _ _ _ Hk) in Q. rewrite iShift in Q.
  unfold occAsk, oLowS, oLowI, width in Q. cbn [ax ipAt iA aMin aMax aI aS aDamp aOff fst snd] in Q. lra.
Qed.
(** The first feature is only near the upper side in y: row 0 is about y, its description is about x. *)
Lemma mislabel_lemma : exists F nm mbs r body d step ops a c K c' j p i s, iReaches F nm mbs r body d step 1 ops a c /\ limOk a /\ imUpdate F mbs K c = Ok c' /\
  nth_error (sideRows (fovSide a) (pointsAfter ops)) 0 = Some (j, p, i, s) /\ imDesc c' 0 <> Some (j, i, ipAt p).
Proof.
  destruct (iReach 1 [(0, 5 / 8)]) as (c & HR). destruct (fov_rows _ _ _ _ _ _ _ _ _ _ iK HR iOk) as (c' & U & _).
  exists iF, wNames, wMbs, 0%nat, "hand", wData, 1, (iOps [(0, 5 / 8)]), iA, c, iK, c', 0%nat, (mkIP (0, 5 / 8) 1), 1%nat, true. split; [exact HR|]. split; [exact iOk|]. split; [exact U|].
  split; [|rewrite image_desc; cbn; destruct (icPoints c'); [discriminate|]; intros Q; injection Q; intros; discriminate].
  rewrite iPoints. unfold sideRows, numbered. cbn [map length seq combine flat_map fst snd]. rewrite !iSide. cbn [ax ipAt fst snd].
  rewrite (inb_f _ 0 (- 1 / 2)) by lra. rewrite (inb_f _ 0 (3 / 4)) by lra. rewrite (inb_f _ (5 / 8) (- 1 / 2)) by lra. rewrite (inb_t (1 / 2) (5 / 8) (3 / 4)) by lra. reflexivity.
Qed.
(** Approach of the right safety limit, halving the distance. *)
Definition hp (n : nat) : imPoint := mkIP (3 / 4 - 1 / 8 * (1 / 2) ^ n, 0) 1.
Definition hx (n j : nat) : R := if Nat.eqb j 0 then 1 / 8 * (1 / 2) ^ n else 0.
Lemma half_pos n : 0 < (1 / 2) ^ n <= 1.
Proof. induction n as [|n (H1 & H2)]; cbn; lra. Qed.
Lemma hRows c : iReaches iF wNames wMbs 0 "hand" wData 1 1 (iOps [(5 / 8, 0)]) iA c ->
  forall n c', iRun iF wNames wMbs c (tracks 0 hp (fun _ => iK) (S n)) = Ok c' -> holdsIneq (sdNrVars wData) (hx n) (imInEq c').
Proof.
  intros HR n c' E. rewrite tracks_S, iRun_app in E. apply bind_Ok in E as (c1 & E1 & E).
  pose proof (reach_more _ _ _ _ _ _ _ _ _ _ _ _ HR E1 (tracks_quiet 0 hp (fun _ => iK) n) (tracks_lim 0 hp (fun _ => iK) n)) as HR1. cbn [iRun] in E. apply bind_Ok in E as (c2 & E2 & E). apply bind_Ok in E as (c3 & E3 & E). injection E as ->.
  assert (HR2 : iReaches iF wNames wMbs 0 "hand" wData 1 1 ((iOps [(5 / 8, 0)] ++ tracks 0 hp (fun _ => iK) n) ++ [IMove2 0 (ipAt (hp n)) (ipDepth (hp n))]) iA c2).
  { eapply reach_more; [exact HR1|cbn [iRun]; rewrite E2; reflexivity|repeat constructor|intros a' [Q|[]]; discriminate]. }
  cbn [iStep] in E3. apply (fov_all _ _ _ _ _ _ _ _ _ _ _ _ HR2 iOk E3 (hx n)). unfold pointsAfter. rewrite !pointsFrom_app. cbn [pointsFrom].
  assert (L : length (pointsFrom (pointsFrom [] (iOps [(5 / 8, 0)])) (tracks 0 hp (fun _ => iK) n)) = 1%nat) by (rewrite tracks_points; reflexivity).
  destruct (pointsFrom (pointsFrom [] _) _) as [|q [|q2 l]]; try discriminate. cbn. intros p i [<-|[]] Hi. unfold nearLow, nearHigh, fovAsk. rewrite iLowS, iLowI, iHighS, iHighI. pose proof (half_pos n) as HP.
  destruct i as [|[|i]]; [| |lia]; cbn [ax ipAt fst snd]; split; intros H; try lra. rewrite iShift. unfold hx. cbn. lra.
Qed.
