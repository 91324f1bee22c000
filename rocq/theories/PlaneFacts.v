(** What an update of the planes computes. *)
From Verif Require Export PlaneRun CollisionFacts.
Open Scope list_scope.
Open Scope R_scope.
Local Arguments sumn : simpl never.

Lemma within_len K ps : (length (withinPlanes K ps) <= length ps)%nat.
Proof. unfold withinPlanes. induction ps as [|ph ps IH]; simpl; [auto|]. destruct (withinb (fst ph) K); simpl; lia. Qed.
Lemma within_filter K : forall ps l, Forall2 relP (map (snocK K) ps) l ->
  Forall2 (fun ph q => relP (snocK K ph) q) (withinPlanes K ps) (filter (fun q => withinb (pnS q) K) l).
Proof.
  induction ps as [|ph ps IH]; intros l F; inversion F as [|? q ? l' H F']; subst; [constructor|]. unfold withinPlanes. cbn [filter].
  assert (E := proj1 H). cbn [snocK fst] in E. rewrite E. destruct (withinb (fst ph) K); [constructor; auto|]; apply IH; auto.
Qed.

Section Facts.
Variables (mbs : list multibody) (r : nat) (d : solverData) (step : R).
Definition rowMeans (c' : planeConstr) (s : vec R) (K : ckin) (k : nat) (p : planeSpec) (xi : R) : Prop :=
  forall x, holdsRow (sdNrVars d) x (plInEq c') k <->
    - xi * ((plDist p K - plDs p) / (plDi p - plDs p)) <= plNext step (nrDof (robot mbs r)) (beginOf d r) s p K x.

Lemma begin_known ops c : plReaches mbs r d step ops c -> exists beg, alphaDBegin d r = Ok beg /\ (beg + nrDof (robot mbs r) <= sdNrVars d)%nat.
Proof.
  intros ((c0 & N0 & _) & (uni & bi & deps & HN) & _). unfold newPlanes in N0. apply bind_Ok in N0 as (mb & M & _). apply vec_at_Ok in M.
  destruct (layout_begin_lemma _ _ _ _ _ HN) as (B & _). assert (L : (r < length mbs)%nat) by (apply nth_error_Some; congruence).
  exists (sumnat (firstn r (map nrDof mbs))). split; [auto|].
  destruct (beginEnd _ _ _ _ _ _ _ _ HN (B r L) M) as (E & E2).
  unfold robot. erewrite nth_error_nth by eauto. lia.
Qed.

Lemma start_inv c0 : newPlanes mbs r step = Ok c0 -> plInv r step [] (vfill (nrDof (robot mbs r)) 1) c0.
Proof.
  unfold newPlanes. intros N0. apply bind_Ok in N0 as (mb & M & N0). apply vec_at_Ok in M. injection N0 as <-. unfold robot. erewrite nth_error_nth by eauto.
  repeat (split; [solve [auto]|]). split; [constructor|reflexivity].
Qed.
Definition selOf (ops : list plOp) : vec R := selFrom (vfill (nrDof (robot mbs r)) 1) ops.

Lemma row_value beg A B c' s K k p xi : alphaDBegin d r = Ok beg -> (beg + nrDof (robot mbs r) <= sdNrVars d)%nat -> pcA c' = A -> pcB c' = B ->
  (forall j, ~ (beg <= j < beg + nrDof (robot mbs r))%nat -> mget A k j = 0) ->
  (forall j, (j < nrDof (robot mbs r))%nat -> mget A k (beg + j)%nat = coefOf K step s p j) -> vget B k = rhsOf K step p xi ->
  rowMeans c' s K k p xi.
Proof.
  intros HB LE <- <- OUT IN RB x. unfold holdsRow, plInEq. cbn [iqA iqB vmap vget ele].
  rewrite (sumn_window (sdNrVars d) beg (nrDof (robot mbs r))); [|auto|intros i _ Hi; rewrite OUT by lia; ring].
  rewrite (sumn_ext _ _ (fun j => coefOf K step s p j * x (beg + j)%nat)) by (intros j Hj; rewrite IN by auto; reflexivity).
  rewrite RB. unfold plNext, comAcc, beginOf. rewrite HB. set (n := nrDof (robot mbs r)).
  assert (E : sumn n (fun j => coefOf K step s p j * x (beg + j)%nat) =
    - step * (vx (plN p) * sumn n (fun j => ckJac K 0 j * (vget s j * x (beg + j)%nat)) + vy (plN p) * sumn n (fun j => ckJac K 1 j * (vget s j * x (beg + j)%nat)) +
              vz (plN p) * sumn n (fun j => ckJac K 2 j * (vget s j * x (beg + j)%nat)))).
  { rewrite <- !sumn_scal, <- !sumn_plus, <- sumn_scal. apply sumn_ext. intros j _. unfold coefOf, sumn, v3get. ring. }
  rewrite E. unfold rhsOf. set (J0 := sumn n _). set (J1 := sumn n _). set (J2 := sumn n _).
  set (q := (plDist p K - plDs p) / (plDi p - plDs p)). unfold dot, vadd. cbn [vx vy vz]. split; intros H; lra.
Qed.

Lemma plane_update ops c K : plReaches mbs r d step ops c -> plSound (planesAfter ops) -> vlen (selOf ops) = nrDof (robot mbs r) ->
  exists c', plUpdate mbs K c = Ok c' /\ iqNr (plInEq c') = length (withinPlanes K (planesAfter ops)) /\
    Forall2 relP (map (snocK K) (planesAfter ops)) (pcData c') /\
    forall k ph, nth_error (withinPlanes K (planesAfter ops)) k = Some ph ->
      exists q, nth_error (filter (fun q => withinb (pnS q) K) (pcData c')) k = Some q /\ relP (snocK K ph) q /\
        plForce (fst ph) (snd ph ++ [K]) (pnDamping q) /\ rowMeans c' (selOf ops) K k (fst ph) (pnDamping q).
Proof.
  intros HR SO SL. destruct (begin_known _ _ HR) as (beg & HB & LE). destruct HR as ((c0 & N0 & RN) & _ & SZ).
  pose proof (start_inv _ N0) as I0. pose proof (PlaneRun.inv_run mbs r step _ _ _ _ _ I0 RN) as (I1 & I2 & I3 & I4 & I5).
  destruct (z_sized mbs r step d beg HB _ _ _ _ _ I0 SZ RN) as ((Z1 & Z2 & Z3 & Z4) & RM). fold (planesAfter ops) in I4. fold (selOf ops) in I3.
  assert (M : nth_error mbs r = Some (robot mbs r)).
  { unfold newPlanes in N0. apply bind_Ok in N0 as (mb & M & _). apply vec_at_Ok in M. unfold robot. erewrite nth_error_nth by eauto. exact M. }
  assert (M' : vec_at mbs r = Ok (robot mbs r)) by (apply vec_at_Ok; exact M).
  destruct (plScan (ckCom K) 0 (pcData c)) as (l & act) eqn:SC.
  pose proof (Forall2_len _ _ _ I4) as LN. pose proof (within_len K (planesAfter ops)) as WL. unfold plRoomy in RM.
  destruct (rows_def K (nrDof (robot mbs r)) step (selOf ops) beg (pcData c) (planesAfter ops) [] 0 (pcA c) (pcB c) l act SC I4 SO) as ([[[l' nr'] A'] B'] & E); [lia|auto|lia|]. cbn [app] in E.
  exists (mkPC (pcRobot c) (pcBegin c) l' (pcStep c) (pcVars c) nr' (pcSel c) A' B').
  split. { unfold plUpdate. rewrite I1, M'. cbn [bind]. rewrite I3, SL, Nat.eqb_refl, SC, Z1, I2. cbn [guard bind]. rewrite E. reflexivity. }
  destruct (rows_all K (nrDof (robot mbs r)) step (selOf ops) (Some beg) (pcData c) (planesAfter ops) [] 0 (pcA c) (pcB c) l act l' nr' A' B' SC I4 E) as (l3 & -> & F & N & D1 & D2 & D3 & _ & OUT & ROWS).
  cbn [plInEq iqNr pcNr pcData app]. split; [exact N|]. split; [exact F|]. intros k ph Hk. destruct (ROWS k ph Hk) as (q & Nq & RQ & FQ & BV & b & Eb & AV).
  injection Eb as <-. exists q. split; [exact Nq|]. split; [exact RQ|]. split; [exact FQ|].
  eapply (row_value beg A' B'); eauto. intros j Hj. rewrite OUT; [apply Z4; exact Hj|]. intros b Hb. injection Hb as <-. exact Hj.
Qed.

Lemma plane_rows ops c K : plReaches mbs r d step ops c -> plSound (planesAfter ops) -> vlen (selOf ops) = nrDof (robot mbs r) ->
  exists c', plUpdate mbs K c = Ok c' /\ iqNr (plInEq c') = length (withinPlanes K (planesAfter ops)) /\
    forall k p hs, nth_error (withinPlanes K (planesAfter ops)) k = Some (p, hs) -> exists xi, plForce p (hs ++ [K]) xi /\ rowMeans c' (selOf ops) K k p xi.
Proof.
  intros HR SO SL. destruct (plane_update ops c K HR SO SL) as (c' & E & N & _ & ROWS). exists c'. split; [auto|]. split; [auto|].
  intros k p hs Hk. destruct (ROWS k (p, hs) Hk) as (q & _ & _ & FQ & RW). exists (pnDamping q). auto.
Qed.

Lemma desc_loop K : forall ps l cur line, Forall2 relP (map (snocK K) ps) l -> Forall (fun ph => plDist (fst ph) K <> plDi (fst ph)) ps ->
  plDescLoop (cur + line) cur l = match nth_error (filter (fun q => withinb (pnS q) K) l) line with
    | Some q => Some (plText (pnS q) K (pnDamping q)) | None => None end.
Proof.
  induction ps as [|ph ps IH]; intros l cur line F NB; inversion F as [|? q ? l' H F']; subst; [simpl; destruct line; reflexivity|].
  inversion NB as [|? ? N1 N2]; subst. destruct H as (E & DI & _). cbn [snocK fst snd] in *. specialize (DI _ _ eq_refl). cbn [plDescLoop filter].
  rewrite E, DI. unfold withinb. destruct (Rltb (plDist (fst ph) K) (plDi (fst ph))) eqn:LT.
  - apply Rltb_true in LT. rewrite (proj2 (Rleb_true _ _)) by lra. destruct line as [|line].
    + rewrite Nat.add_0_r, Nat.eqb_refl. cbn [nth_error]. rewrite E. unfold plText. reflexivity.
    + rewrite (proj2 (Nat.eqb_neq _ _)) by lia. cbn [nth_error]. replace (cur + S line)%nat with (S cur + line)%nat by lia. apply IH; auto.
  - apply Rltb_false in LT. rewrite (proj2 (Rleb_false _ _)) by lra. apply IH; auto.
Qed.
Lemma desc_plane ops c K c' : plReaches mbs r d step ops c -> plSound (planesAfter ops) -> vlen (selOf ops) = nrDof (robot mbs r) ->
  plUpdate mbs K c = Ok c' -> (forall p hs, In (p, hs) (planesAfter ops) -> plDist p K <> plDi p) ->
  forall k, match nth_error (withinPlanes K (planesAfter ops)) k with
    | Some (p, hs) => exists xi, plForce p (hs ++ [K]) xi /\ plDescInEq c' k = Some (plText p K xi) /\ rowMeans c' (selOf ops) K k p xi
    | None => plDescInEq c' k = None end.
Proof.
  intros HR SO SL U NB k. destruct (plane_update ops c K HR SO SL) as (c2 & E & N & F & ROWS). rewrite U in E. injection E as <-.
  assert (NB' : Forall (fun ph => plDist (fst ph) K <> plDi (fst ph)) (planesAfter ops)) by (apply Forall_forall; intros (p & hs) X; apply (NB p hs X)).
  pose proof (desc_loop K _ _ 0 k F NB') as DL. cbn [plus] in DL. unfold plDescInEq.
  destruct (nth_error (withinPlanes K (planesAfter ops)) k) as [[p hs]|] eqn:Hk.
  - destruct (ROWS k _ Hk) as (q & Nq & RQ & FQ & RW). exists (pnDamping q). split; [auto|]. split; [|auto]. rewrite DL, Nq. rewrite (proj1 RQ). reflexivity.
  - rewrite DL. pose proof (Forall2_len _ _ _ (within_filter K _ _ F)) as L. apply nth_error_None in Hk.
    rewrite (proj2 (nth_error_None _ _)) by lia. reflexivity.
Qed.

Lemma plane_registry ops c0 c : newPlanes mbs r step = Ok c0 -> plRun mbs c0 ops = Ok c ->
  nrPlanes c = length (planesAfter ops) /\ map pnS (pcData c) = map fst (planesAfter ops) /\ pcSel c = selOf ops /\
  forall id, snd (rmPlane id c) = true <-> In id (map (fun ph => plId (fst ph)) (planesAfter ops)).
Proof.
  intros N0 RN. pose proof (start_inv _ N0) as I0. pose proof (PlaneRun.inv_run mbs r step _ _ _ _ _ I0 RN) as (I1 & I2 & I3 & I4 & I5). fold (planesAfter ops) in I4.
  split; [symmetry; eapply Forall2_len; eauto|]. split. { clear -I4. induction I4 as [|ph q ps l H F IH]; simpl; [auto|]. f_equal; [apply H|auto]. }
  split; [exact I3|]. intros id. destruct (erasePlane_rel id _ _ I4) as (_ & E). unfold rmPlane. destruct (erasePlane id (pcData c)) as (l2 & b). simpl in *. rewrite E.
  rewrite existsb_exists, in_map_iff. split; intros (ph & A & B); exists ph; [apply Z.eqb_eq in B|apply Z.eqb_eq in A]; auto.
Qed.

(** Trajectories. *)
Definition ups (Ks : nat -> ckin) (n : nat) : list plOp := map (fun i => LUp (Ks i)) (seq 0 n).
Lemma ups_S Ks n : ups Ks (S n) = ups Ks n ++ [LUp (Ks n)].
Proof. unfold ups. rewrite seq_S, map_app. reflexivity. Qed.
Lemma planes_ups Ks n ps : planesFrom ps (ups Ks n) = map (fun ph => (fst ph, snd ph ++ map Ks (seq 0 n))) ps.
Proof.
  induction n as [|n IH]; [simpl; symmetry; rewrite <- (map_id ps) at 2; apply map_ext; intros []; simpl; rewrite app_nil_r; reflexivity|].
  rewrite ups_S, planesFrom_app, IH. cbn [planesFrom]. rewrite map_map. apply map_ext. intros []; cbn [fst snd]. rewrite <- app_assoc.
  rewrite seq_S, map_app. reflexivity.
Qed.
Lemma sel_ups Ks n s : selFrom s (ups Ks n) = s.
Proof. unfold ups. generalize 0%nat. induction n as [|n IH]; intros; simpl; auto. Qed.
Lemma sound_ups Ks n ps : plSound ps -> plSound (planesFrom ps (ups Ks n)).
Proof. rewrite planes_ups. unfold plSound. rewrite Forall_map. intros H. exact H. Qed.
Lemma reaches_ups_pl ops c Ks : plReaches mbs r d step ops c -> plSound (planesAfter ops) -> vlen (selOf ops) = nrDof (robot mbs r) ->
  forall n, exists c1, plRun mbs c (ups Ks n) = Ok c1 /\ plReaches mbs r d step (ops ++ ups Ks n) c1.
Proof.
  intros HR SO SL. induction n as [|n (c1 & E & R1)]; [exists c; rewrite app_nil_r; auto|].
  assert (SO1 : plSound (planesAfter (ops ++ ups Ks n))) by (unfold planesAfter; rewrite planesFrom_app; apply sound_ups; auto).
  assert (SL1 : vlen (selOf (ops ++ ups Ks n)) = nrDof (robot mbs r)) by (unfold selOf; rewrite selFrom_app, sel_ups; auto).
  destruct (plane_update _ _ (Ks n) R1 SO1 SL1) as (c2 & E2 & _). exists c2. split; [rewrite ups_S, plRun_app, E; cbn [bind plRun plStep]; rewrite E2; reflexivity|].
  destruct R1 as ((c0 & N0 & RN) & L & pre & post1 & post2 & EQ & F & NA & P). rewrite ups_S, app_assoc. split; [|split; [auto|]].
  - exists c0. split; [auto|]. rewrite plRun_app, RN. cbn [bind plRun plStep]. rewrite E2. reflexivity.
  - exists pre, post1, (post2 ++ [LUp (Ks n)]). split; [rewrite EQ, <- !app_assoc; cbn [app]; rewrite <- ?app_assoc; reflexivity|].
    rewrite app_assoc. split; [apply Forall_app; split; [auto|repeat constructor]|]. split; [apply Forall_app; split; [auto|repeat constructor]|auto].
Qed.
Lemma within_index K : forall ps i ph, nth_error ps i = Some ph -> within (fst ph) K -> exists k, nth_error (withinPlanes K ps) k = Some ph.
Proof.
  intros ps i ph Hi W. assert (I : In ph (withinPlanes K ps)) by (apply filter_In; split; [eapply nth_error_In; eauto|apply Rleb_true; exact W]).
  apply In_nth_error in I. exact I.
Qed.
Lemma plane_security ops c i p Ks xs : plReaches mbs r d step ops c -> plSound (planesAfter ops) -> vlen (selOf ops) = nrDof (robot mbs r) ->
  nth_error (planesAfter ops) i = Some (p, []) -> 0 < step -> plDs p < plDi p ->
  (forall n c', plRun mbs c (ups Ks (S n)) = Ok c' -> holdsIneq (sdNrVars d) (xs n) (plInEq c')) ->
  plDs p <= plDist p (Ks 0%nat) ->
  (forall n, within p (Ks n) -> plDist p (Ks (S n)) = plDist p (Ks n) + step * plNext step (nrDof (robot mbs r)) (beginOf d r) (selOf ops) p (Ks n) (xs n)) ->
  (forall n, ~ within p (Ks n) -> plDist p (Ks n) - (plDi p - plDs p) <= plDist p (Ks (S n))) ->
  (forall n xi, plForce p (map Ks (seq 0 n)) xi -> step * xi <= plDi p - plDs p) ->
  forall n, plDs p <= plDist p (Ks n).
Proof.
  intros HR SO SL Hi Hst Hd HX H0 HE HF HXI n. induction n as [|n IH]; [auto|].
  destruct (Rle_dec (plDist p (Ks n)) (plDi p)) as [W|W].
  - destruct (reaches_ups_pl ops c Ks HR SO SL n) as (c1 & E1 & R1).
    assert (SO1 : plSound (planesAfter (ops ++ ups Ks n))) by (unfold planesAfter; rewrite planesFrom_app; apply sound_ups; auto).
    assert (SL1 : selOf (ops ++ ups Ks n) = selOf ops) by (unfold selOf; rewrite selFrom_app, sel_ups; auto).
    destruct (plane_rows _ _ (Ks n) R1 SO1 ltac:(rewrite SL1; auto)) as (c2 & E2 & N2 & ROWS).
    assert (A1 : nth_error (planesAfter (ops ++ ups Ks n)) i = Some (p, map Ks (seq 0 n))).
    { unfold planesAfter. rewrite planesFrom_app, planes_ups, nth_error_map. fold (planesAfter ops). rewrite Hi. reflexivity. }
    destruct (within_index (Ks n) _ i _ A1 W) as (k & Hk). destruct (ROWS k _ _ Hk) as (xi & FO & RW).
    assert (HI : holdsRow (sdNrVars d) (xs n) (plInEq c2) k).
    { apply (HX n c2); [rewrite ups_S, plRun_app, E1; cbn [bind plRun plStep]; rewrite E2; reflexivity|]. rewrite N2. apply nth_error_Some. congruence. }
    apply RW in HI. rewrite SL1 in HI. rewrite (HE n W).
    assert (X : step * xi <= plDi p - plDs p) by (apply (HXI (S n)); rewrite seq_S, map_app; exact FO).
    set (D := plDist p (Ks n)) in *. set (q := (D - plDs p) / (plDi p - plDs p)) in *.
    assert (Q0 : 0 <= q) by (unfold q; apply Rmult_le_pos; [lra|left; apply Rinv_0_lt_compat; lra]).
    assert (Q1 : q * (plDi p - plDs p) = D - plDs p) by (unfold q; field; lra).
    assert (T1 : step * (- xi * q) <= step * plNext step (nrDof (robot mbs r)) (beginOf d r) (selOf ops) p (Ks n) (xs n)) by (apply Rmult_le_compat_l; [lra|exact HI]).
    assert (T2 : q * (step * xi) <= q * (plDi p - plDs p)) by (apply Rmult_le_compat_l; auto). lra.
  - specialize (HF n W). lra.
Qed.
End Facts.
Lemma away_exact_lemma mbs r d step ops c K c' k p hs x :
  plReaches mbs r d step ops c -> plSound (planesAfter ops) -> vlen (selOf mbs r ops) = nrDof (robot mbs r) -> plUpdate mbs K c = Ok c' ->
  nth_error (withinPlanes K (planesAfter ops)) k = Some (p, hs) -> plDs p < plDi p -> plDs p <= plDist p K ->
  0 < plDamping p \/ (0 <= plOff p /\ forall K0, entered (within p) (hs ++ [K]) K0 -> plRate p K0 <= 0) ->
  0 <= plNext step (nrDof (robot mbs r)) (beginOf d r) (selOf mbs r ops) p K x -> holdsRow (sdNrVars d) x (plInEq c') k.
Proof.
  intros HR SO SL U Hk D1 D2 H HN. destruct (plane_rows mbs r d step ops c K HR SO SL) as (c2 & E & _ & ROWS). rewrite U in E. injection E as <-.
  destruct (ROWS k p hs Hk) as (xi & FO & RW). apply RW.
  assert (X : 0 <= xi).
  { destruct FO as [(H1 & ->)|(H1 & K0 & EN & ->)]; [lra|]. destruct H as [H|(H2 & H3)]; [lra|]. specialize (H3 K0 EN). unfold plEntry.
    set (den := if Rle_dec (plDist p K0) (plDs p) then _ else _). assert (DN : 0 < den) by (unfold den; destruct (Rle_dec _ _); lra).
    assert (Q : 0 < (plDi p - plDs p) / den) by (apply Rdiv_lt_0_compat; lra). nra. }
  assert (Q : 0 <= (plDist p K - plDs p) / (plDi p - plDs p)) by (apply Rmult_le_pos; [lra|left; apply Rinv_0_lt_compat; lra]). nra.
Qed.
