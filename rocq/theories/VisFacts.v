(** The visual tasks along a motion. *)
From Verif Require Import VisModel VisSpec KinFacts KinTaskFacts JacProofs ContactRowsProofs.
From Coq Require Import Lra Lia.
Open Scope list_scope.
Open Scope R_scope.
Local Arguments sumn : simpl never.
Local Arguments e6 : simpl never.

(** *** Tasks whose speed is a matrix times the velocity of a frame of the body *)
Lemma jac_mix mb path (L : nat -> R) (col : nat -> Spatial) x :
  jacDot mb path (fun c => sumn 6 (fun q => L q * e6 (col c) q)) x = sumn 6 (fun q => L q * e6 (jsp mb path col x) q).
Proof.
  unfold jacDot. rewrite (sumn_ext 6 (fun q => L q * e6 (jsp mb path col x) q) (fun q => sumn (pathDof mb path) (fun c => L q * (e6 (col c) q * x (nth c (pathCols mb path) 0%nat))))).
  - rewrite <- sumn_swap. apply sumn_ext. intros c _. rewrite <- sumn_scal_r. apply sumn_ext. intros q _. ring.
  - intros q _. rewrite e6_jsp. unfold jacDot. rewrite sumn_scal. reflexivity.
Qed.
Lemma frame_gen m mb path (L : R -> nat -> nat -> R) X K al ald t jm ev (sp na : R -> vec R) U :
  wfPath mb path -> sized m mb jm -> movesAt mb path K al ald t ->
  (forall s, vlen (ev s) = m /\ vlen (sp s) = m /\ vlen (na s) = m) ->
  (forall s i, (i < m)%nat -> vget (sp s) i = sumn 6 (fun q => L s i q * e6 (rbdVel X (K s)) q)) ->
  (forall s, U s = (do J <- fullJacobian mb path (mkMat m (pathDof mb path) (fun i c => sumn 6 (fun q => L s i q * e6 (rbdColX (pt_mul X (bkPos (K s))) (K s) c) q))) (jm s);
                    Ok (mkHL J (ev s) (sp s) (na s)))) ->
  exists H, yields m mb U H /\ (forall s, hErr (H s) = ev s /\ hSpeed (H s) = sp s /\ hNAcc (H s) = na s) /\ speedIsJac m H al t /\
    forall i L', (i < m)%nat -> (forall q, (q < 6)%nat -> dlim (fun s => L s i q) t (L' q)) ->
      dlim (fun s => vget (hSpeed (H s)) i) t
        (taskAcc (H t) 0 (ald t) i + (sumn 6 (fun q => L t i q * e6 (rbdNAcc X sp0 (K t)) q) + sumn 6 (fun q => L' q * e6 (rbdVel X (K t)) q) - vget (na t) i)).
Proof.
  intros W Sz M Vl HS HU. pose proof (mvRigid _ _ _ _ _ _ M) as RG.
  destruct (kin_gen m mb path (fun s i c => sumn 6 (fun q => L s i q * e6 (rbdColX (pt_mul X (bkPos (K s))) (K s) c) q)) jm ev sp na U W Sz Vl HU) as (H & Y & HV & HJ).
  exists H. split; [exact Y|]. split; [exact HV|].
  assert (Co : forall i x, jacDot mb path (fun c => sumn 6 (fun q => L t i q * e6 (rbdColX (pt_mul X (bkPos (K t))) (K t) c) q)) x
                         = sumn 6 (fun q => L t i q * e6 (jsp mb path (fun c => pt_mulM X (bkCol (K t) c)) x) q)).
  { intros i x. rewrite <- jac_mix. unfold jacDot. apply sumn_ext. intros c _. f_equal. apply sumn_ext. intros q _. rewrite colX by apply RG. reflexivity. }
  split.
  - intros i Hi. rewrite HJ by exact Hi. destruct (HV t) as (_ & -> & _). rewrite HS, Co by exact Hi. rewrite (vel_jac _ _ _ _ _ _ X M). reflexivity.
  - intros i L' Hi DL. unfold taskAcc. cbn [Nat.add]. rewrite HJ by exact Hi. destruct (HV t) as (_ & _ & ->). rewrite Co.
    apply (dl_ext (fun s => sumn 6 (fun q => L s i q * e6 (rbdVel X (K s)) q))).
    { intros s. destruct (HV s) as (_ & -> & _). rewrite HS by exact Hi. reflexivity. }
    eapply dl_eq.
    { apply dl_sumn. intros q Hq. apply dl_mult; [apply DL; exact Hq|]. apply (dS_e6 (fun s => rbdVel X (K s))), (vel_rate _ _ _ _ _ _ X M). }
    cbv beta. rewrite (sumn_ext 6 _ (fun q => L' q * e6 (rbdVel X (K t)) q + (L t i q * e6 (jsp mb path (fun c => pt_mulM X (bkCol (K t) c)) (ald t)) q + L t i q * e6 (rbdNAcc X sp0 (K t)) q))).
    + rewrite !sumn_plus. ring.
    + intros q _. rewrite e6_add. ring.
Qed.

(** *** GazeTask *)
(** A point of the world seen from the camera. *)
Lemma inCamera_rate mb path K al ald t X p : movesAt mb path K al ald t -> rigid X ->
  dV (fun s => inCamera X (K s) p) t (vneg (vadd (cross (ang (rbdVel X (K t))) (inCamera X (K t) p)) (linr (rbdVel X (K t))))).
Proof.
  intros M RX. pose proof M as [RG _ RT RP _].
  assert (Q : forall s, inCamera X (K s) p = m3mulv (ptE X) (vsub (m3mulv (ptE (bkPos (K s))) (vsub p (ptr (bkPos (K s))))) (ptr X))).
  { intros s. unfold inCamera, pt_mul; cbn [ptr]. rewrite m3mul_mulv. f_equal.
    assert (Z : m3mulv (ptE (bkPos (K s))) (m3mulv (m3tr (ptE (bkPos (K s)))) (ptr X)) = ptr X) by (apply rotation_mulT, RG).
    rewrite <- Z at 2. generalize (m3mulv (m3tr (ptE (bkPos (K s)))) (ptr X)). intros u. v3c. }
  eapply dV_ext; [intros s; symmetry; apply Q|].
  eapply dV_eq; [apply dV_mulv; [apply dM_const|apply dV_sub; [apply dV_mulv; [exact RT|apply dV_sub; [apply dV_const|exact RP]]|apply dV_const]]|].
  cbv beta. rewrite Q. unfold rbdVel, pt_mulM; cbn [ang linr].
  set (w := ang (bkVelB (K t))). set (v := linr (bkVelB (K t))).
  assert (Z : m3mulv (ptE (bkPos (K t))) (m3mulv (m3tr (ptE (bkPos (K t)))) v) = v) by (apply rotation_mulT, RG).
  assert (N : forall E x y, m3mulv E (vsub x y) = vsub (m3mulv E x) (m3mulv E y)) by (intros; v3c).
  assert (G : m3mulv (m3neg (m3mul (skewm w) (ptE (bkPos (K t))))) (vsub p (ptr (bkPos (K t)))) = vneg (cross w (m3mulv (ptE (bkPos (K t))) (vsub p (ptr (bkPos (K t))))))).
  { rewrite <- skewm_mulv, <- m3mul_mulv. generalize (m3mul (skewm w) (ptE (bkPos (K t)))). intros. v3c. }
  rewrite G. set (u := m3mulv (ptE (bkPos (K t))) (vsub p (ptr (bkPos (K t))))).
  rewrite (rotation_cross (ptE X)) by exact RX.
  assert (Z' : m3mulv (ptE (bkPos (K t))) (vsub v0 (m3mulv (m3tr (ptE (bkPos (K t)))) v)) = vneg v) by (rewrite N, Z; v3c).
  rewrite Z'. generalize (ptE X) (ptr X). intros E r. clear -E r. v3c.
Qed.

Definition gzDepthRate (V : Spatial) (q : V3) : R := - (vx (ang V) * vy q - vy (ang V) * vx q) - vz (linr V).
Lemma sum6 f : sumn 6 f = f 0%nat + f 1%nat + f 2%nat + f 3%nat + f 4%nat + f 5%nat.
Proof. unfold sumn. ring. Qed.
Lemma e6_at V : e6 V 0 = vx (ang V) /\ e6 V 1 = vy (ang V) /\ e6 V 2 = vz (ang V) /\ e6 V 3 = vx (linr V) /\ e6 V 4 = vy (linr V) /\ e6 V 5 = vz (linr V).
Proof. repeat split. Qed.
Lemma image_speed q V : vz q <> 0 -> forall m, (m < 2)%nat ->
  sumn 6 (fun k => interaction (vx q / vz q, vy q / vz q) (vz q) m k * e6 V k) =
  (let q' := vneg (vadd (cross (ang V) q) (linr V)) in
   match m with 0%nat => vx q' * / vz q + vx q * (- vz q' / (vz q * vz q)) | _ => vy q' * / vz q + vy q * (- vz q' / (vz q * vz q)) end).
Proof.
  intros Z m Hm. destruct (e6_at V) as (E0 & E1 & E2 & E3 & E4 & E5). rewrite sum6, E0, E1, E2, E3, E4, E5.
  destruct m as [|[|]]; [| |lia]; unfold interaction; cbn [fst snd]; unfold cross, vadd, vneg; cbn [vx vy vz]; field; exact Z.
Qed.
Lemma depth_rate V q : vz (vneg (vadd (cross (ang V) q) (linr V))) = gzDepthRate V q.
Proof. unfold gzDepthRate, cross, vadd, vneg; cbn [vx vy vz]. ring. Qed.

(** The derivative of the interaction matrix. *)
Lemma interaction_rate (px py pz : R -> R) t xd yd zd m k : pz t <> 0 -> dlim px t xd -> dlim py t yd -> dlim pz t zd -> (m < 2)%nat -> (k < 6)%nat ->
  dlim (fun s => interaction (px s, py s) (pz s) m k) t (interactionDot (px t, py t) (xd, yd) (pz t) zd m k).
Proof.
  intros Z DX DY DZ Hm Hk. pose proof (dl_inv pz t zd Z DZ) as DI.
  destruct m as [|[|]]; [| |lia]; destruct k as [|[|[|[|[|[|]]]]]]; try lia; unfold interaction, interactionDot; cbn [fst snd].
  - eapply dl_eq; [apply dl_mult; eassumption|ring].
  - eapply dl_eq; [apply dl_opp, dl_plus; [apply dl_const|apply dl_mult; exact DX]|ring].
  - exact DY.
  - eapply dl_eq; [apply dl_opp; exact DI|field; exact Z].
  - apply dl_const.
  - eapply dl_eq; [apply dl_mult; [exact DX|exact DI]|cbv beta; field; exact Z].
  - eapply dl_eq; [apply dl_plus; [apply dl_const|apply dl_mult; exact DY]|ring].
  - eapply dl_eq; [apply dl_opp, dl_mult; eassumption|ring].
  - eapply dl_eq; [apply dl_opp; exact DX|ring].
  - apply dl_const.
  - eapply dl_eq; [apply dl_opp; exact DI|field; exact Z].
  - eapply dl_eq; [apply dl_mult; [exact DY|exact DI]|cbv beta; field; exact Z].
Qed.
(** The term of the depth rate. *)
Lemma interactionDot_depth p u z zd dd V m : z <> 0 -> (m < 2)%nat ->
  sumn 6 (fun k => interactionDot p u z zd m k * e6 V k) - sumn 6 (fun k => interactionDot p u z dd m k * e6 V k) =
  (zd - dd) * (e6 V (3 + m) - ax p m * e6 V 5) / (z * z).
Proof.
  intros Z Hm. rewrite !sum6. destruct p as [x y], u as [xd yd].
  destruct m as [|[|]]; [| |lia]; unfold interactionDot, ax; cbn [fst snd Nat.add]; field; exact Z.
Qed.

Theorem gaze_tracks F mb path p ref T K al ald t jm : usesInteraction F -> wfPath mb path -> gzPath T = path -> rigid (gzX T) -> sized 2 mb jm -> movesAt mb path K al ald t ->
  (forall s, vz (inCamera (gzX T) (K s) p) <> 0) ->
  exists H, yields 2 mb (fun s => gzTrack F mb (inCamera (gzX T) (K s) p) ref T (K s) (jm s)) H /\
    (forall s m, (m < 2)%nat -> vget (hErr (H s)) m = ax ref m - e3 (inCamera (gzX T) (K s) p) m / vz (inCamera (gzX T) (K s) p)) /\
    speedIsJac 2 H al t /\ errorRate 0 2 H t /\
    (forall zd, dlim (fun s => vz (inCamera (gzX T) (K s) p)) t zd -> forall m, (m < 2)%nat ->
       dlim (fun s => vget (hSpeed (H s)) m) t (taskAcc (H t) 0 (ald t) m +
         (zd - gzUsedRate F (rbdVel (gzX T) (K t)) (inCamera (gzX T) (K t) p)) *
         (e6 (rbdVel (gzX T) (K t)) (3 + m) - e3 (inCamera (gzX T) (K t) p) m / vz (inCamera (gzX T) (K t) p) * e6 (rbdVel (gzX T) (K t)) 5)
         / (vz (inCamera (gzX T) (K t) p) * vz (inCamera (gzX T) (K t) p)))).
Proof.
  intros (FJ & FD) W EP RX Sz M NZ. set (X := gzX T) in *. set (q := fun s => inCamera X (K s) p). set (P := fun s => (vx (q s) / vz (q s), vy (q s) / vz (q s))).
  pose proof (inCamera_rate _ _ _ _ _ _ X p M RX) as DQ. change (dV q t (vneg (vadd (cross (ang (rbdVel X (K t))) (q t)) (linr (rbdVel X (K t)))))) in DQ.
  set (sp := fun s m => sumn 6 (fun k => interaction (P s) (vz (q s)) m k * e6 (rbdVel X (K s)) k)).
  set (dd := fun s => gzUsedRate F (rbdVel X (K s)) (q s)).
  set (na := fun s m => sumn 6 (fun k => interaction (P s) (vz (q s)) m k * e6 (rbdNAcc X sp0 (K s)) k)
                        + sumn 6 (fun k => interactionDot (P s) (sp s 0%nat, sp s 1%nat) (vz (q s)) (dd s) m k * e6 (rbdVel X (K s)) k)).
  destruct (frame_gen 2 mb path (fun s m k => imgJac F (P s) (vz (q s)) m k) X K al ald t jm
    (fun s => vec2 (fst ref - fst (P s), snd ref - snd (P s))) (fun s => vec2 (sp s 0%nat, sp s 1%nat)) (fun s => vec2 (na s 0%nat, na s 1%nat))
    (fun s => gzTrack F mb (q s) ref T (K s) (jm s)) W Sz M) as (H & Y & HV & HJ & HR).
  - intros s. repeat split.
  - intros s i Hi. unfold vec2; cbn [vget]. destruct i as [|[|]]; [| |lia]; cbn [ax fst snd]; unfold sp; apply sumn_ext; intros k Hk; rewrite FJ by lia; reflexivity.
  - intros s. unfold gzTrack, gzError3, project, guard. assert (Z : Reqb (vz (q s)) 0 = false). { unfold Reqb. destruct (Req_EM_T (vz (q s)) 0) as [e|_]; [exfalso; exact (NZ s e)|reflexivity]. }
    rewrite Z. cbn [negb bind]. unfold gzUpdate; cbn [gzPoint gzRef gzDepth gzX gzPath bind fst snd]. rewrite EP. fold X.
    change (vx (q s) / vz (q s), vy (q s) / vz (q s)) with (P s). change (vx (q s) / vz (q s)) with (fst (P s)). change (vy (q s) / vz (q s)) with (snd (P s)).
    assert (S0 : forall m, (m < 2)%nat -> sumn 6 (fun k => imgJac F (P s) (vz (q s)) m k * e6 (rbdVel X (K s)) k) = sp s m) by (intros m Hm; apply sumn_ext; intros k Hk; rewrite FJ by lia; reflexivity).
    rewrite !S0 by lia.
    assert (Dd : sumn 6 (fun k => imgDepthDot F (sp s 0%nat, sp s 1%nat) (vz (q s)) k * e6 (rbdVel X (K s)) k) = dd s) by reflexivity.
    rewrite Dd.
    assert (N0 : forall m, (m < 2)%nat -> sumn 6 (fun k => imgJac F (P s) (vz (q s)) m k * e6 (rbdNAcc X sp0 (K s)) k) +
      sumn 6 (fun k => imgJacDot F (P s) (sp s 0%nat, sp s 1%nat) (vz (q s)) (dd s) m k * e6 (rbdVel X (K s)) k) = na s m).
    { intros m Hm. unfold na. f_equal; apply sumn_ext; intros k Hk; [rewrite FJ by lia|rewrite FD by lia]; reflexivity. }
    rewrite !N0 by lia. reflexivity.
  - exists H. split; [exact Y|]. split; [|split; [exact HJ|split]].
    + intros s m Hm. destruct (HV s) as (-> & _). destruct m as [|[|]]; [| |lia]; reflexivity.
    + intros m Hm. destruct (HV t) as (_ & -> & _).
      assert (DP : dlim (fun s => ax (P s) m) t (sp t m)).
      { unfold sp, P. rewrite image_speed by (try exact (NZ t); lia). destruct DQ as (D0 & D1 & D2).
        destruct m as [|[|]]; [| |lia]; cbn [ax fst snd P]; [apply dl_mult with (f := fun s => vx (q s)) (g := fun s => / vz (q s))|apply dl_mult with (f := fun s => vy (q s)) (g := fun s => / vz (q s))];
          try assumption; apply dl_inv; try assumption; exact (NZ t). }
      apply (dl_ext (fun s => ax ref m - ax (P s) m)). { intros s. destruct (HV s) as (-> & _). destruct m as [|[|]]; [| |lia]; reflexivity. }
      eapply dl_eq; [apply dl_minus; [apply dl_const|exact DP]|]. destruct m as [|[|]]; [| |lia]; unfold vec2; cbn [vget ax fst snd]; ring.
    + intros zd DZ m Hm. destruct DQ as (D0 & D1 & D2).
      assert (Zd : zd = vz (vneg (vadd (cross (ang (rbdVel X (K t))) (q t)) (linr (rbdVel X (K t)))))) by exact (dl_unique _ _ _ _ DZ D2).
      assert (DP : forall m, (m < 2)%nat -> dlim (fun s => ax (P s) m) t (sp t m)).
      { intros i Hi. unfold sp, P. rewrite image_speed by (try exact (NZ t); lia).
        destruct i as [|[|]]; [| |lia]; cbn [ax fst snd P]; [apply dl_mult with (f := fun s => vx (q s)) (g := fun s => / vz (q s))|apply dl_mult with (f := fun s => vy (q s)) (g := fun s => / vz (q s))];
          try assumption; apply dl_inv; try assumption; exact (NZ t). }
      eapply dl_eq.
      { apply (HR m (fun k => interactionDot (P t) (sp t 0%nat, sp t 1%nat) (vz (q t)) zd m k) Hm). intros k Hk.
        apply (dl_ext (fun s => interaction (ax (P s) 0, ax (P s) 1) (vz (q s)) m k)). { intros s. rewrite FJ by lia. reflexivity. }
        exact (interaction_rate (fun s => ax (P s) 0) (fun s => ax (P s) 1) (fun s => vz (q s)) t _ _ zd m k (NZ t) (DP 0%nat ltac:(lia)) (DP 1%nat ltac:(lia)) DZ Hm Hk). }
      f_equal. change (inCamera X (K t) p) with (q t).
      replace (e3 (q t) m / vz (q t)) with (ax (P t) m) by (destruct m as [|[|]]; [| |lia]; reflexivity).
      rewrite <- (interactionDot_depth (P t) (sp t 0%nat, sp t 1%nat)) by (try exact (NZ t); lia).
      assert (NA : vget (vec2 (na t 0%nat, na t 1%nat)) m = na t m) by (destruct m as [|[|]]; [| |lia]; reflexivity). rewrite NA. unfold na.
      rewrite (sumn_ext 6 (fun k => imgJac F (P t) (vz (q t)) m k * e6 (rbdNAcc X sp0 (K t)) k) (fun k => interaction (P t) (vz (q t)) m k * e6 (rbdNAcc X sp0 (K t)) k)) by (intros k Hk; rewrite FJ by lia; reflexivity).
      change (gzUsedRate F (rbdVel X (K t)) (q t)) with (dd t). ring.
Qed.

(** *** The features of ImageConstr *)
Lemma image_rate mb path K al ald t X p m : movesAt mb path K al ald t -> rigid X -> vz (inCamera X (K t) p) <> 0 -> (m < 2)%nat ->
  dlim (fun s => e3 (inCamera X (K s) p) m / vz (inCamera X (K s) p)) t
    (sumn 6 (fun k => interaction (vx (inCamera X (K t) p) / vz (inCamera X (K t) p), vy (inCamera X (K t) p) / vz (inCamera X (K t) p)) (vz (inCamera X (K t) p)) m k * e6 (rbdVel X (K t)) k)).
Proof.
  intros M RX NZ Hm. rewrite image_speed by assumption. destruct (inCamera_rate _ _ _ _ _ _ X p M RX) as (D0 & D1 & D2).
  destruct m as [|[|]]; [| |lia]; cbn [e3]; apply dl_mult with (g := fun s => / vz (inCamera X (K s) p)); try assumption; apply dl_inv; assumption.
Qed.
Lemma feature_prediction F mb path X p step K al ald t : usesInteraction F -> wfPath mb path -> rigid X ->
  (forall s, movesAt mb path K al ald s) -> (forall s, vz (inCamera X (K s) p) <> 0) ->
  exists full bc, components F (gzKin X (K t)) mb path step (vx (inCamera X (K t) p) / vz (inCamera X (K t) p), vy (inCamera X (K t) p) / vz (inCamera X (K t) p)) (vz (inCamera X (K t) p)) = Ok (full, bc) /\
    mrows full = 2%nat /\ mcols full = nrDof mb /\
    forall m u a zd, (m < 2)%nat -> (forall s, dlim (fun s => e3 (inCamera X (K s) p) m / vz (inCamera X (K s) p)) s (u s)) -> dlim u t a ->
      dlim (fun s => vz (inCamera X (K s) p)) t zd ->
      sumn (mcols full) (fun j => mget full m j * ald t j) - ax bc m = step * u t + step * step / 2 * (a -
        (zd - gzUsedRate F (rbdVel X (K t)) (inCamera X (K t) p)) *
        (e6 (rbdVel X (K t)) (3 + m) - e3 (inCamera X (K t) p) m / vz (inCamera X (K t) p) * e6 (rbdVel X (K t)) 5)
        / (vz (inCamera X (K t) p) * vz (inCamera X (K t) p))).
Proof.
  intros UF W RX M NZ.
  set (T := mkGz (0, 0) (0, 0) 0 X path).
  assert (Sz : sized 2 mb (fun _ => mzero 2 (nrDof mb))) by (intros s; split; reflexivity).
  destruct (gaze_tracks F mb path p (0, 0) T K al ald t (fun _ => mzero 2 (nrDof mb)) UF W eq_refl RX Sz (M t) NZ) as (H & Y & HE & HJ & ER & SR).
  destruct UF as (FJ & FD). cbn [gzX T] in *. set (q := fun s => inCamera X (K s) p) in *. set (P := fun s => (vx (q s) / vz (q s), vy (q s) / vz (q s))).
  set (acc := 5 / 10 * step * step).
  destruct (fullJacobian_spec mb path (mkMat 2 (pathDof mb path) (fun m c => sumn 6 (fun k => acc * imgJac F (P t) (vz (q t)) m k * cmJac (gzKin X (K t)) k c))) (mzero 2 (nrDof mb)))
    as (full & E & R & C & _ & D); try reflexivity; [exact W|].
  exists full, (v2lin (v2lin (0, 0) (- step) (imSpeed F (gzKin X (K t)) (P t) (vz (q t)))) (- acc) (imNAcc F (gzKin X (K t)) (P t) (vz (q t)))).
  split; [unfold components; change (inCamera X (K t) p) with (q t); fold acc; change (vx (q t) / vz (q t), vy (q t) / vz (q t)) with (P t); rewrite E; reflexivity|].
  split; [exact R|]. split; [exact C|]. intros m u a zd Hm DU DA DZ. rewrite C. cbn [mzero mcols]. rewrite D by exact Hm. cbn [mget].
  assert (HU : forall s, u s = vget (hSpeed (H s)) m).
  { intros s. destruct (gaze_tracks F mb path p (0, 0) T K al ald s (fun _ => mzero 2 (nrDof mb)) (conj FJ FD) W eq_refl RX Sz (M s) NZ) as (H' & Y' & HE' & _ & ER' & _).
    assert (EH : forall s, H s = H' s) by (intros r; assert (E1 : Ok (H r) = Ok (H' r)) by exact (eq_trans (eq_sym (proj1 (Y r))) (proj1 (Y' r))); injection E1; auto). rewrite EH.
    assert (D' : dlim (fun r => e3 (q r) m / vz (q r)) s (vget (hSpeed (H' s)) m)).
    { apply (dl_ext (fun r => ax (0, 0) m - vget (hErr (H' r)) m)). { intros r. rewrite HE' by exact Hm. cbn [gzX T]. change (inCamera X (K r) p) with (q r). ring. }
      eapply dl_eq; [apply dl_minus; [apply dl_const|apply (ER' m); lia]|]. ring. }
    exact (dl_unique _ _ _ _ (DU s) D'). }
  assert (DA' := dl_ext _ _ _ _ HU DA). pose proof (dl_unique _ _ _ _ DA' (SR zd DZ m Hm)) as EA. rewrite EA. clear SR EA.
  assert (UP : gzTrack F mb (q t) (0, 0) T (K t) (mzero 2 (nrDof mb)) = Ok (H t)) by exact (proj1 (Y t)).
  unfold gzTrack, gzError3, project, guard in UP.
  assert (Z : Reqb (vz (q t)) 0 = false). { unfold Reqb. destruct (Req_EM_T (vz (q t)) 0) as [e|_]; [exfalso; exact (NZ t e)|reflexivity]. }
  rewrite Z in UP. cbn [negb bind] in UP. unfold gzUpdate in UP; cbn [gzPoint gzRef gzDepth gzX gzPath bind fst snd T] in UP.
  change (vx (q t) / vz (q t), vy (q t) / vz (q t)) with (P t) in UP.
  destruct (fullJacobian_spec mb path (mkMat 2 (pathDof mb path) (fun m c => sumn 6 (fun k => imgJac F (P t) (vz (q t)) m k * e6 (rbdColX (pt_mul X (bkPos (K t))) (K t) c) k))) (mzero 2 (nrDof mb)))
    as (J & EJ & RJ & CJ & _ & DJ); try reflexivity; [exact W|]. rewrite EJ in UP. cbn [bind] in UP.
  assert (US : H t = mkHL J (hErr (H t)) (hSpeed (H t)) (vec2 (imNAcc F (gzKin X (K t)) (P t) (vz (q t)))) /\ hSpeed (H t) = vec2 (imSpeed F (gzKin X (K t)) (P t) (vz (q t)))).
  { injection UP as <-. split; reflexivity. }
  destruct US as (U1 & U2). rewrite HU, U2. unfold taskAcc. rewrite U1; cbn [hJac hNAcc]. rewrite CJ. cbn [mzero mcols Nat.add]. rewrite DJ by exact Hm. cbn [mget].
  assert (SJ : jacDot mb path (fun c => sumn 6 (fun k => acc * imgJac F (P t) (vz (q t)) m k * cmJac (gzKin X (K t)) k c)) (ald t) =
               acc * jacDot mb path (fun c => sumn 6 (fun k => imgJac F (P t) (vz (q t)) m k * e6 (rbdColX (pt_mul X (bkPos (K t))) (K t) c) k)) (ald t)).
  { unfold jacDot. rewrite <- sumn_scal. apply sumn_ext. intros c _. rewrite <- Rmult_assoc. f_equal. rewrite <- sumn_scal. apply sumn_ext. intros k _. unfold gzKin; cbn [cmJac]. ring. }
  rewrite SJ. assert (VI : forall v, vget (vec2 v) m = ax v m) by reflexivity. rewrite !VI.
  assert (AL : forall a k b, ax (v2lin a k b) m = ax a m + k * ax b m) by (intros; unfold v2lin; destruct m as [|[|]]; reflexivity).
  rewrite !AL. replace (ax (0, 0) m) with 0 by (destruct m as [|[|]]; reflexivity). unfold acc. change (inCamera X (K t) p) with (q t). ring_simplify. field.
Qed.

(** *** PositionBasedVisServoTask *)
Lemma m3ent_rate A t A' i j : dM A t A' -> dlim (fun s => m3ent (A s) i j) t (m3ent A' i j).
Proof. intros (D0 & D1 & D2). unfold m3ent. destruct i as [|[|i]]; [apply (dV_e3 (fun s => row0 (A s)))|apply (dV_e3 (fun s => row1 (A s)))|apply (dV_e3 (fun s => row2 (A s)))]; assumption. Qed.
Lemma m3ent_sum A v i : (i < 3)%nat -> m3ent A i 0 * vx v + m3ent A i 1 * vy v + m3ent A i 2 * vz v = e3 (m3mulv A v) i.
Proof. intros Hi. destruct i as [|[|[|]]]; [| | |lia]; unfold m3ent, m3mulv, dot; cbn; ring. Qed.
Lemma low_sum (L : nat -> R) A V i : (i < 3)%nat -> (forall q, (q < 3)%nat -> L q = 0 /\ L (3 + q)%nat = m3ent A i q) ->
  sumn 6 (fun q => L q * e6 V q) = e3 (m3mulv A (linr V)) i.
Proof.
  intros Hi HL. destruct (e6_at V) as (E0 & E1 & E2 & E3 & E4 & E5). rewrite sum6, E0, E1, E2, E3, E4, E5.
  destruct (HL 0%nat ltac:(lia)) as (-> & A0), (HL 1%nat ltac:(lia)) as (-> & A1), (HL 2%nat ltac:(lia)) as (-> & A2). cbn [Nat.add] in *. rewrite A0, A1, A2, <- m3ent_sum by exact Hi. ring.
Qed.
Lemma seen_E X_0_t X k : ptE (seenFrom X_0_t X k) = m3mul (m3mul (ptE X) (ptE (bkPos k))) (m3tr (ptE X_0_t)).
Proof. reflexivity. Qed.
Lemma seen_r X_0_t X k : ptr (seenFrom X_0_t X k) = m3mulv (ptE X_0_t) (vsub (worldPoint (ptr X) k) (ptr X_0_t)).
Proof.
  unfold seenFrom, worldPoint, pt_mul, pt_inv, pt_trans; cbn [ptr ptE]. rewrite m3tr_invol.
  generalize (vadd (ptr (bkPos k)) (m3mulv (m3tr (ptE (bkPos k))) (ptr X))). intros u. v3c.
Qed.
Lemma skew_turn F E w : rotation F -> m3mul F (m3neg (m3mul (skewm w) E)) = m3neg (m3mul (skewm (m3mulv F w)) (m3mul F E)).
Proof.
  intros RF. apply m3_ext_v. intros v. rewrite m3mul_mulv. unfold m3neg.
  assert (N : forall A u, m3mulv (mkM3 (vneg (row0 A)) (vneg (row1 A)) (vneg (row2 A))) u = vneg (m3mulv A u)) by (intros; v3c).
  rewrite !N. rewrite !m3mul_mulv, !skewm_mulv, rotation_cross by exact RF. assert (NM : forall A u, m3mulv A (vneg u) = vneg (m3mulv A u)) by (intros; v3c). rewrite NM. reflexivity.
Qed.
Lemma seen_rate X_0_t X mb path K al ald t : rigid X -> movesAt mb path K al ald t ->
  dM (fun s => m3tr (ptE (seenFrom X_0_t X (K s)))) t (m3mul (m3tr (ptE (seenFrom X_0_t X (K t)))) (skewm (ang (rbdVel X (K t))))).
Proof.
  intros RX M. pose proof M as [RG _ RT RP _].
  eapply dM_eq; [apply dM_tr; apply (dM_ext (fun s => m3mul (m3mul (ptE X) (ptE (bkPos (K s)))) (m3tr (ptE X_0_t))));
    [reflexivity|apply dM_mul; [apply dM_mul; [apply dM_const|exact RT]|apply dM_const]]|].
  cbv beta. rewrite seen_E. rewrite <- tr_rate. f_equal.
  change (ang (rbdVel X (K t))) with (m3mulv (ptE X) (ang (bkVelB (K t)))). rewrite skew_turn by exact RX.
  apply m3_ext_v. intros v.
  assert (Na : forall A B u, m3mulv (m3add A B) u = vadd (m3mulv A u) (m3mulv B u)) by (intros; unfold m3add; v3c).
  assert (Nn : forall A u, m3mulv (m3neg A) u = vneg (m3mulv A u)) by (intros; unfold m3neg; v3c).
  assert (Nz : forall u, m3mulv (mkM3 v0 v0 v0) u = v0) by (intros; v3c).
  assert (Nv : forall A, m3mulv A v0 = v0) by (intros; v3c).
  repeat first [rewrite Na|rewrite Nn|rewrite m3mul_mulv|rewrite Nz|rewrite Nv]. rewrite vadd_comm.
  assert (Z : forall u, vadd v0 u = u) by (intros; v3c). rewrite !Z. reflexivity.
Qed.
Theorem pbvs_tracks F mb path X_0_t X K al ald t jm : usesPose F -> wfPath mb path -> sized 6 mb jm -> rigid X -> movesAt mb path K al ald t ->
  exists H, yields 6 mb (fun s => pbUpdate F mb path (seenFrom X_0_t X (K s)) X (K s) (jm s)) H /\
    (forall s i, (i < 3)%nat -> vget (hErr (H s)) (3 + i) = e3 (m3mulv (ptE X_0_t) (vsub (ptr X_0_t) (worldPoint (ptr X) (K s)))) i) /\
    (forall s i, (i < 3)%nat -> vget (hErr (H s)) i = fst (pfAngle F (m3tr (ptE (seenFrom X_0_t X (K s))))) * e3 (snd (pfAngle F (m3tr (ptE (seenFrom X_0_t X (K s)))))) i) /\
    speedIsJac 6 H al t /\ errorRate 3 6 H t /\
    forall i, (i < 3)%nat -> dlim (fun s => vget (hSpeed (H s)) (3 + i)) t (taskAcc (H t) 0 (ald t) (3 + i) +
      e3 (m3mulv (m3tr (ptE (seenFrom X_0_t X (K t))))
            (vadd (cross (ang (rbdVel X (K t))) (linr (rbdVel X (K t)))) (m3mulv (pfSkew F (ang (rbdVel X (K t)))) (linr (rbdVel X (K t)))))) i).
Proof.
  intros UP W Sz RX M. pose proof (mvRigid _ _ _ _ _ _ M) as RG. set (S := fun s => seenFrom X_0_t X (K s)).
  set (D := fun s => m3mul (m3neg (m3tr (ptE (S s)))) (pfSkew F (ang (rbdVel X (K s))))).
  set (Ld := fun s i q => if ((3 <=? i) && (3 <=? q))%nat then m3ent (D s) (i - 3) (q - 3) else 0).
  destruct (frame_gen 6 mb path (fun s i q => pfJac F (ptE (S s)) i q) X K al ald t jm
    (fun s => vec6 (mkSp (vsc (fst (pfAngle F (m3tr (ptE (S s))))) (snd (pfAngle F (m3tr (ptE (S s)))))) (vneg (ptr (S s)))))
    (fun s => mkVec 6 (fun i => sumn 6 (fun q => pfJac F (ptE (S s)) i q * e6 (rbdVel X (K s)) q)))
    (fun s => mkVec 6 (fun i => sumn 6 (fun q => pfJac F (ptE (S s)) i q * e6 (rbdNAcc X sp0 (K s)) q) + sumn 6 (fun q => Ld s i q * e6 (rbdVel X (K s)) q)))
    (fun s => pbUpdate F mb path (S s) X (K s) (jm s)) W Sz M) as (H & Y & HV & HJ & HR).
  - intros s. repeat split.
  - reflexivity.
  - intros s. unfold pbUpdate. destruct (pfAngle F (m3tr (ptE (S s)))) as [a u]. reflexivity.
  - assert (LP : forall s i V, (i < 3)%nat -> sumn 6 (fun q => pfJac F (ptE (S s)) (3 + i) q * e6 V q) = e3 (m3mulv (m3tr (ptE (S s))) (linr V)) i).
    { intros s i V Hi. apply low_sum; [exact Hi|]. intros q Hq. destruct (UP (ptE (S s)) i q Hi Hq) as (A & _ & B). auto. }
    exists H. split; [exact Y|]. split; [|split; [|split; [exact HJ|split]]].
    + intros s i Hi. destruct (HV s) as (-> & _). unfold vec6; cbn [vget]. rewrite <- e6_linr. cbn [linr]. unfold S. rewrite seen_r. f_equal.
      generalize (worldPoint (ptr X) (K s)). intros u. v3c.
    + intros s i Hi. destruct (HV s) as (-> & _). unfold vec6; cbn [vget]. rewrite <- e6_ang by exact Hi. cbn [ang]. apply e3_sc.
    + intros i Hi. replace i with (3 + (i - 3))%nat by lia. set (j := (i - 3)%nat). assert (Hj : (j < 3)%nat) by (unfold j; lia). destruct (HV t) as (_ & -> & _). cbn [vget].
      rewrite (LP t j _ Hj).
      apply (dl_ext (fun s => e3 (m3mulv (ptE X_0_t) (vsub (ptr X_0_t) (worldPoint (ptr X) (K s)))) j)).
      { intros s. destruct (HV s) as (-> & _). unfold vec6; cbn [vget]. rewrite <- e6_linr. cbn [linr]. unfold S. rewrite seen_r. f_equal.
        generalize (worldPoint (ptr X) (K s)). intros u. v3c. }
      eapply dl_eq; [apply (dV_e3 (fun s => m3mulv (ptE X_0_t) (vsub (ptr X_0_t) (worldPoint (ptr X) (K s))))), dV_mulv; [apply dM_const|apply dV_sub; [apply dV_const|apply (worldPoint_rate _ _ _ _ _ _ _ M)]]|].
      cbv beta. rewrite <- e3_neg. f_equal. unfold S. rewrite seen_E.
      assert (Tr : m3tr (m3mul (m3mul (ptE X) (ptE (bkPos (K t)))) (m3tr (ptE X_0_t))) = m3mul (ptE X_0_t) (m3mul (m3tr (ptE (bkPos (K t)))) (m3tr (ptE X)))).
      { rewrite !m3tr_mul, m3tr_invol. reflexivity. }
      rewrite Tr. rewrite !m3mul_mulv. unfold rbdVel, rbdVelW, pt_mulM; cbn [linr ptE ptr].
      rewrite rotation_Tmul by exact RX.
      assert (Nz : forall u, m3mulv (mkM3 v0 v0 v0) u = v0) by (intros; v3c). rewrite Nz. unfold rbdVel, pt_mulM; cbn [linr ptE ptr].
      unfold rbdFrameW; cbn [ptE ptr]; generalize (m3mulv (m3tr (ptE (bkPos (K t)))) (vsub (linr (bkVelB (K t))) (cross (ptr X) (ang (bkVelB (K t)))))). intros u. v3c.
    + intros i Hi.
      eapply dl_eq.
      { apply (HR (3 + i)%nat (fun q => if (3 <=? q)%nat then m3ent (m3mul (m3tr (ptE (S t))) (skewm (ang (rbdVel X (K t))))) i (q - 3) else 0)); [lia|].
        intros q Hq. destruct (Nat.leb_spec 3 q) as [L|L].
        - apply (dl_ext (fun s => m3ent (m3tr (ptE (S s))) i (q - 3))).
          { intros s. destruct (UP (ptE (S s)) i (q - 3)%nat Hi ltac:(lia)) as (_ & _ & B). replace (3 + (q - 3))%nat with q in B by lia. auto. }
          apply (m3ent_rate (fun s => m3tr (ptE (S s)))). apply (seen_rate X_0_t X _ _ _ _ _ _ RX M).
        - apply (dl_ext (fun _ => 0)); [|apply dl_const]. intros s. destruct (UP (ptE (S s)) i q Hi ltac:(lia)) as (A & _ & _). auto. }
      f_equal. cbn [vget].
      rewrite (low_sum (fun q => if (3 <=? q)%nat then m3ent (m3mul (m3tr (ptE (S t))) (skewm (ang (rbdVel X (K t))))) i (q - 3) else 0) (m3mul (m3tr (ptE (S t))) (skewm (ang (rbdVel X (K t))))) _ i Hi).
      2:{ intros q Hq. split; [destruct (Nat.leb_spec 3 q); [lia|reflexivity]|]. cbn [Nat.add Nat.leb Nat.sub]. rewrite Nat.sub_0_r. reflexivity. }
      rewrite (low_sum (Ld t (3 + i)%nat) (D t) _ i Hi).
      2:{ intros q Hq. unfold Ld. split; [destruct (Nat.leb_spec 3 q); [lia|rewrite andb_false_r; reflexivity]|]. cbn [Nat.add Nat.leb Nat.sub andb]. rewrite !Nat.sub_0_r. reflexivity. }
      unfold D. rewrite !m3mul_mulv, skewm_mulv. set (a := cross _ _). set (b := m3mulv (pfSkew F _) _). fold S. change (seenFrom X_0_t X (K t)) with (S t).
      assert (NN : forall A u, m3mulv (m3neg A) u = vneg (m3mulv A u)) by (intros; unfold m3neg; v3c). rewrite NN.
      assert (NA : forall A u w, m3mulv A (vadd u w) = vadd (m3mulv A u) (m3mulv A w)) by (intros; v3c). rewrite NA, e3_add, e3_neg. ring.
Qed.
Lemma image_motion mb path X p K al ald t m : wfPath mb path -> rigid X -> (forall s, movesAt mb path K al ald s) -> (forall s, vz (inCamera X (K s) p) <> 0) -> (m < 2)%nat ->
  exists u a, (forall s, dlim (fun s => e3 (inCamera X (K s) p) m / vz (inCamera X (K s) p)) s (u s)) /\ dlim u t a.
Proof.
  intros W RX M NZ Hm. set (F := mkImg interaction (fun _ _ _ => 0) interactionDot). assert (UF : usesInteraction F) by (split; reflexivity).
  set (T := mkGz (0, 0) (0, 0) 0 X path). assert (Sz : sized 2 mb (fun _ => mzero 2 (nrDof mb))) by (intros s; split; reflexivity).
  destruct (gaze_tracks F mb path p (0, 0) T K al ald t (fun _ => mzero 2 (nrDof mb)) UF W eq_refl RX Sz (M t) NZ) as (H & Y & HE & HJ & ER & SR). cbn [gzX T] in *.
  exists (fun s => vget (hSpeed (H s)) m). eexists. split.
  - intros s. destruct (gaze_tracks F mb path p (0, 0) T K al ald s (fun _ => mzero 2 (nrDof mb)) UF W eq_refl RX Sz (M s) NZ) as (H' & Y' & HE' & _ & ER' & _).
    assert (EH : forall s, H s = H' s) by (intros r; assert (E1 : Ok (H r) = Ok (H' r)) by exact (eq_trans (eq_sym (proj1 (Y r))) (proj1 (Y' r))); injection E1; auto). rewrite EH.
    apply (dl_ext (fun r => ax (0, 0) m - vget (hErr (H' r)) m)). { intros r. rewrite HE' by exact Hm. cbn [gzX T]. ring. }
    eapply dl_eq; [apply dl_minus; [apply dl_const|apply (ER' m); lia]|]. ring.
  - destruct (inCamera_rate _ _ _ _ _ _ X p (M t) RX) as (_ & _ & DZ). exact (SR _ DZ m Hm).
Qed.
Lemma gaze_lemma F mb path p ref T K al ald t jm : usesInteraction F -> wfPath mb path -> gzPath T = path -> rigid (gzX T) -> sized 2 mb jm -> movesAt mb path K al ald t ->
  (forall s, vz (inCamera (gzX T) (K s) p) <> 0) ->
  exists H, yields 2 mb (fun s => gzTrack F mb (inCamera (gzX T) (K s) p) ref T (K s) (jm s)) H /\
    (forall s m, (m < 2)%nat -> vget (hErr (H s)) m = ax ref m - e3 (inCamera (gzX T) (K s) p) m / vz (inCamera (gzX T) (K s) p)) /\
    speedIsJac 2 H al t /\ errorRate 0 2 H t.
Proof. intros A B C D E G I. destruct (gaze_tracks F mb path p ref T K al ald t jm A B C D E G I) as (H & Y & HE & HJ & ER & _). exists H. auto. Qed.
Lemma gaze_acc_exact F mb path p ref T K al ald t jm zd : usesInteraction F -> wfPath mb path -> gzPath T = path -> rigid (gzX T) -> sized 2 mb jm -> movesAt mb path K al ald t ->
  (forall s, vz (inCamera (gzX T) (K s) p) <> 0) -> dlim (fun s => vz (inCamera (gzX T) (K s) p)) t zd ->
  exists H, yields 2 mb (fun s => gzTrack F mb (inCamera (gzX T) (K s) p) ref T (K s) (jm s)) H /\
    (forall m, (m < 2)%nat -> dlim (fun s => vget (hSpeed (H s)) m) t (taskAcc (H t) 0 (ald t) m +
         (zd - gzUsedRate F (rbdVel (gzX T) (K t)) (inCamera (gzX T) (K t) p)) *
         (e6 (rbdVel (gzX T) (K t)) (3 + m) - e3 (inCamera (gzX T) (K t) p) m / vz (inCamera (gzX T) (K t) p) * e6 (rbdVel (gzX T) (K t)) 5)
         / (vz (inCamera (gzX T) (K t) p) * vz (inCamera (gzX T) (K t) p)))) /\
    (gzUsedRate F (rbdVel (gzX T) (K t)) (inCamera (gzX T) (K t) p) = zd -> speedRate 0 2 H ald t).
Proof.
  intros A B C D E G I J. destruct (gaze_tracks F mb path p ref T K al ald t jm A B C D E G I) as (H & Y & _ & _ & _ & SR). exists H. split; [exact Y|]. split; [exact (SR zd J)|].
  intros Q m Hm. eapply dl_eq; [apply (SR zd J m); lia|]. rewrite Q, Rminus_diag_eq, Rmult_0_l by reflexivity. unfold Rdiv. rewrite Rmult_0_l. ring.
Qed.
Lemma pbvs_lemma F mb path X_0_t X K al ald t jm : usesPose F -> wfPath mb path -> sized 6 mb jm -> rigid X -> movesAt mb path K al ald t ->
  exists H, yields 6 mb (fun s => pbUpdate F mb path (seenFrom X_0_t X (K s)) X (K s) (jm s)) H /\
    (forall s i, (i < 3)%nat -> vget (hErr (H s)) (3 + i) = e3 (m3mulv (ptE X_0_t) (vsub (ptr X_0_t) (worldPoint (ptr X) (K s)))) i) /\
    (forall s i, (i < 3)%nat -> vget (hErr (H s)) i = fst (pfAngle F (m3tr (ptE (seenFrom X_0_t X (K s))))) * e3 (snd (pfAngle F (m3tr (ptE (seenFrom X_0_t X (K s)))))) i) /\
    speedIsJac 6 H al t /\ errorRate 3 6 H t.
Proof. intros A B C D E. destruct (pbvs_tracks F mb path X_0_t X K al ald t jm A B C D E) as (H & Y & E1 & E2 & HJ & ER & _). exists H. auto. Qed.
Lemma pbvs_acc_exact F mb path X_0_t X K al ald t jm : usesPose F -> wfPath mb path -> sized 6 mb jm -> rigid X -> movesAt mb path K al ald t ->
  exists H, yields 6 mb (fun s => pbUpdate F mb path (seenFrom X_0_t X (K s)) X (K s) (jm s)) H /\
    (forall i, (i < 3)%nat -> dlim (fun s => vget (hSpeed (H s)) (3 + i)) t (taskAcc (H t) 0 (ald t) (3 + i) +
      e3 (m3mulv (m3tr (ptE (seenFrom X_0_t X (K t))))
            (vadd (cross (ang (rbdVel X (K t))) (linr (rbdVel X (K t)))) (m3mulv (pfSkew F (ang (rbdVel X (K t)))) (linr (rbdVel X (K t)))))) i)) /\
    ((forall w, pfSkew F w = skewm w) -> cross (ang (rbdVel X (K t))) (linr (rbdVel X (K t))) = v0 -> speedRate 3 6 H ald t) /\
    ((forall w, pfSkew F w = m3neg (skewm w)) -> speedRate 3 6 H ald t).
Proof.
  intros A B C D E. destruct (pbvs_tracks F mb path X_0_t X K al ald t jm A B C D E) as (H & Y & _ & _ & _ & _ & SR). exists H. split; [exact Y|]. split; [exact SR|].
  assert (Z : forall M i, e3 (m3mulv M v0) i = 0) by (intros M [|[|i]]; unfold m3mulv, v0, dot; cbn; ring).
  split.
  - intros Sk Cr i Hi. replace i with (3 + (i - 3))%nat by lia. eapply dl_eq; [apply (SR (i - 3)%nat); lia|]. rewrite Sk, skewm_mulv, Cr.
    replace (vadd v0 v0) with v0 by v3c. rewrite Z. ring.
  - intros Sk i Hi. replace i with (3 + (i - 3))%nat by lia. eapply dl_eq; [apply (SR (i - 3)%nat); lia|]. rewrite Sk.
    replace (vadd _ _) with v0; [rewrite Z; ring|]. rewrite <- skewm_mulv. generalize (skewm (ang (rbdVel X (K t)))) (linr (rbdVel X (K t))). intros. unfold m3neg. v3c.
Qed.
