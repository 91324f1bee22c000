(** The velocity damper in closed loop. *)
From Verif Require Export DamperProofs.
Open Scope list_scope.
Open Scope R_scope.

Lemma dstate_dec (a b : dstate) : {a = b} + {a <> b}.
Proof. decide equality. Qed.
Lemma lastZone_app l u inter hs q al : lastZone l u inter (hs ++ [(q, al)]) = zoneOf l u inter q.
Proof. unfold lastZone. rewrite rev_app_distr. reflexivity. Qed.
Lemma zone_cases l u inter q : inter <= 1 / 2 -> l < u ->
  match zoneOf l u inter q with
  | Low => q - l < (u - l) * inter /\ (u - l) * inter <= u - q
  | Upp => u - q < (u - l) * inter /\ (u - l) * inter <= q - l
  | Free => (u - l) * inter <= q - l /\ (u - l) * inter <= u - q
  end.
Proof.
  intros H L. unfold zoneOf. assert ((u - l) * inter * 2 <= u - l) by nra.
  destruct (Rlt_dec (q - l) _); [lra|]. destruct (Rlt_dec (u - q) _); lra.
Qed.
Lemma entered_Or l u inter z hs q al e : z <> Free -> zoneOf l u inter q = z -> enteredWith l u inter z (hs ++ [(q, al)]) e ->
  (lastZone l u inter hs = z /\ enteredWith l u inter z hs e) \/ (lastZone l u inter hs <> z /\ e = (q, al)).
Proof.
  intros NF Z E. assert (D : lastZone l u inter hs = z \/ lastZone l u inter hs <> z) by (destruct (lastZone l u inter hs), z; auto; right; discriminate).
  destruct D as [D|D].
  - left. split; [auto|]. destruct hs as [|p hs _] using rev_ind; [unfold lastZone in D; simpl in D; congruence|].
    destruct p as [q0 a0]. rewrite lastZone_app in D.
    destruct E as (pre & post & E & F & B). destruct post as [|x post _] using rev_ind.
    + apply app_inj_tail in E as (E & _). subst pre. destruct B as [B|(p & pre' & B & N)]; [destruct hs; discriminate|].
      apply app_inj_tail in B as (_ & <-). cbn [fst] in N. contradiction.
    + rewrite app_comm_cons, app_assoc in E. apply app_inj_tail in E as (E & _).
      exists pre, post. split; [auto|]. split; [|auto]. rewrite app_comm_cons in F. apply Forall_app in F. tauto.
  - right. split; [auto|]. apply (entered_unique l u inter z (hs ++ [(q, al)])); [auto|]. apply entered_now; [auto|].
    destruct hs as [|p hs _] using rev_ind; [auto|]. right. exists p, hs. split; [auto|]. destruct p as [q0 a0]. rewrite lastZone_app in D. auto.
Qed.

Lemma entered_exists l u inter z : forall hs q al, zoneOf l u inter q = z -> exists e, enteredWith l u inter z (hs ++ [(q, al)]) e.
Proof.
  induction hs as [|[q0 a0] hs IH] using rev_ind; intros q al Z.
  - exists (q, al). apply (entered_now _ _ _ [] q al z Z). auto.
  - destruct (dstate_dec (zoneOf l u inter q0) z) as [E|E].
    + destruct (IH q0 a0 E) as (e & H). exists e. apply entered_stay; auto.
    + exists (q, al). apply entered_now; [auto|]. right. exists (q0, a0), hs. auto.
Qed.

Section OneJoint.
Variables (l u inter secu off dt V th : R).
Hypothesis (Hlu : l < u) (Hsi : secu < inter) (Hi : inter <= 1 / 2) (Hoff : 0 <= off) (Hdt : 0 < dt)
  (HV : 9 * (dt * V) <= (u - l) * (inter - secu)) (Ho : 8 * (dt * off) <= (u - l) * (inter - secu)) (Hth : 0 <= th <= 1).

(** Distance [e] to the security distance on the side of zone [z], velocity [w] away from the limit. *)
Definition side (z : dstate) (hs : list (R * R)) (e w : R) : Prop :=
  (lastZone l u inter hs = z /\ (forall en, enteredWith l u inter z hs en -> 4 * (dt * damping_ l u inter secu off z en) <= (u - l) * (inter - secu)) /\ 0 <= e /\ - e <= 2 * (dt * w)) \/
  (lastZone l u inter hs <> z /\ 0 < e /\ 8 * (dt * Rabs w) <= e).

Lemma side_step z hs q al v q' : z <> Free ->
  let e := gap l u z q - (u - l) * secu in let e' := gap l u z q' - (u - l) * secu in
  let s := match z with Low => 1 | _ => -1 end in
  (zoneOf l u inter q <> z -> (u - l) * inter <= gap l u z q) ->
  Rabs al <= V -> Rabs v <= V -> q' = q + dt * ((1 - th) * al + th * v) ->
  (zoneOf l u inter q = z -> exists en, enteredWith l u inter z (hs ++ [(q, al)]) en /\
     - damperSpeed l u inter secu (damping_ l u inter secu off z en) (gap l u z q) <= s * v) ->
  side z hs e (s * al) -> side z (hs ++ [(q, al)]) e' (s * v).
Proof.
  intros NF e e' s Hfar Ha Hv Hq Hd HS.
  assert (s1 : s = 1 \/ s = -1) by (unfold s; destruct z; auto).
  assert (E' : e' = e + (1 - th) * (dt * (s * al)) + th * (dt * (s * v))).
  { unfold e', e, s, gap. destruct z; [| |contradiction]; rewrite Hq; ring. }
  assert (Aw : Rabs (s * al) = Rabs al /\ Rabs (s * v) = Rabs v).
  { destruct s1 as [-> | ->]; [rewrite !Rmult_1_l; auto|]. replace (-1 * al) with (- al) by ring. replace (-1 * v) with (- v) by ring. rewrite !Rabs_Ropp. auto. }
  destruct Aw as (Aw & Av). set (w := s * al) in *. set (w' := s * v) in *. clearbody w w' s.
  assert (HIS : 0 < (u - l) * (inter - secu)) by nra.
  destruct (dstate_dec (zoneOf l u inter q) z) as [Z|Z].
  - destruct (Hd Z) as (en & En & B). clear Hd Hfar. left. rewrite lastZone_app.
    set (xi := damping_ l u inter secu off z en) in *.
    assert (X : 4 * (dt * xi) <= (u - l) * (inter - secu) /\ 0 <= e /\ - e <= 2 * (dt * w) /\ 0 <= xi).
    { assert (P : 0 <= xi) by (unfold xi, damping_; pose proof (Rabs_pos ((((u - l) * inter - (u - l) * secu) / (gap l u z (fst en) - (u - l) * secu)) * snd en)); lra).
      destruct (entered_Or _ _ _ _ _ _ _ _ NF Z En) as [(L & En')|(L & Eq)].
      - destruct HS as [(_ & X & Y & W)|(L' & _)]; [|contradiction]. specialize (X en En'). auto.
      - destruct HS as [(L' & _)|(_ & Y & W)]; [contradiction|].
        assert (- Rabs w <= w) by (pose proof (Rle_abs (- w)) as Q; rewrite Rabs_Ropp in Q; lra).
        split; [|split; [lra|split; [|auto]]].
        + unfold xi, damping_. rewrite Eq. cbn [fst snd]. fold e.
          rewrite Rabs_mult. replace (Rabs (((u - l) * inter - (u - l) * secu) / e)) with (((u - l) * (inter - secu)) / e).
          2: { rewrite Rabs_right; [f_equal; ring|]. apply Rle_ge. unfold Rdiv. apply Rmult_le_pos; [nra|]. left. apply Rinv_0_lt_compat; auto. }
          rewrite Aw in W. set (K := (u - l) * (inter - secu)) in *. assert (Q : K / e * (8 * (dt * Rabs al)) <= K).
          { apply Rle_trans with (K / e * e); [|right; field; lra]. apply Rmult_le_compat_l; [|auto]. unfold Rdiv. apply Rmult_le_pos; [lra|]. left. apply Rinv_0_lt_compat; auto. }
          replace (4 * (dt * (K / e * Rabs al + off))) with ((K / e * (8 * (dt * Rabs al))) / 2 + (8 * (dt * off)) / 2) by (field; lra). lra.
        + nra. }
    destruct X as (X1 & X2 & X3 & X4).
    assert (DS : - e <= 4 * (dt * w')).
    { unfold damperSpeed in B. fold e in B. replace ((u - l) * inter - (u - l) * secu) with ((u - l) * (inter - secu)) in B by ring.
      set (K := (u - l) * (inter - secu)) in *.
      assert (Q : xi * (e / K) * (4 * dt) <= e).
      { replace (xi * (e / K) * (4 * dt)) with (e * ((4 * (dt * xi)) / K)) by (field; lra).
        rewrite <- (Rmult_1_r e) at 2. apply Rmult_le_compat_l; [auto|]. apply Rmult_le_reg_r with K; [auto|]. unfold Rdiv. rewrite Rmult_assoc, Rinv_l by lra. lra. }
      assert (Q2 : - (xi * (e / K)) * (4 * dt) <= w' * (4 * dt)) by (apply Rmult_le_compat_r; lra). lra. }
    assert (e / 2 <= e') by (rewrite E'; nra).
    split; [auto|]. split; [|split; lra].
    intros en' En'. rewrite (entered_unique _ _ _ _ _ _ _ En' En). exact X1.
  - right. rewrite lastZone_app. split; [auto|]. specialize (Hfar Z). rewrite Av.
    assert (HE : (u - l) * (inter - secu) <= e) by (unfold e; lra).
    assert (- V <= w) by (pose proof (Rle_abs (- w)) as Q; rewrite Rabs_Ropp, Aw in Q; lra).
    assert (- V <= w') by (pose proof (Rle_abs (- w')) as Q; rewrite Rabs_Ropp, Av in Q; lra).
    assert (HV0 : 0 <= V) by (pose proof (Rabs_pos al); lra).
    assert (D1 : - (dt * V) <= dt * w) by nra. assert (D2 : - (dt * V) <= dt * w') by nra.
    assert (HE' : e - dt * V <= e') by (rewrite E'; nra).
    assert (dt * Rabs v <= dt * V) by nra. split; [|lra].
    assert (0 <= dt * V) by nra. lra.
Qed.
End OneJoint.

Definition sideInv (l u inter secu off dt V : R) (hs : list (R * R)) (q al : R) : Prop :=
  Rabs al <= V /\
  side l u inter secu off dt Low hs (gap l u Low q - (u - l) * secu) (1 * al) /\
  side l u inter secu off dt Upp hs (gap l u Upp q - (u - l) * secu) (-1 * al).
Lemma loop_inv mb r lq uq la ua lad uad ladd uadd inter secu off dt d b m c0 th m' c' :
  perDofOpt mb lad -> perDofOpt mb uad -> perDofOpt mb ladd -> perDofOpt mb uadd ->
  djInv mb r lq uq la ua lad uad ladd uadd inter secu off dt (Some d) [] m -> alphaDBegin d r = Ok b -> cfgOk mb c0 -> 0 <= th <= 1 ->
  loop mb r b dt th m c0 m' c' ->
  exists cs, djInv mb r lq uq la ua lad uad ladd uadd inter secu off dt (Some d) cs m' /\ cfgOk mb c' /\
    forall i jt l u vl vu V, nth_error (joints mb) i = Some jt -> jdof jt = 1%nat ->
      at2 lq i 0 NInf = Fin l -> at2 uq i 0 PInf = Fin u -> at2 la i 0 NInf = Fin vl -> at2 ua i 0 PInf = Fin vu ->
      tuned l u vl vu inter secu off dt V -> startsOk l u secu dt V (at2 (cfQ c0) i 0 0) (at2 (cfAlpha c0) i 0 0) ->
      sideInv l u inter secu off dt V (track i cs) (at2 (cfQ c') i 0 0) (at2 (cfAlpha c') i 0 0).
Proof.
  intros P1 P2 P3 P4 I1 HB C0 Hth HLoop. pose proof (dvDt _ _ _ _ _ _ _ _ _ _ _ _ _ _ _ _ _ I1) as Hdt.
  induction HLoop as [m c|m c m1 c1 mcs m2 bd x c2 HLo IH HC HU HBd HX HInt C2].
  - exists []. split; [auto|]. split; [auto|]. intros i jt l u vl vu V _ _ _ _ _ _ _ (A & B & C & D). split; [auto|]. cbn [gap].
    rewrite Rmult_1_l. replace (-1 * at2 (cfAlpha c) i 0 0) with (- at2 (cfAlpha c) i 0 0) by ring.
    split; right; (split; [unfold lastZone; simpl; discriminate|]); rewrite ?Rabs_Ropp; split; lra.
  - destruct (IH I1 C0) as (cs & IV & C1 & Q). clear IH.
    assert (IV2 : djInv mb r lq uq la ua lad uad ladd uadd inter secu off dt (Some d) (cs ++ [c1]) m2).
    { pose proof (djStep_inv _ _ _ _ _ _ _ _ _ _ _ _ _ _ _ _ _ (LUp mcs) m2 P1 P2 P3 P4 IV HU) as K. simpl in K. rewrite HC in K. apply K. repeat constructor; apply C1. }
    exists (cs ++ [c1]). split; [auto|]. split; [auto|].
    intros i jt l u vl vu V HJ D1 L U VL VU TU ST. destruct (Q i jt l u vl vu V HJ D1 L U VL VU TU ST) as (A1 & SL & SU). clear Q.
    destruct TU as (Hlu & Hsi & Hi & Hoff & HV1 & HV2 & HV & Ho).
    destruct (HInt i jt HJ D1) as (E1 & E2). cbv zeta in E1, E2.
    set (q := at2 (cfQ c1) i 0 0) in *. set (al := at2 (cfAlpha c1) i 0 0) in *. set (v := at2 (cfAlpha c2) i 0 0) in *. set (q' := at2 (cfQ c2) i 0 0) in *.
    assert (O : oneDof mb i) by (exists jt; auto).
    assert (BX : between (vget (djLow m2) (jointPosInDof mb i)) (x (b + jointPosInDof mb i)%nat) (vget (djUp m2) (jointPosInDof mb i))).
    { destruct IV2 as [V1 V2 V3 V4 V5 V6 V7 V8 V9 V10 V11 (b' & V12 & V12') V13 V14 V15 V16].
      assert (b' = b) by congruence. subst b'. unfold djBound, zidx in HBd. rewrite V12' in HBd.
      replace (0 <=? Z.of_nat b)%Z with true in HBd by (symmetry; apply Z.leb_le; lia). cbn [bind] in HBd. rewrite Nat2Z.id in HBd. injection HBd as <-.
      destruct (HX (jointPosInDof mb i)) as (X1 & X2). cbn [bdL bdU bdBegin vlen] in *.
      pose proof (isDof_lt _ _ _ (oneDof_isDof _ _ O)). unfold between. split; [apply X1|apply X2]; lia. }
    apply (dvOne _ _ _ _ _ _ _ _ _ _ _ _ _ _ _ _ _ IV2 i O cs c1 eq_refl) in BX. cbv zeta in BX. fold al in BX. rewrite <- E1 in BX.
    destruct BX as ((BV & BD) & _). rewrite VL, VU in BV. destruct BV as (B1 & B2). cbn [ele] in B1, B2. rewrite L, U in BD. unfold damperOk in BD.
    assert (TR : track i (cs ++ [c1]) = track i cs ++ [(q, al)]) by (unfold track; rewrite map_app; auto). rewrite TR in *. specialize (BD _ _ _ eq_refl).
    assert (AV : Rabs v <= V) by (apply Rabs_le; lra). pose proof (zone_cases l u inter q Hi Hlu) as ZC.
    split; [auto|]. split.
    + apply (side_step l u inter secu off dt V th Hlu Hsi Hoff Hdt HV Ho Hth Low (track i cs) q al v q'); auto; try discriminate.
      * intros N. cbn [gap]. destruct (zoneOf l u inter q); [contradiction|lra|lra].
      * intros Z. rewrite Z in BD. destruct BD as (e & E & K). exists e. split; [auto|]. cbn [gap]. lra.
    + apply (side_step l u inter secu off dt V th Hlu Hsi Hoff Hdt HV Ho Hth Upp (track i cs) q al v q'); auto; try discriminate.
      * intros N. cbn [gap]. destruct (zoneOf l u inter q); [lra|contradiction|lra].
      * intros Z. rewrite Z in BD. destruct BD as (e & E & K). exists e. split; [auto|]. cbn [gap]. lra.
Qed.

Lemma start_inv mbs r lq uq la ua lad uad ladd uadd inter secu off dt m0 ops mb d m :
  newDJ mbs r lq uq la ua lad uad ladd uadd inter secu off dt = Ok m0 -> nth_error mbs r = Some mb ->
  perDof mb la -> perDof mb ua -> perDofOpt mb lad -> perDofOpt mb uad -> perDofOpt mb ladd -> perDofOpt mb uadd ->
  djRun m0 ops = Ok m -> configs r ops = [] -> lastSizes ops = Some d ->
  djInv mb r lq uq la ua lad uad ladd uadd inter secu off dt (Some d) [] m.
Proof.
  intros HN M PA PU P1 P2 P3 P4 HR CF HL.
  pose proof (newDJ_inv _ _ _ _ _ _ _ _ _ _ _ _ _ _ _ _ HN M PA PU) as I0.
  pose proof (djRun_inv _ _ _ _ _ _ _ _ _ _ _ _ _ _ _ P1 P2 P3 P4 I0 _ _ HR ltac:(rewrite CF; auto)) as I1. rewrite CF, HL in I1. exact I1.
Qed.

Lemma inside_lemma mbs r lq uq la ua lad uad ladd uadd inter secu off dt m0 ops mb d b m c0 i jt l u vl vu V th m' c' :
  newDJ mbs r lq uq la ua lad uad ladd uadd inter secu off dt = Ok m0 -> nth_error mbs r = Some mb ->
  perDof mb la -> perDof mb ua -> perDofOpt mb lad -> perDofOpt mb uad -> perDofOpt mb ladd -> perDofOpt mb uadd ->
  djRun m0 ops = Ok m -> configs r ops = [] -> lastSizes ops = Some d -> alphaDBegin d r = Ok b -> cfgOk mb c0 ->
  nth_error (joints mb) i = Some jt -> jdof jt = 1%nat ->
  at2 lq i 0 NInf = Fin l -> at2 uq i 0 PInf = Fin u -> at2 la i 0 NInf = Fin vl -> at2 ua i 0 PInf = Fin vu ->
  tuned l u vl vu inter secu off dt V -> startsOk l u secu dt V (at2 (cfQ c0) i 0 0) (at2 (cfAlpha c0) i 0 0) -> 0 <= th <= 1 ->
  loop mb r b dt th m c0 m' c' ->
  l + (u - l) * secu <= at2 (cfQ c') i 0 0 <= u - (u - l) * secu.
Proof.
  intros HN M PA PU P1 P2 P3 P4 HR CF HL HB C0 HJ D1 L U VL VU TU ST Hth HLoop.
  pose proof (start_inv _ _ _ _ _ _ _ _ _ _ _ _ _ _ _ _ _ _ _ HN M PA PU P1 P2 P3 P4 HR CF HL) as I1.
  destruct (loop_inv _ _ _ _ _ _ _ _ _ _ _ _ _ _ _ _ _ _ _ _ _ P1 P2 P3 P4 I1 HB C0 Hth HLoop) as (cs & _ & _ & G).
  destruct (G i jt l u vl vu V HJ D1 L U VL VU TU ST) as (_ & G1 & G2). cbn [gap] in *.
  destruct G1 as [(_ & _ & G1 & _)|(_ & G1 & _)], G2 as [(_ & _ & G2 & _)|(_ & G2 & _)]; lra.
Qed.

(** ** Definedness *)
Lemma damperIn_def off al st z dm d i s : i <> s -> (st <> z -> d <> s) -> exists r, damperIn off al st z dm (Fin d) (Fin i) (Fin s) = Ok r.
Proof.
  intros N H. unfold damperIn. cbn [finite bind].
  assert (K : exists k, match st, z with Low, Low | Upp, Upp | Free, Free => Ok dm | _, _ => do k <- computeDamping al d i s; Ok (Rabs k + off) end = Ok k).
  { assert (C : st <> z -> exists k, (do k <- computeDamping al d i s; Ok (Rabs k + off)) = Ok k).
    { intros Q. specialize (H Q). unfold computeDamping. replace (Reqb (d - s) 0) with false by (symmetry; apply Reqb_false; lra). cbn. eauto. }
    destruct st, z; eauto; apply C; discriminate. }
  destruct K as (k & ->). cbn [bind]. unfold computeDamper. replace (Reqb (i - s) 0) with false by (symmetry; apply Reqb_false; lra). cbn. eauto.
Qed.
Lemma dampStep_def a b vl vu inter secu off hs d dt q al :
  dInv (Fin a) (Fin b) vl vu inter secu off hs d -> a <> b -> inter <> secu ->
  (forall z, zoneOf a b inter q = z -> lastZone a b inter hs <> z -> z <> Free -> gap a b z q <> (b - a) * secu) ->
  exists r, dampStep off dt q al d = Ok r.
Proof.
  intros [M1 M2 M3 M4 FI _] NE NI H. destruct (FI a b eq_refl eq_refl) as (I1 & I2 & S1 & S2 & _).
  unfold dampStep. rewrite M1, M2, M3, M4, I1, I2. cbn [esub bind]. rewrite !eltb_Fin.
  assert (N : (b - a) * inter <> (b - a) * secu) by (intros E; apply Rmult_eq_reg_l in E; [lra|lra]).
  assert (ST : dpState d = lastZone a b inter hs).
  { destruct hs as [|[q0 a0] hs _] using rev_ind; [auto|]. rewrite lastZone_app. eapply S2. reflexivity. }
  rewrite ST. unfold zoneOf in H.
  destruct (Rlt_dec (q - a) ((b - a) * inter)).
  - destruct (damperIn_def off al (lastZone a b inter hs) Low (dpDamping d) (q - a) _ _ N) as ((dm & w) & ->); [|cbn; eauto]. intros Q. apply (H Low); auto; discriminate.
  - destruct (Rlt_dec (b - q) ((b - a) * inter)); [|cbn; eauto].
    destruct (damperIn_def off al (lastZone a b inter hs) Upp (dpDamping d) (b - q) _ _ N) as ((dm & w) & ->); [|cbn; eauto]. intros Q. apply (H Upp); auto; discriminate.
Qed.
Lemma dampsStep_def off dt c : forall ds lo up,
  (forall d, In d ds -> (dpPos d < vlen lo)%nat /\ (dpPos d < vlen up)%nat /\ exists q al r, first2 (cfQ c) (dpJoint d) = Ok q /\ first2 (cfAlpha c) (dpJoint d) = Ok al /\ dampStep off dt q al d = Ok r) ->
  exists ds' lo' up', dampsStep off dt c ds lo up = Ok (ds', lo', up') /\ vlen lo' = vlen lo /\ vlen up' = vlen up.
Proof.
  induction ds as [|d ds IH]; intros lo up H; [cbn; eauto 6|].
  destruct (H d ltac:(simpl; auto)) as (L1 & L2 & q & al & ((d' & l) & u) & Q & A & R). simpl. rewrite Q, A. cbn [bind]. rewrite R. cbn [bind].
  unfold vput at 1 2. rewrite (proj2 (Nat.ltb_lt _ _) L1), (proj2 (Nat.ltb_lt _ _) L2). cbn [bind].
  edestruct IH as (ds' & lo' & up' & E & E1 & E2); [|rewrite E; cbn [bind]; do 3 eexists; split; [reflexivity|]; split; [exact E1|exact E2]].
  intros d0 H0. cbn [vlen]. apply H. simpl; auto.
Qed.
Lemma first2_def {A} (ps : list (list A)) i d : (exists l, nth_error ps i = Some l /\ (0 < length l)%nat) -> first2 ps i = Ok (at2 ps i 0 d).
Proof.
  intros (l & L & H). unfold first2, at2. rewrite (ContactProofs.vec_at_Some _ _ _ L). cbn [bind]. rewrite (nth_error_nth _ _ _ L).
  destruct l as [|x l]; [simpl in H; lia|]. reflexivity.
Qed.
Lemma perJoint_nth {A} (f : joint -> nat) mb (ps : list (list A)) i jt : map (@length A) ps = map f (joints mb) -> nth_error (joints mb) i = Some jt ->
  exists l, nth_error ps i = Some l /\ length l = f jt.
Proof.
  intros H E. assert (K : nth_error (map (@length A) ps) i = Some (f jt)) by (rewrite H; apply map_nth_error; auto).
  rewrite nth_error_map in K. destruct (nth_error ps i) as [l|]; [|discriminate]. injection K as K. eauto.
Qed.
Lemma djUpdate_def mb r lq uq la ua lad uad ladd uadd inter secu off dt od cs m mcs c :
  djInv mb r lq uq la ua lad uad ladd uadd inter secu off dt od cs m -> nth_error mcs r = Some c -> cfgOk mb c ->
  (forall i jt, nth_error (joints mb) i = Some jt -> jdof jt = 1%nat -> jparams jt = 1%nat /\ exists a b, at2 lq i 0 NInf = Fin a /\ at2 uq i 0 PInf = Fin b /\ a <> b /\
     forall z, zoneOf a b inter (at2 (cfQ c) i 0 0) = z -> lastZone a b inter (track i cs) <> z -> z <> Free -> gap a b z (at2 (cfQ c) i 0 0) <> (b - a) * secu) ->
  inter <> secu ->
  exists m', djUpdate mcs m = Ok m'.
Proof.
  intros [V1 V2 V3 V4 V5 V6 V7 V8 V9 V10 V11 V12 V13 V14 V15 V16] HC (C1 & C2 & C3) HJ NI.
  unfold djUpdate. rewrite V1, (ContactProofs.vec_at_Some _ _ _ HC). cbn [bind].
  rewrite paramTo_def by (rewrite V7, (perDof_len _ _ C3); auto). cbn [bind].
  destruct (dampsStep_def (djOff m) (djStep m) c (djData m) (djLow m) (djUp m)) as (ds & lo & up & E & L1 & L2).
  { intros d Hd. rewrite V5, V6. rewrite Forall_forall in V14. destruct (V14 d Hd) as (P & DI).
    assert (O : oneDof mb (dpJoint d)) by (apply ones_In; rewrite <- V13; apply in_map; auto).
    pose proof (isDof_lt _ _ _ (oneDof_isDof _ _ O)) as L. rewrite Nat.add_0_r in L. rewrite P. split; [auto|]. split; [auto|].
    destruct O as (jt & EJ & D1). destruct (HJ _ _ EJ D1) as (PJ & a & b & A & B & NE & Z). rewrite A, B, <- V3 in DI.
    destruct (dampStep_def _ _ _ _ _ _ _ _ _ (djStep m) (at2 (cfQ c) (dpJoint d) 0 0) (at2 (cfAlpha c) (dpJoint d) 0 0) DI NE NI Z) as (r0 & R0).
    destruct (perJoint_nth _ _ _ _ _ C1 EJ) as (lq0 & Q1 & Q2). destruct (perJoint_nth _ _ _ _ _ C2 EJ) as (la0 & A1 & A2).
    do 3 eexists. split; [apply first2_def; exists lq0; split; [auto|lia]|]. split; [apply first2_def; exists la0; split; [auto|lia]|]. exact R0. }
  rewrite E. cbn [bind]. rewrite V8, V9, V10, V11, V7.
  repeat (rewrite vzip_def by (cbn [vlen]; congruence); cbn [bind vlen vget]). eauto.
Qed.
Lemma loop_defined_lemma mbs r lq uq la ua lad uad ladd uadd inter secu off dt m0 ops mb d b m c0 th m' c' mcs :
  newDJ mbs r lq uq la ua lad uad ladd uadd inter secu off dt = Ok m0 -> nth_error mbs r = Some mb ->
  perDof mb la -> perDof mb ua -> perDofOpt mb lad -> perDofOpt mb uad -> perDofOpt mb ladd -> perDofOpt mb uadd ->
  djRun m0 ops = Ok m -> configs r ops = [] -> lastSizes ops = Some d -> alphaDBegin d r = Ok b -> cfgOk mb c0 -> 0 <= th <= 1 ->
  secu <> inter ->
  (forall i jt, nth_error (joints mb) i = Some jt -> jdof jt = 1%nat -> jparams jt = 1%nat /\ tunedJoint lq uq la ua inter secu off dt c0 i) ->
  loop mb r b dt th m c0 m' c' -> nth_error mcs r = Some c' ->
  exists m'', djUpdate mcs m' = Ok m''.
Proof.
  intros HN M PA PU P1 P2 P3 P4 HR CF HL HB C0 Hth NI HT HLoop HC.
  pose proof (start_inv _ _ _ _ _ _ _ _ _ _ _ _ _ _ _ _ _ _ _ HN M PA PU P1 P2 P3 P4 HR CF HL) as I1.
  destruct (loop_inv _ _ _ _ _ _ _ _ _ _ _ _ _ _ _ _ _ _ _ _ _ P1 P2 P3 P4 I1 HB C0 Hth HLoop) as (cs & IV & C1 & G).
  eapply djUpdate_def; eauto. intros i jt HJ D1. destruct (HT i jt HJ D1) as (J1 & l & u & vl & vu & V & L & U & VL & VU & TU & ST). split; [auto|].
  exists l, u. split; [auto|]. split; [auto|]. split; [destruct TU; lra|].
  destruct (G i jt l u vl vu V HJ D1 L U VL VU TU ST) as (_ & G1 & G2).
  intros z Z LZ NF. destruct z; [| |congruence]; cbn [gap] in *.
  - destruct G1 as [(G1 & _)|(_ & G1 & _)]; [contradiction|lra].
  - destruct G2 as [(G2 & _)|(_ & G2 & _)]; [contradiction|lra].
Qed.
(** Stopping the joints is always allowed. *)
Lemma stop_lemma mbs r lq uq la ua inter secu off dt m0 ops mb d b m c0 th m' c' mcs m2 :
  newDJ mbs r lq uq la ua [] [] [] [] inter secu off dt = Ok m0 -> nth_error mbs r = Some mb ->
  perDof mb la -> perDof mb ua ->
  djRun m0 ops = Ok m -> configs r ops = [] -> lastSizes ops = Some d -> alphaDBegin d r = Ok b -> cfgOk mb c0 -> 0 <= th <= 1 ->
  (forall i jt, nth_error (joints mb) i = Some jt -> jdof jt = 1%nat /\ tunedJoint lq uq la ua inter secu off dt c0 i /\ between (at2 la i 0 NInf) 0 (at2 ua i 0 PInf)) ->
  loop mb r b dt th m c0 m' c' -> nth_error mcs r = Some c' -> djUpdate mcs m' = Ok m2 ->
  exists bd, djBound m2 = Ok bd /\
  forall x, (forall i jt, nth_error (joints mb) i = Some jt -> x (b + jointPosInDof mb i)%nat = - at2 (cfAlpha c') i 0 0 / dt) -> holdsBound x bd.
Proof.
  intros HN M PA PU HR CF HL HB C0 Hth HT HLoop HC HU.
  pose proof (start_inv _ _ _ _ _ _ _ _ _ _ _ _ _ _ _ _ _ _ _ HN M PA PU (or_introl eq_refl) (or_introl eq_refl) (or_introl eq_refl) (or_introl eq_refl) HR CF HL) as I1.
  destruct (loop_inv _ _ _ _ _ _ _ _ _ _ _ _ _ _ _ _ _ _ _ _ _ (or_introl eq_refl) (or_introl eq_refl) (or_introl eq_refl) (or_introl eq_refl) I1 HB C0 Hth HLoop) as (cs & IV & C1 & G).
  assert (IV2 : djInv mb r lq uq la ua [] [] [] [] inter secu off dt (Some d) (cs ++ [c']) m2).
  { pose proof (djStep_inv _ _ _ _ _ _ _ _ _ _ _ _ _ _ _ _ _ (LUp mcs) m2 (or_introl eq_refl) (or_introl eq_refl) (or_introl eq_refl) (or_introl eq_refl) IV HU) as K. simpl in K. rewrite HC in K. apply K. repeat constructor; apply C1. }
  pose proof (dvDt _ _ _ _ _ _ _ _ _ _ _ _ _ _ _ _ _ I1) as Hdt.
  pose proof (dvB _ _ _ _ _ _ _ _ _ _ _ _ _ _ _ _ _ IV2) as (b' & V12 & V12'). assert (b' = b) by congruence. subst b'.
  pose proof (dvLow _ _ _ _ _ _ _ _ _ _ _ _ _ _ _ _ _ IV2) as LL. pose proof (dvUp _ _ _ _ _ _ _ _ _ _ _ _ _ _ _ _ _ IV2) as LU.
  eexists. unfold djBound, zidx. rewrite V12'. replace (0 <=? Z.of_nat b)%Z with true by (symmetry; apply Z.leb_le; lia). cbn [bind]. rewrite Nat2Z.id. split; [reflexivity|].
  intros x HX. unfold holdsBound. cbn [bdL bdU bdBegin vlen vget]. rewrite LL, LU.
  assert (A : forall j, (j < nrDof mb)%nat -> between (vget (djLow m2) j) (x (b + j)%nat) (vget (djUp m2) j)).
  { apply isDof_all. intros i k (jt & HJ & K). destruct (HT i jt HJ) as (D1 & (l & u & vl & vu & V & L & U & VL & VU & TU & ST) & BZ). assert (k = 0%nat) as -> by lia. rewrite Nat.add_0_r.
    apply (dvOne _ _ _ _ _ _ _ _ _ _ _ _ _ _ _ _ _ IV2 i ltac:(exists jt; auto) cs c' eq_refl). cbv zeta. rewrite (HX i jt HJ).
    replace (at2 (cfAlpha c') i 0 0 + dt * (- at2 (cfAlpha c') i 0 0 / dt)) with 0 by (field; lra).
    assert (EMP : forall dflt : ext, at2 [] i 0 dflt = dflt) by (intros; unfold at2; destruct i; reflexivity). rewrite !EMP. unfold jerkOk, between at 2 3. split; [|simpl; auto].
    split; [auto|]. rewrite L, U. unfold damperOk.
    destruct (G i jt l u vl vu V HJ D1 L U VL VU TU ST) as (_ & G1 & G2). cbn [gap] in G1, G2.
    assert (E1 : 0 <= at2 (cfQ c') i 0 0 - l - (u - l) * secu) by (destruct G1 as [(_ & _ & G1 & _)|(_ & G1 & _)]; lra).
    assert (E2 : 0 <= u - at2 (cfQ c') i 0 0 - (u - l) * secu) by (destruct G2 as [(_ & _ & G2 & _)|(_ & G2 & _)]; lra).
    intros pre q al E.
    assert (TR : track i (cs ++ [c']) = track i cs ++ [(at2 (cfQ c') i 0 0, at2 (cfAlpha c') i 0 0)]) by (unfold track; rewrite map_app; auto).
    rewrite TR in *. apply app_inj_tail in E as (_ & E). injection E as <- <-.
    destruct TU as (Hlu & Hsi & _ & Hoff & _).
    assert (SP : forall z e d, 0 <= d - (u - l) * secu -> 0 <= damperSpeed l u inter secu (damping_ l u inter secu off z e) d).
    { intros z e0 d0 Hd. unfold damperSpeed, damping_. apply Rmult_le_pos.
      - pose proof (Rabs_pos ((((u - l) * inter - (u - l) * secu) / (gap l u z (fst e0) - (u - l) * secu)) * snd e0)); lra.
      - unfold Rdiv. apply Rmult_le_pos; [auto|]. left. apply Rinv_0_lt_compat. nra. }
    assert (EX : forall z, zoneOf l u inter (at2 (cfQ c') i 0 0) = z -> z <> Free -> exists e, enteredWith l u inter z (track i cs ++ [(at2 (cfQ c') i 0 0, at2 (cfAlpha c') i 0 0)]) e).
    { intros z Z NF. apply entered_exists; auto. }
    destruct (zoneOf l u inter (at2 (cfQ c') i 0 0)) eqn:Z; [| |auto].
    - destruct (EX Low eq_refl ltac:(discriminate)) as (e & E). exists e. split; [auto|]. specialize (SP Low e _ E1). lra.
    - destruct (EX Upp eq_refl ltac:(discriminate)) as (e & E). exists e. split; [auto|]. specialize (SP Upp e _ E2). lra. }
  intros j. split; intros Hj; apply A; auto.
Qed.
