(** GazeTask fed with image points. *)
From Verif Require Export GazeModel VisSpec.
From Verif Require Import VisFacts KinFacts KinTaskFacts VisWitness.
From Coq Require Import Lra Lia.
Open Scope string_scope.
Open Scope list_scope.
Open Scope R_scope.
Local Arguments sumn : simpl never.
Local Arguments e6 : simpl never.

Theorem gaze_history ops T0 : Forall gzSeen ops -> exists T, gzRun ops T0 = Ok T /\
  gzRef T = latest gzGiveRef (gzRef T0) ops /\ gzPoint T = latest gzGivePoint (gzPoint T0) ops /\ gzDepth T = latest gzGiveDepth (gzDepth T0) ops /\ gzX T = gzX T0 /\ gzPath T = gzPath T0.
Proof.
  revert T0. induction ops as [|o ops IH]; intros T0 F; [exists T0; repeat split|]. inversion_clear F as [|? ? Ho Fo].
  assert (S : exists T1, gzStep o T0 = Ok T1 /\ gzX T1 = gzX T0 /\ gzPath T1 = gzPath T0 /\ gzGiveRef o = Some (gzRef T1) /\ gzGivePoint o = Some (gzPoint T1) /\
     gzDepth T1 = match gzGiveDepth o with Some d => d | None => gzDepth T0 end).
  { destruct o as [p r|p r]; cbn [gzStep].
    - eexists. split; [reflexivity|]. repeat split.
    - unfold gzError3, project, guard. cbn [gzSeen] in Ho. assert (Z : Reqb (vz p) 0 = false) by (unfold Reqb; destruct (Req_EM_T (vz p) 0); [contradiction|reflexivity]). rewrite Z. cbn [negb bind]. eexists. split; [reflexivity|]. repeat split. }
  destruct S as (T1 & E & EX & EP & ER & EQ & ED). destruct (IH T1 Fo) as (T & ET & R & P & D & X & Q). exists T. cbn [gzRun]. rewrite E. cbn [bind].
  split; [exact ET|]. unfold latest in *. cbn [fold_left]. rewrite ER, EQ, R, P, D, X, Q, ED, EX, EP. repeat split.
Qed.
Lemma gaze_undefined ops T0 : ~ Forall gzSeen ops -> gzRun ops T0 = UB.
Proof.
  revert T0. induction ops as [|o ops IH]; intros T0 N; [exfalso; apply N; constructor|]. cbn [gzRun]. destruct o as [p r|p r]; cbn [gzStep].
  - apply IH. intros F. apply N. constructor; [exact I|exact F].
  - unfold gzError3, project, guard, Reqb. destruct (Req_EM_T (vz p) 0) as [e|n]; [reflexivity|]. cbn [negb bind]. apply IH. intros F. apply N. constructor; assumption.
Qed.
Lemma interaction_two p z d V m : z <> 0 -> d <> 0 -> (m < 2)%nat ->
  sumn 6 (fun k => interaction p z m k * e6 V k) - sumn 6 (fun k => interaction p d m k * e6 V k) = (/ d - / z) * (e6 V (3 + m) - ax p m * e6 V 5).
Proof.
  intros Z D Hm. rewrite !sum6. destruct p as [x y]. destruct m as [|[|]]; [| |lia]; unfold interaction, ax; cbn [fst snd Nat.add]; field; auto.
Qed.
(** The image of a point of the world moves at the speed that its true depth gives. *)
Lemma image_rate F mb path p T K al ald t jm : usesInteraction F -> wfPath mb path -> gzPath T = path -> rigid (gzX T) -> sized 2 mb jm -> movesAt mb path K al ald t ->
  (forall s, vz (inCamera (gzX T) (K s) p) <> 0) -> forall m, (m < 2)%nat ->
  dlim (fun s => e3 (inCamera (gzX T) (K s) p) m / vz (inCamera (gzX T) (K s) p)) t
    (sumn 6 (fun k => interaction (vx (inCamera (gzX T) (K t) p) / vz (inCamera (gzX T) (K t) p), vy (inCamera (gzX T) (K t) p) / vz (inCamera (gzX T) (K t) p)) (vz (inCamera (gzX T) (K t) p)) m k * e6 (rbdVel (gzX T) (K t)) k)).
Proof.
  intros UF W EP RX Sz M NZ m Hm. rewrite image_speed by (try exact (NZ t); lia).
  destruct (inCamera_rate _ _ _ _ _ _ (gzX T) p M RX) as (D0 & D1 & D2).
  destruct m as [|[|]]; [| |lia]; cbn [e3]; [apply dl_mult with (f := fun s => vx (inCamera (gzX T) (K s) p)) (g := fun s => / vz (inCamera (gzX T) (K s) p))|apply dl_mult with (f := fun s => vy (inCamera (gzX T) (K s) p)) (g := fun s => / vz (inCamera (gzX T) (K s) p))];
    try assumption; apply dl_inv; try assumption; exact (NZ t).
Qed.
(** After any history, when the task is given the image of a point of the world at every cycle: the error and its rate. *)
Theorem gaze_image F mb path T0 ops p ref K al ald t jm : usesInteraction F -> wfPath mb path -> gzPath T0 = path -> rigid (gzX T0) -> sized 2 mb jm -> movesAt mb path K al ald t ->
  Forall gzSeen ops -> (forall s, vz (inCamera (gzX T0) (K s) p) <> 0) -> let d := latest gzGiveDepth (gzDepth T0) ops in d <> 0 ->
  exists T H, gzRun ops T0 = Ok T /\ yields 2 mb (fun s => gzTrack2 F mb (inCamera (gzX T0) (K s) p) ref T (K s) (jm s)) H /\ speedIsJac 2 H al t /\
    (forall s m, (m < 2)%nat -> vget (hErr (H s)) m = ax ref m - e3 (inCamera (gzX T0) (K s) p) m / vz (inCamera (gzX T0) (K s) p)) /\
    (forall m, (m < 2)%nat -> dlim (fun s => vget (hErr (H s)) m) t (- vget (hSpeed (H t)) m + (/ vz (inCamera (gzX T0) (K t) p) - / d) *
       (e6 (rbdVel (gzX T0) (K t)) (3 + m) - e3 (inCamera (gzX T0) (K t) p) m / vz (inCamera (gzX T0) (K t) p) * e6 (rbdVel (gzX T0) (K t)) 5))) /\
    (errorRate 0 2 H t <-> d = vz (inCamera (gzX T0) (K t) p) \/
       (forall m, (m < 2)%nat -> e6 (rbdVel (gzX T0) (K t)) (3 + m) = e3 (inCamera (gzX T0) (K t) p) m / vz (inCamera (gzX T0) (K t) p) * e6 (rbdVel (gzX T0) (K t)) 5)).
Proof.
  intros UF W EP0 RX0 Sz M FS NZ0 d Nd. destruct (gaze_history ops T0 FS) as (T & ET & _ & _ & Dp & EX & EP). rewrite EP0 in EP. fold d in Dp. rewrite <- EX in RX0, NZ0 |- *. rename RX0 into RX, NZ0 into NZ. clearbody d. clear EP0 EX FS.
  exists T. set (X := gzX T) in *. set (q := fun s => inCamera X (K s) p). set (P := fun s => (vx (q s) / vz (q s), vy (q s) / vz (q s))). destruct UF as (FJ & FD).
  set (sp := fun s m => sumn 6 (fun k => interaction (P s) d m k * e6 (rbdVel X (K s)) k)).
  set (dd := fun s => sumn 6 (fun k => imgDepthDot F (sp s 0%nat, sp s 1%nat) d k * e6 (rbdVel X (K s)) k)).
  set (na := fun s m => sumn 6 (fun k => imgJac F (P s) d m k * e6 (rbdNAcc X sp0 (K s)) k)
                        + sumn 6 (fun k => imgJacDot F (P s) (sp s 0%nat, sp s 1%nat) d (dd s) m k * e6 (rbdVel X (K s)) k)).
  destruct (frame_gen 2 mb path (fun s m k => imgJac F (P s) d m k) X K al ald t jm
    (fun s => vec2 (fst ref - fst (P s), snd ref - snd (P s))) (fun s => vec2 (sp s 0%nat, sp s 1%nat)) (fun s => vec2 (na s 0%nat, na s 1%nat))
    (fun s => gzTrack2 F mb (q s) ref T (K s) (jm s)) W Sz M) as (H & Y & HV & HJ & _).
  - intros s. repeat split.
  - intros s i Hi. unfold vec2; cbn [vget]. destruct i as [|[|]]; [| |lia]; cbn [ax fst snd]; unfold sp; apply sumn_ext; intros k Hk; rewrite FJ by lia; reflexivity.
  - intros s. unfold gzTrack2, gzUpdate, gzError2; cbn [gzPoint gzRef gzDepth gzX gzPath bind fst snd]. rewrite EP, Dp. fold X.
    change (vx (q s) / vz (q s), vy (q s) / vz (q s)) with (P s). change (vx (q s) / vz (q s)) with (fst (P s)). change (vy (q s) / vz (q s)) with (snd (P s)).
    assert (S0 : forall m, (m < 2)%nat -> sumn 6 (fun k => imgJac F (P s) d m k * e6 (rbdVel X (K s)) k) = sp s m) by (intros m Hm; apply sumn_ext; intros k Hk; rewrite FJ by lia; reflexivity).
    rewrite !S0 by lia. reflexivity.
  - exists H. split; [exact ET|]. split; [exact Y|]. split; [exact HJ|].
    assert (HE : forall s m, (m < 2)%nat -> vget (hErr (H s)) m = ax ref m - e3 (q s) m / vz (q s)) by (intros s m Hm; destruct (HV s) as (-> & _); destruct m as [|[|]]; [| |lia]; reflexivity).
    assert (HR : forall m, (m < 2)%nat -> dlim (fun s => vget (hErr (H s)) m) t (- vget (hSpeed (H t)) m + (/ vz (q t) - / d) * (e6 (rbdVel X (K t)) (3 + m) - e3 (q t) m / vz (q t) * e6 (rbdVel X (K t)) 5))).
    { intros m Hm. apply (dl_ext (fun s => ax ref m - e3 (q s) m / vz (q s))); [intros s; symmetry; apply HE, Hm|].
      eapply dl_eq; [apply dl_minus; [apply dl_const|apply (image_rate F mb path p T K al ald t jm (conj FJ FD) W EP RX Sz M NZ m Hm)]|].
      fold X. change (inCamera X (K t) p) with (q t). change (vx (q t) / vz (q t), vy (q t) / vz (q t)) with (P t).
      pose proof (interaction_two (P t) (vz (q t)) d (rbdVel X (K t)) m (NZ t) Nd Hm) as I2. destruct (HV t) as (_ & -> & _).
      replace (vget (vec2 (sp t 0%nat, sp t 1%nat)) m) with (sp t m) by (destruct m as [|[|]]; [| |lia]; reflexivity). unfold sp at 1.
      replace (e3 (q t) m / vz (q t)) with (ax (P t) m) by (destruct m as [|[|]]; [| |lia]; reflexivity). unfold sp. lra. }
    split; [exact HE|]. split; [exact HR|]. split.
    + intros ER. destruct (Req_dec d (vz (q t))) as [e|n]; [left; exact e|right]. intros m Hm. pose proof (dl_unique _ _ _ _ (HR m Hm) (ER m ltac:(lia))) as U.
      assert (Z : (/ vz (q t) - / d) * (e6 (rbdVel X (K t)) (3 + m) - e3 (q t) m / vz (q t) * e6 (rbdVel X (K t)) 5) = 0) by lra.
      apply Rmult_integral in Z as [Z|Z]; [|change (inCamera X (K t) p) with (q t); lra]. exfalso. apply n. rewrite <- (Rinv_inv d), <- (Rinv_inv (vz (q t))). f_equal. lra.
    + intros C m (_ & Hm). eapply dl_eq; [apply (HR m Hm)|]. destruct C as [C|C]; [rewrite C; change (inCamera X (K t) p) with (q t); ring|]. change (inCamera X (K t) p) with (q t) in C. rewrite (C m Hm). ring.
Qed.
