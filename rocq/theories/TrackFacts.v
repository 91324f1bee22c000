(** OrientationTrackingTask. *)
From Verif Require Import TrackModel TrackSpec KinFacts KinTaskFacts JacProofs DamperProofs LayoutProofs ContactProofs.
From Coq Require Import Lra Lia Ratan Classical_Prop.
Open Scope list_scope.
Open Scope R_scope.
Local Arguments sumn : simpl never.

(** *** Histories *)
Definition otGiveT (o : otOp) : option V3 := match o with OtTracked p => Some p | _ => None end.
Definition otGiveP (o : otOp) : option V3 := match o with OtPoint p => Some p | _ => None end.
Definition otGiveA (o : otOp) : option V3 := match o with OtAxis p => Some p | _ => None end.
Lemma ot_history ops bp ba z tp path : fold_left otStep ops (mkOT (pt_trans bp) ba z tp path) =
  mkOT (pt_trans (latest otGiveP bp ops)) (latest otGiveA ba ops) z (latest otGiveT tp ops) path.
Proof.
  unfold latest. revert bp ba tp. induction ops as [|o ops IH]; intros bp ba tp; simpl; [reflexivity|]. destruct o; simpl; apply IH.
Qed.

(** *** The columns *)
Lemma otJoints_Ok mb names tr : otJoints mb names = Ok tr -> Forall2 (fun nm i => jointIndexByName mb nm = Ok i) names tr.
Proof.
  revert tr. induction names as [|nm l IH]; intros tr E; simpl in E; [injection E as <-; constructor|].
  destruct (jointIndexByName mb nm) as [i| |] eqn:Ei; try discriminate. simpl in E. destruct (otJoints mb l) as [r| |]; try discriminate. injection E as <-. constructor; auto.
Qed.
Lemma otJoints_lt mb names tr i : otJoints mb names = Ok tr -> In i tr -> (i < length (joints mb))%nat.
Proof.
  intros E H. apply otJoints_Ok in E. induction E as [|nm k names tr E _ IH]; [contradiction|]. destruct H as [<-|H]; [|auto].
  unfold jointIndexByName in E. destruct (indexByName_sound _ _ _ E) as (j & Q & _). apply nth_error_Some. rewrite Q. discriminate.
Qed.
Lemma ofJoint_own mb tr i k : (i < length (joints mb))%nat -> (k < jointDof mb i)%nat -> (forall m, In m tr -> (m < length (joints mb))%nat) ->
  existsb (fun m => ofJoint mb m (jointPosInDof mb i + k)) tr = existsb (Nat.eqb i) tr.
Proof.
  intros Hi Hk Ht. apply eq_true_iff_eq. rewrite !existsb_exists. split; intros (m & Hm & Q); exists m; split; auto.
  - unfold ofJoint in Q. apply andb_true_iff in Q as (Q1 & Q2). apply Nat.leb_le in Q1. apply Nat.ltb_lt in Q2. apply Nat.eqb_eq.
    specialize (Ht m Hm). destruct (Nat.lt_trichotomy i m) as [L|[L|L]]; [|exact L|].
    + pose proof (posInDof_next mb i m L ltac:(lia)). lia.
    + pose proof (posInDof_next mb m i L ltac:(lia)). lia.
  - apply Nat.eqb_eq in Q as <-. unfold ofJoint. apply andb_true_iff. rewrite Nat.leb_le, Nat.ltb_lt. lia.
Qed.
Lemma otZero_spec mb tr path pos z : (forall m, In m tr -> (m < length (joints mb))%nat) -> (forall i, In i path -> (i < length (joints mb))%nat) -> otZeroLoop mb tr path pos = Ok z ->
  forall c, (pos <= c < pos + pathDof mb path)%nat -> existsb (Nat.eqb c) z = negb (existsb (fun m => ofJoint mb m (nth (c - pos) (pathCols mb path) 0%nat)) tr).
Proof.
  intros Ht. revert pos z. induction path as [|i p IH]; intros pos z Hp E c Hc; [unfold pathDof in Hc; simpl in Hc; lia|].
  simpl in E. destruct (vec_at (joints mb) i) as [j| |] eqn:Ej; try discriminate. simpl in E.
  destruct (otZeroLoop mb tr p (pos + jdof j)) as [r| |] eqn:Er; try discriminate. injection E as <-.
  assert (Dj : jointDof mb i = jdof j). { unfold jointDof. apply vec_at_Ok in Ej. rewrite Ej. reflexivity. }
  assert (Rge : forall c, In c r -> (pos + jdof j <= c)%nat).
  { clear -Er. revert Er. generalize (pos + jdof j)%nat as q. revert r. induction p as [|a p IH]; intros r q E c Hc; simpl in E; [injection E as <-; contradiction|].
    destruct (vec_at (joints mb) a) as [b| |]; try discriminate. simpl in E. destruct (otZeroLoop mb tr p (q + jdof b)) as [r'| |] eqn:E'; try discriminate. injection E as <-.
    apply in_app_iff in Hc as [Hc|Hc]; [destruct (existsb (Nat.eqb a) tr); [contradiction|]; apply in_seq in Hc; lia|]. specialize (IH _ _ E' _ Hc). lia. }
  rewrite existsb_app. unfold pathDof in Hc. simpl in Hc. fold (pathDof mb p) in Hc. rewrite Dj in Hc. simpl pathCols. unfold pathCols; simpl; fold (pathCols mb p). rewrite Dj.
  destruct (Nat.lt_ge_cases c (pos + jdof j)) as [L|L].
  - assert (Q : existsb (Nat.eqb c) r = false). { apply not_true_iff_false. intros Q. apply existsb_exists in Q as (d & D1 & D2). apply Nat.eqb_eq in D2 as <-. specialize (Rge c D1). lia. }
    rewrite Q, orb_false_r. rewrite app_nth1 by (rewrite seq_length; lia). rewrite seq_nth by lia.
    rewrite ofJoint_own; [|apply Hp; left; reflexivity|rewrite Dj; lia|exact Ht].
    destruct (existsb (Nat.eqb i) tr); [reflexivity|]. simpl. apply existsb_exists. exists c. split; [apply in_seq; lia|apply Nat.eqb_refl].
  - assert (Q : existsb (Nat.eqb c) (if existsb (Nat.eqb i) tr then [] else seq pos (jdof j)) = false).
    { apply not_true_iff_false. intros Q. apply existsb_exists in Q as (d & D1 & D2). apply Nat.eqb_eq in D2 as <-. destruct (existsb (Nat.eqb i) tr); [contradiction|]. apply in_seq in D1. lia. }
    rewrite Q. cbn [orb]. rewrite app_nth2 by (rewrite seq_length; lia). rewrite seq_length.
    rewrite (IH (pos + jdof j)%nat r); [|intros; apply Hp; right; assumption|exact Er|lia]. do 2 f_equal. apply map_ext || idtac. replace (c - pos - jdof j)%nat with (c - (pos + jdof j))%nat by lia. reflexivity.
Qed.
Lemma otZero_def mb tr path pos : (forall i, In i path -> (i < length (joints mb))%nat) -> exists z, otZeroLoop mb tr path pos = Ok z.
Proof.
  revert pos. induction path as [|i p IH]; intros pos H; simpl; [eauto|]. destruct (nth_error (joints mb) i) as [j|] eqn:E; [|exfalso; apply nth_error_None in E; specialize (H i (or_introl eq_refl)); lia].
  unfold vec_at. rewrite E. simpl. destruct (IH (pos + jdof j)%nat) as (z & ->); [intros; apply H; right; assumption|]. simpl. eauto.
Qed.
Lemma otInit_def mb path bp ba names tp : wfPath mb path -> (forall nm, In nm names -> In nm (map jname (joints mb))) -> exists T, otInit mb path bp ba names tp = Ok T.
Proof.
  intros (_ & W) H. unfold otInit.
  assert (E : exists tr, otJoints mb names = Ok tr).
  { induction names as [|nm l IH]; simpl; [eauto|]. destruct (indexByName_def (joints mb) nm (H nm (or_introl eq_refl))) as (i & Ei). unfold jointIndexByName. rewrite Ei. simpl.
    destruct IH as (tr & ->); [intros; apply H; right; assumption|]. simpl. eauto. }
  destruct E as (tr & ->). simpl. destruct (otZero_def mb tr path 0 W) as (z & ->). simpl. eauto.
Qed.

(** *** The Jacobian and the speed *)
Theorem track_speed rv ftv mb path bp ba names tp T0 ops K al t jd jm : otInit mb path bp ba names tp = Ok T0 -> wfPath mb path -> sized 3 mb jm ->
  exists H tr, Forall2 (fun nm i => jointIndexByName mb nm = Ok i) names tr /\
    yields 3 mb (fun s => otUpdate rv ftv mb (fold_left otStep ops T0) (K s) (al s) jd (jm s)) H /\ speedIsJac 3 H al t /\
    (forall s i, (i < 3)%nat -> vget (hErr (H s)) i = e3 (otEval rv ftv (fold_left otStep ops T0) (K s)) i) /\
    (forall s i, (i < 3)%nat -> vget (hNAcc (H s)) i = sumn (mcols jd) (fun j => mget jd i j * al s j)) /\
    (forall s i x, (i < 3)%nat -> sumn (mcols (hJac (H s))) (fun j => mget (hJac (H s)) i j * x j) =
        jacDot mb path (fun c => e3 (ang (rbdColW v0 (K s) c)) i) (onlyJoints mb tr x)).
Proof.
  intros E W Sz. unfold otInit in E. destruct (otJoints mb names) as [tr| |] eqn:Et; try discriminate. simpl in E.
  destruct (otZeroLoop mb tr path 0) as [z| |] eqn:Ez; try discriminate. injection E as <-. rewrite ot_history. set (T := mkOT _ _ _ _ _).
  assert (Ht : forall m, In m tr -> (m < length (joints mb))%nat) by (intros m; apply (otJoints_lt mb names); exact Et).
  assert (A : forall s, exists J, fullJacobian mb path (short3 (pathDof mb path) (fun c => if existsb (Nat.eqb c) z then v0 else ang (rbdColW v0 (K s) c))) (jm s) = Ok J /\
    mrows J = 3%nat /\ mcols J = nrDof mb /\ forall i x, (i < 3)%nat -> sumn (nrDof mb) (fun j => mget J i j * x j) = jacDot mb path (fun c => e3 (ang (rbdColW v0 (K s) c)) i) (onlyJoints mb tr x)).
  { intros s. destruct (Sz s) as (S1 & S2).
    destruct (fullJacobian_spec mb path (short3 (pathDof mb path) (fun c => if existsb (Nat.eqb c) z then v0 else ang (rbdColW v0 (K s) c))) (jm s)) as (J & EJ & R & C & _ & D); simpl; try lia; auto.
    exists J. split; [exact EJ|]. split; [lia|]. split; [lia|]. intros i x Hi. rewrite D by exact Hi. unfold jacDot. apply sumn_ext. intros c Hc. cbn [mget short3].
    rewrite (otZero_spec mb tr path 0 z Ht (proj2 W) Ez c) by lia. rewrite Nat.sub_0_r. unfold onlyJoints.
    destruct (existsb (fun i0 => ofJoint mb i0 (nth c (pathCols mb path) 0%nat)) tr); cbn [negb]; [reflexivity|].
    replace (e3 v0 i) with 0 by (destruct i as [|[|]]; reflexivity). ring. }
  set (H := fun s => match otUpdate rv ftv mb T (K s) (al s) jd (jm s) with Ok h => h | _ => mkHL (mzero 0 0) (vfill 0 0) (vfill 0 0) (vfill 0 0) end).
  exists H, tr. split; [apply otJoints_Ok; exact Et|].
  assert (HU : forall s, exists J, otUpdate rv ftv mb T (K s) (al s) jd (jm s) = Ok (H s) /\ H s = mkHL J (vec3 (otEval rv ftv T (K s))) (mkVec 3 (fun i => sumn (mcols J) (fun j => mget J i j * al s j)))
     (mkVec 3 (fun i => sumn (mcols jd) (fun j => mget jd i j * al s j))) /\ mrows J = 3%nat /\ mcols J = nrDof mb /\
     forall i x, (i < 3)%nat -> sumn (nrDof mb) (fun j => mget J i j * x j) = jacDot mb path (fun c => e3 (ang (rbdColW v0 (K s) c)) i) (onlyJoints mb tr x)).
  { intros s. destruct (A s) as (J & EJ & R & C & D). exists J. unfold H, otUpdate; cbn [otPath otZero T]. rewrite EJ. cbn [bind]. auto 10. }
  split; [|split; [|split; [|split]]].
  - intros s. destruct (HU s) as (J & E1 & E2 & R & C & D). split; [exact E1|]. rewrite E2. unfold hlSizes; cbn. auto.
  - intros i Hi. destruct (HU t) as (J & _ & E2 & _). rewrite E2. reflexivity.
  - intros s i Hi. destruct (HU s) as (J & _ & E2 & _). rewrite E2. reflexivity.
  - intros s i Hi. destruct (HU s) as (J & _ & E2 & _). rewrite E2. reflexivity.
  - intros s i x Hi. destruct (HU s) as (J & _ & E2 & _ & C & D). rewrite E2. cbn [hJac]. rewrite C. apply D. exact Hi.
Qed.

(** *** The error *)
Lemma unit_norm v : v <> v0 -> norm (unitOf v) = 1.
Proof.
  intros H. unfold unitOf. rewrite norm_vsc. assert (P : 0 < norm2 v) by (destruct (norm2_nonneg v) as [P|P]; [exact P|exfalso; apply H, norm2_zero; auto]).
  assert (Q : 0 < norm v) by (apply sqrt_lt_R0; exact P). rewrite Rabs_right by (left; apply Rinv_0_lt_compat; exact Q). field. lra.
Qed.
Lemma vnormalize_unit v : v <> v0 -> vnormalize v = unitOf v.
Proof.
  intros H. unfold vnormalize. assert (P : 0 < norm2 v) by (destruct (norm2_nonneg v) as [P|P]; [exact P|exfalso; apply H, norm2_zero; auto]).
  rewrite (proj2 (Rltb_true _ _) P). reflexivity.
Qed.
Lemma rot_nz E v : rotation E -> v <> v0 -> m3mulv (m3tr E) v <> v0.
Proof.
  intros R H Q. apply H. rewrite <- (rotation_mulT E v R). rewrite Q. v3c.
Qed.
Lemma axis0 a : rotAxis a 0 = m3id.
Proof. unfold rotAxis, m3id. rewrite cos_0, sin_0. f_equal; f_equal; ring. Qed.
(** Unit vectors that are not parallel: rotation of one onto the other. *)
Lemma lagrange a b : norm2 (cross a b) = norm2 a * norm2 b - dot a b * dot a b.
Proof. unfold norm2, cross, dot; simpl. ring. Qed.
Lemma turn_axis a b : norm a = 1 -> norm b = 1 -> -1 < dot a b < 1 -> let x := acos (dot a b) in let u := vsc (/ sin x) (cross a b) in
  0 < x < PI /\ 0 < sin x /\ norm u = 1 /\ dot u a = 0 /\ b = m3mulv (m3tr (rotAxis u x)) a /\ norm2 (cross a b) = sin x * sin x.
Proof.
  intros A B D x u. pose proof (unit2 a A) as A2. pose proof (unit2 b B) as B2.
  assert (X : 0 < x < PI).
  { unfold x. pose proof (acos_bound (dot a b)) as (L & U). destruct L as [L|L], U as [U|U]; try lra; exfalso.
    - apply (f_equal cos) in U. rewrite cos_acos, cos_PI in U; lra.
    - apply (f_equal cos) in L. rewrite cos_acos, cos_0 in L; lra.
    - apply (f_equal cos) in L. rewrite cos_acos, cos_0 in L; lra. }
  assert (S : 0 < sin x) by (apply sin_gt_0; lra).
  assert (C : cos x = dot a b) by (apply cos_acos; lra).
  assert (N : norm2 (cross a b) = sin x * sin x).
  { rewrite lagrange. pose proof (sin2_cos2 x) as Q. unfold Rsqr in Q. unfold norm2, dot in *. rewrite A2, B2, <- C. lra. }
  split; [exact X|]. split; [exact S|].
  assert (U : norm u = 1).
  { unfold u. rewrite norm_vsc. unfold norm. rewrite N, sqrt_square by lra. rewrite Rabs_right by (left; apply Rinv_0_lt_compat; exact S). field. lra. }
  assert (UA : dot u a = 0). { unfold u. rewrite dot_vsc_l, dot_comm, dot_cross_l. ring. }
  split; [exact U|]. split; [exact UA|]. split; [|exact N].
  rewrite axis_tr, axis_mulv, cos_neg, sin_neg, UA, C, Ropp_involutive. unfold u.
  replace (vsc (sin x) (cross (vsc (/ sin x) (cross a b)) a)) with (cross (cross a b) a).
  2: { clearbody x. clear -S. destruct a, b; unfold vsc, cross; simpl. f_equal; field; lra. }
  clear -A2. destruct a as [a1 a2 a3], b as [b1 b2 b3]; unfold vadd, vsc, cross, dot in *; simpl in *.
  assert (Q : a1 * a1 = 1 - a2 * a2 - a3 * a3) by lra. f_equal; ring [Q].
Qed.

Lemma eval_exact rv ftv ba bp tp z path k : isLog rv -> isTurn ftv -> rigid (bkPos k) -> ba <> v0 -> tp <> vadd (ptr (bkPos k)) (m3mulv (m3tr (ptE (bkPos k))) bp) ->
  let a := axisDir ba k in let b := targetDir bp tp k in let e := otEval rv ftv (mkOT (pt_trans bp) ba z tp path) k in
  (-1 < dot a b < 1 -> e = vsc (acos (dot a b) / sin (acos (dot a b))) (m3mulv (m3tr (ptE (bkPos k))) (cross a b))) /\ (a = b -> e = v0).
Proof.
  intros L F R NA NT a b e.
  assert (NB : vsub tp (vadd (ptr (bkPos k)) (m3mulv (m3tr (ptE (bkPos k))) bp)) <> v0).
  { intros Q. apply NT. revert Q. generalize (vadd (ptr (bkPos k)) (m3mulv (m3tr (ptE (bkPos k))) bp)). intros q Q. injection Q as Q1 Q2 Q3. destruct tp, q; simpl in *. f_equal; lra. }
  assert (UA : norm a = 1) by (apply unit_norm, rot_nz; [exact R|exact NA]).
  assert (UB : norm b = 1) by (apply unit_norm; exact NB).
  assert (E : e = m3mulv (m3tr (ptE (bkPos k))) (rv (m3tr (ftv a b)))).
  { unfold e, otEval; cbn [otPoint otAxis otTracked].
    replace (ptr (pt_mul (pt_trans bp) (bkPos k))) with (vadd (ptr (bkPos k)) (m3mulv (m3tr (ptE (bkPos k))) bp)) by reflexivity.
    rewrite (vnormalize_unit _ NB), (vnormalize_unit _ (rot_nz _ _ R NA)). fold (axisDir ba k) (targetDir bp tp k). fold a b.
    unfold rotError. do 2 f_equal. apply m3_ext_v. intros v. rewrite !m3mul_mulv. rewrite rotation_mulT by exact R. reflexivity. }
  split; intros D.
  - destruct (turn_axis a b UA UB D) as (X & S & U & PU & Q & _). set (x := acos (dot a b)) in *. set (u := vsc (/ sin x) (cross a b)) in *.
    rewrite E. rewrite Q at 1. rewrite (proj1 F u a x U UA PU X). rewrite axis_tr, axis_tr, Ropp_involutive. rewrite (L u x U) by (rewrite Rabs_right; lra).
    unfold u. clear. generalize (ptE (bkPos k)) (cross a b). intros M c. unfold m3mulv, vsc, m3tr, dot; simpl. f_equal; unfold Rdiv; ring.
  - rewrite E, <- D, (proj2 F a UA). replace (m3tr m3id) with (rotAxis (mkV3 1 0 0) 0) by (rewrite axis0; reflexivity).
    rewrite L; [v3c| |rewrite Rabs_R0; apply PI_RGT_0]. unfold norm, norm2, dot; simpl. replace (1 * 1 + 0 * 0 + 0 * 0) with 1 by ring. apply sqrt_1.
Qed.

(** The direction of the axis along a motion. *)
Lemma axisDir_rate mb path K al ald t ba : movesAt mb path K al ald t -> dV (fun s => axisDir ba (K s)) t (cross (turnRate (K t)) (axisDir ba (K t))).
Proof.
  intros M. pose proof M as [RG _ RT _ _].
  assert (N : forall s, norm (m3mulv (m3tr (ptE (bkPos (K s)))) ba) = norm ba).
  { intros s. unfold norm. f_equal. unfold norm2. rewrite dot_m3mulv, m3tr_invol, rotation_mulT by (apply RG). reflexivity. }
  apply dV_ext with (f := fun s => vsc (/ norm ba) (m3mulv (m3tr (ptE (bkPos (K s)))) ba)).
  { intros s. unfold axisDir, unitOf. rewrite N. reflexivity. }
  eapply dV_eq; [apply dV_sc; [apply dl_const|apply dV_mulv; [apply dM_tr, RT|apply dV_const]]|]. cbv beta. unfold axisDir, unitOf, turnRate. rewrite N.
  assert (Q : m3mulv (m3tr (m3neg (m3mul (skewm (ang (bkVelB (K t)))) (ptE (bkPos (K t)))))) ba =
     cross (m3mulv (m3tr (ptE (bkPos (K t)))) (ang (bkVelB (K t)))) (m3mulv (m3tr (ptE (bkPos (K t)))) ba)).
  { rewrite rotation_cross by (apply rotation_tr, RG). rewrite <- skewm_mulv. v3c. }
  rewrite Q. generalize (m3mulv (m3tr (ptE (bkPos (K t)))) (ang (bkVelB (K t)))) (m3mulv (m3tr (ptE (bkPos (K t)))) ba). intros c d.
  unfold vadd, vsc, cross, m3mulv, v0, dot; simpl. f_equal; ring.
Qed.
Lemma cosine_rate mb path K al ald t ba bp tp : movesAt mb path K al ald t -> (forall s, targetDir bp tp (K s) = targetDir bp tp (K t)) ->
  dlim (fun s => dot (axisDir ba (K s)) (targetDir bp tp (K s))) t (dot (turnRate (K t)) (cross (axisDir ba (K t)) (targetDir bp tp (K t)))).
Proof.
  intros M C. apply dl_ext with (f := fun s => dot (axisDir ba (K s)) (targetDir bp tp (K t))). { intros s. rewrite (C s). reflexivity. }
  eapply dl_eq; [apply dl_dot; [apply (axisDir_rate _ _ _ _ _ _ _ M)|apply dV_const]|]. unfold dot, cross, v0; simpl. ring.
Qed.
Lemma init_form mb path bp ba names tp T0 ops : otInit mb path bp ba names tp = Ok T0 -> exists z,
  fold_left otStep ops T0 = mkOT (pt_trans (latest otGiveP bp ops)) (latest otGiveA ba ops) z (latest otGiveT tp ops) path.
Proof.
  unfold otInit. destruct (otJoints mb names) as [tr| |]; try discriminate. simpl. destruct (otZeroLoop mb tr path 0) as [z| |]; try discriminate. simpl. intros E. injection E as <-.
  exists z. apply ot_history.
Qed.
Theorem track_error rv ftv mb path bp0 ba0 names tp0 T0 ops K al ald t : isLog rv -> isTurn ftv -> otInit mb path bp0 ba0 names tp0 = Ok T0 ->
  let bp := latest otGiveP bp0 ops in let ba := latest otGiveA ba0 ops in let tp := latest otGiveT tp0 ops in
  let e := otEval rv ftv (fold_left otStep ops T0) (K t) in let a := axisDir ba (K t) in let b := targetDir bp tp (K t) in let E := ptE (bkPos (K t)) in let x := acos (dot a b) in
  movesAt mb path K al ald t -> ba <> v0 -> tp <> vadd (ptr (bkPos (K t))) (m3mulv (m3tr E) bp) ->
  (a = b -> e = v0) /\
  (-1 < dot a b < 1 -> e = vsc (x / sin x) (m3mulv (m3tr E) (cross a b)) /\
    (turnRate (K t) = e -> (forall s, targetDir bp tp (K s) = b) ->
       dlim (fun s => dot (axisDir ba (K s)) (targetDir bp tp (K s))) t (x / sin x * dot (cross a b) (m3mulv E (cross a b))) /\
       (m3mulv E (cross a b) = cross a b -> 0 < x / sin x * dot (cross a b) (m3mulv E (cross a b))))).
Proof.
  intros L F I bp ba tp e a b E x M NA NT. destruct (init_form mb path bp0 ba0 names tp0 T0 ops I) as (z & HT).
  assert (He : e = otEval rv ftv (mkOT (pt_trans bp) ba z tp path) (K t)) by (unfold e; rewrite HT; reflexivity).
  destruct (eval_exact rv ftv ba bp tp z path (K t) L F (mvRigid _ _ _ _ _ _ M t) NA NT) as (E1 & E2). rewrite <- He in E1, E2. fold a b x E in E1, E2.
  split; [exact E2|]. intros D. specialize (E1 D). split; [exact E1|]. intros TR TC. split.
  - eapply dl_eq; [exact (cosine_rate mb path K al ald t ba bp tp M TC)|]. rewrite TR, E1. fold a b. rewrite dot_vsc_l, dot_m3mulv, m3tr_invol. reflexivity.
  - intros ->. assert (NB : norm b = 1).
    { apply unit_norm. intros Q. apply NT. revert Q. fold E. generalize (vadd (ptr (bkPos (K t))) (m3mulv (m3tr E) bp)). intros q Q. injection Q as Q1 Q2 Q3. destruct tp, q; simpl in *. f_equal; lra. }
    destruct (turn_axis a b) as (X & S & _ & _ & _ & N); [apply unit_norm, rot_nz; [exact (mvRigid _ _ _ _ _ _ M t)|exact NA]|exact NB|exact D|].
    fold x in X, S, N. change (dot (cross a b) (cross a b)) with (norm2 (cross a b)). rewrite N. unfold Rdiv. apply Rmult_lt_0_compat; [apply Rmult_lt_0_compat; [lra|apply Rinv_0_lt_compat; exact S]|apply Rmult_lt_0_compat; exact S].
Qed.

(** *** Against the velocity of the body *)
Theorem track_velocity rv ftv mb path bp ba names tp T0 ops K al ald t jd jm : otInit mb path bp ba names tp = Ok T0 -> wfPath mb path -> sized 3 mb jm -> movesAt mb path K al ald t ->
  exists H tr, Forall2 (fun nm i => jointIndexByName mb nm = Ok i) names tr /\
    yields 3 mb (fun s => otUpdate rv ftv mb (fold_left otStep ops T0) (K s) (al s) jd (jm s)) H /\ speedIsJac 3 H al t /\
    (forall i, (i < 3)%nat -> vget (hErr (H t)) i = e3 (otEval rv ftv (fold_left otStep ops T0) (K t)) i) /\
    (forall i x, (i < 3)%nat -> sumn (mcols (hJac (H t))) (fun j => mget (hJac (H t)) i j * x j) =
        jacDot mb path (fun c => e3 (ang (rbdColW v0 (K t) c)) i) (onlyJoints mb tr x)) /\
    ((forall j, In j (pathCols mb path) -> (forall m, In m tr -> ofJoint mb m j = false) -> al t j = 0) -> forall i, (i < 3)%nat -> vget (hSpeed (H t)) i = e3 (turnRate (K t)) i).
Proof.
  intros I W Sz M. destruct (track_speed rv ftv mb path bp ba names tp T0 ops K al t jd jm I W Sz) as (H & tr & Ht & Y & SJ & HE & _ & HJ).
  exists H, tr. split; [exact Ht|]. split; [exact Y|]. split; [exact SJ|]. split; [exact (fun i Hi => HE t i Hi)|]. split; [exact (fun i x Hi => HJ t i x Hi)|].
  intros Z i Hi. rewrite <- (SJ i Hi), (HJ t i (al t) Hi).
  transitivity (jacDot mb path (fun c => e3 (ang (rbdColW v0 (K t) c)) i) (al t)).
  - unfold jacDot. apply sumn_ext. intros c Hc. f_equal. unfold onlyJoints. destruct (existsb (fun i0 => ofJoint mb i0 (nth c (pathCols mb path) 0%nat)) tr) eqn:Q; [reflexivity|].
    symmetry. apply Z; [apply nth_In; rewrite pathCols_length; exact Hc|]. intros m Hm. apply not_true_iff_false. intros Q'. apply not_true_iff_false in Q. apply Q, existsb_exists. eauto.
  - rewrite (rows_ang mb path (fun c => rbdColW v0 (K t) c) (al t) (rbdVelW v0 (K t)) i Hi (velW_jac mb path K al ald t v0 M)). reflexivity.
Qed.

(** *** The normal acceleration *)
Theorem track_acc_any rv ftv mb path bp ba names tp T0 ops K al ald t jm : otInit mb path bp ba names tp = Ok T0 -> wfPath mb path -> sized 3 mb jm ->
  (exists j, (j < nrDof mb)%nat /\ al t j <> 0) -> exists jd H, mrows jd = 3%nat /\ mcols jd = nrDof mb /\
    yields 3 mb (fun s => otUpdate rv ftv mb (fold_left otStep ops T0) (K s) (al s) jd (jm s)) H /\ ~ speedRate 0 3 H ald t.
Proof.
  intros I W Sz (q & Hq & Nq).
  set (jdv := fun v => mkMat 3 (nrDof mb) (fun _ j => if (j =? q)%nat then v else 0)).
  destruct (track_speed rv ftv mb path bp ba names tp T0 ops K al t (jdv 0) jm I W Sz) as (H0 & tr0 & Ht0 & Y0 & SJ0 & _ & HN0 & HJ0).
  destruct (track_speed rv ftv mb path bp ba names tp T0 ops K al t (jdv 1) jm I W Sz) as (H1 & tr1 & Ht1 & Y1 & SJ1 & _ & HN1 & HJ1).
  assert (V : forall v s, sumn (mcols (jdv v)) (fun j => mget (jdv v) 0%nat j * al s j) = v * al s q).
  { intros v s. cbn [jdv mcols mget]. rewrite (sumn_delta _ q) by (try exact Hq; intros j _ Hj; apply Nat.eqb_neq in Hj; rewrite Hj; ring). rewrite Nat.eqb_refl. reflexivity. }
  assert (JJ : forall s, hJac (H0 s) = hJac (H1 s)).
  { intros s. pose proof (proj1 (Y0 s)) as A. pose proof (proj1 (Y1 s)) as B. unfold otUpdate in A, B.
    destruct (fullJacobian mb (otPath (fold_left otStep ops T0)) (short3 (pathDof mb (otPath (fold_left otStep ops T0)))
      (fun c => if existsb (Nat.eqb c) (otZero (fold_left otStep ops T0)) then v0 else ang (rbdColW v0 (K s) c))) (jm s)) as [J| |]; try discriminate.
    cbn [bind] in A, B. injection A as A. injection B as B. rewrite <- A, <- B. reflexivity. }
  assert (SS : forall s, hSpeed (H0 s) = hSpeed (H1 s)).
  { intros s. pose proof (proj1 (Y0 s)) as A. pose proof (proj1 (Y1 s)) as B. unfold otUpdate in A, B.
    destruct (fullJacobian mb (otPath (fold_left otStep ops T0)) (short3 (pathDof mb (otPath (fold_left otStep ops T0)))
      (fun c => if existsb (Nat.eqb c) (otZero (fold_left otStep ops T0)) then v0 else ang (rbdColW v0 (K s) c))) (jm s)) as [J| |]; try discriminate.
    cbn [bind] in A, B. injection A as A. injection B as B. rewrite <- A, <- B. reflexivity. }
  destruct (classic (speedRate 0 3 H0 ald t)) as [S|N].
  - exists (jdv 1), H1. split; [reflexivity|]. split; [reflexivity|]. split; [exact Y1|]. intros S1.
    pose proof (S 0%nat ltac:(lia)) as A. pose proof (S1 0%nat ltac:(lia)) as B.
    assert (B' : dlim (fun s => vget (hSpeed (H0 s)) 0) t (taskAcc (H1 t) 0 (ald t) 0)) by (apply (dl_ext (fun s => vget (hSpeed (H1 s)) 0)); [intros s; rewrite SS; reflexivity|exact B]).
    pose proof (dl_unique _ _ _ _ A B') as Q. unfold taskAcc in Q. rewrite JJ, (HN0 t), (HN1 t), !V in Q by lia. lra.
  - exists (jdv 0), H0. repeat split; auto; apply Y0.
Qed.
Theorem track_acc_exact rv ftv mb path bp ba names tp T0 ops K al ald t jd jm : otInit mb path bp ba names tp = Ok T0 -> wfPath mb path -> sized 3 mb jm -> (forall s, movesAt mb path K al ald s) ->
  (forall j, In j (pathCols mb path) -> exists nm m, In nm names /\ jointIndexByName mb nm = Ok m /\ ofJoint mb m j = true) ->
  exists H, yields 3 mb (fun s => otUpdate rv ftv mb (fold_left otStep ops T0) (K s) (al s) jd (jm s)) H /\
    (forall s i, (i < 3)%nat -> vget (hSpeed (H s)) i = e3 (turnRate (K s)) i) /\
    (speedRate 0 3 H ald t <-> forall i, (i < 3)%nat -> sumn (mcols jd) (fun j => mget jd i j * al t j) = e3 (ang (rbdNAccW v0 (K t))) i).
Proof.
  intros I W Sz M All. destruct (track_speed rv ftv mb path bp ba names tp T0 ops K al t jd jm I W Sz) as (H & tr & Ht & Y & _ & _ & HN & HJ).
  assert (Q : forall j, In j (pathCols mb path) -> forall x, onlyJoints mb tr x j = x j).
  { intros j Hj x. destruct (All j Hj) as (nm & m & Hnm & Em & O). unfold onlyJoints. replace (existsb (fun i => ofJoint mb i j) tr) with true; [reflexivity|]. symmetry. apply existsb_exists. exists m. split; [|exact O].
    clear -Ht Hnm Em. induction Ht as [|a b la lb E _ IH]; [contradiction|]. destruct Hnm as [<-|Hn]; [left; congruence|right; auto]. }
  assert (HJ' : forall s i x, (i < 3)%nat -> sumn (mcols (hJac (H s))) (fun j => mget (hJac (H s)) i j * x j) = jacDot mb path (fun c => e3 (ang (rbdColW v0 (K s) c)) i) x).
  { intros s i x Hi. rewrite HJ by exact Hi. unfold jacDot. apply sumn_ext. intros c Hc. f_equal. apply Q. apply nth_In. rewrite pathCols_length. exact Hc. }
  exists H. split; [exact Y|].
  assert (HS : forall s i, (i < 3)%nat -> vget (hSpeed (H s)) i = e3 (turnRate (K s)) i).
  { intros s i Hi. destruct (track_speed rv ftv mb path bp ba names tp T0 ops K al s jd jm I W Sz) as (H' & _ & _ & Y' & SJ & _).
    assert (HH : H s = H' s) by (pose proof (eq_trans (eq_sym (proj1 (Y s))) (proj1 (Y' s))) as E; injection E; auto).
    rewrite HH, <- (SJ i Hi), <- HH, HJ' by exact Hi. rewrite (rows_ang mb path (fun c => rbdColW v0 (K s) c) (al s) (rbdVelW v0 (K s)) i Hi (velW_jac mb path K al ald s v0 (M s))). reflexivity. }
  split; [exact HS|].
  assert (D : forall i, (i < 3)%nat -> dlim (fun s => vget (hSpeed (H s)) i) t (jacDot mb path (fun c => e3 (ang (rbdColW v0 (K t) c)) i) (ald t) + e3 (ang (rbdNAccW v0 (K t))) i)).
  { intros i Hi. apply (dl_ext (fun s => e3 (ang (rbdVelW v0 (K s))) i)). { intros s. rewrite HS by exact Hi. reflexivity. }
    eapply dl_eq; [apply (dV_e3 (fun s => ang (rbdVelW v0 (K s)))); exact (proj1 (velW_rate mb path K al ald t v0 (M t)))|].
    cbn [ang sp_add]. rewrite e3_add. f_equal. symmetry. apply (rows_ang mb path (fun c => rbdColW v0 (K t) c) (ald t) _ i Hi eq_refl). }
  split.
  - intros S i Hi. pose proof (dl_unique _ _ _ _ (S i ltac:(lia)) (D i Hi)) as E. unfold taskAcc in E; cbn [Nat.add] in E. rewrite HN, HJ' in E by exact Hi. lra.
  - intros A i Hi. eapply dl_eq; [apply D; lia|]. unfold taskAcc; cbn [Nat.add]. rewrite HN, HJ', A by lia. ring.
Qed.
