(** The momentum task. *)
From Verif Require Import MomModel MomSpec ComFacts KinFacts KinTaskFacts JacProofs MultiWitness MotionProofs.
From Coq Require Import Lra Lia.
Open Scope list_scope.
Open Scope R_scope.
Local Arguments sumn : simpl never.

(** *** Sums over the bodies *)
Lemma ob_ext {A} (bs : list A) f g : (forall b x, nth_error bs b = Some x -> f b x = g b x) -> overBodies bs f = overBodies bs g.
Proof. intros H. apply sumn_ext. intros b _. destruct (nth_error bs b) eqn:E; [apply H; exact E|reflexivity]. Qed.
Lemma ob_plus {A} (bs : list A) f g : overBodies bs (fun b x => f b x + g b x) = overBodies bs f + overBodies bs g.
Proof. unfold overBodies. rewrite <- sumn_plus. apply sumn_ext. intros b _. destruct (nth_error bs b); [reflexivity|ring]. Qed.
Lemma ob_dl {A} (bs : list A) (f : R -> nat -> A -> R) g t : (forall b x, nth_error bs b = Some x -> dlim (fun s => f s b x) t (g b x)) ->
  dlim (fun s => overBodies bs (f s)) t (overBodies bs g).
Proof.
  intros H. apply (dl_sumn (length bs) (fun s b => match nth_error bs b with Some x => f s b x | None => 0 end) t). intros b Hb.
  destruct (nth_error bs b) eqn:E; [apply (H b _ E)|apply nth_error_None in E; lia].
Qed.
Lemma ob_map {A B} (h : A -> B) (bs : list A) f : overBodies (map h bs) f = overBodies bs (fun b x => f b (h x)).
Proof. unfold overBodies. rewrite map_length. apply sumn_ext. intros b _. rewrite nth_error_map. destruct (nth_error bs b); reflexivity. Qed.
Lemma ob_scal {A} (bs : list A) k f : overBodies bs (fun b x => k * f b x) = k * overBodies bs f.
Proof. unfold overBodies. rewrite <- sumn_scal. apply sumn_ext. intros b _. destruct (nth_error bs b); [reflexivity|ring]. Qed.
Lemma ob_jac mb (bs : list momBody) (g : nat -> momBody -> nat -> R) x : (forall b y, nth_error bs b = Some y -> wfPath mb (cbPath (moB y))) ->
  sumn (nrDof mb) (fun q => overBodies bs (fun b y => fullRow mb (cbPath (moB y)) (g b y) q) * x q) = overBodies bs (fun b y => jacDot mb (cbPath (moB y)) (g b y) x).
Proof.
  intros W. unfold overBodies. rewrite (sumn_ext _ _ (fun q => sumn (length bs) (fun b => match nth_error bs b with Some y => fullRow mb (cbPath (moB y)) (g b y) q | None => 0 end * x q)))
    by (intros; rewrite <- sumn_scal_r; reflexivity).
  rewrite sumn_swap. apply sumn_ext. intros b Hb. destruct (nth_error bs b) as [y|] eqn:E; [|apply nth_error_None in E; lia]. apply fullRow_sum. exact (W b y E).
Qed.

(** *** Linear maps *)
Lemma inertiaMul_add x a b : inertiaMul x (sp_add a b) = sp_add (inertiaMul x a) (inertiaMul x b).
Proof. unfold inertiaMul, sp_add; apply Spatial_ext; cbn [ang linr]; v3c. Qed.
Lemma inertiaMul_sc x k a : inertiaMul x (sp_sc k a) = sp_sc k (inertiaMul x a).
Proof. unfold inertiaMul, sp_sc; apply Spatial_ext; cbn [ang linr]; v3c. Qed.
Lemma transMul_add X a b : transMul X (sp_add a b) = sp_add (transMul X a) (transMul X b).
Proof. unfold transMul, sp_add; apply Spatial_ext; cbn [ang linr]; v3c. Qed.
Lemma transMul_sc X k a : transMul X (sp_sc k a) = sp_sc k (transMul X a).
Proof. unfold transMul, sp_sc; apply Spatial_ext; cbn [ang linr]; v3c. Qed.
Lemma jsp_mom X x mb path f y : transMul X (inertiaMul x (jsp mb path f y)) = jsp mb path (fun c => transMul X (inertiaMul x (f c))) y.
Proof.
  apply (jsp_lin (fun V => transMul X (inertiaMul x V))).
  - intros a b. rewrite inertiaMul_add. apply transMul_add.
  - intros k a. rewrite inertiaMul_sc. apply transMul_sc.
Qed.
Lemma fromCom_E c k : ptE (fromCom c k) = ptE (bkPos k).
Proof. unfold fromCom, pt_mul, pt_inv, pt_trans; cbn [ptE ptr]. apply M3_ext; v3c. Qed.
Lemma fromCom_r c k : ptr (fromCom c k) = vsub (ptr (bkPos k)) c.
Proof. unfold fromCom, pt_mul, pt_inv, pt_trans; cbn [ptE ptr]. v3c. Qed.

(** *** The rate of the momentum of a body about a moving point *)
Lemma inertiaMul_rate x V t A : dS V t A -> dS (fun s => inertiaMul x (V s)) t (inertiaMul x A).
Proof.
  intros (HA & HB). unfold inertiaMul. apply dS_mk.
  - eapply dV_eq; [apply dV_add; [apply dV_mulv; [apply dM_const|exact HA]|apply dV_cross; [apply dV_const|exact HB]]|]. v3c.
  - eapply dV_eq; [apply dV_sub; [apply dV_sc; [apply dl_const|exact HB]|apply dV_cross; [apply dV_const|exact HA]]|]. v3c.
Qed.
Lemma rot_tr_cross E a b c : rotation E -> m3mulv (m3tr E) (cross (vsub a (m3mulv E b)) c) = cross (vsub (m3mulv (m3tr E) a) b) (m3mulv (m3tr E) c).
Proof.
  intros R. rewrite <- rotation_cross by (apply rotation_tr; exact R). f_equal.
  replace (m3mulv (m3tr E) (vsub a (m3mulv E b))) with (vsub (m3mulv (m3tr E) a) (m3mulv (m3mul (m3tr E) E) b)) by (rewrite m3mul_mulv; v3c).
  rewrite rotation_tr_mul by exact R. f_equal. v3c.
Qed.
Lemma momentum_rate mb path K al ald t x c c' : movesAt mb path K al ald t -> dV c t c' ->
  dS (fun s => transMul (fromCom (c s) (K s)) (inertiaMul x (bkVelB (K s)))) t
     (sp_add (jsp mb path (fun q => transMul (fromCom (c t) (K t)) (inertiaMul x (bkCol (K t) q))) (ald t))
        (transMul (fromCom (c t) (K t)) (sp_add (inertiaMul x (bkNAccB (K t)))
          (crossDual (sp_add (bkVelB (K t)) (sp_neg (pt_mulM (fromCom (c t) (K t)) (mkSp v0 c')))) (inertiaMul x (bkVelB (K t))))))).
Proof.
  intros M Dc. pose proof M as [RG _ RT RP _]. pose proof (inertiaMul_rate x _ _ _ (moves_acc _ _ _ _ _ _ M)) as (DA & DB).
  assert (RTt : dM (fun s => m3tr (ptE (bkPos (K s)))) t (m3mul (m3tr (ptE (bkPos (K t)))) (skewm (ang (bkVelB (K t)))))).
  { eapply dM_eq; [apply dM_tr, RT|]. apply tr_rate. }
  rewrite <- jsp_mom, <- transMul_add. rewrite inertiaMul_add in DA, DB.
  apply (dS_ext (fun s => mkSp (vadd (m3mulv (m3tr (ptE (bkPos (K s)))) (ang (inertiaMul x (bkVelB (K s))))) (cross (vsub (ptr (bkPos (K s))) (c s)) (m3mulv (m3tr (ptE (bkPos (K s)))) (linr (inertiaMul x (bkVelB (K s)))))))
                               (m3mulv (m3tr (ptE (bkPos (K s)))) (linr (inertiaMul x (bkVelB (K s))))))).
  { intros s. unfold transMul. rewrite fromCom_E, fromCom_r. reflexivity. }
  pose proof (dV_mulv _ _ _ _ _ RTt DB) as DF. pose proof (dV_mulv _ _ _ _ _ RTt DA) as DN.
  cbv beta in DF, DN. rewrite m3mul_mulv, skewm_mulv in DF, DN.
  eapply dS_eq; [apply dS_mk; [apply dV_add; [exact DN|apply dV_cross; [apply dV_sub; [exact RP|exact Dc]|exact DF]]|exact DF]|].
  unfold transMul. rewrite fromCom_E, fromCom_r.
  assert (HX : pt_mulM (fromCom (c t) (K t)) (mkSp v0 c') = mkSp v0 (m3mulv (ptE (bkPos (K t))) c')).
  { unfold pt_mulM. rewrite fromCom_E. cbn [ang linr]. apply Spatial_ext; cbn [ang linr]; v3c. }
  rewrite HX. unfold crossDual, sp_add, sp_neg; cbn [ang linr].
  pose proof (rot_tr_cross (ptE (bkPos (K t))) (linr (bkVelB (K t))) c' (linr (inertiaMul x (bkVelB (K t)))) (RG t)) as Q.
  set (E := ptE (bkPos (K t))) in *. set (h := inertiaMul x (bkVelB (K t))) in *. set (w := ang (bkVelB (K t))) in *. set (v := linr (bkVelB (K t))) in *.
  clearbody h. set (JA := inertiaMul x (jsp _ _ _ _)). set (NA := inertiaMul x (bkNAccB (K t))). clearbody JA NA w v.
  apply Spatial_ext; cbn [ang linr].
  - replace (vadd v (vneg (m3mulv E c'))) with (vsub v (m3mulv E c')) by v3c. replace (vadd w (vneg v0)) with w by v3c.
    transitivity (vadd (vadd (m3mulv (m3tr E) (vadd (cross w (ang h)) (vadd (ang JA) (ang NA)))) (cross (vsub (m3mulv (m3tr E) v) c') (m3mulv (m3tr E) (linr h))))
      (cross (vsub (ptr (bkPos (K t))) (c t)) (vadd (m3mulv (m3tr E) (cross w (linr h))) (m3mulv (m3tr E) (vadd (linr JA) (linr NA)))))).
    + v3c.
    + rewrite <- Q. set (z := cross (vsub v (m3mulv E c')) (linr h)). clearbody z. v3c.
  - replace (vadd w (vneg v0)) with w by v3c. v3c.
Qed.

(** *** The centre of mass *)
Definition comVec (bs : list momBody) (K : nat -> bodyKin) : V3 := mkV3 (comOf one (map moB bs) K 0) (comOf one (map moB bs) K 1) (comOf one (map moB bs) K 2).
Definition comRate (bs : list momBody) (K : nat -> bodyKin) : V3 :=
  let f i := overBodies bs (fun b x => cbMass (moB x) / mass (map moB bs) * e3 (linr (rbdVelW (cbCom (moB x)) (K b))) i) in mkV3 (f 0%nat) (f 1%nat) (f 2%nat).
Lemma comVec_rate mb bs K al ald t : bodiesMove mb (map moB bs) K al ald t -> dV (fun s => comVec bs (K s)) t (comRate bs (K t)).
Proof.
  intros M. assert (G : forall i, dlim (fun s => comOf one (map moB bs) (K s) i) t (overBodies bs (fun b x => cbMass (moB x) / mass (map moB bs) * e3 (linr (rbdVelW (cbCom (moB x)) (K t b))) i))).
  { intros i. apply (dl_ext (fun s => overBodies bs (fun b x => cbMass (moB x) / mass (map moB bs) * e3 (worldPoint (cbCom (moB x)) (K s b)) i))).
    { intros s. rewrite <- (ob_map moB bs (fun b x => cbMass x / mass (map moB bs) * e3 (worldPoint (cbCom x) (K s b)) i)). unfold comOf. apply sumn_ext. intros b _. destruct (nth_error (map moB bs) b); [|reflexivity]. unfold one, Rdiv. rewrite Rmult_1_l. reflexivity. }
    apply ob_dl. intros b x E. assert (E' : nth_error (map moB bs) b = Some (moB x)) by (rewrite nth_error_map, E; reflexivity).
    eapply dl_eq; [apply dl_mult; [apply dl_const|apply (dV_e3 (fun s => worldPoint (cbCom (moB x)) (K s b))); exact (worldPoint_rate _ _ _ _ _ _ _ (proj2 (M b _ E')))]|]. cbv beta. ring. }
  repeat split; apply G.
Qed.
Lemma comVelocity_of bs K : 0 < mass (map moB bs) -> comVelocity bs K = Ok (comRate bs K).
Proof.
  intros P. assert (EM : overBodies bs (fun _ x => cbMass (moB x)) = mass (map moB bs)) by (rewrite <- (ob_map moB bs (fun _ x => cbMass x)); reflexivity).
  unfold comVelocity. rewrite EM.
  assert (G : forall i, divOk (overBodies bs (fun b x => e3 (m3mulv (m3tr (ptE (bkPos (K b))))
                (vsub (vsc (cbMass (moB x)) (linr (bkVelB (K b)))) (cross (vsc (cbMass (moB x)) (cbCom (moB x))) (ang (bkVelB (K b)))))) i)) (mass (map moB bs)) =
             Ok (overBodies bs (fun b x => cbMass (moB x) / mass (map moB bs) * e3 (linr (rbdVelW (cbCom (moB x)) (K b))) i))).
  { intros i. unfold divOk. destruct (Req_EM_T (mass (map moB bs)) 0); [lra|]. f_equal. unfold Rdiv at 1. rewrite Rmult_comm, <- ob_scal. apply ob_ext. intros b x _.
    replace (m3mulv (m3tr (ptE (bkPos (K b)))) (vsub (vsc (cbMass (moB x)) (linr (bkVelB (K b)))) (cross (vsc (cbMass (moB x)) (cbCom (moB x))) (ang (bkVelB (K b)))))) with
      (vsc (cbMass (moB x)) (linr (rbdVelW (cbCom (moB x)) (K b)))).
    - rewrite e3_sc. unfold Rdiv. ring.
    - unfold rbdVelW, rbdVel, rbdFrameW, pt_mulM. cbn [ptE ptr linr]. v3c. }
  rewrite (G 0%nat), (G 1%nat), (G 2%nat). reflexivity.
Qed.

(** *** The task *)
Definition momGive (o : momOp) : option Spatial := match o with MomSet h => Some h end.
Theorem momentum_tracks mb bs mom0 ops K al ald t : heavy (map moB bs) -> bodiesMove mb (map moB bs) K al ald t ->
  exists H, yields 6 mb (fun s => momUpdate mb bs (K s) (fold_left momStep ops mom0)) H /\
    (forall s i, (i < 6)%nat -> vget (hErr (H s)) i = e6 (latest momGive mom0 ops) i - centroidal bs (K s) (comVec bs (K s)) i) /\
    (forall i, (i < 6)%nat -> sumn (mcols (hJac (H t))) (fun q => mget (hJac (H t)) i q * al t q) = e6 (latest momGive mom0 ops) i - vget (hErr (H t)) i) /\
    (forall s i, (i < 6)%nat -> vget (hSpeed (H s)) i = 0) /\ errorAcc 6 H ald t.
Proof.
  intros Hv M.
  assert (EL : fold_left momStep ops mom0 = latest momGive mom0 ops).
  { unfold latest. revert mom0. induction ops as [|[h] ops IH]; intros m; [reflexivity|]. cbn [fold_left momStep momGive]. apply IH. }
  rewrite EL. set (mom := latest momGive mom0 ops). clearbody mom. clear EL mom0.
  set (H := fun s => mkHL (centroidalMatrix mb bs (K s) (comVec bs (K s))) (mkVec 6 (fun i => e6 mom i - centroidal bs (K s) (comVec bs (K s)) i)) (mkVec 6 (fun _ => 0)) (mkVec 6 (normalMomentumDot bs (K s) (comVec bs (K s)) (comRate bs (K s))))).
  assert (MB : forall b x, nth_error bs b = Some x -> wfPath mb (cbPath (moB x)) /\ movesAt mb (cbPath (moB x)) (fun s => K s b) al ald t).
  { intros b x E. apply M. rewrite nth_error_map, E. reflexivity. }
  exists H. split; [|split; [|split; [|split]]].
  - intros s. split; [|split; [unfold hlSizes; repeat split|reflexivity]]. unfold momUpdate. destruct (computeCoM_of (map moB bs) (K s) (proj2 Hv)) as (c & EC & HC). rewrite EC. cbn [bind].
    rewrite (comVelocity_of bs (K s) (proj2 Hv)). cbn [bind]. replace c with (comVec bs (K s)); [reflexivity|]. unfold comVec. rewrite <- !HC. destruct c; reflexivity.
  - intros s i _. reflexivity.
  - intros i Hi. unfold H; cbn [hJac hErr vget centroidalMatrix mcols mget]. rewrite ob_jac by (intros b y E; apply (MB b y E)).
    replace (e6 mom i - (e6 mom i - centroidal bs (K t) (comVec bs (K t)) i)) with (centroidal bs (K t) (comVec bs (K t)) i) by ring.
    unfold centroidal. apply ob_ext. intros b x E. rewrite <- e6_jsp, <- jsp_mom. rewrite <- (moves_vel _ _ _ _ _ _ (proj2 (MB b x E)) : bkVelB (K t b) = _). reflexivity.
  - intros s i _. reflexivity.
  - intros i Hi. unfold H; cbn [hErr vget]. unfold taskAcc; cbn [hJac hNAcc vget centroidalMatrix mcols mget Nat.add]. rewrite ob_jac by (intros b y E; apply (MB b y E)).
    unfold normalMomentumDot. rewrite <- ob_plus.
    eapply dl_eq; [apply dl_minus; [apply dl_const|]|].
    + unfold centroidal. apply ob_dl. intros b x E. eapply dl_eq; [apply (dS_e6 (fun s => transMul (fromCom (comVec bs (K s)) (K s b)) (inertiaMul x (bkVelB (K s b))))); exact (momentum_rate _ _ (fun s => K s b) _ _ _ x _ _ (proj2 (MB b x E)) (comVec_rate _ _ _ _ _ _ M))|].
      rewrite e6_add, e6_jsp. reflexivity.
    + cbv beta. ring.
Qed.
