(** Lemmas: SurfaceTransformTask in closed loop. *)
From Verif Require Export SurfLoopSpec SurfLoopFacts PoseLoop.
From Verif Require Import VecLoop EnergyFacts CompatFacts KinTaskFacts KinVecFacts KinLoop SetPointFacts SetPointLoop KinFacts ContactProofs VisFacts.
From Coq Require Import Lra Lia Psatz FunctionalExtensionality.
Open Scope list_scope.
Open Scope R_scope.
Local Arguments sumn : simpl never.

(** The angular acceleration of the frame X of the body. *)
Definition surfAng (mb : multibody) (path : list nat) (X : PT) (K : R -> bodyKin) (ald : R -> nat -> R) (t : R) : V3 :=
  ang (sp_add (jsp mb path (fun c => pt_mulM X (bkCol (K t) c)) (ald t)) (rbdNAcc X sp0 (K t))).
(** The angular part of the acceleration of the task. *)
Lemma surf_acc rv mb path Xt X K al ald t jm : wfPath mb path -> sized 6 mb jm -> rigid X -> movesAt mb path K al ald t ->
  exists H, yields 6 mb (fun s => surfTfUpdate rv mb path Xt X (K s) (jm s)) H /\ dV (fun s => m3mulv (ptE X) (ang (bkVelB (K s)))) t (surfAng mb path X K ald t) /\
    let a := surfAng mb path X K ald t in
    let e := rv (m3mul (ptE Xt) (m3tr (m3mul (ptE X) (ptE (bkPos (K t)))))) in let w := m3mulv (ptE X) (ang (bkVelB (K t))) in
    forall i, (i < 3)%nat -> taskAcc (H t) 0 (ald t) i = e3 (vsub (vsub a (cross e a)) (cross (cross e w) w)) i.
Proof.
  intros W Sz RX M. pose proof (mvRigid _ _ _ _ _ _ M) as RG.
  destruct (kin_gen 6 mb path
     (fun s i c => e6 (sp_add (rbdColX (pt_mul X (bkPos (K s))) (K s) c) (sp_neg (sp_cross (surfErr rv Xt X (K s)) (mkSp (ang (rbdColX (pt_mul X (bkPos (K s))) (K s) c)) v0)))) i) jm
     (fun s => vec6 (surfErr rv Xt X (K s))) (fun s => vec6 (sp_neg (surfVerr (surfErr rv Xt X (K s)) (rbdVel X (K s)))))
     (fun s => vec6 (surfNacc (surfErr rv Xt X (K s)) (rbdVel X (K s)) (rbdNAcc X sp0 (K s))))
     (fun s => surfTfUpdate rv mb path Xt X (K s) (jm s))) as (H & Y & HV & HJ);
    [exact W|exact Sz|intros s; repeat split|intros s; reflexivity|].
  set (cols := fun c => pt_mulM X (bkCol (K t) c)). set (A := sp_add (jsp mb path cols (ald t)) (rbdNAcc X sp0 (K t))).
  exists H. split; [exact Y|]. split; [exact (proj1 (vel_rate _ _ _ _ _ _ X M))|]. cbv zeta. change (surfAng mb path X K ald t) with (ang A). intros i Hi.
  assert (TA : taskAcc (H t) 0 (ald t) i = e6 (sp_add (sp_neg (surfVerr (surfErr rv Xt X (K t)) (jsp mb path cols (ald t)))) (surfNacc (surfErr rv Xt X (K t)) (rbdVel X (K t)) (rbdNAcc X sp0 (K t)))) i).
  { unfold taskAcc. cbn [Nat.add]. rewrite HJ by lia. destruct (HV t) as (_ & _ & ->). unfold vec6; cbn [vget].
    assert (L : jsp mb path (fun c => sp_neg (surfVerr (surfErr rv Xt X (K t)) (cols c))) (ald t) = sp_neg (surfVerr (surfErr rv Xt X (K t)) (jsp mb path cols (ald t)))).
    { symmetry. apply (jsp_lin (fun a => sp_neg (surfVerr (surfErr rv Xt X (K t)) a))); [apply surf_L_add|apply surf_L_sc]. }
    rewrite e6_add, <- L, e6_jsp. f_equal. unfold jacDot. apply sumn_ext. intros c _. unfold cols. rewrite surf_alg_col, (colX X (K t) c (RG t)). reflexivity. }
  rewrite TA, surf_alg_acc. fold A. rewrite <- e6_ang by exact Hi. f_equal. change (ang (surfErr rv Xt X (K t))) with (rv (m3mul (ptE Xt) (m3tr (m3mul (ptE X) (ptE (bkPos (K t))))))).
  unfold surfVerr, rbdVel. cbn [ang sp_neg sp_add sp_cross linr pt_mulM]. change (ang (surfErr rv Xt X (K t))) with (rv (m3mul (ptE Xt) (m3tr (m3mul (ptE X) (ptE (bkPos (K t))))))).
  generalize (rv (m3mul (ptE Xt) (m3tr (m3mul (ptE X) (ptE (bkPos (K t))))))) (m3mulv (ptE X) (ang (bkVelB (K t)))) (ang A). intros [] [] []. unfold vsub, vadd, vneg, cross; cbn. f_equal; ring.
Qed.

Section SurfLoop.
Variables (rv : M3 -> V3) (mb : multibody) (path : list nat) (Xt X : PT) (K : R -> bodyKin) (jm : R -> mat) (H : R -> hlOut) (x p : R -> nat -> R) (b : nat).
Hypotheses (HL : isLog rv) (Ro : rigid Xt) (RX : rigid X) (Wf : wfPath mb path) (Sz : sized 6 mb jm).
Hypothesis Mv : forall s, 0 <= s -> movesAt mb path K (fun s j => p s (b + j)%nat) (fun s j => x s (b + j)%nat) s.
Variables (k d1 d2 : R) (d : R -> R).
Hypotheses (Pk : 0 < k) (Bd : forall s, 0 <= s -> d1 <= d s <= d2).
Hypothesis At : forall s i, 0 <= s -> (i < 6)%nat -> taskAcc (H s) b (x s) i = k * vget (hErr (H s)) i - d s * vget (hSpeed (H s)) i.
Hypothesis Y : yields 6 mb (fun s => surfTfUpdate rv mb path Xt X (K s) (jm s)) H.
Lemma surf_turn : let F := fun s => m3mul (ptE X) (ptE (bkPos (K s))) in
  let e0 := turnEnergy k (ang (bkVelB (K 0))) (angleTo (F 0) (ptE Xt)) in 2 * e0 < k * (PI * PI) -> 0 < leastDamping k d1 e0 ->
  forall s, 0 <= s -> angleTo (F s) (ptE Xt) < PI /\ angleTo (F s) (ptE Xt) * angleTo (F s) (ptE Xt) <= 6 * e0 / k * exp (- turnRate k (leastDamping k d1 e0) (mostDamping k d2 e0) e0 * s).
Proof.
  intros F. set (w := fun s => m3mulv (ptE X) (ang (bkVelB (K s)))).
  assert (RB : forall s, rotation (ptE (bkPos (K s)))) by (intros s; exact (mvRigid _ _ _ _ _ _ (Mv 0 (Rle_refl 0)) s)).
  assert (RE : forall s, rotation (F s)) by (intros s; apply rotation_mul; [exact RX|apply RB]).
  assert (DE : forall s, 0 <= s -> dM F s (m3neg (m3mul (skewm (w s)) (F s)))).
  { intros s Hs. unfold F at 2, w. rewrite <- skew_turn by exact RX. eapply dM_eq; [apply dM_mul; [apply dM_const|exact (mvRot _ _ _ _ _ _ (Mv s Hs))]|]. cbv beta. apply zero_turn. }
  assert (NW : turnEnergy k (ang (bkVelB (K 0))) (angleTo (F 0) (ptE Xt)) = turnEnergy k (w 0) (angleTo (F 0) (ptE Xt))).
  { unfold turnEnergy, w. f_equal. f_equal. symmetry. pose proof (rot_dot (m3tr (ptE X)) (ang (bkVelB (K 0))) (rotation_tr _ RX)) as Q. rewrite m3tr_tr in Q. exact Q. }
  rewrite NW. apply (surf_core F w (surfAng mb path X K (fun s j => x s (b + j)%nat)) (ptE Xt) k d1 d2 d rv Pk Bd RE Ro HL DE).
  - intros s Hs. destruct (surf_acc rv mb path Xt X K _ _ s jm Wf Sz RX (Mv s Hs)) as (H' & _ & D & _). exact D.
  - intros s Hs. destruct (surf_acc rv mb path Xt X K _ _ s jm Wf Sz RX (Mv s Hs)) as (H' & Y' & _ & TA). cbv zeta in TA. pose proof (yields_same _ _ _ _ _ Y Y') as Q.
    destruct (surface_transform_tracks rv mb path Xt X K _ _ s jm Wf Sz RX (Mv s Hs)) as (H2 & Y2 & _ & HE & HS & _). pose proof (yields_same _ _ _ _ _ Y Y2) as Q2. cbv zeta in HS.
    apply e3_ext. intros i Hi. fold (F s) in TA. fold (w s) in TA. rewrite <- TA by exact Hi. rewrite <- Q. change (taskAcc (H s) b (x s) i = e3 (vsub (vsc k (rv (m3mul (ptE Xt) (m3tr (F s))))) (vsc (d s) (vsub (w s) (cross (rv (m3mul (ptE Xt) (m3tr (F s)))) (w s))))) i).
    rewrite (At s i Hs ltac:(lia)), Q2, HE, HS by exact Hi. fold (F s). fold (w s). destruct i as [|[|[|]]]; [reflexivity|reflexivity|reflexivity|lia].
Qed.
End SurfLoop.
Lemma surface_turns rv mb path Xt X K jm H x p b : isLog rv -> rigid Xt -> rigid X -> wfPath mb path -> sized 6 mb jm ->
  (forall s, 0 <= s -> movesAt mb path K (fun s j => p s (b + j)%nat) (fun s j => x s (b + j)%nat) s) ->
  yields 6 mb (fun s => surfTfUpdate rv mb path Xt X (K s) (jm s)) H -> forall k d1 d2 d, 0 < k -> (forall s, 0 <= s -> d1 <= d s <= d2) ->
  driven6 H b x k d ->
  let F := fun s => m3mul (ptE X) (ptE (bkPos (K s))) in
  let e0 := turnEnergy k (ang (bkVelB (K 0))) (angleTo (F 0) (ptE Xt)) in 2 * e0 < k * (PI * PI) -> 0 < leastDamping k d1 e0 ->
  forall s, 0 <= s -> angleTo (F s) (ptE Xt) < PI /\ angleTo (F s) (ptE Xt) * angleTo (F s) (ptE Xt) <= 6 * e0 / k * exp (- turnRate k (leastDamping k d1 e0) (mostDamping k d2 e0) e0 * s).
Proof.
  intros HL Ro RX Wf Sz Mv Y k d1 d2 d Pk Bd D.
  exact (surf_turn rv mb path Xt X K jm H x p b HL Ro RX Wf Sz Mv k d1 d2 d Pk Bd (driven_attained6 _ _ _ _ _ _ _ _ eq_refl Y D) Y).
Qed.
Lemma critical_left k e0 : 0 < k -> 2 * e0 < k * (PI * PI) -> 0 < leastDamping k (2 * sqrt k) e0.
Proof.
  intros Pk L. pose proof PI2_10 as P. unfold leastDamping. assert (Pc : 0 < sqrt k) by (apply sqrt_lt_R0; exact Pk). assert (Cc : sqrt k * sqrt k = k) by (apply sqrt_sqrt; lra). set (c := sqrt k) in *.
  assert (L5 : e0 < 5 * k) by nra. apply Rmult_lt_reg_r with c; [exact Pc|]. rewrite Rmult_0_l. replace ((2 * c - 2 / 5 * (e0 / c)) * c) with (2 * (c * c) - 2 / 5 * e0) by (field; lra). lra.
Qed.
Lemma solver_surface lssol kinds num ct pre mbs uni bi r k0 W0 w0 ops t0 t x p k b mb path K jm rv Xt X v :
  Forall wfMimic mbs -> nonzeroMimics mbs -> contract num ->
  newSP mbs r k0 W0 w0 = Ok t0 -> spRun ops t0 = Ok t -> k = latest spGiveK k0 ops -> b = latest (spGiveBegin r) 0%nat ops ->
  0 < k -> 0 < latest spGiveWeight w0 ops -> (forall j, (j < vlen (latest spGiveW W0 ops))%nat -> 0 < vget (latest spGiveW W0 ops) j) ->
  vlen (latest spGiveW W0 ops) = 6%nat -> isLog rv -> rigid Xt -> rigid X -> wfPath mb path -> sized 6 mb jm ->
  (forall s, 0 <= s -> movesAt mb path K (fun s j => p s (b + j)%nat) (fun s j => x s (b + j)%nat) s) ->
  tasksLoop lssol kinds num ct pre mbs uni bi (fun s => surfTfUpdate rv mb path Xt X (K s) (jm s)) t k b x ->
  let F := fun s => m3mul (ptE X) (ptE (bkPos (K s))) in
  let way := fun s => m3mulv (F s) (vsub (ptr Xt) (worldPoint (ptr X) (K s))) in
  dV way 0 (vneg v) ->
  let e0 := turnEnergy k (ang (bkVelB (K 0))) (angleTo (F 0) (ptE Xt)) in
  (forall s, 0 <= s -> way s = springWay k (way 0) v s) /\
  (2 * e0 < k * (PI * PI) -> 0 < leastDamping k (2 * sqrt k) e0 /\
  forall s, 0 <= s -> angleTo (F s) (ptE Xt) < PI /\
    angleTo (F s) (ptE Xt) * angleTo (F s) (ptE Xt) <= 6 * e0 / k * exp (- turnRate k (leastDamping k (2 * sqrt k) e0) (mostDamping k (2 * sqrt k) e0) e0 * s)).
Proof.
  intros Wm NZ Co N Rn Ek Eb Pk Pw PW LW HL Ro RX Wf Sz Mv TL F way Dv. pose proof (tasks_closed _ _ _ _ _ _ _ _ _ _ _ _ _ Wm NZ Co TL) as CL. 
  destruct (surface_transform_tracks rv mb path Xt X K _ _ 0 jm Wf Sz RX (Mv 0 (Rle_refl 0))) as (H & Y & HE & _ & _ & _ & ER0 & _). split.
  - assert (WE : forall s i, (i < 3)%nat -> vget (hErr (H s)) (3 + i) = e3 (way s) i) by (intros s i Hi; rewrite HE by exact Hi; unfold way, F; rewrite m3mulv_mul; reflexivity).
    intros s Hs. apply e3_ext. intros i Hi.
    assert (Dc : decays k (fun s => vget (hErr (H s)) (3 + i)) (vget (hSpeed (H 0)) (3 + i))).
    { eapply (loop_decays mbs r k0 W0 w0 ops t0 t x (3 + i) k b _ 6 mb _ H 3 N Rn Ek Eb eq_refl Pk Pw LW); [rewrite <- LW; exact PW|lia|exact Y|exact CL|].
      intros u Hu. destruct (surface_transform_tracks rv mb path Xt X K _ _ u jm Wf Sz RX (Mv u Hu)) as (H' & Y' & _ & _ & _ & _ & ER & SR & _). exists H'.
      split; [exact Y'|]. split; [exact ER|exact SR]. }
    assert (SV : vget (hSpeed (H 0)) (3 + i) = e3 v i).
    { pose proof (ER0 (3 + i)%nat ltac:(lia)) as D1. assert (D2 : dlim (fun s => vget (hErr (H s)) (3 + i)) 0 (- e3 v i)).
      { eapply dl_ext; [intros u; symmetry; apply WE; exact Hi|]. destruct Dv as (A1 & A2 & A3). destruct i as [|[|[|]]]; [exact A1|exact A2|exact A3|lia]. }
      pose proof (uniqueness_limite _ _ _ _ D1 D2). lra. }
    destruct Dc as (Dc & _). specialize (Dc s Hs). rewrite !WE, SV in Dc by exact Hi. rewrite Dc. unfold springWay. destruct i as [|[|[|]]]; [| | |lia]; unfold vsc, vadd, vsub; cbn; ring.
  - intros L. assert (PL := critical_left k _ Pk L). split; [exact PL|].
    apply (surf_turn rv mb path Xt X K jm H x p b HL Ro RX Wf Sz Mv k (2 * sqrt k) (2 * sqrt k) (fun _ => 2 * sqrt k) Pk); [intros; lra| |exact Y|exact L|exact PL].
    intros s i Hs Hi. destruct (CL s Hs) as (h & t' & E & U & M & A). destruct (Y s) as (E' & (Rw & _) & _). rewrite E in E'. injection E' as ->.
    pose proof (setpoint_lemma _ _ _ _ _ _ _ _ _ _ N Rn U) as Cs. rewrite <- Ek, <- Eb in Cs.
    apply (met _ _ _ _ _ _ (x s) Cs Pw); [|exact A|exact M|rewrite Rw; exact Hi]. intros j Hj. apply PW. rewrite LW, <- Rw. exact Hj.
Qed.
