(** Lemmas: TransformTask in closed loop. *)
From Verif Require Export PoseLoopSpec OriLoop.
From Verif Require Import VecLoop EnergyFacts CompatFacts KinTaskFacts KinVecFacts KinLoop SetPointFacts SetPointLoop KinFacts ContactProofs VisFacts.
From Coq Require Import Lra Lia Psatz FunctionalExtensionality.
Open Scope list_scope.
Open Scope R_scope.
Local Arguments sumn : simpl never.

Section PoseLoop.
Variables (rv : M3 -> V3) (mb : multibody) (path : list nat) (Xt X : PT) (C : M3) (K : R -> bodyKin) (jm : R -> mat) (H : R -> hlOut) (x p : R -> nat -> R) (b : nat).
Hypotheses (HL : isLog rv) (Ro : rigid Xt) (RX : rigid X) (RC : rotation C) (Wf : wfPath mb path) (Sz : sized 6 mb jm).
Hypothesis Mv : forall s, 0 <= s -> movesAt mb path K (fun s j => p s (b + j)%nat) (fun s j => x s (b + j)%nat) s.
Variables (k d1 d2 : R) (d : R -> R).
Hypotheses (Pk : 0 < k) (Pd1 : 0 < d1) (Bd : forall s, 0 <= s -> d1 <= d s <= d2).
Hypothesis At : forall s i, 0 <= s -> (i < 6)%nat -> taskAcc (H s) b (x s) i = k * vget (hErr (H s)) i - d s * vget (hSpeed (H s)) i.
Hypothesis Y : yields 6 mb (fun s => tfUpdate rv mb path Xt X C (K s) (jm s)) H.

Lemma m3tr_tr A : m3tr (m3tr A) = A. Proof. destruct A as [[] [] []]; reflexivity. Qed.
Lemma tf_speed s : 0 <= s -> dV (fun s => m3mulv C (m3mulv (m3tr (ptE (bkPos (K s)))) (ang (bkVelB (K s))))) s
  (vsub (vsc k (m3mulv C (rotError rv (m3mul (ptE X) (ptE (bkPos (K s)))) (ptE Xt)))) (vsc (d s) (m3mulv C (m3mulv (m3tr (ptE (bkPos (K s)))) (ang (bkVelB (K s))))))).
Proof.
  intros Hs. destruct (transform_tracks rv mb path Xt X C K _ _ s jm Wf Sz RX RC (Mv s Hs)) as (H' & Y' & _ & HE & HS & _ & _ & SR). pose proof (yields_same _ _ _ _ _ Y Y') as Q.
  set (V := fun s => m3mulv C (m3mulv (m3tr (ptE (bkPos (K s)))) (ang (bkVelB (K s))))) in *. set (Er := m3mulv C (rotError rv (m3mul (ptE X) (ptE (bkPos (K s)))) (ptE Xt))).
  assert (D : forall i, (i < 3)%nat -> dlim (fun s => e3 (V s) i) s (e3 (vsub (vsc k Er) (vsc (d s) (V s))) i)).
  { intros i Hi. refine (dl_eq _ _ _ _ (dl_ext _ _ _ _ _ (SR i _)) _); [intros u; cbv beta; apply HS; exact Hi|lia|]. rewrite <- Q.
    change (taskAcc (H s) b (x s) i = e3 (vsub (vsc k Er) (vsc (d s) (V s))) i). rewrite (At s i Hs ltac:(lia)), Q, HE, HS by exact Hi. fold Er. fold (V s).
    destruct i as [|[|[|]]]; [reflexivity|reflexivity|reflexivity|lia]. }
  repeat split; [exact (D 0%nat ltac:(lia))|exact (D 1%nat ltac:(lia))|exact (D 2%nat ltac:(lia))].
Qed.
Lemma tf_loop : let F := fun s => m3mul (ptE X) (ptE (bkPos (K s))) in
  let e0 := turnEnergy k (ang (bkVelB (K 0))) (angleTo (F 0) (ptE Xt)) in 2 * e0 < k * (PI * PI) ->
  forall s, 0 <= s -> angleTo (F s) (ptE Xt) < PI /\ angleTo (F s) (ptE Xt) * angleTo (F s) (ptE Xt) <= 6 * e0 / k * exp (- turnRate k d1 d2 e0 * s).
Proof.
  intros F. set (w := fun s => m3mulv (ptE X) (ang (bkVelB (K s)))).
  assert (RB : forall s, rotation (ptE (bkPos (K s)))) by (intros s; exact (mvRigid _ _ _ _ _ _ (Mv 0 (Rle_refl 0)) s)).
  assert (RE : forall s, rotation (F s)) by (intros s; apply rotation_mul; [exact RX|apply RB]).
  assert (DE : forall s, 0 <= s -> dM F s (m3neg (m3mul (skewm (w s)) (F s)))).
  { intros s Hs. unfold F at 2, w. rewrite <- skew_turn by exact RX. eapply dM_eq; [apply dM_mul; [apply dM_const|exact (mvRot _ _ _ _ _ _ (Mv s Hs))]|]. cbv beta. apply zero_turn. }
  assert (NW : turnEnergy k (ang (bkVelB (K 0))) (angleTo (F 0) (ptE Xt)) = turnEnergy k (w 0) (angleTo (F 0) (ptE Xt))).
  { unfold turnEnergy, w. f_equal. f_equal. symmetry. pose proof (rot_dot (m3tr (ptE X)) (ang (bkVelB (K 0))) (rotation_tr _ RX)) as Q. rewrite m3tr_tr in Q. exact Q. }
  rewrite NW. apply (turn_core F w (ptE Xt) k d1 d2 d rv Pk Pd1 Bd RE Ro HL DE). intros s Hs.
  pose proof (tf_speed s Hs) as DV. 
  assert (W0 : forall u, m3mulv (m3tr C) (m3mulv C (m3mulv (m3tr (ptE (bkPos (K u)))) (ang (bkVelB (K u))))) = m3mulv (m3tr (F u)) (w u)).
  { intros u. pose proof (rotation_mulT (m3tr C) (m3mulv (m3tr (ptE (bkPos (K u)))) (ang (bkVelB (K u)))) (rotation_tr _ RC)) as Q. rewrite m3tr_tr in Q. rewrite Q.
    unfold F, w. rewrite m3tr_mul, m3mulv_mul. pose proof (rotation_mulT (m3tr (ptE X)) (ang (bkVelB (K u))) (rotation_tr _ RX)) as Q'. rewrite m3tr_tr in Q'. rewrite Q'. reflexivity. }
  assert (DO : dV (fun s => m3mulv (m3tr (F s)) (w s)) s (vsub (vsc k (rotError rv (F s) (ptE Xt))) (vsc (d s) (m3mulv (m3tr (F s)) (w s))))).
  { eapply dV_ext; [exact W0|]. eapply dV_eq; [apply (dV_mulv _ _ _ _ _ (dM_const (m3tr C) s) DV)|]. cbv beta. rewrite lin_mulv, W0.
    pose proof (rotation_mulT (m3tr C) (rotError rv (m3mul (ptE X) (ptE (bkPos (K s)))) (ptE Xt)) (rotation_tr _ RC)) as Q. rewrite m3tr_tr in Q. rewrite Q. fold (F s).
    generalize (rotError rv (F s) (ptE Xt)) (m3mulv (m3tr (F s)) (w s)) (m3mulv C (m3mulv (m3tr (ptE (bkPos (K s)))) (ang (bkVelB (K s))))). intros a c e. apply V3_ext; unfold vadd, m3mulv, dot, v0; cbn; ring. }
  eapply dV_ext; [|eapply dV_eq; [apply (dV_mulv _ _ _ _ _ (DE s Hs) DO)|]].
  - intros u. cbv beta. apply rotation_mulT. apply RE.
  - cbv beta. unfold rotError. rewrite lin_mulv, !rotation_mulT, self_turn by apply RE. apply V3_ext; unfold vadd, v0; cbn; ring.
Qed.
End PoseLoop.
Lemma driven_attained6 H b x k d m mb U : m = 6%nat -> yields m mb U H -> driven6 H b x k d ->
  forall s i, 0 <= s -> (i < 6)%nat -> taskAcc (H s) b (x s) i = k * vget (hErr (H s)) i - d s * vget (hSpeed (H s)) i.
Proof.
  intros -> Y D s i Hs Hi. destruct (D s Hs) as (w & om & tk & Pw & Po & DT & M & A). pose proof (drive_costs _ _ _ DT) as C. cbn [dvWeight dvOut dvBegin dvDim] in C.
  destruct (Y s) as (_ & (Rw & _) & _). 
  exact (met _ _ _ _ _ _ (x s) C Pw (fun j Hj => Po j (eq_ind _ (fun q => (j < q)%nat) Hj _ Rw)) A M i (eq_ind_r (fun q => (i < q)%nat) Hi Rw)).
Qed.
Lemma transform_turns rv mb path Xt X C K jm H x p b : isLog rv -> rigid Xt -> rigid X -> rotation C -> wfPath mb path -> sized 6 mb jm ->
  (forall s, 0 <= s -> movesAt mb path K (fun s j => p s (b + j)%nat) (fun s j => x s (b + j)%nat) s) ->
  yields 6 mb (fun s => tfUpdate rv mb path Xt X C (K s) (jm s)) H -> forall k d1 d2 d, 0 < k -> 0 < d1 -> (forall s, 0 <= s -> d1 <= d s <= d2) ->
  driven6 H b x k d ->
  let F := fun s => m3mul (ptE X) (ptE (bkPos (K s))) in
  let e0 := turnEnergy k (ang (bkVelB (K 0))) (angleTo (F 0) (ptE Xt)) in 2 * e0 < k * (PI * PI) ->
  forall s, 0 <= s -> angleTo (F s) (ptE Xt) < PI /\ angleTo (F s) (ptE Xt) * angleTo (F s) (ptE Xt) <= 6 * e0 / k * exp (- turnRate k d1 d2 e0 * s).
Proof.
  intros HL Ro RX RC Wf Sz Mv Y k d1 d2 d Pk P1 Bd D.
  exact (tf_loop rv mb path Xt X C K jm H x p b HL Ro RX RC Wf Sz Mv k d1 d2 d Pk P1 Bd (driven_attained6 _ _ _ _ _ _ _ _ eq_refl Y D) Y).
Qed.
Lemma mulv_e3 A (f g : R -> V3) s v i : (i < 3)%nat -> dV f s v -> (forall u, g u = m3mulv A (f u)) -> dlim (fun u => e3 (g u) i) s (e3 (m3mulv A v) i).
Proof.
  intros Hi D Q. eapply dl_ext; [intros u; rewrite Q; reflexivity|].
  assert (DA : dV (fun u => m3mulv A (f u)) s (m3mulv A v)).
  { eapply dV_eq; [apply (dV_mulv _ _ _ _ _ (dM_const A s) D)|]. cbv beta. generalize (f s). intros a. apply V3_ext; unfold vadd, m3mulv, dot, v0; cbn; ring. }
  destruct DA as (A1 & A2 & A3). destruct i as [|[|[|]]]; [exact A1|exact A2|exact A3|lia].
Qed.
Lemma solver_transform lssol kinds num ct pre mbs uni bi r k0 W0 w0 ops t0 t x p k b mb path K jm rv Xt X C v :
  Forall wfMimic mbs -> nonzeroMimics mbs -> contract num ->
  newSP mbs r k0 W0 w0 = Ok t0 -> spRun ops t0 = Ok t -> k = latest spGiveK k0 ops -> b = latest (spGiveBegin r) 0%nat ops ->
  0 < k -> 0 < latest spGiveWeight w0 ops -> (forall j, (j < vlen (latest spGiveW W0 ops))%nat -> 0 < vget (latest spGiveW W0 ops) j) ->
  vlen (latest spGiveW W0 ops) = 6%nat -> isLog rv -> rigid Xt -> rigid X -> rotation C -> wfPath mb path -> sized 6 mb jm ->
  (forall s, 0 <= s -> movesAt mb path K (fun s j => p s (b + j)%nat) (fun s j => x s (b + j)%nat) s) ->
  tasksLoop lssol kinds num ct pre mbs uni bi (fun s => tfUpdate rv mb path Xt X C (K s) (jm s)) t k b x ->
  dV (fun s => worldPoint (ptr X) (K s)) 0 v ->
  let F := fun s => m3mul (ptE X) (ptE (bkPos (K s))) in
  let way := fun s => vsub (ptr Xt) (worldPoint (ptr X) (K s)) in
  let e0 := turnEnergy k (ang (bkVelB (K 0))) (angleTo (F 0) (ptE Xt)) in
  (forall s, 0 <= s -> way s = springWay k (way 0) v s) /\
  (2 * e0 < k * (PI * PI) ->
  forall s, 0 <= s -> angleTo (F s) (ptE Xt) < PI /\ angleTo (F s) (ptE Xt) * angleTo (F s) (ptE Xt) <= 6 * e0 / k * exp (- turnRate k (2 * sqrt k) (2 * sqrt k) e0 * s)).
Proof.
  intros Wm NZ Co N Rn Ek Eb Pk Pw PW LW HL Ro RX RC Wf Sz Mv TL Dv F way. pose proof (tasks_closed _ _ _ _ _ _ _ _ _ _ _ _ _ Wm NZ Co TL) as CL. split.
  - intros s Hs. assert (Q : m3mulv C (way s) = m3mulv C (springWay k (way 0) v s)).
    { apply e3_ext. intros i Hi. destruct (transform_loop mbs r k0 W0 w0 ops t0 t x k b mb path K _ jm N Rn Ek Eb Pk Pw PW Wf Mv rv Xt X C i LW Sz RX RC CL Hi) as (u & Du & Dc & _).
      pose proof (uniqueness_limite _ _ _ _ Du (mulv_e3 C _ (fun s => m3mulv C (worldPoint (ptr X) (K s))) 0 v i Hi Dv (fun _ => eq_refl))) as ->.
      change (e3 (m3mulv C (way s)) i = e3 (m3mulv C (springWay k (way 0) v s)) i). specialize (Dc s Hs). fold (way s) in Dc. fold (way 0) in Dc. rewrite Dc. unfold springWay.
      generalize (way 0) (exp (- sqrt k * s)) (sqrt k). intros a e q. destruct i as [|[|[|]]]; [| | |lia]; unfold m3mulv, vsc, vadd, vsub, dot; cbn; ring. }
    pose proof (rotation_mulT (m3tr C) (way s) (rotation_tr _ RC)) as Q1. pose proof (rotation_mulT (m3tr C) (springWay k (way 0) v s) (rotation_tr _ RC)) as Q2. rewrite m3tr_tr in Q1, Q2.
    rewrite <- Q1, Q, Q2. reflexivity.
  - destruct (transform_tracks rv mb path Xt X C K _ _ 0 jm Wf Sz RX RC (Mv 0 (Rle_refl 0))) as (H & Y & _).
    assert (Pc : 0 < 2 * sqrt k) by (pose proof (sqrt_lt_R0 k Pk); lra).
    apply (tf_loop rv mb path Xt X C K jm H x p b HL Ro RX RC Wf Sz Mv k (2 * sqrt k) (2 * sqrt k) (fun _ => 2 * sqrt k) Pk Pc); [intros; lra| |exact Y].
    intros s i Hs Hi. destruct (CL s Hs) as (h & t' & E & U & M & A). destruct (Y s) as (E' & (Rw & _) & _). rewrite E in E'. injection E' as ->.
    pose proof (setpoint_lemma _ _ _ _ _ _ _ _ _ _ N Rn U) as Cs. rewrite <- Ek, <- Eb in Cs.
    apply (met _ _ _ _ _ _ (x s) Cs Pw); [|exact A|exact M|rewrite Rw; exact Hi]. intros j Hj. apply PW. rewrite LW, <- Rw. exact Hj.
Qed.
