(** Lemmas: OrientationTask and SurfaceOrientationTask in closed loop. *)
From Verif Require Export OriLoopSpec OriLoopFacts.
From Verif Require Import VecLoop EnergyFacts CompatFacts KinTaskFacts KinVecFacts KinLoop SetPointFacts SetPointLoop KinFacts ContactProofs VisFacts.
From Coq Require Import Lra Lia Psatz FunctionalExtensionality.
Open Scope list_scope.
Open Scope R_scope.
Local Arguments sumn : simpl never.

Lemma angleTo_sqr A B : angleTo A B * angleTo A B = angle2 A B. Proof. reflexivity. Qed.
Lemma turn_core (E : R -> M3) w B k d1 d2 d rv : 0 < k -> 0 < d1 -> (forall s, 0 <= s -> d1 <= d s <= d2) -> (forall s, rotation (E s)) -> rotation B -> isLog rv ->
  (forall s, 0 <= s -> dM E s (m3neg (m3mul (skewm (w s)) (E s)))) ->
  (forall s, 0 <= s -> dV w s (vsub (vsc k (rv (m3mul B (m3tr (E s))))) (vsc (d s) (w s)))) ->
  let e0 := turnEnergy k (w 0) (angleTo (E 0) B) in 2 * e0 < k * (PI * PI) ->
  forall s, 0 <= s -> angleTo (E s) B < PI /\ angleTo (E s) B * angleTo (E s) B <= 6 * e0 / k * exp (- turnRate k d1 d2 e0 * s).
Proof.
  intros Pk P1 Bd RE RB HL DE DW e0 Hlt s Hs.
  assert (E0 : tuV E w B k 0 = e0) by reflexivity.
  assert (LT : 2 * tuV E w B k 0 / k < PI * PI).
  { rewrite E0. apply Rmult_lt_reg_r with k; [exact Pk|]. replace (2 * e0 / k * k) with (2 * e0) by (field; lra). lra. }
  pose proof (tu_converges E w B k d1 d2 d rv Pk P1 Bd RE RB HL DE DW s LT Hs) as C. destruct (tu_energy E w B k d1 d2 d rv Pk P1 Bd RE RB HL DE DW LT) as (HC & _).
  split.
  - specialize (HC s Hs). pose proof (cosAngle_le (E s) B (RE s) RB) as U. unfold tuC in HC. change (acos (cosAngle (E s) B) < PI).
    destruct (Req_dec (cosAngle (E s) B) 1) as [->|N]; [rewrite acos_1; apply PI_RGT_0|]. apply acos_bound_lt. lra.
  - rewrite E0 in C. unfold tuV, tuEps in C. pose proof (norm2_nonneg (w s)) as N. unfold tuN in C. unfold turnRate. rewrite angleTo_sqr. unfold tuA, sinc in C.
    apply Rmult_le_reg_l with (k / 2); [lra|]. match goal with |- _ <= k / 2 * (6 * e0 / k * ?e) => replace (k / 2 * (6 * e0 / k * e)) with (3 * e0 * e) by (field; lra) end. lra.
Qed.
Lemma zero_turn Y Z : m3add (m3mul (mkM3 v0 v0 v0) Y) Z = Z.
Proof. destruct Y as [[] [] []], Z as [[] [] []]. unfold m3add, m3mul, m3tr, vadd, v0; cbn. unfold dot; cbn. f_equal; f_equal; ring. Qed.
Lemma lin_mulv E k a d c : m3mulv E (vsub (vsc k a) (vsc d c)) = vsub (vsc k (m3mulv E a)) (vsc d (m3mulv E c)).
Proof. destruct E as [[] [] []], a, c. unfold m3mulv, vsub, vsc, dot; cbn. f_equal; ring. Qed.
Lemma self_turn E w : rotation E -> m3mulv (m3neg (m3mul (skewm w) E)) (m3mulv (m3tr E) w) = v0.
Proof.
  intros RE. replace (m3mulv (m3neg (m3mul (skewm w) E)) (m3mulv (m3tr E) w)) with (vneg (m3mulv (skewm w) (m3mulv E (m3mulv (m3tr E) w)))).
  - rewrite rotation_mulT by exact RE. destruct w. unfold vneg, m3mulv, skewm, dot, v0; cbn. unfold dot; cbn. f_equal; ring.
  - generalize (m3mulv (m3tr E) w). destruct E as [[] [] []], w. intros []. unfold vneg, m3mulv, m3neg, m3mul, m3tr, skewm, dot; cbn. unfold dot; cbn. f_equal; ring.
Qed.
Section OriLoop.
Variables (rv : M3 -> V3) (mb : multibody) (path : list nat) (ori : M3) (K : R -> bodyKin) (jm : R -> mat) (H : R -> hlOut) (x p : R -> nat -> R) (b : nat).
Hypotheses (HL : isLog rv) (Ro : rotation ori) (Wf : wfPath mb path) (Sz : sized 3 mb jm).
Hypothesis Mv : forall s, 0 <= s -> movesAt mb path K (fun s j => p s (b + j)%nat) (fun s j => x s (b + j)%nat) s.
Variables (k d1 d2 : R) (d : R -> R).
Hypotheses (Pk : 0 < k) (Pd1 : 0 < d1) (Bd : forall s, 0 <= s -> d1 <= d s <= d2).
Hypothesis At : forall s i, 0 <= s -> (i < 3)%nat -> taskAcc (H s) b (x s) i = k * vget (hErr (H s)) i - d s * vget (hSpeed (H s)) i.

Lemma speed_tov (V : R -> V3) m (U : R -> res hlOut) : m = 3%nat -> yields m mb U H -> (forall s, 0 <= s -> exists H', yields m mb U H' /\
  (forall s i, (i < 3)%nat -> vget (hSpeed (H' s)) i = e3 (V s) i) /\ speedRate 0 m H' (fun s j => x s (b + j)%nat) s) ->
  forall s, 0 <= s -> dV V s (vsub (vsc k (tov3 (vget (hErr (H s))))) (vsc (d s) (V s))).
Proof.
  intros -> Y R s Hs. destruct (R s Hs) as (H' & Y' & HS & SR). pose proof (yields_same _ _ _ _ _ Y Y') as Q.
  assert (D : forall i, (i < 3)%nat -> dlim (fun s => e3 (V s) i) s (e3 (vsub (vsc k (tov3 (vget (hErr (H s))))) (vsc (d s) (V s))) i)).
  { intros i Hi. refine (dl_eq _ _ _ _ (dl_ext _ _ _ _ _ (SR i _)) _); [intros u; cbv beta; apply HS; exact Hi|lia|]. rewrite <- Q.
    change (taskAcc (H s) b (x s) i = e3 (vsub (vsc k (tov3 (vget (hErr (H s))))) (vsc (d s) (V s))) i). rewrite (At s i Hs Hi), Q, HS, <- Q by exact Hi.
    destruct i as [|[|[|]]]; [reflexivity|reflexivity|reflexivity|lia]. }
  repeat split; [exact (D 0%nat ltac:(lia))|exact (D 1%nat ltac:(lia))|exact (D 2%nat ltac:(lia))].
Qed.
Lemma tov3_of f (a : V3) : (forall i, (i < 3)%nat -> f i = e3 a i) -> tov3 f = a.
Proof. intros Q. apply e3_ext. intros i Hi. rewrite tov3_e3 by exact Hi. apply Q. exact Hi. Qed.
Lemma ori_loop : yields 3 mb (fun s => oriUpdate rv mb path ori (K s) (jm s)) H ->
  let e0 := turnEnergy k (ang (bkVelB (K 0))) (angleTo (ptE (bkPos (K 0))) ori) in 2 * e0 < k * (PI * PI) ->
  forall s, 0 <= s -> angleTo (ptE (bkPos (K s))) ori < PI /\ angleTo (ptE (bkPos (K s))) ori * angleTo (ptE (bkPos (K s))) ori <= 6 * e0 / k * exp (- turnRate k d1 d2 e0 * s).
Proof.
  intros Y. set (E := fun s => ptE (bkPos (K s))). set (w := fun s => ang (bkVelB (K s))).
  assert (RE : forall s, rotation (E s)) by (intros s; exact (mvRigid _ _ _ _ _ _ (Mv 0 (Rle_refl 0)) s)).
  assert (DE : forall s, 0 <= s -> dM E s (m3neg (m3mul (skewm (w s)) (E s)))) by (intros s Hs; exact (mvRot _ _ _ _ _ _ (Mv s Hs))).
  apply (turn_core E w ori k d1 d2 d rv Pk Pd1 Bd RE Ro HL DE). intros s Hs.
  assert (DV : dV (fun s => m3mulv (m3tr (E s)) (w s)) s (vsub (vsc k (rotError rv (E s) ori)) (vsc (d s) (m3mulv (m3tr (E s)) (w s))))).
  { assert (TE : rotError rv (E s) ori = tov3 (vget (hErr (H s)))).
    { destruct (orientation_tracks rv mb path ori K _ _ s jm Wf Sz (Mv s Hs)) as (H' & Y' & HE & _). symmetry. apply tov3_of. intros i Hi. rewrite (yields_same _ _ _ _ _ Y Y'). apply HE. exact Hi. }
    rewrite TE. apply (speed_tov (fun s => m3mulv (m3tr (E s)) (w s)) 3 (fun s => oriUpdate rv mb path ori (K s) (jm s)) eq_refl Y); [|exact Hs].
    intros q Hq. destruct (orientation_tracks rv mb path ori K _ _ q jm Wf Sz (Mv q Hq)) as (H' & Y' & _ & HS & _ & SR). exists H'. split; [exact Y'|]. split; [exact HS|exact SR]. }
  eapply dV_ext; [|eapply dV_eq; [apply (dV_mulv _ _ _ _ _ (DE s Hs) DV)|]].
  - intros u. cbv beta. apply rotation_mulT. apply RE.
  - cbv beta. unfold rotError. rewrite lin_mulv, !rotation_mulT, self_turn by apply RE. apply V3_ext; unfold vadd, v0; cbn; ring.
Qed.
Lemma surf_loop X : rigid X -> yields 3 mb (fun s => surfOriUpdate rv mb path ori X (K s) (jm s)) H ->
  let F := fun s => m3mul (ptE X) (ptE (bkPos (K s))) in
  let e0 := turnEnergy k (ang (bkVelB (K 0))) (angleTo (F 0) ori) in 2 * e0 < k * (PI * PI) ->
  forall s, 0 <= s -> angleTo (F s) ori < PI /\ angleTo (F s) ori * angleTo (F s) ori <= 6 * e0 / k * exp (- turnRate k d1 d2 e0 * s).
Proof.
  intros RX Y F. set (w := fun s => m3mulv (ptE X) (ang (bkVelB (K s)))).
  assert (RE : forall s, rotation (F s)) by (intros s; apply rotation_mul; [exact RX|exact (mvRigid _ _ _ _ _ _ (Mv 0 (Rle_refl 0)) s)]).
  assert (DE : forall s, 0 <= s -> dM F s (m3neg (m3mul (skewm (w s)) (F s)))).
  { intros s Hs. unfold F at 2, w. rewrite <- skew_turn by exact RX. eapply dM_eq; [apply dM_mul; [apply dM_const|exact (mvRot _ _ _ _ _ _ (Mv s Hs))]|]. cbv beta. apply zero_turn. }
  assert (NW : turnEnergy k (ang (bkVelB (K 0))) (angleTo (F 0) ori) = turnEnergy k (w 0) (angleTo (F 0) ori)).
  { unfold turnEnergy, w. f_equal. f_equal. symmetry. pose proof (rot_dot (m3tr (ptE X)) (ang (bkVelB (K 0))) (rotation_tr _ RX)) as Q. replace (m3tr (m3tr (ptE X))) with (ptE X) in Q by (destruct (ptE X) as [[] [] []]; reflexivity). exact Q. }
  rewrite NW. apply (turn_core F w ori k d1 d2 d rv Pk Pd1 Bd RE Ro HL DE). intros s Hs.
  assert (TE : rv (m3mul ori (m3tr (F s))) = tov3 (vget (hErr (H s)))).
  { destruct (surface_orientation_tracks rv mb path ori X K _ _ s jm Wf Sz (Mv s Hs)) as (H' & Y' & HE & _). symmetry. apply tov3_of. intros i Hi. rewrite (yields_same _ _ _ _ _ Y Y').
    unfold F. rewrite m3tr_mul, <- m3mul_assoc. apply HE. exact Hi. }
  rewrite TE. apply (speed_tov w 3 (fun s => surfOriUpdate rv mb path ori X (K s) (jm s)) eq_refl Y); [|exact Hs].
  intros q Hq. destruct (surface_orientation_tracks rv mb path ori X K _ _ q jm Wf Sz (Mv q Hq)) as (H' & Y' & _ & HS & _ & SR). exists H'. split; [exact Y'|]. split; [exact HS|exact SR].
Qed.
End OriLoop.
Lemma driven_attained H b x k d m mb U : m = 3%nat -> yields m mb U H -> driven3 H b x k d ->
  forall s i, 0 <= s -> (i < 3)%nat -> taskAcc (H s) b (x s) i = k * vget (hErr (H s)) i - d s * vget (hSpeed (H s)) i.
Proof.
  intros -> Y D s i Hs Hi. destruct (D s Hs) as (w & om & tk & Pw & Po & DT & M & A). pose proof (drive_costs _ _ _ DT) as C. cbn [dvWeight dvOut dvBegin dvDim] in C.
  destruct (Y s) as (_ & (Rw & _) & _). 
  exact (met _ _ _ _ _ _ (x s) C Pw (fun j Hj => Po j (eq_ind _ (fun q => (j < q)%nat) Hj _ Rw)) A M i (eq_ind_r (fun q => (i < q)%nat) Hi Rw)).
Qed.
Lemma orientation_converges rv mb path ori K jm H x p b : isLog rv -> rotation ori -> wfPath mb path -> sized 3 mb jm ->
  (forall s, 0 <= s -> movesAt mb path K (fun s j => p s (b + j)%nat) (fun s j => x s (b + j)%nat) s) ->
  yields 3 mb (fun s => oriUpdate rv mb path ori (K s) (jm s)) H -> forall k d1 d2 d, 0 < k -> 0 < d1 -> (forall s, 0 <= s -> d1 <= d s <= d2) ->
  driven3 H b x k d ->
  let e0 := turnEnergy k (ang (bkVelB (K 0))) (angleTo (ptE (bkPos (K 0))) ori) in 2 * e0 < k * (PI * PI) ->
  forall s, 0 <= s -> angleTo (ptE (bkPos (K s))) ori < PI /\ angleTo (ptE (bkPos (K s))) ori * angleTo (ptE (bkPos (K s))) ori <= 6 * e0 / k * exp (- turnRate k d1 d2 e0 * s).
Proof.
  intros HL Ro Wf Sz Mv Y k d1 d2 d Pk P1 Bd D. exact (ori_loop rv mb path ori K jm H x p b HL Ro Wf Sz Mv k d1 d2 d Pk P1 Bd (driven_attained _ _ _ _ _ _ _ _ eq_refl Y D) Y).
Qed.
Lemma surface_converges rv mb path ori X K jm H x p b : isLog rv -> rotation ori -> rigid X -> wfPath mb path -> sized 3 mb jm ->
  (forall s, 0 <= s -> movesAt mb path K (fun s j => p s (b + j)%nat) (fun s j => x s (b + j)%nat) s) ->
  yields 3 mb (fun s => surfOriUpdate rv mb path ori X (K s) (jm s)) H -> forall k d1 d2 d, 0 < k -> 0 < d1 -> (forall s, 0 <= s -> d1 <= d s <= d2) ->
  driven3 H b x k d ->
  let F := fun s => m3mul (ptE X) (ptE (bkPos (K s))) in
  let e0 := turnEnergy k (ang (bkVelB (K 0))) (angleTo (F 0) ori) in 2 * e0 < k * (PI * PI) ->
  forall s, 0 <= s -> angleTo (F s) ori < PI /\ angleTo (F s) ori * angleTo (F s) ori <= 6 * e0 / k * exp (- turnRate k d1 d2 e0 * s).
Proof.
  intros HL Ro RX Wf Sz Mv Y k d1 d2 d Pk P1 Bd D. exact (surf_loop rv mb path ori K jm H x p b HL Ro Wf Sz Mv k d1 d2 d Pk P1 Bd (driven_attained _ _ _ _ _ _ _ _ eq_refl Y D) X RX Y).
Qed.
(** With the solver in the loop, among other tasks. *)
Lemma solver_orientation lssol kinds num ct pre mbs uni bi r k0 W0 w0 ops t0 t x p k b mb path K jm rv ori :
  Forall wfMimic mbs -> nonzeroMimics mbs -> contract num ->
  newSP mbs r k0 W0 w0 = Ok t0 -> spRun ops t0 = Ok t -> k = latest spGiveK k0 ops -> b = latest (spGiveBegin r) 0%nat ops ->
  0 < k -> 0 < latest spGiveWeight w0 ops -> (forall j, (j < vlen (latest spGiveW W0 ops))%nat -> 0 < vget (latest spGiveW W0 ops) j) ->
  vlen (latest spGiveW W0 ops) = 3%nat -> isLog rv -> rotation ori -> wfPath mb path -> sized 3 mb jm ->
  (forall s, 0 <= s -> movesAt mb path K (fun s j => p s (b + j)%nat) (fun s j => x s (b + j)%nat) s) ->
  tasksLoop lssol kinds num ct pre mbs uni bi (fun s => oriUpdate rv mb path ori (K s) (jm s)) t k b x ->
  let e0 := turnEnergy k (ang (bkVelB (K 0))) (angleTo (ptE (bkPos (K 0))) ori) in 2 * e0 < k * (PI * PI) ->
  forall s, 0 <= s -> angleTo (ptE (bkPos (K s))) ori < PI /\ angleTo (ptE (bkPos (K s))) ori * angleTo (ptE (bkPos (K s))) ori <= 6 * e0 / k * exp (- turnRate k (2 * sqrt k) (2 * sqrt k) e0 * s).
Proof.
  intros Wm NZ C N Rn Ek Eb Pk Pw PW LW HL Ro Wf Sz Mv TL. pose proof (tasks_closed _ _ _ _ _ _ _ _ _ _ _ _ _ Wm NZ C TL) as CL.
  destruct (orientation_tracks rv mb path ori K _ _ 0 jm Wf Sz (Mv 0 (Rle_refl 0))) as (H & Y & _).
  assert (Pc : 0 < 2 * sqrt k) by (pose proof (sqrt_lt_R0 k Pk); lra).
  apply (ori_loop rv mb path ori K jm H x p b HL Ro Wf Sz Mv k (2 * sqrt k) (2 * sqrt k) (fun _ => 2 * sqrt k) Pk Pc); [intros; lra| |exact Y].
  intros s i Hs Hi. destruct (CL s Hs) as (h & t' & E & U & M & A). destruct (Y s) as (E' & (Rw & _) & _). rewrite E in E'. injection E' as ->.
  pose proof (setpoint_lemma _ _ _ _ _ _ _ _ _ _ N Rn U) as Co. rewrite <- Ek, <- Eb in Co.
  apply (met _ _ _ _ _ _ (x s) Co Pw); [|exact A|exact M|rewrite Rw; exact Hi]. intros j Hj. apply PW. rewrite LW, <- Rw. exact Hj.
Qed.
Lemma turnRate_pos k d1 d2 e0 : 0 < k -> 0 < d1 -> 0 < d2 -> 0 < e0 -> 2 * e0 < k * (PI * PI) -> 0 < turnRate k d1 d2 e0.
Proof.
  intros A B C D L. unfold turnRate. cbv zeta. set (mm := 2 * e0 / k). assert (Pm : 0 < mm) by (apply Rdiv_lt_0_compat; lra).
  assert (Lm : mm < PI * PI) by (apply Rmult_lt_reg_r with k; [exact A|]; unfold mm; replace (2 * e0 / k * k) with (2 * e0) by (field; lra); lra).
  pose proof (sqrt_lt_R0 mm Pm) as Ps. pose proof (sqrt_sqrt mm ltac:(lra)) as Q. pose proof PI_RGT_0. assert (sqrt mm < PI) by nra.
  assert (0 < sin (sqrt mm)) by (apply sin_gt_0; lra). apply Rmult_lt_0_compat; [lra|]. apply Rmult_lt_0_compat; [apply Rdiv_lt_0_compat; nra|apply Rdiv_lt_0_compat; assumption].
Qed.
