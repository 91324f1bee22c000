(** The closed loop with the solver inside, and the slider in it. *)
From Verif Require Export CompatWitness.
From Verif Require Import SetPointFacts SetPointLoop SetPointWitness.
Open Scope string_scope.
Open Scope list_scope.
Open Scope R_scope.
Local Arguments sumn : simpl never.

Lemma solver_position lssol kinds num ct pre mbs uni bi r k0 W0 w0 ops t0 t x k b mb path K al jm :
  Forall wfMimic mbs -> nonzeroMimics mbs -> contract num ->
  newSP mbs r k0 W0 w0 = Ok t0 -> spRun ops t0 = Ok t -> k = latest spGiveK k0 ops -> b = latest (spGiveBegin r) 0%nat ops ->
  0 < k -> 0 < latest spGiveWeight w0 ops -> (forall j, (j < vlen (latest spGiveW W0 ops))%nat -> 0 < vget (latest spGiveW W0 ops) j) ->
  wfPath mb path -> (forall s, 0 <= s -> movesAt mb path K al (fun s j => x s (b + j)%nat) s) -> forall pos bp pops i v,
  vlen (latest spGiveW W0 ops) = 3%nat -> sized 3 mb jm -> latest posGivePoint bp pops = bp ->
  tasksLoop lssol kinds num ct pre mbs uni bi (fun s => posUpdate mb (fold_left posStep pops (posInit pos bp path)) (K s) (jm s)) t k b x ->
  (i < 3)%nat -> dlim (fun s => e3 (worldPoint bp (K s)) i) 0 v ->
  decays k (fun s => e3 (latest posGivePos pos pops) i - e3 (worldPoint bp (K s)) i) v.
Proof.
  intros W NZ C N Rn Ek Eb Pk Pw PW Wf Mv pos bp pops i v LW Sz PT TL Hi Dv.
  exact (position_loop mbs r k0 W0 w0 ops t0 t x k b mb path K al jm N Rn Ek Eb Pk Pw PW Wf Mv pos bp pops i v LW Sz PT (tasks_closed _ _ _ _ _ _ _ _ _ _ _ _ _ W NZ C TL) Hi Dv).
Qed.

(** The slider of C112, now with solve() called at every instant. *)
Lemma slide_out s : exists h, posUpdate kMb (fold_left posStep [] (posInit (mkV3 1 0 0) v0 [0%nat])) (kSlide s) (kJm 3 s) = Ok h /\ hlSizes 3 h /\ mcols (hJac h) = 1%nat /\
  (forall i, (i < 3)%nat -> mget (hJac h) i 0 = e3 (mkV3 1 0 0) i /\ vget (hErr h) i = e3 (mkV3 (cE s) 0 0) i /\ vget (hSpeed h) i = e3 (mkV3 (cV s) 0 0) i /\ vget (hNAcc h) i = 0).
Proof.
  eexists. split; [reflexivity|]. split; [repeat split|]. split; [reflexivity|]. intros i Hi. destruct i as [|[|[|]]]; [| | |lia].
  all: repeat split; cbn; repeat (unfold dot, m3mulv, v0; cbn); ring.
Qed.
Lemma slide_tasks : exists t0, newSP [kMb] 0 1 (ones 3) 1 = Ok t0 /\
  tasksLoop true cmKinds trySolver 0 [] [kMb] [] [] (fun s => posUpdate kMb (fold_left posStep [] (posInit (mkV3 1 0 0) v0 [0%nat])) (kSlide s) (kJm 3 s)) t0 1 0 cX.
Proof.
  destruct (cmNew 1 3) as (t0 & N). exists t0. split; [exact N|]. intros s Hs. destruct (slide_out s) as (h & E & Sz & Cl & HV).
  assert (D : vlen (cmDim (spC t0)) = 3%nat) by (apply newSP_Ok in N as (_ & _ & _ & -> & _); auto).
  destruct (setpoint_defined h t0) as (t' & U); [rewrite D; exact Sz|].
  pose proof (setpoint_lemma [kMb] 0%nat 1 (ones 3) 1 [] t0 t0 h t' N eq_refl U) as C. cbn [latest fold_left] in C.
  set (a := (1 - s) * exp (- 1 * s)).
  assert (TA : forall x i, (i < 3)%nat -> taskAcc h 0 x i = e3 (mkV3 1 0 0) i * x 0%nat).
  { intros x i Hi. unfold taskAcc. rewrite Cl. unfold sumn. cbn [Nat.add]. destruct (HV i Hi) as (-> & _ & _ & ->). cbn. ring. }
  assert (DA : forall i, (i < 3)%nat -> 1 * vget (hErr h) i - 2 * sqrt 1 * vget (hSpeed h) i = e3 (mkV3 a 0 0) i).
  { intros i Hi. destruct (HV i Hi) as (_ & -> & -> & _). rewrite sqrt_1. destruct i as [|[|[|]]]; [| | |lia]; cbn; unfold a, cE, cV; ring. }
  destruct Sz as (Rw & Sz').
  assert (O : oneDim (commonTask (spC t')) 1 a).
  { pose proof (newSP_Ok _ _ _ _ _ _ N) as (_ & _ & _ & _ & _ & B0).
    pose proof (spUpdate_Ok _ _ _ U) as (_ & _ & er & U' & _). apply commonQC_Ok in U' as (_ & _ & _ & B & _ & _ & _ & _ & _ & _ & S1 & S2 & S3). rewrite Cl in S1, S2, S3. rewrite B0 in B.
    split; [cbn; rewrite B; reflexivity|]. split; [exact S1|]. split; [exact S2|]. split; [exact S3|].
    assert (LS : forall x, leastSquares h 0 (vget (ones 3)) (fun i => 1 * vget (hErr h) i - 2 * sqrt 1 * vget (hSpeed h) i) x = / 2 * (x 0%nat - a) ^ 2).
    { intros x. unfold leastSquares. rewrite Rw. unfold sumn. cbn [fold_right]. rewrite !TA, !DA by lia. cbn. ring. }
    intros x y. rewrite C, !LS. field. }
  destruct (one_solves _ _ _ O Rlt_0_1) as (xv & ms1 & SV & V).
  assert (AZ : forall i, (i < mrows (hJac h))%nat -> taskAcc h 0 (cX s) i = 1 * vget (hErr h) i - 2 * sqrt 1 * vget (hSpeed h) i).
  { intros i Hi. rewrite Rw in Hi. rewrite TA, DA by exact Hi. destruct i as [|[|[|]]]; [| | |lia]; cbn; unfold cX, a; ring. }
  exists [OpAddTask 0], cmSolver, (cmHeap (commonTask (spC t'))), h, t', [mkMbc [[0]] tt], ms1, xv, (cX s).
  split; [exact cmHistory|]. split; [exact cmKeep|]. split; [left; reflexivity|]. split; [exact E|]. split; [exact U|]. split; [reflexivity|].
  split. { change (wfTask 1 (commonTask (spC t'))). destruct O as (B & R1 & C1 & L & _). unfold wfTask. rewrite B, R1, C1, L. cbn; lia. }
  split; [constructor|]. split; [intros k1 k2 b1 b2 i E1; destruct k1; discriminate E1|]. split; [exact SV|].
  split. { intros i Hi. change (i < 1)%nat in Hi. assert (i = 0%nat) as -> by lia. rewrite V. unfold small. destruct (Rlt_dec _ _); [lra|]. unfold cX, a. field. }
  split; [apply one_feasible|]. split; [apply one_mimicked|].
  split; [intros i Hi; right; apply (unreg_one _ 1 _ O); [lra|exact Hi]|]. split; [|exact AZ].
  intros t [<-|[]]. eapply zero_min; [exact C|lra|intros; cbn; lra|exact AZ].
Qed.
Lemma solver_converges lssol kinds num ct pre mbs uni bi r k0 W0 w0 ops t0 t h x i k b W :
  Forall wfMimic mbs -> nonzeroMimics mbs -> contract num ->
  newSP mbs r k0 W0 w0 = Ok t0 -> spRun ops t0 = Ok t ->
  k = latest spGiveK k0 ops -> b = latest (spGiveBegin r) 0%nat ops -> W = latest spGiveW W0 ops ->
  0 < k -> 0 < latest spGiveWeight w0 ops -> (forall j, (j < vlen W)%nat -> 0 < vget W j) -> (i < vlen W)%nat ->
  tasksLoop lssol kinds num ct pre mbs uni bi (fun s => Ok (h s)) t k b x ->
  (forall s, 0 <= s -> derivable_pt_lim (fun s => vget (hErr (h s)) i) s (- vget (hSpeed (h s)) i)) ->
  (forall s, 0 <= s -> derivable_pt_lim (fun s => vget (hSpeed (h s)) i) s (taskAcc (h s) b (x s) i)) ->
  decays k (fun s => vget (hErr (h s)) i) (vget (hSpeed (h 0)) i).
Proof.
  intros Wm NZ C N Rn Ek Eb EW Pk Pw PW Hi TL D1 D2. unfold decays.
  apply (converges_lemma mbs r k0 W0 w0 ops t0 t h x i k b W N Rn Ek Eb EW Pk Pw PW Hi); [|exact D1|exact D2].
  intros s Hs. destruct (tasks_closed _ _ _ _ _ _ _ _ _ _ _ _ _ Wm NZ C TL s Hs) as (h' & t' & E & U & M & A). injection E as <-. exists t'. auto.
Qed.
