(** Lemmas about control cycles with torque limits. *)
From Coq Require Import FunctionalExtensionality.
From Verif Require Export TorqueCycleSpec CycleFacts MotionLimits.
Open Scope list_scope.
Open Scope R_scope.

Lemma join_result d x a l : alphaDVec d x = Ok a -> lambdaVec d x = Ok l -> join (sdTotalAlphaD d) a l = vget x.
Proof.
  intros A L. apply functional_extensionality. intros j. unfold join, alphaDVec, vhead, lambdaVec, lambdaBegin, vseg in *.
  destruct (_ <=? _)%nat in A; [|discriminate]. destruct (_ <=? _)%nat in L; [|discriminate]. injection A as <-. injection L as <-. cbn [vget].
  destruct (Nat.ltb_spec j (sdTotalAlphaD d)); f_equal; lia.
Qed.

Section Torques.
Variables (nm : names) (mbs : list multibody) (lssol : bool) (kinds : nat -> list ckind) (pre : list op) (uni : list unilateral) (bi : list bilateral) (num : numeric) (c : nat).
Variables (r : nat) (tl tu tdl tdu : list (list ext)) (dt : R) (sj : list springJoint) (m0 : motion_) (d : solverData).
Hypothesis W : Forall wfMimic mbs.
Hypothesis NZ : nonzeroMimics mbs.
Hypothesis C : contract num.
Hypothesis HN : newMotion mbs r tl tu tdl tdu dt sj = Ok m0.
Hypothesis PW : pathsWf nm mbs.

(** What is true between two cycles. *)
Definition between2 (m : motion_) (s : qpSolver) : Prop :=
  (exists post, history lssol kinds (pre ++ OpNrVars mbs uni bi :: post) = Ok s /\ Forall (fun o => ~ resizesOrSwitches o) post) /\ qData s = d /\
  exists ops h, Forall (opData (fun d => sizesOf mbs d /\ noSelf r d)) ops /\ mhRun (fun d dy => invTorque nm mbs d dy r) mh0 ops = Some h /\ hData h = Some d /\ moRun nm mbs m0 ops = Ok m.

Lemma torqueCycle_step dy x m s m' s' : between2 m s -> torqueCycle nm mbs lssol kinds num c dy x (m, s) (m', s') ->
  between2 m' s' /\ exists mb, nth_error mbs r = Some mb /\ forall j, (j < nrDof mb)%nat ->
    storedTorque m' j = invTorque nm mbs d dy r (vget x) j /\
    between (staticLimit mb sj (dQ dy r) (dAlpha dy r) tl NInf j) (storedTorque m' j) (staticLimit mb sj (dQ dy r) (dAlpha dy r) tu PInf j).
Proof.
  intros ((post & H & Hc) & HD & ops & h & FO & MH & HDh & MR) (o & hp & m1 & ms & ms1 & a & l & R & HO & I1 & I2 & U & G & WB & DB & SV & AV & LV & MT).
  pose proof (run_extends _ _ _ _ _ _ _ _ _ _ H R) as H'. assert (Hc' : Forall (fun o => ~ resizesOrSwitches o) (post ++ o)) by (apply Forall_app; auto).
  pose proof (run_data _ _ _ _ _ _ _ _ _ _ H W Hc R HO) as HD'. rewrite HD in HD'. rewrite HD' in AV, LV.
  destruct (optimal_lemma _ _ _ _ _ _ _ _ _ _ _ _ _ _ H' W NZ Hc' C WB DB SV) as (VX & FX & _ & _). rewrite HD' in VX, FX.
  assert (R1 : moRun nm mbs m0 (ops ++ [MOUpdate dy]) = Ok m1) by (rewrite moRun_app, MR; cbn [bind moRun moStep]; rewrite U; reflexivity).
  assert (R2 : moRun nm mbs m0 ((ops ++ [MOUpdate dy]) ++ [MOTorque a l]) = Ok m') by (rewrite moRun_app, R1; cbn [bind moRun moStep]; rewrite MT; reflexivity).
  assert (FO1 : Forall (opData (fun d => sizesOf mbs d /\ noSelf r d)) (ops ++ [MOUpdate dy])) by (apply Forall_app; split; [exact FO|repeat constructor]).
  assert (FO2 : Forall (opData (fun d => sizesOf mbs d /\ noSelf r d)) ((ops ++ [MOUpdate dy]) ++ [MOTorque a l])) by (apply Forall_app; split; [exact FO1|repeat constructor]).
  assert (MH1 : mhRun (fun d dy => invTorque nm mbs d dy r) mh0 (ops ++ [MOUpdate dy]) = Some (mkMH (Some d) (Some dy) (S (hCount h)) (hCur h))).
  { rewrite mhRun_app, MH. cbn [mhRun mhStep]. rewrite HDh. reflexivity. }
  assert (MH2 : exists h2, mhRun (fun d dy => invTorque nm mbs d dy r) mh0 ((ops ++ [MOUpdate dy]) ++ [MOTorque a l]) = Some h2 /\ hData h2 = Some d).
  { rewrite mhRun_app, MH1. cbn [mhRun mhStep hData hDyn]. eauto. }
  destruct MH2 as (h2 & MH2 & HD2).
  split. { split; [eauto|]. split; [exact HD'|]. eauto 10. }
  destruct (limits_lemma _ _ _ _ _ _ _ _ _ _ _ _ _ _ _ HN PW FO MH HDh R1) as (mb & M & Z).
  destruct (torque_lemma _ _ _ _ _ _ _ _ _ _ _ _ _ _ _ _ _ HN PW FO1 MH1 eq_refl eq_refl R2) as (mb' & M' & LC & T). rewrite M in M'. injection M' as <-.
  exists mb. split; [exact M|]. intros j Hj. unfold storedTorque. rewrite (T j Hj), (join_result _ _ _ _ AV LV). split; [reflexivity|].
  assert (HG : holdsGen (sdNrVars d) (vget x) (mcGen (moC m1))).
  { rewrite <- G. destruct FX as ((_ & _ & F) & _). rewrite Forall_forall in F. apply F. unfold collect. cbn [rgGen]. apply in_map. exact I2. }
  exact (proj1 (proj1 (Z (vget x)) HG j Hj)).
Qed.
Lemma torqueCycles_step m s m' s' : between2 m s -> torqueCycles nm mbs lssol kinds num c (m, s) (m', s') -> between2 m' s'.
Proof.
  intros B X. remember (m', s') as z' eqn:E. revert m' s' E. induction X as [|[m1 s1] z2 dy x X IH Y]; intros m' s' E.
  - injection E as <- <-. exact B.
  - subst z2. exact (proj1 (torqueCycle_step _ _ _ _ _ _ (IH _ _ eq_refl) Y)).
Qed.
Lemma torqueRate_step dy1 x1 dy2 x2 m s m1 s1 m2 s2 : between2 m s -> torqueCycle nm mbs lssol kinds num c dy1 x1 (m, s) (m1, s1) ->
  torqueCycle nm mbs lssol kinds num c dy2 x2 (m1, s1) (m2, s2) ->
  exists mb, nth_error mbs r = Some mb /\ forall j, (j < nrDof mb)%nat ->
    between (emulr (nth j (concat tdl) NInf) dt) (storedTorque m2 j - storedTorque m1 j) (emulr (nth j (concat tdu) PInf) dt).
Proof.
  intros B X Y. destruct (torqueCycle_step _ _ _ _ _ _ B X) as (B1 & mb1 & M1 & T1). destruct (torqueCycle_step _ _ _ _ _ _ B1 Y) as (B2 & mb2 & M2 & T2).
  rewrite M1 in M2. injection M2 as <-.
  destruct B1 as ((post1 & H1 & Hc1) & HD1 & _). destruct B as (_ & HD & ops & h & FO & MH & HDh & MR).
  destruct X as (o & hp & m1' & ms & ms1 & a & l & _ & _ & _ & _ & U & _ & _ & _ & _ & AV & LV & MT).
  destruct Y as (o2 & hp2 & m2' & ms2 & ms3 & a2 & l2 & R2 & HO2 & _ & I2 & U2 & G2 & WB & DB & SV & _ & _ & _).
  rewrite HD1 in AV, LV.
  pose proof (run_extends _ _ _ _ _ _ _ _ _ _ H1 R2) as H'. assert (Hc' : Forall (fun o => ~ resizesOrSwitches o) (post1 ++ o2)) by (apply Forall_app; auto).
  pose proof (run_data _ _ _ _ _ _ _ _ _ _ H1 W Hc1 R2 HO2) as HD'. rewrite HD1 in HD'.
  destruct (optimal_lemma _ _ _ _ _ _ _ _ _ _ _ _ _ _ H' W NZ Hc' C WB DB SV) as (VX & FX & _ & _). rewrite HD' in FX.
  assert (HG : holdsGen (sdNrVars d) (vget x2) (mcGen (moC m2'))).
  { rewrite <- G2. destruct FX as ((_ & _ & F) & _). rewrite Forall_forall in F. apply F. unfold collect. cbn [rgGen]. apply in_map. exact I2. }
  assert (R1 : moRun nm mbs m0 (ops ++ [MOUpdate dy1]) = Ok m1') by (rewrite moRun_app, MR; cbn [bind moRun moStep]; rewrite U; reflexivity).
  assert (RR : moRun nm mbs m0 ((ops ++ [MOUpdate dy1]) ++ [MOTorque a l; MOUpdate dy2]) = Ok m2').
  { rewrite moRun_app, R1. cbn [bind moRun moStep]. rewrite MT. cbn [bind]. rewrite U2. reflexivity. }
  assert (FO1 : Forall (opData (fun d => sizesOf mbs d /\ noSelf r d)) (ops ++ [MOUpdate dy1])) by (apply Forall_app; split; [exact FO|repeat constructor]).
  assert (MH1 : mhRun (fun d dy => invTorque nm mbs d dy r) mh0 (ops ++ [MOUpdate dy1]) = Some (mkMH (Some d) (Some dy1) (S (hCount h)) (hCur h))).
  { rewrite mhRun_app, MH. cbn [mhRun mhStep]. rewrite HDh. reflexivity. }
  destruct (rate_lemma _ _ _ _ _ _ _ _ _ _ _ _ _ _ _ _ _ _ _ HN PW FO1 MH1 eq_refl eq_refl RR HG) as (mb & M & Z). rewrite M1 in M. injection M as <-.
  exists mb1. split; [exact M1|]. intros j Hj. rewrite (proj1 (T2 j Hj)), (proj1 (T1 j Hj)). rewrite <- (join_result _ _ _ _ AV LV). exact (Z j Hj).
Qed.
End Torques.

Lemma torque_kept_lemma nm mbs lssol kinds pre uni bi post s num c r tl tu tdl tdu dt sj m0 ops h m dy x m1 s1 m2 s2 :
  history lssol kinds (pre ++ OpNrVars mbs uni bi :: post) = Ok s -> Forall wfMimic mbs -> nonzeroMimics mbs ->
  Forall (fun o => ~ resizesOrSwitches o) post -> contract num ->
  newMotion mbs r tl tu tdl tdu dt sj = Ok m0 -> pathsWf nm mbs ->
  Forall (opData (fun d => sizesOf mbs d /\ noSelf r d)) ops -> mhRun (fun d dy => invTorque nm mbs d dy r) mh0 ops = Some h -> hData h = Some (qData s) ->
  moRun nm mbs m0 ops = Ok m ->
  torqueCycles nm mbs lssol kinds num c (m, s) (m1, s1) -> torqueCycle nm mbs lssol kinds num c dy x (m1, s1) (m2, s2) ->
  exists mb, nth_error mbs r = Some mb /\ forall j, (j < nrDof mb)%nat ->
    storedTorque m2 j = invTorque nm mbs (qData s) dy r (vget x) j /\
    between (staticLimit mb sj (dQ dy r) (dAlpha dy r) tl NInf j) (storedTorque m2 j) (staticLimit mb sj (dQ dy r) (dAlpha dy r) tu PInf j).
Proof.
  intros H W NZ Hc C HN PW FO MH HD MR X Y.
  assert (B : between2 nm mbs lssol kinds pre uni bi r m0 (qData s) m s) by (split; [eauto|split; [reflexivity|eauto 10]]).
  pose proof (torqueCycles_step _ _ _ _ _ _ _ _ _ _ _ _ _ _ _ _ _ _ W NZ C HN PW _ _ _ _ B X) as B1.
  exact (proj2 (torqueCycle_step _ _ _ _ _ _ _ _ _ _ _ _ _ _ _ _ _ _ W NZ C HN PW _ _ _ _ _ _ B1 Y)).
Qed.
Lemma torque_rate_lemma nm mbs lssol kinds pre uni bi post s num c r tl tu tdl tdu dt sj m0 ops h m dy1 x1 dy2 x2 m1 s1 m2 s2 m3 s3 :
  history lssol kinds (pre ++ OpNrVars mbs uni bi :: post) = Ok s -> Forall wfMimic mbs -> nonzeroMimics mbs ->
  Forall (fun o => ~ resizesOrSwitches o) post -> contract num ->
  newMotion mbs r tl tu tdl tdu dt sj = Ok m0 -> pathsWf nm mbs ->
  Forall (opData (fun d => sizesOf mbs d /\ noSelf r d)) ops -> mhRun (fun d dy => invTorque nm mbs d dy r) mh0 ops = Some h -> hData h = Some (qData s) ->
  moRun nm mbs m0 ops = Ok m ->
  torqueCycles nm mbs lssol kinds num c (m, s) (m1, s1) -> torqueCycle nm mbs lssol kinds num c dy1 x1 (m1, s1) (m2, s2) ->
  torqueCycle nm mbs lssol kinds num c dy2 x2 (m2, s2) (m3, s3) ->
  exists mb, nth_error mbs r = Some mb /\ forall j, (j < nrDof mb)%nat ->
    between (emulr (nth j (concat tdl) NInf) dt) (storedTorque m3 j - storedTorque m2 j) (emulr (nth j (concat tdu) PInf) dt).
Proof.
  intros H W NZ Hc C HN PW FO MH HD MR X Y Z.
  assert (B : between2 nm mbs lssol kinds pre uni bi r m0 (qData s) m s) by (split; [eauto|split; [reflexivity|eauto 10]]).
  pose proof (torqueCycles_step _ _ _ _ _ _ _ _ _ _ _ _ _ _ _ _ _ _ W NZ C HN PW _ _ _ _ B X) as B1.
  exact (torqueRate_step _ _ _ _ _ _ _ _ _ _ _ _ _ _ _ _ _ _ W NZ C HN PW _ _ _ _ _ _ _ _ _ _ B1 Y Z).
Qed.
