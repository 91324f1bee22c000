(** Concrete planes. *)
From Verif Require Export PlaneFacts ContactFacts.
Open Scope list_scope.
Open Scope R_scope.

Definition aX (damping off : R) : planeSpec := stillPlane 1 (mkV3 1 0 0) 0 2 1 damping off.
Definition aY (damping off : R) : planeSpec := mkPlS 2 (mkV3 0 1 0) 0 2 1 damping off (mkV3 0 (1 / 2) 0) (mkV3 0 0 1).
(** The first joint moves the centre of mass along x, the second one along y. *)
Definition aK (x y u v : R) : ckin := mkCK (mkV3 x y 0) (fun m j => if Nat.eqb m j then 1 else 0) (mkV3 u v 0) v0.
Definition aSel : vec R := mkVec 2 (fun j => if Nat.eqb j 0 then 1 else 1 / 2).

Lemma aDistX damping off x y u v : plDist (aX damping off) (aK x y u v) = x.
Proof. unfold plDist, aX, aY, stillPlane, dot. cbn. lra. Qed.
Lemma aDistY damping off x y u v : plDist (aY damping off) (aK x y u v) = y.
Proof. unfold plDist, aX, aY, stillPlane, dot. cbn. lra. Qed.
Lemma aRateX damping off x y u v : plRate (aX damping off) (aK x y u v) = u.
Proof. unfold plRate, aX, aY, stillPlane, dot, vsub. cbn. lra. Qed.
Lemma aRateY damping off x y u v : plRate (aY damping off) (aK x y u v) = v - 1 / 2.
Proof. unfold plRate, aX, aY, stillPlane, dot, vsub. cbn. lra. Qed.

Lemma aReaches ops pre : ops = pre ++ [LNr wData] -> (forall o, In o pre -> match o with LNr _ | LUp _ => False | _ => True end) ->
  exists c, plReaches wMbs 0 wData 1 ops c.
Proof.
  intros -> H. assert (X : exists c0, newPlanes wMbs 0 1 = Ok c0 /\ exists c, plRun wMbs c0 (pre ++ [LNr wData]) = Ok c).
  { eexists. split; [reflexivity|]. match goal with |- context [plRun wMbs ?s _] => assert (R0 : pcRobot s = 0%nat) by reflexivity; revert R0; generalize s end.
    induction pre as [|o pre IH]; intros s R0.
    - cbn. unfold plNrVars. rewrite R0. cbn. eauto.
    - assert (HO := H o (or_introl eq_refl)). cbn [app plRun]. destruct o; try contradiction; cbn [plStep bind]; apply IH; auto; try (intros o' Ho; apply H; right; exact Ho).
      unfold rmPlane. destruct (erasePlane id (pcData s)). exact R0. }
  destruct X as (c0 & N0 & c & RN). exists c. split; [eauto|]. split; [exists [], wBi, wDeps; exact wData_eq|].
  exists pre, [], []. split; [reflexivity|]. split; [constructor|]. split; [constructor|]. left. reflexivity.
Qed.

(** Two planes, one update with both of them out of reach, then one with both within reach. *)
Definition aOps : list plOp := [LAdd (aX (3 / 2) 0); LAdd (aY 0 (1 / 4)); LSel aSel; LNr wData].
Lemma aReach : exists c c1, plReaches wMbs 0 wData 1 aOps c /\ plReaches wMbs 0 wData 1 (aOps ++ [LUp (aK 3 3 0 0)]) c1 /\ plUpdate wMbs (aK 3 3 0 0) c = Ok c1.
Proof.
  destruct (aReaches aOps [LAdd (aX (3 / 2) 0); LAdd (aY 0 (1 / 4)); LSel aSel] eq_refl) as (c & HR).
  { intros o [<-|[<-|[<-|[]]]]; exact I. }
  destruct (reaches_ups_pl wMbs 0 wData 1 aOps c (fun _ => aK 3 3 0 0) HR) with (n := 1%nat) as (c1 & E & R1).
  { repeat constructor; cbn; lra. }
  { reflexivity. }
  exists c, c1. split; [auto|]. split; [exact R1|]. unfold ups in E. cbn [seq map plRun plStep] in E. apply bind_Ok in E as (c2 & E & E'). injection E' as <-. exact E.
Qed.
Definition aNow : ckin := aK (3 / 2) (3 / 2) (-1) 0.
Lemma aWithin hs : withinPlanes aNow [(aX (3 / 2) 0, hs); (aY 0 (1 / 4), hs)] = [(aX (3 / 2) 0, hs); (aY 0 (1 / 4), hs)].
Proof.
  unfold withinPlanes, withinb, aNow. cbn [filter fst]. rewrite aDistX, aDistY. cbn [aX aY stillPlane plDi]. rewrite (proj2 (Rleb_true _ _)) by lra. reflexivity.
Qed.

(** The first plane is exactly at its interactive distance, the second one is closer. *)
Definition aEdge : ckin := aK 2 (3 / 2) (-1) 0.
Lemma desc_plane_refuted_lemma : exists mbs r d step ops c K c' p hs q, plReaches mbs r d step ops c /\ plSound (planesAfter ops) /\
  vlen (selOf mbs r ops) = nrDof (robot mbs r) /\ plUpdate mbs K c = Ok c' /\
  nth_error (withinPlanes K (planesAfter ops)) 0 = Some (p, hs) /\ plDescInEq c' 0 = Some q /\ dpId q <> plId p /\
  iqNr (plInEq c') = 2%nat /\ plDescInEq c' 1 = None.
Proof.
  destruct (aReaches aOps [LAdd (aX (3 / 2) 0); LAdd (aY 0 (1 / 4)); LSel aSel] eq_refl) as (c & HR).
  { intros o [<-|[<-|[<-|[]]]]; exact I. }
  assert (SO : plSound (planesAfter aOps)) by (repeat constructor; cbn; lra).
  destruct (plane_update wMbs 0 wData 1 aOps c aEdge HR SO eq_refl) as (c' & E & N & F & _).
  assert (W : withinPlanes aEdge (planesAfter aOps) = [(aX (3 / 2) 0, []); (aY 0 (1 / 4), [])]).
  { unfold withinPlanes, withinb, aEdge. cbn [planesAfter aOps planesFrom app filter fst]. rewrite aDistX, aDistY. cbn [aX aY stillPlane plDi]. rewrite !(proj2 (Rleb_true _ _)) by lra. reflexivity. }
  inversion F as [|? q1 ? l1 (S1 & D1 & _) F1]; subst. inversion F1 as [|? q2 ? l2 (S2 & D2 & _) F2]; subst. inversion F2; subst.
  cbn [snocK fst snd] in *. specialize (D1 _ _ eq_refl). specialize (D2 _ _ eq_refl). unfold aEdge in D1, D2. rewrite aDistX in D1. rewrite aDistY in D2.
  exists wMbs, 0%nat, wData, 1, aOps, c, aEdge, c', (aX (3 / 2) 0), [], (mkPDesc 2 (mkV3 0 1 0) 0 (3 / 2) 2 1 (pnDamping q2) (mkV3 0 (1 / 2) 0) (mkV3 0 0 1)).
  split; [exact HR|]. split; [exact SO|]. split; [reflexivity|]. split; [exact E|]. rewrite W. split; [reflexivity|].
  unfold plDescInEq. match goal with H : _ = pcData c' |- _ => rewrite <- H end. cbn [plDescLoop].
  rewrite S1, S2, D1, D2. cbn [aX aY stillPlane plDi plDs plId plN plO plSpeed plNDot]. rewrite (proj2 (Rltb_false 2 2)) by lra. rewrite (proj2 (Rltb_true (3 / 2) 2)) by lra. cbn [Nat.eqb].
  split; [reflexivity|]. split; [cbn; lia|]. split; [rewrite N, W; reflexivity|reflexivity].
Qed.

(** A plane added while the centre of mass is within reach and moves away. *)
Definition aAway : ckin := aK (3 / 2) 5 1 0.
Lemma away_refuted_lemma : exists mbs r d step ops c K c' p x, plReaches mbs r d step ops c /\ plSound (planesAfter ops) /\
  vlen (selOf mbs r ops) = nrDof (robot mbs r) /\ plUpdate mbs K c = Ok c' /\ nth_error (withinPlanes K (planesAfter ops)) 0 = Some (p, []) /\
  plDs p < plDist p K /\ 0 <= plDamping p /\ 0 <= plOff p /\ 0 < plRate p K /\ 0 < plNext step (nrDof (robot mbs r)) (beginOf d r) (selOf mbs r ops) p K x /\
  ~ holdsRow (sdNrVars d) x (plInEq c') 0.
Proof.
  destruct (aReaches [LAdd (aX 0 0); LNr wData] [LAdd (aX 0 0)] eq_refl) as (c & HR). { intros o [<-|[]]; exact I. }
  assert (SO : plSound (planesAfter [LAdd (aX 0 0); LNr wData])) by (repeat constructor; cbn; lra).
  destruct (plane_rows wMbs 0 wData 1 _ c aAway HR SO eq_refl) as (c' & E & N & ROWS).
  assert (W : withinPlanes aAway (planesAfter [LAdd (aX 0 0); LNr wData]) = [(aX 0 0, [])]).
  { unfold withinPlanes, withinb, aAway. cbn [planesAfter planesFrom app filter fst]. rewrite aDistX. cbn [aX stillPlane plDi]. rewrite !(proj2 (Rleb_true _ _)) by lra. reflexivity. }
  destruct (ROWS 0%nat (aX 0 0) []) as (xi & FO & RW); [rewrite W; reflexivity|]. cbn [app] in FO.
  assert (XI : xi = -2).
  { destruct FO as [(H & _)|(_ & K0 & (pre & post & E1 & _ & _) & ->)]; [cbn in H; lra|]. destruct pre as [|? pre]; [|destruct pre; discriminate]. injection E1 as <- _.
    unfold plEntry, aAway. rewrite aDistX, aRateX. cbn. destruct (Rle_dec _ _); lra. }
  assert (NX : plNext 1 (nrDof (robot wMbs 0)) (beginOf wData 0) (selOf wMbs 0 [LAdd (aX 0 0); LNr wData]) (aX 0 0) aAway (fun j => if Nat.eqb j 0 then - (1 / 2) else 0) = 1 / 2).
  { unfold plNext, aAway. rewrite aRateX. unfold comAcc, dot, vadd, vsub. cbn. lra. }
  do 8 eexists. exists (aX 0 0), (fun j => if Nat.eqb j 0 then - (1 / 2) else 0). split; [exact HR|]. split; [exact SO|]. split; [reflexivity|]. split; [exact E|]. rewrite W. split; [reflexivity|].
  rewrite NX. unfold aAway at 1 2. rewrite aDistX, aRateX. cbn [aX stillPlane plDs plDamping plOff].
  split; [lra|]. split; [lra|]. split; [lra|]. split; [lra|]. split; [lra|]. intros HH. apply RW in HH. rewrite NX, XI in HH. unfold aAway in HH. rewrite aDistX in HH. cbn in HH. lra.
Qed.

(** Closed loop: distances 2, 3/2, 5/4, ... *)
Definition bK (n : nat) : ckin := aK (1 + (/ 2) ^ n) 5 (- (/ 2) ^ n) 0.
Definition bX (n : nat) (j : nat) : R := if Nat.eqb j 0 then (/ 2) ^ S n else 0.
Definition bOps : list plOp := [LAdd (aX (1 / 2) 0); LNr wData].
Lemma half_pos n : 0 < (/ 2) ^ n.
Proof. apply pow_lt. lra. Qed.
Lemma half_le n : (/ 2) ^ n <= 1.
Proof. induction n as [|n IH]; simpl; [lra|]. pose proof (half_pos n). lra. Qed.
Lemma bNext n : plNext 1 (nrDof (robot wMbs 0)) (beginOf wData 0) (selOf wMbs 0 bOps) (aX (1 / 2) 0) (bK n) (bX n) = - (/ 2) ^ S n.
Proof. unfold plNext, bK. rewrite aRateX. unfold comAcc, bX, dot, vadd, vsub. cbn. lra. Qed.
Lemma bReach : exists c, plReaches wMbs 0 wData 1 bOps c.
Proof. apply (aReaches bOps [LAdd (aX (1 / 2) 0)] eq_refl). intros o [<-|[]]; exact I. Qed.
Lemma bSound : plSound (planesAfter bOps).
Proof. repeat constructor; cbn; lra. Qed.
Lemma bRows c : plReaches wMbs 0 wData 1 bOps c -> forall n c', plRun wMbs c (ups bK (S n)) = Ok c' -> holdsIneq (sdNrVars wData) (bX n) (plInEq c').
Proof.
  intros HR n c' E. destruct (reaches_ups_pl wMbs 0 wData 1 bOps c bK HR bSound eq_refl n) as (c1 & E1 & R1).
  rewrite ups_S, plRun_app, E1 in E. cbn [bind plRun plStep] in E. apply bind_Ok in E as (c2 & E & E'). injection E' as <-.
  assert (SL : selOf wMbs 0 (bOps ++ ups bK n) = selOf wMbs 0 bOps) by (unfold selOf; rewrite selFrom_app, sel_ups; auto).
  assert (P1 : planesAfter (bOps ++ ups bK n) = [(aX (1 / 2) 0, map bK (seq 0 n))]) by (unfold planesAfter; rewrite planesFrom_app, planes_ups; reflexivity).
  destruct (plane_rows wMbs 0 wData 1 _ c1 (bK n) R1) as (c3 & E3 & N & ROWS); [rewrite P1; repeat constructor; cbn; lra|rewrite SL; reflexivity|]. rewrite E in E3. injection E3 as <-.
  pose proof (half_pos n) as HP. pose proof (half_le n) as HL.
  assert (W : withinPlanes (bK n) (planesAfter (bOps ++ ups bK n)) = [(aX (1 / 2) 0, map bK (seq 0 n))]).
  { rewrite P1. unfold withinPlanes, withinb, bK. cbn [filter fst]. rewrite aDistX. cbn [aX stillPlane plDi]. rewrite (proj2 (Rleb_true _ _)) by lra. reflexivity. }
  intros k Hk. rewrite N, W in Hk. cbn in Hk. assert (k = 0%nat) as -> by lia. destruct (ROWS 0%nat (aX (1 / 2) 0) (map bK (seq 0 n))) as (xi & FO & RW); [rewrite W; reflexivity|].
  assert (XI : xi = 1 / 2) by (destruct FO as [(_ & ->)|(H & _)]; [reflexivity|cbn in H; lra]).
  apply RW. rewrite SL, bNext, XI. unfold bK. rewrite aDistX. cbn. lra.
Qed.
