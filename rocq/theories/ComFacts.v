(** The centre of mass tasks. *)
From Verif Require Import ComModel ComSpec KinFacts KinTaskFacts JacProofs MultiWitness MotionProofs.
From Coq Require Import Lra Lia.
Open Scope list_scope.
Open Scope R_scope.
Local Arguments sumn : simpl never.

Lemma sumn_S n f : sumn (S n) f = f 0%nat + sumn n (fun i => f (S i)).
Proof. exact (sumn_cons n f). Qed.
(** *** The Jacobian *)
Lemma fullRow_sum mb path g x : wfPath mb path -> sumn (nrDof mb) (fun q => fullRow mb path g q * x q) = jacDot mb path g x.
Proof.
  intros W. unfold fullRow, jacDot. rewrite (sumn_ext _ _ (fun q => sumn (pathDof mb path) (fun c => (if Nat.eqb (nth c (pathCols mb path) 0%nat) q then g c else 0) * x q))) by (intros; rewrite <- sumn_scal_r; reflexivity).
  rewrite sumn_swap. apply sumn_ext. intros c Hc.
  assert (L : (nth c (pathCols mb path) 0 < nrDof mb)%nat).
  { assert (In (nth c (pathCols mb path) 0%nat) (pathCols mb path)) as I by (apply nth_In; rewrite pathCols_length; exact Hc).
    apply in_pathCols in I as (i & Hi & B). pose proof (posInDof_le mb i (proj2 W i Hi)). lia. }
  rewrite (sumn_delta _ (nth c (pathCols mb path) 0%nat)); [rewrite Nat.eqb_refl; reflexivity|exact L|]. intros q _ N. rewrite (proj2 (Nat.eqb_neq _ _)) by auto. ring.
Qed.
Lemma cj_jac mb bs j K i x : (forall b y, nth_error bs b = Some y -> wfPath mb (cbPath y)) ->
  sumn (nrDof mb) (fun q => mget (cjJacobian mb bs j K) i q * x q) = cjBodies bs j (fun b p => jacDot mb (pathOf bs b) (fun c => e3 (linr (rbdColW p (K b) c)) i) x).
Proof.
  intros W. unfold cjJacobian, cjBodies; cbn [mget].
  rewrite (sumn_ext _ _ (fun q => sumn (length bs) (fun b => nth b (cjCoeff j) 0 * (fullRow mb (pathOf bs b) (fun c => e3 (linr (rbdColW (nth b (cjPoint j) v0) (K b) c)) i) q * x q))))
    by (intros; rewrite <- sumn_scal_r; apply sumn_ext; intros; ring).
  rewrite sumn_swap. apply sumn_ext. intros b Hb. rewrite sumn_scal. f_equal. apply fullRow_sum. unfold pathOf. destruct (nth_error bs b) eqn:E; [eapply W; exact E|apply nth_error_None in E; lia].
Qed.
Lemma cj_ext bs j f g : (forall b p x, nth_error bs b = Some x -> f b p = g b p) -> cjBodies bs j f = cjBodies bs j g.
Proof. intros H. apply sumn_ext. intros b Hb. f_equal. destruct (nth_error bs b) eqn:E; [eapply H; exact E|apply nth_error_None in E; lia]. Qed.
Lemma cj_plus bs j f g : cjBodies bs j (fun b p => f b p + g b p) = cjBodies bs j f + cjBodies bs j g.
Proof. unfold cjBodies. rewrite <- sumn_plus. apply sumn_ext. intros; ring. Qed.
Lemma cj_dl bs j (f : R -> nat -> V3 -> R) g t : (forall b p x, nth_error bs b = Some x -> dlim (fun s => f s b p) t (g b p)) -> dlim (fun s => cjBodies bs j (f s)) t (cjBodies bs j g).
Proof.
  intros H. unfold cjBodies. apply (dl_sumn (length bs) (fun s b => nth b (cjCoeff j) 0 * f s b (nth b (cjPoint j) v0)) t (fun b => nth b (cjCoeff j) 0 * g b (nth b (cjPoint j) v0))).
  intros b Hb. destruct (nth_error bs b) eqn:E; [|apply nth_error_None in E; lia]. eapply dl_eq; [apply dl_mult; [apply dl_const|apply (H b _ _ E)]|]. cbv beta. ring.
Qed.
(** Speed and acceleration of the Jacobian of a robot. *)
Lemma cj_speed mb bs j K al ald t i : bodiesMove mb bs K al ald t -> (i < 3)%nat ->
  sumn (nrDof mb) (fun q => mget (cjJacobian mb bs j (K t)) i q * al t q) = cjVelocity bs j (K t) i.
Proof.
  intros M Hi. rewrite cj_jac by (intros b y E; apply (M b y E)). apply cj_ext. intros b p x E. destruct (M b x E) as (_ & Mb). unfold pathOf. rewrite E.
  apply (rows_lin mb (cbPath x) (fun c => rbdColW p (K t b) c) (al t) (rbdVelW p (K t b)) i Hi). exact (velW_jac _ _ _ _ _ _ _ Mb).
Qed.
Lemma cj_acc mb bs j K al ald t i : bodiesMove mb bs K al ald t -> (i < 3)%nat ->
  dlim (fun s => cjVelocity bs j (K s) i) t (sumn (nrDof mb) (fun q => mget (cjJacobian mb bs j (K t)) i q * ald t q) + cjNormalAcc bs j (K t) i).
Proof.
  intros M Hi. rewrite cj_jac by (intros b y E; apply (M b y E)). unfold cjNormalAcc. rewrite <- cj_plus. unfold cjVelocity. apply cj_dl. intros b p x E. destruct (M b x E) as (_ & Mb).
  eapply dl_eq; [apply (dV_e3 (fun s => linr (rbdVelW p (K s b)))); exact (proj2 (velW_rate _ _ _ _ _ _ p Mb))|].
  cbn [linr sp_add]. rewrite e3_add. f_equal. symmetry. unfold pathOf. rewrite E. apply (rows_lin mb (cbPath x) (fun c => rbdColW p (K t b) c) (ald t) _ i Hi eq_refl).
Qed.

(** *** The coefficients *)
Lemma bodiesMass_sum bs : bodiesMass bs = mass bs.
Proof.
  unfold bodiesMass. enough (G : forall a, fold_left (fun ac b => ac + cbMass b) bs a = a + mass bs) by (rewrite G; ring).
  induction bs as [|x bs IH]; intros a; cbn [fold_left]; [unfold mass; cbn; unfold sumn; simpl; ring|]. rewrite IH. unfold mass; cbn [length]. rewrite sumn_S. cbn [nth_error]. ring.
Qed.
Lemma coeff_nth total bs : forall ws l, coeffLoop total bs ws = Ok l -> length l = length bs /\ (length bs <= length ws)%nat /\ (bs <> [] -> total <> 0) /\ forall b x, nth_error bs b = Some x -> nth b l 0 = nth b ws 0 * cbMass x / total.
Proof.
  induction bs as [|y bs IH]; intros ws l E; cbn [coeffLoop] in E; [injection E as <-; repeat split; try (simpl; lia); [congruence|intros [|b] x H; discriminate]|].
  destruct ws as [|w ws]; [discriminate|]. apply bind_Ok in E as (c & E1 & E). apply bind_Ok in E as (l' & E2 & E). injection E as <-. destruct (IH _ _ E2) as (L1 & L2 & _ & N).
  unfold divOk in E1. destruct (Req_EM_T total 0); [discriminate|]. injection E1 as <-. cbn [length]. repeat split; try lia; auto.
  intros [|b] x H; cbn in H |- *; [injection H as ->; field; assumption|apply N; exact H].
Qed.
Lemma coeff_def total bs : total <> 0 -> forall ws, (length bs <= length ws)%nat -> exists l, coeffLoop total bs ws = Ok l.
Proof.
  intros N. induction bs as [|y bs IH]; intros [|w ws] L; cbn [coeffLoop length] in *; try lia; eauto. unfold divOk. destruct (Req_EM_T total 0); [contradiction|]. cbn [bind].
  destruct (IH ws ltac:(lia)) as (l & ->). cbn [bind]. eauto.
Qed.
Definition formed (bs : list comBody) (ws : list R) (j : comJac) : Prop := coeffLoop (bodiesMass bs) bs ws = Ok (cjCoeff j) /\ cjPoint j = map comPoint bs /\ cjWeight j = ws.
Lemma cjInertia_formed bs j j' : cjInertia bs j = Ok j' -> formed bs (cjWeight j) j'.
Proof. unfold cjInertia. intros E. apply bind_Ok in E as (l & E1 & E). injection E as <-. repeat split. exact E1. Qed.
Lemma cjNew_formed bs ws j : cjNew bs ws = Ok j -> formed bs ws j /\ length ws = length bs.
Proof. unfold cjNew. destruct (Nat.eqb (length ws) (length bs)) eqn:L; [|discriminate]. intros E. apply cjInertia_formed in E. split; [exact E|apply Nat.eqb_eq; exact L]. Qed.
Lemma cjSetWeight_formed bs ws j j' : cjSetWeight bs ws j = Ok j' -> formed bs ws j'.
Proof. unfold cjSetWeight. destruct (Nat.eqb (length ws) (length bs)) eqn:L; [|discriminate]. intros E. apply cjInertia_formed in E. exact E. Qed.
(** A sum over the bodies with the coefficients: the weighted mass ratio. *)
Lemma formed_sum bs ws j f : heavy bs -> formed bs ws j ->
  cjBodies bs j f = sumn (length bs) (fun b => match nth_error bs b with Some x => nth b ws 0 * cbMass x / mass bs * f b (cbCom x) | None => 0 end).
Proof.
  intros (NN & P) (E1 & E2 & _). destruct (coeff_nth _ _ _ _ E1) as (_ & _ & _ & N). unfold cjBodies. apply sumn_ext. intros b Hb.
  destruct (nth_error bs b) as [x|] eqn:E; [|apply nth_error_None in E; lia]. rewrite (N b x E), bodiesMass_sum, E2.
  rewrite (nth_indep (map comPoint bs) v0 (comPoint x)) by (rewrite map_length; exact Hb). rewrite map_nth, (nth_error_nth _ _ _ E). unfold comPoint.
  destruct (NN x (nth_error_In _ _ E)) as [L|L].
  - rewrite (proj2 (Rltb_true _ _) L). reflexivity.
  - rewrite <- L. unfold Rdiv. ring.
Qed.
(** The centre of mass of the weights moves with that speed. *)
Lemma comOf_rate mb bs ws j w K al ald t i : heavy bs -> formed bs ws j -> (forall b, (b < length bs)%nat -> nth b ws 0 = w b) -> bodiesMove mb bs K al ald t ->
  dlim (fun s => comOf w bs (K s) i) t (cjVelocity bs j (K t) i).
Proof.
  intros Hv F Hw M. unfold cjVelocity. rewrite (formed_sum bs ws j _ Hv F). unfold comOf.
  apply (dl_sumn (length bs) (fun s b => match nth_error bs b with Some x => w b * cbMass x / mass bs * e3 (worldPoint (cbCom x) (K s b)) i | None => 0 end) t).
  intros b Hb. destruct (nth_error bs b) as [x|] eqn:E; [|apply nth_error_None in E; lia]. rewrite (Hw b Hb).
  eapply dl_eq; [apply dl_mult; [apply dl_const|apply (dV_e3 (fun s => worldPoint (cbCom x) (K s b))); exact (worldPoint_rate _ _ _ _ _ _ (cbCom x) (proj2 (M b x E)))]|]. cbv beta. ring.
Qed.
(** *** computeCoM *)
Lemma world_sum bs K k i : forall T, let l := map (fun nb => (cbMass (snd nb), ptr (pt_mul (pt_trans (cbCom (snd nb))) (bkPos (K (fst nb)))))) (combine (seq k (length bs)) bs) in
  massOf l = mass bs /\ e3 (momentOf l) i / T = sumn (length bs) (fun b => match nth_error bs b with Some x => cbMass x / T * e3 (worldPoint (cbCom x) (K (k + b)%nat)) i | None => 0 end).
Proof.
  revert k. induction bs as [|x bs IH]; intros k T l.
  - unfold l, massOf, mass, sumn, momentOf; simpl. split; [reflexivity|]. replace (e3 v0 i) with 0 by (destruct i as [|[|]]; reflexivity). unfold Rdiv. ring.
  - destruct (IH (S k) T) as (I1 & I2). unfold l. unfold mass in *. cbn [length seq combine map]. unfold massOf in *. cbn [map sumR momentOf]. rewrite !sumn_S. cbn [nth_error fst snd]. rewrite I1. split; [reflexivity|].
    rewrite e3_add. unfold Rdiv in *. rewrite Rmult_plus_distr_r. rewrite I2. rewrite Nat.add_0_r. f_equal.
    + replace (e3 (vsc (cbMass x) (ptr (pt_mul (pt_trans (cbCom x)) (bkPos (K k))))) i) with (cbMass x * e3 (worldPoint (cbCom x) (K k)) i) by (destruct i as [|[|]]; reflexivity). ring.
    + apply sumn_ext. intros b _. rewrite Nat.add_succ_r. reflexivity.
Qed.
Lemma computeCoM_of bs K : 0 < mass bs -> exists c, computeCoM (worldMasses bs K) = Ok c /\ forall i, e3 c i = comOf one bs K i.
Proof.
  intros P. assert (M : massOf (worldMasses bs K) = mass bs) by exact (proj1 (world_sum bs K 0 0%nat 1)). destruct (computeCoM_def (worldMasses bs K)) as (c & E); [rewrite M; lra|]. exists c. split; [exact E|].
  intros i. apply computeCoM_Ok in E as (_ & ->). unfold groupCoM. rewrite M.
  replace (e3 (vsc (/ mass bs) (momentOf (worldMasses bs K))) i) with (e3 (momentOf (worldMasses bs K)) i / mass bs) by (destruct i as [|[|]]; unfold Rdiv; cbn; ring).
  rewrite (proj2 (world_sum bs K 0 i (mass bs)) : e3 (momentOf (worldMasses bs K)) i / mass bs = _). unfold comOf, one. apply sumn_ext. intros b _. destruct (nth_error bs b); [|reflexivity]. unfold Rdiv. rewrite Rmult_1_l. reflexivity.
Qed.

(** *** CoMTask *)
Definition ctGiveC (o : ctOp) : option V3 := match o with CtCom c => Some c | _ => None end.
Definition ctGiveB (o : ctOp) : option (list comBody) := match o with CtInertia b => Some b | _ => None end.
Lemma ct_run ops : forall T T' bs ws, formed bs ws (ctJac T) -> ctRun ops T = Ok T' -> ctCom T' = latest ctGiveC (ctCom T) ops /\ formed (latest ctGiveB bs ops) ws (ctJac T').
Proof.
  induction ops as [|o ops IH]; intros T T' bs ws F E; cbn [ctRun] in E; [injection E as <-; split; [reflexivity|exact F]|]. apply bind_Ok in E as (T1 & E1 & E).
  destruct o as [c|b]; cbn [ctStep] in E1; unfold latest; cbn [fold_left ctGiveC ctGiveB].
  - injection E1 as <-. exact (IH (mkCT c (ctJac T)) T' bs ws F E).
  - apply bind_Ok in E1 as (j & E2 & E1). injection E1 as <-. apply cjInertia_formed in E2. rewrite (proj2 (proj2 F)) in E2. exact (IH (mkCT (ctCom T) j) T' b ws E2 E).
Qed.
Definition weightsOf (bs0 : list comBody) (weight : option (list R)) : list R := match weight with Some w => w | None => repeat 1 (length bs0) end.
Theorem com_tracks mb bs0 com0 weight T0 ops T K al ald t : ctNew bs0 com0 weight = Ok T0 -> ctRun ops T0 = Ok T ->
  let bs := latest ctGiveB bs0 ops in let com := latest ctGiveC com0 ops in let w b := nth b (weightsOf bs0 weight) 0 in
  heavy bs -> bodiesMove mb bs K al ald t ->
  exists H, yields 3 mb (fun s => ctUpdate mb bs (K s) T) H /\
    (forall s i, (i < 3)%nat -> vget (hErr (H s)) i = e3 com i - comOf one bs (K s) i) /\ speedIsJac 3 H al t /\ speedRate 0 3 H ald t /\
    (forall i, (i < 3)%nat -> dlim (fun s => comOf w bs (K s) i) t (vget (hSpeed (H t)) i)).
Proof.
  intros E0 ER bs com w Hv M. unfold ctNew in E0. apply bind_Ok in E0 as (j0 & EN & E0). injection E0 as <-. fold (weightsOf bs0 weight) in EN. apply cjNew_formed in EN as (F0 & _).
  destruct (ct_run ops (mkCT com0 j0) T bs0 _ F0 ER) as (HC & F). fold bs com in HC, F. cbn [ctCom] in HC. fold com in HC.
  destruct (coeff_nth _ _ _ _ (proj1 F)) as (L & _).
  assert (U : forall s, exists h, ctUpdate mb bs (K s) T = Ok h /\ (forall i, vget (hErr h) i = e3 com i - comOf one bs (K s) i) /\
     hJac h = cjJacobian mb bs (ctJac T) (K s) /\ hSpeed h = mkVec 3 (cjVelocity bs (ctJac T) (K s)) /\ hNAcc h = mkVec 3 (cjNormalAcc bs (ctJac T) (K s)) /\ vlen (hErr h) = 3%nat).
  { intros s. destruct (computeCoM_of bs (K s) (proj2 Hv)) as (c & EC & HCi). unfold ctUpdate. rewrite EC. cbn [bind]. rewrite L, Nat.leb_refl. cbn [guard bind].
    eexists. split; [reflexivity|]. cbn [hErr hJac hSpeed hNAcc vec3 vget vlen]. repeat split. intros i. rewrite HC, e3_sub, HCi. reflexivity. }
  set (H := fun s => match ctUpdate mb bs (K s) T with Ok h => h | _ => mkHL (mzero 0 0) (vfill 0 0) (vfill 0 0) (vfill 0 0) end).
  assert (HU : forall s, ctUpdate mb bs (K s) T = Ok (H s) /\ (forall i, vget (hErr (H s)) i = e3 com i - comOf one bs (K s) i) /\
     hJac (H s) = cjJacobian mb bs (ctJac T) (K s) /\ hSpeed (H s) = mkVec 3 (cjVelocity bs (ctJac T) (K s)) /\ hNAcc (H s) = mkVec 3 (cjNormalAcc bs (ctJac T) (K s)) /\ vlen (hErr (H s)) = 3%nat).
  { intros s. unfold H. destruct (U s) as (h & -> & R). auto. }
  exists H. split; [|split; [|split; [|split]]].
  - intros s. destruct (HU s) as (E1 & _ & E3 & E4 & E5 & E6). split; [exact E1|]. split; [|rewrite E3; reflexivity]. unfold hlSizes. rewrite E3, E4, E5, E6. repeat split.
  - intros s i _. apply (HU s).
  - intros i Hi. destruct (HU t) as (_ & _ & E3 & E4 & _). rewrite E3, E4. exact (cj_speed mb bs (ctJac T) K al ald t i M Hi).
  - intros i Hi. destruct (HU t) as (_ & _ & E3 & _ & E5 & _). apply (dl_ext (fun s => cjVelocity bs (ctJac T) (K s) i)). { intros s. rewrite (proj1 (proj2 (proj2 (proj2 (HU s))))). reflexivity. }
    eapply dl_eq; [apply (cj_acc mb bs (ctJac T) K al ald t i M); lia|]. unfold taskAcc. rewrite E3, E5. reflexivity.
  - intros i Hi. destruct (HU t) as (_ & _ & _ & E4 & _). rewrite E4. cbn [vget]. exact (comOf_rate mb bs _ (ctJac T) w K al ald t i Hv F (fun b _ => eq_refl) M).
Qed.
Lemma comOf_ext w w' bs K i : (forall b, (b < length bs)%nat -> w b = w' b) -> comOf w bs K i = comOf w' bs K i.
Proof. intros H. apply sumn_ext. intros b Hb. rewrite (H b Hb). reflexivity. Qed.
Theorem com_error mb bs0 com0 weight T0 ops T K al ald t : ctNew bs0 com0 weight = Ok T0 -> ctRun ops T0 = Ok T ->
  let bs := latest ctGiveB bs0 ops in let com := latest ctGiveC com0 ops in
  (forall b, (b < length bs)%nat -> nth b (weightsOf bs0 weight) 0 = 1) -> heavy bs -> bodiesMove mb bs K al ald t ->
  exists H, yields 3 mb (fun s => ctUpdate mb bs (K s) T) H /\
    (forall s i, (i < 3)%nat -> vget (hErr (H s)) i = e3 com i - comOf one bs (K s) i) /\ speedIsJac 3 H al t /\ errorRate 0 3 H t /\ speedRate 0 3 H ald t.
Proof.
  intros E0 ER bs com W1 Hv M. destruct (com_tracks mb bs0 com0 weight T0 ops T K al ald t E0 ER Hv M) as (H & Y & HE & SJ & SR & D). fold bs com in Y, HE, D. exists H. split; [exact Y|]. split; [exact HE|]. split; [exact SJ|]. split; [|exact SR].
  intros i Hi. apply (dl_ext (fun s => e3 com i - comOf (fun b => nth b (weightsOf bs0 weight) 0) bs (K s) i)). { intros s. rewrite HE by lia. f_equal. apply comOf_ext. exact W1. }
  eapply dl_eq; [apply dl_minus; [apply dl_const|apply D; lia]|]. ring.
Qed.
(** Definedness. *)
Lemma ct_defined bs0 com0 weight ops : heavy bs0 -> (match weight with Some w => length w = length bs0 | None => True end) ->
  Forall (fun o => match o with CtInertia b => heavy b /\ (length b <= length bs0)%nat | CtCom _ => True end) ops -> exists T0 T, ctNew bs0 com0 weight = Ok T0 /\ ctRun ops T0 = Ok T.
Proof.
  intros (_ & P) HW F. assert (LW : length (weightsOf bs0 weight) = length bs0) by (destruct weight; [exact HW|apply repeat_length]).
  unfold ctNew, cjNew, cjInertia. fold (weightsOf bs0 weight). rewrite (proj2 (Nat.eqb_eq _ _) LW). cbn [cjWeight].
  destruct (coeff_def (bodiesMass bs0) bs0 ltac:(rewrite bodiesMass_sum; lra) (weightsOf bs0 weight) ltac:(lia)) as (l & E). rewrite E. cbn [bind].
  eexists. enough (G : forall T, length (cjWeight (ctJac T)) = length bs0 -> exists T', ctRun ops T = Ok T') by (destruct (G (mkCT com0 (mkCJ l (map comPoint bs0) (weightsOf bs0 weight))) LW) as (T & R); exists T; split; [reflexivity|exact R]).
  clear E. induction F as [|o ops Ho _ IH]; intros T HT; cbn [ctRun]; [eauto|]. destruct o as [c|b]; cbn [ctStep bind].
  - apply IH. exact HT.
  - destruct Ho as ((_ & Pb) & Lb). unfold cjInertia. destruct (coeff_def (bodiesMass b) b ltac:(rewrite bodiesMass_sum; lra) (cjWeight (ctJac T)) ltac:(lia)) as (l' & E). rewrite E. cbn [bind]. apply IH. exact HT.
Qed.
