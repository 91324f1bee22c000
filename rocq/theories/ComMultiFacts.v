(** The kinematics of MultiCoMTask. *)
From Verif Require Import ComModel ComSpec ComFacts KinFacts KinTaskFacts MultiWitness Lists.
From Coq Require Import Lra Lia.
Open Scope list_scope.
Open Scope R_scope.
Local Arguments sumn : simpl never.

Definition mbOf (rb : list robot) (r : nat) : multibody := match nth_error rb r with Some m => fst m | None => mkMB [] end.
(** The Jacobians after the constructor and updateInertialParameters. *)
Fixpoint jacsFormed (rb : list robot) (rs : list nat) (ws : list R) (js : list comJac) : Prop :=
  match rs, ws, js with
  | [], _, [] => True
  | r :: rs', w :: ws', j :: js' => (exists m, nth_error rb r = Some m /\ formed (snd m) (repeat w (length (snd m))) j) /\ jacsFormed rb rs' ws' js'
  | _, _, _ => False
  end.
Lemma jacsNew_formed rb : forall rs ws js, jacsNew rb rs ws = Ok js -> jacsFormed rb rs ws js.
Proof.
  induction rs as [|r rs IH]; intros ws js E; cbn [jacsNew] in E; [injection E as <-; exact I|]. destruct ws as [|w ws]; [discriminate|].
  apply bind_Ok in E as (m & E1 & E). apply bind_Ok in E as (j & E2 & E). apply bind_Ok in E as (l & E3 & E). injection E as <-. split; [|apply IH; exact E3].
  exists m. split; [apply vec_at_Ok; exact E1|]. apply (cjNew_formed _ _ _ E2).
Qed.
Lemma jacsWeight_formed rb : forall rs ws js js', jacsWeight rb rs ws js = Ok js' -> jacsFormed rb rs ws js'.
Proof.
  induction rs as [|r rs IH]; intros ws js js' E; cbn [jacsWeight] in E; [injection E as <-; exact I|]. destruct ws as [|w ws]; [discriminate|]. destruct js as [|j0 js]; [discriminate|].
  apply bind_Ok in E as (m & E1 & E). apply bind_Ok in E as (j & E2 & E). apply bind_Ok in E as (l & E3 & E). injection E as <-. split; [|eapply IH; exact E3].
  exists m. split; [apply vec_at_Ok; exact E1|]. apply (cjSetWeight_formed _ _ _ _ E2).
Qed.
Definition mjGiveC (o : mjOp) : option V3 := match o with MjCom c => Some c | _ => None end.
Definition mjGiveR (o : mjOp) : option (list robot) := match o with MjInertia r => Some r | _ => None end.
Lemma mj_run rs : forall ops rb T T', mcRobots (mjBase T) = rs -> robotsWeight (robotMasses rb anyK) rs = Ok (mcWeights (mjBase T)) -> jacsFormed rb rs (mcWeights (mjBase T)) (mjJacs T) -> mjRun ops T = Ok T' ->
  mcRobots (mjBase T') = rs /\ mcCom (mjBase T') = latest mjGiveC (mcCom (mjBase T)) ops /\
  robotsWeight (robotMasses (latest mjGiveR rb ops) anyK) rs = Ok (mcWeights (mjBase T')) /\ jacsFormed (latest mjGiveR rb ops) rs (mcWeights (mjBase T')) (mjJacs T').
Proof.
  induction ops as [|o ops IH]; intros rb T T' H1 H2 H3 E; cbn [mjRun] in E; [injection E as <-; auto|]. apply bind_Ok in E as (T1 & E1 & E).
  destruct o as [c|m]; cbn [mjStep] in E1; unfold latest; cbn [fold_left mjGiveC mjGiveR].
  - injection E1 as <-. exact (IH rb (mkMCJ (mkMCoM c (mcRobots (mjBase T)) (mcWeights (mjBase T)) (mcEval (mjBase T))) (mjJacs T)) T' H1 H2 H3 E).
  - apply bind_Ok in E1 as (b & E2 & E1). apply bind_Ok in E1 as (l & E3 & E1). injection E1 as <-. unfold mcInertia in E2. apply bind_Ok in E2 as (ws & E4 & E2). injection E2 as <-. rewrite H1 in *. cbn [mcRobots mcWeights] in E3.
    apply jacsWeight_formed in E3. exact (IH m (mkMCJ (mkMCoM (mcCom (mjBase T)) rs ws (mcEval (mjBase T))) l) T' eq_refl E4 E3 E).
Qed.
(** The loop of update. *)
Fixpoint sumSp (f : list comBody -> comJac -> nat -> R) (rb : list robot) (rs : list nat) (js : list comJac) : R :=
  match rs, js with r :: rs', j :: js' => f (bodiesOf rb r) j r + sumSp f rb rs' js' | _, _ => 0 end.
Fixpoint jacsOf (rb : list robot) (K : nat -> nat -> bodyKin) (rs : list nat) (js : list comJac) : list mat :=
  match rs, js with r :: rs', j :: js' => cjJacobian (mbOf rb r) (bodiesOf rb r) j (K r) :: jacsOf rb K rs' js' | _, _ => [] end.
Lemma mjLoop_form rb K : forall rs ws js, jacsFormed rb rs ws js -> exists sp na, mjLoop rb K rs js = Ok (sp, na, jacsOf rb K rs js) /\
  (forall i, sp i = sumSp (fun bs j r => cjVelocity bs j (K r) i) rb rs js) /\ (forall i, na i = sumSp (fun bs j r => cjNormalAcc bs j (K r) i) rb rs js).
Proof.
  induction rs as [|r rs IH]; intros ws js F.
  - destruct js; [|destruct F]. cbn. eexists _, _. split; [reflexivity|]. split; reflexivity.
  - destruct ws as [|w ws]; [destruct F|]. destruct js as [|j js]; [destruct F|]. destruct F as ((m & E & Fm) & F). destruct (IH _ _ F) as (sp & na & EL & S & N).
    cbn [mjLoop jacsOf sumSp]. unfold vec_at. rewrite E. cbn [bind]. destruct (coeff_nth _ _ _ _ (proj1 Fm)) as (L & _). rewrite L, Nat.leb_refl. cbn [guard bind]. rewrite EL. cbn [bind].
    unfold bodiesOf, mbOf. rewrite E. eexists _, _. split; [reflexivity|]. split; intros i; [rewrite S|rewrite N]; reflexivity.
Qed.
(** The masses. *)
Lemma robotMasses_nth rb K r : nth r (robotMasses rb K) [] = worldMasses (bodiesOf rb r) (K r).
Proof.
  unfold robotMasses, bodiesOf. destruct (nth_error rb r) as [m|] eqn:E.
  - assert (L : (r < length rb)%nat) by (apply nth_error_Some; congruence).
    assert (Q : nth_error (combine (seq 0 (length rb)) rb) r = Some (r, m)).
    { enough (G : forall k (l : list robot) q y, nth_error l q = Some y -> nth_error (combine (seq k (length l)) l) q = Some (k + q, y)%nat) by (apply (G 0%nat); exact E).
      intros k l. revert k. induction l as [|a l IH]; intros k q y H; [destruct q; discriminate|]. destruct q as [|q]; cbn in H |- *; [injection H as ->; rewrite Nat.add_0_r; reflexivity|]. rewrite (IH (S k) q y H). do 2 f_equal. lia. }
    apply (map_nth_error (fun nr => worldMasses (snd (snd nr)) (K (fst nr)))) in Q. rewrite (nth_error_nth _ _ _ Q). reflexivity.
  - assert (L : (length rb <= r)%nat) by (apply nth_error_None; exact E). rewrite nth_overflow by (rewrite map_length, combine_length, seq_length; lia). reflexivity.
Qed.
Lemma world_mass bs K : massOf (worldMasses bs K) = mass bs.
Proof. exact (proj1 (world_sum bs K 0 0%nat 1)). Qed.
Lemma group_mass rb K rs : massOf (groupBodies (robotMasses rb K) rs) = groupMass rb rs.
Proof. induction rs as [|r rs IH]; [reflexivity|]. rewrite group_cons, massOf_app, IH, robotMasses_nth, world_mass. reflexivity. Qed.
Definition sumW (rb : list robot) (K : nat -> nat -> bodyKin) : list nat -> list R -> nat -> R :=
  fix go rs ws i := match rs, ws with r :: rs', w :: ws' => w * comOf one (bodiesOf rb r) (K r) i + go rs' ws' i | _, _ => 0 end.
Lemma evalLoop_form rb K : forall rs ws js e, jacsFormed rb rs ws js -> Forall (fun r => heavy (bodiesOf rb r)) rs -> exists e', evalLoop (robotMasses rb K) rs ws e = Ok e' /\ forall i, e3 e' i = e3 e i - sumW rb K rs ws i.
Proof.
  induction rs as [|r rs IH]; intros ws js e F Hv; cbn [evalLoop].
  - exists e. split; [reflexivity|]. intros i. destruct ws; cbn; ring.
  - destruct ws as [|w ws]; [destruct F|]. destruct js as [|j js]; [destruct F|]. destruct F as ((m & E & Fm) & F). apply Forall_cons_iff in Hv as (Hr & Hv).
    assert (N : vec_at (robotMasses rb K) r = Ok (worldMasses (bodiesOf rb r) (K r))).
    { unfold vec_at. destruct (nth_error (robotMasses rb K) r) as [q|] eqn:Q; [apply nth_error_nth with (d := []) in Q; rewrite robotMasses_nth in Q; rewrite Q; reflexivity|].
      exfalso. apply nth_error_None in Q. unfold robotMasses in Q. rewrite map_length, combine_length, seq_length, Nat.min_id in Q. assert (r < length rb)%nat by (apply nth_error_Some; congruence). lia. }
    rewrite N. cbn [bind]. destruct (computeCoM_of (bodiesOf rb r) (K r) (proj2 Hr)) as (c & EC & HC). rewrite EC. cbn [bind].
    destruct (IH ws js (vsub e (vsc w c)) F Hv) as (e' & E' & He'). exists e'. split; [exact E'|]. intros i. rewrite He', e3_sub. replace (e3 (vsc w c) i) with (w * e3 c i) by (destruct i as [|[|]]; reflexivity). rewrite HC. cbn [sumW]. ring.
Qed.
Lemma sumW_group rb K rs T i : T <> 0 -> sumW rb K rs (map (fun r => mass (bodiesOf rb r) / T) rs) i = groupSum rb K rs i / T.
Proof. intros N. induction rs as [|r rs IH]; cbn [map groupSum]; [cbn; field; exact N|]. cbn [sumW]. fold (sumW rb K). rewrite IH. field. exact N. Qed.
(** Rates. *)
Lemma repeat_comOf w bs K i : comOf (fun _ => w) bs K i = w * comOf one bs K i.
Proof. unfold comOf, one. rewrite <- sumn_scal. apply sumn_ext. intros b _. destruct (nth_error bs b); [unfold Rdiv; ring|ring]. Qed.
Lemma sumW_rate rb K al ald t i : forall rs ws js, jacsFormed rb rs ws js -> Forall (fun r => heavy (bodiesOf rb r)) rs -> Forall (fun r => bodiesMove (mbOf rb r) (bodiesOf rb r) (fun s => K s r) (al r) (ald r) t) rs ->
  dlim (fun s => sumW rb (K s) rs ws i) t (sumSp (fun bs j r => cjVelocity bs j (K t r) i) rb rs js).
Proof.
  induction rs as [|r rs IH]; intros ws js F Hv M.
  - destruct js; [|destruct F]. cbn. apply (dl_ext (fun _ => 0)); [intros s; destruct ws; reflexivity|apply dl_const].
  - destruct ws as [|w ws]; [destruct F|]. destruct js as [|j js]; [destruct F|]. destruct F as ((m & E & Fm) & F). apply Forall_cons_iff in Hv as (Hr & Hv). apply Forall_cons_iff in M as (Mr & M).
    cbn [sumW sumSp]. assert (Q : bodiesOf rb r = snd m) by (unfold bodiesOf; rewrite E; reflexivity). rewrite <- Q in Fm.
    apply (dl_ext (fun s => comOf (fun _ => w) (bodiesOf rb r) (K s r) i + sumW rb (K s) rs ws i)). { intros s. rewrite repeat_comOf. reflexivity. }
    apply dl_plus; [|exact (IH ws js F Hv M)].
    apply (comOf_rate (mbOf rb r) (bodiesOf rb r) (repeat w (length (bodiesOf rb r))) j (fun _ => w) (fun s => K s r) (al r) (ald r) t i Hr Fm); [|exact Mr].
    intros b Hb. rewrite (nth_indep _ 0 w) by (rewrite repeat_length; exact Hb). apply nth_repeat.
Qed.
Lemma sumSp_speed rb K al ald t i : (i < 3)%nat -> forall rs ws js, jacsFormed rb rs ws js -> Forall (fun r => bodiesMove (mbOf rb r) (bodiesOf rb r) (fun s => K s r) (al r) (ald r) t) rs ->
  jacsDot rs (jacsOf rb (K t) rs js) (fun r q => al r t q) i = sumSp (fun bs j r => cjVelocity bs j (K t r) i) rb rs js.
Proof.
  intros Hi. induction rs as [|r rs IH]; intros ws js F M; [destruct js; reflexivity|]. destruct ws as [|w ws]; [destruct F|]. destruct js as [|j js]; [destruct F|]. destruct F as (_ & F). apply Forall_cons_iff in M as (Mr & M).
  cbn [jacsOf jacsDot sumSp]. rewrite (IH ws js F M). f_equal. exact (cj_speed (mbOf rb r) (bodiesOf rb r) j (fun s => K s r) (al r) (ald r) t i Mr Hi).
Qed.
Lemma sumSp_acc rb K al ald t i : (i < 3)%nat -> forall rs ws js, jacsFormed rb rs ws js -> Forall (fun r => bodiesMove (mbOf rb r) (bodiesOf rb r) (fun s => K s r) (al r) (ald r) t) rs ->
  dlim (fun s => sumSp (fun bs j r => cjVelocity bs j (K s r) i) rb rs js) t
    (jacsDot rs (jacsOf rb (K t) rs js) (fun r q => ald r t q) i + sumSp (fun bs j r => cjNormalAcc bs j (K t r) i) rb rs js).
Proof.
  intros Hi. induction rs as [|r rs IH]; intros ws js F M.
  - destruct js; cbn; (eapply dl_eq; [apply dl_const|ring]).
  - destruct ws as [|w ws]; [destruct F|]. destruct js as [|j js]; [destruct F|]. destruct F as (_ & F). apply Forall_cons_iff in M as (Mr & M). cbn [jacsOf jacsDot sumSp].
    eapply dl_eq; [apply dl_plus; [apply (cj_acc (mbOf rb r) (bodiesOf rb r) j (fun s => K s r) (al r) (ald r) t i Mr Hi)|exact (IH ws js F M)]|]. cbn [cjJacobian mcols]. cbv beta. ring.
Qed.
Lemma groupMass_pos rb rs : rs <> [] -> Forall (fun r => heavy (bodiesOf rb r)) rs -> 0 < groupMass rb rs.
Proof.
  intros N F. destruct rs as [|r rs]; [congruence|]. apply Forall_cons_iff in F as ((_ & P) & F). cbn [groupMass]. enough (0 <= groupMass rb rs) by lra.
  clear -F. induction F as [|x l (_ & P) _ IH]; cbn [groupMass]; lra.
Qed.
Theorem multi_com_tracks rb0 rs com0 T0 ops T K al ald t : rs <> [] -> mjNew rb0 rs com0 = Ok T0 -> mjRun ops T0 = Ok T ->
  let rb := latest mjGiveR rb0 ops in let com := latest mjGiveC com0 ops in
  Forall (fun r => heavy (bodiesOf rb r)) rs -> Forall (fun r => bodiesMove (mbOf rb r) (bodiesOf rb r) (fun s => K s r) (al r) (ald r) t) rs ->
  exists O, (forall s, mjUpdate rb (K s) T = Ok (O s)) /\
    (forall s i, (i < 3)%nat -> vget (mrEval (O s)) i = e3 com i - groupSum rb (K s) rs i / groupMass rb rs) /\
    (forall i, (i < 3)%nat -> vget (mrSpeed (O t)) i = jacsDot rs (mrJacs (O t)) (fun r q => al r t q) i) /\
    (forall i, (i < 3)%nat -> dlim (fun s => vget (mrEval (O s)) i) t (- vget (mrSpeed (O t)) i)) /\
    (forall i, (i < 3)%nat -> dlim (fun s => vget (mrSpeed (O s)) i) t (jacsDot rs (mrJacs (O t)) (fun r q => ald r t q) i + vget (mrNAcc (O t)) i)).
Proof.
  intros NE E0 ER rb com Hv M. unfold mjNew in E0. apply bind_Ok in E0 as (b0 & E1 & E0). apply bind_Ok in E0 as (l0 & E2 & E0). injection E0 as <-. unfold newMCoM in E1. apply bind_Ok in E1 as (ws0 & E3 & E1). injection E1 as <-. cbn [mcWeights] in E2. apply jacsNew_formed in E2.
  destruct (mj_run rs ops rb0 (mkMCJ (mkMCoM com0 rs ws0 v0) l0) T eq_refl E3 E2 ER) as (R1 & R2 & R3 & F). fold rb in R3, F. cbn [mjBase mcCom] in R2. fold com in R2.
  set (ws := mcWeights (mjBase T)) in *. set (js := mjJacs T) in *.
  apply robotsWeight_Ok in R3 as (R3 & _). rewrite group_mass in R3.
  assert (R4 : ws = map (fun r => mass (bodiesOf rb r) / groupMass rb rs) rs). { rewrite R3. apply map_ext. intros r. rewrite robotMasses_nth, world_mass. reflexivity. }
  pose proof (groupMass_pos rb rs NE Hv) as P.
  assert (U : forall s, exists o, mjUpdate rb (K s) T = Ok o /\ (forall i, vget (mrEval o) i = e3 com i - sumW rb (K s) rs ws i) /\ (forall i, vget (mrSpeed o) i = sumSp (fun bs j r => cjVelocity bs j (K s r) i) rb rs js) /\
     (forall i, vget (mrNAcc o) i = sumSp (fun bs j r => cjNormalAcc bs j (K s r) i) rb rs js) /\ mrJacs o = jacsOf rb (K s) rs js).
  { intros s. unfold mjUpdate, mcEvalUpdate. rewrite R1, R2. fold ws js. destruct (evalLoop_form rb (K s) rs ws js com F Hv) as (e & EE & HE). rewrite EE. cbn [bind].
    destruct (mjLoop_form rb (K s) rs ws js F) as (sp & na & EL & S & N). rewrite EL. cbn [bind]. eexists. split; [reflexivity|]. cbn [mrEval mrSpeed mrNAcc mrJacs vget vec3 mcEval]. repeat split; assumption. }
  set (O := fun s => match mjUpdate rb (K s) T with Ok o => o | _ => mkMR (vfill 0 0) (vfill 0 0) (vfill 0 0) [] end).
  assert (HU : forall s, mjUpdate rb (K s) T = Ok (O s) /\ (forall i, vget (mrEval (O s)) i = e3 com i - sumW rb (K s) rs ws i) /\ (forall i, vget (mrSpeed (O s)) i = sumSp (fun bs j r => cjVelocity bs j (K s r) i) rb rs js) /\
     (forall i, vget (mrNAcc (O s)) i = sumSp (fun bs j r => cjNormalAcc bs j (K s r) i) rb rs js) /\ mrJacs (O s) = jacsOf rb (K s) rs js).
  { intros s. unfold O. destruct (U s) as (o & -> & Q). auto. }
  clearbody O. exists O. split; [intros s; apply (HU s)|]. split; [|split; [|split]].
  - intros s i _. rewrite (proj1 (proj2 (HU s))). f_equal. rewrite R4. apply sumW_group. lra.
  - intros i Hi. destruct (HU t) as (_ & _ & S & _ & J). rewrite S, J. symmetry. exact (sumSp_speed rb K al ald t i Hi rs ws js F M).
  - intros i Hi. destruct (HU t) as (_ & _ & S & _ & J). rewrite S. apply (dl_ext (fun s => e3 com i - sumW rb (K s) rs ws i)). { intros s. symmetry. apply (HU s). }
    eapply dl_eq; [apply dl_minus; [apply dl_const|exact (sumW_rate rb K al ald t i rs ws js F Hv M)]|]. ring.
  - intros i Hi. destruct (HU t) as (_ & _ & _ & N & J). rewrite N, J. apply (dl_ext (fun s => sumSp (fun bs j r => cjVelocity bs j (K s r) i) rb rs js)). { intros s. symmetry. apply (HU s). }
    exact (sumSp_acc rb K al ald t i Hi rs ws js F M).
Qed.
(** Definedness. *)
Lemma massive_of rb K rs : Forall (fun r => (r < length rb)%nat /\ heavy (bodiesOf rb r)) rs -> massive rs (robotMasses rb K).
Proof.
  intros F. unfold massive. eapply Forall_impl; [|exact F]. intros r (L & (_ & P)). rewrite robotMasses_nth, world_mass. split; [|exact P]. unfold robotMasses. rewrite map_length, combine_length, seq_length. lia.
Qed.
Lemma jacs_def rb : forall rs ws, length ws = length rs -> Forall (fun r => (r < length rb)%nat /\ heavy (bodiesOf rb r)) rs -> (exists js, jacsNew rb rs ws = Ok js /\ length js = length rs) /\ forall js, length js = length rs -> exists js', jacsWeight rb rs ws js = Ok js' /\ length js' = length rs.
Proof.
  induction rs as [|r rs IH]; intros [|w ws] L F; try discriminate; cbn [jacsNew jacsWeight].
  - split; [exists []; auto|]. intros js _. exists []. auto.
  - apply Forall_cons_iff in F as ((Lr & Hr) & F). destruct (IH ws ltac:(cbn in L; lia) F) as ((js0 & E0 & L0) & G). unfold vec_at. destruct (nth_error rb r) as [m|] eqn:E; [|apply nth_error_None in E; lia]. cbn [bind].
    assert (Q : bodiesOf rb r = snd m) by (unfold bodiesOf; rewrite E; reflexivity). rewrite Q in Hr. destruct Hr as (_ & P).
    assert (D : exists l, coeffLoop (bodiesMass (snd m)) (snd m) (repeat w (length (snd m))) = Ok l) by (apply coeff_def; [rewrite bodiesMass_sum; lra|rewrite repeat_length; lia]). destruct D as (l & D).
    unfold cjNew, cjSetWeight, cjInertia. rewrite repeat_length, Nat.eqb_refl. cbn [cjWeight]. rewrite D. cbn [bind]. rewrite E0. cbn [bind]. split; [eexists; split; [reflexivity|cbn; lia]|].
    intros [|j js] Lj; [discriminate|]. destruct (G js ltac:(cbn in Lj; lia)) as (js' & -> & L'). cbn [bind]. eexists. split; [reflexivity|cbn; lia].
Qed.
Theorem multi_defined rb0 rs com0 ops : rs <> [] -> Forall (fun r => (r < length rb0)%nat /\ heavy (bodiesOf rb0 r)) rs ->
  Forall (fun o => match o with MjInertia rb => Forall (fun r => (r < length rb)%nat /\ heavy (bodiesOf rb r)) rs | MjCom _ => True end) ops -> exists T0 T, mjNew rb0 rs com0 = Ok T0 /\ mjRun ops T0 = Ok T.
Proof.
  intros NE F FO. destruct (robotsWeight_def _ rs NE (massive_of rb0 anyK rs F)) as (ws & EW).
  assert (LW : forall rb ws, robotsWeight (robotMasses rb anyK) rs = Ok ws -> length ws = length rs) by (intros rb w E; apply robotsWeight_Ok in E as (-> & _); apply map_length).
  destruct (jacs_def rb0 rs ws (LW _ _ EW) F) as ((js & EJ & LJ) & _). unfold mjNew, newMCoM. rewrite EW. cbn [bind mcWeights]. rewrite EJ. cbn [bind]. eexists.
  enough (G : forall T, mcRobots (mjBase T) = rs -> length (mjJacs T) = length rs -> exists T', mjRun ops T = Ok T') by (destruct (G (mkMCJ (mkMCoM com0 rs ws v0) js) eq_refl LJ) as (T & R); exists T; split; [reflexivity|exact R]).
  clear -FO NE LW. induction FO as [|o ops Ho _ IH]; intros T H1 H2; cbn [mjRun]; [eauto|]. destruct o as [c|rb]; cbn [mjStep bind].
  - apply IH; assumption.
  - unfold mcInertia. rewrite H1. destruct (robotsWeight_def _ rs NE (massive_of rb anyK rs Ho)) as (ws & EW). rewrite EW. cbn [bind mcRobots mcWeights].
    destruct (proj2 (jacs_def rb rs ws (LW _ _ EW) Ho) (mjJacs T) H2) as (js' & EJ & LJ). rewrite EJ. cbn [bind]. apply IH; [reflexivity|exact LJ].
Qed.
