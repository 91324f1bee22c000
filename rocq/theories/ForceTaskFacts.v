(** Vocabulary of the properties of ContactTask and GripperTorqueTask, and lemmas. *)
From Verif Require Import MotionProofs LayoutProofs ContactProofs ContactRowsProofs PlaneProofs SetPointFacts GripperFacts.
From Verif Require Export ForceTaskModel GripperSpec MotionSpec SetPointSpec.
From Coq Require Import Lra.
Open Scope list_scope.
Open Scope R_scope.
Local Arguments sumn : simpl never.

(** [c] is the first contact of [cs] with the id, and has number [k]. *)
Definition isFirst (id : contactId) (cs : list bilateral) (k : nat) (c : bilateral) : Prop :=
  nth_error cs k = Some c /\ bId c = id /\ forall k' c', (k' < k)%nat -> nth_error cs k' = Some c' -> bId c' <> id.
(** Force of contact [c] on its first body for the multipliers which start at [pos] in [x]: the sum over its points. *)
Definition contactPush (c : bilateral) (x : nat -> R) (pos : nat) : V3 := fold_right vadd v0 (forces (bR1Cones c) x pos).
(** A task that acts on the variables [pos, pos + n). *)
Definition actsOn (t : task) (pos n : nat) : Prop := tkBegin t = (pos, pos) /\ mrows (tkQ t) = n /\ mcols (tkQ t) = n /\ vlen (tkC t) = n.
(** A task that does nothing. *)
Definition actsNowhere (t : task) : Prop := mrows (tkQ t) = 0%nat /\ mcols (tkQ t) = 0%nat /\ vlen (tkC t) = 0%nat /\ forall x, taskCost t x = 0.

Definition ctGiveD (o : ctOp) : option (option solverData) := match o with CtNrVars d => Some (Some d) | _ => None end.
Definition ctGiveE (o : ctOp) : option V3 := match o with CtError e => Some e | _ => None end.
Definition ctGiveW (o : ctOp) : option R := match o with CtWeight w => Some w | _ => None end.
Definition ctData (P : solverData -> Prop) (o : ctOp) : Prop := match o with CtNrVars d => P d | _ => True end.
Definition gtGiveD (o : gtOp) : option (option solverData) := match o with GtNrVars d => Some (Some d) | _ => None end.
Definition gtGiveW (o : gtOp) : option R := match o with GtWeight w => Some w | _ => None end.
Definition gtData (P : solverData -> Prop) (o : gtOp) : Prop := match o with GtNrVars d => P d | _ => True end.

Lemma latest_sat {O} (g : O -> option (option solverData)) (dat : (solverData -> Prop) -> O -> Prop) (P : solverData -> Prop) :
  (forall o d, dat P o -> g o = Some (Some d) -> P d) -> forall ops od, Forall (dat P) ops -> (forall d, od = Some d -> P d) -> forall d, latest g od ops = Some d -> P d.
Proof.
  intros G. induction ops as [|o ops IH]; intros od F H d E; [apply H; exact E|]. apply Forall_cons_iff in F as (F1 & F). apply (IH (latest g od [o])); auto.
  unfold latest; cbn. intros d' Ed. destruct (g o) as [od'|] eqn:Eg; [|auto]. subst od'. eapply G; eauto.
Qed.
Lemma isFirst_unique id cs k c k' c' : isFirst id cs k c -> isFirst id cs k' c' -> k = k' /\ c = c'.
Proof.
  intros (H1 & H2 & H3) (G1 & G2 & G3). assert (k = k') as ->; [|split; congruence].
  destruct (lt_eq_lt_dec k k') as [[L|E]|L]; [|exact E|]; exfalso; [exact (G3 _ _ L H1 H2)|exact (H3 _ _ L G1 G2)].
Qed.
Lemma isFirst_S id cs b k c : bId b <> id -> isFirst id cs k c -> isFirst id (b :: cs) (S k) c.
Proof. intros N (H1 & H2 & H3). split; [exact H1|]. split; [exact H2|]. intros [|k'] c' L E; cbn in E; [injection E as <-; exact N|eapply H3; eauto; lia]. Qed.

(** The loops of ContactTask. *)
Lemma ctFind_Ok id : forall cs b begin nr cones, ctFind id cs b = Ok (begin, nr, cones) ->
  (exists k c, isFirst id cs k c /\ begin = (b + total (firstn k cs))%nat /\ nr = biLambdaCount c /\ cones = bR1Cones c) \/
  ((forall c, In c cs -> bId c <> id) /\ nr = 0%nat /\ cones = []).
Proof.
  induction cs as [|c cs IH]; intros b begin nr cones H; cbn [ctFind] in H.
  - injection H as <- <- <-. right. split; [intros c []|auto].
  - apply bind_Ok in H as (cur & HC & H). pose proof (bNrLambda_Ok_wf _ _ HC) as W. rewrite (bNrLambda_spec _ W) in HC. injection HC as <-.
    rewrite cid_eqb_dec in H. destruct (cid_dec (bId c) id) as [E|E].
    + injection H as <- <- <-. left. exists 0%nat, c. split; [|split; [unfold total; cbn; lia|auto]]. split; [reflexivity|]. split; [exact E|]. intros k' c' L. lia.
    + apply IH in H as [(k & c' & F & -> & -> & ->)|(N & -> & ->)].
      * left. exists (S k), c'. split; [apply isFirst_S; auto|]. split; [unfold total; cbn; lia|auto].
      * right. split; [intros c' [<-|I]; auto|auto].
Qed.
Lemma ctFind_def id : forall cs b, Forall wfBilateral cs -> exists r, ctFind id cs b = Ok r.
Proof.
  induction cs as [|c cs IH]; intros b F; cbn [ctFind]; [eauto|]. apply Forall_cons_iff in F as ((W & _) & F). rewrite (bNrLambda_spec c) by (unfold wfBi; lia). cbn [bind].
  destruct (cid_eqb (bId c) id); eauto.
Qed.
Definition gensOf (cones : list cone) : list V3 := flat_map generators cones.
Definition colsAt (J J' : mat) (index : nat) (gens : list V3) : Prop :=
  mrows J' = mrows J /\ mcols J' = mcols J /\ (gens <> [] -> (index + length gens <= mcols J)%nat) /\
  forall i q, (i < 3)%nat -> mget J' i q = if inr index (length gens) q then MotionModel.v3get (nth (q - index) gens v0) i else mget J i q.
Lemma colsAt_app J J1 J2 index g1 g2 : colsAt J J1 index g1 -> colsAt J1 J2 (index + length g1) g2 -> colsAt J J2 index (g1 ++ g2).
Proof.
  intros (H1 & H2 & H3 & H4) (G1 & G2 & G3 & G4). repeat split; try congruence.
  - intros N. rewrite app_length. destruct g2 as [|g g2]; [rewrite Nat.add_0_r; apply H3; rewrite app_nil_r in N; exact N|]. rewrite H2 in G3. specialize (G3 ltac:(discriminate)). lia.
  - intros i q Hi. rewrite G4, H4, app_length by auto. unfold inr.
    destruct (Nat.leb_spec (index + length g1) q), (Nat.ltb_spec q (index + length g1 + length g2)), (Nat.leb_spec index q), (Nat.ltb_spec q (index + length g1)), (Nat.ltb_spec q (index + (length g1 + length g2))); cbn; try lia; try reflexivity.
    + rewrite app_nth2 by lia. do 2 f_equal. lia.
    + rewrite app_nth1 by lia. reflexivity.
Qed.
Lemma colsAt_nil J index : colsAt J J index [].
Proof. repeat split; try congruence. intros i q _. unfold inr. cbn [length]. destruct (Nat.leb_spec index q), (Nat.ltb_spec q (index + 0)); cbn; try lia; reflexivity. Qed.
Lemma ctGens_Ok : forall gens index J index' J', ctGens gens index J = Ok (index', J') -> index' = (index + length gens)%nat /\ colsAt J J' index gens.
Proof.
  induction gens as [|g gens IH]; intros index J index' J' H; cbn [ctGens] in H.
  - injection H as <- <-. split; [cbn; lia|apply colsAt_nil].
  - apply bind_Ok in H as (J1 & HB & H). apply IH in H as (-> & HC). split; [cbn; lia|]. change (g :: gens) with ([g] ++ gens). apply (colsAt_app J J1 J'); [|cbn [length]; rewrite Nat.add_1_r; exact HC].
    apply mset_block_Ok in HB as (B1 & B2 & B3 & B4 & B5). cbn in B1, B2. repeat split; auto. intros i q Hi. rewrite B5. cbn [mrows mcols mget length].
    replace (inr 0 3 i) with true by (symmetry; apply inr_true; lia). cbn [andb]. destruct (inr index 1 q) eqn:E; auto. apply inr_true in E. replace (q - index)%nat with 0%nat by lia. rewrite Nat.sub_0_r. reflexivity.
Qed.
Lemma ctCones_Ok : forall cones index J J', ctCones cones index J = Ok J' -> colsAt J J' index (gensOf cones).
Proof.
  induction cones as [|k cones IH]; intros index J J' H; cbn [ctCones] in H.
  - injection H as <-. apply colsAt_nil.
  - apply bind_Ok in H as ((i1 & J1) & HG & H). apply ctGens_Ok in HG as (-> & HC). apply IH in H. cbn [gensOf flat_map]. eapply colsAt_app; eauto.
Qed.
Lemma ctGens_def : forall gens index J, mrows J = 3%nat -> (index + length gens <= mcols J)%nat -> exists r, ctGens gens index J = Ok r.
Proof.
  induction gens as [|g gens IH]; intros index J H1 H2; cbn [ctGens]; [eauto|]. cbn in H2.
  destruct (mset_block_def J 0 index (mkMat 3 1 (fun i _ => MotionModel.v3get g i))) as (J1 & E); [cbn; lia..|]. rewrite E. cbn [bind]. apply mset_block_Ok in E as (_ & _ & E1 & E2 & _). apply IH; lia.
Qed.
Lemma ctCones_def : forall cones index J, mrows J = 3%nat -> (index + length (gensOf cones) <= mcols J)%nat -> exists J', ctCones cones index J = Ok J'.
Proof.
  induction cones as [|k cones IH]; intros index J H1 H2; cbn [ctCones]; [eauto|]. cbn [gensOf flat_map] in H2. rewrite app_length in H2.
  destruct (ctGens_def (generators k) index J) as ((i1 & J1) & E); [lia..|]. rewrite E. cbn [bind]. apply ctGens_Ok in E as (-> & (E1 & E2 & _)). apply IH; [lia|]. unfold gensOf in *. lia.
Qed.
Lemma gensOf_count c : length (bR1Cones c) = length (bR1Points c) -> length (gensOf (bR1Cones c)) = biLambdaCount c.
Proof.
  intros H. unfold biLambdaCount. rewrite <- H, firstn_all. unfold gensOf. clear H. induction (bR1Cones c) as [|k ks IH]; cbn; auto. rewrite app_length, IH. reflexivity.
Qed.

(** The force as a sum over the columns. *)
Lemma comb_app : forall g1 g2 y, comb (g1 ++ g2) y = vadd (comb g1 y) (comb g2 (fun i => y (length g1 + i)%nat)).
Proof.
  induction g1 as [|g g1 IH]; intros g2 y; cbn [app comb length].
  - unfold vadd, v0. destruct (comb g2 y) as [a b c] eqn:E. cbn [plus]. change (fun i => y i) with y. rewrite E. cbn. f_equal; ring.
  - rewrite IH. unfold vadd. cbn. f_equal; ring.
Qed.
Lemma comb_ext : forall g y z, (forall i, (i < length g)%nat -> y i = z i) -> comb g y = comb g z.
Proof. induction g as [|v g IH]; intros y z H; cbn [comb]; auto. rewrite (H 0%nat) by (cbn; lia). f_equal. apply IH. intros i Hi. apply H. cbn; lia. Qed.
Lemma push_comb x : forall cones pos, fold_right vadd v0 (forces cones x pos) = comb (gensOf cones) (fun i => x (pos + i)%nat).
Proof.
  induction cones as [|k cones IH]; intros pos; cbn [forces fold_right gensOf flat_map]; [reflexivity|]. rewrite comb_app, IH. f_equal. apply comb_ext. intros. f_equal. lia.
Qed.
Lemma comb_get i : (i < 3)%nat -> forall g y, MotionModel.v3get (comb g y) i = sumn (length g) (fun q => MotionModel.v3get (nth q g v0) i * y q).
Proof.
  intros Hi. induction g as [|v g IH]; intros y; cbn [comb length].
  - destruct i as [|[|[|i]]]; try lia; reflexivity.
  - change (S (length g)) with (1 + length g)%nat. rewrite sumn_split. unfold sumn at 1. cbn [plus nth]. rewrite <- (IH (fun i => y (S i))). destruct i as [|[|[|i]]]; try lia; cbn; ring.
Qed.

(** What the members hold after any history. *)
Definition ctInv (id : contactId) (w : R) (e : V3) (od : option solverData) (t : contactTask) : Prop :=
  ctId t = id /\ ctWeight t = w /\ ctErr t = e /\ forall d, od = Some d -> exists nr cones,
    ctFind id (sdAll d) (lambdaBegin d) = Ok (ctBegin t, nr, cones) /\ ctCones cones 0 (mzero 3 nr) = Ok (ctJac t) /\ mmul (mtrans (ctJac t)) (ctJac t) = Ok (ctQ t).
Lemma ct_run id : forall ops w e od t t', ctInv id w e od t -> ctRun ops t = Ok t' -> ctInv id (latest ctGiveW w ops) (latest ctGiveE e ops) (latest ctGiveD od ops) t'.
Proof.
  induction ops as [|o ops IH]; intros w e od t t' I H; cbn [ctRun] in H; [injection H as <-; exact I|]. apply bind_Ok in H as (t1 & S1 & H).
  assert (X : ctInv id (latest ctGiveW w [o]) (latest ctGiveE e [o]) (latest ctGiveD od [o]) t1); [|exact (IH _ _ _ _ _ X H)]. destruct I as (I1 & I2 & I3 & I4).
  destruct o; cbn [ctStep] in S1; unfold latest; cbn [fold_left ctGiveW ctGiveE ctGiveD].
  - unfold ctNrVars in S1. apply bind_Ok in S1 as (((bg & nr) & cones) & F & S1). apply bind_Ok in S1 as (J & HJ & S1). apply bind_Ok in S1 as (Q & HQ & S1). injection S1 as <-.
    unfold ctInv. cbn. repeat (split; [assumption|]). intros d' [= <-]. rewrite I1 in F. eauto 10.
  - injection S1 as <-. unfold ctInv. cbn. auto.
  - injection S1 as <-. unfold ctInv. cbn. auto.
  - injection S1 as <-. unfold ctInv. cbn. auto.
  - unfold ctUpdate in S1. apply bind_Ok in S1 as (C & HC & S1). injection S1 as <-. unfold ctInv. cbn. auto.
Qed.
Lemma ct_new id k w : ctInv id w v0 None (newCT id k w).
Proof. unfold ctInv, newCT. cbn. repeat split; auto. discriminate. Qed.

Lemma all_wf mbs d k c : sizesOf mbs d -> nth_error (sdAll d) k = Some c -> length (bR1Cones c) = length (bR1Points c).
Proof. intros (_ & F) H. rewrite Forall_forall in F. apply (F c). eapply nth_error_In; eauto. Qed.
Lemma lambda_count mbs d k c : sizesOf mbs d -> nth_error (sdAll d) k = Some c -> lambda d k = Ok (biLambdaCount c).
Proof.
  intros ((uni & bi & deps & H) & _) Hk. apply nrVarsData_spec in H as (_ & E1 & E2 & L1 & L2 & Ta & Tu & Tb & Tl & Nv & Eu & Eb & Ea & _).
  unfold lambda. apply vec_at_Ok. rewrite E2. rewrite Ea in Hk.
  replace (map uniLambdaCount uni ++ map biLambdaCount bi) with (map biLambdaCount (map biOfUni uni ++ bi)).
  - apply nth_error_map_some. exact Hk.
  - rewrite map_app, map_map. f_equal. apply map_ext. intros. apply biOfUni_count.
Qed.

Lemma contact_task_lemma mbs id k0 w0 ops t d t' : Forall (ctData (sizesOf mbs)) ops -> ctRun ops (newCT id k0 w0) = Ok t -> latest ctGiveD None ops = Some d -> ctUpdate t = Ok t' ->
  (forall k c, isFirst id (sdAll d) k c -> exists pos n, lambdaBeginAt d k = Ok pos /\ lambda d k = Ok n /\ actsOn (ctTask t') pos n /\
     costs (ctTask t') (latest ctGiveW w0 ops) (fun x => / 2 * norm2 (vsub (contactPush c x pos) (latest ctGiveE v0 ops)))) /\
  ((forall c, In c (sdAll d) -> bId c <> id) -> actsNowhere (ctTask t')).
Proof.
  intros F R HD U. assert (SZ : sizesOf mbs d).
  { eapply (latest_sat ctGiveD ctData); [|exact F| |exact HD]; [|discriminate]. intros [] d'; cbn; try discriminate. intros P [= <-]. exact P. }
  apply (ct_run id _ _ _ _ _ _ (ct_new id k0 w0)) in R as (I1 & I2 & I3 & I4). destruct (I4 d HD) as (nr & cones & HF & HJ & HQ). clear I4.
  unfold ctUpdate in U. apply bind_Ok in U as (C & HC & U). injection U as <-. apply mvec_Ok in HC as (C1 & C2 & C3). cbn [mopp mtrans mrows mcols mget] in C2, C3. apply mmul_Ok in HQ as (_ & Q1 & Q2 & Q3).
  cbn [mtrans mrows mcols mget] in Q1, Q2, Q3. apply ctCones_Ok in HJ as (J1 & J2 & J3 & J4). cbn [mzero mrows mcols] in J1, J2. rewrite J1, J2 in *. destruct (sizes_begins mbs d SZ) as (LB & _).
  apply ctFind_Ok in HF as [(k & c & FW & EB & -> & ->)|(NW & -> & ->)].
  - split; [|intros N; exfalso; destruct FW as (FW1 & FW2 & _); apply nth_error_In in FW1; exact (N _ FW1 FW2)].
    intros k' c' FW'. destruct (isFirst_unique _ _ _ _ _ _ FW' FW) as (-> & ->). clear FW'. destruct FW as (FW & _). exists (ctBegin t), (biLambdaCount c).
    split; [rewrite EB; exact (LB _ _ FW)|]. split; [eapply lambda_count; eauto|]. split; [unfold actsOn, ctTask; cbn; auto|].
    pose proof (gensOf_count c (all_wf _ _ _ _ SZ FW)) as CNT. set (e := latest ctGiveE v0 ops) in *. set (n := biLambdaCount c) in *.
    assert (K : forall x, taskCost (ctTask (mkCT (ctWeight t) (ctId t) (ctBegin t) (ctStiff t) (ctJac t) (ctErr t) (ctErrD t) (ctQ t) C)) x =
      latest ctGiveW w0 ops * (/ 2 * norm2 (vsub (contactPush c x (ctBegin t)) e) - / 2 * norm2 e)); [|intros x y; rewrite !K; ring].
    intros x. unfold taskCost, ctTask. cbn [tkWeight tkQ tkC tkBegin fst snd ctWeight ctBegin ctQ ctC]. rewrite I2, Q1, Q2. f_equal.
    set (p := ctBegin t) in *.
    rewrite (sumn_ext n _ (fun i => sumn n (fun j => x (p + i)%nat * sumn 3 (fun l => mget (ctJac t) l i * (1 * mget (ctJac t) l j)) * x (p + j)%nat)))
      by (intros i _; apply sumn_ext; intros j _; rewrite Q3; do 2 f_equal; apply sumn_ext; intros; ring).
    rewrite (quadsum n 3 (fun l i => mget (ctJac t) l i) (fun _ => 1) (fun i => x (p + i)%nat)).
    rewrite (sumn_ext n (fun i => vget C i * x (p + i)%nat) (fun i => - sumn 3 (fun l => mget (ctJac t) l i * (1 * MotionModel.v3get e l)) * x (p + i)%nat)).
    2:{ intros i _. rewrite C3. f_equal. rewrite <- sumn_opp. apply sumn_ext. intros l _. cbn [vget]. rewrite I3. ring. }
    rewrite (linsum n 3 (fun l i => mget (ctJac t) l i) (fun _ => 1) (MotionModel.v3get e) (fun i => x (p + i)%nat)).
    assert (FC : forall l, (l < 3)%nat -> sumn n (fun j => mget (ctJac t) l j * x (p + j)%nat) = MotionModel.v3get (contactPush c x p) l).
    { intros l Hl. unfold contactPush. rewrite push_comb, comb_get by exact Hl. rewrite CNT. apply sumn_ext. intros q Hq. rewrite J4 by exact Hl. rewrite CNT. replace (inr 0 n q) with true by (symmetry; apply inr_true; lia). rewrite Nat.sub_0_r. reflexivity. }
    rewrite (sumn_ext 3 _ (fun l => 1 * MotionModel.v3get (contactPush c x p) l ^ 2)) by (intros l Hl; rewrite FC by exact Hl; reflexivity).
    rewrite (sumn_ext 3 (fun k0 => 1 * MotionModel.v3get e k0 * _) (fun l => 1 * MotionModel.v3get e l * MotionModel.v3get (contactPush c x p) l)) by (intros l Hl; rewrite FC by exact Hl; reflexivity).
    unfold sumn, norm2, dot, vsub. cbn. field.
  - split; [intros k c (FW1 & FW2 & _); exfalso; apply nth_error_In in FW1; exact (NW _ FW1 FW2)|]. intros _. unfold actsNowhere, ctTask. cbn. repeat split; auto.
    intros x. unfold taskCost. cbn. rewrite Q1. unfold sumn. field.
Qed.
Lemma contact_task_defined mbs id k0 w0 ops t d : Forall (ctData (sizesOf mbs)) ops -> ctRun ops (newCT id k0 w0) = Ok t ->
  (sizesOf mbs d -> exists t', ctNrVars d t = Ok t') /\ (latest ctGiveD None ops = Some d -> exists t', ctUpdate t = Ok t').
Proof.
  intros F R. apply (ct_run id _ _ _ _ _ _ (ct_new id k0 w0)) in R as (I1 & I2 & I3 & I4). split.
  - intros SZ. unfold ctNrVars. destruct (ctFind_def (ctId t) (sdAll d) (lambdaBegin d) (proj2 SZ)) as (((bg & nr) & cones) & E). rewrite E. cbn [bind].
    assert (X : length (gensOf cones) = nr).
    { apply ctFind_Ok in E as [(k & c & FW & _ & -> & ->)|(_ & -> & ->)]; [|reflexivity]. apply gensOf_count. eapply all_wf; eauto. apply FW. }
    destruct (ctCones_def cones 0 (mzero 3 nr)) as (J & EJ); [reflexivity|cbn; lia|]. rewrite EJ. cbn [bind]. destruct (mmul_def (mtrans J) J eq_refl) as (Q & ->). cbn [bind]. eauto.
  - intros HD. destruct (I4 d HD) as (nr & cones & _ & HJ & _). apply ctCones_Ok in HJ as (J1 & _). unfold ctUpdate.
    match goal with |- context [mvec ?a ?b] => destruct (mvec_def a b) as (C & ->); [cbn; exact J1|] end. cbn [bind]. eauto.
Qed.

(** Sum of the magnitudes of the torques of the forces along the generators. *)
Fixpoint genTurn (axis top : V3) (gens : list V3) (x : nat -> R) (pos : nat) : R :=
  match gens with [] => 0 | g :: gens' => Rabs (dot axis (cross top (vsc (x pos) g))) + genTurn axis top gens' x (S pos) end.
Fixpoint turnAbout (o axis : V3) (pts : list V3) (cones : list cone) (x : nat -> R) (pos : nat) : R :=
  match pts, cones with
  | p :: pts', k :: cones' => genTurn axis (vsub p o) (generators k) x pos + turnAbout o axis pts' cones' x (pos + length (generators k))
  | _, _ => 0
  end.

(** The loops of GripperTorqueTask. *)
Definition gtGrip (t : gripTask) : gripper := mkGr (gtId t) 0 (gtOrigin t) (gtAxis t).
Definition putAt (C C' : vec R) (pos : nat) (cs : list R) : Prop :=
  vlen C' = vlen C /\ (cs <> [] -> (pos + length cs <= vlen C)%nat) /\ forall i, vget C' i = if inr pos (length cs) i then nth (i - pos) cs 0 else vget C i.
Lemma putAt_nil C pos : putAt C C pos [].
Proof. repeat split; try congruence. intros i. unfold inr. cbn [length]. destruct (Nat.leb_spec pos i), (Nat.ltb_spec i (pos + 0)); cbn; try lia; reflexivity. Qed.
Lemma putAt_app C C1 C2 pos c1 c2 : putAt C C1 pos c1 -> putAt C1 C2 (pos + length c1) c2 -> putAt C C2 pos (c1 ++ c2).
Proof.
  intros (H2 & H3 & H4) (G2 & G3 & G4). repeat split; try congruence.
  - intros N. rewrite app_length. destruct c2 as [|g c2]; [rewrite Nat.add_0_r; apply H3; rewrite app_nil_r in N; exact N|]. rewrite H2 in G3. specialize (G3 ltac:(discriminate)). lia.
  - intros q. rewrite G4, H4, app_length by auto. unfold inr.
    destruct (Nat.leb_spec (pos + length c1) q), (Nat.ltb_spec q (pos + length c1 + length c2)), (Nat.leb_spec pos q), (Nat.ltb_spec q (pos + length c1)), (Nat.ltb_spec q (pos + (length c1 + length c2))); cbn; try lia; try reflexivity.
    + rewrite app_nth2 by lia. f_equal. lia.
    + rewrite app_nth1 by lia. reflexivity.
Qed.
Lemma gtGens_Ok g p : forall gens pos C pos' C', gtGens (grAxis g) (vsub p (grOrigin g)) gens pos C = Ok (pos', C') -> pos' = (pos + length gens)%nat /\ putAt C C' pos (mags g p gens).
Proof.
  induction gens as [|v gens IH]; intros pos C pos' C' H; cbn [gtGens] in H.
  - injection H as <- <-. split; [cbn; lia|apply putAt_nil].
  - apply bind_Ok in H as (C1 & HP & H). apply IH in H as (-> & HC). split; [cbn; lia|].
    change (mags g p (v :: gens)) with ([Rabs (dot (grAxis g) (cross (vsub p (grOrigin g)) v))] ++ mags g p gens). apply (putAt_app C C1 C'); [|cbn [length]; rewrite Nat.add_1_r; exact HC].
    apply vput_at in HP as (V1 & V2 & V3). repeat split; auto; [cbn; lia|]. intros i. rewrite V3. cbn [length]. rewrite inr_one. destruct (Nat.eqb_spec i pos) as [->|]; auto. rewrite Nat.sub_diag. reflexivity.
Qed.
Lemma gtCones_Ok g pts : forall cones i pos C C', gtCones (grOrigin g) (grAxis g) pts cones i pos C = Ok C' -> (i + length cones <= Nat.max i (length pts))%nat /\ putAt C C' pos (coefs g (skipn i pts) cones).
Proof.
  induction cones as [|k cones IH]; intros i pos C C' H; cbn [gtCones] in H.
  - injection H as <-. split; [cbn; lia|]. destruct (skipn i pts); apply putAt_nil.
  - apply bind_Ok in H as (p & HP & H). apply bind_Ok in H as ((pos' & C1) & HG & H). apply vec_at_Ok in HP. apply gtGens_Ok in HG as (-> & R1). apply IH in H as (L & R2).
    assert (LT : (i < length pts)%nat) by (apply nth_error_Some; congruence). split; [cbn [length] in *; lia|]. rewrite (skipn_nth_cons _ _ _ HP). cbn [coefs]. apply (putAt_app C C1 C'); [exact R1|].
    unfold mags. rewrite map_length. exact R2.
Qed.
Lemma gtGens_def ax top : forall gens pos C, (pos + length gens <= vlen C)%nat -> exists r, gtGens ax top gens pos C = Ok r.
Proof.
  induction gens as [|v gens IH]; intros pos C H; cbn [gtGens]; [eauto|]. cbn in H. destruct (vput_def' C pos (Rabs (dot ax (cross top v)))) as (C1 & E); [lia|]. rewrite E. cbn [bind].
  apply vput_at in E as (_ & E & _). apply IH. lia.
Qed.
Lemma gtCones_def g pts : forall cones i pos C, (i + length cones <= length pts)%nat -> (pos + length (gensOf cones) <= vlen C)%nat -> exists C', gtCones (grOrigin g) (grAxis g) pts cones i pos C = Ok C'.
Proof.
  induction cones as [|k cones IH]; intros i pos C H1 H2; cbn [gtCones]; [eauto|]. cbn in H1. cbn [gensOf flat_map] in H2. rewrite app_length in H2.
  destruct (vec_at_lt' pts i) as (p & _ & ->); [lia|]. cbn [bind]. destruct (gtGens_def (grAxis g) (vsub p (grOrigin g)) (generators k) pos C) as ((pos' & C1) & E); [lia|]. rewrite E. cbn [bind].
  apply gtGens_Ok in E as (-> & (E & _)). apply IH; [lia|]. unfold gensOf in *. lia.
Qed.
Lemma gtFind_Ok t : forall bs b begin f, gtFind t bs b = Ok (begin, f) ->
  (exists k c C, isFirst (gtId t) bs k c /\ begin = (b + total (firstn k bs))%nat /\ f = Some (biLambdaCount c, C) /\ gtCones (gtOrigin t) (gtAxis t) (bR1Points c) (bR1Cones c) 0 0 (vfill (biLambdaCount c) 0) = Ok C) \/
  ((forall c, In c bs -> bId c <> gtId t) /\ f = None).
Proof.
  induction bs as [|c cs IH]; intros b begin f H; cbn [gtFind] in H.
  - injection H as <- <-. right. split; [intros c []|auto].
  - apply bind_Ok in H as (cur & HC & H). change (sumLambda (bNrLambdaAt c) 0 (length (bR1Points c))) with (bNrLambda c) in HC. pose proof (bNrLambda_Ok_wf _ _ HC) as W. rewrite (bNrLambda_spec _ W) in HC. injection HC as <-.
    rewrite cid_eqb_dec in H. destruct (cid_dec (bId c) (gtId t)) as [E|E].
    + apply bind_Ok in H as (C & HC & H). injection H as <- <-. left. exists 0%nat, c, C. split; [|split; [unfold total; cbn; lia|auto]]. split; [reflexivity|]. split; [exact E|]. intros k' c' L. lia.
    + apply IH in H as [(k & c' & C & F & -> & -> & HC)|(N & ->)].
      * left. exists (S k), c', C. split; [apply isFirst_S; auto|]. split; [unfold total; cbn; lia|auto].
      * right. split; [intros c' [<-|I]; auto|auto].
Qed.
Lemma gtFind_def t : forall bs b, Forall wfBilateral bs -> exists r, gtFind t bs b = Ok r.
Proof.
  induction bs as [|c cs IH]; intros b F; cbn [gtFind]; [eauto|]. apply Forall_cons_iff in F as ((W & _) & F). change (sumLambda (bNrLambdaAt c) 0 (length (bR1Points c))) with (bNrLambda c). rewrite (bNrLambda_spec c) by (unfold wfBi; lia). cbn [bind].
  destruct (cid_eqb (bId c) (gtId t)); [|eauto]. destruct (gtCones_def (gtGrip t) (bR1Points c) (bR1Cones c) 0 0 (vfill (biLambdaCount c) 0)) as (C & E); [cbn; lia|rewrite gensOf_count by exact W; cbn; lia|].
  cbn [gtGrip grOrigin grAxis] in E. rewrite E. cbn [bind]. eauto.
Qed.
Lemma genTurn_mags g p x : forall gens pos, (forall q, (q < length gens)%nat -> 0 <= x (pos + q)%nat) ->
  genTurn (grAxis g) (vsub p (grOrigin g)) gens x pos = sumn (length (mags g p gens)) (fun q => nth q (mags g p gens) 0 * x (pos + q)%nat).
Proof.
  induction gens as [|v gens IH]; intros pos H; cbn [genTurn]; [reflexivity|]. change (mags g p (v :: gens)) with ([Rabs (dot (grAxis g) (cross (vsub p (grOrigin g)) v))] ++ mags g p gens).
  rewrite (sumn_app_split _ _ (fun q => x (pos + q)%nat)). rewrite IH; [|intros q Hq; rewrite Nat.add_succ_comm; apply (H (S q)); cbn; lia]. f_equal.
  - unfold sumn. cbn. rewrite Nat.add_0_r. replace (dot (grAxis g) (cross (vsub p (grOrigin g)) (vsc (x pos) v))) with (dot (grAxis g) (cross (vsub p (grOrigin g)) v) * x pos) by (unfold dot, cross, vsc; cbn; ring).
    rewrite Rabs_mult, (Rabs_right (x pos)); [ring|]. apply Rle_ge. specialize (H 0%nat). rewrite Nat.add_0_r in H. apply H. cbn. lia.
  - cbn [length]. apply sumn_ext. intros q _. do 2 f_equal. lia.
Qed.
Lemma turnAbout_coefs g x : forall pts cones pos, (forall q, (q < length (gensOf cones))%nat -> 0 <= x (pos + q)%nat) ->
  turnAbout (grOrigin g) (grAxis g) pts cones x pos = sumn (length (coefs g pts cones)) (fun q => nth q (coefs g pts cones) 0 * x (pos + q)%nat).
Proof.
  induction pts as [|p pts IH]; intros [|k cones] pos H; try reflexivity. cbn [turnAbout coefs]. cbn [gensOf flat_map] in H. rewrite app_length in H.
  rewrite (sumn_app_split _ _ (fun q => x (pos + q)%nat)). rewrite genTurn_mags by (intros q Hq; apply H; lia). rewrite (IH cones) by (intros q Hq; rewrite <- Nat.add_assoc; apply H; unfold gensOf in Hq; lia). f_equal.
  unfold mags at 1. rewrite map_length. apply sumn_ext. intros q _. rewrite Nat.add_assoc. reflexivity.
Qed.

Definition gtInv (id : contactId) (o ax : V3) (w : R) (od : option solverData) (t : gripTask) : Prop :=
  gtId t = id /\ gtOrigin t = o /\ gtAxis t = ax /\ gtWeight t = w /\ forall d, od = Some d -> exists t0, gtId t0 = id /\ gtOrigin t0 = o /\ gtAxis t0 = ax /\
    exists t1, gtNrVars d t0 = Ok t1 /\ gtBegin t = gtBegin t1 /\ gtQ t = gtQ t1 /\ gtC t = gtC t1.
Lemma gt_run id o ax : forall ops w od t t', gtInv id o ax w od t -> gtRun ops t = Ok t' -> gtInv id o ax (latest gtGiveW w ops) (latest gtGiveD od ops) t'.
Proof.
  induction ops as [|op ops IH]; intros w od t t' I H; cbn [gtRun] in H; [injection H as <-; exact I|]. apply bind_Ok in H as (t1 & S1 & H).
  assert (X : gtInv id o ax (latest gtGiveW w [op]) (latest gtGiveD od [op]) t1); [|exact (IH _ _ _ _ X H)]. destruct I as (I1 & I2 & I3 & I4 & I5).
  destruct op; cbn [gtStep] in S1; unfold latest; cbn [fold_left gtGiveW gtGiveD].
  - assert (Y : gtId t1 = gtId t /\ gtOrigin t1 = gtOrigin t /\ gtAxis t1 = gtAxis t /\ gtWeight t1 = gtWeight t).
    { unfold gtNrVars in S1. apply bind_Ok in S1 as ((bg & [(n & C)|]) & _ & S1); injection S1 as <-; auto. }
    unfold gtInv. destruct Y as (-> & -> & -> & ->). repeat (split; [assumption|]). intros d' [= <-]. exists t. repeat (split; [assumption|]). eauto.
  - injection S1 as <-. unfold gtInv. cbn. auto.
  - injection S1 as <-. unfold gtInv. auto.
Qed.
Lemma bi_all mbs d k b : sizesOf mbs d -> nth_error (sdBi d) k = Some b -> nth_error (sdAll d) (length (sdUni d) + k) = Some b /\ total (firstn (length (sdUni d) + k) (sdAll d)) = (sdNrUniLambda d + total (firstn k (sdBi d)))%nat.
Proof.
  intros ((uni & bi & deps & H) & _) Hk. apply nrVarsData_spec in H as (_ & E1 & E2 & L1 & L2 & Ta & Tu & Tb & Tl & Nv & Eu & Eb & Ea & _). rewrite Ea, Eu, Eb in *. split.
  - rewrite nth_error_app2 by (rewrite map_length; lia). rewrite map_length. replace (length uni + k - length uni)%nat with k by lia. exact Hk.
  - rewrite <- (map_length biOfUni uni) at 1. rewrite firstn_app_2. unfold total. rewrite map_app, sumnat_app. f_equal. rewrite Tu, map_map. f_equal. apply map_ext. intros. apply biOfUni_count.
Qed.
Lemma gripper_task_lemma mbs id o ax w0 ops t d : Forall (gtData (sizesOf mbs)) ops -> gtRun ops (newGT id o ax w0) = Ok t -> latest gtGiveD None ops = Some d ->
  (forall k b, isFirst id (sdBi d) k b -> exists pos n, lambdaBeginAt d (length (sdUni d) + k) = Ok pos /\ lambda d (length (sdUni d) + k) = Ok n /\ actsOn (gtTask t) pos n /\
     forall x, (forall q, (pos <= q < pos + n)%nat -> 0 <= x q) ->
       taskCost (gtTask t) x = latest gtGiveW w0 ops * turnAbout o ax (bR1Points b) (bR1Cones b) x pos /\
       Rabs (torqueAbout o ax (bR1Points b) (forces (bR1Cones b) x pos)) <= turnAbout o ax (bR1Points b) (bR1Cones b) x pos /\
       (forwardOnly (mkGr id 0 o ax) b -> turnAbout o ax (bR1Points b) (bR1Cones b) x pos = torqueAbout o ax (bR1Points b) (forces (bR1Cones b) x pos))) /\
  ((forall b, In b (sdBi d) -> bId b <> id) -> actsNowhere (gtTask t)).
Proof.
  intros F R HD. assert (SZ : sizesOf mbs d).
  { eapply (latest_sat gtGiveD gtData); [|exact F| |exact HD]; [|discriminate]. intros [] d'; cbn; try discriminate. intros P [= <-]. exact P. }
  assert (I0 : gtInv id o ax w0 None (newGT id o ax w0)) by (unfold gtInv; cbn; repeat split; discriminate).
  apply (gt_run _ _ _ _ _ _ _ _ I0) in R as (I1 & I2 & I3 & I4 & I5). destruct (I5 d HD) as (t0 & T1 & T2 & T3 & t1 & N & B1 & B2 & B3). clear I0 I5.
  unfold gtNrVars in N. apply bind_Ok in N as ((bg & f) & HF & N). destruct (sizes_begins mbs d SZ) as (LB & _).
  apply gtFind_Ok in HF as [(k & b & C & FW & -> & -> & HC)|(NW & ->)]; injection N as <-; cbn [gtBegin gtQ gtC] in *.
  - rewrite T1 in *. split; [|intros X; exfalso; destruct FW as (FW1 & FW2 & _); apply nth_error_In in FW1; exact (X _ FW1 FW2)].
    intros k' b' FW'. destruct (isFirst_unique _ _ _ _ _ _ FW' FW) as (-> & ->). clear FW'. destruct FW as (FW & _). destruct (bi_all _ _ _ _ SZ FW) as (AL & TO).
    exists (gtBegin t), (biLambdaCount b). pose proof (all_wf _ _ _ _ SZ AL) as WF. pose proof (gensOf_count b WF) as CNT. change (gtOrigin t0) with (grOrigin (gtGrip t0)) in HC. change (gtAxis t0) with (grAxis (gtGrip t0)) in HC.
    apply gtCones_Ok in HC as (_ & (V1 & V2 & V3)). cbn [vlen vfill skipn] in V1.
    split; [rewrite (LB _ _ AL), TO, B1; unfold bilateralBegin, unilateralBegin, lambdaBegin; f_equal; lia|].
    split; [eapply lambda_count; eauto|]. split; [unfold actsOn, gtTask; cbn; rewrite B2, B3; auto|]. intros x POS.
    set (g := gtGrip t0) in *. assert (G : grOrigin g = o /\ grAxis g = ax) by (unfold g; cbn; auto). destruct G as (Go & Ga). rewrite <- Go, <- Ga.
    rewrite (turnAbout_coefs g) by (intros q Hq; apply POS; lia). cbn [skipn] in V3.
    assert (LC : length (coefs g (bR1Points b) (bR1Cones b)) = biLambdaCount b).
    { rewrite coefs_length by lia. rewrite <- CNT. clear. unfold gensOf, sizes. induction (bR1Cones b) as [|c cs IH]; cbn; auto. rewrite app_length, <- IH. reflexivity. }
    split; [|split].
    + unfold taskCost, gtTask. cbn [tkWeight tkQ tkC tkBegin fst snd]. rewrite I4, B2, B3. cbn [mzero mrows mcols mget]. f_equal. rewrite LC.
      rewrite (sumn_0 (biLambdaCount b)) by (intros i _; apply sumn_0; intros j _; ring). unfold Rdiv. rewrite Rmult_0_l, Rplus_0_l. apply sumn_ext. intros q Hq. rewrite V3, LC.
      replace (inr 0 (biLambdaCount b) q) with true by (symmetry; apply inr_true; lia). rewrite Nat.sub_0_r. reflexivity.
    + apply torque_bound; [lia|]. intros q Hq. apply POS. rewrite <- (coefs_length g (bR1Points b)) in Hq by lia. lia.
    + intros FWD. symmetry. apply torque_exact; [lia|]. intros i p c gen Hp Hc Hg. exact (FWD i p c gen Hp Hc Hg).
  - rewrite T1 in NW. split; [intros k b (FW1 & FW2 & _); exfalso; apply nth_error_In in FW1; exact (NW _ FW1 FW2)|]. intros _. unfold actsNowhere, gtTask. cbn. rewrite B2, B3. repeat split; auto.
    intros x. unfold taskCost. cbn. unfold sumn. field.
Qed.
Lemma gripper_task_defined mbs d t : sizesOf mbs d -> exists t', gtNrVars d t = Ok t'.
Proof.
  intros SZ. unfold gtNrVars. assert (W : Forall wfBilateral (sdBi d)).
  { destruct SZ as ((uni & bi & deps & H) & F). apply nrVarsData_spec in H as (_ & E1 & E2 & L1 & L2 & Ta & Tu & Tb & Tl & Nv & Eu & Eb & Ea & _). rewrite Ea in F. apply Forall_app in F as (_ & F). rewrite Eb. exact F. }
  destruct (gtFind_def t (sdBi d) (bilateralBegin d) W) as ((bg & [(n & C)|]) & ->); cbn [bind]; eauto.
Qed.
