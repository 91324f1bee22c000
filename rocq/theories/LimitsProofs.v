(** Lemmas about the joint limit constraints. *)
From Verif Require Export LimitsSpec Lists JacProofs MotionFacts.
Open Scope list_scope.
Open Scope R_scope.

(** ** Values per joint *)
Lemma nth_concat {A} (d : A) js : forall ps i jt k, map (@length A) ps = map jdof js -> nth_error js i = Some jt -> (k < jdof jt)%nat ->
  nth (sumnat (map jdof (firstn i js)) + k) (concat ps) d = nth k (nth i ps []) d.
Proof.
  induction js as [|j js IH]; intros ps i jt k HL Hi Hk; [destruct i; discriminate|].
  destruct ps as [|p ps]; [discriminate|]. simpl in HL. injection HL as H1 H2.
  destruct i as [|i]; simpl.
  - injection Hi as ->. rewrite app_nth1 by lia. reflexivity.
  - rewrite app_nth2 by lia. rewrite H1. replace (jdof j + _ + k - jdof j)%nat with (sumnat (map jdof (firstn i js)) + k)%nat by lia. eapply IH; eauto.
Qed.
Lemma nth_perDof {A} (d : A) mb ps i k : perDofOpt mb ps -> isDof mb i k ->
  nth (jointPosInDof mb i + k) (concat ps) d = at2 ps i k d.
Proof.
  intros [->|H] (jt & Hi & Hk); unfold at2.
  - simpl. destruct (jointPosInDof mb i + k)%nat; destruct i; destruct k; reflexivity.
  - eapply nth_concat; eauto.
Qed.
Lemma length_concat' {A} (ps : list (list A)) : length (concat ps) = sumnat (map (@length A) ps).
Proof. induction ps as [|p ps IH]; simpl; [reflexivity|]. rewrite app_length, IH. reflexivity. Qed.
Lemma perDof_len {A} mb (ps : list (list A)) : perDof mb ps -> length (concat ps) = nrDof mb.
Proof. intros H. rewrite length_concat', H. reflexivity. Qed.
Lemma isDof_lt mb i k : isDof mb i k -> (jointPosInDof mb i + k < nrDof mb)%nat.
Proof.
  intros (jt & Hi & Hk). assert (L : (i < length (joints mb))%nat) by (apply nth_error_Some; congruence).
  pose proof (posInDof_le mb i L) as P. unfold jointDof in P. rewrite Hi in P. lia.
Qed.
Lemma isDof_all mb (P : nat -> Prop) : (forall i k, isDof mb i k -> P (jointPosInDof mb i + k)%nat) <-> (forall j, (j < nrDof mb)%nat -> P j).
Proof.
  split; intros H.
  - intros j Hj. destruct (dof_owner mb j Hj) as (i & jt & k & Hi & Hk & ->). apply H. exists jt. auto.
  - intros i k D. apply H. apply isDof_lt; auto.
Qed.
Lemma flat_map_ mb : flat mb -> map jparams (joints mb) = map jdof (joints mb).
Proof. unfold flat. induction 1; simpl; congruence. Qed.

Lemma paramTo_Ok {A} ps (v v' : vec A) : paramTo ps v = Ok v' -> (length (concat ps) <= vlen v)%nat /\ v' = mkVec (vlen v) (fun i => nth i (concat ps) (vget v i)).
Proof. unfold paramTo. intros H. apply bind_Ok in H as ([] & G & H). apply guard_Ok in G. apply Nat.leb_le in G. injection H as <-. auto. Qed.
Lemma paramTo_def {A} ps (v : vec A) : (length (concat ps) <= vlen v)%nat -> paramTo ps v = Ok (mkVec (vlen v) (fun i => nth i (concat ps) (vget v i))).
Proof. intros H. unfold paramTo. apply Nat.leb_le in H. rewrite H. reflexivity. Qed.
Lemma vzip_Ok {A B C} (f : A -> B -> C) a b c : vzip f a b = Ok c -> vlen a = vlen b /\ c = mkVec (vlen a) (fun i => f (vget a i) (vget b i)).
Proof. unfold vzip. intros H. apply bind_Ok in H as ([] & G & H). apply guard_Ok in G. apply Nat.eqb_eq in G. injection H as <-. auto. Qed.
Lemma vzip_def {A B C} (f : A -> B -> C) a b : vlen a = vlen b -> vzip f a b = Ok (mkVec (vlen a) (fun i => f (vget a i) (vget b i))).
Proof. intros H. unfold vzip. rewrite (proj2 (Nat.eqb_eq _ _) H). reflexivity. Qed.
Lemma vtail_Ok {A} (v v' : vec A) n : vtail v n = Ok v' -> (n <= vlen v)%nat /\ v' = mkVec n (fun i => vget v (vlen v - n + i)%nat).
Proof.
  unfold vtail, vseg. intros H. apply bind_Ok in H as ([] & G & H). apply guard_Ok in G. apply Nat.leb_le in G.
  destruct (_ <=? _)%nat in H; [|discriminate]. injection H as <-. auto.
Qed.
Lemma vtail_def {A} (v : vec A) n : (n <= vlen v)%nat -> vtail v n = Ok (mkVec n (fun i => vget v (vlen v - n + i)%nat)).
Proof.
  intros H. unfold vtail, vseg. rewrite (proj2 (Nat.leb_le _ _) H). cbn [bind guard].
  replace (vlen v - n + n <=? vlen v)%nat with true by (symmetry; apply Nat.leb_le; lia). reflexivity.
Qed.

Lemma between_emax_emin a b c a' b' c' x : between (emax (emax a b) c) x (emin (emin a' b') c') <-> between a x a' /\ between b x b' /\ between c x c'.
Proof. unfold between. rewrite !emax_le, !emin_ge. tauto. Qed.
Lemma emulr_addr_between l u dt p x : 0 < dt -> (between (eaddr (emulr l dt) p) x (eaddr (emulr u dt) p) <-> jerkOk dt l u p x).
Proof.
  intros H. unfold jerkOk, between. rewrite eaddr_le, eaddr_ge.
  assert (E : forall e y, (ele (emulr e dt) (Fin y) <-> ele e (Fin (y / dt))) /\ (ele (Fin y) (emulr e dt) <-> ele (Fin (y / dt)) e)).
  { intros e y. unfold emulr. destruct e as [|z|]; simpl; destruct (Rlt_dec 0 dt); try lra; simpl; try tauto.
    assert (y = (y / dt) * dt) by (field; lra). remember (y / dt) as w. split; split; intros; nra. }
  rewrite (proj1 (E l _)), (proj2 (E u _)). tauto.
Qed.
Lemma stepLimit_between l u dt q a x : 0 < dt ->
  (between (stepLimit dt l (q, a)) x (stepLimit dt u (q, a)) <-> between l (q + a * dt + x * (dt * dt) / 2) u).
Proof.
  intros H. unfold stepLimit, between. cbn [fst snd]. assert (0 < dt * dt * (1 / 2)) by nra.
  rewrite edivr_pos_le, edivr_pos_ge, eaddr_le, eaddr_ge by auto.
  replace (dt * dt * (1 / 2) * x - (- q - a * dt)) with (q + a * dt + x * (dt * dt) / 2) by field. tauto.
Qed.

(** ** JointLimitsConstr *)
Record jlInv (mb : multibody) (r : nat) (lq uq lad uad ladd uadd : list (list ext)) (dt : R) (od : option solverData) (m : jlim) : Prop := {
  jvR : jlRobot m = r; jvStep : jlStep m = dt; jvDt : 0 < dt;
  jvOff : jlOff m = match nth_error (joints mb) 0 with Some j => if (1 <? jdof j)%nat then jdof j else 0%nat | None => 0%nat end;
  jvMin : vlen (jlQMin m) = (nrDof mb - jlOff m)%nat; jvMax : vlen (jlQMax m) = (nrDof mb - jlOff m)%nat;
  jvMinV : jlOff m = 0%nat -> forall j, (j < nrDof mb)%nat -> vget (jlQMin m) j = nth j (concat lq) NInf;
  jvMaxV : jlOff m = 0%nat -> forall j, (j < nrDof mb)%nat -> vget (jlQMax m) j = nth j (concat uq) PInf;
  jvQ : vlen (jlQ m) = nrParams mb; jvA : vlen (jlAlpha m) = nrDof mb; jvP : vlen (jlPrev m) = nrDof mb;
  jvADL : jlADL m = mkVec (nrDof mb) (fun j => nth j (concat lad) NInf); jvADU : jlADU m = mkVec (nrDof mb) (fun j => nth j (concat uad) PInf);
  jvADDL : jlADDL m = mkVec (nrDof mb) (fun j => emulr (nth j (concat ladd) NInf) dt);
  jvADDU : jlADDU m = mkVec (nrDof mb) (fun j => emulr (nth j (concat uadd) PInf) dt);
  jvB : match od with Some d => exists b, alphaDBegin d r = Ok b /\ jlBegin m = Z.of_nat (b + jlOff m) | None => True end }.

Lemma newJL_inv mbs r lq uq lad uad ladd uadd dt m : newJL mbs r lq uq lad uad ladd uadd dt = Ok m ->
  exists mb, nth_error mbs r = Some mb /\ joints mb <> [] /\ jlInv mb r lq uq lad uad ladd uadd dt None m.
Proof.
  unfold newJL. intros H. apply bind_Ok in H as (mb & M & H). apply vec_at_Ok in M. apply bind_Ok in H as (j0 & J0 & H). apply vec_at_Ok in J0.
  apply bind_Ok in H as ([] & G & H). apply guard_Ok in G. apply Rltb_true in G.
  apply bind_Ok in H as (lq' & L1 & H). apply bind_Ok in H as (uq' & L2 & H).
  apply bind_Ok in H as ([] & G2 & H). apply guard_Ok in G2. apply andb_true_iff in G2 as (N1 & N2). apply Nat.eqb_eq in N1, N2.
  apply bind_Ok in H as (a1 & A1 & H). apply bind_Ok in H as (a2 & A2 & H). apply bind_Ok in H as (a3 & A3 & H).
  apply bind_Ok in H as (a4 & A4 & H). apply bind_Ok in H as (a5 & A5 & H). apply bind_Ok in H as (a6 & A6 & H). injection H as <-.
  apply paramTo_Ok in A1 as (_ & ->), A2 as (_ & ->), A3 as (_ & ->), A4 as (_ & ->), A5 as (_ & ->), A6 as (_ & ->).
  exists mb. split; [auto|]. split; [intros E; rewrite E in J0; discriminate|].
  constructor; cbn [jlRobot jlStep jlOff jlQMin jlQMax jlQ jlAlpha jlPrev jlADL jlADU jlADDL jlADDU jlBegin vfill vmap vlen vget]; auto.
  - rewrite J0. reflexivity.
  - intros E j Hj. rewrite E in L1. cbn [Nat.eqb] in L1. injection L1 as <-. reflexivity.
  - intros E j Hj. rewrite E in L2. cbn [Nat.eqb] in L2. injection L2 as <-. reflexivity.
Qed.

Definition nextSizes (od : option solverData) (o : limOp) : option solverData := match o with LNr d => Some d | LUp _ => od end.
Lemma lastSizes_fold ops : forall od, fold_left nextSizes ops od = match lastSizes ops with Some d => Some d | None => od end.
Proof. induction ops as [|[d|cs] ops IH]; intros od; simpl; [reflexivity| |auto]. rewrite IH. destruct (lastSizes ops); reflexivity. Qed.

Lemma jlStep_inv mb r lq uq lad uad ladd uadd dt od m o m' : jlInv mb r lq uq lad uad ladd uadd dt od m -> jlStep_ m o = Ok m' ->
  jlInv mb r lq uq lad uad ladd uadd dt (nextSizes od o) m'.
Proof.
  intros [V1 V2 V3 V4 V5 V6 V7 V8 V9 V10 V11 V12 V13 V14 V15 V16] H. destruct o as [d|cs]; cbn [jlStep_ nextSizes] in *.
  - unfold jlNrVars in H. apply bind_Ok in H as (b & B & H). injection H as <-. constructor; simpl; auto. exists b. rewrite <- V1. auto.
  - unfold jlUpdate in H. apply bind_Ok in H as (c & C & H). apply bind_Ok in H as (q & Q & H). apply bind_Ok in H as (a & A & H). apply bind_Ok in H as (p & P & H).
    repeat (apply bind_Ok in H as (? & _ & H)). injection H as <-.
    apply paramTo_Ok in Q as (_ & ->), A as (_ & ->), P as (_ & ->). constructor; simpl; auto.
Qed.
Lemma jlRun_inv mb r lq uq lad uad ladd uadd dt : forall ops od m m', jlInv mb r lq uq lad uad ladd uadd dt od m -> jlRun m ops = Ok m' ->
  jlInv mb r lq uq lad uad ladd uadd dt (fold_left nextSizes ops od) m'.
Proof.
  induction ops as [|o ops IH]; intros od m m' IV H; simpl in *; [injection H as <-; auto|].
  apply bind_Ok in H as (m1 & H1 & H). eapply IH; [|exact H]. eapply jlStep_inv; eauto.
Qed.
Lemma jlRun_app m ops ops' : jlRun m (ops ++ ops') = bind (jlRun m ops) (fun m' => jlRun m' ops').
Proof. revert m; induction ops as [|o ops IH]; intros m; simpl; [reflexivity|]. destruct (jlStep_ m o); simpl; auto. Qed.

Lemma jointLimits_lemma mbs r lq uq lad uad ladd uadd dt m0 ops cs mb c d :
  newJL mbs r lq uq lad uad ladd uadd dt = Ok m0 -> nth_error mbs r = Some mb -> fixedBase mb -> flat mb ->
  perDof mb lq -> perDof mb uq -> perDofOpt mb lad -> perDofOpt mb uad -> perDofOpt mb ladd -> perDofOpt mb uadd ->
  lastSizes ops = Some d -> nth_error cs r = Some c -> cfgOk mb c ->
  (exists m, jlRun m0 ops = Ok m) ->
  exists m bd b, jlRun m0 (ops ++ [LUp cs]) = Ok m /\ alphaDBegin d r = Ok b /\ jlBound m = Ok bd /\
  forall x, holdsBound x bd <-> forall i k, isDof mb i k -> let a := x (b + jointPosInDof mb i + k)%nat in
    posOk lq uq dt c i k a /\
    between (at2 lad i k NInf) a (at2 uad i k PInf) /\
    jerkOk dt (at2 ladd i k NInf) (at2 uadd i k PInf) (at2 (cfAlphaD c) i k 0) a.
Proof.
  intros HN M FB FL P1 P2 P3 P4 P5 P6 HL HC (C1 & C2 & C3) (m & HR).
  destruct (newJL_inv _ _ _ _ _ _ _ _ _ _ HN) as (mb' & M' & NE & I0). rewrite M in M'. injection M' as <-.
  pose proof (jlRun_inv _ _ _ _ _ _ _ _ _ _ _ _ _ I0 HR) as I1. rewrite lastSizes_fold, HL in I1.
  destruct I1 as [V1 V2 V3 V4 V5 V6 V7 V8 V9 V10 V11 V12 V13 V14 V15 (b & V16 & V17)].
  assert (O : jlOff m = 0%nat).
  { rewrite V4. destruct (nth_error (joints mb) 0) as [j|] eqn:E; auto. specialize (FB j E). destruct (Nat.ltb_spec 1 (jdof j)); [lia|auto]. }
  rewrite O in *. rewrite Nat.sub_0_r, Nat.add_0_r in *. specialize (V7 eq_refl). specialize (V8 eq_refl).
  assert (NP : nrParams mb = nrDof mb) by (unfold nrParams, nrDof; rewrite (flat_map_ mb FL); auto).
  rewrite (flat_map_ mb FL) in C1.
  assert (PQ : perDof mb (cfQ c)) by exact C1.
  pose proof (perDof_len _ _ PQ) as LQ. pose proof (perDof_len _ _ C2) as LA. pose proof (perDof_len _ _ C3) as LP.
  assert (E : jlUpdate cs m = Ok (mkJL (jlRobot m) (jlBegin m) (jlOff m) (jlStep m) (jlQMin m) (jlQMax m)
     (mkVec (nrDof mb) (fun i => nth i (concat (cfQ c)) (vget (jlQ m) i))) (mkVec (nrDof mb) (fun i => nth i (concat (cfAlpha c)) (vget (jlAlpha m) i)))
     (mkVec (nrDof mb) (fun i => emax (emax (stepLimit dt (vget (jlQMin m) i) (nth i (concat (cfQ c)) (vget (jlQ m) i), nth i (concat (cfAlpha c)) (vget (jlAlpha m) i)))
         (nth i (concat lad) NInf)) (eaddr (emulr (nth i (concat ladd) NInf) dt) (nth i (concat (cfAlphaD c)) (vget (jlPrev m) i)))))
     (mkVec (nrDof mb) (fun i => emin (emin (stepLimit dt (vget (jlQMax m) i) (nth i (concat (cfQ c)) (vget (jlQ m) i), nth i (concat (cfAlpha c)) (vget (jlAlpha m) i)))
         (nth i (concat uad) PInf)) (eaddr (emulr (nth i (concat uadd) PInf) dt) (nth i (concat (cfAlphaD c)) (vget (jlPrev m) i)))))
     (jlADL m) (jlADU m) (jlADDL m) (jlADDU m) (mkVec (nrDof mb) (fun i => nth i (concat (cfAlphaD c)) (vget (jlPrev m) i))))).
  { unfold jlUpdate. rewrite V1, (ContactProofs.vec_at_Some _ _ _ HC). cbn [bind].
    rewrite !paramTo_def by (rewrite ?V9, ?V10, ?V11; lia). cbn [bind]. rewrite V9, V10, V11, NP, V5.
    rewrite !vtail_def by (simpl; lia). cbn [bind vlen vget]. rewrite Nat.sub_diag. cbn [Nat.add].
    rewrite (vzip_def pair) by reflexivity. cbn [bind vlen vget].
    rewrite (vzip_def _ (jlQMin m)), (vzip_def _ (jlQMax m)) by (simpl; auto). cbn [bind vlen vget]. rewrite V5, V6.
    rewrite V12, V13, V14, V15.
    repeat (rewrite vzip_def by reflexivity; cbn [bind vlen vget]). rewrite V2, O. reflexivity. }
  rewrite jlRun_app, HR. cbn [bind jlRun jlStep_]. rewrite E. cbn [bind].
  eexists. eexists. exists b. split; [reflexivity|]. split; [rewrite <- V1; rewrite <- V1 in V16; auto|].
  unfold jlBound, zidx. cbn [jlBegin jlLow jlUp]. rewrite V17. replace (0 <=? Z.of_nat b)%Z with true by (symmetry; apply Z.leb_le; lia). cbn [bind]. rewrite Nat2Z.id.
  split; [reflexivity|]. intros x. unfold holdsBound. cbn [bdL bdU bdBegin vlen vget].
  assert (ROW : forall i k, isDof mb i k -> let j := (jointPosInDof mb i + k)%nat in
     between (emax (emax (stepLimit dt (vget (jlQMin m) j) (nth j (concat (cfQ c)) (vget (jlQ m) j), nth j (concat (cfAlpha c)) (vget (jlAlpha m) j)))
         (nth j (concat lad) NInf)) (eaddr (emulr (nth j (concat ladd) NInf) dt) (nth j (concat (cfAlphaD c)) (vget (jlPrev m) j)))) (x (b + j)%nat)
       (emin (emin (stepLimit dt (vget (jlQMax m) j) (nth j (concat (cfQ c)) (vget (jlQ m) j), nth j (concat (cfAlpha c)) (vget (jlAlpha m) j)))
         (nth j (concat uad) PInf)) (eaddr (emulr (nth j (concat uadd) PInf) dt) (nth j (concat (cfAlphaD c)) (vget (jlPrev m) j))))
     <-> (posOk lq uq dt c i k (x (b + j)%nat) /\ between (at2 lad i k NInf) (x (b + j)%nat) (at2 uad i k PInf) /\
          jerkOk dt (at2 ladd i k NInf) (at2 uadd i k PInf) (at2 (cfAlphaD c) i k 0) (x (b + j)%nat))).
  { intros i k D j. pose proof (isDof_lt _ _ _ D) as Lj. fold j in Lj.
    rewrite between_emax_emin, stepLimit_between, emulr_addr_between by auto. rewrite V7, V8 by auto. unfold posOk, j.
    rewrite (nth_indep (concat (cfQ c)) _ 0), (nth_indep (concat (cfAlpha c)) _ 0), (nth_indep (concat (cfAlphaD c)) _ 0) by (fold j; lia).
    rewrite !nth_perDof by (auto; right; auto). tauto. }
  transitivity (forall j, (j < nrDof mb)%nat -> between (emax (emax (stepLimit dt (vget (jlQMin m) j) (nth j (concat (cfQ c)) (vget (jlQ m) j), nth j (concat (cfAlpha c)) (vget (jlAlpha m) j)))
         (nth j (concat lad) NInf)) (eaddr (emulr (nth j (concat ladd) NInf) dt) (nth j (concat (cfAlphaD c)) (vget (jlPrev m) j)))) (x (b + j)%nat)
       (emin (emin (stepLimit dt (vget (jlQMax m) j) (nth j (concat (cfQ c)) (vget (jlQ m) j), nth j (concat (cfAlpha c)) (vget (jlAlpha m) j)))
         (nth j (concat uad) PInf)) (eaddr (emulr (nth j (concat uadd) PInf) dt) (nth j (concat (cfAlphaD c)) (vget (jlPrev m) j))))).
  { unfold between. split; [intros H j Hj; destruct (H j); auto|intros H j; split; intros Hj; apply H; auto]. }
  rewrite <- isDof_all. split; intros H i k D; specialize (H i k D); cbv zeta in *.
  - apply ROW in H; auto. rewrite Nat.add_assoc in H. exact H.
  - apply ROW; auto. rewrite Nat.add_assoc. exact H.
Qed.

(** With a first joint of several degrees of freedom, no update is defined. *)
Lemma floating_lemma mbs r lq uq lad uad ladd uadd dt m0 ops cs mb m j0 :
  newJL mbs r lq uq lad uad ladd uadd dt = Ok m0 -> nth_error mbs r = Some mb ->
  nth_error (joints mb) 0 = Some j0 -> (1 < jdof j0)%nat -> jlRun m0 ops = Ok m -> jlUpdate cs m = UB.
Proof.
  intros HN M J D HR. destruct (newJL_inv _ _ _ _ _ _ _ _ _ _ HN) as (mb' & M' & NE & I0). rewrite M in M'. injection M' as <-.
  pose proof (jlRun_inv _ _ _ _ _ _ _ _ _ _ _ _ _ I0 HR) as [V1 V2 V3 V4 V5 V6 V7 V8 V9 V10 V11 V12 V13 V14 V15 V16].
  rewrite J in V4. destruct (Nat.ltb_spec 1 (jdof j0)); [|lia].
  assert (ND : (jdof j0 <= nrDof mb)%nat). { unfold nrDof. destruct (joints mb); [discriminate|]. injection J as ->. simpl. lia. }
  unfold jlUpdate, vec_at. destruct (nth_error cs (jlRobot m)) as [c|]; [|reflexivity]. cbn [bind].
  assert (PT : forall ps (v : vec R), paramTo ps v = UB \/ exists v', paramTo ps v = Ok v').
  { intros ps v. unfold paramTo. destruct (_ <=? _)%nat; simpl; eauto. }
  assert (VT : forall (v : vec R) n, vtail v n = UB \/ exists v', vtail v n = Ok v' /\ vlen v' = n).
  { intros v n. unfold vtail, vseg. destruct (n <=? vlen v)%nat; cbn [guard bind]; auto. destruct (_ <=? _)%nat; eauto. }
  assert (VZ : forall (A B C : Type) (f : A -> B -> C) (a : vec A) (b : vec B), vzip f a b = UB \/ exists v', vzip f a b = Ok v' /\ vlen v' = vlen a).
  { intros A B C f a b. unfold vzip. destruct (Nat.eqb _ _); cbn [guard bind]; eauto. }
  destruct (PT (cfQ c) (jlQ m)) as [E|(q & E)]; rewrite E; [reflexivity|]. cbn [bind].
  destruct (PT (cfAlpha c) (jlAlpha m)) as [E1|(a & E1)]; rewrite E1; [reflexivity|]. cbn [bind].
  destruct (PT (cfAlphaD c) (jlPrev m)) as [E2|(p & E2)]; rewrite E2; [reflexivity|]. cbn [bind].
  destruct (VT q (vlen (jlQMin m))) as [E3|(qt & E3 & _)]; rewrite E3; [reflexivity|]. cbn [bind].
  destruct (VT a (vlen (jlQMin m))) as [E4|(at_ & E4 & _)]; rewrite E4; [reflexivity|]. cbn [bind].
  destruct (VZ _ _ _ pair qt at_) as [E5|(qa & E5 & _)]; rewrite E5; [reflexivity|]. cbn [bind].
  destruct (VZ _ _ _ (stepLimit (jlStep m)) (jlQMin m) qa) as [E6|(lo & E6 & L6)]; rewrite E6; [reflexivity|]. cbn [bind].
  destruct (VZ _ _ _ (stepLimit (jlStep m)) (jlQMax m) qa) as [E7|(up & E7 & _)]; rewrite E7; [reflexivity|]. cbn [bind].
  unfold vzip at 1. rewrite L6, V5, V12, V4. cbn [vlen]. destruct (Nat.eqb_spec (nrDof mb - jdof j0) (nrDof mb)); [lia|reflexivity].
Qed.
