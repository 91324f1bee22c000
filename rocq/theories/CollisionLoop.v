(** Closed loop and registry. *)
From Verif Require Export CollisionFacts.
Open Scope list_scope.
Open Scope R_scope.
Local Arguments sumn : simpl never.

(** The first updates of a trajectory. *)
Definition updates (d : solverData) (es : nat -> cenv) (n : nat) : list colOp := map (fun k => CUp d (es k)) (seq 0 n).

Section Loop.
Variables (nm : names) (mbs : list multibody) (G : geom) (d : solverData).

Lemma updates_S es n : updates d es (S n) = updates d es n ++ [CUp d (es n)].
Proof. unfold updates. rewrite seq_S, map_app. reflexivity. Qed.
Lemma adds_updates es n : addsOf (updates d es n) = [].
Proof. induction n as [|n IH]; [reflexivity|]. rewrite updates_S, addsOf_app, IH. reflexivity. Qed.
Lemma sized_up ops e : sizedFor d ops -> sizedFor d (ops ++ [CUp d e]).
Proof.
  intros (pre & post1 & post2 & -> & F & N & P). exists pre, post1, (post2 ++ [CUp d e]). split; [rewrite <- !app_assoc; cbn [app]; rewrite <- app_assoc; reflexivity|].
  split; [rewrite app_assoc; apply Forall_app; split; [auto|repeat constructor]|]. split; [apply Forall_app; split; [auto|repeat constructor]|auto].
Qed.
Lemma alive_up ops e : alive (ops ++ [CUp d e]) = map (snocEnv e) (alive ops).
Proof. unfold alive. rewrite aliveFrom_app. reflexivity. Qed.
Lemma alive_updates ops es n : alive (ops ++ updates d es n) = map (fun ph => (fst ph, snd ph ++ map es (seq 0 n))) (alive ops).
Proof.
  induction n as [|n IH].
  - unfold updates. simpl. rewrite app_nil_r. symmetry. rewrite <- (map_id (alive ops)) at 2. apply map_ext. intros [p hs]. simpl. rewrite app_nil_r. reflexivity.
  - rewrite updates_S, app_assoc, alive_up, IH, map_map. apply map_ext. intros [p hs]. unfold snocEnv. simpl fst. simpl snd. rewrite seq_S, map_app, app_assoc. reflexivity.
Qed.
Lemma reaches_up step ops c e : reaches nm mbs G d step ops c -> sound nm mbs step (addsOf ops) ->
  exists c' h', colUpdate mbs d G (eK e) (eH e) c = Ok (c', h') /\ reaches nm mbs G d step (ops ++ [CUp d e]) c'.
Proof.
  intros HR HS. destruct (update_lemma nm mbs G d step ops c e HR HS) as (c' & h' & own & E & _). exists c', h'. split; [exact E|].
  destruct HR as ((c0 & N0 & RN) & HD & SZ). split; [|split; [auto|apply sized_up; auto]]. exists c0. split; [auto|]. rewrite colRun_app, RN. cbn [bind colRun colStep]. rewrite E. reflexivity.
Qed.
Lemma reaches_ups step ops c es : reaches nm mbs G d step ops c -> sound nm mbs step (addsOf ops) ->
  forall n, exists c', colRun nm mbs G c (updates d es n) = Ok c' /\ reaches nm mbs G d step (ops ++ updates d es n) c'.
Proof.
  intros HR HS. induction n as [|n (c' & E & HR')].
  - exists c. split; [reflexivity|]. unfold updates. simpl. rewrite app_nil_r. auto.
  - destruct (reaches_up step _ c' (es n) HR') as (c2 & h2 & E2 & R2); [rewrite addsOf_app, adds_updates, app_nil_r; auto|].
    exists c2. rewrite updates_S, colRun_app, E. split; [cbn [bind colRun colStep]; rewrite E2; reflexivity|]. rewrite app_assoc. exact R2.
Qed.

Lemma near_index e l i (ph : pairSpec * list cenv) : nth_error l i = Some ph -> near nm mbs G (fst ph) e -> exists k, nth_error (nearPairs nm mbs G e l) k = Some ph.
Proof.
  intros H N. apply In_nth_error. unfold nearPairs. apply filter_In. split; [eapply nth_error_In; eauto|]. apply nearb_true. auto.
Qed.
Lemma lastNormal_seq p es k : lastNormal nm mbs G p (map es (seq 0 (S k))) = pNormal nm mbs G p (es k).
Proof. rewrite seq_S, map_app. apply lastNormal_snoc. Qed.

Lemma security_lemma step ops c i p es xs : reaches nm mbs G d step ops c -> sound nm mbs step (addsOf ops) -> nth_error (alive ops) i = Some (p, []) ->
  movable mbs (psR1 p) = true -> 0 < step -> psDs p < psDi p ->
  (forall n c', colRun nm mbs G c (updates d es (S n)) = Ok c' -> holdsIneq (sdNrVars d) (xs n) (colInEq c')) ->
  ~ near nm mbs G p (es 0%nat) ->
  (forall n, near nm mbs G p (es (S n)) -> pDist nm mbs G p (es (S (S n))) =
     pDist nm mbs G p (es (S n)) + step * nextRate nm mbs G d step p (pNormal nm mbs G p (es n)) (es (S n)) (xs (S n))) ->
  (forall n, ~ near nm mbs G p (es n) -> pDist nm mbs G p (es n) - (psDi p - psDs p) <= pDist nm mbs G p (es (S n))) ->
  (forall n xi, inForce nm mbs G (distRate nm mbs G) p (map es (seq 0 n)) xi -> step * xi <= psDi p - psDs p) ->
  forall n, psDs p <= pDist nm mbs G p (es n).
Proof.
  intros HR HS Hi M Hst Hd HX H0 HE HF HXI n. induction n as [|n IH].
  - unfold near in H0. lra.
  - destruct (Rlt_dec (pDist nm mbs G p (es n)) (psDi p)) as [NR|NR].
    + destruct n as [|n]; [contradiction|].
      destruct (reaches_ups step ops c es HR HS (S n)) as (c1 & E1 & R1).
      assert (HS1 : sound nm mbs step (addsOf (ops ++ updates d es (S n)))) by (rewrite addsOf_app, adds_updates, app_nil_r; auto).
      destruct (update_lemma nm mbs G d step _ c1 (es (S n)) R1 HS1) as (c2 & h2 & own & E2 & N2 & _).
      assert (A1 : nth_error (alive (ops ++ updates d es (S n))) i = Some (p, map es (seq 0 (S n)))) by (rewrite alive_updates, nth_error_map, Hi; reflexivity).
      destruct (near_index (es (S n)) _ i _ A1 NR) as (k & Hk).
      destruct (row_lemma nm mbs G d step _ c1 (es (S n)) c2 h2 k p _ R1 HS1 E2 Hk M) as (xi & IF & RW).
      assert (HI : holdsRow (sdNrVars d) (xs (S n)) (colInEq c2) k).
      { apply (HX (S n) c2); [rewrite updates_S, colRun_app, E1; cbn [bind colRun colStep]; rewrite E2; reflexivity|]. cbn [colInEq iqNr]. rewrite N2. apply nth_error_Some. congruence. }
      apply RW in HI. rewrite lastNormal_seq in HI. rewrite (HE n NR).
      assert (X : step * xi <= psDi p - psDs p) by (apply (HXI (S (S n))); rewrite seq_S, map_app; exact IF).
      set (D := pDist nm mbs G p (es (S n))) in *. set (q := (D - psDs p) / (psDi p - psDs p)) in *.
      assert (Q0 : 0 <= q) by (unfold q; apply Rmult_le_pos; [lra|left; apply Rinv_0_lt_compat; lra]).
      assert (Q1 : q * (psDi p - psDs p) = D - psDs p) by (unfold q; field; lra).
      assert (T1 : step * (- xi * q) <= step * nextRate nm mbs G d step p (pNormal nm mbs G p (es n)) (es (S n)) (xs (S n))) by (apply Rmult_le_compat_l; [lra|exact HI]).
      assert (T2 : q * (step * xi) <= q * (psDi p - psDs p)) by (apply Rmult_le_compat_l; auto). lra.
    + specialize (HF n NR). lra.
Qed.

Lemma col_registry_lemma step ops c0 c : newCol mbs step = Ok c0 -> colRun nm mbs G c0 ops = Ok c ->
  nrCollisions c = length (alive ops) /\ map clId (coData c) = map (fun ph => psId (fst ph)) (alive ops) /\
  forall id, (snd (rmCollision id c) = true <-> In id (map (fun ph => psId (fst ph)) (alive ops))) /\
    match find (fun ph => Z.eqb (psId (fst ph)) id) (alive ops) with
    | None => getCollisionData id c = Throw
    | Some (p, _) => exists q, getCollisionData id c = Ok q /\ clId q = id /\ clH1 q = psH1 p /\ clH2 q = psH2 p /\ clDi q = psDi p /\ clDs q = psDs p /\ clOff q = psOff p /\
        map (fun b => (bR b, bHull b, bX b, bSel b)) (clBodies q) =
          (if movable mbs (psR1 p) then [(psR1 p, psH1 p, psX1 p, psSel1 p)] else []) ++
          (if movable mbs (psR2 p) then [(psR2 p, psH2 p, psX2 p, sel2 p)] else [])
    end.
Proof.
  intros N0 RN. unfold newCol in N0. apply bind_Ok in N0 as (md & HM & N0). injection N0 as <-.
  assert (F : Forall2 (relS nm mbs) (alive ops) (coData c)) by (unfold alive; eapply static_run; [|exact RN]; constructor).
  split; [symmetry; eapply Forall2_len; eauto|]. split.
  { clear -F. induction F as [|ph q ps l H F IH]; simpl; [auto|]. f_equal; [apply H|auto]. }
  intros id. split.
  - pose proof (proj2 (@erase_rel (relS nm mbs) id ltac:(intros ph q X; apply X) _ _ F)) as E. unfold rmCollision. destruct (eraseId id (coData c)) as (l2 & b). simpl in *. rewrite E.
    rewrite existsb_exists, in_map_iff. split; intros (ph & A & B); exists ph; [apply Z.eqb_eq in B|apply Z.eqb_eq in A]; auto.
  - pose proof (@find_rel (relS nm mbs) id ltac:(intros ph q X; apply X) _ _ F) as E. unfold getCollisionData. destruct (find (fun ph => Z.eqb (psId (fst ph)) id) (alive ops)) as [[p hs]|] eqn:FP.
    + destruct (find _ (coData c)) as [q|] eqn:FQ; [|destruct E]. exists q. split; [auto|]. apply find_some in FQ as (_ & FQ). apply Z.eqb_eq in FQ.
      destruct E as (_ & E1 & E2 & E3 & E4 & E5 & E6 & E7). cbn [fst] in *. repeat (split; [solve [auto]|]). rewrite E7. unfold bodiesOf, sideBCD. destruct (movable mbs (psR1 p)), (movable mbs (psR2 p)); reflexivity.
    + destruct (find _ (coData c)); [destruct E|reflexivity].
Qed.

(** Other pairs. *)
Lemma row_second_lemma step ops c e c' h' k p hs : reaches nm mbs G d step ops c -> sound nm mbs step (addsOf ops) ->
  colUpdate mbs d G (eK e) (eH e) c = Ok (c', h') -> nth_error (nearPairs nm mbs G e (alive ops)) k = Some (p, hs) -> movable mbs (psR1 p) = false -> movable mbs (psR2 p) = true ->
  exists xi, inForce nm mbs G (fun p e => dot (pNormal nm mbs G p e) (ptVel nm e (psR2 p) (psB2 p) (pW1 nm mbs G p e))) p (hs ++ [e]) xi /\
    forall x, holdsRow (sdNrVars d) x (colInEq c') k <->
      - xi * ((pDist nm mbs G p e - psDs p) / (psDi p - psDs p)) <=
      dot (pNormal nm mbs G p e) (ptVel nm e (psR2 p) (psB2 p) (pW1 nm mbs G p e)) +
      step * (dot (pNormal nm mbs G p e) (ptAcc nm mbs d e (psR2 p) (psB2 p) (pW1 nm mbs G p e) (sel2 p) x) +
              dot (vsc (/ step) (vsub (pNormal nm mbs G p e) (lastNormal nm mbs G p hs))) (ptVel nm e (psR2 p) (psB2 p) (pW1 nm mbs G p e))).
Proof.
  intros HR HS HU Hk M M2. destruct (update_lemma nm mbs G d step ops c e HR HS) as (c1 & h1 & own & E & _ & _ & _ & _ & _ & S).
  assert (c1 = c') as -> by congruence. destruct (S k p hs Hk) as (xi & IF & SL). exists xi. split.
  - destruct IF as [IF|(H & e0 & EN & X)]; [left; auto|]. right. split; [auto|]. exists e0. split; [auto|]. rewrite X. f_equal.
    unfold codeRate, pointsAt, bodiesOf, sideBCD. rewrite M, M2. unfold withPoints, diffVel. cbn [app map fold_left fst snd bR bPath]. rewrite toPoint_eq. cbn [bR bBody].
    fold (ptOf nm e0 (psR2 p) (psB2 p) (pW1 nm mbs G p e0)). unfold ptVel. v3unf. ring.
  - intros x. rewrite (rows_holds c' k _ x _ (SL x)), pairSlack_second by auto. unfold wrongRate. cbv zeta. split; intros; lra.
Qed.
Lemma row_none_lemma step ops c e c' h' k p hs : reaches nm mbs G d step ops c -> sound nm mbs step (addsOf ops) ->
  colUpdate mbs d G (eK e) (eH e) c = Ok (c', h') -> nth_error (nearPairs nm mbs G e (alive ops)) k = Some (p, hs) -> movable mbs (psR1 p) = false -> movable mbs (psR2 p) = false ->
  0 < psDamping p -> psDs p < psDi p ->
  forall x, holdsRow (sdNrVars d) x (colInEq c') k <-> psDs p <= pDist nm mbs G p e.
Proof.
  intros HR HS HU Hk M M2 HD HL x. destruct (update_lemma nm mbs G d step ops c e HR HS) as (c1 & h1 & own & E & _ & _ & _ & _ & _ & S).
  assert (c1 = c') as -> by congruence. destruct (S k p hs Hk) as (xi & IF & SL). destruct IF as [(_ & ->)|(H & _)]; [|lra].
  rewrite (rows_holds c' k _ x _ (SL x)), pairSlack_none by auto. split; intros HH.
  - destruct (Rle_dec (psDs p) (pDist nm mbs G p e)) as [|N]; [auto|]. exfalso.
    assert (0 < psDamping p * ((psDs p - pDist nm mbs G p e) / (psDi p - psDs p))) by (apply Rmult_lt_0_compat; [auto|apply Rdiv_lt_0_compat; lra]).
    replace ((pDist nm mbs G p e - psDs p) / (psDi p - psDs p)) with (- ((psDs p - pDist nm mbs G p e) / (psDi p - psDs p))) in HH by (field; lra). lra.
  - apply Rmult_le_pos; [lra|]. apply Rmult_le_pos; [lra|]. left. apply Rinv_0_lt_compat. lra.
Qed.
End Loop.
