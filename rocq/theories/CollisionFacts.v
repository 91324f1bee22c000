(** What an update gives after any history. *)
From Verif Require Export CollisionRun.
Open Scope list_scope.
Open Scope R_scope.
Local Arguments sumn : simpl never.

Lemma maxDof_le mbs md mb : maxDof mbs = Ok md -> In mb mbs -> (nrDof mb <= md)%nat.
Proof. intros E H. unfold maxDof in E. destruct mbs as [|m0 ms]; [destruct H|]. injection E as <-. apply (fold_max_le (map nrDof (m0 :: ms))). apply in_map. auto. Qed.

Section Facts.
Variables (nm : names) (mbs : list multibody) (G : geom).

Lemma sideFits d uni bi deps md r b o X sel : nrVarsData mbs uni bi = Ok (d, deps) -> pathsOk nm mbs -> maxDof mbs = Ok md -> sideWf nm mbs r b sel ->
  Forall (bFits mbs d md (sdTotalAlphaD d)) (sideBCD nm mbs r b o X sel).
Proof.
  intros HN HP HM (mb & M & W). unfold sideBCD. destruct (movable mbs r) eqn:V; constructor; [|constructor]. destruct (W eq_refl) as (P & B & L).
  assert (Hr : (r < length mbs)%nat) by (apply nth_error_Some; congruence).
  destruct (layout_begin_lemma _ _ _ _ _ HN) as (LB & _). eexists mb, _. cbn [bR bPath bSel]. split; [exact M|]. split; [apply LB; auto|].
  split; [eapply HP; eauto|]. split; [eapply maxDof_le; eauto; eapply nth_error_In; eauto|]. split; [|exact L]. eapply beginEnd; eauto.
Qed.
Lemma pairFits d uni bi deps md p : nrVarsData mbs uni bi = Ok (d, deps) -> pathsOk nm mbs -> maxDof mbs = Ok md -> pairWf nm mbs p ->
  Forall (bFits mbs d md (sdTotalAlphaD d)) (bodiesOf nm mbs p).
Proof. intros HN HP HM (W1 & W2). unfold bodiesOf. apply Forall_app. split; eapply sideFits; eauto. Qed.

Lemma nearPairs_len e l : (length (nearPairs nm mbs G e l) <= length l)%nat.
Proof. unfold nearPairs. induction l as [|a l IH]; simpl; [auto|]. destruct (nearb _ _ _ _ _); simpl; lia. Qed.

Definition snocEnv (e : cenv) (ph : pairSpec * list cenv) : pairSpec * list cenv := (fst ph, snd ph ++ [e]).
Lemma update_lemma d step ops c e : reaches nm mbs G d step ops c -> sound nm mbs step (addsOf ops) ->
  exists c' h' own, colUpdate mbs d G (eK e) (eH e) c = Ok (c', h') /\ coNr c' = length (nearPairs nm mbs G e (alive ops)) /\
    mcols (coA c') = sdNrVars d /\ Forall (fun ph => ownsPair nm mbs own (fst ph)) (alive ops) /\
    Forall2 (rel nm mbs G) (map (snocEnv e) (alive ops)) (coData c') /\
    Forall (fun ph => h' (psH1 (fst ph)) = hPose own e (psH1 (fst ph)) /\ h' (psH2 (fst ph)) = hPose own e (psH2 (fst ph))) (alive ops) /\
    forall k p hs, nth_error (nearPairs nm mbs G e (alive ops)) k = Some (p, hs) ->
      exists xi, inForce nm mbs G (codeRate nm mbs G) p (hs ++ [e]) xi /\
        forall x, vget (coB c') k - sumn (sdNrVars d) (fun j => mget (coA c') k j * x j) = pairSlack nm mbs G d step p hs e xi x.
Proof.
  intros ((c0 & N0 & RN) & (uni & bi & deps & HN) & SZ) (HP & (own & HO) & NS & ND).
  unfold newCol in N0. apply bind_Ok in N0 as (md & HM & N0). injection N0 as <-.
  assert (HB : forall r mb beg, nth_error mbs r = Some mb -> alphaDBegin d r = Ok beg -> (beg + nrDof mb <= sdTotalAlphaD d)%nat) by (intros; eapply beginEnd; eauto).
  assert (TC : (sdTotalAlphaD d <= sdNrVars d)%nat).
  { pose proof HN as HN'. apply nrVarsData_spec in HN' as (_ & _ & _ & _ & _ & T & _ & _ & _ & NV & _). lia. }
  assert (F : Forall2 (rel nm mbs G) (alive ops) (coData c)).
  { unfold alive. eapply data_run; [exact HO|constructor| |exact RN]. constructor. }
  assert (OA : Forall (fun ph => ownsPair nm mbs own (fst ph)) (alive ops)).
  { apply Forall_forall. intros [p hs] Hp. apply alive_adds in Hp. apply HO; auto. }
  assert (SI : szInv d md step c /\ roomy c) by (eapply (sized_lemma nm mbs G d md step HB TC); [|exact SZ|exact RN]; repeat split).
  destruct SI as (((I0 & _) & T & V & rows & W) & RM).
  assert (FB : Forall (fun ph => Forall (bFits mbs d md (sdTotalAlphaD d)) (bodiesOf nm mbs (fst ph)) /\ psDi (fst ph) <> psDs (fst ph)) (alive ops)).
  { apply Forall_forall. intros [p hs] Hp. split; [|apply ND; eapply alive_adds; eauto]. eapply pairFits; eauto.
    assert (X : exists q, rel nm mbs G (p, hs) q) by (clear -F Hp; induction F; destruct Hp; subst; eauto). destruct X as (q & X). apply X. }
  assert (LN : length (alive ops) = length (coData c)) by (eapply Forall2_len; eauto).
  assert (RW : mrows (coA c) = rows) by (destruct W as (_ & _ & _ & _ & W & _); exact W). unfold roomy in RM.
  destruct (colPairs_ok nm mbs G d own step (sdTotalAlphaD d) md (sdNrVars d) rows e (coData c) (alive ops) (eH e) 0 (rowsOf c) OA (hInv_start own e) F W TC HB FB NS) as (l' & h' & nr' & w' & E & N & S).
  { pose proof (nearPairs_len e (alive ops)). simpl. lia. }
  pose proof (colPairs_keep mbs G d (eK e) step (sdTotalAlphaD d) md (sdNrVars d) rows _ _ _ _ _ _ _ _ W TC HB E) as (W' & _).
  pose proof (colPairs_rel nm mbs G own d step _ e _ _ _ _ _ _ _ _ _ OA (hInv_start own e) F E) as (F' & _ & _ & HH).
  exists (mkCol l' step nr' (coTotal c) (coVars c) (rwA w') (rwB w') (rwFull w') (rwDist w')), h', own.
  split; [unfold colUpdate; rewrite I0, T; unfold rowsOf in E; rewrite E; reflexivity|]. cbn [coNr coA coB coData]. split; [exact N|].
  destruct W' as (_ & _ & _ & _ & _ & W' & _). split; [exact W'|]. split; [auto|]. split; [exact F'|]. split; [auto|].
  intros k p hs Hk. destruct (S k p hs Hk) as (xi & IF & SL). exists xi. split; [auto|]. intros x. rewrite <- SL. unfold slack, rowdot. rewrite W'. reflexivity.
Qed.

Lemma rows_holds c' k n x v : vget (coB c') k - sumn n (fun j => mget (coA c') k j * x j) = v -> (holdsRow n x (colInEq c') k <-> 0 <= v).
Proof. intros <-. unfold holdsRow, colInEq. cbn. split; lra. Qed.

(** Description of the rows. *)
Lemma inForce_of p hs e q : dampRel nm mbs G p (hs ++ [e]) q -> near nm mbs G p e -> inForce nm mbs G (codeRate nm mbs G) p (hs ++ [e]) (clDamping q).
Proof.
  unfold dampRel. intros D N. destruct (Rltb 0 (psDamping p)) eqn:B.
  - left. apply Rltb_true in B. split; [auto|]. apply D.
  - rewrite rev_snoc, (proj2 (nearb_true nm mbs G p e) N) in D. apply D.
Qed.
Lemma names_side r b o X sel : namesOk nm -> sideWf nm mbs r b sel ->
  map (fun b => (bR b, nBodyName nm (bR b) (bBody b))) (sideBCD nm mbs r b o X sel) = if movable mbs r then [(r, b)] else [].
Proof.
  intros HNm (mb & M & W). unfold sideBCD. destruct (movable mbs r); [|reflexivity]. destruct (W eq_refl) as (_ & B & _). simpl. rewrite (HNm _ _ _ B). reflexivity.
Qed.
Lemma names_bodies p : namesOk nm -> pairWf nm mbs p -> map (fun b => (bR b, nBodyName nm (bR b) (bBody b))) (bodiesOf nm mbs p) = mobileBodies mbs p.
Proof. intros HNm (W1 & W2). unfold bodiesOf, mobileBodies. rewrite map_app, !names_side; auto. Qed.

Lemma desc_loop own e h' : namesOk nm -> forall ps l,
  Forall (fun ph => ownsPair nm mbs own (fst ph)) ps -> Forall2 (rel nm mbs G) (map (snocEnv e) ps) l ->
  Forall (fun ph => h' (psH1 (fst ph)) = hPose own e (psH1 (fst ph)) /\ h' (psH2 (fst ph)) = hPose own e (psH2 (fst ph))) ps ->
  forall line cur, (cur <= line)%nat ->
  match nth_error (nearPairs nm mbs G e ps) (line - cur) with
  | Some (p, hs) => exists xi, inForce nm mbs G (codeRate nm mbs G) p (hs ++ [e]) xi /\
      descLoop nm G h' line cur l = Some (mkCDesc (mobileBodies mbs p) (psId p) (pDist nm mbs G p e) (psDi p) (psDs p) (xi + psOff p))
  | None => descLoop nm G h' line cur l = None
  end.
Proof.
  intros HNm. induction ps as [|[p hs] ps IH]; intros l O F HH line cur L; simpl in F; inversion F as [|? q ? l' RL F']; subst.
  - cbn. destruct (line - cur)%nat; reflexivity.
  - inversion O as [|? ? O1 O2]; subst. inversion HH as [|? ? (H1 & H2) HH2]; subst. cbn [fst] in *. rewrite nearPairs_cons.
    unfold snocEnv in RL. cbn [fst snd] in RL. destruct RL as (R0 & R1 & R2 & R3 & R4 & R5 & R6 & R7 & R8 & R9).
    cbn [descLoop]. cbv zeta. rewrite R2, R3, H1, H2, (hPose1 nm mbs own p e O1), (hPose2 nm mbs own p e O1), sdist_root. fold (pDist nm mbs G p e). rewrite R4.
    fold (nearb nm mbs G p e). destruct (nearb nm mbs G p e) eqn:B.
    + destruct (Nat.eqb_spec cur line) as [->|NE].
      * rewrite Nat.sub_diag. cbn [nth_error]. exists (clDamping q). split; [apply inForce_of; auto; apply nearb_true; auto|].
        rewrite R1, R5, R6, R7, (names_bodies p HNm R0). reflexivity.
      * specialize (IH l' O2 F' HH2 line (S cur) ltac:(lia)). replace (line - cur)%nat with (S (line - S cur)) by lia. cbn [nth_error]. exact IH.
    + apply IH; auto.
Qed.

Lemma desc_lemma d step ops c e c' h' k : reaches nm mbs G d step ops c -> sound nm mbs step (addsOf ops) -> namesOk nm ->
  colUpdate mbs d G (eK e) (eH e) c = Ok (c', h') ->
  match nth_error (nearPairs nm mbs G e (alive ops)) k with
  | Some (p, hs) => exists xi, inForce nm mbs G (codeRate nm mbs G) p (hs ++ [e]) xi /\
      descInEq nm G h' c' k = Some (mkCDesc (mobileBodies mbs p) (psId p) (pDist nm mbs G p e) (psDi p) (psDs p) (xi + psOff p))
  | None => descInEq nm G h' c' k = None
  end.
Proof.
  intros HR HS HNm HU. destruct (update_lemma d step ops c e HR HS) as (c1 & h1 & own & E & N & _ & O & F & HH & _).
  assert (c1 = c' /\ h1 = h') as (-> & ->) by (split; congruence). pose proof (desc_loop own e h' HNm _ _ O F HH k 0 ltac:(lia)) as D.
  rewrite Nat.sub_0_r in D. exact D.
Qed.

(* ------------------------------------------------------------------ *)
(** * Meaning of the rows *)

Lemma fold1 {A} (f : A -> R) a : fold_right Rplus 0 (map f [a]) = f a.
Proof. simpl. ring. Qed.
Lemma codeRate_mobile p e : movable mbs (psR1 p) = true -> codeRate nm mbs G p e = distRate nm mbs G p e.
Proof.
  intros M. unfold codeRate, distRate, vel1, vel2, pointsAt, bodiesOf, sideBCD. rewrite M. cbn [app].
  destruct (movable mbs (psR2 p)) eqn:M2; unfold withPoints, diffVel; cbn [map fold_left fst snd bR bPath]; rewrite !toPoint_eq; cbn [bR bBody]; fold (ptOf nm e (psR1 p) (psB1 p) (pW1 nm mbs G p e));
    [fold (ptOf nm e (psR2 p) (psB2 p) (pW2 nm mbs G p e))|]; unfold ptVel; v3unf; ring.
Qed.
Lemma inForce_mobile p hs xi : movable mbs (psR1 p) = true -> inForce nm mbs G (codeRate nm mbs G) p hs xi -> inForce nm mbs G (distRate nm mbs G) p hs xi.
Proof. intros M [H|(H & e & E & X)]; [left; auto|]. right. split; [auto|]. exists e. split; [auto|]. rewrite <- codeRate_mobile; auto. Qed.

Lemma pairSlack_mobile d dt p hs e xi x : movable mbs (psR1 p) = true ->
  pairSlack nm mbs G d dt p hs e xi x = xi * ((pDist nm mbs G p e - psDs p) / (psDi p - psDs p)) + nextRate nm mbs G d dt p (lastNormal nm mbs G p hs) e x.
Proof.
  intros M. unfold pairSlack. f_equal. unfold nextRate, distRate, vel1, vel2, acc1, acc2, pointsAt, bodiesOf, sideBCD. rewrite M. cbn [app].
  destruct (movable mbs (psR2 p)) eqn:M2; unfold withPoints; cbn [map fold_right]; unfold bTerm, jx; cbn [fst snd bR bPath bSel]; rewrite !toPoint_eq; cbn [bR bBody];
    fold (ptOf nm e (psR1 p) (psB1 p) (pW1 nm mbs G p e)); [fold (ptOf nm e (psR2 p) (psB2 p) (pW2 nm mbs G p e))|]; unfold ptVel, ptAcc; v3unf; ring.
Qed.

Lemma row_lemma d step ops c e c' h' k p hs : reaches nm mbs G d step ops c -> sound nm mbs step (addsOf ops) ->
  colUpdate mbs d G (eK e) (eH e) c = Ok (c', h') -> nth_error (nearPairs nm mbs G e (alive ops)) k = Some (p, hs) -> movable mbs (psR1 p) = true ->
  exists xi, inForce nm mbs G (distRate nm mbs G) p (hs ++ [e]) xi /\ forall x, holdsRow (sdNrVars d) x (colInEq c') k <->
    - xi * ((pDist nm mbs G p e - psDs p) / (psDi p - psDs p)) <= nextRate nm mbs G d step p (lastNormal nm mbs G p hs) e x.
Proof.
  intros HR HS HU Hk M. destruct (update_lemma d step ops c e HR HS) as (c1 & h1 & own & E & _ & _ & _ & _ & _ & S).
  assert (c1 = c') as -> by congruence. destruct (S k p hs Hk) as (xi & IF & SL). exists xi. split; [apply inForce_mobile; auto|]. intros x.
  rewrite (rows_holds c' k _ x _ (SL x)), pairSlack_mobile by auto. split; intros; lra.
Qed.

(** Second robot only: the closest point of the first body, taken on the second one, and the other sign. *)
Definition wrongRate (d : solverData) (dt : R) (p : pairSpec) (n0 : V3) (e : cenv) (x : nat -> R) : R :=
  let v := ptVel nm e (psR2 p) (psB2 p) (pW1 nm mbs G p e) in
  let a := ptAcc nm mbs d e (psR2 p) (psB2 p) (pW1 nm mbs G p e) (sel2 p) x in
  dot (pNormal nm mbs G p e) v + dt * (dot (pNormal nm mbs G p e) a + dot (vsc (/ dt) (vsub (pNormal nm mbs G p e) n0)) v).
Lemma pairSlack_second d dt p hs e xi x : movable mbs (psR1 p) = false -> movable mbs (psR2 p) = true ->
  pairSlack nm mbs G d dt p hs e xi x = xi * ((pDist nm mbs G p e - psDs p) / (psDi p - psDs p)) + wrongRate d dt p (lastNormal nm mbs G p hs) e x.
Proof.
  intros M M2. unfold pairSlack. f_equal. unfold wrongRate, pointsAt, bodiesOf, sideBCD. rewrite M, M2. cbn [app]. unfold withPoints; cbn [map fold_right]. unfold bTerm, jx; cbn [fst snd bR bPath bSel].
  rewrite !toPoint_eq; cbn [bR bBody]. fold (ptOf nm e (psR2 p) (psB2 p) (pW1 nm mbs G p e)). cbv zeta. unfold ptVel, ptAcc. v3unf. ring.
Qed.
Lemma pairSlack_none d dt p hs e xi x : movable mbs (psR1 p) = false -> movable mbs (psR2 p) = false ->
  pairSlack nm mbs G d dt p hs e xi x = xi * ((pDist nm mbs G p e - psDs p) / (psDi p - psDs p)).
Proof. intros M M2. unfold pairSlack, pointsAt, bodiesOf, sideBCD. rewrite M, M2. simpl. ring. Qed.
End Facts.
