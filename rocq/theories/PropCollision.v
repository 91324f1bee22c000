(** Properties of the collision constraint: C44-C48, C74, C75. *)
From Verif Require Import CollisionWitness.
Open Scope string_scope.
Open Scope list_scope.
Open Scope R_scope.

(** C44: after any calls in which the sizes were given, update is defined and the number of rows is the number of pairs
    in force whose distance is less than their interactive distance. The meaning of row number k is C45. *)
Theorem C44_number : forall nm mbs G d step ops c e,
  reaches nm mbs G d step ops c -> sound nm mbs step (addsOf ops) ->
  exists c' h', colUpdate mbs d G (eK e) (eH e) c = Ok (c', h') /\ iqNr (colInEq c') = length (nearPairs nm mbs G e (alive ops)) /\
    iqMax (colInEq c') = length (alive ops) /\ mcols (iqA (colInEq c')) = sdNrVars d.
Proof. exact number_lemma. Qed.
Print Assumptions C44_number.
(** C44: descInEq(k) describes the k-th of these pairs: its robots and bodies, number, distance and parameters. *)
Theorem C44_description : forall nm mbs G d step ops c e c' h' k,
  reaches nm mbs G d step ops c -> sound nm mbs step (addsOf ops) -> namesOk nm ->
  colUpdate mbs d G (eK e) (eH e) c = Ok (c', h') ->
  match nth_error (nearPairs nm mbs G e (alive ops)) k with
  | Some (p, _) => exists damp, descInEq nm G h' c' k = Some (mkCDesc (mobileBodies mbs p) (psId p) (pDist nm mbs G p e) (psDi p) (psDs p) damp)
  | None => descInEq nm G h' c' k = None
  end.
Proof. exact desc_lemma'. Qed.
Print Assumptions C44_description.
(** One pair at distance 2, interactive distance 4, after a previous update. *)
Example C44_used : exists c c' h' damp, reaches wNames wMbs qG wData 1 [CAdd (qP 3 0 qX); CNr wData; CUp wData (qE 2 (-1))] c /\
  colUpdate wMbs wData qG (eK (qE 2 (-1))) (eH (qE 2 (-1))) c = Ok (c', h') /\
  descInEq wNames qG h' c' 0 = Some (mkCDesc [(0%nat, "foot"); (1%nat, "box")] 7%Z (pDist wNames wMbs qG (qP 3 0 qX) (qE 2 (-1))) 4 1 damp).
Proof.
  destruct qTwo as (c & c' & h' & HR & HU & NP). pose proof (C44_description _ _ _ _ _ _ _ _ _ _ 0 HR (qSound 3 0 qX) wNamesOk HU) as D.
  rewrite NP in D. destruct D as (damp & D). exists c, c', h', damp. split; [exact HR|]. split; [exact HU|]. exact D.
Qed.
(** C44, finding: when a hull is used by two pairs at two places of its body, an active row has no description. *)
Theorem C44_shared_refuted : exists nm mbs G d step ops c e c' h',
  reaches nm mbs G d step ops c /\ pathsOk nm mbs /\ namesOk nm /\ step <> 0 /\ (forall p, In p (addsOf ops) -> psDi p <> psDs p) /\
  colUpdate mbs d G (eK e) (eH e) c = Ok (c', h') /\ coNr c' = 1%nat /\ descInEq nm G h' c' 0 = None.
Proof. exact shared_refuted_lemma. Qed.
Print Assumptions C44_shared_refuted.

(** C45: row number k holds at x iff the rate of change of the distance of the k-th close pair, predicted for the next
    step with the change of the normal since the previous update, is at least -xi (dist - ds) / (di - ds), where xi is
    the damping in force. The previous normal of the first update is zero. *)
Theorem C45_exact : forall nm mbs G d step ops c e c' h' k p hs,
  reaches nm mbs G d step ops c -> sound nm mbs step (addsOf ops) ->
  colUpdate mbs d G (eK e) (eH e) c = Ok (c', h') -> nth_error (nearPairs nm mbs G e (alive ops)) k = Some (p, hs) -> movable mbs (psR1 p) = true ->
  exists xi, inForce nm mbs G (distRate nm mbs G) p (hs ++ [e]) xi /\ forall x, holdsRow (sdNrVars d) x (colInEq c') k <->
    - xi * ((pDist nm mbs G p e - psDs p) / (psDi p - psDs p)) <= nextRate nm mbs G d step p (lastNormal nm mbs G p hs) e x.
Proof. exact row_lemma. Qed.
Print Assumptions C45_exact.
(** At distance 2 with speed -1 the row accepts no acceleration and refuses -1. *)
Example C45_used : exists c c' h', reaches wNames wMbs qG wData 1 [CAdd (qP 3 0 qX); CNr wData; CUp wData (qE 2 (-1))] c /\
  colUpdate wMbs wData qG (eK (qE 2 (-1))) (eH (qE 2 (-1))) c = Ok (c', h') /\
  holdsRow (sdNrVars wData) (fun _ => 0) (colInEq c') 0 /\ ~ holdsRow (sdNrVars wData) (fun j => if Nat.eqb j 0 then -1 else 0) (colInEq c') 0.
Proof.
  destruct qTwo as (c & c' & h' & HR & HU & NP). destruct (C45_exact _ _ _ _ _ _ _ _ _ _ 0 _ _ HR (qSound 3 0 qX) HU NP eq_refl) as (xi & IF & X).
  assert (xi = 3) as -> by (destruct IF as [(_ & ->)|(H & _)]; [reflexivity|cbn in H; lra]).
  exists c, c', h'. split; [exact HR|]. split; [exact HU|]. rewrite !X. unfold lastNormal. cbn [rev app]. unfold qX. rewrite qNormal, qDist by lra. fold qX. rewrite !qRate by lra. cbn. split; lra.
Qed.
(** C45, finding: the first update after addCollision takes zero for the previous normal; the row then counts the
    velocity twice and accepts accelerations with which the distance decreases too fast. *)
Theorem C45_first_refuted : exists nm mbs G d step ops c e c' h' p xi x,
  reaches nm mbs G d step ops c /\ sound nm mbs step (addsOf ops) /\ colUpdate mbs d G (eK e) (eH e) c = Ok (c', h') /\
  nth_error (nearPairs nm mbs G e (alive ops)) 0 = Some (p, []) /\ movable mbs (psR1 p) = true /\ movable mbs (psR2 p) = true /\
  inForce nm mbs G (distRate nm mbs G) p [e] xi /\ holdsRow (sdNrVars d) x (colInEq c') 0 /\
  nextRate nm mbs G d step p (pNormal nm mbs G p e) e x < - xi * ((pDist nm mbs G p e - psDs p) / (psDi p - psDs p)).
Proof. exact first_refuted_lemma. Qed.
Print Assumptions C45_first_refuted.

(** C46: along any trajectory of updates whose solutions satisfy the rows, a pair added out of reach whose distance
    evolves with the predicted rate never comes closer than the security distance, if the damping in force is at most
    (di - ds) / step and no step taken out of reach is longer than di - ds. *)
Theorem C46_security : forall nm mbs G d step ops c i p es xs,
  reaches nm mbs G d step ops c -> sound nm mbs step (addsOf ops) -> nth_error (alive ops) i = Some (p, []) ->
  movable mbs (psR1 p) = true -> 0 < step -> psDs p < psDi p ->
  (forall n c', colRun nm mbs G c (updates d es (S n)) = Ok c' -> holdsIneq (sdNrVars d) (xs n) (colInEq c')) ->
  ~ near nm mbs G p (es 0%nat) ->
  (forall n, near nm mbs G p (es (S n)) -> pDist nm mbs G p (es (S (S n))) =
     pDist nm mbs G p (es (S n)) + step * nextRate nm mbs G d step p (pNormal nm mbs G p (es n)) (es (S n)) (xs (S n))) ->
  (forall n, ~ near nm mbs G p (es n) -> pDist nm mbs G p (es n) - (psDi p - psDs p) <= pDist nm mbs G p (es (S n))) ->
  (forall n xi, inForce nm mbs G (distRate nm mbs G) p (map es (seq 0 n)) xi -> step * xi <= psDi p - psDs p) ->
  forall n, psDs p <= pDist nm mbs G p (es n).
Proof. intros nm mbs G d. exact (security_lemma nm mbs G d). Qed.
Print Assumptions C46_security.
(** A trajectory which converges to the security distance 1 as fast as the rows permit: distances 5, 3, 2, 1.5... *)
Example C46_used : (forall n, 1 <= pDist wNames wMbs qG (qP (3 / 2) 0 qX) (tE n)) /\
  pDist wNames wMbs qG (qP (3 / 2) 0 qX) (tE 0) = 5 /\ pDist wNames wMbs qG (qP (3 / 2) 0 qX) (tE 2) = 2.
Proof.
  destruct (qReaches (3 / 2) 0 qX) as (c & HR). destruct (tLoop c HR) as (H1 & H2 & H3 & H4). split; [|rewrite !tDist; unfold tH; simpl; lra].
  refine (C46_security _ _ _ _ _ _ _ 0 (qP (3 / 2) 0 qX) tE tX HR (qSound _ _ _) eq_refl eq_refl _ _ H1 H2 H3 H4 _); [lra|cbn; lra|].
  intros n xi [(_ & ->)|(H & _)]; cbn in *; lra.
Qed.

(** C47: after any calls: number of pairs, their numbers in order of addition, what rmCollision reports, and what
    getCollisionData returns. [alive] gives the pairs added and not removed, where a removal takes the first pair with
    the number. *)
Theorem C47_registry : forall nm mbs G step ops c0 c,
  newCol mbs step = Ok c0 -> colRun nm mbs G c0 ops = Ok c ->
  nrCollisions c = length (alive ops) /\ map clId (coData c) = map (fun ph => psId (fst ph)) (alive ops) /\
  forall id, (snd (rmCollision id c) = true <-> In id (map (fun ph => psId (fst ph)) (alive ops))) /\
    match find (fun ph => Z.eqb (psId (fst ph)) id) (alive ops) with
    | None => getCollisionData id c = Throw
    | Some (p, _) => exists q, getCollisionData id c = Ok q /\ clId q = id /\ clH1 q = psH1 p /\ clH2 q = psH2 p /\ clDi q = psDi p /\ clDs q = psDs p /\ clOff q = psOff p /\
        map (fun b => (bR b, bHull b, bX b, bSel b)) (clBodies q) =
          (if movable mbs (psR1 p) then [(psR1 p, psH1 p, psX1 p, psSel1 p)] else []) ++
          (if movable mbs (psR2 p) then [(psR2 p, psH2 p, psX2 p, sel2 p)] else [])
    end.
Proof. exact col_registry_lemma. Qed.
Print Assumptions C47_registry.
(** Two pairs with number 7 and one with number 8; one removal of 7 leaves the second one. *)
Example C47_used : exists c0 c q, newCol wMbs 1 = Ok c0 /\
  colRun wNames wMbs qG c0 [CAdd (qP 3 0 qX); CAdd qP2; CAdd (qP 5 6 qX); CRm 7%Z; CRm 9%Z] = Ok c /\
  nrCollisions c = 2%nat /\ map clId (coData c) = [8%Z; 7%Z] /\ getCollisionData 7%Z c = Ok q /\ clOff q = 6 /\ getCollisionData 9%Z c = Throw.
Proof.
  assert (E : exists c0 c, newCol wMbs 1 = Ok c0 /\ colRun wNames wMbs qG c0 [CAdd (qP 3 0 qX); CAdd qP2; CAdd (qP 5 6 qX); CRm 7%Z; CRm 9%Z] = Ok c) by (do 2 eexists; split; [reflexivity|cbn; reflexivity]).
  destruct E as (c0 & c & N & RN). destruct (C47_registry _ _ _ _ _ _ _ N RN) as (L & M & H). destruct (H 7%Z) as (_ & H7). destruct (H 9%Z) as (_ & H9).
  cbn in L, M, H7, H9. destruct H7 as (q & Q & _ & _ & _ & _ & _ & O & _). exists c0, c, q. auto 10.
Qed.

(** C48, finding: when the first robot cannot move, the row has the other sign and uses the closest point of the first
    hull for the second body. *)
Theorem C48_exact : forall nm mbs G d step ops c e c' h' k p hs,
  reaches nm mbs G d step ops c -> sound nm mbs step (addsOf ops) ->
  colUpdate mbs d G (eK e) (eH e) c = Ok (c', h') -> nth_error (nearPairs nm mbs G e (alive ops)) k = Some (p, hs) -> movable mbs (psR1 p) = false -> movable mbs (psR2 p) = true ->
  exists xi, inForce nm mbs G (fun p e => dot (pNormal nm mbs G p e) (ptVel nm e (psR2 p) (psB2 p) (pW1 nm mbs G p e))) p (hs ++ [e]) xi /\
    forall x, holdsRow (sdNrVars d) x (colInEq c') k <->
      - xi * ((pDist nm mbs G p e - psDs p) / (psDi p - psDs p)) <=
      dot (pNormal nm mbs G p e) (ptVel nm e (psR2 p) (psB2 p) (pW1 nm mbs G p e)) +
      step * (dot (pNormal nm mbs G p e) (ptAcc nm mbs d e (psR2 p) (psB2 p) (pW1 nm mbs G p e) (sel2 p) x) +
              dot (vsc (/ step) (vsub (pNormal nm mbs G p e) (lastNormal nm mbs G p hs))) (ptVel nm e (psR2 p) (psB2 p) (pW1 nm mbs G p e))).
Proof. intros nm mbs G d. exact (row_second_lemma nm mbs G d). Qed.
Print Assumptions C48_exact.
(** A row holds although the body closes too fast on the fixed obstacle. *)
Theorem C48_refuted : exists nm mbs G d step ops c e c' h' p xi x,
  reaches nm mbs G d step ops c /\ sound nm mbs step (addsOf ops) /\ colUpdate mbs d G (eK e) (eH e) c = Ok (c', h') /\
  nth_error (nearPairs nm mbs G e (alive ops)) 0 = Some (p, []) /\ movable mbs (psR1 p) = false /\ movable mbs (psR2 p) = true /\
  inForce nm mbs G (distRate nm mbs G) p [e] xi /\ holdsRow (sdNrVars d) x (colInEq c') 0 /\
  forall n0, nextRate nm mbs G d step p n0 e x < - xi * ((pDist nm mbs G p e - psDs p) / (psDi p - psDs p)).
Proof. exact second_refuted_lemma. Qed.
Print Assumptions C48_refuted.

(** C74, finding: a pair of hulls whose robots cannot move has a row without variables; it holds iff the hulls are at
    least at the security distance, else the problem has no solution. *)
Theorem C74_exact : forall nm mbs G d step ops c e c' h' k p hs,
  reaches nm mbs G d step ops c -> sound nm mbs step (addsOf ops) ->
  colUpdate mbs d G (eK e) (eH e) c = Ok (c', h') -> nth_error (nearPairs nm mbs G e (alive ops)) k = Some (p, hs) -> movable mbs (psR1 p) = false -> movable mbs (psR2 p) = false ->
  0 < psDamping p -> psDs p < psDi p ->
  forall x, holdsRow (sdNrVars d) x (colInEq c') k <-> psDs p <= pDist nm mbs G p e.
Proof. intros nm mbs G d. exact (row_none_lemma nm mbs G d). Qed.
Print Assumptions C74_exact.
Theorem C74_refuted : exists nm mbs G d step ops c e c' h' p,
  reaches nm mbs G d step ops c /\ sound nm mbs step (addsOf ops) /\ colUpdate mbs d G (eK e) (eH e) c = Ok (c', h') /\
  nth_error (nearPairs nm mbs G e (alive ops)) 0 = Some (p, []) /\ movable mbs (psR1 p) = false /\ movable mbs (psR2 p) = false /\
  forall x, ~ holdsIneq (sdNrVars d) x (colInEq c').
Proof. exact immobile_refuted_lemma. Qed.
Print Assumptions C74_refuted.

(** C75, finding: descInEq shows the damping in force plus the offset. *)
Theorem C75_exact : forall nm mbs G d step ops c e c' h' k p hs,
  reaches nm mbs G d step ops c -> sound nm mbs step (addsOf ops) -> namesOk nm ->
  colUpdate mbs d G (eK e) (eH e) c = Ok (c', h') -> nth_error (nearPairs nm mbs G e (alive ops)) k = Some (p, hs) -> movable mbs (psR1 p) = true ->
  exists xi dsc, inForce nm mbs G (distRate nm mbs G) p (hs ++ [e]) xi /\ descInEq nm G h' c' k = Some dsc /\ deDamp dsc = xi + psOff p.
Proof. exact desc_damping_exact. Qed.
Print Assumptions C75_exact.
Theorem C75_refuted : exists nm mbs G d step ops c e c' h' p xi dsc,
  reaches nm mbs G d step ops c /\ sound nm mbs step (addsOf ops) /\ namesOk nm /\ colUpdate mbs d G (eK e) (eH e) c = Ok (c', h') /\
  nth_error (nearPairs nm mbs G e (alive ops)) 0 = Some (p, []) /\ inForce nm mbs G (distRate nm mbs G) p [e] xi /\
  descInEq nm G h' c' 0 = Some dsc /\ deDamp dsc <> xi.
Proof. exact desc_damping_lemma. Qed.
Print Assumptions C75_refuted.
