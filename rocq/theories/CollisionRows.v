(** The rows written by the updates. *)
From Verif Require Export CollisionProofs.
Open Scope list_scope.
Open Scope R_scope.
Local Arguments sumn : simpl never.

(** Sizes of the matrices, and the columns after the accelerations are zero. *)
Definition wInv (md tot cols rows : nat) (w : crow) : Prop :=
  mrows (rwDist w) = 1%nat /\ mcols (rwDist w) = md /\ mrows (rwFull w) = 1%nat /\ mcols (rwFull w) = md /\
  mrows (rwA w) = rows /\ mcols (rwA w) = cols /\ vlen (rwB w) = rows /\ (forall i j, (tot <= j)%nat -> mget (rwA w) i j = 0).
(** A body of a pair fits the variables. *)
Definition bFits (mbs : list multibody) (d : solverData) (md tot : nat) (b : bcd) : Prop :=
  exists mb beg, nth_error mbs (bR b) = Some mb /\ alphaDBegin d (bR b) = Ok beg /\ wfPath mb (bPath b) /\ (nrDof mb <= md)%nat /\
    (beg + nrDof mb <= tot)%nat /\ (vlen (bSel b) = 0%nat \/ vlen (bSel b) = nrDof mb).

Lemma selected_Ok sel M M' : selected sel M = Ok M' -> mrows M' = mrows M /\ mcols M' = mcols M /\
  forall i j, mget M' i j = mget M i j * weight sel j.
Proof.
  unfold selected, weight. destruct (Nat.eqb (vlen sel) 0); intros H.
  - injection H as <-. split; [auto|]. split; [auto|]. intros. ring.
  - apply bind_Ok in H as (u & _ & H). injection H as <-. simpl. auto.
Qed.
Lemma selected_def sel M : vlen sel = 0%nat \/ vlen sel = mcols M -> exists M', selected sel M = Ok M'.
Proof.
  intros H. unfold selected. destruct (Nat.eqb (vlen sel) 0) eqn:E; [eauto|]. apply Nat.eqb_neq in E. destruct H as [H|H]; [congruence|].
  rewrite H, Nat.eqb_refl. simpl. eauto.
Qed.

Section Rows.
Variables (mbs : list multibody) (d : solverData) (K : pkin) (step : R) (nf dnf : V3).

(** Acceleration of the point of a body. *)
Definition jx (b : bcd) (pt : V3) (x : nat -> R) : V3 :=
  let J l := jacDot (robot mbs (bR b)) (bPath b) (pJac K (bR b) (bPath b) pt l) (fun j => weight (bSel b) j * x (beginOf d (bR b) + j)%nat) in
  mkV3 (J 0%nat) (J 1%nat) (J 2%nat).
Definition bTerm (y : bcd * V3 * R) (x : nat -> R) : R :=
  let b := fst (fst y) in let pt := snd (fst y) in
  let v := pVel K (bR b) (bPath b) pt in
  snd y * (dot v nf + dot v (vsc step dnf) + step * dot nf (vadd (jx b pt x) (pNAcc K (bR b) (bPath b) pt))).
Definition slack (w : crow) (nr : nat) (x : nat -> R) : R := vget (rwB w) nr - rowdot (rwA w) nr x.

(** Rows other than [nr] are left alone. *)
Definition sameBut (nr : nat) (w w' : crow) : Prop :=
  forall i, i <> nr -> vget (rwB w') i = vget (rwB w) i /\ forall j, mget (rwA w') i j = mget (rwA w) i j.

Lemma fullJacobian_dims mb path small r r' : fullJacobian mb path small r = Ok r' -> mrows r' = mrows r /\ mcols r' = mcols r.
Proof.
  unfold fullJacobian. intros H. apply bind_Ok in H as (r0 & H0 & H). apply fullLoop_dims in H as (-> & ->). apply mset_block_Ok in H0 as (_ & _ & A & B & _). auto.
Qed.
Lemma bodyRow_keep md tot cols rows nr y w w' : wInv md tot cols rows w ->
  (forall mb beg, nth_error mbs (bR (fst (fst y))) = Some mb -> alphaDBegin d (bR (fst (fst y))) = Ok beg -> (beg + nrDof mb <= tot)%nat) ->
  bodyRow mbs d K step nf dnf nr y w = Ok w' -> wInv md tot cols rows w' /\ sameBut nr w w'.
Proof.
  intros (I1 & I2 & I3 & I4 & I5 & I6 & I7 & I8) HB H. unfold bodyRow in H. cbv zeta in H.
  apply bind_Ok in H as (mb & M & H). apply vec_at_Ok in M. apply bind_Ok in H as (dj & D1 & H). apply bind_Ok in H as (small & S1 & H).
  apply bind_Ok in H as (full & F1 & H). apply bind_Ok in H as (blk & B1 & H). apply bind_Ok in H as (sel & S2 & H). apply bind_Ok in H as (beg & BG & H).
  apply bind_Ok in H as (A & HA & H). apply bind_Ok in H as (B & HBv & H). injection H as <-. specialize (HB mb beg M BG).
  apply mset_block_Ok in D1 as (_ & _ & D1 & D2 & _). apply fullJacobian_dims in F1 as (F1 & F2). apply mblock_Ok in B1 as (_ & _ & B1 & B2 & _).
  apply selected_Ok in S2 as (S2 & S3 & _). apply madd_block_Ok in HA as (_ & _ & A1 & A2 & A3). apply vadd_seg_Ok in HBv as (_ & V1 & V2).
  cbn [mopp mrows mcols mget] in A3. cbn [vfill vlen] in V2.
  split.
  - unfold wInv; cbn [rwDist rwFull rwA rwB]. repeat (split; [congruence|]). intros i j Hj. rewrite A3.
    replace (inr beg (mcols sel) j) with false by (symmetry; apply inr_false; lia). rewrite andb_false_r. auto.
  - intros i N. cbn [rwA rwB]. split.
    + rewrite V2. replace (inr nr 1 i) with false by (symmetry; apply inr_false; lia). reflexivity.
    + intros j. rewrite A3. rewrite S2, B1. replace (inr nr 1 i) with false by (symmetry; apply inr_false; lia). reflexivity.
Qed.

Lemma dot_sum u v : sumn 3 (fun l => v3get u l * v3get v l) = dot u v.
Proof. unfold sumn, dot, v3get. ring. Qed.

Lemma bodyRow_ok md tot cols rows nr y w : wInv md tot cols rows w -> bFits mbs d md tot (fst (fst y)) -> (tot <= cols)%nat -> (nr < rows)%nat ->
  exists w', bodyRow mbs d K step nf dnf nr y w = Ok w' /\ forall x, slack w' nr x = slack w nr x + bTerm y x.
Proof.
  intros (I1 & I2 & I3 & I4 & I5 & I6 & I7 & I8) (mb & beg & M & BG & W & LM & LT & LS) TC NR.
  destruct y as ((b & pt) & sign). cbn [fst snd] in *.
  unfold bodyRow. cbv zeta. cbn [fst snd]. rewrite (proj2 (vec_at_Ok _ _ _) M). cbn [bind].
  set (row := mkMat 1 _ _). pose proof (pathDof_le _ _ W) as PD.
  destruct (mset_block_def (rwDist w) 0 0 row) as (dj & D); [cbn [row mrows]; lia|cbn [row mcols]; lia|]. rewrite D. cbn [bind].
  apply mset_block_Ok in D as (_ & _ & D1 & D2 & D3).
  destruct (mblock_def dj 0 0 1 (pathDof mb (bPath b))) as (small & S); [lia|lia|]. rewrite S. cbn [bind]. apply mblock_Ok in S as (_ & _ & S1 & S2 & S3).
  destruct (fullJacobian_spec mb (bPath b) small (rwFull w) W) as (full & F & F1 & F2 & _ & F3); [lia|lia|lia|]. rewrite F. cbn [bind].
  destruct (mblock_def full 0 0 1 (nrDof mb)) as (blk & B); [lia|lia|]. rewrite B. cbn [bind]. apply mblock_Ok in B as (_ & _ & B1 & B2 & B3).
  destruct (selected_def (bSel b) blk) as (sel & S'); [rewrite B2; auto|]. rewrite S'. cbn [bind]. apply selected_Ok in S' as (T1 & T2 & T3).
  rewrite BG. cbn [bind].
  destruct (madd_block_def (rwA w) nr beg (mopp sel)) as (A & HA); [cbn [mopp mrows]; lia|cbn [mopp mcols]; lia|]. rewrite HA. cbn [bind].
  match goal with |- context [vadd_seg ?v ?n ?u] => destruct (vadd_seg_def v n u) as (Bv & HB); [cbn [vfill vlen]; lia|] end. rewrite HB. cbn [bind].
  eexists. split; [reflexivity|]. intros x. unfold slack. cbn [rwA rwB].
  apply vadd_seg_Ok in HB as (_ & _ & HB). rewrite HB. cbn [vfill vlen vget]. replace (inr nr 1 nr) with true by (symmetry; apply inr_true; lia).
  rewrite (rowdot_add_block _ _ _ _ _ _ x HA). cbn [mopp mrows mcols mget]. rewrite T1, B1. replace (inr nr 1 nr) with true by (symmetry; apply inr_true; lia).
  rewrite Nat.sub_diag, T2, B2.
  assert (E : sumn (nrDof mb) (fun j => - mget sel 0 j * x (beg + j)%nat) = - (sign * step * dot nf (jx b pt x))).
  { transitivity (- sumn (nrDof mb) (fun j => mget full 0 j * (weight (bSel b) j * x (beg + j)%nat))).
    { rewrite <- sumn_opp. apply sumn_ext. intros j Hj. rewrite T3, B3. cbn [plus]. ring. }
    rewrite (F3 0%nat (fun j => weight (bSel b) j * x (beg + j)%nat)) by lia. f_equal.
    rewrite (jacDot_ext _ _ _ (fun c => sumn 3 (fun l => v3get (vsc sign (vsc step nf)) l * pJac K (bR b) (bPath b) pt l c)) _ (fun j => weight (bSel b) j * x (beg + j)%nat)); [|
      intros c Hc; rewrite S3, D3; cbn [plus]; replace (inr 0 (mrows row) 0) with true by (symmetry; apply inr_true; cbn [row mrows]; lia);
      replace (inr 0 (mcols row) c) with true by (symmetry; apply inr_true; cbn [row mcols]; lia); cbn [andb row mget]; rewrite Nat.sub_0_r; reflexivity|auto].
    rewrite jacDot_sumn. unfold jx. rewrite <- dot_sum, <- sumn_scal. apply sumn_ext. intros l Hl. rewrite jacDot_scal.
    assert (RB : robot mbs (bR b) = mb) by (unfold robot; erewrite nth_error_nth; eauto). unfold beginOf. rewrite BG, RB.
    assert (L3 : (l = 0 \/ l = 1 \/ l = 2)%nat) by lia. destruct L3 as [-> | [-> | ->]]; cbn [v3get vsc vx vy vz]; ring. }
  rewrite E. unfold bTerm. cbn [fst snd]. v3unf. ring.
Qed.

Lemma bodyRows_ok md tot cols rows nr : forall l w, wInv md tot cols rows w -> Forall (fun y => bFits mbs d md tot (fst (fst y))) l -> (tot <= cols)%nat -> (nr < rows)%nat ->
  exists w', bodyRows mbs d K step nf dnf nr l w = Ok w' /\ wInv md tot cols rows w' /\ sameBut nr w w' /\
    forall x, slack w' nr x = slack w nr x + fold_right Rplus 0 (map (fun y => bTerm y x) l).
Proof.
  induction l as [|y l IH]; intros w I F TC NR; simpl.
  - exists w. split; [auto|]. split; [auto|]. split; [intros i _; auto|]. intros. ring.
  - inversion F as [|? ? F1 F2]; subst. destruct (bodyRow_ok md tot cols rows nr y w I F1 TC NR) as (w1 & E & S1). rewrite E. cbn [bind].
    assert (KP := bodyRow_keep md tot cols rows nr y w w1 I ltac:(intros mb beg M BG; destruct F1 as (mb' & beg' & M' & BG' & _ & _ & L & _); congruence) E).
    destruct KP as (I1 & K1). destruct (IH w1 I1 F2 TC NR) as (w' & E' & I' & K' & S'). exists w'. split; [auto|]. split; [auto|]. split.
    + intros i N. destruct (K1 i N) as (A1 & A2). destruct (K' i N) as (A3 & A4). split; [congruence|]. intros j. rewrite A4. auto.
    + intros x. rewrite S', S1. ring.
Qed.
Lemma bodyRows_keep md tot cols rows nr : forall l w w', wInv md tot cols rows w ->
  (forall r mb beg, nth_error mbs r = Some mb -> alphaDBegin d r = Ok beg -> (beg + nrDof mb <= tot)%nat) ->
  bodyRows mbs d K step nf dnf nr l w = Ok w' -> wInv md tot cols rows w' /\ sameBut nr w w'.
Proof.
  induction l as [|y l IH]; intros w w' I HB H; simpl in H.
  - injection H as <-. split; [auto|]. intros i _; auto.
  - apply bind_Ok in H as (w1 & H1 & H). apply (bodyRow_keep md tot cols rows) in H1 as (I1 & K1); auto.
    2:{ intros mb beg. apply HB. }
    apply IH in H as (I' & K'); auto. split; [auto|]. intros i N. destruct (K1 i N) as (A1 & A2). destruct (K' i N) as (A3 & A4). split; [congruence|]. intros j. rewrite A4. auto.
Qed.
End Rows.

Section Pairs.
Variables (nm : names) (mbs : list multibody) (G : geom) (d : solverData).

(** Right-hand side minus left-hand side of the row of a pair. *)
Definition pairSlack (dt : R) (p : pairSpec) (hs : list cenv) (e : cenv) (xi : R) (x : nat -> R) : R :=
  xi * ((pDist nm mbs G p e - psDs p) / (psDi p - psDs p)) +
  fold_right Rplus 0 (map (fun y => bTerm mbs d (eK e) dt (pNormal nm mbs G p e)
       (vsc (/ dt) (vsub (pNormal nm mbs G p e) (lastNormal nm mbs G p hs))) y x) (pointsAt nm mbs G p e)).

Lemma colPair_keep K step tot md cols rows c h nr w c' h' nr' w' : wInv md tot cols rows w -> (tot <= cols)%nat ->
  (forall r mb beg, nth_error mbs r = Some mb -> alphaDBegin d r = Ok beg -> (beg + nrDof mb <= tot)%nat) ->
  colPair mbs d G K step (Some tot) c h nr w = Ok (c', h', nr', w') ->
  wInv md tot cols rows w' /\ (nr <= nr')%nat /\ (forall i, (i < nr)%nat -> vget (rwB w') i = vget (rwB w) i /\ forall j, mget (rwA w') i j = mget (rwA w) i j).
Proof.
  intros I TC HB H. unfold colPair in H. cbv zeta in H. destruct (Rltb _ _).
  - apply bind_Ok in H as ((k & ty) & _ & H). apply bind_Ok in H as (u & _ & H). apply bind_Ok in H as (B1 & HV & H). cbn [bind] in H.
    apply bind_Ok in H as (A1 & HA & H). apply bind_Ok in H as (w1 & HR & H). injection H as <- <- <- <-.
    destruct I as (I1 & I2 & I3 & I4 & I5 & I6 & I7 & I8). unfold vput in HV. destruct (_ <? _)%nat eqn:LT; [|discriminate]. injection HV as <-.
    apply mset_block_Ok in HA as (A1' & A2 & A3 & A4 & A5). cbn [mzero mrows mcols mget] in A5.
    apply (bodyRows_keep mbs d K step _ _ md tot cols rows) in HR as (IR & KR); auto.
    + split; [exact IR|]. split; [lia|]. intros i Hi. destruct (KR i) as (K1 & K2); [lia|]. cbn [rwA rwB vget] in K1, K2. split.
      * rewrite K1. rewrite (proj2 (Nat.eqb_neq _ _)) by lia. reflexivity.
      * intros j. rewrite K2, A5. replace (inr nr 1 i) with false by (symmetry; apply inr_false; lia). reflexivity.
    + unfold wInv; cbn [rwDist rwFull rwA rwB vlen]. repeat (split; [congruence|]). intros i j Hj. rewrite A5. destruct (_ && _); auto.
  - injection H as <- <- <- <-. auto.
Qed.
Lemma colPairs_keep K step tot md cols rows : forall l h nr w l' h' nr' w', wInv md tot cols rows w -> (tot <= cols)%nat ->
  (forall r mb beg, nth_error mbs r = Some mb -> alphaDBegin d r = Ok beg -> (beg + nrDof mb <= tot)%nat) ->
  colPairs mbs d G K step (Some tot) l h nr w = Ok (l', h', nr', w') ->
  wInv md tot cols rows w' /\ (nr <= nr')%nat /\ (forall i, (i < nr)%nat -> vget (rwB w') i = vget (rwB w) i /\ forall j, mget (rwA w') i j = mget (rwA w) i j).
Proof.
  induction l as [|c l IH]; intros h nr w l' h' nr' w' I TC HB H; simpl in H.
  - injection H as <- <- <- <-. auto.
  - apply bind_Ok in H as ([[[c1 h1] nr1] w1] & H1 & H). apply bind_Ok in H as ([[[l2 h2] nr2] w2] & H2 & H). injection H as <- <- <- <-.
    apply (colPair_keep K step tot md cols rows) in H1 as (A1 & A2 & A3); auto. apply (IH h1 nr1) in H2 as (B1 & B2 & B3); auto.
    split; [auto|]. split; [lia|]. intros i Hi. destruct (A3 i Hi) as (C1 & C2). destruct (B3 i ltac:(lia)) as (C3 & C4). split; [congruence|]. intros j. rewrite C4. auto.
Qed.

Lemma withPoints_fst K p1 p2 bs : map (fun y => fst (fst y)) (withPoints K p1 p2 bs) = bs.
Proof. destruct bs as [|b bs]; simpl; [auto|]. f_equal. rewrite map_map. simpl. apply map_id. Qed.

Lemma colPair_ok own step tot md cols rows p hs c e h nr w :
  ownsPair nm mbs own p -> hInv own e h -> rel nm mbs G (p, hs) c -> wInv md tot cols rows w -> (tot <= cols)%nat ->
  Forall (bFits mbs d md tot) (bodiesOf nm mbs p) -> psDi p <> psDs p -> step <> 0 -> (nearb nm mbs G p e = true -> (nr < rows)%nat) ->
  exists c' h' nr' w', colPair mbs d G (eK e) step (Some tot) c h nr w = Ok (c', h', nr', w') /\
    nr' = (if nearb nm mbs G p e then S nr else nr) /\
    (nearb nm mbs G p e = true -> inForce nm mbs G (codeRate nm mbs G) p (hs ++ [e]) (clDamping c') /\ forall x, slack w' nr x = pairSlack step p hs e (clDamping c') x).
Proof.
  intros O I RL WI TC FB ND NS NR. destruct (pair_view nm mbs G own p hs c e h O I RL) as (V1 & V2 & V3 & V4 & V5 & V6 & V7). cbv zeta in *.
  unfold colPair. cbv zeta. rewrite V5, V6, V7.
  destruct RL as (R0 & R1 & R2 & R3 & R4 & R5 & R6 & R7 & R8 & R9).
  rewrite R4, R5, R6, R7, R8. fold (pointsAt nm mbs G p e). fold (pNormal nm mbs G p e). fold (nearb nm mbs G p e).
  destruct (nearb nm mbs G p e) eqn:B; [|do 4 eexists; split; [reflexivity|]; split; [reflexivity|discriminate]].
  specialize (NR eq_refl).
  assert (HT : exists k ty, (match clType c with
      | DFree => do k <- colDamping (eK e) (pointsAt nm mbs G p e) (psDi p) (psDs p) (psOff p) (pNormal nm mbs G p e) (pDist nm mbs G p e); Ok (k, DSoft)
      | ty => Ok (clDamping c, ty) end) = Ok (k, ty) /\
      match clType c with DFree => k = entryDamping (psDi p) (psDs p) (psOff p) (pDist nm mbs G p e) (codeRate nm mbs G p e) /\ ty = DSoft | t => k = clDamping c /\ ty = t end).
  { destruct (clType c); [eauto|eauto|].
    assert (DF : exists k, colDamping (eK e) (pointsAt nm mbs G p e) (psDi p) (psDs p) (psOff p) (pNormal nm mbs G p e) (pDist nm mbs G p e) = Ok k).
    { unfold colDamping. rewrite (proj2 (Reqb_false _ _)); [simpl; eauto|]. destruct (Rle_dec _ _); [|lra]. intros E. apply ND. lra. }
    destruct DF as (k & E). exists k, DSoft. rewrite E. split; [reflexivity|]. apply colDamping_Ok in E. auto. }
  destruct HT as (k & ty & -> & HT). cbn [bind].
  rewrite (proj2 (Reqb_false (psDi p - psDs p) 0)) by lra. rewrite (proj2 (Reqb_false step 0)) by auto. cbn [negb andb guard bind].
  destruct WI as (I1 & I2 & I3 & I4 & I5 & I6 & I7 & I8).
  unfold vput. rewrite I7, (proj2 (Nat.ltb_lt _ _) NR). cbn [bind].
  destruct (mset_block_def (rwA w) nr 0 (mzero 1 tot)) as (A1 & HA); [cbn [mzero mrows]; lia|cbn [mzero mcols]; lia|]. rewrite HA. cbn [bind].
  apply mset_block_Ok in HA as (_ & _ & A3 & A4 & A5). cbn [mzero mrows mcols mget] in A5.
  match goal with |- context [bodyRows _ _ _ _ _ _ _ _ ?w0] => set (w1 := w0) end.
  assert (W1 : wInv md tot cols rows w1).
  { unfold wInv, w1; cbn [rwDist rwFull rwA rwB vlen]. repeat (split; [congruence|]). intros i j Hj. rewrite A5. destruct (_ && _); auto. }
  assert (FP : Forall (fun y => bFits mbs d md tot (fst (fst y))) (pointsAt nm mbs G p e)).
  { rewrite <- (withPoints_fst (eK e) (pW1 nm mbs G p e) (pW2 nm mbs G p e) (bodiesOf nm mbs p)) in FB. rewrite Forall_map in FB. exact FB. }
  destruct (bodyRows_ok mbs d (eK e) step (pNormal nm mbs G p e) (vsc (/ step) (vsub (pNormal nm mbs G p e) (lastNormal nm mbs G p hs))) md tot cols rows nr _ w1 W1 FP TC NR) as (w' & E & _ & _ & S).
  rewrite E. cbn [bind]. do 4 eexists. split; [reflexivity|]. split; [reflexivity|]. intros _. cbn [clDamping].
  split.
  - apply (damp_next nm mbs G p hs c e k ty R9); auto. apply nearb_true; auto.
  - intros x. rewrite S. unfold pairSlack. f_equal. unfold slack, w1. cbn [rwB rwA vget]. rewrite Nat.eqb_refl.
    replace (rowdot A1 nr x) with 0; [ring|]. symmetry. unfold rowdot. apply sumn_0. intros j Hj. rewrite A5.
    replace (inr nr 1 nr) with true by (symmetry; apply inr_true; lia). destruct (inr 0 tot j) eqn:T; cbn [andb]; [ring|].
    rewrite I8; [ring|]. apply inr_false in T. lia.
Qed.

Lemma slack_same w w' i x : mcols (rwA w') = mcols (rwA w) -> vget (rwB w') i = vget (rwB w) i -> (forall j, mget (rwA w') i j = mget (rwA w) i j) -> slack w' i x = slack w i x.
Proof. intros C B A. unfold slack, rowdot. rewrite B, C. f_equal. apply sumn_ext. intros. rewrite A. auto. Qed.

Lemma nearPairs_cons e p hs ps : nearPairs nm mbs G e ((p, hs) :: ps) = if nearb nm mbs G p e then (p, hs) :: nearPairs nm mbs G e ps else nearPairs nm mbs G e ps.
Proof. reflexivity. Qed.

Lemma colPairs_ok own step tot md cols rows e : forall l ps h nr w,
  Forall (fun ph => ownsPair nm mbs own (fst ph)) ps -> hInv own e h -> Forall2 (rel nm mbs G) ps l -> wInv md tot cols rows w -> (tot <= cols)%nat ->
  (forall r mb beg, nth_error mbs r = Some mb -> alphaDBegin d r = Ok beg -> (beg + nrDof mb <= tot)%nat) ->
  Forall (fun ph => Forall (bFits mbs d md tot) (bodiesOf nm mbs (fst ph)) /\ psDi (fst ph) <> psDs (fst ph)) ps -> step <> 0 ->
  (nr + length (nearPairs nm mbs G e ps) <= rows)%nat ->
  exists l' h' nr' w', colPairs mbs d G (eK e) step (Some tot) l h nr w = Ok (l', h', nr', w') /\
    nr' = (nr + length (nearPairs nm mbs G e ps))%nat /\
    forall k p hs, nth_error (nearPairs nm mbs G e ps) k = Some (p, hs) ->
      exists xi, inForce nm mbs G (codeRate nm mbs G) p (hs ++ [e]) xi /\ forall x, slack w' (nr + k) x = pairSlack step p hs e xi x.
Proof.
  induction l as [|c l IH]; intros ps h nr w O I F WI TC HB FB NS NR; inversion F as [|[p hs] ? ps' ? RL F']; subst.
  - simpl. do 4 eexists. split; [reflexivity|]. split; [simpl; lia|]. intros k p hs H. destruct k; discriminate.
  - inversion O as [|? ? O1 O2]; subst. inversion FB as [|? ? (B1 & B2) FB2]; subst. simpl in O1, B1, B2. rewrite nearPairs_cons in *.
    destruct (colPair_ok own step tot md cols rows p hs c e h nr w O1 I RL WI TC B1 B2 NS) as (c1 & h1 & nr1 & w1 & E1 & N1 & S1).
    { intros Hn. rewrite Hn in NR. simpl in NR. lia. }
    simpl. rewrite E1. cbn [bind].
    destruct (colPair_rel nm mbs G own d step (Some tot) p hs c e h nr w c1 h1 nr1 w1 O1 I RL E1) as (A1 & A2 & _).
    destruct (colPair_keep (eK e) step tot md cols rows c h nr w c1 h1 nr1 w1 WI TC HB E1) as (W1 & _ & _).
    destruct (IH ps' h1 nr1 w1 O2 A2 F' W1 TC HB FB2 NS) as (l2 & h2 & nr2 & w2 & E2 & N2 & S2).
    { rewrite N1. destruct (nearb nm mbs G p e); simpl in NR; lia. }
    rewrite E2. cbn [bind]. do 4 eexists. split; [reflexivity|]. split; [rewrite N2, N1; destruct (nearb nm mbs G p e); simpl; lia|].
    destruct (colPairs_keep (eK e) step tot md cols rows l h1 nr1 w1 l2 h2 nr2 w2 W1 TC HB E2) as (W2 & _ & K2).
    intros k q hq H. destruct (nearb nm mbs G p e) eqn:NB.
    + destruct k as [|k].
      * injection H as <- <-. destruct (S1 eq_refl) as (IF & S). exists (clDamping c1). split; [exact IF|]. intros x. rewrite Nat.add_0_r, <- S.
        destruct (K2 nr ltac:(lia)) as (K3 & K4). apply slack_same; auto. destruct W1 as (_ & _ & _ & _ & _ & C1 & _). destruct W2 as (_ & _ & _ & _ & _ & C2 & _). congruence.
      * simpl in H. destruct (S2 k q hq H) as (xi & IF & S). exists xi. split; [auto|]. intros x. rewrite <- S, N1. f_equal. lia.
    + destruct (S2 k q hq H) as (xi & IF & S). exists xi. split; [auto|]. intros x. rewrite <- S, N1. reflexivity.
Qed.
End Pairs.
