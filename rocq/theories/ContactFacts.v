(** Reference frames over histories, and concrete histories. *)
From Verif Require Export ContactLinesProofs.
Open Scope string_scope.
Open Scope list_scope.
Open Scope R_scope.
Local Arguments sumn : simpl never.

Lemma colActive_true dof j : colActive dof j = true <-> exists r, (r < mrows dof)%nat /\ mget dof r j = 1.
Proof.
  unfold colActive. rewrite existsb_exists. split.
  - intros (r & Hr & E). apply in_seq in Hr. apply Reqb_true in E. exists r. split; [lia|auto].
  - intros (r & Hr & E). exists r. split; [apply in_seq; lia|apply Reqb_true; auto].
Qed.
Lemma revDof_zero dof i j : (exists r, (r < mrows dof)%nat /\ mget dof r j = 1) -> revDof dof i j = 0.
Proof. intros H. apply colActive_true in H. unfold revDof. rewrite H, !andb_false_r. auto. Qed.
Lemma revDof_off dof i j : i <> j -> revDof dof i j = 0.
Proof. intros H. unfold revDof. rewrite (proj2 (Nat.eqb_neq _ _) H). auto. Qed.

Definition sameRef (a b : cdata) : Prop := cdSides b = cdSides a /\ cdXbb b = cdXbb a /\ cdXcf b = cdXcf a.
Definition tracked (a b : cdata) : Prop :=
  cdId b = cdId a /\ cdRevDof b = cdRevDof a /\ ((forall i j, (j < 6)%nat -> cdRevDof a i j = 0) -> sameRef a b).
Lemma tracked_refl l : Forall2 tracked l l.
Proof. induction l; constructor; auto. split; [auto|]. split; [auto|]. split; auto. Qed.

Lemma tracked_step nm mbs uni bi d deps c0 c o c' b : nrVarsData mbs uni bi = Ok (d, deps) -> pathsOk nm mbs ->
  sameProblem mbs o -> ccInv nm mbs d c -> Forall2 tracked (ccCont c0) (ccCont c) -> ccStep c o = Ok (c', b) -> Forall2 tracked (ccCont c0) (ccCont c').
Proof.
  intros HN HP HO IV F H. destruct o as [id|id| |id m|id| |id|id|nm' mbs' d'| |m mbs' sv k]; simpl in *; try tauto.
  - unfold addVirtualContact in H. destruct (mInsert _ _ _). inversion H; subst. auto.
  - unfold removeVirtualContact in H. destruct (mErase _ _). inversion H; subst. auto.
  - inversion H; subst. auto.
  - unfold addDofContact in H. destruct (mInsert _ _ _). inversion H; subst. auto.
  - unfold removeDofContact in H. destruct (mErase _ _). inversion H; subst. auto.
  - inversion H; subst. auto.
  - inversion H; subst; auto.
  - inversion H; subst. unfold dofContact. destruct (mFind id (ccDofs c)); simpl; auto.
  - inversion H; subst. simpl. clear -F. induction F as [|x y l l' T F IH]; simpl; constructor; auto.
  - subst. apply bind_Ok in H as (c1 & H1 & H). inversion H; subst. apply ccUpdate_F2 in H1. pose proof (ivData _ _ _ _ IV) as DT.
    clear -F H1 DT. revert H1 DT. generalize (ccCont c') as l3. induction F as [|x y l l' (T1 & T2 & T3) F IH]; intros l3 H1 DT; inversion H1; subst; constructor.
    + inversion DT as [|? ? (RG & DF) DT']; subst. pose proof (cdUpdate_dof _ _ _ _ H2) as (_ & E1 & E2 & _). split; [congruence|]. split; [congruence|].
      intros Z. destruct (T3 Z) as (A1 & A2 & A3). rewrite T2 in *. assert (y0 = y); [|subst; split; auto].
      eapply cdUpdate_fixed; eauto. rewrite T2. auto.
    + inversion DT; subst. apply IH; auto.
Qed.
Lemma tracked_run nm mbs uni bi d deps c0 ops : nrVarsData mbs uni bi = Ok (d, deps) -> pathsOk nm mbs -> Forall (sameProblem mbs) ops ->
  forall c c' outs, ccInv nm mbs d c -> Forall2 tracked (ccCont c0) (ccCont c) -> ccRun c ops = Ok (c', outs) -> Forall2 tracked (ccCont c0) (ccCont c').
Proof.
  intros HN HP. induction ops as [|o ops IH]; intros F c c' outs IV T H; simpl in H; [inversion H; subst; auto|].
  inversion F; subst. apply bind_Ok in H as ((c1 & b) & H1 & H). apply bind_Ok in H as ((c2 & bs) & H2' & H). inversion H; subst.
  eapply IH; [auto| | |eauto]; [eapply inv_step; eauto|eapply tracked_step; eauto].
Qed.

Lemma reference_lemma nm mbs uni bi d deps ops0 c0 o0 c1 ops c2 o1 q a b :
  nrVarsData mbs uni bi = Ok (d, deps) -> pathsOk nm mbs -> (forall b, In b (sdAll d) -> rigid (bXcf b) /\ rigid (bXbb b)) ->
  ccRun newCC ops0 = Ok (c0, o0) -> updateNrVars nm mbs d c0 = Ok c1 ->
  Forall (sameProblem mbs) ops -> ccRun c1 ops = Ok (c2, o1) ->
  nth_error (ccCont c1) q = Some a -> nth_error (ccCont c2) q = Some b -> allSelected (cdDof a) ->
  cdId b = cdId a /\ cdSides b = cdSides a /\ cdXbb b = cdXbb a /\ cdXcf b = cdXcf a.
Proof.
  intros HN HP HR R0 U R1 R2 Ha Hb HS. pose proof (sorted_run _ _ _ _ sorted_new R0) as S0.
  pose proof (inv_nrVars _ _ _ _ _ _ _ _ HN HR S0 U) as I1.
  pose proof (tracked_run _ _ _ _ _ _ c1 _ HN HP R1 _ _ _ I1 (tracked_refl _) R2) as T.
  destruct (Forall2_nth_l _ _ _ _ _ T Ha) as (b' & Hb' & T1 & T2 & T3). assert (b' = b) by congruence. subst b'.
  split; [auto|]. apply T3. intros i j Hj.
  assert (E : cdRevDof a = revDof (cdDof a)).
  { unfold updateNrVars in U. apply bind_Ok in U as (md & _ & U). apply bind_Ok in U as (l & E & U). inversion U; subst. simpl in Ha.
    destruct (Forall2_nth_r _ _ _ _ _ (contLoop_spec _ _ _ _ _ _ E) Ha) as (e & _ & _ & _ & _ & _ & X & _). auto. }
  rewrite E. apply revDof_zero. apply HS. auto.
Qed.

(** One update moves the second frame of a contact only along the directions without a 1 in their column. *)
Lemma motion_lemma nm mbs d sv k c c' dof : rigidCD c -> dataFor nm mbs d c -> cdRevDof c = revDof dof -> cdUpdate sv k c = Ok c' ->
  cdXcf c' = cdXcf c /\
  exists e, (forall j, (exists r, (r < mrows dof)%nat /\ mget dof r j = 1) -> e j = 0) /\
    pt_mul (cdXcf c') (pt_inv (cdXbb c')) = pt_mul (motion e) (pt_mul (cdXcf c) (pt_inv (cdXbb c))).
Proof.
  intros (R1 & R2) HD HV H. split; [apply cdUpdate_dof in H; tauto|].
  destruct HD as (mb1 & mb2 & l1 & l2 & Z1 & Z2 & I1 & I2 & M1 & M2 & HS & S1 & S2 & B1 & B2).
  assert (Hid : exists e, (forall j, (exists r, (r < mrows dof)%nat /\ mget dof r j = 1) -> e j = 0) /\ motion e = pt_id).
  { exists (fun _ => 0). split; [auto|]. unfold motion. rewrite rot0. reflexivity. }
  unfold cdUpdate in H. rewrite HS in H.
  set (X2 := pt_mul (cdXcf c) (pt_inv (cdXbb c))) in *.
  assert (RX2 : rigid X2) by (apply rigid_mul; [auto|apply rigid_inv; auto]).
  assert (RM : forall e, rigid (motion e)).
  { intros e. unfold rigid, motion. simpl. apply rotation_mul; [apply rotation_mul; [apply RotX_rotation|apply RotY_rotation]|apply RotZ_rotation]. }
  assert (EX : forall X, rigid X -> pt_mul (cdXcf c) (pt_inv (pt_mul (pt_inv X) (cdXcf c))) = X).
  { intros X HX. rewrite pt_inv_mul, pt_inv_invol by (auto; apply rigid_inv; auto). rewrite <- pt_mul_assoc, pt_mul_inv_r, pt_mul_id_l by auto. reflexivity. }
  assert (EZ : forall te j, (exists r, (r < mrows dof)%nat /\ mget dof r j = 1) -> sumn 6 (fun q => cdRevDof c j q * te q) = 0).
  { intros te j Hj. apply sumn_0. intros q Hq. rewrite HV. destruct (Nat.eq_dec j q) as [->|N]; [rewrite revDof_zero by auto|rewrite revDof_off by auto]; ring. }
  set (TE := transformError sv (pt_inv (pt_mul (cdXcf c) (pt_inv (pt_mul (kPosW k (cdR2 c) (cdB2 c)) (pt_inv (kPosW k (cdR1 c) (cdB1 c))))))) (pt_inv X2)).
  destruct S1 as [(N1 & ->)|(N1 & b1 & p1 & A1 & P1 & NE1 & ->)]; destruct S2 as [(N2 & ->)|(N2 & b2 & p2 & A2 & P2 & NE2 & ->)]; cbn [app length] in H; try discriminate.
  - unfold Rltb in H. destruct (Rlt_dec 0 _) as [L|L]; [simpl in L; lra|]. cbn [Nat.eqb negb andb bind] in H. injection H as <-. cbn [cdXcf cdXbb cX].
    exists (fun j => sumn 6 (fun q => cdRevDof c j q * TE q)). split; [intros j Hj; apply (EZ _ j Hj)|].
    exact (EX _ (rigid_mul _ _ (RM (fun j => sumn 6 (fun q => cdRevDof c j q * TE q))) RX2)).
  - unfold Rltb in H. destruct (Rlt_dec 0 _) as [L|L]; [|simpl in L; lra]. cbn [Nat.eqb negb andb bind] in H. injection H as <-. destruct Hid as (e & E1 & E2). exists e. rewrite E2, pt_mul_id_l. auto.
  - cbn [Nat.eqb negb andb bind] in H. injection H as <-. cbn [cdXcf cdXbb cX].
    exists (fun j => sumn 6 (fun q => cdRevDof c j q * TE q)). split; [intros j Hj; apply (EZ _ j Hj)|].
    exact (EX _ (rigid_mul _ _ (RM (fun j => sumn 6 (fun q => cdRevDof c j q * TE q))) RX2)).
Qed.

(* ------------------------------------------------------------------ *)
(** * Concrete histories *)

(** Two robots: one with two hinges carrying a foot and a hand, one box on a hinge. *)
Definition wMbs : list multibody := [mkMB [mkJoint "h0" 1 1 None; mkJoint "h1" 1 1 None]; mkMB [mkJoint "b0" 1 1 None]].
Definition wNames : names := mkNames
  (fun r b => match r with
              | 0%nat => if String.eqb b "foot" then Ok [0%nat] else if String.eqb b "hand" then Ok [0%nat; 1%nat] else Throw
              | 1%nat => if String.eqb b "box" then Ok [0%nat] else Throw
              | _ => UB
              end)
  (fun r b => match r with
              | 0%nat => if String.eqb b "foot" then Ok 0%nat else if String.eqb b "hand" then Ok 1%nat else Throw
              | 1%nat => if String.eqb b "box" then Ok 0%nat else Throw
              | _ => UB
              end)
  (fun r i => match r, i with 0%nat, 0%nat => "foot" | 0%nat, _ => "hand" | _, _ => "box" end).
Definition wFoot : contactId := mkCId 0 1 "foot" "box" 0.
Definition wHand : contactId := mkCId 0 1 "hand" "box" 0.
Definition wBi : list bilateral := [mkBi wHand [] [] [] [] pt_id pt_id; mkBi wFoot [] [] [] [] pt_id pt_id; mkBi wHand [] [] [] [] (pt_trans (mkV3 0 0 5)) pt_id].
Definition wData : solverData := match nrVarsData wMbs [] wBi with Ok (d, _) => d | _ => mkSD [] [] [] [] 0 0 0 0 0 [] [] [] [] end.
Definition wDeps : list dep := match nrVarsData wMbs [] wBi with Ok (_, p) => p | _ => [] end.
Lemma wData_eq : nrVarsData wMbs [] wBi = Ok (wData, wDeps).
Proof. reflexivity. Qed.
Lemma wPaths : pathsOk wNames wMbs.
Proof.
  intros r mb body p H1 H2. unfold wMbs in H1. destruct r as [|[|r]]; simpl in H1; [| |destruct r; discriminate]; inversion H1; subst; simpl in H2.
  - destruct (String.eqb body "foot"); [|destruct (String.eqb body "hand")]; inversion H2; subst; split; simpl; try (repeat constructor; simpl; intuition discriminate); simpl; intuition lia.
  - destruct (String.eqb body "box"); inversion H2; subst; split; simpl; try (repeat constructor; simpl; intuition discriminate); simpl; intuition lia.
Qed.
Lemma wContacts : forall b, In b (sdAll wData) -> rigid (bXcf b) /\ rigid (bXbb b) /\ mobile wMbs (bId b).
Proof.
  assert (T : forall v, rigid (pt_trans v)) by (intros v; apply rotation_id).
  intros b H. simpl in H. destruct H as [<-|[<-|[<-|[]]]]; (split; [apply rigid_id|split; [first [apply rigid_id|apply T]|exists (mkMB [mkJoint "b0" 1 1 None]); split; [right; reflexivity|cbv; lia]]]).
Qed.
Lemma wRigid : forall b, In b (sdAll wData) -> rigid (bXcf b) /\ rigid (bXbb b).
Proof. intros b H. destruct (wContacts b H) as (A & B & _). auto. Qed.

Definition wRun (c : contactConstr) (ops : list ccOp) : contactConstr := match ccRun c ops with Ok (c', _) => c' | _ => newCC end.
Definition wOuts (c : contactConstr) (ops : list ccOp) : list (option bool) := match ccRun c ops with Ok (_, o) => o | _ => [] end.
Definition wNr (c : contactConstr) : contactConstr := match updateNrVars wNames wMbs wData c with Ok c' => c' | _ => newCC end.
(** The translation part only. *)
Definition wTrans : mat := mkMat 3 6 (fun i j => if Nat.eqb (i + 3) j then 1 else 0).
Lemma wTrans_wf : wfDof wTrans.
Proof. split; simpl; lia. Qed.
(** The box has moved by one along x. *)
Definition wKin : kin := mkKin (fun r _ => if Nat.eqb r 0 then pt_id else pt_trans (mkV3 1 0 0)) (fun _ _ _ i j => INR (i + j)) (fun _ _ _ i => INR i) (fun _ _ _ _ => 1).
Definition wSva : sva := mkSva (fun X1 X2 l => match l with 3%nat => vx (ptr X2) - vx (ptr X1) | 4%nat => vy (ptr X2) - vy (ptr X1) | 5%nat => vz (ptr X2) - vz (ptr X1) | _ => 0 end) (fun _ => mkV3 0 0 0).

Definition wRot : mat := mkMat 3 6 (fun i j => if Nat.eqb i j then 1 else 0).
Lemma wRot_wf : wfDof wRot.
Proof. split; simpl; lia. Qed.
Lemma wRot_rev3 : revDof wRot 3 3 = 1.
Proof.
  unfold revDof. replace (colActive wRot 3) with false; [reflexivity|]. symmetry. apply not_true_is_false. intros H.
  apply colActive_true in H as (r & Hr & E). simpl in Hr, E. assert (X : (r = 0 \/ r = 1 \/ r = 2)%nat) by lia. destruct X as [X|[X|X]]; subst r; simpl in E; lra.
Qed.

(** The selection of the foot contact is changed from the rotations to all the directions: the reference
    still follows the box along x. *)
Lemma stale_lemma :
  exists nm mbs uni bi d deps ops0 c0 o0 c1 ops c2 o1 k q cd,
    nrVarsData mbs uni bi = Ok (d, deps) /\ pathsOk nm mbs /\ (forall b, In b (sdAll d) -> rigid (bXcf b) /\ rigid (bXbb b)) /\
    Forall (addsOnly wfDof) ops0 /\ ccRun newCC ops0 = Ok (c0, o0) /\ updateNrVars nm mbs d c0 = Ok c1 /\
    Forall (sameProblem mbs) ops /\ ccRun c1 ops = Ok (c2, o1) /\
    nth_error (ccCont c2) q = Some cd /\ cdDof cd = identity6 /\
    forall sv, translationError sv -> exists c3 cd3, ccUpdate CAcc mbs sv k c2 = Ok c3 /\ nth_error (ccCont c3) q = Some cd3 /\ cdXbb cd3 <> cdXbb cd.
Proof.
  set (ops0 := [OAddDof wFoot wRot]). set (ops := [ORemDof wFoot; OUpdateDof]).
  set (c0 := wRun newCC ops0). set (c1 := wNr c0). set (c2 := wRun c1 ops).
  assert (A0 : Forall (addsOnly wfDof) ops0) by (repeat constructor; apply wRot_wf).
  assert (A1 : Forall (addsOnly wfDof) ops) by (repeat constructor).
  assert (SP : Forall (sameProblem wMbs) ops) by (repeat constructor).
  assert (R0 : ccRun newCC ops0 = Ok (c0, wOuts newCC ops0)) by reflexivity.
  assert (U : updateNrVars wNames wMbs wData c0 = Ok c1) by reflexivity.
  assert (R1 : ccRun c1 ops = Ok (c2, wOuts c1 ops)) by reflexivity.
  set (cd := mkCD [mkCSD 0 0 0 1 [0%nat] pt_id; mkCSD 1 2 0 (-1) [0%nat] (pt_mul pt_id (pt_inv pt_id))] identity6 (revDof wRot) 0 1 0 0 pt_id pt_id wFoot).
  assert (E : nth_error (ccCont c2) 0 = Some cd) by reflexivity.
  exists wNames, wMbs, [], wBi, wData, wDeps, ops0, c0, (wOuts newCC ops0), c1, ops, c2, (wOuts c1 ops), wKin, 0%nat, cd.
  split; [apply wData_eq|]. split; [apply wPaths|]. split; [apply wRigid|]. split; [apply A0|]. split; [apply R0|]. split; [apply U|].
  split; [apply SP|]. split; [apply R1|]. split; [apply E|]. split; [reflexivity|].
  intros sv TE.
  destruct (defined_lemma _ _ _ _ _ _ _ _ _ _ _ _ _ CAcc sv wKin wData_eq wPaths wContacts A0 A1 R0 U SP R1) as (c3 & U3).
  exists c3. pose proof (ccUpdate_F2 _ _ _ _ _ _ U3) as F. destruct (Forall2_nth_l _ _ _ _ _ F E) as (cd3 & E3 & H). exists cd3.
  split; [auto|]. split; [auto|]. clear -TE H.
  unfold cdUpdate, cd in H. cbn [cdSides length Nat.eqb negb andb bind cX] in H. injection H as <-. cbn [cdXbb cdXcf cdRevDof cdR1 cdR2 cdB1 cdB2 cd].
  set (X1 := pt_inv (pt_mul pt_id (pt_inv (pt_mul (pt_trans (mkV3 1 0 0)) (pt_inv pt_id))))).
  set (X2 := pt_inv (pt_mul pt_id (pt_inv pt_id))).
  assert (II : pt_inv pt_id = pt_id) by (rewrite <- (pt_mul_id_l (pt_inv pt_id)); apply pt_mul_inv_r; apply rigid_id).
  assert (P1 : X1 = pt_trans (mkV3 1 0 0)).
  { unfold X1. rewrite pt_mul_id_l, II, pt_mul_id_r. apply pt_inv_invol. apply rotation_id. }
  assert (P2 : X2 = pt_id) by (unfold X2; rewrite II, pt_mul_id_r; apply II).
  rewrite P1, P2. destruct (TE (pt_trans (mkV3 1 0 0)) pt_id eq_refl eq_refl) as (T0 & T1 & T2 & T3 & T4 & T5).
  set (te := transformError sv (pt_trans (mkV3 1 0 0)) pt_id) in *.
  assert (S : forall j, (j < 6)%nat -> sumn 6 (fun q => revDof wRot j q * te q) = revDof wRot j j * te j).
  { intros j Hj. apply (sumn_delta 6 j (fun q => revDof wRot j q * te q)); [auto|]. intros q Hq N. rewrite revDof_off by auto. ring. }
  rewrite !S by lia. rewrite T0, T1, T2, T4, T5, T3, wRot_rev3, !Rmult_0_r. simpl vx. simpl vy. simpl vz. rewrite rot0, II, !pt_mul_id_r.
  intros C. apply (f_equal (fun X => vx (ptr X))) in C. revert C. unfold pt_inv, pt_id. v3unf. lra.
Qed.

Lemma owner_lemma cs line : (line < sumRows cs)%nat -> exists i, ownsLine cs i line /\ forall j, ownsLine cs j line -> j = i.
Proof. intros H. destruct (ownsLine_exists cs line H) as (i & E). exists i. split; [auto|]. intros j Hj. eapply ownsLine_unique; eauto. Qed.

Lemma desc_refuted_lemma : exists ops c outs nm i line cd l,
  ccRun newCC ops = Ok (c, outs) /\ Forall (addsOnly wfDof) ops /\
  ownsLine (ccCont c) i line /\ nth_error (ccCont c) i = Some cd /\
  descEq nm c line = Ok l /\ l <> bodyNames nm cd.
Proof.
  set (ops := [OAddDof wFoot wTrans; ONrVars wNames wMbs wData]).
  exists ops, (wRun newCC ops), (wOuts newCC ops), wNames, 1%nat, 3%nat.
  eexists. exists ["foot"; "box"].
  split; [reflexivity|]. split; [repeat constructor; apply wTrans_wf|]. split; [split; simpl; lia|]. split; [reflexivity|]. split; [reflexivity|].
  simpl. discriminate.
Qed.

Lemma getter_refuted_lemma : exists ops c outs id m mbs sv k,
  ccRun newCC ops = Ok (c, outs) /\ In id (map cdId (ccCont c)) /\
  (exists c3, ccUpdate m mbs sv k (updateDofContacts c) = Ok c3) /\
  forall c3, ccUpdate m mbs sv k (updateDofContacts (fst (dofContact c id))) <> Ok c3.
Proof.
  set (ops := [ONrVars wNames wMbs wData]).
  exists ops, (wRun newCC ops), (wOuts newCC ops), wHand, CAcc, wMbs, wSva, wKin.
  split; [reflexivity|]. split; [right; left; reflexivity|]. split.
  - apply (defined_lemma wNames wMbs [] wBi wData wDeps [] newCC [] (wRun newCC ops) [OUpdateDof] (updateDofContacts (wRun newCC ops)) [None] CAcc wSva wKin);
      auto using wData_eq, wPaths, wContacts; repeat constructor.
  - apply (getter_breaks ops (wRun newCC ops) (wOuts newCC ops) wHand CAcc wMbs wSva wKin); [reflexivity|reflexivity|right; left; reflexivity].
Qed.
