(** Facts about error reports. *)
From Verif Require Import FillProofs DepsProofs BackendProofs FillFacts HistoryProofs SolverFacts.
From Verif Require Export ErrorSpec.
Open Scope list_scope.
Open Scope R_scope.

(** ** Bounds *)
Lemma boundReport_spec bs i : forall k0,
  (exists k l, boundOwner bs i k l /\ boundReport bs k0 i = [RBound (k0 + k) l]) \/ (unbounded bs i /\ boundReport bs k0 i = []).
Proof.
  induction bs as [|b bs IH]; intros k0; [right; split; [intros b []|reflexivity]|].
  cbn [boundReport]. destruct ((bdBegin b <=? i) && (i <? bdBegin b + vlen (bdL b)))%nat eqn:E.
  - apply andb_true_iff in E as (E1 & E2). apply Nat.leb_le in E1. apply Nat.ltb_lt in E2. left. exists 0%nat, (i - bdBegin b)%nat. split.
    + split; [exists b; split; [reflexivity|]; lia|]. intros k' b' Hk. lia.
    + rewrite Nat.add_0_r. reflexivity.
  - assert (N : ~ (bdBegin b <= i < bdBegin b + vlen (bdL b))%nat).
    { intros (A & B). apply andb_false_iff in E as [E|E]; [apply Nat.leb_gt in E|apply Nat.ltb_ge in E]; lia. }
    destruct (IH (S k0)) as [(k & l & ((b0 & B1 & B2 & B3) & F) & R)|(U & R)].
    + left. exists (S k), l. split; [|rewrite R; rewrite Nat.add_succ_r; reflexivity]. split; [exists b0; split; [exact B1|split; auto]|].
      intros [|k'] b' Hk Hn; [injection Hn as <-; exact N|]. apply (F k' b'); [lia|exact Hn].
    + right. split; [|exact R]. intros b' [<-|Hi]; [exact N|apply U; exact Hi].
Qed.
Lemma boundOwner_unique bs i k l k' l' : boundOwner bs i k l -> boundOwner bs i k' l' -> k = k' /\ l = l'.
Proof.
  intros ((b & A1 & A2 & A3) & A4) ((b' & B1 & B2 & B3) & B4). destruct (Nat.lt_trichotomy k k') as [L|[->|L]].
  - exfalso. apply (B4 k b L A1). lia.
  - rewrite A1 in B1. injection B1 as <-. split; lia.
  - exfalso. apply (A4 k' b' L B1). lia.
Qed.
Lemma bound_report_lemma bs i :
  (forall r, In r (boundReport bs 0 i) <-> exists k l, r = RBound k l /\ boundOwner bs i k l) /\
  (unbounded bs i <-> boundReport bs 0 i = []) /\ (length (boundReport bs 0 i) <= 1)%nat.
Proof.
  destruct (boundReport_spec bs i 0) as [(k & l & O & R)|(U & R)]; rewrite R; cbn [Nat.add].
  - split; [intros r; split|split; [split|]].
    + intros [<-|[]]. exists k, l. auto.
    + intros (k' & l' & -> & O'). destruct (boundOwner_unique _ _ _ _ _ _ O O') as (<- & <-). left. reflexivity.
    + intros U. destruct O as ((b & A1 & A2 & A3) & _). exfalso. apply (U b); [eapply nth_error_In; eauto|lia].
    + discriminate.
    + cbn. lia.
  - split; [intros r; split|split; [split; auto|cbn; lia]]; [intros []|].
    intros (k' & l' & -> & ((b & A1 & A2 & A3) & _)). exfalso. apply (U b); [eapply nth_error_In; eauto|lia].
Qed.

(** ** Printing *)
Lemma printAll_cases {A B} (f : A -> res (list B)) l : (forall a, f a <> Throw) -> printAll f l <> Throw.
Proof.
  intros T. induction l as [|a l IH]; cbn [printAll]; [discriminate|]. specialize (T a). destruct (f a); cbn [bind]; [|discriminate|congruence].
  destruct (printAll f l); cbn [bind]; [discriminate|discriminate|congruence].
Qed.
Lemma printAll_UB {A B} (f : A -> res (list B)) l a : (forall a, f a <> Throw) -> In a l -> f a = UB -> printAll f l = UB.
Proof.
  intros T. induction l as [|b l IH]; intros H E; [destruct H|]. cbn [printAll]. destruct H as [->|H]; [rewrite E; reflexivity|].
  pose proof (T b). destruct (f b); cbn [bind]; [|reflexivity|congruence]. rewrite (IH H E). reflexivity.
Qed.
Lemma printAll_Ok {A B} (f : A -> res (list B)) (P : B -> Prop) l : (forall a, In a l -> exists o, f a = Ok o /\ Forall P o) -> exists o, printAll f l = Ok o /\ Forall P o.
Proof.
  induction l as [|a l IH]; intros H; [exists []; split; [reflexivity|constructor]|]. cbn [printAll].
  destruct (H a (or_introl eq_refl)) as (o & -> & F). cbn [bind]. destruct IH as (o' & -> & F'); [intros b Hb; apply H; right; auto|].
  exists (o ++ o'). split; [reflexivity|apply Forall_app; auto].
Qed.
Lemma rowTimes_noThrow A l y : rowTimes A l y <> Throw.
Proof. unfold rowTimes. destruct (_ && _)%bool; cbn; discriminate. Qed.
Lemma printConstr_noThrow g y r : printConstr g y r <> Throw.
Proof.
  destruct r as [c l|c l|c l|c l]; cbn [printConstr]; [discriminate| | |]; unfold vec_at;
    destruct (nth_error _ c) as [e|]; cbn [bind]; try discriminate;
    match goal with |- context [rowTimes ?A ?l ?y] => pose proof (rowTimes_noThrow A l y); destruct (rowTimes A l y); cbn [bind]; [discriminate|discriminate|congruence] end.
Qed.
Lemma printVar_noThrow g istate y i : printVar g istate y i <> Throw.
Proof. unfold printVar. destruct (_ <? _)%Z; [|discriminate]. destruct (boundReport _ _ _); [discriminate|]. unfold vget_at. destruct (_ <? _)%nat; discriminate. Qed.
Lemma printLine_noThrow g red istate y i : printLine g red istate y i <> Throw.
Proof. unfold printLine. destruct (_ <? _)%Z; [|discriminate]. apply printAll_cases. apply printConstr_noThrow. Qed.

(** The matrices of the registered constraints, once updateMatrix has gone through. *)
Lemma fillGen_cols l : forall nv n A L U o, fillGenInEqG l nv n A L U = Ok o -> Forall (fun e => (giNr e <= mrows (giA e))%nat /\ (nv <= mcols (giA e))%nat) l.
Proof.
  induction l as [|e l IH]; intros nv n A L U o H; [constructor|]. cbn [fillGenInEqG] in H.
  apply bind_Ok in H as (Ai & E1 & H). apply bind_Ok in H as (Li & E2 & H). apply bind_Ok in H as (Ui & E3 & H).
  apply bind_Ok in H as (A1 & E4 & H). apply bind_Ok in H as (L1 & E5 & H). apply bind_Ok in H as (U1 & E6 & H).
  apply mblock_Ok in E1 as (B1 & B2 & _). constructor; [cbn in *; lia|]. exact (IH _ _ _ _ _ _ H).
Qed.
Lemma lssol_cols b g p : lssolMatrix b g = Ok p -> Forall (fun e => (giNr e <= mrows (giA e))%nat /\ (bkN b <= mcols (giA e))%nat) (stackG g).
Proof.
  intros H. unfold lssolMatrix in H.
  apply bind_Ok in H as ([[[n1 A1] L1] U1] & E1 & H). apply bind_Ok in H as ([[[n2 A2] L2] U2] & E2 & H).
  apply bind_Ok in H as ([[[n3 AF] AL] AU] & E3 & H). clear H.
  eapply (fillGen_cols (stackG g) (bkN b) 0). rewrite <- fill3_stack. rewrite E1. cbn [bind]. rewrite E2. cbn [bind]. exact E3.
Qed.
Lemma lssol_width n deps b g p : ready n deps b -> lssolMatrix b g = Ok p ->
  (bkDeps b = [] /\ mcols (pgA p) = n) \/ (bkDeps b <> [] /\ mcols (pgA p) = bkRed b /\ (bkRed b <= n)%nat).
Proof.
  intros (HN & Hd) H. unfold lssolMatrix in H. rewrite HN in H. set (rows := (bkEq b + bkIn b + bkGen b)%nat) in *.
  apply bind_Ok in H as ([[[n1 A1] L1] U1] & E1 & H). apply bind_Ok in H as ([[[n2 A2] L2] U2] & E2 & H).
  apply bind_Ok in H as ([[[n3 AF] AL] AU] & E3 & H). apply bind_Ok in H as ([XLF XUF] & E4 & H). apply bind_Ok in H as ([QF CF] & E5 & H).
  assert (ES : fillGenInEqG (stackG g) n 0 (mzero rows n) (vfill rows (Fin 0)) (vfill rows (Fin 0)) = Ok (n3, AF, AL, AU)).
  { rewrite <- fill3_stack. rewrite E1. cbn [bind]. rewrite E2. cbn [bind]. exact E3. }
  destruct Hd as [(-> & D0)|(D0 & W & HR & red & D)].
  - left. split; [exact D0|]. rewrite D0 in H. binds H. inversion H; subst; simpl.
    destruct (fillGen_spec _ _ _ _ _ _ _ _ _ _ ES eq_refl) as (_ & _ & SH & _).
    match goal with K : mblock AF _ _ _ _ = Ok _ |- _ => apply mblock_Ok in K as (_ & _ & _ & -> & _) end. exact SH.
  - right. split; [exact D0|]. destruct (bkDeps b) as [|d0 ds0] eqn:ED; [congruence|]. binds H. destruct a0 as [XL XU]. binds H. destruct a0 as [Q C]. binds H.
    inversion H; subst; simpl. rewrite HR. split; [|lia].
    match goal with K : mblock ?M _ _ _ _ = Ok ?X |- mcols ?X = _ => apply mblock_Ok in K as (_ & _ & _ & -> & _) end.
    match goal with K : reduceA AF _ = Ok ?X |- _ => unfold reduceA, mmul in K; destruct (_ =? _)%nat; [injection K as <-|discriminate K] end.
    cbn [mcols]. apply (dm_cols _ _ _ _ D).
Qed.

Lemma stack_eq g e : In e (rgEq g) -> In (genOfEq e) (stackG g).
Proof. intros H. unfold stackG. apply in_or_app. left. apply in_map. exact H. Qed.
Lemma stack_iq g e : In e (rgIneq g) -> In (genOfIneq e) (stackG g).
Proof. intros H. unfold stackG. apply in_or_app. right. apply in_or_app. left. apply in_map. exact H. Qed.
Lemma stack_gi g e : In e (rgGen g) -> In e (stackG g).
Proof. intros H. unfold stackG. apply in_or_app. right. apply in_or_app. right. exact H. Qed.

(** A vector shorter than the rows cannot be multiplied. *)
Lemma rowTimes_short A l y : (vlen y < mcols A)%nat -> rowTimes A l y = UB.
Proof. intros H. unfold rowTimes. replace (mcols A =? vlen y)%nat with false by (symmetry; apply Nat.eqb_neq; lia). rewrite andb_false_r. reflexivity. Qed.
Lemma printConstr_short b g p y r n t : lssolMatrix b g = Ok p -> lineOf g r n = Some t -> (vlen y < bkN b)%nat -> printConstr g y r = UB.
Proof.
  intros H L V. pose proof (lssol_cols _ _ _ H) as F. rewrite Forall_forall in F.
  destruct r as [c l|c l|c l|c l]; cbn [lineOf printConstr] in *; [discriminate L| | |]; unfold vec_at.
  - destruct (nth_error (rgEq g) c) as [e|] eqn:E; [|discriminate L]. cbn [bind]. specialize (F _ (stack_eq _ _ (nth_error_In _ _ E))). cbn in F. rewrite rowTimes_short by lia. reflexivity.
  - destruct (nth_error (rgIneq g) c) as [e|] eqn:E; [|discriminate L]. cbn [bind]. specialize (F _ (stack_iq _ _ (nth_error_In _ _ E))). cbn in F. rewrite rowTimes_short by lia. reflexivity.
  - destruct (nth_error (rgGen g) c) as [e|] eqn:E; [|discriminate L]. cbn [bind]. specialize (F _ (stack_gi _ _ (nth_error_In _ _ E))). rewrite rowTimes_short by lia. reflexivity.
Qed.
Lemma rowTimes_ok A l y : (l < mrows A)%nat -> mcols A = vlen y -> rowTimes A l y = Ok (rowdot A l (vget y)).
Proof. intros H1 H2. unfold rowTimes. replace (l <? mrows A)%nat with true by (symmetry; apply Nat.ltb_lt; auto). rewrite H2, Nat.eqb_refl. reflexivity. Qed.
Lemma printConstr_ok b g p y r n coef lo up : lssolMatrix b g = Ok p -> lineOf g r n = Some (coef, lo, up) -> vlen y = n -> exactColumns n g ->
  printConstr g y r = Ok [(r, sumn n (fun j => coef j * vget y j))].
Proof.
  intros H L V (X1 & X2 & X3). pose proof (lssol_cols _ _ _ H) as F. rewrite Forall_forall in F, X1, X2, X3.
  destruct r as [c l|c l|c l|c l]; cbn [lineOf printConstr] in *; [discriminate L| | |]; unfold vec_at.
  - destruct (nth_error (rgEq g) c) as [e|] eqn:E; [|discriminate L]. cbn [bind]. destruct (Nat.ltb_spec l (eqNr e)) as [I|]; [|discriminate L]. injection L as <- _ _.
    specialize (F _ (stack_eq _ _ (nth_error_In _ _ E))). cbn in F. specialize (X1 _ (nth_error_In _ _ E)). rewrite rowTimes_ok by lia. cbn [bind]. unfold rowdot. rewrite X1. reflexivity.
  - destruct (nth_error (rgIneq g) c) as [e|] eqn:E; [|discriminate L]. cbn [bind]. destruct (Nat.ltb_spec l (iqNr e)) as [I|]; [|discriminate L]. injection L as <- _ _.
    specialize (F _ (stack_iq _ _ (nth_error_In _ _ E))). cbn in F. specialize (X2 _ (nth_error_In _ _ E)). rewrite rowTimes_ok by lia. cbn [bind]. unfold rowdot. rewrite X2. reflexivity.
  - destruct (nth_error (rgGen g) c) as [e|] eqn:E; [|discriminate L]. cbn [bind]. destruct (Nat.ltb_spec l (giNr e)) as [I|]; [|discriminate L]. injection L as <- _ _.
    specialize (F _ (stack_gi _ _ (nth_error_In _ _ E))). specialize (X3 _ (nth_error_In _ _ E)). rewrite rowTimes_ok by lia. cbn [bind]. unfold rowdot. rewrite X3. reflexivity.
Qed.

(** ** The message *)
Lemma message_undefined_lemma lssol kinds ops s h p y istate i :
  history lssol kinds ops = Ok s -> Forall usableMimics ops -> bkKind (qBack s) = LSSOL -> lssolMatrix (qBack s) (collect s h) = Ok p ->
  vlen y = mcols (pgA p) -> (mcols (pgA p) < sdNrVars (qData s))%nat ->
  (i < mrows (pgA p))%nat -> (istate (i + mcols (pgA p))%nat < 0)%Z ->
  errorPrint (qBack s) (collect s h) (mrows (pgA p)) istate y = UB.
Proof.
  intros H W Hk Hp V L Hi Hs. destruct (history_ready _ _ _ _ H W) as (deps & Hr). unfold errorPrint. rewrite Hk.
  pose proof (printAll_cases (printVar (collect s h) istate y) (seq 0 (errNrVars (qBack s))) (printVar_noThrow _ _ _)) as NT.
  destruct (printAll (printVar _ _ _) _) as [vs| |]; cbn [bind]; [|reflexivity|congruence].
  rewrite (printAll_UB _ _ i (printLine_noThrow _ _ _ _)); [reflexivity|apply in_seq; lia|].
  destruct (lssol_width _ _ _ _ _ Hr Hp) as [(_ & Hw)|(_ & Hw & _)]; [lia|]. unfold printLine, errNrVars. rewrite <- Hw.
  replace (_ <? 0)%Z with true by (symmetry; apply Z.ltb_lt; exact Hs).
  destruct (lineReport_spec _ _ _ _ _ _ Hp Hr Hi) as (r & coef & lo & up & -> & LO & _). cbn [printAll].
  destruct Hr as (HN & _). rewrite (printConstr_short _ _ _ _ _ _ _ Hp LO); [reflexivity|lia].
Qed.
Lemma message_no_mimic_lemma lssol kinds ops s h p y istate :
  history lssol kinds ops = Ok s -> Forall usableMimics ops -> Forall noMimicOp ops -> bkKind (qBack s) = LSSOL -> lssolMatrix (qBack s) (collect s h) = Ok p ->
  vlen y = sdNrVars (qData s) -> exactColumns (sdNrVars (qData s)) (collect s h) ->
  exists out, errorPrint (qBack s) (collect s h) (mrows (pgA p)) istate y = Ok out /\
    forall r v, In (r, v) out -> exists coef lo up, lineOf (collect s h) r (sdNrVars (qData s)) = Some (coef, lo, up) /\ v = sumn (sdNrVars (qData s)) (fun j => coef j * vget y j).
Proof.
  intros H W' W Hk Hp V X. destruct (history_red _ _ _ _ H W) as (R0 & D0).
  destruct (history_ready _ _ _ _ H W') as (deps & Hr). unfold errorPrint. rewrite Hk. unfold errNrVars. rewrite R0. cbn [seq printAll bind app].
  destruct (printAll_Ok (printLine (collect s h) 0 istate y)
    (fun rv => exists coef lo up, lineOf (collect s h) (fst rv) (sdNrVars (qData s)) = Some (coef, lo, up) /\ snd rv = sumn (sdNrVars (qData s)) (fun j => coef j * vget y j))
    (seq 0 (mrows (pgA p)))) as (out & -> & F).
  - intros i Hi. apply in_seq in Hi. unfold printLine. destruct (_ <? _)%Z; [|exists []; split; [reflexivity|constructor]].
    destruct (lineReport_spec _ _ _ _ _ i Hp Hr ltac:(lia)) as (r & coef & lo & up & -> & LO & _). cbn [printAll].
    rewrite (printConstr_ok _ _ _ _ _ _ _ _ _ Hp LO V X). cbn [bind app]. eexists. split; [reflexivity|]. constructor; [|constructor]. cbn [fst snd]. exists coef, lo, up. split; [exact LO|reflexivity].
  - exists out. split; [reflexivity|]. rewrite Forall_forall in F. intros r v Hin. exact (F _ Hin).
Qed.

(** ** Which variable lssol means *)
Lemma bound_variable_lemma lssol kinds ops s num h p ok x i :
  history lssol kinds ops = Ok s -> Forall usableMimics ops -> bkKind (qBack s) = LSSOL -> lssolMatrix (qBack s) (collect s h) = Ok p ->
  solveNoMbcUpdate num s h = Ok (ok, x) -> (mcols (pgA p) < sdNrVars (qData s))%nat -> (i < mcols (pgA p))%nat ->
  exists f, (f < sdNrVars (qData s))%nat /\ vget x f = vget (snd (numLssol num p)) i /\ nth_error (bkR2F (qBack s)) i = Some (Z.of_nat f).
Proof.
  intros H W Hk Hp Hs L Hi. destruct (history_ready _ _ _ _ H W) as (deps & Hr).
  destruct (backend_lift num _ _ _ _ _ _ _ Hr Hk Hp Hs) as (_ & LF).
  destruct (lssol_width _ _ _ _ _ Hr Hp) as [(_ & Hw)|(ND & Hw & _)]; [lia|].
  destruct Hr as (HN & [(_ & D0)|(_ & WD & HR & red & D)]); [congruence|].
  destruct (dm_R _ _ _ _ D i ltac:(lia)) as (f & F1 & F2 & F3 & F4). exists f. split; [exact F1|]. split; [|exact F3].
  rewrite LF. unfold lift. destruct (bkDeps (qBack s)); [congruence|]. rewrite (expand_kept _ _ _ _ D _ _ F1 F2), F4. reflexivity.
Qed.
Lemma printAll_In {A B} (f : A -> res (list B)) l : forall o b, printAll f l = Ok o -> (In b o <-> exists a x, In a l /\ f a = Ok x /\ In b x).
Proof.
  induction l as [|a l IH]; intros o b H; cbn [printAll] in H.
  - injection H as <-. split; [intros []|intros (a & x & [] & _)].
  - apply bind_Ok in H as (x & E1 & H). apply bind_Ok in H as (xs & E2 & H). injection H as <-. rewrite in_app_iff, (IH _ b E2). split.
    + intros [Hx|(a' & x' & H1 & H2 & H3)]; [exists a, x; cbn; auto|exists a', x'; cbn; auto].
    + intros (a' & x' & [<-|H1] & H2 & H3); [left; congruence|right; exists a', x'; auto].
Qed.
Lemma printConstr_line g y r0 o r v : printConstr g y r0 = Ok o -> In (r, v) o -> r = r0 /\ forall k l, r <> RBound k l.
Proof.
  destruct r0 as [c l|c l|c l|c l]; cbn [printConstr]; intros H; [injection H as <-; intros []| | |];
    apply bind_Ok in H as (e & _ & H); apply bind_Ok in H as (w & _ & H); injection H as <-; intros [E|[]]; injection E as <- _; split; [reflexivity|discriminate|reflexivity|discriminate|reflexivity|discriminate].
Qed.
Lemma message_bounds_lemma lssol kinds ops s num h p ok x istate out :
  history lssol kinds ops = Ok s -> Forall usableMimics ops -> bkKind (qBack s) = LSSOL -> lssolMatrix (qBack s) (collect s h) = Ok p ->
  solveNoMbcUpdate num s h = Ok (ok, x) -> (mcols (pgA p) < sdNrVars (qData s))%nat -> vlen (snd (numLssol num p)) = mcols (pgA p) ->
  errorPrint (qBack s) (collect s h) (mrows (pgA p)) istate (snd (numLssol num p)) = Ok out ->
  forall k l v, In (RBound k l, v) out <->
    exists i f, (i < mcols (pgA p))%nat /\ (istate i < 0)%Z /\ boundOwner (rgBound (collect s h)) i k l /\
      nth_error (bkR2F (qBack s)) i = Some (Z.of_nat f) /\ v = vget x f.
Proof.
  intros H W Hk Hp Hs L V HP k l v. destruct (history_ready _ _ _ _ H W) as (deps & Hr).
  unfold errorPrint in HP. rewrite Hk in HP. apply bind_Ok in HP as (vs & E1 & HP). apply bind_Ok in HP as (ls & E2 & HP). injection HP as <-.
  unfold errNrVars in *. destruct (lssol_width _ _ _ _ _ Hr Hp) as [(_ & Hw)|(_ & Hw & _)]; [lia|]. rewrite <- Hw in *.
  set (y := snd (numLssol num p)) in *. rewrite in_app_iff. split.
  - intros [I|I].
    + apply (printAll_In _ _ _ _ E1) in I as (i & o & Hi & E & I). apply in_seq in Hi. unfold printVar in E.
      destruct (Z.ltb_spec (istate i) 0) as [Z1|]; [|injection E as <-; destruct I].
      destruct (boundReport_spec (rgBound (collect s h)) i 0) as [(k' & l' & O & R)|(_ & R)]; rewrite R in E; [|injection E as <-; destruct I].
      apply bind_Ok in E as (w & Ew & E). injection E as <-. destruct I as [I|[]]. injection I as -> -> ->.
      unfold vget_at in Ew. destruct (_ <? _)%nat; [|discriminate Ew]. injection Ew as <-.
      destruct (bound_variable_lemma _ _ _ _ num _ _ _ _ i H W Hk Hp Hs L ltac:(lia)) as (f & F1 & F2 & F3).
      exists i, f. split; [lia|]. split; [exact Z1|]. split; [exact O|]. split; [exact F3|symmetry; exact F2].
    + apply (printAll_In _ _ _ _ E2) in I as (i & o & _ & E & I). unfold printLine in E. destruct (_ <? _)%Z; [|injection E as <-; destruct I].
      apply (printAll_In _ _ _ _ E) in I as (r0 & o' & _ & E' & I). apply (printConstr_line _ _ _ _ _ _ E') in I as (_ & N). exfalso. exact (N _ _ eq_refl).
  - intros (i & f & Hi & Z1 & O & F3 & ->). left. apply (printAll_In _ _ _ _ E1).
    destruct (bound_variable_lemma _ _ _ _ num _ _ _ _ i H W Hk Hp Hs L Hi) as (f' & F1 & F2 & F3'). rewrite F3 in F3'. injection F3' as F3'. apply Nat2Z.inj in F3'. subst f'.
    exists i, [(RBound k l, vget x f)]. split; [apply in_seq; lia|]. split; [|left; reflexivity]. unfold printVar.
    replace (istate i <? 0)%Z with true by (symmetry; apply Z.ltb_lt; exact Z1).
    destruct (boundReport_spec (rgBound (collect s h)) i 0) as [(k' & l' & O' & R)|(U & R)].
    + destruct (boundOwner_unique _ _ _ _ _ _ O O') as (<- & <-). rewrite R. unfold vget_at. fold y. rewrite V. replace (i <? _)%nat with true by (symmetry; apply Nat.ltb_lt; exact Hi).
      cbn [bind Nat.add]. fold y in F2. rewrite F2. reflexivity.
    + destruct O as ((b & A1 & A2 & A3) & _). exfalso. apply (U b); [eapply nth_error_In; eauto|lia].
Qed.
