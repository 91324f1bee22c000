(** Lemmas about updateMatrix and solve of the two back ends. *)
From Coq Require Import Permutation.
From Verif Require Import Lists.
From Verif Require Export DepsProofs.

(** The back end is configured for [n] variables with dependencies [deps]. *)
Definition ready (n : nat) (deps : list dep) (b : backend) : Prop :=
  bkN b = n /\
  ((deps = [] /\ bkDeps b = []) \/
   (bkDeps b <> [] /\ wfDeps n deps /\ bkRed b = (n - length deps)%nat /\ exists red, depMaps n deps red b)).

(** The full vector stands for the vector given to / returned by the numerical solver. *)
Definition lift (b : backend) (y : nat -> R) : nat -> R :=
  match bkDeps b with [] => y | _ => expand b y end.

Lemma rowdot_block A r nr B i y : mblock A r 0 nr (mcols A) = Ok B -> rowdot B i y = rowdot A (r + i) y.
Proof.
  intros H. apply mblock_Ok in H as (_ & _ & _ & Hc & He). unfold rowdot. rewrite Hc.
  apply sumn_ext. intros j _. rewrite He. reflexivity.
Qed.

Lemma fillQC_ext ts n Q C x x' :
  fillQC ts n (mzero n n) (vfill n 0) = Ok (Q, C) -> (forall i, (i < n)%nat -> x i = x' i) ->
  objective n ts x = objective n ts x'.
Proof.
  intros H Hx. destruct (fillQC_spec _ _ _ _ H) as (_ & _ & _ & Hq & _). rewrite <- !Hq.
  unfold qpcost, quad, lin. f_equal.
  - f_equal. apply sumn_ext; intros i Hi. apply sumn_ext; intros j Hj. rewrite (Hx i), (Hx j) by auto. reflexivity.
  - apply sumn_ext; intros i Hi. rewrite (Hx i) by auto. reflexivity.
Qed.

Lemma linFeasible_ext n g x x' :
  (forall i, (i < n)%nat -> x i = x' i) -> linFeasible n g x -> linFeasible n g x'.
Proof.
  intros Hx (H1 & H2 & H3).
  assert (E : forall (f : nat -> R), sumn n (fun j => f j * x' j) = sumn n (fun j => f j * x j)).
  { intros f. apply sumn_ext; intros j Hj. rewrite Hx by auto. reflexivity. }
  split; [|split]; (eapply Forall_impl; [|eassumption]); intros e He i Hi; specialize (He i Hi); rewrite E; auto.
Qed.

(** Meaning of bounds, independent of the disjointness: *)
Definition inBox (n : nat) (L U : vec ext) (x : nat -> R) : Prop :=
  forall i, (i < n)%nat -> between (vget L i) (x i) (vget U i).

Lemma inBox_ext n L U x x' : (forall i, (i < n)%nat -> x i = x' i) -> inBox n L U x -> inBox n L U x'.
Proof. intros H B i Hi. rewrite <- H by auto. auto. Qed.

(** ** What the numerical solver is given, general form *)
Lemma lssol_meaning b g p n deps :
  lssolMatrix b g = Ok p -> ready n deps b ->
  exists QF CF XLF XUF,
    fillQC (rgTasks g) n (mzero n n) (vfill n 0) = Ok (QF, CF) /\
    fillBound (rgBound g) (vfill n NInf) (vfill n PInf) = Ok (XLF, XUF) /\
    mrows (pgQ p) = (n - length deps)%nat /\
    (forall y, costG p y = objective n (rgTasks g) (lift b y)) /\
    (forall y, okG p y <->
       linFeasible n g (lift b y) /\
       (forall i, (i < n)%nat -> (forall l, ~ In (l, i, 0) deps) -> between (vget XLF i) (lift b y i) (vget XUF i))).
Proof.
  unfold lssolMatrix. intros H (HN & Hd). rewrite HN in H.
  set (rows := (bkEq b + bkIn b + bkGen b)%nat) in *.
  apply bind_Ok in H as ([[[n1 A1] L1] U1] & E1 & H).
  apply bind_Ok in H as ([[[n2 A2] L2] U2] & E2 & H).
  apply bind_Ok in H as ([[[n3 AF] AL] AU] & E3 & H).
  apply bind_Ok in H as ([XLF XUF] & E4 & H).
  apply bind_Ok in H as ([QF CF] & E5 & H).
  assert (ES : fillGenInEqG (stackG g) n 0 (mzero rows n) (vfill rows (Fin 0)) (vfill rows (Fin 0)) = Ok (n3, AF, AL, AU)).
  { rewrite <- fill3_stack. rewrite E1. cbn [bind]. rewrite E2. cbn [bind]. exact E3. }
  clear E1 E2 E3.
  destruct (fillQC_spec _ _ _ _ E5) as (Q1 & Q2 & Q3 & Q4 & _).
  destruct (fillBound_len _ _ _ _ _ E4) as (B1 & B2). simpl in B1, B2.
  destruct (fillGen_spec _ _ _ _ _ _ _ _ _ _ ES eq_refl) as (_ & _ & S2 & _).
  exists QF, CF, XLF, XUF. split; [auto|]. split; [auto|].
  destruct Hd as [[-> Hnil]|(Hne & Hwf & Hred & red & D)].
  - unfold lift. rewrite Hnil in *. binds H. inversion H; subst p; clear H. simpl.
    split; [rewrite Nat.sub_0_r; auto|]. split.
    { intros y. unfold costG; simpl. rewrite Q1. apply Q4. }
    intros y. unfold okG; simpl.
    assert (Hr : forall i, rowdot a i y = rowdot AF i y).
    { intros i. rewrite (rowdot_block _ _ _ _ i y E). reflexivity. }
    apply mblock_Ok in E as (_ & _ & R1 & _ & _).
    apply vseg_Ok in E0 as (_ & _ & V1). apply vseg_Ok in E1 as (_ & _ & V2). simpl in V1, V2.
    rewrite R1, B1. rewrite <- stackG_feasible.
    rewrite <- (fillG_feasible _ _ _ _ _ _ _ _ _ y ES eq_refl).
    split; intros [K1 K2]; (split; [|auto]).
    + intros i Hi. specialize (K1 i Hi). rewrite Hr, V1, V2 in K1. exact K1.
    + intros i Hi. rewrite Hr, V1, V2. auto.
  - assert (Hlift : lift b = expand b) by (unfold lift; destruct (bkDeps b); [congruence|reflexivity]).
    rewrite Hlift.
    destruct (bkDeps b) as [|d0 ds0] eqn:Eds; [congruence|]. rewrite <- Eds in *.
    apply bind_Ok in H as (A & F1 & H).
    apply bind_Ok in H as ([XL XU] & F2 & H).
    apply bind_Ok in H as ([Q C] & F3 & H).
    binds H. inversion H; subst p; clear H. simpl.
    destruct (reduceBound_spec n deps red b Hwf D XLF XUF (bkDeps b) B1 B2 (dm_deps _ _ _ _ D))
      as (XL' & XU' & F2' & W1 & W2 & W3).
    rewrite Hred in F2. rewrite F2 in F2'. inversion F2'; subst XL' XU'; clear F2'.
    split; [eapply reduceQC_cost with (y := fun _ => 0) in F3; eauto; tauto|].
    split.
    { intros y. unfold costG; simpl.
      destruct (reduceQC_cost n deps red b D QF CF Q C y F3 Q1 Q2 Q3) as (R1 & _ & _ & R4).
      rewrite R1, R4. apply Q4. }
    intros y. unfold okG; simpl. rewrite W1, W3.
    assert (Hr : forall i, rowdot a i y = rowdot AF i (expand b y)).
    { intros i. rewrite (rowdot_block _ _ _ _ i y E). simpl. exact (rowdot_mul b AF A i y F1). }
    apply mblock_Ok in E as (_ & _ & R1 & _ & _).
    apply vseg_Ok in E0 as (_ & _ & V1). apply vseg_Ok in E1 as (_ & _ & V2). simpl in V1, V2.
    rewrite R1. rewrite <- stackG_feasible.
    rewrite <- (fillG_feasible _ _ _ _ _ _ _ _ _ (expand b y) ES eq_refl).
    split; intros [K1 K2]; (split; [|auto]).
    + intros i Hi. specialize (K1 i Hi). rewrite Hr, V1, V2 in K1. exact K1.
    + intros i Hi. rewrite Hr, V1, V2. auto.
Qed.

(** ** Standard form *)
Lemma qld_rows g n nrE AE bE nrI0 A0 b0 nrI AI bI re ri x :
  fillEqS (rgEq g) n 0 (mzero re n) (vfill re 0) = Ok (nrE, AE, bE) ->
  fillInEqS (rgIneq g) n 0 (mzero ri n) (vfill ri (Fin 0)) = Ok (nrI0, A0, b0) ->
  fillGenInEqS (rgGen g) n nrI0 A0 b0 = Ok (nrI, AI, bI) ->
  ((forall i, (i < nrE)%nat -> rowdot AE i x = vget bE i) /\
   (forall i, (i < nrI)%nat -> ele (Fin (rowdot AI i x)) (vget bI i))) <-> linFeasible n g x.
Proof.
  intros H1 H2 H3. rewrite fillEqS_rows in H1. rewrite fillInEqS_rows in H2. apply fillGenInEqS_rows in H3.
  pose proof (fillRows_feasible (fun a b => a = b) _ n _ _ _ _ _ x H1 eq_refl) as F1.
  assert (H23 : fillRows (map (fun e => (iqNr e, iqA e, iqB e)) (rgIneq g) ++ flat_map genRows (rgGen g)) n 0
                  (mzero ri n) (vfill ri (Fin 0)) = Ok (nrI, AI, bI)).
  { rewrite fillRows_app, H2. cbn [bind]. exact H3. }
  pose proof (fillRows_feasible (fun a b => ele (Fin a) b) _ n _ _ _ _ _ x H23 eq_refl) as F2.
  rewrite F1, F2. unfold linFeasible. rewrite Forall_app, !Forall_map.
  assert (G : Forall (fun e : nat * mat * vec ext => forall i, (i < nrOf e)%nat ->
             ele (Fin (sumn n (fun j => mget (snd (fst e)) i j * x j))) (vget (snd e) i)) (flat_map genRows (rgGen g)) <->
             Forall (holdsGen n x) (rgGen g)).
  { rewrite !Forall_forall. split.
    - intros HH e He. apply genRows_holds. intros q Hq. apply HH. apply in_flat_map. eauto.
    - intros HH q Hq. apply in_flat_map in Hq as (e & He & Hq).
      specialize (HH e He). rewrite <- genRows_holds in HH. auto. }
  rewrite G. unfold nrOf, holdsEq, holdsIneq. simpl. tauto.
Qed.

Lemma qld_meaning b g p n deps :
  qldMatrix b g = Ok p -> ready n deps b ->
  exists QF CF XLF XUF,
    fillQC (rgTasks g) n (mzero n n) (vfill n 0) = Ok (QF, CF) /\
    fillBound (rgBound g) (vfill n NInf) (vfill n PInf) = Ok (XLF, XUF) /\
    mrows (psQ p) = (n - length deps)%nat /\
    (forall y, costS p y = objective n (rgTasks g) (lift b y)) /\
    (forall y, okS p y <->
       linFeasible n g (lift b y) /\
       (forall i, (i < n)%nat -> (forall l, ~ In (l, i, 0) deps) -> between (vget XLF i) (lift b y i) (vget XUF i))).
Proof.
  unfold qldMatrix. intros H (HN & Hd). rewrite HN in H.
  apply bind_Ok in H as ([[nrE AE] bE] & E1 & H).
  apply bind_Ok in H as ([[nrI0 A0] b0] & E2 & H).
  apply bind_Ok in H as ([[nrI AI] bI] & E3 & H).
  apply bind_Ok in H as ([XLF XUF] & E4 & H).
  apply bind_Ok in H as ([QF CF] & E5 & H).
  destruct (fillQC_spec _ _ _ _ E5) as (Q1 & Q2 & Q3 & Q4 & _).
  destruct (fillBound_len _ _ _ _ _ E4) as (B1 & B2). simpl in B1, B2.
  pose proof (fun x => qld_rows g n _ _ _ _ _ _ _ _ _ _ _ x E1 E2 E3) as RW.
  exists QF, CF, XLF, XUF. split; [auto|]. split; [auto|].
  destruct Hd as [[-> Hnil]|(Hne & Hwf & Hred & red & D)].
  - unfold lift. rewrite Hnil in *.
    apply bind_Ok in H as (Aeq1 & G1 & H). apply bind_Ok in H as (beq1 & G2 & H).
    apply bind_Ok in H as (Ain1 & G3 & H). apply bind_Ok in H as (bin1 & G4 & H).
    inversion H; subst p; clear H. simpl.
    split; [rewrite Nat.sub_0_r; auto|]. split.
    { intros y. unfold costS; simpl. rewrite Q1. apply Q4. }
    intros y. unfold okS; simpl.
    assert (Hr : forall i, rowdot Aeq1 i y = rowdot AE i y) by (intros i; rewrite (rowdot_block _ _ _ _ i y G1); reflexivity).
    assert (Hs : forall i, rowdot Ain1 i y = rowdot AI i y) by (intros i; rewrite (rowdot_block _ _ _ _ i y G3); reflexivity).
    apply mblock_Ok in G1 as (_ & _ & R1 & _ & _). apply mblock_Ok in G3 as (_ & _ & R3 & _ & _).
    apply vseg_Ok in G2 as (_ & _ & V2). apply vseg_Ok in G4 as (_ & _ & V4). simpl in V2, V4.
    rewrite R1, R3, B1. rewrite <- (RW y).
    split.
    + intros (K1 & K2 & K3). split; [split|auto].
      * intros i Hi. rewrite <- Hr, <- V2. exact (K1 i Hi).
      * intros i Hi. rewrite <- Hs, <- V4. exact (K2 i Hi).
    + intros ((K1 & K2) & K3). split; [|split; [|auto]].
      * intros i Hi. rewrite Hr, V2. exact (K1 i Hi).
      * intros i Hi. rewrite Hs, V4. exact (K2 i Hi).
  - assert (Hlift : lift b = expand b) by (unfold lift; destruct (bkDeps b); [congruence|reflexivity]).
    rewrite Hlift.
    destruct (bkDeps b) as [|d0 ds0] eqn:Eds; [congruence|]. rewrite <- Eds in *.
    apply bind_Ok in H as (Aeq & F0 & H).
    apply bind_Ok in H as (Ain & F1 & H).
    apply bind_Ok in H as ([XL XU] & F2 & H).
    apply bind_Ok in H as ([Q C] & F3 & H).
    apply bind_Ok in H as (Aeq1 & G1 & H). apply bind_Ok in H as (beq1 & G2 & H).
    apply bind_Ok in H as (Ain1 & G3 & H). apply bind_Ok in H as (bin1 & G4 & H).
    inversion H; subst p; clear H. simpl.
    destruct (reduceBound_spec n deps red b Hwf D XLF XUF (bkDeps b) B1 B2 (dm_deps _ _ _ _ D))
      as (XL' & XU' & F2' & W1 & W2 & W3).
    rewrite Hred in F2. rewrite F2 in F2'. inversion F2'; subst XL' XU'; clear F2'.
    split; [eapply reduceQC_cost with (y := fun _ => 0) in F3; eauto; tauto|].
    split.
    { intros y. unfold costS; simpl.
      destruct (reduceQC_cost n deps red b D QF CF Q C y F3 Q1 Q2 Q3) as (R1 & _ & _ & R4).
      rewrite R1, R4. apply Q4. }
    intros y. unfold okS; simpl. rewrite W1, W3.
    assert (Hr : forall i, rowdot Aeq1 i y = rowdot AE i (expand b y)).
    { intros i. rewrite (rowdot_block _ _ _ _ i y G1). simpl. exact (rowdot_mul b AE Aeq i y F0). }
    assert (Hs : forall i, rowdot Ain1 i y = rowdot AI i (expand b y)).
    { intros i. rewrite (rowdot_block _ _ _ _ i y G3). simpl. exact (rowdot_mul b AI Ain i y F1). }
    apply mblock_Ok in G1 as (_ & _ & R1 & _ & _). apply mblock_Ok in G3 as (_ & _ & R3 & _ & _).
    apply vseg_Ok in G2 as (_ & _ & V2). apply vseg_Ok in G4 as (_ & _ & V4). simpl in V2, V4.
    rewrite R1, R3. rewrite <- (RW (expand b y)).
    split.
    + intros (K1 & K2 & K3). split; [split|auto].
      * intros i Hi. rewrite <- Hr, <- V2. exact (K1 i Hi).
      * intros i Hi. rewrite <- Hs, <- V4. exact (K2 i Hi).
    + intros ((K1 & K2) & K3). split; [|split; [|auto]].
      * intros i Hi. rewrite Hr, V2. exact (K1 i Hi).
      * intros i Hi. rewrite Hs, V4. exact (K2 i Hi).
Qed.

(** ** Definedness *)
Definition fits (b : backend) (g : registered) : Prop :=
  (sumnat (map eqNr (rgEq g)) <= bkEq b)%nat /\ (sumnat (map iqNr (rgIneq g)) <= bkIn b)%nat /\
  (sumnat (map giNr (rgGen g)) <= bkGen b)%nat.

Lemma stackG_nr g : sumnat (map giNr (stackG g)) =
  (sumnat (map eqNr (rgEq g)) + (sumnat (map iqNr (rgIneq g)) + sumnat (map giNr (rgGen g))))%nat.
Proof. unfold stackG. rewrite !map_app, !sumnat_app, !map_map. reflexivity. Qed.

Lemma stackG_wf n g : wfReg n g -> Forall (wfGen n) (stackG g).
Proof.
  intros (_ & H1 & H2 & H3 & _). unfold stackG. rewrite !Forall_app, !Forall_map.
  split; [|split; [|auto]]; (eapply Forall_impl; [|eassumption]); intros e (A & B & C); repeat split; simpl; auto; lia.
Qed.

Lemma mmul_def A B : mcols A = mrows B -> exists C, mmul A B = Ok C /\ mrows C = mrows A /\ mcols C = mcols B.
Proof. intros H. unfold mmul. rewrite H, Nat.eqb_refl. eexists. split; [reflexivity|]. auto. Qed.
Lemma mvec_def A v : mcols A = vlen v -> exists w, mvec A v = Ok w /\ vlen w = mrows A.
Proof. intros H. unfold mvec. rewrite H, Nat.eqb_refl. eexists. split; [reflexivity|]. auto. Qed.
Lemma mblock_def A nr : (nr <= mrows A)%nat -> exists B, mblock A 0 0 nr (mcols A) = Ok B.
Proof.
  intros H. unfold mblock. simpl.
  replace (nr <=? mrows A)%nat with true by (symmetry; apply Nat.leb_le; auto). rewrite Nat.leb_refl. simpl. eauto.
Qed.
Lemma vseg_def {T} (v : vec T) nr : (nr <= vlen v)%nat -> exists w, vseg v 0 nr = Ok w.
Proof.
  intros H. unfold vseg. simpl. replace (nr <=? vlen v)%nat with true by (symmetry; apply Nat.leb_le; auto). eauto.
Qed.

Lemma reduceQC_def n deps red b QF CF : depMaps n deps red b -> mrows QF = n -> mcols QF = n -> vlen CF = n ->
  exists r, reduceQC QF CF (bkM b) = Ok r.
Proof.
  intros D H1 H2 H3. unfold reduceQC.
  destruct (mmul_def (mtrans (bkM b)) QF) as (X & -> & X1 & X2); [simpl; rewrite (dm_rows _ _ _ _ D); auto|]. cbn [bind].
  destruct (mmul_def X (bkM b)) as (Y & -> & _); [rewrite X2, (dm_rows _ _ _ _ D); auto|]. cbn [bind].
  destruct (mvec_def (mtrans (bkM b)) CF) as (Z & -> & _); [simpl; rewrite (dm_rows _ _ _ _ D); auto|]. cbn [bind]. eauto.
Qed.

Lemma lssol_defined b g n deps :
  ready n deps b -> wfReg n g -> fits b g -> exists p, lssolMatrix b g = Ok p.
Proof.
  intros (HN & Hd) W (F1 & F2 & F3). unfold lssolMatrix. rewrite HN.
  set (rows := (bkEq b + bkIn b + bkGen b)%nat).
  destruct (fillGen_def (stackG g) n 0 (mzero rows n) (vfill rows (Fin 0)) (vfill rows (Fin 0))) as ([[[n3 AF] AL] AU] & ES).
  { apply stackG_wf; auto. } { reflexivity. }
  1-3: rewrite stackG_nr; simpl; unfold rows; lia.
  pose proof ES as ES0. rewrite <- fill3_stack in ES0.
  apply bind_Ok in ES0 as ([[[n1 A1] L1] U1] & -> & ES0). cbn [bind].
  apply bind_Ok in ES0 as ([[[n2 A2] L2] U2] & -> & ES0). cbn [bind].
  rewrite ES0. cbn [bind].
  destruct (fillGen_spec _ _ _ _ _ _ _ _ _ _ ES eq_refl) as (_ & S1 & S2 & S3 & S4 & S5 & S6 & S7 & _).
  simpl in *. specialize (S5 ltac:(lia)). specialize (S6 ltac:(lia)). specialize (S7 ltac:(lia)).
  destruct W as (W1 & _ & _ & _ & W5).
  destruct (fillBound_def (rgBound g) (vfill n NInf) (vfill n PInf)) as ([XLF XUF] & EB); auto. rewrite EB. cbn [bind].
  destruct (fillBound_len _ _ _ _ _ EB) as (B1 & B2). simpl in B1, B2.
  destruct (fillQC_def (rgTasks g) n W1) as ([QF CF] & EQ). rewrite EQ. cbn [bind].
  destruct (fillQC_spec _ _ _ _ EQ) as (Q1 & Q2 & Q3 & _).
  destruct (vseg_def AL n3) as (ALb & EL); [lia|]. destruct (vseg_def AU n3) as (AUb & EU); [lia|].
  destruct Hd as [[-> Hnil]|(Hne & Hwf & Hred & red & D)].
  - rewrite Hnil. destruct (mblock_def AF n3) as (Ab & ->); [lia|]. cbn [bind]. rewrite EL, EU. cbn [bind]. eauto.
  - destruct (bkDeps b) as [|d0 ds0] eqn:Eds; [congruence|]. rewrite <- Eds in *.
    unfold reduceA. destruct (mmul_def AF (bkM b)) as (A & -> & R1 & R2); [rewrite S2, (dm_rows _ _ _ _ D); auto|].
    cbn [bind]. rewrite Hred.
    destruct (reduceBound_spec n deps red b Hwf D XLF XUF (bkDeps b) B1 B2 (dm_deps _ _ _ _ D)) as (XL & XU & -> & _).
    cbn [bind].
    destruct (reduceQC_def n deps red b QF CF D Q1 Q2 Q3) as ([Q C] & ->). cbn [bind].
    destruct (mblock_def A n3) as (Ab & ->); [lia|]. cbn [bind]. rewrite EL, EU. cbn [bind]. eauto.
Qed.

Lemma qld_defined b g n deps :
  ready n deps b -> wfReg n g -> fits b g -> exists p, qldMatrix b g = Ok p.
Proof.
  intros (HN & Hd) W (F1 & F2 & F3). unfold qldMatrix. rewrite HN.
  set (ri := (bkIn b + bkGen b * 2)%nat).
  destruct W as (W1 & W2 & W3 & W4 & W5).
  destruct (fillRows_def (map (fun e => (eqNr e, eqA e, eqB e)) (rgEq g)) n 0 (mzero (bkEq b) n) (vfill (bkEq b) 0))
    as ([[nrE AE] bE] & E1).
  { rewrite Forall_map. eapply Forall_impl; [|exact W2]. intros e H; exact H. }
  { reflexivity. }
  1-2: rewrite map_map; simpl; exact F1.
  destruct (fillRows_spec _ _ _ _ _ _ _ _ E1 eq_refl) as (_ & S1 & S2 & S3 & S4 & S5 & _). simpl in *.
  specialize (S4 ltac:(lia)). specialize (S5 ltac:(lia)).
  rewrite fillEqS_rows, E1. cbn [bind].
  destruct (fillRows_def (map (fun e => (iqNr e, iqA e, iqB e)) (rgIneq g)) n 0 (mzero ri n) (vfill ri (Fin 0)))
    as ([[nrI0 A0] b0] & E2).
  { rewrite Forall_map. eapply Forall_impl; [|exact W3]. intros e H; exact H. }
  { reflexivity. }
  1-2: rewrite map_map; simpl; unfold ri; change (fun x : inequality => nrOf (iqNr x, iqA x, iqB x)) with iqNr; lia.
  destruct (fillRows_spec _ _ _ _ _ _ _ _ E2 eq_refl) as (T0 & T1 & T2 & T3 & T4 & T5 & _). simpl in *.
  rewrite map_map in T0. change (fun x : inequality => nrOf (iqNr x, iqA x, iqB x)) with iqNr in T0.
  rewrite fillInEqS_rows, E2. cbn [bind].
  destruct (fillGenInEqS_def (rgGen g) n nrI0 A0 b0) as ([[nrI AI] bI] & E3); auto.
  1-2: unfold ri in *; lia.
  rewrite E3. cbn [bind]. apply fillGenInEqS_rows in E3.
  destruct (fillRows_spec _ _ _ _ _ _ _ _ E3 T2) as (_ & U1 & U2 & U3 & U4 & U5 & _).
  specialize (U4 ltac:(unfold ri in *; lia)). specialize (U5 ltac:(unfold ri in *; lia)).
  destruct (fillBound_def (rgBound g) (vfill n NInf) (vfill n PInf)) as ([XLF XUF] & EB); auto. rewrite EB. cbn [bind].
  destruct (fillBound_len _ _ _ _ _ EB) as (B1 & B2). simpl in B1, B2.
  destruct (fillQC_def (rgTasks g) n W1) as ([QF CF] & EQ). rewrite EQ. cbn [bind].
  destruct (fillQC_spec _ _ _ _ EQ) as (Q1 & Q2 & Q3 & _).
  destruct (vseg_def bE nrE) as (be & EL); [lia|]. destruct (vseg_def bI nrI) as (bi & EU); [lia|].
  destruct Hd as [[-> Hnil]|(Hne & Hwf & Hred & red & D)].
  - rewrite Hnil. destruct (mblock_def AE nrE) as (Ae & ->); [lia|]. cbn [bind]. rewrite EL. cbn [bind].
    destruct (mblock_def AI nrI) as (Ai & ->); [lia|]. cbn [bind]. rewrite EU. cbn [bind]. eauto.
  - destruct (bkDeps b) as [|d0 ds0] eqn:Eds; [congruence|]. rewrite <- Eds in *.
    unfold reduceA. destruct (mmul_def AE (bkM b)) as (A & -> & R1 & R2); [rewrite S2, (dm_rows _ _ _ _ D); auto|].
    cbn [bind].
    destruct (mmul_def AI (bkM b)) as (A' & -> & R1' & R2'); [rewrite U2, (dm_rows _ _ _ _ D); auto|].
    cbn [bind]. rewrite Hred.
    destruct (reduceBound_spec n deps red b Hwf D XLF XUF (bkDeps b) B1 B2 (dm_deps _ _ _ _ D)) as (XL & XU & -> & _).
    cbn [bind].
    destruct (reduceQC_def n deps red b QF CF D Q1 Q2 Q3) as ([Q C] & ->). cbn [bind].
    destruct (mblock_def A nrE) as (Ae & ->); [lia|]. cbn [bind]. rewrite EL. cbn [bind].
    destruct (mblock_def A' nrI) as (Ai & ->); [lia|]. cbn [bind]. rewrite EU. cbn [bind]. eauto.
Qed.

(** ** Solve *)
Lemma backendSolve_defined num b g n deps :
  contract num -> ready n deps b -> wfReg n g -> fits b g ->
  exists ok x, backendSolve num b g = Ok (ok, x) /\ vlen x = n.
Proof.
  intros (C1 & C2 & _) Hr W F. unfold backendSolve.
  assert (Hy : exists ok y, match bkKind b with
                 | QLD => do p <- qldMatrix b g; Ok (numQld num p)
                 | LSSOL => do p <- lssolMatrix b g; Ok (numLssol num p) end = Ok (ok, y) /\ vlen y = (n - length deps)%nat).
  { destruct (bkKind b).
    - destruct (qld_defined b g n deps Hr W F) as (p & Ep). rewrite Ep. cbn [bind].
      destruct (qld_meaning _ _ _ _ _ Ep Hr) as (_ & _ & _ & _ & _ & _ & HQ & _).
      specialize (C1 p). destruct (numQld num p) as [ok y] eqn:E. exists ok, y. split; [auto|]. simpl in C1. congruence.
    - destruct (lssol_defined b g n deps Hr W F) as (p & Ep). rewrite Ep. cbn [bind].
      destruct (lssol_meaning _ _ _ _ _ Ep Hr) as (_ & _ & _ & _ & _ & _ & HQ & _).
      specialize (C2 p). destruct (numLssol num p) as [ok y] eqn:E. exists ok, y. split; [auto|]. simpl in C2. congruence. }
  destruct Hy as (ok & y & -> & Hl). cbn [bind]. destruct Hr as (HN & [[-> Hnil]|(Hne & Hwf & Hred & red & D)]).
  - rewrite Hnil. exists ok, y. split; auto. simpl in Hl. lia.
  - destruct (bkDeps b) as [|d0 ds0] eqn:Eds; [congruence|]. unfold expandResult.
    destruct (mvec_def (bkM b) y) as (x & -> & Hx); [rewrite (dm_cols _ _ _ _ D); auto|]. cbn [bind].
    exists ok, x. split; auto. rewrite Hx. apply (dm_rows _ _ _ _ D).
Qed.

Lemma lift_honours n deps b y : ready n deps b -> honours deps (lift b y).
Proof.
  intros (HN & [[-> Hnil]|(Hne & Hwf & Hred & red & D)]).
  - intros l r m [].
  - unfold lift. destruct (bkDeps b); [congruence|]. eapply expand_honours; eauto.
Qed.

Lemma lift_surj n deps b x : ready n deps b -> honours deps x ->
  exists y, forall i, (i < n)%nat -> lift b y i = x i.
Proof.
  intros (HN & [[-> Hnil]|(Hne & Hwf & Hred & red & D)]) Hx; unfold lift.
  - rewrite Hnil. exists x. auto.
  - destruct (bkDeps b) eqn:Eds; [congruence|]. exists (restrict b x). eapply expand_restrict; eauto.
Qed.

(** The bounds of the variables, except those of replicas with a zero multiplier. *)
Lemma backend_optimal_gen num b g n deps x :
  contract num -> ready n deps b -> backendSolve num b g = Ok (true, x) ->
  exists XLF XUF, fillBound (rgBound g) (vfill n NInf) (vfill n PInf) = Ok (XLF, XUF) /\
  vlen x = n /\
  let good z := linFeasible n g z /\
     (forall i, (i < n)%nat -> (forall l, ~ In (l, i, 0) deps) -> between (vget XLF i) (z i) (vget XUF i)) in
  good (vget x) /\ honours deps (vget x) /\
  forall z, good z -> honours deps z -> objective n (rgTasks g) (vget x) <= objective n (rgTasks g) z.
Proof.
  intros (C1 & C2 & C3 & C4) Hr H. unfold backendSolve in H.
  apply bind_Ok in H as ([ok y] & E & H). cbv beta iota zeta in H.
  assert (Hx : ok = true /\ vget x = lift b (vget y) /\
               (vlen y = (n - length deps)%nat -> vlen x = n)).
  { unfold lift. destruct (bkDeps b) eqn:Eds.
    - inversion H; subst. split; [auto|]. split; [auto|].
      destruct Hr as (_ & [[-> _]|(Hne & _)]); [simpl; lia|rewrite Eds in Hne; congruence].
    - apply bind_Ok in H as (x' & Ex & H). inversion H; subst. split; [auto|].
      unfold expandResult, mvec in Ex. destruct (_ =? _)%nat; [|discriminate]. inversion Ex; subst. split; [reflexivity|].
      simpl. destruct Hr as (_ & [[_ Hn]|(_ & _ & _ & red & D)]); [congruence|]. intros _. apply (dm_rows _ _ _ _ D). }
  destruct Hx as (-> & -> & Hlen).
  assert (Main : exists QF CF XLF XUF,
    fillQC (rgTasks g) n (mzero n n) (vfill n 0) = Ok (QF, CF) /\
    fillBound (rgBound g) (vfill n NInf) (vfill n PInf) = Ok (XLF, XUF) /\ vlen y = (n - length deps)%nat /\
    let good z := linFeasible n g z /\
     (forall i, (i < n)%nat -> (forall l, ~ In (l, i, 0) deps) -> between (vget XLF i) (z i) (vget XUF i)) in
    good (lift b (vget y)) /\
    forall y', good (lift b y') -> objective n (rgTasks g) (lift b (vget y)) <= objective n (rgTasks g) (lift b y')).
  { destruct (bkKind b).
    - apply bind_Ok in E as (p & Ep & E). inversion E as [E']. destruct (C3 p y E') as [K1 K2].
      destruct (qld_meaning _ _ _ _ _ Ep Hr) as (QF & CF & XLF & XUF & M1 & M2 & M3 & M4 & M5).
      exists QF, CF, XLF, XUF. split; [auto|]. split; [auto|]. split; [specialize (C1 p); rewrite E' in C1; simpl in C1; congruence|].
      split; [apply M5; auto|]. intros y' Hy'. apply M5 in Hy'. rewrite <- !M4. auto.
    - apply bind_Ok in E as (p & Ep & E). inversion E as [E']. destruct (C4 p y E') as [K1 K2].
      destruct (lssol_meaning _ _ _ _ _ Ep Hr) as (QF & CF & XLF & XUF & M1 & M2 & M3 & M4 & M5).
      exists QF, CF, XLF, XUF. split; [auto|]. split; [auto|]. split; [specialize (C2 p); rewrite E' in C2; simpl in C2; congruence|].
      split; [apply M5; auto|]. intros y' Hy'. apply M5 in Hy'. rewrite <- !M4. auto. }
  destruct Main as (QF & CF & XLF & XUF & M1 & M2 & M3 & M4 & M5).
  exists XLF, XUF. split; [auto|]. split; [auto|]. split; [auto|]. split; [eapply lift_honours; eauto|].
  intros z (Z1 & Z2) Z3. destruct (lift_surj _ _ _ _ Hr Z3) as (y' & Hy').
  rewrite (fillQC_ext _ _ _ _ z (lift b y') M1) by (intros; symmetry; auto).
  apply M5. split.
  - eapply linFeasible_ext; [|exact Z1]. intros; symmetry; auto.
  - intros i Hi Hz. rewrite Hy' by auto. auto.
Qed.

Lemma backend_optimal num b g n deps x :
  contract num -> ready n deps b -> backendSolve num b g = Ok (true, x) ->
  Forall wfBound (rgBound g) -> disjointBounds (rgBound g) -> (forall l r, ~ In (l, r, 0) deps) ->
  vlen x = n /\ feasible n g (vget x) /\ honours deps (vget x) /\
  forall z, feasible n g z -> honours deps z -> objective n (rgTasks g) (vget x) <= objective n (rgTasks g) z.
Proof.
  intros C Hr H WB DB NZ. destruct (backend_optimal_gen _ _ _ _ _ _ C Hr H) as (XL & XU & EB & L & (G1 & G2) & Ho & Hopt).
  assert (HB : forall z, (forall i, (i < n)%nat -> (forall l, ~ In (l, i, 0) deps) -> between (vget XL i) (z i) (vget XU i)) <->
                         Forall (holdsBound z) (rgBound g)).
  { intros z. rewrite <- (fillBound_disjoint _ _ _ _ z EB WB DB). split; intros HH i Hi; auto. }
  split; [auto|]. split; [split; [auto|apply HB; auto]|]. split; [auto|].
  intros z (Z1 & Z2) Z3. apply Hopt; auto. split; auto. apply HB; auto.
Qed.
