(** Lemmas about the fill functions. *)
From Verif Require Import Lists.
From Verif Require Export FillSpec.

Lemma split_index (l : list nat) p :
  (p < sumnat l)%nat -> exists k m i, nth_error l k = Some m /\ (i < m)%nat /\ p = (sumnat (firstn k l) + i)%nat.
Proof.
  revert p; induction l as [|a l IH]; intros p H; simpl in H; [lia|].
  destruct (Nat.lt_ge_cases p a) as [Hp|Hp].
  - exists 0%nat, a, p. simpl. auto.
  - destruct (IH (p - a)%nat) as (k & m & i & H1 & H2 & H3); [lia|].
    exists (S k), m, i. simpl. split; [auto|]. split; [auto|]. lia.
Qed.

Lemma sumnat_firstn_lt (l : list nat) k m i :
  nth_error l k = Some m -> (i < m)%nat -> (sumnat (firstn k l) + i < sumnat l)%nat.
Proof.
  revert k; induction l as [|a l IH]; intros k Hk Hi; [destruct k; discriminate|].
  destruct k as [|k]; simpl in *.
  - inversion Hk; subst. lia.
  - specialize (IH _ Hk Hi). lia.
Qed.

Lemma andb_inr_true (a b : bool) : a && b = true <-> a = true /\ b = true.
Proof. apply andb_true_iff. Qed.

Ltac binds H :=
  repeat match type of H with
  | bind _ _ = Ok _ =>
    let a := fresh "a" in let E := fresh "E" in
    apply bind_Ok in H; destruct H as (a & E & H); cbv beta iota zeta in H
  end.

(** Rows of a matrix after a full-width block assignment. *)
Lemma mset_block_row A n B A' :
  mset_block A n 0 B = Ok A' -> mcols B = mcols A ->
  mrows A' = mrows A /\ mcols A' = mcols A /\ (n + mrows B <= mrows A)%nat /\
  (forall i j, (i < n)%nat -> mget A' i j = mget A i j) /\
  (forall i j, (i < mrows B)%nat -> (j < mcols A)%nat -> mget A' (n + i)%nat j = mget B i j) /\
  (forall i j, (n + mrows B <= i)%nat -> mget A' i j = mget A i j).
Proof.
  intros H Hc. apply mset_block_Ok in H as (H1 & H2 & H3 & H4 & H5).
  split; [auto|]. split; [auto|]. split; [auto|]. repeat split; intros.
  - rewrite H5. replace (inr n (mrows B) i) with false; [reflexivity|].
    symmetry. apply inr_false. lia.
  - rewrite H5. replace (inr n (mrows B) (n + i)) with true by (symmetry; apply inr_true; lia).
    replace (inr 0 (mcols B) j) with true by (symmetry; apply inr_true; lia). simpl.
    f_equal; lia.
  - rewrite H5. replace (inr n (mrows B) i) with false; [reflexivity|].
    symmetry. apply inr_false. lia.
Qed.

Lemma vset_seg_row {T} (v : vec T) n w v' :
  vset_seg v n w = Ok v' ->
  vlen v' = vlen v /\ (n + vlen w <= vlen v)%nat /\
  (forall i, (i < n)%nat -> vget v' i = vget v i) /\
  (forall i, (i < vlen w)%nat -> vget v' (n + i)%nat = vget w i) /\
  (forall i, (n + vlen w <= i)%nat -> vget v' i = vget v i).
Proof.
  intros H. apply vset_seg_Ok in H as (H1 & H2 & H3). split; [auto|]. split; [auto|].
  repeat split; intros; rewrite H3.
  - replace (inr n (vlen w) i) with false; [reflexivity|]. symmetry. apply inr_false. lia.
  - replace (inr n (vlen w) (n + i)) with true by (symmetry; apply inr_true; lia). f_equal; lia.
  - replace (inr n (vlen w) i) with false; [reflexivity|]. symmetry. apply inr_false. lia.
Qed.

(* ------------------------------------------------------------------ *)
(** * General form *)

Lemma fillGen_spec gis nv n A AL AU n' A' AL' AU' :
  fillGenInEqG gis nv n A AL AU = Ok (n', A', AL', AU') -> mcols A = nv ->
  n' = (n + sumnat (map giNr gis))%nat /\
  mrows A' = mrows A /\ mcols A' = nv /\ vlen AL' = vlen AL /\ vlen AU' = vlen AU /\
  ((n <= mrows A)%nat -> (n' <= mrows A)%nat) /\
  ((n <= vlen AL)%nat -> (n' <= vlen AL)%nat) /\ ((n <= vlen AU)%nat -> (n' <= vlen AU)%nat) /\
  (forall i, (i < n)%nat -> (forall j, mget A' i j = mget A i j) /\ vget AL' i = vget AL i /\ vget AU' i = vget AU i) /\
  (forall k e i, nth_error gis k = Some e -> (i < giNr e)%nat ->
     let p := (n + sumnat (map giNr (firstn k gis)) + i)%nat in
     (forall j, (j < nv)%nat -> mget A' p j = mget (giA e) i j) /\
     vget AL' p = vget (giL e) i /\ vget AU' p = vget (giU e) i).
Proof.
  revert n A AL AU; induction gis as [|e gis IH]; intros n A AL AU H Hc.
  - simpl in H. inversion H; subst; clear H. simpl.
    split; [lia|]. do 8 (split; [try (auto; fail); try lia|]).
    intros k e i Hk. destruct k; discriminate.
  - cbn [fillGenInEqG] in H. binds H.
    rename a into Ai, a0 into Li, a1 into Ui, a2 into A1, a3 into L1, a4 into U1.
    apply mblock_Ok in E as (B1 & B2 & B3 & B4 & B5).
    apply vseg_Ok in E0 as (L2 & L3 & L4). apply vseg_Ok in E1 as (U2 & U3 & U4).
    apply mset_block_row in E2 as (M1 & M2 & M3 & M4 & M5 & M6); [|congruence].
    apply vset_seg_row in E3 as (S1 & S2 & S3 & S4 & S5).
    apply vset_seg_row in E4 as (T1 & T2 & T3 & T4 & T5).
    apply IH in H; [|congruence].
    destruct H as (I1 & I2 & I3 & I4 & I5 & I6 & I6l & I6u & I7 & I8).
    rewrite B3 in M3. rewrite L3 in S2. rewrite U3 in T2.
    split; [simpl; lia|]. split; [congruence|]. split; [congruence|]. split; [congruence|]. split; [congruence|].
    split; [intros; rewrite <- M1; apply I6; rewrite M1; lia|].
    split; [intros; rewrite <- S1; apply I6l; rewrite S1; lia|].
    split; [intros; rewrite <- T1; apply I6u; rewrite T1; lia|]. split.
    + intros i Hi. destruct (I7 i) as (J1 & J2 & J3); [lia|].
      split; [intros j; rewrite J1; apply M4; auto|]. split; [rewrite J2; auto|rewrite J3; auto].
    + intros k e' i Hk Hi. destruct k as [|k]; simpl in Hk.
      * inversion Hk; subst e'. simpl. replace (n + 0 + i)%nat with (n + i)%nat by lia.
        destruct (I7 (n + i)%nat) as (J1 & J2 & J3); [lia|].
        split; [intros j Hj; rewrite J1, M5; [rewrite B5; reflexivity|lia|lia]|].
        split; [rewrite J2, S4 by lia; rewrite L4; reflexivity|rewrite J3, T4 by lia; rewrite U4; reflexivity].
      * specialize (I8 _ _ _ Hk Hi). simpl in *.
        replace (n + (giNr e + sumnat (map giNr (firstn k gis))) + i)%nat
          with (n + giNr e + sumnat (map giNr (firstn k gis)) + i)%nat by lia. auto.
Qed.

Definition genOfEq (e : equality) : geninequality :=
  mkGen (eqMax e) (eqNr e) (eqA e) (vmap Fin (eqB e)) (vmap Fin (eqB e)).
Definition genOfIneq (e : inequality) : geninequality :=
  mkGen (iqMax e) (iqNr e) (iqA e) (vfill (iqNr e) NInf) (iqB e).

Lemma fillEqG_gen eqs nv n A AL AU :
  fillEqG eqs nv n A AL AU = fillGenInEqG (map genOfEq eqs) nv n A AL AU.
Proof.
  revert n A AL AU; induction eqs as [|e eqs IH]; intros; [reflexivity|].
  cbn [fillEqG fillGenInEqG map]. unfold genOfEq at 1 2 3 4 5 6 7. cbn [giNr giA giL giU].
  destruct (mblock (eqA e) 0 0 (eqNr e) nv); cbn [bind]; try reflexivity.
  unfold vhead, vseg, vmap; simpl.
  destruct (Nat.leb (eqNr e) (vlen (eqB e))); cbn [bind]; try reflexivity.
  destruct (mset_block A n 0 a); cbn [bind]; try reflexivity.
  destruct (vset_seg AL n _); cbn [bind]; try reflexivity.
  destruct (vset_seg AU n _); cbn [bind]; try reflexivity.
  apply IH.
Qed.

Lemma fillInEqG_gen iqs nv n A AL AU :
  fillInEqG iqs nv n A AL AU = fillGenInEqG (map genOfIneq iqs) nv n A AL AU.
Proof.
  revert n A AL AU; induction iqs as [|e eqs IH]; intros; [reflexivity|].
  cbn [fillInEqG fillGenInEqG map]. unfold genOfIneq at 1 2 3 4 5 6 7. cbn [giNr giA giL giU].
  destruct (mblock (iqA e) 0 0 (iqNr e) nv); cbn [bind]; try reflexivity.
  unfold vhead, vseg, vfill; simpl. rewrite Nat.leb_refl. cbn [bind].
  destruct (Nat.leb (iqNr e) (vlen (iqB e))); cbn [bind]; try reflexivity.
  destruct (mset_block A n 0 a); cbn [bind]; try reflexivity.
  destruct (vset_seg AL n _); cbn [bind]; try reflexivity.
  destruct (vset_seg AU n _); cbn [bind]; try reflexivity.
  apply IH.
Qed.

(** The three fills in sequence are one fill of the whole stack. *)
Definition stackG (g : registered) : list geninequality :=
  map genOfEq (rgEq g) ++ map genOfIneq (rgIneq g) ++ rgGen g.

Lemma fillGen_app l1 l2 nv n A AL AU :
  fillGenInEqG (l1 ++ l2) nv n A AL AU =
  do (n1, A1, L1, U1) <- fillGenInEqG l1 nv n A AL AU; fillGenInEqG l2 nv n1 A1 L1 U1.
Proof.
  revert n A AL AU; induction l1 as [|e l1 IH]; intros; [reflexivity|].
  cbn [fillGenInEqG app].
  destruct (mblock (giA e) 0 0 (giNr e) nv); cbn [bind]; try reflexivity.
  destruct (vhead (giL e) _); cbn [bind]; try reflexivity.
  destruct (vhead (giU e) _); cbn [bind]; try reflexivity.
  destruct (mset_block A n 0 a); cbn [bind]; try reflexivity.
  destruct (vset_seg AL n _); cbn [bind]; try reflexivity.
  destruct (vset_seg AU n _); cbn [bind]; try reflexivity.
  apply IH.
Qed.

Lemma fill3_stack g nv n A AL AU :
  (do (n1, A1, L1, U1) <- fillEqG (rgEq g) nv n A AL AU;
   do (n2, A2, L2, U2) <- fillInEqG (rgIneq g) nv n1 A1 L1 U1;
   fillGenInEqG (rgGen g) nv n2 A2 L2 U2) = fillGenInEqG (stackG g) nv n A AL AU.
Proof.
  unfold stackG. rewrite fillGen_app, fillEqG_gen.
  destruct (fillGenInEqG (map genOfEq (rgEq g)) nv n A AL AU) as [[[[n1 A1] L1] U1]| |]; cbn [bind]; try reflexivity.
  rewrite fillGen_app, fillInEqG_gen. reflexivity.
Qed.

(** Rows used by a stack hold iff every constraint holds. *)
Lemma rows_iff (P : nat -> Prop) (gis : list geninequality) n (Q : geninequality -> nat -> Prop) :
  (forall k e i, nth_error gis k = Some e -> (i < giNr e)%nat ->
     (P (n + sumnat (map giNr (firstn k gis)) + i)%nat <-> Q e i)) ->
  ((forall p, (n <= p < n + sumnat (map giNr gis))%nat -> P p) <->
   Forall (fun e => forall i, (i < giNr e)%nat -> Q e i) gis).
Proof.
  intros H. split.
  - intros HP. apply Forall_forall. intros e He i Hi.
    apply In_nth_error in He as [k Hk]. apply (H _ _ _ Hk Hi). apply HP.
    assert (Hk' : nth_error (map giNr gis) k = Some (giNr e)) by (apply nth_error_map_some; auto).
    pose proof (sumnat_firstn_lt _ _ _ _ Hk' Hi). rewrite firstn_map in *. lia.
  - intros HF p Hp. destruct (split_index (map giNr gis) (p - n)) as (k & m & i & H1 & H2 & H3); [lia|].
    rewrite nth_error_map in H1. destruct (nth_error gis k) as [e|] eqn:Ek; [|discriminate].
    simpl in H1. inversion H1; subst m. rewrite firstn_map in H3.
    replace p with (n + sumnat (map giNr (firstn k gis)) + i)%nat by lia.
    apply (H _ _ _ Ek H2). rewrite Forall_forall in HF. eapply HF; eauto. eapply nth_error_In; eauto.
Qed.

Lemma sumn_cols n f g : (forall j, (j < n)%nat -> f j = g j) -> forall x : nat -> R,
  sumn n (fun j => f j * x j) = sumn n (fun j => g j * x j).
Proof. intros H x. apply sumn_ext. intros; rewrite H; auto. Qed.

Lemma holdsGen_of_eq n x e : holdsGen n x (genOfEq e) <-> holdsEq n x e.
Proof.
  unfold holdsGen, holdsEq, between; simpl. split; intros H i Hi; specialize (H i Hi); lra.
Qed.
Lemma holdsGen_of_ineq n x e : holdsGen n x (genOfIneq e) <-> holdsIneq n x e.
Proof.
  unfold holdsGen, holdsIneq, between; simpl. split; intros H i Hi; specialize (H i Hi); tauto.
Qed.

Lemma stackG_feasible n g x : Forall (holdsGen n x) (stackG g) <-> linFeasible n g x.
Proof.
  unfold stackG, linFeasible. rewrite !Forall_app, !Forall_map.
  split; intros (H1 & H2 & H3); (split; [|split]); auto;
    (eapply Forall_impl; [|eassumption]); intros e He;
    (apply holdsGen_of_eq; exact He) || (apply holdsGen_of_ineq; exact He).
Qed.

Lemma fillG_feasible gis nv A AL AU n' A' AL' AU' x :
  fillGenInEqG gis nv 0 A AL AU = Ok (n', A', AL', AU') -> mcols A = nv ->
  ((forall i, (i < n')%nat -> between (vget AL' i) (rowdot A' i x) (vget AU' i)) <-> Forall (holdsGen nv x) gis).
Proof.
  intros H Hc. destruct (fillGen_spec _ _ _ _ _ _ _ _ _ _ H Hc) as (I1 & I2 & I3 & _ & _ & _ & _ & _ & _ & I8).
  unfold holdsGen.
  rewrite <- (rows_iff (fun p => between (vget AL' p) (rowdot A' p x) (vget AU' p)) gis 0
                (fun e i => between (vget (giL e) i) (sumn nv (fun j => mget (giA e) i j * x j)) (vget (giU e) i))).
  - rewrite I1. split; intros HH i Hi; apply HH; lia.
  - intros k e i Hk Hi. destruct (I8 _ _ _ Hk Hi) as (J1 & J2 & J3).
    unfold rowdot. rewrite J2, J3, I3. rewrite (sumn_cols nv _ (mget (giA e) i)) by auto. tauto.
Qed.

(** Definedness. *)
Lemma fillGen_def gis nv n A AL AU :
  Forall (wfGen nv) gis -> mcols A = nv ->
  (n + sumnat (map giNr gis) <= mrows A)%nat ->
  (n + sumnat (map giNr gis) <= vlen AL)%nat -> (n + sumnat (map giNr gis) <= vlen AU)%nat ->
  exists r, fillGenInEqG gis nv n A AL AU = Ok r.
Proof.
  revert n A AL AU; induction gis as [|e gis IH]; intros n A AL AU W Hc H1 H2 H3; [simpl; eauto|].
  inversion W as [|? ? (W1 & W2 & W3 & W4) W']; subst. cbn [map sumnat] in *.
  cbn [fillGenInEqG]. unfold mblock.
  replace ((0 + giNr e <=? mrows (giA e))%nat && (0 + mcols A <=? mcols (giA e))%nat) with true
    by (symmetry; rewrite andb_true_iff, !Nat.leb_le; simpl; lia). cbn [bind].
  unfold vhead, vseg at 1 2. 
  replace (0 + giNr e <=? vlen (giL e))%nat with true by (symmetry; apply Nat.leb_le; simpl; lia). cbn [bind].
  replace (0 + giNr e <=? vlen (giU e))%nat with true by (symmetry; apply Nat.leb_le; simpl; lia). cbn [bind].
  unfold mset_block; cbn [mrows mcols].
  replace ((n + giNr e <=? mrows A)%nat && (0 + mcols A <=? mcols A)%nat) with true
    by (symmetry; rewrite andb_true_iff, !Nat.leb_le; simpl; lia). cbn [bind].
  unfold vset_seg; cbn [vlen].
  replace (n + giNr e <=? vlen AL)%nat with true by (symmetry; apply Nat.leb_le; lia). cbn [bind].
  replace (n + giNr e <=? vlen AU)%nat with true by (symmetry; apply Nat.leb_le; lia). cbn [bind].
  apply IH; auto; simpl; lia.
Qed.

(* ------------------------------------------------------------------ *)
(** * Standard form *)

(** Generic version over (number of rows, matrix, right hand side). *)
Fixpoint fillRows {T} (l : list (nat * mat * vec T)) (nv n : nat) (A : mat) (b : vec T) : res (nat * mat * vec T) :=
  match l with
  | [] => Ok (n, A, b)
  | (nr, Ae, be) :: l' =>
    do Ai <- mblock Ae 0 0 nr nv;
    do bi <- vhead be nr;
    do A1 <- mset_block A n 0 Ai;
    do b1 <- vset_seg b n bi;
    fillRows l' nv (n + nr) A1 b1
  end.
Definition nrOf {T} (e : nat * mat * vec T) : nat := fst (fst e).

Lemma fillEqS_rows eqs nv n A b :
  fillEqS eqs nv n A b = fillRows (map (fun e => (eqNr e, eqA e, eqB e)) eqs) nv n A b.
Proof. revert n A b; induction eqs as [|e eqs IH]; intros; [reflexivity|]. cbn [fillEqS fillRows map].
  destruct (mblock _ _ _ _ _); cbn [bind]; try reflexivity.
  destruct (vhead _ _); cbn [bind]; try reflexivity.
  destruct (mset_block _ _ _ _); cbn [bind]; try reflexivity.
  destruct (vset_seg _ _ _); cbn [bind]; try reflexivity. apply IH. Qed.
Lemma fillInEqS_rows iqs nv n A b :
  fillInEqS iqs nv n A b = fillRows (map (fun e => (iqNr e, iqA e, iqB e)) iqs) nv n A b.
Proof. revert n A b; induction iqs as [|e iqs IH]; intros; [reflexivity|]. cbn [fillInEqS fillRows map].
  destruct (mblock _ _ _ _ _); cbn [bind]; try reflexivity.
  destruct (vhead _ _); cbn [bind]; try reflexivity.
  destruct (mset_block _ _ _ _); cbn [bind]; try reflexivity.
  destruct (vset_seg _ _ _); cbn [bind]; try reflexivity. apply IH. Qed.

Definition genRows (e : geninequality) : list (nat * mat * vec ext) :=
  [(giNr e, mopp (giA e), vmap eopp (giL e)); (giNr e, giA e, giU e)].

Lemma fillGenInEqS_rows gis nv n A b r :
  fillGenInEqS gis nv n A b = Ok r -> fillRows (flat_map genRows gis) nv n A b = Ok r.
Proof.
  revert n A b; induction gis as [|e gis IH]; intros n A b H; [exact H|].
  cbn [fillGenInEqS] in H. binds H.
  cbn [flat_map genRows app fillRows].
  assert (E' : mblock (mopp (giA e)) 0 0 (giNr e) nv = Ok (mopp a)).
  { clear -E. unfold mblock in *. simpl. destruct (_ && _); [|discriminate]. inversion E; subst. reflexivity. }
  assert (E0' : vhead (vmap eopp (giL e)) (giNr e) = Ok (vmap eopp a0)).
  { clear -E0. unfold vhead, vseg in *. simpl in *. destruct (Nat.leb _ _); [|discriminate]. inversion E0; subst. reflexivity. }
  rewrite E'. cbn [bind]. rewrite E0'. cbn [bind]. rewrite E2. cbn [bind]. rewrite E3. cbn [bind].
  rewrite E. cbn [bind]. rewrite E1. cbn [bind]. rewrite E4. cbn [bind]. rewrite E5. cbn [bind].
  apply IH. exact H.
Qed.

Lemma fillRows_spec {T} (l : list (nat * mat * vec T)) nv n A b n' A' b' :
  fillRows l nv n A b = Ok (n', A', b') -> mcols A = nv ->
  n' = (n + sumnat (map nrOf l))%nat /\
  mrows A' = mrows A /\ mcols A' = nv /\ vlen b' = vlen b /\
  ((n <= mrows A)%nat -> (n' <= mrows A)%nat) /\ ((n <= vlen b)%nat -> (n' <= vlen b)%nat) /\
  (forall i, (i < n)%nat -> (forall j, mget A' i j = mget A i j) /\ vget b' i = vget b i) /\
  (forall k nr Ae be i, nth_error l k = Some (nr, Ae, be) -> (i < nr)%nat ->
     let p := (n + sumnat (map nrOf (firstn k l)) + i)%nat in
     (forall j, (j < nv)%nat -> mget A' p j = mget Ae i j) /\ vget b' p = vget be i).
Proof.
  revert n A b; induction l as [|[[nr Ae] be] l IH]; intros n A b H Hc.
  - simpl in H. inversion H; subst; clear H. simpl.
    split; [lia|]. do 6 (split; [try (auto; fail); try lia|]).
    intros k ? ? ? i Hk. destruct k; discriminate.
  - cbn [fillRows] in H. binds H.
    rename a into Ai, a0 into bi, a1 into A1, a2 into b1.
    apply mblock_Ok in E as (B1 & B2 & B3 & B4 & B5).
    apply vseg_Ok in E0 as (L2 & L3 & L4).
    apply mset_block_row in E1 as (M1 & M2 & M3 & M4 & M5 & M6); [|congruence].
    apply vset_seg_row in E2 as (S1 & S2 & S3 & S4 & S5).
    apply IH in H; [|congruence].
    destruct H as (I1 & I2 & I3 & I4 & I6 & I6l & I7 & I8).
    rewrite B3 in M3. rewrite L3 in S2. unfold nrOf in *. cbn [map sumnat fst snd] in *.
    split; [lia|]. split; [congruence|]. split; [congruence|]. split; [congruence|].
    split; [intros; rewrite <- M1; apply I6; rewrite M1; lia|].
    split; [intros; rewrite <- S1; apply I6l; rewrite S1; lia|]. split.
    + intros i Hi. destruct (I7 i) as (J1 & J2); [lia|].
      split; [intros j; rewrite J1; apply M4; auto|]. rewrite J2; auto.
    + intros k nr' Ae' be' i Hk Hi. destruct k as [|k]; simpl in Hk.
      * inversion Hk; subst. simpl. replace (n + 0 + i)%nat with (n + i)%nat by lia.
        destruct (I7 (n + i)%nat) as (J1 & J2); [lia|].
        split; [intros j Hj; rewrite J1, M5; [rewrite B5; reflexivity|lia|lia]|].
        rewrite J2, S4 by lia; rewrite L4; reflexivity.
      * specialize (I8 _ _ _ _ _ Hk Hi). simpl in *.
        replace (n + (nr + sumnat (map (fun e => fst (fst e)) (firstn k l))) + i)%nat
          with (n + nr + sumnat (map (fun e => fst (fst e)) (firstn k l)) + i)%nat by lia. auto.
Qed.

Lemma fillRows_app {T} (l1 l2 : list (nat * mat * vec T)) nv n A b :
  fillRows (l1 ++ l2) nv n A b = do (n1, A1, b1) <- fillRows l1 nv n A b; fillRows l2 nv n1 A1 b1.
Proof.
  revert n A b; induction l1 as [|[[nr Ae] be] l1 IH]; intros; [reflexivity|].
  cbn [fillRows app].
  destruct (mblock _ _ _ _ _); cbn [bind]; try reflexivity.
  destruct (vhead _ _); cbn [bind]; try reflexivity.
  destruct (mset_block _ _ _ _); cbn [bind]; try reflexivity.
  destruct (vset_seg _ _ _); cbn [bind]; try reflexivity. apply IH.
Qed.

Lemma rows_iffS {T} (P : nat -> Prop) (l : list (nat * mat * vec T)) n (Q : nat * mat * vec T -> nat -> Prop) :
  (forall k e i, nth_error l k = Some e -> (i < nrOf e)%nat ->
     (P (n + sumnat (map nrOf (firstn k l)) + i)%nat <-> Q e i)) ->
  ((forall p, (n <= p < n + sumnat (map nrOf l))%nat -> P p) <->
   Forall (fun e => forall i, (i < nrOf e)%nat -> Q e i) l).
Proof.
  intros H. split.
  - intros HP. apply Forall_forall. intros e He i Hi.
    apply In_nth_error in He as [k Hk]. apply (H _ _ _ Hk Hi). apply HP.
    assert (Hk' : nth_error (map nrOf l) k = Some (nrOf e)) by (apply nth_error_map_some; auto).
    pose proof (sumnat_firstn_lt _ _ _ _ Hk' Hi). rewrite firstn_map in *. lia.
  - intros HF p Hp. destruct (split_index (map nrOf l) (p - n)) as (k & m & i & H1 & H2 & H3); [lia|].
    rewrite nth_error_map in H1. destruct (nth_error l k) as [e|] eqn:Ek; [|discriminate].
    simpl in H1. inversion H1; subst m. rewrite firstn_map in H3.
    replace p with (n + sumnat (map nrOf (firstn k l)) + i)%nat by lia.
    apply (H _ _ _ Ek H2). rewrite Forall_forall in HF. eapply HF; eauto. eapply nth_error_In; eauto.
Qed.

Lemma fillRows_feasible {T} (R0 : R -> T -> Prop) (l : list (nat * mat * vec T)) nv A b n' A' b' x :
  fillRows l nv 0 A b = Ok (n', A', b') -> mcols A = nv ->
  ((forall i, (i < n')%nat -> R0 (rowdot A' i x) (vget b' i)) <->
   Forall (fun e => forall i, (i < nrOf e)%nat ->
             R0 (sumn nv (fun j => mget (snd (fst e)) i j * x j)) (vget (snd e) i)) l).
Proof.
  intros H Hc. destruct (fillRows_spec _ _ _ _ _ _ _ _ H Hc) as (I1 & I2 & I3 & _ & _ & _ & _ & I8).
  rewrite <- (rows_iffS (fun p => R0 (rowdot A' p x) (vget b' p)) l 0
        (fun e i => R0 (sumn nv (fun j => mget (snd (fst e)) i j * x j)) (vget (snd e) i))).
  - rewrite I1. split; intros HH i Hi; apply HH; lia.
  - intros k [[nr Ae] be] i Hk Hi. destruct (I8 _ _ _ _ _ Hk Hi) as (J1 & J2).
    unfold rowdot. cbn [fst snd]. rewrite J2, I3. rewrite (sumn_cols nv _ (mget Ae i)) by auto. tauto.
Qed.

Lemma genRows_holds n x e :
  (forall q, In q (genRows e) -> forall i, (i < nrOf q)%nat ->
     ele (Fin (sumn n (fun j => mget (snd (fst q)) i j * x j))) (vget (snd q) i)) <-> holdsGen n x e.
Proof.
  unfold genRows, holdsGen, between. split.
  - intros H i Hi. split.
    + pose proof (H _ (or_introl eq_refl) i Hi) as H1. cbn in H1.
      rewrite (sumn_ext _ _ (fun j => - (mget (giA e) i j * x j))), sumn_opp in H1 by (intros; lra).
      destruct (vget (giL e) i); simpl in *; try tauto. lra.
    + exact (H _ (or_intror (or_introl eq_refl)) i Hi).
  - intros H q [<-|[<-|[]]] i Hi; cbn in *; destruct (H i Hi) as [H1 H2].
    + rewrite (sumn_ext _ _ (fun j => - (mget (giA e) i j * x j))), sumn_opp by (intros; lra).
      destruct (vget (giL e) i); simpl in *; try tauto. lra.
    + exact H2.
Qed.

Lemma fillRows_def {T} (l : list (nat * mat * vec T)) nv n A b :
  Forall (fun e => (nrOf e <= mrows (snd (fst e)))%nat /\ (nv <= mcols (snd (fst e)))%nat /\ (nrOf e <= vlen (snd e))%nat) l ->
  mcols A = nv -> (n + sumnat (map nrOf l) <= mrows A)%nat -> (n + sumnat (map nrOf l) <= vlen b)%nat ->
  exists r, fillRows l nv n A b = Ok r.
Proof.
  revert n A b; induction l as [|[[nr Ae] be] l IH]; intros n A b W Hc H1 H2; [simpl; eauto|].
  inversion W as [|? ? (W1 & W2 & W3) W']; subst. unfold nrOf in *. cbn [map sumnat fst snd] in *.
  cbn [fillRows]. unfold mblock.
  replace ((0 + nr <=? mrows Ae)%nat && (0 + mcols A <=? mcols Ae)%nat) with true
    by (symmetry; rewrite andb_true_iff, !Nat.leb_le; simpl; lia). cbn [bind].
  unfold vhead, vseg.
  replace (0 + nr <=? vlen be)%nat with true by (symmetry; apply Nat.leb_le; simpl; lia). cbn [bind].
  unfold mset_block; cbn [mrows mcols].
  replace ((n + nr <=? mrows A)%nat && (0 + mcols A <=? mcols A)%nat) with true
    by (symmetry; rewrite andb_true_iff, !Nat.leb_le; simpl; lia). cbn [bind].
  unfold vset_seg; cbn [vlen].
  replace (n + nr <=? vlen b)%nat with true by (symmetry; apply Nat.leb_le; lia). cbn [bind].
  apply IH; auto; simpl; lia.
Qed.

Lemma fillGenInEqS_def gis nv n A b :
  Forall (wfGen nv) gis -> mcols A = nv ->
  (n + 2 * sumnat (map giNr gis) <= mrows A)%nat -> (n + 2 * sumnat (map giNr gis) <= vlen b)%nat ->
  exists r, fillGenInEqS gis nv n A b = Ok r.
Proof.
  revert n A b; induction gis as [|e gis IH]; intros n A b W Hc H1 H2; [simpl; eauto|].
  inversion W as [|? ? (W1 & W2 & W3 & W4) W']; subst. cbn [map sumnat] in *.
  cbn [fillGenInEqS]. unfold mblock.
  replace ((0 + giNr e <=? mrows (giA e))%nat && (0 + mcols A <=? mcols (giA e))%nat) with true
    by (symmetry; rewrite andb_true_iff, !Nat.leb_le; simpl; lia). cbn [bind].
  unfold vhead, vseg at 1 2.
  replace (0 + giNr e <=? vlen (giL e))%nat with true by (symmetry; apply Nat.leb_le; simpl; lia). cbn [bind].
  replace (0 + giNr e <=? vlen (giU e))%nat with true by (symmetry; apply Nat.leb_le; simpl; lia). cbn [bind].
  unfold mset_block at 1; cbn [mrows mcols mopp].
  replace ((n + giNr e <=? mrows A)%nat && (0 + mcols A <=? mcols A)%nat) with true
    by (symmetry; rewrite andb_true_iff, !Nat.leb_le; simpl; lia). cbn [bind].
  unfold vset_seg at 1; cbn [vlen vmap].
  replace (n + giNr e <=? vlen b)%nat with true by (symmetry; apply Nat.leb_le; lia). cbn [bind].
  unfold mset_block at 1; cbn [mrows mcols mopp].
  replace ((n + giNr e + giNr e <=? mrows A)%nat && (0 + mcols A <=? mcols A)%nat) with true
    by (symmetry; rewrite andb_true_iff, !Nat.leb_le; simpl; lia). cbn [bind].
  unfold vset_seg at 1; cbn [vlen vmap].
  replace (n + giNr e + giNr e <=? vlen b)%nat with true by (symmetry; apply Nat.leb_le; lia). cbn [bind].
  apply IH; auto; simpl; lia.
Qed.

(* ------------------------------------------------------------------ *)
(** * Bounds *)

(** The last registered bound covering variable i decides; without one the variable is free. *)
Lemma fillBound_spec bs XL XU XL' XU' :
  fillBound bs XL XU = Ok (XL', XU') -> Forall wfBound bs ->
  vlen XL' = vlen XL /\ vlen XU' = vlen XU /\
  (forall i, (forall b, In b bs -> ~ covers b i) -> vget XL' i = vget XL i /\ vget XU' i = vget XU i) /\
  (forall k b i, nth_error bs k = Some b -> covers b i ->
     (forall k' b', (k < k')%nat -> nth_error bs k' = Some b' -> ~ covers b' i) ->
     vget XL' i = vget (bdL b) (i - bdBegin b) /\ vget XU' i = vget (bdU b) (i - bdBegin b)) /\
  (forall b i, In b bs -> covers b i -> (i < vlen XL)%nat).
Proof.
  revert XL XU; induction bs as [|b bs IH]; intros XL XU H W.
  - simpl in H. inversion H; subst. repeat split; auto; try (destruct k; discriminate).
    intros b i [].
  - cbn [fillBound] in H. binds H. rename a into L1, a0 into U1.
    inversion W as [|? ? W1 W2]; subst. unfold wfBound in W1.
    apply vset_seg_Ok in E as (S1 & S2 & S3). apply vset_seg_Ok in E0 as (T1 & T2 & T3).
    destruct (IH _ _ H W2) as (I1 & I2 & I3 & I4 & I5).
    split; [congruence|]. split; [congruence|]. split; [|split].
    + intros i Hi. destruct (I3 i) as [J1 J2]; [intros; apply Hi; right; auto|].
      assert (Hn : ~ covers b i) by (apply Hi; left; auto). unfold covers in Hn.
      rewrite J1, J2, S3, T3, <- W1.
      replace (inr (bdBegin b) (vlen (bdL b)) i) with false by (symmetry; apply inr_false; lia). auto.
    + intros k b' i Hk Hcov Hlast. destruct k as [|k]; simpl in Hk.
      * inversion Hk; subst b'. destruct (I3 i) as [J1 J2].
        { intros b' Hb'. apply In_nth_error in Hb' as [k' Hk']. eapply (Hlast (S k')); [lia|exact Hk']. }
        rewrite J1, J2, S3, T3, <- W1. unfold covers in Hcov.
        replace (inr (bdBegin b) (vlen (bdL b)) i) with true by (symmetry; apply inr_true; lia). auto.
      * apply (I4 k b' i Hk Hcov). intros k' b'' Hlt Hk'. apply (Hlast (S k') b''); [lia|exact Hk'].
    + intros b' i [->|Hin] Hcov; [unfold covers in Hcov; lia|].
      specialize (I5 b' i Hin Hcov). lia.
Qed.

Lemma fillBound_def bs XL XU :
  Forall (wfBoundIn (vlen XL)) bs -> vlen XU = vlen XL -> exists r, fillBound bs XL XU = Ok r.
Proof.
  revert XL XU; induction bs as [|b bs IH]; intros XL XU W Hu; [simpl; eauto|].
  inversion W as [|? ? (W1 & W2) W']; subst. cbn [fillBound]. unfold vset_seg.
  replace (bdBegin b + vlen (bdL b) <=? vlen XL)%nat with true by (symmetry; apply Nat.leb_le; lia). cbn [bind].
  replace (bdBegin b + vlen (bdU b) <=? vlen XU)%nat with true by (symmetry; apply Nat.leb_le; lia). cbn [bind].
  apply IH; simpl; auto.
Qed.

Lemma fillBound_len bs XL XU XL' XU' :
  fillBound bs XL XU = Ok (XL', XU') -> vlen XL' = vlen XL /\ vlen XU' = vlen XU.
Proof.
  revert XL XU; induction bs as [|b bs IH]; intros XL XU H; [simpl in H; inversion H; auto|].
  cbn [fillBound] in H. binds H.
  apply vset_seg_Ok in E as (S1 & S2 & _). apply vset_seg_Ok in E0 as (T1 & T2 & _).
  destruct (IH _ _ H). split; congruence.
Qed.

(** Is variable i covered by some bound of the list? Last one. *)
Lemma last_cover (bs : list bound) i :
  (forall b, In b bs -> ~ covers b i) \/
  exists k b, nth_error bs k = Some b /\ covers b i /\
    forall k' b', (k < k')%nat -> nth_error bs k' = Some b' -> ~ covers b' i.
Proof.
  induction bs as [|b bs IH]; [left; intros b []|].
  destruct IH as [IH|(k & b' & H1 & H2 & H3)].
  - assert (D : {covers b i} + {~ covers b i}).
    { unfold covers. destruct (inr (bdBegin b) (vlen (bdL b)) i) eqn:E; [left; apply inr_true; auto|right; apply inr_false; auto]. }
    destruct D as [D|D].
    + right. exists 0%nat, b. split; [auto|]. split; [auto|].
      intros k' b' Hlt Hk'. destruct k' as [|k']; [lia|]. apply IH. eapply nth_error_In; exact Hk'.
    + left. intros b' [<-|Hin]; auto.
  - right. exists (S k), b'. split; [auto|]. split; [auto|].
    intros k' b'' Hlt Hk'. destruct k' as [|k']; [lia|]. apply (H3 k' b''); [lia|exact Hk'].
Qed.

Lemma fillBound_disjoint bs n XL' XU' x :
  fillBound bs (vfill n NInf) (vfill n PInf) = Ok (XL', XU') -> Forall wfBound bs -> disjointBounds bs ->
  ((forall i, (i < n)%nat -> between (vget XL' i) (x i) (vget XU' i)) <-> Forall (holdsBound x) bs).
Proof.
  intros H W D. destruct (fillBound_spec _ _ _ _ _ H W) as (I1 & I2 & I3 & I4 & I5).
  assert (Hdec : forall k b i, nth_error bs k = Some b -> covers b i ->
    vget XL' i = vget (bdL b) (i - bdBegin b) /\ vget XU' i = vget (bdU b) (i - bdBegin b)).
  { intros k b i Hk Hc. apply (I4 k b i Hk Hc). intros k' b' Hlt Hk' Hc'.
    specialize (D _ _ _ _ _ Hk Hk' Hc Hc'). lia. }
  split.
  - intros HB. apply Forall_forall. intros b Hb i. apply In_nth_error in Hb as [k Hk].
    rewrite Forall_forall in W. pose proof (W b (nth_error_In _ _ Hk)) as Wb. unfold wfBound in Wb.
    split; intros Hi.
    + assert (Hc : covers b (bdBegin b + i)) by (unfold covers; lia).
      destruct (Hdec _ _ _ Hk Hc) as [J1 J2].
      replace (bdBegin b + i - bdBegin b)%nat with i in * by lia. rewrite <- J1.
      apply HB. apply (I5 _ _ (nth_error_In _ _ Hk) Hc).
    + assert (Hc : covers b (bdBegin b + i)) by (unfold covers; lia).
      destruct (Hdec _ _ _ Hk Hc) as [J1 J2].
      replace (bdBegin b + i - bdBegin b)%nat with i in * by lia. rewrite <- J2.
      apply HB. apply (I5 _ _ (nth_error_In _ _ Hk) Hc).
  - intros HF i Hi. destruct (last_cover bs i) as [Hno|(k & b & Hk & Hc & Hl)].
    + destruct (I3 i Hno) as [-> ->]. simpl. split; simpl; auto.
    + destruct (I4 _ _ _ Hk Hc Hl) as [-> ->].
      rewrite Forall_forall in HF. specialize (HF b (nth_error_In _ _ Hk) (i - bdBegin b)%nat).
      rewrite Forall_forall in W. pose proof (W b (nth_error_In _ _ Hk)) as Wb. unfold wfBound in Wb.
      unfold covers in Hc. replace (bdBegin b + (i - bdBegin b))%nat with i in HF by lia.
      split; apply HF; lia.
Qed.
