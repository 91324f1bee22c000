(** Lemmas about ImageConstr. *)
From Verif Require Import MotionProofs PlaneProofs LayoutProofs ContactProofs ContactRowsProofs JacProofs.
From Verif Require Import SpeedFacts.
From Verif Require Export ImageSpec.
Open Scope list_scope.
Open Scope R_scope.
Local Arguments sumn : simpl never.

Definition sg (s : bool) : R := if s then 1 else - 1.
(** The side chosen by the code, and the fraction in the damping. *)
Definition ckSide (lim : imLim) (dir : R) (p : V2) (i : nat) : list bool :=
  if Reqb dir 1 || (Rltb (ax (lIMin lim) (1 - i)) (ax p (1 - i)) && Rltb (ax p (1 - i)) (ax (lIMax lim) (1 - i))) then
    if Rltb (dir * ax p i) (dir * ax (lIMin lim) i) && (Reqb dir 1 || Rltb (ax p i) 0) then
      if Rltb (dir * ax (lSMin lim) i) (dir * ax p i) then [false] else []
    else if Rltb (dir * ax (lIMax lim) i) (dir * ax p i) && (Reqb dir 1 || Rltb 0 (ax p i)) then
      if Rltb (dir * ax p i) (dir * ax (lSMax lim) i) then [true] else []
    else []
  else [].
Definition frac (lim : imLim) (s : bool) (p : V2) (i : nat) : R :=
  if s then (ax p i - ax (lSMax lim) i) / (ax (lIMax lim) i - ax (lSMax lim) i) else (ax p i - ax (lSMin lim) i) / (ax (lIMin lim) i - ax (lSMin lim) i).
Definition bound (lim : imLim) (dir : R) (s : bool) (p bc : V2) (i : nat) : R := dir * (lDamp lim * frac lim s p i - lOff lim) + sg s * dir * ax bc i.

Lemma imCheck_Ok lim dir p bc i nr inv B act inv' B' : (i < 2)%nat -> imCheck lim dir p bc i nr inv B = Ok (act, inv', B') ->
  vlen B' = vlen B /\ (forall j, j <> nr -> vget B' j = vget B j) /\
  ((act = false /\ ckSide lim dir p i = []) \/ exists s, act = true /\ ckSide lim dir p i = [s] /\ inv' = sg s * dir /\ (nr < vlen B)%nat /\ vget B' nr = bound lim dir s p bc i).
Proof.
  intros Hi. unfold imCheck, ckSide, bound, frac. replace (if Nat.eqb i 0 then 1%nat else 0%nat) with (1 - i)%nat by (destruct i as [|[|i]]; [reflexivity|reflexivity|lia]).
  assert (PUT : forall a w (k : bool * R) , (do Bn <- vput B nr a; Ok (fst k, snd k, Bn)) = Ok (act, inv', w) -> act = fst k /\ inv' = snd k /\ (nr < vlen B)%nat /\ vlen w = vlen B /\ forall j, vget w j = if Nat.eqb j nr then a else vget B j).
  { intros a w k H. apply bind_Ok in H as (Bn & HP & H). injection H as <- <- <-. apply vput_at in HP as (P1 & P2 & P3). auto. }
  destruct (_ || _).
  2:{ intros H. injection H as <- <- <-. split; [reflexivity|]. split; [reflexivity|]. left; auto. }
  destruct (Rltb (dir * ax p i) (dir * ax (lIMin lim) i) && _).
  - destruct (Rltb _ _); intros H.
    + apply (PUT _ _ (true, - 1 * dir)) in H as (-> & -> & P1 & P2 & P3). cbn [fst snd] in *. split; [exact P2|]. split; [intros j N; rewrite P3; apply Nat.eqb_neq in N; rewrite N; reflexivity|].
      right. exists false. repeat (split; [solve [auto]|]). rewrite P3, Nat.eqb_refl. cbn [sg]. reflexivity.
    + apply (PUT _ _ (false, inv)) in H as (-> & -> & P1 & P2 & P3). cbn [fst snd] in *. split; [exact P2|]. split; [intros j N; rewrite P3; apply Nat.eqb_neq in N; rewrite N; reflexivity|]. left; auto.
  - destruct (_ && _).
    + destruct (Rltb _ _); intros H.
      * apply (PUT _ _ (true, 1 * dir)) in H as (-> & -> & P1 & P2 & P3). cbn [fst snd] in *. split; [exact P2|]. split; [intros j N; rewrite P3; apply Nat.eqb_neq in N; rewrite N; reflexivity|].
        right. exists true. repeat (split; [solve [auto]|]). rewrite P3, Nat.eqb_refl. cbn [sg]. reflexivity.
      * apply (PUT _ _ (false, inv)) in H as (-> & -> & P1 & P2 & P3). cbn [fst snd] in *. split; [exact P2|]. split; [intros j N; rewrite P3; apply Nat.eqb_neq in N; rewrite N; reflexivity|]. left; auto.
    + intros H. injection H as <- <- <-. split; [reflexivity|]. split; [reflexivity|]. left; auto.
Qed.
Lemma imCheck_def lim dir p bc i nr inv B : (nr < vlen B)%nat -> exists r, imCheck lim dir p bc i nr inv B = Ok r.
Proof.
  intros H. unfold imCheck. repeat match goal with
  | |- context [vput B nr ?a] => let v := fresh in let E := fresh in destruct (vput_def' B nr a H) as (v & E); rewrite E; cbn [bind]
  end.
  destruct (_ || _); [|eauto]. destruct (_ && _); [destruct (Rltb _ _); eauto|]. destruct (_ && _); [destruct (Rltb _ _); eauto|eauto].
Qed.
Lemma ckSide_one lim dir p i : ckSide lim dir p i = [] \/ exists s, ckSide lim dir p i = [s].
Proof. unfold ckSide. repeat match goal with |- context [if ?c then _ else _] => destruct c end; eauto. Qed.

Section Turn.
Variables (F : imgFun) (K : camKin) (lim : imLim) (dir step : R) (mb : multibody) (path : list nat) (n b : nat).
Hypothesis WP : wfPath mb path.
Hypothesis LE : (b + nrDof mb <= n)%nat.
(** What the image moves because of the accelerations, and the rest. *)
Definition pull (p : imPoint) (x : nat -> R) (i : nat) : R :=
  5 / 10 * step * step * sumn 6 (fun q => imgJac F (ipAt p) (ipDepth p) i q * jacDot mb path (cmJac K q) (fun j => x (b + j)%nat)).
Definition drift (p : imPoint) : V2 := v2lin (v2lin (0, 0) (- step) (imSpeed F K (ipAt p) (ipDepth p))) (- (5 / 10 * step * step)) (imNAcc F K (ipAt p) (ipDepth p)).
Lemma components_Ok p full bc : components F K mb path step (ipAt p) (ipDepth p) = Ok (full, bc) ->
  mrows full = 2%nat /\ mcols full = nrDof mb /\ bc = drift p /\ forall i x, (i < 2)%nat -> sumn (nrDof mb) (fun j => mget full i j * x (b + j)%nat) = pull p x i.
Proof.
  unfold components. intros H. apply bind_Ok in H as (f & HF & H). injection H as <- <-.
  match type of HF with fullJacobian _ _ ?s ?z = _ => destruct (fullJacobian_spec mb path s z WP) as (f' & F1 & F2 & F3 & _ & F5); [cbn; lia..|] end.
  rewrite HF in F1. injection F1 as <-. cbn in F2, F3. split; [exact F2|]. split; [exact F3|]. split; [reflexivity|]. intros i x Hi.
  rewrite (F5 i (fun j => x (b + j)%nat) Hi). unfold jacDot, pull. cbn [mget]. unfold jacDot.
  erewrite sumn_ext; [|intros c Hc; rewrite <- sumn_scal_r; reflexivity]. rewrite sumn_swap. rewrite <- sumn_scal. apply sumn_ext. intros q _. rewrite <- Rmult_assoc, <- sumn_scal. apply sumn_ext. intros c _. ring.
Qed.
Lemma components_def p : exists r, components F K mb path step (ipAt p) (ipDepth p) = Ok r.
Proof.
  unfold components. match goal with |- context [fullJacobian _ _ ?s ?z] => destruct (fullJacobian_spec mb path s z WP) as (f' & F1 & _); [cbn; lia..|] end.
  rewrite F1. cbn [bind]. eauto.
Qed.

Definition cell := (imPoint * nat * bool)%type.
Definition zA (A : mat) : Prop := mcols A = n /\ forall i j, ~ (b <= j < b + nrDof mb)%nat -> mget A i j = 0.
Definition rowOk (A : mat) (B : vec R) (c : cell) (k : nat) : Prop :=
  let '(p, i, s) := c in
  (forall x, sumn n (fun j => mget A k j * x j) = sg s * dir * pull p x i) /\ vget B k = bound lim dir s (ipAt p) (drift p) i.
Definition keepRow (A A' : mat) (B B' : vec R) (k : nat) : Prop := (forall j, mget A' k j = mget A k j) /\ vget B' k = vget B k.
Definition axCells (p : imPoint) (axes : list nat) : list cell := flat_map (fun i => map (fun s => (p, i, s)) (ckSide lim dir (ipAt p) i)) axes.
Lemma rowOk_keep A A' B B' c k : keepRow A A' B B' k -> rowOk A B c k -> rowOk A' B' c k.
Proof. destruct c as ((p & i) & s). intros (K1 & K2) (R1 & R2). split; [|congruence]. intros x. rewrite <- R1. apply sumn_ext. intros j _. rewrite K1. reflexivity. Qed.
Definition outcome (cs : list cell) (nr : nat) (A : mat) (B : vec R) (nr' : nat) (A' : mat) (B' : vec R) : Prop :=
  nr' = (nr + length cs)%nat /\ zA A' /\ mrows A' = mrows A /\ vlen B' = vlen B /\ (forall k c, nth_error cs k = Some c -> rowOk A' B' c (nr + k)) /\
  (forall k, (k < nr)%nat -> keepRow A A' B B' k).
Lemma outcome_app c1 c2 nr A B nr1 A1 B1 nr2 A2 B2 : outcome c1 nr A B nr1 A1 B1 -> outcome c2 nr1 A1 B1 nr2 A2 B2 -> outcome (c1 ++ c2) nr A B nr2 A2 B2.
Proof.
  intros (N1 & Z1 & M1 & V1 & R1 & K1) (N2 & Z2 & M2 & V2 & R2 & K2). split; [rewrite app_length; lia|]. split; [exact Z2|]. split; [congruence|]. split; [congruence|]. split.
  - intros k c Hk. destruct (Nat.lt_ge_cases k (length c1)) as [L|G].
    + rewrite nth_error_app1 in Hk by exact L. eapply rowOk_keep; [|apply R1; exact Hk]. apply K2. lia.
    + rewrite nth_error_app2 in Hk by exact G. replace (nr + k)%nat with (nr1 + (k - length c1))%nat by lia. auto.
  - intros k Hk. destruct (K1 k Hk) as (Q1 & Q2). destruct (K2 k) as (Q3 & Q4); [lia|]. split; [intros j; rewrite Q3; apply Q1|congruence].
Qed.
Lemma outcome_nil nr A B : zA A -> outcome [] nr A B nr A B.
Proof. intros Z. split; [cbn; lia|]. repeat (split; [solve [auto]|]). split; [intros [|k]; discriminate|]. intros; split; reflexivity. Qed.

Lemma imAxes_Ok p full : mrows full = 2%nat -> mcols full = nrDof mb -> (forall i x, (i < 2)%nat -> sumn (nrDof mb) (fun j => mget full i j * x (b + j)%nat) = pull p x i) ->
  forall axes nr inv A B nr' inv' A' B', Forall (fun i => (i < 2)%nat) axes -> zA A ->
  imAxes lim dir mb (Some b) (ipAt p) full (drift p) axes nr inv A B = Ok (nr', inv', A', B') -> outcome (axCells p axes) nr A B nr' A' B'.
Proof.
  intros F1 F2 F3. induction axes as [|i axes IH]; intros nr inv A B nr' inv' A' B' FA Z H; cbn [imAxes] in H.
  - injection H as <- <- <- <-. apply outcome_nil. exact Z.
  - inversion FA as [|i0 l0 Hi FA']; subst. apply bind_Ok in H as (((act & inv1) & B1) & HC & H). apply imCheck_Ok in HC as (C1 & C2 & C3); [|exact Hi].
    unfold axCells. cbn [flat_map]. destruct C3 as [(-> & ->)|(s & -> & -> & -> & C4 & C5)].
    + cbn [map app]. apply IH in H; auto. change (flat_map _ axes) with (axCells p axes). eapply (outcome_app [] (axCells p axes)); [|exact H].
      split; [cbn; lia|]. repeat (split; [solve [auto]|]). split; [intros [|k]; discriminate|]. intros k Hk. split; [reflexivity|]. apply C2. lia.
    + cbn [bind] in H. apply bind_Ok in H as (A1 & HA & H). apply mset_block_Ok in HA as (A2 & A3 & A4 & A5 & A6). cbn [mrows mcols mget] in *.
      assert (Z1 : zA A1). { destruct Z as (Z1 & Z2). split; [congruence|]. intros k j Hj. rewrite A6. replace (inr b (nrDof mb) j) with false by (symmetry; apply inr_false; exact Hj). rewrite andb_false_r. auto. }
      apply IH in H; auto. eapply outcome_app; [|exact H]. split; [cbn; lia|]. repeat (split; [solve [auto]|]). split.
      * intros [|k] c Hc; [|destruct k; discriminate]. injection Hc as <-. rewrite Nat.add_0_r. split; [|exact C5]. intros x.
        rewrite (sumn_window n b (nrDof mb)); [|exact LE|].
        -- erewrite sumn_ext; [|intros j Hj; rewrite A6; replace (inr nr 1 nr) with true by (symmetry; apply inr_true; lia); replace (inr b (nrDof mb) (b + j)) with true by (symmetry; apply inr_true; lia);
             cbn [andb]; replace (b + j - b)%nat with j by lia; rewrite Rmult_assoc; reflexivity].
           rewrite sumn_scal, F3 by exact Hi. reflexivity.
        -- intros j _ Hj. rewrite (proj2 Z1) by lia. ring.
      * intros k Hk. split; [|apply C2; lia]. intros j. rewrite A6. replace (inr nr 1 k) with false by (symmetry; apply inr_false; lia). reflexivity.
Qed.
Lemma imAxes_def p full bc : forall axes nr inv A B, mcols A = n -> (nr + length axes <= mrows A)%nat -> vlen B = mrows A -> Forall (fun i => (i < 2)%nat) axes ->
  exists nr' inv' A' B', imAxes lim dir mb (Some b) p full bc axes nr inv A B = Ok (nr', inv', A', B') /\ (nr' <= nr + length axes)%nat /\ mcols A' = n /\ mrows A' = mrows A /\ vlen B' = vlen B.
Proof.
  induction axes as [|i axes IH]; intros nr inv A B HC HR HB FA; cbn [imAxes]; [do 4 eexists; split; [reflexivity|]; cbn; split; [lia|auto]|]. cbn [length] in HR. apply Forall_cons_iff in FA as (Hi & FA').
  destruct (imCheck_def lim dir p bc i nr inv B) as (((act & inv1) & B1) & E); [lia|]. rewrite E. cbn [bind]. apply imCheck_Ok in E as (C1 & _); [|assumption]. destruct act.
  - match goal with |- context [mset_block A nr b ?M] => destruct (mset_block_def A nr b M) as (A1 & E1); [cbn; lia|cbn; lia|] end. rewrite E1. cbn [bind]. apply mset_block_Ok in E1 as (_ & _ & A4 & A5 & _).
    destruct (IH (S nr) inv1 A1 B1) as (nr' & inv' & A' & B' & E2 & L & Q1 & Q2 & Q3); [congruence|lia|congruence|assumption|]. rewrite E2. exists nr', inv', A', B'. cbn [length]. repeat split; try congruence. lia.
  - destruct (IH nr inv1 A B1) as (nr' & inv' & A' & B' & E2 & L & Q1 & Q2 & Q3); [congruence|lia|congruence|assumption|]. rewrite E2. exists nr', inv', A', B'. cbn [length]. repeat split; try congruence. lia.
Qed.

Definition ptCells (l : list imPoint) : list cell := flat_map (fun p => axCells p [0%nat; 1%nat]) l.
Lemma imPoints_Ok : forall l nr inv A B nr' inv' A' B', zA A -> imPoints F K lim dir step mb path (Some b) l nr inv A B = Ok (nr', inv', A', B') -> outcome (ptCells l) nr A B nr' A' B'.
Proof.
  induction l as [|p l IH]; intros nr inv A B nr' inv' A' B' Z H; cbn [imPoints] in H; [injection H as <- <- <- <-; apply outcome_nil; exact Z|].
  apply bind_Ok in H as ((full & bc) & HC & H). apply bind_Ok in H as ((((nr1 & inv1) & A1) & B1) & HA & H). apply components_Ok in HC as (C1 & C2 & -> & C3).
  apply imAxes_Ok in HA; auto. cbn [ptCells flat_map]. eapply outcome_app; [exact HA|]. eapply IH; [|exact H]. apply HA.
Qed.
Lemma imPoints_def : forall l nr inv A B, mcols A = n -> (nr + 2 * length l <= mrows A)%nat -> vlen B = mrows A ->
  exists r, imPoints F K lim dir step mb path (Some b) l nr inv A B = Ok r.
Proof.
  induction l as [|p l IH]; intros nr inv A B HC HR HB; cbn [imPoints]; [eauto|]. cbn [length] in HR. destruct (components_def p) as ((full & bc) & E). rewrite E. cbn [bind].
  destruct (imAxes_def (ipAt p) full bc [0%nat; 1%nat] nr inv A B) as (nr1 & inv1 & A1 & B1 & E1 & L & Q1 & Q2 & Q3); auto; [cbn; lia|]. rewrite E1. cbn [bind]. cbn [length] in L. apply IH; [exact Q1|lia|congruence].
Qed.
End Turn.

(** Histories. *)
Lemma iRun_app F nm mbs : forall o1 o2 c, iRun F nm mbs c (o1 ++ o2) = do c' <- iRun F nm mbs c o1; iRun F nm mbs c' o2.
Proof. induction o1 as [|o o1 IH]; intros o2 c; simpl; [auto|]. destruct (iStep F nm mbs c o); simpl; auto. Qed.
Lemma pointsFrom_app : forall o1 o2 l, pointsFrom l (o1 ++ o2) = pointsFrom (pointsFrom l o1) o2.
Proof. induction o1 as [|o o1 IH]; intros o2 l; [auto|]. destruct o; simpl; auto. Qed.
Lemma robFrom_app : forall o1 o2 l, robFrom l (o1 ++ o2) = robFrom (robFrom l o1) o2.
Proof. induction o1 as [|o o1 IH]; intros o2 l; [auto|]. destruct o; simpl; auto. Qed.
Fixpoint limFrom (o : option limArgs) (ops : list iOp) : option limArgs :=
  match ops with [] => o | ILim a :: ops' => limFrom (Some a) ops' | _ :: ops' => limFrom o ops' end.
Lemma limFrom_app : forall o1 o2 l, limFrom l (o1 ++ o2) = limFrom (limFrom l o1) o2.
Proof. induction o1 as [|o o1 IH]; intros o2 l; [auto|]. destruct o; simpl; auto. Qed.
Lemma limFrom_none : forall ops o, (forall a, ~ In (ILim a) ops) -> limFrom o ops = o.
Proof.
  induction ops as [|op ops IH]; intros o H; [reflexivity|]. destruct op; cbn [limFrom]; try (apply IH; intros a' Ha; apply (H a'); right; exact Ha).
  exfalso. apply (H a). left. reflexivity.
Qed.
Lemma lastLimits_lim a ops o : lastLimits a ops -> limFrom o ops = Some a.
Proof. intros (pre & post & -> & H). rewrite limFrom_app. cbn [limFrom]. apply limFrom_none. exact H. Qed.

Lemma change_far {A} (f : A -> A) : forall l k i, (i < k)%nat -> map (fun ia => if Nat.eqb (fst ia) i then f (snd ia) else snd ia) (combine (seq k (length l)) l) = l.
Proof. induction l as [|a l IH]; intros k i H; [reflexivity|]. cbn. replace (Nat.eqb k i) with false by (symmetry; apply Nat.eqb_neq; lia). rewrite IH by lia. reflexivity. Qed.
Lemma putAt_from {A} (f : A -> A) : forall l i k l', putAt i f l = Ok l' -> (i < length l)%nat /\ l' = map (fun ia => if Nat.eqb (fst ia) (k + i) then f (snd ia) else snd ia) (combine (seq k (length l)) l).
Proof.
  induction l as [|a l IH]; intros i k l' H; [destruct i; cbn in H; discriminate|]. destruct i as [|i]; cbn [putAt] in H.
  - injection H as <-. cbn. split; [lia|]. rewrite Nat.add_0_r, Nat.eqb_refl, change_far by lia. reflexivity.
  - apply bind_Ok in H as (l2 & H2 & H). injection H as <-. apply (IH i (S k)) in H2 as (L & ->). cbn [length]. split; [lia|]. cbn [seq combine map fst snd].
    replace (Nat.eqb k (k + S i)) with false by (symmetry; apply Nat.eqb_neq; lia). replace (k + S i)%nat with (S k + i)%nat by lia. reflexivity.
Qed.
Lemma putAt_change {A} (f : A -> A) l i l' : putAt i f l = Ok l' -> (i < length l)%nat /\ l' = change i f l.
Proof. intros H. apply (putAt_from f l i 0%nat). exact H. Qed.
Lemma putAt_def {A} (f : A -> A) : forall l i, (i < length l)%nat -> exists l', putAt i f l = Ok l'.
Proof. induction l as [|a l IH]; intros [|i] H; cbn in *; try lia; [eauto|]. destruct (IH i) as (l' & E); [lia|]. rewrite E. cbn. eauto. Qed.
Lemma change_length {A} (f : A -> A) l i : length (change i f l) = length l.
Proof. unfold change. rewrite map_length, combine_length, seq_length. lia. Qed.

Definition toLim (dir : R) (a : limArgs) : imLim :=
  let dist := v2lin (aMax a) (- 1) (aMin a) in
  mkLim (v2lin (aMin a) (dir * aI a) dist) (v2lin (aMax a) (- (dir * aI a)) dist) (v2lin (aMin a) (dir * aS a) dist) (v2lin (aMax a) (- (dir * aS a)) dist) (aDamp a) (dir * aOff a * aDamp a).

Section Run.
Variables (F : imgFun) (nm : names) (mbs : list multibody) (r : nat) (body : string) (step dir : R).
Definition iInv (pl : list imPoint) (rl : list string) (la : option limArgs) (c : imgConstr) : Prop :=
  icRobot c = r /\ nPath nm r body = Ok (icPath c) /\ icStep c = step /\ icDir c = dir /\ icPoints c = pl /\ icRob c = rl /\ forall a, la = Some a -> icLim c = toLim dir a.
Lemma imUpdate_Ok K c c' : imUpdate F mbs K c = Ok c' -> exists mb inv', nth_error mbs (icRobot c) = Some mb /\ icRobot c' = icRobot c /\ icPath c' = icPath c /\ icStep c' = icStep c /\ icDir c' = icDir c /\
  icPoints c' = icPoints c /\ icRob c' = icRob c /\ icLim c' = icLim c /\ icBegin c' = icBegin c /\ icVars c' = icVars c /\
  imPoints F K (icLim c) (icDir c) (icStep c) mb (icPath c) (icBegin c) (icPoints c) 0 (icInv c) (icA c) (icB c) = Ok (icNr c', inv', icA c', icB c').
Proof.
  unfold imUpdate. intros H. apply bind_Ok in H as (mb & M & H). apply vec_at_Ok in M. apply bind_Ok in H as ((((nr & inv') & A) & B) & HL & H). injection H as <-.
  exists mb, inv'. repeat (split; [solve [auto]|]). exact HL.
Qed.
Lemma project_Ok p q : project p = Ok q -> vz p <> 0 /\ q = over p.
Proof. unfold project. intros H. apply bind_Ok in H as (u & G & H). injection H as <-. apply guard_Ok, negb_true_iff, Reqb_false in G. auto. Qed.
Lemma i_step pl rl la c o c' : iInv pl rl la c -> iStep F nm mbs c o = Ok c' -> iInv (pointsFrom pl [o]) (robFrom rl [o]) (limFrom la [o]) c'.
Proof.
  intros (I1 & I2 & I3 & I4 & I5 & I6 & I7) H. destruct o as [p z|p|bo| |id p|id p z|id p|a|d|K]; cbn [iStep pointsFrom robFrom limFrom] in *.
  - injection H as <-. unfold iInv. cbn. rewrite I5. auto 10.
  - apply bind_Ok in H as (rr & H1 & H). injection H as <-. unfold imAdd3 in H1. apply bind_Ok in H1 as (q & H1 & H2). apply project_Ok in H1 as (_ & ->). injection H2 as <-. unfold iInv. cbn. rewrite I5. auto 10.
  - unfold imAddRob in H. apply bind_Ok in H as (q & _ & H). injection H as <-. unfold iInv. cbn. rewrite I6. auto 10.
  - injection H as <-. unfold iInv. cbn. auto 10.
  - unfold imMove in H. apply bind_Ok in H as (q & H1 & H). injection H as <-. apply putAt_change in H1 as (_ & ->). unfold iInv. cbn. rewrite I5. auto 10.
  - unfold imMove2 in H. apply bind_Ok in H as (q & H1 & H). injection H as <-. apply putAt_change in H1 as (_ & ->). unfold iInv. cbn. rewrite I5. auto 10.
  - unfold imMove3 in H. apply bind_Ok in H as (q0 & H0 & H). apply project_Ok in H0 as (_ & ->). unfold imMove2 in H. apply bind_Ok in H as (q & H1 & H). injection H as <-. apply putAt_change in H1 as (_ & ->). unfold iInv. cbn. rewrite I5. auto 10.
  - injection H as <-. unfold iInv. cbn. repeat (split; [solve [auto]|]). intros a' E. injection E as <-. rewrite I4. reflexivity.
  - unfold imNrVars in H. apply bind_Ok in H as (b & _ & H). injection H as <-. unfold iInv. cbn. auto 10.
  - apply imUpdate_Ok in H as (mb & inv' & M & E1 & E2 & E3 & E4 & E5 & E6 & E7 & _). unfold iInv. rewrite E1, E2, E3, E4, E5, E6, E7. auto 10.
Qed.
Lemma i_run : forall ops pl rl la c c', iInv pl rl la c -> iRun F nm mbs c ops = Ok c' -> iInv (pointsFrom pl ops) (robFrom rl ops) (limFrom la ops) c'.
Proof.
  induction ops as [|o ops IH]; intros pl rl la c c' I H; cbn in H; [injection H as <-; exact I|]. apply bind_Ok in H as (c1 & H1 & H).
  change (o :: ops) with ([o] ++ ops). rewrite pointsFrom_app, robFrom_app, limFrom_app. eapply IH; [|exact H]. eapply i_step; eauto.
Qed.
Lemma i_new c0 : newImage nm mbs r body step dir = Ok c0 -> iInv [] [] None c0 /\ exists mb, nth_error mbs r = Some mb.
Proof.
  unfold newImage. intros H. apply bind_Ok in H as (mb & M & H). apply vec_at_Ok in M. apply bind_Ok in H as (q & _ & H). apply bind_Ok in H as (p & HP & H). injection H as <-.
  split; [|eauto]. unfold iInv. cbn. repeat (split; [solve [auto]|]). discriminate.
Qed.

Variables (d : solverData) (b : nat) (mb : multibody).
Hypothesis HB : alphaDBegin d r = Ok b.
Hypothesis HM : nth_error mbs r = Some mb.
Hypothesis HF : (b + nrDof mb <= sdNrVars d)%nat.
Hypothesis HPaths : pathsOk nm mbs.
Definition zI (c : imgConstr) : Prop :=
  icBegin c = Some b /\ zA mb (sdNrVars d) b (icA c) /\ vlen (icB c) = mrows (icA c) /\ (2 * length (icPoints c) <= mrows (icA c))%nat.
Definition quiet (o : iOp) : Prop := match o with IAdd _ _ | IAdd3 _ | IRob _ | INr _ => False | _ => True end.
Lemma z_step pl rl la c o c' : iInv pl rl la c -> zI c -> quiet o -> iStep F nm mbs c o = Ok c' -> zI c'.
Proof.
  intros (I1 & I2 & I3 & I4 & I5 & I6 & I7) (Z1 & Z2 & Z3 & Z4) Q H. destruct o as [p z|p|bo| |id p|id p z|id p|a|d'|K]; cbn [iStep quiet] in *; try contradiction.
  - injection H as <-. unfold zI. cbn. auto with arith.
  - unfold imMove in H. apply bind_Ok in H as (q & H1 & H). injection H as <-. apply putAt_change in H1 as (_ & ->). unfold zI. cbn [with_points icBegin icA icB icPoints]. rewrite change_length. auto.
  - unfold imMove2 in H. apply bind_Ok in H as (q & H1 & H). injection H as <-. apply putAt_change in H1 as (_ & ->). unfold zI. cbn [with_points icBegin icA icB icPoints]. rewrite change_length. auto.
  - unfold imMove3 in H. apply bind_Ok in H as (q0 & _ & H). unfold imMove2 in H. apply bind_Ok in H as (q & H1 & H). injection H as <-. apply putAt_change in H1 as (_ & ->). unfold zI. cbn [with_points icBegin icA icB icPoints]. rewrite change_length. auto.
  - injection H as <-. unfold zI. cbn [setLimits icBegin icA icB icPoints]. auto.
  - apply imUpdate_Ok in H as (mb' & inv' & M & E1 & E2 & E3 & E4 & E5 & E6 & E7 & E8 & E9 & HL). rewrite I1, HM in M. injection M as <-. rewrite Z1 in HL.
    apply imPoints_Ok with (n := sdNrVars d) in HL as (_ & Q1 & Q2 & Q3 & _); auto; [|exact (HPaths r mb _ _ HM I2)].
    unfold zI. rewrite E8, E5, Q2, Q3. auto.
Qed.
Lemma z_run : forall ops pl rl la c c', iInv pl rl la c -> zI c -> Forall quiet ops -> iRun F nm mbs c ops = Ok c' -> zI c'.
Proof.
  induction ops as [|o ops IH]; intros pl rl la c c' I Z Q H; cbn in H; [injection H as <-; exact Z|]. apply bind_Ok in H as (c1 & H1 & H). apply Forall_cons_iff in Q as (Q1 & Q2).
  eapply IH; [eapply i_step; eauto|eapply z_step; eauto|exact Q2|exact H].
Qed.
Lemma z_sized ops c0 c : newImage nm mbs r body step dir = Ok c0 -> iRun F nm mbs c0 ops = Ok c -> iSized d ops -> zI c.
Proof.
  intros H0 H (pre & post & -> & Q). rewrite iRun_app in H. apply bind_Ok in H as (c1 & H1 & H). cbn [iRun] in H. apply bind_Ok in H as (c2 & H2 & H).
  destruct (i_new c0 H0) as (I0 & _). pose proof (i_run _ _ _ _ _ _ I0 H1) as I1. pose proof (i_step _ _ _ _ _ _ I1 H2) as I2.
  eapply z_run; [exact I2| |exact Q|exact H]. cbn [iStep] in H2. unfold imNrVars in H2. rewrite (proj1 I1), HB in H2. cbn in H2. injection H2 as <-.
  unfold zI. cbn. split; [reflexivity|]. split; [split; reflexivity|]. split; [reflexivity|]. unfold imMax. lia.
Qed.
End Run.

Lemma ax_imSpeed F K p i : (i < 2)%nat -> ax (imSpeed F K (ipAt p) (ipDepth p)) i = featVel F K p i.
Proof. intros H. destruct i as [|[|i]]; [reflexivity|reflexivity|lia]. Qed.
Lemma ax_v2lin a k c i : ax (v2lin a k c) i = ax a i + k * ax c i.
Proof. destruct i; reflexivity. Qed.
Lemma shift_eq F nm mbs r body d step K p x i mb path b : (i < 2)%nat -> robot mbs r = mb -> pathOf nm r body = path -> beginOf d r = b ->
  moved F nm mbs r body d step K p x i = pull F K step mb path b p x i - ax (drift F K step p) i.
Proof.
  intros Hi <- <- <-. unfold moved, drift, pull. rewrite !ax_v2lin, ax_imSpeed by exact Hi.
  assert (E : ax (imNAcc F K (ipAt p) (ipDepth p)) i = sumn 6 (fun q => imgJac F (ipAt p) (ipDepth p) i q * cmNAcc K q) +
    sumn 6 (fun q => imgJacDot F (ipAt p) (featVel F K p 0, featVel F K p 1) (ipDepth p) (depthRate F K p) i q * cmVel K q)) by (destruct i as [|[|i]]; [reflexivity|reflexivity|lia]).
  rewrite E. unfold featAcc. replace (ax (0, 0) i) with 0 by (destruct i; reflexivity).
  rewrite (sumn_ext 6 (fun q => imgJac F (ipAt p) (ipDepth p) i q * (_ + _)) (fun q => imgJac F (ipAt p) (ipDepth p) i q * jacDot (robot mbs r) (pathOf nm r body) (cmJac K q) (fun j => x (beginOf d r + j)%nat) + imgJac F (ipAt p) (ipDepth p) i q * cmNAcc K q)) by (intros; ring).
  rewrite sumn_plus. lra.
Qed.

Section Main.
Variables (F : imgFun) (nm : names) (mbs : list multibody) (r : nat) (body : string) (d : solverData) (step dir : R).
Lemma image_reach ops a c : iReaches F nm mbs r body d step dir ops a c -> exists b mb, nth_error mbs r = Some mb /\ alphaDBegin d r = Ok b /\ (b + nrDof mb <= sdNrVars d)%nat /\ pathsOk nm mbs /\
  iInv nm r body step dir (pointsAfter ops) (robAfter ops) (Some a) c /\ zI d b mb c.
Proof.
  intros ((uni & bi & deps & HN) & HP & (c0 & H0 & H) & SZ & LL). destruct (i_new _ _ _ _ _ _ _ H0) as (I0 & mb & M). destruct (layout_begin_lemma _ _ _ _ _ HN) as (B & _).
  assert (LT : (r < length mbs)%nat) by (apply nth_error_Some; congruence). specialize (B r LT). destruct (beginEnd _ _ _ _ _ _ _ _ HN B M) as (E1 & E2).
  eexists. exists mb. split; [exact M|]. split; [exact B|]. split; [lia|]. split; [exact HP|]. split.
  - pose proof (i_run _ _ _ _ _ _ _ _ _ _ _ _ _ I0 H) as I. rewrite (lastLimits_lim a ops None LL) in I. exact I.
  - eapply z_sized; eauto. lia.
Qed.
Lemma image_rows ops a c K : iReaches F nm mbs r body d step dir ops a c ->
  exists c', imUpdate F mbs K c = Ok c' /\ iqNr (imInEq c') = length (ptCells (toLim dir a) dir (pointsAfter ops)) /\
    forall k p i s, nth_error (ptCells (toLim dir a) dir (pointsAfter ops)) k = Some (p, i, s) -> forall x, holdsRow (sdNrVars d) x (imInEq c') k <->
      sg s * dir * moved F nm mbs r body d step K p x i <= dir * (aDamp a * frac (toLim dir a) s (ipAt p) i - dir * aOff a * aDamp a).
Proof.
  intros HR. destruct (image_reach ops a c HR) as (b & mb & M & HB & LE & HP & (I1 & I2 & I3 & I4 & I5 & I6 & I7) & (Z1 & Z2 & Z3 & Z4)). specialize (I7 a eq_refl).
  pose proof (HP r mb _ _ M I2) as WP. unfold imUpdate. rewrite I1, Z1, I3, I4, I7, <- I5. apply vec_at_Ok in M as M'. rewrite M'. cbn [bind].
  destruct (imPoints_def F K (toLim dir a) dir step mb (icPath c) (sdNrVars d) b WP LE (icPoints c) 0 (icInv c) (icA c) (icB c)) as ((((nr & inv') & A) & B) & E); [apply Z2|cbn; lia|exact Z3|].
  rewrite E. cbn [bind]. eexists. split; [reflexivity|]. cbn [imInEq iqNr icNr].
  apply imPoints_Ok with (n := sdNrVars d) in E as (N & _ & _ & _ & ROWS & _); auto. split; [exact N|].
  intros k p i s Hk x. destruct (ROWS k (p, i, s) Hk) as (R1 & R2). unfold holdsRow. cbn [imInEq iqA iqB icA icB vget vmap ele]. cbn [plus] in R1, R2. rewrite R1, R2.
  assert (Hi : (i < 2)%nat). { apply nth_error_In in Hk. unfold ptCells, axCells in Hk. apply in_flat_map in Hk as (p' & _ & Hk). apply in_flat_map in Hk as (i' & Hi & Hk). apply in_map_iff in Hk as (s' & Hk & _). injection Hk as <- <- <-. destruct Hi as [<-|[<-|[]]]; lia. }
  assert (PE : pathOf nm r body = icPath c) by (unfold pathOf; rewrite I2; reflexivity). assert (BE : beginOf d r = b) by (unfold beginOf; rewrite HB; reflexivity).
  rewrite (shift_eq F nm mbs r body d step K p x i mb (icPath c) b Hi (robot_eq mbs mb r M) PE BE). unfold bound. cbn [toLim lDamp lOff].
  rewrite Rmult_minus_distr_l. split; intros H; lra.
Qed.
End Main.

(** Field of view. *)
Lemma inb_true u v w : inb u v w = true <-> u < v < w.
Proof. unfold inb. destruct (Rlt_dec u v), (Rlt_dec v w); split; intros H; try discriminate; try reflexivity; lra. Qed.
Lemma inb_false u v w : inb u v w = false <-> ~ u < v < w.
Proof. rewrite <- not_true_iff_false, inb_true. tauto. Qed.
Lemma width_pos a i : limOk a -> (i < 2)%nat -> 0 < width a i.
Proof. intros (H1 & H2 & _) Hi. destruct i as [|[|i]]; [exact H1|exact H2|lia]. Qed.
Lemma lim_fov a i : ax (lIMin (toLim 1 a)) i = lowI a i /\ ax (lIMax (toLim 1 a)) i = highI a i /\ ax (lSMin (toLim 1 a)) i = lowS a i /\ ax (lSMax (toLim 1 a)) i = highS a i.
Proof. cbn [toLim lIMin lIMax lSMin lSMax]. rewrite !ax_v2lin. unfold lowI, highI, lowS, highS, width. repeat split; ring. Qed.
Lemma lim_occ a i : ax (lIMin (toLim (- 1) a)) i = oLowI a i /\ ax (lIMax (toLim (- 1) a)) i = oHighI a i /\ ax (lSMin (toLim (- 1) a)) i = oLowS a i /\ ax (lSMax (toLim (- 1) a)) i = oHighS a i.
Proof. cbn [toLim lIMin lIMax lSMin lSMax]. rewrite !ax_v2lin. unfold oLowI, oHighI, oLowS, oHighS, width. repeat split; ring. Qed.
Lemma fov_order a i : limOk a -> (i < 2)%nat -> lowS a i < lowI a i /\ lowI a i <= highI a i /\ highI a i < highS a i /\ highS a i - highI a i = (aI a - aS a) * width a i /\ lowI a i - lowS a i = (aI a - aS a) * width a i.
Proof.
  intros H Hi. pose proof (width_pos a i H Hi) as W. destruct H as (_ & _ & H1 & H2). unfold lowS, lowI, highS, highI.
  assert (0 < (aI a - aS a) * width a i) by (apply Rmult_lt_0_compat; lra). assert (aI a * width a i <= 1 / 2 * width a i) by (apply Rmult_le_compat_r; lra). unfold width in *. repeat split; lra.
Qed.
Lemma ck_fov a p i : limOk a -> (i < 2)%nat -> ckSide (toLim 1 a) 1 (ipAt p) i = fovSide a p i.
Proof.
  intros H Hi. destruct (fov_order a i H Hi) as (O1 & O2 & O3 & _). destruct (lim_fov a i) as (L1 & L2 & L3 & L4). unfold ckSide, fovSide. rewrite L1, L2, L3, L4.
  replace (Reqb 1 1) with true by (symmetry; apply Reqb_true; reflexivity). cbn [orb]. rewrite !andb_true_r, !Rmult_1_l.
  destruct (inb _ _ (lowI a i)) eqn:E1.
  - apply inb_true in E1 as (E1 & E2). rewrite (proj2 (Rltb_true _ _) E2), (proj2 (Rltb_true _ _) E1). reflexivity.
  - apply inb_false in E1. destruct (Rltb (ax (ipAt p) i) (lowI a i)) eqn:E2.
    + apply Rltb_true in E2. destruct (Rltb (lowS a i) (ax (ipAt p) i)) eqn:E3; [apply Rltb_true in E3; exfalso; lra|].
      replace (inb (highI a i) (ax (ipAt p) i) (highS a i)) with false; [reflexivity|]. symmetry. apply inb_false. lra.
    + destruct (inb _ _ _) eqn:E4.
      * apply inb_true in E4 as (E4 & E5). rewrite (proj2 (Rltb_true _ _) E4), (proj2 (Rltb_true _ _) E5). reflexivity.
      * apply inb_false in E4. destruct (Rltb (highI a i) (ax (ipAt p) i)) eqn:E5; [|reflexivity]. apply Rltb_true in E5. destruct (Rltb (ax (ipAt p) i) (highS a i)) eqn:E6; [|reflexivity].
        apply Rltb_true in E6. exfalso. lra.
Qed.
Lemma ck_occ a p i : (i < 2)%nat -> ckSide (toLim (- 1) a) (- 1) (ipAt p) i = occSide a p i.
Proof.
  intros Hi. destruct (lim_occ a i) as (L1 & L2 & L3 & L4). destruct (lim_occ a (1 - i)) as (M1 & M2 & _). unfold ckSide, occSide. rewrite L1, L2, L3, L4, M1, M2.
  replace (Reqb (- 1) 1) with false by (symmetry; apply Reqb_false; lra). cbn [orb].
  assert (X : forall u v, Rltb (- 1 * u) (- 1 * v) = Rltb v u). { intros u v. destruct (Rltb v u) eqn:E; [apply Rltb_true in E; apply Rltb_true; lra|apply Rltb_false in E; apply Rltb_false; lra]. }
  rewrite !X. set (u := ax (ipAt p) i). set (w := ax (ipAt p) (1 - i)).
  replace (Rltb (oLowI a (1 - i)) w && Rltb w (oHighI a (1 - i))) with (inb (oLowI a (1 - i)) w (oHighI a (1 - i)))
    by (unfold inb, Rltb; destruct (Rlt_dec _ w), (Rlt_dec w _); reflexivity).
  destruct (inb (oLowI a (1 - i)) w _); [|reflexivity].
  destruct (inb _ u (Rmin _ _)) eqn:E1.
  - apply inb_true in E1 as (E1 & E2). assert (E3 : u < oLowS a i) by (pose proof (Rmin_r 0 (oLowS a i)); lra). assert (E4 : u < 0) by (pose proof (Rmin_l 0 (oLowS a i)); lra). clear E2; rename E4 into E2. rewrite (proj2 (Rltb_true _ _) E1), (proj2 (Rltb_true _ _) E2), (proj2 (Rltb_true _ _) E3). reflexivity.
  - apply inb_false in E1. destruct (Rltb (oLowI a i) u && Rltb u 0) eqn:E2.
    + apply andb_true_iff in E2 as (E2 & E3). apply Rltb_true in E2, E3. destruct (Rltb u (oLowS a i)) eqn:E4; [apply Rltb_true in E4; exfalso; apply E1; split; [lra|apply Rmin_glb_lt; lra]|].
      replace (inb _ u _) with false; [reflexivity|]. symmetry. apply inb_false. intros (Q & _). pose proof (Rmax_l 0 (oHighS a i)). lra.
    + destruct (inb _ u _) eqn:E4.
      * apply inb_true in E4 as (E4 & E5). pose proof (Rmax_l 0 (oHighS a i)). pose proof (Rmax_r 0 (oHighS a i)).
        rewrite (proj2 (Rltb_true u (oHighI a i))) by lra. rewrite (proj2 (Rltb_true 0 u)) by lra. rewrite (proj2 (Rltb_true (oHighS a i) u)) by lra. reflexivity.
      * apply inb_false in E4. destruct (Rltb u (oHighI a i) && Rltb 0 u) eqn:E5; [|reflexivity]. apply andb_true_iff in E5 as (E5 & E6). apply Rltb_true in E5, E6.
        destruct (Rltb (oHighS a i) u) eqn:E7; [|reflexivity]. apply Rltb_true in E7. exfalso. apply E4. split; [apply Rmax_lub_lt; lra|lra].
Qed.

Definition drop (c : nat * imPoint * nat * bool) : cell := let '(j, p, i, s) := c in (p, i, s).
Lemma sideRows_cells lim dir side : (forall p i, (i < 2)%nat -> ckSide lim dir (ipAt p) i = side p i) -> forall l, map drop (sideRows side l) = ptCells lim dir l.
Proof.
  intros H l. unfold sideRows, numbered.
  assert (X : forall k, map drop (flat_map (fun kp => flat_map (fun i => map (fun s => (fst kp, snd kp, i, s)) (side (snd kp) i)) [0%nat; 1%nat]) (combine (seq k (length l)) l)) = ptCells lim dir l); [|apply X].
  induction l as [|p l IH]; intros k; [reflexivity|]. cbn [length seq combine]. change (flat_map ?f (?x :: ?y)) with (f x ++ flat_map f y). 
  rewrite map_app. unfold ptCells in *. cbn [flat_map]. rewrite IH. f_equal. unfold axCells. cbn [flat_map fst snd]. rewrite !map_app, !map_map, !H by lia. reflexivity.
Qed.
Lemma sideRows_nth lim dir side l k j p i s : (forall p i, (i < 2)%nat -> ckSide lim dir (ipAt p) i = side p i) -> nth_error (sideRows side l) k = Some (j, p, i, s) ->
  nth_error (ptCells lim dir l) k = Some (p, i, s) /\ (i < 2)%nat /\ nth_error l j = Some p /\ In s (side p i).
Proof.
  intros H Hk. rewrite <- (sideRows_cells lim dir side H l), nth_error_map, Hk. split; [reflexivity|]. apply nth_error_In in Hk. unfold sideRows in Hk. apply in_flat_map in Hk as ((j', p') & H1 & Hk).
  apply in_flat_map in Hk as (i' & Hi & Hk). apply in_map_iff in Hk as (s' & Hk & Hs). injection Hk as <- <- <- <-. cbn [fst snd] in *. split; [destruct Hi as [<-|[<-|[]]]; lia|]. split; [|exact Hs].
  unfold numbered in H1. apply In_nth_error in H1 as (m & H1). apply nth_error_combine in H1 as (H1 & H2). assert (L : (m < length l)%nat) by (apply nth_error_Some; congruence).
  rewrite nth_error_nth' with (d := 0%nat) in H1 by (rewrite seq_length; exact L). rewrite seq_nth in H1 by exact L. injection H1 as <-. exact H2.
Qed.
Lemma sideRows_in side l j p i s : nth_error l j = Some p -> (i < 2)%nat -> In s (side p i) -> exists k, nth_error (sideRows side l) k = Some (j, p, i, s).
Proof.
  intros H Hi Hs. apply In_nth_error. unfold sideRows. apply in_flat_map. exists (j, p). assert (L : (j < length l)%nat) by (apply nth_error_Some; congruence). split.
  - unfold numbered. apply nth_error_In with (n := j). apply nth_error_combine. split; [|exact H]. rewrite nth_error_nth' with (d := 0%nat) by (rewrite seq_length; exact L). rewrite seq_nth by exact L. reflexivity.
  - apply in_flat_map. exists i. split; [destruct i as [|[|i]]; cbn; lia|]. cbn [fst snd]. apply in_map_iff. exists s. auto.
Qed.
Lemma fov_in a p i s : limOk a -> (i < 2)%nat -> In s (fovSide a p i) <-> if s then nearHigh a p i else nearLow a p i.
Proof.
  intros H Hi. destruct (fov_order a i H Hi) as (O1 & O2 & O3 & _). unfold fovSide, nearHigh, nearLow. destruct (inb _ _ (lowI a i)) eqn:E1.
  - apply inb_true in E1. destruct s; cbn; split; intros Q; [destruct Q as [Q|[]]; discriminate|lra|exact E1|auto].
  - apply inb_false in E1. destruct (inb _ _ _) eqn:E2; [apply inb_true in E2|apply inb_false in E2]; destruct s; cbn; split; intros Q; auto; try contradiction; try (destruct Q as [Q|[]]; discriminate).
Qed.

Section Fov.
Variables (F : imgFun) (nm : names) (mbs : list multibody) (r : nat) (body : string) (d : solverData) (step : R).
Lemma fov_rows ops a c K : iReaches F nm mbs r body d step 1 ops a c -> limOk a ->
  exists c', imUpdate F mbs K c = Ok c' /\ iqNr (imInEq c') = length (sideRows (fovSide a) (pointsAfter ops)) /\
    forall k j p i s, nth_error (sideRows (fovSide a) (pointsAfter ops)) k = Some (j, p, i, s) -> forall x, holdsRow (sdNrVars d) x (imInEq c') k <->
      fovAsk a p i s (moved F nm mbs r body d step K p x i).
Proof.
  intros HR HL. destruct (image_rows F nm mbs r body d step 1 ops a c K HR) as (c' & U & N & ROWS). exists c'. split; [exact U|].
  assert (CK : forall p i, (i < 2)%nat -> ckSide (toLim 1 a) 1 (ipAt p) i = fovSide a p i) by (intros; apply ck_fov; assumption).
  split; [rewrite N, <- (sideRows_cells _ _ _ CK), map_length; reflexivity|].
  intros k j p i s Hk x. destruct (sideRows_nth _ _ _ _ _ _ _ _ _ CK Hk) as (Hk' & Hi & _ & _). rewrite (ROWS k p i s Hk' x). destruct (fov_order a i HL Hi) as (O1 & O2 & O3 & _).
  destruct (lim_fov a i) as (L1 & L2 & L3 & L4). unfold frac, fovAsk. rewrite L1, L2, L3, L4. destruct s; cbn [sg].
  - replace ((ax (ipAt p) i - highS a i) / (highI a i - highS a i)) with ((highS a i - ax (ipAt p) i) / (highS a i - highI a i)) by (field; lra). split; lra.
  - split; lra.
Qed.
Lemma fov_all ops a c K c' : iReaches F nm mbs r body d step 1 ops a c -> limOk a -> imUpdate F mbs K c = Ok c' ->
  forall x, holdsIneq (sdNrVars d) x (imInEq c') <-> forall p i, In p (pointsAfter ops) -> (i < 2)%nat ->
    (nearLow a p i -> fovAsk a p i false (moved F nm mbs r body d step K p x i)) /\ (nearHigh a p i -> fovAsk a p i true (moved F nm mbs r body d step K p x i)).
Proof.
  intros HR HL U x. destruct (fov_rows ops a c K HR HL) as (c2 & U2 & N & ROWS). rewrite U in U2. injection U2 as <-.
  assert (CK : forall p i, (i < 2)%nat -> ckSide (toLim 1 a) 1 (ipAt p) i = fovSide a p i) by (intros; apply ck_fov; assumption).
  split.
  - intros H p i Hp Hi. apply In_nth_error in Hp as (j & Hj).
    assert (X : forall s, In s (fovSide a p i) -> fovAsk a p i s (moved F nm mbs r body d step K p x i)).
    { intros s Hs. destruct (sideRows_in (fovSide a) _ j p i s Hj Hi Hs) as (k & Hk). apply (ROWS k j p i s Hk x). apply H. rewrite N. apply nth_error_Some. congruence. }
    split; intros Q; apply X; apply fov_in; auto.
  - intros H k Hk. rewrite N in Hk. destruct (nth_error (sideRows (fovSide a) (pointsAfter ops)) k) as [(((j & p) & i) & s)|] eqn:E; [|apply nth_error_None in E; lia].
    apply (ROWS k j p i s E x). destruct (sideRows_nth _ _ _ _ _ _ _ _ _ CK E) as (_ & Hi & Hj & Hs). apply nth_error_In in Hj. destruct (H p i Hj Hi) as (Q1 & Q2). apply fov_in in Hs; auto. destruct s; auto.
Qed.
Lemma occ_rows ops a c K : iReaches F nm mbs r body d step (- 1) ops a c -> limOk a ->
  exists c', imUpdate F mbs K c = Ok c' /\ iqNr (imInEq c') = length (sideRows (occSide a) (pointsAfter ops)) /\
    forall k j p i s, nth_error (sideRows (occSide a) (pointsAfter ops)) k = Some (j, p, i, s) -> forall x, holdsRow (sdNrVars d) x (imInEq c') k <->
      occAsk a p i s (moved F nm mbs r body d step K p x i).
Proof.
  intros HR HL. destruct (image_rows F nm mbs r body d step (- 1) ops a c K HR) as (c' & U & N & ROWS). exists c'. split; [exact U|].
  assert (CK : forall p i, (i < 2)%nat -> ckSide (toLim (- 1) a) (- 1) (ipAt p) i = occSide a p i) by (intros; apply ck_occ; assumption).
  split; [rewrite N, <- (sideRows_cells _ _ _ CK), map_length; reflexivity|].
  intros k j p i s Hk x. destruct (sideRows_nth _ _ _ _ _ _ _ _ _ CK Hk) as (Hk' & Hi & _ & _). rewrite (ROWS k p i s Hk' x). pose proof (width_pos a i HL Hi) as W.
  assert (W2 : 0 < (aI a - aS a) * width a i) by (apply Rmult_lt_0_compat; [destruct HL as (_ & _ & Q & _); lra|exact W]).
  destruct (lim_occ a i) as (L1 & L2 & L3 & L4). unfold frac, occAsk. rewrite L1, L2, L3, L4. destruct s; cbn [sg].
  - split; lra.
  - replace ((ax (ipAt p) i - oLowS a i) / (oLowI a i - oLowS a i)) with ((oLowS a i - ax (ipAt p) i) / (oLowS a i - oLowI a i)) by (field; unfold oLowS, oLowI; lra). split; lra.
Qed.

(** Tracking. *)
Lemma pull_back s m M : 0 < m < M -> 0 < s -> m * (s / M) < s.
Proof.
  intros (H1 & H2) H3. assert (0 < s / M) by (apply Rdiv_lt_0_compat; lra). replace s with (M * (s / M)) at 2 by (field; lra). apply Rmult_lt_compat_r; assumption.
Qed.
Lemma tracks_S id ps Ks n : tracks id ps Ks (S n) = tracks id ps Ks n ++ [IMove2 id (ipAt (ps n)) (ipDepth (ps n)); IUp (Ks n)].
Proof. unfold tracks. rewrite seq_S, flat_map_app. reflexivity. Qed.
Lemma tracks_quiet id ps Ks n : Forall (fun o => match o with IAdd _ _ | IAdd3 _ | IRob _ | INr _ => False | _ => True end) (tracks id ps Ks n).
Proof. unfold tracks. apply Forall_forall. intros o Ho. apply in_flat_map in Ho as (m & _ & [<-|[<-|[]]]); exact I. Qed.
Lemma tracks_lim id ps Ks n a : ~ In (ILim a) (tracks id ps Ks n).
Proof. unfold tracks. intros H. apply in_flat_map in H as (m & _ & [H|[H|[]]]); discriminate. Qed.
Lemma reach_more ops a c more c' : iReaches F nm mbs r body d step 1 ops a c -> iRun F nm mbs c more = Ok c' ->
  Forall (fun o => match o with IAdd _ _ | IAdd3 _ | IRob _ | INr _ => False | _ => True end) more -> (forall a', ~ In (ILim a') more) -> iReaches F nm mbs r body d step 1 (ops ++ more) a c'.
Proof.
  intros (H1 & H2 & (c0 & H3 & H4) & (pre & post & H5 & H6) & (lpre & lpost & H7 & H8)) H Q L. split; [exact H1|]. split; [exact H2|]. split; [|split].
  - exists c0. split; [exact H3|]. rewrite iRun_app, H4. exact H.
  - exists pre, (post ++ more). split; [rewrite H5, <- app_assoc; reflexivity|]. apply Forall_app. auto.
  - exists lpre, (lpost ++ more). split; [rewrite H7, <- app_assoc; reflexivity|]. intros a' Ha. apply in_app_iff in Ha as [Ha|Ha]; [exact (H8 a' Ha)|exact (L a' Ha)].
Qed.
Lemma tracks_points id ps Ks : forall n l, length (pointsFrom l (tracks id ps Ks n)) = length l.
Proof.
  induction n as [|n IH]; intros l; [reflexivity|]. rewrite tracks_S, pointsFrom_app. cbn [pointsFrom]. rewrite change_length. apply IH.
Qed.
Lemma change_nth {A} (f : A -> A) l i a : nth_error l i = Some a -> nth_error (change i f l) i = Some (f a).
Proof.
  intros H. unfold change. rewrite nth_error_map. assert (L : (i < length l)%nat) by (apply nth_error_Some; congruence).
  assert (E : nth_error (combine (seq 0 (length l)) l) i = Some (i, a)) by (apply nth_error_combine; split; [rewrite nth_error_nth' with (d := 0%nat) by (rewrite seq_length; exact L); rewrite seq_nth by exact L; reflexivity|exact H]).
  rewrite E. cbn. rewrite Nat.eqb_refl. reflexivity.
Qed.
Lemma tracks_run ops a c id ps Ks : iReaches F nm mbs r body d step 1 ops a c -> (id < length (pointsAfter ops))%nat -> forall n, exists c', iRun F nm mbs c (tracks id ps Ks n) = Ok c'.
Proof.
  intros HR HI. induction n as [|n (c1 & IH)]; [cbn; eauto|]. rewrite tracks_S, iRun_app, IH. cbn [bind iRun iStep].
  pose proof (reach_more _ _ _ _ _ HR IH (tracks_quiet id ps Ks n) (tracks_lim id ps Ks n)) as HR1. destruct (image_reach _ _ _ _ _ _ _ _ _ _ _ HR1) as (b & mb & _ & _ & _ & _ & (_ & _ & _ & _ & I5 & _) & _).
  assert (L : (id < length (icPoints c1))%nat) by (rewrite I5; unfold pointsAfter; rewrite pointsFrom_app, tracks_points; exact HI).
  unfold imMove2. destruct (putAt_def (fun _ => mkIP (ipAt (ps n)) (ipDepth (ps n))) (icPoints c1) id L) as (l2 & E). rewrite E. cbn [bind].
  assert (E2 : iRun F nm mbs c1 [IMove2 id (ipAt (ps n)) (ipDepth (ps n))] = Ok (with_points c1 l2 (icRob c1))) by (cbn; unfold imMove2; rewrite E; reflexivity).
  assert (HR2 := reach_more _ _ _ _ _ HR1 E2 ltac:(repeat constructor) ltac:(intros a' [Q|[]]; discriminate)).
  destruct (image_rows _ _ _ _ _ _ _ _ _ _ _ (Ks n) HR2) as (c3 & E3 & _). rewrite E3. cbn [bind]. eauto.
Qed.
Lemma fov_safe ops a c id i ps Ks xs : iReaches F nm mbs r body d step 1 ops a c -> limOk a -> (id < length (pointsAfter ops))%nat -> (i < 2)%nat ->
  0 < aDamp a < (aI a - aS a) * width a i -> 0 <= aOff a ->
  (forall n c', iRun F nm mbs c (tracks id ps Ks (S n)) = Ok c' -> holdsIneq (sdNrVars d) (xs n) (imInEq c')) ->
  lowS a i < ax (ipAt (ps 0%nat)) i < highS a i ->
  (forall n, nearLow a (ps n) i \/ nearHigh a (ps n) i -> ax (ipAt (ps (S n))) i = ax (ipAt (ps n)) i + moved F nm mbs r body d step (Ks n) (ps n) (xs n) i) ->
  (forall n, Rabs (ax (ipAt (ps (S n))) i - ax (ipAt (ps n)) i) < (aI a - aS a) * width a i) ->
  forall n, lowS a i < ax (ipAt (ps n)) i < highS a i.
Proof.
  intros HR HL HI Hi HD HO ROWS START MOVE SMALL. destruct (fov_order a i HL Hi) as (O1 & O2 & O3 & O4 & O5).
  induction n as [|n IHn]; [exact START|]. specialize (SMALL n). apply Rabs_def2 in SMALL.
  assert (ASK : (nearLow a (ps n) i -> fovAsk a (ps n) i false (moved F nm mbs r body d step (Ks n) (ps n) (xs n) i)) /\ (nearHigh a (ps n) i -> fovAsk a (ps n) i true (moved F nm mbs r body d step (Ks n) (ps n) (xs n) i))).
  { destruct (tracks_run ops a c id ps Ks HR HI (S n)) as (c' & E). pose proof (ROWS n c' E) as H. rewrite tracks_S, iRun_app in E. apply bind_Ok in E as (c1 & E1 & E).
    pose proof (reach_more _ _ _ _ _ HR E1 (tracks_quiet id ps Ks n) (tracks_lim id ps Ks n)) as HR1. cbn [iRun] in E. apply bind_Ok in E as (c2 & E2 & E). apply bind_Ok in E as (c3 & E3 & E). injection E as ->.
    assert (HR2 : iReaches F nm mbs r body d step 1 ((ops ++ tracks id ps Ks n) ++ [IMove2 id (ipAt (ps n)) (ipDepth (ps n))]) a c2).
    { eapply reach_more; [exact HR1|cbn [iRun]; rewrite E2; reflexivity|repeat constructor|intros a' [Q|[]]; discriminate]. }
    cbn [iStep] in E3. apply (fov_all _ _ _ _ _ HR2 HL E3 (xs n)); [exact H| |exact Hi].
    unfold pointsAfter. rewrite pointsFrom_app. cbn [pointsFrom]. set (l := pointsFrom [] (ops ++ tracks id ps Ks n)).
    assert (L : (id < length l)%nat) by (unfold l; rewrite pointsFrom_app, tracks_points; exact HI).
    destruct (nth_error l id) as [q|] eqn:Q; [|apply nth_error_None in Q; lia]. apply nth_error_In with (n := id). rewrite (change_nth _ _ _ _ Q). destruct (ps n); reflexivity. }
  destruct ASK as (A1 & A2). assert (OFF : 0 <= aOff a * aDamp a) by (apply Rmult_le_pos; lra). rewrite <- O4 in HD.
  destruct (Rlt_dec (ax (ipAt (ps n)) i) (lowI a i)) as [L|L]; [|destruct (Rlt_dec (highI a i) (ax (ipAt (ps n)) i)) as [G|G]].
  - assert (Z : nearLow a (ps n) i) by (split; [apply IHn|exact L]). specialize (A1 Z). specialize (MOVE n (or_introl Z)). unfold fovAsk in A1.
    pose proof (pull_back (ax (ipAt (ps n)) i - lowS a i) (aDamp a) (lowI a i - lowS a i)) as P. lra.
  - assert (Z : nearHigh a (ps n) i) by (split; [exact G|apply IHn]). specialize (A2 Z). specialize (MOVE n (or_intror Z)). unfold fovAsk in A2.
    pose proof (pull_back (highS a i - ax (ipAt (ps n)) i) (aDamp a) (highS a i - highI a i)) as P. lra.
  - lra.
Qed.
End Fov.

(** Registry and description. *)
Lemma imDescLoop_val : forall l line cur i, imDescLoop line cur i l = if (cur <=? line)%nat then match nth_error l ((line - cur) / 2) with Some p => Some ((i + (line - cur) / 2)%nat, ((line - cur) mod 2)%nat, ipAt p) | None => None end else None.
Proof.
  induction l as [|p l IH]; intros line cur i; cbn [imDescLoop].
  - destruct (cur <=? line)%nat; [|reflexivity]. destruct ((line - cur) / 2)%nat; reflexivity.
  - destruct (Nat.eqb cur line) eqn:E1.
    + apply Nat.eqb_eq in E1. subst. rewrite Nat.leb_refl, Nat.sub_diag. cbn. rewrite Nat.add_0_r. reflexivity.
    + apply Nat.eqb_neq in E1. destruct (Nat.eqb (S cur) line) eqn:E2.
      * apply Nat.eqb_eq in E2. subst. rewrite (proj2 (Nat.leb_le _ _)) by lia. replace (S cur - cur)%nat with 1%nat by lia. cbn. rewrite Nat.add_0_r. reflexivity.
      * apply Nat.eqb_neq in E2. rewrite IH. destruct (cur <=? line)%nat eqn:E3.
        -- apply Nat.leb_le in E3. rewrite (proj2 (Nat.leb_le _ _)) by lia. replace (line - cur)%nat with ((line - S (S cur)) + 1 * 2)%nat by lia. rewrite Nat.div_add, Nat.mod_add by lia.
           rewrite Nat.add_1_r. cbn [nth_error]. replace (i + S ((line - S (S cur)) / 2))%nat with (S i + (line - S (S cur)) / 2)%nat by lia. reflexivity.
        -- apply Nat.leb_gt in E3. rewrite (proj2 (Nat.leb_gt _ _)) by lia. reflexivity.
Qed.
Lemma image_desc c line : imDesc c line = match nth_error (icPoints c) (line / 2) with Some p => Some ((line / 2)%nat, (line mod 2)%nat, ipAt p) | None => None end.
Proof. unfold imDesc. rewrite imDescLoop_val. cbn [Nat.leb]. rewrite Nat.sub_0_r. reflexivity. Qed.
Lemma image_registry F nm mbs r body step dir ops c0 c : newImage nm mbs r body step dir = Ok c0 -> iRun F nm mbs c0 ops = Ok c ->
  icPoints c = pointsAfter ops /\ icRob c = robAfter ops /\ iqMax (imInEq c) = (2 * (length (pointsAfter ops) + length (robAfter ops)))%nat /\
  (forall p z, snd (imAdd2 p z c) = length (pointsAfter ops)) /\ (forall id p z, (exists c', imMove2 id p z c = Ok c') <-> (id < length (pointsAfter ops))%nat).
Proof.
  intros H0 H. destruct (i_new _ _ _ _ _ _ _ H0) as (I0 & _). destruct (i_run _ _ _ _ _ _ _ _ _ _ _ _ _ I0 H) as (_ & _ & _ & _ & I5 & I6 & _).
  fold (pointsAfter ops) in I5. fold (robAfter ops) in I6. split; [exact I5|]. split; [exact I6|]. split; [cbn [imInEq iqMax]; unfold imMax; rewrite I5, I6; reflexivity|].
  split; [intros; cbn; rewrite I5; reflexivity|]. intros id p z. rewrite <- I5. split.
  - intros (c' & E). unfold imMove2 in E. apply bind_Ok in E as (l & E & _). apply putAt_change in E as (E & _). exact E.
  - intros L. unfold imMove2. destruct (putAt_def (fun _ => mkIP p z) _ _ L) as (l & E). rewrite E. cbn. eauto.
Qed.
Lemma still_ok F nm mbs r body d step ops a c K c' x : iReaches F nm mbs r body d step 1 ops a c -> limOk a -> imUpdate F mbs K c = Ok c' -> 0 <= aDamp a -> aOff a = 0 ->
  (forall p i, In p (pointsAfter ops) -> (i < 2)%nat -> moved F nm mbs r body d step K p x i = 0) -> holdsIneq (sdNrVars d) x (imInEq c').
Proof.
  intros HR HL U HD HO HM. apply (fov_all _ _ _ _ _ _ _ _ _ _ _ _ HR HL U x). intros p i Hp Hi. rewrite (HM p i Hp Hi). destruct (fov_order a i HL Hi) as (O1 & O2 & O3 & _). unfold nearLow, nearHigh, fovAsk. rewrite HO.
  split; intros (N1 & N2).
  - assert (0 <= aDamp a * ((ax (ipAt p) i - lowS a i) / (lowI a i - lowS a i))); [|lra]. apply Rmult_le_pos; [exact HD|]. apply Rlt_le, Rdiv_lt_0_compat; lra.
  - assert (0 <= aDamp a * ((highS a i - ax (ipAt p) i) / (highS a i - highI a i))); [|lra]. apply Rmult_le_pos; [exact HD|]. apply Rlt_le, Rdiv_lt_0_compat; lra.
Qed.
