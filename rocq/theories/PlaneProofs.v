(** Proofs about the planes for the centre of mass. *)
From Verif Require Export PlaneSpec CollisionProofs.
Open Scope list_scope.
Open Scope R_scope.
Local Arguments sumn : simpl never.

Definition snocK (K : ckin) (ph : planeSpec * list ckin) : planeSpec * list ckin := (fst ph, snd ph ++ [K]).
Definition relP (ph : planeSpec * list ckin) (q : plane) : Prop :=
  pnS q = fst ph /\ (forall hs K, snd ph = hs ++ [K] -> pnDist q = plDist (fst ph) K) /\
  match pnType q with
  | DHard => 0 < plDamping (fst ph) /\ pnDamping q = plDamping (fst ph)
  | DSoft => plDamping (fst ph) <= 0 /\ exists K, entered (within (fst ph)) (snd ph) K /\ pnDamping q = plEntry (fst ph) K
  | DFree => plDamping (fst ph) <= 0 /\ (snd ph = [] \/ exists K pre, snd ph = pre ++ [K] /\ ~ within (fst ph) K)
  end.
Lemma relP_new p : relP (p, []) (mkPlane p 0 (plDamping p) (if Rltb 0 (plDamping p) then DHard else DFree)).
Proof.
  split; [reflexivity|]. split; [intros hs K E; destruct hs; discriminate|]. cbn [pnType fst snd pnDamping]. destruct (Rltb 0 (plDamping p)) eqn:E.
  - apply Rltb_true in E. auto.
  - apply Rltb_false in E. auto.
Qed.

(** A plane out of its zone. *)
Lemma relP_out K ph q : relP ph q -> ~ within (fst ph) K ->
  relP (snocK K ph) (mkPlane (pnS q) (plDist (fst ph) K) (pnDamping q) (match pnType q with DSoft => DFree | ty => ty end)).
Proof.
  intros (E & _ & T) N. split; [exact E|]. split; [intros hs K' H; apply app_inj_tail in H as (_ & <-); reflexivity|].
  cbn [pnType pnDamping snocK fst snd]. destruct (pnType q); [exact T| |].
  - destruct T as (T & _). split; [exact T|]. right. eauto.
  - destruct T as (T & _). split; [exact T|]. right. eauto.
Qed.
(** A plane in its zone: the damping is the one in force, whether it was there before or not. *)
Lemma relP_in K ph q k ty : relP ph q -> within (fst ph) K ->
  plDamp (mkPlane (pnS q) (plDist (fst ph) K) (pnDamping q) (pnType q)) (plRate (fst ph) K) = Ok (k, ty) ->
  relP (snocK K ph) (mkPlane (pnS q) (plDist (fst ph) K) k ty) /\ plForce (fst ph) (snd ph ++ [K]) k.
Proof.
  intros (E & _ & T) W H. unfold plDamp in H. cbn [pnType pnS pnDist pnDamping] in H.
  destruct (pnType q).
  - injection H as <- <-. destruct T as (T1 & T2). split; [|left; rewrite T2; auto].
    split; [exact E|]. split; [intros hs K' H; apply app_inj_tail in H as (_ & <-); reflexivity|]. cbn. auto.
  - injection H as <- <-. destruct T as (T1 & K0 & T2 & T3). assert (EN : entered (within (fst ph)) (snd ph ++ [K]) K0) by (apply entered_stay; auto).
    split; [|right; split; [auto|]; exists K0; rewrite T3; auto].
    split; [exact E|]. split; [intros hs K' H; apply app_inj_tail in H as (_ & <-); reflexivity|]. cbn. split; [auto|]. exists K0. auto.
  - apply bind_Ok in H as (u & _ & H). injection H as <- <-. destruct T as (T1 & T2).
    assert (EN : entered (within (fst ph)) (snd ph ++ [K]) K) by (apply entered_now; auto; destruct T2 as [T2|(K1 & pre & T2 & T3)]; eauto).
    assert (EQ : - ((plDi (pnS q) - plDs (pnS q)) / ((if Rle_dec (plDist (fst ph) K) (plDs (pnS q)) then plDs (pnS q) + (plDi (pnS q) - plDs (pnS q)) * (2 / 10) else plDist (fst ph) K) - plDs (pnS q))) * plRate (fst ph) K + plOff (pnS q) = plEntry (fst ph) K).
    { rewrite E. unfold plEntry. destruct (Rle_dec _ _); [|reflexivity]. replace (plDs (fst ph) + (plDi (fst ph) - plDs (fst ph)) * (2 / 10) - plDs (fst ph)) with ((plDi (fst ph) - plDs (fst ph)) * (2 / 10)) by ring. reflexivity. }
    split; [|right; split; [auto|]; exists K; split; [auto|exact EQ]].
    split; [exact E|]. split; [intros hs K' H; apply app_inj_tail in H as (_ & <-); reflexivity|]. cbn [pnType pnDamping snocK fst snd]. split; [auto|]. exists K. split; [auto|exact EQ].
Qed.
Lemma plDamp_def K ph q : relP ph q -> within (fst ph) K -> plDi (fst ph) <> plDs (fst ph) ->
  exists k ty, plDamp (mkPlane (pnS q) (plDist (fst ph) K) (pnDamping q) (pnType q)) (plRate (fst ph) K) = Ok (k, ty).
Proof.
  intros (E & _) W D. unfold plDamp. cbn [pnType pnS pnDist pnDamping]. destruct (pnType q); [eauto|eauto|]. rewrite E.
  match goal with |- context [Reqb ?a 0] => assert (N : Reqb a 0 = false) end.
  { apply Reqb_false. destruct (Rle_dec _ _) as [L|L]; [intros X; apply D; lra|lra]. }
  rewrite N. cbn [negb guard bind]. eauto.
Qed.

Lemma vec_at_mid {A} (pre : list A) a l : vec_at (pre ++ a :: l) (length pre) = Ok a.
Proof. unfold vec_at. rewrite nth_error_app2 by lia. rewrite Nat.sub_diag. reflexivity. Qed.
Lemma setAt_mid {A} (pre : list A) a b l : setAt (length pre) b (pre ++ a :: l) = pre ++ b :: l.
Proof. induction pre; simpl; congruence. Qed.

Lemma vput_at {A} (v v' : vec A) i a : vput v i a = Ok v' -> (i < vlen v)%nat /\ vlen v' = vlen v /\ forall j, vget v' j = if Nat.eqb j i then a else vget v j.
Proof. unfold vput. destruct (i <? vlen v)%nat eqn:E; [|discriminate]. apply Nat.ltb_lt in E. intros H; injection H as <-. auto. Qed.
Lemma vput_def' {A} (v : vec A) i a : (i < vlen v)%nat -> exists v', vput v i a = Ok v'.
Proof. unfold vput. intros E. apply Nat.ltb_lt in E. rewrite E. eauto. Qed.

Section Rows.
Variables (K : ckin) (dof : nat) (step : R) (sel : vec R).
Definition coefOf (p : planeSpec) (j : nat) : R := - sumn 3 (fun m => step * v3get (plN p) m * ckJac K m j) * vget sel j.
Definition rhsOf (p : planeSpec) (xi : R) : R :=
  xi * ((plDist p K - plDs p) / (plDi p - plDs p)) + plRate p K + step * (dot (plN p) (ckNAcc K) + dot (plNDot p) (vsub (ckVel K) (plSpeed p))).
(** One activated plane. *)
Lemma rows_one beg act pre ph q l2 nr A B r : relP ph q -> within (fst ph) K ->
  plRows K dof beg step sel (length pre :: act) (pre ++ mkPlane (pnS q) (plDist (fst ph) K) (pnDamping q) (pnType q) :: l2) nr A B = Ok r ->
  exists q' k b A' B', relP (snocK K ph) q' /\ pnDamping q' = k /\ plForce (fst ph) (snd ph ++ [K]) k /\ beg = Some b /\
    mset_block A nr b (mkMat 1 dof (fun _ j => coefOf (fst ph) j)) = Ok A' /\ vput B nr (rhsOf (fst ph) k) = Ok B' /\
    plRows K dof beg step sel act ((pre ++ [q']) ++ l2) (S nr) A' B' = Ok r.
Proof.
  intros RL W H. cbn [plRows] in H. rewrite vec_at_mid in H. cbn [bind pnS pnDist] in H. apply bind_Ok in H as ((k & ty) & HK & H).
  apply bind_Ok in H as (u & _ & H). apply bind_Ok in H as (b & HB & H). apply bind_Ok in H as (A' & HA & H). apply bind_Ok in H as (B' & HV & H).
  rewrite setAt_mid in H. assert (E := proj1 RL). rewrite E in HK at 2.  rewrite E in HK at 2. fold (plRate (fst ph) K) in HK.
  destruct (relP_in K ph q k ty RL W HK) as (R1 & R2). exists (mkPlane (pnS q) (plDist (fst ph) K) k ty), k, b, A', B'.
  split; [exact R1|]. split; [reflexivity|]. split; [exact R2|]. split; [destruct beg; [congruence|discriminate]|].
  rewrite E in HA, HV. split; [exact HA|]. split; [exact HV|]. rewrite <- app_assoc. exact H.
Qed.

Lemma scan_step i q l : plScan (ckCom K) i (q :: l) =
  let (l2, act) := plScan (ckCom K) (S i) l in
  if withinb (pnS q) K then (mkPlane (pnS q) (plDist (pnS q) K) (pnDamping q) (pnType q) :: l2, i :: act)
  else (mkPlane (pnS q) (plDist (pnS q) K) (pnDamping q) (match pnType q with DSoft => DFree | ty => ty end) :: l2, act).
Proof. reflexivity. Qed.

Definition rowSpec (beg : option nat) (nr : nat) (A' : mat) (B' : vec R) (k : nat) (ph : planeSpec * list ckin) (q : plane) : Prop :=
  relP (snocK K ph) q /\ plForce (fst ph) (snd ph ++ [K]) (pnDamping q) /\ vget B' (nr + k)%nat = rhsOf (fst ph) (pnDamping q) /\ exists b, beg = Some b /\ forall j, (j < dof)%nat -> mget A' (nr + k)%nat (b + j)%nat = coefOf (fst ph) j.

Lemma rows_all beg : forall l ps pre nr A B l2 act lf nr' A' B', plScan (ckCom K) (length pre) l = (l2, act) -> Forall2 relP ps l ->
  plRows K dof beg step sel act (pre ++ l2) nr A B = Ok (lf, nr', A', B') ->
  exists l3, lf = pre ++ l3 /\ Forall2 relP (map (snocK K) ps) l3 /\ nr' = (nr + length (withinPlanes K ps))%nat /\
    mrows A' = mrows A /\ mcols A' = mcols A /\ vlen B' = vlen B /\
    (forall i, (i < nr)%nat -> vget B' i = vget B i /\ forall j, mget A' i j = mget A i j) /\
    (forall i j, (forall b, beg = Some b -> ~ (b <= j < b + dof)%nat) -> mget A' i j = mget A i j) /\
    (forall k ph, nth_error (withinPlanes K ps) k = Some ph -> exists q, nth_error (filter (fun q => withinb (pnS q) K) l3) k = Some q /\ rowSpec beg nr A' B' k ph q).
Proof.
  induction l as [|q l IH]; intros ps pre nr A B l2 act lf nr' A' B' SC F H.
  - inversion F; subst. simpl in SC. injection SC as <- <-. cbn [plRows] in H. injection H as <- <- <- <-. exists []. split; [reflexivity|]. split; [constructor|].
    simpl. split; [lia|]. repeat (split; [solve [auto]|]). intros k ph X. destruct k; discriminate.
  - inversion F as [|ph ? ps' ? RL F']; subst. rewrite scan_step in SC. destruct (plScan (ckCom K) (S (length pre)) l) as (l2' & act') eqn:SC'.
    assert (E := proj1 RL). destruct (withinb (pnS q) K) eqn:W.
    + injection SC as <- <-. rewrite E in W. assert (W' : within (fst ph) K) by (apply Rleb_true in W; exact W).
      rewrite E in H at 2.
      apply rows_one with (ph := ph) in H as (q' & k & b & A1 & B1 & RQ & Dk & FC & BG & HA & HB & H); auto.
      assert (LP : length (pre ++ [q']) = S (length pre)) by (rewrite app_length; simpl; lia). rewrite <- LP in SC'.
      destruct (IH ps' (pre ++ [q']) (S nr) A1 B1 l2' act' lf nr' A' B' SC' F' H) as (l3 & L & F3 & N & D1 & D2 & D3 & LOW & OUT & ROWS).
      apply mset_block_Ok in HA as (_ & _ & M1 & M2 & M3). cbn [mrows mcols mget] in M3. apply vput_at in HB as (_ & V1 & V2).
      assert (EQ' := proj1 RQ). cbn [snocK fst] in EQ'.
      exists (q' :: l3). split; [rewrite L, <- app_assoc; reflexivity|]. split; [simpl; constructor; auto|].
      unfold withinPlanes in *. cbn [filter fst]. rewrite W. cbn [length]. split; [lia|]. split; [congruence|]. split; [congruence|]. split; [congruence|].
      split.
      { intros i Hi. destruct (LOW i) as (X1 & X2); [lia|]. split.
        - rewrite X1, V2. replace (Nat.eqb i nr) with false by (symmetry; apply Nat.eqb_neq; lia). reflexivity.
        - intros j. rewrite X2, M3. replace (inr nr 1 i) with false by (symmetry; apply inr_false; lia). reflexivity. }
      split.
      { intros i j Hj. rewrite OUT, M3 by auto. replace (inr b dof j) with false by (symmetry; apply inr_false; apply Hj; auto). rewrite andb_false_r. reflexivity. }
      intros m ph' X. rewrite EQ', W. destruct m as [|m]; cbn [nth_error] in *.
      * injection X as <-. exists q'. split; [reflexivity|]. destruct (LOW nr) as (X1 & X2); [lia|]. split; [exact RQ|]. rewrite Dk. split; [exact FC|]. rewrite Nat.add_0_r. split.
        -- rewrite X1, V2, Nat.eqb_refl. reflexivity.
        -- exists b. split; [exact BG|]. intros j Hj. rewrite X2, M3. replace (inr nr 1 nr) with true by (symmetry; apply inr_true; lia).
           replace (inr b dof (b + j)) with true by (symmetry; apply inr_true; lia). cbn [andb]. f_equal. lia.
      * destruct (ROWS m ph' X) as (q2 & N2 & RS). exists q2. split; [exact N2|]. unfold rowSpec in *. replace (nr + S m)%nat with (S nr + m)%nat by lia. exact RS.
    + injection SC as <- <-. rewrite E in W. assert (W' : ~ within (fst ph) K) by (apply Rleb_false in W; unfold within; lra).
      set (q' := mkPlane (pnS q) (plDist (pnS q) K) (pnDamping q) (match pnType q with DSoft => DFree | ty => ty end)) in *.
      assert (RQ : relP (snocK K ph) q') by (unfold q'; rewrite E at 2; apply relP_out; auto).
      assert (LP : length (pre ++ [q']) = S (length pre)) by (rewrite app_length; simpl; lia). rewrite <- LP in SC'.
      replace (pre ++ q' :: l2') with ((pre ++ [q']) ++ l2') in H by (rewrite <- app_assoc; reflexivity).
      destruct (IH ps' (pre ++ [q']) nr A B l2' act' lf nr' A' B' SC' F' H) as (l3 & L & F3 & N & D1 & D2 & D3 & LOW & OUT & ROWS).
      exists (q' :: l3). split; [rewrite L, <- app_assoc; reflexivity|]. split; [simpl; constructor; auto|].
      unfold withinPlanes in *. cbn [filter fst]. rewrite W. assert (EQ' := proj1 RQ). cbn [snocK fst] in EQ'. rewrite EQ', W. repeat (split; [assumption|]). exact ROWS.
Qed.

Lemma rows_def b : forall l ps pre nr A B l2 act, plScan (ckCom K) (length pre) l = (l2, act) -> Forall2 relP ps l -> plSound ps ->
  (nr + length (withinPlanes K ps) <= mrows A)%nat -> mrows A = vlen B -> (b + dof <= mcols A)%nat ->
  exists r, plRows K dof (Some b) step sel act (pre ++ l2) nr A B = Ok r.
Proof.
  induction l as [|q l IH]; intros ps pre nr A B l2 act SC F SO RM RV CM.
  - simpl in SC. injection SC as <- <-. simpl. eauto.
  - inversion F as [|ph ? ps' ? RL F']; subst. inversion SO as [|? ? SO1 SO2]; subst. rewrite scan_step in SC. destruct (plScan (ckCom K) (S (length pre)) l) as (l2' & act') eqn:SC'.
    assert (E := proj1 RL). destruct q as [s0 d0 k0 ty0]. cbn [pnS] in *. subst s0. cbn [pnType pnDamping] in *. unfold withinPlanes in RM. cbn [filter] in RM. destruct (withinb (fst ph) K) eqn:W.
    + injection SC as <- <-. assert (W' : within (fst ph) K) by (apply Rleb_true in W; exact W). cbn [length] in RM.
      destruct (plDamp_def K ph _ RL W' SO1) as (k & ty & HK). cbn [pnS pnDamping pnType] in HK. cbn [plRows]. rewrite vec_at_mid. cbn [bind pnS pnDist].
      fold (plRate (fst ph) K). rewrite HK. cbn [bind].
      rewrite (proj2 (Reqb_false _ _)) by lra. cbn [negb guard bind].
      match goal with |- context [mset_block A nr b ?M] => destruct (mset_block_def A nr b M) as (A1 & HA); [cbn [mrows]; lia|cbn [mcols]; lia|] end. rewrite HA. cbn [bind].
      match goal with |- context [vput B nr ?M] => destruct (vput_def' B nr M) as (B1 & HB); [lia|] end. rewrite HB. cbn [bind]. rewrite setAt_mid.
      apply mset_block_Ok in HA as (_ & _ & M1 & M2 & _). apply vput_at in HB as (_ & V1 & _).
      match goal with |- context [pre ++ ?a :: l2'] => set (q' := a) in * end.
      assert (LP : length (pre ++ [q']) = S (length pre)) by (rewrite app_length; simpl; lia). rewrite <- LP in SC'.
      replace (pre ++ q' :: l2') with ((pre ++ [q']) ++ l2') by (rewrite <- app_assoc; reflexivity).
      apply (IH ps'); auto; unfold withinPlanes; try lia.
    + injection SC as <- <-.
      match goal with |- context [pre ++ ?a :: l2'] => set (q' := a) in * end.
      assert (LP : length (pre ++ [q']) = S (length pre)) by (rewrite app_length; simpl; lia). rewrite <- LP in SC'.
      replace (pre ++ q' :: l2') with ((pre ++ [q']) ++ l2') by (rewrite <- app_assoc; reflexivity).
      apply (IH ps'); auto.
Qed.
End Rows.
