(** Proofs about the motion constraints: meaning of the rows. *)
From Verif Require Export MotionSpec ContactLinesProofs.
Open Scope R_scope.
Local Arguments sumn : simpl never.

Definition delta (j k : nat) : R := if Nat.eqb k j then 1 else 0.

Lemma genForce_jacDot mb p bj F j : genForce mb p bj F j = jacDot mb p (fun c => power F (bj c)) (delta j).
Proof. unfold genForce, jacDot, delta. apply sumn_ext. intros c _. destruct (_ =? _)%nat; ring. Qed.

Fixpoint pforce (mb : multibody) (path : list nat) (bj : nat -> Spatial) (pts : list V3) (mins : list (list V3)) (y : nat -> R) (i : nat) : R :=
  match pts, mins with
  | p :: pts', g :: mins' =>
    sumn (length g) (fun q => jacDot mb path (fun c => dot (nth q g v0) (linr (pt_mulM (pt_trans p) (bj c)))) (delta i) * y q)
    + pforce mb path bj pts' mins' (fun q => y (length g + q)%nat) i
  | _, _ => 0
  end.

Lemma sumn_cons n f : sumn (S n) f = f 0%nat + sumn n (fun i => f (S i)).
Proof. change (S n) with (1 + n)%nat. rewrite sumn_split. f_equal. unfold sumn. ring. Qed.
Lemma sumn_3 f : sumn 3 f = f 0%nat + f 1%nat + f 2%nat.
Proof. unfold sumn. ring. Qed.
Lemma dot_comb g y v : dot (comb g y) v = sumn (length g) (fun q => dot (nth q g v0) v * y q).
Proof.
  revert y; induction g as [|a g IH]; intros y; [unfold sumn; simpl; v3unf; ring|].
  simpl length. rewrite sumn_cons. simpl. rewrite <- (IH (fun i => y (S i))). v3unf. ring.
Qed.
Lemma power_point p f m : power (pointWrench p f) m = dot f (linr (pt_mulM (pt_trans p) m)).
Proof. destruct p, f, m as [[] []]. unfold power, pointWrench, pt_mulM, pt_trans; simpl. v3unf. ring. Qed.
Lemma power_add F G m : power (sp_add F G) m = power F m + power G m.
Proof. unfold power; simpl. v3unf. ring. Qed.
Lemma forces_shift ks lam : forall n pos, forces ks lam (n + pos) = forces ks (fun q => lam (n + q)%nat) pos.
Proof.
  induction ks as [|k ks IH]; intros n pos; [reflexivity|]. simpl. f_equal.
  - apply comb_ext. intros i _. f_equal. lia.
  - rewrite <- IH. f_equal. lia.
Qed.

Lemma pforce_wrench mb path bj : forall pts cones y i, length pts = length cones ->
  pforce mb path bj pts (map (fun k => map vneg (generators k)) cones) y i
  = - genForce mb path bj (wsum pts (forces cones y 0)) i.
Proof.
  induction pts as [|p pts IH]; intros [|k ks] y i H; try discriminate.
  - simpl. rewrite genForce_jacDot. unfold jacDot. rewrite sumn_0; [ring|]. intros c _. unfold power; simpl. v3unf. ring.
  - simpl. rewrite map_length, IH by (simpl in H; lia).
    rewrite !genForce_jacDot.
    rewrite (jacDot_ext mb path (fun c => power (sp_add _ _) (bj c))
               (fun c => dot (comb (generators k) y) (linr (pt_mulM (pt_trans p) (bj c)))
                         + power (wsum pts (forces ks (fun q => y (length (generators k) + q)%nat) 0)) (bj c)) (delta i) (delta i)); [|intros c _|auto].
    2:{ rewrite power_add, power_point. f_equal. f_equal. f_equal.
        rewrite <- forces_shift, Nat.add_0_r. reflexivity. }
    rewrite jacDot_plus.
    rewrite (jacDot_ext mb path (fun c => dot (comb _ _) _) (fun c => sumn (length (generators k)) (fun q => y q * dot (nth q (generators k) v0) (linr (pt_mulM (pt_trans p) (bj c)))))
               (delta i) (delta i)); [|intros c _|auto].
    2:{ rewrite dot_comb. apply sumn_ext. intros; ring. }
    rewrite jacDot_sumn, Ropp_plus_distr. f_equal. rewrite <- sumn_opp. apply sumn_ext. intros q Hq.
    rewrite jacDot_scal. rewrite (jacDot_ext mb path _ (fun c => (-1) * dot (nth q (generators k) v0) (linr (pt_mulM (pt_trans p) (bj c)))) (delta i) (delta i)); [|intros c _|auto].
    + rewrite jacDot_scal. ring.
    + rewrite (nth_indep (map vneg (generators k)) v0 (vneg v0)) by (rewrite map_length; auto). rewrite map_nth. change (linr (pt_mulM (pt_trans p) (bj c))) with (m3mulv m3id (vsub (linr (bj c)) (cross p (ang (bj c))))).

      generalize (m3mulv m3id (vsub (linr (bj c)) (cross p (ang (bj c))))) (nth q (generators k) v0). intros u w. unfold dot, vneg; simpl. ring.
Qed.

Lemma pointLoop_spec n mb path bj : wfPath mb path -> nrDof mb = n ->
  forall pts mins col jt jl full A,
  length pts = length mins -> mrows jt = 6%nat -> (pathDof mb path <= mcols jt)%nat ->
  (sumnat (map (@length V3) mins) <= mrows jl)%nat -> (pathDof mb path <= mcols jl)%nat ->
  (sumnat (map (@length V3) mins) <= mrows full)%nat -> (n <= mcols full)%nat ->
  mrows A = n -> (col + sumnat (map (@length V3) mins) <= mcols A)%nat ->
  exists jt' jl' full' A', pointLoop n mb path bj col pts mins jt jl full A = Ok (jt', jl', full', A') /\
    mrows jt' = mrows jt /\ mcols jt' = mcols jt /\ mrows jl' = mrows jl /\ mcols jl' = mcols jl /\
    mrows full' = mrows full /\ mcols full' = mcols full /\ mrows A' = mrows A /\ mcols A' = mcols A /\
    (forall i j, ~ (i < n /\ col <= j < col + sumnat (map (@length V3) mins))%nat -> mget A' i j = mget A i j) /\
    (forall i y, (i < n)%nat -> sumn (sumnat (map (@length V3) mins)) (fun q => mget A' i (col + q)%nat * y q) = pforce mb path bj pts mins y i).
Proof.
  intros WP HN. induction pts as [|p pts IH]; intros [|g mins] col jt jl full A HL J6 Jc Lr Lc Fr Fc Ar Ac; try discriminate.
  - simpl. exists jt, jl, full, A. repeat (split; [auto|]). intros i y Hi. unfold sumn. reflexivity.
  - simpl in HL, Lr, Fr, Ac. injection HL as HL.
    cbn [pointLoop].
    destruct (mset_block_def jt 0 0 (mkMat 6 (pathDof mb path) (fun i c => spGet (pt_mulM (pt_trans p) (bj c)) i))) as (jt1 & E1); [simpl; lia|simpl; lia|].
    rewrite E1. cbn [bind]. apply mset_block_Ok in E1 as (_ & _ & D1 & D2 & D3). cbn [mrows mcols mget] in D3.
    destruct (mblock_def jt1 3 0 3 (pathDof mb path)) as (lin & E2); [lia|lia|].
    rewrite E2. cbn [bind]. apply mblock_Ok in E2 as (_ & _ & B1 & B2 & B3).
    destruct (mmul_def (mkMat (length g) 3 (fun i l => v3get (nth i g v0) l)) lin) as (GJ & E3); [simpl; lia|].
    rewrite E3. cbn [bind]. apply mmul_Ok in E3 as (_ & G1 & G2 & G3). cbn [mrows mcols mget] in G1, G3.
    destruct (mset_block_def jl 0 0 GJ) as (jl1 & E4); [lia|lia|].
    rewrite E4. cbn [bind]. apply mset_block_Ok in E4 as (_ & _ & L1 & L2 & L3).
    destruct (mblock_def jl1 0 0 (length g) (pathDof mb path)) as (small & E5); [lia|lia|].
    rewrite E5. cbn [bind]. apply mblock_Ok in E5 as (_ & _ & S1 & S2 & S3).
    destruct (fullJacobian_spec mb path small full) as (full1 & E6 & F1 & F2 & _ & F4); [auto|lia|lia|lia|].
    rewrite E6. cbn [bind].
    destruct (mblock_def full1 0 0 (length g) n) as (fb & E7); [lia|lia|].
    rewrite E7. cbn [bind]. apply mblock_Ok in E7 as (_ & _ & K1 & K2 & K3).
    destruct (mset_block_def A 0 col (mtrans fb)) as (A1 & E8); [simpl; lia|simpl; lia|].
    rewrite E8. cbn [bind]. apply mset_block_Ok in E8 as (_ & _ & A2 & A3 & A4). cbn [mrows mcols mget mtrans] in A4.
    destruct (IH mins (col + length g)%nat jt1 jl1 full1 A1) as (jt' & jl' & full' & A' & E & T1 & T2 & T3 & T4 & T5 & T6 & T7 & T8 & U1 & U2); auto; try lia.
    rewrite E. exists jt', jl', full', A'. split; [reflexivity|].
    repeat (split; [congruence|]). split.
    + intros i j H. cbn [map sumnat] in H. rewrite U1 by lia. rewrite A4.
      replace (inr 0 (mcols fb) i && inr col (mrows fb) j)%bool with false; [auto|]. symmetry. apply andb_false_iff.
      destruct (Nat.lt_ge_cases i n); [right; apply inr_false; lia|left; apply inr_false; lia].
    + intros i y Hi. cbn [map sumnat pforce]. rewrite sumn_split. f_equal.
      * apply sumn_ext. intros q Hq. rewrite U1 by lia. rewrite A4.
        replace (inr 0 (mcols fb) i && inr col (mrows fb) (col + q))%bool with true
          by (symmetry; apply andb_true_iff; split; apply inr_true; lia).
        f_equal. rewrite K3. cbn [Nat.add]. replace (col + q - col)%nat with q by lia. rewrite Nat.sub_0_r.
        pose proof (F4 q (delta i)) as F5. rewrite S1 in F5. specialize (F5 Hq). rewrite HN in F5.
        rewrite (sumn_delta n i) in F5; [|auto|intros k _ Hk; unfold delta; apply Nat.eqb_neq in Hk; rewrite Hk; ring].
        unfold delta at 1 in F5. rewrite Nat.eqb_refl, Rmult_1_r in F5. rewrite F5. apply jacDot_ext; [|auto].
        intros c Hc. rewrite S3, L3. cbn [Nat.add].
        replace (inr 0 (mrows GJ) q && inr 0 (mcols GJ) c)%bool with true
          by (symmetry; apply andb_true_iff; split; apply inr_true; lia).
        rewrite !Nat.sub_0_r, G3, sumn_3, !B3, !D3. cbn [Nat.add].
        assert (I : forall k, (k < 6)%nat -> (inr 0 6 k && inr 0 (pathDof mb path) c)%bool = true)
          by (intros; apply andb_true_iff; split; apply inr_true; lia).
        rewrite !I by lia. rewrite !Nat.sub_0_r. unfold dot. cbn. ring.
      * rewrite <- (U2 i (fun q => y (length g + q)%nat) Hi). apply sumn_ext. intros q _. rewrite Nat.add_assoc. reflexivity.
Qed.

Lemma newSide_Ok nm r body lam pts cones s : newSide nm r body lam pts cones = Ok s ->
  exists p, nPath nm r body = Ok p /\ s = mkMS lam p pts (map (fun k => map vneg (generators k)) cones).
Proof.
  unfold newSide. intros H. apply bind_Ok in H as (p & H1 & H). apply bind_Ok in H as (u & _ & H). injection H as <-. eauto.
Qed.
Lemma sideMatrix_app n mb bj l1 l2 jt jl full A :
  sideMatrix n mb bj (l1 ++ l2) jt jl full A =
  do (jt', jl', full', A') <- sideMatrix n mb bj l1 jt jl full A; sideMatrix n mb bj l2 jt' jl' full' A'.
Proof.
  revert jt jl full A; induction l1 as [|s l1 IH]; intros jt jl full A; [reflexivity|]. simpl.
  destruct (pointLoop _ _ _ _ _ _ _ _ _ _ _) as [[[[a b] c] e]| |]; simpl; auto.
Qed.

(** Columns of the contacts without a side on the robot stay zero. *)
Fixpoint quiet (r n : nat) (cs : list bilateral) (cum : nat) (A : mat) : Prop :=
  match cs with
  | [] => True
  | c :: cs' => (lastHeldBy r c = [] -> forall i q, (i < n)%nat -> (q < biLambdaCount c)%nat -> mget A i (cum + q)%nat = 0)
                /\ quiet r n cs' (cum + biLambdaCount c) A
  end.
Definition total (cs : list bilateral) : nat := sumnat (map biLambdaCount cs).
Lemma quiet_ext r n cs : forall cum A A',
  (forall i j, (i < n)%nat -> (cum <= j < cum + total cs)%nat -> mget A' i j = mget A i j) -> quiet r n cs cum A -> quiet r n cs cum A'.
Proof.
  induction cs as [|c cs IH]; intros cum A A' H Q; [exact I|]. unfold total in *. simpl in *. destruct Q as (Q1 & Q2). split.
  - intros L i q Hi Hq. rewrite H by lia. auto.
  - apply (IH _ A); auto. intros i j Hi Hj. apply H; lia.
Qed.

Lemma wf_side1 c : wfBilateral c -> length (bR1Points c) = length (bR1Cones c) /\ sumnat (sizes (bR1Cones c)) = biLambdaCount c.
Proof.
  intros (H1 & H2 & H3 & H4). split; [auto|]. unfold biLambdaCount. rewrite firstn_all2 by lia. reflexivity.
Qed.
Lemma wf_side2 c : wfBilateral c -> length (bR2Points c) = length (bR2Cones c) /\ sumnat (sizes (bR2Cones c)) = biLambdaCount c.
Proof.
  intros W. destruct (wf_side1 c W) as (A & B). destruct W as (H1 & H2 & H3 & H4). split; [congruence|]. rewrite H4. auto.
Qed.

Definition mfits (n T : nat) (jt jl full A : mat) : Prop :=
  mrows jt = 6%nat /\ (n <= mcols jt)%nat /\ (T <= mrows jl)%nat /\ (n <= mcols jl)%nat /\
  (T <= mrows full)%nat /\ (n <= mcols full)%nat /\ mrows A = n.
Definition sameDims (A B : mat) : Prop := mrows A = mrows B /\ mcols A = mcols B.
Lemma map_gens_length cones : map (@length V3) (map (fun k => map vneg (generators k)) cones) = sizes cones.
Proof. rewrite map_map. unfold sizes. apply map_ext. intros. apply map_length. Qed.

(** One side of a contact: its columns hold minus the generalised forces. *)
Lemma oneSide nm r dy mb n body cum pts cones s jt jl full A cnt :
  newSide nm r body cum pts cones = Ok s -> (forall p, nPath nm r body = Ok p -> wfPath mb p) -> nrDof mb = n ->
  length pts = length cones -> sumnat (sizes cones) = cnt ->
  mfits n cnt jt jl full A -> (cum + cnt <= mcols A)%nat ->
  exists jt' jl' full' A', sideMatrix n mb (dBJ dy r) [s] jt jl full A = Ok (jt', jl', full', A') /\
    sameDims jt' jt /\ sameDims jl' jl /\ sameDims full' full /\ sameDims A' A /\
    (forall i j, ~ (i < n /\ cum <= j < cum + cnt)%nat -> mget A' i j = mget A i j) /\
    (forall i x, (i < n)%nat -> sumn cnt (fun q => mget A' i (cum + q)%nat * x (cum + q)%nat)
       = - contactForce nm dy mb r (fun q => x (cum + q)%nat) i [(body, pts, cones)]).
Proof.
  intros HS HW HN HL HC (M1 & M2 & M3 & M4 & M5 & M6 & M7) HA. apply newSide_Ok in HS as (p & Hp & ->).
  pose proof (HW p Hp) as WP. pose proof (pathDof_le mb p WP) as PD.
  destruct (pointLoop_spec n mb p (dBJ dy r p) WP HN pts (map (fun k => map vneg (generators k)) cones) cum jt jl full A)
    as (jt' & jl' & full' & A' & E & T1 & T2 & T3 & T4 & T5 & T6 & T7 & T8 & U1 & U2);
    rewrite ?map_length, ?map_gens_length; auto; try lia.
  rewrite map_gens_length, HC in U1, U2.
  exists jt', jl', full', A'. split; [simpl; rewrite E; reflexivity|].
  split; [split; auto|]. split; [split; auto|]. split; [split; auto|]. split; [split; auto|]. split; [auto|].
  intros i x Hi. rewrite (U2 i (fun q => x (cum + q)%nat) Hi), pforce_wrench by auto.
  unfold contactForce, sideForce, forceOn. simpl. rewrite Hp. ring.
Qed.

Lemma contactsMatrix nm r d dy mb n T : (forall body p, nPath nm r body = Ok p -> wfPath mb p) -> nrDof mb = n ->
  forall cs i cum l jt jl full A,
  sidesLoop nm r d cs i = Ok l ->
  (forall k c, nth_error cs k = Some c -> lambdaBeginAt d (i + k) = Ok (cum + total (firstn k cs))%nat) ->
  Forall wfBilateral cs -> (total cs <= T)%nat -> mfits n T jt jl full A -> (cum + total cs <= mcols A)%nat ->
  quiet r n cs cum A ->
  exists jt' jl' full' A', sideMatrix n mb (dBJ dy r) l jt jl full A = Ok (jt', jl', full', A') /\
    sameDims jt' jt /\ sameDims jl' jl /\ sameDims full' full /\ sameDims A' A /\
    (forall i j, ~ (i < n /\ cum <= j < cum + total cs)%nat -> mget A' i j = mget A i j) /\
    quiet r n cs cum A' /\
    (forall i x, (i < n)%nat -> sumn (total cs) (fun q => mget A' i (cum + q)%nat * x (cum + q)%nat)
       = - contactForces (lastHeldBy r) nm dy mb r cs cum x i).
Proof.
  intros HW HN. induction cs as [|c cs IH]; intros i cum l jt jl full A HL HB WF HT MF HA Q.
  - injection HL as <-. exists jt, jl, full, A. unfold sameDims. repeat (split; [auto|]). intros; simpl. unfold total, sumn; simpl. ring.
  - cbn [sidesLoop] in HL. apply bind_Ok in HL as (s1 & H1 & HL). apply bind_Ok in HL as (s2 & H2 & HL).
    apply bind_Ok in HL as (l' & H3 & HL). injection HL as <-.
    apply Forall_cons_iff in WF as (W & WF). destruct (wf_side1 c W) as (P1 & C1). destruct (wf_side2 c W) as (P2 & C2).
    assert (B0 : lambdaBeginAt d i = Ok cum).
    { pose proof (HB 0%nat c eq_refl) as X. rewrite Nat.add_0_r in X. cbv [total firstn map sumnat] in X. rewrite Nat.add_0_r in X. auto. }
    assert (TT : total (c :: cs) = (biLambdaCount c + total cs)%nat) by reflexivity.
    rewrite TT in *. destruct Q as (Q1 & Q2).
    assert (STEP : exists jt1 jl1 full1 A1, sideMatrix n mb (dBJ dy r) (s1 ++ s2) jt jl full A = Ok (jt1, jl1, full1, A1) /\
       sameDims jt1 jt /\ sameDims jl1 jl /\ sameDims full1 full /\ sameDims A1 A /\
       (forall i j, ~ (i < n /\ cum <= j < cum + biLambdaCount c)%nat -> mget A1 i j = mget A i j) /\
       (lastHeldBy r c = [] -> forall i q, (i < n)%nat -> (q < biLambdaCount c)%nat -> mget A1 i (cum + q)%nat = 0) /\
       (forall i x, (i < n)%nat -> sumn (biLambdaCount c) (fun q => mget A1 i (cum + q)%nat * x (cum + q)%nat)
          = - contactForce nm dy mb r (fun q => x (cum + q)%nat) i (lastHeldBy r c))).
    { rewrite sideMatrix_app. unfold lastHeldBy in Q1 |- *.
      destruct MF as (M1 & M2 & M3 & M4 & M5 & M6 & M7).
      destruct (Z.of_nat r =? r1Index (bId c))%Z eqn:R1.
      - rewrite B0 in H1. cbn [bind] in H1. apply bind_Ok in H1 as (t1 & H1 & X). injection X as <-.
        destruct (oneSide nm r dy mb n _ _ _ _ _ jt jl full A _ H1 (HW _) HN P1 C1)
          as (jt1 & jl1 & full1 & A1 & E & D1 & D2 & D3 & D4 & D5 & D6); [unfold mfits; repeat split; auto; lia|lia|].
        rewrite E. cbn [bind].
        destruct (Z.of_nat r =? r2Index (bId c))%Z eqn:R2.
        + rewrite B0 in H2. cbn [bind] in H2. apply bind_Ok in H2 as (t2 & H2 & X). injection X as <-.
          unfold sameDims in *.
          destruct (oneSide nm r dy mb n _ _ _ _ _ jt1 jl1 full1 A1 _ H2 (HW _) HN P2 C2)
            as (jt2 & jl2 & full2 & A2 & E' & D1' & D2' & D3' & D4' & D5' & D6'); [unfold mfits; repeat split; try lia|lia|].
          rewrite E'. unfold sameDims in *. exists jt2, jl2, full2, A2. split; [reflexivity|].
          split; [split; lia|]. split; [split; lia|]. split; [split; lia|]. split; [split; lia|].
          split; [|split; [discriminate|auto]].
          intros; rewrite D5', D5; auto.
        + injection H2 as <-. cbn [sideMatrix]. exists jt1, jl1, full1, A1. repeat (split; [solve [auto]|]). split; [discriminate|auto].
      - injection H1 as <-. cbn [sideMatrix bind].
        destruct (Z.of_nat r =? r2Index (bId c))%Z eqn:R2.
        + rewrite B0 in H2. cbn [bind] in H2. apply bind_Ok in H2 as (t2 & H2 & X). injection X as <-.
          destruct (oneSide nm r dy mb n _ _ _ _ _ jt jl full A _ H2 (HW _) HN P2 C2)
            as (jt1 & jl1 & full1 & A1 & E & D1 & D2 & D3 & D4 & D5 & D6); [unfold mfits; repeat split; auto; lia|lia|].
          rewrite E. exists jt1, jl1, full1, A1. repeat (split; [solve [auto]|]). split; [discriminate|auto].
        + injection H2 as <-. cbn [sideMatrix]. exists jt, jl, full, A. unfold sameDims. repeat (split; [auto|]).
          intros i0 x Hi. unfold contactForce; simpl. rewrite sumn_0; [ring|]. intros q Hq. rewrite Q1 by auto. ring. }
    destruct STEP as (jt1 & jl1 & full1 & A1 & E & D1 & D2 & D3 & D4 & D5 & D6 & D7).
    rewrite app_assoc, sideMatrix_app, E. cbn [bind].
    destruct MF as (M1 & M2 & M3 & M4 & M5 & M6 & M7). unfold sameDims in *.
    destruct (IH (S i) (cum + biLambdaCount c)%nat l' jt1 jl1 full1 A1) as (jt' & jl' & full' & A' & E' & F1 & F2 & F3 & F4 & F5 & F6 & F7); auto.
    + intros k c0 Hk. replace (S i + k)%nat with (i + S k)%nat by lia. rewrite (HB (S k) c0 Hk). f_equal. unfold total. simpl. lia.
    + lia.
    + unfold mfits. repeat split; lia.
    + lia.
    + apply (quiet_ext r n cs _ A); auto. intros i0 j Hi Hj. apply D5. lia.
    + exists jt', jl', full', A'. split; [auto|]. repeat (split; [split; lia|]). split; [|split].
      * intros i0 j H. rewrite F5 by lia. apply D5. lia.
      * split; [|auto]. intros L i0 q Hi Hq. rewrite F5 by lia. auto.
      * intros i0 x Hi. rewrite sumn_split. cbn [contactForces]. rewrite Ropp_plus_distr. f_equal.
        -- rewrite <- (D7 i0 x Hi). apply sumn_ext. intros q Hq. rewrite F5 by lia. reflexivity.
        -- rewrite <- (F7 i0 x Hi). apply sumn_ext. intros q Hq. rewrite Nat.add_assoc. reflexivity.
Qed.

Lemma sizes_begins mbs d : sizesOf mbs d ->
  (forall k c, nth_error (sdAll d) k = Some c -> lambdaBeginAt d k = Ok (sdTotalAlphaD d + total (firstn k (sdAll d)))%nat) /\
  total (sdAll d) = sdTotalLambda d /\ sdNrVars d = (sdTotalAlphaD d + sdTotalLambda d)%nat.
Proof.
  intros ((uni & bi & deps & H) & _). destruct (layout_begin_lemma _ _ _ _ _ H) as (_ & L).
  apply nrVarsData_spec in H as (_ & E1 & E2 & L1 & L2 & Ta & Tu & Tb & Tl & Nv & Eu & Eb & Ea & _).
  assert (M : map biLambdaCount (sdAll d) = map uniLambdaCount uni ++ map biLambdaCount bi).
  { rewrite Ea, map_app, map_map. f_equal. apply map_ext. intros. apply biOfUni_count. }
  split; [|split; [|auto]].
  - intros k c Hk. assert (K : (k < length (sdAll d))%nat) by (apply nth_error_Some; congruence).
    rewrite Ea, app_length, map_length in K. rewrite L by auto. rewrite Ta. do 2 f_equal. unfold total. rewrite <- M, firstn_map. reflexivity.
  - unfold total. rewrite M, sumnat_app, Tl. lia.
Qed.

Record mInv (nm : names) (mbs : list multibody) (r : nat) (mb : multibody) (d : solverData) (b : nat) (m : mconstr) : Prop := {
  ivR : mcRobot m = r; ivMb : nth_error mbs r = Some mb; ivN : mcN m = nrDof mb;
  ivB : alphaDBegin d r = Ok b; ivAB : mcABegin m = Z.of_nat b; ivLB : mcLBegin m = Z.of_nat (sdTotalAlphaD d);
  ivS : sidesLoop nm r d (sdAll d) 0 = Ok (mcSides m);
  ivJT : mrows (mcJT m) = 6%nat /\ mcols (mcJT m) = nrDof mb;
  ivJL : mrows (mcJL m) = sdTotalLambda d /\ mcols (mcJL m) = nrDof mb;
  ivF : mrows (mcFull m) = sdTotalLambda d /\ mcols (mcFull m) = nrDof mb;
  ivA : mrows (mcA m) = nrDof mb /\ mcols (mcA m) = sdNrVars d;
  ivZ : forall i j, (i < nrDof mb)%nat -> (j < sdTotalAlphaD d)%nat -> ~ (b <= j < b + nrDof mb)%nat -> mget (mcA m) i j = 0;
  ivQ : quiet r (nrDof mb) (sdAll d) (sdTotalAlphaD d) (mcA m) }.

Definition mBase (mbs : list multibody) (r : nat) (mb : multibody) (m : mconstr) : Prop :=
  mcRobot m = r /\ nth_error mbs r = Some mb /\ mcN m = nrDof mb /\ mrows (mcJT m) = 6%nat /\ mcols (mcJT m) = nrDof mb /\
  vlen (mcCur m) = nrDof mb.

Lemma quiet_zero r n cs : forall cum A, (forall i j, mget A i j = 0) -> quiet r n cs cum A.
Proof. induction cs; intros; simpl; auto. Qed.

Lemma mcNrVars_inv nm mbs r mb d m m' : mBase mbs r mb m -> mcNrVars nm mbs d m = Ok m' ->
  exists b, mInv nm mbs r mb d b m' /\ mcCur m' = mcCur m /\ mcIter m' = mcIter m.
Proof.
  intros (H1 & H2 & H3 & H4 & H5 & H6) H. unfold mcNrVars in H. apply bind_Ok in H as (mb' & _ & H).
  apply bind_Ok in H as (b & HB & H). apply bind_Ok in H as (l & HL & H). injection H as <-. rewrite H1 in *.
  exists b. split; [|auto]. constructor; simpl; rewrite ?H3; auto. apply quiet_zero; auto.
Qed.

Lemma computeMatrix_ok nm mbs r mb d b dy m : sizesOf mbs d -> pathsWf nm mbs -> mInv nm mbs r mb d b m ->
  exists m', computeMatrix mbs dy m = Ok m' /\ mInv nm mbs r mb d b m' /\
    mcCur m' = mcCur m /\ mcIter m' = mcIter m /\
    mcH m' = mkMat (nrDof mb) (nrDof mb) (dH dy r) /\ mcC m' = mkVec (nrDof mb) (dC dy r) /\
    mcAL m' = mkVec (nrDof mb) (fun i => Fin (- dC dy r i)) /\ mcAU m' = mkVec (nrDof mb) (fun i => Fin (- dC dy r i)) /\
    (forall i k, (i < nrDof mb)%nat -> (k < nrDof mb)%nat -> mget (mcA m') i (b + k)%nat = dH dy r i k) /\
    (forall i x, (i < nrDof mb)%nat ->
       sumn (sdTotalLambda d) (fun q => mget (mcA m') i (sdTotalAlphaD d + q)%nat * x (sdTotalAlphaD d + q)%nat)
       = - contactForces (lastHeldBy r) nm dy mb r (sdAll d) (sdTotalAlphaD d) x i) /\
    (forall i x, (i < nrDof mb)%nat -> rowdot (mcA m') i x = invTorqueLast nm mbs d dy r x i - dC dy r i).
Proof.
  intros SZ PW [R M N B AB LB S JT JL F A Z Q].
  destruct (sizes_begins mbs d SZ) as (BG & TL & NV).
  destruct SZ as ((uni & bi & deps & HD) & WF). destruct (beginEnd _ _ _ _ _ _ _ _ HD B M) as (BE & _).
  unfold computeMatrix. rewrite R, (ContactProofs.vec_at_Some _ _ _ M). cbn [bind]. rewrite AB. unfold zidx.
  replace (0 <=? Z.of_nat b)%Z with true by (symmetry; apply Z.leb_le; lia). cbn [bind]. rewrite Nat2Z.id, N, Nat.eqb_refl. cbn [guard bind].
  destruct (mset_block_def (mcA m) 0 b (mkMat (nrDof mb) (nrDof mb) (dH dy r))) as (A1 & E1); [simpl; lia|simpl; lia|].
  rewrite E1. cbn [bind]. apply mset_block_Ok in E1 as (_ & _ & D1 & D2 & D3). cbn [mrows mcols mget] in D3.
  destruct (contactsMatrix nm r d dy mb (nrDof mb) (sdTotalLambda d) (fun body p => PW r mb body p M) eq_refl (sdAll d) 0 (sdTotalAlphaD d)
              (mcSides m) (mcJT m) (mcJL m) (mcFull m) A1) as (jt' & jl' & full' & A' & E & T1 & T2 & T3 & T4 & T5 & T6 & T7);
    auto; try lia.
  - unfold mfits. repeat split; lia.
  - apply (quiet_ext _ _ _ _ (mcA m)); auto. intros i j Hi Hj. rewrite D3.
    replace (inr b (nrDof mb) j) with false by (symmetry; apply inr_false; lia). rewrite andb_false_r. auto.
  - rewrite E. cbn [bind]. eexists. split; [reflexivity|]. unfold sameDims in *.
    assert (HB : forall i k, (i < nrDof mb)%nat -> (k < nrDof mb)%nat -> mget A' i (b + k)%nat = dH dy r i k).
    { intros i k Hi Hk. rewrite T5 by lia. rewrite D3. rewrite (proj2 (inr_true _ _ _)) by lia. rewrite (proj2 (inr_true _ _ _)) by lia.
      simpl. f_equal; lia. }
    assert (HZ : forall i j, (i < nrDof mb)%nat -> (j < sdTotalAlphaD d)%nat -> ~ (b <= j < b + nrDof mb)%nat -> mget A' i j = 0).
    { intros i j Hi Hj Hn. rewrite T5 by lia. rewrite D3. rewrite (proj2 (inr_false b _ _)) by lia. rewrite andb_false_r. auto. }
    split; [|split; [reflexivity|split; [reflexivity|split; [reflexivity|split; [reflexivity|split; [reflexivity|split; [reflexivity|split; [auto|split]]]]]]]].
    + constructor; simpl; auto; try (split; lia).
    + intros i x Hi. cbn [mcA]. rewrite <- T7 by auto. rewrite TL. reflexivity.
    + intros i x Hi. cbn [mcA]. unfold invTorqueLast, invTorque_, rowdot. rewrite M, B.
      replace (mcols A') with (sdTotalAlphaD d + total (sdAll d))%nat by lia. rewrite sumn_split, T7 by auto.
      rewrite (sumn_window (sdTotalAlphaD d) b (nrDof mb)); [|lia|intros j Hj Hn; rewrite HZ by lia; ring].
      rewrite (sumn_ext (nrDof mb) _ (fun k => dH dy r i k * x (b + k)%nat)); [ring|]. intros k Hk. rewrite HB by auto. reflexivity.
Qed.

(** computeTorque after an update gives the torque of the inverse dynamics. *)
Lemma computeTorque_ok nm mbs r mb d b dy m a l m' : mInv nm mbs r mb d b m -> sizesOf mbs d ->
  mcH m = mkMat (nrDof mb) (nrDof mb) (dH dy r) -> mcC m = mkVec (nrDof mb) (dC dy r) ->
  (forall i x, (i < nrDof mb)%nat ->
       sumn (sdTotalLambda d) (fun q => mget (mcA m) i (sdTotalAlphaD d + q)%nat * x (sdTotalAlphaD d + q)%nat)
       = - contactForces (lastHeldBy r) nm dy mb r (sdAll d) (sdTotalAlphaD d) x i) ->
  computeTorque a l m = Ok m' ->
  vlen (mcCur m') = nrDof mb /\
  (forall j, (j < nrDof mb)%nat -> vget (mcCur m') j = invTorqueLast nm mbs d dy r (join (sdTotalAlphaD d) a l) j) /\
  m' = mkMC (mcRobot m) (mcABegin m) (mcN m) (mcLBegin m) (mcH m) (mcC m) (mcFull m) (mcJT m) (mcJL m) (mcSides m)
           (mcCur m') (mcA m) (mcAL m) (mcAU m) (mcIter m).
Proof.
  intros [R M N B AB LB S JT JL F A Z Q] SZ EH EC HS H.
  destruct (sizes_begins mbs d SZ) as (BG & TL & NV).
  destruct SZ as ((uni & bi & deps & HD) & WF). destruct (beginEnd _ _ _ _ _ _ _ _ HD B M) as (BE & _).
  unfold computeTorque in H. rewrite AB, LB, N, EH, EC in H. unfold zidx in H.
  replace (0 <=? Z.of_nat b)%Z with true in H by (symmetry; apply Z.leb_le; lia).
  replace (0 <=? Z.of_nat (sdTotalAlphaD d))%Z with true in H by (symmetry; apply Z.leb_le; lia). cbn [bind] in H. rewrite !Nat2Z.id in H.
  apply bind_Ok in H as (seg & H1 & H). apply bind_Ok in H as (h & H2 & H). apply bind_Ok in H as (blk & H3 & H).
  apply bind_Ok in H as (f & H4 & H). injection H as <-.
  apply vseg_Ok in H1 as (V1 & V2 & V3). apply mvec_Ok in H2 as (W1 & W2 & W3). apply mblock_Ok in H3 as (K1 & K2 & K3 & K4 & K5).
  apply mvec_Ok in H4 as (X1 & X2 & X3). cbn [mcols mrows mget mcCur] in *. split; [auto|]. rewrite EH, EC, AB, LB, N. split; [|reflexivity].
  intros j Hj. cbn [vget]. unfold invTorqueLast, invTorque_. rewrite M, B.
  assert (Q1 : vget h j = sumn (nrDof mb) (fun k => dH dy r j k * join (sdTotalAlphaD d) a l (b + k)%nat)).
  { rewrite W3. apply sumn_ext. intros k Hk. f_equal. rewrite V3. unfold join.
    replace (b + k <? sdTotalAlphaD d)%nat with true by (symmetry; apply Nat.ltb_lt; lia). reflexivity. }
  assert (Q2 : vget f j = - contactForces (lastHeldBy r) nm dy mb r (sdAll d) (sdTotalAlphaD d) (join (sdTotalAlphaD d) a l) j).
  { rewrite <- HS by auto. rewrite X3, K4. replace (mcols (mcA m) - sdTotalAlphaD d)%nat with (sdTotalLambda d) by lia.
    apply sumn_ext. intros q Hq. rewrite K5. cbn [Nat.add]. f_equal. unfold join.
    replace (sdTotalAlphaD d + q <? sdTotalAlphaD d)%nat with false by (symmetry; apply Nat.ltb_ge; lia). f_equal. lia. }
  rewrite Q1, Q2. ring.
Qed.
