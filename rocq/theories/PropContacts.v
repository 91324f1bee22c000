(** Properties of contact ids, friction cones and contact forces: C24, C27-C30. *)
From Coq Require Import Ratan.
From Verif Require Import ContactSpec ContactProofs ConeProofs.
Open Scope string_scope.
Open Scope list_scope.
Open Scope R_scope.

(** C24: operator< is a strict total order, operator== holds iff the five fields agree, operator!= is
    its negation, and two ids are equivalent for the order iff they are equal. *)
Theorem C24_contact_id_order :
  (forall a, cid_ltb a a = false) /\
  (forall a b c, cid_ltb a b = true -> cid_ltb b c = true -> cid_ltb a c = true) /\
  (forall a b, cid_ltb a b = true \/ a = b \/ cid_ltb b a = true) /\
  (forall a b, cid_eqb a b = true <->
     (r1Index a = r1Index b /\ r2Index a = r2Index b /\ r1Body a = r1Body b /\ r2Body a = r2Body b /\ ambId a = ambId b)) /\
  (forall a b, cid_neqb a b = negb (cid_eqb a b)) /\
  (forall a b, (cid_ltb a b = false /\ cid_ltb b a = false) <-> cid_eqb a b = true).
Proof. exact order_lemma. Qed.
Print Assumptions C24_contact_id_order.
Example C24_used :
  cid_ltb (mkCId 0 1 "LeftFoot" "Ground" (-1)) (mkCId 0 1 "RightFoot" "Ground" (-1)) = true /\
  cid_ltb (mkCId 0 1 "LeftFoot" "Ground" (-1)) (mkCId 0 1 "LeftFoot" "Ground" 2) = true /\
  cid_ltb (mkCId 0 2 "A" "B" 0) (mkCId 0 1 "A" "C" 0) = false.
Proof. vm_compute. auto. Qed.

(** A contact used by the examples: two points, body 2 turned by a quarter turn around z and shifted. *)
Definition exFrame : M3 := m3id.
Definition exX : PT := mkPT (mkM3 (mkV3 0 1 0) (mkV3 (-1) 0 0) (mkV3 0 0 1)) (mkV3 1 2 3).
Definition exPts : list V3 := [mkV3 1 0 0; mkV3 0 1 0].
Definition exUni : unilateral := newUnilateral (mkCId 0 1 "a" "b" 0) exPts exFrame exX 4 (1/2) pt_id.
Definition exLam : vec R := mkVec 8 (fun i => INR i).
Lemma exX_rotation : rotation (ptE exX).
Proof. repeat split; v3unf; try ring. unfold righthanded. v3. Qed.
Lemma exFrame_orthonormal : orthonormal exFrame.
Proof. repeat split; v3unf; ring. Qed.
Lemma exLam_nonneg : nonneg exLam.
Proof. intros i _. apply pos_INR. Qed.

(** C27: with non-negative multipliers the force of a unilateral contact lies in the friction cone of
    the contact normal, for both bodies. *)
Theorem C27_unilateral_cone : forall cid pts frame X n mu Xcf lam f,
  orthonormal frame -> rotation (ptE X) -> 0 <= mu -> nonneg lam ->
  let c := newUnilateral cid pts frame X n mu Xcf in
  (uForce c lam (uR1Cone c) = Ok f -> inCone (row2 frame) mu f) /\
  (uForce c lam (uR2Cone c) = Ok f -> inCone (vneg (m3mulv (ptE X) (row2 frame))) mu f).
Proof. exact cone_unilateral. Qed.
Print Assumptions C27_unilateral_cone.
Example C27_unilateral_cone_used : exists f, uForce exUni exLam (uR1Cone exUni) = Ok f /\ inCone (mkV3 0 0 1) (1/2) f.
Proof.
  assert (H : exists f, uForce exUni exLam (uR1Cone exUni) = Ok f) by (eexists; apply uForce_def; [reflexivity|simpl; lia]).
  destruct H as (f & H). exists f. split; [exact H|].
  apply (C27_unilateral_cone (mkCId 0 1 "a" "b" 0) exPts exFrame exX 4 (1/2) pt_id exLam f); auto using exX_rotation, exFrame_orthonormal, exLam_nonneg; lra.
Qed.

(** C27, bilateral contacts: at every point the force lies in the cone of that point. *)
Theorem C27_bilateral_cone : forall cid pts frames X n mu Xcf c p frame lam f,
  newBilateral cid pts frames X n mu Xcf = Ok c -> nth_error frames p = Some frame ->
  orthonormal frame -> rotation (ptE X) -> 0 <= mu -> nonneg lam ->
  (bForceAt lam p (bR1Cones c) = Ok f -> inCone (row2 frame) mu f) /\
  (bForceAt lam p (bR2Cones c) = Ok f -> inCone (vneg (m3mulv (ptE X) (row2 frame))) mu f).
Proof. exact cone_bilateral. Qed.
Print Assumptions C27_bilateral_cone.
Example C27_bilateral_cone_used : exists c f,
  newBilateral (mkCId 0 1 "a" "b" 0) exPts [exFrame; m3tr (ptE exX)] exX 4 (1/2) pt_id = Ok c /\
  bForceAt exLam 1 (bR1Cones c) = Ok f /\ inCone (row2 (m3tr (ptE exX))) (1/2) f.
Proof.
  eexists. assert (H : forall k, exists f, forceGens (generators (mkFrictionCone k 4 (1/2) 1)) exLam 0 v0 = Ok f).
  { intros k. eexists. apply forceGens_def. simpl. lia. }
  destruct (H (m3tr (ptE exX))) as (f & Hf). exists f. split; [reflexivity|]. split; [exact Hf|].
  apply (C27_bilateral_cone (mkCId 0 1 "a" "b" 0) exPts [exFrame; m3tr (ptE exX)] exX 4 (1/2) pt_id _ 1 _ exLam f eq_refl eq_refl);
    auto using exX_rotation, exLam_nonneg; try lra. repeat split; v3unf; ring.
Qed.

(** C27, the cone is not smaller than it should be: generators are unit vectors on the boundary of the
    cone, spread evenly around the normal. *)
Theorem C27_generators : forall frame nrGen mu dir,
  orthonormal frame -> dir * dir = 1 -> 0 <= mu ->
  length (generators (mkFrictionCone frame nrGen mu dir)) = nrGen /\
  forall i j g h,
  nth_error (generators (mkFrictionCone frame nrGen mu dir)) i = Some g ->
  nth_error (generators (mkFrictionCone frame nrGen mu dir)) j = Some h ->
  norm g = 1 /\ 0 < dot (row2 frame) g /\ norm (tangential (row2 frame) g) = mu * dot (row2 frame) g /\
  dot (tangential (row2 frame) g) (tangential (row2 frame) h) =
    norm (tangential (row2 frame) g) * norm (tangential (row2 frame) h) * cos (2 * PI / INR nrGen * (INR i - INR j)).
Proof. exact cone_spread. Qed.
Print Assumptions C27_generators.
Example C27_generators_used : exists g, nth_error (generators (mkFrictionCone exFrame 4 (1/2) 1)) 3 = Some g /\ norm g = 1.
Proof.
  assert (E : exists g, nth_error (generators (mkFrictionCone exFrame 4 (1/2) 1)) 3 = Some g) by (eexists; reflexivity).
  destruct E as (g & E). exists g. split; [exact E|].
  destruct (C27_generators exFrame 4 (1/2) 1) as (_ & H); [apply exFrame_orthonormal|lra|lra|]. apply (H _ _ _ _ E E).
Qed.

(** C28: action and reaction. The force of the second cone is the opposite of the force of the first
    one seen from body 2, and the wrenches cancel once expressed at body 1. *)
Theorem C28_unilateral_reaction : forall cid pts frame X n mu Xcf lam,
  rotation (ptE X) ->
  let c := newUnilateral cid pts frame X n mu Xcf in
  (forall f1, uForce c lam (uR1Cone c) = Ok f1 -> uForce c lam (uR2Cone c) = Ok (vneg (m3mulv (ptE X) f1))) /\
  (forall w1, uWrench c lam (uR1Points c) (uR1Cone c) = Ok w1 ->
     exists w2, uWrench c lam (uR2Points c) (uR2Cone c) = Ok w2 /\ sp_add w1 (pt_transMul X w2) = sp0).
Proof. exact reaction_uni. Qed.
Print Assumptions C28_unilateral_reaction.
Example C28_unilateral_reaction_used : exists w1 w2,
  uWrench exUni exLam (uR1Points exUni) (uR1Cone exUni) = Ok w1 /\
  uWrench exUni exLam (uR2Points exUni) (uR2Cone exUni) = Ok w2 /\ sp_add w1 (pt_transMul exX w2) = sp0.
Proof.
  assert (H : exists w, uWrench exUni exLam (uR1Points exUni) (uR1Cone exUni) = Ok w) by (eexists; apply uWrench_def; [reflexivity|simpl; lia]).
  destruct H as (w1 & H). destruct (C28_unilateral_reaction (mkCId 0 1 "a" "b" 0) exPts exFrame exX 4 (1/2) pt_id exLam exX_rotation) as (_ & K).
  destruct (K w1 H) as (w2 & K1 & K2). eauto.
Qed.

Theorem C28_bilateral_reaction : forall cid pts frames X n mu Xcf c lam,
  rotation (ptE X) -> newBilateral cid pts frames X n mu Xcf = Ok c ->
  (forall p s f1, bForceAt s p (bR1Cones c) = Ok f1 -> bForceAt s p (bR2Cones c) = Ok (vneg (m3mulv (ptE X) f1))) /\
  (forall f1, bForce c lam (bR1Cones c) = Ok f1 -> bForce c lam (bR2Cones c) = Ok (vneg (m3mulv (ptE X) f1))) /\
  (forall w1, bWrench c lam (bR1Points c) (bR1Cones c) = Ok w1 ->
     exists w2, bWrench c lam (bR2Points c) (bR2Cones c) = Ok w2 /\ sp_add w1 (pt_transMul X w2) = sp0).
Proof. exact reaction_bi. Qed.
Print Assumptions C28_bilateral_reaction.
Example C28_bilateral_reaction_used : exists c w1 w2,
  newBilateral (mkCId 0 1 "a" "b" 0) exPts [exFrame; ptE exX] exX 4 (1/2) pt_id = Ok c /\
  bWrench c exLam (bR1Points c) (bR1Cones c) = Ok w1 /\
  bWrench c exLam (bR2Points c) (bR2Cones c) = Ok w2 /\ sp_add w1 (pt_transMul exX w2) = sp0.
Proof.
  assert (E : exists c, newBilateral (mkCId 0 1 "a" "b" 0) exPts [exFrame; ptE exX] exX 4 (1/2) pt_id = Ok c) by (eexists; reflexivity).
  destruct E as (c & E). pose proof (newBi_wf _ _ _ _ _ _ _ _ E) as (W1 & _).
  pose proof (newBi_facts _ _ _ _ _ _ _ _ E) as (_ & P1 & _ & C1 & _).
  assert (H : exists w, bWrench c exLam (bR1Points c) (bR1Cones c) = Ok w) by (eexists; apply bWrench_def; auto; rewrite C1; simpl; lia).
  destruct H as (w1 & H). destruct (C28_bilateral_reaction _ _ _ _ _ _ _ _ exLam exX_rotation E) as (_ & _ & K).
  destruct (K w1 H) as (w2 & K1 & K2). exists c, w1, w2. auto.
Qed.

(** C29: forces and wrenches are linear in lambda. *)
Theorem C29_linear : forall a b l1 l2, vlen l2 = vlen l1 ->
  (forall c k f1 f2, uForce c l1 k = Ok f1 -> uForce c l2 k = Ok f2 ->
     uForce c (veclin a l1 b l2) k = Ok (vadd (vsc a f1) (vsc b f2))) /\
  (forall c ks f1 f2, bForce c l1 ks = Ok f1 -> bForce c l2 ks = Ok f2 ->
     bForce c (veclin a l1 b l2) ks = Ok (vadd (vsc a f1) (vsc b f2))) /\
  (forall c ps k f1 f2, uWrench c l1 ps k = Ok f1 -> uWrench c l2 ps k = Ok f2 ->
     uWrench c (veclin a l1 b l2) ps k = Ok (sp_add (sp_sc a f1) (sp_sc b f2))) /\
  (forall c ps ks f1 f2, bWrench c l1 ps ks = Ok f1 -> bWrench c l2 ps ks = Ok f2 ->
     bWrench c (veclin a l1 b l2) ps ks = Ok (sp_add (sp_sc a f1) (sp_sc b f2))).
Proof. exact linear_lemma. Qed.
Print Assumptions C29_linear.
Example C29_linear_used : exists f, uForce exUni exLam (uR1Cone exUni) = Ok f /\
  uForce exUni (veclin 2 exLam 3 exLam) (uR1Cone exUni) = Ok (vadd (vsc 2 f) (vsc 3 f)).
Proof.
  assert (H : exists f, uForce exUni exLam (uR1Cone exUni) = Ok f) by (eexists; apply uForce_def; [reflexivity|simpl; lia]).
  destruct H as (f & H). exists f. split; [exact H|]. apply C29_linear; auto.
Qed.

(** C29: the total force is the sum of the forces at the points, the wrench the sum of (r x f, f). *)
Theorem C29_additive :
  (forall c lam k, length (generators k) = length (generators (uR1Cone c)) ->
     ((length (uR1Points c) * length (generators k) <= vlen lam)%nat ->
        uForce c lam k = Ok (vsum (forces (repeat k (length (uR1Points c))) (vget lam) 0))) /\
     (forall ps, (length ps * length (generators k) <= vlen lam)%nat ->
        uWrench c lam ps k = Ok (wsum ps (forces (repeat k (length ps)) (vget lam) 0)))) /\
  (forall c lam ks, length (bR1Cones c) = length (bR1Points c) -> sizes ks = sizes (bR1Cones c) ->
     (sumnat (sizes ks) <= vlen lam)%nat ->
     bForce c lam ks = Ok (vsum (forces ks (vget lam) 0)) /\
     (forall ps, length ps = length (bR1Points c) ->
        bWrench c lam ps ks = Ok (wsum ps (forces ks (vget lam) 0)))).
Proof. exact additive_lemma. Qed.
Print Assumptions C29_additive.
(** One cone with two generators at two points. *)
Example C29_additive_used :
  let k := mkCone [mkV3 0 0 1; mkV3 1 0 1] in
  let c := mkUni (mkCId 0 1 "a" "b" 0) [mkV3 1 0 0; mkV3 0 1 0] [] k k pt_id pt_id in
  uForce c (mkVec 4 (fun i => INR i)) k = Ok (mkV3 4 0 6) /\
  uWrench c (mkVec 4 (fun i => INR i)) [mkV3 1 0 0; mkV3 0 1 0] k = Ok (mkSp (mkV3 5 (-1) (-3)) (mkV3 4 0 6)).
Proof.
  intros k c. destruct C29_additive as (H & _).
  destruct (H c (mkVec 4 (fun i => INR i)) k eq_refl) as (H1 & H2). rewrite H1, H2 by (simpl; lia). split; f_equal; simpl.
  - apply V3_ext; simpl; ring.
  - apply Spatial_ext; simpl; apply V3_ext; simpl; ring.
Qed.

(** C29: the bilateral contact made from a unilateral one gives the same forces. *)
Theorem C29_bilateral_of_unilateral : forall c lam, wfUni c ->
  bForce (biOfUni c) lam (bR1Cones (biOfUni c)) = uForce c lam (uR1Cone c) /\
  bForce (biOfUni c) lam (bR2Cones (biOfUni c)) = uForce c lam (uR2Cone c) /\
  bWrench (biOfUni c) lam (bR1Points (biOfUni c)) (bR1Cones (biOfUni c)) = uWrench c lam (uR1Points c) (uR1Cone c) /\
  bWrench (biOfUni c) lam (bR2Points (biOfUni c)) (bR2Cones (biOfUni c)) = uWrench c lam (uR2Points c) (uR2Cone c) /\
  bNrLambda (biOfUni c) = uNrLambda c.
Proof. exact biOfUni_force. Qed.
Print Assumptions C29_bilateral_of_unilateral.
Example C29_bilateral_of_unilateral_used : wfUni exUni /\ bNrLambda (biOfUni exUni) = Ok 8%nat.
Proof. split; [apply newUni_wf|reflexivity]. Qed.

(** C30: when the checked functions throw, and what they return otherwise (unilateral). *)
Theorem C30_unilateral_throw : forall c lam p ps k,
  (uSForceAt c lam p k = Throw <-> badPoint p (length (uR1Points c)) \/ vlen lam <> length (generators (uR1Cone c))) /\
  (uSForceAt c lam p k <> Throw -> uSForceAt c lam p k = uForceAt lam k) /\
  (uSForce c lam k = Throw <-> vlen lam <> (length (uR1Points c) * length (generators (uR1Cone c)))%nat) /\
  (uSForce c lam k <> Throw -> uSForce c lam k = uForce c lam k) /\
  (uSWrench c lam ps k = Throw <-> vlen lam <> (length (uR1Points c) * length (generators (uR1Cone c)))%nat) /\
  (uSWrench c lam ps k <> Throw -> uSWrench c lam ps k = uWrench c lam ps k) /\
  (uSNrLambda c p = Throw <-> badPoint p (length (uR1Points c))) /\
  (uSNrLambda c p <> Throw -> uSNrLambda c p = Ok (length (generators (uR1Cone c)))).
Proof. exact checked_unilateral. Qed.
Print Assumptions C30_unilateral_throw.
Example C30_unilateral_throw_used :
  uSForceAt exUni exLam 0 (uR1Cone exUni) = Throw /\ uSForceAt exUni (mkVec 4 (fun _ => 1)) 1 (uR1Cone exUni) <> Throw /\
  uSNrLambda exUni (-1) = Throw /\ uSNrLambda exUni 2 = Throw /\ uSNrLambda exUni 1 = Ok 4%nat.
Proof.
  split; [reflexivity|]. split; [|split; [reflexivity|split; reflexivity]].
  rewrite (proj1 (C30_unilateral_throw exUni (mkVec 4 (fun _ => 1)) 1 [] (uR1Cone exUni))). unfold badPoint. simpl. lia.
Qed.

(** C30, bilateral. *)
Theorem C30_bilateral_throw : forall c lam p ps ks,
  length (bR1Cones c) = length (bR1Points c) ->
  (bSForceAt c lam p ks = Throw <->
     badPoint p (length (bR1Points c)) \/
     (forall k, nth_error (bR1Cones c) (Z.to_nat p) = Some k -> vlen lam <> length (generators k))) /\
  (bSForceAt c lam p ks <> Throw -> bSForceAt c lam p ks = bForceAt lam (Z.to_nat p) ks) /\
  (bSForce c lam ks = Throw <-> vlen lam <> sumnat (sizes (bR1Cones c))) /\
  (bSForce c lam ks <> Throw -> bSForce c lam ks = bForce c lam ks) /\
  (bSWrench c lam ps ks = Throw <-> vlen lam <> sumnat (sizes (bR1Cones c))) /\
  (bSWrench c lam ps ks <> Throw -> bSWrench c lam ps ks = bWrench c lam ps ks) /\
  (bSNrLambda c p = Throw <-> badPoint p (length (bR1Points c))) /\
  (bSNrLambda c p <> Throw -> exists k, nth_error (bR1Cones c) (Z.to_nat p) = Some k /\ bSNrLambda c p = Ok (length (generators k))).
Proof. exact checked_bilateral. Qed.
Print Assumptions C30_bilateral_throw.
Definition exBi2 : bilateral :=
  mkBi (mkCId 0 1 "a" "b" 0) [v0; v0] [v0; v0] [mkCone [v0]; mkCone [v0; v0; v0]] [mkCone [v0]; mkCone [v0; v0; v0]] pt_id pt_id.
Example C30_bilateral_throw_used :
  length (bR1Cones exBi2) = length (bR1Points exBi2) /\
  bSForce exBi2 (mkVec 3 (fun _ => 1)) (bR1Cones exBi2) = Throw /\ bSNrLambda exBi2 1 = Ok 3%nat /\ bSNrLambda exBi2 2 = Throw.
Proof. repeat split. Qed.

(** C30: nothing is read outside when the cones and points are those of the contact. *)
Theorem C30_unilateral_safe : forall c lam p k, wfUni c -> k = uR1Cone c \/ k = uR2Cone c ->
  uSForceAt c lam p k <> UB /\ uSForce c lam k <> UB /\
  uSWrench c lam (uR1Points c) k <> UB /\ uSWrench c lam (uR2Points c) k <> UB /\ uSNrLambda c p <> UB.
Proof. exact checked_safe_uni. Qed.
Print Assumptions C30_unilateral_safe.
Example C30_unilateral_safe_used : wfUni exUni /\ uSForce exUni exLam (uR2Cone exUni) <> Throw.
Proof.
  split; [apply newUni_wf|]. destruct (C30_unilateral_throw exUni exLam 0 [] (uR2Cone exUni)) as (_ & _ & H & _). rewrite H. simpl. lia.
Qed.
Theorem C30_bilateral_safe : forall c lam p ks, wfBilateral c -> ks = bR1Cones c \/ ks = bR2Cones c ->
  bSForceAt c lam p ks <> UB /\ bSForce c lam ks <> UB /\
  bSWrench c lam (bR1Points c) ks <> UB /\ bSWrench c lam (bR2Points c) ks <> UB /\ bSNrLambda c p <> UB.
Proof. exact checked_safe_bi. Qed.
Print Assumptions C30_bilateral_safe.
Example C30_bilateral_safe_used : wfBilateral exBi2.
Proof. repeat split. Qed.

(** C30 is false in general: a larger cone, more points than the contact has, or a shorter list of
    cones pass the checks and read outside. *)
Theorem C30_throw_refuted :
  (exists c lam k, wfUni c /\ uSForce c lam k = UB) /\
  (exists c lam ps, wfUni c /\ uSWrench c lam ps (uR1Cone c) = UB) /\
  (exists c lam p ks, wfBilateral c /\ bSForceAt c lam p ks = UB).
Proof. exact checked_refuted. Qed.
Print Assumptions C30_throw_refuted.

(** The same for every contact with at least one point and one generator. *)
Theorem C30_missing_checks :
  (forall c lam k,
    vlen lam = (length (uR1Points c) * length (generators (uR1Cone c)))%nat ->
    (0 < length (uR1Points c))%nat -> (length (generators (uR1Cone c)) < length (generators k))%nat ->
    uSForce c lam k = UB) /\
  (forall c lam ps,
    vlen lam = (length (uR1Points c) * length (generators (uR1Cone c)))%nat ->
    (length (uR1Points c) < length ps)%nat -> (0 < length (generators (uR1Cone c)))%nat ->
    uSWrench c lam ps (uR1Cone c) = UB) /\
  (forall c lam p ks,
    length (bR1Cones c) = length (bR1Points c) ->
    (Z.to_nat p < length (bR1Points c))%nat -> (0 <= p)%Z -> (length ks <= Z.to_nat p)%nat ->
    (forall k, nth_error (bR1Cones c) (Z.to_nat p) = Some k -> vlen lam = length (generators k)) ->
    bSForceAt c lam p ks = UB).
Proof. exact (conj checked_big_cone (conj checked_more_points checked_few_cones)). Qed.
Print Assumptions C30_missing_checks.
Example C30_missing_checks_used : uSForce exUni exLam (mkFrictionCone exFrame 5 (1/2) 1) = UB.
Proof. apply (proj1 C30_missing_checks); simpl; lia. Qed.
