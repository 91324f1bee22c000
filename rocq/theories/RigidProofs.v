(** Rigid transforms form a group. *)
From Verif Require Export ContactProofs.
Open Scope R_scope.

Lemma M3_ext A B : row0 A = row0 B -> row1 A = row1 B -> row2 A = row2 B -> A = B.
Proof. destruct A, B; simpl; intros; subst; reflexivity. Qed.
Lemma PT_ext A B : ptE A = ptE B -> ptr A = ptr B -> A = B.
Proof. destruct A, B; simpl; intros; subst; reflexivity. Qed.

Lemma m3mul_mulv A B v : m3mulv (m3mul A B) v = m3mulv A (m3mulv B v).
Proof. destruct A as [[] [] []], B as [[] [] []], v; unfold m3mul, m3mulv, m3tr, dot; simpl; apply V3_ext; simpl; ring. Qed.
Lemma m3mul_assoc A B C : m3mul (m3mul A B) C = m3mul A (m3mul B C).
Proof. destruct A as [[] [] []], B as [[] [] []], C as [[] [] []]; unfold m3mul, m3mulv, m3tr, dot; apply M3_ext; simpl; apply V3_ext; simpl; ring. Qed.
Lemma m3tr_mul A B : m3tr (m3mul A B) = m3mul (m3tr B) (m3tr A).
Proof. destruct A as [[] [] []], B as [[] [] []]; unfold m3mul, m3mulv, m3tr, dot; apply M3_ext; simpl; apply V3_ext; simpl; ring. Qed.
Lemma m3mul_id_l A : m3mul m3id A = A.
Proof. destruct A as [[] [] []]; unfold m3mul, m3mulv, m3tr, m3id, dot; apply M3_ext; simpl; apply V3_ext; simpl; ring. Qed.
Lemma m3mul_id_r A : m3mul A m3id = A.
Proof. destruct A as [[] [] []]; unfold m3mul, m3mulv, m3tr, m3id, dot; apply M3_ext; simpl; apply V3_ext; simpl; ring. Qed.
Lemma m3tr_invol A : m3tr (m3tr A) = A.
Proof. destruct A as [[] [] []]; reflexivity. Qed.
Lemma m3mulv_add A u v : m3mulv A (vadd u v) = vadd (m3mulv A u) (m3mulv A v).
Proof. destruct A as [[] [] []], u, v; unfold m3mulv, vadd, dot; apply V3_ext; simpl; ring. Qed.
Lemma m3mulv_neg A v : m3mulv A (vneg v) = vneg (m3mulv A v).
Proof. destruct A as [[] [] []], v; unfold m3mulv, vneg, dot; apply V3_ext; simpl; ring. Qed.
Lemma m3_ext_v A B : (forall v, m3mulv A v = m3mulv B v) -> A = B.
Proof.
  intros H. pose proof (H (mkV3 1 0 0)) as H0. pose proof (H (mkV3 0 1 0)) as H1. pose proof (H (mkV3 0 0 1)) as H2.
  destruct A as [[] [] []], B as [[] [] []]; unfold m3mulv, dot in *; simpl in *.
  inversion H0; inversion H1; inversion H2. apply M3_ext; simpl; apply V3_ext; simpl; lra.
Qed.
Lemma rotation_mul_tr A : rotation A -> m3mul A (m3tr A) = m3id.
Proof. intros H. apply m3_ext_v. intros v. rewrite m3mul_mulv, rotation_mulT by auto. unfold m3mulv, m3id, dot; destruct v; apply V3_ext; simpl; ring. Qed.
Lemma rotation_tr_mul A : rotation A -> m3mul (m3tr A) A = m3id.
Proof. intros H. apply m3_ext_v. intros v. rewrite m3mul_mulv, rotation_Tmul by auto. unfold m3mulv, m3id, dot; destruct v; apply V3_ext; simpl; ring. Qed.

Lemma rotation_id : rotation m3id.
Proof. unfold rotation, orthonormal, righthanded, norm2, dot, cross, m3id; simpl. split; [repeat split; ring|apply V3_ext; simpl; ring]. Qed.
(** Orthonormality is E E' = 1. *)
Lemma orthonormal_iff A : orthonormal A <-> m3mul A (m3tr A) = m3id.
Proof.
  destruct A as [[a b c] [d e f] [g h i]]; unfold orthonormal, norm2, m3mul, m3mulv, m3tr, m3id, dot; simpl. split.
  - intros (H1 & H2 & H3 & H4 & H5 & H6). apply M3_ext; simpl; apply V3_ext; simpl; lra.
  - intros H. inversion H. repeat split; lra.
Qed.
Definition det3 (A : M3) : R := dot (cross (row0 A) (row1 A)) (row2 A).
Lemma det3_mul A B : det3 (m3mul A B) = det3 A * det3 B.
Proof. destruct A as [[] [] []], B as [[] [] []]; unfold det3, m3mul, m3mulv, m3tr, dot, cross; simpl; ring. Qed.
Lemma det3_tr A : det3 (m3tr A) = det3 A.
Proof. destruct A as [[] [] []]; unfold det3, m3tr, dot, cross; simpl; ring. Qed.
Lemma rotation_det A : rotation A -> det3 A = 1.
Proof. intros ((_ & _ & H & _) & R). unfold det3. rewrite R. exact H. Qed.
Lemma sum_sqr_0 x y z : x * x + y * y + z * z = 0 -> x = 0 /\ y = 0 /\ z = 0.
Proof.
  intros H. pose proof (Rle_0_sqr x) as X. pose proof (Rle_0_sqr y) as Y. pose proof (Rle_0_sqr z) as Z. unfold Rsqr in *.
  repeat split; apply Rsqr_0_uniq; unfold Rsqr; lra.
Qed.
(** Orthonormal with determinant one is right-handed. *)
Lemma det_rotation A : orthonormal A -> det3 A = 1 -> rotation A.
Proof.
  intros O D. split; auto. pose proof O as O'. apply orthonormal_iff in O'. unfold righthanded, det3 in *.
  set (w := cross (row0 A) (row1 A)) in *.
  assert (N : dot w w = 1).
  { destruct O as (n0 & n1 & _ & d01 & _). unfold norm2 in *.
    transitivity (dot (row0 A) (row0 A) * dot (row1 A) (row1 A) - dot (row0 A) (row1 A) * dot (row0 A) (row1 A)).
    - unfold w. destruct A as [[] [] []]; unfold dot, cross; simpl; ring.
    - rewrite n0, n1, d01. ring. }
  destruct O as (_ & _ & n2 & _). unfold norm2 in n2.
  assert (Z : dot (vsub w (row2 A)) (vsub w (row2 A)) = 0).
  { transitivity (dot w w - 2 * dot w (row2 A) + dot (row2 A) (row2 A)).
    - destruct w, (row2 A); unfold dot, vsub; simpl; ring.
    - rewrite N, D, n2. ring. }
  destruct w as [a b c], (row2 A) as [p q r]; unfold dot, vsub in Z; simpl in Z.
  assert (a - p = 0 /\ b - q = 0 /\ c - r = 0) as (? & ? & ?) by (apply sum_sqr_0; rewrite <- Z; ring).
  apply V3_ext; simpl; lra.
Qed.
Lemma rotation_mul A B : rotation A -> rotation B -> rotation (m3mul A B).
Proof.
  intros HA HB. apply det_rotation.
  - apply orthonormal_iff. rewrite m3tr_mul, m3mul_assoc, <- (m3mul_assoc B), rotation_mul_tr, m3mul_id_l, rotation_mul_tr by auto. reflexivity.
  - rewrite det3_mul, !rotation_det by auto. ring.
Qed.
Lemma rotation_tr A : rotation A -> rotation (m3tr A).
Proof.
  intros HA. apply det_rotation.
  - apply orthonormal_iff. rewrite m3tr_invol. apply rotation_tr_mul; auto.
  - rewrite det3_tr. apply rotation_det; auto.
Qed.

(** * Transforms *)
Lemma rigid_mul X Y : rigid X -> rigid Y -> rigid (pt_mul X Y).
Proof. unfold rigid. simpl. apply rotation_mul. Qed.
Lemma rigid_inv X : rigid X -> rigid (pt_inv X).
Proof. unfold rigid. simpl. apply rotation_tr. Qed.
Lemma rigid_id : rigid pt_id.
Proof. apply rotation_id. Qed.
Lemma pt_mul_assoc X Y Z : pt_mul (pt_mul X Y) Z = pt_mul X (pt_mul Y Z).
Proof.
  destruct X as [A u], Y as [B v], Z as [C w]. unfold pt_mul; simpl. apply PT_ext; simpl; [apply m3mul_assoc|].
  rewrite m3tr_mul, m3mul_mulv, m3mulv_add. destruct w, (m3mulv (m3tr C) v), (m3mulv (m3tr C) (m3mulv (m3tr B) u)); unfold vadd; apply V3_ext; simpl; ring.
Qed.
Lemma pt_mul_id_l X : pt_mul pt_id X = X.
Proof. destruct X as [A u]. unfold pt_mul, pt_id; simpl. apply PT_ext; simpl; [apply m3mul_id_l|]. destruct A as [[] [] []], u; unfold vadd, m3mulv, v0, dot; apply V3_ext; simpl; ring. Qed.
Lemma pt_mul_id_r X : pt_mul X pt_id = X.
Proof. destruct X as [A u]. unfold pt_mul, pt_id; simpl. apply PT_ext; simpl; [apply m3mul_id_r|]. destruct u; unfold vadd, m3mulv, v0, m3tr, m3id, dot; apply V3_ext; simpl; ring. Qed.
Lemma pt_mul_inv_r X : rigid X -> pt_mul X (pt_inv X) = pt_id.
Proof.
  intros H. unfold rigid in H. destruct X as [A u]. unfold pt_mul, pt_inv, pt_id; simpl in *. apply PT_ext; simpl; [apply rotation_mul_tr; auto|].
  rewrite m3tr_invol. destruct (m3mulv A u); unfold vadd, vneg, v0; apply V3_ext; simpl; ring.
Qed.
Lemma pt_mul_inv_l X : rigid X -> pt_mul (pt_inv X) X = pt_id.
Proof.
  intros H. unfold rigid in H. destruct X as [A u]. unfold pt_mul, pt_inv, pt_id; simpl in *. apply PT_ext; simpl; [apply rotation_tr_mul; auto|].
  rewrite m3mulv_neg, rotation_Tmul by auto. destruct u; unfold vadd, vneg, v0; apply V3_ext; simpl; ring.
Qed.
Lemma pt_inv_invol X : rigid X -> pt_inv (pt_inv X) = X.
Proof.
  intros H. unfold rigid in H. destruct X as [A u]. unfold pt_inv; simpl in *. apply PT_ext; simpl; [apply m3tr_invol|].
  rewrite m3mulv_neg, rotation_Tmul by auto. destruct u; unfold vneg; apply V3_ext; simpl; ring.
Qed.
Lemma pt_inv_mul X Y : rigid X -> rigid Y -> pt_inv (pt_mul X Y) = pt_mul (pt_inv Y) (pt_inv X).
Proof.
  intros HX HY. rewrite <- (pt_mul_id_r (pt_inv (pt_mul X Y))).
  rewrite <- (pt_mul_inv_r X) at 1 by auto. rewrite <- (pt_mul_id_l (pt_inv X)) at 1. rewrite <- (pt_mul_inv_r Y) at 1 by auto.
  rewrite (pt_mul_assoc Y), <- (pt_mul_assoc X), <- pt_mul_assoc, pt_mul_inv_l by (apply rigid_mul; auto). apply pt_mul_id_l.
Qed.
