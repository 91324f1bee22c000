(** Three-dimensional vectors, 3x3 matrices and Plücker transforms.
    Models the fixed-size Eigen types and the parts of SpaceVecAlg (sva::PTransformd,
    sva::ForceVecd, sva::MotionVecd) that /repo/src uses. SpaceVecAlg is not part of the
    repository: its formulas are transcribed from its documentation and are part of the
    trusted base. *)
From Verif Require Export Base.

Record V3 := mkV3 { vx : R; vy : R; vz : R }.

Definition v0 : V3 := mkV3 0 0 0.
Definition vadd (a b : V3) : V3 := mkV3 (vx a + vx b) (vy a + vy b) (vz a + vz b).
Definition vsub (a b : V3) : V3 := mkV3 (vx a - vx b) (vy a - vy b) (vz a - vz b).
Definition vneg (a : V3) : V3 := mkV3 (- vx a) (- vy a) (- vz a).
Definition vsc (k : R) (a : V3) : V3 := mkV3 (k * vx a) (k * vy a) (k * vz a).
Definition dot (a b : V3) : R := vx a * vx b + vy a * vy b + vz a * vz b.
Definition cross (a b : V3) : V3 :=
  mkV3 (vy a * vz b - vz a * vy b) (vz a * vx b - vx a * vz b) (vx a * vy b - vy a * vx b).
Definition norm2 (a : V3) : R := dot a a.
Definition norm (a : V3) : R := sqrt (norm2 a).

(** Eigen::Matrix3d, by rows. *)
Record M3 := mkM3 { row0 : V3; row1 : V3; row2 : V3 }.
Definition m3id : M3 := mkM3 (mkV3 1 0 0) (mkV3 0 1 0) (mkV3 0 0 1).
Definition m3mulv (E : M3) (v : V3) : V3 := mkV3 (dot (row0 E) v) (dot (row1 E) v) (dot (row2 E) v).
Definition m3tr (E : M3) : M3 :=
  mkM3 (mkV3 (vx (row0 E)) (vx (row1 E)) (vx (row2 E)))
       (mkV3 (vy (row0 E)) (vy (row1 E)) (vy (row2 E)))
       (mkV3 (vz (row0 E)) (vz (row1 E)) (vz (row2 E))).
(** A * B: row i of the product is B' applied to row i of A. *)
Definition m3mul (A B : M3) : M3 :=
  mkM3 (m3mulv (m3tr B) (row0 A)) (m3mulv (m3tr B) (row1 A)) (m3mulv (m3tr B) (row2 A)).
Definition m3neg (A : M3) : M3 := mkM3 (vneg (row0 A)) (vneg (row1 A)) (vneg (row2 A)).

(** Eigen::AngleAxisd(angle, axis) * v: AngleAxis::toRotationMatrix builds
    c I + s [axis]x + (1-c) axis axis' (Rodrigues). *)
Definition rotate (angle : R) (axis v : V3) : V3 :=
  vadd (vadd (vsc (cos angle) v) (vsc (sin angle) (cross axis v)))
       (vsc ((1 - cos angle) * dot axis v) axis).

(** The rows of the matrix form an orthonormal right-handed frame. *)
Definition orthonormal (E : M3) : Prop :=
  norm2 (row0 E) = 1 /\ norm2 (row1 E) = 1 /\ norm2 (row2 E) = 1 /\
  dot (row0 E) (row1 E) = 0 /\ dot (row0 E) (row2 E) = 0 /\ dot (row1 E) (row2 E) = 0.
Definition righthanded (E : M3) : Prop := cross (row0 E) (row1 E) = row2 E.
Definition rotation (E : M3) : Prop := orthonormal E /\ righthanded E.

(** sva::PTransformd: rotation E and translation r. *)
Record PT := mkPT { ptE : M3; ptr : V3 }.
(** sva::PTransformd(Vector3d), sva::PTransformd(Matrix3d). *)
Definition pt_trans (p : V3) : PT := mkPT m3id p.
Definition pt_rot (E : M3) : PT := mkPT E v0.
(** X1 * X2 = (E1 E2, r2 + E2' r1). *)
Definition pt_mul (X1 X2 : PT) : PT :=
  mkPT (m3mul (ptE X1) (ptE X2)) (vadd (ptr X2) (m3mulv (m3tr (ptE X2)) (ptr X1))).
(** X.inv() = (E', -E r). *)
Definition pt_inv (X : PT) : PT := mkPT (m3tr (ptE X)) (vneg (m3mulv (ptE X) (ptr X))).
Definition pt_id : PT := mkPT m3id v0.
(** A transform whose matrix is a rotation. *)
Definition rigid (X : PT) : Prop := rotation (ptE X).

(** sva::ForceVecd (couple, force) and sva::MotionVecd (angular, linear). *)
Record Spatial := mkSp { ang : V3; linr : V3 }.
Definition sp0 : Spatial := mkSp v0 v0.
Definition sp_add (a b : Spatial) : Spatial := mkSp (vadd (ang a) (ang b)) (vadd (linr a) (linr b)).
Definition sp_neg (a : Spatial) : Spatial := mkSp (vneg (ang a)) (vneg (linr a)).
Definition sp_sc (k : R) (a : Spatial) : Spatial := mkSp (vsc k (ang a)) (vsc k (linr a)).
(** X.transMul(F): (E' n + r x E' f, E' f). *)
Definition pt_transMul (X : PT) (F : Spatial) : Spatial :=
  let f := m3mulv (m3tr (ptE X)) (linr F) in
  mkSp (vadd (m3mulv (m3tr (ptE X)) (ang F)) (cross (ptr X) f)) f.
(** X * m for a motion vector: (E w, E (v - r x w)). *)
Definition pt_mulM (X : PT) (m : Spatial) : Spatial :=
  mkSp (m3mulv (ptE X) (ang m)) (m3mulv (ptE X) (vsub (linr m) (cross (ptr X) (ang m)))).
(** m1.cross(m2) for motion vectors: (w1 x w2, w1 x v2 + v1 x w2). *)
Definition sp_cross (a b : Spatial) : Spatial :=
  mkSp (cross (ang a) (ang b)) (vadd (cross (ang a) (linr b)) (cross (linr a) (ang b))).

Lemma V3_ext a b : vx a = vx b -> vy a = vy b -> vz a = vz b -> a = b.
Proof. destruct a, b; simpl; intros; subst; reflexivity. Qed.

Lemma Spatial_ext a b : ang a = ang b -> linr a = linr b -> a = b.
Proof. destruct a, b; simpl; intros; subst; reflexivity. Qed.

Ltac v3unf :=
  unfold norm2, rotate, m3mul, m3mulv, m3tr, m3neg, dot, cross, vadd, vsub, vneg, vsc, v0, m3id in *;
  simpl in *.
Ltac v3 := intros; apply V3_ext; v3unf; ring.

Lemma vadd_comm a b : vadd a b = vadd b a. Proof. v3. Qed.
Lemma vadd_assoc a b c : vadd a (vadd b c) = vadd (vadd a b) c. Proof. v3. Qed.
Lemma vadd_0_l a : vadd v0 a = a. Proof. v3. Qed.
Lemma vadd_0_r a : vadd a v0 = a. Proof. v3. Qed.
Lemma vneg_vadd a b : vneg (vadd a b) = vadd (vneg a) (vneg b). Proof. v3. Qed.
Lemma vsc_vadd k a b : vsc k (vadd a b) = vadd (vsc k a) (vsc k b). Proof. v3. Qed.
Lemma vsc_plus k l a : vsc (k + l) a = vadd (vsc k a) (vsc l a). Proof. v3. Qed.
Lemma vsc_vsc k l a : vsc k (vsc l a) = vsc (k * l) a. Proof. v3. Qed.
Lemma vsc_0 a : vsc 0 a = v0. Proof. v3. Qed.
Lemma vsc_1 a : vsc 1 a = a. Proof. v3. Qed.
Lemma vsc_v0 k : vsc k v0 = v0. Proof. v3. Qed.
Lemma m3mulv_vadd E a b : m3mulv E (vadd a b) = vadd (m3mulv E a) (m3mulv E b). Proof. v3. Qed.
Lemma m3mulv_vsc E k a : m3mulv E (vsc k a) = vsc k (m3mulv E a). Proof. v3. Qed.
Lemma m3mulv_vneg E a : m3mulv E (vneg a) = vneg (m3mulv E a). Proof. v3. Qed.
Lemma m3mulv_v0 E : m3mulv E v0 = v0. Proof. v3. Qed.
Lemma m3mulv_id a : m3mulv m3id a = a. Proof. v3. Qed.
Lemma m3tr_tr E : m3tr (m3tr E) = E.
Proof. destruct E as [[] [] []]; reflexivity. Qed.
Lemma m3mulv_mul A B v : m3mulv (m3mul A B) v = m3mulv A (m3mulv B v). Proof. v3. Qed.
Lemma dot_comm a b : dot a b = dot b a. Proof. unfold dot; ring. Qed.
Lemma dot_vadd_l a b c : dot (vadd a b) c = dot a c + dot b c. Proof. v3unf; ring. Qed.
Lemma dot_vadd_r a b c : dot a (vadd b c) = dot a b + dot a c. Proof. v3unf; ring. Qed.
Lemma dot_vsc_l k a b : dot (vsc k a) b = k * dot a b. Proof. v3unf; ring. Qed.
Lemma dot_vsc_r k a b : dot a (vsc k b) = k * dot a b. Proof. v3unf; ring. Qed.
Lemma dot_vneg_r a b : dot a (vneg b) = - dot a b. Proof. v3unf; ring. Qed.
Lemma dot_vneg_l a b : dot (vneg a) b = - dot a b. Proof. v3unf; ring. Qed.
Lemma dot_cross_l a b : dot a (cross a b) = 0. Proof. v3unf; ring. Qed.
Lemma dot_cross_r a b : dot b (cross a b) = 0. Proof. v3unf; ring. Qed.
Lemma dot_m3mulv E a b : dot (m3mulv E a) b = dot a (m3mulv (m3tr E) b). Proof. v3unf; ring. Qed.
Lemma norm2_nonneg a : 0 <= norm2 a.
Proof. unfold norm2, dot. nra. Qed.
Lemma norm_nonneg a : 0 <= norm a.
Proof. apply sqrt_pos. Qed.
Lemma norm_sqr a : norm a * norm a = norm2 a.
Proof. apply sqrt_sqrt. apply norm2_nonneg. Qed.

(** Lagrange identity and Cauchy-Schwarz. *)
Lemma lagrange a b : norm2 (cross a b) = norm2 a * norm2 b - dot a b * dot a b.
Proof. v3unf; ring. Qed.
Lemma cauchy_schwarz a b : dot a b * dot a b <= norm2 a * norm2 b.
Proof. pose proof (lagrange a b). pose proof (norm2_nonneg (cross a b)). lra. Qed.
Lemma cauchy_schwarz_norm a b : Rabs (dot a b) <= norm a * norm b.
Proof.
  apply Rsqr_incr_0_var; [|apply Rmult_le_pos; apply norm_nonneg].
  rewrite <- Rsqr_abs. unfold Rsqr.
  replace (norm a * norm b * (norm a * norm b)) with ((norm a * norm a) * (norm b * norm b)) by ring.
  rewrite !norm_sqr. apply cauchy_schwarz.
Qed.
Lemma norm_triangle a b : norm (vadd a b) <= norm a + norm b.
Proof.
  assert (Hp : 0 <= norm a + norm b) by (pose proof (norm_nonneg a); pose proof (norm_nonneg b); lra).
  apply Rsqr_incr_0_var; [|exact Hp]. unfold Rsqr. rewrite norm_sqr.
  assert (norm2 (vadd a b) = norm2 a + norm2 b + 2 * dot a b) as -> by (v3unf; ring).
  pose proof (cauchy_schwarz_norm a b) as HC. pose proof (Rle_abs (dot a b)).
  rewrite <- (norm_sqr a), <- (norm_sqr b). nra.
Qed.
Lemma norm_vsc k a : norm (vsc k a) = Rabs k * norm a.
Proof.
  unfold norm. assert (norm2 (vsc k a) = Rsqr k * norm2 a) as -> by (unfold Rsqr; v3unf; ring).
  rewrite sqrt_mult; [|apply Rle_0_sqr|apply norm2_nonneg]. rewrite sqrt_Rsqr_abs. reflexivity.
Qed.
Lemma norm_v0 : norm v0 = 0.
Proof. unfold norm. replace (norm2 v0) with 0 by (v3unf; ring). apply sqrt_0. Qed.
