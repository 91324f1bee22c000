(** The kinematic tasks keep their promises. *)
From Verif Require Import KinModel KinSpec JacProofs SetPointFacts.
Open Scope list_scope.
Open Scope R_scope.
Local Arguments sumn : simpl never.

(** *** Sums of motion vectors *)
Fixpoint spsum (n : nat) (f : nat -> Spatial) : Spatial :=
  match n with 0%nat => sp0 | S n => sp_add (spsum n f) (f n) end.
Definition jsp (mb : multibody) (path : list nat) (f : nat -> Spatial) (x : nat -> R) : Spatial :=
  spsum (pathDof mb path) (fun c => sp_sc (x (nth c (pathCols mb path) 0%nat)) (f c)).
Lemma e3_add a b i : e3 (vadd a b) i = e3 a i + e3 b i.
Proof. destruct i as [|[|i]]; reflexivity. Qed.
Lemma e3_neg a i : e3 (vneg a) i = - e3 a i.
Proof. destruct i as [|[|i]]; reflexivity. Qed.
Lemma e3_sc k a i : e3 (vsc k a) i = k * e3 a i.
Proof. destruct i as [|[|i]]; reflexivity. Qed.
Lemma e6_add a b i : e6 (sp_add a b) i = e6 a i + e6 b i.
Proof. unfold e6. destruct (i <? 3)%nat; simpl; apply e3_add. Qed.
Lemma e6_neg a i : e6 (sp_neg a) i = - e6 a i.
Proof. unfold e6. destruct (i <? 3)%nat; simpl; apply e3_neg. Qed.
Lemma e6_sc k a i : e6 (sp_sc k a) i = k * e6 a i.
Proof. unfold e6. destruct (i <? 3)%nat; simpl; apply e3_sc. Qed.
Lemma e6_0 i : e6 sp0 i = 0.
Proof. unfold e6. destruct (i <? 3)%nat; [destruct i as [|[|i]]|destruct (i - 3)%nat as [|[|?]]]; reflexivity. Qed.
Lemma e6_spsum n f i : e6 (spsum n f) i = sumn n (fun c => e6 (f c) i).
Proof. induction n as [|n IH]; simpl; [apply e6_0|]. rewrite e6_add, IH. reflexivity. Qed.
Lemma e6_jsp mb path f x i : e6 (jsp mb path f x) i = jacDot mb path (fun c => e6 (f c) i) x.
Proof. unfold jsp, jacDot. rewrite e6_spsum. apply sumn_ext. intros c _. rewrite e6_sc. ring. Qed.
Lemma e6_ext a b : (forall i, (i < 6)%nat -> e6 a i = e6 b i) -> a = b.
Proof.
  intros H. apply Spatial_ext; apply V3_ext.
  - apply (H 0%nat); lia.
  - apply (H 1%nat); lia.
  - apply (H 2%nat); lia.
  - apply (H 3%nat); lia.
  - apply (H 4%nat); lia.
  - apply (H 5%nat); lia.
Qed.
Lemma e6_ang s i : (i < 3)%nat -> e3 (ang s) i = e6 s i.
Proof. intros H. unfold e6. replace (i <? 3)%nat with true by (symmetry; apply Nat.ltb_lt; lia). reflexivity. Qed.
Lemma e6_linr s i : e3 (linr s) i = e6 s (3 + i).
Proof. unfold e6. replace (3 + i <? 3)%nat with false by (symmetry; apply Nat.ltb_ge; lia). f_equal; lia. Qed.
Lemma spsum_lin L n f : L sp0 = sp0 -> (forall a b, L (sp_add a b) = sp_add (L a) (L b)) ->
  L (spsum n f) = spsum n (fun c => L (f c)).
Proof. intros H0 Ha. induction n as [|n IH]; simpl; [exact H0|]. rewrite Ha, IH. reflexivity. Qed.
Lemma spsum_ext n f g : (forall c, f c = g c) -> spsum n f = spsum n g.
Proof. intros E. induction n as [|n IH]; simpl; [reflexivity|]. rewrite IH, E. reflexivity. Qed.
Lemma jsp_ext mb path f g x : (forall c, f c = g c) -> jsp mb path f x = jsp mb path g x.
Proof. intros E. apply spsum_ext. intros c. rewrite E. reflexivity. Qed.
Lemma jsp_lin L mb path f x : (forall a b, L (sp_add a b) = sp_add (L a) (L b)) -> (forall k a, L (sp_sc k a) = sp_sc k (L a)) ->
  L (jsp mb path f x) = jsp mb path (fun c => L (f c)) x.
Proof.
  intros Ha Hs. unfold jsp. rewrite (spsum_lin L).
  - apply spsum_ext. intros c. apply Hs.
  - assert (Z : forall a, sp_sc 0 a = sp0) by (intros a; unfold sp_sc; rewrite !vsc_0; reflexivity).
    rewrite <- (Z sp0) at 1. rewrite Hs. apply Z.
  - exact Ha.
Qed.
Lemma sp3 a b : ang a = ang b -> linr a = linr b -> a = b. Proof. apply Spatial_ext. Qed.
Ltac sp := intros; apply Spatial_ext; unfold pt_mulM, sp_add, sp_neg, sp_sc, sp_cross, sp0; simpl; v3.
Lemma mulM_add X a b : pt_mulM X (sp_add a b) = sp_add (pt_mulM X a) (pt_mulM X b). Proof. sp. Qed.
Lemma mulM_sc X k a : pt_mulM X (sp_sc k a) = sp_sc k (pt_mulM X a). Proof. sp. Qed.
Lemma jsp_mulM X mb path f x : pt_mulM X (jsp mb path f x) = jsp mb path (fun c => pt_mulM X (f c)) x.
Proof. apply (jsp_lin (pt_mulM X)); [apply mulM_add|apply mulM_sc]. Qed.

(** *** The motion, with motion vectors *)
Lemma moves_vel mb path K al ald t : movesAt mb path K al ald t -> bkVelB (K t) = jsp mb path (bkCol (K t)) (al t).
Proof. intros [_ V _ _ _]. apply e6_ext. intros i Hi. rewrite e6_jsp. apply V, Hi. Qed.
Lemma dS_of_e6 f t a : (forall i, (i < 6)%nat -> dlim (fun s => e6 (f s) i) t (e6 a i)) -> dS f t a.
Proof.
  intros H. split; split; [|split| |split].
  - apply (H 0%nat); lia.
  - apply (H 1%nat); lia.
  - apply (H 2%nat); lia.
  - apply (H 3%nat); lia.
  - apply (H 4%nat); lia.
  - apply (H 5%nat); lia.
Qed.
Lemma dV_e3 f t a i : dV f t a -> dlim (fun s => e3 (f s) i) t (e3 a i).
Proof. intros (A & B & C). destruct i as [|[|i]]; assumption. Qed.
Lemma dS_e6 f t a i : dS f t a -> dlim (fun s => e6 (f s) i) t (e6 a i).
Proof. intros (A & B). unfold e6. destruct (i <? 3)%nat; [apply (dV_e3 (fun s => ang (f s)))|apply (dV_e3 (fun s => linr (f s)))]; assumption. Qed.
Lemma moves_acc mb path K al ald t : movesAt mb path K al ald t ->
  dS (fun s => bkVelB (K s)) t (sp_add (jsp mb path (bkCol (K t)) (ald t)) (bkNAccB (K t))).
Proof. intros [_ _ _ _ A]. apply dS_of_e6. intros i Hi. rewrite e6_add, e6_jsp. apply A, Hi. Qed.

(** A frame that turns at the rate om: F' = [om] F. *)
Lemma turning F p V t om A : dM F t (m3mul (skewm om) (F t)) -> dS V t A ->
  dS (fun s => pt_mulM (mkPT (F s) p) (V s)) t
     (sp_add (pt_mulM (mkPT (F t) p) A) (sp_cross (mkSp om v0) (pt_mulM (mkPT (F t) p) (V t)))).
Proof.
  intros HF (HA & HB). unfold pt_mulM; split; simpl.
  - eapply dV_eq; [apply dV_mulv; [exact HF|exact HA]|]. rewrite m3mulv_mul, skewm_mulv. v3.
  - eapply dV_eq; [apply dV_mulv; [exact HF|apply dV_sub; [exact HB|apply dV_cross; [apply dV_const|exact HA]]]|].
    rewrite m3mulv_mul, skewm_mulv. v3.
Qed.
(** Columns of a Jacobian seen from a turning frame. *)
Lemma turning_acc mb path K al ald t F p om : movesAt mb path K al ald t -> dM F t (m3mul (skewm om) (F t)) ->
  dS (fun s => pt_mulM (mkPT (F s) p) (bkVelB (K s))) t
     (sp_add (jsp mb path (fun c => pt_mulM (mkPT (F t) p) (bkCol (K t) c)) (ald t)) (rbdNAcc (mkPT (F t) p) (mkSp om v0) (K t))).
Proof.
  intros M HF. eapply dS_eq; [apply turning; [exact HF|apply (moves_acc _ _ _ _ _ _ M)]|]. cbv beta.
  rewrite mulM_add, jsp_mulM. unfold rbdNAcc. apply Spatial_ext; simpl; v3.
Qed.


(** Rates of the frames that are used. *)
Lemma tr_rate E w : m3tr (m3neg (m3mul (skewm w) E)) = m3mul (m3tr E) (skewm w).
Proof. apply M3_ext; v3. Qed.
Lemma skew_rot F w : rotation F -> m3mul F (skewm w) = m3mul (skewm (m3mulv F w)) F.
Proof.
  intros R. apply m3_ext_v. intros v. rewrite !m3mul_mulv, !skewm_mulv, rotation_cross by auto. reflexivity.
Qed.
Lemma frameW_rate mb path K al ald t : movesAt mb path K al ald t ->
  dM (fun s => m3tr (ptE (bkPos (K s)))) t
     (m3mul (skewm (m3mulv (m3tr (ptE (bkPos (K t)))) (ang (bkVelB (K t))))) (m3tr (ptE (bkPos (K t))))).
Proof.
  intros M. pose proof M as [RG _ RT _ _]. eapply dM_eq; [apply dM_tr, RT|]. rewrite tr_rate. apply skew_rot.
  apply rotation_tr, RG.
Qed.
Lemma velW_rate mb path K al ald t p : movesAt mb path K al ald t ->
  dS (fun s => rbdVelW p (K s)) t (sp_add (jsp mb path (fun c => rbdColW p (K t) c) (ald t)) (rbdNAccW p (K t))).
Proof. intros M. apply (turning_acc mb path K al ald t (fun s => m3tr (ptE (bkPos (K s)))) p _ M), (frameW_rate _ _ _ _ _ _ M). Qed.
Lemma velW_jac mb path K al ald t p : movesAt mb path K al ald t -> rbdVelW p (K t) = jsp mb path (fun c => rbdColW p (K t) c) (al t).
Proof. intros M. unfold rbdVelW, rbdVel. rewrite (moves_vel _ _ _ _ _ _ M) at 1. apply jsp_mulM. Qed.
(** A frame fixed to the body. *)
Lemma vel_rate mb path K al ald t X : movesAt mb path K al ald t ->
  dS (fun s => rbdVel X (K s)) t (sp_add (jsp mb path (fun c => pt_mulM X (bkCol (K t) c)) (ald t)) (rbdNAcc X sp0 (K t))).
Proof.
  intros M. eapply dS_eq; [apply dS_mulM, (moves_acc _ _ _ _ _ _ M)|]. rewrite mulM_add, jsp_mulM.
  unfold rbdNAcc. apply Spatial_ext; simpl; v3.
Qed.
Lemma vel_jac mb path K al ald t X : movesAt mb path K al ald t -> rbdVel X (K t) = jsp mb path (fun c => pt_mulM X (bkCol (K t) c)) (al t).
Proof. intros M. unfold rbdVel. rewrite (moves_vel _ _ _ _ _ _ M) at 1. apply jsp_mulM. Qed.
(** jacobian(mb, mbc, X * bodyPosW) are the columns seen from X. *)
Lemma pt_mul_inv_r X P : rigid P -> pt_mul (pt_mul X P) (pt_inv P) = X.
Proof.
  intros R. unfold pt_mul, pt_inv; simpl. apply PT_ext; simpl.
  - rewrite m3mul_assoc, (rotation_mul_tr _ R), m3mul_id_r. reflexivity.
  - rewrite m3tr_invol, m3mulv_add, rotation_mulT by exact R. v3.
Qed.
Lemma colX X k c : rigid (bkPos k) -> rbdColX (pt_mul X (bkPos k)) k c = pt_mulM X (bkCol k c).
Proof. intros R. unfold rbdColX. rewrite pt_mul_inv_r by exact R. reflexivity. Qed.

(** *** Any task whose Jacobian is one full Jacobian *)
Lemma kin_gen m mb path (g : R -> nat -> nat -> R) jm (ev sp na : R -> vec R) (U : R -> res hlOut) :
  wfPath mb path -> (forall s, mrows (jm s) = m /\ mcols (jm s) = nrDof mb) ->
  (forall s, vlen (ev s) = m /\ vlen (sp s) = m /\ vlen (na s) = m) ->
  (forall s, U s = (do J <- fullJacobian mb path (mkMat m (pathDof mb path) (g s)) (jm s); Ok (mkHL J (ev s) (sp s) (na s)))) ->
  exists H, yields m mb U H /\
    (forall s, hErr (H s) = ev s /\ hSpeed (H s) = sp s /\ hNAcc (H s) = na s) /\
    (forall s i x, (i < m)%nat -> sumn (mcols (hJac (H s))) (fun j => mget (hJac (H s)) i j * x j) = jacDot mb path (g s i) x).
Proof.
  intros W Sz Vl HU.
  assert (A : forall s, exists J, fullJacobian mb path (mkMat m (pathDof mb path) (g s)) (jm s) = Ok J /\ mrows J = m /\ mcols J = nrDof mb /\
    (forall i x, (i < m)%nat -> sumn (nrDof mb) (fun j => mget J i j * x j) = jacDot mb path (g s i) x)).
  { intros s. destruct (Sz s) as (S1 & S2).
    destruct (fullJacobian_spec mb path (mkMat m (pathDof mb path) (g s)) (jm s)) as (J & E & R & C & _ & D); simpl; try lia; auto.
    exists J. repeat split; auto; lia. }
  exists (fun s => match U s with Ok h => h | _ => mkHL (mzero 0 0) (vfill 0 0) (vfill 0 0) (vfill 0 0) end).
  split; [|split].
  - intros s. destruct (A s) as (J & E & R & C & D). destruct (Vl s) as (V1 & V2 & V3). rewrite HU, E. simpl. unfold hlSizes; simpl. auto 10.
  - intros s. destruct (A s) as (J & E & R & C & D). rewrite HU, E. simpl. auto.
  - intros s i x Hi. destruct (A s) as (J & E & R & C & D). rewrite HU, E. simpl. rewrite C. apply D, Hi.
Qed.
