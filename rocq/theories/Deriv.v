(** Derivatives of vector-valued functions of time (mathematics only: no code is modelled here). *)
From Verif Require Export RigidProofs.
Require Import Coq.Reals.Reals Coq.micromega.Lra.
Open Scope R_scope.

(** f has the derivative a at time t. *)
Definition dlim (f : R -> R) (t a : R) : Prop := derivable_pt_lim f t a.
Definition dV (f : R -> V3) (t : R) (a : V3) : Prop :=
  dlim (fun s => vx (f s)) t (vx a) /\ dlim (fun s => vy (f s)) t (vy a) /\ dlim (fun s => vz (f s)) t (vz a).
Definition dM (f : R -> M3) (t : R) (a : M3) : Prop :=
  dV (fun s => row0 (f s)) t (row0 a) /\ dV (fun s => row1 (f s)) t (row1 a) /\ dV (fun s => row2 (f s)) t (row2 a).
Definition dS (f : R -> Spatial) (t : R) (a : Spatial) : Prop :=
  dV (fun s => ang (f s)) t (ang a) /\ dV (fun s => linr (f s)) t (linr a).

Lemma dl_const c t : dlim (fun _ => c) t 0. Proof. apply derivable_pt_lim_const. Qed.
Lemma dl_id t : dlim (fun s => s) t 1. Proof. apply derivable_pt_lim_id. Qed.
Lemma dl_plus f g t a b : dlim f t a -> dlim g t b -> dlim (fun s => f s + g s) t (a + b).
Proof. apply derivable_pt_lim_plus. Qed.
Lemma dl_minus f g t a b : dlim f t a -> dlim g t b -> dlim (fun s => f s - g s) t (a - b).
Proof. apply derivable_pt_lim_minus. Qed.
Lemma dl_opp f t a : dlim f t a -> dlim (fun s => - f s) t (- a).
Proof. apply derivable_pt_lim_opp. Qed.
Lemma dl_mult f g t a b : dlim f t a -> dlim g t b -> dlim (fun s => f s * g s) t (a * g t + f t * b).
Proof. apply derivable_pt_lim_mult. Qed.
Lemma dl_comp f g t a b : dlim f t a -> dlim g (f t) b -> dlim (fun s => g (f s)) t (b * a).
Proof. apply (derivable_pt_lim_comp f g t a b). Qed.
Lemma dl_eq f t a b : dlim f t a -> a = b -> dlim f t b.
Proof. intros H <-; exact H. Qed.
Lemma dl_ext f g t a : (forall s, f s = g s) -> dlim f t a -> dlim g t a.
Proof. unfold dlim, derivable_pt_lim. intros E H eps He. destruct (H eps He) as (d & Hd). exists d. intros h H1 H2. rewrite <- !E. auto. Qed.
Lemma dl_unique f t a b : dlim f t a -> dlim f t b -> a = b.
Proof. apply uniqueness_limite. Qed.
(** Only the values near t matter. *)
Lemma dl_near f g t a d : 0 < d -> (forall s, Rabs (s - t) < d -> f s = g s) -> dlim f t a -> dlim g t a.
Proof.
  unfold dlim, derivable_pt_lim. intros Hd E H eps He. destruct (H eps He) as (d' & Hd').
  assert (Hm : 0 < Rmin d' d) by (apply Rmin_pos; [apply cond_pos|exact Hd]). exists (mkposreal _ Hm). intros h H1 H2. simpl in H2.
  assert (A1 : Rabs h < d') by (eapply Rlt_le_trans; [exact H2|apply Rmin_l]).
  assert (A2 : Rabs h < d) by (eapply Rlt_le_trans; [exact H2|apply Rmin_r]).
  rewrite <- !E; [auto| |].
  - replace (t - t) with 0 by ring. rewrite Rabs_R0. exact Hd.
  - replace (t + h - t) with h by ring. exact A2.
Qed.
Lemma dl_sqrt f t a : 0 < f t -> dlim f t a -> dlim (fun s => sqrt (f s)) t (a / (2 * sqrt (f t))).
Proof.
  intros P H. eapply dl_eq; [apply (dl_comp f sqrt t a (/ (2 * sqrt (f t)))); [exact H|apply derivable_pt_lim_sqrt; exact P]|].
  field. apply Rgt_not_eq, sqrt_lt_R0, P.
Qed.
Lemma dl_inv f t a : f t <> 0 -> dlim f t a -> dlim (fun s => / f s) t (- a / (f t * f t)).
Proof.
  intros P H. pose proof (derivable_pt_lim_div (fun _ => 1) f t 0 a (derivable_pt_lim_const 1 t) H P) as D.
  eapply dl_ext with (f := ((fun _ : R => 1) / f)%F).
  - intros s. unfold div_fct. unfold Rdiv. ring.
  - eapply dl_eq; [exact D|]. unfold Rsqr. field. exact P.
Qed.
Lemma dl_sumn n F t D : (forall i, (i < n)%nat -> dlim (fun s => F s i) t (D i)) ->
  dlim (fun s => sumn n (F s)) t (sumn n D).
Proof.
  induction n as [|n IH]; intros H; simpl; [apply dl_const|].
  apply dl_plus; [apply IH; intros; apply H; lia|apply H; lia].
Qed.

Lemma dV_const c t : dV (fun _ => c) t v0.
Proof. repeat split; apply dl_const. Qed.
Lemma dV_add f g t a b : dV f t a -> dV g t b -> dV (fun s => vadd (f s) (g s)) t (vadd a b).
Proof. intros (A & B & C) (A' & B' & C'). repeat split; simpl; apply dl_plus; assumption. Qed.
Lemma dV_sub f g t a b : dV f t a -> dV g t b -> dV (fun s => vsub (f s) (g s)) t (vsub a b).
Proof. intros (A & B & C) (A' & B' & C'). repeat split; simpl; apply dl_minus; assumption. Qed.
Lemma dV_neg f t a : dV f t a -> dV (fun s => vneg (f s)) t (vneg a).
Proof. intros (A & B & C). repeat split; simpl; apply dl_opp; assumption. Qed.
Lemma dV_eq f t a b : dV f t a -> a = b -> dV f t b.
Proof. intros H <-; exact H. Qed.
Lemma dV_ext f g t a : (forall s, f s = g s) -> dV f t a -> dV g t a.
Proof. intros E (A & B & C). repeat split; (eapply dl_ext; [|eassumption]); intros s; cbn beta; rewrite E; reflexivity. Qed.
Lemma dV_unique f t a b : dV f t a -> dV f t b -> a = b.
Proof. intros (A & B & C) (A' & B' & C'). apply V3_ext; eapply dl_unique; eassumption. Qed.
Lemma dV_sc k f t a b : dlim k t a -> dV f t b -> dV (fun s => vsc (k s) (f s)) t (vadd (vsc a (f t)) (vsc (k t) b)).
Proof. intros H (A & B & C). repeat split; simpl; apply (dl_mult k); assumption. Qed.
Lemma dl_dot f g t a b : dV f t a -> dV g t b -> dlim (fun s => dot (f s) (g s)) t (dot a (g t) + dot (f t) b).
Proof.
  intros (A & B & C) (A' & B' & C'). unfold dot.
  eapply dl_eq; [apply dl_plus; [apply dl_plus|]; (apply dl_mult; eassumption)|]; cbn beta; ring.
Qed.
Lemma dV_cross f g t a b : dV f t a -> dV g t b -> dV (fun s => cross (f s) (g s)) t (vadd (cross a (g t)) (cross (f t) b)).
Proof.
  intros (A & B & C) (A' & B' & C'). unfold cross.
  repeat split; simpl; (eapply dl_eq; [apply dl_minus; apply dl_mult; eassumption|]; cbn beta; simpl; ring).
Qed.
Lemma dV_mulv E f t E' a : dM E t E' -> dV f t a -> dV (fun s => m3mulv (E s) (f s)) t (vadd (m3mulv E' (f t)) (m3mulv (E t) a)).
Proof. intros (A & B & C) H. split; [exact (dl_dot _ f t _ a A H)|split; [exact (dl_dot _ f t _ a B H)|exact (dl_dot _ f t _ a C H)]]. Qed.
Lemma dM_const c t : dM (fun _ => c) t (mkM3 v0 v0 v0).
Proof. repeat split; apply dl_const. Qed.
Lemma dM_tr E t E' : dM E t E' -> dM (fun s => m3tr (E s)) t (m3tr E').
Proof. intros ((A & B & C) & (D & E0 & F) & (G & H & I)). repeat split; simpl; assumption. Qed.
Lemma dM_eq E t a b : dM E t a -> a = b -> dM E t b.
Proof. intros H <-; exact H. Qed.
Lemma dM_ext E F t a : (forall s, E s = F s) -> dM E t a -> dM F t a.
Proof. intros X (A & B & C). repeat split; (eapply dl_ext; [|eapply A || eapply B || eapply C]); intros s; cbn beta; rewrite X; reflexivity. Qed.
Definition m3add (A B : M3) : M3 := mkM3 (vadd (row0 A) (row0 B)) (vadd (row1 A) (row1 B)) (vadd (row2 A) (row2 B)).
Lemma dM_mul E F t E' F' : dM E t E' -> dM F t F' ->
  dM (fun s => m3mul (E s) (F s)) t (m3add (m3mul E' (F t)) (m3mul (E t) F')).
Proof.
  intros (A & B & C) HF. pose proof (dM_tr _ _ _ HF) as HT. unfold dM, m3mul, m3add; simpl.
  repeat match goal with |- _ /\ _ => split end; (eapply dV_eq; [apply dV_mulv; eassumption|apply vadd_comm]).
Qed.

Lemma dS_mk f g t a b : dV f t a -> dV g t b -> dS (fun s => mkSp (f s) (g s)) t (mkSp a b).
Proof. intros; split; assumption. Qed.
Lemma dS_ext f g t a : (forall s, f s = g s) -> dS f t a -> dS g t a.
Proof. intros E (A & B). split; (eapply dV_ext; [|eassumption]); intros s; cbn beta; rewrite E; reflexivity. Qed.
Lemma dS_eq f t a b : dS f t a -> a = b -> dS f t b.
Proof. intros H <-; exact H. Qed.
Lemma dS_neg f t a : dS f t a -> dS (fun s => sp_neg (f s)) t (sp_neg a).
Proof. intros (A & B). split; simpl; apply dV_neg; assumption. Qed.
Lemma dS_add f g t a b : dS f t a -> dS g t b -> dS (fun s => sp_add (f s) (g s)) t (sp_add a b).
Proof. intros (A & B) (A' & B'). split; simpl; apply dV_add; assumption. Qed.
Lemma dS_cross f g t a b : dS f t a -> dS g t b ->
  dS (fun s => sp_cross (f s) (g s)) t (sp_add (sp_cross a (g t)) (sp_cross (f t) b)).
Proof.
  intros (A & B) (A' & B'). unfold sp_cross, sp_add; split; simpl.
  - apply dV_cross; assumption.
  - eapply dV_eq; [apply dV_add; apply dV_cross; eassumption|]. v3.
Qed.
(** A constant transform applied to a motion vector. *)
Lemma dS_mulM X f t a : dS f t a -> dS (fun s => pt_mulM X (f s)) t (pt_mulM X a).
Proof.
  intros (A & B). unfold pt_mulM; split; simpl.
  - eapply dV_eq; [apply dV_mulv; [apply dM_const|exact A]|]. v3.
  - eapply dV_eq; [apply dV_mulv; [apply dM_const|apply dV_sub; [exact B|apply dV_cross; [apply dV_const|exact A]]]|]. v3.
Qed.

(** The matrix of [u -> w x u]. *)
Definition skewm (w : V3) : M3 := mkM3 (mkV3 0 (- vz w) (vy w)) (mkV3 (vz w) 0 (- vx w)) (mkV3 (- vy w) (vx w) 0).
Lemma skewm_mulv w u : m3mulv (skewm w) u = cross w u.
Proof. v3. Qed.
