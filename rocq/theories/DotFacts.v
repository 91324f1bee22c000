(** The derivative of the Jacobian of each task. *)
From Verif Require Export DotSpec.
From Verif Require Import KinFacts KinTaskFacts TreeFacts JacProofs ComFacts MomFacts.
Require Import Lia Lra FunctionalExtensionality.
Open Scope list_scope.
Open Scope R_scope.
Local Arguments sumn : simpl never.

(** *** Columns *)
Lemma colW_rate mb path K dcol al ald t p c : movesAt mb path K al ald t -> dS (fun s => bkCol (K s) c) t (dcol c) ->
  dS (fun s => rbdColW p (K s) c) t (rbdColWDot p (K t) dcol c).
Proof.
  intros M D. unfold rbdColW, rbdColWDot, rbdFrameW.
  apply (turning (fun s => m3tr (ptE (bkPos (K s)))) p (fun s => bkCol (K s) c) t _ _ (frameW_rate _ _ _ _ _ _ M) D).
Qed.

(** *** Any task whose Jacobian is one full Jacobian *)
Definition delta (j j' : nat) : R := if Nat.eqb j j' then 1 else 0.
Lemma delta_at n f j : (j < n)%nat -> sumn n (fun j' => f j' * delta j j') = f j.
Proof.
  intros Hj. rewrite (sumn_delta n j) by (auto; intros i _ N; unfold delta; replace (Nat.eqb j i) with false by (symmetry; apply Nat.eqb_neq; lia); ring).
  unfold delta. rewrite Nat.eqb_refl. ring.
Qed.
Lemma jacDot_dl mb path (g : R -> nat -> R) g' x t : (forall c, (c < pathDof mb path)%nat -> dlim (fun s => g s c) t (g' c)) ->
  dlim (fun s => jacDot mb path (g s) x) t (jacDot mb path g' x).
Proof.
  intros H. unfold jacDot. apply (dl_sumn (pathDof mb path) (fun s c => g s c * x (nth c (pathCols mb path) 0%nat)) t (fun c => g' c * x (nth c (pathCols mb path) 0%nat))).
  intros c Hc. eapply dl_eq; [apply dl_mult; [apply H, Hc|apply dl_const]|]. cbv beta. ring.
Qed.
Lemma rate_normal m mb H t D al ald (v : R -> nat -> R) : jacRate m mb H t D -> (forall s, mcols (hJac (H s)) = nrDof mb) ->
  (forall s i, (i < m)%nat -> sumn (nrDof mb) (fun j => mget (hJac (H s)) i j * al s j) = v s i) -> (forall j, dlim (fun s => al s j) t (ald t j)) ->
  (forall i, (i < m)%nat -> dlim (fun s => v s i) t (taskAcc (H t) 0 (ald t) i)) -> dotIsNormal m mb H al t D.
Proof.
  intros (_ & _ & JR) SZ SV DA DV i Hi.
  assert (E : dlim (fun s => v s i) t (sumn (nrDof mb) (fun j => mget D i j * al t j + mget (hJac (H t)) i j * ald t j))).
  { eapply dl_ext; [intros s; apply (SV s i Hi)|]. apply (dl_sumn (nrDof mb) (fun s j => mget (hJac (H s)) i j * al s j)).
    intros j Hj. apply dl_mult; [apply JR; assumption|apply DA]. }
  pose proof (dl_unique _ _ _ _ E (DV i Hi)) as Q. rewrite sumn_plus in Q. unfold taskAcc in Q. rewrite SZ in Q. cbn [Nat.add] in Q. lra.
Qed.
Lemma dot_gen m mb path (g : R -> nat -> nat -> R) g' jm jd (ev sp na : R -> vec R) (U : R -> res hlOut) t :
  wfPath mb path -> (forall s, mrows (jm s) = m /\ mcols (jm s) = nrDof mb) -> mrows jd = m /\ mcols jd = nrDof mb ->
  (forall s, vlen (ev s) = m /\ vlen (sp s) = m /\ vlen (na s) = m) ->
  (forall s, U s = (do J <- fullJacobian mb path (mkMat m (pathDof mb path) (g s)) (jm s); Ok (mkHL J (ev s) (sp s) (na s)))) ->
  (forall i c, (i < m)%nat -> (c < pathDof mb path)%nat -> dlim (fun s => g s i c) t (g' i c)) ->
  exists H D, yields m mb U H /\ fullJacobian mb path (mkMat m (pathDof mb path) g') jd = Ok D /\ jacRate m mb H t D /\
    forall (al ald : R -> nat -> R) (v : R -> nat -> R), (forall s i, (i < m)%nat -> jacDot mb path (g s i) (al s) = v s i) -> (forall j, dlim (fun s => al s j) t (ald t j)) ->
      (forall i, (i < m)%nat -> dlim (fun s => v s i) t (jacDot mb path (g t i) (ald t) + vget (na t) i)) -> dotIsNormal m mb H al t D.
Proof.
  intros W Sz (D1 & D2) Vl HU DG. destruct (kin_gen m mb path g jm ev sp na U W Sz Vl HU) as (H & Y & HV & HJ).
  destruct (fullJacobian_spec mb path (mkMat m (pathDof mb path) g') jd) as (D & ED & RD & CD & _ & DD); cbn [mrows mcols]; try lia; auto. cbn [mget mrows] in DD.
  assert (SZ : forall s, mcols (hJac (H s)) = nrDof mb) by (intros s; apply (Y s)).
  assert (JR : jacRate m mb H t D).
  { split; [congruence|]. split; [congruence|]. intros i j Hi Hj. apply (dl_ext (fun s => jacDot mb path (g s i) (delta j))).
    - intros s. rewrite <- (HJ s i (delta j) Hi), SZ. apply (delta_at (nrDof mb) (fun j' => mget (hJac (H s)) i j') j Hj).
    - rewrite <- (delta_at (nrDof mb) (fun j' => mget D i j') j Hj), (DD i (delta j) Hi). apply jacDot_dl. intros c Hc. apply DG; assumption. }
  exists H, D. split; [exact Y|]. split; [exact ED|]. split; [exact JR|]. intros al ald v SV DA DV.
  apply (rate_normal m mb H t D al ald v JR SZ); [|exact DA|].
  - intros s i Hi. rewrite <- (SZ s), (HJ s i (al s) Hi). apply SV, Hi.
  - intros i Hi. eapply dl_eq; [apply DV, Hi|]. unfold taskAcc. cbn [Nat.add]. rewrite (HJ t i (ald t) Hi). destruct (HV t) as (_ & _ & ->). reflexivity.
Qed.

(** Linear and angular rows in the world. *)
Lemma world_lin mb path K dcol al ald t p : dotMoves mb path K dcol al ald t ->
  (forall i c, (i < 3)%nat -> (c < pathDof mb path)%nat -> dlim (fun s => e3 (linr (rbdColW p (K s) c)) i) t (e3 (linr (rbdColWDot p (K t) dcol c)) i)) /\
  (forall s i, (i < 3)%nat -> jacDot mb path (fun c => e3 (linr (rbdColW p (K s) c)) i) (al s) = e3 (linr (rbdVelW p (K s))) i) /\
  (forall i, (i < 3)%nat -> dlim (fun s => e3 (linr (rbdVelW p (K s))) i) t (jacDot mb path (fun c => e3 (linr (rbdColW p (K t) c)) i) (ald t) + e3 (linr (rbdNAccW p (K t))) i)).
Proof.
  intros [W M C A]. split; [|split].
  - intros i c Hi Hc. apply (dV_e3 (fun s => linr (rbdColW p (K s) c))). apply (colW_rate mb path K dcol al ald t p c (M t) (C c Hc)).
  - intros s i Hi. apply rows_lin; [exact Hi|]. apply (velW_jac _ _ _ _ _ _ _ (M s)).
  - intros i Hi. rewrite (rows_lin _ _ _ _ _ i Hi eq_refl), <- e3_add. apply (dV_e3 (fun s => linr (rbdVelW p (K s))) t (linr (sp_add (jsp mb path (fun c => rbdColW p (K t) c) (ald t)) (rbdNAccW p (K t))))).
    apply (velW_rate _ _ _ _ _ _ p (M t)).
Qed.
Lemma world_ang mb path K dcol al ald t p : dotMoves mb path K dcol al ald t ->
  (forall i c, (i < 3)%nat -> (c < pathDof mb path)%nat -> dlim (fun s => e3 (ang (rbdColW p (K s) c)) i) t (e3 (ang (rbdColWDot p (K t) dcol c)) i)) /\
  (forall s i, (i < 3)%nat -> jacDot mb path (fun c => e3 (ang (rbdColW p (K s) c)) i) (al s) = e3 (ang (rbdVelW p (K s))) i) /\
  (forall i, (i < 3)%nat -> dlim (fun s => e3 (ang (rbdVelW p (K s))) i) t (jacDot mb path (fun c => e3 (ang (rbdColW p (K t) c)) i) (ald t) + e3 (ang (rbdNAccW p (K t))) i)).
Proof.
  intros [W M C A]. split; [|split].
  - intros i c Hi Hc. apply (dV_e3 (fun s => ang (rbdColW p (K s) c))). apply (colW_rate mb path K dcol al ald t p c (M t) (C c Hc)).
  - intros s i Hi. apply rows_ang; [exact Hi|]. apply (velW_jac _ _ _ _ _ _ _ (M s)).
  - intros i Hi. rewrite (rows_ang _ _ _ _ _ i Hi eq_refl), <- e3_add. apply (dV_e3 (fun s => ang (rbdVelW p (K s))) t (ang (sp_add (jsp mb path (fun c => rbdColW p (K t) c) (ald t)) (rbdNAccW p (K t))))).
    apply (velW_rate _ _ _ _ _ _ p (M t)).
Qed.

(** *** The tasks *)
Theorem position_dot mb path pos bp ops K dcol al ald t jm jd : sized 3 mb jm -> mrows jd = 3%nat /\ mcols jd = nrDof mb -> dotMoves mb path K dcol al ald t ->
  let T := fold_left posStep ops (posInit pos bp path) in
  exists H D, yields 3 mb (fun s => posUpdate mb T (K s) (jm s)) H /\ posUpdateDot mb T (K t) dcol jd = Ok D /\ jacRate 3 mb H t D /\ dotIsNormal 3 mb H al t D.
Proof.
  intros Sz Jd M T. assert (EP : ptPath T = path). { unfold T. clear. generalize (posInit pos bp path) (eq_refl : ptPath (posInit pos bp path) = path). induction ops as [|[p|p] ops IH]; intros T0 E; cbn [fold_left]; auto; apply IH; exact E. }
  clearbody T. subst path. destruct (world_lin mb (ptPath T) K dcol al ald t (ptJacP T) M) as (A & B & C).
  destruct (dot_gen 3 mb (ptPath T) (fun s i c => e3 (linr (rbdColW (ptJacP T) (K s) c)) i) (fun i c => e3 (linr (rbdColWDot (ptJacP T) (K t) dcol c)) i) jm jd
     (fun s => vec3 (vsub (ptPos T) (ptr (pt_mul (ptPoint T) (bkPos (K s))))))
     (fun s => vec3 (linr (rbdVelW (ptJacP T) (K s)))) (fun s => vec3 (linr (rbdNAccW (ptJacP T) (K s))))
     (fun s => posUpdate mb T (K s) (jm s)) t (dmWf _ _ _ _ _ _ _ M)) as (H & D & Y & ED & JR & DN); auto.
  exists H, D. repeat (split; [assumption|]). apply (DN al ald (fun s i => e3 (linr (rbdVelW (ptJacP T) (K s))) i) B (dmAl _ _ _ _ _ _ _ M) C).
Qed.
Theorem orientation_dot rv mb path ori K dcol al ald t jm jd : sized 3 mb jm -> mrows jd = 3%nat /\ mcols jd = nrDof mb -> dotMoves mb path K dcol al ald t ->
  exists H D, yields 3 mb (fun s => oriUpdate rv mb path ori (K s) (jm s)) H /\ oriUpdateDot mb path (K t) dcol jd = Ok D /\ jacRate 3 mb H t D /\ dotIsNormal 3 mb H al t D.
Proof.
  intros Sz Jd M. destruct (world_ang mb path K dcol al ald t v0 M) as (A & B & C).
  destruct (dot_gen 3 mb path (fun s i c => e3 (ang (rbdColW v0 (K s) c)) i) (fun i c => e3 (ang (rbdColWDot v0 (K t) dcol c)) i) jm jd
     (fun s => vec3 (rotError rv (ptE (bkPos (K s))) ori)) (fun s => vec3 (ang (rbdVelW v0 (K s)))) (fun s => vec3 (ang (rbdNAccW v0 (K s))))
     (fun s => oriUpdate rv mb path ori (K s) (jm s)) t (dmWf _ _ _ _ _ _ _ M)) as (H & D & Y & ED & JR & DN); auto.
  exists H, D. repeat (split; [assumption|]). apply (DN al ald (fun s i => e3 (ang (rbdVelW v0 (K s))) i) B (dmAl _ _ _ _ _ _ _ M) C).
Qed.
Theorem linvel_dot mb path vel p K dcol al ald t jm jd : sized 3 mb jm -> mrows jd = 3%nat /\ mcols jd = nrDof mb -> dotMoves mb path K dcol al ald t ->
  exists H D, yields 3 mb (fun s => linVelUpdate mb path vel p (K s) (jm s)) H /\ linVelUpdateDot mb path p (K t) dcol jd = Ok D /\ jacRate 3 mb H t D /\ dotIsNormal 3 mb H al t D.
Proof.
  intros Sz Jd M. destruct (world_lin mb path K dcol al ald t p M) as (A & B & C).
  destruct (dot_gen 3 mb path (fun s i c => e3 (linr (rbdColW p (K s) c)) i) (fun i c => e3 (linr (rbdColWDot p (K t) dcol c)) i) jm jd
     (fun s => vec3 (vsub vel (linr (rbdVelW p (K s))))) (fun s => vec3 v0) (fun s => vec3 (linr (rbdNAccW p (K s))))
     (fun s => linVelUpdate mb path vel p (K s) (jm s)) t (dmWf _ _ _ _ _ _ _ M)) as (H & D & Y & ED & JR & DN); auto.
  exists H, D. repeat (split; [assumption|]). apply (DN al ald (fun s i => e3 (linr (rbdVelW p (K s))) i) B (dmAl _ _ _ _ _ _ _ M) C).
Qed.
(** SurfaceOrientationTask: the derivative seen from the body, not from the surface. *)
Lemma mat_entry (A : M3) (u : nat -> V3) j i : e3 (m3mulv A (u j)) i = e3 (m3mulv A (mkV3 (e3 (u j) 0) (e3 (u j) 1) (e3 (u j) 2))) i.
Proof. destruct (u j); reflexivity. Qed.
Lemma jacDot_mulv mb path A (f : nat -> V3) x i : jacDot mb path (fun c => e3 (m3mulv A (f c)) i) x =
  e3 (m3mulv A (mkV3 (jacDot mb path (fun c => e3 (f c) 0) x) (jacDot mb path (fun c => e3 (f c) 1) x) (jacDot mb path (fun c => e3 (f c) 2) x))) i.
Proof.
  unfold jacDot. induction (pathDof mb path) as [|n IH].
  - destruct i as [|[|i]]; unfold sumn, m3mulv, dot; cbn; ring.
  - unfold sumn; fold sumn. rewrite IH. set (a := sumn n _). set (b := sumn n _). set (d := sumn n _). set (q := x _). clearbody a b d q.
    destruct i as [|[|i]]; unfold m3mulv, dot; cbn; ring.
Qed.
Theorem surface_orientation_dot rv mb path ori X K dcol al ald t jm jd : sized 3 mb jm -> mrows jd = 3%nat /\ mcols jd = nrDof mb -> dotMoves mb path K dcol al ald t ->
  exists H D, yields 3 mb (fun s => surfOriUpdate rv mb path ori X (K s) (jm s)) H /\ surfOriUpdateDot mb path dcol jd = Ok D /\ mrows D = 3%nat /\ mcols D = nrDof mb /\
    let turned := mkMat 3 (nrDof mb) (fun i j => e3 (m3mulv (ptE X) (mkV3 (mget D 0 j) (mget D 1 j) (mget D 2 j))) i) in
    jacRate 3 mb H t turned /\ dotIsNormal 3 mb H al t turned.
Proof.
  intros Sz Jd M. pose proof M as [W MV C A]. pose proof (mvRigid _ _ _ _ _ _ (MV t)) as RG.
  destruct (dot_gen 3 mb path (fun s i c => e3 (ang (rbdColX (pt_mul X (bkPos (K s))) (K s) c)) i) (fun i c => e3 (m3mulv (ptE X) (ang (dcol c))) i) jm jd
     (fun s => vec3 (rv (m3mul (m3mul ori (m3tr (ptE (bkPos (K s))))) (m3tr (ptE X)))))
     (fun s => vec3 (ang (rbdVel X (K s)))) (fun s => vec3 (ang (rbdNAcc X sp0 (K s))))
     (fun s => surfOriUpdate rv mb path ori X (K s) (jm s)) t W) as (H & D' & Y & ED' & JR & DN); auto.
  { intros i c Hi Hc. apply (dl_ext (fun s => e3 (ang (pt_mulM X (bkCol (K s) c))) i)). { intros s. rewrite colX by apply RG. reflexivity. }
    apply (dV_e3 (fun s => ang (pt_mulM X (bkCol (K s) c))) t (ang (pt_mulM X (dcol c)))). apply dS_mulM, C, Hc. }
  destruct Jd as (J1 & J2).
  destruct (fullJacobian_spec mb path (short3 (pathDof mb path) (fun c => ang (dcol c))) jd) as (D & ED & RD & CD & _ & DD); cbn [mrows mcols short3]; try lia; auto. cbn [mget mrows short3] in DD.
  destruct (fullJacobian_spec mb path (mkMat 3 (pathDof mb path) (fun i c => e3 (m3mulv (ptE X) (ang (dcol c))) i)) jd) as (D2 & ED2 & RD2 & CD2 & _ & DD2); cbn [mrows mcols]; try lia; auto. cbn [mget mrows] in DD2.
  rewrite ED2 in ED'. injection ED' as <-.
  assert (EE : forall i j, (i < 3)%nat -> (j < nrDof mb)%nat -> mget D2 i j = e3 (m3mulv (ptE X) (mkV3 (mget D 0 j) (mget D 1 j) (mget D 2 j))) i).
  { intros i j Hi Hj. rewrite <- (delta_at (nrDof mb) (fun j' => mget D2 i j') j Hj), (DD2 i (delta j) Hi), jacDot_mulv.
    f_equal. f_equal. f_equal; (rewrite <- (DD _ (delta j)) by lia; apply (delta_at (nrDof mb) (fun j' => mget D _ j') j Hj)). }
  exists H, D. split; [exact Y|]. split; [exact ED|]. split; [congruence|]. split; [congruence|]. cbv zeta. split.
  - split; [reflexivity|]. split; [reflexivity|]. intros i j Hi Hj. cbn [mget]. rewrite <- EE by assumption. apply JR; assumption.
  - intros i Hi. cbn [mget]. rewrite (sumn_ext _ _ (fun j => mget D2 i j * al t j)) by (intros j Hj; rewrite EE by assumption; reflexivity).
    revert i Hi. apply (DN al ald (fun s i => e3 (ang (rbdVel X (K s))) i)); [|exact A|].
    + intros s i Hi. apply rows_ang; [exact Hi|]. rewrite (vel_jac _ _ _ _ _ _ _ (MV s)). apply jsp_ext. intros c. symmetry. apply colX, RG.
    + intros i Hi. rewrite (rows_ang _ _ _ _ _ i Hi eq_refl). unfold vec3; cbn [vget]. rewrite <- e3_add.
      eapply dl_eq; [apply (dV_e3 (fun s => ang (rbdVel X (K s)))), (vel_rate _ _ _ _ _ _ X (MV t))|].
      rewrite (jsp_ext mb path (rbdColX (pt_mul X (bkPos (K t))) (K t)) (fun c => pt_mulM X (bkCol (K t) c))); [reflexivity|]. intros c. apply colX, RG.
Qed.
(** OrientationTrackingTask. *)
Theorem tracking_dot rv ftv mb T K dcol al ald t jm jd j0 : sized 3 mb jm -> mrows jd = 3%nat /\ mcols jd = nrDof mb -> dotMoves mb (otPath T) K dcol al ald t ->
  exists H D, yields 3 mb (fun s => otUpdate rv ftv mb T (K s) (al s) (j0 s) (jm s)) H /\ otUpdateDot mb T (K t) dcol jd = Ok D /\ jacRate 3 mb H t D.
Proof.
  intros Sz Jd M. destruct (world_ang mb (otPath T) K dcol al ald t v0 M) as (A & _ & _).
  set (g := fun s i c => e3 (if existsb (Nat.eqb c) (otZero T) then v0 else ang (rbdColW v0 (K s) c)) i).
  assert (G : forall s, exists J, fullJacobian mb (otPath T) (mkMat 3 (pathDof mb (otPath T)) (g s)) (jm s) = Ok J).
  { intros s. destruct (Sz s) as (S1 & S2). destruct (fullJacobian_spec mb (otPath T) (mkMat 3 (pathDof mb (otPath T)) (g s)) (jm s)) as (J & E & _); cbn [mrows mcols]; try lia; [apply (dmWf _ _ _ _ _ _ _ M)|eauto]. }
  set (Js := fun s => match fullJacobian mb (otPath T) (mkMat 3 (pathDof mb (otPath T)) (g s)) (jm s) with Ok J => J | _ => mzero 0 0 end).
  destruct (dot_gen 3 mb (otPath T) g (fun i c => e3 (if existsb (Nat.eqb c) (otZero T) then v0 else ang (rbdColWDot v0 (K t) dcol c)) i) jm jd
     (fun s => vec3 (otEval rv ftv T (K s))) (fun s => mkVec 3 (fun i => sumn (mcols (Js s)) (fun j => mget (Js s) i j * al s j)))
     (fun s => mkVec 3 (fun i => sumn (mcols (j0 s)) (fun j => mget (j0 s) i j * al s j)))
     (fun s => otUpdate rv ftv mb T (K s) (al s) (j0 s) (jm s)) t (dmWf _ _ _ _ _ _ _ M)) as (H & D & Y & ED & JR & _); auto.
  - intros s. unfold otUpdate. change (short3 (pathDof mb (otPath T)) (fun c => if existsb (Nat.eqb c) (otZero T) then v0 else ang (rbdColW v0 (K s) c))) with (mkMat 3 (pathDof mb (otPath T)) (g s)).
    unfold Js. destruct (G s) as (J & ->). reflexivity.
  - intros i c Hi Hc. unfold g. destruct (existsb (Nat.eqb c) (otZero T)); [|apply A; assumption].
    eapply dl_eq; [apply dl_const|]. destruct i as [|[|i]]; reflexivity.
  - exists H, D. auto.
Qed.
