(** The momentum of bodies made of particles, and the momentum task in closed loop. *)
From Verif Require Import MomModel MomSpec MomFacts ComFacts KinFacts KinTaskFacts JacProofs MotionProofs SetPointLoop SetPointFacts SetPointWitness TreeFacts KinWitness KinLoop.
From Coq Require Import Lra Lia.
Open Scope list_scope.
Open Scope R_scope.
Local Arguments sumn : simpl never.

(** *** Sums over particles *)
Lemma ps_ext ps f g : (forall m p, f m p = g m p) -> partSum ps f = partSum ps g.
Proof. intros E. induction ps as [|[m p] ps IH]; cbn; [reflexivity|]. rewrite IH, E. reflexivity. Qed.
Lemma vs_ext ps f g : (forall m p, f m p = g m p) -> partVec ps f = partVec ps g.
Proof. intros E. unfold partVec. f_equal; apply ps_ext; intros; rewrite E; reflexivity. Qed.
Lemma vs_e3 ps f i : e3 (partVec ps f) i = partSum ps (fun m p => e3 (f m p) i).
Proof. destruct i as [|[|i]]; reflexivity. Qed.
Lemma vs_lin L ps f : L v0 = v0 -> (forall a b, L (vadd a b) = vadd (L a) (L b)) -> L (partVec ps f) = partVec ps (fun m p => L (f m p)).
Proof.
  intros L0 LA. induction ps as [|[m p] ps IH]; [exact L0|].
  assert (C : forall g, partVec ((m, p) :: ps) g = vadd (g m p) (partVec ps g)) by reflexivity. rewrite (C f), (C (fun m p => L (f m p))), LA, IH. reflexivity.
Qed.
Lemma vs_add ps f g : vadd (partVec ps f) (partVec ps g) = partVec ps (fun m p => vadd (f m p) (g m p)).
Proof. unfold partVec, vadd; cbn. f_equal; (induction ps as [|[m p] ps IH]; cbn; [ring|]; rewrite <- IH; ring). Qed.
Lemma vs_const ps u : vsc (partSum ps (fun m _ => m)) u = partVec ps (fun m _ => vsc m u).
Proof. unfold partVec, vsc; cbn. f_equal; (induction ps as [|[m p] ps IH]; cbn; [ring|]; rewrite <- IH; ring). Qed.

(** The momentum of a body about c: sum over its particles. *)
Lemma body_particles x ps c k : rigid (bkPos k) -> madeOf x ps ->
  transMul (fromCom c k) (inertiaMul x (bkVelB k)) =
  mkSp (partVec ps (fun m p => vsc m (cross (vsub (placed p k) c) (linr (rbdVelW p k))))) (partVec ps (fun m p => vsc m (linr (rbdVelW p k)))).
Proof.
  intros RG (EM & EH & EI). set (u := fun p => vadd (linr (bkVelB k)) (cross (ang (bkVelB k)) p)).
  assert (N : ang (inertiaMul x (bkVelB k)) = partVec ps (fun m p => vsc m (cross p (u p)))).
  { unfold inertiaMul; cbn [ang]. rewrite EH, EI. rewrite (vs_lin (fun a => cross a (linr (bkVelB k)))) by (try (intros a b); v3c). rewrite vs_add. apply vs_ext. intros m p. unfold u. v3c. }
  assert (F : linr (inertiaMul x (bkVelB k)) = partVec ps (fun m p => vsc m (u p))).
  { unfold inertiaMul; cbn [linr]. rewrite EH, EM. rewrite vs_const.
    replace (cross (partVec ps (fun m p => vsc m p)) (ang (bkVelB k))) with (vneg (partVec ps (fun m p => vsc m (cross (ang (bkVelB k)) p)))).
    - rewrite (vs_lin vneg) by (try (intros a b); v3c). replace (fun m => _) with (fun (m : R) (_ : V3) => vsc m (linr (bkVelB k))) by reflexivity.
      transitivity (vadd (partVec ps (fun m _ => vsc m (linr (bkVelB k)))) (partVec ps (fun m p => vsc m (cross (ang (bkVelB k)) p)))).
      + rewrite <- (vs_lin vneg) by (try (intros a b); v3c). v3c.
      + rewrite vs_add. apply vs_ext. intros m p. unfold u. v3c.
    - rewrite (vs_lin (fun a => cross a (ang (bkVelB k)))) by (try (intros a b); v3c). rewrite (vs_lin vneg) by (try (intros a b); v3c). apply vs_ext. intros m p. v3c. }
  assert (U : forall p, m3mulv (m3tr (ptE (bkPos k))) (u p) = linr (rbdVelW p k)).
  { intros p. unfold u, rbdVelW, rbdVel, rbdFrameW, pt_mulM; cbn [ptE ptr linr]. v3c. }
  unfold transMul. rewrite fromCom_E, fromCom_r, N, F. set (Et := m3tr (ptE (bkPos k))) in *.
  rewrite !(vs_lin (m3mulv Et)) by (try (intros a b); v3c). apply Spatial_ext; cbn [ang linr].
  - rewrite (vs_lin (cross (vsub (ptr (bkPos k)) c))) by (try (intros a b); v3c). rewrite vs_add. apply vs_ext. intros m p.
    rewrite <- U. replace (m3mulv Et (vsc m (cross p (u p)))) with (vsc m (m3mulv Et (cross p (u p)))) by v3c. rewrite <- rotation_cross by (apply rotation_tr; exact RG).
    unfold placed. fold Et. set (a := m3mulv Et (u p)). set (q := m3mulv Et p). replace (m3mulv Et (vsc m (u p))) with (vsc m a) by (unfold a; v3c). clearbody a q. v3c.
  - apply vs_ext. intros m p. rewrite <- U. v3c.
Qed.
Theorem momentum_particles mb bs mom0 ops K al ald t parts pv c : heavy (map moB bs) -> bodiesMove mb (map moB bs) K al ald t -> Forall2 madeOf bs parts ->
  (forall b p, (b < length bs)%nat -> dV (fun s => placed p (K s b)) t (pv b p)) -> (forall i, (i < 3)%nat -> e3 c i = comOf one (map moB bs) (K t) i) ->
  exists h, momUpdate mb bs (K t) (fold_left momStep ops mom0) = Ok h /\
    (forall i, (i < 3)%nat -> vget (hErr h) i = e3 (ang (latest momGive mom0 ops)) i - angMomentum parts (K t) c pv i /\
       vget (hErr h) (3 + i) = e3 (linr (latest momGive mom0 ops)) i - linMomentum parts pv i) /\
    (forall i, (i < 3)%nat -> dlim (fun s => mass (map moB bs) * comOf one (map moB bs) (K s) i) t (linMomentum parts pv i)).
Proof.
  intros Hv M F2 HP HC. destruct (momentum_tracks mb bs mom0 ops K al ald t Hv M) as (H & Y & HE & _). exists (H t). split; [apply Y|].
  assert (Cv : comVec bs (K t) = c). { unfold comVec. rewrite <- !HC by lia. destruct c; reflexivity. }
  assert (LP : length bs = length parts) by (clear - F2; induction F2; cbn; congruence).
  assert (PV : forall b x p, nth_error bs b = Some x -> linr (rbdVelW p (K t b)) = pv b p).
  { intros b x p E. assert (E' : nth_error (map moB bs) b = Some (moB x)) by (rewrite nth_error_map, E; reflexivity).
    eapply dV_unique; [exact (worldPoint_rate _ _ _ _ _ _ p (proj2 (M b _ E')))|]. apply HP. apply nth_error_Some. congruence. }
  assert (P2 : forall b x, nth_error bs b = Some x -> exists ps, nth_error parts b = Some ps /\ madeOf x ps).
  { clear - F2. induction F2 as [|x ps bs parts Hx _ IH]; intros [|b] y E; cbn in E |- *; try discriminate; [injection E as <-; eauto|apply IH; exact E]. }
  assert (CE : forall i, centroidal bs (K t) c i = overBodies parts (fun b ps => e6 (mkSp (partVec ps (fun m p => vsc m (cross (vsub (placed p (K t b)) c) (pv b p)))) (partVec ps (fun m p => vsc m (pv b p)))) i)).
  { intros i. unfold centroidal, overBodies. rewrite LP. apply sumn_ext. intros b Hb. destruct (nth_error bs b) as [x|] eqn:E; [|apply nth_error_None in E; lia].
    destruct (P2 b x E) as (ps & EP & Mx). rewrite EP. assert (E' : nth_error (map moB bs) b = Some (moB x)) by (rewrite nth_error_map, E; reflexivity).
    rewrite (body_particles x ps c (K t b) (mvRigid _ _ _ _ _ _ (proj2 (M b _ E')) t) Mx). f_equal. f_equal; apply vs_ext; intros m p; rewrite (PV b x p E); reflexivity. }
  assert (LM : forall i, linMomentum parts pv i = centroidal bs (K t) c (3 + i)).
  { intros i. rewrite CE. unfold linMomentum. apply ob_ext. intros b ps _. rewrite <- e6_linr. cbn [linr]. rewrite vs_e3. apply ps_ext. intros m p. rewrite e3_sc. reflexivity. }
  split.
  - intros i Hi. split.
    + rewrite HE by lia. rewrite Cv, CE. rewrite <- e6_ang by exact Hi. f_equal. unfold angMomentum. apply ob_ext. intros b ps _. rewrite <- e6_ang by exact Hi. cbn [ang]. rewrite vs_e3. apply ps_ext. intros m p. rewrite e3_sc. reflexivity.
    + rewrite HE by lia. rewrite Cv, <- LM, <- e6_linr. reflexivity.
  - intros i Hi. rewrite LM. pose proof (comVec_rate mb bs K al ald t M) as D. apply (dV_e3 _ _ _ i) in D.
    eapply dl_eq; [apply dl_mult; [apply dl_const|apply (dl_ext (fun s => e3 (comVec bs (K s)) i)); [|exact D]]|].
    + intros s. destruct i as [|[|[|i]]]; [reflexivity|reflexivity|reflexivity|lia].
    + cbv beta. rewrite Rmult_0_l, Rplus_0_l. replace (e3 (comRate bs (K t)) i) with (overBodies bs (fun b x => cbMass (moB x) / mass (map moB bs) * e3 (linr (rbdVelW (cbCom (moB x)) (K t b))) i)) by (destruct i as [|[|[|i]]]; [reflexivity|reflexivity|reflexivity|lia]).
      rewrite <- ob_scal. unfold centroidal. apply ob_ext. intros b x E. rewrite <- e6_linr. unfold transMul; cbn [linr]. rewrite fromCom_E.
      destruct Hv as (_ & P). set (q := m3mulv _ _). assert (Q : q = vsc (cbMass (moB x)) (linr (rbdVelW (cbCom (moB x)) (K t b)))).
      { unfold q, inertiaMul, rbdVelW, rbdVel, rbdFrameW, pt_mulM; cbn [ptE ptr linr]. v3c. }
      rewrite Q, e3_sc. field. lra.
Qed.

(** *** Closed loop *)
Lemma first_order k e : (forall s, 0 <= s -> dlim e s (- (k * e s))) -> forall s, 0 <= s -> e s = e 0 * exp (- k * s).
Proof.
  intros D s Hs. pose proof (const_int (fun s => e s * exp (k * s)) s) as C. cbv beta in C.
  assert (E : e s * exp (k * s) = e 0).
  { rewrite C; [rewrite Rmult_0_r, exp_0; ring| |lra]. intros u Hu.
    eapply dl_eq; [apply (dl_mult e (fun s => exp (k * s)) u (- (k * e u)) (k * exp (k * u))); [apply D; lra|apply dlim_exp]|]. cbv beta. ring. }
  rewrite <- E, Rmult_assoc, <- exp_plus. replace (k * s + - k * s) with 0 by ring. rewrite exp_0. ring.
Qed.
Theorem momentum_loop mbs r k0 W0 w0 ops t0 t x k b mb bs mom0 mops K al : newSP mbs r k0 W0 w0 = Ok t0 -> spRun ops t0 = Ok t -> k = latest spGiveK k0 ops -> b = latest (spGiveBegin r) 0%nat ops ->
  0 < latest spGiveWeight w0 ops -> vlen (latest spGiveW W0 ops) = 6%nat -> (forall j, (j < 6)%nat -> 0 < vget (latest spGiveW W0 ops) j) ->
  heavy (map moB bs) -> (forall s, 0 <= s -> bodiesMove mb (map moB bs) K al (fun s j => x s (b + j)%nat) s) ->
  closedLoop (fun s => momUpdate mb bs (K s) (fold_left momStep mops mom0)) t k b x ->
  exists H, yields 6 mb (fun s => momUpdate mb bs (K s) (fold_left momStep mops mom0)) H /\ forall i s, (i < 6)%nat -> 0 <= s -> vget (hErr (H s)) i = vget (hErr (H 0)) i * exp (- k * s).
Proof.
  intros N Rn Ek Eb Pw LW PW Hv Mv CL. destruct (momentum_tracks mb bs mom0 mops K al _ 0 Hv (Mv 0 (Rle_refl 0))) as (H & Y & _). exists H. split; [exact Y|]. intros i s Hi Hs.
  apply (first_order k (fun s => vget (hErr (H s)) i)); [|exact Hs]. clear s Hs. intros s Hs. destruct (momentum_tracks mb bs mom0 mops K al _ s Hv (Mv s Hs)) as (H' & Y' & _ & _ & Z & EA).
  pose proof (yields_same _ _ _ _ _ Y Y') as S. destruct (CL s Hs) as (h & t' & E & Up & Mi & At). destruct (Y s) as (E' & (Rw & _) & _). rewrite E in E'. injection E' as ->.
  pose proof (setpoint_lemma _ _ _ _ _ _ _ _ _ _ N Rn Up) as C. rewrite <- Ek, <- Eb in C.
  assert (T : taskAcc (H s) b (x s) i = k * vget (hErr (H s)) i).
  { rewrite (met _ _ _ _ _ _ _ C Pw ltac:(rewrite Rw; exact PW) At Mi i ltac:(rewrite Rw; exact Hi)). rewrite (S s), (Z s i Hi). ring. }
  rewrite <- T. rewrite (S s). eapply dl_ext; [intros u; rewrite (S u); reflexivity|]. exact (EA i Hi).
Qed.
Theorem momentum_rates mb bs mom0 ops K al ald t : heavy (map moB bs) -> bodiesMove mb (map moB bs) K al ald t ->
  exists H, yields 6 mb (fun s => momUpdate mb bs (K s) (fold_left momStep ops mom0)) H /\
    (forall i, (i < 6)%nat -> sumn (mcols (hJac (H t))) (fun q => mget (hJac (H t)) i q * al t q) = e6 (latest momGive mom0 ops) i - vget (hErr (H t)) i) /\
    (forall s i, (i < 6)%nat -> vget (hSpeed (H s)) i = 0) /\ errorAcc 6 H ald t.
Proof. intros Hv M. destruct (momentum_tracks mb bs mom0 ops K al ald t Hv M) as (H & Y & _ & R). exists H. split; [exact Y|exact R]. Qed.
