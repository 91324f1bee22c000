(** VectorOrientationTask keeps its promises. *)
From Verif Require Import KinModel KinSpec KinFacts KinTaskFacts JacProofs ContactRowsProofs BackendProofs.
Open Scope list_scope.
Open Scope R_scope.
Local Arguments sumn : simpl never.
Local Arguments e3 : simpl never.

Lemma mat3_mulv A v i : (i < 3)%nat -> sumn 3 (fun k => mget (mat3 A) i k * e3 v k) = e3 (m3mulv A v) i.
Proof.
  intros Hi. unfold sumn, mat3; cbn [mget]. unfold m3mulv, dot, e3.
  destruct i as [|[|[|i]]]; [| | |lia]; simpl; ring.
Qed.
(** A product of a 3 x 3 matrix with a full Jacobian. *)
Lemma mat3_rows A (F J : mat) x v i : mmul (mat3 A) F = Ok J -> (i < 3)%nat ->
  (forall l, (l < 3)%nat -> sumn (mcols F) (fun j => mget F l j * x j) = e3 v l) ->
  sumn (mcols J) (fun j => mget J i j * x j) = e3 (m3mulv A v) i.
Proof.
  intros E Hi HF. apply mmul_Ok in E as (E1 & E2 & E3 & E4). rewrite E3. rewrite <- mat3_mulv by exact Hi.
  transitivity (sumn (mcols F) (fun j => sumn 3 (fun k => mget (mat3 A) i k * (mget F k j * x j)))).
  - apply sumn_ext. intros j _. rewrite E4, <- sumn_scal_r. apply sumn_ext. intros k _. ring.
  - rewrite sumn_swap. apply sumn_ext. intros k Hk. rewrite sumn_scal, HF by exact Hk. reflexivity.
Qed.
Lemma vec_alg E v w : m3mulv (m3mul (m3neg (m3tr E)) (skewMatrix v)) w = m3mulv (m3tr E) (cross w v).
Proof.
  rewrite m3mul_mulv. change (skewMatrix v) with (skewm v). rewrite skewm_mulv. v3c.
Qed.
Lemma vec_speed_rate E F w v t w' : dM E t (m3mul (m3tr F) (skewm (w t))) -> E t = m3tr F -> dV w t w' ->
  dV (fun s => m3mulv (E s) (cross (w s) v)) t (vadd (m3mulv (m3tr F) (cross (w t) (cross (w t) v))) (m3mulv (m3tr F) (cross w' v))).
Proof.
  intros DE EF DW. eapply dV_eq; [apply dV_mulv; [exact DE|apply dV_cross; [exact DW|apply dV_const]]|].
  cbv beta. rewrite EF, m3mul_mulv, skewm_mulv. f_equal. f_equal. v3c.
Qed.

Theorem vector_tracks mb path v target K al ald t jm : wfPath mb path -> sized 3 mb jm -> movesAt mb path K al ald t ->
  exists H, yields 3 mb (fun s => vecOriUpdate mb path v target (K s) (jm s)) H /\
    (forall s i, (i < 3)%nat -> vget (hErr (H s)) i = e3 target i - e3 (m3mulv (m3tr (ptE (bkPos (K s)))) v) i) /\
    speedIsJac 3 H al t /\ errorRate 0 3 H t /\ speedRate 0 3 H ald t.
Proof.
  intros W Sz M. pose proof M as [RG _ RT _ _].
  set (A := fun s => m3mul (m3neg (m3tr (ptE (bkPos (K s))))) (skewMatrix v)).
  assert (FJ : forall s, exists F J, fullJacobian mb path (short3 (pathDof mb path) (fun c => ang (rbdColB (K s) c))) (jm s) = Ok F /\
     mmul (mat3 (A s)) F = Ok J /\ mrows J = 3%nat /\ mcols J = nrDof mb /\
     forall i x, (i < 3)%nat -> sumn (mcols J) (fun j => mget J i j * x j) = e3 (m3mulv (A s) (ang (jsp mb path (bkCol (K s)) x))) i).
  { intros s. destruct (Sz s) as (S1 & S2).
    destruct (fullJacobian_spec mb path (short3 (pathDof mb path) (fun c => ang (rbdColB (K s) c))) (jm s)) as (F & EF & R1 & C1 & _ & D); simpl; try lia; auto.
    destruct (mmul_def (mat3 (A s)) F) as (J & EJ & R2 & C2); [simpl; lia|].
    exists F, J. split; [exact EF|]. split; [exact EJ|]. split; [rewrite R2; reflexivity|]. split; [lia|].
    intros i x Hi. apply (mat3_rows (A s) F); auto. intros l Hl. rewrite C1, S2. rewrite D by exact Hl. cbn [mget short3].
    apply rows_ang; [exact Hl|reflexivity]. }
  set (H := fun s => match vecOriUpdate mb path v target (K s) (jm s) with Ok h => h | _ => mkHL (mzero 0 0) (vfill 0 0) (vfill 0 0) (vfill 0 0) end).
  assert (HH : forall s, exists J, vecOriUpdate mb path v target (K s) (jm s) = Ok (H s) /\
     hJac (H s) = J /\ mrows J = 3%nat /\ mcols J = nrDof mb /\
     (forall i x, (i < 3)%nat -> sumn (mcols J) (fun j => mget J i j * x j) = e3 (m3mulv (A s) (ang (jsp mb path (bkCol (K s)) x))) i) /\
     hErr (H s) = vec3 (vsub target (m3mulv (m3tr (ptE (bkPos (K s)))) v)) /\
     hSpeed (H s) = vec3 (m3mulv (m3tr (ptE (bkPos (K s)))) (cross (ang (bkVelB (K s))) v)) /\
     hNAcc (H s) = vec3 (m3mulv (m3tr (ptE (bkPos (K s)))) (vadd (cross (ang (bkVelB (K s))) (cross (ang (bkVelB (K s))) v)) (cross (ang (bkNAccB (K s))) v)))).
  { intros s. destruct (FJ s) as (F & J & E1 & E2 & R & C & D). exists J.
    assert (U : vecOriUpdate mb path v target (K s) (jm s) = Ok (mkHL J (vec3 (vsub target (m3mulv (m3tr (ptE (bkPos (K s)))) v)))
       (vec3 (m3mulv (m3tr (ptE (bkPos (K s)))) (cross (ang (bkVelB (K s))) v)))
       (vec3 (m3mulv (m3tr (ptE (bkPos (K s)))) (vadd (cross (ang (bkVelB (K s))) (cross (ang (bkVelB (K s))) v)) (cross (ang (bkNAccB (K s))) v)))))).
    { unfold vecOriUpdate. rewrite E1. cbn [bind]. fold (A s). rewrite E2. reflexivity. }
    unfold H. rewrite U. auto 10. }
  assert (EV : forall s i, (i < 3)%nat -> vget (hErr (H s)) i = e3 target i - e3 (m3mulv (m3tr (ptE (bkPos (K s)))) v) i).
  { intros s i Hi. destruct (HH s) as (J & _ & _ & _ & _ & _ & -> & _ & _). unfold vec3; cbn [vget]. apply e3_sub. }
  exists H. split; [|split; [exact EV|split; [|split]]].
  - intros s. destruct (HH s) as (J & U & EJ & R & C & _ & EE & ES & EN). rewrite EJ. split; [exact U|]. split; [|exact C].
    unfold hlSizes. rewrite EJ, EE, ES, EN. auto.
  - intros i Hi. destruct (HH t) as (J & _ & -> & R & C & D & _ & -> & _). rewrite D by exact Hi. unfold vec3; cbn [vget].
    rewrite <- (moves_vel _ _ _ _ _ _ M). unfold A. rewrite vec_alg. reflexivity.
  - intros i Hi. destruct (HH t) as (J & _ & _ & _ & _ & _ & _ & -> & _). unfold vec3; cbn [vget].
    apply dl_ext with (f := fun s => e3 target i - e3 (m3mulv (m3tr (ptE (bkPos (K s)))) v) i); [intros s; symmetry; apply EV; lia|].
    eapply dl_eq; [apply dl_minus; [apply dl_const|apply (dV_e3 (fun s => m3mulv (m3tr (ptE (bkPos (K s)))) v)); apply dV_mulv; [apply dM_tr, RT|apply dV_const]]|].
    rewrite tr_rate, m3mul_mulv, skewm_mulv, e3_add, m3mulv_v0. destruct i as [|[|i]]; unfold e3, v0; simpl; ring.
  - intros i Hi. unfold taskAcc; cbn [Nat.add]. destruct (HH t) as (J & _ & -> & R & C & D & _ & _ & ->). rewrite D by lia. unfold vec3; cbn [vget].
    apply dl_ext with (f := fun s => e3 (m3mulv (m3tr (ptE (bkPos (K s)))) (cross (ang (bkVelB (K s))) v)) i).
    + intros s. destruct (HH s) as (J' & _ & _ & _ & _ & _ & _ & -> & _). reflexivity.
    + eapply dl_eq.
      * apply (dV_e3 (fun s => m3mulv (m3tr (ptE (bkPos (K s)))) (cross (ang (bkVelB (K s))) v))).
        eapply (vec_speed_rate (fun s => m3tr (ptE (bkPos (K s)))) (ptE (bkPos (K t))) (fun s => ang (bkVelB (K s))) v t _).
        -- eapply dM_eq; [apply dM_tr, RT|]. apply tr_rate.
        -- reflexivity.
        -- exact (proj1 (moves_acc _ _ _ _ _ _ M)).
      * unfold A. rewrite vec_alg, <- e3_add. f_equal. cbn [ang sp_add].
        rewrite <- !m3mulv_vadd. f_equal. generalize (ang (jsp mb path (bkCol (K t)) (ald t))) (ang (bkNAccB (K t))) (ang (bkVelB (K t))). v3c.
Qed.

(** The error: at most the sum of the lengths (2 for unit vectors), zero exactly when the vectors agree. *)
Lemma vector_error_bound E target v : rotation E -> norm target = 1 -> norm v = 1 -> norm (vsub target (m3mulv (m3tr E) v)) <= 2.
Proof.
  intros R T V. replace (vsub target (m3mulv (m3tr E) v)) with (vadd target (vsc (-1) (m3mulv (m3tr E) v))) by v3c.
  eapply Rle_trans; [apply norm_triangle|]. rewrite norm_vsc.
  assert (N : norm (m3mulv (m3tr E) v) = norm v).
  { unfold norm. f_equal. unfold norm2. rewrite dot_m3mulv, m3tr_invol, rotation_mulT by exact R. reflexivity. }
  rewrite N, T, V, Rabs_left by lra. lra.
Qed.
Lemma skewMatrix_cross v u : m3mulv (skewMatrix v) u = cross v u.
Proof. apply skewm_mulv. Qed.
