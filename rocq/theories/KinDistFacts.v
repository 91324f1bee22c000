(** RelativeDistTask: what it keeps of its promises. *)
From Verif Require Import KinMultiModel KinSpec KinFacts KinTaskFacts JacProofs.
Open Scope list_scope.
Open Scope R_scope.
Local Arguments sumn : simpl never.
Local Arguments e3 : simpl never.

(** From the environment point of a pair to its robot point, in the world. *)
Definition rdVecOf (i : rdInfo) (k : bodyKin) : V3 := vsub (worldPoint (rdP i) k) (rdEnv i).
(** Unit direction from the robot point to the environment point. *)
Definition rdDir (i : rdInfo) (k : bodyKin) : V3 := vsc (/ norm (rdVecOf i k)) (vneg (rdVecOf i k)).
(** Reachable tasks: the Jacobian is at the robot point and the mode is that of the constructor. *)
Definition rdFrom (mb : multibody) (T : rdTask) : Prop :=
  exists dt b1 p1 e1 q1 u1 b2 p2 e2 q2 u2 ops, T = fold_left (rdStep mb) ops (rdInit dt b1 p1 e1 q1 u1 b2 p2 e2 q2 u2).
Lemma rd_point_step mb T o : rdJacP (rdA T) = rdP (rdA T) /\ rdJacP (rdB T) = rdP (rdB T) ->
  rdJacP (rdA (rdStep mb T o)) = rdP (rdA (rdStep mb T o)) /\ rdJacP (rdB (rdStep mb T o)) = rdP (rdB (rdStep mb T o)).
Proof.
  intros (HA & HB). destruct o as [b p|b p|b u|kin al fresh]; simpl.
  - destruct (rdBody (rdA T) =? b)%nat, (rdBody (rdB T) =? b)%nat; simpl; auto.
  - destruct (rdBody (rdA T) =? b)%nat, (rdBody (rdB T) =? b)%nat; simpl; auto.
  - destruct (rdBody (rdA T) =? b)%nat, (rdBody (rdB T) =? b)%nat; simpl; auto.
  - unfold rdUpdate. destruct (rdPair mb (rdDt T) (rdFixed T) (rdA T) _ al fresh) as [[[[[d1 r1] s1] a1] n1]| |]; simpl; auto.
    destruct (rdPair mb (rdDt T) (rdFixed T) (rdB T) _ al fresh) as [[[[[d2 r2] s2] a2] n2]| |]; simpl; auto.
Qed.
Lemma rd_point mb T : rdFrom mb T -> rdJacP (rdA T) = rdP (rdA T) /\ rdJacP (rdB T) = rdP (rdB T).
Proof.
  intros (dt & b1 & p1 & e1 & q1 & u1 & b2 & p2 & e2 & q2 & u2 & ops & ->).
  set (T0 := rdInit _ _ _ _ _ _ _ _ _ _ _). assert (H : rdJacP (rdA T0) = rdP (rdA T0) /\ rdJacP (rdB T0) = rdP (rdB T0)) by (split; reflexivity).
  clearbody T0. revert T0 H. induction ops as [|o ops IH]; intros T0 H; [exact H|]. simpl. apply IH, rd_point_step, H.
Qed.
Lemma rd_mode_step mb T o : rdFixed (rdStep mb T o) = rdFixed T.
Proof.
  destruct o; simpl; try reflexivity. unfold rdUpdate. destruct (rdPair mb (rdDt T) (rdFixed T) (rdA T) _ al fresh) as [[[[[d1 r1] s1] a1] n1]| |]; simpl; auto.
  destruct (rdPair mb (rdDt T) (rdFixed T) (rdB T) _ al fresh) as [[[[[d2 r2] s2] a2] n2]| |]; simpl; auto.
Qed.
Lemma v3eqb_eq a b : v3eqb a b = true <-> a = b.
Proof.
  unfold v3eqb, Reqb. destruct a as [x y z], b as [x' y' z']; simpl.
  destruct (Req_EM_T x x'), (Req_EM_T y y'), (Req_EM_T z z'); simpl; split; intros H; try discriminate; try (inversion H; congruence); congruence.
Qed.
Theorem rd_mode mb dt b1 p1 e1 q1 u1 b2 p2 e2 q2 u2 ops :
  rdFixed (fold_left (rdStep mb) ops (rdInit dt b1 p1 e1 q1 u1 b2 p2 e2 q2 u2)) = true <-> u1 <> v0 /\ u2 <> v0.
Proof.
  set (T0 := rdInit _ _ _ _ _ _ _ _ _ _ _). assert (E : rdFixed (fold_left (rdStep mb) ops T0) = rdFixed T0).
  { clearbody T0. revert T0. induction ops as [|o ops IH]; intros T0; [reflexivity|]. simpl. rewrite IH. apply rd_mode_step. }
  rewrite E. simpl. rewrite andb_true_iff, !negb_true_iff, <- !not_true_iff_false, !v3eqb_eq. tauto.
Qed.

(** *** One pair *)
Lemma sum3_dot (a b : nat -> R) (u v : V3) : (forall l, (l < 3)%nat -> a l = e3 u l) -> (forall l, (l < 3)%nat -> b l = e3 v l) ->
  sumn 3 (fun l => a l * b l) = dot u v.
Proof. intros A B. unfold sumn. rewrite !A, !B by lia. unfold e3, dot. ring. Qed.
Lemma rd_core mb i k al fresh n dn : wfPath mb (rdPath i) -> mrows fresh = 3%nat -> mcols fresh = nrDof mb ->
  exists F, fullJacobian mb (rdPath i) (short3 (pathDof mb (rdPath i)) (fun c => linr (rbdColW (rdJacP i) k c))) fresh = Ok F /\
    (forall x, sumn (nrDof mb) (fun j => sumn 3 (fun l => e3 n l * mget F l j) * x j) = dot (linr (jsp mb (rdPath i) (rbdColW (rdJacP i) k) x)) n) /\
    sumn 3 (fun l => sumn (mcols F) (fun j => mget F l j * al j) * e3 dn l) = dot (linr (jsp mb (rdPath i) (rbdColW (rdJacP i) k) al)) dn.
Proof.
  intros W R C.
  destruct (fullJacobian_spec mb (rdPath i) (short3 (pathDof mb (rdPath i)) (fun c => linr (rbdColW (rdJacP i) k c))) fresh)
    as (F & E & R1 & C1 & _ & D); [exact W|simpl; lia|simpl; lia|lia|].
  exists F. split; [exact E|].
  assert (Q : forall x l, (l < 3)%nat -> sumn (nrDof mb) (fun j => mget F l j * x j) = e3 (linr (jsp mb (rdPath i) (rbdColW (rdJacP i) k) x)) l).
  { intros x l Hl. rewrite D by exact Hl. cbn [mget short3]. apply rows_lin; [exact Hl|reflexivity]. }
  split.
  - intros x. transitivity (sumn (nrDof mb) (fun j => sumn 3 (fun l => e3 n l * (mget F l j * x j)))).
    + apply sumn_ext. intros j _. rewrite <- sumn_scal_r. apply sumn_ext. intros l _. ring.
    + rewrite sumn_swap, dot_comm.
      rewrite (sumn_ext 3 _ (fun l => e3 n l * sumn (nrDof mb) (fun j => mget F l j * x j))) by (intros; apply sumn_scal).
      apply sum3_dot; [reflexivity|]. intros l Hl. apply Q, Hl.
  - apply sum3_dot; [|reflexivity]. intros l Hl. rewrite C1, C. apply Q, Hl.
Qed.

(** Output of one pair when it is computed: distance, velocity along n and rest. *)
Record rdGood (mb : multibody) (i : rdInfo) (k : bodyKin) (al : nat -> R) (n dn : V3) (row : nat -> R) (sp na : R) : Prop := {
  gRow : forall x, sumn (nrDof mb) (fun j => row j * x j) = dot (linr (jsp mb (rdPath i) (rbdColW (rdJacP i) k) x)) n;
  gSpeed : sp = dot (linr (rbdVelW (rdJacP i) k)) n;
  gNacc : na = dot (linr (jsp mb (rdPath i) (rbdColW (rdJacP i) k) al)) dn + dot (linr (rbdNAccW (rdJacP i) k)) n }.
Lemma rd_fixed mb dt i k al fresh : wfPath mb (rdPath i) -> mrows fresh = 3%nat -> mcols fresh = nrDof mb ->
  exists row sp na, rdPair mb dt true i k al fresh = Ok (Rabs (dot (rdVecOf i k) (rdU i)), row, sp, na, vneg (rdU i)) /\
    rdGood mb i k al (vneg (rdU i)) v0 row sp na.
Proof.
  intros W R C. destruct (rd_core mb i k al fresh (vneg (rdU i)) v0 W R C) as (F & E & Q1 & Q2).
  eexists _, _, _. split; [unfold rdPair; cbn [bind]; rewrite E; reflexivity|]. split; [exact Q1|reflexivity|]. rewrite Q2. reflexivity.
Qed.
Lemma rd_free mb dt i k al fresh : wfPath mb (rdPath i) -> mrows fresh = 3%nat -> mcols fresh = nrDof mb -> dt <> 0 -> norm (rdVecOf i k) <> 0 ->
  exists row sp na, rdPair mb dt false i k al fresh = Ok (norm (rdVecOf i k), row, sp, na, rdDir i k) /\
    rdGood mb i k al (rdDir i k) (vsc (/ dt) (vsub (rdDir i k) (rdOffn i))) row sp na.
Proof.
  intros W R C D N. destruct (rd_core mb i k al fresh (rdDir i k) (vsc (/ dt) (vsub (rdDir i k) (rdOffn i))) W R C) as (F & E & Q1 & Q2).
  assert (ND : vsc (/ norm (rdVecOf i k)) (vsub (rdEnv i) (ptr (pt_mul (pt_trans (rdP i)) (bkPos k)))) = rdDir i k).
  { unfold rdDir. f_equal. unfold rdVecOf. change (ptr (pt_mul (pt_trans (rdP i)) (bkPos k))) with (worldPoint (rdP i) k). generalize (worldPoint (rdP i) k) (rdEnv i). v3c. }
  eexists _, _, _. split.
  - unfold rdPair. change (vsub (ptr (pt_mul (pt_trans (rdP i)) (bkPos k))) (rdEnv i)) with (rdVecOf i k). unfold Reqb.
    destruct (Req_EM_T (norm (rdVecOf i k)) 0) as [Z|_]; [contradiction|]. destruct (Req_EM_T dt 0) as [Z|_]; [contradiction|].
    cbn [negb guard bind]. rewrite ND, E. reflexivity.
  - split; [exact Q1|reflexivity|]. rewrite Q2. reflexivity.
Qed.

(** *** Rates of one pair *)
Lemma rdVec_rate mb i K al ald t : rdJacP i = rdP i -> movesAt mb (rdPath i) K al ald t ->
  dV (fun s => rdVecOf i (K s)) t (linr (rbdVelW (rdJacP i) (K t))).
Proof.
  intros E M. unfold rdVecOf. rewrite E.
  eapply dV_eq; [apply dV_sub; [apply (worldPoint_rate _ _ _ _ _ _ _ M)|apply dV_const]|]. generalize (linr (rbdVelW (rdP i) (K t))). v3c.
Qed.
Lemma norm_pos v : norm v <> 0 -> 0 < norm2 v.
Proof. intros H. destruct (norm2_nonneg v) as [P|Z]; [exact P|]. exfalso. apply H. unfold norm. rewrite <- Z. apply sqrt_0. Qed.
Lemma dist_rate f t v : norm (f t) <> 0 -> dV f t v -> dlim (fun s => norm (f s)) t (- dot v (vsc (/ norm (f t)) (vneg (f t)))).
Proof.
  intros N D. unfold norm at 1. eapply dl_eq; [apply dl_sqrt; [apply norm_pos, N|]|].
  - apply (dl_dot f f); exact D.
  - rewrite (dot_comm (f t) v). fold (norm (f t)). rewrite dot_vsc_r, dot_vneg_r. field. exact N.
Qed.

(** *** The task *)
Definition rdOut (mb : multibody) (T : rdTask) (kin : nat -> bodyKin) (al : nat -> R) (fresh : mat) : res hlOut :=
  do r <- rdUpdate mb T kin al fresh; Ok (snd r).
Record rdMoves (mb : multibody) (T : rdTask) (K : nat -> R -> bodyKin) (al ald : R -> nat -> R) (t : R) : Prop := {
  rmA : movesAt mb (rdPath (rdA T)) (K (rdBody (rdA T))) al ald t;
  rmB : movesAt mb (rdPath (rdB T)) (K (rdBody (rdB T))) al ald t;
  rmWA : wfPath mb (rdPath (rdA T)); rmWB : wfPath mb (rdPath (rdB T)) }.
(** Velocities of the two points in the world and derivative of a direction. *)
Definition rdVelA (T : rdTask) (K : nat -> R -> bodyKin) (t : R) : V3 := linr (rbdVelW (rdJacP (rdA T)) (K (rdBody (rdA T)) t)).
Definition rdVelBB (T : rdTask) (K : nat -> R -> bodyKin) (t : R) : V3 := linr (rbdVelW (rdJacP (rdB T)) (K (rdBody (rdB T)) t)).

Lemma rd_gen mb T K (al ald : R -> nat -> R) t fresh (dA dB : R -> R) (nA nB dnA dnB : R -> V3) :
  rdMoves mb T K al ald t -> sized 3 mb fresh ->
  (forall s, exists row sp na, rdPair mb (rdDt T) (rdFixed T) (rdA T) (K (rdBody (rdA T)) s) (al s) (fresh s) = Ok (dA s, row, sp, na, nA s) /\
     rdGood mb (rdA T) (K (rdBody (rdA T)) s) (al s) (nA s) (dnA s) row sp na) ->
  (forall s, exists row sp na, rdPair mb (rdDt T) (rdFixed T) (rdB T) (K (rdBody (rdB T)) s) (al s) (fresh s) = Ok (dB s, row, sp, na, nB s) /\
     rdGood mb (rdB T) (K (rdBody (rdB T)) s) (al s) (nB s) (dnB s) row sp na) ->
  exists H, yields 1 mb (fun s => rdOut mb T (fun b => K b s) (al s) (fresh s)) H /\
    (forall s, vget (hErr (H s)) 0 = dA s - dB s) /\
    (forall s, vget (hSpeed (H s)) 0 = dot (rdVelA T K s) (nA s) - dot (rdVelBB T K s) (nB s)) /\
    speedIsJac 1 H al t /\
    (forall nA' nB', dV nA t nA' -> dV nB t nB' ->
       dlim (fun s => vget (hSpeed (H s)) 0) t
         (taskAcc (H t) 0 (ald t) 0 + (dot (rdVelA T K t) (vsub nA' (dnA t)) - dot (rdVelBB T K t) (vsub nB' (dnB t))))).
Proof.
  intros [MA MB WA WB] Sz HA HB.
  assert (HU : forall s, exists h, rdOut mb T (fun b => K b s) (al s) (fresh s) = Ok h /\ hlSizes 1 h /\ mcols (hJac h) = nrDof mb /\
     vget (hErr h) 0 = dA s - dB s /\
     vget (hSpeed h) 0 = dot (rdVelA T K s) (nA s) - dot (rdVelBB T K s) (nB s) /\
     vget (hNAcc h) 0 = (dot (linr (jsp mb (rdPath (rdA T)) (rbdColW (rdJacP (rdA T)) (K (rdBody (rdA T)) s)) (al s))) (dnA s) + dot (linr (rbdNAccW (rdJacP (rdA T)) (K (rdBody (rdA T)) s))) (nA s))
        - (dot (linr (jsp mb (rdPath (rdB T)) (rbdColW (rdJacP (rdB T)) (K (rdBody (rdB T)) s)) (al s))) (dnB s) + dot (linr (rbdNAccW (rdJacP (rdB T)) (K (rdBody (rdB T)) s))) (nB s)) /\
     forall x, sumn (nrDof mb) (fun j => mget (hJac h) 0 j * x j) =
        dot (linr (jsp mb (rdPath (rdA T)) (rbdColW (rdJacP (rdA T)) (K (rdBody (rdA T)) s)) x)) (nA s)
        - dot (linr (jsp mb (rdPath (rdB T)) (rbdColW (rdJacP (rdB T)) (K (rdBody (rdB T)) s)) x)) (nB s)).
  { intros s. destruct (HA s) as (r1 & s1 & a1 & E1 & [G1 G2 G3]). destruct (HB s) as (r2 & s2 & a2 & E2 & [F1 F2 F3]).
    eexists. split; [unfold rdOut, rdUpdate; rewrite E1; cbn [bind]; rewrite E2; cbn [bind]; reflexivity|]. cbn [snd hJac hErr hSpeed hNAcc mcols mrows vlen vget mget].
    split; [repeat split|]. split; [reflexivity|]. split; [reflexivity|]. split; [rewrite G2, F2; reflexivity|]. split; [rewrite G3, F3; reflexivity|].
    intros x. rewrite <- G1, <- F1, <- sumn_minus. apply sumn_ext. intros j _. ring. }
  set (H := fun s => match rdOut mb T (fun b => K b s) (al s) (fresh s) with Ok h => h | _ => mkHL (mzero 0 0) (vfill 0 0) (vfill 0 0) (vfill 0 0) end).
  assert (HH : forall s, rdOut mb T (fun b => K b s) (al s) (fresh s) = Ok (H s)).
  { intros s. destruct (HU s) as (h & E & _). unfold H. rewrite E. reflexivity. }
  assert (SP : forall s, vget (hSpeed (H s)) 0 = dot (rdVelA T K s) (nA s) - dot (rdVelBB T K s) (nB s)).
  { intros s. destruct (HU s) as (h & E & _ & _ & _ & Q & _). rewrite HH in E. injection E as <-. exact Q. }
  exists H. split; [|split; [|split; [exact SP|split]]].
  - intros s. split; [apply HH|]. destruct (HU s) as (h & E & Q1 & Q2 & _). rewrite HH in E. injection E as <-. auto.
  - intros s. destruct (HU s) as (h & E & _ & _ & Q & _). rewrite HH in E. injection E as <-. exact Q.
  - intros i Hi. replace i with 0%nat by lia. destruct (HU t) as (h & E & _ & C & _ & Q & _ & D). rewrite HH in E. injection E as <-.
    rewrite C, D, Q. unfold rdVelA, rdVelBB. rewrite (velW_jac _ _ _ _ _ _ _ MA), (velW_jac _ _ _ _ _ _ _ MB). reflexivity.
  - intros nA' nB' DA DB. destruct (HU t) as (h & E & _ & C & _ & Q & N & D). rewrite HH in E. injection E as <-.
    eapply dl_ext; [intros s; symmetry; apply SP|].
    eapply dl_eq; [apply dl_minus; apply dl_dot; [| exact DA| |exact DB]|].
    + exact (proj2 (velW_rate _ _ _ _ _ _ (rdJacP (rdA T)) MA)).
    + exact (proj2 (velW_rate _ _ _ _ _ _ (rdJacP (rdB T)) MB)).
    + unfold taskAcc; cbn [Nat.add]. rewrite C, D, N, <- (velW_jac _ _ _ _ _ _ _ MA), <- (velW_jac _ _ _ _ _ _ _ MB).
      fold (rdVelA T K t) (rdVelBB T K t). cbn [linr sp_add].
      change (fun c => rbdColW (rdJacP (rdA T)) (K (rdBody (rdA T)) t) c) with (rbdColW (rdJacP (rdA T)) (K (rdBody (rdA T)) t)).
      change (fun c => rbdColW (rdJacP (rdB T)) (K (rdBody (rdB T)) t) c) with (rbdColW (rdJacP (rdB T)) (K (rdBody (rdB T)) t)).
      generalize (linr (jsp mb (rdPath (rdA T)) (rbdColW (rdJacP (rdA T)) (K (rdBody (rdA T)) t)) (ald t)))
        (linr (jsp mb (rdPath (rdB T)) (rbdColW (rdJacP (rdB T)) (K (rdBody (rdB T)) t)) (ald t)))
        (rdVelA T K t) (rdVelBB T K t) (nA t) (nB t) (dnA t) (dnB t) (linr (rbdNAccW (rdJacP (rdA T)) (K (rdBody (rdA T)) t)))
        (linr (rbdNAccW (rdJacP (rdB T)) (K (rdBody (rdB T)) t))).
      intros. unfold dot, vsub, vadd; simpl. ring.
Qed.

(** Mode without fixed directions. *)
Theorem rd_free_tracks mb T K al ald t fresh : rdFrom mb T -> rdMoves mb T K al ald t -> sized 3 mb fresh ->
  rdFixed T = false -> rdDt T <> 0 ->
  (forall s, norm (rdVecOf (rdA T) (K (rdBody (rdA T)) s)) <> 0 /\ norm (rdVecOf (rdB T) (K (rdBody (rdB T)) s)) <> 0) ->
  exists H, yields 1 mb (fun s => rdOut mb T (fun b => K b s) (al s) (fresh s)) H /\
    (forall s, vget (hErr (H s)) 0 = norm (rdVecOf (rdA T) (K (rdBody (rdA T)) s)) - norm (rdVecOf (rdB T) (K (rdBody (rdB T)) s))) /\
    speedIsJac 1 H al t /\ errorRate 0 1 H t /\
    (forall nA' nB', dV (fun s => rdDir (rdA T) (K (rdBody (rdA T)) s)) t nA' -> dV (fun s => rdDir (rdB T) (K (rdBody (rdB T)) s)) t nB' ->
       dlim (fun s => vget (hSpeed (H s)) 0) t (taskAcc (H t) 0 (ald t) 0 +
         (dot (rdVelA T K t) (vsub nA' (vsc (/ rdDt T) (vsub (rdDir (rdA T) (K (rdBody (rdA T)) t)) (rdOffn (rdA T)))))
          - dot (rdVelBB T K t) (vsub nB' (vsc (/ rdDt T) (vsub (rdDir (rdB T) (K (rdBody (rdB T)) t)) (rdOffn (rdB T)))))))).
Proof.
  intros FR MV Sz FX DT NZ. destruct (rd_point _ _ FR) as (PA & PB). pose proof MV as [MA MB WA WB].
  destruct (rd_gen mb T K al ald t fresh (fun s => norm (rdVecOf (rdA T) (K (rdBody (rdA T)) s))) (fun s => norm (rdVecOf (rdB T) (K (rdBody (rdB T)) s)))
    (fun s => rdDir (rdA T) (K (rdBody (rdA T)) s)) (fun s => rdDir (rdB T) (K (rdBody (rdB T)) s))
    (fun s => vsc (/ rdDt T) (vsub (rdDir (rdA T) (K (rdBody (rdA T)) s)) (rdOffn (rdA T)))) (fun s => vsc (/ rdDt T) (vsub (rdDir (rdB T) (K (rdBody (rdB T)) s)) (rdOffn (rdB T)))) MV Sz)
    as (H & Y & HE & HS & HJ & HR).
  - intros s. rewrite FX. apply rd_free; auto; try apply Sz. apply NZ.
  - intros s. rewrite FX. apply rd_free; auto; try apply Sz. apply NZ.
  - exists H. split; [exact Y|]. split; [exact HE|]. split; [exact HJ|]. split; [|exact HR].
    intros i Hi. replace i with 0%nat by lia. eapply dl_ext; [intros s; symmetry; apply HE|]. rewrite HS.
    eapply dl_eq; [apply dl_minus; (apply dist_rate; [apply NZ|apply (rdVec_rate _ _ _ _ _ _ PA MA) || apply (rdVec_rate _ _ _ _ _ _ PB MB)])|].
    unfold rdVelA, rdVelBB, rdDir. ring.
Qed.

(** Mode with fixed directions. *)
Theorem rd_fixed_tracks mb T K al ald t fresh : rdFrom mb T -> rdMoves mb T K al ald t -> sized 3 mb fresh ->
  rdFixed T = true ->
  exists H, yields 1 mb (fun s => rdOut mb T (fun b => K b s) (al s) (fresh s)) H /\
    (forall s, vget (hErr (H s)) 0 = Rabs (dot (rdVecOf (rdA T) (K (rdBody (rdA T)) s)) (rdU (rdA T))) - Rabs (dot (rdVecOf (rdB T) (K (rdBody (rdB T)) s)) (rdU (rdB T)))) /\
    speedIsJac 1 H al t /\ speedRate 0 1 H ald t /\
    (0 < dot (rdVecOf (rdA T) (K (rdBody (rdA T)) t)) (rdU (rdA T)) -> 0 < dot (rdVecOf (rdB T) (K (rdBody (rdB T)) t)) (rdU (rdB T)) -> errorRate 0 1 H t) /\
    (dot (rdVecOf (rdA T) (K (rdBody (rdA T)) t)) (rdU (rdA T)) < 0 -> dot (rdVecOf (rdB T) (K (rdBody (rdB T)) t)) (rdU (rdB T)) < 0 ->
       dlim (fun s => vget (hErr (H s)) 0) t (vget (hSpeed (H t)) 0)).
Proof.
  intros FR MV Sz FX. destruct (rd_point _ _ FR) as (PA & PB). pose proof MV as [MA MB WA WB].
  destruct (rd_gen mb T K al ald t fresh (fun s => Rabs (dot (rdVecOf (rdA T) (K (rdBody (rdA T)) s)) (rdU (rdA T)))) (fun s => Rabs (dot (rdVecOf (rdB T) (K (rdBody (rdB T)) s)) (rdU (rdB T))))
    (fun s => vneg (rdU (rdA T))) (fun s => vneg (rdU (rdB T))) (fun _ => v0) (fun _ => v0) MV Sz) as (H & Y & HE & HS & HJ & HR).
  - intros s. rewrite FX. apply rd_fixed; auto; apply Sz.
  - intros s. rewrite FX. apply rd_fixed; auto; apply Sz.
  - assert (D : forall i K0, rdJacP i = rdP i -> movesAt mb (rdPath i) K0 al ald t -> dlim (fun s => dot (rdVecOf i (K0 s)) (rdU i)) t (dot (linr (rbdVelW (rdJacP i) (K0 t))) (rdU i))).
    { intros i K0 P M. eapply dl_eq; [apply dl_dot; [apply (rdVec_rate _ _ _ _ _ _ P M)|apply dV_const]|]. unfold dot, v0; simpl. ring. }
    exists H. split; [exact Y|]. split; [exact HE|]. split; [exact HJ|]. split; [|split].
    + intros i Hi. replace i with 0%nat by lia. eapply dl_eq; [apply (HR v0 v0); apply dV_const|]. unfold dot, vsub, v0; simpl. ring.
    + intros QA QB i Hi. replace i with 0%nat by lia. eapply dl_ext; [intros s; symmetry; apply HE|]. rewrite HS.
      eapply dl_eq; [apply dl_minus; eapply (dl_comp _ Rabs); [apply (D _ _ PA MA)|apply Rabs_derive_1, QA|apply (D _ _ PB MB)|apply Rabs_derive_1, QB]|].
      unfold rdVelA, rdVelBB. rewrite !dot_vneg_r. ring.
    + intros QA QB. eapply dl_ext; [intros s; symmetry; apply HE|]. rewrite HS.
      eapply dl_eq; [apply dl_minus; eapply (dl_comp _ Rabs); [apply (D _ _ PA MA)|apply Rabs_derive_2, QA|apply (D _ _ PB MB)|apply Rabs_derive_2, QB]|].
      unfold rdVelA, rdVelBB. rewrite !dot_vneg_r. ring.
Qed.

(** The directions have a derivative. *)
Lemma dir_rate f t v : norm (f t) <> 0 -> dV f t v -> exists n', dV (fun s => vsc (/ norm (f s)) (vneg (f s))) t n'.
Proof.
  intros N D. eexists. apply (dV_sc (fun s => / norm (f s)) (fun s => vneg (f s))); [|apply dV_neg, D].
  apply (dl_inv (fun s => norm (f s))); [exact N|apply dist_rate; [exact N|exact D]].
Qed.
(** Before any update the direction of the previous update is zero. *)
Definition rdSetter (o : rdOp) : Prop := match o with RdUpdate _ _ _ => False | _ => True end.
Lemma rd_offn mb dt b1 p1 e1 q1 u1 b2 p2 e2 q2 u2 ops : Forall rdSetter ops ->
  let T := fold_left (rdStep mb) ops (rdInit dt b1 p1 e1 q1 u1 b2 p2 e2 q2 u2) in rdOffn (rdA T) = v0 /\ rdOffn (rdB T) = v0.
Proof.
  intros F. cbv zeta. set (T0 := rdInit _ _ _ _ _ _ _ _ _ _ _).
  assert (H : rdOffn (rdA T0) = v0 /\ rdOffn (rdB T0) = v0) by (split; reflexivity). clearbody T0. revert T0 H.
  induction F as [|o ops Ho F IH]; intros T0 H; [exact H|]. simpl. apply IH.
  destruct o as [b p|b p|b u|kin al fresh]; [| | |destruct Ho]; simpl; destruct (rdBody (rdA T0) =? b)%nat, (rdBody (rdB T0) =? b)%nat; exact H.
Qed.
Theorem rd_first_update mb dt b1 p1 e1 q1 u1 b2 p2 e2 q2 u2 ops K al ald t fresh : Forall rdSetter ops ->
  let T := fold_left (rdStep mb) ops (rdInit dt b1 p1 e1 q1 u1 b2 p2 e2 q2 u2) in
  rdMoves mb T K al ald t -> sized 3 mb fresh -> u1 = v0 \/ u2 = v0 -> rdDt T <> 0 ->
  (forall s, norm (rdVecOf (rdA T) (K (rdBody (rdA T)) s)) <> 0 /\ norm (rdVecOf (rdB T) (K (rdBody (rdB T)) s)) <> 0) ->
  exists H nA' nB', yields 1 mb (fun s => rdOut mb T (fun b => K b s) (al s) (fresh s)) H /\
    dV (fun s => rdDir (rdA T) (K (rdBody (rdA T)) s)) t nA' /\ dV (fun s => rdDir (rdB T) (K (rdBody (rdB T)) s)) t nB' /\
    dlim (fun s => vget (hSpeed (H s)) 0) t
      (taskAcc (H t) 0 (ald t) 0 + (dot (rdVelA T K t) nA' - dot (rdVelBB T K t) nB') - vget (hSpeed (H t)) 0 / rdDt T).
Proof.
  intros F T MV Sz U DT NZ. pose proof (rd_offn mb dt b1 p1 e1 q1 u1 b2 p2 e2 q2 u2 ops F) as O; cbv zeta in O; fold T in O; destruct O as (O1 & O2).
  assert (FR : rdFrom mb T) by (exists dt, b1, p1, e1, q1, u1, b2, p2, e2, q2, u2, ops; reflexivity).
  assert (FX : rdFixed T = false). { apply not_true_iff_false. unfold T. rewrite rd_mode. tauto. }
  destruct (rd_point _ _ FR) as (PA & PB). pose proof MV as [MA MB WA WB].
  destruct (rd_gen mb T K al ald t fresh (fun s => norm (rdVecOf (rdA T) (K (rdBody (rdA T)) s))) (fun s => norm (rdVecOf (rdB T) (K (rdBody (rdB T)) s)))
    (fun s => rdDir (rdA T) (K (rdBody (rdA T)) s)) (fun s => rdDir (rdB T) (K (rdBody (rdB T)) s))
    (fun s => vsc (/ rdDt T) (vsub (rdDir (rdA T) (K (rdBody (rdA T)) s)) (rdOffn (rdA T)))) (fun s => vsc (/ rdDt T) (vsub (rdDir (rdB T) (K (rdBody (rdB T)) s)) (rdOffn (rdB T)))) MV Sz)
    as (H & Y & HE & HS & HJ & HR).
  - intros s. rewrite FX. apply rd_free; auto; try apply Sz. apply NZ.
  - intros s. rewrite FX. apply rd_free; auto; try apply Sz. apply NZ.
  - destruct (dir_rate _ t _ (proj1 (NZ t)) (rdVec_rate _ _ _ _ _ _ PA MA)) as (nA' & DA).
    destruct (dir_rate _ t _ (proj2 (NZ t)) (rdVec_rate _ _ _ _ _ _ PB MB)) as (nB' & DB).
    exists H, nA', nB'. split; [exact Y|]. split; [exact DA|]. split; [exact DB|].
    eapply dl_eq; [apply (HR nA' nB' DA DB)|]. rewrite HS, O1, O2.
    generalize (rdVelA T K t) (rdVelBB T K t) (rdDir (rdA T) (K (rdBody (rdA T)) t)) (rdDir (rdB T) (K (rdBody (rdB T)) t)).
    intros va vb vc vd. unfold dot, vsub, vsc, v0; simpl. field. exact DT.
Qed.
