(** Contacts along motions of the robots: rates, and what the contact constraints keep. *)
From Verif Require Export ContactLoopSpec.
From Verif Require Import ContactFacts ContactRowsProofs ContactEnergy KinFacts KinTaskFacts VisFacts SetPointLoop.
From Coq Require Import Lra Lia.
Open Scope list_scope.
Open Scope R_scope.
Local Arguments sumn : simpl never.

(** ** Rates *)
Lemma frame_rate mb path K al ald t X : rigid X -> movesAt mb path K al ald t -> frameMoves (fun s => pt_mul X (bkPos (K s))) t (rbdVel X (K t)).
Proof.
  intros RX MV. split.
  - eapply dM_eq; [apply (dM_ext (fun s => m3mul (ptE X) (ptE (bkPos (K s))))); [reflexivity|]|].
    + apply dM_mul; [apply dM_const|exact (mvRot _ _ _ _ _ _ MV)].
    + rewrite zero_mul. cbn [ptE pt_mul]. apply skew_turn. exact RX.
  - pose proof (worldPoint_rate mb path K al ald t (ptr X) MV) as W.
    eapply dV_eq; [eapply dV_ext; [|exact W]|].
    + intros s. reflexivity.
    + cbn [ptE pt_mul]. rewrite m3tr_mul, m3mul_mulv. unfold rbdVelW, rbdVel, rbdFrameW, pt_mulM. cbn [ptE ptr linr].
      rewrite (rotation_Tmul _ _ RX). reflexivity.
Qed.
Definition sideV (nm : names) (mbs : list multibody) (K : nat -> nat -> bodyKin) (r : nat) (body : string) (X : PT) : Spatial :=
  match nth_error mbs r, nPath nm r body with
  | Some mb, Ok p => if (0 <? nrDof mb)%nat then rbdVel X (K r (last p 0%nat)) else sp0
  | _, _ => sp0
  end.
Lemma bodyVel_side nm mbs K r body X l : bodyVel nm mbs (kinOf K) r body X l = e6 (sideV nm mbs K r body X) l.
Proof.
  unfold bodyVel, sideV. destruct (nth_error mbs r) as [mb|]; [|symmetry; apply e6_0].
  destruct (nPath nm r body) as [p| |]; [|symmetry; apply e6_0|symmetry; apply e6_0].
  destruct (0 <? nrDof mb)%nat; [reflexivity|symmetry; apply e6_0].
Qed.
Lemma frame_still X t : (forall s, X s = X t) -> frameMoves X t sp0.
Proof.
  intros E. split.
  - eapply dM_eq; [apply (dM_ext (fun _ => ptE (X t))); [intros s; rewrite (E s); reflexivity|apply dM_const]|].
    destruct (ptE (X t)) as [[] [] []]. unfold m3neg, m3mul, m3tr, skewm, m3mulv, dot, vneg, v0; cbn. unfold dot; cbn. f_equal; f_equal; ring.
  - eapply dV_eq; [apply (dV_ext (fun _ => ptr (X t))); [intros s; rewrite (E s); reflexivity|apply dV_const]|].
    destruct (ptE (X t)) as [[] [] []]. unfold m3mulv, m3tr, dot, v0; cbn. unfold dot; cbn. f_equal; ring.
Qed.
Lemma side_rates nm mbs d K al x t r mb body X idx : rigid X -> nth_error mbs r = Some mb -> bodyFor nm r mb body idx ->
  ((0 < nrDof mb)%nat -> exists b, alphaDBegin d r = Ok b) -> robotsMove nm mbs d K al x t ->
  (forall s, rigid (pt_mul X (bkPos (K s r idx)))) /\
  frameMoves (fun s => pt_mul X (bkPos (K s r idx))) t (sideV nm mbs (K t) r body X) /\
  forall l, (l < 6)%nat -> dlim (fun s => bodyVel nm mbs (kinOf (K s)) r body X l) t (bodyAcc nm mbs d (kinOf (K t)) r body X (x t) l).
Proof.
  intros RX HM BF AB (MV & ST). destruct BF as [(N0 & BI)|(NP & p & PE & NE & ->)].
  - assert (Q := ST r mb body idx HM N0 BI). split; [intros s; apply rigid_mul; [exact RX|apply Q]|]. split.
    + replace (sideV nm mbs (K t) r body X) with sp0.
      * apply frame_still. intros s. rewrite (proj1 (Q s)). reflexivity.
      * unfold sideV. rewrite HM, N0. destruct (nPath nm r body); reflexivity.
    + intros l Hl. unfold bodyAcc. rewrite HM, N0. replace (0 <? 0)%nat with false by reflexivity.
      assert (Z : forall s, bodyVel nm mbs (kinOf (K s)) r body X l = 0) by (intros s; unfold bodyVel; rewrite HM, N0; destruct (nPath nm r body); reflexivity).
      eapply dl_eq; [apply (dl_ext (fun _ => 0)); [intros s; symmetry; apply Z|apply dl_const]|].
      destruct (nPath nm r body); [destruct (alphaDBegin d r)| |]; reflexivity.
  - destruct (AB NP) as (b & BE). pose proof (MV r mb body p b HM NP PE BE) as M. pose proof (proj2 (Nat.ltb_lt 0 (nrDof mb)) NP) as LT.
    split; [intros s; apply rigid_mul; [exact RX|apply (mvRigid _ _ _ _ _ _ M)]|]. split.
    + unfold sideV. rewrite HM, PE, LT. exact (frame_rate mb p (fun s => K s r (last p 0%nat)) _ _ t X RX M).
    + intros l Hl. unfold bodyAcc. rewrite HM, PE, BE, LT.
      apply (dl_ext (fun s => e6 (rbdVel X (K s r (last p 0%nat))) l)).
      * intros s. unfold bodyVel. rewrite HM, PE, LT. reflexivity.
      * pose proof (vel_rate mb p (fun s => K s r (last p 0%nat)) _ _ t X M) as VR.
        eapply dl_eq; [apply (dS_e6 _ _ _ l VR)|]. rewrite e6_add, e6_jsp. cbn [kinOf kJac kNAcc kPosW]. f_equal.
        unfold jacDot. apply sumn_ext. intros c _. rewrite colX by apply (mvRigid _ _ _ _ _ _ M). reflexivity.
Qed.
Lemma dataFor_begin nm d r mb body s X l : sideFor nm d r mb body s X l -> (0 < nrDof mb)%nat -> exists b, alphaDBegin d r = Ok b.
Proof. intros [(N & _)|(_ & b & p & E & _)] H; [lia|exists b; exact E]. Qed.
Lemma contact_rates nm mbs d K al x t cd : rigidCD cd -> dataFor nm mbs d cd -> robotsMove nm mbs d K al x t ->
  (forall s, rigid (frame1 (K s) cd)) /\ (forall s, rigid (frame2 (K s) cd)) /\
  frameMoves (fun s => frame1 (K s) cd) t (sideV nm mbs (K t) (cdR1 cd) (r1Body (cdId cd)) (cdXcf cd)) /\
  frameMoves (fun s => frame2 (K s) cd) t (sideV nm mbs (K t) (cdR2 cd) (r2Body (cdId cd)) (pt_mul (cdXcf cd) (pt_inv (cdXbb cd)))) /\
  forall l, (l < 6)%nat -> dlim (fun s => relVel nm mbs (kinOf (K s)) cd l) t (relAcc nm mbs d (kinOf (K t)) cd (x t) l).
Proof.
  intros (RC & RB) (mb1 & mb2 & l1 & l2 & Z1 & Z2 & I1 & I2 & M1 & M2 & HS & S1 & S2 & B1 & B2) MV.
  assert (RX : rigid (pt_mul (cdXcf cd) (pt_inv (cdXbb cd)))) by (apply rigid_mul; [exact RC|apply rigid_inv; exact RB]).
  destruct (side_rates nm mbs d K al x t _ _ _ _ _ RC M1 B1 (dataFor_begin _ _ _ _ _ _ _ _ S1) MV) as (P1 & Q1 & D1).
  destruct (side_rates nm mbs d K al x t _ _ _ _ _ RX M2 B2 (dataFor_begin _ _ _ _ _ _ _ _ S2) MV) as (P2 & Q2 & D2).
  split; [exact P1|]. split; [exact P2|]. split; [exact Q1|]. split; [exact Q2|].
  intros l Hl. unfold relVel, relAcc. apply dl_minus; [apply D1; exact Hl|apply D2; exact Hl].
Qed.

(** ** The reference of a contact whose directions are all selected *)
Definition fixedRef (cd : cdata) : Prop :=
  (forall i j, (j < 6)%nat -> cdRevDof cd i j = 0) \/ cdSides cd = [] \/ exists s0, cdSides cd = [s0] /\ 0 < cSign s0.
Definition stays (a b : cdata) : Prop := fixedRef a -> b = a.
Lemma stays_refl l : Forall2 stays l l.
Proof. induction l; constructor; auto. intros _. reflexivity. Qed.
Lemma stays_update nm mbs d sv k a b b' : rigidCD b -> dataFor nm mbs d b -> stays a b -> cdUpdate sv k b = Ok b' -> stays a b'.
Proof.
  intros RC DF ST E FX. pose proof (ST FX) as Q. subst b. destruct FX as [Z|[HS|(s0 & HS & SG)]].
  - eapply cdUpdate_fixed; eauto.
  - unfold cdUpdate in E. rewrite HS in E. discriminate.
  - unfold cdUpdate in E. rewrite HS in E. unfold Rltb in E. cbn [length Nat.eqb negb andb] in E. destruct (Rlt_dec 0 (cSign s0)); [injection E; auto|contradiction].
Qed.
Lemma stays_list nm mbs d sv k l l1 l2 : Forall (fun cd => rigidCD cd /\ dataFor nm mbs d cd) l1 -> Forall2 stays l l1 ->
  Forall2 (fun e e' => cdUpdate sv k e = Ok e') l1 l2 -> Forall2 stays l l2.
Proof.
  intros DT F. revert l2 DT. induction F as [|a b l l' T F IH]; intros l2 DT U; inversion U; subst; constructor.
  - inversion DT as [|? ? (RG & DF) DT']; subst. eapply stays_update; eauto.
  - inversion DT; subst. apply IH; auto.
Qed.
Lemma stays_step nm mbs uni bi d deps c0 c o c' b : nrVarsData mbs uni bi = Ok (d, deps) -> pathsOk nm mbs ->
  keepsDof mbs o -> ccInv nm mbs d c -> Forall2 stays (ccCont c0) (ccCont c) -> ccStep c o = Ok (c', b) -> Forall2 stays (ccCont c0) (ccCont c').
Proof.
  intros HN HP (HO & ND) IV F H. destruct o as [id|id| |id m|id| |id|id|nm' mbs' d'| |m mbs' sv k]; simpl in *; try tauto.
  - unfold addVirtualContact in H. destruct (mInsert _ _ _). inversion H; subst. auto.
  - unfold removeVirtualContact in H. destruct (mErase _ _). inversion H; subst. auto.
  - inversion H; subst. auto.
  - unfold addDofContact in H. destruct (mInsert _ _ _). inversion H; subst. auto.
  - unfold removeDofContact in H. destruct (mErase _ _). inversion H; subst. auto.
  - inversion H; subst. auto.
  - inversion H; subst; auto.
  - inversion H; subst. unfold dofContact. destruct (mFind id (ccDofs c)); simpl; auto.
  - subst. apply bind_Ok in H as (c1 & H1 & H). inversion H; subst. apply ccUpdate_F2 in H1. eapply stays_list; [exact (ivData _ _ _ _ IV)|exact F|exact H1].
Qed.
Lemma stays_run nm mbs uni bi d deps c0 ops : nrVarsData mbs uni bi = Ok (d, deps) -> pathsOk nm mbs -> Forall (keepsDof mbs) ops ->
  forall c c' outs, ccInv nm mbs d c -> Forall2 stays (ccCont c0) (ccCont c) -> ccRun c ops = Ok (c', outs) ->
  ccInv nm mbs d c' /\ Forall2 stays (ccCont c0) (ccCont c').
Proof.
  intros HN HP. induction ops as [|o ops IH]; intros F c c' outs IV T H; simpl in H; [inversion H; subst; auto|].
  inversion F as [|? ? KO]; subst. apply bind_Ok in H as ((c1 & b) & H1 & H). apply bind_Ok in H as ((c2 & bs) & H2' & H). inversion H; subst.
  eapply IH; [auto| | |eauto]; [eapply inv_step; eauto; apply KO|eapply stays_step; eauto].
Qed.
Lemma Forall2_In_l {A B} (P : A -> B -> Prop) l1 l2 a : Forall2 P l1 l2 -> In a l1 -> exists b, In b l2 /\ P a b.
Proof. induction 1; simpl; [tauto|]. intros [->|I]; [eauto|]. destruct (IHForall2 I) as (b & ? & ?). eauto. Qed.

(** What every instant of the loop says about a contact. *)
Lemma loop_holds nm mbs uni bi d deps ops0 c0 o0 c1 m sv K x cd :
  nrVarsData mbs uni bi = Ok (d, deps) -> pathsOk nm mbs -> (forall b, In b (sdAll d) -> rigid (bXcf b) /\ rigid (bXbb b)) -> modeOk m ->
  ccRun newCC ops0 = Ok (c0, o0) -> updateNrVars nm mbs d c0 = Ok c1 -> heldLoop mbs d m sv c1 K x -> In cd (ccCont c1) -> refStays mbs cd ->
  (rigidCD cd /\ dataFor nm mbs d cd) /\ forall s, 0 <= s -> contactHolds nm mbs d m sv (kinOf (K s)) cd (x s).
Proof.
  intros HN HP HR HM R0 U LP IC RS. pose proof (sorted_run _ _ _ _ sorted_new R0) as S0.
  pose proof (inv_nrVars _ _ _ _ _ _ _ _ HN HR S0 U) as I1. pose proof (ivData _ _ _ _ I1) as DT. rewrite Forall_forall in DT.
  destruct (DT cd IC) as (RC & DF). split; [split; assumption|]. intros s Hs.
  destruct (LP s Hs) as (ops & c2 & o & c3 & KO & R1 & UP & HE).
  destruct (stays_run nm mbs uni bi d deps c1 ops HN HP KO c1 c2 o I1 (stays_refl _) R1) as (I2 & ST).
  pose proof (ccUpdate_F2 _ _ _ _ _ _ UP) as F2. pose proof (stays_list _ _ _ _ _ _ _ _ (ivData _ _ _ _ I2) ST F2) as ST3.
  assert (FX : fixedRef cd).
  { assert (E : cdRevDof cd = revDof (cdDof cd)).
    { unfold updateNrVars in U. apply bind_Ok in U as (md & _ & U). apply bind_Ok in U as (l & E & U). inversion U; subst. simpl in IC.
      destruct (Forall2_In_r _ _ _ _ (contLoop_spec _ _ _ _ _ _ E) IC) as (e & _ & _ & _ & _ & _ & X & _). auto. }
    destruct RS as [HS|NZ].
    - left. intros i j Hj. rewrite E. apply revDof_zero. apply HS. exact Hj.
    - right. destruct DF as (mb1 & mb2 & l1 & l2 & Z1 & Z2 & I1' & I2' & M1 & M2 & HS & S1 & S2 & B1 & B2).
      destruct S2 as [(_ & ->)|(N2 & _)]; [|rewrite (NZ _ M2) in N2; lia]. rewrite app_nil_r in HS. rewrite HS.
      destruct S1 as [(_ & ->)|(_ & b & p & _ & _ & _ & ->)]; [left; reflexivity|right]. eexists. split; [reflexivity|cbn; lra]. }
  destruct (Forall2_In_l _ _ _ _ ST3 IC) as (cd3 & IC3 & Q). rewrite (Q FX) in IC3.
  assert (KS : Forall (sameProblem mbs) ops) by (eapply Forall_impl; [|exact KO]; intros ? (Y & _); exact Y).
  pose proof (proj1 (rows_lemma nm mbs uni bi d deps ops0 c0 o0 c1 ops c2 o m sv (kinOf (K s)) c3 (x s) HN HP HR HM R0 U KS R1 UP) HE) as FH.
  rewrite Forall_forall in FH. exact (FH cd IC3).
Qed.

(** ** The theorems *)
Lemma rates_lemma nm mbs uni bi d deps ops0 c0 o0 c1 ops c2 o1 K al x t cd :
  nrVarsData mbs uni bi = Ok (d, deps) -> pathsOk nm mbs -> (forall b, In b (sdAll d) -> rigid (bXcf b) /\ rigid (bXbb b)) ->
  ccRun newCC ops0 = Ok (c0, o0) -> updateNrVars nm mbs d c0 = Ok c1 -> Forall (sameProblem mbs) ops -> ccRun c1 ops = Ok (c2, o1) ->
  In cd (ccCont c2) -> robotsMove nm mbs d K al x t ->
  exists V1 V2, frameMoves (fun s => frame1 (K s) cd) t V1 /\ frameMoves (fun s => frame2 (K s) cd) t V2 /\
    (forall l, (l < 6)%nat -> relVel nm mbs (kinOf (K t)) cd l = e6 V1 l - e6 V2 l) /\
    forall l, (l < 6)%nat -> dlim (fun s => relVel nm mbs (kinOf (K s)) cd l) t (relAcc nm mbs d (kinOf (K t)) cd (x t) l).
Proof.
  intros HN HP HR R0 U F R1 IC MV. pose proof (sorted_run _ _ _ _ sorted_new R0) as S0.
  pose proof (inv_nrVars _ _ _ _ _ _ _ _ HN HR S0 U) as I1. pose proof (inv_run _ _ _ _ _ _ _ HN HP F _ _ _ I1 R1) as I2.
  pose proof (ivData _ _ _ _ I2) as DT. rewrite Forall_forall in DT. destruct (DT cd IC) as (RC & DF).
  destruct (contact_rates nm mbs d K al x t cd RC DF MV) as (_ & _ & Q1 & Q2 & D). do 2 eexists. split; [exact Q1|]. split; [exact Q2|]. split; [|exact D].
  intros l Hl. unfold relVel. rewrite !bodyVel_side. reflexivity.
Qed.
Lemma dl_row dof (f : nat -> R -> R) (f' : nat -> R) t : (forall l, (l < 6)%nat -> dlim (f l) t (f' l)) ->
  dlim (fun s => sumn 6 (fun l => dof l * f l s)) t (sumn 6 (fun l => dof l * f' l)).
Proof. intros H. apply dl_sumn. intros l Hl. eapply dl_eq; [apply dl_mult; [apply dl_const|apply H; exact Hl]|]. cbv beta. ring. Qed.
Lemma keep_lemma nm mbs uni bi d deps ops0 c0 o0 c1 sv K al x cd r :
  nrVarsData mbs uni bi = Ok (d, deps) -> pathsOk nm mbs -> (forall b, In b (sdAll d) -> rigid (bXcf b) /\ rigid (bXbb b)) ->
  ccRun newCC ops0 = Ok (c0, o0) -> updateNrVars nm mbs d c0 = Ok c1 -> heldLoop mbs d CAcc sv c1 K x -> In cd (ccCont c1) -> refStays mbs cd ->
  (forall t, 0 <= t -> robotsMove nm mbs d K al x t) -> (r < mrows (cdDof cd))%nat ->
  forall s, 0 <= s -> rowVel nm mbs (kinOf (K s)) cd r = rowVel nm mbs (kinOf (K 0)) cd r.
Proof.
  intros HN HP HR R0 U LP IC RS MV Hr. destruct (loop_holds _ _ _ _ _ _ _ _ _ _ CAcc _ _ _ _ HN HP HR I R0 U LP IC RS) as ((RC & DF) & HO).
  apply (const_ray (fun s => rowVel nm mbs (kinOf (K s)) cd r)). intros t Ht.
  destruct (contact_rates nm mbs d K al x t cd RC DF (MV t Ht)) as (_ & _ & _ & _ & D).
  eapply dl_eq; [apply (dl_row (mget (cdDof cd) r)); exact D|]. exact (HO t Ht r Hr).
Qed.
Lemma decay_lemma nm mbs uni bi d deps ops0 c0 o0 c1 dt sv K al x cd r :
  nrVarsData mbs uni bi = Ok (d, deps) -> pathsOk nm mbs -> (forall b, In b (sdAll d) -> rigid (bXcf b) /\ rigid (bXbb b)) -> dt <> 0 ->
  ccRun newCC ops0 = Ok (c0, o0) -> updateNrVars nm mbs d c0 = Ok c1 -> heldLoop mbs d (CSpeed dt) sv c1 K x -> In cd (ccCont c1) -> refStays mbs cd ->
  (forall t, 0 <= t -> robotsMove nm mbs d K al x t) -> (r < mrows (cdDof cd))%nat ->
  forall s, 0 <= s -> rowVel nm mbs (kinOf (K s)) cd r = rowVel nm mbs (kinOf (K 0)) cd r * exp (- s / dt).
Proof.
  intros HN HP HR HD R0 U LP IC RS MV Hr s Hs. destruct (loop_holds _ _ _ _ _ _ _ _ _ _ (CSpeed dt) _ _ _ _ HN HP HR HD R0 U LP IC RS) as ((RC & DF) & HO).
  replace (- s / dt) with (- / dt * s) by (field; exact HD).
  apply (exp_ray (fun s => rowVel nm mbs (kinOf (K s)) cd r) (/ dt)); [|exact Hs]. intros t Ht.
  destruct (contact_rates nm mbs d K al x t cd RC DF (MV t Ht)) as (_ & _ & _ & _ & D).
  eapply dl_eq; [apply (dl_row (mget (cdDof cd) r)); exact D|]. pose proof (HO t Ht r Hr) as Q. cbn [required] in Q.
  unfold rowVel. assert (E : sumn 6 (fun l => mget (cdDof cd) r l * relVel nm mbs (kinOf (K t)) cd l) + dt * sumn 6 (fun l => mget (cdDof cd) r l * relAcc nm mbs d (kinOf (K t)) cd (x t) l) = 0).
  { rewrite <- Q, <- sumn_scal, <- sumn_plus. apply sumn_ext. intros l _. ring. }
  apply (Rmult_eq_reg_l dt); [|exact HD]. rewrite <- Rmult_assoc, <- Ropp_mult_distr_r, Rinv_r by exact HD. lra.
Qed.
Lemma one_row dof f : selectsAll dof -> (forall r, (r < mrows dof)%nat -> sumn 6 (fun l => mget dof r l * f l) = 0) -> forall l, (l < 6)%nat -> f l = 0.
Proof.
  intros SA H l Hl. destruct (SA l Hl) as (r & Hr & E). specialize (H r Hr). rewrite (sumn_ext 6 _ (fun j => (if Nat.eqb j l then 1 else 0) * f j)) in H by (intros j Hj; rewrite E by exact Hj; reflexivity).
  do 6 (destruct l as [|l]; [cbn in H; unfold sumn in H; cbn in H; lra|]). lia.
Qed.
Lemma selects_stays mbs cd : selectsAll (cdDof cd) -> refStays mbs cd.
Proof. intros SA. left. intros j Hj. destruct (SA j Hj) as (r & Hr & E). exists r. split; [exact Hr|]. rewrite E by exact Hj. rewrite Nat.eqb_refl. reflexivity. Qed.
Section Loop.
Variables (nm : names) (mbs : list multibody) (d : solverData) (m : cmode) (sv : sva).
Variables (K : R -> nat -> nat -> bodyKin) (al : nat -> R -> nat -> R) (x : R -> nat -> R) (cd : cdata).
Hypothesis RC : rigidCD cd.
Hypothesis DF : dataFor nm mbs d cd.
Hypothesis MV : forall t, 0 <= t -> robotsMove nm mbs d K al x t.
Hypothesis HO : forall s, 0 <= s -> contactHolds nm mbs d m sv (kinOf (K s)) cd (x s).
Hypothesis SA : selectsAll (cdDof cd).
Let X1 s := frame1 (K s) cd.
Let X2 s := frame2 (K s) cd.
Let V1 s := sideV nm mbs (K s) (cdR1 cd) (r1Body (cdId cd)) (cdXcf cd).
Let V2 s := sideV nm mbs (K s) (cdR2 cd) (r2Body (cdId cd)) (pt_mul (cdXcf cd) (pt_inv (cdXbb cd))).
Let v s l := relVel nm mbs (kinOf (K s)) cd l.
Let e s l := frameError sv (kinOf (K s)) cd l.
Lemma l_req s l : 0 <= s -> (l < 6)%nat -> required m (relAcc nm mbs d (kinOf (K s)) cd (x s) l) (v s l) (e s l) = 0.
Proof. intros Hs Hl. apply (one_row (cdDof cd) (fun l => required m (relAcc nm mbs d (kinOf (K s)) cd (x s) l) (v s l) (e s l)) SA (HO s Hs) l Hl). Qed.
Lemma l_rel s l : v s l = e6 (V1 s) l - e6 (V2 s) l.
Proof. unfold v, relVel. rewrite !bodyVel_side. reflexivity. Qed.
Lemma l_rig1 s : rigid (X1 s). Proof. apply (contact_rates nm mbs d K al x 0 cd RC DF (MV 0 (Rle_refl 0))). Qed.
Lemma l_rig2 s : rigid (X2 s). Proof. apply (contact_rates nm mbs d K al x 0 cd RC DF (MV 0 (Rle_refl 0))). Qed.
Lemma l_mov1 s : 0 <= s -> frameMoves X1 s (V1 s). Proof. intros Hs. apply (contact_rates nm mbs d K al x s cd RC DF (MV s Hs)). Qed.
Lemma l_mov2 s : 0 <= s -> frameMoves X2 s (V2 s). Proof. intros Hs. apply (contact_rates nm mbs d K al x s cd RC DF (MV s Hs)). Qed.
Lemma l_der s l : 0 <= s -> (l < 6)%nat -> dlim (fun s => v s l) s (relAcc nm mbs d (kinOf (K s)) cd (x s) l).
Proof. intros Hs Hl. apply (contact_rates nm mbs d K al x s cd RC DF (MV s Hs)). exact Hl. Qed.
Lemma l_ang s : vsub (ang (V1 s)) (ang (V2 s)) = mkV3 (v s 0%nat) (v s 1%nat) (v s 2%nat).
Proof. rewrite !l_rel. destruct (V1 s) as [[] []], (V2 s) as [[] []]. reflexivity. Qed.
Lemma l_lin s : vsub (linr (V1 s)) (linr (V2 s)) = mkV3 (v s 3%nat) (v s 4%nat) (v s 5%nat).
Proof. rewrite !l_rel. destruct (V1 s) as [[] []], (V2 s) as [[] []]. reflexivity. Qed.
Lemma l_err3 s : mkV3 (e s 3%nat) (e s 4%nat) (e s 5%nat) = m3mulv (ptE (X1 s)) (vsub (ptr (X2 s)) (ptr (X1 s))).
Proof.
  unfold e, frameError, poseError. cbn [kinOf kPosW]. change (pt_mul (cdXcf cd) (bkPos (K s (cdR1 cd) (cdB1 cd)))) with (X1 s).
  change (pt_mul (pt_mul (cdXcf cd) (pt_inv (cdXbb cd))) (bkPos (K s (cdR2 cd) (cdB2 cd)))) with (X2 s).
  unfold pt_mul, pt_inv. cbn [ptE ptr]. rewrite m3tr_invol. destruct (ptE (X1 s)) as [[] [] []], (ptr (X1 s)), (ptr (X2 s)).
  unfold m3mulv, vsub, vadd, vneg, dot; cbn. unfold dot; cbn. f_equal; ring.
Qed.
Lemma l_err0 s : mkV3 (e s 0%nat) (e s 1%nat) (e s 2%nat) = rotationVelocity sv (m3mul (ptE (X2 s)) (m3tr (ptE (X1 s)))).
Proof.
  unfold e, frameError, poseError. cbn [kinOf kPosW]. change (pt_mul (cdXcf cd) (bkPos (K s (cdR1 cd) (cdB1 cd)))) with (X1 s).
  change (pt_mul (pt_mul (cdXcf cd) (pt_inv (cdXbb cd))) (bkPos (K s (cdR2 cd) (cdB2 cd)))) with (X2 s).
  cbn [pt_mul pt_inv ptE]. destruct (rotationVelocity sv (m3mul (ptE (X2 s)) (m3tr (ptE (X1 s))))). reflexivity.
Qed.
Lemma l_same : X1 0 = X2 0 -> (forall s, 0 <= s -> forall l, (l < 6)%nat -> v s l = 0) -> forall s, 0 <= s -> X1 s = X2 s.
Proof.
  intros E0 Z. assert (EV : forall s, 0 <= s -> V1 s = V2 s). { intros s Hs. apply e6_ext. intros l Hl. pose proof (Z s Hs l Hl) as Q. rewrite l_rel in Q. lra. }
  apply (together X1 X2 V1 l_rig1 l_mov1); [|exact E0]. intros s Hs. rewrite (EV s Hs). apply l_mov2. exact Hs.
Qed.
(** Position feedback. *)
Variable dt : R.
Hypothesis Hdt : 0 < dt.
Hypothesis Hm : m = CPos dt.
Hypothesis HL : isLog (rotationVelocity sv).
Lemma l_acc s l : 0 <= s -> (l < 6)%nat -> dlim (fun s => v s l) s (/ dt * (e s l - v s l)).
Proof.
  intros Hs Hl. eapply dl_eq; [apply (l_der s l Hs Hl)|]. pose proof (l_req s l Hs Hl) as Q. rewrite Hm in Q. cbn [required] in Q.
  apply (Rmult_eq_reg_l dt); [|lra]. rewrite <- Rmult_assoc, Rinv_r by lra. lra.
Qed.
Lemma l_dW s : 0 <= s -> dV (fun u => vsub (ang (V1 u)) (ang (V2 u))) s
  (vsc (/ dt) (vsub (rotationVelocity sv (m3mul (ptE (X2 s)) (m3tr (ptE (X1 s))))) (vsub (ang (V1 s)) (ang (V2 s))))).
Proof.
  intros Hs. apply (dV_ext (fun u => mkV3 (v u 0%nat) (v u 1%nat) (v u 2%nat))); [intros u; rewrite l_ang; reflexivity|]. rewrite l_ang, <- l_err0.
  split; [|split]; apply l_acc; try exact Hs; lia.
Qed.
Lemma l_dT s : 0 <= s -> dV (fun u => vsub (linr (V1 u)) (linr (V2 u))) s
  (vsc (/ dt) (vsub (m3mulv (ptE (X1 s)) (vsub (ptr (X2 s)) (ptr (X1 s)))) (vsub (linr (V1 s)) (linr (V2 s))))).
Proof.
  intros Hs. apply (dV_ext (fun u => mkV3 (v u 3%nat) (v u 4%nat) (v u 5%nat))); [intros u; rewrite l_lin; reflexivity|]. rewrite l_lin, <- l_err3.
  split; [|split]; apply l_acc; try exact Hs; lia.
Qed.
Lemma l_v0 s : norm2 (vsub (ang (V1 s)) (ang (V2 s))) = sq3 (v s) 0.
Proof. rewrite l_ang. reflexivity. Qed.
Lemma l_v3 s : norm2 (vsub (linr (V1 s)) (linr (V2 s))) = sq3 (v s) 3.
Proof. rewrite l_lin. reflexivity. Qed.
Lemma l_e0 s : underHalfTurn (ptE (X1 s)) (ptE (X2 s)) -> angle2 (ptE (X1 s)) (ptE (X2 s)) = sq3 (e s) 0.
Proof.
  intros (a & th & U & H & E). rewrite (angle2_axis _ _ a th U H E). pose proof (l_err0 s) as Q. rewrite E, (HL a th U H) in Q.
  change (sq3 (e s) 0) with (norm2 (mkV3 (e s 0%nat) (e s 1%nat) (e s 2%nat))). rewrite Q. apply unit2 in U. destruct a as [a1 a2 a3]. unfold norm2, dot, vsc; cbn in *.
  transitivity (th * th * (a1 * a1 + a2 * a2 + a3 * a3)); [rewrite U; ring|ring].
Qed.
Lemma l_e3 s : norm2 (vsub (ptr (X2 s)) (ptr (X1 s))) = sq3 (e s) 3.
Proof.
  change (sq3 (e s) 3) with (norm2 (mkV3 (e s 3%nat) (e s 4%nat) (e s 5%nat))). rewrite l_err3. unfold norm2. symmetry. apply (rotation_dot _ _ _ (l_rig1 s)).
Qed.
Lemma l_turn : underHalfTurn (ptE (X1 0)) (ptE (X2 0)) -> dt * sq3 (v 0) 0 + sq3 (e 0) 0 < PI * PI ->
  (forall s, 0 <= s -> underHalfTurn (ptE (X1 s)) (ptE (X2 s))) /\
  forall s u, 0 <= s <= u -> contactEnergy nm mbs sv dt (kinOf (K u)) cd 0 <= contactEnergy nm mbs sv dt (kinOf (K s)) cd 0.
Proof.
  intros H0 HE. destruct (rot_energy X1 X2 V1 V2 dt (rotationVelocity sv) Hdt l_rig1 l_rig2 l_mov1 l_mov2 HL l_dW) as (G & D).
  - rewrite l_v0, (l_e0 0 H0). replace (dt * (sq3 (v 0) 0 + sq3 (e 0) 0 / dt)) with (dt * sq3 (v 0) 0 + sq3 (e 0) 0) by (field; lra). exact HE.
  - assert (UT : forall s, 0 <= s -> underHalfTurn (ptE (X1 s)) (ptE (X2 s))) by (intros s Hs; apply half_turn_iff; [apply l_rig1|apply l_rig2|apply G; exact Hs]).
    split; [exact UT|]. intros s u Hu. pose proof (D s u Hu) as Q. cbv beta in Q. rewrite !l_v0, !l_e0 in Q by (apply UT; lra). exact Q.
Qed.
Lemma half_refl A : rotation A -> underHalfTurn A A.
Proof.
  intros RA. assert (N : norm (mkV3 1 0 0) = 1) by (unfold norm, norm2, dot; cbn; replace (1 * 1 + 0 * 0 + 0 * 0) with 1 by ring; apply sqrt_1).
  exists (mkV3 1 0 0), 0. split; [exact N|]. split; [rewrite Rabs_R0; apply PI_RGT_0|]. rewrite (rotation_mul_tr _ RA), (id_axis _ N). reflexivity.
Qed.
Lemma sq3_zero f i : sq3 f i <= 0 -> f i = 0 /\ f (i + 1)%nat = 0 /\ f (i + 2)%nat = 0.
Proof. intros H. apply sum_sqr_0. unfold sq3 in H. nra. Qed.
Lemma sq3_pos f i : 0 <= sq3 f i. Proof. unfold sq3. nra. Qed.
Lemma energy_zero a b : 0 <= a -> 0 <= b -> a + b / dt <= 0 -> a <= 0 /\ b <= 0.
Proof.
  intros Ha Hb H. assert (I : 0 < / dt) by (apply Rinv_0_lt_compat; lra). unfold Rdiv in H. assert (0 <= b * / dt) by nra. split; [lra|]. destruct (Rle_dec b 0); [assumption|exfalso]. assert (0 < b * / dt) by (apply Rmult_lt_0_compat; lra). lra.
Qed.
Lemma l_e0_same s : ptE (X1 s) = ptE (X2 s) -> sq3 (e s) 0 = 0.
Proof.
  intros E. assert (UT : underHalfTurn (ptE (X1 s)) (ptE (X2 s))) by (rewrite E; apply half_refl, l_rig2). rewrite <- (l_e0 s UT).
  destruct UT as (a & th & U & H & Q). rewrite (angle2_axis _ _ a th U H Q). rewrite E, (rotation_mul_tr _ (l_rig2 s)) in Q.
  assert (C1 : cosAngle (ptE (X2 s)) (ptE (X2 s)) = 1) by (unfold cosAngle; rewrite (rotation_mul_tr _ (l_rig2 s)); cbn; field).
  assert (C2 : m3mul (ptE (X2 s)) (m3tr (ptE (X2 s))) = rotAxis a th) by (rewrite (rotation_mul_tr _ (l_rig2 s)); exact Q).
  pose proof (angle2_axis _ _ a th U H C2) as A. rewrite <- A. unfold angle2. rewrite C1, acos_1. ring.
Qed.
Lemma l_aligned : ptE (X1 0) = ptE (X2 0) -> sq3 (v 0) 0 = 0 ->
  (forall s, 0 <= s -> ptE (X1 s) = ptE (X2 s) /\ sq3 (v s) 0 <= 0) /\
  forall s u, 0 <= s <= u -> contactEnergy nm mbs sv dt (kinOf (K u)) cd 3 <= contactEnergy nm mbs sv dt (kinOf (K s)) cd 3.
Proof.
  intros E0 Z0. pose proof (l_e0_same 0 E0) as Z1. pose proof PI_RGT_0.
  assert (U0 : underHalfTurn (ptE (X1 0)) (ptE (X2 0))) by (rewrite E0; apply half_refl, l_rig2).
  destruct (l_turn U0 ltac:(rewrite Z0, Z1; nra)) as (UT & DE).
  assert (A : forall s, 0 <= s -> ptE (X1 s) = ptE (X2 s) /\ sq3 (v s) 0 <= 0).
  { intros s Hs. pose proof (DE 0 s ltac:(lra)) as Q. unfold contactEnergy in Q. change (relVel nm mbs (kinOf (K s)) cd) with (v s) in Q. change (relVel nm mbs (kinOf (K 0)) cd) with (v 0) in Q.
    change (frameError sv (kinOf (K s)) cd) with (e s) in Q. change (frameError sv (kinOf (K 0)) cd) with (e 0) in Q. rewrite Z0, Z1 in Q.
    destruct (energy_zero _ _ (sq3_pos (v s) 0) (sq3_pos (e s) 0) ltac:(unfold Rdiv in *; lra)) as (G1 & G2). split; [|exact G1].
    apply angle2_zero; [apply l_rig1|apply l_rig2|]. rewrite (l_e0 s (UT s Hs)). pose proof (sq3_pos (e s) 0). lra. }
  split; [exact A|]. intros s u Hu. pose proof (trans_energy X1 X2 V1 V2 dt Hdt l_mov1 l_mov2 (fun s Hs => proj1 (A s Hs)) l_dT s u Hu) as Q.
  cbv beta zeta in Q. rewrite !l_v3, !l_e3 in Q. exact Q.
Qed.
Lemma l_pos : X1 0 = X2 0 -> (forall l, (l < 6)%nat -> v 0 l = 0) -> forall s, 0 <= s -> forall l, (l < 6)%nat -> v s l = 0.
Proof.
  intros E0 Z0 s Hs. destruct (l_aligned ltac:(rewrite E0; reflexivity)) as (A & DE).
  { unfold sq3. rewrite !Z0 by lia. ring. }
  destruct (A s Hs) as (_ & G1). pose proof (DE 0 s ltac:(lra)) as Q. unfold contactEnergy in Q. change (relVel nm mbs (kinOf (K s)) cd) with (v s) in Q. change (relVel nm mbs (kinOf (K 0)) cd) with (v 0) in Q.
  change (frameError sv (kinOf (K s)) cd) with (e s) in Q. change (frameError sv (kinOf (K 0)) cd) with (e 0) in Q.
  assert (Y : sq3 (e 0) 3 = 0) by (rewrite <- l_e3, E0; unfold norm2, dot, vsub, vadd, vneg; cbn; ring).
  assert (Y' : sq3 (v 0) 3 = 0) by (unfold sq3; rewrite !Z0 by lia; ring). rewrite Y, Y' in Q.
  destruct (energy_zero _ _ (sq3_pos (v s) 3) (sq3_pos (e s) 3) ltac:(unfold Rdiv in *; lra)) as (G2 & _).
  apply sq3_zero in G1. apply sq3_zero in G2. cbn in G1, G2. destruct G1 as (? & ? & ?), G2 as (? & ? & ?).
  intros l Hl. do 6 (destruct l as [|l]; [assumption|]). lia.
Qed.
End Loop.
Lemma together_lemma nm mbs uni bi d deps ops0 c0 o0 c1 m sv K al x cd :
  nrVarsData mbs uni bi = Ok (d, deps) -> pathsOk nm mbs -> (forall b, In b (sdAll d) -> rigid (bXcf b) /\ rigid (bXbb b)) ->
  modePos m -> isLog (rotationVelocity sv) ->
  ccRun newCC ops0 = Ok (c0, o0) -> updateNrVars nm mbs d c0 = Ok c1 -> heldLoop mbs d m sv c1 K x -> In cd (ccCont c1) -> selectsAll (cdDof cd) ->
  (forall t, 0 <= t -> robotsMove nm mbs d K al x t) ->
  frame1 (K 0) cd = frame2 (K 0) cd -> (forall l, (l < 6)%nat -> relVel nm mbs (kinOf (K 0)) cd l = 0) ->
  forall s, 0 <= s -> frame1 (K s) cd = frame2 (K s) cd /\ forall l, (l < 6)%nat -> relVel nm mbs (kinOf (K s)) cd l = 0.
Proof.
  intros HN HP HR HM HL R0 U LP IC SA MV E0 Z0. assert (MO : modeOk m) by (destruct m as [|dt|dt]; cbn in *; [exact I|exact HM|lra]).
  destruct (loop_holds _ _ _ _ _ _ _ _ _ _ m _ _ _ _ HN HP HR MO R0 U LP IC (selects_stays mbs cd SA)) as ((RC & DF) & HO).
  assert (Z : forall s, 0 <= s -> forall l, (l < 6)%nat -> relVel nm mbs (kinOf (K s)) cd l = 0).
  { intros s Hs. destruct m as [|dt|dt].
    - intros l Hl. rewrite <- (Z0 l Hl). apply (const_ray (fun s => relVel nm mbs (kinOf (K s)) cd l)); [|exact Hs]. intros t Ht.
      eapply dl_eq; [apply (l_der nm mbs d K al x cd RC DF MV t l Ht Hl)|]. apply (l_req nm mbs d CAcc sv K x cd HO SA t l Ht Hl).
    - intros l Hl. rewrite (exp_ray (fun s => relVel nm mbs (kinOf (K s)) cd l) (/ dt)); [rewrite (Z0 l Hl); ring| |exact Hs]. intros t Ht.
      eapply dl_eq; [apply (l_der nm mbs d K al x cd RC DF MV t l Ht Hl)|]. pose proof (l_req nm mbs d _ sv K x cd HO SA t l Ht Hl) as Q. cbn [required] in Q.
      apply (Rmult_eq_reg_l dt); [|exact MO]. rewrite <- Rmult_assoc, <- Ropp_mult_distr_r, Rinv_r by exact MO. lra.
    - exact (l_pos nm mbs d _ sv K al x cd RC DF MV HO SA dt HM eq_refl HL E0 Z0 s Hs). }
  intros s Hs. split; [|exact (Z s Hs)]. exact (l_same nm mbs d K al x cd RC DF MV E0 Z s Hs).
Qed.
Lemma turn_lemma nm mbs uni bi d deps ops0 c0 o0 c1 dt sv K al x cd :
  nrVarsData mbs uni bi = Ok (d, deps) -> pathsOk nm mbs -> (forall b, In b (sdAll d) -> rigid (bXcf b) /\ rigid (bXbb b)) ->
  0 < dt -> isLog (rotationVelocity sv) ->
  ccRun newCC ops0 = Ok (c0, o0) -> updateNrVars nm mbs d c0 = Ok c1 -> heldLoop mbs d (CPos dt) sv c1 K x -> In cd (ccCont c1) -> selectsAll (cdDof cd) ->
  (forall t, 0 <= t -> robotsMove nm mbs d K al x t) ->
  underHalfTurn (ptE (frame1 (K 0) cd)) (ptE (frame2 (K 0) cd)) -> dt * contactEnergy nm mbs sv dt (kinOf (K 0)) cd 0 < PI * PI ->
  (forall s, 0 <= s -> underHalfTurn (ptE (frame1 (K s) cd)) (ptE (frame2 (K s) cd))) /\
  forall s u, 0 <= s <= u -> contactEnergy nm mbs sv dt (kinOf (K u)) cd 0 <= contactEnergy nm mbs sv dt (kinOf (K s)) cd 0.
Proof.
  intros HN HP HR HD HL R0 U LP IC SA MV U0 E0. assert (MO : modeOk (CPos dt)) by (cbn; lra).
  destruct (loop_holds _ _ _ _ _ _ _ _ _ _ _ _ _ _ _ HN HP HR MO R0 U LP IC (selects_stays mbs cd SA)) as ((RC & DF) & HO).
  apply (l_turn nm mbs d _ sv K al x cd RC DF MV HO SA dt HD eq_refl HL U0).
  assert (G : forall a b, dt * (a + b / dt) < PI * PI -> dt * a + b < PI * PI) by (intros a b Q; replace (dt * a + b) with (dt * (a + b / dt)) by (field; lra); exact Q).
  exact (G _ _ E0).
Qed.
Lemma aligned_lemma nm mbs uni bi d deps ops0 c0 o0 c1 dt sv K al x cd :
  nrVarsData mbs uni bi = Ok (d, deps) -> pathsOk nm mbs -> (forall b, In b (sdAll d) -> rigid (bXcf b) /\ rigid (bXbb b)) ->
  0 < dt -> isLog (rotationVelocity sv) ->
  ccRun newCC ops0 = Ok (c0, o0) -> updateNrVars nm mbs d c0 = Ok c1 -> heldLoop mbs d (CPos dt) sv c1 K x -> In cd (ccCont c1) -> selectsAll (cdDof cd) ->
  (forall t, 0 <= t -> robotsMove nm mbs d K al x t) ->
  ptE (frame1 (K 0) cd) = ptE (frame2 (K 0) cd) -> (forall l, (l < 3)%nat -> relVel nm mbs (kinOf (K 0)) cd l = 0) ->
  (forall s, 0 <= s -> ptE (frame1 (K s) cd) = ptE (frame2 (K s) cd) /\ forall l, (l < 3)%nat -> relVel nm mbs (kinOf (K s)) cd l = 0) /\
  forall s u, 0 <= s <= u -> contactEnergy nm mbs sv dt (kinOf (K u)) cd 3 <= contactEnergy nm mbs sv dt (kinOf (K s)) cd 3.
Proof.
  intros HN HP HR HD HL R0 U LP IC SA MV E0 Z0. assert (MO : modeOk (CPos dt)) by (cbn; lra).
  destruct (loop_holds _ _ _ _ _ _ _ _ _ _ _ _ _ _ _ HN HP HR MO R0 U LP IC (selects_stays mbs cd SA)) as ((RC & DF) & HO).
  destruct (l_aligned nm mbs d _ sv K al x cd RC DF MV HO SA dt HD eq_refl HL E0) as (A & B).
  { unfold sq3. rewrite !Z0 by lia. ring. }
  split; [|exact B]. intros s Hs. destruct (A s Hs) as (A1 & A2). split; [exact A1|]. apply sq3_zero in A2. cbn in A2. destruct A2 as (? & ? & ?).
  intros l Hl. do 3 (destruct l as [|l]; [assumption|]). lia.
Qed.
