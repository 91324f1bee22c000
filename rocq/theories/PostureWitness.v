(** Concrete cases for the posture theorems. *)
From Verif Require Export PostureLoop PostureFacts PostureSpec SetPointWitness SelectorFacts.
From Coq Require Export Lra.
Open Scope string_scope.
Open Scope list_scope.
Open Scope R_scope.
Local Arguments sumn : simpl never.
Local Arguments twoSqrt : simpl never.

(** Two robots; the second has a free flyer, a revolute and a spherical joint. *)
Definition pMbs : list multibody := [mkMB [mkJoint "a" 0 0 None; mkJoint "b" 1 1 None]; sMb].
Definition pData : solverData := match nrVarsData pMbs [] [] with Ok (d, _) => d | _ => initData end.
Definition pRot (i : nat) (w x y z : R) : V3 := mkV3 x y z.
Definition pQ0 : list (list R) := [[1; 0; 0; 0; 0; 0; 0]; [0]; [1; 0; 0; 0]].
Definition pQ1 : list (list R) := [[1; 0; 0; 0; 0; 0; 0]; [5]; [1; 2; 3; 4]].
Definition pK : pcfg := mkPCfg pQ0 [[1; 0; 0; 0; 0; 0]; [1]; [0; 0; 0]] pRot.
Definition pOps : list poOp := [PoNrVars pData; PoStiffness 4; PoPosture pQ1; PoJointsG [("ball", (1, 0))]; PoUpdate pK; PoWeight 3].
Lemma pShape : shaped sMb (pfAlpha pK).
Proof. reflexivity. Qed.
Lemma pPlain : plainJoints sMb.
Proof. intros j [<-|[<-|[]]]; cbn; auto. Qed.
Lemma pEnough q : (q = pQ0 \/ q = pQ1) -> enough sMb q pK.
Proof. intros H i j Hj. destruct i as [|[|[|i]]]; cbn in Hj; try discriminate; injection Hj as <-; cbn; (split; intros E; try discriminate E); destruct H as [->| ->]; cbn; lia. Qed.
Lemma pNew : exists t0, newPost pMbs 1 pQ0 1 1 = Ok t0.
Proof. unfold newPost. cbn. rewrite two1. cbn. eauto. Qed.
Lemma pUpd ops t0 t : newPost pMbs 1 pQ0 1 1 = Ok t0 -> poRun pMbs ops t0 = Ok t -> (latest poGiveQ pQ0 ops = pQ0 \/ latest poGiveQ pQ0 ops = pQ1) -> latest poGiveRV (vfill 10 0) ops = vfill 10 0 -> exists t', poUpdate pMbs pK t = Ok t'.
Proof. intros N Rn H V. apply (posture_defined pMbs 1 sMb pQ0 1 1 ops t0 t pK eq_refl N Rn); [cbn; lia|apply pEnough; auto|apply pShape|]. change (nrDof sMb) with 10%nat. rewrite V. cbn. lia. Qed.
Lemma pRun t0 : newPost pMbs 1 pQ0 1 1 = Ok t0 -> exists t, poRun pMbs pOps t0 = Ok t.
Proof.
  intros N. assert (A : exists t1, poRun pMbs [PoNrVars pData; PoStiffness 4; PoPosture pQ1; PoJointsG [("ball", (1, 0))]] t0 = Ok t1).
  { unfold newPost in N. cbn in N. rewrite two1 in N. cbn in N. injection N as <-. cbn [poRun poStep]. rewrite two4. cbn. eauto. }
  destruct A as (t1 & A). destruct (pUpd _ _ _ N A) as (t2 & U); [auto|auto|]. unfold pOps. cbn [poRun poStep] in *.
  apply bind_Ok in A as (a1 & A1 & A). rewrite A1. cbn [bind]. apply bind_Ok in A as (a2 & A2 & A). rewrite A2. cbn [bind] in *. apply bind_Ok in A as (a4 & A4 & A). injection A as <-. rewrite A4. cbn [bind]. rewrite U. cbn [bind]. eauto.
Qed.
Lemma pRoot : forall j o, nth_error (joints sMb) 0 = Some j -> In o (latest poGiveJ [] pOps) -> fst o <> jname j.
Proof. intros j o E I. cbn in E. injection E as <-. cbn in I. destruct I as [<-|[]]. discriminate. Qed.

(** A robot with a cylindrical joint before a revolute one. *)
Definition cMb : multibody := mkMB [mkJoint "root" 0 0 None; mkJoint "cyl" 2 2 None; mkJoint "rev" 1 1 None].
Definition cK : pcfg := mkPCfg [[]; [0; 0]; [0]] [[]; [0; 0]; [0]] pRot.
Lemma cyl_lemma : exists t0 t', newPost [cMb] 0 [[]; [0; 0]; [1]] 1 1 = Ok t0 /\ poUpdate [cMb] cK t0 = Ok t' /\
  forall x, taskCost (postTask t') x = (x 0%nat ^ 2 + x 1%nat ^ 2 + x 2%nat ^ 2) / 2 - x 0%nat.
Proof.
  unfold newPost. cbn [vec_at nth_error bind]. rewrite two1. cbn [bind]. eexists. eexists. split; [reflexivity|]. split; [reflexivity|]. intros x. unfold taskCost. cbn -[sqrt]. unfold sumn. cbn -[sqrt]. rewrite ?sqrt_1. field.
Qed.
(** A planar joint has three dofs and three parameters. *)
Definition plMb : multibody := mkMB [mkJoint "root" 0 0 None; mkJoint "planar" 3 3 None].
Definition plK : pcfg := mkPCfg [[]; [0; 0; 0]] [[]; [0; 0; 0]] pRot.
Lemma planar_lemma : exists t0, newPost [plMb] 0 [[]; [0; 0; 0]] 1 1 = Ok t0 /\ poUpdate [plMb] plK t0 = UB.
Proof. unfold newPost. cbn [vec_at nth_error bind]. rewrite two1. cbn [bind]. eexists. split; reflexivity. Qed.
(** A robot with one joint. *)
Definition oMb : multibody := mkMB [mkJoint "rev" 1 1 None].
Definition oK : pcfg := mkPCfg [[0]] [[0]] pRot.
Lemma one_new : exists t0, newPost [oMb] 0 [[1]] 1 1 = Ok t0.
Proof. unfold newPost. cbn [vec_at nth_error bind]. rewrite two1. cbn [bind]. eauto. Qed.

(** The closed loop of the revolute joint: gain 1, target 1, from 0 at rest. *)
Definition lK (s : R) : pcfg := mkPCfg [[1; 0; 0; 0; 0; 0; 0]; [1 - cE s]; [1; 0; 0; 0]] [[0; 0; 0; 0; 0; 0]; [cV s]; [0; 0; 0]] pRot.
Definition lX (s : R) : nat -> R := fun c => if Nat.eqb c 7 then (1 - s) * exp (- 1 * s) else 0.
Definition lQ : list (list R) := [[1; 0; 0; 0; 0; 0; 0]; [1]; [1; 0; 0; 0]].
Lemma lNew : exists t0, newPost pMbs 1 lQ 1 1 = Ok t0.
Proof. unfold newPost. cbn. rewrite two1. cbn. eauto. Qed.
Lemma lEnough s : enough sMb lQ (lK s).
Proof. intros i j Hj. destruct i as [|[|[|i]]]; cbn in Hj; try discriminate; injection Hj as <-; cbn; (split; intros E; try discriminate E); lia. Qed.
