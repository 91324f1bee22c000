(** Properties C04-C08, C19-C23 and C68: registration, sizing, solving and error reports. *)
From Verif Require Import SolverSpec UtilsModel DiagSolver SolverFacts.
Open Scope string_scope.
Open Scope list_scope.
Open Scope R_scope.

(** ** C04 *)
(** After any history, the task and constraint lists hold exactly the live objects, once each, in
    order of insertion; nrTasks and nrConstraints count them. *)
Theorem C04_tasks_ordered_set : forall lssol kinds ops s,
  history lssol kinds ops = Ok s ->
  orderedSet (map taskEv ops) (qTasks s) /\ nrTasks s = length (qTasks s).
Proof. exact (fun lssol kinds ops s H => conj (tasks_ordered lssol kinds ops s H) eq_refl). Qed.
Print Assumptions C04_tasks_ordered_set.

Theorem C04_constraints_ordered_set : forall lssol kinds ops s,
  history lssol kinds ops = Ok s ->
  orderedSet (map constrEv ops) (qConstr s) /\ nrConstraints s = length (qConstr s).
Proof. exact (fun lssol kinds ops s H => conj (constr_ordered lssol kinds ops s H) eq_refl). Qed.
Print Assumptions C04_constraints_ordered_set.

Example C04_example :
  exists s, history true (fun _ => []) [OpAddTask 3; OpAddTask 1; OpAddTask 3; OpRemoveTask 7; OpAddTask 2; OpRemoveTask 1] = Ok s /\
    qTasks s = [3; 2]%nat.
Proof. eexists. split; [vm_compute; reflexivity|reflexivity]. Qed.

(** ** C05 *)
(** When objects are added only while absent and removed only while present: the four lists hold exactly
    the registered objects of their kind, once each and in order; removal is defined; an object that is
    not registered has no influence on the result. *)
Theorem C05_kind_lists : forall lssol kinds ops s,
  (forall c, NoDup (kinds c)) -> history lssol kinds ops = Ok s -> alternating (map regEv ops) ->
  forall k, NoDup (kindList k s) /\
    (forall c, In c (kindList k s) <-> live (map regEv ops) c /\ In k (kinds c)) /\
    inOrder (map regEv ops) (kindList k s).
Proof. exact kinds_lemma. Qed.
Print Assumptions C05_kind_lists.

Theorem C05_remove_defined : forall lssol kinds ops s c,
  (forall c, NoDup (kinds c)) -> history lssol kinds ops = Ok s -> alternating (map regEv (ops ++ [OpRemoveFrom c])) ->
  exists s', step lssol kinds s (OpRemoveFrom c) = Ok s'.
Proof. exact remove_defined_lemma. Qed.
Print Assumptions C05_remove_defined.

Theorem C05_no_influence : forall lssol kinds ops s c num h h',
  (forall c, NoDup (kinds c)) -> history lssol kinds ops = Ok s -> alternating (map regEv ops) ->
  ~ live (map regEv ops) c -> sameExcept c h h' ->
  solveNoMbcUpdate num s h = solveNoMbcUpdate num s h'.
Proof. exact no_influence_lemma. Qed.
Print Assumptions C05_no_influence.

Theorem C05_round_trip : forall s c ks,
  NoDup ks -> ~ In c (qConstr s) -> (forall k, In k ks -> ~ In c (kindList k s)) ->
  exists s', removeFromSolver (addToSolver s c ks) c ks = Ok s' /\
    qConstr s' = qConstr s /\ (forall k, kindList k s' = kindList k s) /\ qTasks s' = qTasks s.
Proof. exact round_trip_lemma. Qed.
Print Assumptions C05_round_trip.

Definition exKinds (c : nat) : list ckind := match c with 0%nat => [KEq; KBound] | _ => [KGen; KBound] end.
Example C05_example : (forall c, NoDup (exKinds c)) /\
  (exists s, history true exKinds [OpAddTo 0; OpAddTo 1; OpRemoveFrom 0; OpAddTo 0] = Ok s /\
     kindList KBound s = [1; 0]%nat /\ kindList KEq s = [0]%nat) /\
  alternating (map regEv [OpAddTo 0; OpAddTo 1; OpRemoveFrom 0; OpAddTo 0]).
Proof.
  split; [intros [|c]; repeat constructor; simpl; intuition discriminate|]. split.
  - eexists. split; [vm_compute; reflexivity|]. split; reflexivity.
  - intros k c. destruct k as [|[|[|[|k]]]]; simpl.
    + split; intros H; inversion H; subst. intros (i & Hi & _). destruct i; discriminate.
    + split; intros H; inversion H; subst. intros (i & Hi & _). destruct i as [|[|i]]; discriminate.
    + split; intros H; inversion H; subst. exists 0%nat. split; [reflexivity|].
      intros [|[|k]] Hk; [lia| |destruct k; split; discriminate]. split; discriminate.
    + split; intros H; inversion H; subst. intros (i & Hi & L). destruct i as [|[|[|i]]]; simpl in Hi; try discriminate.
      * apply (proj1 (L 2%nat ltac:(lia))). reflexivity.
      * destruct i; discriminate.
    + split; intros H; destruct k; discriminate.
Qed.

(** ** C06 *)
(** Refuted for every constraint with at least one kind: after two additions, one removal takes the
    object out of the list of constraints but leaves it in every list that feeds the QP. *)
Theorem C06_double_add_refuted : forall s c ks,
  NoDup ks -> NoDup (qConstr s) -> ~ In c (qConstr s) -> (forall k, In k ks -> ~ In c (kindList k s)) ->
  exists s', removeFromSolver (addToSolver (addToSolver s c ks) c ks) c ks = Ok s' /\
    ~ In c (qConstr s') /\ forall k, In k ks -> In c (kindList k s').
Proof. exact double_add_lemma. Qed.
Print Assumptions C06_double_add_refuted.

(** Removing an object that is not registered erases the end iterator. *)
Theorem C06_remove_absent_refuted : forall s c k ks,
  ~ In c (kindList k s) -> removeFromSolver s c (k :: ks) = UB.
Proof. exact remove_absent_lemma. Qed.
Print Assumptions C06_remove_absent_refuted.

Example C06_example :
  exists s, history true exKinds [OpAddTo 0; OpAddTo 0; OpRemoveFrom 0] = Ok s /\ qConstr s = [] /\ qEq s = [0]%nat /\
    history true exKinds [OpAddTo 0; OpRemoveFrom 0; OpRemoveFrom 0] = UB.
Proof. eexists. split; [vm_compute; reflexivity|]. split; [reflexivity|]. split; reflexivity. Qed.

(** ** C07 *)
(** After updateConstrSize, and as long as constraints are only resized within the announced maxima,
    solve is defined (no write outside the matrices) whatever nrVars, solver(name), task calls follow. *)
Theorem C07_no_overrun : forall lssol kinds pre h1 post s h2 num,
  history lssol kinds (pre ++ OpUpdateConstrSize h1 :: post) = Ok s ->
  Forall usableMimics (pre ++ OpUpdateConstrSize h1 :: post) ->
  Forall (fun o => ~ changesConstraints o) post ->
  (forall h, In (OpUpdateConstrSize h) (OpUpdateConstrSize h1 :: post) -> withinMax h h2) ->
  wfReg (sdNrVars (qData s)) (collect s h2) -> contract num ->
  exists ok x, solveNoMbcUpdate num s h2 = Ok (ok, x) /\ vlen x = sdNrVars (qData s).
Proof. exact safe_lemma. Qed.
Print Assumptions C07_no_overrun.

Example C07_example :
  let ops := [OpAddTo 0; OpAddTask 0] ++ OpUpdateConstrSize oneLineHeap :: [OpNrVars [oneMb] [] []; OpSetSolver "QLD"] in
  exists s, history true (fun _ => [KEq]) ops = Ok s /\ Forall usableMimics ops /\ withinMax oneLineHeap oneLineHeap /\
    wfReg (sdNrVars (qData s)) (collect s oneLineHeap) /\ contract diagSolver.
Proof.
  eexists. split; [vm_compute; reflexivity|]. split; [|split; [|split; [|exact diagSolver_contract]]].
  - assert (W : wfMimic oneMb).
    { split; [repeat constructor; simpl; tauto|]. intros j nm m [<-|[]]; discriminate. }
    repeat (constructor; [try exact I; try (constructor; [exact W|constructor])|]); constructor.
  - intros c. simpl. lia.
  - repeat split; try constructor; try constructor; simpl; unfold wfTask, wfEq, wfIneq, wfGen, wfBoundIn; simpl; lia.
Qed.

(** ** C08 *)
(** Refuted for both back ends: adding an equality constraint after the sizing calls and solving
    writes outside the matrices, whatever the numerical solver. *)
Theorem C08_any_order_refuted : forall lssol num,
  exists s, history lssol (fun _ => [KEq]) [OpNrVars [oneMb] [] []; OpUpdateConstrSize oneLineHeap; OpAddTo 0] = Ok s /\
    wfReg (sdNrVars (qData s)) (collect s oneLineHeap) /\
    solveNoMbcUpdate num s oneLineHeap = UB.
Proof. exact overrun_lemma. Qed.
Print Assumptions C08_any_order_refuted.

(** ** C19 *)
(** Refuted: after solver(name) the mimic relations are gone, and an exact numerical solver reports
    success with a result that violates them. *)
Theorem C19_switch_refuted :
  exists ops s x, history true (fun _ => []) ops = Ok s /\ Forall usableMimics ops /\
    ops = [OpAddTask 0; OpNrVars [mimicMb] [] []; OpSetSolver "QLD"] /\
    wfMimic mimicMb /\ nonzeroMimics [mimicMb] /\ contract diagSolver /\
    solveNoMbcUpdate diagSolver s (pullHeap 2) = Ok (true, x) /\ ~ mimicked [mimicMb] (qData s) (vget x).
Proof. exact switch_refuted_lemma. Qed.
Print Assumptions C19_switch_refuted.

(** What holds: without mimic joints the back end may be changed at any time after nrVars. *)
Theorem C19_switch_no_mimic : forall lssol kinds pre mbs uni bi post s num h x T (ms ms' : list (mbconfig T)),
  history lssol kinds (pre ++ OpNrVars mbs uni bi :: post) = Ok s ->
  noMimics mbs -> Forall (fun o => ~ resizes o) post ->
  contract num ->
  Forall wfBound (rgBound (collect s h)) -> disjointBounds (rgBound (collect s h)) ->
  solve num s h ms = Ok (true, x, ms') ->
  let n := sdNrVars (qData s) in let g := collect s h in
  vlen x = n /\ feasible n g (vget x) /\
  forall z, feasible n g z -> objective n (rgTasks g) (vget x) <= objective n (rgTasks g) z.
Proof. exact switch_lemma. Qed.
Print Assumptions C19_switch_no_mimic.

Example C19_example :
  exists s x, history true (fun _ => []) ([OpAddTask 0] ++ OpNrVars [oneMb] [] [] :: [OpSetSolver "QLD"]) = Ok s /\
    solve diagSolver s (pullHeap 1) [mkMbc [[0]] tt] = Ok (true, x, [mkMbc [[1]] tt]).
Proof.
  destruct (pull_qc 1) as (Q & C & E & P & V).
  eexists _, (diagMin Q C). split; [vm_compute; reflexivity|].
  unfold solve. match goal with |- context [solveNoMbcUpdate ?n ?s ?h] => assert (EB : solveNoMbcUpdate n s h = Ok (true, diagMin Q C)) end.
  { eapply diag_backend; [reflexivity|reflexivity|exact E|exact P]. }
  rewrite EB. cbn [bind].
  rewrite <- (V 0%nat ltac:(lia)). destruct (objective_lemma _ _ _ _ E) as (R1 & _).
  unfold diagMin. rewrite R1. reflexivity.
Qed.

(** ** C20 *)
(** Whenever solve reports success, the result satisfies every constraint, bound and mimic relation, and
    no other such vector has a lower objective. [contract] is the assumption on the numerical solver. *)
Theorem C20_optimal : forall lssol kinds pre mbs uni bi post s num h x T (ms ms' : list (mbconfig T)),
  history lssol kinds (pre ++ OpNrVars mbs uni bi :: post) = Ok s ->
  Forall wfMimic mbs -> nonzeroMimics mbs -> Forall (fun o => ~ resizesOrSwitches o) post ->
  contract num ->
  Forall wfBound (rgBound (collect s h)) -> disjointBounds (rgBound (collect s h)) ->
  solve num s h ms = Ok (true, x, ms') ->
  let n := sdNrVars (qData s) in let g := collect s h in
  vlen x = n /\ feasible n g (vget x) /\ mimicked mbs (qData s) (vget x) /\
  forall z, feasible n g z -> mimicked mbs (qData s) z ->
    objective n (rgTasks g) (vget x) <= objective n (rgTasks g) z.
Proof. exact optimal_lemma. Qed.
Print Assumptions C20_optimal.

(** ** C21 *)
(** solve writes the accelerations of each robot into its configuration on success, and leaves
    everything else, and everything on failure, as it was. *)
Theorem C21_write_back : forall lssol kinds pre mbs uni bi post s num h ok x T (ms : list (mbconfig T)),
  history lssol kinds (pre ++ OpNrVars mbs uni bi :: post) = Ok s ->
  Forall wfMimic mbs -> Forall (fun o => ~ resizesOrSwitches o) post ->
  solveNoMbcUpdate num s h = Ok (ok, x) -> vlen x = sdNrVars (qData s) -> Forall2 fitsRobot mbs ms ->
  exists ms', solve num s h ms = Ok (ok, x, ms') /\ length ms' = length ms /\
    (ok = false -> ms' = ms) /\
    (ok = true -> forall r m, nth_error ms r = Some m -> exists m' w, nth_error ms' r = Some m' /\
       alphaDVecAt (qData s) x r = Ok w /\ concat (mbcAlphaD m') = vlist w /\
       map (@length R) (mbcAlphaD m') = map (@length R) (mbcAlphaD m) /\ mbcOther m' = mbcOther m).
Proof. exact write_lemma. Qed.
Print Assumptions C21_write_back.

(** A history, solver and state meeting the hypotheses of C20 and C21. *)
Example C20_C21_example :
  exists s x, history true (fun _ => []) ([OpAddTask 0] ++ OpNrVars [oneMb; oneMb] [] [] :: [OpAddTask 0]) = Ok s /\
    Forall wfMimic [oneMb; oneMb] /\ nonzeroMimics [oneMb; oneMb] /\ contract diagSolver /\
    solveNoMbcUpdate diagSolver s (pullHeap 2) = Ok (true, x) /\ vlen x = 2%nat /\
    Forall2 fitsRobot [oneMb; oneMb] [mkMbc [[0]] tt; mkMbc [[5]] tt].
Proof.
  destruct (pull_qc 2) as (Q & C & E & P & V).
  eexists _, (diagMin Q C). split; [vm_compute; reflexivity|].
  assert (W : wfMimic oneMb).
  { split; [repeat constructor; simpl; tauto|]. intros j nm m [<-|[]]; discriminate. }
  split; [constructor; [exact W|constructor; [exact W|constructor]]|]. split.
  { intros mb il ir m [<-|[<-|[]]] (jl & jr & _ & B & D); destruct ir as [|[|ir]]; inversion B; subst; discriminate. }
  split; [exact diagSolver_contract|]. split.
  { unfold solveNoMbcUpdate. eapply diag_backend; [reflexivity|reflexivity|exact E|exact P]. }
  split; [exact (proj1 (objective_lemma _ _ _ _ E))|]. repeat constructor.
Qed.

(** ** C22 *)
(** Line i of the stacked matrix: exactly one constraint and local line is named, and it is the one whose
    coefficients and bounds make up line i (mimic joints included); beyond the last line nothing is named. *)
Theorem C22_error_line : forall lssol kinds ops s num h p ok x i,
  history lssol kinds ops = Ok s -> Forall usableMimics ops -> bkKind (qBack s) = LSSOL ->
  lssolMatrix (qBack s) (collect s h) = Ok p -> solveNoMbcUpdate num s h = Ok (ok, x) ->
  ((i < mrows (pgA p))%nat ->
   exists r coef lo up, lineReport (collect s h) i = [r] /\
     lineOf (collect s h) r (sdNrVars (qData s)) = Some (coef, lo, up) /\
     vget (pgAL p) i = lo /\ vget (pgAU p) i = up /\
     rowdot (pgA p) i (vget (snd (numLssol num p))) = sumn (sdNrVars (qData s)) (fun j => coef j * vget x j)) /\
  ((mrows (pgA p) <= i)%nat -> lineReport (collect s h) i = []).
Proof. exact error_line_lemma. Qed.
Print Assumptions C22_error_line.

Example C22_example :
  exists s, history true (fun _ => [KEq]) [OpNrVars [oneMb] [] []; OpAddTo 0; OpAddTo 1; OpUpdateConstrSize oneLineHeap] = Ok s /\
    (exists p, lssolMatrix (qBack s) (collect s oneLineHeap) = Ok p /\ mrows (pgA p) = 2%nat) /\
    lineReport (collect s oneLineHeap) 0 = [REq 0 0] /\ lineReport (collect s oneLineHeap) 1 = [REq 1 0].
Proof.
  eexists. split; [vm_compute; reflexivity|]. split; [|split; reflexivity].
  match goal with |- exists p, lssolMatrix ?b ?g = Ok p /\ _ => destruct (lssol_defined b g 1 []) as (p & Hp) end.
  - split; [reflexivity|left; auto].
  - repeat split; try constructor; try constructor; simpl; unfold wfTask, wfEq, wfIneq, wfGen, wfBoundIn; simpl; try lia;
      constructor; unfold wfEq; simpl; try lia; constructor.
  - repeat split; simpl; lia.
  - exists p. split; [auto|]. rewrite (lssol_rows _ _ _ Hp). reflexivity.
Qed.

(** ** C23 *)
(** Exact behaviour when the base is included (descGenInEq): the joint named is the owner except for the
    first degree of freedom of every joint but the first, where an earlier joint is named. *)
Theorem C23_with_base_exact : forall mb j d, ownsDof mb j d ->
  exists j', findJointFromVector mb d true = Some j' /\ (j' < length (joints mb))%nat /\
    (j' = j <-> (j = 0%nat \/ (dofBefore mb j < d)%nat)) /\ (j' <= j)%nat.
Proof. exact desc_base_lemma. Qed.
Print Assumptions C23_with_base_exact.

(** Exact behaviour without the base (descBound), fixed-base robots. *)
Theorem C23_without_base_exact : forall mb j d, ownsDof mb j d -> dofBefore mb 1 = 0%nat ->
  (findJointFromVector mb d false = Some j <->
   ((dofBefore mb j < d)%nat /\ (j = 1%nat \/ (S (dofBefore mb j) < d)%nat))).
Proof. exact desc_nobase_lemma. Qed.
Print Assumptions C23_without_base_exact.

(** Refuted: for a fixed-base robot with 1-dof joints, descBound never names the right joint. *)
Theorem C23_without_base_refuted : forall mb j d,
  ownsDof mb j d -> dofBefore mb 1 = 0%nat -> (forall jt, In jt (joints mb) -> (jdof jt <= 1)%nat) ->
  findJointFromVector mb d false <> Some j.
Proof. exact desc_1dof_lemma. Qed.
Print Assumptions C23_without_base_refuted.

Definition exArm : multibody := mkMB [ mkJoint "root" 0 0 None; mkJoint "j1" 1 1 None; mkJoint "j2" 1 1 None; mkJoint "j3" 1 1 None ].
Example C23_example : ownsDof exArm 3 2 /\ dofBefore exArm 1 = 0%nat /\
  descJoint exArm 2 true = Ok "j2" /\ descJoint exArm 2 false = Ok "j1" /\ descJoint exArm 0 false = UB.
Proof. split; [split; [simpl; lia|unfold dofBefore; simpl; lia]|]. repeat split. Qed.

(** ** C68 *)
(** Refuted: as long as no robot has a mimic joint, errorMsg never names a bound, and names line i when
    the state of variable i (not of line i) is a violation. *)
Theorem C68_error_msg_refuted : forall lssol kinds ops s g nr istate,
  history lssol kinds ops = Ok s -> Forall noMimicOp ops -> bkKind (qBack s) = LSSOL ->
  errorMsg (qBack s) g nr istate = flat_map (fun i => if (istate i <? 0)%Z then lineReport g i else []) (seq 0 nr).
Proof. exact error_msg_lemma. Qed.
Print Assumptions C68_error_msg_refuted.

(** One variable with bounds, one equality: lssol reports the variable; the message names the equality. *)
Example C68_example :
  exists s, history true (fun _ => [KEq]) [OpNrVars [oneMb] [] []; OpAddTo 0; OpUpdateConstrSize oneLineHeap] = Ok s /\
    errorMsg (qBack s) (collect s oneLineHeap) 1 (fun i => match i with 0%nat => (-1)%Z | _ => 0%Z end) = [REq 0 0].
Proof. eexists. split; [vm_compute; reflexivity|reflexivity]. Qed.
