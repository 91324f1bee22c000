(** Properties C09-C18: the quadratic program handed to the numerical solvers. *)
From Coq Require Import Permutation.
From Verif Require Import FillSpec FillFacts.
Open Scope string_scope.
Open Scope list_scope.
Open Scope R_scope.

(** ** Concrete data used by the examples: three variables; x0 + x1 = 2; x2 <= 5 (plus an unused row);
    -1 <= x0 - x2 <= +oo; 0 <= x0 <= 4; a task on x1, x2. *)
Definition exRow (a b c : R) : nat -> R := fun j => match j with 0%nat => a | 1%nat => b | 2%nat => c | _ => 0 end.
Definition exEq : equality := mkEq 1 1 (mkMat 1 3 (fun _ => exRow 1 1 0)) (vfill 1 2).
Definition exIneq : inequality := mkIneq 2 1 (mkMat 2 3 (fun _ => exRow 0 0 1)) (vfill 2 (Fin 5)).
Definition exGen : geninequality := mkGen 1 1 (mkMat 1 3 (fun _ => exRow 1 0 (-1))) (vfill 1 (Fin (-1))) (vfill 1 PInf).
Definition exBound : bound := mkBound 0 (vfill 1 (Fin 0)) (vfill 1 (Fin 4)).
Definition exTask : task := mkTask 3 (1, 1)%nat (mkMat 2 2 (fun i j => if Nat.eqb i j then 1 else 0)) (mkVec 2 (fun i => - INR (S i))).
Definition exReg : registered := mkReg [exTask] [exEq] [exIneq] [exGen] [exBound].
(** Back ends sized for exReg. *)
Definition exBack (k : kind) : backend := updateSize (newBackend k) 3 1 2 1.

(** ** C09 *)
(** The rows L <= A x <= U given to the LSSOL solver hold exactly when x satisfies every active line of
    every registered equality, inequality and general inequality. *)
Theorem C09_general_form : forall b g p n x,
  bkDeps b = [] -> bkN b = n -> lssolMatrix b g = Ok p ->
  ((forall i, (i < mrows (pgA p))%nat ->
      between (vget (pgAL p) i) (sumn n (fun j => mget (pgA p) i j * x j)) (vget (pgAU p) i)) <->
   linFeasible n g x).
Proof. exact general_form_lemma. Qed.
Print Assumptions C09_general_form.

Example C09_example :
  (exists p, lssolMatrix (exBack LSSOL) exReg = Ok p) /\
    linFeasible 3 exReg (exRow 1 1 2) /\ ~ linFeasible 3 exReg (exRow 1 1 6).
Proof.
  split; [|split].
  - apply (lssol_defined (exBack LSSOL) exReg 3 []).
    + split; [reflexivity|left; auto].
    + repeat split; try constructor; try constructor; simpl; unfold wfTask, wfEq, wfIneq, wfGen, wfBoundIn; simpl; lia.
    + repeat split; simpl; lia.
  - split; [|split]; (apply Forall_cons; [|constructor]); intros i Hi; simpl in *; unfold between; simpl; lra.
  - intros (_ & H & _). inversion H as [|? ? H1 _]; subst. specialize (H1 0%nat ltac:(simpl; lia)). simpl in H1. lra.
Qed.

(** ** C10 *)
(** Likewise for the matrices given to the QLD solver. *)
Theorem C10_standard_form : forall b g p n x,
  bkDeps b = [] -> bkN b = n -> qldMatrix b g = Ok p ->
  (((forall i, (i < mrows (psAeq p))%nat -> sumn n (fun j => mget (psAeq p) i j * x j) = vget (psBeq p) i) /\
    (forall i, (i < mrows (psAin p))%nat -> ele (Fin (sumn n (fun j => mget (psAin p) i j * x j))) (vget (psBin p) i))) <->
   linFeasible n g x).
Proof. exact standard_form_lemma. Qed.
Print Assumptions C10_standard_form.

(** Both back ends are given the same problem: same feasible vectors (mimic joints included), same cost. *)
Theorem C10_back_ends_agree : forall n deps me mi mg bl bq g p q y,
  wfDeps n deps ->
  setDependencies (newBackend LSSOL) n deps = Ok bl -> setDependencies (newBackend QLD) n deps = Ok bq ->
  lssolMatrix (updateSize bl n me mi mg) g = Ok p -> qldMatrix (updateSize bq n me mi mg) g = Ok q ->
  (okG p y <-> okS q y) /\ costG p y = costS q y.
Proof. exact back_ends_agree_lemma. Qed.
Print Assumptions C10_back_ends_agree.

Example C10_example : (exists p, qldMatrix (exBack QLD) exReg = Ok p) /\ linFeasible 3 exReg (exRow 1 1 2).
Proof.
  split; [|exact (proj1 (proj2 C09_example))].
  apply (qld_defined (exBack QLD) exReg 3 []).
  - split; [reflexivity|left; auto].
  - repeat split; try constructor; try constructor; simpl; unfold wfTask, wfEq, wfIneq, wfGen, wfBoundIn; simpl; lia.
  - repeat split; simpl; lia.
Qed.

(** ** C11 *)
(** Bound constraints on pairwise disjoint variables: the box given to the solvers is exactly all the
    bounds. When ranges overlap, the constraint registered last wins; other variables are free. *)
Theorem C11_bounds_disjoint : forall bs n XL XU x,
  fillBound bs (vfill n NInf) (vfill n PInf) = Ok (XL, XU) -> Forall wfBound bs -> disjointBounds bs ->
  ((forall i, (i < n)%nat -> between (vget XL i) (x i) (vget XU i)) <-> Forall (holdsBound x) bs).
Proof. exact fillBound_disjoint. Qed.
Print Assumptions C11_bounds_disjoint.

Theorem C11_bounds_last_wins : forall bs n XL XU i,
  fillBound bs (vfill n NInf) (vfill n PInf) = Ok (XL, XU) -> Forall wfBound bs -> (i < n)%nat ->
  ((forall b, In b bs -> ~ covers b i) /\ vget XL i = NInf /\ vget XU i = PInf) \/
  (exists k b, nth_error bs k = Some b /\ covers b i /\
     (forall k' b', (k < k')%nat -> nth_error bs k' = Some b' -> ~ covers b' i) /\
     vget XL i = vget (bdL b) (i - bdBegin b) /\ vget XU i = vget (bdU b) (i - bdBegin b)).
Proof. exact last_wins_lemma. Qed.
Print Assumptions C11_bounds_last_wins.

Theorem C11_bounds_defined : forall bs n,
  (exists XL XU, fillBound bs (vfill n NInf) (vfill n PInf) = Ok (XL, XU)) <-> Forall (wfBoundIn n) bs.
Proof. exact bounds_defined_lemma. Qed.
Print Assumptions C11_bounds_defined.

Example C11_example :
  let b1 := mkBound 0 (vfill 2 (Fin 0)) (vfill 2 (Fin 4)) in let b2 := mkBound 3 (vfill 1 NInf) (vfill 1 (Fin 7)) in
  disjointBounds [b1; b2] /\ Forall wfBound [b1; b2] /\ Forall (wfBoundIn 4) [b1; b2].
Proof.
  simpl. split; [|split; repeat constructor].
  intros [|[|k1]] [|[|k2]] b1 b2 i H1 H2 C1 C2; simpl in *; try (destruct k1; discriminate); try (destruct k2; discriminate); auto;
    inversion H1; inversion H2; subst; unfold covers in *; simpl in *; lia.
Qed.

(** ** C12 *)
(** Refuted: two bound constraints on the same variable are not both enforced; the first one is lost. *)
Theorem C12_overlapping_bounds_refuted :
  exists b1 b2 n XL XU x,
    fillBound [b1; b2] (vfill n NInf) (vfill n PInf) = Ok (XL, XU) /\ Forall wfBound [b1; b2] /\
    (forall i, (i < n)%nat -> between (vget XL i) (x i) (vget XU i)) /\ ~ holdsBound x b1.
Proof. exact overlapping_refuted_lemma. Qed.
Print Assumptions C12_overlapping_bounds_refuted.

(** ** C13 *)
Theorem C13_objective : forall ts n Q C,
  fillQC ts n (mzero n n) (vfill n 0) = Ok (Q, C) ->
  mrows Q = n /\ mcols Q = n /\ vlen C = n /\
  forall x, quad n (mget Q) x / 2 + lin n (vget C) x = tasksCost ts x + regCost n ts x.
Proof. exact objective_lemma. Qed.
Print Assumptions C13_objective.

(** The regularisation touches only the diagonal, and only entries below 1e-4: entry (i, j) is the sum
    of the weighted entries of the tasks. *)
Theorem C13_entries : forall ts n Q C i j,
  fillQC ts n (mzero n n) (vfill n 0) = Ok (Q, C) -> (i < n)%nat -> (j < n)%nat ->
  mget Q i j = sumR (map (taskEntry i j) ts) +
    (if Nat.eqb i j then if Rlt_dec (Rabs (sumR (map (taskEntry i i) ts))) (/ 10000) then / 10000 else 0 else 0).
Proof. exact entries_lemma. Qed.
Print Assumptions C13_entries.

Theorem C13_defined : forall ts n,
  Forall (wfTask n) ts -> exists Q C, fillQC ts n (mzero n n) (vfill n 0) = Ok (Q, C).
Proof. exact qc_defined_lemma. Qed.
Print Assumptions C13_defined.

Example C13_example : Forall (wfTask 3) [exTask; exTask] /\ tasksCost [exTask; exTask] (exRow 0 1 2) = -15.
Proof.
  split; [repeat constructor; simpl; lia|].
  unfold tasksCost, taskCost, exTask, exRow; simpl. lra.
Qed.

(** ** C14 *)
Theorem C14_convex : forall ts n Q C,
  fillQC ts n (mzero n n) (vfill n 0) = Ok (Q, C) -> Forall psdTask ts ->
  (forall x, 0 <= quad n (mget Q) x) /\ (forall i, (i < n)%nat -> / 10000 <= mget Q i i) /\
  (forall i x, (i < n)%nat -> (forall t, In t ts -> ~ touches t i) ->
     / 10000 * (x i * x i) <= quad n (mget Q) x).
Proof. exact convex_touch_lemma. Qed.
Print Assumptions C14_convex.

Example C14_example : Forall psdTask [exTask] /\ ~ touches exTask 0 /\ touches exTask 2.
Proof.
  split; [|unfold touches; simpl; lia].
  constructor; [|constructor]. split; [simpl; lra|]. split; [reflexivity|]. split; [reflexivity|].
  intros v. unfold quad; simpl. pose proof (Rle_0_sqr (v 0%nat)). pose proof (Rle_0_sqr (v 1%nat)). unfold Rsqr in *. lra.
Qed.

(** ** C15 *)
(** Full and reduced variables are in bijection outside the replicas, and expansion is a bijection
    between reduced vectors and full vectors that honour the mimic relations. *)
Theorem C15_reduction_maps : forall b n deps, wfDeps n deps ->
  exists b', setDependencies b n deps = Ok b' /\
  (forall i, (i < n)%nat -> ~ In i (map replica deps) ->
     exists j, (j < n - length deps)%nat /\ nth_error (bkF2R b') i = Some (Z.of_nat j) /\
               nth_error (bkR2F b') j = Some (Z.of_nat i)) /\
  (forall j, (j < n - length deps)%nat ->
     exists i, (i < n)%nat /\ ~ In i (map replica deps) /\ nth_error (bkR2F b') j = Some (Z.of_nat i) /\
               nth_error (bkF2R b') i = Some (Z.of_nat j)) /\
  (forall y, vlen y = (n - length deps)%nat ->
     exists x, expandResult y (bkM b') = Ok x /\ vlen x = n /\ honours deps (vget x) /\
       forall i j, (i < n)%nat -> ~ In i (map replica deps) -> nth_error (bkF2R b') i = Some (Z.of_nat j) ->
         vget x i = vget y j) /\
  (forall x, honours deps x ->
     exists y, vlen y = (n - length deps)%nat /\
       (exists x', expandResult y (bkM b') = Ok x' /\ forall i, (i < n)%nat -> vget x' i = x i) /\
       forall y' x', vlen y' = (n - length deps)%nat -> expandResult y' (bkM b') = Ok x' ->
         (forall i, (i < n)%nat -> vget x' i = x i) -> forall j, (j < n - length deps)%nat -> vget y' j = vget y j).
Proof. exact reduction_maps_lemma. Qed.
Print Assumptions C15_reduction_maps.

(** Variables 1 and 4 follow variable 0, variable 2 follows variable 3. *)
Definition exDeps : list dep := [(3%nat, 2%nat, / 2); (0%nat, 1%nat, -2); (0%nat, 4%nat, 1)].
Example C15_example : wfDeps 6 exDeps.
Proof.
  split; [repeat constructor; simpl; unfold replica; simpl; lia|]. split; [|simpl; lia].
  intros d [<-|[<-|[<-|[]]]]; unfold leader, replica; simpl; lia.
Qed.

(** ** C16 *)
(** Cost, rows and bounds of the reduced problem at y are those of the full problem at the expansion of y. *)
Theorem C16_reduced_problem : forall b0 b n deps QF CF AF XLF XUF,
  wfDeps n deps -> setDependencies b0 n deps = Ok b -> (forall l r, ~ In (l, r, 0) deps) ->
  mrows QF = n -> mcols QF = n -> vlen CF = n -> mcols AF = n -> vlen XLF = n -> vlen XUF = n ->
  exists Q C A XL XU,
    reduceQC QF CF (bkM b) = Ok (Q, C) /\ reduceA AF (bkM b) = Ok A /\
    reduceBound XLF XUF (n - length deps) (bkF2R b) (bkR2F b) (bkDeps b) = Ok (XL, XU) /\
    mrows Q = (n - length deps)%nat /\ mcols Q = (n - length deps)%nat /\ mrows A = mrows AF /\ mcols A = (n - length deps)%nat /\
    forall y x, vlen y = (n - length deps)%nat -> expandResult y (bkM b) = Ok x ->
      qpcost (n - length deps) (mget Q) (vget C) (vget y) = qpcost n (mget QF) (vget CF) (vget x) /\
      (forall i, (i < mrows AF)%nat -> rowdot A i (vget y) = rowdot AF i (vget x)) /\
      ((forall j, (j < n - length deps)%nat -> between (vget XL j) (vget y j) (vget XU j)) <->
       (forall i, (i < n)%nat -> between (vget XLF i) (vget x i) (vget XUF i))).
Proof. exact reduced_problem_lemma. Qed.
Print Assumptions C16_reduced_problem.

Example C16_example : wfDeps 6 exDeps /\ (forall l r, ~ In (l, r, 0) exDeps).
Proof.
  split; [exact C15_example|]. intros l r [H|[H|[H|[]]]]; inversion H; lra.
Qed.

(** ** C17 *)
(** Refuted: with multiplier 0 the reduced bounds say nothing of the replica, whose value 0 may be
    outside its own bounds. *)
Theorem C17_zero_multiplier_refuted :
  exists n deps b XLF XUF XL XU y x,
    wfDeps n deps /\ setDependencies (newBackend QLD) n deps = Ok b /\ vlen XLF = n /\ vlen XUF = n /\
    reduceBound XLF XUF (n - length deps) (bkF2R b) (bkR2F b) (bkDeps b) = Ok (XL, XU) /\
    vlen y = (n - length deps)%nat /\
    (forall j, (j < n - length deps)%nat -> between (vget XL j) (vget y j) (vget XU j)) /\
    expandResult y (bkM b) = Ok x /\
    exists i, (i < n)%nat /\ ~ between (vget XLF i) (vget x i) (vget XUF i).
Proof. exact zero_multiplier_refuted_lemma. Qed.
Print Assumptions C17_zero_multiplier_refuted.

(** What holds for all multipliers: every variable keeps its bounds except replicas with multiplier 0. *)
Theorem C17_zero_multiplier_exact : forall b0 b n deps XLF XUF,
  wfDeps n deps -> setDependencies b0 n deps = Ok b -> vlen XLF = n -> vlen XUF = n ->
  exists XL XU,
    reduceBound XLF XUF (n - length deps) (bkF2R b) (bkR2F b) (bkDeps b) = Ok (XL, XU) /\
    forall y x, vlen y = (n - length deps)%nat -> expandResult y (bkM b) = Ok x ->
      ((forall j, (j < n - length deps)%nat -> between (vget XL j) (vget y j) (vget XU j)) <->
       (forall i, (i < n)%nat -> (forall l, ~ In (l, i, 0) deps) -> between (vget XLF i) (vget x i) (vget XUF i))).
Proof. exact zero_multiplier_lemma. Qed.
Print Assumptions C17_zero_multiplier_exact.

(** ** C18 *)
(** Refuted: variable 1 follows 0 and variable 2 follows 1. On a new solver the call is undefined
    (the multiplier matrix is given a negative column). *)
Theorem C18_chain_refuted :
  exists n deps, NoDup (map replica deps) /\ (length deps < n)%nat /\
    (forall d, In d deps -> (leader d < n)%nat /\ (replica d < n)%nat /\ leader d <> replica d) /\
    setDependencies (newBackend QLD) n deps = UB.
Proof. exact chain_refuted_lemma. Qed.
Print Assumptions C18_chain_refuted.

(** On a solver that was used before, the chain is silently attached to an unrelated variable: here
    variable 2 follows variable 3. *)
Theorem C18_chain_stale_refuted :
  exists b b' y x, setDependencies (newBackend QLD) 4 [] = Ok b /\
    setDependencies b 4 [(0%nat, 1%nat, 1); (1%nat, 2%nat, 1)] = Ok b' /\ vlen y = 2%nat /\
    expandResult y (bkM b') = Ok x /\ vget x 1%nat <> vget x 2%nat /\ vget x 2%nat = vget x 3%nat.
Proof. exact chain_stale_lemma. Qed.
Print Assumptions C18_chain_stale_refuted.
