(** Properties C141 to C144: tasks that can be achieved together, and what the result of the solver depends on. *)
From Verif Require Import CompatSpec CompatFacts CompatWitness CompatLoop ShareWitness OrderWitness.
Open Scope string_scope.
Open Scope list_scope.
Open Scope R_scope.

(** C141 refuted as stated: a robot with one free joint, no constraint and one set-point task of weight 1e-5 that asks for the
    acceleration 1 gets the acceleration 1/11. The code adds 1e-4 to diagonal entries below 1e-4, whatever the scale of the weights. *)
Theorem C141_refuted : exists mbs uni bi s h x z q, Forall wfMimic mbs /\ nonzeroMimics mbs /\ solvedBy mbs uni bi s h x /\
  feasible (sdNrVars (qData s)) (collect s h) z /\ mimicked mbs (qData s) z /\ (exists t, rgTasks (collect s h) = [t] /\ setPointOf t q) /\ meets z q /\
  ~ meets (vget x) q /\ z 0%nat = 1 /\ vget x 0%nat = / 11.
Proof. exact small_task_lemma. Qed.
Print Assumptions C141_refuted.
(** C141: if some point meets the constraints and the mimic relations, gives every set-point task what it asks for, and is 0 on the
    regularised variables, then the result of the solver gives every task what it asks for. *)
Theorem C141_attained : forall mbs uni bi s h x z qs, Forall wfMimic mbs -> nonzeroMimics mbs -> solvedBy mbs uni bi s h x ->
  feasible (sdNrVars (qData s)) (collect s h) z -> mimicked mbs (qData s) z -> quiet (sdNrVars (qData s)) (rgTasks (collect s h)) z ->
  Forall2 setPointOf (rgTasks (collect s h)) qs -> Forall (meets z) qs -> Forall (meets (vget x)) qs.
Proof. exact attained_by. Qed.
Print Assumptions C141_attained.
(** The same for tasks of any kind: if z minimises each of them by itself, so does the result. *)
Theorem C141_compatible : forall mbs uni bi s h x z, Forall wfMimic mbs -> nonzeroMimics mbs -> solvedBy mbs uni bi s h x ->
  feasible (sdNrVars (qData s)) (collect s h) z -> mimicked mbs (qData s) z -> quiet (sdNrVars (qData s)) (rgTasks (collect s h)) z ->
  pleasesAll (rgTasks (collect s h)) z -> pleasesAll (rgTasks (collect s h)) (vget x).
Proof. exact compatible_by. Qed.
Print Assumptions C141_compatible.
(** Weight 2: the joint gets the acceleration 3 it is asked for. *)
Example C141_used : exists t x q, solvedBy [kMb] [] [] cmSolver (cmHeap t) x /\ setPointOf t q /\ meets (fun _ => 3) q /\ quiet 1 [t] (fun _ => 3) /\ meets (vget x) q /\ vget x 0%nat = 3.
Proof. exact compat_used_lemma. Qed.

(** C142: the solver is called at every instant, with any other tasks and constraints, and there is always a point that satisfies the
    constraints and pleases all the tasks. The error of the set-point task decays critically damped. *)
Theorem C142_converges : forall lssol kinds num ct pre mbs uni bi r k0 W0 w0 ops t0 t h x i k b W,
  Forall wfMimic mbs -> nonzeroMimics mbs -> contract num ->
  newSP mbs r k0 W0 w0 = Ok t0 -> spRun ops t0 = Ok t ->
  k = latest spGiveK k0 ops -> b = latest (spGiveBegin r) 0%nat ops -> W = latest spGiveW W0 ops ->
  0 < k -> 0 < latest spGiveWeight w0 ops -> (forall j, (j < vlen W)%nat -> 0 < vget W j) -> (i < vlen W)%nat ->
  tasksLoop lssol kinds num ct pre mbs uni bi (fun s => Ok (h s)) t k b x ->
  (forall s, 0 <= s -> derivable_pt_lim (fun s => vget (hErr (h s)) i) s (- vget (hSpeed (h s)) i)) ->
  (forall s, 0 <= s -> derivable_pt_lim (fun s => vget (hSpeed (h s)) i) s (taskAcc (h s) b (x s) i)) ->
  decays k (fun s => vget (hErr (h s)) i) (vget (hSpeed (h 0)) i).
Proof. exact solver_converges. Qed.
Print Assumptions C142_converges.
(** With a PositionTask on a robot that moves: the distance of the body point itself to its target, coordinate by coordinate. *)
Theorem C142_position : forall lssol kinds num ct pre mbs uni bi r k0 W0 w0 ops t0 t x k b mb path K al jm,
  Forall wfMimic mbs -> nonzeroMimics mbs -> contract num ->
  newSP mbs r k0 W0 w0 = Ok t0 -> spRun ops t0 = Ok t -> k = latest spGiveK k0 ops -> b = latest (spGiveBegin r) 0%nat ops ->
  0 < k -> 0 < latest spGiveWeight w0 ops -> (forall j, (j < vlen (latest spGiveW W0 ops))%nat -> 0 < vget (latest spGiveW W0 ops) j) ->
  wfPath mb path -> (forall s, 0 <= s -> movesAt mb path K al (fun s j => x s (b + j)%nat) s) -> forall pos bp pops i v,
  vlen (latest spGiveW W0 ops) = 3%nat -> sized 3 mb jm -> latest posGivePoint bp pops = bp ->
  tasksLoop lssol kinds num ct pre mbs uni bi (fun s => posUpdate mb (fold_left posStep pops (posInit pos bp path)) (K s) (jm s)) t k b x ->
  (i < 3)%nat -> dlim (fun s => e3 (worldPoint bp (K s)) i) 0 v ->
  decays k (fun s => e3 (latest posGivePos pos pops) i - e3 (worldPoint bp (K s)) i) v.
Proof. exact solver_position. Qed.
Print Assumptions C142_position.
(** A slider that starts at rest at 0 with target 1, solve() called at every instant. *)
Example C142_used : exists t0, newSP [kMb] 0 1 (ones 3) 1 = Ok t0 /\
  tasksLoop true cmKinds trySolver 0 [] [kMb] [] [] (fun s => posUpdate kMb (fold_left posStep [] (posInit (mkV3 1 0 0) v0 [0%nat])) (kSlide s) (kJm 3 s)) t0 1 0 SetPointWitness.cX.
Proof. exact slide_tasks. Qed.

(** C143 refuted as stated: two joints share one set-point task. Two numerical solvers that keep their contract give the first joint the
    accelerations 1 and -5. The regularisation, which only looks at the diagonal, does not make the result unique. *)
Theorem C143_refuted : exists mbs uni bi s h x x' t q, Forall wfMimic mbs /\ nonzeroMimics mbs /\ solvedBy mbs uni bi s h x /\ solvedBy mbs uni bi s h x' /\
  rgTasks (collect s h) = [t] /\ setPointOf t q /\ vget x 0%nat = 1 /\ vget x' 0%nat = - 5.
Proof. exact share_lemma. Qed.
Print Assumptions C143_refuted.
(** C143: with the same robots and contacts and the same tasks and constraints registered in any order, by any history, with any back end
    and any numerical solver, the results have the same objective. *)
Theorem C143_cost : forall mbs uni bi s s' h h' x x', Forall wfMimic mbs -> nonzeroMimics mbs -> solvedBy mbs uni bi s h x -> solvedBy mbs uni bi s' h' x' ->
  sameRegistered (collect s h) (collect s' h') ->
  objective (sdNrVars (qData s)) (rgTasks (collect s h)) (vget x) = objective (sdNrVars (qData s)) (rgTasks (collect s h)) (vget x').
Proof. exact order_cost. Qed.
Print Assumptions C143_cost.
(** They are the same result if the objective is strictly convex on the points that respect the mimic relations. *)
Theorem C143_determined : forall mbs uni bi s s' h h' x x', Forall wfMimic mbs -> nonzeroMimics mbs -> solvedBy mbs uni bi s h x -> solvedBy mbs uni bi s' h' x' ->
  sameRegistered (collect s h) (collect s' h') ->
  strictlyConvex (mimicked mbs (qData s)) (sdNrVars (qData s)) (objective (sdNrVars (qData s)) (rgTasks (collect s h))) ->
  forall i, (i < sdNrVars (qData s))%nat -> vget x i = vget x' i.
Proof. exact order_same. Qed.
Print Assumptions C143_determined.
(** Two tasks that pull a joint to 3 and to -1, added in the two orders. *)
Example C143_used : exists t t' q q' x x', setPointOf t q /\ setPointOf t' q' /\
  solvedBy [kMb] [] [] (odSolver true) (odHeap t t') x /\ solvedBy [kMb] [] [] (odSolver false) (odHeap t t') x' /\
  rgTasks (collect (odSolver true) (odHeap t t')) = [t; t'] /\ rgTasks (collect (odSolver false) (odHeap t t')) = [t'; t] /\ vget x 0%nat = vget x' 0%nat.
Proof. exact order_used_lemma. Qed.

(** C144 refuted as stated: with all weights (there is one) multiplied by 1e-5 the same strictly convex problem gives 1/11 instead of 1. *)
Theorem C144_refuted : exists mbs uni bi s s' h h' x x' c, Forall wfMimic mbs /\ nonzeroMimics mbs /\ solvedBy mbs uni bi s h x /\ solvedBy mbs uni bi s' h' x' /\
  sameConstraints (collect s h) (collect s' h') /\ rgTasks (collect s' h') = map (rescaled c) (rgTasks (collect s h)) /\ 0 < c /\
  strictlyConvex (mimicked mbs (qData s)) (sdNrVars (qData s)) (objective (sdNrVars (qData s)) (rgTasks (collect s h))) /\
  vget x 0%nat = 1 /\ vget x' 0%nat = / 11.
Proof. exact weight_refuted_lemma. Qed.
Print Assumptions C144_refuted.
(** C144: when no variable is regularised before or after, multiplying all the weights by c > 0 changes nothing. *)
Theorem C144_scaling : forall mbs uni bi s s' h h' x x' c, Forall wfMimic mbs -> nonzeroMimics mbs -> solvedBy mbs uni bi s h x -> solvedBy mbs uni bi s' h' x' ->
  sameConstraints (collect s h) (collect s' h') -> Permutation (map (rescaled c) (rgTasks (collect s h))) (rgTasks (collect s' h')) -> 0 < c ->
  unregularised (sdNrVars (qData s)) (rgTasks (collect s h)) -> unregularised (sdNrVars (qData s)) (map (rescaled c) (rgTasks (collect s h))) ->
  objective (sdNrVars (qData s)) (rgTasks (collect s h)) (vget x) = objective (sdNrVars (qData s)) (rgTasks (collect s h)) (vget x') /\
  (strictlyConvex (mimicked mbs (qData s)) (sdNrVars (qData s)) (objective (sdNrVars (qData s)) (rgTasks (collect s h))) ->
   forall i, (i < sdNrVars (qData s))%nat -> vget x i = vget x' i).
Proof. exact scaling_same. Qed.
Print Assumptions C144_scaling.
Example C144_scaling_used : exists t x x', let t' := rescaled 7 t in solvedBy [kMb] [] [] cmSolver (cmHeap t) x /\ solvedBy [kMb] [] [] cmSolver (cmHeap t') x' /\
  unregularised 1 [t] /\ unregularised 1 [t'] /\ strictlyConvex (mimicked [kMb] (qData cmSolver)) 1 (objective 1 [t]) /\ vget x 0%nat = 3 /\ vget x' 0%nat = 3.
Proof. exact weight_used_lemma. Qed.
(** Tasks of weight zero change nothing. *)
Theorem C144_zero_weight : forall mbs uni bi s s' h h' x x' zs, Forall wfMimic mbs -> nonzeroMimics mbs -> solvedBy mbs uni bi s h x -> solvedBy mbs uni bi s' h' x' ->
  sameConstraints (collect s h) (collect s' h') -> Permutation (rgTasks (collect s h) ++ zs) (rgTasks (collect s' h')) ->
  (forall t, In t zs -> tkWeight t = 0) ->
  objective (sdNrVars (qData s)) (rgTasks (collect s h)) (vget x) = objective (sdNrVars (qData s)) (rgTasks (collect s h)) (vget x') /\
  (strictlyConvex (mimicked mbs (qData s)) (sdNrVars (qData s)) (objective (sdNrVars (qData s)) (rgTasks (collect s h))) ->
   forall i, (i < sdNrVars (qData s))%nat -> vget x i = vget x' i).
Proof. exact zero_same. Qed.
Print Assumptions C144_zero_weight.
Example C144_zero_used : exists t t' x x', tkWeight t' = 0 /\ solvedBy [kMb] [] [] cmSolver (cmHeap t) x /\ solvedBy [kMb] [] [] (odSolver true) (odHeap t t') x' /\
  rgTasks (collect (odSolver true) (odHeap t t')) = [t; t'] /\ vget x 0%nat = 3 /\ vget x' 0%nat = 3.
Proof. exact zero_used_lemma. Qed.
