(** The cost of a task on a selector. *)
From Verif Require Import SelectorFacts SelectorSpec SetPointFacts.
Open Scope list_scope.
Open Scope R_scope.
Lemma selector_cost_lemma mbs r k0 W0 w0 ops t0 t h s t' dim names dofs mb s0 Js J :
  nth_error mbs r = Some mb -> NoDup (map jname (joints mb)) -> newSel mbs r dim names dofs = Ok s0 -> slRun (Js ++ [J]) s0 = Ok s ->
  newSP mbs r k0 W0 w0 = Ok t0 -> spRun ops t0 = Ok t -> spUpdate (slOut h s) t = Ok t' ->
  exists M, restricted dim (nrDof mb) (asked mb names dofs) J M /\
    costs (commonTask (spC t')) (latest spGiveWeight w0 ops) (leastSquares (mkHL M (hErr h) (hSpeed h) (hNAcc h)) (latest (spGiveBegin r) 0%nat ops) (vget (latest spGiveW W0 ops))
      (fun i => latest spGiveK k0 ops * vget (hErr h) i - 2 * sqrt (latest spGiveK k0 ops) * vget (hSpeed h) i)).
Proof.
  intros Hm ND N H A B C. exists (slJac s). split; [exact (columns_lemma _ _ _ _ _ _ _ _ _ _ Hm ND N H)|].
  exact (setpoint_lemma _ _ _ _ _ _ _ _ _ _ A B C).
Qed.
