(** Properties C22 (bounds), C149 and C150: what the error message of the general-form back end says and when it can be printed. *)
From Verif Require Import ErrorWitness SolverFacts.
Open Scope string_scope.
Open Scope list_scope.
Open Scope R_scope.

(** ** C22 *)
(** The bound named for a variable is the first one whose range holds it, at the line of that variable; none is named when there is none. *)
Theorem C22_error_bound : forall bs i,
  (forall r, In r (boundReport bs 0 i) <-> exists k l, r = RBound k l /\ boundOwner bs i k l) /\
  (unbounded bs i <-> boundReport bs 0 i = []) /\ (length (boundReport bs 0 i) <= 1)%nat.
Proof. exact bound_report_lemma. Qed.
Print Assumptions C22_error_bound.
(** Bounds on variables 0 to 2 and 3 to 4: variable 3 is line 0 of the second one, variable 5 has none. *)
Example C22_bound_used :
  boundReport [mkBound 0 (vfill 3 NInf) (vfill 3 PInf); mkBound 3 (vfill 2 NInf) (vfill 2 PInf)] 0 3 = [RBound 1 0] /\
  boundReport [mkBound 0 (vfill 3 NInf) (vfill 3 PInf); mkBound 3 (vfill 2 NInf) (vfill 2 PInf)] 0 5 = [].
Proof. split; reflexivity. Qed.

(** ** C149 *)
(** Refuted: with a mimic joint and a violated line the message is undefined, although every matrix has the right size. *)
Theorem C149_message_refuted : exists s p y istate, history true abcKinds abcOps = Ok s /\ Forall usableMimics abcOps /\ bkKind (qBack s) = LSSOL /\
  lssolMatrix (qBack s) (collect s abcHeap) = Ok p /\ exactColumns (sdNrVars (qData s)) (collect s abcHeap) /\ vlen y = mcols (pgA p) /\
  errorPrint (qBack s) (collect s abcHeap) (mrows (pgA p)) istate y = UB.
Proof. exact message_refuted_lemma. Qed.
Print Assumptions C149_message_refuted.
(** It is undefined whenever a variable was eliminated and a line is reported: the row of the constraint is multiplied by the shorter vector of lssol. *)
Theorem C149_message_undefined : forall lssol kinds ops s h p y istate i,
  history lssol kinds ops = Ok s -> Forall usableMimics ops -> bkKind (qBack s) = LSSOL -> lssolMatrix (qBack s) (collect s h) = Ok p ->
  vlen y = mcols (pgA p) -> (mcols (pgA p) < sdNrVars (qData s))%nat ->
  (i < mrows (pgA p))%nat -> (istate (i + mcols (pgA p))%nat < 0)%Z ->
  errorPrint (qBack s) (collect s h) (mrows (pgA p)) istate y = UB.
Proof. exact message_undefined_lemma. Qed.
Print Assumptions C149_message_undefined.
(** What holds: as long as no robot has a mimic joint the message is defined, and the value printed for a named line is the value of that line. *)
Theorem C149_message_no_mimic : forall lssol kinds ops s h p y istate,
  history lssol kinds ops = Ok s -> Forall usableMimics ops -> Forall noMimicOp ops -> bkKind (qBack s) = LSSOL -> lssolMatrix (qBack s) (collect s h) = Ok p ->
  vlen y = sdNrVars (qData s) -> exactColumns (sdNrVars (qData s)) (collect s h) ->
  exists out, errorPrint (qBack s) (collect s h) (mrows (pgA p)) istate y = Ok out /\
    forall r v, In (r, v) out -> exists coef lo up, lineOf (collect s h) r (sdNrVars (qData s)) = Some (coef, lo, up) /\ v = sumn (sdNrVars (qData s)) (fun j => coef j * vget y j).
Proof. exact message_no_mimic_lemma. Qed.
Print Assumptions C149_message_no_mimic.
(** One variable and two equalities x = 0; the solver returned x = 7 and reports the first state. *)
Example C149_used : exists s p, history true (fun _ => [KEq]) [OpNrVars [oneMb] [] []; OpAddTo 0; OpAddTo 1; OpUpdateConstrSize oneLineHeap] = Ok s /\
  lssolMatrix (qBack s) (collect s oneLineHeap) = Ok p /\ exactColumns (sdNrVars (qData s)) (collect s oneLineHeap) /\
  exists v, errorPrint (qBack s) (collect s oneLineHeap) 2 (fun i => if Nat.eqb i 1 then (-1)%Z else 0%Z) (vfill 1 7) = Ok [(REq 1 0, v)] /\ v = 7.
Proof.
  eexists. assert (P : forall b g, ready 1 [] b -> wfReg 1 g -> fits b g -> exists p, lssolMatrix b g = Ok p) by (intros; eapply lssol_defined; eauto).
  match goal with |- exists p, history ?a ?k ?o = Ok ?s /\ _ => assert (H : exists s0, history a k o = Ok s0 /\ s0 = s) by (eexists; split; [vm_compute; reflexivity|reflexivity]) end.
  destruct H as (s0 & H & E). subst s0. edestruct P as (p & Hp); [| | |exists p; split; [exact H|split; [exact Hp|]]].
  - split; [reflexivity|left; auto].
  - repeat split; repeat constructor; cbn; lia.
  - repeat split; cbn; lia.
  - split; [repeat split; repeat constructor|]. eexists. split; [reflexivity|]. cbn. ring.
Qed.

(** ** C150 *)
(** Refuted: lssol reports joint c (its second variable); the message names the line of joint b, beside the value of joint c. *)
Theorem C150_bound_name_refuted : exists s p ok x num i f k l, history true abcKinds abcOps = Ok s /\ Forall usableMimics abcOps /\
  lssolMatrix (qBack s) (collect s abcHeap) = Ok p /\ solveNoMbcUpdate num s abcHeap = Ok (ok, x) /\ vlen (snd (numLssol num p)) = mcols (pgA p) /\
  nth_error (bkR2F (qBack s)) i = Some (Z.of_nat f) /\ vget x f = vget (snd (numLssol num p)) i /\
  boundOwner (rgBound (collect s abcHeap)) f k l /\
  errorPrint (qBack s) (collect s abcHeap) (mrows (pgA p)) (fun j => if Nat.eqb j i then (-1)%Z else 0%Z) (snd (numLssol num p)) = Ok [(RBound k (l - 1), vget (snd (numLssol num p)) i)] /\ l <> (l - 1)%nat.
Proof. exact bound_refuted_lemma. Qed.
Print Assumptions C150_bound_name_refuted.
(** What holds with mimic joints: for a reported variable i of lssol, which is variable f of the problem, the message names the bound of
    variable i of the problem and prints the value of variable f; nothing else is said about bounds. *)
Theorem C150_bound_name_exact : forall lssol kinds ops s num h p ok x istate out,
  history lssol kinds ops = Ok s -> Forall usableMimics ops -> bkKind (qBack s) = LSSOL -> lssolMatrix (qBack s) (collect s h) = Ok p ->
  solveNoMbcUpdate num s h = Ok (ok, x) -> (mcols (pgA p) < sdNrVars (qData s))%nat -> vlen (snd (numLssol num p)) = mcols (pgA p) ->
  errorPrint (qBack s) (collect s h) (mrows (pgA p)) istate (snd (numLssol num p)) = Ok out ->
  forall k l v, In (RBound k l, v) out <->
    exists i f, (i < mcols (pgA p))%nat /\ (istate i < 0)%Z /\ boundOwner (rgBound (collect s h)) i k l /\
      nth_error (bkR2F (qBack s)) i = Some (Z.of_nat f) /\ v = vget x f.
Proof. exact message_bounds_lemma. Qed.
Print Assumptions C150_bound_name_exact.
