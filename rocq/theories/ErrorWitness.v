(** Robot with joints a, b (which mimics a) and c; one constraint object with an equality line and a bound on the three joints. *)
From Verif Require Import FillProofs BackendProofs HistoryProofs SolverFacts DiagSolver.
From Verif Require Export ErrorFacts.
Open Scope string_scope.
Open Scope list_scope.
Open Scope R_scope.

Definition abcMb : multibody := mkMB [ mkJoint "a" 1 1 None; mkJoint "b" 1 1 (Some ("a", -2)); mkJoint "c" 1 1 None ].
Definition abcHeap : heap :=
  mkHeap (fun _ => pullTask 3) (fun _ => mkEq 1 1 (mkMat 1 3 (fun _ _ => 1)) (vfill 1 0)) (fun _ => mkIneq 0 0 (mzero 0 0) (vfill 0 PInf))
         (fun _ => mkGen 0 0 (mzero 0 0) (vfill 0 NInf) (vfill 0 PInf)) (fun _ => mkBound 0 (vfill 3 (Fin 1)) (vfill 3 (Fin 5))).
Definition abcOps : list op := [OpNrVars [abcMb] [] []; OpAddTo 0; OpUpdateConstrSize abcHeap].
Definition abcKinds : nat -> list ckind := fun _ => [KEq; KBound].

Lemma abcMb_wf : wfMimic abcMb.
Proof.
  split; [repeat constructor; simpl; intuition discriminate|].
  intros j nm m [<-|[<-|[<-|[]]]]; simpl; intros H; inversion H; subst.
  split; [lia|]. eexists. split; [left; reflexivity|]. simpl. auto.
Qed.
Lemma abcUsable : Forall usableMimics abcOps.
Proof. constructor; [constructor; [exact abcMb_wf|constructor]|]. constructor; [exact I|]. constructor; [exact I|constructor]. Qed.

Lemma abc_solver : exists s p, history true abcKinds abcOps = Ok s /\ bkKind (qBack s) = LSSOL /\ sdNrVars (qData s) = 3%nat /\
  lssolMatrix (qBack s) (collect s abcHeap) = Ok p /\ mrows (pgA p) = 1%nat /\ mcols (pgA p) = 2%nat /\
  rgBound (collect s abcHeap) = [mkBound 0 (vfill 3 (Fin 1)) (vfill 3 (Fin 5))] /\ nth_error (bkR2F (qBack s)) 1 = Some 2%Z /\
  exactColumns 3 (collect s abcHeap).
Proof.
  assert (E : exists s, history true abcKinds abcOps = Ok s /\ bkKind (qBack s) = LSSOL /\ sdNrVars (qData s) = 3%nat /\ bkRed (qBack s) = 2%nat /\
    nth_error (bkR2F (qBack s)) 1 = Some 2%Z /\ bkDeps (qBack s) <> [] /\ bkEq (qBack s) = 1%nat /\
    (qTasks s, qEq s, qIneq s, qGen s, qBound s) = ([], [0%nat], [], [], [0%nat])).
  { eexists. split; [vm_compute; reflexivity|]. repeat split. discriminate. }
  destruct E as (s & H & K & N & R & F & D & Q & L). injection L as L1 L2 L3 L4 L5.
  destruct (history_ready _ _ _ _ H abcUsable) as (deps & Hr).
  assert (G : collect s abcHeap = mkReg [] [mkEq 1 1 (mkMat 1 3 (fun _ _ => 1)) (vfill 1 0)] [] [] [mkBound 0 (vfill 3 (Fin 1)) (vfill 3 (Fin 5))]).
  { unfold collect. rewrite L1, L2, L3, L4, L5. reflexivity. }
  destruct (lssol_defined _ (collect s abcHeap) _ _ Hr) as (p & Hp).
  { rewrite G, N. repeat split; repeat constructor; cbn; lia. }
  { rewrite G. unfold fits. cbn. rewrite Q. lia. }
  exists s, p. split; [exact H|]. split; [exact K|]. split; [exact N|]. split; [exact Hp|].
  split; [rewrite (lssol_rows _ _ _ Hp), G; reflexivity|].
  split; [destruct (lssol_width _ _ _ _ _ Hr Hp) as [(D' & _)|(_ & W & _)]; [congruence|rewrite W; exact R]|].
  rewrite G. split; [reflexivity|]. split; [exact F|]. repeat split; repeat constructor.
Qed.

(** With the second variable of lssol outside its bounds (it is joint c), the message names line 1 of the bound, joint b. *)
Lemma bound_refuted_lemma : exists s p ok x num i f k l, history true abcKinds abcOps = Ok s /\ Forall usableMimics abcOps /\
  lssolMatrix (qBack s) (collect s abcHeap) = Ok p /\ solveNoMbcUpdate num s abcHeap = Ok (ok, x) /\ vlen (snd (numLssol num p)) = mcols (pgA p) /\
  nth_error (bkR2F (qBack s)) i = Some (Z.of_nat f) /\ vget x f = vget (snd (numLssol num p)) i /\
  boundOwner (rgBound (collect s abcHeap)) f k l /\
  errorPrint (qBack s) (collect s abcHeap) (mrows (pgA p)) (fun j => if Nat.eqb j i then (-1)%Z else 0%Z) (snd (numLssol num p)) = Ok [(RBound k (l - 1), vget (snd (numLssol num p)) i)] /\ l <> (l - 1)%nat.
Proof.
  destruct abc_solver as (s & p & H & K & N & Hp & M & C & B & F & _).
  set (num := mkNum (fun _ => (false, vfill 0 0)) (fun q => (false, mkVec (mcols (pgA q)) (fun _ => 9)))).
  assert (S : exists ok x, solveNoMbcUpdate num s abcHeap = Ok (ok, x)).
  { destruct (history_ready _ _ _ _ H abcUsable) as (deps & Hr). unfold solveNoMbcUpdate, backendSolve. rewrite K, Hp. cbn [bind].
    unfold num. cbn [numLssol]. destruct (lssol_width _ _ _ _ _ Hr Hp) as [(D & _)|(D & W & _)]; [rewrite D; eauto|].
    destruct (bkDeps (qBack s)) eqn:ED; [congruence|]. destruct Hr as (_ & [(_ & D0)|(_ & WD & HR & red & DM)]); [congruence|].
    unfold expandResult, mvec. cbn [vlen]. rewrite (DepsProofs.dm_cols _ _ _ _ DM), W, HR, Nat.eqb_refl. cbn [bind]. eauto. }
  destruct S as (ok & x & S).
  destruct (bound_variable_lemma _ _ _ _ num _ _ _ _ 1 H abcUsable K Hp S) as (f & F1 & F2 & F3); [lia|lia|].
  rewrite F in F3. injection F3 as F3. assert (f = 2%nat) by lia. subst f.
  exists s, p, ok, x, num, 1%nat, 2%nat, 0%nat, 2%nat. split; [exact H|]. split; [exact abcUsable|]. split; [exact Hp|]. split; [exact S|]. split; [reflexivity|].
  split; [exact F|]. split; [exact F2|]. split; [rewrite B; split; [eexists; split; [reflexivity|]; cbn; lia|intros; lia]|]. split; [|lia].
  destruct (history_ready _ _ _ _ H abcUsable) as (deps & Hr). unfold errorPrint, errNrVars. rewrite K, M.
  destruct (lssol_width _ _ _ _ _ Hr Hp) as [(_ & W)|(_ & W & _)]; [lia|]. rewrite <- W, C. cbn [seq printAll]. unfold printVar, printLine. rewrite B.
  unfold num. cbn [numLssol snd]. unfold vget_at. cbn [vlen]. rewrite C. reflexivity.
Qed.
Lemma message_refuted_lemma : exists s p y istate, history true abcKinds abcOps = Ok s /\ Forall usableMimics abcOps /\ bkKind (qBack s) = LSSOL /\
  lssolMatrix (qBack s) (collect s abcHeap) = Ok p /\ exactColumns (sdNrVars (qData s)) (collect s abcHeap) /\ vlen y = mcols (pgA p) /\
  errorPrint (qBack s) (collect s abcHeap) (mrows (pgA p)) istate y = UB.
Proof.
  destruct abc_solver as (s & p & H & K & N & Hp & M & C & B & F & X). exists s, p, (vfill 2 9), (fun j => if Nat.eqb j 2 then (-1)%Z else 0%Z).
  split; [exact H|]. split; [exact abcUsable|]. split; [exact K|]. split; [exact Hp|]. split; [rewrite N; exact X|]. split; [rewrite C; reflexivity|].
  apply (message_undefined_lemma _ _ _ _ _ _ _ _ 0 H abcUsable K Hp); [rewrite C; reflexivity|lia|lia|rewrite C; reflexivity].
Qed.
