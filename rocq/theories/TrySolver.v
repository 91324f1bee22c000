(** A numerical solver used by the examples only: it tries the minimiser of a problem with a positive diagonal matrix and
    succeeds when it satisfies all the constraints. *)
From Verif Require Export DiagSolver BackendProofs.
Open Scope list_scope.
Open Scope R_scope.

Definition eleb (a b : ext) : bool := negb (eltb b a).
Definition betweenb (l : ext) (x : R) (u : ext) : bool := (eleb l (Fin x) && eleb (Fin x) u)%bool.
Lemma eleb_true a b : eleb a b = true <-> ele a b.
Proof. unfold eleb. destruct a, b; cbn; try tauto; try (split; [discriminate|tauto]); destruct (Rlt_dec _ _); cbn; split; intros; try discriminate; auto; try lra. Qed.
Lemma betweenb_true l x u : betweenb l x u = true <-> between l x u.
Proof. unfold betweenb, between. rewrite andb_true_iff, !eleb_true. tauto. Qed.

Definition okSb (p : problemS) (y : nat -> R) : bool :=
  (forallb (fun i => Reqb (rowdot (psAeq p) i y) (vget (psBeq p) i)) (seq 0 (mrows (psAeq p))) &&
   forallb (fun i => eleb (Fin (rowdot (psAin p) i y)) (vget (psBin p) i)) (seq 0 (mrows (psAin p))) &&
   forallb (fun i => betweenb (vget (psXL p) i) (y i) (vget (psXU p) i)) (seq 0 (vlen (psXL p))))%bool.
Definition okGb (p : problemG) (y : nat -> R) : bool :=
  (forallb (fun i => betweenb (vget (pgAL p) i) (rowdot (pgA p) i y) (vget (pgAU p) i)) (seq 0 (mrows (pgA p))) &&
   forallb (fun i => betweenb (vget (pgXL p) i) (y i) (vget (pgXU p) i)) (seq 0 (vlen (pgXL p))))%bool.
Lemma okSb_true p y : okSb p y = true <-> okS p y.
Proof.
  unfold okSb, okS. rewrite !andb_true_iff, !forallb_seq. split.
  - intros ((A & B) & D). split; [intros i Hi; apply Reqb_true; auto|]. split; intros i Hi; [apply eleb_true; auto|apply betweenb_true; auto].
  - intros (A & B & D). split; [split|]; intros i Hi; [apply Reqb_true; auto|apply eleb_true; auto|apply betweenb_true; auto].
Qed.
Lemma okGb_true p y : okGb p y = true <-> okG p y.
Proof.
  unfold okGb, okG. rewrite !andb_true_iff, !forallb_seq. split; intros (A & B); split; intros i Hi; apply betweenb_true; auto.
Qed.
Definition tryS (p : problemS) : bool * vec R :=
  let y := diagMin (psQ p) (psC p) in ((diagPos (psQ p) && okSb p (vget y))%bool, y).
Definition tryG (p : problemG) : bool * vec R :=
  let y := diagMin (pgQ p) (pgC p) in ((diagPos (pgQ p) && okGb p (vget y))%bool, y).
Definition trySolver : numeric := mkNum tryS tryG.
Lemma trySolver_contract : contract trySolver.
Proof.
  split; [reflexivity|]. split; [reflexivity|]. split; intros p x E; cbn [trySolver numQld numLssol] in E; unfold tryS, tryG in E.
  - injection E as E <-. apply andb_true_iff in E as (P & O). split; [apply okSb_true; exact O|]. intros y _. unfold costS. apply diag_min. exact P.
  - injection E as E <-. apply andb_true_iff in E as (P & O). split; [apply okGb_true; exact O|]. intros y _. unfold costG. apply diag_min. exact P.
Qed.

(** When it succeeds. *)
Lemma try_backend b g n Q C :
  ready n [] b -> bkDeps b = [] -> wfReg n g -> fits b g -> Forall wfBound (rgBound g) -> disjointBounds (rgBound g) ->
  fillQC (rgTasks g) n (mzero n n) (vfill n 0) = Ok (Q, C) -> diagPos Q = true -> feasible n g (vget (diagMin Q C)) ->
  backendSolve trySolver b g = Ok (true, diagMin Q C).
Proof.
  intros Hr Hd W F WB DB HQ HP (HF & HB). unfold backendSolve. rewrite Hd.
  destruct (bkKind b).
  - destruct (qld_defined b g n [] Hr W F) as (p & Ep). rewrite Ep. cbn [bind].
    destruct (qld_meaning _ _ _ _ _ Ep Hr) as (QF & CF & XLF & XUF & M1 & M2 & M3 & M4 & M5).
    assert (E : psQ p = Q /\ psC p = C).
    { clear M5 M4. unfold qldMatrix in Ep. rewrite Hd in Ep. destruct Hr as (HN & _). rewrite HN in Ep. binds Ep.
      repeat match goal with q : (_ * _)%type |- _ => destruct q end. binds Ep. repeat match goal with q : (_ * _)%type |- _ => destruct q end. binds Ep.
      repeat match goal with q : (_ * _)%type |- _ => destruct q end. binds Ep. repeat match goal with q : (_ * _)%type |- _ => destruct q end. binds Ep.
      repeat match goal with q : (_ * _)%type |- _ => destruct q end. binds Ep. injection Ep as <-. cbn [psQ psC]. rewrite HQ in *. split; congruence. }
    destruct E as (E1 & E2). cbn [trySolver numQld]. unfold tryS. rewrite E1, E2, HP. cbn [andb].
    replace (okSb p (vget (diagMin Q C))) with true; [reflexivity|]. symmetry. apply okSb_true, M5. unfold lift. rewrite Hd. split; [exact HF|].
    intros i Hi _. revert i Hi. apply (fillBound_disjoint _ _ _ _ _ M2 WB DB). exact HB.
  - destruct (lssol_defined b g n [] Hr W F) as (p & Ep). rewrite Ep. cbn [bind].
    destruct (lssol_meaning _ _ _ _ _ Ep Hr) as (QF & CF & XLF & XUF & M1 & M2 & M3 & M4 & M5).
    assert (E : pgQ p = Q /\ pgC p = C).
    { clear M5 M4. unfold lssolMatrix in Ep. rewrite Hd in Ep. destruct Hr as (HN & _). rewrite HN in Ep. binds Ep.
      repeat match goal with q : (_ * _)%type |- _ => destruct q end. binds Ep. repeat match goal with q : (_ * _)%type |- _ => destruct q end. binds Ep.
      repeat match goal with q : (_ * _)%type |- _ => destruct q end. binds Ep. repeat match goal with q : (_ * _)%type |- _ => destruct q end. binds Ep.
      repeat match goal with q : (_ * _)%type |- _ => destruct q end. binds Ep. injection Ep as <-. cbn [pgQ pgC]. rewrite HQ in *. split; congruence. }
    destruct E as (E1 & E2). cbn [trySolver numLssol]. unfold tryG. rewrite E1, E2, HP. cbn [andb].
    replace (okGb p (vget (diagMin Q C))) with true; [reflexivity|]. symmetry. apply okGb_true, M5. unfold lift. rewrite Hd. split; [exact HF|].
    intros i Hi _. revert i Hi. apply (fillBound_disjoint _ _ _ _ _ M2 WB DB). exact HB.
Qed.
