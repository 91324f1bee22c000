(** Specification vocabulary: what the registered tasks and constraints mean, independently of how
    they are stacked. [n] is the number of decision variables, [x] a candidate. *)
From Verif Require Export SolverModel.

(** ** Meaning of the constraints *)
Definition holdsEq (n : nat) (x : nat -> R) (e : equality) : Prop :=
  forall i, (i < eqNr e)%nat -> sumn n (fun j => mget (eqA e) i j * x j) = vget (eqB e) i.
Definition holdsIneq (n : nat) (x : nat -> R) (e : inequality) : Prop :=
  forall i, (i < iqNr e)%nat -> ele (Fin (sumn n (fun j => mget (iqA e) i j * x j))) (vget (iqB e) i).
Definition holdsGen (n : nat) (x : nat -> R) (e : geninequality) : Prop :=
  forall i, (i < giNr e)%nat ->
    between (vget (giL e) i) (sumn n (fun j => mget (giA e) i j * x j)) (vget (giU e) i).
Definition holdsBound (x : nat -> R) (b : bound) : Prop :=
  forall i, ((i < vlen (bdL b))%nat -> ele (vget (bdL b) i) (Fin (x (bdBegin b + i)%nat))) /\
            ((i < vlen (bdU b))%nat -> ele (Fin (x (bdBegin b + i)%nat)) (vget (bdU b) i)).
(** [x] satisfies all the registered linear constraints / all the constraints. *)
Definition linFeasible (n : nat) (g : registered) (x : nat -> R) : Prop :=
  Forall (holdsEq n x) (rgEq g) /\ Forall (holdsIneq n x) (rgIneq g) /\ Forall (holdsGen n x) (rgGen g).
Definition feasible (n : nat) (g : registered) (x : nat -> R) : Prop :=
  linFeasible n g x /\ Forall (holdsBound x) (rgBound g).

(** A variable is covered by a bound constraint. *)
Definition covers (b : bound) (i : nat) : Prop := (bdBegin b <= i < bdBegin b + vlen (bdL b))%nat.
(** Bound constraints with as many lower as upper bounds, on pairwise disjoint variables. *)
Definition wfBound (b : bound) : Prop := vlen (bdL b) = vlen (bdU b).
Definition disjointBounds (bs : list bound) : Prop :=
  forall k1 k2 b1 b2 i, nth_error bs k1 = Some b1 -> nth_error bs k2 = Some b2 ->
    covers b1 i -> covers b2 i -> k1 = k2.

(** ** Meaning of the tasks *)
(** Weighted quadratic form of a task evaluated on its block of variables. *)
Definition taskCost (t : task) (x : nat -> R) : R :=
  tkWeight t *
  (sumn (mrows (tkQ t)) (fun i => sumn (mcols (tkQ t)) (fun j =>
     x (fst (tkBegin t) + i)%nat * mget (tkQ t) i j * x (snd (tkBegin t) + j)%nat)) / 2
   + sumn (mrows (tkQ t)) (fun i => vget (tkC t) i * x (fst (tkBegin t) + i)%nat)).
Fixpoint sumR (l : list R) : R := match l with [] => 0 | a :: l' => a + sumR l' end.
Definition tasksCost (ts : list task) (x : nat -> R) : R := sumR (map (fun t => taskCost t x) ts).
(** Weighted entry of a task for the variables i and j. *)
Definition taskEntry (i j : nat) (t : task) : R :=
  if inr (fst (tkBegin t)) (mrows (tkQ t)) i && inr (snd (tkBegin t)) (mcols (tkQ t)) j
  then tkWeight t * mget (tkQ t) (i - fst (tkBegin t))%nat (j - snd (tkBegin t))%nat else 0.
(** The task involves variable i. *)
Definition touches (t : task) (i : nat) : Prop :=
  (fst (tkBegin t) <= i < fst (tkBegin t) + mrows (tkQ t))%nat \/ (snd (tkBegin t) <= i < snd (tkBegin t) + mcols (tkQ t))%nat.
(** Contribution of a task to the diagonal entry of variable i. *)
Definition taskDiag (i : nat) (t : task) : R :=
  if inr (fst (tkBegin t)) (mrows (tkQ t)) i && inr (snd (tkBegin t)) (mcols (tkQ t)) i
  then tkWeight t * mget (tkQ t) (i - fst (tkBegin t))%nat (i - snd (tkBegin t))%nat else 0.
Definition diagSum (ts : list task) (i : nat) : R := sumR (map (taskDiag i) ts).
(** The regularisation: 1e-4/2 x_i^2 for the variables whose diagonal entry is below 1e-4. *)
Definition regCost (n : nat) (ts : list task) (x : nat -> R) : R :=
  sumn n (fun i => if Rlt_dec (Rabs (diagSum ts i)) (/ 10000) then / 10000 / 2 * (x i * x i) else 0).
(** The objective of the QP. *)
Definition objective (n : nat) (ts : list task) (x : nat -> R) : R := tasksCost ts x + regCost n ts x.

(** Positive semi-definite task on a diagonal block. *)
Definition psd (Q : mat) : Prop :=
  mrows Q = mcols Q /\ forall v : nat -> R, 0 <= quad (mrows Q) (mget Q) v.
Definition psdTask (t : task) : Prop := 0 <= tkWeight t /\ fst (tkBegin t) = snd (tkBegin t) /\ psd (tkQ t).

(** ** Well-formed objects for a problem with [n] variables: the advertised numbers of lines are
    available in the matrices *)
Definition wfEq (n : nat) (e : equality) : Prop :=
  (eqNr e <= mrows (eqA e))%nat /\ (n <= mcols (eqA e))%nat /\ (eqNr e <= vlen (eqB e))%nat.
Definition wfIneq (n : nat) (e : inequality) : Prop :=
  (iqNr e <= mrows (iqA e))%nat /\ (n <= mcols (iqA e))%nat /\ (iqNr e <= vlen (iqB e))%nat.
Definition wfGen (n : nat) (e : geninequality) : Prop :=
  (giNr e <= mrows (giA e))%nat /\ (n <= mcols (giA e))%nat /\
  (giNr e <= vlen (giL e))%nat /\ (giNr e <= vlen (giU e))%nat.
Definition wfBoundIn (n : nat) (b : bound) : Prop :=
  (bdBegin b + vlen (bdL b) <= n)%nat /\ (bdBegin b + vlen (bdU b) <= n)%nat.
Definition wfTask (n : nat) (t : task) : Prop :=
  (fst (tkBegin t) + mrows (tkQ t) <= n)%nat /\ (snd (tkBegin t) + mcols (tkQ t) <= n)%nat /\
  vlen (tkC t) = mrows (tkQ t).
Definition wfReg (n : nat) (g : registered) : Prop :=
  Forall (wfTask n) (rgTasks g) /\ Forall (wfEq n) (rgEq g) /\ Forall (wfIneq n) (rgIneq g) /\
  Forall (wfGen n) (rgGen g) /\ Forall (wfBoundIn n) (rgBound g).

(** ** Dependencies *)
(** [x] honours every relation x[replica] = multiplier * x[leader]. *)
Definition honours (deps : list dep) (x : nat -> R) : Prop :=
  forall l r m, In (l, r, m) deps -> x r = m * x l.
(** Usable dependencies on [n] variables: distinct replicas, in range, leaders are not replicas,
    and at least one variable remains. *)
Definition wfDeps (n : nat) (deps : list dep) : Prop :=
  NoDup (map replica deps) /\
  (forall d, In d deps -> (leader d < n)%nat /\ (replica d < n)%nat /\ ~ In (leader d) (map replica deps)) /\
  (length deps < n)%nat.

(** ** Quadratic programs handed to the numerical solvers *)
Definition okS (p : problemS) (y : nat -> R) : Prop :=
  (forall i, (i < mrows (psAeq p))%nat -> rowdot (psAeq p) i y = vget (psBeq p) i) /\
  (forall i, (i < mrows (psAin p))%nat -> ele (Fin (rowdot (psAin p) i y)) (vget (psBin p) i)) /\
  (forall i, (i < vlen (psXL p))%nat -> between (vget (psXL p) i) (y i) (vget (psXU p) i)).
Definition okG (p : problemG) (y : nat -> R) : Prop :=
  (forall i, (i < mrows (pgA p))%nat -> between (vget (pgAL p) i) (rowdot (pgA p) i y) (vget (pgAU p) i)) /\
  (forall i, (i < vlen (pgXL p))%nat -> between (vget (pgXL p) i) (y i) (vget (pgXU p) i)).
Definition costS (p : problemS) (y : nat -> R) : R := qpcost (mrows (psQ p)) (mget (psQ p)) (vget (psC p)) y.
Definition costG (p : problemG) (y : nat -> R) : R := qpcost (mrows (pgQ p)) (mget (pgQ p)) (vget (pgC p)) y.
(** Contract of a numerical solver: the result always has one entry per variable; on success it is
    a minimiser. *)
Definition contract (num : numeric) : Prop :=
  (forall p, vlen (snd (numQld num p)) = mrows (psQ p)) /\
  (forall p, vlen (snd (numLssol num p)) = mrows (pgQ p)) /\
  (forall p x, numQld num p = (true, x) ->
     okS p (vget x) /\ forall y, okS p y -> costS p (vget x) <= costS p y) /\
  (forall p x, numLssol num p = (true, x) ->
     okG p (vget x) /\ forall y, okG p y -> costG p (vget x) <= costG p y).
