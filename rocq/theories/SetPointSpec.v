(** Specification vocabulary of the set-point tasks: the weighted least-squares problem, the closed loops. *)
From Verif Require Export SetPointModel FillSpec.
Open Scope list_scope.
Open Scope R_scope.

(** The task acceleration J x + normalAcc, x read at the variables of the robot, which begin at [b]. *)
Definition taskAcc (h : hlOut) (b : nat) (x : nat -> R) (i : nat) : R :=
  sumn (mcols (hJac h)) (fun j => mget (hJac h) i j * x (b + j)%nat) + vget (hNAcc h) i.
(** 1/2 sum_i W_i (J x + normalAcc - a)_i^2. *)
Definition leastSquares (h : hlOut) (b : nat) (W : nat -> R) (a : nat -> R) (x : nat -> R) : R :=
  / 2 * sumn (mrows (hJac h)) (fun i => W i * (taskAcc h b x i - a i) ^ 2).
(** A task that costs, up to a constant, [w] times the least-squares problem. *)
Definition costs (t : task) (w : R) (f : (nat -> R) -> R) : Prop :=
  forall x y, taskCost t x - taskCost t y = w * (f x - f y).

(** The value most recently given by an operation, [a] if none gave one. *)
Definition latest {O A : Type} (f : O -> option A) (a : A) (ops : list O) : A :=
  fold_left (fun a o => match f o with Some a' => a' | None => a end) ops a.

(** x minimises the cost of the task. *)
Definition minimises (t : task) (x : nat -> R) : Prop := forall y, taskCost t x <= taskCost t y.
(** The desired acceleration can be attained. *)
Definition attainable (h : hlOut) (b : nat) (a : nat -> R) : Prop :=
  exists y, forall i, (i < mrows (hJac h))%nat -> taskAcc h b y i = a i.

(** Sizes of the results of the wrapped task: [m] task coordinates. *)
Definition hlSizes (m : nat) (h : hlOut) : Prop :=
  mrows (hJac h) = m /\ vlen (hErr h) = m /\ vlen (hSpeed h) = m /\ vlen (hNAcc h) = m.

(** Operations read by the histories. *)
Definition spGiveK (o : spOp) : option R := match o with SpStiffness k => Some k | _ => None end.
Definition spGiveW (o : spOp) : option (vec R) := match o with SpDim W => Some W | _ => None end.
Definition spGiveWeight (o : spOp) : option R := match o with SpWeight w => Some w | _ => None end.
Definition spGiveBegin (r : nat) (o : spOp) : option nat := match o with SpNrVars d => nth_error (sdAlphaDBegin d) r | _ => None end.
Definition trkGiveGP (o : trkOp) : option R := match o with TrkGains p _ => Some p | _ => None end.
Definition trkGiveGV (o : trkOp) : option R := match o with TrkGains _ v => Some v | _ => None end.
Definition trkGiveEP (o : trkOp) : option (vec R) := match o with TrkErrorPos e => Some e | _ => None end.
Definition trkGiveEV (o : trkOp) : option (vec R) := match o with TrkErrorVel e => Some e | _ => None end.
Definition trkGiveRA (o : trkOp) : option (vec R) := match o with TrkRefAccel e => Some e | _ => None end.
Definition trkGiveW (o : trkOp) : option (vec R) := match o with TrkDim W => Some W | _ => None end.
Definition trkGiveWeight (o : trkOp) : option R := match o with TrkWeight w => Some w | _ => None end.
Definition trkGiveBegin (r : nat) (o : trkOp) : option nat := match o with TrkNrVars d => nth_error (sdAlphaDBegin d) r | _ => None end.
(** The gains of task coordinate [i]. *)
Definition trjGiveK (i : nat) (o : trjOp) : option R :=
  match o with TrjGains p _ => Some p | TrjStiffness k => Some k | TrjGainsV k _ | TrjStiffnessV k => Some (vget k i) | _ => None end.
Definition trjGiveD (i : nat) (o : trjOp) : option R :=
  match o with TrjGains _ d => Some d | TrjDamping d => Some d | TrjGainsV _ d | TrjDampingV d => Some (vget d i) | _ => None end.
Definition trjGiveRV (i : nat) (o : trjOp) : option R := match o with TrjRefVel e => Some (vget e i) | _ => None end.
Definition trjGiveRA (i : nat) (o : trjOp) : option R := match o with TrjRefAccel e => Some (vget e i) | _ => None end.
Definition trjGiveW (o : trjOp) : option (vec R) := match o with TrjDim W => Some W | _ => None end.
Definition trjGiveWeight (o : trjOp) : option R := match o with TrjWeight w => Some w | _ => None end.
Definition trjGiveBegin (r : nat) (o : trjOp) : option nat := match o with TrjNrVars d => nth_error (sdAlphaDBegin d) r | _ => None end.

(** One control period of length [dt] with the task acceleration [a] held constant: the error decreases by the displacement. *)
Definition holds1 (dt : R) (h h' : hlOut) (i : nat) (a : R) : Prop :=
  vget (hErr h') i = vget (hErr h) i - (vget (hSpeed h) i * dt + a * dt ^ 2 / 2) /\
  vget (hSpeed h') i = vget (hSpeed h) i + a * dt.
(** [n] control periods: the task is updated, the solver's x minimises the cost of the task, x is held for a period. *)
Definition targetLoop (n : nat) (tg : nat -> target) (h : nat -> hlOut) (x : nat -> nat -> R) : Prop :=
  forall j, (j < n)%nat ->
    tgUpdate (h j) (tg j) = Ok (tg (S j)) /\ minimises (commonTask (tgC (tg (S j)))) (x j) /\
    (forall i, (i < mrows (hJac (h j)))%nat -> holds1 (tgDt (tg 0%nat)) (h j) (h (S j)) i (taskAcc (h j) (cmBegin (tgC (tg 0%nat))) (x j) i)).

(** A SetPointTask just updated, with its weight and the least-squares problem it documents. *)
Definition spMeaning (s : setPoint) (wf : R * ((nat -> R) -> R)) : Prop :=
  exists mbs r k0 W0 w0 ops t0 t h, newSP mbs r k0 W0 w0 = Ok t0 /\ spRun ops t0 = Ok t /\ spUpdate h t = Ok s /\
    fst wf = latest spGiveWeight w0 ops /\
    snd wf = leastSquares h (latest (spGiveBegin r) 0%nat ops) (vget (latest spGiveW W0 ops))
      (fun i => latest spGiveK k0 ops * vget (hErr h) i - 2 * sqrt (latest spGiveK k0 ops) * vget (hSpeed h) i).
