(** Vocabulary: the energy of set-point, trajectory and posture tasks that share a robot, and a solver called at every instant with them. *)
From Verif Require Export CompatSpec PostureSpec PostureModel.
Open Scope list_scope.
Open Scope R_scope.

(** A task as seen along a motion: weight, weights of its coordinates, gains of its coordinates, first variable, outputs of the wrapped
    kinematic task at every instant. *)
Record drive := mkDrive { dvWeight : R; dvDim : nat -> R; dvK : nat -> R; dvD : nat -> R; dvBegin : nat; dvOut : R -> hlOut }.
Definition dvRows (g : drive) (s : R) : nat := mrows (hJac (dvOut g s)).
Definition dvErr (g : drive) (s : R) (i : nat) : R := vget (hErr (dvOut g s)) i.
Definition dvSpeed (g : drive) (s : R) (i : nat) : R := vget (hSpeed (dvOut g s)) i.

(** The registered task tk is this drive at instant s: a SetPointTask, a TrajectoryTask without reference velocity and acceleration, or a
    PostureTask without them, each after any setters and just updated with the state of that instant. *)
Inductive driveTask (s : R) (g : drive) (tk : task) : Prop :=
| DriveSetPoint mbs r k0 W0 w0 ops t0 t t' :
    newSP mbs r k0 W0 w0 = Ok t0 -> spRun ops t0 = Ok t -> spUpdate (dvOut g s) t = Ok t' -> tk = commonTask (SetPointModel.spC t') ->
    dvWeight g = latest spGiveWeight w0 ops -> (forall i, dvDim g i = vget (latest spGiveW W0 ops) i) ->
    (forall i, dvK g i = latest spGiveK k0 ops) -> (forall i, dvD g i = 2 * sqrt (latest spGiveK k0 ops)) ->
    dvBegin g = latest (spGiveBegin r) 0%nat ops -> driveTask s g tk
| DriveTrajectory mbs r dim gp0 gv0 W0 w0 ops t0 t t' :
    newTrj mbs r dim gp0 gv0 W0 w0 = Ok t0 -> trjRun ops t0 = Ok t -> trjUpdate (dvOut g s) t = Ok t' -> tk = commonTask (tjC t') ->
    (forall i, latest (trjGiveRV i) 0 ops = 0) -> (forall i, latest (trjGiveRA i) 0 ops = 0) ->
    dvWeight g = latest trjGiveWeight w0 ops -> (forall i, dvDim g i = vget (latest trjGiveW W0 ops) i) ->
    (forall i, dvK g i = latest (trjGiveK i) gp0 ops) -> (forall i, dvD g i = latest (trjGiveD i) gv0 ops) ->
    dvBegin g = latest (trjGiveBegin r) 0%nat ops -> driveTask s g tk
| DrivePosture mbs r mb q0 k0 w0 ops t0 t K t' :
    nth_error mbs r = Some mb -> NoDup (map jname (joints mb)) -> plainJoints mb ->
    newPost mbs r q0 k0 w0 = Ok t0 -> poRun mbs ops t0 = Ok t -> poUpdate mbs K t = Ok t' -> shaped mb (pfAlpha K) -> tk = postTask t' ->
    (forall j o, nth_error (joints mb) 0 = Some j -> In o (latest poGiveJ [] ops) -> fst o <> jname j) ->
    (forall c, vget (latest poGiveRV (vfill (nrDof mb) 0) ops) c = 0) -> (forall c, vget (latest poGiveRA (vfill (nrDof mb) 0) ops) c = 0) ->
    (** the "kinematic task" of a posture is the joints themselves *)
    mrows (hJac (dvOut g s)) = nrDof mb -> mcols (hJac (dvOut g s)) = nrDof mb ->
    (forall i j, mget (hJac (dvOut g s)) i j = if Nat.eqb i j then 1 else 0) -> (forall i, vget (hNAcc (dvOut g s)) i = 0) ->
    (forall i j k, nth_error (joints mb) (S i) = Some j -> (k < jdof j)%nat ->
       let c := (jointPosInDof mb (S i) + k)%nat in
       let gains := gainsOf (latest poGiveG (k0, 2 * sqrt k0) ops) (latest poGiveJ [] ops) (jname j) in
       dvErr g s c = postureErr (latest poGiveQ q0 ops) K (S i) j k /\ dvSpeed g s c = speedOf K (S i) k /\ dvK g c = fst gains /\ dvD g c = snd gains) ->
    (forall c, (c < jointPosInDof mb 1)%nat -> dvK g c = 0 /\ dvD g c = 0) ->
    dvWeight g = latest poGiveWeight w0 ops -> (forall c, dvDim g c = driven mb c * vget (latest poGiveW (ones (nrDof mb)) ops) c) ->
    dvBegin g = latest (poGiveBegin r) 0%nat ops -> driveTask s g tk.

(** The energy of a task: w sum_i W_i (speed_i^2 + k_i err_i^2) / 2, and what it loses per unit of time: w sum_i W_i d_i speed_i^2. *)
Definition stored (m : nat) (g : drive) (s : R) : R :=
  dvWeight g * sumn m (fun i => dvDim g i * ((dvSpeed g s i ^ 2 + dvK g i * dvErr g s i ^ 2) / 2)).
Definition lost (m : nat) (g : drive) (s : R) : R := dvWeight g * sumn m (fun i => dvDim g i * (dvD g i * dvSpeed g s i ^ 2)).
(** The energy of all the tasks, and that of the motion of the regularised variables: 1e-4 p_i^2 / 2. *)
Definition totalEnergy (n : nat) (reg : nat -> bool) (gs : list (nat * drive)) (p : R -> nat -> R) (s : R) : R :=
  sumR (map (fun g => stored (fst g) (snd g) s) gs) + sumn n (fun i => if reg i then / 10000 / 2 * (p s i * p s i) else 0).
Definition totalLost (gs : list (nat * drive)) (s : R) : R := sumR (map (fun g => lost (fst g) (snd g) s) gs).

(** The motion p can be sped up and slowed down a little from x without leaving the constraints and the mimic relations: they do not push
    along the motion. It holds for contacts, whose rows vanish along the motion, and for limits that are not reached. *)
Definition room (mbs : list multibody) (d : solverData) (n : nat) (g : registered) (x p : nat -> R) : Prop :=
  exists e0, 0 < e0 /\ forall e, Rabs e <= e0 -> feasible n g (fun i => x i + e * p i) /\ mimicked mbs d (fun i => x i + e * p i).

(** At every instant solve() succeeds with exactly these tasks registered, and with any constraints that leave room along the motion; the
    accelerations x are what it found; the regularised variables are those of reg. *)
Definition drivesLoop (mbs : list multibody) (uni : list unilateral) (bi : list bilateral) (n : nat) (reg : nat -> bool) (gs : list (nat * drive))
    (x p : R -> nat -> R) : Prop :=
  forall s, 0 <= s -> exists q hp xv, solvedBy mbs uni bi q hp xv /\ sdNrVars (qData q) = n /\
    Forall2 (fun g tk => dvRows (snd g) s = fst g /\ driveTask s (snd g) tk /\ wfTask n tk) gs (rgTasks (collect q hp)) /\
    (forall i, (i < n)%nat -> reg i = true <-> Rabs (diagSum (rgTasks (collect q hp)) i) < / 10000) /\
    (forall i, (i < n)%nat -> x s i = vget xv i) /\ room mbs (qData q) n (collect q hp) (vget xv) (p s).

(** The motion: the speed of the task is its Jacobian times the velocities p, the error decreases at that speed, and the rate of the speed is
    the Jacobian times the accelerations x plus the normal acceleration. *)
Definition moving (g : nat * drive) (x p : R -> nat -> R) : Prop := forall s i, 0 <= s -> (i < fst g)%nat ->
  dvSpeed (snd g) s i = sumn (mcols (hJac (dvOut (snd g) s))) (fun j => mget (hJac (dvOut (snd g) s)) i j * p s (dvBegin (snd g) + j)%nat) /\
  dlim (fun s => dvErr (snd g) s i) s (- dvSpeed (snd g) s i) /\
  dlim (fun s => dvSpeed (snd g) s i) s (taskAcc (dvOut (snd g) s) (dvBegin (snd g)) (x s) i).

(** The constraints do not push along p: every row and every bound is either constant along p or not reached at x. *)
Definition calm (n : nat) (g : registered) (x p : nat -> R) : Prop :=
  let val (A : mat) i (y : nat -> R) := sumn n (fun j => mget A i j * y j) in
  Forall (fun c => forall i, (i < eqNr c)%nat -> val (eqA c) i p = 0) (rgEq g) /\
  Forall (fun c => forall i, (i < iqNr c)%nat -> val (iqA c) i p = 0 \/ exists d, 0 < d /\ ele (Fin (val (iqA c) i x + d)) (vget (iqB c) i)) (rgIneq g) /\
  Forall (fun c => forall i, (i < giNr c)%nat -> val (giA c) i p = 0 \/
    exists d, 0 < d /\ ele (vget (giL c) i) (Fin (val (giA c) i x - d)) /\ ele (Fin (val (giA c) i x + d)) (vget (giU c) i)) (rgGen g) /\
  Forall (fun b => forall i, (i < vlen (bdL b))%nat -> p (bdBegin b + i)%nat = 0 \/
    exists d, 0 < d /\ ele (vget (bdL b) i) (Fin (x (bdBegin b + i)%nat - d)) /\ ele (Fin (x (bdBegin b + i)%nat + d)) (vget (bdU b) i)) (rgBound g).
