(** Vocabulary of the joint limit properties. *)
From Verif Require Export LimitsModel FillSpec LayoutSpec.
Open Scope list_scope.
Open Scope R_scope.

(** Component [k] of joint [i] in a list of values per joint. *)
Definition at2 {A} (ps : list (list A)) (i k : nat) (dflt : A) : A := nth k (nth i ps []) dflt.
(** One value per degree of freedom; the same or nothing at all. *)
Definition perDof {A} (mb : multibody) (ps : list (list A)) : Prop := map (@length A) ps = map jdof (joints mb).
Definition perDofOpt {A} (mb : multibody) (ps : list (list A)) : Prop := ps = [] \/ perDof mb ps.
(** Component [k] of joint [i] exists. *)
Definition isDof (mb : multibody) (i k : nat) : Prop := exists jt, nth_error (joints mb) i = Some jt /\ (k < jdof jt)%nat.
(** A configuration of the robot: sizes of q, alpha and alphaD. *)
Definition cfgOk (mb : multibody) (c : mbcfg) : Prop :=
  map (@length R) (cfQ c) = map jparams (joints mb) /\ perDof mb (cfAlpha c) /\ perDof mb (cfAlphaD c).
(** Every joint has as many parameters as degrees of freedom: all but spherical and free joints. *)
Definition flat (mb : multibody) : Prop := Forall (fun j => jparams j = jdof j) (joints mb).
Definition fixedBase (mb : multibody) : Prop := forall j, nth_error (joints mb) 0 = Some j -> (jdof j <= 1)%nat.

(** Calls. *)
Inductive limOp := LNr (d : solverData) | LUp (cs : list mbcfg).
Definition jlStep_ (m : jlim) (o : limOp) : res jlim := match o with LNr d => jlNrVars d m | LUp cs => jlUpdate cs m end.
Fixpoint jlRun (m : jlim) (ops : list limOp) : res jlim := match ops with [] => Ok m | o :: ops' => do m' <- jlStep_ m o; jlRun m' ops' end.
Definition djStep_ (m : djlim) (o : limOp) : res djlim := match o with LNr d => djNrVars d m | LUp cs => djUpdate cs m end.
Fixpoint djRun (m : djlim) (ops : list limOp) : res djlim := match ops with [] => Ok m | o :: ops' => do m' <- djStep_ m o; djRun m' ops' end.
(** Sizes given last, configurations of robot [r] at the updates, in order. *)
Fixpoint lastSizes (ops : list limOp) : option solverData :=
  match ops with [] => None | LNr d :: ops' => match lastSizes ops' with Some d' => Some d' | None => Some d end | LUp _ :: ops' => lastSizes ops' end.
Fixpoint configs (r : nat) (ops : list limOp) : list mbcfg :=
  match ops with [] => [] | LNr _ :: ops' => configs r ops' | LUp cs :: ops' => match nth_error cs r with Some c => c :: configs r ops' | None => configs r ops' end end.

(** Acceleration [a] changes the acceleration at a rate within the limits, from [prev] in a time [dt]. *)
Definition jerkOk (dt : R) (l u : ext) (prev a : R) : Prop := between l ((a - prev) / dt) u.

(** The position of joint [i] stays within its limits when acceleration [a] is applied for [dt]. *)
Definition posOk (lq uq : list (list ext)) (dt : R) (c : mbcfg) (i k : nat) (a : R) : Prop :=
  between (at2 lq i k NInf) (at2 (cfQ c) i k 0 + at2 (cfAlpha c) i k 0 * dt + a * (dt * dt) / 2) (at2 uq i k PInf).
(** Interactive zones of a joint with limits [l, u]: within [inter * (u - l)] of a limit; the lower one goes first. *)
Definition zoneOf (l u inter q : R) : dstate :=
  if Rlt_dec (q - l) ((u - l) * inter) then Low else if Rlt_dec (u - q) ((u - l) * inter) then Upp else Free.
(** Zone at the last update; free before the first one. *)
Definition lastZone (l u inter : R) (hs : list (R * R)) : dstate := match rev hs with [] => Free | qa :: _ => zoneOf l u inter (fst qa) end.
Definition gap (l u : R) (z : dstate) (q : R) : R := match z with Low => q - l | Upp => u - q | Free => 0 end.
(** Damping chosen when the zone was entered: [hs] lists the (position, velocity) of the joint at the updates. *)
Definition damping_ (l u inter secu off : R) (z : dstate) (qa : R * R) : R :=
  Rabs ((((u - l) * inter - (u - l) * secu) / (gap l u z (fst qa) - (u - l) * secu)) * snd qa) + off.
Definition enteredWith (l u inter : R) (z : dstate) (hs : list (R * R)) (e : R * R) : Prop :=
  exists pre post, hs = pre ++ e :: post /\ Forall (fun qa => zoneOf l u inter (fst qa) = z) (e :: post) /\
    (pre = [] \/ exists p pre', pre = pre' ++ [p] /\ zoneOf l u inter (fst p) <> z).
(** Velocity allowed by the damper at distance [d] of a limit. *)
Definition damperSpeed (l u inter secu xi d : R) : R := xi * ((d - (u - l) * secu) / ((u - l) * inter - (u - l) * secu)).
(** Limits of a joint with one degree of freedom: velocity [v] after the step, history [hs] ending now. *)
Definition damperOk (lq uq : ext) (inter secu off : R) (hs : list (R * R)) (v : R) : Prop :=
  match lq, uq with
  | Fin l, Fin u =>
    forall pre q al, hs = pre ++ [(q, al)] ->
    match zoneOf l u inter q with
    | Low => exists e, enteredWith l u inter Low hs e /\ - damperSpeed l u inter secu (damping_ l u inter secu off Low e) (q - l) <= v
    | Upp => exists e, enteredWith l u inter Upp hs e /\ v <= damperSpeed l u inter secu (damping_ l u inter secu off Upp e) (u - q)
    | Free => True
    end
  | _, _ => True
  end.
(** Positions and velocities of joint [i]. *)
Definition track (i : nat) (cs : list mbcfg) : list (R * R) := map (fun c => (at2 (cfQ c) i 0 0, at2 (cfAlpha c) i 0 0)) cs.

(** Parameters of a joint with position limits [l, u] and velocity limits [vl, vu] of size at most [V]: the zones are
    disjoint, one step covers at most a ninth of the distance over which the damper acts, and an eighth for the offset. *)
Definition tuned (l u vl vu inter secu off dt V : R) : Prop :=
  l < u /\ secu < inter /\ inter <= 1 / 2 /\ 0 <= off /\ - V <= vl /\ vu <= V /\
  9 * (dt * V) <= (u - l) * (inter - secu) /\ 8 * (dt * off) <= (u - l) * (inter - secu).
(** Initial position and velocity: beyond the security distance, at least 8 steps away. *)
Definition startsOk (l u secu dt V q al : R) : Prop :=
  Rabs al <= V /\ l + (u - l) * secu < q < u - (u - l) * secu /\
  8 * (dt * Rabs al) <= q - (l + (u - l) * secu) /\ 8 * (dt * Rabs al) <= u - (u - l) * secu - q.
Definition tunedJoint (lq uq la ua : list (list ext)) (inter secu off dt : R) (c0 : mbcfg) (i : nat) : Prop :=
  exists l u vl vu V, at2 lq i 0 NInf = Fin l /\ at2 uq i 0 PInf = Fin u /\ at2 la i 0 NInf = Fin vl /\ at2 ua i 0 PInf = Fin vu /\
    tuned l u vl vu inter secu off dt V /\ startsOk l u secu dt V (at2 (cfQ c0) i 0 0) (at2 (cfAlpha c0) i 0 0).

(** One step of integration of the joints with one degree of freedom under the accelerations [x] (starting at variable
    [b]): [th] = 0 is explicit Euler, [th] = 1/2 constant acceleration, [th] = 1 semi-implicit Euler. *)
Definition integrates (mb : multibody) (b : nat) (dt th : R) (x : nat -> R) (c c' : mbcfg) : Prop :=
  forall i jt, nth_error (joints mb) i = Some jt -> jdof jt = 1%nat ->
    let al := at2 (cfAlpha c) i 0 0 in let al' := at2 (cfAlpha c') i 0 0 in
    al' = al + dt * x (b + jointPosInDof mb i)%nat /\
    at2 (cfQ c') i 0 0 = at2 (cfQ c) i 0 0 + dt * ((1 - th) * al + th * al').
(** Closed loop: update, any acceleration within the bounds, integration. *)
Inductive loop (mb : multibody) (r b : nat) (dt th : R) : djlim -> mbcfg -> djlim -> mbcfg -> Prop :=
| loop0 m c : loop mb r b dt th m c m c
| loopS m c m1 c1 cs m2 bd x c2 : loop mb r b dt th m c m1 c1 ->
    nth_error cs r = Some c1 -> djUpdate cs m1 = Ok m2 -> djBound m2 = Ok bd -> holdsBound x bd ->
    integrates mb b dt th x c1 c2 -> cfgOk mb c2 -> loop mb r b dt th m c m2 c2.
