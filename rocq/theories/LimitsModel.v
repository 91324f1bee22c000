(** Model of the joint limit constraints: JointLimitsConstr (/repo/src/QPConstr.cpp:36-148) and
    DamperJointLimitsConstr (cpp:150-309, Tasks/QPConstr.h:133-262). *)
From Verif Require Export MotionModel.
Open Scope list_scope.
Open Scope R_scope.

(** What update reads of an rbd::MultiBodyConfig: q, alpha, alphaD, joint by joint. *)
Record mbcfg := mkCfg { cfQ : list (list R); cfAlpha : list (list R); cfAlphaD : list (list R) }.

(** rbd::paramToVector (RBDyn): e(pos++) = d over all the values. *)
Definition paramTo {A} (ps : list (list A)) (v : vec A) : res (vec A) :=
  do _ <- guard (length (concat ps) <=? vlen v)%nat;
  Ok (mkVec (vlen v) (fun i => nth i (concat ps) (vget v i))).
(** Eigen's v.tail(n) and a.cwiseMax(b), a.cwiseMin(b), a + b: the sizes must agree. *)
Definition vtail {A} (v : vec A) (n : nat) : res (vec A) := do _ <- guard (n <=? vlen v)%nat; vseg v (vlen v - n) n.
Definition vzip {A B C} (f : A -> B -> C) (a : vec A) (b : vec B) : res (vec C) :=
  do _ <- guard (Nat.eqb (vlen a) (vlen b)); Ok (mkVec (vlen a) (fun i => f (vget a i) (vget b i))).

(* ------------------------------------------------------------------ *)
(** * JointLimitsConstr *)

(** Members, Tasks/QPConstr.h:113-122 (qVec_, alphaVec_ are scratch vectors but keep their values). *)
Record jlim := mkJL {
  jlRobot : nat; jlBegin : Z; jlOff : nat; jlStep : R;
  jlQMin : vec ext; jlQMax : vec ext; jlQ : vec R; jlAlpha : vec R; jlLow : vec ext; jlUp : vec ext;
  jlADL : vec ext; jlADU : vec ext; jlADDL : vec ext; jlADDU : vec ext; jlPrev : vec R }.
(** bound.lQBound[0] = {}. *)
Definition clearFirst {A} (ps : list (list A)) : res (list (list A)) := match ps with [] => UB | _ :: t => Ok ([] :: t) end.
(** Constructor, cpp:50-104. qMin_ and qMax_ are not initialised, qVec_ and alphaVec_ neither: entries left without a
    value would be read by update, hence the guards on the numbers of values of qMin_ and qMax_. qVec_ and alphaVec_ start
    with zeros in the model: configurations of the size of the robot overwrite them. A time step <= 0 is left out: infinity * 0
    is not a number. *)
Definition newJL (mbs : list multibody) (r : nat) (lq uq lad uad ladd uadd : list (list ext)) (step : R) : res jlim :=
  do mb <- vec_at mbs r;
  do j0 <- vec_at (joints mb) 0;
  let off := (if (1 <? jdof j0)%nat then jdof j0 else 0)%nat in
  let n := (nrDof mb - off)%nat in
  do _ <- guard (Rltb 0 step);
  do lq' <- (if Nat.eqb off 0 then Ok lq else clearFirst lq);
  do uq' <- (if Nat.eqb off 0 then Ok uq else clearFirst uq);
  do _ <- guard (Nat.eqb (length (concat lq')) n && Nat.eqb (length (concat uq')) n)%bool;
  do qMin <- paramTo lq' (vfill n NInf);
  do qMax <- paramTo uq' (vfill n PInf);
  do adl <- paramTo lad (vfill (nrDof mb) NInf);
  do adu <- paramTo uad (vfill (nrDof mb) PInf);
  do addl <- paramTo ladd (vfill (nrDof mb) NInf);
  do addu <- paramTo uadd (vfill (nrDof mb) PInf);
  Ok (mkJL r (-1) off step qMin qMax (vfill (nrParams mb) 0) (vfill (nrDof mb) 0) (vfill n NInf) (vfill n PInf)
           adl adu (vmap (fun e => emulr e step) addl) (vmap (fun e => emulr e step) addu) (vfill (nrDof mb) 0)).
(** updateNrVars, cpp:106-107. *)
Definition jlNrVars (d : solverData) (m : jlim) : res jlim :=
  do b <- alphaDBegin d (jlRobot m);
  Ok (mkJL (jlRobot m) (Z.of_nat (b + jlOff m)) (jlOff m) (jlStep m) (jlQMin m) (jlQMax m) (jlQ m) (jlAlpha m) (jlLow m) (jlUp m)
           (jlADL m) (jlADU m) (jlADDL m) (jlADDU m) (jlPrev m)).
(** (lim - q - alpha * step) / dts, cpp:122-126. *)
Definition stepLimit (step : R) (lim : ext) (qa : R * R) : ext := edivr (eaddr lim (- fst qa - snd qa * step)) (step * step * (1 / 2)).
(** update, cpp:109-130. *)
Definition jlUpdate (mbcs : list mbcfg) (m : jlim) : res jlim :=
  do c <- vec_at mbcs (jlRobot m);
  let vars := vlen (jlQMin m) in
  do q <- paramTo (cfQ c) (jlQ m);
  do a <- paramTo (cfAlpha c) (jlAlpha m);
  do p <- paramTo (cfAlphaD c) (jlPrev m);
  do qt <- vtail q vars;
  do at_ <- vtail a vars;
  do qa <- vzip pair qt at_;
  do lo <- vzip (stepLimit (jlStep m)) (jlQMin m) qa;
  do up <- vzip (stepLimit (jlStep m)) (jlQMax m) qa;
  do lo1 <- vzip emax lo (jlADL m);
  do jl <- vzip eaddr (jlADDL m) p;
  do lo2 <- vzip emax lo1 jl;
  do up1 <- vzip emin up (jlADU m);
  do ju <- vzip eaddr (jlADDU m) p;
  do up2 <- vzip emin up1 ju;
  Ok (mkJL (jlRobot m) (jlBegin m) (jlOff m) (jlStep m) (jlQMin m) (jlQMax m) q a lo2 up2
           (jlADL m) (jlADU m) (jlADDL m) (jlADDU m) p).
(** beginVar, Lower, Upper, cpp:141-148. *)
Definition jlBound (m : jlim) : res FillModel.bound := do b <- zidx (jlBegin m); Ok (mkBound b (jlLow m) (jlUp m)).

(* ------------------------------------------------------------------ *)
(** * DamperJointLimitsConstr *)

Inductive dstate := Low | Upp | Free.
(** DampData, Tasks/QPConstr.h:232-256. *)
Record damp := mkDamp {
  dpMin : ext; dpMax : ext; dpMinVel : ext; dpMaxVel : ext; dpI : ext; dpS : ext; dpJoint : nat; dpPos : nat;
  dpDamping : R; dpState : dstate }.
(** Members, Tasks/QPConstr.h:258-267. *)
Record djlim := mkDJ {
  djRobot : nat; djBegin : Z; djData : list damp; djLow : vec ext; djUp : vec ext;
  djADL : vec ext; djADU : vec ext; djADDL : vec ext; djADDU : vec ext; djPrev : vec R; djStep : R; djOff : R }.

(** uQBound - lQBound; inf - inf is not a number, rendered as [UB] as everywhere below. *)
Definition esub (a b : ext) : res ext :=
  match a, b with
  | Fin x, Fin y => Ok (Fin (x - y))
  | PInf, PInf => UB | NInf, NInf => UB
  | PInf, _ => Ok PInf | NInf, _ => Ok NInf
  | Fin _, NInf => Ok PInf | Fin _, PInf => Ok NInf
  end.
(** dist * percent. *)
Definition epct (a : ext) (k : R) : res ext :=
  match a with Fin x => Ok (Fin (x * k)) | _ => if Reqb k 0 then UB else Ok (emulr a k) end.
Definition first2 {A} (ps : list (list A)) (i : nat) : res A := do l <- vec_at ps i; vec_at l 0.
(** Loop of the constructor, cpp:202-211. *)
Fixpoint dampLoop (mb : multibody) (js : list joint) (i : nat) (lq uq la ua : list (list ext)) (inter secu : R) : res (list damp) :=
  match js with
  | [] => Ok []
  | j :: js' =>
    do hd <- (if Nat.eqb (jdof j) 1 then
        do u <- first2 uq i; do l <- first2 lq i;
        do dist <- esub u l;
        do vl <- first2 la i; do vu <- first2 ua i;
        do id <- epct dist inter; do sd <- epct dist secu;
        Ok [mkDamp l u vl vu id sd i (jointPosInDof mb i) 0 Free]
      else Ok []);
    do l <- dampLoop mb js' (S i) lq uq la ua inter secu;
    Ok (hd ++ l)
  end.
(** Constructor, cpp:184-226. lower_ and upper_ are not initialised: update reads the entries of the joints that do not
    have one degree of freedom, hence the guard on the numbers of velocity bounds. *)
Definition newDJ (mbs : list multibody) (r : nat) (lq uq la ua lad uad ladd uadd : list (list ext)) (inter secu off step : R) : res djlim :=
  do mb <- vec_at mbs r;
  do _ <- guard (Rltb 0 step);
  do ds <- dampLoop mb (joints mb) 0 lq uq la ua inter secu;
  let n := nrDof mb in
  do _ <- guard (Nat.eqb (length (concat la)) n && Nat.eqb (length (concat ua)) n)%bool;
  do lo <- paramTo la (vfill n NInf);
  do up <- paramTo ua (vfill n PInf);
  do adl <- paramTo lad (vfill n NInf);
  do adu <- paramTo uad (vfill n PInf);
  do addl <- paramTo ladd (vfill n NInf);
  do addu <- paramTo uadd (vfill n PInf);
  Ok (mkDJ r (-1) ds lo up adl adu (vmap (fun e => emulr e step) addl) (vmap (fun e => emulr e step) addu) (vfill n 0) step off).
(** updateNrVars, cpp:228-229. *)
Definition djNrVars (d : solverData) (m : djlim) : res djlim :=
  do b <- alphaDBegin d (djRobot m);
  Ok (mkDJ (djRobot m) (Z.of_nat b) (djData m) (djLow m) (djUp m) (djADL m) (djADU m) (djADDL m) (djADDU m) (djPrev m) (djStep m) (djOff m)).

(** computeDamping, computeDamper, cpp:305-309: a division by zero gives an infinity or not a number. *)
Definition computeDamping (alpha dist iDist sDist : R) : res R :=
  do _ <- guard (negb (Reqb (dist - sDist) 0)); Ok (((iDist - sDist) / (dist - sDist)) * alpha).
Definition computeDamper (dist iDist sDist damping : R) : res R :=
  do _ <- guard (negb (Reqb (iDist - sDist) 0)); Ok (damping * ((dist - sDist) / (iDist - sDist))).
Definition finite (e : ext) : res R := match e with Fin x => Ok x | _ => UB end.
(** Branch of update in an interactive zone: damping on entry, then damper. *)
Definition damperIn (off alpha : R) (st st' : dstate) (damping : R) (dist iDist sDist : ext) : res (R * R) :=
  do di <- finite dist; do ii <- finite iDist; do ss <- finite sDist;
  do dm <- (match st, st' with
            | Low, Low | Upp, Upp | Free, Free => Ok damping
            | _, _ => do k <- computeDamping alpha di ii ss; Ok (Rabs k + off) end);
  do w <- computeDamper di ii ss dm;
  Ok (dm, w).
(** Body of the loop of update, cpp:240-279, for one DampData. *)
Definition dampStep (off step q alpha : R) (d : damp) : res (damp * ext * ext) :=
  do ld <- esub (Fin q) (dpMin d);
  do ud <- esub (dpMax d) (Fin q);
  let lo := edivr (eaddr (dpMinVel d) (- alpha)) step in
  let up := edivr (eaddr (dpMaxVel d) (- alpha)) step in
  let upd dm st := mkDamp (dpMin d) (dpMax d) (dpMinVel d) (dpMaxVel d) (dpI d) (dpS d) (dpJoint d) (dpPos d) dm st in
  if eltb ld (dpI d) then
    do (dm, w) <- damperIn off alpha (dpState d) Low (dpDamping d) ld (dpI d) (dpS d);
    Ok (upd dm Low, emax (Fin ((- w - alpha) / step)) lo, up)
  else if eltb ud (dpI d) then
    do (dm, w) <- damperIn off alpha (dpState d) Upp (dpDamping d) ud (dpI d) (dpS d);
    Ok (upd dm Upp, lo, emin (Fin ((w - alpha) / step)) up)
  else Ok (upd (dpDamping d) Free, lo, up).
(** The loop of update, cpp:238-280. *)
Fixpoint dampsStep (off step : R) (c : mbcfg) (ds : list damp) (lo up : vec ext) : res (list damp * vec ext * vec ext) :=
  match ds with
  | [] => Ok ([], lo, up)
  | d :: ds' =>
    do q <- first2 (cfQ c) (dpJoint d);
    do al <- first2 (cfAlpha c) (dpJoint d);
    do (d', l, u) <- dampStep off step q al d;
    do lo' <- vput lo (dpPos d) l;
    do up' <- vput up (dpPos d) u;
    do (ds'', lo'', up'') <- dampsStep off step c ds' lo' up';
    Ok (d' :: ds'', lo'', up'')
  end.
(** update, cpp:231-283. *)
Definition djUpdate (mbcs : list mbcfg) (m : djlim) : res djlim :=
  do c <- vec_at mbcs (djRobot m);
  do p <- paramTo (cfAlphaD c) (djPrev m);
  do (ds, lo, up) <- dampsStep (djOff m) (djStep m) c (djData m) (djLow m) (djUp m);
  do lo1 <- vzip emax lo (djADL m);
  do jl <- vzip eaddr (djADDL m) p;
  do lo2 <- vzip emax lo1 jl;
  do up1 <- vzip emin up (djADU m);
  do ju <- vzip eaddr (djADDU m) p;
  do up2 <- vzip emin up1 ju;
  Ok (mkDJ (djRobot m) (djBegin m) ds lo2 up2 (djADL m) (djADU m) (djADDL m) (djADDU m) p (djStep m) (djOff m)).
(** beginVar, Lower, Upper, cpp:294-303. *)
Definition djBound (m : djlim) : res FillModel.bound := do b <- zidx (djBegin m); Ok (mkBound b (djLow m) (djUp m)).
