(** Kinematic tasks with several bodies: model of /repo/src/Tasks.cpp (MultiRobotTransformTask, RelativeDistTask). *)
From Verif Require Export KinModel.
Open Scope list_scope.
Open Scope R_scope.

(** *** MultiRobotTransformTask *)
(** eval_, speed_, normalAcc_ and fullJacMat_ (Tasks.h: MultiRobotTransformTask). *)
Record mrtOut := mkMrt { mrErr : vec R; mrSpeed : vec R; mrNAcc : vec R; mrJac1 : mat; mrJac2 : mat }.
(** MultiRobotTransformTask::update (Tasks.cpp:312-367). k1 and k2 are the bodies r1BodyIndex_ of robot r1Index_ and
    r2BodyIndex_ of robot r2Index_; full1 and full2 are the former contents of fullJacMat_. The lookups
    mbs[r1Index_], mbcs[r1Index_] and normalAccB[r1Index_] are not modelled. *)
Definition mrtUpdate (rv : M3 -> V3) (mb1 mb2 : multibody) (path1 path2 : list nat) (X_r1b_r1s X_r2b_r2s : PT)
    (k1 k2 : bodyKin) (full1 full2 : mat) : res mrtOut :=
  let X_0_r1s := pt_mul X_r1b_r1s (bkPos k1) in
  let X_0_r2s := pt_mul X_r2b_r2s (bkPos k2) in
  let X_r1s_r2s := pt_mul X_0_r2s (pt_inv X_0_r1s) in
  let E_r2s_r1s := pt_rot (m3tr (ptE X_r1s_r2s)) in
  let X_r2b_r2s_r1s := pt_mul E_r2s_r1s X_r2b_r2s in
  let err_r1s := tfVelocity rv X_r1s_r2s in
  let V_r1s_r1s := rbdVel X_r1b_r1s k1 in
  let V_r2s_r1s := rbdVel X_r2b_r2s_r1s k2 in
  let V_err_s := sp_add V_r2s_r1s (sp_neg V_r1s_r1s) in
  let w_r1s := mkSp (ang V_r1s_r1s) v0 in
  let V_err_r1s := sp_add (sp_cross err_r1s w_r1s) V_err_s in
  let AN_r1s_r1s := rbdNAcc X_r1b_r1s sp0 k1 in
  let wAN_r1s_r1s := mkSp (ang AN_r1s_r1s) v0 in
  let AN_r2s_r1s := rbdNAcc X_r2b_r2s_r1s (mkSp (ang V_err_s) v0) k2 in
  let AN_err_s := sp_add AN_r2s_r1s (sp_neg AN_r1s_r1s) in
  let AN_err_r1s := sp_add (sp_add (sp_cross V_err_r1s w_r1s) (sp_cross err_r1s wAN_r1s_r1s)) AN_err_s in
  let col1 c := rbdColX X_0_r1s k1 c in
  let jac1 c := sp_add (col1 c) (sp_neg (sp_cross err_r1s (mkSp (ang (col1 c)) v0))) in
  let jac2 c := sp_neg (rbdColX (pt_mul E_r2s_r1s X_0_r2s) k2 c) in
  do J1 <- fullJacobian mb1 path1 (short6 (pathDof mb1 path1) jac1) full1;
  do J2 <- fullJacobian mb2 path2 (short6 (pathDof mb2 path2) jac2) full2;
  Ok (mkMrt (vec6 err_r1s) (vec6 (sp_neg V_err_r1s)) (vec6 (sp_neg AN_err_r1s)) J1 J2).

(** *** RelativeDistTask *)
(** RelativeBodiesInfo (Tasks.h: RelativeDistTask): body index, point of the body, point of the environment, point
    and path of the Jacobian, fixed direction, direction of the previous update. *)
Record rdInfo := mkRD { rdBody : nat; rdP : V3; rdEnv : V3; rdJacP : V3; rdPath : list nat; rdU : V3; rdOffn : V3 }.
(** timestep_, isVectorFixed_, rbInfo_[0], rbInfo_[1]. *)
Record rdTask := mkRDT { rdDt : R; rdFixed : bool; rdA : rdInfo; rdB : rdInfo }.
Definition v3eqb (a b : V3) : bool := Reqb (vx a) (vx b) && Reqb (vy a) (vy b) && Reqb (vz a) (vz b).
(** RelativeBodiesInfo::RelativeBodiesInfo and RelativeDistTask::RelativeDistTask (Tasks.cpp:1170-1189). *)
Definition rdInfoInit (b : nat) (p env : V3) (path : list nat) (u : V3) : rdInfo := mkRD b p env p path u v0.
Definition rdInit (dt : R) (b1 : nat) (p1 e1 : V3) (path1 : list nat) (u1 : V3)
    (b2 : nat) (p2 e2 : V3) (path2 : list nat) (u2 : V3) : rdTask :=
  mkRDT dt (negb (v3eqb u1 v0) && negb (v3eqb u2 v0)) (rdInfoInit b1 p1 e1 path1 u1) (rdInfoInit b2 p2 e2 path2 u2).
(** robotPoint (1191-1201), envPoint (1203-1209), vector (1211-1217): every pair of that body. *)
Definition rdOn (b : nat) (f : rdInfo -> rdInfo) (T : rdTask) : rdTask :=
  let g i := if (rdBody i =? b)%nat then f i else i in mkRDT (rdDt T) (rdFixed T) (g (rdA T)) (g (rdB T)).
Definition rdRobotPoint (b : nat) (p : V3) : rdTask -> rdTask :=
  rdOn b (fun i => mkRD (rdBody i) p (rdEnv i) p (rdPath i) (rdU i) (rdOffn i)).
Definition rdEnvPoint (b : nat) (p : V3) : rdTask -> rdTask :=
  rdOn b (fun i => mkRD (rdBody i) (rdP i) p (rdJacP i) (rdPath i) (rdU i) (rdOffn i)).
Definition rdVector (b : nat) (u : V3) : rdTask -> rdTask :=
  rdOn b (fun i => mkRD (rdBody i) (rdP i) (rdEnv i) (rdJacP i) (rdPath i) u (rdOffn i)).

(** One pass of the loop of RelativeDistTask::update (1228-1269) for one pair: d, speed, normalAcc and full Jacobian
    row, and the new offn. A distance of zero divides by zero: UB here. [al] is dofToVector(mb, mbc.alpha), [fresh]
    the new 3 x nrDof matrix fullJac. *)
Definition rdPair (mb : multibody) (dt : R) (fixed : bool) (i : rdInfo) (k : bodyKin) (al : nat -> R) (fresh : mat)
    : res (R * (nat -> R) * R * R * V3) :=
  let p1 := ptr (pt_mul (pt_trans (rdP i)) (bkPos k)) in
  let r := vsub p1 (rdEnv i) in
  do dnn <- (if fixed then Ok (Rabs (dot r (rdU i)), vneg (rdU i), v0)
             else let d := norm r in
                  do _ <- guard (negb (Reqb d 0));
                  let n := vsc (/ d) (vsub (rdEnv i) p1) in
                  do _ <- guard (negb (Reqb dt 0));
                  Ok (d, n, vsc (/ dt) (vsub n (rdOffn i))));
  let '(d, n, dn) := dnn in
  do fullJac <- fullJacobian mb (rdPath i) (short3 (pathDof mb (rdPath i)) (fun c => linr (rbdColW (rdJacP i) k c))) fresh;
  let row j := sumn 3 (fun l => e3 n l * mget fullJac l j) in
  let speed := dot (linr (rbdVelW (rdJacP i) k)) n in
  let Jal l := sumn (mcols fullJac) (fun j => mget fullJac l j * al j) in
  let nacc := sumn 3 (fun l => Jal l * e3 dn l) + dot (linr (rbdNAccW (rdJacP i) k)) n in
  Ok (d, row, speed, nacc, n).
Definition rdSetOffn (n : V3) (i : rdInfo) : rdInfo := mkRD (rdBody i) (rdP i) (rdEnv i) (rdJacP i) (rdPath i) (rdU i) n.
(** RelativeDistTask::update (1219-1270): sign +1 for the first pair, -1 for the second. kin gives the body of a
    pair. *)
Definition rdUpdate (mb : multibody) (T : rdTask) (kin : nat -> bodyKin) (al : nat -> R) (fresh : mat) : res (rdTask * hlOut) :=
  do a <- rdPair mb (rdDt T) (rdFixed T) (rdA T) (kin (rdBody (rdA T))) al fresh;
  do b <- rdPair mb (rdDt T) (rdFixed T) (rdB T) (kin (rdBody (rdB T))) al fresh;
  let '(d1, row1, sp1, na1, n1) := a in
  let '(d2, row2, sp2, na2, n2) := b in
  Ok (mkRDT (rdDt T) (rdFixed T) (rdSetOffn n1 (rdA T)) (rdSetOffn n2 (rdB T)),
      mkHL (mkMat 1 (nrDof mb) (fun _ j => row1 j + - row2 j)) (mkVec 1 (fun _ => d1 + - d2))
        (mkVec 1 (fun _ => sp1 + - sp2)) (mkVec 1 (fun _ => na1 + - na2))).

(** What a user can do with the task: the setters and update. *)
Inductive rdOp := RdRobotPoint (b : nat) (p : V3) | RdEnvPoint (b : nat) (p : V3) | RdVector (b : nat) (u : V3)
  | RdUpdate (kin : nat -> bodyKin) (al : nat -> R) (fresh : mat).
Definition rdStep (mb : multibody) (T : rdTask) (o : rdOp) : rdTask :=
  match o with
  | RdRobotPoint b p => rdRobotPoint b p T
  | RdEnvPoint b p => rdEnvPoint b p T
  | RdVector b u => rdVector b u T
  | RdUpdate kin al fresh => match rdUpdate mb T kin al fresh with Ok (T', _) => T' | _ => T end
  end.
