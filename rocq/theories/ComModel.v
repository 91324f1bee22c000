(** Model of the centre of mass tasks: tasks::CoMTask (/repo/src/Tasks.cpp:749-810) as the QP task updates it (/repo/src/QPTasks.cpp:992-1034), and the kinematics of tasks::MultiCoMTask
    (/repo/src/Tasks.cpp:816-936; weights and error are in MultiModel). rbd::CoMJacobian and rbd::computeCoM are RBDyn's: modelled here by what they compute from the bodies.
    Simplifications: a division by a null total mass is [UB]; the momentum of the inertia of a body is its mass times cbCom; the Jacobian is written as the sum over the bodies of the
    Jacobian of their centre of mass, RBDyn loops over the joints and the bodies they move. *)
From Verif Require Export KinModel MultiModel.
Open Scope list_scope.
Open Scope R_scope.

(** A body: mass, centre of mass in its frame, joints that move it. *)
Record comBody := mkCB { cbMass : R; cbCom : V3; cbPath : list nat }.
(** What computeCoM reads: mass and position in the world. *)
Definition worldMasses (bs : list comBody) (K : nat -> bodyKin) : bodyMasses :=
  map (fun nb => (cbMass (snd nb), ptr (pt_mul (pt_trans (cbCom (snd nb))) (bkPos (K (fst nb)))))) (combine (seq 0 (length bs)) bs).
(** rbd::CoMJacobian: bodiesCoeff_, bodiesCoM_, weight_. *)
Record comJac := mkCJ { cjCoeff : list R; cjPoint : list V3; cjWeight : list R }.
Definition bodiesMass (bs : list comBody) : R := fold_left (fun ac b => ac + cbMass b) bs 0.
(** CoMJacobian::updateInertialParameters: weight_[i] is read for every body. *)
Fixpoint coeffLoop (total : R) (bs : list comBody) (ws : list R) : res (list R) :=
  match bs, ws with
  | [], _ => Ok []
  | b :: bs', w :: ws' => do c <- divOk (cbMass b * w) total; do l <- coeffLoop total bs' ws'; Ok (c :: l)
  | _ :: _, [] => UB
  end.
Definition comPoint (b : comBody) : V3 := if Rltb 0 (cbMass b) then cbCom b else v0.
Definition cjInertia (bs : list comBody) (j : comJac) : res comJac :=
  do l <- coeffLoop (bodiesMass bs) bs (cjWeight j); Ok (mkCJ l (map comPoint bs) (cjWeight j)).
(** Constructor: std::domain_error unless there is one weight per body. *)
Definition cjNew (bs : list comBody) (ws : list R) : res comJac :=
  if Nat.eqb (length ws) (length bs) then cjInertia bs (mkCJ [] [] ws) else Throw.
(** CoMJacobian::weight: as the constructor. *)
Definition cjSetWeight (bs : list comBody) (ws : list R) (j : comJac) : res comJac :=
  if Nat.eqb (length ws) (length bs) then cjInertia bs (mkCJ (cjCoeff j) (cjPoint j) ws) else Throw.
(** velocity, normalAcceleration and jacobian, one row. *)
Definition cjBodies (bs : list comBody) (j : comJac) (f : nat -> V3 -> R) : R :=
  sumn (length bs) (fun b => nth b (cjCoeff j) 0 * f b (nth b (cjPoint j) v0)).
Definition cjVelocity (bs : list comBody) (j : comJac) (K : nat -> bodyKin) (i : nat) : R := cjBodies bs j (fun b p => e3 (linr (rbdVelW p (K b))) i).
Definition cjNormalAcc (bs : list comBody) (j : comJac) (K : nat -> bodyKin) (i : nat) : R := cjBodies bs j (fun b p => e3 (linr (rbdNAccW p (K b))) i).
(** Entry of the full Jacobian of one body: the columns of its path, elsewhere zero. *)
Definition fullRow (mb : multibody) (path : list nat) (g : nat -> R) (q : nat) : R :=
  sumn (pathDof mb path) (fun c => if Nat.eqb (nth c (pathCols mb path) 0%nat) q then g c else 0).
Definition pathOf (bs : list comBody) (b : nat) : list nat := match nth_error bs b with Some x => cbPath x | None => [] end.
Definition cjJacobian (mb : multibody) (bs : list comBody) (j : comJac) (K : nat -> bodyKin) : mat :=
  mkMat 3 (nrDof mb) (fun i q => cjBodies bs j (fun b p => fullRow mb (pathOf bs b) (fun c => e3 (linr (rbdColW p (K b) c)) i) q)).

(** *** CoMTask *)
Record comTask := mkCT { ctCom : V3; ctJac : comJac }.
(** Constructors, Tasks.cpp:749-759: CoMJacobian(mb) has the weights 1. *)
Definition ctNew (bs : list comBody) (com : V3) (weight : option (list R)) : res comTask :=
  do j <- cjNew bs (match weight with Some w => w | None => repeat 1 (length bs) end); Ok (mkCT com j).
(** com, 761-762; updateInertialParameters, 770-771. *)
Inductive ctOp := CtCom (c : V3) | CtInertia (bs : list comBody).
Definition ctStep (T : comTask) (o : ctOp) : res comTask :=
  match o with CtCom c => Ok (mkCT c (ctJac T)) | CtInertia bs => do j <- cjInertia bs (ctJac T); Ok (mkCT (ctCom T) j) end.
Fixpoint ctRun (ops : list ctOp) (T : comTask) : res comTask := match ops with [] => Ok T | o :: ops' => do T' <- ctStep T o; ctRun ops' T' end.
(** update, 784-795, with com = computeCoM(mb, mbc) (QPTasks.cpp:1015-1021). bodiesCoeff_ and bodiesCoM_ are read for every body. *)
Definition ctUpdate (mb : multibody) (bs : list comBody) (K : nat -> bodyKin) (T : comTask) : res hlOut :=
  do c <- computeCoM (worldMasses bs K);
  do _ <- guard (Nat.leb (length bs) (length (cjCoeff (ctJac T))));
  Ok (mkHL (cjJacobian mb bs (ctJac T) K) (vec3 (vsub (ctCom T) c)) (mkVec 3 (cjVelocity bs (ctJac T) K)) (mkVec 3 (cjNormalAcc bs (ctJac T) K))).

(** *** MultiCoMTask *)
(** The robots: degrees of freedom and bodies. *)
Definition robot := (multibody * list comBody)%type.
Definition robotMasses (rb : list robot) (K : nat -> nat -> bodyKin) : list bodyMasses :=
  map (fun nr => worldMasses (snd (snd nr)) (K (fst nr))) (combine (seq 0 (length rb)) rb).
(** computeRobotsWeight reads the masses only: any placement. *)
Definition anyK (r b : nat) : bodyKin := mkBK pt_id sp0 sp0 (fun _ => sp0).
Record multiComJ := mkMCJ { mjBase : multiCoM; mjJacs : list comJac }.
(** Loops of the constructor, Tasks.cpp:825-832, and of updateInertialParameters, 850-856. *)
Fixpoint jacsNew (rb : list robot) (rs : list nat) (ws : list R) : res (list comJac) :=
  match rs, ws with
  | [], _ => Ok []
  | r :: rs', w :: ws' => do m <- vec_at rb r; do j <- cjNew (snd m) (repeat w (length (snd m))); do l <- jacsNew rb rs' ws'; Ok (j :: l)
  | _ :: _, [] => UB
  end.
Fixpoint jacsWeight (rb : list robot) (rs : list nat) (ws : list R) (js : list comJac) : res (list comJac) :=
  match rs, ws, js with
  | [], _, _ => Ok []
  | r :: rs', w :: ws', j :: js' => do m <- vec_at rb r; do j' <- cjSetWeight (snd m) (repeat w (length (snd m))) j; do l <- jacsWeight rb rs' ws' js'; Ok (j' :: l)
  | _ :: _, _, _ => UB
  end.
Definition mjNew (rb : list robot) (rs : list nat) (com : V3) : res multiComJ :=
  do b <- newMCoM (robotMasses rb anyK) rs com; do l <- jacsNew rb rs (mcWeights b); Ok (mkMCJ b l).
Inductive mjOp := MjCom (c : V3) | MjInertia (rb : list robot).
Definition mjStep (T : multiComJ) (o : mjOp) : res multiComJ :=
  match o with
  | MjCom c => Ok (mkMCJ (mkMCoM c (mcRobots (mjBase T)) (mcWeights (mjBase T)) (mcEval (mjBase T))) (mjJacs T))
  | MjInertia rb => do b <- mcInertia (robotMasses rb anyK) (mjBase T); do l <- jacsWeight rb (mcRobots b) (mcWeights b) (mjJacs T); Ok (mkMCJ b l)
  end.
Fixpoint mjRun (ops : list mjOp) (T : multiComJ) : res multiComJ := match ops with [] => Ok T | o :: ops' => do T' <- mjStep T o; mjRun ops' T' end.
(** Loop of update, 885-895: speed_, normalAcc_ and the Jacobians; the error is evalLoop. *)
Fixpoint mjLoop (rb : list robot) (K : nat -> nat -> bodyKin) (rs : list nat) (js : list comJac) : res ((nat -> R) * (nat -> R) * list mat) :=
  match rs, js with
  | [], _ => Ok (fun _ => 0, fun _ => 0, [])
  | r :: rs', j :: js' =>
      do m <- vec_at rb r;
      do _ <- guard (Nat.leb (length (snd m)) (length (cjCoeff j)));
      do (sp, na, Js) <- mjLoop rb K rs' js';
      Ok (fun i => cjVelocity (snd m) j (K r) i + sp i, fun i => cjNormalAcc (snd m) j (K r) i + na i, cjJacobian (fst m) (snd m) j (K r) :: Js)
  | _ :: _, [] => UB
  end.
Definition mjUpdate (rb : list robot) (K : nat -> nat -> bodyKin) (T : multiComJ) : res mrOut :=
  do e <- mcEvalUpdate (robotMasses rb K) (mjBase T);
  do (sp, na, Js) <- mjLoop rb K (mcRobots (mjBase T)) (mjJacs T);
  Ok (mkMR (vec3 (mcEval e)) (mkVec 3 sp) (mkVec 3 na) Js).
