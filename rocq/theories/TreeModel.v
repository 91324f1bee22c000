(** SolverData::computeNormalAccB: model of /repo/src/QPSolverData.cpp:25-50, with the part of QPSolver::nrVars that
    sizes its result (/repo/src/QPSolver.cpp:101-114). *)
From Verif Require Export KinModel SolverModel.
Open Scope list_scope.
Open Scope R_scope.

(** What is read of an rbd::MultiBody besides its joints: predecessors(), successors(), nrBodies(). *)
Record treeMB := mkTree { trMB : multibody; trPred : list Z; trSucc : list nat; trBodies : nat }.
(** What is read of an rbd::MultiBodyConfig: parentToSon, jointVelocity, bodyVelB. *)
Record treeMBC := mkTC { tcPts : list PT; tcVj : list Spatial; tcVb : list Spatial }.

(** One pass of the inner loop (QPSolverData.cpp:38-48). A negative predecessor other than -1 is UB. *)
Definition naccStep (m : treeMB) (c : treeMBC) (i : nat) (na : list Spatial) : res (list Spatial) :=
  do X <- vec_at (tcPts c) i;
  do vj <- vec_at (tcVj c) i;
  do vb <- vec_at (tcVb c) i;
  do p <- vec_at (trPred m) i;
  do s <- vec_at (trSucc m) i;
  if negb (p =? -1)%Z
  then do _ <- guard (0 <=? p)%Z;
       do ap <- vec_at na (Z.to_nat p);
       lset na s (sp_add (pt_mulM X ap) (sp_cross vb vj))
  else lset na s (sp_cross vb vj).
Fixpoint naccLoop (m : treeMB) (c : treeMBC) (is : list nat) (na : list Spatial) : res (list Spatial) :=
  match is with [] => Ok na | i :: is' => do na' <- naccStep m c i na; naccLoop m c is' na' end.
(** Body of the loop over the robots (30-48). *)
Definition naccRobot (m : treeMB) (c : treeMBC) (na : list Spatial) : res (list Spatial) :=
  naccLoop m c (seq 0 (length (joints (trMB m)))) na.

(** Members mobileRobotIndex_ and normalAccB_. *)
Record naccData := mkNA { naMobile : list nat; naAcc : list (list Spatial) }.
Definition naccInit : naccData := mkNA [] [].
(** QPSolver::nrVars, lines 101-114: both resizes keep what is already there. *)
Fixpoint naccSize (ms : list treeMB) (old : list (list Spatial)) : list (list Spatial) :=
  match ms with
  | [] => []
  | m :: ms' => resize (hd [] old) (trBodies m) sp0 :: naccSize ms' (tl old)
  end.
Fixpoint mobileFrom (ms : list treeMB) (r : nat) : list nat :=
  match ms with
  | [] => []
  | m :: ms' => if (0 <? nrDof (trMB m))%nat then r :: mobileFrom ms' (S r) else mobileFrom ms' (S r)
  end.
Definition naccNrVars (ms : list treeMB) (d : naccData) : naccData := mkNA (mobileFrom ms 0) (naccSize ms (naAcc d)).
(** SolverData::computeNormalAccB (25-50). *)
Fixpoint naccRobots (ms : list treeMB) (cs : list treeMBC) (rs : list nat) (acc : list (list Spatial)) : res (list (list Spatial)) :=
  match rs with
  | [] => Ok acc
  | r :: rs' =>
    do m <- vec_at ms r;
    do c <- vec_at cs r;
    do na <- vec_at acc r;
    do na' <- naccRobot m c na;
    do acc' <- lset acc r na';
    naccRobots ms cs rs' acc'
  end.
Definition naccCompute (ms : list treeMB) (cs : list treeMBC) (d : naccData) : res naccData :=
  do acc <- naccRobots ms cs (naMobile d) (naAcc d); Ok (mkNA (naMobile d) acc).
(** Calls of nrVars and computeNormalAccB on one solver, with any robots. *)
Inductive naccOp := NaNrVars (ms : list treeMB) | NaCompute (ms : list treeMB) (cs : list treeMBC).
Definition naccOpStep (d : naccData) (o : naccOp) : res naccData :=
  match o with NaNrVars ms => Ok (naccNrVars ms d) | NaCompute ms cs => naccCompute ms cs d end.
Fixpoint naccRun (d : naccData) (ops : list naccOp) : res naccData :=
  match ops with [] => Ok d | o :: ops' => do d' <- naccOpStep d o; naccRun d' ops' end.
