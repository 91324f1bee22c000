(** Model of JointsSelector (/repo/src/QPTasks.cpp:458-564, /repo/src/Tasks/QPTasks.h:282-325). Lines without a file are lines of
    QPTasks.cpp. Simplifications: the numbers of a dof range are natural numbers; the wrapped task's Jacobian is an argument of
    update; eval(), speed(), normalAcc(), dim() are forwarded to the wrapped task (lines 539-540, 557-564) and not modelled. *)
From Verif Require Export SetPointModel.
Open Scope list_scope.
Open Scope R_scope.

(** std::map<std::string, std::vector<std::array<int, 2>>>: (first dof, number of dofs) by joint name. *)
Definition dofMap := list (string * list (nat * nat)).
Fixpoint dfind (m : dofMap) (nm : string) : option (list (nat * nat)) :=
  match m with [] => None | (k, v) :: m' => if String.eqb k nm then Some v else dfind m' nm end.

(** SelectedData {posInDof, dof}, QPTasks.h:299-302. *)
Record selector := mkSel { slDim : nat; slJac : mat; slData : list (nat * nat) }.

(** The ranges of one joint, lines 523-527; assert(jdof[0] + jdof[1] < dof) is a guard. *)
Fixpoint pushRanges (pos dof : nat) (rs : list (nat * nat)) : res (list (nat * nat)) :=
  match rs with
  | [] => Ok []
  | (s, n) :: rs' => do _ <- guard (Nat.ltb (s + n) dof); do l <- pushRanges pos dof rs'; Ok ((pos + s, n)%nat :: l)
  end.
(** The loop over the names, lines 517-533. *)
Fixpoint pushJoints (mb : multibody) (names : list string) (dofs : dofMap) : res (list (nat * nat)) :=
  match names with
  | [] => Ok []
  | nm :: names' =>
    do i <- jointIndexByName mb nm;
    do j <- vec_at (joints mb) i;
    do l <- match dfind dofs nm with
            | Some rs => pushRanges (jointPosInDof mb i) (jdof j) rs
            | None => Ok [(jointPosInDof mb i, jdof j)]
            end;
    do l' <- pushJoints mb names' dofs; Ok (l ++ l')
  end.
(** std::sort by posInDof, lines 534-536: insertion sort. The order of entries with the same posInDof is unspecified in C++; here the
    order of insertion. *)
Fixpoint insertSel (a : nat * nat) (l : list (nat * nat)) : list (nat * nat) :=
  match l with [] => [a] | b :: l' => if Nat.ltb (fst b) (fst a) then b :: insertSel a l' else a :: l end.
Definition sortSel (l : list (nat * nat)) : list (nat * nat) := fold_right insertSel [] l.
(** Constructor, lines 508-537, and ActiveJoints, lines 458-463. *)
Definition newSel (mbs : list multibody) (r dim : nat) (names : list string) (dofs : dofMap) : res selector :=
  do mb <- vec_at mbs r;
  do l <- pushJoints mb names dofs;
  Ok (mkSel dim (mzero dim (nrDof mb)) (sortSel l)).
Definition activeJoints := newSel.

(** The complement of the ranges of a joint, lines 491-502. *)
Fixpoint gaps (ji : nat) (rs : list (nat * nat)) : list (nat * nat) :=
  match rs with [] => [] | (s, n) :: rs' => (if Nat.ltb ji s then [(ji, (s - ji)%nat)] else []) ++ gaps (s + n) rs' end.
Definition toActive (dof : nat) (rs : list (nat * nat)) : res (list (nat * nat)) :=
  match rev rs with
  | [] => UB
  | (s, n) :: _ => Ok (gaps 0 rs ++ (if Nat.ltb (s + n) dof then [((s + n)%nat, (dof - (s + n))%nat)] else []))
  end.
(** Lines 488-503: jDofs.back() of an empty vector is undefined. (std::map has no entry for a joint without active range; here an empty one.) *)
Fixpoint activeDofsOf (mb : multibody) (m : dofMap) : res dofMap :=
  match m with
  | [] => Ok []
  | (nm, rs) :: m' => do i <- jointIndexByName mb nm; do j <- vec_at (joints mb) i; do a <- toActive (jdof j) rs; do m'' <- activeDofsOf mb m'; Ok ((nm, a) :: m'')
  end.
(** UnactiveJoints, lines 465-506. std::set sorts the names and removes repetitions; here the joints' own order, which the sort of the
    constructor establishes anyway. The dof map is computed and not passed on (line 505). *)
Definition unactiveJoints (mbs : list multibody) (r dim : nat) (unames : list string) (udofs : dofMap) : res selector :=
  do mb <- vec_at mbs r;
  let names := filter (fun nm => negb (existsb (String.eqb nm) unames)) (map jname (joints mb)) in
  do _dofs <- activeDofsOf mb udofs;
  newSel mbs r dim names [].

(** The loop of update, lines 548-551. *)
Fixpoint copyLoop (J : mat) (sd : list (nat * nat)) (M : mat) : res mat :=
  match sd with
  | [] => Ok M
  | (p, n) :: sd' => do b <- mblock J 0 p (mrows M) n; do M' <- mset_block M 0 p b; copyLoop J sd' M'
  end.
(** update, lines 542-552. *)
Definition slUpdate (J : mat) (s : selector) : res selector := do M <- copyLoop J (slData s) (slJac s); Ok (mkSel (slDim s) M (slData s)).
Fixpoint slRun (Js : list mat) (s : selector) : res selector :=
  match Js with [] => Ok s | J :: Js' => do s' <- slUpdate J s; slRun Js' s' end.
(** What a task wrapping the selector reads. *)
Definition slOut (h : hlOut) (s : selector) : hlOut := mkHL (slJac s) (hErr h) (hSpeed h) (hNAcc h).
