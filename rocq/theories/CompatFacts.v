(** Lemmas: compatible tasks are achieved; what the result depends on. *)
From Verif Require Export CompatSpec SolverFacts.
From Verif Require Import HistoryProofs SetPointFacts SetPointLoop.
Open Scope list_scope.
Open Scope R_scope.
Local Arguments sumn : simpl never.

Lemma reg_quiet n ts z : quiet n ts z -> regCost n ts z = 0.
Proof.
  intros Q. unfold regCost. apply sumn_0. intros i Hi. destruct (Rlt_dec _ _) as [L|]; [|reflexivity].
  destruct (Q i Hi) as [->|G]; [ring|]. exfalso. apply (Rlt_irrefl (/ 10000)). eapply Rle_lt_trans; eassumption.
Qed.
Lemma reg_nonneg n ts z : 0 <= regCost n ts z.
Proof.
  unfold regCost. apply sumn_nonneg. intros i Hi. destruct (Rlt_dec _ _); [|lra]. pose proof (Rle_0_sqr (z i)). unfold Rsqr in *. nra.
Qed.
Lemma sum_tight (ts : list task) (x z : nat -> R) : (forall t, In t ts -> taskCost t z <= taskCost t x) -> tasksCost ts x <= tasksCost ts z ->
  forall t, In t ts -> taskCost t x = taskCost t z.
Proof.
  induction ts as [|a ts IH]; intros H L t I; [destruct I|]. unfold tasksCost in *. cbn [map sumR] in L.
  assert (L' : forall l, (forall t, In t l -> taskCost t z <= taskCost t x) -> sumR (map (fun t => taskCost t z) l) <= sumR (map (fun t => taskCost t x) l)).
  { clear. induction l as [|b l IH]; intros H; cbn; [lra|]. pose proof (H b (or_introl eq_refl)). pose proof (IH (fun t I => H t (or_intror I))). lra. }
  pose proof (L' ts (fun t I => H t (or_intror I))). pose proof (H a (or_introl eq_refl)). destruct I as [<-|I]; [lra|].
  apply IH; [intros u Hu; apply H; right; exact Hu|lra|exact I].
Qed.
Lemma compatible_lemma lssol kinds pre mbs uni bi post s num h x T (ms ms' : list (mbconfig T)) z :
  history lssol kinds (pre ++ OpNrVars mbs uni bi :: post) = Ok s ->
  Forall wfMimic mbs -> nonzeroMimics mbs -> Forall (fun o => ~ resizesOrSwitches o) post -> contract num ->
  Forall wfBound (rgBound (collect s h)) -> disjointBounds (rgBound (collect s h)) ->
  solve num s h ms = Ok (true, x, ms') ->
  let n := sdNrVars (qData s) in let g := collect s h in
  feasible n g z -> mimicked mbs (qData s) z -> quiet n (rgTasks g) z -> pleasesAll (rgTasks g) z ->
  pleasesAll (rgTasks g) (vget x).
Proof.
  intros H W NZ Hc C WB DB HS n g FZ MZ QZ PZ t I.
  destruct (optimal_lemma _ _ _ _ _ _ _ _ _ _ _ _ _ _ H W NZ Hc C WB DB HS) as (_ & _ & _ & O). specialize (O z FZ MZ).
  unfold objective in O. fold g in O. change (sdNrVars (qData s)) with n in O. rewrite (reg_quiet n (rgTasks g) z QZ) in O. pose proof (reg_nonneg n (rgTasks g) (vget x)) as P.
  intros y. rewrite (sum_tight (rgTasks g) (vget x) z); [apply PZ; exact I|intros u Hu; apply PZ; exact Hu|lra|exact I].
Qed.
Lemma taskCost_ext n t x y : wfTask n t -> (forall i, (i < n)%nat -> x i = y i) -> taskCost t x = taskCost t y.
Proof.
  intros (A & B & D) E. unfold taskCost. f_equal. f_equal; [f_equal; apply sumn_ext; intros i Hi; apply sumn_ext; intros j Hj|apply sumn_ext; intros i Hi]; rewrite !E by lia; reflexivity.
Qed.
Lemma tasks_closed lssol kinds num ct pre mbs uni bi U t k b x :
  Forall wfMimic mbs -> nonzeroMimics mbs -> contract num ->
  tasksLoop lssol kinds num ct pre mbs uni bi U t k b x -> closedLoop U t k b x.
Proof.
  intros W NZ C H s Hs. destruct (H s Hs) as (post & q & hp & h & t' & ms & ms1 & xv & z & H1 & H2 & I & E & UP & ET & WT & WB & DB & SV & X & FZ & MZ & QZ & PZ & AZ).
  exists h, t'. split; [exact E|]. split; [exact UP|]. split; [|exists z; exact AZ].
  pose proof (compatible_lemma _ _ _ _ _ _ _ _ _ _ _ _ _ _ z H1 W NZ H2 C WB DB SV FZ MZ QZ PZ (hTask hp ct)) as M. rewrite ET in M.
  assert (IN : In (commonTask (spC t')) (rgTasks (collect q hp))) by (rewrite <- ET; unfold collect; cbn [rgTasks]; apply in_map; exact I).
  specialize (M IN). intros y. replace (taskCost (commonTask (spC t')) (x s)) with (taskCost (commonTask (spC t')) (vget xv)); [apply M|].
  rewrite ET in WT. apply (taskCost_ext _ _ _ _ WT). intros i Hi. symmetry. apply X. exact Hi.
Qed.

(** ** The order of the registrations *)
Lemma sumR_perm l l' : Permutation l l' -> sumR l = sumR l'.
Proof. induction 1; cbn; lra. Qed.
Lemma objective_perm n ts ts' x : Permutation ts ts' -> objective n ts x = objective n ts' x.
Proof.
  intros P. unfold objective, tasksCost, regCost. f_equal; [apply sumR_perm, Permutation_map; exact P|].
  apply sumn_ext. intros i _. unfold diagSum. rewrite (sumR_perm _ _ (Permutation_map (taskDiag i) P)). reflexivity.
Qed.
Lemma Forall_perm {A} (P : A -> Prop) l l' : Permutation l l' -> Forall P l -> Forall P l'.
Proof. intros E H. rewrite Forall_forall in *. intros a I. apply H. apply (Permutation_in _ (Permutation_sym E) I). Qed.
Lemma feasible_perm n g g' x : sameConstraints g g' -> feasible n g x -> feasible n g' x.
Proof.
  intros (A & B & C & D) ((E & F & G) & H). split; [split; [|split]|]; eapply Forall_perm; eassumption.
Qed.
Lemma sameConstraints_sym g g' : sameConstraints g g' -> sameConstraints g' g.
Proof. intros (A & B & C & D). repeat split; apply Permutation_sym; assumption. Qed.

(** ** Means of two points *)
Definition mean (x y : nat -> R) (i : nat) : R := (x i + y i) / 2.
Lemma row_mean n (a : nat -> R) x y : sumn n (fun j => a j * mean x y j) = (sumn n (fun j => a j * x j) + sumn n (fun j => a j * y j)) / 2.
Proof. rewrite <- sumn_plus. unfold Rdiv. rewrite <- sumn_scal_r. apply sumn_ext. intros j _. unfold mean. field. Qed.
Lemma ele_mean_u a b u : ele (Fin a) u -> ele (Fin b) u -> ele (Fin ((a + b) / 2)) u.
Proof. destruct u; cbn; auto; lra. Qed.
Lemma ele_mean_l a b l : ele l (Fin a) -> ele l (Fin b) -> ele l (Fin ((a + b) / 2)).
Proof. destruct l; cbn; auto; lra. Qed.
Lemma Forall_and2 {A} (P Q S : A -> Prop) l : (forall a, P a -> Q a -> S a) -> Forall P l -> Forall Q l -> Forall S l.
Proof. rewrite !Forall_forall. auto. Qed.
Lemma feasible_mean n g x y : feasible n g x -> feasible n g y -> feasible n g (mean x y).
Proof.
  intros ((A & B & C) & D) ((A' & B' & C') & D'). split; [split; [|split]|].
  - eapply Forall_and2; [|exact A|exact A']. intros e H H' i Hi. rewrite row_mean, H, H' by exact Hi. lra.
  - eapply Forall_and2; [|exact B|exact B']. intros e H H' i Hi. rewrite row_mean. apply ele_mean_u; auto.
  - eapply Forall_and2; [|exact C|exact C']. intros e H H' i Hi. rewrite row_mean. destruct (H i Hi), (H' i Hi). split; [apply ele_mean_l|apply ele_mean_u]; auto.
  - eapply Forall_and2; [|exact D|exact D']. intros e H H' i. destruct (H i) as (L & U), (H' i) as (L' & U'). unfold mean.
    split; intros Hi; [apply ele_mean_l|apply ele_mean_u]; auto.
Qed.
Lemma mimicked_mean mbs d x y : mimicked mbs d x -> mimicked mbs d y -> mimicked mbs d (mean x y).
Proof. intros A B r mb il ir m b H1 H2 H3. unfold mean. rewrite (A r mb il ir m b H1 H2 H3), (B r mb il ir m b H1 H2 H3). field. Qed.

Section Two.
Context (lssol lssol' : bool) (kinds kinds' : nat -> list ckind) (pre pre' post post' : list op) (mbs : list multibody) (uni : list unilateral) (bi : list bilateral)
  (s s' : qpSolver) (num num' : numeric) (h h' : heap) (x x' : vec R) (T T' : Type) (ms ms1 : list (mbconfig T)) (ms' ms1' : list (mbconfig T')) (c : R).
Hypothesis H : history lssol kinds (pre ++ OpNrVars mbs uni bi :: post) = Ok s.
Hypothesis H' : history lssol' kinds' (pre' ++ OpNrVars mbs uni bi :: post') = Ok s'.
Hypothesis W : Forall wfMimic mbs.
Hypothesis NZ : nonzeroMimics mbs.
Hypothesis Hc : Forall (fun o => ~ resizesOrSwitches o) post.
Hypothesis Hc' : Forall (fun o => ~ resizesOrSwitches o) post'.
Hypothesis C : contract num.
Hypothesis C' : contract num'.
Hypothesis WB : Forall wfBound (rgBound (collect s h)).
Hypothesis DB : disjointBounds (rgBound (collect s h)).
Hypothesis WB' : Forall wfBound (rgBound (collect s' h')).
Hypothesis DB' : disjointBounds (rgBound (collect s' h')).
Hypothesis SV : solve num s h ms = Ok (true, x, ms1).
Hypothesis SV' : solve num' s' h' ms' = Ok (true, x', ms1').
Hypothesis SC : sameConstraints (collect s h) (collect s' h').
Hypothesis Pc : 0 < c.
Hypothesis OB : forall z, objective (sdNrVars (qData s)) (rgTasks (collect s' h')) z = c * objective (sdNrVars (qData s)) (rgTasks (collect s h)) z.

Lemma two_data : qData s' = qData s.
Proof.
  destruct (layout_after _ _ _ _ _ _ _ _ H W Hc) as (d1 & L1 & _). destruct (layout_after _ _ _ _ _ _ _ _ H' W Hc') as (d2 & L2 & _).
  rewrite L1 in L2. injection L2 as E _. symmetry. exact E.
Qed.
Lemma two_cost : objective (sdNrVars (qData s)) (rgTasks (collect s h)) (vget x) = objective (sdNrVars (qData s)) (rgTasks (collect s h)) (vget x') /\
  feasible (sdNrVars (qData s)) (collect s h) (vget x') /\ mimicked mbs (qData s) (vget x').
Proof.
  pose proof two_data as E.
  destruct (optimal_lemma _ _ _ _ _ _ _ _ _ _ _ _ _ _ H W NZ Hc C WB DB SV) as (_ & F & M & O).
  destruct (optimal_lemma _ _ _ _ _ _ _ _ _ _ _ _ _ _ H' W NZ Hc' C' WB' DB' SV') as (_ & F' & M' & O'). rewrite E in *.
  assert (FX : feasible (sdNrVars (qData s)) (collect s h) (vget x')) by (eapply feasible_perm; [apply sameConstraints_sym; exact SC|exact F']).
  split; [|split; assumption]. apply Rle_antisym; [apply O; assumption|].
  assert (O2 := O' (vget x) (feasible_perm _ _ _ _ SC F) M). rewrite !OB in O2. apply Rmult_le_reg_l in O2; assumption.
Qed.
Lemma two_same : strictlyConvex (mimicked mbs (qData s)) (sdNrVars (qData s)) (objective (sdNrVars (qData s)) (rgTasks (collect s h))) ->
  forall i, (i < sdNrVars (qData s))%nat -> vget x i = vget x' i.
Proof.
  intros SCx i Hi. destruct two_cost as (E & F' & M'). 
  destruct (optimal_lemma _ _ _ _ _ _ _ _ _ _ _ _ _ _ H W NZ Hc C WB DB SV) as (_ & F & M & O).
  destruct (Req_dec (vget x i) (vget x' i)) as [Q|Q]; [exact Q|exfalso].
  pose proof (SCx (vget x) (vget x') M M' (ex_intro _ i (conj Hi Q))) as L.
  pose proof (O (mean (vget x) (vget x')) (feasible_mean _ _ _ _ F F') (mimicked_mean _ _ _ _ M M')) as G. unfold mean in G. lra.
Qed.
End Two.

(** ** Weights *)
Lemma taskCost_rescaled c t x : taskCost (rescaled c t) x = c * taskCost t x.
Proof. unfold taskCost, rescaled. cbn [tkWeight tkBegin tkQ tkC]. ring. Qed.
Lemma reg_none n ts x : unregularised n ts -> regCost n ts x = 0.
Proof. intros H. apply reg_quiet. intros i Hi. right. apply H. exact Hi. Qed.
Lemma objective_rescaled c n ts x : unregularised n ts -> unregularised n (map (rescaled c) ts) -> objective n (map (rescaled c) ts) x = c * objective n ts x.
Proof.
  intros U U'. unfold objective. rewrite !reg_none by assumption. rewrite !Rplus_0_r. unfold tasksCost. clear. induction ts as [|t ts IH]; cbn [map sumR]; [ring|].
  rewrite IH, taskCost_rescaled. ring.
Qed.
Lemma sumR_app l l' : sumR (l ++ l') = sumR l + sumR l'.
Proof. induction l; cbn; lra. Qed.
Lemma sumR_all0 {A} (f : A -> R) l : (forall a, In a l -> f a = 0) -> sumR (map f l) = 0.
Proof. induction l as [|a l IH]; intros H; cbn; [reflexivity|]. rewrite (H a (or_introl eq_refl)), IH by (intros b I; apply H; right; exact I). ring. Qed.
Lemma objective_zero n ts zs x : (forall t, In t zs -> tkWeight t = 0) -> objective n (ts ++ zs) x = objective n ts x.
Proof.
  intros Z. assert (D : forall i, diagSum (ts ++ zs) i = diagSum ts i).
  { intros i. unfold diagSum. rewrite map_app, sumR_app, (sumR_all0 _ zs); [ring|]. intros t I. unfold taskDiag. rewrite (Z t I). destruct (_ && _)%bool; ring. }
  unfold objective, tasksCost, regCost. rewrite map_app, sumR_app, (sumR_all0 _ zs); [|intros t I; unfold taskCost; rewrite (Z t I); ring].
  f_equal; [ring|]. apply sumn_ext. intros i _. rewrite D. reflexivity.
Qed.

(** ** The theorems *)
Lemma compatible_by mbs uni bi s h x z : Forall wfMimic mbs -> nonzeroMimics mbs -> solvedBy mbs uni bi s h x ->
  feasible (sdNrVars (qData s)) (collect s h) z -> mimicked mbs (qData s) z -> quiet (sdNrVars (qData s)) (rgTasks (collect s h)) z ->
  pleasesAll (rgTasks (collect s h)) z -> pleasesAll (rgTasks (collect s h)) (vget x).
Proof.
  intros W NZ (lssol & kinds & pre & post & num & ms & ms' & H & Hc & C & WB & DB & SV) F M Q P.
  exact (compatible_lemma _ _ _ _ _ _ _ _ _ _ _ _ _ _ z H W NZ Hc C WB DB SV F M Q P).
Qed.
Lemma meets_min tk q z : setPointOf tk q -> meets z q -> minimises tk z.
Proof.
  intros (mbs & r & k0 & W0 & w0 & ops & t0 & t & t' & h & N & Rn & U & -> & Pw & PW & ->) M.
  eapply zero_min; [exact (setpoint_lemma _ _ _ _ _ _ _ _ _ _ N Rn U)|lra|intros i Hi; left; apply PW; exact Hi|exact M].
Qed.
Lemma min_meets tk q z x : setPointOf tk q -> meets z q -> minimises tk x -> meets x q.
Proof.
  intros (mbs & r & k0 & W0 & w0 & ops & t0 & t & t' & h & N & Rn & U & -> & Pw & PW & ->) M Mx i Hi.
  exact (met _ _ _ _ _ _ x (setpoint_lemma _ _ _ _ _ _ _ _ _ _ N Rn U) Pw PW (ex_intro _ z M) Mx i Hi).
Qed.
Lemma attained_by mbs uni bi s h x z qs : Forall wfMimic mbs -> nonzeroMimics mbs -> solvedBy mbs uni bi s h x ->
  feasible (sdNrVars (qData s)) (collect s h) z -> mimicked mbs (qData s) z -> quiet (sdNrVars (qData s)) (rgTasks (collect s h)) z ->
  Forall2 setPointOf (rgTasks (collect s h)) qs -> Forall (meets z) qs -> Forall (meets (vget x)) qs.
Proof.
  intros W NZ SB F M Q F2 Mz.
  assert (P : pleasesAll (rgTasks (collect s h)) (vget x)).
  { apply (compatible_by mbs uni bi s h x z W NZ SB F M Q). clear Q F SB. induction F2 as [|tk q ts qs H F2 IH]; intros t [].
    - subst t. inversion Mz; subst. eapply meets_min; eassumption.
    - inversion Mz; subst. apply IH; assumption. }
  clear Q F SB. induction F2 as [|tk q ts qs H F2 IH]; [constructor|]. inversion Mz; subst. constructor.
  - eapply min_meets; [exact H|eassumption|]. apply P. left. reflexivity.
  - apply IH; [assumption|]. intros t I. apply P. right. exact I.
Qed.
Section TwoBy.
Context (mbs : list multibody) (uni : list unilateral) (bi : list bilateral) (s s' : qpSolver) (h h' : heap) (x x' : vec R).
Hypothesis W : Forall wfMimic mbs.
Hypothesis NZ : nonzeroMimics mbs.
Hypothesis B : solvedBy mbs uni bi s h x.
Hypothesis B' : solvedBy mbs uni bi s' h' x'.
Hypothesis SC : sameConstraints (collect s h) (collect s' h').
Lemma by_cost c : 0 < c -> (forall z, objective (sdNrVars (qData s)) (rgTasks (collect s' h')) z = c * objective (sdNrVars (qData s)) (rgTasks (collect s h)) z) ->
  objective (sdNrVars (qData s)) (rgTasks (collect s h)) (vget x) = objective (sdNrVars (qData s)) (rgTasks (collect s h)) (vget x').
Proof.
  intros Pc OB. destruct B as (lssol & kinds & pre & post & num & ms & ms1 & H & Hc & C & WB & DB & SV).
  destruct B' as (lssol' & kinds' & pre' & post' & num' & ms' & ms1' & H' & Hc' & C' & WB' & DB' & SV').
  exact (proj1 (two_cost lssol lssol' kinds kinds' pre pre' post post' mbs uni bi s s' num num' h h' x x' unit unit ms ms1 ms' ms1' c H H' W NZ Hc Hc' C C' WB DB WB' DB' SV SV' SC Pc OB)).
Qed.
Lemma by_same c : 0 < c -> (forall z, objective (sdNrVars (qData s)) (rgTasks (collect s' h')) z = c * objective (sdNrVars (qData s)) (rgTasks (collect s h)) z) ->
  strictlyConvex (mimicked mbs (qData s)) (sdNrVars (qData s)) (objective (sdNrVars (qData s)) (rgTasks (collect s h))) ->
  forall i, (i < sdNrVars (qData s))%nat -> vget x i = vget x' i.
Proof.
  intros Pc OB. destruct B as (lssol & kinds & pre & post & num & ms & ms1 & H & Hc & C & WB & DB & SV).
  destruct B' as (lssol' & kinds' & pre' & post' & num' & ms' & ms1' & H' & Hc' & C' & WB' & DB' & SV').
  exact (two_same lssol lssol' kinds kinds' pre pre' post post' mbs uni bi s s' num num' h h' x x' unit unit ms ms1 ms' ms1' c H H' W NZ Hc Hc' C C' WB DB WB' DB' SV SV' SC Pc OB).
Qed.
End TwoBy.
Lemma same_split g g' : sameRegistered g g' -> Permutation (rgTasks g) (rgTasks g') /\ sameConstraints g g'.
Proof. intros (A & E). split; [exact A|exact E]. Qed.
Lemma order_cost mbs uni bi s s' h h' x x' : Forall wfMimic mbs -> nonzeroMimics mbs -> solvedBy mbs uni bi s h x -> solvedBy mbs uni bi s' h' x' ->
  sameRegistered (collect s h) (collect s' h') ->
  objective (sdNrVars (qData s)) (rgTasks (collect s h)) (vget x) = objective (sdNrVars (qData s)) (rgTasks (collect s h)) (vget x').
Proof.
  intros W NZ B B' SR. apply same_split in SR as (P & SC). apply (by_cost mbs uni bi s s' h h' x x' W NZ B B' SC 1 Rlt_0_1).
  intros z. rewrite Rmult_1_l. symmetry. apply objective_perm. exact P.
Qed.
Lemma order_same mbs uni bi s s' h h' x x' : Forall wfMimic mbs -> nonzeroMimics mbs -> solvedBy mbs uni bi s h x -> solvedBy mbs uni bi s' h' x' ->
  sameRegistered (collect s h) (collect s' h') ->
  strictlyConvex (mimicked mbs (qData s)) (sdNrVars (qData s)) (objective (sdNrVars (qData s)) (rgTasks (collect s h))) ->
  forall i, (i < sdNrVars (qData s))%nat -> vget x i = vget x' i.
Proof.
  intros W NZ B B' SR. apply same_split in SR as (P & SC). apply (by_same mbs uni bi s s' h h' x x' W NZ B B' SC 1 Rlt_0_1).
  intros z. rewrite Rmult_1_l. symmetry. apply objective_perm. exact P.
Qed.
Lemma scaling_same mbs uni bi s s' h h' x x' c : Forall wfMimic mbs -> nonzeroMimics mbs -> solvedBy mbs uni bi s h x -> solvedBy mbs uni bi s' h' x' ->
  sameConstraints (collect s h) (collect s' h') -> Permutation (map (rescaled c) (rgTasks (collect s h))) (rgTasks (collect s' h')) -> 0 < c ->
  unregularised (sdNrVars (qData s)) (rgTasks (collect s h)) -> unregularised (sdNrVars (qData s)) (map (rescaled c) (rgTasks (collect s h))) ->
  objective (sdNrVars (qData s)) (rgTasks (collect s h)) (vget x) = objective (sdNrVars (qData s)) (rgTasks (collect s h)) (vget x') /\
  (strictlyConvex (mimicked mbs (qData s)) (sdNrVars (qData s)) (objective (sdNrVars (qData s)) (rgTasks (collect s h))) ->
   forall i, (i < sdNrVars (qData s))%nat -> vget x i = vget x' i).
Proof.
  intros W NZ B B' SC P Pc U U'.
  assert (OB : forall z, objective (sdNrVars (qData s)) (rgTasks (collect s' h')) z = c * objective (sdNrVars (qData s)) (rgTasks (collect s h)) z).
  { intros z. rewrite <- (objective_perm _ _ _ z P). apply objective_rescaled; assumption. }
  split; [exact (by_cost mbs uni bi s s' h h' x x' W NZ B B' SC c Pc OB)|exact (by_same mbs uni bi s s' h h' x x' W NZ B B' SC c Pc OB)].
Qed.
Lemma zero_same mbs uni bi s s' h h' x x' zs : Forall wfMimic mbs -> nonzeroMimics mbs -> solvedBy mbs uni bi s h x -> solvedBy mbs uni bi s' h' x' ->
  sameConstraints (collect s h) (collect s' h') -> Permutation (rgTasks (collect s h) ++ zs) (rgTasks (collect s' h')) ->
  (forall t, In t zs -> tkWeight t = 0) ->
  objective (sdNrVars (qData s)) (rgTasks (collect s h)) (vget x) = objective (sdNrVars (qData s)) (rgTasks (collect s h)) (vget x') /\
  (strictlyConvex (mimicked mbs (qData s)) (sdNrVars (qData s)) (objective (sdNrVars (qData s)) (rgTasks (collect s h))) ->
   forall i, (i < sdNrVars (qData s))%nat -> vget x i = vget x' i).
Proof.
  intros W NZ B B' SC P Z.
  assert (OB : forall z, objective (sdNrVars (qData s)) (rgTasks (collect s' h')) z = 1 * objective (sdNrVars (qData s)) (rgTasks (collect s h)) z).
  { intros z. rewrite <- (objective_perm _ _ _ z P), objective_zero by assumption. ring. }
  split; [exact (by_cost mbs uni bi s s' h h' x x' W NZ B B' SC 1 Rlt_0_1 OB)|exact (by_same mbs uni bi s s' h h' x x' W NZ B B' SC 1 Rlt_0_1 OB)].
Qed.
