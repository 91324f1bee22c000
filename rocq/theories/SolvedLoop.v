(** Lemmas: a solver called at every instant keeps the contacts. *)
From Verif Require Export SolvedLoopSpec ContactLoop SolverFacts.
Open Scope list_scope.
Open Scope R_scope.

Lemma holdsEq_ext n x y e : (forall i, (i < n)%nat -> x i = y i) -> holdsEq n y e -> holdsEq n x e.
Proof. intros E H i Hi. rewrite <- (H i Hi). apply sumn_ext. intros j Hj. rewrite E by exact Hj. reflexivity. Qed.
Lemma solved_held lssol kinds num ce pre mbs uni bi d deps m sv c1 K x :
  Forall wfMimic mbs -> nonzeroMimics mbs -> contract num -> nrVarsData mbs uni bi = Ok (d, deps) ->
  solvedLoop lssol kinds num ce pre mbs uni bi m sv c1 K x -> heldLoop mbs d m sv c1 K x.
Proof.
  intros W NZ C HD H s Hs. destruct (H s Hs) as (post & q & h & ops & c2 & o & c3 & ms & ms1 & xv & H1 & H2 & _ & I & F & R & U & E & WB & DB & S & X).
  exists ops, c2, o, c3. split; [exact F|]. split; [exact R|]. split; [exact U|].
  destruct (optimal_lemma _ _ _ _ _ _ _ _ _ _ _ _ _ _ H1 W NZ H2 C WB DB S) as (_ & ((FE & _) & _) & _).
  destruct (HistoryProofs.layout_after _ _ _ _ _ _ _ _ H1 W H2) as (dp & LY & _). rewrite HD in LY. injection LY as LY _. rewrite <- LY in *.
  apply (holdsEq_ext _ _ (vget xv)); [exact X|]. rewrite <- E. rewrite Forall_forall in FE. apply FE. unfold collect. cbn [rgEq]. apply in_map. exact I.
Qed.
Lemma solved_together nm lssol kinds num ce pre mbs uni bi d deps ops0 c0 o0 c1 m sv K al x cd :
  Forall wfMimic mbs -> nonzeroMimics mbs -> contract num ->
  nrVarsData mbs uni bi = Ok (d, deps) -> pathsOk nm mbs -> (forall b, In b (sdAll d) -> rigid (bXcf b) /\ rigid (bXbb b)) ->
  modePos m -> isLog (rotationVelocity sv) ->
  ccRun newCC ops0 = Ok (c0, o0) -> updateNrVars nm mbs d c0 = Ok c1 ->
  solvedLoop lssol kinds num ce pre mbs uni bi m sv c1 K x -> In cd (ccCont c1) -> selectsAll (cdDof cd) ->
  (forall t, 0 <= t -> robotsMove nm mbs d K al x t) ->
  frame1 (K 0) cd = frame2 (K 0) cd -> (forall l, (l < 6)%nat -> relVel nm mbs (kinOf (K 0)) cd l = 0) ->
  forall s, 0 <= s -> frame1 (K s) cd = frame2 (K s) cd /\ forall l, (l < 6)%nat -> relVel nm mbs (kinOf (K s)) cd l = 0.
Proof.
  intros W NZ C HD PK RG MP IL R0 UN SL IC SA RM F0 V0.
  exact (together_lemma nm mbs uni bi d deps ops0 c0 o0 c1 m sv K al x cd HD PK RG MP IL R0 UN (solved_held _ _ _ _ _ _ _ _ _ _ _ _ _ _ _ W NZ C HD SL) IC SA RM F0 V0).
Qed.
