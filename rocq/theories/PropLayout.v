(** Properties C01-C03 and C67: the layout of the decision variables. *)
From Coq Require Import Sorting.Sorted.
From Verif Require Import LayoutSpec LayoutProofs.
Open Scope string_scope.
Open Scope list_scope.
Open Scope R_scope.

(** ** Concrete data used by the examples *)
(** A robot with a revolute joint "a", a fixed joint, a revolute joint "b" that mimics "a" with
    factor -2, and a spherical joint. *)
Definition exMb1 : multibody := mkMB
  [ mkJoint "a" 1 1 None; mkJoint "f" 0 0 None; mkJoint "b" 1 1 (Some ("a", -2)); mkJoint "s" 3 4 None ].
(** A fixed environment and a one-joint robot. *)
Definition exMbFix : multibody := mkMB [ mkJoint "root" 0 0 None ].
Definition exMb2 : multibody := mkMB [ mkJoint "p" 1 1 None ].
Definition exId (k : Z) : contactId := mkCId 0 1 "hand" "table" k.
Definition exCone : cone := mkCone [mkV3 1 0 1; mkV3 0 1 1; mkV3 (-1) 0 1].
Definition exUni : unilateral :=
  mkUni (exId 0) [mkV3 0 0 0; mkV3 1 0 0] [mkV3 0 0 0; mkV3 1 0 0] exCone exCone (pt_rot m3id) (pt_rot m3id).
Definition exBi : bilateral :=
  mkBi (exId 1) [mkV3 0 0 0] [mkV3 0 0 0] [exCone] [exCone] (pt_rot m3id) (pt_rot m3id).
Definition exData := nrVarsData [exMb1; exMbFix; exMb2] [exUni] [exBi].

(** ** C01 *)
(** nrVars is defined when every bilateral contact has a cone per point and every mimic joint
    names a joint of its robot. *)
Theorem C01_layout_defined : forall mbs uni bi,
  Forall wfBi bi ->
  (forall mb j nm m, In mb mbs -> In j (joints mb) -> jmimic j = Some (nm, m) -> In nm (map jname (joints mb))) ->
  exists d deps, nrVarsData mbs uni bi = Ok (d, deps).
Proof. exact layout_defined_lemma. Qed.
Print Assumptions C01_layout_defined.

(** Every index below nrVars() has exactly one owner (a robot or a contact), indices beyond have
    none; robots come first. *)
Theorem C01_layout_partition : forall mbs uni bi d deps,
  nrVarsData mbs uni bi = Ok (d, deps) ->
  (forall i, (i < sdNrVars d)%nat <-> exists! o, owns d o i) /\
  (forall r i, owns d (Robot r) i -> (i < sdTotalAlphaD d)%nat) /\
  (forall c i, owns d (Contact c) i -> (sdTotalAlphaD d <= i < sdNrVars d)%nat).
Proof. exact layout_partition_lemma. Qed.
Print Assumptions C01_layout_partition.

(** The segments are the announced ones, with the announced lengths and totals. *)
Theorem C01_layout_counts : forall mbs uni bi d deps,
  nrVarsData mbs uni bi = Ok (d, deps) ->
  (forall r mb, nth_error mbs r = Some mb -> alphaD d r = Ok (nrDof mb)) /\
  (forall c u, nth_error uni c = Some u -> lambda d c = Ok (uniLambdaCount u)) /\
  (forall c b, nth_error bi c = Some b -> lambda d (length uni + c) = Ok (biLambdaCount b)) /\
  nrContacts d = (length uni + length bi)%nat /\
  sdTotalAlphaD d = sumnat (map nrDof mbs) /\
  sdNrUniLambda d = sumnat (map uniLambdaCount uni) /\
  sdNrBiLambda d = sumnat (map biLambdaCount bi) /\
  sdTotalLambda d = (sdNrUniLambda d + sdNrBiLambda d)%nat /\
  sdNrVars d = (sdTotalAlphaD d + sdTotalLambda d)%nat /\
  (forall c i, owns d (Contact c) i ->
     ((c < length uni)%nat <-> (unilateralBegin d <= i < bilateralBegin d)%nat)).
Proof. exact layout_counts_lemma. Qed.
Print Assumptions C01_layout_counts.

(** The segments are laid out in order: each begins where the previous ones end. *)
Theorem C01_layout_order : forall mbs uni bi d deps,
  nrVarsData mbs uni bi = Ok (d, deps) ->
  (forall r, (r < length mbs)%nat -> alphaDBegin d r = Ok (sumnat (firstn r (map nrDof mbs)))) /\
  (forall c, (c < length uni + length bi)%nat ->
     lambdaBeginAt d c = Ok (sumnat (map nrDof mbs) +
                             sumnat (firstn c (map uniLambdaCount uni ++ map biLambdaCount bi)))%nat).
Proof. exact layout_begin_lemma. Qed.
Print Assumptions C01_layout_order.

(** mobileRobotIndex lists, in order, the robots that have degrees of freedom. *)
Theorem C01_layout_mobile : forall mbs uni bi d deps,
  nrVarsData mbs uni bi = Ok (d, deps) ->
  StronglySorted lt (sdMobile d) /\
  forall r, In r (sdMobile d) <-> exists mb, nth_error mbs r = Some mb /\ (0 < nrDof mb)%nat.
Proof. exact layout_mobile_lemma. Qed.
Print Assumptions C01_layout_mobile.

Example C01_example :
  match exData with
  | Ok (d, _) => sdNrVars d = 15%nat /\ alphaDBegin d 2 = Ok 5%nat /\ lambdaBeginAt d 1 = Ok 12%nat /\ sdMobile d = [0; 2]%nat
  | _ => False
  end.
Proof. vm_compute. auto. Qed.

(** ** C02 *)
Theorem C02_result_accessors : forall mbs uni bi d deps (x : vec R),
  nrVarsData mbs uni bi = Ok (d, deps) -> vlen x = sdNrVars d ->
  exists ra rl a l,
    length ra = length mbs /\ length rl = (length uni + length bi)%nat /\
    (forall r w, nth_error ra r = Some w -> alphaDVecAt d x r = Ok w) /\
    (forall c w, nth_error rl c = Some w -> lambdaVecAt d x c = Ok w) /\
    alphaDVec d x = Ok a /\ lambdaVec d x = Ok l /\
    vlist a = concat (map vlist ra) /\ vlist l = concat (map vlist rl) /\
    vlist x = vlist a ++ vlist l.
Proof. exact accessors_lemma. Qed.
Print Assumptions C02_result_accessors.

Example C02_example : exists d deps w,
  exData = Ok (d, deps) /\ alphaDVecAt d (mkVec 15 INR) 2 = Ok w /\ vlist w = [INR 5].
Proof.
  eexists _, _, _. split; [reflexivity|]. split; [reflexivity|]. reflexivity.
Qed.

(** ** C03 *)
Theorem C03_contact_lambda_position : forall mbs uni bi d deps cid,
  nrVarsData mbs uni bi = Ok (d, deps) ->
  (contactLambdaPosition d cid = Ok (-1)%Z <-> ~ In cid (contactIds uni bi)) /\
  (In cid (contactIds uni bi) ->
   exists c p, nth_error (contactIds uni bi) c = Some cid /\
     ~ In cid (firstn c (contactIds uni bi)) /\
     contactLambdaPosition d cid = Ok (Z.of_nat p) /\
     lambdaBeginAt d c = Ok (lambdaBegin d + p)%nat).
Proof. exact position_lemma. Qed.
Print Assumptions C03_contact_lambda_position.

Example C03_example :
  match exData with
  | Ok (d, _) => contactLambdaPosition d (exId 1) = Ok 6%Z /\ contactLambdaPosition d (exId 2) = Ok (-1)%Z
  | _ => False
  end.
Proof. vm_compute. auto. Qed.

(** ** C67 *)
(** The dependencies handed to the back end are exactly the mimic relations of the robots, placed
    in the segment of their robot; replicas are distinct, in range, and never leaders. *)
Theorem C67_mimic_dependencies : forall mbs uni bi d deps,
  Forall wfMimic mbs -> nrVarsData mbs uni bi = Ok (d, deps) ->
  (forall l rp m, In (l, rp, m) deps <->
     exists r mb il ir b, nth_error mbs r = Some mb /\ alphaDBegin d r = Ok b /\
       mimicOf mb il ir m /\ l = (b + dofBefore mb il)%nat /\ rp = (b + dofBefore mb ir)%nat) /\
  NoDup (map (fun x => snd (fst x)) deps) /\
  (forall l rp m, In (l, rp, m) deps ->
     (l < sdTotalAlphaD d)%nat /\ (rp < sdTotalAlphaD d)%nat /\ ~ In l (map (fun x => snd (fst x)) deps)).
Proof. exact layout_deps_lemma. Qed.
Print Assumptions C67_mimic_dependencies.

Example C67_example :
  Forall wfMimic [exMb1; exMbFix; exMb2] /\
  exists d, exData = Ok (d, [(0%nat, 1%nat, -2)]).
Proof.
  split; [|eexists; reflexivity].
  assert (N : forall x y z t : string, x <> y -> x <> z -> x <> t -> y <> z -> y <> t -> z <> t -> NoDup [x; y; z; t]).
  { intros. repeat constructor; simpl; intuition congruence. }
  constructor; [|constructor; [|constructor; [|constructor]]].
  - split; [apply N; discriminate|]. intros j nm m Hin Hm. simpl in Hin.
    destruct Hin as [<-|[<-|[<-|[<-|[]]]]]; simpl in *; try discriminate. inversion Hm; subst.
    split; [lia|]. eexists. split; [left; reflexivity|]. simpl. auto.
  - split; [repeat constructor; simpl; tauto|]. intros j nm m Hin Hm. simpl in Hin.
    destruct Hin as [<-|[]]; discriminate.
  - split; [repeat constructor; simpl; tauto|]. intros j nm m Hin Hm. simpl in Hin.
    destruct Hin as [<-|[]]; discriminate.
Qed.
