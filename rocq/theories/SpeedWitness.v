(** Concrete speed bounds, and a removed bound that still restricts. *)
From Verif Require Import ContactFacts.
From Verif Require Export SpeedFacts.
From Verif Require Export ContactFacts.
Open Scope string_scope.
Open Scope list_scope.
Open Scope R_scope.

(** The speed of the hand along x stays between 0 and 1; the speed of the foot along x and y is 2 and -1. *)
Definition sHand : speedSpec := mkSpd "hand" v0 (mkMat 1 6 (fun _ q => if Nat.eqb q 3 then 1 else 0)) (mkVec 1 (fun _ => 0)) (mkVec 1 (fun _ => 1)).
Definition sFoot : speedSpec := fixedSpeed "foot" (mkV3 1 0 0) (mkMat 2 6 (fun i q => if Nat.eqb q (3 + i) then 1 else 0)) (mkVec 2 (fun i => if Nat.eqb i 0 then 2 else - 1)).
Definition sK : bkin := mkBK (fun p _ q c => if Nat.eqb q 3 then 1 else if Nat.eqb q 4 then - 1 else 0) (fun p _ q => if Nat.eqb q 3 then 1 / 2 else 0) (fun _ _ _ => 0).
Lemma sOk_hand : speedOk sHand. Proof. repeat split. Qed.
Lemma sOk_foot : speedOk sFoot. Proof. repeat split. Qed.
Lemma wBodyNames : endsAt wNames.
Proof.
  intros r b p. cbn. destruct r as [|[|r]]; [| |discriminate].
  - destruct (String.eqb_spec b "foot") as [->|N]; [intros H; injection H as <-; reflexivity|]. destruct (String.eqb_spec b "hand") as [->|N2]; [intros H; injection H as <-; reflexivity|discriminate].
  - destruct (String.eqb_spec b "box") as [->|N]; [intros H; injection H as <-; reflexivity|discriminate].
Qed.
Definition sOps : list sOp := [SAdd sHand; SNr wData; SAdd sFoot; SSizes].
Lemma sSized_ops : sSized wData sOps.
Proof. exists [SAdd sHand], [SAdd sFoot; SSizes], []. split; [reflexivity|]. split; [repeat constructor|]. split; [constructor|]. right. exists [SAdd sFoot]. reflexivity. Qed.
Lemma sReach : exists c, sReaches wNames wMbs 0 wData 1 sOps c.
Proof.
  assert (X : exists c0 c, newSpeed wMbs 0 1 = Ok c0 /\ sRun wNames wMbs c0 sOps = Ok c) by (do 2 eexists; split; reflexivity).
  destruct X as (c0 & c & H0 & H). exists c. split; [exists [], wBi, wDeps; apply wData_eq|]. split; [apply wPaths|]. split; [exists c0; auto|apply sSized_ops].
Qed.
Lemma sReach1 : exists c0 c, newSpeed wMbs 0 1 = Ok c0 /\ sRun wNames wMbs c0 [SAdd sHand; SNr wData] = Ok c /\ sReaches wNames wMbs 0 wData 1 [SAdd sHand; SNr wData] c.
Proof.
  assert (X : exists c0 c, newSpeed wMbs 0 1 = Ok c0 /\ sRun wNames wMbs c0 [SAdd sHand; SNr wData] = Ok c) by (do 2 eexists; split; reflexivity).
  destruct X as (c0 & c & H0 & H). exists c0, c. split; [exact H0|]. split; [exact H|]. split; [exists [], wBi, wDeps; apply wData_eq|]. split; [apply wPaths|]. split; [exists c0; auto|].
  exists [SAdd sHand], [], []. repeat split; auto; constructor.
Qed.
(** The speed of the hand along x after one step. *)
Lemma sNext x : selected (spDof sHand) 0 (nextVel wNames wMbs 0 wData 1 sHand sK x) = 1 / 2 + (x 0%nat + x 1%nat).
Proof. unfold selected, nextVel, SpeedSpec.bodyAcc, jacDot, sumn. cbn. lra. Qed.
Lemma sNextFoot x k : (k < 2)%nat -> selected (spDof sFoot) k (nextVel wNames wMbs 0 wData 1 sFoot sK x) = if Nat.eqb k 0 then 1 / 2 + x 0%nat else - x 0%nat.
Proof. intros H. destruct k as [|[|k]]; [| |lia]; unfold selected, nextVel, SpeedSpec.bodyAcc, jacDot, sumn; cbn; lra. Qed.

Lemma stale_speed_lemma : exists nm mbs r d step ops c0 c K c' x, (exists uni bi deps, nrVarsData mbs uni bi = Ok (d, deps)) /\ pathsOk nm mbs /\ 0 < step /\
  newSpeed mbs r step = Ok c0 /\ sRun nm mbs c0 ops = Ok c /\ In (SNr d) ops /\ speedsAfter ops = [] /\ speedUpdate mbs K c = Ok c' /\ ~ holdsGen (sdNrVars d) x (speedGen c').
Proof.
  destruct sReach1 as (c0 & c & H0 & H & HR).
  destruct (speed_rows wNames wMbs 0 wData 1 _ c sK HR ltac:(repeat constructor) ltac:(lra)) as (c1 & U & N & ROWS).
  assert (E1 : sRun wNames wMbs c0 [SAdd sHand; SNr wData; SUp sK; SRm "hand"] = Ok (with_speeds c1 [])).
  { change [SAdd sHand; SNr wData; SUp sK; SRm "hand"] with ([SAdd sHand; SNr wData] ++ [SUp sK; SRm "hand"]). rewrite sRun_app, H. cbn [bind sRun sStep]. rewrite U. cbn [bind].
    destruct (speed_registry wNames wMbs 0 1 ([SAdd sHand; SNr wData] ++ [SUp sK]) c0 c1 H0) as (_ & D & _); [rewrite sRun_app, H; cbn [bind sRun sStep]; rewrite U; reflexivity|].
    unfold removeSpeed. cbn in D. destruct (scData c1) as [|e [|e2 l]]; try discriminate. injection D as D. cbn [eraseSpeed]. rewrite D. reflexivity. }
  assert (R1 : scRobot c1 = 0%nat) by (apply sUpdate_Ok in U as (mb & _ & RB & _); rewrite RB; destruct (reach_facts _ _ _ _ _ _ _ HR) as (b & mb' & _ & _ & _ & _ & (I1 & _) & _); exact I1).
  exists wNames, wMbs, 0%nat, wData, 1, [SAdd sHand; SNr wData; SUp sK; SRm "hand"], c0, (with_speeds c1 []), sK, (with_speeds c1 []), (fun _ => 5).
  split; [exists [], wBi, wDeps; apply wData_eq|]. split; [apply wPaths|]. split; [lra|]. split; [exact H0|]. split; [exact E1|]. split; [cbn; auto|]. split; [reflexivity|].
  split; [unfold speedUpdate, with_speeds; cbn [scRobot scData scBegin scStep scA scL scU scVars]; rewrite R1; reflexivity|].
  intros F. assert (Q : holdsGenRow (sdNrVars wData) (fun _ => 5) (speedGen c1) 0) by (apply F; cbn [speedGen giNr with_speeds scA]; cbn [speedGen giNr] in N; rewrite N; cbn; lia).
  apply (ROWS 0%nat sHand 0%nat eq_refl) in Q. rewrite sNext in Q. cbn in Q. lra.
Qed.
