(** Model of /repo/src/QPContacts.cpp and /repo/src/Tasks/QPContacts.h. *)
From Coq Require Export String.
From Verif Require Export Vec3.
Open Scope list_scope.
Notation "a <? b" := (String.ltb a b) : string_scope.

(* ------------------------------------------------------------------ *)
(** * ContactId *)

(** struct ContactId, Tasks/QPContacts.h:49-74. *)
Record contactId := mkCId {
  r1Index : Z; r2Index : Z; r1Body : string; r2Body : string; ambId : Z }.

(** ContactId::operator==, QPContacts.cpp:63-67. *)
Definition cid_eqb (a b : contactId) : bool :=
  Z.eqb (r1Index a) (r1Index b) && Z.eqb (r2Index a) (r2Index b) &&
  String.eqb (r1Body a) (r1Body b) && String.eqb (r2Body a) (r2Body b) &&
  Z.eqb (ambId a) (ambId b).

(** ContactId::operator!=, QPContacts.cpp:69-70. *)
Definition cid_neqb (a b : contactId) : bool := negb (cid_eqb a b).

(** ContactId::operator<, QPContacts.cpp:72-80. std::string's operator< compares bytes as
    unsigned characters, as [String.ltb] does. *)
Definition cid_ltb (a b : contactId) : bool :=
  Z.ltb (r1Index a) (r1Index b)
  || (Z.eqb (r1Index a) (r1Index b) && String.ltb (r1Body a) (r1Body b))
  || (Z.eqb (r1Index a) (r1Index b) && String.eqb (r1Body a) (r1Body b) && Z.ltb (r2Index a) (r2Index b))
  || (Z.eqb (r1Index a) (r1Index b) && String.eqb (r1Body a) (r1Body b) && Z.eqb (r2Index a) (r2Index b)
      && String.ltb (r2Body a) (r2Body b))
  || (Z.eqb (r1Index a) (r1Index b) && String.eqb (r1Body a) (r1Body b) && Z.eqb (r2Index a) (r2Index b)
      && String.eqb (r2Body a) (r2Body b) && Z.ltb (ambId a) (ambId b)).

(* ------------------------------------------------------------------ *)
(** * FrictionCone *)

(** struct FrictionCone, Tasks/QPContacts.h:29-44. *)
Record cone := mkCone { generators : list V3 }.

(** FrictionCone::FrictionCone(frame, nrGen, mu, dir), QPContacts.cpp:40-50.
    [nrGen] is a natural number (a negative size makes the vector constructor throw). *)
Definition mkFrictionCone (frame : M3) (nrGen : nat) (mu dir : R) : cone :=
  let normal := row2 frame in
  let tan := vsc dir (row0 frame) in
  let angle := atan mu in
  let gen := rotate angle tan normal in
  let step := (PI * 2) / INR nrGen in
  mkCone (map (fun i => rotate (dir * step * INR i) normal gen) (seq 0 nrGen)).

(* ------------------------------------------------------------------ *)
(** * Contacts *)

(** struct UnilateralContact, Tasks/QPContacts.h:80-210 (all fields are public). *)
Record unilateral := mkUni {
  uId : contactId; uR1Points : list V3; uR2Points : list V3;
  uR1Cone : cone; uR2Cone : cone; uXbb : PT; uXcf : PT }.

(** struct BilateralContact, Tasks/QPContacts.h:216-351. *)
Record bilateral := mkBi {
  bId : contactId; bR1Points : list V3; bR2Points : list V3;
  bR1Cones : list cone; bR2Cones : list cone; bXbb : PT; bXcf : PT }.

(** UnilateralContact constructor and construct(), QPContacts.cpp:115-124 and 230-243. *)
Definition newUnilateral (cid : contactId) (r1P : list V3) (r1Frame : M3) (Xbb : PT)
    (nrGen : nat) (mu : R) (Xcf : PT) : unilateral :=
  let r2Points := map (fun p => ptr (pt_mul (pt_trans p) (pt_inv Xbb))) r1P in
  let r2Frame := ptE (pt_mul (pt_rot r1Frame) (pt_inv Xbb)) in
  mkUni cid r1P r2Points (mkFrictionCone r1Frame nrGen mu 1)
        (mkFrictionCone (m3neg r2Frame) nrGen mu (-1)) Xbb Xcf.

(** BilateralContact constructor and construct(), QPContacts.cpp:278-287 and 401-420.
    The assert on the sizes (line 403) is the guard. *)
Definition newBilateral (cid : contactId) (r1P : list V3) (r1Frames : list M3) (Xbb : PT)
    (nrGen : nat) (mu : R) (Xcf : PT) : res bilateral :=
  if Nat.eqb (length r1P) (length r1Frames) then
    let X_b2_p pf := pt_mul (mkPT (snd pf) (fst pf)) (pt_inv Xbb) in
    let pfs := combine r1P r1Frames in
    Ok (mkBi cid r1P (map (fun pf => ptr (X_b2_p pf)) pfs)
          (map (fun pf => mkFrictionCone (snd pf) nrGen mu 1) pfs)
          (map (fun pf => mkFrictionCone (m3neg (ptE (X_b2_p pf))) nrGen mu (-1)) pfs)
          Xbb Xcf)
  else UB.

(** BilateralContact(const UnilateralContact &), QPContacts.cpp:289-293. *)
Definition biOfUni (c : unilateral) : bilateral :=
  mkBi (uId c) (uR1Points c) (uR2Points c)
       (repeat (uR1Cone c) (length (uR1Points c))) (repeat (uR2Cone c) (length (uR1Points c)))
       (uXbb c) (uXcf c).

(** UnilateralContact::nrLambda(int), QPContacts.cpp:170-171: the point index is ignored. *)
Definition uNrLambdaAt (c : unilateral) (_ : nat) : nat := length (generators (uR1Cone c)).

(** Loop "for i in 0..n: total += nrLambda(i)". *)
Fixpoint sumLambda (nrAt : nat -> res nat) (i n : nat) : res nat :=
  match n with
  | O => Ok 0%nat
  | S k => do a <- nrAt i; do b <- sumLambda nrAt (S i) k; Ok (a + b)%nat
  end.

(** UnilateralContact::nrLambda(), QPContacts.cpp:173-178. *)
Definition uNrLambda (c : unilateral) : res nat :=
  sumLambda (fun i => Ok (uNrLambdaAt c i)) 0 (length (uR1Points c)).

(** BilateralContact::nrLambda(int), QPContacts.cpp:339-340: r1Cones[point]. *)
Definition bNrLambdaAt (c : bilateral) (p : nat) : res nat :=
  do k <- vec_at (bR1Cones c) p; Ok (length (generators k)).

(** BilateralContact::nrLambda(), QPContacts.cpp:342-347. *)
Definition bNrLambda (c : bilateral) : res nat :=
  sumLambda (bNrLambdaAt c) 0 (length (bR1Points c)).

(** Loop body of both force(lambda, point, cone), QPContacts.cpp:130-134 and 299-303:
    lambda(i) must be in range. *)
Fixpoint forceGens (gens : list V3) (lam : vec R) (i : nat) (F : V3) : res V3 :=
  match gens with
  | [] => Ok F
  | g :: gs => if (i <? vlen lam)%nat
               then forceGens gs lam (S i) (vadd F (vsc (vget lam i) g))
               else UB
  end.

(** UnilateralContact::force(lambda, point, cone), QPContacts.cpp:126-135. *)
Definition uForceAt (lam : vec R) (k : cone) : res V3 := forceGens (generators k) lam 0 v0.
(** BilateralContact::force(lambda, point, cones), QPContacts.cpp:295-304. *)
Definition bForceAt (lam : vec R) (p : nat) (cones : list cone) : res V3 :=
  do k <- vec_at cones p; forceGens (generators k) lam 0 v0.

(** Loop of force(lambda, cone): one segment of lambda per point,
    QPContacts.cpp:137-149 (unilateral) and 306-318 (bilateral). *)
Fixpoint forceLoop (nrAt : nat -> res nat) (forceAt : vec R -> nat -> res V3)
    (lam : vec R) (i n pos : nat) (F : V3) : res V3 :=
  match n with
  | O => Ok F
  | S k => do a <- nrAt i;
           do s <- vseg lam pos a;
           do f <- forceAt s i;
           forceLoop nrAt forceAt lam (S i) k (pos + a)%nat (vadd F f)
  end.
Definition uForce (c : unilateral) (lam : vec R) (k : cone) : res V3 :=
  forceLoop (fun i => Ok (uNrLambdaAt c i)) (fun s _ => uForceAt s k) lam 0 (length (uR1Points c)) 0 v0.
Definition bForce (c : bilateral) (lam : vec R) (cones : list cone) : res V3 :=
  forceLoop (bNrLambdaAt c) (fun s i => bForceAt s i cones) lam 0 (length (bR1Points c)) 0 v0.

(** Loop of the wrench version force(lambda, points, cone): over the given points,
    QPContacts.cpp:151-168 and 320-337. *)
Fixpoint wrenchLoop (nrAt : nat -> res nat) (forceAt : vec R -> nat -> res V3)
    (lam : vec R) (pts : list V3) (i pos : nat) (F : Spatial) : res Spatial :=
  match pts with
  | [] => Ok F
  | p :: ps => do a <- nrAt i;
               do s <- vseg lam pos a;
               do f <- forceAt s i;
               wrenchLoop nrAt forceAt lam ps (S i) (pos + a)%nat
                 (sp_add F (pt_transMul (pt_trans p) (mkSp v0 f)))
  end.
Definition uWrench (c : unilateral) (lam : vec R) (pts : list V3) (k : cone) : res Spatial :=
  wrenchLoop (fun i => Ok (uNrLambdaAt c i)) (fun s _ => uForceAt s k) lam pts 0 0 sp0.
Definition bWrench (c : bilateral) (lam : vec R) (pts : list V3) (cones : list cone) : res Spatial :=
  wrenchLoop (bNrLambdaAt c) (fun s i => bForceAt s i cones) lam pts 0 0 sp0.

(** checkRange(point, points), QPContacts.cpp:26-34; [point] is a C++ int. *)
Definition checkRange (point : Z) (points : list V3) : res unit :=
  if (Z.ltb point 0 || Z.leb (Z.of_nat (length points)) point)%bool then Throw else Ok tt.

(** sForce(lambda, point, cone), QPContacts.cpp:180-192. *)
Definition uSForceAt (c : unilateral) (lam : vec R) (point : Z) (k : cone) : res V3 :=
  do _ <- checkRange point (uR1Points c);
  if negb (Nat.eqb (vlen lam) (uNrLambdaAt c (Z.to_nat point))) then Throw else uForceAt lam k.
(** sForce(lambda, cone), QPContacts.cpp:194-206. *)
Definition uSForce (c : unilateral) (lam : vec R) (k : cone) : res V3 :=
  do t <- uNrLambda c;
  if negb (Nat.eqb (vlen lam) t) then Throw else uForce c lam k.
(** sForce(lambda, points, cone), QPContacts.cpp:208-222. *)
Definition uSWrench (c : unilateral) (lam : vec R) (pts : list V3) (k : cone) : res Spatial :=
  do t <- uNrLambda c;
  if negb (Nat.eqb (vlen lam) t) then Throw else uWrench c lam pts k.
(** sNrLambda(point), QPContacts.cpp:224-228. *)
Definition uSNrLambda (c : unilateral) (point : Z) : res nat :=
  do _ <- checkRange point (uR1Points c); Ok (uNrLambdaAt c (Z.to_nat point)).

(** Bilateral versions, QPContacts.cpp:349-399. *)
Definition bSForceAt (c : bilateral) (lam : vec R) (point : Z) (cones : list cone) : res V3 :=
  do _ <- checkRange point (bR1Points c);
  do a <- bNrLambdaAt c (Z.to_nat point);
  if negb (Nat.eqb (vlen lam) a) then Throw else bForceAt lam (Z.to_nat point) cones.
Definition bSForce (c : bilateral) (lam : vec R) (cones : list cone) : res V3 :=
  do t <- bNrLambda c;
  if negb (Nat.eqb (vlen lam) t) then Throw else bForce c lam cones.
Definition bSWrench (c : bilateral) (lam : vec R) (pts : list V3) (cones : list cone) : res Spatial :=
  do t <- bNrLambda c;
  if negb (Nat.eqb (vlen lam) t) then Throw else bWrench c lam pts cones.
Definition bSNrLambda (c : bilateral) (point : Z) : res nat :=
  do _ <- checkRange point (bR1Points c); bNrLambdaAt c (Z.to_nat point).
