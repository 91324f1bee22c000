# Formal model of jrl-umi3218/Tasks

## Approach

Everything is plain Coq 8.16.1 with the standard library only. The C++ is read as text and
transcribed function by function into total Gallina functions. Properties are proved for all inputs,
sizes and histories.

* **Numbers.** `double` is idealised as Coq's real numbers `R`. Bounds that may be infinite use the
  type `ext` (minus infinity / finite / plus infinity). Rounding, overflow and NaN are not modelled.
  `int`, `size_t` are `nat` or `Z`, unbounded.
* **Vectors and matrices.** A dynamic Eigen matrix is a record of its dimensions and an entry
  function. `block`, `segment`, `col` accesses check their range: out of range is the outcome `UB`.
* **Outcomes.** `res A := Ok a | UB | Throw`. `UB` stands for a C++ precondition violation (out of
  range access, `erase(end())`, Eigen dimension mismatch), `Throw` for a C++ exception.
* **State.** Every stateful class is a record; each method is a function from the record to the new
  record. Histories are lists of operations folded over the record.
* **External calls.** RBDyn (Jacobians, forward dynamics, forward kinematics), sch-core (distances)
  and the numerical solvers (eigen-qld, eigen-lssol) are arguments of the model functions. Where a
  theorem assumes something of them (e.g. "the back end returns an optimum when it says success")
  it is a visible hypothesis of that theorem.

## Layout of the Coq development (rocq/theories)

| file | content |
|---|---|
| `Base.v` | outcome monad, finite sums, vectors, matrices, extended reals |
| `*Model.v` | transcription of the code, one file per source area, citing file:lines |
| `*Spec.v` | independent specification vocabulary used in the statements |
| `*Proofs.v`, `*Facts.v`, `*Limits.v`, `*Loop.v`, `*Witness.v` | lemmas and concrete witnesses |
| `Prop*.v` | the property theorems only, each closed by `exact`, with `Print Assumptions` and examples |

## Trusted base

* Coq's kernel (8.16.1), and `coqchk` for the compiled files.
* The axioms listed by `Print Assumptions` under each theorem, collected in `ASSUMPTIONS.md`: only
  `ClassicalDedekindReals.sig_forall_dec` and `sig_not_dec` (real numbers),
  `FunctionalExtensionality.functional_extensionality_dep` and `Classical_Prop.classic`, all from the
  standard library. No axiom is added here.
* The transcription of the C++ into Gallina. It was made by hand; each definition cites its lines.

Modelled code, by file:

| source | modelled | not modelled |
|---|---|---|
| `QPSolver.cpp/.h`, `QPSolverData.h` | registries, `nrVars`, sizes, `solve`, `postUpdate`, result accessors, `contactLambdaPosition`, `addToSolver`/`removeFromSolver` | timers, `const` accessors without computation |
| `GenQPUtils.h`, `QLDQPSolver.cpp`, `LSSOLQPSolver.cpp`, `GenQPSolver.cpp` | all fill and reduction functions, `updateSize`, `updateMatrix`, error messages | the numerical solvers themselves (arguments) |
| `QPContacts.cpp` | ids, friction cones, contacts, forces and torque sums, exceptions | stream output |
| `QPContactConstr.cpp/.h` | registries, `updateNrVars`, `update` of the three contact constraints, descriptions | none of the update logic; Jacobians and normal accelerations are inputs |
| `QPMotionConstr.cpp/.h` | `PositiveLambda`, `MotionConstrCommon`, `MotionConstr`, `MotionSpringConstr`, `MotionPolyConstr` | forward dynamics (H, C are inputs) |
| `QPConstr.cpp/.h` | `JointLimitsConstr`, `DamperJointLimitsConstr`, `CollisionConstr`, `CoMIncPlaneConstr`, `GripperTorqueConstr`, `BoundedSpeedConstr`, `ImageConstr` | NaN and infinities produced by 0/0 or 0*inf (rendered `UB`); the cache of sch::CD_Pair |
| `QPTasks.cpp/.h` | `SetPointTaskCommon`, `SetPointTask`, `TrackingTask`, `TrajectoryTask`, `PIDTask`, `TargetObjectiveTask`, `JointsSelector`, `PostureTask` (with `Tasks.cpp` `PostureTask`), `TorqueTask`, `ContactTask`, `GripperTorqueTask`, `MultiCoMTask`, `MultiRobotTransformTask` | what the wrapped `HighLevelTask` computes (an arbitrary argument); int overflow of the number of periods |
| `Tasks.cpp/.h` | `CoMTask`, `MultiCoMTask`, `MomentumTask`, `PostureTask`, `PositionTask`, `OrientationTask`, `SurfaceOrientationTask`, `TransformTask`, `SurfaceTransformTask`, `MultiRobotTransformTask`, `LinVelocityTask`, `RelativeDistTask`, `VectorOrientationTask`, `GazeTask`, `PositionBasedVisServoTask`, `OrientationTrackingTask`: constructor, setters, `update` (both overloads: they differ in where the normal acceleration comes from, C137) and `updateDot` | `updateDot` of `PostureTask` is empty; `jacDotMat_` of `GazeTask` and `PositionBasedVisServoTask` is never written |
| `QPSolverData.cpp` | `computeNormalAccB` and the resizing of `normalAccB_` in `nrVars` | none |

External functions and what is assumed of them:

* `rbd::Jacobian::bodyJacobian`, `jacobian`: the columns are an arbitrary function of the path; their number is the sum
  of the degrees of freedom along the path. `fullJacobian` and `translateBodyJacobian` are modelled (RBDyn documentation).
* Kinematic tasks: what one body offers is a record `bodyKin` (pose, velocity, normal acceleration, Jacobian columns at the
  body origin). `rbd::Jacobian::jacobian`, `bodyJacobian`, `velocity`, `bodyVelocity`, `normalAcceleration`,
  `bodyNormalAcceleration` at a point of the body are transcribed from RBDyn's documentation as translations and rotations of that
  record. `sva::rotationVelocity` is an arbitrary function, except in C103 and C119, where `isLog` says it is the logarithm for
  angles below pi (`rvLog` is one). `sva::rotationError`, `transformError`, `transformVelocity` are transcribed from sva.
* A motion (`movesAt`) is a pose whose derivative is the body velocity, which is the Jacobian times alpha and whose derivative is the
  Jacobian times alphaD plus the normal acceleration. C64 derives it from the kinematics of a tree (`robotMoves`: each
  joint moves its body by its motion subspace, which is constant in the frame of the body).
* `rbd::ForwardDynamics`: `H` and `C` are arbitrary.
* `sch::CD_Pair`: squared distance and closest points are arbitrary functions of the transformations of the two hulls.
* `sva::rotationError` of a spherical joint in `PostureTask`: an arbitrary function of the joint and the target quaternion.
* `rbd::imagePointJacobian`, `depthDotJacobian`, `imagePointJacobianDot`: arbitrary functions of their arguments. C113–C115 assume that the first and the last are the interaction
  matrix of an image point and its derivative (`usesInteraction`); `depthDotJacobian` stays arbitrary.
* `rbd::getAngleAxis`, `poseJacobian`, `getSkewSym`: arbitrary; C116, C117 assume that `poseJacobian` is block diagonal with the transposed rotation as linear block (`usesPose`),
  and the refutation of C117 that `getSkewSym` is the matrix of the cross product.
* `rbd::CoMJacobian`, `rbd::computeCoM`: modelled in `ComModel` by what they compute (coefficients, velocity, normal acceleration, Jacobian as sums over the bodies).
* `rbd::Jacobian::bodyJacobianDot`, `jacobianDot`, `normalAcceleration(mb, mbc)`, `CoMJacobian::jacobianDot`, `CentroidalMomentumMatrix::computeMatrixDot`: modelled in `DotModel` by what they compute.
* `rbd::CentroidalMomentumMatrix`, `computeCentroidalMomentum`, `computeCoMVelocity`, `sva::RBInertia`, `transMul`, `crossDual`: modelled in `MomModel` by what they compute. C125 ties them to particles.
* `Eigen::Quaterniond::FromTwoVectors`: arbitrary; C119 assumes that it is the rotation by the angle between the vectors about their common normal (`isTurn`), for vectors that are not opposite. The content of a fresh Eigen matrix (`jacDotMat_`) is an argument of the model.
* `rbd::paramToVector` copies the nested list in order. `Eigen::poly_eval` is the value of the polynomial.
* `sva` spatial algebra (`PTransform`, `MotionVec`, `ForceVec`) is modelled with 3-vectors and 3x3 matrices.
* Spatial inputs that must be rigid motions are so by visible hypotheses (`rigid`).

## Plan per property

| id | model | proof |
|---|---|---|
| C01 | `nrVars` loops over robots and contacts producing the `SolverData` record | induction on the lists, prefix sums |
| C02 | `segment`/`head` on lists with range check | segments of consecutive ranges concatenate |
| C03 | loop with early return over `allCont_` | induction, relation with prefix sums of C01 |
| C04 | registry lists, history fold | refinement to an abstract "last operation" spec |
| C05 | `ConstraintFunction<Fun...>` with a list of kinds, erase(find) with UB | invariant over histories |
| C06 | same | refuted with witness |
| C07 | allocation sizes in the state, fill loops with range checks | invariant: sum of maxima |
| C08 | same | refuted with witness |
| C09, C10 | fill loops of GenQPUtils.h | induction on the constraint list, row lookup lemma |
| C11, C12 | `fillBound` | induction; refuted for overlaps |
| C13, C14 | `fillQC` | algebra on finite sums; PSD by sums |
| C15, C16, C17, C18 | `setDependencies` loop, `reduce*`, `expandResult` | invariant of the loop, algebra; C17, C18 refuted beyond their guards |
| C19 | `QPSolver::solver(name)` | refuted with witness |
| C20, C21 | `solve`, `postUpdate` with the numerical back end as an argument | composition of C09–C16 |
| C22, C23 | `constrErrorMsg`, `findJointFromVector` | induction; C23 refuted (off by one) |
| C24–C26 | `ContactId`, `std::set`/`std::map` semantics | order laws, sorted-insertion lemma, histories |
| C27–C30 | friction cones with rotation formula, contact forces | real geometry (Cauchy–Schwarz, Rodrigues) |
| C31–C33 | ContactConstr rows | row algebra; C33 refuted |
| C34–C38, C71, C72 | PositiveLambda, Motion constraints | row algebra over call histories; C37 refuted for self contacts, C72 for several robots |
| C39–C43, C73 | joint limits and dampers | real inequalities, closed-loop invariants; C39 refuted for floating bases, C43, C73 refuted |
| C44–C48, C74, C75 | collision constraint | list filtering, invariant over histories, trajectory invariant; C45 refuted for the first update, C48, C74, C75 refuted |
| C49, C76–C78 | CoM plane | as C44/C45; C49 refuted on the boundary, C78 refuted |
| C50, C51, C79 | gripper torque | absolute value inequality; C51 refuted |
| C52, C53, C80 | bounded speed | row algebra, histories; C80 refuted |
| C54, C81–C85 | image constraint | row algebra, histories, trajectory invariant; C54, C81, C84 refuted, C82 refuted for occlusion |
| C55–C58, C86, C87 | set-point family, PID, target objective | least-squares algebra, ODE solution by derivation, exact discrete loop; C57, C87 refuted, C58 refuted for one or two periods |
| C59, C88, C89 | joint selector | columns through sort and copy loop; definedness by induction over names; C88, C89 refuted |
| C60, C90-C93 | posture task | members after any history, gradient per joint, then the diagonal least-squares form; C93 from the closed form of the critically damped equation; C90-C92 refuted |
| C94-C96 | torque task | `computeMatrix` rows of C35/C37, least-squares algebra; C95 refuted for self contacts |
| C63, C97-C99 | ContactTask, GripperTorqueTask | contact loop against the prefix sums of C01, least-squares algebra; C98, C99 refuted |
| C61, C62, C100 | MultiCoMTask, MultiRobotTransformTask; weights and error of tasks::MultiCoMTask | block assignment against the layout of C01, least-squares algebra; C62 refuted |
| C64, C101 | `computeNormalAccB`, `normalAccB_` over histories | induction over the joint order, product rule; C101 refuted |
| C65, C66, C102, C104–C107 | kinematic tasks of `Tasks.cpp` | derivatives of vector expressions along a motion, algebra; C66 refuted |
| C103 | the same with the logarithm | axis-angle formulas, derivative; refuted off the axis of the error |
| C112 | set-point task over PositionTask, TransformTask in closed loop | C56 joined with C65, C66, C104 |
| C113–C117 | GazeTask, PositionBasedVisServoTask, features of ImageConstr | derivatives of projection and interaction matrix; C114, C115, C117 refuted |
| C118–C120 | OrientationTrackingTask | joint blocks of the path, rotation between two unit vectors; C119, C120 refuted |
| C121–C123 | CoMTask, MultiCoMTask | sums over bodies and robots; C122 refuted |
| C124–C126 | MomentumTask | rate of the momentum about the moving centre of mass; particles; first-order decay |
| C127–C129 | whole control cycles: constraint update, `solve`, write-back, integration or `computeTorque` | C20, C21 joined with C39–C41, C35–C37 by induction over the cycles |
| C130–C133 | contact frames along motions: rates, velocity kept or decaying, frames staying together, energies of the position feedback | C31 joined with the motions of C64; Euler's theorem on rotations; derivative of the squared angle; a continuity argument for the half turn |
| C134–C136 | `updateDot` of the tasks of `Tasks.cpp` | derivatives of the Jacobian columns along a motion, derived for trees; C136 refuted |
| C137 | the two `update` overloads | induction along the path of a body |
| C138 | GazeTask over histories, fed with image points | difference of two interaction matrices |
| C139 | contact, PositiveLambda and motion constraints in one solver, over cycles | C20, C31, C34 and C35 joined; friction cones are convex |
| C140 | the solver called at every instant with a contact constraint | C20 gives the hypothesis of C131 to C133 |
| C141 | tasks that can be achieved together are achieved | C20 against a common minimiser; refuted for weights below the regularisation threshold |
| C142 | convergence with the solver in the loop | C141 gives the closed loop of C56 and C112 |
| C143 | the result is determined by what is registered | the objective and the feasible set do not depend on the order; means of optimal points; refuted without strict convexity |
| C144 | only ratios of weights matter, weight zero has no effect | scaling of the objective; refuted below the threshold |
| C145 | the posture task in control cycles that hold the accelerations | C141 at every cycle gives a second-order recurrence, solved by its real roots; refuted for sqrt(k) dt above the limit |
| C146 | energy of conflicting tasks | stationarity of the solver's objective along the motion, whose terms are the rates of the energies of the tasks |
| C147 | VectorOrientationTask in closed loop | first-order condition on the sphere, Lyapunov function energy - eps (target . velocity); refuted at the opposite direction |
| C148 | OrientationTask and SurfaceOrientationTask in closed loop | energy below that of a half turn bounds the angle (continuity argument); Lyapunov function energy - eps (sine vector . velocity), sin x / x decreasing |
| C149 | printing the error message | multiplication of a row by a shorter vector is UB; width of the reduced problem; refuted with mimic joints, positive without |
| C150 | bound named by the error message | exact description of the printed bounds; refuted with a mimic joint before an independent one |
| C151 | TransformTask in closed loop, whole pose | world angular velocity from the speed of the task in E_0_c, then the argument of C148; translation by C112 turned back to the world |
| C152 | SurfaceTransformTask in closed loop | the law of the task solved for the angular acceleration ((I - [e]) is inverted); energy argument with a resistance that dissipates below a level; PI^2 < 10 for the critical damping |
| C108–C111, C153 | RelativeDistTask | derivative of the norm, histories; C109, C110 refuted; backward difference from the second update on (C109_later, C109_vanishes) |

Properties that turn out false of the faithful model are kept as stated and answered by a theorem
whose name ends in `_refuted`, together with what is true under an explicit guard.
