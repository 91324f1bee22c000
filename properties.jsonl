{"id": "C01", "title": "Decision variables are partitioned between robots and contacts", "statement": "After QPSolver::nrVars(mbs, uni, bi), the index range [0, data().nrVars()) is the disjoint union, in order, of one segment [alphaDBegin(r), alphaDBegin(r)+alphaD(r)) per robot and one segment [lambdaBegin(c), lambdaBegin(c)+lambda(c)) per contact (unilateral contacts first, then bilateral ones): every variable belongs to exactly one robot or contact, and totalAlphaD/totalLambda/nrUniLambda/nrBiLambda/unilateralBegin/bilateralBegin describe those ranges; mobileRobotIndex lists in order the robots with degrees of freedom.", "quantifier": "all lists of robots (any dof counts, including 0) and all lists of unilateral and bilateral contacts with any number of points and generators", "why_tests_cant": "the number of robots, contacts, points and generators is unbounded; a test fixes a few layouts", "anchors": ["src/QPSolver.cpp: QPSolver::nrVars", "src/Tasks/QPSolverData.h: SolverData accessors"]}
{"id": "C02", "title": "The result accessors recover the full result", "statement": "For every result vector of the announced size, alphaDVec() is the concatenation of alphaDVec(r) over robots, lambdaVec() is the concatenation of lambdaVec(c) over contacts, and result() = alphaDVec() ++ lambdaVec(); none of these reads outside the vector.", "quantifier": "all layouts built by nrVars and all result vectors", "why_tests_cant": "ranges over all layouts and all real vectors", "anchors": ["src/QPSolver.cpp: alphaDVec, lambdaVec, result"]}
{"id": "C03", "title": "contactLambdaPosition points at the contact's own force variables", "statement": "contactLambdaPosition(id) returns -1 exactly when no contact of the last nrVars call has that id; otherwise lambdaBegin() + contactLambdaPosition(id) is lambdaBegin(c) for the first contact c (unilateral first) that carries the id.", "quantifier": "all contact lists and all ids, including duplicated ids", "why_tests_cant": "unbounded number of contacts and ids", "anchors": ["src/QPSolver.cpp: QPSolver::contactLambdaPosition", "src/QPContacts.cpp: BilateralContact(const UnilateralContact &)"]}
{"id": "C04", "title": "Task and constraint lists behave like duplicate-free ordered sets", "statement": "After any sequence of addTask/removeTask/resetTasks (and addConstraint/removeConstraint) calls, each object occurs at most once, it occurs iff the last call naming it (after the last reset) was an add, the list is in the order of first insertion, nrTasks()/nrConstraints() equals the number of distinct live objects, and removing an absent object changes nothing.", "quantifier": "all finite call histories over all objects", "why_tests_cant": "histories are unbounded; tests replay a handful", "anchors": ["src/QPSolver.cpp: addTask, removeTask, resetTasks, addConstraint, removeConstraint, nrTasks, nrConstraints"]}
{"id": "C05", "title": "addToSolver / removeFromSolver keep the constraint lists coherent", "statement": "For every history in which an object is removed only while registered and added only while not registered, the equality, inequality, general-inequality and bound lists hold exactly the registered constraints of that kind, each once and in registration order, and no call is undefined; the object stops influencing the QP once removed.", "quantifier": "all alternating add/remove histories over all mixes of constraint kinds", "why_tests_cant": "unbounded histories and interleavings of objects", "anchors": ["src/Tasks/QPSolver.h: ConstraintFunction::addToSolver, removeFromSolver", "src/QPSolver.cpp: add*/remove*Constraint"]}
{"id": "C06", "title": "Adding twice then removing once fully unregisters a constraint", "statement": "A user who calls addToSolver twice on the same constraint and then removeFromSolver once expects it to be gone (as for tasks), and a second removeFromSolver to be harmless.", "quantifier": "all constraint objects with at least one kind", "why_tests_cant": "idempotence has to hold after every history", "anchors": ["src/Tasks/QPSolver.h: ConstraintFunction", "src/QPSolver.cpp: addEqualityConstraint, removeEqualityConstraint"]}
{"id": "C07", "title": "The QP matrices are never overrun when the size protocol is respected", "statement": "If nrVars and then updateConstrSize have been called after the last change to the registered constraints, then filling the QP never writes outside the allocated matrices, for both the general (LSSOL) and the standard (QLD) form.", "quantifier": "all lists of constraints whose active line count is at most their announced maximum, all variable counts", "why_tests_cant": "memory safety for all sizes cannot be sampled", "anchors": ["src/QPSolver.cpp: updateConstrSize", "src/GenQPUtils.h: fillEq, fillInEq, fillGenInEq", "src/QLDQPSolver.cpp: updateSize, updateMatrix", "src/LSSOLQPSolver.cpp: updateSize, updateMatrix"]}
{"id": "C08", "title": "solve() is memory-safe whatever the order of registration and sizing calls", "statement": "A user may expect solve() to be defined after adding a constraint with addToSolver(mbs, solver), which already calls updateNrVars, without calling updateConstrSize again.", "quantifier": "all call orders", "why_tests_cant": "a test that happens not to crash proves nothing about an out-of-bounds write", "anchors": ["src/QPSolver.cpp: addConstraint(mbs, co), updateConstrSize", "src/GenQPUtils.h"]}
{"id": "C09", "title": "The general-form QP has exactly the registered constraints as feasible set", "statement": "After updateMatrix in general form, a vector x satisfies AL <= A x <= AU on the first nrALines rows iff it satisfies every registered equality (A x = b), inequality (A x <= b) and general inequality (L <= A x <= U) on its active lines.", "quantifier": "all lists of constraints, all matrices and vectors, all x", "why_tests_cant": "quantifies over real vectors and all constraint stacks", "anchors": ["src/GenQPUtils.h: fillEq, fillInEq, fillGenInEq (general form)", "src/LSSOLQPSolver.cpp: updateMatrix"]}
{"id": "C10", "title": "The standard-form QP has exactly the registered constraints as feasible set", "statement": "After updateMatrix in standard form (QLD), Aeq x = beq and Aineq x <= bineq on the used rows hold iff x satisfies every registered constraint; hence both solver back ends are given equivalent problems.", "quantifier": "all lists of constraints with finite or infinite general bounds, all x", "why_tests_cant": "quantifies over real vectors and all constraint stacks", "anchors": ["src/GenQPUtils.h: fillEq, fillInEq, fillGenInEq (standard form)", "src/QLDQPSolver.cpp: updateMatrix"]}
{"id": "C11", "title": "Bounds registered on disjoint variables are all enforced, and unbounded variables stay free", "statement": "After fillBound, when the bound constraints cover pairwise disjoint ranges, XL <= x <= XU iff x satisfies every bound constraint; when two ranges overlap, the one registered last wins on the overlap.", "quantifier": "all lists of bound constraints and all x", "why_tests_cant": "quantifies over all ranges and real vectors", "anchors": ["src/GenQPUtils.h: fillBound", "src/QLDQPSolver.cpp: updateMatrix", "src/LSSOLQPSolver.cpp: updateMatrix"]}
{"id": "C12", "title": "Overlapping bound constraints are all enforced", "statement": "A user who registers two bound constraints on the same variables expects both to be enforced (their intersection).", "quantifier": "all pairs of bound constraints", "why_tests_cant": "must hold for every overlap", "anchors": ["src/GenQPUtils.h: fillBound"]}
{"id": "C13", "title": "The QP objective is the weighted sum of the task objectives plus a bounded diagonal regularisation", "statement": "After fillQC, for every x, x'Qx/2 + C'x equals the sum over tasks of weight*(task quadratic form evaluated on the task's variable block) plus 1e-4/2 * (sum of x_i^2 over the diagonal entries whose magnitude was below 1e-4); the regularisation touches only the diagonal.", "quantifier": "all task lists, weights, block positions and all x", "why_tests_cant": "quantifies over all stacks of tasks and real vectors", "anchors": ["src/GenQPUtils.h: fillQC"]}
{"id": "C14", "title": "The regularised objective is convex with a strictly positive diagonal", "statement": "If every task weight is non-negative and every task matrix is positive semi-definite on the diagonal blocks, then Q is positive semi-definite and every Q(i,i) >= 1e-4, so that a variable touched by no task still has a strictly convex cost.", "quantifier": "all task lists with PSD matrices and non-negative weights", "why_tests_cant": "quantifies over all PSD matrices", "anchors": ["src/GenQPUtils.h: fillQC"]}
{"id": "C15", "title": "Variable reduction maps are mutually inverse and honour every mimic relation", "statement": "After setDependencies with distinct in-range replicas whose leaders are not replicas, every non-replica variable has exactly one reduced variable and conversely, and for every reduced vector y the expanded vector x = M y has x[replica] = multiplier * x[leader] for every dependency and x[i] = y[reduced(i)] for every other variable; conversely every x that satisfies the mimic relations is the expansion of exactly one y.", "quantifier": "all variable counts, dependency lists and vectors", "why_tests_cant": "quantifies over all dependency lists", "anchors": ["src/GenQPSolver.cpp: GenQPSolver::setDependencies", "src/GenQPUtils.h: expandResult"]}
{"id": "C16", "title": "The reduced QP is equivalent to the full QP restricted to the mimic relations", "statement": "For every reduced y with expansion x = M y: the reduced objective at y equals the full objective at x, each reduced constraint row at y equals the full row at x, and (when no multiplier is zero) the reduced bounds hold at y iff the full bounds hold at x.", "quantifier": "all matrices, dependency lists with non-zero multipliers, and all y", "why_tests_cant": "quantifies over all QPs", "anchors": ["src/GenQPUtils.h: reduceQC, reduceA, reduceBound, expandResult"]}
{"id": "C17", "title": "Mimic joints with a zero multiplier keep their bounds", "statement": "A user expects the bounds of a replica to be enforced whatever the mimic multiplier.", "quantifier": "all multipliers including 0", "why_tests_cant": "needs every bound/multiplier combination", "anchors": ["src/GenQPUtils.h: reduceBound"]}
{"id": "C18", "title": "Mimic chains are supported", "statement": "A user expects the reduction to honour a mimic joint whose leader is itself a mimic joint.", "quantifier": "all dependency lists including chains", "why_tests_cant": "needs every dependency graph", "anchors": ["src/GenQPSolver.cpp: setDependencies"]}
{"id": "C19", "title": "Changing the back end with solver(name) keeps the problem", "statement": "A user who calls QPSolver::solver(name) after nrVars expects the same problem, mimic relations included, to be solved by the new back end.", "quantifier": "all histories of nrVars / solver(name) calls", "why_tests_cant": "a history property", "anchors": ["src/QPSolver.cpp: QPSolver::solver(const std::string &)", "src/GenQPSolver.cpp: setDependencies"]}
{"id": "C20", "title": "A successful solve returns an optimal point of the registered problem", "statement": "Assuming only that the numerical back end, when it reports success, returns an optimum of the matrices it was given, solve() == true implies that result() satisfies every registered equality, inequality, general inequality and bound and every mimic relation, and minimises the (regularised) weighted task objective among all vectors doing so; both back ends satisfy this contract.", "quantifier": "all registered problems (with and without mimic joints) and all back ends meeting the contract", "why_tests_cant": "end-to-end statement over all problems", "anchors": ["src/QPSolver.cpp: solve, preUpdate", "src/QLDQPSolver.cpp", "src/LSSOLQPSolver.cpp", "src/GenQPUtils.h"]}
{"id": "C21", "title": "solve() writes accelerations only on success, and writes the right ones", "statement": "When solve() returns false no robot configuration is modified; when it returns true the acceleration of robot r becomes exactly segment r of the result, for every r, and no other field of any configuration changes.", "quantifier": "all robots lists, results and outcomes", "why_tests_cant": "all layouts and results", "anchors": ["src/QPSolver.cpp: solve, solveNoMbcUpdate, postUpdate, updateMbc"]}
{"id": "C22", "title": "An error report names the constraint that owns the violated line", "statement": "For a violated line index l of the stacked constraint matrix, the constraint and local line reported are those whose rows were stacked at l.", "quantifier": "all stacks of constraints (with any number of inactive constraints) and all line indices", "why_tests_cant": "all stacks and indices", "anchors": ["src/GenQPUtils.h: constrErrorMsg", "src/QLDQPSolver.cpp: errorMsg", "src/LSSOLQPSolver.cpp: errorMsg"]}
{"id": "C23", "title": "Joint-level diagnostics name the joint that owns the line", "statement": "When a constraint describes the line of degree of freedom d of a robot, the joint reported is the one whose dof range contains d.", "quantifier": "all robots and all dof indices", "why_tests_cant": "all joint structures", "anchors": ["src/utils.h: findJointFromVector", "src/QPMotionConstr.cpp: descGenInEq", "src/QPConstr.cpp: descBound"]}
{"id": "C24", "title": "ContactId comparison is a strict total order consistent with equality", "statement": "operator< on ContactId is irreflexive, transitive and total, operator== holds iff all five fields agree, operator!= is its negation, and neither a<b nor b<a holds iff a==b; so ordered containers identify contacts by exactly those fields.", "quantifier": "all pairs/triples of contact ids", "why_tests_cant": "an order law over all triples of strings and integers", "anchors": ["src/QPContacts.cpp: ContactId::operator==, operator!=, operator<"]}
{"id": "C25", "title": "Contact constraints use each physical contact once and skip virtual ones", "statement": "The contacts constrained by a ContactConstr after updateNrVars are exactly the non-virtual contacts of the solver, each id once (first occurrence kept), in increasing id order, whatever the order or duplication of the contact lists.", "quantifier": "all contact lists and sets of virtual contacts", "why_tests_cant": "all lists with duplicates", "anchors": ["src/QPContactConstr.cpp: ContactConstrCommon::contactCommonInContact, addVirtualContact, removeVirtualContact, resetVirtualContacts"]}
{"id": "C26", "title": "Virtual-contact and dof-contact registries behave like a set and a map", "statement": "After any history of addVirtualContact/removeVirtualContact/resetVirtualContacts/addDofContact/removeDofContact/resetDofContacts, a contact is virtual iff its last operation added it, and its selection matrix is the one of the earliest add since it was last absent; the boolean results tell whether the call changed anything.", "quantifier": "all call histories and ids", "why_tests_cant": "unbounded histories", "anchors": ["src/QPContactConstr.cpp: ContactConstrCommon"]}
{"id": "C27", "title": "Contact force lies in the friction cone", "statement": "For an orthonormal contact frame, a friction coefficient mu >= 0 and non-negative lambda, the force returned by force(lambda, cone) has non-negative normal component fn and tangential norm at most mu*fn, for any number of generators.", "quantifier": "all orthonormal frames, mu >= 0, generator counts, lambda >= 0", "why_tests_cant": "a geometric inequality over reals", "anchors": ["src/QPContacts.cpp: FrictionCone::FrictionCone, UnilateralContact::force, BilateralContact::force"]}
{"id": "C28", "title": "Action equals reaction at a contact", "statement": "For every contact built from points, a frame and X_b1_b2, and every lambda, the force computed with r2Cone is the opposite of the force computed with r1Cone expressed in body 2's frame, and the contact points coincide in space, so the two wrenches cancel.", "quantifier": "all contacts and lambda", "why_tests_cant": "all rigid transforms and lambdas", "anchors": ["src/QPContacts.cpp: UnilateralContact::construct, BilateralContact::construct, FrictionCone"]}
{"id": "C29", "title": "Contact force is linear in lambda and additive over points", "statement": "force is linear in lambda; the total force is the sum of the per-point forces computed from the per-point slices of lambda, and the wrench is the sum of (r x f, f) over points.", "quantifier": "all contacts and lambdas", "why_tests_cant": "all sizes and real vectors", "anchors": ["src/QPContacts.cpp: UnilateralContact::force, BilateralContact::force, nrLambda"]}
{"id": "C30", "title": "The checked contact functions throw exactly on bad arguments", "statement": "sForce/sNrLambda throw domain_error exactly when the lambda size, point index or cone list does not match, otherwise they return the unchecked value and the unchecked function reads only inside its arguments.", "quantifier": "all argument sizes", "why_tests_cant": "all sizes", "anchors": ["src/QPContacts.cpp: checkRange, sForce, sNrLambda"]}
{"id": "C31", "title": "Contact equality rows encode 'no relative acceleration at the contact'", "statement": "For acceleration contacts, the rows produced for a contact hold at alphaD iff the selected components of (J1 alphaD1 + normalAcc1) - (J2 alphaD2 + normalAcc2) vanish; speed and position contacts add exactly the velocity/dt (and position error) terms.", "quantifier": "all robots, Jacobians, contacts, selection matrices and alphaD", "why_tests_cant": "all matrices", "anchors": ["src/QPContactConstr.cpp: ContactAccConstr::update, ContactSpeedConstr::update, ContactPosConstr::update"]}
{"id": "C32", "title": "A contact constraint reports no more active lines than its allocated rows", "statement": "nrEq() <= maxEq() for every contact constraint after updateNrVars, and rows of different contacts never overlap.", "quantifier": "all contact sets and dof matrices with at most six rows", "why_tests_cant": "all sizes", "anchors": ["src/QPContactConstr.cpp: nrEq, maxEq, updateDofContacts, updateNrVars"]}
{"id": "C33", "title": "Contact error lines are attributed to the right contact", "statement": "descEq(line) names the contact that owns the line.", "quantifier": "all contacts with any number of selected dof", "why_tests_cant": "all dof selections", "anchors": ["src/QPContactConstr.cpp: descEq"]}
{"id": "C34", "title": "Contact multipliers are bounded to be non-negative", "statement": "PositiveLambda's bounds hold iff every contact lambda is >= 0; they do not constrain alphaD.", "quantifier": "all layouts and x", "why_tests_cant": "all layouts", "anchors": ["src/QPMotionConstr.cpp: PositiveLambda"]}
{"id": "C35", "title": "Torque limits are enforced exactly", "statement": "For any alphaD and lambda, the rows of MotionConstr hold iff the joint torque given by the equation of motion, H alphaD + C - sum of J' generators * lambda, lies within the torque bounds; and computeTorque returns that torque.", "quantifier": "all inertia matrices, biases, Jacobians, contacts and x", "why_tests_cant": "all matrices", "anchors": ["src/QPMotionConstr.cpp: MotionConstrCommon::computeMatrix, computeTorque, MotionConstr::update"]}
{"id": "C36", "title": "Torque rate limits are enforced from the second update on", "statement": "After the first update, the rows of MotionConstr hold iff the torque lies within the torque bounds and within rate*dt of the last computed torque; at the first update only the torque bounds apply.", "quantifier": "all update histories", "why_tests_cant": "history and all matrices", "anchors": ["src/QPMotionConstr.cpp: MotionConstr::update"]}
{"id": "C37", "title": "Every contact force acting on a robot enters its equation of motion", "statement": "The equation of motion of a robot contains the generalized force of every contact that involves the robot, including contacts between two bodies of the same robot.", "quantifier": "all contact lists including self contacts", "why_tests_cant": "all contact lists", "anchors": ["src/QPMotionConstr.cpp: MotionConstrCommon::updateNrVars, computeMatrix"]}
{"id": "C38", "title": "Spring and polynomial torque limits encode the documented limit", "statement": "MotionSpringConstr shifts the torque bounds by the joint spring torque of the current configuration, MotionPolyConstr evaluates the bound polynomials at the current configuration.", "quantifier": "all robots, springs, polynomials", "why_tests_cant": "all robots", "anchors": ["src/QPMotionConstr.cpp: MotionSpringConstr, MotionPolyConstr"]}
{"id": "C39", "title": "Joint position limits hold after one integration step", "statement": "If alphaD satisfies the bounds of JointLimitsConstr then q + alpha*dt + alphaD*dt^2/2 lies in [qMin, qMax], and conversely (before acceleration/jerk clamps).", "quantifier": "all q, alpha, bounds, dt > 0", "why_tests_cant": "real inequality", "anchors": ["src/QPConstr.cpp: JointLimitsConstr::update"]}
{"id": "C40", "title": "Joint acceleration and jerk limits hold on top of position limits", "statement": "With acceleration and jerk limits, the accelerations accepted by JointLimitsConstr are exactly those meeting the position, acceleration and (alphaD - previous alphaD)/dt limits.", "quantifier": "all q, alpha, bounds, dt > 0", "why_tests_cant": "real inequality", "anchors": ["src/QPConstr.cpp: JointLimitsConstr::update"]}
{"id": "C41", "title": "The joint damper keeps joints inside their limits", "statement": "Repeatedly applying any acceleration allowed by DamperJointLimitsConstr with explicit Euler integration never drives a joint beyond its limit, provided step*damping <= interactive - security distance while damped; the velocity bound shrinks linearly to zero at the security distance.", "quantifier": "all trajectories", "why_tests_cant": "an invariant over unbounded trajectories", "anchors": ["src/QPConstr.cpp: DamperJointLimitsConstr::update, computeDamping, computeDamper"]}
{"id": "C42", "title": "Entering the damping zone causes no acceleration jump", "statement": "When a joint enters the interactive distance, the damper bound at that instant admits the current velocity: the velocity bound is at least the current approach speed.", "quantifier": "all states with interactive > security distance", "why_tests_cant": "real inequality", "anchors": ["src/QPConstr.cpp: computeDamping, computeDamper, update"]}
{"id": "C43", "title": "The damper protects both limits", "statement": "A joint inside both interactive zones is protected on both sides.", "quantifier": "all joint ranges", "why_tests_cant": "all ranges", "anchors": ["src/QPConstr.cpp: DamperJointLimitsConstr::update"]}
{"id": "C44", "title": "Active collision rows are exactly the close pairs, in order", "statement": "After CollisionConstr::update, nrInEq() is the number of registered pairs with distance < interactive distance; the k-th row is the k-th such pair; descInEq(k) names that pair.", "quantifier": "all pair lists and distances", "why_tests_cant": "all lists", "anchors": ["src/QPConstr.cpp: CollisionConstr::update, nrInEq, descInEq"]}
{"id": "C45", "title": "A collision row bounds the closing speed of the pair", "statement": "For an active pair of mobile bodies, a row holds at alphaD iff the distance rate predicted for the next step is at least -damping*(distance - security)/(interactive - security).", "quantifier": "all Jacobians, normals, states and alphaD", "why_tests_cant": "all real inputs", "anchors": ["src/QPConstr.cpp: CollisionConstr::update"]}
{"id": "C46", "title": "Collision avoidance keeps the security distance", "statement": "For a pair whose distance evolves according to the predicted rate, distances stay >= security distance forever when step*damping <= interactive - security.", "quantifier": "all trajectories", "why_tests_cant": "invariant over unbounded trajectories", "anchors": ["src/QPConstr.cpp: CollisionConstr::update, computeDamping"]}
{"id": "C47", "title": "Collision registry behaves like an ordered list keyed by id", "statement": "addCollision appends, rmCollision removes the first pair with the id and reports whether it existed, nrCollisions counts, getCollisionData returns the pair or throws.", "quantifier": "all histories", "why_tests_cant": "unbounded histories", "anchors": ["src/QPConstr.cpp: addCollision, rmCollision, nrCollisions, reset, getCollisionData"]}
{"id": "C48", "title": "Collision rows are correct when only the second robot can move", "statement": "If the first robot has no degree of freedom the row still bounds the closing speed of the pair.", "quantifier": "all pairs with an immobile first robot", "why_tests_cant": "all real inputs", "anchors": ["src/QPConstr.cpp: CollData::CollData, CollisionConstr::update"]}
{"id": "C49", "title": "CoM plane rows bound the approach speed and are reported correctly", "statement": "For every active plane, a row holds iff the predicted distance rate is at least the damped limit; descInEq names the plane owning the row.", "quantifier": "all planes and states", "why_tests_cant": "all real inputs", "anchors": ["src/QPConstr.cpp: CoMIncPlaneConstr::update, descInEq"]}
{"id": "C50", "title": "Gripper torque rows are conservative", "statement": "For lambda >= 0, a satisfied gripper row implies the torque transmitted to the gripper about its axis is at most the limit in magnitude.", "quantifier": "all contacts, cones, lambda >= 0", "why_tests_cant": "real inequality", "anchors": ["src/QPConstr.cpp: GripperTorqueConstr::update"]}
{"id": "C51", "title": "Gripper rows and their description agree", "statement": "descInEq(line) names the contact owning that row.", "quantifier": "all gripper lists, including grippers with no matching contact", "why_tests_cant": "all lists", "anchors": ["src/QPConstr.cpp: GripperTorqueConstr::update, descInEq"]}
{"id": "C52", "title": "Bounded-speed rows bound the next-step speed", "statement": "BoundedSpeedConstr rows hold at alphaD iff the selected body velocity after one step, v + (J alphaD + normalAcc)*dt, lies within the bounds.", "quantifier": "all bodies, selection matrices and bounds", "why_tests_cant": "all real inputs", "anchors": ["src/QPConstr.cpp: BoundedSpeedConstr::update"]}
{"id": "C53", "title": "Bounded-speed registry behaves like a list keyed by body", "statement": "addBoundedSpeed appends, removeBoundedSpeed removes the first entry of the body and says whether it existed, and maxGenInEq equals the allocated number of rows after updateBoundedSpeeds.", "quantifier": "all histories", "why_tests_cant": "unbounded histories", "anchors": ["src/QPConstr.cpp: BoundedSpeedConstr"]}
{"id": "C54", "title": "An image feature beyond the safety limit is still constrained", "statement": "ImageConstr keeps constraining a point that has crossed into the safety zone of the image limits.", "quantifier": "all points", "why_tests_cant": "all real inputs", "anchors": ["src/QPConstr.cpp: ImageConstr::update"]}
{"id": "C55", "title": "A set-point task is the least-squares problem it documents", "statement": "The Q, C of SetPointTask (likewise TrackingTask, TrajectoryTask) make x'Qx/2 + C'x equal, up to a constant independent of x, to 1/2 sum_i w_i (J x + normalAcc - a_des)_i^2 with a_des = k*err - 2 sqrt(k)*speed (resp. gainPos*err + gainVel*errD + refAccel ...).", "quantifier": "all Jacobians, errors, gains, weights and x", "why_tests_cant": "all real inputs", "anchors": ["src/QPTasks.cpp: SetPointTaskCommon::computeQC, SetPointTask::update, TrackingTask::update, TrajectoryTask::update"]}
{"id": "C56", "title": "A set-point task converges", "statement": "With critical damping 2 sqrt(k), the closed-loop error dynamics imposed by SetPointTask when the task is met exactly makes the error converge to 0 without oscillation.", "quantifier": "all k > 0 and initial errors", "why_tests_cant": "asymptotic statement", "anchors": ["src/QPTasks.cpp: SetPointTask"]}
{"id": "C57", "title": "PIDTask::update is a function of its inputs", "statement": "Calling update on a PIDTask with the same inputs twice gives the same Q and C.", "quantifier": "all inputs", "why_tests_cant": "history property", "anchors": ["src/QPTasks.cpp: PIDTask::update"]}
{"id": "C58", "title": "TargetObjectiveTask reaches its target", "statement": "Applying the commanded accelerations of TargetObjectiveTask up to its duration brings the task position and velocity to the objective.", "quantifier": "all states, objectives and durations", "why_tests_cant": "all real inputs", "anchors": ["src/QPTasks.cpp: TargetObjectiveTask::update"]}
{"id": "C59", "title": "JointsSelector restricts a task to the selected joints", "statement": "Columns of the selected joints equal the wrapped task's columns, all other columns are zero; ActiveJoints(names) and UnactiveJoints(complement) define the same task.", "quantifier": "all robots, name lists and wrapped tasks", "why_tests_cant": "all joint structures", "anchors": ["src/QPTasks.cpp: JointsSelector"]}
{"id": "C60", "title": "PostureTask drives every actuated joint to its target independently", "statement": "For robots with 1-dof and spherical joints, the posture error of each joint is at that joint's dof rows; per-joint stiffness and weights apply to exactly the named joints.", "quantifier": "all robots", "why_tests_cant": "all joint structures", "anchors": ["src/QPTasks.cpp: PostureTask", "src/Tasks.cpp: PostureTask"]}
{"id": "C61", "title": "Multi-robot CoM task tracks the mass-weighted CoM", "statement": "Robot weights sum to 1, and the error equals target minus the CoM of all robots together.", "quantifier": "all robot lists with positive total mass", "why_tests_cant": "all real inputs", "anchors": ["src/Tasks.cpp: MultiCoMTask::computeRobotsWeight, update"]}
{"id": "C62", "title": "Multi-robot tasks are the least-squares problem they document", "statement": "The Q, C of MultiCoMTask and MultiRobotTransformTask equal J'WJ and -J'W(...) for the stacked Jacobian.", "quantifier": "all Jacobians of two or more robots", "why_tests_cant": "all real inputs", "anchors": ["src/QPTasks.cpp: MultiCoMTask::update, MultiRobotTransformTask::update"]}
{"id": "C63", "title": "Contact and gripper tasks act on their own contact's variables", "statement": "After updateNrVars, ContactTask and GripperTorqueTask place their objective on exactly the lambda segment of the contact carrying their id, or nowhere if absent.", "quantifier": "all layouts and ids", "why_tests_cant": "all layouts", "anchors": ["src/QPTasks.cpp: ContactTask::updateNrVars, GripperTorqueTask::updateNrVars"]}
{"id": "C64", "title": "Normal accelerations follow the kinematic recursion", "statement": "computeNormalAccB gives, for every body of a mobile robot, the body acceleration obtained with zero alphaD, i.e. the sum over ancestors of the transported velocity products.", "quantifier": "all kinematic trees", "why_tests_cant": "induction over trees", "anchors": ["src/QPSolverData.cpp: SolverData::computeNormalAccB"]}
{"id": "C65", "title": "Point and vector tasks use consistent error, speed and Jacobian", "statement": "VectorOrientationTask's speed is the Jacobian times the joint velocity; its error norm is bounded by 2 for unit vectors; skewMatrix(v) u = v x u.", "quantifier": "all orientations", "why_tests_cant": "all real inputs", "anchors": ["src/Tasks.cpp: VectorOrientationTask"]}
{"id": "C66", "title": "Changing the body point of a PositionTask changes both error and Jacobian", "statement": "After bodyPoint(p), eval() and jac() both refer to p.", "quantifier": "all points", "why_tests_cant": "history property", "anchors": ["src/Tasks.cpp: PositionTask::bodyPoint, update"]}
{"id": "C67", "title": "Mimic joints of the robots become the right variable dependencies", "statement": "The dependencies that nrVars hands to the back end are exactly the mimic relations of the robots, with leader and replica placed in the variable segment of their robot; replicas are pairwise distinct, every index is an acceleration index, and no leader is a replica (for robots whose mimic leaders are not mimic joints themselves).", "quantifier": "all lists of robots with usable mimic joints", "why_tests_cant": "all robots, joint orders and numbers of mimic joints", "anchors": ["src/QPSolver.cpp: QPSolver::nrVars (mimic loop)"]}
{"id": "C68", "title": "errorMsg lists exactly the violated bounds and constraint lines", "statement": "When the general-form solver reports which variables and which lines are violated, errorMsg names the bound constraint of every violated variable and the owner of every violated line, and nothing else.", "quantifier": "all registered constraints, all state vectors", "why_tests_cant": "the message is only produced on infeasible problems, which tests do not enumerate", "anchors": ["src/LSSOLQPSolver.cpp: errorMsg"]}
{"id": "C69", "title": "The reference pose of a contact moves only along its unselected directions", "statement": "A contact constraint re-estimates the reference pose of the second body at every update, but never along a direction that the selection matrix constrains: a contact with all directions selected keeps the pose given by the user forever.", "quantifier": "all call histories, selection matrices and robot motions", "why_tests_cant": "the drift depends on the order of addDofContact, updateDofContacts and update calls over time", "anchors": ["src/QPContactConstr.cpp: ContactConstr::ContactData::update, updateDofContacts", "src/Tasks/QPContactConstr.h: ContactData constructor"]}
{"id": "C70", "title": "Reading the selection matrix of a contact does not change the constraint", "statement": "dofContact(id) is an accessor: calling it leaves the behaviour of the constraint unchanged for every id.", "quantifier": "all call histories and ids", "why_tests_cant": "only shows for ids without a registered matrix, after a later updateDofContacts", "anchors": ["src/QPContactConstr.cpp: ContactConstrCommon::dofContact, updateDofContacts"]}
{"id": "C71", "title": "torque(mbs, mbcs) returns the torque of the solution", "statement": "After computeTorque(alphaD, lambda), torque(mbs, mbcs) writes into every joint but the first the torque given by the equation of motion at that point, joint by joint, and leaves the first joint unchanged.", "quantifier": "all robots and call histories", "why_tests_cant": "offset bookkeeping over joints of any number of degrees of freedom", "anchors": ["src/QPMotionConstr.cpp: MotionConstrCommon::torque"]}
{"id": "C72", "title": "contactMatrix() is the map from the contact forces to the torque", "statement": "MotionConstrCommon::contactMatrix() has one column per contact multiplier, and multiplied by the multipliers gives minus the generalized contact forces.", "quantifier": "all robots, contacts and call histories", "why_tests_cant": "with one robot the columns coincide with those of the constraint matrix that tests look at", "anchors": ["src/QPMotionConstr.cpp: MotionConstrCommon::contactMatrix"]}
{"id": "C73", "title": "DamperJointLimitsConstr applies acceleration and jerk limits to every joint", "statement": "The bounds of DamperJointLimitsConstr admit exactly the accelerations meeting the acceleration limits and the jerk limits from the last alphaD, on top of the velocity limits and the damper, for joints of any number of degrees of freedom and after any number of updates.", "quantifier": "all robots and call histories", "why_tests_cant": "needs a floating base and several updates with varying alphaD", "anchors": ["src/QPConstr.cpp: DamperJointLimitsConstr::update"]}
{"id": "C74", "title": "A pair of hulls that no robot can move never makes the problem infeasible", "statement": "A collision pair whose two robots have no degree of freedom does not restrict the accelerations, and in particular does not make the problem infeasible.", "quantifier": "all pairs and poses", "why_tests_cant": "needs fixed environment robots closer than the security distance", "anchors": ["src/QPConstr.cpp: CollisionConstr::addCollision, CollisionConstr::update"]}
{"id": "C75", "title": "descInEq shows the damping in force", "statement": "The damping written by CollisionConstr::descInEq is the one used in the row it describes.", "quantifier": "all call histories and pairs", "why_tests_cant": "only shows with a damping offset", "anchors": ["src/QPConstr.cpp: CollisionConstr::descInEq, CollisionConstr::update, computeDamping"]}
{"id": "C76", "title": "The plane registry of CoMIncPlaneConstr behaves like a list", "statement": "After any calls nrPlanes counts the planes added and not removed, in order of addition, rmPlane removes the first plane with the number and says whether there was one, and the selector in force is the last one given.", "quantifier": "all call histories", "why_tests_cant": "all sequences of additions, removals, resets and updates", "anchors": ["src/QPConstr.cpp: CoMIncPlaneConstr::addPlane, rmPlane, nrPlanes, reset", "src/Tasks/QPConstr.h: CoMIncPlaneConstr"]}
{"id": "C77", "title": "The CoM keeps the security distance to every plane", "statement": "Along any trajectory whose solutions satisfy the rows and whose distance moves at the predicted rate, a centre of mass that starts beyond the security distance of a plane never comes closer, if step times damping is at most di - ds.", "quantifier": "all trajectories", "why_tests_cant": "an invariant over unboundedly many control steps", "anchors": ["src/QPConstr.cpp: CoMIncPlaneConstr::update, computeDamping"]}
{"id": "C78", "title": "A CoM plane never forbids moving away from it", "statement": "A solution under which the distance to the plane does not decrease satisfies the row of the plane when the distance is above the security distance.", "quantifier": "all call histories, planes and solutions", "why_tests_cant": "depends on the speed at the instant the plane became active", "anchors": ["src/QPConstr.cpp: CoMIncPlaneConstr::update, computeDamping"]}
{"id": "C79", "title": "The gripper registry of GripperTorqueConstr behaves like a list", "statement": "After any calls the grippers in force are those added and not removed, in order of addition, rmGripper removes the first gripper on the contact and says whether there was one, and reset removes all.", "quantifier": "all call histories", "why_tests_cant": "all sequences of additions, removals and resets", "anchors": ["src/QPConstr.cpp: GripperTorqueConstr::addGripper, rmGripper, reset"]}
{"id": "C80", "title": "A removed speed bound no longer restricts", "statement": "After removeBoundedSpeed the next update leaves no row of the removed body.", "quantifier": "all call histories", "why_tests_cant": "the rows are only cleared by a later call", "anchors": ["src/QPConstr.cpp: BoundedSpeedConstr::removeBoundedSpeed, updateBoundedSpeeds, update"]}
{"id": "C81", "title": "Points of the robot are constrained in the image", "statement": "A point given to ImageConstr by a body of the robot restricts the accelerations like a point of the environment.", "quantifier": "all histories and poses", "why_tests_cant": "the rows are counted, so sizes look right", "anchors": ["src/QPConstr.cpp: ImageConstr::addPoint, ImageConstr::update"]}
{"id": "C82", "title": "A feature that does not move satisfies the image constraint", "statement": "A solution that leaves every feature where it is in the image satisfies ImageConstr when the offset is zero, for the field of view and for occlusion.", "quantifier": "all features, limits and camera motions", "why_tests_cant": "a sign that only one of the two modes exercises", "anchors": ["src/QPConstr.cpp: ImageConstr::update, ImageConstr::setLimits"]}
{"id": "C83", "title": "A feature stays inside the safety limits of the image", "statement": "Along any sequence of measurements and updates whose solutions satisfy the rows, a feature that moves as predicted and by less than the width of the zone stays strictly between the safety limits, if the damping is less than the width of the zone and the offset is not negative.", "quantifier": "all trajectories", "why_tests_cant": "an invariant over unboundedly many control steps", "anchors": ["src/QPConstr.cpp: ImageConstr::update, ImageConstr::setLimits, ImageConstr::updatePoint"]}
{"id": "C84", "title": "descInEq of ImageConstr names the feature of the row", "statement": "The description of line k names the feature and the axis which row k restricts.", "quantifier": "all histories", "why_tests_cant": "depends on which rows are active", "anchors": ["src/QPConstr.cpp: ImageConstr::descInEq, ImageConstr::update"]}
{"id": "C85", "title": "The feature registry of ImageConstr behaves like an array", "statement": "addPoint returns the number of features so far, updatePoint changes exactly that feature and is defined exactly for the numbers given out since the last reset, and maxInEq is twice the number of points.", "quantifier": "all call histories", "why_tests_cant": "all sequences of calls", "anchors": ["src/QPConstr.cpp: ImageConstr::addPoint, ImageConstr::updatePoint, ImageConstr::reset, ImageConstr::maxInEq"]}
{"id": "C86", "title": "The QP of several set-point tasks is the sum of their least-squares problems", "statement": "The objective assembled by the solver from any number of updated SetPointTasks is, up to a constant and the solver's regularisation, the sum of weight * 1/2 sum_i w_i (J x + normalAcc - a_des)_i^2.", "quantifier": "all numbers of tasks, histories and x", "why_tests_cant": "all real inputs and task lists", "anchors": ["src/QPTasks.cpp: SetPointTask", "src/GenQPUtils.h: fillQC"]}
{"id": "C87", "title": "A TargetObjectiveTask stays usable once its duration has elapsed", "statement": "Updating a TargetObjectiveTask in the control period after its duration has elapsed is defined (no division by zero).", "quantifier": "all tasks and states", "why_tests_cant": "depends on the number of updates", "anchors": ["src/QPTasks.cpp: TargetObjectiveTask::update"]}
{"id": "C88", "title": "UnactiveJoints excludes the dofs given to it", "statement": "The columns of the dofs given in the map of unactive dofs are zero in the Jacobian of the selector.", "quantifier": "all robots and maps", "why_tests_cant": "depends on which joints and ranges are given", "anchors": ["src/QPTasks.cpp: JointsSelector::UnactiveJoints"]}
{"id": "C89", "title": "Any range of dofs of a joint can be selected", "statement": "A JointsSelector can be built for every list of joint names and every map whose ranges are ranges of dofs of these joints.", "quantifier": "all robots, names and maps", "why_tests_cant": "an assertion over all ranges", "anchors": ["src/QPTasks.cpp: JointsSelector::JointsSelector"]}
{"id": "C90", "title": "The posture error of every joint is at its own dofs", "statement": "For every robot, whatever the kinds of its joints, the error of each joint is asked for at that joint's dofs.", "quantifier": "all robots", "why_tests_cant": "depends on joint kinds no test robot has", "anchors": ["src/Tasks.cpp: PostureTask::update"]}
{"id": "C91", "title": "A posture task can be used for every robot", "statement": "Updating a PostureTask with data of the robot's shapes is defined for every robot, also for a robot with one joint only.", "quantifier": "all robots and histories", "why_tests_cant": "an out-of-bounds read that no test provokes", "anchors": ["src/Tasks.cpp: PostureTask::update", "src/QPTasks.cpp: PostureTask::update"]}
{"id": "C92", "title": "The cost of a posture task is bounded below", "statement": "For positive weights the objective of an updated PostureTask has a lower bound, whatever gains were given to which joints.", "quantifier": "all histories and states", "why_tests_cant": "depends on the named joints and the speed", "anchors": ["src/QPTasks.cpp: PostureTask::jointsStiffness, jointsGains, update", "src/Tasks.cpp: PostureTask::PostureTask"]}
{"id": "C93", "title": "A joint in the closed loop of a posture task converges to its target", "statement": "If the accelerations minimise the task at every time and the damping is 2 sqrt(stiffness), the error of every one-dof joint converges to zero without oscillating.", "quantifier": "all robots, histories and initial states", "why_tests_cant": "a limit over infinite time", "anchors": ["src/QPTasks.cpp: PostureTask::update, stiffness, jointsStiffness"]}
{"id": "C94", "title": "TorqueTask minimises the selected squared joint torques", "statement": "For a robot that is not in contact with itself: after any history of updateNrVars, weight changes and updates, an update of TorqueTask with configuration-dependent terms dy leaves a Q and C whose cost, read at begin (0,0), is, up to a constant, the weight in force times one half of the sum over the degrees of freedom j of jointSelect_j times tau_j squared, where tau is the torque inverse dynamics gives for the accelerations and the contact forces of the decision vector. The update is defined exactly when jointSelect has one entry per degree of freedom.", "quantifier": "all robots, contact sets, selections, weights, histories, dynamics terms and decision vectors", "why_tests_cant": "The torque couples accelerations and contact multipliers of all contacts; a test can only compare the cost at a few points of one robot.", "anchors": ["src/QPTasks.cpp:566-650"]}
{"id": "C95", "title": "TorqueTask counts the torques of a robot in contact with itself", "statement": "The cost of TorqueTask is the sum of the selected squared torques of inverse dynamics also when two bodies of the robot are in contact with each other.", "quantifier": "all robots and contact sets, self-contacts included", "why_tests_cant": "Only a self-contact shows it, and the library's tests have none.", "anchors": ["src/QPTasks.cpp:642-650", "src/QPMotionConstr.cpp: MotionConstrCommon::updateNrVars, computeMatrix"]}
{"id": "C96", "title": "The end-effector constructor of TorqueTask selects the joints between the base and the body", "statement": "TorqueTask(mbs, robotIndex, jointTorqueBounds, efName, weight) builds the task whose selection is 1 exactly for the degrees of freedom of the joints on the path to efName other than joint 0, and 0 elsewhere.", "quantifier": "all robots, bodies and paths, joints with any number of degrees of freedom", "why_tests_cant": "Which columns are written depends on the kinematic tree, on the order of joints and on their sizes.", "anchors": ["src/QPTasks.cpp:613-631"]}
{"id": "C97", "title": "ContactTask pulls the contact force towards the vector given to error()", "statement": "After any history and an update, the cost of ContactTask is, up to a constant, the weight in force times one half of the squared distance between the force of the contact on its first body and the last vector given to error().", "quantifier": "all layouts, contacts with any points and cones, histories, weights and multipliers", "why_tests_cant": "The cost is a quadratic form over every multiplier vector and its place in the vector depends on the whole contact list.", "anchors": ["src/QPTasks.cpp:1265-1317"]}
{"id": "C98", "title": "The cost of GripperTorqueTask is the torque of the contact about the axis", "statement": "For nonnegative multipliers the cost of GripperTorqueTask is the weight times the magnitude of the torque about the axis through the origin of the contact forces on the first body.", "quantifier": "all bilateral contacts, axes, origins and nonnegative multipliers", "why_tests_cant": "Only contacts with generators that turn both ways show it.", "anchors": ["src/QPTasks.cpp:1329-1375"]}
{"id": "C99", "title": "The stiffness of ContactTask scales its target", "statement": "The force ContactTask asks for is the error scaled by the stiffness given to its constructor, less the damping term of errorD().", "quantifier": "all stiffnesses and errors", "why_tests_cant": "A test that checks Q and C for one stiffness of one cannot see it.", "anchors": ["src/QPTasks.cpp:1310-1317", "src/Tasks/QPTasks.h:914-918"]}
{"id": "C100", "title": "Multi-robot tasks overshoot by the number of robots", "statement": "When every robot of a multi-robot task can have the asked acceleration on its own, then at every minimum of the task the robots together have it n times, n being the number of robots: the relative error is driven with n times the stiffness and damping that were set.", "quantifier": "all robots, Jacobians, gains, histories", "why_tests_cant": "quantifies over all minimisers and all real inputs", "anchors": ["src/QPTasks.cpp: MultiCoMTask::update, MultiRobotTransformTask::update"]}
{"id": "C101", "title": "A robot without degrees of freedom has zero normal acceleration", "statement": "After nrVars and computeNormalAccB the normal accelerations of a robot without degrees of freedom are zero, whatever robots the solver data held before.", "quantifier": "all histories of nrVars and computeNormalAccB", "why_tests_cant": "history property over changing sets of robots", "anchors": ["src/QPSolver.cpp: QPSolver::nrVars", "src/QPSolverData.cpp: SolverData::computeNormalAccB"]}
{"id": "C102", "title": "Orientation tasks: speed is Jacobian times velocity and its rate is Jacobian times acceleration plus normal acceleration", "statement": "For OrientationTask and SurfaceOrientationTask the error is the rotation error to the target, the speed is the angular velocity in the frame of the task and equals the Jacobian times the joint velocities, and the derivative of the speed is the Jacobian times the joint accelerations plus the normal acceleration.", "quantifier": "all robots, motions, targets, instants", "why_tests_cant": "derivative along all motions", "anchors": ["src/Tasks.cpp: OrientationTask::update, SurfaceOrientationTask::update"]}
{"id": "C103", "title": "The angular error of the orientation tasks decreases at the speed of the task", "statement": "Along every motion the derivative of the angular error is minus the angular speed of the task.", "quantifier": "all robots, motions, targets, instants", "why_tests_cant": "derivative along all motions", "anchors": ["src/Tasks.cpp: OrientationTask::update, SurfaceTransformTask::update"]}
{"id": "C104", "title": "TransformTask: linear error decreases at the speed, speed and normal acceleration agree with the motion", "statement": "The linear error of TransformTask is the vector from the point of the body to the target in the given frame and its derivative is minus the linear speed; all six speeds are the Jacobian times the joint velocities, and their derivatives the Jacobian times the joint accelerations plus the normal acceleration.", "quantifier": "all robots, motions, targets, frames, instants", "why_tests_cant": "derivative along all motions", "anchors": ["src/Tasks.cpp: TransformTask::update"]}
{"id": "C105", "title": "SurfaceTransformTask: linear error decreases at the speed, speed and normal acceleration agree with the motion", "statement": "The linear error of SurfaceTransformTask is the vector to the target in the frame of the moving surface and its derivative is minus the linear speed; the speeds are the Jacobian times the joint velocities; the derivative of the linear speed is the Jacobian times the joint accelerations plus the normal acceleration, and so is that of the angular speed whenever the angular error decreases at the angular speed.", "quantifier": "all robots, motions, targets, surfaces, instants", "why_tests_cant": "derivative along all motions in a moving frame", "anchors": ["src/Tasks.cpp: SurfaceTransformTask::update"]}
{"id": "C106", "title": "LinVelocityTask drives the velocity of the point", "statement": "The error of LinVelocityTask is the target minus the velocity of the point and its derivative is minus (Jacobian times joint accelerations plus normal acceleration).", "quantifier": "all robots, motions, points, targets, instants", "why_tests_cant": "derivative along all motions", "anchors": ["src/Tasks.cpp: LinVelocityTask::update"]}
{"id": "C107", "title": "MultiRobotTransformTask: the Jacobians of both robots, the error and the normal acceleration agree with the motion", "statement": "The linear error is the vector between the two surfaces in the frame of the first, its derivative is minus the linear speed, the speed is the sum of the two Jacobians times the joint velocities, and the derivative of the linear speed is the sum of the Jacobians times the joint accelerations plus the normal acceleration; likewise for the angular speed whenever the angular error decreases at it.", "quantifier": "all pairs of robots, motions, surfaces, instants", "why_tests_cant": "derivative along all motions of two robots", "anchors": ["src/Tasks.cpp: MultiRobotTransformTask::update"]}
{"id": "C108", "title": "RelativeDistTask: the difference of distances decreases at the speed", "statement": "Without fixed directions the error of RelativeDistTask is the difference of the two distances and its derivative is minus the speed of the task, which is the Jacobian times the joint velocities.", "quantifier": "all robots, motions, call histories with both distances non zero", "why_tests_cant": "derivative along all motions, histories of calls", "anchors": ["src/Tasks.cpp: RelativeDistTask::update"]}
{"id": "C109", "title": "RelativeDistTask: the normal acceleration is that of the motion", "statement": "Without fixed directions the derivative of the speed of RelativeDistTask is the Jacobian times the joint accelerations plus the normal acceleration.", "quantifier": "all robots, motions, call histories", "why_tests_cant": "derivative along all motions, histories of calls", "anchors": ["src/Tasks.cpp: RelativeDistTask::update, RelativeBodiesInfo::RelativeBodiesInfo"]}
{"id": "C110", "title": "RelativeDistTask with fixed directions decreases its error at the speed", "statement": "With fixed directions the derivative of the error is minus the speed, whatever the side of the bodies the directions point to.", "quantifier": "all robots, motions, directions", "why_tests_cant": "derivative along all motions", "anchors": ["src/Tasks.cpp: RelativeDistTask::update"]}
{"id": "C111", "title": "The mode of RelativeDistTask is decided by the constructor", "statement": "RelativeDistTask uses fixed directions exactly when both directions given to the constructor are non zero; vector() never changes it.", "quantifier": "all call histories", "why_tests_cant": "history property", "anchors": ["src/Tasks.cpp: RelativeDistTask::RelativeDistTask", "src/Tasks/Tasks.h: RelativeDistTask::vector"]}
{"id": "C112", "title": "Closed loop: the error of the robot itself decays critically damped", "statement": "When a robot moves under accelerations that minimise the cost of a set-point task over a PositionTask or TransformTask and the acceleration asked for can be attained, the position error of the moving body follows (e0 + (sqrt k e0 - v0) s) exp(- sqrt k s): it tends to zero and crosses zero at most once.", "quantifier": "all robots, motions, stiffnesses, weights, targets, histories of calls, times", "why_tests_cant": "a property of solutions of a differential equation for all times, joining the kinematics of the robot, the task and the optimisation", "anchors": ["src/Tasks.cpp: PositionTask::update, TransformTask::update", "src/QPTasks.cpp: SetPointTaskCommon::computeQC"]}
{"id": "C113", "title": "GazeTask follows a point of the world in the image", "statement": "Given a point of the world in the camera frame at each update, the error of GazeTask is the reference minus the projection, its derivative is minus the speed of the task, and the speed is the Jacobian times the joint velocities, whatever the task was used for before.", "quantifier": "all robots, motions, cameras, points off the image plane, references, instants", "why_tests_cant": "derivative along all motions; tests only see one pose", "anchors": ["src/Tasks.cpp: GazeTask::error, GazeTask::update"]}
{"id": "C114", "title": "GazeTask: the normal acceleration is that of the image motion", "statement": "The derivative of the speed of GazeTask is the Jacobian times the joint accelerations plus the normal acceleration.", "quantifier": "all robots, motions, cameras, points", "why_tests_cant": "derivative along all motions; the depth rate is computed by a library call with its own arguments", "anchors": ["src/Tasks.cpp: GazeTask::update"]}
{"id": "C115", "title": "ImageConstr predicts a feature to second order", "statement": "The row of ImageConstr applied to the joint accelerations, with its common term, is step times the image speed plus half the squared step times the image acceleration of the feature.", "quantifier": "all robots, motions, cameras, features, steps", "why_tests_cant": "derivative along all motions", "anchors": ["src/QPConstr.cpp: ImageConstr::computeComponents"]}
{"id": "C116", "title": "PositionBasedVisServoTask approaches the target pose", "statement": "Given the pose of the sensor seen from a fixed target at each update, the linear error is the vector to the target in the frame of the target and its derivative is minus the linear speed, the angular error is angle times axis of the rotation back, and the speed is the Jacobian times the joint velocities.", "quantifier": "all robots, motions, sensors, targets, instants", "why_tests_cant": "derivative along all motions", "anchors": ["src/Tasks.cpp: PositionBasedVisServoTask::error, PositionBasedVisServoTask::update"]}
{"id": "C117", "title": "PositionBasedVisServoTask: the normal acceleration is that of the motion", "statement": "The derivative of the linear speed of PositionBasedVisServoTask is the Jacobian times the joint accelerations plus the normal acceleration.", "quantifier": "all robots, motions, sensors, targets", "why_tests_cant": "derivative along all motions", "anchors": ["src/Tasks.cpp: PositionBasedVisServoTask::update"]}
{"id": "C118", "title": "OrientationTrackingTask moves only the tracking joints", "statement": "After any calls to the setters, the Jacobian of OrientationTrackingTask is the angular Jacobian of the body in the world with the columns of the joints that are not in trackingJointsName set to zero, the speed is the Jacobian times the joint velocities, and it is the angular velocity of the body when the other joints of the path are at rest. The constructor succeeds when the names are joints of the robot.", "quantifier": "all robots, paths, joint names, histories of setters, motions", "why_tests_cant": "all joint layouts and paths", "anchors": ["src/Tasks.cpp: OrientationTrackingTask::OrientationTrackingTask, update, zeroJacobian", "src/QPTasks.cpp: OrientationTrackingTask::update"]}
{"id": "C119", "title": "OrientationTrackingTask turns the axis towards the tracked point", "statement": "A body that turns with the angular velocity given by the error, about the point of the task, brings its axis nearer to the direction of the tracked point.", "quantifier": "all robots, motions, orientations of the body, tracked points", "why_tests_cant": "orientations of the body where the common normal is moved by the rotation of the body", "anchors": ["src/Tasks.cpp: OrientationTrackingTask::update (targetOri * rotation)"]}
{"id": "C120", "title": "OrientationTrackingTask: the normal acceleration is that of the motion", "statement": "The derivative of the speed of OrientationTrackingTask is the Jacobian times the joint accelerations plus the normal acceleration.", "quantifier": "all robots, motions, content of fresh memory", "why_tests_cant": "uninitialised memory is often zero in tests", "anchors": ["src/QPTasks.cpp: OrientationTrackingTask::update", "src/Tasks.cpp: OrientationTrackingTask::updateDot"]}
{"id": "C121", "title": "CoMTask follows the centre of mass", "statement": "Without body weights, after any calls to com and updateInertialParameters the last of which gave the masses of the robot, the error of CoMTask is the target minus the centre of mass, its derivative is minus the speed, the speed is the Jacobian times the joint velocities and its derivative is the Jacobian times the joint accelerations plus the normal acceleration.", "quantifier": "all robots, masses, histories of setters, motions, instants", "why_tests_cant": "derivative along all motions and all mass distributions", "anchors": ["src/Tasks.cpp: CoMTask", "src/QPTasks.cpp: CoMTask::update"]}
{"id": "C122", "title": "CoMTask with body weights is consistent", "statement": "Also with a weight per body, the error of CoMTask decreases at the speed of the task.", "quantifier": "all robots, weights, motions", "why_tests_cant": "holds for weights one, which tests use", "anchors": ["src/Tasks.cpp: CoMTask::CoMTask(mb, com, weight), CoMTask::update"]}
{"id": "C123", "title": "MultiCoMTask follows the common centre of mass", "statement": "After any calls to com and updateInertialParameters the last of which gave the masses of the robots, the error of MultiCoMTask is the target minus the common centre of mass, its derivative is minus the speed, the speed is the sum of the Jacobians times the joint velocities, and its derivative is the sum of the Jacobians times the joint accelerations plus the normal acceleration.", "quantifier": "all numbers of robots, masses, histories of setters, motions", "why_tests_cant": "derivative along all motions of any number of robots", "anchors": ["src/Tasks.cpp: MultiCoMTask"]}
{"id": "C124", "title": "Momentum task: matrix, error and normal term agree along every motion", "statement": "MomentumTask, after any calls to momentum(): whenever the robot moves, the Jacobian times the joint velocities is the target minus the error, the speed is zero, and the derivative of the error is minus (Jacobian times joint accelerations plus normal acceleration).", "quantifier": "for all robots with a positive mass, inertias, motions, targets and call sequences", "why_tests_cant": "a test compares with finite differences on one robot; the normal term mixes the velocity of every body with that of the centre of mass, and only a derivation shows that nothing is missing", "anchors": ["src/Tasks.cpp:954-987", "src/QPTasks.cpp:1233-1260"]}
{"id": "C125", "title": "Momentum task: the error is about the true momentum about the centre of mass", "statement": "When every body is made of particles, the first three rows of the error of MomentumTask are the target couple minus the angular momentum of the particles about the centre of mass, the last three the target force minus their linear momentum, which is the mass times the velocity of the centre of mass.", "quantifier": "for all robots, sets of particles, motions and targets", "why_tests_cant": "order of couple and force, the point of reference and the frame are conventions that a test with its own copy of them does not settle", "anchors": ["src/Tasks.cpp:976-987"]}
{"id": "C126", "title": "Momentum task in closed loop: the error decays as exp(-k t)", "statement": "A robot that moves under the accelerations that minimise the cost of a SetPointTask over a MomentumTask, when what the task asks for can be attained: every coordinate of the momentum error is multiplied by exp(-k s) after time s, k the stiffness; the damping has no effect because the speed of the task is zero.", "quantifier": "for all robots, motions, stiffnesses, weights, call sequences and times", "why_tests_cant": "a statement about all times of a differential equation", "anchors": ["src/Tasks.cpp:954-987", "src/QPTasks.cpp:110-122"]}
{"id": "C127", "title": "Joint limits are kept over whole control cycles", "statement": "A robot with a JointLimitsConstr is driven in a loop: the constraint is updated, solve() succeeds and writes the accelerations, the caller holds them during the period. After every cycle the joint positions are within the limits, the accelerations within the acceleration limits, and the change of acceleration between consecutive cycles within the jerk limits; tasks and other constraints may come and go between cycles.", "quantifier": "for all robots without floating base, limits, solver backends meeting their contract, call sequences between cycles and numbers of cycles", "why_tests_cant": "a test runs one loop with one set of tasks; the claim joins the update of the constraint, the assembly of the bounds, the reduction of mimic joints, the write-back and the integration over unboundedly many cycles", "anchors": ["src/QPSolver.cpp:42-49", "src/QPSolver.cpp:326-333", "src/QPConstr.cpp:50-147"]}
{"id": "C128", "title": "The velocity damper keeps the safety distance over whole control cycles", "statement": "A robot with a DamperJointLimitsConstr is driven by solve() in a loop. With damper parameters that can brake in time and a start at the safety distance or farther, the position of every joint with one degree of freedom stays at least the safety distance away from its limits after any number of cycles, for every integration rule between explicit and semi-implicit Euler.", "quantifier": "for all robots, limits, tuned parameters, starts, solver backends meeting their contract, call sequences between cycles and numbers of cycles", "why_tests_cant": "an invariant of unboundedly many cycles through solver and constraint state", "anchors": ["src/QPConstr.cpp:188-310", "src/QPSolver.cpp:42-49", "src/QPSolver.cpp:326-333"]}
{"id": "C129", "title": "Torques and their rates stay within limits over whole control cycles", "statement": "With a MotionConstr in the solver, and computeTorque called with alphaDVec and lambdaVec after each solve: the stored torque of every cycle is that of inverse dynamics for the solution of the solver and lies within the torque limits, and the torques of two consecutive cycles differ by at most the torque derivative limits times the period.", "quantifier": "for all robots, contacts that no robot has with itself, dynamics at each cycle, limits, springs, solver backends meeting their contract and numbers of cycles", "why_tests_cant": "the rate limit of one cycle depends on the torque stored by the caller after the previous one, through the variable layout of the solver", "anchors": ["src/QPMotionConstr.cpp:113-118", "src/QPMotionConstr.cpp:262-280", "src/QPSolver.cpp:294-301"]}
{"id": "C130", "title": "Contact rows speak of the motion of the contact frames", "statement": "For every contact held after any history of calls, the relative velocity used in the contact rows is the difference of the velocities with which the contact frame is carried by its two bodies along any motion of the robots, and its derivative with respect to time is the relative acceleration used in the rows, evaluated at the accelerations found in the decision variables.", "quantifier": "all robots, histories, contacts held, motions and times", "why_tests_cant": "A statement about derivatives along arbitrary motions: a finite difference test sees one motion and a tolerance.", "anchors": ["src/QPContactConstr.cpp:195-235", "src/QPContactConstr.cpp:246-288", "src/QPContactConstr.cpp:299-351", "src/QPContactConstr.h:130-187"]}
{"id": "C131", "title": "Relative velocity at a contact over time", "statement": "If the decision variables satisfy the rows of ContactAccConstr at every instant, the relative velocity of the contact frames along each selected row is constant; with ContactSpeedConstr of time step dt it is multiplied by exp(-s/dt) after a time s. The contact selects every direction, or its second robot has no degree of freedom, so that its reference does not move.", "quantifier": "all robots, histories (also between the instants), contacts, motions, times s >= 0", "why_tests_cant": "Continuous time closed loop over all motions: no execution covers it.", "anchors": ["src/QPContactConstr.cpp:195-235", "src/QPContactConstr.cpp:246-288", "src/QPContactConstr.cpp:82-104"]}
{"id": "C132", "title": "Bodies in contact stay in contact", "statement": "With each of ContactAccConstr, ContactSpeedConstr and ContactPosConstr, for a contact of which every direction is selected: if the contact frames carried by the two bodies coincide and have the same velocity at the start, they coincide at all later times.", "quantifier": "all robots, histories, contacts, motions, times s >= 0, all three constraints", "why_tests_cant": "Continuous time closed loop over all motions: no execution covers it; a simulation drifts by its integration error.", "anchors": ["src/QPContactConstr.cpp:195-235", "src/QPContactConstr.cpp:246-288", "src/QPContactConstr.cpp:299-351"]}
{"id": "C133", "title": "ContactPosConstr is stable", "statement": "With ContactPosConstr of time step dt on a contact of which every direction is selected: if the frames start less than half a turn apart and dt |w|^2 + angle^2 is below pi^2, they never reach half a turn and the energy |w|^2 + angle^2 / dt of the relative rotation never grows. If the orientations agree and the relative rotation is at rest they remain so and the energy |v|^2 + |error|^2 / dt of the relative translation never grows.", "quantifier": "all robots, histories, contacts, motions, times, dt > 0", "why_tests_cant": "A Lyapunov argument over all motions; simulations sample some initial conditions.", "anchors": ["src/QPContactConstr.cpp:299-351"]}
{"id": "C134", "title": "updateDot fills the derivative of the Jacobian", "statement": "After update and updateDot of PositionTask, OrientationTask, LinVelocityTask and OrientationTrackingTask, jacDot() is the derivative of jac() along the motion of the robot, entry by entry, and jacDot() times the joint velocities is the normal acceleration of the task.", "quantifier": "all robots, paths, task histories, motions, times", "why_tests_cant": "A derivative along every motion; a finite difference test samples few motions with a tolerance.", "anchors": ["src/Tasks.cpp:67-71", "src/Tasks.cpp:137-141", "src/Tasks.cpp:1057-1061", "src/Tasks.cpp:1145-1150"]}
{"id": "C135", "title": "updateDot of the centre of mass and of the momentum", "statement": "After update and updateDot of CoMTask and MomentumTask, jacDot() is the derivative of jac() and its product with the joint velocities is the normal acceleration. For robots whose bodies move by their joints the columns of bodyJacobianDot are the derivatives of the columns of the Jacobian of every body.", "quantifier": "all robots, bodies, masses, histories of the task, motions, times", "why_tests_cant": "A derivative along every motion of sums over all bodies.", "anchors": ["src/Tasks.cpp:795-796", "src/Tasks.cpp:989-993"]}
{"id": "C136", "title": "updateDot of SurfaceOrientationTask", "statement": "After update and updateDot of SurfaceOrientationTask, jacDot() is the derivative of jac() and its product with the joint velocities is the normal acceleration, whatever the surface frame is.", "quantifier": "all robots, surface frames, motions, times", "why_tests_cant": "Tests use surface frames parallel to the body.", "anchors": ["src/Tasks.cpp:425-444"]}
{"id": "C137", "title": "The two update overloads agree", "statement": "update(mb, mbc) and update(mb, mbc, normalAccB) with the accelerations of the solver data see the same normal acceleration of every body of every mobile robot, whatever the solver was used for before.", "quantifier": "all lists of robots, configurations, histories of the solver data, bodies", "why_tests_cant": "Unbounded trees and histories; tests compare the overloads on one robot.", "anchors": ["src/Tasks.cpp:45-66", "src/Tasks.cpp:115-136", "src/QPSolverData.cpp:20-40"]}
{"id": "C138", "title": "GazeTask fed with image points", "statement": "After any calls of the two error methods the image point and the reference are the last given and the depth is that of the last point in space. When the task is fed with the image of a fixed point, its speed is minus the rate of the error exactly when that depth is the true one or the camera does not move across the line of sight.", "quantifier": "all robots, histories, cameras, points in front of the camera, motions, times", "why_tests_cant": "The stale depth shows only along motions where the depth changes and nothing updates it.", "anchors": ["src/Tasks.cpp:533-569"]}
{"id": "C139", "title": "Every cycle of a whole-body controller is physically consistent", "statement": "A solver holding a contact constraint, a PositiveLambda constraint and a motion constraint, among any other tasks and constraints, is called in a loop; whenever solve() succeeds, the accelerations found satisfy the condition of every contact, the force at every contact point lies in the friction cone of that point, and accelerations, forces and the torques stored by computeTorque satisfy the equation of motion of the robot with torques within the limits.", "quantifier": "all robots, contacts, torque limits, histories of the solver and of the three constraints, numbers of cycles, and all numerical solvers that meet their contract", "why_tests_cant": "It composes the layout of the variables, the registries, the three constraints and the solver over unbounded histories; a test checks one posture of one robot with a tolerance.", "anchors": ["src/QPSolver.cpp:42-77, 326-333", "src/QPContactConstr.cpp:120-358", "src/QPMotionConstr.cpp: PositiveLambda, MotionConstrCommon, MotionConstr"]}
{"id": "C140", "title": "Contacts are kept by a robot driven by the solver", "statement": "If solve() succeeds at every instant, the registry holds a contact constraint updated at that instant, and the robots move with the accelerations found, then two bodies in contact that are together and at relative rest at the start stay together, whatever tasks and other constraints come and go.", "quantifier": "all robots, contacts with every direction selected, motions, histories of the solver, all three contact constraints, and all numerical solvers that meet their contract", "why_tests_cant": "It is a statement about solutions of differential equations produced by the solver, for all times.", "anchors": ["src/QPSolver.cpp:42-77, 326-333", "src/QPContactConstr.cpp:195-358"]}
{"id": "C141", "title": "Tasks that can be achieved together are achieved", "statement": "When the registered tasks can all be achieved by one acceleration vector that also satisfies all constraints and mimic relations, the result of solve() gives every task the acceleration it asks for.", "quantifier": "all robots, histories of the solver, sets of set-point tasks with positive weights (and tasks of any kind, minimised one by one), constraints, and all numerical solvers that meet their contract", "why_tests_cant": "Quantifies over all weights and Jacobians; it fails only when a diagonal entry falls below the regularisation threshold.", "anchors": ["src/GenQPUtils.h:25-58", "src/QPSolver.cpp:42-77", "src/QPTasks.cpp:61-122"]}
{"id": "C142", "title": "The error converges with the solver in the loop", "statement": "If solve() is called at every instant with a set-point task among any other tasks and constraints, and at every instant all of them can be achieved together, then the error of the task decays critically damped to zero (for a PositionTask: the distance of the body point of the moving robot to the target).", "quantifier": "all robots, motions, histories of the solver, other tasks and constraints, all set-point tasks with positive weights and stiffness, all numerical solvers that meet their contract", "why_tests_cant": "It is a statement about solutions of differential equations produced by the solver, for all times.", "anchors": ["src/QPSolver.cpp:42-77", "src/QPTasks.cpp:61-122", "src/Tasks.cpp:45-65"]}
{"id": "C143", "title": "The result is determined by what is registered", "statement": "Two solvers with the same robots, contacts, tasks and constraints return the same accelerations, whatever the order in which tasks and constraints were added, the history of other calls, and the back end.", "quantifier": "all histories, orders of registration, back ends, numerical solvers that meet their contract, tasks and constraints", "why_tests_cant": "Quantifies over all permutations and all optimal solutions of the QP.", "anchors": ["src/GenQPUtils.h:25-58", "src/QPSolver.cpp:42-77, 326-333"]}
{"id": "C144", "title": "Only the ratios of the task weights matter", "statement": "Multiplying the weights of all tasks by the same positive number does not change the result, and a task of weight zero has no effect.", "quantifier": "all tasks, weights, positive factors, constraints, histories and numerical solvers that meet their contract", "why_tests_cant": "Quantifies over all weights and factors; it fails only below an absolute threshold.", "anchors": ["src/GenQPUtils.h:25-58"]}
{"id": "C145", "title": "In control cycles the posture task brings a joint to its target only if sqrt(k) dt is small enough", "statement": "solve() computes one acceleration per control cycle and the caller integrates it over the control period dt. One would hope that a posture task that can be pleased together with the other tasks and constraints brings each of its joints to the target whatever stiffness k the user sets, as it does in continuous time (C93). It does not: with constant accelerations and sqrt(k) dt > 1 a joint at rest away from its target moves away exponentially, although every solve() succeeds and every task is met exactly. When 4 - 4 m + (1 - 2 th) m^2 > 0 and m < 2, with m = sqrt(k) dt and th the weight of the new velocity in the integration of the position (0, 1/2 and 1 are explicit Euler, constant acceleration and semi-implicit Euler), position error and velocity decrease exponentially.", "quantifier": "all robots, all histories of the solver and of the posture task, all tasks and constraints added or removed between the cycles, all stiffnesses, periods and integration weights, all infinite sequences of cycles", "why_tests_cant": "a test runs one stiffness with one period and stops after finitely many cycles; the limit of stability is a property of all of them", "anchors": ["src/QPTasks.cpp:721-749", "src/Tasks.cpp:705-731", "src/QPSolver.cpp:42-49", "src/QPSolver.cpp:326-345"]}
{"id": "C146", "title": "Conflicting tasks cannot make the robot run away", "statement": "Users register several set-point, trajectory and posture tasks that cannot all be achieved and rely on the robot settling somewhere between the targets instead of oscillating ever more. When solve() is called at every instant with any set of SetPointTasks, and TrajectoryTasks and PostureTasks without references, and the constraints leave room along the motion (contacts that hold, limits not reached), the weighted sum over all task coordinates of speed^2/2 + stiffness error^2/2, plus 1e-4/2 times the squared velocities of the variables no task weighs, decreases at exactly the rate of the weighted sum of damping times speed^2. Hence every task error stays bounded for ever by a constant computed from the start.", "quantifier": "all robots, all sets of tasks, weights, gains, targets and histories of calls, all contacts and constraints that leave room, all motions and times", "why_tests_cant": "boundedness for all times of a feedback loop through an optimisation; a test simulates one conflict for a finite time", "anchors": ["src/QPTasks.cpp:61-122", "src/QPTasks.cpp:180-273", "src/QPTasks.cpp:721-749", "src/GenQPUtils.h:25-58", "src/QPSolver.cpp:42-77"]}
{"id": "C147", "title": "A VectorOrientationTask brings the vector to its target", "statement": "One would hope that a set-point task over a VectorOrientationTask, alone, brings a unit vector of the body to its unit target whenever the robot can turn it. It does not if the vector starts at rest opposite to the target: the error is then orthogonal to every motion and the robot never moves. From every other start at rest, and more generally whenever |u'|^2/2 + k (1 - cos angle) < 2 k at the start, the distance to the target tends to zero exponentially, with a rate computed from the gains and the start, for SetPointTask and for TrajectoryTask with a damping changed at will between two positive bounds. The acceleration the task asks for (a straight line in space) can never be attained at all times unless the vector is already on its target.", "quantifier": "all robots, bodies, motions, unit vectors and targets, gains, equal dimension weights, histories of calls, times", "why_tests_cant": "a property of the solutions of a nonlinear differential equation for all times and all starts but one", "anchors": ["src/Tasks.cpp:1288-1356", "src/QPTasks.cpp:61-122", "src/QPTasks.cpp:180-273"]}
{"id": "C148", "title": "An orientation task turns the body to its target in closed loop", "statement": "When the robot is given the accelerations that a set-point task (or a trajectory task without references, with damping changed at any instant between two positive bounds) over an OrientationTask or a SurfaceOrientationTask asks for, the angle between the body and its target stays below a half turn and tends to zero exponentially, for every start whose energy (half the squared angular velocity plus half the stiffness times the squared angle) is below that of rest a half turn away; this also holds for solve() called at every instant among other compatible tasks and constraints.", "quantifier": "all robots, paths, target orientations, surface frames, stiffnesses, dampings, weights, motions and solver histories", "why_tests_cant": "The rotation error does not decrease at the speed of the task (C103), so the closed loop is a nonlinear system on the rotations; simulated runs show some trajectories, not that every start below the half-turn energy converges nor at which rate.", "anchors": ["src/Tasks.cpp: OrientationTask::update, SurfaceOrientationTask::update", "src/QPTasks.cpp: SetPointTask::update, TrajectoryTask::update"]}
{"id": "C149", "title": "The error message can be printed for every infeasible problem", "statement": "When solving failed and lssol reports violated variables and lines, errorMsg prints the name and the value of each without undefined behaviour, whether or not some robot has mimic joints.", "quantifier": "all histories, robots, registered constraints, state vectors and results of the numerical solver", "why_tests_cant": "The message is printed on infeasible problems only, and the failure needs mimic joints, the LSSOL back end and a violated line at once.", "anchors": ["src/LSSOLQPSolver.cpp: errorMsg", "src/GenQPUtils.h: constrErrorMsg", "src/GenQPUtils.h: printConstr"]}
{"id": "C150", "title": "The error message names the bound of the variable that is out of its bounds", "statement": "For each variable that lssol reports out of its bounds, errorMsg names the first bound constraint that bounds this variable of the problem, at its line, also when mimic joints were eliminated from the problem given to lssol.", "quantifier": "all histories, robots, bounds, state vectors and results of the numerical solver", "why_tests_cant": "Needs an infeasible problem with mimic joints; the message looks plausible since it names an existing joint.", "anchors": ["src/LSSOLQPSolver.cpp: errorMsg", "src/GenQPSolver.cpp: setDependencies"]}
{"id": "C151", "title": "A transform task brings the frame to the pose of its target", "statement": "Under a set-point task whose demand is compatible with the other tasks and constraints, a TransformTask moves the origin of its frame to that of the target along the motion of a critically damped spring, whatever the frame E_0_c in which the task is written, and turns the frame to the target: if the energy of the rotation at the start is below that at rest a half turn away, the angle stays below a half turn and tends to zero exponentially.", "quantifier": "all solver histories, robots, motions, stiffnesses, frames, targets and initial states", "why_tests_cant": "The claim is about the limit of all trajectories; a simulation shows one.", "anchors": ["src/Tasks.cpp: TransformTask::update", "src/QPTasks.cpp: SetPointTask::update", "src/QPSolver.cpp: QPSolver::solve"]}
{"id": "C152", "title": "A surface transform task brings the frame to the pose of its target", "statement": "Under a set-point task whose demand is compatible with the other tasks and constraints, a SurfaceTransformTask brings its frame to the target, although the speed it uses is not the rate of its orientation error: the way to the target, seen in the frame, decreases as a critically damped spring, and if the energy of the rotation at the start is below that at rest a half turn away the angle stays below a half turn and tends to zero exponentially.", "quantifier": "all solver histories, robots, motions, stiffnesses, frames, targets and initial states; for the rotation also all dampings that vary between two bounds, for energies below 5/2 d1 sqrt k", "why_tests_cant": "The claim is about the limit of all trajectories of a nonlinear system whose feedback is not exact.", "anchors": ["src/Tasks.cpp: SurfaceTransformTask::update", "src/QPTasks.cpp: SetPointTask::update", "src/QPSolver.cpp: QPSolver::solve"]}
{"id": "C153", "title": "Points and directions of RelativeDistTask are the last ones given", "statement": "After any sequence of setters and updates, each pair of RelativeDistTask uses the robot point, the environment point and the direction last given for its body (also when both pairs are on the same body), and its Jacobian is taken at the robot point in use.", "quantifier": "all constructor arguments and all sequences of setters and updates", "why_tests_cant": "a test tries a few calls; the setters select pairs by body index, and updates, which write the same records, may come anywhere between them", "anchors": ["src/Tasks.cpp:1170-1217", "src/Tasks.cpp:1219-1270"]}
