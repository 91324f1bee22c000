{
 "claims": [
  {
   "property": "C01",
   "status": "proved",
   "theorems": [
    "C01_layout_defined",
    "C01_layout_partition",
    "C01_layout_counts",
    "C01_layout_order",
    "C01_layout_mobile"
   ],
   "note": "nrVars modelled with its loops over robots and contacts; definedness, partition, totals and order of the segments."
  },
  {
   "property": "C02",
   "status": "proved",
   "theorems": [
    "C02_result_accessors"
   ],
   "note": "Accessors read inside the vector and concatenate to it."
  },
  {
   "property": "C03",
   "status": "proved",
   "theorems": [
    "C03_contact_lambda_position"
   ],
   "note": "Exact, duplicate ids included."
  },
  {
   "property": "C04",
   "status": "proved",
   "theorems": [
    "C04_tasks_ordered_set",
    "C04_constraints_ordered_set"
   ],
   "note": "All call histories."
  },
  {
   "property": "C05",
   "status": "proved",
   "theorems": [
    "C05_kind_lists",
    "C05_remove_defined",
    "C05_no_influence",
    "C05_round_trip"
   ],
   "note": "All alternating histories; kinds of an object are distinct."
  },
  {
   "property": "C06",
   "status": "partial",
   "theorems": [
    "C06_double_add_refuted",
    "C06_remove_absent_refuted"
   ],
   "note": "Refuted as stated, for every constraint with at least one kind: the object stays in the lists that feed the QP; a removal while absent is undefined."
  },
  {
   "property": "C07",
   "status": "proved",
   "theorems": [
    "C07_no_overrun"
   ],
   "note": "Both back ends; the numerical solver only needs to return a vector of the right size (part of contract)."
  },
  {
   "property": "C08",
   "status": "partial",
   "theorems": [
    "C08_any_order_refuted"
   ],
   "note": "Refuted as stated, for both back ends and every numerical solver. C07 is the guarded version."
  },
  {
   "property": "C09",
   "status": "proved",
   "theorems": [
    "C09_general_form"
   ],
   "note": "Without mimic joints; with them see C16, C20."
  },
  {
   "property": "C10",
   "status": "proved",
   "theorems": [
    "C10_standard_form",
    "C10_back_ends_agree"
   ],
   "note": "The agreement of the two back ends includes mimic joints."
  },
  {
   "property": "C11",
   "status": "proved",
   "theorems": [
    "C11_bounds_disjoint",
    "C11_bounds_last_wins",
    "C11_bounds_defined"
   ],
   "note": ""
  },
  {
   "property": "C12",
   "status": "partial",
   "theorems": [
    "C12_overlapping_bounds_refuted"
   ],
   "note": "Refuted as stated; C11_bounds_last_wins says exactly what is enforced."
  },
  {
   "property": "C13",
   "status": "proved",
   "theorems": [
    "C13_objective",
    "C13_entries",
    "C13_defined"
   ],
   "note": ""
  },
  {
   "property": "C14",
   "status": "proved",
   "theorems": [
    "C14_convex"
   ],
   "note": "Tasks with symmetric blocks, nonnegative weights and positive semidefinite matrices."
  },
  {
   "property": "C15",
   "status": "proved",
   "theorems": [
    "C15_reduction_maps"
   ],
   "note": "Leaders are not replicas (wfDeps)."
  },
  {
   "property": "C16",
   "status": "proved",
   "theorems": [
    "C16_reduced_problem"
   ],
   "note": "Nonzero multipliers; C17 covers the zero ones."
  },
  {
   "property": "C17",
   "status": "partial",
   "theorems": [
    "C17_zero_multiplier_refuted",
    "C17_zero_multiplier_exact"
   ],
   "note": "Refuted as stated; the second theorem says exactly which bounds survive."
  },
  {
   "property": "C18",
   "status": "partial",
   "theorems": [
    "C18_chain_refuted",
    "C18_chain_stale_refuted"
   ],
   "note": "Refuted as stated: undefined on a new solver, wrong variable on a used one."
  },
  {
   "property": "C19",
   "status": "partial",
   "theorems": [
    "C19_switch_refuted",
    "C19_switch_no_mimic"
   ],
   "note": "Refuted as stated (mimic relations are lost); proved for robots without mimic joints."
  },
  {
   "property": "C20",
   "status": "proved",
   "theorems": [
    "C20_optimal"
   ],
   "note": "Relative to the stated contract of the numerical solver; bounds disjoint, multipliers nonzero."
  },
  {
   "property": "C21",
   "status": "proved",
   "theorems": [
    "C21_write_back"
   ],
   "note": ""
  },
  {
   "property": "C22",
   "status": "proved",
   "theorems": [
    "C22_error_line",
    "C22_error_bound"
   ],
   "note": "Owner of a line of the stack and of a bounded variable. The choice of the lines to report is C68."
  },
  {
   "property": "C23",
   "status": "partial",
   "theorems": [
    "C23_with_base_exact",
    "C23_without_base_exact",
    "C23_without_base_refuted"
   ],
   "note": "Refuted as stated; exact description of the lines for which it holds."
  },
  {
   "property": "C24",
   "status": "proved",
   "theorems": [
    "C24_contact_id_order"
   ],
   "note": ""
  },
  {
   "property": "C25",
   "status": "proved",
   "theorems": [
    "C25_contacts"
   ],
   "note": ""
  },
  {
   "property": "C26",
   "status": "proved",
   "theorems": [
    "C26_registry",
    "C26_history",
    "C26_getter"
   ],
   "note": "Histories without the getter dofContact, whose effect is C70."
  },
  {
   "property": "C27",
   "status": "proved",
   "theorems": [
    "C27_unilateral_cone",
    "C27_bilateral_cone",
    "C27_generators"
   ],
   "note": "Both bodies; for bilateral contacts point by point. The generators are also shown to lie on the boundary of the cone, evenly spread."
  },
  {
   "property": "C28",
   "status": "proved",
   "theorems": [
    "C28_unilateral_reaction",
    "C28_bilateral_reaction"
   ],
   "note": "X_b1_b2 has a proper rotation; the contact frame is arbitrary."
  },
  {
   "property": "C29",
   "status": "proved",
   "theorems": [
    "C29_linear",
    "C29_additive",
    "C29_bilateral_of_unilateral"
   ],
   "note": ""
  },
  {
   "property": "C30",
   "status": "partial",
   "theorems": [
    "C30_unilateral_throw",
    "C30_bilateral_throw",
    "C30_unilateral_safe",
    "C30_bilateral_safe",
    "C30_throw_refuted",
    "C30_missing_checks"
   ],
   "note": "Refuted as stated: the cone(s) and the list of points are not checked. The throw conditions are characterised exactly and shown sufficient when the cones and points are the contact's own."
  },
  {
   "property": "C31",
   "status": "proved",
   "theorems": [
    "C31_rows",
    "C31_defined"
   ],
   "note": "Acceleration, speed and position contacts; Jacobians, normal accelerations and velocities are arbitrary inputs."
  },
  {
   "property": "C32",
   "status": "proved",
   "theorems": [
    "C32_lines",
    "C32_owner"
   ],
   "note": ""
  },
  {
   "property": "C33",
   "status": "partial",
   "theorems": [
    "C33_desc_refuted",
    "C33_desc_six_rows",
    "C33_desc_wrong"
   ],
   "note": "Refuted as stated: descEq divides the line by six whatever the selection matrices. Proved when all contacts have six rows, and the failure characterised."
  },
  {
   "property": "C34",
   "status": "proved",
   "theorems": [
    "C34_positive"
   ],
   "note": ""
  },
  {
   "property": "C35",
   "status": "proved",
   "theorems": [
    "C35_limits",
    "C35_torque",
    "C35_defined"
   ],
   "note": "Contacts between different robots or with the environment; for a contact of the robot with itself see C37."
  },
  {
   "property": "C36",
   "status": "proved",
   "theorems": [
    "C36_rate",
    "C35_limits"
   ],
   "note": "C35_limits gives the exact condition, including that the first update has no rate limit."
  },
  {
   "property": "C37",
   "status": "partial",
   "theorems": [
    "C37_self_contact_refuted",
    "C37_exact"
   ],
   "note": "Refuted as stated for a contact between two bodies of the same robot: only the second side is kept. C37_exact is the exact condition for any contacts."
  },
  {
   "property": "C38",
   "status": "proved",
   "theorems": [
    "C38_spring",
    "C38_poly",
    "C35_limits"
   ],
   "note": "The spring torque is imposed exactly rather than shifting the bounds (the loop overwrites both bounds)."
  },
  {
   "property": "C39",
   "status": "partial",
   "theorems": [
    "C39_position",
    "C39_floating_undefined",
    "C39_floating_refuted",
    "C39_spherical_refuted"
   ],
   "note": "Proved for robots with a fixed base and joints whose parameters are their degrees of freedom. Refuted with a free or spherical first joint (size mismatch in every update) and with a ball joint further in the chain (wrong coordinate)."
  },
  {
   "property": "C40",
   "status": "proved",
   "theorems": [
    "C40_exact"
   ],
   "note": "Same robots as C39."
  },
  {
   "property": "C41",
   "status": "proved",
   "theorems": [
    "C41_exact",
    "C41_inside",
    "C41_defined",
    "C41_stop"
   ],
   "note": "Invariance for any integration between explicit and semi-implicit Euler, under explicit conditions on step, velocity limits, offset and zones."
  },
  {
   "property": "C42",
   "status": "partial",
   "theorems": [
    "C42_no_jump",
    "C42_refuted"
   ],
   "note": "Refuted as stated when the joint is already within the security distance; proved beyond it."
  },
  {
   "property": "C43",
   "status": "partial",
   "theorems": [
    "C43_refuted",
    "C41_inside"
   ],
   "note": "Refuted as stated where the zones overlap; C41_inside protects both limits when they do not."
  },
  {
   "property": "C44",
   "status": "partial",
   "theorems": [
    "C44_number",
    "C44_description",
    "C44_shared_refuted",
    "C45_exact"
   ],
   "note": "Proved when every hull belongs to one body at one place; the description is refuted when a hull is used at two places. C45_exact gives the meaning of row k as that of the k-th close pair."
  },
  {
   "property": "C45",
   "status": "partial",
   "theorems": [
    "C45_exact",
    "C45_first_refuted"
   ],
   "note": "Exact meaning of every row; refuted as stated for the first update after addCollision, which takes zero for the previous normal."
  },
  {
   "property": "C46",
   "status": "proved",
   "theorems": [
    "C46_security"
   ],
   "note": "The damping in force, given or automatic. The pair starts out of reach (see C45 for the first update) and a step taken out of reach is at most di - ds."
  },
  {
   "property": "C47",
   "status": "proved",
   "theorems": [
    "C47_registry"
   ],
   "note": ""
  },
  {
   "property": "C48",
   "status": "partial",
   "theorems": [
    "C48_exact",
    "C48_refuted"
   ],
   "note": "Refuted as stated: wrong sign and wrong point. C48_exact is what the row says."
  },
  {
   "property": "C49",
   "status": "partial",
   "theorems": [
    "C49_rows",
    "C49_description",
    "C49_description_refuted"
   ],
   "note": "The rows are proved as stated. The description is refuted for a plane exactly at its interactive distance (the row is written for dist <= di, descInEq counts dist < di) and proved when no plane is there."
  },
  {
   "property": "C50",
   "status": "proved",
   "theorems": [
    "C50_torque",
    "C50_defined"
   ],
   "note": ""
  },
  {
   "property": "C51",
   "status": "partial",
   "theorems": [
    "C51_description",
    "C51_refuted"
   ],
   "note": "Proved when every gripper is a contact of the solver; refuted as stated otherwise: update skips such a gripper, descInEq does not."
  },
  {
   "property": "C52",
   "status": "proved",
   "theorems": [
    "C52_rows",
    "C52_constraint"
   ],
   "note": ""
  },
  {
   "property": "C53",
   "status": "proved",
   "theorems": [
    "C53_registry"
   ],
   "note": ""
  },
  {
   "property": "C54",
   "status": "partial",
   "theorems": [
    "C54_rows",
    "C54_exact",
    "C54_refuted"
   ],
   "note": "Refuted as stated: a feature beyond the safety limit has no row. C54_exact is what the constraint says, for all histories and solutions, C54_rows says it row by row."
  },
  {
   "property": "C55",
   "status": "proved",
   "theorems": [
    "C55_setpoint",
    "C55_defined",
    "C55_tracking",
    "C55_trajectory"
   ],
   "note": ""
  },
  {
   "property": "C56",
   "status": "proved",
   "theorems": [
    "C56_converges"
   ],
   "note": ""
  },
  {
   "property": "C57",
   "status": "partial",
   "theorems": [
    "C57_refuted",
    "C57_exact",
    "C57_given"
   ],
   "note": "Refuted as stated: update overwrites the member error it reads. C57_exact is the recursion; C57_given shows the claim when error() is given before each update."
  },
  {
   "property": "C58",
   "status": "partial",
   "theorems": [
    "C58_cost",
    "C58_plan",
    "C58_replan",
    "C58_reach",
    "C58_short",
    "C58_refuted",
    "C58_duration"
   ],
   "note": "Refuted as stated for durations of one or two time steps (C58_short says exactly when it holds); C58_reach proves it for three steps or more, the acceleration being held during each step, C58_plan for the continuous plan."
  },
  {
   "property": "C59",
   "status": "proved",
   "theorems": [
    "C59_columns",
    "C59_defined",
    "C59_unactive",
    "C59_complement",
    "C59_task",
    "C59_cost"
   ],
   "note": ""
  },
  {
   "property": "C60",
   "status": "proved",
   "theorems": [
    "C60_independent",
    "C60_minimum",
    "C60_defined"
   ],
   "note": "Hypothesis plainJoints (fixed, one-dof or spherical joints behind the root) is the property's own; without it see C90. No gains may be given to the root by name: see C92."
  },
  {
   "property": "C61",
   "status": "proved",
   "theorems": [
    "C61_multi_com",
    "C61_defined"
   ],
   "note": "The error equation is for masses equal to those last given to the constructor or updateInertialParameters, as the interface asks; the weights sum to 1 always. Robot lists are not empty."
  },
  {
   "property": "C62",
   "status": "partial",
   "theorems": [
    "C62_stacked_refuted",
    "C62_exact",
    "C62_defined"
   ],
   "note": "Refuted as stated: the blocks between different robots are missing from Q, so the problem is not the stacked least-squares problem. C62_exact gives the problem solved: the sum over the robots of the single-robot problems, each with the whole acceleration."
  },
  {
   "property": "C63",
   "status": "proved",
   "theorems": [
    "C63_contact",
    "C63_gripper",
    "C63_contact_defined",
    "C63_gripper_defined"
   ],
   "note": ""
  },
  {
   "property": "C64",
   "status": "proved",
   "theorems": [
    "C64_normal_accelerations"
   ],
   "note": "Stronger than stated: with the tree kinematics the computed acceleration plus the Jacobian times alphaD is the derivative of the body velocity; a robot without degrees of freedom keeps its old entries, see C101."
  },
  {
   "property": "C65",
   "status": "proved",
   "theorems": [
    "C65_vector",
    "C65_bound",
    "C65_skew"
   ],
   "note": "Also: the error decreases at the speed, and the normal acceleration is that of the motion."
  },
  {
   "property": "C66",
   "status": "partial",
   "theorems": [
    "C66_body_point_refuted",
    "C66_exact"
   ],
   "note": "Refuted as stated: update() evaluates the error at the point of the constructor while the Jacobian moves to the new point. C66_exact is the exact behaviour for every call history."
  },
  {
   "property": "C67",
   "status": "proved",
   "theorems": [
    "C67_mimic_dependencies"
   ],
   "note": "For robots whose mimic leaders exist, have a dof and are not mimic joints."
  },
  {
   "property": "C68",
   "status": "partial",
   "theorems": [
    "C68_error_msg_refuted"
   ],
   "note": "Refuted as stated for every history without mimic joints."
  },
  {
   "property": "C69",
   "status": "partial",
   "theorems": [
    "C69_reference_kept",
    "C69_motion",
    "C69_reference_refuted"
   ],
   "note": "Refuted as stated (updateDofContacts keeps the free directions of the old matrix); proved for the matrix used by updateNrVars."
  },
  {
   "property": "C70",
   "status": "partial",
   "theorems": [
    "C70_getter_refuted",
    "C70_getter_breaks"
   ],
   "note": "Refuted as stated: the getter inserts an empty matrix."
  },
  {
   "property": "C71",
   "status": "proved",
   "theorems": [
    "C71_torque_accessor"
   ],
   "note": ""
  },
  {
   "property": "C72",
   "status": "partial",
   "theorems": [
    "C72_contact_matrix",
    "C72_contact_matrix_refuted"
   ],
   "note": "Refuted as stated with two robots; proved for a single robot."
  },
  {
   "property": "C73",
   "status": "partial",
   "theorems": [
    "C41_exact",
    "C73_ratchet_refuted",
    "C73_velocity_refuted"
   ],
   "note": "Refuted as stated for joints with several degrees of freedom; C41_exact is the exact condition for any robot and any number of updates."
  },
  {
   "property": "C74",
   "status": "partial",
   "theorems": [
    "C74_exact",
    "C74_refuted"
   ],
   "note": "Refuted as stated: the row has no variables and may be false."
  },
  {
   "property": "C75",
   "status": "partial",
   "theorems": [
    "C75_exact",
    "C75_refuted"
   ],
   "note": "Refuted as stated when the offset is not zero."
  },
  {
   "property": "C76",
   "status": "proved",
   "theorems": [
    "C76_plane_registry"
   ],
   "note": ""
  },
  {
   "property": "C77",
   "status": "proved",
   "theorems": [
    "C77_plane_security"
   ],
   "note": ""
  },
  {
   "property": "C78",
   "status": "partial",
   "theorems": [
    "C78_exact",
    "C78_refuted"
   ],
   "note": "Refuted as stated: the automatic damping is negative when the centre of mass moves away as the plane becomes active. Proved for a damping of the user, and for an automatic damping chosen during an approach with an offset that is not negative."
  },
  {
   "property": "C79",
   "status": "proved",
   "theorems": [
    "C79_gripper_registry"
   ],
   "note": ""
  },
  {
   "property": "C80",
   "status": "partial",
   "theorems": [
    "C80_refuted",
    "C52_constraint"
   ],
   "note": "Refuted as stated: the rows stay until updateBoundedSpeeds or updateNrVars. C52_constraint is what holds after that."
  },
  {
   "property": "C81",
   "status": "partial",
   "theorems": [
    "C81_refuted",
    "C54_exact"
   ],
   "note": "Refuted as stated: points of the robot are never used by update. C54_exact shows that only the points of the environment restrict."
  },
  {
   "property": "C82",
   "status": "partial",
   "theorems": [
    "C82_still",
    "C82_occlusion",
    "C82_refuted"
   ],
   "note": "Proved for the field of view; refuted for occlusion, whose rows ask for a minimal motion away from the rectangle, largest at the interactive limit (C82_occlusion)."
  },
  {
   "property": "C83",
   "status": "proved",
   "theorems": [
    "C83_image_safety"
   ],
   "note": ""
  },
  {
   "property": "C84",
   "status": "partial",
   "theorems": [
    "C84_exact",
    "C84_refuted"
   ],
   "note": "Refuted as stated: the description counts all rows, also the inactive ones; C84_exact is what it says."
  },
  {
   "property": "C85",
   "status": "proved",
   "theorems": [
    "C85_image_registry"
   ],
   "note": ""
  },
  {
   "property": "C86",
   "status": "proved",
   "theorems": [
    "C86_objective"
   ],
   "note": ""
  },
  {
   "property": "C87",
   "status": "partial",
   "theorems": [
    "C87_refuted",
    "C87_elapsed",
    "C87_exact"
   ],
   "note": "Refuted as stated: the next update divides by zero. C87_exact: defined exactly at all other moments."
  },
  {
   "property": "C88",
   "status": "partial",
   "theorems": [
    "C88_refuted",
    "C88_exact",
    "C88_complement_refused"
   ],
   "note": "Refuted as stated: UnactiveJoints computes the complement of the dofs and drops it; C88_exact: the map has no effect."
  },
  {
   "property": "C89",
   "status": "partial",
   "theorems": [
    "C89_refuted",
    "C89_exact"
   ],
   "note": "Refuted as stated: the assertion excludes ranges that reach the last dof of the joint; C89_exact says when the constructor is defined."
  },
  {
   "property": "C90",
   "status": "partial",
   "theorems": [
    "C90_refuted",
    "C90_planar_refuted",
    "C60_independent"
   ],
   "note": "Refuted as stated: a joint with two dofs shifts the errors of the joints after it, a planar joint is undefined behaviour. C60_independent holds under plainJoints."
  },
  {
   "property": "C91",
   "status": "partial",
   "theorems": [
    "C91_refuted",
    "C91_exact"
   ],
   "note": "Refuted as stated: jointPosInDof(1) is read for a robot with one joint. C91_exact: defined if and only if there are two joints or more."
  },
  {
   "property": "C92",
   "status": "partial",
   "theorems": [
    "C92_refuted",
    "C92_linear",
    "C60_independent"
   ],
   "note": "Refuted as stated: gains given to a free root put a linear term on dofs without a quadratic one. C60_independent gives the bound when no gains are given to the root."
  },
  {
   "property": "C93",
   "status": "proved",
   "theorems": [
    "C93_converges"
   ],
   "note": ""
  },
  {
   "property": "C94",
   "status": "proved",
   "theorems": [
    "C94_torque",
    "C94_torque_all",
    "C94_defined"
   ],
   "note": "Contacts of the robot with itself are the subject of C95."
  },
  {
   "property": "C95",
   "status": "partial",
   "theorems": [
    "C95_self_refuted",
    "C95_exact"
   ],
   "note": "Refuted as stated: the matrix counts the force on one body only of a contact of the robot with itself (finding of C37). C95_exact gives the torques that are counted, for every contact set."
  },
  {
   "property": "C96",
   "status": "proved",
   "theorems": [
    "C96_end_effector"
   ],
   "note": ""
  },
  {
   "property": "C97",
   "status": "proved",
   "theorems": [
    "C97_pull"
   ],
   "note": ""
  },
  {
   "property": "C98",
   "status": "partial",
   "theorems": [
    "C98_gripper_refuted",
    "C98_gripper"
   ],
   "note": "Refuted as stated: magnitudes are summed per generator. C98_gripper: the cost is that sum, bounds the torque, and equals it when no generator turns backwards."
  },
  {
   "property": "C99",
   "status": "partial",
   "theorems": [
    "C99_stiffness_refuted",
    "C99_no_effect"
   ],
   "note": "Refuted as stated: the stiffness and errorD() are stored and never read. C99_no_effect proves that they change nothing."
  },
  {
   "property": "C100",
   "status": "proved",
   "theorems": [
    "C100_overshoot"
   ],
   "note": ""
  },
  {
   "property": "C101",
   "status": "partial",
   "theorems": [
    "C101_fixed_robot_refuted",
    "C101_never_mobile"
   ],
   "note": "Refuted as stated: nrVars resizes the stored accelerations without clearing them and computeNormalAccB skips immobile robots. C101_never_mobile is the guarded positive statement."
  },
  {
   "property": "C102",
   "status": "proved",
   "theorems": [
    "C102_orientation",
    "C102_surface_orientation"
   ],
   "note": "sva::rotationVelocity is an arbitrary function here."
  },
  {
   "property": "C103",
   "status": "partial",
   "theorems": [
    "C103_angular_refuted",
    "C103_axis",
    "C103_surface_axis",
    "C103_log"
   ],
   "note": "Refuted as stated: the derivative of the rotation vector is not the angular velocity unless the body turns about the axis of the error. C103_axis and C103_surface_axis prove the rate for motions about the axis of the error."
  },
  {
   "property": "C104",
   "status": "proved",
   "theorems": [
    "C104_transform"
   ],
   "note": ""
  },
  {
   "property": "C105",
   "status": "proved",
   "theorems": [
    "C105_surface_transform"
   ],
   "note": ""
  },
  {
   "property": "C106",
   "status": "proved",
   "theorems": [
    "C106_linear_velocity"
   ],
   "note": ""
  },
  {
   "property": "C107",
   "status": "proved",
   "theorems": [
    "C107_multi_transform"
   ],
   "note": ""
  },
  {
   "property": "C108",
   "status": "proved",
   "theorems": [
    "C108_distance"
   ],
   "note": ""
  },
  {
   "property": "C109",
   "status": "partial",
   "theorems": [
    "C109_distance_acceleration_refuted",
    "C109_first_update",
    "C109_later",
    "C109_vanishes",
    "C108_distance"
   ],
   "note": "Refuted as stated: the direction of the last update starts at zero, so at the first update the announced acceleration is off by speed / dt; later it is a backward difference (C109_later), whose error vanishes with the time step (C109_vanishes). C108_distance gives the exact error of the announced acceleration in every state."
  },
  {
   "property": "C110",
   "status": "partial",
   "theorems": [
    "C110_direction_refuted",
    "C110_exact"
   ],
   "note": "Refuted as stated: the error has an absolute value the speed lacks, so the sign of the feedback is reversed when the bodies are on the other side. C110_exact is the exact behaviour."
  },
  {
   "property": "C111",
   "status": "proved",
   "theorems": [
    "C111_mode"
   ],
   "note": ""
  },
  {
   "property": "C112",
   "status": "proved",
   "theorems": [
    "C112_position_converges",
    "C112_transform_converges"
   ],
   "note": "The body point of PositionTask must not have been changed after construction (C66). The hypothesis that the objective is attained is that of C56. VectorOrientationTask, for which that hypothesis cannot hold, is treated in C147."
  },
  {
   "property": "C113",
   "status": "proved",
   "theorems": [
    "C113_gaze"
   ],
   "note": "imagePointJacobian and imagePointJacobianDot are hypotheses: the interaction matrix of a point and its derivative."
  },
  {
   "property": "C114",
   "status": "partial",
   "theorems": [
    "C114_gaze_acceleration_refuted",
    "C114_exact"
   ],
   "note": "Refuted as stated, for every depth-rate Jacobian: depthDotJacobian is called with the image speed in place of the image point. C114_exact is the exact error, zero when the rate used is the rate of the depth."
  },
  {
   "property": "C115",
   "status": "partial",
   "theorems": [
    "C115_feature_refuted",
    "C115_exact"
   ],
   "note": "Refuted as stated, for every depth-rate Jacobian: the same call as in C114. C115_exact is the exact prediction."
  },
  {
   "property": "C116",
   "status": "proved",
   "theorems": [
    "C116_pose"
   ],
   "note": "poseJacobian is a hypothesis: block diagonal with the transposed rotation as linear block."
  },
  {
   "property": "C117",
   "status": "partial",
   "theorems": [
    "C117_pose_acceleration_refuted",
    "C117_exact"
   ],
   "note": "Refuted as stated when getSkewSym gives the matrix of the cross product: the sign of the derivative of the pose Jacobian is wrong. C117_exact is the exact error."
  },
  {
   "property": "C118",
   "status": "proved",
   "theorems": [
    "C118_tracking_jacobian",
    "C118_construction"
   ],
   "note": ""
  },
  {
   "property": "C119",
   "status": "partial",
   "theorems": [
    "C119_tracking_error_refuted",
    "C119_exact"
   ],
   "note": "Refuted as stated: targetOri multiplies the rotation of the body on the left, so the error is rotated once too often. C119_exact gives the error and the rate of the cosine, positive when the common normal is fixed by the rotation of the body. FromTwoVectors and rotationVelocity are hypotheses (isTurn, isLog)."
  },
  {
   "property": "C120",
   "status": "partial",
   "theorems": [
    "C120_normal_acceleration_refuted",
    "C120_exact"
   ],
   "note": "Refuted as stated: jacDotMat_ is allocated and never written on the path of the QP task. C120_exact says which contents of the memory make it right."
  },
  {
   "property": "C121",
   "status": "proved",
   "theorems": [
    "C121_centre_of_mass",
    "C121_defined"
   ],
   "note": "rbd::CoMJacobian and computeCoM are modelled by what they compute."
  },
  {
   "property": "C122",
   "status": "partial",
   "theorems": [
    "C122_weights_refuted",
    "C122_exact"
   ],
   "note": "Refuted as stated: the error is that of the unweighted centre of mass, the speed that of the weighted one. C122_exact says what the speed is the rate of."
  },
  {
   "property": "C123",
   "status": "proved",
   "theorems": [
    "C123_common_centre_of_mass",
    "C123_defined"
   ],
   "note": ""
  },
  {
   "property": "C124",
   "status": "proved",
   "theorems": [
    "C124_momentum_rates"
   ],
   "note": "rbd::CentroidalMomentumMatrix, computeCentroidalMomentum and computeCoMVelocity are modelled by what they compute."
  },
  {
   "property": "C125",
   "status": "proved",
   "theorems": [
    "C125_particles"
   ],
   "note": ""
  },
  {
   "property": "C126",
   "status": "proved",
   "theorems": [
    "C126_momentum_converges"
   ],
   "note": "Attainability of what the task asks for is a hypothesis."
  },
  {
   "property": "C127",
   "status": "proved",
   "theorems": [
    "C127_limits_kept"
   ],
   "note": "The numerical solver is an argument that meets its contract; bounds are disjoint (C11, C12); fixed base (C39)."
  },
  {
   "property": "C128",
   "status": "proved",
   "theorems": [
    "C128_damper_kept"
   ],
   "note": "Parameters and start as in C41."
  },
  {
   "property": "C129",
   "status": "proved",
   "theorems": [
    "C129_torque_kept",
    "C129_torque_rate"
   ],
   "note": "For contacts that no robot has with itself (C37)."
  },
  {
   "property": "C130",
   "status": "proved",
   "theorems": [
    "C130_rates"
   ],
   "note": "RBDyn's Jacobian, normal acceleration and velocity are described by movesAt."
  },
  {
   "property": "C131",
   "status": "proved",
   "theorems": [
    "C131_constant",
    "C131_decay"
   ],
   "note": "Continuous time: the decision variables satisfy the rows at every instant."
  },
  {
   "property": "C132",
   "status": "proved",
   "theorems": [
    "C132_together"
   ],
   "note": "Continuous time. sva::rotationVelocity is the logarithm below a half turn (isLog)."
  },
  {
   "property": "C133",
   "status": "proved",
   "theorems": [
    "C133_rotation",
    "C133_translation"
   ],
   "note": "Continuous time. sva::rotationVelocity is the logarithm below a half turn (isLog)."
  },
  {
   "property": "C134",
   "status": "proved",
   "theorems": [
    "C134_position",
    "C134_orientation",
    "C134_linear_velocity",
    "C134_tracking"
   ],
   "note": "The derivatives of the columns of the body Jacobian are those of C135_robots."
  },
  {
   "property": "C135",
   "status": "proved",
   "theorems": [
    "C135_centre_of_mass",
    "C135_momentum",
    "C135_robots"
   ],
   "note": ""
  },
  {
   "property": "C136",
   "status": "partial",
   "theorems": [
    "C136_surface_refuted",
    "C136_exact",
    "C136_parallel"
   ],
   "note": "Refuted as stated: updateDot leaves out the rotation of the surface frame that update applies. C136_exact says what is filled; C136_parallel is the guarded version."
  },
  {
   "property": "C137",
   "status": "proved",
   "theorems": [
    "C137_overloads"
   ],
   "note": "Robots without degrees of freedom are excluded: C101 shows that their entries of normalAccB can be stale."
  },
  {
   "property": "C138",
   "status": "proved",
   "theorems": [
    "C138_history",
    "C138_undefined",
    "C138_image_points"
   ],
   "note": ""
  },
  {
   "property": "C139",
   "status": "proved",
   "theorems": [
    "C139_whole_body"
   ],
   "note": "The dynamics (H, C) and the Jacobians are inputs; the numerical solver is constrained by its contract. Contacts of the robot with itself are excluded, see C37."
  },
  {
   "property": "C140",
   "status": "proved",
   "theorems": [
    "C140_solved",
    "C140_together"
   ],
   "note": "Exact arithmetic, accelerations applied at every instant."
  },
  {
   "property": "C141",
   "status": "partial",
   "theorems": [
    "C141_refuted",
    "C141_attained",
    "C141_compatible"
   ],
   "note": "Refuted as stated: the regularisation adds 1e-4 to diagonal entries below 1e-4, so the only task of a free joint, with weight 1e-5, gets 1/11 of what it asks for (C141_refuted). Proved when the common solution is 0 on the regularised variables."
  },
  {
   "property": "C142",
   "status": "proved",
   "theorems": [
    "C142_converges",
    "C142_position"
   ],
   "note": "The common solution is 0 on the regularised variables. Exact arithmetic, accelerations applied at every instant."
  },
  {
   "property": "C143",
   "status": "partial",
   "theorems": [
    "C143_refuted",
    "C143_cost",
    "C143_determined"
   ],
   "note": "Refuted as stated: two joints that share a task have several optimal accelerations, the diagonal regularisation does not choose (C143_refuted). Proved: the results always have the same objective, and are equal when the objective is strictly convex."
  },
  {
   "property": "C144",
   "status": "partial",
   "theorems": [
    "C144_refuted",
    "C144_scaling",
    "C144_zero_weight"
   ],
   "note": "Refuted as stated: the threshold 1e-4 is absolute (C144_refuted). Proved when no variable is regularised; tasks of weight zero never have an effect."
  },
  {
   "property": "C145",
   "status": "partial",
   "theorems": [
    "C145_refuted",
    "C145_converges",
    "C145_diverges"
   ],
   "note": "Refuted as stated (stiffness 4 with period 1 exceeds every bound); C145_converges gives the stiffnesses that converge, exponentially, and C145_diverges that with constant accelerations every stiffness above 1/dt^2 diverges from rest. Joints of one dof and one parameter, critical damping, no reference velocity or acceleration."
  },
  {
   "property": "C146",
   "status": "proved",
   "theorems": [
    "C146_energy",
    "C146_decreases",
    "C146_bounded",
    "C146_room",
    "C146_position",
    "C146_direction"
   ],
   "note": "Continuous time. The set of regularised variables is constant along the motion; constraints must leave room along the motion (C146_room gives a criterion). C146_position and C146_direction show that the kinematic tasks are tasks of this kind."
  },
  {
   "property": "C147",
   "status": "partial",
   "theorems": [
    "C147_refuted",
    "C147_converges",
    "C147_rate",
    "C147_never_attained"
   ],
   "note": "Refuted as stated: a vector that points away from its target at rest never moves. Proved from every start of energy below that of the opposite direction, in continuous time with the task alone and equal dimension weights. The energy of several tasks is that of C146."
  },
  {
   "property": "C148",
   "status": "proved",
   "theorems": [
    "C148_orientation",
    "C148_surface",
    "C148_solver",
    "C148_rate"
   ],
   "note": "The rotation vector (sva::rotationVelocity) is a function argument that is the logarithm below a half turn (isLog); what it returns at exactly a half turn is not used."
  },
  {
   "property": "C149",
   "status": "partial",
   "theorems": [
    "C149_message_refuted",
    "C149_message_undefined",
    "C149_message_no_mimic"
   ],
   "note": "Refuted as stated: errorMsg multiplies rows over all variables by the reduced result of lssol (LSSOLQPSolver.cpp:168-170, GenQPUtils.h:354), so that with mimic joints any violated line makes the message undefined (C149_message_undefined, witness C149_message_refuted). Without mimic joints the message is defined and prints the values of the named lines (which lines are named is C68)."
  },
  {
   "property": "C150",
   "status": "partial",
   "theorems": [
    "C150_bound_name_refuted",
    "C150_bound_name_exact"
   ],
   "note": "Refuted as stated: the index of lssol's reduced variable is compared with the ranges of the bounds over all variables (LSSOLQPSolver.cpp:140-148; reducedToFull_ is not used), so that the message names another joint. C150_bound_name_exact says which bound is named and which value is printed."
  },
  {
   "property": "C151",
   "status": "proved",
   "theorems": [
    "C151_rotation",
    "C151_pose"
   ],
   "note": "Rotation: any damping kept between two positive values (SetPointTask or TrajectoryTask). Pose with solve() in the loop: critically damped. isLog as for C148. The surface version is C152."
  },
  {
   "property": "C152",
   "status": "proved",
   "theorems": [
    "C152_rotation",
    "C152_pose"
   ],
   "note": "The inexact rate acts as a resistance e0 / sqrt k at most; with the critical damping of SetPointTask it never cancels the damping (uses PI^2 < 10). isLog as for C148. The exponent is negative by C148_rate."
  },
  {
   "property": "C153",
   "status": "proved",
   "theorems": [
    "C153_last_given"
   ],
   "note": ""
  }
 ]
}
