#!/usr/bin/env python3
"""Regenerates /verif/MANIFEST.json. Theorem names are checked against the sources."""
import json, os, re, glob
here = os.path.dirname(os.path.abspath(__file__))
src = "".join(open(f).read() for f in glob.glob(os.path.join(here, "../rocq/theories/*.v")))
names = set(re.findall(r"^(?:Theorem|Lemma)\s+(\w+)", src, re.M))
C = []
def c(pid, status, theorems, note):
    for t in theorems.split():
        assert t in names, t
    C.append(dict(property=pid, status=status, theorems=theorems.split(), note=note))

c("C01", "proved", "C01_layout_defined C01_layout_partition C01_layout_counts C01_layout_order C01_layout_mobile",
  "nrVars modelled with its loops over robots and contacts; definedness, partition, totals and order of the segments.")
c("C02", "proved", "C02_result_accessors", "Accessors read inside the vector and concatenate to it.")
c("C03", "proved", "C03_contact_lambda_position", "Exact, duplicate ids included.")
c("C67", "proved", "C67_mimic_dependencies", "For robots whose mimic leaders exist, have a dof and are not mimic joints.")

c("C04", "proved", "C04_tasks_ordered_set C04_constraints_ordered_set", "All call histories.")
c("C05", "proved", "C05_kind_lists C05_remove_defined C05_no_influence C05_round_trip", "All alternating histories; kinds of an object are distinct.")
c("C06", "partial", "C06_double_add_refuted C06_remove_absent_refuted", "Refuted as stated, for every constraint with at least one kind: the object stays in the lists that feed the QP; a removal while absent is undefined.")
c("C07", "proved", "C07_no_overrun", "Both back ends; the numerical solver only needs to return a vector of the right size (part of contract).")
c("C08", "partial", "C08_any_order_refuted", "Refuted as stated, for both back ends and every numerical solver. C07 is the guarded version.")
c("C09", "proved", "C09_general_form", "Without mimic joints; with them see C16, C20.")
c("C10", "proved", "C10_standard_form C10_back_ends_agree", "The agreement of the two back ends includes mimic joints.")
c("C11", "proved", "C11_bounds_disjoint C11_bounds_last_wins C11_bounds_defined", "")
c("C12", "partial", "C12_overlapping_bounds_refuted", "Refuted as stated; C11_bounds_last_wins says exactly what is enforced.")
c("C13", "proved", "C13_objective C13_entries C13_defined", "")
c("C14", "proved", "C14_convex", "Tasks with symmetric blocks, nonnegative weights and positive semidefinite matrices.")
c("C15", "proved", "C15_reduction_maps", "Leaders are not replicas (wfDeps).")
c("C16", "proved", "C16_reduced_problem", "Nonzero multipliers; C17 covers the zero ones.")
c("C17", "partial", "C17_zero_multiplier_refuted C17_zero_multiplier_exact", "Refuted as stated; the second theorem says exactly which bounds survive.")
c("C18", "partial", "C18_chain_refuted C18_chain_stale_refuted", "Refuted as stated: undefined on a new solver, wrong variable on a used one.")
c("C19", "partial", "C19_switch_refuted C19_switch_no_mimic", "Refuted as stated (mimic relations are lost); proved for robots without mimic joints.")
c("C20", "proved", "C20_optimal", "Relative to the stated contract of the numerical solver; bounds disjoint, multipliers nonzero.")
c("C21", "proved", "C21_write_back", "")
c("C22", "proved", "C22_error_line C22_error_bound", "Owner of a line of the stack and of a bounded variable. The choice of the lines to report is C68.")
c("C23", "partial", "C23_with_base_exact C23_without_base_exact C23_without_base_refuted", "Refuted as stated; exact description of the lines for which it holds.")
c("C68", "partial", "C68_error_msg_refuted", "Refuted as stated for every history without mimic joints.")

c("C24", "proved", "C24_contact_id_order", "")
c("C27", "proved", "C27_unilateral_cone C27_bilateral_cone C27_generators", "Both bodies; for bilateral contacts point by point. The generators are also shown to lie on the boundary of the cone, evenly spread.")
c("C28", "proved", "C28_unilateral_reaction C28_bilateral_reaction", "X_b1_b2 has a proper rotation; the contact frame is arbitrary.")
c("C29", "proved", "C29_linear C29_additive C29_bilateral_of_unilateral", "")
c("C30", "partial", "C30_unilateral_throw C30_bilateral_throw C30_unilateral_safe C30_bilateral_safe C30_throw_refuted C30_missing_checks",
  "Refuted as stated: the cone(s) and the list of points are not checked. The throw conditions are characterised exactly and shown sufficient when the cones and points are the contact's own.")

c("C25", "proved", "C25_contacts", "")
c("C26", "proved", "C26_registry C26_history C26_getter", "Histories without the getter dofContact, whose effect is C70.")
c("C31", "proved", "C31_rows C31_defined", "Acceleration, speed and position contacts; Jacobians, normal accelerations and velocities are arbitrary inputs.")
c("C32", "proved", "C32_lines C32_owner", "")
c("C33", "partial", "C33_desc_refuted C33_desc_six_rows C33_desc_wrong", "Refuted as stated: descEq divides the line by six whatever the selection matrices. Proved when all contacts have six rows, and the failure characterised.")
c("C69", "partial", "C69_reference_kept C69_motion C69_reference_refuted", "Refuted as stated (updateDofContacts keeps the free directions of the old matrix); proved for the matrix used by updateNrVars.")
c("C70", "partial", "C70_getter_refuted C70_getter_breaks", "Refuted as stated: the getter inserts an empty matrix.")

c("C34", "proved", "C34_positive", "")
c("C35", "proved", "C35_limits C35_torque C35_defined", "Contacts between different robots or with the environment; for a contact of the robot with itself see C37.")
c("C36", "proved", "C36_rate C35_limits", "C35_limits gives the exact condition, including that the first update has no rate limit.")
c("C37", "partial", "C37_self_contact_refuted C37_exact", "Refuted as stated for a contact between two bodies of the same robot: only the second side is kept. C37_exact is the exact condition for any contacts.")
c("C38", "proved", "C38_spring C38_poly C35_limits", "The spring torque is imposed exactly rather than shifting the bounds (the loop overwrites both bounds).")
c("C71", "proved", "C71_torque_accessor", "")
c("C72", "partial", "C72_contact_matrix C72_contact_matrix_refuted", "Refuted as stated with two robots; proved for a single robot.")

c("C39", "partial", "C39_position C39_floating_undefined C39_floating_refuted C39_spherical_refuted", "Proved for robots with a fixed base and joints whose parameters are their degrees of freedom. Refuted with a free or spherical first joint (size mismatch in every update) and with a ball joint further in the chain (wrong coordinate).")
c("C40", "proved", "C40_exact", "Same robots as C39.")
c("C41", "proved", "C41_exact C41_inside C41_defined C41_stop", "Invariance for any integration between explicit and semi-implicit Euler, under explicit conditions on step, velocity limits, offset and zones.")
c("C42", "partial", "C42_no_jump C42_refuted", "Refuted as stated when the joint is already within the security distance; proved beyond it.")
c("C43", "partial", "C43_refuted C41_inside", "Refuted as stated where the zones overlap; C41_inside protects both limits when they do not.")
c("C73", "partial", "C41_exact C73_ratchet_refuted C73_velocity_refuted", "Refuted as stated for joints with several degrees of freedom; C41_exact is the exact condition for any robot and any number of updates.")

c("C44", "partial", "C44_number C44_description C44_shared_refuted C45_exact", "Proved when every hull belongs to one body at one place; the description is refuted when a hull is used at two places. C45_exact gives the meaning of row k as that of the k-th close pair.")
c("C45", "partial", "C45_exact C45_first_refuted", "Exact meaning of every row; refuted as stated for the first update after addCollision, which takes zero for the previous normal.")
c("C46", "proved", "C46_security", "The damping in force, given or automatic. The pair starts out of reach (see C45 for the first update) and a step taken out of reach is at most di - ds.")
c("C47", "proved", "C47_registry", "")
c("C48", "partial", "C48_exact C48_refuted", "Refuted as stated: wrong sign and wrong point. C48_exact is what the row says.")
c("C74", "partial", "C74_exact C74_refuted", "Refuted as stated: the row has no variables and may be false.")
c("C75", "partial", "C75_exact C75_refuted", "Refuted as stated when the offset is not zero.")

c("C49", "partial", "C49_rows C49_description C49_description_refuted", "The rows are proved as stated. The description is refuted for a plane exactly at its interactive distance (the row is written for dist <= di, descInEq counts dist < di) and proved when no plane is there.")
c("C76", "proved", "C76_plane_registry", "")
c("C77", "proved", "C77_plane_security", "")
c("C78", "partial", "C78_exact C78_refuted", "Refuted as stated: the automatic damping is negative when the centre of mass moves away as the plane becomes active. Proved for a damping of the user, and for an automatic damping chosen during an approach with an offset that is not negative.")
c("C50", "proved", "C50_torque C50_defined", "")
c("C51", "partial", "C51_description C51_refuted", "Proved when every gripper is a contact of the solver; refuted as stated otherwise: update skips such a gripper, descInEq does not.")
c("C79", "proved", "C79_gripper_registry", "")

c("C52", "proved", "C52_rows C52_constraint", "")
c("C53", "proved", "C53_registry", "")
c("C80", "partial", "C80_refuted C52_constraint", "Refuted as stated: the rows stay until updateBoundedSpeeds or updateNrVars. C52_constraint is what holds after that.")
c("C54", "partial", "C54_rows C54_exact C54_refuted", "Refuted as stated: a feature beyond the safety limit has no row. C54_exact is what the constraint says, for all histories and solutions, C54_rows says it row by row.")
c("C81", "partial", "C81_refuted C54_exact", "Refuted as stated: points of the robot are never used by update. C54_exact shows that only the points of the environment restrict.")
c("C82", "partial", "C82_still C82_occlusion C82_refuted", "Proved for the field of view; refuted for occlusion, whose rows ask for a minimal motion away from the rectangle, largest at the interactive limit (C82_occlusion).")
c("C83", "proved", "C83_image_safety", "")
c("C84", "partial", "C84_exact C84_refuted", "Refuted as stated: the description counts all rows, also the inactive ones; C84_exact is what it says.")
c("C85", "proved", "C85_image_registry", "")
c("C55", "proved", "C55_setpoint C55_defined C55_tracking C55_trajectory", "")
c("C56", "proved", "C56_converges", "")
c("C57", "partial", "C57_refuted C57_exact C57_given", "Refuted as stated: update overwrites the member error it reads. C57_exact is the recursion; C57_given shows the claim when error() is given before each update.")
c("C58", "partial", "C58_cost C58_plan C58_replan C58_reach C58_short C58_refuted C58_duration", "Refuted as stated for durations of one or two time steps (C58_short says exactly when it holds); C58_reach proves it for three steps or more, the acceleration being held during each step, C58_plan for the continuous plan.")
c("C86", "proved", "C86_objective", "")
c("C87", "partial", "C87_refuted C87_elapsed C87_exact", "Refuted as stated: the next update divides by zero. C87_exact: defined exactly at all other moments.")
c("C59", "proved", "C59_columns C59_defined C59_unactive C59_complement C59_task C59_cost", "")
c("C88", "partial", "C88_refuted C88_exact C88_complement_refused", "Refuted as stated: UnactiveJoints computes the complement of the dofs and drops it; C88_exact: the map has no effect.")
c("C89", "partial", "C89_refuted C89_exact", "Refuted as stated: the assertion excludes ranges that reach the last dof of the joint; C89_exact says when the constructor is defined.")
c("C60", "proved", "C60_independent C60_minimum C60_defined", "Hypothesis plainJoints (fixed, one-dof or spherical joints behind the root) is the property's own; without it see C90. No gains may be given to the root by name: see C92.")
c("C90", "partial", "C90_refuted C90_planar_refuted C60_independent", "Refuted as stated: a joint with two dofs shifts the errors of the joints after it, a planar joint is undefined behaviour. C60_independent holds under plainJoints.")
c("C91", "partial", "C91_refuted C91_exact", "Refuted as stated: jointPosInDof(1) is read for a robot with one joint. C91_exact: defined if and only if there are two joints or more.")
c("C92", "partial", "C92_refuted C92_linear C60_independent", "Refuted as stated: gains given to a free root put a linear term on dofs without a quadratic one. C60_independent gives the bound when no gains are given to the root.")
c("C93", "proved", "C93_converges", "")
c("C94","proved","C94_torque C94_torque_all C94_defined","Contacts of the robot with itself are the subject of C95.")
c("C95","partial","C95_self_refuted C95_exact","Refuted as stated: the matrix counts the force on one body only of a contact of the robot with itself (finding of C37). C95_exact gives the torques that are counted, for every contact set.")
c("C96","proved","C96_end_effector","")
c("C63","proved","C63_contact C63_gripper C63_contact_defined C63_gripper_defined","")
c("C97","proved","C97_pull","")
c("C98","partial","C98_gripper_refuted C98_gripper","Refuted as stated: magnitudes are summed per generator. C98_gripper: the cost is that sum, bounds the torque, and equals it when no generator turns backwards.")
c("C99","partial","C99_stiffness_refuted C99_no_effect","Refuted as stated: the stiffness and errorD() are stored and never read. C99_no_effect proves that they change nothing.")
c("C61","proved","C61_multi_com C61_defined","The error equation is for masses equal to those last given to the constructor or updateInertialParameters, as the interface asks; the weights sum to 1 always. Robot lists are not empty.")
c("C62","partial","C62_stacked_refuted C62_exact C62_defined","Refuted as stated: the blocks between different robots are missing from Q, so the problem is not the stacked least-squares problem. C62_exact gives the problem solved: the sum over the robots of the single-robot problems, each with the whole acceleration.")
c("C100","proved","C100_overshoot","")
c("C64", "proved", "C64_normal_accelerations", "Stronger than stated: with the tree kinematics the computed acceleration plus the Jacobian times alphaD is the derivative of the body velocity; a robot without degrees of freedom keeps its old entries, see C101.")
c("C65", "proved", "C65_vector C65_bound C65_skew", "Also: the error decreases at the speed, and the normal acceleration is that of the motion.")
c("C66", "partial", "C66_body_point_refuted C66_exact", "Refuted as stated: update() evaluates the error at the point of the constructor while the Jacobian moves to the new point. C66_exact is the exact behaviour for every call history.")
c("C101", "partial", "C101_fixed_robot_refuted C101_never_mobile", "Refuted as stated: nrVars resizes the stored accelerations without clearing them and computeNormalAccB skips immobile robots. C101_never_mobile is the guarded positive statement.")
c("C102", "proved", "C102_orientation C102_surface_orientation", "sva::rotationVelocity is an arbitrary function here.")
c("C103", "partial", "C103_angular_refuted C103_axis C103_surface_axis C103_log", "Refuted as stated: the derivative of the rotation vector is not the angular velocity unless the body turns about the axis of the error. C103_axis and C103_surface_axis prove the rate for motions about the axis of the error.")
c("C104", "proved", "C104_transform", "")
c("C105", "proved", "C105_surface_transform", "")
c("C106", "proved", "C106_linear_velocity", "")
c("C107", "proved", "C107_multi_transform", "")
c("C108", "proved", "C108_distance", "")
c("C109", "partial", "C109_distance_acceleration_refuted C109_first_update C109_later C109_vanishes C108_distance", "Refuted as stated: the direction of the last update starts at zero, so at the first update the announced acceleration is off by speed / dt; later it is a backward difference (C109_later), whose error vanishes with the time step (C109_vanishes). C108_distance gives the exact error of the announced acceleration in every state.")
c("C110", "partial", "C110_direction_refuted C110_exact", "Refuted as stated: the error has an absolute value the speed lacks, so the sign of the feedback is reversed when the bodies are on the other side. C110_exact is the exact behaviour.")
c("C111", "proved", "C111_mode", "")
c("C112", "proved", "C112_position_converges C112_transform_converges", "The body point of PositionTask must not have been changed after construction (C66). The hypothesis that the objective is attained is that of C56. VectorOrientationTask, for which that hypothesis cannot hold, is treated in C147.")
c("C113", "proved", "C113_gaze", "imagePointJacobian and imagePointJacobianDot are hypotheses: the interaction matrix of a point and its derivative.")
c("C114", "partial", "C114_gaze_acceleration_refuted C114_exact", "Refuted as stated, for every depth-rate Jacobian: depthDotJacobian is called with the image speed in place of the image point. C114_exact is the exact error, zero when the rate used is the rate of the depth.")
c("C115", "partial", "C115_feature_refuted C115_exact", "Refuted as stated, for every depth-rate Jacobian: the same call as in C114. C115_exact is the exact prediction.")
c("C116", "proved", "C116_pose", "poseJacobian is a hypothesis: block diagonal with the transposed rotation as linear block.")
c("C117", "partial", "C117_pose_acceleration_refuted C117_exact", "Refuted as stated when getSkewSym gives the matrix of the cross product: the sign of the derivative of the pose Jacobian is wrong. C117_exact is the exact error.")
c("C118", "proved", "C118_tracking_jacobian C118_construction", "")
c("C119", "partial", "C119_tracking_error_refuted C119_exact", "Refuted as stated: targetOri multiplies the rotation of the body on the left, so the error is rotated once too often. C119_exact gives the error and the rate of the cosine, positive when the common normal is fixed by the rotation of the body. FromTwoVectors and rotationVelocity are hypotheses (isTurn, isLog).")
c("C120", "partial", "C120_normal_acceleration_refuted C120_exact", "Refuted as stated: jacDotMat_ is allocated and never written on the path of the QP task. C120_exact says which contents of the memory make it right.")
c("C121", "proved", "C121_centre_of_mass C121_defined", "rbd::CoMJacobian and computeCoM are modelled by what they compute.")
c("C122", "partial", "C122_weights_refuted C122_exact", "Refuted as stated: the error is that of the unweighted centre of mass, the speed that of the weighted one. C122_exact says what the speed is the rate of.")
c("C123", "proved", "C123_common_centre_of_mass C123_defined", "")
c("C124", "proved", "C124_momentum_rates", "rbd::CentroidalMomentumMatrix, computeCentroidalMomentum and computeCoMVelocity are modelled by what they compute.")
c("C125", "proved", "C125_particles", "")
c("C126", "proved", "C126_momentum_converges", "Attainability of what the task asks for is a hypothesis.")
c("C127", "proved", "C127_limits_kept", "The numerical solver is an argument that meets its contract; bounds are disjoint (C11, C12); fixed base (C39).")
c("C128", "proved", "C128_damper_kept", "Parameters and start as in C41.")
c("C129", "proved", "C129_torque_kept C129_torque_rate", "For contacts that no robot has with itself (C37).")
c("C130","proved","C130_rates","RBDyn's Jacobian, normal acceleration and velocity are described by movesAt.")
c("C131","proved","C131_constant C131_decay","Continuous time: the decision variables satisfy the rows at every instant.")
c("C132","proved","C132_together","Continuous time. sva::rotationVelocity is the logarithm below a half turn (isLog).")
c("C133","proved","C133_rotation C133_translation","Continuous time. sva::rotationVelocity is the logarithm below a half turn (isLog).")
c("C134", "proved", "C134_position C134_orientation C134_linear_velocity C134_tracking", "The derivatives of the columns of the body Jacobian are those of C135_robots.")
c("C135", "proved", "C135_centre_of_mass C135_momentum C135_robots", "")
c("C136", "partial", "C136_surface_refuted C136_exact C136_parallel", "Refuted as stated: updateDot leaves out the rotation of the surface frame that update applies. C136_exact says what is filled; C136_parallel is the guarded version.")
c("C137", "proved", "C137_overloads", "Robots without degrees of freedom are excluded: C101 shows that their entries of normalAccB can be stale.")
c("C138", "proved", "C138_history C138_undefined C138_image_points", "")
c("C139","proved","C139_whole_body","The dynamics (H, C) and the Jacobians are inputs; the numerical solver is constrained by its contract. Contacts of the robot with itself are excluded, see C37.")
c("C140","proved","C140_solved C140_together","Exact arithmetic, accelerations applied at every instant.")
c("C141","partial","C141_refuted C141_attained C141_compatible","Refuted as stated: the regularisation adds 1e-4 to diagonal entries below 1e-4, so the only task of a free joint, with weight 1e-5, gets 1/11 of what it asks for (C141_refuted). Proved when the common solution is 0 on the regularised variables.")
c("C142","proved","C142_converges C142_position","The common solution is 0 on the regularised variables. Exact arithmetic, accelerations applied at every instant.")
c("C143","partial","C143_refuted C143_cost C143_determined","Refuted as stated: two joints that share a task have several optimal accelerations, the diagonal regularisation does not choose (C143_refuted). Proved: the results always have the same objective, and are equal when the objective is strictly convex.")
c("C144","partial","C144_refuted C144_scaling C144_zero_weight","Refuted as stated: the threshold 1e-4 is absolute (C144_refuted). Proved when no variable is regularised; tasks of weight zero never have an effect.")
c("C145","partial","C145_refuted C145_converges C145_diverges","Refuted as stated (stiffness 4 with period 1 exceeds every bound); C145_converges gives the stiffnesses that converge, exponentially, and C145_diverges that with constant accelerations every stiffness above 1/dt^2 diverges from rest. Joints of one dof and one parameter, critical damping, no reference velocity or acceleration.")
c("C146", "proved", "C146_energy C146_decreases C146_bounded C146_room C146_position C146_direction", "Continuous time. The set of regularised variables is constant along the motion; constraints must leave room along the motion (C146_room gives a criterion). C146_position and C146_direction show that the kinematic tasks are tasks of this kind.")
c("C147", "partial", "C147_refuted C147_converges C147_rate C147_never_attained", "Refuted as stated: a vector that points away from its target at rest never moves. Proved from every start of energy below that of the opposite direction, in continuous time with the task alone and equal dimension weights. The energy of several tasks is that of C146.")
c("C148","proved","C148_orientation C148_surface C148_solver C148_rate","The rotation vector (sva::rotationVelocity) is a function argument that is the logarithm below a half turn (isLog); what it returns at exactly a half turn is not used.")
c("C149","partial","C149_message_refuted C149_message_undefined C149_message_no_mimic","Refuted as stated: errorMsg multiplies rows over all variables by the reduced result of lssol (LSSOLQPSolver.cpp:168-170, GenQPUtils.h:354), so that with mimic joints any violated line makes the message undefined (C149_message_undefined, witness C149_message_refuted). Without mimic joints the message is defined and prints the values of the named lines (which lines are named is C68).")
c("C150","partial","C150_bound_name_refuted C150_bound_name_exact","Refuted as stated: the index of lssol's reduced variable is compared with the ranges of the bounds over all variables (LSSOLQPSolver.cpp:140-148; reducedToFull_ is not used), so that the message names another joint. C150_bound_name_exact says which bound is named and which value is printed.")
c("C151","proved","C151_rotation C151_pose","Rotation: any damping kept between two positive values (SetPointTask or TrajectoryTask). Pose with solve() in the loop: critically damped. isLog as for C148. The surface version is C152.")
c("C152","proved","C152_rotation C152_pose","The inexact rate acts as a resistance e0 / sqrt k at most; with the critical damping of SetPointTask it never cancels the damping (uses PI^2 < 10). isLog as for C148. The exponent is negative by C148_rate.")
c("C153", "proved", "C153_last_given", "")
C.sort(key=lambda x: int(x["property"][1:]))
with open(os.path.join(here, "..", "MANIFEST.json"), "w") as f:
    json.dump({"claims": C}, f, indent=1); f.write("\n")
print(len(C), "claims", sum(len(x["theorems"]) for x in C), "theorems")
