# Axioms of each theorem

Output of `Print Assumptions`, generated by tools/gen_assumptions.py. All axioms are the standard library's:

* `sig_forall_dec`, `sig_not_dec`: `Coq.Reals.ClassicalDedekindReals` (the real numbers)
* `functional_extensionality_dep`: `Coq.Logic.FunctionalExtensionality`
* `classic`: `Coq.Logic.Classical_Prop`

| theorem | file | axioms |
|---|---|---|
| C139_whole_body | PropBalance.v | sig_not_dec, sig_forall_dec, functional_extensionality_dep |
| C140_solved | PropBalance.v | sig_not_dec, sig_forall_dec, functional_extensionality_dep |
| C140_together | PropBalance.v | sig_not_dec, sig_forall_dec, functional_extensionality_dep, classic |
| C44_number | PropCollision.v | sig_not_dec, sig_forall_dec, functional_extensionality_dep |
| C44_description | PropCollision.v | sig_not_dec, sig_forall_dec, functional_extensionality_dep |
| C44_shared_refuted | PropCollision.v | sig_not_dec, sig_forall_dec, functional_extensionality_dep |
| C45_exact | PropCollision.v | sig_not_dec, sig_forall_dec, functional_extensionality_dep |
| C45_first_refuted | PropCollision.v | sig_not_dec, sig_forall_dec, functional_extensionality_dep |
| C46_security | PropCollision.v | sig_not_dec, sig_forall_dec, functional_extensionality_dep |
| C47_registry | PropCollision.v | sig_not_dec, sig_forall_dec, functional_extensionality_dep |
| C48_exact | PropCollision.v | sig_not_dec, sig_forall_dec, functional_extensionality_dep |
| C48_refuted | PropCollision.v | sig_not_dec, sig_forall_dec, functional_extensionality_dep |
| C74_exact | PropCollision.v | sig_not_dec, sig_forall_dec, functional_extensionality_dep |
| C74_refuted | PropCollision.v | sig_not_dec, sig_forall_dec, functional_extensionality_dep |
| C75_exact | PropCollision.v | sig_not_dec, sig_forall_dec, functional_extensionality_dep |
| C75_refuted | PropCollision.v | sig_not_dec, sig_forall_dec, functional_extensionality_dep |
| C121_centre_of_mass | PropCom.v | sig_forall_dec, functional_extensionality_dep |
| C121_defined | PropCom.v | sig_forall_dec, functional_extensionality_dep |
| C122_weights_refuted | PropCom.v | sig_not_dec, sig_forall_dec, functional_extensionality_dep |
| C122_exact | PropCom.v | sig_forall_dec, functional_extensionality_dep |
| C123_common_centre_of_mass | PropCom.v | sig_forall_dec, functional_extensionality_dep |
| C123_defined | PropCom.v | sig_forall_dec, functional_extensionality_dep |
| C141_refuted | PropCompat.v | sig_not_dec, sig_forall_dec, functional_extensionality_dep |
| C141_attained | PropCompat.v | sig_not_dec, sig_forall_dec, functional_extensionality_dep |
| C141_compatible | PropCompat.v | sig_forall_dec, functional_extensionality_dep |
| C142_converges | PropCompat.v | sig_not_dec, sig_forall_dec, functional_extensionality_dep, classic |
| C142_position | PropCompat.v | sig_not_dec, sig_forall_dec, functional_extensionality_dep, classic |
| C143_refuted | PropCompat.v | sig_not_dec, sig_forall_dec, functional_extensionality_dep |
| C143_cost | PropCompat.v | sig_forall_dec, functional_extensionality_dep |
| C143_determined | PropCompat.v | sig_forall_dec, functional_extensionality_dep |
| C144_refuted | PropCompat.v | sig_not_dec, sig_forall_dec, functional_extensionality_dep |
| C144_scaling | PropCompat.v | sig_forall_dec, functional_extensionality_dep |
| C144_zero_weight | PropCompat.v | sig_forall_dec, functional_extensionality_dep |
| C25_contacts | PropContactConstr.v | sig_not_dec, sig_forall_dec, functional_extensionality_dep |
| C26_registry | PropContactConstr.v | sig_not_dec, sig_forall_dec, functional_extensionality_dep |
| C26_history | PropContactConstr.v | sig_not_dec, sig_forall_dec, functional_extensionality_dep |
| C26_getter | PropContactConstr.v | sig_not_dec, sig_forall_dec, functional_extensionality_dep |
| C31_rows | PropContactConstr.v | sig_not_dec, sig_forall_dec, functional_extensionality_dep |
| C31_defined | PropContactConstr.v | sig_not_dec, sig_forall_dec, functional_extensionality_dep |
| C32_lines | PropContactConstr.v | sig_not_dec, sig_forall_dec, functional_extensionality_dep |
| C32_owner | PropContactConstr.v | none |
| C33_desc_refuted | PropContactConstr.v | sig_not_dec, sig_forall_dec, functional_extensionality_dep |
| C33_desc_six_rows | PropContactConstr.v | none |
| C33_desc_wrong | PropContactConstr.v | none |
| C69_reference_kept | PropContactConstr.v | sig_not_dec, sig_forall_dec, functional_extensionality_dep |
| C69_motion | PropContactConstr.v | sig_not_dec, sig_forall_dec, functional_extensionality_dep |
| C69_reference_refuted | PropContactConstr.v | sig_not_dec, sig_forall_dec, functional_extensionality_dep |
| C70_getter_refuted | PropContactConstr.v | sig_not_dec, sig_forall_dec, functional_extensionality_dep |
| C70_getter_breaks | PropContactConstr.v | sig_not_dec, sig_forall_dec, functional_extensionality_dep |
| C130_rates | PropContactLoop.v | sig_not_dec, sig_forall_dec, functional_extensionality_dep |
| C131_constant | PropContactLoop.v | sig_not_dec, sig_forall_dec, functional_extensionality_dep, classic |
| C131_decay | PropContactLoop.v | sig_not_dec, sig_forall_dec, functional_extensionality_dep, classic |
| C132_together | PropContactLoop.v | sig_not_dec, sig_forall_dec, functional_extensionality_dep, classic |
| C133_rotation | PropContactLoop.v | sig_not_dec, sig_forall_dec, functional_extensionality_dep, classic |
| C133_translation | PropContactLoop.v | sig_not_dec, sig_forall_dec, functional_extensionality_dep, classic |
| C24_contact_id_order | PropContacts.v | none |
| C27_unilateral_cone | PropContacts.v | sig_not_dec, sig_forall_dec, functional_extensionality_dep, classic |
| C27_bilateral_cone | PropContacts.v | sig_not_dec, sig_forall_dec, functional_extensionality_dep, classic |
| C27_generators | PropContacts.v | sig_not_dec, sig_forall_dec, functional_extensionality_dep, classic |
| C28_unilateral_reaction | PropContacts.v | sig_not_dec, sig_forall_dec, functional_extensionality_dep, classic |
| C28_bilateral_reaction | PropContacts.v | sig_not_dec, sig_forall_dec, functional_extensionality_dep, classic |
| C29_linear | PropContacts.v | sig_forall_dec, functional_extensionality_dep |
| C29_additive | PropContacts.v | sig_forall_dec, functional_extensionality_dep |
| C29_bilateral_of_unilateral | PropContacts.v | sig_forall_dec, functional_extensionality_dep |
| C30_unilateral_throw | PropContacts.v | sig_forall_dec |
| C30_bilateral_throw | PropContacts.v | sig_forall_dec |
| C30_unilateral_safe | PropContacts.v | sig_forall_dec, functional_extensionality_dep |
| C30_bilateral_safe | PropContacts.v | sig_forall_dec, functional_extensionality_dep |
| C30_throw_refuted | PropContacts.v | sig_forall_dec, functional_extensionality_dep |
| C30_missing_checks | PropContacts.v | sig_forall_dec, functional_extensionality_dep |
| C127_limits_kept | PropCycle.v | sig_forall_dec, functional_extensionality_dep |
| C128_damper_kept | PropCycle.v | sig_forall_dec, functional_extensionality_dep |
| C129_torque_kept | PropCycle.v | sig_forall_dec, functional_extensionality_dep |
| C129_torque_rate | PropCycle.v | sig_forall_dec, functional_extensionality_dep |
| C145_refuted | PropDiscrete.v | sig_not_dec, sig_forall_dec, functional_extensionality_dep |
| C145_converges | PropDiscrete.v | sig_not_dec, sig_forall_dec, functional_extensionality_dep |
| C145_diverges | PropDiscrete.v | sig_not_dec, sig_forall_dec, functional_extensionality_dep |
| C109_later | PropDistLater.v | sig_not_dec, sig_forall_dec, functional_extensionality_dep |
| C109_vanishes | PropDistLater.v | sig_not_dec, sig_forall_dec, functional_extensionality_dep |
| C153_last_given | PropDistLater.v | sig_not_dec, sig_forall_dec, functional_extensionality_dep |
| C134_position | PropDot.v | sig_forall_dec, functional_extensionality_dep |
| C134_orientation | PropDot.v | sig_forall_dec, functional_extensionality_dep |
| C134_linear_velocity | PropDot.v | sig_forall_dec, functional_extensionality_dep |
| C134_tracking | PropDot.v | sig_not_dec, sig_forall_dec, functional_extensionality_dep |
| C135_centre_of_mass | PropDot.v | sig_forall_dec, functional_extensionality_dep |
| C135_momentum | PropDot.v | sig_forall_dec, functional_extensionality_dep |
| C135_robots | PropDot.v | sig_forall_dec, functional_extensionality_dep |
| C136_surface_refuted | PropDot.v | sig_not_dec, sig_forall_dec, functional_extensionality_dep |
| C136_exact | PropDot.v | sig_forall_dec, functional_extensionality_dep |
| C136_parallel | PropDot.v | sig_forall_dec, functional_extensionality_dep |
| C137_overloads | PropDot.v | sig_forall_dec, functional_extensionality_dep |
| C138_history | PropDot.v | sig_forall_dec, functional_extensionality_dep |
| C138_undefined | PropDot.v | sig_forall_dec, functional_extensionality_dep |
| C138_image_points | PropDot.v | sig_forall_dec, functional_extensionality_dep |
| C146_energy | PropEnergy.v | sig_not_dec, sig_forall_dec, functional_extensionality_dep |
| C146_decreases | PropEnergy.v | sig_not_dec, sig_forall_dec, functional_extensionality_dep, classic |
| C146_bounded | PropEnergy.v | sig_not_dec, sig_forall_dec, functional_extensionality_dep, classic |
| C146_room | PropEnergy.v | sig_forall_dec, functional_extensionality_dep |
| C146_position | PropEnergy.v | sig_forall_dec, functional_extensionality_dep |
| C146_direction | PropEnergy.v | sig_forall_dec, functional_extensionality_dep |
| C22_error_bound | PropError.v | none |
| C149_message_refuted | PropError.v | sig_forall_dec, functional_extensionality_dep |
| C149_message_undefined | PropError.v | sig_forall_dec, functional_extensionality_dep |
| C149_message_no_mimic | PropError.v | sig_forall_dec, functional_extensionality_dep |
| C150_bound_name_refuted | PropError.v | sig_forall_dec, functional_extensionality_dep |
| C150_bound_name_exact | PropError.v | sig_forall_dec, functional_extensionality_dep |
| C09_general_form | PropFill.v | sig_forall_dec, functional_extensionality_dep |
| C10_standard_form | PropFill.v | sig_forall_dec, functional_extensionality_dep |
| C10_back_ends_agree | PropFill.v | sig_forall_dec, functional_extensionality_dep |
| C11_bounds_disjoint | PropFill.v | sig_forall_dec |
| C11_bounds_last_wins | PropFill.v | none |
| C11_bounds_defined | PropFill.v | none |
| C12_overlapping_bounds_refuted | PropFill.v | sig_forall_dec, functional_extensionality_dep |
| C13_objective | PropFill.v | sig_forall_dec, functional_extensionality_dep |
| C13_entries | PropFill.v | sig_forall_dec, functional_extensionality_dep |
| C13_defined | PropFill.v | sig_forall_dec, functional_extensionality_dep |
| C14_convex | PropFill.v | sig_forall_dec, functional_extensionality_dep |
| C15_reduction_maps | PropFill.v | sig_forall_dec, functional_extensionality_dep |
| C16_reduced_problem | PropFill.v | sig_forall_dec, functional_extensionality_dep |
| C17_zero_multiplier_refuted | PropFill.v | sig_forall_dec, functional_extensionality_dep |
| C17_zero_multiplier_exact | PropFill.v | sig_forall_dec, functional_extensionality_dep |
| C18_chain_refuted | PropFill.v | sig_forall_dec |
| C18_chain_stale_refuted | PropFill.v | sig_forall_dec, functional_extensionality_dep |
| C63_contact | PropForceTask.v | sig_forall_dec, functional_extensionality_dep |
| C63_gripper | PropForceTask.v | sig_forall_dec, functional_extensionality_dep |
| C63_contact_defined | PropForceTask.v | sig_forall_dec |
| C63_gripper_defined | PropForceTask.v | sig_forall_dec, functional_extensionality_dep |
| C97_pull | PropForceTask.v | sig_forall_dec, functional_extensionality_dep |
| C98_gripper_refuted | PropForceTask.v | sig_forall_dec, functional_extensionality_dep |
| C98_gripper | PropForceTask.v | sig_forall_dec, functional_extensionality_dep |
| C99_stiffness_refuted | PropForceTask.v | sig_forall_dec, functional_extensionality_dep |
| C99_no_effect | PropForceTask.v | sig_forall_dec |
| C50_torque | PropGripper.v | sig_forall_dec, functional_extensionality_dep |
| C50_defined | PropGripper.v | sig_forall_dec, functional_extensionality_dep |
| C51_description | PropGripper.v | sig_forall_dec, functional_extensionality_dep |
| C51_refuted | PropGripper.v | sig_forall_dec, functional_extensionality_dep |
| C79_gripper_registry | PropGripper.v | sig_forall_dec, functional_extensionality_dep |
| C54_rows | PropImage.v | sig_forall_dec, functional_extensionality_dep |
| C54_exact | PropImage.v | sig_forall_dec, functional_extensionality_dep |
| C54_refuted | PropImage.v | sig_forall_dec, functional_extensionality_dep |
| C81_refuted | PropImage.v | sig_forall_dec, functional_extensionality_dep |
| C82_occlusion | PropImage.v | sig_forall_dec, functional_extensionality_dep |
| C82_still | PropImage.v | sig_forall_dec, functional_extensionality_dep |
| C82_refuted | PropImage.v | sig_forall_dec, functional_extensionality_dep |
| C83_image_safety | PropImage.v | sig_forall_dec, functional_extensionality_dep |
| C84_exact | PropImage.v | none |
| C84_refuted | PropImage.v | sig_forall_dec, functional_extensionality_dep |
| C85_image_registry | PropImage.v | sig_forall_dec, functional_extensionality_dep |
| C64_normal_accelerations | PropKin.v | sig_forall_dec, functional_extensionality_dep |
| C101_fixed_robot_refuted | PropKin.v | sig_not_dec, sig_forall_dec, functional_extensionality_dep |
| C101_never_mobile | PropKin.v | sig_forall_dec |
| C65_vector | PropKin.v | sig_forall_dec, functional_extensionality_dep |
| C65_bound | PropKin.v | sig_not_dec, sig_forall_dec, functional_extensionality_dep |
| C65_skew | PropKin.v | sig_forall_dec, functional_extensionality_dep |
| C66_body_point_refuted | PropKin.v | sig_not_dec, sig_forall_dec, functional_extensionality_dep |
| C66_exact | PropKin.v | sig_forall_dec, functional_extensionality_dep |
| C102_orientation | PropKin.v | sig_forall_dec, functional_extensionality_dep |
| C102_surface_orientation | PropKin.v | sig_forall_dec, functional_extensionality_dep |
| C103_angular_refuted | PropKin.v | sig_not_dec, sig_forall_dec, functional_extensionality_dep, classic |
| C103_axis | PropKin.v | sig_not_dec, sig_forall_dec, functional_extensionality_dep |
| C103_surface_axis | PropKin.v | sig_not_dec, sig_forall_dec, functional_extensionality_dep |
| C103_log | PropKin.v | sig_not_dec, sig_forall_dec, functional_extensionality_dep, classic |
| C104_transform | PropKin.v | sig_forall_dec, functional_extensionality_dep |
| C105_surface_transform | PropKin.v | sig_forall_dec, functional_extensionality_dep |
| C106_linear_velocity | PropKin.v | sig_forall_dec, functional_extensionality_dep |
| C107_multi_transform | PropKin.v | sig_forall_dec, functional_extensionality_dep |
| C108_distance | PropKin.v | sig_not_dec, sig_forall_dec, functional_extensionality_dep |
| C109_distance_acceleration_refuted | PropKin.v | sig_not_dec, sig_forall_dec, functional_extensionality_dep |
| C109_first_update | PropKin.v | sig_not_dec, sig_forall_dec, functional_extensionality_dep |
| C110_direction_refuted | PropKin.v | sig_not_dec, sig_forall_dec, functional_extensionality_dep |
| C110_exact | PropKin.v | sig_not_dec, sig_forall_dec, functional_extensionality_dep |
| C111_mode | PropKin.v | sig_not_dec, sig_forall_dec, functional_extensionality_dep |
| C01_layout_defined | PropLayout.v | none |
| C01_layout_partition | PropLayout.v | none |
| C01_layout_counts | PropLayout.v | none |
| C01_layout_order | PropLayout.v | none |
| C01_layout_mobile | PropLayout.v | none |
| C02_result_accessors | PropLayout.v | none |
| C03_contact_lambda_position | PropLayout.v | none |
| C67_mimic_dependencies | PropLayout.v | none |
| C39_position | PropLimits.v | sig_forall_dec, functional_extensionality_dep |
| C39_floating_undefined | PropLimits.v | sig_forall_dec, functional_extensionality_dep |
| C39_floating_refuted | PropLimits.v | sig_forall_dec, functional_extensionality_dep |
| C39_spherical_refuted | PropLimits.v | sig_forall_dec, functional_extensionality_dep |
| C40_exact | PropLimits.v | sig_forall_dec, functional_extensionality_dep |
| C41_exact | PropLimits.v | sig_forall_dec, functional_extensionality_dep |
| C41_inside | PropLimits.v | sig_forall_dec, functional_extensionality_dep |
| C41_defined | PropLimits.v | sig_forall_dec, functional_extensionality_dep |
| C41_stop | PropLimits.v | sig_forall_dec, functional_extensionality_dep |
| C42_no_jump | PropLimits.v | sig_forall_dec, functional_extensionality_dep |
| C42_refuted | PropLimits.v | sig_forall_dec, functional_extensionality_dep |
| C43_refuted | PropLimits.v | sig_forall_dec, functional_extensionality_dep |
| C73_ratchet_refuted | PropLimits.v | sig_forall_dec, functional_extensionality_dep |
| C73_velocity_refuted | PropLimits.v | sig_forall_dec, functional_extensionality_dep |
| C112_position_converges | PropLoop.v | sig_not_dec, sig_forall_dec, functional_extensionality_dep, classic |
| C112_transform_converges | PropLoop.v | sig_not_dec, sig_forall_dec, functional_extensionality_dep, classic |
| C124_momentum_rates | PropMom.v | sig_forall_dec, functional_extensionality_dep |
| C125_particles | PropMom.v | sig_forall_dec, functional_extensionality_dep |
| C126_momentum_converges | PropMom.v | sig_not_dec, sig_forall_dec, functional_extensionality_dep, classic |
| C34_positive | PropMotion.v | sig_forall_dec |
| C35_limits | PropMotion.v | sig_forall_dec, functional_extensionality_dep |
| C35_torque | PropMotion.v | sig_forall_dec, functional_extensionality_dep |
| C35_defined | PropMotion.v | sig_forall_dec, functional_extensionality_dep |
| C36_rate | PropMotion.v | sig_forall_dec, functional_extensionality_dep |
| C37_self_contact_refuted | PropMotion.v | sig_forall_dec, functional_extensionality_dep |
| C37_exact | PropMotion.v | sig_forall_dec, functional_extensionality_dep |
| C38_spring | PropMotion.v | sig_forall_dec, functional_extensionality_dep |
| C38_poly | PropMotion.v | sig_forall_dec, functional_extensionality_dep |
| C71_torque_accessor | PropMotion.v | sig_forall_dec, functional_extensionality_dep |
| C72_contact_matrix | PropMotion.v | sig_forall_dec, functional_extensionality_dep |
| C72_contact_matrix_refuted | PropMotion.v | sig_forall_dec, functional_extensionality_dep |
| C61_multi_com | PropMulti.v | sig_forall_dec, functional_extensionality_dep |
| C61_defined | PropMulti.v | sig_forall_dec, functional_extensionality_dep |
| C62_stacked_refuted | PropMulti.v | sig_not_dec, sig_forall_dec, functional_extensionality_dep |
| C62_exact | PropMulti.v | sig_not_dec, sig_forall_dec, functional_extensionality_dep |
| C62_defined | PropMulti.v | sig_not_dec, sig_forall_dec, functional_extensionality_dep |
| C100_overshoot | PropMulti.v | sig_not_dec, sig_forall_dec, functional_extensionality_dep |
| C148_orientation | PropOriLoop.v | sig_not_dec, sig_forall_dec, functional_extensionality_dep, classic |
| C148_surface | PropOriLoop.v | sig_not_dec, sig_forall_dec, functional_extensionality_dep, classic |
| C148_solver | PropOriLoop.v | sig_not_dec, sig_forall_dec, functional_extensionality_dep, classic |
| C148_rate | PropOriLoop.v | sig_not_dec, sig_forall_dec, functional_extensionality_dep |
| C49_rows | PropPlane.v | sig_forall_dec, functional_extensionality_dep |
| C49_description | PropPlane.v | sig_forall_dec, functional_extensionality_dep |
| C49_description_refuted | PropPlane.v | sig_forall_dec, functional_extensionality_dep |
| C76_plane_registry | PropPlane.v | sig_forall_dec, functional_extensionality_dep |
| C77_plane_security | PropPlane.v | sig_forall_dec, functional_extensionality_dep |
| C78_exact | PropPlane.v | sig_forall_dec, functional_extensionality_dep |
| C78_refuted | PropPlane.v | sig_forall_dec, functional_extensionality_dep |
| C151_rotation | PropPoseLoop.v | sig_not_dec, sig_forall_dec, functional_extensionality_dep, classic |
| C151_pose | PropPoseLoop.v | sig_not_dec, sig_forall_dec, functional_extensionality_dep, classic |
| C60_independent | PropPosture.v | sig_not_dec, sig_forall_dec, functional_extensionality_dep |
| C60_minimum | PropPosture.v | sig_forall_dec, functional_extensionality_dep |
| C60_defined | PropPosture.v | sig_not_dec, sig_forall_dec, functional_extensionality_dep |
| C90_refuted | PropPosture.v | sig_not_dec, sig_forall_dec, functional_extensionality_dep |
| C90_planar_refuted | PropPosture.v | sig_not_dec, sig_forall_dec, functional_extensionality_dep |
| C91_refuted | PropPosture.v | sig_not_dec, sig_forall_dec, functional_extensionality_dep |
| C91_exact | PropPosture.v | sig_not_dec, sig_forall_dec, functional_extensionality_dep |
| C92_linear | PropPosture.v | sig_not_dec, sig_forall_dec, functional_extensionality_dep |
| C92_refuted | PropPosture.v | sig_not_dec, sig_forall_dec, functional_extensionality_dep |
| C93_converges | PropPosture.v | sig_not_dec, sig_forall_dec, functional_extensionality_dep, classic |
| C59_columns | PropSelector.v | sig_forall_dec |
| C59_defined | PropSelector.v | sig_forall_dec |
| C59_unactive | PropSelector.v | sig_forall_dec |
| C59_complement | PropSelector.v | sig_forall_dec |
| C59_task | PropSelector.v | sig_not_dec, sig_forall_dec, functional_extensionality_dep |
| C59_cost | PropSelector.v | sig_not_dec, sig_forall_dec, functional_extensionality_dep |
| C88_refuted | PropSelector.v | sig_forall_dec, functional_extensionality_dep |
| C88_exact | PropSelector.v | sig_forall_dec |
| C88_complement_refused | PropSelector.v | none |
| C89_refuted | PropSelector.v | sig_forall_dec |
| C89_exact | PropSelector.v | sig_forall_dec |
| C55_setpoint | PropSetPoint.v | sig_not_dec, sig_forall_dec, functional_extensionality_dep |
| C55_defined | PropSetPoint.v | sig_forall_dec |
| C55_tracking | PropSetPoint.v | sig_forall_dec, functional_extensionality_dep |
| C55_trajectory | PropSetPoint.v | sig_forall_dec, functional_extensionality_dep |
| C56_converges | PropSetPoint.v | sig_not_dec, sig_forall_dec, functional_extensionality_dep, classic |
| C57_refuted | PropSetPoint.v | sig_forall_dec, functional_extensionality_dep |
| C57_exact | PropSetPoint.v | sig_forall_dec, functional_extensionality_dep |
| C57_given | PropSetPoint.v | sig_forall_dec, functional_extensionality_dep |
| C58_cost | PropSetPoint.v | sig_forall_dec, functional_extensionality_dep |
| C58_plan | PropSetPoint.v | sig_not_dec, sig_forall_dec, functional_extensionality_dep, classic |
| C58_replan | PropSetPoint.v | sig_forall_dec, functional_extensionality_dep |
| C58_reach | PropSetPoint.v | sig_forall_dec, functional_extensionality_dep |
| C58_short | PropSetPoint.v | sig_forall_dec, functional_extensionality_dep |
| C58_refuted | PropSetPoint.v | sig_forall_dec, functional_extensionality_dep |
| C58_duration | PropSetPoint.v | sig_forall_dec, functional_extensionality_dep |
| C86_objective | PropSetPoint.v | sig_not_dec, sig_forall_dec, functional_extensionality_dep |
| C87_elapsed | PropSetPoint.v | sig_forall_dec, functional_extensionality_dep |
| C87_refuted | PropSetPoint.v | sig_forall_dec, functional_extensionality_dep |
| C87_exact | PropSetPoint.v | sig_forall_dec, functional_extensionality_dep |
| C04_tasks_ordered_set | PropSolver.v | sig_forall_dec |
| C04_constraints_ordered_set | PropSolver.v | sig_forall_dec |
| C05_kind_lists | PropSolver.v | sig_forall_dec |
| C05_remove_defined | PropSolver.v | sig_forall_dec |
| C05_no_influence | PropSolver.v | sig_forall_dec, functional_extensionality_dep |
| C05_round_trip | PropSolver.v | none |
| C06_double_add_refuted | PropSolver.v | none |
| C06_remove_absent_refuted | PropSolver.v | none |
| C07_no_overrun | PropSolver.v | sig_forall_dec, functional_extensionality_dep |
| C08_any_order_refuted | PropSolver.v | sig_forall_dec, functional_extensionality_dep |
| C19_switch_refuted | PropSolver.v | sig_forall_dec, functional_extensionality_dep |
| C19_switch_no_mimic | PropSolver.v | sig_forall_dec, functional_extensionality_dep |
| C20_optimal | PropSolver.v | sig_forall_dec, functional_extensionality_dep |
| C21_write_back | PropSolver.v | sig_forall_dec, functional_extensionality_dep |
| C22_error_line | PropSolver.v | sig_forall_dec, functional_extensionality_dep |
| C23_with_base_exact | PropSolver.v | none |
| C23_without_base_exact | PropSolver.v | none |
| C23_without_base_refuted | PropSolver.v | none |
| C68_error_msg_refuted | PropSolver.v | sig_forall_dec |
| C52_rows | PropSpeed.v | sig_forall_dec, functional_extensionality_dep |
| C52_constraint | PropSpeed.v | sig_forall_dec, functional_extensionality_dep |
| C53_registry | PropSpeed.v | sig_forall_dec, functional_extensionality_dep |
| C80_refuted | PropSpeed.v | sig_forall_dec, functional_extensionality_dep |
| C152_rotation | PropSurfLoop.v | sig_not_dec, sig_forall_dec, functional_extensionality_dep, classic |
| C152_pose | PropSurfLoop.v | sig_not_dec, sig_forall_dec, functional_extensionality_dep, classic |
| C94_torque | PropTorque.v | sig_forall_dec, functional_extensionality_dep |
| C94_torque_all | PropTorque.v | sig_forall_dec, functional_extensionality_dep |
| C94_defined | PropTorque.v | sig_forall_dec, functional_extensionality_dep |
| C95_self_refuted | PropTorque.v | sig_forall_dec, functional_extensionality_dep |
| C95_exact | PropTorque.v | sig_forall_dec, functional_extensionality_dep |
| C96_end_effector | PropTorque.v | sig_forall_dec |
| C118_tracking_jacobian | PropTrack.v | sig_not_dec, sig_forall_dec, functional_extensionality_dep |
| C118_construction | PropTrack.v | sig_forall_dec |
| C119_tracking_error_refuted | PropTrack.v | sig_not_dec, sig_forall_dec, functional_extensionality_dep, classic |
| C119_exact | PropTrack.v | sig_not_dec, sig_forall_dec, functional_extensionality_dep, classic |
| C120_normal_acceleration_refuted | PropTrack.v | sig_not_dec, sig_forall_dec, functional_extensionality_dep, classic |
| C120_exact | PropTrack.v | sig_not_dec, sig_forall_dec, functional_extensionality_dep |
| C147_refuted | PropVecLoop.v | sig_not_dec, sig_forall_dec, functional_extensionality_dep |
| C147_converges | PropVecLoop.v | sig_not_dec, sig_forall_dec, functional_extensionality_dep, classic |
| C147_rate | PropVecLoop.v | sig_forall_dec, functional_extensionality_dep |
| C147_never_attained | PropVecLoop.v | sig_not_dec, sig_forall_dec, functional_extensionality_dep |
| C113_gaze | PropVis.v | sig_forall_dec, functional_extensionality_dep |
| C114_gaze_acceleration_refuted | PropVis.v | sig_not_dec, sig_forall_dec, functional_extensionality_dep, classic |
| C114_exact | PropVis.v | sig_forall_dec, functional_extensionality_dep |
| C115_feature_refuted | PropVis.v | sig_not_dec, sig_forall_dec, functional_extensionality_dep, classic |
| C115_exact | PropVis.v | sig_forall_dec, functional_extensionality_dep |
| C116_pose | PropVis.v | sig_forall_dec, functional_extensionality_dep |
| C117_pose_acceleration_refuted | PropVis.v | sig_not_dec, sig_forall_dec, functional_extensionality_dep |
| C117_exact | PropVis.v | sig_forall_dec, functional_extensionality_dep |
