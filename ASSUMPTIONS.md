# What Print Assumptions lists for each theorem

Generated by tools/gen_assumptions.py from the built tree. Every axiom is in Coq's standard library:

* F = `ClassicalDedekindReals.sig_forall_dec`
* N = `ClassicalDedekindReals.sig_not_dec`
* E = `FunctionalExtensionality.functional_extensionality_dep`
* C = `Classical_Prop.classic`
* – = closed under the global context

## P_BBox

* C86_sampled: EF
* C86_schedule: EF
* C86_plan: EF
* C86_negative_factor_refuted: EF
* C86_lower_dim: EF
* C86_linear: EF
* C86_boundary_covered: EF
* C86_curved_refuted: EF
* C86_device_refuted: EF
* C86_boundary_nonvacuous: EF
* C86_linear_nonvacuous: EF

## P_Bary

* C43_weights: EF
* C43_weights_block: EF
* C43_sum_and_nodes: EF
* C43_polynomials: EF
* C43_polynomials_block: EF
* C43_nonvacuous: EF
* C44_scalar_2d: EF
* C44_interlaced_2d: EF
* C44_interlaced_2d_fixed: EF
* C44_scalar_3d: EF
* C44_interlaced_3d: EF
* C44_interlaced_3d_fixed: EF
* C44_block_3d: EF
* C44_evaluate_2d: EF
* C44_evaluate_3d: EF
* C44_polynomials_2d: EF
* C44_polynomials_3d: EF
* C44_nonvacuous: EF

## P_BaryD

* C113_weights: CEFN
* C113_lane: CEFN
* C113_evaluate_1d: CEFN
* C113_evaluate_2d: CEFN
* C113_evaluate_3d: CEFN
* C113_points: CEFN
* C113_sum: CEFN
* C113_constant_2d: CEFN
* C113_constant_3d: CEFN
* C113_nodes_2d: CEFN
* C113_nodes_3d: CEFN
* C113_near_node_refuted: CEFN
* C113_gap: CEFN
* C113_applied: CEFN

## P_BaryField

* C82_setup: EF
* C82_setup_succeeds: EF
* C82_setup_order: EF
* C82_evaluate: EF
* C82_value: EF
* C82_paths_agree: EF
* C82_gradient: EF
* C82_refused: EF
* C82_component_refuted: EF
* C82_missing_geometry_refuted: EF
* C82_nonvacuous: EF

## P_Basis

* C52_jacobi_function: EF
* C52_precomputed: EF
* C52_outside_limits_rejected: EF
* C52_table_entries: EF
* C52_spec_low_orders: EF
* C52_spec_recurrence: EF
* C52_legendre: EF
* C51_reference_values: EF
* C51_reference_shape_modes: EF
* C51_kernels_equal_reference: EF
* C51_collapsed_end_refuted: EF
* C51_one_mode_refuted: EF
* C51_case: EF
* C53_total_modes_basis: –
* C53_total_modes_shape: –
* C53_kernel_output_length: EF
* C53_reference_length: EF
* C53_loops_touch_all_dofs_once: EF
* C53_constructor_accepts: –
* C53_constructor_sizes: –
* C53_numbers: –
* C54_collapse_total: EF
* C54_collapse_values: EF
* C54_evaluation_is_modal_sum: EF
* C54_projection_any_order: EF
* C54_particles_evaluable: EF
* C54_adjoint: EF
* C54_collapsed_vertex_refuted: EF
* C54_case: EF

## P_BasisD

* C114_jacobi: CEFN
* C114_size: EF
* C114_size_bounds: EF
* C114_mod_A: CEFN
* C114_mod_B: CEFN
* C114_mod_C: CEFN
* C114_lists: EF
* C114_ends: CEFN
* C114_collapsed_end_refuted: CEFN
* C114_applied: CEFN
* C114_outside_table: CEFN
* C114_mod_PyrC: CEFN
* C114_lists_PyrC: EF
* C114_size_PyrC: EF
* C114_PyrC_applied: CEFN

## P_BorisD

* C109_push: CEFN
* C109_speed: CEFN
* C109_run: CEFN
* C109_exact_refuted: CEFN
* C109_applied: CEFN

## P_BoundaryData

* C95_previous_position: –
* C95_pre_integration_frame: –
* C95_normals: EFN
* C95_boundary_data_2d: EFN
* C95_boundary_data_3d: EFN
* C95_needs_previous_position: EFN
* C95_options: EF
* C95_integer_factor_refuted: –
* C95_reflection_options_refuted: EF
* C95_reflection_options_witness: EF
* C95_nonvacuous: EFN

## P_ChargedInit

* C106_population: EFN
* C106_positions: EFN
* C106_beams: EFN
* C106_quarter: EFN
* C106_species: EFN
* C106_ranks: EFN
* C106_ring: EFN
* C106_thermal: EFN
* C106_number: –
* C106_quarter_refuted: EFN
* C106_beams_refuted: EFN
* C106_ranks_refuted: EFN
* C106_seed_refuted: EFN
* C106_applied: EFN

## P_Codecs

* C01_pack_unpack_geom2d: –
* C01_nonvacuous: –
* C02_pack_unpack_geoms2d: –
* C02_nonvacuous: –
* C03_unpack_one_in_bounds_partial: –
* C03_rejects_truncated: –
* C03_unpack_collection_in_bounds_refuted: –
* C04_num_bytes_is_serialised_length: –
* C04_remote_geom_round_trip: –
* C04_nonvacuous: –
* C04_curved_rejected: –
* C04_curved_nonvacuous: –
* C03_remote_geom_deserialise_in_bounds_refuted: –

## P_Composite

* C39_scanned_cells_are_found: F
* C39_order_independent: F
* C39_scan_is_the_spanned_box: F
* C39_scan_stays_in_grid: F
* C39_nonvacuous: F
* C39_outside: F
* C40_nearest_2d: EF
* C40_nearest_3d: EFN
* C40_face_hit_sound: EFN
* C40_crossed_face_hit: EFN
* C40_nonvacuous: EF
* C41_one_group_per_composite: –
* C41_boundary_elements: –
* C41_contents_storable: EF
* C41_elements_nonvacuous: –
* C41_sub_groups: –
* C41_nonvacuous: F
* C42_collected_after_any_history: –
* C42_next_request_completes: –
* C42_held_cells_not_transferred: –
* C42_nonvacuous: –
* C40_no_hit_missed_3d: EFN
* C40_no_hit_missed_2d: EF
* C40_reported_hit_is_real_3d: EFN
* C40_reported_hit_is_real_2d: EF
* C40_end_to_end_nonvacuous: EF

## P_Coord

* C23_clamp_single: EF
* C23_clamp_pair_partial: EF
* C23_clamp_triple_partial: EF
* C23_clamp_pair_refuted: EF
* C23_clamp_triple_refuted: EF
* C23_nonvacuous: EF
* C24_collapsed_round_trip_3d: EF
* C24_collapsed_round_trip_2d: EF
* C24_inverse_direction: EF
* C24_dispatch: EF
* C24_nonvacuous: EF

## P_CoordD

* C112_round_trip_3d: CEFN
* C112_round_trip_2d: CEFN
* C112_dispatch_3d: CEFN
* C112_dispatch_2d: CEFN
* C112_clamp: CEFN
* C112_dispatch_refuted: CEFN
* C112_applied: CEFN

## P_CurvedMap

* C100_constructor: CEFN
* C100_work_group: CEFN
* C100_terminates: –
* C100_completes: –
* C100_bound: CEFN
* C100_nonvacuous: CEFN

## P_Diffusion

* C79_tensor: EFN
* C79_parameters: EFN
* C79_angle_refuted: EFN
* C79_dissipative: EFN
* C79_setup: EFN
* C79_step: EFN
* C79_stable: EFN
* C79_zero_parameters: EFN
* C79_projection: –
* C79_coupled: EFN
* C79_coupled_matrixfree_refuted: EFN
* C79_receiver_viscosity_refuted: EFN
* C79_nonvacuous: EFN
* C79_received: –

## P_Double

* C102_periodic: CEFN
* C102_rounding: CEFN
* C102_half_open_refuted: CEFN
* C102_unmoved_refuted: CEFN
* C102_short_domain_refuted: CEFN
* C102_applied: CEFN

## P_Double2

* C103_rsequence: CEFN
* C103_tiny_extent_refuted: CEFN
* C103_applied: CEFN

## P_Double3

* C104_deposit: CEFN
* C104_two_runs: CEFN
* C104_tolerance: EF
* C104_exact: CEFN
* C104_order_refuted: CEFN
* C104_applied: CEFN
* C104_deposit_applied: CEFN

## P_DoubleGrid

* C105_candidate: CEFN
* C105_cell_visited: CEFN
* C105_cell_contains: CEFN
* C105_large_coordinates_refuted: CEFN
* C105_far_particle_refuted: CEFN
* C105_applied: CEFN

## P_DoubleTime

* C107_substeps: CEFN
* C107_run: CEFN
* C107_one: CEFN
* C107_extra_refuted: CEFN
* C107_stall_refuted: CEFN
* C107_applied: CEFN

## P_Driver

* C90_run: EF
* C90_collective: –
* C90_printed_energies_refuted: EF
* C90_setup_required: F
* C90_setup_values: F
* C90_setup_deterministic: F
* C90_line_negative: F
* C90_line_size_refuted: F
* C90_bernstein_default_refuted: F
* C90_two_stream_field_refuted: EF
* C90_bernstein_globals: –
* C90_line_points: EF
* C90_line_shift: EF
* C90_nonvacuous: EF

## P_Euler

* C78_rhs_2d: EFN
* C78_rhs_1d: EFN
* C78_flux_rotation: EFN
* C78_flux_symmetric: EF
* C78_vacuum: EFN
* C78_source_shape: EFN
* C78_source_width: EFN
* C78_source_parameters: F
* C78_zero_width: EFN
* C78_forcing_count_refuted: EFN
* C78_order_refuted: EFN
* C78_nonvacuous: EFN
* C78_startup: –

## P_EvalD

* C115_loop_quad: CEFN
* C115_loop_tri: CEFN
* C115_loop_hex: CEFN
* C115_loop_prism: CEFN
* C115_loop_tet: CEFN
* C115_quad: CEFN
* C115_tri: CEFN
* C115_hex: CEFN
* C115_prism: CEFN
* C115_tet: CEFN
* C115_quad_not_finite: CEFN
* C115_hex_not_finite: CEFN
* C115_tri_not_finite: CEFN
* C115_collapsed_end_refuted: CEFN
* C115_applied: CEFN

## P_Exchange

* C35_counts_agree: –
* C35_counting_never_stuck: –
* C35_counts_nonvacuous: –
* C35_who_sends_what: –
* C35_cells_split: –
* C35_exchange_delivers: –
* C35_buffer_size_refuted: –
* C35_exchange_nonvacuous: –
* C35_exchange_runs: –
* C35_neighbour_ranks: –
* C35_overlapping_elements_arrive: EF
* C35_sends_succeed: EF
* C35_mesh_nonvacuous: EF

## P_FieldDeposit

* C101_constructor: –
* C101_same_layout: –
* C101_deposit: EF
* C101_project: EF
* C101_conserves: EF
* C101_other_group_refuted: EF

## P_FieldDeposit2

* C101_projected_at_positions_3d: EF
* C101_projected_at_positions_2d: EF
* C101_affine_functions: EF
* C101_affine_represents: EF
* C101_constructor_applied: –
* C101_applied: EF

## P_FieldEval

* C99_setup: –
* C99_setup_rejects: –
* C99_missing_expansion_refuted: –
* C99_evaluate: EF
* C99_component_unchecked_refuted: EF
* C99_field_evaluate_call: –
* C99_hypotheses_met: –
* C99_clear_positions: EF

## P_FieldEval2

* C99_reference_position: EF
* C99_value_at_accepted: EF
* C99_value_at_position_3d: EF
* C99_value_at_position_2d: EF

## P_FieldEval3

* C99_affine_fields: EF
* C99_affine_represents: EF
* C99_applied_2d: EF

## P_FieldHelp

* C94_interpolate_3d: –
* C94_interpolate_2d: –
* C94_interpolate_idempotent: –
* C94_evaluate: –
* C94_reproduces_3d: –
* C94_reproduces_2d: F
* C94_outside_refuted: –
* C94_cells_to_expansions: –
* C94_particle_to_expansion_2d: –
* C94_particle_to_expansion_3d: –
* C94_error_measures: EF
* C94_nonvacuous: EF

## P_FieldProject

* C63_partition_of_unity: EF
* C63_galerkin: EF
* C63_values_are_evaluations: EF
* C63_conserves: EF
* C63_host_agrees: EF
* C63_bad_arguments_rejected: EF
* C63_other_group_refuted: EF
* C63_case: EF

## P_Fluid

* C72_drift: EFN
* C72_cross_product: EFN
* C72_2d_refuted: EFN
* C72_zero_B_refuted: EFN
* C72_nonvacuous: EF
* C73_inputs: –
* C73_hw2d: EF
* C73_hw3d: EF
* C73_hw3d_parallel: EF
* C73_bracket: EF
* C73_required: –
* C73_variable_order_refuted: EF
* C73_variable_order_ub_refuted: EF
* C73_hw2d_stage_density_refuted: EF
* C73_nonvacuous: EF
* C73_bracket_nonvacuous: EF
* C74_hw2d_energy: EF
* C74_hw2d_enstrophy: EF
* C74_hw3d_energy: EF
* C74_hw3d_enstrophy: EF
* C74_z_term_refuted: EF
* C74_nonvacuous: EF
* C75_rhs: CEFN
* C75_momentum_exchange: CEFN
* C75_density_floor_refuted: CEFN
* C75_particle_source_refuted: CEFN
* C75_nonvacuous: EF
* C76_rhs: EFN
* C76_no_particles: –
* C76_nonvacuous: EF

## P_Generic3D

* C85_write: EF
* C85_write_rejects: F
* C85_position: EF
* C85_residual_then_step: EF
* C85_inversion: EF
* C85_cell_test: EF
* C85_start_grid: EF
* C85_accepted_is_close: EF
* C85_inside_is_accepted: EF
* C85_exact_maps: EF
* C85_affine_found: EF
* C85_nonvacuous: EF
* C85_step_needs_residual: EF

## P_Grid

* C18_cell_contains_point: EF
* C18_outside_points: EF
* C18_linear_index_bijection: EF
* C18_nonvacuous: EF
* C19_periodic_wrap_partial: EF
* C19_nonvacuous: EF
* C19_periodic_wrap_refuted: EF
* C19_wrapped_exactly_when: EF
* C20_periodic_domain_partial: EF
* C20_nonvacuous: EF
* C20_negative_domain_refuted: EF
* C20_refuted_nonvacuous: EF
* C21_overlap_volume: EF
* C21_expand_is_hull: EF
* C21_hierarchy_intersection: EF
* C21_nonvacuous: EF
* C56_lookup_constructed: CEFN
* C22_candidates_exact: CEFN
* C22_candidate_offered_partial: CEFN
* C22_nonvacuous: CEFN
* C22_upper_face_refuted: CEFN

## P_Halo

* C32_halo_cells: F
* C32_width_check: F
* C32_nonvacuous: EF
* C33_requested_from_owner: –
* C33_owner_learns_requests: –
* C33_requests_nonvacuous: –
* C33_call_completes: CEF
* C33_call_adds_exactly: CEF
* C33_halo_complete: CEF
* C33_constructor_establishes: EF
* C33_call_nonvacuous: EF
* C34_no_duplicates: CEF
* C34_history_nonvacuous: CEF

## P_Halo3D

* C87_prepare_succeeds: –
* C87_halos_delivered: –
* C87_constructor_sends: EF
* C87_overlapping_elements_arrive: EF
* C87_neighbour_ranks: –
* C87_nonvacuous: EF
* C87_runs: –
* C87_counted_nonvacuous: EF
* C87_missing_face_rejected: –

## P_HaloExt3

* C91_call_completes: CEF
* C91_call_adds_exactly: CEF
* C91_halo_complete: CEF
* C91_constructor_establishes: EF
* C91_no_duplicates: CEF
* C91_all_elements: –
* C91_all_elements_nonvacuous: –
* C91_nonvacuous: EF
* C91_history_nonvacuous: CEF

## P_HexGeom

* C92_vertices: EF
* C92_numbering: EF
* C92_edges: EF
* C92_face_edges: EF
* C92_face_points_partial: EF
* C92_face_meets_edges_partial: EF
* C92_front_left_faces_refuted: EF
* C92_face_order_refuted: EF
* C92_outside_cube_refuted: EF
* C92_nonvacuous: EF

## P_Implicit

* C83_sizes: EF
* C83_residual: EF
* C83_stage: EF
* C83_norm: EF
* C83_step_size: EFN
* C83_jacobian_quadratic: EFN
* C83_jacobian_limit: EFN
* C83_homogeneous: EFN
* C83_zero_direction_refuted: EFN
* C83_precon: –
* C83_nonvacuous: EFN
* C83_stage_nonvacuous: EF
* C83_short_arrays: F
* C83_short_output: –

## P_IoniseD

* C110_step: CEFN
* C110_run: CEFN
* C110_defined: CEFN
* C110_conserved_refuted: CEFN
* C110_unmarked_refuted: CEFN
* C110_applied: CEFN

## P_Journey

* C98_mapping_3d: CEFN
* C98_cell_with_owner_3d: EF
* C98_landing_3d: EF
* C98_no_particle_lost_3d: CEFN

## P_Journey2

* C98_mapping_2d: CEFN
* C98_landing_2d: EF
* C98_no_particle_lost_2d: CEFN
* C98_room_for_reference: F
* C98_dimensions: CEFN
* C98_nonvacuous_3d: EF
* C98_applied_3d: CEFN
* C98_nonvacuous_2d: EF

## P_Launch

* C97_every_particle_once: –
* C97_local_memory_in_bounds: EF
* C97_evaluation_undisturbed: EF
* C97_projection_undisturbed: EF
* C97_one_mode_refuted: EF
* C97_case: –
* C97_case_launch: –

## P_LinePlane

* C36_plane_test: EF
* C36_point_unique: EF
* C36_nonvacuous: EFN
* C37_filter_conservative: EFN
* C37_crossing_is_found: EFN
* C37_nonvacuous: EFN
* C38_normal_of_face: EFN
* C38_normal_exists: EFN
* C38_normal_of_edge: EFN
* C38_plane_contains_element: EFN
* C38_nonvacuous: EFN

## P_MeshIf

* C29_cells_are_overlaps: EF
* C29_each_cell_once: EF
* C29_cell_numbers_identify_cells: EF
* C29_padding: EF
* C29_volumes_sum_to_box: EF
* C29_claim_weights: EF
* C29_nonvacuous: EF
* C30_claims: F
* C30_order_independent: F
* C30_element_claims: EF
* C30_nonvacuous: –
* C31_hierarchy_covers_mesh: CEFN
* C31_hierarchy_created: CEFN
* C31_hierarchy_tight: CEFN
* C31_nonvacuous: EF
* C31_coarse_cell_size: CEFN
* C66_subdivision_order_partial: CEFN
* C66_fine_cells_match_elements_refuted: CEFN
* C66_nonvacuous: CEFN

## P_Neutral

* C81_ids: EF
* C81_added_once: CEFN
* C81_weight: EF
* C81_mass_balance: CEFN
* C81_completes: CEFN
* C81_recorded_error_zero: CEFN
* C81_two_substeps_refuted: CEFN
* C81_zero_particles: CEFN
* C81_nonperiodic: CEFN
* C81_centre_refuted: EF
* C81_seed: –
* C81_nonvacuous: CEFN
* C81_placed: EF

## P_Newton

* C45_residual_is_X_minus_p: EF
* C45_x_is_X: EF
* C45_X_maps_reference_vertices: EF
* C45_pyramid_shrinks_base_to_apex: EF
* C45_x_at_pyramid_apex_refuted: EF
* C45_jacobian_exists: EF
* C45_step_is_newton: EF
* C45_affine_exact_in_one_step: EF
* C45_tet_is_affine: EF
* C45_pyramid_apex_accepted: EF
* C45_embedded_quad_residual: EF
* C45_embedded_quad_normal: EF
* C45_embedded_quad_step: EF
* C45_embedded_triangle_residual: EF
* C45_embedded_triangle_projects: EF
* C45_embedded_triangle_exact_in_plane: EF
* C45_embedded_triangle_degenerate: EF
* C45_not_vacuous: EF
* C45_triangle_not_vacuous: EF

## P_NewtonBind

* C46_success_exactly: EF
* C46_accepted_is_close: EF
* C46_x_inverse_is_close: EF
* C46_zero_tolerance_in_element: EF
* C46_jacobian_scaling: EF
* C46_exit_scaling: EF
* C46_negative_jacobian_refuted: EF
* C46_converged_inside_accepted: EF
* C46_affine_point_found: EF
* C46_not_vacuous: EF
* C47_mapper_exists: CEFN
* C47_initial_binds_first: CEFN
* C47_final_binds_first: CEFN
* C47_position: F
* C47_passes_well_behaved: CEFN
* C47_bound_untouched: EF
* C47_no_geometries: CEFN
* C47_accepted_in_box_is_bound: CEFN
* C47_host_binds_first: F
* C47_map2d: EF
* C47_map3d: EF
* C47_not_vacuous: CEFN
* C49_keys_partial: EF
* C49_start_grid: EF
* C49_start_points: EF
* C49_starts_in_cube: EF
* C49_grid_size_max_refuted: EF
* C49_not_vacuous: EF

## P_NewtonD

* C108_residual: CEFN
* C108_embedded_quad: CEFN
* C108_embedded_triangle: CEFN
* C108_exact_refuted: CEFN
* C108_applied: CEFN

## P_Params

* C84_common: EFN
* C84_2d_refuted: CEFN
* C84_hw2d: EFN
* C84_hw3d_refused: CEFN
* C84_hw3d_alpha: CEFN
* C84_hw3d_alpha_nonfinite_refuted: CEFN
* C84_hw3d_kappa: CEFN
* C84_gyro_radius_refuted: EFN
* C84_lambda_q_refuted: CEFN
* C84_lapd: EFN
* C84_rr: EFN
* C84_source_width_refuted: EFN
* C84_frame: CEFN
* C84_nonvacuous: CEFN

## P_PartSys

* C80_number: –
* C80_disabled_refuted: –
* C80_output_step: –
* C80_trajectory: –
* C80_output_once: –
* C80_choice: –
* C80_nonvacuous: –
* C80_reported: –
* C80_messages: –

## P_Pic

* C50_boris_solves_lorentz: EF
* C50_speed_and_parallel_preserved: EF
* C50_no_B_is_kick: EF
* C50_work_energy: EF
* C50_reversible: EF
* C50_zero_mass_not_finite: EF
* C50_cross_product: EF
* C50_not_vacuous: EF
* C58_velocity_verlet: EF
* C58_reversible: EF
* C58_stormer: EF
* C58_other_types_are_boris: EF
* C58_not_vacuous: EF
* C59_charges_consistent: EF
* C59_charges_finite: EF
* C59_session_values: EF
* C59_num_particles: –
* C59_charge_density_set_refuted: EF
* C59_not_vacuous: EF
* C60_neutral_rhs: EF
* C60_forcing_coefficients_refuted: EF
* C60_not_vacuous: EF
* C61_kinetic_energy: EF
* C61_solver_kinetic_energy_partial: EF
* C61_two_mass_kinetic_energy_refuted: EF
* C61_one_species: F
* C61_two_species: EF
* C61_gauge_invariant: EF
* C61_field_energy_nonneg: EF
* C61_shifted_mean_zero: EF
* C61_potential_energy: EF
* C61_energies_defined: EF
* C61_boris_conserves_total: EF
* C61_not_vacuous: EF
* C62_integrator_choice: F
* C62_bad_type_rejected_refuted: EF

## P_Plane

* C77_session: –
* C77_rhs: EF
* C77_equations: EF
* C77_drift: EF
* C77_numerical_flux: EF
* C77_still_face_refuted: EF
* C77_budget: EF
* C77_dimension_refuted: F
* C77_zero_parameters: EF
* C77_readme_refuted: EF
* C77_parameters: EF
* C77_default_length_refuted: EF
* C77_nonvacuous: EF
* C77_budget_nonvacuous: EF

## P_ProjectD

* C116_loop_quad: CEFN
* C116_loop_tri: CEFN
* C116_loop_hex: CEFN
* C116_loop_prism: CEFN
* C116_loop_tet: CEFN
* C116_quad: CEFN
* C116_tri: CEFN
* C116_hex: CEFN
* C116_prism: CEFN
* C116_tet: CEFN
* C116_sizes: EF
* C116_coefficient: CEFN
* C116_deposits: EF
* C116_order_refuted: CEFN
* C116_applied: CEFN

## P_Reader

* C09_parse_equals_iff: –
* C09_accepts: –
* C09_rejects: –
* C10_info_lookup_partial: –
* C10_nonvacuous: –
* C10_info_defined_implies_fetchable_refuted: –
* C11_parameter_lookup: –
* C11_parameters_accepted: –
* C11_nonvacuous: –
* C11_load_size_t_exact_refuted: –
* C11_load_size_t_rejects_negative_refuted: –
* C11_load_int: –
* C11_load_int_default: –
* C11_load_size_t_partial: –
* C11_load_nonvacuous: –
* C12_unnamed_species_refuted: –
* C12_boundary_accepted: –
* C12_boundary_regions_partial: –
* C12_nonvacuous: –
* C12_brackets: –

## P_Reader2

* C55_reactions_use_declared_species: –
* C55_session_accepted: –
* C64_parameter_scopes: –
* C64_integer_loads: –
* C64_missing_parameters: –
* C64_nonvacuous: –
* C64_shared_interpreter: –
* C55_nonvacuous: –
* C65_functions_accepted: –
* C65_species_functions: –
* C65_nonvacuous: –
* C65_duplicate: –

## P_Regular

* C48_accepts_exactly: EF
* C48_points_of_element_accepted: EF
* C48_accepted_is_in_element: EF
* C48_coefficients: EF
* C48_degenerate_rejected: EF
* C48_host_agrees: EF
* C48_mapper_binds_first: CEFN
* C48_particle_in_element_bound: CEFN
* C48_mapper_well_behaved: CEFN
* C48_not_vacuous: EF
* C48_not_vacuous_accept: EF
* C57_every_3d_element_covered_once: –
* C57_map3d_binds: CEFN
* C57_mapper_settings: EF
* C57_2d_elements_covered_once_partial: –
* C57_map2d_binds_partial: CEFN
* C57_deformed_triangles_refuted: CEFN
* C57_not_vacuous: EF

## P_Rounds

* C88_no_crosstalk: –
* C88_all_received: –
* C88_never_stuck: –
* C88_never_stuck_unbuffered: –
* C88_terminates: –
* C88_nonvacuous: –

## P_Sample

* C25_find_owning_geom_partial: –
* C25_find_owning_geom_refuted: –
* C25_nonvacuous: –
* C26_uniform_within_elements: EF
* C26_uniform_within_elements_succeeds: EF
* C26_nonvacuous: EF
* C27_rsequence_partial: EF
* C27_rsequence_refuted: EF
* C27_nonvacuous: EF
* C28_line_points_partition: EF
* C28_line_points_collected: –
* C28_sampler_one_rank: –
* C28_one_owner: –
* C28_nonvacuous: –

## P_Sol

* C67_substeps_cover: CEFN
* C67_edges: CEFN
* C67_sizes: EF
* C67_streaming: EF
* C68_ionise_simplesol: CEFN
* C68_ionise_driftreduced: CEFN
* C68_rate: CEFN
* C68_rate_formula: CEFN
* C68_expint_small: CEFN
* C68_expint_large: CEFN
* C68_cold_fluid_refuted: CEFN
* C68_case: EF
* C69_mass_balance: CEFN
* C69_recorded_error_zero: CEFN
* C69_completes: CEFN
* C69_finite: CEFN
* C69_recording: –
* C69_two_substeps_refuted: CEFN
* C69_case: CEFN
* C70_walls: EF
* C70_rotated_walls_refuted: EFN
* C70_case: EFN
* C71_count: EF
* C71_drawn: EF
* C71_count_exact: EF
* C71_count_refuted: EF
* C71_no_lines: EF
* C71_ids_refuted: EF
* C71_weight: EF
* C71_units: EF
* C71_unit_values: EF
* C71_lines: EFN
* C71_case: EFN

## P_Subdomain

* C96_point_found: EF
* C96_point_in_subdomain: EF
* C96_straight_sided: EF
* C96_fails_exactly: EF
* C96_surface_mesh_refuted: EF
* C96_example: EF

## P_SumD

* C111_sum: CEFN
* C111_code_order: –
* C111_schedules: CEFN
* C111_kinetic: CEFN
* C111_potential: CEFN
* C111_mass: CEFN
* C111_balanced: CEFN
* C111_order_refuted: CEFN
* C111_exact_balance_refuted: CEFN
* C111_applied: CEFN

## P_Transport

* C05_reconstruct_deconstruct: –
* C05_reconstruct_sound: –
* C05_missing_face_always_rejected: –
* C05_nonvacuous: –
* C05_missing_face_rejected: –
* C06_faces_sent_are_faces_needed: –
* C06_nonvacuous: –
* C06_receiver_reconstructs: –
* C07_ring_gather: –
* C07_nonvacuous: –
* C08_exchange_delivers: –
* C08_nonvacuous: –

## P_Util

* C13_parameter_store: –
* C13_nonvacuous: –
* C14_callbacks: –
* C14_nonvacuous: –
* C15_cell_translation_2d: –
* C15_cell_translation_3d: –
* C15_nonvacuous: –
* C15_empty_rank_refuted: –
* C16_global_size: –
* C16_vector_padding: –
* C16_nonvacuous: –
* C17_field_index_map: –
* C17_nonvacuous: –

## P_Vtk

* C93_file: F
* C93_own_property: F
* C93_fails: F
* C93_owner_lost_3d_refuted: F
* C93_mixed_refuted: F
* C93_entry_points: F
* C93_names: –
* C93_plot_files: –
* C93_nonvacuous: F
* C93_plot_files_exactly: –

## P_Writer

* C89_stored: –
* C89_first_wins: –
* C89_numbering: –
* C89_errors_unnoticed_refuted: –
* C89_lost_writes_refuted: –
* C89_no_step: –
* C89_nonvacuous: –
