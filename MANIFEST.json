{
 "claims": [
  {
   "property": "C01",
   "status": "proved",
   "theorems": [
    "C01_pack_unpack_geom2d"
   ],
   "note": ""
  },
  {
   "property": "C02",
   "status": "proved",
   "theorems": [
    "C02_pack_unpack_geoms2d"
   ],
   "note": ""
  },
  {
   "property": "C03",
   "status": "partial",
   "theorems": [
    "C03_unpack_one_in_bounds_partial",
    "C03_unpack_collection_in_bounds_refuted",
    "C03_remote_geom_deserialise_in_bounds_refuted"
   ],
   "note": "Proved for a single geometry. The collection claim and the RemoteGeom claim are false of the code and refuted with witnesses: PackedGeoms2D::unpack passes the whole input_length to a reader starting inside the buffer; RemoteGeom::deserialise does not check bounds before its final assertion."
  },
  {
   "property": "C04",
   "status": "proved",
   "theorems": [
    "C04_num_bytes_is_serialised_length",
    "C04_remote_geom_round_trip",
    "C04_curved_rejected"
   ],
   "note": "Nektar++ GetGeomFactors/Setup after construction are not modelled; dynamic cast to the template type T is assumed to match."
  },
  {
   "property": "C05",
   "status": "proved",
   "theorems": [
    "C05_reconstruct_deconstruct",
    "C05_reconstruct_sound",
    "C05_missing_face_always_rejected"
   ],
   "note": ""
  },
  {
   "property": "C06",
   "status": "proved",
   "theorems": [
    "C06_faces_sent_are_faces_needed",
    "C06_receiver_reconstructs"
   ],
   "note": ""
  },
  {
   "property": "C07",
   "status": "proved",
   "theorems": [
    "C07_ring_gather"
   ],
   "note": ""
  },
  {
   "property": "C08",
   "status": "proved",
   "theorems": [
    "C08_exchange_delivers"
   ],
   "note": ""
  },
  {
   "property": "C09",
   "status": "proved",
   "theorems": [
    "C09_parse_equals_iff"
   ],
   "note": ""
  },
  {
   "property": "C10",
   "status": "partial",
   "theorems": [
    "C10_info_lookup_partial",
    "C10_info_defined_implies_fetchable_refuted"
   ],
   "note": "get_info looks up the caller's spelling while the map is keyed by upper case (particle_reader.cpp): proved for upper-case names, refuted in general with a witness."
  },
  {
   "property": "C11",
   "status": "partial",
   "theorems": [
    "C11_parameter_lookup",
    "C11_parameters_accepted",
    "C11_load_size_t_exact_refuted",
    "C11_load_size_t_rejects_negative_refuted",
    "C11_load_int",
    "C11_load_int_default",
    "C11_load_size_t_partial"
   ],
   "note": "Lookup, existence and defaults proved for every evaluator. The size_t loader is refuted: values are squeezed through int (3e9 refused, -1 accepted as a huge value). Integer loads are characterised exactly."
  },
  {
   "property": "C12",
   "status": "partial",
   "theorems": [
    "C12_unnamed_species_refuted",
    "C12_boundary_accepted",
    "C12_boundary_regions_partial"
   ],
   "note": "std::stoi is applied to the SPECIES attribute before the emptiness test, so the documented 'all species' form never loads: refuted for every input; the explicit-species form is proved. Acceptance is characterised exactly (C12_boundary_accepted); a periodic VALUE without its opening bracket, such as \"5]\", is accepted."
  },
  {
   "property": "C13",
   "status": "proved",
   "theorems": [
    "C13_parameter_store"
   ],
   "note": ""
  },
  {
   "property": "C14",
   "status": "proved",
   "theorems": [
    "C14_callbacks"
   ],
   "note": ""
  },
  {
   "property": "C15",
   "status": "partial",
   "theorems": [
    "C15_cell_translation_2d",
    "C15_cell_translation_3d",
    "C15_empty_rank_refuted"
   ],
   "note": "Proved for ranks owning at least one element with ids in [0, INT_MAX). An empty rank is refuted: id_max - id_min overflows int (undefined behaviour)."
  },
  {
   "property": "C16",
   "status": "proved",
   "theorems": [
    "C16_global_size",
    "C16_vector_padding"
   ],
   "note": ""
  },
  {
   "property": "C17",
   "status": "proved",
   "theorems": [
    "C17_field_index_map"
   ],
   "note": ""
  },
  {
   "property": "C18",
   "status": "proved",
   "theorems": [
    "C18_cell_contains_point",
    "C18_outside_points",
    "C18_linear_index_bijection"
   ],
   "note": ""
  },
  {
   "property": "C19",
   "status": "partial",
   "theorems": [
    "C19_periodic_wrap_partial",
    "C19_periodic_wrap_refuted",
    "C19_wrapped_exactly_when"
   ],
   "note": "Proved for extents >= 1 or positions no more than two extents below the origin; refuted in general (the offset is trunc(|pos|+2) extents instead of trunc(|pos|/extent+2))."
  },
  {
   "property": "C20",
   "status": "partial",
   "theorems": [
    "C20_periodic_domain_partial",
    "C20_negative_domain_refuted"
   ],
   "note": "Proved when the largest vertex coordinate is at least DBL_MIN; refuted for every mesh whose coordinates are all <= 0 (numeric_limits<double>::min() is used as the initial maximum)."
  },
  {
   "property": "C21",
   "status": "proved",
   "theorems": [
    "C21_overlap_volume",
    "C21_expand_is_hull",
    "C21_hierarchy_intersection"
   ],
   "note": ""
  },
  {
   "property": "C22",
   "status": "partial",
   "theorems": [
    "C22_candidates_exact",
    "C22_candidate_offered_partial",
    "C22_upper_face_refuted"
   ],
   "note": "Candidate set characterised exactly for every point; elements are offered on their half-open box (closed at the grid's outer faces). Refuted on shared upper faces that lie on a grid line, where only the neighbour is offered. MPI/int overflow of the cell count not modelled."
  },
  {
   "property": "C23",
   "status": "partial",
   "theorems": [
    "C23_clamp_single",
    "C23_clamp_pair_partial",
    "C23_clamp_triple_partial",
    "C23_clamp_pair_refuted",
    "C23_clamp_triple_refuted"
   ],
   "note": "Single coordinate proved. clamp_loc_coords uses || and stops at the first clamped component (coordinate_mapping.hpp 713, 730): exact behaviour proved, the claim that every component is clamped refuted."
  },
  {
   "property": "C24",
   "status": "proved",
   "theorems": [
    "C24_collapsed_round_trip_3d",
    "C24_collapsed_round_trip_2d",
    "C24_inverse_direction",
    "C24_dispatch"
   ],
   "note": ""
  },
  {
   "property": "C25",
   "status": "partial",
   "theorems": [
    "C25_find_owning_geom_partial",
    "C25_find_owning_geom_refuted"
   ],
   "note": "Soundness, owner and count proved; completeness refuted: geom_found is overwritten by every later candidate (utilities.hpp 397)."
  },
  {
   "property": "C26",
   "status": "proved",
   "theorems": [
    "C26_uniform_within_elements",
    "C26_uniform_within_elements_succeeds"
   ],
   "note": ""
  },
  {
   "property": "C27",
   "status": "partial",
   "theorems": [
    "C27_rsequence_partial",
    "C27_rsequence_refuted"
   ],
   "note": "Proved for seed >= 0; refuted for negative seeds (fmod keeps the sign)."
  },
  {
   "property": "C28",
   "status": "proved",
   "theorems": [
    "C28_line_points_partition",
    "C28_line_points_collected",
    "C28_sampler_one_rank",
    "C28_one_owner"
   ],
   "note": "The decomposition of indices (get_decomp_1d) and particle migration are NESO-Particles code and enter as hypotheses; all code of the class around them is modelled."
  },
  {
   "property": "C29",
   "status": "proved",
   "theorems": [
    "C29_cells_are_overlaps",
    "C29_each_cell_once",
    "C29_cell_numbers_identify_cells",
    "C29_padding",
    "C29_volumes_sum_to_box",
    "C29_claim_weights"
   ],
   "note": ""
  },
  {
   "property": "C30",
   "status": "proved",
   "theorems": [
    "C30_claims",
    "C30_order_independent",
    "C30_element_claims"
   ],
   "note": ""
  },
  {
   "property": "C31",
   "status": "proved",
   "theorems": [
    "C31_hierarchy_covers_mesh",
    "C31_hierarchy_created",
    "C31_hierarchy_tight",
    "C31_coarse_cell_size"
   ],
   "note": ""
  },
  {
   "property": "C32",
   "status": "proved",
   "theorems": [
    "C32_halo_cells",
    "C32_width_check"
   ],
   "note": ""
  },
  {
   "property": "C33",
   "status": "proved",
   "theorems": [
    "C33_requested_from_owner",
    "C33_owner_learns_requests",
    "C33_call_completes",
    "C33_call_adds_exactly",
    "C33_halo_complete",
    "C33_constructor_establishes"
   ],
   "note": ""
  },
  {
   "property": "C34",
   "status": "proved",
   "theorems": [
    "C34_no_duplicates"
   ],
   "note": ""
  },
  {
   "property": "C35",
   "status": "partial",
   "theorems": [
    "C35_counts_agree",
    "C35_counting_never_stuck",
    "C35_who_sends_what",
    "C35_cells_split",
    "C35_exchange_delivers",
    "C35_buffer_size_refuted",
    "C35_neighbour_ranks",
    "C35_overlapping_elements_arrive",
    "C35_sends_succeed"
   ],
   "note": "MPI's own guarantees (barriers, atomic accumulate, reliable messages) are assumptions of the model; the 3D path uses the same send/count functions and C05-C08. Refuted part: the receive buffer size max_recv_size*num_recv_ranks overflows int although every message fits."
  },
  {
   "property": "C36",
   "status": "proved",
   "theorems": [
    "C36_plane_test",
    "C36_point_unique"
   ],
   "note": ""
  },
  {
   "property": "C37",
   "status": "proved",
   "theorems": [
    "C37_filter_conservative",
    "C37_crossing_is_found"
   ],
   "note": ""
  },
  {
   "property": "C38",
   "status": "proved",
   "theorems": [
    "C38_normal_of_face",
    "C38_normal_exists",
    "C38_normal_of_edge",
    "C38_plane_contains_element"
   ],
   "note": ""
  },
  {
   "property": "C39",
   "status": "proved",
   "theorems": [
    "C39_scanned_cells_are_found",
    "C39_order_independent",
    "C39_scan_is_the_spanned_box",
    "C39_scan_stays_in_grid"
   ],
   "note": ""
  },
  {
   "property": "C40",
   "status": "proved",
   "theorems": [
    "C40_nearest_2d",
    "C40_nearest_3d",
    "C40_face_hit_sound",
    "C40_crossed_face_hit",
    "C40_no_hit_missed_3d",
    "C40_no_hit_missed_2d",
    "C40_reported_hit_is_real_3d",
    "C40_reported_hit_is_real_2d"
   ],
   "note": "Nearest over the scanned cells for any tree, plus end to end: no hit in reach is missed and every reported hit is an element of some rank. Oracles: Newton acceptance (3D), segment intersection (2D, NESO-Particles), cart index map (cart_ok). DBL_MAX: hits at squared distance >= DBL_MAX are not reported by the code."
  },
  {
   "property": "C41",
   "status": "proved",
   "theorems": [
    "C41_one_group_per_composite",
    "C41_boundary_elements",
    "C41_contents_storable",
    "C41_sub_groups"
   ],
   "note": ""
  },
  {
   "property": "C42",
   "status": "proved",
   "theorems": [
    "C42_collected_after_any_history",
    "C42_next_request_completes",
    "C42_held_cells_not_transferred"
   ],
   "note": ""
  },
  {
   "property": "C43",
   "status": "proved",
   "theorems": [
    "C43_weights",
    "C43_weights_block",
    "C43_sum_and_nodes",
    "C43_polynomials",
    "C43_polynomials_block"
   ],
   "note": ""
  },
  {
   "property": "C44",
   "status": "proved",
   "theorems": [
    "C44_scalar_2d",
    "C44_interlaced_2d",
    "C44_interlaced_2d_fixed",
    "C44_scalar_3d",
    "C44_interlaced_3d",
    "C44_interlaced_3d_fixed",
    "C44_block_3d",
    "C44_evaluate_2d",
    "C44_evaluate_3d",
    "C44_polynomials_2d",
    "C44_polynomials_3d"
   ],
   "note": ""
  },
  {
   "property": "C45",
   "status": "partial",
   "theorems": [
    "C45_residual_is_X_minus_p",
    "C45_x_is_X",
    "C45_X_maps_reference_vertices",
    "C45_pyramid_shrinks_base_to_apex",
    "C45_x_at_pyramid_apex_refuted",
    "C45_jacobian_exists",
    "C45_step_is_newton",
    "C45_affine_exact_in_one_step",
    "C45_tet_is_affine",
    "C45_pyramid_apex_accepted",
    "C45_embedded_quad_residual",
    "C45_embedded_quad_normal",
    "C45_embedded_quad_step",
    "C45_embedded_triangle_residual",
    "C45_embedded_triangle_projects",
    "C45_embedded_triangle_exact_in_plane",
    "C45_embedded_triangle_degenerate"
   ],
   "note": "Proved for quads, tets, prisms, hexes, pyramids (and the 3D-embedded quads and triangles): residual = X - p, X maps reference vertices to vertices, step = Newton update with the true Jacobian (stated with derivable_pt_lim), singular J gives no finite step, affine elements inverted in one step. The model is transcribed from the generated headers by tools/gen_newton.py. Refuted at one point: the code's X at the pyramid's apex reference vertex divides by zero unless the apex is within 1e-12 of the origin."
  },
  {
   "property": "C46",
   "status": "partial",
   "theorems": [
    "C46_success_exactly",
    "C46_accepted_is_close",
    "C46_x_inverse_is_close",
    "C46_zero_tolerance_in_element",
    "C46_jacobian_scaling",
    "C46_exit_scaling",
    "C46_negative_jacobian_refuted",
    "C46_converged_inside_accepted",
    "C46_affine_point_found"
   ],
   "note": "Proved: exact characterisation of success for every residual/step function; for the linear elements acceptance implies the scaled distance is within tolerance and coordinates within the tolerance-enlarged element; completeness on affine elements. Refuted: with a negative mean Jacobian the exit scalings are negative and every point has residual <= 0, so success then says nothing."
  },
  {
   "property": "C47",
   "status": "proved",
   "theorems": [
    "C47_mapper_exists",
    "C47_initial_binds_first",
    "C47_final_binds_first",
    "C47_position",
    "C47_passes_well_behaved",
    "C47_bound_untouched",
    "C47_no_geometries",
    "C47_accepted_in_box_is_bound",
    "C47_host_binds_first",
    "C47_map2d",
    "C47_map3d"
   ],
   "note": ""
  },
  {
   "property": "C48",
   "status": "proved",
   "theorems": [
    "C48_accepts_exactly",
    "C48_points_of_element_accepted",
    "C48_accepted_is_in_element",
    "C48_coefficients",
    "C48_degenerate_rejected",
    "C48_host_agrees",
    "C48_mapper_binds_first",
    "C48_particle_in_element_bound",
    "C48_mapper_well_behaved"
   ],
   "note": "Exact reals. For 3D degenerate elements (zero determinant) the code's NaN comparisons give distance 0 and could accept; the model rejects there; C48_degenerate_rejected is therefore claimed for 2D only."
  },
  {
   "property": "C49",
   "status": "partial",
   "theorems": [
    "C49_keys_partial",
    "C49_start_grid",
    "C49_start_points",
    "C49_starts_in_cube",
    "C49_grid_size_max_refuted"
   ],
   "note": "Refuted for grid_size_max: the constructor reads key MapParticlesNewton/grid_size_min for the maximum too; all other keys proved."
  },
  {
   "property": "C50",
   "status": "proved",
   "theorems": [
    "C50_boris_solves_lorentz",
    "C50_speed_and_parallel_preserved",
    "C50_no_B_is_kick",
    "C50_work_energy",
    "C50_reversible",
    "C50_zero_mass_not_finite",
    "C50_cross_product"
   ],
   "note": "Exact reals. Stronger than claimed: the new velocity is the unique solution of the time-centred Lorentz equation; work-energy and reversibility."
  },
  {
   "property": "C51",
   "status": "partial",
   "theorems": [
    "C51_reference_values",
    "C51_reference_shape_modes",
    "C51_kernels_equal_reference",
    "C51_collapsed_end_refuted",
    "C51_one_mode_refuted"
   ],
   "note": "Kernels equal the reference for every number of modes >= 2 and every coordinate except z = 1. Refuted at z = 1 for the collapsed bases (1.0/b0 makes the rows p >= 1 NaN; the reference is finite) and for one mode (mod_A writes two values)."
  },
  {
   "property": "C52",
   "status": "proved",
   "theorems": [
    "C52_jacobi_function",
    "C52_precomputed",
    "C52_outside_limits_rejected",
    "C52_table_entries",
    "C52_spec_low_orders",
    "C52_spec_recurrence"
   ],
   "note": "Proved against the explicit sum form of the Jacobi polynomial."
  },
  {
   "property": "C53",
   "status": "proved",
   "theorems": [
    "C53_total_modes_basis",
    "C53_total_modes_shape",
    "C53_kernel_output_length",
    "C53_reference_length",
    "C53_loops_touch_all_dofs_once",
    "C53_constructor_accepts",
    "C53_constructor_sizes"
   ],
   "note": "Proved. GetTotNumModes of Nektar++ is an input of the constructor's model."
  },
  {
   "property": "C54",
   "status": "partial",
   "theorems": [
    "C54_collapse_total",
    "C54_collapse_values",
    "C54_evaluation_is_modal_sum",
    "C54_projection_any_order",
    "C54_particles_evaluable",
    "C54_adjoint",
    "C54_collapsed_vertex_refuted"
   ],
   "note": "Proved for particles away from collapsed vertices/edges (exact reals; the atomic adds in any order). Refuted at a collapsed vertex: the evaluated field is NaN."
  },
  {
   "property": "C55",
   "status": "proved",
   "theorems": [
    "C55_reactions_use_declared_species",
    "C55_session_accepted"
   ],
   "note": ""
  },
  {
   "property": "C56",
   "status": "proved",
   "theorems": [
    "C56_lookup_constructed"
   ],
   "note": "Exact real arithmetic; int overflow of the cell counts is not modelled."
  },
  {
   "property": "C57",
   "status": "partial",
   "theorems": [
    "C57_every_3d_element_covered_once",
    "C57_map3d_binds",
    "C57_mapper_settings",
    "C57_2d_elements_covered_once_partial",
    "C57_map2d_binds_partial",
    "C57_deformed_triangles_refuted"
   ],
   "note": "3D proved. 2D refuted for deformed triangles: no mapper covers them and 2D has no host fallback, so a particle there is never bound. All other 2D elements proved."
  },
  {
   "property": "C58",
   "status": "proved",
   "theorems": [
    "C58_velocity_verlet",
    "C58_reversible",
    "C58_stormer",
    "C58_other_types_are_boris"
   ],
   "note": "The gradient after the solve is an arbitrary function of position; transfer_particles is modelled by its boundary-condition map."
  },
  {
   "property": "C59",
   "status": "partial",
   "theorems": [
    "C59_charges_consistent",
    "C59_charges_finite",
    "C59_session_values",
    "C59_num_particles",
    "C59_charge_density_set_refuted"
   ],
   "note": "Refuted in one point: a session giving neither particle_charge_density nor particle_charge is not rejected (TODO in the code) and leaves charge_density uninitialised."
  },
  {
   "property": "C60",
   "status": "partial",
   "theorems": [
    "C60_neutral_rhs",
    "C60_forcing_coefficients_refuted"
   ],
   "note": "Neutral RHS proved (transforms and HelmSolve are oracles; hypothesis: the transform keeps the integral of the constant). Refuted: solve_equation_system line 111 assigns the scaling factor to every forcing coefficient instead of multiplying."
  },
  {
   "property": "C61",
   "status": "partial",
   "theorems": [
    "C61_kinetic_energy",
    "C61_solver_kinetic_energy_partial",
    "C61_two_mass_kinetic_energy_refuted",
    "C61_one_species",
    "C61_two_species",
    "C61_gauge_invariant",
    "C61_field_energy_nonneg",
    "C61_shifted_mean_zero",
    "C61_potential_energy",
    "C61_energies_defined",
    "C61_boris_conserves_total"
   ],
   "note": "Refuted for the distribution with two masses: the solver passes mass 1.0 for all particles. Rest proved."
  },
  {
   "property": "C62",
   "status": "partial",
   "theorems": [
    "C62_integrator_choice",
    "C62_bad_type_rejected_refuted"
   ],
   "note": "Refuted: the check uses || so no type is rejected; other types run as Boris."
  },
  {
   "property": "C63",
   "status": "partial",
   "theorems": [
    "C63_partition_of_unity",
    "C63_galerkin",
    "C63_values_are_evaluations",
    "C63_conserves",
    "C63_host_agrees",
    "C63_bad_arguments_rejected",
    "C63_other_group_refuted"
   ],
   "note": "Proved over exact reals, with Nektar++'s inverse mass matrix assumed to solve the variational problem and particles away from collapsed vertices. Refuted part: the component range check uses the group the object was built with, a different group passed to project is read out of bounds (C63_other_group_refuted)."
  },
  {
   "property": "C64",
   "status": "proved",
   "theorems": [
    "C64_parameter_scopes",
    "C64_integer_loads",
    "C64_missing_parameters"
   ],
   "note": "The interpreter is shared by the whole session, so a species parameter is visible in the expressions of later species and reactions; repeated ids silently replace the earlier element (Examples)."
  },
  {
   "property": "C65",
   "status": "proved",
   "theorems": [
    "C65_functions_accepted",
    "C65_species_functions"
   ],
   "note": "ParseUtils and lexical_cast are oracles."
  },
  {
   "property": "C66",
   "status": "partial",
   "theorems": [
    "C66_subdivision_order_partial",
    "C66_fine_cells_match_elements_refuted"
   ],
   "note": "Refuted: create_mesh_hierarchy uses std::log (natural) where the number of fine cells is 2^(ndim order), so the number of elements per fine cell is unbounded. What the chosen order is, is proved exactly (C66_subdivision_order_partial)."
  },
  {
   "property": "C67",
   "status": "proved",
   "theorems": [
    "C67_substeps_cover",
    "C67_edges",
    "C67_streaming"
   ],
   "note": "SimpleSOL integrate; exact reals (accumulated rounding of time_tmp not modelled)."
  },
  {
   "property": "C68",
   "status": "partial",
   "theorems": [
    "C68_ionise_simplesol",
    "C68_ionise_driftreduced",
    "C68_rate",
    "C68_rate_formula",
    "C68_expint_small",
    "C68_expint_large",
    "C68_cold_fluid_refuted"
   ],
   "note": "Proved for positive temperature and non-negative density in both solvers, including positivity of the Barry approximation. Refuted for a non-positive fluid temperature: the weight and the sources become NaN and the particle is not flagged. The rate is stated in numbers, and the exponential integral approximation is proved to have the asymptotics of E1 at both ends (to third order at infinity)."
  },
  {
   "property": "C69",
   "status": "partial",
   "theorems": [
    "C69_mass_balance",
    "C69_recorded_error_zero",
    "C69_completes",
    "C69_finite",
    "C69_recording",
    "C69_two_substeps_refuted"
   ],
   "note": "Proved for one particle substep per fluid step (the default), for every history. Refuted for two substeps: sources are overwritten by the next substep, so a particle that ionises completely in the first substep contributes nothing. The fluid's own update is represented by the exact time integral of the density source over the step."
  },
  {
   "property": "C70",
   "status": "partial",
   "theorems": [
    "C70_walls",
    "C70_rotated_walls_refuted"
   ],
   "note": "What is removed is characterised exactly (x outside [0, x_max]); the rotated domain claim is refuted: at theta = pi/2 the whole interior is removed."
  },
  {
   "property": "C71",
   "status": "partial",
   "theorems": [
    "C71_count",
    "C71_drawn",
    "C71_count_exact",
    "C71_count_refuted",
    "C71_no_lines",
    "C71_ids_refuted",
    "C71_weight",
    "C71_units",
    "C71_unit_values",
    "C71_lines"
   ],
   "note": "Number added is within one per line below the configured total; exact only if the number of lines divides it (refuted otherwise); no lines is undefined behaviour; identifiers (rank, index) repeat between lines and calls (refuted). Weights, units and line placement proved (erf_inv an odd oracle)."
  },
  {
   "property": "C72",
   "status": "partial",
   "theorems": [
    "C72_drift",
    "C72_cross_product",
    "C72_2d_refuted",
    "C72_zero_B_refuted"
   ],
   "note": "Proved for 3D meshes and B<>0 (drift, cross product). Refuted for 2D: load_params writes Bvec[2] of a 2-vector for every 2D mesh, including shipped examples; refuted for B = 0 (not a number)."
  },
  {
   "property": "C73",
   "status": "partial",
   "theorems": [
    "C73_inputs",
    "C73_hw2d",
    "C73_hw3d",
    "C73_hw3d_parallel",
    "C73_bracket",
    "C73_required",
    "C73_variable_order_refuted",
    "C73_variable_order_ub_refuted",
    "C73_hw2d_stage_density_refuted"
   ],
   "note": "Right-hand sides proved for sessions whose variables start ne, w with phi after (C73_inputs shows which arrays arrive). Any other order is silently wrong or undefined (refuted); HW2D coupling uses m_fields density rather than the stage density (refuted for multi-stage integrators). Nektar operators are oracles."
  },
  {
   "property": "C74",
   "status": "partial",
   "theorems": [
    "C74_hw2d_energy",
    "C74_hw2d_enstrophy",
    "C74_hw3d_energy",
    "C74_hw3d_enstrophy",
    "C74_z_term_refuted"
   ],
   "note": "Proved for both systems under a calculus record (integration by parts, commuting derivatives); refuted when the diagnostics include (dphi/dz)^2 while the potential solve drops d22 (the 2Din3DHW examples)."
  },
  {
   "property": "C75",
   "status": "partial",
   "theorems": [
    "C75_rhs",
    "C75_momentum_exchange",
    "C75_density_floor_refuted",
    "C75_particle_source_refuted"
   ],
   "note": "Right-hand side and momentum exchange proved on finite states; refuted: density at or below zero gives NaN in spite of the floor; particle sources are never added."
  },
  {
   "property": "C76",
   "status": "proved",
   "theorems": [
    "C76_rhs",
    "C76_no_particles"
   ],
   "note": "Right-hand side proved in 3D with B along z; sessions with particles always throw."
  },
  {
   "property": "C77",
   "status": "partial",
   "theorems": [
    "C77_session",
    "C77_rhs",
    "C77_equations",
    "C77_drift",
    "C77_numerical_flux",
    "C77_still_face_refuted",
    "C77_budget",
    "C77_dimension_refuted",
    "C77_zero_parameters",
    "C77_readme_refuted",
    "C77_parameters",
    "C77_default_length_refuted"
   ],
   "note": "Right-hand sides, equations for continuous fields, flux consistency/antisymmetry and budgets proved. Refuted: on faces with zero normal velocity the diamagnetic part is one-sided; 1D/3D meshes are accepted (out of bounds / garbage third component); README signs and default Lpar differ from the code. Nektar operators are oracles."
  },
  {
   "property": "C78",
   "status": "partial",
   "theorems": [
    "C78_rhs_2d",
    "C78_rhs_1d",
    "C78_flux_rotation",
    "C78_flux_symmetric",
    "C78_vacuum",
    "C78_source_shape",
    "C78_source_width",
    "C78_source_parameters",
    "C78_zero_width",
    "C78_forcing_count_refuted",
    "C78_order_refuted",
    "C78_startup"
   ],
   "note": "Right-hand sides in 1D and 2D, rotation covariance of the flux, source shape and width scaling proved. Refuted: particle sources are dropped without a forcing and doubled with two; variable order is not checked. The advection (Riemann) operator and equation of state are oracles."
  },
  {
   "property": "C79",
   "status": "partial",
   "theorems": [
    "C79_tensor",
    "C79_parameters",
    "C79_angle_refuted",
    "C79_dissipative",
    "C79_setup",
    "C79_step",
    "C79_stable",
    "C79_zero_parameters",
    "C79_projection",
    "C79_coupled",
    "C79_coupled_matrixfree_refuted",
    "C79_receiver_viscosity_refuted",
    "C79_received"
   ],
   "note": "Tensor, dissipation, backward Euler, stability, conservation, set-up and coupling proved. Refuted: the parallel direction is at -theta (README: +theta); a sender with MatrixFree collections reads/writes out of bounds; a receiver ignores its spectral viscosity; zero step, epsilon or density is not rejected. The Helmholtz solve is an oracle with the stated Galerkin contract."
  },
  {
   "property": "C80",
   "status": "partial",
   "theorems": [
    "C80_number",
    "C80_disabled_refuted",
    "C80_output_step",
    "C80_trajectory",
    "C80_output_once",
    "C80_choice",
    "C80_reported",
    "C80_messages"
   ],
   "note": "Proved. Refuted: with neither parameter set the total number is read uninitialised although the message says particles are disabled."
  },
  {
   "property": "C81",
   "status": "partial",
   "theorems": [
    "C81_ids",
    "C81_added_once",
    "C81_weight",
    "C81_mass_balance",
    "C81_completes",
    "C81_recorded_error_zero",
    "C81_two_substeps_refuted",
    "C81_zero_particles",
    "C81_nonperiodic",
    "C81_centre_refuted",
    "C81_seed",
    "C81_placed"
   ],
   "note": "Identifiers, single addition, weight, and (one substep) mass balance and zero recorded error proved. Refuted: with two substeps per fluid step the source is overwritten and mass is lost; the source centre is off by 3/2 of the z origin. get_decomp_1d and the random draws are oracles with the stated contracts."
  },
  {
   "property": "C82",
   "status": "partial",
   "theorems": [
    "C82_setup",
    "C82_setup_succeeds",
    "C82_setup_order",
    "C82_evaluate",
    "C82_value",
    "C82_paths_agree",
    "C82_gradient",
    "C82_refused",
    "C82_component_refuted",
    "C82_missing_geometry_refuted"
   ],
   "note": "Construction, evaluation on all paths, polynomial exactness, path agreement, derivative evaluation and refusals proved. Refuted: a component outside the output range is written out of bounds, not refused; a cell whose geometry is missing silently uses element 0. PhysDeriv, GetBW and the transposition of NESO-Particles are oracles/contracts."
  },
  {
   "property": "C83",
   "status": "partial",
   "theorems": [
    "C83_sizes",
    "C83_residual",
    "C83_stage",
    "C83_norm",
    "C83_step_size",
    "C83_jacobian_quadratic",
    "C83_jacobian_limit",
    "C83_homogeneous",
    "C83_zero_direction_refuted",
    "C83_precon",
    "C83_short_arrays",
    "C83_short_output"
   ],
   "note": "Sizes, residual, stage, reference norm over ranks, perturbation size, Jacobian product (exact for linear, error term for quadratic, limit in general), homogeneity and preconditioner proved. The Newton solver, projection and right hand side are oracles. Refuted: the product with the zero vector is not finite."
  },
  {
   "property": "C84",
   "status": "partial",
   "theorems": [
    "C84_common",
    "C84_2d_refuted",
    "C84_hw2d",
    "C84_hw3d_refused",
    "C84_hw3d_alpha",
    "C84_hw3d_alpha_nonfinite_refuted",
    "C84_hw3d_kappa",
    "C84_gyro_radius_refuted",
    "C84_lambda_q_refuted",
    "C84_lapd",
    "C84_rr",
    "C84_source_width_refuted",
    "C84_frame"
   ],
   "note": "Values, defaults, derivation rules, refusals and frame proved for all five systems. Refuted: in two space dimensions the field vector is written out of bounds; the length the README calls the ion gyro-radius is sqrt(B) times it; a session using the README label lambda_q is refused; the default source width is twice the README value; parameters that make alpha non-finite are accepted."
  },
  {
   "property": "C85",
   "status": "proved",
   "theorems": [
    "C85_write",
    "C85_write_rejects",
    "C85_position",
    "C85_residual_then_step",
    "C85_inversion",
    "C85_cell_test",
    "C85_start_grid",
    "C85_accepted_is_close",
    "C85_inside_is_accepted",
    "C85_exact_maps",
    "C85_affine_found",
    "C85_step_needs_residual"
   ],
   "note": "Exact reals. BwdTrans, PhysDeriv, points and weights of Nektar++ are inputs of the model; convergence of Newton on non-affine maps is not claimed."
  },
  {
   "property": "C86",
   "status": "proved",
   "theorems": [
    "C86_sampled",
    "C86_schedule",
    "C86_plan",
    "C86_negative_factor_refuted",
    "C86_lower_dim",
    "C86_linear",
    "C86_boundary_covered",
    "C86_curved_refuted",
    "C86_device_refuted"
   ],
   "note": "Exact reals. Refuted parts: with no parameter store a curved element gets no padding and can stick out of its box; the box of a curved element depends on the device work group size; a negative grid factor wraps to a huge grid instead of being rejected. Containment of the interior of a curved element is reduced to its faces. Everything the statement says is proved; the _refuted theorems are about claims one might add."
  },
  {
   "property": "C87",
   "status": "proved",
   "theorems": [
    "C87_prepare_succeeds",
    "C87_halos_delivered",
    "C87_constructor_sends",
    "C87_overlapping_elements_arrive",
    "C87_neighbour_ranks"
   ],
   "note": "Messages below 2^31 bytes in total; that the size messages arrive in some order of the true senders is C88."
  },
  {
   "property": "C88",
   "status": "proved",
   "theorems": [
    "C88_no_crosstalk",
    "C88_all_received",
    "C88_never_stuck",
    "C88_never_stuck_unbuffered",
    "C88_terminates"
   ],
   "note": "Sequentially consistent model of the one-sided count and the size messages; MPI guarantees used: barriers, atomic accumulate, every message is delivered once. The packed data messages, received by rank, are in C35 and C87."
  },
  {
   "property": "C89",
   "status": "proved",
   "theorems": [
    "C89_stored",
    "C89_first_wins",
    "C89_numbering",
    "C89_errors_unnoticed_refuted",
    "C89_lost_writes_refuted",
    "C89_no_step"
   ],
   "note": "HDF5 itself by its documented behaviour (duplicate names and closed identifiers fail with a negative status). Refuted parts: ghw_H5CHK converts the status to bool, so no error is noticed; lost writes. Everything the statement says is proved; its last sentences name the cases in which the code fails, and the _refuted theorems prove them."
  },
  {
   "property": "C90",
   "status": "partial",
   "theorems": [
    "C90_run",
    "C90_collective",
    "C90_printed_energies_refuted",
    "C90_setup_required",
    "C90_setup_values",
    "C90_setup_deterministic",
    "C90_line_negative",
    "C90_line_size_refuted",
    "C90_bernstein_default_refuted",
    "C90_two_stream_field_refuted",
    "C90_bernstein_globals",
    "C90_line_points",
    "C90_line_shift"
   ],
   "note": "The steps of the simulation are arbitrary functions on an arbitrary state (modelled in C58-C62). Refuted parts: stale energies printed, nx*ny overflow, required B of the Bernstein solver, B_x and B_y missing in the two stream file."
  },
  {
   "property": "C91",
   "status": "proved",
   "theorems": [
    "C91_call_completes",
    "C91_call_adds_exactly",
    "C91_halo_complete",
    "C91_constructor_establishes",
    "C91_no_duplicates",
    "C91_all_elements"
   ],
   "note": "Bounding boxes of elements are an arbitrary function. Hypotheses: the mesh is consistent (element faces among the faces of the rank, ids increasing) and messages times number of ranks fit an int."
  },
  {
   "property": "C92",
   "status": "partial",
   "theorems": [
    "C92_vertices",
    "C92_numbering",
    "C92_edges",
    "C92_face_edges",
    "C92_face_points_partial",
    "C92_face_meets_edges_partial",
    "C92_front_left_faces_refuted",
    "C92_face_order_refuted",
    "C92_outside_cube_refuted"
   ],
   "note": "Refuted for the front and left faces (wrong vertex tables) and for the listing order of face control points; the _partial theorems cover the other four faces. What Nektar++ does with the control points is not modelled."
  },
  {
   "property": "C93",
   "status": "proved",
   "theorems": [
    "C93_file",
    "C93_own_property",
    "C93_fails",
    "C93_owner_lost_3d_refuted",
    "C93_mixed_refuted",
    "C93_entry_points",
    "C93_names",
    "C93_plot_files",
    "C93_plot_files_exactly"
   ],
   "note": "The file is modelled as its list of words with exact numbers (the code prints six digits). Refuted for 3D halos and for mixed files. Everything the statement says is proved; its last sentences name the cases in which the code fails, and the _refuted theorems prove them."
  },
  {
   "property": "C94",
   "status": "proved",
   "theorems": [
    "C94_interpolate_3d",
    "C94_interpolate_2d",
    "C94_interpolate_idempotent",
    "C94_evaluate",
    "C94_reproduces_3d",
    "C94_reproduces_2d",
    "C94_outside_refuted",
    "C94_cells_to_expansions",
    "C94_particle_to_expansion_2d",
    "C94_particle_to_expansion_3d",
    "C94_error_measures"
   ],
   "note": "What Nektar++ does (transforms, search, interpolation of point values) is a parameter; exactness of the discretisation on the function is a hypothesis. Refuted for points outside the mesh (index -1 used unchecked). Everything the statement says is proved; its last sentences name the cases in which the code fails, and the _refuted theorems prove them."
  },
  {
   "property": "C95",
   "status": "proved",
   "theorems": [
    "C95_previous_position",
    "C95_pre_integration_frame",
    "C95_normals",
    "C95_boundary_data_2d",
    "C95_boundary_data_3d",
    "C95_needs_previous_position",
    "C95_options",
    "C95_integer_factor_refuted",
    "C95_reflection_options_refuted"
   ],
   "note": "Hits themselves are those of C40; normals assume that a global id names one element. Particles being added, removed or moved between ranks are not in the histories. Refuted for the options of the reflection and an integer num_modes_factor. Everything the statement says is proved; its last sentences name the cases in which the code fails, and the _refuted theorems prove them."
  },
  {
   "property": "C96",
   "status": "proved",
   "theorems": [
    "C96_point_found",
    "C96_point_in_subdomain",
    "C96_straight_sided",
    "C96_fails_exactly",
    "C96_surface_mesh_refuted"
   ],
   "note": "Geometry::ContainsPoint is an argument; assumed to accept every point of an element (and, for the membership theorem, only those). Exact real arithmetic. Refuted for surface meshes (coordim 3, mesh dimension 2). Everything the statement says is proved; its last sentences name the cases in which the code fails, and the _refuted theorems prove them."
  },
  {
   "property": "C97",
   "status": "proved",
   "theorems": [
    "C97_every_particle_once",
    "C97_local_memory_in_bounds",
    "C97_evaluation_undisturbed",
    "C97_projection_undisturbed",
    "C97_one_mode_refuted"
   ],
   "note": "Sequentially consistent interleavings of local memory writes; the local size is an argument; GetTotNumModes of Nektar++ assumed equal to the number of values of the basis. The sub-group variant (NESO-Particles LocalMemoryBlock) is not modelled. Refuted for one mode per direction. Everything the statement says is proved; its last sentences name the cases in which the code fails, and the _refuted theorems prove them."
  },
  {
   "property": "C98",
   "status": "proved",
   "theorems": [
    "C98_mapping_3d",
    "C98_cell_with_owner_3d",
    "C98_landing_3d",
    "C98_no_particle_lost_3d",
    "C98_mapping_2d",
    "C98_landing_2d",
    "C98_no_particle_lost_2d",
    "C98_room_for_reference",
    "C98_dimensions"
   ],
   "note": "Composition of C15, C29-C31, C35, C48, C57 and C87 on the distributed mesh. Boxes handed to the mappers are those claims were made with; host fallback mapper an arbitrary function that binds unbound particles only. Points on element boundaries and the transfer of particles by NESO-Particles are not covered."
  },
  {
   "property": "C99",
   "status": "proved",
   "theorems": [
    "C99_setup",
    "C99_setup_rejects",
    "C99_missing_expansion_refuted",
    "C99_evaluate",
    "C99_component_unchecked_refuted",
    "C99_field_evaluate_call",
    "C99_clear_positions",
    "C99_reference_position",
    "C99_value_at_accepted",
    "C99_value_at_position_3d",
    "C99_value_at_position_2d",
    "C99_affine_fields",
    "C99_affine_represents"
   ],
   "note": "Composition of C46, C48, C53, C54, C97 and C98. That a field represents f on an element is a hypothesis, discharged for affine f with two modes (C99_affine_fields, C99_affine_represents) for all six shapes. C99_missing_expansion_refuted and C99_component_unchecked_refuted: the two unchecked cases. Everything the statement says is proved; its last sentences name the cases in which the code fails, and the _refuted theorems prove them."
  },
  {
   "property": "C100",
   "status": "proved",
   "theorems": [
    "C100_constructor",
    "C100_work_group",
    "C100_terminates",
    "C100_completes",
    "C100_bound"
   ],
   "note": "Small-step semantics of a work-group over one shared memory; refinement to the memory-free kernels of C47 by an ownership invariant per block. One call of the residual or the step is one atomic access (each touches only the block of its item). LocalMemoryBlock itself is NESO-Particles: modelled as block k of the group memory for item k."
  },
  {
   "property": "C101",
   "status": "proved",
   "theorems": [
    "C101_constructor",
    "C101_same_layout",
    "C101_deposit",
    "C101_project",
    "C101_conserves",
    "C101_other_group_refuted",
    "C101_projected_at_positions_3d",
    "C101_projected_at_positions_2d",
    "C101_affine_functions",
    "C101_affine_represents"
   ],
   "note": "Composes the setup and launches of C97/C99, the kernels of C51-C54, the solves of C63 and the landing of C98. Nektar++'s mass solve is the hypothesis solves_mass. The out of bounds read is C101_other_group_refuted; the statement names it."
  },
  {
   "property": "C102",
   "status": "proved",
   "theorems": [
    "C102_periodic",
    "C102_rounding",
    "C102_half_open_refuted",
    "C102_unmoved_refuted",
    "C102_short_domain_refuted"
   ],
   "note": "IEEE binary64 by Flocq's rounding on the reals; overflow is a distinct outcome. The ways in which exactness fails are the _refuted theorems, and the statement names them."
  },
  {
   "property": "C103",
   "status": "proved",
   "theorems": [
    "C103_rsequence",
    "C103_tiny_extent_refuted"
   ],
   "note": "The subnormal case is C103_tiny_extent_refuted; the statement excludes and names it."
  },
  {
   "property": "C104",
   "status": "proved",
   "theorems": [
    "C104_deposit",
    "C104_two_runs",
    "C104_tolerance",
    "C104_exact",
    "C104_order_refuted"
   ],
   "note": "The contributions themselves are arbitrary doubles; their computation is in C51-C54 over the reals. The dependence on the order is C104_order_refuted; the statement names it."
  },
  {
   "property": "C105",
   "status": "proved",
   "theorems": [
    "C105_candidate",
    "C105_cell_visited",
    "C105_cell_contains",
    "C105_large_coordinates_refuted",
    "C105_far_particle_refuted"
   ],
   "note": "The numbers of cells per dimension (exp and log) are an argument. Large coordinates and far particles are the _refuted theorems; the statement names them."
  },
  {
   "property": "C106",
   "status": "proved",
   "theorems": [
    "C106_population",
    "C106_positions",
    "C106_beams",
    "C106_quarter",
    "C106_species",
    "C106_ranks",
    "C106_ring",
    "C106_thermal",
    "C106_number",
    "C106_quarter_refuted",
    "C106_beams_refuted",
    "C106_ranks_refuted",
    "C106_seed_refuted"
   ],
   "note": "Generators are oracles with their ranges as hypotheses; one number of the Sobol engine per sample. Exact reals. The transport to the owning ranks after creation is C98."
  },
  {
   "property": "C107",
   "status": "proved",
   "theorems": [
    "C107_substeps",
    "C107_run",
    "C107_one",
    "C107_extra_refuted",
    "C107_stall_refuted"
   ],
   "note": "Times only; binary64 with round to nearest even through Flocq; overflow is a distinct outcome."
  },
  {
   "property": "C108",
   "status": "proved",
   "theorems": [
    "C108_residual",
    "C108_embedded_quad",
    "C108_embedded_triangle",
    "C108_exact_refuted"
   ],
   "note": "The expressions are transcribed from the generated headers by tools/gen_newton.py /repo expr; any product may be left unrounded (contraction), temporaries are expanded at each use. Reassociation (fast-math) and the pyramid, which divides, are not covered."
  },
  {
   "property": "C109",
   "status": "proved",
   "theorems": [
    "C109_push",
    "C109_speed",
    "C109_run",
    "C109_exact_refuted"
   ],
   "note": "The exact push is C50's. Every statement of the kernel is rounded as written; each product that is added may be contracted. The quantities that are factors of products (t, s, QoM dt/2) are rounded always. Reassociation (fast-math) is not covered."
  },
  {
   "property": "C110",
   "status": "partial",
   "theorems": [
    "C110_step",
    "C110_run",
    "C110_defined",
    "C110_conserved_refuted",
    "C110_unmarked_refuted"
   ],
   "note": "The exact version is C68's; the rate is an arbitrary non-negative double here. C110_conserved_refuted and C110_unmarked_refuted give concrete witnesses for what fails."
  },
  {
   "property": "C111",
   "status": "partial",
   "theorems": [
    "C111_sum",
    "C111_code_order",
    "C111_schedules",
    "C111_kinetic",
    "C111_potential",
    "C111_mass",
    "C111_balanced",
    "C111_order_refuted",
    "C111_exact_balance_refuted"
   ],
   "note": "NP::GlobalArray (dependency) is modelled as an arbitrary tree of rounded additions. The fluid integral and the field mean are inputs (any double). C111_order_refuted and C111_exact_balance_refuted give witnesses for what fails."
  },
  {
   "property": "C112",
   "status": "partial",
   "theorems": [
    "C112_round_trip_3d",
    "C112_round_trip_2d",
    "C112_dispatch_3d",
    "C112_dispatch_2d",
    "C112_clamp",
    "C112_dispatch_refuted"
   ],
   "note": "C112_dispatch_refuted: the fused form multiplies by a rounded 2/(1-xi2), so its result can exceed 1 by epsilon; clamp_loc_coord tolerates exactly that. clamp_d covers finite arguments; the NaN case is C23."
  },
  {
   "property": "C113",
   "status": "partial",
   "theorems": [
    "C113_weights",
    "C113_lane",
    "C113_evaluate_1d",
    "C113_evaluate_2d",
    "C113_evaluate_3d",
    "C113_points",
    "C113_sum",
    "C113_constant_2d",
    "C113_constant_3d",
    "C113_nodes_2d",
    "C113_nodes_3d",
    "C113_near_node_refuted",
    "C113_gap"
   ],
   "note": "C113_near_node_refuted: a point 2^-1030 from a node that is exactly 0 divides to infinity, and infinity over infinity is NaN; the on-node test is exact equality, so nothing catches it."
  },
  {
   "property": "C114",
   "status": "partial",
   "theorems": [
    "C114_jacobi",
    "C114_size",
    "C114_size_bounds",
    "C114_mod_A",
    "C114_mod_B",
    "C114_mod_C",
    "C114_lists",
    "C114_ends",
    "C114_collapsed_end_refuted",
    "C114_outside_table",
    "C114_mod_PyrC",
    "C114_lists_PyrC",
    "C114_size_PyrC"
   ],
   "note": "C114_collapsed_end_refuted: at z = 1 the row factor 1 / b0 is 1 / 0. C114_mod_PyrC: at most 32 modes, table up to the weight 4 P - 7."
  },
  {
   "property": "C115",
   "status": "partial",
   "theorems": [
    "C115_loop_quad",
    "C115_loop_tri",
    "C115_loop_hex",
    "C115_loop_prism",
    "C115_loop_tet",
    "C115_quad",
    "C115_tri",
    "C115_hex",
    "C115_prism",
    "C115_tet",
    "C115_quad_not_finite",
    "C115_hex_not_finite",
    "C115_tri_not_finite",
    "C115_collapsed_end_refuted"
   ],
   "note": "C115_collapsed_end_refuted: at the collapsed end of a triangle the double value is not finite though the exact one is. The evaluation at a pyramid point is not modelled in double precision (its kernel mod_PyrC is: C114_mod_PyrC)."
  },
  {
   "property": "C116",
   "status": "partial",
   "theorems": [
    "C116_loop_quad",
    "C116_loop_tri",
    "C116_loop_hex",
    "C116_loop_prism",
    "C116_loop_tet",
    "C116_quad",
    "C116_tri",
    "C116_hex",
    "C116_prism",
    "C116_tet",
    "C116_sizes",
    "C116_coefficient",
    "C116_deposits",
    "C116_order_refuted"
   ],
   "note": "C116_order_refuted: bitwise reproducibility does not hold. The pyramid is not modelled in double precision."
  }
 ]
}