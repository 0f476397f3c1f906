# What Print Assumptions lists for each theorem

Generated by tools/axioms.py from the compiled files. 359 theorems.

## Closed under the global context

* C01_empty_suffix_is_undefined
* C01_every_name
* C01_id_is_the_number_in_the_name
* C01_id_of_canonical_name
* C01_non_numeric_suffix_is_zero
* C02_conductors_0_to_n_are_accepted
* C02_others_are_rejected_before_solving
* C03_doing_it_again_changes_nothing
* C03_model_keeps_the_materials_in_the_mesh
* C07_absolute_paths_refuted
* C07_mesh_next_to_input_partial
* C08_closed_problems_write_the_pul_matrices
* C08_folder_without_slash_refuted
* C08_no_other_call_writes_a_result
* C08_open_problems_write_the_incell_potentials
* C08_semiopen_problems_throw
* C08_the_file_is_in_the_folder_partial
* C09_rejected_calls
* C09_vertices_and_edges
* C10_closed_paths_graph
* C10_split_closed_paths
* C11_isolated_vertex_refuted
* C11_split_any_graph_partial
* C11_split_any_graph_refuted
* C11_split_returning_graph_partial
* C12_boundary_graph
* C12_boundary_of_cells
* C13_cycles
* C14_closed_iff_no_open_boundary_in_the_mesh
* C14_closed_without_open_boundary
* C14_open_iff_closes
* C14_order_irrelevant
* C15_only_closed_models
* C17_conductor_0_in_one_domain
* C17_number_of_edges
* C17_sharing_domains_are_connected
* C17_vertices_edges_and_no_cycle
* C19_model_of_a_domain
* C19_one_after_the_other
* C19_when_the_model_exists
* C20_refuted
* C21_inputs_reflect_the_materials
* C22_one_unit_excitation_per_conductor_any_arithmetic
* C22_prescribed_degrees_of_freedom
* C23_symmetric
* C31_history_is_irrelevant_any_arithmetic
* C32_floating_potentials_semiopen_throws
* C32_incell_not_open_throws
* C32_run_semiopen_throws
* C32_single_conductor_closed_throws
* C33_marker_flags_exactly_the_listed_attributes
* C33_minus_one_flags_everything
* C33_no_attributes
* C33_other_non_positive_attributes_abort
* C34_last_conditions_partial
* C34_new_boundaries_miss_their_values_refuted
* C34_new_tags_are_not_prescribed_refuted
* C34_solving_without_conditions_is_remembered_refuted
* C35_potential_on_the_boundaries
* C35_solve_starts_from_the_prescribed_values
* C35_tags_outside_the_mesh
* C38_charged_boundaries
* C42_file_round_trip
* C42_json_round_trip
* C43_json_round_trip
* C43_reading_renumbers
* C44_equality_of_fields
* C44_equality_of_parameters
* C44_equality_of_potentials
* C45_partial
* C53_calls_export_under_these_names
* C53_construction_exports_under_these_names
* C53_export_names_differ
* C53_names_without_underscore_collide
* C54_sizes_are_kept
* C54_snapshots_restore_everything
* C65_absolute_paths_refuted
* C65_bad_arguments
* C65_documented_name_refuted
* C65_failures_write_no_result
* C65_help_twice
* C65_help_writes_nothing
* C65_result_beside_the_input_partial
* C65_unreadable_input
* C66_exports_outside_the_folder_refuted
* C66_where_fields_are_exported_partial
* C68_new_driver_any_arithmetic
* C76_by_domains_overwrites_refuted
* C80_without_the_inner_region_throws
* C81_a_constructor_that_throws_leaks_refuted
* C81_copies_are_not_safe_refuted
* C81_driver
* C81_everything_is_released
* C81_no_memory_error_partial
* C81_unwinding_releases_everything
* C82_a_dielectric_on_the_boundary_refuted
* C82_built_drivers_are_well_posed
* C82_calls_partial
* C82_construction_partial
* C82_names_without_number_refuted
* C82_program_partial
* C82_singular_floating_potentials_refuted
* C82_tags_beyond_the_regions
* C82_uncovered_edges_refuted
* C83_construction
* C83_export_options_do_not_change_results
* C83_switched_off
* C83_switches_are_independent
* C86_domain_materials
* C86_get_by_name
* C86_get_by_number
* C86_instances_of_the_driver
* C86_lookups_agree
* C86_map_of_all_names
* C86_map_of_names
* C86_map_of_numbers
* C86_materials_removed
* C86_nothing_removed_by_its_own_map
* C88_ends_well_exactly_when
* C88_how_the_program_ends
* C88_single_conductor_in_a_closed_problem
* C88_wrong_numbers

## `Classical_Prop.classic`

* C15_every_element_in_one_domain
* C15_models_with_domains
* C16_conductors_of_a_domain
* C16_segments_in_one_domain
* C18_ground_of_each_domain_partial
* C18_outside_first_partial
* C18_refuted
* C19_domains_cut_no_edge
* C20_no_result_with_several_domains
* C20_parameters_of_each_domain_partial
* C20_single_domain_partial
* C82_by_domains_partial

## `ClassicalDedekindReals.sig_forall_dec`, `FunctionalExtensionality.functional_extensionality_dep`

* C25_neutral_potentials_exist
* C27_positive_definite_suffices
* C52_areas_of_distinct_tags_fit_in_the_mesh

## `ClassicalDedekindReals.sig_forall_dec`, `ClassicalDedekindReals.sig_not_dec`, `FunctionalExtensionality.functional_extensionality_dep`

* C03_model_of_a_file
* C04_other_materials_throw
* C04_valid_materials_are_read
* C05_names_are_distinct
* C05_order_of_members_is_irrelevant
* C05_program_does_the_same
* C06_documented_paraview_key_refuted
* C06_options_partial
* C06_unrelated_keys_have_no_effect
* C06_wrong_types_throw
* C07_model_depends_on_that_mesh_only_partial
* C07_model_of_a_file_partial
* C22_one_unit_excitation_per_conductor
* C23_entries_are_mean_charges
* C24_closed_reduction
* C24_getCMatrix_of_closed_problems
* C24_reference_is_conductor_0
* C25_charge_neutral_reduction
* C25_getCMatrix_of_open_problems
* C27_C_is_symmetric_positive_definite
* C27_L_exists_and_is_symmetric_positive_definite
* C28_units
* C28_vacuum_identity
* C29_floating_potentials
* C29_positive_definite_matrices_are_regular
* C29_single_conductor
* C30_charge_only_on_the_prescribed_conductor_partial
* C30_charge_only_on_the_prescribed_conductor_refuted
* C30_charges_of_the_conductors
* C30_reconstructed_fields
* C31_history_is_irrelevant
* C32_singular_vacuum_matrix_throws
* C36_charge_in_boundary
* C36_sign_refuted
* C36_total_is_minus_the_sum_partial
* C38_defined_for_one_open_boundary
* C38_linear_in_the_field
* C38_shape_and_first_coefficient
* C42_real_numbers
* C43_anything_else_throws
* C43_results_of_a_driver_survive
* C43_what_is_read
* C44_real_equality
* C45_missing_matrices_throw
* C45_parameters_read_from_json_partial
* C45_refuted
* C46_planes_subdivide_the_box
* C46_rejection
* C46_which_planes
* C47_bounds
* C47_constants
* C47_integration_over_the_cells
* C47_rejection
* C48_average_on_the_inner_region
* C48_capacitance
* C48_inductance_only_if_partial
* C48_inductance_partial
* C48_refuted
* C49_coupling_coefficients
* C49_matrices_that_are_not_square
* C50_average_is_between
* C50_inner_region_average
* C51_bounding_box
* C51_unknown_material_throws
* C52_area_of_conductor
* C52_area_of_dielectric
* C52_open_boundaries_have_no_area
* C52_unknown_names_throw
* C55_average_is_between
* C55_average_is_linear
* C55_average_is_local
* C55_average_of_a_constant
* C55_average_on_a_conductor
* C55_average_on_a_conductor_at_any_order
* C55_averages_at_any_order
* C55_averages_on_triangles
* C55_tags_have_area
* C56_energy_formula
* C56_energy_is_not_negative
* C56_energy_is_proportional_to_the_permittivity
* C56_energy_scales_with_the_square_of_the_field
* C57_fields_minimize_the_energy
* C57_weak_form
* C58_conductor_potentials
* C58_reconstructed_fields_are_solutions
* C58_superposition
* C59_entries_add_up_to_zero
* C59_entries_add_up_to_zero_at_any_order
* C59_entries_add_up_to_zero_on_triangles
* C59_equal_potentials_give_no_field
* C59_only_differences_matter
* C59_only_differences_matter_at_any_order
* C59_only_differences_matter_on_triangles
* C59_rows_add_up_to_zero_at_the_default_order_refuted
* C59_rows_add_up_to_zero_partial
* C59_rows_add_up_to_zero_refuted
* C59_unit_charges_add_up_to_zero
* C60_LC_product
* C60_LC_product_at_any_order
* C60_LC_product_on_triangles
* C60_homogeneous_fields
* C61_PUL_parameters_are_positive_definite_at_the_default_order_refuted
* C61_PUL_parameters_are_positive_definite_refuted
* C61_PUL_parameters_exist_and_are_positive_definite_partial
* C61_floating_potentials_exist_partial
* C61_generalized_matrix_is_positive_at_the_default_order_refuted
* C61_generalized_matrix_is_positive_partial
* C61_generalized_matrix_is_positive_refuted
* C62_closed_problems_do_not_depend_on_the_unit_of_length
* C62_closed_problems_of_elements
* C62_open_problems_with_a_scaling_absorbing_condition
* C63_energy_of_the_fields_at_the_default_order_refuted
* C63_energy_of_the_fields_partial
* C63_energy_of_the_fields_refuted
* C64_charges_of_closed_problems_partial
* C64_charges_of_closed_problems_refuted
* C64_charges_of_open_problems_partial
* C64_reciprocity
* C67_PUL_matrices
* C67_floating_potentials
* C67_generalized_matrix
* C67_in_cell_parameters
* C68_any_history
* C68_in_cell_parameters
* C69_open_potential_of_least_energy
* C69_piecewise_linear_potential_of_least_energy
* C70_PUL_parameters_at_any_order
* C70_PUL_parameters_do_not_depend_on_the_drawing
* C70_PUL_parameters_of_elements
* C70_closed_problems_do_not_depend_on_the_drawing
* C70_elements_are_redrawn
* C70_first_order_spaces_are_redrawn
* C70_floating_potentials_at_any_order
* C70_floating_potentials_do_not_depend_on_the_drawing
* C70_generalized_matrix_at_any_order
* C70_generalized_matrix_does_not_depend_on_the_drawing
* C71_charges_are_fluxes_of_the_nearest_conservative_field
* C72_exact_solutions_are_found
* C72_exact_solutions_are_found_at_any_order
* C72_orders_contain_uniform_fields
* C72_parallel_plates
* C72_parallel_plates_at_any_order
* C72_parallel_plates_parameters
* C72_parallel_plates_parameters_at_any_order
* C73_potentials_between_those_of_the_conductors_partial
* C73_potentials_between_those_of_the_conductors_refuted
* C74_energy_grows_with_the_permittivity
* C74_energy_grows_with_the_permittivity_at_any_order
* C74_energy_grows_with_the_permittivity_of_elements
* C75_extensions_have_richer_spaces
* C75_higher_orders_do_not_raise_the_energy
* C75_refined_meshes_have_richer_spaces
* C75_refinements_do_not_raise_the_energy
* C75_richer_spaces_do_not_raise_the_energy
* C76_exports_are_always_the_same
* C76_exports_contain_the_fields_they_name
* C76_no_export_is_missing
* C77_accuracy
* C77_conditioned
* C77_iterated_potential
* C77_reported_energy
* C78_iterated_charges
* C78_iterated_flux
* C79_PUL_parameters
* C79_PUL_parameters_of_open_problems
* C79_constants_exist
* C79_generalized_matrix
* C79_parameters_exist
* C79_parameters_of_open_problems_exist
* C80_in_cell_parameters_exist_when_charges_obey_gauss
* C80_single_conductor
* C80_when_in_cell_parameters_exist
* C82_first_order_library_is_good
* C85_charges_are_fluxes
* C85_fields_of_the_potential
* C85_open_potential_of_least_energy
* C85_potential_of_least_energy
* C85_reference_elements
* C87_best_approximation
* C87_errors_never_grow
* C87_orders
* C87_refinement
* C88_ends_well_when_charges_obey_gauss
* C88_ends_well_with_the_iterative_solver
* C88_parallel_plates_from_the_command_line

## `ClassicalDedekindReals.sig_forall_dec`, `ClassicalDedekindReals.sig_not_dec`, `Classical_Prop.classic`, `FunctionalExtensionality.functional_extensionality_dep`

* C37_dipole_vanishes_partial
* C37_unbalanced_flux_refuted
* C39_expansion_formula
* C39_first_coefficient_is_checked_in_debug_builds
* C39_harmonic
* C39_linear_in_the_coefficients
* C39_translation_invariant
* C40_solver_coefficients_are_moments
* C40_truncation_error
* C41_absorbs_a_monopole
* C41_negative_outside_refuted
* C41_positive_inside_the_unit_circle_partial
* C47_average_of_the_reconstruction
* C47_linear
* C48_on_any_box
* C62_open_problems_depend_on_the_unit_of_length_refuted
* C70_in_cell_parameters_of_the_program_turn
* C70_in_cell_parameters_turn_with_the_drawing
* C70_open_problems_may_be_moved_refuted
* C70_open_problems_may_be_turned_about_the_origin
* C70_turned_fields_have_the_same_expansion

## `PrimFloat.abs`, `PrimFloat.add`, `PrimFloat.div`, `PrimFloat.eqb`, `PrimFloat.float`, `PrimFloat.frshiftexp`, `PrimFloat.ldshiftexp`, `PrimFloat.leb`, `PrimFloat.ltb`, `PrimFloat.mul`, `PrimFloat.normfr_mantissa`, `PrimFloat.of_uint63`, `PrimFloat.opp`, `PrimFloat.sub`, `PrimInt63.eqb`, `PrimInt63.int`, `PrimInt63.land`, `PrimInt63.lor`, `PrimInt63.lsl`, `PrimInt63.lsr`, `PrimInt63.sub`

* C44_double_reflexive
* C51_material_without_elements
* C84_capacitances_of_closed_problems

## `FloatAxioms.eqb_spec`, `PrimFloat.abs`, `PrimFloat.add`, `PrimFloat.div`, `PrimFloat.eqb`, `PrimFloat.float`, `PrimFloat.frshiftexp`, `PrimFloat.ldshiftexp`, `PrimFloat.leb`, `PrimFloat.ltb`, `PrimFloat.mul`, `PrimFloat.normfr_mantissa`, `PrimFloat.of_uint63`, `PrimFloat.opp`, `PrimFloat.sub`, `PrimInt63.eqb`, `PrimInt63.int`, `PrimInt63.land`, `PrimInt63.lor`, `PrimInt63.lsl`, `PrimInt63.lsr`, `PrimInt63.sub`

* C44_double_symmetric
* C44_double_transitive

## `FloatAxioms.SF2Prim_Prim2SF`, `FloatAxioms.mul_spec`, `PrimFloat.abs`, `PrimFloat.add`, `PrimFloat.div`, `PrimFloat.eqb`, `PrimFloat.float`, `PrimFloat.frshiftexp`, `PrimFloat.ldshiftexp`, `PrimFloat.leb`, `PrimFloat.ltb`, `PrimFloat.mul`, `PrimFloat.normfr_mantissa`, `PrimFloat.of_uint63`, `PrimFloat.opp`, `PrimFloat.sub`, `PrimInt63.eqb`, `PrimInt63.int`, `PrimInt63.land`, `PrimInt63.lor`, `PrimInt63.lsl`, `PrimInt63.lsr`, `PrimInt63.sub`

* C26_C_matrix_bitwise_symmetric
* C26_reduction_keeps_bitwise_symmetry

## `ClassicalDedekindReals.sig_forall_dec`, `ClassicalDedekindReals.sig_not_dec`, `Classical_Prop.classic`, `FloatAxioms.Prim2SF_SF2Prim`, `FloatAxioms.Prim2SF_valid`, `FloatAxioms.SF2Prim_Prim2SF`, `FloatAxioms.mul_spec`, `FunctionalExtensionality.functional_extensionality_dep`, `PrimFloat.abs`, `PrimFloat.add`, `PrimFloat.div`, `PrimFloat.eqb`, `PrimFloat.float`, `PrimFloat.frshiftexp`, `PrimFloat.ldshiftexp`, `PrimFloat.leb`, `PrimFloat.ltb`, `PrimFloat.mul`, `PrimFloat.normfr_mantissa`, `PrimFloat.of_uint63`, `PrimFloat.opp`, `PrimFloat.sub`, `PrimInt63.eqb`, `PrimInt63.int`, `PrimInt63.land`, `PrimInt63.lor`, `PrimInt63.lsl`, `PrimInt63.lsr`, `PrimInt63.sub`

* C84_units

## `ClassicalDedekindReals.sig_forall_dec`, `ClassicalDedekindReals.sig_not_dec`, `Classical_Prop.classic`, `FloatAxioms.Prim2SF_SF2Prim`, `FloatAxioms.Prim2SF_valid`, `FloatAxioms.SF2Prim_Prim2SF`, `FloatAxioms.div_spec`, `FloatAxioms.mul_spec`, `FunctionalExtensionality.functional_extensionality_dep`, `PrimFloat.abs`, `PrimFloat.add`, `PrimFloat.div`, `PrimFloat.eqb`, `PrimFloat.float`, `PrimFloat.frshiftexp`, `PrimFloat.ldshiftexp`, `PrimFloat.leb`, `PrimFloat.ltb`, `PrimFloat.mul`, `PrimFloat.normfr_mantissa`, `PrimFloat.of_uint63`, `PrimFloat.opp`, `PrimFloat.sub`, `PrimInt63.eqb`, `PrimInt63.int`, `PrimInt63.land`, `PrimInt63.lor`, `PrimInt63.lsl`, `PrimInt63.lsr`, `PrimInt63.sub`

* C84_inductance_of_two_conductors

## `ClassicalDedekindReals.sig_forall_dec`, `ClassicalDedekindReals.sig_not_dec`, `Classical_Prop.classic`, `FloatAxioms.Prim2SF_SF2Prim`, `FloatAxioms.Prim2SF_valid`, `FloatAxioms.SF2Prim_Prim2SF`, `FloatAxioms.abs_spec`, `FloatAxioms.div_spec`, `FloatAxioms.eqb_spec`, `FunctionalExtensionality.functional_extensionality_dep`, `PrimFloat.abs`, `PrimFloat.add`, `PrimFloat.div`, `PrimFloat.eqb`, `PrimFloat.float`, `PrimFloat.frshiftexp`, `PrimFloat.ldshiftexp`, `PrimFloat.leb`, `PrimFloat.ltb`, `PrimFloat.mul`, `PrimFloat.normfr_mantissa`, `PrimFloat.of_uint63`, `PrimFloat.opp`, `PrimFloat.sub`, `PrimInt63.eqb`, `PrimInt63.int`, `PrimInt63.land`, `PrimInt63.lor`, `PrimInt63.lsl`, `PrimInt63.lsr`, `PrimInt63.sub`

* C49_unit_diagonal_in_floating_point

## `ClassicalDedekindReals.sig_forall_dec`, `ClassicalDedekindReals.sig_not_dec`, `Classical_Prop.classic`, `FloatAxioms.Prim2SF_SF2Prim`, `FloatAxioms.Prim2SF_valid`, `FloatAxioms.SF2Prim_Prim2SF`, `FloatAxioms.add_spec`, `FloatAxioms.div_spec`, `FloatAxioms.mul_spec`, `FunctionalExtensionality.functional_extensionality_dep`, `PrimFloat.abs`, `PrimFloat.add`, `PrimFloat.div`, `PrimFloat.eqb`, `PrimFloat.float`, `PrimFloat.frshiftexp`, `PrimFloat.ldshiftexp`, `PrimFloat.leb`, `PrimFloat.ltb`, `PrimFloat.mul`, `PrimFloat.normfr_mantissa`, `PrimFloat.of_uint63`, `PrimFloat.opp`, `PrimFloat.sub`, `PrimInt63.eqb`, `PrimInt63.int`, `PrimInt63.land`, `PrimInt63.lor`, `PrimInt63.lsl`, `PrimInt63.lsr`, `PrimInt63.sub`

* C84_inner_region_average

## `ClassicalDedekindReals.sig_forall_dec`, `ClassicalDedekindReals.sig_not_dec`, `Classical_Prop.classic`, `FloatAxioms.Prim2SF_SF2Prim`, `FloatAxioms.Prim2SF_valid`, `FloatAxioms.SF2Prim_Prim2SF`, `FloatAxioms.add_spec`, `FloatAxioms.div_spec`, `FloatAxioms.mul_spec`, `FloatAxioms.opp_spec`, `FunctionalExtensionality.functional_extensionality_dep`, `PrimFloat.abs`, `PrimFloat.add`, `PrimFloat.div`, `PrimFloat.eqb`, `PrimFloat.float`, `PrimFloat.frshiftexp`, `PrimFloat.ldshiftexp`, `PrimFloat.leb`, `PrimFloat.ltb`, `PrimFloat.mul`, `PrimFloat.normfr_mantissa`, `PrimFloat.of_uint63`, `PrimFloat.opp`, `PrimFloat.sub`, `PrimInt63.eqb`, `PrimInt63.int`, `PrimInt63.land`, `PrimInt63.lor`, `PrimInt63.lsl`, `PrimInt63.lsr`, `PrimInt63.sub`

* C84_in_cell_capacitance
* C84_in_cell_inductance

## `ClassicalDedekindReals.sig_forall_dec`, `ClassicalDedekindReals.sig_not_dec`, `Classical_Prop.classic`, `FloatAxioms.Prim2SF_SF2Prim`, `FloatAxioms.Prim2SF_valid`, `FloatAxioms.SF2Prim_Prim2SF`, `FloatAxioms.add_spec`, `FloatAxioms.div_spec`, `FloatAxioms.mul_spec`, `FloatAxioms.sub_spec`, `FunctionalExtensionality.functional_extensionality_dep`, `PrimFloat.abs`, `PrimFloat.add`, `PrimFloat.div`, `PrimFloat.eqb`, `PrimFloat.float`, `PrimFloat.frshiftexp`, `PrimFloat.ldshiftexp`, `PrimFloat.leb`, `PrimFloat.ltb`, `PrimFloat.mul`, `PrimFloat.normfr_mantissa`, `PrimFloat.of_uint63`, `PrimFloat.opp`, `PrimFloat.sub`, `PrimInt63.eqb`, `PrimInt63.int`, `PrimInt63.land`, `PrimInt63.lor`, `PrimInt63.lsl`, `PrimInt63.lsr`, `PrimInt63.sub`

* C84_capacitances_of_open_problems
* C84_inductance_of_two_conductors_in_open_problems
* C84_reduction
