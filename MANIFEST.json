{
 "claims": [
  {
   "property": "C01",
   "status": "proved",
   "theorems": [
    "C01_id_is_the_number_in_the_name",
    "C01_id_of_canonical_name",
    "C01_non_numeric_suffix_is_zero",
    "C01_empty_suffix_is_undefined",
    "C01_every_name"
   ],
   "note": "Any name <prefix without underscore>_<digits><rest>; saturation at INT_MAX; 'X_' reads an uninitialised int (Undef), 'A_b_1' gives 0."
  },
  {
   "property": "C02",
   "status": "proved",
   "theorems": [
    "C02_conductors_0_to_n_are_accepted",
    "C02_others_are_rejected_before_solving"
   ],
   "note": "The preconditions of the constructor (checkPECsIds...), for every model; solving itself is a separate step of the model, so 'before solving' is visible in the trace."
  },
  {
   "property": "C03",
   "status": "proved",
   "theorems": [
    "C03_model_keeps_the_materials_in_the_mesh",
    "C03_doing_it_again_changes_nothing",
    "C03_model_of_a_file"
   ],
   "note": "Every mesh and every materials list; the second theorem is idempotence."
  },
  {
   "property": "C04",
   "status": "proved",
   "theorems": [
    "C04_valid_materials_are_read",
    "C04_other_materials_throw"
   ],
   "note": "Doubles as reals. Tags given as JSON floats or booleans (which nlohmann converts) are excluded from the rejection theorem."
  },
  {
   "property": "C05",
   "status": "proved",
   "theorems": [
    "C05_order_of_members_is_irrelevant",
    "C05_names_are_distinct",
    "C05_program_does_the_same"
   ],
   "note": "same_text: texts that differ by permuting the members of any objects in the file."
  },
  {
   "property": "C06",
   "status": "partial",
   "theorems": [
    "C06_options_partial",
    "C06_documented_paraview_key_refuted",
    "C06_unrelated_keys_have_no_effect",
    "C06_wrong_types_throw"
   ],
   "note": "Everything except the documented spelling exportParaViewSolution, which the code ignores (refuted with a witness): it reads exportParaviewSolution."
  },
  {
   "property": "C07",
   "status": "partial",
   "theorems": [
    "C07_mesh_next_to_input_partial",
    "C07_model_depends_on_that_mesh_only_partial",
    "C07_absolute_paths_refuted",
    "C07_model_of_a_file_partial"
   ],
   "note": "Proved for relative paths; for absolute input paths the mesh is looked up below the working directory (refuted for every absolute path and cwd other than /)."
  },
  {
   "property": "C08",
   "status": "partial",
   "theorems": [
    "C08_closed_problems_write_the_pul_matrices",
    "C08_open_problems_write_the_incell_potentials",
    "C08_semiopen_problems_throw",
    "C08_no_other_call_writes_a_result",
    "C08_the_file_is_in_the_folder_partial",
    "C08_folder_without_slash_refuted"
   ],
   "note": "Everything proved except that the file lies inside the folder: true for folders ending in '/' (or empty), refuted for a folder given without it, because the code concatenates strings."
  },
  {
   "property": "C09",
   "status": "proved",
   "theorems": [
    "C09_vertices_and_edges",
    "C09_rejected_calls"
   ],
   "note": "All histories of calls; the rejected calls are characterised too."
  },
  {
   "property": "C10",
   "status": "proved",
   "theorems": [
    "C10_split_closed_paths",
    "C10_closed_paths_graph"
   ],
   "note": "For graphs built from closed paths; components_of is defined from edges only (SpecGraph.v)."
  },
  {
   "property": "C11",
   "status": "partial",
   "theorems": [
    "C11_split_any_graph_refuted",
    "C11_isolated_vertex_refuted",
    "C11_split_returning_graph_partial",
    "C11_split_any_graph_partial"
   ],
   "note": "Refuted for arbitrary graphs (split follows edges forwards only and drops isolated vertices); proved when every edge can be walked back and no vertex is isolated, and a weaker statement (disjoint, never joining two components, no edge invented) for every graph."
  },
  {
   "property": "C12",
   "status": "proved",
   "theorems": [
    "C12_boundary_graph",
    "C12_boundary_of_cells"
   ],
   "note": "Exact multiset of edges and vertices; second theorem: consistently oriented cells."
  },
  {
   "property": "C13",
   "status": "proved",
   "theorems": [
    "C13_cycles"
   ],
   "note": "Soundness, completeness up to rotation and absence of repetitions, for every graph of the public interface."
  },
  {
   "property": "C14",
   "status": "proved",
   "theorems": [
    "C14_closed_without_open_boundary",
    "C14_open_iff_closes",
    "C14_order_irrelevant",
    "C14_closed_iff_no_open_boundary_in_the_mesh"
   ],
   "note": "The condition 'no two open segments start at the same vertex' is needed because the code stores successors in a map keyed by the first vertex."
  },
  {
   "property": "C15",
   "status": "proved",
   "theorems": [
    "C15_every_element_in_one_domain",
    "C15_models_with_domains",
    "C15_only_closed_models"
   ],
   "note": "Every closed model whose buildDomains returns; C15_models_with_domains says when it does."
  },
  {
   "property": "C16",
   "status": "proved",
   "theorems": [
    "C16_conductors_of_a_domain",
    "C16_segments_in_one_domain"
   ],
   "note": "Iff, for every model with domains."
  },
  {
   "property": "C17",
   "status": "proved",
   "theorems": [
    "C17_conductor_0_in_one_domain",
    "C17_vertices_edges_and_no_cycle",
    "C17_sharing_domains_are_connected",
    "C17_number_of_edges"
   ],
   "note": "Acceptance iff, edges iff, acyclicity, and the number of edges."
  },
  {
   "property": "C18",
   "status": "partial",
   "theorems": [
    "C18_refuted",
    "C18_ground_of_each_domain_partial",
    "C18_outside_first_partial"
   ],
   "note": "Refuted: with conductor 0 in a domain numbered after another one its ground is not 0 and the tree is rooted elsewhere (depends on the numbering of mesh elements). Proved: what the ground is in every case, and the full property for outside-in numberings."
  },
  {
   "property": "C19",
   "status": "proved",
   "theorems": [
    "C19_model_of_a_domain",
    "C19_when_the_model_exists",
    "C19_domains_cut_no_edge",
    "C19_one_after_the_other"
   ],
   "note": "Mesh state is explicit; includes when the call has no defined result (a boundary edge without boundary element indexes with -1)."
  },
  {
   "property": "C20",
   "status": "partial",
   "theorems": [
    "C20_parameters_of_each_domain_partial",
    "C20_no_result_with_several_domains",
    "C20_single_domain_partial",
    "C20_refuted"
   ],
   "note": "Refuted: with two or more domains the result is always an exception (C20_no_result_with_several_domains, for all inputs). Proved: exact characterisation of the results, and the single domain case."
  },
  {
   "property": "C21",
   "status": "proved",
   "theorems": [
    "C21_inputs_reflect_the_materials"
   ],
   "note": "Iff for every key of the produced maps."
  },
  {
   "property": "C22",
   "status": "proved",
   "theorems": [
    "C22_one_unit_excitation_per_conductor",
    "C22_one_unit_excitation_per_conductor_any_arithmetic",
    "C22_prescribed_degrees_of_freedom"
   ],
   "note": "For T = R and for any arithmetic."
  },
  {
   "property": "C23",
   "status": "proved",
   "theorems": [
    "C23_entries_are_mean_charges",
    "C23_symmetric"
   ],
   "note": "Entries over R; exact symmetry for any arithmetic with commutative addition (floats included)."
  },
  {
   "property": "C24",
   "status": "proved",
   "theorems": [
    "C24_closed_reduction",
    "C24_reference_is_conductor_0",
    "C24_getCMatrix_of_closed_problems"
   ],
   "note": "All matrices with zero row sums; the Driver level theorem is about the replies of getCMatrix."
  },
  {
   "property": "C25",
   "status": "proved",
   "theorems": [
    "C25_charge_neutral_reduction",
    "C25_neutral_potentials_exist",
    "C25_getCMatrix_of_open_problems"
   ],
   "note": "Also uniqueness of the matrix, and existence of neutral potentials so that the quantifier is not empty."
  },
  {
   "property": "C26",
   "status": "proved",
   "theorems": [
    "C26_C_matrix_bitwise_symmetric",
    "C26_reduction_keeps_bitwise_symmetry"
   ],
   "note": "IEEE binary64 (PrimFloat), bit for bit, NaN included."
  },
  {
   "property": "C27",
   "status": "proved",
   "theorems": [
    "C27_C_is_symmetric_positive_definite",
    "C27_L_exists_and_is_symmetric_positive_definite",
    "C27_positive_definite_suffices"
   ],
   "note": "Over R with exact LU."
  },
  {
   "property": "C28",
   "status": "proved",
   "theorems": [
    "C28_units",
    "C28_vacuum_identity"
   ],
   "note": "Over R with exact LU."
  },
  {
   "property": "C29",
   "status": "proved",
   "theorems": [
    "C29_floating_potentials",
    "C29_positive_definite_matrices_are_regular",
    "C29_single_conductor"
   ],
   "note": "Existence and uniqueness over R."
  },
  {
   "property": "C30",
   "status": "partial",
   "theorems": [
    "C30_reconstructed_fields",
    "C30_charge_only_on_the_prescribed_conductor_partial",
    "C30_charges_of_the_conductors",
    "C30_charge_only_on_the_prescribed_conductor_refuted"
   ],
   "note": "Over R. Partial: the charges of the other conductors vanish when the raw charges are symmetric (an exact flux gives that, C64_reciprocity); C30_charges_of_the_conductors gives them in general (half of the asymmetry, weighted with the stored potentials). C30_..._refuted: fourteen triangles around two bars where the other conductor keeps a charge and the monopolar coefficient is not the charge of the conductor."
  },
  {
   "property": "C31",
   "status": "proved",
   "theorems": [
    "C31_history_is_irrelevant",
    "C31_history_is_irrelevant_any_arithmetic"
   ],
   "note": "All histories of calls and all arithmetics."
  },
  {
   "property": "C32",
   "status": "proved",
   "theorems": [
    "C32_single_conductor_closed_throws",
    "C32_incell_not_open_throws",
    "C32_floating_potentials_semiopen_throws",
    "C32_run_semiopen_throws",
    "C32_singular_vacuum_matrix_throws"
   ],
   "note": "All models and options."
  },
  {
   "property": "C33",
   "status": "proved",
   "theorems": [
    "C33_marker_flags_exactly_the_listed_attributes",
    "C33_minus_one_flags_everything",
    "C33_no_attributes",
    "C33_other_non_positive_attributes_abort"
   ],
   "note": "All attribute lists."
  },
  {
   "property": "C34",
   "status": "partial",
   "theorems": [
    "C34_new_boundaries_miss_their_values_refuted",
    "C34_solving_without_conditions_is_remembered_refuted",
    "C34_last_conditions_partial",
    "C34_new_tags_are_not_prescribed_refuted"
   ],
   "note": "Refuted for histories that change the set of tags (the essential boundaries are those of construction) and for histories whose first Solve is without prescribed boundaries while the last has them, or the reverse (MFEM eliminates the essential degrees of freedom in the matrix only at the first Solve). Proved for all other histories, with changes of surface charges, solves without prescribed boundaries and restored solutions in between."
  },
  {
   "property": "C35",
   "status": "proved",
   "theorems": [
    "C35_solve_starts_from_the_prescribed_values",
    "C35_potential_on_the_boundaries",
    "C35_tags_outside_the_mesh"
   ],
   "note": "All inputs; overlap order is by tag as std::map iterates."
  },
  {
   "property": "C36",
   "status": "partial",
   "theorems": [
    "C36_total_is_minus_the_sum_partial",
    "C36_charge_in_boundary",
    "C36_sign_refuted"
   ],
   "note": "Refuted as stated: getTotalCharge integrates with the opposite normal convention, so it is minus the sum (proved for all fields)."
  },
  {
   "property": "C37",
   "status": "partial",
   "theorems": [
    "C37_dipole_vanishes_partial",
    "C37_unbalanced_flux_refuted"
   ],
   "note": "Proved when the discrete fluxes balance (Gauss's law); refuted otherwise."
  },
  {
   "property": "C38",
   "status": "proved",
   "theorems": [
    "C38_shape_and_first_coefficient",
    "C38_charged_boundaries",
    "C38_linear_in_the_field",
    "C38_defined_for_one_open_boundary"
   ],
   "note": "All fields and orders."
  },
  {
   "property": "C39",
   "status": "proved",
   "theorems": [
    "C39_expansion_formula",
    "C39_harmonic",
    "C39_linear_in_the_coefficients",
    "C39_translation_invariant",
    "C39_first_coefficient_is_checked_in_debug_builds"
   ],
   "note": "Over R with exact log, cos, sin."
  },
  {
   "property": "C40",
   "status": "proved",
   "theorems": [
    "C40_truncation_error",
    "C40_solver_coefficients_are_moments"
   ],
   "note": "Any finite set of charges, any order."
  },
  {
   "property": "C41",
   "status": "partial",
   "theorems": [
    "C41_absorbs_a_monopole",
    "C41_positive_inside_the_unit_circle_partial",
    "C41_negative_outside_refuted"
   ],
   "note": "Absorption of the monopole proved everywhere except r in {0,1}; the coefficient is positive inside the unit circle and negative outside (refuted), so positivity depends on the unit of length."
  },
  {
   "property": "C42",
   "status": "proved",
   "theorems": [
    "C42_json_round_trip",
    "C42_file_round_trip",
    "C42_real_numbers"
   ],
   "note": "For finite doubles and matrices with at least one column (n x 0 matrices and non finite numbers do not survive; shown by Examples)."
  },
  {
   "property": "C43",
   "status": "proved",
   "theorems": [
    "C43_results_of_a_driver_survive",
    "C43_what_is_read",
    "C43_anything_else_throws",
    "C43_reading_renumbers",
    "C43_json_round_trip"
   ],
   "note": "Survives for consecutive keys 0..n-1 (what a Driver produces); in general reading renumbers, proved exactly."
  },
  {
   "property": "C44",
   "status": "proved",
   "theorems": [
    "C44_equality_of_parameters",
    "C44_equality_of_fields",
    "C44_equality_of_potentials",
    "C44_real_equality",
    "C44_double_reflexive",
    "C44_double_symmetric",
    "C44_double_transitive"
   ],
   "note": "R and IEEE doubles; NaN makes it irreflexive."
  },
  {
   "property": "C45",
   "status": "partial",
   "theorems": [
    "C45_partial",
    "C45_parameters_read_from_json_partial",
    "C45_missing_matrices_throw",
    "C45_refuted"
   ],
   "note": "Ragged input is accepted when the first row is empty (refuted); all other inputs proved."
  },
  {
   "property": "C46",
   "status": "proved",
   "theorems": [
    "C46_planes_subdivide_the_box",
    "C46_which_planes",
    "C46_rejection"
   ],
   "note": "All boxes."
  },
  {
   "property": "C47",
   "status": "proved",
   "theorems": [
    "C47_integration_over_the_cells",
    "C47_average_of_the_reconstruction",
    "C47_linear",
    "C47_bounds",
    "C47_constants",
    "C47_rejection"
   ],
   "note": "All boxes and potentials, over R."
  },
  {
   "property": "C48",
   "status": "partial",
   "theorems": [
    "C48_average_on_the_inner_region",
    "C48_capacitance",
    "C48_inductance_partial",
    "C48_inductance_only_if_partial",
    "C48_refuted",
    "C48_on_any_box"
   ],
   "note": "Capacitance proved. Inductance refuted: getInductanceOnBox reads the electric conductor potentials; proved exactly when both agree (iff)."
  },
  {
   "property": "C49",
   "status": "proved",
   "theorems": [
    "C49_coupling_coefficients",
    "C49_matrices_that_are_not_square",
    "C49_unit_diagonal_in_floating_point"
   ],
   "note": "Over R, and the unit diagonal in IEEE arithmetic."
  },
  {
   "property": "C50",
   "status": "proved",
   "theorems": [
    "C50_inner_region_average",
    "C50_average_is_between"
   ],
   "note": "Over R."
  },
  {
   "property": "C51",
   "status": "proved",
   "theorems": [
    "C51_bounding_box",
    "C51_unknown_material_throws",
    "C51_material_without_elements"
   ],
   "note": "Smallest box, over R."
  },
  {
   "property": "C52",
   "status": "proved",
   "theorems": [
    "C52_area_of_dielectric",
    "C52_area_of_conductor",
    "C52_open_boundaries_have_no_area",
    "C52_unknown_names_throw",
    "C52_areas_of_distinct_tags_fit_in_the_mesh"
   ],
   "note": "Over R."
  },
  {
   "property": "C53",
   "status": "proved",
   "theorems": [
    "C53_export_names_differ",
    "C53_construction_exports_under_these_names",
    "C53_names_without_underscore_collide",
    "C53_calls_export_under_these_names"
   ],
   "note": "Names without underscore can collide (third theorem)."
  },
  {
   "property": "C54",
   "status": "proved",
   "theorems": [
    "C54_snapshots_restore_everything",
    "C54_sizes_are_kept"
   ],
   "note": "All histories."
  },
  {
   "property": "C55",
   "status": "proved",
   "theorems": [
    "C55_average_of_a_constant",
    "C55_tags_have_area",
    "C55_average_is_linear",
    "C55_average_is_local",
    "C55_average_is_between",
    "C55_averages_at_any_order",
    "C55_average_on_a_conductor_at_any_order",
    "C55_averages_on_triangles",
    "C55_average_on_a_conductor"
   ],
   "note": "Over R; quadrature weights positive. C55_averages_on_triangles gives the averages by geometry for elements of order 1 on triangles, C55_averages_at_any_order for any order, as integrals by the quadrature rules of the reference element."
  },
  {
   "property": "C56",
   "status": "proved",
   "theorems": [
    "C56_energy_formula",
    "C56_energy_is_not_negative",
    "C56_energy_scales_with_the_square_of_the_field",
    "C56_energy_is_proportional_to_the_permittivity"
   ],
   "note": "Over R."
  },
  {
   "property": "C57",
   "status": "proved",
   "theorems": [
    "C57_fields_minimize_the_energy",
    "C57_weak_form"
   ],
   "note": "PCG idealised as the exact solution of the linear system assembled by the code; quadrature tables of the spaces are inputs (Fem.v, SpecFem.v)."
  },
  {
   "property": "C58",
   "status": "proved",
   "theorems": [
    "C58_superposition",
    "C58_conductor_potentials",
    "C58_reconstructed_fields_are_solutions"
   ],
   "note": "Same idealisation."
  },
  {
   "property": "C59",
   "status": "partial",
   "theorems": [
    "C59_rows_add_up_to_zero_at_the_default_order_refuted",
    "C59_only_differences_matter_at_any_order",
    "C59_entries_add_up_to_zero_at_any_order",
    "C59_equal_potentials_give_no_field",
    "C59_only_differences_matter",
    "C59_rows_add_up_to_zero_partial",
    "C59_entries_add_up_to_zero",
    "C59_unit_charges_add_up_to_zero",
    "C59_only_differences_matter_on_triangles",
    "C59_entries_add_up_to_zero_on_triangles",
    "C59_rows_add_up_to_zero_refuted"
   ],
   "note": "Shift invariance, and the entries of the generalized matrix adding up to zero, for every closed cross section on triangles. Partial: single rows need Gauss's law for the recovered flux; C59_rows_add_up_to_zero_refuted is a quadrilateral of two triangles on which it fails; ..._at_the_default_order_refuted is another one on which it fails with the elements of order 3 that the Driver uses by default."
  },
  {
   "property": "C60",
   "status": "proved",
   "theorems": [
    "C60_LC_product_at_any_order",
    "C60_homogeneous_fields",
    "C60_LC_product",
    "C60_LC_product_on_triangles"
   ],
   "note": "Same idealisation."
  },
  {
   "property": "C61",
   "status": "partial",
   "theorems": [
    "C61_PUL_parameters_are_positive_definite_at_the_default_order_refuted",
    "C61_generalized_matrix_is_positive_at_the_default_order_refuted",
    "C61_generalized_matrix_is_positive_partial",
    "C61_PUL_parameters_exist_and_are_positive_definite_partial",
    "C61_floating_potentials_exist_partial",
    "C61_PUL_parameters_are_positive_definite_refuted",
    "C61_generalized_matrix_is_positive_refuted"
   ],
   "note": "Partial: positivity is proved where the flux of D satisfies Gauss's law. On first order triangles it need not: the refuted theorems show a quadrilateral whose capacitance comes out negative; ..._at_the_default_order_refuted show the same for another one at the default order 3."
  },
  {
   "property": "C62",
   "status": "partial",
   "theorems": [
    "C62_closed_problems_do_not_depend_on_the_unit_of_length",
    "C62_open_problems_with_a_scaling_absorbing_condition",
    "C62_open_problems_depend_on_the_unit_of_length_refuted",
    "C62_closed_problems_of_elements"
   ],
   "note": "Closed problems proved (on any discretization that is rescaled, and with elements of any order on triangles, where the Driver of the drawing in the other unit is shown to be built). Open ones refuted: firstOrderABC = -1/(r ln r) does not scale like 1/length; proved for any coefficient that does."
  },
  {
   "property": "C63",
   "status": "partial",
   "theorems": [
    "C63_energy_of_the_fields_at_the_default_order_refuted",
    "C63_energy_of_the_fields_partial",
    "C63_energy_of_the_fields_refuted"
   ],
   "note": "Partial: needs Gauss's law of the recovered flux; refuted without it on two triangles, at first order and at the default order 3."
  },
  {
   "property": "C64",
   "status": "partial",
   "theorems": [
    "C64_charges_of_closed_problems_partial",
    "C64_charges_of_open_problems_partial",
    "C64_reciprocity",
    "C64_charges_of_closed_problems_refuted"
   ],
   "note": "Partial: needs reciprocity (Gauss's law) of the recovered flux; refuted without it on a hexagon of four triangles."
  },
  {
   "property": "C65",
   "status": "partial",
   "theorems": [
    "C65_result_beside_the_input_partial",
    "C65_absolute_paths_refuted",
    "C65_documented_name_refuted",
    "C65_failures_write_no_result",
    "C65_unreadable_input",
    "C65_help_writes_nothing",
    "C65_bad_arguments",
    "C65_help_twice"
   ],
   "note": "Relative paths proved. Refuted for absolute paths and for the file name announced in README.md."
  },
  {
   "property": "C66",
   "status": "partial",
   "theorems": [
    "C66_where_fields_are_exported_partial",
    "C66_exports_outside_the_folder_refuted"
   ],
   "note": "Exports made while building the Driver go to exportFolder (proved); those made by run go to the directory of the input file (refuted)."
  },
  {
   "property": "C67",
   "status": "proved",
   "theorems": [
    "C67_generalized_matrix",
    "C67_PUL_matrices",
    "C67_floating_potentials",
    "C67_in_cell_parameters"
   ],
   "note": "Proved over R for every well posed pair of models and any histories of calls; mesh and order fixed. In-cell: the second Driver also succeeds (proved, not assumed)."
  },
  {
   "property": "C68",
   "status": "proved",
   "theorems": [
    "C68_new_driver_any_arithmetic",
    "C68_any_history",
    "C68_in_cell_parameters"
   ],
   "note": "Proved bit for bit on a new Driver in any arithmetic, after any history over R."
  },
  {
   "property": "C69",
   "status": "proved",
   "theorems": [
    "C69_open_potential_of_least_energy",
    "C69_piecewise_linear_potential_of_least_energy"
   ],
   "note": "Elements of order 1 on straight triangles; real arithmetic and exact linear solver. C69_open_potential_of_least_energy covers open boundaries, with the energy of the boundary term."
  },
  {
   "property": "C70",
   "status": "partial",
   "theorems": [
    "C70_generalized_matrix_does_not_depend_on_the_drawing",
    "C70_PUL_parameters_do_not_depend_on_the_drawing",
    "C70_floating_potentials_do_not_depend_on_the_drawing",
    "C70_closed_problems_do_not_depend_on_the_drawing",
    "C70_open_problems_may_be_turned_about_the_origin",
    "C70_open_problems_may_be_moved_refuted",
    "C70_elements_are_redrawn",
    "C70_PUL_parameters_of_elements",
    "C70_generalized_matrix_at_any_order",
    "C70_PUL_parameters_at_any_order",
    "C70_floating_potentials_at_any_order",
    "C70_first_order_spaces_are_redrawn",
    "C70_in_cell_parameters_turn_with_the_drawing",
    "C70_turned_fields_have_the_same_expansion",
    "C70_in_cell_parameters_of_the_program_turn"
   ],
   "note": "The theorems ..._at_any_order are for finite elements of any order whose tables of basis functions correspond (redrawn_spaces; shown to hold of elements of any order on every moved triangle mesh: C70_elements_are_redrawn, C70_PUL_parameters_of_elements); the others, with renumbered vertices and in-cell parameters, are for order 1. In-cell parameters: for drawings turned about the origin (the box stays along the axes). Proved for closed problems and for open ones whose absorbing coefficient goes with the drawing (turning about the origin). Refuted for moving an open problem: -1/(r ln r) takes r from the origin of the drawing. Elements of order 1 on straight triangles, a rule exact for quadratic functions; real arithmetic, exact linear solver."
  },
  {
   "property": "C71",
   "status": "proved",
   "theorems": [
    "C71_charges_are_fluxes_of_the_nearest_conservative_field"
   ],
   "note": "Elements of order 1 on straight triangles, a rule exact for quadratic functions; real arithmetic, exact linear solver. By C59/C61 these fluxes need not satisfy Gauss's law."
  },
  {
   "property": "C72",
   "status": "proved",
   "theorems": [
    "C72_orders_contain_uniform_fields",
    "C72_exact_solutions_are_found_at_any_order",
    "C72_parallel_plates_at_any_order",
    "C72_parallel_plates_parameters_at_any_order",
    "C72_exact_solutions_are_found",
    "C72_parallel_plates",
    "C72_parallel_plates_parameters"
   ],
   "note": "Elements of order 1 and (\u2026_any_order) of every order whose reference element contains the linear functions, orders 1 to 3 of RefElements.v included, on straight triangles, with an exact rule; real arithmetic, exact linear solver."
  },
  {
   "property": "C73",
   "status": "partial",
   "theorems": [
    "C73_potentials_between_those_of_the_conductors_partial",
    "C73_potentials_between_those_of_the_conductors_refuted"
   ],
   "note": "Proved for meshes without obtuse angles (_partial). Refuted in general: with one obtuse triangle a vertex gets 2 V between conductors at 0 V and 1 V. Elements of order 1 on straight triangles; real arithmetic, exact linear solver."
  },
  {
   "property": "C74",
   "status": "proved",
   "theorems": [
    "C74_energy_grows_with_the_permittivity",
    "C74_energy_grows_with_the_permittivity_of_elements",
    "C74_energy_grows_with_the_permittivity_at_any_order"
   ],
   "note": "Closed problems; for elements of order 1 and of any order (C74_..._of_elements) on straight triangles, and for any elements given by the tables of their basis functions (..._at_any_order); real arithmetic, exact linear solver."
  },
  {
   "property": "C75",
   "status": "proved",
   "theorems": [
    "C75_refinements_do_not_raise_the_energy",
    "C75_extensions_have_richer_spaces",
    "C75_higher_orders_do_not_raise_the_energy",
    "C75_richer_spaces_do_not_raise_the_energy",
    "C75_refined_meshes_have_richer_spaces"
   ],
   "note": "Closed problems; for elements of order 1 on refined meshes of straight triangles, and for any pair of spaces of which one contains the other (C75_richer_spaces...: finer meshes or higher orders), given by the tables of their basis functions; C75_higher_orders_do_not_raise_the_energy: for the orders 1, 2, 3 on every triangle mesh; real arithmetic, exact linear solver."
  },
  {
   "property": "C76",
   "status": "partial",
   "theorems": [
    "C76_exports_contain_the_fields_they_name",
    "C76_exports_are_always_the_same",
    "C76_no_export_is_missing",
    "C76_by_domains_overwrites_refuted"
   ],
   "note": "Proved for the construction and every call but getPULMTLByDomains, which is the counterexample (refuted): the Drivers of the domains write over the exports of the whole problem, under the same names. File formats are not modelled: an export is a name and the coefficient vectors of its named fields."
  },
  {
   "property": "C77",
   "status": "proved",
   "theorems": [
    "C77_iterated_potential",
    "C77_accuracy",
    "C77_reported_energy",
    "C77_conditioned"
   ],
   "note": "Real arithmetic. mfem::PCG, CGSolver::Mult and GSSmoother are modelled from MFEM 4 (they are not in /repo) on dense matrices. The rate is the linear one (1-1/k), not the square-root rate of the Chebyshev bound."
  },
  {
   "property": "C78",
   "status": "proved",
   "theorems": [
    "C78_iterated_flux",
    "C78_iterated_charges"
   ],
   "note": "Real arithmetic; PCG as in C77. The constants are the best ones of the mesh (condition numbers, flux and charge bounds), not computed from mesh sizes."
  },
  {
   "property": "C79",
   "status": "proved",
   "theorems": [
    "C79_generalized_matrix",
    "C79_constants_exist",
    "C79_PUL_parameters",
    "C79_parameters_exist",
    "C79_PUL_parameters_of_open_problems",
    "C79_parameters_of_open_problems_exist"
   ],
   "note": "Real arithmetic; PCG as in C77. The constants are the best ones of the mesh, not computed from mesh sizes. For open problems the tolerance must be small against the total of the generalized matrix."
  },
  {
   "property": "C80",
   "status": "proved",
   "theorems": [
    "C80_when_in_cell_parameters_exist",
    "C80_single_conductor",
    "C80_in_cell_parameters_exist_when_charges_obey_gauss",
    "C80_without_the_inner_region_throws"
   ],
   "note": "Real arithmetic. NDEBUG and debug builds. Division by a zero total charge (center of charge) is a real division here (0 in the model, NaN/inf in the code)."
  },
  {
   "property": "C81",
   "status": "partial",
   "theorems": [
    "C81_no_memory_error_partial",
    "C81_everything_is_released",
    "C81_unwinding_releases_everything",
    "C81_driver",
    "C81_copies_are_not_safe_refuted",
    "C81_a_constructor_that_throws_leaks_refuted"
   ],
   "note": "Addresses, ownership and initialisation are modelled, not values or sizes. What MFEM's classes own and touch is by contract (a form owns its integrators, integrators do not own coefficients, only Assemble evaluates them, a space is not looked at by the destructor of a grid function). MFEM_VERIFY is taken as an exception (MFEM built with MFEM_USE_EXCEPTIONS or a throwing error action). The Driver is its sequence of operations on the solvers; moves of unique_ptr have no operation."
  },
  {
   "property": "C82",
   "status": "partial",
   "theorems": [
    "C82_construction_partial",
    "C82_tags_beyond_the_regions",
    "C82_built_drivers_are_well_posed",
    "C82_calls_partial",
    "C82_by_domains_partial",
    "C82_program_partial",
    "C82_first_order_library_is_good",
    "C82_names_without_number_refuted",
    "C82_a_dielectric_on_the_boundary_refuted",
    "C82_singular_floating_potentials_refuted",
    "C82_uncovered_edges_refuted"
   ],
   "note": "The construction is characterised exactly (if and only if). Undefined behaviour is what the model marks Undef: indices, indeterminate reads, float to int conversions and singular systems; ownership is C81. MFEM by contract: good_mesh (tags positive, boundary elements are segments, there are regions) and good_library (sizes of the vectors, attributes.Max), proved for the first order spaces of Triangles.v."
  },
  {
   "property": "C83",
   "status": "proved",
   "theorems": [
    "C83_export_options_do_not_change_results",
    "C83_construction",
    "C83_switched_off",
    "C83_switches_are_independent"
   ],
   "note": "Proved in any arithmetic and for every model, including those that are rejected; getPULMTLByDomains included."
  },
  {
   "property": "C84",
   "status": "proved",
   "theorems": [
    "C84_reduction",
    "C84_capacitances_of_open_problems",
    "C84_capacitances_of_closed_problems",
    "C84_units",
    "C84_inductance_of_two_conductors",
    "C84_inductance_of_two_conductors_in_open_problems",
    "C84_in_cell_capacitance",
    "C84_in_cell_inductance",
    "C84_inner_region_average"
   ],
   "note": "Proved for Coq's primitive floats (IEEE 754 binary64) with Flocq. The order of the operations is that of the code; fused multiply-add, which a compiler may use on targets that have it, is not modelled. Of the inversion that gives L, the case of two conductors is bounded; larger ones and the MFEM part are not."
  },
  {
   "property": "C85",
   "status": "proved",
   "theorems": [
    "C85_open_potential_of_least_energy",
    "C85_potential_of_least_energy",
    "C85_fields_of_the_potential",
    "C85_charges_are_fluxes",
    "C85_reference_elements"
   ],
   "note": "The reference element (shape functions, degrees of freedom per vertex, side and interior, quadrature rules) is a parameter with conditions on the reference triangle only; they are proved for the orders 1, 2, 3 with any positive quadrature rules of sufficient degree, Boole's rule being a concrete one. MFEM's own tables are third-party code: its bases span the same spaces (H1, Nedelec and Raviart-Thomas of the same order on triangles), the rules it picks are not proved to satisfy the conditions. The linear systems are solved exactly in this model."
  },
  {
   "property": "C86",
   "status": "proved",
   "theorems": [
    "C86_map_of_names",
    "C86_map_of_numbers",
    "C86_get_by_name",
    "C86_get_by_number",
    "C86_lookups_agree",
    "C86_map_of_all_names",
    "C86_materials_removed",
    "C86_nothing_removed_by_its_own_map",
    "C86_domain_materials",
    "C86_instances_of_the_driver"
   ],
   "note": "A reference returned by get is modelled as a position in the vector of that kind. With repeated names or numbers the map and get differ (last and first; example twins)."
  },
  {
   "property": "C87",
   "status": "proved",
   "theorems": [
    "C87_best_approximation",
    "C87_errors_never_grow",
    "C87_orders",
    "C87_refinement"
   ],
   "note": "Over real numbers with exact solves. C87_orders for the orders 1 to 3, C87_refinement for first order elements on meshes cut into smaller triangles; C87_best_approximation and C87_errors_never_grow for any pair of discretizations of which one is richer (SpecRedraw's richer: every potential of the one is a potential of the other, with the same values on the conductors and the same energy)."
  },
  {
   "property": "C88",
   "status": "proved",
   "theorems": [
    "C88_how_the_program_ends",
    "C88_ends_well_exactly_when",
    "C88_wrong_numbers",
    "C88_single_conductor_in_a_closed_problem",
    "C88_ends_well_when_charges_obey_gauss",
    "C88_ends_well_with_the_iterative_solver",
    "C88_parallel_plates_from_the_command_line"
   ],
   "note": "C88_how_the_program_ends and C88_ends_well_exactly_when hold for any arithmetic and any finite element library; C88_ends_well_when_charges_obey_gauss and C88_parallel_plates_from_the_command_line over real numbers with exact solves, C88_ends_well_with_the_iterative_solver with the PCG of Iterative.v (closed problems). C88_example starts from the text of an input file without options and the mesh file it names, and ends with the entries of the file with the results."
  }
 ]
}