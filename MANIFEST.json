{
 "claims": [
  {
   "property": "C01",
   "status": "proved",
   "theorems": [
    "C01_index_of_point_gives_back_point",
    "C01_point_of_index_gives_back_index",
    "C01_no_two_points_share_storage"
   ],
   "note": ""
  },
  {
   "property": "C02",
   "status": "proved",
   "theorems": [
    "C02_offsets_reach_the_neighbour",
    "C02_plus_then_minus"
   ],
   "note": ""
  },
  {
   "property": "C03",
   "status": "proved",
   "theorems": [
    "C03_box_region",
    "C03_ind2d_zend_check_refuted",
    "C03_indperp_yend_check_refuted"
   ],
   "note": "The box enumeration is proved. C03_ind2d_zend_check_refuted / C03_indperp_yend_check_refuted record that the CHECK>1 guard meant to reject zend!=0 (yend!=0) tests zstart (ystart) twice."
  },
  {
   "property": "C04",
   "status": "proved",
   "theorems": [
    "C04_blocks_cover_indices",
    "C04_rebuilding_is_identity",
    "C04_stats"
   ],
   "note": ""
  },
  {
   "property": "C05",
   "status": "proved",
   "theorems": [
    "C05_set_algebra",
    "C05_blocks_agree_with_indices",
    "C05_contract_inhabited"
   ],
   "note": ""
  },
  {
   "property": "C06",
   "status": "proved",
   "theorems": [
    "C06_offset",
    "C06_periodic_shift",
    "C06_shift_permutes_whole_blocks",
    "C06_shift_inverse",
    "C06_offset_loses_grid_sizes_refuted"
   ],
   "note": "Positions proved; C06_offset_loses_grid_sizes_refuted records that offset() of a Region not built by the box constructor gives indices with sizes -1."
  },
  {
   "property": "C07",
   "status": "proved",
   "theorems": [
    "C07_any_schedule",
    "C07_some_schedule_exists",
    "C07_needs_distinct_indices"
   ],
   "note": "Sequentially consistent interleavings of per-index read/write events; C07_needs_distinct_indices shows the hypothesis is needed."
  },
  {
   "property": "C08",
   "status": "proved",
   "theorems": [
    "C08_history_never_stuck",
    "C08_operations_act_on_values",
    "C08_ensure_unique_then_write",
    "C08_store_isolation"
   ],
   "note": ""
  },
  {
   "property": "C09",
   "status": "partial",
   "theorems": [
    "C09_iteration_partial",
    "C09_null_range_refuted",
    "C09_iteration_exact",
    "C09_intersects_index",
    "C09_intersects_range",
    "C09_add"
   ],
   "note": "Chains of non-empty ranges iterate exactly (C09_iteration_exact); C09_null_range_refuted: a chain containing a null range misbehaves."
  },
  {
   "property": "C10",
   "status": "partial",
   "theorems": [
    "C10_subtract_partial",
    "C10_covered_tail_refuted",
    "C10_chain_subtrahend_refuted",
    "C10_use_after_free_refuted",
    "C10_null_subtrahend_refuted"
   ],
   "note": "Subtraction proved for single subtrahends that are contiguous and under the side conditions in C10_subtract_partial; four _refuted theorems give inputs on which the code is wrong or reads freed memory."
  },
  {
   "property": "C11",
   "status": "proved",
   "theorems": [
    "C11_edit_distance_is_least",
    "C11_edit_distance_facts"
   ],
   "note": ""
  },
  {
   "property": "C12",
   "status": "proved",
   "theorems": [
    "C12_trim_left",
    "C12_trim_right",
    "C12_trim",
    "C12_trim_comments",
    "C12_strsplit",
    "C12_lowercase_letters",
    "C12_lowercase_idempotent",
    "C12_lowercasequote_outside",
    "C12_lowercasequote_inside",
    "C12_apostrophe_in_quotes_refuted"
   ],
   "note": "C12_apostrophe_in_quotes_refuted records that nested quote kinds are toggled independently."
  },
  {
   "property": "C13",
   "status": "proved",
   "theorems": [
    "C13_compound_name",
    "C13_assign",
    "C13_read_after_write",
    "C13_read"
   ],
   "note": "Value type V abstract with a deciding equality (so NaN, whose operator== is not reflexive, is outside). as<T> conversions are a parameter; expression evaluation during a read is not modelled."
  },
  {
   "property": "C14",
   "status": "proved",
   "theorems": [
    "C14_assign_refused",
    "C14_other_source_wins",
    "C14_force",
    "C14_force_value",
    "C14_withDefault",
    "C14_overrideDefault",
    "C14_isSet",
    "C14_assignRepeat"
   ],
   "note": "Same model as C13. Refusal conditions are exact (iff)."
  },
  {
   "property": "C15",
   "status": "proved",
   "theorems": [
    "C15_report",
    "C15_no_empty_sections",
    "C15_check"
   ],
   "note": "Attributes modelled: source, time_dimension, conditionally used."
  },
  {
   "property": "C16",
   "status": "proved",
   "theorems": [
    "C16_file_performs_document",
    "C16_file_values",
    "C16_file_accepted",
    "C16_malformed_rejected",
    "C16_any_text",
    "C16_commandline_performs",
    "C16_commandline_values",
    "C16_commandline_overrides",
    "C16_override_accepted",
    "C16_any_arguments",
    "C16_blanks_in_header_refuted",
    "C16_text_after_bracket_refuted",
    "C16_blank_before_colon_refuted"
   ],
   "note": "Proved for every document and layout, except that a single section name keeps blanks next to its brackets ([ a ] is the section ' a '), text after the closing bracket becomes part of the name, and on the command line a blank before ':' becomes part of the name: see the _refuted theorems; the positive statements cover the layouts without these."
  },
  {
   "property": "C17",
   "status": "proved",
   "theorems": [
    "C17_parse",
    "C17_unambiguous",
    "C17_minimal_brackets",
    "C17_str",
    "C17_terminates",
    "C17_exact",
    "C17_standard_operators"
   ],
   "note": "Stated for any extension of the operator table (wf_lang); std_wf shows the shipped operators meet it. C17_exact characterises everything the parser accepts."
  },
  {
   "property": "C18",
   "status": "partial",
   "theorems": [
    "C18_deterministic",
    "C18_lexes",
    "C18_implicit_times",
    "C18_leading_minus",
    "C18_minus_after_operator_refuted"
   ],
   "note": "Proved: tokenising is total and deterministic, numbers/names/escapes/implicit '*' lex as specified, a leading minus negates the following term. Missing because the code does not do it: a minus after another operator does not negate (C18_minus_after_operator_refuted: 2*-3 is (2*0)-3)."
  },
  {
   "property": "C19",
   "status": "proved",
   "theorems": [
    "C19_sum",
    "C19_sum_throws",
    "C19_context",
    "C19_context_only",
    "C19_scope",
    "C19_replace",
    "C19_resolved_names_see_definitions"
   ],
   "note": "What registered generators and resolved names compute is a parameter; C19_scope/C19_replace assume they evaluate arguments in the context they are evaluated in."
  },
  {
   "property": "C20",
   "status": "partial",
   "theorems": [
    "C20_rank_bijection",
    "C20_round_trips",
    "C20_unique_owner",
    "C20_global_y_partial",
    "C20_global_y_refuted"
   ],
   "note": "C20_global_y_partial: getGlobalYIndex is right when MYSUB > 2*MYG or off the processor just below the upper target; C20_global_y_refuted exhibits the wrong index otherwise. Everything else in the claim is proved in full."
  },
  {
   "property": "C21",
   "status": "partial",
   "theorems": [
    "C21_spec_symmetric",
    "C21_topology_succeeds",
    "C21_up_neighbour",
    "C21_down_neighbour",
    "C21_messages_match",
    "C21_twist_shift",
    "C21_periodic_iff_closed",
    "C21_unit_subdomain_refuted",
    "C21_one_leg_refuted"
   ],
   "note": "Proved for every regular separatrix description (non-degenerate legs, sub-domains of at least 2 points); C21_unit_subdomain_refuted and C21_one_leg_refuted show the claim fails for accepted descriptions outside it."
  },
  {
   "property": "C22",
   "status": "proved",
   "theorems": [
    "C22_pack_unpack"
   ],
   "note": ""
  },
  {
   "property": "C23",
   "status": "proved",
   "theorems": [
    "C23_split_valid",
    "C23_user_choice",
    "C23_automatic_optimal",
    "C23_rank_independent"
   ],
   "note": ""
  },
  {
   "property": "C24",
   "status": "proved",
   "theorems": [
    "C24_ordered",
    "C24_throws_iff",
    "C24_valid_unchanged",
    "C24_idempotent"
   ],
   "note": ""
  },
  {
   "property": "C25",
   "status": "proved",
   "theorems": [
    "C25_real_solution",
    "C25_complex_solution",
    "C25_no_undefined_behaviour",
    "C25_dominant_real",
    "C25_dominant_complex"
   ],
   "note": "Exact arithmetic (a field); real and complex instances. The pivots of back_solve are shown to be those checked in reduce."
  },
  {
   "property": "C26",
   "status": "proved",
   "theorems": [
    "C26_partition",
    "C26_offsets_agree",
    "C26_buffer_large_enough",
    "C26_gather",
    "C26_scatter"
   ],
   "note": ""
  },
  {
   "property": "C27",
   "status": "proved",
   "theorems": [
    "C27_invert3x3",
    "C27_zero_threshold_refuted",
    "C27_metric_inverse",
    "C27_jacobian"
   ],
   "note": "invert3x3 for every matrix and threshold except threshold 0 with determinant 0 (C27_zero_threshold_refuted)."
  },
  {
   "property": "C28",
   "status": "proved",
   "theorems": [
    "C28_derivatives_exact",
    "C28_advection_exact",
    "C28_flux_exact",
    "C28_degree_sharp",
    "C28_linear",
    "C28_advect_constant",
    "C28_mirror",
    "C28_one_guard"
   ],
   "note": "All registered schemes of index_derivs.cxx except SPLIT and FFT; exact reals. WENO exactness: CWENO2 degree 1, WENO3/CWENO3 degree 2. C28_degree_sharp shows the degrees cannot be raised."
  },
  {
   "property": "C29",
   "status": "proved",
   "theorems": [
    "C29_conservation_form",
    "C29_periodic_sum_zero"
   ],
   "note": ""
  },
  {
   "property": "C30",
   "status": "proved",
   "theorems": [
    "C30_limited_edges",
    "C30_consistent",
    "C30_tvd",
    "C30_Fromm_unlimited",
    "C30_MINMOD"
   ],
   "note": ""
  },
  {
   "property": "C31",
   "status": "partial",
   "theorems": [
    "C31_dirichlet",
    "C31_dirichlet_field2d",
    "C31_dirichlet_o3",
    "C31_dirichlet_o4",
    "C31_dirichlet_4thorder_refuted",
    "C31_4thorder_width1_out_of_bounds",
    "C31_neumann",
    "C31_neumann_o4",
    "C31_neumann_4thorder_refuted",
    "C31_free_o2",
    "C31_free_o3",
    "C31_constgradient",
    "C31_robin",
    "C31_neumannpar",
    "C31_width",
    "C31_relax_ddt",
    "C31_zero_ddt"
   ],
   "note": "dirichlet (2nd order, Field2D and Field3D), dirichlet_o3, dirichlet_o4, neumann, neumann_o4, free_o2, free_o3, constgradient, robin, neumannpar, width, relax and zero-ddt proved for every field, side, width and staggering; dirichlet_4thorder and neumann_4thorder refuted (wrong coefficients / wrong sign). Missing: NonOrthogonal and Laplace-type conditions, which need an FFT; toroidal, sheath conditions."
  },
  {
   "property": "C32",
   "status": "proved",
   "theorems": [
    "C32_layout",
    "C32_round_trip",
    "C32_length",
    "C32_region_sizes",
    "C32_global_index",
    "C32_split_rhs",
    "C32_second_solver_refuted"
   ],
   "note": "getLocalN is modelled with its static cache: the theorems cover the first solver of a process; C32_second_solver_refuted shows that a second solver with another layout gets the first one's size."
  },
  {
   "property": "C33",
   "status": "partial",
   "theorems": [
    "C33_periods_match_timesteps",
    "C33_called_when_period_elapsed",
    "C33_solve_schedule_partial",
    "C33_fast_monitor_refuted",
    "C33_default_monitor_timestep_refuted"
   ],
   "note": "Periods and call times proved in general; the whole of Solver::solve only when no monitor is faster than the output step. C33_fast_monitor_refuted: solve() ignores the finalised step count and length. C33_default_monitor_timestep_refuted: a default monitor is told the wrong timestep."
  },
  {
   "property": "C34",
   "status": "partial",
   "theorems": [
    "C34_dump_lists_pushed_messages",
    "C34_trace_scopes",
    "C34_normal_exit_restores",
    "C34_restored_on_every_exit_refuted"
   ],
   "note": "Dump and scope behaviour proved exactly; 'restored on every exit path' is false after a caught exception (C34_restored_on_every_exit_refuted). Single-threaded."
  },
  {
   "property": "C35",
   "status": "proved",
   "theorems": [
    "C35_steps_are_their_tableaus",
    "C35_method_deterministic",
    "C35_order_conditions",
    "C35_order_conditions_give_accuracy",
    "C35_exact_for_time_polynomials",
    "C35_euler_rk4_rk3ssp_accuracy",
    "C35_generic_is_its_tableau",
    "C35_generic_accuracy",
    "C35_error_estimate_order",
    "C35_any_tolerance_refuted"
   ],
   "note": "Full for the tableaus, the step functions and the local error of polynomial right hand sides, for absolute tolerance <= 1/40; C35_any_tolerance_refuted: RKScheme::setCurState drops tableau coefficients smaller than atol."
  },
  {
   "property": "C36",
   "status": "partial",
   "theorems": [
    "C36_bilinear",
    "C36_lagrange_cubic",
    "C36_lagrange_everywhere",
    "C36_lagrange_edge_refuted",
    "C36_spline",
    "C36_spline_basis",
    "C36_monotonic",
    "C36_zspline",
    "C36_weights",
    "C36_field",
    "C36_spline_fields_defined",
    "C36_field2d_partial",
    "C36_field2d_refuted",
    "C36_staggered"
   ],
   "note": "C36_lagrange_edge_refuted: in the first X cell the Lagrange scheme does not even reproduce linear fields. C36_field2d_refuted: interpolate(Field2D, delta_x) extrapolates for negative displacements and ignores them at the last point; C36_field2d_partial is what holds. Everything else in the statement is proved."
  },
  {
   "property": "C37",
   "status": "proved",
   "theorems": [
    "C37_round_trip",
    "C37_dot",
    "C37_cross",
    "C37_add"
   ],
   "note": "Exact reals; CELL_VSHIFT vectors (interpolated components) are not modelled."
  },
  {
   "property": "C38",
   "status": "proved",
   "theorems": [
    "C38_timer_totals"
   ],
   "note": ""
  },
  {
   "property": "C39",
   "status": "proved",
   "theorems": [
    "C39_flattened_keys"
   ],
   "note": ""
  },
  {
   "property": "C40",
   "status": "proved",
   "theorems": [
    "C40_Div_par_flux_form",
    "C40_Div_par_periodic",
    "C40_Div_par_decomposition",
    "C40_Div_par_consistent"
   ],
   "note": ""
  },
  {
   "property": "C41",
   "status": "proved",
   "theorems": [
    "C41_K_Grad_par_flux_form",
    "C41_K_Grad_par_conserves_and_dissipates",
    "C41_K_Grad_par_decomposition",
    "C41_K_Grad_par_uniform"
   ],
   "note": ""
  },
  {
   "property": "C42",
   "status": "proved",
   "theorems": [
    "C42_Div_a_Grad_perp_X_flux_form",
    "C42_conserves_and_decomposes"
   ],
   "note": "X fluxes only; the Y-Z fluxes of Div_a_Grad_perp are not modelled."
  },
  {
   "property": "C43",
   "status": "partial",
   "theorems": [
    "C43_D4DY4_conserves",
    "C43_D4DY4_decomposition",
    "C43_D4DY4_uniform",
    "C43_D4DY4_consistent_refuted",
    "C43_D4DY4_Index_decomposition_refuted",
    "C43_D4DY4_Index_consistent_refuted",
    "C43_D4DY4_Index_boundary_flux"
   ],
   "note": "D4DY4: conservation and decomposition independence proved, but D4DY4_consistent_refuted: it is twice d f''''. D4DY4_Index: refuted (inner faces counted twice, processor-boundary faces once; boundary flux has the wrong sign)."
  },
  {
   "property": "C44",
   "status": "partial",
   "theorems": [
    "C44_Div_Perp_Lap_uniform",
    "C44_Div_Perp_Lap_refuted"
   ],
   "note": "Refuted: the flux through the lower z face is added instead of subtracted; C44_Div_Perp_Lap_uniform says what is computed."
  },
  {
   "property": "C45",
   "status": "partial",
   "theorems": [
    "C45_christoffel_partial",
    "C45_G2_22",
    "C45_christoffel_refuted",
    "C45_V_dot_Grad"
   ],
   "note": "C45_christoffel_partial covers 17 of 18 coefficients; G2_22 differentiates g^23 instead of g_23 (C45_christoffel_refuted, C45_G2_22 gives the exact condition)."
  },
  {
   "property": "C46",
   "status": "proved",
   "theorems": [
    "C46_curl_grad_div_curl",
    "C46_central_differences",
    "C46_needs_separable_spacing",
    "C46_laplace"
   ],
   "note": ""
  },
  {
   "property": "C47",
   "status": "proved",
   "theorems": [
    "C47_exchange",
    "C47_order_independent",
    "C47_communicate"
   ],
   "note": "For scalar fields without twist-shift interpolation (shiftZ in wait is not modelled) on regular topologies (see C21)."
  },
  {
   "property": "C48",
   "status": "proved",
   "theorems": [
    "C48_all_guard_cells_once",
    "C48_nested_loops",
    "C48_innermost_cells",
    "C48_construction"
   ],
   "note": ""
  },
  {
   "property": "C49",
   "status": "proved",
   "theorems": [
    "C49_rk4_adaptive",
    "C49_rk4_fixed",
    "C49_rkgeneric_adaptive",
    "C49_rkgeneric_fixed",
    "C49_rk3ssp",
    "C49_rk3ssp_terminates",
    "C49_euler",
    "C49_counted_loops_end",
    "C49_splitrk_every_step",
    "C49_splitrk_fixed",
    "C49_splitrk_period_refuted"
   ],
   "note": "C49_splitrk_period_refuted: SplitRK with adapt_period > 1 advances the state by timestep when the clock advances by the truncated dt (split-rk.cxx:174)."
  },
  {
   "property": "C50",
   "status": "proved",
   "theorems": [
    "C50_coefficients_exact",
    "C50_step_exact",
    "C50_history",
    "C50_history_content",
    "C50_order_nine_refuted"
   ],
   "note": "C50_order_nine_refuted: orders above 8 are accepted but the coefficients are not consistent."
  },
  {
   "property": "C51",
   "status": "partial",
   "theorems": [
    "C51_second_order",
    "C51_is_runge_kutta",
    "C51_steady_state",
    "C51_time_dependent_refuted"
   ],
   "note": "Proved for autonomous right hand sides; C51_time_dependent_refuted: with explicit time dependence the stage times are wrong and the order drops"
  },
  {
   "property": "C52",
   "status": "proved",
   "theorems": [
    "C52_arakawa",
    "C52_antisymmetric",
    "C52_self",
    "C52_cyclic",
    "C52_conserves",
    "C52_field2d",
    "C52_order",
    "C52_one_z_point_refuted"
   ],
   "note": "Real arithmetic; regions and metric symbolic; single-z-point Field2D case refuted separately"
  },
  {
   "property": "C53",
   "status": "proved",
   "theorems": [
    "C53_ctu_maximum_principle",
    "C53_ctu_linear",
    "C53_ctu_field2d"
   ],
   "note": "One explicit Euler step, real arithmetic"
  },
  {
   "property": "C54",
   "status": "proved",
   "theorems": [
    "C54_lookup",
    "C54_terminates",
    "C54_defined",
    "C54_sound",
    "C54_circular",
    "C54_undefined",
    "C54_two_sections_refuted"
   ],
   "note": "max_recursion_depth = 0; syntax is a parameter of the theorems; names with two or more section separators refuted (C54_two_sections_refuted)"
  },
  {
   "property": "C55",
   "status": "proved",
   "theorems": [
    "C55_history",
    "C55_exception_refuted",
    "C55_section_refuted",
    "C55_changed_refuted",
    "C55_rejected_refuted",
    "C55_default_section_refuted"
   ],
   "note": "histories without exceptions; five refutations show what fails after exceptions, changed options and with section factories"
  },
  {
   "property": "C56",
   "status": "proved",
   "theorems": [
    "C56_inverse",
    "C56_forward",
    "C56_every_row",
    "C56_coefficients",
    "C56_energy",
    "C56_history"
   ],
   "note": "FFTW itself is modelled by its documentation (r2c, c2r). Serial code path; the OpenMP variant of the plan cache is not modelled."
  },
  {
   "property": "C57",
   "status": "proved",
   "theorems": [
    "C57_filter",
    "C57_filter_out_of_range",
    "C57_lowPass",
    "C57_dc",
    "C57_lowPass_idempotent",
    "C57_negative_zmax_refuted"
   ],
   "note": "Negative zmax without the zonal mode behaves differently (C57_negative_zmax_refuted): -1 removes everything, below -1 the code writes before its array."
  },
  {
   "property": "C58",
   "status": "proved",
   "theorems": [
    "C58_shift",
    "C58_whole_cells",
    "C58_shifts_add",
    "C58_to_from_aligned",
    "C58_from_to_aligned",
    "C58_aligned_value",
    "C58_parallel_slices",
    "C58_highest_mode_refuted"
   ],
   "note": "Rows with the highest mode of an even number of points are excluded from the inverse and additivity statements and C58_highest_mode_refuted shows why; the shift theorem itself covers them."
  },
  {
   "property": "C59",
   "status": "proved",
   "theorems": [
    "C59_ddz",
    "C59_no_filter",
    "C59_filter_fraction",
    "C59_d2dz2",
    "C59_twice_refuted"
   ],
   "note": "The highest mode of an even number of points is dropped by the first derivative but not by the second (C59_twice_refuted)."
  },
  {
   "property": "C60",
   "status": "partial",
   "theorems": [
    "C60_interior",
    "C60_interior_any_mode",
    "C60_inner_dc_dirichlet",
    "C60_inner_dc_gradient",
    "C60_inner_dc_decay",
    "C60_inner_dc_gradpar",
    "C60_inner_ac_dirichlet",
    "C60_inner_ac_gradient",
    "C60_inner_ac_decay",
    "C60_cylinder",
    "C60_outer_dc_dirichlet_partial",
    "C60_outer_ac_dirichlet",
    "C60_outer_zero_gradient",
    "C60_outer_gradient_partial",
    "C60_outer_ac_decay",
    "C60_gradpar_refuted",
    "C60_outer_dc_flags_refuted",
    "C60_outer_gradient_refuted"
   ],
   "note": "Proved: equation at every interior point; all inner conditions; outer Dirichlet/zero gradient/decay. Partial: outer conditions of the z average only when the inner flags GRADPAR/GRADPARINV/LAP are off, imposed outer gradient only on one processor; refuted otherwise (C60_gradpar_refuted: read past the end of the array; C60_outer_dc_flags_refuted; C60_outer_gradient_refuted)."
  },
  {
   "property": "C61",
   "status": "proved",
   "theorems": [
    "C61_formula",
    "C61_inverse"
   ],
   "note": "Formula for all metrics; inverse on every processor and non-guard point."
  },
  {
   "property": "C62",
   "status": "proved",
   "theorems": [
    "C62_zero_laplacian",
    "C62_refused"
   ],
   "note": "With the non-zero leading coefficient as hypothesis (the code divides by it)."
  },
  {
   "property": "C63",
   "status": "partial",
   "theorems": [
    "C63_zero_mean",
    "C63_equation",
    "C63_uniform",
    "C63_helmholtz_refuted"
   ],
   "note": "Proved for A = 0; refuted for A <> 0 (C63_helmholtz_refuted): the mean is removed although the equation determines it."
  },
  {
   "property": "C64",
   "status": "proved",
   "theorems": [
    "C64_written_reads_back",
    "C64_reached_trees",
    "C64_values_survive",
    "C64_unsavable_refuted"
   ],
   "note": "Theorems over the formatter and the reader of C16. Names and texts must be writable (savable); C64_unsavable_refuted shows trees that are not, e.g. a line break in a doc string creates a new option, and a value with ';' is cut. Real numbers are written with six digits (std::stringstream), so only their text survives; C64_values_survive excludes them."
  },
  {
   "property": "C65",
   "status": "proved",
   "theorems": [
    "C65_integers",
    "C65_not_integers",
    "C65_overflow_refuted",
    "C65_expressions",
    "C65_integer_text",
    "C65_flags",
    "C65_text"
   ],
   "note": "Over exact reals; the parser is that of C17-C19. C65_overflow_refuted: out of range conversion is undefined behaviour, not an exception."
  },
  {
   "property": "C66",
   "status": "partial",
   "theorems": [
    "C66_lower_upper",
    "C66_inner_outer",
    "C66_narrow_corner_refuted",
    "C66_connected_corner_refuted"
   ],
   "note": "Proved for loaded regular meshes. With include_corner_cells the corner columns are characterised exactly, but they are not always the columns whose lines leave: two refutations (single interior column; separatrix along the inner edge)."
  },
  {
   "property": "C67",
   "status": "partial",
   "theorems": [
    "C67_membership",
    "C67_disjoint",
    "C67_x_before_y",
    "C67_corners_excluded_refuted",
    "C67_possible_sound",
    "C67_possible_complete_partial",
    "C67_possible_refuted"
   ],
   "note": "Membership (with label), disjointness, order, soundness of getPossibleBoundaries proved for all loaded regular meshes; completeness of getPossibleBoundaries under a hypothesis, refuted for limiter geometry on several x and y processors; corners without include_corner_cells refuted."
  },
  {
   "property": "C68",
   "status": "proved",
   "theorems": [
    "C68_standard_regions"
   ],
   "note": "All 22 standard 3D regions; 2D is the instance nz = 1."
  },
  {
   "property": "C69",
   "status": "proved",
   "theorems": [
    "C69_ycomm",
    "C69_agree",
    "C69_xcomm",
    "C69_line_ends"
   ],
   "note": "For regular grids (C21). Communicators as lists of world ranks; MPI group operations as specified by MPI."
  },
  {
   "property": "C70",
   "status": "partial",
   "theorems": [
    "C70_ysize_partial",
    "C70_ysize_refuted"
   ],
   "note": "Proved outside both separatrices, in the core up to the first upper cut, and between the separatrices when the lower one is outside. C70_ysize_refuted gives the others: private flux regions and lines between the separatrices are counted one too long, the upper private flux region is not recognised, and the core of a single null past jyseps2_1 gives 0."
  },
  {
   "property": "C71",
   "status": "partial",
   "theorems": [
    "C71_constructed",
    "C71_numbering",
    "C71_initialise",
    "C71_kept",
    "C71_settled",
    "C71_corner_refuted"
   ],
   "note": "All of the statement for every stencil that fits the guard cells, except that numbered corner cells keep their number only in a non periodic x direction and where their own line leaves (C71_kept; always without corner cells or with the star stencil, C71_settled); the exception is a bug (C71_corner_refuted). FieldPerp indexers and PETSc are not modelled."
  },
  {
   "property": "C72",
   "status": "proved",
   "theorems": [
    "C72_inverse",
    "C72_sparsity",
    "C72_stencils"
   ],
   "note": "C72_inverse for every stencil; C72_sparsity for an interior stencil plus identity elsewhere (squareStencil, starStencil) where numbered cells keep their numbers (settled, C71). FieldPerp not modelled."
  },
  {
   "property": "C73",
   "status": "partial",
   "theorems": [
    "C73_understood",
    "C73_parallel",
    "C73_unknown",
    "C73_none",
    "C73_nested_keywords_refuted",
    "C73_parallel_modifier_refuted"
   ],
   "note": "Settings with keywords inside of a modified condition are excluded (no_nested_keywords): the code has undefined behaviour there (C73_nested_keywords_refuted). Modifiers on parallel boundaries are refuted."
  },
  {
   "property": "C74",
   "status": "partial",
   "theorems": [
    "C74_lookup",
    "C74_setBoundary",
    "C74_marked",
    "C74_marked_refuted"
   ],
   "note": "Marking as conditionally used is proved for perpendicular regions; the keys of parallel regions are not marked by the code (C74_marked_refuted)."
  },
  {
   "property": "C75",
   "status": "partial",
   "theorems": [
    "C75_field2d",
    "C75_field3d",
    "C75_target_rows",
    "C75_other",
    "C75_xguards_refuted",
    "C75_yguards_refuted",
    "C75_ny_inner_refuted",
    "C75_2d_for_3d_refuted"
   ],
   "note": "Proved for the file sizes the mesh expects (nx columns, ny rows or GlobalNy rows with y_boundary_guards = MYG) and ny_inner in the file for double null with boundary rows; the other sizes the code means to support are refuted. FieldPerp and the FFT format are not modelled."
  },
  {
   "property": "C76",
   "status": "partial",
   "theorems": [
    "C76_present",
    "C76_missing_partial",
    "C76_missing_string",
    "C76_missing_refuted",
    "C76_fft_refuted",
    "C76_vector",
    "C76_vector_missing"
   ],
   "note": "Missing numbers: proved for the first request of a name; refuted for later requests (C76_missing_refuted)."
  },
  {
   "property": "C77",
   "status": "partial",
   "theorems": [
    "C77_min",
    "C77_max",
    "C77_mean",
    "C77_decomposition",
    "C77_uniform_local",
    "C77_uniform_allpe_refuted",
    "C77_empty_region_refuted"
   ],
   "note": "min, max, mean proved for every region, thread schedule and rank order, and on the default region equal to those of the whole grid for every decomposition. isUniform/getUniform proved on one rank; over all ranks refuted (MPI_LOR); min/max on a region that is empty on a rank refuted (undefined behaviour). Floating point rounding is not modelled."
  },
  {
   "property": "C78",
   "status": "partial",
   "theorems": [
    "C78_averageX",
    "C78_averageY",
    "C78_average_xy",
    "C78_vol_integral",
    "C78_branch_cut_refuted"
   ],
   "note": "averageX proved for every topology; averageY along the line wherever no separatrix is between the point and the first column of its processor; Average_XY and Vol_Integral on grids without X-points. Beyond a separatrix refuted on a concrete grid."
  },
  {
   "property": "C79",
   "status": "proved",
   "theorems": [
    "C79_filter",
    "C79_extremum_remains_refuted"
   ],
   "note": "Proved for all lengths, values and weights; also shown (C79_extremum_remains_refuted) that one pass need not remove all extrema, which the property does not claim."
  },
  {
   "property": "C80",
   "status": "partial",
   "theorems": [
    "C80_operations_act_on_values",
    "C80_isolation",
    "C80_sharing_irrelevant",
    "C80_writable_after",
    "C80_own_slice_refuted",
    "C80_shared_write_refuted"
   ],
   "note": "Every history over Field3D objects with slices and time derivatives. Not modelled: ddt of ddt, slices of slices, mesh/location metadata, non-finite checks. Refuted for sources that are parallel slices of the target, and for single-element writes through shared data."
  },
  {
   "property": "C81",
   "status": "proved",
   "theorems": [
    "C81_gather",
    "C81_partition",
    "C81_decomposition",
    "C81_scatter",
    "C81_roundtrip",
    "C81_bad_processor",
    "C81_guard_refuted"
   ],
   "note": "Messages are delivered unchanged (MPI is trusted); the order in which they are reported is arbitrary. GlobalField2D is the case nz = 1."
  },
  {
   "property": "C82",
   "status": "proved",
   "theorems": [
    "C82_solves",
    "C82_one_processor",
    "C82_guard_coefficient_refuted",
    "C82_zero_pivot_refuted"
   ],
   "note": "Exact arithmetic; the fields of tridagMatrix are inputs (LaplaceModel); the concurrent schedule of several slices is C83."
  },
  {
   "property": "C83",
   "status": "proved",
   "theorems": [
    "C83_field3d",
    "C83_fieldperp",
    "C83_solution"
   ],
   "note": "All executions of the schedule with asynchronous messages (computations as parameters, then those of C82). MPI is modelled: per sender, receiver and tag queues in order; sends that block until the receive is posted or return at once."
  },
  {
   "property": "C84",
   "status": "proved",
   "theorems": [
    "C84_understood",
    "C84_all_arguments",
    "C84_help",
    "C84_settings",
    "C84_files_agree",
    "C84_long_form_refuted",
    "C84_overwrites_input_refuted",
    "C84_empty_value_refuted",
    "C84_documented_switch_refuted"
   ],
   "note": "All argument lists, any order; help words; settings performed in order; files agree when chosen by switches. Refuted companions: datadir=dir does not change where input is read; settingsfile=BOUT.inp as a setting overwrites the input file unchecked; an empty value after a switch; the documented --list-laplacexz. MPI, logging and exit codes not modelled."
  },
  {
   "property": "C85",
   "status": "proved",
   "theorems": [
    "C85_solves",
    "C85_solves_real",
    "C85_field3d",
    "C85_fieldperp_refuted"
   ],
   "note": "All executions, all powers of two. Exact arithmetic in a field (complex and real instances); systems dominated by the diagonal. The assembly of the matrix (C22) and the transforms in z are separate models; periodic X is not modelled. C85_fieldperp_refuted: solve(FieldPerp) uses nsys of the last Field3D solve."
  },
  {
   "property": "C86",
   "status": "partial",
   "theorems": [
    "C86_slices",
    "C86_splines",
    "C86_missing",
    "C86_regions",
    "C86_dirichlet",
    "C86_neumann",
    "C86_dirichlet_o3",
    "C86_two_slices_refuted",
    "C86_o3_short_line_refuted",
    "C86_interp_refuted",
    "C86_region_name_refuted"
   ],
   "note": "Slices: proved for any number of slices and any interpolation. Regions and conditions (parallel_dirichlet, parallel_neumann, parallel_dirichlet_O3 for lines that leave in one direction only): proved for one slice in each direction. Refuted: two slices, O3 on lines that leave both ways, parallel_dirichlet_interp, conditions by region name. One processor in x; FCIMap::integrate not modelled."
  },
  {
   "property": "C87",
   "status": "partial",
   "theorems": [
    "C87_order",
    "C87_history",
    "C87_formula_partial",
    "C87_tiling",
    "C87_terminates",
    "C87_fixed_steps",
    "C87_internal_steps",
    "C87_stale_refuted",
    "C87_remainder_refuted",
    "C87_order_one_refuted",
    "C87_quadratic_predictor_refuted"
   ],
   "note": "Coefficients of orders 1-4 proved exact; every accepted step is shown to use them, for non-adaptive runs, nadapt=1, or runs without failed solves (C87_formula_partial); the remaining case is false in the code (C87_stale_refuted). Tiling, bounds, history, termination and memory safety proved without that restriction; maxOrder=1, predictor=2 with maxOrder=2, and a short remainder step are counterexamples."
  },
  {
   "property": "C88",
   "status": "proved",
   "theorems": [
    "C88_equation",
    "C88_equation_up_to_highest_mode",
    "C88_boundary",
    "C88_solvable"
   ],
   "note": "All surfaces, coefficients, processor counts, message orders. Exact arithmetic. One flux surface at a time (they are independent in the code); metrics without z dependence; coefficients real; zero pivots are excluded by hypothesis (C88_solvable gives sufficient conditions on closed surfaces). For right hand sides with the highest mode of an even nz the equation holds in all other modes."
  },
  {
   "property": "C89",
   "status": "proved",
   "theorems": [
    "C89_equation",
    "C89_equation_up_to_highest_mode",
    "C89_same_operator",
    "C89_conserves",
    "C89_boundary",
    "C89_solvable"
   ],
   "note": "As C88. C89_same_operator relates the inverted operator to the model of FV::Div_par_K_Grad_par; C89_conserves needs no condition on the highest mode."
  },
  {
   "property": "C90",
   "status": "partial",
   "theorems": [
    "C90_history",
    "C90_all_written",
    "C90_no_throw",
    "C90_bool_record_refuted",
    "C90_index_attribute_refuted"
   ],
   "note": "Proved for all histories: C90_history, C90_all_written, C90_no_throw. Two cases of the statement are false of the code and refuted: records of booleans are junk (NcPutVarCountVisitor has no bool specialisation: the address of the bool goes to putVar(start, const void*), which reads an int), and an option carrying the attribute current_time_index (as options read from a file do) overwrites the same record; the theorems exclude both (record_element, entry_ok). The NetCDF library is a trusted model."
  },
  {
   "property": "C91",
   "status": "partial",
   "theorems": [
    "C91_silent",
    "C91_lagging_partial",
    "C91_first_refuted"
   ],
   "note": "Silence for complete histories is proved (C91_silent). The converse holds for all variables but the alphabetically first of each time dimension in each group (C91_lagging_partial); for that one it is false of the code: the first variable only registers the dimension and is never compared (C91_first_refuted)."
  },
  {
   "property": "C92",
   "status": "partial",
   "theorems": [
    "C92_plain",
    "C92_series",
    "C92_complete_series",
    "C92_series_attributes",
    "C92_series_refuted",
    "C92_lost_series"
   ],
   "note": "Proved for values without time dimension and for series of reals and two-dimensional fields; series of integers, booleans and three-dimensional fields are silently not read and series of strings make the reading fail (C92_lost_series, C92_series_refuted)."
  },
  {
   "property": "C93",
   "status": "partial",
   "theorems": [
    "C93_equation",
    "C93_boundary",
    "C93_boundary_value",
    "C93_terminates",
    "C93_constant",
    "C93_converges",
    "C93_mean",
    "C93_reset_refuted"
   ],
   "note": "Equation, boundary values, termination, constant coefficients, convergence and mean proved; resetMeanIterations does not reset the number of calls, so the mean after a reset is wrong (refuted). Not covered: integrated shear (DDX would add the shear), domains periodic in x, maxmode below nz/2 (the modes removed are not seen by the error), flags INVERT_RHS (boundary rows of the right hand side are what DDX leaves there)."
  },
  {
   "property": "C94",
   "status": "partial",
   "theorems": [
    "C94_equation",
    "C94_inner_dc",
    "C94_inner_ac",
    "C94_outer_dc",
    "C94_outer_ac",
    "C94_determined",
    "C94_outer_set_refuted"
   ],
   "note": "Proved for everything returned, from ellipticity and definiteness alone (the systems of all modes are shown non-singular by a discrete maximum principle). The English claim fails at the outer boundary: the value or gradient asked for with the flags SET or RHS is computed and then overwritten with zero (C94_outer_set_refuted); C94_outer_dc/ac state what holds instead. Not proved: that a result is always returned (no pivot below 1e-10). The mixed metric component g_xz, which the code drops, does not occur."
  },
  {
   "property": "C95",
   "status": "partial",
   "theorems": [
    "C95_equations",
    "C95_equations_averaged",
    "C95_conserves",
    "C95_conserves_closed",
    "C95_weights",
    "C95_spitzer",
    "C95_runs"
   ],
   "note": "Proved: equations of the groups and of the result, conservation, weights, Spitzer conductivity, termination on closed surfaces. Missing: shifted-metric transform (identity only); real arithmetic; with z-dependent profiles only the equations with averaged coefficients (C95_equations_averaged: there the result is not a divergence). Termination on open surfaces is not proved; the solver is that of C89."
  },
  {
   "property": "C96",
   "status": "partial",
   "theorems": [
    "C96_pade0",
    "C96_pade1",
    "C96_pade1_Field2D",
    "C96_pade2",
    "C96_pade2_kinds",
    "C96_taylor",
    "C96_boundary",
    "C96_shear",
    "C96_history",
    "C96_coefficients_left"
   ],
   "note": "Cyclic Laplacian only, used through its properties of C60; one y index at a time; the boundary condition at the end of gyroPade2 is a parameter that leaves the domain unchanged; default options except in C96_shear; with an even number of z points the mixed terms g13 and G3 are zero (highest frequency). Rounding not modelled."
  },
  {
   "property": "C97",
   "status": "proved",
   "theorems": [
    "C97_global",
    "C97_step",
    "C97_positions",
    "C97_mirror",
    "C97_mirror_refuted",
    "C97_mask_x_refuted",
    "C97_buff_x",
    "C97_tanh",
    "C97_tanh_refuted"
   ],
   "note": "Exact arithmetic (overflow of the exponential modelled in C97_tanh and C97_tanh_refuted); the exchange of guard cells in y, which copies values at the same x, is left out."
  },
  {
   "property": "C98",
   "status": "proved",
   "theorems": [
    "C98_smooth_x",
    "C98_smooth_y",
    "C98_filter",
    "C98_smoothXY",
    "C98_smoothXY_range",
    "C98_smoothXY_waves",
    "C98_smoothXY_set",
    "C98_smoothXY_refuted"
   ],
   "note": "Exact arithmetic; for smooth_y the processors along y form one open or closed line and the parallel slices of the argument are given."
  },
  {
   "property": "C99",
   "status": "proved",
   "theorems": [
    "C99_ballooning",
    "C99_ballooning_turn",
    "C99_ballooning_refuted",
    "C99_random",
    "C99_mixmode",
    "C99_mixmode_periodic",
    "C99_TanhHat",
    "C99_gauss",
    "C99_heaviside",
    "C99_round"
   ],
   "note": "Exact arithmetic, conversions to int in range; arguments that throw and the counting of arguments are left out (C17). round() and ROUND for results that are not negative."
  }
 ]
}