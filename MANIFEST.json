{
 "claims": [
  {
   "property": "C01",
   "status": "proved",
   "theorems": [
    "C01_deriv_forward_agree",
    "C01_deriv_back_agree",
    "C01_curl_forward_agree",
    "C01_curl_back_agree"
   ],
   "note": ""
  },
  {
   "property": "C02",
   "status": "proved",
   "theorems": [
    "C02_unvec_vec",
    "C02_vec_unvec",
    "C02_layout",
    "C02_unvec_errors",
    "C02_none"
   ],
   "note": ""
  },
  {
   "property": "C03",
   "status": "proved",
   "theorems": [
    "C03_shift_circ_is_roll",
    "C03_shift_circ_raises",
    "C03_shift_circ_group"
   ],
   "note": ""
  },
  {
   "property": "C04",
   "status": "proved",
   "theorems": [
    "C04_shift_with_mirror",
    "C04_one_entry_per_row",
    "C04_shift_with_mirror_raises"
   ],
   "note": ""
  },
  {
   "property": "C05",
   "status": "proved",
   "theorems": [
    "C05_div_curl",
    "C05_curl_grad"
   ],
   "note": ""
  },
  {
   "property": "C06",
   "status": "proved",
   "theorems": [
    "C06_summation_by_parts",
    "C06_curl_adjoint"
   ],
   "note": ""
  },
  {
   "property": "C07",
   "status": "proved",
   "theorems": [
    "C07_curl_parts",
    "C07_parts_are_single_terms"
   ],
   "note": ""
  },
  {
   "property": "C08",
   "status": "proved",
   "theorems": [
    "C08_avg",
    "C08_avg_constants_and_sums"
   ],
   "note": ""
  },
  {
   "property": "C09",
   "status": "proved",
   "theorems": [
    "C09_vec_cross",
    "C09_vec_cross_laws",
    "C09_cross_blocks"
   ],
   "note": ""
  },
  {
   "property": "C10",
   "status": "proved",
   "theorems": [
    "C10_charge_run",
    "C10_charge_source_free",
    "C10_charge_current"
   ],
   "note": ""
  },
  {
   "property": "C11",
   "status": "proved",
   "theorems": [
    "C11_poynting_h_to_e",
    "C11_poynting_e_to_h",
    "C11_poynting_yee"
   ],
   "note": ""
  },
  {
   "property": "C12",
   "status": "proved",
   "theorems": [
    "C12_energy_run",
    "C12_energy_conserved",
    "C12_energy_run_yee"
   ],
   "note": ""
  },
  {
   "property": "C13",
   "status": "proved",
   "theorems": [
    "C13_delta_energy"
   ],
   "note": ""
  },
  {
   "property": "C14",
   "status": "proved",
   "theorems": [
    "C14_total_flux_zero",
    "C14_region_flux",
    "C14_divergence_entry_points"
   ],
   "note": ""
  },
  {
   "property": "C15",
   "status": "proved",
   "theorems": [
    "C15_reverse_run",
    "C15_retrace"
   ],
   "note": ""
  },
  {
   "property": "C16",
   "status": "proved",
   "theorems": [
    "C16_superposition",
    "C16_domain_of_dependence"
   ],
   "note": ""
  },
  {
   "property": "C17",
   "status": "proved",
   "theorems": [
    "C17_stable"
   ],
   "note": "Reals. Strict inequality is needed (C53)."
  },
  {
   "property": "C18",
   "status": "proved",
   "theorems": [
    "C18_no_layers_run",
    "C18_no_layers_update",
    "C18_no_layers_default_mu"
   ],
   "note": "Proved for equal E/H widths; the unequal case is false (C54)."
  },
  {
   "property": "C19",
   "status": "proved",
   "theorems": [
    "C19_outside_plain",
    "C19_outside_run",
    "C19_inside_convolution_E",
    "C19_inside_convolution_H"
   ],
   "note": "Proved per step and along runs outside layers, and as the explicit convolution inside."
  },
  {
   "property": "C20",
   "status": "proved",
   "theorems": [
    "C20_raises_iff",
    "C20_ranges",
    "C20_profile",
    "C20_mirrored",
    "C20_graded"
   ],
   "note": "Reals; p0/p1 grading is stated for cfs_alpha = 0 (with a CFS term it is not monotone in general)."
  },
  {
   "property": "C21",
   "status": "proved",
   "theorems": [
    "C21_raises_iff",
    "C21_low_side",
    "C21_high_side"
   ],
   "note": "Under tuple-like list indexing (numpy < 1.23); see C55 for numpy >= 2."
  },
  {
   "property": "C22",
   "status": "proved",
   "theorems": [
    "C22_delay_whole_periods",
    "C22_delay_least",
    "C22_shape",
    "C22_turn_on",
    "C22_peak_at_delay",
    "C22_one_sided_monotone",
    "C22_carrier"
   ],
   "note": "Reals; one-sided monotonicity under peak <= 1 (C57 otherwise)."
  },
  {
   "property": "C23",
   "status": "proved",
   "theorems": [
    "C23_operators_e_full",
    "C23_functional_e_full",
    "C23_eh_full",
    "C23_e2h",
    "C23_tfsf",
    "C23_poynting"
   ],
   "note": "The pairs that agree, each for all inputs; the pairs that do not are C59, C60, C61."
  },
  {
   "property": "C24",
   "status": "proved",
   "theorems": [
    "C24_preconditioned_symmetric",
    "C24_preconditioned_symmetric_complex"
   ],
   "note": "Any square root of the cell volumes; complex instance with the principal square root has no such hypothesis (stdlib reals)."
  },
  {
   "property": "C25",
   "status": "proved",
   "theorems": [
    "C25_eh_iff_e",
    "C25_eh_iff_h"
   ],
   "note": "With masks: the equivalence on the masked subspace, both eliminations."
  },
  {
   "property": "C26",
   "status": "proved",
   "theorems": [
    "C26_operators_m2j",
    "C26_operators_m2j_converse"
   ],
   "note": "Both directions for operators.m2j; functional.m2j is refuted in C60."
  },
  {
   "property": "C27",
   "status": "proved",
   "theorems": [
    "C27_masked_entries_zero",
    "C27_eh_masked_entries_zero",
    "C27_unmasked_rows",
    "C27_masked_E_irrelevant"
   ],
   "note": "Row/column zero entries, unmasked rows, and irrelevance of masked components."
  },
  {
   "property": "C28",
   "status": "proved",
   "theorems": [
    "C28_poynting_agree"
   ],
   "note": "All three implementations."
  },
  {
   "property": "C29",
   "status": "proved",
   "theorems": [
    "C29_masked_field_is_solution",
    "C29_no_current_inside",
    "C29_constant_mask"
   ],
   "note": "Matrix version; functional without mu equals it by C23."
  },
  {
   "property": "C30",
   "status": "proved",
   "theorems": [
    "C30_boundary_source_rows"
   ],
   "note": "Row-exact, and the constructor never raises on 3D shapes."
  },
  {
   "property": "C31",
   "status": "proved",
   "theorems": [
    "C31_generic_solves",
    "C31_generic_solves_adjoint",
    "C31_guess_reaches_solver",
    "C31_options_untouched_without_guess"
   ],
   "note": "Solver is a variable with exactness hypothesis; adjoint under the hypothesis that .H exists (C64)."
  },
  {
   "property": "C32",
   "status": "proved",
   "theorems": [
    "C32_widths",
    "C32_shape",
    "C32_prepare_s_function"
   ],
   "note": "Reals. Width formulas for 2*th <= n; symmetry, unit real part and growth for every th."
  },
  {
   "property": "C33",
   "status": "proved",
   "theorems": [
    "C33_stretch",
    "C33_real_part",
    "C33_edge_cases"
   ],
   "note": "Any complex field; in exact arithmetic. The division by zero at thickness 0 is an explicit outcome of the model."
  },
  {
   "property": "C34",
   "status": "proved",
   "theorems": [
    "C34_commute"
   ],
   "note": "Any complex field, any two s functions."
  },
  {
   "property": "C35",
   "status": "proved",
   "theorems": [
    "C35_uniform_vs_stretch"
   ],
   "note": "Complex numbers over the reals."
  },
  {
   "property": "C36",
   "status": "proved",
   "theorems": [
    "C36_eigenvector_gives_mode",
    "C36_consistent_e2h_h2e_and_errors"
   ],
   "note": "Any complex field (conjugation not needed). e_err/h_err are modelled up to the norm: the residual vector is zero."
  },
  {
   "property": "C37",
   "status": "proved",
   "theorems": [
    "C37_eigenvector_gives_mode",
    "C37_mode_solves_both_eigenproblems",
    "C37_same_wavenumbers"
   ],
   "note": "Any complex field."
  },
  {
   "property": "C38",
   "status": "proved",
   "theorems": [
    "C38_operators_adjoint",
    "C38_left_eigenvector",
    "C38_modes_orthogonal",
    "C38_inner_product_is_half_flux",
    "C38_inner_product_orthogonal"
   ],
   "note": "Any complex field, any non-zero (also complex) widths for the flux form."
  },
  {
   "property": "C39",
   "status": "proved",
   "theorems": [
    "C39_unit_power",
    "C39_common_factor_and_sign",
    "C39_raises",
    "C39_scale_invariant",
    "C39_normalized_mode",
    "C39_normalized_mode_h",
    "C39_e_and_h_agree"
   ],
   "note": "Over the complex numbers (pairs of reals). inner_product with trapezoid=False. exp(-i*angle) is written as conj(z)/|z|. C39_normalized_mode_h and C39_e_and_h_agree: the same for normalized_fields_h."
  },
  {
   "property": "C40",
   "status": "proved",
   "theorems": [
    "C40_sensitivity_is_derivative",
    "C40_single_entry_derivative",
    "C40_normalized_fields"
   ],
   "note": "Restricted to uniform grids: the expected claim on all grids is false (C70). Derivatives are over the stdlib reals. Existence of the differentiable family is a hypothesis; C40_example gives one."
  },
  {
   "property": "C41",
   "status": "proved",
   "theorems": [
    "C41_solve_modes",
    "C41_solve_modes_cyl",
    "C41_index_error",
    "C41_solve_mode"
   ],
   "note": "The eigensolver and Rayleigh quotient iteration are parameters; numpy argsort is modelled up to the order of equal keys."
  },
  {
   "property": "C42",
   "status": "proved",
   "theorems": [
    "C42_wavenumber",
    "C42_forward_mode",
    "C42_backward_mode_without_axial_field"
   ],
   "note": "Polarity -1 in general is false, see C71. The 2D solver is a parameter assumed to return an eigenvector (solver_ok)."
  },
  {
   "property": "C43",
   "status": "proved",
   "theorems": [
    "C43_expand_e"
   ],
   "note": "Distances are those of the code; that they are wrong on non-uniform grids is C72."
  },
  {
   "property": "C44",
   "status": "proved",
   "theorems": [
    "C44_overlap_is_one",
    "C44_zero_outside_window",
    "C44_defined"
   ],
   "note": "Away from the low edge; the edge is C73."
  },
  {
   "property": "C45",
   "status": "proved",
   "theorems": [
    "C45_eigenvector_gives_mode",
    "C45_mode_gives_eigenvector"
   ],
   "note": "Curl equations in Spec/CylSpec.v; permeability 1, as in cylindrical_operator. The module docs miss the factors 1/t in two equations."
  },
  {
   "property": "C46",
   "status": "proved",
   "theorems": [
    "C46_unit_ratio_is_straight",
    "C46_large_radius_limit",
    "C46_ratios_above_one_and_increasing",
    "C46_linear_wavenumber_radius"
   ],
   "note": ""
  },
  {
   "property": "C47",
   "status": "proved",
   "theorems": [
    "C47_transmission_no_gain",
    "C47_matched_amplitudes",
    "C47_get_tr_succeeds",
    "C47_force_reciprocal_symmetric",
    "C47_abcd_blocks"
   ],
   "note": "Contracts: Spec/EmeSpec.v is_lstsq, is_svd, is_pinv."
  },
  {
   "property": "C48",
   "status": "proved",
   "theorems": [
    "C48_rayleigh_quotient_iteration",
    "C48_rayleigh_quotient_optimal",
    "C48_exact_guess",
    "C48_power_iteration",
    "C48_power_iteration_eigenvector",
    "C48_signed_eigensolve",
    "C48_signed_eigensolve_extreme",
    "C48_signed_eigensolve_sign"
   ],
   "note": "The solver must return a non-zero vector for the vectors it is called with; eigs contract: eigs_ok."
  },
  {
   "property": "C49",
   "status": "proved",
   "theorems": [
    "C49_basis",
    "C49_maxwell_operator",
    "C49_uniform",
    "C49_hermitian",
    "C49_negative"
   ],
   "note": "Where the expected claims fail: C86, C87, C88, C89."
  },
  {
   "property": "C50",
   "status": "proved",
   "theorems": [
    "C50_antisymmetric",
    "C50_scale_invariant",
    "C50_defined_and_normalised"
   ],
   "note": "Where the expected claims fail: C92, C93."
  },
  {
   "property": "C51",
   "status": "proved",
   "theorems": [
    "C51_round_trip"
   ],
   "note": "Where the wider claim fails: C99 (evanescent grid frequencies), C100 (dky), C101 (rectangular grids)."
  },
  {
   "property": "C52",
   "status": "proved",
   "theorems": [
    "C52_poynting_any_dxes_refuted",
    "C52_total_energy_any_dxes_refuted"
   ],
   "note": "The expected claim is false; C52_*_refuted give concrete counterexamples, and C11_poynting_yee / C12_energy_run_yee prove the corrected statement for every grid."
  },
  {
   "property": "C53",
   "status": "proved",
   "theorems": [
    "C53_documented_dt_bounded_refuted"
   ],
   "note": "The expected claim is false. C53_documented_dt_bounded_refuted shows unbounded growth; the strict-inequality version is C17_stable."
  },
  {
   "property": "C54",
   "status": "proved",
   "theorems": [
    "C54_unequal_widths_refuted",
    "C54_unequal_widths_iff"
   ],
   "note": "The expected claim is false. Refutation plus exact agreement condition; the true part is C18."
  },
  {
   "property": "C55",
   "status": "proved",
   "theorems": [
    "C55_updaters_raise",
    "C55_updaters_work_refuted"
   ],
   "note": "The expected claim is false. Rests on the stated numpy indexing rule (Model/Pml.v, list_index)."
  },
  {
   "property": "C56",
   "status": "proved",
   "theorems": [
    "C56_tangential_E_zero_refuted"
   ],
   "note": "The expected claim is false. Refutation; what the updaters do is C21."
  },
  {
   "property": "C57",
   "status": "proved",
   "theorems": [
    "C57_one_sided_monotone_refuted",
    "C57_turn_on_amplitude_refuted",
    "C57_turn_on_amplitude"
   ],
   "note": "The expected claim is false. Two refutations plus the bound that does hold; the true parts are C22."
  },
  {
   "property": "C58",
   "status": "proved",
   "theorems": [
    "C58_ricker_start",
    "C58_ricker_floor",
    "C58_turn_on_refuted",
    "C58_ricker_pulse"
   ],
   "note": "The expected claim is false. What holds: C58_ricker_pulse. The root finder is modelled by its result, an arbitrary zero of the target."
  },
  {
   "property": "C59",
   "status": "proved",
   "theorems": [
    "C59_functional_e_full_inverts_mu",
    "C59_functional_e_full_mu_refuted",
    "C59_functional_tfsf_mu_refuted"
   ],
   "note": "The expected claim is false. Exact relation to operators.e_full plus two counterexamples."
  },
  {
   "property": "C60",
   "status": "proved",
   "theorems": [
    "C60_functional_m2j_is_minus_operators",
    "C60_functional_m2j_not_equivalent",
    "C60_functional_m2j_sign_refuted"
   ],
   "note": "The expected claim is false. Exact relation plus counterexample."
  },
  {
   "property": "C61",
   "status": "proved",
   "theorems": [
    "C61_eh_full_default_mu_refuted",
    "C61_eh_full_ones"
   ],
   "note": "The expected claim is false. All inputs."
  },
  {
   "property": "C62",
   "status": "proved",
   "theorems": [
    "C62_boundary_source_drops_current_refuted"
   ],
   "note": "The expected claim is false. Counterexample on a 3x3x1 grid."
  },
  {
   "property": "C63",
   "status": "proved",
   "theorems": [
    "C63_options_modified_refuted"
   ],
   "note": "The expected claim is false. Counterexample; untouched case is in C31."
  },
  {
   "property": "C64",
   "status": "proved",
   "theorems": [
    "C64_adjoint_raises_refuted",
    "C64_user_callback_recursion_refuted",
    "C64_default_callback"
   ],
   "note": "The expected claim is false. Rests on the reading that scipy sparse arrays lack .H, and on Python closure semantics for the kwargs lookup."
  },
  {
   "property": "C65",
   "status": "proved",
   "theorems": [
    "C65_zero_thickness_back_refuted"
   ],
   "note": "The expected claim is false. Division by zero is modelled as an explicit NotFinite outcome."
  },
  {
   "property": "C66",
   "status": "proved",
   "theorems": [
    "C66_uniform_equals_stretch_refuted"
   ],
   "note": "The expected claim is false. Refuted for all parameters; the true relation is C35."
  },
  {
   "property": "C67",
   "status": "proved",
   "theorems": [
    "C67_inner_product_orthogonality_refuted"
   ],
   "note": "The expected claim is false. Exact rational witness on a 2x1 grid; the corrected statement (weights swapped back) is C38."
  },
  {
   "property": "C68",
   "status": "proved",
   "theorems": [
    "C68_cut_off_wavenumber_is_zero",
    "C68_wavenumber_squared_refuted"
   ],
   "note": "The expected claim is false. Corrected statement for modes that are not cut off: C41."
  },
  {
   "property": "C69",
   "status": "proved",
   "theorems": [
    "C69_positional_call_raises",
    "C69_solve_mode_positional_refuted",
    "C69_solve_mode_keywords",
    "C69_direct_call"
   ],
   "note": "The expected claim is false. Python call binding is modelled; every positional call raises, keyword calls work."
  },
  {
   "property": "C70",
   "status": "proved",
   "theorems": [
    "C70_sensitivity_nonuniform_refuted"
   ],
   "note": "The expected claim is false. Corrected statement on uniform grids: C40."
  },
  {
   "property": "C71",
   "status": "proved",
   "theorems": [
    "C71_backward_mode_corrected",
    "C71_backward_mode_refuted"
   ],
   "note": "The expected claim is false. Corrected statement: C71_backward_mode_corrected."
  },
  {
   "property": "C72",
   "status": "proved",
   "theorems": [
    "C72_expand_e_distance_refuted"
   ],
   "note": "The expected claim is false. On uniform grids see C43."
  },
  {
   "property": "C73",
   "status": "proved",
   "theorems": [
    "C73_overlap_near_low_edge",
    "C73_overlap_defined_everywhere_refuted"
   ],
   "note": "The expected claim is false. Positions where it holds: C44_defined."
  },
  {
   "property": "C74",
   "status": "proved",
   "theorems": [
    "C74_source_drives_one_sided_mode",
    "C74_forward_source"
   ],
   "note": ""
  },
  {
   "property": "C75",
   "status": "proved",
   "theorems": [
    "C75_exy2e_error",
    "C75_exy2e_single_row",
    "C75_exy2e_gives_mode_refuted"
   ],
   "note": "The expected claim is false. Exact error: C75_exy2e_error."
  },
  {
   "property": "C76",
   "status": "proved",
   "theorems": [
    "C76_uniform_radii",
    "C76_nonuniform_radii_refuted"
   ],
   "note": "The expected claim is false. Uniform grids: C76_uniform_radii."
  },
  {
   "property": "C77",
   "status": "proved",
   "theorems": [
    "C77_unit_power_and_common_factor",
    "C77_single_row_mode"
   ],
   "note": ""
  },
  {
   "property": "C78",
   "status": "proved",
   "theorems": [
    "C78_stale_eigenvalue_refuted",
    "C78_no_iterations_raises"
   ],
   "note": "The expected claim is false. What holds: C48_rayleigh_quotient_iteration."
  },
  {
   "property": "C79",
   "status": "proved",
   "theorems": [
    "C79_guess_overwritten"
   ],
   "note": "The expected claim is false."
  },
  {
   "property": "C80",
   "status": "proved",
   "theorems": [
    "C80_positive_only_refuted"
   ],
   "note": "The expected claim is false. Corrected: C48_signed_eigensolve_sign."
  },
  {
   "property": "C81",
   "status": "proved",
   "theorems": [
    "C81_small_operators_raise"
   ],
   "note": "The expected claim is false. Relies on scipy's documented bound ncv <= n."
  },
  {
   "property": "C82",
   "status": "proved",
   "theorems": [
    "C82_different_mode_counts_raise"
   ],
   "note": "The expected claim is false."
  },
  {
   "property": "C83",
   "status": "proved",
   "theorems": [
    "C83_force_nogain_keeps_gain",
    "C83_force_nogain_refuted"
   ],
   "note": "The expected claim is false."
  },
  {
   "property": "C84",
   "status": "proved",
   "theorems": [
    "C84_get_s_blocks",
    "C84_scattering_refuted",
    "C84_one_mode_scattering"
   ],
   "note": "The expected claim is false. What get_s returns: C84_get_s_blocks; where it is right: C84_one_mode_scattering."
  },
  {
   "property": "C85",
   "status": "proved",
   "theorems": [
    "C85_get_abcd_raises",
    "C85_repaired"
   ],
   "note": "The expected claim is false. Relies on scipy's block_array converting its argument with numpy.asarray(..., dtype='object'). C85_repaired: with numpy.block instead, the matrix maps (incoming left, outgoing left) to (outgoing right, incoming right)."
  },
  {
   "property": "C86",
   "status": "proved",
   "theorems": [
    "C86_m_not_transverse",
    "C86_orthogonality_refuted"
   ],
   "note": "The expected claim is false. Where it holds: C49_basis."
  },
  {
   "property": "C87",
   "status": "proved",
   "theorems": [
    "C87_not_finite",
    "C87_inverse_at_zero",
    "C87_y_never_finite",
    "C87_finite_refuted"
   ],
   "note": "The expected claim is false."
  },
  {
   "property": "C88",
   "status": "proved",
   "theorems": [
    "C88_negative_inverse",
    "C88_inverse_refuted"
   ],
   "note": "The expected claim is false. What holds: C88_negative_inverse."
  },
  {
   "property": "C89",
   "status": "proved",
   "theorems": [
    "C89_documented_sign",
    "C89_documented_refuted"
   ],
   "note": "The expected claim is false. What holds: C89_documented_sign, C49_maxwell_operator."
  },
  {
   "property": "C90",
   "status": "proved",
   "theorems": [
    "C90_mu_raises",
    "C90_mu_refuted"
   ],
   "note": "The expected claim is false."
  },
  {
   "property": "C91",
   "status": "proved",
   "theorems": [
    "C91_fields"
   ],
   "note": "The documented factor i of ik x H is absent from hmn_2_exyz; the theorem states what is computed."
  },
  {
   "property": "C92",
   "status": "proved",
   "theorems": [
    "C92_scale_refuted",
    "C92_arguments_refuted"
   ],
   "note": "The expected claim is false."
  },
  {
   "property": "C93",
   "status": "proved",
   "theorems": [
    "C93_polarized",
    "C93_reciprocity_refuted"
   ],
   "note": "The expected claim is false. Where it holds: C93_polarized."
  },
  {
   "property": "C94",
   "status": "proved",
   "theorems": [
    "C94_trq_never",
    "C94_trq_refuted",
    "C94_trq_value",
    "C94_transmission_refuted"
   ],
   "note": "The expected claim is false. What holds: C94_trq_value (an equivalence)."
  },
  {
   "property": "C95",
   "status": "proved",
   "theorems": [
    "C95_power"
   ],
   "note": ""
  },
  {
   "property": "C96",
   "status": "proved",
   "theorems": [
    "C96_angles",
    "C96_beyond"
   ],
   "note": ""
  },
  {
   "property": "C97",
   "status": "proved",
   "theorems": [
    "C97_direction"
   ],
   "note": ""
  },
  {
   "property": "C98",
   "status": "proved",
   "theorems": [
    "C98_mirrored",
    "C98_documented_convention_refuted"
   ],
   "note": "The expected claim is false. What holds: C98_mirrored, C97_direction."
  },
  {
   "property": "C99",
   "status": "proved",
   "theorems": [
    "C99_evanescent_nan",
    "C99_fine_cells_nan",
    "C99_round_trip_refuted"
   ],
   "note": "The expected claim is false. Where it holds: C51_round_trip."
  },
  {
   "property": "C100",
   "status": "proved",
   "theorems": [
    "C100_steps",
    "C100_zero_step",
    "C100_dky_refuted"
   ],
   "note": "The expected claim is false. What is returned: C100_steps."
  },
  {
   "property": "C101",
   "status": "proved",
   "theorems": [
    "C101_not_square",
    "C101_rectangular_refuted"
   ],
   "note": "The expected claim is false."
  },
  {
   "property": "C102",
   "status": "proved",
   "theorems": [
    "C102_overwrites",
    "C102_arguments_kept_refuted"
   ],
   "note": "The expected claim is false."
  },
  {
   "property": "C103",
   "status": "proved",
   "theorems": [
    "C103_padding_refuted"
   ],
   "note": "The expected claim is false."
  },
  {
   "property": "C104",
   "status": "proved",
   "theorems": [
    "C104_ritz",
    "C104_exact",
    "C104_bloch"
   ],
   "note": "Contracts: inv_ok, sqrtm_ok, eig_ok. Holds for eigsolve without the logging lines bloch.py:756-760, which raise (C148)."
  },
  {
   "property": "C105",
   "status": "proved",
   "theorems": [
    "C105_descends",
    "C105_stop"
   ],
   "note": "Contracts: inv_ok; no_worse for the line search. Holds for eigsolve without the logging lines bloch.py:756-760, which raise (C148)."
  },
  {
   "property": "C106",
   "status": "proved",
   "theorems": [
    "C106_stale",
    "C106_max_iters_refuted"
   ],
   "note": "The expected claim is false. What holds: C106_stale; converged runs: C104_ritz. Holds for eigsolve without the logging lines bloch.py:756-760, which raise (C148)."
  },
  {
   "property": "C107",
   "status": "proved",
   "theorems": [
    "C107_y0_overwritten",
    "C107_y0_kept_refuted"
   ],
   "note": "The expected claim is false. What holds: C107_y0_overwritten. Holds for eigsolve without the logging lines bloch.py:756-760, which raise (C148)."
  },
  {
   "property": "C108",
   "status": "proved",
   "theorems": [
    "C108_find_k_raises",
    "C108_find_k_refuted",
    "C108_find_k_result"
   ],
   "note": "The expected claim is false. What holds: C108_find_k_raises, C108_find_k_result (a result exactly for a direction of one component, and its value)."
  },
  {
   "property": "C109",
   "status": "proved",
   "theorems": [
    "C109_rtrace_is_norm",
    "C109_rtrace_refuted"
   ],
   "note": "The expected claim is false. What holds: C109_rtrace_is_norm."
  },
  {
   "property": "C110",
   "status": "proved",
   "theorems": [
    "C110_paraxial_beam"
   ],
   "note": ""
  },
  {
   "property": "C111",
   "status": "proved",
   "theorems": [
    "C111_finite_iff",
    "C111_all_nan",
    "C111_finite_refuted"
   ],
   "note": "The expected claim is false. What holds: C111_finite_iff."
  },
  {
   "property": "C112",
   "status": "proved",
   "theorems": [
    "C112_middle_slice_power",
    "C112_translation"
   ],
   "note": ""
  },
  {
   "property": "C113",
   "status": "proved",
   "theorems": [
    "C113_cpml_side",
    "C113_scpml_opposite_side",
    "C113_documented_side_refuted"
   ],
   "note": "The expected claim is false for stretch_with_scpml. What holds: C113_scpml_opposite_side, and C113_cpml_side for cpml_params."
  },
  {
   "property": "C114",
   "status": "proved",
   "theorems": [
    "C114_raises_iff",
    "C114_square_value",
    "C114_equal_axes",
    "C114_trapezoid_refuted",
    "C114_constant_product"
   ],
   "note": "The expected claim is false. What holds: C114_raises_iff, C114_square_value, C114_equal_axes."
  },
  {
   "property": "C115",
   "status": "proved",
   "theorems": [
    "C115_fdfd_iff_fdtd",
    "C115_from_e_full",
    "C115_real_run",
    "C115_documented_phase",
    "C115_documented_phase_refuted"
   ],
   "note": "The documented time dependence exp(-i omega t) is false: C115_documented_phase, C115_documented_phase_refuted. With exp(+i omega t) the equivalence holds."
  },
  {
   "property": "C116",
   "status": "proved",
   "theorems": [
    "C116_dispersion",
    "C116_real_wave_vector",
    "C116_time_domain",
    "C116_real_frequency"
   ],
   "note": ""
  },
  {
   "property": "C117",
   "status": "proved",
   "theorems": [
    "C117_complex_poynting",
    "C117_power_balance",
    "C117_total_power"
   ],
   "note": ""
  },
  {
   "property": "C118",
   "status": "proved",
   "theorems": [
    "C118_reciprocity"
   ],
   "note": ""
  },
  {
   "property": "C119",
   "status": "proved",
   "theorems": [
    "C119_unstable",
    "C119_beyond_limit"
   ],
   "note": ""
  },
  {
   "property": "C120",
   "status": "proved",
   "theorems": [
    "C120_maxwell",
    "C120_e_full",
    "C120_scpml"
   ],
   "note": ""
  },
  {
   "property": "C121",
   "status": "proved",
   "theorems": [
    "C121_unique_solution"
   ],
   "note": ""
  },
  {
   "property": "C122",
   "status": "proved",
   "theorems": [
    "C122_cpml_iff_stretched",
    "C122_transient"
   ],
   "note": ""
  },
  {
   "property": "C123",
   "status": "proved",
   "theorems": [
    "C123_passive",
    "C123_harmonic",
    "C123_scpml_same_sign"
   ],
   "note": ""
  },
  {
   "property": "C124",
   "status": "proved",
   "theorems": [
    "C124_decays_forward"
   ],
   "note": ""
  },
  {
   "property": "C125",
   "status": "proved",
   "theorems": [
    "C125_cfs_limit",
    "C125_effective"
   ],
   "note": ""
  },
  {
   "property": "C126",
   "status": "proved",
   "theorems": [
    "C126_fdtd",
    "C126_fdfd",
    "C126_undone"
   ],
   "note": ""
  },
  {
   "property": "C127",
   "status": "proved",
   "theorems": [
    "C127_fdtd",
    "C127_fdfd"
   ],
   "note": ""
  },
  {
   "property": "C128",
   "status": "proved",
   "theorems": [
    "C128_gauss"
   ],
   "note": ""
  },
  {
   "property": "C129",
   "status": "proved",
   "theorems": [
    "C129_orthogonal",
    "C129_frequency"
   ],
   "note": ""
  },
  {
   "property": "C130",
   "status": "proved",
   "theorems": [
    "C130_power_iteration_converges"
   ],
   "note": "C130_power_iteration_converges."
  },
  {
   "property": "C131",
   "status": "proved",
   "theorems": [
    "C131_rayleigh_residual"
   ],
   "note": "C131_rayleigh_residual. The solver needs to be exact only for unit vectors whose residual is not below the tolerance."
  },
  {
   "property": "C132",
   "status": "proved",
   "theorems": [
    "C132_search_direction",
    "C132_step_fails",
    "C132_reset_zero"
   ],
   "note": "C132_search_direction, C132_steepest_descent, C132_step_fails, C132_reset_zero. Holds for eigsolve without the logging lines bloch.py:756-760, which raise (C148)."
  },
  {
   "property": "C133",
   "status": "proved",
   "theorems": [
    "C133_first_iterate",
    "C133_usable_start",
    "C133_unusable_start",
    "C133_dependent_start",
    "C133_redraw",
    "C133_orthonormalised"
   ],
   "note": "C133_first_iterate, C133_usable_start, C133_unusable_start, C133_dependent_start, C133_redraw, C133_orthonormalised; C133_case runs the whole function on four guesses. numpy.random is an arbitrary stream of matrices. Holds for eigsolve without the logging lines bloch.py:756-760, which raise (C148)."
  },
  {
   "property": "C134",
   "status": "proved",
   "theorems": [
    "C134_driven",
    "C134_reached"
   ],
   "note": "C134_driven, C134_reached; C134_example. Real arithmetic; the current enters as in the documented update E += J / epsilon."
  },
  {
   "property": "C135",
   "status": "proved",
   "theorems": [
    "C135_index_bound",
    "C135_attained"
   ],
   "note": "C135_index_bound, C135_attained; C135_example is a slab whose mode lies between the two indices. Eigenvectors as arguments (the eigensolver is not trusted)."
  },
  {
   "property": "C136",
   "status": "proved",
   "theorems": [
    "C136_exchange",
    "C136_absorption",
    "C136_powers_add"
   ],
   "note": "C136_exchange (any field with conjugation), C136_absorption, C136_powers_add; C136_example."
  },
  {
   "property": "C137",
   "status": "proved",
   "theorems": [
    "C137_energy_velocity",
    "C137_group_velocity"
   ],
   "note": "C137_energy_velocity, C137_group_velocity; C137_example is a branch of constant fields with velocity 1/2. Materials do not depend on the frequency."
  },
  {
   "property": "C138",
   "status": "proved",
   "theorems": [
    "C138_in_place",
    "C138_copies_keep_history",
    "C138_references_read_last",
    "C138_deltas_vanish",
    "C138_saved_references_refuted"
   ],
   "note": "The expected claim is false. C138_saved_references_refuted; in general C138_references_read_last and C138_deltas_vanish. True: C138_in_place, C138_copies_keep_history. Arrays are objects on a heap."
  },
  {
   "property": "C139",
   "status": "proved",
   "theorems": [
    "C139_lists",
    "C139_second_step_raises",
    "C139_list_fields_refuted"
   ],
   "note": "The expected claim is false. C139_list_fields_refuted; in general C139_lists and C139_second_step_raises. Arrays and lists are objects on a heap."
  },
  {
   "property": "C140",
   "status": "proved",
   "theorems": [
    "C140_separate_lists",
    "C140_shared_list",
    "C140_shared_list_refuted",
    "C140_grid_reused_refuted"
   ],
   "note": "The expected claim is false. C140_shared_list_refuted and C140_grid_reused_refuted; in general C140_shared_list. True: C140_separate_lists."
  },
  {
   "property": "C141",
   "status": "proved",
   "theorems": [
    "C141_curl_raises_iff",
    "C141_curl_value",
    "C141_functional_raises_refuted"
   ],
   "note": "The expected claim is false. C141_functional_raises_refuted; in general C141_curl_raises_iff and C141_curl_value. numpy casting: assignment casts anything, in-place operators only within a kind; precision is not modelled."
  },
  {
   "property": "C142",
   "status": "proved",
   "theorems": [
    "C142_poynting_kind",
    "C142_real_fields",
    "C142_imaginary_part_refuted",
    "C142_integer_field_refuted"
   ],
   "note": "The expected claim is false. C142_imaginary_part_refuted and C142_integer_field_refuted; in general C142_poynting_kind; corrected: C142_real_fields."
  },
  {
   "property": "C143",
   "status": "proved",
   "theorems": [
    "C143_maxwell_e",
    "C143_maxwell_h",
    "C143_e_full"
   ],
   "note": "C143_maxwell_e, C143_maxwell_h, C143_e_full; C143_example."
  },
  {
   "property": "C144",
   "status": "proved",
   "theorems": [
    "C144_update_E",
    "C144_update_H",
    "C144_complex_fields_refuted"
   ],
   "note": "The expected claim is false. C144_complex_fields_refuted; in general C144_update_E, C144_update_H. Precision (float32 by default) is not modelled."
  },
  {
   "property": "C145",
   "status": "proved",
   "theorems": [
    "C145_superposition",
    "C145_domain_of_dependence",
    "C145_reused_updaters",
    "C145_reused_updaters_refuted"
   ],
   "note": "The expected claim is false. C145_reused_updaters_refuted; in general C145_reused_updaters, C145_superposition, C145_domain_of_dependence (axiom-free, any field)."
  },
  {
   "property": "C146",
   "status": "proved",
   "theorems": [
    "C146_bounds",
    "C146_monotone",
    "C146_bands",
    "C146_zero_band",
    "C146_solver"
   ],
   "note": "Theorems C146_bounds, C146_monotone, C146_bands, C146_zero_band, C146_solver. Holds for eigsolve without the logging lines bloch.py:756-760, which raise (C148)."
  },
  {
   "property": "C147",
   "status": "proved",
   "theorems": [
    "C147_translate",
    "C147_translate_bands",
    "C147_scale_epsilon",
    "C147_scale_lattice",
    "C147_opposite_wavevectors",
    "C147_reverse",
    "C147_reverse_bands",
    "C147_minus_k",
    "C147_minus_k_refuted",
    "C147_period_refuted"
   ],
   "note": "The expected claims are false. C147_minus_k_refuted, C147_period_refuted; in general C147_reverse, C147_reverse_bands, C147_opposite_wavevectors, C147_minus_k for odd numbers of points; C147_translate, C147_translate_bands, C147_scale_epsilon, C147_scale_lattice."
  },
  {
   "property": "C148",
   "status": "proved",
   "theorems": [
    "C148_raises",
    "C148_returns_refuted",
    "C148_two_dimensions"
   ],
   "note": "The expected claim (a converged search returns its modes) is false. C148_returns_refuted; in general C148_raises; C148_two_dimensions is the corrected statement. The other properties of eigsolve (C104-C107, C109, C132, C133, C146) describe the computation without bloch.py:756-760."
  },
  {
   "property": "C149",
   "status": "proved",
   "theorems": [
    "C149_two_sided",
    "C149_one_sided_raises",
    "C149_arrays_refuted",
    "C149_one_timestep"
   ],
   "note": "The expected claim is false. C149_arrays_refuted; in general C149_one_sided_raises; what holds: C149_two_sided, C149_one_timestep."
  },
  {
   "property": "C150",
   "status": "proved",
   "theorems": [
    "C150_beam_raises",
    "C150_beam_works",
    "C150_rqi",
    "C150_power",
    "C150_integers_refuted"
   ],
   "note": "The expected claim is false. C150_integers_refuted; in general C150_beam_raises, C150_beam_works, C150_rqi, C150_power. Complex positions and centers of beams are left out."
  },
  {
   "property": "C151",
   "status": "proved",
   "theorems": [
    "C151_alternative",
    "C151_all_but_finitely_many",
    "C151_pec_singular",
    "C151_pec_alternative",
    "C151_lossy",
    "C151_generic_agrees",
    "C151_pec_refuted"
   ],
   "note": "The expected claim (loss makes every problem solvable) is false with a PEC: C151_pec_refuted, in general C151_pec_singular; corrected C151_pec_alternative. C151_alternative, C151_all_but_finitely_many, C151_lossy, C151_generic_agrees."
  },
  {
   "property": "C152",
   "status": "proved",
   "theorems": [
    "C152_modes",
    "C152_resonances",
    "C152_driven",
    "C152_static",
    "C152_unique"
   ],
   "note": "C152_modes, C152_resonances, C152_driven, C152_static, C152_unique."
  },
  {
   "property": "C153",
   "status": "proved",
   "theorems": [
    "C153_superposition",
    "C153_oscillation",
    "C153_static",
    "C153_exact_limit",
    "C153_highest"
   ],
   "note": "C153_superposition, C153_oscillation, C153_static, C153_exact_limit, C153_highest."
  },
  {
   "property": "C154",
   "status": "proved",
   "theorems": [
    "C154_monotone",
    "C154_stable"
   ],
   "note": "C154_monotone, C154_stable."
  },
  {
   "property": "C155",
   "status": "proved",
   "theorems": [
    "C155_complete",
    "C155_all",
    "C155_unique",
    "C155_min_max",
    "C155_uniform"
   ],
   "note": "C155_complete, C155_all, C155_unique, C155_min_max, C155_uniform; case C155_case."
  },
  {
   "property": "C156",
   "status": "proved",
   "theorems": [
    "C156_monotone",
    "C156_perturbed",
    "C156_between"
   ],
   "note": "C156_monotone, C156_perturbed, C156_between; case C156_case."
  },
  {
   "property": "C157",
   "status": "proved",
   "theorems": [
    "C157_objective",
    "C157_attained",
    "C157_modes"
   ],
   "note": "C157_objective, C157_attained, C157_modes; case C157_case. numpy.linalg.eig of a Hermitian matrix is assumed to give independent eigenvectors."
  },
  {
   "property": "C158",
   "status": "proved",
   "theorems": [
    "C158_near_an_eigenvalue",
    "C158_stopped",
    "C158_quadratic",
    "C158_vector",
    "C158_not_normal_refuted"
   ],
   "note": "C158_near_an_eigenvalue, C158_stopped, C158_quadratic, C158_vector; C158_not_normal_refuted for other operators; case C158_case."
  },
  {
   "property": "C159",
   "status": "proved",
   "theorems": [
    "C159_limit",
    "C159_converges",
    "C159_not_above",
    "C159_two_signs_refuted"
   ],
   "note": "The claim that power_iteration always estimates the largest-magnitude eigenvalue is false (C159_two_signs_refuted). C159_limit gives the exact limit with an error bound, C159_converges the case of one sign, C159_not_above; case C159_case."
  },
  {
   "property": "C160",
   "status": "proved",
   "theorems": [
    "C160_lipschitz",
    "C160_crossing",
    "C160_tolerance",
    "C160_tolerance_refuted",
    "C160_in_the_plane_refuted"
   ],
   "note": "The documented frequency tolerance of find_k is not kept (C160_tolerance_refuted); C160_tolerance gives the accuracy that is. C160_lipschitz, C160_crossing; C160_in_the_plane_refuted shows that the exclusion of the plane kx = 0 is needed; case C160_case."
  },
  {
   "property": "C161",
   "status": "proved",
   "theorems": [
    "C161_frequency_domain",
    "C161_speed",
    "C161_time_domain",
    "C161_exact"
   ],
   "note": "C161_speed is proved through the concavity of sin^2 as a function of the square; C161_time_domain adds existence, uniqueness and the run, C161_frequency_domain the solver; C161_exact the step without dispersion; case C161_case."
  },
  {
   "property": "C162",
   "status": "proved",
   "theorems": [
    "C162_third_of_the_diagonal",
    "C162_diagonal_refuted",
    "C162_limit"
   ],
   "note": "The expected claim is false. C162_diagonal_refuted is the witness, C162_third_of_the_diagonal the universal form, C162_limit what the formula satisfies."
  },
  {
   "property": "C163",
   "status": "proved",
   "theorems": [
    "C163_bounded",
    "C163_second_order",
    "C163_converges"
   ],
   "note": "C163_bounded (any grid), C163_second_order, C163_converges; case C163_case (sin x in a medium of permittivity 1 - i)."
  },
  {
   "property": "C164",
   "status": "proved",
   "theorems": [
    "C164_second_order",
    "C164_converges"
   ],
   "note": "C164_second_order, C164_converges; case C164_case (travelling wave sin(x - t) in vacuum)."
  },
  {
   "property": "C165",
   "status": "proved",
   "theorems": [
    "C165_cubic",
    "C165_enough"
   ],
   "note": "C165_cubic, C165_enough; case C165_case (diag(0, 1), guess (10, 1))."
  },
  {
   "property": "C166",
   "status": "proved",
   "theorems": [
    "C166_time_reciprocity",
    "C166_exchange",
    "C166_points"
   ],
   "note": "C166_time_reciprocity, C166_exchange, C166_points; case C166_case (unequal widths, varying materials)."
  },
  {
   "property": "C167",
   "status": "proved",
   "theorems": [
    "C167_second_order",
    "C167_converges",
    "C167_pointwise_second_order_refuted"
   ],
   "note": "C167_second_order, C167_converges; C167_pointwise_second_order_refuted shows that the local error is only of first order; case C167_case (widths pi/2 and 3 pi/2, fields of C163_case)."
  },
  {
   "property": "C168",
   "status": "proved",
   "theorems": [
    "C168_second_order",
    "C168_converges"
   ],
   "note": "C168_second_order, C168_converges; case C168_case (the travelling wave of C164_case on widths pi/2 and 3 pi/2). The local first-order error is C167_pointwise_second_order_refuted."
  },
  {
   "property": "C169",
   "status": "proved",
   "theorems": [
    "C169_curl_free",
    "C169_unique",
    "C169_steady",
    "C169_static_modes",
    "C169_helmholtz",
    "C169_determined"
   ],
   "note": "C169_curl_free, C169_unique, C169_steady (any field); C169_static_modes, C169_helmholtz, C169_determined (reals); case C169_case (box with six cells, eight static resonances out of eighteen). Strengthens C05_curl_grad (one direction of the first equivalence) and C152_static."
  },
  {
   "property": "C170",
   "status": "proved",
   "theorems": [
    "C170_deterministic",
    "C170_reciprocal",
    "C170_relabel"
   ],
   "note": "C170_deterministic, C170_reciprocal, C170_relabel; cases C170_deterministic_case (two SVD routines that differ), C170_reciprocal_case (transmission not symmetric by itself), C170_relabel_case."
  },
  {
   "property": "C171",
   "status": "proved",
   "theorems": [
    "C171_scaled_modes",
    "C171_any_normalisation_refuted"
   ],
   "note": "The expected claim is false. C171_any_normalisation_refuted (one mode, twice as large on the left: 1/2 in place of 2), with the exact result in C171_scaled_modes; case C171_scaled_modes_case. The corrected statement is C47_matched_amplitudes, with the hypothesis that the amplitudes have no gain."
  },
  {
   "property": "C172",
   "status": "proved",
   "theorems": [
    "C172_response",
    "C172_resonant",
    "C172_bounded",
    "C172_steady"
   ],
   "note": ""
  },
  {
   "property": "C173",
   "status": "proved",
   "theorems": [
    "C173_time_reciprocity",
    "C173_points",
    "C173_any_coefficients",
    "C173_inside_refuted"
   ],
   "note": "C173_time_reciprocity, C173_points (layers of cpml_params), C173_any_coefficients; case C173_case. C173_inside_refuted shows that the restriction to points outside the layers is needed."
  },
  {
   "property": "C174",
   "status": "proved",
   "theorems": [
    "C174_electric",
    "C174_magnetic",
    "C174_no_divergence",
    "C174_steer",
    "C174_one_step",
    "C174_m2j"
   ],
   "note": ""
  },
  {
   "property": "C175",
   "status": "proved",
   "theorems": [
    "C175_window",
    "C175_echo"
   ],
   "note": ""
  },
  {
   "property": "C176",
   "status": "proved",
   "theorems": [
    "C176_conjugate_pairs",
    "C176_slab",
    "C176_growth",
    "C176_real_square_refuted"
   ],
   "note": "The expected claim is false. Proved: a lossless structure with eigenvalue -2+i whose wavenumber from solve_modes grows along +z; conjugate pairs; growth of one mode of each non-real pair; real eigenvalues in slabs."
  },
  {
   "property": "C177",
   "status": "proved",
   "theorems": [
    "C177_complete",
    "C177_complete_refuted",
    "C177_merged",
    "C177_not_normalised"
   ],
   "note": "The expected claim is false. Proved: a lossless structure with merged modes and a field that is no sum of modes; completeness with unique coefficients on slabs; vanishing flux of merged modes in any medium; normalized_fields_e fails for complex, evanescent and merged modes of lossless media."
  },
  {
   "property": "C178",
   "status": "proved",
   "theorems": [
    "C178_updates",
    "C178_runs",
    "C178_energy",
    "C178_fdfd",
    "C178_resonances",
    "C178_waveguide",
    "C178_wavenumbers"
   ],
   "note": ""
  },
  {
   "property": "C179",
   "status": "proved",
   "theorems": [
    "C179_superposition",
    "C179_dual",
    "C179_displaced",
    "C179_displaced_padded_refuted",
    "C179_incoming"
   ],
   "note": "The expected claim is false for padded arrays. C179_displaced_padded_refuted: with the default padding of a 3-cell array to 4 cells, a source moved by one cell inside the array no longer radiates into a direction into which it radiated before (the array is rotated by fftshift before the zeros are added, which tears the source apart). The remaining statements hold as expected: C179_superposition, C179_dual and, without padding, C179_displaced and C179_incoming."
  },
  {
   "property": "C180",
   "status": "proved",
   "theorems": [
    "C180_mean_power",
    "C180_documented_error",
    "C180_mean_energy",
    "C180_documented_average_refuted"
   ],
   "note": "The expected claim is false. C180_documented_average_refuted: with four steps per period the average of fdtd.poynting is not Re(E x H*)/2 as the docstring of poynting_e_cross_h says. Corrected: C180_mean_power gives the exact averages, C180_documented_error bounds the deviation, C180_mean_energy gives the averages of the energies."
  },
  {
   "property": "C181",
   "status": "proved",
   "theorems": [
    "C181_mean_work",
    "C181_mean_outflow",
    "C181_mean_balance"
   ],
   "note": "C181_mean_work, C181_mean_outflow (any widths), C181_mean_balance (equal widths). C181_example: two cells with a current that does work."
  },
  {
   "property": "C182",
   "status": "proved",
   "theorems": [
    "C182_mirror_image",
    "C182_components_mirrored_refuted"
   ],
   "note": "The expected claim is false in one direction. C182_components_mirrored_refuted: a uniform field along x, at kx = ky = 0. Corrected: C182_mirror_image with the behaviour in all directions and of the intensity."
  },
  {
   "property": "C183",
   "status": "proved",
   "theorems": [
    "C183_fourier_sums",
    "C183_decayed",
    "C183_periodic"
   ],
   "note": "C183_fourier_sums (exact, with the terms of the first and last fields), C183_decayed, C183_periodic. C183_example: two pulses after which no field is left."
  },
  {
   "property": "C184",
   "status": "proved",
   "theorems": [
    "C184_repeating",
    "C184_periodic",
    "C184_decayed",
    "C184_fading"
   ],
   "note": "C184_repeating (any field of numbers, repetition up to a factor), C184_periodic, C184_decayed, C184_fading (convergent sums). C184_example: two pulses through layers from cpml_params that leave no field."
  },
  {
   "property": "C185",
   "status": "proved",
   "theorems": [
    "C185_work_spectrum",
    "C185_flow_spectrum",
    "C185_energy_spectrum",
    "C185_layers"
   ],
   "note": "C185_work_spectrum, C185_flow_spectrum, C185_energy_spectrum, C185_layers (CPML). C185_example: two cells whose sources exchange energy 1 over a period of three steps."
  },
  {
   "property": "C186",
   "status": "proved",
   "theorems": [
    "C186_each_frequency",
    "C186_point_source"
   ],
   "note": "C186_each_frequency, C186_point_source. C186_example: a frequency of the run of C185_example at which a source does work at one cell."
  },
  {
   "property": "C187",
   "status": "proved",
   "theorems": [
    "C187_periodic_response",
    "C187_responses_differ_statically"
   ],
   "note": "C187_periodic_response (both directions), C187_responses_differ_statically. C187_example: currents with a response of period three, and a constant current without any; C187_unique_example: a grid on which the solutions are unique."
  }
 ]
}