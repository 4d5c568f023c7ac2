{
 "claims": [
  {
   "property": "C01",
   "status": "proved",
   "theorems": [
    "c01_nn_sweep_covers_bonds",
    "c01_narrow_lattice_undefined"
   ],
   "note": "Holds for rows,cols >= 2 and any updater decisions; for one-row or one-column lattices the sweep is undefined behaviour (second theorem)."
  },
  {
   "property": "C02",
   "status": "proved",
   "theorems": [
    "c02_three_site_sweep_covers_triples"
   ],
   "note": "rows,cols >= 3."
  },
  {
   "property": "C03",
   "status": "proved",
   "theorems": [
    "c03_exchange_conserves_occupations",
    "c03_three_site_conserves_occupations",
    "c03_periodic_exchange_conserves_occupations",
    "c03_three_site_alternatives"
   ],
   "note": "Any sequence of routines; arbitrary acceptance decisions. The three-site updater needs a choice that stays among the alternatives, which C07 proves of the Suwa-Todo choice for a current state of positive weight."
  },
  {
   "property": "C04",
   "status": "proved",
   "theorems": [
    "c04_hubbard_conserves_particle_numbers",
    "c04_hubbard_candidates",
    "c04_hubbard_move"
   ],
   "note": ""
  },
  {
   "property": "C05",
   "status": "proved",
   "theorems": [
    "c05_pair_code_bijection",
    "c05_full_space_move",
    "c05_full_space_states_stay_valid",
    "c05_periodic_full_space_states_stay_valid"
   ],
   "note": ""
  },
  {
   "property": "C06",
   "status": "proved",
   "theorems": [
    "c06_exchange_acceptance",
    "c06_detailed_balance",
    "c06_sweeps_leave_distribution_stationary",
    "c06_lattice_exchange_is_list_exchange"
   ],
   "note": "Exact real arithmetic; exact amplitudes (the truncated contraction is the implementation of psi)."
  },
  {
   "property": "C07",
   "status": "proved",
   "theorems": [
    "c07_result_valid",
    "c07_global_balance",
    "c07_rejection_free",
    "c07_normalisation_irrelevant",
    "c07_choice_in_range",
    "c07_full_space_stationary",
    "c07_hubbard_stationary",
    "c07_three_site_stationary"
   ],
   "note": "Weights are multiples of a common unit (naturals)."
  },
  {
   "property": "C08",
   "status": "proved",
   "theorems": [
    "c08_amplitude_belongs_to_configuration",
    "c08_periodic_amplitude_belongs_to_configuration"
   ],
   "note": "Any history of sweeps, traversals, energy passes, re-evaluations and configuration replacements after construction."
  },
  {
   "property": "C09",
   "status": "proved",
   "theorems": [
    "c09_boundary_mps_never_stale"
   ],
   "note": "Any list of contractor calls and site updates."
  },
  {
   "property": "C10",
   "status": "proved",
   "theorems": [
    "c10_kept_boundary_tensors_valid",
    "c10_other_rows_refuted"
   ],
   "note": "Both halves of the property: validity for the updated row/column, and a counterexample for another row."
  },
  {
   "property": "C11",
   "status": "proved",
   "theorems": [
    "c11_traversal_visits_every_bond",
    "c11_energy_pass_visits_every_bond_and_site",
    "c11_one_row_undefined",
    "c11_one_column_undefined"
   ],
   "note": ""
  },
  {
   "property": "C12",
   "status": "proved",
   "theorems": [
    "c12_sweep_reads_fresh_environments",
    "c12_three_site_sweep_reads_fresh_environments",
    "c12_any_history_reads_fresh_environments"
   ],
   "note": ""
  },
  {
   "property": "C13",
   "status": "proved",
   "theorems": [
    "c13_j1j2_local_energy",
    "c13_xxz_local_energy",
    "c13_zero_amplitude_throws"
   ],
   "note": "Bond terms, diagonals and pinning; a zero amplitude throws."
  },
  {
   "property": "C14",
   "status": "proved",
   "theorems": [
    "c14_tfim_local_energy"
   ],
   "note": ""
  },
  {
   "property": "C15",
   "status": "proved",
   "theorems": [
    "c15_torus_local_energy",
    "c15_two_site_direction_weight",
    "c15_each_pair_once_at_2x2_refuted",
    "c15_open_network_throws"
   ],
   "note": "Each pair once for at least three sites in both directions; a direction of two sites is counted twice (proved, with the 2x2 refutation). The Ising solver is modelled with amplitudes by contraction in place of holes: for the real holes of the TRG contractor see c86_tfim_small (sides 2 and 3: right) and c86_tfim_refuted (side 4: wrong)."
  },
  {
   "property": "C16",
   "status": "proved",
   "theorems": [
    "c16_hubbard_local_energy"
   ],
   "note": ""
  },
  {
   "property": "C17",
   "status": "proved",
   "theorems": [
    "c17_spinless_local_energy",
    "c17_tj_local_energy",
    "c17_tj_pinned_local_energy"
   ],
   "note": ""
  },
  {
   "property": "C18",
   "status": "proved",
   "theorems": [
    "c18_ratio_off_by_pair_term",
    "c18_ratio_exact_iff_no_pair_term",
    "c18_solver_uses_same_ratio",
    "c18_detailed_balance_refuted",
    "c18_densities_follow_configuration"
   ],
   "note": "The property as a user would state it is false of the code: the ratio carries an extra exp(v_ij). The theorems give the exact value, the condition under which it is right, and a configuration where detailed balance fails."
  },
  {
   "property": "C19",
   "status": "proved",
   "theorems": [
    "c19_packing_bijective",
    "c19_reads_last_store",
    "c19_fill_sets_every_pair"
   ],
   "note": ""
  },
  {
   "property": "C20",
   "status": "proved",
   "theorems": [
    "c20_permutations_complete",
    "c20_binary_complete",
    "c20_binary_too_large_throws"
   ],
   "note": "std::next_permutation is modelled from its specification; the loop is fuelled and shown to return for every sufficiently large fuel."
  },
  {
   "property": "C21",
   "status": "proved",
   "theorems": [
    "c21_energy_rank_independent",
    "c21_measurer_rank_independent",
    "c21_differing_keys_rank_dependent_refuted"
   ],
   "note": "Exact arithmetic. The measurer needs the same keys from every configuration; without that the result depends on the number of ranks (refuted)."
  },
  {
   "property": "C22",
   "status": "proved",
   "theorems": [
    "c22_gradient_is_covariance_plus_binning_error",
    "c22_gradient_exact_for_whole_bins",
    "c22_gradient_is_covariance_refuted",
    "c22_constant_shift",
    "c22_defined",
    "c22_gradient_norm_is_squared"
   ],
   "note": "Exact covariance when the bin size divides the samples per rank; otherwise off by the binning difference of the energy (value proved, counterexample given)."
  },
  {
   "property": "C23",
   "status": "proved",
   "theorems": [
    "c23_binned_mean_and_error",
    "c23_bins_exist",
    "c23_fewer_than_a_bin_dropped",
    "c23_constant_shift",
    "c23_other_ranks_hold_nothing",
    "c23_single_value_per_rank",
    "c23_lists_per_rank"
   ],
   "note": ""
  },
  {
   "property": "C24",
   "status": "proved",
   "theorems": [
    "c24_samples_reached"
   ],
   "note": ""
  },
  {
   "property": "C25",
   "status": "proved",
   "theorems": [
    "c25_rescue",
    "c25_abort",
    "c25_all_valid_afterwards",
    "c25_validity_when_states_differ_refuted"
   ],
   "note": ""
  },
  {
   "property": "C26",
   "status": "proved",
   "theorems": [
    "c26_roundtrip",
    "c26_other_labels_untouched",
    "c26_shape_mismatch",
    "c26_damaged_file",
    "c26_crash_never_wrong",
    "c26_crash_large_states_refuted",
    "c26_failed_load_keeps_configuration_refuted"
   ],
   "note": "The two refutations show the limits: states of two or more digits after a crash, and partially overwritten configurations after a failed load."
  },
  {
   "property": "C27",
   "status": "proved",
   "theorems": [
    "c27_random_occupancy",
    "c27_random_map",
    "c27_count_occupancy"
   ],
   "note": "std::shuffle is any permutation."
  },
  {
   "property": "C28",
   "status": "proved",
   "theorems": [
    "c28_configuration_transfer",
    "c28_wildcard_receive",
    "c28_uneven_sites_refuted",
    "c28_broadcast",
    "c28_truncated_buffer_rejected",
    "c28_overlong_buffer_rejected",
    "c28_unknown_boundary_rejected"
   ],
   "note": "States whose sites have different numbers of components are not transferred correctly (refuted). The packing of tensor shells by the tensor library is a hypothesis."
  },
  {
   "property": "C29",
   "status": "proved",
   "theorems": [
    "c29_containers_are_values",
    "c29_self_assignment_destroys",
    "c29_comparison"
   ],
   "note": ""
  },
  {
   "property": "C30",
   "status": "proved",
   "theorems": [
    "c30_row_major_once",
    "c30_default_matrix_is_empty",
    "c30_no_columns_undefined"
   ],
   "note": ""
  },
  {
   "property": "C31",
   "status": "proved",
   "theorems": [
    "c31_trajectories"
   ],
   "note": ""
  },
  {
   "property": "C32",
   "status": "proved",
   "theorems": [
    "c32_minimum"
   ],
   "note": "Energies below the largest double. The callback part is c69_callbacks."
  },
  {
   "property": "C33",
   "status": "proved",
   "theorems": [
    "c33_termination",
    "c33_rollback_livelock_refuted"
   ],
   "note": "Termination bound for every evaluator; non-termination with rollback is a refutation of the unconditional claim."
  },
  {
   "property": "C34",
   "status": "proved",
   "theorems": [
    "c34_statistics"
   ],
   "note": ""
  },
  {
   "property": "C35",
   "status": "proved",
   "theorems": [
    "c35_restart",
    "c35_momentum_keeps_discarded_gradient"
   ],
   "note": ""
  },
  {
   "property": "C36",
   "status": "proved",
   "theorems": [
    "c36_rates_never_rise",
    "c36_initial_choice",
    "c36_periodic_choice"
   ],
   "note": "For algorithms whose effective rate is the rate given to them (SGD, SR, MinSR)."
  },
  {
   "property": "C37",
   "status": "proved",
   "theorems": [
    "c37_preview_is_update",
    "c37_trial_is_step"
   ],
   "note": ""
  },
  {
   "property": "C38",
   "status": "proved",
   "theorems": [
    "c38_sgd",
    "c38_adagrad",
    "c38_adagrad_never_decreases",
    "c38_adam",
    "c38_average_weights",
    "c38_root"
   ],
   "note": "The element-wise inverse of the tensor library is a parameter."
  },
  {
   "property": "C39",
   "status": "proved",
   "theorems": [
    "c39_history",
    "c39_descent",
    "c39_secant",
    "c39_distinct_pairs_refuted"
   ],
   "note": "Real arithmetic. The invariant is over whole runs of the optimisation loop."
  },
  {
   "property": "C40",
   "status": "proved",
   "theorems": [
    "c40_accepted",
    "c40_budget",
    "c40_min_step_refuted"
   ],
   "note": "The objective is an arbitrary function of the evaluation number and step."
  },
  {
   "property": "C41",
   "status": "proved",
   "theorems": [
    "c41_exponential",
    "c41_step",
    "c41_multistep",
    "c41_multistep_down",
    "c41_cosine",
    "c41_warmup",
    "c41_plateau_rates",
    "c41_plateau_reduction",
    "c41_plateau_down",
    "c41_plateau_constant",
    "c41_plateau_floor_refuted"
   ],
   "note": "Real arithmetic."
  },
  {
   "property": "C42",
   "status": "proved",
   "theorems": [
    "c42_residual",
    "c42_products",
    "c42_definite",
    "c42_dimension"
   ],
   "note": "Exact arithmetic; kNumericalBreakdown needs NaN or infinity and is not reachable in the model."
  },
  {
   "property": "C43",
   "status": "proved",
   "theorems": [
    "c43_protocol"
   ],
   "note": "Every schedule (Acc), progress without buffering, and the result of the serial solver for the summed operator."
  },
  {
   "property": "C44",
   "status": "proved",
   "theorems": [
    "c44_covariance",
    "c44_no_samples",
    "c44_operator",
    "c44_natural_gradient"
   ],
   "note": "Equal sample counts on all ranks, as the sampler produces them."
  },
  {
   "property": "C45",
   "status": "proved",
   "theorems": [
    "c45_ring",
    "c45_complete"
   ],
   "note": "A sample stands for all the messages MPI_Send of a wave function consists of (C28)."
  },
  {
   "property": "C46",
   "status": "proved",
   "theorems": [
    "c46_matrix",
    "c46_hermitian",
    "c46_constant",
    "c46_semidefinite",
    "c46_filter",
    "c46_natural_gradient",
    "c46_downhill"
   ],
   "note": "LAPACK is assumed to return an orthonormal eigensystem; the ScaLAPACK path is not modelled."
  },
  {
   "property": "C47",
   "status": "proved",
   "theorems": [
    "c47_elementwise",
    "c47_vector_space",
    "c47_compound_forms",
    "c47_inner_product",
    "c47_boundary_of_results",
    "c47_boundary_lost_refuted",
    "c47_uneven_components_refuted"
   ],
   "note": "The boundary condition is lost in binary arithmetic and -=, and uneven component counts are not handled (refuted)."
  },
  {
   "property": "C48",
   "status": "partial",
   "theorems": [
    "c48_roundtrip",
    "c48_fresh",
    "c48_bytes",
    "c48_periodic_refuted",
    "c48_components_refuted",
    "c48_overwrite_refuted",
    "c48_tps",
    "c48_peps",
    "c48_peps_const",
    "c48_peps_const_refuted"
   ],
   "note": "Proved for fresh directories. Refuted (findings): a metadata line cut inside its last number loads a periodic state as open, or fewer components; a torn overwrite of an older dump loads a mixture; the const PEPS Dump with the default path writes names Load does not read."
  },
  {
   "property": "C49",
   "status": "partial",
   "theorems": [
    "c49_sum",
    "c49_real",
    "c49_complex",
    "c49_list",
    "c49_list_real",
    "c49_negative_refuted",
    "c49_phase_refuted",
    "c49_single_refuted"
   ],
   "note": "Proved without coefficients and for non-negative coefficients, and for any real ones on an odd number of sites. Refuted (findings): sign lost on an even number of sites, phase always lost, and sign lost for a single-element list."
  },
  {
   "property": "C50",
   "status": "proved",
   "theorems": [
    "c50_nearest_open",
    "c50_nearest_torus",
    "c50_chain_refuted",
    "c50_diagonals_open",
    "c50_diagonals_torus",
    "c50_onsite_open_refuted",
    "c50_onsite_torus_refuted",
    "c50_triangular"
   ],
   "note": "Findings: 1-wide chains get on-site weight below one; the three-site executor mis-assigns the on-site term of lower-left triangles."
  },
  {
   "property": "C51",
   "status": "proved",
   "theorems": [
    "c51_stops",
    "c51_plain",
    "c51_metrics",
    "c51_refused"
   ],
   "note": "Sweep outcomes are an arbitrary stream; sweeps that throw are not modelled."
  },
  {
   "property": "C52",
   "status": "proved",
   "theorems": [
    "c52_covers",
    "c52_corners",
    "c52_disjoint"
   ],
   "note": ""
  },
  {
   "property": "C53",
   "status": "proved",
   "theorems": [
    "c53_conserved",
    "c53_torus_charge",
    "c53_open_charge",
    "c53_open_edges",
    "c53_neutral_edge_refuted",
    "c53_matching",
    "c53_product"
   ],
   "note": "From any earlier state of the object. The header comment that all outer legs are neutral is refuted for charged states."
  },
  {
   "property": "C54",
   "status": "proved",
   "theorems": [
    "c54_centralize",
    "c54_honest",
    "c54_fresh",
    "c54_product",
    "c54_reverse_state",
    "c54_reverse_refuted",
    "c54_reverse_centred_refuted",
    "c54_truncate_refuted",
    "c54_entropy_refuted",
    "c54_compressed_refuted"
   ],
   "note": "Abstract tensor library with associative bond products; Centralize from every honest state, histories of factorising calls, and the calls that leave false flags (Reverse, RightCanonicalizeTruncate, the compressed result) or a stale centre (GetEntanglementEntropy)."
  },
  {
   "property": "C55",
   "status": "proved",
   "theorems": [
    "c55_trace",
    "c55_trace_two",
    "c55_contract_row",
    "c55_windows",
    "c55_scan",
    "c55_evolve_up",
    "c55_evolve_down",
    "c55_evolve_refuted",
    "c55_stale_refuted"
   ],
   "note": "Bosonic contractions modelled element by element with the axis numbers of the code; every trace returned after any history equals the exact value of the row. Findings: EvolveStep wraps past the last row going down or right; Evolve keeps stale caches."
  },
  {
   "property": "C56",
   "status": "proved",
   "theorems": [
    "c56_signs",
    "c56_nonnegative",
    "c56_consistent",
    "c56_complex_refuted",
    "c56_tiny_refuted"
   ],
   "note": "Sign invariance holds when some amplitude exceeds 1e-14 and no two have a purely imaginary overlap (all real lists); refuted, with witnesses, without either proviso."
  },
  {
   "property": "C57",
   "status": "proved",
   "theorems": [
    "c57_bounds",
    "c57_constant",
    "c57_window_zero_refuted"
   ],
   "note": ""
  },
  {
   "property": "C58",
   "status": "proved",
   "theorems": [
    "c58_fails",
    "c58_latest",
    "c58_order",
    "c58_gradient_tolerance_refuted"
   ],
   "note": "Finding: the gradient tolerance is 1e-15 instead of 1e-30 when SetPlateauPatience is the first base setter."
  },
  {
   "property": "C59",
   "status": "proved",
   "theorems": [
    "c59_pooled",
    "c59_one_hot",
    "c59_unknown_state",
    "c59_distribution",
    "c59_one_rank_error"
   ],
   "note": "Equal sample counts per rank are what c61_agreement gives. Finding: a one-rank run reports zero standard errors."
  },
  {
   "property": "C60",
   "status": "proved",
   "theorems": [
    "c60_sizes"
   ],
   "note": ""
  },
  {
   "property": "C61",
   "status": "proved",
   "theorems": [
    "c61_terminates",
    "c61_no_deadlock",
    "c61_agreement",
    "c61_prompt",
    "c61_no_skipped_collective",
    "c61_accept_rate_refuted"
   ],
   "note": "Interleaving model of the ranks with signals at any time. Finding: the printed acceptance rate after an emergency stop is divided by the requested number of sweeps."
  },
  {
   "property": "C62",
   "status": "proved",
   "theorems": [
    "c62_stopping",
    "c62_ranks_agree",
    "c62_passes_are_master_passes",
    "c62_error_callback_refuted"
   ],
   "note": ""
  },
  {
   "property": "C63",
   "status": "proved",
   "theorems": [
    "c63_checkpoints"
   ],
   "note": ""
  },
  {
   "property": "C64",
   "status": "partial",
   "theorems": [
    "c64_triangular_j1j2_local_energy",
    "c64_triangular_nn_local_energy",
    "c64_triangular_j1j2_measurement_refuted",
    "c64_triangular_j1j2_two_rows_refuted"
   ],
   "note": "Energy evaluation proved; the measurement half is refuted (finding): EvaluateObservables of the triangular J1-J2 solver traces the first bond of a row after its boundary tensors were shifted to the end, so it ends in an error on every lattice; with two rows CalEnergyAndHoles fails too."
  },
  {
   "property": "C65",
   "status": "partial",
   "theorems": [
    "c65_full_stack",
    "c65_any_stack",
    "c65_stack_after_traversal",
    "c65_one_boundary",
    "c65_one_boundary_refuted"
   ],
   "note": "Exact with a DOWN boundary per target row; refuted (finding) as the solvers call it, after TraverseAllBonds, on every lattice of three rows or more. The recorded values are amplitudes, not divided by that of the configuration."
  },
  {
   "property": "C66",
   "status": "proved",
   "theorems": [
    "c66_holes_are_derivatives"
   ],
   "note": ""
  },
  {
   "property": "C67",
   "status": "proved",
   "theorems": [
    "c67_energy_and_gradient"
   ],
   "note": ""
  },
  {
   "property": "C68",
   "status": "proved",
   "theorems": [
    "c68_largest_amplitude_is_one"
   ],
   "note": ""
  },
  {
   "property": "C69",
   "status": "proved",
   "theorems": [
    "c69_callbacks"
   ],
   "note": ""
  },
  {
   "property": "C70",
   "status": "proved",
   "theorems": [
    "c70_xxz_sample",
    "c70_j1j2_sample",
    "c70_triangular_sample",
    "c70_zero_amplitude_throws",
    "c70_xxz_expectations",
    "c70_j1j2_expectations",
    "c70_triangular_expectations"
   ],
   "note": "Exact contractions. The local correlation values are those of the adjoint operators (the code conjugates the amplitude ratio), which is what makes the averages right. The superconducting and structure-factor parts are C65."
  },
  {
   "property": "C71",
   "status": "proved",
   "theorems": [
    "c71_clip_value",
    "c71_clip_element",
    "c71_clip_norm",
    "c71_gradient_used"
   ],
   "note": ""
  },
  {
   "property": "C72",
   "status": "proved",
   "theorems": [
    "c72_init",
    "c72_trials",
    "c72_clear_cache_refuted",
    "c72_stale_trial_refuted",
    "c72_new_parameters_refuted",
    "c72_one_site_holes_refuted"
   ],
   "note": "Abstract tensor operations (any split, exact or truncated). The last sentence is refuted (finding): ClearCache also drops the layers and the next Trace is undefined behaviour; further findings on stale trials, parameters changed between calls and holes of a single site."
  },
  {
   "property": "C73",
   "status": "proved",
   "theorems": [
    "c73_amplitude",
    "c73_small",
    "c73_exact_decomposition",
    "c73_trials",
    "c73_state",
    "c73_state_closes"
   ],
   "note": "Tensors element by element with the axis lists of the code; the decomposition routine is a parameter and the condition is on its results."
  },
  {
   "property": "C74",
   "status": "partial",
   "theorems": [
    "c74_small_holes",
    "c74_own_tensor",
    "c74_own_tensor_after_moves",
    "c74_blind",
    "c74_hole_is_derivative_refuted"
   ],
   "note": "The derivative part holds on sides 2 and 3 and is refuted from side 4 on: there holes are averages of projections on the singular vectors, and c74_blind says what they cannot see. The part about the tensor already there holds on every side."
  },
  {
   "property": "C75",
   "status": "proved",
   "theorems": [
    "c75_trace_is_contraction",
    "c75_two_layer_trace_is_contraction",
    "c75_hole_closes",
    "c75_amplitude_of_component",
    "c75_xxz_local_energy",
    "c75_tfim_local_energy",
    "c75_holes_are_derivatives"
   ],
   "note": "Bosonic branch, SVD compression. Dense tensors; QR and SVD are parameters, required to multiply back. This discharges the consistency premise of C08, C13, C14, C64, C66 and C70 for the contraction of the code."
  },
  {
   "property": "C76",
   "status": "proved",
   "theorems": [
    "c76_call_applies_gate",
    "c76_calls_apply_gates",
    "c76_to_tps_same_state"
   ],
   "note": "Bosonic branches. Dense tensors; QR and SVD are parameters, required to multiply back. The local energy a projection returns is modelled but nothing is proved about it."
  },
  {
   "property": "C77",
   "status": "proved",
   "theorems": [
    "c77_exponential_exists",
    "c77_gate_is_exponential",
    "c77_sweep_is_trotter_product",
    "c77_sweeps_are_trotter_products"
   ],
   "note": "Bosonic branch, dense tensors, exact arithmetic. The tolerance of the series is a parameter. The sweep theorem rests on C76 and has its hypotheses."
  },
  {
   "property": "C78",
   "status": "partial",
   "theorems": [
    "c78_terms_add_up_partial",
    "c78_operators_add_up_partial",
    "c78_chain_refuted"
   ],
   "note": "Proved for at least two rows and columns; false on chains (finding): with one row the code subtracts one missing neighbour where two are missing, so on-site terms enter with too small a weight."
  },
  {
   "property": "C79",
   "status": "proved",
   "theorems": [
    "c79_spike_messages",
    "c79_spike_messages_natural"
   ],
   "note": "Read off the trace of evaluations and messages of the loop on the master rank; exact arithmetic."
  },
  {
   "property": "C80",
   "status": "proved",
   "theorems": [
    "c80_projection_applies_gate",
    "c80_result_sound",
    "c80_projection_succeeds",
    "c80_ratio",
    "c80_stored",
    "c80_outside_throws"
   ],
   "note": "Bosonic branches. Dense tensors; QR, SVD and the decomposition of Hermitian matrices are parameters, required to multiply back; the dominant eigenvectors (ArnoldiSolver, PowerMethod) are arbitrary matrices. Conditions on the run: square roots inverted not below the tolerance, norm not zero."
  },
  {
   "property": "C81",
   "status": "proved",
   "theorems": [
    "c81_every_plaquette_once",
    "c81_sweep_applies_gates",
    "c81_sweeps_apply_gates",
    "c81_energy",
    "c81_sweep_succeeds"
   ],
   "note": "Built on the loop projection of C80, with its parameters and conditions. The sum E0 is no number when the logarithm of a number that is not positive is taken. Printing, timing and the minimum and maximum bond dimension are not modelled."
  },
  {
   "property": "C82",
   "status": "proved",
   "theorems": [
    "c82_sweep_is_product",
    "c82_sweeps_are_products",
    "c82_operators_add_up",
    "c82_triangular_sweep",
    "c82_triangular_halves_add_up",
    "c82_onsite_refuted"
   ],
   "note": "The tensors of the triangles are built leg by leg as in the code; the series are cut off where the code cuts them off, between order 2 and 999. The sweep theorem covers executors without on-site terms and uniform ones on a torus; c82_onsite_refuted shows a case outside of it in which the terms do not add up (the finding of C50 at the level of operators). Timers, printing and truncation errors are not modelled."
  },
  {
   "property": "C83",
   "status": "proved",
   "theorems": [
    "c83_norm_zero_only_if_state_gone",
    "c83_sequence_divides_by_no_zero",
    "c83_every_norm"
   ],
   "note": "Over the projections of ProjModel (C76), with the same conditions on the PEPS and the QR decomposition; the first theorem needs nothing of the SVD. No rounding."
  },
  {
   "property": "C84",
   "status": "proved",
   "theorems": [
    "c84_split_is_wave",
    "c84_amplitude_of_evolved_state",
    "c84_xxz_energy_of_evolved_state",
    "c84_tfim_energy_of_evolved_state",
    "c84_exact_sum_is_expectation"
   ],
   "note": "Composes C76/C83 (projections), ToTPS and FromTPS, C75 (boundary MPS contraction, components, energies) and C21/C67 (exact summation); bosonic branches, no rounding. The contractor model has one dimension for all bonds: smaller legs are filled up with zeros."
  },
  {
   "property": "C85",
   "status": "proved",
   "theorems": [
    "c85_table_complete",
    "c85_table_once",
    "c85_any_order",
    "c85_number_announced",
    "c85_number_of_lines",
    "c85_number_without_selection",
    "c85_file_lines",
    "c85_order_of_values",
    "c85_duplicates_refuted",
    "c85_delivery_refuted"
   ],
   "note": "The loops that store the values are behind an unconditional throw at this commit: c85_delivery_refuted shows that the announced observable is never delivered. c85_duplicates_refuted: with a bond selected twice more values are announced than the loops store. The values themselves are not modelled. Sizes are natural numbers (no overflow)."
  },
  {
   "property": "C86",
   "status": "proved",
   "theorems": [
    "c86_build",
    "c86_build_refuses",
    "c86_in_step",
    "c86_replace",
    "c86_exchange_sweep",
    "c86_full_space_sweep",
    "c86_amplitudes_exist",
    "c86_energies",
    "c86_zero_amplitude",
    "c86_tfim_small",
    "c86_tfim_refuted",
    "c86_exact_amplitude",
    "c86_evolved_amplitude",
    "c86_evolved_energies"
   ],
   "note": "c86_tfim_refuted: with holes of the contractor the transverse-field energy on side 4 is not the local energy although every decomposition is lossless and the amplitude exact (see C74). c86_zero_amplitude: a zero amplitude makes every energy undefined (division by zero). Acceptance rules and the choice of a new state are arbitrary functions; the energies are taken without holes for the gradient."
  },
  {
   "property": "C87",
   "status": "proved",
   "theorems": [
    "c87_trajectory",
    "c87_minimum",
    "c87_final_state",
    "c87_one_call",
    "c87_recorded_refuted",
    "c87_rerun_refuted",
    "c87_other_ranks_refuted"
   ],
   "note": "The three readings a user could expect and that are false are refuted by runs of the model. Energies below the largest double are assumed for the minimum. The resource side (MPI buffers, files of the engine) is not modelled."
  },
  {
   "property": "C88",
   "status": "proved",
   "theorems": [
    "c88_table",
    "c88_row_major",
    "c88_taken",
    "c88_overflow_refuted"
   ],
   "note": "Refinement to a table by induction over histories. Allocation always succeeds in the model."
  },
  {
   "property": "C89",
   "status": "proved",
   "theorems": [
    "c89_pooled",
    "c89_energy",
    "c89_files",
    "c89_matrix_file",
    "c89_flat_file",
    "c89_bad_shape",
    "c89_no_samples",
    "c89_other_ranks",
    "c89_one_call",
    "c89_rerun_refuted"
   ],
   "note": "Induction over the runs. The samples themselves, and when a run is stopped, are arbitrary (see the properties of the sampling loop). Error bars are those of the model of the statistics functions."
  },
  {
   "property": "C90",
   "status": "proved",
   "theorems": [
    "c90_joined",
    "c90_single",
    "c90_components_refuted"
   ],
   "note": "The documented effect is refuted; what the function does is proved for all inputs of equal size. The header names two types it does not declare, so that it compiles only where these are in scope."
  },
  {
   "property": "C91",
   "status": "proved",
   "theorems": [
    "c91_solve",
    "c91_independent",
    "c91_any_mode",
    "c91_choice",
    "c91_source",
    "c91_too_large",
    "c91_overflow_refuted"
   ],
   "note": "The ScaLAPACK tool functions numroc and indxl2g are modelled as documented; pdsyev/pzheev are assumed to deliver an eigensystem distributed block-cyclically, and pdgemr2d/pzgemr2d to redistribute. The overflow beyond 2^31 local entries is a finding."
  },
  {
   "property": "C92",
   "status": "proved",
   "theorems": [
    "c92_recorded",
    "c92_no_deadlock",
    "c92_ends",
    "c92_completes",
    "c92_few_samples_refuted",
    "c92_single_rank"
   ],
   "note": "Invariant over all schedules of the ranks. MPI_Sendrecv is split into a send that never waits and a receive; sweeps and overlap function are arbitrary."
  },
  {
   "property": "C93",
   "status": "proved",
   "theorems": [
    "c93_all",
    "c93_min_max",
    "c93_max",
    "c93_even",
    "c93_uniform",
    "c93_chain_throws",
    "c93_chain_refuted"
   ],
   "note": "That reserve throws on a wrapped size is taken from the C++ standard library."
  }
 ]
}