# Formal model of QuantumLiquids/PEPS in Rocq (Coq 8.16.1)

Every area of the code has four kinds of files in `rocq/theories`:

* `XModel.v`: executable Gallina functions that follow the C++ function by function. Every definition is commented with the file and lines it models and with what is simplified.
* `XSpec.v`: what the property talks about, written without the model's helpers (Hamiltonians as matrices, amplitudes as sums over bonds, plain averages, permutations, event logs, ...).
* `XProofs.v`, `XMain.v`, ...: lemmas.
* `XProps.v`: only the property theorems, each closed by `exact lemma.`, with `Print Assumptions` beneath it and an `Example` with a concrete non-trivial case that meets the hypotheses.

Names: `cNN_...` belongs to property CNN. `_refuted` is a theorem `exists ..., ~ claim` or an explicit execution showing that the code does not do what the property asks; these are findings (section 5). `_partial` marks a theorem that covers a part only.

## 1. Conventions

* `size_t` is `nat` (or `N`/`Z`); a subtraction that would wrap is `Fail UB` (`usub`), never a totalised zero, unless the code relies on the wrap and the model spells it out.
* Exceptions, `exit` and `abort` are `Fail Throw`; out-of-range `operator[]`, `back()` of an empty container, null dereference, modulo by zero are `Fail UB`; `at()` out of range is `Fail Throw`. A theorem that concludes `= Ok ...` therefore also says that no such thing happens.
* Floating-point numbers are reals and complex numbers are pairs of reals (`Cplx.v`); rounding, overflow and NaN are not modelled, except where a property is about them (largest double as sentinel, thresholds, non-finite energies as a separate constructor).
* Tensors: where only the bookkeeping matters, a tensor is an abstract value with the operations the code applies to it (record `ops` of ContractorModel, `tensors` of CanonModel), so the theorems hold for every implementation of them. Where the value matters (walker, structure factor, direct sum, product-state initialisation) tensors are functions of their indices with the axis numbers of the code. Block sparsity is not modelled.
* Truncation: theorems about energies assume `contraction_consistent`: the value of a network does not depend on the window it is traced at. It is true of exact contraction (instances: ExactInstance.v, ProductInstance.v; and C75 proves it for the boundary MPS contraction of the code when the boundary dimension suffices), and under truncation it holds up to the truncation error.
* Random numbers, acceptance decisions, shuffles, evaluator results, signals, message schedules and crash points are universally quantified.
* MPI: collectives are functions from the list of per-rank inputs to the list of per-rank outputs; where the order of messages matters (C28, C43, C45, C61) there is a small-step interleaving semantics and the theorems hold for every schedule.
* Loops without an obvious bound take explicit fuel; the theorems state a sufficient amount or exhibit non-termination for every amount.

## 2. Properties

For each property: what is modelled and how it is proved, the theorems with the file they are in and the axiom set they use (letters of section 3), and what is missing or was found. The English statements are in properties.jsonl, the theorem lists also in MANIFEST.json.

### C01 An open-boundary NN sweep proposes every bond exactly once (proved)

`SweepModel.nn_sweep` runs the calls of `MCUpdateSquareNNUpdateBaseOBC::operator()` against the contractor model and logs every attempted move. Induction over rows and columns with a Hoare-style invariant on the caches (SweepProofs); the log is shown to be duplicate-free with exactly the straight two-site chains as members.

Theorems in SweepProps.v: `c01_nn_sweep_covers_bonds` [-], `c01_narrow_lattice_undefined` [-].

Notes: Holds for rows,cols >= 2 and any updater decisions; for one-row or one-column lattices the sweep is undefined behaviour (second theorem).

### C02 A three-site sweep stays inside the lattice and touches every straight triple once (proved)

As C01 for the three-site sweep.

Theorems in SweepProps.v: `c02_three_site_sweep_covers_triples` [-].

Notes: rows,cols >= 3.

### C03 Exchange updaters conserve the occupation numbers along every history (proved)

Each move is shown to permute the states of its window; invariant over arbitrary lists of routines (sweeps, energy passes, re-evaluations, replacements).

Theorems in UpdaterProps.v: `c03_exchange_conserves_occupations` [-], `c03_three_site_conserves_occupations` [-], `c03_periodic_exchange_conserves_occupations` [-], `c03_three_site_alternatives` [-].

Notes: Any sequence of routines; arbitrary acceptance decisions. The three-site updater needs a choice that stays among the alternatives, which C07 proves of the Suwa-Todo choice for a current state of positive weight.

### C04 The Hubbard updater conserves N_up and N_down and reaches every allowed two-site state (proved)

Candidate enumeration function, spec = filter over all 16 states; history invariant.

Theorems in UpdaterProps.v: `c04_hubbard_conserves_particle_numbers` [-], `c04_hubbard_candidates` [-], `c04_hubbard_move` [-].

### C05 Full-space updater codes two-site states bijectively and stays in the local Hilbert space (proved)

div/mod coding; history invariant.

Theorems in UpdaterProps.v: `c05_pair_code_bijection` [-], `c05_full_space_move` [-], `c05_full_space_states_stay_valid` [-], `c05_periodic_full_space_states_stay_valid` [-].

### C06 Exchange moves satisfy detailed balance with respect to |psi|^2 (proved)

The acceptance probability is a function of |psi'|^2/|psi|^2; detailed balance per bond; stationarity of any composition of moves by induction, on the finite list of all configurations.

Theorems in UpdaterProps.v: `c06_exchange_acceptance` [B], `c06_detailed_balance` [B], `c06_sweeps_leave_distribution_stationary` [B], `c06_lattice_exchange_is_list_exchange` [-].

Notes: Exact real arithmetic; exact amplitudes (the truncated contraction is the implementation of psi).

### C07 Suwa-Todo heat-bath choice: in range, never a zero-weight state, stationary (proved)

The transition probability from i to j is the length of the set of random numbers that select j, computed from the interval arithmetic of the algorithm; global balance, no rejection, in-range result; lifted to the chains of the full-space, Hubbard and three-site updaters.

Theorems in UpdaterProps.v: `c07_result_valid` [-], `c07_global_balance` [-], `c07_rejection_free` [-], `c07_normalisation_irrelevant` [-], `c07_choice_in_range` [-], `c07_full_space_stationary` [B], `c07_hubbard_stationary` [B], `c07_three_site_stationary` [B].

Notes: Weights are multiples of a common unit (naturals).

### C08 The cached amplitude always belongs to the current configuration (proved)

State machine of the wave-function component with its contractor and cached amplitude; invariant over histories. PBC version with a trace function instead of environments.

Theorems in SweepProps.v, UpdaterProps.v: `c08_amplitude_belongs_to_configuration` [-], `c08_periodic_amplitude_belongs_to_configuration` [-].

Notes: Any history of sweeps, traversals, energy passes, re-evaluations and configuration replacements after construction.

### C09 Boundary-MPS environments are never stale (proved)

Stacks of boundary MPS with an arbitrary absorb function; invariant over any list of contractor calls and site updates.

Theorems in SweepProps.v: `c09_boundary_mps_never_stale` [-].

Notes: Any list of contractor calls and site updates.

### C10 Boundary-tensor environments kept by EraseEnvsAfterUpdate are valid for the row/column being swept (proved)

Boundary tensors as folds of an arbitrary step along the row; `EraseEnvsAfterUpdate` keeps valid ones for the updated row or column. The refutation shows a tensor kept for another row whose content depends on the changed site.

Theorems in SweepProps.v: `c10_kept_boundary_tensors_valid` [-], `c10_other_rows_refuted` [-].

Notes: Both halves of the property: validity for the updated row/column, and a counterexample for another row.

### C11 The bond traversal never reads a missing environment and visits every bond once (proved)

Symbolic execution of the traversal loops over an error monad (missing entry / wrapped index = Err); loop invariants.

Theorems in SweepProps.v: `c11_traversal_visits_every_bond` [-], `c11_energy_pass_visits_every_bond_and_site` [-], `c11_one_row_undefined` [-], `c11_one_column_undefined` [-].

### C12 The updater sweep only uses existing, fresh environments (proved)

As C11 with updates.

Theorems in SweepProps.v: `c12_sweep_reads_fresh_environments` [-], `c12_three_site_sweep_reads_fresh_environments` [-], `c12_any_history_reads_fresh_environments` [-].

### C13 The XXZ / Heisenberg OBC energy estimator is the local energy of the stated Hamiltonian (proved)

The solver model walks the same traversal as C11, asks for windows, and evaluates the bond formulas. The sum of what it returns equals `local_energy` of a Hamiltonian given by its matrix elements on configurations (EnergySpec). Amplitudes, amplitude lists and the state of the component after the call are part of the statement.

Theorems in EnergyProps.v: `c13_j1j2_local_energy` [B], `c13_xxz_local_energy` [B], `c13_zero_amplitude_throws` [B].

Notes: Bond terms, diagonals and pinning; a zero amplitude throws.

### C14 The transverse-field Ising estimator is the local energy of the stated Hamiltonian (proved)

As C13.

Theorems in EnergyProps.v: `c14_tfim_local_energy` [B].

### C15 PBC solvers count every bond of the torus exactly once (proved)

Counting of modular bond lists.

Theorems in PbcProps.v: `c15_torus_local_energy` [B], `c15_two_site_direction_weight` [B], `c15_each_pair_once_at_2x2_refuted` [B], `c15_open_network_throws` [B].

Notes: Each pair once for at least three sites in both directions; a direction of two sites is counted twice (proved, with the 2x2 refutation). The Ising solver is modelled with amplitudes by contraction in place of holes: for the real holes of the TRG contractor see c86_tfim_small (sides 2 and 3: right) and c86_tfim_refuted (side 4: wrong).

### C16 Hubbard bond energies carry the right fermion signs (proved)

The Hamiltonian acts on occupation lists through creation and annihilation operators with Jordan-Wigner signs counted along the row-major order; the table of the code is compared with it for each pair of states, then summed as in C13.

Theorems in EnergyProps.v: `c16_hubbard_local_energy` [B].

### C17 t-J and spinless-fermion bond energies match their Hamiltonians (proved)

As C16.

Theorems in EnergyProps.v: `c17_spinless_local_energy` [B], `c17_tj_local_energy` [C], `c17_tj_pinned_local_energy` [C].

### C18 Jastrow-dressed hopping uses the exact Jastrow ratio (proved)

Formula for the Jastrow log-ratio; refutation by witness; corrected formula proved.

Theorems in JastrowProps.v: `c18_ratio_off_by_pair_term` [C], `c18_ratio_exact_iff_no_pair_term` [D], `c18_solver_uses_same_ratio` [C], `c18_detailed_balance_refuted` [D], `c18_densities_follow_configuration` [C].

Notes: The property as a user would state it is false of the code: the ratio carries an extra exp(v_ij). The theorems give the exact value, the condition under which it is right, and a configuration where detailed balance fails.

### C19 Jastrow parameters are stored symmetrically without collisions (proved)

Index arithmetic; injectivity and range.

Theorems in JastrowProps.v: `c19_packing_bijective` [-], `c19_reads_last_store` [A], `c19_fill_sets_every_pair` [A].

### C20 Exact summation enumerates every configuration of the sector exactly once (proved)

`std::next_permutation` from its specification, the enumeration loop with fuel; completeness by induction on the sorted order. Binary counting for the full space.

Theorems in ExactProps.v: `c20_permutations_complete` [-], `c20_binary_complete` [-], `c20_binary_too_large_throws` [-].

Notes: std::next_permutation is modelled from its specification; the loop is fuelled and shown to return for every sufficiently large fuel.

### C21 Exact-summation results do not depend on the number of MPI ranks (proved)

Sum over residue classes modulo rank count equals the whole sum.

Theorems in ExactProps.v: `c21_energy_rank_independent` [B], `c21_measurer_rank_independent` [B], `c21_differing_keys_rank_dependent_refuted` [B].

Notes: Exact arithmetic. The measurer needs the same keys from every configuration; without that the result depends on the number of ranks (refuted).

### C22 Monte-Carlo gradient is the energy-log-derivative covariance (proved)

Sums over lists of lists; algebra.

Theorems in StatProps.v: `c22_gradient_is_covariance_plus_binning_error` [C], `c22_gradient_exact_for_whole_bins` [C], `c22_gradient_is_covariance_refuted` [C], `c22_constant_shift` [C], `c22_defined` [C], `c22_gradient_norm_is_squared` [C].

Notes: Exact covariance when the bin size divides the samples per rank; otherwise off by the binning difference of the energy (value proved, counterexample given).

### C23 Binned mean and error use whole bins of every rank (proved)

List chunking model; algebra.

Theorems in StatProps.v: `c23_binned_mean_and_error` [C], `c23_bins_exist` [-], `c23_fewer_than_a_bin_dropped` [-], `c23_constant_shift` [C], `c23_other_ranks_hold_nothing` [C], `c23_single_value_per_rank` [C], `c23_lists_per_rank` [C].

### C24 Requested samples are always reached with minimal overshoot (proved)

Arithmetic.

Theorems in StatProps.v: `c24_samples_reached` [-].

### C25 Configuration rescue leaves every rank with a valid configuration or aborts everywhere (proved)

Protocol over list of ranks.

Theorems in StatProps.v: `c25_rescue` [B], `c25_abort` [B], `c25_all_valid_afterwards` [B], `c25_validity_when_states_differ_refuted` [B].

### C26 Configuration save/load round-trips and detects damaged or mismatched files (proved)

Character-level model of stream write/read.

Theorems in ConfProps.v: `c26_roundtrip` [-], `c26_other_labels_untouched` [-], `c26_shape_mismatch` [-], `c26_damaged_file` [-], `c26_crash_never_wrong` [-], `c26_crash_large_states_refuted` [-], `c26_failed_load_keeps_configuration_refuted` [-].

Notes: The two refutations show the limits: states of two or more digits after a crash, and partially overwritten configurations after a failed load.

### C27 Random(occupancy) produces exactly the requested occupation numbers (proved)

Permutation invariance of counts.

Theorems in ConfProps.v: `c27_random_occupancy` [-], `c27_random_map` [-], `c27_count_occupancy` [-].

Notes: std::shuffle is any permutation.

### C28 MPI transfer of configurations and states is lossless and never mixes senders (proved)

Serialisation to message lists, FIFO channels per pair of ranks with wildcard receive resolved once; every interleaving of senders.

Theorems in ConfProps.v, MsgProps.v: `c28_configuration_transfer` [-], `c28_wildcard_receive` [-], `c28_uneven_sites_refuted` [-], `c28_broadcast` [-], `c28_truncated_buffer_rejected` [-], `c28_overlong_buffer_rejected` [-], `c28_unknown_boundary_rejected` [-].

Notes: States whose sites have different numbers of components are not transferred correctly (refuted). The packing of tensor shells by the tensor library is a hypothesis.

### C29 Copies of lattice containers are deep and memory is released exactly once (proved)

Heap of cells with explicit allocation, double free and use after free as UB; refinement of every operation sequence to plain values.

Theorems in DuoProps.v: `c29_containers_are_values` [-], `c29_self_assignment_destroys` [-], `c29_comparison` [-].

### C30 Iterating a lattice container visits each element once in row-major order (proved)

Iterator step model.

Theorems in DuoProps.v: `c30_row_major_once` [-], `c30_default_matrix_is_empty` [-], `c30_no_columns_undefined` [-].

### C31 Optimisation trajectories are complete and bounded (proved)

`IterativeOptimize` as a big-step loop over an arbitrary evaluator stream; trace of evaluations, accepted steps, callbacks, checkpoints and prints; properties read off the trace (OptSpec).

Theorems in OptProps.v: `c31_trajectories` [C].

### C32 min_energy and the lowest state are the true minimum along the run (proved)

As C31.

Theorems in OptProps.v: `c32_minimum` [C].

Notes: Energies below the largest double. The callback part is c69_callbacks.

### C33 Spike recovery terminates for S1-S3 and can livelock for S4 (proved)

As C31; counterexample stream.

Theorems in OptProps.v: `c33_termination` [C], `c33_rollback_livelock_refuted` [C].

Notes: Termination bound for every evaluator; non-termination with rollback is a refutation of the unconditional claim.

### C34 Spike statistics equal the event log (proved)

As C31.

Theorems in OptProps.v: `c34_statistics` [C].

### C35 A rollback returns to the last accepted state (proved)

As C31.

Theorems in AlgProps.v, OptProps.v: `c35_restart` [C], `c35_momentum_keeps_discarded_gradient` [C].

### C36 Step selectors pick the best candidate and never raise the learning rate (proved)

Selector functions.

Theorems in OptProps.v: `c36_rates_never_rise` [C], `c36_initial_choice` [B], `c36_periodic_choice` [B].

Notes: For algorithms whose effective rate is the rate given to them (SGD, SR, MinSR).

### C37 A previewed SGD step equals the step later taken and does not disturb the optimiser (proved)

Vector model.

Theorems in AlgProps.v: `c37_preview_is_update` [B], `c37_trial_is_step` [C].

### C38 First-order updates implement their closed forms (proved)

Vector model, induction.

Theorems in AlgProps.v: `c38_sgd` [B], `c38_adagrad` [C], `c38_adagrad_never_decreases` [B], `c38_adam` [C], `c38_average_weights` [B], `c38_root` [C].

Notes: The element-wise inverse of the tensor library is a parameter.

### C39 L-BFGS directions are descent directions and history is bounded (proved)

Inner-product argument on the two-loop recursion.

Theorems in LbProps.v: `c39_history` [C], `c39_descent` [C], `c39_secant` [C], `c39_distinct_pairs_refuted` [B].

Notes: Real arithmetic. The invariant is over whole runs of the optimisation loop.

### C40 Strong-Wolfe search returns an acceptable step within its budget (proved)

Line-search model with arbitrary phi.

Theorems in LbProps.v: `c40_accepted` [B], `c40_budget` [B], `c40_min_step_refuted` [B].

Notes: The objective is an arbitrary function of the evaluation number and step.

### C41 Learning-rate schedules respect their documented bounds (proved)

Scheduler functions over R.

Theorems in LbProps.v: `c41_exponential` [D], `c41_step` [B], `c41_multistep` [A], `c41_multistep_down` [B], `c41_cosine` [C], `c41_warmup` [B], `c41_plateau_rates` [B], `c41_plateau_reduction` [B], `c41_plateau_down` [B], `c41_plateau_constant` [B], `c41_plateau_floor_refuted` [B].

Notes: Real arithmetic.

### C42 Conjugate gradient returns solutions with the residual it claims (proved)

CG over vectors of complex numbers with an arbitrary linear operator; residual invariants, conjugacy and finite termination.

Theorems in CgProps.v: `c42_residual` [C], `c42_products` [C], `c42_definite` [C], `c42_dimension` [C].

Notes: Exact arithmetic; kNumericalBreakdown needs NaN or infinity and is not reachable in the model.

### C43 The distributed CG protocol cannot deadlock and sums every rank once per product (proved)

Master/worker message protocol with unbuffered sends; well-founded measure over all schedules (Acc), progress, and equality with the serial solver.

Theorems in CgProps.v: `c43_protocol` [C].

Notes: Every schedule (Acc), progress without buffering, and the result of the serial solver for the summed operator.

### C44 The SR matrix is the covariance of log-derivatives with the shift added once (proved)

Sums.

Theorems in CgProps.v: `c44_covariance` [B], `c44_no_samples` [B], `c44_operator` [B], `c44_natural_gradient` [C].

Notes: Equal sample counts on all ranks, as the sampler produces them.

### C45 The MinSR ring exchange is deadlock-free and delivers every batch (proved)

Ring exchange with blocking sends and receives; every schedule terminates and delivers all batches.

Theorems in MinsrProps.v: `c45_ring` [-], `c45_complete` [-].

Notes: A sample stands for all the messages MPI_Send of a wave function consists of (C28).

### C46 The MinSR T matrix is the centred Gram matrix (proved)

Sums.

Theorems in MinsrProps.v: `c46_matrix` [B], `c46_hermitian` [B], `c46_constant` [B], `c46_semidefinite` [B], `c46_filter` [B], `c46_natural_gradient` [B], `c46_downhill` [B].

Notes: LAPACK is assumed to return an orthonormal eigensystem; the ScaLAPACK path is not modelled.

### C47 Split-index TPS arithmetic obeys vector-space laws and keeps the boundary condition (proved)

Records of optional tensors.

Theorems in TpsProps.v: `c47_elementwise` [B], `c47_vector_space` [B], `c47_compound_forms` [A], `c47_inner_product` [B], `c47_boundary_of_results` [A], `c47_boundary_lost_refuted` [A], `c47_uneven_components_refuted` [B].

Notes: The boundary condition is lost in binary arithmetic and -=, and uneven component counts are not handled (refuted).

### C48 A crash while dumping a TPS to a fresh directory is detected by Load (partial)

File system as a map from names to byte strings, dumps as lists of write steps, crash after any prefix including inside a file.

Theorems in DumpProps.v: `c48_roundtrip` [-], `c48_fresh` [-], `c48_bytes` [-], `c48_periodic_refuted` [-], `c48_components_refuted` [-], `c48_overwrite_refuted` [-], `c48_tps` [-], `c48_peps` [-], `c48_peps_const` [-], `c48_peps_const_refuted` [-].

Notes: Proved for fresh directories. Refuted (findings): a metadata line cut inside its last number loads a periodic state as open, or fewer components; a torn overwrite of an older dump loads a mixture; the const PEPS Dump with the default path writes names Load does not read.

### C49 The direct sum of TPS adds amplitudes (partial)

Direct sum of tensors by block indices; amplitude as the sum over all bonds; connectivity of the lattice forces one block.

Theorems in SumProps.v: `c49_sum` [B], `c49_real` [D], `c49_complex` [D], `c49_list` [B], `c49_list_real` [D], `c49_negative_refuted` [D], `c49_phase_refuted` [D], `c49_single_refuted` [D].

Notes: Proved without coefficients and for non-negative coefficients, and for any real ones on an odd number of sites. Refuted (findings): sign lost on an even number of sites, phase always lost, and sign lost for a single-element list.

### C50 Simple-update gates distribute the Hamiltonian exactly once (proved)

Weights as rationals, sums over triangles/bonds.

Theorems in SuProps.v: `c50_nearest_open` [B], `c50_nearest_torus` [B], `c50_chain_refuted` [B], `c50_diagonals_open` [B], `c50_diagonals_torus` [B], `c50_onsite_open_refuted` [B], `c50_onsite_torus_refuted` [B], `c50_triangular` [B].

Notes: Findings: 1-wide chains get on-site weight below one; the three-site executor mis-assigns the on-site term of lower-left triangles.

### C51 Simple/loop update stop exactly when the advanced criterion says so (proved)

Loop state machine.

Theorems in SuProps.v: `c51_stops` [C], `c51_plain` [C], `c51_metrics` [C], `c51_refused` [C].

Notes: Sweep outcomes are an arbitrary stream; sweeps that throw are not modelled.

### C52 The loop-update sweep visits every plaquette once in non-overlapping passes (proved)

Arithmetic of passes.

Theorems in SuProps.v: `c52_covers` [-], `c52_corners` [-], `c52_disjoint` [-].

### C53 Product-state initialisation conserves charge at every tensor (proved)

Charges in an abelian group; induction on columns/rows.

Theorems in InitProps.v: `c53_conserved` [-], `c53_torus_charge` [-], `c53_open_charge` [-], `c53_open_edges` [-], `c53_neutral_edge_refuted` [-], `c53_matching` [-], `c53_product` [-].

Notes: From any earlier state of the object. The header comment that all outer legs are neutral is refuted for charged states.

### C54 Boundary-MPS canonical bookkeeping matches the tensors (proved)

Flag vectors beside an abstract tensor library with associative bond products and factorisations that guarantee isometries; centre moves, histories and the calls that leave false flags.

Theorems in CanonProps.v: `c54_centralize` [-], `c54_honest` [-], `c54_fresh` [-], `c54_product` [-], `c54_reverse_state` [-], `c54_reverse_refuted` [-], `c54_reverse_centred_refuted` [-], `c54_truncate_refuted` [-], `c54_entropy_refuted` [-], `c54_compressed_refuted` [-].

Notes: Abstract tensor library with associative bond products; Centralize from every honest state, histories of factorising calls, and the calls that leave false flags (Reverse, RightCanonicalizeTruncate, the compressed result) or a stale centre (GetEntanglementEntropy).

### C55 Walker traces return the exact value of the row or throw (proved)

The walker, its left/right environments and its traces with element-wise contractions following the axis lists of the code; every trace equals the sum over bonds of the row between two MPSs.

Theorems in WalkProps.v: `c55_trace` [B], `c55_trace_two` [B], `c55_contract_row` [B], `c55_windows` [B], `c55_scan` [B], `c55_evolve_up` [-], `c55_evolve_down` [-], `c55_evolve_refuted` [-], `c55_stale_refuted` [B].

Notes: Bosonic contractions modelled element by element with the axis numbers of the code; every trace returned after any history equals the exact value of the row. Findings: EvolveStep wraps past the last row going down or right; Evolve keeps stale caches.

### C56 The psi-consistency diagnostic ignores global signs (proved)

Alignment of amplitudes to a reference and the resulting spread; signs, threshold and complex phases.

Theorems in MeasProps.v: `c56_signs` [C], `c56_nonnegative` [C], `c56_consistent` [C], `c56_complex_refuted` [C], `c56_tiny_refuted` [C].

Notes: Sign invariance holds when some amplitude exceeds 1e-14 and no two have a purely imaginary overlap (all real lists); refuted, with witnesses, without either proviso.

### C57 The spike-detection moving average stays meaningful (proved)

Model over R.

Theorems in OptProps.v: `c57_bounds` [B], `c57_constant` [B], `c57_window_zero_refuted` [B].

### C58 Optimizer parameter building is order-insensitive and rejects incomplete input (proved)

Builder state machine.

Theorems in BuildProps.v: `c58_fails` [B], `c58_latest` [B], `c58_order` [B], `c58_gradient_tolerance_refuted` [B].

Notes: Finding: the gradient tolerance is 1e-15 instead of 1e-30 when SetPlateauPatience is the first base setter.

### C59 Pooled measurement equals averaging all samples; distributions are normalised (proved)

Sums.

Theorems in MeasProps.v: `c59_pooled` [C], `c59_one_hot` [A], `c59_unknown_state` [A], `c59_distribution` [B], `c59_one_rank_error` [C].

Notes: Equal sample counts per rank are what c61_agreement gives. Finding: a one-rank run reports zero standard errors.

### C60 TRG size check accepts exactly 2^k and 3*2^k (proved)

Arithmetic.

Theorems in MeasProps.v: `c60_sizes` [-].

### C61 Emergency stop is agreed by all ranks (proved)

Ranks as interleaved processes with signals at any time; collectives as barriers; agreement, termination and absence of deadlock for every schedule.

Theorems in MeasProps.v: `c61_terminates` [-], `c61_no_deadlock` [-], `c61_agreement` [-], `c61_prompt` [-], `c61_no_skipped_collective` [-], `c61_accept_rate_refuted` [B].

Notes: Interleaving model of the ranks with signals at any time. Finding: the printed acceptance rate after an emergency stop is divided by the requested number of sweeps.

### C62 Stopping criteria are sound and consistent across ranks (proved)

As C31.

Theorems in OptProps.v: `c62_stopping` [C], `c62_ranks_agree` [A], `c62_passes_are_master_passes` [C], `c62_error_callback_refuted` [B].

### C63 Checkpoints are written exactly at the scheduled iterations (proved)

As C31.

Theorems in OptProps.v: `c63_checkpoints` [C].

### C64 Energy of the triangular Heisenberg solvers, optimised and measured (partial)

Both triangular solvers as programs over the contractor model with the second-neighbour windows; energies compared with a Hamiltonian defined through geometric distances. The measurement pass of the J1-J2 solver is shown to end in an error on every lattice.

Theorems in TriProps.v: `c64_triangular_j1j2_local_energy` [B], `c64_triangular_nn_local_energy` [B], `c64_triangular_j1j2_measurement_refuted` [-], `c64_triangular_j1j2_two_rows_refuted` [B].

Notes: Energy evaluation proved; the measurement half is refuted (finding): EvaluateObservables of the triangular J1-J2 solver traces the first bond of a row after its boundary tensors were shifted to the end, so it ends in an error on every lattice; with two rows CalEnergyAndHoles fails too.

### C65 Structure-factor measurement covers every requested pair (partial)

The mixin with its own stacks of boundary MPS and element-wise contractions; each recorded value compared with the amplitude of the network with two sites exchanged. TraverseAllBonds is shown to leave one DOWN boundary.

Theorems in SfProps.v: `c65_full_stack` [B], `c65_any_stack` [B], `c65_stack_after_traversal` [-], `c65_one_boundary` [B], `c65_one_boundary_refuted` [B].

Notes: Exact with a DOWN boundary per target row; refuted (finding) as the solvers call it, after TraverseAllBonds, on every lattice of three rows or more. The recorded values are amplitudes, not divided by that of the configuration.

### C66 Energy holes are derivatives of the amplitude (proved)

The hole of a site, contracted with any replacement tensor, is the amplitude of the network with that tensor: derivative of a multilinear function.

Theorems in EnergyProps.v: `c66_holes_are_derivatives` [B].

### C67 Exact-summation energy is the Rayleigh quotient and the gradient its derivative (proved)

The exact-summation evaluator over all configurations of a sector, with the gradient assembled per component; Rayleigh quotient for a Hermitian Hamiltonian and the Wirtinger derivative of it.

Theorems in ExactProps.v: `c67_energy_and_gradient` [B].

### C68 State normalisation makes the largest sampled amplitude one (proved)

Normalisation factors over the list of ranks; the largest amplitude after it is one.

Theorems in StatProps.v: `c68_largest_amplitude_is_one` [D].

### C69 Callbacks see every new minimum and every accepted step (proved)

Callbacks logged in the trace of C31.

Theorems in OptProps.v: `c69_callbacks` [C].

### C70 Measured samples of the spin solvers have the expectation values as averages (proved)

The measurement pass as a program over the contractor model: bonds in traversal order, correlations of the middle row through replaced traces, S^z by site. Each entry compared with a local energy of an operator on configurations; averages by Hermitian reordering of the double sum.

Theorems in ObsProps.v: `c70_xxz_sample` [B], `c70_j1j2_sample` [B], `c70_triangular_sample` [B], `c70_zero_amplitude_throws` [B], `c70_xxz_expectations` [B], `c70_j1j2_expectations` [B], `c70_triangular_expectations` [B].

Notes: Exact contractions. The local correlation values are those of the adjoint operators (the code conjugates the amplitude ratio), which is what makes the averages right. The superconducting and structure-factor parts are C65.

### C71 Gradient clipping bounds what it says and keeps directions (proved)

Clip functions on vectors of complex numbers, element-wise and by norm.

Theorems in AlgProps.v, TpsProps.v: `c71_clip_value` [C], `c71_clip_element` [C], `c71_clip_norm` [C], `c71_gradient_used` [C].

### C72 The TRG contractor keeps its cache in step with the accepted moves (proved)

Layers as vectors with parent and child links, built by the index arithmetic of the code; splits, contractions, trials and commits over abstract tensor operations. Invariant: every cached tensor and split is the function of the current network given by the links. The links are proved to form, at every layer, a family in which each node has two parents and is always cut the same way.

Theorems in TrgProps.v: `c72_init` [-], `c72_trials` [-], `c72_clear_cache_refuted` [-], `c72_stale_trial_refuted` [-], `c72_new_parameters_refuted` [-], `c72_one_site_holes_refuted` [-].

Notes: Abstract tensor operations (any split, exact or truncated). The last sentence is refuted (finding): ClearCache also drops the layers and the next Trace is undefined behaviour; further findings on stale trials, parameters changed between calls and holes of a single site.

### C73 The TRG contractor is exact when its decompositions lose nothing (proved)

Tensors as a list of dimensions and a function of the indices; Contract, Transpose, Eye and the decomposition as the code uses them, with its axis lists. Specification: one nested sum over the bonds of the torus. Proof: a general law of exchanging a network for the network of its halves, applied to plaquettes (even layers) and diamonds (odd layers), induction over the layers, and the three closing contractions computed.

Theorems in TrgExactProps.v: `c73_amplitude` [C], `c73_small` [C], `c73_exact_decomposition` [C], `c73_trials` [C], `c73_state` [A], `c73_state_closes` [-].

Notes: Tensors element by element with the axis lists of the code; the decomposition routine is a parameter and the condition is on its results.

### C74 Holes of the TRG contractor stand for the network around a site (partial)

The backward pass layer by layer, with the axis lists, the pseudo-inverse of the root singular values and the average over the two parents. Each axis list is checked by a small reflective decision procedure for equality of contractions (NetEx). Induction over the layers carries: the pairing with the own tensor is preserved, and probes that every piece maps to zero stay at zero. The refutation is a 4x4 network with an explicit rank-one decomposition for which every cached split is shown lossless and singular.

Theorems in TrgHoleProps.v: `c74_small_holes` [C], `c74_own_tensor` [C], `c74_own_tensor_after_moves` [C], `c74_blind` [C], `c74_hole_is_derivative_refuted` [C].

Notes: The derivative part holds on sides 2 and 3 and is refuted from side 4 on: there holes are averages of projections on the singular vectors, and c74_blind says what they cannot see. The part about the tensor already there holds on every side.

### C75 Boundary MPS contraction of an open lattice is exact when nothing is truncated (proved)

The contractions of MultiplyMPO (SVD compression), of the growth of boundary tensors and of the traces and holes, with the axis numbers of the code, as an instance of the operations the contractor is made of. The value of an MPS is a sum over its bonds; a sweep of QR and of SVD keeps it; by induction over the slices the boundary MPS is the sum over the bonds of the slices behind it (the rank bound keeps the SVD exact); environments are partial sums of a chain of three or four rows; a permutation of the bond variables turns the result into the sum over all bonds.

Theorems in BmpsProps.v: `c75_trace_is_contraction` [B], `c75_two_layer_trace_is_contraction` [B], `c75_hole_closes` [B], `c75_amplitude_of_component` [B], `c75_xxz_local_energy` [B], `c75_tfim_local_energy` [B], `c75_holes_are_derivatives` [B].

Notes: Bosonic branch, SVD compression. Dense tensors; QR and SVD are parameters, required to multiply back. This discharges the consistency premise of C08, C13, C14, C64, C66 and C70 for the contraction of the code.

### C76 Simple-update projections apply their gates exactly when nothing is truncated, and ToTPS keeps the state (proved)

The contractions of the six projections, of the weights eaten and divided out and of ToTPS, with the axis numbers of the code. The sum over all bonds is split into the bonds inside the sites of a call and the others; where the product of the other factors is not zero, the weights around the sites are invertible, and the sum over the inner bonds is the old one with the gate (QR and SVD multiply back, eaten weights cancel). Sequences by induction: every call keeps legs and weights fitting. ToTPS: each weight is the product of the two square roots at its ends.

Theorems in ProjProps.v: `c76_call_applies_gate` [C], `c76_calls_apply_gates` [C], `c76_to_tps_same_state` [C].

Notes: Bosonic branches. Dense tensors; QR and SVD are parameters, required to multiply back. The local energy a projection returns is modelled but nothing is proved about it.

### C77 Evolution gates are exponentials, and a lossless sweep applies them bond by bond (proved)

TaylorExpMatrix as tensors with the leg orders of the code. Each tensor of the series is shown to be the next term of the exponential series as a matrix over the values of the sites; the remainder is bounded with the Cauchy-Schwarz inequality for the 2-norm and the series of exp. Matrices over the values of some sites act on wave functions, and powers act as repeated operators; with C76 a sweep is then the product of the series.

Theorems in ExpProps.v: `c77_exponential_exists` [C], `c77_gate_is_exponential` [D], `c77_sweep_is_trotter_product` [C], `c77_sweeps_are_trotter_products` [C].

Notes: Bosonic branch, dense tensors, exact arithmetic. The tolerance of the series is a parameter. The sweep theorem rests on C76 and has its hypotheses.

### C78 The terms a simple-update sweep evolves with add up to the Hamiltonian (partial)

The coordination numbers of the code are compared with the number of bonds of a site; the sum over bonds is rearranged into a sum over sites. The chain of three sites is computed.

Theorems in ExpProps.v: `c78_terms_add_up_partial` [C], `c78_operators_add_up_partial` [B], `c78_chain_refuted` [C].

Notes: Proved for at least two rows and columns; false on chains (finding): with one row the code subtracts one missing neighbour where two are missing, so on-site terms enter with too small a weight.

### C79 Spikes are reported exactly when the documented thresholds are exceeded (proved)

The specification computes averages, retries and messages from the trace alone. Invariant: the averages kept by the loop are those of the accepted evaluations of its trace, its attempt counter and saved state are those the trace tells, and every evaluation so far has been judged as specified.

Theorems in SpikeProps.v: `c79_spike_messages` [C], `c79_spike_messages_natural` [C].

Notes: Read off the trace of evaluations and messages of the loop on the master rank; exact arithmetic.

### C80 A loop projection that loses nothing applies its gate (proved)

The contractions of the loop projection with the axis numbers of the code; the loop is a ring of four tensors and four weights. The gate is put on by QR and SVD; gauge fixing and full-environment truncation replace the weight of one bond by other matrices whose product is the old weight (rebond), so that the trace around the ring, with any values of the outer legs, stays; the sum over all bonds of the lattice is split into the four of the loop and the others, as in C76. Success: Upsilons are Hermitian exactly, their traces are sums of squares that vanish only with the state, and the conjugate gradients start at the solution.

Theorems in LoopProps.v: `c80_projection_applies_gate` [C], `c80_result_sound` [C], `c80_projection_succeeds` [C], `c80_ratio` [C], `c80_stored` [C], `c80_outside_throws` [C].

Notes: Bosonic branches. Dense tensors; QR, SVD and the decomposition of Hermitian matrices are parameters, required to multiply back; the dominant eigenvectors (ArnoldiSolver, PowerMethod) are arbitrary matrices. Conditions on the run: square roots inverted not below the tolerance, norm not zero.

### C81 A loop-update sweep is the product of its plaquette gates, and reports matching energies (proved)

A sweep is a fold of the loop projection (LoopModel) over the passes (SuModel), with the norm product and the energy. The passes are shown to be the plaquettes column by column, filtered by parity. Induction over the list of plaquettes with C80 at every step: gates act linearly and see only basis states of the sites, so factors come out. Norms are not negative, so a positive product means that no factor was zero.

Theorems in LoopSweepProps.v: `c81_every_plaquette_once` [-], `c81_sweep_applies_gates` [D], `c81_sweeps_apply_gates` [D], `c81_energy` [D], `c81_sweep_succeeds` [D].

Notes: Built on the loop projection of C80, with its parameters and conditions. The sum E0 is no number when the logarithm of a number that is not positive is taken. Printing, timing and the minimum and maximum bond dimension are not modelled.

### C82 Sweeps with terms on triangles are Trotter products of the Hamiltonian (proved)

The calls of both sweeps are listed triangle by triangle (TriSweepModel) with the Hamiltonian of each built by outer products, transpositions and sums. Elements of these tensors are computed, and turned into sums of two-site and one-site terms on a wave function; each gate is the exponential series of that operator (C77), and induction over the list gives the product. That the operators add up is a rearrangement of sums over plaquettes: every bond is in two triangles on each side. Norms are not negative and, by losslessness, not zero, so the energy is a number.

Theorems in TriSweepProps.v: `c82_sweep_is_product` [D], `c82_sweeps_are_products` [D], `c82_operators_add_up` [B], `c82_triangular_sweep` [D], `c82_triangular_halves_add_up` [B], `c82_onsite_refuted` [C].

Notes: The tensors of the triangles are built leg by leg as in the code; the series are cut off where the code cuts them off, between order 2 and 999. The sweep theorem covers executors without on-site terms and uniform ones on a torus; c82_onsite_refuted shows a case outside of it in which the terms do not add up (the finding of C50 at the level of operators). Timers, printing and truncation errors are not modelled.

### C83 A projection divides by zero only if its gate takes the state to zero (proved)

For each of the six projections, backwards through the code: if the norm of the local tensor is zero all its elements are; the wave function is a sum of products of this tensor (after the gate) with the q-factors and the rest of the network, so all amplitudes of the new state are zero. The gate acts linearly, so later gates keep a zero state at zero, and induction over the list gives the sequence.

Theorems in ProjNullProps.v: `c83_norm_zero_only_if_state_gone` [C], `c83_sequence_divides_by_no_zero` [C], `c83_every_norm` [C].

Notes: Over the projections of ProjModel (C76), with the same conditions on the PEPS and the QR decomposition; the first theorem needs nothing of the SVD. No rounding.

### C84 From the simple update to the measured energy: the state that is sampled is the evolved state (proved)

FromTPS is modelled as the contraction with a unit vector (PipeModel). The sum over all bonds of the sampled tensors, filled up with zeros to one dimension D, is the amplitude of the TPS: an index outside of a leg makes the element at the left or upper end of its bond zero. ToTPS keeps the wave function (C76), weights that come from an SVD stay non-negative along the calls, and the evolution multiplies the wave function by 1/n (C83). This is the wave function that C75 gives amplitudes and energies for; local energies and Rayleigh quotients do not change when the wave function is multiplied by a number; exact summation is C21.

Theorems in PipeProps.v: `c84_split_is_wave` [C], `c84_amplitude_of_evolved_state` [C], `c84_xxz_energy_of_evolved_state` [C], `c84_tfim_energy_of_evolved_state` [C], `c84_exact_sum_is_expectation` [C].

Notes: Composes C76/C83 (projections), ToTPS and FromTPS, C75 (boundary MPS contraction, components, energies) and C21/C67 (exact summation); bosonic branches, no rounding. The contractor model has one dimension for all bonds: smaller legs are filled up with zeros.

### C85 The coordinate table of the singlet pair correlations matches the announced values (proved)

The counting, the table, its lines and the order of the measurement loops are modelled as functions on lists (ScModel). A row is in the table iff it describes a pair (ScSpec.pair_row); the lengths by sums; the orders agree because both lists of reference bonds are strictly sorted with the same members.

Theorems in ScProps.v: `c85_table_complete` [-], `c85_table_once` [-], `c85_any_order` [-], `c85_number_announced` [-], `c85_number_of_lines` [-], `c85_number_without_selection` [-], `c85_file_lines` [-], `c85_order_of_values` [-], `c85_duplicates_refuted` [-], `c85_delivery_refuted` [-].

Notes: The loops that store the values are behind an unconditional throw at this commit: c85_delivery_refuted shows that the announced observable is never delivered. c85_duplicates_refuted: with a bond selected twice more values are announced than the loops store. The values themselves are not modelled. Sizes are natural numbers (no overflow).

### C86 A periodic wave-function component is always that of its configuration, and its energies are local energies (proved)

The component, its trial and commit, the two periodic updaters and the three periodic energies are modelled on top of the TRG contractor (TorusModel). Invariant of every history: the contractor has the topology and the tensors of a new one (lemmas of C19/C74); a sweep refines the abstract periodic sweep of UpdaterModel with the amplitudes of new contractors. Energies then are the abstract ones of PbcModel with the TRG contraction, except for the transverse field, whose holes are derivatives for sides 2 and 3 only; side 4 is refuted by the network of c74. Exact decompositions: C73 gives the sum over the torus, which for split tensors is the wave function of the PEPS.

Theorems in TorusProps.v: `c86_build` [-], `c86_build_refuses` [-], `c86_in_step` [{functional_extensionality_dep}], `c86_replace` [-], `c86_exchange_sweep` [{functional_extensionality_dep}], `c86_full_space_sweep` [{functional_extensionality_dep}], `c86_amplitudes_exist` [-], `c86_energies` [C], `c86_zero_amplitude` [C], `c86_tfim_small` [C], `c86_tfim_refuted` [C], `c86_exact_amplitude` [C], `c86_evolved_amplitude` [C], `c86_evolved_energies` [C].

Notes: c86_tfim_refuted: with holes of the contractor the transverse-field energy on side 4 is not the local energy although every decomposition is lossless and the amplitude exact (see C74). c86_zero_amplitude: a zero amplitude makes every energy undefined (division by zero). Acceptance rules and the choice of a new state are arbitrary functions; the energies are taken without holes for the gradient.

### C87 What an optimisation returns is what its runs accepted (proved)

Execute is modelled on top of the optimisation loop of C31 (ExecModel): its two callbacks fold over the trace of the run on each rank, then broadcast, dump, result. Specification: [executed], any number of runs of a new executor, and the accepted evaluations read off the traces (OptSpec, ExecSpec). Proved by induction over the runs from the callback theorem of C69, and by an invariant of the loop that the executor agrees with the optimizer on the lowest state whatever the engine holds. Runs of a counting algorithm refute the three false readings. The callbacks of the executor replace the on_iteration and on_lowest_state_found a user may have set.

Theorems in ExecProps.v: `c87_trajectory` [C], `c87_minimum` [C], `c87_final_state` [C], `c87_one_call` [C], `c87_recorded_refuted` [C], `c87_rerun_refuted` [C], `c87_other_ranks_refuted` [C].

Notes: The three readings a user could expect and that are false are refuted by runs of the model. Energies below the largest double are assumed for the minimum. The resource side (MPI buffers, files of the engine) is not modelled.

### C88 The container of lattice observables is a table with one value per site (proved)

The container is modelled with size_t arithmetic modulo 2^64 (ObsMatModel). Specification: a table as a function of row and column, or a table that was taken away, with the same calls (ObsMatSpec). Proved by a simulation relation kept by every call.

Theorems in ObsMatProps.v: `c88_table` [-], `c88_row_major` [-], `c88_taken` [-], `c88_overflow_refuted` [-].

Notes: Refinement to a table by induction over histories. Allocation always succeeds in the model.

### C89 A measurement executor reports the averages over the samples of all its runs and writes what it reports (proved)

The executor state of each rank, its sample containers, the gathering on the master and the written files are modelled for a batch of samples per rank and run (MsrModel). Specification: a relation listing all runs so far, and averages over the list of all samples (MsrSpec). Proved by induction over the runs: each container holds the concatenation of the samples of its rank.

Theorems in MsrProps.v: `c89_pooled` [C], `c89_energy` [A], `c89_files` [C], `c89_matrix_file` [A], `c89_flat_file` [A], `c89_bad_shape` [A], `c89_no_samples` [C], `c89_other_ranks` [C], `c89_one_call` [C], `c89_rerun_refuted` [C].

Notes: Induction over the runs. The samples themselves, and when a run is stopped, are arbitrary (see the properties of the sampling loop). Error bars are those of the model of the statistics functions.

### C90 Joining component tensors along a physical index does not keep the components (proved)

The raw data of dense tensors are lists in row-major order and the copies of the loop are list updates with a bounds check (AxisModel). Specification: the part of the data with a given first index (AxisSpec). Proved by induction over the components.

Theorems in AxisProps.v: `c90_joined` [-], `c90_single` [-], `c90_components_refuted` [-].

Notes: The documented effect is refuted; what the function does is proved for all inputs of equal size. The header names two types it does not declare, so that it compiles only where these are in scope.

### C91 The distributed solve of the minimal-norm equation gives the same direction coefficients as the replicated one (proved)

The local loops of every rank over its part of the eigenvectors, the sums over all ranks and the choice of solver are modelled (ScaModel); int positions are checked. Specification: owner and place of an index when blocks are dealt out in turn (ScaSpec), and the eigensystem of C46. Proved: the local indices of all processes are a permutation of the global ones, so the sums are the global sums; two eigensystems of one matrix give the same filtered inverse because eigenvectors of different eigenvalues are orthogonal.

Theorems in ScaProps.v: `c91_solve` [B], `c91_independent` [B], `c91_any_mode` [B], `c91_choice` [B], `c91_source` [A], `c91_too_large` [B], `c91_overflow_refuted` [B].

Notes: The ScaLAPACK tool functions numroc and indxl2g are modelled as documented; pdsyev/pzheev are assumed to deliver an eigensystem distributed block-cyclically, and pdgemr2d/pzgemr2d to redistribute. The overflow beyond 2^31 local entries is a finding.

### C92 The replica test records the overlap of each rank with the rank before after the same number of sweeps (proved)

Each rank is a process that sweeps and sends, then receives and records; channels between two ranks are queues (ReplicaModel). Specification: the configuration after a number of sweeps and the rank before (ReplicaSpec). Proved by an invariant saying that a channel holds the configurations of the rounds between those of its two ends; the waiting rank with the lowest round always has a message.

Theorems in ReplicaProps.v: `c92_recorded` [-], `c92_no_deadlock` [-], `c92_ends` [-], `c92_completes` [-], `c92_few_samples_refuted` [-], `c92_single_rank` [-].

Notes: Invariant over all schedules of the ranks. MPI_Sendrecv is split into a send that never waits and a receive; sweeps and overlap function are arbitrary.

### C93 The bond dimensions a state reports are those of its bonds (proved)

The loops over the sites are folds over the list of sites, with the legs and edge tests of each function; the unsigned argument of reserve is checked (BondDimModel). Specification: the dimensions of the bonds, agreement of the two ends, trivial outer legs (BondDimSpec). Proved by the correspondence between a bond and its two ends; the number of bonds by summing over rows and columns.

Theorems in BondDimProps.v: `c93_all` [-], `c93_min_max` [-], `c93_max` [-], `c93_even` [-], `c93_uniform` [-], `c93_chain_throws` [-], `c93_chain_refuted` [-].

Notes: That reserve throws on a wrapped size is taken from the C++ standard library.

## 3. Trusted base

* Coq 8.16.1: its kernel (and `coqchk` for the final check), its reduction machine used by `vm_compute` in some examples.
* Axioms listed by `Print Assumptions` beneath each theorem; the letters in section 2 stand for these sets, all of them from the standard library and all entering through the real numbers:
  * `-`: closed under the global context.
  * A: `ClassicalDedekindReals.sig_forall_dec`.
  * B: A and `FunctionalExtensionality.functional_extensionality_dep`.
  * C: B and `ClassicalDedekindReals.sig_not_dec`.
  * D: C and `Classical_Prop.classic` (from lemmas on limits, square roots and cosines in the Reals library).
* No axioms, parameters, functors or module types are declared here; `Variable`/`Context`/`Hypothesis` occur inside sections only and become premises of the closed theorems.
* The model. It is written by hand from the text of /repo; nothing checks mechanically that it is the C++ program. The citations are there to make the comparison possible, and seeded/LOG.jsonl records edits of the model that break the theorems.
* Assumptions stated as premises: `contraction_consistent` (see 1), laws of the tensor library in CanonSpec (`library`), LAPACK eigensystem in C46, `exact_qr` and `svd_keeps m` (what QR and SVD return multiplies back, the latter for at most m rows) in C75, `qr_exact` and `svd_up_to m` likewise in C76, `lossless` or `exact_svd` (what the decomposition returned gives the tensor back) in C73, `singular` (what it returned are singular triples, and those that are not zero exceed the threshold of the inverse) in C74, `shell` packing in C28, element-wise inverse in C38.

Number of listed theorems per set: -: 147, A: 15, B: 113, C: 111, D: 18, {functional_extensionality_dep}: 3.

## 4. Code that is modelled and code that is not

Modelled (headers under include/qlpeps, model file in brackets):

| header | functions | model |
|---|---|---|
| two_dim_tn/tensor_network_2d/bmps/impl/* | stacks of boundary MPS, grow/shift/erase, one- and two-layer boundary tensors, traces, replaced traces, holes; bosonic branch | ContractorModel |
| bmps/impl/bmps_contractor_{init,grow,helpers,trace}.h, bmps_impl.h MultiplyMPO | contractions element by element, SVD compression; bosonic branch | BmpsModel |
| bmps/impl/bmps_walker.h, bten_operations.h | walker, its boundary tensors and traces | WalkModel |
| one_dim_tn/boundary_mps/bmps.h, bmps_impl.h | canonical flags, centre, Centralize, truncation sweeps, Reverse, entropy | CanonModel |
| vmc_basic/wave_function_component.h | construction, evaluation, update, normalisation helpers | SweepModel, StatModel |
| vmc_basic/wave_function_component.h (TRG branch), square_nn_updater.h (PBC classes), PBC energy solvers | component with its contractor, trials, commits, sweeps, energies without gradient holes | TorusModel |
| algorithm/vmc_update/vmc_peps_optimizer_impl.h (Execute, callbacks, trajectory file, DumpData), api/vmc_api.h (VmcOptimize) | executor around the optimisation loop, all ranks; the engine's state in between is arbitrary | ExecModel |
| utility/observable_matrix.h | all | ObsMatModel |
| vmc_basic/configuration_update_strategies/* | all updaters, OBC and PBC | SweepModel, UpdaterModel |
| vmc_basic/monte_carlo_tools/suwa_todo_update.h, statistics.h; statistics_tensor.h | Suwa-Todo choice, bins, means, errors, gathers | UpdaterModel, StatModel |
| vmc_basic/configuration.h, jastrow_factor.h | streams, dump/load, random initialisation, MPI transfer; Jastrow packing and ratio | ConfModel, JastrowModel |
| model_solvers/* | XXZ, J1-J2, TFIM, Hubbard, t-J, spinless fermions, OBC; PBC spin solvers; triangular NN and J1-J2; bond traversal; structure factor; spin measurement | EnergyModel, PbcModel, TriModel, ObsModel, SfModel |
| vmc_update/exact_summation_*.h | enumeration, energies, gradients, measurements | ExactModel |
| vmc_update/mc_energy_grad_evaluator.h, monte_carlo_engine.h | sampling loop, gradient, rescue, normalisation | StatModel |
| vmc_update/monte_carlo_peps_measurer(_impl).h, psi_consistency.h, base/mpi_signal_guard.h | sampling with emergency stop, registry statistics, distributions, psi consistency | MeasModel, MeasLoop |
| algorithm/vmc_update/monte_carlo_peps_measurer(_impl).h (Execute, SampleData, GatherStatistic_, DumpData, OutputEnergy), api/vmc_api.h (MonteCarloMeasure) | measurement executor over all runs and ranks; samples arbitrary | MsrModel |
| algorithm/vmc_update/axis_update.h | joining of component tensors, raw data of dense tensors | AxisModel |
| optimizer/minsr_scalapack.h, minsr_eigensolve.h (MinSREigenSolveDispatch) | distributed eigensolve around the library calls, all ranks | ScaModel |
| algorithm/vmc_update/monte_carlo_peps_measurer_impl.h (ReplicaTest, SynchronizeConfiguration_) | all ranks under every schedule; sweeps arbitrary | ReplicaModel |
| two_dim_tn/tps/split_index_tps_impl.h, tps_impl.h (bond dimension queries) | shapes of the first components; values, not the tensors | BondDimModel |
| optimizer/optimizer_impl.h, optimizer_params.h, spike_detection.h, lr_schedulers.h | iteration, algorithms, line search, selectors, spikes, checkpoints, stopping, builder | OptModel, OptRank, AlgModel, LbModel, BuildModel |
| optimizer/stochastic_reconfiguration_smatrix.h, utility/conjugate_gradient_solver.h | SR matrix, serial and distributed CG | CgModel |
| optimizer/minsr_tmatrix.h, minsr_eigensolve.h | ring exchange, T matrix, pseudo-inverse | MinsrModel |
| two_dim_tn/tps/*, framework/duomatrix.h, ten_matrix.h | arithmetic, transfer, dump/load, direct sum, containers, iterators | TpsModel, MsgModel, DumpModel, SumModel, DuoModel |
| two_dim_tn/peps/square_lattice_peps_basic_impl.h | Initial, dump/load; weights eaten and divided out, ToTPS | InitModel, DumpModel, ProjModel |
| algorithm/vmc_update/model_solvers/base/singlet_pair_correlation_measurement_mixin.h | number, table and order of the pairs, the throw; not the (unreachable) contraction | ScModel |
| two_dim_tn/tps/split_index_tps_impl.h (FromTPS), api/conversions.h | splitting of the physical leg, bosonic branch | PipeModel |
| two_dim_tn/peps/square_lattice_peps_projection_impl.h | two-site and triangle projections, bosonic branches | ProjModel |
| two_dim_tn/peps/square_lattice_peps_projection4_impl.h | loop projection, bosonic branches; dominant eigenvectors as parameters | LoopModel |
| algorithm/loop_update/loop_update_impl.h | LoopUpdateSweep_, the sweeps of Execute, gate by gate | LoopSweepModel |
| algorithm/simple_update/square_lattice_nnn_simple_update.h | ConstructTriHamiltonian, SetEvolveGate_, SimpleUpdateSweep_, element by element | TriSweepModel |
| algorithm/simple_update/triangle_nn_on_sqr_peps_simple_update.h | SetEvolveGate_, SimpleUpdateSweep_ | TriSweepModel |
| algorithm/simple_update/simple_update_impl.h (TaylorExpMatrix), square_lattice_nn_simple_update.h | gates, bond terms and sweeps, element by element, bosonic branches | ExpModel |
| algorithm/simple_update/*, loop_update/* | gate weights, sweeps as lists of gates, stopping, loop passes | SuModel |
| tensor_network_2d/trg/trg_contractor.h, trg_contractor_impl.h | topology, trace, trials, commit, holes; splits, contractions and holes element by element | TrgModel, TrgTensor |


Not modelled: SVD/QR/HOSVD; the dominant eigenvectors found in the loop update (arnoldi_solver.h, PowerMethod in square_lattice_peps_projection4_impl.h), hosvd.h; fermionic branches of the contractions (the fermion solvers are modelled with the parity-resolved window values as given, see C16); the variational compressions of MultiplyMPO; the loading of states in vmc_peps_optimizer_impl.h and monte_carlo_peps_measurer_impl.h; the contraction in singlet_pair_correlation_measurement_mixin.h; filesystem_utils.h; printing; timers; the tensor library, MPI, LAPACK and the C++ runtime; rounding.

## 5. Findings

Behaviour of the code that contradicts what a user would expect, each exhibited by a theorem.

* `c01_narrow_lattice_undefined`, `c11_one_row_undefined`, `c11_one_column_undefined`: sweeps and traversals on one-row or one-column lattices wrap a size_t and are undefined behaviour.
* `c10_other_rows_refuted`: boundary tensors kept by EraseEnvsAfterUpdate are stale if another row is looked at next.
* `c15_two_site_direction_weight`, `c15_each_pair_once_at_2x2_refuted`: on a torus with two sites in a direction every bond of that direction is counted twice.
* `c18_ratio_off_by_pair_term`, `c18_detailed_balance_refuted`: the Jastrow exchange ratio contains an extra exp(v_ij): sampled weights and hopping energies are wrong whenever the pair coupling is not zero.
* `c21_differing_keys_rank_dependent_refuted`: the exact measurer averages keys that only some configurations return in a way that depends on the number of ranks.
* `c22_gradient_is_covariance_refuted`: the gradient uses the binned mean energy, which drops incomplete bins, together with unbinned sums.
* `c22_gradient_norm_is_squared`: the quantity named gradient norm is the square of the norm.
* `c25_validity_when_states_differ_refuted`: a rescued configuration is not checked again on the receiving rank; if ranks hold different states it can stay illegal.
* `c26_crash_large_states_refuted`, `c26_failed_load_keeps_configuration_refuted`: a truncated configuration file can load a wrong state when states have two digits; a failed load leaves a half-overwritten configuration.
* `c28_uneven_sites_refuted`: states with different numbers of components per site are not transferred correctly.
* `c29_self_assignment_destroys`: self-assignment of DuoMatrix destroys its elements.
* `c30_no_columns_undefined`: iterating a matrix with rows but no columns is undefined.
* `c33_rollback_livelock_refuted`: rollback on spikes can repeat for ever.
* `c35_momentum_keeps_discarded_gradient`: after a rollback the momentum still contains the discarded gradient.
* `c39_distinct_pairs_refuted`, `c40_min_step_refuted`, `c41_plateau_floor_refuted`: L-BFGS stores a step twice after a rollback, the line search can return a step below its minimum, the plateau scheduler has no floor: on a constant energy its rate goes below every positive number.
* `c47_boundary_lost_refuted`, `c47_uneven_components_refuted`: arithmetic on split-index states loses the periodic boundary condition; components are dropped when sites have different numbers of them.
* `c44_no_samples`: a rank without samples makes the SR product undefined.
* `c48_periodic_refuted`, `c48_components_refuted`, `c48_overwrite_refuted`, `c48_peps_const_refuted`: torn metadata or a torn overwrite loads silently; the const PEPS Dump writes names Load does not read.
* `c49_negative_refuted`, `c49_phase_refuted`, `c49_single_refuted`: WaveFunctionSum loses signs and phases of coefficients.
* `c50_chain_refuted`, `c50_onsite_open_refuted`, `c50_onsite_torus_refuted`: simple update: on-site terms are under-weighted on chains, and the three-site executor assigns the on-site term of lower-left triangles to the wrong site.
* `c82_onsite_refuted`: the same at the level of operators: on four sites with an on-site term on the lower right one, the terms of the sweep act with 2/3 of it.
* `c53_neutral_edge_refuted`: an outer leg of the initial product state carries the total charge although the comment says neutral.
* `c54_reverse_refuted`, `c54_reverse_centred_refuted`, `c54_truncate_refuted`, `c54_entropy_refuted`, `c54_compressed_refuted`: BMPS flags and centre are false after Reverse, RightCanonicalizeTruncate, GetEntanglementEntropy and compression.
* `c55_evolve_refuted`, `c55_stale_refuted`: the walker evolves past the last row (wrap), and keeps stale boundary tensors after Evolve.
* `c56_complex_refuted`, `c56_tiny_refuted`: the psi-consistency measure depends on signs for complex amplitudes with imaginary overlap and for amplitudes below 1e-14.
* `c57_window_zero_refuted`: a moving-average window of 0 makes the average leave the range of its data.
* `c58_gradient_tolerance_refuted`: the default gradient tolerance depends on which setter is called first.
* `c59_one_rank_error`: a one-rank measurement reports zero standard errors.
* `c61_accept_rate_refuted`: the acceptance rate after an emergency stop is divided by the requested number of sweeps.
* `c62_error_callback_refuted`: the stop callback receives error bar 0 on every rank but the master; one that uses it makes the ranks part company and the run hangs.
* `c64_triangular_j1j2_measurement_refuted`, `c64_triangular_j1j2_two_rows_refuted`: EvaluateObservables of the triangular J1-J2 solver never returns a value; its energy evaluation fails with two rows.
* `c65_one_boundary_refuted`: the structure factor is wrong on three or more rows as the solvers call it, and its entries are not divided by the amplitude.
* `c72_clear_cache_refuted`: TRGContractor::ClearCache, documented as the way to reload tensors, drops the layers; the next Trace is undefined behaviour.
* `c72_stale_trial_refuted`, `c72_new_parameters_refuted`: CommitTrial accepts a trial prepared before another commit, and SetTruncateParams after a trace mixes caches of both parameter sets.
* `c74_hole_is_derivative_refuted`, `c74_blind`: from side 4 on PunchAllHoles is not the derivative of the amplitude even if nothing is truncated: each hole is projected on the singular vectors of the tensor at the site, so components of a gradient orthogonal to them are lost. The tests only contract a hole with the tensor already there.
* `c85_delivery_refuted`, `c85_duplicates_refuted`: the three t-J models announce SC_singlet_pair_corr whether it is enabled or not. If it is enabled every evaluation of observables throws, since MeasureSingletPairCorrelation begins with a throw; if not, it is missing from the values. With a reference bond selected twice the table and the announced number count it twice, the loops once.
* `c78_chain_refuted`: on a lattice with one row (or column) the nearest-neighbour simple update subtracts one missing neighbour where two are missing: on-site terms get shares of 1/3 for two bonds, so the evolution cools with a weakened field.
* `c72_one_site_holes_refuted`: PunchAllHoles throws on the 1x1 network that Init accepts.
* `c86_tfim_refuted`: the periodic transverse-field Ising energy takes flipped amplitudes from the holes of the TRG contractor; from side 4 on these are not derivatives, so the energy is wrong even when every decomposition is lossless. (The transverse-field theorems of C15 assume amplitudes by contraction and do not cover this.)
* `c87_recorded_refuted`, `c87_rerun_refuted`, `c87_other_ranks_refuted`: the energy trajectory lacks the evaluation that ended a converged run, although the minimum may come from it; a second Execute replaces the minimum and the lowest state even if its energies are higher; the result on ranks other than 0 has empty trajectories and the largest double as its minimum. Execute also overwrites the on_iteration and on_lowest_state_found callbacks a user has set.
* `c88_overflow_refuted`: sites of an observable matrix whose number of elements exceeds a size_t share elements.
* `c89_rerun_refuted`, `c89_other_ranks`, `c89_no_samples`: a second Execute of a measurement executor pools its samples with those of the first, since the clearing of the sample container does nothing; ranks other than the master return energy zero with error zero, and so does the master if it was stopped before its first sample, although it reports itself finished.
* `c90_components_refuted`, `c90_single`: GrowPhyIndexFromSplitIndexTensorsWithouQN_ copies every component to the same place, so that only the last is kept; with one component it writes beyond the end of the data. It has no caller.
* `c91_overflow_refuted`: the distributed MinSR solve checks that the dimension fits an int, but the position li + lj * lld in the local data is an int too and overflows from 2^31 local entries on (46341 samples on one rank).
* `c92_few_samples_refuted`: ReplicaTest divides by the number of samples divided by ten, so that with fewer than ten samples on a rank the master divides by zero.
* `c93_chain_throws`, `c93_chain_refuted`: on lattices of one row or one column GetAllInnerBondDimensions, GetMinBondDimension and GetMinMaxBondDimension throw, because the size they reserve wraps below zero; on an open chain of one row IsBondDimensionEven and IsBondDimensionUniform compare the bonds with an outer leg and answer no.
