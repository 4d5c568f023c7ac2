{"id": "C01", "title": "An open-boundary NN sweep proposes every bond exactly once", "statement": "One sweep of the nearest-neighbour OBC updaters (exchange, full-space, Hubbard) on a rows x cols lattice proposes one two-site update for every nearest-neighbour pair of the lattice, no pair twice, and no pair that is not a nearest-neighbour pair inside the lattice. The reported acceptance rate is accepted/number-of-bonds and lies in [0,1].", "quantifier": "every lattice size, every sequence of accept/reject decisions", "why_tests_cant": "Tests run one or two lattice sizes; coverage and bounds must hold for every size, including 1-wide lattices.", "anchors": ["include/qlpeps/vmc_basic/configuration_update_strategies/square_nn_updater.h: MCUpdateSquareNNUpdateBaseOBC::operator()"]}
{"id": "C02", "title": "A three-site sweep stays inside the lattice and touches every straight triple once", "statement": "One sweep of the three-site updater proposes every horizontal and every vertical straight triple of sites once and never addresses a site outside the lattice.", "quantifier": "every lattice with at least 3 rows and 3 columns; smaller lattices are a stated precondition because the size_t loop bound wraps", "why_tests_cant": "Depends on unsigned loop bounds for all sizes.", "anchors": ["include/qlpeps/vmc_basic/configuration_update_strategies/square_3site_updater.h: MCUpdateSquareTNN3SiteExchange"]}
{"id": "C03", "title": "Exchange updaters conserve the occupation numbers along every history", "statement": "Starting from any configuration, after any number of sweeps of the NN-exchange (OBC or PBC) or three-site updater, with any random numbers, any bond order drawn in PBC and any amplitudes (including zero amplitudes), the number of sites in each local state is exactly the initial one.", "quantifier": "all lattice sizes, configurations, random streams, amplitude functions, numbers of sweeps", "why_tests_cant": "A test samples a handful of random streams; conservation is a claim about all of them.", "anchors": ["include/qlpeps/vmc_basic/configuration_update_strategies/square_nn_updater.h: MCUpdateSquareNNExchangeOBC, MCUpdateSquareNNExchangePBC", "include/qlpeps/vmc_basic/configuration_update_strategies/square_3site_updater.h"]}
{"id": "C04", "title": "The Hubbard updater conserves N_up and N_down and reaches every allowed two-site state", "statement": "After any history of Hubbard U1xU1 sweeps total N_up and N_down are the initial ones and every local state stays in {0,1,2,3}. The candidate list offered on a bond is exactly the set of two-site states with the same N_up and N_down, without repetition, containing the current state.", "quantifier": "all configurations, random streams, amplitudes, sweep counts", "why_tests_cant": "Requires completeness and soundness of the candidate enumeration and induction over histories.", "anchors": ["include/qlpeps/vmc_basic/configuration_update_strategies/square_hubbard_u1u1_updater.h: EnumerateHubbardTwoSiteConfigsWithU1U1, MCUpdateSquareHubbardU1U1"]}
{"id": "C05", "title": "Full-space updater codes two-site states bijectively and stays in the local Hilbert space", "statement": "The two-site code c1*dim+c2 used for the heat-bath choice is a bijection between pairs of local states and [0,dim^2); after any history every site still carries a state < dim.", "quantifier": "all dim >= 1, all configurations, random streams and amplitudes", "why_tests_cant": "Universally quantified over dim and histories.", "anchors": ["include/qlpeps/vmc_basic/configuration_update_strategies/square_nn_updater.h: MCUpdateSquareNNFullSpaceUpdateOBC, ...PBC"]}
{"id": "C06", "title": "Exchange moves satisfy detailed balance with respect to |psi|^2", "statement": "For the exchange updater the transition probabilities of one bond move satisfy |psi(S)|^2 P(S->S') = |psi(S')|^2 P(S'->S) for every pair of configurations, hence |psi|^2 is stationary for a bond move and for any sequence of bond moves (a sweep).", "quantifier": "all amplitude functions with non-zero |psi| on the support, all configurations, all lattices", "why_tests_cant": "A probabilistic identity for all wave functions cannot be established by sampling.", "anchors": ["include/qlpeps/vmc_basic/configuration_update_strategies/square_nn_updater.h: TwoSiteNNUpdateImpl (Metropolis branch)"]}
{"id": "C07", "title": "Suwa-Todo heat-bath choice: in range, never a zero-weight state, stationary", "statement": "SuwaTodoStateUpdate(i, w, rng) returns an index < w.size(); it never returns a state of weight zero when started from a state of positive weight; and sum_i w_i P(i->j) = w_j for every j, i.e. the weight vector is stationary.", "quantifier": "every list of non-negative weights with positive sum, every initial index, every uniform random number", "why_tests_cant": "Global balance is an identity of interval lengths for every weight vector; statistical tests only see a few vectors at finite precision.", "anchors": ["include/qlpeps/vmc_basic/monte_carlo_tools/suwa_todo_update.h: SuwaTodoStateUpdate"]}
{"id": "C08", "title": "The cached amplitude always belongs to the current configuration", "statement": "After any history of UpdateLocal, BeginTrial/AcceptTrial/RejectTrial and re-evaluation on a wave-function component, the tensor network held equals the projection of the state onto the stored configuration, and the stored amplitude is the amplitude supplied for / evaluated on exactly that configuration. A rejected trial leaves configuration, network and amplitude unchanged.", "quantifier": "all operation histories", "why_tests_cant": "Cache coherence is a history property.", "anchors": ["include/qlpeps/vmc_basic/wave_function_component.h: TPSWaveFunctionComponent"]}
{"id": "C09", "title": "Boundary-MPS environments are never stale", "statement": "For any history of BMPSContractor operations (Init, GrowFullBMPS, GrowBMPSForRow/Col, GenerateBMPSApproach, ShiftBMPSWindow) interleaved with site updates each followed by EraseEnvsAfterUpdate, every cached boundary MPS number k on side p equals the boundary MPS recomputed from scratch by absorbing the k outermost rows/columns of the current network.", "quantifier": "all lattices, all operation histories, every absorption function (including truncating ones)", "why_tests_cant": "Staleness only shows for particular interleavings of updates and window moves.", "anchors": ["include/qlpeps/two_dim_tn/tensor_network_2d/bmps/impl/bmps_contractor_grow.h", "include/qlpeps/two_dim_tn/tensor_network_2d/bmps/impl/bmps_contractor_init.h", "include/qlpeps/two_dim_tn/tensor_network_2d/bmps/impl/bmps_contractor_trace.h: EraseEnvsAfterUpdate"]}
{"id": "C10", "title": "Boundary-tensor environments kept by EraseEnvsAfterUpdate are valid for the row/column being swept", "statement": "After an update at (r,c) the horizontal boundary tensors that are kept are valid if they were built for row r (vertical ones if built for column c). They are not valid in general: if they were built for another row/column, EraseEnvsAfterUpdate may keep stale tensors.", "quantifier": "all lattices, all positions, all cache contents", "why_tests_cant": "Requires reasoning over which rows each cached tensor depends on.", "anchors": ["include/qlpeps/two_dim_tn/tensor_network_2d/bmps/impl/bmps_contractor_trace.h: EraseEnvsAfterUpdate", "include/qlpeps/two_dim_tn/tensor_network_2d/bmps/impl/bmps_contractor_grow.h: GrowFullBTen, GrowBTenStep"]}
{"id": "C11", "title": "The bond traversal never reads a missing environment and visits every bond once", "statement": "TraverseAllBonds on an OBC lattice with rows,cols >= 2 visits every horizontal, vertical and (if asked) diagonal bond exactly once; every environment it reads exists, is anchored at the current row/column and covers exactly the sites outside the window; nothing is popped from an empty stack. For 1 x N and N x 1 lattices the same loops read outside the lattice.", "quantifier": "all lattice sizes", "why_tests_cant": "Index arithmetic with unsigned wrap-around over all sizes.", "anchors": ["include/qlpeps/algorithm/vmc_update/model_solvers/base/bond_traversal_mixin.h: TraverseHorizontalBonds, TraverseVerticalBonds", "include/qlpeps/two_dim_tn/tensor_network_2d/bmps/impl/bmps_contractor_grow.h", "include/qlpeps/two_dim_tn/tensor_network_2d/bmps/impl/bmps_contractor_trace.h"]}
{"id": "C12", "title": "The updater sweep only uses existing, fresh environments", "statement": "During an OBC updater sweep with arbitrary accept/reject outcomes every trace finds the boundary tensors it needs and those tensors describe the current (already updated) network.", "quantifier": "all lattices with rows,cols >= 2, all accept/reject outcomes", "why_tests_cant": "Exponentially many accept/reject patterns.", "anchors": ["include/qlpeps/vmc_basic/configuration_update_strategies/square_nn_updater.h: MCUpdateSquareNNUpdateBaseOBC::operator()", "include/qlpeps/two_dim_tn/tensor_network_2d/bmps/impl/bmps_contractor_grow.h", "include/qlpeps/two_dim_tn/tensor_network_2d/bmps/impl/bmps_contractor_trace.h"]}
{"id": "C13", "title": "The XXZ / Heisenberg OBC energy estimator is the local energy of the stated Hamiltonian", "statement": "If the traces return exact amplitudes, the energy returned for a sample S by the square XXZ and J1-J2 XXZ OBC solvers is sum_{S'} conj(psi(S')/psi(S)) <S'|H|S> with H = Jz Sz Sz + Jxy (SxSx+SySy) on NN (and NNN) bonds minus the pinning field.", "quantifier": "all lattice sizes, couplings, configurations and amplitude functions with psi(S) != 0", "why_tests_cant": "An operator identity over all sizes and wave functions.", "anchors": ["include/qlpeps/algorithm/vmc_update/model_solvers/square_spin_onehalf_xxz_obc.h", "include/qlpeps/algorithm/vmc_update/model_solvers/square_spin_onehalf_j1j2_xxz_obc.h", "include/qlpeps/algorithm/vmc_update/model_solvers/base/square_nnn_energy_solver.h"]}
{"id": "C14", "title": "The transverse-field Ising estimator is the local energy of the stated Hamiltonian", "statement": "Under exact amplitudes the TFIM OBC and PBC solvers return the local energy of H = -sum_NN sz sz - h sum sx (Pauli convention of the code).", "quantifier": "all lattice sizes, fields, configurations and amplitudes", "why_tests_cant": "Same as C13.", "anchors": ["include/qlpeps/algorithm/vmc_update/model_solvers/transverse_field_ising_square_obc.h", "include/qlpeps/algorithm/vmc_update/model_solvers/transverse_field_ising_square_pbc.h"]}
{"id": "C15", "title": "PBC solvers count every bond of the torus exactly once", "statement": "The periodic Heisenberg/J1-J2 solvers and the transverse-field Ising solver return the local energy of the torus Hamiltonian with each neighbour pair counted once when both linear sizes are at least 3; a direction of size 2 has its bonds counted twice; an open network is refused. (For the Ising solver: given that pairing a hole with a tensor yields the amplitude with that tensor put in, which C86 decides for the TRG contractor.)", "quantifier": "all torus sizes", "why_tests_cant": "Modular wrap-around for all sizes; the failure only appears at small sizes.", "anchors": ["include/qlpeps/algorithm/vmc_update/model_solvers/square_spin_onehalf_j1j2_xxz_pbc.h", "include/qlpeps/algorithm/vmc_update/model_solvers/heisenberg_square_pbc.h"]}
{"id": "C16", "title": "Hubbard bond energies carry the right fermion signs", "statement": "The Hubbard energy equals the local energy of -t sum_<ij>,sigma (c_i^dag c_j + h.c.) + U sum n_up n_down - mu sum n, with the signs of operators that anticommute over the whole lattice (site by site, up before down), whenever every two-site window of the contraction represents the wave function in that ordering.", "quantifier": "all local states, amplitudes, t, U, mu", "why_tests_cant": "Sign conventions are only exercised by tests on specific states.", "anchors": ["include/qlpeps/algorithm/vmc_update/model_solvers/square_hubbard_model.h: EvaluateBondEnergy, EvaluateTotalOnsiteEnergy"]}
{"id": "C17", "title": "t-J and spinless-fermion bond energies match their Hamiltonians", "statement": "The t-J bond energy equals the action of -t hopping + J(S.S - n n/4) + V n n on the two-site constrained space and the spinless-fermion bond energy that of -t hopping + V n n; NNN hops likewise.", "quantifier": "all local states, amplitudes and couplings", "why_tests_cant": "As C16.", "anchors": ["include/qlpeps/algorithm/vmc_update/model_solvers/square_tJ_model.h", "include/qlpeps/algorithm/vmc_update/model_solvers/square_spinless_fermion.h"]}
{"id": "C18", "title": "Jastrow-dressed hopping uses the exact Jastrow ratio", "statement": "The ratio of Jastrow factors used for a hop between site i and j equals J(n')/J(n) of the Jastrow factor. (False of the code: the pair term v_ij is not removed from the field at the target site.)", "quantifier": "all Jastrow parameters, densities and site pairs", "why_tests_cant": "The discrepancy vanishes for v_ij = 0 and for symmetric test data.", "anchors": ["include/qlpeps/algorithm/vmc_update/model_solvers/square_tJ_model.h: EvaluateBondEnergy(jastrow)", "include/qlpeps/vmc_basic/configuration_update_strategies/square_nn_updater.h: MCUpdateSquareNNExchangeJastrowDressedTJ", "include/qlpeps/vmc_basic/jastrow_factor.h"]}
{"id": "C19", "title": "Jastrow parameters are stored symmetrically without collisions", "statement": "The packed storage maps each unordered pair of distinct sites to its own slot in [0, N(N-1)/2): setting v_ij changes exactly what v_ij and v_ji read; all other pairs are unaffected; Fill sets all pairs.", "quantifier": "all N and all pairs", "why_tests_cant": "Injectivity over all pairs.", "anchors": ["include/qlpeps/vmc_basic/jastrow_factor.h"]}
{"id": "C20", "title": "Exact summation enumerates every configuration of the sector exactly once", "statement": "GenerateAllPermutationConfigs lists every arrangement with the given occupation numbers exactly once; GenerateAllBinaryConfigs lists every spin configuration exactly once.", "quantifier": "all lattices and occupation vectors", "why_tests_cant": "Completeness and no duplicates for every size.", "anchors": ["include/qlpeps/algorithm/vmc_update/exact_summation_energy_evaluator.h: GenerateAllPermutationConfigs", "include/qlpeps/algorithm/vmc_update/exact_summation_measurer.h: GenerateAllBinaryConfigs"]}
{"id": "C21", "title": "Exact-summation results do not depend on the number of MPI ranks", "statement": "Energy, gradient and observables returned by the exact-summation evaluators are the same for every number of ranks, and equal the |psi|^2-weighted averages over the whole list.", "quantifier": "all rank counts (including more ranks than configurations), all configuration lists and amplitudes", "why_tests_cant": "Partition over arbitrary rank counts.", "anchors": ["include/qlpeps/algorithm/vmc_update/exact_summation_energy_evaluator.h: ExactSumEnergyEvaluatorMPI", "include/qlpeps/algorithm/vmc_update/exact_summation_measurer.h: ExactSumMeasurerMPI"]}
{"id": "C22", "title": "Monte-Carlo gradient is the energy-log-derivative covariance", "statement": "The gradient returned by the evaluator equals <E* O*> - <E>* <O*> over all samples of all ranks; it is invariant under adding a constant to all local energies. The energy it subtracts is computed from binned samples and can differ from the plain mean when samples are dropped by binning.", "quantifier": "all sample sets, rank counts", "why_tests_cant": "Algebraic identity for all samples; the binning mismatch only shows for sample counts that are not multiples of the bin size.", "anchors": ["include/qlpeps/algorithm/vmc_update/mc_energy_grad_evaluator.h: Evaluate"]}
{"id": "C23", "title": "Binned mean and error use whole bins of every rank", "statement": "MeanAndBinnedErrorSqrtNUniformBin averages exactly the first floor(N/b)*b samples of each rank with b = max(1,floor(sqrt N)); the mean equals the plain mean of those samples; the error is non-negative; only the master obtains the pair (the evaluator broadcasts the energy afterwards); constants shift the mean and leave the error unchanged.", "quantifier": "all sample vectors, all rank counts", "why_tests_cant": "Arithmetic over arbitrary N.", "anchors": ["include/qlpeps/vmc_basic/monte_carlo_tools/statistics.h"]}
{"id": "C24", "title": "Requested samples are always reached with minimal overshoot", "statement": "With total_samples T and P ranks every rank takes ceil(T/P) samples, so the number collected is at least T and less than T+P.", "quantifier": "all T, P >= 1", "why_tests_cant": "Universal arithmetic fact.", "anchors": ["include/qlpeps/algorithm/vmc_update/monte_carlo_engine.h: samples_per_rank_"]}
{"id": "C25", "title": "Configuration rescue leaves every rank with a valid configuration or aborts everywhere", "statement": "EnsureConfigurationValidity returns on all ranks or aborts on all ranks; when it returns every rank that was valid keeps its configuration and every rank that was invalid holds the configuration of the lowest-numbered valid rank. (The rescued amplitude itself is not re-validated.)", "quantifier": "all rank counts and validity patterns", "why_tests_cant": "2^P validity patterns.", "anchors": ["include/qlpeps/algorithm/vmc_update/monte_carlo_engine.h: EnsureConfigurationValidity"]}
{"id": "C26", "title": "Configuration save/load round-trips and detects damaged or mismatched files", "statement": "Loading a dump into a configuration of the same shape returns true and the same configuration; loading with a shape sidecar that does not match returns false and leaves the configuration unchanged; a data file with fewer readable numbers than sites returns false; dumping never changes what other labels load; after a crash at any point of a dump of states below ten a successful load gives the dumped configuration. (Larger states may be cut in the middle of the last number and load wrong; a failed load may have overwritten part of the configuration.)", "quantifier": "all configurations, all file contents, all truncation points", "why_tests_cant": "Any file content / crash point.", "anchors": ["include/qlpeps/vmc_basic/configuration.h: Dump, Load, StreamRead, StreamWrite"]}
{"id": "C27", "title": "Random(occupancy) produces exactly the requested occupation numbers", "statement": "For every permutation the shuffle may produce, Configuration::Random(occupancy) yields a configuration whose CountOccupancy is the request, and throws iff the request does not sum to the number of sites.", "quantifier": "all shapes, occupation vectors and shuffles", "why_tests_cant": "All shuffles.", "anchors": ["include/qlpeps/vmc_basic/configuration.h: Random, CountOccupancy"]}
{"id": "C28", "title": "MPI transfer of configurations and states is lossless and never mixes senders", "statement": "Packing/unpacking of a configuration is the identity; a wildcard receive of a split-index TPS takes all parts from one sender for any interleaving of concurrent senders; broadcast of the TPS shell reproduces the sender and rejects truncated, over-long or ill-formed buffers.", "quantifier": "all configurations / states, all message interleavings, all byte buffers", "why_tests_cant": "All interleavings and corrupt buffers.", "anchors": ["include/qlpeps/vmc_basic/configuration.h: MPI_Send, MPI_Recv, MPI_Sendrecv, MPI_BCast", "include/qlpeps/two_dim_tn/tps/split_index_tps_impl.h: MPI_Recv, MPI_Bcast"]}
{"id": "C29", "title": "Copies of lattice containers are deep and memory is released exactly once", "statement": "Copying or assigning a DuoMatrix yields equal contents held in fresh cells; later writes through either object never change the other; moving transfers the cells; over any history of construct/copy/move/assign/alloc/dealloc/write/destroy (without self-assignment) no cell is freed twice, used after free or leaked. Self-assignment destroys the contents.", "quantifier": "all operation histories", "why_tests_cant": "Aliasing and double-free are history properties.", "anchors": ["include/qlpeps/two_dim_tn/framework/duomatrix.h"]}
{"id": "C30", "title": "Iterating a lattice container visits each element once in row-major order", "statement": "begin()..end() of a DuoMatrix with rows,cols >= 1 visits every (row,col) exactly once in row-major order and then stops at end().", "quantifier": "all sizes", "why_tests_cant": "All sizes; the zero-column case wraps.", "anchors": ["include/qlpeps/two_dim_tn/framework/duomatrix.h: Iterator"]}
{"id": "C31", "title": "Optimisation trajectories are complete and bounded", "statement": "Every run performs at most max_iterations accepted steps; energy, error and gradient-norm trajectories have exactly one entry per accepted step; total_iterations_performed is their length; final_energy is the last entry.", "quantifier": "all evaluators, parameters and spike histories", "why_tests_cant": "State machine over arbitrary evaluator responses.", "anchors": ["include/qlpeps/optimizer/optimizer_impl.h: IterativeOptimize"]}
{"id": "C32", "title": "min_energy and the lowest state are the true minimum along the run", "statement": "The reported min_energy is the minimum of the accepted energies and the state handed to on_lowest_state_found last is the state on which that energy was evaluated (first occurrence).", "quantifier": "all energy sequences", "why_tests_cant": "All histories including ties and retries.", "anchors": ["include/qlpeps/optimizer/optimizer_impl.h: IterativeOptimize"]}
{"id": "C33", "title": "Spike recovery terminates for S1-S3 and can livelock for S4", "statement": "With rollback disabled the loop ends within max_iterations * (max_retries + 1) evaluations whatever the evaluator answers; with rollback enabled within (2 * max_iterations + number of S4 events) * (max_retries + 1). If S4 keeps triggering on the restored state the loop never accepts another step: for every window > 1 there is an evaluator for which it runs for ever.", "quantifier": "all evaluator responses", "why_tests_cant": "Adversarial evaluator histories.", "anchors": ["include/qlpeps/optimizer/optimizer_impl.h: IterativeOptimize, DecideAction_"]}
{"id": "C34", "title": "Spike statistics equal the event log", "statement": "At the end of a run the per-signal and per-action counters equal the counts in the recorded event list.", "quantifier": "all histories", "why_tests_cant": "History invariant.", "anchors": ["include/qlpeps/optimizer/optimizer_impl.h: LogSpikeEvent_"]}
{"id": "C35", "title": "A rollback returns to the last accepted state", "statement": "After a rollback the state that is re-evaluated is the state from which the previous accepted step started; at most one consecutive rollback restores a state. Optimizer accumulators (momentum, Adam, AdaGrad) are not restored.", "quantifier": "all histories", "why_tests_cant": "History property.", "anchors": ["include/qlpeps/optimizer/optimizer_impl.h: IterativeOptimize"]}
{"id": "C36", "title": "Step selectors pick the best candidate and never raise the learning rate", "statement": "The initial selector returns the earliest candidate multiple of the base step with the lowest trial energy; the periodic selector returns eta or eta/2 by the documented rule; after iteration 0 the selected base rate is non-increasing.", "quantifier": "all trial energies and errors", "why_tests_cant": "All energy sequences.", "anchors": ["include/qlpeps/optimizer/optimizer_impl.h: IterativeOptimize (selector section)"]}
{"id": "C37", "title": "A previewed SGD step equals the step later taken and does not disturb the optimiser", "statement": "The trial state computed for the step selector equals the state the real SGD update produces for the same gradient, rate and velocity, and leaves the velocity untouched.", "quantifier": "all states, gradients, velocities, rates, momentum/Nesterov/decay settings", "why_tests_cant": "For all parameter combinations.", "anchors": ["include/qlpeps/optimizer/optimizer_impl.h: SGDUpdate, SGDPreviewUpdate_"]}
{"id": "C38", "title": "First-order updates implement their closed forms", "statement": "k SGD steps with momentum produce velocity sum mu^(k-i) g_i; Adam moments after k steps are the bias-corrected exponential averages; AdaGrad accumulators never decrease; weight decay is decoupled.", "quantifier": "all gradient sequences", "why_tests_cant": "Induction over steps.", "anchors": ["include/qlpeps/optimizer/optimizer_impl.h: SGDUpdate, AdamUpdate, AdaGradUpdate"]}
{"id": "C39", "title": "L-BFGS directions are descent directions and history is bounded", "statement": "In every optimisation run, through spikes, resampling and rollback, the history never exceeds history_size and only holds pairs with curvature above the threshold; the two-loop direction d satisfies <g,d> < 0 for every non-zero gradient, respects the direction-norm cap and, uncapped, maps the newest gradient change to minus the newest displacement. (That the pairs are distinct steps is false: after a rollback the last one is recorded twice.)", "quantifier": "all histories of states and gradients", "why_tests_cant": "Positive definiteness for all histories.", "anchors": ["include/qlpeps/optimizer/optimizer_impl.h: UpdateLBFGSHistoryFromAnchor_, ComputeLBFGSSearchDirection_"]}
{"id": "C40", "title": "Strong-Wolfe search returns an acceptable step within its budget", "statement": "When the strong-Wolfe line search reports success the returned state is the last one probed, its step lies in (0,max_step], it satisfies sufficient decrease and |slope| <= max(c2 |initial slope|, tolerance), and the energy is strictly below the starting one; at most max_eval evaluations are spent whether the search succeeds or fails. (That the step is at least min_step is false: the zoom phase goes below it.)", "quantifier": "all objective functions", "why_tests_cant": "Adversarial objective.", "anchors": ["include/qlpeps/optimizer/optimizer_impl.h: StrongWolfeLineSearch_"]}
{"id": "C41", "title": "Learning-rate schedules respect their documented bounds", "statement": "Step, multi-step, exponential, cosine, warm-up and plateau schedules: rates stay between their end points and are monotone (non-increasing; warm-up non-decreasing), milestones count whatever their order, and the plateau schedule reduces only after patience consecutive non-improvements. (The plateau schedule has no floor: for a constant energy the rate tends to zero.)", "quantifier": "all iterations, parameters and energy sequences", "why_tests_cant": "All histories.", "anchors": ["include/qlpeps/optimizer/lr_schedulers.h"]}
{"id": "C42", "title": "Conjugate gradient returns solutions with the residual it claims", "statement": "For a linear operator in exact arithmetic the tracked residual is b - A x at every iteration, so a converged result satisfies the requested tolerance; the best iterate has residual no larger than the initial guess; for a symmetric positive-definite operator the solver never reports indefiniteness and, if max_iter is at least the dimension, ends within as many iterations as there are components, converged or stagnated at the last digit; iterations are at most max_iter and products at most 2 max_iter + 1.", "quantifier": "all linear operators, right-hand sides, initial guesses and parameters", "why_tests_cant": "All operators and dimensions.", "anchors": ["include/qlpeps/utility/conjugate_gradient_solver.h: ConjugateGradientSolver"]}
{"id": "C43", "title": "The distributed CG protocol cannot deadlock and sums every rank once per product", "statement": "For any number of ranks and any interleaving the master/slave protocol terminates with all slaves stopped; every matrix-vector product is the sum of exactly one contribution from each rank computed from the same broadcast vector.", "quantifier": "all rank counts, interleavings and CG run lengths", "why_tests_cant": "Interleavings.", "anchors": ["include/qlpeps/utility/conjugate_gradient_solver.h: master/slave functions"]}
{"id": "C44", "title": "The SR matrix is the covariance of log-derivatives with the shift added once", "statement": "Summed over ranks, the SR matrix-vector product equals (1/Ns) sum_i O_i (O_i.v - Obar.v) + diag_shift v, is linear, symmetric and at least shift times the identity; with a positive shift the distributed natural-gradient solve ends on every schedule, never reports indefiniteness, and reports the residual of that system. A rank without samples is undefined behaviour.", "quantifier": "all sample sets, vectors, rank counts", "why_tests_cant": "All dimensions and rank counts.", "anchors": ["include/qlpeps/optimizer/stochastic_reconfiguration_smatrix.h"]}
{"id": "C45", "title": "The MinSR ring exchange is deadlock-free and delivers every batch", "statement": "With P ranks, in round k rank r receives exactly the batch of rank (r-k) mod P, for every schedule, even when sends are synchronous; after P rounds each rank has filled its complete block of rows.", "quantifier": "all rank counts and schedules", "why_tests_cant": "Schedules.", "anchors": ["include/qlpeps/optimizer/minsr_tmatrix.h: Construct"]}
{"id": "C46", "title": "The MinSR T matrix is the centred Gram matrix", "statement": "The assembled matrix equals <O_i - Obar, O_j - Obar>/Ns; it is Hermitian, annihilates the constant vector and is positive semi-definite; the pseudo-inverse filter is zero at zero and between zero and 1/lambda; if the hard cutoff drops no non-zero eigenvalue the resulting direction solves the stochastic-reconfiguration equation S x = gradient, and with any cutoff it never points against the gradient.", "quantifier": "all sample sets", "why_tests_cant": "All sizes.", "anchors": ["include/qlpeps/optimizer/minsr_tmatrix.h", "include/qlpeps/optimizer/minsr_eigensolve.h: ApplyPseudoInverseCutoff"]}
{"id": "C47", "title": "Split-index TPS arithmetic obeys vector-space laws and keeps the boundary condition", "statement": "Addition, subtraction, negation and scaling act element-wise with unset tensors as zero and obey the vector-space laws; compound and binary forms agree. The boundary condition of the operands is preserved (false of the code: binary forms return an open-boundary object).", "quantifier": "all states and scalars", "why_tests_cant": "All states.", "anchors": ["include/qlpeps/two_dim_tn/tps/split_index_tps_impl.h"]}
{"id": "C48", "title": "A crash while dumping a TPS to a fresh directory is detected by Load", "statement": "If a dump into an empty directory stops after any number of file writes, Load either returns false or returns exactly the dumped state. Dumping over an older dump of the same shape can be torn: Load may succeed with a mixture.", "quantifier": "all crash points, all states", "why_tests_cant": "All crash points.", "anchors": ["include/qlpeps/two_dim_tn/tps/split_index_tps_impl.h: Dump, Load"]}
{"id": "C49", "title": "The direct sum of TPS adds amplitudes", "statement": "For every configuration the amplitude of WaveFunctionSum(a,b) is the sum of the amplitudes of a and b; with coefficients it is alpha psi_a + beta psi_b (false of the code for negative or complex coefficients when the number of sites is even).", "quantifier": "all lattices (OBC and PBC), tensors, coefficients and configurations", "why_tests_cant": "All sizes; a combinatorial argument on connected lattices.", "anchors": ["include/qlpeps/two_dim_tn/tps/tps_impl.h: WaveFunctionSum, GetExpandIndices_"]}
{"id": "C50", "title": "Simple-update gates distribute the Hamiltonian exactly once", "statement": "Summed over all gates of a sweep, every NN bond, NNN bond and on-site term of the Hamiltonian appears with total weight one (OBC sizes >= 2 and PBC). The NNN executor mis-assigns the on-site term of lower-left triangles, so this fails there for on-site terms; 1-wide open chains get on-site weight below one.", "quantifier": "all lattice sizes, boundary conditions", "why_tests_cant": "All sizes.", "anchors": ["include/qlpeps/algorithm/simple_update/square_lattice_nn_simple_update.h: SetEvolveGate_", "include/qlpeps/algorithm/simple_update/square_lattice_nnn_simple_update.h: ConstructTriHamiltonian", "include/qlpeps/algorithm/simple_update/triangle_nn_on_sqr_peps_simple_update.h"]}
{"id": "C51", "title": "Simple/loop update stop exactly when the advanced criterion says so", "statement": "Execute runs at most steps sweeps; records one metric per executed sweep with consecutive indices; reports converged iff the last patience sweeps all passed the energy/lambda/min_steps gate, and it stops at the first such sweep.", "quantifier": "all sweep outcomes and parameters", "why_tests_cant": "All histories.", "anchors": ["include/qlpeps/algorithm/simple_update/simple_update_impl.h: Execute", "include/qlpeps/algorithm/loop_update/loop_update_impl.h: Execute"]}
{"id": "C52", "title": "The loop-update sweep visits every plaquette once in non-overlapping passes", "statement": "The four passes of LoopUpdateSweep_ together project every plaquette exactly once; within a pass no two plaquettes share a site (OBC any size, PBC even sizes).", "quantifier": "all lattice sizes", "why_tests_cant": "All sizes.", "anchors": ["include/qlpeps/algorithm/loop_update/loop_update_impl.h: LoopUpdateSweep_"]}
{"id": "C53", "title": "Product-state initialisation conserves charge at every tensor", "statement": "SquareLatticePEPS::Initial gives every tensor zero total divergence (OBC) and the charge on the last outgoing leg is minus the total charge of the product state; neighbouring tensors share matching leg charges.", "quantifier": "all lattice sizes and product states, any abelian charge group", "why_tests_cant": "All sizes.", "anchors": ["include/qlpeps/two_dim_tn/peps/square_lattice_peps_basic_impl.h: Initial"]}
{"id": "C54", "title": "Boundary-MPS canonical bookkeeping matches the tensors", "statement": "After Centralize(c) every tensor left of c is flagged left-canonical and every tensor right of it right-canonical, whatever the flags before; flags never claim canonicity a tensor does not have. Reverse does not keep this (flags are not reversed).", "quantifier": "all lengths, centres and histories", "why_tests_cant": "All histories.", "anchors": ["include/qlpeps/one_dim_tn/boundary_mps/bmps_impl.h: Centralize, LeftCanonicalizeTen, RightCanonicalizeTen, Reverse"]}
{"id": "C55", "title": "Walker traces return the exact value of the row or throw", "statement": "After any sequence of walker cache calls (including calls that threw) on one row and one opposite boundary, TraceWithBTen and TraceWithTwoSiteBTen either throw or return the exact contraction of the row with the given sites replaced, and they return exactly when both caches reach the site; ContractRow returns the exact contraction; each cache holds the vacuum plus one entry per absorbed column. Evolve keeps the caches of the old boundary, and EvolveStep downwards or to the right wraps past the last row.", "quantifier": "all row lengths, bond dimensions, tensors and call histories", "why_tests_cant": "Histories and tensor values cannot be enumerated.", "anchors": ["include/qlpeps/two_dim_tn/tensor_network_2d/bmps/impl/bmps_walker.h", "include/qlpeps/two_dim_tn/tensor_network_2d/bmps/impl/bten_operations.h"]}
{"id": "C56", "title": "The psi-consistency diagnostic ignores global signs", "statement": "The aligned psi summary is invariant under flipping the sign of any entries (up to an overall sign of the mean); the relative error is non-negative and zero for entries equal up to sign.", "quantifier": "all amplitude lists", "why_tests_cant": "All lists.", "anchors": ["include/qlpeps/algorithm/vmc_update/psi_consistency.h: ComputePsiConsistencySummaryAligned"]}
{"id": "C57", "title": "The spike-detection moving average stays meaningful", "statement": "For window >= 1 the EMA mean stays within the range of the data seen and the variance is non-negative; a constant series has zero variance. For window 0 the variance can become negative.", "quantifier": "all data sequences and windows", "why_tests_cant": "All sequences.", "anchors": ["include/qlpeps/optimizer/spike_detection.h: EMATracker"]}
{"id": "C58", "title": "Optimizer parameter building is order-insensitive and rejects incomplete input", "statement": "Build fails iff base parameters or algorithm are missing; settings made by one setter survive later setters. (False: the default gradient tolerance depends on which setter is called first.)", "quantifier": "all sequences of builder calls", "why_tests_cant": "All call orders.", "anchors": ["include/qlpeps/optimizer/optimizer_params.h: OptimizerParamsBuilder"]}
{"id": "C59", "title": "Pooled measurement equals averaging all samples; distributions are normalised", "statement": "Mean of rank means equals the mean over all samples (equal sample counts); each particle-number sample is a one-hot vector at the total particle number, and the averaged distribution sums to one.", "quantifier": "all samples, rank counts, configurations", "why_tests_cant": "All sizes.", "anchors": ["include/qlpeps/algorithm/vmc_update/monte_carlo_peps_measurer.h: StatisticRegistry, MakeParticleNumberDistributionSample", "include/qlpeps/algorithm/vmc_update/monte_carlo_peps_measurer_impl.h: GatherStatistic_"]}
{"id": "C60", "title": "TRG size check accepts exactly 2^k and 3*2^k", "statement": "IsTRGSupportedLinearSize_(n) is true iff n = 2^k or n = 3*2^k for some k.", "quantifier": "all n", "why_tests_cant": "All n.", "anchors": ["include/qlpeps/algorithm/vmc_update/monte_carlo_engine.h: IsTRGSupportedLinearSize_"]}
{"id": "C61", "title": "Emergency stop is agreed by all ranks", "statement": "Whatever subset of ranks received a signal and whenever, all ranks leave the sampling loop after the same sweep and no rank enters a collective the others skip.", "quantifier": "all signal arrival patterns and rank counts", "why_tests_cant": "Schedules.", "anchors": ["include/qlpeps/base/mpi_signal_guard.h", "include/qlpeps/algorithm/vmc_update/monte_carlo_peps_measurer_impl.h: Measure_"]}
{"id": "C62", "title": "Stopping criteria are sound and consistent across ranks", "statement": "The optimiser reports convergence iff the gradient, energy-change or plateau criterion holds at the last accepted step, and it holds at no earlier step; otherwise max_iterations steps were made or the stop callback asked to stop. All ranks enter the same collective operations and leave at the same iteration, provided the stop callback does not look at the error bar, which is 0 on every rank but the master.", "quantifier": "all histories", "why_tests_cant": "Histories.", "anchors": ["include/qlpeps/optimizer/optimizer_impl.h: ShouldStop"]}
{"id": "C63", "title": "Checkpoints are written exactly at the scheduled iterations", "statement": "With checkpointing every n steps a checkpoint labelled k is written iff iteration k is accepted and is not the one at which the run stops, k > 0 and n divides k; it is written after the (k+1)-th accepted evaluation and holds the state evaluated next.", "quantifier": "all runs", "why_tests_cant": "Histories.", "anchors": ["include/qlpeps/optimizer/optimizer_impl.h: IterativeOptimize, SaveCheckpoint_"]}
{"id": "C64", "title": "Energy of the triangular Heisenberg solvers, optimised and measured", "statement": "On lattices of at least three rows and two columns, the energy CalEnergyAndHoles of the triangular J1-J2 solver returns is the local energy of sum S.S over nearest neighbours plus J2 sum S.S over next-nearest neighbours of the triangular lattice, every pair once; the nearest-neighbour solver likewise from two rows on. EvaluateObservables returns the same energy. (The last sentence is false of the J1-J2 solver: its measurement never returns, on any lattice; with two rows its energy evaluation fails as well.)", "quantifier": "all lattices, couplings, wave functions, configurations and histories of the component", "why_tests_cant": "A fixed lattice cannot show that every pair is counted once for every size.", "anchors": ["include/qlpeps/algorithm/vmc_update/model_solvers/spin_onehalf_triangle_heisenbergJ1J2_sqrpeps.h:CalEnergyAndHoles,EvaluateObservables", "include/qlpeps/algorithm/vmc_update/model_solvers/spin_onehalf_triangle_heisenberg_sqrpeps.h"]}
{"id": "C65", "title": "Structure-factor measurement covers every requested pair", "statement": "MeasureStructureFactor returns, for every pair of a source site and a target site in a lower row, once and in order, the amplitude of the configuration with the spin raised at the source and lowered at the target (zero if one cannot be). (True only when the contractor holds a DOWN boundary for every target row; after TraverseAllBonds, as the solvers call it, there is one, so from three rows on all targets above the last row are recorded as zero and the last row is closed with the rows in between removed.)", "quantifier": "all lattices, tensors, configurations and lengths of the DOWN stack", "why_tests_cant": "A two-row lattice, or a comparison of shapes, shows nothing; the values must be right for every pair on every lattice.", "anchors": ["include/qlpeps/algorithm/vmc_update/model_solvers/base/structure_factor_measurement_mixin.h:MeasureStructureFactor", "include/qlpeps/algorithm/vmc_update/model_solvers/square_spin_onehalf_xxz_obc.h"]}
{"id": "C66", "title": "Energy holes are derivatives of the amplitude", "statement": "The hole returned for a site, contracted with any tensor placed on that site, gives the amplitude of the network with that tensor substituted; one hole is returned for every site.", "quantifier": "all lattices, tensors, configurations and histories of the component", "why_tests_cant": "Gradients rely on it for every site of every lattice.", "anchors": ["include/qlpeps/algorithm/vmc_update/model_solvers/base/square_nnn_energy_solver.h: CalEnergyAndHolesImpl", "include/qlpeps/two_dim_tn/tensor_network_2d/bmps/bmps_contractor_impl.h: PunchHole"]}
{"id": "C67", "title": "Exact-summation energy is the Rayleigh quotient and the gradient its derivative", "statement": "For a Hermitian model whose Hamiltonian does not leave the enumerated configurations and amplitudes that do not vanish, the exact-summation evaluator returns <psi|H|psi>/<psi|psi>, a real number, and the directional derivative of that quotient along any change of the tensors is twice the real part of the returned gradient contracted with the conjugated direction.", "quantifier": "all Hilbert-space sectors, Hermitian Hamiltonians, wave functions, parameter sets, directions and numbers of ranks", "why_tests_cant": "Tests compare with finite differences for single models and sizes.", "anchors": ["include/qlpeps/algorithm/vmc_update/exact_summation_energy_evaluator.h: ExactSumEnergyEvaluatorMPI"]}
{"id": "C68", "title": "State normalisation makes the largest sampled amplitude one", "statement": "NormalizeStateOrder1 multiplies every site tensor by one positive number on every rank such that the largest amplitude magnitude over the ranks becomes exactly one.", "quantifier": "all amplitudes (not all zero), lattices and rank counts", "why_tests_cant": "Real arithmetic over any number of ranks and sites.", "anchors": ["include/qlpeps/algorithm/vmc_update/monte_carlo_engine.h: NormalizeStateOrder1"]}
{"id": "C69", "title": "Callbacks see every new minimum and every accepted step", "statement": "on_lowest_state_found is called exactly for the accepted evaluations whose energy is below all earlier ones, in order; on_iteration is called once for each accepted step in order with its energy, error and gradient norm, except for the step at which the run converges.", "quantifier": "all evaluators, parameters and spike histories", "why_tests_cant": "History property.", "anchors": ["include/qlpeps/optimizer/optimizer_impl.h: IterativeOptimize"]}
{"id": "C70", "title": "Measured samples of the spin solvers have the expectation values as averages", "statement": "On lattices of at least two rows and columns, EvaluateObservables of the XXZ, J1-J2 XXZ and triangular nearest-neighbour spin-1/2 solvers returns for a configuration of non-zero amplitude: its local energy; for each bond of the lattice exactly once the local energy of its term; S^z of each site; the product S^z S^z for each pair of sites at the position of its packed upper triangle; and for the middle row the local values of the off-diagonal spin correlations. The component is left ready for the next sample and unchanged. Averaged over |psi|^2, the energy, the off-diagonal correlations, S^z and S^z S^z are the expectation values of the corresponding operators. A configuration of zero amplitude is refused with an exception.", "quantifier": "all lattices, couplings, wave functions, configurations and histories of the component", "why_tests_cant": "Tests compare with exact diagonalisation on one small lattice; a pair counted twice or a wrong flip shows only for some sizes and states.", "anchors": ["include/qlpeps/algorithm/vmc_update/model_solvers/base/square_nnn_model_measurement_solver.h", "include/qlpeps/algorithm/vmc_update/model_solvers/base/square_nn_model_measurement_solver.h", "include/qlpeps/algorithm/vmc_update/model_solvers/square_spin_onehalf_xxz_obc.h", "include/qlpeps/algorithm/vmc_update/model_solvers/square_spin_onehalf_j1j2_xxz_obc.h", "include/qlpeps/algorithm/vmc_update/model_solvers/spin_onehalf_triangle_heisenberg_sqrpeps.h"]}
{"id": "C71", "title": "Gradient clipping bounds what it says and keeps directions", "statement": "Clipping by value leaves every entry with magnitude at most the bound and its phase unchanged, and does not touch entries within the bound; clipping by norm multiplies the whole gradient by one number in [0,1] such that its norm becomes the smaller of its norm and the bound.", "quantifier": "all states, layouts and non-negative bounds", "why_tests_cant": "Real inequality over all vectors.", "anchors": ["include/qlpeps/two_dim_tn/tps/split_index_tps_impl.h: ElementWiseClipTo, ClipByGlobalNorm", "include/qlpeps/optimizer/optimizer_impl.h: IterativeOptimize (306-318)"]}
{"id": "C72", "title": "The TRG contractor keeps its cache in step with the accepted moves", "statement": "For a periodic network of side 2^k or 3*2^k, after Init, a first Trace and any sequence of accepted moves (BeginTrialWithReplacement followed by CommitTrial, each replacing any tensors), the contractor is in every cached tensor what a new contractor would be after tracing the current network: Trace returns the same amplitude, PunchAllHoles the same holes, and BeginTrialWithReplacement and EvaluateReplacement return for any replacement the amplitude a new contractor finds for the replaced network. Init accepts exactly these networks. ClearCache makes the next Trace load the network given to it.", "quantifier": "all sizes, tensors, truncations, histories of moves and replacements", "why_tests_cant": "The cache has 2 log2(n) layers linked by index arithmetic; a stale entry shows only for particular moves after particular histories.", "anchors": ["include/qlpeps/two_dim_tn/tensor_network_2d/trg/trg_contractor.h: TRGContractor, Init, Trace, BeginTrialWithReplacement, EvaluateReplacement, CommitTrial, PunchAllHoles, ClearCache", "include/qlpeps/two_dim_tn/tensor_network_2d/trg/trg_contractor_impl.h"]}
{"id": "C73", "title": "The TRG contractor is exact when its decompositions lose nothing", "statement": "For a periodic network of side 2^k or 3*2^k whose bonds match, the amplitude returned by Trace is the sum over all values of all bonds of the product of the site tensors, whenever every singular value decomposition made on the way gives its tensor back; for sides 1, 2 and 3 without any condition. The amplitudes of trials and evaluations after any accepted moves are then those of the replaced networks. For the network of a periodic tensor product state projected on a configuration this is the amplitude of that configuration.", "quantifier": "all sizes, tensors, bond dimensions, decomposition routines, moves and replacements", "why_tests_cant": "The contraction runs through 2 log2(n) layers with two alternating geometries and hand-written axis lists; sums of a 4x4 network already have too many terms to compare, and symmetric test tensors hide swapped axes.", "anchors": ["include/qlpeps/two_dim_tn/tensor_network_2d/trg/trg_contractor_impl.h: Trace, SplitNode_, ContractPlaquetteCore_, ContractDiamondCore_, ContractFinal1x1_, ContractFinal2x2_, ContractFinal3x3_"]}
{"id": "C74", "title": "Holes of the TRG contractor stand for the network around a site", "statement": "For a periodic network of side 2^k or 3*2^k from 2 on whose bonds match, PunchAllHoles returns for every site a tensor with the legs of the site tensor whose contraction with that site tensor is the amplitude Trace reports, also when decompositions truncate and after any accepted moves. Contracted with any other tensor of the same legs the hole gives the amplitude of the network with the site tensor replaced, which makes it the derivative of the amplitude that gradients are built from.", "quantifier": "all sizes, tensors, bond dimensions, decomposition routines, moves, sites and probing tensors", "why_tests_cant": "The tests contract each hole with the tensor already there, which any scaled projection passes; the probing tensor and the history are universally quantified.", "anchors": ["include/qlpeps/two_dim_tn/tensor_network_2d/trg/trg_contractor_impl.h: PunchAllHoles, PunchAllHolesImpl_, PunchAllHoleFinal2x2_, PunchAllHoleFinal3x3_", "include/qlpeps/two_dim_tn/tensor_network_2d/trg/trg_contractor.h: ComputeEffectiveInvEps"]}
{"id": "C75", "title": "Boundary MPS contraction of an open lattice is exact when nothing is truncated", "statement": "For an open network of any size, if the allowed boundary dimension is at least D^(L-1), D the largest bond and L the longer side, and the decompositions return factors of what they decompose, every trace the contractor can be asked for - one row or two, either orientation, any window, with boundary MPSs grown from the sides and environments grown from both ends - is the sum over all values of all bonds of the product of the site tensors. The holes, closed with any tensor, are that sum with the tensor in the place left out. Hence the amplitude a component holds after any history is the amplitude of its configuration in the tensor product state, and the energy and gradient holes of a spin model are those of that wave function.", "quantifier": "all lattice sizes, bond dimensions, tensors, windows, decomposition routines, histories, configurations and probing tensors", "why_tests_cant": "Four sides, two orientations and one or two layers each have hand-written axis numbers; symmetric tensors hide swapped legs, and the compression (QR up, SVD down, reversal for two of the sides) is exact only through an identity over all bond values.", "anchors": ["include/qlpeps/one_dim_tn/boundary_mps/bmps_impl.h: MultiplyMPO, MultiplyMPOSVDCompress_, RightCanonicalizeTruncate", "include/qlpeps/two_dim_tn/tensor_network_2d/bmps/impl/bmps_contractor_grow.h: GrowBTenStep, GrowBTen2Step, PunchHole", "include/qlpeps/two_dim_tn/tensor_network_2d/bmps/impl/bmps_contractor_init.h: InitBMPS, InitBTen, InitBTen2", "include/qlpeps/two_dim_tn/tensor_network_2d/bmps/impl/bmps_contractor_trace.h: Trace, ReplaceOneSiteTrace, ReplaceNNSiteTrace, ReplaceNNNSiteTrace, ReplaceTNNSiteTrace, ReplaceSqrt5DistTwoSiteTrace"]}
{"id": "C76", "title": "Simple-update projections apply their gates exactly when nothing is truncated, and ToTPS keeps the state", "statement": "A PEPS with bond weights stands for the state whose amplitude at a basis state is the sum over all bond values of the product of all site tensors and all weights. For an open or periodic lattice, any sequence of the two-site (row, column) and three-site (four triangle) projections, with gates that fit the sites, an SVD that may keep all singular values, and no new weight between zero and the inversion tolerance, leaves the state on which the gates have acted one after the other in the order of their legs, divided by the product of the norms returned. Legs and weights still fit together. ToTPS returns a tensor product state with the same amplitudes whenever the weights are not negative.", "quantifier": "all lattice sizes, boundary conditions, bond and physical dimensions, tensors, weights, gates, decomposition routines, sequences of calls and basis states", "why_tests_cant": "Six functions with hand-written axis lists absorb neighbouring weights, decompose, and divide the weights out again; tests compare ground-state energies after many steps, where a swapped leg of a symmetric gate or a weight divided out once too often changes only the rate of convergence.", "anchors": ["include/qlpeps/two_dim_tn/peps/square_lattice_peps_projection_impl.h: NearestNeighborSiteProject, UpperRightTriangleProject, UpperLeftTriangleProject, LowerRightTriangleProject, LowerLeftTriangleProject", "include/qlpeps/two_dim_tn/peps/square_lattice_peps_basic_impl.h: EatSurroundLambdas_, Eat3SurroundLambdas_, QTenSplitOutLambdas_, ToTPS", "include/qlpeps/two_dim_tn/peps/square_lattice_peps.h: GetLambdaVertNorth, GetLambdaVertSouth, GetLambdaHorizWest, GetLambdaHorizEast"]}
{"id": "C77", "title": "Evolution gates are exponentials, and a lossless sweep applies them bond by bond", "statement": "The gate made from a Hamiltonian term h on any number of sites and an imaginary time step tau is exp(-tau h): each element differs from that of the limit of the exponential series by at most max(eps, bound of the 999th term) (exp(tau |h|) - 1), eps being the tolerance of the series and |h| the 2-norm. On an open or periodic lattice with at least two rows and two columns, a sweep of the nearest-neighbour simple update in which nothing is truncated leaves, up to the norm it returns, the state on which the exponential series of the terms of all bonds have acted, column by column the vertical ones, then column by column the horizontal ones; the term of a bond consists of the two-site term given for it and of the on-site terms of its sites divided by their numbers of bonds. Several sweeps do so one after the other.", "quantifier": "all local dimensions, Hamiltonian terms (uniform or one for each bond, with or without on-site terms), time steps, tolerances, lattice sizes, boundary conditions, states, numbers of sweeps", "why_tests_cant": "The series stops at a data-dependent order and multiplies tensors with transposed legs; a gate that is off by a leg order or a share of an on-site term still cools to a plausible energy. No test compares the swept state with the product of exponentials.", "anchors": ["include/qlpeps/algorithm/simple_update/simple_update_impl.h: TaylorExpMatrix", "include/qlpeps/algorithm/simple_update/square_lattice_nn_simple_update.h: SetEvolveGate_, ConstructBondHamiltonian, ConstructEvolveOperator, SimpleUpdateSweep_"]}
{"id": "C78", "title": "The terms a simple-update sweep evolves with add up to the Hamiltonian", "statement": "On every lattice, the sum over the calls of a nearest-neighbour sweep of the terms they evolve with is the Hamiltonian: every two-site term once on its bond and every on-site term once, whatever the number of bonds of its site.", "quantifier": "all lattice sizes, boundary conditions, local dimensions, uniform or bond-dependent terms, on-site terms, wave functions and basis states", "why_tests_cant": "On-site terms are cut into shares by counting edges case by case; a wrong count rescales a field slightly near an edge and no energy test notices.", "anchors": ["include/qlpeps/algorithm/simple_update/square_lattice_nn_simple_update.h: SetEvolveGate_, ConstructBondHamiltonian"]}
{"id": "C79", "title": "Spikes are reported exactly when the documented thresholds are exceeded", "statement": "For every evaluation of a run, the messages issued about it are determined by what came before: with automatic recovery, from the second step on, an error bar above factor_err times the exponential moving average of the error bars of the accepted steps is reported as S1, else a gradient norm above factor_grad times its average as S2; then, for SR and MinSR, a natural-gradient norm above factor_ngrad times its average, or too few solver iterations, as S3; then, with rollback enabled, an energy more than sigma_k standard deviations above the average energy as S4. Discarded evaluations do not enter the averages. S1 to S3 cause a new evaluation while fewer than redo_mc_max_retries were made for this step, then a rollback if one is enabled and an accepted state is kept, else acceptance with a warning; S4 always causes a rollback; a discarded evaluation is not checked further. Step, attempt, value and threshold in the log are those of the comparison.", "quantifier": "all states, gradients, algorithms, parameter values, evaluators with arbitrary history-dependent answers, schedules, callbacks and numbers of passes", "why_tests_cant": "Which averages an evaluation is compared with depends on the whole history of accepted, repeated and rolled-back steps; tests script two or three evaluations.", "anchors": ["include/qlpeps/optimizer/optimizer_impl.h: IterativeOptimize, DetectS1S2_, DetectS3_, DetectS4_, DecideAction_, LogSpikeEvent_", "include/qlpeps/optimizer/spike_detection.h: EMATracker"]}
{"id": "C80", "title": "A loop projection that loses nothing applies its gate", "statement": "When the decompositions inside a loop projection lose nothing and no square root that gauge fixing inverts is below its tolerance, the wave function afterwards, multiplied by the norm that is returned, is the old one with the four-site gate applied to the loop, for every configuration; legs and weights still fit together. In that case the projection ends normally, with a nonzero norm, whenever the new state is not zero: no Upsilon is found asymmetric and no conjugate-gradient solve fails. Whatever is truncated, the second number returned is the expectation value of the gate in the loop with its outer weights, nothing outside of the loop changes, and the tensors and weights of the loop are left normalised. A loop that would stick out of an open lattice is refused.", "quantifier": "all lattice sizes and boundary conditions, positions of the loop, bond dimensions, physical dimensions, gates given by four tensors with any bond dimensions, tolerances, configurations, decompositions that multiply back, and any matrices found as dominant eigenvectors", "why_tests_cant": "Gauge fixing and full-environment truncation rewrite four tensors, four weights and four Upsilons with nearly arbitrary matrices that must cancel; a wrong axis or a weight divided out on the wrong leg still gives a plausible energy. Tests compare energies of a few loop updates.", "anchors": ["include/qlpeps/two_dim_tn/peps/square_lattice_peps_projection4_impl.h: LocalSquareLoopProject, PatSquareLocalLoopProjector_, WeightedTraceGaugeFixing, FullEnvironmentTruncate, ConstructUpsilons, GammaLambdaMPSLoopOverlap"]}
{"id": "C81", "title": "A loop-update sweep is the product of its plaquette gates, and reports matching energies", "statement": "One sweep of the loop update projects the gate of every plaquette of the lattice exactly once, in the order even columns first and in them even rows first. When no projection loses anything, the new state times exp(-tau En), where En is the energy the sweep reports as estimated_en, is the product of all plaquette gates, in this order, applied to the old state; several sweeps multiply. The energy reported as estimated_e0 is the sum over the plaquettes of (1 - <gate>)/tau for first-order gates, or of -log<gate>/tau for exponential gates, <gate> being the expectation value in the loop with its outer weights at the moment the gate is applied. A sweep whose projections are all well conditioned and do not make the state zero ends without an exception.", "quantifier": "all lattices, open or periodic, that the executor accepts, all gates of fitting dimensions, all PEPS whose legs and weights fit together, all decompositions that multiply back, all time steps other than zero, any number of sweeps", "why_tests_cant": "A test compares one energy after many sweeps with a reference value and a tolerance; a plaquette left out, done twice, or a factor lost from the norm product shifts it by an amount of the order of the time step.", "anchors": ["include/qlpeps/algorithm/loop_update/loop_update_impl.h: LoopUpdateSweep_, Execute", "include/qlpeps/two_dim_tn/peps/square_lattice_peps_projection4_impl.h: LocalSquareLoopProject"]}
{"id": "C82", "title": "Sweeps with terms on triangles are Trotter products of the Hamiltonian", "statement": "A sweep of the simple update with nearest- and next-nearest-neighbour terms on the square lattice, in which nothing is lost, applies for every triangle of every plaquette, in a fixed order, the exponential series of minus tau times the operator of the triangle; the new state times exp(-tau En), En being the energy reported, is the result, and several sweeps multiply. Without on-site terms, or with the same one on all sites of a torus, the operators of the triangles add up to the Hamiltonian: every bond once, both diagonals of every plaquette once, every site once. With on-site terms on an open lattice the operators of the code do not add up to it (refuted). A sweep for the triangular lattice is a product of exponential series in two halves, each of whose operators add up to the Hamiltonian of the triangular lattice; it takes out exp(-2 tau En) with the energy it reports.", "quantifier": "all open and periodic lattices of at least two rows and columns (all open ones for the triangular lattice), all two-site terms that do not change when the sites are exchanged, all time steps other than zero, all PEPS whose legs and weights fit together, all decompositions that multiply back, any number of sweeps", "why_tests_cant": "A test compares the energy after many sweeps on one small lattice with a reference value; a share of a bond counted wrongly at an edge or in a corner changes it by a little, and less on larger lattices.", "anchors": ["include/qlpeps/algorithm/simple_update/square_lattice_nnn_simple_update.h: ConstructTriHamiltonian, SetEvolveGate_, SimpleUpdateSweep_", "include/qlpeps/algorithm/simple_update/triangle_nn_on_sqr_peps_simple_update.h: SetEvolveGate_, SimpleUpdateSweep_"]}
{"id": "C83", "title": "A projection divides by zero only if its gate takes the state to zero", "statement": "The norm by which a two- or three-site projection of the simple update divides the state, and which it returns, is zero only if applying the gate to the state gives the zero state, whatever the SVD does. So in a sequence of projections in which no singular value is cut off and whose gates do not take the state to zero, every norm is non-zero, and the new state is the old one with the gates applied, divided by the product of the norms.", "quantifier": "all six kinds of projection, all sequences of them, all gates and PEPS of fitting dimensions on open and periodic lattices, all QR decompositions that multiply back", "why_tests_cant": "The division happens to local tensors that depend on all earlier projections; whether one of them can vanish although the state does not is a statement about all states, and a test only meets norms of order one.", "anchors": ["include/qlpeps/two_dim_tn/peps/square_lattice_peps_projection_impl.h: NearestNeighborSiteProject, UpperRightTriangleProject, UpperLeftTriangleProject, LowerRightTriangleProject, LowerLeftTriangleProject", "include/qlpeps/two_dim_tn/peps/square_lattice_peps.h: ProjectionRes"]}
{"id": "C84", "title": "From the simple update to the measured energy: the state that is sampled is the evolved state", "statement": "Take a PEPS on an open lattice through any sequence of two- and three-site projections, convert it with ToTPS and FromTPS, and construct a wave-function component on the result. When nothing is cut off, then after any history of sweeps, measurements and configuration changes the amplitude of the component is the amplitude, in its configuration, of the state that the gates make of the initial state, divided by the product of the norms the projections returned; the energy it reports for the XXZ/J1-J2 models and for the transverse-field Ising model is the local energy of the Hamiltonian in the evolved state, whatever the norms, weights and tensors are; and exact summation over a set of configurations closed under the XXZ Hamiltonian returns, for any number of ranks, the expectation value of the Hamiltonian in the evolved state.", "quantifier": "all open lattices of at least two rows and columns, all PEPS whose legs and weights fit together, all sequences of projections and gates, all decompositions that multiply back, all histories of a component, all couplings, all numbers of ranks", "why_tests_cant": "Each stage has its own conventions (where weights are stored, order of legs, conjugation, normalisation); tests check the stages apart or compare one final energy within a tolerance wider than a wrong convention on a few bonds may cost.", "anchors": ["include/qlpeps/two_dim_tn/tps/split_index_tps_impl.h: FromTPS", "include/qlpeps/api/conversions.h: ToTPS, ToSplitIndexTPS", "include/qlpeps/two_dim_tn/peps/square_lattice_peps_projection_impl.h", "include/qlpeps/vmc_basic/wave_function_component.h", "include/qlpeps/algorithm/vmc_update/model_solvers/square_spin_onehalf_xxz_obc.h", "include/qlpeps/algorithm/vmc_update/exact_summation_energy_evaluator.h"]}
{"id": "C85", "title": "The coordinate table of the singlet pair correlations matches the announced values", "statement": "For a t-J model on a lattice of any size and any selection of reference bonds, the coordinate table written for SC_singlet_pair_corr lists exactly the pairs of a selected horizontal bond (every one if none is selected; bonds outside of the lattice are ignored) and a horizontal bond in a row below it, each once and independent of the order of the selection, with consecutive numbers; its number of lines is the announced number of values, (Lx-1)^2 Ly(Ly-1)/2 without a selection; and the loops that store the values visit the pairs in the order of the table, provided no bond is selected twice.", "quantifier": "all lattice sizes, including those with one row or column, all selections", "why_tests_cant": "The table, the announced number and the loops of the measurement are three separate pieces of code; tests compare them for a few lattices and selections.", "anchors": ["include/qlpeps/algorithm/vmc_update/model_solvers/base/singlet_pair_correlation_measurement_mixin.h: ComputeNumSCPairs, GenerateSCPairCorrIndexMapping, GenerateSCPairCorrCoordString, MeasureSingletPairCorrelation", "include/qlpeps/algorithm/vmc_update/model_solvers/square_tJ_model.h: EvaluateObservables, DescribeObservables"]}
{"id": "C86", "title": "A periodic wave-function component is always that of its configuration, and its energies are local energies", "statement": "On a torus of side 2^m or 3*2^m a wave-function component contracted by TRG can be built on every configuration, and a torus of any other side is refused. After any history of construction, replacement of the configuration, exchange sweeps and full-space sweeps (accepted or not) its tensors, contractor and amplitude are those a new component on the same configuration has, and so is every amplitude it tries next; a sweep makes exactly the moves, random draws and acceptances of the sweep that contracts each trial anew. The XXZ/J1-J2 and Heisenberg energies it reports are the local energies of the Hamiltonian on the torus in the wave function so contracted, and taking them leaves the component unchanged. When the decompositions lose nothing, the amplitude is the sum over all bonds of the torus, and for a periodic PEPS that went through projections it is that of the evolved state divided by the product of the norms, the energies being the local energies in the evolved state. The transverse-field energy goes through the holes of the contractor: it is right for sides 2 and 3 and wrong for side 4.", "quantifier": "all sides, tensors and configurations, all numbers of local states, all histories of a component, all random engines and acceptance rules, all couplings, all decompositions (the exact ones for the statements on sums and evolved states)", "why_tests_cant": "Trials update only the part of the network below the changed sites and commits merge them; a stale fragment shows only after a particular sequence of accepted and rejected moves, and tests compare against a fresh contraction within a truncation error.", "anchors": ["include/qlpeps/vmc_basic/wave_function_component.h: TPSWaveFunctionComponent (TRG branch)", "include/qlpeps/vmc_basic/configuration_update_strategies/square_nn_updater.h: MCUpdateSquareNNExchangePBC, MCUpdateSquareNNFullSpaceUpdatePBC", "include/qlpeps/two_dim_tn/tensor_network_2d/trg/trg_contractor_impl.h", "include/qlpeps/algorithm/vmc_update/model_solvers/square_spin_onehalf_j1j2_xxz_pbc.h", "include/qlpeps/algorithm/vmc_update/model_solvers/heisenberg_square_pbc.h", "include/qlpeps/algorithm/vmc_update/model_solvers/transverse_field_ising_square_pbc.h"]}
{"id": "C87", "title": "What an optimisation returns is what its runs accepted", "statement": "A VMC executor may be run any number of times. Its energy, error and gradient-norm trajectories on the master rank, and the trajectory file, then list the accepted evaluations of all its runs in order, numbered from zero, leaving out only the evaluation with which a stopping criterion ended a run; evaluations that were discarded and repeated are not in them. After each run every rank holds the same final state, namely the last state of that run rescaled, and the same lowest state, namely the one of the first least accepted energy of that run, which is also the minimum on the master rank (this includes the evaluation that ended the run); a named dump contains this pair. The one-call interface throws before anything runs unless the boundary condition, the truncation parameters and the updater belong to the same contractor, and otherwise returns what one run of a new executor leaves. Not so: the minimum need not be in the trajectory, it is not the minimum over several runs, and on other ranks the trajectories are empty and the minimum is the largest double.", "quantifier": "all numbers of runs and of iterations, all optimizer parameters, algorithms, schedules, stop callbacks and evaluators with arbitrary answers depending on history, all states held by the engine in between, all ranks, all combinations of boundary, parameters and updater", "why_tests_cant": "Which evaluations a run accepts, repeats or rolls back depends on the whole sequence of noisy energies; a test sees a few runs, on one rank, mostly of a new executor that never converges.", "anchors": ["include/qlpeps/algorithm/vmc_update/vmc_peps_optimizer_impl.h: Execute, WriteEnergyTrajectoryCsv_, DumpData, VMCPEPSOptimizer", "include/qlpeps/algorithm/vmc_update/vmc_peps_optimizer.h: GetEnergyTrajectory, GetMinEnergy, GetBestState", "include/qlpeps/api/vmc_api.h: VmcOptimize, VmcResult"]}
{"id": "C88", "title": "The container of lattice observables is a table with one value per site", "statement": "For every history of construction, resizing, reading, writing, accumulation, flattening and extraction, with the number of elements below 2^64, the container of lattice observables answers as a table with one value for each site: an access outside the size last set throws and changes nothing, an accumulation changes its own site only, and flattening or extracting lists the values row by row, the value of site (r, c) at position r*cols + c. Extraction takes the values away: until the next resize every access throws, although the number of rows and columns is still reported. If the number of elements exceeds 2^64 two sites can share an element.", "quantifier": "all element types and additions, all sizes, all histories of calls with all arguments", "why_tests_cant": "A wrong stride is invisible on square lattices and for single accesses; a test has a fixed size and order of calls.", "anchors": ["include/qlpeps/utility/observable_matrix.h: ObservableMatrix"]}
{"id": "C89", "title": "A measurement executor reports the averages over the samples of all its runs and writes what it reports", "statement": "For every number of ranks and every sequence of runs of a measurement executor whose samples give each observable with a fixed number of entries, the master then holds for every entry of every observable the average over the samples taken by all ranks in all runs, so far as every rank took the same number; the energy returned is the first entry of the observable \"energy\". The sample files list every sample of every run in order, the files of statistics have the values held in memory: an observable declared as a matrix one line for each row, an undeclared one a numbered list; a declared shape that does not fit the number of entries makes the run throw. If all runs were stopped before the first sample the executor reports itself finished, has no energy estimate, and its plain accessor returns zero with error zero; this is also what ranks other than the master always return. A second run does not start anew: its samples are pooled with those before. The one-call interface throws before sampling if boundary condition, truncation parameters and updater do not fit, and otherwise returns what one run of a new executor leaves.", "quantifier": "all numbers of ranks, runs and samples, all sets of observables with all numbers of entries, all sample values, all declared shapes", "why_tests_cant": "Means over unequal histories, runs stopped early, other ranks and repeated runs combine without bound; tests run an executor once on one rank and compare an energy within error bars.", "anchors": ["include/qlpeps/algorithm/vmc_update/monte_carlo_peps_measurer_impl.h: Execute, MeasureSample_, GatherStatistic_, DumpData, OutputEnergy, GetEnergyEstimate", "include/qlpeps/algorithm/vmc_update/monte_carlo_peps_measurer.h: SampleData", "include/qlpeps/api/vmc_api.h: MonteCarloMeasure"]}
{"id": "C90", "title": "Joining component tensors along a physical index does not keep the components", "statement": "For every number of component tensors and every common size, joining them along a new physical index gives a tensor in which only the last component survives, at the second value of the index; the part of the first value is one at its first element and zero elsewhere and all further parts are zero. With a single component the data are written beyond their end. The documented effect, that each value of the index has its component, is false.", "quantifier": "all element types, all numbers and sizes of components, all values", "why_tests_cant": "The function has no caller and no test; a test has a fixed number of components.", "anchors": ["include/qlpeps/algorithm/vmc_update/axis_update.h: GrowPhyIndexFromSplitIndexTensorsWithouQN_"]}
{"id": "C91", "title": "The distributed solve of the minimal-norm equation gives the same direction coefficients as the replicated one", "statement": "For every number of samples, every process grid and every block size, the distributed eigensolve returns Z diag(lambda+) Z^H rhs in the eigenvectors and eigenvalues that the library delivers distributed over the ranks, and this is the result of the replicated solve, whichever eigenvectors of a degenerate eigenvalue the two libraries choose; so the choice of solver, explicit or automatic, does not change the result. The blocks handed to the redistribution hold the matrix, every rank having the same number of rows. Matrices whose dimension exceeds an int are refused. Beyond 2^31 entries on a rank (from 46341 samples on one rank) the local position overflows: the behaviour is undefined although the size check passed.", "quantifier": "all matrix sizes, process grids, block sizes, cutoffs, right-hand sides and eigensystems with real or complex entries", "why_tests_cant": "Tests run a few ranks on matrices smaller than one block, where the block-cyclic distribution is trivial, and without degenerate eigenvalues.", "anchors": ["include/qlpeps/optimizer/minsr_scalapack.h: ScaLAPACKEigenSolveReal, ScaLAPACKEigenSolveComplex, LocalBlockCyclicDim, BlockCyclicLocalToGlobal", "include/qlpeps/optimizer/minsr_eigensolve.h: MinSREigenSolveDispatch"]}
{"id": "C92", "title": "The replica test records the overlap of each rank with the rank before after the same number of sweeps", "statement": "For every number of ranks, every number of samples of at least ten, every effect of the sweeps, every overlap function and every interleaving of the ranks, the replica test ends on all ranks without deadlock, and the overlaps written by a rank are, in the order of the sweeps, those of its configuration and of the configuration of the rank before it around the ring after the same number of sweeps, all ranks having started from the configuration of the master. With fewer than ten samples every execution divides by zero on the master. A single rank compares its configuration with itself.", "quantifier": "all numbers of ranks and samples, all sweeps and overlap functions, all schedules", "why_tests_cant": "Tests see a few schedules, in which the ranks run nearly in step; a message of another round would only change the numbers slightly.", "anchors": ["include/qlpeps/algorithm/vmc_update/monte_carlo_peps_measurer_impl.h: ReplicaTest, SynchronizeConfiguration_", "include/qlpeps/vmc_basic/configuration.h: MPI_Sendrecv, MPI_BCast"]}
{"id": "C93", "title": "The bond dimensions a state reports are those of its bonds", "statement": "For every lattice of at least two rows and columns, open or periodic, GetAllInnerBondDimensions lists one dimension per bond, and GetMinBondDimension and GetMinMaxBondDimension return the least and largest of them. GetMaxBondDimension returns the largest on every lattice that has a bond, if the two ends of each bond agree and the legs leaving an open lattice have dimension one. IsBondDimensionEven and IsBondDimensionUniform say whether all bonds have the same dimension, on a torus and on open lattices of two or more rows. With one row or one column the listing functions throw instead, and on an open chain of one row the last two report unequal dimensions although all bonds are equal.", "quantifier": "all lattice sizes, both boundary conditions, all dimensions of all legs", "why_tests_cant": "The functions look at different ends of the bonds and skip different edges; tests use a few square lattices with one common dimension.", "anchors": ["include/qlpeps/two_dim_tn/tps/split_index_tps_impl.h: GetMaxBondDimension, GetMinBondDimension, GetMinMaxBondDimension, GetAllInnerBondDimensions, IsBondDimensionEven", "include/qlpeps/two_dim_tn/tps/tps_impl.h: GetMaxBondDimension, IsBondDimensionUniform"]}
