{"id": "C01", "title": "Restore picks the newest checkpoint", "statement": "If a run directory holds readable checkpoints of one prefix, restoring from the directory yields the state of the checkpoint with the largest step (and resumes at that step + 1), whatever the order in which they were written.", "quantifier": "all sets of saved steps, all directory listings", "why_tests_cant": "depends on how file names compare for every pair of steps, including steps whose decimal width exceeds the zero padding", "anchors": ["src/jaqmc/utils/checkpoint.py: NumPyCheckpointManager.restore, save"]}
{"id": "C02", "title": "Checkpoint round trip", "statement": "Saving a tree at a step and restoring it from the file gives back every leaf of the tree and step + 1, for every tree whose flattened key paths are distinct.", "quantifier": "all trees (any nesting, any keys), all steps", "why_tests_cant": "unit tests use a few fixed trees; the property fails exactly on key-path collisions that a test must know about", "anchors": ["src/jaqmc/utils/checkpoint.py: tree_to_npz, tree_from_npz, _pytree_key_path, from_npz"]}
{"id": "C03", "title": "A torn checkpoint never hides an older good one", "statement": "If the process dies at any moment while a checkpoint is being written, a later restore skips the damaged file and returns the newest complete checkpoint (or starts fresh in non-strict mode).", "quantifier": "every crash point inside save, every previous history of saves", "why_tests_cant": "the crash point ranges over every byte offset", "anchors": ["src/jaqmc/utils/checkpoint.py: save, restore"]}
{"id": "C04", "title": "Strict and lenient restore", "statement": "Strict restore either returns the contents of an existing checkpoint or raises; it never silently returns the caller's initial state. Lenient restore of a missing or empty directory returns the initial state at step 0.", "quantifier": "all directories, contents and prefixes", "why_tests_cant": "quantifies over every directory state", "anchors": ["src/jaqmc/utils/checkpoint.py: restore"]}
{"id": "C05", "title": "Stage prefixes are isolated", "statement": "Checkpoints written by one stage (prefix) are never picked up by the restore of another stage that shares the directory.", "quantifier": "all pairs of stage prefixes, all steps", "why_tests_cant": "all prefix pairs, including ones where one prefix is a suffix of the other", "anchors": ["src/jaqmc/utils/checkpoint.py: __init__, restore", "src/jaqmc/workflow/vmc.py: restore_checkpoint"]}
{"id": "C06", "title": "Each step runs exactly once", "statement": "Across any sequence of graceful interruptions and restarts of a stage, the steps executed are 0,1,...,iterations-1, each exactly once and in order, and when the stage returns normally the last step's state is on disk.", "quantifier": "all iteration counts, all interruption histories", "why_tests_cant": "schedules of signals are unbounded", "anchors": ["src/jaqmc/workflow/stage/base.py: WorkStage.run"]}
{"id": "C07", "title": "A finished stage is idempotent", "statement": "Re-running a stage that already completed executes no step, changes no file and returns the checkpointed state.", "quantifier": "all completed histories", "why_tests_cant": "quantifies over histories", "anchors": ["src/jaqmc/workflow/stage/base.py: WorkStage.run"]}
{"id": "C08", "title": "Periodic saves bound the loss", "statement": "A checkpoint is written after step s iff s is the last step or the wall-clock interval has elapsed since the previous save and s+1 is a multiple of the step interval; after a hard crash a restart resumes right after the newest such save.", "quantifier": "all clock behaviours, intervals, crash points", "why_tests_cant": "clock schedules and crash points are unbounded", "anchors": ["src/jaqmc/workflow/stage/base.py: WorkStage.run"]}
{"id": "C09", "title": "Interrupt-and-resume reproduces the uninterrupted run", "statement": "For a given seed, stopping a stage at a checkpoint and resuming yields the same final state as running it in one go.", "quantifier": "all interruption points", "why_tests_cant": "all interruption points and all step functions", "anchors": ["src/jaqmc/workflow/stage/base.py: WorkStage.run", "src/jaqmc/workflow/stage/vmc.py: VMCWorkStage.loop"]}
{"id": "C10", "title": "NaN stops the run", "statement": "With stop_on_nan enabled the first step whose monitored statistics contain a NaN is the last step executed; its statistics are still recorded; with it disabled the run never stops because of NaN.", "quantifier": "all statistic streams and monitored-key sets", "why_tests_cant": "every stream of statistics", "anchors": ["src/jaqmc/workflow/stage/vmc.py: _has_nan, loop"]}
{"id": "C11", "title": "Graceful signal handling", "statement": "The first termination signal only requests a graceful exit and re-installs the handlers that were there before; any later signal is delivered to those original handlers.", "quantifier": "all signal sequences", "why_tests_cant": "signal schedules", "anchors": ["src/jaqmc/utils/signal_handler.py: GracefulKiller"]}
{"id": "C12", "title": "CSV log stays aligned with steps", "statement": "After any history of runs, hard crashes and resumes from checkpoints, the CSV log consists of one header and row k holds the statistics of step k, with no duplicate and no gap.", "quantifier": "all crash/resume histories", "why_tests_cant": "histories unbounded", "anchors": ["src/jaqmc/writer/csv.py: CSVWriter", "src/jaqmc/workflow/stage/base.py"]}
{"id": "C13", "title": "HDF5 log stays aligned with steps", "statement": "After any history of runs, crashes and resumes every HDF5 dataset has exactly one entry per executed step, entry k being the statistics of step k.", "quantifier": "all histories", "why_tests_cant": "histories unbounded", "anchors": ["src/jaqmc/writer/hdf5.py"]}
{"id": "C14", "title": "Evaluation statistics count each step once", "statement": "The final digest of an evaluation run is computed from exactly one record per step 0..iterations-1, even when the evaluation was interrupted and resumed.", "quantifier": "all interruption histories", "why_tests_cant": "histories unbounded", "anchors": ["src/jaqmc/workflow/stage/evaluation.py: HDF5ReadWrite, EvaluationWorkStage"]}
{"id": "C15", "title": "Configuration precedence", "statement": "The value used for a configuration key is the command-line override if given, otherwise the one from the last YAML file that sets it, otherwise the preset, otherwise the code default.", "quantifier": "all presets, YAML lists, override lists and key paths", "why_tests_cant": "all combinations of layers", "anchors": ["src/jaqmc/utils/config.py: ConfigManager.__init__, deep_merge, _get_path"]}
{"id": "C16", "title": "Merging configurations", "statement": "Deep merge is right-biased per leaf, keeps every path present in only one side, has the empty mapping as identity and is idempotent; it is associative on conflict-free configurations.", "quantifier": "all nested mappings", "why_tests_cant": "all trees", "anchors": ["src/jaqmc/utils/config.py: deep_merge"]}
{"id": "C17", "title": "Unused configuration is reported", "statement": "finalize reports a configuration path iff the user supplied it and no consumer read it or an ancestor of it; a misspelt key is therefore always reported.", "quantifier": "all configurations and all sequences of reads", "why_tests_cant": "all trees and read sequences", "anchors": ["src/jaqmc/utils/config.py: _find_unused_yaml_path, finalize"]}
{"id": "C18", "title": "Dot-list overrides", "statement": "An override a.b.c=v sets exactly that path; later overrides win over earlier ones on the same path and leave unrelated paths unchanged.", "quantifier": "all override lists", "why_tests_cant": "all lists", "anchors": ["src/jaqmc/utils/config.py: _dotlist_to_dict, _set_path"]}
{"id": "C19", "title": "Dependency wiring is complete", "statement": "wire either leaves no required runtime dependency unset in the object or its nested components, or raises naming the missing ones; wired values reach every nested component that declares them.", "quantifier": "all component trees and keyword sets", "why_tests_cant": "all trees", "anchors": ["src/jaqmc/utils/wiring.py: wire, check_wired"]}
{"id": "C20", "title": "Chunked evaluation equals batched evaluation", "statement": "For every batch size and chunk size, mapping a function in chunks returns the same batched result, in the same order, as mapping it over the whole batch.", "quantifier": "all batch sizes, chunk sizes, functions, in/out axes specs", "why_tests_cant": "all sizes including non-divisible and empty remainders", "anchors": ["src/jaqmc/utils/chunked_vmap.py: chunked_vmap"]}
{"id": "C21", "title": "Metropolis-Hastings bookkeeping", "statement": "After any number of MCMC steps each walker's position is either its previous one or the proposal, walkers do not influence each other, the cached log-probability equals the log-probability of the position, and the reported acceptance rate is (#accepted)/(steps*batch).", "quantifier": "all step counts, batches, proposals, random draws", "why_tests_cant": "all random streams", "anchors": ["src/jaqmc/sampler/mcmc.py: MCMCSampler"]}
{"id": "C22", "title": "Metropolis-Hastings satisfies detailed balance", "statement": "With a symmetric proposal the accept rule (accept iff log ratio > log u, u uniform) gives transition probabilities in detailed balance with the squared wavefunction.", "quantifier": "all pairs of configurations", "why_tests_cant": "real-valued", "anchors": ["src/jaqmc/sampler/mcmc.py: _mh_update"]}
{"id": "C23", "title": "Proposal width adaptation", "statement": "The width changes only every adapt_frequency steps, by the factor 1.1 up or down, based on the average of exactly the last adapt_frequency acceptance rates, and always stays positive.", "quantifier": "all histories of acceptance rates", "why_tests_cant": "unbounded histories", "anchors": ["src/jaqmc/sampler/mcmc.py: MCMCSampler.step"]}
{"id": "C24", "title": "Sample plan updates exactly its fields", "statement": "A plan step updates each declared field by its sampler given all other fields, leaves undeclared fields unchanged and keeps every sampler's update.", "quantifier": "all plans and data", "why_tests_cant": "all field partitions", "anchors": ["src/jaqmc/sampler/base.py: SamplePlan"]}
{"id": "C25", "title": "Estimator pipeline composition", "statement": "Each estimator sees the walker statistics of all estimators before it; a statistic is finalised by the estimator that produced it; finalising before evaluating raises.", "quantifier": "all pipelines", "why_tests_cant": "all pipelines and key sets", "anchors": ["src/jaqmc/estimator/base.py: EstimatorPipeline"]}
{"id": "C26", "title": "Statistics do not depend on the device layout", "statement": "The reported mean and variance of a per-walker quantity are those of the whole batch, however walkers are split over devices.", "quantifier": "all batches and device counts", "why_tests_cant": "all partitions", "anchors": ["src/jaqmc/estimator/base.py: mean_reduce"]}
{"id": "C27", "title": "Histogram accumulation", "statement": "The accumulated histogram is the sum over devices and steps of per-step counts; no sample inside the range is lost or counted twice, and it is independent of how steps are split by interruption.", "quantifier": "all sample streams and device layouts", "why_tests_cant": "unbounded streams", "anchors": ["src/jaqmc/estimator/histogram.py: HistogramEstimator"]}
{"id": "C28", "title": "Total energy is the sum of its components", "statement": "The total energy of every walker equals the sum of all energy components produced before it (or of the configured subset), and nothing else.", "quantifier": "all statistic dictionaries", "why_tests_cant": "all dictionaries", "anchors": ["src/jaqmc/estimator/total_energy.py: TotalEnergy"]}
{"id": "C29", "title": "Energy gradient estimator", "statement": "Without clipping the gradient returned is twice the real covariance of the local energy with the log-derivative; it is unchanged by a constant shift of the energy and does not depend on the device layout.", "quantifier": "all samples", "why_tests_cant": "all sample sets", "anchors": ["src/jaqmc/estimator/loss_grad.py"]}
{"id": "C30", "title": "Energy clipping", "statement": "Clipping maps every value into the window, leaves values inside the window unchanged, preserves order, and the window is the same on every device; method none is the identity.", "quantifier": "all value sets and methods", "why_tests_cant": "all inputs", "anchors": ["src/jaqmc/utils/clip.py"]}
{"id": "C31", "title": "Initial spin assignment", "statement": "Electrons are distributed over atoms so that spin totals equal the requested ones, no atom gets a negative count, each atom keeps its electron number and user-fixed atoms keep their spin.", "quantifier": "all molecules and requested totals", "why_tests_cant": "all atoms lists", "anchors": ["src/jaqmc/utils/atomic/initialization.py: distribute_spins"]}
{"id": "C32", "title": "Supercell tiling", "statement": "The primitive-cell translations returned for a supercell matrix S form a complete set of representatives of the lattice modulo the superlattice: every primitive lattice point is equivalent to exactly one of them.", "quantifier": "all invertible integer 3x3 matrices", "why_tests_cant": "all matrices", "anchors": ["src/jaqmc/utils/supercell.py: get_supercell_copies"]}
{"id": "C33", "title": "Supercell k-points fold to Gamma", "statement": "Every k-point returned for a supercell matrix folds to the Gamma point of the supercell, and each such k-point in the primitive Brillouin zone is returned once.", "quantifier": "all invertible integer 3x3 matrices", "why_tests_cant": "all matrices", "anchors": ["src/jaqmc/utils/supercell.py: get_supercell_kpts"]}
{"id": "C34", "title": "Wrapping positions", "statement": "Wrapping puts a position in the primary cell, moves it by a lattice vector, is idempotent and is invariant under lattice translations.", "quantifier": "all positions and invertible lattices", "why_tests_cant": "real-valued", "anchors": ["src/jaqmc/geometry/pbc.py: wrap_positions"]}
{"id": "C35", "title": "Minimum-image distance", "statement": "The periodic distance between two particles is the distance to the nearest periodic image.", "quantifier": "all lattices and positions", "why_tests_cant": "real-valued", "anchors": ["src/jaqmc/geometry/pbc.py: build_distance_fn"]}
{"id": "C36", "title": "Ewald reciprocal sum", "statement": "The reciprocal-space vector list contains exactly one of G and -G for every nonzero G within the cutoff, and the energy does not depend on the handedness of the lattice basis.", "quantifier": "all cutoffs and lattices", "why_tests_cant": "all cutoffs", "anchors": ["src/jaqmc/estimator/ewald.py: EwaldSum"]}
{"id": "C37", "title": "Fractional density uses lattice coordinates", "statement": "The periodic density histogram bins the fractional coordinates of the electron with respect to the supercell lattice vectors.", "quantifier": "all lattices and positions", "why_tests_cant": "real-valued", "anchors": ["src/jaqmc/estimator/density/fractional.py: FractionalDensity.extract", "src/jaqmc/app/solid/workflow.py: make_estimators"]}
{"id": "C38", "title": "Forward Laplacian is the Laplacian", "statement": "Evaluating a function composed of supported primitives with the forward-Laplacian interpreter returns its value, gradient and Laplacian.", "quantifier": "all programs over the modelled primitives, all inputs", "why_tests_cant": "all programs", "anchors": ["src/jaqmc/laplacian: interpreter.py, primitives/arithmetic.py, primitives/elementwise.py, primitives/core.py"]}
{"id": "C39", "title": "Sparse propagation agrees with dense propagation", "statement": "Propagating a locality-aware (sparse) derivative and then expanding it to dense gives the same result as dense propagation.", "quantifier": "all programs over modelled primitives and all owner assignments", "why_tests_cant": "all owner patterns", "anchors": ["src/jaqmc/laplacian/sparse.py", "src/jaqmc/laplacian/primitives/arithmetic.py"]}
{"id": "C40", "title": "Interpreter memory management is unobservable", "statement": "The interpreter's reference-counted environment never frees a value that is still needed, and its results are those of plain evaluation.", "quantifier": "all straight-line programs", "why_tests_cant": "all programs", "anchors": ["src/jaqmc/laplacian/interpreter.py: JaxExprEnvironment"]}
{"id": "C41", "title": "SR update solves the regularised equations", "statement": "The kernel form of the stochastic-reconfiguration update equals the parameter-space solution of (O^T O + lambda) delta = g when gamma = 1/lambda and momentum is off, and the documented robust/SPRING formula otherwise; lifting the null space of the centred Gram matrix does not change it.", "quantifier": "all score matrices, gradients, damping", "why_tests_cant": "all sizes", "anchors": ["src/jaqmc/optimizer/sr/jasr.py: scale_by_fisher_inverse, lift_null_space"]}
{"id": "C42", "title": "Chunked Gram matrix", "statement": "The chunked Gram computation equals score diag(scale) score^T for every number of chunks and parameters.", "quantifier": "all sizes and chunk counts", "why_tests_cant": "all sizes", "anchors": ["src/jaqmc/optimizer/sr/jasr.py: calc_gram_matrix, calc_gram_matrix_chunked"]}
{"id": "C43", "title": "Norm-constrained update", "statement": "The scaled update has norm at most max_norm and is the gradient times a nonnegative factor at most the learning rate.", "quantifier": "all updates, learning rates, limits", "why_tests_cant": "real-valued", "anchors": ["src/jaqmc/optimizer/sr/jasr.py: scale_by_constrained_norm"]}
{"id": "C44", "title": "Pruned parameters cannot influence the wavefunction", "statement": "A parameter leaf pruned as inactive does not influence the (linearised) log-wavefunction.", "quantifier": "all programs (jaxprs) with nested control flow", "why_tests_cant": "all programs", "anchors": ["src/jaqmc/optimizer/sr/jasr.py: get_active_input_positions"]}
{"id": "C45", "title": "DMC branching conserves weight", "statement": "Branching preserves the total walker weight and keeps walkers and attached arrays aligned; in fixed-size mode the number of walkers is unchanged; merging is unbiased.", "quantifier": "all weight vectors, thresholds and random draws", "why_tests_cant": "all populations", "anchors": ["src/jaqmc_legacy/dmc/branch.py", "src/jaqmc_legacy/dmc/branch_fix_size.py"]}
{"id": "C46", "title": "DMC rollback is consistent", "statement": "After any sequence of steps, failures, rollbacks and restarts the metric file contains each step once in order up to the current step, the restored state is the one saved at the restored step, and only data at least one block old is promoted to the save path.", "quantifier": "all histories", "why_tests_cant": "unbounded histories", "anchors": ["src/jaqmc_legacy/dmc/ckpt_metric_manager.py", "src/jaqmc_legacy/dmc/metric_manager.py", "src/jaqmc_legacy/dmc/dmc.py: recovery_wrapper"]}
{"id": "C47", "title": "DMC checkpoint clean-up policy", "statement": "Clean-up keeps the K most recent data files and those whose step is a multiple of N, and removes every other data file.", "quantifier": "all file sets, K and N", "why_tests_cant": "all sets", "anchors": ["src/jaqmc_legacy/dmc/ckpt_metric_manager.py: clean_up_save_path, _get_to_remove_paths"]}
{"id": "C48", "title": "DMC mixed estimator", "statement": "The mixed estimator is the Pi-weighted average of the energies in the window; rescaling by the largest weight does not change it and it lies between the smallest and largest energy.", "quantifier": "all energy/offset histories", "why_tests_cant": "unbounded histories", "anchors": ["src/jaqmc_legacy/dmc/energy_estimator.py"]}
{"id": "C49", "title": "DMC retries leave no trace", "statement": "An iteration rejected as an energy outlier leaves the DMC state as it was; the effective time step stops being updated after the configured period.", "quantifier": "all histories", "why_tests_cant": "unbounded histories", "anchors": ["src/jaqmc_legacy/dmc/dmc.py: dmc_single_iteration, run"]}
{"id": "C50", "title": "Step timing", "statement": "The reported average step time is the mean duration of the ticks after warm-up.", "quantifier": "all tick sequences", "why_tests_cant": "unbounded sequences", "anchors": ["src/jaqmc/utils/time_tracker.py"]}
{"id": "C51", "title": "Annotated YAML keeps the configuration", "statement": "Annotating the resolved YAML with sources only adds comment lines.", "quantifier": "all documents", "why_tests_cant": "all documents", "anchors": ["src/jaqmc/utils/yaml_format.py"]}
{"id": "C52", "title": "Configuration backups never overwrite", "statement": "Starting a workflow in a directory that already has a different resolved configuration preserves the old file under an unused name; a dry run writes nothing.", "quantifier": "all directory contents", "why_tests_cant": "all directory states", "anchors": ["src/jaqmc/workflow/base.py: prepare, config_backup_path"]}
{"id": "C53", "title": "Spherical quadrature is exact on polynomials whatever rotation is drawn", "statement": "Every ECP quadrature rule the package accepts (octahedron 6/18/26/50, icosahedron 12/32, and the default) integrates every polynomial up to its degree (3/5/7/11, 5/9, 5) exactly over the unit sphere, for every rotation that may be drawn; every rotation is proper, the rotated points stay on the unit sphere, the weights are positive and sum to one, and any other identifier is rejected. Averaging over the random rotations removes the remaining bias.", "quantifier": "all rules, all polynomials of the degree, all rotations that can be drawn", "why_tests_cant": "a statement about all polynomials and all real rotations", "anchors": ["src/jaqmc/estimator/ecp/quadrature.py"]}
{"id": "C54", "title": "Data container laws", "statement": "subset returns exactly the requested fields, merge replaces exactly the given fields, and unknown names raise.", "quantifier": "all data and key sets", "why_tests_cant": "all containers", "anchors": ["src/jaqmc/data.py: Data"]}
{"id": "C55", "title": "Console fields", "statement": "Field specifications [alias=]key[:format] parse to the intended alias, key and format, and a row is printed every interval steps.", "quantifier": "all specification strings", "why_tests_cant": "all strings", "anchors": ["src/jaqmc/writer/console.py"]}
{"id": "C56", "title": "Resolved configuration records what was used", "statement": "After a configuration value is read, the resolved configuration (the one written to disk) holds exactly the value that was handed to the consumer at that path, and later reads of unrelated paths do not change it; a read is refused only if its value cannot be converted or an ancestor path was read as a plain value.", "quantifier": "every manager state, every path, every later sequence of reads and presets", "why_tests_cant": "depends on arbitrary interleavings of reads at related paths", "anchors": ["src/jaqmc/utils/config.py: ConfigManager._get_primitive, _set_path"]}
{"id": "C57", "title": "Coordinates proposed together move independently", "statement": "The Gaussian Metropolis proposal displaces every coordinate of every sampled field by its own random draw: no two coordinates of a walker are always displaced by the same amount.", "quantifier": "every set of sampled fields, every random key, every width", "why_tests_cant": "depends on how keys are shared between the leaves of an arbitrary tree of fields; a test samples one field at a time", "anchors": ["src/jaqmc/sampler/mcmc.py: gaussian_proposal, _mh_update"]}
{"id": "C58", "title": "Periodic input features ignore lattice translations", "statement": "The wavefunction's input features for a solid do not change when electrons are moved by vectors of the simulation cell, or when all electrons are moved by the same primitive lattice vector.", "quantifier": "all lattices, supercells, symmetry types, distance types, electrons, translations", "why_tests_cant": "real-valued and unbounded translations", "anchors": ["src/jaqmc/wavefunction/input/atomic.py: SolidFeatures", "src/jaqmc/geometry/pbc.py: nu_distance, tri_distance, get_symmetry_lat"]}
{"id": "C59", "title": "Periodic distances vanish only at contact", "statement": "The periodic distance used in the input features is a real number that is zero exactly when the two particles coincide up to a lattice vector.", "quantifier": "all lattices, symmetry types and separations", "why_tests_cant": "real-valued", "anchors": ["src/jaqmc/geometry/pbc.py: nu_distance, tri_distance, get_symmetry_lat"]}
{"id": "C60", "title": "DMC population control", "statement": "The energy offset lies above the energy estimate exactly when the total weight is below its target, and decreases as the weight grows; the averaged energy is independent of the scale of the weights and stays within the clipping range.", "quantifier": "all energies, weights, targets and clip ranges", "why_tests_cant": "real-valued, all populations", "anchors": ["src/jaqmc_legacy/dmc/dmc.py: update_energy_offset, average_energy"]}
{"id": "C61", "title": "DMC padding is invisible", "statement": "For every number of walkers and devices, padding makes the batch divisible by the devices with at most a tenth of waste, and the step returns exactly one result per real walker, in order, computed from that walker alone.", "quantifier": "all walker and device counts and walker functions", "why_tests_cant": "all populations", "anchors": ["src/jaqmc_legacy/dmc/dmc.py: get_to_pad_num, make_step"]}
{"id": "C62", "title": "Aggregates over hosts", "statement": "agg_sum and agg_mean return the sum and mean over the values of all hosts, and an iteration counts as successful exactly when it succeeded on every host.", "quantifier": "all hosts, device counts and values", "why_tests_cant": "all cluster layouts", "anchors": ["src/jaqmc_legacy/dmc/utils.py", "src/jaqmc_legacy/dmc/dmc.py: success_over_all_hosts"]}
{"id": "C64", "title": "Condition-number cap of the SR solve", "statement": "When max_cond_num is set, the damping used brings the condition number of the regularised Gram matrix to at most that value, is never negative and is never more than needed for a matrix with that largest eigenvalue.", "quantifier": "all Gram matrices, start vectors and targets above 1", "why_tests_cant": "all spectra", "anchors": ["src/jaqmc/optimizer/sr/jasr.py: power_iteration, estimate_required_damping, make_robust_sr update"]}
{"id": "C63", "title": "Effective core potential energy", "statement": "For every ECP table (each angular momentum at most once), the estimator's energy is the sum over all electrons and atoms of the local potential V_local(r) plus, for each electron and each of its max_core nearest ECP atoms, the sum over l of V_l(r) times the angular-momentum-l component (projected in the electron's direction) of the wavefunction ratio on the sphere around the atom; exactly so for every random rotation when that ratio is a polynomial of degree at most (degree of the rule) - l. Under periodic boundary conditions only positions inside the cell are evaluated and the Bloch phase restores the true ratio. Potentials with l >= 3 are refused, atoms without a potential are skipped, no atom with one is an error.", "quantifier": "all tables, molecules and cells, wavefunctions, electron positions, rotations, quadrature rules", "why_tests_cant": "an identity between integrals over all wavefunctions and real rotations", "anchors": ["src/jaqmc/estimator/ecp/estimator.py: ECPEnergy, ECPRadial, _select_nearest_cores", "src/jaqmc/estimator/ecp/nonlocal_integral.py"]}
{"id": "C65", "title": "Antisymmetry of the wavefunctions", "statement": "Exchanging two electrons of the same spin leaves log|psi| of the FermiNet, PsiFormer, LapNet and solid wavefunctions unchanged and flips the sign (multiplies the phase by -1).", "quantifier": "all parameters, depths, widths, determinants, electron counts, positions, atoms, cells, k-points, and all pairs of electrons of equal spin", "why_tests_cant": "all network parameters and configurations", "anchors": ["src/jaqmc/app/molecule/wavefunction/ferminet.py", "src/jaqmc/app/molecule/wavefunction/psiformer.py", "src/jaqmc/app/molecule/wavefunction/lapnet.py", "src/jaqmc/app/solid/wavefunction.py", "src/jaqmc/wavefunction/backbone", "src/jaqmc/wavefunction/output", "src/jaqmc/wavefunction/jastrow.py"]}
{"id": "C67", "title": "Log of a sum of determinants", "statement": "The log-determinant layer returns the sign (phase) and log modulus of the exact sum of the determinants, with every exponential at most 1; when the sum is zero it reports log|psi| = -inf, also when every determinant is zero.", "quantifier": "all lists of determinants, real or complex", "why_tests_cant": "all real inputs, including exact cancellation", "anchors": ["src/jaqmc/wavefunction/output/logdet.py: LogDet"]}
{"id": "C66", "title": "Bloch condition of the solid wavefunction", "statement": "In the solid workflow, moving one electron by the simulation-lattice vector with integer coordinates m multiplies psi by exp(2 pi i m.twist), for every supercell matrix and twist; moving all electrons by a primitive-lattice vector R multiplies psi by exp(i K.R), K the sum of the k-points of the occupied orbitals.", "quantifier": "all parameters, electrons, cells, invertible integer supercell matrices, twists, occupations, lattice vectors", "why_tests_cant": "all real parameters, positions and cells", "anchors": ["src/jaqmc/app/solid/wavefunction.py: SolidWavefunction.get_orbitals", "src/jaqmc/app/solid/workflow.py: make_scf, run", "src/jaqmc/utils/supercell.py", "src/jaqmc/utils/atomic/scf.py: get_orbital_kpoints"]}
{"id": "C68", "title": "Electron-electron Jastrow factor", "statement": "The Jastrow factor counts every unordered pair of electrons once; as two electrons meet, its logarithm has slope 1/4 (equal spins) or 1/2 (opposite spins) in their distance, for every value of the learned parameters, and it stays bounded.", "quantifier": "all spin counts, distances, parameters and pairs", "why_tests_cant": "a limit, for all configurations and weights", "anchors": ["src/jaqmc/wavefunction/jastrow.py: SimpleEEJastrow, _cusp_function"]}
{"id": "C69", "title": "Wavefunctions on the Haldane sphere", "statement": "The MHPO wavefunction changes sign when two electrons of equal spin are exchanged and is multiplied by (-1)^flux when an electron goes once around the axis, for every choice of parameters and of flux_per_elec; the Laughlin wavefunction with flux = (2 cf + 1)(N - 1) is the product over pairs of (u_i v_j - u_j v_i)^(2 cf + 1); the free wavefunction occupies the lowest levels first and, with N = flux + 1, is the filled lowest level; all are antisymmetric.", "quantifier": "all parameters, spin counts, fluxes, attachments and electron positions", "why_tests_cant": "all real parameters and positions, any number of electrons", "anchors": ["src/jaqmc/app/hall/wavefunction/mhpo.py: MHPO, MonopoleOrbitals", "src/jaqmc/app/hall/wavefunction/jastrow.py: SphericalJastrow", "src/jaqmc/app/hall/wavefunction/laughlin.py: Laughlin", "src/jaqmc/app/hall/wavefunction/free.py: make_monopole_harm, Free"]}
{"id": "C71", "title": "Kinetic energy on the Haldane sphere is the local value of the monopole Hamiltonian", "statement": "For every wavefunction that has a smooth logarithm at a configuration with no electron on a pole, every number of electrons, monopole strength and radius, the kinetic energy the estimator returns is (H psi)/psi with H the sum over electrons of |Lambda|^2/(2 r^2), Lambda the kinetic angular momentum in the monopole field. The Hessian and the forward-Laplacian modes return the same number. For every state of the lowest Landau level of q flux quanta, including the Laughlin states, it is n (q/2)/(2 r^2) at every configuration, with no variance.", "quantifier": "every number of electrons, wavefunction with twice differentiable logarithm, configuration off the poles, monopole strength, radius; both modes", "why_tests_cant": "The identity must hold for every wavefunction and configuration; a test evaluates a few configurations of a few wavefunctions.", "anchors": ["src/jaqmc/estimator/kinetic/spherical.py: SphericalKinetic._evaluate_hessian, _evaluate_forward_laplacian"]}
{"id": "C72", "title": "Angular momentum statistics on the Haldane sphere", "statement": "For every wavefunction with a smooth logarithm at a configuration with no electron on a pole, angular_momentum_z, angular_momentum_z_square and angular_momentum_square are the real parts of the local values of L_z, L_z^2 and L^2 of the total angular momentum (kinetic part plus Q r_hat, summed over electrons). The Hessian mode and the double-operator mode return the same three numbers. They are 0 at every configuration for every Laughlin state (exponent k, flux k(n-1)); for one electron in any state of the lowest level L^2 is Q(Q+1), and in the orbital u^t v^(q-t) L_z is t - q/2.", "quantifier": "every number of electrons, wavefunction, configuration off the poles, monopole strength; both modes; every Laughlin exponent and every orbital of the lowest level", "why_tests_cant": "The operator identity must hold for every wavefunction and configuration; a test checks a few.", "anchors": ["src/jaqmc/estimator/kinetic/spherical.py: _angular_momentum_operator, _angular_momentum_square, SphericalKinetic"]}
{"id": "C73", "title": "Moves and Coulomb energy on the sphere", "statement": "A proposed move of an electron on the Haldane sphere turns it through the drawn angle arctan(stddev * g), always less than a right angle, along the great circle whose direction is the drawn angle 2 pi u from the meridian, and returns angles in [0, pi] x [-pi, pi]; the way back is a turn through the same angle, so the proposal is symmetric. (Exactly on the plane y = 0 the returned longitude is always 0, right only for x >= 0; this set has probability zero.) The potential energy is the Coulomb energy of the electrons at their straight-line distances on a sphere of the given radius, times the interaction strength.", "quantifier": "every starting point, step width and draw; every number of electrons at distinct points, positive radius and strength", "why_tests_cant": "The geometric identity and the symmetry of the proposal concern all points and draws.", "anchors": ["src/jaqmc/geometry/sphere.py: _sphere_move, sphere_proposal", "src/jaqmc/app/hall/hamiltonian.py: SpherePotential"]}
{"id": "C74", "title": "One-body density matrix on the Haldane sphere", "statement": "The orbitals of the one-RDM estimator are the normalised orbitals of the lowest Landau level (within 1e-4 of the poles in cos theta, those of the cutoff latitude), and the squares of all flux + 1 add up to (flux + 1)/(4 pi) at every point. For the filled level (flux + 1 electrons, any state proportional to the product of the pair factors, in particular the Free wavefunction), at every configuration and auxiliary point off the poles the estimator is 4 pi phi_i(r') phi_j(r')^*, whatever the electrons' positions, and its trace is the number of electrons. For any state with definite L_z, turning electrons and auxiliary point about the axis multiplies element (i, j) by exp(i (i - j) alpha); exchanging electrons of an antisymmetric state changes nothing.", "quantifier": "every flux, configuration, auxiliary point, element of the matrix, rotation angle and pair of electrons", "why_tests_cant": "Zero variance over electron positions and exact trace must hold at every configuration.", "anchors": ["src/jaqmc/app/hall/estimator/one_rdm.py: make_monopole_harm, OneRDM", "src/jaqmc/app/hall/wavefunction/free.py: Free"]}
{"id": "C75", "title": "Angular momentum penalty", "statement": "The penalized loss is the total energy plus the real part of the local value of lz_penalty (L_z - lz_center)^2 + l2_penalty L^2. A state with L_z = M and L^2 = l is charged lz_penalty (M - lz_center)^2 + l2_penalty l at every configuration; Laughlin states pay nothing for L^2.", "quantifier": "every wavefunction with a smooth logarithm, configuration off the poles, penalties, target, energy", "why_tests_cant": "It must hold for all wavefunctions and configurations.", "anchors": ["src/jaqmc/app/hall/estimator/penalized_loss.py: PenalizedLoss", "src/jaqmc/estimator/kinetic/spherical.py"]}
{"id": "C76", "title": "Pair correlation function on the Haldane sphere", "statement": "At each evaluation step the estimator adds to bin b the sum over walkers and pairs i < j whose angle lies in the bin of 1/sin(angle), times 4 bins/(walkers n^2 pi); for independent uniformly distributed electrons the expected value is (n - 1)/n in every bin; over the steps the additions accumulate; the result does not depend on the number of devices, and it is part of the evaluation digest.", "quantifier": "every number of walkers, electrons, bins, steps and devices", "why_tests_cant": "Counting and normalisation must hold for all configurations and all numbers of steps and devices.", "anchors": ["src/jaqmc/app/hall/estimator/pair_correlation.py: PairCorrelation", "src/jaqmc/workflow/stage/sampling.py: SamplingState.partition", "src/jaqmc/estimator/base.py: finalize_state, digest"]}
{"id": "C70", "title": "LapNet attention Laplacian rule", "statement": "When the forward-Laplacian pass meets LapNet's attention with owner-sparse queries and keys, the hand-written rule returns exactly the value, the Jacobian and the Laplacian of softmax attention, whatever the values' own tracking (none, dense or sparse); in every other case it leaves the computation to the ordinary rules.", "quantifier": "all numbers of electrons, heads, features and coordinates; all smooth query, key and value functions; all tracked inputs", "why_tests_cant": "derivative identities for all functions, sizes and points; the tests compare a few random arrays with autodiff", "anchors": ["src/jaqmc/wavefunction/backbone/lapnet/_attention.py: lapnet_sparse_attention, _lapnet_sparse_attention_rule, _lapnet_sparse_attention_local1_rule, _attention_quotient, _supports_local1_attention"]}
{"id": "C77", "title": "Pseudo-Hamiltonian energy", "statement": "With a pseudo-Hamiltonian, the reported energy:kinetic is (H psi)/psi for H = -1/2 Laplacian + sum over electrons and PH atoms of vL2(r) L^2, with r vL2(r) read from the element's table; both kinetic backends give the same number; they give NaN exactly when the kinetic operator is not elliptic at some electron, in particular never when vL2 >= 0; and energy:potential + energy:ph is the Coulomb energy with -Z/r of each PH atom replaced by its tabulated local potential.", "quantifier": "every number of electrons and atoms, every twice differentiable real log-wavefunction, every walker with no electron on a PH atom, every table", "why_tests_cant": "An identity between second derivatives of arbitrary functions and a factorization that must succeed at every walker; tests compare the two backends at a few random points.", "anchors": ["src/jaqmc/estimator/ph/estimator.py: PHEnergy", "src/jaqmc/estimator/ph/_forward_laplacian.py: compute_derivative_energy", "src/jaqmc/estimator/ph/_standard.py: compute_derivative_energy", "src/jaqmc/estimator/ph/data.py: load_ph_element_data", "src/jaqmc/app/molecule/hamiltonian.py: potential_energy", "src/jaqmc/utils/atomic/atom.py: Atom"]}
{"id": "C78", "title": "Total spin S^2", "statement": "spin:s2 of a walker is (S^2 psi)/psi at that walker, S^2 being the total spin operator of the electrons acting on the fermionic state whose amplitude with the first n_up electrons up and the others down is the wavefunction; so it is the eigenvalue at every walker for an eigenstate of S^2, s_z(s_z+1) for a fully polarised system and for every restricted (closed- or open-shell) determinant, 0 for a symmetric and 2 for an antisymmetric pair of opposite spins. Swaps at which the wavefunction is zero contribute zero.", "quantifier": "every number of up and down electrons, every complex fermionic wavefunction, every walker with psi != 0", "why_tests_cant": "An operator identity over all wavefunctions and electron numbers; a test evaluates a handful of determinants.", "anchors": ["src/jaqmc/estimator/spin.py: SpinSquared.init, _sum_wf_ratios, _ratio_sum_one_electron, _swap_with_majority"]}
{"id": "C79", "title": "System configuration", "statement": "An accepted molecule or solid configuration has electron numbers (up, down), neither negative, that add up to the effective nuclear charges minus the total charge and differ by 2 s_z; a configuration with half-integer s_z is refused only for an unknown or unsupported element, an unused pseudopotential entry, a hint that cannot be met, or a charge and spin no electrons can have. Every atom's effective charge is its atomic number minus the core electrons of its pseudopotential; each atom is treated by the energy term of its own pseudopotential and by no other; the kinetic energy enters exactly once. A neutral configuration without hints starts: every atom gets as many electrons as its effective charge, the totals are the system's, and a walker's first up rows are the up electrons, centred as assigned (for solids, the same in every copy of the primitive cell).", "quantifier": "all configurations: atoms, pseudopotentials, charges, spins, hints, sizes, random choices", "why_tests_cant": "Consistency between the validation, the electron counts, the energy terms and the initial walkers over all configurations.", "anchors": ["src/jaqmc/utils/atomic/atomic_system.py: AtomicSystemConfig, AtomInitialization", "src/jaqmc/utils/atomic/atom.py: Atom", "src/jaqmc/utils/atomic/pp.py: core_electrons_by_pp", "src/jaqmc/utils/atomic/elements.py", "src/jaqmc/utils/atomic/initialization.py: initialize_electrons_gaussian", "src/jaqmc/app/molecule/data.py", "src/jaqmc/app/solid/data.py", "src/jaqmc/app/molecule/workflow.py: make_estimators"]}
{"id": "C80", "title": "Geometry builders", "statement": "Lattice parameters give lattice vectors of the requested lengths and angles and positive volume, and are refused exactly when no such vectors exist (to the stated tolerance). rock_salt is the face-centred-cubic lattice of the requested constant with the second atom half a constant away from its six nearest neighbours; two_atom_chain has the atoms equally spaced by the bond length on a line and the vacuum in the other directions; diatomic puts the atoms the bond length apart, centred at the origin; a diatomic formula is read as the two elements it names and anything else is refused. alkane builds C_2n H_(4n+2): neighbouring carbons 1.55 A apart in one plane, hydrogens 1.09 A from their carbon, all those angles 109.4712 degrees, and its configuration is accepted and starts with the electrons it hints. Units are converted once.", "quantifier": "all lengths, angles, units, formulas of known elements, chain lengths", "why_tests_cant": "Geometric identities over all real parameters and all chain lengths; tests compare a few coordinates.", "anchors": ["src/jaqmc/app/solid/config/base.py: LatticeParams.to_array, lattice_vectors, atoms", "src/jaqmc/app/solid/config/rock_salt.py", "src/jaqmc/app/solid/config/two_atom_chain.py", "src/jaqmc/app/molecule/config/base.py", "src/jaqmc/app/molecule/config/diatomic.py", "src/jaqmc/app/molecule/config/alkane.py", "src/jaqmc/utils/units.py"]}
{"id": "C81", "title": "DMC walker moves", "statement": "One DMC step of a walker proposes, for every electron independently, a drift along the limited velocity (never past the nearest nucleus, at most twice the velocity times the time step) followed by a normal step of variance tau, or, with the overshoot probability q, a Slater-distributed position about the nearest nucleus; the logarithm it returns is that of this mixture's density. The step then accepts with the Metropolis-Hastings rate for |psi|^2 (times 1.1^(age-50) for walkers stuck for over 50 steps), so that detailed balance holds; it never crosses a node; the walker's age, energy and averaged energy are those of the outcome; the logarithm of the weight stays within the cutoff of offset - estimator and equals offset minus the expected mean local energy inside it. Moving electron by electron has the same properties, with a mean acceptance in [0, 1] and an effective time step in [0, tau].", "quantifier": "all configurations, wavefunctions, velocities, nuclei, charges, time steps, random numbers, ages", "why_tests_cant": "Detailed balance and the densities are identities over all pairs of configurations; a test samples a few moves.", "anchors": ["src/jaqmc_legacy/dmc/position_update.py", "src/jaqmc_legacy/dmc/dmc.py: calc_branch_val, do_run_dmc_single_walker, do_run_dmc_single_walker_ebye"]}
{"id": "C82", "title": "The Hartree-Fock reference and pretraining towards it", "statement": "The basis functions evaluated by the reference are exactly those of the basis set (contracted Gaussians times real solid harmonics, in the declared order); the harmonics are homogeneous harmonic polynomials. eval_slater returns sign and logarithm of the product of the spin-up and spin-down determinants of the occupied orbitals, changes sign under exchange of like-spin electrons, and for solids its orbitals are Bloch functions whose k-points are listed by get_orbital_kpoints in the column order of the network, so that reference and network obey the same translation laws. The pretraining loss is zero exactly when every determinant's orbital matrix is the block-diagonal reference, and then the wavefunction is a multiple of the reference; the sampling amplitude is |psi|^(1-f)|Phi|^f.", "quantifier": "all basis sets, geometries, angular momenta, coefficients, occupations, k-points, electron counts and positions, all network parameters and mixing fractions", "why_tests_cant": "a test compares a few orbitals at a few points with pyscf; angular momenta, contraction patterns, k-meshes and configurations are unbounded", "anchors": ["/repo/src/jaqmc/utils/atomic/gto.py:AtomicOrbitalEvaluator", "/repo/src/jaqmc/utils/atomic/scf.py:MolecularSCF", "/repo/src/jaqmc/utils/atomic/scf.py:PeriodicSCF", "/repo/src/jaqmc/utils/atomic/pretrain.py", "/repo/src/jaqmc/app/molecule/workflow.py", "/repo/src/jaqmc/app/solid/workflow.py"]}
{"id": "C83", "title": "Euclidean kinetic energy", "statement": "For every wavefunction and every configuration where it is non-zero and twice differentiable, the kinetic estimator returns -1/2 (laplacian psi)/psi, for real wavefunctions given by log|psi| (whatever the sign of psi) and for complex ones given by log psi, differentiating in the configured data field only; the loop modes agree with each other, and the dense and sparse forward-Laplacian modes agree with them. An eigenfunction of the Hamiltonian therefore has the same local energy at every walker; for the hydrogen application this is -1/2 at alpha = -1 and for no other alpha is it constant.", "quantifier": "all wavefunctions, configurations, numbers of coordinates, data fields and modes", "why_tests_cant": "tests compare a few wavefunctions at a few points; the identity is about all functions and points, and a sign or a dropped term can cancel in symmetric test cases", "anchors": ["/repo/src/jaqmc/estimator/kinetic/euclidean.py:EuclideanKinetic", "/repo/src/jaqmc/estimator/kinetic/_common.py", "/repo/src/jaqmc/utils/func_transform.py", "/repo/src/jaqmc/app/hydrogen_atom.py"]}
{"id": "C84", "title": "KFAC curvature estimates", "statement": "For a wavefunction with real parameters and complex log psi, the patched derivative gives the complex derivative of log psi in every parameter; the registered dense pattern is the affine layer for any number of batch, repeated, contracted and output axes, and the weight/bias are laid out as one matrix whose bias row meets the 1 appended to the activations; the Kronecker factors are the second moments of activations and of output derivatives over walkers and repeats, their product differs from the real part of the S matrix exactly by a sample covariance (and is exact for one walker); scale and shift parameters get the exact diagonal of Re S; after any history of moving-average updates the factors and their product are symmetric positive semidefinite; jax.vjp is restored after every traced computation, whether it returns or raises.", "quantifier": "all shapes and numbers of axes, batches, complex derivatives, histories of updates, outcomes of the traced computation", "why_tests_cant": "a unit test checks a few layer shapes and one update; positivity over histories and layout for every rank cannot be enumerated", "anchors": ["src/jaqmc/optimizer/kfac/curvature_blocks.py:RepeatedDenseBlock", "src/jaqmc/optimizer/kfac/curvature_blocks.py:ScaleAndShiftDiagonal", "src/jaqmc/optimizer/kfac/complex_support.py:vjp_rc_with_aux", "src/jaqmc/optimizer/kfac/tag_registration.py:_flax_dense"]}
{"id": "C85", "title": "Learning-rate schedule and KFAC step", "statement": "The standard schedule starts at rate, is positive and decreasing, equals rate*delay/(delay+t) for decay 1, has unbounded total exactly for decay <= 1 and square-summable values exactly for decay > 1/2; the KFAC step number k uses the schedule at k and is minus the learning rate times the natural gradient, shortened by the least factor that brings its squared Fisher norm to norm_constraint; it goes downhill unless the gradient is zero; update before init is refused.", "quantifier": "all rates, delays, exponents, step counts; all gradients and positive definite curvatures; all sequences of updates", "why_tests_cant": "the totals are statements about infinitely many steps and the norm bound must hold for every curvature and gradient", "anchors": ["src/jaqmc/optimizer/schedule.py:Standard", "src/jaqmc/optimizer/kfac/kfac.py:KFACOptimizer.update"]}
{"id": "C86", "title": "Choosing implementations by name", "statement": "resolve_object('module:name') gives that attribute, 'module' the first name of __all__, more than one colon is refused; with a base package the relative module wins and the absolute name is used exactly when the relative one does not exist. A module_config mapping builds an instance of the class it names (or the default class) whose fields come from the mapping, then the keyword defaults, then the class, and unknown keys are never ignored; leaving the field out equals an empty mapping; an instance written to the configuration and read back is the same instance. An optax wrapper always passes its factory every required parameter and nothing unknown, and is refused with ValueError exactly when a required parameter has a type that cannot be configured.", "quantifier": "all module and object names, import environments, mappings, field declarations, optimizer signatures", "why_tests_cant": "names, environments and signatures are unbounded; the repository's tests check a handful", "anchors": ["src/jaqmc/utils/module_resolver.py:resolve_object", "src/jaqmc/utils/config.py:module_config", "src/jaqmc/optimizer/optax.py:_make_optax_dataclass"]}
{"id": "C87", "title": "Losses of the legacy package", "statement": "jaqmc_legacy.loss.factory.make_loss: the loss is the mean, over all devices, of the finite local energies (with rm_outlier: of those within the given number of mean absolute deviations of their mean), whatever the spread of the walkers, the NaNs and infinities among them, or the partition of the evaluation; enabling penalties changes neither the energy part, its random key nor the loss value. The gradient is half the derivative of the energy reweighted from the walkers, plus the derivative of weight/2 times the square of the reweighted spin penalty and of weight/2 times the squared overlap with each target state. spin_square is (S^2 psi)/psi at the walker, the one-electron S_+ penalty has the same mean as the S^2 penalty on walkers closed under exchange of minority electrons, and consecutive steps exchange every minority electron once. Constant factors of the wavefunctions have no effect on the overlap. Refuted where the code departs: local energies that are all equal (an eigenstate) are all removed as outliers and give NaN; masked walkers scale down an unclipped gradient, shift the clipping window, and weigh devices unequally (a device with none left gives NaN); outlier_width 0 and percentile bounds 0 or 100 fail; an infinite local value hides outliers of the penalty; the step is not counted for the caller; a misspelt keyword is ignored.", "quantifier": "all device layouts, local values (finite, NaN, infinite), masks, weights, widths, wavefunctions, parameters, electron numbers, steps, target lists, component selections", "why_tests_cant": "tests evaluate one network on one batch; the claims are about all batches, all distributions of NaNs over devices and all wavefunctions", "anchors": ["src/jaqmc_legacy/loss/utils.py:pmean_with_mask", "src/jaqmc_legacy/loss/vmc.py:make_vmc_loss", "src/jaqmc_legacy/loss/spin_penalty.py:make_spin_penalty", "src/jaqmc_legacy/loss/spin_penalty.py:Spin", "src/jaqmc_legacy/loss/overlap_penalty.py:make_overlap_penalty", "src/jaqmc_legacy/loss/factory.py:make_loss"]}
{"id": "C88", "title": "Forward Laplacian through determinants, loops and user rules", "statement": "forward_laplacian of a function that calls jnp.linalg.slogdet, complex construction/real/imag/conj, jax.lax.scan (forward or reverse), jax.lax.while_loop, jitted helpers, or functions with a custom_laplacian rule returns the value, gradient and Laplacian of that function at every point where it is smooth: the sign of a determinant is constant or carries its exact phase derivatives, every scan step and its stacked outputs carry exact derivatives whatever mix of tracked and constant inputs is used, a while loop whose condition does not change near the point is differentiated as the unrolled loop, a jitted helper is transparent, and a correct custom rule gives correct results inside programs and under any nesting of vmap over any axes, including when it requests the automatic fallback. A custom_laplacian function without a rule raises exactly when an argument is tracked; registering a rule affects no other function. Refuted where the code departs: a jitted user function that happens to be named slogdet is given the determinant rule; a scan whose body resets a floating carry to a constant and a while loop accumulating into an untracked start raise although the function is smooth; whether a rule inside a jitted function is used depends on whether the function was first called outside forward_laplacian.", "quantifier": "all matrix sizes and invertible matrices (real or complex), all programs over the modelled primitives, loop lengths, carries, fuel, points, coordinate weights, vmap histories and axes, rules satisfying the contract, call histories", "why_tests_cant": "the space of programs, loop lengths and points is unbounded; tests compare a few functions at random points", "anchors": ["src/jaqmc/laplacian/interpreter.py:eval_jaxpr_with_forward_laplacian", "src/jaqmc/laplacian/interpreter.py:forward_laplacian", "src/jaqmc/laplacian/primitives/slogdet.py", "src/jaqmc/laplacian/primitives/complex.py", "src/jaqmc/laplacian/custom_rules.py:custom_laplacian", "src/jaqmc/laplacian/primitives/custom_laplacian.py:handle_custom_laplacian"]}
{"id": "C89", "title": "Local energy of the legacy package", "statement": "pp_energy, ecp_energy_optim and the DMC local_energy of jaqmc_legacy return (H psi)/psi. For every wavefunction, electron configuration and molecule: the kinetic term is -1/2 Laplacian psi / psi in the Hessian, partitioned-scan, loop and forward-Laplacian modes, a partition number that does not divide the number of coordinates being refused; the Coulomb term counts every pair once; the effective core potential is the semi-local energy of exactly the atoms with a potential whose element was not requested as pure pseudo-Hamiltonian, each once, with the local part of all atoms and the exact angular momentum components (any l up to 7) around the max_core nearest atoms of each electron, whatever the random rotations, wherever psi on the sphere is a polynomial the quadrature integrates; requested PH and hybrid-PH atoms contribute the local value of sum v_L2 L^2 and have -Z/r replaced by their tabulated local potential, with their own element's table under either interpolation, and NaN appears exactly where the operator is not elliptic. Unsupported elements, unknown quadratures, channels above l=7 and PH without forward Laplacian are refused. The version with a memory agrees with the plain one when its memory is faithful and there are no hybrid-PH atoms. Refuted where the code departs: an element in both ph_elements and hph_elements acts twice; ecp_energy_optim leaves out hybrid-PH atoms; channels are taken by position, not label; a core potential with only a local part is refused; the p channel of a TM data file is never checked.", "quantifier": "all wavefunctions, configurations, molecules, radial tables, requests, partition numbers, quadratures, draws and numbers of electrons and atoms", "why_tests_cant": "tests compare a few molecules at random points; the claim ranges over all wavefunctions, tables, draws and configurations", "anchors": ["src/jaqmc_legacy/pp/hamiltonian.py:pp_energy", "src/jaqmc_legacy/pp/hamiltonian.py:ecp_energy_optim", "src/jaqmc_legacy/pp/hamiltonian.py:local_kinetic_energy", "src/jaqmc_legacy/pp/hamiltonian.py:non_local_energy", "src/jaqmc_legacy/pp/ecp_potential.py", "src/jaqmc_legacy/pp/special.py", "src/jaqmc_legacy/pp/quadrature.py", "src/jaqmc_legacy/pp/ph/hamiltonian.py", "src/jaqmc_legacy/pp/ph/data.py:gen_ph_info", "src/jaqmc_legacy/dmc/hamiltonian.py:local_energy"]}
{"id": "C90", "title": "DMC data in remote storage", "statement": "With a local and a remote save path, a DMC run can be continued on another machine: whatever processes, transfers and machines fail, every whole data file in either place is the checkpoint and the metric rows of an execution without failures, a process that starts continues one of them right after the newest file of all the paths, and when the storage works less than two blocks of steps are lost with the machine. The step of a data file is read back from its name. A failed upload or download, or a transfer that was killed, never makes later processes start from scratch or fail while good data exist.", "quantifier": "all histories of steps, rejected attempts, rollbacks, kills (also inside transfers), failing transfers, machine losses and restarts; all directory listing orders, block sizes, file prefixes and steps", "why_tests_cant": "the combinations of crash points, transfer outcomes and restarts are unbounded and need a real remote file system", "anchors": ["src/jaqmc_legacy/dmc/storage_handler.py:HdfsStorageHandler", "src/jaqmc_legacy/dmc/storage_handler.py:LocalStorageHandler", "src/jaqmc_legacy/dmc/storage_handler.py:DummyStorageHandler", "src/jaqmc_legacy/dmc/data_path.py:initialize_data_paths", "src/jaqmc_legacy/dmc/ckpt_metric_manager.py:CkptMetricManager"]}
{"id": "C91", "title": "Gathers, extremes over axes, splits, rounding, remainders and powers keep derivatives right", "statement": "When a value tracked by the forward Laplacian, with sparse per-electron derivatives or dense ones, is indexed (jax.lax.gather in any mode), reduced by max or min over axes, split along an axis, rounded, taken modulo another value or raised to a power, the result has the value the operation gives, its sparse derivatives are those the dense rule gives (also at ties), and it carries the exact gradient and Laplacian of the composed function wherever that is differentiable: no tie in a reduction, no half-integer for round, no nonzero integer quotient for rem, a positive base for pow. Out-of-bounds gathered elements are the constant fill value. Indexing with indices known while tracing falls back to dense derivatives only if no owner layout fits, splits never do, and the pieces of a split cover the array exactly once.", "quantifier": "all shapes, dimension numbers, slice sizes, modes and indices that jax.lax.gather accepts, all axes, piece sizes, exponents, owner layouts and inputs at which the stated regularity holds", "why_tests_cant": "the owner relabelling depends on the index values, shape and axis numbers; tests fix a few", "anchors": ["src/jaqmc/laplacian/primitives/indexing.py:handle_gather", "src/jaqmc/laplacian/primitives/indexing.py:_factorize_gathered_owner_labels", "src/jaqmc/laplacian/primitives/reductions.py:handle_reduce_max", "src/jaqmc/laplacian/primitives/shape.py:handle_split", "src/jaqmc/laplacian/primitives/elementwise.py:handle_round", "src/jaqmc/laplacian/primitives/arithmetic.py:handle_rem", "src/jaqmc/laplacian/primitives/arithmetic.py:handle_pow"]}
{"id": "C92", "title": "Complex values keep exact derivatives under the forward Laplacian", "statement": "When a complex-valued array tracked by the forward Laplacian (with per-electron sparse derivatives or dense ones, with respect to real coordinates) goes through a complex differentiable function such as exp, an integer power or the inverse, through abs, real, imag, conj, neg, sign, a dtype conversion, addition, subtraction, multiplication or division with broadcasting, or is assembled from real and imaginary parts by lax.complex, the result carries the value, gradient and Laplacian of the composed complex function at every point where that function is differentiable (nonzero modulus for abs and sign, nonzero divisor, no nonzero integer real part for integer conversion). Elementwise operations and operations with untracked operands keep the owner layout.", "quantifier": "all shapes, broadcasts, owner layouts, complex values, twice complex differentiable functions and points that meet the stated regularity", "why_tests_cant": "exactness is a statement about limits at all inputs; the formulas mix real and complex products (plain and Hermitian traces) and tests evaluate a few points", "anchors": ["src/jaqmc/laplacian/primitives/elementwise.py:handle_abs", "src/jaqmc/laplacian/primitives/core.py:make_unary_elementwise_sparse_handler", "src/jaqmc/laplacian/primitives/complex.py:handle_complex", "src/jaqmc/laplacian/primitives/arithmetic.py:handle_mul", "src/jaqmc/laplacian/primitives/arithmetic.py:handle_div", "src/jaqmc/laplacian/primitives/dtype.py", "src/jaqmc/laplacian/primitives/sparse_ops.py:sparse_trace_jac_jacH"]}
{"id": "C93", "title": "Several processes run as one", "statement": "A stage that runs as several processes (multi-host) behaves as one run: the processes execute the same collective operations in the same order, so none waits for another forever, and they end in the same way; only process 0 writes files and each checkpoint holds what all processes gathered. The walkers are split into equal parts for processes and devices that put together give the batch, and a checkpoint can be resumed on any number of processes and devices that divides the batch, with the same walkers, and with densities that count every sample once. Each opened writer is closed exactly once, in reverse order, whatever fails. Every stage, device and step has its own random key.", "quantifier": "all numbers of processes, devices, walkers, iterations and save intervals, all clocks and all times at which processes see an exit request, all histories of evaluation steps, all failures of writers", "why_tests_cant": "tests simulate several devices in one process; clocks, signals and process counts are unbounded and need a cluster", "anchors": ["src/jaqmc/workflow/stage/base.py:WorkStage.run", "src/jaqmc/workflow/stage/vmc.py:VMCWorkStage.loop", "src/jaqmc/workflow/base.py:init_batched_data", "src/jaqmc/utils/parallel_jax.py:process_allgather", "src/jaqmc/workflow/stage/sampling.py:SamplingState.process_allgather", "src/jaqmc/estimator/histogram.py:HistogramEstimator", "src/jaqmc/writer/base.py:Writers", "src/jaqmc/utils/signal_handler.py:GracefulKiller", "src/jaqmc/workflow/vmc.py:VMCWorkflow.run", "docs/guide/multi-device.md"]}
{"id": "C94", "title": "Densities along chosen directions and on the sphere", "statement": "The Cartesian density counts an electron in a cell exactly if its component along each enabled direction (in the order of the configuration) lies in that bin of the axis's range, so each electron inside the box once and the others not at all; only the direction of the direction vector matters, its reversal mirrors the axis, disabled axes are as if absent, and turning molecule and directions together changes nothing. The default axes of a molecule are the coordinates with 50 bins and reach exactly 5 bohr beyond the outermost atoms. The spherical density counts every electron of every walker at every step in the one cell its angles lie in, for all positions a run can reach; the histogram over theta and phi summed over phi is the one over theta, and a theta bin is the interval of cos(theta) between the cosines of its edges.", "quantifier": "all axes with a range, bins and a nonzero direction, all electron positions, rotations, molecules, numbers of bins, walkers, devices and steps, and all positions reached by moves", "why_tests_cant": "boundaries, ranges and rotations are continuous and the streams unbounded", "anchors": ["src/jaqmc/estimator/density/cartesian.py:CartesianDensity", "src/jaqmc/estimator/density/spherical.py:SphericalDensity", "src/jaqmc/estimator/histogram.py:HistogramEstimator", "src/jaqmc/app/molecule/workflow.py", "src/jaqmc/app/hall/data.py"]}
{"id": "C95", "title": "Complex-aware derivatives and the general Laplacian rule", "statement": "When a function of tracked real and complex arrays goes through the fallback (general) rule of the forward Laplacian, the result carries the exact value, gradient and Laplacian of the composed function: for real inputs with real or complex results, for complex differentiable functions of complex inputs, for real results of any real and complex inputs, and for any smooth function when there are at most as many tracked coordinates as entries - independently of which of the three contraction strategies the sizes select. The elementwise rule does the same for functions applied to each entry. Underneath, vjp is the transpose of the forward derivative for every dtype combination (as an equality of complex numbers for real inputs and for complex differentiable functions), jacrev returns the partial derivatives and hessian the second partial derivatives; a real function of complex inputs gets du/dx - i du/dy. Boundary, also proved: with inputs of different dtypes and a complex result, the Jacobian of a real input loses its imaginary part and the Hessian strategy differs from the trace strategy.", "quantifier": "all numbers of entries, coordinates and outputs, all dtype assignments, all twice totally differentiable functions on open domains, all points, Jacobians and Laplacians", "why_tests_cant": "tests evaluate a few functions at a few points with one strategy; exactness is a statement about limits for all functions, dtypes and sizes, and the strategies switch on sizes", "anchors": ["src/jaqmc/laplacian/ad.py:vjp", "src/jaqmc/laplacian/ad.py:_vjp_rc", "src/jaqmc/laplacian/ad.py:jacrev", "src/jaqmc/laplacian/ad.py:jacfwd", "src/jaqmc/laplacian/ad.py:hessian", "src/jaqmc/laplacian/hessian.py:general_jac_hessian_jac", "src/jaqmc/laplacian/hessian.py:elementwise_jac_hessian_jac", "src/jaqmc/laplacian/jvp.py:dense_split_jvp", "src/jaqmc/laplacian/jvp.py:dense_elementwise_jvp", "src/jaqmc/laplacian/primitives/core.py:wrap_general", "src/jaqmc/laplacian/primitives/core.py:wrap_elementwise"]}
{"id": "C96", "title": "From the command line to the run", "statement": "Whatever the arguments and wherever a command fails, its effects happen in the order logging, JAX flags, waiting, connecting, configuration files, run. A configuration file that is not a mapping is refused with ValueError before any effect. A command that enters the run has connected to the coordinator exactly once with the configured arguments if an address is configured and the number of processes is not 1, and not at all otherwise, having waited first exactly if its process number is positive. When it succeeds or enters the run, every JAX flag, the root log level and (if the root logger had none) the handler have been set as configured. A dry run never waits, connects, changes a file or enters the run. On the first process a command stops with SystemExit, having written and started nothing, exactly if the user supplied a value that nobody asked for (unless extra keys are ignored); the other processes do not check, write no file and enter the run regardless. A dry run of a configuration that the run accepts is refused exactly if the user wrote a value in the section distributed, so the configuration a run saves is refused by a dry run.", "quantifier": "all lists of YAML files and overrides, all workflows (presets, reads and settings), all conversions of configuration values, all directory contents, dry or not", "why_tests_cant": "Connecting needs several hosts, the verdict ranges over all configurations and workflows, and the order of effects over every point of failure; tests call the pieces one by one on single configurations.", "anchors": ["src/jaqmc/utils/cli.py: make_cli, load_yaml", "src/jaqmc/utils/runtime.py: configure_runtime, LoggingConfig.apply, JaxConfig.apply, DistributedConfig.init_runtime", "src/jaqmc/workflow/base.py: Workflow.__init__, __call__, prepare"]}
{"id": "C97", "title": "Every energy term once, and the loss of training", "statement": "The total energy of a walker is the sum of the statistics named energy:* that earlier estimators produced, each once, in whatever order and number; with explicit components it is the sum of those, or KeyError. In training, for every combination of switches, the energy is potential plus kinetic (for molecules with pseudo-Hamiltonians, their two parts instead of the kinetic energy) plus the ECP energy if there are ECPs, and that energy is the loss; in quantum Hall training the loss is the energy plus lz_penalty (Lz^2 - 2 c Lz + c^2) plus l2_penalty L^2. Enabling densities, spin, pair correlation or the density matrix changes neither. Evaluation gives the same energy, or, with the energy disabled, no energy at all and no failure. A loss key that nothing produces stops the first evaluation with KeyError.", "quantifier": "all values of the terms, all penalty strengths and centres, all combinations of ECP, pseudo-Hamiltonian and optional estimators, any number and order of energy terms", "why_tests_cant": "A forgotten or doubled term, or a loss that misses a penalty, gives a plausible number for each single configuration; the combinations of switches and custom terms are not enumerated by tests.", "anchors": ["src/jaqmc/app/molecule/workflow.py: make_estimators", "src/jaqmc/app/solid/workflow.py: make_estimators", "src/jaqmc/app/hall/workflow.py: make_estimators, HallTrainWorkflow", "src/jaqmc/app/hydrogen_atom.py: hydrogen_atom_train_workflow", "src/jaqmc/estimator/total_energy.py: TotalEnergy", "src/jaqmc/app/hall/estimator/penalized_loss.py: PenalizedLoss", "src/jaqmc/workflow/stage/vmc.py: configure_loss_grads"]}
