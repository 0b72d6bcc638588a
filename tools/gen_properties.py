import json
P=[]
def p(id,title,statement,quant,why,anchors):
    P.append(dict(id=id,title=title,statement=statement,quantifier=quant,why_tests_cant=why,anchors=anchors))
CK="src/jaqmc/utils/checkpoint.py"
p("C01","Restore picks the newest checkpoint","If a run directory holds readable checkpoints of one prefix, restoring from the directory yields the state of the checkpoint with the largest step (and resumes at that step + 1), whatever the order in which they were written.","all sets of saved steps, all directory listings","depends on how file names compare for every pair of steps, including steps whose decimal width exceeds the zero padding",[CK+": NumPyCheckpointManager.restore, save"])
p("C02","Checkpoint round trip","Saving a tree at a step and restoring it from the file gives back every leaf of the tree and step + 1, for every tree whose flattened key paths are distinct.","all trees (any nesting, any keys), all steps","unit tests use a few fixed trees; the property fails exactly on key-path collisions that a test must know about",[CK+": tree_to_npz, tree_from_npz, _pytree_key_path, from_npz"])
p("C03","A torn checkpoint never hides an older good one","If the process dies at any moment while a checkpoint is being written, a later restore skips the damaged file and returns the newest complete checkpoint (or starts fresh in non-strict mode).","every crash point inside save, every previous history of saves","the crash point ranges over every byte offset",[CK+": save, restore"])
p("C04","Strict and lenient restore","Strict restore either returns the contents of an existing checkpoint or raises; it never silently returns the caller's initial state. Lenient restore of a missing or empty directory returns the initial state at step 0.","all directories, contents and prefixes","quantifies over every directory state",[CK+": restore"])
p("C05","Stage prefixes are isolated","Checkpoints written by one stage (prefix) are never picked up by the restore of another stage that shares the directory.","all pairs of stage prefixes, all steps","all prefix pairs, including ones where one prefix is a suffix of the other",[CK+": __init__, restore","src/jaqmc/workflow/vmc.py: restore_checkpoint"])
p("C06","Each step runs exactly once","Across any sequence of graceful interruptions and restarts of a stage, the steps executed are 0,1,...,iterations-1, each exactly once and in order, and when the stage returns normally the last step's state is on disk.","all iteration counts, all interruption histories","schedules of signals are unbounded",["src/jaqmc/workflow/stage/base.py: WorkStage.run"])
p("C07","A finished stage is idempotent","Re-running a stage that already completed executes no step, changes no file and returns the checkpointed state.","all completed histories","quantifies over histories",["src/jaqmc/workflow/stage/base.py: WorkStage.run"])
p("C08","Periodic saves bound the loss","A checkpoint is written after step s iff s is the last step or the wall-clock interval has elapsed since the previous save and s+1 is a multiple of the step interval; after a hard crash a restart resumes right after the newest such save.","all clock behaviours, intervals, crash points","clock schedules and crash points are unbounded",["src/jaqmc/workflow/stage/base.py: WorkStage.run"])
p("C09","Interrupt-and-resume reproduces the uninterrupted run","For a given seed, stopping a stage at a checkpoint and resuming yields the same final state as running it in one go.","all interruption points","all interruption points and all step functions",["src/jaqmc/workflow/stage/base.py: WorkStage.run","src/jaqmc/workflow/stage/vmc.py: VMCWorkStage.loop"])
p("C10","NaN stops the run","With stop_on_nan enabled the first step whose monitored statistics contain a NaN is the last step executed; its statistics are still recorded; with it disabled the run never stops because of NaN.","all statistic streams and monitored-key sets","every stream of statistics",["src/jaqmc/workflow/stage/vmc.py: _has_nan, loop"])
p("C11","Graceful signal handling","The first termination signal only requests a graceful exit and re-installs the handlers that were there before; any later signal is delivered to those original handlers.","all signal sequences","signal schedules",["src/jaqmc/utils/signal_handler.py: GracefulKiller"])
p("C12","CSV log stays aligned with steps","After any history of runs, hard crashes and resumes from checkpoints, the CSV log consists of one header and row k holds the statistics of step k, with no duplicate and no gap.","all crash/resume histories","histories unbounded",["src/jaqmc/writer/csv.py: CSVWriter","src/jaqmc/workflow/stage/base.py"])
p("C13","HDF5 log stays aligned with steps","After any history of runs, crashes and resumes every HDF5 dataset has exactly one entry per executed step, entry k being the statistics of step k.","all histories","histories unbounded",["src/jaqmc/writer/hdf5.py"])
p("C14","Evaluation statistics count each step once","The final digest of an evaluation run is computed from exactly one record per step 0..iterations-1, even when the evaluation was interrupted and resumed.","all interruption histories","histories unbounded",["src/jaqmc/workflow/stage/evaluation.py: HDF5ReadWrite, EvaluationWorkStage"])
p("C15","Configuration precedence","The value used for a configuration key is the command-line override if given, otherwise the one from the last YAML file that sets it, otherwise the preset, otherwise the code default.","all presets, YAML lists, override lists and key paths","all combinations of layers",["src/jaqmc/utils/config.py: ConfigManager.__init__, deep_merge, _get_path"])
p("C16","Merging configurations","Deep merge is right-biased per leaf, keeps every path present in only one side, has the empty mapping as identity and is idempotent; it is associative on conflict-free configurations.","all nested mappings","all trees",["src/jaqmc/utils/config.py: deep_merge"])
p("C17","Unused configuration is reported","finalize reports a configuration path iff the user supplied it and no consumer read it or an ancestor of it; a misspelt key is therefore always reported.","all configurations and all sequences of reads","all trees and read sequences",["src/jaqmc/utils/config.py: _find_unused_yaml_path, finalize"])
p("C18","Dot-list overrides","An override a.b.c=v sets exactly that path; later overrides win over earlier ones on the same path and leave unrelated paths unchanged.","all override lists","all lists",["src/jaqmc/utils/config.py: _dotlist_to_dict, _set_path"])
p("C19","Dependency wiring is complete","wire either leaves no required runtime dependency unset in the object or its nested components, or raises naming the missing ones; wired values reach every nested component that declares them.","all component trees and keyword sets","all trees",["src/jaqmc/utils/wiring.py: wire, check_wired"])
p("C20","Chunked evaluation equals batched evaluation","For every batch size and chunk size, mapping a function in chunks returns the same batched result, in the same order, as mapping it over the whole batch.","all batch sizes, chunk sizes, functions, in/out axes specs","all sizes including non-divisible and empty remainders",["src/jaqmc/utils/chunked_vmap.py: chunked_vmap"])
p("C21","Metropolis-Hastings bookkeeping","After any number of MCMC steps each walker's position is either its previous one or the proposal, walkers do not influence each other, the cached log-probability equals the log-probability of the position, and the reported acceptance rate is (#accepted)/(steps*batch).","all step counts, batches, proposals, random draws","all random streams",["src/jaqmc/sampler/mcmc.py: MCMCSampler"])
p("C22","Metropolis-Hastings satisfies detailed balance","With a symmetric proposal the accept rule (accept iff log ratio > log u, u uniform) gives transition probabilities in detailed balance with the squared wavefunction.","all pairs of configurations","real-valued",["src/jaqmc/sampler/mcmc.py: _mh_update"])
p("C23","Proposal width adaptation","The width changes only every adapt_frequency steps, by the factor 1.1 up or down, based on the average of exactly the last adapt_frequency acceptance rates, and always stays positive.","all histories of acceptance rates","unbounded histories",["src/jaqmc/sampler/mcmc.py: MCMCSampler.step"])
p("C24","Sample plan updates exactly its fields","A plan step updates each declared field by its sampler given all other fields, leaves undeclared fields unchanged and keeps every sampler's update.","all plans and data","all field partitions",["src/jaqmc/sampler/base.py: SamplePlan"])
p("C25","Estimator pipeline composition","Each estimator sees the walker statistics of all estimators before it; a statistic is finalised by the estimator that produced it; finalising before evaluating raises.","all pipelines","all pipelines and key sets",["src/jaqmc/estimator/base.py: EstimatorPipeline"])
p("C26","Statistics do not depend on the device layout","The reported mean and variance of a per-walker quantity are those of the whole batch, however walkers are split over devices.","all batches and device counts","all partitions",["src/jaqmc/estimator/base.py: mean_reduce"])
p("C27","Histogram accumulation","The accumulated histogram is the sum over devices and steps of per-step counts; no sample inside the range is lost or counted twice, and it is independent of how steps are split by interruption.","all sample streams and device layouts","unbounded streams",["src/jaqmc/estimator/histogram.py: HistogramEstimator"])
p("C28","Total energy is the sum of its components","The total energy of every walker equals the sum of all energy components produced before it (or of the configured subset), and nothing else.","all statistic dictionaries","all dictionaries",["src/jaqmc/estimator/total_energy.py: TotalEnergy"])
p("C29","Energy gradient estimator","Without clipping the gradient returned is twice the real covariance of the local energy with the log-derivative; it is unchanged by a constant shift of the energy and does not depend on the device layout.","all samples","all sample sets",["src/jaqmc/estimator/loss_grad.py"])
p("C30","Energy clipping","Clipping maps every value into the window, leaves values inside the window unchanged, preserves order, and the window is the same on every device; method none is the identity.","all value sets and methods","all inputs",["src/jaqmc/utils/clip.py"])
p("C31","Initial spin assignment","Electrons are distributed over atoms so that spin totals equal the requested ones, no atom gets a negative count, each atom keeps its electron number and user-fixed atoms keep their spin.","all molecules and requested totals","all atoms lists",["src/jaqmc/utils/atomic/initialization.py: distribute_spins"])
p("C32","Supercell tiling","The primitive-cell translations returned for a supercell matrix S form a complete set of representatives of the lattice modulo the superlattice: every primitive lattice point is equivalent to exactly one of them.","all invertible integer 3x3 matrices","all matrices",["src/jaqmc/utils/supercell.py: get_supercell_copies"])
p("C33","Supercell k-points fold to Gamma","Every k-point returned for a supercell matrix folds to the Gamma point of the supercell, and each such k-point in the primitive Brillouin zone is returned once.","all invertible integer 3x3 matrices","all matrices",["src/jaqmc/utils/supercell.py: get_supercell_kpts"])
p("C34","Wrapping positions","Wrapping puts a position in the primary cell, moves it by a lattice vector, is idempotent and is invariant under lattice translations.","all positions and invertible lattices","real-valued",["src/jaqmc/geometry/pbc.py: wrap_positions"])
p("C35","Minimum-image distance","The periodic distance between two particles is the distance to the nearest periodic image.","all lattices and positions","real-valued",["src/jaqmc/geometry/pbc.py: build_distance_fn"])
p("C36","Ewald reciprocal sum","The reciprocal-space vector list contains exactly one of G and -G for every nonzero G within the cutoff, and the energy does not depend on the handedness of the lattice basis.","all cutoffs and lattices","all cutoffs",["src/jaqmc/estimator/ewald.py: EwaldSum"])
p("C37","Fractional density uses lattice coordinates","The periodic density histogram bins the fractional coordinates of the electron with respect to the supercell lattice vectors.","all lattices and positions","real-valued",["src/jaqmc/estimator/density/fractional.py: FractionalDensity.extract","src/jaqmc/app/solid/workflow.py: make_estimators"])
p("C38","Forward Laplacian is the Laplacian","Evaluating a function composed of supported primitives with the forward-Laplacian interpreter returns its value, gradient and Laplacian.","all programs over the modelled primitives, all inputs","all programs",["src/jaqmc/laplacian: interpreter.py, primitives/arithmetic.py, primitives/elementwise.py, primitives/core.py"])
p("C39","Sparse propagation agrees with dense propagation","Propagating a locality-aware (sparse) derivative and then expanding it to dense gives the same result as dense propagation.","all programs over modelled primitives and all owner assignments","all owner patterns",["src/jaqmc/laplacian/sparse.py","src/jaqmc/laplacian/primitives/arithmetic.py"])
p("C40","Interpreter memory management is unobservable","The interpreter's reference-counted environment never frees a value that is still needed, and its results are those of plain evaluation.","all straight-line programs","all programs",["src/jaqmc/laplacian/interpreter.py: JaxExprEnvironment"])
p("C41","SR update solves the regularised equations","The kernel form of the stochastic-reconfiguration update equals the parameter-space solution of (O^T O + lambda) delta = g when gamma = 1/lambda and momentum is off, and the documented robust/SPRING formula otherwise; lifting the null space of the centred Gram matrix does not change it.","all score matrices, gradients, damping","all sizes",["src/jaqmc/optimizer/sr/jasr.py: scale_by_fisher_inverse, lift_null_space"])
p("C42","Chunked Gram matrix","The chunked Gram computation equals score diag(scale) score^T for every number of chunks and parameters.","all sizes and chunk counts","all sizes",["src/jaqmc/optimizer/sr/jasr.py: calc_gram_matrix, calc_gram_matrix_chunked"])
p("C43","Norm-constrained update","The scaled update has norm at most max_norm and is the gradient times a nonnegative factor at most the learning rate.","all updates, learning rates, limits","real-valued",["src/jaqmc/optimizer/sr/jasr.py: scale_by_constrained_norm"])
p("C44","Pruned parameters cannot influence the wavefunction","A parameter leaf pruned as inactive does not influence the (linearised) log-wavefunction.","all programs (jaxprs) with nested control flow","all programs",["src/jaqmc/optimizer/sr/jasr.py: get_active_input_positions"])
p("C45","DMC branching conserves weight","Branching preserves the total walker weight and keeps walkers and attached arrays aligned; in fixed-size mode the number of walkers is unchanged; merging is unbiased.","all weight vectors, thresholds and random draws","all populations",["src/jaqmc_legacy/dmc/branch.py","src/jaqmc_legacy/dmc/branch_fix_size.py"])
p("C46","DMC rollback is consistent","After any sequence of steps, failures, rollbacks and restarts the metric file contains each step once in order up to the current step, the restored state is the one saved at the restored step, and only data at least one block old is promoted to the save path.","all histories","unbounded histories",["src/jaqmc_legacy/dmc/ckpt_metric_manager.py","src/jaqmc_legacy/dmc/metric_manager.py","src/jaqmc_legacy/dmc/dmc.py: recovery_wrapper"])
p("C47","DMC checkpoint clean-up policy","Clean-up keeps the K most recent data files and those whose step is a multiple of N, and removes every other data file.","all file sets, K and N","all sets",["src/jaqmc_legacy/dmc/ckpt_metric_manager.py: clean_up_save_path, _get_to_remove_paths"])
p("C48","DMC mixed estimator","The mixed estimator is the Pi-weighted average of the energies in the window; rescaling by the largest weight does not change it and it lies between the smallest and largest energy.","all energy/offset histories","unbounded histories",["src/jaqmc_legacy/dmc/energy_estimator.py"])
p("C49","DMC retries leave no trace","An iteration rejected as an energy outlier leaves the DMC state as it was; the effective time step stops being updated after the configured period.","all histories","unbounded histories",["src/jaqmc_legacy/dmc/dmc.py: dmc_single_iteration, run"])
p("C50","Step timing","The reported average step time is the mean duration of the ticks after warm-up.","all tick sequences","unbounded sequences",["src/jaqmc/utils/time_tracker.py"])
p("C51","Annotated YAML keeps the configuration","Annotating the resolved YAML with sources only adds comment lines.","all documents","all documents",["src/jaqmc/utils/yaml_format.py"])
p("C52","Configuration backups never overwrite","Starting a workflow in a directory that already has a different resolved configuration preserves the old file under an unused name; a dry run writes nothing.","all directory contents","all directory states",["src/jaqmc/workflow/base.py: prepare, config_backup_path"])
p("C53","Spherical quadrature","The ECP quadrature integrates every polynomial of degree at most 3 exactly (octahedral rules), for every rotation that may be drawn.","all polynomials of that degree and rotations","real-valued",["src/jaqmc/estimator/ecp/quadrature.py"])
p("C54","Data container laws","subset returns exactly the requested fields, merge replaces exactly the given fields, and unknown names raise.","all data and key sets","all containers",["src/jaqmc/data.py: Data"])
p("C55","Console fields","Field specifications [alias=]key[:format] parse to the intended alias, key and format, and a row is printed every interval steps.","all specification strings","all strings",["src/jaqmc/writer/console.py"])
with open("/verif/properties.jsonl","w") as f:
    for x in P: f.write(json.dumps(x)+"\n")
print(len(P))
