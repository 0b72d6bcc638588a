{
 "C01": {
  "note": "Proved for steps below 1,000,000; refuted beyond (file names compared as text)."
 },
 "C02": {
  "note": "Round trip proved for every storable tree; slash keys collide and a leaf called 'step' makes save raise (refuted witnesses)."
 },
 "C03": {
  "note": "Proved for files cut at 0 or >= 4 bytes; refuted for 1-3 bytes (ValueError is not caught)."
 },
 "C05": {
  "note": "Exact characterisation; isolation fails only when one prefix starts with the other followed by 'ckpt_' (refuted witness)."
 },
 "C09": {
  "note": "Proved for computations that ignore the random key; refuted in general because the key is not checkpointed."
 },
 "C10": {
  "note": "Proved for the real part; a NaN in the imaginary part only is not noticed (refuted witness)."
 },
 "C11": {
  "note": "Proved for every interleaving once one handler call has finished; refuted for a second signal that arrives while the first is still being handled and for a signal during construction."
 },
 "C12": {
  "note": "Proved for histories in which the header line itself is not torn; refuted for a torn header."
 },
 "C13": {
  "note": "Proved without kills; refuted with a kill (no flush)."
 },
 "C14": {
  "note": "Proved without kills; refuted with a kill (file is never truncated on resume)."
 },
 "C15": {
  "note": "Proved when no source puts a non-mapping on the way to the key; refuted otherwise (masked by a later file that sets an ancestor)."
 },
 "C16": {
  "note": "All laws proved; unrestricted associativity refuted, proved without conflicts as the property says.",
  "status": "proved"
 },
 "C17": {
  "note": "Exact characterisation proved. The corollary 'a misspelt key is always reported' is refuted for an empty mapping, a literal dotted key and a plain value where a dataclass is expected."
 },
 "C19": {
  "note": "Proved for the nested component tree; check_wired itself looks only at the top-level object and already-set dependencies are refused (refuted witnesses)."
 },
 "C20": {
  "note": "All batch and chunk sizes."
 },
 "C21": {
  "note": "All step counts, batches, proposals and random streams; log-probabilities abstract."
 },
 "C22": {
  "note": "Over the reals (library axioms of Reals). NaN log-probabilities never accept (proved)."
 },
 "C23": {
  "note": "Every history of acceptance rates; exact rationals."
 },
 "C24": {
  "note": "Proved for plans with disjoint field sets. Overlapping plans and stats keys shared by two samplers are refuted (witnesses)."
 },
 "C25": {
  "note": "Proved for every pipeline whose estimators return dictionaries; ownership of a key needs that no other estimator reduces to it (C25_shared_key_refuted: the first is given the second one's value). Estimators added after evaluate make finalising raise KeyError."
 },
 "C26": {
  "note": "Proved when every device holds the same number of valid walkers; with NaN walkers the mean depends on the layout and one all-NaN device spoils the result (refuted witnesses)."
 },
 "C27": {
  "note": "Any rounding of the running sum; exact whenever counts up to K are representable and no device exceeds K in a cell. The two Kahan subtractions are taken as exact.",
  "status": "proved"
 },
 "C28": {
  "note": "Exact arithmetic."
 },
 "C29": {
  "note": "loss_grad.py line 126 multiplies the two averages without conjugation: the result is twice the covariance plus 4 Im<E> Im<O> (C29_gradient_exact); equal to the covariance when one of the two vanishes; shift invariance holds for real shifts with any clipping, fails for imaginary shifts."
 },
 "C30": {
  "note": "Real arithmetic, NaN kept; no infinities."
 },
 "C31": {
  "note": "Assignment, termination and the converse of the error are proved for the assignment loop; the per-atom charge given by the user is used with the opposite sign of its documentation (initialization.py:25), and ions cannot be initialised (their electron counts never match)."
 },
 "C32": {
  "note": "Holds exactly when every column of S has a positive entry (the range stops before the maximum, supercell.py:110); |det S| < 10^5 because of the rounding tolerance. The remaining matrices lose cells (proved)."
 },
 "C33": {
  "note": "Holds for symmetric S. supercell.py:73 multiplies by inv(S) where inv(S) transposed is required: refuted for non-symmetric S."
 },
 "C34": {
  "note": "Any dimension, exact real arithmetic; also the reversibility of the wrapped proposal."
 },
 "C35": {
  "note": "Proved for diagonal lattices; for other lattices only for particles in the primary cell and close pairs, or mutually orthogonal vectors. Refuted for far separations and for skewed lattices. The branch for orthogonal lattices is dead code (the test of pbc.py:138 includes the diagonal)."
 },
 "C36": {
  "note": "Half space, real and reciprocal sums and periodicity of the reciprocal part proved; periodicity of the whole energy for diagonal lattices. Handedness independence refuted: ewald.py:76 takes the determinant without absolute value."
 },
 "C37": {
  "note": "Holds for symmetric lattice matrices only: fractional.py:77 multiplies by the transpose of the inverse."
 },
 "C38": {
  "note": "All straight-line programs over the modelled dense rules (elementwise, linear and indexing, multiplication, division, contraction, general Hessian rule, max/min/abs/select/compare/sign), real-valued, at points where the program is smooth; JAX's own jvp of each primitive is trusted. Loops: see the loop theorems; complex values not modelled."
 },
 "C39": {
  "note": "For every program over the modelled primitives (unary smooth, neg, add, sub, mul, div, abs, max, min, select, sum, transpose, squeeze, rev, slice, broadcast, reshape, concatenate, dot_general, any other primitive through densification), every shape and every input: if sparse evaluation succeeds and the kink/owner-axis side conditions hold (safe_program), its densified values, Jacobians and Laplacians equal the dense evaluation's (C39_equation, C39_program), the sparse seed densifies to the dense seed (C39_seed), and the Laplacian is the mathematical one (C39_sparse_laplacian, with C38). Missing/refuted: concatenating plain segments along the owner axis raises an exception or shifts owners (C39_concat_error_refuted, C39_concat_owners_refuted); max/min ties with a plain operand and abs at 0 use other subgradients (C39_max_tie_refuted, C39_abs_kink_refuted). Modelled separately in C91: pow, rem, round, reduce_max/min, gather owner remapping, split. Complex values: C92. Not modelled: compact broadcast dense Jacobians; empty arrays are excluded."
 },
 "C40": {
  "note": "Straight-line programs of any length; holds while each result is read at most 2^31 - 1 times (shown sharp)."
 },
 "C41": {
  "note": "Exact-arithmetic model of update_fn with devices, complex scores, clipping, SPRING, MARCH (both modes), adaptive damping, chunked Gram, null-space lift, Cholesky solve (elimination) and pruning. C41_robust: every update equals the parameter-space robust/SPRING/MARCH solution; C41_standard: the only solution of (Fisher + lambda) delta = g for gamma = 1/lambda, no momentum, no metric, lambda >= eps; C41_modes: documented eigenvalue formula; C41_history: every history from init; C41_descent; C41_gamma_range; C41_lift; C41_prune; C41_leaf_selection. Positive damping is assumed (usable); floating point is not modelled."
 },
 "C42": {
  "note": "For every number of devices, rows, parameters, chunks >= 1 and nonnegative scale, full and chunked Gram matrices (row normalisation, padding, resharding, masking of the clamped last chunk, symmetrisation) equal score diag(scale) score^T; exact arithmetic."
 },
 "C43": {
  "note": "For every update, nonnegative rate and limit, eps > 0; includes 'fixed' and the sign flip of robust_sr."
 },
 "C44": {
  "note": "Proved: a leaf the mask drops has no influence, unconditionally for straight-line programs with nested calls and conds (C44_straight), and for programs with scans/whiles whose loops are closed in the sense of Active_Spec (C44_sound_partial, C44_pruned_partial). Refuted in general: the analysis makes one backward pass over a scan body, so an input entering the requested carry only in a later round is dropped (C44_scan_refuted); while-loop operand positions are not realigned when constants are closed over (C44_while_refuted)."
 },
 "C45": {
  "note": "Variable population (branch.py): weight conserved for all weights and draws, arrays aligned, every observable unbiased (mean over the uniform draws as an iterated Riemann integral), exact merge and split counts; raises for a single walker or when (nearly) all walkers are small (C45_vary_crash_refuted). Fixed population: size and alignment unconditionally; weight and unbiasedness for distinct weights, 3*num_to_change <= n and draws off their threshold; refuted for tied weights, for a draw equal to its threshold, and when the pairs reach the largest walkers (C45_fixed_*_refuted). Weights are reals; floating-point rounding is not modelled."
 },
 "C46": {
  "note": "Over every history of steps, outlier rejections, rollbacks, aborts, kills and restarts: metric rows list each step once in order; rows and state are those of a failure-free execution; rollback returns to a saved step; promoted data is at least a block old; the last block is in the save path when the loop ends. Refuted: a kill during the copy into the save path leaves a torn newest file and no later process can start. Local paths, one host, equal block size across runs for C46_final."
 },
 "C47": {
  "note": "As written the function rebinds its argument to [] before reading it, so nothing is ever removed: the keep half holds (C47_keeps_partial), removal is refuted; with a separate name the policy is proved in full (C47_repaired). clean_up_save_path is not called by the DMC loop."
 },
 "C48": {
  "note": "Real arithmetic, positive total weights, window size at least 1 (0 fails, C48_empty_window)."
 },
 "C49": {
  "note": "Refuted twice: an outlier is detected after the effective-time-step calculator was updated in place, and the loop computes but never passes should_update_effective_time_step. Proved: everything else in the state and the index are unchanged by a rejection; with the flag off nothing changes; closed form and bounds of the effective time step. dmc_step and branch are arbitrary parameters; non-ebye iteration."
 },
 "C51": {
  "note": "Only comment lines are added; the final line break is dropped when anything was annotated (proved); comments carry the true path for the block-style documents of the emitter subset."
 },
 "C52": {
  "note": "Old configuration preserved under an unused name, no write in dry runs, crash-safe at every file operation and over histories. Refuted only for a rewrite of an unchanged configuration torn by a crash, which is outside the property as stated.",
  "status": "proved"
 },
 "C53": {
  "note": "Exactness is proved for all six rules and the default, against a Riemann surface integral (Coquelicot), for every pair of draws; rule shape, identifiers and properness of rotations proved. The last sentence is false and refuted: over the rotations the code draws (two uniforms instead of three parameters), the average of octahedron_6 on x^4 is 13/12 of the integral (C53_unbiased_refuted). Exact real arithmetic; identifier string given already split."
 },
 "C54": {
  "note": "Laws proved; the documented KeyError for an unknown name is a TypeError in the code (refuted witness)."
 },
 "C55": {
  "note": "Proved for keys without digits and formats with digits as the regex expects; refuted otherwise (witnesses)."
 },
 "C57": {
  "note": "Refuted: gaussian_proposal uses one key for all leaves, so equally shaped fields always receive the same noise; the positive theorem gives the exact consequence."
 },
 "C58": {
  "note": "SolidFeatures with either distance and every symmetry type; any dimension."
 },
 "C59": {
  "note": "nu: every symmetry type. tri: minimal, fcc, bcc; with the hexagonal set the distance vanishes at the honeycomb site (refuted)."
 },
 "C60": {
  "note": "Real arithmetic, one host."
 },
 "C61": {
  "note": "The 0.1 of one-digit sizes is computed with IEEE double arithmetic (Coq SpecFloat); the bound holds for any digit count the logarithm may report (target_any_digit)."
 },
 "C62": {
  "note": "Exact rationals. The unweighted agg_mean (used for the acceptance ratio) is the mean only when hosts hold equally many walkers; refuted otherwise. agg_sum needs equal device counts per host."
 },
 "C63": {
  "note": "All tables, positions, rules, rotations. The exactness claim is for ratios that are polynomial on the sphere (any other ratio is only approximated). Exact reals; a wavefunction value is a unit phase and a logarithm. With an empty list of electrons the code would still refuse l>=3; the model does not."
 },
 "C64": {
  "note": "The cap itself is refuted: ten power iterations give a Rayleigh quotient strictly below the largest eigenvalue (C64_cap_refuted, for every start vector with a component on a smaller eigenvector and every target), so the condition number exceeds max_cond_num. Proved: the cap holds when the estimate is not below the spectrum (C64_cap_partial); in general it is exceeded by at most the factor of the underestimate (C64_cap_ratio); the damping is non-negative and never more than the exact largest eigenvalue would ask for."
 },
 "C65": {
  "status": "proved",
  "note": "All parameters, depths, positions and pairs. Networks over exact reals. Beyond the property: with two same-spin electrons in one place every determinant vanishes and log|psi| is NaN (C65_coincidence_refuted, see C67)."
 },
 "C66": {
  "note": "The condition holds for every k-point list that matches the twist (C66_bloch), and the workflow's k-points match it when the supercell matrix is symmetric (C66_kpoints_partial, C66_workflow_partial; |det| < 100000). Refuted for other matrices: with rows (2,1,0),(0,1,0),(0,0,1) moving an electron by a cell vector multiplies |psi| by sqrt 3 (C66_nonsymmetric_refuted), because of C33. C66_ecp_partial discharges the Bloch hypothesis of C63. The occupation numbers found by PySCF are universally quantified."
 },
 "C67": {
  "note": "Proved whenever one determinant is non-zero, including exact cancellation (-inf). Refuted when all determinants are zero: the maximum is -inf, -inf minus -inf is NaN, and the result is NaN rather than -inf (C67_all_zero_refuted, C67_complex_all_zero_refuted)."
 },
 "C68": {
  "note": "Psi of PsiFormer and LapNet is the product of this factor and the value without it (C68_psiformer_factor, C68_lapnet_factor). Pair counting and cusp slopes proved for all non-zero parameters; boundedness for positive ones. Refuted for negative ones, which nothing prevents training from reaching: the factor has a pole at distance -alpha (C68_negative_parameter_refuted)."
 },
 "C69": {
  "note": "Two parts of the property are false of the code and refuted: an odd flux_per_elec gives a wavefunction that is symmetric under exchange of equal spins (nothing rejects it), and Laughlin with cf_flux other than 1 always multiplies in the square of the pair product, so its value is the cube of the pair factors and not the power 2 cf + 1. The product formula of the filled level is for 0 < theta < pi (at the poles the code multiplies 0 by an infinite power). When flux_per_elec > 0 the electrons are assumed to be at different points, since the code takes the logarithm of the pair factor."
 },
 "C70": {
  "note": "C70_rule: exact value, Jacobian and Laplacian when the tracked input has the electrons on its first axis (all of jaqmc's own calls, sparse_axis=0). C70_owner_axis_refuted: with sparse_axis=1, which make_laplacian_input accepts, the support test does not look at input_owner_axis and the returned Jacobian rows are permuted."
 },
 "C71": {
  "note": "psi need only have a logarithm near the configuration. The derivatives of log psi are given by a record of facts (what jax.grad/hessian return); in the forward mode jac and lap are the weighted jacobian and laplacian that C38 shows the interpreter returns. Configurations with an electron exactly on a pole (sin theta = 0) divide by zero in the code and are excluded."
 },
 "C72": {
  "note": "The double-operator mode is given the jacobian of the first application as a derivative fact. Laughlin states are the pair products C69 shows the code computes. Configurations with an electron exactly on a pole are excluded."
 },
 "C73": {
  "note": "Exact arithmetic; the draws are arguments. C73_move includes the plane y = 0, where sign(0) = 0 makes the longitude 0. sphere_proposal applies the same key to every leaf of a pytree (one leaf in the hall app)."
 },
 "C74": {
  "note": "For the filled level the identity needs the configuration and the auxiliary point outside the cutoff (|cos theta| <= 1 - 1e-4), because inside it the estimator's orbitals are not those of the wavefunction. The averages over walkers and auxiliary points are not modelled."
 },
 "C75": {
  "note": "penalized_loss on top of the statistics of C72; a penalty of 0 switches its term off."
 },
 "C76": {
  "note": "REFUTED in two respects. (1) The state has shape (bins,) without a device axis, but the stage splits every estimator state along its first axis: with more than one device the first step raises, or, with one bin per device, the array changes size (C76_devices_refuted). (2) finalize_stats returns {} and finalize_state is inherited ({}), so nothing of the result is in the digest (C76_digest_refuted). Proved: what a step adds (C76_histogram), normalisation for uniform electrons (C76_uniform, with the density sin/2 of the angle as its input), accumulation on one device (C76_accumulates). Pairs at angle 0 or pi give an infinite weight and are excluded."
 },
 "C77": {
  "note": "Real log psi only, as the class documents (with a complex log psi the forward backend uses |g|^2 instead of g^2). Electrons on a PH atom (r = 0) are excluded: there both terms are not numbers. The gradient, Hessian and forward-Laplacian pass are taken exact (C38 proves the pass); the XML parser is not modelled."
 },
 "C78": {
  "note": "C78_local: the value equals (S^2 f)/f with S^2 built from Pauli matrices (Spin_Spec.v), for every fermionic f whose amplitude at the canonical spin order is the wavefunction. C78_eigenstate, C78_polarised, C78_restricted (zero variance for restricted determinants, by Cramer's rule), C78_two_electrons, C78_node (psi = 0: no value, NaN in the code), C78_example. logsumexp is the library function, modelled with its shift. Exact arithmetic."
 },
 "C79": {
  "note": "Elements_Model, Sys_Model, Sys_Props. C79_spins (up to 4e8 electrons, because math.isclose is relative), C79_accepts, C79_charge, C79_terms, C79_walker, C79_solid_walker, C79_starts (atoms whose charge has the parity of the element), C79_starts_table (all of the package's element table without ECPs or with ph), C79_elements. Refuted in part: an atom with a charge of its own whose parity differs from the element's passes validation and then no electrons can be assigned (C79_custom_charge_refuted)."
 },
 "C80": {
  "note": "Cell_Model, Cell_Props. C80_lattice, C80_refused, C80_rock_salt, C80_chain, C80_diatomic, C80_formula, C80_formula_only, C80_alkane_formula, C80_alkane_chain, C80_alkane_hydrogens, C80_alkane_starts. Refuted in part: gamma = 0 with alpha = beta is not refused but gives a lattice of NaN (C80_flat_refuted). Angles within 1e-12 degrees of 90 are taken to be 90 or -90."
 },
 "C81": {
  "note": "Move_Model, Move_Props. C81_nearest, C81_clip, C81_drift, C81_proposal (the density), C81_draw and C81_slater (the draws have it), C81_reachable, C81_rate, C81_balance, C81_fixed_node, C81_outcome, C81_weight, C81_weight_bound, C81_ebye_move, C81_ebye_balance, C81_ebye_sweep; C81_example meets the hypotheses. Exact arithmetic; erfc is any function with values in (0, 2); the measure-theoretic step from densities to distributions is not formalised. Refuted in part: an electron whose velocity is exactly along the line to its nearest nucleus, or zero, gives 0/0: the walker does not move and its averaged energy is reported as 0 (C81_radial_refuted; C81_hydrogen_refuted: no walker of a hydrogen atom ever moves, in exact arithmetic)."
 },
 "C82": {
  "note": "Proved over exact reals for every basis with every contraction used. Refuted corners: a contraction with all weights below 1e-12 at the end of the list shifts the read-back (C82_empty_contraction_refuted); solids accept full_det=False, for which the loss raises or compares the wrong blocks (C82_split_*). The twist law is stated for symmetric supercell matrices, as in C66. Not modelled: pyscf's self-consistent field, and the truncation error of the lattice sum (C82_bloch_sum says exactly what the cut-off changes)."
 },
 "C83": {
  "note": "The forward-Laplacian modes are covered for real-valued programs of the modelled primitives (as C38, C39; sparse with the restrictions named there); the loop modes for real and complex wavefunctions."
 },
 "C84": {
  "note": "kfac_jax's own parts (WeightedMovingAverage, Kronecker block structure, compatible_sum, graph matching) are modelled by what they compute. Refuted: patterns without repeated axis but with two contracted or produced axes are routed to the two-axis block and fail; fixed_scale counts all but the last contracted axis as repeats; the generic diagonal sums the batch before squaring and can vanish where S does not; vjp_rc_with_aux looks at the first output's type only."
 },
 "C85": {
  "note": "optax.scale_by_learning_rate and OptaxPreconditioner.apply are modelled by what they compute; the inverse of the damped curvature is taken as an exact right inverse."
 },
 "C86": {
  "note": "Python's import system is an arbitrary environment; nested dataclasses and pyserde's coercion are not modelled. Refuted: keyword defaults are merged under a class the user chose and make it fail if it lacks the field; a class from a .py file is recorded under a per-process module name that no other process can import; a required array parameter after the learning rate gives a TypeError instead of a wrapper."
 },
 "C87": {
  "status": "partial",
  "note": "Loss_Spec/Model/Props/Pen/Spin/Over.v. Exact real arithmetic (NaN and infinities kept where the code handles them), one scalar parameter, derivatives of log psi and of the local penalty as inputs. The overlap derivative is over a finite set of points sampled exactly. Refuted parts are concrete counterexamples or exact characterisations."
 },
 "C88": {
  "note": "Soundness is proved for every block built from the modelled pieces: straight-line programs (C38's primitives), scan, while, dispatch, jit, slogdet, custom rules and vmaps of them. _refuted theorems record the departures named in the statement: lookup of jitted functions by name, scan/while carries that change trackedness raise, and the jit cache fixes whether a custom rule is used. Sparse Jacobians are densified before these handlers in the code; the model starts from dense ones."
 },
 "C89": {
  "note": "Proved for real wavefunctions (sign and log modulus), exact derivatives and an exact forward pass (lapjax is an argument, as in C77). C89_energy and C89_energy_ph are the whole-energy theorems. _refuted theorems record the departures named in the statement: C89_each_once_refuted, C89_optim_hph_refuted, C89_channel_labels_refuted, C89_parse_refuted; C89_channels_refused covers only-local and l>7 tables. The cubic spline library is an argument (C89_effective_charge asks it to commute with adding a constant). Padding/masking of DMC walkers is C62. Uniform draws are arguments; the icosahedral rotation bias is not part of this property."
 },
 "C90": {
  "note": "Histories over a local and a remote directory with the three storage handlers; transfers may succeed, fail or be killed, the machine may be lost, listings come in any order. Proved for every history: the rows and state of any process and every whole file belong to an execution without failures (C90_trace, C90_files); a start with working downloads continues after the newest file of the four directories (C90_newest); with a storage that works every start succeeds and loses less than two blocks (C90_survives); names give the step back (C90_names, C90_names_only); which path settings raise (C90_paths). Refuted: with the default handler, or when hdfs commands fail, nothing remote is ever stored and nobody is told (C90_remote_copy_refuted); a failed hdfs download restarts from step 0 although good data are remote (C90_failed_download_refuted); the ._COPYING_ leftover of a killed upload matches the unanchored pattern and stops every later start on another machine (C90_leftover_refuted, C90_names_refuted); hdfs -get does not replace a torn local file (C90_torn_local_refuted); lazy_setup never lets data be loaded (C90_lazy_refuted). The hdfs command line's behaviour (temporary name, no overwrite without -f) is an assumption about the environment."
 },
 "C91": {
  "note": "C91_gather, C91_reduce, C91_rem, C91_pow: the rule's result is well formed and its densified derivatives equal the dense rule's, for sparse and dense operands (reductions: also at ties); C91_split per piece. *_exact: exact value, gradient and Laplacian of the composed function (gather incl. fill value; max/min with a unique extreme element per window; rem away from integer quotients, tracked divisor included; pow with positive base; split; round away from halves). C91_take: numpy-style x[..., idx, ...] reads the listed rows. C91_gather_stays_sparse: with concrete indices the factorisation is complete. C91_reduce_value, C91_round_value, C91_rem_value: what the values are. C91_split_covers: every element in exactly one piece. C91_tie_unsound: at a tie the averaged Laplacian of max(x^2, 0) at 0 is 1 instead of 2 (the dense rule does the same), which is why ties are excluded. Left out: ONE_HOT gather mode (rejected by the code), a tracked exponent (general dense rule of C38), bases <= 0."
 },
 "C92": {
  "note": "Complex derivative, holomorphy and exactness are defined in Cx_Spec.v (value, gradient and Laplacian of both parts along real coordinates). C92_unary: any f twice complex differentiable on an open set; C92_functions: exp, inverse and integer powers are such. C92_abs: |f| away from 0 (Hermitian trace for the sparse layout, sum of squared moduli for the dense one). C92_components: real, imag, conj, neg. C92_convert: complex, floating (real part) and integer conversion. C92_add, C92_mul, C92_div, C92_complex: sparse/dense/plain operands with broadcasting, including slot merging of two-owner values. C92_stays_sparse: when owners survive. C92_densify: the layout does not change the numbers. Refuted: C92_sign_refuted - jax.lax.sign of a complex value is its phase z/|z|, which varies, but the rule returns it without derivatives (q + i at q = 0: true derivative 1, code 0); C92_sign_partial proves the real case. Branch cuts (log, sqrt) are covered by C92_unary on an open set without the cut, but no holomorphy lemma for them is proved."
 },
 "C93": {
  "note": "Proved: one process always completes; processes complete and end alike if they see exit requests at the same step and judge elapsed times alike (or no save depends on the clock); files are written by process 0 only and are exactly the gathers; walkers, checkpoint portability, writers, keys. Refuted: each process decides on its own clock (time.time) whether to save and on its own signal flag whether to abort, so clocks one tick apart (C93_clock_refuted) or a signal seen one step apart (C93_signal_refuted) leave one process in a gather the others never enter; density estimator state is stored per device, so resuming on fewer devices counts samples several times, on more devices the checkpoint is refused, and with two or more processes saving it raises (C93_density_*_refuted); keys start over after a resume (C93_keys_after_resume_refuted)."
 },
 "C94": {
  "note": "Exact arithmetic; counting over steps and devices reuses the histogram model of C27. A zero direction is shown to count nothing (C94_no_direction)."
 },
 "C95": {
  "note": "Proved by C95_general (general rule), C95_elementwise and C95_elementwise_real (elementwise rule), C95_vjp (transposition), C95_jacobian (jacrev and hessian entries). Boundary: C95_mixed_inputs and C95_mixed_strategies_differ (i r z with r real and z complex gets half of the second-order term from the Hessian strategy). jax.jvp is taken to be the exact directional derivative and jax.vjp to be its transpose in JAX's documented complex convention; second derivatives of complex differentiable functions are assumed independent of the order. Examples: C95_product, C95_square, C95_tracked, C95_square_laplacian."
 },
 "C96": {
  "note": "Effects are a trace of events; configuration reading is Config_Model, the file operations of prepare are Backup_Model. serde's conversion of values, the workflow's reads and settings and the YAML printer are arbitrary functions. jax.distributed.initialize is assumed to succeed and to set jax.process_index() to the given process_id. Not modelled: click's argument parsing, log text, what the JAX flags do. Finding (theorem C96_dry_run_refuses_what_the_run_accepts, C96_ex_saved_configuration): configure_runtime does not ask for the section distributed in a dry run, so finalize reports it as unused and --dry-run exits with an error for any configuration that sets distributed.*, including the config file saved by a successful run. Finding (C96_other_processes_do_not_check): only process 0 checks for unread keys, so with a misspelt key process 0 exits while the others enter the run."
 },
 "C97": {
  "note": "One walker with scalar (complex) statistics; the values of the single terms are arbitrary inputs, their formulas being the subject of other properties. The matrix-valued one-body density matrix and the gradients are left out of the statistics. Configuration that replaces the fields of an estimator is not modelled, except the loss key."
 }
}