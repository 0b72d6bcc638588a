# Design

Formal model of bytedance/jaqmc in Rocq (Coq 8.16.1).

## Plan per property

- **C01 Restore picks the newest checkpoint** — File-system model: directory = list of (name, contents). Names are rendered with an exact model of `{:06d}` and compared as Python strings. Prove restore = numeric max for steps < 10^6; refute beyond.
- **C02 Checkpoint round trip** — Trees as nested key/leaf structures; npz archive as an association list; prove read-back by induction; exhibit collision.
- **C03 A torn checkpoint never hides an older good one** — save = sequence of file states (absent, truncated at k bytes, complete); classify reader outcome per truncation; prove fallback, refute for residues that numpy reports as ValueError.
- **C04 Strict and lenient restore** — Case analysis of restore over all directories.
- **C05 Stage prefixes are isolated** — Glob prefix matching on strings; prove disjointness, state the exact condition.
- **C06 Each step runs exactly once** — Event-driven small-step model of WorkStage.run with an oracle for signals/clock; invariant on the executed-step trace.
- **C07 A finished stage is idempotent** — Corollary of the run model.
- **C08 Periodic saves bound the loss** — Save predicate proved iff spec; crash model resumes at newest saved step + 1.
- **C09 Interrupt-and-resume reproduces the uninterrupted run** — Run model with keys derived from (seed, iteration within process); refute in general, prove for steps that ignore the key.
- **C10 NaN stops the run** — Stream model of loop with NaN flags.
- **C11 Graceful signal handling** — State machine over signals.
- **C12 CSV log stays aligned with steps** — CSV file as list of lines; run/crash/resume history as inductive; invariant.
- **C13 HDF5 log stays aligned with steps** — Datasets as lists; same histories.
- **C14 Evaluation statistics count each step once** — stats.h5 as a list; refute after crash; prove without crash.
- **C15 Configuration precedence** — Nested dict model of deep_merge/_get_path; prove lookup precedence.
- **C16 Merging configurations** — Algebraic laws by tree induction.
- **C17 Unused configuration is reported** — Model of visited set + recursive search; prove iff.
- **C18 Dot-list overrides** — Model of _set_path/_dotlist_to_dict.
- **C19 Dependency wiring is complete** — Component tree model of wire.
- **C20 Chunked evaluation equals batched evaluation** — Lists; prove equality for all sizes; chunk arithmetic.
- **C21 Metropolis-Hastings bookkeeping** — Model of _mh_update and the fori_loop over lists of walkers with abstract log-prob and draws.
- **C22 Metropolis-Hastings satisfies detailed balance** — Over R: acceptance probability min(1, p'/p); balance equation.
- **C23 Proposal width adaptation** — Ring buffer invariant over histories; width over Q/R positive.
- **C24 Sample plan updates exactly its fields** — Data as maps; fold over samplers.
- **C25 Estimator pipeline composition** — Pipeline as list of estimators (functions on maps).
- **C26 Statistics do not depend on the device layout** — Over Q: pmean of per-device means = global mean for equal shards; refute for NaN.
- **C27 Histogram accumulation** — Histogram over exact arithmetic; counts as lists of Z.
- **C28 Total energy is the sum of its components** — Dictionary sum.
- **C29 Energy gradient estimator** — Real algebra over lists.
- **C30 Energy clipping** — Over R/Q; clip laws.
- **C31 Initial spin assignment** — Executable model of the assignment loop, invariants, termination measure.
- **C32 Supercell tiling** — Z^3 lattice arithmetic; decomposition via floor division.
- **C33 Supercell k-points fold to Gamma** — Same with transposed condition; refute for non-symmetric S.
- **C34 Wrapping positions** — Over R with a 3x3 lattice and its inverse.
- **C35 Minimum-image distance** — Over R per-axis for diagonal lattices; refutation for general ones.
- **C36 Ewald reciprocal sum** — G-vector enumeration over Z; sign of weights over R.
- **C37 Fractional density uses lattice coordinates** — Over R / Q; refute for non-symmetric lattices, prove for symmetric.
- **C38 Forward Laplacian is the Laplacian** — Expression language over R; LapTuple semantics vs. derivative semantics (second-order jets).
- **C39 Sparse propagation agrees with dense propagation** — Sparse blocks as functions; commutation lemmas.
- **C40 Interpreter memory management is unobservable** — Straight-line program language; simulation between environments.
- **C41 SR update solves the regularised equations** — mathcomp matrices over a field.
- **C42 Chunked Gram matrix** — mathcomp or list sums.
- **C43 Norm-constrained update** — Over R.
- **C44 Pruned parameters cannot influence the wavefunction** — Small jaxpr language with nested control flow; non-interference.
- **C45 DMC branching conserves weight** — Lists of rationals; conservation by induction.
- **C46 DMC rollback is consistent** — State machine + invariant.
- **C47 DMC checkpoint clean-up policy** — Executable model; refute (parameter is shadowed).
- **C48 DMC mixed estimator** — Over R.
- **C49 DMC retries leave no trace** — State machine; refute.
- **C50 Step timing** — Fold over ticks.
- **C51 Annotated YAML keeps the configuration** — Lines; filter comment lines gives original.
- **C52 Configuration backups never overwrite** — File-system model.
- **C53 Spherical quadrature** — Over R with finite point lists; quantified over polynomials and rotations.
- **C54 Data container laws** — Finite maps.
- **C55 Console fields** — String model of the parser.
- **C56 Resolved configuration records what was used** — Model of the visited set and of the resolved dictionary of config.py; induction over sequences of get calls.
- **C57 Coordinates proposed together move independently** — Symbolic keys: split and fold as free constructors; two draws use different keys.
- **C58 Periodic input features ignore lattice translations** — Over R in any dimension, with the lattice, its inverse and the symmetry vectors; translation by integer combinations.
- **C59 Periodic distances vanish only at contact** — Over R; zero set of nu/tri distances as a quadratic form; refute tri for hexagonal.
- **C60 DMC population control** — Recurrence of the energy offset over iterations; fixed point and direction of feedback.
- **C61 DMC padding is invisible** — Lists; weighted sums with zero weights.
- **C62 Aggregates over hosts** — Weighted sums over a list of hosts.
- **C63 Effective core potential energy** — Padded arrays as functions built by the same writes; the angular integral as the quadrature of C53; spherical integrals as iterated Riemann integrals (Coquelicot); Legendre projectors on solid harmonics by moments; Bloch phases with the wrap of C34.
- **C64 Condition-number cap of the SR solve** — Over R; spectra as lists.
- **C65 Antisymmetry of the wavefunctions** — Determinants over a commutative ring by Laplace expansion; networks as functions of per-electron feature lists, all parameters universally quantified; exchange of two electrons of equal spin as an index permutation.
- **C66 Bloch condition of the solid wavefunction** — Features of C58, phase factors exp(i k.r) with k folded as in C33; multilinearity of the determinant in one row.
- **C67 Log-determinant sum** — slogdet as (phase, log modulus) of the determinant; shift by the maximum.
- **C68 Jastrow factor** — Derivatives over R (Coquelicot); symmetric sums.
- **C69 Monopole harmonics wavefunctions** — Homogeneity in the spinor coordinates as polynomial identities over C.
- **C70 LapNet attention Laplacian rule** — The rule of _attention.py modelled array by array on the sparse values of C39; second-order jets of C38 along every coordinate, then the sums over the tracked input.
- **C71 Kinetic energy on the Haldane sphere** — Partial derivatives over R (Coquelicot); operator applied to psi = exp(log psi) and expanded; the lowest level through its first-order equation.
- **C72 Angular momentum on the Haldane sphere** — The same, with the total angular momentum; Laughlin states as singlets.
- **C73 Moves and Coulomb energy on the sphere** — Rotation identities over R.
- **C74 One-body density matrix** — Cramer's rule for the Slater determinant, Vandermonde, binomial theorem.
- **C75 Angular momentum penalty** — On top of C72.
- **C76 Pair correlation** — Histogram of C27 with weights; shapes of the sharded state.
- **C77 Pseudo-Hamiltonian energy** — L^2 specified by second derivatives along rotations; jets of C38; 3x3 Cholesky, leading minors and eigenvalues over R.
- **C78 Total spin S^2** — Pauli matrices on states of positions and spins; exchange of electrons; Cramer's rule for restricted determinants.
- **C79 System configuration** — validation, effective charges, energy terms and initial walkers as functions of the configuration; acceptance characterised; the whole element table checked by computation.
- **C80 Geometry builders** — vectors over the reals; Gram determinants for lattices; induction over the repeat units of an alkane; the regular expression as a scanner.
- **C81 DMC walker moves** — vectors over the reals, NaN as None; densities as explicit functions, detailed balance by the Metropolis-Hastings identity; induction over the electrons for the electron-by-electron sweep.
- **C82 Hartree-Fock reference and pretraining** — the Gaussian basis (read-back, contraction lists, real solid harmonics as polynomials), molecular and Bloch orbitals, Slater determinants as (sign, log) pairs, the pretraining loss and sampling amplitude; pyscf's coefficients and occupations are arbitrary. Harmonicity by explicit derivatives and induction on the degree; Bloch laws from the wrap-around lemmas of C34; zero loss by block determinants.
- **C83 Euclidean kinetic energy** — jax.grad / jax.linearize as derivatives (Coquelicot), data as buffers by field name; the loops by induction, the identity psi''/psi = f'' + f'^2 for f = log|psi| (real) and f = log psi (complex), the forward-Laplacian modes through C38/C39; the hydrogen atom by explicit derivatives.
- **C84 KFAC curvature** — arrays as row-major buffers with shapes, dot_general by axis lists, Python slices with negative bounds; layout lemmas by induction on shapes, factors as weighted sums of squares (closed under moving averages and Kronecker products), chain rule through Coquelicot derivatives, jax.vjp as a global binding
- **C85 Schedule and KFAC step** — Rpower schedule; totals by telescoping (logarithm from below, mean value theorem from above); step through the exact inverse of the curvature
- **C86 Choosing implementations by name** — the import system as an arbitrary environment, dataclasses as field lists, configuration trees from C15/C16; by case analysis and induction on fields and signatures
- **C87 Losses of the legacy package** — energies as optional reals (none for NaN) and signed amplitudes as pairs; masked sums over devices by induction on device lists; custom_jvp gradients as the pairing they compute, compared with Coquelicot derivatives of the expectation over a finite space of walkers; spin swaps on explicit electron lists
- **C88 Forward Laplacian through determinants, loops and user rules** — determinant by Laplace expansion and Jacobi's formula along coordinate lines (jets); a program is a block (plain meaning, trace, interpretation) and `sound` is the contract value+gradient+Laplacian; scan, while, dispatch, jit, vmap of a custom rule are shown to preserve `sound` by induction on steps/fuel/history; jax.lax.scan/while_loop/vmap themselves are modelled by their documented meaning
- **C89 Local energy of the legacy package** — every kinetic mode is reduced to the sum of second derivatives plus squared gradient of log|psi| along coordinate lines and from there to -1/2 Laplacian psi (Kin_Spec); array_split/scan partitions concatenate back to the identity matrix. The core potential: element dictionaries are shown to be a permutation of the filtered molecule, argsort gives an arrangement by distance, Legendre branches equal Bonnet's recursion, the rotated rule is exact on polynomials (C53), so each channel is the angular component (Lpp_Spec). The PH operator is reduced to C77's. Routing by induction over the molecule. Files Lpp_Spec (specification), Lpp_Model, Lpp_Kin, Lpp_Ecp, Lpp_Ph, Lpp_Route, Lpp_Props, Lpp_Cases.
- **C90 DMC data in remote storage**: directories of named whole or partial files, the three storage handlers with
  transfers that succeed, fail or are killed, loss of the machine, listings in any order; the workspace and rollback of C46.
  Soundness by an invariant over all histories; recovery within two blocks when transfers work; counter-examples otherwise.
- **C91 Gathers, extremes over axes, splits, rounding, remainders and powers** — the rules on the sparse values of C39; jax.lax.gather as a
  source index (or none: fill) per output element, the block gather with shifted axes as the same source, the owner factorisation
  sound and complete; dense agreement first, then exactness by locality of the selected element and the jets of C38.
  Files Gather_Spec, Gather_Model, Gather_Lemmas, Gather_Props, Gather_Reduce, Gather_More, Gather_Pointwise, Gather_Cases.
- **C92 Complex values under the forward Laplacian** — the same tracked values with complex entries; exactness is exactness of both real parts along
- **C93 Several processes run as one** (`Mh_*.v`). Modelled: the run loop as the list of collective operations one process executes (given its clock readings and its exit flag), the split of walkers over processes and devices, device_put/process_allgather as cutting and joining equal pieces, density state with one row per device, Writers.open/write with failing writers, and the key derivation with `split`/`fold_in` as free constructors. Proved by induction on the remaining steps (equal decisions give equal operation lists; equal lists iff the rendezvous completes) and by list algebra. The clock and the signal flag are per process, so the full statement is refuted. Not modelled: XLA collectives inside a step (one `Compute`), the transport, reads of a shared directory by several processes.
- **C94 Densities along directions and on the sphere** (`Axes_*.v`). Modelled: the axis configurations, the normalised projections (NaN for a zero direction), linspace edges, the default axes of molecules, and the angles of the sphere, over exact reals; counting is the model of C27. Proved by relating bins to the intervals of a separate specification, and by summing indicators over all cells; positions on the sphere by induction over moves with C73.
  coordinate lines. Holomorphic functions are reduced to a real function of two variables by the Cauchy-Riemann form of the
  complex derivative; traces (plain and Hermitian) are shown equal to the dense sums; sum, product, quotient by the owner-merging lemmas of C39.
- **C95 Complex-aware derivatives and the general Laplacian rule** (`Ad_Model/Spec/Lemmas/Props/Main/Cases/Examples.v`): `laplacian/ad.py` (vjp with its dispatch and the real-to-complex decomposition, jacrev and jacfwd with ravel/unravel, hessian), `laplacian/hessian.py` (the three JHJ strategies and their selection, the elementwise second derivative), `jvp.py` (split and elementwise strategies) and wrap_general / wrap_elementwise. A JAX forward derivative is modelled as the derivative along the line (Coquelicot `Derive`), a reverse derivative as its transpose in JAX's complex convention; arrays are flattened. The functions are any twice totally differentiable functions of the 2n real coordinates; the conclusion is the value, gradient and Laplacian of the composed function in the sense of C38/C92. Not modelled: sharding casts (pcast), vmap scheduling (`in_axes` other than `()`), the shape and handler-setup errors.
- **C96 From the command line to the run** (Cli_*.v): the command is a sequence of steps over a trace of effects
  (logging handler and level, JAX flags, waiting, connecting, file operations of Backup_Model, entering the run), with
  Config_Model as the configuration manager.  Order by an interval invariant on the phases of each step; what a dry run
  may do by the same invariant; connecting by the outcome of configure_runtime; the verdicts of the first process and of
  the dry run through C17's characterisation of unread values.
- **C97 Every energy term once, and the loss of training** (Terms_*.v): make_estimators of the four applications as lists of
  named estimators built with dictionary assignment, the walker loop of the pipeline, TotalEnergy, PenalizedLoss and the
  loss of LossAndGrad on scalar complex statistics.  TotalEnergy for any statistics by induction; the applications by
  case analysis over the switches with the values and penalty strengths universally quantified.

## How the properties are stated

For most properties there are three files: `X_Spec.v` (only the words of the property: no model definition is
mentioned), `X_Model.v` (the code, function by function, each definition with the lines it models) and
`X_Props.v` (the theorems `Cnn_*`, and examples that show their hypotheses are met). `_partial` marks theorems
that cover only part of the property, `_refuted` marks theorems that exhibit inputs for which the property as
a user would state it is false of the code; `MANIFEST.json` says in its notes what is missing.
`ASSUMPTIONS.md` is `Print Assumptions` for every theorem.

## Trusted base

- Coq 8.16.1's kernel (with its virtual machine, used by `vm_compute` in some examples) and the parser that
  reads the statements.
- Axioms. Files over nat, Z, lists, strings and Q: `Closed under the global context`. Files over the real
  numbers: the axioms on which the standard library builds R, namely `ClassicalDedekindReals.sig_not_dec`,
  `ClassicalDedekindReals.sig_forall_dec`, `FunctionalExtensionality.functional_extensionality_dep`, and
  `Classical_Prop.classic` where Coquelicot or the standard library's analysis uses it. No other axiom, of
  this project or of a library; Coquelicot and mathcomp are used as libraries of proved lemmas.
  `ASSUMPTIONS.md` lists the axioms theorem by theorem.
- That the model says what the code does. Nothing ties the Coq text to the Python text but reading; the
  comments cite the lines.
- What the model takes as given about the outside: the semantics of Python (dicts keep insertion order,
  integers are unbounded, string comparison is by code point), of numpy/jax primitives (stable argsort, clamped
  or failing indices as stated in comments, scan/vmap/fori_loop as folds and maps), of the file system (a
  write that is killed leaves a prefix; rename is atomic), of zip/npz and HDF5 readers (stated where used).

## What is modelled and what is not

Modelled (jaqmc unless said otherwise):
`utils/checkpoint.py`, `workflow/stage/*` (run loop, sampling and VMC/evaluation stages), `workflow/base.py`
(backups), `writer/{csv,hdf5,console}.py`, `utils/{config,wiring,chunked_vmap,signal_handler,time_tracker,
yaml_format,supercell}.py`, `data.py`, `sampler/*`, `estimator/{base,ewald,total energy, density/*, histogram,
clipping, loss gradient}.py`, `estimator/ecp/*`, `estimator/ph/*` (XML parsing excepted), `estimator/spin.py`, `utils/atomic/{atomic_system,atom,pp,elements}.py`, `utils/units.py`, `app/molecule/{data,config/*}.py`, `app/solid/{data,config/*}.py`, `app/molecule/hamiltonian.py`, `geometry/pbc.py`, `wavefunction/input/atomic.py`,
`utils/atomic/initialization.py`, `laplacian/*` (dense and sparse propagation, interpreter),
`optimizer/sr/*`, `optimizer/kfac/*` (graph matching excepted), `optimizer/{schedule,optax}.py`, `utils/module_resolver.py`, `wavefunction/{jastrow,backbone/*,output/*}.py` and `geometry/obc.py`, `app/molecule/wavefunction/*`,
`app/solid/{wavefunction,workflow}.py` (density wiring, k-points), `utils/atomic/{gto,scf,pretrain}.py` (pyscf's own computation excepted),
`app/hall/{wavefunction/*,hamiltonian,estimator/*}.py`, `estimator/kinetic/*.py`, `utils/func_transform.py`, `app/hydrogen_atom.py` (wavefunction and energies), `geometry/sphere.py`, `jaqmc_legacy/loss/*`, `jaqmc_legacy/pp/*` (energies and pseudo-Hamiltonian data), and of `jaqmc_legacy/dmc`: `storage_handler.py`, `data_path.py`, the moves and weights of one walker (`position_update.py`), branching, rollback, checkpoint clean-up,
energy estimators, population control, padding, multi-host aggregates.

Not modelled: floating-point rounding (all real-valued theorems are about exact arithmetic; NaN and infinity
appear only where a theorem is about them), XLA compilation, device placement and collective communication
(collectives are sums/means over a list of devices), the pseudo-random generator (keys are symbolic, draws are
arguments), PySCF (the self-consistent field; its result is arbitrary), the inside of kfac_jax and optax (what jaqmc calls is modelled by what it computes), Weights & Biases, and the command line.
Simplifications local to a definition are stated in its comment.
