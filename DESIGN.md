# Formal model of ContactMechanics: design

Source: `/repo` (ContactEngineering/ContactMechanics, pinned commit), read as text only.
Properties: `properties.jsonl` (C01, C02, ...).  Status per property: `MANIFEST.json`.
Seeded-bug experiments: `seeded/LOG.jsonl`.

## Layout (`rocq/theories`)

* `*_Model.v`  definitions transcribing Python functions, each citing file and lines; the
  header comment of every file lists its simplifications.
* `*_Spec.v`   small independent specifications (vocabulary of the theorem statements).
* `Prop_*.v`   the theorems named `Cnn_...`, followed by `Print Assumptions` and concrete
  `Example`s (`Cnn_nonvacuous`) that meet the hypotheses.
* all other files: lemmas.

Suffixes: `_partial` = part of the English claim only; `_refuted` = the faithful model
violates the claim, a concrete witness is proved.

## Modelling conventions

* Floating point numbers are exact reals `R` (Coq standard library).  Rounding, overflow and
  denormals are NOT modelled, except in C85 and C88 (second model of the solver).  Where Python's `x/0` produces inf/nan the model makes the
  comparison that consumes it `false` explicitly, or the theorems exclude the argument;
  Coq's total division is never relied on.
* numpy arrays are functions of the indices with explicit extents (or lists where order or
  length is what the claim is about).  In-place updates become new values; aliasing that
  matters is modelled explicitly.
* Exceptions are values, so that "raises exactly when" is expressible (`Py.v`: `Ret`/`Exc`,
  `CCG_Model.v`: `Ok`/`Raise`).
* The solver model is generic in the scalar operations (record `Ops`); theorems are about the
  `R` instance.  A `Q` instance, connected by a proved homomorphism theorem, is used to run
  concrete witnesses inside Coq.
* Externals that the theorems quantify over (nothing is assumed about them except what the
  individual theorem states): `scipy.optimize.minimize`, `bisect`, `quad`, `simpson`,
  `np.linalg.solve`, `np.roots`, `null_space`, `rms_height_from_area`, callbacks, file reader,
  `detrend`, `float`/`int` of strings, `str.format` of file name templates.

## Trusted base

1. The kernel of Coq 8.16.1 (`vm_compute` is used for finite examples and witnesses).
2. Axioms, all of the standard library; the table at the end lists them for each theorem:
   * **R** `ClassicalDedekindReals.sig_forall_dec` and **N** `ClassicalDedekindReals.sig_not_dec`
     (the classical real numbers),
   * **E** `FunctionalExtensionality.functional_extensionality_dep`,
   * **K** `Classical_Prop.classic`,
   * **-** closed under the global context.
   Coquelicot and Flocq (`Float_Double.v`) are used as libraries; they add no axioms to those of the
   standard library.
3. The transcription from Python to Gallina (by reading; cited line by line).
4. The meaning given to external libraries that are transcribed rather than quantified over:
   * FFT engine (muGrid/NuMPI): forward = discrete Fourier sum, backward times 1/N = its inverse,
     half-complex storage of the first axis (`FFT_Base.v`); tuples of muGrid behave as tuples.
   * NuMPI `Reduction`: sum/max/min over all processes in lockstep.
   * numpy: element-wise operations, boolean indexing, C order, `fftfreq`, stable `argsort`,
     `np.pad`; `np.linalg.inv` = adjugate over determinant.
   * netCDF4: unlimited dimension, fill values, 32-bit ints and floats, append mode, visibility
     after `sync`/`close` (`NetCDF_Model.v`).
   * `pandas.read_csv`: comments cut, split at blanks, field by field (`Logger_Model.v`).
   * SurfaceTopography: a topography is its grid, sizes, periodicity, unit and heights;
     `PlasticTopography.heights` = parent heights + plastic displacement.
   * scipy `ellipe`/`ellipk` = the complete elliptic integrals; `interp1d` = linear interpolation.

## What is modelled

| source file (`ContactMechanics/...`) | model | modelled | not modelled |
|---|---|---|---|
| `Optimization/ConstrainedConjugateGradients.py` | `CCG_Model.v` | the whole function: argument handling, masks, initial state, loop, convergence, result object, callback calls, counters; the log calls (`SolverLog_Model.v`) | masked arrays other than through `mask` |
| the same, second model in floating point | `Float_Model.v` | lines 175-509 operation by operation, with nan and infinities | more than one process, hardness per point, callback, log; `math.sqrt` of negative numbers; the default of `pentol` |
| `FFTElasticHalfSpace.py` 43-886 | `HalfSpace_Model.v` | constructor, Green's function (1D, 2D, thickness, `stiffness_q0`), evaluations in real and Fourier space, energies, scalar products on subdomains | overflow branch of the thickness correction (dead over the reals); `1/0` |
| `FFTElasticHalfSpace.py` 888-1615 | `Free_Model.v` | free and semi-periodic half-spaces, padding, boundary mask and check, `get_G_real`, `spawn_child` | parallel transform of the influence function |
| `Substrates.py`, `Systems.py`, `PlasticSystemSpecialisations.py` | `Systems_Model.v`, `Bounds_Model.v` | construction, evaluation, objectives, Hessian products, `minimize_proxy` variants as state machines | `handles` (never used), logging, decomposed runs except the dual energy |
| `Factory.py` | `Factory_Model.v` | `make_system`, `make_plastic_system`, dispatch on names, keywords | `communicator`, `fft`, `superclass` |
| `PipelineFunction.py` | `Pipeline_Model.v` | `contact_mechanics`: argument checks, step rule, loop, plastic bookkeeping, callback, returned arrays | warnings; array-valued hardness; numpy arrays as `offsets` |
| composition of the above | `Contact_Model.v` | the pipeline with the real solver on the real half-spaces (C74-C80) | parallel runs, masked points, initial guesses |
| `CommandLineInterface/HardWall.py` | `HardWall_Model.v`, `TextMap_Model.v`, `NetRun_Model.v`, `Cli_Model.v` | schedule, log lines, frames, maps and their text, file names, units, hardness, `tuple2` | option parsing, screen output |
| `IO/NetCDF.py` | `NetCDF_Model.v`, `NetCDF_Open_Model.v` | containers, frames, attributes, global data, sync/close/reopen, slices, `open('name@n')`, `set_grid` | scipy instead of netCDF4, writing to negative indices after wrapping, `set_grid` outside the grid |
| `Tools/Logger.py` | `Logger_Model.v` | logger state machine, templates, backups, warnings, `read_convergence_log` | nested/empty vectors, nan/inf |
| `Tools/common.py` | `Tools_Model.v` | all functions | |
| `ReferenceSolutions/Hertz.py`, `Westergaard.py`, `Cone.py`, `GreenwoodTripp.py` | `Hertz_Model.v`, ..., `GreenwoodLimits_Model.v` | all functions | integer arrays, nan arguments, scalars in `Westergaard._pressure`, script part of `Cone.py` |
| `GreensFunctions/Isotropic.py`, `Anisotropic.py` | `Isotropic_Model.v`, `Anisotropic_Model.v` | all functions | `q = 0` of the isotropic Green's function, `_make_U` with `z`, `rcond` |
| `/repo/examples/simple_polonsky_keer.py` 53-343 | `Simple_Model.v` | `constrained_conjugate_gradients`: default tolerance, initial state, loop, flags, result object | log text, the script around it, the nan check |

Not modelled: `test_surface_topography.py`, `__init__.py` files, the other `examples/`, `commandline/`,
`snippets/`, `maintenance/`, `docs/`, tests.  Outside the scope of every theorem except C85 and C88: rounding; outside all of them:
wall-clock time; memory; convergence of the solver in general (C79 bounds the iterations once the contact area is settled; C80 shows surfaces on which it never converges).

Further simplifications that concern single theorems: the mean of an empty array (nan) is 0
in `Pipeline_Model.v`; a topography that is plastic itself and is run with `nsteps` and no
hardness loses its plastic displacement (modelled, `ex_wiped`); `make_contact_system` with
positional arguments always raises TypeError and is modelled by its keyword form.

## Plan per property

* **C01 Solver result is self-consistent.** Solver loop as total function `run` with fuel maxiter over a state record; invariant u = disp f; proved by induction on iterations.
* **C02 No force outside the topography or on masked points.** Invariant `f = 0 outside comp_mask` on the loop.
* **C03 Iteration and evaluation accounting.** Ghost counters are real fields of the result record; induction on fuel; callback trace as list.
* **C04 Converged elastic result satisfies the contact constraints to tolerance.** Case analysis of the converging iteration with invariants f<=0 and f=0 outside c_r.
* **C05 Success implies no interpenetration beyond pentol.** Refuted by Q-witness run transferred to R; partial positive result is C04.
* **C06 Success implies no tensile force.** Refuted by Q-witness run; positive result for final status cg/mix.
* **C07 Force control delivers the requested force.** Case analysis of converging iteration.
* **C08 Displacement control keeps the prescribed offset.** Loop invariant offset = offset0.
* **C09 An exact solution is a fixed point.** Direct symbolic execution of iteration 1.
* **C10 Out-of-contact surfaces give zero force.** Direct symbolic execution of iteration 1.
* **C11 Only the sum of heights and offset matters.** Simulation between two runs.
* **C12 Result does not depend on the MPI decomposition.** Reductions parameterised by the list of per-process index lists; permutation invariance; simulation.
* **C13 Unit independence.** Simulation with scaled states.
* **C14 Symmetry of surface and substrate is inherited by the solution.** Simulation with relabelled states.
* **C15 Plastic forces never exceed the hardness.** Refuted in general (witness), invariant 0<=-f<=H proved for displacement control while the contact set is unchanged.
* **C16 Mixing steps come in blocks.** Invariant on mixsteps along the trace of statuses.
* **C17 Every Polonsky-Keer step is an exact line search.** Quadratic minimisation argument with self-adjointness; loop invariants.
* **C18 Accuracy of a converged solution.** Variational inequality argument on top of C04.
* **C19 Degenerate solver inputs fail loudly.** The front end (pentol heuristics, argument handling) modelled with exceptions.
* **C20 Force and displacement evaluation are inverse to each other.** DFT on Z_N over Coquelicot C, roots-of-unity orthogonality, half-complex packing proved equal to the full transform.
* **C21 Linearity and translation invariance of the response.** Linearity of sums; shift theorem.
* **C22 Reciprocity (self-adjointness).** Convolution kernel form: disp is convolution with an even real kernel.
* **C23 Elastic energy is non-negative and vanishes only for uniform displacement.** Parseval plus non-negative weights.
* **C24 Real-space and Fourier-space energies agree.** Parseval with the row-weight logic of evaluate_scalar_product_k_space.
* **C25 Force is minus the gradient of the energy.** Bilinear expansion from C22.
* **C26 Net force of a periodic half-space.** Zero mode of the DFT.
* **C27 A sinusoidal displacement is an eigenmode.** Evaluation of the DFT of a cosine.
* **C28 x/y exchange symmetry.** Symmetry of the full-spectrum form.
* **C29 Fourier-space scalar product is decomposition independent.** Row slabs as contiguous index ranges; fact0/factmiddle/factend logic transcribed.
* **C30 Local Green's function is a slice of the global one.** Green's function as function of local index and slab location; IndexError as value; the 1D failure is a counterexample.
* **C31 Finite thickness response.** Real analysis of the thickness correction (sinh/cosh inequalities, limits).
* **C32 Constructor validates its arguments.** Decision function with exception kinds; iff theorem.
* **C33 Free half-space computes the aperiodic convolution.** Circulant convolution on doubled grid restricted to half indices; no wraparound by index arithmetic.
* **C34 Padded and unpadded forces agree, wrong shapes are rejected.** Shape dispatch modelled; zero padding lemma.
* **C35 Free-space influence function is symmetric and positive.** Closed form with logarithms; positivity by monotonicity/mean value argument.
* **C36 Boundary check detects force on the rim.** Serial iff theorem; decomposition counterexample as refutation.
* **C37 spawn_child keeps grid spacing.** Arithmetic.
* **C38 Semi-periodic half-space is the image-summed convolution.** Same convolution lemma; image sums as finite sums.
* **C39 get_G_real centres the influence function.** Index arithmetic of fftshift-like roll.
* **C40 Primal objective has the reported gradient.** Bilinear expansion.
* **C41 Dual objective has the reported gradient.** Bilinear expansion.
* **C42 Primal and dual problems have the same solution.** Convexity and KKT argument.
* **C43 System state after minimize_proxy.** State machine of system attributes over arbitrary optimiser results.
* **C44 Plastic system updates the topography where it flowed.** State machine; pointwise statement.
* **C45 Optimiser-shape conversion is lossless.** Row-major flatten/reshape on lists.
* **C46 Mismatched substrate and surface are rejected.** Decision function over tuples and lists; other exceptions excluded by construction.
* **C47 Energy bookkeeping of evaluate.** Unfolding against independent spec.
* **C48 contact_mechanics accepts exactly one control mode.** Decision function over option arguments; solver, callback and rms height arbitrary; KeyError for unknown names.
* **C49 contact_mechanics returns one record per step in the right order.** The whole run is explained by a list of solver calls (record `explains` of Pipeline_Spec.v); all other statements are read off it.
* **C50 Stepwise displacement selection.** Transcription of the choice function; independent relation (stable sorting, first largest ratio), uniqueness; counterexamples for extension and height reference.
* **C51 Pipeline output is physical.** Pointwise statements about the maps of a step; counterexamples for the gap.
* **C52 NetCDF container reads back what was written.** Datasets, files and handles as finite maps; histories of operations as lists; frame property by induction.
* **C53 Frame cursor and indexing.** Same state machine; cursor and length as functions of the history.
* **C54 Logger output frequency.** State machine over call lists; the printed calls are counted independently in the specification.
* **C55 Logger never loses lines.** File system as finite map; commutation of attaching and logging.
* **C56 Convergence log round trip.** Formatting and parsing on lists of characters, including `%e` rounding with 13 digits.
* **C57 Hertz formulas are mutually consistent.** Real algebra with Rpower/sqrt; derivative with Coquelicot.
* **C58 Hertz stress fields agree with each other.** Derivatives, integrals and limits with Coquelicot; both interior fields compared at every depth.
* **C59 Westergaard solution is consistent.** Trigonometric identities, Riemann integrals over a period, derivative of the energy.
* **C60 Cone solution is consistent.** Real analysis with arcosh; integral over the disc; counterexamples for area and deformation.
* **C61 Greenwood-Tripp solution.** Loop with fuel; `quad`/`simpson` arbitrary; elliptic integrals by their integral definition.
* **C62 Isotropic surface Green's function.** Elastic field of the half space constructed explicitly; Hermitian positive definite by eigenvalues.
* **C63 Anisotropic surface Green's function.** Tensor sums over 3^4 indices; the field is assembled from the modes the library functions return; counterexamples by algebra in the rationals and reals.
* **C64 make_system dispatch.** Decision function over keyword lists.
* **C65 compare_containers compares entries regardless of the outer container type.** Structural induction on nested containers.
* **C66 Wavevector helpers.** DFT lemmas.
* **C67 Hard-wall command line: schedule, log, NetCDF frames and maps.** Events (log lines, frames, maps) of a run as a list; explained by a list of finished calculations; equality with contact_mechanics as simulation.
* **C68 Loaded points touch the surface.** Last line search step bounds the gap on loaded points; counterexample without the step length condition.
* **C69 Zero force is only accepted in the first iteration.** Relative change of a zero total force is not below the tolerance.
* **C70 Numerical gradient and mean error helpers.** Mean value theorem per coordinate; exactness for quadratics.
* **C71 Interior stress fields are in equilibrium.** Derivatives of the closed forms, off the contact edge.
* **C72 Surface tractions of the interior stress fields.** Limits of the closed forms at zero depth.
* **C73 NetCDF containers: files on disk.** File system state machine of C52.
* **C74 contact_mechanics end to end: maps are elastic states.** Solver, systems, pipeline and half-spaces composed (Contact_Model.v); u = disp f carried through slices and divisions.
* **C75 contact_mechanics end to end: no contact and full contact.** One symbolic iteration of the solver (C09, C10) through the whole composition; plane waves by their transform.
* **C76 contact_mechanics end to end: prescribed pressure.** Symbolic execution of up to three iterations in force control.
* **C77 contact_mechanics end to end: the description of the surface does not matter.** Simulation (CCG_Sim.v) of the run on the moved surface by the run on the original one, through solver, half-space, system and pipeline.
* **C78 The contact problem has exactly one solution, and computed states are near it.** Projected iteration for existence (Signorini_Base.v), positive definiteness of the response for uniqueness and distances (Signorini_Periodic.v); computed states through C74 and the solver's convergence results.
* **C79 Once the contact area no longer changes, the solver needs at most one iteration per contact point.** Conjugate directions on the settled contact area (CG_Base.v, CCG_Finite.v), read off the iterates of the modelled loop (CCG_FiniteRun.v); at most N orthogonal non-zero gaps fit on N points.
* **C80 Conjugate gradients are reset when points join the contact, not when points leave; a run without any force left never recovers.** Step of the modelled loop as a projected step (CCG_Stuck.v); an exact run on two rows of points (CCG_Stuck2.v), whose responses on the 15 x 1 half-space come from the sine wave of C75.
* **C81 The stand-alone example solver computes the library's iterates and stops no later.** Separate transcription of the example (Simple_Model.v) and a simulation, step by step, of the library model's loop (Simple_Proofs.v).
* **C82 At a given load the solver finishes within one iteration per contact point once the contact area settles.** The loop of C79 on the hyperplane of forces with the given sum: the residual is the gap above its mean over the contact area (CCG_FiniteForce.v); executed rational run for the refutation.
* **C83 The elastic energy is the work of the load; energy and load depend continuously on the surface.** Reciprocity turns the energy difference of two states into half their distance plus the work of one pressure on the gap of the other (Work_Proofs.v); with C78 also for computed states.
* **C84 Contact with a hardness: one solution, and what the plastic solver returns.** Existence by the projection of Plastic_Base.v onto pressures between zero and H, uniqueness and bounds by the distance of two states (Plastic_Proofs.v); the exit conditions of the loop with a hardness (CCG_Plastic.v), coupling to the elastic run (CCG_Harden.v), a mixing run with decreasing mixing factor (CCG_Spurious.v).
* **C85 The contact solver in floating point arithmetic: success means finite numbers, undefined input is reported.** Second model of the solver in an arithmetic given by the laws of Float_Spec.v (Float_Model.v): one process, one hardness for all points; the laws are proved for binary64 of Coq's SpecFloat (Float_IEEE.v), runs are executed in it (Float_Witness.v). The substrate enters as a map that returns non-finite displacements for non-finite forces, proved for matrix multiplication; for the FFT this is assumed. `C85_exact`: over real numbers with one undefined value (`XArith`, FloatExact_Spec.v) this model and CCG_Model.v are the same function of the problem (`same_problem`), so the two transcriptions check each other; the surface must have a point.
* **C86 The log that a solver run leaves behind.** The reports of CCG_Model.v turned into the status calls of lines 448-503 (SolverLog_Model.v) and handed to the logger of Logger_Model.v; expected text from Logger_Spec.v, areas and loads recomputed from the callback forces (SolverLog_Spec.v).
* **C87 NetCDF: slices, frames by file name, parts of a grid.** Python's slice.indices, range and int, and the splitting of names are modelled in NetCDF_Open_Model.v; the specification filters the list of frames (NetCDF_Open_Spec.v). Partial grids are part of NetCDF_Model.v and of the sessions of C52, C53 and C73.
* **C88 The contact solver in floating point arithmetic: how far its numbers are from the exact contact problem.** Model and laws of C85, together with the rounding errors of Float_Round_Spec.v, which also defines the bounds and the contact problem for real numbers. The rounding errors are proved for doubles with Flocq (Float_Double.v), a run is executed (Float_Double_Witness.v). Only elastic runs whose last step kept the contact area; the gap in contact needs a last step length other than zero, because the solver sets its residual to zero otherwise. `C88_half_space` (Prop_FloatHalfSpace.v): the same on the periodic half-space with all points on the surface; the rounding of the fast Fourier transform is not modelled, its error is the parameter `rho` (`responds`), and the exact response is that of Contact_Spec.v.
* **C89 The text maps of the command line are read back exactly.** TextMap_Model.v models the text of the maps (HardWall.py 196-240) and of `np.savetxt`/`np.loadtxt`; the digits are those of correct rounding to 19 digits. `float` is the specification `reads` of TextMap_Spec.v: the nearest double, so that either choice at a tie is covered. In `C89_run` the values of the calculation are real numbers, as in HardWall_Model.v, and the last part says what holds for those that are doubles. The text of a number in the comment (`'{}'.format`), the version and the command line are arbitrary. `C89_title_refuted`: value and title of a contact map share a line.
* **C90 The NetCDF file of the command line holds the calculations exactly.** NetRun_Model.v writes the frames of HardWall_Model.v through the container of NetCDF_Model.v (HardWall.py 186-193, 420-424, 557-558). The numbers of the file are those of NetCDF_Model.v, double variables. The solver is arbitrary, except that its forces have the grid of the topography and its displacements are not smaller (`fits_grid`) on the substrate of the run; `cli_fits` (Prop_Cli.v) proves this for the modelled solver. Closing of the file after an exception is left to the netCDF4 package and not modelled.
* **C91 The command line with the real solver: its results are states of the stated substrate.** Cli_Model.v puts the solver of CCG_Model.v, on the half-spaces of HalfSpace_Model.v and Free_Model.v, in the place of the arbitrary solver of HardWall_Model.v, including the choice of the tolerance when `--pentol` is missing (ConstrainedConjugateGradients.py 148-162). Exact arithmetic. The rms height, the reader of the topography, `detrend`, `float` and `int` stay arbitrary. `scanned_as` states that the area of a point of the topography is the product of its sizes divided by the number of points. The flag of convergence of a calculation does not appear in the output of the program; C91_pressures speaks of the result object. A thickness has to be positive, with a Poisson number below 1/2 (`possible_layer`).
* **C92 The contact map of the command line.** `hw_active` (Cli_Model.v) is `opt.active_set` of the solver call whose result the calculation is; `marked` counts the points of a map and `tolerated` states the tolerance of a calculation (CliMap_Spec.v). Exact arithmetic, elastic runs. The bound on the gap of marked points needs a calculation that has made a step, or that stopped at its start on the periodic half-space. `C92_light_refuted`: a load below the stiffness times the tolerance on a surface below the undeformed half-space is reported with a contact fraction of one and an empty contact map.
* **C93 The contact problem on every periodic substrate.** The problem is stated through evaluate_disp and evaluate_force of the model of C20-C31 (Substrate_Contact_Spec.v); the proofs of C78 for an arbitrary positive compliance of each wave are in Substrate_Contact.v. The solver is the real-number model of C01-C19; in load control the forces outside the contact are a hypothesis, because the solver spreads the load over all points when none is under compression. Prescribed loads: Prop_SubstrateLoad.v; Substrate_Witness.v executes a run on a line of two points.
* **C94 When the plastic solver mixes.** The rule is stated with the counts of C86 (SolverLog_Spec.v) over the forces the callback receives and with the list of steps.
* **C95 Fourier-space evaluators return the transforms.** The transform is fft2 of FFT_Base.v (a plain double sum); the code stores the frequencies up to n/2 in the first direction, and the theorems speak about these.
* **C96 Contact with a hardness on every periodic substrate.** touching_yielding (Substrate_Plastic_Spec.v) uses the substrate only through evaluate_disp; the solver theorem needs status cg in the last iteration and a step (or a run of one iteration), as in C84.
* **C97 Energy and load of the contact on every periodic substrate.** The energy is what evaluate returns (reported_energy, Substrate_Work_Spec.v), forces and displacements are linked only through evaluate_disp.
* **C98 The contact on a periodic substrate does not depend on the units.** The change of units is that of the constructor arguments, the surface and the call (Units_Spec.v); the new object is whatever the constructor returns. The root finder of the solver (scipy) is assumed to change units as well.
* **C99 Forces and energy of the free and semi-periodic half-spaces.** Stated on the substrates that the systems see (free s, semi s). The scalar product of line 684 is numpy's dot of the flattened arrays. Simplification: the copy of line 857 follows numpy's broadcasting for arrays of up to two axes.
* **C100 Free and semi-periodic half-spaces do not depend on the units.** The methods are compared as functions on arrays of any shape, including the errors. C100_run assumes sizes different from zero (padded_space).
* **C101 Symmetries of the free and semi-periodic half-spaces.** Sizes different from zero throughout. C101_placed is for the free half-space only (the images of a semi-periodic one depend on its size). C101_semi_exchange takes both half-spaces as constructed.
* **C102 Contact on a free half-space does not depend on the size of the domain.** The claim of examples/decoupling.py. The iterations of two solver runs on domains of different size are not the same (the first forces come from evaluate_force on the padded grid), so the theorem is about their results. That a converged run is in contact needs the conditions of C18 (status cg, a last step).
* **C103 The command line on layers: frames against the contact problem.** C91 gives the error bounds for the half-space in units of its modulus; here the forces of the file itself, and layers. The heights h are arbitrary (for a plastic run the deformed ones). How large the violations are in a converged calculation is C93_solver.
* **C104 Limits of the asymptotic formulas of Greenwood and Tripp.** GreenwoodLimits_Model.v transcribes the masks and the assignments in the order of the lines; with the default limits it is the function of C61 (C104_default). Square roots of negative elements (nan) are left out.
* **C105 The contact solver on layers and lines: exact line search and number of iterations.** C17, C79 and C82 on every periodic substrate. That the contact area settles is a hypothesis, as there; the example executes the line of two points of Substrate_Witness.v with rationals, in both modes.
* **C106 Units and table of the command line.** The statements contain the table of units and the titles as texts, independent of the model's; the numbers of the lines are those of C67_output.
* **C107 Minimisation over the displacements.** The optimiser is an interaction tree (ask the objective, ask the Hessian product, finish with a result or an exception); scipy itself is not modelled.
* **C108 Bounds of the minimisation over the displacements.** Bounds_Model.v models the whole call (bounds, method names, text arguments, number of processes); masked entries are None and become infinite bounds. What an optimiser does with its bounds is a hypothesis (keeps_low, keeps_upp, optimal_low); optimisers that satisfy them are defined beside the theorems. logger and callback are left out, methods are names, and an optimiser that returns no jac (AttributeError) is not modelled.

## Axioms per theorem

Letters as under "Trusted base".  Theorem names without the prefix `Cnn_`.

| property | status | axioms: theorems |
|---|---|---|
| C01 | proved | **ER**: self_consistent |
| C02 | proved | **ER**: no_force_off_surface |
| C03 | proved | **ER**: counters |
| C04 | proved | **ENR**: converged_constraints |
| C05 | partial | **ER**: no_penetration_refuted, force_control_refuted; **ENR**: no_penetration_partial |
| C06 | partial | **ER**: no_tension_refuted; **ENR**: no_tension_partial |
| C07 | proved | **ER**: force_control, force_exact, force_total |
| C08 | proved | **ER**: offset_kept |
| C09 | proved | **ER**: exact_solution_fixed, exact_solution_fixed_force |
| C10 | proved | **ER**: no_contact |
| C11 | proved | **ER**: height_reference |
| C12 | proved | **ER**: decomposition |
| C13 | proved | **ER**: units |
| C14 | proved | **ER**: relabel, symmetric |
| C15 | partial | **ER**: hardness_bound_refuted, hardness_bound_partial |
| C16 | proved | **ER**: elastic_never_mixes, mixing_blocks |
| C17 | proved | **ER**: line_search |
| C18 | partial | **ENR**: accuracy_partial, accuracy_refuted |
| C19 | proved | **ER**: no_iterations, hardness_array, flat_without_offset |
| C20 | proved | **EKNR**: inverse, inverse_up_to_mean |
| C21 | proved | **ENR**: linear, translation |
| C22 | proved | **ENR**: reciprocity |
| C23 | proved | **EKNR**: energy_nonneg |
| C24 | proved | **ENR**: energies_agree; **ER**: evaluate_k_returns_force |
| C25 | proved | **ENR**: expansion; **EKNR**: gradient |
| C26 | proved | **EKNR**: net_force, net_force_default, net_force_thickness |
| C27 | proved | **EKNR**: eigenmode |
| C28 | proved | **ENR**: exchange |
| C29 | proved | **ENR**: scalar_product, energy |
| C30 | proved | **ENR**: slice, index_error, 1d_slice_refuted |
| C31 | proved | **EKNR**: layer, thick_limit, zero_wavevector, 1d_thickness_refuted |
| C32 | proved | **ER**: error_iff, accepts_iff, sizes; **ENR**: 1d_stiffness_q0_zero_refuted |
| C33 | proved | **EKNR**: free_convolution, one_dimensional_raises |
| C34 | proved | **EKNR**: padded_agrees, semi_padded_agrees, wrong_shape_raises, semi_wrong_shape_raises; **R**: parallel_padding |
| C35 | proved | **EKNR**: influence_even_positive, influence_integral, self_adjoint, displacement_sign |
| C36 | partial | **ER**: check_boundaries, check_boundaries_serial, decomposition_refuted; **EKNR**: check_option; **-**: boundary_mask |
| C37 | partial | **EKNR**: spawn_child, child_response, semi_child_refuted |
| C38 | proved | **EKNR**: semi_convolution, semi_shift, no_period_is_free, semi_self_adjoint_positive |
| C39 | proved | **EKNR**: get_G_real |
| C40 | proved | **ENR**: primal_value, primal_gradient, wrong_size_raises; **EKNR**: free_raises |
| C41 | proved | **ER**: parallel_whole, parallel_partition, parallel_refuted; **ENR**: dual_gradient; **EKNR**: dual_gradient_free, dual_gradient_semi; **-**: without_gradient_raises |
| C42 | proved | **EKNR**: primal_optimality, dual_optimality, swap, swap_back, same_solution, unique, free_minimiser |
| C43 | proved | **ER**: success, failure, history, gap_energy_refuted, primal_success, dual_success, argument_errors; **ENR**: relative_area |
| C44 | proved | **ER**: plastic_success, plastic_failure, plastic_history |
| C45 | proved | **-**: round_trip, wrong_size_raises; **ER**: objective_of_flat |
| C46 | proved | **ER**: comparison; **-**: rejected_iff, fresh |
| C47 | proved | **ER**: gap_repeats, lower_bounds; **ENR**: evaluate, objective |
| C48 | proved | **EKNR**: one_mode, accepted, unknown_substrate, default_substrate, no_steps, value_error_refuted |
| C49 | proved | **EKNR**: records, callback, offsets, pressures, independent, prefix, sorted_refuted |
| C50 | proved | **EKNR**: choice, extends_refuted, height_reference_refuted; **ER**: unique, cases, bisects |
| C51 | proved | **EKNR**: maps, arrays, mean_gap, mean_gap_refuted, plastic_gap_refuted |
| C52 | proved | **EKNR**: read_back, precision, write_succeeds, whole_file, attributes, int_first_refuted, single_precision_refuted, underscore_refuted, hidden_attribute_refuted |
| C53 | proved | **-**: negative_index, iteration, next_frames, open_from_end; **EKNR**: length, length_new, append, append_new, append_mode_refuted |
| C54 | proved | **EKNR**: frequency, rejects; **-**: every_nth, resets |
| C55 | proved | **EKNR**: late_attach, one_file_per_iteration, never_overwrites, screen_twice_refuted; **-**: template_attach, plain_name_refuted, detach_refuted |
| C56 | proved | **EKNR**: roundtrip, blank_refuted, colon_refuted, message_first_refuted, long_vector_refuted, special_refuted, columns, fits |
| C57 | proved | **EKNR**: inverse, radius, energy; **ENR**: increasing |
| C58 | proved | **EKNR**: arrays, pressure, load, continuous, center, contact, surface, axis, huber_hamilton, axis_limit |
| C59 | proved | **EKNR**: inverse, pressure, gap, slope, energy, arguments, mean_pressure_unit_refuted |
| C60 | partial | **ENR**: ratios; **EKNR**: area_refuted, pressure, surface, deformation, deformation_edge, deformation_refuted, deformation_outside |
| C61 | partial | **EKNR**: iteration, residual, exact, large_tolerance, nonnegative, bad_eps, s; **ENR**: inverse_refuted, inverse_ends |
| C62 | partial | **EKNR**: half_space; **ENR**: normal, symmetries, positive, inverse, small_wavevector_refuted, zero, arrays |
| C63 | proved | **ER**: rotation, invariance, accepts, handedness, rotation_check_refuted; **ENR**: integers_refuted, hermitian, inverse, zero, eigenvalues, isotropic_eigenvalues, isotropic_refuted, rotated_refuted, scalar_refuted; **EKNR**: half_space, layer |
| C64 | proved | **EKNR**: periodic, free, instance, matching, raises, contact_functions, reader, reader_kind, sizes_refuted |
| C65 | proved | **ER**: containers, others, equivalence, nested_types_matter |
| C66 | proved | **ENR**: wavevectors, wavevectors_1d, wavevectors_raise, fftn_inverse, fftn_zero_mode, q_from_lambda, q_from_lambda_raises |
| C67 | proved | **EKNR**: output, accepts, rejects, schedule, maps, modulus, pipeline, pipeline_pressures, displacement_refuted, header_refuted, height_unit_refuted, stated_modulus_refuted, contact_map_refuted, plastic_refuted; **ER**: asked, surface; **-**: names |
| C68 | partial | **ENR**: complementarity_partial, complementarity_refuted |
| C69 | proved | **ER**: zero_force_not_accepted_later |
| C70 | proved | **EKNR**: gradient; **ER**: gradient_exact, gradient_raises, mean_err, mean_err_shapes, mean_err_rfft; **ENR**: checks_primal_gradient |
| C71 | proved | **EKNR**: normal, tangential |
| C72 | proved | **EKNR**: normal, tangential, axis_limit, reciprocal |
| C73 | proved | **EKNR**: read_only, write_raises, grid_raises, other_files |
| C74 | proved | **EKNR**: periodic, free, returns, no_iterations, offsets, pressures |
| C75 | proved | **EKNR**: no_contact, full_contact, wave |
| C76 | proved | **EKNR**: flat, light_load, contact_refuted |
| C77 | proved | **EKNR**: moved, symmetry, symmetric_surface, reference, units |
| C78 | proved | **ENR**: one_state, load_curve, one_load; **EKNR**: distance, load_error, solution, solver, start |
| C79 | proved | **ER**: restart, orthogonal, energy, closed, exact, stops; **EKNR**: half_space |
| C80 | proved | **ER**: shrinks, fresh, joined, dead_end, reset_refuted, no_restart_refuted; **EKNR**: long, maxiter_refuted |
| C81 | proved | **ENR**: same_iterates, offset_control, force_control, both_fail, success, callback, no_iteration, default_tolerance, default_flat, library_later_refuted |
| C82 | proved | **ER**: start, carried, orthogonal, energy, closed, exact, stops, after_joining_refuted; **EKNR**: half_space, half_space_start |
| C83 | proved | **ENR**: work, least, surfaces, continuous; **EKNR**: steps, solver |
| C84 | proved | **ENR**: one_state, load_curve, one_load, elastic, full, flattened, conditions; **ER**: mask, unreached, mixing_refuted; **EKNR**: solver, step, history, step_cg, start |
| C85 | proved | **-**: result, finite, heights, elastic_heights, outside, pressure, penetration, free, maxcv, load, elastic_nan, elastic_exn, active, active_first, binary64, matrix, plastic_nan_refuted; **ENR**: exact; **ER**: exact_all |
| C86 | proved | **ENR**: rows, exception, area, plastic_area, converged_row, printed, header, last_area_refuted; **EKNR**: file, unreadable_refuted, header_refuted |
| C87 | proved | **-**: slice, slice_exists, slice_laws, open_frame, past_end, open_text, open_container, below_refuted, amber_refuted; **EKNR**: round_trip, grid, tiles, open_refuted, padding_refuted |
| C88 | proved | **ENR**: half_space, half_space_load, half_space_exists, penetration, touch, pressure, load, response, accuracy, distance; **EKNR**: double |
| C89 | proved | **EKNR**: double, table, break_refuted, run, lines, title_refuted; **ER**: contact; **-**: size |
| C90 | proved | **EKNR**: file, unfinished |
| C91 | proved | **EKNR**: states, pressures, distance, runs, flat_refuted, file |
| C92 | proved | **EKNR**: map, light_refuted |
| C93 | proved | **EKNR**: one_state, load_curve, stiffness, at_load, distance, load_error, solver, at_load_any, load_distance, solver_load, q0_no_effect; **ENR**: floating_none |
| C94 | proved | **ER**: kind; **ENR**: mixfac |
| C95 | proved | **ENR**: disp, force, force_k, shape; **EKNR**: inverse |
| C96 | proved | **EKNR**: one_state, load_curve, at_load, full, load_error, solver; **ENR**: elastic, flattened |
| C97 | proved | **EKNR**: energy, work, least, surfaces, result, solver |
| C98 | proved | **ENR**: construct, response, contact, yielding, energy, run |
| C99 | proved | **EKNR**: energy, reciprocity, gradient, inverse, padding, shapes, repeats, spread; **ENR**: periodic_repeats |
| C100 | proved | **EKNR**: construct, disp, force, energy, check, child, run |
| C101 | proved | **EKNR**: placed, mirror, exchange, semi_exchange, monotone |
| C102 | proved | **EKNR**: larger, smaller, solver |
| C103 | proved | **EKNR**: states, error, curve |
| C104 | proved | **ENR**: default, inverse; **EKNR**: accuracy, increasing, crossed |
| C105 | proved | **EKNR**: line_search, offset, load |
| C106 | proved | **ER**: heights; **EKNR**: unknown_unit, titles, header |
| C107 | proved | **R**: state, result, size_raises; **ER**: forces; **EKNR**: stationary |
| C108 | proved | **R**: arrays, given, state, errors; **ER**: auto, contact, other_methods, default; **ENR**: penetrates; **EKNR**: touching, unique |
