{"id": "C01", "title": "Solver result is self-consistent", "statement": "Whatever constrained_conjugate_gradients returns (converged or not), result.x equals substrate.evaluate_disp of the force field that is -result.jac on the topography domain and zero elsewhere, and result.fun equals one half of the sum of result.jac times result.x over the topography domain.", "quantifier": "every substrate response function, topography, mask, control mode, tolerance, initial guess and iteration limit; no hardness or a non-negative one", "why_tests_cant": "a test sees a handful of converged runs; the claim must hold after any number of iterations and on the non-converged exit too", "anchors": ["ContactMechanics/Optimization/ConstrainedConjugateGradients.py:constrained_conjugate_gradients (lines 187-509)"]}
{"id": "C02", "title": "No force outside the topography or on masked points", "statement": "The force field handed to evaluate_disp in every iteration, and the returned result.jac, are exactly zero on padding points and on masked (undefined) topography points whenever the hardness is absent or non-negative.", "quantifier": "every iteration of every run, every mask, every substrate with or without padding region", "why_tests_cant": "needs an invariant over all iterations and all branches (CG, mixing, rescaling, truncation)", "anchors": ["ContactMechanics/Optimization/ConstrainedConjugateGradients.py:constrained_conjugate_gradients (lines 188-231, 253-298, 316, 351-387)"]}
{"id": "C03", "title": "Iteration and evaluation accounting", "statement": "A returned result has 1 <= nit <= maxiter; success=False happens only with nit = maxiter and message 'Reached maxiter = N'; success=True comes with 'Polonsky converged'; nfev equals 1 + 2 per Polonsky-Keer step + 1 per mixing step; callback is invoked exactly once per non-converged iteration, in order, with the iteration number.", "quantifier": "every run and every maxiter >= 1", "why_tests_cant": "ranges over all run lengths and branch histories", "anchors": ["ContactMechanics/Optimization/ConstrainedConjugateGradients.py:constrained_conjugate_gradients (lines 205-226, 242, 281, 397, 461-509)"]}
{"id": "C04", "title": "Converged elastic result satisfies the contact constraints to tolerance", "statement": "If an elastic run (no hardness) succeeds and its last iteration left the contact area unchanged (status 'cg' in the log), then the gap x - heights - offset is larger than -pentol at every topography point and all returned forces are non-negative.", "quantifier": "every substrate, topography, offset or non-negative external force, initial guess, and number of iterations", "why_tests_cant": "the solver only tests a subset of these quantities, and of the previous iterate; the conclusion needs an invariant", "anchors": ["ContactMechanics/Optimization/ConstrainedConjugateGradients.py:constrained_conjugate_gradients (lines 253-298, 334-355, 374-446)"]}
{"id": "C05", "title": "Success implies no interpenetration beyond pentol", "statement": "Whenever result.success is True, no point of the topography penetrates the substrate by more than pentol.", "quantifier": "every elastic run, every initial guess, every iteration history", "why_tests_cant": "counterexamples need particular iteration histories or initial guesses no test uses", "anchors": ["ContactMechanics/Optimization/ConstrainedConjugateGradients.py:constrained_conjugate_gradients (lines 407-446)"]}
{"id": "C06", "title": "Success implies no tensile force", "statement": "Whenever result.success is True in an elastic run, all returned forces (result.jac) are non-negative.", "quantifier": "every elastic run and iteration history", "why_tests_cant": "counterexamples need a negative step length in the last iteration", "anchors": ["ContactMechanics/Optimization/ConstrainedConjugateGradients.py:constrained_conjugate_gradients (lines 272-292, 378-384)"]}
{"id": "C07", "title": "Force control delivers the requested force", "statement": "If a run with external_force=F succeeds, the sum of result.jac differs from F by less than thermotol times that sum; in an elastic run whose last iteration has status 'cg' it equals F exactly (if no point was under compression, every one of the n surface points gets F/n).", "quantifier": "every force-controlled run", "why_tests_cant": "must hold for all surfaces, loads and histories", "anchors": ["ContactMechanics/Optimization/ConstrainedConjugateGradients.py:constrained_conjugate_gradients (lines 357-364, 421-423)"]}
{"id": "C08", "title": "Displacement control keeps the prescribed offset", "statement": "Without external_force the returned result.offset is exactly the offset argument (0 when it is None), on success and on failure.", "quantifier": "every displacement-controlled run", "why_tests_cant": "requires an invariant over the loop", "anchors": ["ContactMechanics/Optimization/ConstrainedConjugateGradients.py:constrained_conjugate_gradients (lines 176-177, 257-262, 311-317, 479, 507)"]}
{"id": "C09", "title": "An exact solution is a fixed point", "statement": "Started (via initial_forces) from forces that exactly solve the elastic contact problem at the given offset, the solver returns after one iteration with success, with exactly these forces and displacements.", "quantifier": "every substrate with self-consistent response, every topography, every exact solution, all positive tolerances", "why_tests_cant": "tests only check approximate convergence on particular surfaces", "anchors": ["ContactMechanics/Optimization/ConstrainedConjugateGradients.py:constrained_conjugate_gradients (lines 214-460)"]}
{"id": "C10", "title": "Out-of-contact surfaces give zero force", "statement": "If the rigid surface does not touch the undeformed substrate (heights + offset <= initial displacement = 0 at every point) and evaluate_force(0) = 0, evaluate_disp(0) = 0, a displacement-controlled elastic run returns success after one iteration with zero force and zero displacement.", "quantifier": "every topography, mask, positive tolerances, linear substrate", "why_tests_cant": "universally quantified over surfaces", "anchors": ["ContactMechanics/Optimization/ConstrainedConjugateGradients.py:constrained_conjugate_gradients (lines 179-460)"]}
{"id": "C11", "title": "Only the sum of heights and offset matters", "statement": "In displacement control (pentol given) adding a constant to all heights and subtracting it from the offset changes nothing in the result except result.offset.", "quantifier": "every topography, constant, substrate, hardness, history length", "why_tests_cant": "relational property over pairs of runs", "anchors": ["ContactMechanics/Optimization/ConstrainedConjugateGradients.py:constrained_conjugate_gradients"]}
{"id": "C12", "title": "Result does not depend on the MPI decomposition", "statement": "For any two partitions of the grid among processes the solver performs the same iterations and every process returns the restriction of the same global result.", "quantifier": "every pair of decompositions of the same grid, every input, including empty subdomains", "why_tests_cant": "a test runs one decomposition", "anchors": ["ContactMechanics/Optimization/ConstrainedConjugateGradients.py:constrained_conjugate_gradients (all uses of reduction)"]}
{"id": "C13", "title": "Unit independence", "statement": "Changing the unit of length (heights, offset, displacements, pentol) by a factor a>0 and the unit of force (forces, hardness, external force, forcetol) by b>0 scales every returned displacement by a, every force by b and the energy by ab, and leaves nit, success and the contact region unchanged.", "quantifier": "every a,b>0, every linear substrate, every input, every history", "why_tests_cant": "relational property over pairs of runs with arbitrary scale factors", "anchors": ["ContactMechanics/Optimization/ConstrainedConjugateGradients.py:constrained_conjugate_gradients"]}
{"id": "C14", "title": "Symmetry of surface and substrate is inherited by the solution", "statement": "If a relabelling of the grid points (translation, mirror, rotation) commutes with the substrate response, solving the relabelled problem yields the relabelled result.", "quantifier": "every permutation of the grid that commutes with the substrate, every input", "why_tests_cant": "relational property over pairs of runs", "anchors": ["ContactMechanics/Optimization/ConstrainedConjugateGradients.py:constrained_conjugate_gradients"]}
{"id": "C15", "title": "Plastic forces never exceed the hardness", "statement": "In a run with hardness H > 0 every returned force lies between 0 and H.", "quantifier": "every plastic run, control mode and history", "why_tests_cant": "a test samples a few surfaces; violation needs particular histories", "anchors": ["ContactMechanics/Optimization/ConstrainedConjugateGradients.py:constrained_conjugate_gradients (lines 249-251, 319-320, 338-341, 366-387)"]}
{"id": "C16", "title": "Mixing steps come in blocks", "statement": "A run without hardness never mixes; once a plastic run starts mixing it performs at least minmixsteps consecutive mixing iterations before the next Polonsky-Keer step.", "quantifier": "every run, minmixsteps and history", "why_tests_cant": "temporal property over all iteration histories", "anchors": ["ContactMechanics/Optimization/ConstrainedConjugateGradients.py:constrained_conjugate_gradients (lines 258-332)"]}
{"id": "C17", "title": "Every Polonsky-Keer step is an exact line search", "statement": "For a linear, self-adjoint, positive substrate response the force update along the search direction minimises the complementary energy along that direction and hence never increases it (displacement control).", "quantifier": "every state reachable in a run, every step length", "why_tests_cant": "minimality is a statement about all real step lengths in every reachable state", "anchors": ["ContactMechanics/Optimization/ConstrainedConjugateGradients.py:constrained_conjugate_gradients (lines 263-295)"]}
{"id": "C18", "title": "Accuracy of a converged solution", "statement": "For a linear self-adjoint positive substrate in displacement control, if an elastic run succeeds with final status 'cg', the difference between the returned forces f and any exact solution p satisfies <f-p, C(f-p)> <= pentol*(1+sqrt(#contact))*sum(f) + pentol*sum(p), C being the compliance.", "quantifier": "every substrate of that class, topography, offset, history", "why_tests_cant": "the exact solution is unknown for all but a few test surfaces", "anchors": ["ContactMechanics/Optimization/ConstrainedConjugateGradients.py:constrained_conjugate_gradients"]}
{"id": "C19", "title": "Degenerate solver inputs fail loudly", "statement": "maxiter=0 raises; per-pixel hardness arrays raise ValueError although documented as supported, or TypeError in a mixing step if the force is prescribed; a flat topography with external_force and neither offset nor pentol raises TypeError; no such call returns a result.", "quantifier": "all inputs in the named classes", "why_tests_cant": "claims about every input of a class", "anchors": ["ContactMechanics/Optimization/ConstrainedConjugateGradients.py:constrained_conjugate_gradients (lines 161-177, 238, 346-349)"]}
{"id": "C20", "title": "Force and displacement evaluation are inverse to each other", "statement": "For a periodic half-space whose surface stiffness is nowhere zero evaluate_force(evaluate_disp(f)) = f and evaluate_disp(evaluate_force(u)) = u for every field; with stiffness_q0 = 0 the first identity holds up to the mean value of f and the second up to the mean of u.", "quantifier": "every grid size (odd, even, 1), physical size, modulus, every field", "why_tests_cant": "infinitely many fields and grid sizes incl. parity dependent real-FFT packing", "anchors": ["ContactMechanics/FFTElasticHalfSpace.py:PeriodicFFTElasticHalfSpace.evaluate_disp", "ContactMechanics/FFTElasticHalfSpace.py:PeriodicFFTElasticHalfSpace.evaluate_force", "ContactMechanics/FFTElasticHalfSpace.py:PeriodicFFTElasticHalfSpace._compute_greens_function", "ContactMechanics/FFTElasticHalfSpace.py:PeriodicFFTElasticHalfSpace._compute_surface_stiffness"]}
{"id": "C21", "title": "Linearity and translation invariance of the response", "statement": "evaluate_disp and evaluate_force are linear, and commute with every periodic translation of the field.", "quantifier": "all fields, scalars, grid sizes, shifts", "why_tests_cant": "infinite input space", "anchors": ["ContactMechanics/FFTElasticHalfSpace.py:PeriodicFFTElasticHalfSpace.evaluate_disp", "ContactMechanics/FFTElasticHalfSpace.py:PeriodicFFTElasticHalfSpace.evaluate_force"]}
{"id": "C22", "title": "Reciprocity (self-adjointness)", "statement": "sum(f1*evaluate_disp(f2)) = sum(f2*evaluate_disp(f1)) for all force fields and likewise for evaluate_force.", "quantifier": "all pairs of fields, all grid sizes", "why_tests_cant": "infinite input space", "anchors": ["ContactMechanics/FFTElasticHalfSpace.py:PeriodicFFTElasticHalfSpace.evaluate_disp", "ContactMechanics/FFTElasticHalfSpace.py:PeriodicFFTElasticHalfSpace.evaluate_force"]}
{"id": "C23", "title": "Elastic energy is non-negative and vanishes only for uniform displacement", "statement": "For non-negative moduli the energy returned by evaluate(disp, pot=True, forces=True) is >= 0; it is zero only if the displacement is uniform (or zero when stiffness_q0 > 0).", "quantifier": "all displacement fields, all grids", "why_tests_cant": "infinite input space", "anchors": ["ContactMechanics/FFTElasticHalfSpace.py:PeriodicFFTElasticHalfSpace.evaluate", "ContactMechanics/FFTElasticHalfSpace.py:PeriodicFFTElasticHalfSpace.evaluate_elastic_energy"]}
{"id": "C24", "title": "Real-space and Fourier-space energies agree", "statement": "The energy returned by evaluate with forces=True equals the one with forces=False, and equals that of evaluate_k on the transform of the displacement.", "quantifier": "all displacement fields, odd and even grid sizes, 1D and 2D", "why_tests_cant": "parity-dependent weights of the half-complex spectrum for all sizes", "anchors": ["ContactMechanics/FFTElasticHalfSpace.py:PeriodicFFTElasticHalfSpace.evaluate", "ContactMechanics/FFTElasticHalfSpace.py:PeriodicFFTElasticHalfSpace.evaluate_k", "ContactMechanics/FFTElasticHalfSpace.py:PeriodicFFTElasticHalfSpace.evaluate_elastic_energy", "ContactMechanics/FFTElasticHalfSpace.py:PeriodicFFTElasticHalfSpace.evaluate_elastic_energy_k_space", "ContactMechanics/FFTElasticHalfSpace.py:PeriodicFFTElasticHalfSpace.evaluate_scalar_product_k_space"]}
{"id": "C25", "title": "Force is minus the gradient of the energy", "statement": "E(u+v) = E(u) - sum(F(u)*v) + E(v) exactly, so evaluate's force is minus the derivative of evaluate's potential in every direction.", "quantifier": "all fields u, v, all grids", "why_tests_cant": "derivative in all directions at all points", "anchors": ["ContactMechanics/FFTElasticHalfSpace.py:PeriodicFFTElasticHalfSpace.evaluate"]}
{"id": "C26", "title": "Net force of a periodic half-space", "statement": "The sum of evaluate_force(u) equals -k0*area_per_pt*sum(u), where k0 is stiffness_q0 if given (so the net force is zero for stiffness_q0 = 0), by default the (averaged) stiffness of the longest waves along the axes, and with a thickness h the uniaxial modulus divided by h.", "quantifier": "all displacement fields and grids", "why_tests_cant": "infinite input space", "anchors": ["ContactMechanics/FFTElasticHalfSpace.py:PeriodicFFTElasticHalfSpace.evaluate_force", "ContactMechanics/FFTElasticHalfSpace.py:PeriodicFFTElasticHalfSpace._compute_greens_function"]}
{"id": "C27", "title": "A sinusoidal displacement is an eigenmode", "statement": "The force needed for u = cos(q.x) with grid wavevector q (below Nyquist) is -area_per_pt * E*/2 * |q| * u in 2D and 1D, with q the minimum-image physical wavevector.", "quantifier": "every grid size, wavevector, modulus, physical size", "why_tests_cant": "all sizes and wavevectors", "anchors": ["ContactMechanics/FFTElasticHalfSpace.py:PeriodicFFTElasticHalfSpace._compute_greens_function", "ContactMechanics/FFTElasticHalfSpace.py:PeriodicFFTElasticHalfSpace.evaluate_force"]}
{"id": "C28", "title": "x/y exchange symmetry", "statement": "Exchanging the x and y axes (grid, sizes and field) exchanges the axes of the response although the real FFT treats the axes differently.", "quantifier": "all grids, sizes, fields", "why_tests_cant": "relational over all inputs", "anchors": ["ContactMechanics/FFTElasticHalfSpace.py:PeriodicFFTElasticHalfSpace.evaluate_disp", "ContactMechanics/FFTElasticHalfSpace.py:PeriodicFFTElasticHalfSpace.evaluate_force"]}
{"id": "C29", "title": "Fourier-space scalar product is decomposition independent", "statement": "The sum over processes of evaluate_scalar_product_k_space of the local Fourier subdomains of two transformed real fields equals the real-space scalar product of the two fields for every distribution of the Fourier points over rectangular subdomains, including empty ones; the Fourier-space energy is therefore the same on every decomposition.", "quantifier": "all grid sizes (parity), all rectangular decompositions, all fields", "why_tests_cant": "combinatorial family of decompositions", "anchors": ["ContactMechanics/FFTElasticHalfSpace.py:PeriodicFFTElasticHalfSpace.evaluate_scalar_product_k_space"]}
{"id": "C30", "title": "Local Green's function is a slice of the global one", "statement": "In two dimensions the Green's function and surface stiffness computed on any Fourier subdomain are the corresponding slice of those of a serial run; in the default zero-wavevector mode (stiffness_q0=None) the process holding the zero wavevector must own at least 2x2 Fourier points, and exactly otherwise construction raises IndexError. In one dimension this fails: every process overwrites the first entry of its own slab with the zero-wavevector value.", "quantifier": "all grids and subdomains", "why_tests_cant": "combinatorial family of decompositions", "anchors": ["ContactMechanics/FFTElasticHalfSpace.py:PeriodicFFTElasticHalfSpace._compute_greens_function"]}
{"id": "C31", "title": "Finite thickness response", "statement": "In two dimensions, with thickness h, the stiffness of every non-zero wavevector is the layer formula of Carbone and Mangialardi, is larger than that of the half-space and converges to it for h to infinity; the value stored for q=0 is the uniaxial modulus over h and the limit of the layer formula for q to 0. One-dimensional half-spaces silently ignore the thickness.", "quantifier": "all moduli, Poisson ratio in (-1,1/2), thicknesses, wavevectors", "why_tests_cant": "analytic statement over reals", "anchors": ["ContactMechanics/FFTElasticHalfSpace.py:PeriodicFFTElasticHalfSpace._compute_greens_function (lines 524-560)"]}
{"id": "C32", "title": "Constructor validates its arguments", "statement": "Constructing a periodic half-space raises Error exactly when the dimension is not 1 or 2, or both stiffness_q0 and thickness are given, or (the other arguments being usable) the supplied FFT engine has a different grid; shorter physical_sizes are extended by repeating the last value; grid spacing times grid points equals physical size. The documented value stiffness_q0=0 is never accepted in one dimension.", "quantifier": "all argument combinations", "why_tests_cant": "exhaustive over argument space", "anchors": ["ContactMechanics/FFTElasticHalfSpace.py:PeriodicFFTElasticHalfSpace.__init__"]}
{"id": "C33", "title": "Free half-space computes the aperiodic convolution", "statement": "For every two-dimensional grid evaluate_disp(f) on the topography domain equals minus the direct sum over source pixels of the free-space pixel influence function times f, divided by the pixel area; there is no wrap-around contribution from the periodic images of the doubled grid. A one-dimensional grid is rejected when constructing (TypeError).", "quantifier": "all grids, forces, physical sizes", "why_tests_cant": "infinite input space", "anchors": ["ContactMechanics/FFTElasticHalfSpace.py:FreeFFTElasticHalfSpace.evaluate_disp", "ContactMechanics/FFTElasticHalfSpace.py:FreeFFTElasticHalfSpace._compute_greens_function"]}
{"id": "C34", "title": "Padded and unpadded forces agree, wrong shapes are rejected", "statement": "evaluate_disp of a force array of topography size equals evaluate_disp of its zero-padded extension restricted accordingly; any array that has neither the topography nor the computation shape raises Error, also for the half-space that is periodic in one or both directions.", "quantifier": "all shapes and fields", "why_tests_cant": "exhaustive over shapes", "anchors": ["ContactMechanics/FFTElasticHalfSpace.py:FreeFFTElasticHalfSpace.evaluate_disp"]}
{"id": "C35", "title": "Free-space influence function is symmetric and positive", "statement": "The pixel influence coefficients are even in x and y, positive and (away from the loaded pixel) the integral of the Boussinesq kernel over the pixel; the free response is self-adjoint, and a force of one sign displaces every surface point to the same side.", "quantifier": "all distances, pixel sizes, moduli", "why_tests_cant": "analytic statement about logarithms for all reals", "anchors": ["ContactMechanics/FFTElasticHalfSpace.py:FreeFFTElasticHalfSpace._compute_greens_function"]}
{"id": "C36", "title": "Boundary check detects force on the rim", "statement": "check_boundaries raises FreeBoundaryError exactly if some unmasked point of the outermost rows/columns of the topography domain carries a force above the tolerance, in serial and for every decomposition; domain_boundary_mask marks exactly these points; check() applies this with tolerance 0 if the option was given.", "quantifier": "all fields, sizes, decompositions", "why_tests_cant": "combinatorial over decompositions and sizes", "anchors": ["ContactMechanics/FFTElasticHalfSpace.py:FreeFFTElasticHalfSpace.check_boundaries", "ContactMechanics/FFTElasticHalfSpace.py:FreeFFTElasticHalfSpace.domain_boundary_mask", "ContactMechanics/FFTElasticHalfSpace.py:FreeFFTElasticHalfSpace.check"]}
{"id": "C37", "title": "spawn_child keeps grid spacing", "statement": "A child half-space created for another number of grid points has the same grid spacing, modulus and influence coefficients and a doubled computation grid (FreeFFTElasticHalfSpace), and keeps its kind of periodicity (SemiPeriodicFFTElasticHalfSpace).", "quantifier": "all sizes", "why_tests_cant": "all sizes", "anchors": ["ContactMechanics/FFTElasticHalfSpace.py:FreeFFTElasticHalfSpace.spawn_child"]}
{"id": "C38", "title": "Semi-periodic half-space is the image-summed convolution", "statement": "evaluate_disp equals direct summation of the pixel influence function over the given number of periodic images in the periodic directions and no images in the free ones; shifting the force along a periodic direction shifts the displacement; with no periodic direction the result equals FreeFFTElasticHalfSpace on the topography domain. The response is self-adjoint and its coefficients are positive.", "quantifier": "all grids, periodicity flags, image counts, forces", "why_tests_cant": "infinite input space", "anchors": ["ContactMechanics/FFTElasticHalfSpace.py:SemiPeriodicFFTElasticHalfSpace._compute_greens_function", "ContactMechanics/FFTElasticHalfSpace.py:SemiPeriodicFFTElasticHalfSpace.evaluate_disp", "ContactMechanics/FFTElasticHalfSpace.py:SemiPeriodicFFTElasticHalfSpace.__init__"]}
{"id": "C39", "title": "get_G_real centres the influence function", "statement": "The real-space Green's function returned for plotting has its zero-offset entry at index n//2 in every direction and is a translate of the internal one.", "quantifier": "all grid sizes", "why_tests_cant": "parity dependent for all sizes", "anchors": ["ContactMechanics/FFTElasticHalfSpace.py:SemiPeriodicFFTElasticHalfSpace.get_G_real", "ContactMechanics/FFTElasticHalfSpace.py:SemiPeriodicFFTElasticHalfSpace.get_G_real_slices"]}
{"id": "C40", "title": "Primal objective has the reported gradient", "statement": "primal_objective(gap) returns the elastic energy of the displacement gap+heights+offset (with and without gradient), and primal_objective(gap+d) = primal_objective(gap) + sum(grad*d) + 1/2 sum(d*H d) with grad the returned gradient and H d = primal_hessian_product(d), for every periodic half-space; the gradient at gap+d is grad + H d. Arrays of the wrong size raise; a free half-space (whose computational grid differs from the topography's) always raises.", "quantifier": "all gaps, directions, offsets, substrates", "why_tests_cant": "all directions at all points", "anchors": ["ContactMechanics/Systems.py:NonSmoothContactSystem.primal_objective", "ContactMechanics/Systems.py:NonSmoothContactSystem.primal_hessian_product"]}
{"id": "C41", "title": "Dual objective has the reported gradient", "statement": "dual_objective(p) returns 1/2 sum(p*u) - sum(p*(heights+offset)) with u the displacement caused by p, its gradient is the gap u-heights-offset, and dual_objective(p+d) = dual_objective(p) + sum(grad*d) + 1/2 sum(d*H d) with H d = dual_hessian_product(d), for periodic, free and semi-periodic half-spaces. gradient=False raises NotImplementedError. In a parallel run every process reports only its own part of the energy; the parts add up. With the whole grid in one process the local dual energy of this statement is the energy that evaluate_dual reports.", "quantifier": "all pressures, directions, offsets, substrates", "why_tests_cant": "all directions at all points", "anchors": ["ContactMechanics/Systems.py:NonSmoothContactSystem.dual_objective", "ContactMechanics/Systems.py:NonSmoothContactSystem.dual_hessian_product"]}
{"id": "C42", "title": "Primal and dual problems have the same solution", "statement": "A gap is a global minimiser of the primal objective over non-negative gaps exactly if gap and gradient are non-negative and complementary; likewise for pressures and the dual objective. The dual objective at the primal gradient has the primal gap as its gradient and vice versa, primal plus dual value equal the work of the pressure on the gap, so a solution of one problem is a solution of the other with opposite value; the solution is unique when the zero-wavevector stiffness is not zero.", "quantifier": "all feasible fields of any size", "why_tests_cant": "global optimality quantifies over all fields", "anchors": ["ContactMechanics/Systems.py:NonSmoothContactSystem.primal_objective", "ContactMechanics/Systems.py:NonSmoothContactSystem.dual_objective"]}
{"id": "C43", "title": "System state after minimize_proxy", "statement": "After a successful minimize_proxy system.disp, system.force, substrate.force, offset, contact zone, normal force and contact area are those of the returned result (also if the substrate's check() raises afterwards); after failure or an exception disp, force and contact zone are None and everything else keeps its former value, so that over any history offset and normal force are those of the last successful call. gap and energy are never refreshed by minimize_proxy. primal_minimize_proxy and dual_minimize_proxy set gap, displacement (gap+heights+offset), force and contact zone consistently with the optimiser's result.", "quantifier": "all histories of minimize calls with arbitrary optimiser outcomes", "why_tests_cant": "state machine over histories", "anchors": ["ContactMechanics/Systems.py:NonSmoothContactSystem.minimize_proxy", "ContactMechanics/Systems.py:SystemBase._update_state", "ContactMechanics/Systems.py:SystemBase.minimize_proxy"]}
{"id": "C44", "title": "Plastic system updates the topography where it flowed", "statement": "After a successful minimize_proxy of PlasticNonSmoothContactSystem the new topography equals the old one outside the plastic points and equals displacement minus offset at plastic points (the gap there is exactly zero); on failure the topography is unchanged; over any history of load steps a point that never flows keeps its height. The solver receives hardness times area per point.", "quantifier": "all results and histories of load steps", "why_tests_cant": "history-dependent state", "anchors": ["ContactMechanics/PlasticSystemSpecialisations.py:PlasticNonSmoothContactSystem.minimize_proxy"]}
{"id": "C45", "title": "Optimiser-shape conversion is lossless", "statement": "shape_minimisation_output(shape_minimisation_input(u)) = u, the flattened array has the same entries in C order, objectives return the same for the flattened array; arrays of the wrong size raise IncompatibleResolutionError.", "quantifier": "all shapes and fields", "why_tests_cant": "all shapes", "anchors": ["ContactMechanics/Systems.py:SystemBase.shape_minimisation_input", "ContactMechanics/Systems.py:SystemBase.shape_minimisation_output"]}
{"id": "C46", "title": "Mismatched substrate and surface are rejected", "statement": "Constructing a contact system raises IncompatibleResolutionError exactly when the grid points of substrate and surface differ (as tuples or lists of ints) and no other exception; nothing else (types, physical sizes) is checked. A fresh system has no gap, displacement, force, energy or contact zone.", "quantifier": "all argument combinations", "why_tests_cant": "exhaustive", "anchors": ["ContactMechanics/Systems.py:NonSmoothContactSystem.__init__", "ContactMechanics/Systems.py:NonSmoothContactSystem.handles", "ContactMechanics/Systems.py:SystemBase.__init__"]}
{"id": "C47", "title": "Energy bookkeeping of evaluate", "statement": "NonSmoothContactSystem.evaluate returns and stores the substrate's energy and force; the gap stored equals displacement minus heights minus offset on the topography domain; objective returns the energy and minus that force; the lower bounds given to optimisers are met exactly by displacements with non-negative gap and are absent outside the topography. A displacement array with an axis of length 1 is repeated along that axis when the gap is computed.", "quantifier": "all displacement fields, offsets", "why_tests_cant": "all inputs", "anchors": ["ContactMechanics/Systems.py:NonSmoothContactSystem.evaluate", "ContactMechanics/Systems.py:NonSmoothContactSystem.objective", "ContactMechanics/Systems.py:SystemBase.compute_gap"]}
{"id": "C48", "title": "contact_mechanics accepts exactly one control mode", "statement": "contact_mechanics raises ValueError, before any solver or callback call, unless exactly one of nsteps, offsets and pressures is given; with exactly one, a known substrate and at least one step it returns. Without a substrate name is_periodic decides; other substrate strings raise KeyError (not ValueError, proved); requesting no steps raises instead of returning empty arrays.", "quantifier": "all argument combinations", "why_tests_cant": "exhaustive", "anchors": ["ContactMechanics/PipelineFunction.py:contact_mechanics"]}
{"id": "C49", "title": "contact_mechanics returns one record per step in the right order", "statement": "The callback is called exactly once per finished step in order, also when a later step raises. If contact_mechanics returns, all five arrays have one entry per requested value in the requested order (nsteps entries with nsteps), entry i coming from the solver called with the i-th requested offset or force on the surface left by step i-1. Elastic steps are independent of each other, and a shorter request is a prefix of a longer one. With nsteps the results are not sorted by displacement (proved: the second is always below the first unless the surface is flat).", "quantifier": "all lists of any length, all solver outcomes", "why_tests_cant": "all lengths and histories", "anchors": ["ContactMechanics/PipelineFunction.py:contact_mechanics", "ContactMechanics/PipelineFunction.py:_contact_calculation"]}
{"id": "C50", "title": "Stepwise displacement selection", "statement": "With nsteps, step i is calculated at the displacement given by the rule: minus the mean height; then minus the top plus 1% of top minus mean; then, with the records stably sorted by area, the first largest ratio of neighbouring areas (one point added; last one against full contact) is bisected, or, if it is the last, the displacement is mirrored: 2*last - lowest height. The rule determines the displacement uniquely and bisects whenever full contact is recorded. It does not always extend toward full contact and depends on the height reference (proved by counterexample).", "quantifier": "all surfaces, all solver outcomes, all histories", "why_tests_cant": "history dependent", "anchors": ["ContactMechanics/PipelineFunction.py:_next_contact_step"]}
{"id": "C51", "title": "Pipeline output is physical", "statement": "For every step the gap map is non-negative, the contact map is where pressure is positive, the contact area fraction is the fraction of contact points and lies in [0,1], and the mean pressure is the mean of the pressure map; in elastic runs the mean gap is the mean of the gap before negative values are cut off. Exceptions (proved): the mean gap can be negative, and in plastic runs it belongs to the heights before the step but the gap map to those after it.", "quantifier": "all solver outputs", "why_tests_cant": "all inputs", "anchors": ["ContactMechanics/PipelineFunction.py:_contact_calculation", "ContactMechanics/PipelineFunction.py:_next_contact_step"]}
{"id": "C52", "title": "NetCDF container reads back what was written", "statement": "A value written successfully to container[i].name is what is read from there after any further operations (failed ones, other frames and names, whole-file data, closing and reopening) (including partial grids) that do not write the same name of the same frame; whole-file arrays, surfaces and attributes likewise. Reals and double=True maps are exact, ints exact in 32 bits, maps of a default container exact to 24 binary digits. Exceptions (proved): a name first used with an int truncates later reals, default maps lose precision, names with a leading underscore are not stored, and an attribute is hidden by frames of the same name.", "quantifier": "all values, all sequences of operations on the container", "why_tests_cant": "history dependent state machine", "anchors": ["ContactMechanics/IO/NetCDF.py:NetCDFContainer", "ContactMechanics/IO/NetCDF.py:NetCDFContainerFrame"]}
{"id": "C53", "title": "Frame cursor and indexing", "statement": "Negative frame indices address frames from the end, iteration visits every frame once in order, k calls of get_next_frame give k consecutive frames from the cursor, writing so with the cursor at the end appends, and the container length is one more than the largest frame written (or the length at opening). Exception (proved): a file opened for appending has its cursor at frame 0, so get_next_frame overwrites.", "quantifier": "all operation sequences", "why_tests_cant": "history dependent state machine", "anchors": ["ContactMechanics/IO/NetCDF.py:NetCDFContainer", "ContactMechanics/IO/NetCDF.py:NetCDFContainerFrame"]}
{"id": "C54", "title": "Logger output frequency", "statement": "Counting from a reset, with outevery=n exactly the status calls number n, 2n, 3n, ... and the forced ones are printed (every call for n<=1); forced prints do not shift the count. A header comes before the first printed call and then before every sepevery-th printed call (not when the header changes). New loggers, set_outevery, iteration_finished and opening a template file reset. Nothing else is written, and a wrong number of values raises AssertionError without a trace.", "quantifier": "all loggers writing to a stream, all sequences of status calls, messages and warnings", "why_tests_cant": "history dependent state machine", "anchors": ["ContactMechanics/Tools/Logger.py:Logger.st", "ContactMechanics/Tools/Logger.py:Logger.iteration_finished", "ContactMechanics/Tools/Logger.py:Logger.set_outevery"]}
{"id": "C55", "title": "Logger never loses lines", "statement": "Logging first and attaching a stream or plain file afterwards gives the same files, screen and logger as attaching it first. A template file receives everything buffered, and with a template every iteration has its own new file with exactly its lines. Unless a plain name is attached no existing file is ever lost or truncated: it keeps its name or gets an unused backup name, and only grows. Exceptions (proved): a plain name truncates an existing file, attaching None discards the buffer, and a warning buffered before the screen is attached appears twice.", "quantifier": "all sessions of requests, resets and attachments, all file systems", "why_tests_cant": "history dependent state machine", "anchors": ["ContactMechanics/Tools/Logger.py:Logger.set_logfile", "ContactMechanics/Tools/Logger.py:Logger._print", "ContactMechanics/Tools/Logger.py:Logger.pr"]}
{"id": "C56", "title": "Convergence log round trip", "statement": "read_convergence_log on a log written by a new logger returns the names of the first header (vectors as name(x), name(y), ...), one row per printed call, ints and words exactly and reals with relative error at most 5e-13, for headers without white space, colon or final '#', vectors of at most 13 components and no message before the first printed line. A header with a blank, a leading message, or a vector of 14 components makes reading raise IndexError, and a colon cuts the name. Words that pandas takes for missing values, infinities or truth values do not come back as text. When all texts fit, entries stand flush right below their titles in columns of 8 places for ints and 20 for anything else.", "quantifier": "all headers, all numbers of columns and rows", "why_tests_cant": "all inputs of a codec", "anchors": ["ContactMechanics/Tools/Logger.py:read_convergence_log", "ContactMechanics/Tools/Logger.py:hdrfmt_str", "ContactMechanics/Tools/Logger.py:numfmt_str", "ContactMechanics/Tools/Logger.py:hdr_str"]}
{"id": "C57", "title": "Hertz formulas are mutually consistent", "statement": "penetration and normal_load are inverse, radius_and_pressure gives a^2 = R*penetration and p0 = 3N/(2 pi a^2), max_pressure__penetration agrees, and the elastic energy is the integral of load over penetration (its derivative is the load).", "quantifier": "all positive loads, radii, moduli", "why_tests_cant": "identities over reals", "anchors": ["ContactMechanics/ReferenceSolutions/Hertz.py:penetration", "ContactMechanics/ReferenceSolutions/Hertz.py:normal_load", "ContactMechanics/ReferenceSolutions/Hertz.py:elastic_energy", "ContactMechanics/ReferenceSolutions/Hertz.py:radius_and_pressure", "ContactMechanics/ReferenceSolutions/Hertz.py:max_pressure__penetration"]}
{"id": "C58", "title": "Hertz stress fields agree with each other", "statement": "The surface pressure lies between 0 and the peak, is positive exactly inside the contact and integrates to the load (the constant value used below 10^-6 adds a relative error of at most 1.5e-24); stresses are continuous for r > 10^-6 including the contact edge, the displacement everywhere; the paraboloid pushed in by the penetration touches the deformed surface inside the contact radius and is separated from it outside; the Huber field on the surface is surface_stress, on the axis both interior fields are centerline_stress and the axis branch is the limit of the general formula; the Huber and Hamilton fields are the same tensor field at every depth, off the contact edge.", "quantifier": "all radii r >= 0, depths z >= 0, Poisson numbers, loads, radii, moduli", "why_tests_cant": "identities over reals", "anchors": ["ContactMechanics/ReferenceSolutions/Hertz.py:surface_stress", "ContactMechanics/ReferenceSolutions/Hertz.py:centerline_stress", "ContactMechanics/ReferenceSolutions/Hertz.py:surface_displacements", "ContactMechanics/ReferenceSolutions/Hertz.py:stress", "ContactMechanics/ReferenceSolutions/Hertz.py:stress_Cartesian"]}
{"id": "C59", "title": "Westergaard solution is consistent", "statement": "contact_radius and mean_pressure are inverse and increasing; pressure is positive inside the contact regions (half width a around the integers), zero outside, even, periodic, with mean one over any period; gap is zero in the contact regions, positive outside, and it is the geometry plus the displacement; displacement is even and periodic and its mean over any period is mean_displacement; the slope of the gap and the pressure satisfy one algebraic relation; the two energy functions agree and dE = -2 P dD.", "quantifier": "all contact radii and positions", "why_tests_cant": "identities over reals", "anchors": ["ContactMechanics/ReferenceSolutions/Westergaard.py"]}
{"id": "C60", "title": "Cone solution is consistent", "statement": "Contact radius, mean pressure and load follow Sneddon's formulas; the pressure is positive and decreasing inside the contact, zero outside, continuous, with mean one over the contact disc; deformation is Sneddon's surface (positive, decreasing, on the cone inside, clear of it outside) at all points outside the contact, and inside it when a point lies on the contact edge. The returned area ratio and the deformation on other grids are refuted.", "quantifier": "all half angles in (0, pi/2), radii and arrays", "why_tests_cant": "identities over reals", "anchors": ["ContactMechanics/ReferenceSolutions/Cone.py"]}
{"id": "C61", "title": "Greenwood-Tripp solution", "statement": "GreenwoodTripp returns exactly when one of the first maxiter+1 iterates of the damped fixed-point iteration has settled (RuntimeError otherwise); the result is then the displacement of the first such iterate, zero in the centre, with the pressures that belong to it; it solves the equations up to tol/mix, exactly for tol = 0; pressures are never negative; eps outside 0..rhomax raises. The integration variable s(xi) is strictly increasing, its slope is the potential of a ring of load, and its asymptotic formulas are within 1e-10 of the documented one; xi(s) is its inverse. xi inverts s exactly below 5e-11 and above 1e5.", "quantifier": "all parameters, quadrature rules and iteration histories; all xi >= 0", "why_tests_cant": "iteration histories of any length, elliptic integrals at every argument", "anchors": ["ContactMechanics/ReferenceSolutions/GreenwoodTripp.py:GreenwoodTripp", "ContactMechanics/ReferenceSolutions/GreenwoodTripp.py:Fn", "ContactMechanics/ReferenceSolutions/GreenwoodTripp.py:s", "ContactMechanics/ReferenceSolutions/GreenwoodTripp.py:\u03be"]}
{"id": "C62", "title": "Isotropic surface Green's function", "statement": "greens_function maps every force amplitude to the surface displacement of an elastic field of the isotropic half space that is in equilibrium, carries that force and decays with depth; it is Hermitian, positive definite, conjugate under q -> -q and scales with 1/q; its normal component is that of the periodic half space with modulus E/(1-nu^2); stiffness is its inverse at every wavevector other than zero and zero at q = 0; arrays are treated elementwise.", "quantifier": "all wavevectors and moduli", "why_tests_cant": "identities over reals", "anchors": ["ContactMechanics/GreensFunctions/Isotropic.py:IsotropicGreensFunction._greens_function", "ContactMechanics/GreensFunctions/Isotropic.py:IsotropicGreensFunction._stiffness", "ContactMechanics/GreensFunctions/Isotropic.py:IsotropicGreensFunction.greens_function", "ContactMechanics/GreensFunctions/Isotropic.py:IsotropicGreensFunction.stiffness"]}
{"id": "C63", "title": "Anisotropic surface Green's function", "statement": "Of the orthogonal matrices the constructor accepts the right handed ones and refuses the left handed ones with a ValueError. The constants stored by the constructor are the cubic tensor in the rotated axes, with both minor and the major symmetry, and unchanged by the rotations of the cube (by all rotations if isotropic). Every matrix that greens_function returns maps each traction amplitude to the surface displacement of an elastic field of that crystal which is in equilibrium, carries the traction, and decays with depth (half space) or vanishes at the base (layer, unless a wave decays by more than exp(-100)); it is Hermitian for the half space; stiffness is its inverse and zero for the half space at q = 0. In the crystal axes the eigenvalues belong to plane waves. No Green's function is returned for isotropic constants, at q = 0 of the half space, or for scalar wavevectors.", "quantifier": "all constants, rotations, thicknesses, wavevectors and linear algebra libraries that solve equations, find roots and null spaces correctly", "why_tests_cant": "the tests cover two unrotated crystals, and never call greens_function", "anchors": ["ContactMechanics/GreensFunctions/Anisotropic.py:AnisotropicGreensFunction.__init__", "ContactMechanics/GreensFunctions/Anisotropic.py:AnisotropicGreensFunction.elasticity_tensor", "ContactMechanics/GreensFunctions/Anisotropic.py:AnisotropicGreensFunction.voigt_from_tensor", "ContactMechanics/GreensFunctions/Anisotropic.py:AnisotropicGreensFunction.bulkop", "ContactMechanics/GreensFunctions/Anisotropic.py:AnisotropicGreensFunction.find_eigenvalues", "ContactMechanics/GreensFunctions/Anisotropic.py:AnisotropicGreensFunction.find_eigenvectors", "ContactMechanics/GreensFunctions/Anisotropic.py:AnisotropicGreensFunction._make_U", "ContactMechanics/GreensFunctions/Anisotropic.py:AnisotropicGreensFunction._make_F", "ContactMechanics/GreensFunctions/Anisotropic.py:AnisotropicGreensFunction.make_U_and_F", "ContactMechanics/GreensFunctions/Anisotropic.py:AnisotropicGreensFunction._gamma_stiffness", "ContactMechanics/GreensFunctions/Anisotropic.py:AnisotropicGreensFunction._greens_function", "ContactMechanics/GreensFunctions/Anisotropic.py:AnisotropicGreensFunction._stiffness", "ContactMechanics/GreensFunctions/Anisotropic.py:AnisotropicGreensFunction.greens_function", "ContactMechanics/GreensFunctions/Anisotropic.py:AnisotropicGreensFunction.stiffness"]}
{"id": "C64", "title": "make_system dispatch", "statement": "make_system and make_plastic_system build a periodic or free half-space exactly according to the requested substrate name or, without one, the topography's periodicity, with the topography's grid, the physical sizes asked for (else the topography's) and exactly the keywords given; keywords the half-space does not have, or a missing Young's modulus, raise TypeError, other names AttributeError, missing sizes ValueError (even with a ready-made substrate). A ready-made substrate is used unchanged. Every returned system has one common grid, but sizes asked for explicitly may differ from those of the topography. For a reader or file the kind of half-space follows its periodicity in the same way, on its grid and with its sizes.", "quantifier": "all argument combinations", "why_tests_cant": "exhaustive", "anchors": ["ContactMechanics/Factory.py:make_system", "ContactMechanics/Factory.py:make_plastic_system", "ContactMechanics/Factory.py:_make_system_args"]}
{"id": "C65", "title": "compare_containers compares entries regardless of the outer container type", "statement": "For two containers (tuple, list, string) compare_containers is True exactly if they have equally many and pairwise equal entries, whatever the container types; for anything else it is equality of values. It is reflexive, symmetric and transitive. Below the outermost level the container type matters: ((x,),) and ([x],) are different.", "quantifier": "all nested tuples, lists, strings and numbers", "why_tests_cant": "recursive structure", "anchors": ["ContactMechanics/Tools/common.py:compare_containers"]}
{"id": "C66", "title": "Wavevector helpers", "statement": "compute_wavevectors returns 2 pi/L times the minimum-image integer index in every direction and raises for zero extents, missing extents and a scalar/tuple mix-up; fftn/ifftn with any non-zero area weighting are mutually inverse and the zero mode is area times mean; get_q_from_lambda inverts wavelengths and swaps their order.", "quantifier": "all sizes", "why_tests_cant": "all sizes", "anchors": ["ContactMechanics/Tools/common.py"]}
{"id": "C67", "title": "Hard-wall command line: schedule, log, NetCDF frames and maps", "statement": "Whatever happens, the log lines, NetCDF frames and maps written belong one to one and in order to finished calculations at the requested pressures (single value, range, file) or the automatic schedule; a normal end means nothing is missing. File names of different steps and options never collide, mean gap, displacement, load, pressure and contact area of the log agree with the maps, heights are converted to the unit of the surface, both boundary conditions use the modulus E/(1-nu^2), and for contact modulus one without hardness the numbers are those contact_mechanics returns. The displacement range, and the comment header in every file, do not work.", "quantifier": "all arguments, topographies, readers, minimisations (including ones that raise at any step)", "why_tests_cant": "the tests only check that the script runs on one file; the schedule depends on the whole history", "anchors": ["ContactMechanics/CommandLineInterface/HardWall.py:next_step", "ContactMechanics/CommandLineInterface/HardWall.py:dump", "ContactMechanics/CommandLineInterface/HardWall.py:dump_nc", "ContactMechanics/CommandLineInterface/HardWall.py:save_contact", "ContactMechanics/CommandLineInterface/HardWall.py:save_pressure", "ContactMechanics/CommandLineInterface/HardWall.py:save_gap", "ContactMechanics/CommandLineInterface/HardWall.py:main"]}
{"id": "C68", "title": "Loaded points touch the surface", "statement": "If an elastic run succeeds with final status 'cg', then wherever the returned force is positive the gap is smaller than pentol*(1+sqrt(#contact points)) in absolute value.", "quantifier": "all substrates, heights, offsets, start values, tolerances and iteration limits", "why_tests_cant": "The condition is violated only when the step length vanishes, which needs specially chosen start forces; sampling does not hit it.", "anchors": ["ContactMechanics/Optimization/ConstrainedConjugateGradients.py: constrained_conjugate_gradients"]}
{"id": "C69", "title": "Zero force is only accepted in the first iteration", "statement": "A displacement-controlled run that succeeds after two or more iterations returns a non-zero total force: a surface that loses contact during the iteration never converges.", "quantifier": "all displacement-controlled runs", "why_tests_cant": "Needs every run that looses contact after the first iteration.", "anchors": ["ContactMechanics/Optimization/ConstrainedConjugateGradients.py: constrained_conjugate_gradients"]}
{"id": "C70", "title": "Numerical gradient and mean error helpers", "statement": "evaluate_gradient returns, for every entry, the exact partial derivative at some point within half a step on that coordinate line, and the exact gradient for functions quadratic along the coordinate directions and every step; applied to primal_objective of a periodic half-space it returns the gradient reported by primal_objective itself. mean_err is the average absolute difference, zero exactly for equal arrays, raises for different shapes, and with rfft compares a full with a half spectrum over the stored half.", "quantifier": "all functions, arrays, steps", "why_tests_cant": "all functions and all step widths", "anchors": ["ContactMechanics/Tools/common.py:evaluate_gradient", "ContactMechanics/Tools/common.py:mean_err"]}
{"id": "C71", "title": "Interior stress fields are in equilibrium", "statement": "stress_Cartesian and stress_for_tangential_loading are differentiable and free of net force: each row of the stress tensor has zero divergence.", "quantifier": "all points below the surface off the axis, all Poisson numbers", "why_tests_cant": "differential identity at every point", "anchors": ["ContactMechanics/ReferenceSolutions/Hertz.py:stress_Cartesian", "ContactMechanics/ReferenceSolutions/Hertz.py:stress_for_tangential_loading"]}
{"id": "C72", "title": "Surface tractions of the interior stress fields", "statement": "At zero depth stress_Cartesian carries the Hertz pressure inside and no load outside the contact, and no shear; stress_for_tangential_loading carries the same profile as shear along x, no shear along y and no normal load. The branch for points on the axis is the limit of the general formula, and the normal stress under tangential load equals the shear stress xz under normal load at every depth.", "quantifier": "all surface points off the contact edge, all Poisson numbers", "why_tests_cant": "all points", "anchors": ["ContactMechanics/ReferenceSolutions/Hertz.py:stress_Cartesian", "ContactMechanics/ReferenceSolutions/Hertz.py:stress_for_tangential_loading"]}
{"id": "C73", "title": "NetCDF containers: files on disk", "statement": "A container opened for reading never changes any file: whatever sequence of operations follows, all files have their old content, and attempts to write raise. Operations on a container change no file other than its own.", "quantifier": "all file systems, containers and sequences of operations", "why_tests_cant": "all interleavings", "anchors": ["ContactMechanics/IO/NetCDF.py:NetCDFContainer.__init__", "ContactMechanics/IO/NetCDF.py:NetCDFContainer.close", "ContactMechanics/IO/NetCDF.py:NetCDFContainer.get_next_frame"]}
{"id": "C74", "title": "contact_mechanics end to end: maps are elastic states", "statement": "With the library's own constrained conjugate-gradient solver on its own half-spaces, the pressure and displacement maps handed to the callback are the elastic response of each other in every step: wave by wave for the periodic half-space and by the superposed Love solutions for the nonperiodic one, whether or not the step converged and also with hardness. The function returns for every valid argument unless hardness and pressures are combined, the displacements are exactly the requested offsets, and the mean pressures of converged steps are the requested ones within the tolerance of the force loop. With no iteration allowed the calculation ends with the solver's UnboundLocalError before any callback.", "quantifier": "all topographies, sizes, numbers of steps, tolerances, solver options, callbacks", "why_tests_cant": "the tests compare two loading curves with stored numbers", "anchors": ["ContactMechanics/PipelineFunction.py:contact_mechanics", "ContactMechanics/Systems.py:NonSmoothContactSystem.minimize_proxy", "ContactMechanics/Optimization/ConstrainedConjugateGradients.py:constrained_conjugate_gradients", "ContactMechanics/FFTElasticHalfSpace.py:PeriodicFFTElasticHalfSpace.evaluate_disp", "ContactMechanics/FFTElasticHalfSpace.py:FreeFFTElasticHalfSpace.evaluate_disp"]}
{"id": "C75", "title": "contact_mechanics end to end: no contact and full contact", "statement": "If the surface stays below the undeformed half-space at the given offset, the step converges with zero pressure, displacement and contact area and the gap of the undeformed surfaces. If the surface is pressed flat and the pressure needed for this is positive, the step converges with exactly this pressure, contact area one, no gap and the surface itself as displacement. For a wave of amplitude A the pressure is the mean pressure k0 (h0 + offset) plus a wave of amplitude kappa A / 2, that is pi A / wavelength.", "quantifier": "all topographies, offsets, waves, grids, tolerances", "why_tests_cant": "exact statement about an iterative method on every surface", "anchors": ["ContactMechanics/PipelineFunction.py:contact_mechanics", "ContactMechanics/Systems.py:NonSmoothContactSystem.minimize_proxy", "ContactMechanics/Optimization/ConstrainedConjugateGradients.py:constrained_conjugate_gradients", "ContactMechanics/FFTElasticHalfSpace.py:PeriodicFFTElasticHalfSpace.evaluate_disp"]}
{"id": "C76", "title": "contact_mechanics end to end: prescribed pressure", "statement": "A flat surface under prescribed pressures that move it by at least the tolerance is computed exactly: these pressures, uniform, contact area one, no gap. A pressure below k0 times the tolerance on any surface without positive heights is reported as converged after one iteration with contact area one and uniform pressure, however rough the surface is.", "quantifier": "all sizes, grids, tolerances, pressures", "why_tests_cant": "the failure depends on the reference height of the topography", "anchors": ["ContactMechanics/PipelineFunction.py:contact_mechanics", "ContactMechanics/Systems.py:NonSmoothContactSystem.minimize_proxy", "ContactMechanics/Optimization/ConstrainedConjugateGradients.py:constrained_conjugate_gradients", "ContactMechanics/FFTElasticHalfSpace.py:PeriodicFFTElasticHalfSpace.evaluate_disp"]}
{"id": "C77", "title": "contact_mechanics end to end: the description of the surface does not matter", "statement": "With the library's own solver, moving the topography by whole pixels (periodic surfaces), reversing it along the first axis or exchanging its axes leaves the returned arrays unchanged and moves all maps handed to the callback alike; a symmetric surface carries symmetric pressures. Measuring heights from another reference only moves the displacements by the reference (prescribed displacements). Describing the surface in another unit of length, with the force tolerance converted, multiplies displacements and gaps by the factor and leaves pressures, contact areas and convergence unchanged, unless the penetration tolerance hits its floor of 1e-12. Exceptions and plastic runs are included.", "quantifier": "all surfaces, sizes, numbers of steps, options, translations, units, references, elastic and plastic, periodic and free", "why_tests_cant": "a relation between two runs, for every surface and motion", "anchors": ["ContactMechanics/PipelineFunction.py:contact_mechanics", "ContactMechanics/Systems.py:NonSmoothContactSystem.minimize_proxy", "ContactMechanics/Optimization/ConstrainedConjugateGradients.py:constrained_conjugate_gradients", "ContactMechanics/FFTElasticHalfSpace.py:PeriodicFFTElasticHalfSpace", "ContactMechanics/FFTElasticHalfSpace.py:FreeFFTElasticHalfSpace"]}
{"id": "C78", "title": "The contact problem has exactly one solution, and computed states are near it", "statement": "On the periodic half-space of the code every surface and offset has exactly one contact state (elastic response, no tension, no penetration, no pressure across a gap). Its mean pressure never falls when the surface is pushed further, never rises faster than the uniform stiffness, is never below that of a flat surface of the same mean height, and every positive mean pressure belongs to exactly one offset and state. For every output of contact_mechanics the violations of the contact conditions bound the elastic energy of its difference to that state and the error of its load; if there is no tension and the violations are at most eps, the square roots of the mean pressures differ by at most the root of (uniform stiffness * eps); without violations the output is the state. A converged displacement-controlled solver run that ended with status cg and a step has eps = pentol * (1 + sqrt(number of points)). If the surface pressed into the half-space is already the solution, contact_mechanics returns it exactly.", "quantifier": "all grids of at least 2x2 points, sizes, heights, offsets, loads, options, outputs", "why_tests_cant": "existence and uniqueness quantify over all pressure fields; the error bounds hold for every run", "anchors": ["ContactMechanics/PipelineFunction.py:contact_mechanics", "ContactMechanics/Systems.py:NonSmoothContactSystem.minimize_proxy", "ContactMechanics/Optimization/ConstrainedConjugateGradients.py:constrained_conjugate_gradients", "ContactMechanics/FFTElasticHalfSpace.py:PeriodicFFTElasticHalfSpace"]}
{"id": "C79", "title": "Once the contact area no longer changes, the solver needs at most one iteration per contact point", "statement": "In a displacement-controlled elastic run, take an iterate k without tension whose status is not cg (the start, or an iteration that added penetrating points) and suppose the next iterates press on the same N points and end with status cg. Then the gaps of different iterates are orthogonal on the contact area, the complementary energy never grows, iterate k+N closes the gap on the whole contact area whatever the tolerances, is the exact solution of the contact problem if one more iteration keeps the area, and the call returns success after at most k+N+1 iterations. On the periodic half-space of the code this holds for all grids, sizes, surfaces, offsets and positive tolerances, and iterate k+N is the contact state of C78.", "quantifier": "all surfaces, offsets, tolerances, grids, iterates k and contact areas", "why_tests_cant": "finite termination of conjugate gradients in exact arithmetic for every settled contact area; tests see a few runs in floating point", "anchors": ["ContactMechanics/Optimization/ConstrainedConjugateGradients.py:constrained_conjugate_gradients", "ContactMechanics/FFTElasticHalfSpace.py:PeriodicFFTElasticHalfSpace"]}
{"id": "C80", "title": "Conjugate gradients are reset when points join the contact, not when points leave; a run without any force left never recovers", "statement": "In a displacement-controlled elastic run, an iterate with status cg presses on no point on which its predecessor did not press, and after any other status - in particular whenever a point joined the contact area - the next step is a projected steepest descent step along the gap. The docstring's claim that the iteration is reset whenever the contact area changes is false: a point may leave without a reset (three points, symmetric positive definite compliance), and the finite termination of C79 is then lost. A call that gives up with all forces zero gives up with all forces zero for every larger maxiter. This happens on the real periodic half-space: on a 2 x 2 grid of a 15 x 1 cell with rows of heights -4 and 3 at offset 0, contact_mechanics reports converged = [False] and mean pressure 0 for every maxiter from 2 on, although the contact problem has a solution with mean pressure 8 pi / 45.", "quantifier": "all surfaces, offsets, substrates and iterates; all maxiter", "why_tests_cant": "a failure for every maxiter cannot be tested, and tests only see surfaces on which the solver converges", "anchors": ["ContactMechanics/Optimization/ConstrainedConjugateGradients.py:constrained_conjugate_gradients", "ContactMechanics/PipelineFunction.py:contact_mechanics", "ContactMechanics/FFTElasticHalfSpace.py:PeriodicFFTElasticHalfSpace"]}
{"id": "C81", "title": "The stand-alone example solver computes the library's iterates and stops no later", "statement": "For every substrate, height array, load, start and tolerance, the solver in examples/simple_polonsky_keer.py returns after k iterations the displacements, forces, energy, offset and evaluation count that the library's solver returns after k iterations of the elastic single-process call with the same arguments. At a given offset it succeeds whenever the library does and never later (at a given force if the library's total force is within the example's absolute force tolerance), and where it fails the library fails in the same state; the converse is false. Success means an equilibrium state loaded on the surface only whose total force meets the requested one up to forcetol. It never reports success with verbose=True, raises AttributeError as soon as a callback would be called, and with maxiter=0 raises for an unbound variable if there is a logger. Its default penetration tolerance is at least sqrt(number of heights) times the library's; for flat surfaces it needs an offset.", "quantifier": "all substrates, surfaces, loads, starts, tolerances, flags and iteration limits", "why_tests_cant": "the example has no tests, and agreement of two iterative programs on every input and after every number of iterations is not testable", "anchors": ["examples/simple_polonsky_keer.py:constrained_conjugate_gradients", "ContactMechanics/Optimization/ConstrainedConjugateGradients.py:constrained_conjugate_gradients"]}
{"id": "C82", "title": "At a given load the solver finishes within one iteration per contact point once the contact area settles", "statement": "In a force-controlled elastic run of the constrained conjugate gradient solver, started from a guess that presses nowhere, the first iterate spreads the load evenly over the surface. If from a fresh start of conjugate gradients that carries the load on, the contact area is the same N points, then every iterate carries the requested load exactly, the gaps above their mean over the contact area of different iterates are orthogonal, the complementary energy never grows, the contact area is level after N-1 iterations, iterate N with its rigid-body offset is the exact solution of the contact problem, and the call returns success at most one iteration later. This holds on the periodic half-space for every surface below zero. It is false after a restart caused by points joining the contact: the added forces come on top of the load and the rescaling destroys conjugacy, so three settled points need not be level six iterations later.", "quantifier": "all symmetric positive definite substrates, surfaces, loads, tolerances, iterates and grids", "why_tests_cant": "exact finite termination in real arithmetic for every surface cannot be observed by running floating-point code on samples", "anchors": ["ContactMechanics/Optimization/ConstrainedConjugateGradients.py:constrained_conjugate_gradients", "ContactMechanics/FFTElasticHalfSpace.py:PeriodicFFTElasticHalfSpace"]}
{"id": "C83", "title": "The elastic energy is the work of the load; energy and load depend continuously on the surface", "statement": "On the periodic half-space the exact contact states of a surface at all offsets have an energy that is a convex function of the offset, zero out of contact, whose derivative is the total force and whose increments are the area under the load curve. The state has the least elastic energy of all displacements clear of the surface and the least complementary energy of all non-tensile pressures. A higher surface never stores less energy; surfaces that differ by at most eps have loads, energies and states that differ by stated bounds in eps. Any two steps of a contact_mechanics call whose maps meet the contact conditions up to eps gain an energy between the works of the two loads on the change of offset, up to 2 eps; the energy in the result object of a converged solver call is that of the exact solution up to the work of the loads on the tolerated penetration.", "quantifier": "all periodic grids, cell sizes, surfaces, offsets, solver options and tolerances", "why_tests_cant": "relates continuous families of solutions and arbitrary pairs of surfaces; tests compare single surfaces to reference solutions", "anchors": ["ContactMechanics/PipelineFunction.py:contact_mechanics", "ContactMechanics/Optimization/ConstrainedConjugateGradients.py:constrained_conjugate_gradients", "ContactMechanics/FFTElasticHalfSpace.py:PeriodicFFTElasticHalfSpace"]}
{"id": "C84", "title": "Contact with a hardness: one solution, and what the plastic solver returns", "statement": "Contact of the periodic half-space with a surface that yields at a hardness H has exactly one state at each offset; the load never falls with the offset, reaches every mean pressure up to H, and equals the elastic solution below H; the flattened surface carries the same state elastically. A converged plastic calculation with last status cg meets these conditions up to the tolerance and its load is within a stated bound of the exact one; a hardness no iterate reaches changes nothing. A load step of the plastic system raises no point by more than pentol, leaves unloaded points alone, and moves points by more than the tolerance only at pressure H. With last status mix this fails: for all positive tolerances there is a calculation with default start and mixing parameters that reports success while a point loaded below the hardness (5 in the example) penetrates the surface by more than 4, however small the tolerances.", "quantifier": "all periodic grids, cell sizes, surfaces, offsets, hardnesses, tolerances; the solver statements for all substrates", "why_tests_cant": "existence and uniqueness over all surfaces, distance of computed to exact states, histories of load steps; the spurious convergence needs a particular coupling and contact area", "anchors": ["ContactMechanics/Optimization/ConstrainedConjugateGradients.py:constrained_conjugate_gradients", "ContactMechanics/PlasticSystemSpecialisations.py:PlasticNonSmoothContactSystem.minimize_proxy", "ContactMechanics/FFTElasticHalfSpace.py:PeriodicFFTElasticHalfSpace"]}
{"id": "C85", "title": "The contact solver in floating point arithmetic: success means finite numbers, undefined input is reported", "statement": "In floating point arithmetic with nan and infinities, whatever the order of summation: a call of the constrained conjugate gradient solver that reports success returns finite displacements and forces, the displacements are the substrate's response to the returned forces, masked points carry no force, no point is in tension unless the contact area changed in the last step, with a given offset no pressure exceeds the hardness, points in contact penetrate by less than pentol, points without force did not overlap before the last step, and a prescribed load is met up to thermotol. The number of iterations and substrate evaluations is as reported (1 + 2 nit without hardness). Unless the last step was mixing, success implies that every height on the surface and the offset were finite. Without a hardness an infinite or undefined height or offset, or an undefined initial displacement or force, always ends in the exception 'nan encountered' when at least three iterations are allowed; no other exception is possible. With a hardness that is false: there is a surface with an undefined height for which mixing reports success. A step other than mixing moves exactly the points that were under compression below the hardness before it. In exact arithmetic this solver returns what the solver of the other properties (C01-C19) returns on one process with at most one hardness: the same displacements, pressures, active set, energy, offset, numbers of iterations and evaluations, last status, step length and reported errors, or the same kind of exception.", "quantifier": "all surfaces, masks, offsets, loads, tolerances, numbers of iterations, initial guesses including nan and infinity; all substrates that pass non-finite forces on; all orders of summation; proved for IEEE 754 binary64", "why_tests_cant": "covers every pattern of rounding, overflow and undefined input and every order of summation; the tests never pass undefined heights", "anchors": ["ContactMechanics/Optimization/ConstrainedConjugateGradients.py:constrained_conjugate_gradients"]}
{"id": "C86", "title": "The log that a solver run leaves behind", "statement": "A call of the contact solver with a logger that writes to a plain file leaves there exactly: a line with maxiter, a line with pentol, and then one line per iteration of which the logger prints every outevery-th and the last one; this holds for every outcome, nothing else appears on the screen or in other files. The line of an iteration shows its number, the kind of step, the total force of the forces passed to the callback, and the number and fraction of points under compression before the step, of which 'cg area' are below the hardness; the last line says CONVERGED or NOT CONVERGED in accordance with the result and shows its total force and offset. At a given offset the plastic area is the number of points at the hardness after the step unless the step is of kind sd. In a detailed log the last line of a converged run shows values below the tolerances. A run that raises has logged every iteration the callback saw and no last line. Without verbose and for elastic contact all lines have the same columns. It is false that such a log can be read with read_convergence_log (it raises IndexError for every run), that the area in the last line is the contact area of the result, and that in a detailed plastic log each value stands under its header.", "quantifier": "all surfaces, masks, substrates, hardnesses, loads, offsets, tolerances, maxiter, output frequencies, file names without template, contents of the file system", "why_tests_cant": "the tests look at single runs and do not read the log of the solver back", "anchors": ["ContactMechanics/Optimization/ConstrainedConjugateGradients.py:constrained_conjugate_gradients", "ContactMechanics/Tools/Logger.py:Logger", "ContactMechanics/Tools/Logger.py:read_convergence_log"]}
{"id": "C87", "title": "NetCDF: slices, frames by file name, parts of a grid", "statement": "Slicing a container gives the frames Python's rules for slices select, in their order: all of them exist, c[:m] and c[m:] are together all frames for every integer m, c[::-1] is the reverse, a step of zero raises ValueError. open('name@z') and open('name', frame=z) give frame z of the file, from the end for negative z; what was appended to a new file is read back this way. A number past the end is noticed when the frame is read (IndexError); other text behind the first @ raises ValueError and touches no file; names without @, or beginning with it, open the container. Blocks written with set_grid end up at their place: at each point the last block covering it counts, other points keep what they had, and an array cut into blocks that cover the grid is stored whole. It is false that every existing file can be opened (not those with @ behind the first character), that indices below -len are refused (they are counted from the end twice), that the rest of a frame becomes undefined as the comment of set_grid says, and that Amber files can be opened with netCDF4.", "quantifier": "all files, numbers of frames, slices, names, integers, grids and sequences of blocks", "why_tests_cant": "the tests open a few files by plain names and never use set_grid or slices", "anchors": ["ContactMechanics/IO/NetCDF.py:open", "ContactMechanics/IO/NetCDF.py:NetCDFContainer.__getitem__", "ContactMechanics/IO/NetCDF.py:NetCDFContainerFrame.set_grid"]}
{"id": "C88", "title": "The contact solver in floating point arithmetic: how far its numbers are from the exact contact problem", "statement": "In floating point arithmetic with relative rounding error u and smallest numbers eta (2^-53 and 2^-1075 for doubles), whatever the order of summation: when the elastic constrained conjugate gradient solver reports success after a step of constant contact area, the real numbers it returns satisfy the contact conditions up to explicit bounds. No point of the surface penetrates by more than (1+4u) pentol plus the rounding u(|x|+|h|+|offset|); a point in contact has a gap of at most about sqrt(number of points in contact) pentol + pentol, provided the last step length was not zero; pressures are not negative, vanish outside the surface and, with a given offset, away from the contact. A prescribed load is met up to about thermotol times the sum of the pressures. For a substrate that multiplies by a matrix, the displacements are those of the pressures up to (1+u)^(n+1) - 1 times the sum of the products; the elastic energy of the difference between the returned pressures and the exact solution of the contact problem at the returned offset is at most the sum of pressures times these bounds, and if the compliance matrix is at least m, each pressure differs from the exact one by at most the root of that sum divided by m. On the periodic half-space, if the displacements returned by the Fourier transforms are within rho of the exact response, then the distance of the returned pressures to the contact state of C78 (in energy, mean pressure, and at every point) is bounded by pressures times these tolerances, and if tolerances and rho stay below eps, the roots of the mean pressures differ by at most the root of the uniform stiffness times eps.", "quantifier": "all surfaces, masks, offsets, loads, tolerances, initial guesses, numbers of iterations and points; all matrices; all orders of summation; every arithmetic with these rounding errors, proved for IEEE 754 binary64", "why_tests_cant": "tests compare a few solutions with tolerances chosen by hand; here the distance from the exact solution is bounded for every input", "anchors": ["ContactMechanics/Optimization/ConstrainedConjugateGradients.py:constrained_conjugate_gradients"]}
{"id": "C89", "title": "The text maps of the command line are read back exactly", "statement": "A table of doubles written with savetxt in the format of the command line (19 digits) under any comment without carriage returns is read by loadtxt as the same table, including signs of zeros and infinities, and as no other one; a contact map is read as zeros and ones. Every map file of a run has one row for each row of the map and one number for each column; the number differs from the value of the calculation by at most 5e-19 of it, and if the value is a double, then it is read exactly. The file starts with lines for the version and the command line, then for the first map of a calculation one line for each value of the log line, and the title; the title is not in a line of its own when values precede it, but follows the fractional area without a separator (a defect). A size argument is accepted exactly if it consists of two numbers separated by one comma. A carriage return in the comment ends it: what follows is read as the first row (C89_break_refuted).", "quantifier": "all tables of doubles without nan, all comments without carriage returns; all arguments, topographies, solvers and results of a run; all strings", "why_tests_cant": "the tests check that files exist and compare some maps with a tolerance; that nineteen digits identify every one of the 2^64 doubles cannot be tested", "anchors": ["ContactMechanics/CommandLineInterface/HardWall.py:save_contact", "ContactMechanics/CommandLineInterface/HardWall.py:save_pressure", "ContactMechanics/CommandLineInterface/HardWall.py:save_gap", "ContactMechanics/CommandLineInterface/HardWall.py:tuple2"]}
{"id": "C90", "title": "The NetCDF file of the command line holds the calculations exactly", "statement": "A run of the command line that ends normally writes its NetCDF file without an exception and leaves other files alone. Opening the file afterwards, to read or to append, gives one frame for each calculation, in the order of the calculations, with exactly the displacements, forces, rigid body position, load and fractional contact area of that calculation; what the file contained before is gone. If the run ends with an exception, the file that is still open has one complete frame for each line of the log.", "quantifier": "all arguments, topographies, previous files and solvers whose forces have the grid of the topography and whose displacements cover it", "why_tests_cant": "the tests of the command line check two runs; frames of all grids, numbers of steps and previous contents of the file are not covered", "anchors": ["ContactMechanics/CommandLineInterface/HardWall.py:dump_nc", "ContactMechanics/CommandLineInterface/HardWall.py:main", "ContactMechanics/IO/NetCDF.py:NetCDFContainer"]}
{"id": "C91", "title": "The command line with the real solver: its results are states of the stated substrate", "statement": "The command line, with the constrained conjugate gradient solver and the half-spaces of the package. In every frame of the NetCDF file the displacements and the forces belong to each other on the substrate of the arguments: wave by wave with the stiffness of the periodic half-space or layer of the given modulus, Poisson number and thickness, or point by point with the influence function of the nonperiodic half-space; elastic or plastic, converged or not, also after the file has been read back. Where a prescribed pressure converges, the mean pressure of the output line differs from it by less than the relative tolerance of the solver. On the periodic half-space the violations of the contact conditions in a frame bound its distance to the solution of the contact problem at the position of the frame, and a frame without violation is the solution. Runs on grids of at least 2 x 2 points end normally if the run is elastic or automatic and the solver finds a tolerance. A flat surface at a prescribed pressure without --pentol ends with a TypeError instead.", "quantifier": "all arguments, topographies, material parameters, tolerances, numbers of steps and iterations, previous files", "why_tests_cant": "the tests run the command line on two topographies and compare a few numbers; the elastic response of every frame and the failure on flat surfaces are not covered", "anchors": ["ContactMechanics/CommandLineInterface/HardWall.py:main", "ContactMechanics/CommandLineInterface/HardWall.py:next_step", "ContactMechanics/CommandLineInterface/HardWall.py:dump_nc", "ContactMechanics/Optimization/ConstrainedConjugateGradients.py:constrained_conjugate_gradients", "ContactMechanics/Systems.py:NonSmoothContactSystem.minimize_proxy", "ContactMechanics/FFTElasticHalfSpace.py"]}
{"id": "C92", "title": "The contact map of the command line", "statement": "Elastic runs of the command line with the real solver. Every file of the contact map belongs to one calculation, and every calculation has its file. The map has the shape of the computational grid: n x m on periodic runs, 2n x 2m on nonperiodic ones, unlike the other maps; no point outside of the topography is marked. If the calculation converged, no pressure is negative, no gap is below minus the tolerance, a point that is not marked carries no pressure, and if the solver has made a step a marked point is closer to the wall than the tolerance times one plus the root of the number of marked points; the contact area of the log line is at most the number of marked points. The exception is a prescribed pressure that the solver spreads evenly before its first step: there every point is counted as contact and the map can be empty (C92_light_refuted).", "quantifier": "all arguments, topographies, material parameters, tolerances, numbers of steps and iterations", "why_tests_cant": "the tests do not read the contact maps back; the relation between the marks, the pressures and the gaps holds for every surface only by proof", "anchors": ["ContactMechanics/CommandLineInterface/HardWall.py:main", "ContactMechanics/CommandLineInterface/HardWall.py:dump", "ContactMechanics/Optimization/ConstrainedConjugateGradients.py:constrained_conjugate_gradients"]}
{"id": "C93", "title": "The contact problem on every periodic substrate", "statement": "Take any PeriodicFFTElasticHalfSpace (any positive modulus, Poisson number, sizes, thickness, stiffness_q0 other than 0; line or surface). For every surface and offset there is exactly one pair of forces and displacements such that evaluate_disp maps the forces to the displacements, no force is tensile, nothing penetrates and no force acts across a gap. The mean force never falls when the surface is pushed further, never rises faster than k (net force of evaluate_force per net displacement: stiffness_q0, or the uniaxial stiffness of the layer, or by default the average of the stiffnesses of the longest waves, times the area of a point), is never below k times (mean height + offset), and every positive mean force belongs to exactly one offset and state. For forces and their response the violations of the contact conditions bound the energy of the difference to that state and the load error; with no tension and violations at most eps the roots of the mean forces differ by at most sqrt(k*eps). A converged run of the solver on such a substrate, at given offset or load, has eps = pentol*(1+sqrt(number of points)). With stiffness_q0=0 there is no state whenever mean height + offset is positive. At a given load, whatever stiffness_q0 (also 0), there is exactly one offset and state; forces and gaps are the same for all values of stiffness_q0; forces of that load that meet the contact conditions within eps differ from it by an energy of at most 2*eps*load, and a converged load-controlled run returns exactly the load and has that bound.", "quantifier": "all substrate arguments, grids, heights, offsets, loads, forces, solver options and runs", "why_tests_cant": "existence and uniqueness quantify over all force fields and all substrates; the error bounds hold for every run", "anchors": ["ContactMechanics/FFTElasticHalfSpace.py:PeriodicFFTElasticHalfSpace.evaluate_disp", "ContactMechanics/FFTElasticHalfSpace.py:PeriodicFFTElasticHalfSpace.evaluate_force", "ContactMechanics/FFTElasticHalfSpace.py:PeriodicFFTElasticHalfSpace._compute_greens_function", "ContactMechanics/Optimization/ConstrainedConjugateGradients.py:constrained_conjugate_gradients"]}
{"id": "C94", "title": "When the plastic solver mixes", "statement": "In every run of constrained_conjugate_gradients with a scalar hardness, iteration i is a mixing step (status mix) if and only if, in the forces before it, no point is under compression or at most one percent of the compressed points are below the hardness, or mixing has begun and has lasted fewer than minmixsteps iterations; otherwise it is a conjugate gradients or steepest descent step. In a detailed log the column mixfac shows mixfac times mixfac_decrease to the power of the number of mixing steps since mixing began; after a conjugate gradients step it starts again from mixfac.", "quantifier": "all surfaces, hardnesses >= 0, substrates, masks, process layouts, parameters, iterations of runs of any length", "why_tests_cant": "The rule couples counts over the whole grid, the history of the run and a threshold; tests execute a few runs and check only the final state.", "anchors": ["ContactMechanics/Optimization/ConstrainedConjugateGradients.py:258-332"]}
{"id": "C95", "title": "Fourier-space evaluators return the transforms", "statement": "On every PeriodicFFTElasticHalfSpace evaluate_k_disp returns, for all stored frequencies, the unnormalised discrete Fourier transform of what evaluate_disp returns, evaluate_k_force that of evaluate_force; evaluate_k_force_k maps the transform of a displacement to the transform of its force; forces to displacements to forces in Fourier space returns the transform of the forces unless stiffness_q0 is 0; arrays of another shape raise the substrate's error.", "quantifier": "all grids (one- and two-dimensional, even and odd), sizes, moduli, thicknesses, stiffness_q0, all force and displacement arrays", "why_tests_cant": "Signs, area factors and the storage of half of the frequencies have to agree for all grids and all fields.", "anchors": ["ContactMechanics/FFTElasticHalfSpace.py:613-674"]}
{"id": "C96", "title": "Contact with a hardness on every periodic substrate", "statement": "On every periodic substrate (line or surface, any modulus, Poisson number, thickness and stiffness_q0 other than 0), for every surface, hardness and offset there is exactly one state in which the displacements are the substrate's response to the forces, forces lie between zero and the hardness, points below the hardness are not penetrated and points carrying force are not separated. The mean force grows with the offset, at most at the stiffness of the substrate, reaches every value between zero and the hardness, and every such value determines the forces and displacements. All points yield exactly from the offset on at which the uniform force has moved the substrate below the surface. Flattening the surface where it yields gives the same state elastically. A converged offset-controlled solver run whose last iteration was a conjugate gradients step returns the response to its forces, fulfils the conditions up to pentol (1 + sqrt n), and the square root of its mean force differs from the exact one by at most sqrt (k pentol (1 + sqrt n)).", "quantifier": "all grids, sizes, moduli, thicknesses, stiffness_q0, surfaces, hardnesses, offsets, loads, tolerances, converged runs of any length", "why_tests_cant": "Existence and uniqueness of the plastic state and the distance of computed to exact forces are statements about all surfaces and all runs; tests compare a few computed numbers with each other.", "anchors": ["ContactMechanics/FFTElasticHalfSpace.py:64-700", "ContactMechanics/Optimization/ConstrainedConjugateGradients.py:44-486"]}
{"id": "C97", "title": "Energy and load of the contact on every periodic substrate", "statement": "On every periodic substrate (line or surface, any modulus, Poisson number, thickness, stiffness_q0 other than 0): evaluate reports for the response to forces half their work, and every displacement is the response to some forces. Along the contact states of a surface pushed into the substrate the derivative of the reported energy is the load, the energy gained between two offsets is the area under the load curve, the energy is convex and zero without contact. The contact state has the least reported energy of all displacements that keep clear of the surface; forces without tension bound it from below. The energies of two surfaces differ by at least the work of the first and at most the work of the second forces on the rise. The energy in the result object of a solver run is the one that the substrate reports for the returned displacements, and for a converged run it differs from the exact one by at most the work of the loads on pentol (1 + sqrt n).", "quantifier": "all grids, sizes, moduli, thicknesses, stiffness_q0, surfaces, offsets, loads, admissible displacements and forces, converged runs of any length", "why_tests_cant": "Derivatives, areas under the load curve and minimality over all admissible displacements quantify over infinitely many states; tests compare single energies.", "anchors": ["ContactMechanics/FFTElasticHalfSpace.py:676-862", "ContactMechanics/Optimization/ConstrainedConjugateGradients.py:44-486"]}
{"id": "C98", "title": "The contact on a periodic substrate does not depend on the units", "statement": "Describe a periodic substrate (modulus, cell, thickness, stiffness_q0), a surface, a hardness, a load and the tolerances in other units of length and pressure. The constructor raises the same errors and returns an object in the same cases. Displacements, contact states with and without hardness, and the energy of the new object are those of the old one expressed in the new units (on a line the force on a point is a pressure times a length). A solver run takes the same number of iterations, ends with the same message or exception, and returns displacements, forces, offset and energy in the new units and the same plastic zone.", "quantifier": "all positive unit factors, grids (one and two dimensional), sizes, moduli, Poisson numbers, thicknesses, stiffness_q0, surfaces, hardnesses, loads, offsets, tolerances and numbers of iterations", "why_tests_cant": "A hidden absolute length or pressure (a default of 1, a fixed epsilon) is only visible for the inputs where it matters; tests use one set of units.", "anchors": ["ContactMechanics/FFTElasticHalfSpace.py:232-862", "ContactMechanics/Optimization/ConstrainedConjugateGradients.py:44-486"]}
{"id": "C99", "title": "Forces and energy of the free and semi-periodic half-spaces", "statement": "On the computational (padded) grid of a free or semi-periodic half-space: the energy of evaluate is minus half the sum of displacement times force of evaluate_force, and it is the same number whether evaluate is asked for forces as well (sum in real space) or not (sum in Fourier space). Forces and displacements obey reciprocity, and the forces are minus the gradient of the energy: energy(u+v) = energy(u) - sum v force(u) + energy(v). If the influence function has no zero in Fourier space, evaluate_force and evaluate_disp are inverse to each other and the energy is half the work of the forces. The semi-periodic class returns for a smaller displacement array the forces of that array padded with zeros and raises ValueError when energy and forces of it are asked for together or when it does not fit; the free class raises its own error for every other shape. Asked for the energy alone, evaluate (of all three classes) does not pad: axes of length 1 are repeated and every other shape raises ValueError. A single number or a single row is repeated in the same way, on lines and planes.", "quantifier": "all grids, sizes, moduli, periodicities, numbers of images, displacement fields, array shapes", "why_tests_cant": "Tests compare a few force arrays; equality of the real-space and Fourier-space energies, reciprocity over the padding region and the gradient relation range over all displacement fields.", "anchors": ["ContactMechanics/FFTElasticHalfSpace.py:591-684", "ContactMechanics/FFTElasticHalfSpace.py:841-862", "ContactMechanics/FFTElasticHalfSpace.py:1159-1197", "ContactMechanics/FFTElasticHalfSpace.py:1538-1559"]}
{"id": "C100", "title": "Free and semi-periodic half-spaces do not depend on the units", "statement": "If the modulus and the sizes of a free or semi-periodic half-space are given in other units of pressure (factor c) and length (factor lam), then the constructor raises the same errors; evaluate_disp of forces given in the new unit c lam^2 returns the old displacements times lam, evaluate_force returns the old forces times c lam^2, evaluate the old energy times c lam^3, for arrays of every shape and with the same errors for shapes that are refused; the check of the rim raises in the same cases; spawn_child makes the same child in the new units; get_G_real shows the influence function times lam/c. A run of the contact solver on such a half-space, with heights, offset, tolerances, force and hardness in the new units, does the same iterations and returns the same contact with forces and displacements in the new units.", "quantifier": "all positive unit factors, grids, sizes, moduli, periodicities, numbers of images, array shapes, fields, solver options, hardness or none, force or displacement control, numbers of iterations", "why_tests_cant": "The tests use one set of numbers per case; an absolute constant in one of the formulas only shows for some orders of magnitude.", "anchors": ["ContactMechanics/FFTElasticHalfSpace.py:949-977", "ContactMechanics/FFTElasticHalfSpace.py:1033-1283", "ContactMechanics/FFTElasticHalfSpace.py:1343-1591", "ContactMechanics/Optimization/ConstrainedConjugateGradients.py:187-509"]}
{"id": "C101", "title": "Symmetries of the free and semi-periodic half-spaces", "statement": "Two free half-spaces with the same modulus and pixel sizes show the same displacements around one pattern of forces, wherever the pattern sits on their grids and however large the grids are. On free and semi-periodic half-spaces mirrored forces give mirrored displacements along either axis. Exchanging the axes of the grid, the sizes, the periodicity and the forces exchanges the axes of the displacements. With a positive modulus and positive pixel sizes, pushing harder at some points and nowhere less moves every point of the surface strictly further.", "quantifier": "all grids, sizes, moduli, places and extents of the pattern, force fields, periodicities, numbers of images", "why_tests_cant": "The tests compare a few grids and mostly symmetric loads, for which a transposed, shifted or wrapped influence function gives the same answer.", "anchors": ["ContactMechanics/FFTElasticHalfSpace.py:1033-1283", "ContactMechanics/FFTElasticHalfSpace.py:1343-1591"]}
{"id": "C102", "title": "Contact on a free half-space does not depend on the size of the domain", "statement": "Let the grid of one free half-space be a window of the grid of another one with the same modulus and pixel sizes, and let the surface of the second continue that of the first without reaching the undeformed half-space outside the window. Forces that hold the first in contact with its surface (no tension, penetration and distance of loaded points within a tolerance) hold the second in contact with the continued surface, with the same displacements in the window and an open gap everywhere outside it. Conversely a contact of the second without forces outside the window is one of the first. For every elastic run of the solver at a given offset on the first half-space, converged or not, the second answers to the returned forces with the returned displacements in the window.", "quantifier": "all grids, windows, sizes, moduli, surfaces, offsets, tolerances, force fields, solver options, numbers of iterations", "why_tests_cant": "examples/decoupling.py shows two sizes of the domain for a sphere in plots; an influence of the images, of the position in the grid or of the size of the padding can be small there.", "anchors": ["ContactMechanics/FFTElasticHalfSpace.py:888-1283", "ContactMechanics/Optimization/ConstrainedConjugateGradients.py:187-509", "examples/decoupling.py:1-6"]}
{"id": "C103", "title": "The command line on layers: frames against the contact problem", "statement": "Runs of the command line with --boundary=periodic, with or without --thickness. The displacements of every frame are what evaluate_disp of the substrate built from the same arguments returns for the forces of the frame. The violations of the contact conditions in a frame bound its distance to the one solution of the contact problem at the position of the frame and the error of its net force, with the net stiffness of the substrate (for a layer its uniaxial stiffness per thickness) as the only constant; a frame without violations is the solution. Of two frames without violations the one at the larger position has the larger net force, and their difference is at most the net stiffness times the difference of the positions.", "quantifier": "all arguments, topographies, thicknesses, material parameters, tolerances, frames, heights, tolerances of the violations", "why_tests_cant": "the tests of the command line run no layer; no test compares its frames with the solution of the contact problem", "anchors": ["ContactMechanics/CommandLineInterface/HardWall.py:main", "ContactMechanics/CommandLineInterface/HardWall.py:dump_nc", "ContactMechanics/FFTElasticHalfSpace.py:PeriodicFFTElasticHalfSpace", "ContactMechanics/Optimization/ConstrainedConjugateGradients.py:constrained_conjugate_gradients"]}
{"id": "C104", "title": "Limits of the asymptotic formulas of Greenwood and Tripp", "statement": "The functions s and xi of GreenwoodTripp.py with any values of their optional limits. s(x, xi1, xi2) is the documented combination of elliptic integrals between the limits (xi2 not below 1); below xi1 its relative error is at most x^2 (x up to 3/4), above xi2 at most 1/x^2. s is strictly increasing for x >= 0 for all limits, except when xi2 < xi1 < 1 (xi1 > 0), where it is not. xi(s, s1, s2) raises TypeError exactly if an element lies between s1 and s2, raises nothing else, and otherwise inverts s exactly for elements below xi1^2/2 and above xi2.", "quantifier": "all limits, all arguments x >= 0, all arrays", "why_tests_cant": "the tests use the default limits and a few values; orders of the limits and the ends of the ranges are not covered", "anchors": ["ContactMechanics/ReferenceSolutions/GreenwoodTripp.py:57-84", "ContactMechanics/ReferenceSolutions/GreenwoodTripp.py:88-103"]}
{"id": "C105", "title": "The contact solver on layers and lines: exact line search and number of iterations", "statement": "On every periodic substrate that the constructor accepts with positive sizes and moduli (lines and planes, half-spaces and layers of finite thickness, any stiffness_q0 other than zero) an elastic run of the constrained conjugate gradient solver at a given offset minimises the complementary energy along its search direction in every step. If from a fresh start of conjugate gradients on the contact area is the same N points, then iterate N is an exact solution of the contact problem of that substrate, at the given offset or, in load control, at its own offset with exactly the requested load, and the call returns success at most one iteration later.", "quantifier": "all constructor arguments, surfaces, offsets, loads, tolerances and iterates", "why_tests_cant": "exact termination in real arithmetic for every surface and thickness cannot be observed by running floating-point code on samples", "anchors": ["ContactMechanics/Optimization/ConstrainedConjugateGradients.py:constrained_conjugate_gradients", "ContactMechanics/FFTElasticHalfSpace.py:PeriodicFFTElasticHalfSpace"]}
{"id": "C106", "title": "Units and table of the command line", "statement": "With --height-unit h the heights of a file are multiplied by the quotient of the units h and the unit of lengths in metres (and by --height-fac): A is 1e-10, nm 1e-9, \u00b5m 1e-6, mm 1e-3, m and unknown 1; any other name of either unit is a KeyError before anything is written. Every line of the log has the seven titles mean elastic, mean rigid, mean gap, load, mean pressure, area, fractional area with their units, 'E*' if the reported modulus is one and '[Units of E*]' otherwise. The first map of calculation i (in the order contact, pressure, displacement, gap) has exactly these seven titled numbers of line i of the log in its header, the other maps have none.", "quantifier": "all command lines, files, solvers and numbers of calculations", "why_tests_cant": "the command line is tested for one file in one unit; headers are not compared", "anchors": ["ContactMechanics/CommandLineInterface/HardWall.py:54-57", "ContactMechanics/CommandLineInterface/HardWall.py:158-186", "ContactMechanics/CommandLineInterface/HardWall.py:370-377"]}
{"id": "C107", "title": "Minimisation over the displacements", "statement": "SystemBase.minimize_proxy leaves the state of the displacements it returns, whether or not the optimiser reports success: displacements, offset, gap, energy and forces of the system and of its substrate all belong to them. The contact zone (and so the number of contact points) is not updated and remains that of an earlier calculation. The displacements and the gradient of the result are the optimiser's, entry by entry, in the shape of the substrate; the optimiser starts from the entries of the initial displacements (zero without any), and the result does not depend on what the system was used for before. If the optimiser reports the gradient of the point it returns, the forces of the state are its negative and the energy is the value of the objective. Initial displacements of another size raise IncompatibleResolutionError and change nothing. On a periodic half-space or layer a stationary point found by such an optimiser is the undeformed substrate: no energy, no forces, and no displacement except a uniform one where nothing resists it.", "quantifier": "all substrates, surfaces, offsets, earlier states, and all optimisers (any program asking the objective and its Hessian product at any points in any order)", "why_tests_cant": "tests run one optimiser that succeeds on a fresh system", "anchors": ["ContactMechanics/Systems.py:224-338"]}
{"id": "C108", "title": "Bounds of the minimisation over the displacements", "statement": "SystemBase.minimize_proxy with method L-BFGS-B, TNC or SLSQP and an optimiser that keeps the bounds it is given: displacements within lbounds and ubounds wherever these are not masked; with lbounds='auto' a gap that is nowhere negative, with any upper bounds and whether or not the optimiser reports success. If the optimiser's results satisfy the optimality conditions of the bounds, the state solves the contact problem: no negative gap, only pressure, none where there is a gap and none outside the topography. Every other method gets no bounds: the call is the one without them, and surfaces may penetrate although lbounds='auto' was given. Without bounds the call is the one of C107. More than one process, initial displacements of another size (IncompatibleResolutionError) and any text other than 'auto' raise before the optimiser starts and change nothing. These methods get exactly the given bounds, infinite ones for the missing side and for masked entries, and none if neither side is given. Without gradient no forces are computed; displacements, offset, gap and energy of the state belong to the result all the same. On a periodic half-space or layer that resists uniform displacement, all optimisers satisfying the optimality conditions return the same displacements and forces, from any start and with any of the three methods: the unique solution of the contact problem of C93.", "quantifier": "all substrates including padded ones, surfaces, offsets, earlier states, bounds, methods and optimisers", "why_tests_cant": "tests run one optimiser on a few surfaces; the methods that drop the bounds are never run with bounds", "anchors": ["ContactMechanics/Systems.py:197-338"]}
