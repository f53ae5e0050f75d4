{"id": "C01", "title": "bisection stays inside its bracket and returns only a certified approximation", "statement": "When bisection(func,xl,xr,ftol,xtol,maxiter) is called with func(xl) and func(xr) of strictly opposite sign and returns normally, the returned x lies between xl and xr, and either |func(x)| <= ftol, or x is the midpoint of a sub-interval no wider than xtol on whose ends func has strictly opposite signs, or func(x) is exactly zero. With func(xl)*func(xr) > 0 it always throws before iterating.", "quantifier": "every real function, every bracket, every tolerance and every maxiter", "why_tests_cant": "a test samples a few functions; the bracket invariant has to survive every sequence of sign patterns the function can produce", "anchors": ["src/utils/utils.cpp:bisection"]}
{"id": "C02", "title": "bisection reports failure only when it failed, and finds a root at an end point", "statement": "If one end of the interval is an exact root, bisection returns a point where |func| <= ftol or within xtol of a root; and bisection throws 'did not converge' only if neither tolerance was met when the iterations ran out.", "quantifier": "every real function with func(xl)*func(xr) <= 0, every tolerance, every maxiter", "why_tests_cant": "both corner cases (zero end point, convergence on the very last allowed iteration) are measure-zero in sampled inputs", "anchors": ["src/utils/utils.cpp:bisection"]}
{"id": "C03", "title": "secant is exact on affine functions and never returns an unconverged point silently", "statement": "On every affine function with non-zero slope and distinct starting points secant returns the exact root after at most one update (given maxiter >= 1). When secant returns normally, either |func(x)| <= ftol or the last update was smaller than xtol; otherwise it throws.", "quantifier": "every function, every pair of starting points, tolerances and maxiter", "why_tests_cant": "'did not converge silently' is a statement about all functions, including adversarial ones", "anchors": ["src/utils/utils.cpp:secant"]}
{"id": "C04", "title": "backtracking line search returns a sufficient-decrease step or zero", "statement": "BacktrackingLineSearch::search returns either 0.0 after exactly maxiter rejected backtracks or a step a with phi(a) <= phi0 + mu*a*dphi0; the returned non-zero step is in (0, alpha], each backtrack multiplies the trial step by a factor in [rho_lo, rho_hi], and at most maxiter+1 evaluations of phi are made.", "quantifier": "every merit function phi, every initial step alpha > 0, every option setting with 0 < rho_lo <= rho_hi < 1, every maxiter", "why_tests_cant": "the backtracking path depends on every sampled value of an arbitrary function", "anchors": ["src/common/linesearch.cpp:BacktrackingLineSearch::search", "src/common/linesearch.hpp:BacktrackingLineSearch"]}
{"id": "C05", "title": "line-search interpolation steps are stationary points of the interpolant", "statement": "The quadratic (cubic) interpolation used to pick the next trial step returns a stationary point of the quadratic (cubic) polynomial that matches phi(0), phi'(0) and the sampled value(s), in every branch, and the minimiser when the interpolant has one.", "quantifier": "all real sample values and step lengths for which the interpolant is defined", "why_tests_cant": "the degenerate branch of the cubic (leading coefficient tiny) is hit only on a thin set of inputs", "anchors": ["src/common/linesearch.cpp:quadratic_interp", "src/common/linesearch.cpp:cubic_interp", "src/utils/utils.cpp:quadInterp"]}
{"id": "C06", "title": "inexact Newton: converged flag, final norm and monotone residual", "statement": "After InexactNewton::Mult, the solver reports converged iff the residual norm at the returned iterate is <= max(rel_tol*norm0, abs_tol); the reported final norm is the residual norm at the returned iterate; and the residual norm never increases from one accepted iterate to the next.", "quantifier": "every residual operator, every sequence of linear-solver answers, every tolerance and iteration limit", "why_tests_cant": "it is an invariant of an unbounded loop driven by an arbitrary nonlinear operator and inner solver", "anchors": ["src/common/inexact_newton.cpp:InexactNewton::Mult", "src/common/inexact_newton.cpp:InexactNewton::ComputeStepSize"]}
{"id": "C07", "title": "inexact Newton uses the true directional derivative of the merit function", "statement": "The slope handed to the quadratic model in InexactNewton::ComputeStepSize equals the derivative at step 0 of 1/2||R(x - s c)||^2, for every linear residual R.", "quantifier": "every (not necessarily symmetric) Jacobian matrix, residual and update", "why_tests_cant": "only non-symmetric Jacobians separate the right from the wrong formula; unit tests use tiny symmetric problems", "anchors": ["src/common/inexact_newton.cpp:InexactNewton::ComputeStepSize"]}
{"id": "C08", "title": "kd-tree nearest-neighbour search is exact", "statement": "After any sequence of add_node calls and finalize on a non-empty tree, nearest(x) returns the user index of an inserted point whose distance to x is minimal over all inserted points, and distance() then returns that distance.", "quantifier": "every point set (duplicates, collinear sets included), every query, every dimension, every tie-breaking of nth_element, exact and rounded arithmetic", "why_tests_cant": "pruning bugs only show for special point/query configurations", "anchors": ["src/utils/kdtree.hpp:kdtree::nearest", "src/utils/kdtree.hpp:kdtree::make_tree", "src/utils/kdtree.hpp:kdtree::finalize"]}
{"id": "C09", "title": "kd-tree structural safety", "statement": "nearest on an empty tree throws; on a non-empty finalized tree it never dereferences outside the node array, visits at most every node once, and a second query is unaffected by earlier queries.", "quantifier": "every point set, every sequence of queries", "why_tests_cant": "history independence is a claim about all query sequences", "anchors": ["src/utils/kdtree.hpp:kdtree"]}
{"id": "C10", "title": "binary state log round-trips", "statement": "Loading (field,timestep,rank) with BinaryLogger after a history of saves returns exactly the time and vector most recently saved under that key (and nothing saved under other keys affects it).", "quantifier": "every history of save calls, every vector length, every bit pattern of double", "why_tests_cant": "an unbounded history and all 2^64 doubles", "anchors": ["src/common/data_logging.hpp:BinaryLogger"]}
{"id": "C11", "title": "ASCII state log round-trips", "statement": "A double printed by ASCIILogger (18 significant digits) and read back by correctly rounded decimal input is the same double; hence loading what was saved gives back the same vector and time.", "quantifier": "every finite double, every vector", "why_tests_cant": "2^64 values; the digit bound is a number-theoretic fact", "anchors": ["src/common/data_logging.hpp:ASCIILogger"]}
{"id": "C12", "title": "log file names are unambiguous", "statement": "Two saves write to the same file iff they have the same prefix+field name, time step and rank.", "quantifier": "all field names (underscores and digits allowed), all non-negative time steps and ranks", "why_tests_cant": "collision search space is infinite", "anchors": ["src/common/data_logging.hpp:ASCIILogger", "src/common/data_logging.hpp:BinaryLogger"]}
{"id": "C13", "title": "unsteady time loop ends at t-final and never past it", "statement": "With default options (exact-t-final) and dt > 0 the time loop's recorded times are strictly increasing, every step is at most dt, no time exceeds t-final, and if the step limit is not hit the last time is within 1e-14*dt of t-final; with exact-t-final false the overshoot is below dt; the number of steps is the least possible.", "quantifier": "every t-initial < t-final, dt > 0, every max-iter, every state dynamics", "why_tests_cant": "loop termination and end time for all step sizes", "anchors": ["src/common/abstract_solver.cpp:AbstractSolver2::solveForState", "src/common/abstract_solver.cpp:AbstractSolver2::calcStepSize", "src/common/abstract_solver.cpp:AbstractSolver2::iterationExit"]}
{"id": "C14", "title": "time-step logs form a faithful history", "statement": "With logging of initial state, each time step and final state enabled, after solveForState the log holds for every step i the state before step i at key i, the initial state at key 0, and the final state under its own key; nothing logged is lost.", "quantifier": "every number of steps, every logging option combination, every state dynamics", "why_tests_cant": "key collisions depend on the exit path and step count", "anchors": ["src/common/abstract_solver.cpp:AbstractSolver2::initialHook", "src/common/abstract_solver.cpp:AbstractSolver2::iterationHook", "src/common/abstract_solver.cpp:AbstractSolver2::terminalHook", "src/common/abstract_solver.cpp:AbstractSolver2::solveForState"]}
{"id": "C15", "title": "solver options override defaults and leave the rest", "statement": "After construction, an option the user set (non-null) has the user's value, an option the user did not mention keeps its default at every nesting depth, null removes a default; setOptions later deep-merges in the same way without removing anything.", "quantifier": "every JSON document given as options, every nesting depth", "why_tests_cant": "all JSON trees", "anchors": ["src/common/abstract_solver.cpp:AbstractSolver2::AbstractSolver2", "src/common/abstract_solver.cpp:AbstractSolver2::setOptions", "src/common/default_options.cpp:default_options"]}
{"id": "C16", "title": "named inputs reach exactly the parameters they name", "statement": "Setting a scalar/vector parameter from an input dictionary assigns it iff the key is present with the right alternative, leaves it unchanged if absent (or throws when required), throws on the wrong alternative, and a shallow copy keeps aliasing the caller's buffer while a deep copy does not.", "quantifier": "every dictionary, key, value and later mutation of the caller's buffer", "why_tests_cant": "aliasing bugs need a later write to show", "anchors": ["src/physics/miso_input.cpp:setValueFromInputs", "src/physics/miso_input.cpp:setVectorFromInputs"]}
{"id": "C17", "title": "output registry is sound", "statement": "createOutput on an existing name throws and changes nothing; every query on a name never created throws; queries on created outputs never throw for that reason, whatever other outputs were created before or after.", "quantifier": "every sequence of createOutput/calcOutput/setOutputOptions calls", "why_tests_cant": "all histories", "anchors": ["src/common/abstract_solver.cpp:AbstractSolver2::createOutput", "src/common/abstract_solver.cpp:AbstractSolver2::calcOutput"]}
{"id": "C18", "title": "output partials: overwrite versus accumulate is uniform", "statement": "calcOutputPartial returns the partial derivative itself whatever the previous content of the destination.", "quantifier": "every destination content, every output, scalar and vector inputs", "why_tests_cant": "depends on stale destination contents", "anchors": ["src/common/abstract_solver.cpp:AbstractSolver2::calcOutputPartial", "src/common/functional_output.cpp:calcOutputPartial"]}
{"id": "C19", "title": "forward and reverse output products are adjoint", "statement": "For every output, input name, direction wrt_dot and seed out_bar: out_bar . (J wrt_dot) = (J^T out_bar) . wrt_dot, where reverse mode adds to wrt_bar.", "quantifier": "all directions, seeds, sensitivities, previous contents of the accumulators", "why_tests_cant": "all vectors", "anchors": ["src/common/functional_output.cpp:jacobianVectorProduct", "src/common/functional_output.cpp:vectorJacobianProduct", "src/common/abstract_solver.cpp:AbstractSolver2::outputJacobianVectorProduct"]}
{"id": "C20", "title": "implicit time residual and its Jacobian agree", "statement": "The time-dependent residual of an ODE is M k + R(x + dt k) (M k + R(x) when dt = 0) and the Jacobian returned for it is the derivative of that residual with respect to k.", "quantifier": "every mass matrix, every spatial residual with a derivative, every x, k, dt", "why_tests_cant": "all states and dt, including the dt = 0 case split", "anchors": ["src/common/ode.cpp:evaluate", "src/common/ode.cpp:getJacobian"]}
{"id": "C21", "title": "time-marching updates are the documented schemes", "statement": "One step of each time marcher (steady/PTC implicit, RRK implicit midpoint, explicit RRK) advances state and time consistently: the state update is x + gamma*dt*k with the time update gamma*dt for the same gamma, and for linear dynamics it equals the textbook scheme.", "quantifier": "every right-hand side, state, dt", "why_tests_cant": "all dynamics", "anchors": ["src/common/mfem_extensions.cpp:PseudoTransientSolver::Step", "src/common/mfem_extensions.cpp:RRKImplicitMidpointSolver::Step", "src/common/mfem_extensions.cpp:ExplicitRRKSolver::Step", "src/common/mfem_extensions.cpp:SteadyODESolver::Step"]}
{"id": "C22", "title": "relaxation Runge-Kutta conserves or dissipates entropy exactly as predicted", "statement": "If the relaxation factor solves the relaxation equation, the entropy after a relaxed step equals the entropy before it minus gamma*dt*(predicted entropy change rate); with an entropy-conservative semi-discretization entropy is conserved.", "quantifier": "every entropy function and right-hand side", "why_tests_cant": "all dynamics", "anchors": ["src/common/mfem_extensions.cpp:RRKImplicitMidpointSolver::Step", "src/common/mfem_extensions.cpp:ExplicitRRKSolver::Step"]}
{"id": "C23", "title": "the sixth-order RRK tableau is consistent", "statement": "The 8-stage tableau of RRK6Solver satisfies the row-sum condition c_i = sum_j a_ij and the order conditions it advertises.", "quantifier": "the exact rational/decimal tableau values in the code", "why_tests_cant": "a convergence test cannot separate order 6 from coefficient typos at rounding level", "anchors": ["src/common/mfem_extensions.cpp:RRK6Solver"]}
{"id": "C24", "title": "sums of operators depend only on their operands", "statement": "Applying the operator a*A+b*B to x gives a*(A x)+b*(B x) whatever was applied before and whatever the destination held.", "quantifier": "all operators, scalars a and b, vectors and histories", "why_tests_cant": "stale buffers show only after particular histories", "anchors": ["src/common/matrix_operators.cpp:SumOfOperators::Mult", "src/common/matrix_operators.cpp:SumOfOperators::Add"]}
{"id": "C25", "title": "Jacobian-free product is exact on affine residuals", "statement": "JacobianFree::Mult(x,y) sets y = scale*J x + B x exactly for every affine residual with Jacobian J, whatever y held before.", "quantifier": "every affine residual, base state, scale, explicit operator, x", "why_tests_cant": "all operators and stale contents", "anchors": ["src/common/matrix_operators.cpp:JacobianFree::Mult", "src/common/matrix_operators.cpp:JacobianFree::getStepSize"]}
{"id": "C26", "title": "block-Jacobi preconditioner and its transpose are an adjoint pair", "statement": "<BlockJacobi.Mult(x), y> = <x, BlockJacobi.MultTranspose(y)>, unset blocks act as the identity, and each block of the result depends only on the same block of the argument.", "quantifier": "every number and size of blocks, every block operator with an adjoint", "why_tests_cant": "all block structures", "anchors": ["src/common/mfem_extensions.cpp:BlockJacobiPreconditioner"]}
{"id": "C27", "title": "solver factories accept exactly the documented names", "statement": "Linear-solver, nonlinear-solver, preconditioner, line-search and time-marcher factories return the documented object for each documented name, honour the tolerances/limits given in the options, and throw MISOException for every other name.", "quantifier": "every string and option dictionary", "why_tests_cant": "all strings", "anchors": ["src/common/mfem_extensions.cpp:constructLinearSolver", "src/common/mfem_extensions.cpp:constructNonlinearSolver", "src/common/ode.cpp:FirstOrderODE::setTimestepper", "src/common/relaxed_newton.cpp:createLineSearch"]}
{"id": "C28", "title": "conservative and entropy variables are mutual inverses", "statement": "Converting a physical conservative state to entropy variables and back (and the other way for entropy variables with negative last component) is the identity, in 1, 2 and 3 space dimensions; converted states are physical (positive density and pressure).", "quantifier": "every state with positive density and pressure, every dimension", "why_tests_cant": "a continuum of states", "anchors": ["src/physics/fluidflow/euler_fluxes.hpp:calcEntropyVars", "src/physics/fluidflow/euler_fluxes.hpp:calcConservativeVars"]}
{"id": "C29", "title": "pressure, entropy and spectral radius are independent of the choice of variables", "statement": "entropy computed from entropy variables equals entropy computed from the corresponding conservative variables; likewise for the spectral radius; entropy variables are the gradient of the entropy; entropy is strictly convex.", "quantifier": "every physical state, every dimension", "why_tests_cant": "a continuum of states", "anchors": ["src/physics/fluidflow/euler_fluxes.hpp:entropy", "src/physics/fluidflow/euler_fluxes.hpp:calcSpectralRadius", "src/physics/fluidflow/euler_fluxes.hpp:pressure"]}
{"id": "C30", "title": "logarithmic average", "statement": "logavg is symmetric, returns a when both arguments are a, lies between its arguments, and equals (aL-aR)/(ln aL - ln aR) outside the series branch and within a stated relative error in it.", "quantifier": "all positive pairs", "why_tests_cant": "needs the branch boundary and the limit at equal arguments", "anchors": ["src/physics/fluidflow/euler_fluxes.hpp:logavg"]}
{"id": "C31", "title": "Ismail-Roe flux is symmetric, consistent and entropy conservative", "statement": "The Ismail-Roe two-point flux is symmetric in its states, reduces to the Euler flux for equal states, satisfies Tadmor's condition (wL-wR).f = psiL-psiR (exactly whenever its logarithmic averages are exact, otherwise up to a 1e-16 relative defect), and its entropy-variable and face-normal variants agree with it.", "quantifier": "every pair of physical states, every direction, every dimension", "why_tests_cant": "a continuum of pairs", "anchors": ["src/physics/fluidflow/euler_fluxes.hpp:calcIsmailRoeFlux", "src/physics/fluidflow/euler_fluxes.hpp:calcIsmailRoeFluxUsingEntVars", "src/physics/fluidflow/euler_fluxes.hpp:calcIsmailRoeFaceFlux", "src/physics/fluidflow/euler_fluxes.hpp:calcIsmailRoeFaceFluxUsingEntVars"]}
{"id": "C32", "title": "interface dissipation never creates entropy", "statement": "The dissipation added to the entropy-conservative face flux has non-negative product with the entropy-variable jump, vanishes for equal states, and is built from dq/dw, which is symmetric positive definite and is the derivative of conservative by entropy variables.", "quantifier": "every pair of physical states, every face normal, every coefficient >= 0", "why_tests_cant": "a continuum of pairs", "anchors": ["src/physics/fluidflow/euler_fluxes.hpp:calcIsmailRoeFaceFluxWithDiss", "src/physics/fluidflow/euler_fluxes.hpp:calcdQdWProduct", "src/physics/fluidflow/euler_fluxes.hpp:applyLPSScaling"]}
{"id": "C33", "title": "Roe flux is consistent and conservative", "statement": "The Roe face flux of two equal states is the Euler flux in that direction, and swapping the states and reversing the normal negates it.", "quantifier": "every pair of physical states, every normal, every dimension and the entropy fix", "why_tests_cant": "a continuum of pairs", "anchors": ["src/physics/fluidflow/euler_fluxes.hpp:calcRoeFaceFlux", "src/physics/fluidflow/euler_fluxes.hpp:calcEulerFlux"]}
{"id": "C34", "title": "boundary fluxes are consistent", "statement": "The characteristic boundary flux of a state against itself is the Euler flux; the entropy-constrained boundary flux satisfies its entropy-flux constraint.", "quantifier": "every pair of physical states, normals and dimensions", "why_tests_cant": "a continuum", "anchors": ["src/physics/fluidflow/euler_fluxes.hpp:calcBoundaryFlux", "src/physics/fluidflow/euler_fluxes.hpp:calcBoundaryFluxEC", "src/physics/fluidflow/euler_fluxes.hpp:calcFarFieldFlux", "src/physics/fluidflow/euler_fluxes.hpp:calcControlFlux"]}
{"id": "C35", "title": "slip-wall treatment lets nothing through", "statement": "Projecting a state onto a wall leaves density (and energy) alone, makes the momentum tangential, is idempotent; the slip-wall flux has zero mass and energy flux and a purely normal momentum flux.", "quantifier": "every state, every non-zero normal, every dimension", "why_tests_cant": "a continuum", "anchors": ["src/physics/fluidflow/euler_fluxes.hpp:projectStateOntoWall", "src/physics/fluidflow/euler_fluxes.hpp:calcSlipWallFlux"]}
{"id": "C36", "title": "free-stream state matches the requested flow conditions", "statement": "The free-stream state built from Mach number, angle of attack and orientation has unit density, pressure 1/gamma, velocity of magnitude Mach in the requested direction.", "quantifier": "every Mach number and angle", "why_tests_cant": "a continuum", "anchors": ["src/physics/fluidflow/euler_fluxes.hpp:getFreeStreamQ"]}
{"id": "C37", "title": "orthonormal polynomial recurrences", "statement": "jacobiPoly(alpha,beta,degree) evaluates the degree-th normalised Jacobi polynomial; for alpha=beta=0 it is sqrt((2k+1)/2) times the Legendre polynomial at every degree, with the values 1 and (+-1)^k behaviour at the end points; the polynomials are orthonormal.", "quantifier": "every degree and abscissa", "why_tests_cant": "all degrees", "anchors": ["src/common/orthopoly.cpp:jacobiPoly"]}
{"id": "C38", "title": "Vandermonde matrices fill every column exactly once", "statement": "The segment/triangle/tetrahedron Vandermonde builders write each of the N = C(degree+dim,dim) columns exactly once, the k-th with the documented basis index, and never out of range.", "quantifier": "every degree", "why_tests_cant": "all degrees", "anchors": ["src/common/orthopoly.cpp:getVandermondeForSeg", "src/common/orthopoly.cpp:getVandermondeForTri", "src/common/orthopoly.cpp:getVandermondeForTet"]}
{"id": "C39", "title": "boundary attribute arrays", "statement": "The marker array built from a list of attribute numbers has 1 exactly at the listed attributes and 0 elsewhere; 'all' and 'none' give the constant arrays and any other string is refused.", "quantifier": "every list (repetitions, any order) of in-range attributes, every JSON value", "why_tests_cant": "all lists", "anchors": ["src/utils/utils.cpp:attrVecToArray", "src/utils/utils.cpp:getMFEMBoundaryArray"]}
{"id": "C40", "title": "surface mesh extraction", "statement": "The surface mesh extracted from marked boundary attributes has exactly the marked boundary elements, vertex numbering is a bijection between used boundary vertices and 0..n-1, every surface element refers to the same geometric vertices as its boundary element, and curved nodes are copied from the same element.", "quantifier": "every mesh connectivity and marker", "why_tests_cant": "all connectivities", "anchors": ["src/common/surface_def.hpp:Surface::Surface"]}
{"id": "C41", "title": "minimum-distance Newton certification", "statement": "The point-to-surface distance returned is the distance to a point on the surface.", "quantifier": "every surface and query point", "why_tests_cant": "a continuum", "anchors": ["src/common/surface_def.hpp:Surface::solveDistance", "src/common/surface_def.hpp:Surface::calcDistance"]}
{"id": "C42", "title": "PUMI library reference counting", "statement": "The PUMI/MPI mesh library is initialised before first use and finalised exactly once, when the last mesh using it goes away.", "quantifier": "every sequence of construct/move/destroy of meshes", "why_tests_cant": "all histories", "anchors": ["src/physics/pde_solver.cpp:MISOMesh"]}
{"id": "C43", "title": "steady pseudo-transient step size", "statement": "In steady flow mode the pseudo-time step never decreases from one iteration to the next and equals the initial dt at the first iteration; iteration stops iff an absolute or relative tolerance is met.", "quantifier": "every residual history", "why_tests_cant": "all histories", "anchors": ["src/physics/fluidflow/flow_solver.cpp:FlowSolver::calcStepSize", "src/physics/fluidflow/flow_solver.cpp:FlowSolver::iterationExit"]}
{"id": "C44", "title": "least-squares reconstruction reproduces polynomials", "statement": "The interpolation matrices built for reconstruction use every monomial of total degree <= degree exactly once, so the reconstruction conditions are exactly 'reproduce all polynomials of that degree'.", "quantifier": "every degree, dimension 1-3, every node set", "why_tests_cant": "all degrees", "anchors": ["src/utils/utils.cpp:buildLSInterpolation", "src/utils/utils.cpp:buildInterpolation"]}
{"id": "C45", "title": "viscous flux is entropy dissipative and consistent", "statement": "The viscous flux computed from entropy-variable gradients equals the physical stress/heat-flux form, and the viscous coefficient matrices applied to entropy-variable gradients give a non-negative quadratic form.", "quantifier": "every physical state, every gradient, viscosity >= 0, every dimension", "why_tests_cant": "a continuum", "anchors": ["src/physics/fluidflow/navier_stokes_fluxes.hpp:applyCijMatrix", "src/physics/fluidflow/navier_stokes_fluxes.hpp:applyViscousScaling"]}
{"id": "C46", "title": "relaxed Newton uses the true merit slope and reduces the residual", "statement": "The slope given to the line search is the derivative of ||R(x - a c)|| at a = 0 (residual affine along c); with an exact linear solve an accepted non-zero step a satisfies ||R(x - a c)|| <= (1 - mu a)||R(x)||.", "quantifier": "every residual operator, state, update, option setting", "why_tests_cant": "a continuum of residuals", "anchors": ["src/common/linesearch.cpp:Phi", "src/common/relaxed_newton.cpp:RelaxedNewton::ComputeScalingFactor"]}
{"id": "C47", "title": "an interrupted save is never mistaken for a complete one", "statement": "If the program dies while BinaryLogger is writing, a later load either returns the complete new record, the complete old record, or reports that the file is incomplete.", "quantifier": "every crash point (number of bytes that reached the file), every record", "why_tests_cant": "there is one crash point per byte and per history", "anchors": ["src/common/data_logging.hpp:BinaryLogger::saveState", "src/common/data_logging.hpp:BinaryLogger::readState"]}
{"id": "C48", "title": "viscous wall conditions are entropy stable and vanish for a fluid at rest", "statement": "The adiabatic no-slip wall flux adds no entropy production beyond the one the conservation variables prescribe, the no-slip penalty removes entropy (weighted with the wall normal and Reynolds scaling) and is zero when the velocity at the wall is zero, the control penalty pulls toward the controlled state, the dual flux is the transpose of the viscous scaling matrix, and the wall-normal derivative condition is imposed exactly.", "quantifier": "every admissible wall state, state gradient, wall normal, Reynolds and Prandtl number, penalty coefficient and dimension", "why_tests_cant": "needs a sign/identity for a continuum of states", "anchors": ["src/physics/fluidflow/navier_stokes_fluxes.hpp", "src/physics/fluidflow/navier_stokes_integ.hpp"]}
{"id": "C49", "title": "SBP difference and projection operators are consistent with each other", "statement": "Applying the weak, strong, transposed, skew and projection operators gives exactly what the corresponding operator matrices say; the skew part is antisymmetric on every curved element, the projection is a self-adjoint idempotent that annihilates every basis function, and on affine elements the physical operators differentiate constants exactly if the reference ones do.", "quantifier": "every operator table, number of nodes, dimension, element mapping and nodal data", "why_tests_cant": "must hold for all element mappings and data", "anchors": ["src/common/sbp_fe.cpp:SBPFiniteElement::multWeakOperator", "src/common/sbp_fe.cpp:SBPFiniteElement::getSkewEntry", "src/common/sbp_fe.cpp:SBPFiniteElement::multProjOperator"]}
{"id": "C50", "title": "element, boundary and interface terms are conservative and entropy consistent", "statement": "Each flow integrator's element vector conserves every component (sums to zero over the element, interface contributions cancel), the two-point flux term tested with the entropy variables reduces to boundary terms, the stabilisation and viscous terms dissipate, and the stabilisation vanishes on polynomial entropy variables.", "quantifier": "every element, mapping, flux, state and scaling", "why_tests_cant": "quantifies over all states, fluxes and element geometries", "anchors": ["src/physics/fluidflow/inviscid_integ_def.hpp", "src/physics/fluidflow/viscous_integ_def.hpp"]}
{"id": "C51", "title": "the assembled flow residual conserves, is entropy stable and preserves a free stream", "statement": "On any mesh whose operators satisfy the SBP metric identities, the node sum of each residual component equals the boundary flux, the residual tested with entropy variables equals boundary entropy flux plus non-negative dissipation, total entropy cannot grow in a closed domain, a uniform state with consistent boundary conditions has zero residual, and the entropy-variable formulation gives the same residual as the conservative one.", "quantifier": "every mesh (continuous or discontinuous), physical state, stabilisation, viscosity and interface coefficient", "why_tests_cant": "must hold for all meshes and states, of unbounded size", "anchors": ["src/physics/fluidflow/flow_residual.cpp:FlowResidual::addFlowDomainIntegrators", "src/physics/fluidflow/flow_residual.cpp:FlowResidual::addFlowInterfaceIntegrators"]}
{"id": "C52", "title": "assembled element Jacobians are the derivatives of the element residuals", "statement": "For each flow integrator the assembled element matrix is the exact derivative of the assembled element vector whenever the point flux Jacobians are, including all cross-element blocks.", "quantifier": "every element, state, direction, flux and coefficient", "why_tests_cant": "a derivative identity at every state and in every direction", "anchors": ["src/physics/fluidflow/inviscid_integ_def.hpp:AssembleElementGrad", "src/physics/fluidflow/inviscid_integ_def.hpp:AssembleFaceGrad", "src/physics/fluidflow/viscous_integ_def.hpp:AssembleElementGrad"]}
{"id": "C53", "title": "Lobatto quadrature rules are exact to degree 2n-3 and contain the end points", "statement": "When the Lobatto rule generator returns n points and weights, its points are fixed points of the iteration it runs, the first and last points are the interval's end points, and the weights integrate every polynomial of degree at most 2n-3 exactly; the number of points and weights is n.", "quantifier": "every number of nodes n >= 2 and every polynomial of degree at most 2n-3", "why_tests_cant": "exactness for all rules and polynomials of unbounded degree", "anchors": ["src/common/orthopoly.cpp:getLobattoQuadrature"]}
{"id": "C54", "title": "mesh source selection", "statement": "Constructing the mesh selects its source from the file name alone: the extension is what follows the last dot; a mesh object handed over in memory wins, 'mesh' reads the native file, 'smb' and 'ugrid' read a PUMI mesh, anything else and a name without a dot is refused.", "quantifier": "every file name and whether or not a mesh object is given", "why_tests_cant": "ranges over all strings", "anchors": ["src/physics/pde_solver.cpp:PDESolver::constructMesh"]}
{"id": "C55", "title": "constant-CFL time step", "statement": "The time step chosen in constant-CFL mode is positive and is the largest step (up to 1e100) for which dt (|u.n| + a) <= cfl |dx| at every node pair of every element on every rank.", "quantifier": "every mesh, partition, physical state, either set of flow variables and every positive cfl", "why_tests_cant": "a bound over all states and meshes, with optimality", "anchors": ["src/physics/fluidflow/flow_residual.cpp:FlowResidual::minCFLTimeStep"]}
{"id": "C56", "title": "manufactured source terms belong to their exact solutions", "statement": "For each manufactured-solution test, the source term is at every point the divergence of the compressible Euler or Navier-Stokes flux of the exact solution supplied with it, that solution is physical everywhere, no array is overrun, and the element term added to the residual removes exactly that divergence.", "quantifier": "every point of space, viscosity, Prandtl number, dimension and element", "why_tests_cant": "identities between derivatives of transcendental fields at every point and for every parameter", "anchors": ["src/physics/fluidflow/euler_fluxes.hpp:calcInviscidMMS", "src/physics/fluidflow/euler_fluxes.hpp:InviscidMMSExact", "src/physics/fluidflow/navier_stokes_fluxes.hpp:calcViscousMMS", "src/physics/fluidflow/navier_stokes_fluxes.hpp:viscousMMSExact", "src/physics/fluidflow/mms_integ_def.hpp:MMSIntegrator"]}
{"id": "C57", "title": "the isentropic vortex is an exact steady Euler flow", "statement": "The vortex reference state is physical, isentropic, of constant total enthalpy, tangential, and a steady solution of the Euler equations; the vortex boundary flux evaluated at it is its exact flux.", "quantifier": "every point outside the vacuum core, every normal, either set of flow variables", "why_tests_cant": "partial differential equation satisfied at every point", "anchors": ["src/physics/fluidflow/euler_fluxes.hpp:calcIsentropicVortexState", "src/physics/fluidflow/euler_fluxes.hpp:calcIsentropicVortexFlux"]}
{"id": "C58", "title": "the flow controller is a filtered PID law coupled consistently to the flow", "statement": "The controller's output follows the filtered PID differential equation in the entropy error, its Jacobian is the derivative of its residual, the entropy change it reports is minus the rate of the entropy it reports, supplied parameters are stored and others kept, its storage matrix stays symmetric, the open-loop filter dissipates entropy, and the coupled residual uses one velocity on all ranks, computed from the current control state and boundary entropy; open loop can be selected.", "quantifier": "every parameter set, error signal, history of inputs, flow state and number of ranks", "why_tests_cant": "a differential equation for all signals, and invariants over all call histories", "anchors": ["src/physics/fluidflow/flow_control_residual.cpp:ControlResidual", "src/physics/fluidflow/flow_control_residual.cpp:FlowControlResidual::evaluate_"]}
{"id": "C59", "title": "material-dependent coefficients evaluate and differentiate the coefficient of the element's material", "statement": "Registering coefficients under attributes succeeds exactly when no attribute is registered twice; on an element, evaluation uses the coefficient of its attribute, else the default, else zero; the derivative and reverse methods are the derivatives and the reverse of that evaluation, also when such coefficients are nested, multiplied or used for vectors, provided those of the registered coefficients are.", "quantifier": "every set of registrations, attribute, point, mesh and state values", "why_tests_cant": "quantifies over all registered functions and derivative identities at every state", "anchors": ["src/common/coefficient.hpp:MeshDependentCoefficient", "src/common/coefficient.cpp:MeshDependentTwoStateCoefficient", "src/common/coefficient.cpp:MeshDependentThreeStateCoefficient", "src/common/coefficient.cpp:MeshDependentVectorCoefficient"]}
{"id": "C60", "title": "material coefficients built from the options and the library, and mixtures", "statement": "Building a coefficient from component options gives each named attribute its material's value; a mixture's value lies between its bounds by the chosen averaging rule and its derivative methods are the derivatives with respect to the weight set last.", "quantifier": "every component list, material library, history of weight inputs and mixing rule", "why_tests_cant": "all option structures and input histories", "anchors": ["src/common/coefficient.hpp:constructMaterialCoefficient"]}
{"id": "C61", "title": "temperature- and flux-dependent loss coefficients interpolate their data", "statement": "The CAL2 loss coefficient is linear in the temperature between its two polynomials in the flux density and equals each of them at its own temperature; every derivative method returns the matching derivative; each datum comes from the options when given there, else from the material library; other attributes get the documented constants.", "quantifier": "every polynomial degree and coefficients, temperature, frequency, flux density, component list and library", "why_tests_cant": "polynomials of any degree and derivatives at every state", "anchors": ["src/physics/electromagnetics/cal2_kh_coefficient.cpp:CAL2khCoefficient", "src/physics/electromagnetics/cal2_ke_coefficient.cpp:CAL2keCoefficient"]}
{"id": "C62", "title": "the demagnetisation constraint has the sign of the distance to the knee", "statement": "The constraint is the field difference between recoil line and irreversible line of the magnet's curve at its temperature; it vanishes at the knee and, for the physical ordering of slopes, is positive exactly above the knee flux density; all first and second derivative methods are its derivatives; parameters come from options first, then library.", "quantifier": "every parameter set, flux density, temperature, component list and library", "why_tests_cant": "sign for all states and derivative identities", "anchors": ["src/physics/electromagnetics/pm_demag_constraint_coeff.cpp:PMDemagConstraintCoefficient"]}
{"id": "C63", "title": "conductivity, remnant flux and knee flux follow their documented temperature laws", "statement": "On every element the conductivity is the library or default constant, or sigma_ref/(1+alpha (T-T_ref)); remnant and knee flux density are linear in the temperature, with documented defaults; derivative methods are the derivatives; an unknown model is refused.", "quantifier": "every component list, library, temperature and parameter set", "why_tests_cant": "all option structures and derivatives at every temperature", "anchors": ["src/physics/electromagnetics/conductivity_coefficient.cpp:ConductivityCoefficient", "src/physics/electromagnetics/remnant_flux_coefficient.cpp:RemnantFluxCoefficient", "src/physics/electromagnetics/demag_flux_coefficient.cpp:DemagFluxCoefficient"]}
{"id": "C64", "title": "reluctivity models are positive, continuous and consistently differentiated", "statement": "Each element gets the reluctivity model its component asks for; the value times the flux density is the field of the measured curve, continued with vacuum slope beyond the data, continuously; first and second derivative methods are the derivatives.", "quantifier": "every curve, flux density, component list and library", "why_tests_cant": "continuity and derivatives at every flux density for every curve", "anchors": ["src/physics/electromagnetics/reluctivity_coefficient.cpp:ReluctivityCoefficient"]}
{"id": "C65", "title": "the residual form respects prescribed dofs and its Jacobian products are its derivative", "statement": "Evaluating a residual form gives the assembled form on free dofs, state minus prescribed value on essential dofs (zero if no values are given); the Jacobian-vector and vector-Jacobian products wrt the state are the derivative of that residual and its transpose, accumulated into the caller's vector; a solve with the returned matrix is a Newton step.", "quantifier": "every form, state, direction, essential set and boundary values", "why_tests_cant": "derivative and transposition identities for all vectors and dof sets", "anchors": ["src/physics/miso_nonlinearform.cpp:evaluate", "src/physics/miso_nonlinearform.cpp:getJacobian", "src/physics/miso_nonlinearform.cpp:jacobianVectorProduct", "src/physics/miso_nonlinearform.cpp:vectorJacobianProduct"]}
{"id": "C66", "title": "the adjoint gives total derivatives", "statement": "solveForAdjoint returns psi with psi . dR(v) = state_bar . v for every admissible state change v; the derivative of an output along any parameter equals its partial derivative minus the vector-Jacobian product of the residual with psi.", "quantifier": "every form, essential set, right-hand side, parameter path", "why_tests_cant": "identity for all directions and all parameter paths", "anchors": ["src/common/abstract_solver.cpp:AbstractSolver2::solveForAdjoint", "src/physics/miso_nonlinearform.cpp:setUpAdjointSystem", "src/physics/miso_nonlinearform.cpp:finalizeAdjointSystem"]}
{"id": "C67", "title": "which linearisation is in use after any sequence of calls", "statement": "After any sequence of setInputs, setOptions, evaluate, linearize, getJacobian, adjoint and product calls, the products and adjoint use one consistent Jacobian and its transpose, that of the linearisation the user asked for last; without one they throw.", "quantifier": "every call sequence", "why_tests_cant": "all histories of calls, of any length", "anchors": ["src/physics/miso_nonlinearform.cpp:linearize", "src/physics/miso_nonlinearform.cpp:getJacobianTranspose", "src/physics/miso_nonlinearform.cpp:setOptions"]}
{"id": "C68", "title": "vector-Jacobian products wrt parameters differentiate the residual and load actually returned", "statement": "For a vector or scalar parameter the reverse product of a residual form or a load is the derivative of r . residual (r . load), including the treatment of essential dofs; addLoad adds the assembled load on free dofs only.", "quantifier": "every form, parameter, r, essential set", "why_tests_cant": "for all r and parameter values", "anchors": ["src/physics/miso_nonlinearform.cpp:vectorJacobianProduct", "src/common/miso_linearform.cpp:addLoad", "src/common/miso_linearform.cpp:vectorJacobianProduct"]}
{"id": "C69", "title": "the current density of the 2-D magnetostatic residual and its sensitivities", "statement": "Each element carries minus its group's current direction times the last number given for that group (1 before any), and nothing where no current is listed; an attribute listed twice is refused at construction; Jacobian-vector and vector-Jacobian products with respect to a group's current density are the derivative of the residual in that number and leave the stored currents unchanged.", "quantifier": "every option table, history of input sets and product calls, attribute, point and direction", "why_tests_cant": "all call histories of any length and derivative identities at every value", "anchors": ["src/physics/electromagnetics/current_source_functions.cpp:CurrentDensityCoefficient", "src/physics/electromagnetics/magnetostatic_residual.cpp:jacobianVectorProduct", "src/physics/electromagnetics/magnetostatic_residual.cpp:vectorJacobianProduct"]}
{"id": "C70", "title": "the 3-D current load is never stale and its sensitivity is its derivative", "statement": "After any sequence of input sets, loads and products, addLoad subtracts the assembly, on the mesh as last moved, of the current density with the last number given for every group, except on essential entries; the number returned for a group's current density is the derivative of the product of load_bar with what addLoad leaves.", "quantifier": "every option table, history of calls, mesh motion, essential set and load_bar", "why_tests_cant": "cache validity over all call histories", "anchors": ["src/physics/electromagnetics/current_load.cpp:CurrentLoad", "src/physics/electromagnetics/current_load.cpp:addLoad", "src/physics/electromagnetics/current_load.cpp:vectorJacobianProduct"]}
{"id": "C71", "title": "current and magnetisation directions have their named geometry", "statement": "Off the axis the north and south magnetisations are the opposite radial unit fields and cw and ccw the opposite tangential unit fields turning in the named sense; axis sources are constant axis vectors, z stopping the program in two dimensions; the ring source is the unit tangential counter-clockwise field without divergence, the box sources are opposite, along z and divergence free, the team13 source is a unit counter-clockwise field, and the two stator windings are opposite, run along z inside the stack with the sign given by the side of the slot, and close around the ends as a unit divergence-free field tangent to the coil, continuously across the stack ends.", "quantifier": "every point of space and slot number", "why_tests_cant": "a geometric identity at every point", "anchors": ["src/physics/electromagnetics/current_source_functions.cpp:cw_stator_current", "src/physics/electromagnetics/magnetic_source_functions.cpp:north_magnetization_source", "src/physics/electromagnetics/current_source_functions.cpp:team13"]}
{"id": "C72", "title": "the magnetostatic element residual is the gradient of an energy and its Jacobian is its derivative", "statement": "The element vector of nonlinear diffusion and of the curl-curl form is the gradient of alpha times the sum of weights times the integral of nu b from 0 to the field magnitude; the element Jacobian applied to a direction is the derivative of the vector; the Jacobian is symmetric, positive semidefinite when nu and its derivative are non-negative, and the residual is monotone when nu(b) b is; forward and reverse state products are adjoint.", "quantifier": "every element, state, direction, material model, quadrature rule", "why_tests_cant": "derivative and inequality at every state", "anchors": ["src/physics/electromagnetics/electromag_integ.cpp:NonlinearDiffusionIntegrator", "src/physics/electromagnetics/electromag_integ.cpp:CurlCurlNLFIntegrator", "src/physics/electromagnetics/electromag_integ.cpp:MagnetizationIntegrator"]}
{"id": "C73", "title": "magnetic energy density, energy functional and their derivatives", "statement": "calcMagneticEnergy is the integral of nu b when the segment rule integrates it exactly; its two companion functions are its first and second derivative; the vector assembled by the energy functional is its gradient at every state, and equals the magnetostatic residual's vector (alpha 1, same rule) for an exact segment rule.", "quantifier": "every rule, model, field, state", "why_tests_cant": "derivative identities at every state", "anchors": ["src/physics/electromagnetics/electromag_integ.cpp:calcMagneticEnergy", "src/physics/electromagnetics/electromag_integ.cpp:calcMagneticEnergyDot", "src/physics/electromagnetics/electromag_integ.cpp:calcMagneticEnergyDoubleDot", "src/physics/electromagnetics/electromag_integ.cpp:MagneticEnergyIntegrator"]}
{"id": "C74", "title": "mesh sensitivities of the magnetostatic residual and the energy", "statement": "The node vectors returned by the mesh sensitivities are the derivative, along every motion of the nodes, of psi . residual and of the energy.", "quantifier": "every element shape, node motion, state, adjoint", "why_tests_cant": "derivative identities for every node motion", "anchors": ["src/physics/electromagnetics/electromag_integ.cpp:NonlinearDiffusionIntegratorMeshRevSens", "src/physics/electromagnetics/electromag_integ.cpp:CurlCurlNLFIntegratorMeshRevSens", "src/physics/electromagnetics/electromag_integ.cpp:MagneticEnergyIntegratorMeshSens"]}
{"id": "C75", "title": "heat exchanged over boundaries and interfaces obeys its law, and its derivatives are exact", "statement": "The heat entering each side of a face is the integral of the law of the integrator (contact resistance h (T1-T2), convection h (T - fluid temperature), prescribed flux); contact resistance conserves heat, vanishes at equal temperatures and dissipates; the element Jacobian is symmetric, positive semidefinite for non-negative coefficients and the derivative of the vector; the sensitivities with respect to h, fluid temperature, flux and mesh are the derivatives of psi times the residual.", "quantifier": "every face, element pair, temperature, coefficient, adjoint, node motion", "why_tests_cant": "laws, inequalities and derivatives at every state", "anchors": ["src/physics/thermal/thermal_integ.cpp:ThermalContactResistanceIntegrator", "src/physics/thermal/thermal_integ.cpp:InternalConvectionInterfaceIntegrator", "src/physics/thermal/thermal_integ.cpp:ConvectionBCIntegrator", "src/physics/thermal/thermal_integ.cpp:OutfluxBCIntegrator", "src/physics/thermal/thermal_integ.cpp:L2ProjectionIntegrator", "src/physics/thermal/thermal_integ.cpp:TestBCIntegrator"]}
{"id": "C76", "title": "the thermal residual includes exactly the load it was given", "statement": "After any history of inputs, evaluation gives the form's value minus the thermal load last given (zero on essential entries), leaves the caller's vectors as they were, rejects a load of the wrong size, and the forward and reverse products with respect to the load are the derivatives of that, added to what the caller passes.", "quantifier": "every history, load, state, buffer, essential set", "why_tests_cant": "buffer ownership and aliasing over all histories", "anchors": ["src/physics/thermal/thermal_residual.cpp:setInputs", "src/physics/thermal/thermal_residual.cpp:evaluate", "src/physics/thermal/thermal_residual.cpp:jacobianVectorProduct", "src/physics/thermal/thermal_residual.cpp:vectorJacobianProduct"]}
{"id": "C77", "title": "magnet options give remnant flux times direction, and the magnet load and its sensitivities follow", "statement": "On an element listed under a material and a direction the magnetisation is the material's remnant flux density at the temperature times the direction, and zero elsewhere; the magnet load balances the diffusion term exactly when the flux density equals the magnetisation; its mesh and temperature sensitivities are the derivatives of psi . load.", "quantifier": "every option table, attribute, point, temperature, element, adjoint, node motion", "why_tests_cant": "identities and derivatives at every point and temperature", "anchors": ["src/physics/electromagnetics/magnetic_source_functions.cpp:MagnetizationCoefficient", "src/physics/electromagnetics/magnetic_load.cpp:MagneticLoad", "src/physics/electromagnetics/electromag_integ.cpp:MagnetizationSource2DIntegrator", "src/physics/electromagnetics/remnant_flux_coefficient.cpp:RemnantFluxCoefficient"]}
{"id": "C78", "title": "volume, mass, averages and boundary flux are the integrals they name, with exact derivatives", "statement": "The volume output of a triangulation is the sum of the signed areas of its triangles, whatever the state; its and the mass output's mesh sensitivity is the derivative with respect to node positions; the mass derivative with respect to the fill factor integrates the derivative of the density; the average of a field lies between its smallest and largest sampled values, equals the field when constant, averages the field the options name, and its forward and reverse products are its derivatives; the boundary flux is minus conductivity times normal derivative, linear in the field with the reported gradient.", "quantifier": "all meshes, numberings, states, densities, quadrature rules, directions and nodal motions", "why_tests_cant": "Tests use a box mesh and finite differences; exactness of sensitivities and of the value must hold for every mesh, state and rule.", "anchors": ["src/physics/mfem_common_integ.cpp:VolumeIntegrator", "src/physics/mfem_common_integ.cpp:StateIntegrator", "src/physics/mfem_common_integ.cpp:BoundaryNormalIntegrator", "src/physics/common_outputs.cpp:MassFunctional", "src/physics/common_outputs.hpp:StateAverageFunctional", "src/common/functional_output.cpp:calcOutput"]}
{"id": "C79", "title": "the induced-exponential aggregate approximates the maximum from below and has exact derivatives", "statement": "The aggregate of a field with parameter rho equals the induced exponential of its sampled values whatever shift is used for numerical safety and however the mesh is distributed over processes; it lies between smallest and largest value, does not decrease with rho, is the mean at rho = 0 and is within volume/(w rho) of the maximum; its forward and reverse products with respect to state and mesh are its derivatives; it aggregates the named field.", "quantifier": "all meshes, fields, rho, shifts, distributions over processes, directions and nodal motions", "why_tests_cant": "Tests look at one field on one process; independence of shift, of distribution and convergence are statements over all fields and all rho.", "anchors": ["src/physics/mfem_common_integ.cpp:IEAggregateIntegratorNumerator", "src/physics/mfem_common_integ.cpp:IEAggregateIntegratorDenominator", "src/physics/common_outputs.hpp:IEAggregateFunctional", "src/physics/common_outputs.cpp:IEAggregateFunctional"]}
{"id": "C80", "title": "flux-magnitude outputs: average and aggregate of |B| and their derivatives", "statement": "The average flux magnitude is the integral of |B| over the volume and lies between the smallest and largest magnitude; the aggregate with parameter rho is the induced exponential of the magnitudes: between smallest and largest, non-decreasing in rho, the mean at 0, within volume/(w rho) of the maximum; gradient and mesh sensitivity are numbers exactly when the field vanishes at no quadrature point, and are then the derivatives, as are the reverse products.", "quantifier": "all meshes (2-D scalar and 3-D vector potentials), states, rho, rules, directions and nodal motions", "why_tests_cant": "Finite-difference tests sample a few states; exactness of the reverse passes and the bounds hold for every mesh and state.", "anchors": ["src/physics/mfem_common_integ.cpp:MagnitudeCurlStateIntegrator", "src/physics/mfem_common_integ.cpp:IECurlMagnitudeAggregateIntegratorNumerator", "src/physics/mfem_common_integ.cpp:IECurlMagnitudeAggregateIntegratorDenominator", "src/physics/common_outputs.cpp:AverageMagnitudeCurlState", "src/physics/common_outputs.cpp:IECurlMagnitudeAggregateFunctional"]}
{"id": "C81", "title": "DC winding loss: value and derivatives", "statement": "The DC loss output is sqrt(2) I^2 R, R the wire length times the mean resistivity of the winding over the total cross section of the strands in hand; forward and reverse products with respect to every parameter named in full, the mesh nodes and the temperature field are the derivatives.", "quantifier": "all meshes, temperature fields, conductivity models, parameter values and names, directions and multipliers", "why_tests_cant": "Finite differences at sampled designs cannot show equality for every mesh, field and parameter.", "anchors": ["src/physics/electromagnetics/electromag_outputs.cpp:DCLossFunctional", "src/physics/electromagnetics/electromag_integ.cpp:DCLossFunctionalIntegrator", "src/physics/electromagnetics/electromag_integ.cpp:DCLossFunctionalIntegratorMeshSens", "src/physics/electromagnetics/electromag_integ.cpp:DCLossFunctionalIntegratorTemperatureSens"]}
{"id": "C82", "title": "AC winding loss: value and derivatives", "statement": "The AC loss output is the number of conductors times stack length times pi r^4 (2 pi f)^2/8 times the mean of conductivity times squared peak flux; forward and reverse products with respect to every parameter, the mesh nodes, the peak flux and the temperature are the derivatives.", "quantifier": "all meshes, peak-flux and temperature fields, conductivity models, parameter values and names, directions and multipliers", "why_tests_cant": "Finite differences at sampled designs cannot show equality for every input; a unit strand radius hides a wrong power.", "anchors": ["src/physics/electromagnetics/electromag_outputs.cpp:ACLossFunctional", "src/physics/electromagnetics/electromag_integ.cpp:ACLossFunctionalIntegrator", "src/physics/electromagnetics/electromag_integ.cpp:ACLossFunctionalIntegratorMeshSens", "src/physics/electromagnetics/electromag_integ.cpp:ACLossFunctionalIntegratorPeakFluxSens", "src/physics/electromagnetics/electromag_integ.cpp:ACLossFunctionalIntegratorTemperatureSens"]}
{"id": "C83", "title": "heat sources: conservation and derivatives", "statement": "The entries of the heat load sum to the DC and AC losses per stack length plus the core loss; reverse products of the DC, AC and core heat sources with respect to every parameter, the peak flux, the temperature and the mesh (through the winding volume too) are the derivatives of <psi, load>; so are forward products; the winding volume used is that of the current mesh.", "quantifier": "all meshes, fields, materials, parameters and names, adjoint vectors, and histories of setting inputs and evaluating", "why_tests_cant": "Conservation and adjoint consistency must hold for every mesh and field; the stale volume shows only after particular call histories.", "anchors": ["src/physics/electromagnetics/electromag_outputs.cpp:DCLossDistribution", "src/physics/electromagnetics/electromag_outputs.cpp:ACLossDistribution", "src/physics/electromagnetics/electromag_outputs.cpp:EMHeatSourceOutput", "src/physics/electromagnetics/electromag_integ.cpp:DCLossDistributionIntegrator", "src/physics/electromagnetics/electromag_integ.cpp:ACLossDistributionIntegrator", "src/physics/electromagnetics/electromag_integ.cpp:CAL2CoreLossDistributionIntegrator"]}
{"id": "C84", "title": "core loss: value and derivatives", "statement": "The core loss output is the integral of rho (k_h f B^2 + k_e f^2 B^2), with k_h and k_e depending on temperature, frequency and peak flux, and its sensitivities with respect to frequency, peak flux, temperature and mesh are the derivatives.", "quantifier": "all meshes, fields, frequencies, coefficient models with correct derivatives, directions", "why_tests_cant": "Finite differences sample a few fields; the identity holds for every one.", "anchors": ["src/physics/electromagnetics/electromag_outputs.cpp:CoreLossFunctional", "src/physics/electromagnetics/electromag_integ.cpp:CAL2CoreLossIntegrator", "src/physics/electromagnetics/electromag_integ.cpp:CAL2CoreLossIntegratorFreqSens", "src/physics/electromagnetics/electromag_integ.cpp:CAL2CoreLossIntegratorPeakFluxSens", "src/physics/electromagnetics/electromag_integ.cpp:CAL2CoreLossIntegratorTemperatureSens", "src/physics/electromagnetics/electromag_integ.cpp:CAL2CoreLossIntegratorMeshSens"]}
{"id": "C85", "title": "demagnetisation output: minus the integral of the constraint", "statement": "The permanent-magnet demagnetisation output is minus the integral over the magnets of the demagnetisation constraint, for every quadrature rule.", "quantifier": "all meshes, rules, constraint values", "why_tests_cant": "A test with one rule does not distinguish a sign applied once from one applied at every point.", "anchors": ["src/physics/electromagnetics/electromag_integ.cpp:PMDemagIntegrator", "src/physics/electromagnetics/electromag_outputs.cpp:PMDemagOutput"]}
{"id": "C86", "title": "transferred fields hold the values at the nodes", "statement": "After a transfer to a discontinuous space, the degree of freedom of each node and component holds the value there of the state, of its physical curl, or of the magnitude of its curl; a state that is nodal at the same nodes is copied and constants are preserved; in two dimensions the transferred flux density is the curl of the out-of-plane potential.", "quantifier": "all meshes, states, orientations of degrees of freedom, nodes and components; all linear potentials on all nondegenerate triangulations", "why_tests_cant": "The unit tests of the transfers only compare products with finite differences, in which a sign of the field cancels.", "anchors": ["src/utils/l2_transfer_operator.cpp:ScalarIdentityOperator", "src/utils/l2_transfer_operator.cpp:IdentityOperator", "src/utils/l2_transfer_operator.cpp:CurlOperator", "src/utils/l2_transfer_operator.cpp:CurlMagnitudeOperator", "src/utils/l2_transfer_operator.cpp:L2TransferOperator::apply"]}
{"id": "C87", "title": "reverse products of the transfers are derivatives", "statement": "For every adjoint vector, the product with respect to the state (mesh nodes) adds the gradient of the adjoint-weighted sum of outputs with respect to the state (the nodes); for the magnitude this holds exactly where the field vanishes at no node.", "quantifier": "all meshes, states, adjoint vectors, directions, contents of uninitialised memory; two and three dimensions", "why_tests_cant": "Finite differences at random states do not cover zero fields, every mesh or the contents of uninitialised memory.", "anchors": ["src/utils/l2_transfer_operator.cpp:ScalarIdentityOperator", "src/utils/l2_transfer_operator.cpp:IdentityOperator", "src/utils/l2_transfer_operator.cpp:CurlOperator", "src/utils/l2_transfer_operator.cpp:CurlMagnitudeOperator", "src/utils/l2_transfer_operator.cpp:L2TransferOperator::vectorJacobianProduct"]}
{"id": "C88", "title": "transfers refer to the last inputs", "statement": "After any history of evaluations, input settings and products, outputs and products refer to the state and mesh given last; the product with respect to the output itself subtracts the adjoint; asking for another input is reported.", "quantifier": "all histories of calls, inputs, names", "why_tests_cant": "Only specific call sequences are tested.", "anchors": ["src/utils/l2_transfer_operator.cpp:L2TransferOperator::apply", "src/utils/l2_transfer_operator.cpp:L2TransferOperator::vectorJacobianProduct", "src/utils/l2_transfer_operator.hpp:setInputs"]}
{"id": "C89", "title": "the irrotational projector returns the closest gradient", "statement": "Applied to the Nedelec coefficients of any field, the irrotational projector returns the coefficients of the gradient of a function that vanishes on the boundary, so the discrete curl of the result is zero; what is left is weakly divergence free; no gradient of a function vanishing on the boundary is closer to the field, and squared lengths add up; such gradients are left alone, the projection is idempotent and linear.", "quantifier": "all fields, meshes without inverted elements, orders and rules", "why_tests_cant": "The unit tests compare reverse products with finite differences on one mesh and never check the projected field.", "anchors": ["src/utils/irrotational_projector.cpp:IrrotationalProjector::Mult", "src/utils/irrotational_projector.cpp:IrrotationalProjector::update", "src/utils/irrotational_projector.hpp:DiscreteGradOperator"]}
{"id": "C90", "title": "the divergence-free projector returns the divergence-free part", "statement": "Applied to the Nedelec coefficients of any field, the divergence-free projector returns a weakly divergence-free field with the same discrete curl, which with the irrotational part adds up to the field and is no longer than it; weakly divergence-free fields are left alone, gradients of functions vanishing on the boundary are removed, projecting twice changes nothing; the destination may be the argument itself.", "quantifier": "all fields, meshes without inverted elements, orders and rules", "why_tests_cant": "The unit tests compare reverse products with finite differences on one mesh and never check the projected field.", "anchors": ["src/utils/div_free_projector.cpp:DivergenceFreeProjector::Mult", "src/utils/irrotational_projector.cpp:IrrotationalProjector::Mult"]}
{"id": "C91", "title": "reverse products of the projectors are transposes", "statement": "The product of either projector with respect to its argument adds to the destination the transpose of the projection applied to the given derivative.", "quantifier": "all fields, derivatives, destinations, meshes", "why_tests_cant": "A finite-difference check covers one field, one direction and one mesh.", "anchors": ["src/utils/irrotational_projector.cpp:IrrotationalProjector::vectorJacobianProduct", "src/utils/div_free_projector.cpp:DivergenceFreeProjector::vectorJacobianProduct"]}
{"id": "C92", "title": "mesh sensitivities of the projectors are derivatives", "statement": "The product of either projector with respect to the mesh coordinates adds the gradient, with respect to the mesh nodes, of the pairing of the projected field with the given derivative.", "quantifier": "all fields, derivatives, meshes without inverted elements, movements of nodes, orders and rules", "why_tests_cant": "Finite differences on one mesh with one order cannot separate quadrature rules that happen to agree.", "anchors": ["src/utils/irrotational_projector.cpp:IrrotationalProjector::vectorJacobianProduct", "src/utils/div_free_projector.cpp:DivergenceFreeProjector::vectorJacobianProduct", "src/physics/mfem_common_integ.cpp:DiffusionIntegratorMeshSens", "src/physics/mfem_common_integ.cpp:VectorFEWeakDivergenceIntegratorMeshSens", "src/utils/irrotational_projector.cpp:IrrotationalProjector::IrrotationalProjector"]}
{"id": "C93", "title": "projectors use the current mesh", "statement": "After any history of calls and mesh movements in which each movement is announced by setting mesh_coords (or precedes the first use), projections and products equal those of a newly built projector on the current mesh; a movement that is not announced has no effect on later projections.", "quantifier": "all histories of calls on a projector, all meshes", "why_tests_cant": "Only specific call sequences are tested.", "anchors": ["src/utils/irrotational_projector.cpp:setInputs", "src/utils/div_free_projector.cpp:setInputs", "src/utils/irrotational_projector.cpp:IrrotationalProjector::update", "src/utils/irrotational_projector.cpp:IrrotationalProjector::Mult"]}
{"id": "C94", "title": "the 3-D current load is the dual of a divergence-free current", "statement": "After any history of setting inputs, adding the load and taking products, addLoad subtracts, off the essential dofs, the dual of a weakly divergence-free field built from the mesh and the current density last set: gradients of functions vanishing on the boundary do not feel it, weakly divergence-free fields feel exactly the given current, and a current that is itself weakly divergence free is loaded unchanged; adding it keeps the right-hand side compatible with the curl-curl operator.", "quantifier": "all histories of calls, current densities, meshes without inverted elements, orders and rules", "why_tests_cant": "The tests solve for one coil on one mesh; compatibility must hold for every current and mesh.", "anchors": ["src/physics/electromagnetics/current_load.cpp:addLoad", "src/physics/electromagnetics/current_load.cpp:CurrentLoad::assembleLoad", "src/physics/electromagnetics/current_load.cpp:setInputs", "src/physics/electromagnetics/current_load.cpp:CurrentLoad::CurrentLoad"]}
{"id": "C95", "title": "the mesh sensitivity of the 3-D current load is its derivative", "statement": "After any history, the product of the load with respect to mesh_coords adds to the destination the gradient with respect to the mesh nodes of the pairing of the given derivative with what addLoad leaves when that mesh is set.", "quantifier": "all histories of calls, derivatives, movements of nodes, current densities, meshes without inverted elements", "why_tests_cant": "A finite-difference test covers one mesh, one movement and one current.", "anchors": ["src/physics/electromagnetics/current_load.cpp:vectorJacobianProduct", "src/physics/electromagnetics/current_load.cpp:CurrentLoad::assembleLoad", "src/physics/mfem_common_integ.cpp:VectorFEMassIntegratorMeshSens", "src/physics/mfem_common_integ.cpp:VectorFEDomainLFIntegratorMeshSens"]}
{"id": "C96", "title": "the sensitivity of the 3-D current load to a current density is its derivative", "statement": "After any history, the product with respect to a current density returns the derivative, with respect to that density, of the pairing of the given derivative with what addLoad leaves, at every value of the density and whatever currents the other groups carry.", "quantifier": "all histories of calls, derivatives, densities, meshes without inverted elements", "why_tests_cant": "A finite-difference test covers one value and one mesh.", "anchors": ["src/physics/electromagnetics/current_load.cpp:vectorJacobianProduct", "src/physics/electromagnetics/current_load.cpp:CurrentLoad::assembleLoad"]}
{"id": "C97", "title": "element mesh sensitivities of the current load", "statement": "On any element, for any factor alpha, the mesh sensitivities of the vector mass integrator and of the vector domain load integrator are the gradients with respect to the element's nodes of alpha times the adjoint-weighted element matrix times state, and of alpha times the adjoint-weighted element vector.", "quantifier": "all dimensions, elements not inverted, rules, states, adjoints, movements, factors", "why_tests_cant": "Tests use factor 1 and a handful of elements.", "anchors": ["src/physics/mfem_common_integ.cpp:VectorFEMassIntegratorMeshSens::AssembleRHSElementVect", "src/physics/mfem_common_integ.cpp:VectorFEDomainLFIntegratorMeshSens::AssembleRHSElementVect"]}
{"id": "C98", "title": "the 2-D current load integrates the current, and its mesh sensitivity is its derivative", "statement": "addLoad adds the integral, over the elements with the given attributes, of factor times coefficient times test function and leaves essential dofs alone; the product with respect to the mesh coordinates adds to the destination the gradient, with respect to the mesh nodes, of the pairing of the given derivative with what addLoad leaves.", "quantifier": "all meshes, marked attributes, coefficients, factors, derivatives, movements of nodes", "why_tests_cant": "A finite-difference test covers one mesh; the tests use triangles only, where the rules agree.", "anchors": ["src/physics/mfem_common_integ.hpp:DomainLFIntegrator", "src/physics/mfem_common_integ.cpp:DomainLFIntegratorMeshRevSens::AssembleRHSElementVect", "src/physics/mfem_common_integ.hpp:addDomainSensitivityIntegrator", "src/physics/electromagnetics/magnetostatic_residual.cpp:MagnetostaticResidual::MagnetostaticResidual", "src/common/miso_linearform.cpp:addLoad", "src/common/miso_linearform.cpp:vectorJacobianProduct"]}
{"id": "C99", "title": "mesh sensitivity of the 3-D magnet load", "statement": "The product of the 3-D magnet load with respect to the mesh coordinates adds to the destination the gradient, with respect to the mesh nodes, of the pairing of the given derivative with what addLoad leaves.", "quantifier": "all meshes, magnetisations, derivatives, movements of nodes", "why_tests_cant": "No test calls the product of this load; a missing term goes unnoticed unless compared with the derivative for some mesh.", "anchors": ["src/physics/electromagnetics/magnetic_load.cpp:MagneticLoad::MagneticLoad", "src/physics/electromagnetics/magnetic_load.hpp:MagneticLoad", "src/physics/mfem_common_integ.hpp:VectorFEDomainLFCurlIntegrator", "src/physics/mfem_common_integ.hpp:addSensitivityIntegrator", "src/physics/mfem_common_integ.cpp:VectorFEDomainLFCurlIntegratorMeshSens::AssembleRHSElementVect", "src/physics/miso_integrator.hpp:addDomainSensitivityIntegrator"]}
{"id": "C100", "title": "warping a mesh leaves the surface where it was put and the interior in elastic equilibrium", "statement": "solveForState of a mesh warper ends after at most one linear solve with the essential nodes exactly where the state vector had them and the other nodes where the elastic energy (both Lame parameters one) of the displacement from the initial mesh is least among all displacements with those surface nodes; with looser tolerances the residual meets them. A surface passed as \"surf_mesh_coords\" is the surface of the result.", "quantifier": "all meshes (dimension 1 to 3, any elements), states, inputs, solver options, exact linear solvers and previous calls on the warper", "why_tests_cant": "A test warps one mesh by one displacement; that the result minimises an energy over all others cannot be sampled.", "anchors": ["src/utils/mesh_warper/mesh_warper.cpp:MeshWarper::MeshWarper", "src/utils/mesh_warper/mesh_warper.cpp:evaluate", "src/utils/mesh_warper/mesh_move_integ.cpp:ElasticityPositionIntegrator::AssembleElementVector", "src/common/abstract_solver.cpp:AbstractSolver2::solveForState", "src/physics/miso_nonlinearform.cpp:evaluate", "src/common/miso_residual.hpp:Mult"]}
{"id": "C101", "title": "the warped mesh depends on the surface only", "statement": "After any sequence of warps by the OpenMDAO component, the volume coordinates are determined by the last surface: not by the previous ones, the initial volume vector, the solvers or their options. The initial surface gives back the initial mesh; a surface moved by a translation and an infinitesimal rotation moves the whole mesh by it; likewise any affine map.", "quantifier": "all meshes, sequences of surfaces, volume vectors, exact solvers, affine maps", "why_tests_cant": "Histories are unbounded; uniqueness of the result is a statement about all vectors.", "anchors": ["miso/mesh_warper.py:MISOMeshWarper.solve_nonlinear", "src/utils/mesh_warper/mesh_warper.cpp:MeshWarper::MeshWarper", "src/utils/mesh_warper/mesh_move_integ.cpp:ElasticityPositionIntegrator::AssembleElementVector", "src/common/abstract_solver.cpp:AbstractSolver2::solveForState"]}
{"id": "C102", "title": "partial derivatives of the warper's residual", "statement": "jacobianVectorProduct with respect to \"surf_mesh_coords\" adds the derivative of the residual with respect to the surface coordinates, vectorJacobianProduct is its transpose; the products with respect to \"state\" are those of the residual with respect to the state.", "quantifier": "all meshes, states, surfaces, directions, previous calls", "why_tests_cant": "Finite differences sample one direction.", "anchors": ["src/utils/mesh_warper/mesh_warper.cpp:jacobianVectorProduct", "src/utils/mesh_warper/mesh_warper.cpp:vectorJacobianProduct", "src/utils/mesh_warper/mesh_warper.cpp:evaluate", "src/physics/miso_nonlinearform.cpp:jacobianVectorProduct"]}
{"id": "C103", "title": "total derivative of a function of the warped mesh with respect to the surface", "statement": "After linearize and solveForAdjoint with the derivative of a function of the volume coordinates, minus the product of the adjoint with respect to \"surf_mesh_coords\" is the derivative of the function of the warped mesh with respect to the surface.", "quantifier": "all meshes, functions, surfaces, exact adjoint solvers, previous calls", "why_tests_cant": "A test would have to compare with finite differences of a whole warp for every surface coordinate.", "anchors": ["src/common/abstract_solver.cpp:AbstractSolver2::solveForAdjoint", "src/utils/mesh_warper/mesh_warper.cpp:vectorJacobianProduct", "src/physics/miso_nonlinearform.cpp:setUpAdjointSystem", "miso/mesh_warper.py:MISOMeshWarper.solve_linear"]}
{"id": "C104", "title": "the warper's linear systems suit a conjugate-gradient solver", "statement": "The matrix that the warper's residual hands to the linear solver is symmetric, has the rows of the identity at essential nodes, and, on a valid mesh where it is solvable at all, is positive definite.", "quantifier": "all meshes, states, previous calls", "why_tests_cant": "Positive definiteness is a statement about all vectors.", "anchors": ["src/utils/mesh_warper/mesh_warper.cpp:MeshWarper::MeshWarper", "src/utils/mesh_warper/mesh_warper.cpp:getLinearSolver", "src/utils/mesh_warper/mesh_move_integ.cpp:ElasticityPositionIntegrator::AssembleElementVector", "src/physics/miso_nonlinearform.cpp:getJacobian"]}
{"id": "C105", "title": "initial coordinates and the reverse mode of the OpenMDAO component", "statement": "The initial surface coordinates handed out are the coordinates of the boundary nodes, in the order of the surface indices; the state may have any degree; the component's reverse-mode product with respect to the surface is the transpose of its forward one.", "quantifier": "all meshes and orderings, degrees, numbers of surface nodes, vectors", "why_tests_cant": "Reading past an array need not crash a test; whether a mesh file orders its nodes one way or the other depends on the user's input.", "anchors": ["src/utils/mesh_warper/mesh_warper.cpp:MeshWarper::MeshWarper", "src/utils/mesh_warper/mesh_warper.cpp:getInitialSurfaceCoords", "src/utils/mesh_warper/mesh_warper.cpp:getSurfaceCoordIndices", "src/utils/mesh_warper/mesh_move_integ.cpp:ElasticityPositionIntegrator::AssembleElementVector", "miso/mesh_warper.py:MISOMeshWarper.apply_linear"]}
{"id": "C106", "title": "the explicit rate of an evolver", "statement": "MISOEvolver::Mult(x, y) returns the y with mass * y + residual(x) + stiffness * x + load = 0, whatever calls were made before; the rate at essential dofs is zero.", "quantifier": "all configurations, states, histories of calls on the evolver, exact mass solvers", "why_tests_cant": "The result must not depend on earlier calls; histories are unbounded.", "anchors": ["src/common/evolver.cpp:MISOEvolver::MISOEvolver", "src/common/evolver.cpp:MISOEvolver::Mult"]}
{"id": "C107", "title": "residual and gradient of an evolver's implicit equation", "statement": "The operator that Newton's method sees has the value mass * k + residual(x + dt k) + load, zero on essential rows, and its gradient is the derivative of that value with respect to k with the identity on essential rows.", "quantifier": "all configurations, states, slopes, steps, directions", "why_tests_cant": "Derivatives in all directions at all points.", "anchors": ["src/common/evolver.cpp:SystemOperator::Mult", "src/common/evolver.cpp:SystemOperator::GetGradient", "src/common/evolver.cpp:SystemOperator::setParameters"]}
{"id": "C108", "title": "an implicit step solves the equation it stands for", "statement": "ImplicitSolve(dt, x, k) ends with k zero at essential dofs and the residual of mass * k + residual(x + dt k) + stiffness * (x + dt k) + load within the Newton tolerances, or aborts; linear problems are solved exactly.", "quantifier": "all configurations, states, steps, Newton options, linear solvers, previous calls", "why_tests_cant": "The Newton loop has no bound on its length.", "anchors": ["src/common/evolver.cpp:MISOEvolver::ImplicitSolve", "src/common/evolver.cpp:SystemOperator::Mult", "src/common/evolver.hpp:setOperParameters"]}
{"id": "C109", "title": "gradient, entropy and entropy change of an evolver", "statement": "GetGradient(x) is the gradient of the implicit operator; Entropy(x) and EntropyChange are the energies of the entropy and residual forms and throw without an entropy form; Newton's operator over a time-dependent residual depends on the slope it is given.", "quantifier": "all configurations, histories, states", "why_tests_cant": "Histories are unbounded.", "anchors": ["src/common/evolver.cpp:MISOEvolver::GetGradient", "src/common/evolver.cpp:MISOEvolver::Entropy", "src/common/evolver.cpp:MISOEvolver::EntropyChange", "src/common/evolver.cpp:ODESystemOperator::Mult"]}
{"id": "C110", "title": "force and torque are virtual work", "statement": "The value of a \"force\" (\"torque\") output is minus the rate of change of the \"energy\" output when the chosen body is translated along the axis (rotated about it) with the rest of the nodes fixed, and it is 0 without any field.", "quantifier": "all meshes in two and three dimensions, bodies, axes, reluctivities, states", "why_tests_cant": "Holds for every mesh, nonlinear material and field.", "anchors": ["src/physics/electromagnetics/electromag_integ.cpp:ForceIntegrator3::GetElementEnergy", "src/physics/electromagnetics/electromag_outputs.cpp:setOptions", "src/physics/electromagnetics/electromag_outputs.hpp:ForceFunctional", "src/physics/electromagnetics/electromag_outputs.hpp:TorqueFunctional"]}
{"id": "C111", "title": "state derivative of force and torque", "statement": "The partial of a force or torque output with respect to the state is its derivative in every direction, and it exists whenever the output is a number.", "quantifier": "all meshes, displacement fields, twice differentiable reluctivities, states, directions", "why_tests_cant": "Derivatives in all directions at all states.", "anchors": ["src/physics/electromagnetics/electromag_integ.cpp:ForceIntegrator3::AssembleElementVector"]}
{"id": "C112", "title": "mesh derivative of force and torque", "statement": "The partial of a force or torque output with respect to \"mesh_coords\" is the derivative of calcOutput when the coordinates change, in every direction.", "quantifier": "all meshes, displacement fields, twice differentiable reluctivities, states, directions", "why_tests_cant": "Derivatives in all directions at all meshes.", "anchors": ["src/physics/electromagnetics/electromag_integ.cpp:ForceIntegratorMeshSens3::AssembleRHSElementVect"]}
{"id": "C113", "title": "options and names of force and torque outputs", "statement": "Each force or torque output follows its own options, whatever other outputs exist and in whatever order they were created and configured; the axis gives a direction only; the rotation of a torque follows the mesh.", "quantifier": "all sessions of createOutput, setOutputOptions, mesh changes and calcOutput", "why_tests_cant": "Sessions are unbounded.", "anchors": ["src/physics/electromagnetics/magnetostatic.cpp:addOutput", "src/physics/electromagnetics/electromag_outputs.cpp:setOptions", "src/physics/electromagnetics/electromag_outputs.hpp:ForceFunctional"]}
{"id": "C114", "title": "mesh sensitivity of the two-point volume flux", "statement": "The linear form assembled from IsmailRoeMeshSensIntegrator, paired with any displacement of the mesh nodes, is the derivative of adjoint^T residual (IsmailRoeIntegrator) when the nodes move that way, in conservative and in entropy variables, and it sums to zero over the nodes in each direction.", "quantifier": "all meshes in two and three dimensions, mapping degrees, SBP operators, states, adjoints, displacements, factors alpha", "why_tests_cant": "Derivatives in all directions at all meshes.", "anchors": ["src/physics/fluidflow/mesh_sens_integ_def.hpp:DyadicMeshSensIntegrator::AssembleRHSElementVect", "src/physics/fluidflow/euler_sens_integ_def.hpp:IsmailRoeMeshSensIntegrator", "src/common/sbp_fe.cpp:getSkewEntryRevDiff"]}
{"id": "C115", "title": "mesh sensitivity of boundary fluxes", "statement": "The linear form assembled from SlipWallBCMeshSens (and the volume integrator of C114), paired with any displacement of the mesh nodes, is the derivative of adjoint^T residual with a slip wall; the template BoundaryMeshSensIntegrator gives the derivative for any boundary flux.", "quantifier": "all meshes in two and three dimensions with invertible mapping, states, adjoints, displacements, boundary fluxes", "why_tests_cant": "Derivatives in all directions at all meshes.", "anchors": ["src/physics/fluidflow/mesh_sens_integ_def.hpp:BoundaryMeshSensIntegrator::AssembleRHSElementVect", "src/physics/fluidflow/euler_sens_integ_def.hpp:SlipWallBCMeshSens"]}
{"id": "C116", "title": "error norms of a field", "statement": "calcLpError, calcL2Error and calcLpNorm return, on every process, the p-th root of the sum over all quadrature points of weight times |error|^p (the maximum for p = infinity), however the elements are spread over the processes; calcL2Error is calcLpError with p = 2; the error vanishes exactly when the field agrees with the exact solution at the points, scales with the field and satisfies the triangle inequality.", "quantifier": "all meshes, partitions, spaces, fields, exact solutions, p > 0 (p >= 1 for the triangle inequality)", "why_tests_cant": "Norm axioms for every p, field and partition.", "anchors": ["src/physics/finite_element_state.cpp:calcLpError", "src/physics/finite_element_state.cpp:calcL2Error", "src/physics/finite_element_state.cpp:calcLpNorm"]}
{"id": "C117", "title": "error of one component", "statement": "calcLpError and calcL2Error with an entry return the discrete Lp norm of that component's error, and the squares of the entries add up to the square of the full L2 error.", "quantifier": "all meshes, partitions, fields, exact solutions, components, p", "why_tests_cant": "All p and sign patterns of the error.", "anchors": ["src/physics/finite_element_state.cpp:calcLpError (vector, entry)", "src/physics/finite_element_state.cpp:calcL2Error (vector, entry)"]}
{"id": "C118", "title": "setState and calcStateError", "statement": "setState with a function or coefficient gives the state its interpolant and stores it in the fields state and dirichlet_bc; calcStateError against a function of the space then returns zero; unknown fields and vectors of a wrong size are refused.", "quantifier": "all spaces, functions, states, fields, processes", "why_tests_cant": "All argument types, functions and distributions.", "anchors": ["src/physics/pde_solver.cpp:setState_", "src/physics/pde_solver.cpp:calcStateError_", "src/common/abstract_solver.cpp:setState_", "src/common/abstract_solver.cpp:calcStateError_", "src/common/abstract_solver.hpp:setState", "src/utils/utils.hpp:useAny"]}
{"id": "C119", "title": "true and local dofs", "statement": "Distributing true dofs to the local dofs and extracting them again is the identity for states and for duals, local values survive exactly when they come from true dofs, and a dual paired with a state gives the same number on either side.", "quantifier": "all numbers of dofs, prolongations with a left-inverse restriction, vectors", "why_tests_cant": "All spaces and vectors.", "anchors": ["src/physics/finite_element_state.hpp:distributeSharedDofs", "src/physics/finite_element_state.hpp:setTrueVec", "src/physics/finite_element_dual.hpp:distributeSharedDofs", "src/physics/finite_element_dual.hpp:setTrueVec"]}
{"id": "C120", "title": "choice and copy of the space", "statement": "basis-type names select the documented finite-element space with the given degree, GD selects discontinuous SBP, SBP spaces out of range stop the program, and copying a field's space reproduces its kind, degree and dimension.", "quantifier": "all option values, degrees and dimensions", "why_tests_cant": "All option values.", "anchors": ["src/physics/finite_element_vector.cpp:FiniteElementVector", "src/physics/finite_element_vector.cpp:copyFEColl", "src/common/sbp_fe.cpp:SBPCollection", "src/common/sbp_fe.cpp:DSBPCollection"]}
{"id": "C121", "title": "output histories of a controlled flow", "statement": "With each-timestep outputs, after solveForState the file <output>-<sample>.txt of every output holds exactly one line per visited state, final one included, in strictly increasing time, whatever was in the file before; if a step throws, it holds the lines of all states visited so far; no other file changes, and only rank 0 writes; this holds for every run.", "quantifier": "all initial states, time marchers, crash points, sets of outputs, directories, numbers of steps", "why_tests_cant": "All crash points, histories of runs and numbers of steps.", "anchors": ["src/physics/fluidflow/flow_control_solver.cpp:initialHook", "src/physics/fluidflow/flow_control_solver.cpp:iterationHook", "src/physics/fluidflow/flow_control_solver.cpp:terminalHook", "src/common/abstract_solver.cpp:AbstractSolver2::solveForState"]}
{"id": "C122", "title": "construction and time loop of the flow-control solver", "statement": "The constructor accepts exactly consistent options (mesh, dimension, entropy-state, control boundaries); the run is the base class's time loop with the flow part logged; steady problems are refused before any file is touched; setState with a pair sets the control state on rank 0 and the flow state everywhere.", "quantifier": "all options, meshes, states, time marchers", "why_tests_cant": "All options and states.", "anchors": ["src/physics/fluidflow/flow_control_solver.cpp:FlowControlSolver", "src/physics/fluidflow/flow_control_solver.cpp:constructMesh", "src/physics/fluidflow/flow_control_solver.cpp:calcStepSize", "src/physics/fluidflow/flow_control_solver.cpp:iterationExit", "src/physics/fluidflow/flow_control_solver.cpp:setState_"]}
{"id": "C123", "title": "the shipped SBP operators are summation-by-parts operators", "statement": "Every triangle (degree 0-4) and tetrahedron (degree 0-1) element shipped with the library has positive weights, satisfies summation by parts with a diagonal boundary operator for all nodal values, differentiates every polynomial of its degree p at every node, integrates every polynomial of degree 2p over the reference element and of degree 2p+1 over its boundary, up to the rounding of the tables (1e-14 per unit coefficient).", "quantifier": "all polynomials, all nodal values, all nodes, directions and degrees", "why_tests_cant": "All polynomials and all nodal vectors.", "anchors": ["src/common/data/sbp_operators.hpp:p1Qx_tri", "src/common/data/sbp_operators.hpp:p4Qy_tri", "src/common/data/sbp_operators.hpp:p1Qx_tet", "src/common/sbp_fe.cpp:SBPTriangleElement", "src/common/sbp_fe.cpp:SBPTetrahedronElement"]}
{"id": "C124", "title": "gradient operator of the viscous terms", "statement": "On straight-sided triangles the operator entries used by the viscous integrators differentiate every polynomial of degree p in physical coordinates; in particular a constant field has zero gradient.", "quantifier": "all polynomials, all affine triangles, all nodes", "why_tests_cant": "All polynomials and geometries.", "anchors": ["src/common/sbp_fe.cpp:getQEntry", "src/common/sbp_fe.cpp:getSkewEntry", "src/common/sbp_fe.cpp:getSymEntry", "src/physics/fluidflow/viscous_integ_def.hpp:AssembleElementVector"]}
{"id": "C125", "title": "derivatives of the SBP shape functions", "statement": "CalcDShape returns, for a node of the element, the row of the derivative operator of that node (as documented), so derivatives of nodal fields are those of the element operator and constants have zero derivative.", "quantifier": "all elements, nodes and nodal fields", "why_tests_cant": "All nodal fields and elements.", "anchors": ["src/common/sbp_fe.cpp:SBPTriangleElement::CalcDShape", "src/common/sbp_fe.cpp:SBPTetrahedronElement::CalcDShape", "src/common/sbp_fe.cpp:SBPSegmentElement::CalcDShape"]}
{"id": "C126", "title": "values of the SBP shape functions", "statement": "CalcShape interpolates nodal fields at the element's node objects, and elsewhere reproduces every polynomial of the element's degree.", "quantifier": "all nodal fields, polynomials of the basis, evaluation points, quadratures", "why_tests_cant": "All fields and evaluation points.", "anchors": ["src/common/sbp_fe.cpp:SBPTriangleElement::CalcShape", "src/common/sbp_fe.cpp:SBPSegmentElement::CalcShape"]}
{"id": "C127", "title": "nodes shared between SBP elements", "statement": "Degrees of freedom that two triangles share along an edge, according to the collection's orientation tables, are located at the same physical point, whatever the triangles and the direction of traversal; the dof counts match the node tables; the segment element orders its nodes like a triangle edge.", "quantifier": "all pairs of triangles sharing an edge, all local edges, orientations, degrees", "why_tests_cant": "All geometries and orientations.", "anchors": ["src/common/sbp_fe.cpp:SBPCollection", "src/common/sbp_fe.cpp:DofOrderForOrientation", "src/common/sbp_fe.cpp:SBPSegmentElement"]}
{"id": "C128", "title": "the flow system matrix is the derivative of the flow residual", "statement": "At every gas state of positive density and pressure that does not sit on a kink (zero normal velocity in the stabilisation or the interface dissipation, the switch-over of the logarithmic average), for conservative and entropy variables, any mesh, and any of the inviscid boundary conditions, the matrix assembled by the flow residual's integrators is exactly the derivative of the assembled residual in every direction.", "quantifier": "all meshes, states, dimensions, variable sets, boundary conditions, options and directions", "why_tests_cant": "All states, meshes and directions; finite differences check a few directions up to truncation error.", "anchors": ["src/physics/fluidflow/euler_integ_def.hpp:calcFluxJacState", "src/physics/fluidflow/euler_integ_def.hpp:calcFluxJacStates", "src/physics/fluidflow/euler_integ_def.hpp:applyScalingJacState", "src/physics/fluidflow/euler_integ_def.hpp:applyScalingJacV", "src/physics/fluidflow/euler_integ_def.hpp:convertVarsJacState", "src/physics/fluidflow/navier_stokes_integ_def.hpp:applyScalingJacState", "src/physics/fluidflow/navier_stokes_integ_def.hpp:applyScalingJacDw", "src/physics/fluidflow/flow_residual.cpp:addFlowDomainIntegrators"]}
{"id": "C129", "title": "the viscous system matrix is exact, walls included", "statement": "With viscous terms and no-slip adiabatic, viscous slip, manufactured-solution or control boundaries (and any inviscid far field), the matrix the flow residual assembles is the derivative of the assembled residual in every direction, at every gas state of positive density and pressure off the kinks of the volume terms; the boundary fluxes themselves have no kink.", "quantifier": "all meshes, boundary assignments, states, viscosities (constant or Sutherland), dimensions and directions", "why_tests_cant": "All states, meshes and directions.", "anchors": ["src/physics/fluidflow/viscous_integ_def.hpp:ViscousBoundaryIntegrator", "src/physics/fluidflow/navier_stokes_integ_def.hpp:NoSlipAdiabaticWallBC", "src/physics/fluidflow/navier_stokes_integ_def.hpp:ViscousSlipWallBC", "src/physics/fluidflow/navier_stokes_integ_def.hpp:ViscousExactBC", "src/physics/fluidflow/navier_stokes_integ_def.hpp:ViscousControlBC", "src/physics/fluidflow/flow_residual.cpp:addViscousBoundaryIntegrators"]}
{"id": "C130", "title": "viscous walls conserve mass, do no spurious work, and never produce entropy of the wrong sign", "statement": "In a viscous flow the total of each conserved quantity changes only by the boundary fluxes; no mass crosses a no-slip or slip wall; the energy through such a wall is exactly the work of the wall traction on the wall velocity; the walls' entropy contribution is never destabilising, so in a closed box the total entropy (in the decreasing convention) does not grow; a uniform gas that is tangent to slip walls and at rest at no-slip walls is exactly steady.", "quantifier": "all meshes satisfying the discrete conservation laws, all physical states, viscosities and dimensions up to 3", "why_tests_cant": "All states and meshes; a steady uniform test checks one state.", "anchors": ["src/physics/fluidflow/navier_stokes_fluxes.hpp:calcAdiabaticWallFlux", "src/physics/fluidflow/navier_stokes_fluxes.hpp:calcNoSlipPenaltyFlux", "src/physics/fluidflow/navier_stokes_fluxes.hpp:setZeroNormalDeriv", "src/physics/fluidflow/navier_stokes_integ_def.hpp:calcFlux", "src/physics/fluidflow/flow_residual.cpp:FlowResidual"]}
{"id": "C131", "title": "drag and lift are the pressure force, balance the far field, and have exact gradients", "statement": "The inviscid drag and lift outputs are the gas pressure integrated over the listed boundaries along, respectively across, the free-stream direction, divided by Mach^2, for roll and pitch axes of the space; they equal the momentum the slip-wall condition takes out of the residual, so at a converged state the force is the momentum lost by the other boundaries; a uniform pressure exerts no force on a closed surface; both sets of variables give the same value; and the assembled gradient is the derivative of the value in every direction.", "quantifier": "all meshes, boundary lists, gas states (either set of variables), directions, Mach numbers and angles of attack", "why_tests_cant": "All states, meshes and directions; a test compares one gradient with finite differences.", "anchors": ["src/physics/fluidflow/flow_residual.cpp:constructOutput", "src/physics/fluidflow/euler_integ_def.hpp:PressureForce", "src/physics/fluidflow/inviscid_integ_def.hpp:GetFaceEnergy", "src/physics/fluidflow/inviscid_integ_def.hpp:AssembleFaceVector", "src/physics/fluidflow/euler_fluxes.hpp:calcSlipWallFlux"]}
{"id": "C132", "title": "the viscous force is the wall condition's momentum flux, with an exact gradient", "statement": "With viscous terms, drag and lift on no-slip walls are the momentum flux of the wall condition (pressure minus viscous traction, plus the no-slip penalty, which vanishes where the gas is at rest); at a converged state the force is the momentum lost by the far field; the assembled gradient, through the wall state and through the derivatives of the entropy variables at every node of the element, is the derivative of the value.", "quantifier": "all meshes, boundary lists, physical states, viscosities, dimensions and directions", "why_tests_cant": "All states, meshes and directions.", "anchors": ["src/physics/fluidflow/navier_stokes_integ_def.hpp:SurfaceForce", "src/physics/fluidflow/flow_residual.cpp:constructOutput", "src/physics/fluidflow/navier_stokes_fluxes.hpp:calcAdiabaticWallFlux", "src/physics/fluidflow/navier_stokes_fluxes.hpp:calcNoSlipPenaltyFlux"]}
{"id": "C133", "title": "the boundary-entropy and supply-rate outputs integrate what they document", "statement": "The boundary-entropy output is the entropy weighted by the squared exponential of the distance to the actuator; the far-field supply rate is the source of the entropy balance of the residual; and their gradients are assembled.", "quantifier": "all states, faces, far-field states, actuator positions and dimensions", "why_tests_cant": "All states; and it fails away from the free stream.", "anchors": ["src/physics/fluidflow/euler_integ_def.hpp:BoundaryEntropy", "src/physics/fluidflow/euler_integ_def.hpp:SupplyRate", "src/physics/fluidflow/euler_fluxes.hpp:calcFarFieldFlux2", "src/physics/fluidflow/flow_residual.cpp:constructOutput", "src/utils/utils.cpp:squaredExponential"]}
{"id": "C134", "title": "materials described by components are laid over the library", "statement": "After construction of a solver the known materials are the shipped library with each component's own description applied in turn: a material that no component describes is the library's; the last component that describes a material decides the values it gives, a null removes a property, and properties nobody gives keep the library's value; construction is accepted iff every component refers to a material by name or carries a description with a name; and each component gets the material it describes.", "quantifier": "all libraries, all component lists and descriptions of any depth, all property paths", "why_tests_cant": "All libraries and component lists, in any order and with any repetition of names.", "anchors": ["src/physics/pde_solver.cpp:PDESolver", "src/common/material_library.hpp:material_library"]}
{"id": "C135", "title": "the fields a solver owns after construction", "statement": "A magnetostatic or thermal solver owns state, dirichlet_bc, adjoint and mesh_coords on the spaces of its own discretisation whatever external fields are asked for, each external field on its own space, the solver's additional fields unless given externally, and no others; the temperature is 273.15; construction is accepted iff every external field gives its number of states; the reported size of a field is that of its space and 0 exactly for unknown names.", "quantifier": "all option blocks, lists of external fields, spaces and names", "why_tests_cant": "All sets of external fields, including names the solver uses itself.", "anchors": ["src/physics/pde_solver.cpp:setUpExternalFields", "src/physics/pde_solver.cpp:getFieldSize", "src/common/abstract_solver.cpp:getFieldSize", "src/physics/electromagnetics/magnetostatic.cpp:MagnetostaticSolver", "src/physics/thermal/thermal.cpp:ThermalSolver"]}
{"id": "C136", "title": "adding outputs by name", "statement": "A name selects at most one kind of output, by how it starts; createOutput throws MISOException iff the name is taken or selects nothing, and then changes nothing; on success exactly that name is registered with that kind; a failed call registers nothing; no call, succeeding or not, changes an existing field or output, and new fields are named after the output and start at zero; the attributes option restricts the output; every supported name can be created.", "quantifier": "all names, options, solver states and histories of calls", "why_tests_cant": "All names and all histories of succeeding and failing calls.", "anchors": ["src/physics/electromagnetics/magnetostatic.cpp:addOutput", "src/physics/thermal/thermal.cpp:addOutput", "src/common/abstract_solver.cpp:createOutput", "src/physics/common_outputs.cpp:IEAggregateFunctional", "src/physics/electromagnetics/electromag_outputs.cpp:EMHeatSourceOutput"]}
{"id": "C137", "title": "the entropy and entropy change a flow residual reports", "statement": "The reported entropy is the quadrature over the mesh of -rho s/(gamma-1), whichever variables the solver stores; the change is reported exactly for the configurations in which the residual is defined, and it is the residual at the given state and at the end of the interval, weighted node by node with the entropy variables of that state: every domain, interface, boundary and wall integrator contributes its share, including the entropy-conserving boundary condition, which overwrites its own boundary state while evaluating; inside slip walls the change is never below minus the allowance of the logarithmic average.", "quantifier": "all meshes, states, boundary conditions, walls, times and options; dimensions of any size", "why_tests_cant": "All meshes and states, and all combinations of integrators.", "anchors": ["src/physics/fluidflow/flow_residual.cpp:calcEntropy_", "src/physics/fluidflow/flow_residual.cpp:calcEntropyChange_", "src/physics/miso_nonlinearform.cpp:calcFormOutput", "src/physics/fluidflow/euler_integ_def.hpp:calcBndryFun", "src/physics/fluidflow/euler_integ_def.hpp:GetElementEnergy", "src/physics/fluidflow/navier_stokes_integ_def.hpp:calcBndryFun", "src/physics/fluidflow/inviscid_integ_def.hpp:GetFaceEnergy"]}
{"id": "C138", "title": "mass matrix and balance laws of the time-dependent flow equations", "statement": "The mass matrix acts on each conserved component as a positive weight per node, which integrates: tested with any field it is the quadrature of the product (for steady problems each weight is divided by the d-th root of the mapping Jacobian); so the semi-discrete equations have exactly one time derivative; along them the total of each conserved quantity changes by what crosses far-field, slip and viscous walls, and the reported entropy falls at the reported rate; one step of any scheme that updates with a combination of such rates changes the totals by that combination of the stages' boundary fluxes, so a box of slip walls keeps its mass and energy exactly.", "quantifier": "all meshes, states, stage states, step sizes, numbers of stages and weights, boundary conditions", "why_tests_cant": "All states and stage histories; a test runs a few steps on one mesh.", "anchors": ["src/physics/fluidflow/flow_residual.cpp:getMassMatrix_", "src/physics/diag_mass_integ.cpp:AssembleElementMatrix", "src/physics/fluidflow/flow_residual.cpp:calcEntropy_", "src/common/mfem_extensions.cpp:Step"]}
{"id": "C139", "title": "flow options select exactly the terms they name", "statement": "Options that hold a set of flow settings are accepted exactly when the settings can be run (distinct axes, Ismail-Roe fluxes for entropy variables, no viscous terms on the discontinuous basis, a vortex boundary in two dimensions only) and the listed boundary attributes exist; the residual then has one volume term each for the flux, a positive stabilisation coefficient, viscosity and the manufactured sources, with the given numbers (the angle of attack in radians), one interface term for the discontinuous basis, and on every boundary attribute exactly the conditions that list it.  Settings that cannot be run throw the library's exception.  Defaults: Ismail-Roe, unit stabilisation, inviscid.", "quantifier": "all option trees holding the settings, all dimensions, meshes with any number of boundary attributes, all attribute lists", "why_tests_cant": "All option trees; a test uses a handful of files.", "anchors": ["src/physics/fluidflow/flow_residual.cpp:FlowResidual", "src/physics/fluidflow/flow_residual.cpp:setOptions_", "src/physics/fluidflow/flow_residual.cpp:addFlowDomainIntegrators", "src/physics/fluidflow/flow_residual.cpp:addFlowInterfaceIntegrators", "src/physics/fluidflow/flow_residual.cpp:addFlowBoundaryIntegrators", "src/common/default_options.cpp:default_options"]}
{"id": "C140", "title": "the residual a set of flow options describes", "statement": "The residual of accepted settings is, entry by entry, the inviscid (C51) or viscous (C130) residual on the mesh whose boundary faces carry exactly the conditions listing their attribute; so the sum of each conserved component is the flux of the listed conditions over the faces with their attributes, faces not listed contribute nothing and faces listed twice contribute twice; in a domain surrounded by far field the uniform free stream of the given Mach number, angle and axes has zero residual, inviscid or viscous; the pump boundary is an isentropic gas moving with its piston.", "quantifier": "all options holding runnable settings, all meshes, boundary data, times and states", "why_tests_cant": "All options, meshes and states.", "anchors": ["src/physics/fluidflow/flow_residual.cpp:addInviscidBoundaryIntegrators", "src/physics/fluidflow/flow_residual.cpp:addViscousBoundaryIntegrators", "src/physics/fluidflow/flow_residual.cpp:evaluate_", "src/physics/miso_nonlinearform.hpp:addBdrFaceIntegrator", "src/physics/finite_element_vector.cpp"]}
{"id": "C141", "title": "entropy of the coupled flow-control residual over every history of calls", "statement": "The total entropy reported is the mesh integral of the gas's entropy plus the controller's storage 1/2 x^T P x with the P supplied last.  After any history of calls, also ones that ended in exceptions, whenever the coupled residual is defined at the end of the interval the entropy change is reported; it is that residual's flow part weighted with the entropy variables minus x^T P xdot, with the same control velocity and actuator position, and so minus the rate of the reported total entropy along the equations; for the test controller it is the flow's change plus velocity times boundary entropy.  An actuator position once supplied stays that of the boundary conditions and of the boundary entropy until another is supplied.  A residual with all parameters supplied does not depend on earlier calls.", "quantifier": "all histories of setInputs, evaluate, entropy, entropy-change and supply-rate calls with any inputs, all meshes, gas states, controller parameters and boundary conditions depending on control, actuator and time", "why_tests_cant": "All histories of calls and all states.", "anchors": ["src/physics/fluidflow/flow_control_residual.cpp:setInputs_", "src/physics/fluidflow/flow_control_residual.cpp:evaluate_", "src/physics/fluidflow/flow_control_residual.cpp:calcEntropy_", "src/physics/fluidflow/flow_control_residual.cpp:calcEntropyChange_", "src/physics/fluidflow/flow_control_residual.cpp:calcSupplyRate_", "src/physics/fluidflow/euler_integ.hpp:ControlBC"]}
{"id": "C142", "title": "the solution error a flow solver reports is a distance of conservative states", "statement": "The reported error is the square root of the mesh quadrature of the squared differences of density, momentum and total energy between the computed and the exact gas (all of them, or the one component asked for), whichever variables the solver stores and however the elements are spread over processes.  It is zero exactly when density, velocity and pressure agree at every node, its square is the sum of the squared component errors, and it satisfies the triangle inequality.", "quantifier": "all dimensions, meshes, partitions of the elements over processes, gas states, exact solutions and component numbers", "why_tests_cant": "All states and meshes; a test compares a few numbers with tolerances.", "anchors": ["src/physics/fluidflow/flow_residual.cpp:calcConservativeVarsL2Error", "src/physics/fluidflow/flow_solver.cpp:calcConservativeVarsL2Error", "src/physics/fluidflow/euler_fluxes.hpp:calcConservativeVars"]}
{"id": "C143", "title": "restricting integrators to attributes restricts values and sensitivities alike", "statement": "Whatever integrators are added to an output, a load or a residual, each to a list of mesh attributes or to the whole mesh, the assembled value is the sum of their contributions from exactly the listed part, and the sensitivity reported for an input is the partial derivative of that value.  Adding succeeds when the attributes exist and the fields the integrator needs are there; a missing field is an exception.", "quantifier": "all meshes, sequences of add calls, attribute lists, integrators whose own derivatives are right, inputs and components", "why_tests_cant": "Any combination of attribute lists and integrators; tests restrict to one or two attributes of one mesh.", "anchors": ["src/common/functional_output.hpp:addOutputDomainIntegrator", "src/common/miso_linearform.hpp:addDomainIntegrator", "src/physics/miso_nonlinearform.hpp:addDomainIntegrator", "src/physics/miso_nonlinearform.hpp:addBdrFaceIntegrator", "src/physics/miso_integrator.hpp:addDomainSensitivityIntegrator", "src/physics/mfem_common_integ.hpp:addDomainSensitivityIntegrator", "src/physics/thermal/thermal_integ.hpp:addBdrSensitivityIntegrator", "src/physics/electromagnetics/electromag_integ.hpp:addDomainSensitivityIntegrator"]}
{"id": "C144", "title": "interior penalty terms: conservation, consistency, symmetry, stability and derivatives", "statement": "The discontinuous Galerkin face terms of the diffusion operator are the weak forms of the symmetric interior penalty method.  What leaves one element enters its neighbour; a continuous solution receives only the mean flux, a solution meeting its boundary value only the flux; on linear materials the terms are symmetric; they take away at most 1/mu of the energy at the face; alpha -1 undoes a face exactly.  The matrices are the derivatives of the vectors and the mesh sensitivities those of psi . R with respect to the nodes.", "quantifier": "all faces, elements of any degree and shape, rules, materials, boundary values, penalties, states, test functions, node positions and motions", "why_tests_cant": "Ranges over all states, materials and meshes; tests compare finite differences on one mesh with one material.", "anchors": ["src/physics/electromagnetics/electromag_integ.cpp:NonlinearDGDiffusionIntegrator::AssembleFaceVector", "src/physics/electromagnetics/electromag_integ.cpp:NonlinearDGDiffusionIntegrator::AssembleFaceGrad", "src/physics/electromagnetics/electromag_integ.cpp:NonlinearDGDiffusionIntegratorMeshRevSens::AssembleRHSElementVect", "src/physics/electromagnetics/electromag_integ.cpp:DGInteriorFaceDiffusionIntegrator::AssembleFaceVector", "src/physics/electromagnetics/electromag_integ.cpp:DGInteriorFaceDiffusionIntegrator::AssembleFaceGrad", "src/physics/electromagnetics/electromag_integ.cpp:DGInteriorFaceDiffusionIntegratorMeshRevSens::AssembleRHSElementVect"]}
{"id": "C145", "title": "thermal problem options: the equations they stand for", "statement": "The weak equations of a thermal residual are exactly the ones its JSON options describe: conduction, on discontinuous bases the coupling of neighbours (once less for each interface the face belongs to), convection, outflux, essential and weak-essential conditions on exactly the listed boundary attributes, and the laws of the interfaces.  The sum of all rows is the heat balance; undriven problems lose no more energy than the penalties allow; what is accepted names existing attributes and states interface coefficients.", "quantifier": "all options, attribute lists, interfaces, bases, materials, meshes, states and test functions", "why_tests_cant": "Ranges over all option trees, meshes and states; tests run a few option files on one mesh.", "anchors": ["src/physics/thermal/thermal_residual.cpp:ThermalResidual::ThermalResidual", "src/physics/miso_nonlinearform.hpp:MISONonlinearForm::addBdrFaceIntegrator", "src/physics/miso_nonlinearform.hpp:MISONonlinearForm::addInternalBoundaryFaceIntegrator"]}
{"id": "C146", "title": "two-dimensional magnetostatic options: the equations they stand for", "statement": "The residual built from options, after any history of inputs, is Ampere's law tested with every function: nu grad A . grad v less the last current given for each listed group times v, less nu times the listed magnets' remnant flux density times curl v, with interior penalty coupling on discontinuous bases and held values on exactly the listed boundary attributes.  Its entries sum to the circulation of H along the held boundary less the current through the body.  What is accepted names existing attributes only, other dimensions are refused.", "quantifier": "all options, groups, magnets, materials, attribute lists, histories of inputs, bases, meshes, states and test functions", "why_tests_cant": "Ranges over all option trees, input histories, meshes and states; tests run a few option files on one mesh.", "anchors": ["src/physics/electromagnetics/magnetostatic_residual.cpp:MagnetostaticResidual::MagnetostaticResidual", "src/physics/electromagnetics/magnetostatic_residual.cpp:evaluate", "src/physics/electromagnetics/magnetostatic_residual.cpp:getCurrentAttributes", "src/physics/electromagnetics/magnetostatic_residual.cpp:getMagnetAttributes"]}
{"id": "C147", "title": "Newton's matrix of thermal and magnetostatic options", "statement": "For options either residual accepts, the matrix Newton's method solves with is the derivative of the residual along every direction that keeps the held values.  With laws that do not depend on the field it is symmetric, the same at every state, and one Newton step from any state solves the problem and moves no held value.  On continuous bases without weak conditions or interfaces it is symmetric for every law and, when conductivity (reluctivity) and its differential stay above a positive number, at least that number times the integral of the squared gradient, so a Newton step exists at most once.", "quantifier": "all accepted options, meshes, bases, material laws, essential dofs, loads, states and directions", "why_tests_cant": "Ranges over all options, laws, meshes and states; tests difference one residual on one mesh.", "anchors": ["src/physics/miso_nonlinearform.cpp:getJacobian", "src/physics/thermal/thermal_residual.cpp:getJacobian", "src/physics/electromagnetics/magnetostatic_residual.cpp:getJacobian", "src/physics/thermal/thermal_residual.cpp:ThermalResidual::ThermalResidual"]}
{"id": "C148", "title": "Energy and unique solvability of thermal and magnetostatic options", "statement": "On continuous bases without weak conditions or interfaces, the form either residual builds from its options is the gradient of an energy: the integrals of the material's stored energy, plus h/2 (T - T_fluid)^2 and flux times T over the boundary that convection and outflux list.  When the flux of each material grows at least as k0 times the gradient and values are held where a field without gradient would otherwise be free, two solutions with the same held values are equal and their distance is bounded by the loads; a solution has the least energy less work of the load, by at least k0/2 of the squared gradient of the difference; every Newton system has exactly one solution, which keeps held values and lowers that energy; there is exactly one solution for all held values and loads, when the laws do not depend on the field and, in general, when the flux also grows at most L times the gradient.", "quantifier": "all accepted plain options, meshes, monotone material laws and their stored energies, essential dofs, held values, loads and states", "why_tests_cant": "Existence, uniqueness and minimality range over every other field, load and held value; a test solves one problem.", "anchors": ["src/physics/thermal/thermal_residual.cpp:ThermalResidual::ThermalResidual", "src/physics/electromagnetics/magnetostatic_residual.cpp:MagnetostaticResidual::MagnetostaticResidual", "src/physics/miso_nonlinearform.cpp:evaluate", "src/physics/miso_nonlinearform.cpp:getJacobian"]}
{"id": "C149", "title": "Unique solvability of discontinuous thermal and magnetostatic options", "statement": "On discontinuous bases, with material laws that do not depend on the field, at most one interface per face and straight faces where channels are, the matrix either residual builds from its options is positive once the number mu (sipg-penalty or its default) is above the constant of the trace inequality: v.Av is at least theta times the heat dissipated in the elements, plus mu/2 times the weighted squares of the jumps on coupled faces and of the values on weakly held faces, plus what v exchanges with fluids, contacts and channels.  So two solutions differ at most as their loads do, Newton's system has exactly one solution from every state, and one step gives the one field whose residual is 0.  Nothing checks mu: 0 is accepted and gives a matrix that is not positive.", "quantifier": "all accepted discontinuous options, meshes, linear materials, transfer coefficients that are not negative, penalties, essential dofs, held values, loads and states", "why_tests_cant": "Positivity and uniqueness range over every field, load and state of a mesh; a test solves one problem.", "anchors": ["src/physics/thermal/thermal_residual.cpp:ThermalResidual::ThermalResidual", "src/physics/electromagnetics/magnetostatic_residual.cpp:MagnetostaticResidual::MagnetostaticResidual", "src/physics/electromagnetics/electromag_integ.cpp:DGInteriorFaceDiffusionIntegrator::AssembleFaceGrad", "src/physics/miso_nonlinearform.cpp:getJacobian"]}
{"id": "C150", "title": "Nonlinear reluctivities from spline data and the shipped steels", "statement": "With any accepted spline data for the logarithm of the reluctivity, Eval lies between the exponentials of the extreme control points over the curve's domain, returns the reluctivity of free space above the last knot and throws elsewhere; with data of degree two or more on distinct inner knots EvalStateDeriv is its derivative, knots included, and EvalState2ndDeriv that of EvalStateDeriv from degree three on.  The 'bh' model keeps the flux between the extreme control points, continues it above the last knot with the slope of free space, and without a jump where the last knot is repeated; its EvalStateDeriv is the derivative of Eval at every density above 1e-14 but the last knot, and divides by 0 at 0.  Control points, knots and degree come from the material where given there, else from the library.  The 'lognu' data shipped for hiperco50 are accepted: Eval never throws from 0 on, lies between 40 and the reluctivity of free space, and the flux nu(b) b grows with b at least as 10 b at every density, but the reluctivity jumps by more than 100 at the last knot.  Its 'bh' data are accepted too, with a reluctivity of at least 24 and a flux that grows at least as 24 b.  So a two-dimensional machine of this steel by either model and of linear materials has at most one field, which depends continuously on its sources.  Data whose knots are not as many as control points, degree and one together are refused, and the 'bh' data shipped for team13, whose control points and knots are exchanged, always are.", "quantifier": "all spline data, all flux densities, all accepted options, meshes, sources and fields", "why_tests_cant": "Monotonicity of the flux and uniqueness range over a continuum of densities and all fields; a test samples a few densities.", "anchors": ["src/physics/electromagnetics/reluctivity_coefficient.cpp:logNuBBSplineReluctivityCoefficient", "src/physics/electromagnetics/reluctivity_coefficient.cpp:BHBSplineReluctivityCoefficient", "src/physics/electromagnetics/reluctivity_coefficient.cpp:getCpsKnotsAndDegree", "src/common/material_library.cpp:hiperco50", "src/common/material_library.cpp:team13"]}
{"id": "C151", "title": "Core losses by the Steinmetz equation", "statement": "The output of Steinmetz loss integrators is the integral of rho k_s f^alpha B^beta with the frequency and peak flux density last given (each integrator reads the flux given for its own name); without flux there is none; it is not negative, grows with frequency and flux, and scales with the power alpha of the frequency.  The products with respect to the frequency, the peak flux and the mesh are the derivatives of that output, every other name is refused, and the heat source integrates to the loss.  With integrators of two names the product with respect to one name's peak flux must not contain the other's.", "quantifier": "all meshes, coefficient fields, exponents, frequencies, fluxes, numbers and names of integrators", "why_tests_cant": "Derivatives and growth range over a continuum of inputs and all position-dependent coefficients; a test samples some.", "anchors": ["src/physics/electromagnetics/electromag_integ.cpp:SteinmetzLossIntegrator", "src/physics/electromagnetics/electromag_integ.cpp:SteinmetzLossIntegratorMeshSens", "src/physics/electromagnetics/electromag_integ.cpp:SteinmetzLossDistributionIntegrator", "src/physics/electromagnetics/electromag_integ.hpp:addDomainSensitivityIntegrator"]}
{"id": "C152", "title": "The quarter annulus mesh", "statement": "buildQuarterAnnulusMesh gives a mesh of the quarter annulus of radii 1 and 3 in the first quadrant: its boundary vertices lie on the two arcs and the two axes whatever is drawn, with at most one cell of perturbation every vertex lies in the annulus, the map from the rectangle identifies no points, and with less than a quarter of a cell no triangle of the perturbed mesh is inverted whatever numbers are drawn.  Every perturbation it accepts must leave a mesh without inverted triangles.", "quantifier": "all numbers of cells, perturbations and sequences of random numbers", "why_tests_cant": "The perturbation is seeded by the random device: a test sees a few of the possible meshes, and bad draws are rare.", "anchors": ["src/utils/utils.cpp:buildQuarterAnnulusMesh"]}
