{"id": "C01", "title": "Output times are hit exactly", "statement": "A run that is not aborted writes its output lines, in order, at exactly t_initial + k*evol_time_step for k = 0..step_count: the simulated time held when line k is written compares equal to the double t_initial + k*t_step, whatever steps the integrator took in between (as long as the time had not passed that value beforehand).", "quantifier": "every initial time, time step, DTMIN/DTMAX, every sequence of solver successes, failures and maximum velocities, in IEEE-754 binary64 as well as in exact arithmetic", "why_tests_cant": "depends on rounding of t += dt along an unbounded, solver-driven sequence of adaptive steps", "anchors": ["src/time_integration.cpp: Fem::time_integration, TimeStepper::operator()", "src/time_integration.h: timing::inc_t, timing::set_t"]}
{"id": "C02", "title": "Integration never runs past the next output time", "statement": "Between two output lines, no accepted integration step moves the simulated time beyond the next output time.", "quantifier": "every state of the adaptive stepper, every distance to the target, every solver answer, in binary64 and in exact arithmetic", "why_tests_cant": "the bad case is a one-ulp overshoot for particular operands; there are 2^128 operand pairs", "anchors": ["src/time_integration.cpp: TimeStepper::operator(), Fem::time_integration"]}
{"id": "C03", "title": "Accepted steps respect the hard bounds on dt", "statement": "No integration step is ever attempted, and none accepted, with dt < min(dt); and no step exceeds max(dt)*(1+FLT_EPSILON) once the initial step is within it.", "quantifier": "every history of the time loop, any arithmetic (including NaN) for the lower bound", "why_tests_cant": "histories are unbounded and depend on the solver", "anchors": ["src/time_integration.cpp: TimeStepper, Fem::time_integration", "src/time_integration.h: timing::is_dt_TooSmall"]}
{"id": "C04", "title": "Accepted steps respect max(du)", "statement": "A trial step whose largest magnetization change dt*vmax exceeds max(du) is never accepted: time, step counter, output and reference magnetization are only advanced by trials for which dt*vmax > DUMAX is false.", "quantifier": "every history, any arithmetic", "why_tests_cant": "unbounded histories of trial steps", "anchors": ["src/time_integration.cpp: Fem::time_integration (dumax test)"]}
{"id": "C05", "title": "A rejected trial step is rolled back", "statement": "A trial step rejected because the linear solver failed or because dumax > max(du) leaves the simulated time, the accepted-step counter, the output files and the reference (current) magnetization, velocity and potentials of every node unchanged; the next trial starts from exactly the same reference state.", "quantifier": "every state and every solver answer", "why_tests_cant": "must hold at each of an unbounded number of rejections inside a stateful loop", "anchors": ["src/time_integration.cpp: Fem::time_integration", "src/node.h: Node::make_evol, Node::evolution", "src/solver.cpp: LinAlgebra::solve"]}
{"id": "C06", "title": "Simulated time only moves forward", "statement": "Every accepted step strictly increases the simulated time (exact arithmetic); in binary64 it never decreases.", "quantifier": "every history", "why_tests_cant": "unbounded histories", "anchors": ["src/time_integration.cpp: Fem::time_integration"]}
{"id": "C07", "title": "The time loop always ends", "statement": "With 0 < min(dt) the integration ends after finitely many trial steps, for whatever sequence of solver failures and velocities: either all output lines are written or the run is aborted because dt < min(dt).", "quantifier": "every solver behaviour (an arbitrary adversary), every parameter set with DTMIN > 0", "why_tests_cant": "termination over all infinite adversary behaviours", "anchors": ["src/time_integration.cpp: Fem::time_integration, TimeStepper"]}
{"id": "C08", "title": "Exit status tells whether the run completed", "statement": "time_integration returns 0 exactly when every output line was written and 1 exactly when it stopped early because dt < min(dt).", "quantifier": "every history", "why_tests_cant": "unbounded histories", "anchors": ["src/time_integration.cpp: Fem::time_integration (status, bailout)"]}
{"id": "C09", "title": "Retries use strictly smaller steps", "statement": "After a trial rejected by the solver the next trial's dt is at most half the rejected one; after a trial rejected by max(du) it is at most 0.95*DUMAX/vmax, hence below 0.95 times the rejected dt (exact arithmetic; positive DUMAX).", "quantifier": "every stepper state", "why_tests_cant": "depends on the stepper's mutable soft limit over the whole history", "anchors": ["src/time_integration.cpp: TimeStepper::set_soft_limit, TimeStepper::operator()"]}
{"id": "C10", "title": "The step grows by at most 10% per step", "statement": "Two consecutive steps proposed by the stepper never grow by more than a factor 1.1 beyond max(previous proposal, previous soft limit), and soft limits requested in between are honoured.", "quantifier": "all sequences of stepper calls (limits and strides)", "why_tests_cant": "unbounded call sequences", "anchors": ["src/time_integration.cpp: TimeStepper"]}
{"id": "C11", "title": "No sliver step before an output time", "statement": "When a proposed step does not reach the target exactly, it leaves at least 2*min(dt) to go; and a proposed step is at least min(dt) as long as the soft limit is at least min(dt) and at least 3*min(dt) remain.", "quantifier": "all stepper states and strides", "why_tests_cant": "the boundary region is a measure-zero set of operands for sampling tests", "anchors": ["src/time_integration.cpp: TimeStepper::operator()"]}
{"id": "C12", "title": "Number and last time of output lines", "statement": "An unaborted run with t_step > 0 writes max(0, round((tf - t0)/t_step) + 1) lines; the last is at t0 + round((tf-t0)/t_step)*t_step, which is within t_step/2 of final_time and equals it when tf - t0 is a multiple of t_step.", "quantifier": "all tf, t0, t_step", "why_tests_cant": "quantifies over all real parameters", "anchors": ["src/time_integration.cpp: Fem::time_integration (step_count)"]}
{"id": "C13", "title": "Termination requests are honoured between trial steps", "statement": "Once SIGINT or SIGTERM has been received no further trial step is started; the configuration is saved to <base>_at_exit.sol if and only if mag_config_every > 0, labelled with the current simulated time, and it is the last accepted magnetization.", "quantifier": "every arrival point of the signal in every history", "why_tests_cant": "signals may arrive at any point of an unbounded run", "anchors": ["src/time_integration.cpp: exit_if_signal_received", "src/main.cpp: signal_handler", "src/save.cpp: mesh::savesol"]}
{"id": "C14", "title": "Snapshot files follow the output lines", "statement": "The k-th output line triggers a magnetization snapshot <base>_iter<k>.sol exactly when mag_config_every = p > 0 and p divides k, with the same simulated time in its header.", "quantifier": "all periods, all k", "why_tests_cant": "unbounded numbering", "anchors": ["src/save.cpp: Fem::saver"]}
{"id": "C15", "title": "Running statistics are the exact statistics", "statement": "After any sequence of samples LogStats reports their number, their geometric mean, and the population standard deviation of their logarithms (exact arithmetic).", "quantifier": "every finite sequence of positive samples", "why_tests_cant": "identity over all sequences of reals", "anchors": ["src/log-stats.h: LogStats::add, count, mean, stddev"]}
{"id": "C16", "title": "Running statistics do not depend on sample order", "statement": "Permuting the samples leaves count, mean and stddev unchanged (exact arithmetic), and stddev is the square root of a non-negative number.", "quantifier": "every sequence and permutation", "why_tests_cant": "factorially many orders", "anchors": ["src/log-stats.h: LogStats"]}
{"id": "C17", "title": "The local basis is orthonormal", "statement": "For every unit reference magnetization u0 and every rotation angle, setBasis gives unit vectors ep, eq orthogonal to each other and to u0, with (u0, ep, eq) right-handed.", "quantifier": "all unit vectors, all angles", "why_tests_cant": "continuum of inputs; degenerate directions are the risky ones", "anchors": ["src/node.h: Node::setBasis"]}
{"id": "C18", "title": "Time stepping keeps the magnetization on the unit sphere", "statement": "make_evol produces a unit magnetization, in the open hemisphere of u0, at angle arctan(dt*|v|) from it, for every velocity components and dt; hence every magnetic node stays of unit norm along every history of the simulation.", "quantifier": "all u0 unit, all vp, vq, dt; all histories of trial steps, acceptances and rejections", "why_tests_cant": "invariant over unbounded histories", "anchors": ["src/node.h: Node::make_evol, Node::evolution", "src/mesh.h: mesh::updateNode, mesh::evolution"]}
{"id": "C19", "title": "Velocity is tangent and projections invert it", "statement": "The velocity set by make_evol is orthogonal to u0 and its projections on the local basis return exactly vp and vq.", "quantifier": "all inputs", "why_tests_cant": "continuum of inputs", "anchors": ["src/node.h: Node::make_evol, proj_ep, proj_eq"]}
{"id": "C20", "title": "The random basis angle has no effect on a given tangent velocity", "statement": "Two rotation angles give the same updated magnetization for the same physical tangent velocity, and projecting a tangent velocity on one basis and re-expanding it is the identity.", "quantifier": "all angles, all tangent vectors", "why_tests_cant": "continuum of inputs; the angle is random at each step", "anchors": ["src/node.h: Node::setBasis, make_evol", "src/linear_algebra.cpp: LinAlgebra::base_projection"]}
{"id": "C21", "title": "SparseMatrix is a map that is zero outside its shape", "statement": "After construction from a shape and any sequence of clear, set and add calls at positions of the shape, reading (i,j) returns the value of the obvious mathematical map, and 0 outside the shape; the shape never changes.", "quantifier": "all shapes, all operation sequences, any arithmetic", "why_tests_cant": "unbounded operation sequences on unbounded shapes", "anchors": ["src/algebra/sparseMat.h: SparseMatrix, set, add, clear, operator()"]}
{"id": "C22", "title": "Concurrent add calls lose no update", "statement": "Any number of threads executing any sequences of add calls end, under every schedule of their lock/read/write/unlock actions, with each coefficient equal to its initial value plus the sum of all added values (exact arithmetic), and some thread can always progress until all are done.", "quantifier": "all thread counts, all programs, all schedules", "why_tests_cant": "schedules are exponentially many; races do not show in tests", "anchors": ["src/algebra/sparseMat.h: SparseMatrix::add", "src/solver.cpp: LinAlgebra::solve (parallel assembly)"]}
{"id": "C23", "title": "mult is the matrix-vector product", "statement": "mult(X,Y) sets every Y[i] to the sum over all j of A(i,j)*X[j] (exact arithmetic), independently of previous contents of Y and of the order in which rows are processed.", "quantifier": "all matrices and vectors", "why_tests_cant": "all sizes and values", "anchors": ["src/algebra/sparseMat.h: SparseMatrix::mult"]}
{"id": "C24", "title": "The diagonal preconditioner inverts the diagonal", "statement": "build_diag_precond sets D[i] = 1/A(i,i) for every row.", "quantifier": "all matrices with non-zero diagonal", "why_tests_cant": "all sizes", "anchors": ["src/algebra/sparseMat.h: build_diag_precond"]}
{"id": "C25", "title": "The iteration monitor's verdict", "statement": "finished(nr) returns true exactly when |nr| <= tolerance*norm(rhs) and then the status is CONVERGED; a NaN residual makes the status CANNOT_CONVERGE; incrementing the counter to maxiter makes it ITER_OVERFLOW.", "quantifier": "all states and residuals, including NaN", "why_tests_cant": "all IEEE values", "anchors": ["src/algebra/iter.h: iteration"]}
{"id": "C26", "title": "Iterative solvers always stop", "statement": "cg, cg_dir, bicg and both forms of bicg_dir evaluate their loop condition at most max(1, maxiter)+1 times, and their counter ends at most at max(1, maxiter), for every matrix, right-hand side, initial guess and arithmetic (NaN, overflow and breakdown included).", "quantifier": "all inputs, any arithmetic", "why_tests_cant": "termination for all inputs", "anchors": ["src/algebra/bicg.h", "src/algebra/cg.h", "src/algebra/iter.h"]}
{"id": "C27", "title": "CONVERGED means the equations are solved to tolerance", "statement": "If cg, cg_dir, bicg or bicg_dir ends with status CONVERGED then the true residual rhs - A*x restricted to the non-Dirichlet rows has norm at most tolerance times the norm of the (restricted, Dirichlet-corrected) right-hand side (exact real arithmetic with IEEE infinities and NaN for breakdowns), and all entries of x are finite.", "quantifier": "all matrices, right-hand sides, guesses, masks, tolerances", "why_tests_cant": "recurrence residual equals true residual: an invariant over all iterations and breakdown cases", "anchors": ["src/algebra/bicg.h: bicg, bicg_dir", "src/algebra/cg.h: cg, cg_dir"]}
{"id": "C28", "title": "Dirichlet values are imposed exactly", "statement": "After cg_dir/bicg_dir with prescribed values, from a guess that is zero on the masked unknowns, every masked unknown compares equal to its (finite) prescribed value; after bicg_dir without values it compares equal to the initial guess; unless the status is CANNOT_CONVERGE.", "quantifier": "all inputs and masks", "why_tests_cant": "must hold through all iterations", "anchors": ["src/algebra/bicg.h: bicg_dir", "src/algebra/cg.h: cg_dir", "src/algebra/algebra.h: applyMask"]}
{"id": "C29", "title": "A solver never ends undecided and never alters its inputs", "statement": "On return the status is CONVERGED, ITER_OVERFLOW or CANNOT_CONVERGE, never UNDEFINED; a good enough initial guess is returned untouched with zero iterations and status CONVERGED.", "quantifier": "all inputs, any arithmetic", "why_tests_cant": "all inputs", "anchors": ["src/algebra/bicg.h", "src/algebra/cg.h", "src/algebra/iter.h"]}
{"id": "C30", "title": "Assembly adds up the element matrices inside the shape", "statement": "Every coefficient touched by the assembly of any element lies in the shape built from the mesh edges (so no out-of-shape write can happen), and after assembly the global matrix is the sum over elements of their local coefficients at the matching node/component positions.", "quantifier": "all meshes, all magnetic/non-magnetic region layouts, all element matrices, problem dimensions 1, 2 and 3", "why_tests_cant": "an out-of-shape write is undefined behaviour (assertions are compiled out) and depends on the mesh", "anchors": ["src/solver.h: solver::build_shape, buildMat", "src/linear_algebra.h: LinAlgebra edge filter"]}
{"id": "C31", "title": "The right-hand side adds up the element vectors", "statement": "After assembly L_rhs[DIM*i+d] is the sum over elements containing node i of their local entries for (d, i).", "quantifier": "all meshes and element vectors", "why_tests_cant": "all meshes", "anchors": ["src/solver.h: solver::buildVect"]}
{"id": "C32", "title": "A failed linear solve changes no node", "statement": "LinAlgebra::solve returning true (error) leaves the magnetization of every node unchanged; returning false updates exactly the magnetic nodes, each to the unit vector given by its own two unknowns, and v_max is gamma0 times the largest norm of the solution velocity over magnetic nodes.", "quantifier": "all systems, meshes and solver outcomes", "why_tests_cant": "all inputs", "anchors": ["src/solver.cpp: LinAlgebra::solve", "src/linear_algebra.h: get_v_max"]}
{"id": "C33", "title": "Non-magnetic nodes have zero unknowns", "statement": "In the magnetization problem, the unknowns of non-magnetic nodes are exactly zero in the solution of a converged solve, and their matrix rows are not singular (unit diagonal).", "quantifier": "all meshes and magnetic layouts", "why_tests_cant": "all meshes", "anchors": ["src/linear_algebra.h: lvd", "src/solver.cpp: LinAlgebra::solve"]}
{"id": "C34", "title": "Renumbering nodes preserves the mesh", "statement": "Sorting the nodes is a permutation: every node keeps its position and every tetrahedron and triangle keeps the same geometric vertices in the same order; the mapping from original to internal index is a bijection.", "quantifier": "all meshes, all long axes", "why_tests_cant": "all permutations", "anchors": ["src/mesh.cpp: mesh::sortNodes"]}
{"id": "C35", "title": "Nodes are sorted along the long axis", "statement": "After construction node coordinates along the chosen axis are non-decreasing, and the chosen axis is one along which the nodes have the largest extent, for every mesh.", "quantifier": "all meshes", "why_tests_cant": "all inputs", "anchors": ["src/mesh.cpp: mesh::sortNodes", "src/mesh.h: mesh constructor"]}
{"id": "C36", "title": "The edge list is exact", "statement": "The edge list holds each unordered pair of distinct nodes that share a tetrahedron exactly once, smaller index first, and nothing else.", "quantifier": "all tetrahedra lists", "why_tests_cant": "all meshes", "anchors": ["src/mesh.h: mesh constructor (edges)"]}
{"id": "C37", "title": "Magnetic marking is consistent", "statement": "A node is magnetic iff it belongs to a tetrahedron of a region with Ms > 0; the magnetic tetrahedra are exactly those; a triangle takes part in the magnetic problem iff its three nodes are magnetic and its region does not suppress charges.", "quantifier": "all meshes and region parameters", "why_tests_cant": "all meshes", "anchors": ["src/mesh.h: mesh constructor, isMagnetic"]}
{"id": "C38", "title": "Surface triangles are checked against the volume", "statement": "Mesh construction accepts exactly the meshes with at least one tetrahedron in which no face is shared by more than two tetrahedra, every user triangle is a face of one tetrahedron or of two tetrahedra of different regions, and no two user triangles have the same nodes; every other mesh is refused.", "quantifier": "all meshes", "why_tests_cant": "all combinations of faces", "anchors": ["src/mesh.cpp: mesh::controlTriangles, diffTriHandler, assertNoErrInTriangle"]}
{"id": "C39", "title": "Missing interface triangles are created exactly once", "statement": "After an accepted check every face between two different volume regions, and every outer face, carries exactly one triangle: the user's one if given, else a new one in a region named after the two volume regions; no other triangle is added and user triangles are kept.", "quantifier": "all meshes", "why_tests_cant": "all combinations of faces", "anchors": ["src/mesh.cpp: mesh::controlTriangles"]}
{"id": "C40", "title": "The magnetization jump of a triangle has a consistent sign", "statement": "For every triangle adjacent to tetrahedra, dMs times its oriented normal is the sum over adjacent tetrahedra of Ms times their outward normal: reversing the node order of a triangle flips both and leaves surface charges unchanged.", "quantifier": "all orientations of all triangles and both neighbour orders", "why_tests_cant": "all permutations of vertices and neighbours", "anchors": ["src/mesh.cpp: mesh::controlTriangles (dMs), BasicTri"]}
{"id": "C41", "title": "Saving and restoring a magnetization configuration is the identity", "statement": "A .sol file written by the program and read back for the same mesh restores for every node the printed magnetization and potential, and the printed time.", "quantifier": "all node counts, all values printable, all headers", "why_tests_cant": "all files; header/row parsing", "anchors": ["src/save.cpp: mesh::savesol", "src/read.cpp: mesh::readSol", "src/settings.cpp: solMetadata"]}
{"id": "C42", "title": "Average of a component over the sample or a region", "statement": "The average of the magnetization over the magnetic volume (or one magnetic region) is the volume-weighted mean of the means over the tetrahedra, whatever the order of the parallel reduction: it is exact for uniform values and the average of unit vectors has norm at most 1.", "quantifier": "all meshes and magnetizations", "why_tests_cant": "all inputs", "anchors": ["src/mesh.cpp: mesh::avg"]}
{"id": "C43", "title": "Maximum angle statistic", "statement": "max_angle returns the largest angle between the magnetizations at the two ends of an edge between magnetic nodes, 0 when there is no such edge, whatever the order in which the parallel reduction combines the edges.", "quantifier": "all meshes and configurations", "why_tests_cant": "all inputs", "anchors": ["src/mesh.h: mesh::max_angle"]}
{"id": "C44", "title": "Initial magnetization is unit on magnetic nodes and undefined elsewhere", "statement": "init_distrib gives each magnetic node, at both time levels, the user's vector evaluated at its position (and the names of the regions it belongs to) scaled to unit length, and NaN to the other nodes.", "quantifier": "all meshes, all user functions", "why_tests_cant": "all user functions", "anchors": ["src/mesh.h: mesh::init_distrib", "src/settings.h: getMagnetization"]}
{"id": "C45", "title": "Tetrahedra are positively oriented with the right volume", "statement": "Every constructed tetrahedron has positive Jacobian, its vertex set is the given one, degenerate ones are refused, and its quadrature weights sum to its geometric volume.", "quantifier": "all quadruples of points", "why_tests_cant": "continuum of inputs", "anchors": ["src/tetra.h: Tet constructor", "src/tetra.cpp: Tet::orientate, Jacobian, calc_vol"]}
{"id": "C46", "title": "Shape-function gradients are exact on affine fields", "statement": "For every non-degenerate tetrahedron the gradient computed from the four nodal values of an affine function is its exact gradient; gradients of a constant vanish.", "quantifier": "all tetrahedra, all affine functions", "why_tests_cant": "continuum of inputs", "anchors": ["src/tetra.h: Tet::da, interpolation, interpolation_field", "src/tetra.cpp: calc_gradV"]}
{"id": "C47", "title": "Quadrature rules are exact to their degree", "statement": "The tetrahedron rule integrates polynomials of degree 3, the triangle rule of degree 3, exactly over the reference element; shape functions sum to 1 at every Gauss point.", "quantifier": "all cubic polynomials", "why_tests_cant": "all polynomials", "anchors": ["src/tetra.h: u,v,w,pds,a", "src/triangle.h: u,v,pds,a"]}
{"id": "C48", "title": "Effective damping is positive, bounded and continuous", "statement": "calc_alpha_eff returns at every Gauss point a value between alpha/(1+r) and alpha*(1+r) with r = 0.1, equal to alpha for zero field, non-decreasing and continuous in the projected field.", "quantifier": "all alpha > 0, dt > 0, fields", "why_tests_cant": "continuum of inputs, piecewise formula with 4 branches", "anchors": ["src/tetra.cpp: calc_alpha_eff"]}
{"id": "C49", "title": "The local system matrix is positive", "statement": "For alpha > 0 the element matrix built by lumping is positive definite, with a lower bound proportional to alpha times the volume, whatever the magnetization, the local field and the velocity (exchange is non-negative and the gyroscopic part does not contribute).", "quantifier": "all tetrahedra, magnetizations, parameters", "why_tests_cant": "all inputs", "anchors": ["src/tetra.cpp: Tet::lumping, calcDiagBlock"]}
{"id": "C50", "title": "Energy terms have the documented signs and bounds", "statement": "Exchange energy is non-negative and zero exactly for uniform magnetization; uniaxial anisotropy energy of unit nodal magnetizations lies between -K*V and 0 (K >= 0) and is minimal along the axis; cubic anisotropy of a uniform unit magnetization lies between 0 and K3*V/3 and vanishes along the axes; Zeeman energy in a uniform field is minimal for magnetization along the field; surface anisotropy lies between -Ks*S and 0.", "quantifier": "all magnetizations and parameters", "why_tests_cant": "all inputs", "anchors": ["src/tetra.cpp: exchangeEnergy, uniaxialAnisotropyEnergy, cubicAnisotropyEnergy, zeemanEnergy"]}
{"id": "C51", "title": "Magnetic charges of a body sum to zero", "statement": "For affine magnetization on a tetrahedron the volume charge plus the surface charges of its four faces is zero.", "quantifier": "all tetrahedra and nodal magnetizations", "why_tests_cant": "continuum of inputs", "anchors": ["src/tetra.cpp: Tet::charges", "src/triangle.cpp: Tri::charges"]}
{"id": "C52", "title": "Triangle surface and normal", "statement": "The area is half the norm of the edge cross product, the weights sum to it, the normal is a unit vector orthogonal to the edges, and exchanging two vertices flips it.", "quantifier": "all non-degenerate triangles", "why_tests_cant": "continuum of inputs", "anchors": ["src/triangle.h: Tri"]}
{"id": "C53", "title": "Total energy and its monitoring", "statement": "E_tot is the sum of the four terms, each accumulated over exactly the magnetic elements, and the energy-increase warning is printed (verbose) exactly when the new total exceeds the total of the last accepted step.", "quantifier": "all histories", "why_tests_cant": "all inputs", "anchors": ["src/energy.cpp: Fem::energy", "src/fem.h: Fem::evolution"]}
{"id": "C54", "title": "Recentering only shifts existing magnetization vectors", "statement": "Below the threshold recentering changes nothing; otherwise every node receives the magnetization some node had, so unit norms are preserved, and zero velocity.", "quantifier": "all meshes, thresholds and nearest-neighbour answers", "why_tests_cant": "all inputs", "anchors": ["src/recentering.cpp: Fem::recenter"]}
{"id": "C55", "title": "Unset settings keep their previous value", "statement": "Reading a configuration changes exactly the scalar settings it defines; reading defaults, then user defaults, then the settings file gives each setting the last defined value.", "quantifier": "all sequences of YAML documents", "why_tests_cant": "all documents", "anchors": ["src/settings.cpp: Settings::read, assign"]}
{"id": "C56", "title": "A region inherits the defaults for what it does not define", "statement": "A volume or surface region takes each parameter from its own entry if present, else from the __default__ region (except boundary values jn, V, uP, s which are then undefined), and contradictory definitions (Ms and Js, jn and V) are refused.", "quantifier": "all region entries", "why_tests_cant": "all documents", "anchors": ["src/settings.cpp: Settings::read (volume_regions, surface_regions)"]}
{"id": "C57", "title": "User metadata: last definition wins, order kept", "statement": "The metadata list never contains a key twice; redefining a key replaces its value in place and new keys are appended in order.", "quantifier": "all sequences of documents", "why_tests_cant": "all sequences", "anchors": ["src/settings.cpp: Settings::read (metadata)"]}
{"id": "C58", "title": "Metadata cannot corrupt output headers", "statement": "Every line of the header block written to .evol and .sol files starts with '#', whatever the user metadata values contain.", "quantifier": "all strings", "why_tests_cant": "all strings, embedded and trailing newlines", "anchors": ["src/settings.cpp: commonMetadata, replace"]}
{"id": "C59", "title": "String substitution replaces every occurrence", "statement": "replace(s, x, y) terminates and returns s with each non-overlapping occurrence of x, scanned from the left, replaced by y, even when y contains x.", "quantifier": "all strings s, y and non-empty x", "why_tests_cant": "all strings; termination", "anchors": ["src/settings.cpp: replace"]}
{"id": "C60", "title": "Default output base name", "statement": "When no base name is configured it is the mesh file name without directory part and without its last extension.", "quantifier": "all file names", "why_tests_cant": "all strings", "anchors": ["src/settings.cpp: Settings::read (simName)"]}
{"id": "C61", "title": "Printed settings can be read back", "statement": "A string setting printed by --verify in quoted or literal style denotes the same string when parsed as YAML.", "quantifier": "all strings", "why_tests_cant": "all strings", "anchors": ["src/settings.cpp: str, toYaml"]}
{"id": "C62", "title": "Region lookup returns the first region of that name", "statement": "findRegionIdx returns the position of the first region with the given name and -1 when there is none.", "quantifier": "all region lists and names", "why_tests_cant": "all lists", "anchors": ["src/settings.h: findRegionIdx"]}
{"id": "C63", "title": "Command line parsing", "statement": "The program accepts exactly: any number of known options followed by one settings file name; help, version, defaults and template requests exit with status 0 with the documented precedence; anything else is a usage error with status 1; the seed is the given one iff --seed is given.", "quantifier": "all argument vectors", "why_tests_cant": "all argument lists", "anchors": ["src/main.cpp: parseOptions"]}
{"id": "C64", "title": "Column padding counts UTF-8 characters", "statement": "pad returns the text followed by spaces so that its number of characters is at least the requested length, exactly it when the text is not longer.", "quantifier": "all valid UTF-8 strings and lengths", "why_tests_cant": "all strings", "anchors": ["src/main.cpp: char_length, pad"]}
{"id": "C65", "title": "Evaluating user functions leaves the interpreter ready", "statement": "After a function has been set, any sequence of successful evaluations returns what the function returns for the given arguments and leaves the interpreter stack with the function as sole element; errors end the program with failure status.", "quantifier": "all sequences of evaluations, all functions", "why_tests_cant": "all call sequences; a leak of one slot per call only shows after millions of calls", "anchors": ["src/expression_parser.cpp: ExpressionParser"]}
{"id": "C66", "title": "Charges and potentials are attributed to the right elements", "statement": "Every magnetic element's Gauss-point charges are stored at the particle created for that Gauss point, and the potential of each magnetic node is read back from its own target particle, whatever the order in which the tree stores particles.", "quantifier": "all meshes and all particle orders", "why_tests_cant": "the tree reorders particles arbitrarily", "anchors": ["src/fmm_demag.h: fmm"]}
{"id": "C67", "title": "Each output line has one field per requested column", "statement": "An .evol line consists of exactly one field per configured column in the configured order, separated by tabs and ended by a newline; unknown column names are refused.", "quantifier": "all column lists", "why_tests_cant": "all lists", "anchors": ["src/save.cpp: Fem::saver"]}
{"id": "C68", "title": "Boundary conditions of the transport problems", "statement": "The electrostatic problem is attempted only when exactly one surface region has a current density and exactly one a potential; the spin problem additionally requires one spin boundary and valid material parameters in every region.", "quantifier": "all region parameter lists", "why_tests_cant": "all lists", "anchors": ["src/electrostatSolver.cpp: checkBoundaryConditions", "src/spinAccumulationSolver.cpp: checkBoundaryConditions"]}
{"id": "C69", "title": "Dirichlet data of the spin problem", "statement": "The list of constrained unknowns is sorted without duplicates and holds exactly the three components of every node of a boundary surface; unconstrained unknowns have value zero.", "quantifier": "all meshes and boundary regions", "why_tests_cant": "all meshes", "anchors": ["src/spinAccumulationSolver.cpp: boundaryConditions, fillDirichletData"]}
{"id": "C70", "title": "The conductivity matrix is symmetric, positive and conserves current", "statement": "The element conductivity matrix is symmetric, positive semi-definite for sigma >= 0, and its rows sum to zero.", "quantifier": "all tetrahedra", "why_tests_cant": "continuum of inputs", "anchors": ["src/electrostatSolver.cpp: integrales"]}
{"id": "C71", "title": "Recomputing the spin accumulation gives the same answer", "statement": "Calling the spin solver twice for the same magnetization yields the same linear system.", "quantifier": "all states", "why_tests_cant": "history dependence", "anchors": ["src/spinAccumulationSolver.cpp: spinAcc::solve"]}
{"id": "C72", "title": "Chronometer laps add up", "statement": "Successive readings of a chronometer measure consecutive intervals: their sum is the time elapsed from the last reset to the last reading, and a long duration is echoed in seconds plus hours from 3600 s on, minutes from 60 s on, nothing otherwise.", "quantifier": "all sequences of readings and resets", "why_tests_cant": "all sequences", "anchors": ["src/chronometer.h: fp_elapsed, measure, reset, convertSeconds"]}
{"id": "C73", "title": "Region volumes and the magnetic volume are sums of tetrahedron volumes", "statement": "After construction the volume of each region is the sum of the volumes of its tetrahedra, and the total magnetic volume is the sum of the volumes of the regions with Ms > 0.", "quantifier": "all meshes and region parameters", "why_tests_cant": "must hold for every list of tetrahedra and every assignment of regions", "anchors": ["src/mesh.h: mesh::mesh", "src/mesh.h: isMagnetic"]}
{"id": "C74", "title": "Anisotropy fields are the gradients of the anisotropy energies, with their first-order change along the motion", "statement": "The uniaxial and cubic anisotropy fields used in the system are minus the gradient of the energy densities that are reported, divided by mu0*Ms; the second-order term added for the time scheme is the rate of change of that field along the velocity.", "quantifier": "all magnetizations, velocities, axes and constants", "why_tests_cant": "identity of functions of continuous variables; a test samples directions and usually uses canonical ones", "anchors": ["src/tetra.cpp: calc_aniso_uniax", "src/tetra.cpp: calc_aniso_cub", "src/tetra.cpp: anisotropyEnergy"]}
{"id": "C75", "title": "Demagnetizing energy of a tetrahedron and its faces", "statement": "The volume term plus the surface terms over the four faces of a tetrahedron equals minus one half of mu0*Ms*V times the mean magnetization dotted with the demagnetizing field, for every potential and magnetization interpolated from the nodes.", "quantifier": "all non-degenerate tetrahedra, nodal magnetizations and nodal potentials", "why_tests_cant": "universally quantified identity over continuous inputs (discrete integration by parts)", "anchors": ["src/tetra.cpp: Tetra::demagEnergy", "src/triangle.cpp: Tri::demagEnergy", "src/tetra.h: Tetra::interpolation_field"]}
{"id": "C76", "title": "A uniform state along the field is an equilibrium", "statement": "When the nodes of an element have the same magnetization m, no velocity and the same potential, the applied field is parallel to m and the easy axis is parallel or perpendicular to m, the contribution of the element to the right-hand side is zero in any tangent basis.", "quantifier": "all elements, magnetizations, field amplitudes, time steps, drift velocities and tangent bases", "why_tests_cant": "universally quantified over continuous inputs", "anchors": ["src/tetra.cpp: Tet::integrales"]}
{"id": "C77", "title": "The linear system of a time step is well posed, and a small residual means a small error", "statement": "For every mesh of non-degenerate magnetic tetrahedra with positive damping, every time step, local field, drift velocity and nodal magnetization with its tangent basis, the assembled system of a time step has exactly one solution for every right-hand side; the distance between any candidate and that solution is at most its residual divided by the smallest (damping-weighted) volume attached to a magnetic node.", "quantifier": "all meshes, magnetizations, bases, fields, time steps, right-hand sides and candidate solutions", "why_tests_cant": "well-posedness over all meshes and continuous inputs; a test solves a handful of systems", "anchors": ["src/solver.cpp: LinAlgebra::solve", "src/tetra.cpp: Tet::lumping", "src/tetra.cpp: Tet::calc_alpha_eff", "src/solver.h: buildMat", "src/node.h: Node::setBasis"]}
{"id": "C78", "title": "A magnetized body is neutral", "statement": "In an accepted conforming mesh with no suppressed surface, the magnetic charges of all magnetic tetrahedra and of all magnetic triangles, as given to the stray field solver, add up to zero, and the demagnetizing energies of tetrahedra and triangles add up to minus one half mu0 times the sum over the magnetic tetrahedra of Ms, volume and mean magnetization dotted with the field deriving from the potential.", "quantifier": "for every conforming mesh of oriented tetrahedra, every set of regions with Ms >= 0, every magnetization, every potential and every set of user triangles", "why_tests_cant": "the balance needs every face of every mesh to carry the right charge with the right sign; a test only covers the meshes it builds", "anchors": ["src/mesh.cpp:mesh::controlTriangles", "src/tetra.cpp:Tet::charges", "src/tetra.cpp:Tet::demagEnergy", "src/triangle.cpp:Tri::charges", "src/triangle.cpp:Tri::demagEnergy", "src/mesh.h:mesh"]}
{"id": "C79", "title": "The step statistics account for every trial", "statement": "At any time the statistics hold the step of every trial whose linear solve failed, and the step and largest change of every other trial; every trial is counted exactly once, the iteration number is the number of accepted trials, and the retry counter is the number of trials refused since the last accepted one.", "quantifier": "all runs, solver answers, signals and stopping points", "why_tests_cant": "it ranges over every sequence of failures, refusals and acceptances", "anchors": ["src/time_integration.cpp: Fem::time_integration, Stats, print_stats"]}
{"id": "C80", "title": "A step starts from the last accepted configuration", "statement": "A failed or refused trial leaves the reference configuration of every node unchanged; an accepted trial makes the new configuration the reference one: the old magnetization moved along the tangent velocity of the solution and normalized, that velocity and the new potentials.", "quantifier": "all meshes, all histories of trials and every next trial", "why_tests_cant": "it must hold after every history of failed, refused and accepted trials", "anchors": ["src/node.h: Node::setBasis, make_evol, evolution", "src/mesh.h: mesh::evolution, updateNode", "src/solver.cpp: LinAlgebra::solve"]}
{"id": "C81", "title": "Output directory is normalised", "statement": "An empty output directory means the current one; exactly one final '/' is removed from a longer name, the root directory and every other name are kept as given.", "quantifier": "all strings", "why_tests_cant": "all strings", "anchors": ["src/settings.cpp: Settings::read (outputs.directory)"]}
{"id": "C82", "title": "Configurations are saved at the requested period", "statement": "A run writes one configuration file for each visible iteration that is a multiple of mag_config_every and no other, under pairwise different names built from the output directory, the base name and the iteration; 0, negative numbers and false disable the feature and true is refused.", "quantifier": "all settings, all numbers of iterations", "why_tests_cant": "ranges over all periods and lengths of run", "anchors": ["src/save.cpp: Fem::saver", "src/settings.cpp: Settings::read (mag_config_every)"]}
{"id": "C83", "title": "Location of the user's defaults", "statement": "The user's defaults are read from feellgood/default.yml in XDG_CONFIG_HOME when it is set and not empty, else in the .config directory of HOME.", "quantifier": "all environments", "why_tests_cant": "all strings", "anchors": ["src/main.cpp: get_user_defaults_filename"]}
{"id": "C84", "title": "The torque of a time step derives from the energy", "statement": "On every element, the right-hand side of the linear system of a time step, tested against any displacement of the magnetization of the nodes, is minus the derivative of the energy that the program reports along that displacement, divided by mu0 Ms; the anisotropy and the demagnetizing field are taken at the magnetization predicted at theta dt. The field along the magnetization that sets the effective damping obeys the same energies. The same holds for surface anisotropy with the jump of the magnetization.", "quantifier": "all elements, magnetizations, velocities, potentials, fields, materials and displacements", "why_tests_cant": "an identity between two pieces of code over all real data", "anchors": ["src/tetra.cpp: Tet::integrales, add_drift_BE, calc_aniso_uniax, calc_aniso_cub, exchangeEnergy, anisotropyEnergy, zeemanEnergy", "src/triangle.cpp: Tri::integrales, Tri::anisotropyEnergy"]}
{"id": "C85", "title": "The Thiele length", "statement": "The DW width column is twice the mean cross-section of the region (its volume divided by the length of the sample along z), divided by the integral over the region of the square of the derivative of the magnetization along z.", "quantifier": "all meshes, regions and magnetizations, all orders of the parallel sum", "why_tests_cant": "ranges over all meshes and magnetizations", "anchors": ["src/mesh.cpp: mesh::thiele"]}
{"id": "C86", "title": "The potential of a charged triangle at its vertices is exact", "statement": "For every triangle of non zero area and every affine surface charge on it, the potential computed at each of its vertices, which replaces the quadrature in the corrections of the demagnetizing potential, equals the integral over the triangle of the charge density divided by the distance to the vertex.", "quantifier": "all non degenerate triangles, vertices and vertex values of the magnetization", "why_tests_cant": "continuum of shapes; the formula has singular looking special cases", "anchors": ["src/triangle.cpp: Tri::potential"]}
{"id": "C87", "title": "The electrostatic problem is solved", "statement": "For a conducting mesh with positive conductivities, when the boundary check passes and the given potentials are finite: if the mesh is in one piece there is exactly one potential with the given values that balances the currents at the other nodes, and the solver reaches it in at most as many iterations as there are nodes; whenever it answers that it has converged, the potential on the held surface is exactly the given one, the currents at the other nodes are balanced to the tolerance, and the current that enters through the held surface is the one that leaves through the other one.", "quantifier": "all meshes, conductivities, current densities, potentials, tolerances and iteration limits", "why_tests_cant": "ranges over all meshes and materials", "anchors": ["src/electrostatSolver.cpp: compute, solve, checkBoundaryConditions", "src/algebra/cg.h: cg_dir"]}
{"id": "C89", "title": "The conjugate gradients reach the solution", "statement": "For every symmetric matrix that is positive definite on the free unknowns, every right-hand side, guess, imposed values and tolerance (even zero), the conjugate gradients with real numbers answer that they have converged after at most as many iterations as there are free unknowns.", "quantifier": "all sizes, matrices, vectors, masks and tolerances", "why_tests_cant": "no bound on the size of the matrix, continuum of entries", "anchors": ["src/algebra/cg.h: cg, cg_dir"]}
{"id": "C88", "title": "The spin accumulation solves the diffusion problem", "statement": "For a mesh of conducting regions with positive conductivities and densities of states and non-null diffusion lengths: for every magnetization there is exactly one spin accumulation with the values imposed by the surfaces that balances diffusion, relaxation, precession and the polarized current at the other nodes; when the solver of a new object answers that it has converged, the imposed values are exact and the balance holds to the tolerance, so that the distance to the exact solution is bounded by the imbalance divided by the slowest relaxation rate; when it does not, zero is stored.", "quantifier": "all meshes, materials, surface values, potentials, magnetizations, tolerances and iteration limits", "why_tests_cant": "ranges over all meshes, materials and magnetizations", "anchors": ["src/spinAccumulationSolver.cpp: compute, solve, boundaryConditions, integrales", "src/algebra/bicg.h: bicg_dir"]}
{"id": "C90", "title": "The mathematical functions offered to scripts are the mathematical functions", "statement": "expm1, log1p, cosh, sinh, tanh, acosh, asinh and atanh, as the expressions of a settings file see them, equal the mathematical functions up to a relative error of 1e-7 (1e-9 for sinh, asinh, atanh; cosh exact; acosh within 1e-15), before rounding, for every argument of their domain: the shortcuts taken for small and large arguments are taken where they are accurate, and they meet the formulas on both signs.", "quantifier": "all real arguments", "why_tests_cant": "the functions are cut in two or three ranges; only a proof covers all arguments", "anchors": ["src/expression_parser.cpp: js_library"]}
{"id": "C91", "title": "The mesh is that of the file", "statement": "A mesh file is refused unless it is three-dimensional, all its volume elements are tetrahedra, all its surface elements (if any) triangles, every region named in the settings is a physical group of the right dimension, the node tags lie between 1 and the number of nodes, and no tetrahedron of a region is flat. Otherwise the mesh has the nodes of the file, their coordinates multiplied by the scale, and exactly the tetrahedra and triangles of the entities whose physical groups are regions of the settings, once for each such group, in the order of the file, each with the first region of that name; the corners of each element are the points of its tags, also after the nodes are sorted, and the tetrahedra are positively oriented.", "quantifier": "all mesh files as the gmsh API presents them, all region lists, scales and sorting permutations", "why_tests_cant": "the order of entities, groups, tags and nodes in a file is arbitrary; tests use a few files", "anchors": ["src/read.cpp: readMesh, checkMeshFile, readNodes, readTetraedrons, readTriangles", "src/meshUtils.h: all_elems_are, checkNamedObjects", "src/element.h: element, existNodes", "src/tetra.h: Tet", "src/triangle.h: Tri"]}
{"id": "C92", "title": "A file which is not a configuration of the mesh is refused", "statement": "Restoring from a .sol file ends with an error unless the header of the file gives the time and its lines are those of the nodes of the mesh: one line for each node, with its number, in order.", "quantifier": "all headers, all node lines, all meshes, all positions of the wrong line", "why_tests_cant": "the wrong line may be at any position and the meshes of any sizes", "anchors": ["src/read.cpp: mesh::readSol"]}
{"id": "C93", "title": "The printed settings define the same run", "statement": "The settings printed by --verify and --verbose form a settings file: given to the program, it is accepted and defines the same run as the settings that were printed (same outputs, mesh file, regions and material parameters, initial magnetization and time, recentering, applied field, spin accumulation, number of threads, solver and time integration).", "quantifier": "all settings files that are accepted over the built-in defaults, all conversions of numbers", "why_tests_cant": "the round trip must hold for every combination of optional keys, region lists, function or expression forms, multi-line strings and numbers", "anchors": ["src/settings.cpp: Settings::toYaml, Settings::read, str, assign", "src/main.cpp: --verify, --verbose"]}
{"id": "C94", "title": "The built-in defaults give a value to every setting", "statement": "After construction, before any file of the user is read, every setting has a defined value, which is the one the documentation of the built-in defaults gives: no setting depends on uninitialised memory.", "quantifier": "all values of the members that the constructor leaves uninitialised, all conversions of numbers, all numbers of processors", "why_tests_cant": "a member which is not assigned has some value in any one test run", "anchors": ["src/settings.cpp: Settings::Settings, Settings::read", "src/settings.h: Settings", "src/default-settings.yml"]}
{"id": "C95", "title": "A time step dissipates energy", "statement": "Without spin transfer nor moving frame, a time step computed from the solution of the linear system does not increase the energy of the magnetization in the applied field and in the demagnetizing potential used by the step; it decreases it by at least the damping times the squared velocities, and leaves unchanged a magnetization of least energy.", "quantifier": "all meshes, magnetizations, applied fields (also varying in space), potentials, materials and time steps; all approximate solutions of the system, through their residual", "why_tests_cant": "stability of the scheme is a statement about every state and mesh; a run can only show that the energy went down along one trajectory", "anchors": ["src/tetra.cpp: Tet::integrales, Tet::lumping, calc_alpha_eff", "src/solver.cpp: LinAlgebra::solve", "src/node.h: Node::make_evol", "src/time_integration.h: timing::set_dt", "src/config.h.in: THETA"]}
{"id": "C96", "title": "Rounding does not make the magnetization leave the unit sphere", "statement": "In double precision the magnetization of every node keeps norm 1 up to 2^-51 after any number of time steps, whatever the velocities, bases and time steps: rounding errors do not accumulate from one step to the next, and no infinity or NaN appears.", "quantifier": "all numbers of steps; all velocities, local bases and time steps; both orders of summation of the squares", "why_tests_cant": "a drift of the norm shows only after very many steps, and the error of one step depends on all the bits of the vectors", "anchors": ["src/node.h: Node::make_evol, Node::evolution", "CMakeLists.txt: CMAKE_CXX_EXTENSIONS"]}
{"id": "C97", "title": "Results do not depend on the orientation of the sample nor on the random local bases", "statement": "Turning and translating the sample together with its magnetization, fields and anisotropy axes turns the velocities and the next magnetizations of a time step and leaves energies, charges and demagnetizing potentials unchanged. Drawing other random bases of the tangent planes changes nothing in the step.", "quantifier": "all rotations and translations; all meshes, materials, magnetizations, velocities, potentials, fields; all choices of local bases", "why_tests_cant": "rotations and bases form a continuum, and the tests use a few fixed geometries aligned with the axes", "anchors": ["src/tetra.cpp: Tet::integrales, Tet::calc_aniso_uniax, Tet::calc_aniso_cub", "src/triangle.cpp: Tri::integrales, Tri::charges, Tri::potential", "src/node.h: Node::setBasis, Node::make_evol", "src/energy.cpp: Fem::energy", "src/fmm_demag.h: fmm::demag", "src/linear_algebra.cpp: LinAlgebra::buildInitGuess"]}
{"id": "C98", "title": "The time scheme is never less implicit than Crank-Nicolson", "statement": "For every time step not larger than the maximum time step of the settings, the weight of the implicit part of the exchange term lies between 1/2 and 0.525, and its excess over 1/2 vanishes with the time step (like its square root at worst), whichever absolute value function the unqualified name abs designates.", "quantifier": "all maximum time steps and all time steps in ]0, max]", "why_tests_cant": "the time step is chosen by the program at each step among all reals of an interval", "anchors": ["src/time_integration.h: timing::set_dt, TAUR", "src/config.h.in: THETA", "src/tetra.cpp: Tet::integrales (prefactor)"]}
{"id": "C99", "title": "The spin torque is what the spin accumulation loses", "statement": "With spin accumulation, in every magnetic tetrahedron the torque that the magnetization receives from the effective field is the spin that the diffusion problem loses by precession around the magnetization, up to the product of the variations of the spin accumulation and of the magnetization inside the tetrahedron (exactly, when either is uniform there). With the nodes at rest the field acts as an external field of the same value; it is zero outside the magnetic regions and after a failed computation, and it turns with the spin accumulation.", "quantifier": "all tetrahedra, materials, magnetizations, spin accumulations, fields", "why_tests_cant": "the two sides come from two solvers with different discretizations; the balance is an identity over all fields", "anchors": ["src/spinAccumulationSolver.cpp: spinAcc::prepareExtraField, integrales", "src/tetra.cpp: calc_Hst, Tet::integrales"]}
{"id": "C100", "title": "The settings of a run are those of the files, and --verify shows them", "statement": "A run starts exactly when the command line asks for a run of a settings file (or the standard input, for the name -) that can be read and is not empty; its settings are those obtained by reading the built-in defaults, the user's defaults if there are any, then that file, in this order. A missing or empty settings file is refused. --verify shows the settings of the run of the same file, and accepts no file that a run refuses.", "quantifier": "all command lines, environments, contents of the files and of the standard input", "why_tests_cant": "all combinations of present, missing, empty, malformed files and of their contents", "anchors": ["src/main.cpp: main, parseOptions (verify)", "src/settings.cpp: Settings::read(filename), Settings::Settings"]}
{"id": "C101", "title": "Two runs with the same seed give the same results", "statement": "Two runs of the program with the same input and the same random seed give the same results, whatever the scheduling of the threads: the coefficients of the linear system, the averages and the extrema do not depend on the order in which the threads contribute.", "quantifier": "all numbers of threads, all schedules, all contributions; double precision", "why_tests_cant": "the schedules are chosen by the system and their number grows exponentially", "anchors": ["src/solver.cpp: LinAlgebra::solve", "src/algebra/sparseMat.h: SparseMatrix::add", "src/mesh.cpp: mesh::avg, mesh::thiele", "src/mesh.h: mesh::max_angle", "src/config.h.in: EXEC_POL", "src/main.cpp: --seed"]}
{"id": "C102", "title": "A line of the table describes one instant", "statement": "All the columns of a line of the .evol file refer to the same instant: the averages and the energies are those of the configuration at the time of the line, with the field applied at that time; dt and max_dm are those of the last accepted step, so that max_dm does not exceed max(du).", "quantifier": "all runs (any history of failed, refused and accepted trials, with or without recentering), at any point", "why_tests_cant": "the values depend on the whole history of trials and on the order of the updates inside a step", "anchors": ["src/time_integration.cpp: Fem::time_integration", "src/save.cpp: Fem::saver", "src/fem.h: Fem::compute_all", "src/energy.cpp: Fem::energy"]}
{"id": "C103", "title": "A step uses the demagnetizing field of the configuration it starts from", "statement": "Whenever a time step is tried, the magnetostatic potentials it uses are those computed for the magnetization it starts from.", "quantifier": "all runs, all trial steps, with or without recentering", "why_tests_cant": "all histories of trials, recenterings and output lines", "anchors": ["src/fem.h: Fem::compute_all", "src/recentering.cpp: Fem::recenter", "src/time_integration.cpp: Fem::time_integration", "src/mesh.h: set_node_u0"]}
{"id": "C104", "title": "A run restarted from a snapshot starts where the snapshot was taken", "statement": "A run whose initial magnetization is a .sol file written by an earlier run (a snapshot or the configuration saved on a signal) starts from the magnetization and the time of that file, with the digits the file gives, unless initial_time is set, which then is the time; its first line is for that time and that configuration. Without such a file it starts at time 0 or initial_time from the configuration of the settings. A file that cannot be read stops the program.", "quantifier": "all runs, all snapshots, all meshes and permutations of the nodes, all precisions, any settings of the second run", "why_tests_cant": "all values, histories and settings", "anchors": ["src/fem.h: Fem::Fem", "src/read.cpp: mesh::readSol", "src/save.cpp: mesh::savesol", "src/time_integration.h: timing", "src/settings.cpp: initial_time"]}
{"id": "C105", "title": "The file of the electrostatic potential", "statement": "When it is asked for, the potential is written to a file in which line i gives the number i and the potential of node i of the mesh file, to 9 digits; a potential that was not obtained within the tolerance stops the program; the program says that the file is written when it is.", "quantifier": "all meshes, permutations of the nodes and potentials", "why_tests_cant": "all meshes and values, and failures of the disk", "anchors": ["src/electrostatSolver.cpp: electrostatSolver::save, electrostatSolver::compute"]}
{"id": "C106", "title": "The files a run writes", "statement": "All the files that a run writes are in the output directory and start with the name of the simulation; no two of them are the same file, so that none is lost; no other file is changed, in particular none of those of a run with another name.", "quantifier": "all runs, with any history of trials, snapshots and signals; all names", "why_tests_cant": "all runs and names", "anchors": ["src/time_integration.cpp: Fem::time_integration, exit_if_signal_received", "src/save.cpp: Fem::saver", "src/spinAccumulationSolver.cpp: spinAcc::spinAcc"]}
{"id": "C107", "title": "A uniformly magnetized sample behaves as one moment", "statement": "Whatever its mesh, a sample whose magnetization, anisotropy and damping are the same everywhere, in fields that are the same everywhere, stays uniformly magnetized, and its magnetization is the one of a single moment that obeys the Landau-Lifshitz-Gilbert equation dm/dt = - gamma0 m x H + a m x dm/dt, a being within a tenth of the damping of the settings: it turns about the field in the direction of - m x H, comes nearer to it and is at rest only along it.", "quantifier": "all meshes, exchange constants, magnetizations, uniform fields, time steps; runs of any length with failed and refused trials", "why_tests_cant": "all meshes, fields and histories", "anchors": ["src/tetra.cpp: Tet::integrales, Tet::lumping, calc_alpha_eff", "src/solver.cpp: LinAlgebra::solve", "src/node.h: setBasis, make_evol", "src/time_integration.cpp: Fem::time_integration"]}
{"id": "C108", "title": "The computed motion converges to the Landau-Lifshitz-Gilbert equation as the time step decreases", "statement": "For a uniformly magnetized sample in a constant applied field, with a demagnetizing field linear in the magnetization and a uniaxial anisotropy: as the largest accepted time step decreases, the magnetization computed at every node converges to the solution of the Landau-Lifshitz-Gilbert equation with the damping of the settings, with an error at most proportional to the largest step, whatever the mesh and whatever trials fail or are refused.", "quantifier": "all meshes, materials, fields, final times, sequences of time steps, failures and refusals", "why_tests_cant": "a limit over all runs", "anchors": ["src/tetra.cpp: Tet::integrales, calc_alpha_eff", "src/solver.cpp: LinAlgebra::solve", "src/node.h: make_evol", "src/time_integration.cpp: Fem::time_integration"]}
{"id": "C109", "title": "The time scheme is of second order", "statement": "With the value 1/2 of THETA and without the compilation option FIRST_ORDER (the defaults), for a uniformly magnetized sample in a constant applied field, with a demagnetizing field linear in the magnetization and a uniaxial anisotropy: the magnetization computed at every node is within C h^2 of the solution of the Landau-Lifshitz-Gilbert equation with the damping of the settings, h being the largest accepted time step, for every h below a threshold, whatever the mesh, whether the steps are equal or not, and whatever trials fail or are refused.", "quantifier": "all meshes, materials, fields, final times, sequences of time steps, failures and refusals", "why_tests_cant": "a limit over all runs", "anchors": ["src/config.h.in: THETA", "src/tetra.cpp: Tet::integrales, calc_alpha_eff, calc_aniso_uniax", "src/fmm_demag.h: calc_demag", "src/node.h: make_evol", "src/time_integration.cpp: Fem::time_integration"]}
{"id": "C110", "title": "A uniformly magnetized sample relaxes", "statement": "For a uniformly magnetized sample in a constant applied field, with a symmetric demagnetizing tensor and a uniaxial anisotropy, there is a time step below which every accepted step lowers the energy, by at least a constant times the duration of the step times the square of the torque; so that, for every tolerance, the simulated time spent with a torque above the tolerance is bounded by a time which does not depend on the run, however long it is, nor on the mesh.", "quantifier": "all meshes, materials, fields, initial directions, sequences of time steps of any length, failures and refusals", "why_tests_cant": "runs of any length", "anchors": ["src/tetra.cpp: Tet::integrales, calc_alpha_eff", "src/solver.cpp: LinAlgebra::solve", "src/node.h: make_evol", "src/time_integration.cpp: Fem::time_integration"]}
{"id": "C111", "title": "The energies of a uniformly magnetized sample do not depend on its mesh, and its total energy never increases", "statement": "For a sample magnetized along m everywhere, in a uniform applied field and a uniform demagnetizing field, the program writes an exchange energy equal to zero, the Zeeman and demagnetizing energies of the moment of the sample at saturation, and the anisotropy energies of m times the volumes and the areas, whatever the tetrahedrons, the regions and the triangles the program adds. With an easy axis the total is the energy of one moment; in the runs of C110 the total written never increases and the warning on the energy is never printed.", "quantifier": "all conforming meshes, materials, magnetization directions and fields; runs of any length", "why_tests_cant": "all meshes; runs of any length", "anchors": ["src/energy.cpp: Fem::energy", "src/tetra.cpp: exchangeEnergy, uniaxialAnisotropyEnergy, cubicAnisotropyEnergy, demagEnergy, zeemanEnergy", "src/triangle.cpp: anisotropyEnergy, demagEnergy", "src/mesh.cpp: mesh::controlTriangles"]}
{"id": "C112", "title": "The order in which the mesh file lists the nodes of a triangle does not matter", "statement": "For a mesh that is otherwise the same, writing the nodes of a surface triangle in another order changes neither its area, nor its magnetic charge, nor its demagnetizing energy, nor its surface anisotropy energy, nor the torque its surface anisotropy puts on the magnetization, which drives the magnetization down the surface anisotropy energy. Suppressing the charges of a surface leaves its surface anisotropy in force.", "quantifier": "all meshes, all lists of triangles, all orders of their nodes, all magnetizations and all surface anisotropies", "why_tests_cant": "all meshes and all orders; a test has one mesh, whose mesher orients the triangles one way", "anchors": ["src/triangle.cpp: Tri::integrales, anisotropyEnergy, demagEnergy, charges", "src/mesh.cpp: mesh::controlTriangles", "src/mesh.h: mesh constructor (magTri)", "src/solver.cpp: build_solver", "src/energy.cpp: Fem::energy"]}
{"id": "C113", "title": "A time step that the program accepts was computed from finite numbers", "statement": "If a time step is accepted, every coefficient that the elements of the mesh give to the equations of the magnetic nodes, and the first guess of their velocities, is a finite double. If one of them is an infinity or a NaN, the step is refused and the magnetization is left as it was.", "quantifier": "all meshes, materials, states, tolerances, schedules of the threads and double precision values, whatever the operations that produced them", "why_tests_cant": "all values and all schedules; a non-finite number can appear anywhere in the system, and the monitor of the solver declares an infinite residual converged", "anchors": ["src/solver.cpp: LinAlgebra::solve", "src/algebra/bicg.h: bicg_dir", "src/algebra/iter.h: iteration::converged, finished", "src/solver.h: buildMat, buildVect"]}
{"id": "C114", "title": "The result does not depend on how the mesh file numbers the nodes nor on the order of its elements", "statement": "Take two mesh files of the same sample: the nodes are numbered differently, the tetrahedra and the triangles come in another order, and the nodes of an element are listed in another order (the volumes staying positive). From the same magnetization, velocities, potentials and fields at each node, a time step gives each node the same velocity and the same new magnetization, and the four energies are the same.", "quantifier": "all meshes, renumberings, orders of elements, orders of nodes in an element, materials, states, time steps and local bases", "why_tests_cant": "all permutations of all meshes; a test compares two numberings of one mesh", "anchors": ["src/tetra.cpp: Tet::integrales", "src/triangle.cpp: Tri::integrales", "src/solver.h: buildMat, buildVect", "src/energy.cpp: Fem::energy", "src/mesh.cpp: sortNodes", "src/tetra.h: a, pds"]}
{"id": "C115", "title": "The output directory exists before the simulation starts, and nothing else is touched", "statement": "A simulation goes on only when its output directory exists; if it does not exist, it is created, with the directories above it if needed, and this also when several simulations are started at the same time with the same new directory. An existing file or directory is never changed by this, and when the directory cannot be made the program exits without having changed anything.", "quantifier": "all file systems, permissions, paths, numbers of simulations started together, and interleavings of their system calls", "why_tests_cant": "the interleavings of the calls of several programs, and all states of the file system", "anchors": ["src/main.cpp: create_dir_if_needed", "src/default-settings.yml: outputs.directory"]}
