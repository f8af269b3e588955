{"id": "C01", "title": "Saved local solutions come back unchanged", "statement": "When a local-solution handle for a coarse cell saves its functions into an empty store for that cell, a new handle for the same cell that loads later gets exactly the same number of functions, in the same order, with the same values, whatever was done to other cells before and in between and however often the cell itself was read by fresh handles.", "quantifier": "for every prior history of handle operations, every cell, every list of vectors and every interleaved later activity that does not clear the store and does not write to the cell's functions", "why_tests_cant": "the number of histories and interleavings of handle operations is unbounded; a test fixes one order of cells and one number of reads", "anchors": ["dune/multiscale/msfem/localproblems/localsolutionmanager.cc:load,save", "dune/multiscale/common/df_io.hh:MemoryBackend::append,MemoryBackend::read"]}
{"id": "C02", "title": "Coarse cells do not interfere in the store", "statement": "No operation through a handle of one coarse cell (create, write, scale, save, load, drop) changes what the store holds for any other cell, nor the function values any handle of another cell sees.", "quantifier": "for every reachable state, every operation and every pair of distinct cells", "why_tests_cant": "aliasing of shared pointers can only be excluded by an invariant over all histories", "anchors": ["dune/multiscale/msfem/localproblems/localsolutionmanager.cc:LocalproblemSolutionManager,load,save", "dune/multiscale/common/df_io.hh:MemoryBackend"]}
{"id": "C03", "title": "Reading with fresh handles is harmless", "statement": "Any finite sequence of 'create a handle for some cell and load once' leaves the stored data of every cell unchanged and each such load returns the stored data of its cell.", "quantifier": "for every state reached by any history, every finite sequence of cells (with repetitions)", "why_tests_cant": "matrix assembly, right hand side assembly and reconstruction each read every cell; a test sees only one number of reads", "anchors": ["dune/multiscale/msfem/localproblems/localsolutionmanager.cc:load", "dune/multiscale/msfem/coarse_scale_assembler.cc:assembleLocal", "dune/multiscale/msfem/coarse_rhs_functional.cc:assembleLocal"]}
{"id": "C04", "title": "Loading more than was saved is reported", "statement": "Loading through a live handle throws InvalidStateException exactly when fewer functions are stored for the cell than the handle has slots; it never returns another cell's data.", "quantifier": "for every reachable state and every handle", "why_tests_cant": "tests only exercise matching sizes", "anchors": ["dune/multiscale/common/df_io.hh:MemoryBackend::read", "dune/multiscale/msfem/localproblems/localsolutionmanager.cc:load"]}
{"id": "C05", "title": "A handle may load only once", "statement": "The first load through a fresh handle returns the stored data. Every further load through the same handle (and a load through the handle that saved) overwrites the stored functions with zero: all later readers of the cell get all-zero vectors.", "quantifier": "for every stored content and every number of repeated loads", "why_tests_cant": "the destruction happens through pointer aliasing and is visible only in histories the tests do not contain", "anchors": ["dune/multiscale/msfem/localproblems/localsolutionmanager.cc:load"]}
{"id": "C06", "title": "Only the first save of a cell is ever read", "statement": "If a cell's functions are saved again with different functions before the store is cleared, loads keep returning the functions saved first.", "quantifier": "for every number of saves and every content", "why_tests_cant": "tests save every cell once", "anchors": ["dune/multiscale/msfem/localproblems/localsolutionmanager.cc:save", "dune/multiscale/common/df_io.hh:MemoryBackend::append"]}
{"id": "C07", "title": "The store is emptied on every exit of a solver run", "statement": "Whatever point of a multiscale solver run throws, after the run has ended (normally or by exception) nothing is stored for any cell, and a following run behaves as the first one. Handles from before that moment stay unusable for ever.", "quantifier": "for every crash point of every run and every number of cells", "why_tests_cant": "crash points cannot be enumerated by tests", "anchors": ["dune/multiscale/msfem/msfem_solver.cc:Elliptic_MsFEM_Solver::apply", "dune/multiscale/common/df_io.hh:ClearGuard", "dune/multiscale/common/df_io.cc:clear"]}
{"id": "C08", "title": "Concurrent lookups agree on one storage per cell", "statement": "Under every interleaving of concurrent lookups, at most one storage object is ever registered per cell key, a registered object is never replaced, and all completed lookups of one key return the registered object.", "quantifier": "for every number of threads, every program of lookups per thread and every interleaving of their atomic steps", "why_tests_cant": "schedules cannot be enumerated by tests", "anchors": ["dune/multiscale/common/df_io.hh:DiscreteFunctionIO::get"]}
{"id": "C09", "title": "Threads working on different cells never trip the registry assertion", "statement": "If no two threads look up the same key, no interleaving reaches the internal assertion failure of the registry; the assertion fails exactly when a thread inserts a key that another thread inserted after the first one's failed lookup, and such a schedule exists for two threads that start on the same key.", "quantifier": "for every number of threads and every interleaving", "why_tests_cant": "schedules cannot be enumerated by tests", "anchors": ["dune/multiscale/common/df_io.hh:DiscreteFunctionIO::get"]}
{"id": "C10", "title": "When the registry is read while it is written", "statement": "A lookup reads the shared map without holding the lock. A state in which one thread is reading the map while another one is inserting is reachable exactly when at least two threads have work and one of them looks up a key that is not yet registered; in particular it is reachable with two threads on different cells. Two insertions never overlap.", "quantifier": "for every set of thread programs", "why_tests_cant": "data races are schedule dependent and silently benign in most runs", "anchors": ["dune/multiscale/common/df_io.hh:DiscreteFunctionIO::get"]}
{"id": "C11", "title": "Cell number and storage key agree", "statement": "The storage name built from a cell's index is mapped back to exactly that index, so different cells always use different storage.", "quantifier": "for every cell index representable in size_t", "why_tests_cant": "unbounded number of indices", "anchors": ["dune/multiscale/msfem/localproblems/localsolutionmanager.cc:LocalproblemSolutionManager", "dune/multiscale/common/df_io.cc:get_memory"]}
{"id": "C12", "title": "The storage key only depends on the text after the last underscore", "statement": "Two storage names address the same in-memory storage exactly when the text after their last underscore denotes the same number; a name whose text after the last underscore does not start with a decimal number (after white space and a sign) is rejected.", "quantifier": "for every pair of names", "why_tests_cant": "unbounded number of strings", "anchors": ["dune/multiscale/common/df_io.cc:get_memory"]}
{"id": "C13", "title": "The reconstruction uses exactly the solver's functions", "statement": "In a run that solves all cells in any order, reads every cell any number of times during assembly and then reconstructs, the correction of each cell is the cut linear combination of exactly the functions the local solver produced for that cell with the coarse values as coefficients, plus its Dirichlet corrector minus its Neumann corrector.", "quantifier": "for every set of cells, visiting order, number and order of assembly reads, local solver outputs and coarse values", "why_tests_cant": "composition over all orders and data", "anchors": ["dune/multiscale/msfem/msfem_solver.cc:identify_fine_scale_part,apply", "dune/multiscale/msfem/localproblems/localproblemsolver.cc:solve_for_all_cells"]}
{"id": "C14", "title": "Parallel local solves do not depend on the schedule", "statement": "For every interleaving of the per-cell work (create handle, write functions, save) of different threads, the data stored for every cell afterwards is the data its own work produced.", "quantifier": "for every assignment of cells to threads and every interleaving at operation granularity", "why_tests_cant": "schedules cannot be enumerated by tests", "anchors": ["dune/multiscale/msfem/localproblems/localproblemsolver.cc:solve_for_all_cells"]}
{"id": "C15", "title": "Boundary corrector slots agree across all stages", "statement": "With n coarse basis functions on a cube cell, slot i<n always holds the corrector of basis function i, slot n the Neumann and slot n+1 the Dirichlet corrector: the local right hand side assembly, the local solve, the coarse right hand side and the reconstruction all use this same layout.", "quantifier": "for every number of basis functions and every right hand side data", "why_tests_cant": "layout is implicit in four different files", "anchors": ["dune/multiscale/msfem/localproblems/localoperator.cc:BoundaryValueHelper,assemble_all_local_rhs", "dune/multiscale/msfem/localproblems/localproblemsolver.cc:solve_all_on_single_cell", "dune/multiscale/msfem/msfem_solver.cc:identify_fine_scale_part", "dune/multiscale/msfem/coarse_rhs_functional.cc:apply"]}
{"id": "C16", "title": "Interior cells have a purely linear correction", "statement": "On a cell that does not touch the domain boundary the boundary correctors are zero whatever was in the slots before, so the correction is linear in the coarse values and vanishes for zero coarse values.", "quantifier": "for every local solver, every initial slot content and all coarse values", "why_tests_cant": "universal over data", "anchors": ["dune/multiscale/msfem/localproblems/localproblemsolver.cc:solve_all_on_single_cell", "dune/multiscale/msfem/msfem_solver.cc:identify_fine_scale_part"]}
{"id": "C17", "title": "The oversampling cut keeps exactly the nodes of the coarse cell", "statement": "With oversampling enabled, after the cut a node's value is unchanged if the node lies in the coarse cell and zero otherwise, independent of the order in which elements and nodes are visited and of how many elements share the node; without oversampling nothing is cut.", "quantifier": "for every local mesh, visiting order and vector", "why_tests_cant": "universal over meshes and orders", "anchors": ["dune/multiscale/msfem/msfem_solver.cc:identify_fine_scale_part"]}
{"id": "C18", "title": "Corrected basis functions are a-orthogonal and energy minimal", "statement": "If the local linear solver solves its system, each corrector vanishes on the constrained nodes and balances the coarse basis function: its energy product (quadrature of the matrix) with any function vanishing on the constrained nodes is minus that of the basis function (quadrature of the right hand side). The corrected basis function is orthogonal in the local energy product to all these functions exactly if the two quadratures agree on the basis function; for a symmetric positive semidefinite local matrix it then has the smallest energy of all functions with the same constrained values, and otherwise need not.", "quantifier": "for every local matrix, basis function, set of constrained nodes and exact local solution", "why_tests_cant": "universal over real data", "anchors": ["dune/multiscale/msfem/localproblems/localoperator.cc:assemble_all_local_rhs,apply_inverse", "dune/multiscale/msfem/diffusion_evaluation.hh:CoarseBasisProduct"]}
{"id": "C19", "title": "Every oversampling patch contains its cell and stays in the domain", "statement": "In every direction the patch of a coarse cell contains the cell, stays inside the domain, extends the cell by exactly the configured layers where there is room and ends at the domain boundary otherwise.", "quantifier": "for all rational domains, cell positions, refinement factors and layer counts", "why_tests_cant": "universal over real geometry", "anchors": ["dune/multiscale/msfem/localproblems/localgridlist.cc:LocalGridList"]}
{"id": "C20", "title": "When the local mesh has the fine mesh width", "statement": "The local mesh of a patch has the fine mesh width in a direction exactly when, on each side, the cell either touches the domain boundary or is at least the configured number of layers away from it; this always holds if the number of layers does not exceed the refinement factor; otherwise the local mesh is strictly coarser.", "quantifier": "for every coarse grid size, cell position, refinement factor and layer count", "why_tests_cant": "the failing configurations need a layer count larger than the refinement factor and a cell in the second row", "anchors": ["dune/multiscale/msfem/localproblems/localgridlist.cc:LocalGridList"]}
{"id": "C21", "title": "Covered local cells tile the coarse cell", "statement": "Whenever the local mesh has the fine mesh width, its nodes are fine grid nodes, and the local cells whose centre lies in the coarse cell are exactly the refinement-factor many cells per direction that subdivide the coarse cell.", "quantifier": "for every coarse grid size, cell position, refinement factor, layer count and dimension", "why_tests_cant": "universal over configurations", "anchors": ["dune/multiscale/msfem/localproblems/localgridlist.cc:LocalGridList,covers"]}
{"id": "C22", "title": "A stretched local mesh can miss the coarse cell entirely", "statement": "There is a configuration accepted by the code in which no local cell is recognised as part of the coarse cell, so that the coarse cell contributes nothing to the coarse matrix and right hand side; with the fine mesh width (C20) at least one local cell is always recognised.", "quantifier": "existence of a configuration / for every configuration with the fine mesh width", "why_tests_cant": "needs an untested parameter combination", "anchors": ["dune/multiscale/msfem/localproblems/localgridlist.cc:LocalGridList,covers", "dune/multiscale/msfem/coarse_scale_assembler.cc:assembleLocal"]}
{"id": "C23", "title": "One local grid per interior cell", "statement": "After construction the list has exactly one local grid per interior coarse cell, looking up any interior cell returns the grid built for that cell, and looking up anything else is rejected. Construction itself is refused exactly for cells that are not interior or share an index.", "quantifier": "for every set of coarse cells and indices", "why_tests_cant": "unbounded sets", "anchors": ["dune/multiscale/msfem/localproblems/localgridlist.cc:LocalGridList,getSubGrid,size"]}
{"id": "C24", "title": "Search results are sound", "statement": "Whenever the point search returns, the remembered coarse cell contains all query points and, if the per-grid searches find every point of a covered cell, the i-th result is that cell's local entity for the i-th point. Without that assumption the results are the entities found, cell after cell, with missing answers left out.", "quantifier": "for every history of previous searches, set of cells and list of points", "why_tests_cant": "the search keeps state between calls", "anchors": ["dune/multiscale/msfem/localproblems/localgridsearch.cc:operator(),covers_strict,current_coarse_pointer"]}
{"id": "C25", "title": "Search succeeds whenever some cell contains all points", "statement": "With at least two coarse cells, complete per-grid searches and some coarse cell containing all query points, the search succeeds after visiting at most as many cells as there are, from every state successful searches can lead to.", "quantifier": "for every number of cells at least two, every history of successful searches and every list of points", "why_tests_cant": "persistent iterator state makes every query depend on all earlier ones", "anchors": ["dune/multiscale/msfem/localproblems/localgridsearch.cc:operator()"]}
{"id": "C26", "title": "Search terminates and reports failure", "statement": "If no coarse cell contains all points the search throws InvalidStateException after visiting less than N+N*N cells for N coarse cells; it never loops forever. After such a failure the next non-empty search on the same object is an error (iterator past the end).", "quantifier": "for every history and every list of points", "why_tests_cant": "non-termination cannot be tested", "anchors": ["dune/multiscale/msfem/localproblems/localgridsearch.cc:operator()"]}
{"id": "C27", "title": "A grid with one coarse cell can never be searched", "statement": "With exactly one coarse cell every non-empty search throws, even when the cell contains all points.", "quantifier": "for every point list", "why_tests_cant": "needs the degenerate grid", "anchors": ["dune/multiscale/msfem/localproblems/localgridsearch.cc:operator()"]}
{"id": "C28", "title": "Which cell answers for shared points depends on history", "statement": "For points on the interface of two cells, both cells can be returned depending only on the previous searches; for points contained in exactly one coarse cell the answer is always that cell. A function proxy uses the correction of the answering cell and reports a missing one.", "quantifier": "for every history / existence of two histories", "why_tests_cant": "depends on call history and thread", "anchors": ["dune/multiscale/msfem/localproblems/localgridsearch.cc:operator()", "dune/multiscale/msfem/localsolution_proxy.cc:local_function"]}
{"id": "C29", "title": "Projected values are divided by the number of adjacent elements", "statement": "After projecting a function that is single valued at the nodes, every node touched by an interior element holds the source value divided by the number of elements of the whole leaf grid that contain the node; untouched nodes hold zero. Hence the source value is reproduced exactly where the node belongs to one element or the value is zero.", "quantifier": "for every mesh, source and visiting order", "why_tests_cant": "universal over meshes", "anchors": ["dune/multiscale/common/heterogenous.cc:project,postprocess,identifySharedNodes"]}
{"id": "C30", "title": "Projection does not depend on the element order", "statement": "For a source that is single valued at nodes the projected vector is the same for every visiting order and thread schedule of the elements.", "quantifier": "for every permutation of the elements", "why_tests_cant": "schedules cannot be enumerated", "anchors": ["dune/multiscale/common/heterogenous.cc:project"]}
{"id": "C31", "title": "Multiplicity count is correct and division is safe", "statement": "The multiplicity computed for a node is the number of (element, corner) incidences of that node; it is positive for every node of some element, so no division by zero occurs when every node belongs to an element.", "quantifier": "for every mesh", "why_tests_cant": "universal over meshes", "anchors": ["dune/multiscale/common/heterogenous.cc:identifySharedNodes,postprocess"]}
{"id": "C32", "title": "Coarse overlap is the smallest that covers the oversampling layers", "statement": "The coarse overlap computed from the number of oversampling layers and the refinement factor is the smallest whole number of coarse cells that covers the layers.", "quantifier": "for all layer counts and positive refinement factors (also fractional)", "why_tests_cant": "universal over configuration", "anchors": ["dune/multiscale/common/grid_creation.cc:setup"]}
{"id": "C33", "title": "The fine grid refines the coarse grid", "statement": "For whole-number configuration values the fine grid has exactly coarse times refinement cells per direction and every coarse node is a fine node; the coarse grid has the configured cells and both grids cover the configured box; for fractional refinement factors this can fail.", "quantifier": "for all configurations", "why_tests_cant": "universal over configuration", "anchors": ["dune/multiscale/common/grid_creation.cc:setup,make_fine_grid"]}
{"id": "C34", "title": "Anisotropic overlap is rejected", "statement": "Cube grid creation accepts an overlap vector exactly when all entries are equal.", "quantifier": "for every dimension and overlap vector", "why_tests_cant": "unbounded", "anchors": ["dune/multiscale/common/mygridfactory.hh:createCubeGrid"]}
{"id": "C35", "title": "When the partitioning check fires", "statement": "Coarse grid creation throws the partitioning error exactly when more than one process takes part and the number of cells stored on this rank, less the number of overlap layers, equals the total cell count modulo 2^32. Without overlap and below 2^31 cells that is exactly when this rank stores every cell; with an overlap a rank that stores every cell is never detected, and on larger grids the check can misfire.", "quantifier": "for all cell counts, ranks and process numbers", "why_tests_cant": "needs large grids", "anchors": ["dune/multiscale/common/grid_creation.cc:make_coarse_grid"]}
{"id": "C36", "title": "The error report has exactly the entries of the available comparisons", "statement": "The set of entries returned by the error calculation is exactly determined by which of exact, multiscale and fine reference solutions exist, each requested entry is present whenever it is read, and each value is the norm of the difference of the two named functions.", "quantifier": "for every combination of available solutions and all norms", "why_tests_cant": "combinations times values", "anchors": ["dune/multiscale/common/error_calc.cc:print"]}
{"id": "C37", "title": "Error file columns line up", "statement": "In the written error table the i-th header cell names the i-th value; splitting both lines at commas gives back exactly the returned entries in increasing key order.", "quantifier": "for every set of entries whose names and printed values contain no comma or newline", "why_tests_cant": "unbounded", "anchors": ["dune/multiscale/common/error_calc.cc:print"]}
{"id": "C38", "title": "A failing reference solve only removes reference entries", "statement": "If the fine reference solve fails, exactly the entries comparing with the fine reference are missing and nothing is thrown. If the coarse reference solve fails, the fine reference entries are missing as well and the coarse entries are reported against the zero function.", "quantifier": "for every failure combination", "why_tests_cant": "fault injection", "anchors": ["dune/multiscale/common/error_calc.cc:ErrorCalculator,print"]}
{"id": "C39", "title": "Documented key names", "statement": "The produced H1 entries carry the suffix _H1s; none of the documented _H1 names is ever produced.", "quantifier": "for every combination of available solutions", "why_tests_cant": "documentation mismatch", "anchors": ["dune/multiscale/common/error_calc.hh:ErrorCalculator", "dune/multiscale/common/error_calc.cc:print"]}
{"id": "C40", "title": "Dirichlet lifting is exact", "statement": "If the linear solver solves the constrained system, the returned function takes the projected boundary values on all constrained degrees of freedom and satisfies every unconstrained equation of the original system.", "quantifier": "for every matrix, right hand side, boundary data and constrained set", "why_tests_cant": "universal over real data", "anchors": ["dune/multiscale/msfem/coarse_scale_operator.cc:CoarseScaleOperator,apply_inverse", "dune/multiscale/msfem/fem_solver.cc:Elliptic_FEM_Solver::apply"]}
{"id": "C41", "title": "The result does not depend on the lifting inside the domain", "statement": "Two runs whose lifting functions agree on the constrained degrees of freedom return the same solution if the constrained system is uniquely solvable; in particular a second solve reusing the first solution as start value returns the same solution.", "quantifier": "for every pair of lifting functions", "why_tests_cant": "universal over real data", "anchors": ["dune/multiscale/msfem/fem_solver.cc:solve,apply"]}
{"id": "C42", "title": "Outcomes of the linear solves", "statement": "With assertions enabled the coarse solve aborts exactly for an invalid right hand side, throws InvalidStateException exactly when the solver reports failure or returns invalid values, lets other solver exceptions pass, and otherwise returns the solver's result plus the lifting; a returned coarse solution is finite in every build if the lifting is. A local solve throws InvalidStateException exactly for an invalid right hand side or an invalid function afterwards, lets solver exceptions pass and otherwise succeeds, whatever convergence statistics the solver reported; the function afterwards is the solver's result for the direct solver, and the function from before for every other solver (see C102). The reference solver returns any result.", "quantifier": "for every solver behaviour", "why_tests_cant": "fault injection", "anchors": ["dune/multiscale/msfem/coarse_scale_operator.cc:apply_inverse", "dune/multiscale/msfem/localproblems/localoperator.cc:apply_inverse", "dune/multiscale/msfem/fem_solver.cc:apply"]}
{"id": "C43", "title": "The coarse matrix is symmetric positive semidefinite", "statement": "For symmetric positive semidefinite diffusion and non-negative quadrature weights each assembled coarse element matrix is symmetric and positive semidefinite, hence so is the global coarse matrix.", "quantifier": "for all diffusion tensors, correctors, quadratures and meshes", "why_tests_cant": "universal over real data", "anchors": ["dune/multiscale/msfem/coarse_scale_assembler.cc:apply,assembleLocal"]}
{"id": "C44", "title": "Where coarse gradients are evaluated", "statement": "The assembled coarse element matrix equals the energy product of the corrected basis functions if the coarse basis gradients are constant on the cell or the patch has one local cell; for bilinear basis functions on a refined cell it differs in general, because the coarse gradients are evaluated at the local cell's reference coordinate. The global matrix is the sum of these element matrices over the covered local elements of all coarse cells.", "quantifier": "for all bases with constant gradients / existence of a counterexample", "why_tests_cant": "needs comparison with an independent integral", "anchors": ["dune/multiscale/msfem/coarse_scale_assembler.cc:apply", "dune/multiscale/msfem/coarse_rhs_functional.cc:apply"]}
{"id": "C45", "title": "Coarse right hand side", "statement": "Each coarse element right hand side entry is the load tested with the corrected basis function (coarse part evaluated at the local cell's reference coordinate, see C44) minus the energy product of (Dirichlet corrector minus Neumann corrector) with the corrected basis function; on interior cells it is the load term only.", "quantifier": "for all data", "why_tests_cant": "universal over real data", "anchors": ["dune/multiscale/msfem/coarse_rhs_functional.cc:apply"]}
{"id": "C46", "title": "The synthetic source belongs to the synthetic solution", "statement": "For every epsilon different from zero and every point, the source equals minus the divergence of diffusion times gradient of the given exact solution; also in three dimensions, as long as the third component of the flux, which the code never writes, is zero.", "quantifier": "for all real points and all nonzero epsilon", "why_tests_cant": "real analysis over a continuum", "anchors": ["dune/multiscale/problems/synthetic.cc:Source::evaluate,Diffusion::evaluate,ExactSolution::evaluate"]}
{"id": "C47", "title": "The synthetic gradient and boundary data belong to the solution", "statement": "The exact solution's jacobian is its gradient at every point, diffusive flux is the diffusion tensor applied to the direction, and the Dirichlet data and its gradient equal those of the exact solution.", "quantifier": "for all real points and nonzero epsilon", "why_tests_cant": "real analysis over a continuum", "anchors": ["dune/multiscale/problems/synthetic.cc:ExactSolution::jacobian,DirichletData::evaluate,Diffusion::diffusiveFlux"]}
{"id": "C48", "title": "Synthetic diffusion is uniformly elliptic", "statement": "The first diagonal entry of the synthetic diffusion lies between 1/(12 pi^2) and 1/(4 pi^2), the second between 1/(16 pi^2) and 3/(16 pi^2), and flux times direction lies between 1/(16 pi^2) and 1/(4 pi^2) times the squared direction in two dimensions, uniformly in epsilon; the outer bounds are attained.", "quantifier": "for all real points and all nonzero epsilon", "why_tests_cant": "continuum", "anchors": ["dune/multiscale/problems/synthetic.cc:Diffusion::evaluate"]}
{"id": "C49", "title": "ER2007 data are consistent except the source derivative", "statement": "The ER2007 source is minus the Laplacian of the exact solution and the exact solution's derivative is its gradient; the derivative attached to the source is not the gradient of the source.", "quantifier": "for all real points / existence of a point", "why_tests_cant": "continuum", "anchors": ["dune/multiscale/problems/er2007.hh:Source,ExactSolution", "dune/multiscale/problems/er2007.cc:Diffusion"]}
{"id": "C50", "title": "SPE10 cell lookup is correct and in bounds", "statement": "For every point of the closed domain the permeability cell found by the lookup contains the point and all three table accesses are inside the table; different cells use different entries.", "quantifier": "for every point of the closed domain and every positive domain size", "why_tests_cant": "continuum of points", "anchors": ["dune/multiscale/problems/spe10.cc:Diffusion::evaluate"]}
{"id": "C51", "title": "SPE10 file reading accepts exactly complete files", "statement": "Reading succeeds exactly when the limits are ordered and exactly the expected number of readable values precede the first unreadable word or the end of the file (anything after an unreadable word is ignored), then every value is the affine image of the file value at the same position and lies in the requested range for values in the documented range; the default limits keep the file's values; fewer values raise an error, as does a maximum not above the minimum; more values write past the end of the table.", "quantifier": "for every file content", "why_tests_cant": "unbounded inputs", "anchors": ["dune/multiscale/problems/spe10.cc:readPermeability"]}
{"id": "C52", "title": "Tarbert cell lookup", "statement": "For every point of the half open domain the lookup finds the containing cell and for every point of the closed domain the table accesses are inside the table; on the upper y boundary it reads the next layer's cell instead of the adjacent one.", "quantifier": "for every point of the domain", "why_tests_cant": "continuum of points", "anchors": ["dune/multiscale/problems/tarbert.cc:Diffusion::evaluate"]}
{"id": "C53", "title": "Tarbert diffusion is correct sequentially but not under concurrency", "statement": "Evaluations that do not overlap return the permeability of their own point in any order; there is an interleaving of two evaluations on one object that returns to a thread the permeability of the other thread's point; in every interleaving of any number of evaluations each returned diagonal entry is the table entry of a cell built from coordinates of evaluated points.", "quantifier": "for every sequence of evaluations / existence of an interleaving", "why_tests_cant": "schedules", "anchors": ["dune/multiscale/problems/tarbert.cc:Diffusion::evaluate"]}
{"id": "C54", "title": "Tarbert file reading", "statement": "Reading fills position i with the i-th value of the file; the last value is lost when the file does not end with white space; unreadable text or too many values make it write past the table; missing files are reported only when the diffusion is evaluated; destroying an object that has read a file is undefined behaviour.", "quantifier": "for every file content", "why_tests_cant": "unbounded inputs", "anchors": ["dune/multiscale/problems/tarbert.cc:readPermeability,evaluate"]}
{"id": "C55", "title": "Process partition multiplies up", "statement": "For a power-of-two number of processes the per-dimension process counts are powers of two whose product is the number of processes, non-increasing with the direction and differing by at most a factor two; every other process number makes the partition fail.", "quantifier": "for every process number and dimension 1 to 3", "why_tests_cant": "unbounded", "anchors": ["dune/multiscale/problems/random_permeability.hh:partition"]}
{"id": "C56", "title": "Grid positions of ranks are a bijection", "statement": "Every rank gets a position inside the process grid, different ranks get different positions and every position is taken.", "quantifier": "for all process grids and ranks", "why_tests_cant": "unbounded", "anchors": ["dune/multiscale/problems/random_permeability.hh:gridPosition"]}
{"id": "C57", "title": "Local index ranges cover the domain", "statement": "If the number of processes is a power of two and the process count per direction does not exceed the number of segments, every rank's index range consists exactly of its own block extended by the overlap and clipped to the grid, the blocks cover all grid cells, and ranges without overlap meet only in common end points. With more processes than segments in a direction the upper end belongs to no range; process numbers that are no powers of two make the ranges undefined (not diagnosed by the constructor).", "quantifier": "for all segment numbers, process grids and overlaps", "why_tests_cant": "unbounded", "anchors": ["dune/multiscale/problems/random_permeability.hh:setRange"]}
{"id": "C58", "title": "Redistribution delivers every value to its place", "statement": "After redistribution the local array entry with local multi-index (j0,j1[,j2]) holds the generated field value with global multi-index (iMin0+j0,iMin1+j1[,iMin2+j2]), for every rank.", "quantifier": "for all field sizes, process numbers and ranges", "why_tests_cant": "unbounded", "anchors": ["dune/multiscale/problems/random_permeability.hh:redistribute"]}
{"id": "C59", "title": "Permeability evaluation interpolates", "statement": "Inside its range the evaluation returns, up to the lower bound, the bilinear (trilinear) interpolation: it reproduces grid values at grid points, lies between the smallest and largest of the cell's corner values, and is never below the configured minimum; outside the range it throws.", "quantifier": "for all points and fields", "why_tests_cant": "continuum", "anchors": ["dune/multiscale/problems/random_permeability.hh:operator()"]}
{"id": "C60", "title": "When permeability evaluation leaves the array", "statement": "In two and three dimensions the table accesses leave the local array exactly for an explicitly described set of points on the upper ends of the ranges; in two dimensions with one process every point of the right boundary is such a point.", "quantifier": "for all points of the range", "why_tests_cant": "memory error at the boundary only", "anchors": ["dune/multiscale/problems/random_permeability.hh:operator()"]}
{"id": "C61", "title": "Field creation alternates", "statement": "After initialisation, calls to create alternate between computing a new field and reusing the second half of the previous computation; each computation is used exactly twice and different computations use disjoint random numbers. Before the first call the field is the configured minimum.", "quantifier": "for every number of calls", "why_tests_cant": "unbounded histories", "anchors": ["dune/multiscale/problems/random_permeability.hh:create,init"]}
{"id": "C62", "title": "Problem selection is all or nothing", "statement": "For an unknown problem name InvalidStateException is thrown before anything is created. For the five known names (the default is one of them) either all six data functions of that problem are created, initialised and returned by their getters, or, if a constructor or the initialisation throws, everything created before is destroyed.", "quantifier": "for every string", "why_tests_cant": "unbounded", "anchors": ["dune/multiscale/problems/selector.cc:ProblemContainer,make_f"]}
{"id": "C63", "title": "Output paths", "statement": "Without slashes in prefix and name, output files lie in the configured directory and their name is prefix, underscore, name; changing the prefix never changes the directory; one object never maps two names to one file, and two different (prefix,name) pairs without underscores in the prefix never collide.", "quantifier": "for all paths, prefixes and names", "why_tests_cant": "unbounded strings", "anchors": ["dune/multiscale/tools/misc/outputparameter.cc:fullpath,set_prefix"]}
{"id": "C64", "title": "Memory report", "statement": "The reported maximum is the largest peak of any process, the reported mean is the truncated average and lies between the smallest and the largest peak, both are at least zero, and exactly rank 0 writes.", "quantifier": "for every number of processes and usage", "why_tests_cant": "unbounded", "anchors": ["dune/multiscale/common/main_init.cc:mem_usage"]}
{"id": "C65", "title": "Exit status", "statement": "Unless aborting all processes itself reports 0, the program returns 0 exactly when the algorithm finished without exception; a termination request gives 5, and exceptions of unknown type or from the error report end the process abnormally.", "quantifier": "for every outcome of the algorithm", "why_tests_cant": "fault injection", "anchors": ["src/msfem.cc:main", "dune/multiscale/common/main_init.cc:handle_exception"]}
{"id": "C66", "title": "Concurrent lookups never deadlock and always complete", "statement": "Unless the registry assertion aborts the program, some thread can always continue while a lookup is unfinished, every schedule has at most six steps per lookup, and when no thread can continue every requested lookup has returned the object registered for its key, in program order.", "quantifier": "for every number of threads, every program of lookups per thread and every interleaving", "why_tests_cant": "schedules cannot be enumerated by tests", "anchors": ["dune/multiscale/common/df_io.hh:DiscreteFunctionIO::get"]}
{"id": "C67", "title": "Communicator of the two grids", "statement": "When both grids are created for a given communicator, only the coarse grid uses it; the fine grid always uses the process default. Both cover the same domain and the fine overlap is the configured one.", "quantifier": "for all configurations and communicators", "why_tests_cant": "needs several communicators", "anchors": ["dune/multiscale/common/grid_creation.cc:make_grids,make_fine_grid"]}
{"id": "C68", "title": "The reported surface flow is always zero", "statement": "The flow value logged with the error report does not depend on the computed solution: it is evaluated for a newly created function and is zero for every mesh, diffusion and number of processes, provided every process has a coarse cell of its own; with a process without cells the computation is undefined. For any other function the loop sums minus the diffusion times the derivative in the first direction over the boundary faces at coordinate zero, but takes the derivative at the point whose local coordinates are the global ones of the quadrature point: the result is minus the flux for functions that are linear on the cells, and in general not for bilinear ones.", "quantifier": "for all meshes, diffusions, quadratures and process numbers", "why_tests_cant": "a single run printing 0 does not show that it is always 0", "anchors": ["dune/multiscale/common/error_calc.cc:print,surface_flow_gdt"]}
{"id": "C69", "title": "Diffusion of the analytic problems in three dimensions", "statement": "The Synthetic and ER2007 diffusion write exactly the first two diagonal entries of the tensor and the first two components of the flux; all other entries keep the caller's content, so with zero initialised arguments the third direction carries no energy.", "quantifier": "for all points, directions and caller contents", "why_tests_cant": "needs inspection of unwritten memory for all inputs", "anchors": ["dune/multiscale/problems/synthetic.cc:Diffusion::evaluate,Diffusion::diffusiveFlux", "dune/multiscale/problems/er2007.cc:Diffusion"]}
{"id": "C70", "title": "Boundary values of the synthetic problem", "statement": "The synthetic Dirichlet values vanish on x0=0, x1=0 and x1=1; on x0=1 they equal 0.5 eps sin(2 pi/eps) sin(2 pi x1), hence vanish exactly if sin(2 pi/eps)=0, which holds for the default epsilon.", "quantifier": "for all boundary points and nonzero epsilon", "why_tests_cant": "continuum", "anchors": ["dune/multiscale/problems/synthetic.cc:DirichletData::evaluate,get_eps"]}
{"id": "C71", "title": "Boundary data of SPE10 and Tarbert", "statement": "SPE10 has zero source, zero Dirichlet values on the upper y face and Neumann value 1 on the lower y face, all other faces being Neumann; Tarbert in three dimensions has the same with value -1; Tarbert in two dimensions has its only nonzero Neumann values on the face that is the Dirichlet face, so all data vanish away from it.", "quantifier": "for all faces and points", "why_tests_cant": "continuum of points", "anchors": ["dune/multiscale/problems/spe10.cc:NeumannData,DirichletData,Source,ModelProblemData", "dune/multiscale/problems/tarbert.cc:NeumannData,DirichletData,Source,ModelProblemData"]}
{"id": "C72", "title": "The random field does not depend on the domain decomposition", "statement": "Two ranks, also of runs with different numbers of processes, holding the same generated field give the same permeability at every point both can evaluate; for power-of-two process numbers every point of the half open unit cube is evaluated by some rank, and its value is the interpolation of the globally generated field.", "quantifier": "for all fields, process numbers, ranks, overlaps and points", "why_tests_cant": "needs all process numbers and a continuum of points", "anchors": ["dune/multiscale/problems/random_permeability.hh:setRange,redistribute,operator()"]}
{"id": "C73", "title": "Data of the random problem", "statement": "The random diffusion is a multiple of the identity, flux is tensor times direction and it is uniformly elliptic with the configured minimum wherever it can be evaluated; Dirichlet values are 1 at x0=0 and 0 at x0=1, Neumann values are 0; the number of field segments is the largest power of two not exceeding the number of coarse cells.", "quantifier": "for all points, fields and directions", "why_tests_cant": "continuum of points", "anchors": ["dune/multiscale/problems/random.cc:Diffusion::evaluate,DirichletData,NeumannData,problem_init"]}
{"id": "C74", "title": "Failure on some processes only", "statement": "When an exception is handled on some processes only, the whole run is aborted exactly if every other process still takes part in two collective operations; otherwise the failing processes wait forever in the memory report and the run hangs.", "quantifier": "for all process numbers, sets of failing processes and remaining operations", "why_tests_cant": "needs fault injection on several processes and detection of a hang", "anchors": ["dune/multiscale/common/main_init.cc:handle_exception,mem_usage"]}
{"id": "C75", "title": "What a new handle shows", "statement": "A new handle of a coarse cell shows exactly as many functions as the cell has local problems, all of them zero. The first handle of a cell decides the space of the functions; all later handles of the cell get functions on the same space until the store is cleared.", "quantifier": "for all histories of the store", "why_tests_cant": "any history may precede the creation", "anchors": ["dune/multiscale/msfem/localproblems/localsolutionmanager.cc:LocalproblemSolutionManager::LocalproblemSolutionManager", "dune/multiscale/common/df_io.hh:DiscreteFunctionIO::get"]}
{"id": "C76", "title": "Saved solutions are shared, not copied", "statement": "After a handle saved its functions to an empty store, the store holds these very functions: whatever is written through the handle later is what readers of the cell get, until somebody clears the store, saves for the cell again, or the handle loads or drops its functions. Dropping a handle's functions takes nothing away from the store or other handles.", "quantifier": "for all histories and all operations in between", "why_tests_cant": "needs every interleaving of later operations", "anchors": ["dune/multiscale/msfem/localproblems/localsolutionmanager.cc:save", "dune/multiscale/common/df_io.hh:MemoryBackend::append", "dune/multiscale/msfem/msfem_solver.cc:identify_fine_scale_part"]}
{"id": "C77", "title": "Boundary conditions of the model problems", "statement": "Without a boundaryInfo section in the global configuration: ER2007 prescribes values everywhere; Synthetic everywhere except on the two faces of the third axis; Random exactly on the two faces of the first axis; SPE10 only on the upper face of the second axis; Tarbert only on the lower (2d) or upper (3d) face of the second axis. Building Random, SPE10 or Tarbert in one dimension fails. A boundaryInfo section of the global configuration replaces all of this in every dimension except for ER2007; the configuration object a problem is built with has no influence.", "quantifier": "for all problems, dimensions, faces and configurations", "why_tests_cant": "needs every dimension (a compile time constant) and every configuration", "anchors": ["dune/multiscale/problems/synthetic.cc:boundary_settings", "dune/multiscale/problems/random.cc:boundary_settings", "dune/multiscale/problems/spe10.cc:boundary_settings", "dune/multiscale/problems/tarbert.cc:boundary_settings", "dune/multiscale/problems/er2007.cc:ModelProblemData"]}
{"id": "C78", "title": "Boundary conditions of local problems", "statement": "For Synthetic, Random and ER2007 the nodes of a local grid with prescribed zero values are exactly the nodes on its boundary, whatever is configured. Without a boundaryInfo section in the global configuration they are, for SPE10 and Tarbert, only the nodes on one face, the one with prescribed values on the domain, so every local grid has boundary nodes left free.", "quantifier": "for all local grid sizes in 2d and 3d, all nodes, all configurations", "why_tests_cant": "needs all grid sizes and an inspection of internal constraint sets", "anchors": ["dune/multiscale/problems/base.hh:subBoundaryInfo", "dune/multiscale/problems/spe10.cc:ModelProblemData", "dune/multiscale/problems/tarbert.cc:ModelProblemData", "dune/multiscale/msfem/localproblems/localoperator.cc:LocalProblemOperator"]}
{"id": "C79", "title": "The multiscale solution is coarse function plus correction", "statement": "After a successful solve the solution holds, for every reconstructed cell and every node of its local grid, the value of the coarse function plus the correction computed from that cell's local problems, whatever the schedule of the local solves and whatever the iteration order of the map. A process without cells reaches undefined behaviour; a debug build stops on a process whose grid contains cells it does not reconstruct.", "quantifier": "for all cells, local solutions, schedules, coarse functions and nodes", "why_tests_cant": "end to end through several components, any schedule", "anchors": ["dune/multiscale/msfem/msfem_solver.cc:Elliptic_MsFEM_Solver::apply", "dune/multiscale/msfem/localsolution_proxy.cc:LocalsolutionProxy,add"]}
{"id": "C80", "title": "Neighbouring cells agree on shared boundary nodes", "statement": "At nodes with prescribed values the solution equals the coarse function. Hence for Synthetic, Random and ER2007 two cells show the same value, that of the coarse function, at every point which is a boundary node of both local grids, with or without oversampling.", "quantifier": "for all solver runs, cells and shared nodes", "why_tests_cant": "needs all coefficients and grids", "anchors": ["dune/multiscale/msfem/msfem_solver.cc:identify_fine_scale_part", "dune/multiscale/msfem/localsolution_proxy.cc:add", "dune/multiscale/msfem/localproblems/localoperator.cc:assemble_all_local_rhs,apply_inverse"]}
{"id": "C81", "title": "SPE10 and Tarbert: coarse values without effect", "statement": "A coarse function that vanishes on all constrained nodes of a local grid is cancelled completely by its corrector, provided the quadratures of local matrix and right hand side agree on it. Hence for SPE10 and Tarbert without oversampling the solution inside a cell does not depend on the coarse values at corners away from the constrained face, and on the opposite face it differs from the coarse function the neighbour shows there for suitable coarse values. A free coarse unknown all of whose corrected gradients vanish makes the coarse system singular.", "quantifier": "for all coefficients, quadratures, local grid sizes and coarse values", "why_tests_cant": "a statement about all coefficient fields; tests would show one run", "anchors": ["dune/multiscale/problems/spe10.cc:subBoundaryInfo", "dune/multiscale/problems/tarbert.cc:subBoundaryInfo", "dune/multiscale/msfem/msfem_solver.cc:identify_fine_scale_part", "dune/multiscale/msfem/coarse_scale_assembler.cc:assembleLocal"]}
{"id": "C82", "title": "Computed solutions minimise the energy", "statement": "For a symmetric positive semidefinite system the reference solver returns a vector exactly if it has the prescribed boundary values and the smallest energy (half the quadratic form minus the load) among all vectors with these boundary values; any other such vector has an energy larger by half the energy of the difference. The same equivalence holds for the coarse multiscale solve with the matrix the program assembles, for every symmetric positive semidefinite diffusion.", "quantifier": "for all matrices, loads, boundary values, start values, diffusions, quadratures and grids", "why_tests_cant": "a comparison with infinitely many competitors, for all data", "anchors": ["dune/multiscale/msfem/fem_solver.cc:Elliptic_FEM_Solver::apply", "dune/multiscale/msfem/coarse_scale_operator.cc:CoarseScaleOperator,apply_inverse", "dune/multiscale/msfem/coarse_scale_assembler.cc:assembleLocal"]}
{"id": "C83", "title": "Superposition", "statement": "For uniquely solvable systems the reference solution and the coarse solution of a linear combination of loads and boundary values are the same combinations of the single solutions, whatever start values are used. The corrector of a combination of coarse functions is the combination of their correctors, so that correcting the basis functions corrects every coarse function.", "quantifier": "for all systems, data, factors and start values", "why_tests_cant": "for all combinations of data", "anchors": ["dune/multiscale/msfem/fem_solver.cc:Elliptic_FEM_Solver::apply", "dune/multiscale/msfem/coarse_scale_operator.cc:apply_inverse", "dune/multiscale/msfem/localproblems/localoperator.cc:assemble_all_local_rhs,apply_inverse"]}
{"id": "C84", "title": "When nothing is corrected", "statement": "On a local grid whose energy is positive on free functions, the corrector of a coarse function is zero exactly if the flux of the coarse function is already balanced, in the quadrature of the right hand sides, against all local functions vanishing on the constrained nodes. In general zero is a solution of the local problem exactly in that case.", "quantifier": "for all local grids, diffusions, quadratures and coarse functions", "why_tests_cant": "for all coefficient fields", "anchors": ["dune/multiscale/msfem/localproblems/localoperator.cc:assemble_all_local_rhs,apply_inverse", "dune/multiscale/msfem/diffusion_evaluation.hh:CoarseBasisProduct"]}
{"id": "C85", "title": "Which configuration decides about the grids", "statement": "Coarse and fine grid of a problem are decided by the configuration at the moment the problem was built; later changes of the global configuration do not reach them, and missing numbers of cells make their creation fail. The refinement of the local grids is read from the global configuration when they are made, with 8 if it is missing, while their layers come from the problem. A local grid whose layers fit has the cell width of the fine grid exactly if both refinements are equal; in the msfem program they always are.", "quantifier": "for all configurations, all sequences of changes, problems and grid creations, all grids", "why_tests_cant": "all orders of configuration changes and object creation", "anchors": ["dune/multiscale/problems/selector.cc:ProblemContainer", "dune/multiscale/common/grid_creation.cc:make_coarse_grid,make_fine_grid", "dune/multiscale/msfem/localproblems/localgridlist.cc:LocalGridList", "dune/multiscale/msfem/algorithm.cc:msfem_algorithm"]}
{"id": "C86", "title": "What the subgrid pictures show", "statement": "The picture written for a coarse cell marks exactly the fine cells that the strict covering test assigns to it, with the lower 32 bits of the cell number, and nothing of its oversampling layers. No fine cell is marked in two pictures; each is marked in its own unless its number is divisible by 2^32. The second series of pictures is empty. The program stops with a mismatch if there are fewer pictures than coarse cells and reads a null pointer if there are more.", "quantifier": "for all grids, all coarse cells, all fine cells and all numbers of pictures", "why_tests_cant": "all grid pairs and cell numbers; the pictures are looked at, not checked", "anchors": ["src/thread_vis.cc:subgrid_vis,partition_vis", "dune/multiscale/msfem/localproblems/localgridlist.hh:covers_strict"]}
{"id": "C87", "title": "Output files do not overwrite each other", "statement": "The files with the parts of the multiscale solution have different names for different processes or different coarse cells, so that all processes together write one file per process and cell. The files with the local corrections have different names for different processes or different coarse indices, and no correction shares its file with a part, whatever the data directory. The names carry the process number with at least four digits and the cell number with at least eight (parts) or three (corrections); up to these widths a sorted listing is ordered by process, then by cell, beyond them it need not be.", "quantifier": "for all data directories, all numbers of processes, all cell numbers (of any number of digits)", "why_tests_cant": "all numbers; a clash would only show as missing data", "anchors": ["dune/multiscale/msfem/localsolution_proxy.cc:visualize_parts", "dune/multiscale/msfem/msfem_solver.cc:identify_fine_scale_part", "dune/multiscale/tools/misc/outputparameter.cc:fullpath"]}
{"id": "C88", "title": "Reported errors behave like distances", "statement": "All reported errors are non-negative. Within one report, the errors exact-multiscale, exact-fine and multiscale-fine (and likewise with the coarse reference solution) satisfy all three triangle inequalities, in the L2 norm and in the H1 seminorm, provided discrete functions are integrated to the same value by both quadratures in use. A reported L2 distance is zero exactly if the two solutions agree in all quadrature points of positive weight.", "quantifier": "for all functions, quadratures with non-negative weights, dimensions and all outcomes of the reference solves", "why_tests_cant": "an inequality over all functions", "anchors": ["dune/multiscale/common/error_calc.cc:print"]}
{"id": "C89", "title": "What a passing comparison test means", "statement": "The comparison tests pass exactly if every compared error, taken as zero when it was not computed, lies below its configured bound, and every error of the first run agrees with the second run. Without a configured bound they fail. With positive bounds they always pass for problems without exact solution and when the error calculation is skipped, whatever was computed. Errors that only the second run reports are not noticed.", "quantifier": "for all reports, bounds and floating point comparisons", "why_tests_cant": "it is a statement about the tests themselves", "anchors": ["dune/multiscale/test/compare_msfem.cc:MsFemCompare", "dune/multiscale/test/compare_cgfem.cc:CgFemCompare"]}
{"id": "C90", "title": "The multiscale solution balances load and prescribed flux", "statement": "A result of the coarse solve is exactly a function that takes the prescribed values at the constrained indices and for which, for every coarse function vanishing there, the energy product of the assembled multiscale solution with the corrected coarse function (boundary correctors by the quadrature of the right hand side, the rest by that of the matrix) equals the load of the corrected function plus the integral of the prescribed flux times the uncorrected coarse function over the Neumann boundary. If the two quadratures agree on the boundary correctors, the product is that of one function in one quadrature. The assembly goes through exactly if each cell has two correctors more than basis functions, and the order in which cells are visited has no influence.", "quantifier": "for all coarse grids, bases, correctors, coefficients, sources, boundary fluxes, quadratures, sets of constrained indices and all test functions", "why_tests_cant": "an equation over all test functions and all data", "anchors": ["dune/multiscale/msfem/coarse_scale_operator.cc:CoarseScaleOperator,apply_inverse", "dune/multiscale/msfem/coarse_scale_assembler.hh", "dune/multiscale/msfem/coarse_rhs_functional.hh"]}
{"id": "C91", "title": "The gradient of the multiscale solution is determined", "statement": "With positive definite diffusion and non-negative quadrature weights, any two results of the coarse solve for the same data have the same multiscale gradient in every quadrature point of positive weight, whether or not the matrix is invertible.", "quantifier": "for all grids, data and all pairs of results", "why_tests_cant": "a statement about all possible results of an external solver", "anchors": ["dune/multiscale/msfem/coarse_scale_operator.cc:apply_inverse"]}
{"id": "C92", "title": "Problems without Dirichlet boundary", "statement": "Without constrained indices the coarse system has a solution only if the total load and the total prescribed flux cancel, provided the corrected basis functions have gradients summing to zero; then every constant may be added to a solution.", "quantifier": "for all grids and data without constrained indices", "why_tests_cant": "all data; the linear solver is external", "anchors": ["dune/multiscale/msfem/coarse_scale_operator.cc:apply_inverse"]}
{"id": "C93", "title": "The reference solution balances load and prescribed flux", "statement": "A result of the reference solver is exactly a fine function that takes the prescribed values at the constrained nodes and whose energy product with every fine function vanishing there equals the load plus the integral of the prescribed flux over the Neumann boundary. What the solution vector contained before the call and the order in which elements are visited have no influence.", "quantifier": "for all grids, bases, coefficients, sources, boundary data, quadratures, sets of constrained nodes, previous contents of the solution and all test functions", "why_tests_cant": "an equation over all test functions and all data; results of an external solver", "anchors": ["dune/multiscale/msfem/fem_solver.cc:Elliptic_FEM_Solver::apply"]}
{"id": "C94", "title": "When the multiscale solution is the best approximation of the reference solution", "statement": "If the corrected coarse functions, with the gradients, products and loads the assembly uses for them, are functions of the reference space and the quadratures of coarse matrix and right hand side agree on the boundary correctors, then the difference between reference and multiscale solution has no energy product with any corrected coarse function vanishing at the constrained indices; for symmetric non-negative diffusion no multiscale function with the prescribed values is closer to the reference solution in energy, and if one of them has the gradient of the reference solution then so does the multiscale solution. On refined local grids with bilinear functions the premise fails because coarse gradients are evaluated at local coordinates (C44): there the computed function is not the closest one.", "quantifier": "for all grids, correctors, coefficients, data, solutions and competing multiscale functions; the failure is shown on a concrete grid", "why_tests_cant": "compares with all competing functions, for all data", "anchors": ["dune/multiscale/msfem/coarse_scale_operator.cc:apply_inverse", "dune/multiscale/msfem/fem_solver.cc:Elliptic_FEM_Solver::apply", "dune/multiscale/msfem/coarse_scale_assembler.cc:apply"]}
{"id": "C95", "title": "Balance inside a coarse cell: boundary values are corrected twice", "statement": "Without oversampling and with exact local solves the multiscale solution inside a coarse cell that has no intersection with the domain boundary balances exactly against every local function vanishing at the constrained local nodes (the coarse function measured by the quadrature of the right hand sides, its corrections by that of the matrix; the whole solution by one quadrature where the two agree on the coarse function). In a cell at the domain boundary its energy product with such a function is minus that of the Dirichlet extension minus the Neumann functional, so the cell balances the prescribed flux exactly if the extension happens to cancel it twice. If the local problems are uniquely solvable, the correction is that of the coarse function plus the extension (Dirichlet values enter twice), minus the Neumann corrector; without flux the cell is balanced exactly if the corrector of the extension is zero.", "quantifier": "for all runs (schedules, coarse values, orders of cells), all cells, coefficients, quadratures, extensions, fluxes and local test functions; a concrete cell shows the failure", "why_tests_cant": "an equation over all local test functions and all data; a test on one problem compares with one number", "anchors": ["dune/multiscale/msfem/msfem_solver.cc:identify_fine_scale_part", "dune/multiscale/msfem/localproblems/localoperator.cc:BoundaryValueHelper", "dune/multiscale/msfem/diffusion_evaluation.hh:DirichletProduct::evaluate"]}
{"id": "C96", "title": "What the Neumann correctors integrate", "statement": "The right hand side of the Neumann corrector integrates the boundary value times the test function over all intersections of the local grid, whatever their kind; inner intersections count twice. It differs from the filtered functional of the coarse system by exactly the intersections that are not Neumann ones. For SPE10 and Tarbert, if no inner quadrature point lies in the plane x1 = 0, it is plus respectively minus the integral over that plane. Since the corrector is subtracted, in an SPE10 cell at the boundary, where the two local quadratures agree on the coarse function, the solution balances minus the inflow; it balances the inflow only if no admissible local function sees the inflow side.", "quantifier": "for all local grids, boundary data, nodal functions, runs and coarse values; concrete one- and two-element grids", "why_tests_cant": "needs all functions and grids; the sign error is invisible for problems with zero flux", "anchors": ["dune/multiscale/msfem/localproblems/localoperator.cc:BoundaryValueHelper::add_to", "dune/multiscale/msfem/msfem_solver.cc:identify_fine_scale_part", "dune/multiscale/problems/spe10.cc:NeumannData::evaluate", "dune/multiscale/problems/tarbert.cc:NeumannData::evaluate"]}
{"id": "C97", "title": "The error file is complete whatever the order of the processes", "statement": "Every process writes the same file errors.csv, without coordination. If all processes have the same report, then after every process that opened the file is done the file is exactly that report, however the opening and writing calls of the processes are interleaved, however each process cuts its text into pieces, and whatever an older file contained. In between the file may contain zero bytes. If the reports differ, every byte is still one that some process writes at that place (or zero), but the file as a whole may belong to no process: a concrete run leaves four lines instead of two.", "quantifier": "for all numbers of processes, schedules, ways of cutting the text, older files and reports", "why_tests_cant": "the interleavings of several processes cannot be enumerated by a test, and a test run usually meets a harmless one", "anchors": ["dune/multiscale/common/error_calc.cc:ErrorCalculator::print"]}
{"id": "C98", "title": "The printed report agrees with the error file", "statement": "A line with label and value is printed exactly for the entries of errors.csv, under their labels, with two quotients in addition; the difference of multiscale and fine solution is printed divided by the norm if the norm exceeds 1e-12 and as it is otherwise. No label occurs twice; if no report is produced only the heading is printed. With exact numbers the file can be recovered from the text. If all entries are finite, the only printed value that can be infinite or not a number is the coarse difference divided by the norm, and it is so exactly when the norm of the multiscale solution is zero.", "quantifier": "for all problems, solutions, norms and outcomes of the reference solves", "why_tests_cant": "the text depends on which of five comparisons are available and on zero norms; tests look at the returned map only", "anchors": ["dune/multiscale/common/error_calc.cc:ErrorCalculator::print"]}
{"id": "C99", "title": "The on-disk store never stores", "statement": "Whatever was called before, appending to an on-disk store throws NotImplemented after asking for a directory, and reading throws NotImplemented without asking for one; only clearing returns. The directory asked for is made of the data directory given in the first call with that name since the last clearing (later data directories are ignored), the name, and the number of appends to that name since then modulo 2^32; different names or numbers without separators give different paths.", "quantifier": "for all sequences of calls with all names, data directories and indices", "why_tests_cant": "a statement about all call histories", "anchors": ["dune/multiscale/common/df_io.hh:DiskBackend", "dune/multiscale/common/df_io.cc:DiscreteFunctionIO::get_disk", "dune/multiscale/common/df_io.cc:DiscreteFunctionIO::clear"]}
{"id": "C100", "title": "The random field has the requested correlation", "statement": "With uncorrelated standard normal numbers on all processes, the logarithms of the generated permeabilities at the grid nodes have mean zero, and for any two nodes of the unit cube their covariance is the value of the correlation function at the difference of the nodes, whenever no eigenvalue of the periodically extended correlation is negative; this holds in two and three dimensions, for real and imaginary part and on every admissible number of processes. Fields of different calls of create (real and imaginary part, earlier and later computations) are uncorrelated. The imaginary part of the transformed correlation, which the code sets to zero, is zero already.", "quantifier": "for all correlation functions, numbers of segments, process numbers dividing twice that number, nodes, computations and random numbers with the stated expectations", "why_tests_cant": "a statement about expected values of all pairs of nodes; sampling only gives estimates and cannot separate a wrong transposition or factor from noise in general", "anchors": ["dune/multiscale/problems/random_permeability.hh:Permeability::init", "dune/multiscale/problems/random_permeability.hh:Permeability::create", "dune/multiscale/problems/random.hh:Correlation"]}
{"id": "C101", "title": "Long correlation lengths give a field with too large variance", "statement": "The variance of the generated logarithms is never smaller than the requested one and equals it exactly if no eigenvalue of the periodically extended correlation is negative; negative eigenvalues are replaced by their absolute value without notice. The exponential correlation with correlation length 2 on two segments per direction in two dimensions has a negative eigenvalue, so every node gets a variance larger than requested.", "quantifier": "for all correlation functions, numbers of segments, process numbers and nodes; a concrete correlation length for the last statement", "why_tests_cant": "a few percent of additional variance are invisible in sample statistics, and the check in the code is commented out", "anchors": ["dune/multiscale/problems/random_permeability.hh:Permeability::init", "dune/multiscale/problems/random.hh:Correlation"]}
{"id": "C102", "title": "Only the direct local solver computes correctors", "statement": "With the configuration value msfem.local_solver absent or umfpack, in a build with UMFPACK, a local solve returns what the direct solver returns. With any other value, or without UMFPACK, the two vectors are passed to the linear solver in the wrong order: a local solve that does not throw leaves the function unchanged, so all correctors are zero whatever the coefficients and data are, the coarse system is the one of the uncorrected coarse functions, and the multiscale solution is the coarse function without any fine scale part. No error is reported.", "quantifier": "for all solver types, external solvers, cells, coefficients, data, schedules and coarse solutions", "why_tests_cant": "every test configuration uses the default solver; the run with another solver succeeds and returns a plausible solution", "anchors": ["dune/multiscale/msfem/localproblems/localoperator.cc:apply_inverse", "dune/multiscale/msfem/localproblems/localoperator.cc:LocalProblemOperator", "dune/multiscale/msfem/localproblems/localproblemsolver.cc:solve_all_on_single_cell"]}
{"id": "C103", "title": "What the error calculation leaves behind when something fails", "statement": "errors.csv is written exactly if the error calculation returns, once, as its last effect, with the returned entries. The surface flow is logged once if there is a multiscale solution and never otherwise. Pictures that can be written change neither text, file nor result, and are exactly one picture of each solution and each compared difference. If a picture of the coarse reference cannot be written, exactly the entries that compare with the fine reference disappear from the report; an interrupted prolongation leaves the coarse entries comparing with a half filled function. If a picture of a difference or of the fine reference cannot be written, the complete text has been printed but there is neither file nor result; any other failure leaves only the heading.", "quantifier": "for all combinations of available solutions, all combinations of failing external calls and all iteration orders of the hash maps", "why_tests_cant": "needs failures injected at every external call", "anchors": ["dune/multiscale/common/error_calc.cc:ErrorCalculator::print", "dune/multiscale/common/error_calc.cc:solution_output,data_output"]}
{"id": "C104", "title": "The projection onto the fine grid loses most of the solution", "statement": "On the fine grid of the program every projected nodal value is the value of the multiscale solution divided by the number of cells around the node, that is by two for each direction in which the node lies inside. Hence the constant one on the unit cube is projected to a function whose squared L2 norm is the product over the directions of 1 (one cell) or 1/4 + 2/(3n) (n cells); the test that projects the constant one and expects norm one can only pass on a fine grid of a single cell (which by C27 cannot be searched). The errors reported for the multiscale solution do not go to zero under refinement: whatever product and whatever function u they are measured with, a multiscale solution that agrees with u is reported with an error of at least (1 - 2^-d) times the size of u on the cells away from the boundary, and one close to u with correspondingly little less.", "quantifier": "for all dimensions, all numbers of cells per direction, all multiscale solutions, all compared functions and all local products", "why_tests_cant": "a test only sees a few grids; the bound holds for all of them and for every norm", "anchors": ["dune/multiscale/common/heterogenous.cc:MsFEMProjection::project,postprocess,identifySharedNodes", "dune/multiscale/common/grid_creation.cc:make_fine_grid", "dune/multiscale/test/projection.cc:Projection::project"]}
{"id": "C105", "title": "The profile of a run", "statement": "Whatever external call throws, neither program stops a timed section that is not running nor asks for the time of a section that was never started, also when it is ended by SIGTERM, after which no section is running when the profile is written. A run that succeeds without failing reference solve writes the profile once, with exactly the sections of the computations it made, each counted as often as made, lying inside each other. Such a run makes all computations of its settings in a fixed order, each inside its section. A run succeeds exactly if every exception it met was a DUNE exception of a reference solve of the error calculation, and the coarse reference solution is not used when its solve was given up. Then, though, the profile is not that of the run: when the coarse one was given up, fem.apply and the stage that failed (also that of a failed fine solve, unless the coarse one got past it) are still running when the profile is written; when the fine one was given up, fem.apply is started a second time while running. After a handled exception the profile is written while the section of the whole program is still running, unless the program's own frame failed; sections bound to a block are never left running. The profile is written twice exactly when one of the reports behind it fails.", "quantifier": "for both programs, all settings, all outcomes of all external calls, all moments of the signal", "why_tests_cant": "needs every combination of failing external calls, which tests cannot provoke", "anchors": ["src/msfem.cc:main", "src/cgfem.cc:main", "dune/multiscale/msfem/algorithm.cc:msfem_algorithm", "dune/multiscale/fem/algorithm.cc:cgfem_algorithm", "dune/multiscale/msfem/fem_solver.cc:Elliptic_FEM_Solver::apply", "dune/multiscale/msfem/coarse_scale_operator.cc:CoarseScaleOperator", "dune/multiscale/common/error_calc.cc:ErrorCalculator", "dune/multiscale/common/main_init.cc:handle_sigterm,handle_exception"]}
{"id": "C106", "title": "What a passing grid test means", "statement": "On one process, for grids made from whole numbers of cells, the two grid tests pass together exactly if the coarse grid has at least two cells and the fine grid is finer in at least one direction. The comparison of both grids alone (extents, volumes, counts, corners) passes exactly if the fine grid is finer in some direction, and it also passes for fractional refinements where a fine cell lies in no single coarse cell. The check that fine Lagrange points lie in the coarse grid passes for any two grids, even without a common point. The check of fine corners passes for any two grids of the same box, nested or not. Only the search notices missing nesting: it passes exactly if every coarse node is a fine node and there are at least two coarse cells. Whatever cells are given, the part about dimensions passes exactly if both grids have cells, reach equally far in every direction, every fine cell is smaller than every coarse one and the numbers of cells are the configured ones. On several processes the comparison fails on every process that does not store both grids completely, and the count of local grids fails wherever overlap cells are stored.", "quantifier": "for all boxes, numbers of cells, tolerances of the reference element below a fine cell, and everything a process may store", "why_tests_cant": "it is about what the project's own tests can and cannot detect", "anchors": ["dune/multiscale/test/grid_creation.cc:PointsAndStuff,GridMatch", "dune/multiscale/common/grid_creation.cc:make_grids", "dune/multiscale/msfem/localproblems/localgridsearch.cc:LocalGridSearch::operator()"]}
{"id": "C107", "title": "Where the quadratures of the method are exact", "statement": "The coarse matrix requests quadrature order 4 (3 for the random problem), the coarse and local right hand sides request 3 (2), independent of the source. On box elements the coarse matrix is integrated exactly if the diffusion has in each variable at most the degree it declares. The flux part of the coarse right hand side is integrated exactly up to degree one, its source part for sources up to degree two. So for diffusions of degree at most one on each element, piecewise constant ones in particular, both parts of the coarse system measure the same product and the multiscale solution balances as one function; for a diffusion of degree two, which is the declared order, they do not. Matrix and right hand sides of the local problems agree if the order the external operator uses is two or three, and then for every diffusion; a one-point rule disagrees even for constant diffusion.", "quantifier": "for all dimensions, polynomial diffusions, sources and functions of degree one in each variable; the failures are shown on the unit square", "why_tests_cant": "exactness for all polynomials cannot be tested, and the orders are not observable from outside", "anchors": ["dune/multiscale/msfem/coarse_scale_assembler.cc:MsFEMCodim0Integral::apply", "dune/multiscale/msfem/coarse_rhs_functional.cc:RhsCodim0Integral::apply", "dune/multiscale/msfem/diffusion_evaluation.hh:CoarseBasisProduct::order,DirichletProduct::order", "dune/multiscale/problems/base.hh:DiffusionBase::order", "dune/multiscale/problems/random.cc:Diffusion::order"]}
{"id": "C108", "title": "Constant diffusion: nothing is corrected and linear solutions are reproduced", "statement": "With the same diagonal diffusion matrix everywhere, on a local grid of boxes whose outer nodes are constrained, the corrector of every function that is linear in each direction (so of every coarse basis function and of the Dirichlet extension) is zero and nothing else solves the local problem; for a full positive definite matrix this holds for linear functions, while a function like the product of the coordinates is then corrected. Without correctors, with constant diffusion and constant source, a result of the coarse solve is exactly a result of the finite element method on the coarse grid, although the coarse functions are evaluated at local coordinates. On a box grid with prescribed values on the whole boundary and without source the coarse solve returns the node values of a function that is linear in each direction exactly (diagonal matrix), respectively of any linear function (full matrix), and nothing else.", "quantifier": "for all dimensions, grid sizes, edge lengths, node numberings, Gauss rules with two or three points for the matrix and any rule for the right hand sides", "why_tests_cant": "a patch test checks one function on one grid; the statement is about all of them", "anchors": ["dune/multiscale/msfem/localproblems/localoperator.cc:LocalProblemOperator::assemble_all_local_rhs", "dune/multiscale/msfem/coarse_scale_assembler.cc:MsFEMCodim0Integral::apply", "dune/multiscale/msfem/coarse_scale_operator.cc:CoarseScaleOperator"]}
{"id": "C109", "title": "Several processes: the coarse and the reference system are split in different ways", "statement": "With the grid distributed over several processes, each coarse cell being interior to exactly one of them, the coarse matrices and right hand sides of the processes have to be added: their sum is the system of a single process, with exactly its solutions. A process has the complete row of an unknown if it owns all cells touching it, an empty row if it owns none of them, and otherwise a row whose diagonal entry is too small as soon as the corrected basis function has energy on a cell of another process. Taking the rows from the owners of the unknowns therefore balances every unknown over the cells of its owner only, which gives other solutions. The reference system is the other way round: it is assembled over all cells a process holds, so with one layer of overlap the row of every unknown is complete at the process owning a cell that touches it, and taking the rows from the owners gives exactly the solutions of a single process; adding the parts instead counts every overlap cell once per process holding it, which gives other solutions. Both systems are handed to the same parallel solver, so whichever of the two readings it has, one of the systems is not the sequential one.", "quantifier": "for all numbers of processes, distributions of cells, overlaps, cells, basis functions, correctors, quadratures and data", "why_tests_cant": "the tests run on one process, where both readings coincide; on several processes a wrong border row shows only as a slightly different solution", "anchors": ["dune/multiscale/msfem/coarse_scale_operator.cc:CoarseScaleOperator", "dune/multiscale/msfem/coarse_scale_operator.cc:CoarseScaleOperator::apply_inverse", "dune/multiscale/msfem/fem_solver.cc:Elliptic_FEM_Solver::apply", "dune/multiscale/common/la_backend.hh:BackendChooser", "dune/multiscale/common/grid_creation.cc:setup"]}
{"id": "C110", "title": "Local problems, reference problem and coarse problem have exactly one solution", "statement": "A global solve has a solution for all right hand sides and boundary values exactly if it never has a choice between two. On grids of boxes with any positive definite, arbitrarily varying diffusion: every local corrector exists and is unique as soon as one node is fixed and the matrix is integrated with at least two points per direction; the reference problem has exactly one solution for all data as soon as one value is prescribed; without any prescribed value it has a solution exactly if source and prescribed flux cancel in total, and the solution is determined up to a constant. The coarse system has exactly one solution for all data if and only if no coarse function other than zero that vanishes where values are prescribed loses its whole gradient by the correction; without oversampling, with local functions vanishing on the boundary of their coarse cell, this is always so, even though the coarse gradients are evaluated at local coordinates.", "quantifier": "for all numbers of unknowns, dimensions, box grids, numberings, diffusion fields, quadratures with two points, data and local functions", "why_tests_cant": "a singular system only shows as a solver that does not converge or returns one of many vectors for particular coefficients, grids and boundary parts", "anchors": ["dune/multiscale/msfem/localproblems/localoperator.cc:apply_inverse", "dune/multiscale/msfem/coarse_scale_operator.cc:apply_inverse", "dune/multiscale/msfem/fem_solver.cc:Elliptic_FEM_Solver::apply", "dune/multiscale/msfem/coarse_scale_assembler.cc:apply"]}
{"id": "C111", "title": "SPE10 and Tarbert: the coarse system does not determine its solution", "statement": "With the boundary conditions built into the SPE10 and Tarbert problems the local problems are constrained on a single side only. On box grids, with any positive definite diffusion, any local grids (with or without oversampling), exact local solutions and local quadratures that agree, every coarse function whose values depend only on the layer (the index along the second axis) loses its whole gradient by the correction. Hence adding such layer values, zero at the prescribed side, to a solution of the coarse system gives another solution, and the coarse system never has exactly one solution, whatever source, Neumann and Dirichlet data. The node values of a coarse function on a local grid reproduce its values and gradients also in the oversampling region.", "quantifier": "for all box grids in two and three dimensions, numberings, local grids, oversampling, positive definite diffusion fields, local and coarse quadratures, sources and boundary data", "why_tests_cant": "a run only shows an iteration that stagnates or one of infinitely many vectors; that no choice of grid, coefficients or oversampling helps cannot be tested", "anchors": ["dune/multiscale/problems/spe10.cc:boundary_settings", "dune/multiscale/problems/tarbert.cc:boundary_settings", "dune/multiscale/problems/spe10.cc:subBoundaryInfo", "dune/multiscale/msfem/diffusion_evaluation.hh:CoarseBasisProduct::evaluate", "dune/multiscale/msfem/coarse_scale_assembler.cc:apply", "dune/multiscale/msfem/coarse_scale_operator.cc:apply_inverse"]}
{"id": "C112", "title": "The method as a whole has exactly one result, or never does", "statement": "Take the local solves for every coarse cell (one per corner plus the two boundary correctors with any right hand side) together with the coarse solve that reads them. On box grids with positive definite diffusion and at least one constrained node per local grid the local functions exist and are the same in every result, and the whole method has exactly one result if and only if its coarse system has exactly one solution. For Synthetic, Random and ER2007 without oversampling there is exactly one result for all data as soon as one coarse value is prescribed; for SPE10 and Tarbert with the built-in boundary conditions there never is exactly one, with or without oversampling.", "quantifier": "for all box grids, numberings, local grids, positive definite diffusion fields, quadratures with two points, right hand sides of the boundary correctors, sources and boundary data", "why_tests_cant": "whether all stages together determine the result depends on every combination of grid, coefficients, local constraints and data; a test sees one", "anchors": ["dune/multiscale/msfem/msfem_solver.cc:Elliptic_MsFEM_Solver::apply", "dune/multiscale/msfem/localproblems/localproblemsolver.cc:solve_for_all_cells", "dune/multiscale/msfem/coarse_scale_operator.cc:apply_inverse", "dune/multiscale/problems/spe10.cc:subBoundaryInfo", "dune/multiscale/problems/synthetic.hh:subBoundaryInfo"]}
{"id": "C113", "title": "Results do not depend on the units of length, diffusion and solution", "statement": "Write the same problem in other units: lengths times L, diffusion times s, the solution times t, hence the source times s*t/L^2, the Neumann data times s*t/L and the Dirichlet data times t. On box grids, with or without oversampling, the corner functions of the local problems stay the same, the two boundary correctors and the coarse values are multiplied by t, and nothing else is a result; the right hand sides of both boundary correctors have the common factor this needs. The reference solution is multiplied by t, too. In particular multiplying diffusion, source and Neumann data by one number changes nothing, and multiplying source and all boundary data by one number multiplies the results by it.", "quantifier": "for all nonzero factors, box grids of any dimension, numberings, constraints, local grids, diffusion fields, quadratures, sources, faces and boundary data", "why_tests_cant": "a test compares two runs; a missing or wrong power of an edge length, weight or coefficient in one stage is invisible on the unit cube and with diffusion of size one", "anchors": ["dune/multiscale/msfem/localproblems/localoperator.cc:assemble_all_local_rhs", "dune/multiscale/msfem/diffusion_evaluation.hh:evaluate", "dune/multiscale/msfem/coarse_scale_assembler.cc:apply", "dune/multiscale/msfem/coarse_scale_operator.cc:CoarseScaleOperator", "dune/multiscale/msfem/fem_solver.cc:apply"]}
{"id": "C114", "title": "Largest random field", "statement": "The class generating random permeability fields computes sizes, index ranges, loop counters, message displacements and array indices with numbers of type int. With 2^k segments per direction everything fits and equals the mathematical description exactly for k up to 14 in two dimensions and up to 9 in three dimensions, on every process and for every power-of-two process grid not finer than the field. For larger k the initialisation already is undefined on every process, because the number of all nodes of the doubled field is computed as an int although only the nodes of one process are ever stored: more processes do not help.", "quantifier": "for all numbers of segments, dimensions 2 and 3, process numbers, ranks, overlaps and numbers of rows per process", "why_tests_cant": "fields of this size need hundreds of processes; an overflow gives a factor of the wrong size instead of an error, so that a run only shows a permeability that is off", "anchors": ["dune/multiscale/problems/random_permeability.hh:Permeability::init", "dune/multiscale/problems/random_permeability.hh:setRange", "dune/multiscale/problems/random_permeability.hh:redistribute", "dune/multiscale/problems/random_permeability.hh:operator()"]}
{"id": "C115", "title": "Results do not depend on numberings and orders", "statement": "Number the unknowns of a local, coarse or reference problem differently and visit cells, corners of a cell together with the functions stored for them, local elements, faces and quadrature points in any other order: the solutions are the same functions. A vector solves the renumbered problem exactly if the vector with the entries moved back solves the original one; the right hand sides of local problems, also those of the Neumann correctors, are moved in the same way. Only the places of the two boundary correctors behind the corner functions are fixed.", "quantifier": "for all renumberings, orders, grids, basis functions, diffusion fields, quadratures, constraints, sources and boundary data", "why_tests_cant": "numberings and iteration orders come from the grid manager and its version, partitioning and refinement; a test sees the one it got", "anchors": ["dune/multiscale/msfem/coarse_scale_assembler.cc:apply", "dune/multiscale/msfem/coarse_rhs_functional.hh", "dune/multiscale/msfem/coarse_scale_operator.cc:apply_inverse", "dune/multiscale/msfem/localproblems/localoperator.cc:assemble_all_local_rhs", "dune/multiscale/msfem/fem_solver.cc:apply"]}
{"id": "C116", "title": "Maximum principle for the reference solution", "statement": "On grids of boxes with a positive diagonal diffusion that is constant in every fine cell the reference solution obeys a maximum principle if the cells are of even shape: for every direction three times a_k/h_k^2 is at least the sum over all directions. Then larger sources, larger prescribed fluxes and larger prescribed values give a reference solution that is larger at every point; without sources and inflow it nowhere exceeds the largest prescribed value, without sinks and outflow it nowhere falls below the smallest. With the same diffusion in all directions every line grid is of even shape, a plane grid if the square of each edge is at most twice the square of the other, a grid in space only if all edges are equal. The condition cannot be dropped: on 2 x 2 boxes the value in the middle stays within the prescribed values, for all prescribed values, exactly if the condition holds.", "quantifier": "for all box grids in any dimension, numberings, cellwise constant diagonal diffusions, Gauss rules with two or three points, sources, fluxes, prescribed values and constrained sets that are not empty", "why_tests_cant": "overshoots appear only for some combinations of cell shapes, jumps of the diffusion and boundary values; a test tries finitely many", "anchors": ["dune/multiscale/msfem/fem_solver.cc:apply", "dune/multiscale/problems/tarbert.cc:Diffusion", "dune/multiscale/problems/synthetic.cc"]}
{"id": "C117", "title": "Corrected coarse functions have no new extrema", "statement": "Under the same condition on the cells of a local grid (boxes, cellwise constant positive diagonal diffusion, even shape), with or without oversampling: if a coarse function lies between two bounds at the constrained nodes of the local grid, then the coarse function plus its stored corrections lies between them everywhere on the local grid. Without oversampling the bounds may be taken from the corners of the coarse cell, so every corrected shape function lies between 0 and 1, and on every such grid the corrected shape functions add up to 1. For cells twice as long as wide, as in the Tarbert table, and isotropic diffusion with a jump, a corrected shape function takes negative values.", "quantifier": "for all local grids, coarse cells, diffusions, constrained sets that are not empty, coarse functions and points", "why_tests_cant": "a violation shows as a slightly negative value at some interior node for some jump of the coefficients; tests look at norms and at few coefficients", "anchors": ["dune/multiscale/msfem/localproblems/localproblemsolver.cc:solve_all_on_single_cell", "dune/multiscale/msfem/localproblems/localoperator.cc:assemble_all_local_rhs", "dune/multiscale/msfem/localproblems/localoperator.cc:apply_inverse", "dune/multiscale/problems/tarbert.cc:Diffusion"]}
{"id": "C118", "title": "Data of the problem Thirteen", "statement": "The diffusive flux of the problem Thirteen is a multiple of the given direction: 20 times in two closed horizontal strips (the conductors), 1/100 times in a closed vertical bar (the isolator), which has no point in common with them, and elsewhere a factor between 1/5 and 11/5 that depends on the rounded coordinates only. So it is uniformly elliptic with the attained constants 1/100 and 20. The function offered as its derivative equals the flux outside of the conductors but is five times too large inside. The prescribed flux is 2 exactly at the heights of the conductors and 0 elsewhere; the source is zero. Components beyond the second are left as the caller passed them in.", "quantifier": "for all points, directions, values of epsilon and previous contents of the output", "why_tests_cant": "the factor 5 shows only for points of the strips and only in a derivative that is never compared with the flux; boundary points of the regions are sets tests do not hit", "anchors": ["dune/multiscale/problems/thirteen.cc:Diffusion::diffusiveFlux", "dune/multiscale/problems/thirteen.cc:Diffusion::jacobianDiffusiveFlux", "dune/multiscale/problems/thirteen.cc:NeumannBoundaryCondition::evaluate"]}
{"id": "C119", "title": "The coarse matrix lies between the means of the diffusion", "statement": "Take the coarse matrix without oversampling, with all outer nodes of the local grids constrained and exact local solutions, and a linear function on the domain. The energy the matrix gives to it is at most the one a diffusion would give that is the mean of the diffusion in each coarse cell, and at least the one of the inverse of the mean of the inverses (for diagonal diffusions: direction by direction between harmonic and arithmetic mean). Raising the diffusion anywhere never lowers this energy; that holds for any constrained nodes. All means are those of the quadrature of the matrix; the quadratures of the stages agree if the diffusion is constant in the fine cells.", "quantifier": "for all box grids in any dimension, symmetric diffusions without negative energy (positive diagonal ones for the two means), numbers of fine cells, linear functions, and quadrature orders with two or three points per direction", "why_tests_cant": "upscaled coefficients are not printed anywhere, and a run gives one diffusion; the bounds quantify over all diffusions and compare with means of the fine data", "anchors": ["dune/multiscale/msfem/coarse_scale_assembler.cc:MsFEMCodim0Integral::apply", "dune/multiscale/msfem/localproblems/localproblemsolver.cc:LocalProblemSolver::solve_all_on_single_cell", "dune/multiscale/msfem/localproblems/localoperator.cc:LocalProblemOperator::assemble_all_local_rhs"]}
{"id": "C120", "title": "What an inexact linear solver does to the result", "statement": "The solvers stop when a residual is small. If the returned vector has the right values at the constrained unknowns and leaves a residual r in the other equations, then the energy of its error is at most |r|^2/c and the sum of the squares of its errors at most |r|^2/c^2, where c is any lower bound of the matrix. On grids of boxes with all nodes of one layer constrained c can be taken as smallest diffusion times volume of a box over (extent in the direction of the layer)^2 times 6 per further direction; this holds for the reference system and for every local problem. In products of two inexactly corrected functions the errors of the corrections enter only as their own product. So the coarse matrix assembled from inexact local solutions is, on linear functions and without oversampling, never too small, and too large by at most the sum over the coarse cells of |r|^2/c.", "quantifier": "for all matrices, right hand sides, returned vectors and residuals; all box grids in any dimension, diffusions bounded below, quadrature orders with two or three points per direction and constrained layers", "why_tests_cant": "tests compare with tolerances at a few settings of the solver; the bounds hold for every solver and every residual, and relate what a solver can report to what it cannot", "anchors": ["dune/multiscale/msfem/fem_solver.cc:Elliptic_FEM_Solver::apply", "dune/multiscale/msfem/localproblems/localoperator.cc:LocalProblemOperator::apply_inverse", "dune/multiscale/msfem/coarse_scale_operator.cc:CoarseScaleOperator::apply_inverse", "dune/multiscale/msfem/coarse_scale_assembler.cc:MsFEMCodim0Integral::apply"]}
{"id": "C121", "title": "Small changes of the data change the results little", "statement": "If two diffusions are symmetric and their energies differ everywhere by at most a fraction delta of that of the first, then: the reference solutions for the same source, flux and boundary values differ by at most delta, relative to the second solution and measured in the energy of the first diffusion; the correction a local problem computes for a function differs by at most delta relative to the corrected function, whatever nodes are constrained; and on linear functions and without oversampling the coarse matrices differ by at most the fraction delta. If only source and prescribed flux change, the reference solution changes by at most the change of the right hand side over the bound of C120. If the diffusion grows by any amount, the load applied to the reference solution does not grow (boundary values zero).", "quantifier": "for all pairs of diffusions, all fractions, sources, fluxes and boundary values; the reference solution on every grid with positive quadrature weights, the local problems and the coarse matrix on box grids in any dimension with quadratures that agree", "why_tests_cant": "a test perturbs particular data; the dependence on the data as a whole, with the constant one, is a statement about all pairs", "anchors": ["dune/multiscale/msfem/fem_solver.cc:Elliptic_FEM_Solver::apply", "dune/multiscale/msfem/localproblems/localoperator.cc:LocalProblemOperator::assemble_all_local_rhs", "dune/multiscale/msfem/coarse_scale_assembler.cc:MsFEMCodim0Integral::apply"]}
{"id": "C122", "title": "The loop over the coarse cells and the number it prints", "statement": "A process solves local problems exactly once for each of its own coarse cells; it stores these and the cells at most as many layers away as the overlap has. The number of coarse cells it announces and reports is the number of stored cells less the number of overlap layers, which is the number of cells handled exactly if the overlap happens to consist of as many cells as it has layers. On one process the number is too small by the number of layers (it can be negative); on several processes with overlap it is too large as soon as the overlap is complete on one side and the process owns at least two cells across the other directions. The number of linear systems solved is (own cells) times (number of inner correctors) plus (own cells touching the boundary of the domain) times (number of boundary correctors). The check for a bad distribution made when the coarse grid is created never fires on a process that owns only a part of the grid, nor if there is overlap.", "quantifier": "for all grid sizes, dimensions, parts, overlaps, numbers of correctors and grid types", "why_tests_cant": "the numbers only appear in the log, and are right in the common test with one process and no oversampling", "anchors": ["dune/multiscale/msfem/localproblems/localproblemsolver.cc:LocalProblemSolver::solve_for_all_cells", "dune/multiscale/msfem/localproblems/localproblemsolver.cc:LocalProblemSolver::solve_all_on_single_cell", "dune/multiscale/common/grid_creation.cc:make_coarse_grid"]}
{"id": "C123", "title": "What the shipped test configurations can show", "statement": "From each shipped test configuration one run is made per listed setup, with the grids and the oversampling of that setup. The comparison test of the multiscale method fails with every shipped configuration, whatever the two runs compute: its configuration sets the error bounds under the keys of the reference method. The comparison test of the reference method reads the bounds of its setup (0.251 and 2.67 for the small grids, 0.57 and 2.3 for the single cell) and passes if and only if the errors of the first run stay below them and both runs agree. Both tests use the synthetic problem; although a comparison of the two methods is implemented, neither test makes it. The projection test passes with no shipped configuration: with the single cell every search throws, with the small grids the square of the norm is at most 7/12 instead of 1. The grid tests on one process pass with every setup of the common file except the single cell, which is not among their setups. The test of the error calculation passes exactly if nothing is thrown, whatever the errors are: the bounds in its configuration are never read, the errors they are for are not even computed, and with the single cell the projection throws.", "quantifier": "for all setups and configurations of the shipped files (the expansion for all files), one to three dimensions, all domains, all results of the runs", "why_tests_cant": "the tests would have to be run with all setups to notice, and a failing test does not say whether it could ever pass", "anchors": ["dune/multiscale/test/common_grids.mini", "dune/multiscale/test/compare_msfem.mini", "dune/multiscale/test/compare_cgfem.mini", "dune/multiscale/test/projection.mini", "dune/multiscale/test/grid_creation.mini", "dune/multiscale/test/compare_msfem.cc:MsFemCompare", "dune/multiscale/test/compare_cgfem.cc:CgFemCompare", "dune/multiscale/test/projection.cc:Projection::project", "dune/multiscale/test/grid_creation.cc:GridMatch", "dune/multiscale/test/error_calc_check.cc:ErrorCheck", "dune/multiscale/test/error_calc_check.mini"]}
{"id": "C124", "title": "The coarse system assembled by several threads", "statement": "If every thread has its own storage for element matrices and vectors and adding to an entry cannot be interrupted, the matrix and the right hand side assembled by any number of threads are those of one thread, however the cells are distributed and the threads interleaved. No thread waits for another: every schedule with enough steps ends, and the assertions stop the run if and only if some cell has not the expected number of stored functions. If adding to an entry consists of reading and writing, entries to which only one thread contributes are still right, but for every thread that contributes to an entry there is a schedule after which this entry contains only what this thread added. If two threads share a storage there are cells and a schedule with a wrong result even with uninterruptible additions.", "quantifier": "for all coarse cells, local functions, diffusions and sources, all numbers of threads, distributions and schedules, all contents of the storages at the beginning", "why_tests_cant": "a run takes one schedule, and the bad ones are rare", "anchors": ["dune/multiscale/msfem/coarse_scale_operator.cc:CoarseScaleOperator", "dune/multiscale/msfem/coarse_scale_assembler.cc:MsFemCodim0Matrix::assembleLocal", "dune/multiscale/msfem/coarse_rhs_functional.cc:RhsCodim0Vector::assembleLocal"]}
{"id": "C125", "title": "Cell numbers computed with floating point numbers", "statement": "With doubles in place of exact numbers, rounded in any order-preserving way: the overlap of the coarse grid is that of exact arithmetic for whole numbers of fine cells per coarse cell, and the partition of the processes of the random field is that of exact arithmetic provided the logarithm is rounded in this way; locating a point in the random field involves no rounding at all if the number of cells is a power of two. The look-up of SPE10 always yields a cell of the table, and this cell contains a point that differs from the given one by at most 2^-49 of its distance to the lower corner; it is the exact one for all points further than 2^-49 of the box from the faces. Tarbert's look-up yields the interval of a point as near, and never leaves the table inside the domain. Next to a face the neighbouring cell can be found, and with fractional numbers of fine cells one layer of overlap can be missing.", "quantifier": "for all roundings, configurations, process numbers, points and tables", "why_tests_cant": "the cases that go wrong are a handful of points out of all doubles, and whether the others go right cannot be found out by trying", "anchors": ["dune/multiscale/common/grid_creation.cc:setup", "dune/multiscale/problems/random_permeability.hh:partition, operator()", "dune/multiscale/problems/spe10.cc:Diffusion::evaluate", "dune/multiscale/problems/tarbert.cc:Diffusion::evaluate"]}
{"id": "C126", "title": "Local grids computed with floating point numbers", "statement": "With doubles the corners of a local grid differ from the exact ones by a small multiple of the error of the coordinates of the coarse cell. The number of cells is the exact one whenever the oversampling layers do not end exactly on the boundary of the domain. If they do, the layers of one or both sides can be missing although they fit: the same patch is then divided into too few cells, which are no fine cells any more (tenth parts of the unit interval with eleven fine cells and eleven layers: 22 cells instead of 33). If all coordinates are multiples of a power of two with few digits, the grid is exact in every case.", "quantifier": "for all roundings, domains, numbers of coarse and fine cells, numbers of layers and coarse cells, errors of the coordinates below a sixteenth of a fine cell over the number of coarse cells", "why_tests_cant": "most combinations of numbers of cells and layers work, and the result of a run with wrong local grids looks plausible", "anchors": ["dune/multiscale/msfem/localproblems/localgridlist.cc:LocalGridList"]}
{"id": "C127", "title": "The method on an interval", "statement": "In one dimension without oversampling and with exact correctors the coarse matrix is the one of the scheme with the harmonic means of the diffusion over the coarse cells. The right hand side is another matter: the coarse functions are evaluated at the quadrature points of the fine cell instead of the places of these points in the coarse cell. The values of the coarse solution at the coarse nodes are those of the reference solution on the fine grid exactly if a certain moment of the source is the same in all coarse cells, and zero if an end of the interval is not constrained. That holds without source, without refinement and for constant sources. For a source that grows linearly it holds with both ends constrained; with a free end the difference is s H^3 (1 - 1/m) / 12 times the sum of the inverse harmonic means, where s is the growth and m the number of fine cells per coarse cell: it does not shrink when the fine grid is refined.", "quantifier": "for all numbers of coarse and fine cells, cell sizes, positive diffusions, sources, prescribed fluxes and values, quadrature orders giving the same mean diffusion per fine cell", "why_tests_cant": "the shipped problems have no exact solution at hand for this case, and coarse and reference solution differ anyway by the error of the method", "anchors": ["dune/multiscale/msfem/coarse_rhs_functional.cc:RhsCodim0Integral::apply", "dune/multiscale/msfem/coarse_scale_assembler.cc:MsFEMCodim0Integral::apply", "dune/multiscale/msfem/coarse_scale_operator.cc:CoarseScaleOperator", "dune/multiscale/msfem/fem_solver.cc:Elliptic_FEM_Solver::apply"]}
{"id": "C128", "title": "Oversampling on an interval", "statement": "In one dimension with exact correctors, whatever local grid each coarse cell has, the coarse matrix is the one of the scheme whose coefficient in a coarse cell is the square of the harmonic mean of the diffusion over the local grid divided by its harmonic mean over the coarse cell. The corrected functions rise over the coarse cell by the ratio of the two means times the rise of the coarse function, so they do not fit together at the coarse nodes. The coefficient is the right one exactly if the two means are the same. Without source and driven by a flux at one end, the coarse solution agrees with the reference solution on the fine grid at the coarse nodes exactly if they are the same for every coarse cell. So oversampling, which leaves nothing to improve here, spoils a result that is exact without it. With local grids over the whole interval the change between the ends is never smaller than that of the reference solution, and larger if the means over the coarse cells differ.", "quantifier": "for all numbers of coarse and fine cells, numbers of layers (different ones for every cell and side), cell sizes, positive diffusions, sources, fluxes and boundary correctors", "why_tests_cant": "with oversampling the coarse solution is expected to differ from the reference solution, and the tests only compare errors with wide bounds", "anchors": ["dune/multiscale/msfem/localproblems/localgridlist.cc:LocalGridList", "dune/multiscale/msfem/localproblems/localoperator.cc:LocalProblemOperator", "dune/multiscale/msfem/coarse_scale_assembler.cc:MsFEMCodim0Integral::apply", "dune/multiscale/msfem/diffusion_evaluation.hh:CoarseBasisProduct", "dune/multiscale/msfem/msfem_solver.cc:Elliptic_MsFEM_Solver::identify_fine_scale_part"]}
{"id": "C129", "title": "What the coarse system sees of source and diffusion inside a coarse cell", "statement": "Because the coarse functions are evaluated at the reference coordinates of the local cell, the coarse system does not see where in the coarse cell a local cell lies. Where nothing is corrected it is exactly the system of the finite element method on the coarse grid for folded data: at every quadrature point the mean, over all fine cells of the coarse cell, of the data at the same place in the fine cell. Data that are constant on fine cells are replaced by their mean over the coarse cell. On grids of boxes with a constant diagonal diffusion nothing is corrected, so the coarse solution is that of the coarse finite element method for the folded source, whatever the local grids are. In general two sources that are folded to the same have right hand sides that differ only by what the corrections see of them. A source that moves within a coarse cell without changing its mean leaves the coarse solution unchanged, though the solution of the problem changes.", "quantifier": "for all dimensions, grids, local grids, data, quadratures (the same on all local cells of a coarse cell) and boundary conditions", "why_tests_cant": "the comparison with the coarse finite element method for other data is not available in a test, and the shipped sources vary little inside a coarse cell", "anchors": ["dune/multiscale/msfem/coarse_rhs_functional.cc:RhsCodim0Integral::apply", "dune/multiscale/msfem/coarse_scale_assembler.cc:MsFEMCodim0Integral::apply", "dune/multiscale/msfem/coarse_scale_operator.cc:CoarseScaleOperator"]}
{"id": "C130", "title": "Finding cells with floating point numbers", "statement": "Rounding of coordinates does not change which cells of a local grid count as part of the coarse cell, unless the oversampling layers end exactly on the boundary of the domain; then the cells counted can be nine per cent wider than the coarse cell. The coarse cell that the search finds for the corners of a fine cell is never a wrong one. It is found for every rounding if the number of fine cells in a coarse cell is a power of two in all directions and the rounding does not depend on the exponent (as that of doubles), or if there are at most five coarse cells in each direction (of the unit interval). Otherwise the tolerance of the containment test need not be enough: with 78 coarse cells of the unit interval and three fine cells in each, no coarse cell is found for one of the fine cells in double precision, the search throws and no comparison is made.", "quantifier": "for all roundings (order preserving, 53 digits), domains, numbers of cells (up to 2^42), cells and histories of the search; the failure for double precision, all orders of the cells and all histories", "why_tests_cant": "needs grids that no test uses, and depends on the last digits of coordinates", "anchors": ["dune/multiscale/msfem/localproblems/localgridlist.cc:LocalGridList::covers", "dune/multiscale/msfem/localproblems/localgridlist.hh:LocalGridList::covers_strict", "dune/multiscale/msfem/localproblems/localgridsearch.cc:LocalGridSearch::covers_strict", "dune/multiscale/common/grid_creation.cc:make_fine_grid"]}
{"id": "C131", "title": "On an interval the multiscale solution is close to the reference solution however fast the diffusion changes", "statement": "On an interval without oversampling: for a bounded source the multiscale solution differs from the reference solution by at most a constant times the width H of the coarse cells, in the values, in the flow (diffusion times derivative) and in the energy norm; for a source that changes at most proportionally to the distance, the values differ by at most a constant times H^2 at all nodes of the fine grid. The constants contain only the length of the interval, the bounds of the source and (for values and energy) the smallest value of the diffusion; how often and how strongly the diffusion changes does not matter. In the cells at the ends the boundary correctors add to the error of the values. The first order of the flow cannot be improved by any coarse values: with a constant source the flow is wrong by half the source times (H - h) somewhere in every coarse cell. If the diffusion is periodic with whole numbers of periods in a coarse cell, the coefficient of the coarse system is the harmonic mean over one period.", "quantifier": "for all numbers of coarse and fine cells, diffusions, sources, boundary values and prescribed flows, with exactly computed correctors and matching quadratures", "why_tests_cant": "a test sees finitely many grids and diffusions and cannot tell a rate, nor that a constant does not depend on the diffusion", "anchors": ["dune/multiscale/msfem/coarse_scale_operator.cc:CoarseScaleOperator", "dune/multiscale/msfem/coarse_scale_assembler.cc:MsFemCodim0Matrix::assembleLocal", "dune/multiscale/msfem/coarse_rhs_functional.cc:RhsCodim0Vector::assembleLocal", "dune/multiscale/msfem/localproblems/localoperator.cc:LocalProblemOperator", "dune/multiscale/msfem/msfem_solver.cc:Elliptic_MsFEM_Solver::identify_fine_scale_part", "dune/multiscale/msfem/fem_solver.cc:Elliptic_FEM_Solver::apply"]}
{"id": "C132", "title": "Flow along layers is computed exactly, whether or not the grids resolve the layers", "statement": "If the flux of a linear function in every direction does not change when one moves in that direction (constant diffusion, or flow along layers of arbitrary conductivity), then the local problems do not correct this function, on local grids of any size around a coarse cell with all outer nodes constrained and with any quadrature of their right hand side; and with no source and the values of the function on the boundary it is the reference solution on every grid, and the multiscale solution without oversampling at the coarse nodes and, with all correctors, at the nodes of all local grids. The layers may lie anywhere in the cells.", "quantifier": "for all dimensions, numbers and sizes of cells, diffusions (full matrices, positive definite, arbitrary dependence on the position across the flow), slopes and numberings, with exactly solved systems", "why_tests_cant": "a test can only try finitely many layerings, and on grids that resolve them", "anchors": ["dune/multiscale/msfem/localproblems/localoperator.cc:LocalProblemOperator::assemble_all_local_rhs", "dune/multiscale/msfem/coarse_scale_assembler.cc:MsFemCodim0Matrix::assembleLocal", "dune/multiscale/msfem/coarse_rhs_functional.cc:RhsCodim0Vector::assembleLocal", "dune/multiscale/msfem/coarse_scale_operator.cc:CoarseScaleOperator", "dune/multiscale/msfem/fem_solver.cc:Elliptic_FEM_Solver::apply"]}
{"id": "C133", "title": "On an interval larger boundary data give larger multiscale solutions, a larger source need not", "statement": "On an interval, without oversampling: larger boundary values and larger prescribed fluxes never make the multiscale solution smaller at a coarse node, whatever the diffusion and the source. Without source and prescribed flux the solution stays between the boundary values, at the coarse nodes and with the correctors at the nodes of the fine grid. A larger source never makes it smaller at a coarse node if the diffusion does not change inside coarse cells. Otherwise it can: there is a case with source nowhere negative, boundary value zero and no outflow in which the multiscale solution is negative, while the reference solution is not.", "quantifier": "for all numbers of coarse and fine cells, positive diffusions, sources, boundary data and numberings, with exactly solved systems", "why_tests_cant": "a comparison of two solutions over all data; the failing case needs a source at particular places", "anchors": ["dune/multiscale/msfem/coarse_rhs_functional.cc:RhsCodim0Vector::assembleLocal", "dune/multiscale/msfem/coarse_scale_assembler.cc:MsFemCodim0Matrix::assembleLocal", "dune/multiscale/msfem/coarse_scale_operator.cc:CoarseScaleOperator", "dune/multiscale/msfem/localproblems/localoperator.cc:LocalProblemOperator::assemble_all_local_rhs"]}
{"id": "C134", "title": "In floating point arithmetic the number of threads changes the coarse system by rounding errors only", "statement": "When the coarse system is assembled, every entry of matrix and right hand side is the exact sum of what the cells add up to a rounding error, whatever the number of threads, the distribution of the coarse cells and the order of the steps: at most (1+2^-52)^n - 1 times the sum of the absolute values, n the number of additions. Two runs differ by twice this at most. Entries to which one thread adds in both runs, in the same order of cells, are the same bit by bit; so is everything with one thread. Sums of not too large whole multiples of a power of two are exact. In general two runs do differ: whatever the rounding, three numbers 1, -1 and 2^-60 give 2^-60 in one order and something else (zero in doubles) in another.", "quantifier": "for all rounding modes of doubles, numbers of threads, distributions of cells, orders of steps, cells, quadratures and entries", "why_tests_cant": "the order of the steps of threads cannot be chosen in a test, and a test run compares two of its infinitely many outcomes", "anchors": ["dune/multiscale/msfem/coarse_scale_operator.cc:CoarseScaleOperator", "dune/multiscale/msfem/coarse_scale_assembler.cc:MsFemCodim0Matrix::assembleLocal", "dune/multiscale/msfem/coarse_scale_assembler.cc:MsFEMCodim0Integral::apply", "dune/multiscale/msfem/coarse_rhs_functional.cc:RhsCodim0Vector::assembleLocal", "dune/multiscale/msfem/coarse_rhs_functional.cc:RhsCodim0Integral::apply"]}
{"id": "C135", "title": "Without oversampling the multiscale solution is straight on the faces of coarse cells and misses flow across layers there", "statement": "At the outer nodes of its local grid the multiscale solution of a coarse cell, with all correctors, is the coarse function; along the axes it is straight there, whatever the diffusion. So on any three equally spaced nodes on a face its error against any function is somewhere at least a quarter of the second difference of this function. If the diffusion is layered, without source and with matching boundary values, the reference solution is the flow across the layers with the same flux in all of them, and the multiscale solution misses it on the faces of every coarse cell by at least a quarter of the flux times the difference of the resistances of two neighbouring packets of layers: for all coarse values, quadratures, boundary data and boundary correctors, however fine the local grids are. (Flow along the layers is exact, C132; in one dimension faces are points and the flow across layers is exact, C127.)", "quantifier": "for all dimensions, numbers and sizes of cells, layered diffusions, packets of layers, coarse data, numberings and results of the method, with exactly solved systems", "why_tests_cant": "a lower bound for the error of all runs; a test shows the error of one", "anchors": ["dune/multiscale/msfem/localproblems/localoperator.cc:LocalProblemOperator::assemble_all_local_rhs", "dune/multiscale/msfem/localproblems/localoperator.cc:LocalProblemOperator::apply_inverse", "dune/multiscale/msfem/msfem_solver.cc:Elliptic_MsFEM_Solver::identify_fine_scale_part", "dune/multiscale/msfem/coarse_scale_operator.cc:CoarseScaleOperator", "dune/multiscale/msfem/fem_solver.cc:Elliptic_FEM_Solver::apply"]}
{"id": "C136", "title": "The coarse matrix lies between multiples of the matrix of the Laplacian, however the diffusion oscillates inside the coarse cells", "statement": "Without oversampling, for every coarse function the energy in the assembled coarse matrix is at least the sum over the coarse cells of the smallest diffusion in the cell times the integral of the squared gradient, and at most four times the sum with the largest diffusion. The lower bound holds for all stored correctors that vanish on the outer nodes of the local grids, also for inexactly solved local problems and for diffusion that is not symmetric; the factor four comes from gradients of coarse functions being taken at the coordinates of the fine cells (for linear functions it is one, C119). With a layer of Dirichlet nodes this bounds all eigenvalues of the coarse system by the coarse grid and the smallest and largest diffusion only, and the error of an inexact coarse solution by its residual; none of the bounds depends on the fine grid or on how fast the diffusion changes.", "quantifier": "for all dimensions, numbers and sizes of coarse and fine cells, numberings, diffusions, coarse functions and results of the local problems", "why_tests_cant": "a statement about all vectors and all coefficients; a test evaluates the matrix for some", "anchors": ["dune/multiscale/msfem/coarse_scale_operator.cc:CoarseScaleOperator", "dune/multiscale/msfem/coarse_scale_assembler.cc:apply,assembleLocal", "dune/multiscale/msfem/localproblems/localoperator.cc:LocalProblemOperator::assemble_all_local_rhs", "dune/multiscale/msfem/localproblems/localoperator.cc:LocalProblemOperator::apply_inverse", "dune/multiscale/msfem/fem_solver.cc:Elliptic_FEM_Solver::apply"]}
{"id": "C137", "title": "Rounding and the order in which threads add change the coarse solution little", "statement": "Whatever the number of threads, the order in which they add and the way additions are rounded, the assembled coarse system has exactly one solution, and it is near the solution of the exact system, as long as rounding changes the matrix less than its smallest eigenvalue on free nodes allows. The sum of squares of the difference is at most n times the square of (error of the right hand side + error of the matrix times the sum of the absolute values of the solution), divided by the square of (smallest eigenvalue - n times error of the matrix). The solutions of two runs differ by at most twice that distance. Without oversampling the smallest eigenvalue is bounded by the coarse grid, the layer of Dirichlet nodes and the smallest diffusion, even if the local problems are not solved exactly.", "quantifier": "for all numbers of threads, distributions of cells, schedules, ways of rounding, systems with a positive bound on the energy, Dirichlet values and solutions", "why_tests_cant": "a test runs one schedule with one rounding mode and compares with a tolerance chosen by experience", "anchors": ["dune/multiscale/msfem/coarse_scale_operator.cc:CoarseScaleOperator", "dune/multiscale/msfem/coarse_scale_operator.cc:CoarseScaleOperator::apply_inverse", "dune/multiscale/msfem/coarse_scale_assembler.cc:apply,assembleLocal", "dune/multiscale/msfem/coarse_rhs_functional.cc:assembleLocal"]}
{"id": "C138", "title": "Correctors can make coarse functions stiffer instead of softer", "statement": "Divide every coarse cell of a plane box grid into two by two fine cells with one positive diffusion each, without oversampling. Without correctors a coarse function has the energy of the mean diffusion. The exact correctors change it in each coarse cell by (3t-l)(t+l)/m, where l and t are the energy products of the function of the middle node with the linear part of the coarse function and with the rest, and m is the energy of that function; with gradients at the right places the change would be -(t+l)^2/m and never positive. So on functions that are linear in the coarse cells, and for layers, correctors never raise the energy; for checkerboards they never lower it and raise it for every function that is not linear in some coarse cell. On a checkerboard a larger diffusion can even give a smaller energy in the coarse matrix.", "quantifier": "for all numbers and sizes of coarse cells, numberings, positive diffusions of the parts, coarse functions and quadrature orders with two or three points per direction", "why_tests_cant": "the sign of the change depends on diffusion and function; a test sees some of them and would take the computed value as reference", "anchors": ["dune/multiscale/msfem/coarse_scale_operator.cc:CoarseScaleOperator", "dune/multiscale/msfem/coarse_scale_assembler.cc:apply,assembleLocal", "dune/multiscale/msfem/localproblems/localoperator.cc:LocalProblemOperator::assemble_all_local_rhs", "dune/multiscale/msfem/localproblems/localoperator.cc:LocalProblemOperator::apply_inverse"]}
{"id": "C139", "title": "The multiscale solution can leave the range of its boundary values", "statement": "Divide every coarse cell of a plane box grid into two by two fine cells with one positive diffusion each, without oversampling. The entry of the coarse matrix for two opposite corners of a coarse cell is an explicit number; on squares it is positive exactly if 8(p+q+r+s)^2 < 3(q+r-p-s)^2 + 9(p-s)^2, where p and s are the diffusions of the parts at these two corners and q and r those of the others, and it is negative for layers, checkerboards with equal opposite parts and uniform cells. With gradients at the right places it would be negative on squares for all diffusions. A positive entry lets the solution leave the range of its boundary values: on three by three coarse squares, without source, with prescribed values 0 and 1 on the whole boundary and diffusions 1, 97 and 1000, the multiscale solution exists and is smaller than -1/5 at an inner coarse node. The reference solution on the fine grid of the same squares stays between 0 and 1 whatever values between 0 and 1 are prescribed, on the whole boundary or at any other nodes.", "quantifier": "for all numbers and sizes of coarse cells, numberings, positive diffusions of the parts and quadrature orders with two or three points per direction; the example for all results of the computation, all boundary values of the reference solution and all start vectors", "why_tests_cant": "that a method keeps or loses the range of its data is a statement about all diffusions and boundary values; tests with moderate contrast show no violation", "anchors": ["dune/multiscale/msfem/coarse_scale_operator.cc:CoarseScaleOperator", "dune/multiscale/msfem/coarse_scale_assembler.cc:apply,assembleLocal", "dune/multiscale/msfem/localproblems/localoperator.cc:LocalProblemOperator::assemble_all_local_rhs", "dune/multiscale/msfem/localproblems/localproblemsolver.cc:LocalProblemSolver::solve_all_on_single_cell"]}
