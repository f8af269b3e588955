# Design of the formal model of dune-multiscale

Everything is in `rocq/theories`, Coq 8.16.1, standard library only.
Each topic `X` has up to four files:

* `XModel.v`  – Gallina transcription of the code; every definition cites file and lines of `/repo`.
* `XSpec.v`   – the vocabulary used to *state* the properties; does not use model helpers beyond the
  observable operations.
* `XProofs.v` – lemmas.
* `XProps.v`  – the property theorems (`Theorem ... Proof. exact lemma. Qed.`), a concrete
  non-trivial instance beside each (`Example`), and `Print Assumptions`.

Paths below are relative to `/repo/dune/multiscale`.

## Plan per property

| Properties | Modelled | Proof method |
|---|---|---|
| C01–C07, C13, C14 | `common/df_io.*`, `msfem/localproblems/localsolutionmanager.cc`, the data flow of `msfem/msfem_solver.cc` as a heap machine: functions are heap cells, backends hold lists of addresses, handles alias them, exceptions and undefined behaviour are outcomes | invariant by induction over arbitrary operation sequences (ownership of addresses by cell key), then commutation / frame lemmas |
| C08–C10 | `DiscreteFunctionIO::get` as a labelled transition system with steps find / lock / emplace+assert / unlock for any number of threads | inductive invariant over all interleavings; reachability witnesses |
| C11, C12 | decimal printing, splitting at `_`, decimal parsing | structural induction on digits / strings |
| C15, C16, C17 | `localproblemsolver.cc`, `localoperator.cc` (slot layout), `identify_fine_scale_part` over an arbitrary commutative ring | list induction, ring laws |
| C18, C40–C45 | finite dimensional linear algebra over `R`: local systems, constraints, lifting, element matrices | finite sums, algebra, quadratic form argument |
| C19–C23 | `localgridlist.cc` per axis over `Q` (every double is rational; rounding: C126) | linear/non-linear arithmetic, induction over axes |
| C24–C28 | `localgridsearch.cc` as a state machine with persistent iterator, explicit fuel, throw and UB outcomes | loop invariant, reachability induction over call histories |
| C29–C31 | `heterogenous.cc` over arbitrary meshes (lists of elements = lists of nodes), values in `R` | induction over the visiting sequence |
| C32–C35 | `grid_creation.cc`, `mygridfactory.hh` with unsigned/int wrap around | arithmetic |
| C36–C39 | `error_calc.cc` as a function of the available solutions; CSV writing as strings | case analysis; string induction |
| C46–C49 | `synthetic.cc`, `er2007.*` as real functions | `derivable_pt_lim` calculus |
| C50–C54 | `spe10.cc`, `tarbert.cc`: index arithmetic over `Q`, file readers over token streams, small-step interleaving for Tarbert | floor arithmetic, list induction, invariants |
| C55–C61 | `random_permeability.hh` | integer division arithmetic, induction |
| C66 | the registry transition system of C08–C10 | progress and termination measure over all interleavings |
| C67 | `grid_creation.cc` (communicator handed to the two grids) | case analysis |
| C68 | `error_calc.cc:337-384` | induction over the walk |
| C69–C71, C73 | problem data of `synthetic.cc`, `er2007.*`, `spe10.cc`, `tarbert.cc`, `random.cc` | real / rational arithmetic |
| C72 | `random_permeability.hh` redistribution and evaluation | list induction over the layers |
| C74 | collective calls of failing and healthy processes, `main_init.cc` | induction over the number of collectives |
| C75, C76 | store machine of C01–C07 | invariants over arbitrary operation sequences |
| C77, C78 | boundary settings of the problems as finite data plus the selection from the global configuration | case analysis; constrained nodes of a box grid characterised for all sizes |
| C79, C80 | `apply` of the multiscale solver as composition of the store machine, reconstruction and proxy | composition with C13/C15; C80 from unit rows |
| C81 | local systems of C18 with the constraint sets of C78 | linear algebra (uniqueness), counterexamples for SPE10/Tarbert |
| C82–C84 | the linear systems of C18, C40–C43 | quadratic expansion; minimiser iff stationary; linearity |
| C85 | sessions of configuration changes, containers and grid creations | induction over operation sequences; composition of C20 and C33 |
| C86 | the visualisation loops over coarse and fine cells | the pictures as functions, compared with the strict covering relation |
| C87 | construction of file names | injectivity of the names, digits of decimal numbers |
| C88 | errors as square roots of quadratures | Cauchy-Schwarz and Minkowski for weighted sums, on the entries of C36 |
| C89 | the body of the comparison tests with `std::map::operator[]` | case analysis; composition with the report model of C36 |
| C90 | the whole grid walk: matrix, force functional with boundary correctors, Neumann functional; then constraints and solve | linearity of the sums; unit test functions for the converse |
| C91 | the same model | the difference of two results has zero energy; a sum of non-negative terms is zero |
| C92 | the same model | the constant as test function |
| C93 | the reference system: operator, functionals, lifting, constraints, solve | as C90, the fine elements being cells without correctors |
| C94 | C90 and C93 together | difference of the two balances; Pythagoras; concrete two-element grid for the failure |
| C95 | run of C79 with exact local systems (`exact_cell`) and the right hand side of the Dirichlet corrector | test the three kinds of local systems with a function vanishing on the constrained nodes, add up |
| C96 | the functional of `localoperator.cc:52,79` as face quadratures over all intersections | sum over sides, pairing of inner sides; with C95 for the sign; concrete grids |
| C97 | `ReportModel.v`: the system calls of every process on one file, any schedule | invariant: the process that opened last has its part in the file and nothing sticks out; byte-wise invariant for different texts |
| C98 | the lines of `print` beside the entries of `ErrorModel.v` | case analysis over the available comparisons; injectivity of the label table; extended reals for the quotients |
| C99 | `DiskModel.v`: registry of disk backends and their counters | simulation: the registry shows the history since the last clearing |
| C100, C101 | `SampleModel.v`: covariance array, transform, noise and inverse transform of `random_permeability.hh`, on all processes | finite sums of cosines (orthogonality of characters by induction over the dimension), linearity of expected values |
| C102 | `SolverModel.v`: choice of the local solver and both branches of `apply_inverse`, external solvers arbitrary | induction over the slots of a cell, then C79 and the assembly of the coarse system |
| C103 | `PrintModel.v`: `print` as a sequence of effects (text, pictures, flow, file) with exceptions at every external call | case analysis over the stages; erasing pictures commutes with sequencing; agreement with C36, C38, C98 |
| C104 | `MeshModel.v`: elements and node numbers of the tensor product fine grid, the projection of `ProjectionModel.v` on it, the projected constant of `test/projection.cc` | counting incidences by induction over the directions; the L2 product of multilinear functions factorises; lower bound by expanding the local products on inner cells |
| C105 | `TimeModel.v`: both programs as statements with timing calls, scoped sections, try blocks and external calls, executed for any outcome of the calls | the list of all runs of a statement is proved complete by induction over statements; each claim is a check of that list, reflected into the statement about effects |
| C106 | `GtestModel.v`: every check of the grid test as a boolean function of the cells a process stores, structured grids as products of intervals | containment of fine in coarse cells reduces to divisibility per direction by induction over the directions; the search part follows from the search theorems (C24-C27) |
| C107 | orders requested per stage; Gauss product rules on cubes | integral defined by iterated antiderivatives, unique by the mean value theorem; rule on monomials as product of line rules, closure of polynomials under sums and products; concrete square for the failures |
| C108 | box grids of any dimension with multilinear functions, on top of the local problems and the coarse system | sums over cells and points by induction on the directions, telescoping in the direction of the derivative; definiteness from two points per direction; weak forms of both solvers compared cell by cell |
| C109 | grid cells with owner and holders; the walks of both solvers over the cells of one process; the parallel solver as a parameter with two readings (rows from owners, sum of parts) | values of the walks as sums over cells; exchange of the sums over processes and cells; two concrete lines of cells on which the wrong reading gives another solution |
| C110 | the systems of LinModel, SystemModel and FemModel with box grids of C108 and varying diffusion | a system with more unknowns than equations has a nonzero solution (elimination by induction), hence uniqueness and existence are equivalent; functions without gradient at two points per direction have equal values along all edges (induction on the dimension), hence are constant; the correctors cancel when differences are added up along an edge of the coarse cell |
| C111 | the local and coarse systems of LinModel and SystemModel on box grids with arbitrary local grids around each coarse cell (LayerSpec) | a coarse function of the layer alone is linear along one axis; shifted by its value on the constrained side it vanishes there, so its exact correction is its negative (C81) and the gradient the assembler forms is zero although it is taken at local coordinates; the matrix form of C110 then gives the kernel |
| C112 | local solves of all cells and the coarse solve together (WholeSpec) | local systems are definite (C110); the coarse system depends on the local functions at nodes only (weak form, C90); choice over the finite list of cells; then C110 without oversampling and C111 |
| C113 | the method as a whole (WholeSpec), the reference solver (FemModel) and the Neumann corrector's vector (FluxModel) in two systems of units (UnitsSpec) | edges, gradients, volumes and faces scale by powers of L (induction over the dimensions); every equation of the weak form gets the same nonzero factor |
| C114 | every int operation of init, setRange, redistribute and evaluation with range check (IntModel) | bounds by powers of two; refinement to the unbounded model of C55-C58 (RandModel) up to the limit, undefined above |
| C115 | local, coarse and reference systems (LinModel, SystemModel, FemModel, FluxModel) for two grids with corresponding cells (OrderSpec) | sums over corresponding lists and renumbered indices are equal; weak forms (C90, C93) with test functions moved by the renumbering |
| C116 | reference problem (FemModel) on box grids (PatchSpec, SolveSpec), shape condition in MaxSpec | the form on one box splits direction by direction into a pairing whose entries between different corners are not positive under the condition; the positive part of the difference is then a test function with energy at most zero; explicit middle row of 2 x 2 boxes for necessity |
| C117 | local problems (LinModel) on box patches (LayerSpec) with the corrected function of MaxSpec | coarse function plus stored corrections solves the local problem without right hand side; same principle; explicit local grid with a negative value as counterexample |
| C118 | flux, its derivative and the prescribed flux of thirteen.cc as functions of real numbers (ThirteenModel), regions as closed boxes (ThirteenSpec) | case distinction over all comparisons, bounds of sine and cosine |
| C119 | assembled coarse matrix (CoarseModel, SystemModel) with patches (LayerSpec), means over the quadrature points (BoundsSpec) | lower bound from the square of gradient minus inverse times flux and the vanishing mean gradient of functions that are zero on the outer nodes; upper bound and monotonicity from the minimality of the corrected function; quadratures agree by exactness on polynomials |
| C120 | linear systems (LinModel, FemModel, SystemModel) with an arbitrary returned vector; residual and lower bound of the matrix (InexactSpec) | Cauchy-Schwarz; discrete Poincare inequality for multilinear functions by induction over the directions; orthogonality of the corrections |
| C121 | two runs of the models FemModel, LinModel, SystemModel with different data; relative distance of two diffusions (PerturbSpec) | difference of two symmetric forms bounded by Cauchy-Schwarz in the shape 2ab <= a^2/delta + delta b^2; minimality of the corrections for the coarse matrix |
| C122 | loop over the own cells of a process, messages and calls of the local solver (CountModel), creation of the coarse grid (GridModel) | induction over the directions: sizes of products of ranges, cells away from the boundary; C35 for the check |
| C123 | shipped configurations of the tests as lines, their expansion, what the tests read (SuiteModel) with the tests of C89, C104, C106 | general theorem on the expansion; evaluation of the finite data, then the theorems of C27, C36, C89, C104 and C106 |
| C124 | steps of the threads of the coarse assembly, schedules, storages, locked and unlocked additions (SmpModel) | invariant over all schedules: value plus what is still to be added is constant; explicit schedules for the losses |
| C125 | overlap, process partition, look-ups of SPE10 and Tarbert, location in the random field with every operation rounded (RoundModel) | any monotone rounding that keeps 53-bit numbers, relative error 2^-52 derived; IEEE rounding to nearest defined, shown to be one and computed with for the witnesses |
| C126 | local grids with every operation rounded (RoundModel) | error of the shifted corners against the distance to the boundary; computed counterexample where the layers end on it |
| C127 | coarse assembly (CoarseModel, SystemModel) and reference solver (FemModel) on an interval | closed form of the corrected functions: constant flux per coarse cell; both weak forms tested with the same function; difference by telescoping |
| C128 | local grids with layers on an interval, coarse assembly restricted to the cells inside (LayerSpec patch, CoarseModel, SystemModel) | constant flux of the corrected functions on the local grid; sums over the window of the coarse cell; harmonic means against each other |
| C129 | coarse assembly and right hand side (CoarseModel, SystemModel) against the finite element model (FemModel) on the coarse grid | exchange of the sums over quadrature points and local elements; bilinearity in the diffusion; multilinear functions restricted to local grids (C108) |
| C130 | containment tests of covers, covers_strict and of the search with a rounding after every operation (FindModel), on top of RoundModel and SearchModel | error bounds for coordinates; monotonicity of rounding; exact scaling by powers of two; concrete double precision computation for the failure |
| C131 | nothing new; C127 with the equation of the reference solution inside a coarse cell (ConvSpec) | the multiscale flow is constant in a coarse cell, the reference flow nearly; differences at coarse nodes by C127; bounds for the misplaced source |
| C132 | nothing new; the systems of LinModel, SystemModel and FemModel on box grids (PatchSpec, LayerSpec) with position dependent diffusion (StrataSpec) | derivatives of a function vanishing on the outer nodes cancel along every column of cells, also weighted by something that does not change along the column; then uniqueness (C110) |
| C133 | nothing new; two results of the interval of C127 with different data (MonoSpec) | test the difference with its negative part; the load of the test function is split into source times value and end fluxes; the failing case is computed |
| C134 | FlSmpModel: the threads of SmpModel with rounded additions | every run has a list of additions labelled by threads, per thread it is the program; error of a rounded sum by induction, for any permutation; the failing case is computed for every rounding |
| C135 | nothing new; local_problem of LinModel, results of WholeSpec, multiscale function of StrataSpec, reference solution of FemModel on box grids | constrained entries of local solutions are zero; multilinear functions are linear along axes; the flux of the flow across layers is constant, so its test integrals cancel along columns (C132); uniqueness (C110) |
| C136 | nothing new; assembled matrix of CoarseModel on patches (LayerSpec), local problems of LinModel, reference matrix of FemModel for diffusion one | products of a field that is the same in all fine cells with gradients of functions vanishing outside cancel along columns (C132); energy of the corrector is at most that of the coarse function by orthogonality; the rule on all fine cells equals the rule on the coarse cell for products of multilinear functions (induction on the dimension); C120 for the node values |
| C137 | nothing new; machine of FlSmpModel, coarse system of LinModel and CoarseModel | C134 bounds the error of each entry; the perturbed matrix keeps a positive energy (Cauchy-Schwarz), so it is injective and has a solution; the difference of the solutions is tested with itself; lower bound of the energy from C136 |
| C138 | nothing new; assembled matrix of CoarseModel on patches, local problems of LinModel | the rule is exact for products of gradients of bilinear functions, so energies are explicit in the node values; the corrector has one free value, given by the orthogonality of C81; sum over the coarse cells |
| C139 | nothing new; assembled matrix of CoarseModel on patches, local problems of LinModel, coarse system of SystemModel | energy of C138 for sums and differences of two coarse functions gives the entries; the example by solving four equations with known signs; the reference solution by C116 |
| C62–C65 | `selector.cc`, `outputparameter.cc`, `main_init.cc`, `src/msfem.cc` | case analysis, strings |

Not expressible: floating point rounding except where cell numbers are computed (C125, C126; other
values are exact), FFTW/MPI internals, the DUNE grid
implementation, linear solver convergence. They enter as explicit parameters of the theorems.

## Trusted base

1. Coq's kernel (8.16.1), checked again with `coqchk` by `vcheck`.
2. The axioms of Coq's standard library listed per theorem at the end of this file.  Only
   theorems about real numbers use any: the constructive/classical reals
   (`ClassicalDedekindReals.sig_forall_dec`, `sig_not_dec`), `functional_extensionality_dep` and,
   through the library's analysis files, `Classical_Prop.classic`.
   There are no axioms, parameters, admitted proofs, functors or plugins of our own.
   `coqchk` additionally reports the parameters of `Coq.ssr.ssrunder` (standard library, loaded by
   dependencies, used by no theorem).
3. That the model files say what the code does.  Every definition cites the lines it models.
   The following parts of the code are modelled, and what is simplified in each.

### Modelled

| Model file | Code | Simplifications and external assumptions |
|---|---|---|
| `StorageModel.v` | `common/df_io.hh:89-182`, `df_io.cc:32-43`, `localsolutionmanager.cc:14-58` | A discrete function is a heap cell with a coefficient vector. Assigning/adding functions copies/adds coefficients; a new function is zero. A backend destroyed by `clear` is marked dead and every use is undefined behaviour; a save or load of a handle with zero functions on a dead backend is counted as undefined too, although the code touches nothing. The functions are never freed (`shared_ptr`). |
| `MsfemModel.v` | `localproblemsolver.cc:61-149`, `localoperator.cc:44-81,113-169`, `msfem_solver.cc:43-119` | Integration and solution of the local systems are parameters of a coarse cell. |
| `RegistryModel.v` | `df_io.hh:149-160` | Steps of `get` interleave arbitrarily; a read overlapping an insertion is visible as a racy state and continues with the map's value at its end. `std::mutex` excludes and is fair enough to be acquired when free. |
| `NamesModel.v` | `localsolutionmanager.cc:24-26`, `df_io.cc:5-18` | `boost::format("%d")`, `tokenize` and `stoul` as described in the file header. |
| `LocalGridModel.v` | `localgridlist.cc:27-125`, `mygridfactory.hh:28-37,66-81` | Exact rationals; `checkInside` exact. |
| `SearchModel.v` | `localgridsearch.cc:10-91`, `localsolution_proxy.cc:11-50` | Per-grid search, geometry, iteration order and `view.size(0)` are parameters. `move_if` moves non-null answers. |
| `ProjectionModel.v` | `heterogenous.cc:10-96` | One degree of freedom per node; `LocalDoFVector::set` overwrites. |
| `GridModel.v` | `grid_creation.cc:24-119`, `mygridfactory.hh:59-82` | Exact rationals; conversion to `unsigned`/`int` wraps. A grid is the data given to its constructor; `overlapSize` is the overlap width handed to it. |
| `ErrorModel.v` | `error_calc.cc:86-384` | Norms and differences are parameters; console text, VTK files and timings left out; files open. |
| `CoarseModel.v` | `coarse_scale_assembler.cc:35-180`, `coarse_rhs_functional.cc:27-164`, `coarse_scale_operator.cc:72-78` | Exact reals, arbitrary bases and arbitrary quadratures, one for the matrix and one for the right hand side (the code requests different orders). The Neumann functional of the coarse right hand side is added in `SystemModel.v`. The external system assembler visits each entity once and forgets its functors after the walk. |
| `LinModel.v` | `coarse_scale_operator.cc:79-138`, `fem_solver.cc:43-131`, `localoperator.cc:113-195`, `diffusion_evaluation.hh:99-243` | `DirichletConstraints(set_row = true)` makes unit rows and zero right hand side entries; `DirichletProjection` sets constrained entries only; copying a discrete function copies its vector; a linear solver is a relation. Local matrix and local right hand sides have separate arbitrary quadratures (the order of the matrix is chosen by GDT, that of the right hand sides by `diffusion_evaluation.hh:79-85,195-201`). |
| `ExactModel.v` | `synthetic.cc:17-207`, `er2007.hh:71-92`, `er2007.cc:43-65` | `M_PI`, `cos`, `sin`, `exp`, `pow` are the mathematical functions. |
| `SpeModel.v`, `TarModel.v` | `spe10.cc:17-214`, `tarbert.cc:29-186`, `tarbert.hh:80-81` | Exact rationals; a file is a list of words, number extraction follows C++11; `FloatCmp::eq` is a parameter; the racing members of Tarbert are sequentially consistent. |
| `RandModel.v` | `random_permeability.hh`, `random.cc` | FFTW and the normal distribution are parameters; FFTW gives rank `r` the rows `[r·n0,(r+1)·n0)`; `MPI_Get` copies out of the window; no integer overflow; `log2` exact. |
| `AppModel.v` | `selector.cc`, `outputparameter.cc`, `main_init.cc`, `src/msfem.cc`, `src/cgfem.cc` | `abort_all_mpi_processes` and `test_create_directory` are parameters / events; the kinds of collective calls are not compared. |
| `BoundaryModel.v` | `boundary_settings`, `boundaryInfo`, `subBoundaryInfo` of all problems | normals are axis directions; parsed settings; `NormalBased`, `AllDirichlet`, `DirichletConstraints` as documented. |
| `SolutionModel.v` | `msfem_solver.cc:121-143`, `localsolution_proxy.cc:11-22,33-50` | coarse solve and Lagrange prolongation are parameters; visualisation left out. |
| `ConfModel.v` | `selector.cc:105-117`, `grid_creation.cc:30-47,92-95`, `localgridlist.cc:32-43`, `algorithm.cc:53-67` | `Configuration` is a partial map; parsing and validation left out. |
| `VisModel.v` | `src/thread_vis.cc:25-42,86-154` | VTK writing left out; fine cells and the strict covering test are parameters. |
| `FilesModel.v` | `localsolution_proxy.cc:57-68`, `msfem_solver.cc:107-112`, `outputparameter.cc:61-64` | names only; `boost::format` as decimal printing. |
| `CompareModel.v` | `error_calc.cc:38-45,258-305`, `compare_msfem.cc`, `compare_cgfem.cc` | exact reals; functions given at quadrature points; `FloatCmp::eq` is a parameter. |
| `SystemModel.v` | `coarse_scale_operator.cc:36-138` | exact reals; GDT's face functional is the face quadrature of flux times basis function on Neumann intersections. |
| `FemModel.v` | `fem_solver.cc:49-131` | exact reals; GDT's operator and functionals are the element and face quadratures (one for the operator, one for the force), the filter passes Neumann intersections only. |
| `FluxModel.v` | `localoperator.cc:51-52,77-81,128-134,155-157` | exact reals; L2Face is the face quadrature; without a filter the walk visits every intersection of every element. |
| `ReportModel.v` | `error_calc.cc:142,256-311` (text), `323-333` (file, system calls) | labels and values, no number formatting; POSIX truncate/write semantics; each process cuts its text as it likes. |
| `DiskModel.v` | `df_io.hh:44-81,152-163`, `df_io.cc:5-9,26-43` | one thread; paths handed to test_create_directory are recorded. |
| `SampleModel.v` | `random_permeability.hh:103-196,296-319`, `random.hh:48-84` | exact reals; FFTW by its documented result; random engines as given numbers. |
| `SolverModel.v` | `localoperator.cc:93-111,164-195` | external solvers as arbitrary functions with the argument order of their other uses; options other than the type left out. |
| `PrintModel.v` | `error_calc.cc:52-84,138-335` | one process; a picture is its prefix and function; calls succeed or throw. |
| `MeshModel.v` | `grid_creation.cc:83-119`, `heterogenous.cc:10-96`, `test/projection.cc:34-50` | one process, exact rationals; the point search finds every point. |
| `TimeModel.v` | `src/msfem.cc:17-51`, `src/cgfem.cc:16-40`, `msfem/algorithm.cc:47-79`, `fem/algorithm.cc:25-44`, timing calls of `msfem_solver.cc`, `coarse_scale_operator.cc`, `fem_solver.cc`, `localproblemsolver.cc`, `localgridlist.cc`, `localsolution_proxy.cc`, `error_calc.cc`, `random.cc`, `main_init.cc:23-88` | one process; stretches of code between timing calls are external calls. |
| `GtestModel.v` | `test/grid_creation.cc:15-179` | exact rationals, axis parallel boxes; check_lagrange_points (42-55) not modelled. |
| `QuadModel.v` | `coarse_scale_assembler.cc:48-51`, `coarse_rhs_functional.cc:40-43`, `diffusion_evaluation.hh:79-85,194-199`, `order()` of all diffusions, `config.h.cmake:61` | Dune's rule for a cube and an order is the product of the smallest Gauss rule that is exact up to the order (up to three points given concretely); basis functions report order one; the order of GDT's elliptic operator is a parameter. |
| `ParModel.v` | `coarse_scale_operator.cc:36-91,99-138`, `fem_solver.cc:49-131` on one of several processes, `la_backend.hh:31-32`, `traits.hh:96-97` | common numbering of the unknowns, constrained unknowns known everywhere; distribution of the grid and the parallel solver external. |
| `IntModel.v` | `random_permeability.hh:101-197,241-292,327-368` integer computations | 32 bit int, overflow as undefined outcome; rows per process from the external library. |
| `ThirteenModel.v` | `thirteen.cc:36-39,52-235` | exact reals; `floor`, `sin`, `cos` mathematical; the file is not part of any target. |
| `CountModel.v` | `msfem/localproblems/localproblemsolver.cc` 61-163 (which cells and indices are solved for, printed numbers) | cells are multi-indices; own and stored cells of a process as in a structured grid with overlap; timing omitted |
| `SuiteModel.v` | `test/*.mini`, read by `common/grid_creation.cc` 30-46, `test/compare_msfem.cc` 20-21, `test/compare_cgfem.cc` 20-21, `test/error_calc_check.cc` 19-46 | numbers parsed already; expansion program (external) reduced to the features used; validator left out |
| `SmpModel.v` | `msfem/coarse_scale_operator.cc` 53-78, `msfem/coarse_scale_assembler.cc` 127-180, `msfem/coarse_rhs_functional.cc` 120-164 by several threads | element matrices computed in one step; `add_to_entry` and choice of the storages external (both readings); Neumann functional and Dirichlet projection left out |
| `RoundModel.v` | `common/grid_creation.cc` 45, `problems/spe10.cc` 161, `problems/tarbert.cc` 109, 136-137, `problems/random_permeability.hh` 209-221, 332-340, `msfem/localproblems/localgridlist.cc` 59-70 with rounding | exponents unbounded (no overflow, underflow, infinities); `std::log2` a parameter |
| `FindModel.v` | `msfem/localproblems/localgridlist.cc` 119-125, `localgridlist.hh` 73-85, `localgridsearch.cc` 57-68 with rounding | coordinates of equidistant nodes, centres, the map to the reference cube and the tolerance 64 * 2^-52 of the reference element are external and written down as usual for such grids |
| `FlSmpModel.v` | `msfem/coarse_scale_operator.cc` 54-78, `coarse_scale_assembler.cc` 87-108, 127-180, `coarse_rhs_functional.cc` 83-109, 120-164 with rounding | the terms of the quadrature are given; additions locked; no assertions |

### Not modelled

Floating point rounding outside `RoundModel.v`, `FindModel.v` and `FlSmpModel.v`; the DUNE grid, GDT, XT, FFTW, MPI and TBB libraries (only the facts above
are used); VTK and log output; measured times; the Python and CMake files; the CI scripts.

Of `problems/thirteen.cc` the constructor and the mesh file name are not modelled; `problems/selector.cc` includes
the header but offers no problem of that name, and no target compiles the source file.

## How the theorems were tested

- Wrong programs: definitions of the model were edited in scratch copies, alone and in combinations. `seeded/LOG.jsonl`
  has one line per attempt, with the theorems that failed or were tightened.
- Needless premises: in scratch copies about 2080 premises of the theorems in the `*Props.v` files (those a script could
  separate from the statement) and about 200 parts of premises joined by "and" were replaced by `True` one at a time, and
  the same proof was run again. Where it still went through, the premise was dropped. This finds premises the proofs do not
  use; a premise that a proof uses may still be avoidable. Kept on purpose: `eps <> 0` in C48 and C70, because the code
  divides by it while division in Coq is total.

## Assumptions of each theorem (`Print Assumptions`)

The same output is produced by the `Print Assumptions` command after each theorem.

### Closed under the global context (no axioms)

* `C01_saved_solutions_come_back`
* `C02_cells_do_not_interfere`
* `C03_fresh_read_returns_stored`, `C03_fresh_reads_are_harmless`
* `C04_load_reports_missing_functions`, `C04_load_shows_own_cell`
* `C05_load_after_own_save_destroys`, `C05_repeated_load_destroys`
* `C06_only_first_save_is_read`
* `C07_next_run_behaves_as_first`, `C07_old_handles_stay_unusable`, `C07_run_leaves_store_empty`
* `C08_one_object_per_key`
* `C09_abort_exactly_after_foreign_insert`, `C09_no_abort_on_disjoint_keys`, `C09_no_abort_without_assertions`, `C09_same_first_key_can_abort`
* `C102_direct_solver_solves`, `C102_other_solvers_change_nothing`, `C102_other_solvers_give_zero_correctors`, `C102_solution_is_the_coarse_function`, `C103_agrees_with_the_report`, `C103_failed_coarse_picture`, `C103_failed_late_picture`, `C103_file_exactly_on_return`, `C103_flow_logged_once`, `C103_pictures`, `C103_pictures_change_nothing`, `C103_returned_entries`, `C103_text_of_a_failed_call`, `C104_constant_norm`, `C104_error_floor`, `C104_perfect_solution`, `C104_projection_test`, `C104_value_by_position`, `C105_computations_made`, `C105_failed_run`, `C105_left_running`, `C105_profile_complete`, `C105_restarted`, `C105_success`, `C105_timing_calls_lawful`, `C106_corner_check`, `C106_corner_check_ignores_nesting`, `C106_dimension_check`, `C106_lagrange_check_says_nothing`, `C106_match_test`, `C106_search_test`, `C106_several_processes`, `C106_whole_test`, `C107_orders_requested`, `C10_insertions_exclude_each_other`, `C10_unsynchronised_read_reachable`
* `C114_displacements_need_room_for_the_next`, `C114_displacements_up_to_the_limit_are_right`, `C114_indices_up_to_the_limit_are_right`, `C114_larger_fields_are_undefined`, `C114_sizes_up_to_the_limit_are_right`, `C11_different_cells_different_storage`, `C11_key_of_cell_name`
* `C122_number_of_systems`, `C122_one_process`, `C122_partition_check_never_fires`, `C122_several_processes`, `C122_stored_cells`, `C122_when_the_number_is_right`, `C123_compared_runs`, `C123_error_test`, `C123_error_test_with_comparison`, `C123_grid_test`, `C123_grids_of_the_setup`, `C123_multiscale_bounds_under_wrong_keys`, `C123_one_configuration_per_setup`, `C123_projection_test_fails`, `C125_double_precision_is_covered`, `C125_overlap_is_exact`, `C125_overlap_of_fractions`, `C125_partition_is_exact`, `C125_random_location_is_exact`, `C125_relative_error`, `C125_spe10_cell_is_near`, `C125_spe10_cell_is_right`, `C125_spe10_neighbour_is_found`, `C125_tarbert_interval_in_range`, `C125_tarbert_interval_is_near`, `C125_tarbert_neighbour_is_found`, `C126_binary_coordinates_are_exact`, `C126_corners_are_near`, `C126_missing_layers`, `C126_number_of_cells`, `C126_touching_boundary_goes_wrong`, `C12_key_depends_on_last_part_only`, `C12_key_is_the_number`, `C12_last_part_exists_once`, `C12_rejected_exactly_without_number`, `C12_same_storage_exactly_same_number`
* `C130_covered_cells`, `C130_double_precision_scales`, `C130_few_coarse_cells`, `C130_no_other_cell`, `C130_powers_of_two`, `C130_search_fails`, `C130_search_finds_the_cell`, `C130_touching_covers_too_much`, `C134_accuracy`, `C134_exact`, `C134_one_thread_is_reproducible`, `C134_order_matters`, `C134_reproducible_entries`, `C134_runs_differ_by_rounding`, `C13_reconstruction_uses_solver_functions`
* `C14_parallel_solves_do_not_depend_on_schedule`
* `C15_slots_after_local_solves`, `C15_slots_used_in_reconstruction`
* `C16_interior_correction_is_linear`
* `C17_cut_does_not_depend_on_order`, `C17_cut_keeps_exactly_the_coarse_cell`
* `C19_patch_contains_cell_and_stays_in_domain`
* `C20_few_layers_always_fit`, `C20_fine_width_exactly_when_layers_fit`, `C20_otherwise_coarser`
* `C21_covered_boxes`, `C21_covered_cells_are_the_parts`, `C21_local_nodes_are_fine_nodes`
* `C22_fine_width_recognises_some_cell`, `C22_stretched_mesh_can_miss_the_cell`
* `C23_one_grid_per_interior_cell`, `C23_other_cells_are_refused`
* `C24_answers_are_collected_without_gaps`, `C24_remembered_cell_contains_all_points`, `C24_results_belong_to_remembered_cell`
* `C25_first_cell_in_cyclic_order`, `C25_search_succeeds`
* `C26_failure_is_reported`, `C26_search_always_terminates`, `C26_unusable_after_any_failure`
* `C27_single_cell_never_searchable`
* `C28_every_containing_cell_can_answer`, `C28_proxy_outcomes`, `C28_proxy_uses_the_answering_cell`, `C28_unique_cell_always_answers`
* `C29_accumulation_reproduces`, `C29_reproduced_iff`, `C29_value_over_multiplicity`
* `C30_interleaving_irrelevant`, `C30_missing_point_always_throws`, `C30_order_irrelevant`
* `C31_assertion_iff`, `C31_multiplicity_counts_incidences`
* `C32_coarse_overlap_defined`, `C32_coarse_overlap_smallest`
* `C33_coarse_grid_as_configured`, `C33_nested_iff_divides`, `C33_whole_numbers_refine`
* `C34_coarse_grid_rejected_iff`, `C34_created_iff_uniform`
* `C35_check_fires_for_both_grids_iff`, `C35_check_fires_iff`, `C35_exact_without_overlap`, `C35_missed_with_overlap`
* `C36_entries_exact`, `C36_entries_of_the_drivers`, `C36_no_report_without_projection`
* `C37_columns_line_up`, `C37_keys_are_plain`
* `C38_coarse_failure`, `C38_fem_run_loses_fine_entries`, `C38_fine_failure`, `C38_other_exceptions_escape`
* `C39_documented_l2_names`, `C39_key_suffixes`
* `C42_coarse_outcomes`, `C42_coarse_outcomes_release`, `C42_coarse_solution_is_finite`, `C42_local_outcomes`, `C42_reference_outcomes`, `C42_statistics_are_ignored`
* `C47_synthetic_kinds_of_boundary`
* `C50_cell_of_a_point_is_unique`, `C50_different_cells_use_different_entries`, `C50_spe10_reads_the_containing_cell`, `C50_table_and_box`
* `C51_spe10_default_limits_keep_the_values`, `C51_spe10_file_values_reach_evaluate`, `C51_spe10_missing_file_or_bad_limits`, `C51_spe10_reading`, `C51_spe10_values_in_requested_range`
* `C52_tarbert_accesses_stay_inside_the_table`, `C52_tarbert_reads_the_containing_cell`, `C52_tarbert_table_and_box`, `C52_tarbert_upper_boundaries_read_another_cell`, `C52_tarbert_without_data`
* `C53_evaluations_that_do_not_overlap_are_correct`, `C53_every_interleaving_mixes_cells`, `C53_interleaving_returns_the_other_point`, `C53_single_thread_completes`
* `C54_tarbert_destruction`, `C54_tarbert_last_value`, `C54_tarbert_missing_file`, `C54_tarbert_reading`, `C54_tarbert_unreadable_word_overruns`
* `C55_partition_multiplies_up`
* `C56_positions_are_a_bijection`
* `C57_blocks_cover_the_grid`, `C57_other_process_numbers_are_undefined`, `C57_range_is_block_with_overlap`, `C57_ranges_without_overlap_meet_in_end_points`, `C57_too_many_processes_leave_a_gap`
* `C58_ranges_are_proper`, `C58_redistribution_2d`, `C58_redistribution_3d`
* `C59_evaluation_interpolates_2d`, `C59_evaluation_interpolates_3d`, `C59_interpolation_2d`, `C59_interpolation_3d`, `C59_never_below_the_minimum`, `C59_outside_the_range_it_throws`
* `C60_out_of_bounds_2d`, `C60_out_of_bounds_3d`, `C60_right_boundary_reads_past_the_end`
* `C61_before_create_the_field_is_minimal`, `C61_create_alternates`, `C61_every_field_is_used_twice`
* `C62_failing_initialisation_leaks_nothing`, `C62_failing_member_leaks_nothing`, `C62_known_problem`, `C62_unknown_problem`
* `C63_different_pairs_do_not_collide`, `C63_directory_is_fixed`, `C63_files_lie_in_the_directory`, `C63_names_do_not_collide`
* `C64_memory_report`, `C64_only_rank_zero_writes`
* `C65_all_statuses`, `C65_exit_status`, `C65_zero_means_finished`
* `C66_every_lookup_completes`, `C66_lookups_never_deadlock`, `C66_lookups_terminate`
* `C67_fine_grid_uses_default_communicator`
* `C68_flow_of_a_function`, `C68_flow_of_bilinear_functions`, `C68_process_without_cells`, `C68_reported_flow_is_zero`
* `C71_spe10_data`, `C71_tarbert_data_2d_vanish`, `C71_tarbert_data_3d`
* `C72_every_point_is_evaluated_by_some_rank_2d`, `C72_every_point_is_evaluated_by_some_rank_3d`, `C72_value_does_not_depend_on_the_rank_2d`, `C72_value_does_not_depend_on_the_rank_3d`
* `C73_random_boundary_data`, `C73_random_diffusion_is_elliptic`, `C73_segments`
* `C74_abort_needs_the_other_processes`
* `C75_handles_of_a_cell_use_one_space`, `C75_new_handle_shows_zero_functions`
* `C76_drop_keeps_stored_functions`, `C76_later_writes_reach_readers`, `C76_stored_functions_are_those_of_the_handle`
* `C77_agrees_with_problem_data`, `C77_construction_fails_iff`, `C77_default_boundary_conditions`, `C77_settings_come_from_the_global_configuration`
* `C78_boundary_nodes_left_free`, `C78_local_grids_constrained_all_around`, `C78_local_grids_constrained_on_one_side`
* `C79_ranks_without_or_with_foreign_cells`, `C79_solution_is_coarse_plus_correction`
* `C80_constrained_nodes_show_the_coarse_function`, `C80_neighbouring_cells_agree`
* `C85_grids_follow_the_configuration_at_creation`, `C85_local_and_fine_mesh_agree_iff`, `C85_local_refinement_follows_the_global_configuration`, `C85_msfem_program_uses_one_mesh_width`
* `C86_every_fine_cell_in_one_picture`, `C86_outcomes`, `C86_pictures_show_exactly_the_coarse_cells`
* `C87_correction_name`, `C87_corrections_have_their_own_files`, `C87_listing_is_in_order`, `C87_one_file_per_part`, `C87_part_name`, `C87_parts_and_corrections_differ`, `C87_parts_have_their_own_files`
* `C97_equal_reports_give_the_report`, `C97_every_byte_comes_from_a_report`
* `C98_no_label_twice`, `C98_text_and_file_agree`
* `C99_append_is_refused`, `C99_nothing_is_ever_stored`, `C99_paths_are_different`

### `ClassicalDedekindReals.sig_forall_dec`

* `C124_always_ends`
* `C22_uncovered_cell_assembles_nothing`
* `C43_assembly_defined_iff`
* `C90_assembled_iff`

### `ClassicalDedekindReals.sig_forall_dec`, `FunctionalExtensionality.functional_extensionality_dep`

* `C102_coarse_system_has_no_correctors`, `C108_is_the_coarse_finite_element_method`, `C108_linear_solutions_are_reproduced`, `C108_multilinear_solutions_are_reproduced`, `C109_added_reference_parts_repeat_the_overlap`, `C109_border_rows_lack_energy`, `C109_coarse_parts_add_up`, `C109_inner_rows_are_complete`, `C109_one_layer_of_overlap_suffices`, `C109_owner_rows_balance_owned_cells`, `C109_reference_rows_are_complete`, `C109_rows_of_others_are_empty`
* `C110_coarse_solution_exists_once_iff`, `C110_coarse_solution_exists_once_without_oversampling`, `C110_pure_neumann_solvable_iff_balanced`, `C110_reference_solution_exists_once`, `C110_solvable_iff_unique`, `C111_coarse_functions_on_local_grids`, `C113_neumann_right_hand_side_in_other_units`, `C113_reference_in_other_units`, `C115_coarse_solution_does_not_depend_on_the_order`, `C115_local_problems_do_not_depend_on_the_order`, `C115_local_right_hand_sides_do_not_depend_on_the_order`, `C115_reference_solution_does_not_depend_on_the_order`, `C116_shapes`, `C118_inflow`
* `C120_errors_enter_squared`, `C120_residual_bounds_the_error`, `C121_larger_diffusion_smaller_response`, `C121_reference_solution`, `C123_multiscale_comparison_fails`, `C123_reference_comparison`, `C124_entries_of_one_thread`, `C124_same_system_as_one_thread`, `C124_shared_storage_is_wrong`, `C124_unlocked_additions_are_lost`, `C129_folded_data`, `C129_means`, `C129_same_folded_source`
* `C132_reference_solution_is_linear`, `C135_reference_solution_across_layers`, `C137_assembled_system`, `C137_two_runs`, `C139_positive_entry`
* `C18_corrected_function_has_minimal_energy`, `C18_corrector_balances_the_field`, `C18_corrector_is_orthogonal`, `C18_orthogonal_iff_quadratures_agree`
* `C40_coarse_solution_solves_the_boundary_value_problem`, `C40_reference_solution_solves_the_boundary_value_problem`
* `C41_definite_systems_are_uniquely_solvable`, `C41_repeated_solves_return_the_same_solution`, `C41_result_independent_of_start_value`
* `C43_assembly_order_irrelevant`, `C43_element_matrix_spd`, `C43_global_matrix_spd`
* `C44_differs_on_refined_cells`, `C44_equal_if_gradients_constant`, `C44_equal_if_not_refined`, `C44_global_matrix`, `C44_what_is_assembled`
* `C45_element_rhs`, `C45_global_rhs`, `C45_interior_cell`
* `C49_er2007_flux_applies_the_tensor`
* `C81_coarse_system_singular`, `C81_coarse_values_without_effect`, `C81_functions_vanishing_on_constrained_nodes_are_cancelled`, `C81_solution_jumps_between_cells`
* `C82_coarse_solution_minimises_energy`, `C82_energy_gap`, `C82_reference_solution_minimises_energy`
* `C83_coarse_solutions_superpose`, `C83_correctors_superpose`, `C83_reference_solutions_superpose`
* `C84_no_correction_iff_flux_balanced`, `C84_zero_is_a_corrector_iff`
* `C89_missing_bound_fails`, `C89_no_exact_solution_passes`, `C89_passing_test_means`, `C89_skipped_errors_pass`, `C89_surplus_of_second_run_unseen`
* `C90_balances_as_one_function`, `C90_multiscale_solution_balances`, `C90_order_irrelevant`
* `C91_gradient_is_determined`
* `C92_pure_neumann_level_is_free`, `C92_pure_neumann_needs_balanced_data`
* `C93_order_irrelevant`, `C93_reference_solution_balances`
* `C94_best_approximation`, `C94_difference_is_orthogonal`, `C94_distances_add_up`, `C94_exact_if_possible`, `C94_not_best_on_refined_cells`
* `C95_balance_inside_a_cell`, `C95_balance_needs_no_dirichlet_correction`, `C95_boundary_cells_balance_iff`, `C95_dirichlet_values_are_corrected_twice`, `C95_solution_balances_where_quadratures_agree`
* `C96_difference_to_the_filtered_functional`, `C96_every_intersection_counts`, `C96_spe10_and_tarbert`, `C96_spe10_inflow_has_the_wrong_sign`
* `C98_only_the_coarse_quotient_can_be_infinite`, `C98_quotients`, `C98_text_determines_file`

### `ClassicalDedekindReals.sig_forall_dec`, `ClassicalDedekindReals.sig_not_dec`, `FunctionalExtensionality.functional_extensionality_dep`

* `C100_transformed_correlation_is_real`, `C107_coarse_matrix_is_exact`, `C107_coarse_rhs_flux_is_exact`, `C107_coarse_rhs_source_is_exact`, `C107_local_quadratures_are_the_same`, `C107_rules_are_exact`, `C108_linear_functions_need_no_correction`, `C108_local_problems_are_definite`, `C108_multilinear_functions_need_no_correction`
* `C110_every_corrector_exists_once`, `C110_every_local_problem_has_one_solution`, `C111_coarse_system_is_singular`, `C111_layers_have_no_effect`, `C112_exactly_one_result_without_oversampling`, `C112_local_functions_are_determined`, `C112_never_exactly_one_result`, `C112_one_result_iff_one_coarse_solution`, `C113_dirichlet_right_hand_side_in_other_units`, `C113_result_in_other_units`, `C116_comparison`, `C116_condition_is_needed`, `C116_maximum_principle`, `C117_corrected_shape_functions`, `C117_no_new_extrema_without_oversampling`, `C117_range_on_the_local_grid`, `C118_derivative`, `C118_elliptic`, `C118_flux`, `C119_between_harmonic_and_arithmetic_mean`, `C119_matrix_between_means`, `C119_matrix_grows_with_the_diffusion`
* `C120_coarse_matrix_error`, `C120_energy_bounds_node_values`, `C120_local_residual`, `C120_reference_residual`, `C121_coarse_matrix`, `C121_corrections`, `C121_source`, `C127_affine_source`, `C127_agree`, `C127_agree_iff`, `C127_coarse_system_has_harmonic_means`, `C127_difference_to_the_reference`, `C128_agree_iff`, `C128_coarse_system_with_oversampling`, `C128_corrected_function_rises`, `C128_driven_by_flux`, `C128_increments`, `C128_right_coefficient_iff`, `C128_whole_interval`, `C129_constant_diffusion`
* `C131_first_order`, `C131_flow_is_of_first_order_only`, `C131_periodic_diffusion`, `C131_second_order`, `C132_multiscale_solution_is_linear`, `C132_nothing_to_correct`, `C133_between_the_boundary_values`, `C133_heated_and_colder`, `C133_larger_data_at_the_ends`, `C133_larger_source_in_uniform_cells`, `C135_faces_are_not_corrected`, `C135_flow_across_layers_is_missed`, `C135_straight_on_faces`, `C136_at_least_the_smallest_diffusion`, `C136_at_most_four_times_the_largest_diffusion`, `C136_coarse_residual`, `C136_eigenvalues`, `C136_matrix_of_the_laplacian`, `C137_multiscale_system`, `C138_at_the_right_places`, `C138_checkerboard`, `C138_more_diffusion_less_energy`, `C138_never_lowered`, `C138_never_raised`, `C138_what_correctors_change`, `C138_without_correctors`, `C139_at_the_right_places`, `C139_leaves_the_range`, `C139_opposite_corners`, `C139_reference_stays`
* `C47_synthetic_dirichlet_data_are_the_solution`, `C47_synthetic_flux_applies_the_tensor`, `C47_synthetic_jacobian_is_the_gradient`, `C47_synthetic_neumann_data`
* `C48_synthetic_diffusion_bounds`, `C48_synthetic_diffusion_is_uniformly_elliptic`
* `C49_er2007_solution_and_boundary_data`, `C49_er2007_source_is_minus_laplacian`
* `C69_diffusion_leaves_other_entries`, `C69_flux_leaves_third_component`
* `C70_boundary_values_on_the_right_side`, `C70_boundary_values_vanish_on_three_sides`, `C70_default_epsilon_has_zero_boundary_values`
* `C88_failed_coarse_solve_reports_norms`, `C88_h1_errors_form_triangles`, `C88_l2_errors_form_triangles`, `C88_reported_errors_are_not_negative`, `C88_zero_error_means_agreement`

### `ClassicalDedekindReals.sig_forall_dec`, `ClassicalDedekindReals.sig_not_dec`, `Classical_Prop.classic`, `FunctionalExtensionality.functional_extensionality_dep`

* `C100_correlation_is_met`, `C100_different_fields_are_uncorrelated`, `C100_logarithms_have_mean_zero`, `C101_long_correlation_lengths_inflate_the_variance`, `C101_negative_eigenvalue`, `C101_variance_is_never_too_small`, `C107_coarse_quadratures_agree`, `C107_declared_order_is_not_enough`, `C107_integral_is_unique`, `C107_local_quadratures_agree`
* `C119_quadratures_agree`
* `C46_synthetic_source_in_three_dimensions`, `C46_synthetic_source_is_minus_divergence`
* `C49_er2007_source_derivative`
