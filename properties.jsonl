{"id": "C01", "title": "Multi-indices behave as bounded sequences", "statement": "Any sequence of push_back/push_front/pop_back/pop_front/set/clear that stays within the declared capacity makes a MultiIndex observe exactly like a finite list: size(), operator[], front/back, operator==, reverse() and join() agree with the list, and view(k)/back_popped() expose exactly the first k (all but the last) entries.", "quantifier": "all capacities, all operation sequences, all entry values", "why_tests_cant": "The number of operation histories is unbounded; a unit test fixes a few literals.", "anchors": ["dune/pdelab/common/multiindex.hh: MultiIndex, MultiIndex::View, push_front, pop_front, back_popped, join, reverse"]}
{"id": "C02", "title": "Lexicographic orderings number DOFs bijectively", "statement": "For every tree of lexicographic orderings without container blocking over leaf orderings, after update() mapIndex is a bijection between the valid DOF indices of the tree and the container positions 0..size()-1: no two DOFs share a vector entry and no entry is unused.", "quantifier": "all trees (any depth, any arity), all leaf sizes", "why_tests_cant": "Trees and leaf sizes are unbounded; a collision at one shape is invisible to tests of other shapes.", "anchors": ["dune/pdelab/ordering/orderingbase.hh: OrderingBase::update, _mapIndex", "dune/pdelab/ordering/lexicographicordering.hh"]}
{"id": "C03", "title": "Interleaved orderings number DOFs bijectively", "statement": "For every interleaved ordering (blocked or not) whose children hold the same number of interleaving blocks, mapIndex is a bijection between child DOFs and container positions, every block receives exactly the declared number of entries of each child, and when update() accepts a structure no DOF is mapped outside the container.", "quantifier": "all numbers of children, all interleaving block sizes, all child sizes", "why_tests_cant": "Index arithmetic with div/mod over all sizes; the failing size combinations are sparse.", "anchors": ["dune/pdelab/ordering/interleavedordering.hh", "dune/pdelab/ordering/orderingbase.hh: update, _mapIndex"]}
{"id": "C04", "title": "Chunked orderings are a lossless re-blocking", "statement": "A chunked ordering maps flat index i of the wrapped ordering to (i mod chunk, i div chunk); this map is a bijection onto blocks of exactly chunk entries whenever update() succeeds, update() throws exactly when the wrapped block count is not a multiple of the chunk size, and size() queries report the block count at the root and the chunk size inside a block.", "quantifier": "all chunk sizes, all wrapped orderings, all DOF indices", "why_tests_cant": "All sizes and indices; needs arithmetic over unbounded naturals.", "anchors": ["dune/pdelab/ordering/chunkedblockordering.hh: map_index_dynamic, map_lfs_indices, update, size"]}
{"id": "C05", "title": "Permuted orderings apply the user's permutation", "statement": "A permuted ordering maps every DOF of the wrapped ordering to perm[old position]; if perm is a permutation the mapping is again a bijection onto 0..n-1, and the permutation supplied by the user is the one in effect after setup.", "quantifier": "all permutations of all sizes, all update histories", "why_tests_cant": "All permutations; update order histories.", "anchors": ["dune/pdelab/ordering/permutedordering.hh: map_index_dynamic, update, size"]}
{"id": "C06", "title": "Batch index mapping equals one-by-one mapping", "statement": "For every function space tree, the container indices an element's index cache obtains by the batched tree traversal equal, DOF by DOF, the result of calling mapIndex on each DOF index.", "quantifier": "all ordering trees mixing lexicographic/interleaved, blocked/flat nodes, all local DOF lists", "why_tests_cant": "Two code paths must agree on every tree shape.", "anchors": ["dune/pdelab/gridfunctionspace/lfsindexcache.hh: map_dof_indices_to_container_indices", "dune/pdelab/ordering/lexicographicordering.hh: map_lfs_indices", "dune/pdelab/ordering/interleavedordering.hh: map_lfs_indices", "dune/pdelab/ordering/chunkedblockordering.hh: map_lfs_indices"]}
{"id": "C07", "title": "Entity-wise index extraction equals one-by-one mapping", "statement": "The container indices produced for the DOFs of one grid entity (used in parallel communication) equal mapIndex of each of those DOFs, in tree order.", "quantifier": "all ordering trees, all per-leaf entity DOF counts", "why_tests_cant": "A third code path for the same map; needed on all trees.", "anchors": ["dune/pdelab/ordering/lexicographicordering.hh: extract_entity_indices", "dune/pdelab/ordering/interleavedordering.hh: extract_entity_indices"]}
{"id": "C08", "title": "Container size queries agree with the index map", "statement": "For every prefix of container indices produced by an ordering, size(prefix) is the number of entries the container needs below that prefix: every produced index is within the reported size and no reported slot is unreachable.", "quantifier": "all ordering trees, all container index suffixes", "why_tests_cant": "Quantifies over all trees and prefixes.", "anchors": ["dune/pdelab/ordering/lexicographicordering.hh: size", "dune/pdelab/ordering/interleavedordering.hh: size", "dune/pdelab/ordering/chunkedblockordering.hh: size", "dune/pdelab/ordering/permutedordering.hh: size"]}
{"id": "C09", "title": "A sparsity pattern is the set of links added", "statement": "After any sequence of add_link calls the pattern's iteration yields, per row, exactly the set of columns added to that row, each once, whatever row-length estimate was given.", "quantifier": "all link sequences, all estimates (including 0), all row counts", "why_tests_cant": "Histories and estimates are unbounded; slot/overflow boundary bugs show up only for particular histories.", "anchors": ["dune/pdelab/backend/istl/bcrspattern.hh: BCRSPattern::add_link, iterator"]}
{"id": "C10", "title": "Pattern statistics count the links", "statement": "After any sequence of add_link calls sizes() reports the number of distinct columns per row and overflowCount() the number of distinct links that did not fit the estimate, and every row that does not exceed the estimate causes no overflow.", "quantifier": "all link sequences, all estimates", "why_tests_cant": "Same: unbounded histories.", "anchors": ["dune/pdelab/backend/istl/bcrspattern.hh: sizes, overflowCount"]}
{"id": "C11", "title": "TimeSpec arithmetic is exact and normalised", "statement": "Starting from normalised time values any sequence of += and -= yields a normalised value (0 <= nsec < 10^9) whose value sec*10^9+nsec is exactly the sum/difference, and x+=y; x-=y restores x.", "quantifier": "all normalised values, all operation sequences", "why_tests_cant": "Carry/borrow boundaries over all values.", "anchors": ["dune/pdelab/common/clock.hh: TimeSpec::operator+=, operator-="]}
{"id": "C12", "title": "Printed times denote the time", "statement": "Streaming a TimeSpec prints a decimal numeral whose value is sec + nsec/10^9 seconds, cut off after min(9, stream precision) digits behind the point.", "quantifier": "all normalised time values, including negative differences", "why_tests_cant": "All values; the negative range is usually untested.", "anchors": ["dune/pdelab/common/clock.cc: operator<<"]}
{"id": "C13", "title": "Runge-Kutta tables have the advertised order", "statement": "Every one-step scheme shipped (one-step-theta, explicit/implicit Euler, Heun, Shu-Osher 3, RK4, Alexander 2, Fractional step, Alexander 3) satisfies, in the Shu-Osher-like a/b/d form the code stores, the consistency and order conditions of its advertised order, i.e. it reproduces the exact solution of the corresponding test problems for every time and every step size.", "quantifier": "all step sizes, all polynomial data up to the order, all linear test coefficients", "why_tests_cant": "Statement over all reals; floating point experiments only sample.", "anchors": ["dune/pdelab/instationary/onestepparameter.hh"]}
{"id": "C14", "title": "Stage tables are causal and flagged correctly", "statement": "For each scheme stage r uses only stages <= r, a(r,r)=1, the sum of a(r,.) is 0, d is non-decreasing where advertised, and implicit() is true iff some b(r,r) is nonzero.", "quantifier": "all schemes, all stages, all theta", "why_tests_cant": "theta ranges over all reals.", "anchors": ["dune/pdelab/instationary/onestepparameter.hh: a, b, d, implicit"]}
{"id": "C15", "title": "Stage residual equals the scheme's formula", "statement": "For every scheme and stage r, the residual assembled by the one-step grid operator after preStage equals sum_{i<=r} a(r,i) f1 m(u_i,t+d_i dt) + b(r,i) f0 r(u_i,t+d_i dt) with (f0,f1) the dt scaling mode factors, and constrained entries are treated once.", "quantifier": "all schemes, stages, histories of stage vectors, dt, dt modes, local operators", "why_tests_cant": "All operators and tables.", "anchors": ["dune/pdelab/gridoperator/onestep/prestageengine.hh", "dune/pdelab/gridoperator/onestep/residualengine.hh", "dune/pdelab/gridoperator/onestep/localassembler.hh: preStep, timeAtStage"]}
{"id": "C16", "title": "Stage Jacobian is the derivative of the stage residual", "statement": "For operators that are affine in the solution, the matrix assembled by the one-step jacobian is the derivative of the stage residual with respect to the current stage vector, for every time step mode, and jacobian_apply equals matrix times vector.", "quantifier": "all affine operators, stages, modes", "why_tests_cant": "All operators.", "anchors": ["dune/pdelab/gridoperator/onestep/jacobianengine.hh", "dune/pdelab/gridoperator/onestep/jacobianapplyengine.hh"]}
{"id": "C17", "title": "Explicit stages solve the same equation as implicit ones", "statement": "For an explicit scheme the explicit driver (mass matrix D, alpha and beta residual vectors, update from D^{-1}(alpha+dt beta)) yields a stage vector with zero implicit stage residual.", "quantifier": "all explicit schemes, stages, step sizes, mass operators that are linear and invertible", "why_tests_cant": "All operators and steps.", "anchors": ["dune/pdelab/gridoperator/onestep/jacobianresidualengine.hh", "dune/pdelab/instationary/explicitonestep.hh: apply"]}
{"id": "C18", "title": "CFL controller lands exactly on the target", "statement": "With CFLTimeController, for every sequence of suggestions in (0, ...), accumulated steps never overshoot target, dt is never below half the remaining safe step unless it lands on target, and the driver loop reaches target after finitely many steps when suggestions are bounded below.", "quantifier": "all positive suggestions, targets, start times not after the target", "why_tests_cant": "All histories of suggestions.", "anchors": ["dune/pdelab/instationary/explicitonestep.hh: CFLTimeController::suggestTimestep"]}
{"id": "C19", "title": "One-step drivers account for every step", "statement": "After any history of apply calls, of which any may fail at any stage with a solver exception, the OneStepMethod result counts successful and total time steps, linear and nonlinear iterations exactly as the sum over the attempted steps, and a failed step leaves the success statistics untouched and rethrows. A call of either driver computes the step that its stages define from the old and the start vector, and deletes its stage vectors.", "quantifier": "all schemes, histories of successes/failures at any stage", "why_tests_cant": "All failure points in all histories.", "anchors": ["dune/pdelab/instationary/implicitonestep.hh: OneStepMethod::apply"]}
{"id": "C20", "title": "Newton reports convergence only when the criterion holds", "statement": "Whenever NewtonMethod::apply returns normally the final defect satisfies the termination criterion (defect <= max(first*reduction, absoluteLimit)) with the norm of the residual at the start vector as first defect, the iteration count is at most maxIterations (one if an iteration is forced), and with the shipped line searches the reported defect is the norm of the residual at the returned solution; apply always ends; the reported reduction is the quotient of the reported defects; otherwise an exception is raised and the result is marked not converged.", "quantifier": "all residual/linear-solver/line-search behaviours (including NaN-producing ones), all parameters (damping factors between 0 and 1 for the reported defect)", "why_tests_cant": "Behaviour of solver callbacks ranges over arbitrary sequences of defects.", "anchors": ["dune/pdelab/solver/newton.hh: apply, prepareStep, updateDefect", "dune/pdelab/solver/terminate.hh"]}
{"id": "C21", "title": "Newton reassembles the Jacobian when it must", "statement": "In every run the matrix used by a linear solve is the Jacobian at the latest iterate unless the observed reduction was better than the reassemble threshold; every other matrix is the Jacobian at an earlier iterate of the same call, so no solve uses an unassembled matrix; the backend is told to reuse the linear system only if the matrix is the one of the solve before.", "quantifier": "all defect sequences, thresholds, parameter settings", "why_tests_cant": "All defect histories.", "anchors": ["dune/pdelab/solver/newton.hh: prepareStep"]}
{"id": "C22", "title": "Hackbusch-Reusken line search satisfies its contract", "statement": "On normal return the solution equals old - lambda*correction for some tried lambda, the stored defect is the defect at that solution, and either the decrease condition holds or (accept-best) the defect is the least one tried and smaller than the previous; at most maxIterations trials are made; otherwise an exception is raised.", "quantifier": "all residual norms as functions of lambda, all damping factors between 0 and 1, all iteration limits", "why_tests_cant": "All residual landscapes.", "anchors": ["dune/pdelab/solver/linesearch.hh: LineSearchHackbuschReusken::lineSearch"]}
{"id": "C23", "title": "Global constraints are the merge of local ones", "statement": "For every history of local constraint contributions the global container holds for each constrained DOF: the Dirichlet (empty) entry if any contribution was Dirichlet, otherwise for every contributor the weight given last; contributions that agree where they overlap give the same container in every order; containsNonDirichletConstraints() is true whenever a non-Dirichlet entry exists and only after a non-Dirichlet contribution; clear() resets both.", "quantifier": "all contribution histories, all element visit orders", "why_tests_cant": "All histories and orders.", "anchors": ["dune/pdelab/constraints/common/constraintstransformation.hh: import_local_transformation"]}
{"id": "C24", "title": "Constrained-DOF helpers touch exactly the right entries", "statement": "set_constrained_dofs, set_nonconstrained_dofs, copy_constrained_dofs, copy_nonconstrained_dofs, set_shifted_dofs and check_constrained_dofs modify/inspect exactly the constrained (resp. unconstrained) entries and leave all others unchanged; copy+copy reassembles the source.", "quantifier": "all constraint containers, vectors", "why_tests_cant": "All containers and vectors.", "anchors": ["dune/pdelab/constraints/common/constraints.hh"]}
{"id": "C25", "title": "constrain_residual is the transposed constraint operator", "statement": "For constraint containers without chains (contributors are free or Dirichlet DOFs), constrain_residual adds every constrained residual times its weight to the contributors and zeroes the constrained entries; the result is independent of iteration order, linear, idempotent, and satisfies <constrain(r),u> = <r,extend(u)> for u without values in contributing Dirichlet DOFs.", "quantifier": "all such containers, iteration orders, residuals", "why_tests_cant": "All containers and hash orders.", "anchors": ["dune/pdelab/constraints/common/constraints.hh: constrain_residual"]}
{"id": "C26", "title": "Local constraint transforms are adjoint and the Jacobian is the Galerkin transform", "statement": "For constraints without chains (contributors are free or Dirichlet DOFs), forwardtransform and backtransform are adjoint (in the restricted variant on vectors without values in contributing Dirichlet DOFs); backtransform adds to every constrained DOF the weighted values of its contributors; scattering an element matrix through any constraints adds T_V^T A T_U to the global matrix; after assembly the rows of constrained DOFs are unit rows and all others hold the sum over the elements.", "quantifier": "all local constraint patterns, element matrices, index lists (with repetitions)", "why_tests_cant": "All element constraint configurations.", "anchors": ["dune/pdelab/gridoperator/common/assemblerutilities.hh: forwardtransform, backtransform, etadd"]}
{"id": "C27", "title": "Assembly never writes outside the pattern", "statement": "Every global matrix entry touched when an element Jacobian is scattered (with or without constraints) has been added to the sparsity pattern by the pattern assembly of the same element.", "quantifier": "all local patterns, constraint configurations, element matrices supported in the local pattern", "why_tests_cant": "Every combination of constraints on both spaces.", "anchors": ["dune/pdelab/gridoperator/common/assemblerutilities.hh: add_entry, etadd, etadd_symmetric, scatter_jacobian"]}
{"id": "C28", "title": "Faces are visited exactly once (or twice)", "statement": "In one assembly sweep over any grid, each interior face is presented to skeleton terms exactly once when one-sided and exactly once from each side when two-sided, each boundary face exactly once, each cell's volume terms exactly once.", "quantifier": "all grids (arbitrary neighbour relations), element orders, skip predicates", "why_tests_cant": "All meshes and orders.", "anchors": ["dune/pdelab/gridoperator/default/assembler.hh: assemble"]}
{"id": "C29", "title": "Face index passed to operators is the face's position", "statement": "The intersection index handed to local operators equals the position of the intersection in the iteration over the element's intersections.", "quantifier": "all elements and skip decisions", "why_tests_cant": "Depends on the skip history.", "anchors": ["dune/pdelab/gridoperator/default/assembler.hh: assemble"]}
{"id": "C30", "title": "The simple CSR matrix implements its pattern", "statement": "After building from any pattern, every pattern entry is addressable, starts at the initial value, reads return the last write to that entry and no other entry changes; mv/usmv are the matrix-vector product; clear_row affects one row only.", "quantifier": "all patterns, write histories, vectors", "why_tests_cant": "All histories.", "anchors": ["dune/pdelab/backend/simple/sparse.hh: allocate_matrix, operator(), mv, usmv, clear_row"]}
{"id": "C31", "title": "Accessing a CSR entry outside the pattern is detected", "statement": "An access to an (i,j) that is not in the pattern never reads or modifies another entry.", "quantifier": "all patterns, all index pairs", "why_tests_cant": "All patterns.", "anchors": ["dune/pdelab/backend/simple/sparse.hh: operator(), clear_row"]}
{"id": "C32", "title": "Bisection thresholds of error_fraction are valid", "statement": "The thresholds returned by error_fraction and element_fraction lie between 0 and the largest error. Either the elements at or above the refine threshold (below the coarsen threshold) carry the requested fractions of the total error (of the elements) to one percent, or each threshold is off by at most the largest error times 2^-20: moving it by that much changes which side of the requested fraction is selected.", "quantifier": "all vectors of nonnegative errors, all nonnegative fractions", "why_tests_cant": "All error distributions.", "anchors": ["dune/pdelab/adaptivity/adaptivity.hh: error_fraction, element_fraction"]}
{"id": "C33", "title": "Grid marking respects thresholds", "statement": "mark_grid marks a cell for refinement iff its error reaches the refine threshold and its level is below the maximal level, for coarsening iff its error is at most the coarsen threshold and its level is above the minimal level, and never both; mark_grid_for_coarsening only marks for coarsening.", "quantifier": "all error vectors and level limits, all thresholds with the coarsen threshold below the refine threshold (for overlapping thresholds both marks are set)", "why_tests_cant": "All inputs.", "anchors": ["dune/pdelab/adaptivity/adaptivity.hh: mark_grid, mark_grid_for_coarsening"]}
{"id": "C34", "title": "Adaptation transfers reconstruct the discrete function", "statement": "adaptGrid backs up every participating vector before the grid changes, calls grid adaptation exactly once, and afterwards updates each space and replays each vector once. Every DOF of the new grid is the average over the contributions of the cells that contain it, where a cell contributes its saved coefficients or the interpolation from its nearest ancestor with data. A function that is representable on all cells involved is reconstructed exactly.", "quantifier": "all grids, marks, numbers of spaces and vectors, all spaces whose local size depends on the geometry type only", "why_tests_cant": "All refinement histories.", "anchors": ["dune/pdelab/adaptivity/adaptivity.hh: adaptGrid, replayData, adapt_grid"]}
{"id": "C35", "title": "Time-step adaptation controller is safe", "statement": "For every sequence of error estimates the controller accepts a step exactly if its estimate is within the allowed error tol^2 (energy + minenergy_rate dt) or adaptation is off, accumulates exactly the estimates of the accepted steps, which are bounded by the sum of their allowances, suggests dt in {dt, increase*dt, decrease*dt}, answers a rejection with a new step or a new grid, and does not increase the step of a redo after having decreased it in the same time step.", "quantifier": "all histories of estimates", "why_tests_cant": "All histories.", "anchors": ["dune/pdelab/adaptivity/adaptivity.hh: TimeAdaptationStrategy"]}
{"id": "C36", "title": "Entity-set splits are exact covers", "statement": "IteratorSplit partitions any entity set into the requested number of patches that are disjoint, ordered and cover every entity exactly once, with sizes differing by at most the remainder rule; repeated update() on a different set keeps this.", "quantifier": "all entity sets, patch counts", "why_tests_cant": "All sizes.", "anchors": ["dune/pdelab/common/partition/iteratorsplit.hh"]}
{"id": "C37", "title": "Colored partitions never run conflicting patches together", "statement": "After coloring, any two distinct patches with the same label have no common (sub)entity within the halo distance, every patch of the base partition appears exactly once, and labels are 0..k-1 with k at most the largest number of neighbours + 1.", "quantifier": "all meshes, base partitions, halo distances, graphs below the degree limit", "why_tests_cant": "All graphs.", "anchors": ["dune/pdelab/common/partition/halo/colored.hh: makeGraph, makeColors, update"]}
{"id": "C38", "title": "Halo marking is race-free under every schedule", "statement": "For every interleaving of the concurrent owner/overlap marking phases the computed halo is the same: an element is Interior iff no sub-entity of it is within halo distance of a different concurrent patch.", "quantifier": "all thread schedules, meshes, patch assignments, halo distances", "why_tests_cant": "All interleavings.", "anchors": ["dune/pdelab/common/partition/halo/uncolored.hh: updateHalo"]}
{"id": "C39", "title": "DOF ownership is unique and schedule independent", "statement": "For every order of message delivery in the disjoint partitioning exchange, every DOF ends up with the smallest rank on which its entity is interior or border, the same on every rank, so exactly one rank owns it.", "quantifier": "all numbers of ranks, sharing patterns, delivery orders", "why_tests_cant": "All delivery schedules.", "anchors": ["dune/pdelab/gridfunctionspace/genericdatahandle.hh: DisjointPartitioningGatherScatter", "dune/pdelab/backend/istl/parallelhelper.hh"]}
{"id": "C40", "title": "Parallel scalar products count each DOF once", "statement": "The sum over ranks of disjointDot equals the scalar product of the globally assembled vectors.", "quantifier": "all rank counts, ownership maps, consistent vectors", "why_tests_cant": "All decompositions.", "anchors": ["dune/pdelab/backend/istl/parallelhelper.hh: disjointDot, maskForeignDOFs"]}
{"id": "C41", "title": "Data handles combine contributions independent of order", "statement": "After an Add/Min/Max exchange every copy of a shared DOF holds the sum/min/max over all copies, independent of delivery order; Copy delivers a copy's value.", "quantifier": "all delivery orders, sharing graphs, values", "why_tests_cant": "All schedules.", "anchors": ["dune/pdelab/gridfunctionspace/genericdatahandle.hh: AddGatherScatter, MinGatherScatter, MaxGatherScatter, CopyGatherScatter"]}
{"id": "C42", "title": "Mismatched leaf layouts are exchanged safely", "statement": "When sender and receiver hold different sets of leaf spaces on an entity, the scatter consumes exactly the data the sender wrote, updates exactly the DOFs present on both sides with the matching values, and reports an error when block sizes disagree.", "quantifier": "all offset vectors on both sides, buffers", "why_tests_cant": "All layouts.", "anchors": ["dune/pdelab/gridfunctionspace/genericdatahandle.hh: DataGatherScatter::scatter"]}
{"id": "C43", "title": "Parallel index sets are globally unique and consecutive", "statement": "createIndexSetAndProjectForAMG gives owned shared DOFs global indices that are unique across ranks, consecutive, and identical on every rank that shares the DOF.", "quantifier": "all rank counts, owned-counts", "why_tests_cant": "All decompositions.", "anchors": ["dune/pdelab/backend/istl/parallelhelper.hh: createIndexSetAndProjectForAMG"]}
{"id": "C44", "title": "Local function spaces tile the local index range", "statement": "After bind, leaves of a local function space tree occupy disjoint consecutive ranges covering 0..size()-1 in depth-first order, and localIndex maps leaf DOFs injectively.", "quantifier": "all trees, leaf sizes", "why_tests_cant": "All trees.", "anchors": ["dune/pdelab/gridfunctionspace/localfunctionspace.hh: ComputeSizeVisitor, FillIndicesVisitor, localIndex"]}
{"id": "C45", "title": "DOF indices identify their leaf", "statement": "The DOF indices filled at bind are pairwise distinct and the tree index recovers the path to the leaf.", "quantifier": "all trees, leaf layouts", "why_tests_cant": "All trees.", "anchors": ["dune/pdelab/gridfunctionspace/localfunctionspace.hh: FillIndicesVisitor, dofIndices"]}
{"id": "C46", "title": "Constraint flags cached per element are exact", "statement": "After update of an index cache, isConstrained(i)/isDirichletConstraint(i) hold iff the global constraints container constrains the DOF (with empty contributions), and the cached contributor list is the container's.", "quantifier": "all containers, local DOF lists, update histories", "why_tests_cant": "All histories.", "anchors": ["dune/pdelab/gridfunctionspace/lfsindexcache.hh: update, isConstrained, isDirichletConstraint"]}
{"id": "C47", "title": "Assembly adds up every local contribution exactly once", "statement": "A residual call adds to every entry of the global vector the weight times the sum of all local operator contributions to that DOF (volume, skeleton to both cells, boundary, post-skeleton), independent of what the engine did before; the jacobian call does the same for matrix blocks; if locally the jacobian terms are the derivatives of the residual terms then the assembled matrix is the derivative of the assembled residual, and jacobian_apply is that matrix times the update.", "quantifier": "all grids, local function spaces, local operators, weights, times, solutions, previous engine states", "why_tests_cant": "All operators and grids, and all previous engine states.", "anchors": ["dune/pdelab/gridoperator/default/residualengine.hh", "dune/pdelab/gridoperator/default/jacobianengine.hh", "dune/pdelab/gridoperator/default/jacobianapplyengine.hh", "dune/pdelab/gridoperator/default/assembler.hh: assemble"]}
{"id": "C48", "title": "Newton asks the linear solver for a sufficient reduction", "statement": "Every linear solve is asked for a defect reduction r with r >= stop/(10 defect), where stop is the defect at which the iteration ends, and either r equals that bound (enough to finish in this step) or r is at most the minimal linear reduction and at most (defect/previous defect)^2; with fixed linear reduction r is the minimal linear reduction.", "quantifier": "all runs, parameters, defect histories", "why_tests_cant": "All defect histories.", "anchors": ["dune/pdelab/solver/newton.hh: prepareStep"]}
{"id": "C49", "title": "The constrained Jacobian represents the constrained operator", "statement": "The matrix assembled with constraints, applied to z, gives on every unconstrained DOF the constrained residual of the element matrices applied to the coefficients of z extended by the constraints, and z itself on constrained DOFs.", "quantifier": "all constraint histories of both spaces (contributors of test space constraints free or Dirichlet), elements, element matrices, cache histories, vectors", "why_tests_cant": "All constraint configurations and matrices.", "anchors": ["dune/pdelab/gridoperator/common/assemblerutilities.hh: scatter_jacobian, handle_dirichlet_constraints", "dune/pdelab/constraints/common/constraints.hh: constrain_residual"]}
{"id": "C50", "title": "Numerical Jacobians", "statement": "The numerical Jacobian mixins add to exactly the block of the bound local spaces weight times the forward difference quotients of the residual terms. For terms affine in the coefficients this is weight times the matrix of the term for every step width; otherwise an entry is off by at most |weight| * L * eps*(1+|x_j|) with L a Lipschitz constant of the partial derivative. For operators with affine terms the matrix assembled from them is the derivative of the assembled residual.", "quantifier": "all residual terms, block sizes, weights, coefficients, step parameters eps > 0 (exact arithmetic), grids", "why_tests_cant": "All terms and all step widths; a test sees one operator.", "anchors": ["dune/pdelab/localoperator/numericaljacobian.hh: NumericalJacobianVolume, NumericalJacobianVolumePostSkeleton, NumericalJacobianSkeleton, NumericalJacobianBoundary"]}
{"id": "C51", "title": "Numerical Jacobian application is the numerical Jacobian times the direction", "statement": "jacobian_apply of the numerical mixins adds weight times (numerical Jacobian at x) times z.", "quantifier": "all residual terms, sizes, weights, linearisation points, directions", "why_tests_cant": "All terms, weights and directions.", "anchors": ["dune/pdelab/localoperator/numericaljacobianapply.hh", "dune/pdelab/localoperator/numericalnonlinearjacobianapply.hh"]}
{"id": "C52", "title": "Residuals computed from Jacobians", "statement": "The alpha methods derived from the Jacobian methods add to the residual weight times the accumulated local matrix times the coefficients, on both sides of a face.", "quantifier": "all local Jacobians whose entries lie inside the block, sizes of trial and test space, weights, coefficients", "why_tests_cant": "All local sizes (also non-square) and accumulation orders.", "anchors": ["dune/pdelab/localoperator/numericalresidual.hh: JacobianBasedAlphaVolume, JacobianBasedAlphaSkeleton, JacobianBasedAlphaBoundary"]}
{"id": "C53", "title": "Local matrices", "statement": "Accumulating into a local matrix changes exactly the addressed entries, scaling and filling act on all entries, resizing gives the wanted size and keeps the entries as long as the number of rows stays, usmv adds the matrix-vector product and iteration visits each position once and stops at end; decrementing undoes incrementing. The diagonal local matrix behaves like the diagonal matrix with its entries.", "quantifier": "all sizes (including empty), accumulation histories, vectors", "why_tests_cant": "All shapes and histories.", "anchors": ["dune/pdelab/gridoperator/common/localmatrix.hh: LocalMatrix, LocalMatrixIterator", "dune/pdelab/gridoperator/common/diagonallocalmatrix.hh: DiagonalLocalMatrix"]}
{"id": "C54", "title": "Weighted sums of local operators", "statement": "Residual, matrix and matrix-free application assembled for a (weighted) sum of local operators are the weighted sums of those assembled for the summands, independent of the weights of the accumulation views handed in, which are unchanged afterwards. The matrix entries lie in the assembled pattern. Combinations that cannot work (summands wanting different sidedness) are rejected at compile time.", "quantifier": "all lists of summands, weights (also zero), local operators, grids, engine weights, vectors", "why_tests_cant": "All combinations of switches, weights and terms.", "anchors": ["dune/pdelab/localoperator/combinedoperator.hh: CombinedOperator", "dune/pdelab/localoperator/weightedsum.hh: WeightedSumLocalOperator::applyLops, setWeight", "dune/pdelab/localoperator/sum.hh: InstationarySumLocalOperator::applyLops", "dune/pdelab/localoperator/callswitch.hh: LocalOperatorApply"]}
{"id": "C55", "title": "Scaled local operators", "statement": "Residual and matrix assembled for a scaled local operator are the factor times those of the backend operator, for every weight of the views handed in.", "quantifier": "all factors (also zero), local operators, grids, engine weights, vectors", "why_tests_cant": "All factors and terms.", "anchors": ["dune/pdelab/localoperator/scaled.hh: ScaledLocalOperator"]}
{"id": "C56", "title": "Block diagonal and off-diagonal wrappers split the matrix of an operator", "statement": "For a local operator that visits every interior face once and whose face derivative terms do not depend on the side the face is seen from, the matrices assembled with the block diagonal and the off-diagonal wrapper add up to the operator's matrix; on a discontinuous space the first holds exactly the couplings within a cell and the second exactly the others; applying each wrapper multiplies with the matrix it assembles; the block assembled for a single cell (grid without periodic faces, inside-inside terms independent of the outside coefficients) is that cell's block of the matrix.", "quantifier": "all grids (finite lists of cells whose interior faces are seen from both cells), spaces, operators, coefficients, updates, times, weights and pairs of DOFs", "why_tests_cant": "The equality relates three assemblies with different face visits; a test checks it for one operator on one grid.", "anchors": ["dune/pdelab/localoperator/blockdiagonalwrapper.hh: BlockDiagonalLocalOperatorWrapper, assembleLocalDiagonalBlock", "dune/pdelab/localoperator/blockoffdiagonalwrapper.hh: BlockOffDiagonalLocalOperatorWrapper"]}
{"id": "C57", "title": "Point diagonal wrapper assembles the diagonal of the matrix", "statement": "The vector assembled with the point diagonal wrapper of an operator is the diagonal of the operator's assembled matrix, for one-sided operators on discontinuous spaces, scalar or composite.", "quantifier": "all grids, spaces, operators, coefficients, times and weights; all sequences of accumulate calls for composite spaces", "why_tests_cant": "A wrong diagonal only degrades a Jacobi preconditioner, so solver tests still converge; couplings between components are absent from scalar tests.", "anchors": ["dune/pdelab/localoperator/pointdiagonalwrapper.hh: PointDiagonalLocalOperatorWrapper, PointDiagonalAccumulationViewWrapper"]}
{"id": "C58", "title": "The linear problem solver reduces the residual as requested, in every history of calls", "statement": "For a linear problem with nonzero initial defect and a linear solver that keeps its promise, every call of apply that returns with a converged result leaves coefficients whose residual norm is at most max(reduction * initial defect, min_defect), whatever calls came before (reused, discarded or not kept matrices, exceptions, changed vectors and settings); the reported defects are the norms of the actual residuals; with the hanging node modification hanging nodes are interpolated and Dirichlet values kept; an exception leaves vectors and results unchanged; reusing a matrix is defined once one has been assembled and until it is dropped.", "quantifier": "all linear problems (in particular all problems assembled from element matrices under any constraint history without chains), linear solvers, call histories, vectors, reductions", "why_tests_cant": "Histories of reuse, discard and exceptions are unbounded; a test runs a few.", "anchors": ["dune/pdelab/stationary/linearproblem.hh: StationaryLinearProblemSolver::apply, discardMatrix, setKeepMatrix, setHangingNodeModifications"]}
{"id": "C59", "title": "Orderings find every DOF of every finite element", "statement": "After updating an ordering on a grid, the ordering knows every DOF that the finite elements of the cells attach to vertices, edges, faces and cells: for a finite element map that promises fixed sizes and keeps the promise, and for maps of unknown size where within one cell all sub-entities of one geometry type that carry DOFs carry the same number. Sizes kept per entity are exact. If moreover cells agree about shared entities, the DOF numbers of an entity have no gaps and no entity of a type in use is left out, the resulting index map numbers all DOFs consecutively from zero without collision. The same holds for every leaf below an entity-blocked ordering.", "quantifier": "all grids (numbers of entities and lists of cells), all assignments of DOFs to sub-entities, all finite element maps, all trees of spaces", "why_tests_cant": "collisions only show for particular combinations of elements and grids; tests use a few uniform elements", "anchors": ["dune/pdelab/ordering/directleaflocalordering.hh: update_fixed_size, collect_used_geometry_types_from_cell, extract_per_entity_sizes_from_cell, finalize_non_fixed_size_update, size", "dune/pdelab/ordering/leaflocalordering.hh: collect_used_geometry_types_from_cell, extract_per_entity_sizes_from_cell", "dune/pdelab/ordering/leafgridviewordering.hh: update", "dune/pdelab/ordering/gridviewordering.hh: update_fixed_size, pre_collect_used_geometry_types, extract_per_entity_sizes, finalize_non_fixed_size_update"]}
{"id": "C60", "title": "The fast DG grid operator computes the same residual and Jacobian as the default operator", "statement": "On a discontinuous space stored in one block per cell, on a grid whose cells have one geometry type and in a run without overlap or ghost cells, the grid operator that lets local operators read and write the global containers directly never uses an unbound view and accumulates, for every local operator and whatever was assembled before, the same residual, the same product with the Jacobian and (if the blocks are as wide as the number of DOFs per cell) the same matrix as the default grid operator. interpolate(xold,f,x) keeps the unconstrained entries of xold if x is another object.", "quantifier": "all grids, local operators, coefficients, weights, previous states; all container-blocked orderings with the same DOFs on all cells", "why_tests_cant": "writes to unbound or misplaced memory only show for particular grids, spaces or histories", "anchors": ["dune/pdelab/gridoperator/fastdg/assembler.hh: FastDGAssembler::assemble", "dune/pdelab/gridoperator/fastdg/residualengine.hh, jacobianengine.hh, jacobianapplyengine.hh: bind, unbind and assemble methods", "dune/pdelab/backend/common/aliasedvectorview.hh: AliasedVectorView, ConstAliasedVectorView", "dune/pdelab/backend/common/aliasedmatrixview.hh: AliasedMatrixView", "dune/pdelab/gridfunctionspace/lfsindexcache.hh: LFSIndexCacheBase::update (fast)", "dune/pdelab/gridoperator/fastdg.hh: FastDGGridOperator::interpolate, residual, jacobian, jacobian_apply"]}
{"id": "C61", "title": "In parallel the fast DG grid operator completes every entry of interior cells", "statement": "When the cells of a grid are distributed to processes and every process assembles its interior cells, each residual entry and each matrix row of an interior cell receives its volume terms and the inside part of the terms of each of its faces exactly once, including faces to cells of other processes: no communication of the result is needed. This holds for operators whose face terms do not depend on the side a face is seen from and for two-sided operators that fill the inside entries only. The default operator on all cells of the process gives the same entries.", "quantifier": "all distributed grids in which faces between interior cells are seen from both sides, all choices of interior cells, all such operators, coefficients, weights and previous states", "why_tests_cant": "which face is seen from which side depends on cell indices and on the partition; a test has a few partitions", "anchors": ["dune/pdelab/gridoperator/fastdg/assembler.hh: FastDGAssembler::assemble (visit_face)", "dune/pdelab/gridoperator/common/localassemblerenginebase.hh: partition", "dune/pdelab/gridoperator/fastdg/residualengine.hh, jacobianengine.hh"]}
{"id": "C62", "title": "Constraints are built for exactly the DOFs on the Dirichlet boundary", "statement": "After building constraints for a space, a DOF is constrained exactly if a constraint class asks for it: with the conforming classes, if it is attached to a vertex, edge or face of a boundary intersection at whose centre the parameters belonging to its component say Dirichlet; additionally to a processor boundary (overlapping) or to entities of no interior cell (nonoverlapping); P0 DOFs of cells at processor boundaries or of ghost cells; the flux DOF of a Neumann face (RT0); vertices on no boundary face (interior nodes). All constraints are Dirichlet constraints. Earlier content of the container and the order of cells and hash tables do not matter.", "quantifier": "all grids, reference elements, partition types, local finite elements, trees of spaces and parameters, visiting orders, previous contents", "why_tests_cant": "A test checks a few grids and boundary conditions; meshes, trees and orders are unbounded.", "anchors": ["dune/pdelab/constraints/common/constraints.hh: constraints, ConstraintsAssemblerHelper::assemble, BoundaryConstraints, VolumeConstraints, ProcessorConstraints", "dune/pdelab/constraints/conforming.hh: ConformingDirichletConstraints::boundary, OverlappingConformingDirichletConstraints::processor, NonoverlappingConformingDirichletConstraints::volume, compute_ghosts", "dune/pdelab/constraints/p0.hh: P0ParallelConstraints", "dune/pdelab/constraints/p0ghost.hh: P0ParallelGhostConstraints", "dune/pdelab/constraints/raviartthomas0.hh: RT0Constraints", "dune/pdelab/constraints/interiornode.hh: InteriorNodeConstraints"]}
{"id": "C63", "title": "Hanging nodes are detected, isolated and constrained by interpolation", "statement": "On a locally refined grid the hanging node manager reports exactly the vertices that lie on the face of a coarser cell without being vertices of it; after isolation the levels of cells sharing a vertex differ by at most one; the constraints tie every hanging node to the vertices of the coarse face with the interpolation weights.", "quantifier": "all sequential grids of nested refinement, orders of cells and faces, refinement procedures", "why_tests_cant": "Refinement patterns and traversal orders are unbounded; the repository has no test of hanging nodes.", "anchors": ["dune/pdelab/constraints/hangingnodemanager.hh: HangingNodeManager::analyzeView, hangingNodes, adaptToIsolatedHangingNodes", "dune/pdelab/constraints/hangingnode.hh: HangingNodesDirichletConstraints::skeleton, CubeGridQ1Assembler::assembleConstraints, SimplexGridP1Assembler::assembleConstraints"]}
{"id": "C64", "title": "Finite volume residual is the flux balance of each cell", "statement": "Assembling the residual of ConvectionDiffusionCCFV gives, for every cell, reaction minus source times volume plus the sum over all its faces of the outward flux (upwind convection, two-point diffusion with harmonic mean, boundary conditions), whichever side each face is visited from; summed over all cells only production and boundary fluxes remain; and the assembled matrix is exactly the linear part of the residual.", "quantifier": "every grid whose interior faces are seen from both sides, all geometries, coefficients, boundary conditions, times, weights and grid functions", "why_tests_cant": "Holds for all meshes, coefficients and cell numberings; a test samples one mesh, and conservation errors can hide in the orientation of single faces.", "anchors": ["dune/pdelab/localoperator/convectiondiffusionccfv.hh: ConvectionDiffusionCCFV, ConvectionDiffusionCCFVTemporalOperator"]}
{"id": "C65", "title": "Implicit finite volume steps are monotone", "statement": "For nonnegative permeabilities and reaction and outflow conditions only on outflow boundaries, an implicit Euler step with ConvectionDiffusionCCFV satisfies a comparison principle for every step width: a smaller left-hand side has a smaller solution, the solution is unique, and nonnegative data give a nonnegative solution.", "quantifier": "every grid, all coefficients and velocity fields (not only divergence free), every step width, all grid functions", "why_tests_cant": "Discrete maximum principles are statements about all right-hand sides; a test sees no undershoot in one run.", "anchors": ["dune/pdelab/localoperator/convectiondiffusionccfv.hh: ConvectionDiffusionCCFV, ConvectionDiffusionCCFVTemporalOperator"]}
{"id": "C66", "title": "Finite volume operator: matrix-free application and time step suggestion", "statement": "Applying the Jacobian of ConvectionDiffusionCCFV without a matrix gives the product with the assembled matrix for every weight of the accumulation, and suggestTimestep returns a step in which the flow does not empty a cell.", "quantifier": "all weights, grids, coefficients and sequences of stages", "why_tests_cant": "The weight matters only inside one-step methods, and an overly large suggestion is silently accepted.", "anchors": ["dune/pdelab/localoperator/convectiondiffusionccfv.hh: jacobian_apply_*, suggestTimestep", "dune/pdelab/localoperator/numericaljacobianapply.hh: NumericalJacobianApplyBoundary"]}
{"id": "C67", "title": "The discontinuous Lagrange element on cubes is a Lagrange element", "statement": "For every degree and dimension the element has (k+1)^d shape functions; interpolating a shape function gives its unit vector; interpolation reproduces every polynomial of degree k in each variable; the shape functions are such polynomials; the reported Jacobians are their partial derivatives; and the Lagrange points it reports are the points of its polynomials.", "quantifier": "all degrees, dimensions, points, polynomials", "why_tests_cant": "Tests evaluate a few degrees at a few points; the identity is about all polynomials.", "anchors": ["dune/pdelab/finiteelement/qkdglagrange.hh: QkSize, p, dp, multiindex, QkLocalBasis, QkDGLocalCoefficients, QkLocalInterpolation, EquidistantLagrangePolynomials"]}
{"id": "C68", "title": "The Gauss-Lobatto element uses exactly the points of the quadrature rule and is a Lagrange element for them", "statement": "The points and weights of the element are those of the first Gauss-Lobatto rule with k+1 points, each once and with its own weight, without reading uninitialised entries; without such a rule construction throws; mirrored rules give symmetric points with the left half first; and the element has the Lagrange properties for these points.", "quantifier": "all degrees, dimensions, quadrature rules, points, polynomials", "why_tests_cant": "The reordering of the rule's points depends on the rule; a wrong permutation of weights shows only as lost accuracy.", "anchors": ["dune/pdelab/finiteelement/qkdglobatto.hh: GaussLobattoLagrangePolynomials, QkGLLocalBasis, QkGLLocalInterpolation"]}
{"id": "C69", "title": "The Legendre element is orthogonal and its interpolation is the L2 projection", "statement": "The shape functions of the Legendre element are orthogonal on the unit cube with the mean squares 1/(2a+1) per direction; the reported Jacobians are their derivatives; with a quadrature rule exact for degree 2k interpolation reproduces every polynomial of degree k in each variable, and for any function leaves a remainder orthogonal to all shape functions.", "quantifier": "all degrees, dimensions, quadrature rules of the stated exactness, functions", "why_tests_cant": "Orthogonality for all degrees is an identity between polynomials; tests sample degrees.", "anchors": ["dune/pdelab/finiteelement/qkdglegendre.hh: LegendrePolynomials1d, DGLegendreLocalBasis, DGLegendreLocalInterpolation"]}
{"id": "C70", "title": "The basis cache returns what the basis would return", "statement": "A query of the local basis cache returns the values (or Jacobians) of the given basis at the given position, whatever was asked before.", "quantifier": "all histories of queries, positions, basis objects", "why_tests_cant": "Histories are unbounded, and tests always use the same basis object at quadrature points that are far apart.", "anchors": ["dune/pdelab/finiteelement/localbasiscache.hh: LocalBasisCache::evaluateFunction, evaluateJacobian, less_than"]}
{"id": "C71", "title": "Partitions of unity of the GenEO preconditioner", "statement": "standardPartitionOfUnity gives every rank, at every DOF it stores without constraining it, one over the number of such ranks, and zero where it constrains the DOF; the values of all ranks storing a DOF are in [0,1] and add up to one unless all of them constrain it. sarkisPartitionOfUnity on YaspGrid's arrangement of the unit square with positive overlap gives values in [0,1] that vanish exactly on the outer edge of a subdomain and where the rank constrains the vertex, and add up to one over the ranks storing a vertex.", "quantifier": "all distributed grids, constraints, numbers of ranks, orders of message arrival; all partition sizes, overlaps and cell numbers", "why_tests_cant": "The identity is a statement about all ranks at once and about every shape of overlap; a test runs a few rank counts.", "anchors": ["dune/pdelab/backend/istl/geneo/partitionofunity.hh: standardPartitionOfUnity, sarkisPartitionOfUnity"]}
{"id": "C72", "title": "The coarse system of the projected coarse space is the Galerkin product", "statement": "If every rank knows all ranks it shares entities with and its matrix rows are complete where its basis vectors do not vanish, the coarse matrix entry for two basis vectors (numbered rank by rank) is the product of the one with the global matrix times the other, both extended by zero, whatever the order of message arrival and the numbers of basis vectors per rank; restriction computes the product of the fine vector with every basis vector at that basis vector's index, prolongation the combination of the rank's basis vectors. The neighbour list of the parallel helper, with which the class is set up, is enough for this.", "quantifier": "all distributed grids, neighbour structures, numbers of basis vectors per rank, matrices, orders of message arrival in every round", "why_tests_cant": "Which entries meet depends on neighbour structure and on unequal numbers of basis vectors; tests use one decomposition.", "anchors": ["dune/pdelab/backend/istl/geneo/subdomainprojectedcoarsespace.hh: setup_coarse_system, restrict, prolongate", "dune/pdelab/backend/istl/geneo/multicommdatahandle.hh: MultiCommGatherScatter", "dune/pdelab/backend/istl/parallelhelper.hh: getNeighborRanks"]}
{"id": "C73", "title": "The two-level additive Schwarz preconditioner is the sum of its corrections, symmetric and positive", "statement": "Applying the preconditioner leaves at every DOF, identically on all ranks, the sum over the ranks storing it of the subdomain solution and, if the coarse space is active, of the prolongated coarse solution. For symmetric problem matrices, with identity rows at the DOFs a rank constrains and basis vectors that vanish there, the operation is symmetric; with positive definite subdomain matrices its product with the defect is positive unless the defect vanishes.", "quantifier": "all distributed grids, defects, subdomain and coarse solvers that solve their systems, orders of message arrival", "why_tests_cant": "Symmetry and positivity quantify over all pairs of defects and all decompositions.", "anchors": ["dune/pdelab/backend/istl/geneo/two_level_schwarz.hh: TwoLevelOverlappingAdditiveSchwarz::apply"]}
{"id": "C74", "title": "The local GenEO basis", "statement": "With a threshold the basis consists of the eigenvectors before the first eigenvalue above it, and the constructor throws if there is none among the requested ones; without, of the requested number. Each basis vector is the eigenvector times the partition of unity, normalised. The number of vectors is returned in the argument nev. If asked for and the first eigenvalue is not near zero, the partition of unity itself is in the basis.", "quantifier": "all eigenvalue lists, thresholds, requested numbers, partitions of unity", "why_tests_cant": "The selection depends on the spectrum of a subdomain problem, which tests do not vary.", "anchors": ["dune/pdelab/backend/istl/geneo/geneobasis.hh: GenEOBasis", "dune/pdelab/backend/istl/geneo/liptonbabuskabasis.hh: LiptonBabuskaBasis"]}
{"id": "C75", "title": "Interpolation sets each coefficient to the value of local interpolation", "statement": "interpolate(f, space, x) changes exactly the coefficients of the elements of the space's entity set: each gets the value that local interpolation of the function belonging to its leaf computes on the last visited element having it. If neighbouring elements agree on shared coefficients the result does not depend on the order of the elements and every element gets its own local interpolant; interpolating a function of the discrete space returns its coefficients. A scalar or vector-valued function may be given at the place of an inner node of the space tree and is then used for all leaves below.", "quantifier": "all function trees, space trees, finite elements, element lists and previous vectors", "why_tests_cant": "The number and sharing of elements, the shape of the tree and the position of DOFs in the vector are unbounded; tests interpolate one function on one grid.", "anchors": ["dune/pdelab/gridfunctionspace/interpolate.hh: interpolate, InterpolateVisitor, InterpolateLeafFromScalarVisitor, InterpolateLeafFromVectorVisitor", "dune/pdelab/backend/common/uncachedvectorview.hh: write_sub_container"]}
{"id": "C76", "title": "Discrete grid functions evaluate the linear combination of the shape functions", "statement": "Evaluating a DiscreteGridFunction or VectorDiscreteGridFunction on an element gives the linear combination of the shape functions with the coefficients the vector has for this element now, whatever was evaluated before; for the interpolant of a function of the space it gives the function. The local function of a DiscreteGridViewFunction and its derivative use the coefficients the vector had when it was last bound, whatever happened before and whatever is done to the vector afterwards.", "quantifier": "all spaces, vectors, elements, points and histories of evaluations, bindings and changes of the vector", "why_tests_cant": "The mutable local space and buffer are shared by all evaluations, so each result could depend on the whole history.", "anchors": ["dune/pdelab/gridfunctionspace/gridfunctionspaceutilities.hh: DiscreteGridFunction, VectorDiscreteGridFunction", "dune/pdelab/function/discretegridviewfunction.hh: DiscreteGridViewFunction, LocalFunction", "dune/pdelab/backend/common/uncachedvectorview.hh: read"]}
{"id": "C77", "title": "Gradient, divergence, curl and Piola transform of discrete functions", "statement": "DiscreteGridFunctionGradient and VectorDiscreteGridFunctionGradient return the derivatives of the function that DiscreteGridFunction and VectorDiscreteGridFunction evaluate; VectorDiscreteGridFunctionDiv and VectorDiscreteGridFunctionCurl return their trace and curl for every kind of Jacobian matrix of the geometry; DiscreteGridFunctionPiola keeps the flux through images of edges and faces; the curl of global finite elements is the linear combination of the curls of the shape functions.", "quantifier": "all spaces, vectors, elements, points, affine or not, and histories of evaluations", "why_tests_cant": "Index patterns of the curl and the transposed inverse are easy to get wrong in a way that vanishes on the unit square; all matrices and coefficients are needed.", "anchors": ["dune/pdelab/gridfunctionspace/gridfunctionspaceutilities.hh: DiscreteGridFunctionGradient, VectorDiscreteGridFunctionGradient, VectorDiscreteGridFunctionDiv, VectorDiscreteGridFunctionCurl, DiscreteGridFunctionPiola, DiscreteGridFunctionGlobalCurl, SingleDerivativeComputationHelper", "dune/pdelab/common/jacobiantocurl.hh: JacobianToCurl"]}
{"id": "C78", "title": "Iteration over vectors", "statement": "Iterating over an ISTL vector container from begin() to end() visits every entry exactly once, in the lexicographic order of the addresses of the entries, whatever the nesting of the blocks and also if blocks are empty; begin() equals end() exactly if there is no entry.", "quantifier": "all nested vectors: all depths, all block sizes, empty blocks at all positions", "why_tests_cant": "The iterator keeps a tuple of positions and restarts inner levels; a test uses one nesting without empty blocks.", "anchors": ["dune/pdelab/backend/istl/vectoriterator.hh: ISTL::vector_iterator, start, advance, increment", "dune/pdelab/backend/istl/vector.hh: BlockVector::begin, end"]}
{"id": "C79", "title": "Access to vectors by container index", "statement": "The container index of an entry leads to this entry and distinct entries have distinct indices; with blocks of size one the component of the block may be given or left out. Writing an entry changes no other one, and a vector with the sizes that the ordering gives has an entry for every index below these sizes.", "quantifier": "all nested vectors with a uniform depth and block size, all indices, all size functions", "why_tests_cant": "The recursion runs from the last component of the index to the first with special cases for blocks of size one; tests use one nesting.", "anchors": ["dune/pdelab/backend/istl/vectorhelpers.hh: access_vector_element, resize_vector", "dune/pdelab/backend/istl/vector.hh: BlockVector::operator[]"]}
{"id": "C80", "title": "Access to matrices and clearing of rows", "statement": "The pair of container indices of a matrix entry leads to this entry. clear_row sets the entries of the row to zero and the diagonal entry, if it is in the pattern, to the given value; clear_row_block does this for all rows of the small block of the row; all other entries and the pattern stay. The indices are those the ordering hands out, also for blocks of size one.", "quantifier": "all nested sparse matrices with uniform blocks, all rows and values", "why_tests_cant": "A test looks at a few matrices of one block structure.", "anchors": ["dune/pdelab/backend/istl/matrixhelpers.hh: access_matrix_element, clear_matrix_row, clear_matrix_row_block, write_matrix_element_if_exists, write_matrix_element_if_exists_to_block", "dune/pdelab/backend/istl/bcrsmatrix.hh: operator(), clear_row, clear_row_block", "dune/pdelab/backend/istl/descriptors.hh: blocked"]}
{"id": "C81", "title": "Block diagonal of a matrix", "statement": "The block diagonal of a matrix multiplies a vector block by block with the diagonal blocks; after invert() it solves with them. Its rows are the rows of the diagonal blocks, and exchanging it between processes announces the number of values written, writes the rows of the DOFs of the entity and adds what is received to the same rows.", "quantifier": "all matrices with diagonal blocks, vectors, entities with any list of DOFs, buffers", "why_tests_cant": "Products and exchanges for arbitrary nested structures cannot be enumerated.", "anchors": ["dune/pdelab/backend/istl/blockmatrixdiagonal.hh: matrix_element_vector_from_matrix, invert_blocks, mv, row_size, row_begin, row_end, AddMatrixElementVectorDataHandle"]}
{"id": "C82", "title": "Block structure of vectors", "statement": "The nesting of the vector type chosen for a function space agrees with the container indices of its ordering: fixed blocking gives blocks of the total size of the leaf spaces below and is accepted only above unblocked spaces of known size; every dynamically blocked node adds a level.", "quantifier": "all trees of function spaces with all blockings and sizes", "why_tests_cant": "The block structure is computed at compile time; each tree is a program of its own.", "anchors": ["dune/pdelab/backend/istl/vectorhelpers.hh: leaf_vector_descriptor, cascading_vector_descriptor, parent_child_vector_descriptor", "dune/pdelab/backend/istl/descriptors.hh: VectorBackend"]}
{"id": "C83", "title": "The index set of a partition view numbers exactly its entities", "statement": "After an update, the index set of an entity set gives the entities of each geometry type in the selected codimensions and partitions the numbers 0, 1, ..., each exactly once, and the unique index numbers all of them consecutively; size(type), size(codim), types(codim), contains(type) and contains(codim) agree with that set of entities; the index of a sub-entity is the index of the entity; the result does not depend on whether the grid offers iterators for all codimensions or on the initial contents of the arrays.", "quantifier": "all grids (any dimension, geometry types, numbers of entities), all partition sets, all selections of codimensions, all initial array contents", "why_tests_cant": "Tests use a few structured grids with one geometry type per codimension.", "anchors": ["dune/pdelab/common/partitionviewentityset.hh: PartitionViewEntitySetIndexSet::update, update_codims, update, index, uniqueIndex, size, types"]}
{"id": "C84", "title": "An index set that claims to be up to date is up to date", "statement": "After any sequence of reset, addCodim, removeCodim and update, an index set with needsUpdate() == false answers for exactly the selected codimensions of the grid; update(true) after a change of the grid gives a valid numbering of the new grid; update returns whether it recomputed; contains(entity) holds exactly for the entities that have an index.", "quantifier": "all sequences of calls, all grids before and after the change", "why_tests_cant": "Quantifies over all histories of calls.", "anchors": ["dune/pdelab/common/partitionviewentityset.hh: reset, addCodim, removeCodim, needsUpdate, update, contains"]}
{"id": "C85", "title": "The element mapper is a bijection", "statement": "ElementMapper gives the elements of the grid view the numbers 0, ..., n-1, each exactly once, also with several element types and after the grid has changed.", "quantifier": "all grids with any number of element types, all changes of the grid", "why_tests_cant": "Quantifies over all mixed grids and changes.", "anchors": ["dune/pdelab/common/elementmapper.hh: ElementMapperBase::update, map"]}
{"id": "C86", "title": "Output functions show the current vector", "statement": "Every evaluation of a function produced for the VTK output returns the value for the vector at the time of the evaluation.", "quantifier": "all sequences of evaluations on cells and modifications of the vector", "why_tests_cant": "Quantifies over all interleavings of evaluations and modifications.", "anchors": ["dune/pdelab/gridfunctionspace/vtk.hh: DGFTreeCommonData::bind, DGFTreeLeafFunction::evaluate"]}
{"id": "C87", "title": "Conforming convection-diffusion operator: residual is the weak form, matrix its derivative", "statement": "The cell residual of ConvectionDiffusionFEM, tested with any finite element function v, is the quadrature sum of (A grad u).grad v - u b.grad v + (c u - f) v; Neumann faces add j v, outflow faces (u b.n + o) v; and the assembled matrices are the exact derivatives of these residuals.", "quantifier": "all dimensions, bases, geometries, coefficients, quadrature rules, coefficient vectors and boundary types", "why_tests_cant": "A test compares one matrix with finite differences on one mesh; the identity must hold for every basis and every coefficient function.", "anchors": ["dune/pdelab/localoperator/convectiondiffusionfem.hh: ConvectionDiffusionFEM::alpha_volume, jacobian_volume, alpha_boundary, jacobian_boundary"]}
{"id": "C88", "title": "Conforming convection-diffusion operator: symmetry, nonnegativity, conservation", "statement": "Without convection and with symmetric A the cell matrix is symmetric; with A positive semidefinite and c >= 0 it is positive semidefinite; and where the basis functions sum to one, the residuals of a cell sum to the integral of c u - f, those of a Neumann face to the integral of j, those of an outflow face to the integral of u b.n + o.", "quantifier": "all dimensions, bases, coefficients, quadrature rules with nonnegative weights", "why_tests_cant": "A linear solver relies on these for every mesh and every coefficient; tests sample a few matrices.", "anchors": ["dune/pdelab/localoperator/convectiondiffusionfem.hh: ConvectionDiffusionFEM::jacobian_volume, alpha_volume, alpha_boundary"]}
{"id": "C89", "title": "Discontinuous Galerkin operator: exact Jacobians", "statement": "For equal ansatz and test spaces, the matrices of ConvectionDiffusionDG (cell, all four blocks of an interior face, boundary face) are the exact derivatives of the residuals, applying the Jacobian gives the product with these matrices, and on a boundary face residual, matrix and application throw in exactly the same cases.", "quantifier": "all dimensions, bases, coefficients, faces, methods (NIPG, SIPG, IIPG), weights, penalties and coefficient vectors", "why_tests_cant": "Newton's method and matrix-free solvers rely on this for every face; a sign error in one block shows up for special data only.", "anchors": ["dune/pdelab/localoperator/convectiondiffusiondg.hh: ConvectionDiffusionDG::alpha_volume, jacobian_volume, alpha_skeleton, jacobian_skeleton, jacobian_apply_skeleton, residual_boundary_integral, jacobian_boundary"]}
{"id": "C90", "title": "Discontinuous Galerkin operator: interior faces", "statement": "The two residuals of an interior face form the interior penalty weak form; what leaves one cell enters the other; swapping inside and outside cell changes nothing; the symmetric method without convection gives a symmetric matrix; the nonsymmetric method contributes only the penalty and half the upwind jump to the energy; and a function without jump in value and normal diffusive flux gets its exact flux as residual.", "quantifier": "all faces, bases, coefficients, methods, weights and coefficient vectors", "why_tests_cant": "Which cell is the inside one depends on the grid, and conservation must hold for every face of every grid.", "anchors": ["dune/pdelab/localoperator/convectiondiffusiondg.hh: ConvectionDiffusionDG::alpha_skeleton, jacobian_skeleton"]}
{"id": "C91", "title": "Discontinuous Galerkin operator: boundary faces", "statement": "On the boundary the residual is the weak form for Dirichlet, Neumann, outflow and no condition; it throws exactly when at some point of an outflow boundary the velocity points inwards; a function taking the Dirichlet values gets its exact flux, whatever the method and the penalty; the symmetric method without convection gives a symmetric matrix, the nonsymmetric one with zero Dirichlet values the penalty and outflow energy.", "quantifier": "all boundary faces, mixed types in the points of one face, bases, coefficients, methods and coefficient vectors", "why_tests_cant": "The type may change from point to point and the exception depends on the velocity in every quadrature point.", "anchors": ["dune/pdelab/localoperator/convectiondiffusiondg.hh: ConvectionDiffusionDG::residual_boundary_integral, alpha_boundary, jacobian_boundary"]}
{"id": "C92", "title": "The nonoverlapping operator and norm compute the global product and norm", "statement": "Applied to a consistent vector, the nonoverlapping operator gives every rank, at all its interior and border DOFs, the product of the global matrix (the sum of the ranks' matrices) with the global vector; applyscaleadd adds a multiple of it to the global vector that an additive y stands for; the parallel scalar product with vectors agreeing on interior and border is the global one; the norm of the backends is the Euclidean norm of the global vector that an additive vector stands for.", "quantifier": "all distributed grids, numbers of ranks and DOFs, matrices, vectors, container nestings and orders of message arrival", "why_tests_cant": "Tests run on a few ranks; which copies are summed depends on the decomposition.", "anchors": ["dune/pdelab/backend/istl/novlpistlsolverbackend.hh: NonoverlappingOperator::apply, applyscaleadd, NonoverlappingScalarProduct::dot, norm, make_consistent, ISTLBackend_NOVLP_*::norm"]}
{"id": "C93", "title": "The parallel diagonal preconditioner and the diagonal solvers divide by the global diagonal", "statement": "NonoverlappingJacobi divides by the diagonal of the global matrix and keeps consistent vectors consistent and additive vectors additive; the diagonal solvers for explicit time stepping return, consistently on all ranks, the quotient of the global right hand side and the global diagonal.", "quantifier": "all distributed grids, matrices, vectors and orders of message arrival", "why_tests_cant": "On one rank and for cell-centred spaces, which the tests use, no DOF is shared.", "anchors": ["dune/pdelab/backend/istl/novlpistlsolverbackend.hh: NonoverlappingJacobi, ISTLBackend_NOVLP_ExplicitDiagonal::apply", "dune/pdelab/backend/istl/ovlpistlsolverbackend.hh: ISTLBackend_OVLP_ExplicitDiagonal::apply"]}
{"id": "C94", "title": "The overlapping operator computes the global product where a rank does not constrain", "statement": "If the rows of a rank's unconstrained DOFs are complete, the overlapping operator applied to a consistent vector gives zero at the rank's constrained DOFs and the global product at the others; with owners constraining only the global Dirichlet DOFs its parallel scalar product is the global form, and it is symmetric for a symmetric global matrix on vectors vanishing at the Dirichlet DOFs.", "quantifier": "all distributed grids, overlaps, constraints, matrices and vectors", "why_tests_cant": "The result differs between copies of a DOF by design; that the scalar product never sees this is a statement about all decompositions.", "anchors": ["dune/pdelab/backend/istl/ovlpistlsolverbackend.hh: OverlappingOperator::apply, applyscaleadd, OverlappingScalarProduct::dot"]}
{"id": "C95", "title": "Overlapping Schwarz preconditioners give consistent corrections, symmetric if the local ones are", "statement": "The wrapped preconditioner gives every copy of a DOF the sum over all ranks storing it of the local preconditioner applied to the defect without constrained values; the exact subdomain solvers the sum of the subdomain solutions; the restricted solver the value computed by the owner. In the parallel scalar product the wrapped preconditioner is symmetric and nonnegative on residuals that agree where unconstrained, if the local ones are.", "quantifier": "all distributed grids, constraints, local preconditioners and orders of message arrival", "why_tests_cant": "Symmetry quantifies over all pairs of residuals and all decompositions.", "anchors": ["dune/pdelab/backend/istl/ovlpistlsolverbackend.hh: OverlappingWrappedPreconditioner::apply, UMFPackSubdomainSolver::apply, SuperLUSubdomainSolver::apply, RestrictedSuperLUSubdomainSolver::apply"]}
{"id": "C96", "title": "make_consistent sums the matrix entries of shared border DOFs", "statement": "After make_consistent the entry of two border DOFs is, on every rank on which both are border DOFs, the sum of the entries of all these ranks; all other entries are unchanged, and no entry outside the pattern is accessed.", "quantifier": "all nonoverlapping distributed grids, constraints, local patterns, orderings and orders of message arrival", "why_tests_cant": "Which ranks contribute depends on the decomposition; the tests use few decompositions and equal spaces.", "anchors": ["dune/pdelab/gridoperator/common/borderdofexchanger.hh: accumulateBorderEntries, EntryAccumulator, gather_data", "dune/pdelab/gridoperator/gridoperator.hh: make_consistent"]}
{"id": "C97", "title": "The matrix pattern of nonoverlapping decompositions contains all exchanged couplings and no more", "statement": "Every rank records exactly the couplings of unconstrained border DOFs, announces the number of data it sends, and its pattern becomes its own pattern and the couplings another rank has recorded between DOFs that are border DOFs of both.", "quantifier": "all nonoverlapping distributed grids, constraints, local patterns and orders of message arrival", "why_tests_cant": "A missing coupling shows only for decompositions in which two DOFs are shared but coupled on one rank only.", "anchors": ["dune/pdelab/gridoperator/common/borderdofexchanger.hh: addEntries, size, gather_pattern, PatternExtender", "dune/pdelab/gridoperator/default/patternengine.hh: scatterPattern, postAssembly"]}
{"id": "C98", "title": "The border index id cache describes the border entities of the grid", "statement": "After construction or update, isBorderEntity holds exactly for border entities, id and index are inverse to each other on them, and no other id is found.", "quantifier": "all grids, partitions and histories of updates", "why_tests_cant": "The cache is correct after the first update and wrong only after a change of the grid.", "anchors": ["dune/pdelab/common/borderindexidcache.hh: BorderIndexIdCache, update, isBorderEntity, id, index, findIndex"]}
{"id": "C99", "title": "The block Jacobi preconditioner solves the diagonal blocks", "statement": "Applying the assembled block Jacobi preconditioner to z gives on every cell the vector y with D y = z, where D is the diagonal block of the cell, whatever row exchanges the decomposition made; the iterative version gives the same when its local solver converges.", "quantifier": "every block size, block, row exchange and right hand side", "why_tests_cant": "a test solves blocks that need few or no row exchanges; using the permutation instead of its inverse goes unnoticed for involutions", "anchors": ["dune/pdelab/backend/istl/matrixfree/assembledblockjacobipreconditioner.hh: AssembledBlockJacobiPreconditionerLocalOperator", "dune/pdelab/backend/istl/matrixfree/iterativeblockjacobipreconditioner.hh: IterativeBlockJacobiPreconditionerLocalOperator"]}
{"id": "C100", "title": "The block SOR preconditioner performs one relaxed Gauss-Seidel sweep over the cells", "statement": "One application updates every cell once with the new values of the cells visited before and the old values of the others, relaxed with omega; a vector is unchanged by the sweep exactly when it solves the system.", "quantifier": "every mesh, numbering, block size, relaxation factor and coefficients", "why_tests_cant": "reading an old value where a new one is due only changes the convergence rate", "anchors": ["dune/pdelab/backend/istl/matrixfree/blocksorpreconditioner.hh: BlockSORPreconditionerLocalOperator"]}
{"id": "C101", "title": "The matrix-free preconditioners use the blocks of the point of the last demanded setup", "statement": "After pre() an application uses blocks assembled at the linearization point of the last demanded setup; a nonlinear problem without a linearization point is refused; every setup stores the inverse of the point diagonal.", "quantifier": "every history of setting the point, demanding setup, pre and apply", "why_tests_cant": "tests set up a preconditioner once", "anchors": ["dune/pdelab/backend/istl/matrixfree/gridoperatorpreconditioner.hh: GridOperatorPreconditioner", "dune/pdelab/backend/istl/matrixfree/iterativeblockjacobipreconditioner.hh: alpha_volume"]}
{"id": "C102", "title": "Solver statistics describe the values of all ranks", "statement": "size, avg, stddev, min and max are the number, mean, corrected deviation and extrema of the values appended on all ranks.", "quantifier": "every number of ranks and every sequence of appended values", "why_tests_cant": "overflow of the sums and ranks without a value do not occur in short test runs", "anchors": ["dune/pdelab/backend/istl/matrixfree/solverstatistics.hh: SolverStatistics"]}
{"id": "C103", "title": "The monomials of an orthonormal basis are enumerated once each", "statement": "The L2-orthonormal basis of order k in d dimensions is built from every monomial of total degree at most k (respectively degree at most k in each variable) exactly once; the size it reports is their number; for total degree the monomials come in order of degree, so the basis of a smaller order is a prefix.", "quantifier": "every order k, dimension d and both kinds of spaces", "why_tests_cant": "The enumeration recurses over degree and dimension; tests look at a few orders in two and three dimensions.", "anchors": ["dune/pdelab/finiteelement/l2orthonormal.hh: PkSize, QkSize, MultiIndex, pk_multiindex, qk_multiindex, BasisTraits"]}
{"id": "C104", "title": "Monomial integrals over the reference element are exact", "statement": "The integral of a monomial that the basis construction uses equals the integral over the reference cube or simplex; binomial coefficients are exact.", "quantifier": "every multiindex, cube and simplex, every dimension with an integrator", "why_tests_cant": "The closed formulas contain alternating sums and integer products that overflow at degrees no test reaches.", "anchors": ["dune/pdelab/finiteelement/l2orthonormal.hh: binomial, MonomialIntegrator"]}
{"id": "C105", "title": "The basis is orthonormal and spans the polynomial space", "statement": "The functions returned by evaluateFunction are orthonormal in L2 of the reference element and span exactly the polynomial space of the order requested; evaluateFunction(l,...) returns the functions of order up to l, which span the space of order l.", "quantifier": "every order, dimension, shape and evaluation point for which the construction succeeds", "why_tests_cant": "Orthonormality of the Gram-Schmidt result holds for all orders only by induction over the rows.", "anchors": ["dune/pdelab/finiteelement/l2orthonormal.hh: OrthonormalPolynomialBasis::orthonormalize, evaluateFunction"]}
{"id": "C106", "title": "Derivatives and interpolation of the orthonormal basis", "statement": "evaluateJacobian returns the derivatives of the functions that evaluateFunction returns; interpolation of a function in the space with a sufficiently exact quadrature rule returns its coefficients; partial derivatives of nonzero order are rejected; all degrees of freedom belong to the element interior and have distinct keys.", "quantifier": "every constructed basis, evaluation point, function of the space and exact quadrature rule", "why_tests_cant": "The gradient coefficients are computed once from a table of lowered multiindices; tests sample points and low orders.", "anchors": ["dune/pdelab/finiteelement/l2orthonormal.hh: OrthonormalPolynomialBasis::evaluateJacobian, OPBLocalBasis, OPBLocalCoefficients, OPBLocalInterpolation"]}
{"id": "C107", "title": "Wave fluxes are split by the direction of the waves", "statement": "For the linear acoustics operator (1, 2, 3 dimensions) and the Maxwell operator, and for every face normal: the eigenvector matrices consist of waves of the equations with the speeds +c, -c and 0, they are regular, and the matrices A+ and A- multiply every wave that leaves (enters) the cell by its speed and annihilate the others.", "quantifier": "all positive speeds of sound, permittivities and permeabilities, all unit normals (including those where the choice of tangential vectors switches)", "why_tests_cant": "the normals form a continuum and the tangential vectors are chosen by a threshold; a test meets a handful of normals", "anchors": ["dune/pdelab/localoperator/linearacousticsdg.hh: LinearAcousticsEigenvectors, DGLinearAcousticsSpatialOperator::alpha_skeleton", "dune/pdelab/localoperator/maxwelldg.hh: MaxwellEigenvectors, DGMaxwellSpatialOperator::alpha_skeleton"]}
{"id": "C108", "title": "The upwind flux between two cells is conservative and consistent", "statement": "What a cell loses through a face in the acoustics or Maxwell operator is what its neighbour gains, and if the equations' own fluxes on both sides agree then the numerical flux is that flux.", "quantifier": "all bases that contain the constants, all states, materials and rules", "why_tests_cant": "it must hold for every face of every mesh and every pair of materials", "anchors": ["dune/pdelab/localoperator/linearacousticsdg.hh: alpha_skeleton", "dune/pdelab/localoperator/maxwelldg.hh: alpha_skeleton"]}
{"id": "C109", "title": "The wave operators assemble the weak form", "statement": "Volume, skeleton, boundary and source terms of the acoustics and Maxwell operators are the quadrature sums of the weak form, the temporal operator is the mass form, its Jacobian is its matrix and the declared pattern contains all entries of it.", "quantifier": "all bases, rules, geometries, states and materials", "why_tests_cant": "there are infinitely many elements, rules and states", "anchors": ["dune/pdelab/localoperator/linearacousticsdg.hh: DGLinearAcousticsSpatialOperator, DGLinearAcousticsTemporalOperator", "dune/pdelab/localoperator/maxwelldg.hh: DGMaxwellSpatialOperator, DGMaxwellTemporalOperator"]}
{"id": "C110", "title": "The wave schemes conserve and do not create energy", "statement": "On a mesh of one material, without sources, with absorbing boundaries, walls or perfect conductors and exact rules, the spatial residual tested with the solution in the energy product is nonnegative, so the energy cannot grow; for any materials the total of each component changes only by the boundary flux and by conduction.", "quantifier": "all meshes, numbers of cells, bases, states", "why_tests_cant": "stability is a statement about all states on all meshes", "anchors": ["dune/pdelab/localoperator/linearacousticsdg.hh: alpha_volume, alpha_skeleton, alpha_boundary", "dune/pdelab/localoperator/maxwelldg.hh: alpha_volume, alpha_skeleton, alpha_boundary"]}
{"id": "C111", "title": "Taylor-Hood assembles the Navier-Stokes equations and their derivative", "statement": "The residual of the Taylor-Hood operator, tested with any velocity and pressure test function, is the quadrature sum of mu grad u : grad v (plus the transposed part if the full tensor is chosen) - p div v - q div u, plus the convection term rho (u . grad) u . v if it is switched on; force, mass source and stress boundary data enter as the weak form says, other boundary types add nothing; the assembled Jacobian is the derivative of the residual.", "quantifier": "all dimensions, numbers of basis functions, quadrature rules, geometries, coefficients, states and directions, both switches", "why_tests_cant": "a test compares one flow on one mesh; a missing or transposed term of the Jacobian only slows the Newton iteration there", "anchors": ["dune/pdelab/localoperator/taylorhoodnavierstokes.hh: TaylorHoodNavierStokes::alpha_volume, lambda_volume, lambda_boundary, jacobian_volume", "dune/pdelab/localoperator/stokesparameter.hh: StokesBoundaryCondition"]}
{"id": "C112", "title": "The Stokes problem keeps its structure", "statement": "Without convection the assembled matrix is symmetric, and testing the residual with the velocity and the negative pressure leaves exactly the viscous dissipation, which is not negative for nonnegative viscosity and weights.", "quantifier": "all dimensions, numbers of basis functions, rules, geometries, viscosities and states, with and without the full tensor", "why_tests_cant": "symmetry and sign must hold for every mesh and state; solvers such as MINRES rely on it", "anchors": ["dune/pdelab/localoperator/taylorhoodnavierstokes.hh: TaylorHoodNavierStokes::alpha_volume, jacobian_volume"]}
{"id": "C113", "title": "Linear elasticity", "statement": "The residual is the quadrature sum of 2 mu eps(u) : eps(v) + lambda div u div v minus the force; the assembled matrix is the matrix of this residual, symmetric and positive semidefinite; rigid motions cause no residual.", "quantifier": "all dimensions, numbers of basis functions, rules, geometries, Lame parameters, displacements and test functions", "why_tests_cant": "a test compares one displacement; a swapped index of the shear terms shows only for other fields", "anchors": ["dune/pdelab/localoperator/linearelasticity.hh: LinearElasticity::alpha_volume, jacobian_volume, lambda_volume, lambda_boundary"]}
{"id": "C114", "title": "Mass operators", "statement": "The mass operators add rho (or scaling) times the L2 product of every velocity component (or every leaf of the space) to the residual, leave the pressure alone, assemble the matrix of this form, apply the same matrix-free, and the form is symmetric and positive semidefinite.", "quantifier": "all numbers of components and basis functions, rules, densities, states and test functions", "why_tests_cant": "time stepping relies on matrix and residual agreeing for every space", "anchors": ["dune/pdelab/localoperator/navierstokesmass.hh: NavierStokesMass, NavierStokesVelVecMass", "dune/pdelab/localoperator/l2.hh: L2, impl::ScalarL2", "dune/pdelab/localoperator/blockdiagonal.hh: BlockDiagonalLocalOperatorFullCoupling"]}
{"id": "C115", "title": "Mixed diffusion", "statement": "The residual of the mixed operator is the weak form of K^-1 sigma + grad u = 0, div sigma + c u = f with fluxes transformed by the Piola transformation, Dirichlet data entering through the normal flux of the test functions.", "quantifier": "all dimensions, flux and pressure bases, rules, cells, tensors, reaction coefficients and states", "why_tests_cant": "shipped tests have no reaction term or unit cells", "anchors": ["dune/pdelab/localoperator/diffusionmixed.hh: DiffusionMixed::alpha_volume, lambda_volume, lambda_boundary"]}
{"id": "C116", "title": "Nonlinear convection and diffusion", "statement": "The residual is the weak form of div(q(u) - D v(u) grad w(u)) = f(u) with flux data j(u): the parameter functions are evaluated at the value of the discrete solution u.", "quantifier": "all dimensions, bases, rules, tensors, nonlinearities f, q, v, w, j and states", "why_tests_cant": "tests choose w(u) = u, for which a wrong argument does not show", "anchors": ["dune/pdelab/localoperator/nonlinearconvectiondiffusionfem.hh: NonLinearConvectionDiffusionFEM::alpha_volume, alpha_boundary"]}
{"id": "C117", "title": "Two-phase fluxes over a face", "statement": "For each phase, the two-phase operator adds to the inside cell and subtracts from the outside cell the same flux: mean molar density times averaged mobility times potential difference, with the saturation of the cell the phase flows from; the result does not depend on the side the face is visited from, a phase in hydrostatic equilibrium does not flow, otherwise it flows down its potential.", "quantifier": "all parameter functions with nonnegative permeabilities and positive viscosities, geometries, pressures, scales and both phases", "why_tests_cant": "the two phases may flow in the same or in opposite directions or rest, which the code distinguishes by a product of signs; tests see few of these combinations", "anchors": ["dune/pdelab/localoperator/twophaseccfv.hh: TwoPhaseTwoPointFluxOperator::alpha_skeleton, aavg, havg"]}
{"id": "C118", "title": "Two-phase balances of mass", "statement": "On every mesh the residual of a cell is what leaves through its faces minus the sources, scaled with the factor of the phase, so that in total only the boundary fluxes and the sources remain; Dirichlet and Neumann data enter as stated, the storage term is porosity times saturation times molar density times volume; the parameter interface passes each query to the method of the same name.", "quantifier": "all meshes, parameter functions, boundary types and data, scales and pressures", "why_tests_cant": "conservation is a statement about all meshes and states; default scales of 1 hide a mixed-up factor", "anchors": ["dune/pdelab/localoperator/twophaseccfv.hh: TwoPhaseTwoPointFluxOperator, TwoPhaseOnePointTemporalOperator, TwoPhaseParameterInterface"]}
{"id": "C119", "title": "Phase velocities", "statement": "The velocity fields of the two phases have on every face the normal component the operator uses as flux there, and reproduce constant fields on cells with a linear map.", "quantifier": "all cells with linear maps, dimensions, parameter functions, boundary types and pressures", "why_tests_cant": "tests with incompressible phases or one material cannot see a density taken at the wrong pressure or in the wrong cell", "anchors": ["dune/pdelab/localoperator/twophaseccfv.hh: V_l, V_g"]}
{"id": "C120", "title": "The residual estimator for conforming elements computes squared indicators", "statement": "Assembling the residual estimator for conforming finite elements gives for every cell the square of its indicator: the squared size of the cell times the squared norm of the residual f - c u, plus on each interior face the size of the larger neighbour times the squared norm of half the jump of the normal flux, plus on each Neumann face the size of the cell times the squared mismatch of the flux. The size is the largest distance of two corners. The values are not negative and do not depend on the cell from which a face is visited.", "quantifier": "all dimensions, grids, faces in either orientation, symmetric tensors, local spaces, coefficient vectors, quadrature rules", "why_tests_cant": "The estimator has to be a sum of squares for every solution and every parameter; a test checks the refinement it causes on a few problems, mostly without reaction.", "anchors": ["dune/pdelab/localoperator/convectiondiffusionfem.hh: ConvectionDiffusionFEMResidualEstimator"]}
{"id": "C121", "title": "The discontinuous Galerkin error indicator is a sum of squares that detects every defect", "statement": "Assembling the error indicator for discontinuous Galerkin methods gives for every cell the square of the indicator of the thesis it implements: interior residual, jumps of the flux, jumps of the solution and mismatch with Dirichlet values, scaled with size, degree, penalty and the smallest diagonal entry of the tensor. The values are not negative, do not depend on the orientation of the faces, and all vanish exactly if in all quadrature points the equation holds, solution and flux are continuous and the Dirichlet values are met.", "quantifier": "dimensions 2 and 3, all grids, faces in either orientation, symmetric tensors with positive diagonal, local spaces of degree at least one, coefficient vectors, quadrature rules with positive weights", "why_tests_cant": "Reliability of the indicator means that no defect of any solution is overlooked; that is a statement about all coefficient vectors.", "anchors": ["dune/pdelab/localoperator/errorindicatordg.hh: ConvectionDiffusionDG_ErrorIndicator", "dune/pdelab/localoperator/eval.hh: evalFunction, evalGradient"]}
{"id": "C122", "title": "The temporal estimators measure the change over the step", "statement": "Assembling a temporal estimator gives for every cell the square of its indicator: norms of the jump of the solution and of the deviation of source and boundary flux from their mean over the time step by Simpson's rule. The values are not negative; they vanish for a solution and data that do not change, and the first one only then. Afterwards the parameter object stands at the end of the time step, whatever time it had before.", "quantifier": "all start times and step sizes, cells, data depending arbitrarily on the time, jumps and quadrature rules", "why_tests_cant": "The data are arbitrary functions of the time and the parameter object is changed during the loops; tests see a few of them.", "anchors": ["dune/pdelab/localoperator/convectiondiffusionfem.hh: ConvectionDiffusionTemporalResidualEstimator1, ConvectionDiffusionTemporalResidualEstimator, CD_RHS_LocalAdapter"]}
{"id": "C123", "title": "Darcy velocity of a finite volume solution is conservative", "statement": "The velocity field reconstructed from cell-wise pressures has, at every point of every face of an affine cube cell, the normal component of the two-point flux (boundary data on boundary faces); it is continuous across interior faces, balances the sources in every cell where the pressure solves the finite volume equations, is exact for uniform flow, and is the same on every process that has the cell.", "quantifier": "all grids of axis-parallel or affine cubes, data, pressures, points, evaluation histories, numbers of processes and message orders", "why_tests_cant": "Conservation is a statement about all points of all faces after any earlier evaluations; tests sample a few.", "anchors": ["dune/pdelab/localoperator/darcyccfv.hh: DarcyVelocityFromHeadCCFV, evaluate, VectorExchange"]}
{"id": "C124", "title": "Operators of electrodynamics", "statement": "Electrodynamic_T and Electrodynamic_S add to the residual and the matrix exactly the integrals of epsilon u.v and 1/mu curl u.curl v with the weight of the view, touch no other entries, the matrices are the derivatives of the residuals, symmetric and positive semidefinite; T vanishes only on fields that vanish in the quadrature points, S on curl-free ones, and gradients are in its kernel.", "quantifier": "all edge-element bases, coefficients, materials, quadrature rules, weights, positions of the space in the container, two and three dimensions", "why_tests_cant": "The identities range over all bases and materials; tests fix one mesh and one frequency.", "anchors": ["dune/pdelab/localoperator/electrodynamic.hh: Electrodynamic_T, Electrodynamic_S, jacobianToCurl, dimOfCurl", "dune/pdelab/localoperator/numericalresidual.hh: JacobianBasedAlphaVolume"]}
{"id": "C125", "title": "Curls and cross products agree in all dimensions", "statement": "Every overload of the cross product and of the curl of a Jacobian equals the cross product or curl in space of the vectors or fields embedded in the plane or perpendicular to it; the product is antisymmetric and perpendicular to both factors, with the parallelogram's area as length.", "quantifier": "all vectors and Jacobians", "why_tests_cant": "Sign and index conventions must be right for all arguments and consistent between two separate implementations.", "anchors": ["dune/pdelab/common/crossproduct.hh: CrossProduct, crossproduct", "dune/pdelab/common/jacobiantocurl.hh: JacobianToCurl", "dune/pdelab/localoperator/electrodynamic.hh: jacobianToCurl"]}
{"id": "C126", "title": "Darcy velocity of a finite element solution", "statement": "The field DarcyVelocityFromHeadFEM is -A grad u at every point, and tested with the gradients of the test functions it satisfies the balance that the finite element scheme solves.", "quantifier": "all cells, bases, coefficients, permeabilities and points", "why_tests_cant": "The permeability is an arbitrary function of the position; tests use constants.", "anchors": ["dune/pdelab/localoperator/darcyfem.hh: DarcyVelocityFromHeadFEM::evaluate"]}
{"id": "C127", "title": "The L2 functional is the load vector of the projection", "statement": "L2VolumeFunctional adds to every residual entry the integral of f times the test function with the weight of the view; coefficients whose mass-matrix product equals it are the L2 projection of f: the error is perpendicular to the whole space.", "quantifier": "all functions, bases, quadrature rules and weights", "why_tests_cant": "Orthogonality is a statement about all functions of the space.", "anchors": ["dune/pdelab/localoperator/l2volumefunctional.hh: L2VolumeFunctional::lambda_volume"]}
{"id": "C128", "title": "Composed grid functions are componentwise and at the time last set", "statement": "Every composition of products, differences, quotients, squares, roots, inverses, scalings, selections and sums of grid functions that compiles has in every point exactly the value that the componentwise operations give. After setTime(t) on a composition every part of it is at time t; after any history of calls each time variable has the time of the last call on a function that depends on it, and functions that share no variable with it are unaffected; setTime on a tree reaches all its leaves. Selections of components that do not exist are refused. A local function is the function in the element last bound. A function can be evaluated as soon as it is constructed.", "quantifier": "all compositions, dimensions, points, times, histories of setTime and bind", "why_tests_cant": "Compositions can be nested to any depth and share parameter objects; the value depends on the history of calls.", "anchors": ["dune/pdelab/function/product.hh: ProductGridFunctionAdapter", "dune/pdelab/function/minus.hh: MinusGridFunctionAdapter", "dune/pdelab/function/division.hh: DivisionGridFunctionAdapter", "dune/pdelab/function/sqr.hh: SqrGridFunctionAdapter", "dune/pdelab/function/selectcomponent.hh: SelectComponentGridFunctionAdapter", "dune/pdelab/function/bindtime.hh: bindTime", "dune/pdelab/function/oldinterfaceadapter.hh: LocalGridViewFunctionAdapter", "dune/pdelab/common/function.hh: PowerCompositeSetTimeVisitor"]}
{"id": "C129", "title": "Normal fluxes point outward and the backward Piola transformation inverts the forward one", "statement": "On the boundary of a triangle the normal flux adapter returns the product of the function with the outward unit normal; in points that are not on the boundary, and in elements that are not triangles, it throws. The backward Piola adapter applied to a function that was Piola transformed returns the original components.", "quantifier": "all triangles, points, velocities and all element transformations", "why_tests_cant": "Tests use one orientation of the corners; the sign depends on their numbering in every element.", "anchors": ["dune/pdelab/common/function.hh: NormalFluxGridFunctionAdapter, PiolaBackwardAdapter", "dune/pdelab/gridfunctionspace/gridfunctionspaceutilities.hh: DiscreteGridFunctionPiola"]}
{"id": "C130", "title": "Integrals count every cell once, and probes give the same value on all processes", "statement": "The sum over the processes of the integrals of a grid function is the integral over all cells, if each cell is interior on exactly one process; the integral is linear. A probe gives on all processes the value of the function in the point, as evaluated on the process with the smallest rank that has the point in its interior, and NaN if no process has it. A probe that is given its function later behaves the same.", "quantifier": "all distributions of the cells, numbers of processes, functions and points", "why_tests_cant": "The result must not depend on how the grid is distributed.", "anchors": ["dune/pdelab/common/functionutilities.hh: integrateGridFunction, GridFunctionProbe"]}
{"id": "C131", "title": "Conversions between global functions, grid functions and output keep values", "statement": "A function of global coordinates made a grid function and back has the same values in all points of the grid and throws outside; a continuous grid function made a function of global coordinates and back is the same. The output adapter writes the selected components in order, by default all of them.", "quantifier": "all grids whose search returns an element that contains the point, all functions and points", "why_tests_cant": "The element found may be any of those containing the point.", "anchors": ["dune/pdelab/common/function.hh: FunctionToGridFunctionAdapter, GridFunctionToFunctionAdapter, GlobalFunctionToLocalFunctionAdapter, GlobalFunctionToGridFunctionAdapter", "dune/pdelab/common/vtkexport.hh: VTKGridFunctionAdapter"]}
{"id": "C132", "title": "Load balancing moves DOFs with their entities", "statement": "After loadBalanceGrid every vector of every pack has on every process, for every entity, the DOFs that the entity had before: those of the process itself if it had the entity, else those of the process that sent it. If all processes agreed on a vector before they agree on the same values afterwards, however the entities moved. Each message is exactly as long as announced and is read completely.", "quantifier": "all grids, codimensions, numbers of DOFs per entity, numbers of vectors and spaces, and all sequences of moves", "why_tests_cant": "The grid decides which entities move and in which order it sends them.", "anchors": ["dune/pdelab/gridfunctionspace/loadbalance.hh: loadBalanceGrid, LoadBalanceDataHandle, loadBalanceMapFiller, loadBalanceMapReader"]}
{"id": "C133", "title": "A subspace sees the DOFs of the whole space", "statement": "Binding the local function space of a GridFunctionSubSpace to an element gives the DOF indices the whole space's local function space has for that node, whatever was bound before, and the index cache of the subspace computes for them the container indices of the whole space; so reading or writing through a subspace touches exactly the entries of the whole space's vector that belong to it.", "quantifier": "every ordering tree, every path to a node, every history of binds, every element", "why_tests_cant": "the index is assembled from the path pushed by the subspace, the visitor below the target and the levels above it; a mistake in any of them shows only for particular nestings of orderings and positions in the tree, or after several binds", "anchors": ["dune/pdelab/gridfunctionspace/subspace.hh: GridFunctionSubSpace, create_ordering_treepath_for_sub_gfs", "dune/pdelab/gridfunctionspace/subspacelocalfunctionspace.hh: SubSpaceLocalFunctionSpaceNode::bind", "dune/pdelab/ordering/subordering.hh: SubOrdering::map_lfs_indices", "dune/pdelab/gridfunctionspace/lfsindexcache.hh: LFSIndexCacheBase::update"]}
{"id": "C134", "title": "The prolongation of the DG/AMG backends embeds the CG space", "statement": "The matrix with which the DG/AMG backends transfer from the conforming to the discontinuous space maps coefficients of a conforming function to the coefficients of its interpolation in the DG space on every cell, for every component of the function space tree; if the DG space contains the shape functions, both are the same function.", "quantifier": "every grid, every pair of function space trees of the same shape, every conforming function, every point", "why_tests_cant": "The transfer depends on numberings of both spaces on every cell; wrong entries only slow the solver down.", "anchors": ["dune/pdelab/backend/istl/cg_to_dg_prolongation.hh: CG2DGProlongation", "dune/pdelab/backend/istl/seq_amg_dg_backend.hh: ISTLBackend_SEQ_AMG_4_DG"]}
{"id": "C135", "title": "The hybrid DG/AMG preconditioner", "statement": "Applying the DG/AMG preconditioner is n1 smoothing steps, a correction in the CG space and n2 smoothing steps: it is independent of the starting vector, symmetric and nonnegative for symmetric convergent parts and n1 = n2, never increases the energy of the error with exact CG solves, and the relaxation factor set by the user scales the smoother.", "quantifier": "every matrix, smoother, CG preconditioner, numbers of steps and vector", "why_tests_cant": "Symmetry and energy are statements about all vectors; a broken preconditioner still converges on examples.", "anchors": ["dune/pdelab/backend/istl/seq_amg_dg_backend.hh: SeqDGAMGPrec::apply, setDGSmootherRelaxation"]}
{"id": "C136", "title": "AMG hierarchies and the reuse flag", "statement": "Whatever sequence of solves, changes of the matrix and changes of the reuse flag a program executes, every solve works on the present matrix, with the hierarchy made at the last solve without reuse.", "quantifier": "every history of solves, assignments to and destructions of matrices and setReuse calls, every backend with AMG", "why_tests_cant": "The state of the backend depends on the whole history, and dangling references need not show in a test.", "anchors": ["dune/pdelab/backend/istl/seqistlsolverbackend.hh: ISTLBackend_SEQ_AMG", "dune/pdelab/backend/istl/ovlpistlsolverbackend.hh: ISTLBackend_AMG", "dune/pdelab/backend/istl/novlpistlsolverbackend.hh: ISTLBackend_AMG_NOVLP", "dune/pdelab/backend/istl/seq_amg_dg_backend.hh: ISTLBackend_SEQ_AMG_4_DG", "dune/pdelab/backend/istl/ovlp_amg_dg_backend.hh: ISTLBackend_OVLP_AMG_4_DG"]}
{"id": "C137", "title": "The parallel hybrid DG/AMG preconditioner", "statement": "On every overlapping decomposition and in every order of arrival of messages, applying the DG/AMG preconditioner succeeds, leaves all copies of all degrees of freedom with the same value, and is the sequential preconditioner of the global matrices with the sum of the smoothers of the ranks; for symmetric parts and n1 = n2 it is symmetric in the parallel scalar product.", "quantifier": "every number of ranks, decomposition, order of messages, smoother, numbers of steps and defect", "why_tests_cant": "Orders of messages and decompositions cannot be enumerated; wrong values in the overlap only show as slow convergence.", "anchors": ["dune/pdelab/backend/istl/ovlp_amg_dg_backend.hh: OvlpDGAMGPrec::apply"]}
{"id": "C138", "title": "DGNavierStokes assembles the interior penalty discretization", "statement": "Tested with any function of the test space, the residual of the discontinuous Galerkin operator for the (Navier-)Stokes equations is the interior penalty form: convection, viscous stress (full or half), pressure and incompressibility in cells; mean tractions against jumps, penalty and pressure on inner faces; the corresponding forms at walls with given velocity and at slip walls with any slip factor; force, mass source, given velocity and given stress as loads. With scaling 1 the cell part is that of the Taylor-Hood operator.", "quantifier": "every dimension, basis, quadrature rule, geometry, viscosity, density, penalty, epsilon, boundary condition, solution and test function", "why_tests_cant": "A wrong sign or a missing transposed term still converges for special solutions; the identity must hold for all functions.", "anchors": ["dune/pdelab/localoperator/dgnavierstokes.hh: DGNavierStokes::alpha_volume, alpha_skeleton, alpha_boundary, lambda_volume, lambda_boundary", "dune/pdelab/localoperator/dgnavierstokesparameter.hh: incompressibilityScaling"]}
{"id": "C139", "title": "The Jacobians of DGNavierStokes are derivatives of its residuals", "statement": "In inner faces and at boundaries the residual is affine in the solution and the assembled matrices are its matrix; in cells the residual at x + t z is the residual at x plus t times the assembled matrix times z plus t squared times the convection of z by itself. Matrices are added to what is there.", "quantifier": "every solution, direction, step, dimension, basis, quadrature and parameter", "why_tests_cant": "Newton converges with slightly wrong Jacobians; the derivative must be right at every solution in every direction.", "anchors": ["dune/pdelab/localoperator/dgnavierstokes.hh: DGNavierStokes::jacobian_volume, jacobian_skeleton, jacobian_boundary"]}
{"id": "C140", "title": "Symmetry and stability of the DG Stokes operator", "statement": "For the symmetric interior penalty method (epsilon -1) with scaling 1 and without convection all matrices are symmetric. For the nonsymmetric method (epsilon 1) the residual of a whole mesh without data, tested with velocity and minus pressure over scaling, consists of dissipation and penalties and is not negative.", "quantifier": "every mesh, dimension, basis, nonnegative viscosity, penalty and quadrature weight, slip factor in [0,1], solution", "why_tests_cant": "Symmetry and sign are statements about all vectors.", "anchors": ["dune/pdelab/localoperator/dgnavierstokes.hh: DGNavierStokes", "dune/pdelab/localoperator/dginteriorpenaltyparameter.hh: DefaultInteriorPenalty"]}
{"id": "C141", "title": "Orientation, conservation and consistency of the DG Stokes faces", "statement": "The contribution of a face does not depend on which of its cells is the inside; momentum leaving one cell enters the other; for a continuous velocity only the mean traction acts, whatever penalty and epsilon; where the velocity takes the given value at a wall only the traction at the wall acts; open boundaries contribute the given stress only. The default penalty is positive and equal from both sides.", "quantifier": "every face, basis, quadrature, solution, test function, penalty and epsilon", "why_tests_cant": "Orientation and order of visits are chosen by the grid; conservation must hold for all solutions.", "anchors": ["dune/pdelab/localoperator/dgnavierstokes.hh: DGNavierStokes::alpha_skeleton, alpha_boundary, lambda_boundary", "dune/pdelab/localoperator/dginteriorpenaltyparameter.hh: getFaceIP"]}
{"id": "C142", "title": "Solutions do not depend on the scaling of the incompressibility", "statement": "The scaling 1/dt of the incompressibility equation changes the matrices but not the solution: the same velocities and pressures solve the discrete equations for every dt.", "quantifier": "every mesh, time step, data and solution", "why_tests_cant": "Tests use one time step; the claim compares all of them.", "anchors": ["dune/pdelab/localoperator/dgnavierstokes.hh: DGNavierStokes::setTime, preStep, lambda_volume", "dune/pdelab/localoperator/dgnavierstokesparameter.hh: incompressibilityScaling"]}
{"id": "C143", "title": "An update gives every space the sizes of the current grid", "statement": "If update(true) on a grid function space returns, then the space and every space below it that is not inside an entity-blocked part report the number of degrees of freedom and of blocks that their finite elements have on the current grid, the ordering has the same size, spaces below report the size of the whole space as global size, and leaves inside an entity-blocked part refuse to report sizes of their own. If the grid has not changed since the entity sets were built, update() and the first ordering() give the same. update() returns for every root space with consistent entity sets and no interleaved blocks, and throws if an entity-blocked space has leaves on different entity sets.", "quantifier": "all grids, all trees of spaces, all histories of building, changing and updating entity sets and spaces (copies only of spaces not yet updated)", "why_tests_cant": "sizes depend on the whole history of shared entity sets and spaces; tests update a freshly built space once", "anchors": ["dune/pdelab/gridfunctionspace/gridfunctionspacebase.hh: GridFunctionSpaceBase, update, update_entity_sets", "dune/pdelab/gridfunctionspace/powercompositegridfunctionspacebase.hh: PowerCompositeGridFunctionSpaceBase", "dune/pdelab/gridfunctionspace/gridfunctionspace.hh: GridFunctionSpace::ordering, update", "dune/pdelab/ordering/gridviewordering.hh: GridViewOrdering::update", "dune/pdelab/ordering/leafgridviewordering.hh: LeafGridViewOrdering::update", "dune/pdelab/ordering/lexicographicordering.hh: LexicographicOrdering::update", "dune/pdelab/common/partitionviewentityset.hh: PartitionViewEntitySet"]}
{"id": "C144", "title": "A space that is part of another space cannot be used as a root", "statement": "A power or composite space makes its children non-root spaces for ever, and these refuse update() and ordering(); the constructor throws exactly if one of the children is a root space that reports sizes. Nothing else takes the root status away, and a root space that reports sizes stays a root and keeps reporting sizes.", "quantifier": "all histories of building, nesting, copying and updating spaces", "why_tests_cant": "a statement about every later point of every program", "anchors": ["dune/pdelab/gridfunctionspace/gridfunctionspacebase.hh: GridFunctionSpaceBase::isRootSpace, setDOFCountsAvailable", "dune/pdelab/gridfunctionspace/powercompositegridfunctionspacebase.hh: PowerCompositeGridFunctionSpaceBase, reset_root_space_flag"]}
{"id": "C145", "title": "The sizes of a space change only when it is updated", "statement": "The sizes a root space reports after an update stay the same until the next update() of this space, whatever is done to the grid, the entity sets and other spaces; a space reports sizes only after update() or ordering() of a space it belongs to; update() of one space changes only the sizes of this space and its descendants, also if spaces are copied or share children.", "quantifier": "all histories of building, nesting, copying and updating spaces", "why_tests_cant": "non-interference over all later programs; copies share the ordering, which a test of one space does not see", "anchors": ["dune/pdelab/gridfunctionspace/gridfunctionspacebase.hh: GridFunctionSpaceBase, update", "dune/pdelab/gridfunctionspace/gridfunctionspace.hh: GridFunctionSpace::ordering", "dune/pdelab/ordering/orderingbase.hh: OrderingBase::update, setDelegate, _gfs_data"]}
{"id": "C146", "title": "A call on a space that throws leaves the spaces as they were", "statement": "If a constructor, update() or ordering() throws, all spaces report the same sizes as before, the entity sets keep their numbering, the children stay usable on their own, and a later ordering() does not return an ordering that was never set up; every space below an updated root can report the global size.", "quantifier": "all histories of building, nesting, copying and updating spaces, all failing calls", "why_tests_cant": "the state after a failing call at any point of any program", "anchors": ["dune/pdelab/gridfunctionspace/gridfunctionspacebase.hh: GridFunctionSpaceBase::update, update_ordering", "dune/pdelab/gridfunctionspace/gridfunctionspace.hh: ordering", "dune/pdelab/gridfunctionspace/compositegridfunctionspace.hh: ordering", "dune/pdelab/ordering/interleavedordering.hh: InterleavedOrdering::update", "dune/pdelab/ordering/entityblockedlocalordering.hh: EntityBlockedLocalOrdering"]}
{"id": "C147", "title": "Finite element maps announce the dofs of their elements", "statement": "For every finite element map, the dofs that a cell collects from its vertices, edges, faces and interior according to size(), are as many as its element has shape functions; hasDOFs(codim) is true for exactly the codimensions where size() is positive; and maxLocalSize() is not exceeded. The block size derived from a map is positive exactly if all entities that carry dofs carry the same number.", "quantifier": "all orders (up to integer overflow), all dimensions, all geometry types, simplices and cubes", "why_tests_cant": "Sizes are closed formulas in order and dimension; a test fixes a few pairs, and a wrong size on an unused codimension only shows up as an ordering error on other grids.", "anchors": ["dune/pdelab/finiteelementmap/pkfem.hh: PkLocalFiniteElementMapBase::size, hasDOFs, maxLocalSize", "dune/pdelab/finiteelementmap/qkfem.hh: size, hasDOFs", "dune/pdelab/finiteelementmap/pkqkfem.hh", "dune/pdelab/finiteelementmap/rt0cube2dfem.hh, bdm1cube2dfem.hh, rannacherturekfem.hh, edges0.5fem.hh, powerfem.hh", "dune/pdelab/finiteelementmap/utility.hh: finite_element_map_block_size"]}
{"id": "C148", "title": "Pk elements of neighbouring cells fit together", "statement": "Two simplices that share an edge assign the Lagrange nodes on this edge to the dofs of the edge in the same order, whatever the local numbering of the vertices in the two cells.", "quantifier": "all triangles and tetrahedra, all vertex numbers, all orders and all nodes of an edge", "why_tests_cant": "The mismatch needs order 3 or more and cells with opposite local orientation; structured test grids have few of these combinations.", "anchors": ["dune/pdelab/finiteelementmap/pkfem.hh: PkLocalFiniteElementMapBase<GV,D,R,k,2>::find, PkLocalFiniteElementMapBase<GV,D,R,k,3>::find", "dune/pdelab/finiteelementmap/pkqkfem.hh: PkQkLocalFiniteElementMap::find"]}
{"id": "C149", "title": "Normal and tangential continuity of vector valued elements", "statement": "Raviart-Thomas and BDM maps give the two cells at an interior face elements with opposite outer normals for this face and outward normals at the boundary; edge element maps give all cells at an edge the same tangent.", "quantifier": "all grids, all cells and faces, all global vertex ids", "why_tests_cant": "The orientation depends on the neighbourhood and numbering of each cell; a wrong sign on one face of one configuration needs exactly that grid.", "anchors": ["dune/pdelab/finiteelementmap/rt0cube2dfem.hh: RT0Cube2DLocalFiniteElementMap, find", "dune/pdelab/finiteelementmap/bdm1simplex2dfem.hh: BDM1Simplex2DLocalFiniteElementMap", "dune/pdelab/finiteelementmap/edges0.5fem.hh: EdgeS0_5LocalFiniteElementMap::find"]}
{"id": "C150", "title": "Maps with state return the element asked for", "statement": "In maps of variable order find() and getOrder() use the order last set for the cell, and the default order otherwise. In mimetic maps find() returns the element for the number of faces of the cell, and references it returned remain valid.", "quantifier": "all sequences of setOrder()/find() calls, all numbers of cells and faces", "why_tests_cant": "It is a statement about histories: truncation, a grid changed in between and a reallocation are only visible in particular sequences.", "anchors": ["dune/pdelab/finiteelementmap/variablemonomfem.hh: setOrder, getOrder, find, getFEM", "dune/pdelab/finiteelementmap/variableqkdgfem.hh, variableopbfem.hh", "dune/pdelab/finiteelementmap/mimeticfem.hh: find"]}
{"id": "C151", "title": "Spaces on dune-functions bases number dofs as the basis does", "statement": "On a grid function space built from a dune-functions basis every dof of every element is found under its entity and number with the index of the basis; each entity announces as many dofs as it carries; over all entities the indices are 0, ..., size()-1, each exactly once.", "quantifier": "all grids, all bases whose elements agree on shared dofs, all entities and dofs", "why_tests_cant": "The tables are filled element by element; a wrong entry needs a particular combination of subentity type, index and number.", "anchors": ["dune/pdelab/gridfunctionspace/dunefunctionsgridfunctionspace.hh: LeafOrdering::update, size, extract_entity_indices, containerIndex"]}
{"id": "C152", "title": "contains() and fixedSize() of these spaces describe the dofs of the grid", "statement": "contains(codim) is true exactly if some entity of the codimension carries dofs; fixedSize(codim) is true exactly if all entities of the codimension carry the same number. Both are defined for every grid.", "quantifier": "all grids including mixed types and empty partitions, all bases and codimensions", "why_tests_cant": "The flags are only used in parallel communication, where a wrong value shows up as corrupted buffers on mixed grids.", "anchors": ["dune/pdelab/gridfunctionspace/dunefunctionsgridfunctionspace.hh: LeafOrdering::update, contains, fixedSize"]}
{"id": "C153", "title": "Local function spaces, ordering and index cache of these spaces agree", "statement": "For every local dof, the ordering maps its dof index to the container index the local function space reports; all processes list the dofs of a shared entity in the same order; the index cache reports the constraints of the space.", "quantifier": "all elements, local dofs, bases and constraints, all orders of visiting the elements", "why_tests_cant": "Disagreement needs order 3 and a reversed edge, or constraints on a space of this kind; neither occurs in first order tests.", "anchors": ["dune/pdelab/gridfunctionspace/dunefunctionslocalfunctionspace.hh: dofIndex, containerIndex", "dune/pdelab/gridfunctionspace/dunefunctionslfsindexcache.hh: LFSIndexCacheBase::update, isConstrained", "dune/pdelab/gridfunctionspace/dunefunctionsgridfunctionspace.hh: LeafOrdering::containerIndex, extract_entity_indices"]}
{"id": "C154", "title": "Updates and copies of these spaces", "statement": "After update() all copies of a space report the size and ordering for the current grid, until the next change; find() of the finite element map returns the finite element of the element asked for; copies are usable on their own.", "quantifier": "all histories of adapting the grid, copying, destroying, updating and looking up elements", "why_tests_cant": "It is a statement about histories and object lifetimes.", "anchors": ["dune/pdelab/gridfunctionspace/dunefunctionsgridfunctionspace.hh: GridFunctionSpace::update, size, Traits::FEM::find, LeafOrdering"]}
{"id": "C155", "title": "The generalized eigenvalue solver returns eigenpairs", "statement": "For matrices A, B, a shift and a requested number of pairs, the eigenvalue solver behind the GenEO coarse space returns vectors x and values lambda with A x = lambda B x, sorted ascendingly, and these values are the ones closest to the shift (those the coarse space is built from).", "quantifier": "all matrices, shifts, numbers of pairs and all results of the Arnoldi iteration", "why_tests_cant": "The relation of the values of the inverted operator to the requested ones must hold for every matrix and shift; tests look at a few spectra.", "anchors": ["dune/pdelab/backend/istl/geneo/arpackpp_geneo.hh: ArpackGeneo::ArPackPlusPlus_Algorithms::computeGenNonSymMinMagnitude, ISTL_to_ARPACK operator multMv"]}
{"id": "C156", "title": "The overlap operator assembles exactly the overlap", "statement": "Wrapping a local operator for the overlap region yields exactly the contributions of the wrapped operator on the cells all of whose degrees of freedom are shared by several subdomains, independently of the side from which faces are visited, and its sparsity pattern covers them.", "quantifier": "all partitions, local operators, cells and faces", "why_tests_cant": "Depends on which degrees of freedom of each cell are shared, over all partitions.", "anchors": ["dune/pdelab/backend/istl/geneo/localoperator_ovlp_region.hh: LocalOperatorOvlpRegion"]}
{"id": "C157", "title": "Benchmark output describes the measured durations", "statement": "Whatever sequence of runs and tasks is timed, printing lists exactly the tasks that were started, with each run's duration and the minimum, maximum, mean and standard deviation of these durations; starting more runs than announced is refused.", "quantifier": "all histories of run and task timings and prints", "why_tests_cant": "The state machine with its staleness flag has unboundedly many histories.", "anchors": ["dune/pdelab/common/benchmarkhelper.hh: BenchmarkHelper, BenchmarkEntry, Timing"]}
{"id": "C158", "title": "Log tags are scoped and leave the stream alone", "statement": "A temporary log tag formatter is in use exactly during its scope, whatever is nested in it; writing a tag leaves the formatting state of the stream as it was; local tags add their pieces in order; after the parallel setup tags have the same length on all ranks.", "quantifier": "all nestings of scopes and formatter changes, all formatters and streams, all host names, process ids and numbers of ranks", "why_tests_cant": "Nesting depth, formatters and ranks are unbounded.", "anchors": ["dune/pdelab/common/logtag.hh: WithLogtag, LocalTag, setLogtagFormatter, logtag", "dune/pdelab/common/logtag.cc: logtagSetupMPI, hostRankWallUserLogtagFormatFunc, hostPidWallUserLogtagFormatFunc"]}
{"id": "C159", "title": "The operator with vector-valued velocities assembles the interior penalty Navier-Stokes forms", "statement": "For all vector-valued velocity bases, scalar pressure bases, geometries, quadrature rules and coefficients, the residual of DGNavierStokesVelVecFEM tested with any test function is the sum over the quadrature points of: in cells mu grad u : grad v - p div v - scaling q div u and, if convection is switched on, rho (u . grad) u . v; on inner faces the tractions and pressures averaged against the jumps, the symmetry term and the penalty; on walls with given velocity the same with the data, on walls with given stress the stress; and minus the force. With full_tensor the viscous stress is mu (grad u + (grad u)^T).", "quantifier": "all bases, geometries, quadrature points, coefficients, test functions, boundary conditions, flags and parameters of the method", "why_tests_cant": "A test compares the solution of one flow on one mesh with an expected error, which a wrong sign in a consistent term or a flag without effect can pass; the identity is for all bases and coefficients.", "anchors": ["dune/pdelab/localoperator/dgnavierstokesvelvecfem.hh: DGNavierStokesVelVecFEM::alpha_volume, alpha_skeleton, alpha_boundary, lambda_volume, contraction, add_compute_flux, VectorBasisInterfaceSwitch"]}
{"id": "C160", "title": "The Jacobians of the operator with vector-valued velocities are the derivatives of its residuals", "statement": "For all bases, states and directions: on inner faces and boundaries the residual changes along a direction by exactly the product of the Jacobian with it; in cells the difference is the convection of the direction by itself, quadratic in the step, so the Jacobian is the derivative. Jacobians are added to what the matrices held.", "quantifier": "all bases, geometries, quadrature points, states, directions, step lengths and previous contents of the matrices", "why_tests_cant": "Tests let Newton converge, which an inexact Jacobian also does, only more slowly.", "anchors": ["dune/pdelab/localoperator/dgnavierstokesvelvecfem.hh: jacobian_volume, jacobian_skeleton, jacobian_boundary"]}
{"id": "C161", "title": "Vector-valued and scalar velocity bases give the same discretization", "statement": "With the product basis of a scalar basis, DGNavierStokesVelVecFEM and DGNavierStokes (without the transposed gradient) assemble the same residuals in cells, on inner faces and on boundaries. Exchanging the two sides of a face changes nothing, the symmetric method has symmetric matrices for the Stokes equations, and the nonsymmetric one satisfies the energy balance.", "quantifier": "all scalar bases and dimensions, geometries, quadrature points, coefficients, test functions and boundary conditions", "why_tests_cant": "The two operators are never run on the same problem in the tests; agreement is a statement about all coefficients.", "anchors": ["dune/pdelab/localoperator/dgnavierstokesvelvecfem.hh: DGNavierStokesVelVecFEM", "dune/pdelab/localoperator/dgnavierstokes.hh: DGNavierStokes"]}
{"id": "C162", "title": "Function space facades act the same on any number of processes", "statement": "Any program of assembleConstraints, clearConstraints, setConstrainedDOFS, setNonConstrainedDOFS, copyConstrainedDOFS and copyNonConstrainedDOFS calls has the same effect on every copy of every degree of freedom as on one process: the constrained degrees of freedom are those on the Dirichlet boundary of the whole domain, and each call changes exactly those its name says.", "quantifier": "all programs of calls, distributed grids, boundary conditions, vectors, hash orders and message orders", "why_tests_cant": "Unboundedly many call histories and partitions of the grid.", "anchors": ["dune/pdelab/boilerplate/pdelab.hh: CGSpace, DGPkSpace, CGCONBase, DGCONBase", "dune/pdelab/constraints/common/constraints.hh: set_constrained_dofs, copy_constrained_dofs, set_nonconstrained_dofs, copy_nonconstrained_dofs"]}
{"id": "C163", "title": "Structured boxes become the grid that was asked for", "statement": "A structured Yasp grid is created exactly for boxes with positive extensions whose lower corner is the origin (up to rounding), with the given numbers of cells, periodicity and overlap; other boxes are refused with an exception.", "quantifier": "all corners, numbers of cells, periodicities, overlaps and dimensions", "why_tests_cant": "The range of corners is continuous.", "anchors": ["dune/pdelab/boilerplate/pdelab.hh: StructuredGrid"]}
{"id": "C164", "title": "Output file names are distinct and sorted", "statement": "Different time steps of a computation get different file names, which a directory listing shows in the order of the time steps, also for different base names; a name obtained once stays valid.", "quantifier": "all base names, numbers and histories of calls", "why_tests_cant": "Base names and histories are unbounded, and the failures occur at the limits of buffers and integers.", "anchors": ["dune/pdelab/common/instationaryfilenamehelper.hh: FilenameHelper"]}
{"id": "C165", "title": "Refinement isolates hanging nodes on every kind of cell and ends", "statement": "adaptToIsolatedHangingNodes returns after finitely many sweeps, never refines beyond the finest level present, and leaves a grid on which cells sharing a vertex, and a simplex and the cells at a node hanging in the middle of one of its edges, differ by at most one level. Only cells that violate this are refined, whatever the size of the domain.", "quantifier": "all two- and three-dimensional grids of cubes and simplices, all refinement histories", "why_tests_cant": "Depends on all possible refinement patterns; termination is not observable by tests.", "anchors": ["dune/pdelab/constraints/hangingnodemanager.hh: HangingNodeManager::adaptToIsolatedHangingNodes"]}
{"id": "C166", "title": "A local operator hears of every step and stage once, in the documented order", "statement": "While OneStepMethod or ExplicitOneStepMethod advance in time, each of the two local operators receives preStep with start, size and number of stages, then preStage (with time and number) and postStage for each stage in turn, then postStep; it is evaluated only between the preStage and the postStage of a stage; both operators hear the same. When something throws, what was received is an initial part of this sequence.", "quantifier": "every time stepping scheme with any number of stages, every grid sweep and solver behaviour, every call that may throw, every history of steps", "why_tests_cant": "The order of calls depends on the scheme, on how often the solver assembles and on where an exception is thrown; tests run a few schemes without exceptions.", "anchors": ["dune/pdelab/instationary/implicitonestep.hh: OneStepMethod::apply", "dune/pdelab/instationary/explicitonestep.hh: ExplicitOneStepMethod::apply", "dune/pdelab/gridoperator/onestep.hh: OneStepGridOperator::preStep, preStage, postStage, postStep, explicit_jacobian_residual", "dune/pdelab/localoperator/idefault.hh: InstationaryLocalOperatorDefaultMethods"]}
{"id": "C167", "title": "A local operator is evaluated at the time it was told", "statement": "Whenever a local operator is evaluated in a stage, the time last given to setTime is the time of the coefficients it is evaluated with: that of x_i for an earlier solution, that of the stage for the unknown. No evaluation with a coefficient that is not negligible is left out.", "quantifier": "every scheme, stage, place of the grid sweep, solver behaviour and exception", "why_tests_cant": "The time an operator sees is left over from whichever setTime came last; only a statement over all sequences of calls rules out a stale one.", "anchors": ["dune/pdelab/gridoperator/onestep/prestageengine.hh: preAssembly, setTimeInLastStage, assembleUVVolume", "dune/pdelab/gridoperator/onestep/residualengine.hh: preAssembly", "dune/pdelab/gridoperator/onestep/jacobianengine.hh: preAssembly", "dune/pdelab/gridoperator/onestep/jacobianresidualengine.hh: assembleUVVolume, assembleUVSkeleton"]}
{"id": "C168", "title": "The step size is asked for once, after the first stage is assembled", "statement": "suggestTimestep is called only by explicit steps, at most once per step and operator, in stage 1 after all evaluations of that stage; if the controller asks, both operators are asked; the stages after the first use the size that was settled.", "quantifier": "every explicit scheme, grid, controller and exception", "why_tests_cant": "Operators collect the information for suggestTimestep while they are evaluated; a call too early or a stage at the old size shows only for particular schemes and sizes.", "anchors": ["dune/pdelab/instationary/explicitonestep.hh: ExplicitOneStepMethod::apply, CFLTimeController", "dune/pdelab/gridoperator/onestep.hh: OneStepGridOperator::suggestTimestep"]}
{"id": "C169", "title": "A local matrix is a matrix", "statement": "Whatever sequence of resizing, assigning, scaling and setting entries a LocalMatrix has gone through, every entry of its shape can be read; setting an entry is seen at that entry and at no other; the constructor, assign and operator= give every entry the value, operator*= multiplies every entry; umv and usmv add the (scaled) product with a vector to the first entries of the result and leave the rest; an iterator loop ends and visits every entry exactly once row by row, also without rows or columns, and -- undoes ++; resizing to more columns keeps the entries.", "quantifier": "all local matrices reachable by any sequence of calls, all entries, vectors and factors", "why_tests_cant": "Aliasing of entries or a wrong end iterator shows only for particular shapes; the law must hold for all shapes and histories.", "anchors": ["dune/pdelab/gridoperator/common/localmatrix.hh: LocalMatrix, Iterator, umv, usmv, resize, assign"]}
{"id": "C170", "title": "Weighted accumulation views add weighted contributions", "statement": "Accumulating through any number of weighted views of a local vector adds to each entry exactly the contributions to it, each times the weight of its view (rawAccumulate leaves the weight out); weights of nested views multiply at any depth; setting the weight of one view affects no other; modified() says whether the view has been handed out for writing since it was made or reset.", "quantifier": "all local vectors, views, weights, nestings and sequences of calls", "why_tests_cant": "The sum and the flag depend on the whole history of calls through all views of the vector.", "anchors": ["dune/pdelab/gridfunctionspace/localvector.hh: WeightedVectorAccumulationView, accumulate, rawAccumulate, setWeight, modified, resetModified, data"]}
{"id": "C171", "title": "Views exchange local and global values exactly", "statement": "Reading through a vector view (all entries, those of a child, or those of a child into a container of its own) fills exactly the local places with the entries at their global indices; writing stores them; adding adds every local value to its entry, also if an index is repeated; no other entry and no other container changes; write then read gives the values back and read then write changes nothing; over any history only containers the view was attached to change; matrix views read, write and add entry (i,j) at the container indices of row i and column j; using a view that is detached or unbound is an error.", "quantifier": "all containers, index lists, children, local values and sequences of attach, bind, read, write, add, unbind and detach", "why_tests_cant": "Repeated indices, children in any order and views that are rebound give unboundedly many index patterns and histories.", "anchors": ["dune/pdelab/backend/common/uncachedvectorview.hh: attach, detach, bind, read, write, add, read_sub_container, write_sub_container, add_sub_container", "dune/pdelab/backend/common/uncachedmatrixview.hh: read, write, add"]}
{"id": "C172", "title": "Basic geometry types and topology ids", "statement": "For reference elements of every dimension, the basic type deduced from dimension and topology id is simplex exactly for simplices, cube exactly for cubes of dimension two and more, and none otherwise; the geometry type made from a basic type and a dimension is the element of that name, and names that do not exist in a dimension are refused.", "quantifier": "all reference elements (sequences of cones and prisms) of all dimensions, all basic types", "why_tests_cant": "The deduction works on bit patterns of every length; tests use dimensions up to three.", "anchors": ["dune/pdelab/common/topologyutility.hh: BasicTypeFromDimensionAndTopologyId, geometryTypeFromBasicType"]}
{"id": "C173", "title": "Adapters between Dirichlet and flux constraint parameters", "statement": "An adapter reports exactly one of Dirichlet and Neumann everywhere and passes on the answer it is made from; stacking adapters changes nothing; setTime through any adapter reaches the parameters below, so all adapters on the same parameters see the time set last.", "quantifier": "all parameter classes, stacks of adapters sharing parameters, and histories of constructions and setTime calls", "why_tests_cant": "Sharing by reference makes the answer of one adapter depend on calls through another; tests use one adapter at one time.", "anchors": ["dune/pdelab/constraints/common/constraintsparameters.hh: FluxFromDirichletConstraintsAdapter, DirichletFromFluxConstraintsAdapter"]}
{"id": "C174", "title": "The error of two grid functions is a distance", "statement": "Integrating the squared difference of two grid functions (DifferenceSquaredAdapter with integrateGridFunction, summed over the processes) and taking the root gives a number that is zero exactly if the functions agree in all quadrature points with positive weight of interior cells, does not depend on the order of the functions, obeys the triangle inequality, scales with the functions, and does not depend on how the interior cells are distributed. The integral of DifferenceAdapter is the difference of the integrals.", "quantifier": "all functions with any number of components, all lists of processes with all lists of cells, all quadrature rules with non-negative weights", "why_tests_cant": "A test compares with one reference value; the laws range over all functions, meshes, rules and distributions.", "anchors": ["dune/pdelab/gridfunctionspace/gridfunctionadapter.hh: DifferenceAdapter, DifferenceSquaredAdapter", "dune/pdelab/common/functionutilities.hh: integrateGridFunction"]}
{"id": "C175", "title": "Eigen solver backends solve the assembled system", "statement": "If apply of an Eigen backend reports convergence, the defect of the assembled system is reduced by the demanded factor, whatever the solution vector contained before and whatever was solved before with the same backend; matrix and right hand side are unchanged. This should also hold for the matrices assembled with Dirichlet constraints.", "quantifier": "all matrices, right hand sides, reductions and histories of calls, both triangles, all solvers of Eigen that keep their promise", "why_tests_cant": "Tests solve one problem; which triangle of an unsymmetric matrix matters depends on the numbering of constrained DOFs.", "anchors": ["dune/pdelab/backend/eigen/solvers.hh: EigenBackend_BiCGSTAB_Base, EigenBackend_CG_Base", "dune/pdelab/gridoperator/default/jacobianengine.hh: scatter_jacobian", "dune/pdelab/gridoperator/common/assemblerutilities.hh: set_trivial_rows"]}
{"id": "C176", "title": "Statistics of a matrix describe its pattern", "statement": "The statistics returned by patternStatistics() give the number of nonzero entries, the length of the longest row, the number of entries beyond the estimate, the estimate and the number of rows of the matrix; for nested matrices one for each leaf block in row-major order. They describe the matrix the object presently holds, and a matrix keeps them.", "quantifier": "all sequences of links, estimates and nesting depths; all histories of constructing, copying, assigning, attaching and detaching matrix objects", "why_tests_cant": "Statistics depend on the order in which links fill or overflow the rows and on the history of objects that may share storage.", "anchors": ["dune/pdelab/backend/istl/patternstatistics.hh: PatternStatistics", "dune/pdelab/backend/istl/bcrsmatrixbackend.hh: allocate_bcrs_matrix, buildPattern", "dune/pdelab/backend/istl/bcrsmatrix.hh: patternStatistics, operator=, attach, detach"]}
{"id": "C177", "title": "The matrix-free backend solves with the Jacobian at the present linearization point", "statement": "A solve of the matrix-free backend is a run of the solver with the Jacobian at the present content of the vector given to the last setLinearizationPoint; a nonlinear problem without a point is refused and a linear one needs none; the blocks of the preconditioner belong to the point of the first solve after setup was demanded; in Newton's method every correction uses the Jacobian at the current iterate.", "quantifier": "every history of writing and freeing vectors, setting the point, demanding setup and solving, every solver that only calls the operator and the preconditioner, every problem and number of Newton steps", "why_tests_cant": "which Jacobian is applied depends on what happened to the caller's vectors between the calls; a stale preconditioner only slows the solver down", "anchors": ["dune/pdelab/backend/istl/matrixfree/backends.hh: ISTLBackend_SEQ_MatrixFree_Base", "dune/pdelab/backend/istl/seqistlsolverbackend.hh: OnTheFlyOperator", "dune/pdelab/backend/istl/matrixfree/gridoperatorpreconditioner.hh: GridOperatorPreconditioner", "dune/pdelab/solver/newton.hh: NewtonMethod::apply"]}
{"id": "C178", "title": "The deprecated Newton solver keeps the promises of the new one", "statement": "Newton::apply returns normally only if the criterion holds for the defects it reports, which are those of the solution handed back and of the start vector; every exception leaves the result marked as not converged and says what happened; the line search accepts a good step or restores the solution; every matrix used was assembled in this call unless kept on purpose; options are read from the documented keys; and, apart from repeated passes after a failed line search, it does what NewtonMethod does with the same options. Every call is defined and comes to an end.", "quantifier": "all problems, norms, linear solvers (also failing ones), options, start vectors, states left by earlier calls and parameter trees", "why_tests_cant": "which pass fails and which matrix is reused depends on the history of defects; a retry only happens for particular combinations of threshold and line search", "anchors": ["dune/pdelab/newton/newton.hh: NewtonBase, NewtonSolver, NewtonTerminate, NewtonPrepareStep, NewtonLineSearch, Newton, setParameters"]}
{"id": "C179", "title": "Every selected component is written to the VTK file under its own name with its own values", "statement": "addSolutionToVTKWriter adds, in the order of the tree, one data set for every leaf space and every vector space the predicate selects and nothing else, of the kind of data the space asks for. Named components get prefix, name and suffix, others the numbers of their path; names of different components differ. It throws exactly if a component has neither a name nor prefix or suffix, and the components before it have been added. The values are those of the discrete function, zero on cells without it, and component k of a vector space is the function of its child k.", "quantifier": "all trees of spaces, predicates, naming schemes, writers, entity sets, cells, points, bases and coefficients", "why_tests_cant": "trees, paths and naming schemes are unbounded; tests write a few named spaces defined on the whole grid", "anchors": ["dune/pdelab/gridfunctionspace/vtk.hh: addSolutionToVTKWriter, DefaultFunctionNameGenerator, add_solution_to_vtk_writer_visitor, DGFTreeLeafFunction, DGFTreeVectorFunction", "dune/pdelab/gridfunctionspace/localfunctionspace.hh: finiteElement"]}
{"id": "C180", "title": "The error distribution tells how the error is spread over the elements", "statement": "error_distribution reports the number of elements, the largest and the total error and one line for each bin. Each line gives the number of elements whose error is at most its threshold and, if there is an error at all, their share of the total; the threshold of bin k is, up to the largest error times about 2^-30, the point where the share exceeds (k+1)/bins. Thresholds, counts and shares do not decrease, and the last line covers all elements.", "quantifier": "all vectors of nonnegative errors and numbers of bins", "why_tests_cant": "The result of the bisection depends on ties and gaps between the errors; tests look at one vector.", "anchors": ["dune/pdelab/adaptivity/adaptivity.hh: error_distribution"]}
