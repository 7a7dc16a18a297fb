{
"C01": ["proved", "All capacities, storages and operation sequences, with the exact contract boundary; equality, hashing, conversion between capacities and views."],
"C02": ["proved", "All lexicographic trees; also all well-formed flat trees and separation for mixed blocking. Refuted for unblocked entity-blocked orderings with varying sizes and for nested local container blocking (both outside the English statement)."],
"C03": ["partial", "Layout and bijection proved for all balanced interleavings; the clause that an accepted update() never maps outside the container is false of the code (c03_update_accepts_unbalanced_refuted)."],
"C04": ["proved", "All chunk sizes and all flat wrapped orderings; update throws exactly when not divisible."],
"C05": ["partial", "perm is applied and bijective; the clause that the user's permutation is in effect after update() is false of the code: update() overwrites it with the identity (refuted)."],
"C06": ["proved", "For well-formed trees with existence, and for any tree where mapIndex is defined."],
"C07": ["proved", "All well-formed trees on a common grid."],
"C08": ["partial", "Exact for all trees whose blocking sits above flat parts; outside that class three refutations."],
"C09": ["proved", "All link sequences, estimates and nestings; the reserved sentinel column is the one value that cannot be stored (c09_reserved_column_refuted)."],
"C10": ["proved", "sizes() and overflowCount() proved; colOrdering() returns the row ordering (refuted)."],
"C100": ["proved", "over the reals, for cells of the interior partition; the diagonal preconditioner enters through the contract that C99 proves for the assembled version"],
"C101": ["partial", "the protocol and the first setup are proved; a second setup of the iterative preconditioner adds the new point diagonal to the inverted old one (c101_diagonal_refuted)"],
"C102": ["partial", "true when no sum overflows and, for extrema, every rank has a value; false otherwise (c102_empty_refuted, c102_overflow_refuted)"],
"C103": ["proved", "Total degree above 24 throws by design of the enumeration loop; theorem c103_throws states it."],
"C104": ["partial", "Whenever a value is returned it is the integral; c104_overflow_refuted: (30 over 14) overflows long, reached on tetrahedra by monomials of degree 28."],
"C105": ["partial", "Orthonormality and span are proved for every basis that is constructed; c105_overflow_refuted: degree 14 on the tetrahedron is undefined behaviour; c105_order_qk_refuted: the functions up to order l of a tensor-product basis do not span the space of order l."],
"C106": ["proved", "The quadrature rule is characterised by its exactness on the monomials of degree 2k of the element at hand."],
"C107": ["proved", "Acoustics in one, two and three dimensions and Maxwell in three; FieldMatrix::solve and invert are assumed to solve the systems they are given, which are shown to be regular."],
"C108": ["partial", "Conservation for all materials. Consistency for cells of the same material; where the speed of sound jumps it fails (c108_jump_acoustics_refuted: a fluid at rest under uniform pressure gets a flux of mass). For Maxwell the same defect is documented in the class comment."],
"C109": ["proved", "Volume, face, boundary and source terms, mass operator with Jacobian and pattern."],
"C11": ["proved", "All normalised values and operation sequences; integer overflow of time_t is not modelled."],
"C110": ["proved", "Energy for constant materials, zero sources, absorbing boundaries, walls and perfect conductors, with exact rules; conservation for any materials."],
"C111": ["proved", "Tested with an arbitrary test function, the Taylor-Hood residual is the weak form of the (Navier-)Stokes equations at the quadrature points; loads; the Jacobian is the derivative, with the exact quadratic remainder."],
"C112": ["proved", "Symmetry of the Stokes matrix, energy identity and dissipation, with and without the full tensor."],
"C113": ["proved", "Weak form, loads, matrix = residual operator, linearity, symmetry, semidefiniteness, rigid motions in the kernel."],
"C114": ["proved", "Navier-Stokes mass (scalar and vector valued basis), L2 over any tree of leaves."],
"C115": ["partial", "Weak form without reaction or on cells with integration element one; c115_residual_general states what is computed in general; c115_reaction_refuted: the reaction term lacks the integration element."],
"C116": ["partial", "Weak form for w(u) = u; c116_residual_general states what is computed in general; c116_source_refuted: f, q, v and j are evaluated at the interpolation of w(u)."],
"C117": ["proved", "Flux of each phase over a face equals the two-point flux with its own upstream saturation, opposite for the two cells, independent of the side, driven by the potential; bounds of the averaged mobility."],
"C118": ["partial", "Cell balances and conservation for the liquid, and for the gas if both phases have the same scale; storage in full; c118_gas_scale_refuted: the gas flux over Dirichlet boundaries is scaled with scale_l; c118_interface_viscosity_refuted: the parameter interface forwards mu_g to mu_l."],
"C119": ["partial", "Normal velocities equal the fluxes if the liquid molar density is constant and the gas mass density does not depend on the cell; c119_liquid_refuted, c119_gas_refuted otherwise; the Raviart-Thomas field has these normal velocities and reproduces constant fields."],
"C12": ["partial", "Proved for non-negative times and every stream precision; negative times print a wrong number (c12_negative_times_misprinted characterises it, c12_negative_difference_refuted is the witness)."],
"C120": ["partial", "with a reaction term the cell contributes f^2 - (c u)^2 instead of (f - c u)^2 and the squared indicator can be negative (c120_negative_refuted); proved without reaction, the faces in general"],
"C121": ["proved", ""],
"C122": ["proved", ""],
"C123": ["partial", "Proved for conforming faces of affine cube cells (normal components, continuity, local conservation, uniform flow, exchange between processes). Refuted: outflow data are ignored, a boundary condition overrides periodic neighbours, hanging-node faces keep the velocity of the last intersection, and the cached transformation makes evaluate depend on earlier evaluations in non-affine cells."],
"C124": ["proved", "Residuals, matrices, derivatives, symmetry, energies and kernels for two and three space dimensions, any weight and any position of the space in the local container."],
"C125": ["proved", "All variants against the cross product and curl in space by the Levi-Civita symbol."],
"C126": ["partial", "Proved for permeabilities constant in each cell; refuted for others: the tensor of the cell center is used at every point."],
"C127": ["proved", ""],
"C128": ["partial", "Proved for every composition and every history of setTime. Refuted: functions made by bindTime have an uninitialised time, so evaluating them before setTime is undefined."],
"C129": ["partial", "Proved for counterclockwise triangles and positive determinants. Refuted for clockwise triangles (the flux has the wrong sign) and for elements of negative orientation (the round trip changes the sign)."],
"C13": ["proved", "All shipped schemes: equivalence with a Runge-Kutta tableau for every system, order conditions, exactness on polynomials, linear test equation. Alexander 3 including its Newton loop, up to 10^-9216. Real arithmetic, no rounding."],
"C130": ["proved", "Integrals and probes for any partition of the cells and any set of processes that find the point."],
"C131": ["proved", "Round trips for all grids whose search returns an element containing the point."],
"C132": ["partial", "Proved for interior and border entities, all vectors and all moves. Refuted: overlap and ghost entities are reset to zero even if nothing moves; and if a copy outside the entity set is communicated first, the DOFs are dropped and an assertion fails."],
"C133": ["partial", "DOF indices and container indices of subspaces agree with the whole space for all orderings and histories of binds that return; binding returns when all elements fill the storage; refuted: with smaller elements repeated binds overflow the tree indices of unused storage entries."],
"C134": ["proved", "For every list of cells with trees of CG and DG spaces of the same shape: the prolongation matrix gives every cell the interpolation of the CG function, and the same function if the interpolation reproduces the shape functions."],
"C135": ["partial", "Error propagation, independence of the starting vector, symmetry, positivity, energy and Galerkin orthogonality of the hybrid preconditioner are proved for all matrices and numbers of steps. The relaxation factor of the smoother is refuted: it is stored in an int."],
"C136": ["partial", "Proved for all programs of solves, changes of the matrix and of the reuse flag for the sequential backends and, without reuse, the parallel ones. Refuted: reuse in the parallel backends is undefined behaviour, an identical matrix in another object, a second solve with the same matrix."],
"C137": ["proved", "Refinement to the sequential preconditioner for all decompositions, orders of arrival, smoothers and numbers of steps, given that the AMG maps owner-only defects to consistent corrections; symmetry in the parallel scalar product follows."],
"C138": ["proved", "Exact equality with the interior penalty forms for all dimensions, bases, quadratures and parameters, in cells, on faces and boundaries, for loads."],
"C139": ["proved", "Faces and boundaries exactly linear; cells expanded exactly with the quadratic convection term, hence the derivative."],
"C14": ["partial", "All schemes; one-step-theta needs theta >= 0, for negative theta implicit() is wrong (refuted)."],
"C140": ["proved", "Symmetry of all three matrices for epsilon -1; energy identity and nonnegativity on whole meshes for epsilon 1."],
"C141": ["proved", "Orientation (viscosity given at the point of the face), momentum conservation for bases that add up to one, consistency of faces, walls and open boundaries, default penalty."],
"C142": ["partial", "Proved for whole meshes without mass source. Refuted with a mass source: it is not scaled, so the divergence becomes dt times the source."],
"C143": ["proved", "Entity sets, spaces and orderings as in the code, for fixed-size finite elements with one geometry type per codimension. c143_force_needed shows why update() without the flag is not enough on a changed grid."],
"C144": ["proved", "Holds as stated; the state after a throwing constructor is in C146."],
"C145": ["partial", "Stability and the need for an update are proved. Refuted for copies made after the first update (the copy shares an ordering that reports to the original) and for children shared by two spaces."],
"C146": ["partial", "Proved: sizes survive every throwing call. Refuted: the throwing update() of a child updates the entity sets; a throwing constructor leaves earlier children non-root; ordering() after a failed first ordering() returns an unset ordering; inner spaces of an entity-blocked tree never report the global size."],
"C147": ["partial", "Pk, Pk1D, Q1/Q2, DG, RT, BDM, edge and power maps and block sizes for all orders/dimensions the code supports; maxLocalSize of PkQk for order >= 2 and Rannacher-Turek in 3D are refuted."],
"C148": ["partial", "Vertex maps and matching edge nodes in 2D and 3D for every numbering within a process; PkQk and independent numberings on several processes are refuted."],
"C149": ["partial", "Opposite normals on all conforming grids of one process with up to 8 faces, common tangents on cells with up to 8 edges; hanging nodes, process boundaries without overlap, refined grids and hexahedra are refuted."],
"C15": ["partial", "Full stage equation for all schemes with coefficients zero or above 1e-6; refuted for tiny coefficients, temporal post-skeleton terms and mixed two-sidedness."],
"C150": ["partial", "Variable orders on a fixed grid with maxP < 256 and mimetic references with less than 20 faces; refined grids, larger orders and cells with 20 or more faces are refuted."],
"C151": ["proved", "For every grid and every basis that numbers shared dofs consistently."],
"C152": ["partial", "contains() proved; fixedSize() proved per geometry type, refuted for codimensions with several types; empty types are undefined behaviour (refuted)."],
"C153": ["partial", "Lookup of dof indices for consistent bases; refuted for Lagrange bases of order 3, for the order of communication, and for constraints, which the cache ignores."],
"C154": ["partial", "All histories in which the first space outlives its copies; copies that outlive it and elements that are no function of the type are refuted."],
"C155": ["partial", "proved: with an exact solver for the shifted matrix and converged real pairs, the returned values and vectors are generalized eigenpairs in ascending order, a permutation of what ARPACK found, and the values are those closest to the shift; refuted: they need not be the smallest, pairs that did not converge are returned, and of complex values the real part is returned"],
"C156": ["partial", "proved: volume, boundary, lambda and post-skeleton terms exactly on cells all of whose dofs are shared, skeleton terms on faces visited from such a cell; refuted: terms of faces at the rim depend on the side of the visit, and the post-skeleton pattern is that of the volume terms"],
"C157": ["partial", "proved: for every history the listed tasks are those started and their statistics describe the recorded durations; likewise for the runs if nothing is printed during a run; correct use never fails and a further run is refused; refuted: missing runs count as zero, printing during a run leaves stale run statistics, ending an unknown task or timing after the last run is undefined"],
"C158": ["partial", "proved: nested temporary formatters restore the one before; a null formatter restores the default; flags, precision and width of the stream are kept; local tags are the log tag and their pieces; tags have equal length on all ranks after the setup; refuted: other orders of destruction, and the fill character set by a formatter stays"],
"C159": ["partial", "The forms without the transposed gradient are proved for cells, faces, boundary and force; c159_full_tensor_refuted: the flag full_tensor is never read, so the transposed part is missing."],
"C16": ["partial", "Derivative and product proved for all differentiable operators, stages and modes, without constraints, with Dirichlet constraints (c16_dirichlet, c16_dirichlet_apply) and with hanging nodes without chains (c16_hanging, c16_hanging_apply). The code violates two parts: with hanging nodes jacobian_apply differs from the matrix for updates that violate the constraints (c16_hanging_apply_refuted), and the variant of jacobian_apply for linear operators dereferences a null pointer after every history (c16_linear_apply_refuted)."],
"C160": ["proved", ""],
"C161": ["partial", "Agreement in cells, on faces and on boundaries without slip walls, orientation, symmetry and energy are proved; c161_slip_refuted: slip walls contribute nothing here, but do in DGNavierStokes. The mass source (g2) of the other operator does not occur here either."],
"C162": ["partial", "Overlapping and sequential facades: proved for every program of calls, refined to the undistributed facade. Nonoverlapping: proved where every rank that stores a Dirichlet DOF also stores a Dirichlet face with it; otherwise the code violates the property (c162_nonoverlapping_refuted: copies disagree after setConstrainedDOFS)."],
"C163": ["partial", "Proved: boxes at the origin are accepted unchanged, corners away from the origin are refused. The code does not check the extensions (c163_extent_refuted: negative length accepted)."],
"C164": ["partial", "Proved for base names up to 242 characters and numbers up to 99999, with all histories of calls. Violated by the code beyond: long base names give one name for all numbers, file 100000 sorts before 99999, names share one buffer, incrementing past INT_MAX is undefined."],
"C165": ["partial", "Isolation proved for cubes and simplices (with the extra check); termination proved with a weight over the leaf cells, for grid managers that replace marked cells by boundedly many of the next level. Violated by the code: vertices are matched by an absolute distance, so a small domain is refined unnecessarily (c165_scale_refuted)."],
"C166": ["partial", "Proved for every scheme, sweep, solver and exception: order, both operators, evaluations inside stages, initial part on exceptions. Refuted for histories with a failing stage: no postStage/postStep follows (c166_step_left_open_refuted; c166_failed_stage describes it for every failing stage)."],
"C167": ["partial", "Proved for implicit steps and for cells of explicit steps, with completeness. Refuted for the mass matrix on faces of explicit steps (c167_mass_faces_refuted; c167_explicit_times gives the time used)."],
"C168": ["partial", "Proved: who is asked, when and how often. Refuted: stages after the first still use the size the step was begun with (c168_later_stages_refuted)."],
"C169": ["partial", "Proved; keeping the entries when both dimensions grow is refuted (c169_resize_keeps_refuted: a change of the number of rows moves entries)."],
"C17": ["partial", "Proved for linear mass operators with terms on cells and faces (face terms independent of time, both operators looking at faces equally often) and an unchanged step size, without constraints (c17_general_stage_partial) and with Dirichlet constraints for the variant that interpolates boundary values (c17_general_boundary_partial); c17_general_parts says what the stage system is for every operator. Refuted: when the time controller reduces the step, for mass operators whose face terms depend on time (c17_face_time_refuted: the matrix has them at the time of the stage before), and for the variant without a boundary function, which overwrites constrained degrees of freedom (c17_plain_stage_refuted)."],
"C170": ["partial", "Proved for every history without writes through data(); those are not noticed (c170_data_refuted), nor are writes through a nested view after its parent was reset (c170_nested_refuted)."],
"C171": ["partial", "Proved; an unbound view goes on using its old indices (c171_unbind_refuted), so unbinding is no protection."],
"C172": ["partial", "Recognition of simplices and cubes, construction of all four names and the round trip for simplices and cubes are proved. Violated by the code: pyramids and prisms are reported as none (c172_pyramid_refuted), none gives a simplex (c172_none_refuted), every name is accepted up to dimension 1 (c172_low_refuted)."],
"C173": ["partial", "All parts proved; c173_outflow_refuted: for parameters with places that are neither Dirichlet nor Neumann the adapters report one of the two, as the documentation warns."],
"C174": ["proved", "Real arithmetic for floating point; quadrature rules are data of the cells. Finding: only quadrature points count, so functions that differ elsewhere may have the error zero (c174_elsewhere_refuted)."],
"C175": ["partial", "Proved for BiCGSTAB and, for symmetric matrices, CG. With Dirichlet constraints only rows are cleared, so the matrix is not symmetric; c175_dirichlet says exactly when a CG backend is still right, c175_numbering gives a class; false in general (c175_dirichlet_refuted: wrong values at constrained DOFs, reported as converged). The iterations of Eigen are a parameter with the contract that success means a reduced defect. The Cholesky and least-squares backends cannot be instantiated (no iterations()/error() in Eigen)."],
"C176": ["partial", "Numbers, order of the blocks and (without shared storage) agreement with the present pattern are proved. Violated by the code: attach() keeps the statistics of the former matrix (c176_attach_refuted), a second object built on the same storage leaves stale ones (c176_storage_refuted), copies and targets of assignments have none and asking for them throws (c176_copy_refuted, for every history)."],
"C177": ["partial", "Refuted: the blocks of the preconditioner are not renewed when the point moves, so from the second Newton step on it belongs to another matrix than the operator (c177_stale_refuted); the point is kept by address, so overwriting the vector moves it and destroying it is undefined behaviour (c177_address_refuted). Line search control and termination are those of the Newton claims."],
"C178": ["partial", "Refuted: a solver constructed with a solution vector reads flags that were never set (c178_uninitialised_refuted); with a reassemble threshold of one or more a failing line search is repeated for ever (c178_retry_forever_refuted); the documented key LineSearchDamping is ignored (c178_documented_key_refuted). Proved: normal return, exceptions, matrices used, linear iterations, line search, termination for thresholds below one, agreement with the new solver, reading of options. Not modelled: output, timings, convergence rate, lifetime of the kept vectors, result() before the first call."],
"C179": ["partial", "Refuted: a vector space evaluated on a cell outside the entity set of a child dereferences a null pointer (c179_vector_outside_refuted; leaves give zero); equal names are not noticed (c179_duplicate_refuted, c179_separator_refuted). Proved: which data sets are added in which order, when it throws and what was added before, names, values. Staleness of the local vector is part of the entity set claims. addCellFunction and addVertexFunction with a template argument have misplaced parentheses and cannot be instantiated; not modelled."],
"C18": ["proved", "In real arithmetic; for start times after the target the controller steps backwards (c18_after_target_refuted, a finding)."],
"C180": ["proved", "For every vector of nonnegative errors, in exact arithmetic; if all errors are zero the shares are not numbers (c180_zero_refuted), which is outside the statement."],
"C19": ["proved", "Implicit driver, all solver behaviours and aliasing of xold and xnew; also lifetime of stage vectors. Explicit driver: the ideal step for different xold and xnew. Findings about the explicit driver: leak on exception, no aliasing, the limiter changes xold."],
"C20": ["proved", "Norms in the reals extended by infinities and NaN; findings: one forced iteration with a budget of zero, stale defect for damping factor 1 with AcceptBest. The reported reduction is zero, not one, if no iteration was needed (c20_reduction)."],
"C21": ["partial", "Proved: sequence of solves, fresh Jacobian whenever the step was too slow, no unassembled matrix if the threshold is below 1 and the initial norm is a nonzero number, reuse flag over histories. Refuted: zero initial defect (0/0), threshold >= 1."],
"C22": ["proved", "Damping factors between 0 and 1; for damping factor 1 refuted (c22_damping_one_refuted)."],
"C23": ["proved", "All histories of import and clear. The flag is not exact after a Dirichlet contribution replaces a hanging one (c23_flag_exact_refuted), which the property does not claim."],
"C24": ["proved", "All containers and vectors. The EmptyTransformation overload of set_shifted_dofs disagrees with the general one on an empty container: c24_shifted_empty_refuted."],
"C25": ["proved", "Contributors free or Dirichlet, as stated; linearity and idempotence for all containers. For chained constraints the result depends on the traversal order: c25_chained_refuted."],
"C26": ["proved", "Real arithmetic. For chained constraints the transformations are not adjoint: c26_chained_refuted. The restricted back transformation reads contributing Dirichlet DOFs before or after zeroing them, depending on the hash order: c26_restricted_order_refuted."],
"C27": ["partial", "Proved when both index caches use the same constraints caching mode. Fails when one space has no constraints container (EmptyTransformation) and the other has hanging constraints: c27_mixed_caching_refuted."],
"C28": ["partial", "Exact visits proved for faces between two distinct cells, boundary and processor faces and volumes; a periodic self-neighbour is never visited by a one-sided operator (refuted witness)."],
"C29": ["partial", "Index counts the non-skipped intersections (proved); it differs from the position in the full intersection list when earlier intersections are skipped (refuted witness)."],
"C30": ["proved", "Sparse and dense matrix of the simple backend, any pattern and history, debug and release builds; exact arithmetic."],
"C31": ["partial", "Detected (with asserts) only when the row has no larger column; otherwise the access addresses the entry of the next larger column, and clear_row without a diagonal entry can change another row: c31_*_refuted."],
"C32": ["proved", "Thresholds of error_fraction and element_fraction for all nonnegative error vectors (exact reals). Finding: with one dominating error value the elements carrying 90% of the error are coarsened (c32_dominant_coarsened_refuted)."],
"C33": ["proved", "Exact characterisation of the marks; never both when the thresholds are ordered. Findings: both marks for overlapping thresholds, mark_grid_for_coarsening coarsens cells with large error, the strategy passes its verbosity as minimal level."],
"C34": ["proved", "Scalar shape functions, one process, exact reals. Finding: offsets cached by geometry type make spaces with varying local sizes write past the end (c34_varying_sizes_refuted)."],
"C35": ["proved", "Per evaluation, over all histories of startTimeStep/evaluate_estimators."],
"C36": ["proved", "IteratorSplit after any history of updates; METIS variant with the graph partitioner as a parameter. The automatic patch count is chosen once and kept (c36_automatic_count_is_kept)."],
"C37": ["proved", "makeGraph, DSatur and the assignment to labels, for all meshes and base partitions; success up to 253 conflicting patches, exception from 255 on, never undefined behaviour."],
"C38": ["proved", "All orders of the relaxed atomic accesses inside each phase (a superset of the interleavings). c38_two_sided_refuted: distance >= 1 does not protect sub-entities that both patches only reach through neighbours."],
"C39": ["proved", "Every order of arrival of the messages; gathers happen before the first scatter. getNeighborRanks is characterised and shown to be asymmetric (c39_neighbor_ranks_refuted), contrary to its documentation."],
"C40": ["proved", "Nested block vectors, any ownership produced by the exchange; real numbers."],
"C41": ["proved", "Any pair of sending and receiving partitions, any order of arrival; values are real numbers. Copy with disagreeing senders depends on the order (c41_copy_order_refuted). AddClear is not modelled (it does not compile with the const local view of gather)."],
"C42": ["proved", "Byte buffers with arbitrary fixed-size encodings, optional rank transmission. Outside the statement: without leaf sizes an entity outside the receiver's partitions leaves its data in the buffer (c42_outside_same_layout_refuted)."],
"C43": ["proved", "All three exchanges in any order of arrival; the index sets of all ranks come from one global enumeration of the shared DOFs."],
"C44": ["proved", "Any tree, both bind modes, any stale state."],
"C45": ["proved", "Regular bind: success, entries, distinctness, path recovery, independence of history. Fast mode writes for leaves without DOFs: c45_fast_empty_leaf_refuted."],
"C46": ["proved", "All containers, index lists and previous cache contents."],
"C47": ["proved", "Residual, Jacobian, derivative and jacobian_apply, over real arithmetic, unconstrained scatter."],
"C48": ["proved", "For finite positive norms."],
"C49": ["proved", "Real arithmetic; unsymmetric scatter."],
"C50": ["proved", "Over the reals, so without rounding errors of the difference quotient."],
"C51": ["partial", "Proved for volume and post-skeleton terms and for skeleton terms of the linear variant; boundary terms only for weight 1 and direction = linearisation point. The nonlinear skeleton and boundary variants and the weight of boundary terms violate the property (refutations)."],
"C52": ["partial", "Boundary only for equal local sizes of trial and test space: the code swaps the sizes (refutation)."],
"C53": ["partial", "LocalMatrix proved; the products of DiagonalLocalMatrix violate the property (refutation). Resizing to another number of rows moves entries (refutation)."],
"C54": ["partial", "Proved except that alpha_boundary terms of summands never reach the residual (refutation), mixed sidedness is accepted and then counts faces twice (refutations), and a weight changed from zero after matrix setup writes outside the pattern (refutation). Instationary and skip methods are not modelled: they cannot be instantiated."],
"C55": ["proved", "Residual and Jacobian methods; the methods for instationary problems forward to the backend and are not modelled."],
"C56": ["proved", "Two-sided operators that fill inside rows only and periodic faces are outside the stated range; both are recorded as refuted."],
"C57": ["partial", "Proved for spaces with one leaf and for composite spaces whose components are not coupled; refuted for coupled components (the accumulation view compares positions within the leaf only)."],
"C58": ["proved", "Reuse without an assembled matrix and a zero initial defect are outside the stated range; both are recorded as refuted. Stages of time steps with linear operators and any constraints without chains are linear problems (c58_stage_problem), so the solver reduces the stage residual (c58_stage_solves)."],
"C59": ["proved", "Holds in the stated range; c59_mixed_refuted shows the collision for cells whose sub-entities of one type carry different numbers of DOFs."],
"C60": ["partial", "Proved: residual, jacobian_apply, Jacobian and the block index for grids with one cell geometry type and blocks of the right width. Refuted: hybrid grids share blocks (c60_hybrid_refuted), wider blocks displace entries (c60_block_width_refuted), rawAccumulate of the aliased vector applies the weight again (c60_raw_refuted), interpolate with xold and x the same object (c60_interpolate_refuted)."],
"C61": ["proved", "Out of range: entries of cells of other processes (c61_overlap_refuted)."],
"C62": ["partial", "Exact set of constrained DOFs for every constraint class without skeleton terms (conforming, overlapping, nonoverlapping with ghosts, P0, P0 ghosts, RT0, interior nodes), every parameter tree and every grid; all constraints are Dirichlet; independent of visiting and hash order; an earlier content of the container is irrelevant when parameters are given. The overload without parameters does not clear the container (c62_not_cleared_refuted, exact effect in c62_added). Constraints built before compute_ghosts read out of bounds (c62_unprepared_refuted)."],
"C63": ["partial", "Detection of hanging nodes is exact on sequential grids of nested refinement; after isolation levels of cells sharing a vertex differ by at most one (if the loop returns). The weights are right if the assemblers are told the dimension of the grid, but they are instantiated with the dimension of the intersection: in 2D no hanging node is ever constrained (c63_plane_unchanged, c63_plane_refuted), in 3D an assertion fails (c63_space_abort). Distributed grids: undefined (c63_processor_refuted). The extra check for simplices and the 3D weights are not covered."],
"C64": ["proved", "Residual of every cell = production + outflow through all faces (two-point flux, upwind, harmonic mean), global conservation, residual affine with the assembled matrix as linear part; for every grid with matching faces, every coefficients."],
"C65": ["proved", "Comparison principle for the implicit Euler step with any step width; uniqueness and nonnegativity follow."],
"C66": ["partial", "Matrix-free application is exact for weight one; for other weights the boundary part lacks the weight, and the suggested time step is always 1E100 (both refuted with witnesses)."],
"C67": ["partial", "All the Lagrange properties are proved for every degree and dimension.  The points returned by EquidistantLagrangePolynomials::x are not the Lagrange points (c67_point_refuted)."],
"C68": ["proved", "The quadrature rules are any lists of points and weights; the Lagrange properties need different points."],
"C69": ["proved", "Integrals are iterated differences of antiderivatives; exactness of the quadrature rule for degree 2k is a hypothesis, met for example by Simpson's rule for k = 1."],
"C70": ["partial", "Proved for every history with one basis object and positions that are equal or more than 1e-5 apart in a coordinate; in general the answer belongs to an earlier query within 1e-5.  False for nearer positions and for different basis objects (c70_near_refuted, c70_basis_refuted). If all coordinates are equal or more than 1e-5 apart the comparison is a strict weak ordering (c70_order) and each position is computed once (c70_repeat); in general it is none, so that std::map is undefined (c70_order_refuted: three points that differ clearly, in a circle)."],
"C71": ["proved", "All parts, for real numbers."],
"C72": ["partial", "Galerkin property, restriction and prolongation proved for complete neighbour lists; c72_neighbors_refuted: the list of the parallel helper (owners only) can miss a rank that shares entities, and the set-up then throws."],
"C73": ["proved", "With solvers as parameters that solve their systems."],
"C74": ["partial", "Selection and weighting proved; refuted: unit norm, the returned number, and the presence of the partition of unity when no eigenvector is selected."],
"C75": ["partial", "A scalar or vector-valued function at the place of an inner node is proved when all leaves below live on the element; c75_subset_refuted: otherwise the finite element of a leaf without one is used (undefined behaviour), because these visitors lack the check of the size that the leaf visitor has."],
"C76": ["proved", "Over the reals; scalar shape functions per child in the vector-valued case."],
"C77": ["partial", "c77_global_curl_partial: three dimensions; c77_global_curl_refuted: in two dimensions the switch over the dimension of the curl takes the wrong case and accesses matrix or vector out of bounds. Derivatives of the shape functions and of the geometry are assumed to be what the finite element and the grid return."],
"C78": ["proved", "All nestings and sizes."],
"C79": ["proved", "Vectors of uniform depth and block size, as the C++ types have them."],
"C80": ["partial", "Access and clearing of rows are proved for all square matrices; false for the indices of leaf spaces with fixed blocking and automatic block size one: c80_unit_block_refuted."],
"C81": ["partial", "Products, inverses, rows and exchange are proved; the announced size only if the first blocks are not empty: c81_size_refuted."],
"C82": ["partial", "Fixed blocking and one level of dynamic blocking are proved (c82_dynamic_partial); false for dynamic blocking below dynamic blocking with several children (c82_nested_refuted) and for leaf blocks smaller than the number of DOFs (c82_leaf_block_refuted)."],
"C83": ["partial", "Proved for grids with iterators for all codimensions, and for partition sets consisting of the sub-entities of their elements. Missing: for other partition sets (e.g. interior only) on grids without these iterators the answers differ (c83_partition_refuted)."],
"C84": ["partial", "Proved for every history of calls on one grid and for forced updates after a change of the grid. False of the code: contains(entity) ignores the selected codimensions (c84_contains_refuted); reset() followed by the same selection hides a change of the grid (c84_stale_refuted)."],
"C85": ["partial", "Proved for the grid on which the mapper was built. False after a change of a grid with several element types: the offsets are never refreshed (c85_stale_refuted)."],
"C86": ["partial", "Proved when no cell is evaluated twice in a row across a change of the vector. False otherwise (c86_stale_refuted)."],
"C87": ["partial", "The residual is shown to be the weak form tested with every function, and the matrix its exact derivative, in any dimension and for any quadrature, except on faces of type None: there the code assembles the outflow matrix although the residual is zero (c87_boundary_refuted)."],
"C88": ["proved", "Symmetry, nonnegativity and conservation of the conforming operator on a cell; basis, geometry and coefficients are arbitrary."],
"C89": ["proved", "For equal ansatz and test spaces, which jacobian_volume and its siblings in the code assume; volume, all four skeleton blocks and boundary, and the application of the Jacobian."],
"C90": ["partial", "Weak form, conservation, independence of the orientation, symmetry of the symmetric and energy of the nonsymmetric method are shown for every face. Consistency is shown without weighting (c90_consistent_partial); with weighting the flux is damped by a factor that is one half at permeability 0.5e-20 (c90_weighted, c90_consistent_refuted)."],
"C91": ["proved", "Weak form of all four boundary types, the exception for inflow on an outflow boundary, consistency with the Dirichlet values, symmetry and energy."],
"C92": ["proved", "For every world, matrix, container nesting and order of arrival. A consistent y in applyscaleadd is counted once per copy (c92_applyscaleadd_refuted); the property is about additive y. Scalar blocks."],
"C93": ["partial", "Jacobi and the overlapping solver proved; the nonoverlapping diagonal solver only if every rank has the global diagonal, because it divides by the local part and adds the quotients (c93_explicit_refuted)."],
"C94": ["proved", "All decompositions; completeness of the unconstrained rows is what assembly on an overlapping grid provides."],
"C95": ["proved", "Local preconditioners are arbitrary functions; the hypotheses of symmetry are about the local preconditioners and the constraints."],
"C96": ["partial", "Proved when test and trial space have the same ordering; with different orderings the values go to wrong entries because the accumulator is constructed with the spaces swapped (c96_spaces_refuted)."],
"C97": ["proved", "Recording, message sizes and extension, for every order of arrival."],
"C98": ["partial", "A new cache is exact (c98_fresh, c98_inverse). A repeated update gives the right answers for border entities (c98_update) but keeps stale ids and flags (c98_update_refuted)."],
"C99": ["proved", "for every block size and every LU decomposition with row pivoting; the decomposition itself (Eigen) and the Krylov solver of the iterative version (dune-istl) enter through their contracts"]
}
