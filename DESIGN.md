# Formal model of dune-pdelab in Rocq (Coq 8.16.1)

The model is a hand translation of selected parts of `/repo/dune/pdelab` into small, total,
computable Gallina functions.  `/repo` was read as text; nothing was built or run.

## Layout

For every area `X` there are up to four files in `rocq/theories/`:

* `XModel.v` - definitions only, one per modelled C++ function, each with the file and lines it models
  and the simplifications made;
* `XSpec.v` - the small independent specification used in the theorem statements (where the statement
  needs more than standard library notions);
* `XProofs*.v` - lemmas;
* `XProps.v` - the property theorems only, each closed by `exact`, each followed by
  `Print Assumptions`, with `Example`s showing that the hypotheses are met by a non-trivial case.

Naming: theorem names start with the property id in lower case (`c09_...`).  `_partial` marks a theorem that
settles only part of the English property.  `_refuted` marks a proof that the faithful model violates the
English property; the witness is a finding about the code.

## Conventions

* Machine integers are modelled as `nat`/`N`/`Z` without wrap-around unless the property is about overflow.
* Floating point numbers are modelled as real numbers (`R`), rationals (`Q`), or an abstract ordered type
  with an explicit `NaN` outcome when the property depends on NaN behaviour.  Rounding is never modelled.
* Exceptions (`DUNE_THROW`) are `Throw` results; undefined behaviour (reading past the end, assertion
  failures under NDEBUG, dereferencing null) is a distinct `UB` outcome.
* Grids, finite elements, MPI and the linear solvers are parameters (function arguments) of the model; what
  is assumed about them is a hypothesis of the theorem.

## Plan per property

| id | modelled | proof |
|----|----------|-------|
| C01 | MultiIndex as capacity-bounded list with UB outcome | simulation with list semantics over operation lists |
| C02 | ordering tree, update(), _mapIndex | structural induction over trees; mixed-radix arithmetic |
| C03 | interleaved node | div/mod arithmetic; refutation witness for inconsistent children |
| C04 | chunked decorator | div/mod |
| C05 | permuted decorator incl. update state machine | permutation lemmas; refutation for overwritten permutation |
| C06 | batched traversal over LFS tree | induction over the tree, equal to C02 map |
| C07 | extract_entity_indices | induction over children |
| C08 | size(suffix) of every ordering | conditional theorem, refutation witnesses |
| C09, C10 | BCRSPattern slots + overflow set | invariant over add_link sequences |
| C11, C12 | TimeSpec and printing | lia; refutation for negative values |
| C13, C14 | tables over R | field/nra over Coq reals |
| C15-C17 | one-step engines as weighted sums over abstract operator values | induction over stages, linear algebra over R |
| C18 | CFL controller | lra, well-founded iteration |
| C19 | OneStepMethod::apply with oracle stage solver | induction over stages and histories |
| C20, C21 | Newton loop with oracle residuals | loop invariant on fuel-free bounded iteration |
| C22 | line search loop with oracle defect function | loop invariant |
| C23 | global constraints container | invariant over import histories |
| C24, C25 | constraint helper loops | map/fold reasoning, Permutation invariance |
| C26, C27 | local transforms, etadd, add_entry | finite sums over R / Z |
| C28, C29 | assembler driver producing an event trace | counting over traces |
| C30, C31 | CSR matrix | invariants on rowoffset/colindex, lower_bound |
| C32 | bisection | loop invariant over reals |
| C33-C35 | marking, replay, controller | case analysis, histories |
| C36 | iteratorsplit | list splitting lemmas |
| C37 | DSatur colouring | loop invariant: partial proper colouring |
| C38 | concurrent halo marking | invariants over all interleavings of atomic steps |
| C39-C41 | message delivery as arbitrary permutation of messages | order independence of folds |
| C42 | scatter loop over offsets | induction over blocks |
| C43 | prefix sums over ranks | arithmetic |
| C44, C45 | LFS visitors | tree induction |
| C46 | index cache | list reasoning |
| C47 | assembly engines as state machines driven by the call sequence of C28 | simulation against the sum of all local terms; derivative and application by linearity |
| C48 | reduction requested by the Newton solver | loop invariant of C20, real arithmetic |
| C49 | constrained scatter of Jacobians | finite sums, adjointness of C25/C26 |
| C50-C52 | finite difference Jacobians and applications of local operators | exactness for affine terms, Taylor estimate for smooth terms, refutation by evaluation |
| C53 | Jacobian based residuals, local matrices and vectors | case analysis, UB for swapped sizes |
| C54, C55 | sums, weighted sums, multiples of local operators | linearity of the engines of C47 |
| C56, C57 | block diagonal, off-diagonal and point diagonal wrappers | pairing of the two views of a face by an involution; permutation of sums |
| C58 | linear problem solver as a state machine over call histories | invariant on the stored matrix; linearity; C49 for assembled problems |
| C59 | update of a leaf from finite element sizes: geometry types in use, sizes per entity, detection of fixed sizes | invariant over the cells visited so far; connection with the index map of C02 |
| C60 | fast DG sweep, engines, aliased views and fast index cache; pointers are positions, null pointers are UB | what a sweep adds up, by induction over the calls with the bound views as state; the same sum as in C13; local numbering of blocked orderings |
| C61 | the same sweep restricted to interior cells | sum over views of faces, reindexed by the map to the other side |
| C62 | assembly loop and constraint classes over arbitrary tables of reference elements and indices; ghost tables and interior node tables | operations on local transformations add exact sets of DOFs; the global merge of C23 |
| C63 | tables of node levels, the skeleton method and its assemblers with the constant they are instantiated with | exact sets of levels per vertex under every traversal; case analysis of the assemblers |
| C64 | CCFV operator as local terms of the engine model; every geometry and parameter function | weak form tested with any grid function; mirror involution of faces; affine terms |
| C65 | capacity operator plus step width times CCFV operator | test with the indicator of the negative part |
| C66 | jacobian_apply via alpha and difference quotients; dtmin state | exactness of difference quotients for affine terms; witnesses |
| C67 | the 1-d Lagrange products, multi-indices, tensor loops, interpolation, over reals | polynomials of degree k with k+1 roots vanish; sums over multi-indices of products; product rule |
| C68 | constructor with option arrays, both loops over the rule, polynomials at arbitrary points | the index map is a bijection; exchange invariant; as C67 with any distinct points |
| C69 | the Legendre recursion for values and derivatives, tensor loops, quadrature projection | Legendre identities by induction, Sturm-Liouville antiderivatives, span of the P_i, iterated integrals of products |
| C70 | the map with its comparison with tolerance, two caches, histories | every entry explained by an earlier request; witnesses |
| C71 | standardPartitionOfUnity and sarkisPartitionOfUnity over the distributed grids of ParModel; YaspGrid's arrangement as specification | count of unconstrained holders; distances are quotients of integers, so their signs follow from the lattice |
| C72 | setup_coarse_system with all its rounds of messages, restrict, prolongate | invariant over the rounds: each block of each row holds the products with the vectors received so far; lookup in the assembled row |
| C73 | apply with arbitrary solvers | sums over ranks and DOFs exchanged; bilinear forms |
| C74 | constructor of GenEOBasis with the eigensolver as parameter | list reasoning; witnesses for the refuted parts |
| C75 | Visitors of interpolate over function and space trees, writing through the local function space of LfsModel (FunModel) | Induction over trees and elements: keys of one element are distinct, the last wanting element decides; conforming functions: order independence by permutation; unisolvence gives reproduction |
| C76 | evaluate with the mutable local space and buffer as state; LocalFunction as a machine over bind, unbind, values, derivatives, changes of the vector | Invariant "usable" over all histories; the loaded coefficients are those at the bind |
| C77 | Gradient, Jacobian, divergence, curls, Piola, global curl | Directional derivative of the evaluated function equals gradient times J v; div and curl in terms of the rows of the Jacobian; flux identities by algebra; refutation by witness |
| C78 | vectors as trees; the iterator with its tuple of positions, start and advance | the run from begin to end equals the list of all entries; induction over the tree |
| C79 | access along the container index; put and get | induction over the type of the vector |
| C80 | matrices as trees of sparse rows; access, clear_row, clear_row_block | the entries after the operation as a function of those before; refuted for unit blocks with the indices of the ordering |
| C81 | diagonal blocks, inversion, product, rows, data handle | entries of the products as sums; buffers as lists of rows |
| C82 | descriptors of the block structure over trees of spaces | induction over the tree; refuted with the container indices of C02 |
| C83 | index array filled type by type, from entity iterators or from the sub-entities of the elements | invariant of the sequence of assignments; positions disjoint by prefix sums |
| C84 | state machine of selection, flag and data | invariant over histories |
| C85 | offsets by element type | prefix sums |
| C86 | cache keyed by the cell index | invariant over histories |
| C87 | Quadrature points as records of basis values, gradients, geometry and coefficients; the loops of the conforming operator over real numbers | closed formula of the accumulation loops, linearity of finite element functions |
| C88 | the same | quadratic form of the closed formula; test function one |
| C89 | Loops of the discontinuous operator, residual pair and four matrix blocks of a face, exceptions as outcome | closed formulas of residual and blocks, linearity |
| C90 | the same; specification of the interior penalty form apart from the code's coefficients | equality of code coefficients with the specification, flip of the face |
| C91 | the same | case split over the boundary type, induction over the points |
| C92 | the distributed vectors of Par, per-rank matrices, mv/usmv, border sum; global matrix as sum of the ranks' | sums over ranks and columns exchanged; contributors of every border DOF |
| C93 | diagonal summed over the border and inverted; one Jacobi step and border sum or copy | as C92; refuted for assembled diagonals |
| C94 | mv/usmv then zero at constrained DOFs; scalar product over owners | rows complete; owner sums |
| C95 | local preconditioners as functions, all-copies sum, restricted variant | sums over holders; exchange of sums for symmetry |
| C96 | matrices with patterns (access outside is undefined), messages of ParModel, accumulator with its constructor arguments | one state per rank: a fold over the messages to the rank; sums over senders |
| C97 | recording, announced sizes, extension of patterns as lists without repetition | invariant over the links; membership after a fold |
| C98 | association lists for the maps, flags by index | invariant over the entities; witness for a second update |
| C99 | stored factors and permutation, forward and backward solve | induction over the rows of the triangular solves |
| C100 | the two-sided sweep with aliased vector | split of the cell list at the visited cell |
| C101 | preconditioner state and its operations; the diagonal cache | invariants over histories |
| C102 | sums in int, collective operations | induction over values and ranks |
| C103 | enumeration as the recursive loops of the code | list lemmas by induction over degree and dimension |
| C104 | long products with overflow as undefined behaviour, alternating sums over the reals | Riemann integrals by antiderivatives, beta integrals |
| C105 | Gram-Schmidt loops over the coefficient matrix | invariant over the rows, positive definiteness of the L2 product |
| C106 | derivative table, evaluation, interpolation | derivatives of monomials, exactness of the rule |
| C107 | eigenvector matrices and A+, A- in exact arithmetic | A+- = (A +- cP)/2 with P the projection on the moving part; generic splitting lemma |
| C108 | alpha_skeleton with separate materials per side | sums of residuals against the constant one; sum of A+ and A-; counterexample |
| C109 | all assembly loops | induction over points and loops |
| C110 | mesh as cells, interior and boundary faces | symmetric form, face dissipation, exchange of sums over cells and faces |
| C111 | Taylor-Hood alpha/lambda/jacobian as loops over components and basis functions; residuals tested with arbitrary coefficients | linear functionals of the accumulated entries; sums over test functions pulled into fields; derivative from an exact expansion |
| C112 | as C111, without convection | symmetry of the contraction, cancellation of the pressure |
| C113 | elasticity loops as written, with their index pattern | tested form; symmetric part identity; skew gradients |
| C114 | scalar operators over the leaves | tested form |
| C115 | mixed operator with Piola maps | tested form; witness for the reaction term |
| C116 | nonlinear operator with parameter functions | tested form; witness for w(u) = u^2 |
| C117 | alpha_skeleton for both phases, upwind decision as written | case distinction on the signs; symmetry of means |
| C118 | residual as folds over cells and faces | pointwise accumulation, sum over cells; witnesses for the two defects |
| C119 | vn of V_l and V_g, RT0 basis, Piola maps | adjoints, duality of RT0 and normals; witnesses |
| C120 | loops of the estimator for cells, faces and boundary over arbitrary quadrature points, assembled into one value per cell | formula by summation, sign and orientation from it; counterexample with reaction |
| C121 | loops of the indicator | formula; a sum of nonnegative terms vanishes iff every term does |
| C122 | loops of the two temporal estimators with the time of the parameter object as state | formula with Simpson's rule; variance is zero iff the three values agree |
| C123 | Vel: face velocities, RT0 evaluation with its cached Piola transformation, exchange of coefficients | linear algebra on affine cubes; permutation-invariance of messages; four findings |
| C124 | Ed: matrices with offset and weight, residual by matrix-vector product with the matrix | fold identities against bilinear forms; energies by sums of squares |
| C125 | Ed: all overloads of curl and cross product | against Levi-Civita sums, by components |
| C126 | Ed: velocity from head | linear algebra, C87's weak form; one finding (cell-center permeability) |
| C127 | Ed: load vector | sums; orthogonality by linearity |
| C128 | terms for the adapters, a store for the time variables | evaluation against an inductive meaning, by induction over the composition; histories as lists of calls |
| C129 | the flux adapter over real corners, both Piola maps over matrices | geometry of the outward normal; linear algebra |
| C130 | quadrature over cells of each process; ranks and broadcast | sums over permutations; minimum over ranks |
| C131 | the adapters over an abstract grid with search | directly from the grid's contract |
| C132 | maps from ids to DOFs, gather and scatter over value lists, transfers as a list | invariant over the transfers: what each process knows |
| C133 | path construction, batch mapping below the target, levels above it, bind of a subspace with its storage | induction over the ordering tree and the path, reusing the batched mapping; names of leaves with a prefix; counterexample for the storage |
| C134 | AmgModel: trees of leaf spaces, visitor over both trees, matrix as sparse map | induction over paths of the tree and cells: every entry is written once |
| C135 | AmgModel: hybrid_apply over generic index types and real matrices | error propagation matrix; symmetry and energy by bilinear algebra and induction over the steps |
| C136 | AmgModel: heap of matrices, backend state, references of AMG to operator and communication (to the user's matrix, a member or a stack frame) | invariants over all event lists; refutations for reuse |
| C137 | AmgParModel: two worlds (DG and CG), local smoothers, additive communication, masking, restriction, projection with the index sets of C43, AMG as collective function | forward simulation: copies of x agree, defect is correct at owners and zero elsewhere |
| C138 | DgnsModel: alpha and lambda methods over lists of quadrature points | tested residual equals spec form (DgnsSpec) by sums over loops |
| C139 | jacobian methods | tested matrix product equals form; linearity and exact expansion |
| C140 | same | symmetry of forms; energy identity with the test pressure -p/sc on a mesh |
| C141 | same, turned faces | algebra of forms under exchange of sides, constants, continuous velocities |
| C142 | assembled residual of a mesh | scaling moved into the test pressure; refuted with g2 |
| C143 | entity sets, space data, orderings and the tree of spaces as one state; operations as in the API | invariant over histories; update computes the dimension by induction over the tree |
| C144 | root and initialised flags in the same state | invariants over histories |
| C145 | same state; orderings hold a pointer to the data of the space they were created for | frame invariant; witnesses for copies and shared children |
| C146 | same state; throwing calls keep their partial effects | case analysis; witnesses |
| C147 | Maps as dimension, hasDOFs, size and maxLocalSize on geometry types; elements as lists of exponents, faces of simplices and cubes by binomials | Counting lemmas by induction on order and dimension; the visitor of block sizes by an invariant |
| C148 | The table of permutations and the compression used by find, vertex numbers as naturals | find returns the ranks of the vertex numbers; ranks only depend on the order of the two ends of an edge |
| C149 | Orientation bits computed by the constructors from the intersections of all cells; variants indexed by these bits | Bits by induction on the intersections of a cell; signs by comparison of the indices |
| C150 | The vector of orders as bytes; the vector of mimetic elements with its buffer | Induction on the history of calls |
| C151 | Grid as types, entity counts and elements with local dofs (entity, key, index of the basis); the two passes of LeafOrdering::update on vectors of vectors | Invariants of both passes by induction on the visited dofs; permutation by NoDup and membership |
| C152 | The loops over types and entities with the flags | Closed form of the loop by induction |
| C153 | dofIndex/containerIndex of the bound element, cache with flags | From C151; witnesses with third order triangles |
| C154 | Copies share basis and ordering, the ordering refers to the first space | Invariants over histories of calls |
| C155 | the shift-invert transformation around ARPACK: operator, unshift, sort, copy; ARPACK itself and the linear solver are parameters described by their contracts | equivalence of eigenpairs of the inverted operator and of the pencil; insertion sort is a sorted permutation; witnesses |
| C156 | the wrapper as a transformation of a table of contributions per cell and face | case analysis of the loop over the dofs of a cell; witnesses |
| C157 | the helper as a state machine over timing calls with clock readings; real numbers for doubles | invariant: timings are the last recorded readings per run; fold lemma for the statistics; variance identity |
| C158 | the current formatter and the stack of saved ones; streams as records; tag lengths | induction over nested action lists; monotonicity of the number of digits |
| C159 | dgnavierstokesvelvecfem.hh loop by loop, coefficients in two children, against the forms of C138 | residual functionals of loops as sums; bilinearity of the forms in the basis functions |
| C160 | the three Jacobian loops | the same functionals twice; expansion of the form along a line |
| C161 | product bases numbered component by component | pointwise equality of states; sums over products of index ranges |
| C162 | the facade's calls on the distributed vectors of ParModel, constraints containers per rank from boundary and processor faces | refinement to an undistributed facade by induction over programs; owner values as invariant |
| C163 | the checks of the Yasp constructors | case analysis over lists of corners |
| C164 | the helper with its two buffers and snprintf | decimal representation, induction over histories |
| C165 | the sweep with the extra check for simplices, positions of vertices, refinement as a relation between grids | last sweep has no marks; well-founded induction on a weight of the leaf levels |
| C166 | calls to both local operators as a trace, any call may throw | trace of each action, prefix lemma, filter to announcements |
| C167 | same trace, what an operator knows before each call | invariant over the trace by induction on stages, places and earlier solutions |
| C168 | same trace | same invariant with who was asked |
| C169 | LocalMatrix as a column-major store with its calls and its iterator | invariant over call sequences; injectivity of the place of an entry; induction on the loop |
| C170 | local vector with the list of views made of it, weights and flags | induction on the sequence of calls |
| C171 | global containers as partial maps; views with attached container and bound indices; children as lists of local indices | loops over links between local places and global indices, induction from the end |
| C172 | bit patterns of topology ids, elements as lists of constructions | induction over the construction steps |
| C173 | parameter objects in a store, adapters by reference | well-founded induction along references; invariant over histories |
| C174 | both adapters on top of the integration of C130 | error written as root of a weighted scalar product over samples (cell, point, component); Cauchy-Schwarz and Minkowski for weighted sums |
| C175 | apply, the matrix a solver with Upper/Lower sees, the result record; Eigen's iteration as parameter with its contract | algebra of matrices with trivial rows (set_trivial_rows of the constraints model); counterexample for every exact solver |
| C176 | allocation loops over (nested) patterns, statistics record, matrix objects with shared containers | invariant of C09/C10 gives the numbers; induction on the nesting depth; invariant over histories (containers unshared, statistics empty or current) |
| C177 | Matrix-free backend as a state machine over a store of the caller's vectors; the Krylov solver is any program of operator and preconditioner calls | invariant over histories; refinement of solver runs to a pure run; induction over Newton steps |
| C178 | Deprecated Newton solver: the loop with its retry, line search with failed evaluations, flags that may be uninitialised, option reading over a partial tree | invariant over passes by induction on fuel; termination measure; simulation of the new solver |
| C179 | Visitor over trees of spaces adding data sets to a list, naming scheme over strings, evaluation with a possibly unbound finite element | traversal equals a run over the list of components; induction over trees; uniqueness of decimal paths |
| C180 | Bisection of all bins with sums and counts of the errors up to a threshold | invariant of the interval of each bin; intervals of two bins are equal or ordered |

Rows of later areas are added above as the model grows; a property that could not be expressed would be listed here with the reason
(none so far: parts that are out of reach, such as convergence of iterative linear solvers, are hypotheses of the theorems).

## Trusted base

* Coq 8.16.1 kernel (and coqchk); no axioms of our own, no plugins, no functors, no module types.
* The reading of the C++ code: the model's faithfulness is checked only by the citations and by the mutation tests in `seeded/`.
* The axioms that `Print Assumptions` lists, all from the standard library: `sig_forall_dec`, `sig_not_dec`
  (`Coq.Reals.ClassicalDedekindReals`), `functional_extensionality_dep` (`Coq.Logic.FunctionalExtensionality`) and, for one theorem,
  `classic` (`Coq.Logic.Classical_Prop`).  They enter through Coq's real numbers and through equality of vectors and matrices, which are
  functions.

Per theorem (generated by `tools/assumptions.py`):

<!-- assumptions -->
* closed under the global context (304 theorems): c01_conversion_keeps_sequence, c01_equality_is_list_equality, c01_observes_like_list, c01_view_sizes, c01_views_are_prefixes, c02_blocked_tree_separates, c02_flat_tree_bijection, c02_lexicographic_bijection, c02_nested_local_blocking_refuted, c02_variable_entity_sizes_refuted, c03_interleaved_bijection, c03_interleaved_layout, c03_update_accepts_unbalanced_refuted, c04_chunked_reblocking, c04_update_throws_iff_not_divisible, c05_permutation_applied, c05_update_discards_permutation, c05_user_permutation_in_effect_refuted, c06_batch_equals_single, c06_batch_equals_single_any_tree, c07_entity_dofs_complete, c07_extraction_equals_single, c08_blocked_variable_leaf_refuted, c08_interleaved_over_blocked_refuted, c08_lexicographic_over_blocked_refuted, c08_size_queries_exact_partial, c09_nested_pattern_is_set_of_links, c09_pattern_is_set_of_links, c09_reserved_column_refuted, c101_apply, c101_blocks, c101_point_required, c102_empty_refuted, c102_extrema, c103_exact_size, c103_hierarchical, c103_indices, c103_throws, c103_total, c104_binomial, c106_keys, c10_colOrdering_refuted, c10_overflow_counts_excess, c10_sizes_count_distinct_columns, c11_add_then_subtract, c11_arithmetic_exact, c124_dimension, c128_select, c128_settable, c12_negative_difference_refuted, c12_negative_times_misprinted, c12_printed_value_partial, c131_global, c131_output, c132_consistent_partial, c132_copy_refuted, c132_ghost_refuted, c132_message, c132_restores_partial, c133_binds_partial, c133_container_indices, c133_dof_indices, c133_storage_refuted, c133_subspace, c136_dg, c136_identical_matrix_refuted, c136_parallel_reuse_refuted, c136_parallel_without_reuse, c136_same_matrix, c143_grid_unchanged, c143_update_forced, c143_update_refuses, c143_update_returns, c144_child_refuses, c144_construction, c144_initialised_root, c144_only_construction, c145_copy_refuted, c145_shared_child_refuted, c145_sizes_need_update, c145_sizes_stable, c146_failed_call_keeps_sizes, c146_failed_construction_refuted, c146_failed_update_refuted, c146_inner_space_refuted, c146_ordering_after_failure_refuted, c147_block_size, c147_others, c147_pk, c147_pkqk, c147_pkqk_max_refuted, c147_power, c147_qk, c147_rannacher_turek_refuted, c148_edges_match, c148_pkqk_refuted, c148_processes_refuted, c148_vertex_map, c149_edges, c149_faces, c149_hanging_refuted, c149_hexahedra_refuted, c149_processes_refuted, c149_refined_refuted, c150_byte_refuted, c150_mimetic, c150_mimetic_refuted, c150_orders, c150_refined_refuted, c151_bijection, c151_indices, c152_contains, c152_empty_refuted, c152_fixed_size_partial, c152_fixed_size_refuted, c153_communication_refuted, c153_constraints_refuted, c153_lookup, c153_lookup_refuted, c154_copies_refuted, c154_find, c154_find_refuted, c154_update, c156_pattern_refuted, c156_region, c156_rim_refuted, c158_aligned, c158_default, c158_fill_refuted, c158_local, c158_order_refuted, c158_scope, c158_stream, c164_basenames, c164_distinct, c164_history, c164_kept_refuted, c164_long_refuted, c164_overflow_refuted, c164_sorted, c164_sorted_refuted, c169_back, c169_each_once, c169_loop, c172_accepted, c172_distinct, c172_found, c172_lines, c172_low_refuted, c172_made, c172_none_refuted, c172_pyramid_refuted, c172_round_trip, c173_complement, c173_last_time, c173_outflow_refuted, c173_passes_on, c173_set_time, c173_stacked, c176_attach_refuted, c176_copy_refuted, c176_kept, c176_leaf, c176_nested, c176_storage_refuted, c176_truthful, c179_distinct, c179_duplicate_refuted, c179_named, c179_once, c179_separator_refuted, c179_success, c179_unnamed, c179_written, c23_clear, c23_flag, c23_local_flag, c23_merge, c23_order, c23_proper, c24_check, c24_copy_constrained, c24_copy_nonconstrained, c24_reassemble, c24_set_constrained, c24_set_nonconstrained, c24_set_shifted, c24_shifted_empty_refuted, c27_diagonal, c28_boundary_faces, c28_interior_faces_partial, c28_nothing_else_visited, c28_periodic_self_neighbour_refuted, c28_processor_faces, c28_volumes, c29_face_index_partial, c29_skipped_intersection_refuted, c30_pattern, c34_protocol, c34_protocol_fixed, c36_automatic_count_is_kept, c36_balanced, c36_identity, c36_iterator_split, c36_metis, c37_colored, c37_colored_split, c37_limit, c37_succeeds, c38_halo, c38_protects, c38_reserved, c38_schedule_independent, c38_two_sided_refuted, c39_ghosts, c39_neighbor_ranks, c39_neighbor_ranks_refuted, c39_partition, c39_schedule_independent, c39_unique_owner, c41_copy, c41_copy_agreeing, c41_copy_order_refuted, c42_announced_size, c42_leaf_sizes, c42_outside, c42_outside_same_layout_refuted, c42_same_layout, c43_index_sets, c43_neighbors, c43_unique_consecutive, c44_local_index, c44_nodes, c44_ranges, c45_distinct, c45_dof_indices, c45_fast_empty_leaf_refuted, c45_history, c45_recovers_leaf, c46_disabled, c46_exact, c53_iteration, c54_assertion_never_fires, c59_detected, c59_every_dof, c59_homogeneous, c59_max_local, c59_mixed_refuted, c59_numbered, c59_promise, c59_tables, c59_tree, c59_varying, c60_hybrid_refuted, c60_index, c60_interpolate, c62_added, c62_constrained, c62_not_cleared_refuted, c62_order, c62_unprepared_refuted, c63_boundary_flag_refuted, c63_detected, c63_isolated, c63_processor_refuted, c72_neighbors, c75_conforming, c75_interpolate, c78_empty, c78_iteration, c79_access, c79_distinct, c79_sized, c79_sound, c79_write, c80_access, c80_sound, c81_row_access, c81_rows, c82_dynamic_partial, c82_dynamic_single, c82_fixed, c82_flat, c82_leaf_block_refuted, c83_all, c83_numbering, c83_partition_refuted, c83_sub_index, c84_contains_refuted, c84_forced, c84_history, c84_history_all, c84_result, c84_stale_refuted, c85_mapper, c85_stale_refuted, c86_cache, c86_stale_refuted, c97_extend, c97_record, c97_sizes, c98_fresh, c98_update, c98_update_refuted
* `classic` + `functional_extensionality_dep` + `sig_forall_dec` + `sig_not_dec` (9 theorems): c104_unique, c105_inside, c105_order, c105_orthonormal, c105_span, c106_interpolation, c50_accuracy, c58_stage_problem, c58_stage_solves
* `functional_extensionality_dep` + `sig_forall_dec` (472 theorems): c100_fixed_point, c100_sweep, c101_diagonal, c101_diagonal_refuted, c102_average, c104_defined, c104_integral, c104_missing, c104_overflow_refuted, c109_acoustics_volume, c109_mass, c109_mass_jacobian, c109_mass_pattern, c109_maxwell_volume, c109_source, c111_expansion, c111_jacobian_accumulates, c111_jacobian_is_derivative, c111_loads, c111_residual, c112_dissipation, c112_energy, c112_symmetric, c113_energy, c113_jacobian, c113_linear, c113_loads, c113_residual, c113_rigid_motions, c113_symmetric, c114_l2, c114_navier_stokes_mass, c114_pressure_untouched, c114_velvec, c115_loads, c115_reaction_refuted, c115_residual_general, c115_residual_partial, c116_residual_general, c116_residual_partial, c116_source_refuted, c117_direction, c117_either_side, c117_mobility, c117_skeleton, c118_conservation_partial, c118_gas_dirichlet, c118_gas_scale_refuted, c118_interface_partial, c118_interface_viscosity_refuted, c118_residual_partial, c118_storage, c119_field, c119_gas_refuted, c119_liquid_refuted, c119_normal_velocity_partial, c122_first, c122_first_zero, c122_second, c122_second_zero, c122_time, c123_cache_refuted, c124_derivative, c124_energy, c124_gradients, c124_matrix, c124_residual, c124_symmetric, c125_cross, c125_curl, c125_geometry, c126_center_refuted, c126_velocity_partial, c126_weak_balance_partial, c127_functional, c127_projection, c129_piola_partial, c129_piola_refuted, c130_integral, c130_linear, c134_interpolates, c134_same_function, c135_cg_matrix, c135_correction, c135_energy, c135_error, c135_galerkin, c135_relaxation_integers, c135_relaxation_refuted, c135_symmetric, c136_second_solve_refuted, c137_block_smoother, c137_refines, c137_symmetric, c138_agrees_with_taylor_hood, c138_boundary, c138_cells, c138_faces, c138_loads, c139_boundary, c139_cells, c139_cells_derivative, c139_faces, c13_theta_order_two_only_for_half, c140_energy_faces, c140_stable, c140_symmetric, c141_continuous_velocity, c141_momentum_conserved, c141_open_boundary, c141_orientation, c141_penalty, c141_wall, c142_mass_source_refuted, c142_scaling_partial, c14_negative_theta_refuted, c155_closest, c155_complex_refuted, c155_pairs, c155_smallest_refuted, c155_unconverged_refuted, c159_boundary, c159_cells, c159_faces, c159_force, c159_full_tensor_refuted, c15_mixed_sides_refuted, c15_modes, c15_stage_residual_partial, c15_temporal_post_skeleton_refuted, c15_tiny_coefficient_refuted, c160_boundary, c160_cells, c160_cells_derivative, c160_faces, c161_agrees_boundary, c161_agrees_cells, c161_agrees_faces, c161_energy, c161_orientation, c161_slip_refuted, c161_symmetric, c162_overlapping, c163_corner, c163_extent_refuted, c163_origin, c163_unit, c165_isolated, c165_scale_refuted, c165_terminates, c166_any_outcome, c166_documented_order, c166_evaluated_in_stage, c166_failed_stage, c166_history, c166_same_for_both, c166_step_left_open_refuted, c166_success, c167_all_mass, c167_all_new, c167_all_old, c167_explicit_times, c167_implicit_times, c167_mass_faces_refuted, c167_old_times, c168_asked_after_evaluations, c168_asked_in_first_stage, c168_both_asked, c168_later_stages_refuted, c169_resize_keeps_refuted, c169_umv, c169_usmv, c16_apply_is_product, c16_dirichlet, c16_dirichlet_apply, c16_hanging, c16_hanging_apply, c16_hanging_apply_refuted, c16_jacobian_is_derivative, c16_linear_apply_refuted, c170_data_refuted, c170_nested, c170_nested_refuted, c170_sum, c171_add, c171_matrix_add, c171_unbind_refuted, c174_difference, c175_dirichlet, c175_dirichlet_refuted, c175_numbering, c177_address_refuted, c177_blocks, c177_fresh, c177_linear, c177_newton, c177_solve, c177_stale_refuted, c178_agrees, c178_defined, c178_exception, c178_line_search, c178_line_search_failed, c178_line_search_nan, c178_linear_iterations, c178_matrices, c178_normal_return, c178_reduction, c178_retry_forever_refuted, c178_terminates, c178_uninitialised_refuted, c179_leaf_values, c179_vector_values, c17_boundary_stage_partial, c17_explicit_parts, c17_explicit_stage_partial, c17_face_time_refuted, c17_general_boundary_partial, c17_general_parts, c17_general_stage_partial, c17_plain_stage_refuted, c17_reduced_step_refuted, c180_header, c180_last, c180_line, c180_ordered, c180_threshold, c180_zero_refuted, c18_after_target_refuted, c18_never_overshoots, c18_reaches_target, c18_suggestion, c19_explicit_alias_refuted, c19_explicit_leak_refuted, c19_explicit_step, c19_explicit_step_size, c19_explicit_xold_refuted, c19_history, c19_restored_result, c20_budget_refuted, c20_criterion_real, c20_exception, c20_linear_iterations, c20_normal_return, c20_reduction, c20_stale_defect_refuted, c20_terminates, c20_true_defect_hr, c20_true_defect_none, c21_fresh_when_slow, c21_never_unassembled, c21_reuse, c21_threshold_one_refuted, c21_zero_defect_refuted, c22_contract, c22_damping_one_refuted, c22_failure, c25_adjoint, c25_chained_refuted, c25_formula, c25_idempotent, c25_linear, c25_order, c26_adjoint, c26_assembled, c26_backward, c26_backward_values, c26_chained_refuted, c26_element, c26_restricted_order_refuted, c27_in_pattern, c27_mixed_caching_refuted, c30_dense, c30_history, c30_product, c31_detected_partial, c32_dominant_coarsened_refuted, c32_element_fraction, c32_error_fraction, c33_both_refuted, c33_for_coarsening, c33_largest_coarsened_refuted, c33_mark_grid, c33_never_both, c33_verbosity_refuted, c34_average, c34_reconstructs, c34_varying_sizes_refuted, c35_accumulated, c35_evaluation, c35_no_increase, c35_start_forgets, c40_disjoint_dot, c40_global_product, c40_masked_sum, c41_add, c41_add_all, c41_max, c41_min, c41_schedule_independent, c47_apply_is_product, c47_jacobian, c47_jacobian_is_derivative, c47_residual, c48_linear_reduction, c49_constrained_rows, c49_product, c50_assembled, c50_exact, c50_skeleton_exact, c51_boundary_partial, c51_boundary_refuted, c51_boundary_weight_refuted, c51_skeleton_linear, c51_skeleton_refuted, c51_volume, c52_boundary_partial, c52_skeleton, c52_volume, c53_accumulate, c53_diagonal_accumulate, c53_diagonal_refuted, c53_usmv, c54_apply, c54_boundary_refuted, c54_jacobian, c54_pattern, c54_plain_residual_partial, c54_residual_partial, c54_set_weight_refuted, c54_sides_refuted, c54_views, c55_scaled_jacobian, c55_scaled_residual, c55_views, c56_block_diagonal, c56_diag_apply, c56_local_block, c56_off_apply, c56_off_diagonal, c56_periodic_refuted, c56_split, c56_two_sided_refuted, c57_coupled_leaves_refuted, c57_one_leaf, c57_point_diagonal, c58_apply_defined, c58_assembled_problem, c58_defined, c58_exception, c58_interpolated, c58_reported, c58_reuse_defined, c58_reuse_first_refuted, c58_solves, c58_zero_defect_refuted, c60_apply, c60_block_width_refuted, c60_interpolate_refuted, c60_jacobian, c60_raw_refuted, c60_residual, c61_default, c61_jacobian, c61_overlap_refuted, c61_residual, c63_edge, c63_plane_refuted, c63_plane_unchanged, c63_space_abort, c63_wrong_shape, c67_gradient, c67_nodal, c67_partial, c67_point_refuted, c67_reproduces, c67_size, c67_space, c68_element, c68_points, c68_symmetric, c69_best, c69_degree_one, c69_gradient, c69_orthogonal, c69_projection, c70_answer, c70_basis_refuted, c70_exact_partial, c70_near_refuted, c70_order, c70_order_refuted, c70_repeat, c71_sarkis, c71_standard, c72_galerkin, c72_prolongate, c72_restrict, c73_apply, c73_positive, c73_symmetric, c74_added, c74_added_refuted, c74_count, c74_nev_refuted, c74_normalised_refuted, c74_vectors, c76_interpolant, c76_local_function, c76_value, c76_vector, c77_curl2, c77_curl3, c77_divergence, c77_global_curl_partial, c77_gradient, c77_piola2, c77_piola3, c77_vector_gradient, c81_exchange, c81_inverse, c81_product, c87_boundary_jacobian_partial, c87_boundary_refuted, c87_boundary_weak_form, c87_volume_accumulates, c87_volume_jacobian, c87_volume_weak_form, c88_boundary_conservative, c88_conservative, c88_nonnegative, c88_symmetric, c89_boundary_jacobian, c89_skeleton_apply, c89_skeleton_jacobian, c89_volume_jacobian, c89_volume_weak_form, c90_conservative, c90_consistent_partial, c90_consistent_refuted, c90_energy, c90_orientation, c90_symmetric, c90_weak_form, c90_weighted, c91_consistent, c91_energy, c91_symmetric, c91_weak_form, c92_apply, c92_applyscaleadd, c92_applyscaleadd_refuted, c92_energy, c93_explicit, c93_explicit_overlap, c93_explicit_refuted, c93_jacobi, c93_jacobi_kind, c94_apply, c94_applyscaleadd, c94_energy, c94_symmetric, c95_additive, c95_restricted, c95_subdomain, c95_symmetric, c96_accumulate, c96_consistent, c96_spaces_refuted, c99_block_operator, c99_iterative, c99_solves
* `functional_extensionality_dep` + `sig_forall_dec` + `sig_not_dec` (88 theorems): c102_fits, c102_overflow_refuted, c102_stddev, c105_constructs, c105_order_qk_refuted, c105_overflow_refuted, c105_upto, c106_jacobian, c107_acoustics_split, c107_acoustics_waves, c107_maxwell_split, c107_maxwell_waves, c108_acoustics_conservative, c108_acoustics_consistent_partial, c108_jump_acoustics_refuted, c108_maxwell_conservative, c108_maxwell_consistent_partial, c109_acoustics_boundary, c109_acoustics_skeleton, c109_maxwell_boundary, c109_maxwell_skeleton, c110_acoustics_conservation, c110_acoustics_energy, c110_maxwell_conservation, c110_maxwell_energy, c120_diameter, c120_faces, c120_indicator_partial, c120_negative_refuted, c120_nonnegative_partial, c120_orientation, c121_indicator, c121_nonnegative, c121_orientation, c121_zero, c123_balance_partial, c123_continuous_partial, c123_exchange, c123_hanging_refuted, c123_linear, c123_normal_partial, c123_outflow_refuted, c123_periodic_refuted, c123_uniform, c128_bind_time, c128_history, c128_independent, c128_local, c128_pointwise, c128_set_time, c128_tree, c128_unset_refuted, c129_flux_partial, c129_flux_refuted, c129_flux_throws, c130_probe, c130_probe_late, c130_probe_value, c13_alexander3_newton_loop, c13_exact_on_polynomials, c13_linear_test_equation, c13_runge_kutta_order, c14_table_structure_partial, c157_further_run, c157_missing_runs_refuted, c157_misuse_refuted, c157_no_failure, c157_print_in_run_refuted, c157_runs, c157_tasks, c15_shipped_schemes, c174_distribution, c174_elsewhere_refuted, c174_nonneg, c174_scaled, c174_symmetric, c174_triangle, c174_zero, c64_balance, c64_conservation, c64_jacobian, c65_comparison, c65_nonnegative, c65_unique, c66_apply_partial, c66_apply_weight_refuted, c66_timestep_refuted, c92_norm
* `sig_forall_dec` (51 theorems): c105_upto_throws, c106_partial_orders, c131_local, c159_flag_without_effect, c162_nonoverlapping_partial, c162_nonoverlapping_refuted, c162_sequential, c169_filled, c169_more_columns, c169_readable, c169_set_get, c170_accepted, c170_modified, c170_own_weight, c171_history, c171_matrix_read, c171_matrix_write, c171_read, c171_read_write, c171_undefined, c171_write, c171_write_read, c175_history, c175_solves, c177_refused, c178_documented_key_refuted, c178_parameters, c178_parameters_accepted, c178_parameters_refused, c179_vector_outside_refuted, c19_failure_keeps_xnew, c19_one_step, c23_flag_exact_refuted, c31_clear_row_refuted, c31_dense_refuted, c31_write_refuted, c40_mask, c52_boundary_refuted, c53_resize, c53_resize_rows_refuted, c53_scale_fill, c72_neighbors_refuted, c75_reproduces, c75_subset_refuted, c77_global_curl_refuted, c77_jacobian_to_curl, c80_clear_row, c80_clear_row_block, c80_unit_block_refuted, c81_size_refuted, c82_nested_refuted
<!-- /assumptions -->

## Which parts of the code are modelled

All paths are relative to `dune/pdelab`.  Line numbers are in the comments of the model files.

| area | modelled code | left out |
|---|---|---|
| MultiIndex | `common/multiindex.hh` | printing |
| Clock | `common/clock.hh`, `common/clock.cc` | reading the system clocks |
| Ordering | `ordering/`: leaf, gridview, lexicographic, interleaved, chunked, permuted, entity-blocked orderings with `update`, `mapIndex`, `size`, `extract_entity_indices`; the batched traversals of `lfsindexcache.hh` and `datahandleprovider.hh` | singleton and transformation machinery (template meta programs) |
| Pattern | `backend/istl/bcrspattern.hh` | the ISTL matrix filled from it |
| Csr | `backend/simple/sparse.hh`, `backend/simple/matrix.hh` | iterators of the vector wrapper |
| RK | `instationary/onestepparameter.hh` | names |
| OneStep, HangStep, LinStep | `gridoperator/onestep.hh`, `gridoperator/onestep/` (constraints with contributors in HangStep) | chains of constraints, different constraints for the two operators, time methods of the local operators, coupling calls |
| Method | `instationary/implicitonestep.hh`, `instationary/explicitonestep.hh` | output, counter overflow |
| Driver | `gridoperator/default/assembler.hh`, `common/intersectiontype.hh` | geometry |
| Engine | `gridoperator/default/residualengine.hh`, `jacobianengine.hh`, `jacobianapplyengine.hh`, `gridoperator/common/localassemblerenginebase.hh`, `gridfunctionspace/localvector.hh` | skipping of non-interior entities in nonoverlapping mode |
| Newton | `solver/newton.hh`, `solver/terminate.hh`, `solver/linesearch.hh` | printing; parameter parsing apart from the options named in C20-C22 |
| Cons | `constraints/common/constraints.hh`, `constraintstransformation.hh`, constraint flags of `lfsindexcache.hh`, `gridoperator/common/assemblerutilities.hh`, pattern and Jacobian engines as far as they write | generation of local constraints from finite elements |
| Lfs | `gridfunctionspace/localfunctionspace.hh`, `lfsindexcache.hh`, `common/dofindex.hh` | tags, generic TypeTree visitors |
| Adapt, Transfer | `adaptivity/adaptivity.hh` | the L2 projections (given as parameters) |
| Part | `common/partition/`: iterator split, colouring, halo marking | the METIS library |
| Par, Wire | `gridfunctionspace/genericdatahandle.hh`, `entityindexcache.hh`, `common/polymorphicbufferwrapper.hh`, `backend/istl/parallelhelper.hh` | MPI itself (messages arrive in any order, exactly once) |
| Num | `localoperator/numericaljacobian.hh`, `numericaljacobianapply.hh`, `numericalnonlinearjacobianapply.hh`, `defaultimp.hh`, `gridoperator/common/localmatrix.hh`, `diagonallocalmatrix.hh` | |
| Comb | `localoperator/combinedoperator.hh`, `sum.hh`, `weightedsum.hh`, `scaled.hh`, `callswitch.hh` | methods that cannot be instantiated (see findings) |
| Diag | `localoperator/blockdiagonalwrapper.hh`, `blockoffdiagonalwrapper.hh`, `pointdiagonalwrapper.hh` | |
| Lin | `stationary/linearproblem.hh` | timings, output |
| Leaf | `ordering/directleaflocalordering.hh`, `leaflocalordering.hh`, `leafgridviewordering.hh`, update visitors of `gridviewordering.hh` | flags per codimension |
| Fast | `gridoperator/fastdg.hh`, `gridoperator/fastdg/assembler.hh`, `residualengine.hh`, `jacobianengine.hh`, `jacobianapplyengine.hh`, `backend/common/aliasedvectorview.hh`, `aliasedmatrixview.hh`, fast branch of `gridfunctionspace/lfsindexcache.hh` | pattern engine, nonlinear jacobian apply engine, constraints (fast mode has none) |
| Dir | `constraints/common/constraints.hh` (assembly), `constraints/conforming.hh`, `noconstraints.hh`, `p0.hh`, `p0ghost.hh`, `raviartthomas0.hh`, `interiornode.hh` | evaluation of parameter functions (a boolean per intersection), old-style parameter wrapper, verbose output |
| Hang | `constraints/hangingnodemanager.hh`, `constraints/hangingnode.hh` | bounds of the node table (extra check for simplices: HangTri) |
| Finite volume operator | localoperator/convectiondiffusionccfv.hh | parameter evaluation and geometry are arbitrary functions; floating point |
| Qk, Cache | finiteelement/qkdglagrange.hh, qkdglobatto.hh, qkdglegendre.hh, localbasiscache.hh | floating point; the factories of global-valued elements; the quadrature rules themselves (hypotheses) |
| Geneo | geneo/partitionofunity.hh, multicommdatahandle.hh, subdomainprojectedcoarsespace.hh, two_level_schwarz.hh, geneobasis.hh, liptonbabuskabasis.hh | ARPACK and UMFPack wrappers, localoperator_ovlp_region.hh, scatter with different layouts |
| Interpolation and discrete grid functions | gridfunctionspace/interpolate.hh, gridfunctionspaceutilities.hh, function/discretegridviewfunction.hh, common/jacobiantocurl.hh, backend/common/uncachedvectorview.hh | DiscreteGridFunctionCurl and second derivatives of DiscreteGridViewFunction (do not compile when instantiated); DiscreteGridFunctionFactory |
| Istl | backend/istl/vectoriterator.hh, vectorhelpers.hh, matrixhelpers.hh, blockmatrixdiagonal.hh, descriptors.hh, vector.hh, bcrsmatrix.hh | tuple vectors; the storage of ISTL; float arithmetic |
| Eset | common/partitionviewentityset.hh, common/elementmapper.hh, gridfunctionspace/vtk.hh 113-200 | iterator wrappers, views, the grid itself (described by wf_grid), finite element evaluation in vtk.hh |
| Cd | localoperator/convectiondiffusionfem.hh 44-322, convectiondiffusiondg.hh 82-1076 | rounding; the element-wise choice of quadrature order, the evaluation of basis, geometry and parameter functions (arbitrary values here); time; the error estimators in convectiondiffusionfem.hh; the CFL estimate |
| Dd | backend/istl/novlpistlsolverbackend.hh, ovlpistlsolverbackend.hh (operators, scalar products, preconditioners, diagonal solvers) | the Krylov solvers of dune-istl, AMG and BiCGSTAB/CG backends' plumbing, block size > 1 |
| Bord | common/borderindexidcache.hh, gridoperator/common/borderdofexchanger.hh, the calls in patternengine.hh and gridoperator.hh | several geometry types, multi-level tree indices, the overlapping exchanger (empty) |
| Mfp | matrixfree/assembledblockjacobipreconditioner.hh, iterativeblockjacobipreconditioner.hh, blocksorpreconditioner.hh, gridoperatorpreconditioner.hh, solverstatistics.hh | LU decomposition of Eigen, Krylov solver, floating point |
| Orth | finiteelement/l2orthonormal.hh | the choice of the compute field (exact arithmetic), evaluation caches, the size tables for d = 0 |
| Wave | localoperator/linearacousticsdg.hh, localoperator/maxwelldg.hh | evaluation caches, quadrature rules, the explicit time step suggestion, numerical Jacobians |
| Flow | localoperator/{taylorhoodnavierstokes,stokesparameter (boundary types),navierstokesmass,l2,blockdiagonal,linearelasticity,diffusionmixed,nonlinearconvectiondiffusionfem}.hh | quadrature order choice, caching, instationary time handling, pattern |
| Tp | localoperator/twophaseccfv.hh | full tensor permeability, time dependence, numerical Jacobians (see Num) |
| Est | localoperator/convectiondiffusionfem.hh (estimators), errorindicatordg.hh, eval.hh | order of the assembler (cells before faces), rounding, second derivatives (ignored by the code too) |
| Vel | localoperator/darcyccfv.hh | simplices (the code has cubes only), the RT0 finite element map itself |
| Ed | localoperator/{electrodynamic,darcyfem,l2volumefunctional}.hh, localoperator/numericalresidual.hh, common/{crossproduct,jacobiantocurl}.hh | choice of quadrature order, transformation of edge elements |
| Gf | function/{product,minus,division,sqr,sqrt,inverse,scalarscaled,selectcomponent,const,bindtime,oldinterfaceadapter,localfunction}.hh, common/{function,functionutilities,vtkexport}.hh | the tree iteration of the VTK names; floating point; the grid search |
| Lb | gridfunctionspace/loadbalance.hh | the bytes of the messages, the grid, GFS update |
| Subspaces | subspace.hh, subspacelocalfunctionspace.hh, subordering.hh | names, output parameters, forwarded members |
| Amg | backend/istl/{seq_amg_dg_backend, cg_to_dg_prolongation}.hh, AMG parts of seqistl/ovlpistl/novlpistlsolverbackend.hh, ovlp_amg_dg_backend.hh (apply) | dune-istl AMG and Krylov methods (trusted: AMG keeps references to operator and communication, Jacobi smoother scales by its relaxation factor), matrix products of dune-istl, printing |
| AmgPar | backend/istl/ovlp_amg_dg_backend.hh (OvlpDGAMGPrec) | pre/post, dune-istl AMG (hypothesis: defects at owners give consistent corrections) |
| Dgns | localoperator/dgnavierstokes.hh, dgnavierstokesparameter.hh (incompressibilityScaling), dginteriorpenaltyparameter.hh | evaluation of parameter functions, blocked matrix traversal order |
| Space | gridfunctionspace/{gridfunctionspacebase,gridfunctionspace,powergridfunctionspace,compositegridfunctionspace,powercompositegridfunctionspacebase}.hh, ordering/{orderingbase,leafgridviewordering,gridviewordering,lexicographicordering,interleavedordering,entityblockedlocalordering}.hh (sizes), common/partitionviewentityset.hh (needs-update protocol) | lazy emplacement of composite entity sets, finite element maps without fixed size, several geometry types per codimension, chunked and permuted orderings, dangling data pointers after destruction of an original |
| Fem | finiteelementmap/*.hh | shape function values (dune-localfunctions), higher moments of RT1/RT2/BDM, sizes of OPB/monomial bases, compile time selectors, global.hh |
| Df | gridfunctionspace/dunefunctions{gridfunctionspace,localfunctionspace,lfsindexcache}.hh | the bases themselves (dune-functions), composite bases, vector backends |
| Eig | backend/istl/geneo/arpackpp_geneo.hh, localoperator_ovlp_region.hh | ARPACK and the direct solver (parameters), floating-point error |
| Bench | common/benchmarkhelper.hh, logtag.hh, logtag.cc | names column, output layout, rounding, exceptions thrown while writing |
| Vv | localoperator/dgnavierstokesvelvecfem.hh | quadrature rules, choice of the order, the parameter class (its penalty and incompressibility factors are numbers) |
| Bp | boilerplate/pdelab.hh (function spaces, StructuredGrid for YaspGrid) | solver wrappers, assembler wrappers, other grids |
| Name | common/instationaryfilenamehelper.hh | - |
| HangTri | constraints/hangingnodemanager.hh 264-496 | closure refinement by the grid manager, bounds of the node table |
| Life | localoperator/idefault.hh, instationary/{implicit,explicit}onestep.hh, gridoperator/onestep.hh, onestep/{prestage,residual,jacobian,jacobianapply,jacobianresidual}engine.hh as sequences of calls | values, weights, vectors (OneStep, Method); order of the two suggestTimestep calls |
| View | gridoperator/common/localmatrix.hh, gridfunctionspace/localvector.hh, backend/common/uncachedvectorview.hh, uncachedmatrixview.hh | aliased views, ConstUncached variants (same loops), debug checks of element access |
| Topo | common/topologyutility.hh | GeometryType of dune-geometry itself |
| Param | constraints/common/constraintsparameters.hh | composite parameter trees (pure type transformation) |
| Errors (Err) | gridfunctionspace/gridfunctionadapter.hh | grid views of the adapters |
| Eigen solvers (Egs) | backend/eigen/solvers.hh | elapsed time, preconditioners and iterations of Eigen; classes that cannot be instantiated |
| Statistics (Stat) | backend/istl/patternstatistics.hh, allocate_bcrs_matrix in bcrsmatrixbackend.hh, life cycle in bcrsmatrix.hh | printing (operator<< ignores the stream it is given and writes to std::cout), averages, entries of the matrix |
| Mfb | backend/istl/matrixfree/backends.hh, gridoperatorpreconditioner.hh, seqistlsolverbackend.hh (OnTheFlyOperator), solver/newton.hh (matrix-free step) | the Krylov solvers, static assertions, result statistics, line search |
| Old Newton (Old) | newton/newton.hh | output, timings, convergence rate, lifetime of the kept vectors, result() before the first call, options set before an exception in setParameters |
| Vtk | gridfunctionspace/vtk.hh, finiteElement() in localfunctionspace.hh | addCellFunction, addVertexFunction, differing grid views, files |
| Histo | error_distribution in adaptivity/adaptivity.hh | text around the numbers, rounding |

Not modelled at all: finite element maps and bases (`finiteelement*`), the concrete local operators for particular equations, `function/`,
`gridfunctionspace/vtk.hh`, checkpointing, EIGEN and PETSc backends, the ISTL solver backends apart from the parallel helper, GenEO.

## Properties whose range was narrowed while proving

The English statements of C18, C20, C21, C22, C23, C25, C26, C32, C33, C34, C35, C49, C56, C58, C59, C61, C66, C68, C69, C71, C73, C91, C95, C102, C106, C110, C116, C119, C122, C127, C131, C132, C133, C136, C137, C142, C146, C150, C154, C156, C158, C159, C161, C164, C165, C168, C171, C173, C174, C175, C176, C177, C178, C179 and C180 name the range in which they hold.  What lies
outside is not dropped: each such case is a `_refuted` theorem with a concrete witness, and is listed below.

## Findings

Proved of the model (`_refuted` theorems):

<!-- refuted -->
* `c02_nested_local_blocking_refuted`: Excluded case 2: container blocking on an inner node below an entity-blocked ordering maps two DOFs of one entity to the same entry.
* `c02_variable_entity_sizes_refuted`: Excluded case 1: an unblocked entity-blocked ordering with varying entity sizes reports too few entries, so two such spaces below a lexicographic composite share vector entries.
* `c03_update_accepts_unbalanced_refuted`: Update() accepts children with different numbers of blocks and then maps DOFs outside the container.
* `c05_user_permutation_in_effect_refuted`: So the user's permutation is not the one in effect after setup.
* `c08_blocked_variable_leaf_refuted`: And a container-blocked leaf with varying entity sizes reports its DOF count as block count.
* `c08_interleaved_over_blocked_refuted`: An interleaved node forgets to subtract the child's offset inside the block,
* `c08_lexicographic_over_blocked_refuted`: Outside [blocked_above] size queries go wrong: a non-blocked lexicographic node over blocked leaves uses an offset as a child number (here: undefined behaviour),
* `c09_reserved_column_refuted`: The reserved value cannot be stored as a column: the link is lost when a slot is free.
* `c101_diagonal_refuted`: A second setup adds the new diagonal to the inverse of the old one: resize keeps the values.
* `c102_empty_refuted`: A rank that has appended nothing makes minimum and maximum undefined.
* `c102_overflow_refuted`: Sums are formed in int, although the result is a double: n block solves with 100 iterations each, the default maximum, overflow the sum of squares from n = 214749 on.
* `c104_overflow_refuted`: C104, refuted as "for every degree": the product overflows in the binomial coefficient (30 over 14), although the coefficient itself is far below the bound; a tetrahedral monomial of degree 28 reaches it.
* `c105_order_qk_refuted`: C105, refuted for the tensor-product bases: the functions "up to order l" do not span the space of order l when l < k. In two dimensions with k = 2, the four functions up to order 1 do not generate xy.
* `c105_overflow_refuted`: C105, refuted as "for every degree": the basis of degree 14 on the tetrahedron has undefined behaviour.
* `c108_jump_acoustics_refuted`: Where the speed of sound jumps it is not: a fluid at rest (w = 0) under the same pressure (c^2 rho) on both sides, for which both cells see the same flux of the equations, gets a flux of mass.
* `c10_colOrdering_refuted`: ColOrdering() returns the row ordering, so it differs from the ordering the pattern was constructed with whenever the two spaces differ.
* `c115_reaction_refuted`: With a reaction the residual differs from the weak form.
* `c116_source_refuted`: F(u) = u, w(u) = u^2, the constant function u = 2: the source enters with 4.
* `c118_gas_scale_refuted`: The flux of the gas over a Dirichlet boundary is scaled like the liquid.
* `c118_interface_viscosity_refuted`: The parameter interface passes every query on to the implementation, except for the viscosity of the gas.
* `c119_gas_refuted`: Gas of different densities in the two cells, under gravity: the velocity of the gas uses the density of the inside cell for both.
* `c119_liquid_refuted`: Liquid at pressure 2 and 1, gas at pressure 3: the velocity of the liquid uses the density at the gas pressure.
* `c120_negative_refuted`: FINDING: convectiondiffusionfem.hh 423: with reaction, and no source, the squared indicator of a cell is negative, so its root and the root of the global estimate do not exist. The unit interval with u = 1, c = 1, f = 0.
* `c123_cache_refuted`: FINDING: darcyccfv.hh 268-274: the transformation is kept from the previous evaluation in the same cell, so in a cell that is not affine (here the trapezoid (x (1 + y), y)) the value at a point depends on where the field was evaluated before.
* `c123_hanging_refuted`: FINDING: darcyccfv.hh 160-244: a face that consists of several intersections (hanging nodes) gets the velocity of the last one. The scheme is balanced, the velocity field is not.
* `c123_outflow_refuted`: FINDING: darcyccfv.hh 183-246: the outflow data o of the scheme is ignored; at an outflow boundary the velocity is 0. Here the scheme lets one unit in and one unit out, the velocity field only lets it in.
* `c123_periodic_refuted`: FINDING: darcyccfv.hh 206-229: at a periodic boundary, the boundary condition overrides the flux to the neighbour, although the operator asks for none there.
* `c126_center_refuted`: FINDING: darcyfem.hh 115-117: the permeability is that of the cell center, also where it varies within the cell.
* `c128_unset_refuted`: FINDING: bindtime.hh 29: the time of a function made by bindTime is not initialised: evaluating it, alone or in a composition, before setTime is undefined.
* `c129_flux_refuted`: FINDING: function.hh 716-770: with corners numbered clockwise, the normal points inward and every flux has the wrong sign.
* `c129_piola_refuted`: FINDING: function.hh 813 multiplies with the absolute value of the determinant, gridfunctionspaceutilities.hh 658 divides by the determinant: in elements of negative orientation the backward transformation of a discrete function changes the sign.
* `c12_negative_difference_refuted`: One second minus 2.5 seconds, i.e. -1.5 s, prints as -2.5.
* `c132_copy_refuted`: FINDING: loadbalance.hh 213: scatter also stores the empty list that is sent for a copy of an entity outside the entity set, and insert does not replace it: if this copy is sent first, the DOFs that follow are dropped, and the assertion 321 fails.
* `c132_ghost_refuted`: FINDING: loadbalance.hh 309 with 441: only interior and border entities are written back, into a vector of zeros: a process loses the DOFs of its overlap and ghost entities, even if nothing moves.
* `c133_storage_refuted`: C133 fails on meshes whose elements do not all have the same number of DOFs: every bind appends the path of the subspace to all entries of the storage, also to those the element does not use and which were not overwritten; binding to elements that are smaller than the largest one three times in a row writes past the end of the tree index of such an entry. The local function space of the whole space can be bound to the same elements.
* `c135_relaxation_refuted`: C135 fails for the relaxation factor of the smoother: it is kept in an integer, so every factor between 0 and 1 becomes 0 and the smoothing does nothing, whatever the numbers of steps.
* `c136_identical_matrix_refuted`: C136 fails for ISTLBackend_SEQ_AMG if an identical matrix is stored in another object: the solver refers to the first object, which may be gone, or have other values.
* `c136_parallel_reuse_refuted`: C136 fails for the backends of parallel computations, with overlap, without and for DG: the hierarchy refers to local variables of the call that made it, so every solve that reuses it is undefined behaviour.
* `c136_second_solve_refuted`: C136 fails for ISTLBackend_OVLP_AMG_4_DG and ISTLBackend_AMG_NOVLP if the same matrix is used for two solves: the first solve changes it. Overlapping: the trivial rows of the constrained degrees of freedom enter the CG matrix. Nonoverlapping: entries shared by two ranks (here one entry per rank) are added again.
* `c142_mass_source_refuted`: With a source of mass it does: the source is not scaled, so that the divergence becomes dt times the source. One interval, mu = 3, u' = 2, p = 6, source 2
* `c145_copy_refuted`: A space that is copied after its first update does not follow its own updates: the copy shares the ordering, which reports to the original. update(true) returns, the copy keeps the sizes of the old grid, and the original, which nobody updated, changes.
* `c145_shared_child_refuted`: The sizes of a child that belongs to two spaces are those of the one updated last: updating one root changes what the child says about the other one.
* `c146_failed_construction_refuted`: A constructor that throws has already taken over the children before the offending one: a space that could be used on its own refuses update() for ever, although it belongs to no other space.
* `c146_failed_update_refuted`: But update() of a child, which throws, has updated the entity sets: the entities are renumbered below the root space, whose ordering still belongs to the old grid.
* `c146_inner_space_refuted`: The inner spaces of an entity-blocked tree are never initialized: they answer no question about sizes, not even the one for the size of the whole space which the leaves next to them answer.
* `c146_ordering_after_failure_refuted`: If the first ordering() throws because the blocks cannot be interleaved, the second call returns the ordering that was never set up.
* `c147_pkqk_max_refuted`: Their maxLocalSize() is 2^d: no upper bound as soon as the order is 2 or more.
* `c147_rannacher_turek_refuted`: Rannacher-Turek elements in three dimensions have 6 shape functions, one per face. The map attaches dofs to the edges instead: a cell collects 12, hasDOFs() names a codimension without dofs, and maxLocalSize() is 4.
* `c148_pkqk_refuted`: PkQk elements have the identity map whatever the numbers of the vertices: from order 3 on the elements of neighbouring triangles do not fit.
* `c148_processes_refuted`: The numbers are those of the index set of the process. Two processes that share a cell number its vertices independently, and then give the nodes of an edge different numbers (from order 3 on), although the exchange of data pairs the dofs of an entity by their number.
* `c149_hanging_refuted`: With hanging nodes a coarse cell has two neighbours at one face; both sides may then point the same way.
* `c149_hexahedra_refuted`: The orientations are stored in an unsigned char: the edges 8 to 11 of a hexahedron are never inverted.
* `c149_processes_refuted`: On a decomposed grid without overlap the two sides of a process boundary both see no neighbour, and both point outward: the dof they share belongs to opposite functions.
* `c149_refined_refuted`: The orientations are computed once, in the constructor. After the grid was refined find() reads beyond the stored ones, or uses the one of another cell.
* `c14_negative_theta_refuted`: C14 refuted for negative theta: the scheme calls itself explicit although b(1,1) is not zero.
* `c150_byte_refuted`: Orders are stored in an unsigned char: beyond 255 another order is used without notice.
* `c150_mimetic_refuted`: A cell with 20 faces or more invalidates the references handed out before: the element of the inside cell is gone when the one of the outside cell is looked up.
* `c150_refined_refuted`: The mapper follows the grid, the stored orders do not: after refinement the orders of the new cells are read beyond the end.
* `c152_empty_refuted`: If the index set names a type without entities (as on a process that has no cells), the constructor of the space reads the first entry of an empty vector.
* `c152_fixed_size_refuted`: On a grid with triangles (type 3) and quadrilaterals (type 4) the types are not compared with each other: second order elements have a dof in the quadrilaterals and none in the triangles, yet fixedSize(0) holds.
* `c153_communication_refuted`: For the same reason the order in which the dofs of an edge are communicated depends on the cell visited last: two processes on which the same two cells (and indices) are visited in a different order exchange the values of the two nodes.
* `c153_constraints_refuted`: The index cache reports no dof as constrained, also if the constraints name its container index.
* `c153_lookup_refuted`: Lagrange bases of order 3 and more number the two nodes on an edge by its global orientation, so that two cells whose local orientations differ assign the numbers 0 and 1 on the edge the other way round (dune-functions, LagrangePreBasis::indices). The ordering then keeps the assignment of the cell visited last, and the dof index of the other cell leads to another container index.
* `c154_copies_refuted`: A copy does not survive the space it was copied from: size() and update() use it through the ordering.
* `c154_find_refuted`: With elements of different order but the same type find() returns the one met first.
* `c155_complex_refuted`: Of complex values the real part is used, and the result is no eigenvalue.
* `c155_smallest_refuted`: They need not be the smallest ones: with the shift 1 the value 3/2 is found before 0.
* `c155_unconverged_refuted`: Pairs that did not converge are returned like the others, with an infinite value and unspecified memory as vector.
* `c156_pattern_refuted`: The pattern of the terms after the skeleton is that of the volume terms: entries of the base are missing.
* `c156_rim_refuted`: The term of a face at the rim of the overlap region is included or not depending on the cell it is visited from, although it is the same term.
* `c157_missing_runs_refuted`: Printing before all announced runs are done counts the missing ones as runs of duration zero.
* `c157_misuse_refuted`: Ending a task that was never started, or timing a task after the last run, is undefined instead of refused.
* `c157_print_in_run_refuted`: After printing during a run, the statistics of the runs printed later miss the end of that run.
* `c158_fill_refuted`: The fill character a formatter sets stays set.
* `c158_order_refuted`: Temporary formatters that do not end in reverse order: both are gone, but one of them is still in use.
* `c159_full_tensor_refuted`: The constructor takes the flag full_tensor, which asks for mu (grad u + (grad u)^T); it has no effect.
* `c15_mixed_sides_refuted`: C15 is false if the temporal operator asks for both sides and the spatial one does not.
* `c15_temporal_post_skeleton_refuted`: C15 is false for post-skeleton terms of the temporal operator.
* `c15_tiny_coefficient_refuted`: C15 is false of the code for coefficients below 1e-6: they are dropped.
* `c161_slip_refuted`: At the boundary the velocity and stress data are part of alpha here, of lambda there; slip walls are missing here.
* `c162_nonoverlapping_refuted`: Two ranks share vertex 1; the Dirichlet face {0, 1} belongs to a cell of rank 0. After assembleConstraints and setConstrainedDOFS the two copies of vertex 1 differ.
* `c163_extent_refuted`: The extensions are not checked: a box turned inside out is accepted, and a grid with a negative length is asked for.
* `c164_kept_refuted`: A returned name does not last: getName() returns the address of one buffer, so after the next call the name kept from the first has changed.
* `c164_long_refuted`: With a basename of 254 or more characters all numbers have the same name: the output of one time step overwrites that of the one before.
* `c164_overflow_refuted`: Incrementing past the largest int is undefined.
* `c164_sorted_refuted`: File 100000 is listed before file 99999.
* `c165_scale_refuted`: The distance by which a vertex is recognised is absolute. On a small domain vertices that are not in the middle of an edge are taken for hanging nodes: the same grid, scaled down, is refined although all its hanging nodes are isolated.
* `c166_step_left_open_refuted`: C166 does not hold for every history: "called once at the end of each time step" and "of each stage" fail when a solver throws. A step whose second stage fails, repeated with half the size: two preStep and one postStep, four preStage and three postStage; the second preStep arrives while a stage is still open.
* `c167_mass_faces_refuted`: C167 does not hold on faces of explicit steps: the documented "setTime(time_of_stage1) for each local operator" before the matrix is assembled does not happen there.
* `c168_later_stages_refuted`: C168 does not hold for the stages after the first: the step size is settled after stage 1, but the later stages are still announced, and evaluated, at times computed from the size the step was begun with. Heun's method asked for size 1, with 1/2 suggested: apply returns 1/2 but announces its second stage at time 1.
* `c169_resize_keeps_refuted`: Adding columns keeps the entries; a change of the number of rows moves them.
* `c16_hanging_apply_refuted`: An update that violates the constraints: jacobian_apply and the assembled matrix differ in the row of a free DOF. DOF 1 hangs on DOF 0; the operator is the reaction term on the cell of DOF 1.
* `c16_linear_apply_refuted`: C16 fails for linear operators: the variant with a solution is refused, and after no history of calls does the variant without one have a defined result, since it dereferences a solution pointer that is still null.
* `c170_data_refuted`: Writes through data() are not noticed.
* `c170_nested_refuted`: Writes through a nested view are not noticed by the view it was made from, once that has been reset.
* `c171_unbind_refuted`: A view that has been unbound goes on using the indices it was bound to.
* `c172_low_refuted`: And up to dimension 1 every name is accepted, although pyramids are refused in dimension 2:
* `c172_none_refuted`: [none] is not refused and gives a simplex in every dimension:
* `c172_pyramid_refuted`: The property fails for the other names. Pyramids and prisms are not recognised:
* `c173_outflow_refuted`: Parameters with places that are neither Dirichlet nor Neumann (outflow) lose them: the adapter made for the flux reports Neumann there, and the one in the other direction Dirichlet.
* `c174_elsewhere_refuted`: A zero error does not mean that the functions agree: only quadrature points count, whatever the order.
* `c175_dirichlet_refuted`: C175 violated: a Laplacian on three nodes with one Dirichlet node. A CG backend with any exact solver reports convergence for a vector that does not vanish at the constrained node, so it does not solve the assembled system.
* `c176_attach_refuted`: C176 violated: attach() keeps the statistics, so they describe another matrix than the one attached.
* `c176_copy_refuted`: C176 violated: a copy has the pattern of the original but no statistics, and asking for them throws; also after assigning back.
* `c176_storage_refuted`: C176 violated: building another matrix on the same storage leaves stale statistics in the first object.
* `c177_address_refuted`: The point is kept by address: overwriting the vector moves the point without a call, and a vector that is destroyed before the solve leaves a dangling pointer.
* `c177_stale_refuted`: After one Newton step the preconditioner still divides by the diagonal at the initial guess, 2, and not by the diagonal of the Jacobian that is applied, 3: nobody demands a new setup.
* `c178_documented_key_refuted`: The key LineSearchDamping of the documented example is ignored: for every value the damping factor stays.
* `c178_retry_forever_refuted`: With a threshold of one or more and a line search that fails, apply never returns: the pass is repeated without reassembling and without counting.
* `c178_uninitialised_refuted`: A solver constructed with a solution vector reads a flag that was never set, whatever the problem and whatever the parameters read from a file.
* `c179_duplicate_refuted`: Two components with the same name, as the children of a power space of a named space, are both written under it without an error.
* `c179_separator_refuted`: Without a separator two components may get the same name.
* `c179_vector_outside_refuted`: On any other cell the evaluation of a vector space dereferences a null pointer, where leaves are zero.
* `c17_face_time_refuted`: C17 is false for a linear mass operator whose boundary term depends on time: the stage system has the boundary term of the stage before, and its solution does not solve the stage equation.
* `c17_plain_stage_refuted`: C17: the variant without boundary values does not keep the values of constrained DOFs: the spatial part of the right hand side is not constrained, and the identity rows of the matrix copy it into the solution. Here one DOF with value zero is constrained and a constant source is present.
* `c17_reduced_step_refuted`: C17 is false if the time controller reduces the step size after the first stage: later stages are evaluated at the times of the old step size.
* `c180_zero_refuted`: If all errors are zero no share is a number.
* `c18_after_target_refuted`: Started after the target, the controller steps backwards.
* `c19_explicit_alias_refuted`: Unlike the implicit driver, the explicit one does not allow xold and xnew to be the same vector: starting from equal values, it computes something else.
* `c19_explicit_leak_refuted`: The explicit driver does not delete its stage vectors when a later stage throws.
* `c19_explicit_xold_refuted`: A step with three stages; the limiter changes xold although it is an input.
* `c20_budget_refuted`: With ForceIteration and MaxIterations = 0 one iteration is made and accepted.
* `c20_stale_defect_refuted`: With damping factor 1 and AcceptBest the solver can report convergence although the solution it hands back does not meet the criterion: the solution is 10 with squared residual 100, the reported defect 81.
* `c21_threshold_one_refuted`: With a threshold of one or more the first solve of a call does not assemble the Jacobian, but uses what the matrix held before: nothing in the first call.
* `c21_zero_defect_refuted`: If the initial defect is zero and the solver still iterates (ForceIteration, or an absolute limit of zero), 0/0 is not above the threshold: the first linear system is solved with a matrix that was never assembled.
* `c22_damping_one_refuted`: With damping factor 1 and AcceptBest the search returns normally, the solution is unchanged and the stored defect is not its defect.
* `c23_flag_exact_refuted`: The flag is not exact: a Dirichlet contribution after a hanging one leaves it set.
* `c24_shifted_empty_refuted`: For EmptyTransformation set_shifted_dofs leaves all entries, for a container without entries it sets all.
* `c25_chained_refuted`: Chained constraints: the result depends on the order in which the container is traversed.
* `c26_chained_refuted`: Chained constraints: the transformations are not adjoint.
* `c26_restricted_order_refuted`: With the restriction, a Dirichlet contributor is read before or after it is set to zero, depending on the order of the container.
* `c27_mixed_caching_refuted`: If only one of the spaces caches constraints (the other has no constraints at all), hanging rows are written to entries that are not in the pattern.
* `c28_periodic_self_neighbour_refuted`: A periodic face of a cell onto itself is never presented to one-sided skeleton terms.
* `c29_skipped_intersection_refuted`: A skipped intersection shifts the index of the following ones.
* `c31_clear_row_refuted`: And without asserts clear_row on a row without diagonal entry changes another row.
* `c31_dense_refuted`: The dense matrix does not check columns: column k of row i is column 0 of row i+1.
* `c31_write_refuted`: C31 fails: even with asserts a write outside the pattern changes another entry of the row,
* `c32_dominant_coarsened_refuted`: When many elements share one error the two thresholds can coincide just above it. With the default fractions (refine 70%, coarsen 20%) the elements carrying 90% of the error are then marked for coarsening and none of them for refinement.
* `c33_both_refuted`: C33 fails for overlapping thresholds: both calls are made for the same cell,
* `c33_largest_coarsened_refuted`: And when coarsening, a cell with the largest error is marked for coarsening.
* `c33_verbosity_refuted`: The time step strategy passes its verbosity as the minimal level, so the marks depend on the verbosity.
* `c34_varying_sizes_refuted`: C34 fails for spaces whose local size varies among cells of one geometry type: the offsets and sizes are cached by geometry type, so the coefficients of an ancestor are written past the end of its vector.
* `c38_two_sided_refuted`: Distance one does not protect what TWO patches both reach only through a neighbour: elements 0 and 3 both reach vertex 2 of the line within one step, but element 0 is Interior in every schedule. (The coloured partition does separate such patches, see [c37_colored].)
* `c39_neighbor_ranks_refuted`: Which is not the list "of all neighboring processes" its documentation promises: two ranks can share a DOF while only one of them lists the other.
* `c41_copy_order_refuted`: With senders that agree (for instance the owner only) the result of Copy is determined; otherwise it depends on the order of arrival.
* `c42_outside_same_layout_refuted`: Without leaf sizes the data for an entity outside the partitions of the receiver is left in the buffer: the next entity would read it as its own.
* `c45_fast_empty_leaf_refuted`: In fast mode only the first DOF index of each leaf is written, to the leaf's first position even when the leaf contributes no DOFs, so a leaf without DOFs on the element writes past the range of the whole space.
* `c51_boundary_refuted`: In the nonlinear boundary variant the direction is not used at all.
* `c51_boundary_weight_refuted`: Both boundary variants ignore the accumulation weight, which is the time step factor in instationary problems.
* `c51_skeleton_refuted`: In the nonlinear skeleton variant the rows of the outside cell are multiplied with the linearisation point.
* `c52_boundary_refuted`: With two test functions and one trial function the entry of the second row is written outside the matrix.
* `c53_diagonal_refuted`: The diagonal matrix multiplies wrongly in a release build (a debug build stops at the assertion).
* `c53_resize_rows_refuted`: With another number of rows the entries move to other positions.
* `c54_boundary_refuted`: Boundary terms of the summands never reach the residual.
* `c54_set_weight_refuted`: Changing a weight from zero after the matrix was built makes the Jacobian write outside the pattern.
* `c54_sides_refuted`: Mixing a one-sided and a two-sided summand is accepted, and the one-sided summand then sees every face twice.
* `c56_periodic_refuted`: Out of range: the block of a single cell leaves out periodic faces.
* `c56_two_sided_refuted`: Out of range: an operator that visits faces from both sides and fills the inside rows only. Its off-diagonal matrix is empty although the operator couples the cells, and although the application of the wrapper does too.
* `c57_coupled_leaves_refuted`: And fails as soon as two leaves are coupled: the entry for function 0 of leaf 0 and function 0 of leaf 1 is off the diagonal but is added to it.
* `c58_reuse_first_refuted`: Apply(x, true) as the first call, or after a call that did not keep its matrix, uses a matrix that has been allocated but never assembled; nothing in the interface detects this.
* `c58_zero_defect_refuted`: For a vector that solves the problem already, the requested reduction is infinite, so a solver may return any correction as converged, and the solution is lost.
* `c59_mixed_refuted`: C59 fails where edges of one cell carry different numbers of DOFs: the update compares only the size of the last sub-entity of each type (directleaflocalordering.hh 250-282, leaflocalordering.hh 143-155), so one cell with two DOFs on its first and one DOF on its last edge is declared to have one DOF on each edge, and two of its DOFs share a container index.
* `c60_block_width_refuted`: C60 fails for matrix blocks that are wider than the number of local DOFs: the aliased matrix view steps by the number of local columns (aliasedmatrixview.hh 140-144), so entries are displaced.
* `c60_hybrid_refuted`: C60 fails on grids with cells of two geometry types: the fast index cache uses the index of the cell among cells of its own type as the block number (lfsindexcache.hh 306-310), so cells of different types share a block.
* `c60_interpolate_refuted`: C60 fails for interpolate when x and xold are the same object: unlike the default operator (gridoperator.hh 152-165) the fast one (fastdg.hh 183-193) keeps no copy and loses the unconstrained entries.
* `c60_raw_refuted`: C60 fails for local operators that use rawAccumulate: for the views of the default engines accumulate(v) is rawAccumulate(weight * v) (localvector.hh 90-95), but the aliased vector applies the weight once more (aliasedvectorview.hh 174-178); L2VolumeFunctional (l2volumefunctional.hh 84) is such an operator.
* `c61_overlap_refuted`: Out of range of C61: entries of cells that belong to other processes are not complete, the volume terms are missing.
* `c62_not_cleared_refuted`: C62 fails for constraints(gfs, cg) on a container that was used before: it is not cleared, so DOFs of an earlier call stay constrained although nothing asks for it.
* `c62_unprepared_refuted`: C62 needs the precomputed tables: constraints for nonoverlapping grids built before compute_ghosts was called read beyond an empty table.
* `c63_boundary_flag_refuted`: Whether the manager reports a node as Dirichlet boundary node depends on the order of faces where Dirichlet and other boundaries meet.
* `c63_plane_refuted`: C63 fails: a hanging node that is left unconstrained on a two-dimensional grid.
* `c63_processor_refuted`: C63 fails on distributed grids: outside() is asked of intersections without neighbor.
* `c66_apply_weight_refuted`: FINDING: convectiondiffusionccfv.hh 42 with numericaljacobianapply.hh 303-338: for any other weight (a time step, a Runge-Kutta coefficient) the boundary part of a matrix-free application lacks the weight.
* `c66_timestep_refuted`: FINDING: convectiondiffusionccfv.hh 279-300: the suggested time step never depends on the problem; after the first stage has been prepared it is 1E100, although the flow empties a cell in one unit of time.
* `c67_point_refuted`: EquidistantLagrangePolynomials::x is documented to return the i-th Lagrange point, but it divides by k+1 where the points of p are i/k: for k = 1 the second polynomial is 1/2 at the point returned for it.
* `c70_basis_refuted`: The basis object is not part of the key: asking at the same position with another basis returns the values of the first one.
* `c70_near_refuted`: Positions closer than 1e-5 share an entry: after asking at 0, asking at 5e-6 returns the values at 0.
* `c70_order_refuted`: In general it is no ordering, even for positions no two of which are taken for each other: three points of the plane in a circle. std::map is then undefined.
* `c72_neighbors_refuted`: It does not serve in general: on a strip of three subdomains of one cell each with overlap one, the last rank is not in the list of the first although both store two vertices, and the set-up throws.
* `c74_added_refuted`: Asked to add the partition of unity, the constructor leaves the basis empty if all eigenvalues are above the threshold.
* `c74_nev_refuted`: The reference argument nev, documented to return the number of eigenvectors below the threshold, keeps its value.
* `c74_normalised_refuted`: The vectors announced as normalised do not have norm one: dividing by the square of the norm inverts it.
* `c75_subset_refuted`: A scalar function (or a vector-valued one) at the place of an inner node reads the finite element of a leaf that is not there on an element, although the same function written leaf by leaf is interpolated.
* `c77_global_curl_refuted`: In two dimensions the wrong case of the switch is taken: evaluating reads or writes outside the matrix or vector.
* `c80_unit_block_refuted`: A leaf space with fixed blocking whose block size one is found in the finite element map: the ordering keeps the component of the block; vectors accept the index, matrices do not.
* `c81_size_refuted`: The size is read off the first block: undefined if this block is empty, although the DOF has a row.
* `c82_leaf_block_refuted`: A leaf space with fixed blocking and a block size that divides the number of DOFs of a cell is accepted; the index of a DOF is then not in the block.
* `c82_nested_refuted`: Two dynamically blocked spaces below a dynamically blocked space: the vector type has two levels, the container indices of the ordering have three components, so that all DOFs of a leaf space share one entry; a third such space is rejected.
* `c83_partition_refuted`: For a partition set that is not closed, the answers depend on whether the grid has iterators for all codimensions: the set of interior entities of [line] has one vertex or two.
* `c84_contains_refuted`: An entity of a codimension that is not selected is reported as contained although it has no index.
* `c84_stale_refuted`: After the grid changed from g to g': reset() and selecting the same codimensions again leaves an index set that claims to be up to date with the sizes of g; update() does nothing.
* `c85_stale_refuted`: The offsets are not refreshed when the grid changes: two elements get the same number.
* `c86_stale_refuted`: On the cell written last, an update of the vector is not seen: a grid of one cell is written with its old values.
* `c87_boundary_refuted`: On a face of type None the matrix contains the outflow term, the residual contains nothing.
* `c90_consistent_refuted`: The function x in two cells meeting at 0, with the permeability eps / 2 in both: half of the flux is lost.
* `c92_applyscaleadd_refuted`: A consistent y is not updated to y + alpha A x: its border values are counted once per copy.
* `c93_explicit_refuted`: With the matrices the ranks assemble (which add up to the global diagonal) it does not: each border copy divides by its own part of the diagonal, and the quotients are added.
* `c96_spaces_refuted`: Test and trial space of the same type but with different orderings: the accumulator is constructed with the spaces in the wrong order and uses the ordering of the one for the indices of the other. The values of the other rank are added to wrong entries - here those of an interior DOF - or to entries that do not exist.
* `c98_update_refuted`: After the grid has changed, update does not give the cache of the new grid: entities that are no longer border entities are still found, under the index of another entity, and flags of entities outside the interior and border partition are kept.
<!-- /refuted -->

Seen while reading, not stated as theorems:

* `onestepparameter.hh`: nothing constrains the coefficients `b(r,0)` of a user table.
* `explicitonestep.hh`: `setMethod` assigns the new scheme before it throws for an implicit one.
* `implicitonestep.hh`: exceptions from `preStage`, interpolation or `postStage` leak the stage vectors and are not counted.
* `newton.hh`: an infinite initial defect makes every finite defect count as converged; `setParameters` with a single key resets
  termination and line search options; the damping factor passes through `std::to_string`; the reset for `keepMatrix=false` is skipped
  on an exception; convergence without iteration reports reduction 0.
* `constraints.hh` 749-754: `constraints(gfs,cg)` does not clear the container, `constraints(p,gfs,cg)` does.
* `localfunctionspace.hh`: the tagged constructor from a `const GFS&` does not reset `_dof_indices`.
* `sparse.hh`: `&_data[end]` in `sparse_inner_product` forms an element past the end.
* `adaptivity.hh`: zero total error gives NaN fractions; a vanishing sum gives NaN `q_s`, `q_t`.
* `iteratorsplit.hh`: an automatic patch count is kept for later updates, the coloured version computes it anew.
* `parallelhelper.hh`: `createIndexSetAndProjectForAMG` documents that it makes the matrix consistent but never touches it, and inspects
  only the first entry of each block.  `getNeighborRanks` is used by `geneo/subdomainprojectedcoarsespace.hh` 49 as if it were symmetric.
* `genericdatahandle.hh`: the gather of the add-and-clear handle assigns through a constant view.
* `numericalnonlinearjacobianapply.hh` 205, 222: wrong coefficients (c51 theorems); `defaultimp.hh`: matrix sizes swapped (c52).
* `combinedoperator.hh` 352: `alpha_boundary` dispatches to `alpha_volume_post_skeleton` (c54); `skip_entity`, `skip_intersection`, the time
  methods and `setSummand` cannot be instantiated; the assertion on sidedness never fires; only the linear `jacobian_apply` is forwarded.
* `scaled.hh`: no `isLinear` and no `doSkip*` flags, so it does not work with the present call switch.
* `blockdiagonal.hh`: `suggestTimestep` calls the misspelt `suggestTimeStep`.
* `callswitch.hh`/`jacobianApplyHelper`: messages of the skeleton exceptions are swapped.
* `linearproblem.hh`: with hanging node modification the initial guess of unconstrained entries is discarded, and an exception leaves `x`
  modified; `keep_matrix=false` is not honoured on an exception.
