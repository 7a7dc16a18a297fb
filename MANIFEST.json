{
 "claims": [
  {
   "property": "C01",
   "status": "proved",
   "theorems": [
    "c01_observes_like_list",
    "c01_equality_is_list_equality",
    "c01_conversion_keeps_sequence",
    "c01_views_are_prefixes",
    "c01_view_sizes"
   ],
   "note": "All capacities, storages and operation sequences, with the exact contract boundary; equality, hashing, conversion between capacities and views."
  },
  {
   "property": "C02",
   "status": "proved",
   "theorems": [
    "c02_lexicographic_bijection",
    "c02_flat_tree_bijection",
    "c02_blocked_tree_separates",
    "c02_variable_entity_sizes_refuted",
    "c02_nested_local_blocking_refuted"
   ],
   "note": "All lexicographic trees; also all well-formed flat trees and separation for mixed blocking. Refuted for unblocked entity-blocked orderings with varying sizes and for nested local container blocking (both outside the English statement)."
  },
  {
   "property": "C03",
   "status": "partial",
   "theorems": [
    "c03_interleaved_layout",
    "c03_interleaved_bijection",
    "c03_update_accepts_unbalanced_refuted"
   ],
   "note": "Layout and bijection proved for all balanced interleavings; the clause that an accepted update() never maps outside the container is false of the code (c03_update_accepts_unbalanced_refuted)."
  },
  {
   "property": "C04",
   "status": "proved",
   "theorems": [
    "c04_chunked_reblocking",
    "c04_update_throws_iff_not_divisible"
   ],
   "note": "All chunk sizes and all flat wrapped orderings; update throws exactly when not divisible."
  },
  {
   "property": "C05",
   "status": "partial",
   "theorems": [
    "c05_permutation_applied",
    "c05_update_discards_permutation",
    "c05_user_permutation_in_effect_refuted"
   ],
   "note": "perm is applied and bijective; the clause that the user's permutation is in effect after update() is false of the code: update() overwrites it with the identity (refuted)."
  },
  {
   "property": "C06",
   "status": "proved",
   "theorems": [
    "c06_batch_equals_single",
    "c06_batch_equals_single_any_tree"
   ],
   "note": "For well-formed trees with existence, and for any tree where mapIndex is defined."
  },
  {
   "property": "C07",
   "status": "proved",
   "theorems": [
    "c07_entity_dofs_complete",
    "c07_extraction_equals_single"
   ],
   "note": "All well-formed trees on a common grid."
  },
  {
   "property": "C08",
   "status": "partial",
   "theorems": [
    "c08_size_queries_exact_partial",
    "c08_lexicographic_over_blocked_refuted",
    "c08_interleaved_over_blocked_refuted",
    "c08_blocked_variable_leaf_refuted"
   ],
   "note": "Exact for all trees whose blocking sits above flat parts; outside that class three refutations."
  },
  {
   "property": "C09",
   "status": "proved",
   "theorems": [
    "c09_pattern_is_set_of_links",
    "c09_nested_pattern_is_set_of_links",
    "c09_reserved_column_refuted"
   ],
   "note": "All link sequences, estimates and nestings; the reserved sentinel column is the one value that cannot be stored (c09_reserved_column_refuted)."
  },
  {
   "property": "C10",
   "status": "proved",
   "theorems": [
    "c10_sizes_count_distinct_columns",
    "c10_overflow_counts_excess",
    "c10_colOrdering_refuted"
   ],
   "note": "sizes() and overflowCount() proved; colOrdering() returns the row ordering (refuted)."
  },
  {
   "property": "C11",
   "status": "proved",
   "theorems": [
    "c11_arithmetic_exact",
    "c11_add_then_subtract"
   ],
   "note": "All normalised values and operation sequences; integer overflow of time_t is not modelled."
  },
  {
   "property": "C12",
   "status": "partial",
   "theorems": [
    "c12_printed_value_partial",
    "c12_negative_times_misprinted",
    "c12_negative_difference_refuted"
   ],
   "note": "Proved for non-negative times and every stream precision; negative times print a wrong number (c12_negative_times_misprinted characterises it, c12_negative_difference_refuted is the witness)."
  },
  {
   "property": "C13",
   "status": "proved",
   "theorems": [
    "c13_runge_kutta_order",
    "c13_theta_order_two_only_for_half",
    "c13_exact_on_polynomials",
    "c13_linear_test_equation",
    "c13_alexander3_newton_loop"
   ],
   "note": "All shipped schemes: equivalence with a Runge-Kutta tableau for every system, order conditions, exactness on polynomials, linear test equation. Alexander 3 including its Newton loop, up to 10^-9216. Real arithmetic, no rounding."
  },
  {
   "property": "C14",
   "status": "partial",
   "theorems": [
    "c14_table_structure_partial",
    "c14_negative_theta_refuted"
   ],
   "note": "All schemes; one-step-theta needs theta >= 0, for negative theta implicit() is wrong (refuted)."
  },
  {
   "property": "C15",
   "status": "partial",
   "theorems": [
    "c15_stage_residual_partial",
    "c15_modes",
    "c15_shipped_schemes",
    "c15_tiny_coefficient_refuted",
    "c15_temporal_post_skeleton_refuted",
    "c15_mixed_sides_refuted"
   ],
   "note": "Full stage equation for all schemes with coefficients zero or above 1e-6; refuted for tiny coefficients, temporal post-skeleton terms and mixed two-sidedness."
  },
  {
   "property": "C16",
   "status": "partial",
   "theorems": [
    "c16_hanging",
    "c16_hanging_apply",
    "c16_hanging_apply_refuted",
    "c16_jacobian_is_derivative",
    "c16_apply_is_product",
    "c16_linear_apply_refuted",
    "c16_dirichlet",
    "c16_dirichlet_apply"
   ],
   "note": "Derivative and product proved for all differentiable operators, stages and modes, without constraints, with Dirichlet constraints (c16_dirichlet, c16_dirichlet_apply) and with hanging nodes without chains (c16_hanging, c16_hanging_apply). The code violates two parts: with hanging nodes jacobian_apply differs from the matrix for updates that violate the constraints (c16_hanging_apply_refuted), and the variant of jacobian_apply for linear operators dereferences a null pointer after every history (c16_linear_apply_refuted)."
  },
  {
   "property": "C17",
   "status": "partial",
   "theorems": [
    "c17_explicit_stage_partial",
    "c17_boundary_stage_partial",
    "c17_general_stage_partial",
    "c17_general_boundary_partial",
    "c17_general_parts",
    "c17_face_time_refuted",
    "c17_plain_stage_refuted",
    "c17_explicit_parts",
    "c17_reduced_step_refuted"
   ],
   "note": "Proved for linear mass operators with terms on cells and faces (face terms independent of time, both operators looking at faces equally often) and an unchanged step size, without constraints (c17_general_stage_partial) and with Dirichlet constraints for the variant that interpolates boundary values (c17_general_boundary_partial); c17_general_parts says what the stage system is for every operator. Refuted: when the time controller reduces the step, for mass operators whose face terms depend on time (c17_face_time_refuted: the matrix has them at the time of the stage before), and for the variant without a boundary function, which overwrites constrained degrees of freedom (c17_plain_stage_refuted)."
  },
  {
   "property": "C18",
   "status": "proved",
   "theorems": [
    "c18_suggestion",
    "c18_never_overshoots",
    "c18_reaches_target",
    "c18_after_target_refuted"
   ],
   "note": "In real arithmetic; for start times after the target the controller steps backwards (c18_after_target_refuted, a finding)."
  },
  {
   "property": "C19",
   "status": "proved",
   "theorems": [
    "c19_one_step",
    "c19_history",
    "c19_restored_result",
    "c19_failure_keeps_xnew",
    "c19_explicit_step_size",
    "c19_explicit_step",
    "c19_explicit_xold_refuted",
    "c19_explicit_leak_refuted",
    "c19_explicit_alias_refuted"
   ],
   "note": "Implicit driver, all solver behaviours and aliasing of xold and xnew; also lifetime of stage vectors. Explicit driver: the ideal step for different xold and xnew. Findings about the explicit driver: leak on exception, no aliasing, the limiter changes xold."
  },
  {
   "property": "C20",
   "status": "proved",
   "theorems": [
    "c20_terminates",
    "c20_normal_return",
    "c20_reduction",
    "c20_criterion_real",
    "c20_exception",
    "c20_true_defect_none",
    "c20_true_defect_hr",
    "c20_linear_iterations",
    "c20_budget_refuted",
    "c20_stale_defect_refuted"
   ],
   "note": "Norms in the reals extended by infinities and NaN; findings: one forced iteration with a budget of zero, stale defect for damping factor 1 with AcceptBest. The reported reduction is zero, not one, if no iteration was needed (c20_reduction)."
  },
  {
   "property": "C21",
   "status": "partial",
   "theorems": [
    "c21_fresh_when_slow",
    "c21_never_unassembled",
    "c21_reuse",
    "c21_zero_defect_refuted",
    "c21_threshold_one_refuted"
   ],
   "note": "Proved: sequence of solves, fresh Jacobian whenever the step was too slow, no unassembled matrix if the threshold is below 1 and the initial norm is a nonzero number, reuse flag over histories. Refuted: zero initial defect (0/0), threshold >= 1."
  },
  {
   "property": "C22",
   "status": "proved",
   "theorems": [
    "c22_contract",
    "c22_failure",
    "c22_damping_one_refuted"
   ],
   "note": "Damping factors between 0 and 1; for damping factor 1 refuted (c22_damping_one_refuted)."
  },
  {
   "property": "C23",
   "status": "proved",
   "theorems": [
    "c23_merge",
    "c23_proper",
    "c23_flag",
    "c23_local_flag",
    "c23_clear",
    "c23_order",
    "c23_flag_exact_refuted"
   ],
   "note": "All histories of import and clear. The flag is not exact after a Dirichlet contribution replaces a hanging one (c23_flag_exact_refuted), which the property does not claim."
  },
  {
   "property": "C24",
   "status": "proved",
   "theorems": [
    "c24_set_constrained",
    "c24_copy_constrained",
    "c24_set_nonconstrained",
    "c24_copy_nonconstrained",
    "c24_reassemble",
    "c24_set_shifted",
    "c24_check",
    "c24_shifted_empty_refuted"
   ],
   "note": "All containers and vectors. The EmptyTransformation overload of set_shifted_dofs disagrees with the general one on an empty container: c24_shifted_empty_refuted."
  },
  {
   "property": "C25",
   "status": "proved",
   "theorems": [
    "c25_formula",
    "c25_order",
    "c25_linear",
    "c25_idempotent",
    "c25_adjoint",
    "c25_chained_refuted"
   ],
   "note": "Contributors free or Dirichlet, as stated; linearity and idempotence for all containers. For chained constraints the result depends on the traversal order: c25_chained_refuted."
  },
  {
   "property": "C26",
   "status": "proved",
   "theorems": [
    "c26_adjoint",
    "c26_backward",
    "c26_backward_values",
    "c26_restricted_order_refuted",
    "c26_element",
    "c26_assembled",
    "c26_chained_refuted"
   ],
   "note": "Real arithmetic. For chained constraints the transformations are not adjoint: c26_chained_refuted. The restricted back transformation reads contributing Dirichlet DOFs before or after zeroing them, depending on the hash order: c26_restricted_order_refuted."
  },
  {
   "property": "C27",
   "status": "partial",
   "theorems": [
    "c27_in_pattern",
    "c27_diagonal",
    "c27_mixed_caching_refuted"
   ],
   "note": "Proved when both index caches use the same constraints caching mode. Fails when one space has no constraints container (EmptyTransformation) and the other has hanging constraints: c27_mixed_caching_refuted."
  },
  {
   "property": "C28",
   "status": "partial",
   "theorems": [
    "c28_interior_faces_partial",
    "c28_boundary_faces",
    "c28_processor_faces",
    "c28_nothing_else_visited",
    "c28_volumes",
    "c28_periodic_self_neighbour_refuted"
   ],
   "note": "Exact visits proved for faces between two distinct cells, boundary and processor faces and volumes; a periodic self-neighbour is never visited by a one-sided operator (refuted witness)."
  },
  {
   "property": "C29",
   "status": "partial",
   "theorems": [
    "c29_face_index_partial",
    "c29_skipped_intersection_refuted"
   ],
   "note": "Index counts the non-skipped intersections (proved); it differs from the position in the full intersection list when earlier intersections are skipped (refuted witness)."
  },
  {
   "property": "C30",
   "status": "proved",
   "theorems": [
    "c30_pattern",
    "c30_history",
    "c30_product",
    "c30_dense"
   ],
   "note": "Sparse and dense matrix of the simple backend, any pattern and history, debug and release builds; exact arithmetic."
  },
  {
   "property": "C31",
   "status": "partial",
   "theorems": [
    "c31_detected_partial",
    "c31_write_refuted",
    "c31_clear_row_refuted",
    "c31_dense_refuted"
   ],
   "note": "Detected (with asserts) only when the row has no larger column; otherwise the access addresses the entry of the next larger column, and clear_row without a diagonal entry can change another row: c31_*_refuted."
  },
  {
   "property": "C32",
   "status": "proved",
   "theorems": [
    "c32_error_fraction",
    "c32_element_fraction",
    "c32_dominant_coarsened_refuted"
   ],
   "note": "Thresholds of error_fraction and element_fraction for all nonnegative error vectors (exact reals). Finding: with one dominating error value the elements carrying 90% of the error are coarsened (c32_dominant_coarsened_refuted)."
  },
  {
   "property": "C33",
   "status": "proved",
   "theorems": [
    "c33_mark_grid",
    "c33_never_both",
    "c33_for_coarsening",
    "c33_both_refuted",
    "c33_largest_coarsened_refuted",
    "c33_verbosity_refuted"
   ],
   "note": "Exact characterisation of the marks; never both when the thresholds are ordered. Findings: both marks for overlapping thresholds, mark_grid_for_coarsening coarsens cells with large error, the strategy passes its verbosity as minimal level."
  },
  {
   "property": "C34",
   "status": "proved",
   "theorems": [
    "c34_protocol",
    "c34_protocol_fixed",
    "c34_average",
    "c34_reconstructs",
    "c34_varying_sizes_refuted"
   ],
   "note": "Scalar shape functions, one process, exact reals. Finding: offsets cached by geometry type make spaces with varying local sizes write past the end (c34_varying_sizes_refuted)."
  },
  {
   "property": "C35",
   "status": "proved",
   "theorems": [
    "c35_evaluation",
    "c35_accumulated",
    "c35_no_increase",
    "c35_start_forgets"
   ],
   "note": "Per evaluation, over all histories of startTimeStep/evaluate_estimators."
  },
  {
   "property": "C36",
   "status": "proved",
   "theorems": [
    "c36_iterator_split",
    "c36_balanced",
    "c36_identity",
    "c36_metis",
    "c36_automatic_count_is_kept"
   ],
   "note": "IteratorSplit after any history of updates; METIS variant with the graph partitioner as a parameter. The automatic patch count is chosen once and kept (c36_automatic_count_is_kept)."
  },
  {
   "property": "C37",
   "status": "proved",
   "theorems": [
    "c37_colored",
    "c37_succeeds",
    "c37_limit",
    "c37_colored_split"
   ],
   "note": "makeGraph, DSatur and the assignment to labels, for all meshes and base partitions; success up to 253 conflicting patches, exception from 255 on, never undefined behaviour."
  },
  {
   "property": "C38",
   "status": "proved",
   "theorems": [
    "c38_halo",
    "c38_schedule_independent",
    "c38_protects",
    "c38_reserved",
    "c38_two_sided_refuted"
   ],
   "note": "All orders of the relaxed atomic accesses inside each phase (a superset of the interleavings). c38_two_sided_refuted: distance >= 1 does not protect sub-entities that both patches only reach through neighbours."
  },
  {
   "property": "C39",
   "status": "proved",
   "theorems": [
    "c39_partition",
    "c39_unique_owner",
    "c39_schedule_independent",
    "c39_ghosts",
    "c39_neighbor_ranks",
    "c39_neighbor_ranks_refuted"
   ],
   "note": "Every order of arrival of the messages; gathers happen before the first scatter. getNeighborRanks is characterised and shown to be asymmetric (c39_neighbor_ranks_refuted), contrary to its documentation."
  },
  {
   "property": "C40",
   "status": "proved",
   "theorems": [
    "c40_disjoint_dot",
    "c40_global_product",
    "c40_mask",
    "c40_masked_sum"
   ],
   "note": "Nested block vectors, any ownership produced by the exchange; real numbers."
  },
  {
   "property": "C41",
   "status": "proved",
   "theorems": [
    "c41_add",
    "c41_add_all",
    "c41_min",
    "c41_max",
    "c41_schedule_independent",
    "c41_copy",
    "c41_copy_agreeing",
    "c41_copy_order_refuted"
   ],
   "note": "Any pair of sending and receiving partitions, any order of arrival; values are real numbers. Copy with disagreeing senders depends on the order (c41_copy_order_refuted). AddClear is not modelled (it does not compile with the const local view of gather)."
  },
  {
   "property": "C42",
   "status": "proved",
   "theorems": [
    "c42_leaf_sizes",
    "c42_outside",
    "c42_same_layout",
    "c42_announced_size",
    "c42_outside_same_layout_refuted"
   ],
   "note": "Byte buffers with arbitrary fixed-size encodings, optional rank transmission. Outside the statement: without leaf sizes an entity outside the receiver's partitions leaves its data in the buffer (c42_outside_same_layout_refuted)."
  },
  {
   "property": "C43",
   "status": "proved",
   "theorems": [
    "c43_index_sets",
    "c43_unique_consecutive",
    "c43_neighbors"
   ],
   "note": "All three exchanges in any order of arrival; the index sets of all ranks come from one global enumeration of the shared DOFs."
  },
  {
   "property": "C44",
   "status": "proved",
   "theorems": [
    "c44_ranges",
    "c44_local_index",
    "c44_nodes"
   ],
   "note": "Any tree, both bind modes, any stale state."
  },
  {
   "property": "C45",
   "status": "proved",
   "theorems": [
    "c45_dof_indices",
    "c45_distinct",
    "c45_recovers_leaf",
    "c45_history",
    "c45_fast_empty_leaf_refuted"
   ],
   "note": "Regular bind: success, entries, distinctness, path recovery, independence of history. Fast mode writes for leaves without DOFs: c45_fast_empty_leaf_refuted."
  },
  {
   "property": "C46",
   "status": "proved",
   "theorems": [
    "c46_exact",
    "c46_disabled"
   ],
   "note": "All containers, index lists and previous cache contents."
  },
  {
   "property": "C47",
   "status": "proved",
   "theorems": [
    "c47_residual",
    "c47_jacobian",
    "c47_jacobian_is_derivative",
    "c47_apply_is_product"
   ],
   "note": "Residual, Jacobian, derivative and jacobian_apply, over real arithmetic, unconstrained scatter."
  },
  {
   "property": "C48",
   "status": "proved",
   "theorems": [
    "c48_linear_reduction"
   ],
   "note": "For finite positive norms."
  },
  {
   "property": "C49",
   "status": "proved",
   "theorems": [
    "c49_product",
    "c49_constrained_rows"
   ],
   "note": "Real arithmetic; unsymmetric scatter."
  },
  {
   "property": "C50",
   "status": "proved",
   "theorems": [
    "c50_exact",
    "c50_skeleton_exact",
    "c50_accuracy",
    "c50_assembled"
   ],
   "note": "Over the reals, so without rounding errors of the difference quotient."
  },
  {
   "property": "C51",
   "status": "partial",
   "theorems": [
    "c51_volume",
    "c51_skeleton_linear",
    "c51_boundary_partial",
    "c51_skeleton_refuted",
    "c51_boundary_refuted",
    "c51_boundary_weight_refuted"
   ],
   "note": "Proved for volume and post-skeleton terms and for skeleton terms of the linear variant; boundary terms only for weight 1 and direction = linearisation point. The nonlinear skeleton and boundary variants and the weight of boundary terms violate the property (refutations)."
  },
  {
   "property": "C52",
   "status": "partial",
   "theorems": [
    "c52_volume",
    "c52_skeleton",
    "c52_boundary_partial",
    "c52_boundary_refuted"
   ],
   "note": "Boundary only for equal local sizes of trial and test space: the code swaps the sizes (refutation)."
  },
  {
   "property": "C53",
   "status": "partial",
   "theorems": [
    "c53_accumulate",
    "c53_usmv",
    "c53_resize",
    "c53_resize_rows_refuted",
    "c53_scale_fill",
    "c53_iteration",
    "c53_diagonal_accumulate",
    "c53_diagonal_refuted"
   ],
   "note": "LocalMatrix proved; the products of DiagonalLocalMatrix violate the property (refutation). Resizing to another number of rows moves entries (refutation)."
  },
  {
   "property": "C54",
   "status": "partial",
   "theorems": [
    "c54_views",
    "c54_residual_partial",
    "c54_plain_residual_partial",
    "c54_jacobian",
    "c54_apply",
    "c54_boundary_refuted",
    "c54_sides_refuted",
    "c54_assertion_never_fires",
    "c54_pattern",
    "c54_set_weight_refuted"
   ],
   "note": "Proved except that alpha_boundary terms of summands never reach the residual (refutation), mixed sidedness is accepted and then counts faces twice (refutations), and a weight changed from zero after matrix setup writes outside the pattern (refutation). Instationary and skip methods are not modelled: they cannot be instantiated."
  },
  {
   "property": "C55",
   "status": "proved",
   "theorems": [
    "c55_scaled_residual",
    "c55_scaled_jacobian",
    "c55_views"
   ],
   "note": "Residual and Jacobian methods; the methods for instationary problems forward to the backend and are not modelled."
  },
  {
   "property": "C56",
   "status": "proved",
   "theorems": [
    "c56_block_diagonal",
    "c56_off_diagonal",
    "c56_split",
    "c56_diag_apply",
    "c56_off_apply",
    "c56_local_block",
    "c56_two_sided_refuted",
    "c56_periodic_refuted"
   ],
   "note": "Two-sided operators that fill inside rows only and periodic faces are outside the stated range; both are recorded as refuted."
  },
  {
   "property": "C57",
   "status": "partial",
   "theorems": [
    "c57_point_diagonal",
    "c57_one_leaf",
    "c57_coupled_leaves_refuted"
   ],
   "note": "Proved for spaces with one leaf and for composite spaces whose components are not coupled; refuted for coupled components (the accumulation view compares positions within the leaf only)."
  },
  {
   "property": "C58",
   "status": "proved",
   "theorems": [
    "c58_solves",
    "c58_reported",
    "c58_interpolated",
    "c58_defined",
    "c58_apply_defined",
    "c58_reuse_defined",
    "c58_exception",
    "c58_assembled_problem",
    "c58_reuse_first_refuted",
    "c58_zero_defect_refuted",
    "c58_stage_problem",
    "c58_stage_solves"
   ],
   "note": "Reuse without an assembled matrix and a zero initial defect are outside the stated range; both are recorded as refuted. Stages of time steps with linear operators and any constraints without chains are linear problems (c58_stage_problem), so the solver reduces the stage residual (c58_stage_solves)."
  },
  {
   "property": "C59",
   "status": "proved",
   "theorems": [
    "c59_numbered",
    "c59_every_dof",
    "c59_varying",
    "c59_detected",
    "c59_homogeneous",
    "c59_promise",
    "c59_max_local",
    "c59_tables",
    "c59_tree",
    "c59_mixed_refuted"
   ],
   "note": "Holds in the stated range; c59_mixed_refuted shows the collision for cells whose sub-entities of one type carry different numbers of DOFs."
  },
  {
   "property": "C60",
   "status": "partial",
   "theorems": [
    "c60_residual",
    "c60_apply",
    "c60_jacobian",
    "c60_index",
    "c60_hybrid_refuted",
    "c60_block_width_refuted",
    "c60_raw_refuted",
    "c60_interpolate",
    "c60_interpolate_refuted"
   ],
   "note": "Proved: residual, jacobian_apply, Jacobian and the block index for grids with one cell geometry type and blocks of the right width. Refuted: hybrid grids share blocks (c60_hybrid_refuted), wider blocks displace entries (c60_block_width_refuted), rawAccumulate of the aliased vector applies the weight again (c60_raw_refuted), interpolate with xold and x the same object (c60_interpolate_refuted)."
  },
  {
   "property": "C61",
   "status": "proved",
   "theorems": [
    "c61_residual",
    "c61_jacobian",
    "c61_default",
    "c61_overlap_refuted"
   ],
   "note": "Out of range: entries of cells of other processes (c61_overlap_refuted)."
  },
  {
   "property": "C62",
   "status": "partial",
   "theorems": [
    "c62_constrained",
    "c62_order",
    "c62_added",
    "c62_not_cleared_refuted",
    "c62_unprepared_refuted"
   ],
   "note": "Exact set of constrained DOFs for every constraint class without skeleton terms (conforming, overlapping, nonoverlapping with ghosts, P0, P0 ghosts, RT0, interior nodes), every parameter tree and every grid; all constraints are Dirichlet; independent of visiting and hash order; an earlier content of the container is irrelevant when parameters are given. The overload without parameters does not clear the container (c62_not_cleared_refuted, exact effect in c62_added). Constraints built before compute_ghosts read out of bounds (c62_unprepared_refuted)."
  },
  {
   "property": "C63",
   "status": "partial",
   "theorems": [
    "c63_detected",
    "c63_isolated",
    "c63_edge",
    "c63_wrong_shape",
    "c63_plane_unchanged",
    "c63_plane_refuted",
    "c63_space_abort",
    "c63_processor_refuted",
    "c63_boundary_flag_refuted"
   ],
   "note": "Detection of hanging nodes is exact on sequential grids of nested refinement; after isolation levels of cells sharing a vertex differ by at most one (if the loop returns). The weights are right if the assemblers are told the dimension of the grid, but they are instantiated with the dimension of the intersection: in 2D no hanging node is ever constrained (c63_plane_unchanged, c63_plane_refuted), in 3D an assertion fails (c63_space_abort). Distributed grids: undefined (c63_processor_refuted). The extra check for simplices and the 3D weights are not covered."
  },
  {
   "property": "C64",
   "status": "proved",
   "theorems": [
    "c64_balance",
    "c64_conservation",
    "c64_jacobian"
   ],
   "note": "Residual of every cell = production + outflow through all faces (two-point flux, upwind, harmonic mean), global conservation, residual affine with the assembled matrix as linear part; for every grid with matching faces, every coefficients."
  },
  {
   "property": "C65",
   "status": "proved",
   "theorems": [
    "c65_comparison",
    "c65_unique",
    "c65_nonnegative"
   ],
   "note": "Comparison principle for the implicit Euler step with any step width; uniqueness and nonnegativity follow."
  },
  {
   "property": "C66",
   "status": "partial",
   "theorems": [
    "c66_apply_partial",
    "c66_apply_weight_refuted",
    "c66_timestep_refuted"
   ],
   "note": "Matrix-free application is exact for weight one; for other weights the boundary part lacks the weight, and the suggested time step is always 1E100 (both refuted with witnesses)."
  },
  {
   "property": "C67",
   "status": "partial",
   "theorems": [
    "c67_size",
    "c67_nodal",
    "c67_reproduces",
    "c67_space",
    "c67_gradient",
    "c67_partial",
    "c67_point_refuted"
   ],
   "note": "All the Lagrange properties are proved for every degree and dimension.  The points returned by EquidistantLagrangePolynomials::x are not the Lagrange points (c67_point_refuted)."
  },
  {
   "property": "C68",
   "status": "proved",
   "theorems": [
    "c68_points",
    "c68_symmetric",
    "c68_element"
   ],
   "note": "The quadrature rules are any lists of points and weights; the Lagrange properties need different points."
  },
  {
   "property": "C69",
   "status": "proved",
   "theorems": [
    "c69_orthogonal",
    "c69_gradient",
    "c69_projection",
    "c69_best",
    "c69_degree_one"
   ],
   "note": "Integrals are iterated differences of antiderivatives; exactness of the quadrature rule for degree 2k is a hypothesis, met for example by Simpson's rule for k = 1."
  },
  {
   "property": "C70",
   "status": "partial",
   "theorems": [
    "c70_answer",
    "c70_exact_partial",
    "c70_near_refuted",
    "c70_basis_refuted",
    "c70_order",
    "c70_order_refuted",
    "c70_repeat"
   ],
   "note": "Proved for every history with one basis object and positions that are equal or more than 1e-5 apart in a coordinate; in general the answer belongs to an earlier query within 1e-5.  False for nearer positions and for different basis objects (c70_near_refuted, c70_basis_refuted). If all coordinates are equal or more than 1e-5 apart the comparison is a strict weak ordering (c70_order) and each position is computed once (c70_repeat); in general it is none, so that std::map is undefined (c70_order_refuted: three points that differ clearly, in a circle)."
  },
  {
   "property": "C71",
   "status": "proved",
   "theorems": [
    "c71_standard",
    "c71_sarkis"
   ],
   "note": "All parts, for real numbers."
  },
  {
   "property": "C72",
   "status": "partial",
   "theorems": [
    "c72_galerkin",
    "c72_restrict",
    "c72_prolongate",
    "c72_neighbors",
    "c72_neighbors_refuted"
   ],
   "note": "Galerkin property, restriction and prolongation proved for complete neighbour lists; c72_neighbors_refuted: the list of the parallel helper (owners only) can miss a rank that shares entities, and the set-up then throws."
  },
  {
   "property": "C73",
   "status": "proved",
   "theorems": [
    "c73_apply",
    "c73_symmetric",
    "c73_positive"
   ],
   "note": "With solvers as parameters that solve their systems."
  },
  {
   "property": "C74",
   "status": "partial",
   "theorems": [
    "c74_count",
    "c74_vectors",
    "c74_added",
    "c74_normalised_refuted",
    "c74_nev_refuted",
    "c74_added_refuted"
   ],
   "note": "Selection and weighting proved; refuted: unit norm, the returned number, and the presence of the partition of unity when no eigenvector is selected."
  },
  {
   "property": "C75",
   "status": "partial",
   "theorems": [
    "c75_interpolate",
    "c75_conforming",
    "c75_reproduces",
    "c75_subset_refuted"
   ],
   "note": "A scalar or vector-valued function at the place of an inner node is proved when all leaves below live on the element; c75_subset_refuted: otherwise the finite element of a leaf without one is used (undefined behaviour), because these visitors lack the check of the size that the leaf visitor has."
  },
  {
   "property": "C76",
   "status": "proved",
   "theorems": [
    "c76_value",
    "c76_vector",
    "c76_interpolant",
    "c76_local_function"
   ],
   "note": "Over the reals; scalar shape functions per child in the vector-valued case."
  },
  {
   "property": "C77",
   "status": "partial",
   "theorems": [
    "c77_gradient",
    "c77_vector_gradient",
    "c77_divergence",
    "c77_curl3",
    "c77_curl2",
    "c77_piola2",
    "c77_piola3",
    "c77_jacobian_to_curl",
    "c77_global_curl_partial",
    "c77_global_curl_refuted"
   ],
   "note": "c77_global_curl_partial: three dimensions; c77_global_curl_refuted: in two dimensions the switch over the dimension of the curl takes the wrong case and accesses matrix or vector out of bounds. Derivatives of the shape functions and of the geometry are assumed to be what the finite element and the grid return."
  },
  {
   "property": "C78",
   "status": "proved",
   "theorems": [
    "c78_iteration",
    "c78_empty"
   ],
   "note": "All nestings and sizes."
  },
  {
   "property": "C79",
   "status": "proved",
   "theorems": [
    "c79_access",
    "c79_distinct",
    "c79_sound",
    "c79_write",
    "c79_sized"
   ],
   "note": "Vectors of uniform depth and block size, as the C++ types have them."
  },
  {
   "property": "C80",
   "status": "partial",
   "theorems": [
    "c80_access",
    "c80_sound",
    "c80_clear_row",
    "c80_clear_row_block",
    "c80_unit_block_refuted"
   ],
   "note": "Access and clearing of rows are proved for all square matrices; false for the indices of leaf spaces with fixed blocking and automatic block size one: c80_unit_block_refuted."
  },
  {
   "property": "C81",
   "status": "partial",
   "theorems": [
    "c81_product",
    "c81_inverse",
    "c81_rows",
    "c81_row_access",
    "c81_exchange",
    "c81_size_refuted"
   ],
   "note": "Products, inverses, rows and exchange are proved; the announced size only if the first blocks are not empty: c81_size_refuted."
  },
  {
   "property": "C82",
   "status": "partial",
   "theorems": [
    "c82_fixed",
    "c82_flat",
    "c82_dynamic_partial",
    "c82_dynamic_single",
    "c82_nested_refuted",
    "c82_leaf_block_refuted"
   ],
   "note": "Fixed blocking and one level of dynamic blocking are proved (c82_dynamic_partial); false for dynamic blocking below dynamic blocking with several children (c82_nested_refuted) and for leaf blocks smaller than the number of DOFs (c82_leaf_block_refuted)."
  },
  {
   "property": "C83",
   "status": "partial",
   "theorems": [
    "c83_numbering",
    "c83_all",
    "c83_sub_index",
    "c83_partition_refuted"
   ],
   "note": "Proved for grids with iterators for all codimensions, and for partition sets consisting of the sub-entities of their elements. Missing: for other partition sets (e.g. interior only) on grids without these iterators the answers differ (c83_partition_refuted)."
  },
  {
   "property": "C84",
   "status": "partial",
   "theorems": [
    "c84_history",
    "c84_history_all",
    "c84_forced",
    "c84_result",
    "c84_contains_refuted",
    "c84_stale_refuted"
   ],
   "note": "Proved for every history of calls on one grid and for forced updates after a change of the grid. False of the code: contains(entity) ignores the selected codimensions (c84_contains_refuted); reset() followed by the same selection hides a change of the grid (c84_stale_refuted)."
  },
  {
   "property": "C85",
   "status": "partial",
   "theorems": [
    "c85_mapper",
    "c85_stale_refuted"
   ],
   "note": "Proved for the grid on which the mapper was built. False after a change of a grid with several element types: the offsets are never refreshed (c85_stale_refuted)."
  },
  {
   "property": "C86",
   "status": "partial",
   "theorems": [
    "c86_cache",
    "c86_stale_refuted"
   ],
   "note": "Proved when no cell is evaluated twice in a row across a change of the vector. False otherwise (c86_stale_refuted)."
  },
  {
   "property": "C87",
   "status": "partial",
   "theorems": [
    "c87_volume_weak_form",
    "c87_volume_jacobian",
    "c87_volume_accumulates",
    "c87_boundary_weak_form",
    "c87_boundary_jacobian_partial",
    "c87_boundary_refuted"
   ],
   "note": "The residual is shown to be the weak form tested with every function, and the matrix its exact derivative, in any dimension and for any quadrature, except on faces of type None: there the code assembles the outflow matrix although the residual is zero (c87_boundary_refuted)."
  },
  {
   "property": "C88",
   "status": "proved",
   "theorems": [
    "c88_symmetric",
    "c88_nonnegative",
    "c88_conservative",
    "c88_boundary_conservative"
   ],
   "note": "Symmetry, nonnegativity and conservation of the conforming operator on a cell; basis, geometry and coefficients are arbitrary."
  },
  {
   "property": "C89",
   "status": "proved",
   "theorems": [
    "c89_volume_weak_form",
    "c89_volume_jacobian",
    "c89_skeleton_jacobian",
    "c89_skeleton_apply",
    "c89_boundary_jacobian"
   ],
   "note": "For equal ansatz and test spaces, which jacobian_volume and its siblings in the code assume; volume, all four skeleton blocks and boundary, and the application of the Jacobian."
  },
  {
   "property": "C90",
   "status": "partial",
   "theorems": [
    "c90_weak_form",
    "c90_conservative",
    "c90_orientation",
    "c90_symmetric",
    "c90_energy",
    "c90_consistent_partial",
    "c90_weighted",
    "c90_consistent_refuted"
   ],
   "note": "Weak form, conservation, independence of the orientation, symmetry of the symmetric and energy of the nonsymmetric method are shown for every face. Consistency is shown without weighting (c90_consistent_partial); with weighting the flux is damped by a factor that is one half at permeability 0.5e-20 (c90_weighted, c90_consistent_refuted)."
  },
  {
   "property": "C91",
   "status": "proved",
   "theorems": [
    "c91_weak_form",
    "c91_consistent",
    "c91_symmetric",
    "c91_energy"
   ],
   "note": "Weak form of all four boundary types, the exception for inflow on an outflow boundary, consistency with the Dirichlet values, symmetry and energy."
  },
  {
   "property": "C92",
   "status": "proved",
   "theorems": [
    "c92_apply",
    "c92_applyscaleadd",
    "c92_energy",
    "c92_norm",
    "c92_applyscaleadd_refuted"
   ],
   "note": "For every world, matrix, container nesting and order of arrival. A consistent y in applyscaleadd is counted once per copy (c92_applyscaleadd_refuted); the property is about additive y. Scalar blocks."
  },
  {
   "property": "C93",
   "status": "partial",
   "theorems": [
    "c93_jacobi",
    "c93_jacobi_kind",
    "c93_explicit",
    "c93_explicit_refuted",
    "c93_explicit_overlap"
   ],
   "note": "Jacobi and the overlapping solver proved; the nonoverlapping diagonal solver only if every rank has the global diagonal, because it divides by the local part and adds the quotients (c93_explicit_refuted)."
  },
  {
   "property": "C94",
   "status": "proved",
   "theorems": [
    "c94_apply",
    "c94_applyscaleadd",
    "c94_energy",
    "c94_symmetric"
   ],
   "note": "All decompositions; completeness of the unconstrained rows is what assembly on an overlapping grid provides."
  },
  {
   "property": "C95",
   "status": "proved",
   "theorems": [
    "c95_additive",
    "c95_subdomain",
    "c95_restricted",
    "c95_symmetric"
   ],
   "note": "Local preconditioners are arbitrary functions; the hypotheses of symmetry are about the local preconditioners and the constraints."
  },
  {
   "property": "C96",
   "status": "partial",
   "theorems": [
    "c96_accumulate",
    "c96_consistent",
    "c96_spaces_refuted"
   ],
   "note": "Proved when test and trial space have the same ordering; with different orderings the values go to wrong entries because the accumulator is constructed with the spaces swapped (c96_spaces_refuted)."
  },
  {
   "property": "C97",
   "status": "proved",
   "theorems": [
    "c97_record",
    "c97_sizes",
    "c97_extend"
   ],
   "note": "Recording, message sizes and extension, for every order of arrival."
  },
  {
   "property": "C98",
   "status": "partial",
   "theorems": [
    "c98_fresh",
    "c98_update_refuted",
    "c98_update"
   ],
   "note": "A new cache is exact (c98_fresh, c98_inverse). A repeated update gives the right answers for border entities (c98_update) but keeps stale ids and flags (c98_update_refuted)."
  },
  {
   "property": "C99",
   "status": "proved",
   "theorems": [
    "c99_solves",
    "c99_iterative",
    "c99_block_operator"
   ],
   "note": "for every block size and every LU decomposition with row pivoting; the decomposition itself (Eigen) and the Krylov solver of the iterative version (dune-istl) enter through their contracts"
  },
  {
   "property": "C100",
   "status": "proved",
   "theorems": [
    "c100_sweep",
    "c100_fixed_point"
   ],
   "note": "over the reals, for cells of the interior partition; the diagonal preconditioner enters through the contract that C99 proves for the assembled version"
  },
  {
   "property": "C101",
   "status": "partial",
   "theorems": [
    "c101_point_required",
    "c101_apply",
    "c101_blocks",
    "c101_diagonal",
    "c101_diagonal_refuted"
   ],
   "note": "the protocol and the first setup are proved; a second setup of the iterative preconditioner adds the new point diagonal to the inverted old one (c101_diagonal_refuted)"
  },
  {
   "property": "C102",
   "status": "partial",
   "theorems": [
    "c102_average",
    "c102_stddev",
    "c102_fits",
    "c102_extrema",
    "c102_empty_refuted",
    "c102_overflow_refuted"
   ],
   "note": "true when no sum overflows and, for extrema, every rank has a value; false otherwise (c102_empty_refuted, c102_overflow_refuted)"
  },
  {
   "property": "C103",
   "status": "proved",
   "theorems": [
    "c103_indices",
    "c103_total",
    "c103_throws",
    "c103_hierarchical",
    "c103_exact_size"
   ],
   "note": "Total degree above 24 throws by design of the enumeration loop; theorem c103_throws states it."
  },
  {
   "property": "C104",
   "status": "partial",
   "theorems": [
    "c104_integral",
    "c104_unique",
    "c104_defined",
    "c104_missing",
    "c104_binomial",
    "c104_overflow_refuted"
   ],
   "note": "Whenever a value is returned it is the integral; c104_overflow_refuted: (30 over 14) overflows long, reached on tetrahedra by monomials of degree 28."
  },
  {
   "property": "C105",
   "status": "partial",
   "theorems": [
    "c105_orthonormal",
    "c105_span",
    "c105_inside",
    "c105_upto",
    "c105_upto_throws",
    "c105_order",
    "c105_constructs",
    "c105_overflow_refuted",
    "c105_order_qk_refuted"
   ],
   "note": "Orthonormality and span are proved for every basis that is constructed; c105_overflow_refuted: degree 14 on the tetrahedron is undefined behaviour; c105_order_qk_refuted: the functions up to order l of a tensor-product basis do not span the space of order l."
  },
  {
   "property": "C106",
   "status": "proved",
   "theorems": [
    "c106_jacobian",
    "c106_interpolation",
    "c106_partial_orders",
    "c106_keys"
   ],
   "note": "The quadrature rule is characterised by its exactness on the monomials of degree 2k of the element at hand."
  },
  {
   "property": "C107",
   "status": "proved",
   "theorems": [
    "c107_acoustics_waves",
    "c107_maxwell_waves",
    "c107_acoustics_split",
    "c107_maxwell_split"
   ],
   "note": "Acoustics in one, two and three dimensions and Maxwell in three; FieldMatrix::solve and invert are assumed to solve the systems they are given, which are shown to be regular."
  },
  {
   "property": "C108",
   "status": "partial",
   "theorems": [
    "c108_acoustics_conservative",
    "c108_maxwell_conservative",
    "c108_acoustics_consistent_partial",
    "c108_maxwell_consistent_partial",
    "c108_jump_acoustics_refuted"
   ],
   "note": "Conservation for all materials. Consistency for cells of the same material; where the speed of sound jumps it fails (c108_jump_acoustics_refuted: a fluid at rest under uniform pressure gets a flux of mass). For Maxwell the same defect is documented in the class comment."
  },
  {
   "property": "C109",
   "status": "proved",
   "theorems": [
    "c109_acoustics_volume",
    "c109_maxwell_volume",
    "c109_acoustics_skeleton",
    "c109_maxwell_skeleton",
    "c109_acoustics_boundary",
    "c109_maxwell_boundary",
    "c109_source",
    "c109_mass",
    "c109_mass_jacobian",
    "c109_mass_pattern"
   ],
   "note": "Volume, face, boundary and source terms, mass operator with Jacobian and pattern."
  },
  {
   "property": "C110",
   "status": "proved",
   "theorems": [
    "c110_acoustics_energy",
    "c110_maxwell_energy",
    "c110_acoustics_conservation",
    "c110_maxwell_conservation"
   ],
   "note": "Energy for constant materials, zero sources, absorbing boundaries, walls and perfect conductors, with exact rules; conservation for any materials."
  },
  {
   "property": "C111",
   "status": "proved",
   "theorems": [
    "c111_residual",
    "c111_loads",
    "c111_expansion",
    "c111_jacobian_is_derivative",
    "c111_jacobian_accumulates"
   ],
   "note": "Tested with an arbitrary test function, the Taylor-Hood residual is the weak form of the (Navier-)Stokes equations at the quadrature points; loads; the Jacobian is the derivative, with the exact quadratic remainder."
  },
  {
   "property": "C112",
   "status": "proved",
   "theorems": [
    "c112_symmetric",
    "c112_energy",
    "c112_dissipation"
   ],
   "note": "Symmetry of the Stokes matrix, energy identity and dissipation, with and without the full tensor."
  },
  {
   "property": "C113",
   "status": "proved",
   "theorems": [
    "c113_residual",
    "c113_loads",
    "c113_jacobian",
    "c113_linear",
    "c113_symmetric",
    "c113_energy",
    "c113_rigid_motions"
   ],
   "note": "Weak form, loads, matrix = residual operator, linearity, symmetry, semidefiniteness, rigid motions in the kernel."
  },
  {
   "property": "C114",
   "status": "proved",
   "theorems": [
    "c114_navier_stokes_mass",
    "c114_pressure_untouched",
    "c114_l2",
    "c114_velvec"
   ],
   "note": "Navier-Stokes mass (scalar and vector valued basis), L2 over any tree of leaves."
  },
  {
   "property": "C115",
   "status": "partial",
   "theorems": [
    "c115_residual_partial",
    "c115_residual_general",
    "c115_loads",
    "c115_reaction_refuted"
   ],
   "note": "Weak form without reaction or on cells with integration element one; c115_residual_general states what is computed in general; c115_reaction_refuted: the reaction term lacks the integration element."
  },
  {
   "property": "C116",
   "status": "partial",
   "theorems": [
    "c116_residual_partial",
    "c116_residual_general",
    "c116_source_refuted"
   ],
   "note": "Weak form for w(u) = u; c116_residual_general states what is computed in general; c116_source_refuted: f, q, v and j are evaluated at the interpolation of w(u)."
  },
  {
   "property": "C117",
   "status": "proved",
   "theorems": [
    "c117_skeleton",
    "c117_either_side",
    "c117_direction",
    "c117_mobility"
   ],
   "note": "Flux of each phase over a face equals the two-point flux with its own upstream saturation, opposite for the two cells, independent of the side, driven by the potential; bounds of the averaged mobility."
  },
  {
   "property": "C118",
   "status": "partial",
   "theorems": [
    "c118_residual_partial",
    "c118_conservation_partial",
    "c118_storage",
    "c118_gas_dirichlet",
    "c118_gas_scale_refuted",
    "c118_interface_partial",
    "c118_interface_viscosity_refuted"
   ],
   "note": "Cell balances and conservation for the liquid, and for the gas if both phases have the same scale; storage in full; c118_gas_scale_refuted: the gas flux over Dirichlet boundaries is scaled with scale_l; c118_interface_viscosity_refuted: the parameter interface forwards mu_g to mu_l."
  },
  {
   "property": "C119",
   "status": "partial",
   "theorems": [
    "c119_normal_velocity_partial",
    "c119_liquid_refuted",
    "c119_gas_refuted",
    "c119_field"
   ],
   "note": "Normal velocities equal the fluxes if the liquid molar density is constant and the gas mass density does not depend on the cell; c119_liquid_refuted, c119_gas_refuted otherwise; the Raviart-Thomas field has these normal velocities and reproduces constant fields."
  },
  {
   "property": "C120",
   "status": "partial",
   "theorems": [
    "c120_diameter",
    "c120_indicator_partial",
    "c120_faces",
    "c120_orientation",
    "c120_nonnegative_partial",
    "c120_negative_refuted"
   ],
   "note": "with a reaction term the cell contributes f^2 - (c u)^2 instead of (f - c u)^2 and the squared indicator can be negative (c120_negative_refuted); proved without reaction, the faces in general"
  },
  {
   "property": "C121",
   "status": "proved",
   "theorems": [
    "c121_indicator",
    "c121_nonnegative",
    "c121_zero",
    "c121_orientation"
   ],
   "note": ""
  },
  {
   "property": "C122",
   "status": "proved",
   "theorems": [
    "c122_first",
    "c122_second",
    "c122_first_zero",
    "c122_second_zero",
    "c122_time"
   ],
   "note": ""
  },
  {
   "property": "C123",
   "status": "partial",
   "theorems": [
    "c123_normal_partial",
    "c123_continuous_partial",
    "c123_balance_partial",
    "c123_uniform",
    "c123_linear",
    "c123_exchange",
    "c123_outflow_refuted",
    "c123_periodic_refuted",
    "c123_hanging_refuted",
    "c123_cache_refuted"
   ],
   "note": "Proved for conforming faces of affine cube cells (normal components, continuity, local conservation, uniform flow, exchange between processes). Refuted: outflow data are ignored, a boundary condition overrides periodic neighbours, hanging-node faces keep the velocity of the last intersection, and the cached transformation makes evaluate depend on earlier evaluations in non-affine cells."
  },
  {
   "property": "C124",
   "status": "proved",
   "theorems": [
    "c124_residual",
    "c124_matrix",
    "c124_derivative",
    "c124_symmetric",
    "c124_energy",
    "c124_gradients",
    "c124_dimension"
   ],
   "note": "Residuals, matrices, derivatives, symmetry, energies and kernels for two and three space dimensions, any weight and any position of the space in the local container."
  },
  {
   "property": "C125",
   "status": "proved",
   "theorems": [
    "c125_curl",
    "c125_cross",
    "c125_geometry"
   ],
   "note": "All variants against the cross product and curl in space by the Levi-Civita symbol."
  },
  {
   "property": "C126",
   "status": "partial",
   "theorems": [
    "c126_velocity_partial",
    "c126_weak_balance_partial",
    "c126_center_refuted"
   ],
   "note": "Proved for permeabilities constant in each cell; refuted for others: the tensor of the cell center is used at every point."
  },
  {
   "property": "C127",
   "status": "proved",
   "theorems": [
    "c127_functional",
    "c127_projection"
   ],
   "note": ""
  },
  {
   "property": "C128",
   "status": "partial",
   "theorems": [
    "c128_pointwise",
    "c128_set_time",
    "c128_history",
    "c128_independent",
    "c128_settable",
    "c128_tree",
    "c128_bind_time",
    "c128_unset_refuted",
    "c128_select",
    "c128_local"
   ],
   "note": "Proved for every composition and every history of setTime. Refuted: functions made by bindTime have an uninitialised time, so evaluating them before setTime is undefined."
  },
  {
   "property": "C129",
   "status": "partial",
   "theorems": [
    "c129_flux_partial",
    "c129_flux_refuted",
    "c129_flux_throws",
    "c129_piola_partial",
    "c129_piola_refuted"
   ],
   "note": "Proved for counterclockwise triangles and positive determinants. Refuted for clockwise triangles (the flux has the wrong sign) and for elements of negative orientation (the round trip changes the sign)."
  },
  {
   "property": "C130",
   "status": "proved",
   "theorems": [
    "c130_integral",
    "c130_linear",
    "c130_probe",
    "c130_probe_value",
    "c130_probe_late"
   ],
   "note": "Integrals and probes for any partition of the cells and any set of processes that find the point."
  },
  {
   "property": "C131",
   "status": "proved",
   "theorems": [
    "c131_global",
    "c131_local",
    "c131_output"
   ],
   "note": "Round trips for all grids whose search returns an element containing the point."
  },
  {
   "property": "C132",
   "status": "partial",
   "theorems": [
    "c132_restores_partial",
    "c132_consistent_partial",
    "c132_message",
    "c132_ghost_refuted",
    "c132_copy_refuted"
   ],
   "note": "Proved for interior and border entities, all vectors and all moves. Refuted: overlap and ghost entities are reset to zero even if nothing moves; and if a copy outside the entity set is communicated first, the DOFs are dropped and an assertion fails."
  },
  {
   "property": "C133",
   "status": "partial",
   "theorems": [
    "c133_container_indices",
    "c133_dof_indices",
    "c133_binds_partial",
    "c133_subspace",
    "c133_storage_refuted"
   ],
   "note": "DOF indices and container indices of subspaces agree with the whole space for all orderings and histories of binds that return; binding returns when all elements fill the storage; refuted: with smaller elements repeated binds overflow the tree indices of unused storage entries."
  },
  {
   "property": "C134",
   "status": "proved",
   "theorems": [
    "c134_interpolates",
    "c134_same_function"
   ],
   "note": "For every list of cells with trees of CG and DG spaces of the same shape: the prolongation matrix gives every cell the interpolation of the CG function, and the same function if the interpolation reproduces the shape functions."
  },
  {
   "property": "C135",
   "status": "partial",
   "theorems": [
    "c135_error",
    "c135_correction",
    "c135_symmetric",
    "c135_energy",
    "c135_galerkin",
    "c135_cg_matrix",
    "c135_relaxation_refuted",
    "c135_relaxation_integers"
   ],
   "note": "Error propagation, independence of the starting vector, symmetry, positivity, energy and Galerkin orthogonality of the hybrid preconditioner are proved for all matrices and numbers of steps. The relaxation factor of the smoother is refuted: it is stored in an int."
  },
  {
   "property": "C136",
   "status": "partial",
   "theorems": [
    "c136_dg",
    "c136_same_matrix",
    "c136_parallel_without_reuse",
    "c136_parallel_reuse_refuted",
    "c136_identical_matrix_refuted",
    "c136_second_solve_refuted"
   ],
   "note": "Proved for all programs of solves, changes of the matrix and of the reuse flag for the sequential backends and, without reuse, the parallel ones. Refuted: reuse in the parallel backends is undefined behaviour, an identical matrix in another object, a second solve with the same matrix."
  },
  {
   "property": "C137",
   "status": "proved",
   "theorems": [
    "c137_refines",
    "c137_block_smoother",
    "c137_symmetric"
   ],
   "note": "Refinement to the sequential preconditioner for all decompositions, orders of arrival, smoothers and numbers of steps, given that the AMG maps owner-only defects to consistent corrections; symmetry in the parallel scalar product follows."
  },
  {
   "property": "C138",
   "status": "proved",
   "theorems": [
    "c138_cells",
    "c138_faces",
    "c138_boundary",
    "c138_loads",
    "c138_agrees_with_taylor_hood"
   ],
   "note": "Exact equality with the interior penalty forms for all dimensions, bases, quadratures and parameters, in cells, on faces and boundaries, for loads."
  },
  {
   "property": "C139",
   "status": "proved",
   "theorems": [
    "c139_faces",
    "c139_boundary",
    "c139_cells",
    "c139_cells_derivative"
   ],
   "note": "Faces and boundaries exactly linear; cells expanded exactly with the quadratic convection term, hence the derivative."
  },
  {
   "property": "C140",
   "status": "proved",
   "theorems": [
    "c140_symmetric",
    "c140_energy_faces",
    "c140_stable"
   ],
   "note": "Symmetry of all three matrices for epsilon -1; energy identity and nonnegativity on whole meshes for epsilon 1."
  },
  {
   "property": "C141",
   "status": "proved",
   "theorems": [
    "c141_orientation",
    "c141_momentum_conserved",
    "c141_continuous_velocity",
    "c141_wall",
    "c141_open_boundary",
    "c141_penalty"
   ],
   "note": "Orientation (viscosity given at the point of the face), momentum conservation for bases that add up to one, consistency of faces, walls and open boundaries, default penalty."
  },
  {
   "property": "C142",
   "status": "partial",
   "theorems": [
    "c142_scaling_partial",
    "c142_mass_source_refuted"
   ],
   "note": "Proved for whole meshes without mass source. Refuted with a mass source: it is not scaled, so the divergence becomes dt times the source."
  },
  {
   "property": "C143",
   "status": "proved",
   "theorems": [
    "c143_update_forced",
    "c143_grid_unchanged",
    "c143_update_returns",
    "c143_update_refuses"
   ],
   "note": "Entity sets, spaces and orderings as in the code, for fixed-size finite elements with one geometry type per codimension. c143_force_needed shows why update() without the flag is not enough on a changed grid."
  },
  {
   "property": "C144",
   "status": "proved",
   "theorems": [
    "c144_child_refuses",
    "c144_construction",
    "c144_only_construction",
    "c144_initialised_root"
   ],
   "note": "Holds as stated; the state after a throwing constructor is in C146."
  },
  {
   "property": "C145",
   "status": "partial",
   "theorems": [
    "c145_sizes_stable",
    "c145_sizes_need_update",
    "c145_copy_refuted",
    "c145_shared_child_refuted"
   ],
   "note": "Stability and the need for an update are proved. Refuted for copies made after the first update (the copy shares an ordering that reports to the original) and for children shared by two spaces."
  },
  {
   "property": "C146",
   "status": "partial",
   "theorems": [
    "c146_failed_call_keeps_sizes",
    "c146_failed_update_refuted",
    "c146_failed_construction_refuted",
    "c146_ordering_after_failure_refuted",
    "c146_inner_space_refuted"
   ],
   "note": "Proved: sizes survive every throwing call. Refuted: the throwing update() of a child updates the entity sets; a throwing constructor leaves earlier children non-root; ordering() after a failed first ordering() returns an unset ordering; inner spaces of an entity-blocked tree never report the global size."
  },
  {
   "property": "C147",
   "status": "partial",
   "theorems": [
    "c147_pk",
    "c147_qk",
    "c147_others",
    "c147_power",
    "c147_pkqk",
    "c147_pkqk_max_refuted",
    "c147_rannacher_turek_refuted",
    "c147_block_size"
   ],
   "note": "Pk, Pk1D, Q1/Q2, DG, RT, BDM, edge and power maps and block sizes for all orders/dimensions the code supports; maxLocalSize of PkQk for order >= 2 and Rannacher-Turek in 3D are refuted."
  },
  {
   "property": "C148",
   "status": "partial",
   "theorems": [
    "c148_vertex_map",
    "c148_edges_match",
    "c148_pkqk_refuted",
    "c148_processes_refuted"
   ],
   "note": "Vertex maps and matching edge nodes in 2D and 3D for every numbering within a process; PkQk and independent numberings on several processes are refuted."
  },
  {
   "property": "C149",
   "status": "partial",
   "theorems": [
    "c149_faces",
    "c149_hanging_refuted",
    "c149_processes_refuted",
    "c149_refined_refuted",
    "c149_edges",
    "c149_hexahedra_refuted"
   ],
   "note": "Opposite normals on all conforming grids of one process with up to 8 faces, common tangents on cells with up to 8 edges; hanging nodes, process boundaries without overlap, refined grids and hexahedra are refuted."
  },
  {
   "property": "C150",
   "status": "partial",
   "theorems": [
    "c150_orders",
    "c150_refined_refuted",
    "c150_mimetic",
    "c150_mimetic_refuted",
    "c150_byte_refuted"
   ],
   "note": "Variable orders on a fixed grid with maxP < 256 and mimetic references with less than 20 faces; refined grids, larger orders and cells with 20 or more faces are refuted."
  },
  {
   "property": "C151",
   "status": "proved",
   "theorems": [
    "c151_indices",
    "c151_bijection"
   ],
   "note": "For every grid and every basis that numbers shared dofs consistently."
  },
  {
   "property": "C152",
   "status": "partial",
   "theorems": [
    "c152_contains",
    "c152_fixed_size_partial",
    "c152_fixed_size_refuted",
    "c152_empty_refuted"
   ],
   "note": "contains() proved; fixedSize() proved per geometry type, refuted for codimensions with several types; empty types are undefined behaviour (refuted)."
  },
  {
   "property": "C153",
   "status": "partial",
   "theorems": [
    "c153_lookup",
    "c153_lookup_refuted",
    "c153_communication_refuted",
    "c153_constraints_refuted"
   ],
   "note": "Lookup of dof indices for consistent bases; refuted for Lagrange bases of order 3, for the order of communication, and for constraints, which the cache ignores."
  },
  {
   "property": "C154",
   "status": "partial",
   "theorems": [
    "c154_update",
    "c154_find",
    "c154_copies_refuted",
    "c154_find_refuted"
   ],
   "note": "All histories in which the first space outlives its copies; copies that outlive it and elements that are no function of the type are refuted."
  },
  {
   "property": "C155",
   "status": "partial",
   "theorems": [
    "c155_pairs",
    "c155_closest",
    "c155_smallest_refuted",
    "c155_unconverged_refuted",
    "c155_complex_refuted"
   ],
   "note": "proved: with an exact solver for the shifted matrix and converged real pairs, the returned values and vectors are generalized eigenpairs in ascending order, a permutation of what ARPACK found, and the values are those closest to the shift; refuted: they need not be the smallest, pairs that did not converge are returned, and of complex values the real part is returned"
  },
  {
   "property": "C156",
   "status": "partial",
   "theorems": [
    "c156_region",
    "c156_rim_refuted",
    "c156_pattern_refuted"
   ],
   "note": "proved: volume, boundary, lambda and post-skeleton terms exactly on cells all of whose dofs are shared, skeleton terms on faces visited from such a cell; refuted: terms of faces at the rim depend on the side of the visit, and the post-skeleton pattern is that of the volume terms"
  },
  {
   "property": "C157",
   "status": "partial",
   "theorems": [
    "c157_tasks",
    "c157_runs",
    "c157_no_failure",
    "c157_further_run",
    "c157_missing_runs_refuted",
    "c157_print_in_run_refuted",
    "c157_misuse_refuted"
   ],
   "note": "proved: for every history the listed tasks are those started and their statistics describe the recorded durations; likewise for the runs if nothing is printed during a run; correct use never fails and a further run is refused; refuted: missing runs count as zero, printing during a run leaves stale run statistics, ending an unknown task or timing after the last run is undefined"
  },
  {
   "property": "C158",
   "status": "partial",
   "theorems": [
    "c158_scope",
    "c158_default",
    "c158_stream",
    "c158_local",
    "c158_aligned",
    "c158_order_refuted",
    "c158_fill_refuted"
   ],
   "note": "proved: nested temporary formatters restore the one before; a null formatter restores the default; flags, precision and width of the stream are kept; local tags are the log tag and their pieces; tags have equal length on all ranks after the setup; refuted: other orders of destruction, and the fill character set by a formatter stays"
  },
  {
   "property": "C159",
   "status": "partial",
   "theorems": [
    "c159_cells",
    "c159_faces",
    "c159_boundary",
    "c159_force",
    "c159_full_tensor_refuted",
    "c159_flag_without_effect"
   ],
   "note": "The forms without the transposed gradient are proved for cells, faces, boundary and force; c159_full_tensor_refuted: the flag full_tensor is never read, so the transposed part is missing."
  },
  {
   "property": "C160",
   "status": "proved",
   "theorems": [
    "c160_faces",
    "c160_boundary",
    "c160_cells",
    "c160_cells_derivative"
   ],
   "note": ""
  },
  {
   "property": "C161",
   "status": "partial",
   "theorems": [
    "c161_agrees_cells",
    "c161_agrees_faces",
    "c161_agrees_boundary",
    "c161_slip_refuted",
    "c161_orientation",
    "c161_symmetric",
    "c161_energy"
   ],
   "note": "Agreement in cells, on faces and on boundaries without slip walls, orientation, symmetry and energy are proved; c161_slip_refuted: slip walls contribute nothing here, but do in DGNavierStokes. The mass source (g2) of the other operator does not occur here either."
  },
  {
   "property": "C162",
   "status": "partial",
   "theorems": [
    "c162_overlapping",
    "c162_sequential",
    "c162_nonoverlapping_partial",
    "c162_nonoverlapping_refuted"
   ],
   "note": "Overlapping and sequential facades: proved for every program of calls, refined to the undistributed facade. Nonoverlapping: proved where every rank that stores a Dirichlet DOF also stores a Dirichlet face with it; otherwise the code violates the property (c162_nonoverlapping_refuted: copies disagree after setConstrainedDOFS)."
  },
  {
   "property": "C163",
   "status": "partial",
   "theorems": [
    "c163_origin",
    "c163_corner",
    "c163_extent_refuted",
    "c163_unit"
   ],
   "note": "Proved: boxes at the origin are accepted unchanged, corners away from the origin are refused. The code does not check the extensions (c163_extent_refuted: negative length accepted)."
  },
  {
   "property": "C164",
   "status": "partial",
   "theorems": [
    "c164_distinct",
    "c164_basenames",
    "c164_sorted",
    "c164_sorted_refuted",
    "c164_long_refuted",
    "c164_history",
    "c164_overflow_refuted",
    "c164_kept_refuted"
   ],
   "note": "Proved for base names up to 242 characters and numbers up to 99999, with all histories of calls. Violated by the code beyond: long base names give one name for all numbers, file 100000 sorts before 99999, names share one buffer, incrementing past INT_MAX is undefined."
  },
  {
   "property": "C165",
   "status": "partial",
   "theorems": [
    "c165_isolated",
    "c165_terminates",
    "c165_scale_refuted"
   ],
   "note": "Isolation proved for cubes and simplices (with the extra check); termination proved with a weight over the leaf cells, for grid managers that replace marked cells by boundedly many of the next level. Violated by the code: vertices are matched by an absolute distance, so a small domain is refined unnecessarily (c165_scale_refuted)."
  },
  {
   "property": "C166",
   "status": "partial",
   "theorems": [
    "c166_documented_order",
    "c166_success",
    "c166_history",
    "c166_any_outcome",
    "c166_evaluated_in_stage",
    "c166_same_for_both",
    "c166_failed_stage",
    "c166_step_left_open_refuted"
   ],
   "note": "Proved for every scheme, sweep, solver and exception: order, both operators, evaluations inside stages, initial part on exceptions. Refuted for histories with a failing stage: no postStage/postStep follows (c166_step_left_open_refuted; c166_failed_stage describes it for every failing stage)."
  },
  {
   "property": "C167",
   "status": "partial",
   "theorems": [
    "c167_old_times",
    "c167_implicit_times",
    "c167_explicit_times",
    "c167_mass_faces_refuted",
    "c167_all_old",
    "c167_all_new",
    "c167_all_mass"
   ],
   "note": "Proved for implicit steps and for cells of explicit steps, with completeness. Refuted for the mass matrix on faces of explicit steps (c167_mass_faces_refuted; c167_explicit_times gives the time used)."
  },
  {
   "property": "C168",
   "status": "partial",
   "theorems": [
    "c168_asked_in_first_stage",
    "c168_asked_after_evaluations",
    "c168_both_asked",
    "c168_later_stages_refuted"
   ],
   "note": "Proved: who is asked, when and how often. Refuted: stages after the first still use the size the step was begun with (c168_later_stages_refuted)."
  },
  {
   "property": "C169",
   "status": "partial",
   "theorems": [
    "c169_readable",
    "c169_set_get",
    "c169_filled",
    "c169_umv",
    "c169_usmv",
    "c169_loop",
    "c169_each_once",
    "c169_back",
    "c169_more_columns",
    "c169_resize_keeps_refuted"
   ],
   "note": "Proved; keeping the entries when both dimensions grow is refuted (c169_resize_keeps_refuted: a change of the number of rows moves entries)."
  },
  {
   "property": "C170",
   "status": "partial",
   "theorems": [
    "c170_sum",
    "c170_accepted",
    "c170_nested",
    "c170_own_weight",
    "c170_modified",
    "c170_data_refuted",
    "c170_nested_refuted"
   ],
   "note": "Proved for every history without writes through data(); those are not noticed (c170_data_refuted), nor are writes through a nested view after its parent was reset (c170_nested_refuted)."
  },
  {
   "property": "C171",
   "status": "partial",
   "theorems": [
    "c171_read",
    "c171_write",
    "c171_add",
    "c171_write_read",
    "c171_read_write",
    "c171_history",
    "c171_undefined",
    "c171_unbind_refuted",
    "c171_matrix_read",
    "c171_matrix_write",
    "c171_matrix_add"
   ],
   "note": "Proved; an unbound view goes on using its old indices (c171_unbind_refuted), so unbinding is no protection."
  },
  {
   "property": "C172",
   "status": "partial",
   "theorems": [
    "c172_found",
    "c172_distinct",
    "c172_lines",
    "c172_made",
    "c172_accepted",
    "c172_round_trip",
    "c172_pyramid_refuted",
    "c172_none_refuted",
    "c172_low_refuted"
   ],
   "note": "Recognition of simplices and cubes, construction of all four names and the round trip for simplices and cubes are proved. Violated by the code: pyramids and prisms are reported as none (c172_pyramid_refuted), none gives a simplex (c172_none_refuted), every name is accepted up to dimension 1 (c172_low_refuted)."
  },
  {
   "property": "C173",
   "status": "partial",
   "theorems": [
    "c173_complement",
    "c173_passes_on",
    "c173_stacked",
    "c173_set_time",
    "c173_last_time",
    "c173_outflow_refuted"
   ],
   "note": "All parts proved; c173_outflow_refuted: for parameters with places that are neither Dirichlet nor Neumann the adapters report one of the two, as the documentation warns."
  },
  {
   "property": "C174",
   "status": "proved",
   "theorems": [
    "c174_zero",
    "c174_nonneg",
    "c174_symmetric",
    "c174_triangle",
    "c174_scaled",
    "c174_distribution",
    "c174_difference",
    "c174_elsewhere_refuted"
   ],
   "note": "Real arithmetic for floating point; quadrature rules are data of the cells. Finding: only quadrature points count, so functions that differ elsewhere may have the error zero (c174_elsewhere_refuted)."
  },
  {
   "property": "C175",
   "status": "partial",
   "theorems": [
    "c175_solves",
    "c175_history",
    "c175_dirichlet",
    "c175_numbering",
    "c175_dirichlet_refuted"
   ],
   "note": "Proved for BiCGSTAB and, for symmetric matrices, CG. With Dirichlet constraints only rows are cleared, so the matrix is not symmetric; c175_dirichlet says exactly when a CG backend is still right, c175_numbering gives a class; false in general (c175_dirichlet_refuted: wrong values at constrained DOFs, reported as converged). The iterations of Eigen are a parameter with the contract that success means a reduced defect. The Cholesky and least-squares backends cannot be instantiated (no iterations()/error() in Eigen)."
  },
  {
   "property": "C176",
   "status": "partial",
   "theorems": [
    "c176_leaf",
    "c176_nested",
    "c176_truthful",
    "c176_kept",
    "c176_attach_refuted",
    "c176_storage_refuted",
    "c176_copy_refuted"
   ],
   "note": "Numbers, order of the blocks and (without shared storage) agreement with the present pattern are proved. Violated by the code: attach() keeps the statistics of the former matrix (c176_attach_refuted), a second object built on the same storage leaves stale ones (c176_storage_refuted), copies and targets of assignments have none and asking for them throws (c176_copy_refuted, for every history)."
  },
  {
   "property": "C177",
   "status": "partial",
   "theorems": [
    "c177_solve",
    "c177_blocks",
    "c177_fresh",
    "c177_refused",
    "c177_linear",
    "c177_newton",
    "c177_stale_refuted",
    "c177_address_refuted"
   ],
   "note": "Refuted: the blocks of the preconditioner are not renewed when the point moves, so from the second Newton step on it belongs to another matrix than the operator (c177_stale_refuted); the point is kept by address, so overwriting the vector moves it and destroying it is undefined behaviour (c177_address_refuted). Line search control and termination are those of the Newton claims."
  },
  {
   "property": "C178",
   "status": "partial",
   "theorems": [
    "c178_normal_return",
    "c178_reduction",
    "c178_exception",
    "c178_defined",
    "c178_linear_iterations",
    "c178_terminates",
    "c178_matrices",
    "c178_line_search",
    "c178_line_search_failed",
    "c178_line_search_nan",
    "c178_agrees",
    "c178_uninitialised_refuted",
    "c178_parameters",
    "c178_parameters_accepted",
    "c178_parameters_refused",
    "c178_documented_key_refuted",
    "c178_retry_forever_refuted"
   ],
   "note": "Refuted: a solver constructed with a solution vector reads flags that were never set (c178_uninitialised_refuted); with a reassemble threshold of one or more a failing line search is repeated for ever (c178_retry_forever_refuted); the documented key LineSearchDamping is ignored (c178_documented_key_refuted). Proved: normal return, exceptions, matrices used, linear iterations, line search, termination for thresholds below one, agreement with the new solver, reading of options. Not modelled: output, timings, convergence rate, lifetime of the kept vectors, result() before the first call."
  },
  {
   "property": "C179",
   "status": "partial",
   "theorems": [
    "c179_written",
    "c179_once",
    "c179_success",
    "c179_named",
    "c179_unnamed",
    "c179_distinct",
    "c179_separator_refuted",
    "c179_duplicate_refuted",
    "c179_leaf_values",
    "c179_vector_values",
    "c179_vector_outside_refuted"
   ],
   "note": "Refuted: a vector space evaluated on a cell outside the entity set of a child dereferences a null pointer (c179_vector_outside_refuted; leaves give zero); equal names are not noticed (c179_duplicate_refuted, c179_separator_refuted). Proved: which data sets are added in which order, when it throws and what was added before, names, values. Staleness of the local vector is part of the entity set claims. addCellFunction and addVertexFunction with a template argument have misplaced parentheses and cannot be instantiated; not modelled."
  },
  {
   "property": "C180",
   "status": "proved",
   "theorems": [
    "c180_header",
    "c180_line",
    "c180_threshold",
    "c180_ordered",
    "c180_last",
    "c180_zero_refuted"
   ],
   "note": "For every vector of nonnegative errors, in exact arithmetic; if all errors are zero the shares are not numbers (c180_zero_refuted), which is outside the statement."
  }
 ]
}
