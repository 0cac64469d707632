{
 "claims": [
  {
   "property": "C01",
   "status": "proved",
   "theorems": [
    "C01_partition",
    "C01_calls_succeed",
    "C01_adjacency"
   ],
   "note": "all histories of public insertions, merges and clears; exhaustive nearest neighbour"
  },
  {
   "property": "C02",
   "status": "partial",
   "theorems": [
    "C02_path_exists_partial",
    "C02_can_reach_partial",
    "C02_path_exists_complete",
    "C02_path_exists_refuted"
   ],
   "note": "exact for histories without one-way insertion of a new node; never misses a path for any history; false in general: one-way addNodeAndEdge makes pathExists answer true without a path"
  },
  {
   "property": "C03",
   "status": "partial",
   "theorems": [
    "C03_scc_partial",
    "C03_scc_complete",
    "C03_scc_refuted"
   ],
   "note": "exact for histories without one-way insertion of a new node; false in general"
  },
  {
   "property": "C04",
   "status": "partial",
   "theorems": [
    "C04_add_existing",
    "C04_no_duplicates_partial",
    "C04_no_duplicates_refuted"
   ],
   "note": "addNode(q) is proved for every history; addNodeAndEdges searches only one component and duplicates"
  },
  {
   "property": "C05",
   "status": "proved",
   "theorems": [
    "C05_merge_preserves",
    "C05_merge_directions_refuted"
   ],
   "note": "connections of both roadmaps survive; the stronger reading (directions kept) is refuted"
  },
  {
   "property": "C06",
   "status": "proved",
   "theorems": [
    "C06_astar_correct"
   ],
   "note": "every roadmap built by public calls; nonnegativity of lengths is not needed"
  },
  {
   "property": "C07",
   "status": "partial",
   "theorems": [
    "C07_astar_optimal_partial",
    "C07_parallel_edges_refuted",
    "C07_admissible_refuted"
   ],
   "note": "optimal for a metric bounded by edge lengths and at most one edge between two nodes; a shorter parallel edge is ignored by the search; a heuristic which is only admissible does not suffice"
  },
  {
   "property": "C08",
   "status": "proved",
   "theorems": [
    "C08_nearest_all",
    "C08_nearest_component",
    "C08_knearest_component",
    "C08_knearest_roadmap",
    "C08_within_ball",
    "C08_knearest_zero_refuted"
   ],
   "note": "any tie breaking of the heap; K = 0 is outside the claim and undefined in the code"
  },
  {
   "property": "C09",
   "status": "partial",
   "theorems": [
    "C09_nearest_partial",
    "C09_insertion_partial",
    "C09_insertion_outcome",
    "C09_line_joints_partial",
    "C09_untold_merge_refuted",
    "C09_same_configuration_refuted",
    "C09_clear_refuted",
    "C09_extra_coordinates_refuted",
    "C09_translation_weight_refuted"
   ],
   "note": "Every history and tree shape, for distances at least the weighted Euclidean one; refuted when the roadmap merges components, when a bucket has no width, after clear, with extra coordinates and with weights above 1 on translations. The file is commented out of the build at this commit."
  },
  {
   "property": "C10",
   "status": "proved",
   "theorems": [
    "C10_union_exact",
    "C10_contains_value",
    "C10_contains_interval"
   ],
   "note": "every sequence of insertions of non empty intervals, infinite bounds included"
  },
  {
   "property": "C100",
   "status": "partial",
   "theorems": [
    "C100_waypoints",
    "C100_certified",
    "C100_same_partial",
    "C100_defined",
    "C100_singular_refuted",
    "C100_interpolated_refuted",
    "C100_terminates_refuted",
    "C100_refinement_ends_partial"
   ],
   "note": "Paths which are not interpolated. Refuted: a path with a singular end is given back with success without being projected; an interpolated path makes the projector write past the end of its list. Refuted: between two components of the constraint the call never returns and the list of points grows; one refinement ends when interpolation is along a shortest path."
  },
  {
   "property": "C101",
   "status": "proved",
   "theorems": [
    "C101_accepts",
    "C101_rejects",
    "C101_report",
    "C101_first"
   ],
   "note": "All trees of validations; the order of the pairs is arbitrary."
  },
  {
   "property": "C102",
   "status": "partial",
   "theorems": [
    "C102_shape",
    "C102_eval",
    "C102_retimed",
    "C102_ends",
    "C102_constrained_refuted"
   ],
   "note": "Refuted: a copy with constraints cannot be evaluated. Derivatives are not implemented by the class."
  },
  {
   "property": "C103",
   "status": "partial",
   "theorems": [
    "C103_backtrack",
    "C103_create",
    "C103_other_report",
    "C103_update",
    "C103_zero",
    "C103_obstacle_partial",
    "C103_bodies_partial",
    "C103_obstacle_refuted"
   ],
   "note": "The derivative is proved against an obstacle when the contact has the same coordinates in the frame of the joint and in the world, and, with the opposite sign, between bodies of the same orientation. Refuted in general against an obstacle."
  },
  {
   "property": "C104",
   "status": "partial",
   "theorems": [
    "C104_roundtrip",
    "C104_refuses",
    "C104_time_parameterized",
    "C104_interpolated_refuted"
   ],
   "note": "All trees of paths of the six registered classes. Refuted for the other classes: interpolated paths, which path projectors make, cannot be saved. Serialization of constraint sets is not modelled."
  },
  {
   "property": "C105",
   "status": "partial",
   "theorems": [
    "C105_copy",
    "C105_saves",
    "C105_refuses",
    "C105_connected",
    "C105_component_order_refuted"
   ],
   "note": "All pointer graphs. Refuted: the order in which the components are listed is not kept. boost is modelled by its pointer tracking."
  },
  {
   "property": "C106",
   "status": "partial",
   "theorems": [
    "C106_find",
    "C106_find_none",
    "C106_load",
    "C106_initialize",
    "C106_load_searches_refuted",
    "C106_twice_refuted"
   ],
   "note": "Refuted: loadPlugin does not look for the library, and initializes a new plugin at each call."
  },
  {
   "property": "C107",
   "status": "proved",
   "theorems": [
    "C107_pairs",
    "C107_results",
    "C107_complete",
    "C107_add"
   ],
   "note": "All sequences of calls."
  },
  {
   "property": "C108",
   "status": "partial",
   "theorems": [
    "C108_grid",
    "C108_time_laws",
    "C108_speed",
    "C108_acceleration",
    "C108_speed_continuous",
    "C108_geometry_partial",
    "C108_short",
    "C108_failure",
    "C108_shifted_range_refuted",
    "C108_velocity_bound_refuted",
    "C108_no_samples_refuted",
    "C108_retimed_refuted",
    "C108_solver_choice_refuted"
   ],
   "note": "Geometry is kept by sub-paths whose parameter range starts at 0, and refuted for the others. Refuted: bound of the velocity, number of samples that is not positive, paths with time laws, documented solver. The solver of the toppra library is a parameter; exact reals."
  },
  {
   "property": "C109",
   "status": "partial",
   "theorems": [
    "C109_start",
    "C109_search",
    "C109_unmodified_partial",
    "C109_unmodified_refuted"
   ],
   "note": "The roadmap is unmodified when it holds the initial and goal configurations and the distance separates configurations; refuted otherwise. Steering from a configuration to itself is supposed to succeed; goal configurations target; no interruption."
  },
  {
   "property": "C11",
   "status": "proved",
   "theorems": [
    "C11_dichotomy_covers"
   ],
   "note": "any validators whose certified interval contains the tested parameter; the valid part may be reduced to a rejected first configuration"
  },
  {
   "property": "C110",
   "status": "partial",
   "theorems": [
    "C110_optimal_partial",
    "C110_infeasible_partial",
    "C110_dependent_partial",
    "C110_defined_partial",
    "C110_active_partial",
    "C110_ends_partial",
    "C110_solve_partial",
    "C110_over_constrained",
    "C110_equality_ignored_refuted",
    "C110_infeasible_cost_refuted",
    "C110_loops_refuted",
    "C110_restore_refuted",
    "C110_redundant_refuted",
    "C110_feasible_unbounded_refuted"
   ],
   "note": "Termination, the meaning of the answers and the absence of out of bounds accesses are proved in exact arithmetic with the machine epsilon equal to 0, given the Cholesky factor of the cost. With a positive epsilon they are refuted: an equality constraint ignored, a program with solutions reported to have none, a run which never answers, an access at a negative index. A finite cost is returned for infeasible equality constraints, and a point out of the inequality constraints for redundant ones."
  },
  {
   "property": "C111",
   "status": "partial",
   "theorems": [
    "C111_sampled",
    "C111_sampled_constrained",
    "C111_sampled_defined",
    "C111_sampled_close",
    "C111_sampled_point",
    "C111_steer",
    "C111_sampled_timed_refuted"
   ],
   "note": "Proved, also under constraints when the path has no time parameterization. With both, the samples are not kept: the constraints of the sampled path are set at the time instead of the parameter."
  },
  {
   "property": "C112",
   "status": "partial",
   "theorems": [
    "C112_one_report_partial",
    "C112_equation",
    "C112_reports_partial",
    "C112_stale_row_refuted"
   ],
   "note": "Proved of one report (the validation stops at the first collision), with what the equation says of the configuration in collision, and of any number of reports unless the last one is abandoned. Refuted in that case: the equations given to the solver keep the abandoned one and are dependent (by C110 the bundled solver may then ignore the bounds)."
  },
  {
   "property": "C113",
   "status": "proved",
   "theorems": [
    "C113_made",
    "C113_unconstrained",
    "C113_kept"
   ],
   "note": "The steering method is the straight one; the right hand side at a parameter does not depend on that of a former parameter (hypothesis absorbing, as in C95)."
  },
  {
   "property": "C12",
   "status": "proved",
   "theorems": [
    "C12_progressive_covers"
   ],
   "note": "no gap is left at all: the next tested parameter is the end of the certified interval"
  },
  {
   "property": "C13",
   "status": "proved",
   "theorems": [
    "C13_dichotomy_terminates",
    "C13_progressive_terminates",
    "C13_pairs_terminate"
   ],
   "note": "1 + floor(length/delta) checks (dichotomy), 2 + floor(length/delta) (progressive)"
  },
  {
   "property": "C14",
   "status": "partial",
   "theorems": [
    "C14_dichotomy_no_collision",
    "C14_progressive_no_collision",
    "C14_progressive_tolerance_partial",
    "C14_end_in_collision_refuted",
    "C14_refined_tolerance_refuted"
   ],
   "note": "exact when the tolerance is 0 (refinement and caching included); with a tolerance, 2*tolerance on straight paths; the bound by the tolerance is false (collision at the path end undetected), and no bound holds with refined intervals"
  },
  {
   "property": "C15",
   "status": "proved",
   "theorems": [
    "C15_accepts_iff",
    "C15_resolution",
    "C15_rejects",
    "C15_terminates",
    "C15_zero_step_refuted"
   ],
   "note": "Step sizes > 0; C15_zero_step_refuted records that a zero step, accepted by the constructor, never terminates."
  },
  {
   "property": "C16",
   "status": "partial",
   "theorems": [
    "C16_accepts_iff",
    "C16_accepts_config",
    "C16_valid_part_partial",
    "C16_reverse_refuted",
    "C16_end_refuted",
    "C16_null_report_refuted"
   ],
   "note": "Conjunction proved in both directions. The valid part is proved good for every member in forward direction when members do not reject the very end; refuted in reverse, when the end is rejected, and when the caller passes a null report."
  },
  {
   "property": "C17",
   "status": "proved",
   "theorems": [
    "C17_conjunction",
    "C17_joint_bounds"
   ],
   "note": "Conjunction, first failing member, joint bounds including the extra configuration space."
  },
  {
   "property": "C18",
   "status": "proved",
   "theorems": [
    "C18_plays_in_order",
    "C18_constrained_vector",
    "C18_rank_in_range",
    "C18_ends"
   ],
   "note": "Any list of sub-paths of any kind and nesting, with or without constraints on the vector."
  },
  {
   "property": "C19",
   "status": "partial",
   "theorems": [
    "C19_concatenate",
    "C19_concatenate_constrained",
    "C19_flatten",
    "C19_flatten_refuted",
    "C19_concatenate_refuted",
    "C19_both_constrained_throws"
   ],
   "note": "Exact for vectors without constraints, any nesting depth, and for concatenation under constraints that do not depend on the parameter. Refuted for parameter dependent constraints; exception when both a vector and a sub-path are constrained."
  },
  {
   "property": "C20",
   "status": "partial",
   "theorems": [
    "C20_extract_partial",
    "C20_extract_total_partial",
    "C20_interp_total_partial",
    "C20_generic_time_partial",
    "C20_interp_end_refuted",
    "C20_vector_end_refuted",
    "C20_straight_time_refuted",
    "C20_vector_constraints_refuted"
   ],
   "note": "Every path without time law, vectors nested at any depth. Generic paths also with a time law. Refuted: cut at the last waypoint of an interpolated path (undefined behaviour, also through a vector), time law of straight paths lost, constraints of a vector dropped."
  },
  {
   "property": "C21",
   "status": "partial",
   "theorems": [
    "C21_reverse_partial",
    "C21_twice_partial",
    "C21_extract_back_partial",
    "C21_generic_offset_refuted",
    "C21_generic_part_refuted",
    "C21_interp_offset_refuted",
    "C21_time_refuted"
   ],
   "note": "Reversal total and exact, twice = identity, for paths without time law and constraints where generic and interpolated paths start at 0 and vectors are continuous. Refuted for ranges that do not start at 0 and for time parameterized paths."
  },
  {
   "property": "C22",
   "status": "partial",
   "theorems": [
    "C22_velocity_bound_partial",
    "C22_velocity_bound_without_interpolated",
    "C22_derivative_within_bound",
    "C22_interpolated_derivative_partial",
    "C22_interpolated_inside_segment_refuted",
    "C22_derivative_at_upper_bound_refuted"
   ],
   "note": "Straight paths, extracted and reversed paths, continuous vectors at any nesting and monotone time laws: exact for every interval, against both the trajectory and derivative(). Interpolated paths: when the lower bound is a waypoint; refuted otherwise (the bound is 0 between two waypoints). Splines: see C64."
  },
  {
   "property": "C23",
   "status": "proved",
   "theorems": [
    "C23_waypoints",
    "C23_create_total"
   ],
   "note": "Any insertion order, repeated parameters included (the first one is kept)."
  },
  {
   "property": "C24",
   "status": "proved",
   "theorems": [
    "C24_straight",
    "C24_constant_speed",
    "C24_extract"
   ],
   "note": "Any configuration space whose interpolation has constant speed."
  },
  {
   "property": "C25",
   "status": "partial",
   "theorems": [
    "C25_ending",
    "C25_max_iterations",
    "C25_time_out",
    "C25_no_endless_run_partial",
    "C25_nan_refuted"
   ],
   "note": "Every step behaviour, clock and interruption schedule. Endless runs are excluded for every sequence of setter calls without a time out that is not a number; refuted for such a time out."
  },
  {
   "property": "C26",
   "status": "partial",
   "theorems": [
    "C26_diffusing",
    "C26_visibility",
    "C26_kprm",
    "C26_star_partial",
    "C26_birrt_partial",
    "C26_solution",
    "C26_birrt_refuted",
    "C26_birrt_null_refuted"
   ],
   "note": "RRT, visibility PRM, kPRM* and connection of initial and goal nodes: full executions from any sound roadmap. Bidirectional RRT: when the projection of a sample does not depend on the tree, up to paths with an empty valid part; refuted in both other cases. Bidirectional RRT*: from an empty roadmap, without sampling along the best path."
  },
  {
   "property": "C27",
   "status": "partial",
   "theorems": [
    "C27_step_outcome",
    "C27_bounded_partial",
    "C27_phases",
    "C27_linked",
    "C27_ends_connected",
    "C27_single_node_refuted",
    "C27_bounded_refuted"
   ],
   "note": "Every sampling, steering, projection and validation outcome, from any sound roadmap. The number of steps is bounded up to the samples that hit an existing node; refuted for these, and for one configured node (undefined behaviour)."
  },
  {
   "property": "C28",
   "status": "partial",
   "theorems": [
    "C28_parent_map",
    "C28_parent_map_ends",
    "C28_cost",
    "C28_extend",
    "C28_improve",
    "C28_step",
    "C28_solve_partial",
    "C28_after_joining",
    "C28_sample_refuted",
    "C28_precomputed_refuted"
   ],
   "note": "Every sample, steering, projection and validation outcome. Whole executions are covered from an empty roadmap until the trees meet, and for ever after the parent maps have been recomputed; refuted (undefined behaviour) when the planner samples along the best path in between, and for roadmaps that are not empty at the start."
  },
  {
   "property": "C29",
   "status": "partial",
   "theorems": [
    "C29_shortens",
    "C29_safe",
    "C29_terminates_partial",
    "C29_interrupted",
    "C29_nothing_valid",
    "C29_straight",
    "C29_straight_terminates",
    "C29_zero_loops_refuted"
   ],
   "note": "Every draw, steering, projection, validation outcome and interruption moment. Termination without any interruption is proved when the ends of the path differ (explicit bound). Refuted when NumberOfLoops is 0: an exception instead of the input."
  },
  {
   "property": "C30",
   "status": "partial",
   "theorems": [
    "C30_sound",
    "C30_shortens_partial",
    "C30_optimal",
    "C30_closed",
    "C30_longer_refuted",
    "C30_pseudo_distance_refuted"
   ],
   "note": "Every steering, projection and validation outcome, every input. Not longer (and shortest, when the corners are distinct) if no path is shorter than the distance between its ends; refuted otherwise (durations), and for distances that do not separate configurations (exception)."
  },
  {
   "property": "C31",
   "status": "partial",
   "theorems": [
    "C31_sound_partial",
    "C31_shorter_partial",
    "C31_random_idle",
    "C31_lengthens_refuted",
    "C31_failed_evaluation_refuted",
    "C31_uninitialized_refuted",
    "C31_null_constraints_refuted"
   ],
   "note": "Same ends, input or accepted result, termination: any oracles, when evaluations succeed. Not longer: proved on the reals for unconstrained straight paths with the weighted Euclidean distance, unit speed from time 0, any joints, any validation; refuted for a first sub-path starting at another time, and when an evaluation fails. The random part never improves anything (inverted test)."
  },
  {
   "property": "C32",
   "status": "proved",
   "theorems": [
    "C32_lookup",
    "C32_lookup_defined",
    "C32_listing"
   ],
   "note": "Every history of add, erase and clear, any totally ordered keys."
  },
  {
   "property": "C33",
   "status": "partial",
   "theorems": [
    "C33_set",
    "C33_get",
    "C33_type_partial",
    "C33_accessors",
    "C33_type_refuted"
   ],
   "note": "Every history. The type of what getParameter returns is the declared one as long as a name is not declared again with another type; refuted otherwise."
  },
  {
   "property": "C34",
   "status": "proved",
   "theorems": [
    "C34_matrix_exact",
    "C34_incremental",
    "C34_order_independent",
    "C34_wrong_size_throws"
   ],
   "note": "Any number of joints, any list of constraints and any sequence of constraint sets."
  },
  {
   "property": "C35",
   "status": "partial",
   "theorems": [
    "C35_histories_follow_the_ledger",
    "C35_no_pair_lost",
    "C35_filter_exact",
    "C35_margins_everywhere",
    "C35_remove_partial",
    "C35_remove_after_filter_refuted",
    "C35_remove_throw_changes_state_refuted",
    "C35_margin_between_bodies_refuted"
   ],
   "note": "Every history. Refuted: removal of an obstacle whose pairs were filtered, the state after the exception of a removal, margins between two bodies with several pairs."
  },
  {
   "property": "C36",
   "status": "partial",
   "theorems": [
    "C36_history",
    "C36_single_projector",
    "C36_satisfied",
    "C36_apply",
    "C36_apply_then_satisfied",
    "C36_add_set_without_projector_refuted",
    "C36_throw_leaves_set_unchanged_refuted"
   ],
   "note": "Every history, nested sets included. Refuted only for additions of whole sets: a set without projector installs its trivial projector; a refused set leaves its first constraints behind."
  },
  {
   "property": "C37",
   "status": "partial",
   "theorems": [
    "C37_chain",
    "C37_defined",
    "C37_terminates_partial",
    "C37_null_constraints_refuted",
    "C37_diverges_refuted",
    "C37_nothing_returned_refuted"
   ],
   "note": "Chain, junctions and lengths: every steering method, constraint and path. Termination only when each split shortens by a fixed amount; refuted in general (the solver may send the middle to a far solution). On early failure nothing is written; null constraints are dereferenced."
  },
  {
   "property": "C38",
   "status": "partial",
   "theorems": [
    "C38_waypoints",
    "C38_terminates",
    "C38_step_ignored_refuted"
   ],
   "note": "Every constraint, distance and steering method whose length is the distance. The spacing by the step holds without bound on the Hessian; with one, the step is ignored (refuted)."
  },
  {
   "property": "C39",
   "status": "partial",
   "theorems": [
    "C39_concatenation",
    "C39_contiguous",
    "C39_stale_part",
    "C39_duplicate_refuted",
    "C39_duplicate_progressive_refuted"
   ],
   "note": "Concatenation and contiguity for every single path projector that always writes a result, nested vectors included; refuted for the dichotomy and progressive projectors, which write nothing on some failures: the previous part is appended twice."
  },
  {
   "property": "C40",
   "status": "proved",
   "theorems": [
    "C40_time_laws_respect_bounds",
    "C40_always_succeeds",
    "C40_extra_degrees_of_freedom_refuted"
   ],
   "note": "Every order, limit (finite or infinite), safety factor and input; exact arithmetic, derivatives in the sense of real analysis, joint velocities included. The refuted theorem concerns a precondition: with extra degrees of freedom vectors of different sizes are combined."
  },
  {
   "property": "C41",
   "status": "proved",
   "theorems": [
    "C41_value_is_the_piece_of_its_interval",
    "C41_derivative_is_the_derivative_of_the_piece",
    "C41_outside_throws",
    "C41_pieces_cover_the_range"
   ],
   "note": "Any number of increasing breakpoints, bisection of std::lower_bound included; derivatives for at most 10 coefficients (the documented limit)."
  },
  {
   "property": "C42",
   "status": "partial",
   "theorems": [
    "C42_basis",
    "C42_curve",
    "C42_path_derivatives",
    "C42_energy_partial",
    "C42_energy_order_0",
    "C42_energy_above_degree",
    "C42_energy_refuted"
   ],
   "note": "Every degree. The energy returned must be multiplied by n!/(n-k)! (exact for k = 0 and for the degree 1); refuted for the degree 3 and k = 1. Vector spaces."
  },
  {
   "property": "C43",
   "status": "partial",
   "theorems": [
    "C43_extract_keeps_motion",
    "C43_path_is_a_motion",
    "C43_oriented_extract_partial",
    "C43_rest_at_end_refuted",
    "C43_oriented_empty_refuted"
   ],
   "note": "Every well formed path (non-negative phases that fill the duration and lead to the end state) and sub-interval; position and velocity are those of the original path and the coded velocity is the derivative of the coded position. Refuted for paths that end at rest before their last instant (vertical axis not synchronised), and for empty sub-intervals of oriented paths (null path)."
  },
  {
   "property": "C44",
   "status": "proved",
   "theorems": [
    "C44_smallest_feasible_duration"
   ],
   "note": "Every list of intervals, bounds possibly infinite or NaN, and every Tmax that is not NaN; explicit bound on the number of iterations."
  },
  {
   "property": "C45",
   "status": "partial",
   "theorems": [
    "C45_distance_is_a_pseudometric",
    "C45_distance_is_a_metric",
    "C45_set_weights",
    "C45_set_weight_partial",
    "C45_computed_weights_partial",
    "C45_negative_rank_refuted",
    "C45_short_weights_refuted",
    "C45_computed_weights_refuted"
   ],
   "note": "Metric for any joint spaces with their own metric and any finite non zero weights. Refuted: negative ranks and short weight vectors are not rejected; the weights computed from the robot are infinite (and distances NaN) when the first joint has length 0."
  },
  {
   "property": "C46",
   "status": "partial",
   "theorems": [
    "C46_remove_object",
    "C46_remove_partial",
    "C46_remove_last_refuted",
    "C46_remove_skips_refuted",
    "C46_filter_partial",
    "C46_filter_forever_refuted",
    "C46_margins",
    "C46_margin_between_partial",
    "C46_margin_silent_refuted",
    "C46_initialize"
   ],
   "note": "Exact effect of each edit proved where the iteration is sound. Refuted: removal emptying the last validator is undefined, removal skips the validator after an erased one, filtering does not terminate with validators of another kind, setSecurityMarginBetweenBodies never reports a missing pair."
  },
  {
   "property": "C47",
   "status": "partial",
   "theorems": [
    "C47_forward",
    "C47_reverse_refuted",
    "C47_parameter_refuted"
   ],
   "note": "Forward direction proved for nested vectors of any size. Refuted in reverse (out of range access for every vector) and for the reported parameter when a sub-path range does not start at 0."
  },
  {
   "property": "C48",
   "status": "proved",
   "theorems": [
    "C48_check"
   ],
   "note": "Every problem content, validations and constraints as arbitrary predicates."
  },
  {
   "property": "C49",
   "status": "partial",
   "theorems": [
    "C49_goal_list",
    "C49_goal_reached_partial",
    "C49_goal_reached_complete",
    "C49_goal_path",
    "C49_task_reached_partial",
    "C49_task_path_partial",
    "C49_task_reached_refuted",
    "C49_task_path_refuted"
   ],
   "note": "GoalConfigurations: exact on roadmaps without one-way insertion of a new node, never misses a reachable goal otherwise; solution paths exact for every roadmap. TaskTarget: exact on roadmaps without duplicate configurations. Refuted: task nodes reached along one-way edges are missed, duplicate configurations leave a temporary goal behind."
  },
  {
   "property": "C50",
   "status": "partial",
   "theorems": [
    "C50_sequence",
    "C50_total",
    "C50_obstacle_bound_partial",
    "C50_ancestor_forward_partial",
    "C50_ancestor_refuted",
    "C50_branches_refuted"
   ],
   "note": "Sequence of joints proved correct for every tree; bound proved for bodies against obstacles. Refuted for pairs of robot bodies: the reverse sum starts from the radius of the wrong body, and descending joints omit the distance to their parent."
  },
  {
   "property": "C51",
   "status": "partial",
   "theorems": [
    "C51_validate_exact",
    "C51_all_contacts_refuted"
   ],
   "note": "Verdict and report for every history. Refuted: the exhaustive report leaves out parameterized pairs when an active pair collides."
  },
  {
   "property": "C52",
   "status": "partial",
   "theorems": [
    "C52_copy_partial",
    "C52_copy_refuted"
   ],
   "note": "Members which are copied are proved equal and the other problems unchanged. Refuted: goals, constraints, steering method and path validation are not copied, configuration validations are shared."
  },
  {
   "property": "C53",
   "status": "partial",
   "theorems": [
    "C53_add",
    "C53_set",
    "C53_in_step_partial",
    "C53_in_step_refuted"
   ],
   "note": "addObstacle and collisionObstacles(list) give every obstacle to every validation. Refuted: replaced path validations, configuration validations added later, replaced obstacles."
  },
  {
   "property": "C54",
   "status": "proved",
   "theorems": [
    "C54_value_semantics",
    "C54_no_leak"
   ],
   "note": "Every sequence respecting C++ lifetimes, self assignment included."
  },
  {
   "property": "C55",
   "status": "partial",
   "theorems": [
    "C55_registry_partial",
    "C55_all_checked",
    "C55_exact_partial",
    "C55_flags_refuted",
    "C55_robot_refuted",
    "C55_throw_refuted"
   ],
   "note": "Robot set once: names exact for every history, every collision obstacle known by every validation; nothing else known if no obstacle is for distances only. Refuted: obstacles for distances only are tested for collision, setting a second robot, adding an obstacle without a robot."
  },
  {
   "property": "C56",
   "status": "proved",
   "theorems": [
    "C56_steering_constraints"
   ],
   "note": "Every history."
  },
  {
   "property": "C57",
   "status": "partial",
   "theorems": [
    "C57_diffusing_partial",
    "C57_kprm",
    "C57_star_partial",
    "C57_birrt_visibility_refuted"
   ],
   "note": "Proved of RRT and kPRM*, and of bidirectional RRT* from an empty roadmap without sampling along the best path. Refuted for bidirectional RRT and visibility PRM, which never call the projector in their steps."
  },
  {
   "property": "C58",
   "status": "partial",
   "theorems": [
    "C58_velocity_bound_partial",
    "C58_velocity_bound_refuted",
    "C58_fifth_order_has_no_bound"
   ],
   "note": "Proved for laws of degree at most 2, and degree 3 when the vertex of the derivative is outside of the interval. Refuted for the third order law of SimpleTimeParameterization; the fifth order law has no bound (exception)."
  },
  {
   "property": "C59",
   "status": "partial",
   "theorems": [
    "C59_joint_acceleration_partial",
    "C59_joint_acceleration_refuted"
   ],
   "note": "The bound applies to the path parameter: for coordinates affine in the parameter the acceleration is at most slope * maxAcceleration, which may exceed maxAcceleration (witness)."
  },
  {
   "property": "C60",
   "status": "proved",
   "theorems": [
    "C60_minimal_duration"
   ],
   "note": "Every pair of states within the velocity limit that differ by at least the threshold of the code; exact arithmetic; motions in the sense of real analysis (differentiable position, Lipschitz velocity)."
  },
  {
   "property": "C61",
   "status": "partial",
   "theorems": [
    "C61_fixed_duration_partial",
    "C61_constant_velocity_refuted",
    "C61_return_refuted",
    "C61_vertical_refuted"
   ],
   "note": "Proved out of the degenerate cases (stated in `good`); refuted at constant velocity below the limit, when the axis comes back to the same state with a velocity, and for the vertical axis when it is not synchronised and has an initial velocity."
  },
  {
   "property": "C62",
   "status": "partial",
   "theorems": [
    "C62_steering_partial"
   ],
   "note": "Any number of axes; the duration is the least common one always, the path is a motion out of the degenerate cases refuted by the C61 theorems."
  },
  {
   "property": "C63",
   "status": "partial",
   "theorems": [
    "C63_distance_partial",
    "C63_lower_bound_partial",
    "C63_triangle_partial",
    "C63_not_symmetric",
    "C63_backwards_refuted"
   ],
   "note": "Out of one degenerate case (both velocities negative, displacement exactly the one of the change of velocity), in which the distance is refuted. The distance is not symmetric."
  },
  {
   "property": "C64",
   "status": "partial",
   "theorems": [
    "C64_max_velocity",
    "C64_velocity_bound_partial",
    "C64_velocity_bound_refuted"
   ],
   "note": "maxVelocity for every degree; velocityBound for the degrees 1 and 3; refuted for the degree 5."
  },
  {
   "property": "C65",
   "status": "partial",
   "theorems": [
    "C65_meets_constraints_partial",
    "C65_default_is_straight",
    "C65_zero_distance_refuted"
   ],
   "note": "Derivatives of consecutive orders, exact linear solver, vector spaces. Refuted when the distance between different configurations is null and no length is given."
  },
  {
   "property": "C66",
   "status": "partial",
   "theorems": [
    "C66_parameter_derivative_partial",
    "C66_zero_length_refuted",
    "C66_energy_gradient"
   ],
   "note": "Refuted for paths of length 0."
  },
  {
   "property": "C67",
   "status": "partial",
   "theorems": [
    "C67_solution_set",
    "C67_least_norm",
    "C67_feasibility_partial",
    "C67_reduction",
    "C67_full_rank_partial",
    "C67_concatenation",
    "C67_added_row",
    "C67_feasibility_refuted",
    "C67_rank_refuted",
    "C67_added_row_refuted",
    "C67_full_rank_refuted"
   ],
   "note": "Exact rank revealing QR and LU decompositions. Refuted: the check of feasibility is up to 1e-7, decompose does not set the rank without rows, added rows have no right hand side, full rank means nothing with more rows than columns."
  },
  {
   "property": "C68",
   "status": "partial",
   "theorems": [
    "C68_reduced_cost_partial",
    "C68_minimum_partial",
    "C68_solve",
    "C68_linear_term_refuted",
    "C68_over_constrained_refuted",
    "C68_unsolved_refuted"
   ],
   "note": "Exact decompositions, symmetric positive semi-definite cost; the quadratic solver with inequalities is an oracle. Refuted: the linear term is ignored while the flag bIsZero is set, redundant equality constraints are refused, and xStar is not set when the solver fails."
  },
  {
   "property": "C69",
   "status": "partial",
   "theorems": [
    "C69_constraint",
    "C69_rows",
    "C69_input_partial",
    "C69_input_refuted",
    "C69_update_parameters_refuted"
   ],
   "note": "Vector spaces. The input satisfies the constraint if its splines are at rest at both ends (as those built from straight paths); refuted otherwise. updateParameters skips the two first splines."
  },
  {
   "property": "C70",
   "status": "partial",
   "theorems": [
    "C70_constraint",
    "C70_curve",
    "C70_validate_partial",
    "C70_one_sided_refuted"
   ],
   "note": "Vector spaces. validateBounds is refuted when a coordinate has one bound only."
  },
  {
   "property": "C71",
   "status": "partial",
   "theorems": [
    "C71_cost",
    "C71_energy",
    "C71_expansion",
    "C71_interpolation",
    "C71_weights_partial",
    "C71_weights_refuted",
    "C71_order_partial",
    "C71_order_refuted"
   ],
   "note": "The energies are divided by n!/(n-k)! (see C42). Refuted: infinite weights when no spline moves; an order of derivation above the degree is accepted and gives a null cost."
  },
  {
   "property": "C72",
   "status": "partial",
   "theorems": [
    "C72_safe_partial",
    "C72_optimum_refuted"
   ],
   "note": "Validation, solvers and monitor are arbitrary. With ReturnOptimum the result is not validated (refuted)."
  },
  {
   "property": "C73",
   "status": "proved",
   "theorems": [
    "C73_kept",
    "C73_bounds",
    "C73_cost",
    "C73_optimum",
    "C73_bundled_optimum"
   ],
   "note": "Vector spaces, exact reals; the QR decomposition is exact and, for the bounds and the cost, the quadratic solver returns a minimum (proved of the bundled solver in exact arithmetic for ReturnOptimum) and AlphaInit is in [0, 1]."
  },
  {
   "property": "C74",
   "status": "partial",
   "theorems": [
    "C74_interrupted",
    "C74_terminates_partial",
    "C74_null_cost",
    "C74_null_cost_refuted",
    "C74_alpha_one_refuted"
   ],
   "note": "Bound on the iterations when the least cost is positive and 0 < AlphaInit < 1; never ends when the least cost is null, nor with AlphaInit = 1 and an optimum in collision."
  },
  {
   "property": "C75",
   "status": "partial",
   "theorems": [
    "C75_linearize_partial",
    "C75_equation_partial",
    "C75_linearize_out",
    "C75_linearize_refuted"
   ],
   "note": "Holds (with what each row says of the path) when the i-th function is that of the i-th spline; refuted otherwise."
  },
  {
   "property": "C76",
   "status": "partial",
   "theorems": [
    "C76_motion",
    "C76_built",
    "C76_zero",
    "C76_wheel",
    "C76_wheel_defined",
    "C76_start_refuted"
   ],
   "note": "Exact reals. At the start the wheel joints jump to their steering angle, so that the path does not start at its initial configuration (refuted)."
  },
  {
   "property": "C77",
   "status": "partial",
   "theorems": [
    "C77_velocity",
    "C77_derivatives_partial",
    "C77_opposite",
    "C77_order2_refuted",
    "C77_order4_refuted",
    "C77_zero_refuted",
    "C77_order0"
   ],
   "note": "Order 1 proved. Orders 2, 6, 10... of forward paths and 4, 8, 12... of backward paths have the wrong sign (refuted, exact characterisation); division by zero on paths of length 0."
  },
  {
   "property": "C78",
   "status": "partial",
   "theorems": [
    "C78_bound_partial",
    "C78_straight",
    "C78_refuted",
    "C78_negative_refuted"
   ],
   "note": "The norm of the planar velocity, the rotation and the joints are bounded; the components are bounded on straight segments only (refuted elsewhere), and the bound may be negative."
  },
  {
   "property": "C79",
   "status": "proved",
   "theorems": [
    "C79_extract",
    "C79_reverse"
   ],
   "note": "For all paths built by create, extract and reverse."
  },
  {
   "property": "C80",
   "status": "partial",
   "theorems": [
    "C80_reaches",
    "C80_other_joints",
    "C80_never_throws",
    "C80_same_place_refuted"
   ],
   "note": "Exact reals; the wheels must have a steering angle for the three curvatures. When the two configurations have the same position and heading the lengths are 0 / 0 (refuted)."
  },
  {
   "property": "C81",
   "status": "partial",
   "theorems": [
    "C81_length",
    "C81_shortest_partial",
    "C81_attained"
   ],
   "note": "Least among all the paths of the six words, the middle arc of RLR and LRL being at least half a turn; missing: the theorem of Dubins that other paths are not shorter."
  },
  {
   "property": "C82",
   "status": "partial",
   "theorems": [
    "C82_reaches",
    "C82_exact",
    "C82_other_joints",
    "C82_near_refuted"
   ],
   "note": "Exact reals; the goal is reached up to the segments shorter than 2^-26 rho that are not kept (explicit bound), exactly when none is dropped. A goal within 1e-4 (radius and angle) of the start is not reached (refuted)."
  },
  {
   "property": "C83",
   "status": "partial",
   "theorems": [
    "C83_distance",
    "C83_shortest_partial",
    "C83_separated_refuted",
    "C83_shortest_refuted"
   ],
   "note": "Distance against the path returned proved for every input. Shortest among all the words of Reeds and Shepp (three, four and five arcs and segments, both directions) when the turning radius is 1; missing: paths along no such word. Refuted for other radii (10 ahead with radius 2: 4 pi + 2) and for separation (distance 0 between close configurations)."
  },
  {
   "property": "C84",
   "status": "partial",
   "theorems": [
    "C84_law",
    "C84_distance_partial",
    "C84_plateau_refuted",
    "C84_target_refuted"
   ],
   "note": "Exact reals. Smoothness, velocity and acceleration limits, initial velocity proved for every input; distance exact when the maximal velocity is not kept. Refuted: with a phase at constant velocity the law goes (M^2 - w^2)/D too far (sign error); a segment too short to reach the final velocity ends slower."
  },
  {
   "property": "C85",
   "status": "partial",
   "theorems": [
    "C85_bound_partial",
    "C85_bound_refuted",
    "C85_path_refuted"
   ],
   "note": "Proved on intervals where the robot does not both accelerate and brake. Refuted: only the ends of the interval are looked at, so the bound is 0 over a whole motion from rest to rest, for the law and for the path."
  },
  {
   "property": "C86",
   "status": "partial",
   "theorems": [
    "C86_retimed",
    "C86_starts",
    "C86_ends_partial",
    "C86_crossings",
    "C86_cusp_refuted",
    "C86_crossing_refuted",
    "C86_end_refuted"
   ],
   "note": "Exact reals, paths without prior time law. Same geometry, limits, initial rest and crossing velocity proved for every path; final rest when the last segment is longer than 2^-26. Refuted: restart at the crossing velocity after a stop; velocity jump where the previous law is too long; no stop at the end when the last segment is dropped."
  },
  {
   "property": "C87",
   "status": "partial",
   "theorems": [
    "C87_reaches",
    "C87_other_joints",
    "C87_length",
    "C87_shortest_partial",
    "C87_same_place_refuted"
   ],
   "note": "Exact reals, constraints not modelled. The shortest among the six words where the middle arc of CCC words is at least half a turn (as for C81). Refuted: undefined behaviour when both poses coincide."
  },
  {
   "property": "C88",
   "status": "partial",
   "theorems": [
    "C88_projects",
    "C88_error",
    "C88_smooth",
    "C88_fails",
    "C88_terminates",
    "C88_succeeds",
    "C88_beta",
    "C88_beta_refuted",
    "C88_start_refuted",
    "C88_end_refuted"
   ],
   "note": "Vector space configurations over exact reals, constraints abstract. Refuted: beta = 1 is accepted and the recursion may never end; an initial configuration that does not satisfy the constraints gives a null path that is dereferenced; when the end does not satisfy them nothing is written in the result."
  },
  {
   "property": "C89",
   "status": "partial",
   "theorems": [
    "C89_other_joints",
    "C89_orders",
    "C89_constant_partial",
    "C89_bound_refuted",
    "C89_derivative_refuted"
   ],
   "note": "Holds for the interpolated joints and for translations at constant velocity. Refuted: KinodynamicPath inherits both methods from StraightPath, so that any translation whose velocity varies exceeds the bound and the derivative at a start at rest is the mean velocity."
  },
  {
   "property": "C90",
   "status": "partial",
   "theorems": [
    "C90_faces",
    "C90_upright_partial",
    "C90_still",
    "C90_ends",
    "C90_extract",
    "C90_continuous_refuted",
    "C90_setter_refuted"
   ],
   "note": "Exact reals; the singular value decomposition used when the velocity is opposite to the forward axis and the interpolation of quaternions are arguments (the former with its specification). Within 3e-6 of the opposite direction the forward axis is only close to the direction; upright is shown outside this cone only. Refuted: the orientation jumps where the robot starts or stops; changing ignoreZValue leaves the ends stale."
  },
  {
   "property": "C91",
   "status": "partial",
   "theorems": [
    "C91_uniform",
    "C91_uniform_throws",
    "C91_uniform_reaches",
    "C91_uniform_zero",
    "C91_uniform_zero_refuted",
    "C91_uniform_nan_refuted",
    "C91_seedable",
    "C91_seedable_state",
    "C91_seedable_extra_refuted",
    "C91_gaussian",
    "C91_gaussian_center",
    "C91_gaussian_default_refuted",
    "C91_gaussian_velocity_refuted",
    "C91_deviation_partial",
    "C91_deviation_refuted",
    "C91_sigma",
    "C91_sigma_extra_refuted"
   ],
   "note": "The random draws and pinocchio (randomConfiguration, integrate, saturate) are arguments; exact reals with infinities. Refuted: see DESIGN.md section 4 (Gaussian with the default empty center is undefined, standard deviations of extra variables are not initialised, standard deviation in the plane is not the documented one, sampleExtraDOF is ignored by the seedable shooter, zero may be out of bounds, two equal infinities give NaN)."
  },
  {
   "property": "C92",
   "status": "partial",
   "theorems": [
    "C92_wheels",
    "C92_names",
    "C92_create",
    "C92_radius",
    "C92_radius_refuted",
    "C92_copy_partial",
    "C92_copy_refuted"
   ],
   "note": "Wheels and radius of methods created from a problem: every input. Refuted: the constructor with arguments accepts any radius; a copy of a steering method loses its wheels (path projectors steer with a copy)."
  },
  {
   "property": "C93",
   "status": "partial",
   "theorems": [
    "C93_apply",
    "C93_apply_complete",
    "C93_statistics",
    "C93_optimize",
    "C93_optimize_iterations",
    "C93_optimize_refuted",
    "C93_optimize_returns_refuted",
    "C93_right_hand_side",
    "C93_right_hand_side_refuted",
    "C93_line_search",
    "C93_threshold"
   ],
   "note": "The hierarchical solver is an argument that answers SUCCESS only on solutions. Refuted: an exception of the solver leaves the temporary number of iterations; optimize returns true on a configuration that does not satisfy the constraints when none is optional; the right hand side of an unknown constraint is silently ignored."
  },
  {
   "property": "C94",
   "status": "proved",
   "theorems": [
    "C94_vector",
    "C94_compress_matrix",
    "C94_uncompress_matrix"
   ],
   "note": "Any disjoint segments within the size; exact."
  },
  {
   "property": "C95",
   "status": "partial",
   "theorems": [
    "C95_straight",
    "C95_ends",
    "C95_ends_refuted",
    "C95_independent",
    "C95_copy",
    "C95_shared_refuted"
   ],
   "note": "Every history in which nobody modifies the constraint set of a path. Refuted: when the end does not have the right hand side of the start the path does not reach the end it announces; a path copied with constraints shares them with the caller."
  },
  {
   "property": "C96",
   "status": "partial",
   "theorems": [
    "C96_exact",
    "C96_iterations",
    "C96_interruption",
    "C96_time",
    "C96_early_interruption_refuted",
    "C96_sequence",
    "C96_sequence_interruption_refuted",
    "C96_large_refuted",
    "C96_settings",
    "C96_results",
    "C96_steer",
    "C96_unmonitored"
   ],
   "note": "Every schedule. Refuted: an interruption before the execution is lost, so that interrupting a sequence stops the current optimizer only; a maximum above 2^63 allows no iteration. Only random-shortcut and spline-gradient-based are monitored."
  },
  {
   "property": "C97",
   "status": "partial",
   "theorems": [
    "C97_settings",
    "C97_refused",
    "C97_unknown",
    "C97_validations",
    "C97_distance_refuted",
    "C97_default_distance_refuted",
    "C97_reset_refuted",
    "C97_projector_refuted",
    "C97_time_out_refuted"
   ],
   "note": "Every sequence of calls, builders do not throw. Refuted: the distance type is never used; after a reset the problem steers with default methods until it is initialised; the path projector keeps the previous steering method; the time out does not reach the current planner."
  },
  {
   "property": "C98",
   "status": "partial",
   "theorems": [
    "C98_true",
    "C98_false",
    "C98_explained_partial",
    "C98_explained_refuted",
    "C98_null_refuted",
    "C98_edge",
    "C98_edge_refuted",
    "C98_steps",
    "C98_steps_refuted"
   ],
   "note": "Refuted: a failed projection is not explained, or undefined behaviour when it writes nothing; the path of an edge is not checked; with a task target step by step solving never sees the solution."
  },
  {
   "property": "C99",
   "status": "partial",
   "theorems": [
    "C99_waypoints",
    "C99_success_partial",
    "C99_failure",
    "C99_same",
    "C99_short",
    "C99_defined",
    "C99_single_refuted",
    "C99_gap_refuted",
    "C99_discontinuity_refuted",
    "C99_unconstrained",
    "C99_choice",
    "C99_terminates_refuted",
    "C99_refinement_ends_partial"
   ],
   "note": "Distances are proved when no discontinuity is detected, and for all the way-points but the last after a success. Refuted: the distance to the end is not checked; after a discontinuity a success may not reach the end; a path with one way-point crashes; with some solvers the call never returns, since each insertion of a point resets the count of iterations. One refinement ends when the middle of two configurations is at half their distance."
  }
 ]
}