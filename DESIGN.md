# Formal model of hpp-core: design

## 1. Method

Every modelled C++ function becomes a small total Gallina function, in
`rocq/theories/*Model.v`, with a comment citing the file and lines of `/repo`
it follows and every simplification made. What the theorems are stated with, when
it is not part of the API, is in `*Spec.v`, independently of the helpers of the
model. Proofs are in `*Proofs*.v`, and the property theorems (named after the
property they belong to) are in `*Props.v`, with non-vacuity examples,
refutations and `Print Assumptions`.

Conventions:

* Times, lengths, distances and coordinates are rationals (`Q`, or `Qc` with
  Leibniz equality, see `QcTac.v`), so that the model runs and counterexamples
  are computed. Floating point rounding, NaN
  and infinities are not modelled unless a definition says so. `R` is used only
  where a square root or a continuity argument is needed.
* Objects behind shared pointers (nodes, components, paths) are identified by
  natural numbers or by immutable values; mutation returns a new state.
* Randomness, clocks, steering, constraint projection, collision checks and
  distances are oracles: `Section` variables, so that the theorems quantify
  over them.
* C++ loops become structural recursion or recursion on fuel; running out of
  fuel is a distinct result which the theorems exclude or bound.
* Exceptions, out-of-range accesses and null dereferences are distinct results
  (`Throw`, `UB`).
* A theorem `x_refuted` exhibits a concrete execution of the faithful model
  that violates the property as stated. The matching finding is in section 4.
  A theorem `x_partial` proves the part that holds, and says what is missing.

## 2. Trusted base

* Coq 8.16.1's kernel, including `vm_compute`.
* The reading of the C++ in the model files: the code is not executed here.
* Axioms: see section 5. No axiom is declared in this development.
* Not modelled: memory management, threads, floating point, pinocchio/coal
  geometry and Lie groups (configurations are vectors or abstract), serialization of robots and constraints,
  logging.

## 3. Plan per property

| id | model | how it is proved |
|----|-------|------------------|
| C01 | Roadmap: nodes, edges, components, reachability links | invariant by induction over the operation list |
| C02 | same, `canReach` as breadth first search with explored flags | refinement to reachability of the edge graph; one-way `addNodeAndEdge` refuted |
| C03 | same | invariant: components = strongly connected components |
| C04 | `addNode` with exhaustive nearest neighbour | invariant; the component-restricted variant refuted |
| C05 | `merge` as fold of the other operations | reachability inclusion; exactness refuted for one-way edges |
| C06 | A* loop on fuel | loop invariant; termination measure = nodes not closed |
| C07 | same | invariant on closed nodes under a consistent heuristic; refuted for admissible only |
| C08 | `Basic` as folds over node lists | induction over the list, heap modelled as sorted list |
| C09 | kd-tree as an inductive tree with boxes over R with infinities, histories of insertions, merges and erasures | invariants of boxes, maps and counters over histories; box lower bounds by moving one coordinate; merge refuted |
| C10 | interval list | induction over the list against set membership |
| C11-C13 | the two validation loops on fuel, interval validator as oracle | loop invariants, measure |
| C14 | pair interval computation, motion as a Lipschitz distance function | real/rational inequality plus cache invariant |
| C15 | sampling loop | loop invariant, measure |
| C16, C17, C47, C48 | folds over oracles | induction over the list; the reverse branches refuted |
| C18-C21 | path syntax tree with evaluation function | structural induction; refutations for extracted and time-parameterized paths |
| C22 | velocity bounds of each path class | inequality on rationals; refutations for interpolated paths; splines in C64 |
| C23, C24 | straight and interpolated paths on `list Q` | direct computation, induction on the knots |
| C25 | setter state machine and solve loop with oracles | invariant over setter sequences, loop invariant |
| C26 | planner steps over the roadmap model with oracles | invariant over steps |
| C27 | state machine of kPRM* | measure and invariant |
| C28 | parent maps as partial functions, one step as in the code | tree invariant over extensions and rewirings; label-correcting search with an arbitrary queue |
| C29 | path vectors over abstract sub-paths (`VecModel`), optimizer loop with arbitrary draws | invariant of the loop; vector extraction lemma; bound on the number of improvements; instance with straight paths |
| C30 | the optimizer on the roadmap and A* models | one component and distinct configurations as invariant; prefix cost of each node; optimality of A* |
| C31 | optimizer loop with oracles as inputs, over any number type | loop invariants; on the reals, Cauchy-Schwarz per segment and telescoping sum; refuted when times do not start at 0 or evaluations fail |
| C32, C33 | association list maps | refinement to functions |
| C34 | matrix as a function, loops as folds | bottleneck-closure invariant |
| C35, C36, C46 | parallel lists | invariants over histories; refutations |
| C37-C39 | projector loops with constraints and steering method as functions, trees of path vectors | loop invariants (contiguous chain, stack), bound on the recursion depth, insertion in the sorted map of way-points; induction over trees; divergence, ignored step and stale part refuted |
| C40, C41, C58, C59 | polynomials over R as coefficient lists, infinities and NaN explicit, bisection over breakpoints | factorization of the derivatives, mean value and intermediate value theorems; invariant of the bisection; wrong vertex value refuted |
| C42 | Bernstein basis of any degree over R, as coded | Leibniz sums and Pascal rule by induction on the order; antiderivatives and the fundamental theorem for the energy; refutation of the energy factor |
| C43, C44 | one-dimensional phases over R, interval scan with infinities | case analysis on the phases, derivative of a piecewise quadratic function; induction on the number of intervals above the candidate; refutations |
| C60-C63 | durations of the phases over R, undefined divisions and roots explicit; loops over the axes | every motion satisfies two inequalities (area under the velocity), which the formulas of the code solve exactly; concatenation of motions for the triangle inequality; degenerate cases refuted |
| C45 | sum over joints with abstract metrics, weights with infinities | Minkowski inequality from Cauchy-Schwarz; loop invariant for the computed weights |
| C49 | on the roadmap model | corollary of C02 and history invariant |
| C50 | chain of joints between two bodies, rigid motions on `R^3` | induction over the chain; refuted for pairs of robot bodies |
| C51 | validation loop over the pair vectors of C35, geometric test as a parameter | case analysis on the first hit |
| C52, C53, C56 | several problems in a world of shared validations, public calls as operations | induction over histories; refutations by short histories |
| C54 | heap of typed cells, parameters as tagged pointers | ownership invariant over every sequence of special member calls |
| C55 | object indices, validations as lists of objects they were given | invariant over histories relating indices to a registry of names |
| C57 | same model as C26 | same invariant with another predicate on paths |
| C64-C66 | Bernstein basis of any degree over R, control points as functions of indices, linear system of the steering method with an exact solver | range of the Bernstein polynomials; convexity for the cubics; triangular systems at both ends |
| C67 | constraints as matrices over R with unwritten right hand sides, QR/LU as oracles with exactness hypotheses (LinCons*) | characterisation of the solution set by Q, R, forward substitution |
| C68 | quadratic programs, solver as an oracle (LinCons*) | algebra of quadratic forms, first order condition for convex costs |
| C69 | rows of the continuity and problem constraints, exact reals (SplineOpt*) | block sums, Bernstein derivatives at the ends |
| C70 | rows of the bound constraint, validateBounds as folds (SplineOpt*) | convex hull property, loop invariants |
| C71 | cost, gradient, Hessian (SplineOpt*) | block sums, integrals of C42, quadratic expansion |
| C72 | the loop as a state machine with fuel, oracles as arguments (SplineGrad*) | invariant on the accepted splines |
| C73 | same | invariant: constraint, bounds, cost along the interpolation (convexity) |
| C74 | same | measure: rank left, phases of alpha, decrease of the cost; divergence invariants |
| C75 | linearisation over the list of functions | induction on the list |
| C76 | path record, evaluation, wheels over R (Curv*) | closed form, derivatives, trigonometry; invariant of create, extract, reverse |
| C77 | derivative of order n | n-th derivatives of the closed form, modulo 4 |
| C78 | bound with floor and atan2 | trigonometric bounds; witnesses |
| C79 | extract and reverse | composition of arcs |
| C80 | the six words, selection, three segments over R (Dubins*) | characterisation of the ends of a word in the normalised frame, rotation and scaling, uniqueness of rolling motions |
| C81 | same | uniqueness of the lengths of a word modulo 2 pi, least representative, degenerate cases |
| C82 | the eight formulas, symmetries, selection, segments over R (RS*) | each formula leads to the normalised goal, a formula applies to every goal, Lipschitz bound for the dropped segments |
| C83 | same | Euclidean bound of a word, uniqueness of the solution of a formula, least candidate |
| C84 | addSegments and evaluation of the piecewise quadratic law over R (RSTime*) | concatenation of quadratic pieces described by (value, velocity, acceleration) functions; the four regimes |
| C85 | derivativeBound, Path::velocityBound | monotonicity of the velocity from the sign of the acceleration; witness from the mean value theorem |
| C86 | loop of RSTimeParameterization::optimize | induction on the segments; each kept segment is the original one composed with a law |
| C87 | Snibud::impl_compute as Dubins from the end to the beginning, reversed (Snibud*) | reduction to C80, C81; reversal of chains |
| C88 | Hermite paths as cubic splines, recursion of the projector with fuel (RecHerm*) | Bernstein weights bound the sum of the distances to the ends by the control polygon; induction on the fuel; the length decreases geometrically |
| C89 | StraightPath derivatives inherited by kinodynamic paths (KinoVel*) | mean value: a velocity that varies exceeds the mean velocity somewhere |
| C90 | FromTwoVectors over the reals, orientation of each configuration (Orient*) | rotation of a quaternion computed in both branches; reduction to C43 for sub-paths |
| C91 | the three shooters and their factories, draws as arguments (Shoot*) | induction on the variables |
| C92 | parsing of wheel names, creation, settings and copies over the steering of C80 and C83 (Car*) | induction on the text and on the settings |
| C93 | projector over an arbitrary solver, with its statistics (CProj*) | case analysis, induction on the history |
| C94 | segments as lists of indices (CProj*) | rank of an index in a list without duplicates |
| C95 | store of constraint sets with pointers, sessions of calls (Steer*) | invariant: paths own distinct sets; evaluations change the right hand side by an absorbing function |
| C96 | monitor with a clock and a schedule of interruptions (Mon*) | induction on the iterations |
| C97 | the settings as a state machine (Ps*) | induction on the calls, last write wins |
| C98 | directPath, addEdgeToRoadmap and the three step methods (Direct*) | case analysis; simulation of the loop of C25 |
| C99 | sweeps, reinterpolation and creation of the path over a list cut in two (Global*) | invariants of the loop: lengths are exact, projected points satisfy the constraints |
| C100 | the same with singular values (Global*) | invariant of the loop: exact lengths, origin of the singular values |
| C101 | validate(q) over trees of path validations (ConfVal*) | on a path of length 0 all the intervals are the point or the line; induction over the trees |
| C102 | SubchainPath over the path model (Subchain*) | induction over the blocks |
| C103 | CollisionFunction over abstract kinematics (CollCons*) | derivative of a norm, rigid placements |
| C104 | save and load of trees of paths as token lists (Serial*) | induction over the tree; invariant of the members of Path |
| C105 | tracked depth-first writing of a pointer graph, and reading (RoadSer*) | simulation between the list of objects met and the table of objects created |
| C106 | search of files, outcomes of the dynamic loader (Plugin*) | induction over the directories; cases |
| C107 | pairs and results over sequences of calls (DistObj*) | induction over the calls, loop invariant of the ranks |
| C108 | grid, integration of speeds, cubic pieces, sub-paths of TOPPRA over R (Top*) | induction over sub-paths and samples; the cubic pieces are quadratic; intermediate values |
| C109 | SearchInRoadmap as an instance of the planner loop over the roadmap model (Search*) | start invariant by induction over goals; C49 and the unfolding of one round of the loop |
| C110 | dual method of Goldfarb and Idnani with its Givens rotations, labels as a program counter (Gi*) | invariant: factorization of the active normals, dual feasibility, stationarity and cost; termination by pigeonhole over the active sets; witnesses with a positive epsilon |
| C111 | construction of interpolated paths by sampling, interpolated steering (Resample*) | the samples are waypoints in order; triangle inequality |
| C112 | addition of collision constraints in the loop of the spline optimizer (SplineGradModel, SplineCollProps) | induction on the attempts and on the reports; two splines, the second without effect on its collision |
| C113 | constructor and steering of path projectors on the sessions of C95 (ProjInitModel) | a set that no path holds keeps its content, and a method its set, by induction on histories |

## 4. Findings

Each line is a behaviour of the code that contradicts the property, or a
precondition that the code does not check. The theorem named is the
machine-checked witness on the model.

Roadmap, A*, nearest neighbours

* C02, C03 `C02_path_exists_refuted`, `C03_scc_refuted`: `Roadmap::addNodeAndEdge`
  with a one-way edge puts the new node in the component of the other node;
  `pathExists` answers true although no path goes back.
* C04 `C04_no_duplicates_refuted`: `addNodeAndEdges` searches an equal
  configuration in one component only and duplicates configurations of others.
* C05 `C05_merge_directions_refuted`: `Roadmap::merge` adds one-way edges in both
  directions.
* C07 `C07_parallel_edges_refuted`: a second edge between the same nodes is only
  recorded in the list of edges of the roadmap; A* never sees it.
* C07 `C07_admissible_refuted`: closed nodes are never reopened, so that an
  admissible heuristic is not enough.
* C08 `C08_knearest_zero_refuted`: `KnearestSearch` with K = 0 reads the top of an
  empty queue.

Continuous and discretized validation

* C14 `C14_end_in_collision_refuted`: with a tolerance, the end of an accepted
  path may be in collision (by up to twice the tolerance).
* C14 `C14_refined_tolerance_refuted`: with refined intervals and a tolerance the
  penetration is not bounded by any multiple of the tolerance.
* C15 `C15_zero_step_refuted`: a zero step never terminates.
* C16 `C16_reverse_refuted`, `C16_end_refuted`, `C16_null_report_refuted`: in
  reverse `PathValidations` keeps the larger rejected parameter; a rejection
  exactly at the end leaves the end in the valid part; a null report is
  dereferenced.
* C46 `C46_remove_last_refuted`, `C46_remove_skips_refuted`: removing an obstacle
  from a joint erases during the iteration: the next validator is skipped and
  erasing the last one is undefined behaviour.
* C46 `C46_filter_forever_refuted`: `filterCollisionPairs` loops forever on a
  validator that is not a pair collision.
* C46 `C46_margin_silent_refuted`: `setSecurityMarginBetweenBodies` never throws.
* C47 `C47_reverse_refuted`: reverse validation of a path vector reads out of
  range, for every vector. `C47_parameter_refuted`: the parameter reported is
  wrong when the range of a sub-path does not start at 0.
* C50 `C50_ancestor_refuted`, `C50_branches_refuted`: velocity bounds between two
  bodies of the robot start from the radius of the wrong body in the reverse
  direction, and omit the distance of a descending joint to its parent.

Paths

* C19 `C19_flatten_refuted`, `C19_concatenate_refuted`: constraints that depend on
  the parameter are applied with the parameter of the sub-path.
  `C19_both_constrained_throws`: exception when a vector and a sub-path are both
  constrained.
* C20 `C20_interp_end_refuted`, `C20_vector_end_refuted`: extracting from the last
  waypoint of an interpolated path reads past the end of a map; a vector cut at
  a boundary does this.
* C20 `C20_straight_time_refuted`: the time law of an extracted straight path is
  lost (the result of `Shift::createWithCheck` is discarded).
* C20 `C20_vector_constraints_refuted`: the extraction of a vector drops the
  constraints of the vector.
* C21 `C21_generic_offset_refuted`, `C21_generic_part_refuted`,
  `C21_interp_offset_refuted`, `C21_time_refuted`: reversal is wrong for extracted
  and interpolated paths whose range does not start at 0, and for time
  parameterized paths.
* C22 `C22_interpolated_inside_segment_refuted`: between two waypoints the
  velocity bound of an interpolated path is 0. Continuous collision checking
  with such a bound accepts the whole segment.
* C22 `C22_derivative_at_upper_bound_refuted`: at an interior waypoint
  `derivative` looks at the next segment, which is not in the bound.

Obstacles and constraint sets

* C35 `C35_remove_after_filter_refuted`: `removeObstacleFromJoint` looks at
  active pairs only. Once filtering has moved a pair of the obstacle to the
  parameterized or disabled list the call throws and the pair stays;
  parameterized pairs are still tested when `checkParameterized` is set.
* C35 `C35_remove_throw_changes_state_refuted`: that exception can come after
  other objects of the joint were dealt with.
* C35 `C35_margin_between_bodies_refuted`: `setSecurityMarginBetweenBodies` stops
  at the first match. With two pairs between the bodies (obstacle added twice,
  or both orders) the second keeps its margin.
* C51 `C51_all_contacts_refuted`: when an active pair collides, parameterized
  pairs are left out of the exhaustive report.
* C36 `C36_add_set_without_projector_refuted`: adding a set to a set also adds
  the trivial projector of the former. The receiving set then has a non-null
  `configProjector()` that nobody added and refuses a real one.
* C36 `C36_throw_leaves_set_unchanged_refuted`: a set refused because of its
  projector leaves its preceding constraints behind.

Problem, parameters, targets and solver

* C33 `C33_type_refuted`: `Problem::declareParameter` may change the type of a
  name; a value set before keeps its old type and the typed accessor throws.
* C49 `C49_task_reached_refuted`: `TaskTarget::reached` looks at the component of
  the initial node only; a node reached along one-way edges is missed.
* C49 `C49_task_path_refuted`: `TaskTarget::reached` tags goals by configuration.
  When a configuration appears twice, the tagged node may not be reachable:
  `reached` answers true, `computePath` throws and the goal stays.
* C52 `C52_copy_refuted`: `Problem::createCopy` loses the goals, the constraints,
  the steering method and the path validation, and shares the configuration
  validations with the original.
* C53 `C53_in_step_refuted`: a new path validation is not given the obstacles of
  the problem, nor is a configuration validation added later; replacing the
  obstacles leaves the old ones in the validations.
* C55 `C55_flags_refuted`: `ProblemSolver::addObstacle` gives each obstacle to the
  collision validations and to the distance computation, whatever the flags,
  until the next `resetProblem`.
* C55 `C55_robot_refuted`: setting a second robot empties the model of obstacles
  but not the lists of obstacles; they can no more be removed by name, and a
  removal by name may remove another one.
* C55 `C55_throw_refuted`: adding a collision obstacle without a robot throws
  after the obstacle was registered.

Planners

* C25 `C25_nan_refuted`: `timeOut` accepts a value that is not a number, which
  is never exceeded; with `stopWhenProblemIsSolved(false)` the run is endless.
  `maxIterations(0)` means no limit (`numeric_limits<unsigned long>::infinity()`
  is 0). An interruption during the step that solves the problem still throws.
* C26 `C26_birrt_refuted`: with constraints, `BiRRTPlanner::oneStep` projects the
  random configuration once from the start tree and once from each goal tree,
  then links both trees as if the projections were equal. The edge starts at
  another configuration than its node, and the solution jumps.
* C26 `C26_birrt_null_refuted`: when the path from the start tree is accepted but
  has zero length, `reachedNodeFromStart` stays null and is passed to `addEdge`.
* C57 `C57_birrt_visibility_refuted`: these planners ignore the path projector of
  the problem, except in `tryConnectInitAndGoals`.
* C27 `C27_single_node_refuted`: `kPRM*/numberOfNodes` = 1 gives 0 neighbours, and
  the search for 0 neighbours reads the top of an empty queue.
* C27 `C27_bounded_refuted`: a sampled configuration that is already a node is not
  counted and there is no limit on such samples; the building phase may be endless.
* C27: the K neighbours of a node include the node itself. If the roadmap already
  has the configured number of nodes, linking is skipped.
* C28 `C28_sample_refuted`: the step after `BiRrtStar::connect` has joined the trees
  may call `sample` before the parent maps are recomputed; it then dereferences
  `toRoot_[0].find(roots_[1])`, which is `end()`. The check against `end()` comes
  after the first read (same order in `computeCost`).
* C28 `C28_precomputed_refuted`: with a non-empty initial roadmap, nodes of the
  components of the roots have no entry in the parent maps, and `computeCost`
  reads through `end()`.
* C29 `C29_zero_loops_refuted`: with the parameter `PathOptimization/RandomShortcut/NumberOfLoops`
  at 0, `RandomShortcut::optimize` builds a deque of size `n - 1`, which wraps around: an
  exception instead of the input path.
* C30 `C30_longer_refuted`: when paths are shorter than the distance between their ends (after
  a time parameterization their length is a duration), the A* search of `SimpleShortcut` has an
  inconsistent heuristic and returns a path longer than the input.
* C30 `C30_pseudo_distance_refuted`: with a distance that is 0 between different configurations
  (zero weights), `SimpleShortcut` puts the goal in a new isolated node and throws.
* C30 `C30_closed`: a path with equal ends is replaced by the unvalidated steering path from its
  initial configuration to itself; a null answer of the steering method is dereferenced.
* C31 `C31_lengthens_refuted`: `generatePath` of the partial shortcut uses the local parameter of
  `rankAtParam`, which includes the beginning of the sub-path's time interval, as an elapsed time: a
  path whose first sub-path starts at another time than 0 gets way-points far outside of the segment,
  and may be lengthened (2 to 20 in the witness).
* C31 `C31_random_idle`: in `optimizeRandom` (partial-shortcut.cc line 258) the test of the evaluations
  is the wrong way round. When they succeed, no shortcut is tried and the input is returned.
* C31 `C31_failed_evaluation_refuted`, `C31_uninitialized_refuted`: when one fails, the shortcut is tried
  with what the failed evaluation wrote, or with an uninitialized configuration, and the candidate is
  returned even when it was refused for being longer.
* C31 `C31_null_constraints_refuted`: `generateJointVector` dereferences the constraints of the first
  sub-path, which may be a null pointer.
* C37 `C37_diverges_refuted`: the dichotomy projector has no bound on the number of splits; when the
  projection of the middle goes to a far solution, it loops for ever (and the stack grows).
* C37 `C37_null_constraints_refuted`, `C37_nothing_returned_refuted`: a straight path without constraints
  makes it dereference a null pointer; when an end or the first middle is refused, it returns false
  without writing its output argument, so that the caller keeps a null pointer or an older path.
* C38 `C38_step_ignored_refuted`: with a positive Hessian bound, the progressive projector uses sigma/K
  as the threshold and ignores the step given by the user.
* C39 `C39_stale_part`, `C39_duplicate_refuted`, `C39_duplicate_progressive_refuted`: in `impl_apply` of all
  projectors `part` is not reset between sub-paths. When a sub-path fails without writing a result
  (end configuration out of the constraints), the projection of the previous sub-path is appended a
  second time and the result is not contiguous.
* C40 `C40_extra_degrees_of_freedom_refuted`: `SimpleTimeParameterization::optimize` multiplies the velocity
  limits of the robot model (size nv) with a velocity bound of size `numberDof()`: with an extra
  configuration space the sizes differ (undefined behaviour).
* C41 (precondition): the constructor of `PiecewisePolynomial` checks that breakpoints increase, except the
  last one (the loop stops at the number of pieces).
* C43 `C43_rest_at_end_refuted`: `KinodynamicPath::extract` assumes that the phases fill the duration. When an
  axis comes to rest earlier (vertical axis not synchronised with a non-null initial velocity), removing the
  end of the path shortens the last phase instead of the rest, and the extracted motion is another one.
* C43 `C43_oriented_empty_refuted`: an empty sub-interval of a `KinodynamicOrientedPath` gives a null path
  (the extracted path is a `StraightPath` and the dynamic cast fails).
* C45 `C45_negative_rank_refuted`, `C45_short_weights_refuted`: `setWeight` accepts negative ranks,
  `createWithWeight` vectors of any size; both lead to out of range accesses.
* C45 `C45_computed_weights_refuted`: in `computeWeights` a null length is replaced by the smallest positive
  length seen so far, infinity for the first joint, and is never corrected; distances are then NaN.
* C58 `C58_velocity_bound_refuted`: `Polynomial::derivativeBound` of degree 3 evaluates the extremum of the
  derivative as a1 - a2/3*a3 instead of a1 - a2*a2/(3*a3). For the third order law of
  `SimpleTimeParameterization` on a unit path, the bound is 64/243 whereas the speed reaches 1, so that
  continuous validation of a time-parameterized path uses a velocity that is too small.
* C58 `C58_fifth_order_has_no_bound`: with order 2 `velocityBound` throws.
* C59 `C59_joint_acceleration_refuted`: the parameter "maximum acceleration for each degree of freedom" bounds
  the second derivative of the path parameter only.
* C61 `C61_constant_velocity_refuted`: `fixedTimeTrajectory` takes the maximal acceleration when its quadratic
  equation degenerates. For a motion at constant velocity below the limit the trajectory accelerates,
  decelerates and ends further than the goal.
* C61 `C61_return_refuted`: when an axis has the same position and the same non-null velocity in both
  configurations, it is considered as not moving: its velocity jumps to 0 (and `computeMinTime` leaves the
  interval of the previous axis in place).
* C61 `C61_vertical_refuted`: the vertical axis, when not synchronised, with an initial velocity and none at the
  end: the phases do not fill the duration of the path (see C43 for the consequence).
* C63 `C63_backwards_refuted`: `KinodynamicDistance::computeMinTime` uses `sgn` where the steering method uses
  `sgnenum` (the test sigma == 0 is then never true). When both velocities are negative and the displacement
  is exactly the one of the change of velocity, the distance is not the least duration (5 instead of 1).
* C42 `C42_energy_refuted`: `integral` multiplies once by n!/(n-k)! where the product of two derivatives brings
  it twice: `squaredNormIntegral(k)` is the documented integral divided by n!/(n-k)! (3 for the velocity of a cubic,
  20 for the acceleration of a quintic). The gradient is consistent with it (C66), so minimisers are unchanged.
* C64 `C64_velocity_bound_refuted`: for 2 <= i <= n-2, `absBound` takes values that are not the extrema of the
  derivatives of the basis functions: for the degree 5, the bound of the third one is 270/256 and its derivative reaches
  1.35. Same formulas for the degree 7. Continuous validation of such splines relies on this bound.
* C65 `C65_zero_distance_refuted`: without an explicit length, the duration is the distance between the
  configurations; when it is null although they differ (null weights), the path is constant.
* C66 `C66_zero_length_refuted`: `parameterDerivativeCoefficients` is null on a path of length 0, whose value
  still depends on the first control point.
* C09 (`k-d-tree.cc`, commented out of `CMakeLists.txt` line 223, and abstract since it does not define `withinBall`):
  * `C09_untold_merge_refuted`: `Roadmap` never calls `NearestNeighbor::merge`; nodes stay filed under the component
    that disappeared and are not found any more.
  * `C09_same_configuration_refuted`: when the nodes of a full bucket have the same weighted coordinates, `split`
    leaves `splitDim` uninitialised and indexes with it. With a bucket size of 1 this is any second node.
  * `C09_clear_refuted`: `clear` does not reset `bucket_`; the next insertion splits an empty leaf, same consequence.
  * `C09_extra_coordinates_refuted`: `weights_` is not initialised for the extra configuration space.
  * `C09_translation_weight_refuted`: weights multiply every coordinate in the tree but only rotations in the
    distance; with a weight above 1 on a translation a branch holding the nearest node is pruned.
  * not modelled: quaternions (q and -q are the same rotation but far apart in coordinates, so pruning is wrong),
    `list::merge` on unsorted lists (modelled as the usual implementation), the `reverse` argument of `search`, ignored.

* C67 `C67_feasibility_refuted`: `decompose (true)` accepts constraints whose least residual is below 1e-7.
  `C67_rank_refuted`: without rows it returns without setting `rank`. `C67_added_row_refuted`: `addRows` leaves the new
  right hand sides uninitialised. `C67_full_rank_refuted`: `reduceConstraint` compares the rank with
  min (rows, cols): with more rows than columns it answers true for infeasible constraints.
* C68 `C68_linear_term_refuted`: `QuadraticProgram::reduced` ignores `b` while `bIsZero` is true, even if `b` was
  assigned. `C68_over_constrained_refuted`: `solve` throws when there are more equality rows than unknowns, even if they are
  redundant. `C68_unsolved_refuted`: when the first resolution fails `xStar` is not initialised; `SplineGradientBased`
  ignores the returned cost and reads it.

* C69 `C69_input_refuted`: the continuity rows of order k >= 1 have a null right hand side whatever the input; splines
  whose derivatives are not null at the ends of the path do not satisfy the constraint they are optimised under.
  `C69_update_parameters_refuted`: the loop of `updateParameters` starts at 2, and shifts the others.
* C70 `C70_one_sided_refuted`: `validateBounds` deduces the number of bounded coordinates from the number of rows
  assuming two rows each; with one-sided bounds it checks nothing or mixes coordinates. Not modelled:
  `joint-bounds.hh` line 94 uses `LieGroup1::NQ` for the second part of a product of Lie groups.
* C71 `C71_weights_refuted`: `computeLambdasFromSplineLength` divides by the greatest energy, null when nothing
  moves. `C71_order_refuted`: the test on the order of derivation uses the size of the table of powers
  (2 * Order + 3), so the order Order + 1 is accepted although the derivative is null.

* C72 `C72_optimum_refuted`: with ReturnOptimum the minimum is returned without validation.
* C74 `C74_null_cost_refuted`: the test `abs (cost - costLowerBound) < threshold * costLowerBound` is never true when
  the least cost is null (a path that comes back to its start); the loop then has no end without a time or iteration
  limit. `C74_alpha_one_refuted`: with AlphaInit = 1 and an optimum in collision, `alpha == 1` makes the loop set
  alpha to AlphaInit and test the same path for ever. AlphaInit is only asserted to be in [0, 1].
* C75 `C75_linearize_refuted`, `C75_linearize_out`: `linearize` passes `ss[i]`, i the rank of the function, where
  `splineIds[i]` is meant: wrong explicit constraints, or a read out of bounds with more functions than splines.
* Noted: after a failed `findNewConstraint` the reduced constraint keeps the row that was removed; a failure of the
  quadratic solver keeps the former solution (not initialised at the first call); the copy constructor of
  QuadraticProgram does not copy the members of the inequality solver; CollisionFunction aborts when there is no contact
  and throws for reports that are not collisions.

* C76 `C76_start_refuted`: the wheel joints take their steering angle over the whole path, whatever their value in the
  initial configuration: `path->eval(0)` differs from `path->initial()`, and consecutive segments have discontinuities.
* C77 `C77_order2_refuted`, `C77_order4_refuted`: the sign of the derivatives of even order is not that of
  the derivative for half of the orders, depending on the direction. `C77_zero_refuted`: division by 0 for a path of length 0.
* C78 `C78_refuted`: the bound of the planar velocity is computed in the frame of the world whereas velocities are in the
  frame of the robot. `C78_negative_refuted`: `details::absSineMax` returns the maximum of `sin`, not of its absolute value,
  on a part of the circle.

* C80 `C80_same_place_refuted`: when the two configurations have the same position and heading, `lengths_[i] / L` is
  0 / 0: the parameter lengths of the segments are NaN, whatever the other degrees of freedom.
* Noted: the copy constructor of DubinsPath with constraints does not copy `dxyId_` and `drzId_`; the copy constructor of
  CarLike does not copy the wheels; the constructor of CarLike with a radius does not check that it is positive;
  `dubins_segment_velocity` (unused) has wrong signs.

* C83 `C83_shortest_refuted`: the families compare `L`, in units of the turning radius, with `Lmin = rsLength (...)`, which is
  multiplied by the turning radius. With a radius other than 1 a longer word may replace a shorter one: 10 ahead with
  radius 2 gives 4 pi + 2 instead of 10.
* C82 `C82_near_refuted`, C83 `C83_separated_refuted`: when the goal is within 1e-4 of the start (in units of the turning
  radius, heading included) the path does not move the car, and the distance is that of the other degrees of freedom,
  possibly 0 between different configurations.
* C82: segments of length at most 2^-26 are skipped but counted in the total length: the other degrees of freedom then end
  at a fraction of their goal.
* Noted: `reedsSheppPathOrDistance` reads the type and the lengths without testing that a formula applied; lemma `avail_all`
  shows that one always does.

* C84 `C84_plateau_refuted`: `addSegments` computes `remainingDist = distance - dacc + ddec` instead of `- ddec`. As soon as the
  maximal velocity is kept for some time the law goes (M^2 - w^2)/D further than the length of the segment. The paths built
  on it stay geometrically right (the path divides by the range of parameters), at a lower velocity than announced.
* C84 `C84_target_refuted`: when the final velocity cannot be reached within the distance, the second phase has a negative
  duration: the law goes too far and ends slower than requested.
* C85 `C85_bound_refuted`, `C85_path_refuted`: `derivativeBound` is the maximum of the velocities at both ends of the interval.
  For a motion from rest to rest it is 0 over the whole duration, and so is the velocity bound of the path: continuous
  collision checking on such a path would take a single step.
* C86 `C86_cusp_refuted`: after each kept segment the initial velocity is reset to `minLinearVelocity`, also when the segment
  ended at rest because the next one goes the other way: the velocity jumps at each cusp.
* C86 `C86_crossing_refuted`: because of the first item the velocities at both sides of a crossing differ.
* C86 `C86_end_refuted`: a last segment shorter than 2^-26 is skipped, and the previous one, which prepared for it, does not
  stop.

* C87 `C87_same_place_refuted`: same as C80, both poses equal make the Dubins path empty and its last element is read.
* C88 `C88_beta_refuted`: the constructor accepts beta = 1, for which nothing makes the length of the halves decrease: with a
  projection that sends the middle of the path on one of its ends the recursion never ends (stack overflow).
* C88 `C88_start_refuted`: `RecursiveHermite::project` checks the end of the path only. When the initial configuration does not
  satisfy the constraints, the steering method returns a null pointer (the `projection_error` is caught) which is then used.
* C88 `C88_end_refuted`: when the end does not satisfy the constraints `project` returns false without writing `proj`; in
  `RecursiveHermite::apply` on a path vector `part` then still holds the previous piece, which is appended a second time.

* C89 `C89_bound_refuted`, `C89_derivative_refuted`: `KinodynamicPath` redefines `impl_compute` only; `impl_derivative` and
  `impl_velocityBound` of `StraightPath` return the mean velocity. Any translation whose velocity varies exceeds the bound, which
  continuous validation relies on (C12, C50).
* C90 `C90_continuous_refuted`: moving sideways from rest to rest, the robot faces its initial orientation at the ends and the
  direction of the motion at any other parameter: the path is not continuous.
* C90 `C90_setter_refuted`: the setter `ignoreZValue` does not recompute `initial_` and `end_`: the path no longer begins at its
  initial configuration.
* C91 `C91_gaussian_default_refuted`: `Gaussian::impl_shoot` computes `center` (the neutral configuration when `center_` is empty)
  and then integrates from `center_`. With the default value of "ConfigurationShooter/Gaussian/center" an empty vector is read.
* C91 `C91_gaussian_velocity_refuted`: with "useRobotVelocity" the standard deviations are velocities, which may be negative.
* C91 `C91_sigma_extra_refuted`: `Gaussian::sigma` sets the joints only; the standard deviations of the extra variables are
  those found in the memory of the new vector.
* C91 `C91_deviation_refuted`: documented 2 pi / sqrt (2n - 3), code 2 pi / sqrt (n): they differ for SO(2) and SE(2).
* C91 `C91_uniform_zero_refuted`, `C91_uniform_nan_refuted`, `C91_seedable_extra_refuted`: without sampling, extra variables are
  zero even out of their bounds; bounds that are twice the same infinity give NaN; the seedable shooter ignores the parameter
  "ConfigurationShooter/sampleExtraDOF".

* C92 `C92_copy_refuted`: the copy constructor of `CarLike` copies the radius but not `wheels_`. The copy (path projectors steer
  with a copy, src/path-projector.cc l.44-50) treats the wheels as ordinary joints.
* C92 `C92_radius_refuted`: the constructor with arguments (`create`) checks no radius; only the setter does.
* C93 `C93_optimize_refuted`: `ConfigProjector::optimize` sets maxIterations and restores it only if the solver does not throw.
* C93 `C93_optimize_returns_refuted`: without optional level `optimize` returns true without looking at the configuration.
* C93 `C93_right_hand_side_refuted`: `rightHandSide (nm, rhs)` builds the message of an exception for an unknown constraint, and
  does not throw it.

* C95 `C95_ends_refuted`: the right hand side is taken at the start only. If the end is on another leaf, `end()` announces the end
  and evaluating the path there gives another configuration or fails.
* C95 `C95_shared_refuted`: `Path::copy (constraints)` stores the pointer (the other constructors copy the set): setting the right
  hand side of the set afterwards changes the path.
* C96 `C96_early_interruption_refuted`, `C96_sequence_interruption_refuted`: `monitorExecution` clears `interrupt_`.
  `ProblemSolver::interrupt` sets the flag of all the optimizers, and the next one of the sequence clears it and runs to its end.
* C96 `C96_large_refuted`: `maxIterations_` is signed and the setter takes an unsigned long; the greatest unsigned number, used
  elsewhere for no limit, becomes -1 and no iteration is done. The simple and partial shortcuts, and the other optimizers which
  do not call `shouldStop`, ignore interruptions, iterations and time out.
* C97 `C97_distance_refuted`, `C97_default_distance_refuted`: `distanceType` only stores the name ("TODO"); `initDistance` is
  called nowhere, and would throw by default because "WeighedDistance" is not registered ("Weighed" is).
* C97 `C97_reset_refuted`: `robot ()` and `resetProblem ()` create a problem with default steering method, shooter and no path
  projector whatever was asked for, until `initProblem`; directPath uses them.
* C97 `C97_projector_refuted`, `C97_time_out_refuted`: see the table of C97.
* C98 `C98_explained_refuted`, `C98_null_refuted`: after a failed projection `directPath` validates what was written, which is a
  null pointer for projectors that write nothing on failure (C37), and returns false with an empty report.
* C98 `C98_edge_refuted`: `addEdgeToRoadmap` does not look at the ends of the path.
* C98 `C98_steps_refuted`: step by step methods ask `Roadmap::pathExists`, which knows nothing of a task target.

* C99 `C99_gap_refuted`: neither `reinterpolate` (the loop stops at `last`) nor `createPath` (the last length is added without a
  test) looks at the distance between the last inner point and the end: a success with a gap longer than the step.
* C99 `C99_discontinuity_refuted`: after a discontinuity `last` is moved back, but `createPath` ignores it, and uses the lengths
  of the following points, which were not computed: a success on a path which does not reach its end. Besides, `itA` is never
  incremented (all the points share the line search of the first), the first comparison reads a column of `oldQ` which is not
  initialised, and `alphaSquare` adds the norm of `qMinusQPrev` where that of `deltaDQ` is meant.
* C99 `C99_single_refuted`: `cfgs.size () - 2` wraps for an interpolated path with a single way-point.
* C100 `C100_singular_refuted`: `reinterpolate` stops at once if the start or the end is singular; the list has two points, which
  is taken for "shorter than step": the path is returned unprojected, with success.
* C100 `C100_interpolated_refuted`: the last way-point of an interpolated path is not marked as projected; `projectOneStep` moves
  it and then writes the length of the point after it.

* C102 `C102_constrained_refuted`: the constructor with constraints of `SubchainPath` does not copy `q_`: the original path is
  evaluated into an empty vector.
* C103 `C103_obstacle_refuted`: for a fixed obstacle `computeJacobian` takes `x2_J1 - x2_J2`, the difference between a point in the
  world frame and the same point in the frame of the joint, instead of `x2_J1 - x1_J1`: moving along the obstacle changes the
  constraint. Besides, between two bodies, `u` is expressed in the frame of joint 2 while the relative position is in that of
  joint 1 (theorem `C103_bodies_partial` needs the same orientation).

* C104 `C104_interpolated_refuted`: `InterpolatedPath`, `Hermite`, `KinodynamicPath`, `KinodynamicOrientedPath` and `SubchainPath`
  have no `serialize` and are not exported: saving a path vector, or a roadmap, which contains one throws. The path projectors make
  interpolated paths. Paths with a time parameterization are refused by an explicit exception.
* C105 `C105_component_order_refuted`: identifiers of components are not saved; components are numbered again in the order in which
  they are met, so that the order of `connectedComponents()` may change.

* C106 `C106_load_searches_refuted`: `plugin.hh` says that `loadPlugin` first calls `findPluginLibrary`; it gives its argument to
  `dlopen` directly, so a relative name is looked for only where `dlopen` does. `C106_twice_refuted`: each call creates a plugin, so
  `initialized_` never prevents a second initialization.

* C99 `C99_terminates_refuted`: in `Global::project` the count of iterations starts again at 0 whenever points were inserted, so that
  `maxIterations` does not bound the loop: with a solver under which points part and come back together the call never returns.

* C100 `C100_terminates_refuted`: in `Global::project2` points are inserted, whatever their number, once all are projected
  (`cfgs.size() < maxCfgNum || projected`), and the count of iterations starts again: for a path between two components of the
  constraint, with singular values above the threshold, the call never returns and the list grows for ever.

* C108 (`plugins/toppra.cc`):
  * `C108_shifted_range_refuted`: `Extract` is given the shift `-gridpoints[id]`, so a sub-path whose parameter range is [a, b] is
    evaluated on [0, b - a]; the result is another path when a is not 0.
  * `C108_velocity_bound_refuted`: `Extract::derivativeBound` calls itself instead of `inner_`; `Path::velocityBound` of a path of
    the result, and so continuous validation of this path, never returns.
  * `C108_no_samples_refuted`: a parameter `N` that is not positive is not rejected; the grid is then the single point 0.
  * `C108_retimed_refuted`: the grid is built on the parameter ranges, the path given to the solver is defined on the time ranges;
    they differ when the input already has time parameterizations.
  * `C108_solver_choice_refuted`: the description of the parameter `solver` (0: GLPK, 1: qpOASES) does not match the code
    (0: Seidel, 1: GLPK, 2: qpOASES).

* C109 (`search-in-roadmap.hh`): `C109_unmodified_refuted`: documented not to modify the roadmap, the planner adds a node for each
  initial or goal configuration which is not in it (`startSolve`), and replaces the initial and goal nodes.

* C110 (`eiquadprog_2011.hpp`): `C110_loops_refuted`: when `add_constraint` finds the chosen constraint degenerate, `goto l2` keeps `ss` and `ip`,
  so that the same constraint is chosen again although excluded by `iaexcl`, forever.
  `C110_restore_refuted`: the restoration before this jump writes `iai(A(i))` for the equality constraints too, whose entry is
  `-i - 1`: out of bounds (and `delete_constraint` then reads `A(iq)` past the end when all constraints are active; `f_value` is not restored).
  `C110_equality_ignored_refuted`: an equality constraint is not enforced when the squared norm of its projected normal is below
  epsilon, yet the answer is CONVERGED.
  `C110_infeasible_cost_refuted`: with linearly dependent equality constraints a finite cost is returned and `xStar` is overwritten,
  feasible or not; `QuadraticProgram::solve` only prints a message.
  `C110_redundant_refuted`: the inequality constraints are then not looked at: a point out of the joint bounds although there are solutions
  (the optimizer can pass such equality constraints, see `C112_stale_row_refuted`).
  `C110_feasible_unbounded_refuted`: a violated constraint whose projected normal is small (squared norm below epsilon) makes the answer
  UNBOUNDED, cost infinite, although the program has solutions; scaling a constraint changes the answer.

* C111 (`interpolated-path.cc` 66-88): `C111_sampled_timed_refuted`: an interpolated path sampled from a path with both constraints and a time
  parameterization copies the constraints but not the time parameterization; the right hand side is then set at the time instead of
  the parameter, and the configurations sampled are projected elsewhere. When the ends of the time range and of the parameter range
  differ, the construction throws.

* C112 (`spline-gradient-based.cc` 330-368, 560-573): `C112_stale_row_refuted`: when `findNewConstraint` abandons a constraint after an earlier
  report was accepted, `collision` loses its last row but `collisionReduced` is not computed again, and the solver is called with the
  abandoned, dependent row. With the bundled solver dependent equality constraints make it skip the inequality
  constraints (`C110_redundant_refuted`).

## 5. Assumptions per theorem

Generated from the output of `Print Assumptions` in each `*Props.v` file.

Closed under the global context (no axiom):

* `AstarProps.v`: 4 theorems (all)
* `CProjProps.v`: 10 theorems
* `CarProps.v`: 2 theorems
* `CollConsProps.v`: 1 theorems
* `ConfValProps.v`: 4 theorems (all)
* `ConsSetProps.v`: 7 theorems (all)
* `ContEditProps.v`: 13 theorems (all)
* `ContValProps.v`: 10 theorems (all)
* `ContainerProps.v`: 3 theorems (all)
* `DirectProps.v`: 9 theorems (all)
* `DistObjProps.v`: 4 theorems (all)
* `GlobalProps.v`: 17 theorems (all)
* `GlobalTermProps.v`: 4 theorems (all)
* `IntervalsProps.v`: 3 theorems (all)
* `KprmProps.v`: 8 theorems
* `LoopProps.v`: 5 theorems (all)
* `MonProps.v`: 12 theorems (all)
* `NearestProps.v`: 4 theorems (all)
* `ObstacleProps.v`: 10 theorems (all)
* `ParamHeapProps.v`: 2 theorems (all)
* `ParamProps.v`: 5 theorems (all)
* `PartialCutProps.v`: 6 theorems
* `PathProjProps.v`: 14 theorems (all)
* `PathProps.v`: 30 theorems (all)
* `PathVelProps.v`: 6 theorems (all)
* `PlannerProps.v`: 8 theorems (all)
* `PluginProps.v`: 6 theorems (all)
* `ProblemProps.v`: 9 theorems (all)
* `PsProps.v`: 9 theorems (all)
* `RelMotionProps.v`: 4 theorems (all)
* `ResampleProps.v`: 7 theorems (all)
* `RoadSerProps.v`: 5 theorems (all)
* `RoadmapProps.v`: 17 theorems (all)
* `SearchProps.v`: 4 theorems (all)
* `SerialProps.v`: 4 theorems (all)
* `ShootProps.v`: 1 theorems
* `ShortcutProps.v`: 8 theorems (all)
* `SimpleCutProps.v`: 6 theorems (all)
* `SolverProps.v`: 6 theorems (all)
* `SplineOptProps.v`: 1 theorems
* `StarProps.v`: 12 theorems (all)
* `SubchainProps.v`: 5 theorems (all)
* `TargetProps.v`: 7 theorems (all)
* `TopProps.v`: 1 theorems
* `ValidationsProps.v`: 13 theorems (all)
* `VelocityProps.v`: 1 theorems
* `WDistProps.v`: 3 theorems

Depending on axioms of the Coq standard library (classical real numbers):

* `CProjProps.v`: `C93_line_search`, `C94_vector`, `C94_compress_matrix`, `C94_uncompress_matrix` — `ClassicalDedekindReals.sig_forall_dec`
* `CarProps.v`: `C92_create`, `C92_radius`, `C92_radius_refuted` — `ClassicalDedekindReals.sig_forall_dec`, `FunctionalExtensionality.functional_extensionality_dep`
* `CarProps.v`: `C92_copy_partial`, `C92_copy_refuted` — `ClassicalDedekindReals.sig_not_dec`, `ClassicalDedekindReals.sig_forall_dec`, `FunctionalExtensionality.functional_extensionality_dep`, `Classical_Prop.classic`
* `CollConsProps.v`: `C103_backtrack`, `C103_zero` — `ClassicalDedekindReals.sig_forall_dec`, `FunctionalExtensionality.functional_extensionality_dep`
* `CollConsProps.v`: `C103_create`, `C103_update`, `C103_obstacle_partial`, `C103_bodies_partial`, `C103_obstacle_refuted` — `ClassicalDedekindReals.sig_not_dec`, `ClassicalDedekindReals.sig_forall_dec`, `FunctionalExtensionality.functional_extensionality_dep`
* `CurvProps.v`: `C76_motion`, `C76_built`, `C76_start_refuted`, `C76_zero`, `C77_velocity`, `C77_derivatives_partial`, `C77_opposite`, `C77_order2_refuted`, `C77_order4_refuted`, `C77_zero_refuted`, `C77_order0`, `C79_extract`, `C79_reverse` — `ClassicalDedekindReals.sig_not_dec`, `ClassicalDedekindReals.sig_forall_dec`, `FunctionalExtensionality.functional_extensionality_dep`
* `CurvProps.v`: `C76_wheel`, `C76_wheel_defined`, `C78_bound_partial`, `C78_straight`, `C78_refuted`, `C78_negative_refuted` — `ClassicalDedekindReals.sig_not_dec`, `ClassicalDedekindReals.sig_forall_dec`, `FunctionalExtensionality.functional_extensionality_dep`, `Classical_Prop.classic`
* `DubinsProps.v`: `C80_reaches`, `C80_other_joints`, `C80_same_place_refuted`, `C80_never_throws`, `C81_length`, `C81_shortest_partial`, `C81_attained` — `ClassicalDedekindReals.sig_not_dec`, `ClassicalDedekindReals.sig_forall_dec`, `FunctionalExtensionality.functional_extensionality_dep`, `Classical_Prop.classic`
* `GiProps.v`: `C110_optimal_partial`, `C110_infeasible_partial`, `C110_dependent_partial`, `C110_defined_partial`, `C110_active_partial`, `C110_ends_partial`, `C110_solve_partial`, `C110_over_constrained`, `C110_equality_ignored_refuted`, `C110_infeasible_cost_refuted`, `C110_loops_refuted`, `C110_restore_refuted`, `C110_redundant_refuted`, `C110_feasible_unbounded_refuted` — `ClassicalDedekindReals.sig_not_dec`, `ClassicalDedekindReals.sig_forall_dec`, `FunctionalExtensionality.functional_extensionality_dep`
* `KdTreeProps.v`: `C09_nearest_partial`, `C09_insertion_partial`, `C09_insertion_outcome`, `C09_untold_merge_refuted`, `C09_same_configuration_refuted`, `C09_clear_refuted`, `C09_extra_coordinates_refuted` — `ClassicalDedekindReals.sig_forall_dec`, `FunctionalExtensionality.functional_extensionality_dep`
* `KdTreeProps.v`: `C09_line_joints_partial`, `C09_translation_weight_refuted` — `ClassicalDedekindReals.sig_not_dec`, `ClassicalDedekindReals.sig_forall_dec`, `FunctionalExtensionality.functional_extensionality_dep`
* `KinoProps.v`: `C43_extract_keeps_motion`, `C43_path_is_a_motion`, `C43_oriented_extract_partial`, `C43_rest_at_end_refuted`, `C43_oriented_empty_refuted`, `C44_smallest_feasible_duration` — `ClassicalDedekindReals.sig_forall_dec`, `FunctionalExtensionality.functional_extensionality_dep`
* `KinoTimeProps.v`: `C60_minimal_duration`, `C61_fixed_duration_partial`, `C61_constant_velocity_refuted`, `C61_return_refuted`, `C61_vertical_refuted`, `C62_steering_partial`, `C63_distance_partial`, `C63_lower_bound_partial`, `C63_triangle_partial`, `C63_not_symmetric`, `C63_backwards_refuted` — `ClassicalDedekindReals.sig_not_dec`, `ClassicalDedekindReals.sig_forall_dec`, `FunctionalExtensionality.functional_extensionality_dep`
* `KinoVelProps.v`: `C89_other_joints`, `C89_bound_refuted`, `C89_derivative_refuted`, `C89_orders` — `ClassicalDedekindReals.sig_forall_dec`, `FunctionalExtensionality.functional_extensionality_dep`
* `KinoVelProps.v`: `C89_constant_partial` — `ClassicalDedekindReals.sig_not_dec`, `ClassicalDedekindReals.sig_forall_dec`, `FunctionalExtensionality.functional_extensionality_dep`
* `KprmProps.v`: `C27_single_node_refuted`, `number_neighbors_pos` — `ClassicalDedekindReals.sig_not_dec`, `ClassicalDedekindReals.sig_forall_dec`, `FunctionalExtensionality.functional_extensionality_dep`, `Classical_Prop.classic`
* `LinConsProps.v`: `C67_solution_set`, `C67_least_norm`, `C67_feasibility_partial`, `C67_reduction`, `C67_full_rank_partial`, `C67_feasibility_refuted`, `C67_rank_refuted`, `C67_added_row_refuted`, `C67_full_rank_refuted`, `C68_reduced_cost_partial`, `C68_minimum_partial`, `C68_linear_term_refuted`, `C68_solve`, `C68_over_constrained_refuted`, `C68_unsolved_refuted` — `ClassicalDedekindReals.sig_forall_dec`, `FunctionalExtensionality.functional_extensionality_dep`
* `LinConsProps.v`: `C67_concatenation`, `C67_added_row` — `ClassicalDedekindReals.sig_forall_dec`
* `OrientProps.v`: `C90_faces`, `C90_upright_partial`, `C90_still`, `C90_ends`, `C90_extract`, `C90_continuous_refuted`, `C90_setter_refuted` — `ClassicalDedekindReals.sig_not_dec`, `ClassicalDedekindReals.sig_forall_dec`, `FunctionalExtensionality.functional_extensionality_dep`
* `PartialCutProps.v`: `C31_shorter_partial` — `ClassicalDedekindReals.sig_not_dec`, `ClassicalDedekindReals.sig_forall_dec`, `FunctionalExtensionality.functional_extensionality_dep`
* `PolyProps.v`: `C41_value_is_the_piece_of_its_interval`, `C41_derivative_is_the_derivative_of_the_piece`, `C41_outside_throws`, `C41_pieces_cover_the_range`, `C58_velocity_bound_partial` — `ClassicalDedekindReals.sig_forall_dec`, `FunctionalExtensionality.functional_extensionality_dep`
* `PolyProps.v`: `C40_time_laws_respect_bounds`, `C40_always_succeeds`, `C40_extra_degrees_of_freedom_refuted`, `C58_velocity_bound_refuted`, `C59_joint_acceleration_partial`, `C59_joint_acceleration_refuted` — `ClassicalDedekindReals.sig_not_dec`, `ClassicalDedekindReals.sig_forall_dec`, `FunctionalExtensionality.functional_extensionality_dep`, `Classical_Prop.classic`
* `PolyProps.v`: `C58_fifth_order_has_no_bound` — `ClassicalDedekindReals.sig_not_dec`, `ClassicalDedekindReals.sig_forall_dec`, `FunctionalExtensionality.functional_extensionality_dep`
* `ProjInitProps.v`: `C113_made`, `C113_unconstrained`, `C113_kept` — `ClassicalDedekindReals.sig_forall_dec`, `FunctionalExtensionality.functional_extensionality_dep`
* `RSProps.v`: `C82_reaches`, `C82_exact`, `C82_other_joints`, `C82_near_refuted`, `C83_distance`, `C83_separated_refuted`, `C83_shortest_partial`, `C83_shortest_refuted` — `ClassicalDedekindReals.sig_not_dec`, `ClassicalDedekindReals.sig_forall_dec`, `FunctionalExtensionality.functional_extensionality_dep`, `Classical_Prop.classic`
* `RSTimeProps.v`: `C84_law`, `C84_distance_partial`, `C84_plateau_refuted`, `C84_target_refuted`, `C85_bound_partial`, `C86_retimed`, `C86_starts`, `C86_ends_partial`, `C86_crossings`, `C86_cusp_refuted`, `C86_crossing_refuted`, `C86_end_refuted` — `ClassicalDedekindReals.sig_not_dec`, `ClassicalDedekindReals.sig_forall_dec`, `FunctionalExtensionality.functional_extensionality_dep`
* `RSTimeProps.v`: `C85_bound_refuted`, `C85_path_refuted` — `ClassicalDedekindReals.sig_not_dec`, `ClassicalDedekindReals.sig_forall_dec`, `FunctionalExtensionality.functional_extensionality_dep`, `Classical_Prop.classic`
* `RecHermProps.v`: `C88_projects`, `C88_error`, `C88_smooth`, `C88_fails`, `C88_terminates`, `C88_succeeds`, `C88_beta`, `C88_beta_refuted`, `C88_start_refuted`, `C88_end_refuted` — `ClassicalDedekindReals.sig_not_dec`, `ClassicalDedekindReals.sig_forall_dec`, `FunctionalExtensionality.functional_extensionality_dep`
* `ShootProps.v`: `C91_uniform`, `C91_uniform_throws`, `C91_uniform_reaches`, `C91_uniform_zero`, `C91_uniform_zero_refuted`, `C91_seedable`, `C91_seedable_state`, `C91_seedable_extra_refuted`, `C91_gaussian`, `C91_gaussian_center` — `ClassicalDedekindReals.sig_forall_dec`, `FunctionalExtensionality.functional_extensionality_dep`
* `ShootProps.v`: `C91_gaussian_default_refuted`, `C91_gaussian_velocity_refuted`, `C91_deviation_partial`, `C91_deviation_refuted`, `C91_sigma`, `C91_sigma_extra_refuted` — `ClassicalDedekindReals.sig_not_dec`, `ClassicalDedekindReals.sig_forall_dec`, `FunctionalExtensionality.functional_extensionality_dep`
* `SnibudProps.v`: `C87_reaches`, `C87_other_joints`, `C87_length`, `C87_shortest_partial`, `C87_same_place_refuted` — `ClassicalDedekindReals.sig_not_dec`, `ClassicalDedekindReals.sig_forall_dec`, `FunctionalExtensionality.functional_extensionality_dep`, `Classical_Prop.classic`
* `SplineCollProps.v`: `C112_one_report_partial`, `C112_equation`, `C112_reports_partial` — `ClassicalDedekindReals.sig_forall_dec`, `FunctionalExtensionality.functional_extensionality_dep`
* `SplineCollProps.v`: `C112_stale_row_refuted` — `ClassicalDedekindReals.sig_not_dec`, `ClassicalDedekindReals.sig_forall_dec`, `FunctionalExtensionality.functional_extensionality_dep`, `Classical_Prop.classic`
* `SplineLinProps.v`: `C75_equation_partial` — `ClassicalDedekindReals.sig_forall_dec`, `FunctionalExtensionality.functional_extensionality_dep`
* `SplineGiProps.v`: `C73_bundled_optimum` — `ClassicalDedekindReals.sig_not_dec`, `ClassicalDedekindReals.sig_forall_dec`, `FunctionalExtensionality.functional_extensionality_dep`, `Classical_Prop.classic`
* `SplineGradProps.v`: `C72_safe_partial`, `C73_kept`, `C74_interrupted`, `C75_linearize_partial`, `C75_linearize_out`, `C75_linearize_refuted` — `ClassicalDedekindReals.sig_forall_dec`, `FunctionalExtensionality.functional_extensionality_dep`
* `SplineGradProps.v`: `C72_optimum_refuted`, `C73_bounds`, `C73_cost`, `C73_optimum`, `C74_terminates_partial`, `C74_null_cost`, `C74_null_cost_refuted`, `C74_alpha_one_refuted` — `ClassicalDedekindReals.sig_not_dec`, `ClassicalDedekindReals.sig_forall_dec`, `FunctionalExtensionality.functional_extensionality_dep`, `Classical_Prop.classic`
* `SplineOptProps.v`: `C69_constraint`, `C69_rows`, `C69_input_partial`, `C69_input_refuted`, `C70_constraint`, `C70_curve`, `C70_validate_partial`, `C70_one_sided_refuted`, `C71_expansion`, `C71_weights_partial`, `C71_weights_refuted`, `C71_order_refuted` — `ClassicalDedekindReals.sig_forall_dec`, `FunctionalExtensionality.functional_extensionality_dep`
* `SplineOptProps.v`: `C69_update_parameters_refuted` — `ClassicalDedekindReals.sig_forall_dec`
* `SplineOptProps.v`: `C71_cost`, `C71_energy`, `C71_interpolation` — `ClassicalDedekindReals.sig_not_dec`, `ClassicalDedekindReals.sig_forall_dec`, `FunctionalExtensionality.functional_extensionality_dep`, `Classical_Prop.classic`
* `SplineProps.v`: `C42_basis`, `C42_curve`, `C42_path_derivatives`, `C42_energy_above_degree`, `C64_max_velocity`, `C64_velocity_bound_partial`, `C64_velocity_bound_refuted`, `C65_meets_constraints_partial`, `C65_zero_distance_refuted`, `C66_parameter_derivative_partial`, `C66_zero_length_refuted`, `C66_energy_gradient` — `ClassicalDedekindReals.sig_forall_dec`, `FunctionalExtensionality.functional_extensionality_dep`
* `SplineProps.v`: `C42_energy_partial`, `C42_energy_order_0`, `C42_energy_refuted`, `C65_default_is_straight` — `ClassicalDedekindReals.sig_not_dec`, `ClassicalDedekindReals.sig_forall_dec`, `FunctionalExtensionality.functional_extensionality_dep`, `Classical_Prop.classic`
* `SteerProps.v`: `C95_straight` — `ClassicalDedekindReals.sig_forall_dec`
* `SteerProps.v`: `C95_ends`, `C95_ends_refuted`, `C95_independent`, `C95_copy`, `C95_shared_refuted` — `ClassicalDedekindReals.sig_forall_dec`, `FunctionalExtensionality.functional_extensionality_dep`
* `TopProps.v`: `C108_grid`, `C108_velocity_bound_refuted`, `C108_no_samples_refuted`, `C108_retimed_refuted` — `ClassicalDedekindReals.sig_forall_dec`, `FunctionalExtensionality.functional_extensionality_dep`
* `TopProps.v`: `C108_time_laws`, `C108_speed`, `C108_acceleration`, `C108_speed_continuous`, `C108_geometry_partial`, `C108_short`, `C108_failure`, `C108_shifted_range_refuted` — `ClassicalDedekindReals.sig_not_dec`, `ClassicalDedekindReals.sig_forall_dec`, `FunctionalExtensionality.functional_extensionality_dep`
* `VelocityProps.v`: `C50_total` — `ClassicalDedekindReals.sig_forall_dec`, `FunctionalExtensionality.functional_extensionality_dep`
* `VelocityProps.v`: `C50_obstacle_bound_partial`, `C50_ancestor_forward_partial`, `C50_ancestor_refuted`, `C50_branches_refuted` — `ClassicalDedekindReals.sig_not_dec`, `ClassicalDedekindReals.sig_forall_dec`, `FunctionalExtensionality.functional_extensionality_dep`
* `WDistProps.v`: `C45_distance_is_a_pseudometric`, `C45_distance_is_a_metric`, `C45_short_weights_refuted`, `C45_computed_weights_refuted` — `ClassicalDedekindReals.sig_not_dec`, `ClassicalDedekindReals.sig_forall_dec`, `FunctionalExtensionality.functional_extensionality_dep`
* `WDistProps.v`: `C45_computed_weights_partial` — `ClassicalDedekindReals.sig_forall_dec`, `FunctionalExtensionality.functional_extensionality_dep`
