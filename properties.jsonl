{"id": "C01", "title": "Roadmap nodes are partitioned into connected components", "statement": "After any sequence of public roadmap operations, every node returned by Roadmap::nodes() belongs to exactly one component of Roadmap::connectedComponents(), that component is the one Node::connectedComponent() returns, no component is empty, and no component in the reachability links of another is dangling or absorbed.", "quantifier": "every finite sequence of addNode / addNodeAndEdge / addNodeAndEdges / addEdge / addEdges / initNode / addGoalNode / insertPathVector / clear calls starting from an empty roadmap", "why_tests_cant": "component merging rewires three interdependent structures; a violation needs a particular history of merges that no finite test list enumerates", "anchors": ["src/roadmap.cc: Roadmap::addNode, addEdge, connect, merge, clear", "src/connected-component.cc: ConnectedComponent::merge, canReach"]}
{"id": "C02", "title": "pathExists tells the truth about the roadmap's directed edges", "statement": "Roadmap::pathExists() (and the target's reached()) returns true exactly when some goal node can be reached from the initial node by following the out-edges stored in the roadmap; ConnectedComponent::canReach between two components is true exactly when a directed edge path leads from a node of the first to a node of the second.", "quantifier": "every history of roadmap insertions and every pair of components", "why_tests_cant": "the answer is computed on the quotient graph of components; equivalence with the node graph is a property of all histories and graph shapes", "anchors": ["src/roadmap.cc: pathExists, connect", "src/connected-component.cc: canReach", "src/problem-target/goal-configurations.cc: GoalConfigurations::reached"]}
{"id": "C03", "title": "Connected components are the strongly connected components", "statement": "Two nodes are in the same connected component if and only if each can be reached from the other through directed edges of the roadmap.", "quantifier": "every history of roadmap insertions and every pair of nodes", "why_tests_cant": "incremental SCC maintenance must be right for every order of edge insertions", "anchors": ["src/roadmap.cc: Roadmap::connect, Roadmap::merge", "src/connected-component.cc: canReach(cc, set), merge"]}
{"id": "C04", "title": "Adding a configuration twice does not duplicate it", "statement": "Roadmap::addNode(q) returns the existing node when the roadmap already holds q, so no two nodes have equal configurations and the node count grows by at most one per call.", "quantifier": "every history of addNode calls and every distance that separates distinct configurations", "why_tests_cant": "depends on the nearest neighbour search returning the coincident node for every roadmap content", "anchors": ["src/roadmap.cc: Roadmap::addNode, addNodeAndEdges", "src/nearest-neighbor/basic.cc: Basic::search"]}
{"id": "C05", "title": "Merging two roadmaps preserves nodes and connectivity", "statement": "Roadmap::merge(other) keeps every node and edge already present, adds every configuration of other, and makes reachable exactly what the union of the two directed graphs makes reachable.", "quantifier": "every pair of roadmaps", "why_tests_cant": "must hold for all graph shapes including one-way edges", "anchors": ["src/roadmap.cc: Roadmap::merge(const RoadmapPtr_t&)"]}
{"id": "C06", "title": "Graph search returns a path exactly when one exists", "statement": "computePath on a roadmap returns a sequence of stored edges that starts at the initial node, is contiguous, and ends at a goal node, whenever a goal is reachable through out-edges; otherwise it throws. It always terminates.", "quantifier": "every finite roadmap, initial node, goal set, and non-negative edge lengths and heuristic values", "why_tests_cant": "completeness and termination of a best-first search over arbitrary finite graphs", "anchors": ["src/astar.hh: Astar::solution, findPath"]}
{"id": "C07", "title": "Graph search returns a shortest path", "statement": "When the distance used as heuristic is consistent with the edge lengths (it never overestimates across an edge), the returned path has minimal total length among all edge paths from the initial node to a goal node.", "quantifier": "every finite roadmap and every consistent heuristic", "why_tests_cant": "optimality over all paths of all graphs", "anchors": ["src/astar.hh: Astar::findPath, heuristic, edgeCost"]}
{"id": "C08", "title": "Exhaustive nearest-neighbour queries are exact", "statement": "nearestNode returns a node of the component (or roadmap) whose distance to the query is minimal, together with that distance; KnearestSearch returns the K nodes of smallest distance in increasing order (all nodes if fewer); withinBall returns exactly the nodes strictly inside the ball.", "quantifier": "every component content, query, distance function, K >= 1 and radius", "why_tests_cant": "exactness over all finite sets and distance functions", "anchors": ["src/nearest-neighbor/basic.cc: Basic::search, KnearestSearch, withinBall"]}
{"id": "C09", "title": "KD-tree search agrees with exhaustive search", "statement": "For a weighted Euclidean distance, the kd-tree nearest-neighbour query returns a node of the requested component at minimal distance, whatever the insertion order, bucket size and splits; it keeps agreeing after components are merged.", "quantifier": "every insertion history, bucket size, query and component", "why_tests_cant": "branch pruning is only correct if every box lower bound is sound for every tree shape", "anchors": ["src/nearest-neighbor/k-d-tree.cc: addNode, findLeaf, split, distanceToBox, search, merge"]}
{"id": "C10", "title": "Interval bookkeeping is exact set union", "statement": "Inserting an interval in the validated-interval set makes the set of covered parameters equal to the union of the old set and the interval, and the stored list stays sorted and disjoint; the containment queries agree with set membership.", "quantifier": "every finite sequence of interval insertions", "why_tests_cant": "case analysis on all relative positions of an interval and a list of arbitrary length", "anchors": ["src/continuous-validation/intervals.hh: Intervals::unionInterval, contains"]}
{"id": "C11", "title": "Dichotomy continuous validation never skips a parameter", "statement": "When continuous validation by dichotomy declares a path valid, every parameter of the path lies in an interval that the interval validators declared collision free; when it declares it invalid, the reported valid part is made of parameters lying in such intervals starting at the path's beginning (end, when validating in reverse).", "quantifier": "every path length, every behaviour of the interval validators", "why_tests_cant": "coverage of a continuum of parameters by finitely many checks", "anchors": ["src/continuous-validation/dichotomy.cc: Dichotomy::validateStraightPath", "src/continuous-validation/helper.hh"]}
{"id": "C12", "title": "Progressive continuous validation never skips a parameter", "statement": "When progressive continuous validation declares a path valid, every parameter up to and including the path's end was covered by a validated interval, the gap left between consecutive intervals never exceeding the tolerance step; the valid part returned on failure is a prefix of the path (suffix in reverse) ending at the last validated time.", "quantifier": "every path length, tolerance > 0 and behaviour of the interval validators", "why_tests_cant": "coverage of a continuum by an adaptive walk of unbounded length", "anchors": ["src/continuous-validation/progressive.cc: Progressive::validateStraightPath"]}
{"id": "C13", "title": "Continuous validation terminates", "statement": "If every successful interval check certifies an interval of half-length at least delta > 0 around the tested parameter, continuous validation stops after a number of checks bounded by path length divided by delta.", "quantifier": "every path length, delta > 0 and validator behaviour", "why_tests_cant": "termination for all validator behaviours", "anchors": ["src/continuous-validation/dichotomy.cc", "src/continuous-validation/progressive.cc"]}
{"id": "C14", "title": "A distance/velocity certificate excludes collisions", "statement": "If two bodies are at distance d at parameter t and their relative speed along the path is bounded by v, every parameter declared collision free by the pair's interval computation keeps the bodies at positive distance (up to the configured tolerance), including after interval refinement and caching of already validated intervals.", "quantifier": "every pair motion with bounded relative speed, every sequence of validated parameters", "why_tests_cant": "a Lipschitz argument over a continuum and over all histories of the cache", "anchors": ["src/continuous-validation/body-pair-collision.cc: BodyPairCollision::validateConfiguration, collisionFreeInterval"]}
{"id": "C15", "title": "Discretized validation checks every sample and both ends", "statement": "Discretized validation accepts a path iff the configuration checks accept every parameter start + k*step inside the range and the final end; consecutive checked parameters are at most one step apart; on failure the valid part ends at the last accepted sample; it terminates for step > 0.", "quantifier": "every range, step > 0 and configuration check", "why_tests_cant": "holds for sample counts depending on unbounded ranges", "anchors": ["src/path-validation/discretized.cc: Discretized::validate"]}
{"id": "C16", "title": "A set of path validations is a conjunction", "statement": "PathValidations::validate accepts a path iff every member accepts it, and the valid part it returns is accepted by every member (is contained in every member's valid part).", "quantifier": "every list of member validations and every path", "why_tests_cant": "quantifies over all member behaviours and list lengths", "anchors": ["src/path-validations.cc: PathValidations::validate"]}
{"id": "C17", "title": "A set of configuration validations is a conjunction", "statement": "ConfigValidations::validate accepts a configuration iff every member accepts it and otherwise reports the first failing member; joint-bound validation accepts exactly the configurations whose every bounded coordinate lies in its closed interval.", "quantifier": "every list of validators and every configuration", "why_tests_cant": "quantifies over all member behaviours and configuration sizes", "anchors": ["src/config-validations.cc: ConfigValidations::validate", "src/joint-bound-validation.cc"]}
{"id": "C18", "title": "A path vector is the concatenation of its sub-paths", "statement": "The length of a PathVector is the sum of the lengths of its sub-paths; evaluating it at t gives the value of the sub-path whose cumulative interval contains t at the corresponding local time, its initial and end configurations are those of the first and last sub-path, and rankAtParam never returns an out-of-range rank or local time.", "quantifier": "every non-empty list of sub-paths and every parameter in range", "why_tests_cant": "quantifies over lists of paths and a continuum of parameters", "anchors": ["src/path-vector.cc: PathVector::rankAtParam, appendPath, impl_compute, initial, end"]}
{"id": "C19", "title": "Concatenating and flattening path vectors preserves the trajectory", "statement": "concatenate appends exactly the other vector's trajectory, and flatten yields a vector without nested vectors having the same length and the same value at every parameter.", "quantifier": "every nesting depth and every list of paths", "why_tests_cant": "induction over arbitrarily nested structures", "anchors": ["src/path-vector.cc: PathVector::concatenate, flatten"]}
{"id": "C20", "title": "Extracting a sub-path reproduces the original", "statement": "path->extract(a,b) with a <= b has length b-a and its value at local time t equals the original path's value at a+t, for straight paths, interpolated paths, path vectors and generic extracted paths, with or without time parameterization.", "quantifier": "every path, every sub-interval of its range and every local parameter", "why_tests_cant": "continuum of parameters, nested extraction", "anchors": ["src/path.cc: Path::extract", "include/hpp/core/path.hh", "include/hpp/core/extracted-path.hh", "src/path-vector.cc: impl_extract", "src/straight-path.cc: impl_extract", "src/interpolated-path.cc: impl_extract"]}
{"id": "C21", "title": "Reversing a path plays it backwards", "statement": "path->reverse() has the same length and its value at time (range start + t) equals the original value at (range end - t); its initial configuration is the original end and conversely; reversing twice gives back the original trajectory.", "quantifier": "every path (including paths whose range does not start at 0) and every parameter", "why_tests_cant": "continuum of parameters and all ranges", "anchors": ["src/path.cc: Path::reverse", "src/extracted-path.cc", "include/hpp/core/extracted-path.hh", "src/path-vector.cc: reverse", "src/interpolated-path.cc: reverse"]}
{"id": "C22", "title": "Velocity bounds returned by paths are upper bounds", "statement": "For every path type, velocityBound(t0,t1) is, component-wise, at least the absolute derivative of the path at every parameter between t0 and t1.", "quantifier": "every path and every sub-interval of its range", "why_tests_cant": "an inequality over a continuum; safety of continuous collision checking relies on it", "anchors": ["src/straight-path.cc: impl_velocityBound", "src/interpolated-path.cc: impl_velocityBound", "src/path-vector.cc: impl_velocityBound", "src/path/spline.cc: impl_velocityBound, bound, absBound"]}
{"id": "C23", "title": "Interpolated paths pass through their waypoints and are piecewise linear", "statement": "An InterpolatedPath evaluates to the inserted configuration at every inserted parameter and to the linear interpolation of the two surrounding waypoints elsewhere; initial() and end() are the first and last waypoints.", "quantifier": "every set of waypoints and every parameter", "why_tests_cant": "continuum of parameters and arbitrary waypoint lists", "anchors": ["src/interpolated-path.cc: impl_compute, insert, impl_extract, reverse"]}
{"id": "C24", "title": "Straight paths interpolate their ends", "statement": "StraightPath evaluates to its initial configuration at range start, its end at range end, and moves at constant velocity (end-initial)/length in between; extraction and reversal give straight paths between the evaluated ends.", "quantifier": "every pair of end configurations, every range", "why_tests_cant": "continuum of parameters", "anchors": ["src/straight-path.cc: impl_compute, impl_extract, impl_derivative"]}
{"id": "C25", "title": "The planning loop respects its limits", "statement": "PathPlanner::solve performs at most maxIterations steps when a limit is set, returns only once the problem is solved (or, when not stopping at the first solution, when a limit is hit), throws when a limit is hit unsolved or on interruption, and the accepted settings never allow an endless run with stopWhenProblemIsSolved disabled.", "quantifier": "every step behaviour, every sequence of setter calls, clock and interruption schedule", "why_tests_cant": "quantifies over all planner behaviours, clocks and schedules", "anchors": ["src/path-planner.cc: PathPlanner::solve, maxIterations, timeOut, stopWhenProblemIsSolved, interrupt"]}
{"id": "C26", "title": "Every edge a planner adds was validated and fits its end nodes", "statement": "Every edge that the RRT, bidirectional RRT and PRM planners put in the roadmap carries a path accepted by the path validation (or its reverse) whose initial and final configurations are those of its end nodes; so any solution is a chain of validated paths from the initial to a goal configuration.", "quantifier": "every sequence of random samples and every behaviour of steering, projection and validation", "why_tests_cant": "quantifies over all random samples and oracle behaviours, over unboundedly many steps", "anchors": ["src/diffusing-planner.cc: DiffusingPlanner::oneStep", "src/bi-rrt-planner.cc: BiRRTPlanner::oneStep", "src/path-planner.cc: tryConnectInitAndGoals"]}
{"id": "C27", "title": "kPRM* runs its phases in order and stops", "statement": "The kPRM* planner builds at most the configured number of nodes, then links every node to its nearest neighbours, then connects initial and goal configurations, and then stops: it never performs more than a bounded number of steps, fails explicitly when sampling keeps failing, and each linking step handles one node exactly once.", "quantifier": "every sampling and validation outcome sequence, every node count", "why_tests_cant": "a state machine over unboundedly many steps and outcomes", "anchors": ["src/path-planner/k-prm-star.cc: kPrmStar::oneStep, generateRandomConfig, linkNodes, connectInitAndGoal"]}
{"id": "C28", "title": "BiRRT* parent maps stay trees with shortest costs", "statement": "The parent map of each tree always encodes paths back to its root without cycles; rewiring never increases any node's cost to root; the map recomputed from a roadmap gives every reachable node its minimal path length from the root.", "quantifier": "every sequence of extensions and every roadmap with non-negative lengths", "why_tests_cant": "acyclicity and optimality over all histories", "anchors": ["src/path-planner/bi-rrt-star.cc: BiRrtStar::extend, computeCost, setParent, computeParentMap"]}
{"id": "C29", "title": "Random shortcut never lengthens a path", "statement": "RandomShortcut::optimize returns a path with the same end configurations whose length (sum of distances) is not greater than the input's, made only of pieces of the input and of validated shortcuts; it returns the input when nothing improves.", "quantifier": "every input path, random draw sequence and oracle behaviour", "why_tests_cant": "quantifies over random draws and unbounded loop counts", "anchors": ["src/path-optimization/random-shortcut.cc: RandomShortcut::optimize"]}
{"id": "C30", "title": "Simple shortcut never lengthens a path", "statement": "SimpleShortcut::optimize returns a path between the same configurations whose length is at most the input length, all of whose pieces are input pieces or validated shortcuts between waypoints.", "quantifier": "every list of waypoints and validation outcome", "why_tests_cant": "quantifies over waypoint lists and oracle behaviours", "anchors": ["src/path-optimization/simple-shortcut.cc: SimpleShortcut::optimize"]}
{"id": "C31", "title": "Partial shortcut never lengthens a path", "statement": "PartialShortcut::optimize returns a path with the same ends that is not longer than the input.", "quantifier": "every input path, random draws and oracle behaviours", "why_tests_cant": "quantifies over random draws and unbounded loop counts", "anchors": ["src/path-optimization/partial-shortcut.cc: PartialShortcut::optimize, optimizeRandom"]}
{"id": "C32", "title": "Named containers behave as finite maps", "statement": "Container add/erase/has/get/clear/getKeys/getAllAs behave as a finite map from names to values: the latest added value is returned, get on an absent key throws or returns the given default, keys are listed once in order.", "quantifier": "every sequence of container operations", "why_tests_cant": "all operation histories", "anchors": ["include/hpp/core/container.hh: Container"]}
{"id": "C33", "title": "Problem parameters are type safe", "statement": "Problem::setParameter accepts a value only for a declared name and only of the declared type, and leaves the parameters unchanged when it throws; getParameter then returns a value of the declared type, the last one set or else the declared default.", "quantifier": "every sequence of declareParameter / setParameter / getParameter calls", "why_tests_cant": "all operation histories", "anchors": ["src/problem.cc: declareParameter, setParameter, parameterDescription", "include/hpp/core/problem.hh: getParameter", "src/parameter.cc: Parameter, ParameterDescription::defaultValue"]}
{"id": "C34", "title": "Relative motion matrix is exact", "statement": "After processing a list of constraints, two joints are marked Constrained iff a chain of fully constraining constraints with constant right hand side links them, Parameterized iff only chains containing a parameterized constraint do, and Unconstrained otherwise; the matrix is symmetric. Hence a collision pair is disabled only when its relative pose really is fixed.", "quantifier": "every list of constraints in any order, every number of joints", "why_tests_cant": "transitive closure maintained incrementally must be right for all graphs and orders", "anchors": ["src/relative-motion.cc: RelativeMotion::matrix, fromConstraint, recurseSetRelMotion"]}
{"id": "C35", "title": "No collision pair is lost by filtering", "statement": "After any sequence of adding obstacles, filtering by relative motion and setting margins, every pair ever added is in exactly one of the active, parameterized and disabled lists with its own request; filtering moves exactly the pairs whose motion type requires it; margins set from a matrix apply to every pair; removing an obstacle from a joint removes all and only the active pairs between that joint and the obstacle.", "quantifier": "every history of obstacle-user operations", "why_tests_cant": "parallel vectors must stay aligned over all histories", "anchors": ["src/obstacle-user.cc: addObstacle, removeObstacleFromJoint, filterCollisionPairs, setSecurityMargins, setSecurityMarginBetweenBodies"]}
{"id": "C36", "title": "A constraint set holds one projector and is a conjunction", "statement": "A ConstraintSet always exposes a projector for its (un)compress operations, configProjector() is null until one is added and is then the added one, adding a second one throws and leaves the set unchanged; apply succeeds only if every member succeeds and isSatisfied is the conjunction of the members.", "quantifier": "every history of addConstraint calls", "why_tests_cant": "index bookkeeping over all histories", "anchors": ["src/constraint-set.cc: addConstraint, configProjector, isSatisfied, impl_compute, _configProj"]}
{"id": "C37", "title": "Dichotomy path projection yields a connected chain on the constraint", "statement": "When the dichotomy projector succeeds, the result is a contiguous chain from the input's initial to its end configuration whose junctions all satisfy the constraints and whose pieces are all shorter than the maximal length; when it fails, what it returns is a contiguous chain starting at the input's initial configuration.", "quantifier": "every path, constraint and distance behaviour, any recursion depth", "why_tests_cant": "unbounded bisection with arbitrary projections", "anchors": ["src/path-projector/dichotomy.cc: applyToStraightPath, impl_apply"]}
{"id": "C38", "title": "Progressive path projection yields close waypoints on the constraint", "statement": "When the progressive projector succeeds, the result starts and ends at the input's ends, all its waypoints satisfy the constraints and consecutive waypoints are no further apart than the step; it stops after a bounded number of splits.", "quantifier": "every path, constraint and distance behaviour", "why_tests_cant": "unbounded adaptive walk with arbitrary projections", "anchors": ["src/path-projector/progressive.cc: Progressive::project, impl_apply"]}
{"id": "C39", "title": "Projecting a path vector keeps it contiguous", "statement": "The projection of a path vector is the concatenation of the projections of its sub-paths up to and including the (partial) projection of the first one that fails; it is contiguous when the sub-projections are.", "quantifier": "every list of sub-paths and every outcome of the sub-projections", "why_tests_cant": "quantifies over all lists and oracle outcomes", "anchors": ["src/path-projector/dichotomy.cc: impl_apply", "src/path-projector/progressive.cc: impl_apply", "src/path-projector/global.cc: impl_apply"]}
{"id": "C40", "title": "Polynomial time parameterization respects the velocity bound", "statement": "The time laws computed for orders 0, 1 and 2 map [0,T] increasingly onto the parameter range, start and end at the right parameters with zero derivatives of the requested orders, and never exceed the velocity bound B (nor the acceleration bound when given).", "quantifier": "every range and every bound > 0, every time in [0,T]", "why_tests_cant": "an inequality over a continuum", "anchors": ["src/path-optimization/simple-time-parameterization.cc: computeTimeParameterization*"]}
{"id": "C41", "title": "Piecewise polynomial time laws evaluate the right piece", "statement": "PiecewisePolynomial evaluates, at each t between the first and last breakpoints, the polynomial of the interval containing t (the last one at the final breakpoint), relative to the interval start when so configured, throws outside, and derivative(t,k) is the k-th derivative of that piece.", "quantifier": "every number of pieces, coefficients and t", "why_tests_cant": "continuum of parameters and arbitrary breakpoint lists", "anchors": ["include/hpp/core/time-parameterization/piecewise-polynomial.hh: val, Jac, findPolynomialIndex", "include/hpp/core/time-parameterization/polynomial.hh"]}
{"id": "C42", "title": "Spline basis functions, derivatives and energy are those of the mathematical basis", "statement": "The Bernstein basis functions sum to one and interpolate the end control points; the coded k-th derivatives are the derivatives of the basis; squaredNormIntegral(k) is the integral over the range of the squared norm of the k-th derivative.", "quantifier": "every degree, control point matrix and parameter", "why_tests_cant": "polynomial identities over all coefficients", "anchors": ["src/path/spline.cc: spline_basis_function::derivative, integral, squaredNormIntegral", "include/hpp/core/path/math.hh: binomials"]}
{"id": "C43", "title": "Extracting a kinodynamic path keeps the motion law", "statement": "Extracting [a,b] from a KinodynamicPath yields phases whose durations are non-negative and sum to b-a and whose position and velocity at local time t equal the original's at a+t.", "quantifier": "every admissible phase durations, accelerations and sub-interval", "why_tests_cant": "case analysis over all relative positions of a, b and the switching times", "anchors": ["src/kinodynamic-path.cc: impl_compute, impl_extract"]}
{"id": "C44", "title": "The synchronised kinodynamic duration is feasible and minimal", "statement": "computeMaxRequiredTime returns the smallest duration that is at least Tmax and lies outside the interior of every infeasible interval, and it always terminates.", "quantifier": "every list of intervals and Tmax", "why_tests_cant": "termination and minimality over all interval lists", "anchors": ["src/steering-method/steering-kinodynamic.cc: computeMaxRequiredTime"]}
{"id": "C45", "title": "The weighted configuration distance is a metric", "statement": "WeighedDistance is symmetric, non-negative, zero between equal configurations, positive between different ones when all weights are non-zero, and satisfies the triangle inequality, on vector configuration spaces; setting weights of a wrong size or rank throws and changes nothing.", "quantifier": "every configuration triple, dimension and weight vector", "why_tests_cant": "inequalities over all real vectors", "anchors": ["src/weighed-distance.cc: impl_distance, weights, setWeight"]}
{"id": "C46", "title": "Obstacle and margin edits reach every interval validator", "statement": "ContinuousValidation::removeObstacleFromJoint, filterCollisionPairs and setSecurityMarginBetweenBodies terminate, remove or update all and only the matching pairs, drop validators left without pairs, and report when nothing matched.", "quantifier": "every set of pairs and every edit sequence", "why_tests_cant": "iteration with in-place erasure over lists of any length", "anchors": ["src/continuous-validation.cc: removeObstacleFromJoint, filterCollisionPairs, setSecurityMarginBetweenBodies", "src/continuous-validation/solid-solid-collision.cc: removeObjectTo_b"]}
{"id": "C47", "title": "Validating a path vector validates its sub-paths in order", "statement": "ContinuousValidation::validate on a path vector accepts iff every sub-path is accepted, and the valid part is the concatenation of the accepted leading (trailing, in reverse) sub-paths and of the valid part of the first rejected one.", "quantifier": "every list of sub-paths, direction and sub-path outcome", "why_tests_cant": "quantifies over list lengths and outcomes, both directions", "anchors": ["src/continuous-validation.cc: ContinuousValidation::validate"]}
{"id": "C48", "title": "checkProblem accepts exactly the well-posed problems", "statement": "Problem::checkProblem returns normally iff there is a robot, an initial configuration that passes the configuration validations and the constraints, and all goal configurations do too; otherwise it throws.", "quantifier": "every problem content", "why_tests_cant": "quantifies over all goal lists and oracle behaviours", "anchors": ["src/problem.cc: Problem::checkProblem"]}
{"id": "C49", "title": "Goal handling of problem targets", "statement": "GoalConfigurations::reached is true iff a goal is reachable, an empty solution is replaced by a zero-length path at the initial configuration, and TaskTarget leaves no temporary goal behind after computePath; resetting goals leaves none.", "quantifier": "every roadmap and goal list", "why_tests_cant": "quantifies over roadmaps and histories", "anchors": ["src/problem-target/goal-configurations.cc", "src/problem-target/task-target.cc", "src/roadmap.cc: resetGoalNodes, addGoalNode"]}
{"id": "C50", "title": "Relative velocity bounds used by continuous validation are upper bounds", "statement": "For a pair of bodies (or a body and obstacles), the value returned by SolidSolidCollision::computeMaximalVelocity bounds the relative speed of every point of the first body, for every motion of the joints compatible with the velocity bounds given; the sequence of joints it is computed from joins the two bodies in the kinematic tree.", "quantifier": "every kinematic tree, pair of joints, configuration, joint velocities and point of the body", "why_tests_cant": "quantifies over kinematic trees and continuous motions; an underestimate shows only as a missed collision", "anchors": ["src/continuous-validation/solid-solid-collision.cc: computeSequenceOfJoints, computeCoefficients, setCoefficients, computeMaximalVelocity"]}
{"id": "C51", "title": "Collision validation of a configuration tests every enabled pair", "statement": "CollisionValidation::validate accepts a configuration iff no active pair, and when parameterized pairs are checked no parameterized pair, collides under its own request; a refusal always reports colliding pairs, and with computeAllContacts the report contains all the colliding pairs.", "quantifier": "every history of obstacle operations, every geometric test and both options", "why_tests_cant": "quantifies over histories and geometric outcomes; a skipped pair shows only as an accepted colliding configuration", "anchors": ["src/collision-validation.cc: CollisionValidation::validate", "src/obstacle-user.cc: ObstacleUser::collide"]}
{"id": "C52", "title": "A copied problem is a problem with the same data", "statement": "Problem::createCopy returns a problem with the initial configuration, goals, constraints, steering method, validations, obstacles, projector and parameters of the original, and later changes of the copy do not change the original.", "quantifier": "every problem reachable by public calls", "why_tests_cant": "a lost or shared member shows only in later calls, on problems where this member was set", "anchors": ["src/problem.cc: Problem::createCopy, Problem::Problem(const Problem&)"]}
{"id": "C53", "title": "The validations of a problem know its obstacles", "statement": "After addObstacle or collisionObstacles(list), the path validation and all the configuration validations of the problem which use obstacles have been given each obstacle of the problem, and nothing else.", "quantifier": "every history of obstacle and validation changes", "why_tests_cant": "quantifies over histories; a validation which misses an obstacle shows only as an accepted colliding path", "anchors": ["src/problem.cc: addObstacle, collisionObstacles, pathValidation, addConfigValidation"]}
{"id": "C54", "title": "A parameter owns its value", "statement": "Whatever Parameter objects are constructed, copied, assigned (to themselves too) and destroyed, each reads as the value it was last given, independently of its copies; no value is freed twice, read after having been freed, or leaked.", "quantifier": "every sequence of constructions, copies, assignments and destructions", "why_tests_cant": "quantifies over sequences of special member calls; memory errors may stay silent", "anchors": ["src/parameter.cc: Parameter constructors, operator=, copyValue, deleteValue", "include/hpp/core/parameter.hh: Parameter"]}
{"id": "C55", "title": "Obstacles of the solver by name", "statement": "ProblemSolver::addObstacle and removeObstacle keep a registry of named obstacles: obstacleNames lists the collision (distance) obstacles added with that flag and not removed, each once, and the validations of the problem of the solver test all and only the registered collision obstacles, whatever the validation types, resets and reinitializations in between.", "quantifier": "every history of robot, addObstacle, removeObstacle, validation type changes and resets", "why_tests_cant": "indices are renumbered at each removal and validations rebuilt at each reset; the property ranges over all interleavings", "anchors": ["src/problem-solver.cc: addObstacle, removeObstacle, obstacleNames, resetProblem, initializeProblem, initValidations, addConfigValidation, clearConfigValidations, pathValidationType, robot"]}
{"id": "C56", "title": "The steering method uses the constraints of the problem", "statement": "Whenever a problem has constraints, its steering method has the same constraints, in whatever order constraints and steering method have been set.", "quantifier": "every history of problem creations, copies and setters", "why_tests_cant": "quantifies over the order of the calls", "anchors": ["src/problem.cc: Problem::constraints, Problem::steeringMethod, Problem::createCopy"]}
{"id": "C57", "title": "Planners project every path they insert", "statement": "When the problem has a path projector, every path that a planner inserts in the roadmap is an output of this projector, or the beginning, valid part or reverse of such an output.", "quantifier": "every sequence of random samples and every behaviour of steering, projection and validation", "why_tests_cant": "quantifies over all random samples and oracle behaviours, over unboundedly many steps", "anchors": ["src/path-planner.cc: tryConnectInitAndGoals", "src/diffusing-planner.cc: DiffusingPlanner::extend, oneStep", "src/bi-rrt-planner.cc: BiRRTPlanner::oneStep", "src/visibility-prm-planner.cc: VisibilityPrmPlanner::oneStep, visibleFromCC"]}
{"id": "C58", "title": "The velocity bound of a time-parameterized path is an upper bound", "statement": "For a path with a polynomial time parameterization (in particular those set by SimpleTimeParameterization), velocityBound on a time interval bounds the velocity of the path at every time of the interval.", "quantifier": "every polynomial time law, every curve with a bounded derivative, every time interval", "why_tests_cant": "a wrong bound only shows as an undetected collision for particular curves and intervals", "anchors": ["include/hpp/core/time-parameterization/polynomial.hh: derivativeBound", "include/hpp/core/path.hh: Path::velocityBound"]}
{"id": "C59", "title": "SimpleTimeParameterization respects the maximal acceleration of each degree of freedom", "statement": "With order 2 and a positive parameter SimpleTimeParameterization/maxAcceleration, the acceleration of each degree of freedom along the returned path is at most this value.", "quantifier": "every path, limit and duration", "why_tests_cant": "quantifies over all times of all paths", "anchors": ["src/path-optimization/simple-time-parameterization.cc: computeTimeParameterizationFifthOrder, optimize, parameter declaration"]}
{"id": "C60", "title": "The least duration of a kinodynamic axis is exact", "statement": "For two states of an axis within the velocity limit, the duration computed by the kinodynamic steering method is the least duration of a motion with bounded velocity and acceleration, and the interval returned with it contains exactly the longer durations for which there is no such motion.", "quantifier": "every pair of states, velocity and acceleration limits", "why_tests_cant": "quantifies over all motions of an axis and all durations", "anchors": ["src/steering-method/steering-kinodynamic.cc: computeMinTime"]}
{"id": "C61", "title": "A kinodynamic trajectory of given duration is a motion within the limits", "statement": "For every duration for which a motion exists, the phases computed for this duration are a motion between the two states, with velocity and acceleration within the limits.", "quantifier": "every pair of states, limits and feasible duration", "why_tests_cant": "all durations and states, including the degenerate ones of the quadratic equations", "anchors": ["src/steering-method/steering-kinodynamic.cc: fixedTimeTrajectory"]}
{"id": "C62", "title": "Kinodynamic steering synchronises the axes at the least common duration", "statement": "The path returned by the kinodynamic steering method joins the two configurations, lasts the least duration for which every translation axis has a motion within the limits, and each of its axes is such a motion.", "quantifier": "every pair of configurations, any number of axes", "why_tests_cant": "minimality over all durations and all motions", "anchors": ["src/steering-method/steering-kinodynamic.cc: impl_compute, computeMinTime, computeMaxRequiredTime, fixedTimeTrajectory"]}
{"id": "C63", "title": "The kinodynamic distance bounds the duration of paths from below", "statement": "The kinodynamic distance is the greatest of the least durations of the axes; it is never greater than the duration of a path between the two configurations and satisfies the triangle inequality.", "quantifier": "every configurations, limits", "why_tests_cant": "quantifies over all motions and all triples of configurations", "anchors": ["src/kinodynamic-distance.cc: computeMinTime, impl_distance"]}
{"id": "C64", "title": "Velocity bounds of splines are upper bounds", "statement": "For a spline, velocityBound on an interval and maxVelocity are, for each degree of freedom, at least the absolute velocity at every parameter of the interval.", "quantifier": "every control point matrix, sub-interval and parameter", "why_tests_cant": "an inequality over a continuum of parameters; a wrong bound only shows as an undetected collision", "anchors": ["src/path/spline.cc: bound, absBound, absDerBounds, impl_velocityBound, maxVelocity"]}
{"id": "C65", "title": "The spline steering method meets its boundary conditions", "statement": "The path returned starts at the first configuration and ends at the second one with the derivatives required at both ends; without derivatives it follows the straight segment between them, forwards.", "quantifier": "every configurations, derivatives and duration", "why_tests_cant": "solutions of a linear system for all right hand sides", "anchors": ["src/steering-method/spline.cc: impl_compute, steer"]}
{"id": "C66", "title": "Derivatives of a spline with respect to its control points are exact", "statement": "parameterDerivativeCoefficients gives the variation of the configuration with the control points, parameterIntegrate adds the variation to the control points, and squaredNormIntegralDerivative is the gradient of squaredNormIntegral.", "quantifier": "every spline, parameter and variation", "why_tests_cant": "first order expansions for all directions", "anchors": ["src/path/spline.cc: impl_paramDerivative, impl_paramIntegrate, squaredNormIntegralDerivative"]}
{"id": "C67", "title": "Linear constraints are decomposed and reduced without losing or adding solutions", "statement": "After LinearConstraint::decompose, the vectors PK v + xStar are exactly the solutions of J x = b, xStar is the one of least norm, and the return value tells whether there is a solution; reduceConstraint gives a constraint on v equivalent to the original one on PK v + xStar, and its return value tells whether any right hand side can be met; concatenate and addRows add equations.", "quantifier": "every matrix, right hand side, rank and number of rows", "why_tests_cant": "ranges over all matrices including rank deficient and infeasible ones", "anchors": ["include/hpp/core/path-optimization/linear-constraint.hh: LinearConstraint", "src/path-optimization/linear-constraint.cc: decompose"]}
{"id": "C68", "title": "Quadratic programs are minimised over their constraint", "statement": "Reducing a QuadraticProgram to the solutions of a linear constraint keeps its cost up to a constant; solving the reduced program and mapping the result back gives a solution of the constraint of minimal cost; solve with inequalities stores the solution and its cost, or reports an infinite cost.", "quantifier": "every symmetric positive semi-definite cost, every constraint, every outcome of the solver", "why_tests_cant": "optimality is a statement on all the vectors of the feasible set", "anchors": ["include/hpp/core/path-optimization/quadratic-program.hh: QuadraticProgram", "src/path-optimization/quadratic-program.cc: solve, computeLLT, decompose"]}
{"id": "C69", "title": "Spline optimisation constrains the path to keep its ends and to be smooth", "statement": "The linear constraint built by SplineGradientBased is satisfied exactly by the control points of the splines that start and end where the input does, are joined like the input ones, have equal derivatives where they meet up to the order of the degree, null ones at the ends, and leave the passive degrees of freedom unchanged; the input satisfies it.", "quantifier": "every number of splines, degree, number of dofs, set of active dofs, vector of control points", "why_tests_cant": "an equivalence on all the vectors of control points", "anchors": ["src/path-optimization/spline-gradient-based-abstract.cc: addContinuityConstraints, updateSplines, updateParameters", "src/path-optimization/spline-gradient-based.cc: addProblemConstraints, addProblemConstraintOnPath"]}
{"id": "C70", "title": "Spline optimisation keeps the joints within their bounds", "statement": "The inequalities of jointBoundConstraint are satisfied exactly when every control point is within the bounds of the joints, and then the joints are within their bounds all along the splines; validateBounds returns the violated rows, one per coordinate.", "quantifier": "every set of joints, bounds finite or not, number of splines and coefficients", "why_tests_cant": "holds at every time of every curve", "anchors": ["src/path-optimization/spline-gradient-based-abstract.cc: jointBoundConstraint, validateBounds", "src/path-optimization/spline-gradient-based/joint-bounds.hh: JointBoundStep"]}
{"id": "C71", "title": "The cost of spline optimisation is the weighted energy of the splines", "statement": "The quadratic cost minimised is the sum over the splines of the weighted integral of the squared derivative; its gradient and Hessian are exact, it is convex, and the weights are positive and bound each initial cost.", "quantifier": "every spline sequence, order of derivation, weights and direction", "why_tests_cant": "derivatives and convexity range over all directions", "anchors": ["src/path-optimization/spline-gradient-based/cost.hh: L2NormSquaredOfDerivative"]}
{"id": "C72", "title": "Spline optimisation never returns an invalid path", "statement": "The path returned by SplineGradientBased::optimize is the input path, or a path all of whose splines were accepted by the path validation.", "quantifier": "every input, path validation, collision functions, solver, parameters and interruption", "why_tests_cant": "the result depends on the whole history of the loop, for every behaviour of the oracles", "anchors": ["src/path-optimization/spline-gradient-based.cc: SplineGradientBased::optimize", "src/path-optimization/spline-gradient-based-abstract.cc: validatePath"]}
{"id": "C73", "title": "Spline optimisation keeps the ends, the continuity and the joint bounds, and does not increase the cost", "statement": "The path returned by SplineGradientBased::optimize has the ends, the continuity and the passive dofs of the input, stays within the joint bounds if the input does, and has a cost not greater than the input; with ReturnOptimum its cost is the least under those constraints.", "quantifier": "every input that satisfies the constraints, exact solvers, any validation, any collision functions, any number of iterations", "why_tests_cant": "an invariant of a loop whose constraints and solutions change at each iteration", "anchors": ["src/path-optimization/spline-gradient-based.cc: SplineGradientBased::optimize, addCollisionConstraint, findNewConstraint"]}
{"id": "C74", "title": "Spline optimisation terminates", "statement": "SplineGradientBased::optimize ends when it is interrupted, and by itself after a bounded number of iterations.", "quantifier": "every input, validation and collision functions", "why_tests_cant": "termination of a while loop; not testable", "anchors": ["src/path-optimization/spline-gradient-based.cc: SplineGradientBased::optimize"]}
{"id": "C75", "title": "Linearisation at each step renews the collision constraints", "statement": "With LinearizeAtEachStep, every collision constraint is linearised again around the new path, at its own spline, and no other row changes.", "quantifier": "every list of collision functions, splines, parameters", "why_tests_cant": "ranges over all the lists of constraints met by the loop", "anchors": ["src/path-optimization/spline-gradient-based.cc: CollisionFunctions::linearize"]}
{"id": "C76", "title": "A constant curvature path drives a car along an arc", "statement": "A ConstantCurvature path starts at its initial configuration, moves the robot along its heading with the given curvature over the given curve length, moves the other degrees of freedom linearly to their final value, keeps the steering wheels at an angle for which they roll without slipping when their bounds allow it, and ends at its final configuration.", "quantifier": "every initial and final configuration, curvature, curve length, parameter length, set of wheels; every sub-path and reversed path", "why_tests_cant": "an equation of motion over a continuum of paths and parameters", "anchors": ["src/steering-method/constant-curvature.cc: ConstantCurvature::impl_compute, setWheelJoints, init", "include/hpp/core/steering-method/constant-curvature.hh"]}
{"id": "C77", "title": "Derivatives of a constant curvature path", "statement": "The derivative of order n returned by a ConstantCurvature path is the derivative of order n of its configuration, in the frame of the robot.", "quantifier": "every path, parameter and order", "why_tests_cant": "derivatives of every order over a continuum", "anchors": ["src/steering-method/constant-curvature.cc: ConstantCurvature::impl_derivative"]}
{"id": "C78", "title": "Velocity bound of a constant curvature path", "statement": "The velocity bound returned by a ConstantCurvature path over an interval bounds the absolute value of each component of the velocity over this interval.", "quantifier": "every path and sub-interval", "why_tests_cant": "a bound over a continuum of parameters", "anchors": ["src/steering-method/constant-curvature.cc: ConstantCurvature::impl_velocityBound, details::absCosineMax, details::absSineMax"]}
{"id": "C79", "title": "Sub-paths and reverse of a constant curvature path", "statement": "A sub-path of a ConstantCurvature path goes through the same configurations, forward or backward; its reverse goes backward through the same configurations with the opposite velocity.", "quantifier": "every path, every sub-interval in both directions, every sequence of extractions and reversals", "why_tests_cant": "equality of functions over a continuum, for every history", "anchors": ["src/steering-method/constant-curvature.cc: ConstantCurvature::impl_extract, reverse"]}
{"id": "C80", "title": "Dubins steering drives the car forward to the goal", "statement": "Steering with the Dubins method returns, for any two configurations, a path that starts at the first one, drives forward along arcs of the turning radius and straight segments, and ends at the second one (up to the wheel joints).", "quantifier": "every pair of configurations, turning radius, set of wheels, distance", "why_tests_cant": "trigonometric case analysis over a continuum of positions and headings", "anchors": ["src/steering-method/dubins.cc: Dubins::impl_compute", "src/dubins-path.cc: DubinsPath::DubinsPath, dubins_init, dubins_init_normalised", "src/dubins.cc: dubins_LSL, dubins_LSR, dubins_RSL, dubins_RSR, dubins_RLR, dubins_LRL"]}
{"id": "C81", "title": "The Dubins path is the shortest one", "statement": "The length driven along the Dubins path is the least length of a path of curvature bounded by the inverse of the turning radius driven forward between the two configurations; the length of the path is the length driven plus the distance between the other degrees of freedom.", "quantifier": "every pair of configurations, every competing path", "why_tests_cant": "a minimum over infinitely many paths", "anchors": ["src/dubins-path.cc: DubinsPath::dubins_init_normalised, dubins_init", "src/dubins.cc: dubins_words"]}
{"id": "C82", "title": "Reeds and Shepp steering drives the car to the goal", "statement": "Steering with the Reeds and Shepp method returns, for any two configurations, a path that starts at the first one, drives forward or backward along arcs of the turning radius and straight segments with the wheels steered accordingly, and ends at the second one (up to the wheel joints).", "quantifier": "every pair of configurations, turning radius, set of wheels, distance", "why_tests_cant": "eighteen kinds of words with four symmetries each, trigonometric formulas over a continuum of positions and headings", "anchors": ["src/steering-method/reeds-shepp.cc: ReedsShepp::impl_compute", "src/reeds-shepp-path.cc: reedsSheppPathOrDistance, CSC, CCC, CCCC, CCSC, CCSCC, tauOmega, mod2pi"]}
{"id": "C83", "title": "The Reeds and Shepp distance is the length of the shortest path", "statement": "The Reeds and Shepp distance between two configurations is the length of the path the steering method returns, it is at least the distance between the positions, and no path along the words of Reeds and Shepp is shorter.", "quantifier": "every pair of configurations, every competing path", "why_tests_cant": "a minimum over infinitely many paths; errors only show for some turning radii", "anchors": ["src/distance/reeds-shepp.cc: ReedsShepp::impl_distance", "src/reeds-shepp-path.cc: reedsSheppPathOrDistance, CSC, CCC, CCCC, CCSC, CCSCC, Data::rsLength"]}
{"id": "C84", "title": "The time law of one segment accelerates, cruises and brakes within its limits", "statement": "The law built for a segment starts at abscissa 0 with the initial velocity, has a continuous velocity between 0 and the maximal one, accelerations within the limits whenever braking in time is possible, covers the distance of the segment exactly and ends at the requested velocity.", "quantifier": "every distance, initial, final and maximal velocity, acceleration and deceleration", "why_tests_cant": "closed formulas over a continuum with four regimes; an error in one regime shows only for some distances", "anchors": ["src/path-optimization/reeds-shepp/piecewise-quadratic.cc: PiecewiseQuadratic::addSegments, value, derivative, findInterval"]}
{"id": "C85", "title": "The bound of the velocity of a time law holds over the interval", "statement": "The bound that a time law, and the path using it, announces for an interval of time is at least the velocity at every date of the interval. Continuous collision checking relies on it.", "quantifier": "every law built for a segment, every interval of time", "why_tests_cant": "requires a maximum over an interval for every law", "anchors": ["src/path-optimization/reeds-shepp/piecewise-quadratic.cc: PiecewiseQuadratic::derivativeBound", "include/hpp/core/path.hh: Path::velocityBound"]}
{"id": "C86", "title": "Time parameterization of a car-like path respects the limits and stops at the end", "statement": "Optimizing a path of arcs and segments returns the same segments in the same order, each driven from its beginning to its end forward in time, with linear and angular velocities within the limits; the robot starts and ends at rest, slows down to the given velocity between segments, stops where it changes direction, and its velocity is continuous.", "quantifier": "every path made of arcs and segments, every setting of the limits", "why_tests_cant": "every number of segments and every geometry; velocities at every date", "anchors": ["src/path-optimization/rs-time-parameterization.cc: RSTimeParameterization::optimize", "include/hpp/core/path.hh: Path::timeParameterization, operator()", "src/path.cc: Path::derivative"]}
{"id": "C87", "title": "Backward Dubins paths drive backward from the first configuration to the second", "statement": "Steering a car that can only move backward returns arcs and segments of the given turning radius, all driven backward, that follow each other from the first pose to the second; the other joints move proportionally to the distance driven; the path is the shortest of its family.", "quantifier": "every pair of poses, turning radius and set of wheels", "why_tests_cant": "every pair of poses in the plane, six words", "anchors": ["src/steering-method/snibud.cc: Snibud::impl_compute", "src/path-vector.cc: PathVector::reverse"]}
{"id": "C88", "title": "Projection of a path by Hermite pieces stays close to the constraints everywhere", "statement": "When the projection succeeds, the result goes from the beginning to the end of the path by curves that follow each other, and a constraint whose variations are bounded by the given bound stays below twice the error threshold all along, also between the projected configurations; velocities keep their direction at the junctions; the projection always ends; on failure the result is an initial part.", "quantifier": "every path, constraint, dimension, bound, threshold and rate", "why_tests_cant": "every parameter of the continuum between the projected configurations, every depth of recursion", "anchors": ["src/path-projector/recursive-hermite.cc: RecursiveHermite::project, recurse, create", "src/path/hermite.cc: Hermite::velocity, computeHermiteLength, projectVelocities", "include/hpp/core/path/hermite.hh: v0, v1", "include/hpp/core/steering-method/hermite.hh: impl_compute"]}
{"id": "C89", "title": "Derivatives and velocity bounds of kinodynamic paths", "statement": "The derivative of a kinodynamic path is the velocity of the motion it describes, and its velocity bound is exceeded nowhere.", "quantifier": "every kinodynamic path, degree of freedom and parameter", "why_tests_cant": "continuum of parameters and of boundary velocities", "anchors": ["src/straight-path.cc: StraightPath::impl_derivative, impl_velocityBound", "include/hpp/core/kinodynamic-path.hh: KinodynamicPath"]}
{"id": "C90", "title": "Along an oriented kinodynamic path the robot faces its velocity", "statement": "Wherever the robot moves, the orientation of its base is a unit quaternion that sends the forward axis on the direction of the velocity (of its horizontal part, if asked, the robot then staying upright); where it does not move the orientation is interpolated; the path begins and ends at its end configurations; a part of the path is the same motion with the same orientations.", "quantifier": "every velocity, path, parameter and interval", "why_tests_cant": "every direction of the sphere, every parameter", "anchors": ["src/kinodynamic-oriented-path.cc: orienteInitAndGoal, impl_compute, impl_extract", "include/hpp/core/kinodynamic-oriented-path.hh: ignoreZValue"]}
{"id": "C91", "title": "Random configurations are within the bounds of the robot", "statement": "Configuration shooters return configurations of the size of the robot within its bounds, every value of an extra variable between its bounds can be drawn, and they throw exactly when the bounds do not allow it; the Gaussian shooter draws around its center with the documented standard deviations.", "quantifier": "every robot, bounds (also infinite or inverted), random draws and parameters", "why_tests_cant": "every bound, every draw of the random generator", "anchors": ["src/configuration-shooter/uniform.cc: Uniform::impl_shoot", "include/hpp/core/configuration-shooter/uniform-tpl.hxx: UniformTpl::impl_shoot", "src/configuration-shooter/gaussian.cc: Gaussian::impl_shoot, sigma, computeSigmasAlgo", "src/problem-solver.cc: createGaussianConfigShooter, createUniformConfigShooter"]}
{"id": "C92", "title": "Turning radius, wheels and copies of car-like steering", "statement": "A car-like steering method turns the wheels named in the problem parameter, each once and in order, and refuses a name that designates no steering wheel; its turning radius is positive, through every sequence of settings; a copy of a steering method or of its distance steers and measures as the original.", "quantifier": "every text of wheel names, robot, radius, sequence of settings and pair of configurations", "why_tests_cant": "every text and robot; sequences of settings of any length", "anchors": ["src/steering-method/car-like.cc: CarLike, getWheelsFromParameter, turningRadius", "include/hpp/core/steering-method/car-like.hh: CarLike", "src/distance/reeds-shepp.cc: ReedsShepp"]}
{"id": "C93", "title": "Projecting on and optimizing under constraints", "statement": "A configuration projector leaves alone a configuration that satisfies its constraints, answers true only with a configuration that satisfies them, counts each projection once in its statistics, optimizes optional constraints without leaving the others nor changing its settings, and each setting changes what it names and nothing else, or is refused.", "quantifier": "every solver, constraint, configuration and history of calls", "why_tests_cant": "solvers are arbitrary; histories of any length", "anchors": ["src/config-projector.cc: apply, optimize, rightHandSide, errorThreshold, lineSearchType", "include/hpp/core/config-projector.hh: ConfigProjector, statistics", "src/constraint.cc: Constraint::apply"]}
{"id": "C94", "title": "Reduced vectors and matrices of a configuration projector", "statement": "Compressing keeps the free variables in order, uncompressing writes them back and changes no other variable, and each undoes the other; for vectors, for the columns of matrices, and for both rows and columns.", "quantifier": "every set of free variables, every vector and matrix size", "why_tests_cant": "sizes are unbounded", "anchors": ["src/config-projector.cc: compressVector, uncompressVector, compressMatrix, uncompressMatrix"]}
{"id": "C95", "title": "A path keeps its configurations; straight steering under constraints", "statement": "Straight steering answers a path from the first to the second configuration lasting their distance, under the constraints of the method with the right hand side of the first configuration. Once made, a path evaluates for ever to the same configurations, whatever is evaluated, steered, copied or changed in the constraints of the problem and of the steering methods; a copy evaluates as the original.", "quantifier": "every constraint set, configuration, and history of calls", "why_tests_cant": "histories of any length with shared objects", "anchors": ["src/steering-method/straight.cc: Straight::impl_compute", "src/path.cc: Path::Path, applyConstraints", "include/hpp/core/path.hh: eval", "include/hpp/core/steering-method.hh: SteeringMethod"]}
{"id": "C96", "title": "Path optimizers respect their limits and interruptions", "statement": "A monitored optimizer does an iteration only if it was not interrupted since it began, fewer iterations than the maximum were done and its time out has not elapsed; otherwise it ends. A sequence of optimizers ends, keeps what each of them keeps, and stores the successive results.", "quantifier": "every optimizer, clock, moment of interruption and sequence", "why_tests_cant": "every schedule of interruptions and clock", "anchors": ["src/path-optimizer.cc: monitorExecution, shouldStop, maxIterations, steer", "src/plan-and-optimize.cc: finishSolve", "src/problem-solver.cc: optimizePath, interrupt"]}
{"id": "C97", "title": "What is asked of the problem solver is what the problem uses", "statement": "When a problem is solved, its initial configuration, goal, steering method, shooter, validations, path projector, planner and limits are the last ones asked for, whatever the order of the calls; solving is refused exactly without robot or with two definitions of the goal; unknown names are refused without effect.", "quantifier": "every sequence of calls of the setters", "why_tests_cant": "sequences of any length", "anchors": ["src/problem-solver.cc: initProblem, initializeProblem, steeringMethodType, distanceType, pathValidationType, pathProjectorType, addConfigValidation, robot, setGoalConstraints", "include/hpp/core/problem-solver.hh: setTimeOutPathPlanning"]}
{"id": "C98", "title": "Direct paths, edges and step by step solving", "statement": "A direct path reported as a success goes from the start to the end, is valid if asked for, and is stored at the index returned; a failure is explained and stores a valid path from the start or nothing. An edge is added only between nodes at the given configurations. Solving step by step gives the path of solve.", "quantifier": "every steering method, projector, validation, roadmap and planner", "why_tests_cant": "components are arbitrary; runs of any length", "anchors": ["src/problem-solver.cc: directPath, addEdgeToRoadmap, prepareSolveStepByStep, executeOneStep, finishSolveStepByStep"]}
{"id": "C99", "title": "Projecting a path globally, without bound", "statement": "The global path projector, without bound of the Hessian: whatever it returns begins like the path and its way-points satisfy the constraints; a success ends like the path, with way-points at most a step apart and parameters equal to the distances; a path not longer than the step is given back; the call is defined and returns.", "quantifier": "every path, solver, distance, discontinuity test, number of iterations", "why_tests_cant": "loops over a list of points of unbounded length which grows and shrinks, with an arbitrary solver", "anchors": ["src/path-projector/global.cc: impl_apply, project, projectOneStep, reinterpolate, createPath, initialConfigList"]}
{"id": "C100", "title": "Projecting a path globally, with a bound of the Hessian", "statement": "With a bound of the Hessian, a success of the global path projector ends like the path and any two consecutive way-points are within the sum of the radii given by their singular values, each above the threshold; whatever is returned begins like the path, has way-points satisfying the constraints and parameters equal to the distances; the call is defined and returns.", "quantifier": "every path, solver, distance, bound and threshold", "why_tests_cant": "loops over a list of points of unbounded length, with an arbitrary solver", "anchors": ["src/path-projector/global.cc: project2, projectOneStep, reinterpolate, createPath, initialConfigList, initData"]}
{"id": "C101", "title": "Validating a configuration with a path validation", "statement": "Any path validation (dichotomy, progressive, discretized, none, or nested sets of them) accepts a configuration exactly when no pair of objects it knows collides there and all its configuration validations accept it, whatever the tolerance; it needs one evaluation, makes a report when it rejects, that of the first member which rejects, and leaves the report alone when it accepts.", "quantifier": "every tree of path validations, configuration, tolerance and incoming report", "why_tests_cant": "nested sets of unbounded size and depth; the continuous validations run their loop on a path of length 0 with infinite velocity bounds", "anchors": ["src/path-validation.cc: PathValidation::validate", "src/path-validations.cc: PathValidations::validate", "src/path-validation/discretized.cc: Discretized::validate", "src/path-validation/no-validation.hh: NoValidation::validate", "src/continuous-validation/dichotomy.cc: validateStraightPath", "src/continuous-validation/progressive.cc: validateStraightPath"]}
{"id": "C102", "title": "A sub-chain path plays the selected coordinates", "statement": "A sub-chain path has the time range of the original path and the size of the selection; at each time its configuration is made of the selected coordinates of that of the original path, in the order of the blocks, and it fails when the original path fails; so are its ends, its copies and its time parameterizations.", "quantifier": "every path, selection of blocks and time", "why_tests_cant": "any original path and number of blocks", "anchors": ["include/hpp/core/subchain-path.hh: SubchainPath"]}
{"id": "C103", "title": "The collision constraint of spline optimisation follows the separation of the contact points", "statement": "The constraint added for a collision is built at the same fraction of the last free spline as the collision, vanishes there, and its Jacobian is the derivative of the distance between the points of the two objects which touch in the collision; updating it replaces the colliding or the free configuration according to a new collision test; objects are ordered so that the second moves.", "quantifier": "every robot kinematics, pair of objects, configurations and contact", "why_tests_cant": "derivatives along every motion, for every placement of the joints", "anchors": ["src/path-optimization/spline-gradient-based/collision-constraint.hh: CollisionFunction, updateConstraint, computeJacobian"]}
{"id": "C104", "title": "Saved paths are loaded as they were", "statement": "A path written to an archive and read again has the same class, time range, parameter range, sizes, constraints and data, and so have the paths it is made of; what follows in the archive is left. A path with a time parameterization, or with a part which has one, is refused with an exception rather than written without it.", "quantifier": "every tree of paths, of any depth, and archive", "why_tests_cant": "unbounded nesting of path vectors and extracted paths; the parameter range is not written but recomputed", "anchors": ["src/path.cc: Path::serialize", "src/straight-path.cc: serialize", "src/path-vector.cc: serialize", "src/extracted-path.cc: serialize", "src/dubins-path.cc: serialize", "src/path/spline.cc: serialize", "src/steering-method/constant-curvature.cc: serialize"]}
{"id": "C105", "title": "Saved roadmaps are loaded as they were", "statement": "A roadmap written to an archive and read again is a copy of it: same configurations, paths, distance, and same pointers between nodes, edges, components, initial and goal nodes, whatever the cycles between them; the same nodes are connected. It is refused with an exception exactly when a path cannot be saved or the nearest neighbor structure is a kd-tree.", "quantifier": "every roadmap: graphs of objects with cycles and shared pointers", "why_tests_cant": "pointer graphs of any size and shape, written depth first", "anchors": ["src/serialization.cc: Node::serialize, Edge::serialize, ConnectedComponent::serialize, Roadmap::serialize", "src/nearest-neighbor/serialization.cc: Basic::serialize"]}
{"id": "C106", "title": "Plugins are found and loaded", "statement": "A plugin with an absolute name is that file; another is the first regular file dir/hppPlugins/name over the directories of HPP_PLUGIN_DIRS, then of LD_LIBRARY_PATH, and an exception is thrown exactly when there is none. Loading throws when the library or its entry point is missing, and otherwise initializes the plugin once on the problem solver and returns its answer. Loading looks for the library as documented, and loading twice initializes once.", "quantifier": "every name, environment, file system and library", "why_tests_cant": "any number of directories and any behaviour of the dynamic loader", "anchors": ["src/plugin.cc: findPluginLibrary, loadPlugin", "include/hpp/core/plugin.hh: ProblemSolverPlugin::initialize"]}
{"id": "C107", "title": "Distances between the robot and the obstacles", "statement": "Whatever the order in which obstacles are added, singly or in lists, the pairs are all those of an inner object of the robot and of an obstacle; after a computation the results are the distances of these pairs for the present placements, in the same order, none missing and none left from before; adding obstacles leaves the results alone.", "quantifier": "every robot and sequence of calls", "why_tests_cant": "unbounded sequences of additions and computations", "anchors": ["src/distance-between-objects.cc: addObstacle, obstacles, computeDistances"]}
{"id": "C108", "title": "Time-optimal parameterization keeps the path and follows the answer of its solver", "statement": "The TOPPRA optimizer samples a path from 0 to its length, at most length / N apart, the ends of the sub-paths being samples, with at most N + number of sub-paths samples. When the solver answers with squared speeds which do not vanish at two consecutive samples, the result has the same sub-paths in the same order; each has a time law from [0, T] increasingly onto the whole length of its parameter range; at each instant the squared speed along the path is the linear interpolation of the answer, the acceleration along the path is constant between samples, the speed is continuous between sub-paths, and the durations add up to the travel time of the answer. A path shorter than 1e-6 is returned flattened; a failure of the solver is thrown. The result has the same geometry whatever the parameter ranges, its velocity can be bounded, any number of samples is handled, a path with time laws can be given, the solver is the documented one.", "quantifier": "every path, number of samples and answer of the solver", "why_tests_cant": "real-valued quantities; any number of sub-paths and samples", "anchors": ["plugins/toppra.cc: TOPPRA::optimize, timeParameterization::Extract", "include/hpp/core/time-parameterization/piecewise-polynomial.hh: PiecewisePolynomial", "include/hpp/core/path.hh: timeRange, velocityBound"]}
{"id": "C109", "title": "Searching in a roadmap returns a path of this roadmap or throws", "statement": "The planner SearchInRoadmap returns, when the edges of the roadmap lead from the initial configuration to a goal, the paths of such edges in order (the path from the configuration to itself when no edge is needed), and throws otherwise, without executing a step, whatever the limits on iterations and time. The roadmap keeps its edges, and its nodes when it holds the initial and goal configurations; otherwise nodes are added for these configurations only. The roadmap is not modified.", "quantifier": "every roadmap built through the public operations, initial and goal configurations, limits and clock", "why_tests_cant": "any roadmap history; any number of goals", "anchors": ["include/hpp/core/path-planner/search-in-roadmap.hh: SearchInRoadmap", "src/path-planner.cc: solve, startSolve, computePath"]}
{"id": "C110", "title": "The quadratic programs of the trajectory optimizer are solved", "statement": "The solver without external library, given a symmetric positive definite cost, answers after finitely many steps and accesses no array out of bounds. When it reports convergence, the point satisfies the equality and inequality constraints, has the lowest cost among the points which do, and the value returned is its cost; the active constraints reported are distinct and satisfied with equality. When it reports that there is no solution, there is none and the value is infinite. When it reports dependent equality constraints, one of them is a linear combination of the others. More equality constraints than variables are refused by an exception. A program without solution has an infinite cost, and a finite cost comes with a point which satisfies the constraints.", "quantifier": "every dimension, cost, equality and inequality constraints; every number of steps; every positive machine epsilon for the refutations", "why_tests_cant": "any sequence of additions and removals of active constraints; degenerate programs", "anchors": ["src/path-optimization/spline-gradient-based/eiquadprog_2011.hpp: solve_quadprog2, add_constraint, delete_constraint", "src/path-optimization/quadratic-program.cc: solve"]}
{"id": "C111", "title": "Sampling a path and steering by interpolated paths", "statement": "The interpolated path made from a path and a number of samples has the time range and the ends of the path, takes the value of the path at each of the times dividing the range into equal parts, and is interpolated in between (it stays at the initial configuration if the length is 0). It stays within the length of one part times the velocity of the path. If the path cannot be evaluated at a sample, or its ends do not satisfy its constraints, an exception is thrown; otherwise the sampled path is built. Under constraints its configurations are projected. The interpolated steering method returns a path from the first configuration to the second, of length their distance and subject to the constraints of the method; it returns no path exactly when an end does not satisfy the constraints.", "quantifier": "every path of any class, number of samples, constraint set, pair of configurations, distance", "why_tests_cant": "every number of samples, every trajectory and every parameter between the samples", "anchors": ["src/interpolated-path.cc: InterpolatedPath(path, device, nbSamples)", "include/hpp/core/steering-method/interpolated-steering-method.hh: steeringMethod::Interpolated", "include/hpp/core/steering-method.hh: operator()"]}
{"id": "C112", "title": "Spline optimisation minimises under the collision constraints it keeps", "statement": "When the optimizer meets collisions, each one it takes into account adds one equation, the linearisation of its collision function around the path, and the other equations are kept; the equations given to the quadratic solver have the same solutions as the collision constraints that were kept and are independent.", "quantifier": "every list of collision reports, path, decomposition of the constraints and list of previous collision constraints", "why_tests_cant": "every sequence of accepted and abandoned collision constraints", "anchors": ["src/path-optimization/spline-gradient-based.cc: addCollisionConstraint, findNewConstraint, optimize", "include/hpp/core/path-optimization/linear-constraint.hh: reduceConstraint"]}
{"id": "C113", "title": "A path projector works with a steering method of its own", "statement": "Building a path projector changes neither the steering method it is given nor any other method, constraint set or path. Unless asked to keep the constraints it steers paths without constraints, whose every point is the bare interpolation; if asked to keep them it steers under the constraints the method had when the projector was built. Nothing done later to that method or to its constraint set changes this.", "quantifier": "every history before and after the construction of the projector, steering method, configurations and parameter", "why_tests_cant": "every sequence of operations on the steering methods, constraint sets and paths around the construction", "anchors": ["src/path-projector.cc: PathProjector, steer", "include/hpp/core/steering-method.hh: SteeringMethod (copy), constraints", "src/steering-method/straight.cc: impl_compute"]}
