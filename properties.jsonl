{"id": "C01", "title": "Published waypoint schedule matches the trajectory", "statement": "In every reachable state that has a trajectory, getDynamicWaypoints() returns a list whose i-th element has index i and whose times strictly increase, the difference of consecutive times being the duration of the corresponding trajectory segment; the first time is getMinTime() and the last is getMaxTime(). In particular there is exactly one waypoint more than there are segments.", "quantifier": "every finite sequence of API calls and background-thread steps, every optimiser result (one positive-length segment per pair of vertices), every evaluation time", "why_tests_cant": "the schedule is rewritten by three different threads over arbitrary histories; a test samples a few histories", "anchors": ["src/dynamic_trajectory.cpp:computeTrajectory", "src/dynamic_trajectory.cpp:getCummulativeTime", "src/dynamic_trajectory.cpp:swapTrajectory", "src/dynamic_trajectory.cpp:swapDynamicWaypoints", "src/dynamic_trajectory.cpp:getDynamicWaypoints", "src/dynamic_trajectory.cpp:getMaxTime"]}
{"id": "C02", "title": "Background generation never hits its error paths", "statement": "Every trajectory computation started by the background thread is given at least two waypoints, each with a position constraint, so neither the 'Not enough waypoints' exception nor the empty-vector undefined behaviour nor the 'Waypoint index out of range' exception can occur, whatever was set, appended or modified before (including nothing, and including waypoints that are dropped while stitching).", "quantifier": "every history of API calls with fully specified waypoints, every interleaving with the background thread", "why_tests_cant": "the list sizes depend on the whole history and on timing", "anchors": ["src/dynamic_trajectory.cpp:todoThreadLoop", "src/dynamic_trajectory.cpp:computeTrajectory", "src/dynamic_trajectory.cpp:extractVerticesFromWaypoints", "src/dynamic_trajectory.cpp:stitchActualTrajectoryWithNewWaypoints", "src/dynamic_trajectory.cpp:appendDronePositionWaypoint"]}
{"id": "C03", "title": "Where a generated trajectory starts and ends", "statement": "Each list of vertices handed to the optimiser ends at rest (zero velocity and acceleration at the last vertex). If it is generated from scratch its first vertex is the vehicle position known at that moment with zero velocity and acceleration; if it is stitched and a non-plotting evaluation happened since the last swap, its first vertex carries position, velocity and acceleration of the reference the old trajectory gives at the last evaluated time (see C68 for the other case). A generated trajectory is stitched exactly if, when this is decided, the old one lasts for at least four more measured computation times.", "quantifier": "every reachable state in which the background thread starts a computation", "why_tests_cant": "depends on the whole preceding history of evaluations, modifications and vehicle positions", "anchors": ["src/dynamic_trajectory.cpp:todoThreadLoop", "src/dynamic_trajectory.cpp:appendDronePositionWaypoint", "src/dynamic_trajectory.cpp:stitchActualTrajectoryWithNewWaypoints", "src/dynamic_trajectory.cpp:extractVerticesFromWaypoints"]}
{"id": "C04", "title": "setWaypoints is a complete replacement", "statement": "When the background thread consumes a setWaypoints(ws) request with ws non-empty, the waypoints of the next trajectory are exactly the start point(s) followed by ws, then the waypoints appended since, in call order, with their names, each at the position of the last modification of its name since that setWaypoints (or its own position if there is none); nothing requested before the setWaypoints call survives. Exception, characterised exactly: when stitching, user waypoints that carry a positive time earlier than the end of the stitching window are dropped.", "quantifier": "every sequence of set/append/modify calls, every waypoint list", "why_tests_cant": "the queues are merged in a specific order over arbitrary call sequences", "anchors": ["src/dynamic_trajectory.cpp:setWaypoints", "src/dynamic_trajectory.cpp:appendWaypoint", "src/dynamic_trajectory.cpp:modifyWaypoint", "src/dynamic_trajectory.cpp:generateWaypointsForTheNextTrajectory", "src/dynamic_trajectory.cpp:resetWaypointThroughDeque"]}
{"id": "C05", "title": "Append and modify keep the remaining plan", "statement": "When the background thread regenerates without a setWaypoints request, the next waypoint list is: those published waypoints whose time is not before the last evaluated time, in order, then the appended ones in call order, each at its pending modified position if it has one and otherwise at its current position.", "quantifier": "every published schedule, every queue content, every last-evaluated time", "why_tests_cant": "depends on arbitrary schedules and call sequences", "anchors": ["src/dynamic_trajectory.cpp:generateWaypointsForTheNextTrajectory", "src/dynamic_trajectory.cpp:filterPassedWaypoints", "src/dynamic_trajectory.cpp:appendWaypoint"]}
{"id": "C06", "title": "Pending modifications form a last-write-wins map", "statement": "For every sequence of modifyWaypoint/modifyWaypoints calls between two consumptions, the pending modifications are a map from names to positions: no name occurs twice, a name is present iff it was passed, and its position is the last one passed.", "quantifier": "every sequence of modify calls of any length with any names and positions", "why_tests_cant": "quantifies over all call sequences", "anchors": ["src/dynamic_trajectory.cpp:modifyWaypoint", "src/dynamic_trajectory.cpp:modifyWaypoints"]}
{"id": "C07", "title": "At most one computation in flight", "statement": "The background thread never starts a trajectory computation while a previous one has not been swapped in: between two launches there is always exactly one swap, and getComputingNewTrajectoryStatus() is true exactly from launch to swap.", "quantifier": "every interleaving of client calls, background-thread steps and computation completion", "why_tests_cant": "an interleaving property", "anchors": ["src/dynamic_trajectory.cpp:todoThreadLoop", "src/dynamic_trajectory.cpp:checkIfTrajectoryCanBeGenerated", "src/dynamic_trajectory.cpp:generateTrajectory", "src/dynamic_trajectory.cpp:checkTrajectoryGenerated"]}
{"id": "C08", "title": "A generation request can be lost", "statement": "User expectation: every setWaypoints/appendWaypoint/modifyWaypoint request is eventually used for a new trajectory without any further request. The code does not guarantee it. Exactly: a request made while a computation is in flight or while the call that swaps its result in has not ended, between the moment the background thread collects the waypoints and the moment it clears the request flag, or between its finding nothing to collect and the end of that iteration, leaves its data queued but the request flag is cleared (by the call that swaps, or by the background thread), and from then on (unless the background thread had already tested the flag when it is cleared) no sequence of evaluations or background steps starts a computation until a new request is made. Every call that swaps a trajectory in clears the flag before it ends, whatever happens meanwhile.", "quantifier": "every continuation of the history without new requests", "why_tests_cant": "needs a specific interleaving and a claim about all continuations", "anchors": ["src/dynamic_trajectory.cpp:todoThreadLoop", "src/dynamic_trajectory.cpp:checkTrajectoryGenerated", "src/dynamic_trajectory.cpp:setWaypoints", "src/dynamic_trajectory.cpp:getGenerateNewTraj"]}
{"id": "C09", "title": "A request made while idle is served", "statement": "If no computation is in flight, the background thread is at the top of its loop and the vehicle is not in the security zone, then the next background step consumes the pending request: all queues are emptied and either a computation with these waypoints is launched or (nothing to generate) the request is cleared; while in the security zone the request stays pending with its data, except that pending modifications are applied to the current trajectory. The vehicle is in the security zone exactly if a named waypoint of the published plan is due within ten measured computation times.", "quantifier": "every reachable idle state with a pending request", "why_tests_cant": "quantifies over reachable states and schedules", "anchors": ["src/dynamic_trajectory.cpp:todoThreadLoop", "src/dynamic_trajectory.cpp:checkInSecurityZone", "src/dynamic_trajectory.cpp:checkIfTrajectoryCanBeGenerated"]}
{"id": "C10", "title": "modifyWaypoint with generate_new_traj=false cancels earlier requests", "statement": "User expectation: passing generate_new_traj=false to modifyWaypoint only refrains from requesting a new trajectory. The code overwrites the request flag, so a pending setWaypoints/appendWaypoint request is cancelled: its waypoints stay queued but no trajectory is generated until another request.", "quantifier": "every state with a pending request", "why_tests_cant": "requires reasoning on all continuations", "anchors": ["src/dynamic_trajectory.cpp:modifyWaypoint"]}
{"id": "C11", "title": "Modifying a pending waypoint inside the security zone is forgotten", "statement": "If setWaypoints(ws) is pending while the vehicle is in the security zone, a following modifyWaypoint(n,p) for a waypoint of ws is applied to the old trajectory's waypoints and then discarded: the later generated trajectory uses the old position of n.", "quantifier": "every state in the security zone with a pending set list", "why_tests_cant": "needs a specific interleaving of three requests with the motion of the vehicle", "anchors": ["src/dynamic_trajectory.cpp:todoThreadLoop", "src/dynamic_trajectory.cpp:applyWaypointModification", "src/dynamic_trajectory.cpp:generateWaypointsForTheNextTrajectory"]}
{"id": "C12", "title": "References never leave the trajectory's time range", "statement": "evaluateTrajectory(t) with at least one trajectory available returns, for every t (also before the start and after the end), the trajectory at t + getTimeCompensation() - getMinTime() clamped to [0, duration], plus, if t + getTimeCompensation() > 0, the sum of the compensations of the named waypoints; the out-of-range zero vector of the trajectory class is never returned, and this also holds when additions are rounded in any way.", "quantifier": "every evaluation time, every trajectory, every set of modifiers, every rounding of the accumulated times", "why_tests_cant": "all real times and all trajectories, plus rounding", "anchors": ["src/dynamic_trajectory.cpp:evaluateTrajectory", "src/dynamic_trajectory.cpp:evaluateModifiedTrajectory", "subpackages/mav_trajectory_generation/src/trajectory.cpp:evaluate"]}
{"id": "C13", "title": "Hold at the end", "statement": "If clients pass newly made waypoints: after the end of the trajectory (t + getTimeCompensation() >= getMaxTime()) and outside all modification windows the reference is constantly the original position of the last waypoint with velocity and acceleration zero, for any optimiser result that meets the vertex constraints.", "quantifier": "every t past the end, every trajectory meeting the constraints of its vertices", "why_tests_cant": "all times, all trajectories", "anchors": ["src/dynamic_trajectory.cpp:evaluateModifiedTrajectory", "src/dynamic_trajectory.cpp:extractVerticesFromWaypoints"]}
{"id": "C14", "title": "Plotting evaluations and getters do not disturb the plan", "statement": "When no finished computation is waiting, evaluateTrajectory(..., for_plotting=true), getMaxTime, getMinTime, getDynamicWaypoints, getNextTrajectoryWaypoints, getRemainingWaypoints, getSpeed and getTimeCompensation leave every later observable unchanged. When one is waiting, the first four (getMaxTime/getMinTime only if there is no trajectory yet) perform the swap.", "quantifier": "every reachable state and every argument", "why_tests_cant": "frame condition over all states", "anchors": ["src/dynamic_trajectory.cpp:evaluateTrajectory", "src/dynamic_trajectory.cpp:checkTrajectoryGenerated", "src/dynamic_trajectory.cpp:getMaxTime", "src/dynamic_trajectory.cpp:getDynamicWaypoints"]}
{"id": "C15", "title": "A swap sets the clock back", "statement": "User expectation: the last evaluated time known to the object is the time of the last non-plotting evaluation. A swap overwrites it with the value it had when the computation was launched; after a swap triggered by a plotting evaluation or by getDynamicWaypoints, waypoints that had already been passed are reported again as remaining by getNextTrajectoryWaypoints/getRemainingWaypoints until the next non-plotting evaluation.", "quantifier": "every history", "why_tests_cant": "interleaving and history dependent", "anchors": ["src/dynamic_trajectory.cpp:swapTrajectory", "include/dynamic_trajectory_generator/dynamic_trajectory.hpp:getNextTrajectoryWaypoints", "include/dynamic_trajectory_generator/dynamic_trajectory.hpp:getRemainingWaypoints"]}
{"id": "C16", "title": "Remaining waypoint count", "statement": "getRemainingWaypoints() is between 0 and the number of published waypoints and between swaps never increases as the evaluated time increases. If the published waypoints are passed or stitching points followed by user waypoints, it is the number of those user waypoints later than the last evaluated time. User expectation that only user waypoints are ever counted: false, a start point kept in the plan (C20) is counted.", "quantifier": "every reachable state and every evaluation time", "why_tests_cant": "depends on the shape of every reachable waypoint list", "anchors": ["include/dynamic_trajectory_generator/dynamic_trajectory.hpp:getRemainingWaypoints", "include/dynamic_trajectory_generator/dynamic_trajectory.hpp:getNextTrajectoryWaypoints"]}
{"id": "C17", "title": "Time compensation is the sampled nearest point", "statement": "At a swap, getTimeCompensation() becomes m - d + 0.1f where d is the time evaluated since the launch and m is, among the sample times 0, 0.1f, 0.2f, ... below three times the measured computation time, the last one minimising the distance between the new trajectory (displaced by the compensations of the waypoints published before the swap) and the vehicle position (from scratch) or the old reference (stitched). Hence 0.1f <= getTimeCompensation() + d <= 3 tc + 0.1f.", "quantifier": "every trajectory, vehicle position, computation time and history", "why_tests_cant": "an optimality claim over all samples for all trajectories", "anchors": ["src/dynamic_trajectory.cpp:timeFittingWithVehiclePosition", "src/dynamic_trajectory.cpp:swapTrajectory", "src/dynamic_trajectory.cpp:getTimeCompensation"]}
{"id": "C18", "title": "Waypoint times ignore the time compensation", "statement": "User expectation: at the time reported by a waypoint's getTime() the reference is at that waypoint. The reference passes waypoint w (unmodified trajectory meeting its vertex constraints) at w.getTime() - getTimeCompensation(), and the reference stops moving at getMaxTime() - getTimeCompensation(); right after any swap the compensation is not zero unless the fitting cancels it exactly, so the expectation fails.", "quantifier": "every published trajectory", "why_tests_cant": "a claim about all times and trajectories; the violation depends on the measured computation time", "anchors": ["src/dynamic_trajectory.cpp:evaluateTrajectory", "src/dynamic_trajectory.cpp:computeTrajectory", "src/dynamic_trajectory.cpp:timeFittingWithVehiclePosition"]}
{"id": "C19", "title": "Stitching drops waypoints that have not been passed", "statement": "User expectation: appending or modifying does not remove waypoints still to be visited. The security zone covers 10 measured computation times before the next named waypoint but stitching discards every waypoint with positive time up to 20 computation times (plus time compensation) ahead, so waypoints between the two are silently removed from the plan.", "quantifier": "every state where a waypoint lies between the two windows", "why_tests_cant": "timing dependent", "anchors": ["src/dynamic_trajectory.cpp:checkInSecurityZone", "src/dynamic_trajectory.cpp:stitchActualTrajectoryWithNewWaypoints", "include/dynamic_trajectory_generator/dynamic_trajectory.hpp:SECURITY_TIME_BEFORE_WAYPOINT"]}
{"id": "C20", "title": "A plan started at time zero returns to its start", "statement": "User expectation: a regeneration never sends the vehicle back to an inserted start point. If the first trajectory was generated before any evaluation at a positive time, its inserted start waypoint has time 0 and is neither filtered nor dropped by stitching while the last evaluated time is 0, so an append makes the next trajectory pass through the original start position again after the stitching points.", "quantifier": "every such history", "why_tests_cant": "history dependent", "anchors": ["src/dynamic_trajectory.cpp:filterPassedWaypoints", "src/dynamic_trajectory.cpp:stitchActualTrajectoryWithNewWaypoints", "src/dynamic_trajectory.cpp:appendDronePositionWaypoint"]}
{"id": "C21", "title": "Speed is a register", "statement": "getSpeed() returns the argument of the last setSpeed call (0 if none) in every reachable state, whatever launches and swaps happened in between. Every computation runs with the speed last set before it reads it, even if set after its launch.", "quantifier": "every history and interleaving", "why_tests_cant": "swaps overwrite the whole parameter block; only an invariant over all interleavings excludes a stale speed", "anchors": ["src/dynamic_trajectory.cpp:setSpeed", "src/dynamic_trajectory.cpp:getSpeed", "src/dynamic_trajectory.cpp:swapTrajectory", "src/dynamic_trajectory.cpp:todoThreadLoop"]}
{"id": "C22", "title": "Regeneration notification", "statement": "If API calls are not concurrent with each other or with the background thread, getWasTrajectoryRegenerated() returns true iff since its previous call a swap happened or a modification was applied to a published waypoint. User expectation: no notification is ever lost. False: reading and clearing the flag are two separate operations, and a notification set in between by the background thread is lost, even with a single client.", "quantifier": "every history; every interleaving", "why_tests_cant": "history and interleaving", "anchors": ["src/dynamic_trajectory.cpp:getWasTrajectoryRegenerated", "src/dynamic_trajectory.cpp:swapTrajectory", "src/dynamic_trajectory.cpp:applyWaypointModification"]}
{"id": "C23", "title": "Lock order", "statement": "Any number of threads, each executing any sequence of the API functions (one of them may end by destroying the object) together with the background thread and the computations: threads never wait for each other in a cycle (for mutexes, the end of a computation or of the background thread), and every waiting thread waits, directly or through others, for a thread that can go on, as long as computations do not throw.", "quantifier": "any number of threads, any interleaving", "why_tests_cant": "deadlocks depend on the schedule", "anchors": ["src/dynamic_trajectory.cpp", "include/dynamic_trajectory_generator/dynamic_trajectory.hpp", "include/dynamic_trajectory_generator/thread_safe_trajectory.hpp"]}
{"id": "C24", "title": "An exception in the computation wedges the object", "statement": "User expectation: after a failed computation the object stays usable. If the computation throws, the swap rethrows while holding the future mutex, which is never released: every later evaluateTrajectory, getDynamicWaypoints or background launch blocks forever.", "quantifier": "every continuation after a throwing computation", "why_tests_cant": "a claim about all continuations", "anchors": ["src/dynamic_trajectory.cpp:swapTrajectory", "src/dynamic_trajectory.cpp:checkTrajectoryGenerated", "src/dynamic_trajectory.cpp:generateTrajectory"]}
{"id": "C25", "title": "Concurrent evaluation can take one result twice", "statement": "User expectation: two threads may evaluate concurrently. Readiness of the computation is tested and its result is taken under two separate acquisitions of the mutex, so two concurrent callers can both decide to swap and the second one takes the result of an already consumed future (undefined behaviour). With one evaluating thread, and any number of threads making other calls, no thread ever waits on or takes an invalid future or unlocks a mutex it does not hold.", "quantifier": "every interleaving of two evaluating clients; every interleaving with one and any number of other clients", "why_tests_cant": "schedule dependent", "anchors": ["src/dynamic_trajectory.cpp:checkTrajectoryGenerated", "src/dynamic_trajectory.cpp:swapTrajectory"]}
{"id": "C26", "title": "generateTrajectory ignores its argument", "statement": "User expectation: the public generateTrajectory(waypoints, force) computes a trajectory through the waypoints passed. The computation reads the internal list instead; on a fresh object it is empty and the last-element access is undefined behaviour for every argument. The result of a computation it starts that does not fail is published at the next query.", "quantifier": "every argument", "why_tests_cant": "all arguments", "anchors": ["src/dynamic_trajectory.cpp:generateTrajectory", "src/dynamic_trajectory.cpp:computeTrajectory", "src/dynamic_trajectory.cpp:extractVerticesFromWaypoints"]}
{"id": "C27", "title": "Shutdown", "statement": "After the destructor has set the stop flag the background thread finishes its current iteration and exits: it takes at most ten further steps, besides visiting each published waypoint once for each modification of the batch it is applying, and starts at most one further computation, from every reachable state, provided no lock is held forever.", "quantifier": "every reachable state", "why_tests_cant": "every point at which destruction can happen", "anchors": ["include/dynamic_trajectory_generator/dynamic_trajectory.hpp:~DynamicTrajectory", "src/dynamic_trajectory.cpp:todoThreadLoop"]}
{"id": "C28", "title": "A moved waypoint is reached at its new position", "statement": "For every sequence of position changes of a waypoint, the compensation at the waypoint's own time is its current minus its original position, up to an error below 0.02 m per change and axis (changes below 0.02 m are ignored), and exactly that difference if no change is in (0, 0.02); this holds for changes made before the waypoint's time.", "quantifier": "every sequence of modifications at arbitrary times and arbitrary later re-timing of the waypoint", "why_tests_cant": "unbounded sequences of real-valued modifications", "anchors": ["src/dynamic_waypoint.cpp:setCurrentPosition", "src/dynamic_waypoint.cpp:trajectoryCompensation", "include/dynamic_trajectory_generator/utils/traj_modifiers.hpp:GaussianModifier"]}
{"id": "C29", "title": "Small modifications accumulate unnoticed", "statement": "User expectation: the reference follows the current position of a modified waypoint. n successive changes below 0.02 m each move the current position by an arbitrary distance while the reference does not move at all.", "quantifier": "every n", "why_tests_cant": "unbounded sequence", "anchors": ["include/dynamic_trajectory_generator/utils/traj_modifiers.hpp:GaussianModifier", "src/dynamic_waypoint.cpp:setCurrentPosition"]}
{"id": "C30", "title": "Compensation is local and bounded", "statement": "The compensation of a waypoint is zero at all times further from the waypoint's time than 3.5 sigma of each of its modifiers, on every axis its absolute value never exceeds the sum of the absolute changes, and a change made at time a > 0 displaces the reference at time a by at most exp(-4.5) (about 1.1 percent) of the change.", "quantifier": "every time, every sequence of modifications", "why_tests_cant": "all reals", "anchors": ["include/dynamic_trajectory_generator/utils/traj_modifiers.hpp:GaussianModifier", "src/dynamic_waypoint.cpp:trajectoryCompensation"]}
{"id": "C31", "title": "Velocity compensation is the derivative of position compensation", "statement": "Inside the open modification window the velocity compensation is the time derivative of the position compensation.", "quantifier": "every time inside the window, every modifier", "why_tests_cant": "a derivative at all times", "anchors": ["include/dynamic_trajectory_generator/utils/traj_modifiers.hpp:GaussianModifier"]}
{"id": "C32", "title": "Acceleration compensation is not the derivative of velocity compensation", "statement": "User expectation: the acceleration compensation is the time derivative of the velocity compensation. It misses a term: it exceeds the true second derivative by increment/sigma^2 * exp(-(t-mu)^2/(2 sigma^2)) everywhere inside the window, so it has the wrong value at the waypoint time itself (0 instead of -increment/sigma^2).", "quantifier": "every modifier with increment at least 0.02 and sigma > 0", "why_tests_cant": "a statement on all times", "anchors": ["include/dynamic_trajectory_generator/utils/traj_modifiers.hpp:GaussianModifier"]}
{"id": "C33", "title": "Modifying a passed waypoint has no effect on references", "statement": "Changing the position of a waypoint whose time is before the last evaluated (positive) time changes no reference at any time.", "quantifier": "every evaluation time, every change", "why_tests_cant": "all times", "anchors": ["src/dynamic_waypoint.cpp:setCurrentPosition", "include/dynamic_trajectory_generator/utils/traj_modifiers.hpp:GaussianModifier"]}
{"id": "C34", "title": "Window depends on the axis when no time was evaluated", "statement": "User expectation: a modification is applied alike on all axes. When the last evaluated time is not positive, the window width shrinks by 0.75 from x to y to z, so equal changes on the three axes give different references away from the waypoint time, and successive modifications shrink the window geometrically.", "quantifier": "every modification at non-positive time", "why_tests_cant": "all times", "anchors": ["src/dynamic_waypoint.cpp:setCurrentPosition"]}
{"id": "C35", "title": "Copying a waypoint preserves everything observable but the window memory", "statement": "A copy-constructed waypoint has the same vertex, positions, time, name, index and compensations at all times as the original, but not the same reaction to a later modification at non-positive time (the memorised window is reset to 1.5).", "quantifier": "every waypoint", "why_tests_cant": "all states", "anchors": ["src/dynamic_waypoint.cpp:DynamicWaypoint(const DynamicWaypoint&)"]}
{"id": "C36", "title": "Polynomial evaluation is the k-th derivative", "statement": "For every polynomial with at most 22 coefficients, evaluate(t,k) is the k-th derivative at t of c0 + c1 t + ... for every k and t; the vector version returns the same values; getCoefficients(k) are the coefficients of that derivative padded with zeros.", "quantifier": "all coefficient vectors, all t, all derivative orders", "why_tests_cant": "real-valued inputs and all orders", "anchors": ["subpackages/mav_trajectory_generation/include/mav_trajectory_generation/polynomial.h:evaluate", "subpackages/mav_trajectory_generation/include/mav_trajectory_generation/polynomial.h:getCoefficients", "subpackages/mav_trajectory_generation/src/polynomial.cpp:computeBaseCoefficients"]}
{"id": "C37", "title": "Products and sums of polynomials", "statement": "operator* / convolve returns the coefficients of the product polynomial and operator+ those of the sum: evaluation is multiplicative and additive at every t; with equal sizes for the sum.", "quantifier": "all coefficient vectors and all t", "why_tests_cant": "all inputs", "anchors": ["subpackages/mav_trajectory_generation/src/polynomial.cpp:convolve", "subpackages/mav_trajectory_generation/include/mav_trajectory_generation/polynomial.h:operator*", "subpackages/mav_trajectory_generation/include/mav_trajectory_generation/polynomial.h:operator+"]}
{"id": "C38", "title": "Time scaling of a polynomial", "statement": "After scalePolynomialInTime(b), evaluate(t,k) equals b^k times the old evaluate(b t,k); offsetPolynomial(o) adds o to the value and changes no derivative. getPolynomialWithAppendedCoefficients keeps every value and derivative; asked for fewer coefficients it returns false and hands out the polynomial unchanged.", "quantifier": "all polynomials, t, k, b", "why_tests_cant": "all inputs", "anchors": ["subpackages/mav_trajectory_generation/src/polynomial.cpp:scalePolynomialInTime", "subpackages/mav_trajectory_generation/src/polynomial.cpp:offsetPolynomial", "subpackages/mav_trajectory_generation/src/polynomial.cpp:getPolynomialWithAppendedCoefficients"]}
{"id": "C39", "title": "Extrema of a polynomial", "statement": "If the root finder returns every real root (with imaginary part at most epsilon) of the (k+1)-th derivative in [a,b], computeMinMax(a,b,k) returns the global minimum and maximum of the k-th derivative on [a,b] together with times at which they are attained (values within the range of double).", "quantifier": "all polynomials, intervals and orders", "why_tests_cant": "global optimality over a continuum", "anchors": ["subpackages/mav_trajectory_generation/src/polynomial.cpp:computeMinMax", "subpackages/mav_trajectory_generation/src/polynomial.cpp:selectMinMaxCandidatesFromRoots", "subpackages/mav_trajectory_generation/src/polynomial.cpp:selectMinMaxFromCandidates"]}
{"id": "C40", "title": "Extrema of the magnitude of a segment and of a trajectory", "statement": "Under the same assumption, computeMinMaxMagnitude over two or more dimensions returns the global minimum and maximum over the whole trajectory of the Euclidean norm of the k-th derivative, with the time and segment where they occur; for one dimension the maximum is right.", "quantifier": "all trajectories, orders, dimension lists of length at least two", "why_tests_cant": "global optimality over a continuum", "anchors": ["subpackages/mav_trajectory_generation/src/segment.cpp:computeMinMaxMagnitudeCandidateTimes", "subpackages/mav_trajectory_generation/src/segment.cpp:computeMinMaxMagnitudeCandidates", "subpackages/mav_trajectory_generation/src/segment.cpp:selectMinMaxMagnitudeFromCandidates", "subpackages/mav_trajectory_generation/src/trajectory.cpp:computeMinMaxMagnitude"]}
{"id": "C41", "title": "Minimum magnitude in one dimension is wrong", "statement": "User expectation: computeMinMaxMagnitude with one dimension returns the minimum of the absolute value. Only the extrema of the signed value are candidates, so a sign change is missed: for a straight line crossing zero the reported minimum is positive although the value 0 is attained.", "quantifier": "existential witness, exact root finder", "why_tests_cant": "a claim about a continuum of times", "anchors": ["subpackages/mav_trajectory_generation/src/segment.cpp:computeMinMaxMagnitudeCandidateTimes"]}
{"id": "C42", "title": "Trajectory::evaluate selects the right segment", "statement": "For 0 <= t < getMaxTime() with positive segment times, evaluate(t,k) is the k-th derivative of the unique segment k with start <= t < end at the local time; at getMaxTime() it is the end of the last segment; past it the zero vector; before 0 the first segment is extrapolated. With rounded accumulation the segment chosen for t <= getMaxTime() is still never out of range.", "quantifier": "all segment lists, all t, all orders", "why_tests_cant": "all inputs", "anchors": ["subpackages/mav_trajectory_generation/src/trajectory.cpp:evaluate", "subpackages/mav_trajectory_generation/include/mav_trajectory_generation/trajectory.h:addSegments"]}
{"id": "C43", "title": "Smoothness of composed trajectories", "statement": "If consecutive segments agree at the joints in the derivatives 0..m, then evaluate(.,k) is continuous on [0,max] for k <= m and evaluate(.,k+1) is the derivative of evaluate(.,k) at every interior time for k < m.", "quantifier": "all such trajectories, all times", "why_tests_cant": "a continuum of times", "anchors": ["subpackages/mav_trajectory_generation/src/trajectory.cpp:evaluate", "subpackages/mav_trajectory_generation/src/segment.cpp:evaluate"]}
{"id": "C44", "title": "Scaling segment times preserves the path", "statement": "scaleSegmentTimes(s) with s >= 1e-6 multiplies all segment times and getMaxTime() by s and satisfies new.evaluate(s t,k) = old.evaluate(t,k)/s^k for all t and k; with s < 1e-6 it returns false and changes nothing.", "quantifier": "all trajectories, t, k, s", "why_tests_cant": "all inputs", "anchors": ["subpackages/mav_trajectory_generation/src/trajectory.cpp:scaleSegmentTimes"]}
{"id": "C45", "title": "Scaling to meet constraints", "statement": "With an exact root finder and positive limits, scaleSegmentTimesToMeetConstraints returns true after at most one rescaling; the result is the original path slowed down by a factor >= 1 (never sped up), the maxima of velocity and acceleration over the whole trajectory are within 1.001 of the limits, and the trajectory is slowed down no more than necessary: it is either unchanged or reaches one of the two limits exactly. Whatever the root finder reports, the result is the original path slowed down, and true is returned only if the maxima computed for the returned trajectory are within 1.001 of the limits.", "quantifier": "all non-empty trajectories of dimension >= 1 and all positive limits", "why_tests_cant": "termination and feasibility over all inputs", "anchors": ["subpackages/mav_trajectory_generation/src/trajectory.cpp:scaleSegmentTimesToMeetConstraints", "subpackages/mav_trajectory_generation/src/trajectory.cpp:computeMaxVelocityAndAcceleration"]}
{"id": "C46", "title": "Single-dimension extraction loses the segment times", "statement": "User expectation: getTrajectoryWithSingleDimension(d) evaluates to component d of the original. The segments of the result carry exactly component d of the original segments, but the segment times are not copied, so the result has duration 0 and evaluates to zero at every positive time. Extracting a dimension from a single segment keeps both the component and the time. A dimension that does not exist is refused by both.", "quantifier": "every trajectory with positive duration, every segment, every dimension", "why_tests_cant": "all inputs", "anchors": ["subpackages/mav_trajectory_generation/src/trajectory.cpp:getTrajectoryWithSingleDimension", "subpackages/mav_trajectory_generation/src/segment.cpp:getSegmentWithSingleDimension"]}
{"id": "C47", "title": "Appending dimensions", "statement": "getTrajectoryWithAppendedDimension of trajectories with the same number of coefficients and of segments evaluates to the concatenation of both, each stretched segment-wise to the longer segment time; with different numbers of coefficients nothing is stretched, whatever the segment times: every segment lasts as long as the longer of the two and evaluates to the concatenation of the unstretched polynomials, so with different segment times the path changes. If one of the two has no coefficients or no dimensions, the result is the other one.", "quantifier": "all pairs of trajectories", "why_tests_cant": "all inputs", "anchors": ["subpackages/mav_trajectory_generation/src/trajectory.cpp:getTrajectoryWithAppendedDimension", "subpackages/mav_trajectory_generation/src/segment.cpp:getSegmentWithAppendedDimension"]}
{"id": "C48", "title": "Concatenation and offset of trajectories", "statement": "addTrajectories returns the trajectory that runs through this and then each argument in order (evaluate at t before/after this duration) and rejects mismatching ones; offsetTrajectory(v) adds v to the first min(D,3) components of the position at every time and changes no derivative, or returns false leaving the trajectory unchanged.", "quantifier": "all trajectories and times", "why_tests_cant": "all inputs", "anchors": ["subpackages/mav_trajectory_generation/src/trajectory.cpp:addTrajectories", "subpackages/mav_trajectory_generation/src/trajectory.cpp:offsetTrajectory", "subpackages/mav_trajectory_generation/src/segment.cpp:offsetSegment"]}
{"id": "C49", "title": "evaluateRange sampling", "statement": "If t_start is the start of a segment, the samples are the trajectory at t_start, t_start+dt, ... below t_end and the reported times are these; otherwise the reported sampling times are those of the segment start and sampling overshoots t_end by the offset of t_start in its segment; for t_start equal to the duration of the trajectory the access is out of bounds.", "quantifier": "all trajectories, dt > 0, ranges", "why_tests_cant": "all inputs", "anchors": ["subpackages/mav_trajectory_generation/src/trajectory.cpp:evaluateRange"]}
{"id": "C50", "title": "Vertex constraint map", "statement": "addConstraint / removeConstraint / hasConstraint / getConstraint behave like a finite map from derivative orders to vectors for every sequence of operations; makeStartOrEnd sets exactly orders 0..n; getSubdimension copies exactly the selected components of the orders up to the bound, and returns false with an empty vertex of the requested size if one of them does not exist; isEqualTol is reflexive and symmetric and detects every missing order and every component differing by more than tol. The constraints are counted and iterated exactly once each, in increasing order of derivative.", "quantifier": "every sequence of operations", "why_tests_cant": "all sequences", "anchors": ["subpackages/mav_trajectory_generation/src/vertex.cpp:addConstraint", "subpackages/mav_trajectory_generation/src/vertex.cpp:removeConstraint", "subpackages/mav_trajectory_generation/src/vertex.cpp:getConstraint", "subpackages/mav_trajectory_generation/src/vertex.cpp:makeStartOrEnd", "subpackages/mav_trajectory_generation/src/vertex.cpp:isEqualTol", "subpackages/mav_trajectory_generation/src/vertex.cpp:getSubdimension"]}
{"id": "C51", "title": "Segment time estimates respect the limits", "statement": "estimateSegmentTimes returns one time per pair of consecutive vertices, none below distance/v_max, all positive if v_max > 0, a_max > 0 and consecutive positions differ or an endpoint is at rest; estimateSegmentTimesVelocityRamp gives every pair the larger of 0.1 s and computeTimeVelocityRamp, which returns at least distance/v_max and is the exact duration of the rest-to-rest trapezoidal (or triangular) speed profile.", "quantifier": "all vertex lists and limits", "why_tests_cant": "all reals", "anchors": ["subpackages/mav_trajectory_generation/src/vertex.cpp:estimateSegmentTimesNfabian", "subpackages/mav_trajectory_generation/src/vertex.cpp:computeTimeVelocityRamp", "subpackages/mav_trajectory_generation/src/vertex.cpp:estimateSegmentTimesVelocityRamp"]}
{"id": "C52", "title": "Repeated waypoints abort the process", "statement": "User expectation: any list of waypoints gives a trajectory. False: with positive limits the estimated segment times are accepted by the optimiser exactly if no two consecutive vertices have equal positions while neither of them is at rest; otherwise the setup stops with a fatal check. A negative maximum speed makes the setup abort for every plan. (Speed exactly zero divides by zero; not modelled.)", "quantifier": "all vertex lists of at least two vertices with positions, all limits", "why_tests_cant": "The set of plans is infinite and the boundary between accepted and aborting plans is an exact equality of positions.", "anchors": ["subpackages/mav_trajectory_generation/src/vertex.cpp:253-289", "subpackages/mav_trajectory_generation/include/mav_trajectory_generation/impl/polynomial_optimization_linear_impl.h:56-109"]}
{"id": "C53", "title": "The optimiser meets all vertex constraints and is smooth", "statement": "For every even N from 2 to 22, every dimension, every list of vertices, all segment times of at least machine epsilon, in every state reached by setup, changes of the segment times, of the free constraints and linear solves: after setFreeConstraints with any values, and after solveLinear whatever the sparse solver returned, the segments have at every vertex exactly the constrained derivatives below N/2, and all derivatives 0..N/2-1 are continuous across vertices. Setup succeeds exactly if the optimised derivative is at most N/2-1, there is one time per pair of vertices and all times are positive. The optimiser reports back the given vertices, without their constraints of order N/2 and above.", "quantifier": "all sizes, vertex lists, times, free-constraint values, dimensions, use histories", "why_tests_cant": "The inputs are unbounded lists of real vectors and the claim is an equality for all of them.", "anchors": ["subpackages/mav_trajectory_generation/include/mav_trajectory_generation/impl/polynomial_optimization_linear_impl.h:56-305", "subpackages/mav_trajectory_generation/include/mav_trajectory_generation/impl/polynomial_optimization_linear_impl.h:338-379", "subpackages/mav_trajectory_generation/include/mav_trajectory_generation/impl/polynomial_optimization_linear_impl.h:499-508"]}
{"id": "C54", "title": "The mapping-matrix inverse is an inverse", "statement": "The mapping matrix maps the coefficients of a polynomial to its derivatives at both ends of the segment. For every segment time of at least machine epsilon the matrix computed by invertMappingMatrix is its two-sided inverse. User expectation: this holds for every positive time. False: positive times below epsilon pass all checks, but the mapping matrix has no inverse.", "quantifier": "all times, every even N from 2 to 22", "why_tests_cant": "Invertibility for all real times cannot be sampled; the failing times are below 2.3e-16.", "anchors": ["subpackages/mav_trajectory_generation/include/mav_trajectory_generation/impl/polynomial_optimization_linear_impl.h:111-179"]}
{"id": "C55", "title": "The quadratic cost is the integral of the squared derivative", "statement": "computeCost() equals the sum over segments and dimensions of the integral over the segment of the square of the optimised derivative; it is non-negative.", "quantifier": "all segments, orders, times", "why_tests_cant": "an integral identity", "anchors": ["subpackages/mav_trajectory_generation/include/mav_trajectory_generation/impl/polynomial_optimization_linear_impl.h:computeQuadraticCostJacobian", "subpackages/mav_trajectory_generation/include/mav_trajectory_generation/impl/polynomial_optimization_linear_impl.h:computeCost"]}
{"id": "C56", "title": "The linear solution is optimal, and when it is the only optimum", "statement": "If the sparse solver returns a solution of its linear system, solveLinear's trajectory has the least cost among all trajectories of the same form satisfying the same vertex constraints with the same segment times. Every other trajectory of that form costing no more has the same derivative of the optimised order at all times. If one vertex fixes all derivatives below that order, or as many vertices as that order fix the position (two suffice in dynamic_trajectory), every other trajectory of the form costs strictly more, so the result depends only on vertices, times and derivative, not on the solver or on earlier calls. Without such constraints several optima can exist.", "quantifier": "all alternatives (all free-constraint values, all piecewise polynomials of the same sizes and smoothness), all exact solvers", "why_tests_cant": "optimality and uniqueness over a continuum", "anchors": ["subpackages/mav_trajectory_generation/include/mav_trajectory_generation/impl/polynomial_optimization_linear_impl.h:solveLinear", "subpackages/mav_trajectory_generation/include/mav_trajectory_generation/impl/polynomial_optimization_linear_impl.h:constructR"]}
{"id": "C57", "title": "Soft constraint cost", "statement": "The soft-constraint cost of the nonlinear optimiser is between 0 and (number of constraints) * maximum_cost, never decreases when a maximum grows, and each term is at most 1 when the limit is respected and above 1 when violated (before capping).", "quantifier": "all inputs", "why_tests_cant": "all reals", "anchors": ["subpackages/mav_trajectory_generation/include/mav_trajectory_generation/impl/polynomial_optimization_nonlinear_impl.h:evaluateMaximumMagnitudeAsSoftConstraint"]}
{"id": "C58", "title": "Optimiser bounds always admit the initial guess", "statement": "The lower and upper bounds passed to the nonlinear solver contain the initial solution component-wise, and the segment-time bounds stay positive, so the returned segment times are positive.", "quantifier": "all initial solutions", "why_tests_cant": "all inputs", "anchors": ["subpackages/mav_trajectory_generation/include/mav_trajectory_generation/impl/polynomial_optimization_nonlinear_impl.h:optimizeTimeAndFreeConstraints", "subpackages/mav_trajectory_generation/include/mav_trajectory_generation/impl/polynomial_optimization_nonlinear_impl.h:setFreeEndpointDerivativeHardConstraints"]}
{"id": "C59", "title": "The polynomial root finder and what its roots mean", "statement": "For every coefficient vector (exact arithmetic, arbitrary results of division by zero) findRootsJenkinsTraub terminates with one answer. It returns no roots exactly when all coefficients but the constant one are below the smallest normal double. Otherwise zeros at the origin are reported first with their exact multiplicity, followed by roots each of which satisfies |p(z)| <= c eps sum |p_k||z|^k for the polynomial left after dividing out the earlier ones (for a real pair only the second one is tested), so a single real root is an exact root of a polynomial with relatively perturbed coefficients. When at most two roots besides the origin remain they are exactly the roots. Non-real roots come in conjugate pairs. The number of roots is the degree or at least three too small; false is returned only when no root at all was found. With more than 101 significant coefficients memory past the work array is written. Consequently minimum and maximum of a polynomial are exact whenever the next derivative has at most two zeros besides the origin.", "quantifier": "all coefficient vectors, all divisions", "why_tests_cant": "quantifies over all reals and covers termination of unbounded loops", "anchors": ["subpackages/mav_trajectory_generation/src/rpoly/rpoly_ak1.cpp:findRootsJenkinsTraub", "subpackages/mav_trajectory_generation/src/rpoly/rpoly_ak1.cpp:rpoly_ak1", "subpackages/mav_trajectory_generation/src/rpoly/rpoly_ak1.cpp:QuadSD_ak1", "subpackages/mav_trajectory_generation/src/rpoly/rpoly_ak1.cpp:Quad_ak1", "subpackages/mav_trajectory_generation/src/rpoly/rpoly_ak1.cpp:QuadIT_ak1", "subpackages/mav_trajectory_generation/src/rpoly/rpoly_ak1.cpp:RealIT_ak1"]}
{"id": "C60", "title": "Timing accumulator", "statement": "After any sequence of samples the accumulator reports their number, sum, mean, the mean and variance of the last min(n,N) samples, and the minimum; the maximum is right if some sample is at least DBL_MIN and otherwise wrong (it starts from the smallest positive number). Tags and handles are in bijection until Reset; every handle keeps reporting the samples recorded for it, after Reset too, and new tags get fresh handles. A timer records exactly the time between start and stop or destruction; stopping a stopped timer records another sample. A mini timer reports the elapsed time, and 0 if the clock went back.", "quantifier": "every sequence of samples and tag lookups", "why_tests_cant": "all sequences", "anchors": ["subpackages/mav_trajectory_generation/include/mav_trajectory_generation/timing.h:Accumulator", "subpackages/mav_trajectory_generation/src/timing.cpp:GetHandle", "subpackages/mav_trajectory_generation/src/timing.cpp:GetTag", "subpackages/mav_trajectory_generation/src/timing.cpp:Reset"]}
{"id": "C61", "title": "Saving and loading a trajectory", "statement": "Converting a trajectory to YAML and back, or writing it to a file and reading it, keeps dimensions, number of coefficients and all coefficients; segment times are truncated to whole nanoseconds (exact arithmetic: error in [0,1 ns); double arithmetic: below 2 ns for times below 2^51 ns), and saving the loaded trajectory writes the same document again. The file reader returns only segments whose coefficient table matches N and D; the YAML-node reader does not check the row length. Reading an unreadable file, or one without segments, aborts instead of returning false; a damaged entry makes the reader return false after the trajectory has already been replaced by the entries before it; a trajectory without dimensions is not read back. segmentsFromFile returns false, leaving the list alone when the file cannot be opened and emptying it when there is no list of segments. A number in place of the list of segments is read as an empty list; in place of the coefficients it makes the reader return false.", "quantifier": "all trajectories with at least one segment and int-sized shape; all documents for the reader", "why_tests_cant": "all durations and coefficient values; rounding of every nanosecond count below 2^51; all possible documents", "anchors": ["subpackages/mav_trajectory_generation/src/io.cpp:segmentToYaml", "subpackages/mav_trajectory_generation/src/io.cpp:segmentFromYaml", "subpackages/mav_trajectory_generation/src/io.cpp:segmentsFromFile", "subpackages/mav_trajectory_generation/include/mav_trajectory_generation/segment.h:getTimeNSec"]}
{"id": "C62", "title": "Derivative names", "statement": "positionDerivativeToString and positionDerivativeToInt are mutually inverse on the valid orders 0..4, and everything else maps to 'invalid' / INVALID; likewise for orientation.", "quantifier": "all integers and strings", "why_tests_cant": "all strings", "anchors": ["subpackages/mav_trajectory_generation/src/motion_defines.cpp:positionDerivativeToString", "subpackages/mav_trajectory_generation/src/motion_defines.cpp:positionDerivativeToInt"]}
{"id": "C63", "title": "Single-precision time argument", "statement": "evaluateTrajectory takes its time as a 32-bit float: the references returned and the times recorded are those of a time x that differs from the requested t by at most 2^-24 relative (2^-150 absolute for tiny t), and later requests never get an earlier x. Multiples of 2^-j up to 2^(24-j) are passed exactly. Requests 10 ms apart denote different instants below 2^17 s (36 h); from 2^17 s on there are, near every time, requests 10 ms apart that are indistinguishable, and for Unix times (2^30 s and later) requests two minutes apart; there the time used is always a multiple of 128 s.", "quantifier": "all requested times", "why_tests_cant": "all reals", "anchors": ["src/dynamic_trajectory.cpp:evaluateTrajectory"]}
{"id": "C64", "title": "Rotation helpers", "statement": "quaternionFromYaw is the unit quaternion turning by yaw about z and yawFromQuaternion and getEulerAnglesFromQuaternion recover roll, pitch and yaw of a z-y-x rotation for roll, yaw in (-pi,pi] and |pitch| < pi/2 (at pitch pi/2 the angles returned describe another rotation). skewMatrixFromVector is the cross product matrix and vectorFromSkewMatrix inverts it, accepting a matrix iff M+M^T has norm below 1e-6. matrixFromRotationVector always returns the right-handed rotation about the vector by its length; isRotationMatrix accepts every rotation but also reflections; vectorFromRotationMatrix inverts matrixFromRotationVector up to 2e-6 for every rotation that is not a half turn and divides 0 by 0 for half turns. omegaFromRotationVector is the angular velocity (R' = [w]R) when |r| >= 1e-3 and within |r||r'| of it otherwise; omegaDotFromRotationVector is its time derivative. A matrix accepted by isRotationMatrix changes no squared length by more than one part in a million and has a determinant of at most 1+1e-6.", "quantifier": "all angles, vectors, matrices and differentiable rotation vector curves", "why_tests_cant": "statements about all reals and about derivatives", "anchors": ["subpackages/mav_trajectory_generation/include/mav_msgs/common.hpp:quaternionFromYaw", "subpackages/mav_trajectory_generation/include/mav_msgs/common.hpp:yawFromQuaternion", "subpackages/mav_trajectory_generation/include/mav_msgs/common.hpp:getEulerAnglesFromQuaternion", "subpackages/mav_trajectory_generation/include/mav_msgs/common.hpp:skewMatrixFromVector", "subpackages/mav_trajectory_generation/include/mav_msgs/common.hpp:vectorFromSkewMatrix", "subpackages/mav_trajectory_generation/include/mav_msgs/common.hpp:isRotationMatrix", "subpackages/mav_trajectory_generation/include/mav_msgs/common.hpp:matrixFromRotationVector", "subpackages/mav_trajectory_generation/include/mav_msgs/common.hpp:vectorFromRotationMatrix", "subpackages/mav_trajectory_generation/include/mav_msgs/common.hpp:omegaFromRotationVector", "subpackages/mav_trajectory_generation/include/mav_msgs/common.hpp:omegaDotFromRotationVector"]}
{"id": "C65", "title": "Sampling functions", "statement": "sampleTrajectoryAtTime succeeds iff the time is in [0,duration] and the dimension is at least 3; then position..snap are the first three components of the derivatives 0..4, the time stamp is the time in whole nanoseconds rounded down, for 4 dimensions the orientation, yaw rate and yaw acceleration come from the fourth component, for 6 dimensions orientation, angular velocity and angular acceleration are those of the rotation vector in the last three (the angular velocity and acceleration are the true derivatives of the orientation when |r| > 1e-3), otherwise the orientation is left alone (level and not rotating if the output vector was empty). sampleWholeTrajectory returns exactly one such state for each k*dt < duration. sampleTrajectoryInRange samples min_time + k*dt but can continue past max_time when min_time is inside a segment, returns true with no states when min_time is past the end, and reads out of bounds when min_time equals the duration.", "quantifier": "all trajectories, times, intervals and previous contents of the output", "why_tests_cant": "all inputs; derivatives", "anchors": ["subpackages/mav_trajectory_generation/src/trajectory_sampling.cpp:sampleTrajectoryAtTime", "subpackages/mav_trajectory_generation/src/trajectory_sampling.cpp:sampleTrajectoryInRange", "subpackages/mav_trajectory_generation/src/trajectory_sampling.cpp:sampleWholeTrajectory", "subpackages/mav_trajectory_generation/src/trajectory_sampling.cpp:sampleSegmentAtTime", "subpackages/mav_trajectory_generation/src/trajectory_sampling.cpp:sampleFlatStateAtTime"]}
{"id": "C66", "title": "Compensation jumps at the edge of its window", "statement": "User expectation: references of a modified trajectory are continuous. Every applied change (at least 0.02 m) of a waypoint makes the position reference jump by exp(-49/8) (about 0.22 percent) of the change at the edges of its window, so the reference position is not continuous there, and no velocity reference reports it.", "quantifier": "every applied change of positive width", "why_tests_cant": "The claim is about the limit at one instant for every change; sampled evaluations miss the instant.", "anchors": ["include/dynamic_trajectory_generator/utils/traj_modifiers.hpp: GaussianModifier::operator()"]}
{"id": "C67", "title": "Changing a waypoint at its own time makes the reference undefined", "statement": "User expectation: references are numbers. A change of at least 0.02 m made when the last evaluated time equals the waypoint's (positive) time divides zero by zero when the reference at that time is evaluated; changes made strictly before the waypoint's time, or before any positive time was evaluated, never do, for any history of changes and re-timings.", "quantifier": "every waypoint, every history of changes and re-timings, every evaluation time", "why_tests_cant": "The failing instant is a single point in time and absence of it elsewhere ranges over all histories.", "anchors": ["src/dynamic_waypoint.cpp: DynamicWaypoint::setCurrentPosition", "include/dynamic_trajectory_generator/utils/traj_modifiers.hpp: GaussianModifier::operator()"]}
{"id": "C68", "title": "A plan generated right after a swap starts at the wrong point", "statement": "User expectation: a stitched trajectory starts with the current reference. If a trajectory has been swapped in and the next one is launched before a non-plotting evaluation, the new one starts with the reference L seconds after the last evaluated time, where L is the time that had been evaluated on the previous trajectory when the first computation was launched; the start can be metres away from the reference being followed.", "quantifier": "every history with two generations and no non-plotting evaluation between the swap and the second launch", "why_tests_cant": "depends on the order of swap, evaluation and background thread", "anchors": ["src/dynamic_trajectory.cpp:swapTrajectory", "src/dynamic_trajectory.cpp:stitchActualTrajectoryWithNewWaypoints", "src/dynamic_trajectory.cpp:todoThreadLoop"]}
{"id": "C70", "title": "Destruction during a computation", "statement": "User expectation: the object can be destroyed at any time when no call is in progress. The destructor waits for the background thread but not for the computation, whose future is destroyed only after the waypoint lists, so a running computation can still write to the list of waypoints of the next trajectory after it was destroyed.", "quantifier": "every interleaving", "why_tests_cant": "schedule dependent, silent memory corruption", "anchors": ["include/dynamic_trajectory_generator/dynamic_trajectory.hpp:~DynamicTrajectory", "src/dynamic_trajectory.cpp:computeTrajectory"]}
{"id": "C71", "title": "Data races", "statement": "With one evaluating thread and any number of threads making calls that cannot swap a trajectory in, the only data races are the three unprotected reads of the background thread: of the number of pending modifications (against modifyWaypoint and setWaypoints), of the trajectory pointer in the security zone check (against the swap) and of the last evaluated local time for stitching (against evaluateTrajectory); all three can happen. Everything else, including the waypoints handed over from background thread to computation to evaluating thread without a mutex, is free of races.", "quantifier": "any number of threads, every interleaving", "why_tests_cant": "data races are schedule dependent and silent", "anchors": ["src/dynamic_trajectory.cpp:todoThreadLoop", "src/dynamic_trajectory.cpp:checkInSecurityZone", "src/dynamic_trajectory.cpp:modifyWaypoint", "src/dynamic_trajectory.cpp:swapTrajectory"]}
{"id": "C72", "title": "The nonlinear optimiser returns the last point, not the best", "statement": "User expectation: optimize() leaves the best trajectory found. The trajectory left behind is that of the last point at which the objective was evaluated; earlier points and the optimum NLopt reports do not matter, so an admissible run exists in which an evaluated better trajectory is discarded. If nothing is evaluated the methods that also optimise the free derivatives leave the linear solution. The reported number of iterations is the number of evaluations; without any, all reported costs are zero and the time-only methods leave segments that last no time; Mellinger's method never reports a time or soft cost.", "quantifier": "every plan, every sequence of points chosen by NLopt inside the bounds", "why_tests_cant": "the sequence of points depends on the solver, its tolerances and the plan", "anchors": ["subpackages/mav_trajectory_generation/include/mav_trajectory_generation/impl/polynomial_optimization_nonlinear_impl.h:optimizeTimeAndFreeConstraints", "subpackages/mav_trajectory_generation/include/mav_trajectory_generation/impl/polynomial_optimization_nonlinear_impl.h:objectiveFunctionTimeAndConstraints"]}
{"id": "C73", "title": "Hard constraints on the free derivatives", "statement": "User expectation: with the methods that optimise the free derivatives, a maximum-magnitude constraint bounds the free vertex derivatives of that order. The bounds are assigned by a running index that counts only orders up to the optimised derivative, while the variables of all orders below N/2 are numbered; they agree if the optimised derivative is N/2-1. With the settings of the trajectory generator (N = 10, acceleration) and a first vertex with position, velocity and acceleration given (as after stitching), the velocity limit is imposed on a jerk.", "quantifier": "all vertices, limits, N and derivatives", "why_tests_cant": "the combination of constrained orders is unbounded", "anchors": ["subpackages/mav_trajectory_generation/include/mav_trajectory_generation/impl/polynomial_optimization_nonlinear_impl.h:setFreeEndpointDerivativeHardConstraints"]}
{"id": "C74", "title": "Maximum of magnitude in the optimiser", "statement": "computeMaximumOfMagnitude of the optimiser returns the maximum over all segments of the norm of the derivative, and the segment and time where it is attained, for orders below N-1; for higher orders it aborts.", "quantifier": "all solutions and orders, exact root finder", "why_tests_cant": "all reals", "anchors": ["subpackages/mav_trajectory_generation/include/mav_trajectory_generation/impl/polynomial_optimization_linear_impl.h:computeMaximumOfMagnitude", "subpackages/mav_trajectory_generation/include/mav_trajectory_generation/impl/polynomial_optimization_linear_impl.h:computeSegmentMaximumMagnitudeCandidates"]}
{"id": "C75", "title": "Cost bookkeeping of the nonlinear optimiser", "statement": "After an evaluation the recorded trajectory, time and soft-constraint costs add up to the objective value; they are the energy of the trajectory, the time penalty times the (squared) total duration, and the capped soft cost. The total cost reported afterwards (squared-time methods) never exceeds the objective value and equals it unless a soft term exceeds 1e9.", "quantifier": "all evaluations", "why_tests_cant": "all reals", "anchors": ["subpackages/mav_trajectory_generation/include/mav_trajectory_generation/impl/polynomial_optimization_nonlinear_impl.h:objectiveFunctionTime", "subpackages/mav_trajectory_generation/include/mav_trajectory_generation/impl/polynomial_optimization_nonlinear_impl.h:objectiveFunctionTimeAndConstraints", "subpackages/mav_trajectory_generation/include/mav_trajectory_generation/impl/polynomial_optimization_nonlinear_impl.h:getTotalCostWithSoftConstraints"]}
{"id": "C76", "title": "The nonlinear result interpolates the vertices", "statement": "Whatever points NLopt chooses inside its bounds, the trajectory left by optimize() meets every vertex constraint below order N/2 and is continuous up to derivative N/2-1, for all methods. Exception: with the time-only methods and an initial segment shorter than 0.1 s nothing is evaluated, the call returns normally, and the segments left have zero duration.", "quantifier": "all vertices, times, methods, runs of NLopt", "why_tests_cant": "depends on the solver and on all reals", "anchors": ["subpackages/mav_trajectory_generation/include/mav_trajectory_generation/impl/polynomial_optimization_nonlinear_impl.h:optimize", "subpackages/mav_trajectory_generation/include/mav_trajectory_generation/impl/polynomial_optimization_nonlinear_impl.h:optimizeTime", "subpackages/mav_trajectory_generation/include/mav_trajectory_generation/impl/polynomial_optimization_nonlinear_impl.h:optimizeTimeMellingerOuterLoop", "subpackages/mav_trajectory_generation/include/mav_trajectory_generation/impl/polynomial_optimization_nonlinear_impl.h:scaleSegmentTimesWithViolation"]}
{"id": "C77", "title": "From waypoints to trajectory", "statement": "For any list of at least two waypoints (three-dimensional, with a position, constraints of order at most 4) whose consecutive positions are apart, any positive speed, either optimiser and whatever points NLopt evaluates, the computation succeeds and yields one segment of positive duration per pair of waypoints that meets every constraint of every waypoint, ends with zero velocity and acceleration and is continuous up to the fourth derivative. In every execution of the generator, with nothing assumed about the result of the optimiser, the reference therefore passes each waypoint at its time minus the time compensation and holds the last one. Two equal consecutive waypoints, neither at rest and the second not last, abort the process. The value minimised by the nonlinear optimiser is, at every evaluation, the integral of the squared acceleration plus 1000 times the squared duration plus one penalty each, at most 10^12, for the largest speed against the speed asked for and the largest acceleration against a_max: exp(100 (maximum - limit) / limit).", "quantifier": "all waypoints, speeds, solver runs and executions", "why_tests_cant": "depends on all reals, the solver and every interleaving", "anchors": ["src/dynamic_trajectory.cpp:computeTrajectory", "src/dynamic_trajectory.cpp:extractVerticesFromWaypoints"]}
{"id": "C78", "title": "Gravity magnitude", "statement": "MagnitudeOfGravity at height 0 lies between 9.7803 and 9.833 m/s^2, is smallest at the equator, is the same for opposite latitudes and strictly decreases with height.", "quantifier": "all heights and latitudes", "why_tests_cant": "all reals", "anchors": ["subpackages/mav_trajectory_generation/include/mav_msgs/common.hpp:MagnitudeOfGravity"]}
{"id": "C80", "title": "Change of frame", "statement": "Applying a rigid transform to a trajectory point that describes a motion (velocity, acceleration and angular velocity are the derivatives of position and orientation) gives a point that describes the transformed motion, with time stamps and degrees of freedom kept. For a unit orientation quaternion the world velocity set on an EigenOdometry is read back unchanged; for any other non-zero quaternion it is transformed by its inverse; and yaw and yaw rate are read back as set; setting the yaw rate makes the two other components of the angular velocity zero, and nothing else changes. A default-constructed trajectory point describes resting level at the origin with yaw 0, at the start of the trajectory and without a time stamp.", "quantifier": "all rigid transforms, motions, points and odometry states", "why_tests_cant": "all reals; derivatives", "anchors": ["subpackages/mav_trajectory_generation/include/mav_msgs/eigen_mav_msgs.hpp:operator*", "subpackages/mav_trajectory_generation/include/mav_msgs/eigen_mav_msgs.hpp:EigenOdometry::setVelocityWorld", "subpackages/mav_trajectory_generation/include/mav_msgs/eigen_mav_msgs.hpp:EigenOdometry::getVelocityWorld"]}
{"id": "C79", "title": "Nanosecond conversions", "statement": "secondsToNanoseconds(nanosecondsToSeconds(n)) is n or one nanosecond nearer to zero for |n| < 2^52, and the loss does occur (15 ns comes back as 14 ns); whole seconds are converted exactly in both directions.", "quantifier": "all nanosecond counts below 2^52 in absolute value, IEEE binary64 arithmetic", "why_tests_cant": "2^53 values; the error depends on the rounding of each quotient and product", "anchors": ["subpackages/mav_trajectory_generation/include/mav_msgs/common.hpp:nanosecondsToSeconds", "subpackages/mav_trajectory_generation/include/mav_msgs/common.hpp:secondsToNanoseconds"]}
{"id": "C81", "title": "Table of sampled states", "statement": "The table written for plotting has one row per hundredth of a second from 0 up to (excluding) the duration; row j holds the time in nanoseconds, then position, velocity, acceleration, jerk and snap of the trajectory at that time (the layout comment in the code omits the acceleration), and in its last column the end time of segment j (0 past the last segment). If there are more segments than rows the table is written out of bounds.", "quantifier": "all continuous trajectories with at least three dimensions and positive durations", "why_tests_cant": "all trajectories, any number of rows", "anchors": ["subpackages/mav_trajectory_generation/src/io.cpp:sampledTrajectoryStatesToFile"]}
{"id": "C82", "title": "Generated test routes have the promised shape, and the random generator can draw forever", "statement": "createRandomVertices returns, for every sequence of random numbers, n_segments + 1 vertices inside the given box, consecutive ones more than 0.2 apart, at rest up to the given derivative at both ends and fixing only the position in between. It aborts exactly for no segment, no derivative, boxes of different dimension or a diagonal below 0.2, and the box bounds reach the random distribution unordered (undefined) if some minimum is above its maximum. If the diagonal is above 0.4 there is, after any draws, a continuation that lets it return; with a diagonal between 0.2 and 0.4 it accepts the box and never returns when the first point falls in the middle. createSquareVertices returns 4 * rounds + 1 vertices walking the corners of the square of the given side length around the centre, ending where it started, at rest at both ends; a negative number of rounds throws.", "quantifier": "all random number sequences, boxes of every dimension, segment and round counts, derivatives, centres and side lengths", "why_tests_cant": "tests run a few seeds and boxes; the endless loop depends on the random numbers and shows up only as a hang", "anchors": ["subpackages/mav_trajectory_generation/src/vertex.cpp:27-82", "subpackages/mav_trajectory_generation/src/vertex.cpp:84-120", "subpackages/mav_trajectory_generation/src/vertex.cpp:122-128"]}
{"id": "C83", "title": "The optimiser's matrices mean what their names say", "statement": "After setup with usable times, getA maps the coefficients of the segments to their end-point derivatives in segment order, getAInverse is its two-sided inverse, getM maps the stacked fixed and free constraints to those end-point derivatives, so that the coefficients are getAInverse * getM * constraints; getMpinv recovers the constraints from the end-point derivatives (it is a left inverse of getM), getR is the cost as a quadratic form of the constraints and is positive semidefinite, and the reported numbers of fixed, free and all constraints and of segments are consistent with each other and with the matrix sizes.", "quantifier": "all vertices, times, derivatives and polynomial sizes accepted by setup, all states reachable by later calls", "why_tests_cant": "holds for all sizes of problems and all constraint patterns", "anchors": ["subpackages/mav_trajectory_generation/include/mav_trajectory_generation/impl/polynomial_optimization_linear_impl.h:getA", "subpackages/mav_trajectory_generation/include/mav_trajectory_generation/impl/polynomial_optimization_linear_impl.h:getAInverse", "subpackages/mav_trajectory_generation/include/mav_trajectory_generation/impl/polynomial_optimization_linear_impl.h:getM", "subpackages/mav_trajectory_generation/include/mav_trajectory_generation/impl/polynomial_optimization_linear_impl.h:getMpinv", "subpackages/mav_trajectory_generation/include/mav_trajectory_generation/impl/polynomial_optimization_linear_impl.h:getR"]}
{"id": "C84", "title": "Sampling a segment for maximum candidates", "statement": "With a positive sampling interval and an ordered range, computeSegmentMaximumMagnitudeCandidatesBySampling returns and appends strictly increasing times: the start, the end, and exactly those sample points in between at which the magnitude of the derivative changes from growing to falling (or back) between neighbouring samples while the next derivative is shorter than 1e-2; if the range holds fewer than two whole intervals no sample is considered. In one dimension, if the derivative after the next times the interval stays below 1e-2, every magnitude in the range exceeds some candidate's by at most the change within one interval. In several dimensions the maximum can be missed for every interval. A zero or negative interval never returns.", "quantifier": "all segments, derivatives, ranges, intervals and previous contents of the vector", "why_tests_cant": "termination and completeness over all polynomials and intervals; the test only compares one set of random segments", "anchors": ["subpackages/mav_trajectory_generation/include/mav_trajectory_generation/impl/polynomial_optimization_linear_impl.h:computeSegmentMaximumMagnitudeCandidatesBySampling"]}
{"id": "C85", "title": "Rotor speeds produce the torque and thrust of the motion", "statement": "getSquaredRotorSpeedsFromAllocationAndState returns one value per row of the inverse allocation matrix. For any allocation matrix undone by it, rotors with these squared speeds produce the torque that changes the angular momentum of a body with the given diagonal inertia as the motion requires, and a thrust of mass times the length of the acceleration; this is the needed force only if the acceleration points along the body z axis, opposite accelerations give the same speeds, and squared speeds can be negative. For the hexacopter of the documentation the recommended pseudo-inverse is exact and hovering takes equal speeds. A matrix without four columns is refused.", "quantifier": "all allocation matrices, inertias, masses, attitudes and motions", "why_tests_cant": "physical law over all motions; no test exists", "anchors": ["subpackages/mav_trajectory_generation/include/mav_msgs/common.hpp:getSquaredRotorSpeedsFromAllocationAndState"]}
{"id": "C86", "title": "Vertices taken from a trajectory", "statement": "getVertices(n) of a trajectory with segments of positive length returns one vertex per segment boundary; the i-th has exactly the constraints of the orders 0..n, equal to the derivatives of the segment that starts there (at the end: of the last segment at its end). The first and last ones are getStartVertex and getGoalVertex, and the trajectory meets all constraints of its own vertices. The overload for position and yaw returns, for four or more dimensions, the first three components and the fourth one, each up to its own order, and returns false for fewer dimensions.", "quantifier": "every trajectory and every order", "why_tests_cant": "all trajectories with any number of segments and all orders", "anchors": ["subpackages/mav_trajectory_generation/src/trajectory.cpp:getVertices", "subpackages/mav_trajectory_generation/src/trajectory.cpp:getVertexAtTime", "subpackages/mav_trajectory_generation/src/trajectory.cpp:getStartVertex", "subpackages/mav_trajectory_generation/src/vertex.cpp:getSubdimension"]}
{"id": "C87", "title": "The speed limit, the durations that keep it, and the durations the generator estimates", "statement": "A trajectory with continuous velocity whose speed never exceeds v spends at least distance/v on each leg between two waypoints; with exactly that duration the leg is a straight line at constant velocity, and two consecutive such legs have the same direction. With polynomials of at most ten coefficients, a leg that starts or ends at rest needs at least 26/25 of distance/v and one that starts and ends at rest at least 16/15. computeTrajectory with the linear optimiser, or with the nonlinear one when NLopt evaluates no point, gives each leg distance/v, plus v/a_max when the leg starts or ends at a stop; otherwise the durations are the first entries of the last point NLopt evaluated. Hence any result with a shorter leg exceeds the speed passed to setSpeed, and the estimated durations exceed it on every leg from or to a stop longer than 25 v^2/a_max, on every leg from stop to stop longer than 15 v^2/a_max, and at every waypoint between two moving legs where the path turns. The expectation that the trajectory keeps the speed given to setSpeed is refuted for both modes.", "quantifier": "all trajectories, speeds, waypoint lists, exact inverse routines, solver routines, root finders and points evaluated by NLopt", "why_tests_cant": "A test samples the speed of some trajectories at some times; that a duration is too short for every polynomial of the given size, whatever the solver returns, is a statement about infinitely many curves.", "anchors": ["src/dynamic_trajectory.cpp:298-343", "subpackages/mav_trajectory_generation/src/vertex.cpp:255-289", "subpackages/mav_trajectory_generation/include/mav_trajectory_generation/impl/polynomial_optimization_nonlinear_impl.h:409-503", "include/dynamic_trajectory_generator/dynamic_trajectory.hpp:94"]}
{"id": "C88", "title": "Comparison of segments and trajectories", "statement": "Two segments whose polynomials have the same number of coefficients compare equal with == if and only if they have the same dimension and duration and are the same function of time. Two trajectories with positive segment durations and the same number of coefficients compare equal if and only if their segment durations agree and they evaluate to the same position at every time of their duration. If the first segments agree in dimension and duration but not in the number of coefficients, the comparison is undefined (Eigen compares vectors of different size). Trajectories that describe the same motion with differently cut segments compare different, and trajectories without segments compare equal whatever their dimension.", "quantifier": "all segments and trajectories", "why_tests_cant": "Equality of functions at all times against equality of coefficients; a test compares single samples.", "anchors": ["subpackages/mav_trajectory_generation/src/trajectory.cpp:34-46", "subpackages/mav_trajectory_generation/src/segment.cpp:28-39", "subpackages/mav_trajectory_generation/include/mav_trajectory_generation/polynomial.h:65-70"]}
{"id": "C89", "title": "Evaluation in double precision", "statement": "Polynomial, segment and trajectory evaluation are computed in binary64, rounding after every operation. The table of derivative factors is nevertheless exact. A derivative of a polynomial with up to 22 coefficients is off by at most 2(N-d) roundoffs of the value it would have if no terms cancelled (plus underflow), derivatives of an order not below the number of coefficients are exactly zero, and position and velocity at the start of a segment are exactly the stored coefficients. For a trajectory built from positive durations, evaluate at a time up to getMaxTime picks a segment whose exact interval contains the time, and a time in it, up to (number of segments + 3) roundoffs of the total duration; if the motion is continuous at the joints the result differs from the exact motion by at most four such time errors times the slope plus the polynomial's rounding error. The polynomial of a segment may be evaluated slightly before its start or after its end. Past the end of the trajectory, as computed in doubles, every derivative evaluates to zero.", "quantifier": "all coefficients, times, derivatives; all trajectories of up to 999000 segments of positive duration", "why_tests_cant": "A bound over all double inputs and all cancellation patterns; tests sample values and compare with a tolerance.", "anchors": ["subpackages/mav_trajectory_generation/src/polynomial.cpp:145-160", "subpackages/mav_trajectory_generation/include/mav_trajectory_generation/polynomial.h:136-149", "subpackages/mav_trajectory_generation/src/segment.cpp:51-58", "subpackages/mav_trajectory_generation/src/trajectory.cpp:48-79"]}
{"id": "C90", "title": "Evaluating while modifications are applied", "statement": "If no trajectory is swapped in during a call of evaluateTrajectory (no other thread evaluates), each of the references it returns is one an undisturbed call could return at the moment it is read, and the three belong to one moment if no modification of a published waypoint is applied between the first and the last read. Whatever is interleaved with a batch of modifications, at its end every published waypoint is at the position of the last modification of its name in the batch and otherwise unchanged. User expectations: the three references of one call always belong to one moment, and a call of modifyWaypoints takes effect as a whole. Both are false: the position, velocity and acceleration of one call can come from before, between and after the modifications of one batch, and an evaluation can see the first waypoint of a batch moved and the second not.", "quantifier": "every reachable state, every interleaving of the reads with other calls and the background thread", "why_tests_cant": "needs the background thread to act between the reads of one call", "anchors": ["src/dynamic_trajectory.cpp:getReferences", "src/dynamic_trajectory.cpp:evaluateModifiedTrajectory", "src/dynamic_trajectory.cpp:applyWaypointModification", "src/dynamic_trajectory.cpp:todoThreadLoop"]}
{"id": "C91", "title": "Swapping in a trajectory while everything else goes on", "statement": "One thread evaluates; all others may call, and the background thread may run, between any two steps of the replacement of the trajectory (result taken, position or old trajectory read, each sample of the time fitting, offset, parameters, trajectory, regeneration flag, waypoints, end of computation). Once a replacement is complete the object is in a state that an execution with an instantaneous replacement reaches, with the same requests, position reports, regeneration queries and evaluations, each kind in the same order and with the same answers; and conversely such executions are carried out step by step. A replacement waits for nobody, never evaluates a missing trajectory and is over after at most 12 + 3 tc / 0.1 steps of the evaluating thread, tc being the measured computation time. User expectation: getMaxTime called by another thread gives the end of the old or of the new trajectory. False: during the replacement it can be the duration of the old one added to the start of the new one.", "quantifier": "every interleaving, every reachable state, every number of fitting samples", "why_tests_cant": "needs other threads to act between two given statements of the replacement; the number of interleavings is unbounded", "anchors": ["src/dynamic_trajectory.cpp:swapTrajectory", "src/dynamic_trajectory.cpp:swapDynamicWaypoints", "src/dynamic_trajectory.cpp:checkTrajectoryGenerated", "src/dynamic_trajectory.cpp:timeFittingWithVehiclePosition", "src/dynamic_trajectory.cpp:checkInSecurityZone"]}
{"id": "C92", "title": "Waypoint times in double precision", "statement": "Computed with doubles (round to nearest even after every operation), the published waypoint times of a generated trajectory start exactly at the start time of the trajectory and never decrease; the k-th differs from the start time plus the first k durations by at most (n+3) units of roundoff relative to start time plus total duration (n segments), so every leg longer than twice that error separates its two waypoints strictly. Evaluating (without time compensation) at the published time of a waypoint gives the exact state at that joint up to the bound 7*error*L+E, L bounding the next derivative and E the polynomial rounding errors. The time of the last waypoint equals getMaxTime with one or two segments and otherwise up to twice the error; it is not always equal, because the durations are added in opposite orders: the last waypoint can lie after the end of the trajectory.", "quantifier": "every list of up to 999000 segments with positive double durations, every double start time, every waypoint", "why_tests_cant": "Rounding errors depend on every bit of the durations; tests sample a few plans and usually see zero difference.", "anchors": ["src/dynamic_trajectory.cpp:33-46", "src/dynamic_trajectory.cpp:160-167", "src/dynamic_trajectory.cpp:225-235", "src/dynamic_trajectory.cpp:343-352", "src/dynamic_trajectory.cpp:421-437"]}
{"id": "C93", "title": "A modification made right after setWaypoints", "statement": "setWaypoints(plan) followed by modifications of the plan's waypoints: the plan handed to the optimiser has every waypoint at its last requested position if, from setWaypoints until the background thread takes the requests, a new trajectory stays asked for, none is being computed, no named waypoint of the current trajectory is about to be passed, and the background thread had not already decided against a new trajectory when setWaypoints was called. Otherwise modifications can be lost, also before the first trajectory and without any other call: if the background thread looks at the requests between the modifications of modifyWaypoints and its end, or had looked just before setWaypoints, it applies the modifications to the waypoints published before and forgets them, and the plan is generated with the waypoints as they were given.", "quantifier": "every reachable state, every plan, every interleaving of calls and background steps", "why_tests_cant": "The outcome depends on where the background thread is between the calls; the window is a few instructions wide, so a test almost never hits it.", "anchors": ["src/dynamic_trajectory.cpp:60-73", "src/dynamic_trajectory.cpp:82-113", "src/dynamic_trajectory.cpp:237-296", "src/dynamic_trajectory.cpp:579-612"]}
{"id": "C94", "title": "Sampling helpers: cost and maximum magnitude", "statement": "For a trajectory with positive durations whose d-th derivative is continuous, of dimension D, with every component of that derivative at most M and of the next at most L: computeCostNumeric with step dt > 0 ends and differs from the cost integral (summed over segments and dimensions) by at most dt*D*(2*M*L*T+M^2), T the duration. getMaximumMagnitude returns a value the magnitude really takes, and no magnitude on the whole trajectory exceeds it by more than D*L*dt; it is not an upper bound: for a steadily accelerating trajectory it stays below the final speed for every step. A trajectory without segments gives 0 and -1e9. createRandomDouble stays between its bounds and reaches them; checkMatrices accepts exactly the matrices whose entries all differ by less than the tolerance.", "quantifier": "every such trajectory, every derivative, every step, every pair of matrices of the same non-zero size", "why_tests_cant": "The helpers are themselves used inside tests as the reference; how far they can be off depends on the trajectory and the step.", "anchors": ["subpackages/mav_trajectory_generation/include/mav_trajectory_generation/test_utils.h:31-65"]}
{"id": "C95", "title": "Limits after Mellinger's time allocation", "statement": "When every derivative that the vertices fix is fixed to zero and the optimum is unique, multiplying all segment times by k slows the optimal trajectory down by exactly k (its cost falls with the power 2d-1). Hence optimize() with Mellinger's outer loop returns the optimal trajectory of the last times tried, slowed down by the smallest factor that keeps velocity and acceleration within the last maximum-magnitude constraints of order 1 and 2 (up to one per mille). As soon as a vertex is passed at a non-zero velocity this guarantee is lost, even if that velocity is half the limit: the result can exceed the velocity limit by more than 20 percent, because the trajectory is computed anew after its times were scaled.", "quantifier": "all vertex lists, dimensions, polynomial sizes, limits and sequences of points evaluated by NLopt; exact linear algebra and root finding", "why_tests_cant": "The guarantee is about every instant of every optimal trajectory; whether it holds depends on the vertices, so a test that passes for start and goal at rest says nothing about moving vertices.", "anchors": ["subpackages/mav_trajectory_generation/include/mav_trajectory_generation/impl/polynomial_optimization_nonlinear_impl.h:scaleSegmentTimesWithViolation", "subpackages/mav_trajectory_generation/include/mav_trajectory_generation/impl/polynomial_optimization_nonlinear_impl.h:optimizeTimeMellingerOuterLoop", "subpackages/mav_trajectory_generation/src/trajectory.cpp:scaleSegmentTimesToMeetConstraints"]}
{"id": "C96", "title": "Gradient of Mellinger's time allocation", "statement": "The gradient that Mellinger's outer loop hands to NLopt has one entry per segment: the forward difference quotient of the optimal cost when that segment gets a tenth of a second more and the others pay for it evenly, no segment falling below a tenth of a second. Computing it leaves the optimiser exactly as it was; with a single segment it is zero; the total time is unchanged unless a segment hits the lower bound, in which case it grows.", "quantifier": "all vertex lists, dimensions, polynomial sizes, segment times and optimiser states", "why_tests_cant": "The gradient is internal to the search and its effect is only visible through the result of NLopt; that the object is restored exactly holds for all states.", "anchors": ["subpackages/mav_trajectory_generation/include/mav_trajectory_generation/impl/polynomial_optimization_nonlinear_impl.h:getCostAndGradientMellinger"]}
{"id": "C97", "title": "A waypoint object after any calls", "statement": "A DynamicWaypoint built from a vertex with a position of three components, after any sequence of calls of its public functions: getName and getTime return what was last set (initially the given name and 0), getIndex the last index set plus the later displacements (initially -1), getCurrentPosition the last position given by setCurrentPosition, resetWaypoint or setConstraint(0, ...); the vertex it returns has this position and, for every other derivative, what setConstraint last set. A default-constructed waypoint has time 0, no name, no constraint and no modification; once given a position it equals the unnamed waypoint built from a vertex with that position. getOriginalPosition is the position at the last reset (or at construction); hasModifiers says whether setCurrentPosition was called since, and if not the compensation is zero. The first modification of a new waypoint (without current time) acts on axis i exactly within 7/2*3/2*(3/4)^(i+1) seconds of its time. Not restored by a reset: the width, so a later modification acts for a shorter time than on a new waypoint. A vertex without position, or with fewer than three components, is read out of bounds.", "quantifier": "all vertices, names, positions, times and finite call sequences", "why_tests_cant": "The claims are about all interleavings of eight calls; a test runs a handful, and the narrowing width only shows after a reset followed by another move.", "anchors": ["include/dynamic_trajectory_generator/dynamic_waypoint.hpp:14-84", "src/dynamic_waypoint.cpp:5-73"]}
{"id": "C98", "title": "A request that is not overtaken is served in the end", "statement": "Suppose setWaypoints or appendWaypoint have been called, no computation is in flight, the background thread is not in the middle of another request, and no further request, modification or destruction follows. If every thread keeps getting its turns, the client keeps evaluating, every started computation ends, and the vehicle leaves the security zone of the old plan, then after some time and for ever after: no request is pending, nothing is being computed, and the published plan, which does not change any more, ends with the requested waypoints (names, positions, constraints) in order. It is enough that from some evaluation on the client evaluates only times after the last named waypoint of the old plan. In particular a new object on which setWaypoints is called once always gets its plan, however the threads interleave. Leaving the zone is needed: a vehicle hovering shortly before a named waypoint keeps its request pending for ever.", "quantifier": "all infinite executions that are fair to the background thread, the polling client and the computation; all instants at which the request is made; all waypoint lists", "why_tests_cant": "an eventuality over infinite executions: no finite run can show that a plan always arrives or that a request is never served", "anchors": ["src/dynamic_trajectory.cpp:todoThreadLoop", "src/dynamic_trajectory.cpp:setWaypoints", "src/dynamic_trajectory.cpp:checkTrajectoryGenerated", "src/dynamic_trajectory.cpp:swapTrajectory", "src/dynamic_trajectory.cpp:checkInSecurityZone"]}
{"id": "C99", "title": "The root finder's iterations move towards the zeros nearest to the shift", "statement": "Between two polynomials found by findRootsJenkinsTraub the search works on an auxiliary polynomial K. It starts from the derivative divided by the degree (five steps without shift). A step with the quadratic shift s(x) = x^2 + u x + v gives K' with s K' = (x + c) P + k K, k not 0 unless s and P share a zero, so at each zero of P the value of K is divided by that of s; a step with the real shift s gives (x - s) K' = P + k K and the next shift s - P(s)/K'(s). Otherwise a remainder of at most ten machine epsilons of its last terms is neglected. Repeating one quadratic shift, the zero of P where it is smallest wins: the value of K at any zero where it is larger tends to 0 relative to it. When one zero is left in P/K, one linear step from anywhere finds it; when two are left, the estimate of the quadratic factor is theirs: in general it is the denominator of the unique rational interpolant of -K/P at the zeros of the shift and doubly at 0. The size used for the shifts is never below the classical lower bound for the moduli of the zeros, and every zero has at least 1 - (N-1)/200 of it as modulus; it is not itself a lower bound. The shift points turn by 94 degrees at each attempt; the product of the two is that size, so they do not have it as modulus. Coefficients are scaled by a power of two: the one that brings the smallest non-zero modulus close to 2^-74 if that is at least 2^-74 and the largest at least 10, or if it is smaller and the largest modulus stays in the range of float; otherwise they are left alone. Once K no longer changes under the fixed shift and its linear estimate -P(0)/K(0) is a non-zero zero of P, the fixed-shift stage, allowed two steps or more, ends with a finding: that zero, or a pair of zeros accepted before it.", "quantifier": "all real polynomials of any degree, all auxiliary polynomials, shifts and numbers of steps (exact arithmetic, arbitrary result of a division by zero)", "why_tests_cant": "the steps are internal and hold for all polynomials and shifts; a test sees only the zeros of particular polynomials, and an iteration with a wrong scalar usually still finds them by luck or by another shift", "anchors": ["subpackages/mav_trajectory_generation/src/rpoly/rpoly_ak1.cpp:rpoly_ak1", "subpackages/mav_trajectory_generation/src/rpoly/rpoly_ak1.cpp:Fxshfr_ak1", "subpackages/mav_trajectory_generation/src/rpoly/rpoly_ak1.cpp:calcSC_ak1", "subpackages/mav_trajectory_generation/src/rpoly/rpoly_ak1.cpp:nextK_ak1", "subpackages/mav_trajectory_generation/src/rpoly/rpoly_ak1.cpp:newest_ak1", "subpackages/mav_trajectory_generation/src/rpoly/rpoly_ak1.cpp:RealIT_ak1"]}
{"id": "C69", "title": "How far the position reference jumps at a swap", "statement": "User expectation: the position reference does not jump when a new trajectory is swapped in. True: if no named waypoint has been moved since the plan was published, the reference right after the swap, at the last evaluated time, is one step of 0.1f s past the sample of the new trajectory nearest to the target (the vehicle's position for a plan from scratch, otherwise the old reference at that time). With a new trajectory no faster than v: for a stitched plan the reference jumps by at most the distance of the old references at launch and at the swap plus v times that step, and by at most v' |t - tl| + 0.1f v if the old trajectory is no faster than v', where tl and t are the times evaluated last at the launch and before the swap. For a plan from scratch the new reference is at most the vehicle's displacement since the plan was started plus 0.1f v away from the vehicle. The jump itself is not zero: there is an execution in which the reference moves by more than a metre at one and the same time, although nothing but the swap happens.", "quantifier": "all histories in which clients pass waypoints as constructed, all optimiser results meeting their vertices, all speed bounds", "why_tests_cant": "the bound is about every interleaving of evaluation, computation and swap and every trajectory the optimiser may return", "anchors": ["src/dynamic_trajectory.cpp:swapTrajectory", "src/dynamic_trajectory.cpp:timeFittingWithVehiclePosition", "src/dynamic_trajectory.cpp:stitchActualTrajectoryWithNewWaypoints", "src/dynamic_trajectory.cpp:evaluateTrajectory"]}
{"id": "C100", "title": "What a call completes before it returns", "statement": "In every interleaving of any number of threads making any calls (one of which may destroy the object in the end): a call that takes the result of a computation publishes it before it returns; a call that publishes a trajectory afterwards sets the flag read by getWasTrajectoryRegenerated, exchanges the waypoints returned by getDynamicWaypoints and reports that no computation is running, all before it returns; a call that stores waypoints (setWaypoints, appendWaypoint) raises the request for a new trajectory after storing and before returning; and every mutex a call locks it unlocks before it returns.", "quantifier": "any number of client threads, any sequence of calls of each, every interleaving with the background and computation threads", "why_tests_cant": "A test runs a few schedules; that no path through any call, under any schedule, returns with the second half undone is a statement about all of them.", "anchors": ["src/dynamic_trajectory.cpp:60-80", "src/dynamic_trajectory.cpp:378-419", "src/dynamic_trajectory.cpp:651-683"]}
{"id": "C101", "title": "Points added by regeneration: at most two each time, but collected again later and reachable by name", "statement": "Whenever a trajectory is regenerated in flight, the plan reported afterwards by getDynamicWaypoints consists, in order, of either one unnamed start point followed by everything that was collected, or two points named \"stitching_point\" followed by the collected waypoints that are not due inside the stitching window; collected are the waypoints of the last setWaypoints, or otherwise the not yet passed waypoints of the current plan, then the appended ones. So one regeneration adds at most two waypoints. Points named \"stitching_point\" of an earlier plan are collected like any other waypoint: an application that flies [a, b] and only moves waypoint \"a\" again and again, evaluating at increasing times, can end up with any number of them in its plan. The name is not reserved either: modifyWaypoint(\"stitching_point\", p) moves these points although the application has no waypoint of that name, and the reference then passes through p.", "quantifier": "for all reachable states, all interleavings between the collection, the launch and the swap, all trajectories the optimiser may deliver; for the counterexamples, for every number of points and every position p", "why_tests_cant": "The number of points depends on how often the plan is regenerated and on the segment times chosen by the optimiser; a test sees one flight with a few regenerations, and an unbounded growth has no finite test.", "anchors": ["src/dynamic_trajectory.cpp:474-532", "src/dynamic_trajectory.cpp:560-612", "src/dynamic_trajectory.cpp:82-102", "src/dynamic_trajectory.cpp:456-472"]}
{"id": "C102", "title": "Of several reports only the latest counts, unless something looked in between", "statement": "Take any execution in which updateVehiclePosition(p) is followed later by updateVehiclePosition(q), and in between no trajectory start from scratch reads the position and no swap of such a trajectory happens. Leaving out the first call gives an execution with the same results of all calls, ending in the same state, and conversely inserting it changes nothing; so p has no effect at all. The same holds for setSpeed(v) followed by setSpeed(w) with no computation thread reading the speed in between, and for evaluateTrajectory(t) followed by evaluateTrajectory(u) when in between there is no security-zone test, no removal of passed waypoints from the current plan, no start of a computation or choice of stitching, no applied modification and no swap: the requested time t leaves no trace. The restriction is needed: a position that was read while a plan is built stays in that plan although a later one was reported.", "quantifier": "for all states, all values reported, all interleavings of calls, background-thread steps and computation steps between the two reports in which nothing looks, and all contracts of the optimiser", "why_tests_cant": "Showing that an overwritten report influences no later behaviour compares two executions over every interleaving of any length of the client, the background thread and the computation thread; a test compares a few outputs of a few schedules.", "anchors": ["src/dynamic_trajectory.cpp:115-139", "src/dynamic_trajectory.cpp:198-203", "src/dynamic_trajectory.cpp:237-296", "src/dynamic_trajectory.cpp:378-411", "src/dynamic_trajectory.cpp:614-622", "src/dynamic_trajectory.cpp:727-770", "include/dynamic_trajectory_generator/dynamic_trajectory.hpp:189-192"]}
{"id": "C103", "title": "The order of pending modifications does not matter, their grouping into batches can", "statement": "While no trajectory is requested or computed, the effect of calls modifyWaypoint(name, position, false), once the background thread has applied them and whatever it does in between, depends only on the last position given for each name: two sequences of calls with the same last positions lead to the same published waypoints and to the same references at every time. If the calls are split into two batches, with the background thread applying the first before the second is made, instead of being applied together, the published positions are the same; the references at every time are the same too, provided the last evaluated time is positive and for each waypoint changed in both batches the first change, the second change and their sum are, on every axis, zero or at least 0.02 m. User expectation: how calls fall into batches, which depends on thread timing, is never visible. False: moving a waypoint by 15 mm twice shifts the reference if both calls fall into one batch and does not shift it at all if they fall into two, with the same final waypoint positions.", "quantifier": "for all states with an idle background thread, all sequences of modifications of any length, all lists of published waypoints with any earlier modifications, all evaluation times", "why_tests_cant": "Which calls fall into one batch depends on thread timing, and the claim compares all permutations and splittings of arbitrarily long sequences; the failing case needs a particular timing and two changes below a threshold that is not documented.", "anchors": ["src/dynamic_trajectory.cpp:82-102", "src/dynamic_trajectory.cpp:281-291", "src/dynamic_trajectory.cpp:456-472", "src/dynamic_waypoint.cpp:33-73", "include/dynamic_trajectory_generator/utils/traj_modifiers.hpp:47-70"]}
{"id": "C104", "title": "Handles share one trajectory: copies, moves, assignments and destruction", "statement": "A ThreadSafeTrajectory is a handle on a shared trajectory. After any program of constructions, copies, moves, assignments (also self-assignment), destructions, and allocations, releases and writes of the client: a handle that does not compare equal to nullptr answers evaluate, getMaxTime, getMinTime, getSegments and getWaypoints, always from one existing trajectory; a trajectory is deleted exactly when no handle and no pointer of the client refers to it any more. An assignment makes the target answer like the source and changes no other handle; a copied or moved-from handle stays as it was (moving does not empty it); destroying a handle or giving up the client's pointer disturbs no other handle. Handles comparing equal give equal answers, also after any write through a pointer the client kept, and such a write is seen by exactly the handles on that trajectory. User expectations: handles on equal trajectories compare equal, and a handle made from std::move(pointer) takes the trajectory away from the client. Both are false: comparison is by identity, and the pointer is copied, so the client can still change the trajectory behind the handle.", "quantifier": "for all programs of calls of any length on any number of handles and trajectories, all trajectories, all evaluation times and derivative orders (calls do not overlap)", "why_tests_cant": "Absence of dangling or leaked trajectories and independence of handles range over all programs and aliasings of any number of handles; a use after free may go unnoticed in any single run.", "anchors": ["include/dynamic_trajectory_generator/thread_safe_trajectory.hpp:13-125"]}
{"id": "C105", "title": "A modification that is not overtaken is applied in the end", "statement": "Suppose modifications have been asked for by modifyWaypoint, no regeneration is requested, no computation is in flight, and no further request, modification or destruction follows. If every thread keeps getting its turns, then after some time and for ever after: no modification is pending, the trajectory is the same as before, every waypoint whose (non-empty) name was given has been moved exactly once, to the position asked for last, with the time that had been evaluated last at some instant since the call, and every other waypoint is untouched. In particular after one such call of modifyWaypoint(name, p, false) on an object that is not computing, exactly the waypoints of that name end up at p and stay there. If a computation is in flight instead, the modifications survive it: the new plan is swapped in with the places it was computed for, and afterwards the modifications are applied to that plan in the same way.", "quantifier": "all infinite executions that are fair to the background thread; all plans, names, positions and evaluations in between", "why_tests_cant": "an eventuality over infinite executions and all interleavings of evaluations with the steps of the loop that applies the modifications", "anchors": ["src/dynamic_trajectory.cpp:todoThreadLoop", "src/dynamic_trajectory.cpp:applyWaypointModification", "src/dynamic_trajectory.cpp:modifyWaypoint", "src/dynamic_waypoint.cpp:setCurrentPosition"]}
