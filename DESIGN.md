# Formal model of dynamic_trajectory_generator

This directory holds a Rocq (Coq 8.16.1) model of the library in `/repo` and
proofs of the properties listed in `properties.jsonl`.  `MANIFEST.json` maps
each property to the theorems that settle it.

`MTG` below stands for `/repo/subpackages/mav_trajectory_generation`.

## 1. Trusted base

* Coq 8.16.1's kernel (and `coqchk`).
* The axioms reported by `Print Assumptions` (section 5 lists them for each
  theorem).  All come from the standard library: the classical reals
  (`ClassicalDedekindReals.sig_forall_dec`, `ClassicalDedekindReals.sig_not_dec`),
  `FunctionalExtensionality.functional_extensionality_dep`,
  `Classical_Prop.classic`, and for one theorem (`C54_routines_exist`)
  `RelationalChoice.relational_choice` and
  `ClassicalUniqueChoice.dependent_unique_choice`.  No axiom is added here.
* The reading of the C++ code recorded in the comment above each definition
  (file and lines).
* For C61: yaml-cpp prints a double with enough digits to read it back.

## 2. What is modelled and what is idealised

The whole of `src/`, `MTG/src` and the headers they use, function by function:

* **Dynamic trajectory** (`DynModel`): the object as a state machine.  API calls
  are atomic events or sequences of them; the background thread and the
  computation are split into the steps between which other threads can
  interfere.  A poll that swaps is two events, because the request flag is
  cleared after the new state is visible (`PollEnd`).  A security zone check
  running during a swap may return anything (`BackTorn`).  Modifications are
  applied one waypoint at a time, so evaluations can come in between (`PMove`,
  C90).  `FineModel` splits the swap into its single statements, and C91 shows
  that the events of `DynModel` lose nothing by this (one evaluating thread).
  Client calls stay single events: each is one critical section; only the
  unlocked size test of the background thread (a data race, C71) could look
  inside one.  `FloatEval` repeats the evaluation with the 32-bit time argument.
* **Threads** (`ConcModel`): the lock and access skeleton of every API function,
  the background thread, the computation and the destructor, for any number of
  client threads and any interleaving; data conditions are arbitrary choices.
* **Trajectory handles** (`HandleModel`): `ThreadSafeTrajectory` with the
  reference counts of `std::shared_ptr`; calls do not overlap here.
* **Waypoints** (`WaypointModel`), **polynomials, segments, trajectories**
  (`PolyModel`, `TrajModel`), **vertices and time estimates** (`VertexModel`).
* **Linear optimiser** (`LinOptModel`): matrices as functions of two indices,
  for every even number of coefficients from 2 to 22.  Eigen's inverse and sparse QR
  solver are arguments with an exact contract; `C54_routines_exist` shows the
  contracts can be met.
* **Nonlinear optimiser** (`NonlinModel`): NLopt is an arbitrary list of
  evaluated points, with or without an abort.
* **Computation end to end** (`ComputeModel`): waypoints to trajectory.
* **Root finder** (`RpolyModel`): the complete Jenkins-Traub iteration in exact
  arithmetic; the result of a division by zero is arbitrary.
* **Utilities**: derivative names (`MotionModel`), timing (`TimingModel`),
  rotations and gravity (`RotModel`), sampling and trajectory points
  (`SamplingModel`), saving and loading (`IoModel`), vertex generators
  (`GenModel`), candidate sampling (`CandSampleModel`), the optimiser's matrix
  accessors (`MatrixModel`), rotor speeds (`RotorModel`), vertices of a
  trajectory (`TrajVertexModel`), comparison operators (`EqModel`), sampling
  helpers (`TestUtilModel`).
* **Double precision** (`RoundModel`, `ScheduleModel`): polynomial, segment and
  trajectory evaluation (C89) and the waypoint times (C92) with a rounding after
  every operation.

Idealisations:

* `double` is modelled by the real numbers.  Rounding, overflow, NaN and
  infinities are out of scope, except where a property is about rounding: the
  segment search and the clamping of references are also proved for an arbitrary
  monotone rounded addition, the `float` time argument uses Flocq's binary32, and
  the nanosecond conversions, files, evaluation and waypoint times use Flocq's
  binary64 (round to nearest even, with underflow, without overflow and without
  fused multiply-add).  Constants
  (`DBL_MAX`, `DBL_EPSILON`, `0.1f`, `9.81f`) have their exact values.
* Eigen vectors are lists of reals or triples; `std::vector`/`std::deque` are
  lists; memory allocation never fails.
* External code is an argument of the model: NLopt, the sparse linear solver,
  the matrix inverse, the wall clock, yaml-cpp.  Every theorem states what it
  assumes of it.  C39 and C40 assume a complete root finder; for derivatives with
  at most two zeros besides the origin `C39_min_max_low_degree` proves it of the
  modelled one.
* Undefined behaviour, exceptions and fatal `CHECK`s are explicit outcomes.
* A speed of zero or less is not excluded from the state machine; what the
  computation does with it is stated in C52 and C77.
* When a user expectation is false of the code, the property states what holds
  instead and a theorem ending in `_refuted` proves the negation of the
  expectation from a concrete witness.  Such properties count as proved.

## 3. Not modelled

Logging and printing, `utils/logging_utils.hpp`, the example programs, tests and
plotting code, the ROS 2 message conversions (disabled by the preprocessor),
random number generation (its numbers are arbitrary arguments), and CPU memory-model
effects of the unlocked reads (C71 only establishes where races are).  The file
`dynamic_trajectory_v2.cpp` is a template that does not compile and is not built.

## 4. How each property is proved

* **C01 Published waypoint schedule matches the trajectory** - DynTraj state machine; inductive invariant over all events.
* **C02 Background generation never hits its error paths** - Same machine with distinct error outcomes; invariant that no step reaches them.
* **C03 Where a generated trajectory starts and ends** - Launch records the vertex list handed to the optimiser; characterised from the state before the launch.
* **C04 setWaypoints is a complete replacement** - Queue functions of the machine; independent spec as a fold over the call history.
* **C05 Append and modify keep the remaining plan** - As C04 for the branch without a set list.
* **C06 Pending modifications form a last-write-wins map** - modifyWaypoint on the queue; induction over the call sequence; spec = last occurrence.
* **C07 At most one computation in flight** - Trace property of the machine: launches and swaps alternate.
* **C08 A generation request can be lost** - Invariant 'queue non-empty, flag false, no new request' closed under all non-request events, plus reachable witness.
* **C09 A request made while idle is served** - Case analysis of the background step from every idle state.
* **C10 modifyWaypoint with generate_new_traj=false cancels earlier requests** - Refutation with witness plus closed set of states (as C08).
* **C100 What a call completes before it returns** - an abstract interpretation of the command language (obligation after, at a break, per loop) proved sound for one step of the thread and insensitive to steps of other threads; the calls are checked by computation (`PropertiesFollow`).
* **C101 Points added by regeneration: at most two each time, but collected again later and reachable by name** - `PropertiesGrow.v`: C04_launch_list/C04_published give the exact names of the next plan; unbounded growth by induction over rounds of (evaluate, modify, regenerate, swap) that keep an explicit loop invariant, with stop-and-go trajectories of one second per segment meeting the complete optimiser contract.
* **C102 Of several reports only the latest counts, unless something looked in between** - `PropertiesLatest.v`: a relation between states that differ only in the report, preserved by every step that does not look at it (case analysis over all events and all program points of the background thread), lifted to executions by induction and closed by the second report, which overwrites the difference.
* **C103 The order of pending modifications does not matter, their grouping into batches can** - `PropertiesBatch.v`: a function of the state giving the final waypoints of the batch under way, constant along every step of the background thread; the queue is a last-write-wins map (C06); additivity of the compensation in changes that are not ignored, with equal windows.
* **C104 Handles share one trajectory: copies, moves, assignments and destruction** - `PropertiesHandle.v` over `HandleModel.v`: induction over programs with the invariant that each use count is the number of handles and client pointers referring to the allocation, with a ledger of references acquired but not yet stored for the intermediate states of an assignment.
* **C105 A modification that is not overtaken is applied in the end** - `PropertiesApply.v`: leads-to argument over infinite executions; the background thread reaches the loop, a measure decreases with each of its steps there, the names in the map are distinct so that each waypoint is moved once; afterwards an invariant. `PropertiesApply2.v`: while a computation is in flight the pending map is an invariant; the future becomes ready, the poll swaps, and the first part applies from there.
* **C11 Modifying a pending waypoint inside the security zone is forgotten** - Refutation: characterisation of the poll step in the security zone, then of the later launch.
* **C12 References never leave the trajectory's time range** - evaluateModifiedTrajectory over an abstract rounded addition; characterisation of the value.
* **C13 Hold at the end** - From C12 and the vertex constraints of the last segment.
* **C14 Plotting evaluations and getters do not disturb the plan** - Frame lemma for each call.
* **C15 A swap sets the clock back** - Refutation with a reachable witness and general statement of the swap.
* **C16 Remaining waypoint count** - Shape invariant of published lists; counting lemma; monotonicity.
* **C17 Time compensation is the sampled nearest point** - Fold over sample times; optimality by induction; range bound.
* **C18 Waypoint times ignore the time compensation** - From C12 and the schedule.
* **C19 Stitching drops waypoints that have not been passed** - Refutation with witness, general characterisation of the stitched list.
* **C20 A plan started at time zero returns to its start** - Refutation with a reachable witness.
* **C21 Speed is a register** - Invariant over all events including the split computation.
* **C22 Regeneration notification** - Ghost event counter; separate two-thread model for the race.
* **C23 Lock order** - Lock skeletons of all functions, any number of threads; strict lock order implies progress.
* **C24 An exception in the computation wedges the object** - Machine with a throwing computation; blocked set closed under all events.
* **C25 Concurrent evaluation can take one result twice** - Fine-grained model of checkTrajectoryGenerated run by several threads.
* **C26 generateTrajectory ignores its argument** - Launch with an arbitrary argument; outcome UB.
* **C27 Shutdown** - Stop flag in the machine; bound on background steps.
* **C28 A moved waypoint is reached at its new position** - Waypoint model; induction over modification sequence.
* **C29 Small modifications accumulate unnoticed** - Refutation by induction on n.
* **C30 Compensation is local and bounded** - Bounds on the Gaussian; exp monotonicity.
* **C31 Velocity compensation is the derivative of position compensation** - Coquelicot is_derive on the open window.
* **C32 Acceleration compensation is not the derivative of velocity compensation** - Coquelicot; explicit error term.
* **C33 Modifying a passed waypoint has no effect on references** - Sigma negative makes the window empty.
* **C34 Window depends on the axis when no time was evaluated** - Explicit sigma sequence 1.125, 0.84375, 0.6328125 and geometric decay.
* **C35 Copying a waypoint preserves everything observable but the window memory** - Direct, on the record.
* **C36 Polynomial evaluation is the k-th derivative** - Coefficient lists against Coquelicot Derive_n.
* **C37 Products and sums of polynomials** - Induction on coefficient lists.
* **C38 Time scaling of a polynomial** - Via coefficients.
* **C39 Extrema of a polynomial** - Extreme value theorem plus interior extremum has zero derivative.
* **C40 Extrema of the magnitude of a segment and of a trajectory** - C39 applied to the squared norm polynomial; monotone square root; fold over segments.
* **C41 Minimum magnitude in one dimension is wrong** - Witness.
* **C42 Trajectory::evaluate selects the right segment** - Recursion over segments, real and rounded addition.
* **C43 Smoothness of composed trajectories** - Piecewise functions glued with Coquelicot.
* **C44 Scaling segment times preserves the path** - From C38 and C42.
* **C45 Scaling to meet constraints** - Loop model with 20 iterations; C40 and C44.
* **C46 Single-dimension extraction loses the segment times** - Direct.
* **C47 Appending dimensions** - Via C38; refutation witness for different N.
* **C48 Concatenation and offset of trajectories** - Via C42.
* **C49 evaluateRange sampling** - Loop model with fuel justified by dt>0.
* **C50 Vertex constraint map** - Association-list model; map laws.
* **C51 Segment time estimates respect the limits** - Model with vectors as lists; inequalities over the reals.
* **C52 Repeated waypoints abort the process** - Witness and general statement.
* **C53 The optimiser meets all vertex constraints and is smooth** - Matrix model (functions on nat indices) for arbitrary even N.
* **C54 The mapping-matrix inverse is an inverse** - Block structure; Schur complement; interpolation uniqueness for invertibility.
* **C55 The quadratic cost is the integral of the squared derivative** - Integral of a polynomial (Coquelicot RInt).
* **C56 The linear solution is optimal, and when it is the only optimum** - The cost is a convex quadratic form in the constraints; a solution of the normal equations minimises it, and every interpolating smooth piecewise polynomial is some choice of the free constraints. Uniqueness: the parallelogram law gives equal derivatives of the optimised order; the difference of two optima is one polynomial of lower degree along the whole trajectory, which the fixed constraints force to vanish.
* **C57 Soft constraint cost** - Real inequalities.
* **C58 Optimiser bounds always admit the initial guess** - List induction.
* **C59 The polynomial root finder and what its roots mean** - Invariant of the deflation loop (each accepted zero passes a backward-error test), Horner and quadratic synthetic division as factorisations, tangent inequality for the Newton iteration (termination).
* **C60 Timing accumulator** - Induction over samples; ring-buffer invariant.
* **C61 Saving and loading a trajectory** - Abstract YAML tree; truncation to nanoseconds; binary64 rounding with Flocq.
* **C62 Derivative names** - Case analysis.
* **C63 Single-precision time argument** - Flocq binary32 rounding.
* **C64 Rotation helpers** - Trigonometry in Coquelicot / stdlib.
* **C65 Sampling functions** - Via C42 and C49.
* **C66 Compensation jumps at the edge of its window** - Left and right limits of the Gaussian window.
* **C67 Changing a waypoint at its own time makes the reference undefined** - 0/0 as an explicit undefined outcome of the evaluation.
* **C68 A plan generated right after a swap starts at the wrong point** - Refutation with a reachable witness; general formula for the start point.
* **C69 How far the position reference jumps at a swap** - Composition of C17 (nearest sample), C03 (start point), the mean value theorem over the segments of a trajectory with bounded speed, and the invariant of fresh waypoints; refutation with a reachable witness.
* **C70 Destruction during a computation** - Lock-level model including the destructor; reachable witness.
* **C71 Data races** - Lock-level model, any number of threads: invariant relating held mutexes and accesses; witnesses for the three races.
* **C72 The nonlinear optimiser returns the last point, not the best** - NLopt as an arbitrary list of evaluated points; induction over it; witness for a discarded better point.
* **C73 Hard constraints on the free derivatives** - Characterisation of the index arithmetic; witness.
* **C74 Maximum of magnitude in the optimiser** - From C39/C40 for each segment, fold over segments.
* **C75 Cost bookkeeping of the nonlinear optimiser** - Fold over evaluations.
* **C76 The nonlinear result interpolates the vertices** - C53 for whatever times and free derivatives are evaluated.
* **C77 From waypoints to trajectory** - Composition of waypoint, time estimation, linear and nonlinear models.
* **C78 Gravity magnitude** - Real inequalities.
* **C79 Nanosecond conversions** - Flocq binary64 rounding; exactness of multiples.
* **C80 Change of frame** - Quaternion and rotation matrix algebra; derivatives of transformed motions.
* **C81 Table of sampled states** - Loop model with C42 and C49.
* **C82 Generated test routes have the promised shape, and the random generator can draw forever** - The random generator is a loop over an arbitrary number sequence; invariants of its positions; a farthest-corner draw for progress, the centre for the endless loop. The square is a list computation by induction on the rounds.
* **C83 The optimiser's matrices mean what their names say** - Block-diagonal matrix algebra over the per-segment inverse contract; the reordering matrix has one 1 per row, so its columns are orthogonal, which gives the pseudo-inverse; the cost form comes from C55.
* **C84 Sampling a segment for maximum candidates** - Loop invariant over the sample index gives the exact result as a filter of the sample times; one dimension by the mean value theorem at the largest sample; the plane curve as counterexample has its next derivative bounded below.
* **C85 Rotor speeds produce the torque and thrust of the motion** - Product rule for attitude, inertia and angular velocity; matrix algebra for the allocation; the hexacopter rows are orthogonal.
* **C86 Vertices taken from a trajectory** - Induction over the segments with the segment selection of C42; sub-vertices by C50.
* **C87 The speed limit, the durations that keep it, and the durations the generator estimates** - Mean value theorem and Cauchy-Schwarz for the bare bound; quadrature rules with positive rational weights, exact for polynomials of degree 8, for legs at rest at an end; derivative of a function that is monotone and constant for the extremal case. End to end through C77 and the durations of C72.
* **C88 Comparison of segments and trajectories** - Coefficients of equal length are determined by the values on an interval (identity theorem of C56); induction over the segments.
* **C89 Evaluation in double precision** - Rounding after every operation (Flocq binary64); forward error analysis of Horner's rule and of the running sum of durations; the motion is Lipschitz across the joints; concrete doubles for the two refutations.
* **C90 Evaluating while modifications are applied** - What evaluations read changes only by swaps and applied modifications (step lemma, induction over runs); progress of a batch as an invariant with the modifications done and the position in the waypoint list; a concrete flight with two modifications in the security zone for the refutations.
* **C91 Swapping in a trajectory while everything else goes on** - Forward simulation from the step-by-step machine `FineModel` to `DynModel`: the abstract replacement happens with the last step, position reports and queries made after the step that matters to them are postponed until then; the state in the middle is an explicit overlay of the state before. Converse by executing the steps; bound by a rank that only the evaluating thread's steps change.
* **C92 Waypoint times in double precision** - Monotone rounding gives the order; forward error analysis of a reversed running sum; evaluation at the times by C89 and the Lipschitz bound across joints; concrete doubles for the refutation.
* **C93 A modification made right after setWaypoints** - Induction over runs through states in which nothing forbids a new trajectory: the background thread never enters the branch that applies modifications; explicit run of that branch and two concrete executions from the constructor for the losses.
* **C94 Sampling helpers: cost and maximum magnitude** - Left Riemann sums of a Lipschitz function by induction over the samples; the integral of the glued pieces is the sum of the segment integrals; Minkowski-type bound for the magnitude.
* **C95 Limits after Mellinger's time allocation** - Scaling all times conjugates the optimality conditions when fixed derivatives vanish; uniqueness identifies the recomputed optimum with the slowed trajectory; C45 gives the factor; a two-segment trajectory computed in closed form for the refutation.
* **C96 Gradient of Mellinger's time allocation** - Induction over the gradient loop with the invariant that every iteration restores the optimiser; the moved times are computed per index.
* **C97 A waypoint object after any calls** - Induction over the call sequence from the right; each observer changes only by the calls that mention it.
* **C98 A request that is not overtaken is served in the end** - leads-to arguments under weak fairness, one per control point, on top of the step invariant; infinite executions for the examples are lassos (a finite run followed by a repeated loop)
* **C99 The root finder's iterations move towards the zeros nearest to the shift** - algebraic identities over the complex numbers for the three kinds of step, uniqueness by the fact that no line is a multiple of a quadratic, geometric decay for repeated shifts, convexity for the Newton iteration of the bound `PropertiesSettle.v`: symbolic execution of two steps of the fixed-shift stage on a settled K, for every polynomial and shift.

## 5. Files and axioms

All files are in `rocq/theories`, in build order.  `*Model` files hold the model,
`*Spec` files the independent specifications, `Properties*` files the theorems
named in `MANIFEST.json` with their examples, the others proofs.

* `Base` - Common vocabulary of the model: constants of the C++ code, boolean comparisons on reals, three-vectors, finite sums.
* `PolyModel` - Model of mav_trajectory_generation::Polynomial.
* `PolySpec` - Specification vocabulary for polynomials, independent of the model.
* `PolyProofs` - Proofs about the polynomial model.
* `VertexModel` - Model of mav_trajectory_generation::Vertex and of the segment time estimates.
* `VertexSpec` - Specification vocabulary for Vertex: sequences of operations against a finite map from derivative orders to vectors.
* `VertexProofs` - Proofs about Vertex and the segment time estimates.
* `TrajModel` - Model of mav_trajectory_generation::Segment and Trajectory.
* `TrajSpec` - Specification vocabulary for segments and trajectories: what a composed trajectory is as a function of time, stated with real analysis only.
* `TrajProofs` - Proofs about evaluation of trajectories.
* `ExtremaProofs` - Proofs about extrema of polynomials, segments and trajectories.
* `TrajOpsProofs` - Proofs about operations on trajectories: time scaling, scaling to limits, extraction and appending of dimensions, concatenation, offset, sampling.
* `RangeProofs` - evaluateRange, getVertices, and trajectory-level appending.
* `Examples` - Concrete objects used to show that the hypotheses of the theorems can be met.
* `PropertiesPoly` - Property theorems: polynomials (C36 - C39).
* `TrajFinal` - Trajectory facts in the form used by the property files.
* `PropertiesTraj` - Property theorems: segments and trajectories (C40 - C49).
* `PropertiesVertex` - Property theorems: vertices and segment time estimates (C50, C51).
* `WaypointModel` - Model of GaussianModifier and DynamicWaypoint.
* `WaypointSpec` - Specification vocabulary for waypoints: histories of position changes and re-timings of one waypoint.
* `WaypointProofs` - Proofs about modifiers and waypoints.
* `PropertiesWaypoint` - Property theorems: waypoints and their modifications (C28 - C35, C66, C67).
* `Names` - String constants (kept apart because importing String hides list functions).
* `DynModel` - Model of DynamicTrajectory as a state machine.
* `DynSpec` - Specification vocabulary for the DynamicTrajectory state machine: what the optimiser is assumed to return, executions, and what a list of client calls asks for.
* `DynProofs` - Invariants of the DynamicTrajectory state machine.
* `DynFrame` - Frame lemmas: what cannot change while a trajectory is being prepared or computed.
* `StopAndGo` - A family of trajectories that meet the complete optimiser contract: they leave the first vertex with a given velocity and acceleration and stop at every other vertex.
* `DynTrace` - Lemmas about executions: computations in flight, request queues, running the background thread alone.
* `DynQueue` - Lemmas about the request queues and about running the background thread without interference.
* `DynMore` - Further lemmas about executions: the copied parameters, lost requests, the state of the clock, and the complete optimiser contract.
* `EvalProofs` - References returned by evaluateTrajectory: range, end, waypoints, time fitting.
* `DynScenario` - Running the agents without interference, and a concrete flight used in the examples and counterexamples.
* `PropertiesDyn` - Property theorems: plan, schedule and requests of DynamicTrajectory (C01 - C11).
* `PropertiesReq` - Property theorems: requests made to DynamicTrajectory (C04 - C11).
* `PropertiesEval` - Property theorems: references returned by evaluateTrajectory (C12, C13, C17, C18).
* `PropertiesLife` - Property theorems: observers, notifications, failures and shutdown of DynamicTrajectory (C14 - C16, C19 - C22, C24, C26, C27).
* `PropertiesLife2` - Property theorems: waypoints lost or revisited by regeneration, speed, notification, failures and shutdown of DynamicTrajectory (C19 - C22, C24, C26, C27).
* `PropertiesLife3` - Property theorems: stitching right after a swap (C68).
* `ConcModel` - Model of the thread structure of DynamicTrajectory: which mutexes are locked, which shared variables are read and written and which atomic flags are tested and set, in which order, by every API function, the background thread and the computation thread.
* `ConcSpec` - Vocabulary of the properties about threads.
* `ConcCheck` - A checker for the lock order and for the protection of the shared variables, and its soundness: proof machinery, no model.
* `ConcProofs` - The invariant of all executions: what every thread holds, and who has the turn in the hand-over between background thread, computation and the evaluating thread.
* `PropertiesConc` - Properties of the threads: lock order, misuse of the future, data races, lost notifications, destruction.
* `PropertiesConc2` - Executions with several threads that go wrong, and examples.
* `PropertiesFollow` - Property theorems: what a call that has started something always does before it returns, in every interleaving of any number of threads (C100): a trajectory that is published is announced, the waypoints are exchanged with it, a request that is stored is flagged.
* `PropertiesGrow` - Property theorems: the points that stitching adds to the plan (C101).
* `PropertiesLatest` - Property theorems: of several reports to DynamicTrajectory only the latest one counts, unless something looked in between (C102).
* `PropertiesBatch` - Property theorems: the order of modifications does not matter, their grouping into batches can (C103).
* `PropertiesHandle` - Property theorems: ThreadSafeTrajectory as a handle on a shared trajectory (C104).
* `LinOptModel` - Model of mav_trajectory_generation::PolynomialOptimization<N>, the linear polynomial optimiser.
* `LinAlg` - Finite linear algebra over R with matrices as functions: products of sums, a solvability criterion for linear systems, and the inverse of the matrix of falling factorials that appears in the linear optimiser.
* `LinOptSpec` - Specification vocabulary for the linear optimiser, independent of how the optimiser computes its result.
* `LinInverse` - The mapping matrix and its block inverse.
* `LinReorder` - The constraint lists of the optimiser and the reordering matrix.
* `LinProofs` - The segments computed by the linear optimiser.
* `LinCost` - The quadratic cost of the linear optimiser: it is the integral of the squared derivative, and the linear solve minimises it.
* `LinFinal` - Final forms of the linear-optimiser results used by the property file.
* `PropertiesLin` - Property theorems: the linear optimiser (C52-C56).
* `NonlinModel` - Model of mav_trajectory_generation::PolynomialOptimizationNonLinear<N>. Sources: MTG/include/mav_trajectory_generation/polynomial_optimization_nonlinear.h ("header") and impl/polynomial_optimization_nonlinear_impl.h ("impl").
* `NonlinSpec` - Specification vocabulary for the nonlinear optimiser.
* `NonlinProofs` - Proofs about the nonlinear optimiser.
* `NonlinFinal` - Proofs about the nonlinear optimiser: what NLopt is given, and what a run of it leaves behind.
* `PropertiesNonlin` - Property theorems: the nonlinear optimiser (C57, C58, C72-C76).
* `FloatModel` - Single precision values.
* `ComputeModel` - Model of DynamicTrajectory::computeTrajectory up to the trajectory, with the optimisers of mav_trajectory_generation instead of an assumed contract.
* `ComputeSpec` - Specification vocabulary for the whole generator: waypoints a client may pass, and executions in which the computation thread runs the optimiser.
* `ComputeProofs` - The optimisers meet the contract that the execution model assumed.
* `PropertiesEndToEnd` - Property theorems: from the waypoints to the trajectory (C77).
* `MotionModel` - Model of the derivative names.
* `PropertiesMotion` - C62 - derivative names.
* `FloatEval` - The time argument of evaluateTrajectory.
* `FloatProofs` - Facts about binary32 rounding used by C63.
* `PropertiesFloat` - C63 - the time argument of evaluateTrajectory is a 32-bit float.
* `TimingModel` - Model of the timing utilities.
* `PropertiesTiming` - C60 - timing accumulator, tags and handles.
* `RotModel` - Model of the rotation helpers of mav_msgs.
* `RotProofs` - Proofs about the rotation helpers.
* `RotDeriv` - Rotation vectors: inverse of matrixFromRotationVector, and its derivative.
* `RotOmega` - omegaFromRotationVector and omegaDotFromRotationVector are the angular velocity and acceleration.
* `PropertiesRot` - C64 - rotation helpers of mav_msgs; C78 - gravity.
* `SamplingModel` - Model of trajectory_sampling.cpp and of mav_msgs::EigenTrajectoryPoint and EigenOdometry.
* `PropertiesSampling` - C65 - sampling functions; C80 - change of frame.
* `PropertiesQuat` - The contract of the quaternion constructor assumed in C65 and C80 is met by Eigen's algorithm in exact arithmetic.
* `IoModel` - Model of mav_trajectory_generation/io.{h,cpp} and of the nanosecond conversions of Segment and mav_msgs.
* `DoubleProofs` - Facts about binary64 rounding used by C61 and C79.
* `PropertiesIo` - C61 (saving and loading trajectories) and C79 (nanosecond conversions).
* `PropertiesTable` - C81: the table of sampled states written for plotting.
* `RpolyModel` - Model of the polynomial root finder (Jenkins-Traub).
* `RpolySpec` - Specification of the root finder, independent of its algorithm: complex values of real polynomials, leading coefficient first.
* `RpolyProofs` - Proofs about the root finder: quadratic solver, synthetic division and the acceptance tests.
* `RpolyMain` - The root finder as a whole: what its zeros mean, and that it terminates.
* `PropertiesRpoly` - C59: the polynomial root finder findRootsJenkinsTraub (exact arithmetic), and what it gives for the extrema of polynomials (C39).
* `GenModel` - Model of the vertex generators.
* `PropertiesGen` - C82: the vertex generators.
* `MatrixModel` - Model of the accessors for the internal matrices and counts of the linear optimiser.
* `PropertiesMatrix` - C83: the matrices handed out by the linear optimiser.
* `LinUnique` - Uniqueness of the optimum of the linear optimiser.
* `PropertiesLin2` - Property theorems: uniqueness of the linear solution (C56).
* `CandSampleModel` - Model of PolynomialOptimization::computeSegmentMaximumMagnitudeCandidatesBySampling.
* `PropertiesCand` - Property theorems: candidates for the maximum magnitude found by sampling a segment (C84).
* `RotorModel` - Model of mav_msgs::getSquaredRotorSpeedsFromAllocationAndState.
* `PropertiesRotor` - Property theorems: rotor speeds from the state (C85).
* `TrajVertexModel` - Model of Trajectory::getVertices for position and yaw.
* `HandleModel` - Model of ThreadSafeTrajectory - thread_safe_trajectory.hpp:14-125 - as a handle on a shared trajectory.
* `PropertiesTrajVertex` - Property theorems: the vertices of a trajectory (C86).
* `SpeedProofs` - How fast a polynomial curve must be somewhere, given where it is at the two ends of a time interval.
* `PropertiesSpeed` - Property theorems: the speed limit and the estimated segment times (C87).
* `EqModel` - Model of the comparison operators of Polynomial, Segment and Trajectory.
* `PropertiesEq` - Property theorems: comparison of trajectories (C88).
* `RoundModel` - Evaluation of polynomials, segments and trajectories in double precision.
* `RoundProofs` - Rounding errors of the evaluation of polynomials in double precision.
* `RoundTime` - Rounding errors of Trajectory::evaluate: the segment, the time in it and the value.
* `PropertiesRound` - Property theorems: evaluation in double precision (C89).
* `ScheduleModel` - The published times of the waypoints in double precision.
* `PropertiesSchedule` - Property theorems: the published times of the waypoints in double precision (C92).
* `PropertiesTorn` - Property theorems: evaluations while modifications are being applied (C90).
* `FineModel` - The swap of a finished trajectory and the evaluation of a time step by step: what happens inside the single events Poll and Eval of DynModel, with every other agent running in between - dynamic_trajectory.cpp:378-419, 676-679, 727-770, 122-131; and the two reads of checkInSecurityZone - 698, 700-703. One thread evaluates.
* `PropertiesFine` - C91: carrying out a swap and an evaluation step by step, with everything else going on in between, has the outcomes of DynModel.
* `PropertiesRace` - Property theorems: modifications made right after setWaypoints (C93).
* `TestUtilModel` - The numerical helpers the library ships for checking trajectories.
* `PropertiesTestUtil` - Property theorems: the numerical helpers of test_utils.h (C94).
* `LinScale` - Proofs about scaling the segment times of the linear optimiser (C95).
* `PropertiesScale` - Property theorems: limits after Mellinger's time allocation (C95).
* `PropertiesGrad` - Property theorems: the gradient of Mellinger's time allocation (C96).
* `WpObjModel` - DynamicWaypoint as an object: the remaining members of include/dynamic_trajectory_generator/dynamic_waypoint.hpp and the effect of a sequence of calls on one waypoint.
* `PropertiesWp` - Property theorems: a waypoint object after any sequence of calls (C97).
* `PropertiesLive` - Property theorems: every request that is not overtaken by another is served in the end, in every infinite execution that treats the threads fairly (C98).
* `PropertiesLive2` - Property theorems: what the client has to do for a request to be served (C98).
* `PropertiesApply` - Property theorems: every modification that is not overtaken is applied in the end, in every infinite execution that treats the threads fairly (C105).
* `PropertiesApply2` - Property theorems: modifications made while a trajectory is being computed are applied to the new plan in the end (C105).
* `PropertiesShift` - C99: what the iterations of the root finder do with the zeros they look for (exact arithmetic; [rdiv] is any division, arbitrary for division by zero).
* `PropertiesSettle` - C99: the fixed-shift stage of the root finder notices that its auxiliary polynomial has settled (exact arithmetic; [rdiv] is any division, arbitrary for division by zero).
* `PropertiesJump` - Property theorems: how far the position reference jumps when a new trajectory is swapped in (C69).
* `PropertiesConst` - Property theorems: the decimal literals of the source are the floats and doubles nearest to them (C17, C77, C84).

### What `Print Assumptions` lists for each theorem

No axioms (closed under the global context):

C100_locks_released, C100_publish_notifies, C100_publish_waypoints, C100_published_idle,
C100_request_flagged, C100_set_flagged, C100_taken_published, C104_deleted, C22_never_lost_refuted,
C23_no_circular_wait, C23_no_deadlock, C25_one_evaluator_no_misuse, C25_two_evaluators_refuted,
C50_remove_reports, C50_size_mismatch_aborts, C62_invalid_round_trip, C62_inverse, C62_orientation,
C62_position, C70_safe_destruction_refuted, C71_races_exist, C71_races_only_bare.

Axioms `ClassicalDedekindReals.sig_forall_dec`:

C03_ends_at_rest, C104_exclusive_refuted, C37_sum_defined, C38_fewer_coefficients,
C48_offset_defined, C50_iteration, C50_operations, C50_subdimension, C50_subdimension_out_of_range.

Axioms `ClassicalDedekindReals.sig_forall_dec`, `FunctionalExtensionality.functional_extensionality_dep`:

C104_assign, C104_construct, C104_destroy, C104_equal, C104_equal_content_refuted,
C104_never_dangling, C104_write, C12_any_addition, C16_bounds, C34_widths_shrink, C37_product,
C37_scalar, C37_sum, C38_append_coefficients, C39_inverted, C42_evaluate_past_end,
C42_in_range_for_any_addition, C44_scale_segment_times, C46_single_dimension_refuted,
C47_append_dimensions_equal_times, C47_append_empty, C47_append_empty_segment,
C47_different_coefficients_refuted, C48_add_trajectories, C48_add_trajectories_defined,
C48_add_trajectory, C48_offset, C49_start_at_end_undefined, C49_start_past_end, C50_equal_tol,
C50_equal_tol_refl_sym, C53_setup_accepts, C53_vertices, C54_mapping_inverse,
C54_tiny_times_refuted, C58_initial_guess_admitted, C59_synthetic_division, C60_handle_stable,
C60_maximum, C60_maximum_refuted, C60_mini_timer, C60_minimum, C60_reset, C60_statistics,
C60_statistics_of_handle, C60_stop_twice_refuted, C60_tag_of_handle, C60_timer,
C61_file_reader_checks_shape, C61_number_for_list, C61_unreadable_file_aborts,
C61_unreadable_segments, C61_yaml_reader_checks_shape_refuted, C67_defined_otherwise,
C67_not_a_number_refuted, C73_bounds, C73_right_variable, C73_right_variable_refuted, C73_variables,
C80_velocity_world, C80_velocity_world_inverse, C82_square_negative_rounds, C82_square_sides,
C82_square_vertices, C83_A_inverse, C83_coefficients, C83_constraints_recovered, C83_counts,
C83_pseudo_inverse, C86_start_and_goal, C88_different_sizes, C88_same_dimension_refuted,
C94_matrices, C94_random, C96_moved_times, C97_construct, C97_default, C97_getters, C99_linear_step.

Axioms `ClassicalDedekindReals.sig_forall_dec`, `ClassicalDedekindReals.sig_not_dec`, `FunctionalExtensionality.functional_extensionality_dep`:

C01_schedule, C02_evaluation_has_trajectory, C02_no_error_path, C02_two_waypoints, C03_choice,
C03_from_scratch, C03_stitched, C04_launch_list, C04_published, C04_replacement, C05_keep,
C06_always, C06_consumed, C06_map, C07_launches_and_swaps, C07_one_swap_between,
C08_clear_drops_request, C08_empty_drops_request, C08_every_request_served_refuted, C08_swap_clears,
C08_swap_drops_request, C09_collected_launched, C09_idle_served, C09_nothing_to_generate,
C09_request_launches, C09_zone, C101_bound, C101_plan, C101_reserved_name_refuted,
C101_stitching_bounded_refuted, C102_any_earlier_report_refuted, C102_evaluation, C102_speed,
C102_vehicle, C103_grouping, C103_grouping_refuted, C103_order, C103_settles, C105_example,
C105_in_flight_example, C10_false_cancels, C10_flag_is_argument, C10_only_refrains_refuted,
C11_forgotten, C11_modification_used_refuted, C12_inside, C12_references, C13_hold,
C14_no_disturbance, C14_waiting_swap, C14_waits, C15_clock_set_back, C15_monotone_clock_refuted,
C16_count, C16_monotone, C16_users_only_refuted, C17_nearest, C17_target, C18_at_its_time_refuted,
C18_passes, C19_dropped, C19_unpassed_kept_refuted, C20_kept, C20_no_return_refuted,
C21_computation, C21_register, C22_first, C22_notification, C24_next_poll_throws, C24_wedged,
C26_argument_ignored, C26_fresh_object_undefined, C26_published, C27_after_destructor, C27_bounded,
C27_exit, C27_moves, C27_progress, C28_moved_waypoint_reached, C29_small_changes_ignored,
C29_small_changes_refuted, C30_local, C30_no_jump_at_change, C33_passed_waypoint, C35_copy_same,
C36_evaluate_is_derivative, C36_evaluate_vector, C36_get_coefficients, C38_offset, C38_scale_time,
C41_single_dimension_minimum_refuted, C42_evaluate_before_start, C42_evaluate_segment,
C43_continuous, C45_true_means_checked, C46_segment, C46_trajectory_segments, C47_append_dimensions,
C47_different_coefficients, C49_evaluate_range, C49_sample_is_evaluate, C51_segment_times,
C51_segment_times_ramp, C51_velocity_ramp, C52_accepted_iff, C52_negative_speed,
C52_repeated_waypoint_refuted, C53_any_free_constraints, C53_solve_linear, C54_mapping_meaning,
C55_cost_any_state, C55_cost_is_energy, C55_cost_nonneg, C56_optimal, C56_optimal_cost,
C56_same_derivative, C56_solver_independent, C56_unique, C56_unique_refuted, C57_bounded,
C58_times_positive, C59_backward_error, C59_pair_search_refuted, C59_quadratic_solver,
C64_accepted_nearly_rotation, C64_angular_velocity_unique, C64_fixed_axis, C64_matrix_is_rotation,
C64_only_rotations_refuted, C64_quaternion_from_yaw, C64_rotation_accepted, C64_skew,
C64_skew_accepted, C65_quaternion, C65_range_refused, C65_start_at_end_undefined,
C65_start_past_end, C66_window_edge_jump_refuted, C68_stitch_at_reference_refuted, C68_stitch_shift,
C69_one_step_ahead, C72_best_returned_refuted, C72_last_evaluation, C72_no_evaluation,
C72_no_evaluation_time, C72_reported, C72_worse_point_wins, C74_high_orders, C75_parts,
C75_total_cost, C76_result_interpolates, C76_short_segment_refuted, C78_gravity, C80_transform,
C82_random_box_undefined, C82_random_can_finish, C82_random_checks, C82_random_finishes_refuted,
C82_random_outcome, C82_random_stuck, C82_random_vertices, C83_A_meaning, C83_R_cost,
C83_R_semidefinite, C84_bad_interval, C84_candidates, C84_finds_maximum_refuted, C84_reversed_range,
C85_acceleration_direction_refuted, C85_columns, C85_hexacopter, C85_speeds_nonnegative_refuted,
C85_thrust_direction, C86_meets, C86_no_yaw, C86_position_and_yaw, C86_vertices,
C87_needed_time_at_rest, C88_same_motion_refuted, C88_segments, C88_trajectories,
C90_all_or_nothing_refuted, C90_batch, C90_each, C90_one_moment_refuted, C90_snapshot, C91_atomic,
C91_completes, C91_end_time_refuted, C91_progress, C91_realised, C93_batch_used_refuted,
C93_dropped, C93_kept, C93_single_used_refuted, C94_empty, C95_scaled_cost, C95_scaled_times,
C96_gradient, C96_single_segment, C97_first_window, C97_original, C97_reset_keeps_width_refuted,
C98_example, C98_flown_past_example, C98_hovering_refuted, C99_estimate, C99_estimate_exact,
C99_example, C99_first_stage, C99_fixed_shift, C99_linear_exact, C99_quadratic_step, C99_rotation,
C99_settled, C99_settled_example, C99_shift_modulus_refuted, C99_shift_points.

Axioms `ClassicalDedekindReals.sig_forall_dec`, `ClassicalDedekindReals.sig_not_dec`, `Classical_Prop.classic`, `FunctionalExtensionality.functional_extensionality_dep`:

C105_applied, C105_in_flight, C105_modify, C17_step, C30_bounded, C31_velocity_compensation,
C32_acceleration_compensation_refuted, C32_at_the_waypoint, C34_axis_dependent_refuted,
C35_copy_forgets_width_refuted, C39_min_max, C39_min_max_low_degree, C40_trajectory_extrema,
C43_derivative, C45_scale_to_limits, C57_monotone, C57_threshold, C57_value,
C58_times_positive_mellinger, C59_conjugate_pairs, C59_degree_two_exact,
C59_every_root_reported_refuted, C59_failure, C59_no_roots, C59_number_of_roots, C59_terminates,
C59_too_many_coefficients_undefined, C59_zeros, C61_damaged_file_replaces_trajectory,
C61_file_round_trip, C61_nanoseconds_exact, C61_no_dimension_refuted, C61_saving_again,
C61_yaml_round_trip, C63_coincide_10ms, C63_coincide_unix, C63_distinct, C63_exact, C63_order,
C63_time_used, C63_unix_grid, C64_euler_round_trip, C64_gimbal_lock_refuted, C64_half_turn_refuted,
C64_omega, C64_omega_dot, C64_omega_small, C64_rotation_vector_round_trip, C64_vector_of_matrix,
C64_yaw_round_trip, C65_angular_motion, C65_at_time, C65_level, C65_range, C65_segment_at_time,
C65_start_duration, C65_stays_in_range_refuted, C65_whole, C65_yaw_rate, C69_continuous_refuted,
C69_jump_scratch, C69_jump_stitched, C72_last_evaluation_mellinger, C74_maximum,
C76_result_interpolates_mellinger, C77_acceleration_limit, C77_equal_waypoints_abort,
C77_executions, C77_holds, C77_objective, C77_passes, C77_trajectory, C79_round_trip,
C79_round_trip_refuted, C79_whole_seconds, C80_default_point, C80_odometry_yaw,
C81_more_segments_than_samples_undefined, C81_table, C84_one_dimension, C84_tolerance,
C85_torque_and_thrust, C87_durations, C87_limit_kept_refuted, C87_long_leg, C87_needed_time,
C87_no_time_to_spare, C87_no_turn, C87_too_short, C87_turn, C89_after_start_refuted,
C89_before_end_refuted, C89_beyond_degree, C89_past_end, C89_polynomial, C89_start_exact, C89_table,
C89_time_in_segment, C89_trajectory, C92_error, C92_last, C92_last_is_end_refuted, C92_monotone,
C92_passes, C92_separated, C94_cost, C94_maximum, C94_upper_bound_refuted, C95_mellinger_limits,
C95_moving_vertices_refuted, C98_first_plan, C98_flown_past, C98_served, C99_lower_bound_refuted,
C99_modulus_bound, C99_scaling.

Axioms `ClassicalDedekindReals.sig_forall_dec`, `ClassicalUniqueChoice.dependent_unique_choice`, `Classical_Prop.classic`, `FunctionalExtensionality.functional_extensionality_dep`, `RelationalChoice.relational_choice`:

C54_routines_exist.
