(** Model of DynamicTrajectory as a state machine.
    Source: src/dynamic_trajectory.cpp and
    include/dynamic_trajectory_generator/dynamic_trajectory.hpp.

    Granularity.  Three kinds of agents act on one state: client threads calling
    the API, the background thread (todoThreadLoop) and the computation thread
    (computeTrajectory, started by std::async).  The background thread is split
    at every point where it reads or writes shared state that another agent can
    change in between (program counter [pc]).  API calls are split into atomic
    pieces (events): evaluateTrajectory is [Poll] followed by [Eval] and a read;
    getDynamicWaypoints, and getMaxTime/getMinTime without a trajectory, are
    [Poll] followed by a read; modifyWaypoints is a sequence of [Modify]
    followed by [RaiseFlag].  Calls that need todo_mutex wait while the
    background thread applies modifications ([PMove]).  A [Poll] that swaps is followed by [PollEnd], which
    clears the request flag after all the rest.  The pieces may interleave
    arbitrarily with each other and with the other agents.  Left out: what other
    threads see in the middle of a swap, except that the background thread's
    security zone check may then return anything ([BackTorn]; its other tests at
    that time only see that a computation is in progress).  With one evaluating
    thread, and other threads making the calls that take effect under one mutex
    (setWaypoints, appendWaypoint, modifyWaypoint, setSpeed,
    updateVehiclePosition), this covers every schedule.  Overlapping evaluations
    and mutexes are the subject of the lock-level model. *)
From Coq Require Import Reals Lra Lia List Bool ZArith Arith.
From Verif Require Import Base PolyModel VertexModel TrajModel WaypointModel Names.
Import ListNotations.
Local Open Scope R_scope.

(** NumericParameters - dynamic_trajectory.hpp:65-73 (algorithm_time_constant
    is never used). *)
Record params := mkParams {
  p_local : R;    (* last_local_time_evaluated *)
  p_off : R;      (* t_offset *)
  p_global : R;   (* last_global_time_evaluated *)
  p_speed : R;    (* speed *)
  p_gtl : R }.    (* global_time_last_trajectory_generated *)
Definition params0 : params := mkParams 0 0 0 0 0.

(** std::future<ThreadSafeTrajectory>: not valid; running, before and after
    reading the speed; finished; finished by an exception. *)
Inductive future :=
| FNone
| FStarted
| FRunning (max_speed : R)
| FReady (tr : trajectory)
| FExn.

(** Program counter of todoThreadLoop - dynamic_trajectory.cpp:237-296. *)
Inductive pc :=
| PTop      (* 239: stop flag, then generate_new_traj_ of 241 *)
| PZone     (* 241, 724: checkInSecurityZone *)
| PComp     (* 241, 724: computing_new_trajectory_ *)
| PGen      (* 243-244 *)
| PEmpty    (* 249-250: generate_new_traj_ = false *)
| PParams   (* 252-261 *)
| PCheck    (* 263 *)
| PStitch   (* 265-268 *)
| PScratch  (* 273-274 *)
| PLaunch   (* 276, 372: computing_new_trajectory_ = true *)
| PAsync    (* 276, 373-375 *)
| PClear    (* 277 *)
| PElse     (* 280: condition *)
| PApply    (* 283: todo_mutex.lock() *)
| PMove (ms : list (name * V3)) (i : nat)
            (* 284-288 with todo_mutex held: the modifications still to be
               applied, the first of them to waypoint i of dynamic_waypoints_ *)
| PExit.

(** Data members - dynamic_trajectory.hpp:65-117, 219.
    [d_fut_locked]: future_mutex_ was left locked by an exception thrown
    between lines 381 and 383. *)
Record state := mkState {
  d_par : params;              (* parameters_ *)
  d_new : params;              (* new_parameters_ *)
  d_traj : option trajectory;  (* traj_ *)
  d_fut : future;              (* future_traj_ *)
  d_scratch : bool;            (* from_scratch_ *)
  d_vehicle : V3;              (* vehicle_position_ *)
  d_dyn : list waypoint;       (* dynamic_waypoints_ *)
  d_next : list waypoint;      (* next_trajectory_waypoint_ *)
  d_add : list waypoint;       (* waypoints_to_be_added_ *)
  d_set : list waypoint;       (* waypoints_to_be_set_ *)
  d_mod : list (name * V3);    (* waypoints_to_be_modified_ *)
  d_flag : bool;               (* generate_new_traj_ *)
  d_computing : bool;          (* computing_new_trajectory_ *)
  d_stop : bool;               (* stop_process_ *)
  d_regen : bool;              (* trajectory_regenerated_ *)
  d_tc : R;                    (* time_constant_ *)
  d_fut_locked : bool;
  d_late : nat;                (* polls between lines 678 and 679 *)
  d_pc : pc }.

(** Constructor - dynamic_trajectory.hpp:124-126; vehicle_position_ is
    uninitialised, hence arbitrary. *)
Definition init (junk : V3) : state :=
  mkState params0 params0 None FNone true junk [] [] [] [] [] false false false false 0 false 0 PTop.

(** Field updates. *)
Definition set_par x s := mkState x (d_new s) (d_traj s) (d_fut s) (d_scratch s) (d_vehicle s) (d_dyn s) (d_next s) (d_add s) (d_set s) (d_mod s) (d_flag s) (d_computing s) (d_stop s) (d_regen s) (d_tc s) (d_fut_locked s) (d_late s) (d_pc s).
Definition set_new x s := mkState (d_par s) x (d_traj s) (d_fut s) (d_scratch s) (d_vehicle s) (d_dyn s) (d_next s) (d_add s) (d_set s) (d_mod s) (d_flag s) (d_computing s) (d_stop s) (d_regen s) (d_tc s) (d_fut_locked s) (d_late s) (d_pc s).
Definition set_traj x s := mkState (d_par s) (d_new s) x (d_fut s) (d_scratch s) (d_vehicle s) (d_dyn s) (d_next s) (d_add s) (d_set s) (d_mod s) (d_flag s) (d_computing s) (d_stop s) (d_regen s) (d_tc s) (d_fut_locked s) (d_late s) (d_pc s).
Definition set_fut x s := mkState (d_par s) (d_new s) (d_traj s) x (d_scratch s) (d_vehicle s) (d_dyn s) (d_next s) (d_add s) (d_set s) (d_mod s) (d_flag s) (d_computing s) (d_stop s) (d_regen s) (d_tc s) (d_fut_locked s) (d_late s) (d_pc s).
Definition set_scratch x s := mkState (d_par s) (d_new s) (d_traj s) (d_fut s) x (d_vehicle s) (d_dyn s) (d_next s) (d_add s) (d_set s) (d_mod s) (d_flag s) (d_computing s) (d_stop s) (d_regen s) (d_tc s) (d_fut_locked s) (d_late s) (d_pc s).
Definition set_vehicle x s := mkState (d_par s) (d_new s) (d_traj s) (d_fut s) (d_scratch s) x (d_dyn s) (d_next s) (d_add s) (d_set s) (d_mod s) (d_flag s) (d_computing s) (d_stop s) (d_regen s) (d_tc s) (d_fut_locked s) (d_late s) (d_pc s).
Definition set_dyn x s := mkState (d_par s) (d_new s) (d_traj s) (d_fut s) (d_scratch s) (d_vehicle s) x (d_next s) (d_add s) (d_set s) (d_mod s) (d_flag s) (d_computing s) (d_stop s) (d_regen s) (d_tc s) (d_fut_locked s) (d_late s) (d_pc s).
Definition set_next x s := mkState (d_par s) (d_new s) (d_traj s) (d_fut s) (d_scratch s) (d_vehicle s) (d_dyn s) x (d_add s) (d_set s) (d_mod s) (d_flag s) (d_computing s) (d_stop s) (d_regen s) (d_tc s) (d_fut_locked s) (d_late s) (d_pc s).
Definition set_queues a b c s := mkState (d_par s) (d_new s) (d_traj s) (d_fut s) (d_scratch s) (d_vehicle s) (d_dyn s) (d_next s) a b c (d_flag s) (d_computing s) (d_stop s) (d_regen s) (d_tc s) (d_fut_locked s) (d_late s) (d_pc s).
Definition set_flag x s := mkState (d_par s) (d_new s) (d_traj s) (d_fut s) (d_scratch s) (d_vehicle s) (d_dyn s) (d_next s) (d_add s) (d_set s) (d_mod s) x (d_computing s) (d_stop s) (d_regen s) (d_tc s) (d_fut_locked s) (d_late s) (d_pc s).
Definition set_computing x s := mkState (d_par s) (d_new s) (d_traj s) (d_fut s) (d_scratch s) (d_vehicle s) (d_dyn s) (d_next s) (d_add s) (d_set s) (d_mod s) (d_flag s) x (d_stop s) (d_regen s) (d_tc s) (d_fut_locked s) (d_late s) (d_pc s).
Definition set_stop x s := mkState (d_par s) (d_new s) (d_traj s) (d_fut s) (d_scratch s) (d_vehicle s) (d_dyn s) (d_next s) (d_add s) (d_set s) (d_mod s) (d_flag s) (d_computing s) x (d_regen s) (d_tc s) (d_fut_locked s) (d_late s) (d_pc s).
Definition set_regen x s := mkState (d_par s) (d_new s) (d_traj s) (d_fut s) (d_scratch s) (d_vehicle s) (d_dyn s) (d_next s) (d_add s) (d_set s) (d_mod s) (d_flag s) (d_computing s) (d_stop s) x (d_tc s) (d_fut_locked s) (d_late s) (d_pc s).
Definition set_tc x s := mkState (d_par s) (d_new s) (d_traj s) (d_fut s) (d_scratch s) (d_vehicle s) (d_dyn s) (d_next s) (d_add s) (d_set s) (d_mod s) (d_flag s) (d_computing s) (d_stop s) (d_regen s) x (d_fut_locked s) (d_late s) (d_pc s).
Definition set_fut_locked x s := mkState (d_par s) (d_new s) (d_traj s) (d_fut s) (d_scratch s) (d_vehicle s) (d_dyn s) (d_next s) (d_add s) (d_set s) (d_mod s) (d_flag s) (d_computing s) (d_stop s) (d_regen s) (d_tc s) x (d_late s) (d_pc s).
Definition set_late x s := mkState (d_par s) (d_new s) (d_traj s) (d_fut s) (d_scratch s) (d_vehicle s) (d_dyn s) (d_next s) (d_add s) (d_set s) (d_mod s) (d_flag s) (d_computing s) (d_stop s) (d_regen s) (d_tc s) (d_fut_locked s) x (d_pc s).
Definition set_pc x s := mkState (d_par s) (d_new s) (d_traj s) (d_fut s) (d_scratch s) (d_vehicle s) (d_dyn s) (d_next s) (d_add s) (d_set s) (d_mod s) (d_flag s) (d_computing s) (d_stop s) (d_regen s) (d_tc s) (d_fut_locked s) (d_late s) x.

(** TRAJECTORY_COMPUTATION_TIME, SECURITY_TIME_BEFORE_WAYPOINT -
    dynamic_trajectory.hpp:28-36, 222-226. *)
Definition computation_time (tc : R) : R := 2 * tc.
Definition security_time (tc : R) : R := 5 * computation_time tc.

(* ------------------------------------------------------------------ *)
(** ** References *)

(** evaluateModifiedTrajectory - dynamic_trajectory.cpp:421-454. *)
Definition clamp_local (tr : trajectory) (l : R) : R :=
  let l := if Rltb l 0 then 0 else l in
  if Rltb (t_max tr) l then t_max tr else l.
Definition named (w : waypoint) : bool := negb (name_eqb (w_name w) no_name).
Definition eval_modified (tr : trajectory) (dyn : list waypoint) (g l : R) (d : nat) : V3 :=
  let v := match traj_evaluate tr (clamp_local tr l) d with
           | Some v => v3_of_list v
           | None => v3_zero   (* out-of-bounds segment access; excluded by C42 *)
           end in
  if Rltb 0 g
  then fold_left (fun acc w => if named w then v3_add acc (wp_compensation w g d) else acc) dyn v
  else v.

(** References - dynamic_trajectory.hpp:43-60; getReferences -
    dynamic_trajectory.cpp:141-154 (only_positions leaves velocity and
    acceleration uninitialised; modelled by [None]). *)
Record references := mkRefs { r_pos : V3; r_vel : option V3; r_acc : option V3 }.
Definition get_references (tr : trajectory) (dyn : list waypoint) (g l : R) (only_positions : bool) :
  references :=
  if only_positions then mkRefs (eval_modified tr dyn g l 0) None None
  else mkRefs (eval_modified tr dyn g l 0) (Some (eval_modified tr dyn g l 1))
              (Some (eval_modified tr dyn g l 2)).

(* ------------------------------------------------------------------ *)
(** ** API pieces *)

(** setWaypoints - dynamic_trajectory.cpp:60-73. *)
Definition do_set (ws : list waypoint) (s : state) : state :=
  set_flag true (set_queues [] (map wp_copy ws) [] s).
(** appendWaypoint - 75-80 (later reallocations copy again, which changes nothing more). *)
Definition do_append (w : waypoint) (s : state) : state :=
  set_flag true (set_queues (d_add s ++ [wp_copy w]) (d_set s) (d_mod s) s).
(** modifyWaypoint - 82-102. *)
Fixpoint mod_put (n : name) (p : V3) (l : list (name * V3)) : list (name * V3) :=
  match l with
  | [] => [(n, p)]
  | (n', p') :: l' => if name_eqb n' n then (n, p) :: l' else (n', p') :: mod_put n p l'
  end.
Definition do_modify (n : name) (p : V3) (generate : bool) (s : state) : state :=
  set_flag generate (set_queues (d_add s) (d_set s) (mod_put n p (d_mod s)) s).
(** setSpeed - 198-203. *)
Definition par_speed (v : R) (q : params) : params := mkParams (p_local q) (p_off q) (p_global q) v (p_gtl q).
Definition do_speed (v : R) (s : state) : state :=
  set_new (par_speed v (d_new s)) (set_par (par_speed v (d_par s)) s).
(** Lines 122-131 of evaluateTrajectory. *)
Definition do_eval (t : R) (s : state) : state :=
  let q := d_par s in
  set_par (mkParams (t - p_gtl q) (p_off q) t (p_speed q) (p_gtl q)) s.

(** timeFittingWithVehiclePosition - 727-770: scan of the sample times k*step
    below [bound]; [fuel] counts the samples, see [fit_samples]. *)
Fixpoint fit_loop (fuel : nat) (dist : R -> R) (step bound t best best_d : R) : R :=
  match fuel with
  | O => best
  | S f =>
      if Rltb t bound then
        if Rleb (dist t) best_d then fit_loop f dist step bound (t + step) t (dist t)
        else fit_loop f dist step bound (t + step) best best_d
      else best
  end.
(** Enough iterations to reach [bound] in steps of [step]. *)
Definition fit_samples (step bound : R) : nat := Z.to_nat (up (bound / step)).
Definition fit_min_time (dist : R -> R) (tc : R) : R :=
  let bound := 3 / 2 * computation_time tc in
  fit_loop (fit_samples STEP bound) dist STEP bound STEP 0 (dist 0).
(** Distance of the new trajectory (with the compensations of the old
    waypoints) at local time t from the target. *)
Definition fit_distance (tr : trajectory) (dyn : list waypoint) (gtl : R) (target : V3) (t : R) : R :=
  v3_norm (v3_sub (eval_modified tr dyn (t + gtl) t 0) target).
Definition par_off (o : R) (q : params) : params := mkParams (p_local q) o (p_global q) (p_speed q) (p_gtl q).
Definition fit_offset (tr : trajectory) (target : V3) (s : state) : R :=
  let min_time := fit_min_time (fit_distance tr (d_dyn s) (p_gtl (d_new s)) target) (d_tc s) in
  let mid_time := p_global (d_par s) - p_gtl (d_new s) in
  min_time - mid_time + STEP.

(** swapTrajectory, swapDynamicWaypoints and line 678, after the result
    [tr] was taken - 385-418; line 679 is the event [PollEnd].  [None]: evaluation through the null traj_.
    dynamic_waypoints_ = next_trajectory_waypoint_ copy-assigns the elements in
    front and copy-constructs the rest; both agree because every element of
    next_trajectory_waypoint_ has the default last_sigma_. *)
Definition do_swap (tr : trajectory) (s : state) : option state :=
  let target :=
    if d_scratch s then Some (d_vehicle s)
    else match d_traj s with
         | Some old => Some (eval_modified old (d_dyn s) (p_global (d_par s) + p_off (d_par s))
                               (p_local (d_par s) + p_off (d_par s)) 0)
         | None => None
         end in
  match target with
  | None => None
  | Some q =>
      let new := par_off (fit_offset tr q s) (d_new s) in
      Some (set_late (S (d_late s)) (set_computing false (set_dyn (map wp_copy (d_next s))
             (set_regen true (set_traj (Some tr) (set_par new (set_new new
               (set_scratch false (set_fut FNone s)))))))))
  end.

(** Outcomes of a step. *)
Inductive obs := Quiet | Launched | Swapped | Moved | Bool (b : bool).
Inductive outcome :=
| Ok (s : state) (o : obs)
| Blocked              (* waits; never returns if nothing else happens *)
| Throws (s : state)   (* a C++ exception leaves the call *)
| UB.

(** checkTrajectoryGenerated - 651-683. *)
Definition do_poll (s : state) : outcome :=
  if d_fut_locked s then Blocked
  else match d_traj s, d_fut s with
       | None, FNone => Blocked
       | None, FStarted => Blocked
       | None, FRunning _ => Blocked
       | _, FReady tr => if d_computing s
                         then match do_swap tr s with Some s' => Ok s' Swapped | None => UB end
                         else Ok s Quiet
       | _, FExn => if d_computing s
                    then Throws (set_fut_locked true (set_fut FNone s))
                    else Ok s Quiet
       | _, _ => Ok s Quiet
       end.

(* ------------------------------------------------------------------ *)
(** ** The background thread *)

(** checkInSecurityZone - 696-720. *)
Fixpoint zone_scan (ws : list waypoint) (last_t sec : R) : bool :=
  match ws with
  | [] => false
  | w :: ws' =>
      if named w && Rltb last_t (w_time w)
      then if Rltb sec (w_time w - last_t) then false else true
      else zone_scan ws' last_t sec
  end.
Definition in_zone (s : state) : bool :=
  match d_traj s with
  | None => false
  | Some _ => zone_scan (d_dyn s) (p_global (d_par s)) (security_time (d_tc s))
  end.

(** resetWaypointThroughDeque - 542-558. *)
Definition reset_named (n : name) (p : V3) (ws : list waypoint) : list waypoint :=
  if name_eqb n no_name then ws
  else map (fun w => if name_eqb (w_name w) n then wp_reset_to p w else w) ws.
(** filterPassedWaypoints - 560-577. *)
Definition filter_passed (last_t : R) (ws : list waypoint) : list waypoint :=
  filter (fun w => negb (Rltb (w_time w) last_t)) ws.
(** generateWaypointsForTheNextTrajectory - 579-612 (the emptying of the
    queues is in [back_step]). *)
Definition next_waypoints (s : state) : list waypoint :=
  let base := match d_set s with
              | [] => map wp_reset (filter_passed (p_global (d_par s)) (map wp_copy (d_dyn s)))
              | _ => map wp_copy (d_set s)
              end in
  fold_left (fun ws m => reset_named (fst m) (snd m) ws) (d_mod s)
            (base ++ map wp_copy (d_add s)).

(** appendDronePositionWaypoint - 614-622; the default-constructed positions
    are overwritten by resetWaypoint. *)
Definition drone_waypoint (p : V3) : waypoint :=
  wp_set_constraint 2 v3_zero (wp_set_constraint 1 v3_zero
    (wp_reset_to p (wp_default v3_zero v3_zero))).

(** checkStitchTrajectory - 628-649. *)
Definition can_stitch (s : state) : bool :=
  match d_traj s with
  | None => false
  | Some tr => negb (Rltb (t_max tr + p_gtl (d_par s) - p_global (d_par s))
                          (2 * computation_time (d_tc s)))
  end.

(** stitchActualTrajectoryWithNewWaypoints - 474-532. *)
Definition stitch_vertex (cs : list V3) : vertex :=
  fold_left (fun v kc => set_cons (fst kc) (snd kc) v) (combine (seq 0 (length cs)) cs) (vertex_new 3).
(** The result of DynamicWaypoint(vertex, "stitching_point"), see
    [stitch_waypoint_new] in DynProofs. *)
Definition stitch_waypoint (cs : list V3) : waypoint :=
  mkWp (stitch_vertex cs) (hd v3_zero cs) (hd v3_zero cs) 0 stitching_point (-1) [] SIGMA_FIXED.
Definition stitch_drop (bound : R) (w : waypoint) : bool :=
  Rltb (w_time w) bound && Rltb 0 (w_time w).
Definition stitch_waypoints (tr : trajectory) (s : state) : list waypoint :=
  let e := fun l d => eval_modified tr (d_dyn s) (l + p_gtl (d_par s)) l d in
  let l0 := p_local (d_new s) + p_off (d_par s) in
  let l1 := l0 + 5 * computation_time (d_tc s) in
  let l2 := l1 + 5 * computation_time (d_tc s) in
  stitch_waypoint [e l0 0%nat; e l0 1%nat; e l0 2%nat] ::
  stitch_waypoint [e l1 0%nat] ::
  map wp_copy (filter (fun w => negb (stitch_drop (l2 + p_gtl (d_par s)) w)) (d_next s)).

(** One iteration of the loop of applyWaypointModification - 461-470: moves
    waypoint i if it has that (non-empty) name.  The mutex of parameters_ is
    locked for each waypoint, so the time may change from one to the next. *)
Definition applies (n : name) (w : waypoint) : bool := name_eqb (w_name w) n && named w.
Fixpoint move_nth (last_t : R) (m : name * V3) (i : nat) (ws : list waypoint) {struct ws} : list waypoint :=
  match ws, i with
  | [], _ => []
  | w :: ws', O => (if applies (fst m) w then wp_move (snd m) last_t w else w) :: ws'
  | w :: ws', S j => w :: move_nth last_t m j ws'
  end.

(** One step of todoThreadLoop - 237-296. *)
Definition back_step (s : state) : outcome :=
  match d_pc s with
  | PTop => if d_stop s then Ok (set_pc PExit s) Quiet
            else Ok (set_pc (if d_flag s then PZone else PElse) s) Quiet
  | PZone => Ok (set_pc (if in_zone s then PElse else PComp) s) Quiet
  | PComp => Ok (set_pc (if d_computing s then PElse else PGen) s) Quiet
  | PGen => let ws := next_waypoints s in
            let s' := set_next ws (set_queues [] [] [] s) in
            match ws with
            | [] => Ok (set_pc PEmpty s') Quiet
            | _ => Ok (set_pc PParams s') Quiet
            end
  | PEmpty => Ok (set_pc PTop (set_flag false s)) Quiet
  | PParams => let q := d_par s in
      Ok (set_pc PCheck (set_new (mkParams (p_local q) (p_off q) (p_global q) (p_speed q) (p_global q)) s)) Quiet
  | PCheck => Ok (set_pc (if can_stitch s then PStitch else PScratch) s) Quiet
  | PStitch => match d_traj s with
               | None => UB
               | Some tr => Ok (set_pc PLaunch (set_next (stitch_waypoints tr s) (set_scratch false s))) Quiet
               end
  | PScratch => Ok (set_pc PLaunch (set_next (drone_waypoint (d_vehicle s) :: d_next s)
                     (set_scratch true s))) Quiet
  | PLaunch => Ok (set_pc PAsync (set_computing true s)) Quiet
  | PAsync => if d_fut_locked s then Blocked
              else Ok (set_pc PClear (set_fut FStarted s)) Launched
  | PClear => Ok (set_pc PTop (set_flag false s)) Quiet
  | PElse => match d_mod s with
             | [] => Ok (set_pc PTop s) Quiet
             | _ => Ok (set_pc (if d_computing s then PTop else PApply) s) Quiet
             end
  | PApply => Ok (set_pc (PMove (d_mod s) 0) s) Quiet
  | PMove [] _ => Ok (set_pc PTop (set_queues (d_add s) (d_set s) [] s)) Quiet
  | PMove (m :: ms) i =>
      match nth_error (d_dyn s) i with
      | None => Ok (set_pc (PMove ms 0) s) Moved
      | Some w => Ok (set_pc (PMove (m :: ms) (S i))
                    (set_regen (if applies (fst m) w then true else d_regen s)
                    (set_dyn (move_nth (p_global (d_par s)) m i (d_dyn s)) s))) Moved
      end
  | PExit => Blocked
  end.

(** checkInSecurityZone running concurrently with a swap: traj_, parameters_ and
    dynamic_waypoints_ are replaced one after the other (397-403, 416), so the
    check can see old and new ones together and return anything.  Possible only
    while a finished computation is waiting to be swapped in. *)
Definition back_torn (zone : bool) (s : state) : outcome :=
  match d_pc s, d_fut s with
  | PZone, FReady _ => if d_computing s then Ok (set_pc (if zone then PElse else PComp) s) Quiet else Blocked
  | _, _ => Blocked
  end.

(* ------------------------------------------------------------------ *)
(** ** The computation thread *)

(** extractVerticesFromWaypoints - 18-31; [None]: access to element -1 of an
    empty vector. *)
Definition at_rest_end (v : vertex) : vertex := set_cons 2 v3_zero (set_cons 1 v3_zero v).
Definition extract_vertices (ws : list waypoint) : option (list vertex) :=
  match ws with
  | [] => None
  | _ => let vs := map w_vertex ws in
         Some (removelast vs ++ [at_rest_end (last vs (vertex_new 3))])
  end.

(** getCummulativeTime - 33-46: sum of the first [i] segment times, last one
    first; [None] = std::out_of_range. *)
Definition cumulative_time (segs : list segment) (i : nat) : option R :=
  if (length segs <? i)%nat then None
  else Some (fold_left (fun acc s => acc + s_time s) (rev (firstn i segs)) 0).

(** Lines 345-352. *)
Fixpoint retime (segs : list segment) (gtl : R) (i : nat) (ws : list waypoint) : option (list waypoint) :=
  match ws with
  | [] => Some []
  | w :: ws' =>
      match cumulative_time segs i with
      | None => None
      | Some t => match retime segs gtl (S i) ws' with
                  | None => None
                  | Some l => Some (wp_set_time (t + gtl) (wp_set_index (Z.of_nat i) w) :: l)
                  end
      end
  end.

(** Lines 301-309. *)
Definition comp_speed (s : state) : outcome :=
  match d_fut s with
  | FStarted =>
      match extract_vertices (d_next s) with
      | None => UB
      | Some vs => if (length vs <? 2)%nat then Ok (set_fut FExn s) Quiet
                   else Ok (set_fut (FRunning (p_speed (d_par s))) s) Quiet
      end
  | _ => Blocked
  end.
(** Lines 343-366, given the optimiser's result and the measured time.  The
    partial effect of the loop 346-352 before an exception is dropped. *)
Definition comp_done (tr : trajectory) (elapsed : R) (s : state) : outcome :=
  match d_fut s with
  | FRunning _ =>
      match retime (t_segs tr) (p_gtl (d_new s)) 0 (d_next s) with
      | None => Ok (set_fut FExn s) Quiet
      | Some ws => Ok (set_fut (FReady tr) (set_tc elapsed (set_next ws s))) Quiet
      end
  | _ => Blocked
  end.
(** An exception inside the optimiser. *)
Definition comp_throw (s : state) : outcome :=
  match d_fut s with
  | FRunning _ => Ok (set_fut FExn s) Quiet
  | _ => Blocked
  end.

(* ------------------------------------------------------------------ *)
(** ** Events *)

Inductive event :=
| SetWaypoints (ws : list waypoint)
| Append (w : waypoint)
| Modify (n : name) (p : V3) (generate : bool)
| RaiseFlag
| Poll
| PollEnd
| Eval (t : R)
| SetSpeed (v : R)
| Vehicle (p : V3)
| GetRegenerated
| Stop
| Back
| BackTorn (zone : bool)
| CompSpeed
| CompDone (tr : trajectory) (elapsed : R)
| CompThrow.

(** todo_mutex is held while the background thread applies modifications.  (It
    is also held in [PGen], a single step.) *)
Definition moving (p : pc) : bool := match p with PMove _ _ => true | _ => false end.
Definition todo_locked (s : state) : bool := moving (d_pc s).
(** RaiseFlag: line 112; Eval needs a trajectory (otherwise the null pointer
    traj_ is used at line 136); GetRegenerated: 211-216; Stop: the destructor,
    dynamic_trajectory.hpp:128. *)
Definition step (s : state) (e : event) : outcome :=
  match e with
  | SetWaypoints ws => if todo_locked s then Blocked else Ok (do_set ws s) Quiet
  | Append w => if todo_locked s then Blocked else Ok (do_append w s) Quiet
  | Modify n p g => if todo_locked s then Blocked else Ok (do_modify n p g s) Quiet
  | RaiseFlag => Ok (set_flag true s) Quiet
  | Poll => do_poll s
  | PollEnd => match d_late s with
               | O => Blocked
               | S n => Ok (set_late n (set_flag false s)) Quiet
               end
  | Eval t => match d_traj s with None => UB | Some _ => Ok (do_eval t s) Quiet end
  | SetSpeed v => Ok (do_speed v s) Quiet
  | Vehicle p => Ok (set_vehicle p s) Quiet
  | GetRegenerated => Ok (set_regen false s) (Bool (d_regen s))
  | Stop => Ok (set_stop true s) Quiet
  | Back => back_step s
  | BackTorn b => back_torn b s
  | CompSpeed => comp_speed s
  | CompDone tr e => comp_done tr e s
  | CompThrow => comp_throw s
  end.

(* ------------------------------------------------------------------ *)
(** ** API calls as a whole *)

(** evaluateTrajectory - 115-139. *)
Definition eval_refs (t : R) (only_positions : bool) (s : state) : option references :=
  match d_traj s with
  | None => None
  | Some tr => let q := d_par s in
      Some (get_references tr (d_dyn s) (t + p_off q) (t - p_gtl q + p_off q) only_positions)
  end.
(** The same call with its reads apart: trajectory and times of [s]
    (dynamic_trajectory.cpp:122-134), each order under its own lock of the
    waypoints (141-154, 443-452) in the states [sp], [sv], [sa]. *)
Definition call_refs (t : R) (s sp sv sa : state) : option references :=
  match d_traj s with
  | None => None
  | Some tr => let g := t + p_off (d_par s) in let l := t - p_gtl (d_par s) + p_off (d_par s) in
      Some (mkRefs (eval_modified tr (d_dyn sp) g l 0) (Some (eval_modified tr (d_dyn sv) g l 1))
                   (Some (eval_modified tr (d_dyn sa) g l 2)))
  end.
(** dynamic_waypoints_mutex_ is free: not in the middle of one
    applyWaypointModification - 456-472. *)
Definition readable (s : state) : bool :=
  match d_pc s with PMove (_ :: _) (S _) => false | _ => true end.
(** getMaxTime, getMinTime - 160-176 (given a trajectory). *)
Definition max_time (s : state) : option R :=
  match d_traj s with Some tr => Some (t_max tr + p_gtl (d_par s)) | None => None end.
Definition min_time (s : state) : option R :=
  match d_traj s with Some tr => Some (0 + p_gtl (d_par s)) | None => None end.
(** getNextTrajectoryWaypoints, getRemainingWaypoints - dynamic_trajectory.hpp:132-165. *)
Definition next_trajectory_waypoints (s : state) : list waypoint :=
  map wp_copy (filter (fun w => Rltb (p_global (d_par s)) (w_time w)) (d_dyn s)).
Fixpoint leading_stitch (ws : list waypoint) : nat :=
  match ws with
  | [] => 0
  | w :: ws' => if name_eqb (w_name w) stitching_point then S (leading_stitch ws') else 0
  end.
Definition remaining_waypoints (s : state) : Z :=
  (Z.of_nat (length (next_trajectory_waypoints s)) -
   Z.of_nat (leading_stitch (next_trajectory_waypoints s)))%Z.
(** getDynamicWaypoints - dynamic_trajectory.cpp:178-183 (after the poll): a copy. *)
Definition dynamic_waypoints (s : state) : list waypoint := map wp_copy (d_dyn s).
(** getSpeed, getTimeCompensation, getGenerateNewTraj, getComputingNewTrajectoryStatus. *)
Definition get_speed (s : state) : R := p_speed (d_par s).
Definition time_compensation (s : state) : R := p_off (d_par s).
(** A client's call of the public generateTrajectory - 369-376.  The argument
    and [force] only reach computeTrajectory, which does not read them
    (298-367; see [comp_speed], [comp_done]).  Assigning to future_traj_ waits
    for the computation it still holds; the model treats the whole call as
    waiting then. *)
Definition generate_call (ws : list waypoint) (force : bool) (s : state) : outcome :=
  if d_fut_locked s then Blocked
  else match d_fut s with
       | FStarted | FRunning _ => Blocked
       | _ => Ok (set_fut FStarted (set_computing true s)) Launched
       end.
