(** Model of the thread structure of DynamicTrajectory: which mutexes are
    locked, which shared variables are read and written and which atomic flags
    are tested and set, in which order, by every API function, the background
    thread and the computation thread.  Values are abstracted: conditions on
    data are arbitrary choices ([TAny]); the atomic flags, the mutexes and the
    future are exact.  Any number of client threads.  Exceptions inside a
    computation are not modelled here (see C24).  The mutexes inside the
    temporary ThreadSafeTrajectory objects are private to a thread and left
    out; those of the member traj_ are MEval and MTime. *)
From Coq Require Import List Bool Arith Lia.
Import ListNotations.

(** dynamic_trajectory.hpp:98-103, thread_safe_trajectory.hpp:16-17. *)
Inductive mutex := MFuture | MTodo | MDyn | MPar | MEval | MTime | MVeh | MMeas.
(** dynamic_trajectory.hpp:93, 114-117; FHas: traj_ is not null. *)
Inductive flag := FGen | FComp | FStop | FRegen | FScratch | FHas.
(** Shared non-atomic variables: traj_ (the pointer inside), dynamic_waypoints_,
    next_trajectory_waypoint_, waypoints_to_be_added_/set_/modified_,
    vehicle_position_, time_constant_, inital_time_traj_generation_, the
    members of parameters_ (local and global last evaluated time, offset,
    speed, start time) and of new_parameters_ (speed, the others). *)
Inductive var := VTraj | VDyn | VNext | VAdd | VSet | VMod | VVeh | VTc | VT0
  | VLocal | VGlob | VOff | VSpeed | VGtl | VNewSpeed | VNew.

Inductive test :=
| TFlag (f : flag)
| TValid            (* future_traj_.valid() *)
| TReady            (* future_traj_.wait_for(0ms) == ready *)
| TAny.             (* depends on data *)
Inductive cmd :=
| Skip
| Seq (c1 c2 : cmd)
| Lock (m : mutex)
| Unlock (m : mutex)
| Read (v : var)
| Write (v : var)
| ReadBare (v : var)  (* a read that nothing protects, see C71 *)
| Set_ (f : flag) (b : bool)
| If (t : test) (c1 c2 : cmd)
| Loop (c : cmd)      (* until Break *)
| Break
| Wait                (* future_traj_.wait() *)
| Get                 (* future_traj_.get() *)
| Spawn               (* std::async(launch::async, computeTrajectory) *)
| Assign              (* future_traj_ = ...; waits for the computation it held *)
| Join.               (* join of the background thread *)

Fixpoint seq (l : list cmd) : cmd :=
  match l with
  | [] => Skip
  | c :: l' => Seq c (seq l')
  end.
Definition with_lock (m : mutex) (l : list cmd) : cmd := seq (Lock m :: l ++ [Unlock m]).

(* ------------------------------------------------------------------ *)
(** ** The functions *)

(** convertFromGlobalTime, convertIntoGlobalTime - dynamic_trajectory.cpp:225-235. *)
Definition convert := with_lock MPar [Read VGtl].
(** computeSecurityTime and the macro TRAJECTORY_COMPUTATION_TIME, which reads
    dynamic_waypoints_.size() - dynamic_trajectory.hpp:32-33, 222-226. *)
Definition comp_time := seq [Read VDyn; with_lock MMeas [Read VTc]].
(** The compensations of evaluateModifiedTrajectory - 440-452. *)
Definition compensations := If TAny (with_lock MDyn [Read VDyn]) Skip.
(** evaluateModifiedTrajectory - 421-454 with traj_ ... *)
Definition eval_shared :=
  seq [with_lock MTime [Read VTraj]; If TAny (with_lock MTime [Read VTraj]) Skip;
       with_lock MEval [Read VTraj]; compensations].
(** ... and with a trajectory of its own. *)
Definition eval_private := compensations.
(** getReferences - 141-154. *)
Definition references := seq [eval_shared; If TAny (seq [eval_shared; eval_shared]) Skip].

(** setWaypoints 60-73, appendWaypoint 75-80, modifyWaypoint 82-102,
    modifyWaypoints 104-113. *)
Definition set_waypoints := with_lock MTodo [Write VSet; Write VMod; Write VAdd; Set_ FGen true].
Definition append_waypoint := with_lock MTodo [Write VAdd; Set_ FGen true].
Definition modify_waypoint := with_lock MTodo [Write VMod; If TAny (Set_ FGen true) (Set_ FGen false)].
Definition modify_waypoints :=
  seq [Loop (If TAny Break (with_lock MTodo [Write VMod; Set_ FGen false])); Set_ FGen true].

(** timeFittingWithVehiclePosition - 727-770. *)
Definition fit :=
  seq [comp_time; Read VNew; eval_private; Loop (If TAny Break (seq [Read VNew; eval_private]));
       with_lock MPar [Read VGlob; Read VNew; Write VNew]].
(** swapTrajectory and swapDynamicWaypoints - 378-419. *)
Definition swap :=
  seq [Lock MFuture; Get; Unlock MFuture;
       If (TFlag FScratch)
         (seq [with_lock MVeh [Read VVeh]; fit; Set_ FScratch false])
         (seq [with_lock MPar [Read VGlob; Read VOff; Read VLocal]; eval_shared; fit]);
       with_lock MPar [Read VNew; Read VNewSpeed; Write VLocal; Write VGlob; Write VOff; Write VSpeed; Write VGtl];
       with_lock MEval [with_lock MTime [Write VTraj]]; Set_ FHas true; Set_ FRegen true;
       with_lock MDyn [Read VNext; Write VDyn]].
(** checkTrajectoryGenerated - 651-683. *)
Definition poll :=
  seq [Loop (seq [Read VTraj; If (TFlag FHas) Break
               (seq [Lock MFuture; If TValid (seq [Wait; Unlock MFuture; Break]) (Unlock MFuture)])]);
       Lock MFuture;
       If TValid
         (seq [Unlock MFuture;
               If (TFlag FComp)
                 (seq [Lock MFuture;
                       If TReady (seq [Unlock MFuture; swap; Set_ FComp false; Set_ FGen false])
                         (Unlock MFuture)]) Skip])
         (Unlock MFuture)].
(** evaluateTrajectory - 115-139; the last If: only_positions. *)
Definition evaluate :=
  seq [poll; convert; If TAny (with_lock MPar [Write VGlob; Write VLocal]) Skip;
       Read VOff; Read VOff; references].
(** getMaxTime, getMinTime - 160-176; getDynamicWaypoints 178-183. *)
Definition get_time := seq [Read VTraj; If (TFlag FHas) Skip poll; with_lock MTime [Read VTraj]; convert].
Definition get_dynamic := seq [poll; with_lock MDyn [Read VDyn]].
(** getSpeed 185-189, setSpeed 198-203, getTimeCompensation 205-209,
    getWasTrajectoryRegenerated 211-216, getGenerateNewTraj 217-220,
    getComputingNewTrajectoryStatus - dynamic_trajectory.hpp:148-150,
    getNextTrajectoryWaypoints and getRemainingWaypoints 132-165,
    updateVehiclePosition 189-192. *)
Definition get_speed := with_lock MPar [Read VSpeed].
Definition set_speed := with_lock MPar [Write VSpeed; Write VNewSpeed].
Definition get_compensation := with_lock MPar [Read VOff].
Definition get_regenerated := seq [If (TFlag FRegen) Skip Skip; Set_ FRegen false].
Definition get_flag := If (TFlag FGen) Skip Skip.
Definition get_computing := If (TFlag FComp) Skip Skip.
Definition get_next := seq [with_lock MPar [Read VGlob]; with_lock MDyn [Read VDyn]].
Definition update_vehicle := with_lock MVeh [Write VVeh].
(** generateTrajectory - 369-376; std::async copies its argument, when called
    by the background thread a reference to next_trajectory_waypoint_. *)
Definition launch_with (arg : cmd) := seq [Set_ FComp true; Lock MFuture; arg; Spawn; Assign; Unlock MFuture].
Definition generate := launch_with Skip.

(** computeTrajectory - 298-367. *)
Definition compute :=
  seq [with_lock MPar [Read VSpeed]; Read VNext; Read VNew; Write VNext; with_lock MMeas [Read VT0; Write VTc]].

(** checkInSecurityZone - 696-720 followed by the rest of the condition at 241;
    [yes] and [no] are what follows. *)
Definition zone (yes no : cmd) :=
  seq [ReadBare VTraj;
       If (TFlag FHas)
         (seq [Lock MDyn; with_lock MPar [Read VGlob]; Read VDyn; If TAny comp_time Skip; Unlock MDyn; If TAny yes no])
         no].
(** generateWaypointsForTheNextTrajectory with filterPassedWaypoints - 560-612. *)
Definition collect :=
  with_lock MTodo [Read VSet; If TAny (seq [Read VDyn; with_lock MPar [Read VGlob]]) Skip; Read VAdd; Read VMod;
                   Write VSet; Write VAdd; Write VMod].
(** stitchActualTrajectoryWithNewWaypoints - 474-532 and its call 265-268; the
    argument parameters_.last_local_time_evaluated is read without the mutex. *)
Definition stitch_point := seq [convert; eval_shared; eval_shared; eval_shared; comp_time].
Definition stitch :=
  seq [Set_ FScratch false; ReadBare VLocal; Read VNext; Read VNew; Read VOff; stitch_point; stitch_point; convert; Write VNext].
(** 272-274, appendDronePositionWaypoint - 614-622. *)
Definition scratch := seq [Set_ FScratch true; with_lock MVeh [Read VVeh]; Write VNext].
(** checkStitchTrajectory - 628-649. *)
Definition check_stitch (yes no : cmd) :=
  seq [Read VTraj;
       If (TFlag FHas)
         (seq [with_lock MPar [Read VGlob; Read VGtl]; with_lock MTime [Read VTraj]; comp_time; If TAny yes no])
         no].
(** applyWaypointModification - 456-472. *)
Definition apply := with_lock MDyn [Read VDyn; Loop (If TAny Break (seq [with_lock MPar [Read VGlob; Write VDyn]; Set_ FRegen true]))].
(** Lines 280-293; waypoints_to_be_modified_.size() is read without the mutex. *)
Definition modifications :=
  seq [ReadBare VMod;
       If TAny
         (If (TFlag FComp) Skip (with_lock MTodo [Read VMod; Loop (If TAny Break apply); Write VMod]))
         Skip].
(** todoThreadLoop - 237-296. *)
Definition build :=
  seq [collect; Write VNext;
       If TAny
         (Set_ FGen false)
         (seq [with_lock MPar [Read VLocal; Read VGlob; Read VOff; Read VSpeed; Read VGtl; Write VNew; Write VNewSpeed];
               with_lock MMeas [Write VT0];
               check_stitch stitch scratch;
               launch_with (Read VNext);
               Set_ FGen false])].
Definition background :=
  Loop (If (TFlag FStop) Break
          (If (TFlag FGen)
             (zone modifications (If (TFlag FComp) modifications build))
             modifications)).
(** ~DynamicTrajectory - dynamic_trajectory.hpp:127-130, then the members are
    destroyed in reverse order: the request lists and the waypoint lists
    (106-112), the mutexes, and only then future_traj_ (90), whose destructor
    waits for the computation. *)
Definition destructor :=
  seq [Set_ FStop true; Join; Write VMod; Write VSet; Write VAdd; Write VNext; Write VDyn].

(* ------------------------------------------------------------------ *)
(** ** Execution *)

(** What a thread still has to do; [KLoop cs c k]: [cs], then [c] again and
    again until a Break, then [k]. *)
Inductive cont :=
| KEnd (cs : list cmd)
| KLoop (cs : list cmd) (c : cmd) (k : cont).
Inductive role := Back | Comp | Evaluator | Client | Owner.
Record thread := mkT { t_role : role; t_cont : cont }.
(** [s_pend]: the future made by std::async before it is assigned.  A future
    is the number of its computation thread. *)
Record state := mkS {
  s_thr : list thread;
  s_own : mutex -> option nat;
  s_flg : flag -> bool;
  s_fut : option nat;
  s_pend : option nat
}.

Scheme Equality for mutex.
Scheme Equality for flag.
Definition upd_own (m : mutex) (x : option nat) (o : mutex -> option nat) : mutex -> option nat :=
  fun m' => if mutex_beq m' m then x else o m'.
Definition upd_flg (f : flag) (b : bool) (o : flag -> bool) : flag -> bool :=
  fun f' => if flag_beq f' f then b else o f'.

Definition head (k : cont) : option cmd :=
  match k with
  | KEnd (c :: _) | KLoop (c :: _) _ _ => Some c
  | _ => None
  end.
Definition finished (k : cont) : bool := match k with KEnd [] => true | _ => false end.
(** Replaces the first command by [cs]. *)
Definition replace_head (cs : list cmd) (k : cont) : cont :=
  match k with
  | KEnd (_ :: l) => KEnd (cs ++ l)
  | KLoop (_ :: l) c k' => KLoop (cs ++ l) c k'
  | _ => k
  end.

Fixpoint upd_nth {A} (n : nat) (x : A) (l : list A) : list A :=
  match l, n with
  | [], _ => []
  | _ :: l', O => x :: l'
  | y :: l', S n' => y :: upd_nth n' x l'
  end.
Definition done (s : state) (j : nat) : bool :=
  match nth_error (s_thr s) j with Some t => finished (t_cont t) | None => true end.
(** The background thread has ended. *)
Definition back_done (s : state) : bool :=
  forallb (fun t => match t_role t with Back => finished (t_cont t) | _ => true end) (s_thr s).

Inductive outcome := Next (s : state) | Blocked | Ended | Bad.
(** The thread continues with [k]. *)
Definition goto (i : nat) (k : cont) (s : state) : state :=
  match nth_error (s_thr s) i with
  | None => s
  | Some t => mkS (upd_nth i (mkT (t_role t) k) (s_thr s)) (s_own s) (s_flg s) (s_fut s) (s_pend s)
  end.
Definition eval_test (t : test) (b : bool) (s : state) : bool :=
  match t with
  | TFlag f => s_flg s f
  | TValid => match s_fut s with Some _ => true | None => false end
  | TReady => match s_fut s with Some j => done s j | None => false end
  | TAny => b
  end.
(** Thread [i] executes its next command; [b] resolves choices. *)
Definition exec (i : nat) (b : bool) (s : state) : outcome :=
  match nth_error (s_thr s) i with
  | None => Ended
  | Some t =>
      let k := t_cont t in
      match k with
      | KEnd [] => Ended
      | KLoop [] c k' => Next (goto i (KLoop [c] c k') s)
      | KEnd (c :: _) | KLoop (c :: _) _ _ =>
          match c with
          | Skip => Next (goto i (replace_head [] k) s)
          | Seq c1 c2 => Next (goto i (replace_head [c1; c2] k) s)
          | Lock m =>
              match s_own s m with
              | Some _ => Blocked
              | None => Next (goto i (replace_head [] k) (mkS (s_thr s) (upd_own m (Some i) (s_own s)) (s_flg s) (s_fut s) (s_pend s)))
              end
          | Unlock m =>
              match s_own s m with
              | Some j => if (i =? j)%nat
                  then Next (goto i (replace_head [] k) (mkS (s_thr s) (upd_own m None (s_own s)) (s_flg s) (s_fut s) (s_pend s)))
                  else Bad
              | None => Bad
              end
          | Read _ | Write _ | ReadBare _ => Next (goto i (replace_head [] k) s)
          | Set_ f v => Next (goto i (replace_head [] k) (mkS (s_thr s) (s_own s) (upd_flg f v (s_flg s)) (s_fut s) (s_pend s)))
          | If t c1 c2 => Next (goto i (replace_head [if eval_test t b s then c1 else c2] k) s)
          | Loop c => match k with
                      | KEnd (_ :: l) => Next (goto i (KLoop [c] c (KEnd l)) s)
                      | KLoop (_ :: l) c' k' => Next (goto i (KLoop [c] c (KLoop l c' k')) s)
                      | _ => Bad
                      end
          | Break => match k with KLoop _ _ k' => Next (goto i k' s) | _ => Bad end
          | Wait => match s_fut s with
                    | None => Bad
                    | Some j => if done s j then Next (goto i (replace_head [] k) s) else Blocked
                    end
          | Get => match s_fut s with
                   | None => Bad
                   | Some j => if done s j
                       then Next (goto i (replace_head [] k) (mkS (s_thr s) (s_own s) (s_flg s) None (s_pend s)))
                       else Blocked
                   end
          | Spawn => Next (goto i (replace_head [] k)
                       (mkS (s_thr s ++ [mkT Comp (KEnd [compute])]) (s_own s) (s_flg s) (s_fut s) (Some (length (s_thr s)))))
          | Assign => if match s_fut s with Some j => done s j | None => true end
              then Next (goto i (replace_head [] k) (mkS (s_thr s) (s_own s) (s_flg s) (s_pend s) None))
              else Blocked
          | Join => if back_done s then Next (goto i (replace_head [] k) s) else Blocked
          end
      end
  end.

(** Any interleaving. *)
Inductive reach (s0 : state) : state -> Prop :=
| reach_refl : reach s0 s0
| reach_step s i b s' : reach s0 s -> exec i b s = Next s' -> reach s0 s'.

(** A new object with its background thread and the given other threads;
    flags - dynamic_trajectory.hpp:93, 114-117. *)
Definition no_owner : mutex -> option nat := fun _ => None.
Definition init_flags : flag -> bool := fun f => match f with FScratch => true | _ => false end.
Definition start (l : list thread) : state :=
  mkS (mkT Back (KEnd [background]) :: l) no_owner init_flags None None.

(** Any sequence of the given calls. *)
Fixpoint one_of (l : list cmd) : cmd :=
  match l with
  | [] => Skip
  | c :: l' => If TAny c (one_of l')
  end.
Definition calls (l : list cmd) : cmd := Loop (If TAny Break (one_of l)).
(** Calls that cannot swap in a trajectory ... *)
Definition plain_calls : list cmd :=
  [set_waypoints; append_waypoint; modify_waypoint; modify_waypoints; get_speed; set_speed; get_compensation;
   get_regenerated; get_flag; get_computing; get_next; update_vehicle].
(** ... those that can ... *)
Definition swapping_calls : list cmd := [evaluate; get_time; get_dynamic].
(** ... and all. *)
Definition all_calls : list cmd := swapping_calls ++ generate :: plain_calls.
