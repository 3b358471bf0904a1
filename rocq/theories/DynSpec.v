(** Specification vocabulary for the DynamicTrajectory state machine: what the
    optimiser is assumed to return, executions, and what a list of client calls
    asks for. *)
From Coq Require Import Reals List Bool ZArith.
From Coquelicot Require Import Coquelicot.
From Verif Require Import Base PolyModel PolySpec VertexModel TrajModel TrajSpec WaypointModel DynModel.
Import List ListNotations.
Local Open Scope R_scope.

(** What every optimiser result satisfies: one positive-length three-dimensional
    segment per pair of consecutive vertices. *)
Definition basic_post (vs : list vertex) (tr : trajectory) : Prop :=
  traj_wf tr /\ positive_times tr /\ t_D tr = 3%nat /\ length vs = S (length (t_segs tr)).

(** The trajectory meets every constraint of its vertices. *)
Definition meets (vs : list vertex) (tr : trajectory) : Prop :=
  forall i v k c, nth_error vs i = Some v -> get_constraint k v = Some c ->
    traj_evaluate tr (start_of tr i) k = Some c.
(** A complete optimiser contract: also smooth up to the fourth derivative. *)
Definition full_post (vs : list vertex) (tr : trajectory) : Prop :=
  basic_post vs tr /\ meets vs tr /\ joined tr 4.

(** Side conditions of events: clients pass waypoints with a position; the
    computation delivers an optimiser result [post] and does not throw; the
    measured time is not negative; the second half of evaluateTrajectory only
    runs after its first half has seen a trajectory. *)
Definition event_ok (post : list vertex -> trajectory -> Prop) (s : state) (e : event) : Prop :=
  match e with
  | SetWaypoints ws => Forall wp_ok ws
  | Append w => wp_ok w
  | Eval _ => d_traj s <> None
  | CompDone tr elapsed =>
      0 <= elapsed /\ exists vs, extract_vertices (d_next s) = Some vs /\ post vs tr
  | CompThrow => False
  | _ => True
  end.

(** Executions: interleavings of the events of all agents. *)
Inductive run (post : list vertex -> trajectory -> Prop) : state -> list (event * obs) -> state -> Prop :=
| run_nil s : run post s [] s
| run_cons s e o s1 tr s2 :
    event_ok post s e -> step s e = Ok s1 o -> run post s1 tr s2 -> run post s ((e, o) :: tr) s2.

Definition reachable (s : state) : Prop := exists junk tr, run basic_post (init junk) tr s.

(** ** What the client calls in a trace ask for *)

Fixpoint appended (tr : list (event * obs)) : list waypoint :=
  match tr with
  | [] => []
  | (Append w, _) :: tr' => w :: appended tr'
  | _ :: tr' => appended tr'
  end.
(** The last position passed for name n. *)
Fixpoint last_modified (n : name) (tr : list (event * obs)) : option V3 :=
  match tr with
  | [] => None
  | (Modify n' p _, _) :: tr' =>
      match last_modified n tr' with
      | Some q => Some q
      | None => if name_eqb n' n then Some p else None
      end
  | _ :: tr' => last_modified n tr'
  end.
(** The argument of the last setSpeed. *)
Fixpoint last_speed (v0 : R) (tr : list (event * obs)) : R :=
  match tr with
  | [] => v0
  | (SetSpeed v, _) :: tr' => last_speed v tr'
  | _ :: tr' => last_speed v0 tr'
  end.

(** Events by which a client asks for a new trajectory. *)
Definition is_request (e : event) : bool :=
  match e with
  | SetWaypoints _ | Append _ | RaiseFlag => true
  | Modify _ _ g => g
  | _ => false
  end.

Definition is_obs (x y : obs) : bool :=
  match x, y with
  | Quiet, Quiet => true
  | Launched, Launched => true
  | Swapped, Swapped => true
  | Moved, Moved => true
  | _, _ => false
  end.
Definition count_obs (x : obs) (tr : list (event * obs)) : nat :=
  length (filter (fun eo => is_obs x (snd eo)) tr).

(** A waypoint [w'] in the place of the requested waypoint [w], at position
    [p] if one was requested for it and otherwise where it is. *)
Definition placed (p : option V3) (w w' : waypoint) : Prop :=
  w_name w' = w_name w /\ w_time w' = w_time w /\ w_index w' = w_index w /\
  v_D (w_vertex w') = v_D (w_vertex w) /\
  (forall k, k <> O -> get_constraint k (w_vertex w') = get_constraint k (w_vertex w)) /\
  match p with
  | None => get_constraint 0 (w_vertex w') = get_constraint 0 (w_vertex w) /\
            w_cur w' = w_cur w /\ w_orig w' = w_orig w /\ w_mods w' = w_mods w
  | Some q => get_constraint 0 (w_vertex w') = Some (v3_list q) /\ w_cur w' = q /\ w_orig w' = q /\ w_mods w' = []
  end.
(** Waypoints without a name are never modified. *)
Definition wanted (tr : list (event * obs)) (w : waypoint) : option V3 :=
  if name_eqb (w_name w) no_name then None else last_modified (w_name w) tr.

(** Executions during which the queued requests are only added to: no
    setWaypoints call and no step in which the background thread consumes them. *)
Inductive collecting (post : list vertex -> trajectory -> Prop) :
  state -> list (event * obs) -> state -> Prop :=
| col_nil s : collecting post s [] s
| col_cons s e o s1 tr s2 :
    event_ok post s e -> step s e = Ok s1 o ->
    (e = Back -> d_pc s <> PGen /\ forall i, d_pc s <> PMove [] i) -> (forall ws, e <> SetWaypoints ws) ->
    collecting post s1 tr s2 -> collecting post s ((e, o) :: tr) s2.

Definition no_back (tr : list (event * obs)) : Prop := Forall (fun eo => fst eo <> Back) tr.
Definition no_obs (x : obs) (tr : list (event * obs)) : Prop := Forall (fun eo => snd eo <> x) tr.

(** No setWaypoints, appendWaypoint, modifyWaypoint or modifyWaypoints asking
    for a trajectory. *)
Definition no_request (tr : list (event * obs)) : Prop := Forall (fun eo => is_request (fst eo) = false) tr.
Definition not_eval (tr : list (event * obs)) : Prop := Forall (fun eo => forall t, fst eo <> Eval t) tr.

(** [w'] is [w] up to time, index and modifier times. *)
Definition same_waypoint (w w' : waypoint) : Prop :=
  w_vertex w' = w_vertex w /\ w_cur w' = w_cur w /\ w_orig w' = w_orig w /\ w_name w' = w_name w.

(** Component i of the d-th derivative of the reference: the trajectory at the
    local time l clamped to its duration, plus the compensations of the named
    waypoints at the global time g. *)
Definition reference (tr : trajectory) (ws : list waypoint) (g l : R) (d i : nat) : R :=
  comp tr d i (Rmax 0 (Rmin l (t_max tr))) +
  (if Rltb 0 g
   then lsum (map (fun w => v3_nth i (wp_compensation w g d))
                  (filter (fun w => negb (name_eqb (w_name w) no_name)) ws))
   else 0).

(** A waypoint as constructed from a vertex: not moved by its owner. *)
Definition wp_fresh (w : waypoint) : Prop :=
  w_mods w = [] /\ w_orig w = w_cur w /\ get_constraint 0 (w_vertex w) = Some (v3_list (w_orig w)).
(** All waypoints passed by the clients are such. *)
Definition fresh_calls (tr : list (event * obs)) : Prop :=
  Forall (fun eo => match fst eo with
                    | SetWaypoints ws => Forall wp_fresh ws
                    | Append w => wp_fresh w
                    | _ => True
                    end) tr.

(** The global time g is outside the modification windows of all named waypoints. *)
Definition outside (ws : list waypoint) (g : R) : Prop :=
  forall w m i, In w ws -> w_name w <> no_name -> In m (w_mods w) ->
    7 / 2 * m_sigma (mod3_nth i m) < Rabs (g - m_mu (mod3_nth i m)).

(** Less than ten measured computation times before a named waypoint of the
    published plan (at the last evaluated time). *)
Definition security_zone (s : state) : Prop :=
  d_traj s <> None /\ exists w, In w (d_dyn s) /\ w_name w <> no_name /\
    p_global (d_par s) < w_time w <= p_global (d_par s) + 10 * d_tc s.

(** What a batch of modifications does if the evaluated time does not change
    meanwhile. *)
Definition apply_modification (last_t : R) (m : name * V3) (ws : list waypoint) : list waypoint :=
  map (fun w => if applies (fst m) w then wp_move (snd m) last_t w else w) ws.
Definition apply_all (last_t : R) (ms : list (name * V3)) (ws : list waypoint) : list waypoint :=
  fold_left (fun ws m => apply_modification last_t m ws) ms ws.
Definition some_applies (ms : list (name * V3)) (ws : list waypoint) : bool :=
  existsb (fun m => existsb (applies (fst m)) ws) ms.
