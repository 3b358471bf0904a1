(** Specification vocabulary for the whole generator: waypoints a client may
    pass, and executions in which the computation thread runs the optimiser. *)
From Coq Require Import Reals List Bool Arith.
From Verif Require Import Base PolyModel VertexModel TrajModel TrajSpec WaypointModel DynModel DynSpec
  LinOptModel LinOptSpec NonlinModel NonlinSpec FloatModel ComputeModel.
Import ListNotations.
Local Open Scope R_scope.

(** A three-dimensional vertex with a position whose constraints are
    three-dimensional and of order at most 4. *)
Definition vertex_good (v : vertex) : Prop :=
  v_D v = 3%nat /\ (exists p, get_constraint 0 v = Some p) /\
  forall k c, get_constraint k v = Some c -> (k <= 4)%nat /\ length c = 3%nat.
Definition wp_good (w : waypoint) : Prop := vertex_good (w_vertex w).

(** What NLopt may do in the computation: evaluate points inside its bounds. *)
Definition solver_run inv qr (speed : R) (vs : list vertex) (times : list R) (xs : list (list R)) : Prop :=
  forall s, configure_nonlinear inv vs times (float32 speed) = Some s -> allowed qr 10 s xs.

(** The estimated times are long enough for the mapping matrices. *)
Definition long_enough (speed : R) (ws : list waypoint) : Prop :=
  forall vs times, extract_vertices ws = Some vs ->
    estimate_segment_times vs (float32 speed) A_MAX = Some times -> usable_times times.

(** [tr] is a result of computeTrajectory for the waypoints [ws]. *)
Definition computed find_roots inv qr (speed : R) (ws : list waypoint) (tr : trajectory) : Prop :=
  exists xs vs times, extract_vertices ws = Some vs /\
    estimate_segment_times vs (float32 speed) A_MAX = Some times /\
    solver_run inv qr speed vs times xs /\ long_enough speed ws /\
    compute_trajectory find_roots inv qr xs speed false ws = Val tr.

(** Side conditions of events when the computation runs the optimiser: nothing
    is assumed about its result. *)
Definition code_ok find_roots inv qr (s : state) (e : event) : Prop :=
  match e with
  | SetWaypoints ws => Forall wp_good ws
  | Append w => wp_good w
  | Eval _ => d_traj s <> None
  | CompDone tr elapsed =>
      0 <= elapsed /\ exists speed, d_fut s = FRunning speed /\ 0 < float32 speed /\
        computed find_roots inv qr speed (d_next s) tr
  | CompThrow => False
  | _ => True
  end.
Inductive code_run find_roots inv qr : state -> list (event * obs) -> state -> Prop :=
| code_nil s : code_run find_roots inv qr s [] s
| code_cons s e o s1 tr s2 :
    code_ok find_roots inv qr s e -> step s e = Ok s1 o ->
    code_run find_roots inv qr s1 tr s2 -> code_run find_roots inv qr s ((e, o) :: tr) s2.
