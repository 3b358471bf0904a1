(** DynamicWaypoint as an object: the remaining members of
    include/dynamic_trajectory_generator/dynamic_waypoint.hpp and the effect of
    a sequence of calls on one waypoint. *)
From Coq Require Import Reals List ZArith.
From Verif Require Import Base VertexModel WaypointModel.
Import List ListNotations.
Local Open Scope R_scope.

(** setName - dynamic_waypoint.hpp:50. *)
Definition wp_set_name (n : name) (w : waypoint) : waypoint :=
  mkWp (w_vertex w) (w_orig w) (w_cur w) (w_time w) n (w_index w) (w_mods w) (w_sigma w).
(** displaceIndex - dynamic_waypoint.hpp:51 (int without overflow). *)
Definition wp_displace_index (i : Z) (w : waypoint) : waypoint := wp_set_index (w_index w + i) w.
(** DynamicWaypoint(vertex, index, name) - dynamic_waypoint.cpp:8-12. *)
Definition wp_new_indexed (v : vertex) (i : Z) (n : name) : option waypoint :=
  option_map (wp_set_index i) (wp_new v n).

(** The public member functions that change a waypoint. *)
Inductive call :=
| Name_ (n : name)               (* setName *)
| Time_ (t : R)                  (* setTime *)
| Index_ (i : Z)                 (* setIndex *)
| Displace (i : Z)               (* displaceIndex *)
| MoveTo (p : V3) (now : R)      (* setCurrentPosition *)
| Constrain (k : nat) (p : V3)   (* setConstraint *)
| ResetTo (p : V3)               (* resetWaypoint *)
| ResetHere.                     (* resetWaypointWithCurrentPosition *)

Definition wp_call (c : call) (w : waypoint) : waypoint :=
  match c with
  | Name_ n => wp_set_name n w
  | Time_ t => wp_set_time t w
  | Index_ i => wp_set_index i w
  | Displace i => wp_displace_index i w
  | MoveTo p a => wp_move p a w
  | Constrain k p => wp_set_constraint k p w
  | ResetTo p => wp_reset_to p w
  | ResetHere => wp_reset w
  end.
Definition wp_calls (cs : list call) (w : waypoint) : waypoint := fold_left (fun w c => wp_call c w) cs w.
