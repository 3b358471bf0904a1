(** Specification vocabulary for waypoints: histories of position changes and
    re-timings of one waypoint. *)
From Coq Require Import Reals List Bool ZArith Arith.
From Verif Require Import Base PolyModel VertexModel WaypointModel.
Import ListNotations.
Local Open Scope R_scope.

(** setCurrentPosition(p, actual_time) or setTime(t). *)
Inductive wop := Move (p : V3) (actual_time : R) | Retime (t : R).
Definition run_wop (w : waypoint) (o : wop) : waypoint :=
  match o with Move p a => wp_move p a w | Retime t => wp_set_time t w end.
Definition run_wops (w : waypoint) (os : list wop) : waypoint := fold_left run_wop os w.

(** The changes of the i-th coordinate, in order, starting from coordinate x. *)
Fixpoint changes (i : nat) (x : R) (os : list wop) : list R :=
  match os with
  | [] => []
  | Move p _ :: os' => (v3_nth i p - x) :: changes i (v3_nth i p) os'
  | Retime _ :: os' => changes i x os'
  end.

(** The time assigned to the waypoint before each change lies after the moment
    of the change (or no positive time has been evaluated yet). *)
Fixpoint before_passing (t : R) (os : list wop) : Prop :=
  match os with
  | [] => True
  | Move _ a :: os' => (a <= 0 \/ a < t) /\ before_passing t os'
  | Retime t' :: os' => before_passing t' os'
  end.

(** A change large enough to be applied. *)
Definition applied (x : R) : R := if Rltb (Rabs x) (2 / 100) then 0 else x.
