(** The published times of the waypoints in double precision.
    Source: /repo/src/dynamic_trajectory.cpp.  The same functions as in
    DynModel, but [rnd] rounds the result of every addition and subtraction;
    overflow, infinities and NaN are outside the model. *)
From Coq Require Import String Reals List Bool ZArith Arith.
From Verif Require Import Base PolyModel VertexModel TrajModel WaypointModel.
Import ListNotations.
Local Open Scope R_scope.

Section Rounded.
Context (rnd : R -> R).

(** getCummulativeTime - dynamic_trajectory.cpp:33-46, see [cumulative_time]:
    the last duration is added first. *)
Definition cumulative_time_r (segs : list segment) (i : nat) : option R :=
  if (length segs <? i)%nat then None
  else Some (fold_left (fun acc s => rnd (acc + s_time s)) (rev (firstn i segs)) 0).

(** The loop of computeTrajectory - dynamic_trajectory.cpp:345-352, see [retime]. *)
Fixpoint retime_r (segs : list segment) (gtl : R) (i : nat) (ws : list waypoint) : option (list waypoint) :=
  match ws with
  | [] => Some []
  | w :: ws' =>
      match cumulative_time_r segs i with
      | None => None
      | Some t => match retime_r segs gtl (S i) ws' with
                  | None => None
                  | Some l => Some (wp_set_time (rnd (t + gtl)) (wp_set_index (Z.of_nat i) w) :: l)
                  end
      end
  end.

(** getMaxTime - dynamic_trajectory.cpp:160-167 with convertIntoGlobalTime, 231-235. *)
Definition end_time_r (tr : trajectory) (gtl : R) : R := rnd (t_max tr + gtl).

(** The time at which the trajectory is evaluated for the global time t and no
    time compensation - convertFromGlobalTime, dynamic_trajectory.cpp:225-229, and
    evaluateModifiedTrajectory, 426-435. *)
Definition local_time_r (tr : trajectory) (gtl t : R) : R :=
  let l := rnd (t - gtl) in
  let l := if Rltb l 0 then 0 else l in
  if Rltb (t_max tr) l then t_max tr else l.
End Rounded.
