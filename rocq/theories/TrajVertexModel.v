(** Model of Trajectory::getVertices for position and yaw.
    Source: MTG/src/trajectory.cpp:292-327.  The other overload, getVertexAtTime,
    getStartVertex and getGoalVertex are in TrajModel. *)
From Coq Require Import Reals List Bool Arith.
From Verif Require Import Base PolyModel VertexModel TrajModel.
Import ListNotations.
Local Open Scope R_scope.

(** Lines 308-313 and 319-324: position and yaw part of one vertex; [None]: one
    of the two getSubdimension calls returns false. *)
Definition split_vertex (max_pos max_yaw : nat) (v : vertex) : option (vertex * vertex) :=
  match get_subdimension [0; 1; 2]%nat max_pos v with
  | (false, _) => None
  | (true, p) => match get_subdimension [3]%nat max_yaw v with
                 | (false, _) => None
                 | (true, y) => Some (p, y)
                 end
  end.
Fixpoint split_all (max_pos max_yaw : nat) (vs : list vertex) : option (list (vertex * vertex)) :=
  match vs with
  | [] => Some []
  | v :: r => match split_vertex max_pos max_yaw v, split_all max_pos max_yaw r with
              | Some x, Some l => Some (x :: l)
              | _, _ => None
              end
  end.
(** getVertices(max_pos, max_yaw, ...) - 292-327.  [Undef]: a failing CHECK or an
    undefined evaluation; [Failed]: returns false; otherwise the position and
    yaw vertices.  The vertices written before a false return are not modelled;
    the code interleaves the evaluations with the splitting, which gives the
    same result. *)
Definition get_pos_yaw_vertices (tr : trajectory) (max_pos max_yaw : nat) :
  res (list vertex * list vertex) :=
  match get_vertices tr (Nat.max max_pos max_yaw) with
  | None => Undef
  | Some vs => match split_all max_pos max_yaw vs with
               | None => Failed
               | Some l => Val (map fst l, map snd l)
               end
  end.
