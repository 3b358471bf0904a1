(** The time argument of evaluateTrajectory.  Source: /repo/src/dynamic_trajectory.cpp:115-139. *)
From Coq Require Import Reals ZArith.
From Verif Require Import Base FloatModel WaypointModel DynModel.
Local Open Scope R_scope.

(** A call evaluateTrajectory(t, refs, only_positions, for_plotting) with a
    double t: the parameter has type [const float &] (line 115), so t is
    narrowed before the body (116-139) sees it.  The references are computed
    from the narrowed time (123-137) ... *)
Definition call_refs (t : R) (only_positions : bool) (s : state) : option references :=
  eval_refs (float32 t) only_positions s.
(** ... and so are the times recorded unless for_plotting is set (125-131). *)
Definition call_record (t : R) (for_plotting : bool) (s : state) : state :=
  if for_plotting then s else do_eval (float32 t) s.
