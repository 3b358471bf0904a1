(** String constants (kept apart because importing String hides list functions). *)
From Coq Require Import String.

(** Name of the inserted waypoints - dynamic_trajectory.cpp:512 and
    dynamic_trajectory.hpp:156. *)
Definition stitching_point : string := "stitching_point"%string.
Definition name_a : string := "a"%string.
Definition name_b : string := "b"%string.
Definition name_c : string := "c"%string.
