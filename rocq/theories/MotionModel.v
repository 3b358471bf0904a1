(** Model of the derivative names.
    Source: MTG/src/motion_defines.cpp, MTG/include/mav_trajectory_generation/motion_defines.h. *)
From Coq Require Import ZArith List String Bool.
Import ListNotations.
Local Open Scope Z_scope.
Local Open Scope string_scope.

(** Constants of derivative_order - motion_defines.h:29-40. *)
Definition POSITION := 0.
Definition VELOCITY := 1.
Definition ACCELERATION := 2.
Definition JERK := 3.
Definition SNAP := 4.
Definition ORIENTATION := 0.
Definition ANGULAR_VELOCITY := 1.
Definition ANGULAR_ACCELERATION := 2.
Definition INVALID := -1.

(** positionDerivativeToString - motion_defines.cpp:25-34. *)
Definition positionDerivativeToString (derivative : Z) : string :=
  if ((POSITION <=? derivative)%Z && (derivative <=? SNAP)%Z)%bool then
    nth (Z.to_nat derivative) ["position"; "velocity"; "acceleration"; "jerk"; "snap"] ""
  else "invalid".

(** positionDerivativeToInt - motion_defines.cpp:36-51. *)
Definition positionDerivativeToInt (s : string) : Z :=
  if s =? "position" then POSITION
  else if s =? "velocity" then VELOCITY
  else if s =? "acceleration" then ACCELERATION
  else if s =? "jerk" then JERK
  else if s =? "snap" then SNAP
  else INVALID.

(** orintationDerivativeToString (sic) - motion_defines.cpp:53-62. *)
Definition orintationDerivativeToString (derivative : Z) : string :=
  if ((ORIENTATION <=? derivative)%Z && (derivative <=? ANGULAR_ACCELERATION)%Z)%bool then
    nth (Z.to_nat derivative) ["orientation"; "angular_velocity"; "angular_acceleration"] ""
  else "invalid".

(** orientationDerivativeToInt - motion_defines.cpp:64-75. *)
Definition orientationDerivativeToInt (s : string) : Z :=
  if s =? "orientation" then ORIENTATION
  else if s =? "angular_velocity" then ANGULAR_VELOCITY
  else if s =? "angular_acceleration" then ANGULAR_ACCELERATION
  else INVALID.
