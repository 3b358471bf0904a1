(** Single precision values.  The API and the library convert between double
    and float in a few places (evaluateTrajectory's argument, dynamic_trajectory.cpp:115;
    max_speed, dynamic_trajectory.cpp:302; TIME constants written as 0.1f).
    IEEE 754 binary32 with rounding to nearest even, without overflow, as
    formalised by Flocq. *)
From Coq Require Import Reals ZArith.
From Flocq Require Import Core.
Local Open Scope R_scope.

(** The exponent function of binary32: 24 bits of precision, smallest exponent -149. *)
Definition exp32 : Z -> Z := FLT_exp (-149) 24.
(** static_cast<float>(x), for |x| below the overflow threshold. *)
Definition float32 (x : R) : R := round radix2 exp32 ZnearestE x.
(** x is representable as a float. *)
Definition is_float (x : R) : Prop := generic_format radix2 exp32 x.
