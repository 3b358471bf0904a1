(** Evaluation of polynomials, segments and trajectories in double precision.
    Sources: MTG/include/mav_trajectory_generation/polynomial.h,
    MTG/src/polynomial.cpp, MTG/src/segment.cpp, MTG/src/trajectory.cpp.
    The same functions as in PolyModel and TrajModel, but [rnd] rounds the
    result of every arithmetic operation; overflow, infinities and NaN are
    outside the model.  A product and a sum are two operations: the compiler
    does not fuse them (it does so only for targets with fma instructions). *)
From Coq Require Import Reals List Bool ZArith Arith.
From Verif Require Import Base PolyModel VertexModel TrajModel.
Import ListNotations.
Local Open Scope R_scope.

Section Rounded.
Context (rnd : R -> R).

(** Entry (n,i) of the table of computeBaseCoefficients - polynomial.cpp:145-160,
    see [base_coeff]; the factor order - DEG + i is an int, exact as a double. *)
Fixpoint table_r (n i : nat) : R :=
  match n with
  | O => 1
  | S m => if (i <? m)%nat then 0 else rnd (IZR (Z.of_nat i - Z.of_nat m) * table_r m i)
  end.

(** The loop of evaluate - polynomial.h:144-147, see [eval_loop]. *)
Fixpoint eval_loop_r (p : poly) (d : nat) (t : R) (cnt : nat) (acc : R) : R :=
  match cnt with
  | O => acc
  | S c => eval_loop_r p d t c (rnd (rnd (acc * t) + rnd (table_r d (d + c) * coef p (d + c))))
  end.
(** evaluate(t, derivative) - polynomial.h:136-149. *)
Definition poly_evaluate_r (p : poly) (t : R) (d : nat) : R :=
  let N := length p in
  if (N <=? d)%nat then 0
  else let tmp := (N - 1)%nat in
       eval_loop_r p d t (tmp - d) (rnd (table_r d tmp * coef p tmp)).
(** Segment::evaluate - segment.cpp:51-58. *)
Definition seg_evaluate_r (s : segment) (t : R) (d : nat) : vec :=
  map (fun i => poly_evaluate_r (seg_poly s i) t d) (seq 0 (s_D s)).

(** The segment chosen by Trajectory::evaluate and the time in it -
    trajectory.cpp:49-78.  [None]: t lies after the end (zeros are returned) or
    there is no segment. *)
Definition locate_r (tr : trajectory) (t : R) : option (nat * R) :=
  let '(i, acc) := find_segment (fun a b => rnd (a + b)) (t_segs tr) t 0 O in
  if Rltb acc t then None
  else
    let n := length (t_segs tr) in
    let i := if (n <=? i)%nat then (n - 1)%nat else i in
    match nth_error (t_segs tr) i with
    | None => None
    | Some s => Some (i, rnd (t - rnd (acc - s_time s)))
    end.
(** Trajectory::evaluate - trajectory.cpp:48-79. *)
Definition traj_evaluate_r (tr : trajectory) (t : R) (d : nat) : option vec :=
  let '(i, acc) := find_segment (fun a b => rnd (a + b)) (t_segs tr) t 0 O in
  if Rltb acc t then Some (repeat 0 (t_D tr))
  else
    let n := length (t_segs tr) in
    let i := if (n <=? i)%nat then (n - 1)%nat else i in
    match nth_error (t_segs tr) i with
    | None => None
    | Some s => Some (seg_evaluate_r s (rnd (t - rnd (acc - s_time s))) d)
    end.
End Rounded.
