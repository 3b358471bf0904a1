(** Model of PolynomialOptimization::computeSegmentMaximumMagnitudeCandidatesBySampling.
    Source: MTG/include/mav_trajectory_generation/impl/polynomial_optimization_linear_impl.h:411-457. *)
From Coq Require Import Reals List Bool ZArith Arith.
From Verif Require Import Base PolyModel VertexModel TrajModel.
Import ListNotations.
Local Open Scope R_scope.

(** The double nearest to 1e-2 - linear_impl.h:438. *)
Definition SLOPE_TOL : R := 5764607523034235 / 576460752303423488.

(** std::signbit of a difference of norms: a difference of two doubles is never
    -0 in the default rounding mode. *)
Definition signbit (x : R) : bool := Rltb x 0.

(** The loop - linear_impl.h:428-451.  [t] is the loop variable, [value] is
    value_new of the previous round; [None]: the fuel is used up.  Assigning
    [t = t_stop - dt] before the increment makes the next value
    t_stop - dt + dt. *)
Fixpoint sampling_loop (fuel : nat) (s : segment) (d : nat) (stop dt : R)
    (t : R) (value : vec) (direction t_old : R) (last : bool) (candidates : list R) : option (list R) :=
  match fuel with
  | O => None
  | S fuel =>
      if Rleb t stop then
        let value_new := seg_evaluate s t d in
        let direction_new := vec_norm value_new - vec_norm value in
        let candidates' :=
          if negb (Bool.eqb (signbit direction) (signbit direction_new)) then
            if Rltb (vec_norm (seg_evaluate s t_old (S d))) SLOPE_TOL then candidates ++ [t_old] else candidates
          else candidates in
        let final := Rltb stop (t + dt) && negb last in
        let t' := if final then stop - dt else t in
        sampling_loop fuel s d stop dt (t' + dt) value_new direction_new t (final || last) candidates'
      else Some candidates
  end.

(** The function - linear_impl.h:411-457; [prior] is what the vector holds
    already. *)
Definition candidates_by_sampling (fuel : nat) (s : segment) (d : nat) (start stop dt : R) (prior : list R) : option (list R) :=
  let value_new := seg_evaluate s (start + dt) d in
  let direction := vec_norm value_new - vec_norm (seg_evaluate s start d) in
  match sampling_loop fuel s d stop dt (start + dt + dt) value_new direction (start + dt) false (prior ++ [start]) with
  | Some c => Some (if Req_EM_T (List.last c 0) stop then c else c ++ [stop])
  | None => None
  end.
