(** The numerical helpers the library ships for checking trajectories.
    Source: /repo/subpackages/mav_trajectory_generation/include/mav_trajectory_generation/test_utils.h.
    Doubles are reals; std::rand() / RAND_MAX is an argument in [0, 1]. *)
From Coq Require Import Reals List Bool Arith.
From Verif Require Import Base PolyModel VertexModel TrajModel.
Import ListNotations.
Local Open Scope R_scope.

(** createRandomDouble - test_utils.h:31-35; [u] is rand() / RAND_MAX. *)
Definition create_random_double (u mn mx : R) : R := (mx - mn) * u + mn.

(** checkMatrices - test_utils.h:37-41: two matrices given by their entries
    in the same order; [None]: no entries (maxCoeff of an empty matrix). *)
Definition check_matrices (m1 m2 : list R) (tol : R) : option bool :=
  match map (fun p => Rabs (fst p - snd p)) (combine m1 m2) with
  | [] => None
  | x :: l => Some (Rltb (fold_left Rmax l x) tol)
  end.

(** The loop of getMaximumMagnitude - test_utils.h:43-55; [fuel] bounds the
    iterations (for dt <= 0 the loop does not end). *)
Fixpoint maximum_loop (fuel : nat) (tr : trajectory) (d : nat) (dt ts maximum : R) : option R :=
  match fuel with
  | O => None
  | S f =>
      if Rltb ts (t_max tr) then
        match traj_evaluate tr ts d with
        | None => None
        | Some v => let c := vec_norm v in
                    maximum_loop f tr d dt (ts + dt) (if Rltb maximum c then c else maximum)
        end
      else Some maximum
  end.
Definition maximum_magnitude (fuel : nat) (tr : trajectory) (d : nat) (dt : R) : option R :=
  maximum_loop fuel tr d dt 0 (- 10 ^ 9).

(** Eigen's squaredNorm. *)
Definition vec_squared_norm (v : vec) : R := lsum (map (fun x => x * x) v).
(** The loop of computeCostNumeric - test_utils.h:57-65. *)
Fixpoint cost_loop (fuel : nat) (tr : trajectory) (d : nat) (dt ts cost : R) : option R :=
  match fuel with
  | O => None
  | S f =>
      if Rltb ts (t_max tr) then
        match traj_evaluate tr ts d with
        | None => None
        | Some v => cost_loop f tr d dt (ts + dt) (cost + vec_squared_norm v * dt)
        end
      else Some cost
  end.
Definition cost_numeric (fuel : nat) (tr : trajectory) (d : nat) (dt : R) : option R :=
  cost_loop fuel tr d dt 0 0.
