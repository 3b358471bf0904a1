(** Model of mav_msgs::getSquaredRotorSpeedsFromAllocationAndState.
    Source: MTG/include/mav_msgs/common.hpp:321-357. *)
From Coq Require Import Reals List Bool Arith.
From Verif Require Import Base RotModel.
Import ListNotations.
Local Open Scope R_scope.

(** Eigen's cross product. *)
Definition v3_cross (a b : V3) : V3 :=
  mkV3 (vy a * vz b - vz a * vy b) (vz a * vx b - vx a * vz b) (vx a * vy b - vy a * vx b).
(** [inertia.asDiagonal() * v] *)
Definition diag_mul (j v : V3) : V3 := mkV3 (vx j * vx v) (vy j * vy v) (vz j * vz v).
(** Row times column. *)
Definition row_mul (row col : list R) : R := lsum (map (fun p => fst p * snd p) (combine row col)).

(** getSquaredRotorSpeedsFromAllocationAndState - common.hpp:344-357.
    [allocation_inv] is the list of rows; a matrix without exactly four columns
    violates Eigen's size assertion ([None]). *)
Definition rotor_speeds (allocation_inv : list (list R)) (inertia : V3) (mass : R)
    (w wdot acc : V3) : option (list R) :=
  let a := diag_mul inertia wdot in
  let b := v3_cross w (diag_mul inertia w) in
  let torque := mkV3 (vx a + vx b) (vy a + vy b) (vz a + vz b) in
  let thrust := mass * sqrt (vx acc * vx acc + vy acc * vy acc + vz acc * vz acc) in
  if forallb (fun row => (length row =? 4)%nat) allocation_inv then
    Some (map (fun row => row_mul row [vx torque; vy torque; vz torque; thrust]) allocation_inv)
  else None.
