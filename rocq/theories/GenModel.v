(** Model of the vertex generators.  Source: MTG/src/vertex.cpp:27-128.
    The random numbers are arguments: [us k] in [0,1) is the k-th number drawn,
    scaled to the interval of the distribution.  Segment and round counts do not
    overflow int. *)
From Coq Require Import Reals List Bool ZArith Arith.
From Verif Require Import Base PolyModel VertexModel.
Import ListNotations.
Local Open Scope R_scope.

(** [GAbort]: a CHECK fails; [GThrow]: an exception; [GUndef]: undefined
    behaviour; [GFuel]: the loop has not ended within the given steps. *)
Inductive gen := GVal (vs : list vertex) | GAbort | GThrow | GUndef | GFuel.

(** min_distance - vertex.cpp:51. *)
Definition MIN_DISTANCE : R := 2 / 10.

(** One position: a draw for every dimension - vertex.cpp:55-57, 68-70. *)
Definition draw (pmin pmax : vec) (us : nat -> R) (n : nat) : vec :=
  map (fun i => nth i pmin 0 + (nth i pmax 0 - nth i pmin 0) * us (n + i)%nat) (seq 0 (length pmin)).

(** The while loop - vertex.cpp:67-74: the position and the number of draws so far. *)
Fixpoint next_pos (fuel : nat) (pmin pmax : vec) (us : nat -> R) (n : nat) (last_pos : vec) : option (vec * nat) :=
  match fuel with
  | O => None
  | S fuel' =>
      let pos := draw pmin pmax us n in
      let n' := (n + length pmin)%nat in
      if Rltb MIN_DISTANCE (vec_norm (vec_sub pos last_pos)) then Some (pos, n')
      else next_pos fuel' pmin pmax us n' last_pos
  end.
(** The for loop - vertex.cpp:64-80: [k] more positions. *)
Fixpoint next_positions (k fuel : nat) (pmin pmax : vec) (us : nat -> R) (n : nat) (last_pos : vec) : option (list vec) :=
  match k with
  | O => Some []
  | S k' =>
      match next_pos fuel pmin pmax us n last_pos with
      | None => None
      | Some (pos, n') =>
          match next_positions k' fuel pmin pmax us n' pos with
          | None => None
          | Some l => Some (pos :: l)
          end
      end
  end.

Definition with_position (D : nat) (pos : vec) : option vertex := add_constraint 0 pos (vertex_new D).
(** [vertices.back().makeStartOrEnd(pos, maximum_derivative)] *)
Fixpoint map_opt {A B} (f : A -> option B) (l : list A) : option (list B) :=
  match l with
  | [] => Some []
  | x :: l' => match f x, map_opt f l' with Some y, Some r => Some (y :: r) | _, _ => None end
  end.
Fixpoint end_last (pos : vec) (up_to : nat) (l : list vertex) : option (list vertex) :=
  match l with
  | [] => None
  | [v] => match make_start_or_end pos up_to v with Some v' => Some [v'] | None => None end
  | v :: l' => match end_last pos up_to l' with Some r => Some (v :: r) | None => None end
  end.
Definition of_option (o : option (list vertex)) : gen := match o with Some vs => GVal vs | None => GAbort end.

(** createRandomVertices - vertex.cpp:27-82.  A distribution with minimum above
    maximum is undefined behaviour. *)
Definition random_vertices (fuel : nat) (us : nat -> R) (max_deriv n_segments : nat) (pmin pmax : vec) : gen :=
  if (n_segments <? 1)%nat || negb (length pmin =? length pmax)%nat then GAbort
  else if Rltb (vec_norm (vec_sub pmax pmin)) MIN_DISTANCE || (max_deriv <? 1)%nat then GAbort
  else if existsb (fun i => Rltb (nth i pmax 0) (nth i pmin 0)) (seq 0 (length pmin)) then GUndef
  else
    let D := length pmin in
    let first := draw pmin pmax us 0 in
    match next_positions n_segments fuel pmin pmax us D first with
    | None => GFuel
    | Some l =>
        of_option
          match make_start_or_end first max_deriv (vertex_new D), map_opt (with_position D) l with
          | Some v0, Some vs => end_last (last l first) max_deriv (v0 :: vs)
          | _, _ => None
          end
    end.

(** createRandomVertices1D - vertex.cpp:122-128. *)
Definition random_vertices_1d (fuel : nat) (us : nat -> R) (max_deriv n_segments : nat) (pos_min pos_max : R) : gen :=
  random_vertices fuel us max_deriv n_segments [pos_min] [pos_max].

(** createSquareVertices - vertex.cpp:84-120.  With a negative number of rounds
    [reserve(4 * rounds)] is asked for more than max_size() elements and throws. *)
Definition square_vertices (max_deriv : nat) (center : V3) (side : R) (rounds : Z) : gen :=
  if (rounds <? 0)%Z then GThrow
  else
    let pos1 := [vx center - side / 2; vy center - side / 2; vz center] in
    let pos2 := [vx center - side / 2; vy center + side / 2; vz center] in
    let pos3 := [vx center + side / 2; vy center + side / 2; vz center] in
    let pos4 := [vx center + side / 2; vy center - side / 2; vz center] in
    of_option
      match with_position 3 pos1, with_position 3 pos2, with_position 3 pos3, with_position 3 pos4 with
      | Some v1, Some v2, Some v3, Some v4 =>
          match make_start_or_end pos1 max_deriv v1 with
          | Some v0 => end_last pos1 max_deriv (v0 :: concat (repeat [v2; v3; v4; v1] (Z.to_nat rounds)))
          | None => None
          end
      | _, _, _, _ => None
      end.
