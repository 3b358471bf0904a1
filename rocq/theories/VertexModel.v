(** Model of mav_trajectory_generation::Vertex and of the segment time
    estimates.  Source: MTG/include/mav_trajectory_generation/vertex.h and
    MTG/src/vertex.cpp. *)
From Coq Require Import Reals Lra Lia List Bool ZArith Arith.
From Verif Require Import Base PolyModel.
Import ListNotations.
Local Open Scope R_scope.

(** Vectors of arbitrary dimension (Eigen::VectorXd). *)
Definition vec := list R.
Definition vec_sub (a b : vec) : vec := map (fun p => fst p - snd p) (combine a b).
Definition vec_norm (a : vec) : R := sqrt (lsum (map (fun x => x * x) a)).

(** std::map<int, VectorXd> - vertex.h:47 and 111: association list sorted by
    strictly increasing derivative order.  Simplification: orders are natural
    numbers (no caller uses negative ones). *)
Definition constraints := list (nat * vec).

(** [constraints_[k] = v] *)
Fixpoint cons_set (k : nat) (v : vec) (c : constraints) : constraints :=
  match c with
  | [] => [(k, v)]
  | (k', v') :: c' =>
      if (k <? k')%nat then (k, v) :: (k', v') :: c'
      else if (k =? k')%nat then (k, v) :: c'
      else (k', v') :: cons_set k v c'
  end.
(** [constraints_.find(k)] *)
Fixpoint cons_find (k : nat) (c : constraints) : option vec :=
  match c with
  | [] => None
  | (k', v') :: c' => if (k =? k')%nat then Some v' else cons_find k c'
  end.
(** [constraints_.erase(it)] *)
Fixpoint cons_erase (k : nat) (c : constraints) : constraints :=
  match c with
  | [] => []
  | (k', v') :: c' => if (k =? k')%nat then c' else (k', v') :: cons_erase k c'
  end.

Record vertex := mkVertex { v_D : nat; v_cons : constraints }.

(** Vertex(dimension) - vertex.h:51. *)
Definition vertex_new (D : nat) : vertex := mkVertex D [].

(** addConstraint(int, VectorXd) - vertex.cpp:130-134; a size mismatch is the
    fatal CHECK_EQ, modelled by [None]. *)
Definition add_constraint (d : nat) (c : vec) (v : vertex) : option vertex :=
  if (length c =? v_D v)%nat then Some (mkVertex (v_D v) (cons_set d c (v_cons v))) else None.

(** addConstraint(int, double) - vertex.h:58-60. *)
Definition add_constraint_scalar (d : nat) (x : R) (v : vertex) : vertex :=
  mkVertex (v_D v) (cons_set d (repeat x (v_D v)) (v_cons v)).

(** removeConstraint - vertex.cpp:136-145. *)
Definition remove_constraint (d : nat) (v : vertex) : bool * vertex :=
  match cons_find d (v_cons v) with
  | Some _ => (true, mkVertex (v_D v) (cons_erase d (v_cons v)))
  | None => (false, v)
  end.

(** cBegin, cEnd - vertex.h:88-97: the constraints in the order of iteration. *)
Definition iterate_constraints (v : vertex) : list (nat * vec) := v_cons v.
(** getNumberOfConstraints - vertex.h:100. *)
Definition number_of_constraints (v : vertex) : nat := length (v_cons v).

(** getConstraint - vertex.cpp:155-163. *)
Definition get_constraint (d : nat) (v : vertex) : option vec := cons_find d (v_cons v).

(** hasConstraint - vertex.cpp:165-168. *)
Definition has_constraint (d : nat) (v : vertex) : bool :=
  match cons_find d (v_cons v) with Some _ => true | None => false end.

(** The loop of makeStartOrEnd - vertex.cpp:150-152, for i = 1 .. n. *)
Fixpoint start_end_loop (n : nat) (D : nat) (c : constraints) : constraints :=
  match n with
  | O => c
  | S m => cons_set (S m) (repeat 0 D) (start_end_loop m D c)
  end.
(** makeStartOrEnd - vertex.cpp:147-153. *)
Definition make_start_or_end (c : vec) (up_to : nat) (v : vertex) : option vertex :=
  match add_constraint 0 c v with
  | None => None
  | Some v' => Some (mkVertex (v_D v') (start_end_loop up_to (v_D v') (v_cons v')))
  end.

(** [v.isZero(tol)] of Eigen: every coefficient is at most tol in absolute
    value (isMuchSmallerThan(1, tol): abs(x) <= tol). *)
Definition is_zero_tol (v : vec) (tol : R) : bool := forallb (fun x => Rleb (Rabs x) tol) v.

(** isEqualTol - vertex.cpp:170-182.  Subtracting vectors of different size is
    an Eigen assertion; the model truncates, callers compare vertices of equal
    dimension. *)
Definition is_equal_tol (a b : vertex) (tol : R) : bool :=
  (length (v_cons a) =? length (v_cons b))%nat &&
  forallb (fun kv => match cons_find (fst kv) (v_cons b) with
                     | None => false
                     | Some w => is_zero_tol (vec_sub (snd kv) w) tol
                     end) (v_cons a).

(** getSubdimension - vertex.cpp:184-207: return value and subvertex. *)
Definition get_subdimension (dims : list nat) (max_order : nat) (v : vertex) : bool * vertex :=
  if forallb (fun d => d <? v_D v)%nat dims then
    (true, mkVertex (length dims)
       (fold_left (fun acc kv =>
          if (max_order <? fst kv)%nat then acc
          else cons_set (fst kv) (map (fun d => nth d (snd kv) 0) dims) acc)
          (v_cons v) []))
  else (false, vertex_new (length dims)).

(* ------------------------------------------------------------------ *)
(** ** Segment time estimates *)

(** computeTimeVelocityRamp - vertex.cpp:291-307. *)
Definition time_velocity_ramp (start goal : vec) (v_max a_max : R) : R :=
  let distance := vec_norm (vec_sub start goal) in
  let acc_time := v_max / a_max in
  let acc_distance := / 2 * v_max * acc_time in
  if Rltb distance (2 * acc_distance) then 2 * sqrt (distance / a_max)
  else 2 * acc_time + (distance - 2 * acc_distance) / v_max.

(** [vertices[i].getConstraint(POSITION, &start)] leaves an empty vector when
    the vertex has no position; norms of differences of vectors of different
    size are Eigen assertions.  The model uses the empty vector then. *)
Definition pos_of (v : vertex) : vec :=
  match get_constraint 0 v with Some p => p | None => [] end.

(** One iteration of estimateSegmentTimesVelocityRamp - vertex.cpp:243-250
    (time_factor is unused by the code). *)
Definition ramp_time (v_max a_max : R) (a b : vertex) : R :=
  Rmax (1 / 10) (time_velocity_ramp (pos_of a) (pos_of b) v_max a_max).

(** [has_speed && speed.norm() < 1e-6] - vertex.cpp:280-281. *)
Definition at_rest (v : vertex) : bool :=
  match get_constraint 1 v with
  | Some s => Rltb (vec_norm s) (/ 10 ^ 6)
  | None => false
  end.

(** One iteration of estimateSegmentTimesNfabian - vertex.cpp:261-287. *)
Definition nfabian_time (v_max a_max : R) (a b : vertex) : R :=
  let distance := vec_norm (vec_sub (pos_of b) (pos_of a)) in
  if at_rest a || at_rest b then distance / v_max + v_max / a_max
  else distance / v_max.

(** Loop over consecutive pairs. *)
Fixpoint pairwise {A B} (f : A -> A -> B) (l : list A) : list B :=
  match l with
  | a :: (b :: _) as r => f a b :: pairwise f r
  | _ => []
  end.

(** estimateSegmentTimesVelocityRamp - vertex.cpp:233-253, CHECK_GE(size, 2) is [None]. *)
Definition estimate_segment_times_ramp (vs : list vertex) (v_max a_max : R) : option (list R) :=
  if (length vs <? 2)%nat then None else Some (pairwise (ramp_time v_max a_max) vs).

(** estimateSegmentTimesNfabian - vertex.cpp:255-289 (magic_fabian_constant is
    unused by the code); estimateSegmentTimes - vertex.cpp:228-231 calls it. *)
Definition estimate_segment_times (vs : list vertex) (v_max a_max : R) : option (list R) :=
  if (length vs <? 2)%nat then None else Some (pairwise (nfabian_time v_max a_max) vs).

(** Vertices as the test helpers build them: a position, or makeStartOrEnd. *)
Definition pos_vertex (p : vec) : vertex := mkVertex 3 [(O, p)].
Definition start_end_vertex (p : vec) (n : nat) : vertex :=
  mkVertex 3 (start_end_loop n 3 [(O, p)]).
