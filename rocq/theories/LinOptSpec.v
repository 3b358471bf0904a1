(** Specification vocabulary for the linear optimiser, independent of how the
    optimiser computes its result. *)
From Coq Require Import Reals List Arith.
From Coquelicot Require Import Coquelicot.
From Verif Require Import Base PolyModel PolySpec VertexModel TrajModel TrajSpec LinOptModel.
Import List ListNotations.
Local Open Scope R_scope.

(** Polynomial sizes for which the code has a table of derivative factors
    (polynomial.h:47: 22 columns) and the static_assert on even N holds. *)
Definition valid_size (N : nat) : Prop := (2 <= N <= 22)%nat /\ Nat.even N = true.

(** B is the two-sided inverse of the n x n matrix A. *)
Definition is_inverse (n : nat) (A B : mat) : Prop :=
  forall i j, (i < n)%nat -> (j < n)%nat ->
    rsum n (fun k => A i k * B k j) = (if (i =? j)%nat then 1 else 0) /\
    rsum n (fun k => B i k * A k j) = (if (i =? j)%nat then 1 else 0).

(** Contract of Eigen's dense inverse in exact arithmetic: the inverse of an
    invertible matrix, nothing about a singular one. *)
Definition exact_inverse (inv : inverse_routine) : Prop :=
  forall n A B, is_inverse n A B -> forall i j, (i < n)%nat -> (j < n)%nat -> inv n A i j = B i j.

(** Contract of Eigen's SparseQR in exact arithmetic: a solution of every
    system that has one. *)
Definition exact_solver (qr : solve_routine) : Prop :=
  forall n A b,
    (exists x, forall i, (i < n)%nat -> rsum n (fun j => A i j * x j) = b i) ->
    forall i, (i < n)%nat -> rsum n (fun j => A i j * qr n A b j) = b i.

(** Segment times that the mapping matrix can represent: baseCoeffsWithTime
    treats times below epsilon as zero. *)
Definition usable_times (times : list R) : Prop := Forall (fun T => DBL_EPS <= T) times.

(** A list of segments interpolates the vertices: one segment between each
    pair of consecutive vertices, of the given durations, D polynomials of N
    coefficients each; every constraint of order below N/2 is met at both
    adjoining ends. *)
Definition interpolates (N D : nat) (vs : list vertex) (times : list R) (segs : list segment) : Prop :=
  map s_time segs = times /\ length vs = S (length segs) /\
  Forall (fun s => seg_wf s /\ s_N s = N /\ s_D s = D) segs /\
  forall i s v v', nth_error segs i = Some s ->
    nth_error vs i = Some v -> nth_error vs (S i) = Some v' ->
    forall k c, (k < N / 2)%nat ->
      (get_constraint k v = Some c -> seg_deriv s k 0 = c) /\
      (get_constraint k v' = Some c -> seg_deriv s k (s_time s) = c).

(** Consecutive segments agree in the derivatives 0 .. m-1. *)
Definition smooth (m : nat) (segs : list segment) : Prop :=
  forall i s s', nth_error segs i = Some s -> nth_error segs (S i) = Some s' ->
    forall k, (k < m)%nat -> seg_deriv s k (s_time s) = seg_deriv s' k 0.

(** Integral over the trajectory of the squared norm of the d-th derivative. *)
Definition energy (d : nat) (segs : list segment) : R :=
  lsum (map (fun s => lsum (map (fun p =>
    RInt (fun t => (Derive_n (pval p) d t) ^ 2) 0 (s_time s)) (s_polys s))) segs).

(** Vertices of dimension D. *)
Definition vertices_dim (D : nat) (vs : list vertex) : Prop :=
  Forall (fun v => v_D v = D /\ forall k c, get_constraint k v = Some c -> length c = D) vs.

(** Use of the optimiser object: set up from vertices, then any sequence of
    changes of the segment times, of the free constraints, and linear solves. *)
Inductive opt_use (inv : inverse_routine) (qr : solve_routine) (N D : nat) (vs : list vertex) (d : nat) :
  opt -> Prop :=
| use_setup times o : setup inv N D vs times d = Some o -> opt_use inv qr N D vs d o
| use_times times o o' : opt_use inv qr N D vs d o -> update_times inv N times o = Some o' ->
    opt_use inv qr N D vs d o'
| use_free dp o o' : opt_use inv qr N D vs d o -> set_free N dp o = Some o' ->
    opt_use inv qr N D vs d o'
| use_solve o : opt_use inv qr N D vs d o -> opt_use inv qr N D vs d (solve_linear qr N o).
