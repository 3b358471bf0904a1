(** Specification vocabulary for the nonlinear optimiser. *)
From Coq Require Import Reals List Arith.
From Coquelicot Require Import Coquelicot.
From Verif Require Import Base PolyModel PolySpec VertexModel TrajModel TrajSpec LinOptModel LinOptSpec NonlinModel.
Import List ListNotations.
Local Open Scope R_scope.

(** Component-wise between the lower and the upper bounds. *)
Definition in_bounds (b : list (R * R)) (x : list R) : Prop :=
  Forall2 (fun b x => fst b <= x <= snd b) b x.

(** Contract of NLopt: the objective is evaluated at points inside the bounds
    only, and never if the initial guess is outside. *)
Definition nlopt_run (x0 : list R) (b : list (R * R)) (xs : list (list R)) : Prop :=
  Forall (in_bounds b) xs /\ (~ in_bounds b x0 -> xs = []).

(** M is the maximum over all segments and times of the norm of the d-th derivative. *)
Definition max_norm (segs : list segment) (d : nat) (M : R) : Prop :=
  (exists i s t, nth_error segs i = Some s /\ 0 <= t <= s_time s /\ vec_norm (seg_deriv s d t) = M) /\
  (forall i s t, nth_error segs i = Some s -> 0 <= t <= s_time s -> vec_norm (seg_deriv s d t) <= M).

(** The optimiser as configured by its user: set up, then any number of
    maximum-magnitude constraints added. *)
Inductive configured (inv : inverse_routine) (N D : nat) (p : nl_params) (vs : list vertex)
    (times : list R) (d : nat) : nonlin -> Prop :=
| conf_setup s : nl_setup inv N D p vs times d = Some s -> configured inv N D p vs times d s
| conf_add k v s s' : configured inv N D p vs times d s -> add_max_constraint k v s = Some s' ->
    configured inv N D p vs times d s'.

(** All constrained orders are below N - 1, as the candidate search requires. *)
Definition orders_ok (N : nat) (s : nonlin) : Prop := Forall (fun c => (cd_deriv c + 1 < N)%nat) (nl_cons s).

(** v is the value of the last maximum-magnitude constraint of order k, and positive. *)
Definition limit_set (s : nonlin) (k : nat) (v : R) : Prop :=
  0 < v /\ exists before c after, nl_cons s = before ++ c :: after /\ cd_deriv c = k /\ cd_value c = v /\
    Forall (fun c => cd_deriv c <> k) after.

(** What NLopt may do when optimize() is called in state [s]. *)
Definition allowed (qr : solve_routine) (N : nat) (s : nonlin) (xs : list (list R)) : Prop :=
  match p_alloc (nl_params_ s) with
  | SquaredTimeAndConstraints | RichterTimeAndConstraints =>
      forall s1 x0 b, full_problem qr N s = Some (s1, x0, b) -> nlopt_run x0 b xs
  | _ => nlopt_run (o_times (nl_opt s)) (time_bounds (o_times (nl_opt s))) xs
  end.

(** The bounds the user asked for on a free derivative of the given order: those
    of the last constraint of that order, none if there is none. *)
Definition wanted_bounds (cs : list con_data) (order : nat) : R * R :=
  fold_left (fun b c => if (cd_deriv c =? order)%nat then (- Rabs (cd_value c), Rabs (cd_value c)) else b)
            cs (- DBL_MAX, DBL_MAX).

(** Orders below m of the derivatives that are free at the vertices, vertex by vertex. *)
Definition free_orders_below (m : nat) (vs : list vertex) : list nat :=
  flat_map (fun v => filter (fun k => negb (has_constraint k v)) (seq 0 m)) vs.
