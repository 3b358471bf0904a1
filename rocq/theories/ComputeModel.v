(** Model of DynamicTrajectory::computeTrajectory up to the trajectory, with the
    optimisers of mav_trajectory_generation instead of an assumed contract.
    Source: src/dynamic_trajectory.cpp:298-343. *)
From Coq Require Import Reals List Bool Arith.
From Verif Require Import Base PolyModel VertexModel TrajModel WaypointModel DynModel LinOptModel NonlinModel FloatModel.
Import ListNotations.
Local Open Scope R_scope.

(** a_max_ - dynamic_trajectory.hpp:24, 94: the float nearest to 9.81. *)
Definition A_MAX : R := 10286531 / 1048576.

(** The parameters of lines 324-333; time_alloc_method, use_soft_constraints
    and soft_constraint_weight keep the defaults of
    polynomial_optimization_nonlinear.h:35-106.  The termination criteria only
    influence which points NLopt evaluates. *)
Definition generator_parameters : nl_params := NonlinModel.mkParams SquaredTimeAndConstraints 1000 true 100.

(** Lines 323-340: [xs] are the points NLopt evaluates. *)
Definition configure_nonlinear inv (vs : list vertex) (times : list R) (max_speed : R) : option nonlin :=
  match nl_setup inv 10 3 generator_parameters vs times 2 with
  | None => None
  | Some s0 => match add_max_constraint 1 max_speed s0 with
               | None => None
               | Some s1 => add_max_constraint 2 A_MAX s1
               end
  end.
Definition nonlinear_result find_roots inv qr (xs : list (list R)) (vs : list vertex) (times : list R)
    (max_speed : R) : res trajectory :=
  match configure_nonlinear inv vs times max_speed with
  | None => Undef
  | Some s => match optimize find_roots inv qr 10 xs false s with
              | Val s' => match get_trajectory (nl_opt s') with Some tr => Val tr | None => Undef end
              | _ => Undef
              end
  end.
(** Lines 315-321. *)
Definition linear_result inv qr (vs : list vertex) (times : list R) : res trajectory :=
  match setup inv 10 3 vs times 2 with
  | None => Undef
  | Some o => match get_trajectory (solve_linear qr 10 o) with Some tr => Val tr | None => Undef end
  end.
(** Lines 301-343.  [Failed]: the exception "Not enough waypoints"; [Undef]: a
    failed CHECK or an access out of bounds.  The speed is narrowed to float. *)
Definition compute_trajectory find_roots inv qr (xs : list (list R)) (speed : R) (lineal : bool)
    (ws : list waypoint) : res trajectory :=
  match extract_vertices ws with
  | None => Undef
  | Some vs =>
      if (length vs <? 2)%nat then Failed
      else match estimate_segment_times vs (float32 speed) A_MAX with
           | None => Undef
           | Some times => if lineal then linear_result inv qr vs times
                           else nonlinear_result find_roots inv qr xs vs times (float32 speed)
           end
  end.
