(** Model of GaussianModifier and DynamicWaypoint.
    Source: include/dynamic_trajectory_generator/utils/traj_modifiers.hpp,
    include/dynamic_trajectory_generator/dynamic_waypoint.hpp,
    src/dynamic_waypoint.cpp. *)
From Coq Require Import Reals Lra Lia List Bool ZArith Arith.
From Coq Require String.
From Verif Require Import Base PolyModel VertexModel.
Import ListNotations.
Local Open Scope R_scope.

(** std::string names. *)
Definition name := String.string.
Definition name_eqb : name -> name -> bool := String.eqb.
Definition no_name : name := String.EmptyString.

(* ------------------------------------------------------------------ *)
(** ** GaussianModifier *)

(** SIGMA_FIXED, SIGMA_COEFFICIENT - traj_modifiers.hpp:9-10. *)
Definition SIGMA_FIXED : R := 3 / 2.
Definition SIGMA_COEFFICIENT : R := 3 / 4.

(** Data members - traj_modifiers.hpp:23-26.  sigma_squared_ always holds
    sigma_ * sigma_ (set together in setSigma, 40-44) and is not stored. *)
Record modifier := mkMod { m_sigma : R; m_mu : R; m_inc : R }.

(** setModifierTime - traj_modifiers.hpp:31-34. *)
Definition mod_set_time (t : R) (m : modifier) : modifier := mkMod (m_sigma m) t (m_inc m).

(** operator() - traj_modifiers.hpp:47-70.  For sigma = 0 at t = mu the C++
    computes 0/0 (NaN); the model then returns a meaningless real and the
    predicate [mod_nan] below marks the case. *)
Definition mod_eval (m : modifier) (t : R) (d : nat) : R :=
  let max_reaction_time := 7 / 2 * m_sigma m in
  if Rltb (Rabs (m_inc m)) (2 / 100) || Rltb max_reaction_time (Rabs (t - m_mu m)) then 0
  else
    let s2 := m_sigma m * m_sigma m in
    let value :=
      match d with
      | 0%nat => exp (-1 * (t - m_mu m) * (t - m_mu m) / (2 * s2))
      | 1%nat => - ((t - m_mu m) / s2) * exp (- ((t - m_mu m) * (t - m_mu m)) / (2 * s2))
      | 2%nat => ((t - m_mu m) / s2) * ((t - m_mu m) / s2) *
                 exp (- ((t - m_mu m) * (t - m_mu m)) / (2 * s2))
      | _ => 0
      end in
    value * m_inc m.

(** The evaluation divides zero by zero. *)
Definition mod_nan (m : modifier) (t : R) : Prop :=
  2 / 100 <= Rabs (m_inc m) /\ m_sigma m = 0 /\ t = m_mu m.

(** std::array<GaussianModifier, 3>. *)
Record mod3 := mkMod3 { m_x : modifier; m_y : modifier; m_z : modifier }.
Definition mod3_nth (i : nat) (m : mod3) : modifier :=
  match i with O => m_x m | S O => m_y m | _ => m_z m end.

(* ------------------------------------------------------------------ *)
(** ** DynamicWaypoint *)

(** Data members - dynamic_waypoint.hpp:16-23 and 34. *)
Record waypoint := mkWp {
  w_vertex : vertex;
  w_orig : V3;
  w_cur : V3;
  w_time : R;
  w_name : name;
  w_index : Z;
  w_mods : list mod3;
  w_sigma : R }.

(** vertex_.addConstraint(0, position) on a three-dimensional vertex (the
    CHECK_EQ of the sizes holds; for another dimension the process aborts,
    which the model does not represent: every waypoint has a vertex of
    dimension 3, see [wp_ok]). *)
Definition set_cons (k : nat) (p : V3) (v : vertex) : vertex :=
  mkVertex (v_D v) (cons_set k (v3_list p) (v_cons v)).

(** DynamicWaypoint() - dynamic_waypoint.cpp:5-6; the positions are
    uninitialised, here arbitrary arguments. *)
Definition wp_default (junk_orig junk_cur : V3) : waypoint :=
  mkWp (vertex_new 3) junk_orig junk_cur 0 no_name (-1) [] SIGMA_FIXED.

(** DynamicWaypoint(vertex, name) - dynamic_waypoint.cpp:14-23.  Reading the
    components of a missing position is undefined behaviour: [None]. *)
Definition wp_new (v : vertex) (n : name) : option waypoint :=
  match get_constraint 0 v with
  | Some p => if (3 <=? length p)%nat
              then Some (mkWp v (v3_of_list p) (v3_of_list p) 0 n (-1) [] SIGMA_FIXED)
              else None
  | None => None
  end.
(** Copy constructor - dynamic_waypoint.cpp:26-31: last_sigma_ is not copied. *)
Definition wp_copy (w : waypoint) : waypoint :=
  mkWp (w_vertex w) (w_orig w) (w_cur w) (w_time w) (w_name w) (w_index w) (w_mods w) SIGMA_FIXED.

(** setIndex - dynamic_waypoint.hpp:36. *)
Definition wp_set_index (i : Z) (w : waypoint) : waypoint :=
  mkWp (w_vertex w) (w_orig w) (w_cur w) (w_time w) (w_name w) i (w_mods w) (w_sigma w).

(** setTime - dynamic_waypoint.hpp:37-47. *)
Definition mod3_set_time (t : R) (m : mod3) : mod3 :=
  mkMod3 (mod_set_time t (m_x m)) (mod_set_time t (m_y m)) (mod_set_time t (m_z m)).
Definition wp_set_time (t : R) (w : waypoint) : waypoint :=
  mkWp (w_vertex w) (w_orig w) (w_cur w) t (w_name w) (w_index w)
       (map (mod3_set_time t) (w_mods w)) (w_sigma w).

(** hasModifiers - dynamic_waypoint.hpp:49. *)
Definition wp_has_modifiers (w : waypoint) : bool :=
  match w_mods w with [] => false | _ => true end.

(** resetWaypointWithCurrentPosition, resetWaypoint - dynamic_waypoint.hpp:52-62. *)
Definition wp_reset (w : waypoint) : waypoint :=
  mkWp (set_cons 0 (w_cur w) (w_vertex w)) (w_cur w) (w_cur w) (w_time w) (w_name w) (w_index w) []
       (w_sigma w).
Definition wp_reset_to (p : V3) (w : waypoint) : waypoint :=
  wp_reset (mkWp (w_vertex w) (w_orig w) p (w_time w) (w_name w) (w_index w) (w_mods w) (w_sigma w)).

(** setConstraint - dynamic_waypoint.hpp:65-74. *)
Definition wp_set_constraint (order : nat) (p : V3) (w : waypoint) : waypoint :=
  match order with
  | O => wp_reset_to p w
  | _ => mkWp (set_cons order p (w_vertex w)) (w_orig w) (w_cur w) (w_time w) (w_name w)
              (w_index w) (w_mods w) (w_sigma w)
  end.

(** One iteration of the axis loop of setCurrentPosition -
    dynamic_waypoint.cpp:38-56: the new modifier and the new last_sigma_. *)
Definition axis_modifier (t_assigned actual_time last_sigma difference : R) : modifier * R :=
  if Rltb 0 actual_time
  then (mkMod ((t_assigned - actual_time) / 3) t_assigned difference, last_sigma)
  else (mkMod (last_sigma * SIGMA_COEFFICIENT) t_assigned difference, last_sigma * SIGMA_COEFFICIENT).

(** setCurrentPosition - dynamic_waypoint.cpp:33-60. *)
Definition wp_move (p : V3) (actual_time : R) (w : waypoint) : waypoint :=
  let '(mx, s1) := axis_modifier (w_time w) actual_time (w_sigma w) (vx p - vx (w_cur w)) in
  let '(my, s2) := axis_modifier (w_time w) actual_time s1 (vy p - vy (w_cur w)) in
  let '(mz, s3) := axis_modifier (w_time w) actual_time s2 (vz p - vz (w_cur w)) in
  mkWp (set_cons 0 p (w_vertex w)) (w_orig w) p (w_time w) (w_name w) (w_index w)
       (w_mods w ++ [mkMod3 mx my mz]) s3.

(** trajectoryCompensation - dynamic_waypoint.cpp:62-73. *)
Definition mod3_eval (m : mod3) (t : R) (d : nat) : V3 :=
  mkV3 (mod_eval (m_x m) t d) (mod_eval (m_y m) t d) (mod_eval (m_z m) t d).
Definition wp_compensation (w : waypoint) (t : R) (d : nat) : V3 :=
  fold_left (fun acc m => v3_add acc (mod3_eval m t d)) (w_mods w) v3_zero.

(** The compensation is not a number: some modifier divides zero by zero. *)
Definition wp_nan (w : waypoint) (t : R) : Prop :=
  exists m i, In m (w_mods w) /\ mod_nan (mod3_nth i m) t.

(** A waypoint built from a three-dimensional vertex whose position is
    fully specified. *)
Definition wp_ok (w : waypoint) : Prop :=
  v_D (w_vertex w) = 3%nat /\ exists p, get_constraint 0 (w_vertex w) = Some p /\ length p = 3%nat.
