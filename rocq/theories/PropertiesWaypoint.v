(** Property theorems: waypoints and their modifications (C28 - C35, C66, C67). *)
From Coq Require Import Reals Lra Lia List Bool ZArith Arith.
From Coq Require String.
From Coquelicot Require Import Coquelicot.
From Verif Require Import Base PolyModel VertexModel WaypointModel WaypointSpec WaypointProofs.
Import List ListNotations.
Local Open Scope R_scope.

(** A waypoint "a" at (1,2,3) to be reached at time 10, used in the examples. *)
Definition ex_wp : waypoint :=
  mkWp (pos_vertex [1; 2; 3]) (mkV3 1 2 3) (mkV3 1 2 3) 10
       (String.String (Ascii.ascii_of_nat 97) String.EmptyString) 1 [] SIGMA_FIXED.

(** C28: at its own time a waypoint that was fresh (no modifications) is
    displaced by the sum of the changes of at least 2 cm, on every axis i;
    hence by current minus original position up to 2 cm per small change. *)
Theorem C28_moved_waypoint_reached :
  forall (w : waypoint) (os : list wop) (i : nat),
  w_mods w = [] -> w_orig w = w_cur w -> 0 < w_sigma w -> before_passing (w_time w) os ->
  let w' := run_wops w os in
  let ds := changes i (v3_nth i (w_orig w)) os in
  v3_nth i (wp_compensation w' (w_time w') 0) = lsum (map applied ds) /\
  v3_nth i (w_cur w') - v3_nth i (w_orig w') = lsum ds /\
  Rabs (v3_nth i (wp_compensation w' (w_time w') 0) - (v3_nth i (w_cur w') - v3_nth i (w_orig w')))
    <= 2 / 100 * INR (length (filter (fun x => Rltb (Rabs x) (2 / 100)) ds)) /\
  (Forall (fun x => x = 0 \/ 2 / 100 <= Rabs x) ds ->
   v3_nth i (wp_compensation w' (w_time w') 0) = v3_nth i (w_cur w') - v3_nth i (w_orig w')).
Proof. exact moved_compensation. Qed.
Print Assumptions C28_moved_waypoint_reached.
Example C28_example :
  w_mods ex_wp = [] /\ w_orig ex_wp = w_cur ex_wp /\ 0 < w_sigma ex_wp /\
  before_passing (w_time ex_wp) [Move (mkV3 2 2 3) 0; Retime 20; Move (mkV3 2 (201 / 100) 4) 15] /\
  changes 0 (v3_nth 0 (w_orig ex_wp)) [Move (mkV3 2 2 3) 0; Retime 20; Move (mkV3 2 (201 / 100) 4) 15] = [2 - 1; 2 - 2].
Proof. repeat split; simpl; unfold SIGMA_FIXED; lra. Qed.

(** C29 (negative): n changes of 1 cm move the current position by n cm, the
    references do not change at any time in any derivative. *)
Theorem C29_small_changes_refuted :
  forall (w : waypoint) (n : nat), w_mods w = [] ->
  let w' := run_wops w (creep (w_cur w) n) in
  vx (w_cur w') = vx (w_cur w) + / 100 * INR n /\
  forall t d, wp_compensation w' t d = v3_zero.
Proof. exact creep_unnoticed. Qed.
Theorem C29_small_changes_ignored :
  forall (w : waypoint) (os : list wop) (t : R) (d : nat), w_mods w = [] ->
  (forall i, Forall (fun x => Rabs x < 2 / 100) (changes i (v3_nth i (w_cur w)) os)) ->
  wp_compensation (run_wops w os) t d = v3_zero.
Proof. exact small_moves_ignored. Qed.
Print Assumptions C29_small_changes_refuted.
Example C29_example : w_mods ex_wp = [] /\ creep (w_cur ex_wp) 2 =
  [Move (mkV3 (1 + / 100 * INR 1) 2 3) 0; Move (mkV3 (1 + / 100 * INR 2) 2 3) 0].
Proof. split; reflexivity. Qed.

(** C30: bounded, local, and almost nothing at the moment of the change. *)
Theorem C30_bounded :
  forall (w : waypoint) (os : list wop) (t : R) (i : nat), w_mods w = [] ->
  Rabs (v3_nth i (wp_compensation (run_wops w os) t 0)) <=
  lsum (map Rabs (changes i (v3_nth i (w_cur w)) os)).
Proof. exact history_bound. Qed.
Theorem C30_local :
  forall (w : waypoint) (t : R) (d : nat),
  (forall m i, In m (w_mods w) -> 7 / 2 * m_sigma (mod3_nth i m) < Rabs (t - m_mu (mod3_nth i m))) ->
  wp_compensation w t d = v3_zero.
Proof. exact compensation_local. Qed.
Theorem C30_no_jump_at_change :
  forall (w : waypoint) (p : V3) (a : R) (i : nat), 0 < a ->
  Rabs (v3_nth i (wp_compensation (wp_move p a w) a 0) - v3_nth i (wp_compensation w a 0)) <=
  exp (- (9 / 2)) * Rabs (v3_nth i p - v3_nth i (w_cur w)) \/ w_time w = a.
Proof. exact move_now. Qed.
Print Assumptions C30_bounded.
Print Assumptions C30_local.
Print Assumptions C30_no_jump_at_change.
Example C30_example :
  exists m, w_mods (wp_move (mkV3 2 2 3) 4 ex_wp) = [m] /\ m_sigma (m_x m) = 2 /\ m_mu (m_x m) = 10 /\
  7 / 2 * m_sigma (m_x m) < Rabs (20 - m_mu (m_x m)).
Proof.
  destruct (move_mods ex_wp (mkV3 2 2 3) 4) as (m & E & _ & Hmu & Hs & _).
  exists m. pose proof (Hmu 0%nat) as A. pose proof (Hs ltac:(lra) 0%nat) as B. simpl in A, B.
  split; [exact E|]. split; [lra|]. split; [lra|]. rewrite A, B, Rabs_right; lra.
Qed.

(** C31: velocity compensation is the derivative of the position compensation,
    away from the edges of the windows. *)
Theorem C31_velocity_compensation :
  forall (w : waypoint) (t : R) (i : nat),
  (forall m, In m (w_mods w) ->
     Rabs (t - m_mu (mod3_nth i m)) <> 7 / 2 * m_sigma (mod3_nth i m)) ->
  is_derive (fun u => v3_nth i (wp_compensation w u 0)) t (v3_nth i (wp_compensation w t 1)).
Proof. exact compensation_derive. Qed.
Print Assumptions C31_velocity_compensation.
Example C31_example : forall m, In m (w_mods (wp_move (mkV3 2 2 3) 4 ex_wp)) ->
  Rabs (9 - m_mu (mod3_nth 0 m)) <> 7 / 2 * m_sigma (mod3_nth 0 m).
Proof.
  destruct (move_mods ex_wp (mkV3 2 2 3) 4) as (m & E & _ & Hmu & Hs & _).
  rewrite E. intros m' [<-|[]]. rewrite Hmu, Hs by lra. simpl.
  rewrite Rabs_left; lra.
Qed.

(** C32 (negative): the order-2 compensation of a modifier exceeds the true
    derivative of the order-1 compensation by inc/sigma^2 * gaussian. *)
Theorem C32_acceleration_compensation_refuted :
  forall (m : modifier) (t : R), Rabs (t - m_mu m) < 7 / 2 * m_sigma m -> 2 / 100 <= Rabs (m_inc m) ->
  is_derive (fun u => mod_eval m u 1) t
    (mod_eval m t 2 - m_inc m / m_sigma m ^ 2 * exp (- (t - m_mu m) ^ 2 / (2 * m_sigma m ^ 2))) /\
  ~ is_derive (fun u => mod_eval m u 1) t (mod_eval m t 2).
Proof. exact acceleration_wrong. Qed.
Theorem C32_at_the_waypoint :
  forall (m : modifier), 0 < m_sigma m -> 2 / 100 <= Rabs (m_inc m) ->
  mod_eval m (m_mu m) 2 = 0 /\ is_derive (fun u => mod_eval m u 1) (m_mu m) (- m_inc m / m_sigma m ^ 2).
Proof. exact acceleration_at_mu. Qed.
Print Assumptions C32_acceleration_compensation_refuted.
Example C32_example : let m := mkMod 2 10 1 in Rabs (9 - m_mu m) < 7 / 2 * m_sigma m /\ 2 / 100 <= Rabs (m_inc m).
Proof. simpl. split; [rewrite Rabs_left|rewrite Rabs_R1]; lra. Qed.

(** C33: modifying a passed waypoint. *)
Theorem C33_passed_waypoint :
  forall (w : waypoint) (p : V3) (a t : R) (d : nat), 0 < a -> w_time w < a ->
  wp_compensation (wp_move p a w) t d = wp_compensation w t d.
Proof. exact move_passed. Qed.
Print Assumptions C33_passed_waypoint.
Example C33_example : 0 < 12 /\ w_time ex_wp < 12.
Proof. simpl; lra. Qed.

(** C34 (negative): equal changes on the three axes give different
    compensations away from the waypoint time, and the widths shrink. *)
Theorem C34_axis_dependent_refuted :
  forall (w : waypoint) (p : V3) (a t : R),
  w_mods w = [] -> 0 < w_sigma w -> a <= 0 ->
  vx p - vx (w_cur w) = vy p - vy (w_cur w) -> vy p - vy (w_cur w) = vz p - vz (w_cur w) ->
  2 / 100 <= Rabs (vx p - vx (w_cur w)) ->
  t <> w_time w -> Rabs (t - w_time w) <= 7 / 2 * (w_sigma w * (3 / 4) ^ 3) ->
  Rabs (vz (wp_compensation (wp_move p a w) t 0)) < Rabs (vy (wp_compensation (wp_move p a w) t 0)) /\
  Rabs (vy (wp_compensation (wp_move p a w) t 0)) < Rabs (vx (wp_compensation (wp_move p a w) t 0)).
Proof. exact axis_dependent. Qed.
Theorem C34_widths_shrink :
  forall (os : list wop) (w : waypoint) (k : nat),
  Forall (fun o => match o with Move _ a => a <= 0 | Retime _ => False end) os ->
  nth_error os k <> None ->
  exists m, nth_error (w_mods (run_wops w os)) (length (w_mods w) + k) = Some m /\
    forall i, (i < 3)%nat -> m_sigma (mod3_nth i m) = w_sigma w * (3 / 4) ^ (3 * k + S i).
Proof. exact nonpositive_widths. Qed.
Print Assumptions C34_axis_dependent_refuted.
Print Assumptions C34_widths_shrink.
Example C34_example : w_mods ex_wp = [] /\ 0 < w_sigma ex_wp /\
  2 / 100 <= Rabs (vx (mkV3 2 3 4) - vx (w_cur ex_wp)) /\
  Rabs (9 - w_time ex_wp) <= 7 / 2 * (w_sigma ex_wp * (3 / 4) ^ 3).
Proof.
  simpl. unfold SIGMA_FIXED. split; [reflexivity|]. split; [lra|]. split; [rewrite Rabs_right; lra|].
  rewrite Rabs_left; lra.
Qed.

(** C35: copying. *)
Theorem C35_copy_same :
  forall (w : waypoint),
  w_vertex (wp_copy w) = w_vertex w /\ w_orig (wp_copy w) = w_orig w /\ w_cur (wp_copy w) = w_cur w /\
  w_time (wp_copy w) = w_time w /\ w_name (wp_copy w) = w_name w /\ w_index (wp_copy w) = w_index w /\
  wp_has_modifiers (wp_copy w) = wp_has_modifiers w /\
  (forall t d, wp_compensation (wp_copy w) t d = wp_compensation w t d) /\
  (forall p a t d, 0 < a -> wp_compensation (wp_move p a (wp_copy w)) t d = wp_compensation (wp_move p a w) t d).
Proof. exact copy_same. Qed.
Theorem C35_copy_forgets_width_refuted :
  forall (w : waypoint) (p : V3) (a t : R),
  a <= 0 -> 0 < w_sigma w < 3 / 2 -> 2 / 100 <= Rabs (vx p - vx (w_cur w)) ->
  t <> w_time w -> Rabs (t - w_time w) <= 7 / 2 * (3 / 4 * w_sigma w) ->
  vx (wp_compensation (wp_move p a (wp_copy w)) t 0) <> vx (wp_compensation (wp_move p a w) t 0).
Proof. exact copy_forgets_width. Qed.
Print Assumptions C35_copy_same.
Print Assumptions C35_copy_forgets_width_refuted.
Example C35_example : let w := wp_move (mkV3 2 2 3) 0 ex_wp in
  0 < w_sigma w < 3 / 2 /\ 2 / 100 <= Rabs (vx (mkV3 3 2 3) - vx (w_cur w)).
Proof.
  cbv zeta. destruct (move_mods ex_wp (mkV3 2 2 3) 0) as (m & _ & _ & _ & _ & _ & _ & Hs).
  rewrite Hs by lra. rewrite move_cur. simpl. unfold SIGMA_FIXED. split; [lra|rewrite Rabs_right; lra].
Qed.

(** C66 (negative): the position compensation jumps at the edge of the window. *)
Theorem C66_window_edge_jump_refuted :
  forall (m : modifier), 0 < m_sigma m -> 2 / 100 <= Rabs (m_inc m) ->
  mod_eval m (m_mu m + 7 / 2 * m_sigma m) 0 = exp (- (49 / 8)) * m_inc m /\
  (forall t, m_mu m + 7 / 2 * m_sigma m < t -> mod_eval m t 0 = 0) /\
  ~ continuous (fun t => mod_eval m t 0) (m_mu m + 7 / 2 * m_sigma m).
Proof. exact window_jump. Qed.
Print Assumptions C66_window_edge_jump_refuted.
Example C66_example : 0 < m_sigma (mkMod 2 10 1) /\ 2 / 100 <= Rabs (m_inc (mkMod 2 10 1)).
Proof. simpl. rewrite Rabs_R1. lra. Qed.

(** C67 (negative): a change made at exactly the waypoint's time gives a
    division of zero by zero there; changes made before it never do. *)
Theorem C67_not_a_number_refuted :
  forall (w : waypoint) (p : V3),
  0 < w_time w -> 2 / 100 <= Rabs (vx p - vx (w_cur w)) -> wp_nan (wp_move p (w_time w) w) (w_time w).
Proof. exact move_at_own_time_nan. Qed.
Theorem C67_defined_otherwise :
  forall (w : waypoint) (os : list wop) (t : R),
  w_mods w = [] -> 0 < w_sigma w -> before_passing (w_time w) os -> ~ wp_nan (run_wops w os) t.
Proof. exact history_not_nan. Qed.
Print Assumptions C67_not_a_number_refuted.
Print Assumptions C67_defined_otherwise.
Example C67_example : 0 < w_time ex_wp /\ 2 / 100 <= Rabs (vx (mkV3 2 2 3) - vx (w_cur ex_wp)).
Proof. simpl. split; [lra|]. rewrite Rabs_right; lra. Qed.
