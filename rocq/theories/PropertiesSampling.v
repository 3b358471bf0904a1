(** C65 - sampling functions; C80 - change of frame. *)
From Coq Require Import Reals Lra Lia Psatz Nsatz List Bool ZArith Arith.
From Flocq Require Import Core.
From Coquelicot Require Import Coquelicot.
From Verif Require Import Base PolyModel PolySpec VertexModel TrajModel TrajSpec TrajProofs RangeProofs TrajFinal
  RotModel RotProofs RotDeriv RotOmega SamplingModel PropertiesTraj PropertiesRot.
Import List ListNotations.
Local Open Scope R_scope.
Set Bullet Behavior "Strict Subproofs".

(* ------------------------------------------------------------------ *)
(** ** Specification *)

(** What Eigen::Quaterniond(Matrix3d) must do: for a rotation matrix it gives a
    unit quaternion describing the same rotation. *)
Definition quat_contract (quat_of : M3 -> quat) : Prop :=
  forall m, is_rotation m -> q_unit (quat_of m) /\ forall v, q_rotate (quat_of m) v = m3_vec m v.

(** [flat_state D c old st]: st is filled from the values c d i (component i
    of the d-th derivative); old is the state before. *)
Definition flat_state (D : nat) (c : nat -> nat -> R) (old st : point) : Prop :=
  p_timestamp st = p_timestamp old /\
  p_position st = mkV3 (c 0%nat 0%nat) (c 0%nat 1%nat) (c 0%nat 2%nat) /\
  p_velocity st = mkV3 (c 1%nat 0%nat) (c 1%nat 1%nat) (c 1%nat 2%nat) /\
  p_acceleration st = mkV3 (c 2%nat 0%nat) (c 2%nat 1%nat) (c 2%nat 2%nat) /\
  p_jerk st = mkV3 (c 3%nat 0%nat) (c 3%nat 1%nat) (c 3%nat 2%nat) /\
  p_snap st = mkV3 (c 4%nat 0%nat) (c 4%nat 1%nat) (c 4%nat 2%nat) /\
  (D = 4%nat -> p_dof st = DOF4 /\ p_orientation st = q_about_z (c 0%nat 3%nat) /\
     point_yaw_rate st = c 1%nat 3%nat /\ p_ang_vel st = mkV3 0 0 (c 1%nat 3%nat) /\
     point_yaw_acc st = c 2%nat 3%nat /\ p_ang_acc st = mkV3 0 0 (c 2%nat 3%nat) /\
     (- PI < c 0%nat 3%nat <= PI -> point_yaw st = c 0%nat 3%nat)) /\
  (D = 6%nat -> let r := fun d => mkV3 (c d 3%nat) (c d 4%nat) (c d 5%nat) in
     p_dof st = DOF6 /\ q_unit (p_orientation st) /\
     (forall v, q_rotate (p_orientation st) v = m3_vec (matrixFromRotationVector (r 0%nat)) v) /\
     p_ang_vel st = omegaFromRotationVector (r 0%nat) (r 1%nat) /\
     p_ang_acc st = omegaDotFromRotationVector (r 0%nat) (r 1%nat) (r 2%nat)) /\
  (D <> 4%nat -> D <> 6%nat -> p_dof st = DOF4 /\ p_orientation st = p_orientation old /\
     p_ang_vel st = p_ang_vel old /\ p_ang_acc st = p_ang_acc old).

(** The time stamp is t in whole nanoseconds, rounded down (t >= 0). *)
Definition stamped (st : point) (t : R) : Prop :=
  IZR (p_from_start st) <= t * 10 ^ 9 < IZR (p_from_start st) + 1.

(* ------------------------------------------------------------------ *)
(** ** Auxiliary lemmas *)

Lemma fill_state_spec quat_of D (vals : nat -> vec) ns old : quat_contract quat_of ->
  (forall d, (d <= 4)%nat -> length (vals d) = D) ->
  flat_state D (fun d i => nth i (vals d) 0) old
    (fill_state quat_of D (vals 0%nat) (vals 1%nat) (vals 2%nat) (vals 3%nat) (vals 4%nat) ns old).
Proof.
  intros Q L. unfold fill_state.
  assert (T : forall d, (d <= 4)%nat -> D = 6%nat ->
    tail3 (vals d) = mkV3 (nth 3 (vals d) 0) (nth 4 (vals d) 0) (nth 5 (vals d) 0)).
  { intros d Hd E. unfold tail3. rewrite (L d Hd). specialize (L d Hd). rewrite E in *.
    destruct (vals d) as [|x0 [|x1 [|x2 [|x3 [|x4 [|x5 [|]]]]]]]; try discriminate. reflexivity. }
  destruct (Nat.eqb_spec D 4) as [E4|N4]; [|destruct (Nat.eqb_spec D 6) as [E6|N6]];
    unfold flat_state; cbn [p_timestamp p_position p_velocity p_acceleration p_jerk p_snap p_orientation p_ang_vel p_ang_acc p_dof];
    repeat (refine (conj _ _); [reflexivity|]).
  - split; [|split; [lia|lia]]. intros _. unfold point_yaw_rate, point_yaw_acc, point_yaw. cbn.
    repeat (refine (conj _ _); [reflexivity|]). apply C64_yaw_round_trip.
  - split; [lia|]. split; [|lia]. intros _. rewrite !T by (auto; lia).
    split; [reflexivity|]. destruct (Q _ (matrix_rotation (mkV3 (nth 3 (vals 0%nat) 0) (nth 4 (vals 0%nat) 0) (nth 5 (vals 0%nat) 0)))) as [A B].
    refine (conj A (conj B (conj _ _))); reflexivity.
  - split; [lia|]. split; [lia|]. intros _ _. repeat (refine (conj _ _); try reflexivity).
Qed.

Lemma fill_state_stamp quat_of D p v a j s old t : 0 <= t ->
  stamped (fill_state quat_of D p v a j s (to_int64 (t * NS)) old) t.
Proof.
  intros H. unfold stamped.
  assert (E : p_from_start (fill_state quat_of D p v a j s (to_int64 (t * NS)) old) = to_int64 (t * NS)).
  { unfold fill_state. destruct (D =? 4)%nat; [reflexivity|]. destruct (D =? 6)%nat; reflexivity. }
  rewrite E. unfold to_int64, NS. rewrite Ztrunc_floor by (assert (0 < 10 ^ 9) by (apply pow_lt; lra); nra).
  split; [apply Zfloor_lb|apply Zfloor_ub].
Qed.

Lemma flat_state_ext D c c' old st : (3 <= D)%nat ->
  (forall d i, (d <= 4)%nat -> (i < D)%nat -> c d i = c' d i) -> flat_state D c old st -> flat_state D c' old st.
Proof.
  intros HD E (A & P & V & AC & J & S & Y4 & Y6 & Y0). unfold flat_state.
  rewrite <- !E by lia. repeat (refine (conj _ _); [assumption|]). split; [|split; [|exact Y0]].
  - intros D4. rewrite <- !E by lia. auto.
  - intros D6. rewrite <- !E by lia. auto.
Qed.

Lemma piece_In segs t s x : piece segs t = Some (s, x) -> In s segs.
Proof.
  revert t x; induction segs as [|s0 segs IH]; intros t x E; [discriminate|].
  cbn [piece] in E. destruct segs as [|s1 segs].
  - injection E as <- <-. now left.
  - revert E. rcase.
    + intros E. injection E as <- <-. now left.
    + intros E. right. eapply IH; eauto.
Qed.
Lemma traj_evaluate_some tr t d : traj_wf tr -> t_segs tr <> [] -> t <= t_max tr ->
  exists v, traj_evaluate tr t d = Some v /\ length v = t_D tr /\ forall i, comp tr d i t = nth i v 0.
Proof.
  intros [W M] NE H. destruct (traj_evaluate_piece tr t d NE) as (s & x & P & E); [lra|].
  rewrite E. eexists; split; [reflexivity|]. split.
  - unfold seg_evaluate. rewrite map_length, seq_length.
    assert (I : In s (t_segs tr)) by (eapply piece_In; eauto).
    rewrite Forall_forall in W. now destruct (W s I).
  - intros i. unfold comp. now rewrite E.
Qed.

(* ------------------------------------------------------------------ *)
(** ** Sampling at one time *)

Theorem C65_at_time : forall quat_of tr t st, quat_contract quat_of -> traj_wf tr -> t_segs tr <> [] ->
  (0 <= t <= t_max tr /\ (3 <= t_D tr)%nat ->
     exists st', sample_trajectory_at_time quat_of tr t st = Val st' /\ stamped st' t /\
       flat_state (t_D tr) (fun d i => comp tr d i t) st st') /\
  (~ (0 <= t <= t_max tr /\ (3 <= t_D tr)%nat) -> sample_trajectory_at_time quat_of tr t st = Failed).
Proof.
  intros quat_of tr t st Q W NE. unfold sample_trajectory_at_time. split.
  - intros [Ht HD]. rcase; [lra|]. rcase; [lra|]. cbn [orb]. unfold sample_flat_state.
    destruct (Nat.ltb_spec (t_D tr) 3); [lia|].
    destruct (traj_evaluate_some tr t 0 W NE ltac:(lra)) as (v0 & E0 & L0 & C0).
    destruct (traj_evaluate_some tr t 1 W NE ltac:(lra)) as (v1 & E1 & L1 & C1).
    destruct (traj_evaluate_some tr t 2 W NE ltac:(lra)) as (v2 & E2 & L2 & C2).
    destruct (traj_evaluate_some tr t 3 W NE ltac:(lra)) as (v3 & E3 & L3 & C3).
    destruct (traj_evaluate_some tr t 4 W NE ltac:(lra)) as (v4 & E4 & L4 & C4).
    rewrite E0, E1, E2, E3, E4. eexists. split; [reflexivity|]. split; [apply fill_state_stamp; lra|].
    set (vals := fun d => match d with 0 => v0 | 1 => v1 | 2 => v2 | 3 => v3 | _ => v4 end%nat).
    eapply flat_state_ext; [exact HD| |exact (fill_state_spec quat_of (t_D tr) vals _ st Q ltac:(intros [|[|[|[|]]]] _; cbn; assumption))].
    intros d i Hd _. destruct d as [|[|[|[|[|d]]]]]; cbn; auto; lia.
  - intros N. rcase; [reflexivity|]. rcase; [reflexivity|]. cbn [orb].
    destruct (Nat.ltb_spec (t_D tr) 3); [reflexivity|]. exfalso. apply N. split; [lra|lia].
Qed.

Theorem C65_segment_at_time : forall quat_of s t st, quat_contract quat_of -> seg_wf s ->
  (0 <= t <= s_time s /\ (3 <= s_D s)%nat ->
     exists st', sample_segment_at_time quat_of s t st = Val st' /\ stamped st' t /\
       flat_state (s_D s) (fun d i => nth i (seg_deriv s d t) 0) st st') /\
  (~ (0 <= t <= s_time s /\ (3 <= s_D s)%nat) -> sample_segment_at_time quat_of s t st = Failed).
Proof.
  intros quat_of s t st Q W. unfold sample_segment_at_time, sample_flat_state. split.
  - intros [Ht HD]. rcase; [lra|]. rcase; [lra|]. cbn [orb]. destruct (Nat.ltb_spec (s_D s) 3); [lia|].
    eexists. split; [reflexivity|]. split; [apply fill_state_stamp; lra|].
    eapply flat_state_ext; [exact HD| |exact (fill_state_spec quat_of (s_D s) (seg_evaluate s t) _ st Q
      ltac:(intros; unfold seg_evaluate; now rewrite map_length, seq_length))].
    intros d i _ _. cbn beta. now rewrite seg_evaluate_deriv.
  - intros N. rcase; [reflexivity|]. rcase; [reflexivity|]. cbn [orb].
    destruct (Nat.ltb_spec (s_D s) 3); [reflexivity|]. exfalso. apply N. split; [lra|lia].
Qed.

(** Yaw and angular motion: on a trajectory whose joints agree up to the second
    derivative the yaw rate and acceleration are the derivatives of the yaw ... *)
Theorem C65_yaw_rate : forall quat_of tr t st st', quat_contract quat_of -> traj_wf tr -> positive_times tr ->
  t_segs tr <> [] -> joined tr 2 -> t_D tr = 4%nat -> 0 <= t < t_max tr ->
  sample_trajectory_at_time quat_of tr t st = Val st' ->
  p_orientation st' = q_about_z (comp tr 0 3 t) /\
  is_derive (comp tr 0 3) t (point_yaw_rate st') /\ is_derive (comp tr 1 3) t (point_yaw_acc st').
Proof.
  intros quat_of tr t st st' Q W P NE J D Ht E.
  destruct (C65_at_time quat_of tr t st Q W NE) as [A _].
  destruct A as (st2 & E2 & _ & F); [split; [lra|lia]|]. rewrite E in E2. injection E2 as <-.
  destruct F as (_ & _ & _ & _ & _ & _ & F & _). destruct (F D) as (_ & O & Y & _ & Z & _).
  rewrite Y, Z. split; [exact O|]. split; apply (traj_derive tr 2); auto; lia || lra.
Qed.

(** ... and for D = 6 the sampled angular velocity and acceleration are those of
    the sampled orientation. *)
Theorem C65_angular_motion : forall quat_of tr t st st', quat_contract quat_of -> traj_wf tr -> positive_times tr ->
  t_segs tr <> [] -> joined tr 2 -> t_D tr = 6%nat -> 0 <= t < t_max tr ->
  sample_trajectory_at_time quat_of tr t st = Val st' ->
  let r := fun u => mkV3 (comp tr 0 3 u) (comp tr 0 4 u) (comp tr 0 5 u) in
  (forall v, q_rotate (p_orientation st') v = m3_vec (matrixFromRotationVector (r t)) v) /\
  (/ 1000 <= v3_norm (r t) -> angular_velocity r t (p_ang_vel st')) /\
  (forall w, / 1000 < v3_norm (r t) -> locally t (fun u => angular_velocity r u (w u)) ->
     v3_derive w t (p_ang_acc st')).
Proof.
  intros quat_of tr t st st' Q W P NE J D Ht E r.
  destruct (C65_at_time quat_of tr t st Q W NE) as [A _].
  destruct A as (st2 & E2 & _ & F); [split; [lra|lia]|]. rewrite E in E2. injection E2 as <-.
  destruct F as (_ & _ & _ & _ & _ & _ & _ & F & _). destruct (F D) as (_ & _ & O & V & AC).
  set (r1 := fun u => mkV3 (comp tr 1 3 u) (comp tr 1 4 u) (comp tr 1 5 u)).
  assert (D0 : forall u, u < t_max tr -> v3_derive r u (r1 u)).
  { intros u Hu. refine (conj _ (conj _ _)); cbn; apply (traj_derive tr 2); auto; lia || lra. }
  assert (D1 : v3_derive r1 t (mkV3 (comp tr 2 3 t) (comp tr 2 4 t) (comp tr 2 5 t))).
  { refine (conj _ (conj _ _)); cbn; apply (traj_derive tr 2); auto; lia || lra. }
  refine (conj O (conj _ _)).
  - intros N. rewrite V. apply (C64_omega r t (r1 t)); auto. apply D0; lra.
  - intros w N L. rewrite AC.
    pose proof (C64_omega_dot r r1 t _ (D0 t ltac:(lra)) D1 N) as (X & Y & Z).
    assert (LE : locally t (fun u => omegaFromRotationVector (r u) (r1 u) = w u)).
    { pose proof (norm_locally r t _ (D0 t ltac:(lra)) N) as LN.
      assert (LT : locally t (fun u => u < t_max tr)).
      { apply (open_lt (t_max tr)). lra. }
      generalize (filter_and _ _ (filter_and _ _ L LN) LT). apply filter_imp. intros u [[U1 U2] U3].
      apply (C64_angular_velocity_unique r u); [|exact U1].
      apply (C64_omega r u (r1 u)); [now apply D0|lra]. }
    refine (conj _ (conj _ _)).
    + eapply is_derive_ext_loc; [|exact X]. eapply filter_imp; [|exact LE]. intros u Hu. cbn beta. now rewrite Hu.
    + eapply is_derive_ext_loc; [|exact Y]. eapply filter_imp; [|exact LE]. intros u Hu. cbn beta. now rewrite Hu.
    + eapply is_derive_ext_loc; [|exact Z]. eapply filter_imp; [|exact LE]. intros u Hu. cbn beta. now rewrite Hu.
Qed.

(* ------------------------------------------------------------------ *)
(** ** Sampling a range *)

Lemma samples_length tr d d' t0 acc0 t_end dt l l' : samples tr d t0 acc0 t_end dt l ->
  samples tr d' t0 acc0 t_end dt l' -> length l = length l'.
Proof.
  assert (G : forall d d' l l', samples tr d t0 acc0 t_end dt l -> samples tr d' t0 acc0 t_end dt l' ->
     (length l <= length l')%nat).
  { clear. intros d d' l l' [A _] [_ B]. destruct (le_lt_dec (length l) (length l')) as [C|C]; auto.
    exfalso. destruct (nth_error l (length l')) eqn:E.
    - apply B. destruct (A _ _ E) as (_ & _ & X & Y). auto.
    - apply nth_error_None in E. lia. }
  intros A B. apply Nat.le_antisymm; [eapply (G d d')|eapply (G d' d)]; eauto.
Qed.

Lemma sample_at_length tr tau d v : traj_wf tr -> sample_at tr tau d v -> length v = t_D tr.
Proof.
  intros [W _] (m & s & E & _ & ->). unfold seg_deriv. rewrite map_length.
  rewrite Forall_forall in W. destruct (W s) as [[L _] [D _]]; [eapply nth_error_In; eauto|]. exact (eq_trans L D).
Qed.

Lemma nth_resize n old i : (i < n)%nat -> nth i (resize_states n old) point_default = nth i old point_default.
Proof.
  intros H. unfold resize_states. destruct (le_lt_dec (length old) i) as [C|C].
  - rewrite (nth_overflow old) by auto. rewrite app_nth2 by (rewrite firstn_length; lia).
    destruct (nth_in_or_default (i - length (firstn n old)) (repeat point_default (n - length old)) point_default) as [I|I]; auto.
    now apply repeat_spec in I.
  - rewrite app_nth1 by (rewrite firstn_length; lia). 
    rewrite <- (firstn_skipn n old) at 2. rewrite app_nth1 by (rewrite firstn_length; lia). reflexivity.
Qed.

Theorem C65_range : forall quat_of tr a b dt k s old, quat_contract quat_of -> traj_wf tr -> positive_times tr ->
  (3 <= t_D tr)%nat -> 0 < dt -> nth_error (t_segs tr) k = Some s -> start_of tr k <= a < start_of tr (S k) ->
  b <= t_max tr ->
  exists fuel0 sts,
    (forall fuel, (fuel0 <= fuel)%nat -> sample_trajectory_in_range fuel quat_of tr a b dt old = Val sts) /\
    (forall j st, nth_error sts j = Some st ->
       start_of tr k + INR j * dt < b /\ a + INR j * dt <= t_max tr /\ stamped st (a + INR j * dt) /\
       exists vals, (forall d, (d <= 4)%nat -> sample_at tr (a + INR j * dt) d (vals d)) /\
         flat_state (t_D tr) (fun d i => nth i (vals d) 0) (nth j old point_default) st) /\
    ~ (start_of tr k + INR (length sts) * dt < b /\ a + INR (length sts) * dt <= t_max tr).
Proof.
  intros quat_of tr a b dt k s old Q W P HD Hdt Hk Ha Hb.
  assert (K0 : 0 <= start_of tr k).
  { apply lsum_nonneg. apply Forall_forall. intros x Hx. apply in_map_iff in Hx. destruct Hx as (y & <- & Hy).
    unfold positive_times in P. rewrite Forall_forall in P. left. apply P.
    rewrite <- (firstn_skipn k (t_segs tr)). apply in_or_app. now left. }
  destruct (evaluate_range_spec tr a b dt 0 k s W P Hdt Hk Ha) as (f0 & l0 & E0 & S0).
  destruct (evaluate_range_spec tr a b dt 1 k s W P Hdt Hk Ha) as (f1 & l1 & E1 & S1).
  destruct (evaluate_range_spec tr a b dt 2 k s W P Hdt Hk Ha) as (f2 & l2 & E2 & S2).
  destruct (evaluate_range_spec tr a b dt 3 k s W P Hdt Hk Ha) as (f3 & l3 & E3 & S3).
  destruct (evaluate_range_spec tr a b dt 4 k s W P Hdt Hk Ha) as (f4 & l4 & E4 & S4).
  assert (N1 : Rltb a 0 = false) by (rcase; auto; lra).
  assert (N2 : Rltb (t_max tr) b = false) by (rcase; auto; lra).
  exists (f0 + f1 + f2 + f3 + f4)%nat. eexists. split.
  { intros fuel Hf. unfold sample_trajectory_in_range, range_values. rewrite N1, N2. cbn [orb].
    destruct (Nat.ltb_spec (t_D tr) 3); [lia|].
    rewrite E0, E1, E2, E3, E4 by lia. reflexivity. }
  cbv zeta. rewrite !map_length, seq_length. split.
  - intros j st Hj.
    assert (Lj : (j < length l0)%nat).
    { assert (X : nth_error _ j <> None) by (rewrite Hj; discriminate). apply nth_error_Some in X. now rewrite !map_length, seq_length in X. }
    rewrite (map_nth_error _ j (seq 0 (length l0)) (d := j)) in Hj.
    2:{ rewrite (nth_error_nth' _ 0%nat) by (rewrite seq_length; auto). now rewrite seq_nth. }
    injection Hj as <-.
    assert (G : forall d l, samples tr d a (start_of tr k) b dt l -> exists x, nth_error l j = Some x /\
       sample_at tr (a + INR j * dt) d (nth j (map fst l) [])).
    { intros d l Sl. pose proof (samples_length _ _ _ _ _ _ _ _ _ Sl S0) as EL.
      destruct (nth_error l j) as [x|] eqn:E; [|apply nth_error_None in E; lia].
      exists x. split; auto. destruct Sl as [A _]. destruct (A _ _ E) as (B & _).
      replace (nth j (map fst l) []) with (fst x); [exact B|]. symmetry.
      exact (nth_error_nth _ j [] (map_nth_error fst j l E)). }
    destruct (G _ _ S0) as (x0 & X0 & G0). destruct (G _ _ S1) as (_ & _ & G1). destruct (G _ _ S2) as (_ & _ & G2).
    destruct (G _ _ S3) as (_ & _ & G3). destruct (G _ _ S4) as (_ & _ & G4). clear G.
    destruct S0 as [S0 _]. destruct (S0 _ _ X0) as (_ & _ & B1 & B2).
    refine (conj B1 (conj B2 (conj _ _))).
    + rewrite (Rmult_comm (INR j) dt). apply fill_state_stamp. pose proof (pos_INR j). nra.
    + rewrite nth_resize by auto.
      exists (fun d => match d with 0 => nth j (map fst l0) [] | 1 => nth j (map fst l1) [] | 2 => nth j (map fst l2) []
              | 3 => nth j (map fst l3) [] | _ => nth j (map fst l4) [] end%nat). split.
      * intros d Hd. destruct d as [|[|[|[|[|]]]]]; auto; lia.
      * apply (fill_state_spec quat_of (t_D tr) (fun d => match d with 0 => nth j (map fst l0) [] | 1 => nth j (map fst l1) []
          | 2 => nth j (map fst l2) [] | 3 => nth j (map fst l3) [] | _ => nth j (map fst l4) [] end%nat)); auto.
        intros d Hd. destruct d as [|[|[|[|[|]]]]]; try lia; eapply sample_at_length; eauto.
  - destruct S0 as [_ S0]. exact S0.
Qed.

(** C65: sampleTrajectoryStartDuration samples from its start for the given duration. *)
Theorem C65_start_duration : forall quat_of tr a duration dt k s old, quat_contract quat_of -> traj_wf tr -> positive_times tr ->
  (3 <= t_D tr)%nat -> 0 < dt -> nth_error (t_segs tr) k = Some s -> start_of tr k <= a < start_of tr (S k) ->
  a + duration <= t_max tr ->
  exists fuel0 sts,
    (forall fuel, (fuel0 <= fuel)%nat -> sample_trajectory_start_duration fuel quat_of tr a duration dt old = Val sts) /\
    (forall j st, nth_error sts j = Some st ->
       INR j * dt < duration + (a - start_of tr k) /\ a + INR j * dt <= t_max tr /\ stamped st (a + INR j * dt) /\
       exists vals, (forall d, (d <= 4)%nat -> sample_at tr (a + INR j * dt) d (vals d)) /\
         flat_state (t_D tr) (fun d i => nth i (vals d) 0) (nth j old point_default) st) /\
    ~ (INR (length sts) * dt < duration + (a - start_of tr k) /\ a + INR (length sts) * dt <= t_max tr).
Proof.
  intros quat_of tr a du dt k s old Q W P HD Hdt Hk Ha Hb.
  destruct (C65_range quat_of tr a (a + du) dt k s old Q W P HD Hdt Hk Ha Hb) as (f & sts & A & B & C).
  exists f, sts. split; [exact A|]. split.
  - intros j st H. destruct (B j st H) as (B1 & B2). split; [lra|exact B2].
  - intros (X & Y). apply C. split; [lra|exact Y].
Qed.

(** sampleWholeTrajectory: one state for each time j dt < duration, holding the
    values of evaluate() at that time. *)
Theorem C65_whole : forall quat_of tr dt old, quat_contract quat_of -> traj_wf tr -> positive_times tr ->
  t_segs tr <> [] -> joined tr 4 -> (3 <= t_D tr)%nat -> 0 < dt ->
  exists fuel0 sts,
    (forall fuel, (fuel0 <= fuel)%nat -> sample_whole_trajectory fuel quat_of tr dt old = Val sts) /\
    (forall j, (j < length sts)%nat <-> INR j * dt < t_max tr) /\
    (forall j st, nth_error sts j = Some st -> stamped st (INR j * dt) /\
       flat_state (t_D tr) (fun d i => comp tr d i (INR j * dt)) (nth j old point_default) st).
Proof.
  intros quat_of tr dt old Q W P NE J HD Hdt.
  destruct (t_segs tr) as [|s0 ss] eqn:ES; [congruence|].
  assert (H0 : nth_error (t_segs tr) 0 = Some s0) by (rewrite ES; reflexivity).
  assert (T0 : start_of tr 0 = 0) by reflexivity.
  assert (T1 : 0 < start_of tr 1).
  { rewrite (start_of_S tr 0 s0 H0), T0. unfold positive_times in P. rewrite Forall_forall in P.
    specialize (P s0 (nth_error_In _ _ H0)). lra. }
  destruct (C65_range quat_of tr 0 (t_max tr) dt 0 s0 old Q W P HD Hdt H0 ltac:(lra) ltac:(lra)) as (f & sts & A & B & C).
  exists f, sts. split; [exact A|]. split.
  - intros j. split.
    + intros Hj. destruct (nth_error sts j) eqn:E; [|apply nth_error_None in E; lia].
      destruct (B _ _ E) as (B1 & _). lra.
    + intros Hj. destruct (le_lt_dec (length sts) j) as [L|L]; auto. exfalso. apply C. rewrite T0.
      apply le_INR in L. split; nra.
  - intros j st E. destruct (B _ _ E) as (_ & B2 & B3 & vals & B4 & B5). rewrite Rplus_0_l in *.
    split; [exact B3|]. eapply flat_state_ext; [exact HD| |exact B5].
    intros d i Hd _. cbn beta. unfold comp. rewrite (sample_at_evaluate tr (INR j * dt) d (vals d)); auto.
    intros k s s' X Y. apply (J k s s' X Y). lia.
Qed.

(** Into an empty vector, trajectories without yaw or attitude components give
    level, non-rotating states. *)
Theorem C65_level : forall quat_of tr dt sts j st, quat_contract quat_of -> traj_wf tr -> positive_times tr ->
  t_segs tr <> [] -> joined tr 4 -> (3 <= t_D tr)%nat -> t_D tr <> 4%nat -> t_D tr <> 6%nat -> 0 < dt ->
  (exists fuel0, forall fuel', (fuel0 <= fuel')%nat -> sample_whole_trajectory fuel' quat_of tr dt [] = Val sts) ->
  nth_error sts j = Some st ->
  (forall v, q_rotate (p_orientation st) v = v) /\ point_yaw st = 0 /\
  p_ang_vel st = mkV3 0 0 0 /\ p_ang_acc st = mkV3 0 0 0 /\ p_timestamp st = (-1)%Z.
Proof.
  intros quat_of tr dt sts j st Q W P NE J HD N4 N6 Hdt (f0 & E) H.
  destruct (C65_whole quat_of tr dt [] Q W P NE J HD Hdt) as (f1 & sts' & A & _ & B).
  specialize (E (f0 + f1)%nat ltac:(lia)). rewrite (A (f0 + f1)%nat ltac:(lia)) in E. injection E as ->.
  destruct (B j st H) as (_ & T & _ & _ & _ & _ & _ & _ & _ & F). destruct (F N4 N6) as (_ & O & V & X).
  replace (nth j [] point_default) with point_default in * by (now destruct j). unfold point_yaw. rewrite O, V, X, T.
  split; [|split; [|repeat split]].
  - intros [x y z]. unfold q_rotate. cbn. f_equal; ring.
  - unfold yawFromQuaternion. cbn.
    match goal with |- atan2 ?a ?b = _ => replace a with 0 by ring; replace b with 1 by ring end.
    pose proof PI_RGT_0. pose proof (atan2_polar 1 0 ltac:(lra) ltac:(lra)) as Y.
    now rewrite sin_0, cos_0, Rmult_0_r, Rmult_1_r in Y.
Qed.

(** sampleTrajectoryInRange can return states later than max_time: when
    min_time lies inside a segment the loop counts from the segment start. *)
Theorem C65_stays_in_range_refuted : exists tr a b dt, traj_wf tr /\ positive_times tr /\ joined tr 4 /\
  t_D tr = 3%nat /\ 0 <= a <= b /\ b < t_max tr /\ 0 < dt /\
  forall quat_of old, quat_contract quat_of -> exists fuel0 sts j st,
    (forall fuel, (fuel0 <= fuel)%nat -> sample_trajectory_in_range fuel quat_of tr a b dt old = Val sts) /\
    nth_error sts j = Some st /\ b < a + INR j * dt /\ stamped st (a + INR j * dt).
Proof.
  set (tr := mkTraj 3 2 10 (mkSeg 10 2 3 ((0 :: 1 :: nil) :: (0 :: 0 :: nil) :: (0 :: 0 :: nil) :: nil) :: nil)).
  assert (W : traj_wf tr).
  { split; [|unfold tr; cbn; lra]. constructor; [|constructor]. split; [|split; reflexivity].
    split; [reflexivity|]. repeat (constructor; [reflexivity|]). constructor. }
  assert (P : positive_times tr) by (constructor; [cbn; lra|constructor]).
  exists tr, 5, 6, 1. split; [exact W|]. split; [exact P|]. split.
  { intros k s s' _ E. destruct k; discriminate. }
  split; [reflexivity|]. split; [lra|]. split; [cbn; lra|]. split; [lra|].
  intros quat_of old Q.
  destruct (C65_range quat_of tr 5 6 1 0 _ old Q W P ltac:(cbn; lia) ltac:(lra) eq_refl ltac:(cbn; lra) ltac:(cbn; lra))
    as (f & sts & A & B & C).
  cbn [start_of] in C. change (start_of tr 0) with 0 in C. change (t_max tr) with 10 in C.
  assert (L : (6 <= length sts)%nat).
  { destruct (le_lt_dec 6 (length sts)) as [L|L]; auto. exfalso. apply C.
    assert (INR (length sts) <= 5) by (apply (le_INR _ 5) in L || (assert (L' : (length sts <= 5)%nat) by lia; apply le_INR in L'; cbn in L'; lra)). lra. }
  destruct (nth_error sts 5) as [st|] eqn:E; [|apply nth_error_None in E; lia].
  exists f, sts, 5%nat, st. split; [exact A|]. split; [exact E|]. split; [cbn; lra|]. apply (B _ _ E).
Qed.

(** When the call is refused. *)
Theorem C65_range_refused : forall fuel quat_of tr a b dt old,
  a < 0 \/ t_max tr < b \/ (t_D tr < 3)%nat -> sample_trajectory_in_range fuel quat_of tr a b dt old = Failed.
Proof.
  intros fuel quat_of tr a b dt old H. unfold sample_trajectory_in_range.
  rcase; [reflexivity|]. rcase; [reflexivity|]. cbn [orb]. destruct (Nat.ltb_spec (t_D tr) 3); [reflexivity|].
  exfalso. destruct H as [H|[H|H]]; [lra|lra|lia].
Qed.
(** min_time past the end (with max_time in range) is accepted with no states;
    min_time equal to the duration reads past the last segment. *)
Theorem C65_start_past_end : forall fuel quat_of tr a b dt old, traj_wf tr -> positive_times tr ->
  (3 <= t_D tr)%nat -> 0 <= a -> t_max tr < a -> b <= t_max tr ->
  sample_trajectory_in_range fuel quat_of tr a b dt old = Val [].
Proof.
  intros fuel quat_of tr a b dt old W P HD H0 Ha Hb. unfold sample_trajectory_in_range, range_values.
  rcase; [lra|]. rcase; [lra|]. cbn [orb]. destruct (Nat.ltb_spec (t_D tr) 3); [lia|].
  rewrite !evaluate_range_past by auto. reflexivity.
Qed.
Theorem C65_start_at_end_undefined : forall fuel quat_of tr b dt old, traj_wf tr -> positive_times tr ->
  t_segs tr <> [] -> (3 <= t_D tr)%nat -> b <= t_max tr ->
  sample_trajectory_in_range fuel quat_of tr (t_max tr) b dt old = Undef.
Proof.
  intros fuel quat_of tr b dt old W P NE HD Hb. unfold sample_trajectory_in_range, range_values.
  assert (0 <= t_max tr).
  { destruct W as [_ ->]. apply lsum_nonneg. apply Forall_forall. intros x Hx. apply in_map_iff in Hx. destruct Hx as (y & <- & Hy).
    unfold positive_times in P. rewrite Forall_forall in P. left. now apply P. }
  rcase; [lra|]. rcase; [lra|]. cbn [orb]. destruct (Nat.ltb_spec (t_D tr) 3); [lia|].
  rewrite !evaluate_range_end by auto. reflexivity.
Qed.

(* ------------------------------------------------------------------ *)
(** ** C80: change of frame *)

(** [moving pos q st t]: the state st describes the motion pos, q at time t:
    velocity and acceleration are derivatives of the position, the orientation
    is the matrix q t and the angular velocity is that of q. *)
Definition moving (pos vel : R -> V3) (q : R -> M3) (t : R) (st : point) : Prop :=
  p_position st = pos t /\ p_velocity st = vel t /\ v3_derive pos t (p_velocity st) /\ v3_derive vel t (p_acceleration st) /\
  q_unit (p_orientation st) /\ (forall v, q_rotate (p_orientation st) v = m3_vec (q t) v) /\
  m3_derive q t (m3_mul (skewMatrixFromVector (p_ang_vel st)) (q t)).

Lemma q_unit_sq w x y z : q_unit (mkQ w x y z) -> w * w + x * x + y * y + z * z = 1.
Proof. unfold q_unit; cbn [qw qx qy qz]. intros <-. ring. Qed.
Lemma q_matrix_rotate q v : q_unit q -> m3_vec (q_matrix q) v = q_rotate q v.
Proof. destruct q as [w x y z], v as [a b c]. intros U. apply q_unit_sq in U. apply v3_eq; cbn; nsatz. Qed.
Lemma q_matrix_rotation q : q_unit q -> is_rotation (q_matrix q).
Proof.
  destruct q as [w x y z]. intros U. apply q_unit_sq in U.
  split; [apply m3_eq; cbn; nsatz|unfold m3_det; cbn; nsatz].
Qed.
Lemma m3_vec_ext a b : (forall v, m3_vec a v = m3_vec b v) -> a = b.
Proof.
  intros H. pose proof (H (mkV3 1 0 0)) as X. pose proof (H (mkV3 0 1 0)) as Y. pose proof (H (mkV3 0 0 1)) as Z.
  apply m3_eq;
    [apply (f_equal vx) in X|apply (f_equal vx) in Y|apply (f_equal vx) in Z|apply (f_equal vy) in X|
     apply (f_equal vy) in Y|apply (f_equal vy) in Z|apply (f_equal vz) in X|apply (f_equal vz) in Y|apply (f_equal vz) in Z];
    cbn in *; lra.
Qed.
Lemma m3_mul_vec a b v : m3_vec (m3_mul a b) v = m3_vec a (m3_vec b v).
Proof. apply v3_eq; cbn; ring. Qed.
Lemma rotation_mul a b : is_rotation a -> is_rotation b -> is_rotation (m3_mul a b).
Proof.
  intros [A1 A2] [B1 B2]. split.
  - replace (m3_tr (m3_mul a b)) with (m3_mul (m3_tr b) (m3_tr a)) by (apply m3_eq; cbn; ring).
    rewrite m3_mul_assoc, <- (m3_mul_assoc (m3_tr a)), A1, m3_mul_id_l. exact B1.
  - replace (m3_det (m3_mul a b)) with (m3_det a * m3_det b); [nra|]. unfold m3_det; cbn; ring.
Qed.
Lemma skew_conj m w : is_rotation m ->
  m3_mul (skewMatrixFromVector (m3_vec m w)) m = m3_mul m (skewMatrixFromVector w).
Proof.
  intros H. destruct (rotation_adj m H) as [A _].
  pose proof (f_equal m00 A) as A0. pose proof (f_equal m01 A) as A1. pose proof (f_equal m02 A) as A2.
  pose proof (f_equal m10 A) as A3. pose proof (f_equal m11 A) as A4. pose proof (f_equal m12 A) as A5.
  pose proof (f_equal m20 A) as A6. pose proof (f_equal m21 A) as A7. pose proof (f_equal m22 A) as A8.
  destruct m as [a b c d e f g h i]. cbn in A0, A1, A2, A3, A4, A5, A6, A7, A8.
  destruct H as [O _].
  pose proof (f_equal m00 O) as O0. pose proof (f_equal m01 O) as O1. pose proof (f_equal m02 O) as O2.
  pose proof (f_equal m11 O) as O4. pose proof (f_equal m12 O) as O5. pose proof (f_equal m22 O) as O8.
  cbn in O0, O1, O2, O4, O5, O8. clear A O.
  apply m3_eq; cbn; nsatz.
Qed.
Lemma v3_derive_lin m (tra : V3) (f : R -> V3) t d : v3_derive f t d ->
  v3_derive (fun u => v3_add (m3_vec m (f u)) tra) t (m3_vec m d).
Proof.
  intros (X & Y & Z). refine (conj _ (conj _ _)); cbn.
  - evar_last; [apply (is_derive_plus (fun u => m00 m * vx (f u) + m01 m * vy (f u) + m02 m * vz (f u)) (fun _ => vx tra));
      [apply (is_derive_plus (fun u => m00 m * vx (f u) + m01 m * vy (f u)) (fun u => m02 m * vz (f u)));
       [apply (is_derive_plus (fun u => m00 m * vx (f u)) (fun u => m01 m * vy (f u)));
        apply is_derive_scal; eassumption|apply is_derive_scal; eassumption]|apply is_derive_const]|].
    unfold plus, zero; cbn. ring.
  - evar_last; [apply (is_derive_plus (fun u => m10 m * vx (f u) + m11 m * vy (f u) + m12 m * vz (f u)) (fun _ => vy tra));
      [apply (is_derive_plus (fun u => m10 m * vx (f u) + m11 m * vy (f u)) (fun u => m12 m * vz (f u)));
       [apply (is_derive_plus (fun u => m10 m * vx (f u)) (fun u => m11 m * vy (f u)));
        apply is_derive_scal; eassumption|apply is_derive_scal; eassumption]|apply is_derive_const]|].
    unfold plus, zero; cbn. ring.
  - evar_last; [apply (is_derive_plus (fun u => m20 m * vx (f u) + m21 m * vy (f u) + m22 m * vz (f u)) (fun _ => vz tra));
      [apply (is_derive_plus (fun u => m20 m * vx (f u) + m21 m * vy (f u)) (fun u => m22 m * vz (f u)));
       [apply (is_derive_plus (fun u => m20 m * vx (f u)) (fun u => m21 m * vy (f u)));
        apply is_derive_scal; eassumption|apply is_derive_scal; eassumption]|apply is_derive_const]|].
    unfold plus, zero; cbn. ring.
Qed.

(** The transformed state describes the transformed motion. *)
Theorem C80_transform : forall quat_of rot tra pos vel q t st, quat_contract quat_of -> is_rotation rot ->
  moving pos vel q t st ->
  moving (fun u => v3_add (m3_vec rot (pos u)) tra) (fun u => m3_vec rot (vel u)) (fun u => m3_mul rot (q u)) t
    (transform_point quat_of rot tra st) /\
  p_timestamp (transform_point quat_of rot tra st) = p_timestamp st /\
  p_from_start (transform_point quat_of rot tra st) = p_from_start st /\
  p_dof (transform_point quat_of rot tra st) = p_dof st /\
  p_jerk (transform_point quat_of rot tra st) = m3_vec rot (p_jerk st) /\
  p_snap (transform_point quat_of rot tra st) = m3_vec rot (p_snap st) /\
  p_ang_acc (transform_point quat_of rot tra st) = m3_vec rot (p_ang_acc st).
Proof.
  intros quat_of rot tra pos vel q t st Q HR (M1 & M2 & M3 & M4 & M5 & M6 & M7).
  split; [|repeat (refine (conj _ _); try reflexivity)].
  assert (EQ : q_matrix (p_orientation st) = q t).
  { apply m3_vec_ext. intros v. now rewrite q_matrix_rotate. }
  assert (RQ : is_rotation (q t)) by (rewrite <- EQ; now apply q_matrix_rotation).
  destruct (Q _ (rotation_mul _ _ HR RQ)) as [U V].
  unfold moving, transform_point; cbn [p_position p_velocity p_acceleration p_orientation p_ang_vel].
  rewrite EQ, M1, M2. rewrite M2 in M3.
  refine (conj eq_refl (conj eq_refl (conj _ (conj _ (conj U (conj V _)))))).
  - now apply v3_derive_lin.
  - pose proof (v3_derive_lin rot v3_zero vel t _ M4) as (X & Y & Z).
    refine (conj _ (conj _ _)).
    + eapply is_derive_ext; [|exact X]. intros u; cbn. ring.
    + eapply is_derive_ext; [|exact Y]. intros u; cbn. ring.
    + eapply is_derive_ext; [|exact Z]. intros u; cbn. ring.
  - rewrite <- m3_mul_assoc, skew_conj by auto. rewrite m3_mul_assoc.
    set (d := m3_mul (skewMatrixFromVector (p_ang_vel st)) (q t)) in *.
    destruct M7 as (D0 & D1 & D2 & D3 & D4 & D5 & D6 & D7 & D8).
    assert (C0 : v3_derive (fun u => mkV3 (m00 (q u)) (m10 (q u)) (m20 (q u))) t (mkV3 (m00 d) (m10 d) (m20 d)))
      by (refine (conj _ (conj _ _)); assumption).
    assert (C1 : v3_derive (fun u => mkV3 (m01 (q u)) (m11 (q u)) (m21 (q u))) t (mkV3 (m01 d) (m11 d) (m21 d)))
      by (refine (conj _ (conj _ _)); assumption).
    assert (C2 : v3_derive (fun u => mkV3 (m02 (q u)) (m12 (q u)) (m22 (q u))) t (mkV3 (m02 d) (m12 d) (m22 d)))
      by (refine (conj _ (conj _ _)); assumption).
    apply (v3_derive_lin rot v3_zero) in C0, C1, C2.
    destruct C0 as (X0 & Y0 & Z0). destruct C1 as (X1 & Y1 & Z1). destruct C2 as (X2 & Y2 & Z2).
    refine (conj _ (conj _ (conj _ (conj _ (conj _ (conj _ (conj _ (conj _ _))))))));
      match goal with |- is_derive ?f _ ?l => idtac end.
    all: (eapply is_derive_ext; [|first [exact X0|exact X1|exact X2|exact Y0|exact Y1|exact Y2|exact Z0|exact Z1|exact Z2]]; intros u; cbn; ring).
Qed.

(** A default-constructed point describes resting level at the origin, with no
    time stamp, at the start of the trajectory. *)
Theorem C80_default_point : forall t,
  moving (fun _ => v3_zero) (fun _ => v3_zero) (fun _ => m3_id) t point_default /\
  p_jerk point_default = v3_zero /\ p_snap point_default = v3_zero /\ p_ang_acc point_default = v3_zero /\
  p_ang_vel point_default = v3_zero /\ point_yaw point_default = 0 /\
  p_from_start point_default = 0%Z /\ (p_timestamp point_default < 0)%Z /\ p_dof point_default = DOF4.
Proof.
  intros t. assert (K : forall c : R, is_derive (fun _ : R => c) t 0) by (intros c; exact (is_derive_const (V := R_NormedModule) c t)).
  assert (is_derive_ext_r : forall (f : R -> R) (a b : R), is_derive f t a -> a = b -> is_derive f t b) by (intros; subst; assumption).
  split; [|do 4 (split; [reflexivity|]); split; [|split; [reflexivity|split; reflexivity]]].
  - refine (conj eq_refl (conj eq_refl (conj _ (conj _ (conj _ (conj _ _)))))).
    + exact (conj (K 0) (conj (K 0) (K 0))).
    + exact (conj (K 0) (conj (K 0) (K 0))).
    + unfold q_unit; cbn; ring.
    + intros [a b c]. apply v3_eq; cbn; ring.
    + refine (conj _ (conj _ (conj _ (conj _ (conj _ (conj _ (conj _ (conj _ _))))))));
        (eapply is_derive_ext_r; [apply K|cbn; ring]).
  - unfold point_yaw, yawFromQuaternion. cbn [p_orientation point_default qw qx qy qz].
    match goal with |- atan2 ?a ?b = 0 => replace a with 0 by ring; replace b with 1 by ring end.
    unfold atan2. rcase; [|lra]. replace (0 / 1) with 0 by field. apply atan_0.
Qed.
(** EigenOdometry: the world velocity that was set is read back. *)
Theorem C80_velocity_world : forall o v, q_unit (o_orientation o) ->
  velocity_world (set_velocity_world o v) = v /\
  o_velocity (set_velocity_world o (velocity_world o)) = o_velocity o /\
  velocity_world o = q_rotate (o_orientation o) (o_velocity o).
Proof.
  intros o v U. unfold q_unit in U.
  assert (N : qw (o_orientation o) * qw (o_orientation o) + qx (o_orientation o) * qx (o_orientation o) +
     qy (o_orientation o) * qy (o_orientation o) + qz (o_orientation o) * qz (o_orientation o) = 1) by (rewrite <- U; ring).
  unfold velocity_world, set_velocity_world, q_inverse; cbn [o_orientation o_velocity]. rewrite N. rcase; [|lra].
  rewrite !Rdiv_1. destruct (o_orientation o) as [w x y z]. destruct (o_velocity o) as [a b c]. destruct v as [a' b' c'].
  cbn in U, N. clear N Hlt.
  refine (conj _ (conj _ _)); apply v3_eq; cbn; nsatz.
Qed.
(** Also when the orientation is not of unit length, the world velocity is brought
    into the body frame by the inverse [p] of the orientation; only an orientation
    of four zeros has none, and then the vector is stored as it is. *)
Theorem C80_velocity_world_inverse : forall o v,
  (forall p, q_mul p (o_orientation o) = mkQ 1 0 0 0 -> o_velocity (set_velocity_world o v) = q_transform p v) /\
  (o_orientation o <> mkQ 0 0 0 0 -> exists p, q_mul p (o_orientation o) = mkQ 1 0 0 0 /\ q_mul (o_orientation o) p = mkQ 1 0 0 0) /\
  (o_orientation o = mkQ 0 0 0 0 -> o_velocity (set_velocity_world o v) = v).
Proof.
  intros o v. unfold set_velocity_world. cbn [o_velocity o_orientation]. destruct (o_orientation o) as [w x y z].
  unfold q_inverse. cbn [qw qx qy qz]. set (n := w * w + x * x + y * y + z * z). split; [|split].
  - intros [a b c d] E. unfold q_mul in E. cbn [qw qx qy qz] in E. injection E as E0 E1 E2 E3.
    assert (F0 : a * n = w) by (unfold n; nsatz). assert (F1 : b * n = - x) by (unfold n; nsatz).
    assert (F2 : c * n = - y) by (unfold n; nsatz). assert (F3 : d * n = - z) by (unfold n; nsatz).
    assert (P : 0 < n).
    { destruct (Rlt_dec 0 n); auto. exfalso. assert (w = 0 /\ x = 0 /\ y = 0 /\ z = 0) as (-> & -> & -> & ->) by (unfold n in *; repeat split; nra). lra. }
    rcase; [|lra]. f_equal. f_equal.
    + rewrite <- F0. field. lra.
    + rewrite <- F1. field. lra.
    + rewrite <- F2. field. lra.
    + rewrite <- F3. field. lra.
  - intros NZ. assert (P : n <> 0).
    { intros E. apply NZ. assert (w = 0 /\ x = 0 /\ y = 0 /\ z = 0) as (-> & -> & -> & ->) by (unfold n in *; repeat split; nra). reflexivity. }
    exists (mkQ (w / n) (- x / n) (- y / n) (- z / n)). unfold q_mul. cbn [qw qx qy qz].
    split; f_equal; unfold n in *; field; auto.
  - intros E. injection E as -> -> -> ->. unfold n. rcase; [lra|]. destruct v. unfold q_transform. apply v3_eq; cbn; ring.
Qed.
(** EigenOdometry: yaw and yaw rate. *)
Theorem C80_odometry_yaw : forall o yaw rate, - PI < yaw <= PI ->
  odom_yaw (odom_set_yaw o yaw) = yaw /\ q_unit (o_orientation (odom_set_yaw o yaw)) /\
  odom_yaw_rate (odom_set_yaw_rate o rate) = rate /\ o_ang_vel (odom_set_yaw_rate o rate) = mkV3 0 0 rate /\
  o_orientation (odom_set_yaw_rate o rate) = o_orientation o /\ o_ang_vel (odom_set_yaw o yaw) = o_ang_vel o /\
  forall o', o' = odom_set_yaw o yaw \/ o' = odom_set_yaw_rate o rate ->
    o_timestamp o' = o_timestamp o /\ o_position o' = o_position o /\ o_velocity o' = o_velocity o.
Proof.
  intros o yaw rate H. split; [now apply C64_yaw_round_trip|]. split; [apply (C64_quaternion_from_yaw yaw v3_zero)|].
  do 4 (split; [reflexivity|]). intros o' [-> | ->]; auto.
Qed.

(* ------------------------------------------------------------------ *)
(** ** Witnesses *)

(** A 4-dimensional flight of 2 s: x = t^2, yaw = t/2. *)
Definition ex_flight : trajectory :=
  mkTraj 4 3 2 (mkSeg 2 3 4 ((0 :: 0 :: 1 :: nil) :: (0 :: 0 :: 0 :: nil) :: (1 :: 0 :: 0 :: nil) :: (0 :: / 2 :: 0 :: nil) :: nil) :: nil).
Lemma ex_flight_ok : traj_wf ex_flight /\ positive_times ex_flight /\ t_segs ex_flight <> nil /\ joined ex_flight 4.
Proof.
  refine (conj _ (conj _ (conj _ _))).
  - split; [|unfold ex_flight; cbn; lra]. constructor; [|constructor]. split; [|split; reflexivity].
    split; [reflexivity|]. repeat (constructor; [reflexivity|]). constructor.
  - constructor; [cbn; lra|constructor].
  - discriminate.
  - intros k s s' _ E. destruct k; discriminate.
Qed.
Example C65_example : forall quat_of, exists st,
  sample_trajectory_at_time quat_of ex_flight (3 / 2) point_default = Val st /\
  p_position st = mkV3 (9 / 4) 0 1 /\ p_velocity st = mkV3 3 0 0 /\ point_yaw_rate st = / 2 /\
  point_yaw st = 3 / 4.
Proof.
  intros quat_of. unfold sample_trajectory_at_time, ex_flight; cbn [t_max t_D].
  rcase; [lra|]. rcase; [lra|]. cbn [orb Nat.ltb Nat.leb]. unfold sample_flat_state. cbn [Nat.ltb Nat.leb].
  unfold traj_evaluate, traj_evaluate_gen. cbn [find_segment t_segs s_time].
  rcase; [|lra]. rcase; [lra|]. cbn [length Nat.leb nth_error s_time].
  eexists. split; [reflexivity|]. cbn. pose proof PI2_1.
  refine (conj _ (conj _ (conj _ _))); [apply v3_eq; cbn; lra|apply v3_eq; cbn; lra|unfold point_yaw_rate; cbn; lra|].
  unfold point_yaw. cbn. rewrite C64_yaw_round_trip by lra. lra.
Qed.

(** A state of uniform motion, to which C80 applies. *)
Example C80_example : moving (fun t => mkV3 t 0 0) (fun _ => mkV3 1 0 0) (fun _ => m3_id) 3
  (mkPoint 0 0 (mkV3 3 0 0) (mkV3 1 0 0) v3_zero v3_zero v3_zero (mkQ 1 0 0 0) v3_zero v3_zero DOF4).
Proof.
  unfold moving; cbn. refine (conj eq_refl (conj eq_refl (conj _ (conj _ (conj _ (conj _ _)))))).
  - refine (conj _ (conj _ _)); cbn; auto_derive; auto.
  - refine (conj _ (conj _ _)); cbn; auto_derive; auto.
  - unfold q_unit; cbn; ring.
  - intros v. apply v3_eq; cbn; ring.
  - refine (conj _ (conj _ (conj _ (conj _ (conj _ (conj _ (conj _ (conj _ _)))))))); cbn; auto_derive; auto; ring.
Qed.

Print Assumptions C65_at_time.
Print Assumptions C65_segment_at_time.
Print Assumptions C65_yaw_rate.
Print Assumptions C65_angular_motion.
Print Assumptions C65_range.
Print Assumptions C65_whole.
Print Assumptions C65_stays_in_range_refuted.
Print Assumptions C65_range_refused.
Print Assumptions C65_start_past_end.
Print Assumptions C65_start_at_end_undefined.
Print Assumptions C80_transform.
Print Assumptions C80_default_point.
Print Assumptions C80_velocity_world.
Print Assumptions C80_velocity_world_inverse.
Print Assumptions C80_odometry_yaw.
