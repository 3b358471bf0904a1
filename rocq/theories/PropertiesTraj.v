(** Property theorems: segments and trajectories (C40 - C49). *)
From Coq Require Import Reals Lra Lia List Bool ZArith Arith.
From Coquelicot Require Import Coquelicot.
From Verif Require Import Base PolyModel PolySpec VertexModel TrajModel TrajSpec TrajProofs ExtremaProofs
  TrajOpsProofs RangeProofs Examples TrajFinal PolyProofs.
Import List ListNotations.
Local Open Scope R_scope.

(** C40: computeMinMaxMagnitude. *)
Theorem C40_trajectory_extrema :
  forall find_roots (tr : trajectory) (d : nat) (dims : list nat),
  exact_root_finder find_roots -> traj_wf tr -> t_segs tr <> [] ->
  Forall (fun s => 0 <= s_time s) (t_segs tr) -> (d < t_N tr)%nat ->
  dims <> [] -> Forall (fun i => (i < t_D tr)%nat) dims ->
  exists mn mx, traj_minmax find_roots tr d dims = Val (mn, mx) /\
    traj_max_spec (t_segs tr) d dims mx /\
    (forall t v, 0 <= t <= t_max tr -> traj_evaluate tr t d = Some v -> norm_dims v dims <= e_value mx) /\
    ((forall s, In s (t_segs tr) -> min_computable s d 0 (s_time s) dims) ->
     (forall s t, In s (t_segs tr) -> 0 <= t <= s_time s -> norm_dims (seg_deriv s d t) dims < DBL_MAX) ->
     traj_min_spec (t_segs tr) d dims mn /\
     (forall t v, 0 <= t <= t_max tr -> traj_evaluate tr t d = Some v -> e_value mn <= norm_dims v dims)).
Proof. exact trajectory_extrema. Qed.
Print Assumptions C40_trajectory_extrema.
Example C40_example :
  (exists f, exact_root_finder f) /\ traj_wf ex_traj /\ t_segs ex_traj <> [] /\
  Forall (fun s => 0 <= s_time s) (t_segs ex_traj) /\ (1 < t_N ex_traj)%nat /\
  Forall (fun i => (i < t_D ex_traj)%nat) [0%nat; 1%nat] /\
  (forall s, In s (t_segs ex_traj) -> min_computable s 1 0 (s_time s) [0%nat; 1%nat]).
Proof.
  split; [exact exact_root_finder_exists|]. split; [exact ex_traj_wf|]. split; [discriminate|].
  split; [exact ex_traj_nonneg|]. split; [simpl; lia|]. split; [repeat constructor; simpl; lia|].
  intros s _. left. simpl. lia.
Qed.

(** C41 (negative): the minimum over one dimension misses a zero crossing, for
    any root finder that finds no root of the constant derivative. *)
Theorem C41_single_dimension_minimum_refuted :
  forall find_roots, find_roots (get_coefficients [- / 2; 1] 1) = [] ->
  exists mn mx, traj_minmax find_roots cross_traj 0 [0%nat] = Val (mn, mx) /\
    e_value mn = / 2 /\ traj_evaluate cross_traj (/ 2) 0 = Some [0].
Proof. exact single_dimension_min_refuted. Qed.
Print Assumptions C41_single_dimension_minimum_refuted.
Example C41_example : traj_wf cross_traj /\ (fun _ : list R => @nil croot) (get_coefficients [- / 2; 1] 1) = [].
Proof.
  split; [|reflexivity]. split; [|simpl; lra].
  repeat constructor.
Qed.

(** C42: which segment evaluate() uses. *)
Theorem C42_evaluate_segment :
  forall (tr : trajectory) (k : nat) (s : segment) (t : R) (d : nat),
  traj_wf tr -> positive_times tr -> nth_error (t_segs tr) k = Some s ->
  start_of tr k <= t -> t < start_of tr (S k) \/ (S k = length (t_segs tr) /\ t = t_max tr) ->
  traj_evaluate tr t d = Some (seg_deriv s d (t - start_of tr k)).
Proof. exact traj_evaluate_segment. Qed.
Theorem C42_evaluate_past_end :
  forall (tr : trajectory) (t : R) (d : nat), traj_wf tr -> positive_times tr -> t_max tr < t ->
  traj_evaluate tr t d = Some (repeat 0 (t_D tr)).
Proof. exact traj_evaluate_past_end. Qed.
Theorem C42_evaluate_before_start :
  forall (tr : trajectory) (s0 : segment) (t : R) (d : nat),
  traj_wf tr -> positive_times tr -> nth_error (t_segs tr) 0 = Some s0 -> t < 0 ->
  traj_evaluate tr t d = Some (seg_deriv s0 d t).
Proof. exact traj_evaluate_before. Qed.
(** C42: with any addition and subtraction (e.g. rounded ones) evaluate() at
    t <= getMaxTime() uses one of the segments. *)
Theorem C42_in_range_for_any_addition :
  forall (add sub : R -> R -> R) (ss : list segment) (tr : trajectory) (t : R) (d : nat),
  set_segments_gen add ss = Some tr -> t <= t_max tr ->
  exists s x, In s ss /\ traj_evaluate_gen add sub tr t d = Some (seg_evaluate s x d).
Proof. exact evaluate_gen_in_range. Qed.
Print Assumptions C42_evaluate_segment.
Print Assumptions C42_evaluate_past_end.
Print Assumptions C42_evaluate_before_start.
Print Assumptions C42_in_range_for_any_addition.
Example C42_example :
  traj_wf ex_traj /\ positive_times ex_traj /\ nth_error (t_segs ex_traj) 1 = Some ex_seg2 /\
  start_of ex_traj 1 <= 2 < start_of ex_traj 2 /\ traj_evaluate ex_traj 2 0 = Some [3; 2].
Proof.
  split; [exact ex_traj_wf|]. split; [exact ex_traj_pos|]. split; [reflexivity|].
  split; [unfold start_of; simpl; lra|].
  rewrite (traj_evaluate_segment ex_traj 1 ex_seg2 2 0 ex_traj_wf ex_traj_pos eq_refl)
    by (unfold start_of; simpl; lra).
  rewrite <- seg_evaluate_deriv by exact ex_seg2_wf. unfold start_of. cbn. f_equal. list_lra.
Qed.

(** C43: smoothness. *)
Theorem C43_continuous :
  forall (tr : trajectory) (m i d : nat),
  traj_wf tr -> positive_times tr -> t_segs tr <> [] -> joined tr m ->
  (i < t_D tr)%nat -> (d <= m)%nat ->
  forall t, continuous (fun s => comp tr d i (Rmin s (t_max tr))) t.
Proof. exact traj_continuous. Qed.
Theorem C43_derivative :
  forall (tr : trajectory) (m i d : nat) (t : R),
  traj_wf tr -> positive_times tr -> t_segs tr <> [] -> joined tr m ->
  (i < t_D tr)%nat -> (d < m)%nat -> t < t_max tr ->
  is_derive (comp tr d i) t (comp tr (S d) i t).
Proof. exact traj_derive. Qed.
Print Assumptions C43_continuous.
Print Assumptions C43_derivative.
Example C43_example : traj_wf ex_traj /\ positive_times ex_traj /\ t_segs ex_traj <> [] /\ joined ex_traj 1.
Proof.
  split; [exact ex_traj_wf|]. split; [exact ex_traj_pos|]. split; [discriminate|]. exact ex_traj_joined.
Qed.

(** C44: scaleSegmentTimes. *)
Theorem C44_scale_segment_times :
  forall (tr : trajectory) (k : R), traj_wf tr -> positive_times tr -> t_segs tr <> [] ->
  (k < / 10 ^ 6 -> scale_segment_times tr k = (false, tr)) /\
  (/ 10 ^ 6 <= k -> exists tr', scale_segment_times tr k = (true, tr') /\ traj_wf tr' /\
     segment_times tr' = map (fun T => T * k) (segment_times tr) /\ t_max tr' = k * t_max tr /\
     forall t d, traj_evaluate tr' (k * t) d = option_map (map (fun v => v / k ^ d)) (traj_evaluate tr t d)).
Proof. exact scale_segment_times_spec. Qed.
Print Assumptions C44_scale_segment_times.
Example C44_example : traj_wf ex_traj /\ positive_times ex_traj /\ t_segs ex_traj <> [] /\ / 10 ^ 6 <= 2.
Proof.
  split; [exact ex_traj_wf|]. split; [exact ex_traj_pos|]. split; [discriminate|]. simpl; lra.
Qed.

(** C45: scaleSegmentTimesToMeetConstraints; the trajectory is slowed down no
    more than necessary: if at all, one of the limits is reached exactly. *)
Theorem C45_scale_to_limits :
  forall find_roots (tr : trajectory) (v_max a_max : R),
  exact_root_finder find_roots -> traj_wf tr -> t_segs tr <> [] -> positive_times tr ->
  (3 <= t_N tr)%nat -> (1 <= t_D tr)%nat -> 0 < v_max -> 0 < a_max ->
  exists tr' k, scale_to_constraints find_roots tr v_max a_max = Val (true, tr') /\ 1 <= k /\
    t_max tr' = k * t_max tr /\
    (forall t d, traj_evaluate tr' (k * t) d = option_map (map (fun v => v / k ^ d)) (traj_evaluate tr t d)) /\
    (forall t v a, 0 <= t <= t_max tr' ->
       traj_evaluate tr' t 1 = Some v -> traj_evaluate tr' t 2 = Some a ->
       vec_norm v <= v_max * (1 + / 1000) /\ vec_norm a <= a_max * (1 + / 1000)) /\
    ((forall s t, In s (t_segs tr) -> 0 <= t <= s_time s ->
       vec_norm (seg_deriv s 1 t) <= v_max * (1 + / 1000) /\
       vec_norm (seg_deriv s 2 t) <= a_max * (1 + / 1000)) -> tr' = tr) /\
    (tr' = tr /\ k = 1 \/ exists s t, In s (t_segs tr') /\ 0 <= t <= s_time s /\
       (vec_norm (seg_deriv s 1 t) = v_max \/ vec_norm (seg_deriv s 2 t) = a_max)).
Proof. exact scale_to_limits. Qed.
Print Assumptions C45_scale_to_limits.
Example C45_example :
  (exists f, exact_root_finder f) /\ traj_wf ex_traj /\ positive_times ex_traj /\ t_segs ex_traj <> [] /\
  (3 <= t_N ex_traj)%nat /\ (1 <= t_D ex_traj)%nat.
Proof.
  split; [exact exact_root_finder_exists|]. split; [exact ex_traj_wf|]. split; [exact ex_traj_pos|].
  split; [discriminate|]. simpl. lia.
Qed.

(** C45, whatever the root finder reports: the returned trajectory is the old one
    flown more slowly, and the function only returns true when the maxima it
    computes for the returned trajectory are within the tolerated limits. *)
Theorem C45_true_means_checked :
  forall find_roots (tr tr' : trajectory) (v_max a_max : R) (ok : bool),
  traj_wf tr -> t_segs tr <> [] -> positive_times tr -> 0 < v_max -> 0 < a_max ->
  scale_to_constraints find_roots tr v_max a_max = Val (ok, tr') ->
  (exists k, 1 <= k /\ t_max tr' = k * t_max tr /\
     forall t d, traj_evaluate tr' (k * t) d = option_map (map (fun v => v / k ^ d)) (traj_evaluate tr t d)) /\
  (ok = true -> exists v a, max_vel_acc find_roots tr' = Val (v, a) /\
     v <= v_max * (1 + / 1000) /\ a <= a_max * (1 + / 1000)).
Proof.
  intros find_roots tr tr' v_max a_max ok W NE P Hv Ha. unfold scale_to_constraints.
  enough (G : forall n tr, traj_wf tr -> t_segs tr <> [] -> positive_times tr ->
    scale_to_constraints_loop find_roots n false tr v_max a_max = Val (ok, tr') ->
    (exists k, 1 <= k /\ t_max tr' = k * t_max tr /\
     forall t d, traj_evaluate tr' (k * t) d = option_map (map (fun v => v / k ^ d)) (traj_evaluate tr t d)) /\
    (ok = true -> exists v a, max_vel_acc find_roots tr' = Val (v, a) /\
       v <= v_max * (1 + / 1000) /\ a <= a_max * (1 + / 1000))) by now apply G.
  clear tr W NE P.
  assert (ID : forall tr : trajectory, exists k, 1 <= k /\ t_max tr = k * t_max tr /\
     forall t d, traj_evaluate tr (k * t) d = option_map (map (fun v => v / k ^ d)) (traj_evaluate tr t d)).
  { intros tr. exists 1. split; [lra|]. split; [ring|]. intros t d. rewrite Rmult_1_l, pow1.
    destruct (traj_evaluate tr t d) as [l|]; [|reflexivity]. cbn [option_map]. f_equal.
    rewrite <- (map_id l) at 1. apply map_ext. intros x. field. }
  induction n as [|n IH]; intros tr W NE P E; cbn [scale_to_constraints_loop] in E.
  - injection E as <- <-. split; [apply ID|discriminate].
  - destruct (max_vel_acc find_roots tr) as [[v a]| |] eqn:M; try discriminate. cbv zeta in E.
    destruct (Rleb (v / v_max) (1 + TOL) && Rleb (a / a_max) (1 + TOL)) eqn:C.
    + injection E as <- <-. split; [apply ID|]. intros _. exists v, a. split; auto.
      apply andb_true_iff in C. destruct C as [C1 C2]. apply Rleb_true in C1, C2. unfold TOL in C1, C2.
      replace (10 ^ 3) with 1000 in C1, C2 by (cbn; ring).
      split; [replace v with (v / v_max * v_max) by (field; lra)|replace a with (a / a_max * a_max) by (field; lra)]; nra.
    + set (k := Rmax 1 _) in E. assert (K : 1 <= k) by apply Rmax_l.
      destruct (scale_segment_times_spec tr k W P NE) as [_ S2].
      assert (K6 : / 10 ^ 6 <= k). { apply Rle_trans with 1; auto. rewrite <- Rinv_1. apply Rinv_le_contravar; cbn; lra. }
      destruct (S2 K6) as (tr2 & E2 & W2 & T2 & M2 & V2).
      unfold scale_segment_times in E2. rewrite (proj2 (Rltb_false k (/ 10 ^ 6))) in E2 by lra. injection E2 as E2. rewrite E2 in E.
      assert (NE2 : t_segs tr2 <> []). { rewrite <- E2. unfold traj_scale. cbn [t_segs]. destruct (t_segs tr); [congruence|discriminate]. }
      assert (P2 : positive_times tr2).
      { unfold positive_times in *. rewrite <- E2. unfold traj_scale. cbn [t_segs]. rewrite Forall_map. revert P. apply Forall_impl.
        intros s Hs. cbn. nra. }
      destruct (IH tr2 W2 NE2 P2 E) as [(k2 & K2 & T & V) Q]. split; [|exact Q].
      exists (k2 * k). split; [nra|]. split; [rewrite T, M2; ring|]. intros t d. rewrite Rmult_assoc, V, V2.
      destruct (traj_evaluate tr t d) as [l|]; [|reflexivity]. cbn [option_map]. f_equal. rewrite map_map. apply map_ext.
      intros x. rewrite Rpow_mult_distr. field. split; apply pow_nonzero; lra.
Qed.
Print Assumptions C45_true_means_checked.

(** C46 (negative): the single-dimension trajectory has no duration and is zero
    at every positive time. *)
Theorem C46_single_dimension_refuted :
  forall (tr : trajectory) (dim : nat) (t : R) (d : nat),
  (dim < t_D tr)%nat -> t_segs tr <> [] -> 0 < t ->
  exists r, traj_single_dimension tr dim = Some r /\ t_max r = 0 /\ traj_evaluate r t d = Some [0].
Proof. exact single_dimension_zero. Qed.
Print Assumptions C46_single_dimension_refuted.
Example C46_example : (0 < t_D ex_traj)%nat /\ t_segs ex_traj <> [] /\ traj_evaluate ex_traj 2 0 = Some [3; 2].
Proof. split; [simpl; lia|]. split; [discriminate|]. apply C42_example. Qed.

(** C46: a single segment keeps its duration and the requested component; a
    dimension that does not exist is refused. *)
Theorem C46_segment : forall (s : segment) (dim : nat), seg_wf s ->
  match seg_single_dimension s dim with
  | Some r => (dim < s_D s)%nat /\ seg_wf r /\ s_time r = s_time s /\ s_N r = s_N s /\ s_D r = 1%nat /\
              forall d x, seg_deriv r d x = [nth dim (seg_deriv s d x) 0]
  | None => (s_D s <= dim)%nat
  end.
Proof.
  intros s dim [W1 W2]. unfold seg_single_dimension. destruct (dim <? s_D s)%nat eqn:E;
    [apply Nat.ltb_lt in E|now apply Nat.ltb_ge in E].
  assert (I : (dim < length (s_polys s))%nat) by lia.
  refine (conj E (conj (conj eq_refl _) (conj eq_refl (conj eq_refl (conj eq_refl _))))).
  - constructor; auto. rewrite Forall_forall in W2. apply W2. now apply nth_In.
  - intros d x. unfold seg_deriv. cbn [s_polys map]. f_equal.
    rewrite (nth_indep _ 0 (Derive_n (pval []) d x)) by (rewrite map_length; auto).
    rewrite (map_nth (fun p => Derive_n (pval p) d x) (s_polys s) [] dim). reflexivity.
Qed.
Print Assumptions C46_segment.

(** C46: the segments of the single-dimension trajectory carry the requested
    component, only their durations are lost; a dimension that does not exist is
    refused. *)
Theorem C46_trajectory_segments : forall (tr : trajectory) (dim : nat), traj_wf tr ->
  match traj_single_dimension tr dim with
  | Some r => (dim < t_D tr)%nat /\ length (t_segs r) = length (t_segs tr) /\
      forall k s, nth_error (t_segs tr) k = Some s -> exists s', nth_error (t_segs r) k = Some s' /\ s_time s' = 0 /\
        forall d x, seg_deriv s' d x = [nth dim (seg_deriv s d x) 0]
  | None => (t_D tr <= dim)%nat \/ t_segs tr = []
  end.
Proof.
  intros tr dim [W _]. unfold traj_single_dimension. destruct (dim <? t_D tr)%nat eqn:E;
    [apply Nat.ltb_lt in E|left; now apply Nat.ltb_ge in E].
  set (f := fun s : segment => mkSeg 0 (t_N tr) 1 [seg_poly s dim]).
  destruct (set_segments (map f (t_segs tr))) as [r|] eqn:ES.
  - assert (SR : t_segs r = map f (t_segs tr)).
    { unfold set_segments, set_segments_gen in ES. destruct (map f (t_segs tr)) as [|s0 ss] eqn:M; [discriminate|].
      unfold add_segments_gen in ES. destruct (forallb _ _); [|discriminate]. now injection ES as <-. }
    refine (conj E (conj _ _)); [now rewrite SR, map_length|].
    intros k s Hk. rewrite SR. exists (f s). split; [now apply map_nth_error|]. split; auto. intros d x.
    apply nth_error_In in Hk. rewrite Forall_forall in W. destruct (W _ Hk) as ([L _] & D & _).
    assert (I : (dim < length (s_polys s))%nat) by (rewrite L, D; exact E).
    unfold seg_deriv. cbn [f s_polys map]. f_equal.
    rewrite (nth_indep _ 0 (Derive_n (pval []) d x)) by (rewrite map_length; exact I).
    rewrite (map_nth (fun p => Derive_n (pval p) d x) (s_polys s) [] dim). reflexivity.
  - right. destruct (t_segs tr) as [|s0 ss]; auto. exfalso. revert ES. cbn [map set_segments set_segments_gen].
    unfold set_segments, set_segments_gen, add_segments_gen. cbn [t_D t_N f s_D s_N].
    replace (forallb _ _) with true; [discriminate|]. symmetry. apply forallb_forall. intros x Hx.
    change (f s0 :: map f ss) with (map f (s0 :: ss)) in Hx. apply in_map_iff in Hx. destruct Hx as (y & <- & _).
    cbn. now rewrite Nat.eqb_refl.
Qed.
Print Assumptions C46_trajectory_segments.


(** C47: appended dimensions. *)
Theorem C47_append_dimensions :
  forall (tr tr2 : trajectory),
  traj_wf tr -> traj_wf tr2 -> positive_times tr -> positive_times tr2 -> t_segs tr <> [] ->
  t_N tr = t_N tr2 -> (0 < t_N tr)%nat -> (0 < t_D tr)%nat -> (0 < t_D tr2)%nat ->
  length (t_segs tr) = length (t_segs tr2) ->
  exists r, traj_append_dimension tr tr2 = Val r /\ traj_wf r /\ t_D r = (t_D tr + t_D tr2)%nat /\
    length (t_segs r) = length (t_segs tr) /\
    forall k s1 s2, nth_error (t_segs tr) k = Some s1 -> nth_error (t_segs tr2) k = Some s2 ->
    exists s, nth_error (t_segs r) k = Some s /\ s_time s = Rmax (s_time s1) (s_time s2) /\
      forall x d, seg_deriv s d x =
        map (fun v => (s_time s1 / s_time s) ^ d * v) (seg_deriv s1 d (s_time s1 / s_time s * x)) ++
        map (fun v => (s_time s2 / s_time s) ^ d * v) (seg_deriv s2 d (s_time s2 / s_time s * x)).
Proof. exact traj_append_segments. Qed.
Theorem C47_append_dimensions_equal_times :
  forall (tr tr2 : trajectory),
  traj_wf tr -> traj_wf tr2 -> positive_times tr -> t_segs tr <> [] ->
  t_N tr = t_N tr2 -> (0 < t_N tr)%nat -> (0 < t_D tr)%nat -> (0 < t_D tr2)%nat ->
  segment_times tr = segment_times tr2 ->
  exists r, traj_append_dimension tr tr2 = Val r /\ traj_wf r /\
    segment_times r = segment_times tr /\
    forall t d a b, traj_evaluate tr t d = Some a -> traj_evaluate tr2 t d = Some b ->
      traj_evaluate r t d = Some (a ++ b).
Proof. exact traj_append_evaluate. Qed.
(** If one of the two has no coefficients or no dimensions, the result is the other. *)
Theorem C47_append_empty :
  forall (tr tr2 : trajectory),
  (t_N tr = 0%nat \/ t_D tr = 0%nat -> traj_append_dimension tr tr2 = Val tr2) /\
  (t_N tr2 = 0%nat \/ t_D tr2 = 0%nat -> (0 < t_N tr)%nat -> (0 < t_D tr)%nat -> traj_append_dimension tr tr2 = Val tr).
Proof.
  intros tr tr2. unfold traj_append_dimension. split.
  - intros [-> | ->]; [reflexivity|]. now rewrite orb_true_r.
  - intros H N D. destruct (t_N tr); [lia|]. destruct (t_D tr); [lia|]. cbn [Nat.eqb orb].
    destruct H as [-> | ->]; [reflexivity|]. now rewrite orb_true_r.
Qed.
Print Assumptions C47_append_empty.
(** C47: different numbers of coefficients: nothing is stretched, whatever the
    segment times; the missing coefficients are 0. *)
Lemma seg_append_unequal s s2 :
  seg_wf s -> seg_wf s2 -> s_N s <> s_N s2 -> (0 < s_N s)%nat -> (0 < s_N s2)%nat -> (0 < s_D s)%nat -> (0 < s_D s2)%nat ->
  exists r, seg_append_dimension s s2 = Some r /\ seg_wf r /\ s_time r = Rmax (s_time s) (s_time s2) /\
    s_N r = Nat.max (s_N s) (s_N s2) /\ s_D r = (s_D s + s_D s2)%nat /\
    forall x d, seg_deriv r d x = seg_deriv s d x ++ seg_deriv s2 d x.
Proof.
  intros [L1 F1] [L2 F2] HN P1 P2 Q1 Q2. unfold seg_append_dimension.
  destruct (Nat.eqb_spec (s_N s) 0); [lia|]. destruct (Nat.eqb_spec (s_D s) 0); [lia|].
  destruct (Nat.eqb_spec (s_N s2) 0); [lia|]. destruct (Nat.eqb_spec (s_D s2) 0); [lia|]. cbn [orb].
  destruct (Nat.eqb_spec (s_N s) (s_N s2)); [contradiction|].
  set (M := Nat.max (s_N s2) (s_N s)).
  assert (A : Forall (fun p => (length p <= M)%nat) (s_polys s ++ s_polys s2)).
  { apply Forall_app. split; (eapply Forall_impl; [|eassumption]); cbn; intros p E; rewrite E; unfold M; lia. }
  assert (B : forallb fst (map (fun p => poly_append_coeffs p M) (s_polys s ++ s_polys s2)) = true).
  { clear -A. induction A as [|p l H A IH]; [reflexivity|]. cbn [map forallb].
    destruct (poly_append_coeffs_spec p M H) as [-> _]. exact IH. }
  rewrite B. eexists. split; [reflexivity|]. cbn [s_time s_N s_D]. rewrite map_map.
  refine (conj (conj _ _) (conj eq_refl (conj _ (conj eq_refl _)))); cbn [s_polys s_D s_N].
  - rewrite map_length, app_length. lia.
  - apply Forall_map. eapply Forall_impl; [|exact A]. cbn. intros p H.
    destruct (poly_append_coeffs_spec p M H) as [_ [E _]]. exact E.
  - unfold M. lia.
  - intros x d. unfold seg_deriv. cbn [s_polys]. rewrite <- map_app, map_map. apply map_ext_in. intros p Hp.
    rewrite Forall_forall in A. destruct (poly_append_coeffs_spec p M (A p Hp)) as [_ [_ E]].
    rewrite <- !poly_evaluate_Derive_n. apply E.
Qed.
Lemma append_dims_unequal N1 N2 D1 D2 a b :
  Forall (fun s => seg_wf s /\ s_D s = D1 /\ s_N s = N1) a ->
  Forall (fun s => seg_wf s /\ s_D s = D2 /\ s_N s = N2) b ->
  N1 <> N2 -> (0 < N1)%nat -> (0 < N2)%nat -> (0 < D1)%nat -> (0 < D2)%nat -> length a = length b ->
  exists r, append_dims a b = Some r /\ length r = length a /\
    Forall (fun s => seg_wf s /\ s_D s = (D1 + D2)%nat /\ s_N s = Nat.max N1 N2) r.
Proof.
  intros Ha. revert b. induction Ha as [|s1 a (W1 & E1 & F1) Ha IH]; intros b Hb HN P1 P2 HD1 HD2 HL.
  - destruct b; [|discriminate]. exists []. auto.
  - destruct b as [|s2 b]; [discriminate|]. inversion Hb as [|? ? (W2 & E2 & F2) Hb']; subst.
    destruct (IH b) as (r & Er & Lr & Fr); auto.
    destruct (seg_append_unequal s1 s2) as (q & Q1 & Q2 & Q3 & Q4 & Q5 & _); auto.
    exists (q :: r). cbn [append_dims]. rewrite Q1, Er. split; [reflexivity|]. split; [simpl; auto|].
    constructor; auto.
Qed.
Theorem C47_different_coefficients :
  forall (tr tr2 : trajectory),
  traj_wf tr -> traj_wf tr2 -> t_segs tr <> [] -> t_N tr <> t_N tr2 ->
  (0 < t_N tr)%nat -> (0 < t_N tr2)%nat -> (0 < t_D tr)%nat -> (0 < t_D tr2)%nat ->
  length (t_segs tr) = length (t_segs tr2) ->
  exists r, traj_append_dimension tr tr2 = Val r /\ traj_wf r /\
    t_D r = (t_D tr + t_D tr2)%nat /\ t_N r = Nat.max (t_N tr) (t_N tr2) /\
    length (t_segs r) = length (t_segs tr) /\
    forall k s1 s2, nth_error (t_segs tr) k = Some s1 -> nth_error (t_segs tr2) k = Some s2 ->
    exists s, nth_error (t_segs r) k = Some s /\ s_time s = Rmax (s_time s1) (s_time s2) /\
      forall x d, seg_deriv s d x = seg_deriv s1 d x ++ seg_deriv s2 d x.
Proof.
  intros tr tr2 [W1 M1] [W2 M2] Hne HN P1 P2 HD1 HD2 HL. unfold traj_append_dimension.
  destruct (Nat.eqb_spec (t_N tr) 0); [lia|]. destruct (Nat.eqb_spec (t_D tr) 0); [lia|].
  destruct (Nat.eqb_spec (t_N tr2) 0); [lia|]. destruct (Nat.eqb_spec (t_D tr2) 0); [lia|].
  cbn [orb]. rewrite HL, Nat.eqb_refl.
  destruct (append_dims_unequal (t_N tr) (t_N tr2) (t_D tr) (t_D tr2) (t_segs tr) (t_segs tr2)) as (ss & Ess & Lss & HFs); auto.
  rewrite Ess.
  assert (Hss : exists r, set_segments ss = Some r /\ t_D r = (t_D tr + t_D tr2)%nat /\ t_N r = Nat.max (t_N tr) (t_N tr2)).
  { unfold set_segments, set_segments_gen. destruct ss as [|s0 ss'] eqn:E.
    - destruct (t_segs tr); [congruence|discriminate].
    - unfold add_segments_gen. replace (forallb _ _) with true.
      + eexists. split; [reflexivity|]. inversion HFs; simpl; tauto.
      + symmetry. apply forallb_forall. intros s Hs. inversion HFs as [|? ? (A1 & A2 & A3) _]; subst.
        rewrite Forall_forall in HFs. destruct (HFs s Hs) as (B1 & B2 & B3).
        simpl. rewrite A2, A3, B2, B3, !Nat.eqb_refl. reflexivity. }
  destruct Hss as (r & Er & Dr & Nr0). rewrite Er.
  destruct (set_segments_wf ss r) as (Wr & Sr & Nr); auto.
  { eapply Forall_impl; [|exact HFs]. simpl; tauto. }
  exists r. split; [reflexivity|]. split; [auto|]. split; [auto|]. split; [auto|]. split; [congruence|].
  intros k s1 s2 K1 K2. rewrite Sr.
  destruct (append_dims_nth _ _ _ _ _ _ Ess K1 K2) as (s & Ks & As).
  exists s. split; auto.
  rewrite Forall_forall in W1, W2.
  destruct (W1 s1 (nth_error_In _ _ K1)) as (A1 & A2 & A3). destruct (W2 s2 (nth_error_In _ _ K2)) as (B1 & B2 & B3).
  destruct (seg_append_unequal s1 s2) as (q & Q1 & Q2 & Q3 & _ & _ & Q4); auto; try congruence; try lia.
  rewrite As in Q1. inversion Q1; subst q. auto.
Qed.
Print Assumptions C47_different_coefficients.
(** The same for two segments of which one has no coefficients or no dimensions. *)
Theorem C47_append_empty_segment :
  forall (s s2 : segment),
  (s_N s = 0%nat \/ s_D s = 0%nat -> seg_append_dimension s s2 = Some s2) /\
  (s_N s2 = 0%nat \/ s_D s2 = 0%nat -> (0 < s_N s)%nat -> (0 < s_D s)%nat -> seg_append_dimension s s2 = Some s).
Proof.
  intros s s2. unfold seg_append_dimension. split.
  - intros [-> | ->]; [reflexivity|]. now rewrite orb_true_r.
  - intros H N D. destruct (s_N s); [lia|]. destruct (s_D s); [lia|]. cbn [Nat.eqb orb].
    destruct H as [-> | ->]; [reflexivity|]. now rewrite orb_true_r.
Qed.
Print Assumptions C47_append_empty_segment.
(** C47 (negative part): different N and different times. *)
Theorem C47_different_coefficients_refuted :
  exists r, traj_append_dimension app_traj1 app_traj2 = Val r /\ t_max r = 2 /\
    traj_evaluate app_traj1 1 0 = Some [1] /\ traj_evaluate r 2 0 = Some [2; 2].
Proof. exact append_different_N_wrong. Qed.
Print Assumptions C47_append_dimensions.
Print Assumptions C47_append_dimensions_equal_times.
Print Assumptions C47_different_coefficients_refuted.
Example C47_example : traj_wf ex_traj /\ positive_times ex_traj /\ t_segs ex_traj <> [] /\
  (0 < t_N ex_traj)%nat /\ (0 < t_D ex_traj)%nat /\ traj_wf app_traj1 /\ traj_wf app_traj2.
Proof.
  split; [exact ex_traj_wf|]. split; [exact ex_traj_pos|]. split; [discriminate|].
  split; [simpl; lia|]. split; [simpl; lia|].
  split; (split; [repeat constructor|simpl; lra]).
Qed.

(** C48: concatenation and offset. *)
Theorem C48_add_trajectory :
  forall (tr tr2 r : trajectory) (t : R) (d : nat),
  traj_wf tr -> traj_wf tr2 -> positive_times tr -> positive_times tr2 ->
  t_segs tr <> [] -> t_segs tr2 <> [] -> add_trajectories tr [tr2] = Some r ->
  traj_evaluate r t d = if Rltb t (t_max tr) then traj_evaluate tr t d
                        else traj_evaluate tr2 (t - t_max tr) d.
Proof. exact add_trajectory_evaluate. Qed.
Theorem C48_add_trajectories :
  forall (tr : trajectory) (l : list trajectory) (r : trajectory),
  add_trajectories tr l = Some r ->
  t_D r = t_D tr /\ t_N r = t_N tr /\
  t_segs r = t_segs tr ++ concat (map t_segs l) /\
  t_max r = t_max tr + lsum (map (fun x => lsum (map s_time (t_segs x))) l) /\
  Forall (fun x => t_D x = t_D tr /\ t_N x = t_N tr) l.
Proof. exact add_trajectories_spec. Qed.
Theorem C48_add_trajectories_defined :
  forall (tr : trajectory) (l : list trajectory),
  (Forall (fun x => traj_wf x /\ t_D x = t_D tr /\ t_N x = t_N tr) l ->
     exists r, add_trajectories tr l = Some r) /\
  (Exists (fun x => t_D x <> t_D tr \/ t_N x <> t_N tr) l -> add_trajectories tr l = None).
Proof. exact (fun tr l => conj (add_trajectories_ok tr l) (add_trajectories_mismatch tr l)). Qed.
Theorem C48_offset :
  forall (tr : trajectory) (v : vec) (r : trajectory) (t : R),
  traj_wf tr -> (0 < t_N tr)%nat -> t_segs tr <> [] -> traj_offset tr v = Some r -> t <= t_max tr ->
  traj_wf r /\ segment_times r = segment_times tr /\
  (exists p, traj_evaluate tr t 0 = Some p /\
             traj_evaluate r t 0 = Some (offset_vec p v (Nat.min (t_D tr) 3))) /\
  forall d, (0 < d)%nat -> traj_evaluate r t d = traj_evaluate tr t d.
Proof. exact traj_offset_evaluate. Qed.
Theorem C48_offset_defined :
  forall (tr : trajectory) (v : vec), traj_wf tr ->
  ((Nat.min (t_D tr) 3 <= length v)%nat -> exists r, traj_offset tr v = Some r) /\
  ((length v < Nat.min (t_D tr) 3)%nat -> traj_offset tr v = None).
Proof. exact (fun tr v H => conj (traj_offset_ok tr v H) (traj_offset_fails tr v)). Qed.
Print Assumptions C48_add_trajectory.
Print Assumptions C48_add_trajectories.
Print Assumptions C48_offset.
Example C48_example :
  traj_wf ex_traj /\ positive_times ex_traj /\ (exists r, add_trajectories ex_traj [ex_traj] = Some r) /\
  exists r, traj_offset ex_traj [1; 2; 3] = Some r.
Proof.
  split; [exact ex_traj_wf|]. split; [exact ex_traj_pos|]. split.
  - apply add_trajectories_ok. repeat constructor; try reflexivity; apply ex_traj_wf.
  - apply traj_offset_ok; [exact ex_traj_wf|simpl; lia].
Qed.

(** C49: evaluateRange.  t_start lies in segment k; the samples are taken at
    t_start, t_start+dt, ... but the reported times count from the start of the
    segment and the loop stops when the reported time reaches t_end. *)
Theorem C49_evaluate_range :
  forall (tr : trajectory) (t_start t_end dt : R) (d k : nat) (s : segment),
  traj_wf tr -> positive_times tr -> 0 < dt ->
  nth_error (t_segs tr) k = Some s -> start_of tr k <= t_start < start_of tr (S k) ->
  exists fuel0 l, (forall fuel, (fuel0 <= fuel)%nat -> evaluate_range fuel tr t_start t_end dt d = Val l) /\
    samples tr d t_start (start_of tr k) t_end dt l.
Proof. exact evaluate_range_spec. Qed.
Theorem C49_sample_is_evaluate :
  forall (tr : trajectory) (tau : R) (d : nat) (v : vec), traj_wf tr -> positive_times tr ->
  (forall k s s', nth_error (t_segs tr) k = Some s -> nth_error (t_segs tr) (S k) = Some s' ->
     seg_deriv s d (s_time s) = seg_deriv s' d 0) ->
  sample_at tr tau d v -> traj_evaluate tr tau d = Some v.
Proof. exact sample_at_evaluate. Qed.
Theorem C49_start_at_end_undefined :
  forall (fuel : nat) (tr : trajectory) (t_end dt : R) (d : nat),
  traj_wf tr -> positive_times tr -> t_segs tr <> [] ->
  evaluate_range fuel tr (t_max tr) t_end dt d = Undef.
Proof. exact evaluate_range_end. Qed.
Theorem C49_start_past_end :
  forall (fuel : nat) (tr : trajectory) (t_start t_end dt : R) (d : nat),
  traj_wf tr -> positive_times tr -> t_max tr < t_start ->
  evaluate_range fuel tr t_start t_end dt d = Failed.
Proof. exact evaluate_range_past. Qed.
Print Assumptions C49_evaluate_range.
Print Assumptions C49_sample_is_evaluate.
Print Assumptions C49_start_at_end_undefined.
Example C49_example : traj_wf ex_traj /\ positive_times ex_traj /\
  nth_error (t_segs ex_traj) 1 = Some ex_seg2 /\ start_of ex_traj 1 <= 3 / 2 < start_of ex_traj 2.
Proof.
  split; [exact ex_traj_wf|]. split; [exact ex_traj_pos|]. split; [reflexivity|].
  unfold start_of; simpl; lra.
Qed.
