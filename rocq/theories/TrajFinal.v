(** Trajectory facts in the form used by the property files. *)
From Coq Require Import Reals Lra Lia List Bool ZArith Arith.
From Coquelicot Require Import Coquelicot.
From Verif Require Import Base PolyModel PolySpec PolyProofs VertexModel VertexSpec VertexProofs TrajModel TrajSpec
  TrajProofs ExtremaProofs TrajOpsProofs RangeProofs Examples.
Import List ListNotations.
Local Open Scope R_scope.

Lemma piece_bounds segs t s x :
  Forall (fun s => 0 <= s_time s) segs -> 0 <= t <= lsum (map s_time segs) ->
  piece segs t = Some (s, x) -> In s segs /\ 0 <= x <= s_time s.
Proof.
  revert t; induction segs as [|s0 segs IH]; intros t HF Ht Hp; [discriminate|].
  inversion HF; subst. destruct segs as [|s1 segs].
  - simpl in *. inversion Hp; subst. split; [auto|lra].
  - change (piece (s0 :: s1 :: segs) t) with (if Rltb t (s_time s0) then Some (s0, t) else piece (s1 :: segs) (t - s_time s0)) in Hp.
    rcase_in Hp.
    + inversion Hp; subst. split; [left; auto|lra].
    + destruct (IH (t - s_time s0)) as [A B]; auto; [cbn [map lsum] in *; lra|]. split; [right; auto|auto].
Qed.

Lemma evaluate_in_segment tr t d :
  traj_wf tr -> t_segs tr <> [] -> Forall (fun s => 0 <= s_time s) (t_segs tr) -> 0 <= t <= t_max tr ->
  exists s x, In s (t_segs tr) /\ 0 <= x <= s_time s /\ traj_evaluate tr t d = Some (seg_deriv s d x).
Proof.
  intros [W M] Hne HT Ht. rewrite M in Ht.
  destruct (traj_evaluate_piece tr t d) as (s & x & P & V); auto; [lra|].
  destruct (piece_bounds _ _ _ _ HT Ht P) as [I B].
  exists s, x. split; auto. split; auto. rewrite V. f_equal. apply seg_evaluate_deriv.
  rewrite Forall_forall in W. apply W; auto.
Qed.

(** Extrema, with the consequence for the values of evaluate(). *)
Lemma trajectory_extrema find_roots tr d dims :
  exact_root_finder find_roots -> traj_wf tr -> t_segs tr <> [] ->
  Forall (fun s => 0 <= s_time s) (t_segs tr) -> (d < t_N tr)%nat ->
  dims <> [] -> Forall (fun i => (i < t_D tr)%nat) dims ->
  exists mn mx, traj_minmax find_roots tr d dims = Val (mn, mx) /\
    traj_max_spec (t_segs tr) d dims mx /\
    (forall t v, 0 <= t <= t_max tr -> traj_evaluate tr t d = Some v -> norm_dims v dims <= e_value mx) /\
    ((forall s, In s (t_segs tr) -> min_computable s d 0 (s_time s) dims) ->
     (forall s t, In s (t_segs tr) -> 0 <= t <= s_time s -> norm_dims (seg_deriv s d t) dims < DBL_MAX) ->
     traj_min_spec (t_segs tr) d dims mn /\
     (forall t v, 0 <= t <= t_max tr -> traj_evaluate tr t d = Some v -> e_value mn <= norm_dims v dims)).
Proof.
  intros HR Hwf Hne HT Hd Hdims HD.
  destruct (traj_minmax_spec find_roots tr d dims HR Hwf Hne HT Hd Hdims HD) as (mn & mx & E & HM & Hm).
  exists mn, mx. split; auto. split; auto. split.
  - intros t v Ht Hv. destruct (evaluate_in_segment tr t d) as (s & x & I & B & V); auto.
    rewrite V in Hv. inversion Hv; subst. apply HM; auto.
  - intros H1 H2. specialize (Hm H1 H2). split; auto.
    intros t v Ht Hv. destruct (evaluate_in_segment tr t d) as (s & x & I & B & V); auto.
    rewrite V in Hv. inversion Hv; subst. apply Hm; auto.
Qed.

(** One-dimensional line crossing zero: the minimum magnitude is missed. *)
Definition cross_traj : trajectory := mkTraj 1 2 1 [mkSeg 1 2 1 [[- / 2; 1]]].

Lemma single_dimension_min_refuted find_roots :
  find_roots (get_coefficients [- / 2; 1] 1) = [] ->
  exists mn mx, traj_minmax find_roots cross_traj 0 [0%nat] = Val (mn, mx) /\
    e_value mn = / 2 /\ traj_evaluate cross_traj (/ 2) 0 = Some [0].
Proof.
  intros HF.
  assert (P0 : poly_evaluate [- / 2; 1] 0 0 = - / 2) by (cbn; lra).
  assert (P1 : poly_evaluate [- / 2; 1] 1 0 = / 2) by (cbn; lra).
  assert (M0 : forall a, a = - / 2 \/ a = / 2 -> sqrt (a ^ 2 + 0) = / 2).
  { intros a Ha. rewrite Rplus_0_r. replace (a ^ 2) with ((/ 2) * (/ 2)) by (destruct Ha; subst; simpl; lra).
    apply sqrt_square; lra. }
  pose proof (small_lt_DBL_MAX (/ 2) ltac:(lra)). pose proof DBL_MAX_pos.
  unfold traj_minmax, cross_traj. cbn [t_segs traj_minmax_loop].
  unfold seg_candidates, seg_candidate_times. cbn [s_D s_polys s_time Nat.ltb Nat.leb seg_poly nth].
  unfold compute_candidates, select_candidates_from_roots, seg_poly. cbn [s_polys nth].
  change (Nat.ltb (length [- / 2; 1]%R) 1) with false. cbv iota. rewrite HF.
  replace (Rltb 1 0) with false by (symmetry; apply Rltb_false; lra).
  cbn [filter map]. unfold seg_magnitude. cbn [map lsum]. unfold seg_poly. cbn [s_polys nth].
  rewrite P0, P1, !M0 by auto.
  unfold seg_select. replace (Rltb 1 0) with false by (symmetry; apply Rltb_false; lra).
  cbn [fold_left e_time e_seg ext_default fst snd].
  replace (Rltb 0 0) with false by (symmetry; apply Rltb_false; lra).
  replace (Rltb 1 1) with false by (symmetry; apply Rltb_false; lra).
  replace (Rltb 1 0) with false by (symmetry; apply Rltb_false; lra). cbn [orb fst snd].
  unfold ext_min, ext_max. cbn [e_value e_time fst snd].
  replace (Rltb (/ 2) DBL_MAX) with true by (symmetry; apply Rltb_true; lra).
  replace (Rltb (- DBL_MAX) (/ 2)) with true by (symmetry; apply Rltb_true; lra).
  cbn [e_value e_time].
  replace (Rltb (/ 2) (/ 2)) with false by (symmetry; apply Rltb_false; lra).
  cbn [e_value e_time].
  replace (Rltb (/ 2) DBL_MAX) with true by (symmetry; apply Rltb_true; lra).
  replace (Rltb (- DBL_MAX) (/ 2)) with true by (symmetry; apply Rltb_true; lra).
  eexists. eexists. split; [reflexivity|]. split; [reflexivity|].
  unfold traj_evaluate, traj_evaluate_gen. cbn [t_segs find_segment s_time].
  replace (Rltb (/ 2) (0 + 1)) with true by (symmetry; apply Rltb_true; lra).
  replace (Rltb (0 + 1) (/ 2)) with false by (symmetry; apply Rltb_false; lra).
  cbn. f_equal. list_lra.
Qed.

Lemma norm_dims_all v : norm_dims v (seq 0 (length v)) = vec_norm v.
Proof.
  unfold norm_dims, vec_norm. f_equal.
  assert (G : forall l k, lsum (map (fun i => nth (i - k) l 0 ^ 2) (seq k (length l))) = lsum (map (fun x => x * x) l)).
  { induction l; intros k; [reflexivity|]. cbn [length seq map lsum]. rewrite Nat.sub_diag.
    simpl nth at 1. rewrite <- (IHl (S k)). f_equal; [simpl; ring|]. f_equal. apply map_ext_in.
    intros i Hi. apply in_seq in Hi. replace (i - k)%nat with (S (i - S k)) by lia. reflexivity. }
  rewrite <- (G v 0%nat). f_equal. apply map_ext. intros. now rewrite Nat.sub_0_r.
Qed.

Lemma length_seg_deriv s d x : seg_wf s -> length (seg_deriv s d x) = s_D s.
Proof. intros H. rewrite <- seg_evaluate_deriv by auto. apply length_seg_evaluate. Qed.

(** Scaling to limits, in terms of evaluate(). *)
Lemma scale_to_limits find_roots tr v_max a_max :
  exact_root_finder find_roots -> traj_wf tr -> t_segs tr <> [] -> positive_times tr ->
  (3 <= t_N tr)%nat -> (1 <= t_D tr)%nat -> 0 < v_max -> 0 < a_max ->
  exists tr' k, scale_to_constraints find_roots tr v_max a_max = Val (true, tr') /\ 1 <= k /\
    t_max tr' = k * t_max tr /\
    (forall t d, traj_evaluate tr' (k * t) d = option_map (map (fun v => v / k ^ d)) (traj_evaluate tr t d)) /\
    (forall t v a, 0 <= t <= t_max tr' ->
       traj_evaluate tr' t 1 = Some v -> traj_evaluate tr' t 2 = Some a ->
       vec_norm v <= v_max * (1 + / 1000) /\ vec_norm a <= a_max * (1 + / 1000)) /\
    ((forall s t, In s (t_segs tr) -> 0 <= t <= s_time s ->
       vec_norm (seg_deriv s 1 t) <= v_max * (1 + / 1000) /\
       vec_norm (seg_deriv s 2 t) <= a_max * (1 + / 1000)) -> tr' = tr) /\
    (tr' = tr /\ k = 1 \/ exists s t, In s (t_segs tr') /\ 0 <= t <= s_time s /\
       (vec_norm (seg_deriv s 1 t) = v_max \/ vec_norm (seg_deriv s 2 t) = a_max)).
Proof.
  intros HR Hwf Hne HP HN HD Hv Ha.
  assert (HT : Forall (fun s => 0 <= s_time s) (t_segs tr)).
  { eapply Forall_impl; [|exact HP]. simpl; intros; lra. }
  assert (HTOL : TOL = / 1000) by (unfold TOL; simpl; lra).
  destruct (scale_to_constraints_spec find_roots tr v_max a_max) as (tr' & E & Hk & HB & HU); auto.
  rewrite HTOL in *.
  assert (Hnorm : forall s d x, In s (t_segs tr) -> norm_dims (seg_deriv s d x) (seq 0 (t_D tr)) = vec_norm (seg_deriv s d x)).
  { intros s d x Hs. destruct Hwf as [W _]. rewrite Forall_forall in W. destruct (W s Hs) as (W1 & W2 & _).
    rewrite <- norm_dims_all, length_seg_deriv, W2 by auto. reflexivity. }
  assert (HU' : (forall s t, In s (t_segs tr) -> 0 <= t <= s_time s ->
       vec_norm (seg_deriv s 1 t) <= v_max * (1 + / 1000) /\
       vec_norm (seg_deriv s 2 t) <= a_max * (1 + / 1000)) -> tr' = tr).
  { intros H. apply HU. intros s t Hs Ht. rewrite !Hnorm by auto. auto. }
  assert (HB' : traj_wf tr' -> t_D tr' = t_D tr -> t_segs tr' <> [] -> Forall (fun s => 0 <= s_time s) (t_segs tr') ->
    forall t v a, 0 <= t <= t_max tr' ->
       traj_evaluate tr' t 1 = Some v -> traj_evaluate tr' t 2 = Some a ->
       vec_norm v <= v_max * (1 + / 1000) /\ vec_norm a <= a_max * (1 + / 1000)).
  { intros W' D' N' T' t v a Ht Ev Ea.
    destruct (evaluate_in_segment tr' t 1) as (s & x & I & B & V); auto.
    destruct (evaluate_in_segment tr' t 2) as (s2 & x2 & I2 & B2 & V2); auto.
    rewrite V in Ev. rewrite V2 in Ea. inversion Ev; inversion Ea; subst.
    destruct (HB s x I B) as [R1 _]. destruct (HB s2 x2 I2 B2) as [_ R2].
    assert (Hn' : forall s d x, In s (t_segs tr') -> norm_dims (seg_deriv s d x) (seq 0 (t_D tr)) = vec_norm (seg_deriv s d x)).
    { intros s0 d0 x0 Hs. destruct W' as [W _]. rewrite Forall_forall in W. destruct (W s0 Hs) as (W1 & W2 & _).
      rewrite <- norm_dims_all, length_seg_deriv, W2, D' by auto. reflexivity. }
    rewrite Hn' in R1 by auto. rewrite Hn' in R2 by auto. auto. }
  destruct Hk as [-> | (k & Hk & -> & Q)].
  - exists tr, 1. split; [auto|]. split; [lra|]. split; [lra|]. split; [|split; [|split; [auto|left; auto]]].
    + intros t d. rewrite Rmult_1_l. destruct (traj_evaluate tr t d); simpl; auto. f_equal.
      rewrite <- (map_id v) at 1. apply map_ext. intros. rewrite pow1. field.
    + apply HB'; auto.
  - exists (traj_scale tr k), k. split; [auto|]. split; [auto|].
    split; [rewrite traj_scale_max; destruct Hwf as [_ ->]; reflexivity|].
    split; [|split; [|split; [auto|]]].
    + intros. apply traj_scale_evaluate; auto; lra.
    + apply HB'; auto using traj_scale_wf.
      * simpl. destruct (t_segs tr); [congruence|discriminate].
      * simpl. apply Forall_map. eapply Forall_impl; [|exact HT]. simpl; intros. nra.
    + right. destruct Q as (s & t & I & B & Q). exists s, t. split; auto. split; auto.
      assert (W' : traj_wf (traj_scale tr k)) by auto using traj_scale_wf.
      destruct W' as [W _]. rewrite Forall_forall in W. destruct (W s I) as (W1 & W2 & _). simpl in W2.
      rewrite <- !norm_dims_all, !length_seg_deriv, W2 by auto. exact Q.
Qed.

Lemma scale_segment_times_spec tr k :
  traj_wf tr -> positive_times tr -> t_segs tr <> [] ->
  (k < / 10 ^ 6 -> scale_segment_times tr k = (false, tr)) /\
  (/ 10 ^ 6 <= k -> exists tr', scale_segment_times tr k = (true, tr') /\ traj_wf tr' /\
     segment_times tr' = map (fun T => T * k) (segment_times tr) /\ t_max tr' = k * t_max tr /\
     forall t d, traj_evaluate tr' (k * t) d = option_map (map (fun v => v / k ^ d)) (traj_evaluate tr t d)).
Proof.
  intros Hwf HP Hne. unfold scale_segment_times. split; intros Hk.
  - rcase; [reflexivity|lra].
  - rcase; [lra|]. exists (traj_scale tr k). split; auto. split; [apply traj_scale_wf; auto|].
    assert (0 < / 10 ^ 6) by (apply Rinv_0_lt_compat, pow_lt; lra).
    split; [|split].
    + unfold segment_times. simpl. rewrite !map_map. reflexivity.
    + rewrite traj_scale_max. destruct Hwf as [_ ->]. reflexivity.
    + intros. apply traj_scale_evaluate; [lra|]. eapply Forall_impl; [|exact HP]. simpl; intros; lra.
Qed.

(** Different numbers of coefficients and different segment times: the shorter
    one is not stretched. *)
Definition app_seg1 : segment := mkSeg 1 2 1 [[0; 1]].
Definition app_seg2 : segment := mkSeg 2 3 1 [[0; 1; 0]].
Definition app_traj1 : trajectory := mkTraj 1 2 1 [app_seg1].
Definition app_traj2 : trajectory := mkTraj 1 3 2 [app_seg2].
Lemma append_different_N_wrong :
  exists r, traj_append_dimension app_traj1 app_traj2 = Val r /\ t_max r = 2 /\
    traj_evaluate app_traj1 1 0 = Some [1] /\ traj_evaluate r 2 0 = Some [2; 2].
Proof.
  unfold traj_append_dimension, app_traj1, app_traj2, app_seg1, app_seg2. cbn -[Rltb Rmax].
  rewrite (Rmax_right 1 2) by lra. eexists. split; [reflexivity|]. split; [simpl; lra|].
  unfold traj_evaluate, traj_evaluate_gen. cbn [t_segs find_segment s_time length].
  replace (Rltb 1 (0 + 1)) with false by (symmetry; apply Rltb_false; lra).
  replace (Rltb (0 + 1) 1) with false by (symmetry; apply Rltb_false; lra).
  replace (Rltb 2 (0 + 2)) with false by (symmetry; apply Rltb_false; lra).
  replace (Rltb (0 + 2) 2) with false by (symmetry; apply Rltb_false; lra).
  split; cbn; f_equal; list_lra.
Qed.

Lemma traj_evaluate_past_end tr t d : traj_wf tr -> positive_times tr -> t_max tr < t ->
  traj_evaluate tr t d = Some (repeat 0 (t_D tr)).
Proof.
  intros [_ M] HP Ht. apply traj_evaluate_past; [|lra].
  eapply Forall_impl; [|exact HP]. simpl; intros; lra.
Qed.
