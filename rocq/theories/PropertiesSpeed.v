(** Property theorems: the speed limit and the estimated segment times (C87). *)
From Coq Require Import Reals Lra Lia List Bool ZArith Arith.
From Coquelicot Require Import Coquelicot.
From Verif Require Import Base PolyModel PolySpec VertexModel VertexProofs TrajModel TrajSpec PolyProofs TrajProofs
  WaypointModel DynModel DynSpec DynProofs DynScenario
  LinOptModel LinOptSpec LinProofs LinFinal PropertiesLin NonlinModel NonlinSpec NonlinFinal PropertiesNonlin
  FloatModel ComputeModel ComputeSpec ComputeProofs PropertiesEval Names PropertiesEndToEnd PropertiesTrajVertex SpeedProofs.
Import List ListNotations.
Set Bullet Behavior "Strict Subproofs".
Local Open Scope R_scope.

(** The speed never exceeds v. *)
Definition respects (tr : trajectory) (v : R) : Prop :=
  forall t vel, 0 <= t <= t_max tr -> traj_evaluate tr t 1 = Some vel -> vec_norm vel <= v.
(** The trajectory goes from a to b in its i-th segment, in T seconds. *)
Definition leg (tr : trajectory) (i : nat) (a b : vec) (T : R) : Prop :=
  (i < length (t_segs tr))%nat /\ T = start_of tr (S i) - start_of tr i /\
  traj_evaluate tr (start_of tr i) 0 = Some a /\ traj_evaluate tr (start_of tr (S i)) 0 = Some b.
(** The trajectory is at rest at time t. *)
Definition rests (tr : trajectory) (t : R) : Prop :=
  exists vel, traj_evaluate tr t 1 = Some vel /\ vec_norm vel = 0.
(** Distance of two points. *)
Definition distance (a b : vec) : R := vec_norm (vec_sub b a).

(* ------------------------------------------------------------------ *)
(** ** One segment as a curve *)
Section Segment.
Variables (tr : trajectory) (i : nat) (s : segment).
Hypothesis W : traj_wf tr.
Hypothesis P : positive_times tr.
Hypothesis Hs : nth_error (t_segs tr) i = Some s.
Let f (c : nat) (t : R) : R := pval (nth c (s_polys s) []) t.
Let g (c : nat) (t : R) : R := pval (pderiv (nth c (s_polys s) [])) t.

Lemma seg_props : seg_wf s /\ s_D s = t_D tr /\ s_N s = t_N tr.
Proof. destruct W as [F _]. rewrite Forall_forall in F. apply F. eapply nth_error_In; eauto. Qed.
Lemma seg_pos : 0 < s_time s.
Proof. unfold positive_times in P. rewrite Forall_forall in P. apply P. eapply nth_error_In; eauto. Qed.
Lemma seg_len d t : length (seg_deriv s d t) = t_D tr.
Proof. destruct seg_props as ((L & _) & D & _). unfold seg_deriv. rewrite map_length, <- D. exact L. Qed.
Lemma seg_nth d t c : (c < t_D tr)%nat -> nth c (seg_deriv s d t) 0 = Derive_n (pval (nth c (s_polys s) [])) d t.
Proof.
  intros Hc. destruct seg_props as ((L & _) & D & _). unfold seg_deriv.
  rewrite (nth_indep _ 0 (Derive_n (pval []) d t)) by (rewrite map_length; rewrite <- D, <- L in Hc; exact Hc).
  apply (map_nth (fun p => Derive_n (pval p) d t)).
Qed.
Lemma seg_nth0 t c : (c < t_D tr)%nat -> nth c (seg_deriv s 0 t) 0 = f c t.
Proof. intros. rewrite seg_nth by auto. reflexivity. Qed.
Lemma seg_nth1 t c : (c < t_D tr)%nat -> nth c (seg_deriv s 1 t) 0 = g c t.
Proof. intros. rewrite seg_nth by auto. rewrite Derive_n_pval. reflexivity. Qed.
Lemma curve_derive c t : is_derive (f c) t (g c t).
Proof. apply is_derive_pval. Qed.
Lemma curve_speed t : vec_norm (seg_deriv s 1 t) = nrm (t_D tr) (fun c => g c t).
Proof. rewrite vec_norm_nrm, seg_len. apply nrm_ext. intros c Hc. apply seg_nth1; auto. Qed.
Lemma start_nonneg k : 0 <= start_of tr k.
Proof.
  unfold start_of. unfold positive_times in P. revert P. generalize (t_segs tr). intros l. revert k.
  induction l; intros [|k] F; simpl; try lra. inversion F; subst. specialize (IHl k H2). lra.
Qed.
Lemma start_le_max k : start_of tr k <= t_max tr.
Proof.
  destruct W as [_ E]. rewrite E. unfold start_of. unfold positive_times in P. revert P. generalize (t_segs tr). intros l. revert k.
  induction l; intros [|k] F; simpl; try lra.
  - inversion F; subst. pose proof (IHl O H2). simpl in H. lra.
  - inversion F; subst. specialize (IHl k H2). lra.
Qed.
Lemma start_last : S i = length (t_segs tr) -> start_of tr (S i) = t_max tr.
Proof. intros E. unfold start_of. rewrite E, firstn_all. symmetry. apply W. Qed.

(** What the trajectory evaluates to in the closed span of the segment. *)
Lemma eval_inside d t : 0 <= t < s_time s -> traj_evaluate tr (start_of tr i + t) d = Some (seg_deriv s d t).
Proof.
  intros Ht. replace t with (start_of tr i + t - start_of tr i) at 2 by ring.
  apply traj_evaluate_segment; auto; [lra|]. left. rewrite (start_of_S _ _ _ Hs). lra.
Qed.
Lemma eval_closed m d t : joined tr m -> (d <= m)%nat -> 0 <= t <= s_time s ->
  traj_evaluate tr (start_of tr i + t) d = Some (seg_deriv s d t).
Proof.
  intros J Hd Ht. destruct (Req_dec t (s_time s)) as [->|Hn]; [|apply eval_inside; lra].
  rewrite <- (start_of_S _ _ _ Hs). destruct (nth_error (t_segs tr) (S i)) as [s'|] eqn:E.
  - rewrite (evaluate_start tr (S i) s') by auto. f_equal. symmetry. eapply J; eauto.
  - apply evaluate_end; auto. apply nth_error_None in E.
    assert (i < length (t_segs tr))%nat by (apply nth_error_Some; congruence). lia.
Qed.
Lemma curve_bound v : joined tr 1 -> respects tr v -> forall t, 0 <= t <= s_time s -> nrm (t_D tr) (fun c => g c t) <= v.
Proof.
  intros J R t Ht. rewrite <- curve_speed. eapply R; [|apply (eval_closed 1); auto].
  pose proof (start_nonneg i). pose proof (start_le_max (S i)) as X. rewrite (start_of_S _ _ _ Hs) in X. lra.
Qed.
Lemma leg_ends a b T : joined tr 1 -> leg tr i a b T -> T = s_time s /\ a = seg_deriv s 0 0 /\ b = seg_deriv s 0 (s_time s).
Proof.
  intros J (_ & ET & A & B). rewrite (start_of_S _ _ _ Hs) in *. pose proof seg_pos.
  rewrite (eval_closed 1 0 (s_time s)) in B by (auto; lra).
  rewrite <- (Rplus_0_r (start_of tr i)), (eval_closed 1 0 0) in A by (auto; lra).
  split; [lra|]. split; congruence.
Qed.
Lemma leg_distance : distance (seg_deriv s 0 0) (seg_deriv s 0 (s_time s)) = nrm (t_D tr) (fun c => f c (s_time s) - f c 0).
Proof.
  unfold distance. rewrite vec_norm_nrm.
  assert (L : length (vec_sub (seg_deriv s 0 (s_time s)) (seg_deriv s 0 0)) = t_D tr).
  { unfold vec_sub. rewrite map_length, combine_length, !seg_len. lia. }
  rewrite L. apply nrm_ext. intros c Hc. rewrite vec_sub_nth by (rewrite !seg_len; auto). rewrite !seg_nth0 by auto. reflexivity.
Qed.
Lemma poly_short c : (t_N tr <= 10)%nat -> (length (nth c (s_polys s) []) <= 10)%nat.
Proof.
  intros HN. destruct seg_props as ((L & F) & D & N). destruct (Nat.lt_ge_cases c (length (s_polys s))) as [H|H].
  - rewrite Forall_forall in F. rewrite (F (nth c (s_polys s) [])) by (apply nth_In; auto). lia.
  - rewrite nth_overflow by auto. simpl. lia.
Qed.
Lemma rest_start m t : joined tr m -> (1 <= m)%nat -> 0 <= t <= s_time s -> rests tr (start_of tr i + t) ->
  nrm (t_D tr) (fun c => g c t) = 0.
Proof.
  intros J Hm Ht (vel & E & Z). rewrite (eval_closed m) in E by (auto; lia). inversion E; subst vel. rewrite <- curve_speed. exact Z.
Qed.
End Segment.

Lemma leg_segment tr i a b T : leg tr i a b T -> exists s, nth_error (t_segs tr) i = Some s.
Proof. intros (H & _). destruct (nth_error (t_segs tr) i) as [s|] eqn:E; eauto. apply nth_error_None in E. lia. Qed.

(* ------------------------------------------------------------------ *)
(** ** C87: how long a leg must take *)

(** C87: a trajectory that respects the speed limit v needs at least
    distance / v for each leg. *)
Theorem C87_needed_time :
  forall (tr : trajectory) (v : R) (i : nat) (a b : vec) (T : R),
  traj_wf tr -> positive_times tr -> joined tr 1 -> respects tr v -> leg tr i a b T ->
  distance a b <= v * T.
Proof.
  intros tr v i a b T W P J R HL. destruct (leg_segment _ _ _ _ _ HL) as (s & Hs).
  destruct (leg_ends tr i s W P Hs a b T J HL) as (-> & -> & ->). rewrite (leg_distance tr i s W Hs).
  apply (time_needed (t_D tr) (fun c t => pval (nth c (s_polys s) []) t) (fun c t => pval (pderiv (nth c (s_polys s) [])) t)).
  - eapply seg_pos; eauto.
  - intros c t. apply is_derive_pval.
  - eapply curve_bound; eauto.
Qed.

(** C87: with no time to spare, the leg is flown on a straight line at
    constant speed. *)
Theorem C87_no_time_to_spare :
  forall (tr : trajectory) (v : R) (i : nat) (a b : vec) (T : R),
  traj_wf tr -> positive_times tr -> joined tr 1 -> respects tr v -> leg tr i a b T ->
  distance a b = v * T -> a <> b ->
  forall t, 0 <= t <= T -> exists pos vel,
    traj_evaluate tr (start_of tr i + t) 0 = Some pos /\ traj_evaluate tr (start_of tr i + t) 1 = Some vel /\
    length pos = t_D tr /\ length vel = t_D tr /\
    forall c, (c < t_D tr)%nat -> nth c pos 0 = nth c a 0 + t / T * (nth c b 0 - nth c a 0) /\
                                  nth c vel 0 = (nth c b 0 - nth c a 0) / T.
Proof.
  intros tr v i a b T W P J R HL E Ne t Ht. destruct (leg_segment _ _ _ _ _ HL) as (s & Hs).
  destruct (leg_ends tr i s W P Hs a b T J HL) as (-> & -> & ->). rewrite (leg_distance tr i s W Hs) in E.
  pose proof (seg_pos tr i s P Hs) as HT.
  set (F := fun c t => pval (nth c (s_polys s) []) t). set (G := fun c t => pval (pderiv (nth c (s_polys s) [])) t).
  assert (HD : forall c t, is_derive (F c) t (G c t)) by (intros; apply is_derive_pval).
  assert (HV : forall t, 0 <= t <= s_time s -> nrm (t_D tr) (fun c => G c t) <= v) by (eapply curve_bound; eauto).
  assert (HP : 0 < nrm (t_D tr) (fun c => F c (s_time s) - F c 0)).
  { destruct (Req_dec (nrm (t_D tr) (fun c => F c (s_time s) - F c 0)) 0) as [Z|Z].
    - exfalso. apply Ne. assert (Q : dot (t_D tr) (fun c => F c (s_time s) - F c 0) (fun c => F c (s_time s) - F c 0) = 0)
        by (rewrite <- nrm_sqr, Z; ring).
      apply (nth_ext _ _ 0 0); rewrite !(seg_len tr i s W Hs); auto. intros c Hc.
      rewrite !(seg_nth0 tr i s W Hs) by auto. pose proof (dot_zero _ _ Q c Hc) as Q'. cbn in Q'. unfold F in Q'. lra.
    - pose proof (nrm_nonneg (t_D tr) (fun c => F c (s_time s) - F c 0)). lra. }
  exists (seg_deriv s 0 t), (seg_deriv s 1 t).
  split; [apply (eval_closed tr i s W P Hs 1); auto|]. split; [apply (eval_closed tr i s W P Hs 1); auto|].
  split; [eapply seg_len; eauto|]. split; [eapply seg_len; eauto|]. intros c Hc.
  rewrite !(seg_nth0 tr i s W Hs), (seg_nth1 tr i s W Hs) by auto. split.
  - exact (uniform_position (t_D tr) F G (s_time s) v HT HD HV c t E HP Hc Ht).
  - apply (uniform_velocity (t_D tr) F G (s_time s) v HT HD HV c t E HP Hc Ht). apply continuous_pval.
Qed.

(** C87: so two such legs after each other have the same direction. *)
Theorem C87_no_turn :
  forall (tr : trajectory) (v : R) (i : nat) (a b c : vec) (T1 T2 : R),
  traj_wf tr -> positive_times tr -> joined tr 1 -> respects tr v ->
  leg tr i a b T1 -> leg tr (S i) b c T2 ->
  distance a b = v * T1 -> distance b c = v * T2 -> a <> b -> b <> c ->
  forall k, (k < t_D tr)%nat -> (nth k b 0 - nth k a 0) / T1 = (nth k c 0 - nth k b 0) / T2.
Proof.
  intros tr v i a b c T1 T2 W P J R L1 L2 E1 E2 N1 N2 k Hk.
  destruct (leg_segment _ _ _ _ _ L1) as (s & Hs). destruct (leg_segment _ _ _ _ _ L2) as (s' & Hs').
  destruct (leg_ends tr i s W P Hs a b T1 J L1) as (ET & _). destruct (leg_ends tr (S i) s' W P Hs' b c T2 J L2) as (ET' & _).
  pose proof (seg_pos tr i s P Hs). pose proof (seg_pos tr (S i) s' P Hs').
  destruct (C87_no_time_to_spare tr v i a b T1 W P J R L1 E1 N1 T1 ltac:(lra)) as (p & u & _ & U & _ & _ & A).
  destruct (C87_no_time_to_spare tr v (S i) b c T2 W P J R L2 E2 N2 0 ltac:(lra)) as (p' & u' & _ & U' & _ & _ & A').
  destruct (A k Hk) as [_ <-]. destruct (A' k Hk) as [_ <-]. destruct L1 as (_ & -> & _).
  rewrite Rplus_0_r in U'. replace (start_of tr i + (start_of tr (S i) - start_of tr i)) with (start_of tr (S i)) in U by ring. congruence.
Qed.


(** The rules of SpeedProofs applied to a leg. *)
Lemma leg_rule tr v i s a b T m x w (rest : nat -> bool) :
  traj_wf tr -> positive_times tr -> joined tr 1 -> respects tr v -> (t_N tr <= 10)%nat ->
  nth_error (t_segs tr) i = Some s -> leg tr i a b T ->
  moments 9 m x w -> (forall j, (j < m)%nat -> 0 <= w j /\ 0 <= x j <= 1) ->
  (forall j, (j < m)%nat -> rest j = true -> rests tr (start_of tr i + x j * T)) ->
  distance a b <= T * rsum m (fun j => w j * (if rest j then 0 else v)).
Proof.
  intros W P J R HN Hs HL M HX Z. destruct (leg_ends tr i s W P Hs a b T J HL) as (-> & -> & ->).
  pose proof (seg_pos tr i s P Hs) as HT. rewrite (leg_distance tr i s W Hs).
  assert (IN : forall j, (j < m)%nat -> 0 <= x j * s_time s <= s_time s).
  { intros j Hj. destruct (HX j Hj) as [_ X]. nra. }
  apply (rule_bound (t_D tr) (fun c t => pval (nth c (s_polys s) []) t) (fun c t => pval (pderiv (nth c (s_polys s) [])) t)
           (s_time s) HT m x w).
  - intros c Hc. apply (rule_exact 9); auto. eapply poly_short; eauto.
  - intros j Hj. apply HX; auto.
  - intros j Hj. destruct (rest j) eqn:Er.
    + apply Req_le. eapply (rest_start tr i s W P Hs 1); auto.
    + eapply curve_bound; eauto.
Qed.

(** C87: a leg that starts or ends at rest needs at least 26/25 of
    distance / v, one that does both at least 16/15 (polynomials of the tenth
    order at most). *)
Theorem C87_needed_time_at_rest :
  forall (tr : trajectory) (v : R) (i : nat) (a b : vec) (T : R),
  traj_wf tr -> positive_times tr -> joined tr 1 -> respects tr v -> (t_N tr <= 10)%nat -> leg tr i a b T ->
  (rests tr (start_of tr i) \/ rests tr (start_of tr (S i)) -> 26 * distance a b <= 25 * (v * T)) /\
  (rests tr (start_of tr i) /\ rests tr (start_of tr (S i)) -> 16 * distance a b <= 15 * (v * T)).
Proof.
  intros tr v i a b T W P J R HN HL. destruct (leg_segment _ _ _ _ _ HL) as (s & Hs).
  pose proof HL as (_ & ET & _). pose proof (start_of_S _ _ _ Hs) as ES. pose proof (seg_pos tr i s P Hs) as HT.
  assert (T0 : 0 < T) by lra.
  assert (V0 : 0 <= v).
  { eapply Rle_trans; [apply (nrm_nonneg (t_D tr))|eapply (curve_bound tr i s W P Hs v J R 0)]. lra. }
  assert (VT : 0 <= v * T) by nra.
  split; [intros [Z|Z]|intros [Z Z']].
  - pose proof (leg_rule tr v i s a b T 9 radau_x radau_w (fun j => (j =? 0)%nat) W P J R HN Hs HL radau_moments) as B.
    assert (C : distance a b <= T * rsum 9 (fun j => radau_w j * (if (j =? 0)%nat then 0 else v))).
    { apply B.
      - intros j Hj. do 9 (destruct j as [|j]; [cbn [radau_w radau_x nth]; lra|]). lia.
      - intros j Hj Ej. apply Nat.eqb_eq in Ej. subst j. cbn [radau_x nth]. rewrite Rmult_0_l, Rplus_0_r. exact Z. }
    cbn [rsum radau_w nth Nat.eqb] in C. lra.
  - pose proof (leg_rule tr v i s a b T 9 mirror_x radau_w (fun j => (j =? 0)%nat) W P J R HN Hs HL mirror_moments) as B.
    assert (C : distance a b <= T * rsum 9 (fun j => radau_w j * (if (j =? 0)%nat then 0 else v))).
    { apply B.
      - intros j Hj. unfold mirror_x. do 9 (destruct j as [|j]; [cbn [radau_w radau_x nth]; lra|]). lia.
      - intros j Hj Ej. apply Nat.eqb_eq in Ej. subst j. unfold mirror_x. cbn [radau_x nth].
        replace (start_of tr i + (1 - 0) * T) with (start_of tr (S i)) by lra. exact Z. }
    cbn [rsum radau_w nth Nat.eqb] in C. lra.
  - pose proof (leg_rule tr v i s a b T 10 lobatto_x lobatto_w (fun j => (j =? 0)%nat || (j =? 9)%nat) W P J R HN Hs HL lobatto_moments) as B.
    assert (C : distance a b <= T * rsum 10 (fun j => lobatto_w j * (if (j =? 0)%nat || (j =? 9)%nat then 0 else v))).
    { apply B.
      - intros j Hj. do 10 (destruct j as [|j]; [cbn [lobatto_w lobatto_x nth]; lra|]). lia.
      - intros j Hj Ej. apply orb_true_iff in Ej. destruct Ej as [Ej|Ej]; apply Nat.eqb_eq in Ej; subst j; cbn [lobatto_x nth].
        + rewrite Rmult_0_l, Rplus_0_r. exact Z.
        + replace (start_of tr i + 1 * T) with (start_of tr (S i)) by lra. exact Z'. }
    cbn [rsum lobatto_w nth Nat.eqb orb] in C. lra.
Qed.

(* ------------------------------------------------------------------ *)
(** ** C87: the durations that computeTrajectory chooses *)

(** The i-th waypoint is the last one or asks for (almost) no velocity. *)
Definition stops (ws : list waypoint) (i : nat) (w : waypoint) : Prop :=
  S i = length ws \/ exists c, get_constraint 1 (w_vertex w) = Some c /\ vec_norm c < / 10 ^ 6.
Definition wp_distance (a b : waypoint) : R := distance (pos_of (w_vertex a)) (pos_of (w_vertex b)).
Definition duration (tr : trajectory) (i : nat) : R := start_of tr (S i) - start_of tr i.

Lemma pairwise_nth {A B} (h : A -> A -> B) l : forall i a b, nth_error l i = Some a -> nth_error l (S i) = Some b ->
  nth_error (pairwise h l) i = Some (h a b).
Proof.
  induction l as [|x l IH]; intros i a b Ha Hb; [destruct i; discriminate|].
  destruct l as [|y l]; [destruct i as [|i]; cbn in Hb; [discriminate|destruct i; discriminate]|].
  destruct i as [|i]; cbn in Ha, Hb |- *; [congruence|]. apply IH; auto.
Qed.
Lemma duration_nth tr i T : nth_error (map s_time (t_segs tr)) i = Some T -> duration tr i = T.
Proof.
  intros H. rewrite nth_error_map in H. destruct (nth_error (t_segs tr) i) as [s|] eqn:E; [|discriminate].
  inversion H. unfold duration. rewrite (start_of_S _ _ _ E). lra.
Qed.
Lemma at_rest_spec v : at_rest v = true <-> exists c, get_constraint 1 v = Some c /\ vec_norm c < / 10 ^ 6.
Proof.
  unfold at_rest. destruct (get_constraint 1 v) as [c|].
  - rewrite Rltb_true. split; [eauto|]. intros (c' & E & H). inversion E; subst; auto.
  - split; [discriminate|]. intros (c & E & _). discriminate.
Qed.
Lemma stops_spec ws vs i w u : extract_vertices ws = Some vs -> nth_error ws i = Some w -> nth_error vs i = Some u ->
  (at_rest u = true <-> stops ws i w) /\ pos_of u = pos_of (w_vertex w).
Proof.
  intros E Hw Hu. destruct (extract_spec ws) as (vs' & E' & _ & N); [intros ->; discriminate|].
  assert (vs' = vs) by congruence. subst vs'. rewrite (N i w Hw) in Hu. unfold stops.
  destruct (Nat.eqb_spec (S i) (length ws)) as [H|H]; inversion Hu; subst u.
  - split; [|apply at_rest_pos]. rewrite at_rest_spec. split; [intros _; left; exact H|intros _].
    exists [0; 0; 0]. unfold at_rest_end. rewrite get_set_other by discriminate. rewrite get_set_same. split; [reflexivity|].
    rewrite vec_norm_zero; [|intros [|[|[|[|k]]]]; reflexivity]. apply Rinv_0_lt_compat. lra.
  - split; [|reflexivity]. rewrite at_rest_spec. tauto.
Qed.

Lemma result_times inv qr vs o tr : exact_inverse inv -> solved inv qr 10 3 vs 2 o -> vertices_dim 3 vs ->
  usable_times (o_times o) -> get_trajectory o = Some tr -> map s_time (t_segs tr) = o_times o /\ t_N tr = 10%nat.
Proof.
  intros HI S VD UT E. destruct (solved_interpolates inv qr 10 3 vs 2 valid_10 o S HI VD UT) as [(T & _ & F & _) _].
  assert (W : Forall seg_wf (o_segs o)) by (eapply Forall_impl; [|exact F]; simpl; tauto).
  destruct (set_segments_wf _ _ W E) as (WT & Es & Ne). rewrite Es. split; [exact T|].
  destruct WT as [G _]. rewrite Es in G. destruct (o_segs o) as [|g gs]; [congruence|].
  inversion G as [|? ? (_ & _ & A) _]; subst. inversion F as [|? ? (_ & B & _) _]; subst. congruence.
Qed.

Lemma compute_times find_roots inv qr xs speed lineal ws tr : exact_inverse inv -> Forall wp_good ws ->
  0 < float32 speed -> long_enough speed ws -> solver_ok inv qr speed ws xs ->
  compute_trajectory find_roots inv qr xs speed lineal ws = Val tr ->
  exists vs times, extract_vertices ws = Some vs /\ estimate_segment_times vs (float32 speed) A_MAX = Some times /\
    t_N tr = 10%nat /\
    (lineal = true \/ xs = [] -> map s_time (t_segs tr) = times) /\
    (lineal = false -> forall ys x, xs = ys ++ [x] -> map s_time (t_segs tr) = firstn (length vs - 1) x).
Proof.
  intros HI G Hv LE SO EC. unfold compute_trajectory in EC.
  destruct (extract_vertices ws) as [vs|] eqn:E; [|discriminate].
  destruct (Nat.ltb_spec (length vs) 2) as [|H2]; [discriminate|].
  destruct (estimate_segment_times vs (float32 speed) A_MAX) as [times|] eqn:Et; [|discriminate].
  exists vs, times. do 2 (split; [auto|]).
  pose proof (goods_extract _ _ G E) as GV. pose proof (LE vs times E Et) as UT.
  assert (VD : vertices_dim 3 vs).
  { eapply Forall_impl; [|exact GV]. intros v (D & _ & F). split; auto. intros k c Hc. apply (F k c Hc). }
  destruct lineal.
  - unfold linear_result in EC. destruct (setup inv 10 3 vs times 2) as [o|] eqn:Eo; [|discriminate].
    destruct (get_trajectory (solve_linear qr 10 o)) as [tr'|] eqn:Er; [|discriminate]. inversion EC; subst tr'; clear EC.
    assert (U : opt_use inv qr 10 3 vs 2 o) by (eapply use_setup; eauto).
    assert (Eo' : o_times o = times) by (eapply setup_ready; eauto).
    assert (S' : solved inv qr 10 3 vs 2 (solve_linear qr 10 o)).
    { exists o. split; auto. split; [apply solve_times|auto]. }
    destruct (result_times inv qr vs _ tr HI S' VD) as (A & B); auto; [rewrite solve_times, Eo'; auto|].
    rewrite solve_times, Eo' in A. split; [auto|]. split; [auto|]. discriminate.
  - unfold nonlinear_result in EC. destruct (configure_nonlinear inv vs times (float32 speed)) as [s|] eqn:Es; [|discriminate].
    destruct (configure_configured _ _ _ _ _ Es) as [C OK].
    destruct (optimize_spec find_roots inv qr 10 3 vs 2 generator_params times valid_10 H2 xs false s C OK) as
      (s' & E' & _ & _ & _ & _ & NB & S & X0 & _ & XL); [discriminate|exact (SO vs times E Et s Es)|].
    change generator_parameters with generator_params in *. rewrite E' in EC.
    destruct (get_trajectory (nl_opt s')) as [tr'|] eqn:Er; [|discriminate]. inversion EC; subst tr'; clear EC.
    assert (S' : solved inv qr 10 3 vs 2 (nl_opt s')) by (apply S; right; left; reflexivity).
    destruct (result_times inv qr vs _ tr HI S' VD) as (A & B); auto; [eapply not_below_usable; eauto|].
    split; [auto|]. split.
    + intros [Z|Z]; [discriminate|]. rewrite A, X0 by (auto; left; reflexivity). rewrite solve_times.
      destruct (configured_use inv qr 10 3 vs 2 generator_params times s C) as (_ & Q & _). exact Q.
    + intros _ ys x Ex. rewrite A. destruct (XL ys x Ex) as (o1 & U1 & O1). cbn [is_full generator_params p_alloc] in O1.
      destruct O1 as (O1 & O2). apply set_free_inv in O2. destruct O2 as (-> & _). exact O1.
Qed.

(** C87: the linear optimisation, and the nonlinear one if NLopt evaluates no
    point, take distance / v per leg, plus v / a if the leg starts or ends with
    a stop; otherwise the durations are those of the last point that NLopt
    evaluated. *)
Theorem C87_durations :
  forall find_roots inv qr (xs : list (list R)) (speed : R) (lineal : bool) (ws : list waypoint) (tr : trajectory)
         (i : nat) (a b : waypoint),
  exact_inverse inv -> Forall wp_good ws -> 0 < float32 speed -> apart speed ws -> solver_ok inv qr speed ws xs ->
  compute_trajectory find_roots inv qr xs speed lineal ws = Val tr ->
  nth_error ws i = Some a -> nth_error ws (S i) = Some b ->
  let v := float32 speed in
  (lineal = true \/ xs = [] ->
     (stops ws i a \/ stops ws (S i) b -> duration tr i = wp_distance a b / v + v / A_MAX) /\
     (~ stops ws i a -> ~ stops ws (S i) b -> duration tr i = wp_distance a b / v)) /\
  (forall ys x, lineal = false -> xs = ys ++ [x] -> nth_error x i = Some (duration tr i)).
Proof.
  intros find_roots inv qr xs speed lineal ws tr i a b HI G Hv A SO EC Ha Hb v.
  destruct (compute_times find_roots inv qr xs speed lineal ws tr HI G Hv (apart_long _ _ Hv A) SO EC) as
    (vs & times & E & Et & _ & X & Y).
  assert (L : length vs = length ws) by (apply extract_length; auto).
  assert (Hi : (S i < length ws)%nat) by (apply nth_error_Some; congruence).
  split.
  - intros M. specialize (X M). unfold estimate_segment_times in Et. destruct (Nat.ltb_spec (length vs) 2); [discriminate|].
    inversion Et as [Et']. clear Et.
    destruct (nth_error vs i) as [u|] eqn:Hu; [|apply nth_error_None in Hu; lia].
    destruct (nth_error vs (S i)) as [u'|] eqn:Hu'; [|apply nth_error_None in Hu'; lia].
    destruct (stops_spec ws vs i a u E Ha Hu) as (Sa & Pa). destruct (stops_spec ws vs (S i) b u' E Hb Hu') as (Sb & Pb).
    pose proof (pairwise_nth (nfabian_time (float32 speed) A_MAX) vs i u u' Hu Hu') as N. rewrite Et', <- X in N.
    rewrite (duration_nth _ _ _ N). unfold nfabian_time. rewrite Pa, Pb. fold v. unfold wp_distance, distance.
    split.
    + intros K. assert (Q : at_rest u || at_rest u' = true) by (apply orb_true_iff; rewrite Sa, Sb; exact K). rewrite Q. reflexivity.
    + intros K K'. assert (Q : at_rest u || at_rest u' = false).
      { apply orb_false_iff. split; apply not_true_iff_false; tauto. }
      rewrite Q. reflexivity.
  - intros ys x Hl Hx. specialize (Y Hl ys x Hx).
    destruct (C77_trajectory find_roots inv qr xs speed lineal ws HI G ltac:(lia) Hv A SO) as (tr' & EC' & _ & _ & _ & LS & _).
    assert (tr' = tr) by congruence. subst tr'.
    assert (HN : exists T, nth_error (map s_time (t_segs tr)) i = Some T).
    { destruct (nth_error (map s_time (t_segs tr)) i) eqn:Q; eauto. apply nth_error_None in Q. rewrite map_length in Q. lia. }
    destruct HN as (T & HN). rewrite (duration_nth _ _ _ HN). rewrite Y in HN.
    rewrite <- (firstn_skipn (length vs - 1) x). rewrite nth_error_app1; [exact HN|]. apply nth_error_Some. congruence.
Qed.

(** The i-th waypoint is the last one or asks for zero velocity. *)
Definition halts (ws : list waypoint) (i : nat) (w : waypoint) : Prop :=
  S i = length ws \/ get_constraint 1 (w_vertex w) = Some [0; 0; 0].
Lemma halts_stops ws i w : halts ws i w -> stops ws i w.
Proof.
  intros [H|H]; [left; auto|right]. exists [0; 0; 0]. split; [auto|].
  rewrite vec_norm_zero; [|intros [|[|[|[|k]]]]; reflexivity]. apply Rinv_0_lt_compat. lra.
Qed.

(** What the trajectory does at the waypoints. *)
Lemma computed_leg find_roots inv qr xs speed lineal ws tr i a b : exact_inverse inv -> Forall wp_good ws ->
  0 < float32 speed -> apart speed ws -> solver_ok inv qr speed ws xs ->
  compute_trajectory find_roots inv qr xs speed lineal ws = Val tr ->
  nth_error ws i = Some a -> nth_error ws (S i) = Some b ->
  traj_wf tr /\ positive_times tr /\ joined tr 1 /\ t_N tr = 10%nat /\ t_D tr = 3%nat /\
  leg tr i (pos_of (w_vertex a)) (pos_of (w_vertex b)) (duration tr i) /\
  (halts ws i a -> rests tr (start_of tr i)) /\ (halts ws (S i) b -> rests tr (start_of tr (S i))).
Proof.
  intros HI G Hv A SO EC Ha Hb. assert (Hi : (S i < length ws)%nat) by (apply nth_error_Some; congruence).
  destruct (compute_times find_roots inv qr xs speed lineal ws tr HI G Hv (apart_long _ _ Hv A) SO EC) as (_ & _ & _ & _ & N & _).
  destruct (C77_trajectory find_roots inv qr xs speed lineal ws HI G ltac:(lia) Hv A SO) as
    (tr' & EC' & W & P & D & LS & M & R1 & _ & J).
  assert (tr' = tr) by congruence. subst tr'. do 2 (split; [auto|]).
  split; [intros k s s' H1 H2 j Hj; eapply J; eauto; lia|]. split; [auto|]. split; [auto|].
  assert (PO : forall j w, nth_error ws j = Some w -> traj_evaluate tr (start_of tr j) 0 = Some (pos_of (w_vertex w))).
  { intros j w Hw. assert (Gw : wp_good w) by (rewrite Forall_forall in G; apply G; eapply nth_error_In; eauto).
    destruct Gw as (_ & (p & Ep) & _). unfold pos_of. rewrite Ep. apply (M j w 0%nat p Hw Ep). split; discriminate. }
  split; [split; [lia|split; [reflexivity|split; auto]]|].
  assert (RE : forall j w, nth_error ws j = Some w -> halts ws j w -> rests tr (start_of tr j)).
  { intros j w Hw H. exists [0; 0; 0]. split; [|apply vec_norm_zero; intros [|[|[|[|k]]]]; reflexivity].
    destruct (Nat.eq_dec (S j) (length ws)) as [Q|Q].
    - assert (Em : start_of tr j = t_max tr).
      { unfold start_of. replace j with (length (t_segs tr)) by lia. rewrite firstn_all. symmetry. apply W. }
      rewrite Em. exact R1.
    - destruct H as [H|H]; [congruence|]. apply (M j w 1%nat _ Hw H). intros Q'. congruence. }
  split; intros H; eapply RE; eauto.
Qed.

(** C87: with either optimiser, the durations decide: a leg of shorter duration
    breaks the speed limit. *)
Theorem C87_too_short :
  forall find_roots inv qr (xs : list (list R)) (speed : R) (lineal : bool) (ws : list waypoint) (tr : trajectory)
         (i : nat) (a b : waypoint),
  exact_inverse inv -> Forall wp_good ws -> 0 < float32 speed -> apart speed ws -> solver_ok inv qr speed ws xs ->
  compute_trajectory find_roots inv qr xs speed lineal ws = Val tr ->
  nth_error ws i = Some a -> nth_error ws (S i) = Some b ->
  let needed := wp_distance a b / float32 speed in
  duration tr i < needed \/
  ((halts ws i a \/ halts ws (S i) b) /\ duration tr i < 26 / 25 * needed) \/
  ((halts ws i a /\ halts ws (S i) b) /\ duration tr i < 16 / 15 * needed) ->
  ~ respects tr (float32 speed).
Proof.
  intros find_roots inv qr xs speed lineal ws tr i a b HI G Hv A SO EC Ha Hb needed C R.
  destruct (computed_leg find_roots inv qr xs speed lineal ws tr i a b HI G Hv A SO EC Ha Hb) as
    (W & P & J & N & D & HL & R1 & R2).
  assert (EN : float32 speed * needed = wp_distance a b) by (unfold needed; field; lra).
  pose proof (C87_needed_time tr _ i _ _ _ W P J R HL) as B1.
  destruct (C87_needed_time_at_rest tr _ i _ _ _ W P J R ltac:(lia) HL) as (B2 & B3).
  fold (wp_distance a b) in *. rewrite <- EN in *.
  destruct C as [C|[[H C]|[[H H'] C]]].
  - nra.
  - assert (B : 26 * (float32 speed * needed) <= 25 * (float32 speed * duration tr i)) by (apply B2; tauto). nra.
  - assert (B : 16 * (float32 speed * needed) <= 15 * (float32 speed * duration tr i)) by (apply B3; tauto). nra.
Qed.

(** C87: the estimated durations break the speed limit on every leg from or to
    a stop that is longer than 25 v^2/a, and on every leg from stop to stop that
    is longer than 15 v^2/a. *)
Theorem C87_long_leg :
  forall find_roots inv qr (xs : list (list R)) (speed : R) (lineal : bool) (ws : list waypoint) (tr : trajectory)
         (i : nat) (a b : waypoint),
  exact_inverse inv -> Forall wp_good ws -> 0 < float32 speed -> apart speed ws -> solver_ok inv qr speed ws xs ->
  compute_trajectory find_roots inv qr xs speed lineal ws = Val tr -> lineal = true \/ xs = [] ->
  nth_error ws i = Some a -> nth_error ws (S i) = Some b ->
  let v := float32 speed in
  ((halts ws i a \/ halts ws (S i) b) /\ 25 * v ^ 2 / A_MAX < wp_distance a b) \/
  ((halts ws i a /\ halts ws (S i) b) /\ 15 * v ^ 2 / A_MAX < wp_distance a b) ->
  ~ respects tr (float32 speed).
Proof.
  intros find_roots inv qr xs speed lineal ws tr i a b HI G Hv A SO EC M Ha Hb v C.
  destruct (C87_durations find_roots inv qr xs speed lineal ws tr i a b HI G Hv A SO EC Ha Hb) as (X & _).
  destruct (X M) as (X1 & _). clear X.
  assert (ST : stops ws i a \/ stops ws (S i) b) by (destruct C as [[[H|H] _]|[[H _] _]]; eauto using halts_stops).
  specialize (X1 ST). cbv zeta in X1. fold v in X1, Hv. pose proof A_MAX_pos as HA.
  assert (E1 : 25 * v ^ 2 / A_MAX = 25 * v * (v / A_MAX)) by (field; lra).
  assert (E2 : 15 * v ^ 2 / A_MAX = 15 * v * (v / A_MAX)) by (field; lra).
  assert (E3 : v * (wp_distance a b / v) = wp_distance a b) by (field; lra).
  set (q := v / A_MAX) in *. set (n := wp_distance a b / v) in *.
  eapply (C87_too_short find_roots inv qr xs speed lineal ws tr i a b); eauto. fold v. fold n. right.
  destruct C as [[H C]|[H C]]; [left|right]; (split; [exact H|]); rewrite X1.
  - assert (25 * q < n) by nra. lra.
  - assert (15 * q < n) by nra. lra.
Qed.

(** C87: the estimated durations break the speed limit at every turn: three
    waypoints, none a stop, that are not on a straight line in this order. *)
Theorem C87_turn :
  forall find_roots inv qr (xs : list (list R)) (speed : R) (lineal : bool) (ws : list waypoint) (tr : trajectory)
         (i : nat) (a b c : waypoint),
  exact_inverse inv -> Forall wp_good ws -> 0 < float32 speed -> apart speed ws -> solver_ok inv qr speed ws xs ->
  compute_trajectory find_roots inv qr xs speed lineal ws = Val tr -> lineal = true \/ xs = [] ->
  nth_error ws i = Some a -> nth_error ws (S i) = Some b -> nth_error ws (S (S i)) = Some c ->
  ~ stops ws i a -> ~ stops ws (S i) b -> ~ stops ws (S (S i)) c ->
  (exists k, (k < 3)%nat /\
     (nth k (pos_of (w_vertex b)) 0 - nth k (pos_of (w_vertex a)) 0) / wp_distance a b <>
     (nth k (pos_of (w_vertex c)) 0 - nth k (pos_of (w_vertex b)) 0) / wp_distance b c) ->
  ~ respects tr (float32 speed).
Proof.
  intros find_roots inv qr xs speed lineal ws tr i a b c HI G Hv A SO EC M Ha Hb Hc Sa Sb Sc (k & Hk & NE) R.
  destruct (C87_durations find_roots inv qr xs speed lineal ws tr i a b HI G Hv A SO EC Ha Hb) as (X & _).
  destruct (X M) as (_ & X1). specialize (X1 Sa Sb). clear X.
  destruct (C87_durations find_roots inv qr xs speed lineal ws tr (S i) b c HI G Hv A SO EC Hb Hc) as (X & _).
  destruct (X M) as (_ & X2). specialize (X2 Sb Sc). clear X. cbv zeta in X1, X2.
  destruct (computed_leg find_roots inv qr xs speed lineal ws tr i a b HI G Hv A SO EC Ha Hb) as
    (W & P & J & _ & D & L1 & _).
  destruct (computed_leg find_roots inv qr xs speed lineal ws tr (S i) b c HI G Hv A SO EC Hb Hc) as
    (_ & _ & _ & _ & _ & L2 & _).
  set (v := float32 speed) in *.
  assert (E1 : wp_distance a b = v * duration tr i) by (rewrite X1; field; lra).
  assert (E2 : wp_distance b c = v * duration tr (S i)) by (rewrite X2; field; lra).
  assert (D1 : 0 < duration tr i).
  { destruct (leg_segment _ _ _ _ _ L1) as (s & Hs). destruct (leg_ends tr i s W P Hs _ _ _ J L1) as (-> & _). eapply seg_pos; eauto. }
  assert (D2 : 0 < duration tr (S i)).
  { destruct (leg_segment _ _ _ _ _ L2) as (s & Hs). destruct (leg_ends tr (S i) s W P Hs _ _ _ J L2) as (-> & _). eapply seg_pos; eauto. }
  assert (Q : forall x y, 0 < wp_distance x y -> pos_of (w_vertex x) <> pos_of (w_vertex y)).
  { intros x y Hxy Z. unfold wp_distance, distance in Hxy. rewrite Z, vec_norm_zero in Hxy; [lra|].
    intros j. rewrite vec_sub_nth by reflexivity. ring. }
  assert (K := C87_no_turn tr v i _ _ _ _ _ W P J R L1 L2 E1 E2 (Q a b ltac:(nra)) (Q b c ltac:(nra)) k ltac:(lia)).
  apply NE. rewrite E1, E2. unfold Rdiv in *. rewrite !Rinv_mult. 
  transitivity (/ v * ((nth k (pos_of (w_vertex b)) 0 - nth k (pos_of (w_vertex a)) 0) * / duration tr i)); [ring|].
  rewrite K. ring.
Qed.

(** ** Examples *)

(** From the vehicle at the origin to a waypoint 30 m away at 1 m/s. *)
Definition far : list waypoint := [wd; fresh name_a (mkV3 30 0 0)].
Lemma norm_axis x : 0 <= x -> vec_norm [x; 0; 0] = x.
Proof. intros H. unfold vec_norm. cbn. replace (x * x + (0 * 0 + (0 * 0 + 0))) with (x * x) by ring. apply sqrt_square; auto. Qed.
Lemma far_distance : wp_distance wd (fresh name_a (mkV3 30 0 0)) = 30.
Proof.
  unfold wp_distance, distance. cbn [pos_of].
  transitivity (vec_norm [30; 0; 0]); [|apply norm_axis; lra].
  unfold vec_norm. cbn. f_equal. ring.
Qed.
Lemma no_points inv qr speed ws : solver_ok inv qr speed ws [].
Proof. intros vs times _ _ s _. unfold allowed. destruct (p_alloc _); repeat constructor; intros; repeat constructor. Qed.

(** C87: the limit given by setSpeed is not kept by the trajectory. *)
Theorem C87_limit_kept_refuted :
  forall find_roots inv qr (lineal : bool), exact_inverse inv ->
  exists (ws : list waypoint) (speed : R) (tr : trajectory),
    Forall wp_good ws /\ apart speed ws /\ float32 speed = speed /\ 0 < speed /\
    compute_trajectory find_roots inv qr [] speed lineal ws = Val tr /\
    exists t vel, 0 <= t <= t_max tr /\ traj_evaluate tr t 1 = Some vel /\ speed < vec_norm vel.
Proof.
  intros find_roots inv qr lineal HI. pose proof float32_1 as F1.
  assert (G : Forall wp_good far).
  { constructor; [apply good_drone|]. constructor; [apply good_fresh|constructor]. }
  assert (A : apart 1 far).
  { intros i a b Ha Hb. rewrite F1. pose proof eps_le_1. assert (X : wp_distance a b = 30).
    { destruct i as [|[|i]]; try discriminate.
      change (Some wd = Some a) in Ha. change (Some (fresh name_a (mkV3 30 0 0)) = Some b) in Hb.
      apply (f_equal (fun o => match o with Some x => x | None => a end)) in Ha, Hb. rewrite <- Ha, <- Hb. apply far_distance. }
    unfold wp_distance, distance in X. rewrite X. lra. }
  destruct (C77_trajectory find_roots inv qr [] 1 lineal far HI G ltac:(simpl; lia) ltac:(lra) A (no_points _ _ _ _)) as (tr & EC & _).
  exists far, 1, tr. do 2 (split; [auto|]). split; [auto|]. split; [lra|]. split; [auto|].
  apply Classical_Prop.NNPP. intros N.
  refine (C87_long_leg find_roots inv qr [] 1 lineal far tr 0 wd (fresh name_a (mkV3 30 0 0)) HI G ltac:(lra) A (no_points _ _ _ _)
    EC ltac:(auto) eq_refl eq_refl _ _).
  - left. split; [right; left; reflexivity|]. rewrite F1, far_distance. unfold A_MAX. lra.
  - rewrite F1. intros t vel Ht Ev. destruct (Rle_dec (vec_norm vel) 1) as [|Q]; auto. exfalso. apply N. exists t, vel. split; [auto|]. split; [auto|lra].
Qed.

(** A turn of 90 degrees at a waypoint in the middle. *)
Definition corner : list waypoint :=
  [wd; fresh name_a (mkV3 1 0 0); fresh name_b (mkV3 2 0 0); fresh name_c (mkV3 2 1 0); fresh name_a (mkV3 3 1 0)].
Example C87_turn_example :
  forall find_roots inv qr, exact_inverse inv -> exists tr,
    compute_trajectory find_roots inv qr [] 1 true corner = Val tr /\ ~ respects tr 1.
Proof.
  intros find_roots inv qr HI. pose proof float32_1 as F1.
  assert (G : Forall wp_good corner).
  { constructor; [apply good_drone|]. do 4 (constructor; [apply good_fresh|]). constructor. }
  assert (DS : forall i a b, nth_error corner i = Some a -> nth_error corner (S i) = Some b -> wp_distance a b = 1).
  { intros i a b Ha Hb. destruct i as [|[|[|[|[|i]]]]]; cbn in Ha, Hb; try discriminate; inversion Ha; inversion Hb; subst;
      unfold wp_distance, distance, vec_norm; cbn; (match goal with |- sqrt ?x = 1 => replace x with 1 by ring end); apply sqrt_1. }
  assert (A : apart 1 corner).
  { intros i a b Ha Hb. rewrite F1. pose proof eps_le_1. pose proof (DS i a b Ha Hb) as X. unfold wp_distance, distance in X. rewrite X. lra. }
  destruct (C77_trajectory find_roots inv qr [] 1 true corner HI G ltac:(simpl; lia) ltac:(lra) A (no_points _ _ _ _)) as (tr & EC & _).
  exists tr. split; [auto|]. rewrite <- F1.
  assert (NS : forall i n p, (S i < 5)%nat -> ~ stops corner i (fresh n p)).
  { intros i n p Hi [H|(c & H & _)]; [simpl in H; lia|discriminate]. }
  refine (C87_turn find_roots inv qr [] 1 true corner tr 1 _ _ _ HI G ltac:(lra) A (no_points _ _ _ _) EC
    ltac:(auto) eq_refl eq_refl eq_refl (NS 1%nat _ _ ltac:(lia)) (NS 2%nat _ _ ltac:(lia)) (NS 3%nat _ _ ltac:(lia)) _).
  exists 0%nat. split; [lia|]. rewrite (DS 1%nat), (DS 2%nat) by reflexivity. cbn. lra.
Qed.

(** Uniform motion for two seconds at 3 m/s: the bound of C87_needed_time is reached. *)
Definition uniform : trajectory := mkTraj 1 2 2 [mkSeg 2 2 1 [[0; 3]]].
Lemma uniform_wf : traj_wf uniform /\ positive_times uniform /\ joined uniform 1.
Proof.
  split; [split; [|cbn; ring]|split].
  - constructor; [|constructor]. split; [split; [reflexivity|constructor; [reflexivity|constructor]]|split; reflexivity].
  - constructor; [cbn; lra|constructor].
  - intros k s s' H1 H2. destruct k as [|k]; [discriminate|]. destruct k; discriminate.
Qed.
Lemma uniform_eval t d : 0 <= t <= 2 -> traj_evaluate uniform t d = Some (seg_deriv (mkSeg 2 2 1 [[0; 3]]) d t).
Proof.
  intros Ht. destruct uniform_wf as (W & P & J). replace t with (start_of uniform 0 + t) at 1 by (cbn; ring).
  destruct (Req_dec t 2) as [->|Hn]; [|apply (eval_inside uniform 0); auto; cbn; lra].
  replace (start_of uniform 0 + 2) with (start_of uniform 1) by (cbn; ring).
  apply (evaluate_end uniform 0); auto.
Qed.
Lemma norm_one x : vec_norm [x] = Rabs x.
Proof. unfold vec_norm. cbn. rewrite Rplus_0_r. apply sqrt_Rsqr_abs. Qed.
Example C87_example : respects uniform 3 /\ leg uniform 0 [0] [6] 2 /\ distance [0] [6] = 3 * 2.
Proof.
  split; [|split].
  - intros t vel Ht E. cbn [t_max uniform] in Ht. rewrite uniform_eval in E by auto. inversion E; subst vel.
    unfold seg_deriv. cbn [map s_polys]. rewrite norm_one, Derive_n_pval. cbn. rewrite Rabs_pos_eq; lra.
  - split; [cbn; lia|]. split; [cbn; ring|]. split.
    + rewrite uniform_eval by (cbn; lra). unfold seg_deriv. cbn. f_equal. list_lra.
    + rewrite uniform_eval by (cbn; lra). unfold seg_deriv. cbn. f_equal. list_lra.
  - unfold distance. cbn. rewrite norm_one, Rabs_pos_eq; lra.
Qed.
Print Assumptions C87_needed_time.
Print Assumptions C87_needed_time_at_rest.
Print Assumptions C87_no_time_to_spare.
Print Assumptions C87_no_turn.
Print Assumptions C87_durations.
Print Assumptions C87_too_short.
Print Assumptions C87_long_leg.
Print Assumptions C87_turn.
Print Assumptions C87_limit_kept_refuted.
