(** Property theorems: limits after Mellinger's time allocation (C95). *)
From Coq Require Import Reals Lra Lia List Bool ZArith Arith.
From Coquelicot Require Import Coquelicot.
From Verif Require Import Base PolyModel PolySpec PolyProofs VertexModel VertexProofs TrajModel TrajSpec TrajProofs
  TrajOpsProofs ExtremaProofs TrajFinal LinOptModel LinOptSpec LinInverse LinProofs LinCost LinFinal LinUnique PropertiesLin PropertiesLin2
  NonlinModel NonlinSpec NonlinFinal LinScale.
Import List ListNotations.
Set Bullet Behavior "Strict Subproofs".
Local Open Scope R_scope.

(** ** Specification *)

(** [resting m vs]: every derivative of order 1 .. m-1 that the vertices fix is
    fixed to zero (LinScale.v).  [determined d vs]: some vertex fixes all
    derivatives below d, or d vertices fix the position (LinScale.v). *)

(** b is the segment a played k times slower. *)
Definition slowed (k : R) (a b : segment) : Prop :=
  s_time b = s_time a * k /\ forall j t, seg_deriv b j (k * t) = map (fun v => v / k ^ j) (seg_deriv a j t).

(** Velocity and acceleration stay below the limits, up to one part in a thousand. *)
Definition within_limits (v_max a_max : R) (segs : list segment) : Prop :=
  forall s t, In s segs -> 0 <= t <= s_time s ->
    vec_norm (seg_deriv s 1 t) <= v_max * (1 + / 1000) /\ vec_norm (seg_deriv s 2 t) <= a_max * (1 + / 1000).

(** ** Lemmas *)
Lemma scale_slowed k segs : 0 < k -> Forall seg_wf segs -> Forall2 (slowed k) segs (scale_segs k segs).
Proof.
  intros Hk. induction 1 as [|s segs W F IH]; simpl; constructor; auto. split; [reflexivity|].
  intros j t. apply seg_scale_deriv; auto. lra.
Qed.
Lemma limits_slowed_1 v a s s' : Forall2 (slowed 1) s s' -> within_limits v a s <-> within_limits v a s'.
Proof.
  assert (X : forall s s', Forall2 (slowed 1) s s' -> forall y, (In y s' -> exists x, In x s /\ slowed 1 x y) /\
             (In y s -> exists x, In x s' /\ slowed 1 y x)).
  { induction 1 as [|x y l l' H F IH]; intros z; simpl; [tauto|]. split.
    - intros [<- |Hz]; [eauto|]. destruct (proj1 (IH z) Hz) as (w & A & B). eauto.
    - intros [<- |Hz]; [eauto|]. destruct (proj2 (IH z) Hz) as (w & A & B). eauto. }
  assert (Y : forall x y j t, slowed 1 x y -> s_time y = s_time x /\ seg_deriv y j t = seg_deriv x j t).
  { intros x y j t [A B]. split; [lra|]. specialize (B j t). rewrite Rmult_1_l in B. rewrite B.
    rewrite <- (map_id (seg_deriv x j t)) at 2. apply map_ext. intros r. rewrite pow1. field. }
  intros F. split; intros H y t Hy Ht.
  - destruct (proj1 (X _ _ F y) Hy) as (x & A & B). destruct (Y x y 1%nat t B) as [E1 E2], (Y x y 2%nat t B) as [_ E3].
    rewrite E2, E3. apply H; auto. rewrite <- E1. auto.
  - destruct (proj2 (X _ _ F y) Hy) as (x & A & B). destruct (Y y x 1%nat t B) as [E1 E2], (Y y x 2%nat t B) as [_ E3].
    rewrite <- E2, <- E3. apply H; auto. rewrite E1. auto.
Qed.

Section Mel.
Variables (find_roots : list R -> list croot) (inv : inverse_routine) (qr : solve_routine) (N D : nat)
  (vs : list vertex) (d : nat).
Hypotheses (V : valid_size N) (H2 : (2 <= length vs)%nat) (HR : exact_root_finder find_roots)
  (HN : (3 <= N)%nat) (HD : (1 <= D)%nat).
Notation use := (opt_use inv qr N D vs d).

(** scaleSegmentTimesWithViolation: the scaled trajectory, of which only the
    times are kept, respects the limits. *)
Lemma scale_violation_limits s v a : solved inv qr N D vs d (nl_opt s) -> limit_set s 1 v -> limit_set s 2 a ->
  exists s' k o1, scale_with_violation find_roots inv qr N s = Some s' /\ 1 <= k /\
    use o1 /\ o_times o1 = map (fun T => T * k) (o_times (nl_opt s)) /\ nl_opt s' = solve_linear qr N o1 /\
    within_limits v a (scale_segs k (o_segs (nl_opt s))) /\
    (k = 1 \/ exists sg t, In sg (scale_segs k (o_segs (nl_opt s))) /\ 0 <= t <= s_time sg /\
       (vec_norm (seg_deriv sg 1 t) = v \/ vec_norm (seg_deriv sg 2 t) = a)) /\
    (within_limits v a (o_segs (nl_opt s)) -> k = 1).
Proof.
  intros S L1 L2. pose proof (solved_use _ _ _ _ _ _ _ S) as U.
  destruct (set_segments_defined find_roots N D [] V (o_segs (nl_opt s))) as (tr & E & W & Es & EN & ED).
  { apply (use_segs_ne inv qr N D vs d H2); auto. }
  { apply (opt_use_segs _ _ _ _ _ _ _ U). }
  unfold scale_with_violation, get_trajectory. rewrite E, (limit_set_eq _ _ _ L1), (limit_set_eq _ _ _ L2).
  pose proof (solved_positive inv qr N D vs d _ S) as P.
  destruct (scale_to_constraints_spec find_roots tr v a) as (tr' & Es' & K & B & Q); auto.
  { rewrite Es. apply (use_segs_ne inv qr N D vs d H2); auto. }
  { rewrite Es. eapply Forall_impl; [|exact P]. simpl. intros; lra. }
  { lia. }
  { lia. }
  { apply L1. }
  { apply L2. }
  rewrite Es'.
  assert (HTOL : TOL = / 1000) by (unfold TOL; simpl; lra). rewrite HTOL in *.
  assert (Wf : Forall (fun s0 => seg_wf s0 /\ s_N s0 = N /\ s_D s0 = D) (o_segs (nl_opt s))) by apply (opt_use_segs _ _ _ _ _ _ _ U).
  assert (Wf' : Forall seg_wf (o_segs (nl_opt s))) by (eapply Forall_impl; [|exact Wf]; simpl; tauto).
  assert (Nm : forall k' sg j t, In sg (scale_segs k' (o_segs (nl_opt s))) \/ In sg (o_segs (nl_opt s)) ->
             norm_dims (seg_deriv sg j t) (seq 0 (t_D tr)) = vec_norm (seg_deriv sg j t)).
  { intros k' sg j t Hs.
    assert (X : seg_wf sg /\ s_D sg = D).
    { rewrite Forall_forall in Wf. destruct Hs as [Hs|Hs].
      - apply in_map_iff in Hs. destruct Hs as (s0 & <- & Hs). destruct (Wf s0 Hs) as (A & _ & A3).
        split; [now apply seg_scale_wf|exact A3].
      - destruct (Wf sg Hs) as (A & _ & A3). auto. }
    destruct X as [X1 X2]. rewrite <- norm_dims_all, length_seg_deriv, X2, ED by auto. reflexivity. }
  assert (K1 : Forall2 (slowed 1) (o_segs (nl_opt s)) (scale_segs 1 (o_segs (nl_opt s)))) by (apply scale_slowed; auto; lra).
  assert (X : exists k, 1 <= k /\ map s_time (t_segs tr') = map (fun T => T * k) (o_times (nl_opt s)) /\
      within_limits v a (scale_segs k (o_segs (nl_opt s))) /\
      (k = 1 \/ exists sg t, In sg (scale_segs k (o_segs (nl_opt s))) /\ 0 <= t <= s_time sg /\
        (vec_norm (seg_deriv sg 1 t) = v \/ vec_norm (seg_deriv sg 2 t) = a)) /\
      (within_limits v a (o_segs (nl_opt s)) -> k = 1)).
  { pose proof (solved_times inv qr N D vs d _ S) as T. destruct K as [-> | (k & Hk & -> & Tch)].
    - exists 1. split; [lra|]. split; [|split; [|split; auto]].
      + rewrite Es, T. rewrite <- (map_id (o_times (nl_opt s))) at 1. apply map_ext. intros; ring.
      + apply (limits_slowed_1 _ _ _ _ K1). rewrite Es in B. intros sg t Hs Ht.
        pose proof (B sg t Hs Ht) as Z. rewrite !(Nm 1 sg) in Z by auto. exact Z.
    - exists k. split; auto. simpl t_segs in *. rewrite Es in *. change (map (fun s0 => seg_scale s0 k (1 / k)) (o_segs (nl_opt s))) with (scale_segs k (o_segs (nl_opt s))) in *.
      split; [|split; [|split]].
      + unfold scale_segs. rewrite map_map, <- T, map_map. reflexivity.
      + intros sg t Hs Ht. pose proof (B sg t Hs Ht) as Z. rewrite !(Nm k sg) in Z by auto. exact Z.
      + right. destruct Tch as (sg & t & I & Bt & Z). exists sg, t. rewrite !(Nm k sg) in Z by auto. auto.
      + intros WL. assert (Z : traj_scale tr k = tr).
        { apply Q. intros sg t Hs Ht. rewrite !(Nm k sg) by auto. apply WL; auto. }
        assert (Z2 : map s_time (t_segs (traj_scale tr k)) = map s_time (t_segs tr)) by (rewrite Z; reflexivity).
        simpl in Z2. rewrite Es in Z2. rewrite map_map in Z2.
        destruct (o_segs (nl_opt s)) as [|s0 ss] eqn:Eo; [exfalso; eapply (use_segs_ne inv qr N D vs d H2); eauto|].
        simpl in Z2. injection Z2 as Z2 _. inversion P; subst. apply Rmult_eq_reg_l with (s_time s0); lra. }
  destruct X as (k & Hk & X & BL & BT & BQ). rewrite X.
  assert (G : good_times vs (map (fun T => T * k) (o_times (nl_opt s)))).
  { split; [rewrite map_length; apply (use_times_len _ _ _ _ _ _ _ U)|].
    apply Forall_forall. intros y Hy. apply in_map_iff in Hy. destruct Hy as (T & <- & HT).
    pose proof (rd_pos _ _ _ _ _ _ (opt_use_ready _ _ _ _ _ _ _ U)) as Pt. rewrite Forall_forall in Pt.
    specialize (Pt T HT). nra. }
  destruct (update_defined inv qr N D vs d H2 _ _ U G) as (o1 & -> & U1 & E1).
  eexists _, k, o1. split; [reflexivity|]. simpl. auto 10.
Qed.
End Mel.

(** ** C95 *)

(** C95: when all fixed derivatives are zero and the optimum is unique,
    multiplying all segment times by k slows the optimal trajectory down by
    exactly k: same path, velocity divided by k, acceleration by k^2, ... *)
Theorem C95_scaled_times :
  forall (inv : inverse_routine) (qr : solve_routine) (N D : nat) (vs : list vertex) (d : nat) (o o' : opt) (k : R),
  exact_inverse inv -> exact_solver qr -> valid_size N -> (2 <= length vs)%nat -> vertices_dim D vs ->
  opt_use inv qr N D vs d o -> opt_use inv qr N D vs d o' ->
  usable_times (o_times o) -> usable_times (o_times o') -> 0 < k -> o_times o' = map (fun T => T * k) (o_times o) ->
  resting (N / 2) vs -> determined d vs ->
  Forall2 (slowed k) (o_segs (solve_linear qr N o)) (o_segs (solve_linear qr N o')).
Proof.
  intros inv qr N D vs d o o' k HI HQ V H2 VD U U' UT UT' Hk HT Rs Q.
  rewrite (scaled_segs inv qr N D vs d o o' k HI HQ V H2 VD U U' UT UT' Hk HT Rs Q).
  apply scale_slowed; auto. destruct (solve_interpolates inv qr N D vs d o HI V VD U UT) as [I _].
  destruct I as (_ & _ & F & _). eapply Forall_impl; [|exact F]. simpl. tauto.
Qed.
(** C95: the optimal cost falls with the (2d-1)-th power of the factor, also
    when the optimum is not unique. *)
Theorem C95_scaled_cost :
  forall (inv : inverse_routine) (qr : solve_routine) (N D : nat) (vs : list vertex) (d : nat) (o o' : opt) (k : R),
  exact_inverse inv -> exact_solver qr -> valid_size N -> (2 <= length vs)%nat -> vertices_dim D vs ->
  opt_use inv qr N D vs d o -> opt_use inv qr N D vs d o' ->
  usable_times (o_times o) -> usable_times (o_times o') -> 0 < k -> o_times o' = map (fun T => T * k) (o_times o) ->
  resting (N / 2) vs ->
  compute_cost N (solve_linear qr N o') * k ^ (2 * d) = compute_cost N (solve_linear qr N o) * k.
Proof.
  intros inv qr N D vs d o o' k HI HQ V H2 VD U U' UT UT' Hk HT Rs.
  rewrite (cost_energy_use inv qr N D vs d o (solve_linear qr N o) V U) by eauto.
  rewrite (cost_energy_use inv qr N D vs d o' (solve_linear qr N o') V U') by eauto.
  rewrite (scaled_energy inv qr N D vs d o o' k HI HQ V H2 VD U U' UT UT' Hk HT Rs).
  rewrite !Rmult_assoc. f_equal. rewrite <- Rpow_mult_distr. replace (1 / k * k) with 1 by (field; lra). rewrite pow1. ring.
Qed.

(** C95: Mellinger's method, for vertices at rest: the result is the optimal
    trajectory for the last times tried, slowed down by the smallest factor
    that brings velocity and acceleration below the limits of the last
    maximum-magnitude constraints of order 1 and 2. *)
Theorem C95_mellinger_limits :
  forall find_roots inv qr (N D : nat) (p : nl_params) (vs : list vertex) (times : list R) (d : nat)
         (s : nonlin) (xs : list (list R)) (x : list R) (v_max a_max : R),
  exact_inverse inv -> exact_solver qr -> exact_root_finder find_roots ->
  valid_size N -> (3 <= N)%nat -> (1 <= D)%nat -> vertices_dim D vs -> (2 <= length vs)%nat ->
  configured inv N D p vs times d s -> orders_ok N s -> usable_times times -> p_alloc p = MellingerOuterLoop ->
  limit_set s 1 v_max -> limit_set s 2 a_max -> allowed qr N s (xs ++ [x]) ->
  resting (N / 2) vs -> determined d vs ->
  exists s' k o, optimize find_roots inv qr N (xs ++ [x]) false s = Val s' /\ 1 <= k /\
    opt_use inv qr N D vs d o /\ o_times o = x /\
    Forall2 (slowed k) (o_segs (solve_linear qr N o)) (o_segs (nl_opt s')) /\
    within_limits v_max a_max (o_segs (nl_opt s')) /\
    (within_limits v_max a_max (o_segs (solve_linear qr N o)) -> k = 1) /\
    (k = 1 \/ exists sg t, In sg (o_segs (nl_opt s')) /\ 0 <= t <= s_time sg /\
       (vec_norm (seg_deriv sg 1 t) = v_max \/ vec_norm (seg_deriv sg 2 t) = a_max)).
Proof.
  intros find_roots inv qr N D p vs times d s xs x v a HI HQ HR V HN HD VD H2 C OK UT Al L1 L2 A Rs Q.
  destruct (mellinger_run inv qr N D vs d p times H2 _ s C Al A OK) as (sa & Ea & Ua & Pa & Ca & Ia & _ & Oa).
  destruct (Oa xs x eq_refl) as (Sa & Ta & Ga & Na & oa & Uoa & Toa & Qa).
  assert (Ep : p_alloc (nl_params_ s) = MellingerOuterLoop).
  { destruct (configured_use inv qr N D vs d p times s C) as (_ & _ & -> & _). auto. }
  unfold optimize. rewrite (configured_same inv qr N D vs d p times s C), Ep, Ea.
  assert (L1' : limit_set sa 1 v) by (destruct L1 as (? & ?); split; auto; rewrite Ca; auto).
  assert (L2' : limit_set sa 2 a) by (destruct L2 as (? & ?); split; auto; rewrite Ca; auto).
  destruct (scale_violation_limits find_roots inv qr N D vs d V H2 HR HN HD sa v a Sa L1' L2') as
    (s' & k & o1 & Es & Hk & U1 & T1 & Q1 & B1 & B2 & B3).
  rewrite Es. exists s', k, oa. split; [reflexivity|]. split; auto. split; auto. split; auto.
  assert (UTa : usable_times x) by (eapply not_below_usable; eauto).
  assert (UT1 : usable_times (o_times o1)).
  { rewrite T1, Ta. unfold usable_times in *. rewrite Forall_map. eapply Forall_impl; [|exact UTa]. simpl. intros T HT.
    pose proof (usable_positive [T] ltac:(constructor; auto)) as PT. inversion PT; subst. nra. }
  assert (X : o_segs (nl_opt s') = scale_segs k (o_segs (solve_linear qr N oa))).
  { rewrite Q1. apply (scaled_segs inv qr N D vs d oa o1 k); auto; try lra; try (rewrite Toa; auto).
    rewrite T1, Ta. reflexivity. }
  rewrite Qa in B1, B2, B3. rewrite X. split; [|auto].
  apply scale_slowed; [lra|]. destruct (opt_use_segs _ _ _ _ _ _ _ (use_solve _ _ _ _ _ _ _ Uoa)) as [_ F].
  eapply Forall_impl; [|exact F]. simpl. tauto.
Qed.
Print Assumptions C95_scaled_times.
Print Assumptions C95_scaled_cost.
Print Assumptions C95_mellinger_limits.

(** Two vertices passed at speed 1, against the direction of travel. *)
Definition moving : list vertex := [mkVertex 1 [(0%nat, [0]); (1%nat, [-1])]; mkVertex 1 [(0%nat, [10]); (1%nat, [-1])]].
Definition mellinger_params : nl_params := mkParams MellingerOuterLoop 500 true 100.

Lemma cubic_0 a b c e t : Derive_n (pval [a; b; c; e]) 0 t = a + b * t + c * t ^ 2 + e * t ^ 3.
Proof. simpl. ring. Qed.
Lemma cubic_1 a b c e t : Derive_n (pval [a; b; c; e]) 1 t = b + 2 * c * t + 3 * e * t ^ 2.
Proof. rewrite Derive_n_pval. cbn. ring. Qed.
Lemma cubic_2 a b c e t : Derive_n (pval [a; b; c; e]) 2 t = 2 * c + 6 * e * t.
Proof. rewrite Derive_n_pval. cbn. ring. Qed.
Lemma norm_one x : vec_norm [x] = Rabs x.
Proof. unfold vec_norm. simpl. rewrite Rplus_0_r. apply sqrt_Rsqr_abs. Qed.

(** The only trajectory of four coefficients through the two vertices. *)
Lemma moving_segs T segs : 0 < T -> interpolates 4 1 moving [T] segs ->
  exists s c e, segs = [s] /\ s_time s = T /\ s_polys s = [[0; -1; c; e]] /\
    - T + c * T ^ 2 + e * T ^ 3 = 10 /\ -1 + 2 * c * T + 3 * e * T ^ 2 = -1.
Proof.
  intros HT (ET & _ & F & I). destruct segs as [|s [|? ?]]; try discriminate. simpl in ET. injection ET as ET.
  inversion F as [|? ? ((W1 & W2) & EN & ED) _]; subst.
  destruct (s_polys s) as [|q [|? ?]] eqn:Ep; simpl in W1; try congruence; try lia.
  rewrite EN in W2. inversion W2 as [|? ? Lq _]; subst.
  destruct q as [|a [|b [|c [|e [|? ?]]]]]; simpl in Lq; try discriminate.
  pose proof (I 0%nat s _ _ eq_refl eq_refl eq_refl) as J. unfold moving in J.
  destruct (J 0%nat [0] ltac:(simpl; lia)) as [J0 _]. specialize (J0 eq_refl).
  destruct (J 0%nat [10] ltac:(simpl; lia)) as [_ J1]. specialize (J1 eq_refl).
  destruct (J 1%nat [-1] ltac:(simpl; lia)) as [J2 J3]. specialize (J2 eq_refl). specialize (J3 eq_refl).
  unfold seg_deriv in *. rewrite Ep in *. cbn [map] in *. rewrite cubic_0 in J0, J1. rewrite cubic_1 in J2, J3.
  injection J0 as J0. injection J1 as J1. injection J2 as J2. injection J3 as J3.
  assert (a = 0) by lra. assert (b = -1) by lra. subst a b.
  exists s, c, e. split; [reflexivity|]. split; [reflexivity|]. split; [exact Ep|]. split; lra.
Qed.

Lemma limit_configured inv N D vs times d v a : 0 < v -> 0 < a ->
  (d <= N / 2 - 1)%nat -> length vs = S (length times) -> Forall (fun T => 0 < T) times ->
  exists s, configured inv N D mellinger_params vs times d s /\ nl_cons s = [mkCD 1 v; mkCD 2 a] /\
    limit_set s 1 v /\ limit_set s 2 a.
Proof.
  intros Hv Ha H1 H2 H3. destruct (proj2 (setup_defined inv N D vs times d) (conj H1 (conj H2 H3))) as (o & E).
  set (s0 := mkNL o mellinger_params [] info_new).
  assert (C0 : configured inv N D mellinger_params vs times d s0) by (constructor; unfold nl_setup; now rewrite E).
  set (s1 := mkNL o mellinger_params [mkCD 1 v] info_new).
  assert (C1 : configured inv N D mellinger_params vs times d s1).
  { apply (conf_add _ _ _ _ _ _ _ 1 v s0); auto. unfold add_max_constraint.
    replace (Rltb v 0) with false by (symmetry; apply Rltb_false; lra). reflexivity. }
  exists (mkNL o mellinger_params [mkCD 1 v; mkCD 2 a] info_new). split; [|split; [reflexivity|split]].
  - apply (conf_add _ _ _ _ _ _ _ 2 a s1); auto. unfold add_max_constraint.
    replace (Rltb a 0) with false by (symmetry; apply Rltb_false; lra). reflexivity.
  - split; auto. exists [], (mkCD 1 v), [mkCD 2 a]. simpl. split; auto. split; auto. split; auto.
    constructor; [simpl; lia|constructor].
  - split; auto. exists [mkCD 1 v], (mkCD 2 a), []. simpl. auto.
Qed.

(** C95 (negative): with a vertex passed at non-zero velocity the limit need not
    hold, although the velocities at the vertices are half the limit: the
    times are scaled for a trajectory that is then computed anew. *)
Theorem C95_moving_vertices_refuted :
  forall find_roots inv qr, exact_inverse inv -> exact_root_finder find_roots ->
  exists s s' sg t, configured inv 4 1 mellinger_params moving [1] 1 s /\ limit_set s 1 2 /\ limit_set s 2 1000 /\
    allowed qr 4 s [[1]] /\ optimize find_roots inv qr 4 [[1]] false s = Val s' /\
    In sg (o_segs (nl_opt s')) /\ 0 <= t <= s_time sg /\ 12 / 10 * 2 < vec_norm (seg_deriv sg 1 t).
Proof.
  intros find_roots inv qr HI HR.
  assert (V : valid_size 4) by (split; [lia|reflexivity]).
  assert (H2 : (2 <= length moving)%nat) by (simpl; lia).
  assert (VD : vertices_dim 1 moving).
  { repeat (apply Forall_cons; [split; [reflexivity|]; intros [|[|k]] c H; simpl in H; try discriminate; injection H as <-; reflexivity|]).
    apply Forall_nil. }
  destruct (limit_configured inv 4 1 moving [1] 1 2 1000) as (s & C & Ec & L1 & L2);
    [lra|lra|simpl; lia|reflexivity|constructor; [lra|constructor]|].
  destruct (configured_use inv qr _ _ _ _ _ _ _ C) as (U & Et & Ep & _).
  assert (A : allowed qr 4 s [[1]]).
  { unfold allowed. rewrite Ep, Et. simpl. unfold nlopt_run, time_bounds. simpl.
    assert (B : in_bounds [(TIME_LOWER, DBL_MAX)] [1]).
    { constructor; [|constructor]. simpl. unfold TIME_LOWER. split; [lra|]. left. apply small_lt_DBL_MAX. lra. }
    split; [constructor; auto|tauto]. }
  assert (OK : orders_ok 4 s).
  { unfold orders_ok. rewrite Ec. repeat (constructor; [simpl; lia|]). constructor. }
  destruct (mellinger_run inv qr 4 1 moving 1 mellinger_params [1] H2 _ s C eq_refl A OK) as (sa & Ea & Ua & Pa & Ca & Ia & _ & Oa).
  destruct (Oa [] [1] eq_refl) as (Sa & Ta & Ga & Na & oa & Uoa & Toa & Qa).
  assert (L1' : limit_set sa 1 2) by (destruct L1 as (? & ?); split; auto; rewrite Ca; auto).
  assert (L2' : limit_set sa 2 1000) by (destruct L2 as (? & ?); split; auto; rewrite Ca; auto).
  destruct (scale_violation_limits find_roots inv qr 4 1 moving 1 V H2 HR ltac:(lia) ltac:(lia) sa 2 1000 Sa L1' L2') as
    (s' & k & o1 & Es & Hk & U1 & T1 & Q1 & B1 & B2 & B3).
  assert (UT : usable_times [1]).
  { constructor; [|constructor]. unfold DBL_EPS. apply (Rle_trans _ (/ 1)); [|lra].
    apply Rinv_le_contravar; [lra|]. rewrite <- (pow1 52). apply pow_incr. lra. }
  rewrite Qa in B1, B2.
  destruct (solve_interpolates inv qr 4 1 moving 1 oa HI V VD Uoa ltac:(rewrite Toa; exact UT)) as [I _].
  rewrite Toa in I. destruct (moving_segs 1 _ ltac:(lra) I) as (sg0 & c & e & E0 & Tm & Pl & G1 & G2).
  assert (c = 33 /\ e = -22) as [-> ->] by (split; lra).
  rewrite E0 in B1, B2. simpl in B1, B2.
  assert (W : seg_wf sg0).
  { destruct I as (_ & _ & F & _). rewrite E0 in F. inversion F; tauto. }
  assert (Dv : forall j t, seg_deriv (seg_scale sg0 k (1 / k)) j (k * t) = [Derive_n (pval [0; -1; 33; -22]) j t / k ^ j]).
  { intros j t. rewrite seg_scale_deriv by (auto; lra). unfold seg_deriv. rewrite Pl. reflexivity. }
  assert (K : k <= 775 / 100).
  { destruct B2 as [-> | (sg & t & [<- | []] & Bt & Z)]; [lra|]. simpl s_time in Bt. rewrite Tm in Bt.
    replace t with (k * (t / k)) in Z by (field; lra). rewrite !Dv, !norm_one, cubic_1, cubic_2 in Z.
    set (u := t / k) in *. assert (Hu : 0 <= u <= 1).
    { unfold u. split; [apply Rmult_le_pos; [lra|left; apply Rinv_0_lt_compat; lra]|].
      apply Rmult_le_reg_r with k; [lra|]. unfold Rdiv. rewrite Rmult_assoc, Rinv_l; lra. }
    assert (P1 : 0 < k ^ 1) by (apply pow_lt; lra). assert (P2 : 0 < k ^ 2) by (apply pow_lt; lra).
    unfold Rdiv in Z. rewrite !Rabs_mult, (Rabs_pos_eq (/ k ^ 1)), (Rabs_pos_eq (/ k ^ 2)) in Z by (left; apply Rinv_0_lt_compat; auto).
    destruct Z as [Z|Z].
    - assert (Z' : Rabs (-1 + 2 * 33 * u + 3 * -22 * u ^ 2) = 2 * k).
      { apply Rmult_eq_reg_r with (/ k ^ 1); [|apply Rinv_neq_0_compat; lra]. rewrite Z. field. lra. }
      assert (Rabs (-1 + 2 * 33 * u + 3 * -22 * u ^ 2) <= 155 / 10); [|lra].
      apply Rabs_le. pose proof (pow2_ge_0 (u - 1 / 2)). split; nra.
    - assert (Z' : Rabs (2 * 33 + 6 * -22 * u) = 1000 * k ^ 2).
      { apply Rmult_eq_reg_r with (/ k ^ 2); [|apply Rinv_neq_0_compat; lra]. rewrite Z. field. lra. }
      assert (Rabs (2 * 33 + 6 * -22 * u) <= 66) by (apply Rabs_le; split; lra).
      assert (1 <= k ^ 2) by (simpl; nra). lra. }
  assert (UT1 : usable_times (o_times o1)).
  { rewrite T1, Ta. simpl. constructor; [|constructor]. inversion UT; subst. lra. }
  destruct (solve_interpolates inv qr 4 1 moving 1 o1 HI V VD U1 UT1) as [I1 _].
  assert (TT : o_times o1 = [k]) by (rewrite T1, Ta; simpl; f_equal; ring). rewrite TT in I1.
  destruct (moving_segs k _ ltac:(lra) I1) as (sg & c & e & E1 & Tm1 & Pl1 & G3 & G4).
  exists s, s', sg, (k / 2). split; auto. split; auto. split; auto. split; auto. split.
  - unfold optimize. rewrite (configured_same inv qr _ _ _ _ _ _ s C), Ep. cbn [p_alloc mellinger_params]. rewrite Ea, Es. reflexivity.
  - rewrite Q1, E1. split; [left; reflexivity|]. rewrite Tm1. split; [lra|].
    unfold seg_deriv. rewrite Pl1. cbn [map]. rewrite norm_one, cubic_1.
    apply Rlt_le_trans with (-1 + 2 * c * (k / 2) + 3 * e * (k / 2) ^ 2); [|apply Rle_abs].
    apply Rmult_lt_reg_r with k; [lra|]. 
    replace ((-1 + 2 * c * (k / 2) + 3 * e * (k / 2) ^ 2) * k) with (15 + k / 2); [lra|].
    assert (c * k ^ 2 = 10 + k - e * k ^ 3) by lra.
    assert (X : 2 * (c * k ^ 2) + 3 * (e * k ^ 3) = 0) by (replace (2 * (c * k ^ 2) + 3 * (e * k ^ 3)) with ((-1 + 2 * c * k + 3 * e * k ^ 2 + 1) * k) by ring; rewrite G4; ring).
    replace ((-1 + 2 * c * (k / 2) + 3 * e * (k / 2) ^ 2) * k) with (- k + (c * k ^ 2) + 3 / 4 * (e * k ^ 3)) by field. lra.
Qed.
Print Assumptions C95_moving_vertices_refuted.
Example C95_example :
  forall inv qr, exists s x, configured inv 10 3 mellinger_params three_vertices [1; 2] 2 s /\
    orders_ok 10 s /\ usable_times [1; 2] /\ limit_set s 1 1 /\ limit_set s 2 5 /\ allowed qr 10 s ([] ++ [x]) /\
    resting (10 / 2) three_vertices /\ determined 2 three_vertices /\ vertices_dim 3 three_vertices.
Proof.
  intros inv qr.
  destruct (limit_configured inv 10 3 three_vertices [1; 2] 2 1 5) as (s & C & Ec & L1 & L2);
    [lra|lra|simpl; lia|reflexivity|repeat (constructor; [lra|]); constructor|].
  destruct (configured_use inv qr _ _ _ _ _ _ _ C) as (U & Et & Ep & _).
  exists s, [1; 2]. split; auto. split.
  { unfold orders_ok. rewrite Ec. repeat (constructor; [simpl; lia|]). constructor. }
  split.
  { assert (DBL_EPS <= 1).
    { unfold DBL_EPS. apply (Rle_trans _ (/ 1)); [|lra].
      apply Rinv_le_contravar; [lra|]. rewrite <- (pow1 52). apply pow_incr. lra. }
    repeat (constructor; [lra|]). constructor. }
  split; auto. split; auto. split.
  { unfold allowed. rewrite Ep, Et. simpl. unfold nlopt_run, time_bounds. simpl.
    assert (B : in_bounds [(TIME_LOWER, DBL_MAX); (TIME_LOWER, DBL_MAX)] [1; 2]).
    { apply Forall2_cons; [|apply Forall2_cons; [|apply Forall2_nil]]; (simpl; unfold TIME_LOWER; split; [lra|]; left; apply small_lt_DBL_MAX; lra). }
    split; [constructor; auto|tauto]. }
  split; [|split; [|exact three_vertices_dim]].
  - intros v k c Hv Hk H. simpl in Hv. 
    destruct Hv as [<- |[<- |[<- |[]]]]; destruct k as [|[|[|[|[|k]]]]]; cbn in H; try lia; try discriminate; injection H as <-; repeat constructor.
  - left. exists 0%nat, (nth 0 three_vertices (vertex_new 3)). split; [reflexivity|].
    intros [|[|k]] Hk; [eexists; reflexivity|eexists; reflexivity|lia].
Qed.
