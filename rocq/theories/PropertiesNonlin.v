(** Property theorems: the nonlinear optimiser (C57, C58, C72-C76).
    [find_roots], [inv] and [qr] stand for the polynomial root finder, Eigen's
    dense inverse and Eigen's sparse QR solver; [xs] is the list of points at
    which NLopt evaluates the objective, restricted by [allowed]. *)
From Coq Require Import Reals Lra Lia List Bool ZArith Arith.
From Coquelicot Require Import Coquelicot.
From Verif Require Import Base PolyModel PolySpec PolyProofs VertexModel VertexProofs TrajModel TrajSpec
  LinOptModel LinOptSpec LinReorder LinProofs LinFinal PropertiesLin NonlinModel NonlinSpec NonlinProofs NonlinFinal.
Import List ListNotations.
Set Bullet Behavior "Strict Subproofs".
Local Open Scope R_scope.

(** The parameters used by the trajectory generator (dynamic_trajectory.cpp:325-333
    and the defaults of the header). *)
Definition generator_params : nl_params := mkParams SquaredTimeAndConstraints 1000 true 100.

Lemma valid_10 : valid_size 10.
Proof. split; [lia|reflexivity]. Qed.

(** ** C57 *)

(** C57: the soft-constraint cost is defined in every state of the optimiser
    and lies between 0 and the number of constraints times the maximum. *)
Theorem C57_bounded :
  forall find_roots inv qr (N D : nat) (vs : list vertex) (d : nat) (o : opt) (weight maximum : R)
         (cs : list con_data),
  (2 <= length vs)%nat -> opt_use inv qr N D vs d o ->
  Forall (fun c => (cd_deriv c + 1 < N)%nat) cs -> 0 <= maximum ->
  exists v, soft_cost find_roots N o weight maximum cs = Val v /\ 0 <= v <= INR (length cs) * maximum.
Proof.
  intros find_roots inv qr N D vs d o w mx cs H2 U F Hm.
  destruct (soft_cost_defined find_roots N o w mx cs) as (v & E); auto.
  - apply (use_segs_ne inv qr N D vs d H2); auto.
  - destruct (opt_use_segs _ _ _ _ _ _ _ U) as [_ G]. eapply Forall_impl; [|exact G]. simpl. tauto.
  - exists v. split; auto. eapply soft_cost_bounds; eauto.
Qed.

(** A solution of the optimiser: free constraints given or solved for. *)
Definition solution inv qr (N D : nat) (vs : list vertex) (d : nat) (o : opt) : Prop :=
  exists o0, opt_use inv qr N D vs d o0 /\
    ((exists dp, set_free N dp o0 = Some o) \/ o = solve_linear qr N o0).

Lemma solution_solved inv qr N D vs d o : solution inv qr N D vs d o -> solved inv qr N D vs d o.
Proof.
  intros (o0 & U & [(dp & E)| ->]); exists o0; split; auto.
  - split; eauto. destruct (set_free_inv _ _ _ _ E) as (-> & _). reflexivity.
  - split; auto. apply solve_times.
Qed.

(** C57: its value, from the true maxima M of the constrained derivatives. *)
Theorem C57_value :
  forall find_roots inv qr (N D : nat) (vs : list vertex) (d : nat) (o : opt) (weight maximum : R)
         (cs : list con_data) (M : nat -> R),
  exact_root_finder find_roots -> (1 <= D)%nat -> (2 <= length vs)%nat ->
  solution inv qr N D vs d o -> Forall (fun c => (cd_deriv c + 1 < N)%nat) cs ->
  Forall (fun c => max_norm (o_segs o) (cd_deriv c) (M (cd_deriv c))) cs ->
  soft_cost find_roots N o weight maximum cs =
  Val (lsum (map (fun c => Rmin maximum (exp ((M (cd_deriv c) - cd_value c) / cd_value c * weight))) cs)).
Proof.
  intros find_roots inv qr N D vs d o w mx cs M HR HD H2 S F FM. apply solution_solved in S.
  pose proof (solved_use _ _ _ _ _ _ _ S) as U. destruct (opt_use_segs _ _ _ _ _ _ _ U) as [L W].
  apply (soft_cost_value find_roots N D o w mx cs M HR HD); auto.
  - apply (use_segs_ne inv qr N D vs d H2); auto.
  - rewrite (use_vertices inv qr N D vs d o U), L. symmetry. apply (use_times_len inv qr N D vs d o U).
  - eapply Forall_impl; [|exact (solved_positive inv qr N D vs d o S)]. simpl. intros; lra.
Qed.
(** C57: a solution with larger maxima does not cost less. *)
Theorem C57_monotone :
  forall find_roots inv qr (N D : nat) (vs vs' : list vertex) (d d' : nat) (o o' : opt) (weight maximum : R)
         (cs : list con_data) (M M' : nat -> R) (v v' : R),
  exact_root_finder find_roots -> (1 <= D)%nat -> (2 <= length vs)%nat -> (2 <= length vs')%nat ->
  solution inv qr N D vs d o -> solution inv qr N D vs' d' o' ->
  0 <= weight -> Forall (fun c => (cd_deriv c + 1 < N)%nat /\ 0 < cd_value c) cs ->
  Forall (fun c => max_norm (o_segs o) (cd_deriv c) (M (cd_deriv c)) /\
                   max_norm (o_segs o') (cd_deriv c) (M' (cd_deriv c)) /\
                   M (cd_deriv c) <= M' (cd_deriv c)) cs ->
  soft_cost find_roots N o weight maximum cs = Val v -> soft_cost find_roots N o' weight maximum cs = Val v' ->
  v <= v'.
Proof.
  intros find_roots inv qr N D vs vs' d d' o o' w mx cs M M' v v' HR HD H2 H2' S S' Hw F FM E E'.
  assert (F1 : Forall (fun c => (cd_deriv c + 1 < N)%nat) cs) by (eapply Forall_impl; [|exact F]; simpl; tauto).
  rewrite (C57_value find_roots inv qr N D vs d o w mx cs M) in E; auto;
    [|eapply Forall_impl; [|exact FM]; simpl; tauto].
  rewrite (C57_value find_roots inv qr N D vs' d' o' w mx cs M') in E'; auto;
    [|eapply Forall_impl; [|exact FM]; simpl; tauto].
  assert (EE : v = lsum (map (fun c => soft_term mx w (M (cd_deriv c)) (cd_value c)) cs)) by (inversion E; reflexivity).
  assert (EE' : v' = lsum (map (fun c => soft_term mx w (M' (cd_deriv c)) (cd_value c)) cs)) by (inversion E'; reflexivity).
  rewrite EE, EE'. clear - F FM Hw. induction cs as [|c cs IH]; simpl; [lra|].
  inversion F as [|? ? [_ P] F']; subst. inversion FM as [|? ? (_ & _ & Le) FM']; subst.
  specialize (IH F' FM'). pose proof (soft_term_mono mx w _ _ (cd_value c) Hw P Le). lra.
Qed.
(** C57: a constraint costs at most 1 if it is respected, more if it is violated. *)
Theorem C57_threshold :
  forall find_roots inv qr (N D : nat) (vs : list vertex) (d : nat) (o : opt) (weight maximum : R)
         (c : con_data) (M v : R),
  exact_root_finder find_roots -> (1 <= D)%nat -> (2 <= length vs)%nat ->
  solution inv qr N D vs d o -> 0 < weight -> 1 < maximum -> (cd_deriv c + 1 < N)%nat -> 0 < cd_value c ->
  max_norm (o_segs o) (cd_deriv c) M -> soft_cost find_roots N o weight maximum [c] = Val v ->
  (v <= 1 <-> M <= cd_value c).
Proof.
  intros find_roots inv qr N D vs d o w mx c M v HR HD H2 S Hw Hm Hd HL HM E.
  rewrite (C57_value find_roots inv qr N D vs d o w mx [c] (fun _ => M)) in E; auto.
  assert (EE : v = soft_term mx w M (cd_value c) + 0) by (inversion E; reflexivity).
  rewrite EE. split; intros H.
  - apply Rnot_lt_le. intros X. pose proof (soft_term_violated mx w M (cd_value c) Hm Hw HL X). lra.
  - pose proof (soft_term_respected mx w M (cd_value c)). lra.
Qed.
Print Assumptions C57_bounded.
Print Assumptions C57_value.
Print Assumptions C57_monotone.
Print Assumptions C57_threshold.

(** ** C74 *)

(** C74: computeMaximumOfMagnitude returns the maximum over the whole
    trajectory, and where it is attained. *)
Theorem C74_maximum :
  forall find_roots inv qr (N D : nat) (vs : list vertex) (d : nat) (o : opt) (k : nat),
  exact_root_finder find_roots -> (1 <= D)%nat -> (2 <= length vs)%nat ->
  solution inv qr N D vs d o -> (k + 1 < N)%nat ->
  exists e s, max_of_magnitude find_roots N k o = Val e /\ max_norm (o_segs o) k (e_value e) /\
    nth_error (o_segs o) (e_seg e) = Some s /\ 0 <= e_time e <= s_time s /\
    vec_norm (seg_deriv s k (e_time e)) = e_value e.
Proof.
  intros find_roots inv qr N D vs d o k HR HD H2 S Hk. apply solution_solved in S.
  pose proof (solved_use _ _ _ _ _ _ _ S) as U. destruct (opt_use_segs _ _ _ _ _ _ _ U) as [L W].
  apply (max_of_magnitude_spec find_roots N k D o HR Hk HD); auto.
  - apply (use_segs_ne inv qr N D vs d H2); auto.
  - rewrite (use_vertices inv qr N D vs d o U), L. symmetry. apply (use_times_len inv qr N D vs d o U).
  - eapply Forall_impl; [|exact (solved_positive inv qr N D vs d o S)]. simpl. intros; lra.
Qed.
(** C74: for the highest two derivatives the check in the candidate search aborts. *)
Theorem C74_high_orders :
  forall find_roots (N k : nat) (o : opt), (N <= k + 1)%nat -> max_of_magnitude find_roots N k o = Undef.
Proof.
  intros find_roots N k o H. unfold max_of_magnitude. destruct (Nat.ltb_spec (k + 1) N); [lia|reflexivity].
Qed.
Print Assumptions C74_maximum.
Print Assumptions C74_high_orders.

(** ** C58 *)

Section Examples.
Variables (inv : inverse_routine) (qr : solve_routine).

(** A configuration as in the trajectory generator: two limits. *)
Lemma generator_configured vs times : length vs = S (length times) -> Forall (fun T => 0 < T) times ->
  exists s, configured inv 10 3 generator_params vs times 2 s /\ orders_ok 10 s /\
    nl_cons s = [mkCD 1 1; mkCD 2 5].
Proof.
  intros L P.
  assert (S : exists o, setup inv 10 3 vs times 2 = Some o).
  { apply setup_defined. split; [simpl; lia|]. auto. }
  destruct S as (o & S).
  assert (C0 : configured inv 10 3 generator_params vs times 2 (mkNL o generator_params [] info_new)).
  { apply conf_setup. unfold nl_setup. rewrite S. reflexivity. }
  assert (C1 : configured inv 10 3 generator_params vs times 2 (mkNL o generator_params [mkCD 1 1] info_new)).
  { eapply (conf_add _ _ _ _ _ _ _ 1 1); [exact C0|]. unfold add_max_constraint. rcase; [lra|reflexivity]. }
  exists (mkNL o generator_params [mkCD 1 1; mkCD 2 5] info_new). split; [|split; [|reflexivity]].
  - eapply (conf_add _ _ _ _ _ _ _ 2 5); [exact C1|]. unfold add_max_constraint. rcase; [lra|reflexivity].
  - repeat constructor; simpl; lia.
Qed.
End Examples.

(** C58: the bounds computed for the full problem contain the initial
    solution, and widen positive segment times only. *)
Theorem C58_initial_guess_admitted :
  forall inv qr (N D : nat) (p : nl_params) (vs : list vertex) (times : list R) (d : nat) (s : nonlin),
  valid_size N -> (2 <= length vs)%nat -> configured inv N D p vs times d s ->
  exists s1 x0 b, full_problem qr N s = Some (s1, x0, b) /\ in_bounds b x0 /\
    firstn (length times) x0 = times /\
    forall x, in_bounds b x ->
      length x = length x0 /\ Forall2 (fun T T' => Rmin (1 / 10) T <= T') times (firstn (length times) x) /\
      Forall (fun T => 0 < T) (firstn (length times) x).
Proof.
  intros inv qr N D p vs times d s V H2 C.
  destruct (configured_use inv qr N D vs d p times s C) as (U & Et & _).
  destruct (full_problem_defined inv qr N D vs d V H2 s U) as (s1 & x0 & b & E & _ & X & B & _).
  exists s1, x0, b. split; auto. split; auto.
  assert (Lt : length times = (length vs - 1)%nat).
  { pose proof (use_times_len inv qr N D vs d _ U). rewrite Et in H. lia. }
  split.
  - rewrite X, Et, firstn_app, firstn_all, Nat.sub_diag, firstn_O, app_nil_r. reflexivity.
  - intros x Bx. destruct (full_bounds_good inv qr N D vs d times V H2 s s1 x0 b x U Et E Bx) as [[[_ Px] _] Nx].
    rewrite <- (in_bounds_length _ _ Bx), (in_bounds_length _ _ B). rewrite Lt. auto.
Qed.
(** C58: so no run of NLopt makes the objective fail, and the segment times
    stay positive: none is smaller than 0.1 s or its initial value. *)
Theorem C58_times_positive :
  forall find_roots inv qr (N D : nat) (p : nl_params) (vs : list vertex) (times : list R) (d : nat)
         (s : nonlin) (xs : list (list R)) (aborted : bool),
  valid_size N -> (2 <= length vs)%nat -> configured inv N D p vs times d s -> orders_ok N s ->
  p_alloc p <> MellingerOuterLoop -> allowed qr N s xs ->
  exists s', optimize find_roots inv qr N xs aborted s = Val s' /\
    Forall2 (fun T T' => Rmin (1 / 10) T <= T') times (o_times (nl_opt s')) /\
    Forall (fun T => 0 < T) (o_times (nl_opt s')).
Proof.
  intros find_roots inv qr N D p vs times d s xs ab V H2 C OK NM A.
  destruct (optimize_spec find_roots inv qr N D vs d p times V H2 xs ab s C OK NM A) as
    (s' & E & U & _ & _ & _ & B & _).
  exists s'. split; auto. split; auto. apply (rd_pos _ _ _ _ _ _ (opt_use_ready _ _ _ _ _ _ _ U)).
Qed.
(** C58: the same for Mellinger's method, where the times are finally scaled up
    to meet the velocity and acceleration limits. *)
Theorem C58_times_positive_mellinger :
  forall find_roots inv qr (N D : nat) (p : nl_params) (vs : list vertex) (times : list R) (d : nat)
         (s : nonlin) (xs : list (list R)) (x : list R) (aborted : bool) (v_max a_max : R),
  valid_size N -> (3 <= N)%nat -> (1 <= D)%nat -> (2 <= length vs)%nat -> configured inv N D p vs times d s ->
  orders_ok N s -> p_alloc p = MellingerOuterLoop -> exact_root_finder find_roots ->
  limit_set s 1 v_max -> limit_set s 2 a_max -> allowed qr N s (xs ++ [x]) ->
  exists s' k, optimize find_roots inv qr N (xs ++ [x]) aborted s = Val s' /\ 1 <= k /\
    o_times (nl_opt s') = map (fun T => T * k) x /\
    Forall2 (fun T T' => Rmin (1 / 10) T <= T') times (o_times (nl_opt s')) /\
    Forall (fun T => 0 < T) (o_times (nl_opt s')).
Proof.
  intros find_roots inv qr N D p vs times d s xs x ab v a V HN HD H2 C OK Al HR L1 L2 A.
  apply limit_set_of in L1, L2.
  destruct (optimize_mellinger find_roots inv qr N D vs d p times V H2 xs x ab s C OK Al HR HN HD L1 L2 A) as
    (s' & s'' & k & E & _ & _ & _ & _ & _ & S & Hk & _ & T & B).
  exists s', k. split; auto. split; auto. split; auto. split; auto.
  apply (rd_pos _ _ _ _ _ _ (opt_use_ready _ _ _ _ _ _ _ (solved_use _ _ _ _ _ _ _ S))).
Qed.
Print Assumptions C58_initial_guess_admitted.
Print Assumptions C58_times_positive.
Print Assumptions C58_times_positive_mellinger.
Example C58_example :
  forall inv qr, exists s s1 x0 b, configured inv 10 3 generator_params three_vertices [1; 2] 2 s /\
    orders_ok 10 s /\ full_problem qr 10 s = Some (s1, x0, b) /\ length x0 = 14%nat /\ allowed qr 10 s [x0; x0].
Proof.
  intros inv qr.
  destruct (generator_configured inv three_vertices [1; 2]) as (s & C & OK & _);
    [reflexivity|repeat constructor; lra|].
  destruct (configured_use inv qr _ _ _ _ _ _ _ C) as (U & _ & Ep & _).
  destruct (full_problem_defined inv qr 10 3 three_vertices 2 valid_10 ltac:(simpl; lia) s U) as (s1 & x0 & b & E & _ & _ & B & L & _).
  exists s, s1, x0, b. split; auto. split; auto. split; auto. split.
  - rewrite <- (in_bounds_length _ _ B), L, (use_free_eq inv qr _ _ _ _ _ U). reflexivity.
  - unfold allowed. rewrite Ep. simpl. intros s2 y0 c E2.
    assert (Q : c = b /\ y0 = x0) by (rewrite E in E2; split; congruence). destruct Q as [-> ->].
    split; [repeat (constructor; auto)|tauto].
Qed.

(** A solution exists for the examples of C57 and C74. *)
Example C57_example :
  forall inv qr, exists o, solution inv qr 10 3 three_vertices 2 o /\ (2 <= length three_vertices)%nat /\
    Forall (fun c => (cd_deriv c + 1 < 10)%nat /\ 0 < cd_value c) [mkCD 1 1; mkCD 2 5].
Proof.
  intros inv qr. destruct (C53_example inv qr) as (o & o' & U & _ & _ & E & _).
  exists o'. split; [exists o; eauto|]. split; [simpl; lia|].
  repeat (apply Forall_cons; [simpl; split; [lia|lra]|]). apply Forall_nil.
Qed.
Example C74_example :
  forall find_roots, exact_root_finder find_roots ->
  exists inv qr o e, solution inv qr 10 3 three_vertices 2 o /\ max_of_magnitude find_roots 10 1 o = Val e /\
    max_norm (o_segs o) 1 (e_value e).
Proof.
  intros find_roots HR. destruct C54_routines_exist as ((inv & _) & (qr & _)).
  destruct (C57_example inv qr) as (o & S & H2 & _).
  destruct (C74_maximum find_roots inv qr 10 3 three_vertices 2 o 1 HR ltac:(lia) H2 S ltac:(lia)) as (e & s & E & M & _).
  exists inv, qr, o, e. auto.
Qed.

(** ** C72 *)

(** C72: what optimize() leaves behind is what a single evaluation at the last
    point leaves behind; the points before it, and the optimum that NLopt
    returns, have no influence. *)
Theorem C72_last_evaluation :
  forall find_roots inv qr (N D : nat) (p : nl_params) (vs : list vertex) (times : list R) (d : nat)
         (s : nonlin) (xs : list (list R)) (x : list R) (aborted : bool),
  valid_size N -> (2 <= length vs)%nat -> configured inv N D p vs times d s -> orders_ok N s ->
  p_alloc p <> MellingerOuterLoop -> allowed qr N s (xs ++ [x]) ->
  exists s' s'', optimize find_roots inv qr N (xs ++ [x]) aborted s = Val s' /\
    optimize find_roots inv qr N [x] aborted s = Val s'' /\
    nl_opt s' = nl_opt s'' /\ i_iterations (nl_info s') = S (length xs).
Proof. intros. eapply optimize_last; eauto. Qed.
(** C72: also with Mellinger's method. *)
Theorem C72_last_evaluation_mellinger :
  forall find_roots inv qr (N D : nat) (p : nl_params) (vs : list vertex) (times : list R) (d : nat)
         (s : nonlin) (xs : list (list R)) (x : list R) (aborted : bool) (v_max a_max : R),
  valid_size N -> (3 <= N)%nat -> (1 <= D)%nat -> (2 <= length vs)%nat -> configured inv N D p vs times d s ->
  orders_ok N s -> p_alloc p = MellingerOuterLoop -> exact_root_finder find_roots ->
  limit_set s 1 v_max -> limit_set s 2 a_max -> allowed qr N s (xs ++ [x]) ->
  exists s' s'', optimize find_roots inv qr N (xs ++ [x]) aborted s = Val s' /\
    optimize find_roots inv qr N [x] aborted s = Val s'' /\
    nl_opt s' = nl_opt s'' /\ i_iterations (nl_info s') = S (length xs).
Proof.
  intros find_roots inv qr N D p vs times d s xs x ab v a V HN HD H2 C OK Al HR L1 L2 A.
  apply limit_set_of in L1, L2.
  destruct (optimize_mellinger find_roots inv qr N D vs d p times V H2 xs x ab s C OK Al HR HN HD L1 L2 A) as
    (s' & s'' & k & E & E' & Q & I & _). eauto 8.
Qed.
(** C72: whatever good point NLopt visits, an admissible run ends at a worse
    one, and that one is what the user gets. *)
Theorem C72_worse_point_wins :
  forall find_roots inv qr (N D : nat) (p : nl_params) (vs : list vertex) (times : list R) (d : nat)
         (s s1 sx : nonlin) (x0 x : list R) (b : list (R * R)) (J : R),
  valid_size N -> (2 <= length vs)%nat -> configured inv N D p vs times d s -> orders_ok N s ->
  p_alloc p = SquaredTimeAndConstraints -> 1 <= p_time_penalty p ->
  full_problem qr N s = Some (s1, x0, b) -> in_bounds b x ->
  objective_full find_roots inv N x s1 = Val (sx, J) -> J <= 10 ^ 100 ->
  exists x' J' sx', in_bounds b x' /\ allowed qr N s [x; x'] /\
    objective_full find_roots inv N x' s1 = Val (sx', J') /\ J < J' /\
    exists s', optimize find_roots inv qr N [x; x'] false s = Val s' /\ nl_opt s' = nl_opt sx'.
Proof. intros. eapply worse_last; eauto. Qed.

(** A plan that stays where it is: the best trajectory has cost 0. *)
Definition still_vertices : list vertex :=
  [start_end_vertex [0; 0; 0] 4; pos_vertex [0; 0; 0]; start_end_vertex [0; 0; 0] 4].

Lemma zero_cost N dp o : (forall k, Forall (fun v => v = 0) (fixed_compact o k)) ->
  (forall k, Forall (fun v => v = 0) (nth k dp [])) -> compute_cost N (update_segments N dp o) = 0.
Proof.
  intros F G. unfold compute_cost. cbn [o_vertices o_D o_segs o_cost update_segments].
  rewrite rsum_zero; [lra|]. intros i Hi. apply rsum_zero. intros k Hk. apply rsum_zero. intros j Hj.
  set (seg := nth i _ _).
  assert (Z : forall m, coef (get_coefficients (seg_poly seg k) 0) m = 0); [|rewrite Z; ring].
  intros m. cbn [get_coefficients]. subst seg.
  set (f := fun i0 => mkSeg (nth i0 (o_times o) 0) N (o_D o) (map (segment_coeffs N o dp i0) (seq 0 (o_D o)))).
  assert (E : nth i (map f (seq 0 (length (o_vertices o) - 1))) (seg_new N 0) = f i).
  { rewrite (nth_indep _ _ (f O)) by (rewrite map_length, seq_length; auto).
    rewrite map_nth, seq_nth by auto. reflexivity. }
  rewrite E. unfold seg_poly, f. cbn [s_polys].
  rewrite (nth_indep _ _ (segment_coeffs N o dp i O)) by (rewrite map_length, seq_length; auto).
  rewrite map_nth, seq_nth by auto. simpl. unfold segment_coeffs, coef.
  set (g := mvec N _ _).
  assert (Zg : forall r, g r = 0).
  { intros r. subst g. unfold mvec. apply rsum_zero. intros a Ha.
    rewrite (rsum_zero _ _); [ring|]. intros c Hc.
    assert (Zc : nth c (fixed_compact o k ++ nth k dp []) 0 = 0).
    { assert (FF : Forall (fun v => v = 0) (fixed_compact o k ++ nth k dp [])) by (apply Forall_app; auto).
      destruct (nth_in_or_default c (fixed_compact o k ++ nth k dp []) 0) as [I| ->]; auto.
      rewrite Forall_forall in FF. apply FF; auto. }
    rewrite Zc. ring. }
  destruct (nth_in_or_default m (map g (seq 0 N)) 0) as [I| ->]; auto.
  apply in_map_iff in I. destruct I as (r & <- & _). auto.
Qed.

Lemma still_run find_roots inv qr : exists s s1 x0 b sx J,
  configured inv 10 3 generator_params still_vertices [1; 1] 2 s /\ orders_ok 10 s /\
  full_problem qr 10 s = Some (s1, x0, b) /\ in_bounds b ([1; 1] ++ repeat 0 12) /\
  objective_full find_roots inv 10 ([1; 1] ++ repeat 0 12) s1 = Val (sx, J) /\ J <= 10 ^ 100.
Proof.
  destruct (generator_configured inv still_vertices [1; 1]) as (s & C & OK & Ec);
    [reflexivity|repeat constructor; lra|].
  destruct (configured_use inv qr _ _ _ _ _ _ _ C) as (U & Et & Ep & _).
  destruct (full_problem_defined inv qr 10 3 still_vertices 2 valid_10 ltac:(simpl; lia) s U) as
    (s1 & x0 & b & E & Es & _ & B & L & Bt & Bf).
  assert (Lf : length (o_free (nl_opt s)) = 4%nat) by (rewrite (use_free_eq inv qr _ _ _ _ _ U); reflexivity).
  rewrite Lf in L, Bf. change (length still_vertices - 1)%nat with 2%nat in L, Bt, Bf. simpl in L.
  set (x := [1; 1] ++ repeat 0 12).
  assert (Big : 1 <= DBL_MAX).
  { unfold DBL_MAX. assert (/ 2 ^ 52 <= 1) by (rewrite <- Rinv_1; apply Rinv_le_contravar; [lra|apply pow_R1_Rle; lra]).
    assert (1 <= 2 ^ 1023) by (apply pow_R1_Rle; lra). revert H H0. generalize (2 ^ 1023) (/ 2 ^ 52). intros; nra. }
  assert (Bx : in_bounds b x).
  { assert (X : forall i, (i < 14)%nat -> fst (nth i b (0, 0)) <= nth i x 0 <= snd (nth i b (0, 0))).
    { intros i Hi. destruct (Nat.lt_ge_cases i 2) as [H|H].
      - rewrite Bt by auto. destruct (widen_wider (nth i (o_times (nl_opt s)) 0) (TIME_LOWER, DBL_MAX)) as [A1 A2].
        assert (Ex : nth i x 0 = 1) by (destruct i as [|[|i]]; [reflexivity..|lia]).
        rewrite Ex. unfold TIME_LOWER in *. cbn [fst snd] in *. lra.
      - assert (Hk : ((i - 2) / 4 < 3)%nat) by (apply Nat.div_lt_upper_bound; lia).
        assert (Hm : ((i - 2) mod 4 < 4)%nat) by (apply Nat.mod_upper_bound; lia).
        specialize (Bf _ _ Hk Hm).
        assert (Ei : (2 + ((i - 2) / 4 * 4 + (i - 2) mod 4) = i)%nat).
        { pose proof (Nat.div_mod (i - 2) 4 ltac:(lia)). lia. }
        rewrite Ei in Bf. rewrite Bf.
        assert (Ex : nth i x 0 = 0).
        { subst x. rewrite app_nth2 by (simpl; lia). apply nth_repeat. }
        rewrite Ex. set (w := match nth_error _ _ with Some q => _ | None => _ end).
        assert (W : fst w <= 0 <= snd w).
        { subst w. destruct (nth_error _ _) as [q|]; [|simpl; lra].
          rewrite Ec. unfold wanted_bounds. simpl.
          destruct q as [|[|[|q]]]; simpl; rewrite ?Rabs_pos_eq by lra; lra. }
        destruct (widen_wider (nth i x0 0) w). lra. }
    assert (Lx : length x = 14%nat) by reflexivity.
    clear - X L Lx. unfold in_bounds. rewrite <- Lx in L. assert (X' : forall i, (i < length x)%nat ->
      fst (nth i b (0, 0)) <= nth i x 0 <= snd (nth i b (0, 0))) by (rewrite Lx; exact X).
    clear X Lx. revert b L X'. generalize x. clear x. induction x as [|a x IH]; intros [|c b] L X; simpl in *; try lia; constructor.
    - apply (X O). lia.
    - apply IH; [lia|]. intros i Hi. apply (X (S i)). lia. }
  assert (U1 : opt_use inv qr 10 3 still_vertices 2 (nl_opt s1)) by (rewrite Es; apply use_solve; auto).
  assert (OK1 : orders_ok 10 s1) by (rewrite Es; exact OK).
  destruct (full_bounds_good inv qr 10 3 still_vertices 2 [1; 1] valid_10 ltac:(simpl; lia) s s1 x0 b x U Et E Bx) as [Gx _].
  destruct (objective_full_spec find_roots inv qr 10 3 still_vertices 2 ltac:(simpl; lia) x s1 U1 OK1 Gx) as
    (sx & J & o1 & EJ & K & _ & _ & Uo & To & Fo).
  exists s, s1, x0, b, sx, J. repeat (split; [assumption|]).
  unfold objective_full in EJ. destruct (_ =? _)%nat; [|discriminate].
  destruct (update_times _ _ _ _) as [o2|] eqn:E2; [|discriminate].
  destruct (set_free _ _ o2) as [o3|] eqn:E3; [|discriminate].
  destruct (finish_costs _ _ _ _ _ _ _ EJ) as (E4 & _ & _ & cs & -> & Ecs & _).
  assert (P1 : nl_params_ s1 = generator_params) by (rewrite Es; exact Ep).
  assert (C1 : nl_cons s1 = [mkCD 1 1; mkCD 2 5]) by (rewrite Es; exact Ec).
  rewrite P1 in *. rewrite C1 in Ecs. simpl p_use_soft in Ecs. cbv iota in Ecs.
  apply soft_cost_bounds in Ecs; [|apply pow_le; lra].
  assert (Z : compute_cost 10 o3 = 0).
  { rewrite <- E4. destruct (set_free_inv _ _ _ _ Fo) as (-> & _). apply zero_cost.
    - intros k. pose proof (opt_use_ready _ _ _ _ _ _ _ Uo) as RD. unfold fixed_compact.
      rewrite (rd_fixed _ _ _ _ _ _ RD), (rd_vs _ _ _ _ _ _ RD). cbn.
      repeat (apply Forall_cons; [destruct k as [|[|[|[|k]]]]; reflexivity|]). apply Forall_nil.
    - intros k. apply Forall_forall. intros v Hv. unfold x_free in Hv.
      destruct (nth_in_or_default k (map (fun d0 => map (fun i => nth (length still_vertices - 1 + d0 * length (o_free o1) + i) x 0)
        (seq 0 (length (o_free o1)))) (seq 0 3)) []) as [I|Q]; [|rewrite Q in Hv; destruct Hv].
      apply in_map_iff in I. destruct I as (d0 & Q & _). rewrite <- Q in Hv.
      apply in_map_iff in Hv. destruct Hv as (i & <- & _). subst x.
      rewrite app_nth2 by (simpl; lia). apply nth_repeat. }
  rewrite Z. unfold time_cost, total_time. simpl p_alloc. cbv iota.
  assert (Ev : x_times (length (o_vertices (nl_opt s1)) - 1) x = [1; 1]).
  { rewrite (use_vertices inv qr _ _ _ _ _ U1). reflexivity. }
  rewrite Ev. simpl fold_left. simpl p_time_penalty. simpl length in Ecs.
  assert (M : 10 ^ 13 <= 10 ^ 100) by (apply Rle_pow; [lra|lia]).
  assert (M12 : 10 ^ 13 = 10 * 10 ^ 12) by reflexivity. assert (M0 : 10 ^ 12 = 1000000000000) by (simpl; ring).
  rewrite M0 in *. change (INR 2) with (1 + 1) in Ecs. lra.
Qed.

(** C72: the user does not always get the best point that was evaluated. *)
Theorem C72_best_returned_refuted :
  forall find_roots inv qr, exists (vs : list vertex) (times : list R) (s s1 sx sx' : nonlin)
         (x0 x x' : list R) (b : list (R * R)) (J J' : R),
    configured inv 10 3 generator_params vs times 2 s /\ full_problem qr 10 s = Some (s1, x0, b) /\
    objective_full find_roots inv 10 x s1 = Val (sx, J) /\ objective_full find_roots inv 10 x' s1 = Val (sx', J') /\
    J < J' /\ allowed qr 10 s [x; x'] /\
    exists s', optimize find_roots inv qr 10 [x; x'] false s = Val s' /\ nl_opt s' = nl_opt sx'.
Proof.
  intros find_roots inv qr.
  destruct (still_run find_roots inv qr) as (s & s1 & x0 & b & sx & J & C & OK & E & B & EJ & HJ).
  destruct (C72_worse_point_wins find_roots inv qr 10 3 generator_params still_vertices [1; 1] 2 s s1 sx x0 _ b J
    valid_10 ltac:(simpl; lia) C OK eq_refl ltac:(simpl; lra) E B EJ HJ) as (x' & J' & sx' & B' & A & EJ' & Lt & S').
  exists still_vertices, [1; 1], s, s1, sx, sx', x0, ([1; 1] ++ repeat 0 12), x', b, J, J'.
  repeat (split; [assumption|]). exact S'.
Qed.
(** C72: if NLopt evaluates nothing, the full problem yields the linear solution. *)
Theorem C72_no_evaluation :
  forall find_roots inv qr (N D : nat) (p : nl_params) (vs : list vertex) (times : list R) (d : nat)
         (s : nonlin) (aborted : bool),
  valid_size N -> (2 <= length vs)%nat -> configured inv N D p vs times d s -> orders_ok N s ->
  p_alloc p = SquaredTimeAndConstraints \/ p_alloc p = RichterTimeAndConstraints ->
  exists s', optimize find_roots inv qr N [] aborted s = Val s' /\ nl_opt s' = solve_linear qr N (nl_opt s).
Proof.
  intros find_roots inv qr N D p vs times d s ab V H2 C OK Al.
  destruct (configured_use inv qr N D vs d p times s C) as (U & Et & Ep & _).
  assert (A : allowed qr N s []).
  { unfold allowed. rewrite Ep. destruct Al as [-> | ->]; intros; (split; [constructor|reflexivity]). }
  destruct (optimize_spec find_roots inv qr N D vs d p times V H2 [] ab s C OK) as
    (s' & E & _ & _ & _ & _ & _ & _ & X & _); auto.
  - destruct Al; congruence.
  - exists s'. auto.
Qed.
(** C72: what is reported of a run, from whatever state: the number of
    evaluations; no cost if there was none; no time and no soft cost with
    Mellinger's method. *)
Lemma evaluate_all_info (f : list R -> nonlin -> res (nonlin * R)) (P : opt_info -> Prop) xs s s' :
  (forall x u u' J, f x u = Val (u', J) -> i_iterations (nl_info u') = S (i_iterations (nl_info u)) /\ (P (nl_info u) -> P (nl_info u'))) ->
  evaluate_all f xs s = Val s' ->
  i_iterations (nl_info s') = (i_iterations (nl_info s) + length xs)%nat /\ (P (nl_info s) -> P (nl_info s')) /\ (xs = [] -> s' = s).
Proof.
  intros H. revert s. induction xs as [|x xs IH]; intros s E; simpl in E.
  - injection E as <-. split; [simpl; lia|auto].
  - destruct (f x s) as [[u J]| |] eqn:F; try discriminate. destruct (H _ _ _ _ F) as [H1 HP].
    destruct (IH _ E) as (I1 & IP & _). split; [rewrite I1, H1; simpl; lia|]. split; [auto|discriminate].
Qed.
Lemma finish_objective_info find_roots N ts o s s' J : finish_objective find_roots N ts o s = Val (s', J) ->
  i_iterations (nl_info s') = S (i_iterations (nl_info s)).
Proof.
  unfold finish_objective. destruct (if p_use_soft _ then _ else _) as [cs| |]; try discriminate. intros E. now inversion E.
Qed.
Theorem C72_reported :
  forall find_roots inv qr (N : nat) (s s' : nonlin) (xs : list (list R)) (aborted : bool),
  optimize find_roots inv qr N xs aborted s = Val s' ->
  let info := nl_info s' in
  i_iterations info = length xs /\
  (xs = [] -> i_cost_trajectory info = 0 /\ i_cost_time info = 0 /\ i_cost_soft info = 0) /\
  (p_alloc (nl_params_ s) = MellingerOuterLoop -> i_cost_time info = 0 /\ i_cost_soft info = 0).
Proof.
  intros find_roots inv qr N s s' xs ab E. cbv zeta. unfold optimize in E.
  set (s0 := mkNL (nl_opt s) (nl_params_ s) (nl_cons s) info_new) in *.
  assert (T : forall u, nl_info u = info_new -> p_alloc (nl_params_ s) <> MellingerOuterLoop -> forall f,
    (forall x u u' J, f x u = Val (u', J) -> i_iterations (nl_info u') = S (i_iterations (nl_info u))) ->
    evaluate_all f xs u = Val s' -> i_iterations (nl_info s') = length xs /\
    (xs = [] -> i_cost_trajectory (nl_info s') = 0 /\ i_cost_time (nl_info s') = 0 /\ i_cost_soft (nl_info s') = 0) /\
    (p_alloc (nl_params_ s) = MellingerOuterLoop -> i_cost_time (nl_info s') = 0 /\ i_cost_soft (nl_info s') = 0)).
  { intros u Hu NM f Hf Ef. destruct (evaluate_all_info f (fun _ => True) xs u s') as (I & _ & Z); auto.
    { intros x a b J Q. split; [eapply Hf; eauto|auto]. }
    rewrite Hu in I. split; [exact I|]. split; [|tauto]. intros Q. rewrite (Z Q), Hu. auto. }
  assert (FT : forall x u u' J, objective_time find_roots inv qr N x u = Val (u', J) -> i_iterations (nl_info u') = S (i_iterations (nl_info u))).
  { intros x u u' J Q. unfold objective_time in Q. destruct (update_times _ _ _ _); [|discriminate]. eapply finish_objective_info; eauto. }
  assert (FF : forall x u u' J, objective_full find_roots inv N x u = Val (u', J) -> i_iterations (nl_info u') = S (i_iterations (nl_info u))).
  { intros x u u' J Q. unfold objective_full in Q. destruct (_ =? _)%nat; [|discriminate]. destruct (update_times _ _ _ _); [|discriminate].
    destruct (set_free _ _ _); [|discriminate]. eapply finish_objective_info; eauto. }
  assert (FP : forall s1 x b, full_problem qr N s0 = Some (s1, x, b) -> nl_info s1 = info_new).
  { intros s1 x b Q. unfold full_problem in Q. destruct (free_bounds _ _); [|discriminate]. destruct (_ && _); [|discriminate].
    inversion Q. reflexivity. }
  destruct (p_alloc (nl_params_ s)) eqn:Al.
  - apply (T s0 eq_refl ltac:(discriminate) _ FT E).
  - apply (T s0 eq_refl ltac:(discriminate) _ FT E).
  - destruct (evaluate_all (objective_mellinger inv qr N) xs s0) as [s1| |] eqn:E1; try discriminate.
    destruct (evaluate_all_info (objective_mellinger inv qr N) (fun i => i_cost_time i = 0 /\ i_cost_soft i = 0) xs s0 s1) as (I & P & Z); auto.
    { intros x u u' J Q. unfold objective_mellinger in Q. destruct (update_times _ _ _ _); [|discriminate].
      destruct (cost_gradient _ _ _ _) as [[[o' g] c]|]; [|discriminate]. inversion Q; subst. cbn. auto. }
    assert (X : nl_info s' = nl_info s1).
    { destruct ab; [injection E as ->; auto|]. destruct (scale_with_violation _ _ _ _ _) as [s2|] eqn:E2; [|discriminate].
      injection E as <-. unfold scale_with_violation in E2. destruct (get_trajectory _); [|discriminate].
      destruct (scale_to_constraints _ _ _ _) as [[k tr]| |]; try discriminate. destruct (update_times _ _ _ _); [|discriminate].
      injection E2 as <-. reflexivity. }
    rewrite X. split; [exact I|]. split; [|intros _; apply P; cbn; auto]. intros Q. rewrite (Z Q). cbn. auto.
  - destruct (full_problem qr N s0) as [[[s1 x] b]|] eqn:F; [|discriminate]. pose proof (FP _ _ _ eq_refl) as Q. apply (T s1 Q ltac:(discriminate) (objective_full find_roots inv N) FF E).
  - destruct (full_problem qr N s0) as [[[s1 x] b]|] eqn:F; [|discriminate]. pose proof (FP _ _ _ eq_refl) as Q. apply (T s1 Q ltac:(discriminate) (objective_full find_roots inv N) FF E).
Qed.
(** C72: with the time-only methods and no evaluation nothing is computed: the
    segments last no time and are zero everywhere. *)
Theorem C72_no_evaluation_time :
  forall find_roots inv qr (N D : nat) (p : nl_params) (vs : list vertex) (times : list R) (d : nat)
         (s : nonlin) (aborted : bool),
  configured inv N D p vs times d s -> p_alloc p = SquaredTime \/ p_alloc p = RichterTime ->
  optimize find_roots inv qr N [] aborted s = Val s /\ length (o_segs (nl_opt s)) = (length vs - 1)%nat /\
  Forall (fun g => s_time g = 0 /\ s_D g = D /\ forall k t, pval (seg_poly g k) t = 0) (o_segs (nl_opt s)).
Proof.
  intros find_roots inv qr N D p vs times d s ab C Al.
  destruct (configured_use inv qr N D vs d p times s C) as (_ & _ & Ep & _ & Es). split; [|split].
  - pose proof (configured_same inv qr N D vs d p times s C) as Q. unfold optimize. cbv zeta. rewrite Q, Ep. destruct Al as [-> | ->]; reflexivity.
  - rewrite Es. apply repeat_length.
  - rewrite Es. apply Forall_forall. intros g Hg. apply repeat_spec in Hg. subst g. split; [reflexivity|]. split; [reflexivity|].
    intros k t. unfold seg_poly, seg_new. cbn [s_polys].
    assert (Z : forall n, pval (repeat 0 n) t = 0) by (induction n as [|n IH]; simpl; [reflexivity|rewrite IH; ring]).
    destruct (Nat.lt_ge_cases k D) as [L|L].
    + rewrite (nth_indep _ _ (poly_zero N)) by (rewrite repeat_length; auto). rewrite nth_repeat. apply Z.
    + rewrite nth_overflow by (rewrite repeat_length; auto). reflexivity.
Qed.
Print Assumptions C72_last_evaluation.
Print Assumptions C72_last_evaluation_mellinger.
Print Assumptions C72_worse_point_wins.
Print Assumptions C72_best_returned_refuted.
Print Assumptions C72_no_evaluation.
Print Assumptions C72_reported.
Print Assumptions C72_no_evaluation_time.

(** ** C73 *)

Lemma drop_high_orders D h m vs : (m <= h)%nat ->
  free_orders_below m (map (drop_high D h) vs) = free_orders_below m vs.
Proof.
  intros H. induction vs as [|v vs IH]; [reflexivity|].
  change (filter (fun k => negb (has_constraint k (drop_high D h v))) (seq 0 m) ++ free_orders_below m (map (drop_high D h) vs)
    = filter (fun k => negb (has_constraint k v)) (seq 0 m) ++ free_orders_below m vs).
  rewrite IH. f_equal. apply filter_ext_in. intros k Hk. apply in_seq in Hk.
  pose proof (drop_high_get D h v k ltac:(lia)) as E. unfold get_constraint in E. unfold has_constraint. rewrite E. reflexivity.
Qed.

(** C73: the free variables of each dimension, vertex by vertex and order by order. *)
Theorem C73_variables :
  forall inv qr (N D : nat) (vs : list vertex) (d : nat) (o : opt),
  (2 <= length vs)%nat -> opt_use inv qr N D vs d o ->
  map c_order (o_free o) = free_orders_below (N / 2) vs.
Proof.
  intros inv qr N D vs d o H2 U. rewrite (use_free_eq inv qr N D vs d o U).
  set (ws := map (drop_high D (N / 2)) vs).
  replace (length vs - 1)%nat with (length ws - 1)%nat by (subst ws; rewrite map_length; auto).
  rewrite free_list_eq by (subst ws; rewrite map_length; auto). rewrite free_list_orders.
  change (flat_map _ ws) with (free_orders_below (N / 2) ws). apply drop_high_orders. auto.
Qed.
(** C73: the bounds of the i-th variable are those wanted for the i-th entry of
    the list of free orders up to the optimised derivative. *)
Theorem C73_bounds :
  forall inv qr (N D : nat) (p : nl_params) (vs : list vertex) (times : list R) (d : nat)
         (s s1 : nonlin) (x0 : list R) (b : list (R * R)) (k i : nat),
  valid_size N -> (2 <= length vs)%nat -> configured inv N D p vs times d s ->
  full_problem qr N s = Some (s1, x0, b) ->
  let nf := length (o_free (nl_opt s)) in
  let index := (length times + (k * nf + i))%nat in
  (k < D)%nat -> (i < nf)%nat ->
  nth index b (0, 0) =
  widen (nth index x0 0)
    match nth_error (free_orders_below (S d) vs) i with
    | Some order => wanted_bounds (nl_cons s) order
    | None => (- DBL_MAX, DBL_MAX)
    end.
Proof.
  intros inv qr N D p vs times d s s1 x0 b k i V H2 C E nf index Hk Hi.
  destruct (configured_use inv qr N D vs d p times s C) as (U & Et & _).
  destruct (full_problem_defined inv qr N D vs d V H2 s U) as (s1' & x0' & b' & E' & _ & _ & _ & _ & _ & Bf).
  assert (Q : x0' = x0 /\ b' = b) by (rewrite E in E'; split; congruence). destruct Q as [-> ->].
  assert (Lt : length times = (length vs - 1)%nat).
  { pose proof (use_times_len inv qr N D vs d _ U). rewrite Et in H. lia. }
  unfold index, nf. rewrite Lt, (Bf k i Hk Hi). f_equal.
  pose proof (opt_use_ready _ _ _ _ _ _ _ U) as RD.
  assert (Ef : free_orders d (o_vertices (nl_opt s)) = free_orders_below (S d) vs).
  { rewrite (rd_vs _ _ _ _ _ _ RD). apply drop_high_orders. pose proof (rd_low _ _ _ _ _ _ RD).
    destruct V as (V1 & _). pose proof (Nat.div_le_mono 2 N 2 ltac:(lia) ltac:(lia)) as Hh. change (2 / 2)%nat with 1%nat in Hh. lia. }
  rewrite Ef. reflexivity.
Qed.
(** C73: so every variable gets the bounds of its own order if the optimised
    derivative is the highest one the vertices can constrain. *)
Theorem C73_right_variable :
  forall inv qr (N D : nat) (p : nl_params) (vs : list vertex) (times : list R) (d : nat)
         (s s1 : nonlin) (x0 : list R) (b : list (R * R)) (k i : nat) (c : con),
  valid_size N -> (2 <= length vs)%nat -> configured inv N D p vs times d s ->
  full_problem qr N s = Some (s1, x0, b) -> S d = (N / 2)%nat ->
  let nf := length (o_free (nl_opt s)) in
  let index := (length times + (k * nf + i))%nat in
  (k < D)%nat -> nth_error (o_free (nl_opt s)) i = Some c ->
  nth index b (0, 0) = widen (nth index x0 0) (wanted_bounds (nl_cons s) (c_order c)).
Proof.
  intros inv qr N D p vs times d s s1 x0 b k i c V H2 C E Hd nf index Hk Hc.
  assert (Hi : (i < nf)%nat) by (apply nth_error_Some; congruence).
  unfold index, nf. rewrite (C73_bounds inv qr N D p vs times d s s1 x0 b k i V H2 C E Hk Hi).
  destruct (configured_use inv qr N D vs d p times s C) as (U & _).
  rewrite Hd, <- (C73_variables inv qr N D vs d (nl_opt s) H2 U).
  rewrite (map_nth_error _ _ _ Hc). reflexivity.
Qed.

(** Start of a plan after stitching: position, velocity and acceleration given. *)
Definition stitched_vertices : list vertex :=
  [mkVertex 3 [(0%nat, [0; 0; 0]); (1%nat, [1; 0; 0]); (2%nat, [0; 0; 0])]; pos_vertex [1; 2; 3];
   start_end_vertex [4; 0; 1] 4].

(** C73: with the settings of the trajectory generator the velocity limit is
    imposed on a jerk. *)
Theorem C73_right_variable_refuted :
  forall inv qr, exists (s s1 : nonlin) (x0 : list R) (b : list (R * R)) (c : con),
    configured inv 10 3 generator_params stitched_vertices [1; 2] 2 s /\
    full_problem qr 10 s = Some (s1, x0, b) /\ nl_cons s = [mkCD 1 1; mkCD 2 5] /\
    nth_error (o_free (nl_opt s)) 0 = Some c /\ c_vertex c = 0%nat /\ c_order c = 3%nat /\
    wanted_bounds (nl_cons s) 3 = (- DBL_MAX, DBL_MAX) /\
    nth 2 b (0, 0) = widen (nth 2 x0 0) (-1, 1).
Proof.
  intros inv qr.
  destruct (generator_configured inv stitched_vertices [1; 2]) as (s & C & OK & Ec);
    [reflexivity|repeat constructor; lra|].
  destruct (configured_use inv qr _ _ _ _ _ _ _ C) as (U & _).
  destruct (full_problem_defined inv qr 10 3 stitched_vertices 2 valid_10 ltac:(simpl; lia) s U) as (s1 & x0 & b & E & _).
  assert (F : o_free (nl_opt s) = con_set false (all_cons 3 5 2 0 stitched_vertices)).
  { rewrite (use_free_eq inv qr _ _ _ _ _ U). reflexivity. }
  exists s, s1, x0, b, (mkCon 0 3 [0; 0; 0]). split; auto. split; auto. split; auto.
  split; [rewrite F; reflexivity|]. split; [reflexivity|]. split; [reflexivity|].
  split; [rewrite Ec; reflexivity|].
  pose proof (C73_bounds inv qr 10 3 generator_params stitched_vertices [1; 2] 2 s s1 x0 b 0 0
    valid_10 ltac:(simpl; lia) C E ltac:(lia)) as X.
  cbv zeta in X. rewrite F in X.
  specialize (X ltac:(cbn; lia)). cbn [length Nat.add Nat.mul] in X. rewrite X. f_equal.
  rewrite Ec. cbn. rewrite Rabs_pos_eq by lra. f_equal; lra.
Qed.
Print Assumptions C73_variables.
Print Assumptions C73_bounds.
Print Assumptions C73_right_variable.
Print Assumptions C73_right_variable_refuted.

(** ** C75 *)

(** One evaluation of either gradient-free objective. *)
Definition evaluation find_roots inv qr (N : nat) (x : list R) (s s' : nonlin) (J : R) : Prop :=
  objective_time find_roots inv qr N x s = Val (s', J) \/ objective_full find_roots inv N x s = Val (s', J).

Lemma evaluation_finish find_roots inv qr N D vs d x s s' J : opt_use inv qr N D vs d (nl_opt s) ->
  evaluation find_roots inv qr N x s s' J ->
  exists y o, finish_objective find_roots N y o s = Val (s', J) /\ o_times o = y /\ solution inv qr N D vs d o.
Proof.
  intros U [E|E].
  - unfold objective_time in E. destruct (update_times _ _ _ _) as [o|] eqn:Eu; [|discriminate].
    exists x, (solve_linear qr N o). split; auto. split.
    + rewrite solve_times. unfold update_times in Eu. destruct (_ && _); [|discriminate]. inversion Eu; reflexivity.
    + exists o. split; auto. eapply use_times; eauto.
  - unfold objective_full in E. destruct (_ =? _)%nat; [|discriminate].
    destruct (update_times _ _ _ _) as [o|] eqn:Eu; [|discriminate].
    destruct (set_free _ _ o) as [o'|] eqn:Ef; [|discriminate].
    eexists _, o'. split; [exact E|]. split.
    + destruct (set_free_inv _ _ _ _ Ef) as (-> & _). unfold update_times in Eu. destruct (_ && _); [|discriminate].
      inversion Eu; reflexivity.
    + exists o. split; [eapply use_times; eauto|]. left. eauto.
Qed.

(** C75: the recorded parts of the cost add up to the objective value; they are
    the energy of the trajectory, the time penalty and the soft-constraint cost. *)
Theorem C75_parts :
  forall find_roots inv qr (N D : nat) (vs : list vertex) (d : nat) (x : list R) (s s' : nonlin) (J : R),
  valid_size N -> opt_use inv qr N D vs d (nl_opt s) -> evaluation find_roots inv qr N x s s' J ->
  let info := nl_info s' in let p := nl_params_ s in
  let T := lsum (map s_time (o_segs (nl_opt s'))) in
  J = i_cost_trajectory info + i_cost_time info + i_cost_soft info /\
  i_iterations info = S (i_iterations (nl_info s)) /\
  i_cost_trajectory info = energy d (o_segs (nl_opt s')) /\
  i_cost_time info =
    match p_alloc p with
    | RichterTime | RichterTimeAndConstraints => p_time_penalty p * T
    | _ => p_time_penalty p * T ^ 2
    end /\
  (p_use_soft p = false -> i_cost_soft info = 0) /\
  (p_use_soft p = true ->
     soft_cost find_roots N (nl_opt s') (p_soft_weight p) (10 ^ 12) (nl_cons s) = Val (i_cost_soft info)).
Proof.
  intros find_roots inv qr N D vs d x s s' J V U E info p T.
  destruct (evaluation_finish _ _ _ _ _ _ _ _ _ _ _ U E) as (y & o & F & Et & So).
  destruct (finish_costs _ _ _ _ _ _ _ F) as (Eo & _ & _ & cs & EJ & Es & Ei).
  subst info p T. rewrite Ei, Eo. cbn [i_cost_trajectory i_cost_time i_cost_soft i_iterations].
  split; auto. split; auto. split.
  { destruct So as (o0 & U0 & X). eapply C55_cost_is_energy; eauto. }
  split.
  { apply solution_solved in So. rewrite (solved_times inv qr N D vs d o So), Et. unfold time_cost.
    rewrite total_time_lsum. destruct (p_alloc _); ring. }
  destruct (p_use_soft (nl_params_ s)).
  - split; [discriminate|]. auto.
  - split; [intros _; congruence|discriminate].
Qed.
(** C75: the total cost reported afterwards is at most the objective value, and
    equal to it if no constraint reaches the lower maximum used in the report. *)
Theorem C75_total_cost :
  forall find_roots inv qr (N D : nat) (vs : list vertex) (d : nat) (x : list R) (s s' : nonlin) (J : R),
  opt_use inv qr N D vs d (nl_opt s) -> evaluation find_roots inv qr N x s s' J ->
  p_use_soft (nl_params_ s) = true ->
  p_alloc (nl_params_ s) = SquaredTime \/ p_alloc (nl_params_ s) = SquaredTimeAndConstraints ->
  exists c, total_cost find_roots N s' = Val c /\ c <= J /\
    (Forall (fun k => exists e, max_of_magnitude find_roots N (cd_deriv k) (nl_opt s') = Val e /\
       exp ((e_value e - cd_value k) / cd_value k * p_soft_weight (nl_params_ s)) <= 10 ^ 9) (nl_cons s) -> c = J).
Proof.
  intros find_roots inv qr N D vs d x s s' J U E Soft Al.
  destruct (evaluation_finish _ _ _ _ _ _ _ _ _ _ _ U E) as (y & o & F & Et & So).
  destruct (finish_costs _ _ _ _ _ _ _ F) as (Eo & _). rewrite Eo.
  eapply total_cost_finish; eauto.
Qed.
Print Assumptions C75_parts.
Print Assumptions C75_total_cost.
Example C75_example : forall find_roots inv qr, exists s x s' J,
  opt_use inv qr 10 3 still_vertices 2 (nl_opt s) /\ evaluation find_roots inv qr 10 x s s' J /\
  nl_params_ s = generator_params.
Proof.
  intros find_roots inv qr. destruct (still_run find_roots inv qr) as (s & s1 & x0 & b & sx & J & C & OK & E & B & EJ & HJ).
  destruct (configured_use inv qr _ _ _ _ _ _ _ C) as (U & _ & Ep & _).
  destruct (full_problem_defined inv qr 10 3 still_vertices 2 valid_10 ltac:(simpl; lia) s U) as (s1' & x0' & b' & E' & Es & _).
  assert (Q : s1' = s1) by (rewrite E in E'; congruence). rewrite Q in Es.
  exists s1, ([1; 1] ++ repeat 0 12), sx, J. split; [rewrite Es; apply use_solve; auto|].
  split; [right; exact EJ|]. rewrite Es. exact Ep.
Qed.

(** ** C76 *)

(** C76: with the methods that optimise the free derivatives too, and with the
    others once the objective has been evaluated, the result interpolates the
    vertices and is smooth, whatever points NLopt chooses. *)
Theorem C76_result_interpolates :
  forall find_roots inv qr (N D : nat) (p : nl_params) (vs : list vertex) (times : list R) (d : nat)
         (s : nonlin) (xs : list (list R)) (aborted : bool),
  exact_inverse inv -> valid_size N -> vertices_dim D vs -> (2 <= length vs)%nat ->
  configured inv N D p vs times d s -> orders_ok N s -> usable_times times ->
  p_alloc p <> MellingerOuterLoop -> allowed qr N s xs ->
  p_alloc p = SquaredTimeAndConstraints \/ p_alloc p = RichterTimeAndConstraints \/ xs <> [] ->
  exists s', optimize find_roots inv qr N xs aborted s = Val s' /\
    interpolates N D vs (o_times (nl_opt s')) (o_segs (nl_opt s')) /\ smooth (N / 2) (o_segs (nl_opt s')).
Proof.
  intros find_roots inv qr N D p vs times d s xs ab HI V VD H2 C OK UT NM A Full.
  destruct (optimize_spec find_roots inv qr N D vs d p times V H2 xs ab s C OK NM A) as
    (s' & E & _ & _ & _ & _ & NB & So & _).
  exists s'. split; auto. apply (solved_interpolates inv qr N D vs d V); auto.
  - apply So. unfold full_method. tauto.
  - eapply not_below_usable; eauto.
Qed.
(** C76: also with Mellinger's method. *)
Theorem C76_result_interpolates_mellinger :
  forall find_roots inv qr (N D : nat) (p : nl_params) (vs : list vertex) (times : list R) (d : nat)
         (s : nonlin) (xs : list (list R)) (aborted : bool) (v_max a_max : R),
  exact_inverse inv -> valid_size N -> (3 <= N)%nat -> (1 <= D)%nat -> vertices_dim D vs -> (2 <= length vs)%nat ->
  configured inv N D p vs times d s -> orders_ok N s -> usable_times times ->
  p_alloc p = MellingerOuterLoop -> exact_root_finder find_roots ->
  limit_set s 1 v_max -> limit_set s 2 a_max -> allowed qr N s xs -> xs <> [] ->
  exists s', optimize find_roots inv qr N xs aborted s = Val s' /\
    interpolates N D vs (o_times (nl_opt s')) (o_segs (nl_opt s')) /\ smooth (N / 2) (o_segs (nl_opt s')).
Proof.
  intros find_roots inv qr N D p vs times d s xs ab v a HI V HN HD VD H2 C OK UT Al HR L1 L2 A Ne.
  apply limit_set_of in L1, L2.
  destruct (exists_last Ne) as (ys & x & ->).
  destruct (optimize_mellinger find_roots inv qr N D vs d p times V H2 ys x ab s C OK Al HR HN HD L1 L2 A) as
    (s' & s'' & k & E & _ & _ & _ & _ & _ & So & _ & _ & _ & NB).
  exists s'. split; auto. apply (solved_interpolates inv qr N D vs d V); auto.
  eapply not_below_usable; eauto.
Qed.
(** C76: with the time-only methods and a short initial segment NLopt rejects
    the initial guess; the call succeeds and returns segments of zero duration. *)
Theorem C76_short_segment_refuted :
  forall find_roots inv qr, exists (p : nl_params) (vs : list vertex) (times : list R) (s : nonlin),
    p_alloc p = SquaredTime /\ configured inv 10 3 p vs times 2 s /\ orders_ok 10 s /\
    Forall (fun T => 0 < T) times /\
    forall xs, allowed qr 10 s xs -> forall aborted,
      optimize find_roots inv qr 10 xs aborted s = Val s /\
      Forall (fun g => s_time g = 0) (o_segs (nl_opt s)) /\ length (o_segs (nl_opt s)) = 2%nat.
Proof.
  intros find_roots inv qr. set (p := mkParams SquaredTime 1000 true 100).
  assert (P : Forall (fun T => 0 < T) [/ 20; 1]) by (repeat (apply Forall_cons; [lra|]); apply Forall_nil).
  destruct (proj2 (C53_setup_accepts inv 10 3 three_vertices [/ 20; 1] 2)) as (o & Eo).
  { split; [simpl; lia|]. split; [reflexivity|]. exact P. }
  set (s := mkNL o p [] info_new).
  assert (C : configured inv 10 3 p three_vertices [/ 20; 1] 2 s).
  { apply conf_setup. unfold nl_setup. rewrite Eo. reflexivity. }
  exists p, three_vertices, [/ 20; 1], s. split; auto. split; auto. split; [constructor|]. split; auto.
  intros xs A ab. destruct (configured_use inv qr _ _ _ _ _ _ _ C) as (U & Et & Ep & Ei & Es).
  assert (Nil : xs = []).
  { unfold allowed in A. simpl in A. apply (proj2 A). intros B. change o with (nl_opt s) in B. rewrite Et in B.
    inversion B as [|? ? ? ? B1 _]; subst. unfold TIME_LOWER in B1. cbn [fst snd] in B1. lra. }
  subst xs. split.
  - unfold optimize. reflexivity.
  - rewrite Es. split; [|reflexivity]. repeat constructor.
Qed.
Print Assumptions C76_result_interpolates.
Print Assumptions C76_result_interpolates_mellinger.
Print Assumptions C76_short_segment_refuted.
Example C76_example :
  forall inv qr, exact_inverse inv -> exists s xs,
    configured inv 10 3 generator_params three_vertices [1; 2] 2 s /\ orders_ok 10 s /\ usable_times [1; 2] /\
    vertices_dim 3 three_vertices /\ allowed qr 10 s xs /\ length xs = 2%nat.
Proof.
  intros inv qr HI. destruct (C58_example inv qr) as (s & s1 & x0 & b & C & OK & E & L & A).
  exists s, [x0; x0]. split; auto. split; auto. split.
  { pose proof eps_le_1. repeat (apply Forall_cons; [lra|]). apply Forall_nil. }
  split; [exact three_vertices_dim|]. auto.
Qed.
