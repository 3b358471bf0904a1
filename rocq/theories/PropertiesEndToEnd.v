(** Property theorems: from the waypoints to the trajectory (C77).
    The computation thread runs the optimiser model; [inv], [qr] and
    [find_roots] stand for Eigen's dense inverse and sparse QR solver and for
    the polynomial root finder, [xs] for the points NLopt evaluates. *)
From Coq Require Import Reals Lra Lia List Bool ZArith Arith.
From Coquelicot Require Import Coquelicot.
From Flocq Require Import Core.
From Verif Require Import Base PolyModel PolySpec VertexModel VertexProofs TrajModel TrajSpec TrajProofs
  WaypointModel DynModel DynSpec DynProofs DynScenario
  LinOptModel LinOptSpec LinFinal PropertiesLin NonlinModel NonlinSpec NonlinProofs NonlinFinal PropertiesNonlin
  FloatModel ComputeModel ComputeSpec ComputeProofs PropertiesEval.
Import List ListNotations.
Set Bullet Behavior "Strict Subproofs".
Local Open Scope R_scope.

(** Consecutive waypoints are not (almost) equal: at least epsilon seconds of
    flight at the given speed. *)
Definition apart (speed : R) (ws : list waypoint) : Prop :=
  forall i a b, nth_error ws i = Some a -> nth_error ws (S i) = Some b ->
    DBL_EPS * float32 speed <= vec_norm (vec_sub (pos_of (w_vertex b)) (pos_of (w_vertex a))).
(** NLopt evaluates points inside its bounds only. *)
Definition solver_ok inv qr (speed : R) (ws : list waypoint) (xs : list (list R)) : Prop :=
  forall vs times, extract_vertices ws = Some vs ->
    estimate_segment_times vs (float32 speed) A_MAX = Some times -> solver_run inv qr speed vs times xs.

(** What the vertices are. *)
Lemma extract_spec ws : ws <> [] -> exists vs, extract_vertices ws = Some vs /\ length vs = length ws /\
  forall i w, nth_error ws i = Some w ->
    nth_error vs i = Some (if (S i =? length ws)%nat then at_rest_end (w_vertex w) else w_vertex w).
Proof.
  intros Ne. assert (E : exists vs, extract_vertices ws = Some vs) by (destruct ws; [congruence|simpl; eauto]).
  destruct E as (vs & E). exists vs. split; auto. pose proof (extract_length _ _ E) as L. split; auto.
  intros i w Hw. assert (E' : vs = removelast (map w_vertex ws) ++ [at_rest_end (last (map w_vertex ws) (vertex_new 3))]).
  { destruct ws; [congruence|]. cbn [extract_vertices] in E. congruence. }
  assert (M : map w_vertex ws = removelast (map w_vertex ws) ++ [last (map w_vertex ws) (vertex_new 3)]).
  { apply app_removelast_last. destruct ws; [congruence|discriminate]. }
  assert (Hm : nth_error (map w_vertex ws) i = Some (w_vertex w)) by (rewrite nth_error_map, Hw; reflexivity).
  assert (Lr : length ws = S (length (removelast (map w_vertex ws)))).
  { apply (f_equal (@length _)) in M. rewrite map_length, app_length in M. simpl in M. lia. }
  rewrite E'. rewrite M in Hm. assert (Hi : (i < length ws)%nat) by (apply nth_error_Some; congruence).
  destruct (Nat.eqb_spec (S i) (length ws)) as [H|H].
  - rewrite nth_error_app2 in Hm |- * by lia.
    assert (Z : (i - length (removelast (map w_vertex ws)) = 0)%nat) by lia. rewrite Z in *. simpl in *. congruence.
  - rewrite nth_error_app1 in Hm |- * by lia. auto.
Qed.
Lemma at_rest_pos v : pos_of (at_rest_end v) = pos_of v.
Proof. unfold pos_of, at_rest_end. rewrite !get_set_other by discriminate. reflexivity. Qed.

Lemma extract_pos ws vs i a : extract_vertices ws = Some vs -> nth_error vs i = Some a ->
  exists w, nth_error ws i = Some w /\ pos_of a = pos_of (w_vertex w).
Proof.
  intros E Ha. assert (Ne : ws <> []) by (intros ->; discriminate).
  destruct (extract_spec ws Ne) as (vs' & E' & L & N). assert (vs' = vs) by congruence. subst vs'.
  assert (Hi : (i < length ws)%nat) by (rewrite <- L; apply nth_error_Some; congruence).
  destruct (nth_error ws i) as [w|] eqn:Ew; [|apply nth_error_None in Ew; lia].
  exists w. split; auto. rewrite (N i w Ew) in Ha. destruct (_ =? _)%nat; inversion Ha; subst; auto. apply at_rest_pos.
Qed.

Lemma nfabian_lower v a b : 0 < v -> DBL_EPS * v <= vec_norm (vec_sub (pos_of b) (pos_of a)) ->
  DBL_EPS <= nfabian_time v A_MAX a b.
Proof.
  intros Hv H. pose proof A_MAX_pos as HA.
  assert (Q : DBL_EPS <= vec_norm (vec_sub (pos_of b) (pos_of a)) / v).
  { apply (Rmult_le_reg_r v); auto. unfold Rdiv. rewrite Rmult_assoc, Rinv_l, Rmult_1_r by lra. exact H. }
  assert (P : 0 < v / A_MAX) by (apply Rdiv_lt_0_compat; auto).
  unfold nfabian_time. destruct (_ || _); lra.
Qed.
Lemma apart_long speed ws : 0 < float32 speed -> apart speed ws -> long_enough speed ws.
Proof.
  intros Hv A vs times E T. unfold estimate_segment_times in T.
  destruct (length vs <? 2)%nat; [discriminate|]. inversion T; subst times. unfold usable_times.
  apply pairwise_forall. intros i a b Ha Hb.
  destruct (extract_pos _ _ _ _ E Ha) as (wa & Ea & Pa). destruct (extract_pos _ _ _ _ E Hb) as (wb & Eb & Pb).
  apply nfabian_lower; auto. rewrite Pa, Pb. eapply A; eauto.
Qed.
Lemma usable_positive ts : usable_times ts -> Forall (fun T => 0 < T) ts.
Proof.
  apply Forall_impl. intros T HT. assert (0 < DBL_EPS) by (unfold DBL_EPS; apply Rinv_0_lt_compat, pow_lt; lra). lra.
Qed.

Lemma compute_post find_roots inv qr xs speed lineal ws : exact_inverse inv -> Forall wp_good ws ->
  (2 <= length ws)%nat -> 0 < float32 speed -> long_enough speed ws -> solver_ok inv qr speed ws xs ->
  exists vs tr, extract_vertices ws = Some vs /\
    compute_trajectory find_roots inv qr xs speed lineal ws = Val tr /\ full_post vs tr.
Proof.
  intros HI G H2 Hv LE SO. destruct (extract_spec ws) as (vs & E & L & _); [destruct ws; [simpl in H2; lia|discriminate]|].
  pose proof (goods_extract _ _ G E) as GV.
  assert (Et : exists times, estimate_segment_times vs (float32 speed) A_MAX = Some times).
  { unfold estimate_segment_times. destruct (Nat.ltb_spec (length vs) 2); [lia|eauto]. }
  destruct Et as (times & Et). pose proof (LE vs times E Et) as UT.
  assert (VD : vertices_dim 3 vs).
  { eapply Forall_impl; [|exact GV]. intros v (D & _ & F). split; auto. intros k c Hc. apply (F k c Hc). }
  assert (Low : forall w k c, In w vs -> get_constraint k w = Some c -> (k <= 4)%nat).
  { intros w k c Hw Hc. rewrite Forall_forall in GV. destruct (GV w Hw) as (_ & _ & F). apply (F k c Hc). }
  assert (So : exists o, setup inv 10 3 vs times 2 = Some o).
  { apply setup_defined. split; [simpl; lia|]. split; [|apply usable_positive; auto].
    unfold estimate_segment_times in Et. destruct (Nat.ltb_spec (length vs) 2); [discriminate|].
    inversion Et. rewrite length_pairwise. lia. }
  assert (H2' : (2 <= length vs)%nat) by lia.
  unfold compute_trajectory. rewrite E, Et. destruct (Nat.ltb_spec (length vs) 2); [lia|]. exists vs.
  destruct lineal.
  - destruct (linear_post inv qr HI vs times H2' VD Low UT So) as (tr & X & P). eauto.
  - destruct (nonlinear_post find_roots inv qr HI xs vs times (float32 speed) Hv H2' VD Low UT So) as (tr & X & P); eauto.
    intros s Es. exact (SO vs times E Et s Es).
Qed.

(** C77: for waypoints that are apart, whatever points NLopt evaluates and with
    either optimiser, the computation succeeds; the trajectory has one segment
    of positive duration per pair of waypoints, meets every constraint of every
    waypoint, ends at rest, and is continuous up to the fourth derivative. *)
Theorem C77_trajectory :
  forall find_roots inv qr (xs : list (list R)) (speed : R) (lineal : bool) (ws : list waypoint),
  exact_inverse inv -> Forall wp_good ws -> (2 <= length ws)%nat -> 0 < float32 speed -> apart speed ws ->
  solver_ok inv qr speed ws xs ->
  exists tr, compute_trajectory find_roots inv qr xs speed lineal ws = Val tr /\
    traj_wf tr /\ positive_times tr /\ t_D tr = 3%nat /\ length ws = S (length (t_segs tr)) /\
    (forall i w k c, nth_error ws i = Some w -> get_constraint k (w_vertex w) = Some c ->
       (S i = length ws -> k <> 1%nat /\ k <> 2%nat) ->
       traj_evaluate tr (start_of tr i) k = Some c) /\
    traj_evaluate tr (t_max tr) 1 = Some [0; 0; 0] /\ traj_evaluate tr (t_max tr) 2 = Some [0; 0; 0] /\
    joined tr 4.
Proof.
  intros find_roots inv qr xs speed lineal ws HI G H2 Hv A SO.
  destruct (compute_post find_roots inv qr xs speed lineal ws HI G H2 Hv (apart_long _ _ Hv A) SO) as
    (vs & tr & E & EC & (W & P & D & L) & M & J).
  exists tr. split; auto. split; auto. split; auto. split; auto.
  destruct (extract_spec ws) as (vs' & E' & L' & Nv); [destruct ws; [simpl in H2; lia|discriminate]|].
  assert (vs' = vs) by congruence. subst vs'. split; [lia|].
  destruct (nth_error ws (length ws - 1)) as [w|] eqn:Ew; [|apply nth_error_None in Ew; lia].
  pose proof (Nv _ _ Ew) as Ev. destruct (Nat.eqb_spec (S (length ws - 1)) (length ws)); [|lia].
  assert (Em : start_of tr (length ws - 1) = t_max tr).
  { unfold start_of. replace (length ws - 1)%nat with (length (t_segs tr)) by lia. rewrite firstn_all. symmetry. apply W. }
  split; [|split; [|split; [|exact J]]].
  - intros i w0 k c Hw Hc Last. pose proof (Nv i w0 Hw) as Hv'. apply (M i _ k c Hv').
    destruct (Nat.eqb_spec (S i) (length ws)) as [H|H]; auto. destruct (Last H).
    unfold at_rest_end. rewrite !get_set_other by auto. exact Hc.
  - rewrite <- Em. apply (M _ _ 1%nat [0; 0; 0] Ev). unfold at_rest_end.
    rewrite get_set_other by discriminate. rewrite get_set_same. reflexivity.
  - rewrite <- Em. apply (M _ _ 2%nat [0; 0; 0] Ev). unfold at_rest_end. rewrite get_set_same. reflexivity.
Qed.

(** C77: two consecutive equal waypoints of which neither is at rest and the
    second is not the last one abort the process. *)
Theorem C77_equal_waypoints_abort :
  forall find_roots inv qr (xs : list (list R)) (speed : R) (lineal : bool) (ws : list waypoint)
         (i : nat) (a b : waypoint),
  Forall wp_good ws -> 0 < float32 speed ->
  nth_error ws i = Some a -> nth_error ws (S i) = Some b -> (S (S i) < length ws)%nat ->
  stuck_pair (w_vertex a) (w_vertex b) ->
  compute_trajectory find_roots inv qr xs speed lineal ws = Undef.
Proof.
  intros find_roots inv qr xs speed lineal ws i a b G Hv Ha Hb Hi St.
  destruct (extract_spec ws) as (vs & E & L & Nv); [destruct ws; [simpl in Hi; lia|discriminate]|].
  pose proof (goods_extract _ _ G E) as GV.
  destruct (C52_accepted_iff inv 10 3 vs 2 (float32 speed) A_MAX) as (times & Et & Acc); auto.
  - lia.
  - exact A_MAX_pos.
  - simpl. lia.
  - eapply Forall_impl; [|exact GV]. intros v (D & (p & Ep) & F). exists p. split; auto. apply (F 0%nat p Ep).
  - assert (No : setup inv 10 3 vs times 2 = None).
    { destruct (setup inv 10 3 vs times 2) as [o|] eqn:Eo; auto. exfalso.
      pose proof (Nv i a Ha) as Va. pose proof (Nv (S i) b Hb) as Vb.
      destruct (Nat.eqb_spec (S i) (length ws)); [lia|]. destruct (Nat.eqb_spec (S (S i)) (length ws)); [lia|].
      exact (proj1 Acc (ex_intro _ o eq_refl) i _ _ Va Vb St). }
    unfold compute_trajectory. rewrite E, Et. destruct (Nat.ltb_spec (length vs) 2); [lia|].
    destruct lineal; unfold linear_result, nonlinear_result, configure_nonlinear, nl_setup; rewrite No; reflexivity.
Qed.

(** The states of the optimiser while it works: as configured, after the linear
    solution it starts from, after any evaluations of the objective. *)
Inductive working find_roots inv qr (s0 : nonlin) : nonlin -> Prop :=
| work_start : working find_roots inv qr s0 s0
| work_linear s : working find_roots inv qr s0 s ->
    working find_roots inv qr s0 (mkNL (solve_linear qr 10 (nl_opt s)) (nl_params_ s) (nl_cons s) (nl_info s))
| work_evaluate x s s' J : working find_roots inv qr s0 s -> evaluation find_roots inv qr 10 x s s' J ->
    working find_roots inv qr s0 s'.

Lemma configured_fields inv vs times v s : configure_nonlinear inv vs times v = Some s ->
  nl_params_ s = generator_params /\ nl_cons s = [mkCD 1 v; mkCD 2 A_MAX].
Proof.
  unfold configure_nonlinear, nl_setup. destruct (setup _ _ _ _ _ _); [|discriminate].
  unfold add_max_constraint. destruct (Rltb v 0); [discriminate|]. destruct (Rltb A_MAX 0); [discriminate|].
  intros E; inversion E; subst; split; reflexivity.
Qed.
Lemma working_fields find_roots inv qr vs s0 s : opt_use inv qr 10 3 vs 2 (nl_opt s0) -> working find_roots inv qr s0 s ->
  opt_use inv qr 10 3 vs 2 (nl_opt s) /\ nl_params_ s = nl_params_ s0 /\ nl_cons s = nl_cons s0.
Proof.
  intros U W. induction W as [|s W IH|x s s' J W IH E]; auto.
  - destruct IH as (A & B & C). cbn. split; auto. apply use_solve; auto.
  - destruct IH as (A & B & C). destruct (evaluation_finish _ _ _ _ _ _ _ _ _ _ _ A E) as (y & o & F & _ & So).
    apply solution_solved in So. unfold finish_objective in F.
    destruct (if p_use_soft _ then _ else _); try discriminate. inversion F; subst. cbn. split; auto.
    apply solved_use; auto.
Qed.

(** C77: the value minimised by computeTrajectory, at every evaluation: the
    integral of the squared second derivative, 1000 times the squared duration,
    and one bounded penalty each for the largest speed, against the speed asked
    for, and for the largest acceleration, against a_max. *)
Theorem C77_objective :
  forall find_roots inv qr (vs : list vertex) (times : list R) (v : R) (s0 s s' : nonlin) (x : list R) (J : R),
  exact_root_finder find_roots -> (2 <= length vs)%nat -> configure_nonlinear inv vs times v = Some s0 ->
  working find_roots inv qr s0 s -> evaluation find_roots inv qr 10 x s s' J ->
  let segs := o_segs (nl_opt s') in
  exists speed acceleration, max_norm segs 1 speed /\ max_norm segs 2 acceleration /\
    J = energy 2 segs + 1000 * lsum (map s_time segs) ^ 2
        + Rmin (10 ^ 12) (exp (100 * ((speed - v) / v)))
        + Rmin (10 ^ 12) (exp (100 * ((acceleration - A_MAX) / A_MAX))).
Proof.
  intros find_roots inv qr vs times v s0 s s' x J HR H2 EC W E segs.
  destruct (configured_fields _ _ _ _ _ EC) as [Ep Ec].
  destruct (configured_use inv qr _ _ _ _ _ _ _ (proj1 (configure_configured _ _ _ _ _ EC))) as (U0 & _).
  destruct (working_fields _ _ _ _ _ _ U0 W) as (U & Ep' & Ec').
  rewrite Ep in Ep'. rewrite Ec in Ec'.
  destruct (C75_parts find_roots inv qr 10 3 vs 2 x s s' J valid_10 U E) as (EJ & _ & E1 & E2 & _ & E3).
  destruct (evaluation_finish _ _ _ _ _ _ _ _ _ _ _ U E) as (y & o & F & _ & So).
  assert (Eo : nl_opt s' = o).
  { unfold finish_objective in F. destruct (if p_use_soft _ then _ else _); try discriminate. inversion F; reflexivity. }
  rewrite Ep' in E2, E3. cbn [p_alloc p_use_soft p_soft_weight p_time_penalty generator_params] in E2, E3.
  specialize (E3 eq_refl). rewrite Ec' in E3. subst segs. rewrite Eo in *.
  pose proof (solution_solved _ _ _ _ _ _ _ So) as S.
  pose proof (solved_use _ _ _ _ _ _ _ S) as Uo. destruct (opt_use_segs _ _ _ _ _ _ _ Uo) as [L Wf].
  assert (Mx : forall k, (k + 1 < 10)%nat -> exists M, max_norm (o_segs o) k M).
  { intros k Hk. destruct (NonlinProofs.max_of_magnitude_spec find_roots 10 k 3 o HR Hk ltac:(lia)) as (e & q & _ & Me & _); eauto.
    - apply (use_segs_ne inv qr 10 3 vs 2 H2); auto.
    - rewrite (use_vertices inv qr 10 3 vs 2 o Uo), L. symmetry. apply (use_times_len inv qr 10 3 vs 2 o Uo).
    - eapply Forall_impl; [|exact (solved_positive inv qr 10 3 vs 2 o S)]. simpl. intros; lra. }
  destruct (Mx 1%nat ltac:(lia)) as (V & HV). destruct (Mx 2%nat ltac:(lia)) as (A & HA).
  exists V, A. split; auto. split; auto.
  generalize dependent (10 ^ 12). intros mx E3.
  rewrite (C57_value find_roots inv qr 10 3 vs 2 o _ _ _ (fun k => if (k =? 1)%nat then V else A)) in E3; auto.
  - cbn [map cd_deriv cd_value lsum Nat.eqb] in E3. rewrite EJ, E1, E2. injection E3 as <-.
    rewrite (Rmult_comm 100 ((V - v) / v)), (Rmult_comm 100 ((A - A_MAX) / A_MAX)). ring.
  - repeat constructor; cbn; lia.
Qed.
Print Assumptions C77_objective.
Example C77_objective_example : forall find_roots inv qr, exists s0 s' J,
  configure_nonlinear inv three_vertices [1; 2] 1 = Some s0 /\ working find_roots inv qr s0 s0 /\
  evaluation find_roots inv qr 10 [3; 4] s0 s' J.
Proof.
  intros find_roots inv qr. assert (So : exists o, setup inv 10 3 three_vertices [1; 2] 2 = Some o).
  { apply setup_defined. split; [simpl; lia|]. split; [reflexivity|]. repeat constructor; lra. }
  apply (configure_defined inv three_vertices [1; 2] 1 ltac:(lra)) in So. destruct So as (s0 & E).
  destruct (configure_configured _ _ _ _ _ E) as [C OK].
  destruct (configured_use inv qr _ _ _ _ _ _ _ C) as (U & _).
  destruct (objective_time_spec find_roots inv qr 10 3 three_vertices 2 ltac:(simpl; lia) [3; 4] s0 U OK) as
    (s' & J & _ & Eo & _).
  { split; [reflexivity|]. repeat constructor; lra. }
  exists s0, s', J. split; auto. split; [apply work_start|left; exact Eo].
Qed.

(** C77: every execution in which the computation thread runs the optimiser is
    an execution of the state machine whose computations satisfy the complete
    optimiser contract [full_post]. *)
Theorem C77_executions :
  forall find_roots inv qr (junk : V3) (h : list (event * obs)) (s : state),
  exact_inverse inv -> code_run find_roots inv qr (init junk) h s -> run full_post (init junk) h s.
Proof.
  intros find_roots inv qr junk h s HI.
  assert (X : forall s0, goods s0 -> DynProofs.inv s0 -> code_run find_roots inv qr s0 h s -> run full_post s0 h s).
  { clear junk. revert s. induction h as [|[e o] h IH]; intros s s0 G I R; inversion R; subst; [constructor|].
    assert (OK : event_ok full_post s0 e).
    { destruct e; cbn [code_ok event_ok] in *; auto.
      - eapply Forall_impl; [|eassumption]. apply good_ok.
      - apply good_ok; auto.
      - destruct H3 as (He & speed & Hf & Hv & xs & vs & times & E & Et & SR & LE & EC). split; auto.
        exists vs. split; auto.
        assert (H2 : (2 <= length (d_next s0))%nat) by (apply (i_two s0 I); right; right; congruence).
        assert (SO : solver_ok inv qr speed (d_next s0) xs).
        { intros vs' times' E' Et'. assert (vs' = vs) by congruence. subst vs'.
          assert (times' = times) by congruence. subst times'. exact SR. }
        destruct (compute_post find_roots inv qr xs speed false (d_next s0) HI) as (vs' & tr' & E' & EC' & P); auto.
        + apply G.
        + assert (vs' = vs) by congruence. subst vs'. assert (tr' = tr) by congruence. subst tr'. exact P. }
    econstructor; eauto. apply IH; auto.
    - eapply goods_step; eauto.
    - eapply step_inv; [exact full_basic|exact I|exact OK|eauto]. }
  apply X.
  - repeat constructor.
  - apply inv_init.
Qed.

(** C77: hence the reference passes every waypoint at its time minus the time
    compensation, with nothing assumed about the optimiser's result. *)
Theorem C77_passes :
  forall find_roots inv qr (junk : V3) (h : list (event * obs)) (s : state) (k : nat) (w : waypoint),
  exact_inverse inv -> code_run find_roots inv qr (init junk) h s -> fresh_calls h ->
  nth_error (dynamic_waypoints s) k = Some w -> outside (dynamic_waypoints s) (w_time w) ->
  exists r, eval_refs (w_time w - time_compensation s) true s = Some r /\ r_pos r = w_orig w.
Proof.
  intros find_roots inv qr junk h s k w HI R. eapply C18_passes. eapply C77_executions; eauto.
Qed.
(** C77: and after the end it holds the last waypoint with zero velocity and acceleration. *)
Theorem C77_holds :
  forall find_roots inv qr (junk : V3) (h : list (event * obs)) (s : state) (T t : R) (ws : list waypoint) (w : waypoint),
  exact_inverse inv -> code_run find_roots inv qr (init junk) h s -> fresh_calls h ->
  max_time s = Some T -> dynamic_waypoints s = ws ++ [w] ->
  T <= t + time_compensation s -> outside (dynamic_waypoints s) (t + time_compensation s) ->
  eval_refs t false s = Some (mkRefs (w_orig w) (Some v3_zero) (Some v3_zero)).
Proof.
  intros find_roots inv qr junk h s T t ws w HI R. eapply C13_hold. eapply C77_executions; eauto.
Qed.
Print Assumptions C77_trajectory.
Print Assumptions C77_equal_waypoints_abort.
Print Assumptions C77_executions.
Print Assumptions C77_passes.
Print Assumptions C77_holds.

(** ** Example *)

Lemma float32_1 : float32 1 = 1.
Proof.
  unfold float32. apply round_generic; [apply valid_rnd_N|].
  apply (generic_format_F2R' radix2 exp32 1 (Float radix2 1 0)).
  - unfold F2R. simpl. ring.
  - intros _. unfold cexp, exp32. rewrite (mag_unique radix2 1 1); [vm_compute; discriminate|].
    rewrite Rabs_pos_eq by lra. simpl. lra.
Qed.
Lemma good_fresh n p : wp_good (fresh n p).
Proof. apply set_position_good; reflexivity. Qed.

Lemma flight_apart : apart 1 [wd; wa; wb].
Proof.
  intros i a b Ha Hb. rewrite float32_1. pose proof eps_le_1.
  assert (E : vec_norm (vec_sub (pos_of (w_vertex b)) (pos_of (w_vertex a))) = 1).
  { destruct i as [|[|[|i]]]; simpl in Ha, Hb; try discriminate; inversion Ha; inversion Hb; subst;
      unfold vec_norm; cbn; (match goal with |- sqrt ?x = 1 => replace x with 1 by ring end); apply sqrt_1. }
  rewrite E. lra.
Qed.

Lemma code_app find_roots inv qr s h s1 h' s2 : code_run find_roots inv qr s h s1 ->
  code_run find_roots inv qr s1 h' s2 -> code_run find_roots inv qr s (h ++ h') s2.
Proof. induction 1; intros R; [exact R|]. simpl. econstructor; eauto. Qed.
Lemma back_code post find_roots inv qr l : forall s s', run post s (backs l) s' -> code_run find_roots inv qr s (backs l) s'.
Proof.
  induction l as [|o l IH]; intros s s' R; inversion R; subst; [constructor|].
  econstructor; [exact Logic.I|eassumption|]. apply IH. assumption.
Qed.

(** An execution from the start to the end of the first computation. *)
Example C77_example :
  forall find_roots inv qr, exact_inverse inv ->
  exists (tr : trajectory) (s : state),
    code_run find_roots inv qr (init v3_zero)
      ([(SetSpeed 1, Quiet); (SetWaypoints [wa; wb], Quiet)] ++
       backs [Quiet; Quiet; Quiet; Quiet; Quiet; Quiet; Quiet; Quiet; Launched; Quiet] ++
       [(CompSpeed, Quiet); (CompDone tr (/ 100), Quiet)]) s /\
    d_fut s = FReady tr /\ length (t_segs tr) = 2%nat.
Proof.
  intros find_roots inv qr HI.
  assert (SO : solver_ok inv qr 1 [wd; wa; wb] []).
  { intros vs times _ _ s _. unfold allowed. destruct (p_alloc _); repeat constructor; intros; repeat constructor. }
  assert (G : Forall wp_good [wd; wa; wb]).
  { constructor; [apply good_drone|]. constructor; [apply good_fresh|]. constructor; [apply good_fresh|constructor]. }
  assert (H1 : 0 < float32 1) by (rewrite float32_1; lra).
  destruct (C77_trajectory find_roots inv qr [] 1 false [wd; wa; wb] HI G ltac:(simpl; lia) H1 flight_apart SO) as
    (tr & EC & W & P & D & L & _).
  destruct (retime_spec tr 0 [wd; wa; wb] 0) as (ws & Er & _); [simpl in *; lia|].
  set (r1 := set_fut (FRunning 1) l1).
  exists tr, (set_fut (FReady tr) (set_tc (/ 100) (set_next ws r1))).
  split; [|split; [reflexivity|simpl in L; lia]].
  cbn [app].
  eapply code_cons; [exact Logic.I|reflexivity|].
  eapply code_cons; [exact (Forall_cons _ (good_fresh _ _) (Forall_cons _ (good_fresh _ _) (Forall_nil _)))|reflexivity|].
  eapply code_app.
  - apply (back_code full_post). apply launch_solo; try reflexivity. discriminate.
  - rewrite launched1. apply (code_cons find_roots inv qr l1 CompSpeed Quiet r1); [exact Logic.I|reflexivity|].
    apply (code_cons find_roots inv qr r1 (CompDone tr (/ 100)) Quiet
      (set_fut (FReady tr) (set_tc (/ 100) (set_next ws r1)))); [| |constructor].
    + split; [lra|]. exists 1. split; [reflexivity|]. split; [exact H1|].
      destruct (extract_spec [wd; wa; wb]) as (vs & E & Lv & _); [discriminate|].
      assert (Et : exists times, estimate_segment_times vs (float32 1) A_MAX = Some times).
      { unfold estimate_segment_times. destruct (Nat.ltb_spec (length vs) 2); [simpl in Lv; lia|eauto]. }
      destruct Et as (times & Et). exists [], vs, times. split; [exact E|]. split; [exact Et|].
      split; [exact (SO vs times E Et)|]. split; [exact (apart_long _ _ H1 flight_apart)|exact EC].
    + cbn [step]. unfold comp_done. change (d_fut r1) with (FRunning 1). cbv iota.
      change (p_gtl (d_new r1)) with 0. change (d_next r1) with [wd; wa; wb]. rewrite Er. reflexivity.
Qed.
