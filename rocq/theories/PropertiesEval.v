(** Property theorems: references returned by evaluateTrajectory
    (C12, C13, C17, C18).  [reference tr ws g l d i] (DynSpec) is the trajectory
    at local time l clamped to its duration plus the compensations of the named
    waypoints of ws at the global time g. *)
From Coq Require Import Reals Lra Lia List Bool ZArith Arith.
From Coquelicot Require Import Coquelicot.
From Verif Require Import Base PolyModel PolySpec VertexModel TrajModel TrajSpec TrajProofs RangeProofs PolyProofs
  WaypointModel WaypointProofs Names DynModel DynSpec DynProofs DynFrame DynTrace DynQueue DynMore EvalProofs StopAndGo
  DynScenario PropertiesDyn.
Import List ListNotations.
Local Open Scope R_scope.
Set Bullet Behavior "Strict Subproofs".

Lemma reference_copy tr ws g l d i : reference tr (map wp_copy ws) g l d i = reference tr ws g l d i.
Proof.
  unfold reference. rewrite (filter_map_copy (fun w => negb (name_eqb (w_name w) no_name))) by reflexivity.
  rewrite map_map. reflexivity.
Qed.
Lemma outside_copy ws g : outside (map wp_copy ws) g -> outside ws g.
Proof. intros H w m i Hw Hn Hm. apply (H (wp_copy w) m i); auto. now apply in_map. Qed.

(** C12: references are the clamped trajectory plus the compensations. *)
Theorem C12_references :
  forall (s : state) (tr : trajectory) (t m : R), reachable s -> d_traj s = Some tr -> min_time s = Some m ->
  exists p v a, eval_refs t false s = Some (mkRefs p (Some v) (Some a)) /\
    eval_refs t true s = Some (mkRefs p None None) /\
    forall i, (i < 3)%nat ->
      v3_nth i p = reference tr (dynamic_waypoints s) (t + time_compensation s) (t + time_compensation s - m) 0 i /\
      v3_nth i v = reference tr (dynamic_waypoints s) (t + time_compensation s) (t + time_compensation s - m) 1 i /\
      v3_nth i a = reference tr (dynamic_waypoints s) (t + time_compensation s) (t + time_compensation s - m) 2 i.
Proof.
  intros s tr t m HR HT HM. destruct (i_traj s (reachable_inv s HR) tr HT) as [HG _].
  unfold eval_refs. rewrite HT. cbn [get_references].
  do 3 eexists. split; [reflexivity|]. split; [reflexivity|]. intros i Hi.
  unfold min_time in HM. rewrite HT in HM. inversion HM; subst.
  unfold dynamic_waypoints, time_compensation. rewrite !reference_copy.
  replace (t + p_off (d_par s) - (0 + p_gtl (d_par s))) with (t - p_gtl (d_par s) + p_off (d_par s)) by lra.
  rewrite !eval_modified_reference by auto. auto.
Qed.
(** The trajectory part always comes from the segment that contains the clamped time. *)
Theorem C12_inside :
  forall (s : state) (tr : trajectory) (l : R) (d : nat), reachable s -> d_traj s = Some tr ->
  let x := Rmax 0 (Rmin l (t_max tr)) in
  exists k sg, nth_error (t_segs tr) k = Some sg /\ start_of tr k <= x <= start_of tr (S k) /\
    (forall i, comp tr d i x = nth i (seg_deriv sg d (x - start_of tr k)) 0).
Proof.
  intros s tr l d HR HT x. destruct (i_traj s (reachable_inv s HR) tr HT) as [HG _].
  destruct (eval_clamped tr l d HG) as (k & sg & A & B & C). exists k, sg. split; [auto|]. split; [auto|].
  intros i. unfold comp, x. now rewrite C.
Qed.
(** With any (e.g. rounded) addition and subtraction: the clamped time still
    selects a segment, never the zero vector of the out-of-range case. *)
Theorem C12_any_addition :
  forall (add sub : R -> R -> R) (ss : list segment) (tr : trajectory) (l : R) (d : nat),
  set_segments_gen add ss = Some tr ->
  exists s x, In s ss /\ traj_evaluate_gen add sub tr (clamp_local tr l) d = Some (seg_evaluate s x d).
Proof.
  intros add sub ss tr l d H. apply evaluate_gen_in_range; auto. unfold clamp_local. cbn zeta. repeat rcase; lra.
Qed.
Print Assumptions C12_references.
Print Assumptions C12_inside.
Print Assumptions C12_any_addition.
Example C12_example : reachable st1 /\ d_traj st1 = Some tr1 /\ min_time st1 = Some (0 + 0) /\ t_max tr1 = 1 + (1 + 0).
Proof. split; [apply st1_reachable|]. repeat split. Qed.

(** C13: hold at the end. *)
Lemma last_nth {A} (l : list A) x n : S n = length (l ++ [x]) -> nth_error (l ++ [x]) n = Some x.
Proof. rewrite app_length. cbn. intros H. rewrite nth_error_app2 by lia. replace (n - length l)%nat with O by lia. reflexivity. Qed.
Theorem C13_hold :
  forall (junk : V3) (h : list (event * obs)) (s : state) (T t : R) (ws : list waypoint) (w : waypoint),
  run full_post (init junk) h s -> fresh_calls h ->
  max_time s = Some T -> dynamic_waypoints s = ws ++ [w] ->
  T <= t + time_compensation s -> outside (dynamic_waypoints s) (t + time_compensation s) ->
  eval_refs t false s = Some (mkRefs (w_orig w) (Some v3_zero) (Some v3_zero)).
Proof.
  intros junk h s T t ws w R HF HM HD Ht HO. destruct (fr_run _ _ _ R HF) as [F I].
  unfold max_time in HM. destruct (d_traj s) as [tr|] eqn:ET; [|discriminate]. inversion HM; subst T.
  destruct (i_traj s I tr ET) as (HG & HL & _).
  assert (HN : exists w0, nth_error (d_dyn s) (length (t_segs tr)) = Some w0 /\ w_orig w0 = w_orig w).
  { unfold dynamic_waypoints in HD. assert (nth_error (map wp_copy (d_dyn s)) (length (t_segs tr)) = Some w).
    { rewrite HD. apply last_nth. rewrite <- HD, map_length. auto. }
    rewrite nth_error_map in H. destruct (nth_error (d_dyn s) _) as [w0|] eqn:E0; [|discriminate]. inversion H; subst.
    exists w0. split; reflexivity. }
  destruct HN as (w0 & HN & <-). apply outside_copy in HO. unfold time_compensation in *.
  unfold eval_refs. rewrite ET. cbn [get_references].
  assert (E : forall d i, (d <= 2)%nat -> (i < 3)%nat ->
    v3_nth i (eval_modified tr (d_dyn s) (t + p_off (d_par s)) (t - p_gtl (d_par s) + p_off (d_par s)) d) =
    match d with O => v3_nth i (w_orig w0) | _ => 0 end).
  { intros d i Hd Hi. rewrite eval_modified_reference by auto. apply (reference_end s); auto. lra. }
  do 2 f_equal; try f_equal; apply v3_ext3; intros i Hi; rewrite E by (auto; lia); auto; destruct i as [|[|[|]]]; reflexivity.
Qed.
Print Assumptions C13_hold.
Example C13_example : run full_post (init v3_zero) trace1 st1 /\ fresh_calls trace1 /\ max_time st1 = Some (1 + (1 + 0) + 0) /\
  (exists ws w, dynamic_waypoints st1 = ws ++ [w] /\ w_orig w = pb) /\
  (forall t, 2 <= t -> 1 + (1 + 0) + 0 <= t + time_compensation st1 /\ outside (dynamic_waypoints st1) (t + time_compensation st1)).
Proof.
  split; [apply run1|]. split.
  { unfold fresh_calls, trace1, backs. cbn [map app]. repeat (apply Forall_cons; [cbn [fst]; try exact Logic.I|]); try apply Forall_nil.
    all: split; [reflexivity|split; reflexivity]. }
  split; [reflexivity|]. split.
  { unfold dynamic_waypoints, st1. cbn [d_dyn dyn1 map]. exists [wp_copy (wp_set_time 0 (wp_set_index 0 wd)); wp_copy (wp_set_time 1 (wp_set_index 1 wa))].
    eexists. split; [reflexivity|reflexivity]. }
  intros t Ht. split; [unfold time_compensation; cbn; pose proof STEP_pos; lra|].
  intros w m i Hw _ Hm. exfalso. cbn in Hw. destruct Hw as [<-|[<-|[<-|[]]]]; destruct Hm.
Qed.

(** C17: the time compensation of a swap. *)
Definition distance_at (tr : trajectory) (ws : list waypoint) (m : R) (q : V3) (x : R) : R :=
  sqrt ((reference tr ws (x + m) x 0 0 - vx q) * (reference tr ws (x + m) x 0 0 - vx q) +
        (reference tr ws (x + m) x 0 1 - vy q) * (reference tr ws (x + m) x 0 1 - vy q) +
        (reference tr ws (x + m) x 0 2 - vz q) * (reference tr ws (x + m) x 0 2 - vz q)).
Lemma distance_ok tr ws m q x : good_traj tr -> fit_distance tr ws m q x = distance_at tr ws m q x.
Proof.
  intros HG. unfold fit_distance, distance_at, v3_norm, v3_sub. cbn [vx vy vz].
  rewrite <- (eval_modified_reference tr ws (x + m) x 0 0) by (auto; lia).
  rewrite <- (eval_modified_reference tr ws (x + m) x 0 1) by (auto; lia).
  rewrite <- (eval_modified_reference tr ws (x + m) x 0 2) by (auto; lia). reflexivity.
Qed.
(** [m] is the start of the new trajectory; p_global (d_par s) the last
    evaluated time, d_tc s the measured computation time.  STEP = 0.1f. *)
Theorem C17_nearest :
  forall (s s' : state) (new : trajectory) (m : R),
  reachable s -> step s Poll = Ok s' Swapped -> d_traj s' = Some new -> min_time s' = Some m ->
  exists (q : V3) (k : nat),
    (if d_scratch s then q = d_vehicle s
     else exists old, d_traj s = Some old /\ forall i, (i < 3)%nat -> v3_nth i q =
            reference old (dynamic_waypoints s) (p_global (d_par s) + time_compensation s)
                      (p_local (d_par s) + time_compensation s) 0 i) /\
    time_compensation s' = INR k * STEP - (p_global (d_par s) - m) + STEP /\
    (k = O \/ INR k * STEP < 3 * d_tc s) /\
    (forall j, j = O \/ INR j * STEP < 3 * d_tc s ->
       distance_at new (dynamic_waypoints s) m q (INR k * STEP) <= distance_at new (dynamic_waypoints s) m q (INR j * STEP)) /\
    (forall j, (k < j)%nat -> INR j * STEP < 3 * d_tc s ->
       distance_at new (dynamic_waypoints s) m q (INR k * STEP) < distance_at new (dynamic_waypoints s) m q (INR j * STEP)) /\
    STEP <= time_compensation s' + (p_global (d_par s) - m) <= 3 * d_tc s + STEP.
Proof.
  intros s s' new m HR H HT HM. pose proof (reachable_inv s HR) as I.
  destruct (poll_cases _ _ _ I H) as [(_ & A & _)|(tr & EF & ES & _)]; [discriminate|].
  destruct (i_ready s I tr EF) as [HG _].
  apply swap_fields in ES. destruct ES as (_ & _ & E3 & _ & _ & _ & _ & _ & _ & _ & _ & _ & _ & _ & _ & EP & _ & q & EN & HS1 & HS2).
  rewrite HT in E3. inversion E3; subst tr. clear E3.
  unfold min_time in HM. rewrite HT, EP, EN in HM. cbn [par_off p_gtl] in HM. inversion HM. rewrite Rplus_0_l in *.
  set (m0 := p_gtl (d_new s)) in *.
  assert (ED : forall x, distance_at new (dynamic_waypoints s) m0 q x = fit_distance new (d_dyn s) m0 q x).
  { intros x. rewrite distance_ok by auto. unfold distance_at, dynamic_waypoints. now rewrite !reference_copy. }
  destruct (fit_spec (fit_distance new (d_dyn s) m0 q) (d_tc s)) as (k & EK & SK & LE & LT).
  exists q, k. split.
  { destruct (d_scratch s); [auto|]. destruct HS2 as (old & EO & ->); auto. exists old. split; [auto|].
    intros i Hi. unfold dynamic_waypoints, time_compensation. rewrite reference_copy.
    apply eval_modified_reference; auto. apply (i_traj s I old EO). }
  assert (EC : time_compensation s' = INR k * STEP - (p_global (d_par s) - m0) + STEP).
  { unfold time_compensation. rewrite EP, EN. cbn [par_off p_off]. unfold fit_offset. fold m0. cbn zeta. now rewrite EK. }
  split; [exact EC|]. split; [exact SK|]. split.
  { intros j Hj. rewrite !ED. apply LE. exact Hj. }
  split.
  { intros j Hk Hj. rewrite !ED. apply LT; auto. right; auto. }
  rewrite EC. pose proof (i_tc s I). pose proof STEP_pos. pose proof (pos_INR k).
  assert (0 <= INR k * STEP) by (apply Rmult_le_pos; lra).
  assert (INR k * STEP <= 3 * d_tc s) by (destruct SK as [->|HK]; [cbn; lra|lra]). lra.
Qed.
(** When stitching, q is the reference last handed out, if the last
    non-plotting evaluation is more recent than the last swap. *)
Theorem C17_target :
  forall (s0 s1 s : state) (t : R) (o : obs) (h : list (event * obs)) (old : trajectory) (r : references),
  reachable s0 -> d_traj s0 <> None -> step s0 (Eval t) = Ok s1 o -> run basic_post s1 h s -> no_obs Swapped h -> not_eval h ->
  d_traj s = Some old -> eval_refs t true s = Some r ->
  forall i, (i < 3)%nat -> v3_nth i (r_pos r) =
    reference old (dynamic_waypoints s) (p_global (d_par s) + time_compensation s) (p_local (d_par s) + time_compensation s) 0 i.
Proof.
  intros s0 s1 s t o h old r HR HN H R HO HE HT Hr i Hi.
  assert (HR1 : reachable s1) by (eapply (reachable_step s0 (Eval t)); eauto).
  assert (I : inv s) by (apply reachable_inv; eapply reachable_run; eauto).
  destruct (clock_run _ _ _ _ basic_self (reachable_inv s1 HR1) R HO HE) as (A & B & C & D).
  cbn [step] in H. destruct (d_traj s0); [|congruence]. inversion H; subst. cbn in A, B, C, D.
  unfold eval_refs in Hr. rewrite HT in Hr. inversion Hr; subst. cbn [get_references r_pos].
  rewrite eval_modified_reference by (auto; apply (i_traj s I old HT)).
  unfold time_compensation, dynamic_waypoints. rewrite reference_copy, A, D. reflexivity.
Qed.
Print Assumptions C17_nearest.
Print Assumptions C17_target.
Definition swap_ready1 : state := set_fut (FReady tr1) (set_tc (/ 100) (set_next dyn1 l1)).
Example C17_example : reachable swap_ready1 /\ (exists s1, step swap_ready1 Poll = Ok s1 Swapped /\ step s1 PollEnd = Ok st1 Quiet) /\
  d_traj st1 = Some tr1 /\ min_time st1 = Some (0 + 0).
Proof.
  split; [|split; [|split; reflexivity]].
  2: { pose proof swap1 as W. fold swap_ready1 in W. destruct (do_swap tr1 swap_ready1) as [s1|] eqn:E; [|discriminate].
    exists s1. split; [eapply poll_ready; eauto; reflexivity|]. cbn [step]. rewrite (swap_late _ _ _ E).
    assert (W1 : settle s1 = st1) by (change (Some (settle s1) = Some st1) in W; congruence).
    rewrite <- W1. unfold settle. rewrite (swap_late _ _ _ E). reflexivity. }
  assert (R : run full_post (init v3_zero) (removelast (removelast trace1)) swap_ready1); [|eapply full_reachable; eauto].
  unfold trace1, backs. cbn [map app removelast]. econstructor; [exact Logic.I|reflexivity|].
  econstructor; [cbn; repeat constructor; apply fresh_ok|reflexivity|].
  change ((Back, Quiet) :: ?a) with ((Back, Quiet) :: a).
  match goal with |- run _ _ (?b1 :: ?b2 :: ?b3 :: ?b4 :: ?b5 :: ?b6 :: ?b7 :: ?b8 :: ?b9 :: ?b10 :: ?r) _ =>
    change (b1 :: b2 :: b3 :: b4 :: b5 :: b6 :: b7 :: b8 :: b9 :: b10 :: r) with
     (backs [Quiet; Quiet; Quiet; Quiet; Quiet; Quiet; Quiet; Quiet; Launched; Quiet] ++ r) end.
  eapply run_app; [apply launch_solo; try reflexivity; discriminate|]. rewrite launched1.
  econstructor; [exact Logic.I|reflexivity|].
  econstructor; [split; [lra|]; eexists; split; [reflexivity|exact full1]| |constructor].
  cbn [step]. unfold comp_done. cbn [d_fut set_fut]. change (p_gtl (d_new (set_fut (FRunning (p_speed (d_par l1))) l1))) with 0.
  change (d_next (set_fut (FRunning (p_speed (d_par l1))) l1)) with [wd; wa; wb]. rewrite retime1. reflexivity.
Qed.

(** C18: waypoints are passed at their time minus the time compensation. *)
Theorem C18_passes :
  forall (junk : V3) (h : list (event * obs)) (s : state) (k : nat) (w : waypoint),
  run full_post (init junk) h s -> fresh_calls h ->
  nth_error (dynamic_waypoints s) k = Some w -> outside (dynamic_waypoints s) (w_time w) ->
  exists r, eval_refs (w_time w - time_compensation s) true s = Some r /\ r_pos r = w_orig w.
Proof.
  intros junk h s k w R HF HN HO. destruct (fr_run _ _ _ R HF) as [F I].
  unfold dynamic_waypoints in HN. rewrite nth_error_map in HN.
  destruct (nth_error (d_dyn s) k) as [w0|] eqn:E0; [|discriminate]. inversion HN; subst. clear HN.
  destruct (d_traj s) as [tr|] eqn:ET; [|rewrite (i_none s I ET) in E0; destruct k; discriminate].
  apply outside_copy in HO. cbn [w_time wp_copy] in *.
  unfold eval_refs. rewrite ET. cbn [get_references]. eexists. split; [reflexivity|]. cbn [r_pos].
  apply v3_ext3. intros i Hi. unfold time_compensation.
  replace (w_time w0 - p_off (d_par s) + p_off (d_par s)) with (w_time w0) by lra.
  replace (w_time w0 - p_off (d_par s) - p_gtl (d_par s) + p_off (d_par s)) with (w_time w0 - p_gtl (d_par s)) by lra.
  rewrite eval_modified_reference by (auto; apply (i_traj s I tr ET)).
  rewrite (reference_at s tr k w0 i I F ET E0 Hi). rewrite outside_sum by auto. cbn [w_orig wp_copy]. rcase; lra.
Qed.
(** ... and so in general not at their time. *)
Theorem C18_at_its_time_refuted :
  exists (h : list (event * obs)) (s : state) (w : waypoint),
  run full_post (init v3_zero) h s /\ fresh_calls h /\ In w (dynamic_waypoints s) /\
  outside (dynamic_waypoints s) (w_time w) /\
  exists r, eval_refs (w_time w) true s = Some r /\ vx (w_orig w) < vx (r_pos r).
Proof.
  exists trace1, st1, (wp_set_time 1 (wp_set_index 1 wa)).
  split; [apply run1|]. split; [apply C13_example|]. split; [right; left; reflexivity|]. split.
  { intros w m i Hw _ Hm. exfalso. cbn in Hw. destruct Hw as [<-|[<-|[<-|[]]]]; destruct Hm. }
  eexists. split; [reflexivity|]. cbn [get_references r_pos].
  change (vx (eval_modified tr1 (d_dyn st1) (w_time (wp_set_time 1 (wp_set_index 1 wa)) + p_off (d_par st1))
    (w_time (wp_set_time 1 (wp_set_index 1 wa)) - p_gtl (d_par st1) + p_off (d_par st1)) 0)) with
    (v3_nth 0 (eval_modified tr1 dyn1 (1 + STEP) (1 - 0 + STEP) 0)).
  assert (HG : good_traj tr1) by (destruct (i_traj st1 (reachable_inv _ st1_reachable) tr1 eq_refl); auto).
  rewrite eval_modified_reference by (auto; lia). unfold reference. rewrite outside_sum.
  2:{ intros w m i Hw _ Hm. exfalso. cbn in Hw. destruct Hw as [<-|[<-|[<-|[]]]]; destruct Hm. }
  pose proof STEP_pos.
  replace (Rmax 0 (Rmin (1 - 0 + STEP) (t_max tr1))) with (1 + STEP).
  2:{ cbn [t_max tr1 sag go map fst lsum]. unfold Rmax, Rmin; repeat destruct (Rle_dec _ _); lra. }
  destruct HG as (HW & HP & _). unfold comp.
  rewrite (traj_evaluate_segment tr1 1 (go_seg 1 pa v3_zero v3_zero pb)); auto; try reflexivity.
  2,3: unfold start_of; cbn; lra.
  replace (1 + STEP - start_of tr1 1) with STEP by (unfold start_of; cbn; lra).
  replace (1 + STEP) with (1 + STEP) by reflexivity.
  assert (E : nth 0 (seg_deriv (go_seg 1 pa v3_zero v3_zero pb) 0 STEP) 0 =
     1 + STEP ^ 5 * (126 - 420 * STEP + 540 * STEP ^ 2 - 315 * STEP ^ 3 + 70 * STEP ^ 4)).
  { cbn. field. }
  rewrite E. cbn [w_orig wp_set_time wp_set_index wa fresh pa vx].
  assert (0 < STEP ^ 5) by (apply pow_lt; lra).
  assert (HQ : 0 < 126 - 420 * STEP + 540 * STEP ^ 2 - 315 * STEP ^ 3 + 70 * STEP ^ 4).
  { assert (0 <= STEP ^ 2) by apply pow2_ge_0. assert (0 <= STEP ^ 4) by (apply pow_le; lra).
    assert (STEP ^ 3 <= / 100) by (replace (/100) with ((1/10) * (1/10)); [|lra]; simpl; nra). lra. }
  pose proof (Rmult_lt_0_compat _ _ H0 HQ). rcase; lra.
Qed.
Print Assumptions C18_passes.
Print Assumptions C18_at_its_time_refuted.
Example C18_example : run full_post (init v3_zero) trace1 st1 /\ fresh_calls trace1 /\
  nth_error (dynamic_waypoints st1) 1 = Some (wp_set_time 1 (wp_set_index 1 wa)) /\
  (forall g, outside (dynamic_waypoints st1) g) /\ time_compensation st1 = STEP.
Proof.
  split; [apply run1|]. split; [apply C13_example|]. split; [reflexivity|]. split; [|reflexivity].
  intros g w m i Hw _ Hm. exfalso. cbn in Hw. destruct Hw as [<-|[<-|[<-|[]]]]; destruct Hm.
Qed.
