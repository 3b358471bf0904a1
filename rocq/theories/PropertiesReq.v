(** Property theorems: requests made to DynamicTrajectory (C04 - C11). *)
From Coq Require Import Reals Lra Lia List Bool ZArith Arith.
From Coquelicot Require Import Coquelicot.
From Verif Require Import Base PolyModel PolySpec VertexModel TrajModel TrajSpec TrajProofs RangeProofs
  WaypointModel WaypointProofs Names DynModel DynSpec DynProofs DynFrame DynTrace DynQueue DynMore StopAndGo DynScenario PropertiesDyn.
Import List ListNotations.
Local Open Scope R_scope.
Set Bullet Behavior "Strict Subproofs".

(** C04: setWaypoints is a complete replacement.  [collecting]: no other
    setWaypoints, and no step in which the background thread takes requests. *)
Theorem C04_replacement :
  forall (s0 s1 s2 s3 : state) (ws : list waypoint) (o o' : obs) (tr : list (event * obs)),
  reachable s0 -> ws <> [] -> step s0 (SetWaypoints ws) = Ok s1 o ->
  collecting basic_post s1 tr s2 -> d_pc s2 = PGen -> step s2 Back = Ok s3 o' ->
  Forall2 (fun w w' => placed (wanted tr w) w w') (ws ++ appended tr) (d_next s3) /\
  d_pc s3 = PParams /\ d_add s3 = [] /\ d_set s3 = [] /\ d_mod s3 = [].
Proof.
  intros s0 s1 s2 s3 ws o o' tr HR HW H1 HC HP H3. pose proof (step_queues _ _ _ _ H1) as Q. cbn [queues_after] in Q.
  injection Q as Q1 Q2 Q3.
  destruct (collecting_queues _ _ _ _ HC) as (A & B & C & D); [rewrite Q3; constructor|].
  assert (HS : d_set s2 <> []) by (rewrite B, Q2; destruct ws; [congruence|discriminate]).
  destruct (gen_set _ _ _ HP C HS H3) as (F & G). split; [|exact G].
  rewrite A, B, Q1, Q2 in F. cbn [app] in F. rewrite <- map_app in F. apply Forall2_placed_copy in F; [|reflexivity].
  eapply Forall2_placed_ext; [|exact F]. intros w. unfold pending, wanted. rewrite D, Q3. cbn [assoc].
  destruct (name_eqb _ _); auto. destruct (last_modified _ _); auto.
Qed.
(** From collecting the waypoints to handing them to the optimiser: only start
    points are added; nothing is dropped when starting from scratch; when
    stitching exactly those with a positive time before the end of the
    stitching window are. [sp] is the state in which the clock is read. *)
Theorem C04_launch_list :
  forall (s s' : state) (tr : list (event * obs)), reachable s -> d_pc s = PParams ->
  run basic_post s tr s' -> d_pc s' = PAsync -> no_obs Launched tr ->
  (exists w, d_next s' = w :: d_next s /\ w_name w = no_name) \/
  (exists t1 sp t2 w1 w2 ws, tr = t1 ++ t2 /\ run basic_post s t1 sp /\
     d_next s' = w1 :: w2 :: map wp_copy ws /\ w_name w1 = stitching_point /\ w_name w2 = stitching_point /\
     ws = filter (fun w => negb (Rltb 0 (w_time w) &&
            Rltb (w_time w) (p_local (d_par sp) + p_off (d_par sp) + 20 * d_tc sp + p_gtl (d_par sp)))) (d_next s)).
Proof.
  intros s s' tr HR HP R HA HL.
  destruct (launch_list _ _ _ _ basic_self (reachable_inv s HR) HP R HA HL)
    as (t1 & sp & t2 & sx & t3 & E & R1 & P1 & R2 & R3 & _ & _ & _ & _ & _ & _ & _ & _ & _ & [[_ H]|(_ & old & _ & H)]).
  - left. eexists. split; [exact H|reflexivity].
  - right. exists t1, sp, (t2 ++ t3). do 3 eexists. split; [exact E|]. split; [exact R1|]. cbn zeta in H.
    split; [exact H|]. split; [reflexivity|]. split; [reflexivity|].
    apply filter_ext. intros w. unfold stitch_drop, stitch_bound. now rewrite andb_comm.
Qed.
(** ... and the swap publishes that list. *)
Theorem C04_published :
  forall (s s1 s2 : state) (tr : list (event * obs)), reachable s -> d_pc s = PAsync ->
  run basic_post s tr s1 -> no_obs Swapped tr -> step s1 Poll = Ok s2 Swapped ->
  Forall2 same_waypoint (d_next s) (dynamic_waypoints s2).
Proof.
  intros s s1 s2 tr HR HP R HO H. pose proof (reachable_inv s HR) as I.
  destruct (fixed_run _ _ _ _ basic_self I (or_intror (or_introl HP)) R HO) as [HF _]. apply flight_next in HF.
  assert (I1 : inv s1) by (eapply run_inv; eauto using basic_self).
  destruct (poll_cases _ _ _ I1 H) as [(_ & A & _)|(t & _ & ES & _)]; [discriminate|].
  apply swap_fields in ES. destruct ES as (_ & _ & _ & E & _). unfold dynamic_waypoints. rewrite E, map_map.
  clear E. induction HF; constructor; auto.
Qed.
Print Assumptions C04_replacement.
Print Assumptions C04_launch_list.
Print Assumptions C04_published.
(** After a first flight, [wa] is set, "a" is modified twice and [wc] appended. *)
Definition p5 := mkV3 5 0 0.
Definition p6 := mkV3 6 0 0.
Definition tr04 : list (event * obs) :=
  [(Modify name_a p5 true, Quiet); (Append wc, Quiet); (Modify name_a p6 true, Quiet)] ++ backs [Quiet; Quiet; Quiet].
Definition s04 : state := do_set [wa] (at1 (1 / 2)).
Definition s04' : state := do_modify name_a p6 true (do_append wc (do_modify name_a p5 true s04)).
Lemma zone04 : in_zone s04' = false.
Proof.
  cbn [in_zone d_traj s04' s04 at1 do_append do_set do_modify do_eval set_flag set_queues set_par st1 d_dyn d_par p_global d_tc].
  unfold dyn1. cbn [zone_scan]. change (named (wp_set_time 0 (wp_set_index 0 wd))) with false.
  change (named (wp_set_time 1 (wp_set_index 1 wa))) with true. cbn [andb]. cbn [wp_set_time wp_set_index w_time].
  unfold security_time, computation_time. rcase; [|lra]. rcase; [auto|lra].
Qed.
Example C04_example : reachable (at1 (1 / 2)) /\ step (at1 (1 / 2)) (SetWaypoints [wa]) = Ok s04 Quiet /\
  collecting basic_post s04 tr04 (set_pc PGen s04') /\
  appended tr04 = [wc] /\ wanted tr04 wa = Some p6 /\ wanted tr04 wc = None /\
  exists s3, step (set_pc PGen s04') Back = Ok s3 Quiet /\ map w_name (d_next s3) = [name_a; name_c] /\
    map w_cur (d_next s3) = [p6; pc_].
Proof.
  split. { eapply full_reachable, run_at1. }
  split; [reflexivity|]. split.
  - unfold tr04, backs. cbn [map app].
    apply (col_cons _ _ _ _ (do_modify name_a p5 true s04)); [exact Logic.I|reflexivity|discriminate|discriminate|].
    apply (col_cons _ _ _ _ (do_append wc (do_modify name_a p5 true s04))); [apply fresh_ok|reflexivity|discriminate|discriminate|].
    apply (col_cons _ _ _ _ s04'); [exact Logic.I|reflexivity|discriminate|discriminate|].
    apply (col_cons _ _ _ _ (set_pc PZone s04')); [exact Logic.I|reflexivity|split; discriminate|discriminate|].
    apply (col_cons _ _ _ _ (set_pc PComp s04')); [exact Logic.I| |split; discriminate|discriminate|].
    { cbn [step]. unfold back_step. cbn [d_pc set_pc]. change (in_zone (set_pc PZone s04')) with (in_zone s04'). rewrite zone04. reflexivity. }
    apply (col_cons _ _ _ _ (set_pc PGen s04')); [exact Logic.I|reflexivity|split; discriminate|discriminate|].
    constructor.
  - split; [reflexivity|]. split; [reflexivity|]. split; [reflexivity|].
    eexists. split; [reflexivity|]. split; reflexivity.
Qed.
Example C04_example_launch : reachable (set_pc PParams (collected (req (8 / 10)))) /\
  run basic_post (set_pc PParams (collected (req (8 / 10)))) (backs [Quiet; Quiet; Quiet; Quiet]) (ready (req (8 / 10))) /\
  d_pc (ready (req (8 / 10))) = PAsync.
Proof.
  split; [eapply full_reachable; eapply run_app; [apply run_req|apply params_req; lra]|]. split; [apply async_solo|reflexivity].
Qed.

(** C05: without setWaypoints the remaining plan is kept. *)
Theorem C05_keep :
  forall (s1 s2 s3 : state) (o : obs) (tr : list (event * obs)),
  reachable s1 -> d_set s1 = [] -> d_add s1 = [] -> d_mod s1 = [] ->
  collecting basic_post s1 tr s2 -> d_pc s2 = PGen -> step s2 Back = Ok s3 o ->
  exists kept added, d_next s3 = kept ++ added /\
    Forall2 (fun w w' => placed (Some (match wanted tr w with Some p => p | None => w_cur w end)) w w')
      (filter (fun w => negb (Rltb (w_time w) (p_global (d_par s2)))) (d_dyn s2)) kept /\
    Forall2 (fun w w' => placed (wanted tr w) w w') (appended tr) added.
Proof.
  intros s1 s2 s3 o tr HR HS HA HM HC HP H3.
  destruct (collecting_queues _ _ _ _ HC) as (A & B & C & D); [rewrite HM; constructor|].
  rewrite HS in B. destruct (next_waypoints_keep s2 C B) as (kept & added & EN & FK & FA).
  assert (E3 : d_next s3 = next_waypoints s2).
  { cbn [step] in H3. unfold back_step in H3. rewrite HP in H3. destruct (next_waypoints s2); inversion H3; subst; reflexivity. }
  assert (EP : forall w, pending (d_mod s2) w = wanted tr w).
  { intros w. unfold pending, wanted. rewrite D, HM. cbn [assoc]. destruct (name_eqb _ _); auto. destruct (last_modified _ _); auto. }
  exists kept, added. split; [congruence|]. split.
  - clear - FK EP. induction FK; constructor; auto. now rewrite <- EP.
  - rewrite A, HA in FA. cbn [app] in FA. apply Forall2_placed_copy in FA; [|reflexivity].
    eapply Forall2_placed_ext; [exact EP|exact FA].
Qed.
Print Assumptions C05_keep.
(** "a" and "b" remain at 0.8 s, "c" is appended. *)
Example C05_example : reachable (at1 (8 / 10)) /\ d_set (at1 (8 / 10)) = [] /\
  collecting basic_post (at1 (8 / 10)) ((Append wc, Quiet) :: backs [Quiet; Quiet; Quiet]) (set_pc PGen (req (8 / 10))) /\
  exists s3, step (set_pc PGen (req (8 / 10))) Back = Ok s3 Quiet /\ map w_name (d_next s3) = [name_a; name_b; name_c].
Proof.
  split. { eapply full_reachable, run_at1. }
  split; [reflexivity|]. split.
  - unfold backs. cbn [map].
    apply (col_cons _ _ _ _ (req (8 / 10))); [apply fresh_ok|reflexivity|discriminate|discriminate|].
    apply (col_cons _ _ _ _ (set_pc PZone (req (8 / 10)))); [exact Logic.I|reflexivity|split; discriminate|discriminate|].
    apply (col_cons _ _ _ _ (set_pc PComp (req (8 / 10)))); [exact Logic.I| |split; discriminate|discriminate|].
    { cbn [step]. unfold back_step. cbn [d_pc set_pc].
      change (in_zone (set_pc PZone (req (8 / 10)))) with (in_zone (req (8 / 10))). rewrite req_zone by lra. reflexivity. }
    apply (col_cons _ _ _ _ (set_pc PGen (req (8 / 10)))); [exact Logic.I|reflexivity|split; discriminate|discriminate|].
    constructor.
  - cbn [step]. unfold back_step. cbn [d_pc set_pc].
    change (next_waypoints (set_pc PGen (req (8 / 10)))) with (next_waypoints (req (8 / 10))). rewrite req_next by lra.
    eexists. split; [reflexivity|]. reflexivity.
Qed.

(** C06: pending modifications are a last-write-wins map. *)
Theorem C06_map :
  forall (s s' : state) (tr : list (event * obs)), d_mod s = [] -> collecting basic_post s tr s' ->
  NoDup (map fst (d_mod s')) /\
  forall n p, In (n, p) (d_mod s') <-> last_modified n tr = Some p.
Proof.
  intros s s' tr HM HC. destruct (collecting_queues _ _ _ _ HC) as (_ & _ & C & D); [rewrite HM; constructor|].
  split; [auto|]. intros n p. rewrite <- assoc_in by auto. rewrite D, HM. cbn [assoc].
  destruct (last_modified n tr); reflexivity.
Qed.
Theorem C06_always :
  forall (s : state), reachable s -> NoDup (map fst (d_mod s)).
Proof. exact reachable_nodup. Qed.
Theorem C06_consumed :
  forall (s s' : state) (e : event) (o : obs), step s e = Ok s' o ->
  e = Back /\ (d_pc s = PGen \/ exists i, d_pc s = PMove [] i) \/ (exists ws, e = SetWaypoints ws) ->
  d_mod s' = [].
Proof.
  intros s s' e o H HE. pose proof (step_queues _ _ _ _ H) as Q.
  destruct HE as [[-> [HP|[i HP]]]|[ws ->]]; cbn [queues_after] in Q; try rewrite HP in Q; now injection Q.
Qed.
Print Assumptions C06_map.
Print Assumptions C06_always.
Print Assumptions C06_consumed.
Example C06_example : d_mod s04 = [] /\ collecting basic_post s04 tr04 (set_pc PGen s04') /\
  last_modified name_a tr04 = Some p6 /\ d_mod s04' = [(name_a, p6)].
Proof. split; [reflexivity|]. split; [apply C04_example|]. split; reflexivity. Qed.

(** C07: at most one computation in flight. *)
Theorem C07_launches_and_swaps :
  forall (junk : V3) (tr : list (event * obs)) (s : state), run basic_post (init junk) tr s ->
  (count_obs Launched tr = count_obs Swapped tr \/ count_obs Launched tr = S (count_obs Swapped tr)) /\
  (d_computing s = true <-> d_pc s = PAsync \/ count_obs Launched tr = S (count_obs Swapped tr)) /\
  (d_pc s = PAsync -> count_obs Launched tr = count_obs Swapped tr).
Proof.
  intros junk tr s R. pose proof (run_flight _ _ _ _ basic_self (inv_init junk) R) as E.
  pose proof (run_inv _ _ _ _ basic_self (inv_init junk) R) as I. destruct I.
  cbn [in_flight d_fut init] in E. unfold in_flight in E.
  split; [destruct (d_fut s); cbn in E; lia|]. split.
  - rewrite i_comp. destruct (d_fut s); cbn in E.
    + split; [intros [H|H]; [auto|congruence]|intros [H|H]; [auto|lia]].
    + split; [intros _; right; lia|intros _; right; discriminate].
    + split; [intros _; right; lia|intros _; right; discriminate].
    + split; [intros _; right; lia|intros _; right; discriminate].
    + congruence.
  - intros H. rewrite (i_async H) in E. cbn in E. lia.
Qed.
Theorem C07_one_swap_between :
  forall (s0 s1 s2 s3 : state) (tr : list (event * obs)), reachable s0 ->
  step s0 Back = Ok s1 Launched -> run basic_post s1 tr s2 -> step s2 Back = Ok s3 Launched ->
  no_obs Launched tr -> count_obs Swapped tr = 1%nat.
Proof.
  intros s0 s1 s2 s3 tr HR H1 R H2 HL. pose proof (reachable_inv _ HR) as I0.
  assert (I1 : inv s1) by (eapply back_inv; eauto).
  assert (I2 : inv s2) by (eapply run_inv; eauto using basic_self).
  pose proof (step_flight basic_post s0 Back _ _ I0 Logic.I H1) as E1.
  pose proof (step_flight basic_post s2 Back _ _ I2 Logic.I H2) as E2.
  pose proof (run_flight _ _ _ _ basic_self I1 R) as E.
  assert (HC : count_obs Launched tr = O).
  { clear - HL. unfold count_obs. induction HL as [|[e o] l H _ IH]; [auto|]. cbn [filter snd] in *. destruct o; cbn [is_obs]; auto. congruence. }
  rewrite HC in E. cbn [obs_swap obs_launch] in E1, E2.
  assert (B : forall s, (in_flight s <= 1)%nat) by (intros s; unfold in_flight; destruct (d_fut s); lia).
  pose proof (B s1). pose proof (B s2). pose proof (B s3). lia.
Qed.
Print Assumptions C07_launches_and_swaps.
Print Assumptions C07_one_swap_between.
Example C07_example : count_obs Launched trace1 = 1%nat /\ count_obs Swapped trace1 = 1%nat /\
  run full_post (init v3_zero) trace1 st1 /\
  exists s', step (ready (req (8 / 10))) Back = Ok s' Launched.
Proof. split; [reflexivity|]. split; [reflexivity|]. split; [apply run1|]. eexists. apply ready_async. reflexivity. Qed.

(** C08: a request can be lost.  The call that swapped a trajectory in clears the
    flag when it ends: requests made before that are dropped. *)
Theorem C08_swap_drops_request :
  forall (s s1 s2 : state) (o : obs) (tr : list (event * obs)), reachable s ->
  d_pc s = PTop \/ d_pc s = PElse \/ d_pc s = PApply \/ d_pc s = PClear \/ d_pc s = PEmpty \/ todo_locked s = true ->
  step s PollEnd = Ok s1 o -> run basic_post s1 tr s2 -> no_request tr ->
  count_obs Launched tr = O /\ d_add s2 = d_add s /\ d_set s2 = d_set s.
Proof.
  intros s s1 s2 o tr HR HP H R HN. pose proof (reachable_inv _ HR) as I.
  assert (I1 : inv s1) by (eapply (step_inv basic_post s PollEnd); eauto using basic_self; exact Logic.I).
  destruct (end_cases _ _ _ H) as (n & _ & -> & _).
  assert (HK : parked (set_late n (set_flag false s))) by (split; [reflexivity|cbn; intuition]).
  destruct (parked_run _ _ _ _ basic_self I1 HK R HN) as (_ & B & C & D). auto.
Qed.
(** Every call that swaps ends that way, whatever happens meanwhile. *)
Theorem C08_swap_clears :
  forall (s s1 s2 : state) (tr : list (event * obs)), step s Poll = Ok s1 Swapped -> run basic_post s1 tr s2 ->
  Forall (fun x => fst x <> PollEnd) tr -> exists s3, step s2 PollEnd = Ok s3 Quiet /\ d_flag s3 = false.
Proof.
  intros s s1 s2 tr H R HC. assert (H1 : d_late s1 <> O) by (rewrite (swapped_late _ _ H); discriminate).
  assert (H2 : d_late s2 <> O).
  { clear H. induction R as [|s3 e o s4 tr s5 Hok H R IH]; [auto|]. inversion HC; subst. apply IH; [auto|].
    pose proof (late_step _ _ _ _ H H3). lia. }
  destruct (d_late s2) as [|n] eqn:E; [congruence|]. exists (set_late n (set_flag false s2)).
  split; [cbn [step]; rewrite E; reflexivity|reflexivity].
Qed.
Theorem C08_clear_drops_request :
  forall (s s1 s2 : state) (o : obs) (tr : list (event * obs)), reachable s -> d_pc s = PClear ->
  step s Back = Ok s1 o -> run basic_post s1 tr s2 -> no_request tr ->
  count_obs Launched tr = O /\ d_add s2 = d_add s /\ d_set s2 = d_set s.
Proof.
  intros s s1 s2 o tr HR HP H R HN. pose proof (reachable_inv _ HR) as I.
  assert (I1 : inv s1) by (eapply (step_inv basic_post s Back); eauto using basic_self; exact Logic.I).
  cbn [step] in H. unfold back_step in H. rewrite HP in H. inversion H; subst.
  assert (HK : parked (set_pc PTop (set_flag false s))) by (split; cbn; auto).
  destruct (parked_run _ _ _ _ basic_self I1 HK R HN) as (_ & B & C & D). auto.
Qed.
(** The same when the background thread found nothing to generate: requests made
    between its look at the queues and the end of its iteration are dropped. *)
Theorem C08_empty_drops_request :
  forall (s s1 s2 : state) (o : obs) (tr : list (event * obs)), reachable s -> d_pc s = PEmpty ->
  step s Back = Ok s1 o -> run basic_post s1 tr s2 -> no_request tr ->
  count_obs Launched tr = O /\ d_add s2 = d_add s /\ d_set s2 = d_set s.
Proof.
  intros s s1 s2 o tr HR HP H R HN. pose proof (reachable_inv _ HR) as I.
  assert (I1 : inv s1) by (eapply (step_inv basic_post s Back); eauto using basic_self; exact Logic.I).
  cbn [step] in H. unfold back_step in H. rewrite HP in H. inversion H; subst.
  assert (HK : parked (set_pc PTop (set_flag false s))) by (split; cbn; auto).
  destruct (parked_run _ _ _ _ basic_self I1 HK R HN) as (_ & B & C & D). auto.
Qed.
Print Assumptions C08_swap_drops_request.
Print Assumptions C08_swap_clears.
Print Assumptions C08_empty_drops_request.
Print Assumptions C08_clear_drops_request.
(** The expectation is false: "c" is appended while the first trajectory is
    computed, and without another request no trajectory ever contains it. *)
Lemma lost_swap : option_map settle (do_swap tr1 (do_append wc (set_fut (FReady tr1) (set_tc (/ 100) (set_next dyn1 l1))))) =
  Some (set_queues [wc] [] [] st1).
Proof.
  rewrite swap_small; [|cbn; lra|left; reflexivity]. f_equal.
  replace (STEP - _) with STEP; [|cbn; lra]. unfold swapped.
  cbn [d_next set_fut set_tc set_next do_append set_flag set_queues]. rewrite copy1. reflexivity.
Qed.
Lemma lost_run : run full_post (init v3_zero)
  ([(SetSpeed 1, Quiet); (SetWaypoints [wa; wb], Quiet)] ++
   backs [Quiet; Quiet; Quiet; Quiet; Quiet; Quiet; Quiet; Quiet; Launched; Quiet] ++
   [(CompSpeed, Quiet); (CompDone tr1 (/ 100), Quiet); (Append wc, Quiet); (Poll, Swapped); (PollEnd, Quiet)]) (set_queues [wc] [] [] st1).
Proof.
  econstructor; [exact Logic.I|reflexivity|].
  econstructor; [cbn; repeat constructor; apply fresh_ok|reflexivity|].
  cbn [app]. eapply run_app; [apply launch_solo; try reflexivity; discriminate|]. rewrite launched1.
  apply (run_cons _ _ _ _ (set_fut (FRunning 1) l1)); [exact Logic.I|reflexivity|].
  apply (run_cons _ _ _ _ (set_fut (FReady tr1) (set_tc (/ 100) (set_next dyn1 l1)))).
  - split; [lra|]. exists [w_vertex wd; w_vertex wa; at_rest_end (w_vertex wb)]. split; [reflexivity|apply full1].
  - cbn [step]. unfold comp_done. cbn [d_fut set_fut].
    change (d_next (set_fut (FRunning 1) l1)) with [wd; wa; wb]. change (p_gtl (d_new (set_fut (FRunning 1) l1))) with 0.
    rewrite retime1. reflexivity.
  - apply (run_cons _ _ _ _ (do_append wc (set_fut (FReady tr1) (set_tc (/ 100) (set_next dyn1 l1))))); [apply fresh_ok|reflexivity|].
    apply (poll_whole _ _ tr1); try reflexivity. exact lost_swap.
Qed.
Theorem C08_every_request_served_refuted :
  exists (tr : list (event * obs)) (s : state), run full_post (init v3_zero) tr s /\
    In (Append wc, Quiet) tr /\ Forall (fun w => w_name w <> name_c) (dynamic_waypoints s) /\
    forall tr' s', run basic_post s tr' s' -> no_request tr' ->
      count_obs Launched tr' = O /\ d_add s' = [wc].
Proof.
  exists ([(SetSpeed 1, Quiet); (SetWaypoints [wa; wb], Quiet)] ++
   backs [Quiet; Quiet; Quiet; Quiet; Quiet; Quiet; Quiet; Quiet; Launched; Quiet] ++
   [(CompSpeed, Quiet); (CompDone tr1 (/ 100), Quiet); (Append wc, Quiet); (Poll, Swapped); (PollEnd, Quiet)]), (set_queues [wc] [] [] st1).
  split; [apply lost_run|]. split; [unfold backs; cbn [map app In]; tauto|]. split; [repeat constructor; discriminate|].
  intros tr' s' R HN. pose proof (full_reachable _ _ _ lost_run) as HR.
  assert (HK : parked (set_queues [wc] [] [] st1)) by (split; [reflexivity|left; reflexivity]).
  destruct (parked_run _ _ _ _ basic_self (reachable_inv _ HR) HK R HN) as (_ & B & C & _). auto.
Qed.
Print Assumptions C08_every_request_served_refuted.

(** C09: a request made while idle is served by the next iteration of the
    background thread. *)
Lemma zone_scan_sorted g sec : forall ws,
  (forall i w w', nth_error ws i = Some w -> nth_error ws (S i) = Some w' -> w_time w < w_time w') ->
  zone_scan ws g sec = true <->
  exists w, In w ws /\ w_name w <> no_name /\ g < w_time w <= g + sec.
Proof.
  intros ws. induction ws as [|w ws IH]; intros HS.
  - cbn. split; [discriminate|intros (w & [] & _)].
  - assert (HS' : forall i a b, nth_error ws i = Some a -> nth_error ws (S i) = Some b -> w_time a < w_time b)
      by (intros i a b A B; apply (HS (S i)); auto).
    specialize (IH HS').
    assert (HB : forall a, In a ws -> w_time w < w_time a).
    { clear - HS. revert w HS. induction ws as [|b ws IH]; intros w HS a HI; [destruct HI|].
      assert (w_time w < w_time b) by (apply (HS O); reflexivity). destruct HI as [<-|HI]; [auto|].
      assert (w_time b < w_time a); [|lra]. apply IH; auto. intros i x y A B. apply (HS (S i)); auto. }
    cbn [zone_scan]. unfold named. destruct (name_eqb (w_name w) no_name) eqn:EN; cbn [negb andb].
    + apply name_eqb_eq in EN. rewrite IH. split.
      * intros (a & A & B). exists a. split; [right|]; auto.
      * intros (a & [<-|A] & B & C); [congruence|]. exists a. auto.
    + apply name_eqb_neq in EN. rcase.
      * rcase.
        -- split; [discriminate|]. intros (a & [<-|A] & B & C); [lra|]. specialize (HB a A). lra.
        -- split; [|reflexivity]. intros _. exists w. split; [left; auto|]. split; [auto|lra].
      * rewrite IH. split.
        -- intros (a & A & B). exists a. split; [right|]; auto.
        -- intros (a & [<-|A] & B & C); [lra|]. exists a. auto.
Qed.
(** What the background thread tests is the security zone. *)
Lemma zone_spec s : reachable s -> in_zone s = true <-> security_zone s.
Proof.
  intros HR. unfold in_zone, security_zone. destruct (d_traj s) as [tr|] eqn:ET.
  - destruct (C01_schedule s tr HR ET) as (_ & _ & HT & _).
    rewrite zone_scan_sorted.
    + unfold security_time, computation_time. split.
      * intros (w & A & B & C). split; [discriminate|]. exists w. split; [auto|]. split; [auto|lra].
      * intros (_ & w & A & B & C). exists w. split; [auto|]. split; [auto|lra].
    + intros i w w' A B. destruct (HT i (wp_copy w) (wp_copy w')) as (sg & _ & _ & X); [| |exact X];
        unfold dynamic_waypoints; apply map_nth_error; auto.
  - split; [discriminate|]. intros [A _]. congruence.
Qed.
Lemma zone_spec_false s : reachable s -> ~ security_zone s -> in_zone s = false.
Proof. intros HR HZ. destruct (in_zone s) eqn:E; auto. apply zone_spec in E; auto. congruence. Qed.
Theorem C09_idle_served :
  forall (s : state), reachable s -> d_pc s = PTop -> d_flag s = true -> d_stop s = false ->
  d_computing s = false -> ~ security_zone s ->
  d_set s <> [] \/ d_add s <> [] \/ (exists w, In w (d_dyn s) /\ p_global (d_par s) <= w_time w) ->
  exists os s', run basic_post s (backs os) s' /\ length os = 10%nat /\ count_obs Launched (backs os) = 1%nat /\
    d_pc s' = PTop /\ d_computing s' = true /\ d_fut s' = FStarted /\
    d_flag s' = false /\ d_add s' = [] /\ d_set s' = [] /\ d_mod s' = [].
Proof.
  intros s HR HP HF HS HC HZ HW. apply zone_spec_false in HZ; auto.
  exists [Quiet; Quiet; Quiet; Quiet; Quiet; Quiet; Quiet; Quiet; Launched; Quiet], (launched s).
  split; [apply launch_solo; auto; [apply (i_unlocked s (reachable_inv s HR))|]|].
  - rewrite next_waypoints_nil. intros (A & B & C). destruct HW as [HW|[HW|(w & H1 & H2)]]; try congruence.
    specialize (C w H1). lra.
  - unfold launched, started. destruct (if can_stitch _ then _ else _); repeat split.
Qed.
(** The same from the request itself, made by one of the API calls. *)
Theorem C09_request_launches :
  forall (s s1 : state) (e : event) (o : obs), reachable s -> d_pc s = PTop -> d_stop s = false ->
  d_computing s = false -> ~ security_zone s -> event_ok basic_post s e -> step s e = Ok s1 o ->
  (exists ws, ws <> [] /\ e = SetWaypoints ws) \/ (exists w, e = Append w) \/
  ((e = RaiseFlag \/ exists n p, e = Modify n p true) /\ exists w, In w (d_dyn s) /\ p_global (d_par s) <= w_time w) ->
  exists os s', run basic_post s1 (backs os) s' /\ length os = 10%nat /\ count_obs Launched (backs os) = 1%nat /\
    d_pc s' = PTop /\ d_computing s' = true /\ d_fut s' = FStarted /\
    d_flag s' = false /\ d_add s' = [] /\ d_set s' = [] /\ d_mod s' = [].
Proof.
  intros s s1 e o HR HP HS HC HZ HE H HK. assert (HR1 : reachable s1) by (eapply (reachable_step s e); eauto).
  destruct HK as [(ws & HW & ->)|[(w & ->)|([->|(n & p & ->)] & w & HW)]]; cbn [step] in H; unblock H; inversion H; subst; clear H;
    (apply C09_idle_served; [exact HR1|exact HP|reflexivity|exact HS|exact HC|exact HZ|]).
  - left. cbn. destruct ws; [congruence|discriminate].
  - right. left. cbn. destruct (d_add s); discriminate.
  - right. right. exists w. exact HW.
  - right. right. exists w. exact HW.
Qed.
Print Assumptions C09_request_launches.
Theorem C09_nothing_to_generate :
  forall (s : state), reachable s -> d_pc s = PTop -> d_flag s = true -> d_stop s = false ->
  d_computing s = false -> ~ security_zone s ->
  d_set s = [] -> d_add s = [] -> (forall w, In w (d_dyn s) -> w_time w < p_global (d_par s)) ->
  exists s', run basic_post s (backs [Quiet; Quiet; Quiet; Quiet; Quiet]) s' /\
    d_pc s' = PTop /\ d_flag s' = false /\ d_computing s' = false /\ d_add s' = [] /\ d_set s' = [] /\ d_mod s' = [].
Proof.
  intros s HR HP HF HS HC HZ H1 H2 H3. apply zone_spec_false in HZ; auto.
  assert (EN : next_waypoints s = []) by (apply next_waypoints_nil; auto).
  exists (set_pc PTop (set_flag false (collected s))). split; [|repeat split; exact HC].
  unfold backs. cbn [map].
  eapply back_ok. { unfold back_step. rewrite HP, HS, HF. reflexivity. }
  eapply back_ok. { unfold back_step. cbn [d_pc set_pc]. change (in_zone (set_pc PZone s)) with (in_zone s). rewrite HZ. reflexivity. }
  eapply back_ok. { unfold back_step. cbn [d_pc set_pc]. cbn. rewrite HC. reflexivity. }
  eapply back_ok. { unfold back_step. cbn [d_pc set_pc].
    change (next_waypoints (set_pc PGen (set_pc PComp (set_pc PZone s)))) with (next_waypoints s). rewrite EN. reflexivity. }
  eapply back_ok. { reflexivity. }
  unfold collected. rewrite EN.
  match goal with |- run _ ?a _ ?b => replace a with b by (destruct s; reflexivity) end. constructor.
Qed.
(** Once collected, waypoints lead to a launch whatever happens meanwhile. *)
Theorem C09_collected_launched :
  forall (s s' : state) (tr : list (event * obs)), reachable s -> d_pc s = PParams ->
  run basic_post s tr s' -> d_pc s' = PTop -> exists e, In (e, Launched) tr.
Proof.
  intros s s' tr HR HP R HP'.
  assert (HD : no_obs Launched tr \/ exists e, In (e, Launched) tr).
  { clear. induction tr as [|[e o] tr IH]; [left; constructor|].
    destruct IH as [IH|[e' IH]]; [|right; exists e'; right; auto].
    destruct o; try (left; constructor; [cbn; discriminate|exact IH]). right. exists e. left. reflexivity. }
  destruct HD as [HD|HD]; [|auto]. exfalso.
  pose proof (stage_run _ _ _ _ R (or_introl HP) HD) as HS. unfold stage in HS. rewrite HP' in HS.
  destruct HS as [HS|[HS|[HS|[HS|[HS|HS]]]]]; discriminate.
Qed.
(** In the security zone the request and its waypoints stay; pending
    modifications move the current waypoints of that name. *)
Theorem C09_zone :
  forall (s : state), reachable s -> d_pc s = PTop -> d_flag s = true -> d_stop s = false ->
  d_computing s = false -> security_zone s ->
  exists os s', run basic_post s (backs os) s' /\ (os = [Quiet; Quiet; Quiet] \/ os = [Quiet; Quiet; Quiet] ++ batch s) /\
    d_pc s' = PTop /\ d_flag s' = true /\ d_add s' = d_add s /\ d_set s' = d_set s /\ d_mod s' = [] /\
    d_traj s' = d_traj s /\ d_par s' = d_par s /\
    Forall2 (fun w w' => w_name w' = w_name w /\ w_time w' = w_time w /\ w_orig w' = w_orig w /\
       ((w_name w <> no_name /\ In (w_name w, w_cur w') (d_mod s)) \/
        ((w_name w = no_name \/ forall p, ~ In (w_name w, p) (d_mod s)) /\ w' = w))) (d_dyn s) (d_dyn s').
Proof.
  intros s HR HP HF HS HC HZ. apply zone_spec in HZ; auto. pose proof (reachable_nodup s HR) as ND.
  destruct (d_mod s) as [|m ms] eqn:EM.
  - exists [Quiet; Quiet; Quiet], s. split; [|split; [auto|]].
    + unfold backs. cbn [map].
      eapply back_ok. { unfold back_step. rewrite HP, HS, HF. reflexivity. }
      eapply back_ok. { unfold back_step. cbn [d_pc set_pc]. change (in_zone (set_pc PZone s)) with (in_zone s). rewrite HZ. reflexivity. }
      eapply back_ok. { unfold back_step. cbn [d_pc set_pc]. cbn. rewrite EM. reflexivity. }
      replace (set_pc PTop (set_pc PElse (set_pc PZone s))) with s by (apply state_ext; auto). constructor.
    + do 7 (split; [auto|]). clear. induction (d_dyn s); constructor; auto. do 3 (split; [reflexivity|]). right. split; auto.
  - rewrite <- EM in *.
    exists ([Quiet; Quiet; Quiet] ++ batch s), (batch_done s).
    split; [|split; [auto|]].
    + unfold backs. cbn [map app].
      eapply back_ok. { unfold back_step. rewrite HP, HS, HF. reflexivity. }
      eapply back_ok. { unfold back_step. cbn [d_pc set_pc]. change (in_zone (set_pc PZone s)) with (in_zone s). rewrite HZ. reflexivity. }
      eapply back_ok. { unfold back_step. cbn [d_pc set_pc]. cbn. rewrite EM, HC. reflexivity. }
      apply (batch_solo basic_post (set_pc PApply (set_pc PElse (set_pc PZone s)))). reflexivity.
    + do 7 (split; [auto|]). unfold batch_done. cbn [d_dyn set_pc set_queues set_regen set_dyn]. rewrite apply_all_pending by auto.
      clear - ND. induction (d_dyn s) as [|w ws IH]; constructor; auto. unfold pending.
      destruct (name_eqb (w_name w) no_name) eqn:E0.
      * apply name_eqb_eq in E0. do 3 (split; [reflexivity|]). right. split; auto.
      * destruct (assoc (w_name w) (d_mod s)) eqn:EA.
        -- split; [apply move_name|]. split; [apply move_time|]. split; [apply move_orig|].
           left. rewrite move_cur. split; [intros H; rewrite H, name_eqb_refl in E0; discriminate|]. now apply assoc_in.
        -- do 3 (split; [reflexivity|]). right. split; [|auto]. right. intros p HI. apply assoc_in in HI; auto. congruence.
Qed.
Print Assumptions C09_idle_served.
Print Assumptions C09_nothing_to_generate.
Print Assumptions C09_collected_launched.
Print Assumptions C09_zone.
Example C09_example : reachable (req (1 / 2)) /\ d_pc (req (1 / 2)) = PTop /\ d_flag (req (1 / 2)) = true /\
  d_stop (req (1 / 2)) = false /\ d_computing (req (1 / 2)) = false /\ ~ security_zone (req (1 / 2)) /\ d_add (req (1 / 2)) <> [].
Proof.
  assert (HR : reachable (req (1 / 2))) by (eapply full_reachable, run_req).
  split; [exact HR|]. do 4 (split; [reflexivity|]).
  split; [rewrite <- zone_spec, req_zone by (auto; lra); discriminate|discriminate].
Qed.
Example C09_example_request : reachable (at1 (1 / 2)) /\ d_pc (at1 (1 / 2)) = PTop /\ d_stop (at1 (1 / 2)) = false /\
  d_computing (at1 (1 / 2)) = false /\ ~ security_zone (at1 (1 / 2)) /\ event_ok basic_post (at1 (1 / 2)) (Append wc) /\
  step (at1 (1 / 2)) (Append wc) = Ok (req (1 / 2)) Quiet.
Proof.
  assert (HR : reachable (at1 (1 / 2))) by (eapply full_reachable, run_at1).
  split; [exact HR|]. do 3 (split; [reflexivity|]).
  split; [rewrite <- zone_spec by auto; change (in_zone (at1 (1 / 2))) with (in_zone (req (1 / 2))); rewrite req_zone by lra; discriminate|]. split; [apply fresh_ok|reflexivity].
Qed.
(** A modification at 0.95 s, 0.05 s before "a": in the security zone. *)
Definition zs : state := do_modify name_a p5 true (do_set [wa] (at1 (95 / 100))).
Lemma zone_zs : in_zone zs = true.
Proof.
  unfold zs. cbn [in_zone d_traj at1 do_set do_modify do_eval set_flag set_queues set_par st1 d_dyn d_par p_global d_tc].
  unfold dyn1. cbn [zone_scan]. change (named (wp_set_time 0 (wp_set_index 0 wd))) with false.
  change (named (wp_set_time 1 (wp_set_index 1 wa))) with true. cbn [andb]. cbn [wp_set_time wp_set_index w_time].
  unfold security_time, computation_time. rcase; [|lra]. rcase; [lra|auto].
Qed.
Definition trace_zs : list (event * obs) :=
  (trace1 ++ [(Eval (95 / 100), Quiet)]) ++ [(SetWaypoints [wa], Quiet); (Modify name_a p5 true, Quiet)].
Lemma run_zs : run full_post (init v3_zero) trace_zs zs.
Proof.
  eapply run_app; [apply run_at1|].
  apply (run_cons _ _ _ _ (do_set [wa] (at1 (95 / 100)))); [cbn; constructor; [apply fresh_ok|constructor]|reflexivity|].
  apply (run_cons _ _ _ _ zs); [exact Logic.I|reflexivity|constructor].
Qed.
Example C09_example_zone : reachable zs /\ d_pc zs = PTop /\ d_flag zs = true /\
  d_stop zs = false /\ d_computing zs = false /\ security_zone zs /\ d_mod zs = [(name_a, p5)].
Proof.
  assert (HR : reachable zs) by (eapply full_reachable, run_zs).
  split; [exact HR|]. do 4 (split; [reflexivity|]). split; [apply zone_spec; [auto|apply zone_zs]|reflexivity].
Qed.
(** At 2.5 s, after the end, a modification asks for a trajectory through nothing. *)
Example C09_example_nothing : let s := do_modify name_a p5 true (at1 (5 / 2)) in
  reachable s /\ d_pc s = PTop /\ d_flag s = true /\ ~ security_zone s /\
  (forall w, In w (d_dyn s) -> w_time w < p_global (d_par s)).
Proof.
  intros s. assert (HR : reachable s).
  { eapply full_reachable. apply (run_app _ _ _ _ [(Modify name_a p5 true, Quiet)] _ (run_at1 (5 / 2))).
    apply (run_cons _ _ _ _ (do_modify name_a p5 true (at1 (5 / 2)))); [exact Logic.I|reflexivity|constructor]. }
  split; [exact HR|]. split; [reflexivity|]. split; [reflexivity|]. split.
  - rewrite <- zone_spec by auto. cut (in_zone s = false); [intros ->; discriminate|]. unfold s. cbn [in_zone d_traj at1 do_modify do_eval set_flag set_queues set_par st1 d_dyn d_par p_global d_tc].
    unfold dyn1. cbn [zone_scan]. change (named (wp_set_time 0 (wp_set_index 0 wd))) with false.
    change (named (wp_set_time 1 (wp_set_index 1 wa))) with true.
    change (named (wp_set_time 2 (wp_set_index 2 wb))) with true. cbn [andb]. cbn [wp_set_time wp_set_index w_time].
    rcase; [lra|]. rcase; [lra|reflexivity].
  - intros w HI. cbn in HI. destruct HI as [<-|[<-|[<-|[]]]]; cbn; lra.
Qed.

(** C10: modifyWaypoint(..., false) cancels a pending request. *)
Theorem C10_false_cancels :
  forall (s s1 s2 : state) (n : name) (p : V3) (o : obs) (tr : list (event * obs)), reachable s ->
  d_pc s = PTop \/ d_pc s = PElse \/ d_pc s = PApply \/ d_pc s = PClear \/ d_pc s = PEmpty ->
  step s (Modify n p false) = Ok s1 o -> run basic_post s1 tr s2 -> no_request tr ->
  count_obs Launched tr = O /\ d_add s2 = d_add s /\ d_set s2 = d_set s.
Proof.
  intros s s1 s2 n p o tr HR HP H R HN.
  assert (I1 : inv s1) by (eapply (step_inv basic_post s (Modify n p false)); eauto using basic_self, reachable_inv; exact Logic.I).
  cbn [step] in H. unblock H. inversion H; subst.
  assert (HK : parked (do_modify n p false s)) by (split; [reflexivity|cbn; intuition]).
  destruct (parked_run _ _ _ _ basic_self I1 HK R HN) as (_ & B & C & D). auto.
Qed.
(** With true the request stays: the flag is the argument, whatever it was. *)
Theorem C10_flag_is_argument :
  forall (s s' : state) (n : name) (p : V3) (g : bool) (o : obs), step s (Modify n p g) = Ok s' o ->
  d_flag s' = g.
Proof. intros s s' n p g o H. cbn [step] in H. unblock H. inversion H; subst. reflexivity. Qed.
Theorem C10_only_refrains_refuted :
  exists (tr : list (event * obs)) (s : state), run full_post (init v3_zero) tr s /\
    tr = [(SetSpeed 1, Quiet); (SetWaypoints [wa; wb], Quiet); (Modify name_a p5 false, Quiet)] /\
    forall tr' s', run basic_post s tr' s' -> no_request tr' ->
      count_obs Launched tr' = O /\ d_traj s' = None /\ d_set s' = [wa; wb].
Proof.
  pose (s := do_modify name_a p5 false (do_set [wa; wb] (do_speed 1 (init v3_zero)))).
  assert (R : run full_post (init v3_zero) [(SetSpeed 1, Quiet); (SetWaypoints [wa; wb], Quiet); (Modify name_a p5 false, Quiet)] s).
  { apply (run_cons _ _ _ _ (do_speed 1 (init v3_zero))); [exact Logic.I|reflexivity|].
    apply (run_cons _ _ _ _ (do_set [wa; wb] (do_speed 1 (init v3_zero)))); [cbn; repeat constructor; apply fresh_ok|reflexivity|].
    apply (run_cons _ _ _ _ s); [exact Logic.I|reflexivity|constructor]. }
  do 2 eexists. split; [exact R|]. split; [reflexivity|]. intros tr' s' R' HN.
  pose proof (reachable_inv _ (full_reachable _ _ _ R)) as I.
  assert (HK : parked s) by (split; [reflexivity|left; reflexivity]).
  destruct (parked_run _ _ _ _ basic_self I HK R' HN) as (_ & B & _ & D). split; [auto|]. split; [|exact D].
  pose proof (run_flight _ _ _ _ basic_self I R') as E. rewrite B in E. change (in_flight s) with O in E.
  assert (HS : count_obs Swapped tr' = O) by lia.
  exact (no_swap_no_traj _ _ _ _ basic_self I R' HS).
Qed.
Print Assumptions C10_false_cancels.
Print Assumptions C10_flag_is_argument.
Print Assumptions C10_only_refrains_refuted.

(** C11: a modification applied in the security zone is not applied to the
    waypoints waiting in the queues. *)
Theorem C11_forgotten :
  forall (s s1 s2 s3 : state) (o o' : obs) (tr : list (event * obs)), reachable s ->
  (exists i, d_pc s = PMove [] i) -> d_set s <> [] -> step s Back = Ok s1 o ->
  collecting basic_post s1 tr s2 -> d_pc s2 = PGen -> step s2 Back = Ok s3 o' ->
  Forall2 (fun w w' => placed (wanted tr w) w w') (d_set s ++ d_add s ++ appended tr) (d_next s3).
Proof.
  intros s s1 s2 s3 o o' tr HR [i HP] HS H1 HC HP2 H3. pose proof (step_queues _ _ _ _ H1) as Q. cbn [queues_after] in Q.
  rewrite HP in Q. injection Q as Q1 Q2 Q3.
  destruct (collecting_queues _ _ _ _ HC) as (A & B & C & D); [rewrite Q3; constructor|].
  assert (HS2 : d_set s2 <> []) by congruence. destruct (gen_set _ _ _ HP2 C HS2 H3) as (F & _).
  rewrite A, B, Q1, Q2 in F. rewrite app_assoc in *. apply Forall2_app_inv_l in F. destruct F as (l1 & l2 & F1 & F2 & ->).
  assert (EP : forall w, pending (d_mod s2) w = wanted tr w).
  { intros w. unfold pending, wanted. rewrite D, Q3. cbn [assoc]. destruct (name_eqb _ _); auto. destruct (last_modified _ _); auto. }
  apply Forall2_app; [|apply Forall2_placed_copy in F2; [|reflexivity]]; eapply Forall2_placed_ext; eauto.
Qed.
(** The history: set [wa], modify "a" to p5 in the zone, fly on, generate: "a" is where it was. *)
Definition zs1 : state := batch_done zs.
Definition zs2 : state := do_eval (3 / 2) zs1.
Lemma zone_zs2 : in_zone zs2 = false.
Proof.
  unfold in_zone. change (d_traj zs2) with (Some tr1). cbv iota.
  change (d_dyn zs2) with (apply_all (p_global (d_par zs)) [(name_a, p5)] dyn1).
  change (p_global (d_par zs2)) with (3 / 2). change (d_tc zs2) with (/ 100).
  unfold apply_all, apply_modification, dyn1. cbn [fold_left map fst snd].
  change (applies name_a (wp_set_time 0 (wp_set_index 0 wd))) with false.
  change (applies name_a (wp_set_time 1 (wp_set_index 1 wa))) with true.
  change (applies name_a (wp_set_time 2 (wp_set_index 2 wb))) with false. cbv iota.
  cbn [zone_scan]. change (named (wp_set_time 0 (wp_set_index 0 wd))) with false.
  change (named (wp_set_time 2 (wp_set_index 2 wb))) with true. cbn [andb]. rewrite move_time.
  cbn [wp_set_time wp_set_index w_time]. destruct (named _); cbn [andb].
  all: unfold security_time, computation_time; repeat (rcase; try lra); auto.
Qed.
Theorem C11_modification_used_refuted :
  exists (tr : list (event * obs)) (s : state), run full_post (init v3_zero) tr s /\ d_pc s = PParams /\
    tr = trace_zs ++ backs ([Quiet; Quiet; Quiet] ++ batch zs) ++ [(Eval (3 / 2), Quiet)] ++ backs [Quiet; Quiet; Quiet; Quiet] /\
    d_next s = [wa] /\ w_cur wa <> p5.
Proof.
  do 2 eexists. split; [|split; [|split; [reflexivity|]]].
  - eapply run_app; [apply run_zs|]. eapply (run_app _ _ _ zs1).
    { unfold backs. cbn [map app].
    apply (run_cons _ _ _ _ (set_pc PZone zs)); [exact Logic.I|reflexivity|].
    apply (run_cons _ _ _ _ (set_pc PElse zs)); [exact Logic.I| |].
    { cbn [step]. unfold back_step. cbn [d_pc set_pc]. change (in_zone (set_pc PZone zs)) with (in_zone zs). rewrite zone_zs. reflexivity. }
    apply (run_cons _ _ _ _ (set_pc PApply zs)); [exact Logic.I|reflexivity|].
    apply (batch_solo full_post (set_pc PApply zs)). reflexivity. }
    cbn [app]. apply (run_cons _ _ _ _ zs2); [cbn; discriminate|reflexivity|].
    change [(Back, Quiet); (Back, Quiet); (Back, Quiet); (Back, Quiet)] with (backs [Quiet; Quiet; Quiet; Quiet]).
    apply params_solo; try reflexivity; [apply zone_zs2|].
    change (next_waypoints zs2) with [wa]. discriminate.
  - reflexivity.
  - split; [change (d_next (set_pc PParams (collected zs2))) with (next_waypoints zs2); reflexivity|].
    cbn. unfold p5, pa. intros E. inversion E. lra.
Qed.
Print Assumptions C11_forgotten.
Print Assumptions C11_modification_used_refuted.
