(** Property theorems: stitching right after a swap (C68). *)
From Coq Require Import Reals Lra Lia List Bool ZArith Arith.
From Coquelicot Require Import Coquelicot.
From Verif Require Import Base PolyModel PolySpec VertexModel TrajModel TrajSpec TrajProofs RangeProofs PolyProofs
  WaypointModel WaypointProofs Names DynModel DynSpec DynProofs DynFrame DynTrace DynQueue DynMore EvalProofs StopAndGo
  DynScenario PropertiesDyn PropertiesReq PropertiesEval PropertiesLife PropertiesLife2.
Import List ListNotations.
Local Open Scope R_scope.
Set Bullet Behavior "Strict Subproofs".

(** ** C68: a trajectory is launched ([s] is where the clock is read) and
    swapped in ([s3]); the next one is launched ([s4] to [s5]) without an
    evaluation in between, and stitched.  It starts with the reference L seconds
    after the last evaluated time, L being the time evaluated on the previous
    trajectory when the first one was launched. *)
Theorem C68_stitch_shift :
  forall (s s1 s2 s3 s4 s5 : state) (o : obs) (h h3 h4 : list (event * obs)),
  reachable s -> d_pc s = PParams -> step s Back = Ok s1 o -> run basic_post s1 h s2 -> no_obs Swapped h ->
  step s2 Poll = Ok s3 Swapped ->
  run basic_post s3 h3 s4 -> no_obs Swapped h3 -> not_eval h3 -> d_pc s4 = PParams ->
  run basic_post s4 h4 s5 -> d_pc s5 = PAsync -> no_obs Launched h4 -> not_eval h4 -> d_scratch s5 = false ->
  exists p v a w ws, eval_refs (p_global (d_par s4) + p_local (d_par s)) false s4 = Some (mkRefs p (Some v) (Some a)) /\
    d_next s5 = w :: ws /\ get_constraint 0 (w_vertex w) = Some (v3_list p) /\
    get_constraint 1 (w_vertex w) = Some (v3_list v) /\ get_constraint 2 (w_vertex w) = Some (v3_list a).
Proof.
  intros s s1 s2 s3 s4 s5 o h h3 h4 HR HP H1 R HO H3 R3 HO3 HE3 HP4 R4 HA HL HE4 HSC.
  destruct (C15_clock_set_back _ _ _ _ _ _ HR HP H1 R HO H3) as (EG & EL & EM).
  assert (HR1 : reachable s1) by (eapply (reachable_step s Back); eauto; exact Logic.I).
  assert (HR2 : reachable s2) by (eapply reachable_run; eauto).
  assert (HR3 : reachable s3) by (eapply (reachable_step s2 Poll); eauto; exact Logic.I).
  assert (HR4 : reachable s4) by (eapply reachable_run; eauto).
  destruct (clock_run _ _ _ _ basic_self (reachable_inv _ HR3) R3 HO3 HE3) as (C1 & C2 & C3 & C4).
  assert (EGT : p_gtl (d_par s3) = p_global (d_par s)).
  { unfold min_time in EM. destruct (d_traj s3); [|discriminate]. inversion EM. lra. }
  destruct (launch_list _ _ _ _ basic_self (reachable_inv _ HR4) HP4 R4 HA HL)
    as (u1 & sp & u2 & sx & u3 & E & R1 & P1 & R2 & R3' & T1 & D1 & T2 & D2 & O1 & G1 & K1 & NS & Isp & [[HX _]|(_ & old & HOLD & HNX)]);
    [congruence|].
  assert (HNE1 : not_eval u1) by (subst h4; apply Forall_app in HE4; tauto).
  destruct (clock_run _ _ _ _ basic_self (reachable_inv _ HR4) R1 NS HNE1) as (B1 & B2 & B3 & B4).
  cbn zeta in HNX. unfold eval_refs. rewrite HOLD. unfold get_references.
  do 5 eexists. split; [reflexivity|]. split; [exact HNX|]. cbn [w_vertex stitch_waypoint].
  assert (E1 : p_local (d_par sp) + p_off (d_par sp) =
    p_global (d_par s4) + p_local (d_par s) - p_gtl (d_par s4) + p_off (d_par s4)).
  { rewrite B1, O1, C1, C3, C4, EL, EG, EGT. ring. }
  assert (E2 : p_local (d_par sp) + p_off (d_par sp) + p_gtl (d_par s4) =
    p_global (d_par s4) + p_local (d_par s) + p_off (d_par s4)) by (rewrite E1; ring).
  rewrite E2, E1. repeat split.
Qed.
Print Assumptions C68_stitch_shift.

(** The flight launched at 0.8 s, with another result of the optimiser: after
    the swap the reference at the last evaluated time 0.8 s is (2,0,0); the
    trajectory generated next starts at (3,0,0). *)
Definition q0 (d : nat) : V3 := ref1 (8 / 10 - 0 + STEP) d.
Definition q1 : V3 := ref1 (8 / 10 - 0 + STEP + 5 * (2 * / 100)) 0.
Definition tr4 : trajectory := go (q0 0) (q0 1) (q0 2) [(STEP / 2, q1); (STEP / 2, pb); (8 / 10, pc_)].
Lemma tr4_full vs : extract_vertices (d_next (launched (req (8 / 10)))) = Some vs -> full_post vs tr4.
Proof.
  rewrite launched_08. intros E. inversion E; subst. clear E. cbn [removelast last map app]. pose proof STEP_pos.
  apply go_full; [repeat constructor; cbn; lra|discriminate|apply stitch_start|]. cbn [map snd].
  constructor; [apply stitch_stop|]. constructor; [apply (fresh_stop no_name)|]. constructor; [apply rest_stop, (fresh_stop no_name)|]. constructor.
Qed.
Definition dyn4 : list waypoint :=
  [wp_set_time (8 / 10) (wp_set_index 0 (sp0 (8 / 10))); wp_set_time (STEP / 2 + 8 / 10) (wp_set_index 1 (sp1 (8 / 10)));
   wp_set_time (STEP + 8 / 10) (wp_set_index 2 wb); wp_set_time (STEP + 16 / 10) (wp_set_index 3 wc)].
Lemma retime4 : retime (t_segs tr4) (8 / 10) 0 (d_next (launched (req (8 / 10)))) = Some dyn4.
Proof.
  rewrite launched_08.
  cbn [retime cumulative_time t_segs tr4 go go_segs length Nat.ltb Nat.leb firstn rev app fold_left s_time go_seg].
  replace (0 + 8 / 10) with (8 / 10) by lra. replace (0 + STEP / 2 + 8 / 10) with (STEP / 2 + 8 / 10) by lra.
  replace (0 + STEP / 2 + STEP / 2 + 8 / 10) with (STEP + 8 / 10) by lra. 
  replace (8 / 10 + STEP / 2 + STEP / 2 + 8 / 10) with (STEP + 16 / 10) by lra. reflexivity.
Qed.
Definition st4 : state :=
  swapped STEP tr4 (set_fut (FReady tr4) (set_tc (/ 1000) (set_next dyn4 (launched (req (8 / 10)))))).
Lemma swap_now tr ws c g s : d_traj s <> None -> c <= / 30 -> p_global (d_par s) = g -> p_gtl (d_new s) = g ->
  option_map settle (do_swap tr (set_fut (FReady tr) (set_tc c (set_next ws s)))) =
  Some (swapped STEP tr (set_fut (FReady tr) (set_tc c (set_next ws s)))).
Proof.
  intros HT HC HG HN. rewrite swap_small; [|exact HC|right; exact HT]. f_equal. f_equal.
  cbn [d_par d_new set_fut set_tc set_next]. lra.
Qed.
Lemma now_fields off tr f c ws s : let s' := swapped off tr (set_fut f (set_tc c (set_next ws s))) in
  d_dyn s' = map wp_copy ws /\ p_global (d_par s') = p_global (d_new s) /\ p_off (d_par s') = off /\
  p_gtl (d_par s') = p_gtl (d_new s) /\ d_traj s' = Some tr /\ d_tc s' = c /\ d_pc s' = d_pc s /\
  d_computing s' = false /\ d_stop s' = d_stop s.
Proof. repeat split. Qed.
Lemma st4_fields : d_dyn st4 = map wp_copy dyn4 /\ p_global (d_par st4) = 8 / 10 /\ time_compensation st4 = STEP /\
  p_gtl (d_par st4) = 8 / 10 /\ d_traj st4 = Some tr4 /\ d_tc st4 = / 1000 /\ d_pc st4 = PTop /\ d_computing st4 = false.
Proof.
  destruct (now_fields STEP tr4 (FReady tr4) (/ 1000) dyn4 (launched (req (8 / 10)))) as (A & B & C & D & E & F & G & H & _).
  fold st4 in *. destruct (launched_fields (req (8 / 10))) as (_ & _ & EN & _ & _ & _ & _ & EP & _).
  rewrite EN in *. rewrite EP in *. repeat (split; [assumption|]). assumption.
Qed.
Lemma run4 : run full_post (launched (req (8 / 10))) [(CompSpeed, Quiet); (CompDone tr4 (/ 1000), Quiet); (Poll, Swapped); (PollEnd, Quiet)] st4.
Proof.
  destruct (launched_fields (req (8 / 10))) as (ET & EP & EN & EF & EC & EL & ED & _).
  destruct launched_extract3 as (vs & EV & HV).
  apply (finish_solo _ _ vs tr4 (/ 1000) dyn4).
  - auto.
  - auto.
  - rewrite EL. reflexivity.
  - auto.
  - auto.
  - lra.
  - apply tr4_full; auto.
  - rewrite EN. exact retime4.
  - unfold st4. apply (swap_now _ _ _ (8 / 10)); [rewrite launched_traj; discriminate|lra|rewrite EP; reflexivity|apply launched_gtl].
Qed.
Lemma append_fields w s : let s' := do_append w s in
  d_dyn s' = d_dyn s /\ d_par s' = d_par s /\ d_traj s' = d_traj s /\ d_tc s' = d_tc s /\ d_pc s' = d_pc s /\
  d_computing s' = d_computing s /\ d_stop s' = d_stop s /\ d_flag s' = true.
Proof. repeat split. Qed.
Lemma resets_length ms ws : length (fold_left (fun ws m => reset_named (fst m) (snd m) ws) ms ws) = length ws.
Proof.
  revert ws; induction ms as [|m ms IH]; intros ws; [reflexivity|]. cbn [fold_left]. rewrite IH.
  unfold reset_named. destruct (name_eqb _ _); [reflexivity|apply map_length].
Qed.
Lemma append_next w s : next_waypoints (do_append w s) <> [].
Proof.
  intros E. apply (f_equal (@length waypoint)) in E. unfold next_waypoints in E. rewrite resets_length, app_length, map_length in E.
  cbn [do_append d_add set_flag set_queues length] in E. rewrite app_length in E. cbn [length] in E. lia.
Qed.
Definition ap4 : state := do_append wa st4.
Lemma ap4_zone : in_zone ap4 = false.
Proof.
  destruct st4_fields as (A & B & C & D & E & F & G & H). destruct (append_fields wa st4) as (A' & B' & C' & D' & _).
  unfold in_zone, ap4. rewrite C', E, A', A, B', B, D', F. unfold dyn4. cbn [map zone_scan].
  change (w_time (wp_copy ?w)) with (w_time w). cbn [w_time wp_copy wp_set_time wp_set_index]. unfold security_time, computation_time.
  pose proof STEP_pos. unfold STEP in *. 
  repeat match goal with |- context [named ?w] => change (named w) with true end; cbn [andb].
  repeat (rcase; try lra); reflexivity.
Qed.
Lemma launched_stop s : d_stop (launched s) = d_stop s.
Proof. unfold launched, started. cbn [set_pc set_flag set_fut set_computing]. destruct (if can_stitch _ then _ else _); reflexivity. Qed.
Lemma st4_stop : d_stop st4 = false.
Proof.
  destruct (now_fields STEP tr4 (FReady tr4) (/ 1000) dyn4 (launched (req (8 / 10)))) as (_ & _ & _ & _ & _ & _ & _ & _ & H).
  unfold st4. rewrite H, launched_stop. reflexivity.
Qed.
Lemma ready_stitched s tr : d_traj s = Some tr -> can_stitch s = true -> d_scratch (ready s) = false.
Proof.
  intros HT HC. unfold ready, started. change (can_stitch (copied (collected s))) with (can_stitch s). rewrite HC.
  change (d_traj (copied (collected s))) with (d_traj s). rewrite HT. reflexivity.
Qed.
Lemma ap4_stitch : d_scratch (ready ap4) = false.
Proof.
  destruct st4_fields as (A & B & C & D & E & F & G & H). destruct (append_fields wa st4) as (A' & B' & C' & D' & _).
  assert (ET : d_traj ap4 = Some tr4) by (unfold ap4; rewrite C'; exact E).
  apply (ready_stitched _ tr4); [exact ET|]. unfold can_stitch. rewrite ET. unfold ap4. rewrite B', B, D, D', F.
  unfold computation_time. cbn [t_max tr4 go map fst lsum]. pose proof STEP_pos. rcase; [lra|reflexivity].
Qed.
Lemma eval_waiting t b w s : eval_refs t b (set_pc PParams (collected (do_append w s))) = eval_refs t b s.
Proof. reflexivity. Qed.
Lemma eval_ready t b w s : eval_refs t b (ready (do_append w s)) = eval_refs t b s.
Proof. unfold ready, started. destruct (if can_stitch _ then _ else _); reflexivity. Qed.
Lemma collected_par q s : d_par (set_pc q (collected s)) = d_par s. Proof. reflexivity. Qed.
Lemma req_local t : p_local (d_par (req t)) = t.
Proof. cbn [req at1 do_append do_eval set_flag set_queues set_par d_par p_local st1 par1 p_gtl]. lra. Qed.
Definition trace4 : list (event * obs) :=
  (trace1 ++ [(Eval (8 / 10), Quiet); (Append wc, Quiet)]) ++
  backs [Quiet; Quiet; Quiet; Quiet; Quiet; Quiet; Quiet; Quiet; Launched; Quiet] ++
  [(CompSpeed, Quiet); (CompDone tr4 (/ 1000), Quiet); (Poll, Swapped); (PollEnd, Quiet)].
Lemma run_st4 : run full_post (init v3_zero) trace4 st4.
Proof. unfold trace4. eapply run_app; [apply run_req|]. eapply run_app; [apply launch_req; lra|apply run4]. Qed.
Lemma fresh_trace4 : fresh_calls trace4.
Proof.
  unfold trace4, trace1, backs. cbn [map app].
  repeat (apply Forall_cons; [cbn [fst]; first [exact Logic.I | solve [repeat split] | solve [repeat (apply Forall_cons; [repeat split|]); apply Forall_nil]]|]).
  apply Forall_nil.
Qed.
Lemma outside4 g : outside (dynamic_waypoints st4) g.
Proof.
  intros w m i HW _ HM. exfalso. unfold dynamic_waypoints in HW. destruct st4_fields as (A & _). rewrite A, map_map in HW.
  apply in_map_iff in HW. destruct HW as (x & <- & HX). cbn [w_mods wp_copy] in HM. unfold dyn4 in HX.
  repeat (destruct HX as [<-|HX]; [destruct HM|]). destruct HX.
Qed.
Lemma now4 : exists r, eval_refs (8 / 10) true st4 = Some r /\ r_pos r = pb.
Proof.
  destruct st4_fields as (A & B & C & _).
  destruct (C18_passes _ _ _ 2 (wp_copy (wp_copy (wp_set_time (STEP + 8 / 10) (wp_set_index 2 wb)))) run_st4 fresh_trace4) as (r & E1 & E2).
  - unfold dynamic_waypoints. rewrite A. reflexivity.
  - apply outside4.
  - exists r. rewrite C in E1. cbn [w_time wp_copy wp_set_time] in E1.
    replace (STEP + 8 / 10 - STEP) with (8 / 10) in E1 by lra. split; [exact E1|exact E2].
Qed.
Lemma then4 : eval_refs (8 / 10 + 8 / 10) false st4 = Some (mkRefs pc_ (Some v3_zero) (Some v3_zero)).
Proof.
  destruct st4_fields as (A & B & C & D & E & _).
  assert (H : max_time st4 = Some (STEP + 16 / 10)).
  { unfold max_time. rewrite E, D. f_equal. cbn [t_max tr4 go map fst lsum]. lra. }
  apply (C13_hold _ _ _ _ _ (map (fun w => wp_copy (wp_copy w)) (removelast dyn4))
    (wp_copy (wp_copy (wp_set_time (STEP + 16 / 10) (wp_set_index 3 wc)))) run_st4 fresh_trace4 H).
  - unfold dynamic_waypoints. rewrite A, map_map. reflexivity.
  - rewrite C. lra.
  - apply outside4.
Qed.
Theorem C68_stitch_at_reference_refuted :
  exists (h h' : list (event * obs)) (s0 s : state) (t : R) (r : references) (w : waypoint) (ws : list waypoint) (p : V3),
  run full_post (init v3_zero) (h ++ [(Eval t, Quiet)]) s0 /\ run full_post s0 h' s /\
  fresh_calls (h ++ h') /\ not_eval h' /\ count_obs Swapped h' = 1%nat /\
  d_pc s = PAsync /\ d_scratch s = false /\
  eval_refs t true s = Some r /\ d_next s = w :: ws /\ get_constraint 0 (w_vertex w) = Some (v3_list p) /\
  vx (r_pos r) = 2 /\ vx p = 3.
Proof.
  set (h4 := backs [Quiet; Quiet; Quiet; Quiet]).
  pose proof (async_solo full_post (req (8 / 10))) as RA.
  assert (HR0 : reachable (set_pc PParams (collected (req (8 / 10))))) by apply C04_example_launch.
  destruct st4_fields as (A & B & C & D & E & F & G & H). destruct (append_fields wa st4) as (A' & B' & C' & D' & E' & F' & G' & H').
  assert (RP : run full_post st4 ((Append wa, Quiet) :: h4) (set_pc PParams (collected ap4))).
  { apply (run_cons _ _ _ _ ap4); [apply fresh_ok|reflexivity|]. apply params_solo.
    - unfold ap4. rewrite E'. exact G.
    - exact H'.
    - unfold ap4. rewrite G'. exact st4_stop.
    - exact ap4_zone.
    - unfold ap4. rewrite F'. exact H.
    - apply append_next. }
  pose proof (async_solo full_post ap4) as RB. fold h4 in RA, RB.
  (* the first launch, split where the clock is read and at the swap *)
  pose proof RA as RA'. unfold h4, backs in RA'. cbn [map] in RA'. inversion RA' as [|? ? ? s1 ? ? _ H1 R1]; subst.
  pose proof run4 as R4. apply (run_app_inv _ [(CompSpeed, Quiet); (CompDone tr4 (/ 1000), Quiet)] [(Poll, Swapped); (PollEnd, Quiet)]) in R4.
  destruct R4 as (s2 & R4 & R5). inversion R5 as [|? ? ? s3 ? ? _ H3 R6]; subst. clear R5.
  assert (R2 : run full_post s1 ([(Back, Quiet); (Back, Quiet); (Back, Quiet)] ++ (Back, Launched) :: (Back, Quiet) ::
    [(CompSpeed, Quiet); (CompDone tr4 (/ 1000), Quiet)]) s2).
  { eapply run_app; [exact R1|].
    apply (run_cons _ _ _ _ (set_pc PClear (set_fut FStarted (ready (req (8 / 10)))))); [exact Logic.I|apply ready_async; reflexivity|].
    apply (run_cons _ _ _ _ (launched (req (8 / 10)))); [exact Logic.I|apply clear_solo|exact R4]. }
  destruct (C68_stitch_shift (set_pc PParams (collected (req (8 / 10)))) s1 s2 s3 (set_pc PParams (collected ap4)) (ready ap4)
    Quiet _ ((PollEnd, Quiet) :: (Append wa, Quiet) :: h4) h4 HR0 eq_refl H1 (run_mono _ _ _ _ _ full_basic R2)) as (p & v & a & w & ws & EV & EN & EC & _).
  - cbn [app]. repeat (apply Forall_cons; [discriminate|]). apply Forall_nil.
  - exact H3.
  - apply (run_mono _ _ _ _ _ full_basic (run_app _ _ [(PollEnd, Quiet)] _ _ _ R6 RP)).
  - unfold h4, backs. cbn [map]. repeat (apply Forall_cons; [discriminate|]). apply Forall_nil.
  - unfold h4, backs. cbn [map]. repeat (apply Forall_cons; [discriminate|]). apply Forall_nil.
  - reflexivity.
  - apply (run_mono _ _ _ _ _ full_basic RB).
  - reflexivity.
  - unfold h4, backs. cbn [map]. repeat (apply Forall_cons; [discriminate|]). apply Forall_nil.
  - unfold h4, backs. cbn [map]. repeat (apply Forall_cons; [discriminate|]). apply Forall_nil.
  - exact ap4_stitch.
  - unfold ap4 in EV. rewrite !collected_par, B', B, req_local, eval_waiting, then4 in EV.
    injection EV as EVP _ _. subst p. destruct now4 as (r & ER & EP).
    exists trace1, ([(Append wc, Quiet)] ++ backs [Quiet; Quiet; Quiet; Quiet; Quiet; Quiet; Quiet; Quiet; Launched; Quiet] ++
      [(CompSpeed, Quiet); (CompDone tr4 (/ 1000), Quiet); (Poll, Swapped); (PollEnd, Quiet)] ++ ((Append wa, Quiet) :: h4) ++ h4).
    exists (at1 (8 / 10)), (ready ap4), (8 / 10), r, w, ws, pc_.
    split; [apply run_at1|]. split.
    { apply (run_cons _ _ _ _ (req (8 / 10))); [apply fresh_ok|reflexivity|]. eapply run_app; [apply launch_req; lra|].
      eapply run_app; [apply run4|]. eapply run_app; [exact RP|exact RB]. }
    split.
    { unfold trace1, h4, backs. cbn [map app].
      repeat (apply Forall_cons; [cbn [fst]; first [exact Logic.I | solve [repeat split] | solve [repeat (apply Forall_cons; [repeat split|]); apply Forall_nil]]|]).
      apply Forall_nil. }
    split; [unfold h4, backs; cbn [map app]; repeat (apply Forall_cons; [discriminate|]); apply Forall_nil|].
    split; [reflexivity|]. split; [reflexivity|]. split; [exact ap4_stitch|].
    split; [unfold ap4; rewrite eval_ready; exact ER|]. split; [exact EN|]. split; [exact EC|].
    rewrite EP. split; reflexivity.
Qed.
Print Assumptions C68_stitch_at_reference_refuted.
