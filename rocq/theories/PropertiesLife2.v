(** Property theorems: waypoints lost or revisited by regeneration, speed,
    notification, failures and shutdown of DynamicTrajectory (C19 - C22, C24,
    C26, C27). *)
From Coq Require Import Reals Lra Lia List Bool ZArith Arith.
From Coquelicot Require Import Coquelicot.
From Verif Require Import Base PolyModel PolySpec VertexModel TrajModel TrajSpec TrajProofs RangeProofs PolyProofs
  WaypointModel WaypointProofs Names DynModel DynSpec DynProofs DynFrame DynTrace DynQueue DynMore EvalProofs StopAndGo
  DynScenario PropertiesDyn PropertiesReq PropertiesEval PropertiesLife.
Import List ListNotations.
Local Open Scope R_scope.
Set Bullet Behavior "Strict Subproofs".

(** ** C19: when stitching, exactly the collected waypoints with a positive
    time before the end of the stitching window are dropped; the window ends
    20 computation times (plus the time compensation) after the last evaluated
    local time.  [sp]: the state in which the clock is read. *)
Theorem C19_dropped :
  forall (s s' : state) (h : list (event * obs)) (w : waypoint), reachable s -> d_pc s = PParams ->
  run basic_post s h s' -> d_pc s' = PAsync -> no_obs Launched h -> d_scratch s' = false ->
  In w (d_next s) -> w_name w <> stitching_point ->
  exists h1 sp h2, h = h1 ++ h2 /\ run basic_post s h1 sp /\
    ((exists w', In w' (d_next s') /\ same_waypoint w w' /\ w_time w' = w_time w) <->
     ~ (0 < w_time w < p_local (d_par sp) + time_compensation sp + 20 * d_tc sp + p_gtl (d_par sp))).
Proof.
  intros s s' h w HR HP R HA HL HS HW HN.
  destruct (launch_list _ _ _ _ basic_self (reachable_inv s HR) HP R HA HL)
    as (t1 & sp & t2 & sx & t3 & E & R1 & P1 & R2 & R3 & _ & _ & _ & _ & _ & _ & _ & _ & _ & [[HB _]|(_ & old & _ & H)]);
    [congruence|].
  exists t1, sp, (t2 ++ t3). split; [exact E|]. split; [exact R1|]. cbn zeta in H. unfold time_compensation.
  unfold stitch_bound in H.
  set (b := p_local (d_par sp) + p_off (d_par sp) + 20 * d_tc sp + p_gtl (d_par sp)) in *.
  rewrite H. split.
  - intros (w' & HI & (_ & _ & _ & EN) & ET) HT.
    destruct HI as [<-|[<-|HI]]; try (cbn in EN; congruence).
    apply in_map_iff in HI. destruct HI as (w0 & <- & HI). apply filter_In in HI. destruct HI as [_ HF].
    cbn [w_time wp_copy] in ET. unfold stitch_drop in HF. rewrite ET in HF.
    revert HF. repeat rcase; cbn; try discriminate; lra.
  - intros HT. exists (wp_copy w). split; [|split; [repeat split|reflexivity]].
    right; right. apply in_map. apply filter_In. split; [auto|]. unfold stitch_drop. repeat rcase; auto; exfalso; apply HT; lra.
Qed.
Print Assumptions C19_dropped.

(** The flight launched at 0.8 s: waypoint "a" is due at 1 s, outside the
    security zone of 0.1 s, and is not in the next plan. *)
Definition dyn3 : list waypoint :=
  [wp_set_time (8 / 10) (wp_set_index 0 (sp0 (8 / 10))); wp_set_time (18 / 10) (wp_set_index 1 (sp1 (8 / 10)));
   wp_set_time (28 / 10) (wp_set_index 2 wb); wp_set_time (38 / 10) (wp_set_index 3 wc)].
Lemma retime3 : retime (t_segs tr3) (8 / 10) 0 (d_next (launched (req (8 / 10)))) = Some dyn3.
Proof.
  rewrite launched_08.
  cbn [retime cumulative_time t_segs tr3 go go_segs length Nat.ltb Nat.leb firstn rev app fold_left s_time go_seg].
  replace (0 + 8 / 10) with (8 / 10) by lra. replace (0 + 1 + 8 / 10) with (18 / 10) by lra.
  replace (0 + 1 + 1 + 8 / 10) with (28 / 10) by lra. replace (0 + 1 + 1 + 1 + 8 / 10) with (38 / 10) by lra. reflexivity.
Qed.
Definition later3 : state := do_eval (8 / 10) (launched (req (8 / 10))).
Definition st3 : state :=
  swapped (STEP - (8 / 10 - 8 / 10)) tr3 (set_fut (FReady tr3) (set_tc (/ 100) (set_next dyn3 later3))).
Lemma launched_extract3 : exists vs, extract_vertices (d_next (launched (req (8 / 10)))) = Some vs /\ (2 <= length vs)%nat.
Proof. rewrite launched_08. eexists. split; [reflexivity|]. cbn. lia. Qed.
Definition trace3 : list (event * obs) :=
  (Eval (8 / 10), Quiet) :: [(CompSpeed, Quiet); (CompDone tr3 (/ 100), Quiet); (Poll, Swapped); (PollEnd, Quiet)].
Lemma run3 : run full_post (launched (req (8 / 10))) trace3 st3.
Proof.
  destruct (launched_fields (req (8 / 10))) as (ET & EP & EN & EF & EC & EL & ED & _).
  destruct (do_eval_fields (8 / 10) (launched (req (8 / 10)))) as (FT & FX & FN & FF & FC & FL & FG).
  unfold trace3. econstructor; [cbn [event_ok]; rewrite ET; discriminate|cbn [step]; rewrite ET; reflexivity|].
  fold later3 in *. destruct launched_extract3 as (vs & EV & HV).
  apply (finish_solo _ _ vs tr3 (/ 100) dyn3).
  - rewrite FF; auto.
  - rewrite FC; auto.
  - rewrite FL, EL. reflexivity.
  - rewrite FX. auto.
  - auto.
  - lra.
  - apply tr3_full; auto.
  - rewrite FN, FX, EN. exact retime3.
  - unfold st3, later3. apply swap_eval; [rewrite launched_traj; discriminate|apply launched_gtl].
Qed.
Lemma st3_dyn : d_dyn st3 = map wp_copy dyn3. Proof. unfold st3, later3. apply swapped_fields. Qed.
Theorem C19_unpassed_kept_refuted :
  exists (s0 s1 : state) (h : list (event * obs)) (w : waypoint),
  reachable s0 /\ run basic_post s0 h s1 /\
  Forall (fun eo => match fst eo with SetWaypoints _ | Modify _ _ _ => False | Eval t => t < w_time w | _ => True end) h /\
  In w (next_trajectory_waypoints s0) /\ w_name w = name_a /\ ~ security_zone s0 /\
  ~ In name_a (map w_name (dynamic_waypoints s1)).
Proof.
  exists (req (8 / 10)), st3,
    (backs [Quiet; Quiet; Quiet; Quiet; Quiet; Quiet; Quiet; Quiet; Launched; Quiet] ++ trace3), (wp_set_time 1 (wp_set_index 1 wa)).
  split; [eapply full_reachable, run_req|]. split.
  { eapply run_mono; [apply full_basic|]. eapply run_app; [apply launch_req; lra|apply run3]. }
  split.
  { unfold backs, trace3. cbn [map app]. repeat (apply Forall_cons; [cbn; try exact Logic.I; lra|]). apply Forall_nil. }
  split.
  { unfold next_trajectory_waypoints. cbn [req at1 do_append do_eval set_flag set_queues set_par st1 d_par d_dyn p_global].
    change (wp_set_time 1 (wp_set_index 1 wa)) with (wp_copy (wp_set_time 1 (wp_set_index 1 wa))) at 1.
    apply in_map, filter_In. split; [right; left; reflexivity|]. cbn. rcase; auto; lra. }
  split; [reflexivity|].
  split; [rewrite <- zone_spec, req_zone by (lra || eapply full_reachable, run_req); discriminate|].
  unfold dynamic_waypoints. rewrite st3_dyn, !map_map. cbn. intros [E|[E|[E|[E|[]]]]]; discriminate.
Qed.
Print Assumptions C19_unpassed_kept_refuted.
Example C19_example : reachable (set_pc PParams (collected (req (8 / 10)))) /\
  run basic_post (set_pc PParams (collected (req (8 / 10)))) (backs [Quiet; Quiet; Quiet; Quiet]) (ready (req (8 / 10))) /\
  d_pc (ready (req (8 / 10))) = PAsync /\ d_scratch (ready (req (8 / 10))) = false /\
  map w_name (d_next (set_pc PParams (collected (req (8 / 10))))) = [name_a; name_b; name_c].
Proof.
  split; [apply C04_example_launch|]. split; [apply async_solo|]. split; [reflexivity|]. split; [apply ready_scratch; lra|].
  change (d_next (set_pc PParams (collected (req (8 / 10))))) with (next_waypoints (req (8 / 10))).
  rewrite req_next by lra. reflexivity.
Qed.

(** ** C03: stitched or from scratch.  A launched trajectory continues the old
    one iff, when this was decided (in state [sc]), the old one lasted for at
    least four more measured computation times. *)
Theorem C03_choice :
  forall (s s' : state) (h : list (event * obs)), reachable s -> d_pc s = PParams ->
  run basic_post s h s' -> d_pc s' = PAsync -> no_obs Launched h ->
  exists h1 sc h2, h = h1 ++ h2 /\ run basic_post s h1 sc /\ run basic_post sc h2 s' /\ d_tc sc = d_tc s /\
    max_time sc = max_time s /\
    (d_scratch s' = false <-> exists m, max_time sc = Some m /\ 4 * d_tc sc <= m - p_global (d_par sc)).
Proof.
  intros s s' h HR HP R HA HL.
  destruct (launch_path _ _ _ _ basic_self (reachable_inv s HR) HP R HA HL)
    as (t1 & sp & t2 & sc & t3 & sx & t4 & E & R1 & R2 & R3 & R4 & F1 & P1 & P2 & N2 & T2 & D2 & O2 & G2 & C2 & Q2 & P3 & N3 & T3 & D3 & O3 & G3 & C3 & Q3 & (sb & o & HB & _ & EB) & T4 & D4 & Q4).
  exists (t1 ++ t2), sc, (t3 ++ t4). split; [subst h; rewrite !app_assoc; reflexivity|].
  split; [eapply run_app; eauto|]. split; [eapply run_app; eauto|]. split; [auto|].
  split; [unfold max_time; rewrite T2, G2; reflexivity|].
  unfold back_step in HB. rewrite P3 in HB. unfold can_stitch in HB. unfold max_time. unfold computation_time in HB.
  destruct (d_traj sc) as [tr|] eqn:ET.
  - rcase_in HB; cbn [negb] in HB.
    + inversion HB; subst sb o. rewrite EB. cbn. split; [discriminate|]. intros (m & A & B). inversion A; subst. lra.
    + destruct (d_traj sx); inversion HB; subst sb o. rewrite EB. cbn. split; [|auto]. intros _. eexists. split; [reflexivity|lra].
  - inversion HB; subst sb o. rewrite EB. cbn. split; [discriminate|]. intros (m & A & _). discriminate.
Qed.
Print Assumptions C03_choice.

(** ** C20: a waypoint with time <= 0 that is not before the last evaluated
    time is kept by every append, with its position unless it was modified. *)
Theorem C20_kept :
  forall (s s1 s2 : state) (o : obs) (h : list (event * obs)) (w : waypoint),
  reachable s -> d_pc s = PGen -> d_set s = [] -> In w (d_dyn s) -> w_name w = no_name ->
  p_global (d_par s) <= w_time w <= 0 ->
  step s Back = Ok s1 o -> run basic_post s1 h s2 -> d_pc s2 = PAsync -> no_obs Launched h ->
  exists w', In w' (d_next s2) /\ w_time w' = w_time w /\ w_name w' = no_name /\
    get_constraint 0 (w_vertex w') = Some (v3_list (w_cur w)).
Proof.
  intros s s1 s2 o h w HR HP HS HW HNm HT H1 R HA HL.
  assert (HR1 : reachable s1) by (eapply (reachable_step s Back); eauto; exact Logic.I).
  destruct (next_waypoints_keep s (reachable_nodup s HR) HS) as (kept & added & EN & FK & FA).
  assert (HK : exists w0, In w0 kept /\ placed (Some (w_cur w)) w w0).
  { assert (HI : In w (filter_passed (p_global (d_par s)) (d_dyn s))).
    { apply filter_In. split; [auto|]. rcase; auto; lra. }
    clear - FK HI HNm. unfold filter_passed in HI.
    induction FK; [destruct HI|]. destruct HI as [->|HI].
    - exists y. split; [left; auto|].
      assert (EP : pending (d_mod s) w = None) by (unfold pending; rewrite HNm; reflexivity).
      rewrite EP in H. exact H.
    - destruct IHFK as (w0 & A & B); auto. exists w0. split; [right; auto|auto]. }
  destruct HK as (w0 & HK & (P1 & P2 & _ & _ & _ & P3 & _)).
  assert (HN1 : In w0 (d_next s1) /\ d_pc s1 = PParams).
  { cbn [step] in H1. unfold back_step in H1. rewrite HP in H1.
    assert (HIn : In w0 (next_waypoints s)) by (rewrite EN; apply in_or_app; auto).
    destruct (next_waypoints s) eqn:EX; [destruct HIn|]. rewrite <- EX in *. inversion H1; subst. split; [exact HIn|reflexivity]. }
  destruct HN1 as [HN1 HP1].
  destruct (C04_launch_list _ _ _ HR1 HP1 R HA HL) as [(wx & E & _)|(t1 & sp & t2 & w1 & w2 & ws & _ & _ & E & _ & _ & EW)].
  - exists w0. rewrite E. split; [right; auto|]. split; [congruence|]. split; [congruence|auto].
  - exists (wp_copy w0). rewrite E. split; [|split; [cbn; congruence|split; [cbn; congruence|exact P3]]].
    right; right. apply in_map. rewrite EW. apply filter_In. split; [auto|]. rewrite P2. repeat rcase; auto; lra.
Qed.
(** The plan is regenerated at time 0 for an append; the new reference goes
    back to the start position two seconds later. *)
Theorem C20_no_return_refuted :
  exists (h : list (event * obs)) (s : state) (t : R) (r : references),
  run full_post (init v3_zero) h s /\ fresh_calls h /\
  map w_name (dynamic_waypoints s) = [stitching_point; stitching_point; no_name; name_a; name_b; name_c] /\
  map w_orig (skipn 2 (dynamic_waypoints s)) = [v3_zero; pa; pb; pc_] /\
  1 < t /\ eval_refs t true s = Some r /\ r_pos r = v3_zero.
Proof.
  assert (H : exists r, eval_refs (2 - time_compensation (st2 0)) true (st2 0) = Some r /\ r_pos r = v3_zero).
  { apply (C18_passes v3_zero (h2 0) (st2 0) 2 (wp_set_time 2 (wp_set_index 2 wd)) (run_st2 0) (fresh_h2 0)).
    - unfold dynamic_waypoints. rewrite st2_dyn, map_map. reflexivity.
    - intros w m i Hw _ Hm. exfalso. unfold dynamic_waypoints in Hw. rewrite st2_dyn, map_map in Hw.
      cbn in Hw. destruct Hw as [<-|[<-|[<-|[<-|[<-|[<-|[]]]]]]]; destruct Hm. }
  destruct H as (r & Hr & HP). exists (h2 0), (st2 0), (2 - time_compensation (st2 0)), r.
  split; [apply run_st2|]. split; [apply fresh_h2|].
  split; [unfold dynamic_waypoints; rewrite st2_dyn, !map_map; reflexivity|].
  split; [unfold dynamic_waypoints; rewrite st2_dyn, map_map; reflexivity|].
  split; [rewrite st2_off; pose proof STEP_pos; lra|auto].
Qed.
Print Assumptions C20_kept.
Print Assumptions C20_no_return_refuted.
Lemma gen_solo post s : d_pc s = PTop -> d_flag s = true -> d_stop s = false -> in_zone s = false ->
  d_computing s = false -> run post s (backs [Quiet; Quiet; Quiet]) (set_pc PGen s).
Proof.
  intros H1 H2 H3 H4 H5. unfold backs. cbn [map].
  eapply back_ok. { unfold back_step. rewrite H1, H3, H2. reflexivity. }
  eapply back_ok. { unfold back_step. cbn [d_pc set_pc]. change (in_zone (set_pc PZone s)) with (in_zone s). rewrite H4. reflexivity. }
  eapply back_ok. { unfold back_step. cbn [d_pc set_pc]. cbn. rewrite H5. reflexivity. }
  match goal with |- run _ ?a _ ?b => replace a with b by (destruct s; reflexivity) end. constructor.
Qed.
Lemma gen_req t : 0 <= t < 9 / 10 -> run full_post (req t) (backs [Quiet; Quiet; Quiet]) (set_pc PGen (req t)).
Proof. intros Ht. apply gen_solo; try reflexivity. apply req_zone; lra. Qed.
Example C20_example : reachable (set_pc PGen (req 0)) /\ d_set (set_pc PGen (req 0)) = [] /\
  In (wp_set_time 0 (wp_set_index 0 wd)) (d_dyn (set_pc PGen (req 0))) /\ w_name wd = no_name /\
  p_global (d_par (set_pc PGen (req 0))) = 0 /\
  step (set_pc PGen (req 0)) Back = Ok (set_pc PParams (collected (req 0))) Quiet /\
  run basic_post (set_pc PParams (collected (req 0))) (backs [Quiet; Quiet; Quiet; Quiet]) (ready (req 0)).
Proof.
  split; [eapply full_reachable; eapply run_app; [apply run_req|apply gen_req; lra]|].
  split; [reflexivity|]. split; [left; reflexivity|]. split; [reflexivity|]. split; [reflexivity|]. split; [|apply async_solo].
  cbn [step]. unfold back_step. cbn [d_pc set_pc]. change (next_waypoints (set_pc PGen (req 0))) with (next_waypoints (req 0)).
  destruct (next_waypoints (req 0)) eqn:E; [rewrite req_next0 in E; discriminate|]. rewrite <- E. reflexivity.
Qed.

(** ** C21: the speed is a register. *)
Lemma speed_step s e o s' : inv s -> step s e = Ok s' o ->
  get_speed s' = match e with SetSpeed v => v | _ => get_speed s end.
Proof.
  intros I H. unfold get_speed. destruct e; cbn [step] in H; unblock H; try (inversion H; subst; reflexivity).
  - destruct (poll_cases _ _ _ I H) as [(-> & _)|(tr & _ & ES & _)]; [reflexivity|].
    apply swap_fields in ES. destruct ES as (_ & _ & _ & _ & _ & _ & _ & _ & _ & _ & _ & _ & _ & _ & _ & EP & _ & q & EN & _).
    rewrite EP, EN. cbn. symmetry. apply (i_speed s I).
  - destruct (d_late s); inversion H; subst; reflexivity.
  - destruct (d_traj s); inversion H; subst; reflexivity.
  - unfold back_step in H. destruct (d_pc s); try (inversion H; subst; reflexivity).
    + destruct (d_stop s); inversion H; subst; reflexivity.
    + destruct (next_waypoints s); inversion H; subst; reflexivity.
    + destruct (d_traj s); inversion H; subst; reflexivity.
    + destruct (d_fut_locked s); inversion H; subst; reflexivity.
    + destruct (d_mod s); inversion H; subst; reflexivity.
    + destruct ms as [|m ms]; [|destruct (nth_error (d_dyn s) i)]; inversion H; subst; reflexivity.
  - destruct (torn_cases s zone s' o H) as (-> & _). reflexivity.
  - unfold comp_speed in H. destruct (d_fut s); try discriminate. destruct (extract_vertices _); [|discriminate].
    destruct (_ <? _)%nat; inversion H; subst; reflexivity.
  - unfold comp_done in H. destruct (d_fut s); try discriminate. destruct (retime _ _ _ _); inversion H; subst; reflexivity.
  - unfold comp_throw in H. destruct (d_fut s); try discriminate. inversion H; subst; reflexivity.
Qed.
Lemma speed_run s h s' : inv s -> run basic_post s h s' -> get_speed s' = last_speed (get_speed s) h.
Proof.
  intros I R. induction R; [reflexivity|]. rewrite IHR by (eapply step_inv; eauto using basic_self).
  rewrite (speed_step _ _ _ _ I H0). destruct e; reflexivity.
Qed.
Theorem C21_register :
  forall (junk : V3) (h : list (event * obs)) (s : state),
  run basic_post (init junk) h s -> get_speed s = last_speed 0 h.
Proof. intros junk h s R. apply (speed_run _ _ _ (inv_init junk) R). Qed.
(** ... and every computation runs with it, also if the call comes after the
    launch but before the computation has read it. *)
Theorem C21_computation :
  forall (junk : V3) (h : list (event * obs)) (s s1 : state) (o : obs) (v : R),
  run basic_post (init junk) h s -> step s CompSpeed = Ok s1 o -> d_fut s1 = FRunning v -> v = last_speed 0 h.
Proof.
  intros junk h s s1 o v R H HF. rewrite <- (C21_register junk h s R). cbn [step] in H. unfold comp_speed in H.
  destruct (d_fut s) eqn:EF; try discriminate. destruct (extract_vertices _); [|discriminate].
  destruct (_ <? _)%nat; inversion H; subst; cbn in HF; [discriminate|]. unfold get_speed.
  pose proof (i_speed s (reachable_inv s (ex_intro _ junk (ex_intro _ h R)))). congruence.
Qed.
Print Assumptions C21_register.
Print Assumptions C21_computation.
Example C21_example : run basic_post (init v3_zero) (h2 0) (st2 0) /\ last_speed 0 (h2 0) = 1.
Proof. split; [eapply run_mono; [apply full_basic|apply run_st2]|reflexivity]. Qed.

Example C21_example_computation : exists h s1,
  run basic_post (init v3_zero) h (launched (req (8 / 10))) /\ last_speed 0 h = 1 /\
  step (launched (req (8 / 10))) CompSpeed = Ok s1 Quiet /\ d_fut s1 = FRunning 1.
Proof.
  do 2 eexists. split; [eapply run_mono; [apply full_basic|]; eapply run_app; [apply run_req|apply launch_req; lra]|].
  split; [reflexivity|]. destruct (launched_fields (req (8 / 10))) as (_ & EP & _ & EF & _).
  destruct launched_extract3 as (vs & EV & HV). cbn [step]. unfold comp_speed. rewrite EF, EV.
  replace (length vs <? 2)%nat with false by (symmetry; apply Nat.ltb_ge; auto). split; [reflexivity|].
  cbn [d_fut set_fut]. rewrite EP. reflexivity.
Qed.

(** ** C22: the notification (calls not overlapping). *)
(** A modification of a published named waypoint is applied in this step. *)
Definition applied (s : state) (e : event) : Prop :=
  e = Back /\ exists n p ms i w, d_pc s = PMove ((n, p) :: ms) i /\ nth_error (d_dyn s) i = Some w /\ w_name w = n /\ n <> no_name.
(** Some step of the execution satisfies P. *)
Inductive happens (P : state -> event -> obs -> Prop) : state -> list (event * obs) -> Prop :=
| hap_here s e o h : P s e o -> happens P s ((e, o) :: h)
| hap_later s e o s1 h : step s e = Ok s1 o -> happens P s1 h -> happens P s ((e, o) :: h).
Lemma applies_spec n w : applies n w = true <-> w_name w = n /\ n <> no_name.
Proof.
  unfold applies, named. rewrite andb_true_iff, negb_true_iff, name_eqb_eq. split.
  - intros [A B]. split; [auto|]. intros E. rewrite A, E, name_eqb_refl in B. discriminate.
  - intros [A B]. split; [auto|]. rewrite A. now apply name_eqb_neq.
Qed.
Lemma regen_step s e o s' : inv s -> step s e = Ok s' o -> e <> GetRegenerated ->
  (d_regen s' = true <-> d_regen s = true \/ o = Swapped \/ applied s e).
Proof.
  intros I H HE.
  assert (HD : forall P, (e = Back -> forall m ms i, d_pc s <> PMove (m :: ms) i) -> (o <> Swapped) -> d_regen s' = d_regen s -> P \/ True ->
     (d_regen s' = true <-> d_regen s = true \/ o = Swapped \/ applied s e)).
  { intros P HB HO HR _. rewrite HR. split; [auto|]. intros [A|[A|(A & n & p & ms & i & w & B & _)]]; [auto|congruence|]. elim (HB A _ _ _ B). }
  destruct e; cbn [step] in H; unblock H; try congruence;
    try (apply (HD True); [discriminate|inversion H; discriminate|inversion H; reflexivity|auto]).
  - destruct (poll_cases _ _ _ I H) as [(-> & -> & _)|(tr & _ & ES & ->)]; [apply (HD True); try discriminate; auto|].
    apply swap_fields in ES. destruct ES as (_ & _ & _ & _ & _ & _ & _ & -> & _). split; auto.
  - destruct (d_late s); inversion H; subst. apply (HD True); try discriminate; auto.
  - destruct (d_traj s); inversion H; subst. apply (HD True); try discriminate; auto.
  - unfold back_step in H. destruct (d_pc s) eqn:EP;
      try (apply (HD True); [congruence|inversion H; discriminate|inversion H; reflexivity|auto]; fail).
    + destruct (d_stop s); inversion H; subst; apply (HD True); auto; discriminate.
    + destruct (next_waypoints s); inversion H; subst; apply (HD True); auto; discriminate.
    + destruct (d_traj s); inversion H; subst; apply (HD True); auto; discriminate.
    + destruct (d_fut_locked s); inversion H; subst; apply (HD True); auto; discriminate.
    + destruct (d_mod s); inversion H; subst; apply (HD True); auto; discriminate.
    + destruct ms as [|[n p] ms]; [|destruct (nth_error (d_dyn s) i) as [w|] eqn:EN]; inversion H; subst; cbn.
      * apply (HD True); try discriminate; auto.
      * destruct (applies n w) eqn:EA.
        -- split; [|auto]. intros _. right; right. split; [auto|]. apply applies_spec in EA. exists n, p, ms, i, w. auto.
        -- split; [auto|]. intros [A|[A|(_ & n' & p' & ms' & i' & w' & B & C & D)]]; [auto|discriminate|].
           rewrite EP in B. inversion B; subst. rewrite EN in C. inversion C; subst. apply applies_spec in D. congruence.
      * split; [auto|]. intros [A|[A|(_ & n' & p' & ms' & i' & w' & B & C & D)]]; [auto|discriminate|].
        rewrite EP in B. inversion B; subst. congruence.
  - destruct (torn_cases s zone s' o H) as (-> & -> & _). apply (HD True); try discriminate; auto.
  - unfold comp_speed in H. destruct (d_fut s); try discriminate. destruct (extract_vertices _); [|discriminate].
    destruct (_ <? _)%nat; inversion H; subst; apply (HD True); auto; discriminate.
  - unfold comp_done in H. destruct (d_fut s); try discriminate. destruct (retime _ _ _ _); inversion H; subst; apply (HD True); auto; discriminate.
  - unfold comp_throw in H. destruct (d_fut s); try discriminate. inversion H; subst; apply (HD True); auto; discriminate.
Qed.
Lemma regen_run s h s' : inv s -> run basic_post s h s' -> Forall (fun eo => fst eo <> GetRegenerated) h ->
  (d_regen s' = true <-> d_regen s = true \/ happens (fun s e o => o = Swapped \/ applied s e) s h).
Proof.
  intros I R. induction R; intros HF.
  - split; [auto|]. intros [A|A]; [auto|inversion A].
  - inversion HF; subst. cbn [fst] in *.
    rewrite IHR by (auto; eapply step_inv; eauto using basic_self). rewrite (regen_step _ _ _ _ I H0 H3). split.
    + intros [[A|A]|A]; [auto|right; apply hap_here; auto|right; eapply hap_later; eauto].
    + intros [A|A]; [auto|]. inversion A as [|? ? ? sx ? HS HX]; subst; [auto|]. rewrite H0 in HS. inversion HS; subst. auto.
Qed.
(** Between two consecutive calls. *)
Theorem C22_notification :
  forall (s0 s1 s2 s3 : state) (o : obs) (b : bool) (h : list (event * obs)),
  reachable s0 -> step s0 GetRegenerated = Ok s1 o -> run basic_post s1 h s2 ->
  Forall (fun eo => fst eo <> GetRegenerated) h -> step s2 GetRegenerated = Ok s3 (Bool b) ->
  (b = true <-> happens (fun s e o => o = Swapped \/ applied s e) s1 h).
Proof.
  intros s0 s1 s2 s3 o b h HR H1 R HF H2.
  assert (HR1 : reachable s1) by (eapply (reachable_step s0 GetRegenerated); eauto; exact Logic.I).
  cbn [step] in H1, H2. inversion H1; inversion H2; subst.
  rewrite (regen_run _ _ _ (reachable_inv _ HR1) R HF). cbn [d_regen set_regen]. split; [intros [A|A]; [discriminate|auto]|auto].
Qed.
(** ... and before the first call. *)
Theorem C22_first :
  forall (junk : V3) (s2 s3 : state) (b : bool) (h : list (event * obs)),
  run basic_post (init junk) h s2 ->
  Forall (fun eo => fst eo <> GetRegenerated) h -> step s2 GetRegenerated = Ok s3 (Bool b) ->
  (b = true <-> happens (fun s e o => o = Swapped \/ applied s e) (init junk) h).
Proof.
  intros junk s2 s3 b h R HF H2. cbn [step] in H2. inversion H2; subst.
  rewrite (regen_run _ _ _ (inv_init junk) R HF). cbn. split; [intros [A|A]; [discriminate|auto]|auto].
Qed.
Print Assumptions C22_notification.
Print Assumptions C22_first.
Example C22_example : reachable (req 0) /\ step (req 0) GetRegenerated = Ok (set_regen false (req 0)) (Bool true) /\
  run basic_post (set_regen false (req 0)) [(Vehicle pa, Quiet)] (set_vehicle pa (set_regen false (req 0))) /\
  step (set_vehicle pa (set_regen false (req 0))) GetRegenerated =
    Ok (set_regen false (set_vehicle pa (set_regen false (req 0)))) (Bool false) /\
  happens (fun s e o => o = Swapped \/ applied s e) (init v3_zero) trace1.
Proof.
  split; [eapply full_reachable, run_req|]. split; [reflexivity|].
  split; [apply (run_cons _ _ _ _ (set_vehicle pa (set_regen false (req 0)))); [exact Logic.I|reflexivity|constructor]|].
  split; [reflexivity|].
  assert (G : forall s h s', run full_post s h s' -> Exists (fun eo => snd eo = Swapped) h ->
     happens (fun s e o => o = Swapped \/ applied s e) s h).
  { intros s h s' R. induction R; intros HX; inversion HX; subst; [apply hap_here; auto|eapply hap_later; eauto]. }
  apply (G _ _ _ run1). unfold trace1, backs. cbn [map app].
  do 14 (apply Exists_cons_tl). apply Exists_cons_hd. reflexivity.
Qed.

(** ** C24: after an exception in the computation. *)
(** Arbitrary continuations: no side conditions on events. *)
Inductive steps : state -> list (event * obs) -> state -> Prop :=
| st_nil s : steps s [] s
| st_cons s e o s1 h s2 : step s e = Ok s1 o -> steps s1 h s2 -> steps s ((e, o) :: h) s2.
Definition failed (s : state) : Prop :=
  d_fut s = FExn /\ d_computing s = true /\ d_fut_locked s = false /\ ~ preparing (d_pc s) /\ d_pc s <> PAsync.
Ltac fin := split; [auto|split; [auto|split; [auto|split; intuition discriminate]]].
Lemma failed_step s e o s' : failed s -> e <> Poll -> step s e = Ok s' o -> failed s' /\ o <> Launched.
Proof.
  intros (HF & HC & HL & HP & HA) HE H. unfold failed.
  assert (K : forall p, ~ preparing p -> p <> PAsync -> ~ preparing p /\ p <> PAsync) by auto.
  destruct e; cbn [step] in H; unblock H; try congruence; try (inversion H; subst; cbn; split; [auto 6|discriminate]).
  - destruct (d_late s); inversion H; subst; cbn. split; [auto 6|discriminate].
  - destruct (d_traj s); inversion H; subst; cbn. split; [auto 6|discriminate].
  - unfold back_step in H. unfold preparing in *. destruct (d_pc s) eqn:EP; try (exfalso; intuition congruence).
    all: try destruct (d_stop s); try destruct (d_mod s); inversion H; subst; cbn; (split; [|discriminate]);
      rewrite ?HC; try destruct (d_flag s); try destruct (in_zone s); fin.
  - destruct (torn_cases s zone s' o H) as (_ & _ & _ & _ & tr & EF). congruence.
  - unfold comp_speed in H. rewrite HF in H. discriminate.
  - unfold comp_done in H. rewrite HF in H. discriminate.
  - unfold comp_throw in H. rewrite HF in H. discriminate.
Qed.
Lemma failed_steps s h s' : failed s -> steps s h s' -> Forall (fun eo => fst eo <> Poll) h -> failed s'.
Proof.
  intros HF R. induction R; intros HP; [auto|]. inversion HP; subst. cbn [fst] in *.
  apply IHR; auto. eapply failed_step; eauto.
Qed.
Lemma locked_step s e o s' : d_fut_locked s = true -> step s e = Ok s' o ->
  d_fut_locked s' = true /\ o <> Launched /\ o <> Swapped /\ d_traj s' = d_traj s.
Proof.
  intros HL H. destruct e; cbn [step] in H; unblock H; try (inversion H; subst; cbn; repeat split; auto; discriminate).
  - unfold do_poll in H. rewrite HL in H. discriminate.
  - destruct (d_late s); inversion H; subst; cbn; repeat split; auto; discriminate.
  - destruct (d_traj s) eqn:ET; inversion H; subst; cbn; repeat split; auto; discriminate.
  - unfold back_step in H. destruct (d_pc s); try (inversion H; subst; cbn; repeat split; auto; discriminate).
    + destruct (d_stop s); inversion H; subst; cbn; repeat split; auto; discriminate.
    + destruct (next_waypoints s); inversion H; subst; cbn; repeat split; auto; discriminate.
    + destruct (d_traj s) eqn:ET; inversion H; subst; cbn; repeat split; auto; discriminate.
    + rewrite HL in H. discriminate.
    + destruct (d_mod s); inversion H; subst; cbn; repeat split; auto; discriminate.
    + destruct ms as [|m ms]; [|destruct (nth_error (d_dyn s) i)]; inversion H; subst; cbn; repeat split; auto; discriminate.
  - destruct (torn_cases s zone s' o H) as (-> & -> & _). cbn. repeat split; auto; discriminate.
  - unfold comp_speed in H. destruct (d_fut s); try discriminate. destruct (extract_vertices _); [|discriminate].
    destruct (_ <? _)%nat; inversion H; subst; cbn; repeat split; auto; discriminate.
  - unfold comp_done in H. destruct (d_fut s); try discriminate. destruct (retime _ _ _ _); inversion H; subst; cbn; repeat split; auto; discriminate.
  - unfold comp_throw in H. destruct (d_fut s); try discriminate. inversion H; subst; cbn; repeat split; auto; discriminate.
Qed.
(** The first poll after the exception throws, whenever it comes. *)
Theorem C24_next_poll_throws :
  forall (s s1 s2 : state) (o : obs) (h : list (event * obs)),
  reachable s -> step s CompThrow = Ok s1 o -> steps s1 h s2 -> Forall (fun eo => fst eo <> Poll) h ->
  exists s3, step s2 Poll = Throws s3 /\ d_fut_locked s3 = true.
Proof.
  intros s s1 s2 o h HR H1 R HP. pose proof (reachable_inv s HR) as I.
  assert (HF : failed s1).
  { cbn [step] in H1. unfold comp_throw in H1. destruct (d_fut s) eqn:EF; try discriminate. inversion H1; subst. unfold failed. cbn.
    split; [auto|]. split; [apply (inv_computing s I); congruence|]. split; [apply (i_unlocked s I)|].
    split; [intros A; pose proof (inv_next_preparing s I A); congruence|intros A; pose proof (i_async s I A); congruence]. }
  pose proof (failed_steps _ _ _ HF R HP) as (EF & EC & EL & _).
  exists (set_fut_locked true (set_fut FNone s2)). split; [|reflexivity]. cbn [step]. unfold do_poll. rewrite EL, EF, EC.
  destruct (d_traj s2); reflexivity.
Qed.
(** From then on no call that polls returns and nothing is computed or swapped. *)
Theorem C24_wedged :
  forall (s s' s2 : state) (h : list (event * obs)),
  step s Poll = Throws s' -> steps s' h s2 ->
  step s2 Poll = Blocked /\ d_traj s2 = d_traj s /\ no_obs Launched h /\ no_obs Swapped h /\
  (d_pc s2 = PAsync -> step s2 Back = Blocked).
Proof.
  intros s s' s2 h H R.
  assert (HL : d_fut_locked s' = true /\ d_traj s' = d_traj s).
  { cbn [step] in H. unfold do_poll in H. destruct (d_fut_locked s); [discriminate|].
    destruct (d_traj s) eqn:ET; destruct (d_fut s); try discriminate; destruct (d_computing s); try discriminate;
      try (destruct (do_swap _ _); discriminate); inversion H; subst; auto. }
  destruct HL as [HL HT]. rewrite <- HT. clear H HT. induction R.
  - split; [cbn [step]; unfold do_poll; now rewrite HL|]. split; [auto|]. split; [constructor|]. split; [constructor|].
    intros HP. cbn [step]. unfold back_step. now rewrite HP, HL.
  - destruct (locked_step _ _ _ _ HL H) as (A & B & C & D).
    destruct (IHR A) as (P1 & P2 & P3 & P4 & P5). split; [auto|]. split; [congruence|].
    split; [constructor; auto|]. split; [constructor; auto|auto].
Qed.
Print Assumptions C24_next_poll_throws.
Print Assumptions C24_wedged.
Definition running1 : state := set_fut (FRunning 1) l1.
Lemma running1_reachable : reachable running1.
Proof.
  assert (R : run full_post (init v3_zero) ([(SetSpeed 1, Quiet); (SetWaypoints [wa; wb], Quiet)] ++
    backs [Quiet; Quiet; Quiet; Quiet; Quiet; Quiet; Quiet; Quiet; Launched; Quiet] ++ [(CompSpeed, Quiet)]) running1);
    [|eapply full_reachable; eauto].
  econstructor; [exact Logic.I|reflexivity|].
  econstructor; [cbn; repeat constructor; apply fresh_ok|reflexivity|]. cbn [app].
  eapply run_app; [apply launch_solo; try reflexivity; discriminate|]. rewrite launched1.
  econstructor; [exact Logic.I|reflexivity|constructor].
Qed.
Example C24_example : reachable running1 /\ step running1 CompThrow = Ok (set_fut FExn running1) Quiet /\
  steps (set_fut FExn running1) [(Vehicle pa, Quiet)] (set_vehicle pa (set_fut FExn running1)).
Proof. split; [apply running1_reachable|]. split; [reflexivity|]. econstructor; [reflexivity|constructor]. Qed.

(** ** C26: a client's generateTrajectory. *)
(** On a new object the computation it starts reads element -1 of an empty
    list, whatever the arguments. *)
Theorem C26_fresh_object_undefined :
  forall (junk : V3) (ws : list waypoint) (force : bool),
  exists s, generate_call ws force (init junk) = Ok s Launched /\ step s CompSpeed = UB.
Proof. intros. eexists. split; reflexivity. Qed.
Lemma poll_swapped s s' : step s Poll = Ok s' Swapped -> exists tr, d_fut s = FReady tr /\ do_swap tr s = Some s'.
Proof.
  intros H. cbn [step] in H. unfold do_poll in H. destruct (d_fut_locked s); [discriminate|].
  destruct (d_traj s); destruct (d_fut s) as [| | |tr|]; try discriminate; destruct (d_computing s); try discriminate;
    exists tr; destruct (do_swap tr s); inversion H; auto.
Qed.
(** Otherwise the optimiser is given the vertices of the waypoints of the last
    computation, and these waypoints are published; [ws] and [force] play no role. *)
Theorem C26_argument_ignored :
  forall (s s1 s2 s3 : state) (ws : list waypoint) (force : bool) (tr : trajectory) (elapsed : R) (o2 o3 : obs),
  reachable s -> d_fut s = FNone -> generate_call ws force s = Ok s1 Launched ->
  step s1 CompSpeed = Ok s2 o2 -> event_ok basic_post s2 (CompDone tr elapsed) -> step s2 (CompDone tr elapsed) = Ok s3 o3 ->
  (exists vs, extract_vertices (d_next s) = Some vs /\ basic_post vs tr) /\
  forall s4, step s3 Poll = Ok s4 Swapped ->
    d_traj s4 = Some tr /\ Forall2 same_waypoint (d_next s) (dynamic_waypoints s4).
Proof.
  intros s s1 s2 s3 ws force tr elapsed o2 o3 HR HF H1 H2 (HE & vs & EV & HP) H3.
  assert (E1 : d_next s1 = d_next s).
  { unfold generate_call in H1. destruct (d_fut_locked s); [discriminate|]. rewrite HF in H1. inversion H1; reflexivity. }
  assert (E2 : d_next s2 = d_next s1).
  { cbn [step] in H2. unfold comp_speed in H2. destruct (d_fut s1); try discriminate. destruct (extract_vertices _); [|discriminate].
    destruct (_ <? _)%nat; inversion H2; reflexivity. }
  rewrite E2, E1 in EV. split; [eauto|]. intros s4 H4. apply poll_swapped in H4. destruct H4 as (tr' & EF & ES).
  assert (E3 : d_fut s3 = FReady tr /\ Forall2 same_waypoint (d_next s2) (d_next s3)).
  { cbn [step] in H3. unfold comp_done in H3. destruct (d_fut s2); try discriminate.
    destruct (retime (t_segs tr) _ 0 _) as [ws'|] eqn:ER; inversion H3; subst; [|discriminate]. split; [reflexivity|].
    apply retime_same in ER. cbn [d_next set_fut set_tc set_next].
    clear - ER. induction ER as [|w w' l l' HW _ IH]; constructor; auto. destruct HW as (A & B & C & D & _). repeat split; auto. }
  destruct E3 as [E3 E4]. rewrite EF in E3. inversion E3; subst tr'. apply swap_fields in ES. destruct ES as (_ & _ & ET & ED & _).
  split; [auto|]. rewrite E2, E1 in E4. unfold dynamic_waypoints. rewrite ED, map_map.
  clear - E4. induction E4 as [|w w' l l' HW _ IH]; constructor; auto.
Qed.
(** The result of the computation it starts, if this does not fail, is published at
    the next query. *)
Theorem C26_published :
  forall (s s1 s2 s3 : state) (ws : list waypoint) (force : bool) (tr : trajectory) (elapsed : R) (o2 o3 : obs),
  generate_call ws force s = Ok s1 Launched -> d_traj s <> None ->
  step s1 CompSpeed = Ok s2 o2 -> step s2 (CompDone tr elapsed) = Ok s3 o3 -> d_fut s3 <> FExn ->
  exists s4, step s3 Poll = Ok s4 Swapped /\ d_traj s4 = Some tr /\ d_computing s4 = false.
Proof.
  intros s s1 s2 s3 ws force tr elapsed o2 o3 H1 HT H2 H3 HX.
  assert (E1 : d_fut_locked s1 = false /\ d_computing s1 = true /\ d_traj s1 = d_traj s).
  { unfold generate_call in H1. destruct (d_fut_locked s) eqn:L; [discriminate|]. destruct (d_fut s); inversion H1; subst; auto. }
  destruct E1 as (A1 & B1 & C1).
  assert (E2 : d_fut_locked s2 = false /\ d_computing s2 = true /\ d_traj s2 = d_traj s1).
  { cbn [step] in H2. unfold comp_speed in H2. destruct (d_fut s1); try discriminate. destruct (extract_vertices _); [|discriminate].
    destruct (_ <? _)%nat; inversion H2; subst; auto. }
  destruct E2 as (A2 & B2 & C2).
  assert (E3 : d_fut s3 = FReady tr /\ d_fut_locked s3 = false /\ d_computing s3 = true /\ d_traj s3 = d_traj s2).
  { cbn [step] in H3. unfold comp_done in H3. destruct (d_fut s2); try discriminate.
    destruct (retime (t_segs tr) _ 0 _); inversion H3; subst; [auto|]. exfalso. now apply HX. }
  destruct E3 as (F3 & A3 & B3 & C3).
  assert (X : exists s4, do_swap tr s3 = Some s4).
  { unfold do_swap. destruct (d_scratch s3); [eexists; reflexivity|]. destruct (d_traj s3) eqn:E; [eexists; reflexivity|congruence]. }
  destruct X as [s4 X]. exists s4. split; [now apply (poll_ready _ tr)|]. unfold do_swap in X.
  destruct (if d_scratch s3 then _ else _); [|discriminate]. inversion X; subst. auto.
Qed.
Print Assumptions C26_published.
Print Assumptions C26_fresh_object_undefined.
Print Assumptions C26_argument_ignored.
(** Asked for a trajectory to "c", the object flies through "a" and "b" again. *)
Example C26_example : reachable st1 /\ d_fut st1 = FNone /\
  exists s1 s2 s3 s4, generate_call [wc] true st1 = Ok s1 Launched /\ step s1 CompSpeed = Ok s2 Quiet /\
    event_ok basic_post s2 (CompDone tr1 (/ 100)) /\ step s2 (CompDone tr1 (/ 100)) = Ok s3 Quiet /\
    step s3 Poll = Ok s4 Swapped /\ map w_name (dynamic_waypoints s4) = [no_name; name_a; name_b].
Proof.
  split; [apply st1_reachable|]. split; [reflexivity|].
  exists (set_fut FStarted (set_computing true st1)), (set_fut (FRunning 1) (set_computing true st1)),
    (set_fut (FReady tr1) (set_tc (/ 100) (set_next dyn1 (set_computing true st1)))).
  assert (X : exists s4, do_swap tr1 (set_fut (FReady tr1) (set_tc (/ 100) (set_next dyn1 (set_computing true st1)))) = Some s4).
  { pose proof (swap_small tr1 (set_fut (FReady tr1) (set_tc (/ 100) (set_next dyn1 (set_computing true st1))))) as W.
    destruct (do_swap _ _) as [s4|]; [eauto|]. discriminate W; [cbn; lra|right; discriminate]. }
  destruct X as [s4 X]. exists s4. split; [reflexivity|]. split; [reflexivity|]. split.
  { split; [lra|]. eexists. split; [reflexivity|]. apply full_basic. exact full1. }
  split.
  { cbn [step]. unfold comp_done. cbn [d_fut set_fut]. change (p_gtl (d_new _)) with 0.
    change (d_next (set_fut (FRunning 1) (set_computing true st1))) with dyn1.
    assert (E : retime (t_segs tr1) 0 0 dyn1 = Some dyn1); [|now rewrite E].
    unfold dyn1. cbn [retime cumulative_time t_segs tr1 sag go go_segs length Nat.ltb Nat.leb firstn rev app fold_left s_time go_seg].
    replace (0 + 0) with 0 by lra. replace (0 + 1 + 0) with 1 by lra. replace (0 + 1 + 1 + 0) with 2 by lra. reflexivity. }
  split; [apply (poll_ready _ tr1); [reflexivity|reflexivity|reflexivity|exact X]|].
  apply swap_fields in X. destruct X as (_ & _ & _ & ED & _). unfold dynamic_waypoints. rewrite ED. reflexivity.
Qed.

(** ** C27: shutdown.  With the stop flag set the background thread takes at
    most ten more steps besides moving waypoints of a batch of modifications,
    starting at most one computation, whatever the other threads do ... *)
Definition rank (p : pc) : nat :=
  match p with
  | PExit => 0 | PTop => 1 | PMove _ _ => 2 | PClear => 2 | PEmpty => 2 | PApply => 3 | PAsync => 3 | PElse => 4 | PLaunch => 4
  | PStitch => 5 | PScratch => 5 | PCheck => 6 | PParams => 7 | PGen => 8 | PComp => 9 | PZone => 10
  end.
Definition may_launch (p : pc) : nat := if (3 <=? rank p)%nat then 1 else 0.
Definition count_back (h : list (event * obs)) : nat :=
  length (filter (fun eo => match fst eo with Back | BackTorn _ => negb (is_obs Moved (snd eo)) | _ => false end) h).
Lemma stop_step s e o s' : d_stop s = true -> step s e = Ok s' o -> d_stop s' = true /\
  ((if match e with Back | BackTorn _ => negb (is_obs Moved o) | _ => false end then 1 else 0) + rank (d_pc s') <= rank (d_pc s))%nat /\
  ((if is_obs Launched o then 1 else 0) + may_launch (d_pc s') <= may_launch (d_pc s))%nat.
Proof.
  intros HS H.
  assert (HE : e = Back \/ e <> Back) by (destruct e; auto; right; discriminate).
  destruct HE as [->|HE].
  - cbn [step] in H. unfold back_step in H. destruct (d_pc s) eqn:EP.
    + rewrite HS in H. inversion H; subst; cbn. auto.
    + inversion H; subst; cbn. destruct (in_zone s); cbn; auto with arith; repeat split; auto; lia.
    + inversion H; subst; cbn. destruct (d_computing s); cbn; repeat split; auto; lia.
    + destruct (next_waypoints s); inversion H; subst; cbn; repeat split; auto; lia.
    + inversion H; subst; cbn. auto.
    + inversion H; subst; cbn. auto.
    + inversion H; subst; cbn. destruct (can_stitch s); cbn; auto.
    + destruct (d_traj s); inversion H; subst; cbn. auto.
    + inversion H; subst; cbn. auto.
    + inversion H; subst; cbn. auto.
    + destruct (d_fut_locked s); inversion H; subst; cbn. auto.
    + inversion H; subst; cbn. auto.
    + destruct (d_mod s); inversion H; subst; cbn; [repeat split; auto; lia|]. destruct (d_computing s); cbn; repeat split; auto; lia.
    + inversion H; subst; cbn. repeat split; auto; lia.
    + destruct ms as [|m ms]; [|destruct (nth_error (d_dyn s) i)]; inversion H; subst; cbn; repeat split; auto; lia.
    + discriminate.
  - destruct (match e with BackTorn _ => true | _ => false end) eqn:EB.
    { destruct e; try discriminate. destruct (torn_cases s zone s' o H) as (-> & -> & EP & _). rewrite EP. cbn.
      destruct zone; cbn; repeat split; auto; lia. }
    assert (EPC : d_pc s' = d_pc s) by (eapply step_pc'; eauto; intros z ->; discriminate).
    rewrite EPC. assert (HO : is_obs Launched o = false /\ d_stop s' = true).
    { destruct e; cbn [step] in H; unblock H; try congruence; try (inversion H; subst; auto; fail).
      - unfold do_poll in H. destruct (d_fut_locked s); [discriminate|].
        destruct (d_traj s) eqn:ET; destruct (d_fut s) as [| | |tr|]; try discriminate; try (inversion H; subst; auto; fail);
          destruct (d_computing s); try (inversion H; subst; auto; fail); try discriminate;
          destruct (do_swap tr s) eqn:ES; inversion H; subst; split; auto; apply swap_fields in ES;
          destruct ES as (_ & _ & _ & _ & _ & _ & _ & _ & _ & _ & _ & -> & _); auto.
      - destruct (d_late s); inversion H; subst; auto.
      - destruct (d_traj s); inversion H; subst; auto.
      - unfold comp_speed in H. destruct (d_fut s); try discriminate. destruct (extract_vertices _); [|discriminate].
        destruct (_ <? _)%nat; inversion H; subst; auto.
      - unfold comp_done in H. destruct (d_fut s); try discriminate. destruct (retime _ _ _ _); inversion H; subst; auto.
      - unfold comp_throw in H. destruct (d_fut s); try discriminate. inversion H; subst; auto. }
    destruct HO as [-> ->]. split; [auto|]. destruct e; try congruence; cbn; lia.
Qed.
Theorem C27_bounded :
  forall (s s' : state) (h : list (event * obs)), d_stop s = true -> steps s h s' ->
  (count_back h <= 10)%nat /\ (count_obs Launched h <= 1)%nat.
Proof.
  intros s s' h HS R.
  assert (G : (count_back h + rank (d_pc s') <= rank (d_pc s))%nat /\
              (count_obs Launched h + may_launch (d_pc s') <= may_launch (d_pc s))%nat).
  { induction R; [cbn; lia|]. destruct (stop_step _ _ _ _ HS H) as (A & B & C). destruct (IHR A) as [D E].
    rewrite count_cons. unfold count_back in *. cbn [filter fst snd].
    destruct (match e with Back | BackTorn _ => negb (is_obs Moved o) | _ => false end); cbn [length]; lia. }
  destruct G as [A B]. split; [destruct (d_pc s); cbn in A; lia|]. destruct (d_pc s); cbn in B; lia.
Qed.
Lemma run_steps post s h s' : run post s h s' -> steps s h s'.
Proof. intros R. induction R; econstructor; eauto. Qed.
(** From the destructor on, whatever the other agents do. *)
Theorem C27_after_destructor :
  forall (junk : V3) (h h' : list (event * obs)) (s : state),
  run basic_post (init junk) (h ++ (Stop, Quiet) :: h') s ->
  (count_back h' <= 10)%nat /\ (count_obs Launched h' <= 1)%nat.
Proof.
  intros junk h h' s R.
  assert (HX : exists s1, d_stop s1 = true /\ steps s1 h' s).
  { remember (init junk) as s0 eqn:E. clear E junk. revert s0 R. induction h as [|[e o] h IH]; intros s0 R.
    - inversion R; subst. match goal with H : step _ Stop = _ |- _ => cbn [step] in H; inversion H; subst end.
      eexists. split; [|eapply run_steps; eauto]. reflexivity.
    - inversion R; subst. eauto. }
  destruct HX as (s1 & HS & R1). eapply C27_bounded; eauto.
Qed.
(** ... and can always take the next one until it has left its loop. *)
Theorem C27_progress :
  forall (s : state), reachable s -> d_pc s <> PExit -> exists s' o, step s Back = Ok s' o.
Proof.
  intros s HR HP. pose proof (reachable_inv s HR) as I. cbn [step]. unfold back_step.
  destruct (d_pc s) eqn:EP; try (do 2 eexists; reflexivity); try congruence.
  - destruct (d_stop s); eauto.
  - destruct (next_waypoints s); eauto.
  - pose proof (i_stitch s I EP). destruct (d_traj s); [eauto|congruence].
  - rewrite (i_unlocked s I). eauto.
  - destruct (d_mod s); eauto.
  - destruct ms as [|m ms]; [eauto|]. destruct (nth_error (d_dyn s) i); eauto.
Qed.
(** A batch of modifications is finite: it visits every published waypoint at
    most once for each of them. *)
Definition moves_left (s : state) : nat :=
  match d_pc s with PMove ms i => length ms * S (length (d_dyn s)) - i | _ => 0 end.
Definition at_end (s : state) : Prop :=
  (exists ms i, d_pc s = PMove ms i /\ (i <= length (d_dyn s))%nat) \/ d_pc s = PTop \/ d_pc s = PExit.
Lemma move_step s e o s' : inv s -> d_stop s = true -> at_end s -> event_ok basic_post s e -> step s e = Ok s' o ->
  at_end s' /\ ((if is_obs Moved o then 1 else 0) + moves_left s' <= moves_left s)%nat.
Proof.
  intros I HS HE OK H.
  assert (HB : e = Back \/ e <> Back) by (destruct e; auto; right; discriminate). destruct HB as [->|HB].
  - cbn [step] in H. unfold back_step in H. unfold at_end, moves_left. destruct HE as [(ms & i & EP & HI)|[EP|EP]]; rewrite EP in *.
    + destruct ms as [|m ms]; [|destruct (nth_error (d_dyn s) i) eqn:EN]; inversion H; subst; cbn -[Nat.mul Nat.sub].
      * split; [auto|lia].
      * assert (HL : (i < length (d_dyn s))%nat) by (apply nth_error_Some; congruence).
        rewrite move_nth_length. split; [left; do 2 eexists; split; [reflexivity|lia]|]. nia.
      * split; [left; do 2 eexists; split; [reflexivity|lia]|]. nia.
    + rewrite HS in H. inversion H; subst; cbn. auto.
    + discriminate.
  - assert (EO : is_obs Moved o = false /\ d_pc s' = d_pc s /\ (moving (d_pc s) = true -> d_dyn s' = d_dyn s)).
    { split.
      - destruct e; cbn [step] in H; unblock H; try congruence; try (inversion H; subst; auto; fail).
        + unfold do_poll in H. destruct (d_fut_locked s); [discriminate|].
          destruct (d_traj s) eqn:ET; destruct (d_fut s) as [| | |tr|]; try discriminate; try (inversion H; subst; auto; fail);
            destruct (d_computing s); try (inversion H; subst; auto; fail); try discriminate;
            destruct (do_swap tr s) eqn:ES; inversion H; subst; auto.
        + destruct (d_late s); inversion H; subst; auto.
        + destruct (d_traj s); inversion H; subst; auto.
        + destruct (torn_cases s zone s' o H) as (-> & -> & _). auto.
        + unfold comp_speed in H. destruct (d_fut s); try discriminate. destruct (extract_vertices _); [|discriminate].
          destruct (_ <? _)%nat; inversion H; subst; auto.
        + unfold comp_done in H. destruct (d_fut s); try discriminate. destruct (retime _ _ _ _); inversion H; subst; auto.
        + unfold comp_throw in H. destruct (d_fut s); try discriminate. inversion H; subst; auto.
      - split.
        + apply (step_pc' s e o s' H HB). intros z ->. cbn [step] in H. destruct (torn_cases s z s' o H) as (_ & _ & EP & _).
          destruct HE as [(ms & i & A & _)|[A|A]]; congruence.
        + intros HM. assert (HF : d_fut s = FNone) by (apply inv_next_preparing; auto; unfold preparing; auto 10).
          apply (env_step _ _ _ _ _ I HF OK H HB). }
    destruct EO as (-> & EP & ED). unfold at_end, moves_left. rewrite EP.
    destruct HE as [(ms & i & A & HI)|A]; [|split; [auto|]; destruct A as [A|A]; rewrite A; auto].
    rewrite A in *. rewrite (ED eq_refl). split; [left; eauto|lia].
Qed.
Theorem C27_moves :
  forall (s s' : state) (h : list (event * obs)) (ms : list (name * V3)),
  reachable s -> d_stop s = true -> d_pc s = PMove ms 0 -> run basic_post s h s' ->
  (count_obs Moved h <= length ms * S (length (d_dyn s)))%nat.
Proof.
  intros s s' h ms HR HS EP R. pose proof (reachable_inv s HR) as I. clear HR.
  assert (HE : at_end s) by (left; do 2 eexists; split; [eauto|lia]).
  assert (G : (count_obs Moved h + moves_left s' <= moves_left s)%nat).
  { clear ms EP. induction R; [cbn; lia|]. destruct (move_step _ _ _ _ I HS HE H H0) as [A B].
    destruct (stop_step _ _ _ _ HS H0) as (C & _). specialize (IHR C ltac:(eapply step_inv; [exact (fun _ _ X => X)|eauto..]) A).
    rewrite count_cons. lia. }
  unfold moves_left in G at 2. rewrite EP in G. lia.
Qed.
(** Having left it, it does nothing more. *)
Theorem C27_exit :
  forall (s : state), d_pc s = PExit -> step s Back = Blocked.
Proof. intros s H. cbn [step]. unfold back_step. now rewrite H. Qed.
Print Assumptions C27_bounded.
Print Assumptions C27_progress.
Print Assumptions C27_moves.
Print Assumptions C27_after_destructor.
(** The bound is reached. *)
Definition batch_state : state := set_stop true (set_pc (PMove (d_mod zs) 0) zs).
Lemma batch_state_reachable : reachable batch_state.
Proof.
  apply (full_reachable v3_zero (trace_zs ++ backs [Quiet; Quiet; Quiet; Quiet] ++ [(Stop, Quiet)])).
  eapply run_app; [apply run_zs|]. unfold backs. cbn [map app].
  apply (run_cons _ _ _ _ (set_pc PZone zs)); [exact Logic.I|reflexivity|].
  apply (run_cons _ _ _ _ (set_pc PElse zs)); [exact Logic.I| |].
  { cbn [step]. unfold back_step. cbn [d_pc set_pc]. change (in_zone (set_pc PZone zs)) with (in_zone zs). rewrite zone_zs. reflexivity. }
  apply (run_cons _ _ _ _ (set_pc PApply zs)); [exact Logic.I|reflexivity|].
  apply (run_cons _ _ _ _ (set_pc (PMove (d_mod zs) 0) zs)); [exact Logic.I|reflexivity|].
  apply (run_cons _ _ _ _ batch_state); [exact Logic.I|reflexivity|constructor].
Qed.
Example C27_example_moves : reachable batch_state /\ d_stop batch_state = true /\
  d_pc batch_state = PMove [(name_a, p5)] 0 /\ length (d_dyn batch_state) = 3%nat /\
  exists s', run basic_post batch_state (backs (repeat Moved 4)) s' /\ count_obs Moved (backs (repeat Moved 4)) = 4%nat.
Proof.
  split; [apply batch_state_reachable|]. do 3 (split; [reflexivity|]). eexists.
  split; [apply (all_batches basic_post [(name_a, p5)] batch_state); reflexivity|reflexivity].
Qed.
Example C27_example_destructor : exists h h' s, run basic_post (init v3_zero) (h ++ (Stop, Quiet) :: h') s /\ count_back h' = 1%nat.
Proof.
  eexists. exists [(Back, Quiet)]. eexists. split; [eapply run_mono; [apply full_basic|]; eapply run_app; [apply (run_req 0)|]|].
  - econstructor; [exact Logic.I|reflexivity|]. econstructor; [exact Logic.I| |constructor]. reflexivity.
  - reflexivity.
Qed.
Example C27_example : reachable (req 0) /\ step (req 0) Stop = Ok (set_stop true (req 0)) Quiet /\
  steps (set_stop true (set_pc PZone (req 0))) [(Back, Quiet)] (set_pc PComp (set_stop true (req 0))).
Proof.
  split; [eapply full_reachable, run_req|]. split; [reflexivity|]. econstructor; [|constructor].
  cbn [step]. unfold back_step. cbn [d_pc set_stop set_pc].
  change (in_zone (set_stop true (set_pc PZone (req 0)))) with (in_zone (req 0)). rewrite req_zone by lra. reflexivity.
Qed.
