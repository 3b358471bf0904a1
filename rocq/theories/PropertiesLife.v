(** Property theorems: observers, notifications, failures and shutdown of
    DynamicTrajectory (C14 - C16, C19 - C22, C24, C26, C27). *)
From Coq Require Import Reals Lra Lia List Bool ZArith Arith.
From Coquelicot Require Import Coquelicot.
From Verif Require Import Base PolyModel PolySpec VertexModel TrajModel TrajSpec TrajProofs RangeProofs PolyProofs
  WaypointModel WaypointProofs Names DynModel DynSpec DynProofs DynFrame DynTrace DynQueue DynMore EvalProofs StopAndGo
  DynScenario PropertiesDyn PropertiesReq PropertiesEval.
Import List ListNotations.
Local Open Scope R_scope.
Set Bullet Behavior "Strict Subproofs".

(** ** C14: a plotting evaluation, getDynamicWaypoints, and getMaxTime or
    getMinTime without a trajectory consist of [Poll] and a read. *)
Theorem C14_no_disturbance :
  forall (s : state), reachable s -> d_traj s <> None -> (forall tr, d_fut s <> FReady tr) ->
  step s Poll = Ok s Quiet.
Proof.
  intros s HR HT HN. pose proof (reachable_inv s HR) as I. cbn [step]. unfold do_poll. rewrite (i_unlocked s I).
  pose proof (i_noexn s I). destruct (d_traj s); [|congruence].
  destruct (d_fut s) eqn:EF; try reflexivity; [|congruence]. elim (HN tr); auto.
Qed.
Theorem C14_waiting_swap :
  forall (s : state) (tr : trajectory), reachable s -> d_fut s = FReady tr ->
  exists s', step s Poll = Ok s' Swapped /\ d_traj s' = Some tr /\ dynamic_waypoints s' = map wp_copy (d_next s).
Proof.
  intros s tr HR HF. pose proof (reachable_inv s HR) as I.
  assert (HS : exists s', do_swap tr s = Some s').
  { unfold do_swap. destruct (d_scratch s) eqn:E; [eauto|]. pose proof (i_scratch s I E). destruct (d_traj s); [eauto|congruence]. }
  destruct HS as [s' HS]. exists s'. split; [|apply swap_fields in HS; destruct HS as (_ & _ & E3 & E4 & _);
    split; [auto|unfold dynamic_waypoints; rewrite E4, map_map; reflexivity]].
  apply (poll_ready _ tr); auto; [apply (i_unlocked s I)|apply (inv_computing s I); congruence].
Qed.
(** Only without any trajectory the call waits. *)
Theorem C14_waits :
  forall (s : state), reachable s -> (step s Poll = Blocked <-> d_traj s = None /\ forall tr, d_fut s <> FReady tr).
Proof.
  intros s HR. split.
  - intros H. destruct (d_traj s) eqn:ET.
    + exfalso. destruct (d_fut s) as [| | |tr|] eqn:EF; try (destruct (C14_waiting_swap s tr HR EF) as (? & E & _); congruence);
        rewrite C14_no_disturbance in H; congruence.
    + split; [auto|]. intros tr EF. destruct (C14_waiting_swap s tr HR EF) as (? & E & _). congruence.
  - intros [HT HN]. pose proof (reachable_inv s HR) as I. cbn [step]. unfold do_poll. rewrite (i_unlocked s I), HT.
    pose proof (i_noexn s I). destruct (d_fut s); try reflexivity; [|congruence]. elim (HN tr); auto.
Qed.
Print Assumptions C14_no_disturbance.
Print Assumptions C14_waiting_swap.
Print Assumptions C14_waits.
Example C14_example : reachable st1 /\ d_traj st1 <> None /\ d_fut st1 = FNone /\
  reachable swap_ready1 /\ d_fut swap_ready1 = FReady tr1 /\ reachable (init v3_zero) /\ d_traj (init v3_zero) = None.
Proof.
  split; [apply st1_reachable|]. split; [discriminate|]. split; [reflexivity|]. split; [apply C17_example|].
  split; [reflexivity|]. split; [|reflexivity]. exists v3_zero, []. constructor.
Qed.

(** ** C15: the clock after a swap is the clock read when the computation was prepared. *)
Theorem C15_clock_set_back :
  forall (s s1 s2 s3 : state) (o : obs) (h : list (event * obs)),
  reachable s -> d_pc s = PParams -> step s Back = Ok s1 o -> run basic_post s1 h s2 -> no_obs Swapped h ->
  step s2 Poll = Ok s3 Swapped ->
  p_global (d_par s3) = p_global (d_par s) /\ p_local (d_par s3) = p_local (d_par s) /\
  min_time s3 = Some (0 + p_global (d_par s)).
Proof.
  intros s s1 s2 s3 o h HR HP H1 R HO H3.
  assert (HR1 : reachable s1) by (eapply (reachable_step s Back); eauto; exact Logic.I).
  assert (HN : d_new s1 = mkParams (p_local (d_par s)) (p_off (d_par s)) (p_global (d_par s)) (p_speed (d_par s)) (p_global (d_par s)) /\ committed s1).
  { cbn [step] in H1. unfold back_step in H1. rewrite HP in H1. inversion H1; subst. split; [reflexivity|]. left. reflexivity. }
  destruct HN as [HN HC].
  destruct (committed_run _ _ _ _ basic_self (reachable_inv _ HR1) HC R HO) as (_ & (EA & EB & EC & ED) & _).
  rewrite HN in EA, EB, EC, ED. cbn in EA, EB, EC, ED.
  assert (I2 : inv s2) by (apply reachable_inv; eapply reachable_run; eauto).
  destruct (poll_cases _ _ _ I2 H3) as [(_ & A & _)|(tr & EF & ES & _)]; [discriminate|].
  apply swap_fields in ES. destruct ES as (_ & _ & E3 & _ & _ & _ & _ & _ & _ & _ & _ & _ & _ & _ & _ & EP & _ & q & EN & _).
  unfold min_time. rewrite E3, EP, EN. cbn. split; [congruence|]. split; [congruence|]. now rewrite ED.
Qed.
Print Assumptions C15_clock_set_back.

(** The second flight, launched at time 0, finished and swapped in after an
    evaluation at time [t]. *)
Definition later (t : R) : state := do_eval t (launched (req 0)).
Definition dyn2 : list waypoint :=
  [wp_set_time 0 (wp_set_index 0 (sp0 0)); wp_set_time 1 (wp_set_index 1 (sp1 0)); wp_set_time 2 (wp_set_index 2 wd);
   wp_set_time 3 (wp_set_index 3 wa); wp_set_time 4 (wp_set_index 4 wb); wp_set_time 5 (wp_set_index 5 wc)].
Lemma retime2 : retime (t_segs tr2) 0 0 (d_next (launched (req 0))) = Some dyn2.
Proof.
  rewrite launched_0.
  cbn [retime cumulative_time t_segs tr2 go go_segs length Nat.ltb Nat.leb firstn rev app fold_left s_time go_seg].
  replace (0 + 0) with 0 by lra. replace (0 + 1 + 0) with 1 by lra. replace (0 + 1 + 1 + 0) with 2 by lra.
  replace (0 + 1 + 1 + 1 + 0) with 3 by lra. replace (0 + 1 + 1 + 1 + 1 + 0) with 4 by lra.
  replace (0 + 1 + 1 + 1 + 1 + 1 + 0) with 5 by lra. reflexivity.
Qed.
Definition st2 (t : R) : state :=
  swapped (STEP - (t - 0)) tr2 (set_fut (FReady tr2) (set_tc (/ 100) (set_next dyn2 (later t)))).
Lemma launched_fields s : d_traj (launched s) = d_traj s /\ d_par (launched s) = d_par s /\
  d_new (launched s) = mkParams (p_local (d_par s)) (p_off (d_par s)) (p_global (d_par s)) (p_speed (d_par s)) (p_global (d_par s)) /\
  d_fut (launched s) = FStarted /\ d_computing (launched s) = true /\ d_fut_locked (launched s) = d_fut_locked s /\
  d_dyn (launched s) = d_dyn s /\ d_pc (launched s) = PTop /\ d_tc (launched s) = d_tc s.
Proof.
  unfold launched, started. cbn [set_pc set_flag set_fut set_computing].
  destruct (if can_stitch _ then _ else _); cbn; repeat split.
Qed.
Lemma launched_extract : exists vs, extract_vertices (d_next (launched (req 0))) = Some vs /\ (2 <= length vs)%nat.
Proof. rewrite launched_0. eexists. split; [reflexivity|]. cbn. lia. Qed.
Lemma do_eval_fields t s : d_traj (do_eval t s) = d_traj s /\ d_next (do_eval t s) = d_next s /\ d_new (do_eval t s) = d_new s /\
  d_fut (do_eval t s) = d_fut s /\ d_computing (do_eval t s) = d_computing s /\ d_fut_locked (do_eval t s) = d_fut_locked s /\
  p_global (d_par (do_eval t s)) = t.
Proof. repeat split. Qed.
Lemma swap_eval tr ws t g s : d_traj s <> None -> p_gtl (d_new s) = g ->
  option_map settle (do_swap tr (set_fut (FReady tr) (set_tc (/ 100) (set_next ws (do_eval t s))))) =
  Some (swapped (STEP - (t - g)) tr (set_fut (FReady tr) (set_tc (/ 100) (set_next ws (do_eval t s))))).
Proof.
  intros HT HG. rewrite swap_small; [|cbn; lra|right; exact HT]. rewrite <- HG. reflexivity.
Qed.
Lemma launched_gtl t : p_gtl (d_new (launched (req t))) = t.
Proof. destruct (launched_fields (req t)) as (_ & _ & -> & _). reflexivity. Qed.
Lemma launched_traj t : d_traj (launched (req t)) = Some tr1.
Proof. destruct (launched_fields (req t)) as (-> & _). reflexivity. Qed.
Lemma swap_st2 t : option_map settle (do_swap tr2 (set_fut (FReady tr2) (set_tc (/ 100) (set_next dyn2 (later t))))) = Some (st2 t).
Proof. unfold st2, later. apply swap_eval; [rewrite launched_traj; discriminate|apply launched_gtl]. Qed.
Definition trace2 (t : R) : list (event * obs) :=
  (Eval t, Quiet) :: [(CompSpeed, Quiet); (CompDone tr2 (/ 100), Quiet); (Poll, Swapped); (PollEnd, Quiet)].
Lemma run2 t : run full_post (launched (req 0)) (trace2 t) (st2 t).
Proof.
  destruct (launched_fields (req 0)) as (ET & EP & EN & EF & EC & EL & ED & _).
  destruct (do_eval_fields t (launched (req 0))) as (FT & FX & FN & FF & FC & FL & FG).
  unfold trace2. econstructor; [cbn [event_ok]; rewrite ET; discriminate|cbn [step]; rewrite ET; reflexivity|].
  fold (later t) in *. destruct launched_extract as (vs & EV & HV).
  apply (finish_solo _ _ vs tr2 (/ 100) dyn2).
  - rewrite FF; auto.
  - rewrite FC; auto.
  - rewrite FL, EL. reflexivity.
  - rewrite FX. auto.
  - auto.
  - lra.
  - apply tr2_full; auto.
  - rewrite FN, FX, EN. exact retime2.
  - apply swap_st2.
Qed.
Definition h2 (t : R) : list (event * obs) :=
  (trace1 ++ [(Eval 0, Quiet); (Append wc, Quiet)]) ++
  backs [Quiet; Quiet; Quiet; Quiet; Quiet; Quiet; Quiet; Quiet; Launched; Quiet] ++ trace2 t.
Lemma run_st2 t : run full_post (init v3_zero) (h2 t) (st2 t).
Proof.
  unfold h2. eapply run_app; [apply run_req|]. eapply run_app; [apply launch_req; lra|apply run2].
Qed.
Lemma fresh_h2 t : fresh_calls (h2 t).
Proof.
  unfold fresh_calls, h2, trace1, trace2, backs. cbn [map app].
  repeat (apply Forall_cons; [cbn [fst]; try exact Logic.I|]); try apply Forall_nil.
  all: split; [reflexivity|split; reflexivity].
Qed.
Lemma swapped_fields off tr f c ws t s :
  d_dyn (swapped off tr (set_fut f (set_tc c (set_next ws (do_eval t s))))) = map wp_copy ws /\
  p_global (d_par (swapped off tr (set_fut f (set_tc c (set_next ws (do_eval t s)))))) = p_global (d_new s) /\
  p_off (d_par (swapped off tr (set_fut f (set_tc c (set_next ws (do_eval t s)))))) = off /\
  d_traj (swapped off tr (set_fut f (set_tc c (set_next ws (do_eval t s))))) = Some tr.
Proof. repeat split. Qed.
Lemma st2_dyn t : d_dyn (st2 t) = map wp_copy dyn2. Proof. unfold st2, later. apply swapped_fields. Qed.
Lemma launched_global t : p_global (d_new (launched (req t))) = t.
Proof. destruct (launched_fields (req t)) as (_ & _ & -> & _). reflexivity. Qed.
Lemma st2_global t : p_global (d_par (st2 t)) = 0.
Proof.
  unfold st2, later. destruct (swapped_fields (STEP - (t - 0)) tr2 (FReady tr2) (/ 100) dyn2 t (launched (req 0))) as (_ & -> & _).
  apply launched_global.
Qed.
Lemma st2_off t : time_compensation (st2 t) = STEP - (t - 0).
Proof. unfold st2, later, time_compensation. apply swapped_fields. Qed.
Lemma st2_traj t : d_traj (st2 t) = Some tr2. Proof. unfold st2, later. apply swapped_fields. Qed.
Lemma eval_fields u s : d_dyn (do_eval u s) = d_dyn s /\ p_global (d_par (do_eval u s)) = u. Proof. split; reflexivity. Qed.
Lemma st2_eval_names t u : 0 <= u -> map w_name (next_trajectory_waypoints (do_eval u (st2 t))) =
  map w_name (filter (fun w => Rltb u (w_time w)) dyn2).
Proof.
  intros Hu. unfold next_trajectory_waypoints. destruct (eval_fields u (st2 t)) as [-> ->]. rewrite st2_dyn.
  rewrite (filter_map_copy (fun w => Rltb u (w_time w))) by reflexivity. now rewrite !map_map.
Qed.
(** Waypoint "a" (time 3) is behind the last evaluated time 3.5 and yet listed
    as remaining after the swap, until the next evaluation. *)
Theorem C15_monotone_clock_refuted :
  exists (s0 s1 s2 s3 s4 s5 : state) (h : list (event * obs)) (t : R) (w : waypoint),
  reachable s0 /\ step s0 (Eval t) = Ok s1 Quiet /\ run basic_post s1 h s2 /\ not_eval h /\
  step s2 Poll = Ok s3 Swapped /\ step s3 PollEnd = Ok s4 Quiet /\
  In w (next_trajectory_waypoints s4) /\ w_name w = name_a /\ w_time w < t /\
  step s4 (Eval t) = Ok s5 Quiet /\ ~ In name_a (map w_name (next_trajectory_waypoints s5)).
Proof.
  pose proof (run2 (7 / 2)) as R. unfold trace2 in R. inversion R as [|? ? ? s1 ? ? _ H1 R1]; subst.
  apply (run_app_inv _ [(CompSpeed, Quiet); (CompDone tr2 (/ 100), Quiet)] [(Poll, Swapped); (PollEnd, Quiet)]) in R1. destruct R1 as (s2 & R1 & R2).
  inversion R2 as [|? ? ? s3 ? ? _ H3 R3]; subst. inversion R3 as [|? ? ? s4 ? ? _ H4 R4]; subst. inversion R4; subst. clear R2 R3 R R4.
  exists (launched (req 0)), s1, s2, s3, (st2 (7 / 2)), (do_eval (7 / 2) (st2 (7 / 2))), [(CompSpeed, Quiet); (CompDone tr2 (/ 100), Quiet)], (7 / 2).
  exists (wp_copy (wp_set_time 3 (wp_set_index 3 wa))).
  split; [eapply full_reachable; eapply run_app; [apply run_req|apply launch_req; lra]|].
  split; [exact H1|]. split; [eapply run_mono; [apply full_basic|exact R1]|].
  split; [repeat (apply Forall_cons; [discriminate|]); apply Forall_nil|].
  split; [exact H3|]. split; [exact H4|]. split.
  { unfold next_trajectory_waypoints. rewrite st2_global, st2_dyn.
    rewrite (filter_map_copy (fun w => Rltb 0 (w_time w))) by reflexivity. rewrite map_map.
    apply (in_map (fun x => wp_copy (wp_copy x)) _ (wp_set_time 3 (wp_set_index 3 wa))).
    apply filter_In. split; [right; right; right; left; reflexivity|]. cbn. rcase; auto; lra. }
  split; [reflexivity|]. split; [cbn; lra|].
  split; [cbn [step]; rewrite st2_traj; reflexivity|].
  rewrite st2_eval_names by lra. unfold dyn2. cbn [filter w_time wp_set_time wp_set_index]. repeat (rcase; try lra). cbn.
  intros [E|[E|[]]]; discriminate.
Qed.
Print Assumptions C15_monotone_clock_refuted.
Lemma clear_solo s : step (set_pc PClear (set_fut FStarted (ready s))) Back = Ok (launched s) Quiet.
Proof. reflexivity. Qed.
Example C15_example : reachable (set_pc PParams (collected (req 0))) /\
  exists s1 h s2 s3, step (set_pc PParams (collected (req 0))) Back = Ok s1 Quiet /\ run basic_post s1 h s2 /\ no_obs Swapped h /\
    step s2 Poll = Ok s3 Swapped.
Proof.
  split; [eapply full_reachable; eapply run_app; [apply run_req|apply params_req; lra]|].
  pose proof (async_solo full_post (req 0)) as R. unfold backs in R. cbn [map] in R.
  inversion R as [|? ? ? s1 ? ? _ H1 R1]; subst.
  pose proof (run2 0) as Q. unfold trace2 in Q.
  apply (run_app_inv _ [(Eval 0, Quiet); (CompSpeed, Quiet); (CompDone tr2 (/ 100), Quiet)] [(Poll, Swapped); (PollEnd, Quiet)]) in Q.
  destruct Q as (s2 & Q1 & Q2). inversion Q2 as [|? ? ? s3 ? ? _ H3 Q3]; subst. 
  exists s1, ([(Back, Quiet); (Back, Quiet); (Back, Quiet)] ++ (Back, Launched) :: (Back, Quiet) ::
    [(Eval 0, Quiet); (CompSpeed, Quiet); (CompDone tr2 (/ 100), Quiet)]), s2, s3. split; [exact H1|]. split.
  { eapply run_mono; [apply full_basic|]. eapply run_app; [exact R1|].
    apply (run_cons _ _ _ _ (set_pc PClear (set_fut FStarted (ready (req 0))))); [exact Logic.I|apply ready_async; reflexivity|].
    apply (run_cons _ _ _ _ (launched (req 0))); [exact Logic.I|apply clear_solo|exact Q1]. }
  split; [|exact H3]. cbn [app]. repeat (apply Forall_cons; [discriminate|]). apply Forall_nil.
Qed.

(** ** C16: getRemainingWaypoints *)
Definition ahead (last_t : R) (ws : list waypoint) : list waypoint := filter (fun w => Rltb last_t (w_time w)) ws.
Definition left_over (ws : list waypoint) : nat := (length ws - leading_stitch ws)%nat.
Lemma leading_le ws : (leading_stitch ws <= length ws)%nat.
Proof. induction ws as [|w ws IH]; cbn; [lia|]. destruct (name_eqb _ _); lia. Qed.
Lemma leading_copy ws : leading_stitch (map wp_copy ws) = leading_stitch ws.
Proof. induction ws as [|w ws IH]; [reflexivity|]. cbn. destruct (name_eqb _ _); auto. Qed.
Lemma remaining_left s : remaining_waypoints s = Z.of_nat (left_over (ahead (p_global (d_par s)) (d_dyn s))).
Proof.
  unfold remaining_waypoints, next_trajectory_waypoints, left_over, ahead. rewrite map_length, leading_copy.
  pose proof (leading_le (filter (fun w => Rltb (p_global (d_par s)) (w_time w)) (d_dyn s))). lia.
Qed.
Lemma left_cons w ws : (left_over ws <= left_over (w :: ws))%nat.
Proof. unfold left_over. cbn [leading_stitch length]. pose proof (leading_le ws). destruct (name_eqb _ _); lia. Qed.
(** Only the names and times matter. *)
Definition tag (w : waypoint) : name * R := (w_name w, w_time w).
Lemma left_tags t ws ws' : map tag ws = map tag ws' -> left_over (ahead t ws) = left_over (ahead t ws').
Proof.
  assert (G : forall ws ws', map tag ws = map tag ws' -> length (ahead t ws) = length (ahead t ws') /\
     leading_stitch (ahead t ws) = leading_stitch (ahead t ws')).
  { clear. induction ws as [|w ws IH]; intros [|w' ws'] H; try discriminate; [auto|]. cbn [map] in H. injection H as E1 E2 E3.
    destruct (IH ws' E3) as [A B]. unfold ahead in *. cbn [filter]. rewrite E2. destruct (Rltb t (w_time w')); [|auto].
    cbn [length leading_stitch]. rewrite E1, A, B. auto. }
  intros H. unfold left_over. destruct (G _ _ H) as [-> ->]. reflexivity.
Qed.
Fixpoint increasing (ws : list waypoint) : Prop :=
  match ws with
  | [] => True
  | w :: ws' => Forall (fun w' => w_time w < w_time w') ws' /\ increasing ws'
  end.
Lemma ahead_all t ws : Forall (fun w => t < w_time w) ws -> ahead t ws = ws.
Proof. induction 1; [reflexivity|]. unfold ahead in *. cbn [filter]. rcase; [now rewrite IHForall|lra]. Qed.
Lemma left_mono t t' ws : increasing ws -> t <= t' -> (left_over (ahead t' ws) <= left_over (ahead t ws))%nat.
Proof.
  intros HI Ht. induction ws as [|w ws IH]; [reflexivity|]. destruct HI as [HF HI]. specialize (IH HI).
  destruct (Rlt_dec t' (w_time w)) as [H|H].
  - assert (A : forall u, u < w_time w -> ahead u (w :: ws) = w :: ws).
    { intros u Hu. apply ahead_all. constructor; [auto|]. eapply Forall_impl; [|exact HF]. cbn. intros; lra. }
    rewrite !A by lra. lia.
  - unfold ahead in *. cbn [filter]. rcase; [lra|]. rcase; [|auto]. etransitivity; [exact IH|apply left_cons].
Qed.
Lemma scheduled_increasing ws tr g : positive_times tr -> scheduled ws tr g -> increasing ws.
Proof.
  intros HP [HL HN]. 
  assert (HS : forall i j w w', (i < j)%nat -> nth_error ws i = Some w -> nth_error ws j = Some w' -> w_time w < w_time w').
  { intros i j w w' Hij Hw Hw'. destruct (HN _ _ Hw) as [_ ->]. destruct (HN _ _ Hw') as [_ ->].
    assert (Hj : (j < length ws)%nat) by (apply nth_error_Some; congruence). rewrite HL in Hj.
    apply Rplus_lt_compat_r. clear Hw Hw' HN HL w w'. induction j as [|j IH]; [lia|].
    destruct (nth_error (t_segs tr) j) as [sg|] eqn:E; [|apply nth_error_None in E; lia].
    rewrite (start_of_S _ _ _ E).
    assert (0 < s_time sg) by (unfold positive_times in HP; rewrite Forall_forall in HP; apply HP; eapply nth_error_In; eauto).
    destruct (Nat.eq_dec i j) as [->|Hn]; [lra|]. assert (start_of tr i < start_of tr j) by (apply IH; lia). lra. }
  clear HN HL. induction ws as [|w ws IH]; [exact Logic.I|]. split.
  - apply Forall_forall. intros w' Hw'. apply In_nth_error in Hw'. destruct Hw' as [n Hn]. apply (HS 0%nat (S n) w w'); [lia|reflexivity|auto].
  - apply IH. intros i j a b Hij Ha Hb. apply (HS (S i) (S j) a b); [lia|auto|auto].
Qed.
Lemma tags_step (post : list vertex -> trajectory -> Prop) s e o s' : inv s -> step s e = Ok s' o -> o <> Swapped ->
  map tag (d_dyn s') = map tag (d_dyn s).
Proof.
  intros I H HO. destruct e; cbn [step] in H; unblock H; try (inversion H; subst; reflexivity).
  - destruct (poll_cases _ _ _ I H) as [(-> & _)|(tr & _ & _ & ->)]; [reflexivity|congruence].
  - destruct (d_late s); inversion H; subst; reflexivity.
  - destruct (d_traj s); inversion H; subst; reflexivity.
  - unfold back_step in H. destruct (d_pc s); try (inversion H; subst; reflexivity).
    + destruct (d_stop s); inversion H; subst; reflexivity.
    + destruct (next_waypoints s); inversion H; subst; reflexivity.
    + destruct (d_traj s); inversion H; subst; reflexivity.
    + destruct (d_fut_locked s); inversion H; subst; reflexivity.
    + destruct (d_mod s); inversion H; subst; reflexivity.
    + destruct ms as [|m ms]; [|destruct (nth_error (d_dyn s) i)]; inversion H; subst; cbn; try reflexivity.
      clear. generalize (d_dyn s) as ws. revert i. intros i ws; revert i.
      induction ws as [|w ws IH]; intros [|i]; cbn [move_nth map]; auto; [|now rewrite IH].
      f_equal. destruct (applies _ _); [|reflexivity]. unfold tag. now rewrite move_name, move_time.
  - destruct (torn_cases s zone s' o H) as (-> & _). reflexivity.
  - unfold comp_speed in H. destruct (d_fut s); try discriminate. destruct (extract_vertices _); [|discriminate].
    destruct (_ <? _)%nat; inversion H; subst; reflexivity.
  - unfold comp_done in H. destruct (d_fut s); try discriminate. destruct (retime _ _ _ _); inversion H; subst; reflexivity.
  - unfold comp_throw in H. destruct (d_fut s); try discriminate. inversion H; subst; reflexivity.
Qed.
Lemma tags_run (post : list vertex -> trajectory -> Prop) s h s' : (forall vs tr, post vs tr -> basic_post vs tr) ->
  inv s -> run post s h s' -> no_obs Swapped h -> map tag (d_dyn s') = map tag (d_dyn s).
Proof.
  intros Hp I R. induction R; intros HO; [reflexivity|]. inversion HO; subst. cbn [snd] in *.
  etransitivity; [apply IHR; auto; eapply step_inv; eauto|]. eapply tags_step; eauto.
Qed.
Theorem C16_bounds :
  forall (s : state), (0 <= remaining_waypoints s <= Z.of_nat (length (dynamic_waypoints s)))%Z.
Proof.
  intros s. rewrite remaining_left. unfold dynamic_waypoints. rewrite map_length. unfold left_over, ahead.
  assert (length (filter (fun w => Rltb (p_global (d_par s)) (w_time w)) (d_dyn s)) <= length (d_dyn s))%nat; [|lia].
  clear. induction (d_dyn s) as [|w ws IH]; cbn; [lia|]. destruct (Rltb _ _); cbn; lia.
Qed.
(** Between swaps the count never increases with the evaluated time. *)
Theorem C16_monotone :
  forall (s s' : state) (h : list (event * obs)),
  reachable s -> run basic_post s h s' -> no_obs Swapped h -> p_global (d_par s) <= p_global (d_par s') ->
  (remaining_waypoints s' <= remaining_waypoints s)%Z.
Proof.
  intros s s' h HR R HO Ht. pose proof (reachable_inv s HR) as I. rewrite !remaining_left.
  rewrite (left_tags _ _ _ (tags_run _ _ _ _ basic_self I R HO)). apply inj_le. apply left_mono; auto.
  destruct (d_traj s) as [tr|] eqn:ET; [|rewrite (i_none s I ET); exact Logic.I].
  destruct (i_traj s I tr ET) as [HG HS]. eapply scheduled_increasing; [apply HG|exact HS].
Qed.
(** If the published list consists of passed or stitching points followed by
    user waypoints, the count is the number of user waypoints still ahead. *)
Theorem C16_count :
  forall (s : state) (pre users : list waypoint),
  reachable s -> dynamic_waypoints s = pre ++ users ->
  Forall (fun w => w_name w = stitching_point \/ w_time w <= p_global (d_par s)) pre ->
  Forall (fun w => w_name w <> stitching_point) users ->
  remaining_waypoints s = Z.of_nat (length (filter (fun w => Rltb (p_global (d_par s)) (w_time w)) users)).
Proof.
  intros s pre users HR HD HP HU. rewrite remaining_left. f_equal. unfold dynamic_waypoints in HD.
  rewrite <- (left_tags _ (map wp_copy (d_dyn s))) by (rewrite map_map; reflexivity). rewrite HD. clear HD.
  unfold left_over, ahead. induction pre as [|w pre IH]; cbn [app].
  - assert (E : leading_stitch (filter (fun w => Rltb (p_global (d_par s)) (w_time w)) users) = O).
    { assert (HF : Forall (fun w => w_name w <> stitching_point) (filter (fun w => Rltb (p_global (d_par s)) (w_time w)) users))
        by (apply Forall_filter_ok; auto).
      destruct HF; [reflexivity|]. cbn. apply name_eqb_neq in H. now rewrite H. }
    rewrite E. lia.
  - inversion HP; subst. specialize (IH H2). cbn [filter]. rcase; [|exact IH].
    destruct H1 as [H1|H1]; [|lra]. cbn [length leading_stitch]. apply name_eqb_eq in H1. rewrite H1. lia.
Qed.
(** The start point of an earlier plan, kept by C20, is counted. *)
Theorem C16_users_only_refuted :
  exists (s : state) (w1 w2 w3 : waypoint) (users : list waypoint), reachable s /\
  dynamic_waypoints s = [w1; w2; w3] ++ users /\
  w_name w1 = stitching_point /\ w_name w2 = stitching_point /\ w_name w3 = no_name /\
  map w_name users = [name_a; name_b; name_c] /\ remaining_waypoints s = 4%Z.
Proof.
  exists (st2 0). do 4 eexists. split; [eapply full_reachable, run_st2|]. split.
  { unfold dynamic_waypoints. rewrite st2_dyn, map_map. unfold dyn2. cbn [map app]. reflexivity. }
  repeat (split; [reflexivity|]). rewrite remaining_left, st2_global, st2_dyn.
  rewrite (left_tags _ _ dyn2) by (rewrite map_map; reflexivity).
  unfold left_over, ahead, dyn2. cbn [filter w_time wp_set_time wp_set_index]. repeat (rcase; try lra). reflexivity.
Qed.
Print Assumptions C16_bounds.
Print Assumptions C16_monotone.
Print Assumptions C16_count.
Print Assumptions C16_users_only_refuted.
Example C16_example : reachable st1 /\ (exists w, dynamic_waypoints st1 = [w] ++ tl (dynamic_waypoints st1) /\
    w_time w <= p_global (d_par st1)) /\
  Forall (fun w => w_name w <> stitching_point) (tl (dynamic_waypoints st1)) /\ remaining_waypoints st1 = 2%Z /\
  run basic_post st1 [(Eval (3 / 2), Quiet)] (at1 (3 / 2)) /\ remaining_waypoints (at1 (3 / 2)) = 1%Z.
Proof.
  split; [apply st1_reachable|]. split; [eexists; split; [reflexivity|cbn; lra]|].
  split; [repeat (apply Forall_cons; [discriminate|]); apply Forall_nil|].
  split; [|split; [apply (run_cons _ _ _ _ (at1 (3/2))); [cbn; discriminate|reflexivity|constructor]|]].
  - rewrite remaining_left. unfold ahead. cbn [d_dyn st1 d_par par1 p_global dyn1 filter w_time wp_set_time wp_set_index].
    unfold dyn1. cbn [filter w_time wp_set_time wp_set_index]. repeat (rcase; try lra). reflexivity.
  - rewrite remaining_left. unfold ahead. cbn [d_dyn at1 do_eval set_par st1 d_par par1 p_global].
    unfold dyn1. cbn [filter w_time wp_set_time wp_set_index]. repeat (rcase; try lra). reflexivity.
Qed.
