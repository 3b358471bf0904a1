(** Property theorems: plan, schedule and requests of DynamicTrajectory
    (C01 - C11).  [reachable s]: s is reached from a new object by some
    interleaving of API pieces, background-thread steps and computation steps,
    the optimiser returning one positive-length segment per vertex pair. *)
From Coq Require Import Reals Lra Lia List Bool ZArith Arith.
From Coquelicot Require Import Coquelicot.
From Verif Require Import Base PolyModel PolySpec VertexModel TrajModel TrajSpec TrajProofs RangeProofs
  WaypointModel WaypointProofs Names DynModel DynSpec DynProofs DynFrame DynTrace DynQueue DynMore StopAndGo DynScenario.
Import List ListNotations.
Local Open Scope R_scope.
Set Bullet Behavior "Strict Subproofs".

Lemma full_reachable junk tr s : run full_post (init junk) tr s -> reachable s.
Proof. intros R. exists junk, tr. eapply run_mono; [|exact R]. apply full_basic. Qed.
Lemma st1_reachable : reachable st1. Proof. eapply full_reachable, run1. Qed.

(** C01: the published schedule. *)
Theorem C01_schedule :
  forall (s : state) (tr : trajectory), reachable s -> d_traj s = Some tr ->
  length (dynamic_waypoints s) = S (length (t_segs tr)) /\
  (forall i w, nth_error (dynamic_waypoints s) i = Some w -> w_index w = Z.of_nat i) /\
  (forall i w w', nth_error (dynamic_waypoints s) i = Some w -> nth_error (dynamic_waypoints s) (S i) = Some w' ->
     exists sg, nth_error (t_segs tr) i = Some sg /\ w_time w' - w_time w = s_time sg /\ w_time w < w_time w') /\
  (exists w, nth_error (dynamic_waypoints s) 0 = Some w /\ min_time s = Some (w_time w)) /\
  (exists w, nth_error (dynamic_waypoints s) (length (t_segs tr)) = Some w /\ max_time s = Some (w_time w)).
Proof.
  intros s tr HR HT. destruct (i_traj s (reachable_inv s HR) tr HT) as ((HW & HP & _) & HS).
  apply scheduled_copy in HS. fold (dynamic_waypoints s) in HS. destruct HS as [HL HN].
  split; [auto|]. split; [apply HN|]. split.
  - intros i w w' H1 H2. destruct (HN _ _ H1) as [_ ->]. destruct (HN _ _ H2) as [_ ->].
    assert (Hi : (S i < length (dynamic_waypoints s))%nat) by (apply nth_error_Some; congruence).
    destruct (nth_error (t_segs tr) i) as [sg|] eqn:E; [|apply nth_error_None in E; lia].
    exists sg. split; [auto|]. rewrite (start_of_S _ _ _ E).
    assert (0 < s_time sg) by (unfold positive_times in HP; rewrite Forall_forall in HP; apply HP; eapply nth_error_In; eauto).
    split; lra.
  - assert (HE : forall i, (i <= length (t_segs tr))%nat -> exists w, nth_error (dynamic_waypoints s) i = Some w).
    { intros i Hi. destruct (nth_error (dynamic_waypoints s) i) eqn:E; [eauto|]. apply nth_error_None in E. lia. }
    split.
    + destruct (HE 0%nat ltac:(lia)) as [w Hw]. exists w. split; [auto|]. destruct (HN _ _ Hw) as [_ ->].
      unfold min_time. rewrite HT. reflexivity.
    + destruct (HE (length (t_segs tr)) ltac:(lia)) as [w Hw]. exists w. split; [auto|]. destruct (HN _ _ Hw) as [_ ->].
      unfold max_time. rewrite HT. now rewrite start_of_all.
Qed.
Print Assumptions C01_schedule.
Example C01_example : reachable st1 /\ d_traj st1 = Some tr1 /\ map w_time (dynamic_waypoints st1) = [0; 1; 2] /\
  map s_time (t_segs tr1) = [1; 1].
Proof. split; [apply st1_reachable|]. repeat split. Qed.

(** C02: no error path; a launched computation has at least two waypoints with
    positions; an evaluation that got past its first half has a trajectory. *)
Theorem C02_no_error_path :
  forall (s : state), reachable s ->
  d_fut s <> FExn /\
  forall e, event_ok basic_post s e -> step s e <> UB /\ forall s', step s e <> Throws s'.
Proof.
  intros s HR. pose proof (reachable_inv s HR) as I. split; [apply (i_noexn s I)|]. intros e. now apply step_safe.
Qed.
Theorem C02_two_waypoints :
  forall (s s' : state), reachable s -> step s Back = Ok s' Launched ->
  (2 <= length (d_next s'))%nat /\
  Forall (fun w => exists p, get_constraint 0 (w_vertex w) = Some p /\ length p = 3%nat) (d_next s').
Proof.
  intros s s' HR H. assert (HR' : reachable s') by (eapply reachable_step; eauto; exact Logic.I).
  pose proof (reachable_inv s' HR') as I'.
  assert (HF : d_fut s' <> FNone).
  { pose proof (step_flight basic_post s Back _ _ (reachable_inv s HR) Logic.I H) as E.
    unfold in_flight in E. cbn in E. destruct (d_fut s'); [|discriminate..]. destruct (d_fut s); cbn in E; lia. }
  split; [apply (i_two s' I'); auto|]. eapply Forall_impl; [|apply (i_next s' I')]. intros w [_ H2]. exact H2.
Qed.
Theorem C02_evaluation_has_trajectory :
  forall (s s1 s2 : state) (o : obs) (tr : list (event * obs)), reachable s ->
  step s Poll = Ok s1 o -> run basic_post s1 tr s2 -> d_traj s2 <> None.
Proof.
  intros s s1 s2 o tr HR H R. eapply traj_stays; [exact R|].
  destruct (poll_cases _ _ _ (reachable_inv s HR) H) as [(-> & _ & HT & _)|(t & _ & ES & _)]; [auto|].
  apply swap_fields in ES. destruct ES as (_ & _ & -> & _). discriminate.
Qed.
Print Assumptions C02_no_error_path.
Print Assumptions C02_two_waypoints.
Print Assumptions C02_evaluation_has_trajectory.
Example C02_example : reachable (ready (req (8 / 10))) /\
  exists s', step (ready (req (8 / 10))) Back = Ok s' Launched /\ length (d_next s') = 4%nat.
Proof.
  split; [eapply full_reachable; eapply run_app; [apply run_req|apply ready_req; lra]|].
  eexists. split; [apply ready_async; reflexivity|].
  rewrite ready_next, launched_08. reflexivity.
Qed.

(** C03: where a generated trajectory starts and ends.  [vs] is the list of
    vertices handed to the optimiser. *)
Theorem C03_ends_at_rest :
  forall (s : state) (vs : list vertex), extract_vertices (d_next s) = Some vs ->
  exists vs' v w, vs = vs' ++ [v] /\ nth_error (d_next s) (length vs') = Some w /\
    get_constraint 0 v = get_constraint 0 (w_vertex w) /\
    get_constraint 1 v = Some [0; 0; 0] /\ get_constraint 2 v = Some [0; 0; 0].
Proof.
  intros s vs H. destruct (extract_last _ _ H) as (ws & w & EW & EV).
  exists (map w_vertex ws), (at_rest_end (w_vertex w)), w. split; [auto|]. split.
  - rewrite EW, map_length, nth_error_app2, Nat.sub_diag by lia. reflexivity.
  - unfold at_rest_end. split; [rewrite !get_set_other by lia; reflexivity|].
    split; [rewrite get_set_other by lia|]; rewrite get_set_same; reflexivity.
Qed.
Theorem C03_from_scratch :
  forall (s s1 s2 : state) (o : obs) (tr : list (event * obs)) (vs : list vertex),
  reachable s -> d_pc s = PScratch -> step s Back = Ok s1 o ->
  run basic_post s1 tr s2 -> no_obs Swapped tr -> extract_vertices (d_next s2) = Some vs ->
  exists v rest, vs = v :: rest /\ get_constraint 0 v = Some (v3_list (d_vehicle s)) /\
    get_constraint 1 v = Some [0; 0; 0] /\ get_constraint 2 v = Some [0; 0; 0].
Proof.
  intros s s1 s2 o tr vs HR HP HS R HO HV. pose proof (reachable_inv s HR) as I.
  assert (I1 : inv s1) by (eapply back_inv; eauto).
  pose proof (i_ne s I ltac:(auto)) as HN.
  cbn [step] in HS. unfold back_step in HS. rewrite HP in HS. inversion HS; subst s1 o. clear HS.
  destruct (fixed_run _ _ _ _ basic_self I1 (or_introl eq_refl) R HO) as [HF _]. apply flight_next in HF.
  cbn [d_next set_pc set_next] in HF. destruct (d_next s) as [|w ws]; [congruence|].
  inversion HF as [|? w0 ? l0 H1 H2 E1 E2]; subst. inversion H2 as [|? w1 ? l1 H3 H4 E3 E4]; subst.
  rewrite <- E2 in HV. destruct (extract_head _ _ _ _ HV) as (rest & ->). exists (w_vertex w0), rest.
  split; [auto|]. destruct H1 as (-> & _). repeat split.
Qed.
Theorem C03_stitched :
  forall (s0 s1 s s2 s3 : state) (t : R) (o : obs) (tr tr' tr'' : list (event * obs)) (vs : list vertex),
  reachable s0 -> step s0 (Eval t) = Ok s1 o -> d_traj s0 <> None ->
  run basic_post s1 tr s -> no_obs Swapped tr -> not_eval tr -> d_pc s = PParams ->
  run basic_post s tr' s2 -> d_pc s2 = PAsync -> no_obs Launched tr' -> not_eval tr' -> d_scratch s2 = false ->
  run basic_post s2 tr'' s3 -> no_obs Swapped tr'' -> extract_vertices (d_next s3) = Some vs ->
  exists p v a x rest, eval_refs t false s = Some (mkRefs p (Some v) (Some a)) /\
    vs = x :: rest /\ get_constraint 0 x = Some (v3_list p) /\ get_constraint 1 x = Some (v3_list v) /\
    get_constraint 2 x = Some (v3_list a).
Proof.
  intros s0 s1 s s2 s3 t o tr tr' tr'' vs HR0 HE HT0 R HO HNE HP R' HA HL HNE' HSC R'' HO'' HV.
  assert (HR1 : reachable s1) by (eapply reachable_step; eauto; exact HT0).
  assert (HR : reachable s) by (eapply reachable_run; eauto).
  pose proof (reachable_inv s HR) as I. pose proof (reachable_inv s1 HR1) as I1.
  destruct (clock_run _ _ _ _ basic_self I1 R HO HNE) as (C1 & C2 & C3 & C4).
  cbn [step] in HE. destruct (d_traj s0) as [t0|]; [|congruence]. inversion HE; subst s1 o. clear HE.
  cbn in C1, C2, C3, C4.
  destruct (launch_list _ _ _ _ basic_self I HP R' HA HL)
    as (u1 & sp & u2 & sx & u3 & E & R1 & P1 & R2 & R3 & T1 & D1 & T2 & D2 & O1 & G1 & K1 & NS & Isp & [[HX _]|(_ & old & HOLD & HNX)]);
    [congruence|].
  assert (HNE1 : not_eval u1) by (subst tr'; apply Forall_app in HNE'; tauto).
  destruct (clock_run _ _ _ _ basic_self I R1 NS HNE1) as (B1 & B2 & B3 & B4).
  assert (I2 : inv s2) by (apply reachable_inv; eapply reachable_run; eauto).
  destruct (fixed_run _ _ _ _ basic_self I2 (or_intror (or_introl HA)) R'' HO'') as [HF _]. apply flight_next in HF.
  cbn zeta in HNX. rewrite HNX in HF.
  inversion HF as [|? w0 ? l0 H1 H2 E1 E2]; subst. inversion H2 as [|? w1 ? l1 H3 H4 E3 E4]; subst.
  rewrite <- E2 in HV. destruct (extract_head _ _ _ _ HV) as (rest & ->).
  unfold eval_refs. rewrite HOLD. unfold get_references.
  do 3 eexists. exists (w_vertex w0), rest. split; [reflexivity|]. split; [auto|]. destruct H1 as (-> & _).
  cbn [w_vertex stitch_waypoint].
  assert (EL : p_local (d_par sp) + p_off (d_par sp) = p_global (d_par s) - p_gtl (d_par s) + p_off (d_par s))
    by (rewrite B1, O1, C1, C4; ring).
  assert (EG : p_local (d_par sp) + p_off (d_par sp) + p_gtl (d_par s) = p_global (d_par s) + p_off (d_par s)) by (rewrite EL; ring).
  rewrite EG, EL. repeat split.
Qed.
Print Assumptions C03_ends_at_rest.
Print Assumptions C03_from_scratch.
Print Assumptions C03_stitched.
(** The flight of DynScenario: evaluated at 0.8 s, then appended to. *)
Example C03_example :
  exists s tr tr', reachable st1 /\ step st1 (Eval (8 / 10)) = Ok (at1 (8 / 10)) Quiet /\ d_traj st1 <> None /\
  run basic_post (at1 (8 / 10)) tr s /\ no_obs Swapped tr /\ not_eval tr /\ d_pc s = PParams /\
  run basic_post s tr' (ready (req (8 / 10))) /\ d_pc (ready (req (8 / 10))) = PAsync /\ no_obs Launched tr' /\ not_eval tr' /\
  d_scratch (ready (req (8 / 10))) = false.
Proof.
  exists (set_pc PParams (collected (req (8 / 10)))), ((Append wc, Quiet) :: backs [Quiet; Quiet; Quiet; Quiet]), (backs [Quiet; Quiet; Quiet; Quiet]).
  split; [apply st1_reachable|]. split; [reflexivity|]. split; [discriminate|]. split.
  { econstructor; [apply fresh_ok|reflexivity|]. eapply run_mono; [apply full_basic|apply params_req; lra]. }
  split; [repeat constructor; discriminate|]. split; [repeat constructor; discriminate|]. split; [reflexivity|].
  split; [apply async_solo|]. split; [reflexivity|].
  split; [repeat constructor; discriminate|]. split; [repeat constructor; discriminate|]. apply ready_scratch. lra.
Qed.
Example C03_example_scratch : exists s, reachable s /\ d_pc s = PScratch /\ d_next s <> [].
Proof.
  exists (set_pc PScratch (set_new (mkParams 0 0 0 1 0) (set_next [wa; wb] (do_speed 1 (set_flag true (init v3_zero)))))).
  split; [|split; [reflexivity|discriminate]].
  eapply (full_reachable v3_zero ((SetSpeed 1, Quiet) :: (SetWaypoints [wa; wb], Quiet) :: backs [Quiet; Quiet; Quiet; Quiet; Quiet; Quiet])).
  econstructor; [exact Logic.I|reflexivity|]. econstructor; [cbn; repeat constructor; apply fresh_ok|reflexivity|].
  unfold backs. cbn [map]. do 6 (eapply back_ok; [reflexivity|]). 
  match goal with |- run _ ?a _ ?b => replace a with b by reflexivity end. constructor.
Qed.

