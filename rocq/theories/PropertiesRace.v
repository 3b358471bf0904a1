(** Property theorems: modifications made right after setWaypoints (C93). *)
From Coq Require Import Reals Lra Lia List Bool ZArith Arith.
From Coquelicot Require Import Coquelicot.
From Verif Require Import Base PolyModel PolySpec VertexModel TrajModel TrajSpec TrajProofs RangeProofs
  WaypointModel WaypointProofs Names DynModel DynSpec DynProofs DynFrame DynTrace DynQueue DynMore StopAndGo DynScenario PropertiesDyn
  PropertiesReq.
Import List ListNotations.
Local Open Scope R_scope.
Set Bullet Behavior "Strict Subproofs".

(** Nothing stands in the way of a new trajectory: one is asked for, no named
    waypoint is about to be passed and none is being computed. *)
Definition calm (s : state) : Prop := d_flag s = true /\ ~ security_zone s /\ d_computing s = false.
(** The background thread has not chosen the other branch of its loop. *)
Definition undecided (s : state) : Prop :=
  d_pc s = PTop \/ d_pc s = PZone \/ d_pc s = PComp \/ d_pc s = PGen.
(** Any run through calm states up to the step that takes the requests. *)
Inductive calm_run : state -> list (event * obs) -> state -> Prop :=
| calm_nil s : calm s -> calm_run s [] s
| calm_cons s e o s1 tr s2 :
    calm s -> event_ok basic_post s e -> step s e = Ok s1 o ->
    (e = Back -> d_pc s <> PGen) -> (forall ws, e <> SetWaypoints ws) ->
    calm_run s1 tr s2 -> calm_run s ((e, o) :: tr) s2.

Lemma calm_step s e o s' : reachable s -> calm s -> undecided s -> event_ok basic_post s e -> step s e = Ok s' o ->
  (e = Back -> d_pc s <> PGen) -> undecided s' \/ d_pc s' = PExit.
Proof.
  intros HR (HF & HZ & HC) HU HE H HG. pose proof (zone_spec_false s HR HZ) as EZ.
  assert (HB : e = Back \/ (exists z, e = BackTorn z) \/ (e <> Back /\ forall z, e <> BackTorn z)).
  { destruct e; eauto; right; right; split; intros; discriminate. }
  destruct HB as [->|[(z & ->)|[HB HT]]].
  - specialize (HG eq_refl). cbn [step] in H. unfold back_step in H. unfold undecided.
    destruct HU as [E|[E|[E|E]]]; rewrite E in H; [| | |congruence].
    + destruct (d_stop s); [|rewrite HF in H]; inversion H; subst; cbn; auto.
    + rewrite EZ in H. inversion H; subst; cbn; auto.
    + rewrite HC in H. inversion H; subst; cbn; auto.
  - cbn [step] in H. unfold back_torn in H. rewrite HC in H. destruct (d_pc s); try discriminate. destruct (d_fut s); discriminate.
  - left. unfold undecided. rewrite (step_pc' _ _ _ _ H HB HT). exact HU.
Qed.
Lemma exit_stays s tr s' : calm_run s tr s' -> d_pc s = PExit -> d_pc s' = PExit.
Proof.
  intros R. induction R as [s|s e o s1 tr s2 HC HE H HG HS R IH]; intros E; auto. apply IH.
  assert (HB : e = Back \/ (exists z, e = BackTorn z) \/ (e <> Back /\ forall z, e <> BackTorn z)).
  { destruct e; eauto; right; right; split; intros; discriminate. }
  destruct HB as [->|[(z & ->)|[HB HT]]].
  - cbn [step] in H. unfold back_step in H. rewrite E in H. discriminate.
  - cbn [step] in H. unfold back_torn in H. rewrite E in H. discriminate.
  - now rewrite (step_pc' _ _ _ _ H HB HT).
Qed.
Lemma calm_collecting s tr s' : calm_run s tr s' -> reachable s -> undecided s -> d_pc s' = PGen -> collecting basic_post s tr s'.
Proof.
  intros R. induction R as [s|s e o s1 tr s2 HC HE H HG HS R IH]; intros HR HU HP; [constructor|].
  destruct (calm_step _ _ _ _ HR HC HU HE H HG) as [HU1|HX].
  - econstructor; eauto using reachable_step. intros ->. split; [auto|]. intros i E.
    destruct HU as [F|[F|[F|F]]]; congruence.
  - pose proof (exit_stays _ _ _ R HX). congruence.
Qed.

(** C93: a modification made after setWaypoints is in the plan made from it if
    setWaypoints does not come while the background thread has already chosen
    the other branch of its loop, and until the requests are taken a trajectory
    stays asked for, none is being computed and no named waypoint is near. *)
Theorem C93_kept :
  forall (s0 s1 s2 s3 : state) (ws : list waypoint) (o o' : obs) (tr : list (event * obs)),
  reachable s0 -> ws <> [] -> Forall wp_ok ws -> step s0 (SetWaypoints ws) = Ok s1 o -> undecided s1 ->
  calm_run s1 tr s2 -> d_pc s2 = PGen -> step s2 Back = Ok s3 o' ->
  Forall2 (fun w w' => placed (wanted tr w) w w') (ws ++ appended tr) (d_next s3) /\
  d_pc s3 = PParams /\ d_add s3 = [] /\ d_set s3 = [] /\ d_mod s3 = [].
Proof.
  intros s0 s1 s2 s3 ws o o' tr HR HW HK H1 HU R HP H3.
  assert (HR1 : reachable s1) by (eapply (reachable_step s0 (SetWaypoints ws)); eauto).
  apply (C04_replacement s0 s1 s2 s3 ws o o' tr); eauto using calm_collecting.
Qed.
(** In the other branch, which it has chosen because of a flag read before, it
    throws every modification away that was made until it gets there: the plan
    has the waypoints as they were given. *)
Theorem C93_dropped :
  forall (s : state), reachable s -> d_pc s = PElse -> d_mod s <> [] -> d_computing s = false -> d_set s <> [] ->
  exists s1, run basic_post s (backs (Quiet :: batch s)) s1 /\ d_mod s1 = [] /\ d_flag s1 = d_flag s /\
  forall (tr : list (event * obs)) (s2 s3 : state) (o : obs),
    collecting basic_post s1 tr s2 -> d_pc s2 = PGen -> step s2 Back = Ok s3 o ->
    Forall2 (fun w w' => placed (wanted tr w) w w') (d_set s ++ d_add s ++ appended tr) (d_next s3).
Proof.
  intros s HR HP HM HC HS. exists (batch_done (set_pc PApply s)). split; [|split; [reflexivity|split; [reflexivity|]]].
  - cbn [backs map]. eapply back_ok; [|apply (batch_solo basic_post (set_pc PApply s)); reflexivity].
    unfold back_step. rewrite HP, HC. destruct (d_mod s); [congruence|reflexivity].
  - intros tr s2 s3 o Hc HP2 H3.
    destruct (collecting_queues _ _ _ _ Hc) as (A & B & C & D); [constructor|].
    change (d_set (batch_done (set_pc PApply s))) with (d_set s) in B.
    change (d_add (batch_done (set_pc PApply s))) with (d_add s) in A.
    change (d_mod (batch_done (set_pc PApply s))) with (@nil (name * V3)) in D.
    assert (HS2 : d_set s2 <> []) by congruence. destruct (gen_set _ _ _ HP2 C HS2 H3) as (F & _).
    rewrite A, B in F. rewrite app_assoc in *. apply Forall2_app_inv_l in F. destruct F as (l1 & l2 & F1 & F2 & ->).
    assert (EP : forall w, pending (d_mod s2) w = wanted tr w).
    { intros w. unfold pending, wanted. rewrite D. cbn [assoc]. destruct (name_eqb _ _); auto. destruct (last_modified _ _); auto. }
    apply Forall2_app; [|apply Forall2_placed_copy in F2; [|reflexivity]]; eapply Forall2_placed_ext; eauto.
Qed.
(** On a new object, before any trajectory: setWaypoints, then modifyWaypoints
    with one modification.  The background thread looks at the requests before
    modifyWaypoints raises the flag again. *)
Definition plan2 : list waypoint := [wa; wb].
Definition r1 : state := do_modify name_a p5 false (do_set plan2 (do_speed 1 (init v3_zero))).
Definition r2 : state := set_flag true (batch_done (set_pc PApply r1)).
Definition trace_r1 : list (event * obs) :=
  [(SetSpeed 1, Quiet); (SetWaypoints plan2, Quiet); (Modify name_a p5 false, Quiet)].
Theorem C93_batch_used_refuted :
  exists (tr : list (event * obs)) (s : state), run full_post (init v3_zero) tr s /\ d_pc s = PParams /\
    tr = trace_r1 ++ backs [Quiet; Quiet; Quiet; Moved; Quiet] ++ [(RaiseFlag, Quiet)] ++ backs [Quiet; Quiet; Quiet; Quiet] /\
    Forall2 same_waypoint plan2 (d_next s) /\ w_cur wa <> p5.
Proof.
  do 2 eexists. split; [|split; [|split; [reflexivity|]]].
  - unfold trace_r1. cbn [app].
    apply (run_cons _ _ _ _ (do_speed 1 (init v3_zero))); [exact Logic.I|reflexivity|].
    apply (run_cons _ _ _ _ (do_set plan2 (do_speed 1 (init v3_zero)))); [cbn; repeat constructor; apply fresh_ok|reflexivity|].
    apply (run_cons _ _ _ _ r1); [exact Logic.I|reflexivity|].
    apply (run_app _ _ (backs [Quiet; Quiet; Quiet; Moved; Quiet]) (batch_done (set_pc PApply r1))).
    { cbn [backs map]. eapply back_ok; [reflexivity|]. eapply back_ok; [reflexivity|].
      apply (batch_solo full_post (set_pc PApply r1)). reflexivity. }
    apply (run_cons _ _ _ _ r2); [exact Logic.I|reflexivity|].
    apply params_solo; try reflexivity. discriminate.
  - reflexivity.
  - split; [repeat constructor|]. cbn. unfold p5, pa. intros E. inversion E. lra.
Qed.
(** The same with modifyWaypoint and its default argument: the background thread
    read the flag just before setWaypoints. *)
Definition r3 : state := do_modify name_a p5 true (do_set plan2 (set_pc PElse (do_speed 1 (init v3_zero)))).
Definition trace_r3 : list (event * obs) :=
  [(SetSpeed 1, Quiet); (Back, Quiet); (SetWaypoints plan2, Quiet); (Modify name_a p5 true, Quiet)].
Lemma run_r3 : run full_post (init v3_zero) trace_r3 r3.
Proof.
  apply (run_cons _ _ _ _ (do_speed 1 (init v3_zero))); [exact Logic.I|reflexivity|].
  apply (run_cons _ _ _ _ (set_pc PElse (do_speed 1 (init v3_zero)))); [exact Logic.I|reflexivity|].
  apply (run_cons _ _ _ _ (do_set plan2 (set_pc PElse (do_speed 1 (init v3_zero))))); [cbn; repeat constructor; apply fresh_ok|reflexivity|].
  apply (run_cons _ _ _ _ r3); [exact Logic.I|reflexivity|]. constructor.
Qed.
Theorem C93_single_used_refuted :
  exists (tr : list (event * obs)) (s : state), run full_post (init v3_zero) tr s /\ d_pc s = PParams /\
    tr = trace_r3 ++ backs [Quiet; Quiet; Moved; Quiet] ++ backs [Quiet; Quiet; Quiet; Quiet] /\
    Forall2 same_waypoint plan2 (d_next s) /\ w_cur wa <> p5.
Proof.
  do 2 eexists. split; [|split; [|split; [reflexivity|]]].
  - eapply run_app; [apply run_r3|].
    apply (run_app _ _ _ (batch_done (set_pc PApply r3))).
    { cbn [backs map]. eapply back_ok; [reflexivity|]. apply (batch_solo full_post (set_pc PApply r3)). reflexivity. }
    apply params_solo; try reflexivity. discriminate.
  - reflexivity.
  - split; [repeat constructor|]. cbn. unfold p5, pa. intros E. inversion E. lra.
Qed.
Print Assumptions C93_kept.
Print Assumptions C93_dropped.
Print Assumptions C93_batch_used_refuted.
Print Assumptions C93_single_used_refuted.
(** The good order: nothing happens between the two calls. *)
Definition g0 : state := do_speed 1 (init v3_zero).
Definition g1 : state := do_modify name_a p5 true (do_set plan2 g0).
Lemma no_zone_new s : d_traj s = None -> ~ security_zone s.
Proof. intros E [H _]. congruence. Qed.
Example C93_example_kept : reachable g0 /\ step g0 (SetWaypoints plan2) = Ok (do_set plan2 g0) Quiet /\
  undecided (do_set plan2 g0) /\
  calm_run (do_set plan2 g0) ((Modify name_a p5 true, Quiet) :: backs [Quiet; Quiet; Quiet]) (set_pc PGen g1) /\
  wanted ((Modify name_a p5 true, Quiet) :: backs [Quiet; Quiet; Quiet]) wa = Some p5 /\
  exists s3, step (set_pc PGen g1) Back = Ok s3 Quiet /\ map w_cur (d_next s3) = [p5; pb].
Proof.
  split. { exists v3_zero, [(SetSpeed 1, Quiet)]. econstructor; [exact Logic.I|reflexivity|constructor]. }
  split; [reflexivity|]. split; [left; reflexivity|].
  assert (HC : forall p s, d_traj s = None -> d_flag s = true -> d_computing s = false -> calm (set_pc p s)).
  { intros p s A B C. split; [exact B|]. split; [apply no_zone_new; exact A|exact C]. }
  split.
  - cbn [backs map].
    apply (calm_cons _ _ _ g1); [apply (HC PTop (do_set plan2 g0)); reflexivity|exact Logic.I|reflexivity|discriminate|discriminate|].
    apply (calm_cons _ _ _ (set_pc PZone g1)); [apply (HC PTop g1); reflexivity|exact Logic.I|reflexivity|discriminate|discriminate|].
    apply (calm_cons _ _ _ (set_pc PComp g1)); [apply HC; reflexivity|exact Logic.I|reflexivity|discriminate|discriminate|].
    apply (calm_cons _ _ _ (set_pc PGen g1)); [apply HC; reflexivity|exact Logic.I|reflexivity|discriminate|discriminate|].
    apply calm_nil. apply HC; reflexivity.
  - split; [reflexivity|]. eexists. split; reflexivity.
Qed.
Example C93_example_dropped : reachable r3 /\ d_pc r3 = PElse /\ d_mod r3 = [(name_a, p5)] /\ d_computing r3 = false /\
  d_flag r3 = true /\ d_set r3 <> [].
Proof. split; [eapply full_reachable, run_r3|]. do 4 (split; [reflexivity|]). discriminate. Qed.
