(** Property theorems: of several reports to DynamicTrajectory only the latest
    one counts, unless something looked in between (C102). *)
From Coq Require Import Reals Lra Lia List Bool ZArith Arith.
From Coquelicot Require Import Coquelicot.
From Verif Require Import Base PolyModel PolySpec VertexModel TrajModel TrajSpec
  WaypointModel Names DynModel DynSpec DynProofs StopAndGo DynScenario PropertiesDyn PropertiesReq.
Import List ListNotations.
Local Open Scope R_scope.
Set Bullet Behavior "Strict Subproofs".

(** ** Specification: who looks at what *)

(** A poll that takes a finished trajectory. *)
Definition swaps (s : state) (e : event) : Prop := e = Poll /\ exists s', step s Poll = Ok s' Swapped.
(** The vehicle position: a start from scratch, and the swap of its result. *)
Definition looks_at_vehicle (s : state) (e : event) : Prop :=
  (e = Back /\ d_pc s = PScratch) \/ (swaps s e /\ d_scratch s = true).
(** The last evaluated time: the security zone, the removal of passed
    waypoints, the start of a computation, the choice between stitching and
    starting from scratch, the move of a waypoint, and every swap. *)
Definition looks_at_clock (s : state) (e : event) : Prop :=
  (e = Back /\ (d_pc s = PZone \/ (d_pc s = PGen /\ d_set s = []) \/ d_pc s = PParams \/ d_pc s = PCheck \/
     exists m ms i, d_pc s = PMove (m :: ms) i)) \/ swaps s e.
(** The speed: the computation thread, once. *)
Definition looks_at_speed (s : state) (e : event) : Prop := e = CompSpeed.

(** Nothing in the execution of h from s looks. *)
Definition unseen (looks : state -> event -> Prop) (post : list vertex -> trajectory -> Prop) (s : state) (h : list (event * obs)) : Prop :=
  forall h1 e o h2 s1, h = h1 ++ (e, o) :: h2 -> run post s h1 s1 -> ~ looks s1 e.

(** ** States that differ in one report *)
Definition set_clock (l g : R) (s : state) : state :=
  set_par (mkParams l (p_off (d_par s)) g (p_speed (d_par s)) (p_gtl (d_par s))) s.
Definition set_speeds (v w : R) (s : state) : state := set_new (par_speed w (d_new s)) (set_par (par_speed v (d_par s)) s).
Definition veh (s t : state) : Prop := exists p, t = set_vehicle p s.
Definition clk (s t : state) : Prop := exists l g, t = set_clock l g s.
Definition spd (s t : state) : Prop := exists v w, t = set_speeds v w s.

Lemma veh_sym s t : veh s t -> veh t s.
Proof. intros [p ->]. exists (d_vehicle s). destruct s; reflexivity. Qed.
Lemma clk_sym s t : clk s t -> clk t s.
Proof. intros (l & g & ->). exists (p_local (d_par s)), (p_global (d_par s)). destruct s as [[]]; reflexivity. Qed.
Lemma spd_sym s t : spd s t -> spd t s.
Proof. intros (v & w & ->). exists (p_speed (d_par s)), (p_speed (d_new s)). destruct s as [[] []]; reflexivity. Qed.

(** What a simulation needs. *)
Definition blind (looks : state -> event -> Prop) (rel : state -> state -> Prop) : Prop :=
  (forall s t, rel s t -> rel t s) /\
  (forall s t, rel s t -> d_next t = d_next s /\ (d_traj t = None <-> d_traj s = None)) /\
  (forall s t e s1 o, rel s t -> ~ looks s e -> step s e = Ok s1 o -> exists t1, step t e = Ok t1 o /\ rel s1 t1).
Lemma blind_run looks rel (post : list vertex -> trajectory -> Prop) : blind looks rel ->
  forall h s t s', rel s t -> run post s h s' -> unseen looks post s h -> exists t', run post t h t' /\ rel s' t'.
Proof.
  intros (_ & HN & HS). induction h as [|[e o] h IH]; intros s t s' HR R HU; inversion R as [|? ? ? s1 ? ? OK ST R1]; subst.
  - exists t. split; [constructor|exact HR].
  - destruct (HS s t e s1 o HR) as (t1 & S1 & HR1); auto.
    { apply (HU [] e o h s); [reflexivity|constructor]. }
    destruct (IH s1 t1 s' HR1 R1) as (t' & R' & HR').
    { intros h1 e' o' h2 s2 E R2. apply (HU ((e, o) :: h1) e' o' h2 s2); [rewrite E; reflexivity|]. econstructor; eauto. }
    exists t'. split; [|exact HR']. econstructor; eauto.
    destruct (HN s t HR) as [E1 E2]. destruct e; cbn [event_ok] in *; auto.
    + intros K. apply OK. now apply E2.
    + rewrite E1. exact OK.
Qed.
Lemma unseen_other looks rel (post : list vertex -> trajectory -> Prop) : blind looks rel -> (forall s t e, rel s t -> looks s e -> looks t e) ->
  forall h s t, rel s t -> unseen looks post s h -> unseen looks post t h.
Proof.
  intros HB HL h s t HR HU h1 e o h2 t1 E RT HK. pose proof HB as (HY & _ & _).
  assert (X : exists s1, run post s h1 s1 /\ rel s1 t1).
  { revert s t h HR HU E RT. induction h1 as [|[e' o'] h1 IH]; intros s t h HR HU E RT.
    - inversion RT; subst. exists s. split; [constructor|exact HR].
    - inversion RT as [|? ? ? t2 ? ? OK ST R1]; subst.
      assert (NL : ~ looks t e').
      { intros K. apply (HU [] e' o' (h1 ++ (e, o) :: h2) s); [reflexivity|constructor|]. apply (HL t s); auto. }
      destruct (blind_run looks rel post HB [(e', o')] t s t2 (HY _ _ HR)) as (s2 & R2 & HR2).
      { econstructor; eauto. constructor. }
      { intros [|x h3] e3 o3 h4 s3 E3 R3; [|destruct h3; discriminate]. inversion E3; subst. inversion R3; subst. exact NL. }
      destruct (IH s2 t2 (h1 ++ (e, o) :: h2)) as (s1 & R4 & HR4).
      + apply HY; exact HR2.
      + intros h3 e3 o3 h4 s3 E3 R3. apply (HU ((e', o') :: h3) e3 o3 h4 s3); [cbn [app]; now rewrite E3|].
        change ((e', o') :: h3) with ([(e', o')] ++ h3). eapply run_app; eauto.
      + reflexivity.
      + exact R1.
      + exists s1. split; [|exact HR4]. change ((e', o') :: h1) with ([(e', o')] ++ h1). eapply run_app; eauto. }
  destruct X as (s1 & R1 & HR1). apply (HU h1 e o h2 s1 E R1). apply (HL t1 s1); auto.
Qed.
(** A report e that changes only what rel forgets, and does so completely. *)
Lemma latest looks rel (post : list vertex -> trajectory -> Prop) (rep : event) e s :
  blind looks rel -> (forall s t e, rel s t -> looks s e -> looks t e) ->
  (exists s0, event_ok post s e /\ step s e = Ok s0 Quiet /\ rel s s0) ->
  (forall s1 t1, rel s1 t1 -> step s1 rep = step t1 rep /\ (event_ok post s1 rep -> event_ok post t1 rep)) ->
  forall h s', unseen looks post s h ->
  (run post s ((e, Quiet) :: h ++ [(rep, Quiet)]) s' <-> run post s (h ++ [(rep, Quiet)]) s').
Proof.
  intros HB HL (s0 & OK & ST & HR) HE h s' HU. pose proof HB as (HY & _ & _).
  assert (K : forall a b, rel a b -> unseen looks post a h -> run post a (h ++ [(rep, Quiet)]) s' -> run post b (h ++ [(rep, Quiet)]) s').
  { intros a b Hab Ha R. apply run_app_inv in R. destruct R as (a1 & R1 & R2).
    destruct (blind_run looks rel post HB h a b a1 Hab R1 Ha) as (b1 & R3 & Hab1). eapply run_app; [exact R3|].
    inversion R2 as [|? ? ? a2 ? ? OK2 ST2 R4]; subst. inversion R4; subst.
    destruct (HE a1 b1 Hab1) as [E1 E2]. econstructor; [apply E2; exact OK2|rewrite <- E1; exact ST2|constructor]. }
  split; intros R.
  - inversion R as [|? ? ? s1 ? ? _ ST1 R1]; subst. rewrite ST in ST1. inversion ST1; subst s1.
    apply (K s0 s); auto. eapply unseen_other; eauto.
  - econstructor; [exact OK|exact ST|]. apply (K s s0); auto.
Qed.

(** ** Each step commutes with the change unless it looks *)
Ltac same_ := eexists; split; [reflexivity|]; eexists; reflexivity.
Lemma swap_vehicle tr p s : d_scratch s = false -> do_swap tr (set_vehicle p s) = option_map (set_vehicle p) (do_swap tr s).
Proof.
  intros H. unfold do_swap. change (d_scratch (set_vehicle p s)) with (d_scratch s). rewrite H.
  change (d_traj (set_vehicle p s)) with (d_traj s). destruct (d_traj s); reflexivity.
Qed.
Lemma poll_out s s1 o : step s Poll = Ok s1 o -> o = Swapped \/ (o = Quiet /\ s1 = s).
Proof.
  cbn [step]. unfold do_poll. destruct (d_fut_locked s); [discriminate|].
  destruct (d_traj s), (d_fut s), (d_computing s); try discriminate; try (intros H; inversion H; subst; auto; fail);
    match goal with |- context [do_swap ?a ?b] => destruct (do_swap a b) end; intros H; inversion H; auto.
Qed.
Lemma veh_blind : blind looks_at_vehicle veh.
Proof.
  split; [exact veh_sym|]. split; [intros s t [p ->]; split; [reflexivity|reflexivity]|].
  intros s t e s1 o [p ->] HL H. destruct e.
  - cbn [step] in *. change (todo_locked (set_vehicle p s)) with (todo_locked s). destruct (todo_locked s); [discriminate|]. inversion H; subst. same_.
  - cbn [step] in *. change (todo_locked (set_vehicle p s)) with (todo_locked s). destruct (todo_locked s); [discriminate|]. inversion H; subst. same_.
  - cbn [step] in *. change (todo_locked (set_vehicle p s)) with (todo_locked s). destruct (todo_locked s); [discriminate|]. inversion H; subst. same_.
  - cbn [step] in *. inversion H; subst. same_.
  - assert (HQ : (o = Swapped /\ d_scratch s = false) \/ (o = Quiet /\ s1 = s)).
    { destruct (poll_out _ _ _ H) as [->|X]; [left|right; exact X]. split; [reflexivity|].
      destruct (d_scratch s) eqn:ES; auto. exfalso. apply HL. right. split; [|exact ES]. split; [reflexivity|eauto]. }
    cbn [step] in *. unfold do_poll in *. change (d_fut_locked (set_vehicle p s)) with (d_fut_locked s).
    change (d_traj (set_vehicle p s)) with (d_traj s). change (d_fut (set_vehicle p s)) with (d_fut s).
    change (d_computing (set_vehicle p s)) with (d_computing s).
    destruct (d_fut_locked s); [discriminate|].
    destruct (d_traj s), (d_fut s), (d_computing s); try discriminate; try (inversion H; subst; same_);
      (destruct HQ as [[_ HQ]|[HQ _]]; [|subst o; match type of H with context [do_swap ?a ?b] => destruct (do_swap a b); discriminate end]);
      rewrite (swap_vehicle _ p s HQ); match type of H with context [do_swap ?a ?b] => destruct (do_swap a b); [|discriminate] end;
      inversion H; subst; same_.
  - cbn [step] in *. change (d_late (set_vehicle p s)) with (d_late s). destruct (d_late s); [discriminate|]. inversion H; subst. same_.
  - cbn [step] in *. change (d_traj (set_vehicle p s)) with (d_traj s). destruct (d_traj s); [|discriminate]. inversion H; subst. same_.
  - cbn [step] in *. inversion H; subst. same_.
  - cbn [step] in *. inversion H; subst. eexists. split; [reflexivity|]. exists p0. reflexivity.
  - cbn [step] in *. inversion H; subst. same_.
  - cbn [step] in *. inversion H; subst. same_.
  - cbn [step] in *. unfold back_step in *. change (d_pc (set_vehicle p s)) with (d_pc s).
    destruct (d_pc s) eqn:EP; try discriminate; try (inversion H; subst; same_).
    + change (d_stop (set_vehicle p s)) with (d_stop s). destruct (d_stop s); inversion H; subst; same_.
    + change (next_waypoints (set_vehicle p s)) with (next_waypoints s). destruct (next_waypoints s); inversion H; subst; same_.
    + change (d_traj (set_vehicle p s)) with (d_traj s). destruct (d_traj s); inversion H; subst; same_.
    + exfalso. apply HL. left. tauto.
    + change (d_fut_locked (set_vehicle p s)) with (d_fut_locked s). destruct (d_fut_locked s); inversion H; subst; same_.
    + change (d_mod (set_vehicle p s)) with (d_mod s). destruct (d_mod s); inversion H; subst; same_.
    + destruct ms; [inversion H; subst; same_|]. change (d_dyn (set_vehicle p s)) with (d_dyn s).
      destruct (nth_error (d_dyn s) i); inversion H; subst; same_.
  - cbn [step] in *. unfold back_torn in *. change (d_pc (set_vehicle p s)) with (d_pc s). change (d_fut (set_vehicle p s)) with (d_fut s).
    change (d_computing (set_vehicle p s)) with (d_computing s).
    destruct (d_pc s); try discriminate. destruct (d_fut s); try discriminate. destruct (d_computing s); try discriminate. inversion H; subst; same_.
  - cbn [step] in *. unfold comp_speed in *. change (d_fut (set_vehicle p s)) with (d_fut s). change (d_next (set_vehicle p s)) with (d_next s).
    destruct (d_fut s); try discriminate. destruct (extract_vertices (d_next s)); try discriminate.
    destruct (_ <? _)%nat; inversion H; subst; same_.
  - cbn [step] in *. unfold comp_done in *. change (d_fut (set_vehicle p s)) with (d_fut s). change (d_next (set_vehicle p s)) with (d_next s).
    change (d_new (set_vehicle p s)) with (d_new s). destruct (d_fut s); try discriminate.
    destruct (retime _ _ _ _); inversion H; subst; same_.
  - cbn [step] in *. unfold comp_throw in *. change (d_fut (set_vehicle p s)) with (d_fut s). destruct (d_fut s); try discriminate.
    inversion H; subst; same_.
Qed.
Lemma swaps_flags s t e : d_fut_locked t = d_fut_locked s -> d_fut t = d_fut s -> d_computing t = d_computing s ->
  d_scratch t = d_scratch s -> (d_traj t = None <-> d_traj s = None) -> swaps s e -> swaps t e.
Proof.
  intros E1 E2 E3 E4 E5 (-> & s' & H). split; [reflexivity|]. cbn [step] in *. unfold do_poll in *. rewrite E1, E2, E3.
  destruct (d_fut_locked s); [discriminate|].
  assert (SW : forall tr x, do_swap tr s = Some x -> exists y, do_swap tr t = Some y).
  { intros tr x. unfold do_swap. rewrite E4. destruct (d_scratch s); [eauto|].
    destruct (d_traj s), (d_traj t); try (destruct E5 as [X Y]; (discriminate (X eq_refl) || discriminate (Y eq_refl)));
      [eauto|discriminate]. }
  destruct (d_fut s) as [| | |tr|], (d_computing s); destruct (d_traj s) eqn:T1; destruct (d_traj t) eqn:T2;
    try discriminate; try (destruct E5 as [X Y]; (discriminate (X eq_refl) || discriminate (Y eq_refl)));
    (destruct (do_swap tr s) eqn:W; [|discriminate]; destruct (SW _ _ W) as (y & ->); eauto).
Qed.
Ltac samec := match goal with |- exists _, _ /\ clk _ _ => eexists; split; [reflexivity|] end;
  match goal with H : context [set_clock ?l ?g _] |- _ => idtac | _ => idtac end;
  match goal with l : R, g : R |- _ => exists l, g; reflexivity | l : R, g : R |- _ => exists g, l; reflexivity end.
Lemma clk_blind : blind looks_at_clock clk.
Proof.
  split; [exact clk_sym|]. split; [intros s t (l & g & ->); split; reflexivity|].
  intros s t e s1 o (l & g & ->) HL H. destruct e.
  - cbn [step] in *. change (todo_locked (set_clock l g s)) with (todo_locked s). destruct (todo_locked s); [discriminate|]. inversion H; subst. samec.
  - cbn [step] in *. change (todo_locked (set_clock l g s)) with (todo_locked s). destruct (todo_locked s); [discriminate|]. inversion H; subst. samec.
  - cbn [step] in *. change (todo_locked (set_clock l g s)) with (todo_locked s). destruct (todo_locked s); [discriminate|]. inversion H; subst. samec.
  - cbn [step] in *. inversion H; subst. samec.
  - assert (HQ : o = Quiet /\ s1 = s).
    { destruct (poll_out _ _ _ H) as [->|X]; [|exact X]. exfalso. apply HL. right. split; [reflexivity|eauto]. }
    destruct HQ as [-> ->]. exists (set_clock l g s). split; [|exists l, g; reflexivity].
    cbn [step] in *. unfold do_poll in *. change (d_fut_locked (set_clock l g s)) with (d_fut_locked s).
    change (d_traj (set_clock l g s)) with (d_traj s). change (d_fut (set_clock l g s)) with (d_fut s).
    change (d_computing (set_clock l g s)) with (d_computing s).
    destruct (d_fut_locked s); [discriminate|].
    destruct (d_traj s), (d_fut s), (d_computing s); try discriminate; try reflexivity;
      match type of H with context [do_swap ?a ?b] => destruct (do_swap a b); discriminate end.
  - cbn [step] in *. change (d_late (set_clock l g s)) with (d_late s). destruct (d_late s); [discriminate|]. inversion H; subst. samec.
  - cbn [step] in *. change (d_traj (set_clock l g s)) with (d_traj s). destruct (d_traj s); [|discriminate]. inversion H; subst.
    eexists. split; [reflexivity|]. exists (t - p_gtl (d_par s)), t. reflexivity.
  - cbn [step] in *. inversion H; subst. samec.
  - cbn [step] in *. inversion H; subst. samec.
  - cbn [step] in *. inversion H; subst. samec.
  - cbn [step] in *. inversion H; subst. samec.
  - cbn [step] in *. unfold back_step in *. change (d_pc (set_clock l g s)) with (d_pc s).
    destruct (d_pc s) eqn:EP; try discriminate.
    + change (d_stop (set_clock l g s)) with (d_stop s). destruct (d_stop s); inversion H; subst; samec.
    + exfalso. apply HL. left. tauto.
    + inversion H; subst; samec.
    + destruct (d_set s) as [|x xs] eqn:ES; [exfalso; apply HL; left; split; auto|].
      assert (EN : next_waypoints (set_clock l g s) = next_waypoints s).
      { unfold next_waypoints. change (d_set (set_clock l g s)) with (d_set s). rewrite ES. reflexivity. }
      rewrite EN. destruct (next_waypoints s); inversion H; subst; samec.
    + inversion H; subst; samec.
    + exfalso. apply HL. left. tauto.
    + exfalso. apply HL. left. tauto.
    + change (d_traj (set_clock l g s)) with (d_traj s). destruct (d_traj s); inversion H; subst; samec.
    + inversion H; subst; samec.
    + inversion H; subst; samec.
    + change (d_fut_locked (set_clock l g s)) with (d_fut_locked s). destruct (d_fut_locked s); inversion H; subst; samec.
    + inversion H; subst; samec.
    + change (d_mod (set_clock l g s)) with (d_mod s). destruct (d_mod s); inversion H; subst; samec.
    + inversion H; subst; samec.
    + destruct ms; [inversion H; subst; samec|]. exfalso. apply HL. left. split; [reflexivity|]. right; right; right; right. eauto.
  - cbn [step] in *. unfold back_torn in *. change (d_pc (set_clock l g s)) with (d_pc s). change (d_fut (set_clock l g s)) with (d_fut s).
    change (d_computing (set_clock l g s)) with (d_computing s).
    destruct (d_pc s); try discriminate. destruct (d_fut s); try discriminate. destruct (d_computing s); try discriminate. inversion H; subst; samec.
  - cbn [step] in *. unfold comp_speed in *. change (d_fut (set_clock l g s)) with (d_fut s). change (d_next (set_clock l g s)) with (d_next s).
    destruct (d_fut s); try discriminate. destruct (extract_vertices (d_next s)); try discriminate.
    destruct (_ <? _)%nat; inversion H; subst; samec.
  - cbn [step] in *. unfold comp_done in *. change (d_fut (set_clock l g s)) with (d_fut s). change (d_next (set_clock l g s)) with (d_next s).
    change (d_new (set_clock l g s)) with (d_new s). destruct (d_fut s); try discriminate.
    destruct (retime _ _ _ _); inversion H; subst; samec.
  - cbn [step] in *. unfold comp_throw in *. change (d_fut (set_clock l g s)) with (d_fut s). destruct (d_fut s); try discriminate.
    inversion H; subst; samec.
Qed.
Lemma swap_speeds tr v w s : do_swap tr (set_speeds v w s) = option_map (set_speeds w w) (do_swap tr s).
Proof.
  unfold do_swap. change (d_scratch (set_speeds v w s)) with (d_scratch s). change (d_traj (set_speeds v w s)) with (d_traj s).
  destruct (d_scratch s); [reflexivity|]. destruct (d_traj s); reflexivity.
Qed.
Ltac samesp := eexists; split; [reflexivity|];
  match goal with v : R, w : R |- _ => exists v, w; reflexivity | v : R, w : R |- _ => exists v, v; reflexivity end.
Lemma spd_blind : blind looks_at_speed spd.
Proof.
  split; [exact spd_sym|]. split; [intros s t (v & w & ->); split; reflexivity|].
  intros s t e s1 o (v & w & ->) HL H. destruct e.
  - cbn [step] in *. change (todo_locked (set_speeds v w s)) with (todo_locked s). destruct (todo_locked s); [discriminate|]. inversion H; subst. samesp.
  - cbn [step] in *. change (todo_locked (set_speeds v w s)) with (todo_locked s). destruct (todo_locked s); [discriminate|]. inversion H; subst. samesp.
  - cbn [step] in *. change (todo_locked (set_speeds v w s)) with (todo_locked s). destruct (todo_locked s); [discriminate|]. inversion H; subst. samesp.
  - cbn [step] in *. inversion H; subst. samesp.
  - cbn [step] in *. unfold do_poll in *. change (d_fut_locked (set_speeds v w s)) with (d_fut_locked s).
    change (d_traj (set_speeds v w s)) with (d_traj s). change (d_fut (set_speeds v w s)) with (d_fut s).
    change (d_computing (set_speeds v w s)) with (d_computing s).
    destruct (d_fut_locked s); [discriminate|].
    destruct (d_traj s), (d_fut s), (d_computing s); try discriminate; try (inversion H; subst; samesp);
      rewrite swap_speeds; match type of H with context [do_swap ?a ?b] => destruct (do_swap a b); [|discriminate] end;
      inversion H; subst; eexists; (split; [reflexivity|]); exists w, w; reflexivity.
  - cbn [step] in *. change (d_late (set_speeds v w s)) with (d_late s). destruct (d_late s); [discriminate|]. inversion H; subst. samesp.
  - cbn [step] in *. change (d_traj (set_speeds v w s)) with (d_traj s). destruct (d_traj s); [|discriminate]. inversion H; subst. samesp.
  - cbn [step] in *. inversion H; subst. samesp.
  - cbn [step] in *. inversion H; subst. samesp.
  - cbn [step] in *. inversion H; subst. samesp.
  - cbn [step] in *. inversion H; subst. samesp.
  - cbn [step] in *. unfold back_step in *. change (d_pc (set_speeds v w s)) with (d_pc s).
    destruct (d_pc s) eqn:EP; try discriminate; try (inversion H; subst; samesp).
    + change (d_stop (set_speeds v w s)) with (d_stop s). destruct (d_stop s); inversion H; subst; samesp.
    + change (next_waypoints (set_speeds v w s)) with (next_waypoints s). destruct (next_waypoints s); inversion H; subst; samesp.
    + change (d_traj (set_speeds v w s)) with (d_traj s). destruct (d_traj s); inversion H; subst; samesp.
    + change (d_fut_locked (set_speeds v w s)) with (d_fut_locked s). destruct (d_fut_locked s); inversion H; subst; samesp.
    + change (d_mod (set_speeds v w s)) with (d_mod s). destruct (d_mod s); inversion H; subst; samesp.
    + destruct ms; [inversion H; subst; samesp|]. change (d_dyn (set_speeds v w s)) with (d_dyn s).
      destruct (nth_error (d_dyn s) i); inversion H; subst; samesp.
  - cbn [step] in *. unfold back_torn in *. change (d_pc (set_speeds v w s)) with (d_pc s). change (d_fut (set_speeds v w s)) with (d_fut s).
    change (d_computing (set_speeds v w s)) with (d_computing s).
    destruct (d_pc s); try discriminate. destruct (d_fut s); try discriminate. destruct (d_computing s); try discriminate. inversion H; subst; samesp.
  - exfalso. apply HL. reflexivity.
  - cbn [step] in *. unfold comp_done in *. change (d_fut (set_speeds v w s)) with (d_fut s). change (d_next (set_speeds v w s)) with (d_next s).
    change (p_gtl (d_new (set_speeds v w s))) with (p_gtl (d_new s)). destruct (d_fut s); try discriminate.
    destruct (retime _ _ _ _); inversion H; subst; samesp.
  - cbn [step] in *. unfold comp_throw in *. change (d_fut (set_speeds v w s)) with (d_fut s). destruct (d_fut s); try discriminate.
    inversion H; subst; samesp.
Qed.

Lemma veh_looks s t e : veh s t -> looks_at_vehicle s e -> looks_at_vehicle t e.
Proof.
  intros [p ->] [[-> H]|[H K]]; [left; auto|right]. split; [|exact K]. revert H. apply swaps_flags; reflexivity.
Qed.
Lemma clk_looks s t e : clk s t -> looks_at_clock s e -> looks_at_clock t e.
Proof. intros (l & g & ->) [[-> H]|H]; [left; auto|right]. revert H. apply swaps_flags; reflexivity. Qed.
Lemma spd_looks s t e : spd s t -> looks_at_speed s e -> looks_at_speed t e.
Proof. intros _ H. exact H. Qed.

(** ** C102: of several reports only the latest counts *)

(** A position reported by updateVehiclePosition can be left out, if another
    one follows before anything looked: the same executions, ending in the
    same state. *)
Theorem C102_vehicle : forall (post : list vertex -> trajectory -> Prop) s p q h s', unseen looks_at_vehicle post s h ->
  (run post s ((Vehicle p, Quiet) :: h ++ [(Vehicle q, Quiet)]) s' <-> run post s (h ++ [(Vehicle q, Quiet)]) s').
Proof.
  intros post s p q h s' HU. apply (latest looks_at_vehicle veh); [exact veh_blind|exact veh_looks| | |exact HU].
  - eexists. split; [exact Logic.I|]. split; [reflexivity|]. exists p. reflexivity.
  - intros s1 t1 [r ->]. split; [reflexivity|auto].
Qed.
(** The same for the time of an evaluation ... *)
Theorem C102_evaluation : forall (post : list vertex -> trajectory -> Prop) s t u h s', d_traj s <> None -> unseen looks_at_clock post s h ->
  (run post s ((Eval t, Quiet) :: h ++ [(Eval u, Quiet)]) s' <-> run post s (h ++ [(Eval u, Quiet)]) s').
Proof.
  intros post s t u h s' HT HU. apply (latest looks_at_clock clk); [exact clk_blind|exact clk_looks| | |exact HU].
  - eexists. split; [exact HT|]. split; [cbn [step]; destruct (d_traj s); [reflexivity|congruence]|].
    exists (t - p_gtl (d_par s)), t. reflexivity.
  - intros s1 t1 (l & g & ->). split; [reflexivity|auto].
Qed.
(** ... and for the speed. *)
Theorem C102_speed : forall (post : list vertex -> trajectory -> Prop) s v w h s', unseen looks_at_speed post s h ->
  (run post s ((SetSpeed v, Quiet) :: h ++ [(SetSpeed w, Quiet)]) s' <-> run post s (h ++ [(SetSpeed w, Quiet)]) s').
Proof.
  intros post s v w h s' HU. apply (latest looks_at_speed spd); [exact spd_blind|exact spd_looks| | |exact HU].
  - eexists. split; [exact Logic.I|]. split; [reflexivity|]. exists v, v. reflexivity.
  - intros s1 t1 (a & b & ->). split; [reflexivity|auto].
Qed.

(** A report that was looked at does count.  The drone is reported at "a" just
    before the first plan is built, and elsewhere just after. *)
Definition before_plan : list (event * obs) :=
  [(SetSpeed 1, Quiet); (SetWaypoints [wa; wb], Quiet)] ++ backs [Quiet; Quiet; Quiet; Quiet; Quiet].
Definition bp : state := set_pc PCheck (copied (collected (do_set [wa; wb] (do_speed 1 (init v3_zero))))).
Lemma run_bp : run full_post (init v3_zero) before_plan bp.
Proof.
  unfold before_plan. cbn [app]. econstructor; [exact Logic.I|reflexivity|].
  econstructor; [cbn; repeat constructor; apply fresh_ok|reflexivity|].
  change (backs _) with (backs [Quiet; Quiet; Quiet; Quiet] ++ backs [Quiet]). eapply run_app.
  - apply params_solo; try reflexivity. discriminate.
  - eapply back_ok; [reflexivity|]. constructor.
Qed.
Lemma run_nil (post : list vertex -> trajectory -> Prop) s s' : run post s [] s' -> s' = s.
Proof. intros R. inversion R. reflexivity. Qed.
Theorem C102_any_earlier_report_refuted : exists h0 s p q h s', run full_post (init v3_zero) h0 s /\
  run full_post s ((Vehicle p, Quiet) :: h ++ [(Vehicle q, Quiet)]) s' /\ ~ run full_post s (h ++ [(Vehicle q, Quiet)]) s'.
Proof.
  exists before_plan, bp, pa, pb, (backs [Quiet; Quiet]),
    (set_vehicle pb (set_pc PLaunch (set_next [drone_waypoint pa; wa; wb] (set_scratch true (set_vehicle pa bp))))).
  split; [exact run_bp|]. split.
  - econstructor; [exact Logic.I|reflexivity|]. unfold backs. cbn [map app].
    eapply back_ok; [reflexivity|]. eapply back_ok; [reflexivity|].
    econstructor; [exact Logic.I|reflexivity|]. constructor.
  - intros R. unfold backs in R. cbn [map app] in R. inversion R as [|? ? ? s1 ? ? _ H1 R1]; subst. clear R.
    assert (E1 : s1 = set_pc PScratch bp) by (cbn in H1; inversion H1; reflexivity). subst s1. clear H1.
    inversion R1 as [|? ? ? s2 ? ? _ H2 R2]; subst. clear R1.
    assert (E2 : d_next s2 = [drone_waypoint v3_zero; wa; wb]) by (cbn in H2; inversion H2; reflexivity). clear H2.
    inversion R2 as [|? ? ? s3 ? ? _ H3 R3]; subst. clear R2. cbn [step] in H3.
    assert (E3 : s3 = set_vehicle pb s2) by (inversion H3; reflexivity). subst s3. clear H3.
    assert (E : d_next (set_vehicle pb s2) = [drone_waypoint pa; wa; wb]).
    { rewrite <- (run_nil _ _ _ R3). reflexivity. }
    change (d_next (set_vehicle pb s2)) with (d_next s2) in E. rewrite E2 in E.
    apply (f_equal (map (fun w => vx (w_cur w)))) in E. cbn in E. inversion E. lra.
Qed.

(** Not vacuous: the first five steps of the background thread do not look at
    the vehicle, so a position reported before them is forgotten. *)
Example C102_example : forall p q s',
  run full_post bp ((Vehicle p, Quiet) :: backs [Quiet] ++ [(Vehicle q, Quiet)]) s' <->
  run full_post bp (backs [Quiet] ++ [(Vehicle q, Quiet)]) s'.
Proof.
  intros. apply C102_vehicle. intros [|x h1] e o h2 s1 E R; [|destruct h1; discriminate].
  inversion E; subst. inversion R; subst. intros [[_ K]|[[K _] _]]; discriminate.
Qed.
Print Assumptions C102_vehicle.
Print Assumptions C102_evaluation.
Print Assumptions C102_speed.
Print Assumptions C102_any_earlier_report_refuted.
