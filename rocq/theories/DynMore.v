(** Further lemmas about executions: the copied parameters, lost requests,
    the state of the clock, and the complete optimiser contract. *)
From Coq Require Import Reals Lra Lia List Bool ZArith Arith.
From Coquelicot Require Import Coquelicot.
From Verif Require Import Base PolyModel PolySpec VertexModel TrajModel TrajSpec TrajProofs RangeProofs
  WaypointModel WaypointProofs Names DynModel DynSpec DynProofs DynFrame DynTrace DynQueue.
Import List ListNotations.
Local Open Scope R_scope.
Set Bullet Behavior "Strict Subproofs".

Lemma reachable_fut s : reachable s -> d_fut s <> FExn.
Proof. intros H. apply (i_noexn s (reachable_inv s H)). Qed.

(** ** No error outcome *)
Lemma step_safe s e : inv s -> event_ok basic_post s e -> step s e <> UB /\ forall s', step s e <> Throws s'.
Proof.
  intros I Hok. destruct e; cbn [step event_ok] in *; try (split; intros; discriminate);
    try (destruct (todo_locked s); split; intros; discriminate).
  - unfold do_poll. rewrite (i_unlocked s I). pose proof (i_noexn s I) as HE.
    destruct (d_fut s) eqn:EF; destruct (d_traj s) eqn:ET; try (split; intros; discriminate); try congruence;
      destruct (d_computing s); try (split; intros; discriminate);
      destruct (swap_inv s tr I EF) as (s' & -> & _); split; intros; discriminate.
  - destruct (d_late s); split; intros; discriminate.
  - destruct (d_traj s); [split; intros; discriminate|congruence].
  - unfold back_step. pose proof (i_stitch s I) as HS. rewrite (i_unlocked s I).
    destruct (d_pc s); try (split; intros; discriminate).
    + destruct (d_stop s); split; intros; discriminate.
    + destruct (next_waypoints s); split; intros; discriminate.
    + destruct (d_traj s); [split; intros; discriminate|]. elim HS; auto.
    + destruct (d_mod s); split; intros; discriminate.
    + destruct ms as [|m ms]; [|destruct (nth_error (d_dyn s) i)]; split; intros; discriminate.
  - unfold back_torn. destruct (d_pc s), (d_fut s); try (split; intros; discriminate).
    destruct (d_computing s); split; intros; discriminate.
  - unfold comp_speed. pose proof (i_two s I) as H2. destruct (d_fut s) eqn:EF; try (split; intros; discriminate).
    unfold extract_vertices. destruct (d_next s) eqn:EN.
    + exfalso. cbn in H2. assert (2 <= 0)%nat; [|lia]. apply H2. right; right; discriminate.
    + destruct (_ <? _)%nat; split; intros; discriminate.
  - unfold comp_done. destruct (d_fut s); try (split; intros; discriminate).
    destruct (retime _ _ _ _); split; intros; discriminate.
  - destruct Hok.
Qed.

(** A trajectory, once there, stays. *)
Lemma traj_stays (post : list vertex -> trajectory -> Prop) s tr s' : run post s tr s' -> d_traj s <> None -> d_traj s' <> None.
Proof.
  induction 1; auto. intros HT. apply IHrun. clear IHrun H1.
  destruct e; cbn [step] in H0; unblock H0; try (inversion H0; subst; auto; fail).
  - unfold do_poll in H0. destruct (d_fut_locked s); [discriminate|].
    assert (G : forall t, match do_swap t s with Some s' => Ok s' Swapped | None => UB end = Ok s1 o -> d_traj s1 <> None).
    { intros t E. destruct (do_swap t s) eqn:ES; [|discriminate]. inversion E; subst. apply swap_fields in ES.
      destruct ES as (_ & _ & -> & _). discriminate. }
    destruct (d_traj s) eqn:ET, (d_fut s), (d_computing s); try discriminate; try congruence; eauto;
      inversion H0; subst; congruence.
  - destruct (d_late s); inversion H0; subst; auto.
  - destruct (d_traj s) eqn:ET; inversion H0; subst; cbn; congruence.
  - unfold back_step in H0. destruct (d_pc s); try (inversion H0; subst; auto; fail).
    + destruct (d_stop s); inversion H0; subst; auto.
    + destruct (next_waypoints s); inversion H0; subst; auto.
    + destruct (d_traj s) eqn:ET; inversion H0; subst; cbn; congruence.
    + destruct (d_fut_locked s); inversion H0; subst; auto.
    + destruct (d_mod s); inversion H0; subst; auto.
    + destruct ms as [|m ms]; [|destruct (nth_error (d_dyn s) i)]; inversion H0; subst; auto.
  - destruct (torn_cases s zone s1 o H0) as (-> & _). auto.
  - unfold comp_speed in H0. destruct (d_fut s); try discriminate. destruct (extract_vertices _); [|discriminate].
    destruct (_ <? _)%nat; inversion H0; subst; auto.
  - unfold comp_done in H0. destruct (d_fut s); try discriminate. destruct (retime _ _ _ _); inversion H0; subst; auto.
Qed.

(** ** From copying the parameters to the swap *)
Definition committed (s : state) : Prop :=
  d_pc s = PCheck \/ d_pc s = PStitch \/ d_pc s = PScratch \/ d_pc s = PLaunch \/ flying s.
Lemma committed_step (post : list vertex -> trajectory -> Prop) s e o s' :
  inv s -> committed s -> event_ok post s e -> step s e = Ok s' o -> o <> Swapped ->
  committed s' /\ eq_params (d_new s') (d_new s) /\ p_off (d_par s') = p_off (d_par s) /\ p_gtl (d_par s') = p_gtl (d_par s).
Proof.
  intros I HC Hok H HO.
  assert (HD : flying s \/ (preparing (d_pc s) /\ (d_pc s = PCheck \/ d_pc s = PStitch \/ d_pc s = PScratch \/ d_pc s = PLaunch))).
  { unfold committed, preparing in *. intuition. }
  clear HC. destruct HD as [HF|[HP HC]].
  - destruct (flight_step _ _ _ _ _ I HF Hok H HO) as [[] HF']. split; [unfold committed; auto|]. auto.
  - assert (HE : e = Back \/ e <> Back) by (destruct e; auto; right; discriminate).
    destruct HE as [->|HE].
    + cbn [step] in H. unfold back_step in H. unfold committed.
      destruct HC as [HC|[HC|[HC|HC]]]; rewrite HC in H.
      * inversion H; subst; cbn. destruct (can_stitch s); auto 8 using eq_params_refl.
      * destruct (d_traj s); inversion H; subst; cbn; auto 8 using eq_params_refl.
      * inversion H; subst; cbn; auto 8 using eq_params_refl.
      * inversion H; subst; cbn; unfold flying; cbn; auto 10 using eq_params_refl.
    + pose proof (inv_next_preparing s I HP) as HF.
      destruct (env_step _ _ _ _ _ I HF Hok H HE) as [[] _]. split; [|auto].
      unfold committed. rewrite f_pc. intuition.
Qed.
Lemma committed_run (post : list vertex -> trajectory -> Prop) s tr s' : (forall vs tr, post vs tr -> basic_post vs tr) ->
  inv s -> committed s -> run post s tr s' -> no_obs Swapped tr ->
  committed s' /\ eq_params (d_new s') (d_new s) /\ p_off (d_par s') = p_off (d_par s) /\ p_gtl (d_par s') = p_gtl (d_par s).
Proof.
  intros Hp I HC R. induction R; intros HO; [auto using eq_params_refl|]. inversion HO; subst. cbn [snd] in *.
  destruct (committed_step _ _ _ _ _ I HC H H0 H3) as (A & B & C & D).
  destruct IHR as (E & F & G & K); auto; [eapply step_inv; eauto|].
  split; [auto|]. split; [eapply eq_params_trans; eauto|]. split; congruence.
Qed.

(** ** Without a request nothing is generated *)
Definition parked (s : state) : Prop :=
  d_flag s = false /\ (d_pc s = PTop \/ d_pc s = PElse \/ d_pc s = PApply \/ d_pc s = PClear \/ d_pc s = PEmpty \/ d_pc s = PExit \/
    moving (d_pc s) = true).
Lemma parked_step (post : list vertex -> trajectory -> Prop) s e o s' :
  inv s -> parked s -> event_ok post s e -> step s e = Ok s' o -> is_request e = false ->
  parked s' /\ o <> Launched /\
  d_add s' = d_add s /\ d_set s' = d_set s.
Proof.
  intros I [HF HP] Hok H HR.
  pose proof (step_queues _ _ _ _ H) as Q.
  assert (G : d_add s' = d_add s /\ d_set s' = d_set s).
  { destruct e; cbn [queues_after is_request] in *; try discriminate; try (inversion Q; auto; fail).
    destruct (d_pc s) as [| | | | | | | | | | | | | |[|? ?] i|]; inversion Q; auto; prep_cases. }
  assert (K : parked s' /\ o <> Launched); [|destruct G, K; destruct e; auto 8].
  unfold parked. destruct e; cbn [is_request] in HR; try discriminate;
    try (cbn [step] in H; unblock H; inversion H; subst; cbn; split; [auto|discriminate]).
  - destruct (poll_cases _ _ _ I H) as [(-> & -> & _)|(tr & _ & ES & ->)]; [split; [auto|discriminate]|].
    apply swap_fields in ES. destruct ES as (_ & -> & _ & _ & _ & -> & _). split; [auto|discriminate].
  - destruct (end_cases _ _ _ H) as (n & _ & -> & ->). cbn. split; [auto|discriminate].
  - cbn [step] in H. destruct (d_traj s); inversion H; subst; cbn. split; [auto|discriminate].
  - cbn [step] in H. unfold back_step in H. destruct HP as [HP|[HP|[HP|[HP|[HP|[HP|HP]]]]]]; try rewrite HP in H.
    + rewrite HF in H. destruct (d_stop s); inversion H; subst; cbn; split; try discriminate; auto 9.
    + destruct (d_mod s); inversion H; subst; cbn; split; try discriminate; auto.
      destruct (d_computing s); auto.
    + inversion H; subst; cbn; split; try discriminate; auto 9.
    + inversion H; subst; cbn; split; try discriminate; auto.
    + inversion H; subst; cbn; split; try discriminate; auto.
    + discriminate.
    + destruct (d_pc s) eqn:EP; try discriminate HP.
      destruct ms; [|destruct (nth_error (d_dyn s) i)]; inversion H; subst; cbn; split; try discriminate; auto 9.
  - destruct (torn_cases s zone s' o H) as (_ & _ & EP & _). rewrite EP in HP. prep_cases.
  - cbn [step] in H. unfold comp_speed in H. destruct (d_fut s); try discriminate. destruct (extract_vertices _); [|discriminate].
    destruct (_ <? _)%nat; inversion H; subst; cbn; split; try discriminate; auto.
  - cbn [step] in H. unfold comp_done in H. destruct (d_fut s); try discriminate.
    destruct (retime _ _ _ _); inversion H; subst; cbn; split; try discriminate; auto.
  - destruct Hok.
Qed.
Lemma parked_run (post : list vertex -> trajectory -> Prop) s tr s' : (forall vs tr, post vs tr -> basic_post vs tr) ->
  inv s -> parked s -> run post s tr s' -> no_request tr ->
  parked s' /\ count_obs Launched tr = O /\ d_add s' = d_add s /\ d_set s' = d_set s.
Proof.
  intros Hp I HK R. induction R; intros HN; [auto|]. inversion HN; subst. cbn [fst] in *.
  destruct (parked_step _ _ _ _ _ I HK H H0 H3) as (A & B & C & D).
  destruct IHR as (E & F & G & K); auto; [eapply step_inv; eauto|].
  rewrite count_cons, F. split; [auto|]. split; [|split; congruence]. destruct o; try reflexivity. congruence.
Qed.

(** ** The clock between an evaluation and the next swap *)
Lemma clock_step s e o s' : inv s -> step s e = Ok s' o -> o <> Swapped -> (forall t, e <> Eval t) ->
  eq_params (d_par s') (d_par s).
Proof.
  intros I H HO HE. destruct e; cbn [step] in H; unblock H; try (inversion H; subst; apply eq_params_refl);
    try (inversion H; subst; repeat split; fail).
  - destruct (poll_cases _ _ _ I H) as [(-> & -> & _)|(tr & _ & ES & ->)]; [apply eq_params_refl|congruence].
  - destruct (d_late s); inversion H; subst; apply eq_params_refl.
  - elim (HE t); auto.
  - unfold back_step in H. destruct (d_pc s); try (inversion H; subst; apply eq_params_refl).
    + destruct (d_stop s); inversion H; subst; apply eq_params_refl.
    + destruct (next_waypoints s); inversion H; subst; apply eq_params_refl.
    + destruct (d_traj s) eqn:ET; inversion H; subst; apply eq_params_refl.
    + destruct (d_fut_locked s); inversion H; subst; apply eq_params_refl.
    + destruct (d_mod s); inversion H; subst; apply eq_params_refl.
    + destruct ms as [|m ms]; [|destruct (nth_error (d_dyn s) i)]; inversion H; subst; apply eq_params_refl.
  - destruct (torn_cases s zone s' o H) as (-> & _). apply eq_params_refl.
  - unfold comp_speed in H. destruct (d_fut s); try discriminate. destruct (extract_vertices _); [|discriminate].
    destruct (_ <? _)%nat; inversion H; subst; apply eq_params_refl.
  - unfold comp_done in H. destruct (d_fut s); try discriminate. destruct (retime _ _ _ _); inversion H; subst; apply eq_params_refl.
  - unfold comp_throw in H. destruct (d_fut s); try discriminate. inversion H; subst; apply eq_params_refl.
Qed.
Lemma clock_run (post : list vertex -> trajectory -> Prop) s tr s' : (forall vs tr, post vs tr -> basic_post vs tr) ->
  inv s -> run post s tr s' -> no_obs Swapped tr -> not_eval tr -> eq_params (d_par s') (d_par s).
Proof.
  intros Hp I R. induction R; intros HO HE; [apply eq_params_refl|]. inversion HO; inversion HE; subst. cbn [fst snd] in *.
  eapply eq_params_trans; [apply IHR|eapply clock_step]; eauto. eapply step_inv; eauto.
Qed.

(** ** The list handed to the optimiser *)
Lemma fixed_run (post : list vertex -> trajectory -> Prop) s tr s' : (forall vs tr, post vs tr -> basic_post vs tr) ->
  inv s -> d_pc s = PLaunch \/ flying s -> run post s tr s' -> no_obs Swapped tr ->
  flight_same s s' /\ (d_pc s' = PLaunch \/ flying s').
Proof.
  intros Hp I HF R. induction R; intros HO; [auto using flight_refl|]. inversion HO; subst. cbn [snd] in *.
  assert (HS : flight_same s s1 /\ (d_pc s1 = PLaunch \/ flying s1)).
  { destruct HF as [HF|HF].
    - assert (HE : e = Back \/ e <> Back) by (destruct e; auto; right; discriminate).
      destruct HE as [->|HE].
      + cbn [step] in H0. unfold back_step in H0. rewrite HF in H0. inversion H0; subst.
        split; [constructor; cbn; auto using eq_params_refl; apply flight_refl|right; left; reflexivity].
      + assert (HN : d_fut s = FNone) by (apply inv_next_preparing; auto; rewrite HF; unfold preparing; auto 8).
        destruct (env_step _ _ _ _ _ I HN H H0 HE) as [[] _]. split; [|left; congruence].
        constructor; auto. rewrite f_next. apply flight_refl.
    - destruct (flight_step _ _ _ _ _ I HF H H0 H3). auto. }
  destruct HS as [A B]. destruct IHR as [C D]; auto; [eapply step_inv; eauto|].
  split; [eapply flight_trans; eauto|auto].
Qed.
Lemma flight_next s s' : flight_same s s' -> Forall2 same_waypoint (d_next s) (d_next s').
Proof.
  intros []. induction g_next; constructor; auto. destruct H as (?&?&?&?&_). repeat split; auto.
Qed.
Lemma extract_head w w' ws vs : extract_vertices (w :: w' :: ws) = Some vs -> exists rest, vs = w_vertex w :: rest.
Proof.
  unfold extract_vertices. intros E.
  assert (vs = removelast (map w_vertex (w :: w' :: ws)) ++ [at_rest_end (last (map w_vertex (w :: w' :: ws)) (vertex_new 3))]) by congruence.
  subst. cbn [map removelast app]. eauto.
Qed.
Lemma extract_last ws vs : extract_vertices ws = Some vs -> exists ws' w, ws = ws' ++ [w] /\
  vs = map w_vertex ws' ++ [at_rest_end (w_vertex w)].
Proof.
  unfold extract_vertices. destruct ws as [|w0 ws0]; [discriminate|]. intros E.
  destruct (exists_last (l := w0 :: ws0)) as (ws' & w & EW); [discriminate|]. rewrite EW in E.
  exists ws', w. split; [auto|].
  assert (vs = removelast (map w_vertex (ws' ++ [w])) ++ [at_rest_end (last (map w_vertex (ws' ++ [w])) (vertex_new 3))]) by congruence.
  rewrite H, map_app. cbn [map]. now rewrite removelast_last, last_last.
Qed.

(** What the whole way from collecting to the optimiser does to the list:
    [sp] is the state in which the parameters are copied, [sc] the one in which
    stitching is decided, [sx] the one in which the start points are inserted. *)
Definition stitch_bound (s : state) : R :=
  p_local (d_par s) + p_off (d_par s) + 20 * d_tc s + p_gtl (d_par s).
Lemma launch_list (post : list vertex -> trajectory -> Prop) s tr s' :
  (forall vs tr, post vs tr -> basic_post vs tr) -> inv s -> d_pc s = PParams ->
  run post s tr s' -> d_pc s' = PAsync -> no_obs Launched tr ->
  exists t1 sp t2 sx t3, tr = t1 ++ t2 ++ t3 /\ run post s t1 sp /\ d_pc sp = PParams /\ run post sp t2 sx /\ run post sx t3 s' /\
    d_traj sp = d_traj s /\ d_dyn sp = d_dyn s /\ d_traj sx = d_traj s /\ d_dyn sx = d_dyn s /\
    p_off (d_par sp) = p_off (d_par s) /\ p_gtl (d_par sp) = p_gtl (d_par s) /\ d_tc sp = d_tc s /\
    no_obs Swapped t1 /\ inv sp /\
    ((d_scratch s' = true /\ d_next s' = drone_waypoint (d_vehicle sx) :: d_next s) \/
     (d_scratch s' = false /\ exists old, d_traj s = Some old /\
        let e := fun l d => eval_modified old (d_dyn s) (l + p_gtl (d_par s)) l d in
        let l0 := p_local (d_par sp) + p_off (d_par sp) in
        d_next s' = stitch_waypoint [e l0 0%nat; e l0 1%nat; e l0 2%nat] :: stitch_waypoint [e (l0 + 10 * d_tc sp) 0%nat] ::
          map wp_copy (filter (fun w => negb (stitch_drop (stitch_bound sp) w)) (d_next s)))).
Proof.
  intros Hp I HP R HA HL.
  destruct (launch_path post s tr s' Hp I HP R HA HL)
    as (t1 & sp & t2 & sc & t3 & sx & t4 & E & R1 & R2 & R3 & R4 & F1 & P1 & P2 & N2 & T2 & D2 & O2 & G2 & C2 & Q2 & P3 & N3 & T3 & D3 & O3 & G3 & C3 & Q3 & B & T4 & D4 & Q4).
  exists t1, sp, (t2 ++ t3), sx, t4. split; [subst tr; rewrite !app_assoc; reflexivity|].
  split; [auto|]. split; [auto|]. split; [eapply run_app; eauto|]. split; [auto|].
  pose proof F1 as F1'. destruct F1. do 7 (split; [congruence|]).
  assert (Isp : inv sp) by (eapply run_inv; eauto).
  split.
  { assert (HF : d_fut s = FNone) by (apply inv_next_preparing; auto; rewrite HP; unfold preparing; auto).
    assert (HF' : d_fut sp = FNone) by congruence.
    pose proof (run_flight _ _ _ _ Hp I R1) as C. unfold in_flight in C. rewrite HF, HF' in C.
    assert (HL1 : count_obs Launched t1 = O).
    { subst tr. apply Forall_app in HL. destruct HL as [HL _]. clear - HL. unfold count_obs.
      induction HL as [|[e o] l H _ IH]; [auto|]. cbn [filter snd] in *. destruct o; cbn [is_obs]; auto. congruence. }
    assert (HS1 : count_obs Swapped t1 = O) by lia. clear - HS1.
    induction t1 as [|[e o] t IH]; constructor.
    - cbn [snd]. intros ->. rewrite count_cons in HS1. cbn in HS1. lia.
    - apply IH. rewrite count_cons in HS1. destruct (is_obs Swapped o); lia. }
  split; [auto|].
  destruct B as (sb & o & HB & HN & HS). unfold back_step in HB. rewrite P3 in HB.
  destruct (can_stitch sc).
  - right. destruct (d_traj sx) as [old|] eqn:EO; [|discriminate]. inversion HB; subst sb o. clear HB.
    cbn [d_scratch set_pc set_next set_scratch] in HS. split; [auto|]. exists old. split; [congruence|].
    cbn zeta. cbn [d_next set_pc set_next] in HN. rewrite HN. unfold stitch_waypoints.
    destruct Q3 as (q1 & _). destruct Q2 as (q2 & _). cbn [p_local] in q2.
    rewrite q1, q2, O3, G3, C3, D3, N3. unfold computation_time, stitch_bound.
    rewrite f_off, f_gtl, f_tc.
    replace (p_local (d_par sp) + p_off (d_par s) + 5 * (2 * d_tc s)) with (p_local (d_par sp) + p_off (d_par s) + 10 * d_tc s) by ring.
    do 3 f_equal. apply filter_ext. intros w. f_equal. f_equal. ring.
  - left. inversion HB; subst sb o. cbn in HN, HS. split; [auto|]. rewrite HN, N3. reflexivity.
Qed.

(** ** The queued modifications *)
Lemma mod_nodup_step s e o s' : step s e = Ok s' o -> NoDup (map fst (d_mod s)) -> NoDup (map fst (d_mod s')).
Proof.
  intros H ND. pose proof (step_queues _ _ _ _ H) as Q.
  destruct e; cbn [queues_after] in Q;
    repeat match type of Q with context [match ?x with _ => _ end] => destruct x end;
    injection Q as Q1 Q2 Q3; rewrite Q3; auto; try (now apply mod_put_nodup); constructor.
Qed.
Lemma reachable_nodup s : reachable s -> NoDup (map fst (d_mod s)).
Proof.
  intros (junk & tr & R). assert (H0 : NoDup (map fst (d_mod (init junk)))) by constructor.
  revert H0. induction R; auto. intros ND. apply IHR. eapply mod_nodup_step; eauto.
Qed.
Lemma placed_copy p w w' : placed p (wp_copy w) w' <-> placed p w w'.
Proof. unfold placed. destruct p; reflexivity. Qed.
Lemma Forall2_placed_copy f ws ws' :
  Forall2 (fun w w' => placed (f w) w w') (map wp_copy ws) ws' -> (forall w, f (wp_copy w) = f w) ->
  Forall2 (fun w w' => placed (f w) w w') ws ws'.
Proof.
  intros H Hf. revert ws' H. induction ws as [|w ws IH]; intros ws' H; inversion H; subst; constructor; auto.
  rewrite Hf in H2. now apply placed_copy in H2.
Qed.
Lemma Forall2_placed_ext f g ws ws' : (forall w, f w = g w) ->
  Forall2 (fun w w' => placed (f w) w w') ws ws' -> Forall2 (fun w w' => placed (g w) w w') ws ws'.
Proof. intros E H. induction H; constructor; auto. now rewrite <- E. Qed.

Lemma gen_set s s' o : d_pc s = PGen -> NoDup (map fst (d_mod s)) -> d_set s <> [] -> step s Back = Ok s' o ->
  Forall2 (fun w w' => placed (pending (d_mod s) w) w w') (d_set s ++ d_add s) (d_next s') /\
  d_pc s' = PParams /\ d_add s' = [] /\ d_set s' = [] /\ d_mod s' = [].
Proof.
  intros HP ND HS H. pose proof (next_waypoints_set s ND HS) as HF.
  cbn [step] in H. unfold back_step in H. rewrite HP in H.
  destruct (next_waypoints s) eqn:E.
  - inversion HF as [HX|]. symmetry in HX. apply app_eq_nil in HX. tauto.
  - inversion H; subst. cbn. auto.
Qed.

(** ** A whole launch cannot be interrupted *)
Definition stage (p : pc) : Prop :=
  p = PParams \/ p = PCheck \/ p = PStitch \/ p = PScratch \/ p = PLaunch \/ p = PAsync.
Lemma step_pc' s e o s' : step s e = Ok s' o -> e <> Back -> (forall z, e <> BackTorn z) -> d_pc s' = d_pc s.
Proof.
  intros H HE HZ. destruct e; cbn [step] in H; unblock H; try congruence; try (inversion H; subst; reflexivity).
  - unfold do_poll in H. destruct (d_fut_locked s); [discriminate|].
    assert (G : forall t, match do_swap t s with Some s' => Ok s' Swapped | None => UB end = Ok s' o -> d_pc s' = d_pc s).
    { intros t E. destruct (do_swap t s) eqn:ES; [|discriminate]. inversion E; subst. apply swap_fields in ES. tauto. }
    destruct (d_traj s), (d_fut s), (d_computing s); try discriminate; eauto; inversion H; subst; reflexivity.
  - destruct (d_late s); inversion H; subst; reflexivity.
  - destruct (d_traj s); inversion H; subst; reflexivity.
  - unfold comp_speed in H. destruct (d_fut s); try discriminate. destruct (extract_vertices _); [|discriminate].
    destruct (_ <? _)%nat; inversion H; subst; reflexivity.
  - unfold comp_done in H. destruct (d_fut s); try discriminate. destruct (retime _ _ _ _); inversion H; subst; reflexivity.
  - unfold comp_throw in H. destruct (d_fut s); try discriminate. inversion H; subst; reflexivity.
Qed.
Lemma step_pc s e o s' : step s e = Ok s' o -> e <> Back -> d_pc s <> PZone -> d_pc s' = d_pc s.
Proof.
  intros H HE HZ. eapply step_pc'; eauto. intros z ->. destruct (torn_cases s z s' o H) as (_ & _ & EP & _). congruence.
Qed.
Lemma stage_run post s tr s' : run post s tr s' -> stage (d_pc s) -> no_obs Launched tr -> stage (d_pc s').
Proof.
  induction 1; auto. intros HS HO. inversion HO; subst. cbn [snd] in *. apply IHrun; auto. clear IHrun H1 HO H5.
  assert (HE : e = Back \/ e <> Back) by (destruct e; auto; right; discriminate).
  destruct HE as [->|HE]; [|rewrite (step_pc _ _ _ _ H0 HE); [auto|intros EZ; rewrite EZ in HS; unfold stage in HS; prep_cases]].
  cbn [step] in H0. unfold back_step in H0. unfold stage in *.
  destruct HS as [HS|[HS|[HS|[HS|[HS|HS]]]]]; rewrite HS in H0.
  - inversion H0; subst; cbn; auto.
  - inversion H0; subst; cbn. destruct (can_stitch s); auto.
  - destruct (d_traj s); inversion H0; subst; cbn; auto 8.
  - inversion H0; subst; cbn; auto 8.
  - inversion H0; subst; cbn; auto 8.
  - destruct (d_fut_locked s); inversion H0; subst. congruence.
Qed.

(** ** Applying modifications to the published waypoints *)
Lemma apply_all_pending t ms ws : NoDup (map fst ms) ->
  apply_all t ms ws = map (fun w => match pending ms w with Some p => wp_move p t w | None => w end) ws.
Proof.
  unfold apply_all. revert ws. induction ms as [|[n p] ms IH]; intros ws ND; cbn [fold_left].
  - symmetry. rewrite <- (map_id ws) at 2. apply map_ext. intros w. unfold pending. destruct (name_eqb _ _); reflexivity.
  - inversion ND; subst. rewrite IH by auto. unfold apply_modification. rewrite map_map. apply map_ext. intros w.
    cbn [fst snd]. unfold applies, pending, named. cbn [assoc].
    destruct (name_eqb (w_name w) no_name) eqn:E0; cbn [negb].
    + rewrite andb_false_r. rewrite E0. reflexivity.
    + rewrite andb_true_r. rewrite (name_eqb_sym n). destruct (name_eqb (w_name w) n) eqn:E1.
      * rewrite move_name, E0. apply name_eqb_eq in E1.
        assert (HN : assoc (w_name w) ms = None); [|now rewrite HN].
        destruct (assoc (w_name w) ms) eqn:EA; [|auto]. apply assoc_in in EA; auto. exfalso. apply H1.
        apply in_map_iff. exists (w_name w, v). split; auto.
      * rewrite E0. reflexivity.
Qed.

Lemma reset_named_length n p ws : length (reset_named n p ws) = length ws.
Proof. unfold reset_named. destruct (name_eqb n no_name); [auto|apply map_length]. Qed.
Lemma next_waypoints_nil s : next_waypoints s = [] <->
  d_set s = [] /\ d_add s = [] /\ forall w, In w (d_dyn s) -> w_time w < p_global (d_par s).
Proof.
  unfold next_waypoints.
  assert (HL : forall ms ws, length (fold_left (fun ws (m : name * V3) => reset_named (fst m) (snd m) ws) ms ws) = length ws).
  { induction ms as [|m ms IH]; intros ws; [auto|]. cbn [fold_left]. now rewrite IH, reset_named_length. }
  rewrite <- length_zero_iff_nil, HL, app_length, map_length.
  destruct (d_set s) as [|w0 ws].
  - rewrite map_length. unfold filter_passed. rewrite filter_map_copy by reflexivity. rewrite map_length. split.
    + intros H. split; [auto|]. assert (H1 : length (d_add s) = O) by lia. apply length_zero_iff_nil in H1. split; [auto|].
      intros w Hw. destruct (Rlt_dec (w_time w) (p_global (d_par s))) as [Hl|Hl]; [auto|]. exfalso.
      assert (HI : In w (filter (fun w => negb (Rltb (w_time w) (p_global (d_par s)))) (d_dyn s))).
      { apply filter_In. split; [auto|]. rcase; [lra|reflexivity]. }
      destruct (filter _ _); [destruct HI|cbn in H; lia].
    + intros (_ & -> & H). cbn [length]. rewrite Nat.add_0_r. induction (d_dyn s) as [|w ws IH]; [auto|]. cbn [filter].
      assert (Hw := H w (or_introl eq_refl)). rcase; [|lra]. cbn [negb]. apply IH. intros w' Hw'. apply H. right. auto.
  - cbn [map length]. split; [lia|intros (? & _); discriminate].
Qed.

Lemma no_swap_no_traj (post : list vertex -> trajectory -> Prop) s tr s' : (forall vs tr, post vs tr -> basic_post vs tr) ->
  inv s -> run post s tr s' -> count_obs Swapped tr = O -> d_traj s' = d_traj s.
Proof.
  intros Hp I R. induction R; intros HO; [auto|]. rewrite count_cons in HO.
  transitivity (d_traj s1); [apply IHR; [eapply step_inv; eauto|lia]|].
  assert (HS : o <> Swapped) by (intros ->; cbn in HO; lia). clear IHR HO.
  destruct e; cbn [step] in H0; unblock H0; try (inversion H0; subst; reflexivity).
  - destruct (poll_cases _ _ _ I H0) as [(-> & _)|(t & _ & _ & ->)]; congruence.
  - destruct (d_late s); inversion H0; subst; auto.
  - destruct (d_traj s) eqn:E; inversion H0; subst; auto.
  - unfold back_step in H0. destruct (d_pc s); try (inversion H0; subst; reflexivity).
    + destruct (d_stop s); inversion H0; subst; reflexivity.
    + destruct (next_waypoints s); inversion H0; subst; reflexivity.
    + destruct (d_traj s) eqn:E; inversion H0; subst; auto.
    + destruct (d_fut_locked s); inversion H0; subst; reflexivity.
    + destruct (d_mod s); inversion H0; subst; reflexivity.
    + destruct ms as [|m ms]; [|destruct (nth_error (d_dyn s) i)]; inversion H0; subst; reflexivity.
  - destruct (torn_cases s zone s1 o H0) as (-> & _). reflexivity.
  - unfold comp_speed in H0. destruct (d_fut s); try discriminate. destruct (extract_vertices _); [|discriminate].
    destruct (_ <? _)%nat; inversion H0; subst; reflexivity.
  - unfold comp_done in H0. destruct (d_fut s); try discriminate. destruct (retime _ _ _ _); inversion H0; subst; reflexivity.
  - destruct H.
Qed.
