(** Lemmas about executions: computations in flight, request queues, running the
    background thread alone. *)
From Coq Require Import Reals Lra Lia List Bool ZArith Arith.
From Coquelicot Require Import Coquelicot.
From Verif Require Import Base PolyModel PolySpec VertexModel TrajModel TrajSpec TrajProofs
  WaypointModel WaypointProofs Names DynModel DynSpec DynProofs DynFrame.
Import List ListNotations.
Local Open Scope R_scope.
Set Bullet Behavior "Strict Subproofs".

(* ------------------------------------------------------------------ *)
(** ** Computations in flight *)

Definition in_flight (s : state) : nat := match d_fut s with FNone => 0 | _ => 1 end.
Definition obs_launch (o : obs) : nat := match o with Launched => 1 | _ => 0 end.
Definition obs_swap (o : obs) : nat := match o with Swapped => 1 | _ => 0 end.

Lemma swap_fields tr s s' : do_swap tr s = Some s' ->
  d_fut s' = FNone /\ d_pc s' = d_pc s /\ d_traj s' = Some tr /\ d_dyn s' = map wp_copy (d_next s) /\
  d_next s' = d_next s /\ d_flag s' = d_flag s /\ d_computing s' = false /\ d_regen s' = true /\
  d_add s' = d_add s /\ d_set s' = d_set s /\ d_mod s' = d_mod s /\ d_stop s' = d_stop s /\
  d_tc s' = d_tc s /\ d_vehicle s' = d_vehicle s /\ d_scratch s' = false /\
  d_par s' = d_new s' /\ d_fut_locked s' = d_fut_locked s /\
  exists q, d_new s' = par_off (fit_offset tr q s) (d_new s) /\
    (d_scratch s = true -> q = d_vehicle s) /\
    (d_scratch s = false -> exists old, d_traj s = Some old /\
       q = eval_modified old (d_dyn s) (p_global (d_par s) + p_off (d_par s)) (p_local (d_par s) + p_off (d_par s)) 0).
Proof.
  unfold do_swap. intros H.
  destruct (d_scratch s) eqn:ES.
  - inversion H; subst; cbn. repeat (split; [reflexivity|]). eexists. split; [reflexivity|]. split; auto. discriminate.
  - destruct (d_traj s) eqn:ET; [|discriminate].
    inversion H; subst; cbn. repeat (split; [reflexivity|]). eexists. split; [reflexivity|]. split; [discriminate|eauto].
Qed.

(** What a poll does. *)
Lemma poll_cases s s' o : inv s -> step s Poll = Ok s' o ->
  (s' = s /\ o = Quiet /\ d_traj s <> None /\ (forall tr, d_fut s <> FReady tr)) \/
  (exists tr, d_fut s = FReady tr /\ do_swap tr s = Some s' /\ o = Swapped).
Proof.
  intros I H. cbn [step] in H. unfold do_poll in H. rewrite (i_unlocked s I) in H.
  pose proof (inv_computing s I) as HC. pose proof (i_noexn s I) as HE.
  destruct (d_fut s) eqn:EF; destruct (d_traj s) eqn:ET; try discriminate;
    try (inversion H; subst; left; repeat split; congruence); try congruence;
    rewrite HC in H by congruence; destruct (do_swap tr s) eqn:ES; try discriminate; inversion H; subst; right; eauto.
Qed.

Lemma step_flight post s e o s' : inv s -> event_ok post s e -> step s e = Ok s' o ->
  (in_flight s' + obs_swap o = in_flight s + obs_launch o)%nat.
Proof.
  intros I Hok H. unfold in_flight. destruct e; try (cbn [step] in H; unblock H; inversion H; subst; cbn; lia).
  - destruct (poll_cases _ _ _ I H) as [(-> & -> & _)|(tr & EF & ES & ->)]; [cbn; lia|].
    apply swap_fields in ES. destruct ES as (-> & _). rewrite EF. reflexivity.
  - destruct (end_cases _ _ _ H) as (n & _ & -> & ->). cbn. lia.
  - cbn [step] in H. destruct (d_traj s); inversion H; subst. cbn. lia.
  - cbn [step] in H. unfold back_step in H. pose proof (i_async s I) as HA.
    destruct (d_pc s); try (inversion H; subst; cbn; lia).
    + destruct (d_stop s); inversion H; subst; cbn; lia.
    + destruct (next_waypoints s); inversion H; subst; cbn; lia.
    + destruct (d_traj s); inversion H; subst; cbn; lia.
    + rewrite HA by auto. destruct (d_fut_locked s); inversion H; subst; cbn; lia.
    + destruct (d_mod s); inversion H; subst; cbn; lia.
    + destruct ms; [|destruct (nth_error (d_dyn s) i)]; inversion H; subst; cbn; lia.
  - destruct (torn_cases _ _ _ _ H) as (-> & -> & _). cbn. lia.
  - cbn [step] in H. unfold comp_speed in H. destruct (d_fut s) eqn:EF; try discriminate.
    destruct (extract_vertices (d_next s)); [|discriminate]. destruct (_ <? _)%nat; inversion H; subst; cbn; lia.
  - cbn [step] in H. unfold comp_done in H. destruct (d_fut s) eqn:EF; try discriminate.
    destruct (retime _ _ _ _); inversion H; subst; cbn; lia.
  - destruct Hok.
Qed.

Lemma count_cons x e o tr : count_obs x ((e, o) :: tr) = ((if is_obs x o then 1 else 0) + count_obs x tr)%nat.
Proof. unfold count_obs. cbn [filter snd]. destruct (is_obs x o); reflexivity. Qed.
Lemma count_app x t1 t2 : count_obs x (t1 ++ t2) = (count_obs x t1 + count_obs x t2)%nat.
Proof. unfold count_obs. now rewrite filter_app, app_length. Qed.

Lemma run_flight (post : list vertex -> trajectory -> Prop) s tr s' : (forall vs tr, post vs tr -> basic_post vs tr) ->
  inv s -> run post s tr s' ->
  (in_flight s' + count_obs Swapped tr = in_flight s + count_obs Launched tr)%nat.
Proof.
  intros Hp I R. induction R; [cbn; lia|]. rewrite !count_cons.
  pose proof (step_flight _ _ _ _ _ I H H0) as HF. specialize (IHR (step_inv _ _ _ _ _ Hp I H H0)).
  destruct o; cbn [is_obs obs_swap obs_launch] in *; lia.
Qed.

(** ** Nothing of the plan changes between launch and swap *)

(** [w'] is [w] with another index and time. *)
Definition retimed (w w' : waypoint) : Prop := exists t i, w' = wp_set_time t (wp_set_index i w).
Lemma retimed_or (ws : list waypoint) : Forall2 (fun w w' => w' = w \/ retimed w w') ws ws.
Proof. induction ws; constructor; auto. Qed.

Record flight_same (s s' : state) : Prop := mkFS {
  g_traj : d_traj s' = d_traj s;
  g_dyn : d_dyn s' = d_dyn s;
  g_off : p_off (d_par s') = p_off (d_par s);
  g_gtl : p_gtl (d_par s') = p_gtl (d_par s);
  g_new : eq_params (d_new s') (d_new s);
  g_scratch : d_scratch s' = d_scratch s;
  g_next : Forall2 (fun w w' => w_vertex w' = w_vertex w /\ w_cur w' = w_cur w /\ w_orig w' = w_orig w /\
     w_name w' = w_name w /\ length (w_mods w') = length (w_mods w) /\ w_sigma w' = w_sigma w) (d_next s) (d_next s') }.
Definition flying (s : state) : Prop := d_pc s = PAsync \/ d_fut s <> FNone.

Lemma flight_refl s : flight_same s s.
Proof.
  constructor; auto using eq_params_refl. induction (d_next s); constructor; auto 8.
Qed.
Lemma flight_trans a b c : flight_same a b -> flight_same b c -> flight_same a c.
Proof.
  intros [] []. constructor; try congruence; [eapply eq_params_trans; eauto|].
  revert g_next0 g_next1. generalize (d_next a) (d_next b) (d_next c). clear.
  intros l1 l2 l3 H. revert l3. induction H; intros l3 H3; inversion H3; subst; constructor; auto.
  destruct H as (?&?&?&?&?&?), H4 as (?&?&?&?&?&?). repeat split; congruence.
Qed.
Lemma flying_not_preparing s : inv s -> flying s -> ~ preparing (d_pc s).
Proof.
  intros I HF HP. pose proof (i_prep s I HP) as HC. destruct HF as [HF|HF].
  - unfold preparing in HP. rewrite HF in HP. prep_cases.
  - rewrite (inv_computing s I HF) in HC. discriminate.
Qed.

Lemma retime_same segs g i ws ws' : retime segs g i ws = Some ws' ->
  Forall2 (fun w w' => w_vertex w' = w_vertex w /\ w_cur w' = w_cur w /\ w_orig w' = w_orig w /\
     w_name w' = w_name w /\ length (w_mods w') = length (w_mods w) /\ w_sigma w' = w_sigma w) ws ws'.
Proof.
  revert i ws'; induction ws as [|w ws IH]; intros i ws' H; cbn [retime] in H.
  - inversion H; constructor.
  - destruct (cumulative_time segs i); [|discriminate]. destruct (retime segs g (S i) ws) eqn:E; [|discriminate].
    inversion H; subst. constructor; [|eauto]. cbn. rewrite map_length. auto 8.
Qed.

Lemma flight_step (post : list vertex -> trajectory -> Prop) s e o s' :
  inv s -> flying s -> event_ok post s e -> step s e = Ok s' o -> o <> Swapped -> flight_same s s' /\ flying s'.
Proof.
  intros I HF Hok H HO. pose proof (flying_not_preparing s I HF) as HP.
  destruct e; try (cbn [step] in H; unblock H; inversion H; subst; split; [constructor; cbn; auto using eq_params_refl;
     try apply flight_refl; try (repeat split; fail)|exact HF]).
  - destruct (poll_cases _ _ _ I H) as [(-> & _ & _)|(tr & _ & _ & ->)]; [|congruence]. split; [apply flight_refl|auto].
  - destruct (end_cases _ _ _ H) as (n & _ & -> & ->). split; [constructor; cbn; auto using eq_params_refl; apply flight_refl|exact HF].
  - cbn [step] in H. destruct (d_traj s) eqn:ET; inversion H; subst. split; [constructor; cbn; auto using eq_params_refl; apply flight_refl|exact HF].
  - cbn [step] in H. unfold back_step in H. unfold preparing in HP. unfold flying in *.
    destruct (d_pc s) eqn:EP; try (exfalso; apply HP; auto 10; fail);
      try (inversion H; subst; split; [constructor; cbn; auto using eq_params_refl; apply flight_refl|
        cbn; destruct HF as [HF|HF]; [try discriminate; right; discriminate|right; auto]]).
    + destruct (d_stop s); inversion H; subst; (split; [constructor; cbn; auto using eq_params_refl; apply flight_refl|
        cbn; destruct HF as [HF|HF]; [discriminate|auto]]).
    + rewrite (i_unlocked s I) in H. inversion H; subst.
      split; [constructor; cbn; auto using eq_params_refl; apply flight_refl|cbn; right; discriminate].
    + destruct (d_mod s); inversion H; subst; (split; [constructor; cbn; auto using eq_params_refl; apply flight_refl|
        cbn; destruct HF as [HF|HF]; [discriminate|auto]]).
    + discriminate.
  - destruct (torn_cases _ _ _ _ H) as (-> & -> & _ & _ & tr & EF).
    split; [constructor; cbn; auto using eq_params_refl; apply flight_refl|right; cbn; congruence].
  - cbn [step] in H. unfold comp_speed in H. destruct (d_fut s) eqn:EF; try discriminate.
    destruct (extract_vertices (d_next s)); [|discriminate].
    destruct (_ <? _)%nat; inversion H; subst; (split; [constructor; cbn; auto using eq_params_refl; apply flight_refl|
      right; cbn; discriminate]).
  - cbn [step] in H. unfold comp_done in H. destruct (d_fut s) eqn:EF; try discriminate.
    destruct (retime _ _ _ _) eqn:ER; inversion H; subst; (split; [constructor; cbn; auto using eq_params_refl; try apply flight_refl|
      right; cbn; discriminate]).
    eapply retime_same; eauto.
  - destruct Hok.
Qed.
Lemma flight_run (post : list vertex -> trajectory -> Prop) s tr s' : (forall vs tr, post vs tr -> basic_post vs tr) ->
  inv s -> flying s -> run post s tr s' -> no_obs Swapped tr -> flight_same s s' /\ flying s'.
Proof.
  intros Hp I HF R. induction R; intros HO; [auto using flight_refl|]. inversion HO; subst. cbn [snd] in *.
  destruct (flight_step _ _ _ _ _ I HF H H0 H3) as [A B].
  destruct IHR as [C D]; auto; [eapply step_inv; eauto|]. split; [eapply flight_trans; eauto|auto].
Qed.
