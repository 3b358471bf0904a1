(** Property theorems: what the client has to do for a request to be served (C98). *)
From Coq Require Import Reals Lra Lia List Bool ZArith Arith Classical_Prop.
From Coquelicot Require Import Coquelicot.
From Verif Require Import Base PolyModel PolySpec VertexModel TrajModel TrajSpec TrajProofs RangeProofs
  WaypointModel WaypointProofs Names DynModel DynSpec DynProofs DynFrame DynTrace DynQueue DynMore StopAndGo DynScenario
  PropertiesDyn PropertiesReq PropertiesLife PropertiesLife2 PropertiesLife3 PropertiesLive.
Import List ListNotations.
Local Open Scope R_scope.
Set Bullet Behavior "Strict Subproofs".

(** While no computation is in flight, a client that does not change the plan
    changes nothing but the evaluated time. *)
Lemma client_step s e s' o : d_fut s = FNone -> ~ changes_plan e -> ~ of_background e -> step s e = Ok s' o ->
  d_fut s' = FNone /\ (d_flag s = false -> d_flag s' = false) /\ d_stop s' = d_stop s /\ d_computing s' = d_computing s /\
  d_mod s' = d_mod s /\ d_dyn s' = d_dyn s /\ d_pc s' = d_pc s /\ d_traj s' = d_traj s /\
  (p_global (d_par s') = p_global (d_par s) \/ e = Eval (p_global (d_par s'))).
Proof.
  intros F NC NB H. destruct e; cbn in NC, NB; try tauto; cbn [step] in H;
    unfold do_poll, comp_speed, comp_done, comp_throw in H; try rewrite F in H;
    try (destruct (d_fut_locked s)); try (destruct (d_late s)); try (destruct (d_traj s) eqn:ET); try discriminate;
    inversion H; subst; cbn; rewrite ?ET; repeat split; auto.
Qed.

(** ** C98: flying on is enough *)

Definition not_moving (p : pc) : Prop := p <> PApply /\ forall ms i, p <> PMove ms i.
(** No launch so far: the old plan is still there. *)
Definition old_plan (s0 s : state) : Prop :=
  d_fut s = FNone /\ d_mod s = [] /\ d_dyn s = d_dyn s0 /\ not_moving (d_pc s).
Lemma old_plan_step s0 s e s' o : old_plan s0 s -> ~ changes_plan e -> step s e = Ok s' o ->
  o = Launched \/ old_plan s0 s' /\ (p_global (d_par s') = p_global (d_par s) \/ e = Eval (p_global (d_par s'))).
Proof.
  intros (F & M & D & N1 & N2) NC H.
  destruct (classic (of_background e)) as [B|B].
  - destruct e; cbn in B; try tauto; cbn [step] in H.
    + unfold back_step in H. destruct (d_pc s) as [ | | | | | | | | | | | | | |ms i| ] eqn:EP; try (exfalso; congruence); try (exfalso; now apply (N2 ms i)).
      all: try rewrite M in H; try (destruct (d_stop s)); try (destruct (next_waypoints s)); try (destruct (d_fut_locked s)); try (destruct (d_traj s));
        try discriminate; inversion H; subst; auto; right; unfold old_plan, not_moving; cbn; repeat split; auto; try discriminate;
        try (destruct (d_flag s)); try (destruct (in_zone s)); try (destruct (d_computing s)); try (destruct (can_stitch s)); discriminate.
    + unfold back_torn in H. rewrite F in H. destruct (d_pc s); discriminate.
  - right. destruct (client_step s e s' o F NC B H) as (A1 & A2 & A3 & A4 & A5 & A6 & A7 & A8 & A9).
    split; [|exact A9]. unfold old_plan, not_moving. rewrite A1, A5, A6, A7. auto.
Qed.

(** The hypothesis of C98_served on the security zone holds if, from some
    evaluation on, the client evaluates only times after the last named waypoint of
    the old plan. *)
Theorem C98_flown_past :
  forall (post : list vertex -> trajectory -> Prop) (st : nat -> state) (ev : nat -> event) (ob : nat -> obs) (n0 n1 : nat) (t1 : R),
  (forall vs tr, post vs tr -> basic_post vs tr) -> execution post st ev ob -> fair st ev -> left_alone ev n0 ->
  reachable (st n0) -> listening (d_pc (st n0)) -> d_flag (st n0) = true -> d_computing (st n0) = false ->
  d_late (st n0) = O -> d_stop (st n0) = false -> d_mod (st n0) = [] ->
  d_set (st n0) ++ d_add (st n0) <> [] -> Forall (fun w => w_time w <= 0) (d_set (st n0) ++ d_add (st n0)) ->
  (n0 <= n1)%nat -> ev n1 = Eval t1 ->
  (forall m t w, (n1 <= m)%nat -> ev m = Eval t -> In w (d_dyn (st n0)) -> w_name w <> no_name -> w_time w <= t) ->
  exists m, (n0 <= m)%nat /\ ends_with (d_set (st n0) ++ d_add (st n0)) (d_dyn (st m)) /\ d_traj (st m) <> None /\
    forall k, (m <= k)%nat -> d_flag (st k) = false /\ d_computing (st k) = false /\
      d_traj (st k) = d_traj (st m) /\ d_dyn (st k) = d_dyn (st m).
Proof.
  intros post st ev ob n0 n1 t1 HP HX HF HA HR HL H1 H2 H3 H4 H5 H6 H7 HN E1 HE.
  apply (C98_served post st ev ob n0 (S n1) HP HX HF HA HR HL H1 H2 H3 H4 H5 H6 H7); [lia|].
  assert (O0 : old_plan (st n0) (st n0)).
  { pose proof (reachable_inv _ HR) as I0. split; [|split; [exact H5|split; [reflexivity|]]].
    - destruct (d_fut (st n0)) eqn:F; auto; exfalso;
        assert (d_computing (st n0) = true) by (apply (i_comp _ I0); right; congruence); congruence.
    - unfold not_moving, listening in *. destruct HL as [E|[E|[E|[E|E]]]]; rewrite E; split; discriminate. }
  assert (A : forall m, (n0 <= m)%nat -> (exists k, (n0 <= k < m)%nat /\ ob k = Launched) \/
    old_plan (st n0) (st m) /\
    ((S n1 <= m)%nat -> forall w, In w (d_dyn (st n0)) -> w_name w <> no_name -> w_time w <= p_global (d_par (st m)))).
  { intros m L. induction L as [|m L IH].
    - right. split; [exact O0|lia].
    - destruct IH as [(k & Lk & E)|[O G]]; [left; exists k; split; [lia|exact E]|].
      destruct (HX m) as [_ HS]. destruct (old_plan_step _ _ _ _ _ O (HA m L) HS) as [E|[O' P]].
      + left. exists m. split; [lia|exact E].
      + right. split; [exact O'|]. intros Lm w IW NW. destruct P as [P|P].
        * destruct (Nat.eq_dec m n1) as [-> | NE].
          -- rewrite E1 in HS. cbn [step] in HS. destruct (d_traj (st n1)); inversion HS as [[ES EO]].
             cbn. apply (HE n1 t1 w); auto.
          -- rewrite P. apply G; auto. lia.
        * apply (HE m _ w ltac:(lia) P IW NW). }
  intros m Lm (_ & w & IW & NW & ZW). destruct (A m ltac:(lia)) as [X|[(_ & _ & D & _) G]]; [exact X|].
  exfalso. rewrite D in IW. specialize (G Lm w IW NW). lra.
Qed.
Print Assumptions C98_flown_past.

(** The hypotheses are met: the plan of the other examples is followed by a second
    one, requested at 8/10; later the client evaluates at 10 for ever. *)
Definition late_loop (t : R) : list (event * obs) := [(Eval t, Quiet); (Poll, Quiet); (Back, Quiet); (Back, Quiet)].
Lemma pc_back s : d_pc s = PTop -> set_pc PTop (set_pc PElse s) = s.
Proof. destruct s. cbn. intros ->. reflexivity. Qed.
Lemma late_run post t s : d_pc s = PTop -> d_flag s = false -> d_stop s = false -> d_fut s = FNone -> d_fut_locked s = false ->
  d_mod s = [] -> d_traj s <> None -> run post (do_eval t s) (late_loop t) (do_eval t s).
Proof.
  intros H1 H2 H3 H4 H5 H6 H7. unfold late_loop.
  econstructor; [cbn; exact H7| |].
  { cbn [step]. cbn [do_eval set_par d_traj]. destruct (d_traj s); [reflexivity|congruence]. }
  change (do_eval t (do_eval t s)) with (do_eval t s).
  econstructor; [exact Logic.I| |].
  { cbn [step]. unfold do_poll. cbn [do_eval set_par d_fut_locked d_fut d_traj]. rewrite H4, H5.
    destruct (d_traj s); [reflexivity|congruence]. }
  econstructor; [exact Logic.I| |].
  { cbn [step]. unfold back_step. cbn [do_eval set_par d_pc d_stop d_flag]. rewrite H1, H2, H3. reflexivity. }
  econstructor; [exact Logic.I| |constructor].
  cbn [step]. unfold back_step. cbn [do_eval set_par set_pc d_pc d_mod]. rewrite H6.
  f_equal. apply pc_back. exact H1.
Qed.

Lemma launched_quiet s : d_mod (launched s) = [] /\ d_fut_locked (launched s) = d_fut_locked s.
Proof. unfold launched, started. destruct (if can_stitch _ then _ else _); split; reflexivity. Qed.
Lemma st4_quiet : d_flag st4 = false /\ d_fut st4 = FNone /\ d_fut_locked st4 = false /\ d_mod st4 = [].
Proof.
  assert (A : forall f c ws s, let s' := swapped STEP tr4 (set_fut f (set_tc c (set_next ws s))) in
    d_flag s' = false /\ d_fut s' = FNone /\ d_fut_locked s' = d_fut_locked s /\ d_mod s' = d_mod s) by (intros; repeat split).
  destruct (A (FReady tr4) (/ 1000) dyn4 (launched (req (8 / 10)))) as (A1 & A2 & A3 & A4). fold st4 in A1, A2, A3, A4.
  destruct (launched_quiet (req (8 / 10))) as [B1 B2]. rewrite B1 in A4. rewrite B2 in A3.
  split; [exact A1|]. split; [exact A2|]. split; [rewrite A3; reflexivity|exact A4].
Qed.
Lemma eval_fut t s : d_fut (do_eval t s) = d_fut s. Proof. reflexivity. Qed.
Theorem C98_flown_past_example : exists st ev ob n0 n1 t1, execution full_post st ev ob /\ fair st ev /\ left_alone ev n0 /\
  reachable (st n0) /\ listening (d_pc (st n0)) /\ d_flag (st n0) = true /\ d_computing (st n0) = false /\
  d_late (st n0) = O /\ d_stop (st n0) = false /\ d_mod (st n0) = [] /\ d_set (st n0) ++ d_add (st n0) = [wc] /\
  Forall (fun w => w_time w <= 0) (d_set (st n0) ++ d_add (st n0)) /\ d_traj (st n0) <> None /\
  (n0 <= n1)%nat /\ ev n1 = Eval t1 /\
  (forall m t w, (n1 <= m)%nat -> ev m = Eval t -> In w (d_dyn (st n0)) -> w_name w <> no_name -> w_time w <= t).
Proof.
  set (pre := trace4 ++ [(Eval 10, Quiet)]). set (loop := late_loop 10). set (s1 := do_eval 10 st4).
  destruct st4_fields as (_ & _ & _ & _ & T4 & _ & P4 & C4). destruct st4_quiet as (Q1 & Q2 & Q3 & Q4).
  assert (NT : d_traj st4 <> None) by (rewrite T4; discriminate).
  assert (RP : run full_post (init v3_zero) pre s1).
  { unfold pre. eapply run_app; [apply run_st4|]. econstructor; [exact NT| |constructor].
    cbn [step]. rewrite T4. reflexivity. }
  assert (RL : run full_post s1 loop s1) by (apply late_run; auto using st4_stop).
  assert (F1 : d_fut s1 = FNone) by (unfold s1; rewrite eval_fut; exact Q2). clearbody s1.
  assert (LN : (0 < length loop)%nat) by (cbn; lia).
  exists (lasso_st pre loop (init v3_zero)), (lasso_ev pre loop), (lasso_ob pre loop), 18%nat, (length pre), 10.
  assert (E0 : lasso_st pre loop (init v3_zero) 18 = req (8 / 10)).
  { destruct (lasso_run full_post pre loop (init v3_zero) LN _ 0%nat _ _ (run_req (8 / 10)) eq_refl) as [E _].
    - intros i Hi. unfold lasso_at.
      replace (0 + i <? length pre)%nat with true
        by (symmetry; apply Nat.ltb_lt; unfold pre, trace4, trace1, backs in *; rewrite !app_length in *; cbn in *; lia).
      unfold pre, trace4. rewrite <- !app_assoc. rewrite app_assoc. rewrite app_nth1 by exact Hi. reflexivity.
    - exact E. }
  rewrite E0.
  split; [apply (lasso_execution full_post pre loop (init v3_zero) s1); auto|].
  split; [apply (lasso_fair full_post pre loop (init v3_zero) s1 RP RL LN Quiet Quiet); [cbn; auto|cbn; auto|]|].
  { unfold running. rewrite F1. intros [X|[v X]]; discriminate. }
  assert (LO : forall m, (length pre <= m)%nat -> In (lasso_at pre loop m) loop) by (intros m; apply lasso_new; exact LN).
  split.
  { intros m Hm. unfold lasso_ev. destruct (Nat.lt_ge_cases m (length pre)) as [L|L].
    - rewrite lasso_old by exact L. assert (m < 33)%nat by (unfold pre, trace4, trace1, backs in L; rewrite !app_length in L; cbn in L; lia).
      unfold pre, trace4, trace1, backs. cbn [map app].
      do 18 (destruct m as [|m]; [lia|]). do 15 (destruct m as [|m]; [cbn; tauto|]). lia.
    - pose proof (LO m L) as I. cbn [In loop late_loop] in I. destruct I as [I|[I|[I|[I|[]]]]]; rewrite <- I; cbn; tauto. }
  split; [eapply full_reachable, run_req|].
  split; [left; reflexivity|]. do 6 (split; [reflexivity|]). split; [repeat constructor; cbn; lra|]. split; [discriminate|].
  split; [unfold pre, trace4, trace1, backs; rewrite !app_length; cbn; lia|].
  split.
  { pose proof (lasso_in_loop pre loop LN 0 0 LN) as E. rewrite Nat.mul_0_l, !Nat.add_0_r in E. unfold lasso_ev. rewrite E. reflexivity. }
  intros m t w Lm ET IW NW. pose proof (LO m Lm) as I. unfold lasso_ev in ET.
  assert (t = 10) as ->.
  { clear - I ET. destruct (lasso_at pre loop m) as [e o]. cbn [fst] in ET. subst e. unfold loop, late_loop in I. cbn [In] in I.
    destruct I as [I|[I|[I|[I|[]]]]]; [injection I as <- _; reflexivity|discriminate I|discriminate I|discriminate I]. }
  cbn [req at1 do_append do_eval set_flag set_queues set_par st1 d_dyn dyn1 In] in IW. unfold dyn1 in IW. cbn [In] in IW.
  destruct IW as [<- |[<- |[<- |[]]]]; cbn [wp_set_time w_time]; lra.
Qed.
Print Assumptions C98_flown_past_example.
