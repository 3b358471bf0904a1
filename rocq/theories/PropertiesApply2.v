(** Property theorems: modifications made while a trajectory is being computed are
    applied to the new plan in the end (C105). *)
From Coq Require Import Reals Lra Lia List Bool ZArith Arith Classical_Prop.
From Coquelicot Require Import Coquelicot.
From Verif Require Import Base PolyModel PolySpec VertexModel TrajModel TrajSpec TrajProofs RangeProofs
  WaypointModel WaypointProofs Names DynModel DynSpec DynProofs DynFrame DynTrace DynQueue DynMore StopAndGo DynScenario
  PropertiesDyn PropertiesReq PropertiesLife PropertiesLife2 PropertiesLife3 PropertiesLive PropertiesLive2 PropertiesApply.
Import List ListNotations.
Local Open Scope R_scope.
Set Bullet Behavior "Strict Subproofs".

Lemma same_trans l1 l2 l3 : Forall2 same_place l1 l2 -> Forall2 same_place l2 l3 -> Forall2 same_place l1 l3.
Proof.
  intros F. revert l3. induction F as [|a b x y (A & B & C) F IH]; intros l3 G; inversion G; subst; constructor; auto.
  match goal with X : same_place b _ |- _ => destruct X as (A' & B' & C') end. split; [|split]; congruence.
Qed.
Lemma same_refl l : Forall2 same_place l l.
Proof. induction l; constructor; auto. repeat split. Qed.

Section InFlight.
Variables (post : list vertex -> trajectory -> Prop) (st : nat -> state) (ev : nat -> event) (ob : nat -> obs).
Hypothesis HP : forall vs tr, post vs tr -> basic_post vs tr.
Hypothesis HX : execution post st ev ob.
Hypothesis HF : fair st ev.
Variable n0 : nat.
Hypothesis HA : left_alone ev n0.
Hypothesis I0 : inv (st n0).
Variables (N0 : list waypoint) (ms : list (name * V3)).
Hypothesis NM : ms <> [].

Definition aloft (s : state) : Prop :=
  d_flag s = false /\ d_stop s = false /\ d_computing s = true /\ d_mod s = ms /\ (d_pc s = PTop \/ d_pc s = PElse) /\
  Forall2 same_place N0 (d_next s).
Definition landed (s : state) (e : event) (o : obs) (s' : state) : Prop :=
  e = Poll /\ o = Swapped /\ d_flag s' = false /\ d_stop s' = false /\ d_computing s' = false /\ d_mod s' = ms /\
  (d_pc s' = PTop \/ d_pc s' = PElse) /\ Forall2 same_place N0 (d_dyn s').

Lemma aloft_step s e s' o : inv s -> aloft s -> ~ changes_plan e -> event_ok post s e -> step s e = Ok s' o ->
  landed s e o s' \/
  aloft s' /\
  ((d_fut s = FStarted /\ of_computation e /\ exists v, d_fut s' = FRunning v) \/
   ((exists v, d_fut s = FRunning v) /\ of_computation e /\ exists tr, d_fut s' = FReady tr) \/
   (~ of_computation e /\ d_fut s' = d_fut s /\ (e = Poll -> forall tr, d_fut s <> FReady tr))).
Proof.
  intros IV (A1 & A2 & A3 & A4 & A5 & A6) NC HO H. unfold aloft, landed.
  destruct e; cbn in NC; try tauto.
  - destruct (poll_cases _ _ _ IV H) as [(-> & -> & _ & X)|(tr & EF & ES & ->)].
    + right. split; [auto 10|]. right. right. cbn. auto.
    + left. apply swap_fields in ES. destruct ES as (F1 & F2 & F3 & F4 & F5 & F6 & F7 & F8 & F9 & F10 & F11 & F12 & _).
      rewrite F2, F4, F6, F7, F11, F12. repeat (split; auto). eapply same_trans; [exact A6|apply copy_same].
  - destruct (end_cases _ _ _ H) as (k & E & -> & _). right. cbn. split; [auto 10|]. right. right. split; [auto|]. split; [auto|discriminate].
  - cbn [step] in H. destruct (d_traj s) eqn:ET; inversion H; subst; cbn. right. split; [auto 10|]. right. right. split; [auto|]. split; [auto|discriminate].
  - cbn [step] in H. inversion H; subst; cbn. right. split; [auto 10|]. right. right. split; [auto|]. split; [auto|discriminate].
  - cbn [step] in H. inversion H; subst; cbn. right. split; [auto 10|]. right. right. split; [auto|]. split; [auto|discriminate].
  - cbn [step] in H. inversion H; subst; cbn. right. split; [auto 10|]. right. right. split; [auto|]. split; [auto|discriminate].
  - right. cbn [step] in H. unfold back_step in H. destruct A5 as [E|E]; rewrite E in H.
    + rewrite A2, A1 in H. inversion H; subst; cbn. split; [auto 10|]. right. right. split; [auto|]. split; [auto|discriminate].
    + rewrite A3, A4 in H. destruct ms as [|x l]; [congruence|]. inversion H; subst; cbn. split; [auto 10|]. right. right. split; [auto|]. split; [auto|discriminate].
  - destruct (torn_cases _ _ _ _ H) as (_ & _ & E & _). destruct A5 as [Q|Q]; congruence.
  - right. cbn [step] in H. unfold comp_speed in H. destruct (d_fut s) eqn:EF; try discriminate.
    destruct (extract_vertices (d_next s)) as [vs|] eqn:EV; [|discriminate].
    pose proof (extract_length _ _ EV) as HL.
    assert (H2 : (2 <= length (d_next s))%nat) by (apply (i_two s IV); right; right; congruence).
    destruct (Nat.ltb_spec (length vs) 2); [lia|]. inversion H; subst; cbn. split; [auto 10|]. left. eauto.
  - right. pose proof (step_inv post _ _ _ _ HP IV HO H) as IV'. cbn [step] in H. unfold comp_done in H.
    destruct (d_fut s) eqn:EF; try discriminate. destruct (retime _ _ _ _) as [ws|] eqn:ER.
    + inversion H; subst; cbn. split; [|right; left; eauto]. repeat (split; auto). eapply same_trans; [exact A6|]. eapply retime_same; eauto.
    + inversion H; subst. destruct (i_noexn _ IV' eq_refl).
Qed.

Definition lands (m : nat) : Prop := landed (st m) (ev m) (ob m) (st (S m)).
Definition arrives (n : nat) : Prop := exists m, (n0 <= m)%nat /\ S m = n /\ lands m.
Lemma aloft_next m : (n0 <= m)%nat -> aloft (st m) ->
  arrives (S m) \/
  aloft (st (S m)) /\
  ((d_fut (st m) = FStarted /\ of_computation (ev m) /\ exists v, d_fut (st (S m)) = FRunning v) \/
   ((exists v, d_fut (st m) = FRunning v) /\ of_computation (ev m) /\ exists tr, d_fut (st (S m)) = FReady tr) \/
   (~ of_computation (ev m) /\ d_fut (st (S m)) = d_fut (st m) /\ (ev m = Poll -> forall tr, d_fut (st m) <> FReady tr))).
Proof.
  intros L A. destruct (HX m) as [HO HS].
  destruct (aloft_step _ _ _ _ (inv_at post st ev ob HP HX n0 I0 m L) A (HA m L) HO HS) as [X|X]; [left; exists m; auto|right; exact X].
Qed.

Lemma ready_lands n : (n0 <= n)%nat -> aloft (st n) -> (exists tr, d_fut (st n) = FReady tr) -> exists m, (n <= m)%nat /\ arrives m.
Proof.
  intros L A R. destruct HF as (_ & FP & _).
  apply (leads st ev (fun m => aloft (st m) /\ exists tr, d_fut (st m) = FReady tr) arrives (fun e => e = Poll) (fun s => can s Poll) n FP); auto.
  - intros m Lm (Am & tr & EF). destruct (aloft_next m ltac:(lia) Am) as [X|(A' & X)]; [right; exact X|left].
    split; [exact A'|]. destruct X as [(X & _)|[((v & X) & _)|(_ & X & _)]]; [congruence|congruence|]. exists tr. congruence.
  - intros m Lm (Am & tr & EF). pose proof (inv_at post st ev ob HP HX n0 I0 m ltac:(lia)) as IV. destruct (swap_inv _ tr IV EF) as (s2 & E & _).
    unfold can. cbn [step]. unfold do_poll. rewrite (i_unlocked _ IV), EF, (inv_computing _ IV) by congruence. rewrite E.
    destruct (d_traj (st m)); eauto.
  - intros m Lm (Am & tr & EF) EV. destruct (aloft_next m ltac:(lia) Am) as [X|(A' & X)]; [exact X|exfalso].
    destruct X as [(X & _)|[((v & X) & _)|(_ & _ & X)]]; [congruence|congruence|]. exact (X EV tr EF).
Qed.
Lemma running_lands n : (n0 <= n)%nat -> aloft (st n) -> (exists v, d_fut (st n) = FRunning v) -> exists m, (n <= m)%nat /\ arrives m.
Proof.
  intros L A R. destruct HF as (_ & _ & FC).
  assert (X : exists m, (n <= m)%nat /\ (arrives m \/ aloft (st m) /\ exists tr, d_fut (st m) = FReady tr)).
  { apply (leads st ev (fun m => aloft (st m) /\ exists v, d_fut (st m) = FRunning v)
      (fun m => arrives m \/ aloft (st m) /\ exists tr, d_fut (st m) = FReady tr) of_computation running n FC); auto.
    - intros m Lm (Am & v & EF). destruct (aloft_next m ltac:(lia) Am) as [X|(A' & X)]; [auto|].
      destruct X as [(X & _)|[(_ & _ & X)|(_ & X & _)]]; [congruence|auto|]. left. split; [exact A'|]. exists v. congruence.
    - intros m Lm (Am & EF). right. exact EF.
    - intros m Lm (Am & v & EF) EV. destruct (aloft_next m ltac:(lia) Am) as [X|(A' & X)]; [auto|].
      destruct X as [(X & _)|[(_ & _ & X)|(X & _)]]; [congruence|auto|contradiction]. }
  destruct X as (m & Lm & [X|[X Y]]); [eauto|]. destruct (ready_lands m ltac:(lia) X Y) as (m' & L' & Z). exists m'. split; [lia|exact Z].
Qed.
Lemma started_lands n : (n0 <= n)%nat -> aloft (st n) -> d_fut (st n) = FStarted -> exists m, (n <= m)%nat /\ arrives m.
Proof.
  intros L A R. destruct HF as (_ & _ & FC).
  assert (X : exists m, (n <= m)%nat /\ (arrives m \/ aloft (st m) /\ exists v, d_fut (st m) = FRunning v)).
  { apply (leads st ev (fun m => aloft (st m) /\ d_fut (st m) = FStarted)
      (fun m => arrives m \/ aloft (st m) /\ exists v, d_fut (st m) = FRunning v) of_computation running n FC); auto.
    - intros m Lm (Am & EF). destruct (aloft_next m ltac:(lia) Am) as [X|(A' & X)]; [auto|].
      destruct X as [(_ & _ & X)|[((v & X) & _)|(_ & X & _)]]; [auto|congruence|]. left. split; [exact A'|]. congruence.
    - intros m Lm (Am & EF). left. exact EF.
    - intros m Lm (Am & EF) EV. destruct (aloft_next m ltac:(lia) Am) as [X|(A' & X)]; [auto|].
      destruct X as [(_ & _ & X)|[((v & X) & _)|(X & _)]]; [auto|congruence|contradiction]. }
  destruct X as (m & Lm & [X|[X Y]]); [eauto|]. destruct (running_lands m ltac:(lia) X Y) as (m' & L' & Z). exists m'. split; [lia|exact Z].
Qed.
End InFlight.

(** The computation ends, somebody who evaluates swaps its result in, and then the
    modifications are applied to the waypoints of the new plan, which are those that
    were being worked on. *)
Theorem C105_in_flight :
  forall (post : list vertex -> trajectory -> Prop) (st : nat -> state) (ev : nat -> event) (ob : nat -> obs) (n0 : nat),
  (forall vs tr, post vs tr -> basic_post vs tr) -> execution post st ev ob -> fair st ev -> left_alone ev n0 ->
  reachable (st n0) -> d_pc (st n0) = PTop \/ d_pc (st n0) = PElse ->
  d_flag (st n0) = false -> d_computing (st n0) = true -> d_stop (st n0) = false -> d_mod (st n0) <> [] ->
  exists n1 m, (n0 <= n1)%nat /\ (n1 < m)%nat /\ ev n1 = Poll /\ ob n1 = Swapped /\
    Forall2 same_place (d_next (st n0)) (d_dyn (st (S n1))) /\
    Forall2 (obeys st (S n1) m (d_mod (st n0))) (d_dyn (st (S n1))) (d_dyn (st m)) /\
    forall k, (m <= k)%nat -> d_mod (st k) = [] /\ d_dyn (st k) = d_dyn (st m) /\ d_traj (st k) = d_traj (st (S n1)) /\
      d_flag (st k) = false /\ d_computing (st k) = false.
Proof.
  intros post st ev ob n0 HP HX HF HA HR HC H1 H2 H3 H4. pose proof (reachable_inv _ HR) as I0.
  assert (A : aloft (d_next (st n0)) (d_mod (st n0)) (st n0)).
  { unfold aloft. repeat (split; auto). apply same_refl. }
  assert (X : exists m, (n0 <= m)%nat /\ arrives st ev ob n0 (d_next (st n0)) (d_mod (st n0)) m).
  { destruct (d_fut (st n0)) eqn:F.
    - exfalso. pose proof (proj1 (i_comp _ I0) H2) as [Q|Q]; [|congruence]. destruct HC as [E|E]; rewrite E in Q; discriminate.
    - apply (started_lands post st ev ob HP HX HF n0 HA I0 _ _ H4 n0 (le_n _) A F).
    - apply (running_lands post st ev ob HP HX HF n0 HA I0 _ _ H4 n0 (le_n _) A). eauto.
    - apply (ready_lands post st ev ob HP HX HF n0 HA I0 _ _ H4 n0 (le_n _) A). eauto.
    - destruct (i_noexn _ I0 F). }
  destruct X as (m0 & L0 & n1 & L1 & <- & EP & EO & B1 & B2 & B3 & B4 & B5 & B6).
  destruct (C105_applied post st ev ob (S n1) HP HX HF) as (m & Lm & O & K); auto.
  - intros k Lk. apply HA. lia.
  - apply (reach_at post st ev ob n0 (S n1) HP HX); [lia|exact HR].
  - tauto.
  - rewrite B4. exact H4.
  - exists n1, m. rewrite B4 in O. split; [exact L1|]. split; [lia|]. auto 10.
Qed.
Print Assumptions C105_in_flight.

(** The hypotheses are met: the second plan of the other examples is being computed
    when the waypoint b is moved. *)
Lemma modify_fields n p b s : d_traj (do_modify n p b s) = d_traj s /\ d_par (do_modify n p b s) = d_par s /\ d_new (do_modify n p b s) = d_new s /\
  d_fut (do_modify n p b s) = d_fut s /\ d_computing (do_modify n p b s) = d_computing s /\ d_fut_locked (do_modify n p b s) = d_fut_locked s /\
  d_dyn (do_modify n p b s) = d_dyn s /\ d_pc (do_modify n p b s) = d_pc s /\ d_next (do_modify n p b s) = d_next s /\
  d_mod (do_modify n p b s) = mod_put n p (d_mod s) /\ d_flag (do_modify n p b s) = b /\ d_stop (do_modify n p b s) = d_stop s /\ d_scratch (do_modify n p b s) = d_scratch s.
Proof. repeat split. Qed.
Lemma swapped_quiet f c ws s : let s' := swapped STEP tr4 (set_fut f (set_tc c (set_next ws s))) in
  d_flag s' = false /\ d_fut s' = FNone /\ d_fut_locked s' = d_fut_locked s /\ d_mod s' = d_mod s /\ d_pc s' = d_pc s /\ d_stop s' = d_stop s /\ d_traj s' = Some tr4 /\ d_computing s' = false.
Proof. repeat split. Qed.
Lemma else_apply s : d_pc s = PTop -> d_flag s = false -> d_stop s = false -> d_mod s <> [] -> d_computing s = false ->
  run full_post s [(Back, Quiet); (Back, Quiet)] (set_pc PApply (set_pc PElse s)).
Proof.
  intros H1 H2 H3 H4 H5. econstructor; [exact Logic.I|cbn [step]; unfold back_step; rewrite H1, H2, H3; reflexivity|].
  econstructor; [exact Logic.I| |constructor]. cbn [step]. unfold back_step. cbn [set_pc d_pc d_mod d_computing]. rewrite H5.
  destruct (d_mod s); [congruence|reflexivity].
Qed.
Definition fly_trace : list (event * obs) :=
  (trace1 ++ [(Eval (8 / 10), Quiet); (Append wc, Quiet)]) ++ backs [Quiet; Quiet; Quiet; Quiet; Quiet; Quiet; Quiet; Quiet; Launched; Quiet].
(** What is needed of the state in which the second plan is being computed. *)
Lemma fly : exists s vs, run full_post (init v3_zero) fly_trace s /\
  d_fut s = FStarted /\ d_computing s = true /\ d_fut_locked s = false /\ extract_vertices (d_next s) = Some vs /\ (2 <= length vs)%nat /\ full_post vs tr4 /\
  retime (t_segs tr4) (p_gtl (d_new s)) 0 (d_next s) = Some dyn4 /\ d_traj s <> None /\ p_global (d_par s) = 8 / 10 /\ p_gtl (d_new s) = 8 / 10 /\
  d_mod s = [] /\ d_pc s = PTop /\ d_stop s = false /\ exists w, In w (d_next s) /\ w_name w = name_b.
Proof.
  destruct (launched_fields (req (8 / 10))) as (ET & EP & EN & EF & EC & EL & ED & PC & _).
  destruct launched_extract3 as (vs & EV & HV). destruct (launched_quiet (req (8 / 10))) as [B1 B2].
  exists (launched (req (8 / 10))), vs. split; [unfold fly_trace; eapply run_app; [apply run_req|apply launch_req; lra]|].
  split; [exact EF|]. split; [exact EC|]. split; [rewrite EL; reflexivity|]. split; [exact EV|]. split; [exact HV|]. split; [apply tr4_full; exact EV|].
  split; [rewrite EN; exact retime4|]. split; [rewrite launched_traj; discriminate|]. split; [rewrite EP; reflexivity|].
  split; [apply launched_gtl|]. split; [exact B1|]. split; [exact PC|]. split; [rewrite launched_stop; reflexivity|].
  rewrite launched_08. exists (wp_set_time 2 (wp_set_index 2 wb)). split; [right; right; left; reflexivity|reflexivity].
Qed.
Theorem C105_in_flight_example : exists st ev ob n0, execution full_post st ev ob /\ fair st ev /\ left_alone ev n0 /\
  reachable (st n0) /\ d_pc (st n0) = PTop /\ d_flag (st n0) = false /\ d_computing (st n0) = true /\ d_stop (st n0) = false /\
  d_mod (st n0) = [(name_b, mkV3 2 1 0)] /\ exists w, In w (d_next (st n0)) /\ w_name w = name_b.
Proof.
  set (q := mkV3 2 1 0).
  destruct fly as (L & vs & R0 & H1 & H2 & H3 & H4 & H5 & HP & H6 & H7 & H8 & H9 & H10 & H11 & H12 & HW).
  destruct (modify_fields name_b q false L) as (M1 & M2 & M3 & M4 & M5 & M6 & M7 & M8 & M9 & M10 & M11 & M12 & _).
  assert (R1 : run full_post (init v3_zero) (fly_trace ++ [(Modify name_b q false, Quiet)]) (do_modify name_b q false L)).
  { eapply run_app; [exact R0|]. econstructor; [exact Logic.I| |constructor]. cbn [step]. unfold todo_locked. rewrite H11. reflexivity. }
  set (sA := do_modify name_b q false L) in *. rewrite H10 in M10. cbn [mod_put] in M10.
  clearbody sA. set (tA := fly_trace ++ [(Modify name_b q false, Quiet)]) in *. clearbody tA.
  set (sB := swapped STEP tr4 (set_fut (FReady tr4) (set_tc (/ 1000) (set_next dyn4 sA)))).
  assert (R2 : run full_post sA [(CompSpeed, Quiet); (CompDone tr4 (/ 1000), Quiet); (Poll, Swapped); (PollEnd, Quiet)] sB).
  { apply (finish_solo _ _ vs tr4 (/ 1000) dyn4).
    - rewrite M4; exact H1.
    - rewrite M5; exact H2.
    - rewrite M6; exact H3.
    - rewrite M9. exact H4.
    - exact H5.
    - lra.
    - exact HP.
    - rewrite M3, M9. exact H6.
    - apply (swap_now _ _ _ (8 / 10)); [rewrite M1; exact H7|lra|rewrite M2; exact H8|rewrite M3; exact H9]. }
  destruct (swapped_quiet (FReady tr4) (/ 1000) dyn4 sA) as (S1 & S2 & S3 & S4 & S5 & S6 & S7 & S8).
  fold sB in S1, S2, S3, S4, S5, S6, S7, S8. clearbody sB.
  set (sC := set_pc PApply (set_pc PElse sB)).
  assert (R3 : run full_post sB [(Back, Quiet); (Back, Quiet)] sC).
  { apply else_apply; [rewrite S5, M8; exact H11|exact S1|rewrite S6, M12; exact H12|rewrite S4, M10; discriminate|exact S8]. }
  assert (R4 : run full_post sC (backs (batch sC)) (batch_done sC)) by (apply batch_solo; reflexivity).
  destruct (done_fields sC) as (G1 & G2 & G3 & G4 & G5 & G6 & G7). set (bs := batch sC) in *. clearbody bs.
  set (s1 := batch_done sC) in *. cbn [sC set_pc d_flag d_stop d_fut d_fut_locked d_traj] in G2, G3, G4, G5, G7. clearbody s1.
  set (tB := [(CompSpeed, Quiet); (CompDone tr4 (/ 1000), Quiet); (Poll, Swapped); (PollEnd, Quiet)] ++ [(Back, Quiet); (Back, Quiet)] ++ backs bs).
  assert (RB : run full_post sA tB s1) by (eapply run_app; [exact R2|]; eapply run_app; [exact R3|exact R4]).
  set (pre := tA ++ tB).
  assert (RP : run full_post (init v3_zero) pre s1) by (eapply run_app; eauto).
  assert (F1 : d_fut s1 = FNone) by congruence.
  assert (RL : run full_post s1 idle_loop s1) by (apply idle_loop_run; congruence).
  assert (LN : (0 < length idle_loop)%nat) by (cbn; lia).
  exists (lasso_st pre idle_loop (init v3_zero)), (lasso_ev pre idle_loop), (lasso_ob pre idle_loop), (length tA).
  assert (AT : forall i, (i < length tA)%nat -> lasso_at pre idle_loop (0 + i) = nth i tA (Back, Quiet)).
  { intros i Hi. assert (i < length pre)%nat by (unfold pre; rewrite app_length; lia).
    cbn [Nat.add]. rewrite lasso_old by assumption. unfold pre. now rewrite app_nth1 by exact Hi. }
  destruct (lasso_run full_post pre idle_loop (init v3_zero) LN _ 0 _ _ R1 eq_refl AT) as [E0 _].
  rewrite Nat.add_0_l in E0. rewrite E0.
  split; [apply (lasso_execution full_post pre idle_loop (init v3_zero) s1); auto|].
  split; [apply (lasso_fair full_post pre idle_loop (init v3_zero) s1 RP RL LN Quiet Quiet); [cbn; auto|cbn; auto|]|].
  { unfold running. rewrite F1. intros [X|[v X]]; discriminate. }
  split.
  { intros m Hm. unfold lasso_ev. destruct (Nat.lt_ge_cases m (length pre)) as [Lt|Lt].
    - rewrite lasso_old by exact Lt. unfold pre in Lt |- *. rewrite app_length in Lt. rewrite app_nth2 by lia.
      assert (NB : forall m l, (m < length (backs l))%nat -> fst (nth m (backs l) (Back, Quiet)) = Back).
      { intros k l Hk. unfold backs in *. rewrite map_length in Hk.
        change (Back, Quiet) with ((fun o => (Back, o)) Quiet). rewrite map_nth. reflexivity. }
      assert (Lj : (m - length tA < length tB)%nat) by lia.
      set (j := (m - length tA)%nat) in *. clearbody j. unfold tB in Lj |- *.
      destruct j as [|[|[|[|[|[|j]]]]]]; try (cbn; tauto).
      cbn [app nth]. rewrite NB; [cbn; tauto|]. rewrite !app_length in Lj. cbn [length] in Lj. lia.
    - pose proof (lasso_new pre idle_loop LN m Lt) as I. destruct (lasso_at pre idle_loop m) as [e o]. cbn [fst].
      unfold idle_loop in I. cbn [In] in I. destruct I as [I|[I|[I|[]]]]; injection I as <- _; cbn; tauto. }
  split; [eapply full_reachable, R1|]. split; [rewrite M8; exact H11|]. split; [exact M11|]. split; [rewrite M5; exact H2|].
  split; [rewrite M12; exact H12|]. split; [exact M10|]. rewrite M9. exact HW.
Qed.
Print Assumptions C105_in_flight_example.
