(** C91: carrying out a swap and an evaluation step by step, with everything
    else going on in between, has the outcomes of DynModel. *)
From Coq Require Import Reals List Bool ZArith Lra Lia.
From Coquelicot Require Import Coquelicot.
From Verif Require Import Base PolyModel PolySpec VertexModel TrajModel TrajSpec WaypointModel DynModel DynSpec
  DynProofs DynTrace DynMore DynScenario FineModel PropertiesDyn PropertiesLife PropertiesLife2.
Import List ListNotations.
Local Open Scope R_scope.
Set Bullet Behavior "Strict Subproofs".

(** ** Specification *)

(** Step-by-step executions. *)
Definition fine_ok (post : list vertex -> trajectory -> Prop) (f : fstate) (e : fevent) : Prop :=
  match e with Call e => event_ok post (f_s f) e | _ => True end.
Inductive frun (post : list vertex -> trajectory -> Prop) : fstate -> list (fevent * obs) -> fstate -> Prop :=
| frun_nil f : frun post f [] f
| frun_snoc f h f1 e o f2 :
    frun post f h f1 -> fine_ok post f1 e -> fine_step f1 e = FOk f2 o -> frun post f (h ++ [(e, o)]) f2.
Definition between_calls (f : fstate) : Prop := f_m f = MIdle.

(** What each side does in an execution: the calls of other threads that
    change the requests, the speed or the shutdown, the computation, and the
    steps of the background thread that start one or move a waypoint; the calls
    that report a position; those that ask whether the trajectory was regenerated;
    the polls and evaluations of the evaluating thread. *)
Definition is_request (x : event * obs) : bool :=
  match x with
  | (SetWaypoints _, _) | (Append _, _) | (Modify _ _ _, _) | (RaiseFlag, _) | (SetSpeed _, _) | (Stop, _)
  | (CompSpeed, _) | (CompDone _ _, _) | (CompThrow, _) | (Back, Launched) | (Back, Moved) => true
  | _ => false
  end.
Definition is_report (x : event * obs) : bool := match x with (Vehicle _, _) => true | _ => false end.
Definition is_query (x : event * obs) : bool := match x with (GetRegenerated, _) => true | _ => false end.
Definition is_evaluation (x : event * obs) : bool :=
  match x with (Poll, _) | (PollEnd, _) | (Eval _, _) => true | _ => false end.
(** The same for step-by-step executions: a swap counts when it is complete, an
    evaluation when it begins. *)
Definition as_event (x : fevent * obs) : list (event * obs) :=
  match x with
  | (Call e, o) => [(e, o)]
  | (BeginEval t, o) => [(Eval t, o)]
  | (Next, Swapped) => [(Poll, Swapped)]
  | _ => []
  end.
Definition as_events (h : list (fevent * obs)) : list (event * obs) := flat_map as_event h.

Definition same_calls (h1 h2 : list (event * obs)) : Prop :=
  filter is_request h1 = filter is_request h2 /\ filter is_report h1 = filter is_report h2 /\
  filter is_query h1 = filter is_query h2 /\ filter is_evaluation h1 = filter is_evaluation h2.
(** Steps of the evaluating thread. *)
Definition own_steps (h : list (fevent * obs)) : nat :=
  length (filter (fun x => match fst x with Next => true | _ => false end) h).

(** ** The simulation *)

Definition swap_target (s : state) : option V3 :=
  if d_scratch s then Some (d_vehicle s)
  else match d_traj s with
       | Some old => Some (eval_modified old (d_dyn s) (p_global (d_par s) + p_off (d_par s))
                             (p_local (d_par s) + p_off (d_par s)) 0)
       | None => None
       end.
Definition dist_of tr q s := fit_distance tr (d_dyn s) (p_gtl (d_new s)) q.

(** The state in the middle of a swap, from the state [a] before it. *)
Definition reached (m : micro) : nat :=
  match m with
  | MScratch _ => 1 | MPar _ => 2 | MTraj _ => 3 | MRegen => 4 | MDyn => 5 | MComp => 6 | _ => 0
  end.
Definition overlay (m : micro) (tr : trajectory) (off : R) (v : V3) (r : bool) (a : state) : state :=
  let n := reached m in
  let new := par_off off (d_new a) in
  mkState (if (3 <=? n)%nat then new else d_par a)
          (if (1 <=? n)%nat then new else d_new a)
          (if (4 <=? n)%nat then Some tr else d_traj a)
          FNone
          (if (2 <=? n)%nat then false else d_scratch a)
          v
          (if (6 <=? n)%nat then map wp_copy (d_next a) else d_dyn a)
          (d_next a) (d_add a) (d_set a) (d_mod a) (d_flag a) (d_computing a) (d_stop a)
          (if (5 <=? n)%nat then r else d_regen a)
          (d_tc a) (d_fut_locked a) (d_late a) (d_pc a).
(** What is known at each step. *)
Definition side (m : micro) (tr : trajectory) (off : R) (v : V3) (a : state) : Prop :=
  match m with
  | MIdle | MEval _ _ => False
  | MGot tr' => tr' = tr /\ v = d_vehicle a
  | MArgs tr' g l => tr' = tr /\ v = d_vehicle a /\ d_scratch a = false /\
      g = p_global (d_par a) + p_off (d_par a) /\ l = p_local (d_par a) + p_off (d_par a)
  | MFirst tr' q => tr' = tr /\ swap_target a = Some q
  | MLoop tr' q n t best best_d => tr' = tr /\ swap_target a = Some q /\
      fit_loop n (dist_of tr q a) STEP (3 / 2 * computation_time (d_tc a)) t best best_d
        = fit_min_time (dist_of tr q a) (d_tc a)
  | MOff tr' best => tr' = tr /\ exists q, swap_target a = Some q /\ best = fit_min_time (dist_of tr q a) (d_tc a)
  | MScratch tr' | MPar tr' | MTraj tr' => tr' = tr /\ exists q, swap_target a = Some q /\ off = fit_offset tr q a
  | MRegen | MDyn | MComp => exists q, swap_target a = Some q /\ off = fit_offset tr q a
  end.
Definition regen_done (m : micro) : bool := match m with MDyn | MComp => true | _ => false end.

Section Sim.
Variable post : list vertex -> trajectory -> Prop.
Hypothesis HP : forall vs tr, post vs tr -> basic_post vs tr.

(** Reports and queries made during the swap, replayed after it. *)
Definition pending (P : list (event * obs)) (v0 v : V3) (r0 r : bool) : Prop :=
  forall x, d_vehicle x = v0 -> d_regen x = r0 -> run post x P (set_vehicle v (set_regen r x)).
Definition reports (P : list (event * obs)) : Prop := Forall (fun x => is_report x = true) P.
Definition sensors (P : list (event * obs)) : Prop := Forall (fun x => is_report x || is_query x = true) P.
Definition early (m : micro) : bool := match m with MGot _ | MArgs _ _ _ => true | _ => false end.
Definition waits (m : micro) (a : state) (v : V3) (r : bool) (P : list (event * obs)) : Prop :=
  if early m then P = []
  else if regen_done m then sensors P /\ pending P (d_vehicle a) v true r
  else reports P /\ forall r0, pending P (d_vehicle a) v r0 r0.

Definition in_swap (m : micro) : bool := match m with MIdle | MEval _ _ => false | _ => true end.
Definition swapping f a P : Prop :=
  exists tr off v r, d_fut a = FReady tr /\ f_s f = overlay (f_m f) tr off v r a /\ side (f_m f) tr off v a /\
    waits (f_m f) a v r P.
Definition rel (f : fstate) (a : state) (P : list (event * obs)) : Prop :=
  (f_seen f = true -> d_traj (f_s f) <> None) /\
  match f_m f with
  | MIdle => a = f_s f /\ P = []
  | MEval t l => a = f_s f /\ P = [] /\ l = t - p_gtl (d_par a) /\ d_traj a <> None
  | _ => swapping f a P
  end.
Definition waiting (m : micro) : list (event * obs) := match m with MEval t _ => [(Eval t, Quiet)] | _ => [] end.

(** Steps of others do not touch what the swap reads. *)
Record keeps (a a' : state) : Prop := mkKeeps {
  k_fut : d_fut a' = d_fut a;
  k_scratch : d_scratch a' = d_scratch a;
  k_vehicle : d_vehicle a' = d_vehicle a;
  k_traj : d_traj a' = d_traj a;
  k_dyn : d_dyn a' = d_dyn a;
  k_tc : d_tc a' = d_tc a;
  k_global : p_global (d_par a') = p_global (d_par a);
  k_local : p_local (d_par a') = p_local (d_par a);
  k_off : p_off (d_par a') = p_off (d_par a);
  k_gtl : p_gtl (d_new a') = p_gtl (d_new a) }.
Lemma keeps_target a a' : keeps a a' -> swap_target a' = swap_target a.
Proof. intros [A B C D E F G H I J]. unfold swap_target. now rewrite B, C, D, E, G, H, I. Qed.
Lemma keeps_dist tr q a a' : keeps a a' -> dist_of tr q a' = dist_of tr q a.
Proof. intros [A B C D E F G H I J]. unfold dist_of. now rewrite E, J. Qed.
Lemma keeps_offset tr q a a' : keeps a a' -> fit_offset tr q a' = fit_offset tr q a.
Proof. intros [A B C D E F G H I J]. unfold fit_offset. now rewrite E, F, G, J. Qed.
Lemma keeps_side m tr off v a a' : keeps a a' -> side m tr off v a -> side m tr off v a'.
Proof.
  intros K. pose proof (keeps_target _ _ K) as ET. pose proof (fun q => keeps_dist tr q _ _ K) as ED.
  pose proof (fun q => keeps_offset tr q _ _ K) as EO.
  destruct m; cbn; try tauto; try (rewrite ET; setoid_rewrite ED || idtac).
  - destruct K. intuition congruence.
  - destruct K. intuition congruence.
  - tauto.
  - rewrite (k_tc _ _ K). tauto.
  - rewrite (k_tc _ _ K). intros (E & q & H1 & H2). split; auto. exists q. auto.
  - intros (E & q & H1 & H2). split; auto. exists q. rewrite EO. auto.
  - intros (E & q & H1 & H2). split; auto. exists q. rewrite EO. auto.
  - intros (E & q & H1 & H2). split; auto. exists q. rewrite EO. auto.
  - intros (q & H1 & H2). exists q. rewrite EO. auto.
  - intros (q & H1 & H2). exists q. rewrite EO. auto.
  - intros (q & H1 & H2). exists q. rewrite EO. auto.
Qed.
Lemma keeps_waits m a a' v r P : keeps a a' -> waits m a v r P -> waits m a' v r P.
Proof. intros K. unfold waits. rewrite (k_vehicle _ _ K). auto. Qed.

Definition sensor (e : event) : bool := match e with Vehicle _ | GetRegenerated => true | _ => false end.
Lemma overlay_other m tr off v r a e s' o : in_swap m = true -> others e = true -> sensor e = false ->
  step (overlay m tr off v r a) e = Ok s' o ->
  exists a', step a e = Ok a' o /\ s' = overlay m tr off v r a' /\ keeps a a' /\ d_traj s' = d_traj (overlay m tr off v r a).
Proof.
  intros HM HO HS H.
  destruct e; try discriminate HO; try discriminate HS;
  destruct m; try discriminate HM; cbn in H |- *; unfold todo_locked in *; cbn in H |- *;
  try discriminate H;
  try (destruct (moving (d_pc a)); [discriminate H|]);
  injection H as <- <-; eexists; (split; [reflexivity|split; [reflexivity|split; [constructor; reflexivity|reflexivity]]]).
Qed.

(** The background thread during a swap. *)
Definition calm (p : pc) : bool := match p with PTop | PZone | PComp | PEmpty | PClear | PElse | PExit => true | _ => false end.
Lemma ready_calm a tr : inv a -> d_fut a = FReady tr -> calm (d_pc a) = true.
Proof.
  intros I H. assert (HC : d_computing a = true) by (apply (inv_computing a I); congruence).
  pose proof (i_prep a I) as HPr. pose proof (i_async a I) as HA. unfold preparing in HPr.
  destruct (d_pc a) eqn:E; cbn; auto; exfalso;
    first [ rewrite HA in H by reflexivity; discriminate | rewrite HPr in HC by eauto 12; discriminate ].
Qed.
Lemma overlay_back m tr off v r a s' o : in_swap m = true -> calm (d_pc a) = true -> d_computing a = true -> d_pc a <> PZone ->
  back_step (overlay m tr off v r a) = Ok s' o ->
  exists a', back_step a = Ok a' o /\ s' = overlay m tr off v r a' /\ keeps a a' /\
    d_traj s' = d_traj (overlay m tr off v r a) /\ o = Quiet.
Proof.
  intros HM HC HCo HZ H.
  assert (EP : d_pc (overlay m tr off v r a) = d_pc a) by (destruct m; reflexivity).
  unfold back_step in *. rewrite EP in H.
  destruct (d_pc a) eqn:EPC; try discriminate HC; try congruence; clear EP;
  destruct m; try discriminate HM; cbn in H |- *; rewrite ?HCo in *;
  try (destruct (d_stop a); [|destruct (d_flag a)]);
  try (destruct (d_mod a));
  injection H as <- <-; eexists; (split; [reflexivity|split; [reflexivity|split; [constructor; reflexivity|split; reflexivity]]]).
Qed.

(** What a step of the simulation has to deliver. *)
Definition delivers (f f' : fstate) (a : state) (P : list (event * obs)) (x : fevent * obs) : Prop :=
  exists h a' P', run post a h a' /\ rel f' a' P' /\
    filter is_request h = filter is_request (as_event x) /\
    filter is_report h ++ filter is_report P' = filter is_report P ++ filter is_report (as_event x) /\
    filter is_query h ++ filter is_query P' = filter is_query P ++ filter is_query (as_event x) /\
    filter is_evaluation h ++ waiting (f_m f') = waiting (f_m f) ++ filter is_evaluation (as_event x).

Lemma run1 a e o a' : event_ok post a e -> step a e = Ok a' o -> run post a [(e, o)] a'.
Proof. intros. econstructor; eauto. constructor. Qed.
Lemma run_end s h s' e o s'' : run post s h s' -> event_ok post s' e -> step s' e = Ok s'' o -> run post s (h ++ [(e, o)]) s''.
Proof. intros R E S. eapply run_app; [exact R|]. now apply run1. Qed.
Lemma traj_step a e o a' : event_ok post a e -> step a e = Ok a' o -> d_traj a <> None -> d_traj a' <> None.
Proof. intros E S. exact (traj_stays post _ _ _ (run1 _ _ _ _ E S)). Qed.

(** Between calls and inside evaluateTrajectory every other event is the one of DynModel. *)
Lemma quiet_other (f : fstate) e s' o P : in_swap (f_m f) = false -> others e = true -> rel f (f_s f) P ->
  event_ok post (f_s f) e -> step (f_s f) e = Ok s' o -> delivers f (mkF s' (f_m f) (f_seen f)) (f_s f) P (Call e, o).
Proof.
  intros HM HO [RS RM] HE H.
  assert (HPn : P = []) by (destruct (f_m f); try discriminate HM; tauto). subst P.
  exists [(e, o)], s', []. split; [now apply run1|]. split.
  - split; cbn.
    + intros X. eapply traj_step; eauto.
    + destruct (f_m f) eqn:EM; try discriminate HM; auto.
      destruct RM as (_ & _ & RL & RT). split; [auto|]. split; [auto|]. split; [|eapply traj_step; eauto].
      rewrite RL. f_equal. destruct e; try discriminate HO; cbn in H; unfold comp_speed, comp_done, comp_throw in H;
        repeat match type of H with context [match ?x with _ => _ end] => destruct x; try discriminate H end;
        injection H as <- _; reflexivity.
  - cbn. rewrite !app_nil_r. repeat (split; [reflexivity|]).
    destruct e; try discriminate HO; cbn; rewrite ?app_nil_r; reflexivity.
Qed.
Lemma back_par s s' o : back_step s = Ok s' o -> d_par s' = d_par s.
Proof.
  unfold back_step. destruct (d_pc s) as [| | | | | | | | | | | | | |[|m ms] i|]; intros H;
  repeat match type of H with context [match ?x with _ => _ end] => destruct x; try discriminate H end;
  try discriminate H; injection H as <- _; reflexivity.
Qed.
Lemma back_filters o : o = Quiet \/ o = Launched \/ o = Moved ->
  filter is_report [(Back, o)] = [] /\ filter is_query [(Back, o)] = [] /\ filter is_evaluation [(Back, o)] = [].
Proof. intros [->|[->| ->]]; auto. Qed.
Lemma quiet_back (f : fstate) f' o P : in_swap (f_m f) = false -> rel f (f_s f) P ->
  fine_back f = FOk f' o -> delivers f f' (f_s f) P (Call Back, o).
Proof.
  intros HM [RS RM] H.
  assert (HPn : P = []) by (destruct (f_m f); try discriminate HM; tauto). subst P.
  assert (K : forall s' o', back_step (f_s f) = Ok s' o' -> forall z, (z = true -> d_traj s' <> None) ->
                delivers f (mkF s' (f_m f) z) (f_s f) [] (Call Back, o')).
  { intros s' o' HB z Hz. exists [(Back, o')], s', []. split; [now apply run1|]. split; [split; [exact Hz|]|].
    - cbn. destruct (f_m f) eqn:EM; try discriminate HM; auto. destruct RM as (_ & _ & RL & RT).
      rewrite (back_par _ _ _ HB). repeat (split; auto). eapply (traj_step _ Back); [exact I|exact HB|exact RT].
    - cbn. rewrite !app_nil_r. auto. }
  unfold fine_back in H.
  destruct (d_pc (f_s f)) eqn:EP;
  lazymatch goal with
  | _ : d_pc (f_s f) = PZone |- _ => idtac
  | _ => destruct (back_step (f_s f)) as [s' o'| | |] eqn:EB; try discriminate H; injection H as <- <-;
         apply K; [reflexivity|]; intros X; eapply (traj_step _ Back); [exact I|exact EB|exact (RS X)]
  end.
  destruct (f_seen f) eqn:ES.
  - injection H as <- <-. apply K; [|discriminate].
    unfold back_step, in_zone, zone_rest. rewrite EP. destruct (d_traj (f_s f)); [reflexivity|]. now exfalso; apply RS.
  - destruct (d_traj (f_s f)) eqn:ET.
    + injection H as <- <-. exists [], (f_s f), []. split; [constructor|]. split; [|cbn; rewrite ?app_nil_r; auto].
      split; cbn; [rewrite ET; discriminate|].
      destruct (f_m f); try discriminate HM; auto. rewrite ET. exact RM.
    + injection H as <- <-. apply K; [|discriminate].
      unfold back_step, in_zone. now rewrite EP, ET.
Qed.

(** During a swap. *)
Lemma rel_swapping (f : fstate) a P : in_swap (f_m f) = true ->
  rel f a P <-> ((f_seen f = true -> d_traj (f_s f) <> None) /\ swapping f a P).
Proof. intros HM. unfold rel. destruct (f_m f); try discriminate HM; tauto. Qed.
Lemma waiting_swap m : in_swap m = true -> waiting m = [].
Proof. destruct m; cbn; congruence. Qed.

Lemma swap_other (f : fstate) a e s' o P : in_swap (f_m f) = true -> others e = true -> sensor e = false -> rel f a P ->
  event_ok post (f_s f) e -> step (f_s f) e = Ok s' o -> delivers f (mkF s' (f_m f) (f_seen f)) a P (Call e, o).
Proof.
  intros HM HO HS RL HE H. apply rel_swapping in RL; [|exact HM]. destruct RL as [RS (tr & off & v & r & HF & EF & SD & W)].
  rewrite EF in H. destruct (overlay_other _ _ _ _ _ _ _ _ _ HM HO HS H) as (a' & Ha & -> & K & ET).
  exists [(e, o)], a', P. split; [apply run1; auto|].
  { destruct e; try discriminate HO; try discriminate HS; cbn in *; auto;
      unfold comp_speed, comp_done, comp_throw in Ha; rewrite HF in Ha; discriminate Ha. }
  split.
  - apply rel_swapping; [exact HM|]. split; [cbn [f_s f_seen]; rewrite ET, <- EF; exact RS|].
    exists tr, off, v, r. cbn. split; [rewrite (k_fut _ _ K); exact HF|]. split; [reflexivity|].
    split; [eapply keeps_side; eauto|eapply keeps_waits; eauto].
  - cbn [as_event f_m]. rewrite (waiting_swap _ HM), app_nil_r.
    destruct e; try discriminate HO; try discriminate HS; cbn; rewrite ?app_nil_r; auto.
Qed.
Lemma swap_back (f : fstate) a f' o P : in_swap (f_m f) = true -> inv a -> rel f a P ->
  fine_back f = FOk f' o -> delivers f f' a P (Call Back, o).
Proof.
  intros HM IV RL H. apply rel_swapping in RL; [|exact HM]. destruct RL as [RS (tr & off & v & r & HF & EF & SD & W)].
  pose proof (ready_calm a tr IV HF) as CA.
  assert (CO : d_computing a = true) by (apply (inv_computing a IV); congruence).
  assert (EP : d_pc (f_s f) = d_pc a) by (rewrite EF; reflexivity).
  assert (K : forall e a' z s', step a e = Ok a' Quiet -> event_ok post a e -> s' = overlay (f_m f) tr off v r a' -> keeps a a' ->
      (z = true -> d_traj s' <> None) -> (e = Back \/ exists b, e = BackTorn b) ->
      delivers f (mkF s' (f_m f) z) a P (Call Back, Quiet)).
  { intros e a' z s' Ha HE -> KK Hz He. exists [(e, Quiet)], a', P. split; [now apply run1|]. split.
    - apply rel_swapping; [exact HM|]. split; [exact Hz|].
      exists tr, off, v, r. cbn. split; [rewrite (k_fut _ _ KK); exact HF|]. split; [reflexivity|].
      split; [eapply keeps_side; eauto|eapply keeps_waits; eauto].
    - cbn [as_event f_m]. rewrite (waiting_swap _ HM), !app_nil_r.
      destruct He as [->|(b & ->)]; cbn; rewrite ?app_nil_r; auto. }
  unfold fine_back in H. rewrite EP in H.
  destruct (d_pc a) eqn:EA; try discriminate CA;
  lazymatch goal with
  | _ : d_pc a = PZone |- _ => idtac
  | _ => destruct (back_step (f_s f)) as [s' o'| | |] eqn:EB; try discriminate H; injection H as <- <-;
         rewrite EF in EB; rewrite <- EA in CA;
         destruct (overlay_back _ _ _ _ _ _ _ _ HM CA CO ltac:(congruence) EB) as (a' & B1 & B2 & B3 & B4 & ->);
         apply (K Back a'); auto; [exact I|]; intros X; rewrite B4, <- EF; auto
  end.
  destruct (f_seen f) eqn:ES.
  - injection H as <- <-.
    apply (K (BackTorn (zone_rest (f_s f))) (set_pc (if zone_rest (f_s f) then PElse else PComp) a)).
    + cbn. unfold back_torn. now rewrite EA, HF, CO.
    + exact I.
    + generalize (zone_rest (f_s f)). intros b. rewrite EF. destruct (f_m f); reflexivity.
    + constructor; reflexivity.
    + discriminate.
    + eauto.
  - destruct (d_traj (f_s f)) eqn:ET.
    + injection H as <- <-. exists [], a, P. split; [constructor|]. split; [|cbn; rewrite ?app_nil_r; rewrite (waiting_swap _ HM); auto].
      apply rel_swapping; [exact HM|]. split; [cbn; rewrite ET; discriminate|]. exists tr, off, v, r. auto.
    + injection H as <- <-. apply (K Back (set_pc PComp a)).
      * cbn. unfold back_step, in_zone. rewrite EA.
        assert (ETa : d_traj a = None).
        { rewrite EF in ET. destruct (f_m f); cbn in ET; try discriminate ET; exact ET. }
        now rewrite ETa.
      * exact I.
      * rewrite EF. destruct (f_m f); reflexivity.
      * constructor; reflexivity.
      * discriminate.
      * auto.
Qed.
Lemma reports_query P : reports P -> filter is_query P = [].
Proof. induction 1 as [|[e o] P H _ IH]; [reflexivity|]. cbn. destruct e; try discriminate H. exact IH. Qed.
Lemma reports_sensors P : reports P -> sensors P.
Proof. apply Forall_impl. intros x ->. reflexivity. Qed.
Lemma sensors_filters P : sensors P -> filter is_request P = [] /\ filter is_evaluation P = [].
Proof.
  induction 1 as [|[e o] P H _ IH]; [auto|]. cbn. destruct e; try discriminate H; exact IH.
Qed.
Lemma sensor_ok e x : sensor e = true -> event_ok post x e.
Proof. destruct e; cbn; auto; discriminate. Qed.

Lemma swap_vehicle (f : fstate) a p P : in_swap (f_m f) = true -> rel f a P ->
  delivers f (mkF (set_vehicle p (f_s f)) (f_m f) (f_seen f)) a P (Call (Vehicle p), Quiet).
Proof.
  intros HM RL. apply rel_swapping in RL; [|exact HM]. destruct RL as [RS (tr & off & v & r & HF & EF & SD & W)].
  destruct (early (f_m f)) eqn:EE.
  - assert (HPn : P = []) by (unfold waits in W; now rewrite EE in W). subst P.
    exists [(Vehicle p, Quiet)], (set_vehicle p a), []. split; [apply run1; [exact I|reflexivity]|]. split.
    + apply rel_swapping; [exact HM|]. split; [exact RS|]. exists tr, off, p, r. cbn [f_m f_s].
      split; [exact HF|]. split; [rewrite EF; destruct (f_m f); reflexivity|].
      split; [|unfold waits; now rewrite EE].
      destruct (f_m f); try discriminate EE; cbn in *; intuition auto.
    + cbn. now rewrite (waiting_swap _ HM).
  - exists [], a, (P ++ [(Vehicle p, Quiet)]). split; [constructor|]. split.
    + apply rel_swapping; [exact HM|]. split; [exact RS|]. exists tr, off, p, r. cbn [f_m f_s].
      split; [exact HF|]. split; [rewrite EF; destruct (f_m f); reflexivity|]. split.
      * destruct (f_m f); try discriminate EE; cbn in *; tauto.
      * unfold waits in *. rewrite EE in *.
        assert (PE : forall r0 r1, pending P (d_vehicle a) v r0 r1 -> pending (P ++ [(Vehicle p, Quiet)]) (d_vehicle a) p r0 r1).
        { intros r0 r1 HPe x X1 X2. eapply run_end; [exact (HPe x X1 X2)|exact I|reflexivity]. }
        destruct (regen_done (f_m f)); destruct W as [W1 W2]; (split; [apply Forall_app; split; auto|auto]).
    + cbn. rewrite !filter_app, (waiting_swap _ HM). cbn. now rewrite !app_nil_r.
Qed.
Lemma swap_query (f : fstate) a P : in_swap (f_m f) = true -> rel f a P ->
  delivers f (mkF (set_regen false (f_s f)) (f_m f) (f_seen f)) a P (Call GetRegenerated, Bool (d_regen (f_s f))).
Proof.
  intros HM RL. apply rel_swapping in RL; [|exact HM]. destruct RL as [RS (tr & off & v & r & HF & EF & SD & W)].
  destruct (regen_done (f_m f)) eqn:ER.
  - assert (EE : early (f_m f) = false) by (destruct (f_m f); try discriminate ER; reflexivity).
    unfold waits in W. rewrite EE, ER in W. destruct W as [W1 W2].
    assert (Er : d_regen (f_s f) = r) by (rewrite EF; destruct (f_m f); try discriminate ER; reflexivity).
    exists [], a, (P ++ [(GetRegenerated, Bool r)]). split; [constructor|]. split.
    + apply rel_swapping; [exact HM|]. split; [exact RS|]. exists tr, off, v, false. cbn [f_m f_s].
      split; [exact HF|]. split; [rewrite EF; destruct (f_m f); try discriminate ER; reflexivity|]. split.
      * destruct (f_m f); try discriminate ER; cbn in *; tauto.
      * unfold waits. rewrite EE, ER. split; [apply Forall_app; split; auto|].
        intros x X1 X2. eapply run_end; [exact (W2 x X1 X2)|exact I|reflexivity].
    + rewrite Er. cbn. rewrite !filter_app, (waiting_swap _ HM). cbn. now rewrite !app_nil_r.
  - assert (Er : d_regen (f_s f) = d_regen a) by (rewrite EF; destruct (f_m f); try discriminate ER; reflexivity).
    exists [(GetRegenerated, Bool (d_regen a))], (set_regen false a), P.
    split; [apply run1; [exact I|reflexivity]|]. split.
    + apply rel_swapping; [exact HM|]. split; [exact RS|]. exists tr, off, v, r. cbn [f_m f_s].
      split; [exact HF|]. split; [rewrite EF; destruct (f_m f); try discriminate ER; reflexivity|]. split.
      * eapply keeps_side; [|exact SD]. constructor; reflexivity.
      * unfold waits in *. rewrite ER in *. exact W.
    + assert (EQ : filter is_query P = []).
      { unfold waits in W. rewrite ER in W. destruct (early (f_m f)); [now subst P|]. apply reports_query. apply W. }
      rewrite Er. cbn. rewrite EQ, (waiting_swap _ HM). cbn. now rewrite !app_nil_r.
Qed.

(** A step of the swap. *)
Lemma pending_nil v0 r0 : pending [] v0 v0 r0 r0.
Proof. intros x <- <-. destruct x. constructor. Qed.
Lemma swap_next (f : fstate) a f' o P : in_swap (f_m f) = true -> inv a -> rel f a P ->
  fine_next f = FOk f' o -> delivers f f' a P (Next, o).
Proof.
  intros HM IV RL H. apply rel_swapping in RL; [|exact HM]. destruct RL as [RS (tr & off & v & r & HF & EF & SD & W)].
  assert (CO : d_computing a = true) by (apply (inv_computing a IV); congruence).
  assert (K : forall s' m' off' r', f' = mkF s' m' (f_seen f) -> o = Quiet -> in_swap m' = true ->
      (d_traj (f_s f) <> None -> d_traj s' <> None) ->
      s' = overlay m' tr off' v r' a -> side m' tr off' v a -> waits m' a v r' P -> delivers f f' a P (Next, o)).
  { intros s' m' off' r' -> -> HM' HT -> SD' W'. exists [], a, P. split; [constructor|]. split.
    - apply rel_swapping; [exact HM'|]. split; [intros X; apply HT, RS, X|]. exists tr, off', v, r'. auto.
    - cbn. rewrite !app_nil_r, (waiting_swap _ HM), (waiting_swap _ HM'). auto. }
  unfold fine_next in H. destruct (f_m f) eqn:EM; try discriminate HM; cbn [side] in SD; cbn [waits early regen_done] in W.
  - destruct SD as [-> ->].
    assert (ES : d_scratch (f_s f) = d_scratch a) by (rewrite EF; reflexivity). rewrite ES in H.
    destruct (d_scratch a) eqn:ESa; injection H as <- <-.
    + refine (K (f_s f) _ off r eq_refl eq_refl eq_refl (fun X => X) EF _ _).
      * split; [reflexivity|]. unfold swap_target. rewrite ESa, EF. reflexivity.
      * cbn. subst P. split; [constructor|]. intros. apply pending_nil.
    + refine (K (f_s f) _ off r eq_refl eq_refl eq_refl (fun X => X) EF _ W).
      rewrite EF. cbn. auto.
  - destruct SD as (-> & -> & ES & -> & ->).
    destruct (d_traj (f_s f)) as [old|] eqn:ET; [|discriminate H]. injection H as <- <-.
    refine (K (f_s f) _ off r eq_refl eq_refl eq_refl _ EF _ _).
    + rewrite ET. auto.
    + split; [reflexivity|]. unfold swap_target. rewrite EF in ET |- *. cbn in ET |- *. now rewrite ES, ET.
    + cbn. subst P. split; [constructor|]. intros. apply pending_nil.
  - destruct SD as (-> & SD). injection H as <- <-.
    refine (K (f_s f) _ off r eq_refl eq_refl eq_refl (fun X => X) EF _ W).
    rewrite EF. cbn. auto.
  - destruct SD as (-> & SD1 & SD2).
    assert (E1 : d_tc (f_s f) = d_tc a) by (rewrite EF; reflexivity).
    assert (E2 : fit_distance tr (d_dyn (f_s f)) (p_gtl (d_new (f_s f))) q = dist_of tr q a) by (rewrite EF; reflexivity).
    rewrite E1, E2 in H.
    destruct fuel as [|n]; cbn [fit_loop] in SD2.
    + injection H as <- <-. refine (K (f_s f) _ off r eq_refl eq_refl eq_refl (fun X => X) EF _ W).
      split; [reflexivity|]. exists q. auto.
    + destruct (Rltb t (3 / 2 * computation_time (d_tc a))).
      * destruct (Rleb (dist_of tr q a t) best_d); injection H as <- <-;
        (refine (K (f_s f) _ off r eq_refl eq_refl eq_refl (fun X => X) EF _ W); cbn [side]; auto).
      * injection H as <- <-. refine (K (f_s f) _ off r eq_refl eq_refl eq_refl (fun X => X) EF _ W).
        split; [reflexivity|]. exists q. auto.
  - destruct SD as (-> & q & SD1 & ->). injection H as <- <-.
    refine (K _ _ (fit_offset tr q a) r eq_refl eq_refl eq_refl (fun X => X) _ _ W).
    + rewrite EF. reflexivity.
    + split; [reflexivity|]. eauto.
  - destruct SD as (-> & SD). injection H as <- <-.
    refine (K _ _ off r eq_refl eq_refl eq_refl (fun X => X) _ _ W); [rewrite EF; reflexivity|]. split; auto.
  - destruct SD as (-> & SD). injection H as <- <-.
    refine (K _ _ off r eq_refl eq_refl eq_refl (fun X => X) _ _ W); [rewrite EF; reflexivity|]. split; auto.
  - destruct SD as (-> & SD). injection H as <- <-.
    refine (K _ _ off r eq_refl eq_refl eq_refl _ _ SD W); [discriminate|rewrite EF; reflexivity].
  - injection H as <- <-. destruct W as [W1 W2].
    refine (K _ _ off true eq_refl eq_refl eq_refl (fun X => X) _ SD _); [rewrite EF; reflexivity|].
    cbn. split; [now apply reports_sensors|auto].
  - injection H as <- <-.
    refine (K _ _ off r eq_refl eq_refl eq_refl (fun X => X) _ SD W). rewrite EF; reflexivity.
  - injection H as <- <-. destruct SD as (q & SD1 & ->). destruct W as [W1 W2].
    destruct (sensors_filters P W1) as [F1 F2].
    set (x := set_late (S (d_late a)) (set_computing false (set_dyn (map wp_copy (d_next a))
             (set_regen true (set_traj (Some tr) (set_par (par_off (fit_offset tr q a) (d_new a))
               (set_new (par_off (fit_offset tr q a) (d_new a)) (set_scratch false (set_fut FNone a))))))))).
    exists ((Poll, Swapped) :: P), (set_vehicle v (set_regen r x)), []. split; [|split].
    + apply run_cons with x; [exact I| |apply W2; reflexivity].
      cbn. unfold do_poll. rewrite (i_unlocked a IV), HF, CO.
      assert (ED : do_swap tr a = Some x).
      { unfold do_swap. change (match swap_target a with
          | Some q0 => Some (set_late (S (d_late a)) (set_computing false (set_dyn (map wp_copy (d_next a))
             (set_regen true (set_traj (Some tr) (set_par (par_off (fit_offset tr q0 a) (d_new a))
               (set_new (par_off (fit_offset tr q0 a) (d_new a)) (set_scratch false (set_fut FNone a)))))))))
          | None => None end = Some x). now rewrite SD1. }
      rewrite ED. destruct (d_traj a); reflexivity.
    + split; [exact RS|]. cbn. split; [rewrite EF; reflexivity|reflexivity].
    + cbn. rewrite F1, F2, !app_nil_r, EM. auto.
Qed.
Lemma eval_next (f : fstate) a f' o P t l : f_m f = MEval t l -> rel f a P -> fine_next f = FOk f' o -> delivers f f' a P (Next, o).
Proof.
  intros EM [RS RM] H. rewrite EM in RM. destruct RM as (-> & -> & -> & RT).
  unfold fine_next in H. rewrite EM in H. injection H as <- <-.
  eexists [(Eval t, Quiet)], _, []. split; [apply run1; [exact RT|cbn; destruct (d_traj (f_s f)); [reflexivity|now exfalso; apply RT]]|].
  split; [split; [exact RS|split; reflexivity]|]. cbn. rewrite EM. auto.
Qed.

Lemma simulation f a P e o f' : inv a -> rel f a P -> fine_ok post f e -> fine_step f e = FOk f' o -> delivers f f' a P (e, o).
Proof.
  intros IV RL HE H.
  destruct e as [e| | |].
  - assert (HO : forall s' o', others e = true -> event_ok post (f_s f) e -> step (f_s f) e = Ok s' o' ->
                   delivers f (mkF s' (f_m f) (f_seen f)) a P (Call e, o')).
    { intros s' o' HO HE' Hs. destruct (in_swap (f_m f)) eqn:HM.
      - destruct (sensor e) eqn:HS; [|now apply swap_other].
        destruct e; try discriminate HS; cbn in Hs; injection Hs as <- <-; [now apply swap_vehicle|now apply swap_query].
      - assert (a = f_s f) by (unfold rel in RL; destruct (f_m f); try discriminate HM; tauto). subst a.
        now apply quiet_other. }
    assert (HOf : forall x, others e = true -> (if others e then lift f (step (f_s f) e) else FBlocked) = x ->
                  x = FOk f' o -> delivers f f' a P (Call e, o)).
    { intros x HO' <- Hx. rewrite HO' in Hx. unfold lift in Hx. destruct (step (f_s f) e) eqn:ES; try discriminate Hx.
      injection Hx as <- <-. apply HO; auto. }
    assert (HI : f_m f = MIdle -> a = f_s f /\ P = []) by (intros EM; unfold rel in RL; rewrite EM in RL; tauto).
    destruct e; try discriminate H; try (eapply HOf; [reflexivity|reflexivity|exact H]); clear HOf HO; cbn [fine_step] in H.
    + destruct (f_m f) eqn:EM; try discriminate H. destruct (no_result (f_s f)) eqn:EN; [|discriminate H].
      destruct (HI eq_refl) as [-> ->]. unfold lift in H. destruct (step (f_s f) Poll) as [s' o'| | |] eqn:ES; try discriminate H.
      injection H as <- <-. exists [(Poll, o')], s', []. split; [apply run1; [exact I|exact ES]|]. split.
      * split; cbn; [intros X; eapply (traj_step _ Poll); [exact I|exact ES|now apply RL]|]. rewrite EM. auto.
      * cbn. rewrite EM. auto.
    + destruct (f_m f) eqn:EM; try discriminate H.
      destruct (HI eq_refl) as [-> ->]. unfold lift in H. destruct (step (f_s f) PollEnd) as [s' o'| | |] eqn:ES; try discriminate H.
      injection H as <- <-. exists [(PollEnd, o')], s', []. split; [apply run1; [exact I|exact ES]|]. split.
      * split; cbn; [intros X; eapply (traj_step _ PollEnd); [exact I|exact ES|now apply RL]|]. rewrite EM. auto.
      * cbn. rewrite EM. auto.
    + destruct (in_swap (f_m f)) eqn:HM; [now apply swap_back|].
      assert (a = f_s f) by (unfold rel in RL; destruct (f_m f); try discriminate HM; tauto). subst a.
      now apply quiet_back.
  - cbn [fine_step] in H. destruct (f_m f) eqn:EM; try discriminate H.
    destruct (d_fut (f_s f)) as [| | |tr|] eqn:EFu; try discriminate H.
    destruct (d_computing (f_s f) && negb (d_fut_locked (f_s f))) eqn:EC; [|discriminate H]. injection H as <- <-.
    unfold rel in RL. rewrite EM in RL. destruct RL as [RS [-> ->]].
    exists [], (f_s f), []. split; [constructor|]. split; [|cbn; rewrite EM; auto].
    split; [exact RS|]. exists tr, 0, (d_vehicle (f_s f)), true. cbn. auto.
  - cbn [fine_step] in H. destruct (f_m f) eqn:EM; try discriminate H.
    unfold rel in RL. rewrite EM in RL. destruct RL as [RS [-> ->]].
    destruct (d_traj (f_s f)) as [tr|] eqn:ET; [|discriminate H]. injection H as <- <-.
    exists [], (f_s f), []. split; [constructor|]. split; [|cbn; rewrite EM; auto].
    split; cbn; rewrite ET; [discriminate|]. repeat split; auto. discriminate.
  - cbn [fine_step] in H. destruct (in_swap (f_m f)) eqn:HM; [now apply swap_next|].
    destruct (f_m f) eqn:EM; try discriminate HM; [unfold fine_next in H; rewrite EM in H; discriminate H|].
    eapply eval_next; eauto.
Qed.

Lemma refine junk h f : frun post (finit junk) h f -> exists h' a P, run post (init junk) h' a /\ rel f a P /\
  filter is_request h' = filter is_request (as_events h) /\
  filter is_report h' ++ filter is_report P = filter is_report (as_events h) /\
  filter is_query h' ++ filter is_query P = filter is_query (as_events h) /\
  filter is_evaluation h' ++ waiting (f_m f) = filter is_evaluation (as_events h).
Proof.
  intros R. remember (finit junk) as f0 eqn:E0. induction R as [f|f h f1 e o f2 R IH HE HS]; subst.
  - exists [], (init junk), []. split; [constructor|]. split; [|auto]. split; cbn; [discriminate|auto].
  - destruct (IH eq_refl) as (h1 & a & P & R1 & RL & A1 & A2 & A3 & A4).
    assert (IV : inv a) by (eapply run_inv; [exact HP|apply inv_init|exact R1]).
    destruct (simulation _ _ _ _ _ _ IV RL HE HS) as (h2 & a' & P' & R2 & RL' & B1 & B2 & B3 & B4).
    exists (h1 ++ h2), a', P'. split; [eapply run_app; eauto|]. split; [exact RL'|].
    unfold as_events. rewrite !flat_map_app, !filter_app. cbn [flat_map]. rewrite app_nil_r.
    fold (as_events h). rewrite <- !app_assoc, A1, B1, B2, B3, B4, !app_assoc, A2, A3, A4. auto.
Qed.
End Sim.

(** The swap on its own. *)
Section Real.
Variable post : list vertex -> trajectory -> Prop.
Lemma frun_trans f1 h1 f2 : frun post f1 h1 f2 -> forall h2 f3, frun post f2 h2 f3 -> frun post f1 (h1 ++ h2) f3.
Proof.
  intros R1 h2 f3 R2. induction R2 as [f|f h f1' e o f2' R IH HE HS].
  - now rewrite app_nil_r.
  - rewrite app_assoc. econstructor; eauto.
Qed.
Lemma frun1 f e o f' : fine_ok post f e -> fine_step f e = FOk f' o -> frun post f [(e, o)] f'.
Proof. intros HE HS. apply (frun_snoc _ _ [] f e o f'); auto. constructor. Qed.
Lemma frun_cons f e o f1 h f2 : fine_ok post f e -> fine_step f e = FOk f1 o -> frun post f1 h f2 -> frun post f ((e, o) :: h) f2.
Proof. intros HE HS R. apply (frun_trans f [(e, o)] f1); [now apply frun1|exact R]. Qed.
Lemma loop_solo tr q z : forall n s t best bd, exists h,
  frun post (mkF s (MLoop tr q n t best bd) z) h
    (mkF s (MOff tr (fit_loop n (dist_of tr q s) STEP (3 / 2 * computation_time (d_tc s)) t best bd)) z) /\ as_events h = [].
Proof.
  induction n as [|n IH]; intros s t best bd.
  - exists [(Next, Quiet)]. split; [apply frun1; [exact I|reflexivity]|reflexivity].
  - cbn [fit_loop]. destruct (Rltb t (3 / 2 * computation_time (d_tc s))) eqn:E1.
    + destruct (Rleb (dist_of tr q s t) bd) eqn:E2.
      * destruct (IH s (t + STEP) t (dist_of tr q s t)) as (h & R & A). exists ((Next, Quiet) :: h). split; [|exact A].
        eapply frun_cons; [exact I| |exact R]. cbn. rewrite E1. unfold dist_of in E2. now rewrite E2.
      * destruct (IH s (t + STEP) best bd) as (h & R & A). exists ((Next, Quiet) :: h). split; [|exact A].
        eapply frun_cons; [exact I| |exact R]. cbn. rewrite E1. unfold dist_of in E2. now rewrite E2.
    + exists [(Next, Quiet)]. split; [|reflexivity]. apply frun1; [exact I|]. cbn. now rewrite E1.
Qed.
Lemma off_solo s z tr q : d_fut s = FReady tr -> d_computing s = true -> d_fut_locked s = false -> swap_target s = Some q ->
  exists h, frun post (mkF s MIdle z) h (mkF (set_fut FNone s) (MOff tr (fit_min_time (dist_of tr q s) (d_tc s))) z) /\
    as_events h = [].
Proof.
  intros HF HC HL HT.
  destruct (loop_solo tr q z (fit_samples STEP (3 / 2 * computation_time (d_tc s))) (set_fut FNone s) STEP 0 (dist_of tr q s 0)) as (h & R & A).
  unfold swap_target in HT. destruct (d_scratch s) eqn:ES.
  - injection HT as <-. exists ((Begin, Quiet) :: (Next, Quiet) :: (Next, Quiet) :: h). split; [|exact A].
    eapply frun_cons; [exact I|cbn; rewrite HF, HC, HL; reflexivity|].
    eapply frun_cons; [exact I|cbn; rewrite ES; reflexivity|].
    eapply frun_cons; [exact I|reflexivity|exact R].
  - destruct (d_traj s) as [old|] eqn:ETr; [|discriminate HT]. injection HT as <-.
    exists ((Begin, Quiet) :: (Next, Quiet) :: (Next, Quiet) :: (Next, Quiet) :: h). split; [|exact A].
    eapply frun_cons; [exact I|cbn; rewrite HF, HC, HL; reflexivity|].
    eapply frun_cons; [exact I|cbn; rewrite ES; reflexivity|].
    eapply frun_cons; [exact I|cbn; rewrite ETr; reflexivity|].
    eapply frun_cons; [exact I|reflexivity|exact R].
Qed.
Lemma swap_is tr s : do_swap tr s = match swap_target s with
  | Some q => Some (set_late (S (d_late s)) (set_computing false (set_dyn (map wp_copy (d_next s))
      (set_regen true (set_traj (Some tr) (set_par (par_off (fit_offset tr q s) (d_new s))
        (set_new (par_off (fit_offset tr q s) (d_new s)) (set_scratch false (set_fut FNone s)))))))))
  | None => None end.
Proof. reflexivity. Qed.
Lemma swap_solo s z tr s' : d_fut s = FReady tr -> d_computing s = true -> d_fut_locked s = false -> do_swap tr s = Some s' ->
  exists h, frun post (mkF s MIdle z) h (mkF s' MIdle z) /\ as_events h = [(Poll, Swapped)].
Proof.
  intros HF HC HL HS. rewrite swap_is in HS. destruct (swap_target s) as [q|] eqn:ET; [|discriminate HS].
  destruct (off_solo s z tr q HF HC HL ET) as (h & R & A).
  exists (h ++ [(Next, Quiet); (Next, Quiet); (Next, Quiet); (Next, Quiet); (Next, Quiet); (Next, Quiet); (Next, Swapped)]).
  split; [|unfold as_events in *; rewrite flat_map_app, A; reflexivity].
  eapply frun_trans; [exact R|]. injection HS as <-.
  do 6 (eapply frun_cons; [exact I|reflexivity|]). apply frun1; [exact I|reflexivity].
Qed.
Lemma same_refl h : same_calls h h. Proof. repeat split. Qed.
Lemma same_app a b c d : same_calls a b -> same_calls c d -> same_calls (a ++ c) (b ++ d).
Proof. intros (A1 & A2 & A3 & A4) (B1 & B2 & B3 & B4). unfold same_calls. rewrite !filter_app. repeat split; congruence. Qed.

Definition torn (e : event) : bool := match e with BackTorn _ => true | _ => false end.
Lemma realise s e o s' : inv s -> event_ok post s e -> step s e = Ok s' o -> torn e = false ->
  exists h, frun post (mkF s MIdle false) h (mkF s' MIdle false) /\ same_calls (as_events h) [(e, o)].
Proof.
  intros IV HE HS HT.
  assert (K : fine_step (mkF s MIdle false) (Call e) = FOk (mkF s' MIdle false) o ->
    exists h, frun post (mkF s MIdle false) h (mkF s' MIdle false) /\ same_calls (as_events h) [(e, o)]).
  { intros X. exists [(Call e, o)]. split; [now apply frun1|apply same_refl]. }
  destruct e; try discriminate HT;
  try (apply K; cbn [fine_step f_s f_m others]; rewrite HS; reflexivity).
  - destruct (poll_cases _ _ _ IV HS) as [(-> & -> & _ & HN)|(tr & HF & HD & ->)].
    + apply K. cbn [fine_step f_s f_m]. unfold no_result. destruct (d_fut s) eqn:EF; try (rewrite HS; reflexivity).
      now exfalso; apply (HN tr).
    + destruct (swap_solo s false tr s' HF) as (h & R & A); auto.
      * apply (inv_computing s IV). congruence.
      * apply (i_unlocked s IV).
      * exists h. split; [exact R|]. rewrite A. apply same_refl.
  - exists [(BeginEval t, Quiet); (Next, Quiet)]. cbn in HE, HS. destruct (d_traj s) as [tr|] eqn:ET; [|discriminate HS].
    injection HS as <- <-. split; [|apply same_refl].
    eapply frun_cons; [exact I|cbn; rewrite ET; reflexivity|]. apply frun1; [exact I|reflexivity].
  - cbn [step] in HS. destruct (d_pc s) eqn:EP;
    lazymatch goal with
    | _ : d_pc s = PZone |- _ => idtac
    | _ => apply K; cbn [fine_step]; unfold fine_back; cbn [f_s f_m f_seen]; rewrite EP, HS; reflexivity
    end.
    unfold back_step in HS. rewrite EP in HS. injection HS as <- <-.
    destruct (d_traj s) as [tr|] eqn:ET.
    + exists [(Call Back, Quiet); (Call Back, Quiet)]. split; [|repeat split].
      eapply frun_cons; [exact I|cbn; unfold fine_back; cbn; rewrite EP, ET; reflexivity|].
      apply frun1; [exact I|]. cbn. unfold fine_back, zone_rest, in_zone. cbn. now rewrite EP, ET.
    + apply K. cbn. unfold fine_back, in_zone. cbn. now rewrite EP, ET.
Qed.
End Real.

(** ** The theorems *)

(** C91: between two calls of the evaluating thread, the state is one that
    DynModel reaches by an execution with the same requests, reports, queries
    and evaluations, each kind in the same order and with the same results. *)
Theorem C91_atomic (post : list vertex -> trajectory -> Prop) junk h f :
  (forall vs tr, post vs tr -> basic_post vs tr) ->
  frun post (finit junk) h f -> between_calls f ->
  exists h', run post (init junk) h' (f_s f) /\ same_calls h' (as_events h).
Proof.
  intros HP R HB. destruct (refine post HP junk h f R) as (h' & a & P & R1 & [RS RM] & A1 & A2 & A3 & A4).
  unfold between_calls in HB. rewrite HB in *. destruct RM as [-> ->]. exists h'. cbn in A2, A3, A4.
  rewrite !app_nil_r in *. unfold same_calls. auto.
Qed.
Print Assumptions C91_atomic.

(** Conversely every execution of DynModel in which no zone check coincides
    with a swap is the outcome of a step-by-step execution. *)
Theorem C91_realised (post : list vertex -> trajectory -> Prop) junk h s :
  (forall vs tr, post vs tr -> basic_post vs tr) ->
  run post (init junk) h s -> Forall (fun x => forall b, fst x <> BackTorn b) h ->
  exists fh f, frun post (finit junk) fh f /\ between_calls f /\ f_s f = s /\ same_calls (as_events fh) h.
Proof.
  intros HP R HT.
  assert (G : exists fh, frun post (finit junk) fh (mkF s MIdle false) /\ same_calls (as_events fh) h).
  { pose proof (inv_init junk) as IV. unfold finit. revert IV HT. induction R as [s|s e o s1 h s2 HE HS R IH]; intros IV HT.
    - exists []. split; [constructor|apply same_refl].
    - inversion HT as [|? ? H1 H2]; subst. cbn [fst] in H1.
      assert (TN : torn e = false) by (destruct e; auto; exfalso; eapply H1; reflexivity).
      destruct (realise post s e o s1 IV HE HS TN) as (h1 & R1 & A1).
      destruct IH as (h2 & R2 & A2); [exact (step_inv post _ _ _ _ HP IV HE HS)|exact H2|].
      exists (h1 ++ h2). split; [eapply frun_trans; eauto|].
      unfold as_events in *. rewrite flat_map_app. apply (same_app _ [(e, o)] _ h); auto. }
  destruct G as (fh & R' & A). exists fh, (mkF s MIdle false). split; [exact R'|]. split; [reflexivity|]. auto.
Qed.
Print Assumptions C91_realised.

(** *** The evaluating thread is never held up *)
Definition left (f : fstate) : nat :=
  let n := fit_samples STEP (3 / 2 * computation_time (d_tc (f_s f))) in
  match f_m f with
  | MIdle => 0 | MEval _ _ => 1 | MComp => 1 | MDyn => 2 | MRegen => 3 | MTraj _ => 4 | MPar _ => 5 | MScratch _ => 6
  | MOff _ _ => 7 | MLoop _ _ n _ _ _ => 8 + n | MFirst _ _ => 9 + n | MArgs _ _ _ => 10 + n | MGot _ => 11 + n
  end.
Lemma left_next f f' o : fine_step f Next = FOk f' o -> (left f' < left f)%nat.
Proof.
  intros H. cbn [fine_step] in H. unfold fine_next in H. unfold left.
  destruct (f_m f) eqn:EM; try discriminate H;
  try (injection H as <- <-; cbn; lia).
  - destruct (d_scratch (f_s f)); injection H as <- <-; cbn; lia.
  - destruct (d_traj (f_s f)); [|discriminate H]. injection H as <- <-; cbn; lia.
  - destruct fuel; [injection H as <- <-; cbn; lia|].
    destruct (Rltb _ _); [destruct (Rleb _ _)|]; injection H as <- <-; cbn; lia.
Qed.
Lemma in_swap_future post f a P : in_swap (f_m f) = true -> rel post f a P -> d_fut (f_s f) = FNone.
Proof. intros HM RL. apply rel_swapping in RL; [|exact HM]. destruct RL as [_ (tr & off & v & r & _ & -> & _)]. reflexivity. Qed.
Lemma step_tc s e s' o : others e = true -> step s e = Ok s' o -> d_fut s = FNone -> d_tc s' = d_tc s.
Proof.
  intros HO H HF. destruct e; try discriminate HO; cbn in H; unfold comp_speed, comp_done, comp_throw in H; rewrite ?HF in H;
    try discriminate H; try (destruct (todo_locked s); [discriminate H|]); injection H as <- _; reflexivity.
Qed.
Lemma back_tc s s' o : back_step s = Ok s' o -> d_tc s' = d_tc s.
Proof.
  unfold back_step. destruct (d_pc s) as [| | | | | | | | | | | | | |[|m ms] i|]; intros H;
  repeat match type of H with context [match ?x with _ => _ end] => destruct x; try discriminate H end;
  try discriminate H; injection H as <- _; reflexivity.
Qed.
Lemma left_other post f a P e f' o : rel post f a P -> ~ between_calls f -> e <> Next -> fine_step f e = FOk f' o -> left f' = left f.
Proof.
  intros RL HB HN H.
  assert (HI : f_m f <> MIdle) by exact HB.
  assert (G : forall s' z, (in_swap (f_m f) = true -> d_tc s' = d_tc (f_s f)) -> left (mkF s' (f_m f) z) = left f).
  { intros s' z Htc. unfold left. cbn [f_m f_s]. destruct (f_m f); try reflexivity; rewrite (Htc eq_refl); reflexivity. }
  assert (GO : forall e0, others e0 = true -> lift f (step (f_s f) e0) = FOk f' o -> left f' = left f).
  { intros e0 HO HL. unfold lift in HL. destruct (step (f_s f) e0) as [s' o'| | |] eqn:ES; try discriminate HL.
    injection HL as <- <-. apply G. intros HM. eapply step_tc; eauto. eapply in_swap_future; eauto. }
  destruct e as [e| | |]; try congruence.
  - destruct e; try discriminate H; cbn [fine_step] in H;
    try (eapply GO; [|exact H]; reflexivity).
    + destruct (f_m f); try discriminate H. congruence.
    + destruct (f_m f); try discriminate H. congruence.
    + unfold fine_back in H.
      destruct (d_pc (f_s f));
      lazymatch type of H with
      | match back_step _ with _ => _ end = _ =>
          destruct (back_step (f_s f)) as [s' o'| | |] eqn:EB; try discriminate H; injection H as <- <-;
          apply G; intros _; eapply back_tc; eauto
      | _ => idtac
      end.
      destruct (f_seen f); [|destruct (d_traj (f_s f))]; injection H as <- <-; apply G; reflexivity.
  - cbn [fine_step] in H. destruct (f_m f); try discriminate H. congruence.
  - cbn [fine_step] in H. destruct (f_m f); try discriminate H. congruence.
Qed.

(** C91: inside a swap or an evaluation the next step is always possible: it
    waits for nobody and does not evaluate through a null pointer. *)
Theorem C91_progress (post : list vertex -> trajectory -> Prop) junk h f :
  (forall vs tr, post vs tr -> basic_post vs tr) ->
  frun post (finit junk) h f -> ~ between_calls f ->
  exists f' o, fine_step f Next = FOk f' o.
Proof.
  intros HP R HB. destruct (refine post HP junk h f R) as (h' & a & P & R1 & RL & _).
  assert (IV : inv a) by (eapply run_inv; [exact HP|apply inv_init|exact R1]).
  cbn [fine_step]. unfold fine_next. unfold between_calls in HB. destruct (f_m f) eqn:EM; try congruence; eauto.
  - destruct (d_scratch (f_s f)); eauto.
  - assert (HM : in_swap (f_m f) = true) by now rewrite EM.
    apply rel_swapping in RL; [|exact HM]. destruct RL as [_ (tr' & off & v & r & HF & EF & SD & _)].
    rewrite EM in SD, EF. destruct SD as (_ & _ & ES & _).
    rewrite EF. cbn. destruct (d_traj a) eqn:ET; eauto. now exfalso; apply (i_scratch a IV ES).
  - destruct fuel; eauto. destruct (Rltb _ _); eauto. destruct (Rleb _ _); eauto.
Qed.
Print Assumptions C91_progress.

Lemma own_app h1 h2 : own_steps (h1 ++ h2) = (own_steps h1 + own_steps h2)%nat.
Proof. unfold own_steps. now rewrite filter_app, app_length. Qed.
Lemma own_left (post : list vertex -> trajectory -> Prop) junk h0 f h f' : (forall vs tr, post vs tr -> basic_post vs tr) ->
  frun post (finit junk) h0 f -> frun post f h f' ->
  (forall h1 h2 f1, h = h1 ++ h2 -> h2 <> [] -> frun post f h1 f1 -> ~ between_calls f1) ->
  (own_steps h + left f' <= left f)%nat.
Proof.
  intros HP R0 R. induction R as [f|f h f1 e o f2 R IH HE HS]; intros HB; [cbn; lia|].
  assert (IH' : (own_steps h + left f1 <= left f)%nat).
  { apply IH; [exact R0|]. intros h1 h2 g E N Rg. apply (HB h1 (h2 ++ [(e, o)]) g); auto; [rewrite E; now rewrite app_assoc|].
    destruct h2; discriminate. }
  assert (HB1 : ~ between_calls f1) by (apply (HB h [(e, o)] f1); auto; discriminate).
  destruct (refine post HP junk _ f1 (frun_trans _ _ _ _ R0 _ _ R)) as (h' & a & P & _ & RL & _).
  rewrite own_app. assert (LO : e <> Next -> left f2 = left f1) by (intros N; eapply left_other; eauto).
  destruct e; try (rewrite LO by discriminate; cbn; lia).
  pose proof (left_next f1 f2 o HS). cbn. lia.
Qed.

(** C91: once begun, a swap is complete after at most 12 + 3 tc / 0.1 steps of
    the evaluating thread, tc being the measured computation time, whatever the
    other threads do meanwhile. *)
Theorem C91_completes (post : list vertex -> trajectory -> Prop) junk h0 f f1 o h f' :
  (forall vs tr, post vs tr -> basic_post vs tr) ->
  frun post (finit junk) h0 f -> fine_step f Begin = FOk f1 o -> frun post f1 h f' ->
  (forall h1 h2 g, h = h1 ++ h2 -> frun post f1 h1 g -> ~ between_calls g) ->
  INR (own_steps h) <= 12 + 3 * d_tc (f_s f) / STEP.
Proof.
  intros HP R0 HS R HB.
  assert (R1 : frun post (finit junk) (h0 ++ [(Begin, o)]) f1) by (econstructor; [exact R0|exact I|exact HS]).
  pose proof (own_left post junk _ f1 h f' HP R1 R (fun h1 h2 g E _ => HB h1 h2 g E)) as HL.
  assert (L1 : left f1 = (11 + fit_samples STEP (3 / 2 * computation_time (d_tc (f_s f))))%nat).
  { cbn [fine_step] in HS. destruct (f_m f); try discriminate HS. destruct (d_fut (f_s f)); try discriminate HS.
    destruct (_ && _); [|discriminate HS]. injection HS as <- <-. reflexivity. }
  destruct (refine post HP junk h0 f R0) as (h' & a & P & Ra & RL & _).
  assert (IV : inv a) by (eapply run_inv; [exact HP|apply inv_init|exact Ra]).
  assert (Ef : f_s f = a).
  { cbn [fine_step] in HS. unfold rel in RL. destruct (f_m f); try discriminate HS. symmetry. apply RL. }
  pose proof (i_tc a IV) as TC. rewrite <- Ef in TC.
  assert (F : INR (fit_samples STEP (3 / 2 * computation_time (d_tc (f_s f)))) <= 1 + 3 * d_tc (f_s f) / STEP).
  { unfold fit_samples, computation_time. replace (3 / 2 * (2 * d_tc (f_s f))) with (3 * d_tc (f_s f)) by lra.
    assert (X : 0 <= 3 * d_tc (f_s f) / STEP).
    { apply Rmult_le_pos; [lra|]. left. apply Rinv_0_lt_compat. pose proof STEP_pos. lra. }
    destruct (archimed (3 * d_tc (f_s f) / STEP)) as [A1 A2].
    rewrite INR_IZR_INZ, Z2Nat.id; [lra|]. apply le_IZR. lra. }
  assert (G : (own_steps h <= 11 + fit_samples STEP (3 / 2 * computation_time (d_tc (f_s f))))%nat) by lia.
  apply le_INR in G. rewrite plus_INR in G. replace (INR 11) with 11 in G by (cbn; lra). lra.
Qed.
Print Assumptions C91_completes.

(** *** A swap in which everything happens *)
(** The plan requested at 0.8 s is computed and waits to be swapped in. *)
Definition waiting3 : state := set_fut (FReady tr3) (set_tc (/ 100) (set_next dyn3 later3)).
Definition trace_w3 : list (event * obs) :=
  ((trace1 ++ [(Eval (8 / 10), Quiet); (Append wc, Quiet)]) ++
   backs [Quiet; Quiet; Quiet; Quiet; Quiet; Quiet; Quiet; Quiet; Launched; Quiet]) ++
  [(Eval (8 / 10), Quiet); (CompSpeed, Quiet); (CompDone tr3 (/ 100), Quiet)].
Lemma comp_solo (post : list vertex -> trajectory -> Prop) s vs tr elapsed ws :
  d_fut s = FStarted -> extract_vertices (d_next s) = Some vs -> (2 <= length vs)%nat -> 0 <= elapsed -> post vs tr ->
  retime (t_segs tr) (p_gtl (d_new s)) 0 (d_next s) = Some ws ->
  run post s [(CompSpeed, Quiet); (CompDone tr elapsed, Quiet)] (set_fut (FReady tr) (set_tc elapsed (set_next ws s))).
Proof.
  intros HF HV HN HE HP HR.
  econstructor; [exact Logic.I|cbn [step]; unfold comp_speed; rewrite HF, HV; destruct (Nat.ltb_spec (length vs) 2); [lia|reflexivity]|].
  econstructor; [cbn; eauto|cbn [step]; unfold comp_done; cbn [d_fut set_fut]; cbn; rewrite HR; reflexivity|]. constructor.
Qed.
Lemma run_w3 : run full_post (init v3_zero) trace_w3 waiting3.
Proof.
  unfold trace_w3. eapply run_app; [eapply run_app; [apply run_req|apply launch_req; lra]|].
  destruct (launched_fields (req (8 / 10))) as (ET & EP & EN & EF & EC & EL & ED & _).
  destruct (do_eval_fields (8 / 10) (launched (req (8 / 10)))) as (FT & FX & FN & FF & FC & FL & FG).
  destruct launched_extract3 as (vs & EV & HV).
  econstructor; [cbn [event_ok]; rewrite ET; discriminate|cbn [step]; rewrite ET; reflexivity|].
  fold later3 in *. unfold waiting3. apply (comp_solo _ _ vs).
  - rewrite FF; auto.
  - rewrite FX. auto.
  - auto.
  - lra.
  - apply tr3_full; auto.
  - rewrite FN, FX, EN. exact retime3.
Qed.
Lemma fine_w3 : exists fh z, frun full_post (finit v3_zero) fh (mkF waiting3 MIdle z).
Proof.
  destruct (C91_realised full_post v3_zero trace_w3 waiting3 full_basic run_w3) as (fh & f & R & HB & HF & _).
  - unfold trace_w3, trace1, backs. cbn [map app].
    repeat (apply Forall_cons; [intros b; cbn [fst]; discriminate|]). apply Forall_nil.
  - exists fh, (f_seen f). destruct f as [s m z]. unfold between_calls in HB. cbn [f_m f_s f_seen] in *. rewrite <- HB, <- HF. exact R.
Qed.
Lemma mid_solo post s z tr q : d_fut s = FReady tr -> d_computing s = true -> d_fut_locked s = false -> swap_target s = Some q ->
  exists h, frun post (mkF s MIdle z) h (mkF (overlay (MTraj tr) tr (fit_offset tr q s) (d_vehicle s) true s) (MTraj tr) z) /\
    as_events h = [].
Proof.
  intros HF HC HL HT. destruct (off_solo post s z tr q HF HC HL HT) as (h & R & A).
  exists (h ++ [(Next, Quiet); (Next, Quiet); (Next, Quiet)]). split; [|unfold as_events in *; rewrite flat_map_app, A; reflexivity].
  eapply frun_trans; [exact R|]. do 2 (eapply frun_cons; [exact Logic.I|reflexivity|]). apply frun1; [exact Logic.I|reflexivity].
Qed.
Lemma rest_solo post s z tr q : frun post (mkF (overlay (MTraj tr) tr (fit_offset tr q s) (d_vehicle s) true s) (MTraj tr) z)
  [(Next, Quiet); (Next, Quiet); (Next, Quiet); (Next, Swapped)]
  (mkF (set_late (S (d_late s)) (set_computing false (overlay MComp tr (fit_offset tr q s) (d_vehicle s) true s))) MIdle z).
Proof. do 3 (eapply frun_cons; [exact Logic.I|reflexivity|]). apply frun1; [exact Logic.I|reflexivity]. Qed.
Lemma ready_fields tr e ws t s : let r := set_fut (FReady tr) (set_tc e (set_next ws (do_eval t s))) in
  d_fut r = FReady tr /\ d_computing r = d_computing s /\ d_fut_locked r = d_fut_locked s /\ d_traj r = d_traj s /\
  p_gtl (d_par r) = p_gtl (d_par s) /\ p_gtl (d_new r) = p_gtl (d_new s).
Proof. repeat (split; [reflexivity|]). reflexivity. Qed.
Lemma w3_fields : d_fut waiting3 = FReady tr3 /\ d_computing waiting3 = true /\ d_fut_locked waiting3 = false /\
  d_traj waiting3 = Some tr1 /\ p_gtl (d_par waiting3) = 0 /\ p_gtl (d_new waiting3) = 8 / 10.
Proof.
  destruct (launched_fields (req (8 / 10))) as (ET & EP & EN & EF & EC & EL & ED & _).
  destruct (ready_fields tr3 (/ 100) dyn3 (8 / 10) (launched (req (8 / 10)))) as (A & B & C & D & E & F).
  fold later3 in A, B, C, D, E, F. fold waiting3 in A, B, C, D, E, F.
  rewrite A, B, C, D, E, F, launched_gtl, EC, EL, ET, EP. repeat (split; [reflexivity|]). reflexivity.
Qed.

Lemma max_solo post s z tr old m0 m1 m2 : d_fut s = FReady tr -> d_computing s = true -> d_fut_locked s = false ->
  d_traj s = Some old -> t_max old + p_gtl (d_par s) = m0 -> t_max old + p_gtl (d_new s) = m1 -> t_max tr + p_gtl (d_new s) = m2 ->
  exists h1 f1 h2 f2, frun post (mkF s MIdle z) h1 f1 /\ as_events h1 = [] /\
    frun post f1 h2 f2 /\ as_events h2 = [(Poll, Swapped)] /\ between_calls f2 /\
    max_time s = Some m0 /\ max_time (f_s f1) = Some m1 /\ max_time (f_s f2) = Some m2.
Proof.
  intros HF HC HL HT <- <- <-.
  assert (HQ : exists q, swap_target s = Some q) by (unfold swap_target; rewrite HT; destruct (d_scratch s); eauto).
  destruct HQ as (q & HQ). destruct (mid_solo post s z tr q HF HC HL HQ) as (h1 & R1 & A1).
  eexists h1, _, _, _. split; [exact R1|]. split; [exact A1|]. split; [apply rest_solo|].
  split; [reflexivity|]. split; [reflexivity|]. unfold max_time. cbn. rewrite HT. auto.
Qed.
Lemma busy_solo post s z tr old : d_fut s = FReady tr -> d_computing s = true -> d_fut_locked s = false -> d_traj s = Some old ->
  exists h f1 f2 f3, frun post (mkF s MIdle z) h f1 /\ ~ between_calls f1 /\
  frun post f1 ((Call (Vehicle pa), Quiet) :: (Call (SetSpeed 2), Quiet) :: (Next, Quiet) :: (Next, Quiet) ::
     [(Call GetRegenerated, Bool true); (Call GetRegenerated, Bool false)]) f2 /\ ~ between_calls f2 /\
  frun post f2 [(Next, Quiet); (Next, Swapped)] f3 /\ between_calls f3 /\
  d_traj (f_s f3) = Some tr /\ d_regen (f_s f3) = false /\ d_vehicle (f_s f3) = pa /\ p_speed (d_par (f_s f3)) = 2.
Proof.
  intros HF HC HL HT.
  assert (HQ : exists q, swap_target s = Some q) by (unfold swap_target; rewrite HT; destruct (d_scratch s); eauto).
  destruct HQ as (q & HQ). destruct (mid_solo post s z tr q HF HC HL HQ) as (h1 & R1 & _).
  eexists h1, _, _, _. split; [exact R1|]. split; [discriminate|].
  split; [do 5 (eapply frun_cons; [exact Logic.I|reflexivity|]); apply frun1; [exact Logic.I|reflexivity]|].
  split; [discriminate|].
  split; [eapply frun_cons; [exact Logic.I|reflexivity|]; apply frun1; [exact Logic.I|reflexivity]|].
  repeat split.
Qed.
Lemma begin_solo post s z tr : d_fut s = FReady tr -> d_computing s = true -> d_fut_locked s = false ->
  exists f1 o f2, fine_step (mkF s MIdle z) Begin = FOk f1 o /\ frun post f1 [(Next, Quiet)] f2 /\ ~ between_calls f2.
Proof.
  intros HF HC HL. destruct (d_scratch s) eqn:ES.
  all: eexists _, _, _; split; [cbn; rewrite HF, HC, HL; reflexivity|];
    split; [apply frun1; [exact Logic.I|cbn; rewrite ES; reflexivity]|discriminate].
Qed.

(** What another thread is told while a swap is going on need not fit either
    trajectory: getMaxTime adds the start of the new one to the length of the
    old one. *)
Theorem C91_end_time_refuted : exists h f0 h1 f1 h2 f2,
  frun full_post (finit v3_zero) h f0 /\ between_calls f0 /\
  frun full_post f0 h1 f1 /\ as_events h1 = [] /\
  frun full_post f1 h2 f2 /\ as_events h2 = [(Poll, Swapped)] /\ between_calls f2 /\
  max_time (f_s f0) = Some 2 /\ max_time (f_s f1) = Some (28 / 10) /\ max_time (f_s f2) = Some (38 / 10).
Proof.
  destruct fine_w3 as (h & z & R). destruct w3_fields as (HF & HC & HL & HTr & HG & HN).
  assert (M1 : t_max tr1 = 2) by (cbn; lra). assert (M3 : t_max tr3 = 3) by (cbn; lra).
  destruct (max_solo full_post waiting3 z tr3 tr1 2 (28 / 10) (38 / 10) HF HC HL HTr) as (h1 & f1 & h2 & f2 & A).
  - rewrite HG, M1. lra.
  - rewrite HN, M1. lra.
  - rewrite HN, M3. lra.
  - exists h, (mkF waiting3 MIdle z), h1, f1, h2, f2. split; [exact R|]. split; [reflexivity|]. exact A.
Qed.
Print Assumptions C91_end_time_refuted.

(** A position report after the swap has read the position and a query after
    the swap has raised its flag: both are answered during the swap. *)
Example C91_example : exists h f1 f2 f3,
  frun full_post (finit v3_zero) h f1 /\ ~ between_calls f1 /\
  frun full_post f1 ((Call (Vehicle pa), Quiet) :: (Call (SetSpeed 2), Quiet) :: (Next, Quiet) :: (Next, Quiet) ::
     [(Call GetRegenerated, Bool true); (Call GetRegenerated, Bool false)]) f2 /\ ~ between_calls f2 /\
  frun full_post f2 [(Next, Quiet); (Next, Swapped)] f3 /\ between_calls f3 /\
  d_traj (f_s f3) = Some tr3 /\ d_regen (f_s f3) = false /\ d_vehicle (f_s f3) = pa /\ p_speed (d_par (f_s f3)) = 2.
Proof.
  destruct fine_w3 as (h & z & R). destruct w3_fields as (HF & HC & HL & HTr & _).
  destruct (busy_solo full_post waiting3 z tr3 tr1 HF HC HL HTr) as (h1 & f1 & f2 & f3 & R1 & A).
  exists (h ++ h1), f1, f2, f3. split; [exact (frun_trans _ _ _ _ R _ _ R1)|exact A].
Qed.
(** A swap that is begun, for [C91_completes]. *)
Example C91_example_begin : exists h f f1 o h2 f2, frun full_post (finit v3_zero) h f /\ fine_step f Begin = FOk f1 o /\
  frun full_post f1 h2 f2 /\ own_steps h2 = 1%nat /\ ~ between_calls f2.
Proof.
  destruct fine_w3 as (h & z & R). destruct w3_fields as (HF & HC & HL & _).
  destruct (begin_solo full_post waiting3 z tr3 HF HC HL) as (f1 & o & f2 & A & B & C).
  exists h, (mkF waiting3 MIdle z), f1, o, [(Next, Quiet)], f2. split; [exact R|]. split; [exact A|].
  split; [exact B|]. split; [reflexivity|exact C].
Qed.
