(** Running the agents without interference, and a concrete flight used in the
    examples and counterexamples. *)
From Coq Require Import Reals Lra Lia List Bool ZArith Arith.
From Coquelicot Require Import Coquelicot.
From Verif Require Import Base PolyModel PolySpec VertexModel TrajModel TrajSpec TrajProofs RangeProofs
  WaypointModel WaypointProofs Names DynModel DynSpec DynProofs DynFrame DynTrace DynQueue DynMore StopAndGo.
Import List ListNotations.
Local Open Scope R_scope.
Set Bullet Behavior "Strict Subproofs".

Lemma state_ext s t : d_par s = d_par t -> d_new s = d_new t -> d_traj s = d_traj t -> d_fut s = d_fut t -> d_scratch s = d_scratch t -> d_vehicle s = d_vehicle t -> d_dyn s = d_dyn t -> d_next s = d_next t -> d_add s = d_add t -> d_set s = d_set t -> d_mod s = d_mod t -> d_flag s = d_flag t -> d_computing s = d_computing t -> d_stop s = d_stop t -> d_regen s = d_regen t -> d_tc s = d_tc t -> d_fut_locked s = d_fut_locked t -> d_late s = d_late t -> d_pc s = d_pc t -> s = t.
Proof. destruct s, t; cbn; intros; subst; reflexivity. Qed.
Ltac state_eq := apply state_ext; try reflexivity; cbn.

Definition backs (os : list obs) : list (event * obs) := map (fun o => (Back, o)) os.
Lemma back_ok post s s' o tr s2 : back_step s = Ok s' o -> run post s' tr s2 -> run post s ((Back, o) :: tr) s2.
Proof. intros. econstructor; eauto. exact Logic.I. Qed.

(** A batch of modifications applied without interruption. *)
Lemma move_nth_app t m done w rest : move_nth t m (length done) (done ++ w :: rest) =
  (done ++ [if applies (fst m) w then wp_move (snd m) t w else w]) ++ rest.
Proof. induction done as [|x done IH]; cbn; [reflexivity|now rewrite IH]. Qed.
Lemma one_batch post m ms : forall rest done s, d_pc s = PMove (m :: ms) (length done) -> d_dyn s = done ++ rest ->
  run post s (backs (repeat Moved (S (length rest))))
    (set_pc (PMove ms 0) (set_regen (if existsb (applies (fst m)) rest then true else d_regen s)
       (set_dyn (done ++ apply_modification (p_global (d_par s)) m rest) s))).
Proof.
  induction rest as [|w rest IH]; intros done s HP HD.
  - unfold backs. cbn [length repeat map]. eapply back_ok.
    + unfold back_step. rewrite HP, HD, app_nil_r. rewrite (proj2 (nth_error_None done (length done))) by lia. reflexivity.
    + replace (set_pc (PMove ms 0) s) with (set_pc (PMove ms 0) (set_regen (if existsb (applies (fst m)) [] then true else d_regen s)
        (set_dyn (done ++ apply_modification (p_global (d_par s)) m []) s))); [constructor|].
      apply state_ext; cbn; auto.
  - unfold backs. cbn [length]. change (repeat Moved (S (S (length rest)))) with (Moved :: repeat Moved (S (length rest))). cbn [map].
    eapply back_ok.
    + unfold back_step. rewrite HP, HD, nth_error_app2, Nat.sub_diag by lia. cbn [nth_error]. reflexivity.
    + rewrite move_nth_app.
      match goal with |- run _ ?a _ ?b => pose (s1 := a); change (run post s1 (backs (repeat Moved (S (length rest)))) b) end.
      replace (set_pc (PMove ms 0) (set_regen (if existsb (applies (fst m)) (w :: rest) then true else d_regen s)
          (set_dyn (done ++ apply_modification (p_global (d_par s)) m (w :: rest)) s)))
        with (set_pc (PMove ms 0) (set_regen (if existsb (applies (fst m)) rest then true else d_regen s1)
          (set_dyn ((done ++ [if applies (fst m) w then wp_move (snd m) (p_global (d_par s)) w else w]) ++
             apply_modification (p_global (d_par s1)) m rest) s1))).
      * apply IH; [|reflexivity]. cbn. rewrite app_length. cbn. do 2 f_equal. lia.
      * apply state_ext; cbn; auto; [now rewrite <- app_assoc|]. destruct (applies (fst m) w), (existsb (applies (fst m)) rest); reflexivity.
Qed.
Lemma applies_apply n t m ws : existsb (applies n) (apply_modification t m ws) = existsb (applies n) ws.
Proof.
  unfold apply_modification. induction ws as [|w ws IH]; [reflexivity|]. cbn [map existsb]. rewrite IH. f_equal.
  destruct (applies (fst m) w); [|reflexivity]. unfold applies, named. now rewrite move_name.
Qed.
Lemma some_applies_apply ms t m ws : some_applies ms (apply_modification t m ws) = some_applies ms ws.
Proof.
  unfold some_applies. induction ms as [|x ms IH]; [reflexivity|]. cbn [existsb]. now rewrite applies_apply, IH.
Qed.
Lemma all_batches post : forall ms s, d_pc s = PMove ms 0 ->
  run post s (backs (repeat Moved (length ms * S (length (d_dyn s)))))
    (set_pc (PMove [] 0) (set_regen (if some_applies ms (d_dyn s) then true else d_regen s)
       (set_dyn (apply_all (p_global (d_par s)) ms (d_dyn s)) s))).
Proof.
  induction ms as [|m ms IH]; intros s HP.
  - replace (set_pc (PMove [] 0) _) with s; [constructor|]. apply state_ext; auto.
  - cbn [length Nat.mul]. rewrite repeat_app. unfold backs. rewrite map_app.
    eapply run_app; [apply (one_batch post m ms (d_dyn s) [] s HP); reflexivity|]. cbn [app].
    match goal with |- run _ ?a _ ?b => pose (s1 := a); change (run post s1 (backs (repeat Moved (length ms * S (length (d_dyn s))))) b) end.
    assert (L : length (d_dyn s1) = length (d_dyn s)) by (cbn; unfold apply_modification; apply map_length).
    rewrite <- L. match goal with |- run _ _ _ ?b => replace b with
      (set_pc (PMove [] 0) (set_regen (if some_applies ms (d_dyn s1) then true else d_regen s1)
       (set_dyn (apply_all (p_global (d_par s1)) ms (d_dyn s1)) s1))) end; [apply IH; reflexivity|].
    apply state_ext; cbn; auto. rewrite some_applies_apply. fold (some_applies ms (d_dyn s)).
    destruct (existsb (applies (fst m)) (d_dyn s)), (some_applies ms (d_dyn s)); reflexivity.
Qed.
(** The outcomes of its steps. *)
Definition batch (s : state) : list obs := Quiet :: repeat Moved (length (d_mod s) * S (length (d_dyn s))) ++ [Quiet].
Definition batch_done (s : state) : state :=
  set_pc PTop (set_queues (d_add s) (d_set s) []
    (set_regen (if some_applies (d_mod s) (d_dyn s) then true else d_regen s)
    (set_dyn (apply_all (p_global (d_par s)) (d_mod s) (d_dyn s)) s))).
Lemma batch_solo post s : d_pc s = PApply -> run post s (backs (batch s)) (batch_done s).
Proof.
  intros HP. unfold batch, backs. cbn [map]. eapply back_ok; [unfold back_step; rewrite HP; reflexivity|].
  rewrite map_app. eapply run_app; [apply (all_batches post (d_mod s) (set_pc (PMove (d_mod s) 0) s)); reflexivity|].
  cbn [map]. eapply back_ok; [reflexivity|].
  match goal with |- run _ ?a _ ?b => replace a with b; [constructor|] end. apply state_ext; auto.
Qed.

(** The state after a whole launching iteration of the background thread. *)
Definition collected (s : state) : state := set_next (next_waypoints s) (set_queues [] [] [] s).
Definition copied (s : state) : state :=
  let q := d_par s in set_new (mkParams (p_local q) (p_off q) (p_global q) (p_speed q) (p_global q)) s.
Definition started (s : state) : state :=
  match (if can_stitch s then d_traj s else None) with
  | Some tr => set_next (stitch_waypoints tr s) (set_scratch false s)
  | None => set_next (drone_waypoint (d_vehicle s) :: d_next s) (set_scratch true s)
  end.
Definition launched (s : state) : state :=
  set_pc PTop (set_flag false (set_fut FStarted (set_computing true (started (copied (collected s)))))).

(** ... and just before std::async is called. *)
Definition ready (s : state) : state := set_pc PAsync (set_computing true (started (copied (collected s)))).

Lemma params_solo post s : d_pc s = PTop -> d_flag s = true -> d_stop s = false -> in_zone s = false ->
  d_computing s = false -> next_waypoints s <> [] ->
  run post s (backs [Quiet; Quiet; Quiet; Quiet]) (set_pc PParams (collected s)).
Proof.
  intros H1 H2 H3 H4 H5 H7. unfold backs. cbn [map].
  eapply back_ok. { unfold back_step. rewrite H1, H3, H2. reflexivity. }
  eapply back_ok. { unfold back_step. cbn [d_pc set_pc]. change (in_zone (set_pc PZone s)) with (in_zone s). rewrite H4. reflexivity. }
  eapply back_ok. { unfold back_step. cbn [d_pc set_pc]. cbn. rewrite H5. reflexivity. }
  eapply back_ok. { unfold back_step. cbn [d_pc set_pc].
    change (next_waypoints (set_pc PGen (set_pc PComp (set_pc PZone s)))) with (next_waypoints s).
    destruct (next_waypoints s) eqn:E; [congruence|]. rewrite <- E. reflexivity. }
  match goal with |- run _ ?a _ ?b => replace a with b by (destruct s; reflexivity) end. constructor.
Qed.
Lemma async_solo post s : run post (set_pc PParams (collected s)) (backs [Quiet; Quiet; Quiet; Quiet]) (ready s).
Proof.
  unfold backs. cbn [map].
  eapply back_ok. { reflexivity. }
  eapply back_ok. { reflexivity. }
  assert (EC : forall x y, can_stitch (set_pc x y) = can_stitch y) by reflexivity.
  set (sc := copied (collected s)).
  match goal with |- run _ (set_pc _ ?x) _ _ => assert (EX : x = set_pc PCheck sc) by (destruct s; reflexivity); rewrite EX; clear EX end.
  rewrite EC. unfold ready. fold sc. unfold started. destruct (can_stitch sc) eqn:ES.
  - assert (HT : exists t, d_traj sc = Some t).
    { unfold can_stitch in ES. destruct (d_traj sc); [eauto|discriminate]. }
    destruct HT as [t HT]. rewrite HT.
    eapply back_ok. { unfold back_step. cbn [d_pc set_pc].
      change (d_traj (set_pc PStitch (set_pc PCheck sc))) with (d_traj sc). rewrite HT. reflexivity. }
    eapply back_ok. { reflexivity. }
    match goal with |- run _ ?a _ ?b => replace a with b by (destruct s; reflexivity) end. constructor.
  - eapply back_ok. { reflexivity. }
    eapply back_ok. { reflexivity. }
    match goal with |- run _ ?a _ ?b => replace a with b by (destruct s; reflexivity) end. constructor.
Qed.
Lemma ready_solo post s : d_pc s = PTop -> d_flag s = true -> d_stop s = false -> in_zone s = false ->
  d_computing s = false -> next_waypoints s <> [] ->
  run post s (backs [Quiet; Quiet; Quiet; Quiet; Quiet; Quiet; Quiet; Quiet]) (ready s).
Proof.
  intros. change (backs _) with (backs [Quiet; Quiet; Quiet; Quiet] ++ backs [Quiet; Quiet; Quiet; Quiet]).
  eapply run_app; [apply params_solo; auto|apply async_solo].
Qed.
Lemma started_locked s : d_fut_locked (started s) = d_fut_locked s.
Proof. unfold started. destruct (if can_stitch s then d_traj s else None); reflexivity. Qed.
Lemma ready_async s : d_fut_locked s = false -> step (ready s) Back = Ok (set_pc PClear (set_fut FStarted (ready s))) Launched.
Proof.
  intros H. cbn [step]. unfold back_step, ready. cbn [d_pc set_pc d_fut_locked set_computing].
  rewrite started_locked. cbn. rewrite H. reflexivity.
Qed.
Lemma launch_solo post s : d_pc s = PTop -> d_flag s = true -> d_stop s = false -> in_zone s = false ->
  d_computing s = false -> d_fut_locked s = false -> next_waypoints s <> [] ->
  run post s (backs [Quiet; Quiet; Quiet; Quiet; Quiet; Quiet; Quiet; Quiet; Launched; Quiet]) (launched s).
Proof.
  intros. change (backs _) with (backs [Quiet; Quiet; Quiet; Quiet; Quiet; Quiet; Quiet; Quiet] ++ [(Back, Launched); (Back, Quiet)]).
  eapply run_app; [apply ready_solo; auto|].
  econstructor; [exact Logic.I|apply ready_async; auto|]. eapply back_ok; [reflexivity|].
  replace (launched s) with (set_pc PTop (set_flag false (set_pc PClear (set_fut FStarted (ready s))))) by reflexivity.
  constructor.
Qed.

Lemma poll_ready s tr s' : d_fut_locked s = false -> d_fut s = FReady tr -> d_computing s = true ->
  do_swap tr s = Some s' -> step s Poll = Ok s' Swapped.
Proof.
  intros H1 H2 H3 H4. cbn [step]. unfold do_poll. rewrite H1, H2, H3, H4. destruct (d_traj s); reflexivity.
Qed.
(** The end of the call that swaps: the flag is cleared. *)
Definition settle (s : state) : state := set_late (pred (d_late s)) (set_flag false s).
Lemma swap_late tr s s' : do_swap tr s = Some s' -> d_late s' = S (d_late s).
Proof.
  unfold do_swap. destruct (if d_scratch s then _ else _) as [b|]; [|discriminate]. intros H. inversion H. reflexivity.
Qed.
Lemma poll_whole post s tr s' : d_fut_locked s = false -> d_fut s = FReady tr -> d_computing s = true ->
  option_map settle (do_swap tr s) = Some s' -> run post s [(Poll, Swapped); (PollEnd, Quiet)] s'.
Proof.
  intros H1 H2 H3 H4. destruct (do_swap tr s) as [s1|] eqn:E; [|discriminate]. inversion H4; subst s'.
  econstructor; [exact Logic.I|eapply poll_ready; eauto|].
  econstructor; [exact Logic.I| |constructor]. cbn [step]. unfold settle. rewrite (swap_late _ _ _ E). reflexivity.
Qed.
Lemma swapped_late s s' : step s Poll = Ok s' Swapped -> d_late s' = S (d_late s).
Proof.
  cbn [step]. unfold do_poll. destruct (d_fut_locked s); [discriminate|].
  destruct (d_traj s), (d_fut s), (d_computing s); try discriminate;
    match goal with |- context [do_swap ?t ?x] => destruct (do_swap t x) eqn:E; [|discriminate] end;
    intros H; inversion H; subst; eapply swap_late; eauto.
Qed.
Lemma late_step s e s' o : step s e = Ok s' o -> e <> PollEnd -> (d_late s <= d_late s')%nat.
Proof.
  intros H HE. destruct e; try congruence; cbn [step] in H; unblock H; try (inversion H; subst; cbn; lia).
  - unfold do_poll in H. destruct (d_fut_locked s); [discriminate|].
    destruct (d_traj s), (d_fut s), (d_computing s); try discriminate; try (inversion H; subst; cbn; lia);
    match type of H with context [do_swap ?t ?x] => destruct (do_swap t x) eqn:E; [|discriminate] end;
    inversion H; subst; rewrite (swap_late _ _ _ E); lia.
  - destruct (d_traj s); inversion H; subst; cbn; lia.
  - unfold back_step in H. destruct (d_pc s); try (inversion H; subst; cbn; lia).
    + destruct (d_stop s); inversion H; subst; cbn; lia.
    + destruct (next_waypoints s); inversion H; subst; cbn; lia.
    + destruct (d_traj s); inversion H; subst; cbn; lia.
    + destruct (d_fut_locked s); inversion H; subst; cbn; lia.
    + destruct (d_mod s); inversion H; subst; cbn; lia.
    + destruct ms as [|m ms]; [|destruct (nth_error (d_dyn s) i)]; inversion H; subst; cbn; lia.
  - destruct (torn_cases s zone s' o H) as (-> & _). cbn. lia.
  - unfold comp_speed in H. destruct (d_fut s); try discriminate. destruct (extract_vertices _); [|discriminate].
    destruct (_ <? _)%nat; inversion H; subst; cbn; lia.
  - unfold comp_done in H. destruct (d_fut s); try discriminate. destruct (retime _ _ _ _); inversion H; subst; cbn; lia.
  - unfold comp_throw in H. destruct (d_fut s); try discriminate; inversion H; subst; cbn; lia.
Qed.
(** Computation and swap. *)
Lemma finish_solo (post : list vertex -> trajectory -> Prop) s vs tr elapsed ws s' :
  d_fut s = FStarted -> d_computing s = true -> d_fut_locked s = false -> extract_vertices (d_next s) = Some vs ->
  (2 <= length vs)%nat -> 0 <= elapsed -> post vs tr -> retime (t_segs tr) (p_gtl (d_new s)) 0 (d_next s) = Some ws ->
  option_map settle (do_swap tr (set_fut (FReady tr) (set_tc elapsed (set_next ws s)))) = Some s' ->
  run post s [(CompSpeed, Quiet); (CompDone tr elapsed, Quiet); (Poll, Swapped); (PollEnd, Quiet)] s'.
Proof.
  intros HF HC HL HV HN HE HP HR HS.
  econstructor; [exact Logic.I|cbn [step]; unfold comp_speed; rewrite HF, HV; destruct (Nat.ltb_spec (length vs) 2); [lia|reflexivity]|].
  econstructor; [cbn; eauto|cbn [step]; unfold comp_done; cbn [d_fut set_fut]; cbn; rewrite HR; reflexivity|].
  apply (poll_whole _ _ tr); auto.
Qed.

(** With a computation time below a third of the sampling step the fitting
    only looks at time 0. *)
Lemma STEP_pos : / 10 <= STEP <= 11 / 100. Proof. unfold STEP. lra. Qed.
Lemma fit_zero dist tc : tc <= / 30 -> fit_min_time dist tc = 0.
Proof.
  intros H. unfold fit_min_time, computation_time. destruct (fit_samples _ _) as [|n]; [reflexivity|].
  cbn [fit_loop]. rcase; auto. pose proof STEP_pos. lra.
Qed.

Definition swapped (off : R) (tr : trajectory) (s : state) : state :=
  let new := par_off off (d_new s) in
  set_flag false (set_computing false (set_dyn (map wp_copy (d_next s))
    (set_regen true (set_traj (Some tr) (set_par new (set_new new (set_scratch false (set_fut FNone s)))))))).
Lemma swap_small tr s : d_tc s <= / 30 -> d_scratch s = true \/ d_traj s <> None ->
  option_map settle (do_swap tr s) = Some (swapped (STEP - (p_global (d_par s) - p_gtl (d_new s))) tr s).
Proof.
  intros HT HS. unfold do_swap, fit_offset.
  assert (E : forall q, fit_min_time (fit_distance tr (d_dyn s) (p_gtl (d_new s)) q) (d_tc s) -
     (p_global (d_par s) - p_gtl (d_new s)) + STEP = STEP - (p_global (d_par s) - p_gtl (d_new s))).
  { intros q. rewrite fit_zero by auto. lra. }
  destruct (d_scratch s) eqn:ES; [|destruct (d_traj s) eqn:ET; [|destruct HS; congruence]]; rewrite E; reflexivity.
Qed.

(** ** The flight: start at the origin, "a" at (1,0,0) after one second, "b"
    at (2,0,0) after two. *)
Definition fresh (n : name) (p : V3) : waypoint :=
  mkWp (set_cons 0 p (vertex_new 3)) p p 0 n (-1) [] SIGMA_FIXED.
Definition pa := mkV3 1 0 0.
Definition pb := mkV3 2 0 0.
Definition pc_ := mkV3 3 0 0.
Definition wa := fresh name_a pa.
Definition wb := fresh name_b pb.
Definition wc := fresh name_c pc_.
Definition tr1 := sag v3_zero [(1, pa); (1, pb)].
Definition wd := drone_waypoint v3_zero.
(** The published waypoints. *)
Definition dyn1 : list waypoint :=
  [wp_set_time 0 (wp_set_index 0 wd); wp_set_time 1 (wp_set_index 1 wa); wp_set_time 2 (wp_set_index 2 wb)].
Definition par1 : params := mkParams 0 STEP 0 1 0.
Definition st1 : state :=
  mkState par1 par1 (Some tr1) FNone false v3_zero dyn1 dyn1 [] [] [] false false false true (/ 100) false 0 PTop.
Definition trace1 : list (event * obs) :=
  [(SetSpeed 1, Quiet); (SetWaypoints [wa; wb], Quiet)] ++
  backs [Quiet; Quiet; Quiet; Quiet; Quiet; Quiet; Quiet; Quiet; Launched; Quiet] ++
  [(CompSpeed, Quiet); (CompDone tr1 (/ 100), Quiet); (Poll, Swapped); (PollEnd, Quiet)].

Lemma fresh_ok n p : wp_ok (fresh n p).
Proof. split; [reflexivity|]. exists (v3_list p). split; [apply get_set_same|reflexivity]. Qed.
Lemma fresh_stop n p : stop_vertex (w_vertex (fresh n p)) p.
Proof. split; [reflexivity|]. intros k c H. cbn in H. discriminate. Qed.
Lemma set_stop_vertex v p k : stop_vertex v p -> (1 <= k <= 4)%nat -> stop_vertex (set_cons k v3_zero v) p.
Proof.
  intros [H0 HK] Hk. split; [rewrite get_set_other by lia; auto|].
  intros j c. destruct (Nat.eq_dec (S j) k) as [<-|Hn].
  - rewrite get_set_same. intros E; inversion E. split; [lia|reflexivity].
  - rewrite get_set_other by lia. apply HK.
Qed.
Lemma rest_stop v p : stop_vertex v p -> stop_vertex (at_rest_end v) p.
Proof. intros H. unfold at_rest_end. apply set_stop_vertex; [apply set_stop_vertex; auto|]; lia. Qed.
Lemma drone_stop p : stop_vertex (w_vertex (drone_waypoint p)) p.
Proof.
  unfold drone_waypoint. cbn [wp_set_constraint w_vertex]. apply set_stop_vertex; [apply set_stop_vertex|]; try lia.
  split; [reflexivity|]. intros k c H. cbn in H. discriminate.
Qed.

Definition l1 : state :=
  mkState (mkParams 0 0 0 1 0) (mkParams 0 0 0 1 0) None FStarted true v3_zero [] [wd; wa; wb] [] [] []
    false true false false 0 false 0 PTop.
Lemma launched1 : launched (do_set [wa; wb] (do_speed 1 (init v3_zero))) = l1.
Proof. reflexivity. Qed.
Lemma retime1 : retime (t_segs tr1) 0 0 [wd; wa; wb] = Some dyn1.
Proof.
  cbn [retime cumulative_time t_segs tr1 sag go go_segs length Nat.ltb Nat.leb firstn rev app fold_left s_time go_seg].
  replace (0 + 0) with 0 by lra. replace (0 + 1 + 0) with 1 by lra. replace (0 + 1 + 1 + 0) with 2 by lra. reflexivity.
Qed.
Lemma copy1 : map wp_copy dyn1 = dyn1. Proof. reflexivity. Qed.
Lemma swap1 : option_map settle (do_swap tr1 (set_fut (FReady tr1) (set_tc (/ 100) (set_next dyn1 l1)))) = Some st1.
Proof.
  rewrite swap_small; [|cbn; lra|left; reflexivity]. f_equal.
  replace (STEP - _) with STEP; [|cbn; lra]. unfold swapped. cbn [d_next set_fut set_tc set_next]. rewrite copy1. reflexivity.
Qed.
Lemma full1 : full_post [w_vertex wd; w_vertex wa; at_rest_end (w_vertex wb)] tr1.
Proof.
  apply sag_full; [repeat constructor; cbn; lra|discriminate|].
  constructor; [apply drone_stop|]. constructor; [apply fresh_stop|]. constructor; [apply rest_stop, fresh_stop|constructor].
Qed.
Lemma run1 : run full_post (init v3_zero) trace1 st1.
Proof.
  unfold trace1. econstructor; [exact Logic.I|reflexivity|].
  econstructor; [cbn; repeat constructor; apply fresh_ok|reflexivity|].
  cbn [app]. eapply run_app.
  - apply launch_solo; try reflexivity. discriminate.
  - rewrite launched1.
    apply (finish_solo _ _ [w_vertex wd; w_vertex wa; at_rest_end (w_vertex wb)] tr1 (/ 100) dyn1); try reflexivity.
    + cbn. lia.
    + lra.
    + exact full1.
    + exact retime1.
    + exact swap1.
Qed.

(** An evaluation at time t and an append of "c". *)
Definition at1 (t : R) : state := do_eval t st1.
Lemma run_at1 t : run full_post (init v3_zero) (trace1 ++ [(Eval t, Quiet)]) (at1 t).
Proof.
  eapply run_app; [apply run1|]. apply (run_cons _ _ _ _ (at1 t)); [cbn; discriminate|reflexivity|constructor].
Qed.
Definition req (t : R) : state := do_append wc (at1 t).
Lemma run_req t : run full_post (init v3_zero) (trace1 ++ [(Eval t, Quiet); (Append wc, Quiet)]) (req t).
Proof.
  eapply run_app; [apply run1|].
  econstructor; [cbn; discriminate|reflexivity|]. econstructor; [apply fresh_ok|reflexivity|constructor].
Qed.
Definition sq (t : R) : state := copied (collected (req t)).
(** Reference of the first trajectory at local time l. *)
Definition ref1 (l : R) (d : nat) : V3 := eval_modified tr1 dyn1 (l + 0) l d.
Definition sp0 (t : R) : waypoint := stitch_waypoint [ref1 (t - 0 + STEP) 0; ref1 (t - 0 + STEP) 1; ref1 (t - 0 + STEP) 2].
Definition sp1 (t : R) : waypoint := stitch_waypoint [ref1 (t - 0 + STEP + 5 * (2 * / 100)) 0].

Lemma req_zone t : t < 9 / 10 -> 0 <= t -> in_zone (req t) = false.
Proof.
  intros Ht H0. cbn [in_zone d_traj req at1 do_append do_eval set_flag set_queues set_par st1 d_dyn d_par p_global d_tc dyn1].
  unfold dyn1. cbn [zone_scan]. change (named (wp_set_time 0 (wp_set_index 0 wd))) with false.
  change (named (wp_set_time 1 (wp_set_index 1 wa))) with true. cbn [andb]. cbn [wp_set_time wp_set_index w_time].
  unfold security_time, computation_time. rcase; [|lra]. rcase; [auto|lra].
Qed.
Lemma req_stitch t : t <= 19 / 10 -> can_stitch (sq t) = true.
Proof.
  intros Ht. cbn. unfold computation_time. rcase; auto. lra.
Qed.
Definition kept (w : waypoint) : waypoint := wp_reset (wp_copy w).
Lemma req_next t : 0 < t <= 1 -> next_waypoints (req t) =
  [wp_set_time 1 (wp_set_index 1 wa); wp_set_time 2 (wp_set_index 2 wb); wc].
Proof.
  intros Ht. unfold next_waypoints. cbn [d_set d_add d_mod d_dyn d_par p_global req at1 do_append do_eval set_flag set_queues set_par st1 dyn1 fold_left map filter_passed filter app].
  cbn [wp_copy w_time wp_set_time wp_set_index]. repeat (rcase; try lra). cbn [negb map]. reflexivity.
Qed.
Lemma req_next0 : next_waypoints (req 0) =
  [wp_set_time 0 (wp_set_index 0 wd); wp_set_time 1 (wp_set_index 1 wa); wp_set_time 2 (wp_set_index 2 wb); wc].
Proof.
  unfold next_waypoints. cbn [d_set d_add d_mod d_dyn d_par p_global req at1 do_append do_eval set_flag set_queues set_par st1 dyn1 fold_left map filter_passed filter app].
  cbn [wp_copy w_time wp_set_time wp_set_index]. repeat (rcase; try lra). cbn [negb map]. reflexivity.
Qed.
Lemma launch_req t : 0 <= t < 9 / 10 ->
  run full_post (req t) (backs [Quiet; Quiet; Quiet; Quiet; Quiet; Quiet; Quiet; Quiet; Launched; Quiet]) (launched (req t)).
Proof.
  intros Ht. apply launch_solo; try reflexivity; [apply req_zone; lra|].
  destruct (Req_dec t 0) as [->|Hn]; [rewrite req_next0; discriminate|rewrite req_next by lra; discriminate].
Qed.
Lemma launched_next t : t <= 19 / 10 -> d_next (launched (req t)) = stitch_waypoints tr1 (sq t).
Proof.
  intros Ht. unfold launched, started. fold (sq t). rewrite req_stitch by auto.
  change (d_traj (sq t)) with (Some tr1). reflexivity.
Qed.
Lemma sq_stitch t : stitch_waypoints tr1 (sq t) = sp0 t :: sp1 t ::
  map wp_copy (filter (fun w => negb (stitch_drop (t - 0 + STEP + 5 * (2 * / 100) + 5 * (2 * / 100) + 0) w)) (next_waypoints (req t))).
Proof. reflexivity. Qed.
Lemma ready_req t : 0 <= t < 9 / 10 ->
  run full_post (req t) (backs [Quiet; Quiet; Quiet; Quiet; Quiet; Quiet; Quiet; Quiet]) (ready (req t)).
Proof.
  intros Ht. apply ready_solo; try reflexivity; [apply req_zone; lra|].
  destruct (Req_dec t 0) as [->|Hn]; [rewrite req_next0; discriminate|rewrite req_next by lra; discriminate].
Qed.
Lemma params_req t : 0 <= t < 9 / 10 ->
  run full_post (req t) (backs [Quiet; Quiet; Quiet; Quiet]) (set_pc PParams (collected (req t))).
Proof.
  intros Ht. apply params_solo; try reflexivity; [apply req_zone; lra|].
  destruct (Req_dec t 0) as [->|Hn]; [rewrite req_next0; discriminate|rewrite req_next by lra; discriminate].
Qed.
Lemma ready_scratch t : t <= 19 / 10 -> d_scratch (ready (req t)) = false.
Proof. intros Ht. unfold ready, started. fold (sq t). rewrite req_stitch by auto. change (d_traj (sq t)) with (Some tr1). reflexivity. Qed.
Lemma ready_next s : d_next (set_pc PClear (set_fut FStarted (ready s))) = d_next (launched s). Proof. reflexivity. Qed.
(** At 0.8 s waypoint "a", due at 1 s, is dropped. *)
Lemma launched_08 : d_next (launched (req (8 / 10))) =
  [sp0 (8 / 10); sp1 (8 / 10); wp_set_time 2 (wp_set_index 2 wb); wc].
Proof.
  rewrite launched_next by lra. rewrite sq_stitch, req_next by lra. pose proof STEP_pos.
  cbn [filter]. unfold stitch_drop. cbn [w_time wp_set_time wp_set_index wc fresh]. repeat (rcase; try lra). reflexivity.
Qed.
(** At 0 s the start point is kept. *)
Lemma launched_0 : d_next (launched (req 0)) =
  [sp0 0; sp1 0; wp_set_time 0 (wp_set_index 0 wd); wp_set_time 1 (wp_set_index 1 wa); wp_set_time 2 (wp_set_index 2 wb); wc].
Proof.
  rewrite launched_next by lra. rewrite sq_stitch, req_next0. pose proof STEP_pos.
  cbn [filter]. unfold stitch_drop. cbn [w_time wp_set_time wp_set_index wc fresh]. repeat (rcase; try lra); reflexivity.
Qed.

Lemma stitch_start p v a : start_vertex (w_vertex (stitch_waypoint [p; v; a])) p v a.
Proof.
  split; [reflexivity|]. intros [|[|[|k]]] c H; cbn in H; inversion H; (split; [lia|reflexivity]).
Qed.
Lemma stitch_stop p : stop_vertex (w_vertex (stitch_waypoint [p])) p.
Proof. split; [reflexivity|]. intros k c H. cbn in H. discriminate. Qed.

(** The second flight of the counterexamples (launched at 0 s and at 0.8 s). *)
Definition tr2 : trajectory :=
  go (ref1 (0 - 0 + STEP) 0) (ref1 (0 - 0 + STEP) 1) (ref1 (0 - 0 + STEP) 2)
     [(1, ref1 (0 - 0 + STEP + 5 * (2 * / 100)) 0); (1, v3_zero); (1, pa); (1, pb); (1, pc_)].
Lemma tr2_full vs : extract_vertices (d_next (launched (req 0))) = Some vs -> full_post vs tr2.
Proof.
  rewrite launched_0. intros E. inversion E; subst. clear E. cbn [removelast last map app].
  apply go_full; [repeat constructor; cbn; lra|discriminate|apply stitch_start|]. cbn [map snd].
  constructor; [apply stitch_stop|]. constructor; [apply drone_stop|]. constructor; [apply (fresh_stop no_name)|].
  constructor; [apply (fresh_stop no_name)|]. constructor; [apply rest_stop, (fresh_stop no_name)|]. constructor.
Qed.
Definition tr3 : trajectory :=
  go (ref1 (8 / 10 - 0 + STEP) 0) (ref1 (8 / 10 - 0 + STEP) 1) (ref1 (8 / 10 - 0 + STEP) 2)
     [(1, ref1 (8 / 10 - 0 + STEP + 5 * (2 * / 100)) 0); (1, pb); (1, pc_)].
Lemma tr3_full vs : extract_vertices (d_next (launched (req (8 / 10)))) = Some vs -> full_post vs tr3.
Proof.
  rewrite launched_08. intros E. inversion E; subst. clear E. cbn [removelast last map app].
  apply go_full; [repeat constructor; cbn; lra|discriminate|apply stitch_start|]. cbn [map snd].
  constructor; [apply stitch_stop|]. constructor; [apply (fresh_stop no_name)|]. constructor; [apply rest_stop, (fresh_stop no_name)|]. constructor.
Qed.
