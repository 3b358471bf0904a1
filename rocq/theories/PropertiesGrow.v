(** Property theorems: the points that stitching adds to the plan (C101). *)
From Coq Require Import Reals Lra Lia List Bool ZArith Arith.
From Coquelicot Require Import Coquelicot.
From Verif Require Import Base PolyModel PolySpec VertexModel TrajModel TrajSpec TrajProofs RangeProofs PolyProofs
  WaypointModel WaypointProofs Names DynModel DynSpec DynProofs DynFrame DynTrace DynQueue DynMore EvalProofs StopAndGo
  DynScenario PropertiesDyn PropertiesReq PropertiesEval PropertiesLife PropertiesLife2.
Import List ListNotations.
Local Open Scope R_scope.
Set Bullet Behavior "Strict Subproofs".

(** ** Specification: the waypoints of a list called "stitching_point", and
    those of the published plan that have not been passed. *)
Definition stitching (ws : list waypoint) : nat :=
  length (filter (fun n => name_eqb n stitching_point) (map w_name ws)).
Definition not_passed (s : state) : list waypoint :=
  filter (fun w => Rleb (p_global (d_par s)) (w_time w)) (d_dyn s).

Lemma stitching_names ws ws' : map w_name ws = map w_name ws' -> stitching ws = stitching ws'.
Proof. intros H. unfold stitching. now rewrite H. Qed.
Lemma stitching_app a b : stitching (a ++ b) = (stitching a + stitching b)%nat.
Proof. unfold stitching. now rewrite map_app, filter_app, app_length. Qed.
Lemma stitching_cons w ws : stitching (w :: ws) = ((if name_eqb (w_name w) stitching_point then 1 else 0) + stitching ws)%nat.
Proof. unfold stitching. cbn [map filter]. destruct (name_eqb _ _); reflexivity. Qed.
Lemma stitching_filter f ws : (stitching (filter f ws) <= stitching ws)%nat.
Proof. induction ws as [|w ws IH]; cbn [filter]; [lia|]. destruct (f w); rewrite !stitching_cons; lia. Qed.
Definition key (w : waypoint) : name * R := (w_name w, w_time w).
Lemma copy_keys ws : map key (map wp_copy ws) = map key ws.
Proof. rewrite map_map. reflexivity. Qed.
Lemma key_names ws ws' : map key ws = map key ws' -> map w_name ws = map w_name ws'.
Proof.
  intros H. apply (f_equal (map fst)) in H. rewrite !map_map in H. exact H.
Qed.
Lemma copy_names ws : map w_name (map wp_copy ws) = map w_name ws.
Proof. rewrite map_map. reflexivity. Qed.
Lemma reset_keys n p ws : map key (reset_named n p ws) = map key ws.
Proof.
  unfold reset_named. destruct (name_eqb n no_name); [reflexivity|]. rewrite map_map. apply map_ext. intros w.
  destruct (name_eqb _ _); reflexivity.
Qed.
Lemma resets_keys ms : forall ws, map key (fold_left (fun ws m => reset_named (fst m) (snd m) ws) ms ws) = map key ws.
Proof. induction ms as [|m ms IH]; intros ws; cbn [fold_left]; [reflexivity|]. now rewrite IH, reset_keys. Qed.
Lemma passed_keys s : map key (map wp_reset (filter_passed (p_global (d_par s)) (map wp_copy (d_dyn s)))) = map key (not_passed s).
Proof.
  rewrite map_map. unfold not_passed, filter_passed. change (fun x => key (wp_reset x)) with key.
  induction (d_dyn s) as [|w ws IH]; [reflexivity|]. cbn [map filter wp_copy w_time].
  repeat rcase; cbn [negb map]; try lra; [exact IH|]. f_equal. exact IH.
Qed.
(** What is collected for the next plan. *)
Definition asked (s : state) : list waypoint :=
  match d_set s with [] => not_passed s | ws => ws end ++ d_add s.
Lemma next_keys s : map key (next_waypoints s) = map key (asked s).
Proof.
  unfold next_waypoints, asked. rewrite resets_keys, !map_app, copy_keys. f_equal.
  destruct (d_set s) as [|w ws]; [apply passed_keys|apply copy_keys].
Qed.
Lemma filter_keys (f : R -> bool) ws ws' : map key ws = map key ws' ->
  map key (filter (fun w => f (w_time w)) ws) = map key (filter (fun w => f (w_time w)) ws').
Proof.
  revert ws'; induction ws as [|w ws IH]; intros [|w' ws'] H; try discriminate; [reflexivity|].
  cbn [map] in H. injection H as HN HT HK. cbn [filter]. rewrite HT. destruct (f (w_time w')); cbn [map]; rewrite (IH _ HK); auto.
  f_equal. unfold key. congruence.
Qed.

(** C101: one regeneration adds at most two points to what was collected, in
    every execution: [s] collects, [s2] hands the plan over, [s4] publishes. *)
Theorem C101_plan :
  forall (s s1 s2 s3 s4 : state) (o : obs) (h h' : list (event * obs)),
  reachable s -> d_pc s = PGen -> step s Back = Ok s1 o -> d_pc s1 = PParams ->
  run basic_post s1 h s2 -> d_pc s2 = PAsync -> no_obs Launched h ->
  run basic_post s2 h' s3 -> no_obs Swapped h' -> step s3 Poll = Ok s4 Swapped ->
  map w_name (dynamic_waypoints s4) = no_name :: map w_name (asked s) \/
  exists h1 sp h2, h = h1 ++ h2 /\ run basic_post s1 h1 sp /\
    map w_name (dynamic_waypoints s4) = stitching_point :: stitching_point ::
      map w_name (filter (fun w => negb (Rltb 0 (w_time w) &&
        Rltb (w_time w) (p_local (d_par sp) + p_off (d_par sp) + 20 * d_tc sp + p_gtl (d_par sp)))) (asked s)).
Proof.
  intros s s1 s2 s3 s4 o h h' HR HP H1 HQ R1 HA HL R2 HS H4.
  assert (HR1 : reachable s1) by (eapply (reachable_step s Back); eauto; exact Logic.I).
  assert (HR2 : reachable s2).
  { destruct HR1 as (j & tr & R). exists j, (tr ++ h). eapply run_app; eauto. }
  assert (E1 : d_next s1 = next_waypoints s).
  { cbn [step] in H1. unfold back_step in H1. rewrite HP in H1.
    destruct (next_waypoints s); inversion H1; subst; [discriminate|reflexivity]. }
  pose proof (C04_published _ _ _ _ HR2 HA R2 HS H4) as HF.
  assert (EN : map w_name (dynamic_waypoints s4) = map w_name (d_next s2)).
  { clear - HF. induction HF as [|w w' l l' (_ & _ & _ & E) _ IH]; cbn [map]; congruence. }
  rewrite EN. pose proof (next_keys s) as HK. rewrite <- E1 in HK.
  destruct (C04_launch_list _ _ _ HR1 HQ R1 HA HL) as [(w & E & EW)|(t1 & sp & t2 & w1 & w2 & ws & EH & RS & E & N1 & N2 & EW)]; rewrite E.
  - left. cbn [map]. rewrite EW. f_equal. now apply key_names.
  - right. exists t1, sp, t2. split; [exact EH|]. split; [exact RS|]. cbn [map]. rewrite N1, N2, copy_names. do 2 f_equal.
    subst ws. apply key_names.
    apply (filter_keys (fun t => negb (Rltb 0 t && Rltb t (p_local (d_par sp) + p_off (d_par sp) + 20 * d_tc sp + p_gtl (d_par sp))))).
    exact HK.
Qed.
(** ... so the plan grows by at most two waypoints, both of them called
    "stitching_point". *)
Theorem C101_bound :
  forall (s s1 s2 s3 s4 : state) (o : obs) (h h' : list (event * obs)),
  reachable s -> d_pc s = PGen -> step s Back = Ok s1 o -> d_pc s1 = PParams ->
  run basic_post s1 h s2 -> d_pc s2 = PAsync -> no_obs Launched h ->
  run basic_post s2 h' s3 -> no_obs Swapped h' -> step s3 Poll = Ok s4 Swapped ->
  (length (dynamic_waypoints s4) <= 2 + length (asked s))%nat /\
  (stitching (dynamic_waypoints s4) <= 2 + stitching (asked s))%nat.
Proof.
  intros s s1 s2 s3 s4 o h h' HR HP H1 HQ R1 HA HL R2 HS H4.
  rewrite <- (map_length w_name (dynamic_waypoints s4)). unfold stitching at 1.
  destruct (C101_plan _ _ _ _ _ _ _ _ HR HP H1 HQ R1 HA HL R2 HS H4) as [->|(h1 & sp & h2 & _ & _ & ->)].
  - cbn [length filter]. rewrite map_length. change (name_eqb no_name stitching_point) with false. cbv iota.
    change (length (filter (fun n => name_eqb n stitching_point) (map w_name (asked s)))) with (stitching (asked s)). lia.
  - set (f := fun w => _). pose proof (stitching_filter f (asked s)) as HF. unfold stitching in HF at 1.
    cbn [length filter]. change (name_eqb stitching_point stitching_point) with true. cbv iota. cbn [length]. rewrite map_length.
    assert (length (filter f (asked s)) <= length (asked s))%nat.
    { clear. induction (asked s) as [|w l IH]; cbn [filter length]; [lia|]. destruct (f w); cbn [length]; lia. }
    lia.
Qed.
Print Assumptions C101_plan.
Print Assumptions C101_bound.

(** ** Nothing bounds them over a flight: an application that moves waypoint
    "a" every 0.3 s. *)
Definition stops (w : waypoint) : Prop := exists p, stop_vertex (w_vertex w) p.
Record loop (T : R) (s : state) : Prop := mkLoop {
  lp_pc : d_pc s = PTop; lp_stop : d_stop s = false; lp_comp : d_computing s = false; lp_lock : d_fut_locked s = false;
  lp_tc : d_tc s = / 100; lp_add : d_add s = []; lp_set : d_set s = []; lp_mod : d_mod s = [];
  lp_gtl : p_gtl (d_par s) = T; lp_off : p_off (d_par s) = STEP;
  lp_traj : exists tr, d_traj s = Some tr /\ 2 <= t_max tr;
  lp_dyn : exists w ws, d_dyn s = w :: ws /\ w_time w = T /\ ws <> [] /\ Forall (fun w => T + 1 <= w_time w /\ stops w) ws }.
Definition round (t : R) (n : name) (p : V3) (tr : trajectory) : list (event * obs) :=
  [(Eval t, Quiet); (Modify n p true, Quiet)] ++
  backs [Quiet; Quiet; Quiet; Quiet; Quiet; Quiet; Quiet; Quiet; Launched; Quiet] ++
  [(CompSpeed, Quiet); (CompDone tr (/ 100), Quiet); (Poll, Swapped); (PollEnd, Quiet)].

Lemma stop_reset p w : stops w -> stops (wp_reset_to p w).
Proof.
  intros (q & H0 & HK). exists p. cbn [w_vertex wp_reset_to wp_reset]. split; [rewrite get_set_same; reflexivity|].
  intros k c. rewrite get_set_other by lia. apply HK.
Qed.
Lemma reset_self w : wp_reset w = wp_reset_to (w_cur w) w. Proof. reflexivity. Qed.
Lemma zone_far ws t sec : Forall (fun w => w_time w <= t \/ t + sec < w_time w) ws -> zone_scan ws t sec = false.
Proof.
  induction 1 as [|w ws H _ IH]; cbn [zone_scan]; [reflexivity|].
  rcase; [|rewrite andb_false_r; exact IH]. destruct (named w); cbn [andb]; [|exact IH]. rcase; [reflexivity|lra].
Qed.
(** Moves of one name. *)
Definition moved (n : name) (p : V3) (w : waypoint) : waypoint :=
  if name_eqb n no_name then wp_reset (wp_copy w)
  else if name_eqb (w_name w) n then wp_reset_to p (wp_reset (wp_copy w)) else wp_reset (wp_copy w).
Lemma moved_time n p w : w_time (moved n p w) = w_time w.
Proof. unfold moved. destruct (name_eqb n no_name); [|destruct (name_eqb _ _)]; reflexivity. Qed.
Lemma moved_name n p w : w_name (moved n p w) = w_name w.
Proof. unfold moved. destruct (name_eqb n no_name); [|destruct (name_eqb _ _)]; reflexivity. Qed.
Lemma moved_mods n p w : w_mods (moved n p w) = [].
Proof. unfold moved. destruct (name_eqb n no_name); [|destruct (name_eqb _ _)]; reflexivity. Qed.
Lemma moved_stops n p w : stops w -> stops (moved n p w).
Proof.
  intros H. assert (H' : stops (wp_reset (wp_copy w))) by (rewrite reset_self; apply stop_reset; exact H).
  unfold moved. destruct (name_eqb n no_name); [auto|]. destruct (name_eqb _ _); auto using stop_reset.
Qed.
Lemma moved_copy n p w : wp_copy (moved n p w) = moved n p w.
Proof. unfold moved. destruct (name_eqb n no_name); [|destruct (name_eqb _ _)]; reflexivity. Qed.
Lemma moved_orig n p w : w_orig (moved n p w) = if negb (name_eqb n no_name) && name_eqb (w_name w) n then p else w_cur w.
Proof. unfold moved. destruct (name_eqb n no_name); [reflexivity|]. destruct (name_eqb _ _); reflexivity. Qed.

Lemma stops_list ws : Forall stops ws -> exists ps, Forall2 (fun w p => stop_vertex (w_vertex w) p) ws ps.
Proof. induction 1 as [|w ws [p Hp] _ (ps & IH)]; [exists []; constructor|exists (p :: ps); constructor; auto]. Qed.
Lemma rest_last (vs : list vertex) (ps : list V3) d : vs <> [] -> Forall2 stop_vertex vs ps ->
  Forall2 stop_vertex (removelast vs ++ [at_rest_end (last vs d)]) ps.
Proof.
  intros Hne H. induction H as [|v p vs ps Hv H IH]; [congruence|]. destruct vs as [|v' vs].
  - inversion H; subst. cbn [removelast last app]. constructor; [apply rest_stop; auto|constructor].
  - change (removelast (v :: v' :: vs)) with (v :: removelast (v' :: vs)). cbn [app].
    change (last (v :: v' :: vs) d) with (last (v' :: vs) d). constructor; [auto|apply IH; discriminate].
Qed.
(** Segments of one second. *)
Definition seconds (ps : list V3) : list (R * V3) := map (fun p => (1, p)) ps.
Lemma seconds_pos ps : Forall (fun hq => 0 < fst hq) (seconds ps).
Proof. unfold seconds. induction ps; cbn [map]; constructor; cbn [fst]; auto; lra. Qed.
Lemma seconds_snd ps : map snd (seconds ps) = ps.
Proof. unfold seconds. rewrite map_map. cbn [snd]. apply map_id. Qed.
Lemma seconds_start p v a ps i : (i <= length ps)%nat -> start_of (go p v a (seconds ps)) i = INR i.
Proof.
  intros H. unfold start_of. cbn [t_segs go]. rewrite <- firstn_map, go_segs_times. unfold seconds. rewrite map_map. cbn [fst].
  revert i H; induction ps as [|q ps IH]; intros [|i] H; cbn [map firstn lsum length] in *; try reflexivity; [lia|].
  rewrite IH by lia. rewrite S_INR. lra.
Qed.
Lemma seconds_max p v a ps : t_max (go p v a (seconds ps)) = INR (length ps).
Proof.
  cbn [t_max go]. unfold seconds. rewrite map_map. cbn [fst].
  induction ps as [|q ps IH]; cbn [map lsum length]; [reflexivity|]. rewrite S_INR, IH. lra.
Qed.

Lemma kept_all n p T ws t b s :
  d_set s = [] -> d_add s = [] -> d_mod s = [(n, p)] -> p_global (d_par s) = t -> T < t -> t <= T + 1 -> b <= T + 1 ->
  (exists w, d_dyn s = w :: ws /\ w_time w = T) -> Forall (fun w => T + 1 <= w_time w /\ stops w) ws ->
  next_waypoints s = map (moved n p) ws /\
  filter (fun w => negb (stitch_drop b w)) (next_waypoints s) = map (moved n p) ws.
Proof.
  intros HS HA HM HG H1 H2 H3 (w & HD & HT) HF.
  assert (E : next_waypoints s = map (moved n p) ws).
  { unfold next_waypoints. rewrite HS, HA, HM, HG, HD. cbn [map fold_left fst snd filter_passed filter w_time wp_copy].
    rewrite HT. rcase; [|lra]. cbn [negb]. rewrite app_nil_r.
    assert (EF : filter (fun w => negb (Rltb (w_time w) t)) (map wp_copy ws) = map wp_copy ws).
    { clear - HF H2. induction HF as [|w ws [HW _] _ IH]; cbn [map filter]; [reflexivity|]. cbn [w_time wp_copy].
      rcase; [lra|]. cbn [negb]. now rewrite IH. }
    rewrite EF. unfold reset_named, moved. destruct (name_eqb n no_name); [now rewrite map_map|]. rewrite !map_map.
    apply map_ext. intros x. cbn [w_name wp_reset wp_copy]. reflexivity. }
  split; [exact E|]. rewrite E. clear - HF H3.
  induction HF as [|w ws [HW _] _ IH]; cbn [map filter]; [reflexivity|]. unfold stitch_drop at 1. rewrite moved_time.
  rcase; [lra|]. cbn [andb negb]. now rewrite IH.
Qed.
Lemma retime_seconds p v a ps g ws : (length ws = S (length ps))%nat ->
  exists ws', retime (t_segs (go p v a (seconds ps))) g 0 ws = Some ws' /\
    forall j w', nth_error ws' j = Some w' -> exists w, nth_error ws j = Some w /\
      w' = wp_set_time (INR j + g) (wp_set_index (Z.of_nat j) w).
Proof.
  intros HL. destruct (retime_spec (go p v a (seconds ps)) g ws 0) as (ws' & E & HL' & HN).
  { rewrite go_length. unfold seconds. rewrite map_length. lia. }
  exists ws'. split; [exact E|]. intros j w' Hj. destruct (HN j w' Hj) as (w & A & B). exists w. split; [exact A|].
  rewrite B. rewrite seconds_start; [reflexivity|]. cbn [Nat.add].
  assert (j < length ws)%nat by (rewrite <- HL'; apply nth_error_Some; congruence). lia.
Qed.
Lemma retime_all segs g : forall ws i ws', retime segs g i ws = Some ws' ->
  Forall2 (fun w w' => exists t k, w' = wp_set_time t (wp_set_index k w)) ws ws'.
Proof.
  induction ws as [|w ws IH]; intros i ws' H; cbn [retime] in H; [inversion H; constructor|].
  destruct (cumulative_time segs i); [|discriminate]. destruct (retime segs g (S i) ws) as [l|] eqn:E; [|discriminate].
  inversion H; subst. constructor; [do 2 eexists; reflexivity|eapply IH; eauto].
Qed.

Lemma launched_rest s : d_stop (launched s) = d_stop s /\ d_add (launched s) = [] /\ d_set (launched s) = [] /\ d_mod (launched s) = [].
Proof. unfold launched, started. destruct (if can_stitch _ then _ else _); repeat split. Qed.
Lemma swapped_rest off tr f c ws s x : x = swapped off tr (set_fut f (set_tc c (set_next ws s))) ->
  d_stop x = d_stop s /\ d_fut_locked x = d_fut_locked s /\ d_add x = d_add s /\ d_set x = d_set s /\ d_mod x = d_mod s /\
  p_gtl (d_par x) = p_gtl (d_new s) /\ p_off (d_par x) = off /\ d_traj x = Some tr /\ d_dyn x = map wp_copy ws /\ d_pc x = d_pc s /\
  d_computing x = false /\ d_tc x = c.
Proof. intros ->. repeat split. Qed.
Lemma launched_grow T t n p old w ws q : t = T + 3 / 10 -> d_traj q = Some old -> 2 <= t_max old -> d_tc q = / 100 ->
  d_set q = [] -> d_add q = [] -> d_mod q = [(n, p)] -> p_gtl (d_par q) = T -> p_off (d_par q) = STEP ->
  p_global (d_par q) = t -> p_local (d_par q) = t - T -> d_dyn q = w :: ws -> w_time w = T ->
  Forall (fun w => T + 1 <= w_time w /\ stops w) ws ->
  next_waypoints q = map (moved n p) ws /\ in_zone q = false /\
  exists p0 p1 p2 p3, d_next (launched q) = stitch_waypoint [p0; p1; p2] :: stitch_waypoint [p3] :: map (moved n p) ws.
Proof.
  intros Et HO HM HT HS HA HQ HG HF HGl HL HD HW HWs.
  assert (Q1 : next_waypoints q = map (moved n p) ws).
  { apply (kept_all n p T ws t T); try lra; eauto. }
  split; [exact Q1|]. split.
  { unfold in_zone. rewrite HO. apply zone_far. rewrite HD, HT, HGl. unfold security_time, computation_time. constructor; [left; lra|].
    clear - HWs Et. induction HWs as [|x l [H _] _ IH]; constructor; auto. right. lra. }
  assert (QS : can_stitch (copied (collected q)) = true).
  { unfold can_stitch. change (d_traj (copied (collected q))) with (d_traj q).
    change (p_gtl (d_par (copied (collected q)))) with (p_gtl (d_par q)).
    change (p_global (d_par (copied (collected q)))) with (p_global (d_par q)). change (d_tc (copied (collected q))) with (d_tc q).
    rewrite HO, HG, HT, HGl. unfold computation_time. rcase; [lra|reflexivity]. }
  do 4 eexists. unfold launched, started. rewrite QS. change (d_traj (copied (collected q))) with (d_traj q). rewrite HO.
  cbn [d_next set_pc set_flag set_fut set_computing set_next]. unfold stitch_waypoints. f_equal. f_equal.
  destruct (kept_all n p T ws t (t - T + STEP + 5 * (2 * / 100) + 5 * (2 * / 100) + T) q) as [_ K];
    try (pose proof STEP_pos; lra); eauto.
  change (d_next (copied (collected q))) with (next_waypoints q). change (d_tc (copied (collected q))) with (d_tc q).
  change (p_gtl (d_par (copied (collected q)))) with (p_gtl (d_par q)).
  change (p_off (d_par (copied (collected q)))) with (p_off (d_par q)).
  change (p_local (d_new (copied (collected q)))) with (p_local (d_par q)).
  unfold computation_time. rewrite HG, HF, HL, HT, K, map_map. apply map_ext. intros x. apply moved_copy.
Qed.
Lemma full_grow p0 p1 p2 p3 ps ms : ms <> [] -> Forall2 (fun w p => stop_vertex (w_vertex w) p) ms ps ->
  exists vs, extract_vertices (stitch_waypoint [p0; p1; p2] :: stitch_waypoint [p3] :: ms) = Some vs /\ (2 <= length vs)%nat /\
    full_post vs (go p0 p1 p2 (seconds (p3 :: ps))).
Proof.
  intros Hne HP. set (us := w_vertex (stitch_waypoint [p3]) :: map w_vertex ms).
  exists (w_vertex (stitch_waypoint [p0; p1; p2]) :: (removelast us ++ [at_rest_end (last us (vertex_new 3))])).
  split; [reflexivity|]. split; [cbn [length]; rewrite app_length; cbn [length]; lia|].
  apply go_full; [apply seconds_pos|discriminate|apply stitch_start|]. rewrite seconds_snd. apply rest_last; [discriminate|].
  constructor; [apply stitch_stop|]. clear - HP. induction HP; cbn [map]; constructor; auto.
Qed.
Lemma finish_grow lq vs tr ws' g : d_fut lq = FStarted -> d_computing lq = true -> d_fut_locked lq = false ->
  extract_vertices (d_next lq) = Some vs -> (2 <= length vs)%nat -> full_post vs tr ->
  p_gtl (d_new lq) = g -> p_global (d_par lq) = g -> retime (t_segs tr) g 0 (d_next lq) = Some ws' -> d_traj lq <> None ->
  exists s', run full_post lq [(CompSpeed, Quiet); (CompDone tr (/ 100), Quiet); (Poll, Swapped); (PollEnd, Quiet)] s' /\
    s' = swapped STEP tr (set_fut (FReady tr) (set_tc (/ 100) (set_next ws' lq))).
Proof.
  intros HF HC HL HV H2 HP HG HG' HR HT. eexists. split; [|reflexivity]. apply (finish_solo _ _ vs tr (/ 100) ws'); auto; try lra.
  - rewrite HG. exact HR.
  - rewrite swap_small; [|cbn; lra|right; exact HT].
    change (p_global (d_par (set_fut (FReady tr) (set_tc (/ 100) (set_next ws' lq))))) with (p_global (d_par lq)).
    change (p_gtl (d_new (set_fut (FReady tr) (set_tc (/ 100) (set_next ws' lq))))) with (p_gtl (d_new lq)).
    rewrite HG, HG'. replace (STEP - (g - g)) with STEP by lra. reflexivity.
Qed.
Lemma request_grow T t s n p old : p_gtl (d_par s) = T -> d_traj s = Some old -> d_pc s = PTop -> d_mod s = [] ->
  exists q, run full_post s [(Eval t, Quiet); (Modify n p true, Quiet)] q /\ d_traj q = Some old /\ d_tc q = d_tc s /\
    d_set q = d_set s /\ d_add q = d_add s /\ d_mod q = [(n, p)] /\ p_gtl (d_par q) = T /\ p_off (d_par q) = p_off (d_par s) /\
    p_global (d_par q) = t /\ p_local (d_par q) = t - T /\ d_dyn q = d_dyn s /\ d_pc q = PTop /\ d_flag q = true /\
    d_stop q = d_stop s /\ d_computing q = d_computing s /\ d_fut_locked q = d_fut_locked s.
Proof.
  intros HG HO HP HM. exists (do_modify n p true (do_eval t s)). split.
  - apply (run_cons _ _ _ _ (do_eval t s)); [cbn [event_ok]; rewrite HO; discriminate|cbn [step]; rewrite HO; reflexivity|].
    apply (run_cons _ _ _ _ (do_modify n p true (do_eval t s)));
      [exact Logic.I|cbn [step]; unfold todo_locked; change (d_pc (do_eval t s)) with (d_pc s); rewrite HP; reflexivity|constructor].
  - subst T. split; [exact HO|]. repeat (split; [reflexivity|]). split; [cbn; rewrite HM; reflexivity|].
    repeat (split; [first [reflexivity|exact HP]|]). reflexivity.
Qed.
Lemma grow T s n p : loop T s -> exists tr s', run full_post s (round (T + 3 / 10) n p tr) s' /\ loop (T + 3 / 10) s' /\
  map w_name (d_dyn s') = stitching_point :: stitching_point :: tl (map w_name (d_dyn s)) /\
  map w_orig (skipn 2 (d_dyn s')) = map w_orig (map (moved n p) (tl (d_dyn s))) /\
  Forall (fun w => w_mods w = []) (d_dyn s').
Proof.
  intros [LP LS LC LL LT LA LE LM LG LO (old & HO & HM) (w & ws & HD & HT & Hne & HF)].
  remember (T + 3 / 10) as t eqn:Et.
  destruct (request_grow T t s n p old LG HO LP LM)
    as (q & R0 & Q1 & Q2 & Q3 & Q4 & Q5 & Q6 & Q7 & Q8 & Q9 & Q10 & Q11 & Q12 & Q13 & Q14 & Q15).
  rewrite LT in Q2. rewrite LE in Q3. rewrite LA in Q4. rewrite LO in Q7. rewrite HD in Q10. rewrite LS in Q13. rewrite LC in Q14.
  rewrite LL in Q15.
  destruct (launched_grow T t n p old w ws q) as (QN & QZ & p0 & p1 & p2 & p3 & EN); auto.
  assert (RL : run full_post q (backs [Quiet; Quiet; Quiet; Quiet; Quiet; Quiet; Quiet; Quiet; Launched; Quiet]) (launched q)).
  { apply launch_solo; auto. rewrite QN. destruct ws; [congruence|discriminate]. }
  set (ls := stitch_waypoint [p0; p1; p2] :: stitch_waypoint [p3] :: map (moved n p) ws) in *.
  destruct (launched_fields q) as (ET & EP & EW & EF & EC & EK & ED & EPC & ETC).
  destruct (launched_rest q) as (K1 & K2 & K3 & K4). remember (launched q) as lq eqn:Elq. clear Elq.
  destruct (stops_list (map (moved n p) ws)) as (ps & HP).
  { clear - HF. induction HF as [|x l [_ H] _ IH]; cbn [map]; constructor; auto using moved_stops. }
  assert (HLp : length ps = length ws) by (rewrite <- (Forall2_len _ _ _ HP); apply map_length).
  assert (HNe : map (moved n p) ws <> []) by (destruct ws; [congruence|discriminate]).
  destruct (full_grow p0 p1 p2 p3 ps _ HNe HP) as (vs & EV & HV & FP).
  pose proof (seconds_max p0 p1 p2 (p3 :: ps)) as HMx.
  destruct (retime_seconds p0 p1 p2 (p3 :: ps) t ls) as (ws' & ER & HN).
  { cbn [length ls]. rewrite map_length. lia. }
  remember (go p0 p1 p2 (seconds (p3 :: ps))) as tr eqn:Etr. clear Etr. pose proof (retime_all _ _ _ _ _ ER) as HA.
  destruct (finish_grow lq vs tr ws' t) as (s' & RS & ES); auto; try congruence.
  { rewrite EN. exact EV. }
  { rewrite EW. exact Q8. }
  destruct (swapped_rest _ _ _ _ _ _ _ ES) as (S1 & S2 & S3 & S4 & S5 & S6 & S7 & S8 & S9 & S10 & S11 & S12).
  clear ES. exists tr, s'. split; [|split; [|split; [|split]]].
  - unfold round. eapply run_app; [exact R0|]. eapply run_app; [exact RL|exact RS].
  - assert (X : forall j w', nth_error (map wp_copy ws') j = Some w' -> w_time w' = INR j + t).
    { intros j w' Hj. rewrite nth_error_map in Hj. destruct (nth_error ws' j) as [w1|] eqn:E1; [|discriminate].
      inversion Hj; subst. destruct (HN _ _ E1) as (w0 & _ & ->). reflexivity. }
    assert (Y : Forall (fun w => stops w) (tl (map wp_copy ws'))).
    { clear - HA HF. unfold ls in HA. inversion HA as [|? ? ? ? _ HA1]; subst. cbn [map tl].
      inversion HA1 as [|? ? ? ? (t1 & k1 & ->) HA2]; subst. cbn [map]. constructor.
      { eexists. apply stitch_stop. }
      clear HA HA1. revert l'0 HA2. induction HF as [|x l [_ H] _ IH]; intros l' HA2; cbn [map] in HA2; inversion HA2 as [|? ? ? ? (t2 & k2 & ->) HA3]; subst;
        cbn [map]; constructor; auto. destruct (moved_stops n p x H) as (q & Hq). exists q. exact Hq. }
    assert (HLn : length ws' = length ls) by (symmetry; apply (Forall2_len _ _ _ HA)).
    constructor; auto; try congruence.
    + rewrite S6, EW. cbn [p_gtl]. exact Q8.
    + exists tr. split; [exact S8|]. rewrite HMx. cbn [length]. rewrite HLp.
      destruct ws as [|x l]; [congruence|]. cbn [length]. rewrite !S_INR. pose proof (pos_INR (length l)). lra.
    + rewrite S9. destruct (map wp_copy ws') as [|w0 ws0] eqn:EM.
      { apply (f_equal (@length _)) in EM. rewrite map_length, HLn in EM. discriminate. }
      exists w0, ws0. split; [reflexivity|]. split; [rewrite (X 0%nat w0 eq_refl); cbn; lra|]. split.
      { intros ->. apply (f_equal (@length _)) in EM. rewrite map_length, HLn in EM. discriminate. }
      cbn [tl] in Y. apply Forall_forall. intros x Hx. rewrite Forall_forall in Y. split; [|auto].
      apply In_nth_error in Hx. destruct Hx as [j Hj]. rewrite (X (S j) x Hj), S_INR. pose proof (pos_INR j). lra.
  - rewrite S9. rewrite copy_names, HD. cbn [map tl].
    assert (E : map w_name ws' = map w_name ls).
    { clear - HA. induction HA as [|x y l l' (t1 & k1 & ->) _ IH]; cbn [map]; [reflexivity|]. rewrite IH. reflexivity. }
    rewrite E. unfold ls. cbn [map]. rewrite map_map. do 2 f_equal. apply map_ext. intros x. apply moved_name.
  - rewrite S9. rewrite HD. cbn [tl].
    assert (E : map w_orig (map wp_copy ws') = map w_orig ls).
    { clear - HA. induction HA as [|x y l l' (t1 & k1 & ->) _ IH]; cbn [map]; [reflexivity|]. rewrite IH. reflexivity. }
    rewrite <- skipn_map, E. reflexivity.
  - rewrite S9.
    assert (E : Forall (fun w => w_mods w = []) ls).
    { unfold ls. constructor; [reflexivity|]. constructor; [reflexivity|]. clear. induction ws; cbn [map]; constructor; auto using moved_mods. }
    clear - HA E. induction HA as [|x y l l' (t1 & k1 & ->) _ IH]; cbn [map]; inversion E; subst; constructor; auto.
    cbn [wp_copy w_mods wp_set_time wp_set_index]. rewrite H1. reflexivity.
Qed.

Lemma loop_st1 : loop 0 st1.
Proof.
  constructor; try reflexivity.
  - exists tr1. split; [reflexivity|]. cbn. lra.
  - exists (wp_set_time 0 (wp_set_index 0 wd)), [wp_set_time 1 (wp_set_index 1 wa); wp_set_time 2 (wp_set_index 2 wb)].
    split; [reflexivity|]. split; [reflexivity|]. split; [discriminate|].
    constructor; [split; [cbn; lra|exists pa; apply (fresh_stop name_a)]|].
    constructor; [split; [cbn; lra|exists pb; apply (fresh_stop name_b)]|constructor].
Qed.

(** Moves of "a" and evaluations at increasing times; the agents inside the
    library do as they like. *)
Fixpoint tracking (t : R) (h : list (event * obs)) : Prop :=
  match h with
  | [] => True
  | (Eval t', _) :: h' => t < t' /\ tracking t' h'
  | (Modify n _ _, _) :: h' => n = name_a /\ tracking t h'
  | ((Back | CompSpeed | CompDone _ _ | Poll | PollEnd), _) :: h' => tracking t h'
  | _ => False
  end.
(** For every n there is a flight after setWaypoints([a; b]) in which "a" is
    moved n times and nothing else is asked for, whose plan ends up with n + 1
    points called "stitching_point". *)
Theorem C101_stitching_bounded_refuted :
  forall (n : nat) (p : V3), exists (h : list (event * obs)) (s : state),
  run full_post (init v3_zero) (trace1 ++ h) s /\ tracking 0 h /\
  map w_name (dynamic_waypoints st1) = [no_name; name_a; name_b] /\
  map w_name (dynamic_waypoints s) = match n with O => [no_name; name_a; name_b]
    | S _ => repeat stitching_point (S n) ++ [name_a; name_b] end.
Proof.
  intros n p.
  assert (H : exists h s, run full_post (init v3_zero) (trace1 ++ h) s /\ loop (INR n * (3 / 10)) s /\
    (forall h2 T, INR n * (3 / 10) = T -> tracking T h2 -> tracking 0 (h ++ h2)) /\
    map w_name (d_dyn s) = match n with O => [no_name; name_a; name_b] | S _ => repeat stitching_point (S n) ++ [name_a; name_b] end).
  { induction n as [|n (h & s & HR & HL & HT & HN)].
    - exists [], st1. rewrite app_nil_r. split; [apply run1|]. split; [cbn [INR]; rewrite Rmult_0_l; apply loop_st1|].
      split; [|reflexivity]. intros h2 T HE H. cbn [INR app] in *. rewrite <- HE, Rmult_0_l in H. exact H.
    - destruct (grow _ _ name_a p HL) as (tr & s' & R & L & N & _ & _). exists (h ++ round (INR n * (3 / 10) + 3 / 10) name_a p tr), s'.
      assert (ET : INR (S n) * (3 / 10) = INR n * (3 / 10) + 3 / 10) by (rewrite S_INR; lra).
      split; [rewrite app_assoc; eapply run_app; eauto|]. split; [rewrite ET; exact L|]. split.
      + intros h2 T HE H2. rewrite <- app_assoc. apply (HT _ (INR n * (3 / 10)) eq_refl).
        unfold round, backs. cbn [map app tracking]. split; [lra|]. split; [reflexivity|]. rewrite <- ET, HE. exact H2.
      + rewrite N, HN. destruct n; reflexivity. }
  destruct H as (h & s & HR & _ & HT & HN). exists h, s. split; [exact HR|].
  split; [rewrite <- (app_nil_r h); eapply HT; [reflexivity|exact Logic.I]|]. split; [reflexivity|].
  unfold dynamic_waypoints. rewrite copy_names. exact HN.
Qed.
Print Assumptions C101_stitching_bounded_refuted.

(** The name of the internal points is not reserved: moving "stitching_point",
    a name none of the waypoints of the application has, sends the vehicle to
    any place [p]. *)
Definition only_moves (h : list (event * obs)) : Prop :=
  Forall (fun eo => match fst eo with
                    | Modify n q _ => (n = name_a /\ q = pa) \/ n = stitching_point
                    | SetWaypoints _ | Append _ | Stop | Vehicle _ => False
                    | _ => True
                    end) h.
Theorem C101_reserved_name_refuted :
  forall (p : V3), exists (h : list (event * obs)) (s : state) (t : R) (r : references),
  run full_post (init v3_zero) (trace1 ++ h) s /\ fresh_calls (trace1 ++ h) /\ only_moves h /\
  map w_name (dynamic_waypoints st1) = [no_name; name_a; name_b] /\
  eval_refs t true s = Some r /\ r_pos r = p.
Proof.
  intros p. destruct (grow _ _ name_a pa loop_st1) as (ta & sa & RA & LA & NA & _ & _).
  destruct (grow _ _ stitching_point p LA) as (tb & sb & RB & _ & NB & OB & MB).
  set (h := round (0 + 3 / 10) name_a pa ta ++ round (0 + 3 / 10 + 3 / 10) stitching_point p tb).
  assert (R : run full_post (init v3_zero) (trace1 ++ h) sb).
  { eapply run_app; [apply run1|]. eapply run_app; [exact RA|exact RB]. }
  assert (F : fresh_calls (trace1 ++ h)).
  { unfold fresh_calls, h, round, trace1, backs. cbn [map app].
    repeat (apply Forall_cons; [cbn [fst]; try exact Logic.I|]); try apply Forall_nil.
    all: split; [reflexivity|split; reflexivity]. }
  assert (HN : exists w, nth_error (dynamic_waypoints sb) 2 = Some w /\ w_orig w = p).
  { unfold dynamic_waypoints. rewrite nth_error_map.
    destruct (d_dyn sa) as [|w0 [|w1 l]] eqn:ED; try discriminate. cbn [map tl] in NA, NB, OB.
    destruct (d_dyn sb) as [|v0 [|v1 [|v2 m]]]; try discriminate. cbn [nth_error option_map].
    eexists. split; [reflexivity|]. cbn [skipn map] in OB. injection OB as OB _. cbn [w_orig wp_copy]. rewrite OB, moved_orig.
    injection NA as _ NA _. rewrite NA. reflexivity. }
  destruct HN as (w & HN & HO). destruct (C18_passes _ _ _ _ _ R F HN) as (r & Hr & HP).
  { intros x m i Hx _ Hm. exfalso. unfold dynamic_waypoints in Hx. apply in_map_iff in Hx. destruct Hx as (y & <- & Hy).
    rewrite Forall_forall in MB. cbn [w_mods wp_copy] in Hm. rewrite (MB y Hy) in Hm. destruct Hm. }
  exists h, sb. do 2 eexists. split; [exact R|]. split; [exact F|]. split.
  { unfold only_moves, h, round, backs. cbn [map app].
    repeat (apply Forall_cons; [cbn [fst]; auto|]); try apply Forall_nil. }
  split; [reflexivity|]. split; [exact Hr|]. now rewrite HP.
Qed.
Print Assumptions C101_reserved_name_refuted.

Lemma ready_launched post s : d_fut_locked s = false -> run post (ready s) [(Back, Launched); (Back, Quiet)] (launched s).
Proof.
  intros H. econstructor; [exact Logic.I|apply ready_async; auto|]. eapply back_ok; [reflexivity|].
  replace (launched s) with (set_pc PTop (set_flag false (set_pc PClear (set_fut FStarted (ready s))))) by reflexivity.
  constructor.
Qed.
Lemma end_dyn s s' o : step s PollEnd = Ok s' o -> d_dyn s' = d_dyn s.
Proof. cbn [step]. destruct (d_late s); [discriminate|]. intros H. inversion H. reflexivity. Qed.
Example C101_example : exists s s1 s2 s3 s4 h h', reachable s /\ d_pc s = PGen /\ step s Back = Ok s1 Quiet /\ d_pc s1 = PParams /\
  run basic_post s1 h s2 /\ d_pc s2 = PAsync /\ no_obs Launched h /\ run basic_post s2 h' s3 /\ no_obs Swapped h' /\
  step s3 Poll = Ok s4 Swapped /\ map w_name (asked s) = [name_a; name_b; name_c] /\
  map w_name (dynamic_waypoints s4) = [stitching_point; stitching_point; name_b; name_c].
Proof.
  pose proof run3 as R. unfold trace3 in R. change (_ :: _) with
    ([(Eval (8 / 10), Quiet); (CompSpeed, Quiet); (CompDone tr3 (/ 100), Quiet)] ++ [(Poll, Swapped); (PollEnd, Quiet)]) in R.
  apply run_app_inv in R. destruct R as (s3 & RA & RB). inversion RB as [|? ? ? s4 ? ? _ H4 R5]; subst.
  inversion R5 as [|? ? ? s5 ? ? _ H5 R6]; subst. inversion R6; subst.
  exists (set_pc PGen (req (8 / 10))), (set_pc PParams (collected (req (8 / 10)))), (ready (req (8 / 10))), s3, s4,
    (backs [Quiet; Quiet; Quiet; Quiet]),
    ([(Back, Launched); (Back, Quiet)] ++ [(Eval (8 / 10), Quiet); (CompSpeed, Quiet); (CompDone tr3 (/ 100), Quiet)]).
  split. { eapply full_reachable. eapply run_app; [apply run_req|]. apply gen_solo; try reflexivity. apply req_zone; lra. }
  split; [reflexivity|]. split.
  { cbn [step]. unfold back_step. cbn [d_pc set_pc]. change (next_waypoints (set_pc PGen (req (8 / 10)))) with (next_waypoints (req (8 / 10))).
    rewrite req_next by lra. unfold collected. rewrite req_next by lra. reflexivity. }
  split; [reflexivity|]. split; [apply async_solo|]. split; [reflexivity|]. split; [repeat constructor; discriminate|]. split.
  { eapply run_mono; [apply full_basic|]. eapply run_app; [|exact RA].
    apply ready_launched. reflexivity. }
  split; [repeat constructor; discriminate|]. split; [exact H4|]. split.
  { unfold asked, not_passed. cbn [d_set d_add d_dyn d_par p_global req at1 set_pc do_append do_eval set_flag set_queues set_par st1 dyn1].
    unfold dyn1. cbn [filter w_time wp_set_time wp_set_index]. repeat (rcase; try lra). reflexivity. }
  assert (E : d_dyn s4 = d_dyn st3).
  { symmetry. exact (end_dyn _ _ _ H5). }
  unfold dynamic_waypoints. rewrite E, st3_dyn, copy_names, copy_names. reflexivity.
Qed.
