(** Invariants of the DynamicTrajectory state machine. *)
From Coq Require Import Reals Lra Lia List Bool ZArith Arith.
From Coquelicot Require Import Coquelicot.
From Verif Require Import Base PolyModel PolySpec VertexModel VertexSpec VertexProofs TrajModel TrajSpec TrajProofs
  RangeProofs WaypointModel WaypointSpec WaypointProofs Names DynModel DynSpec.
Import List ListNotations.
Local Open Scope R_scope.
Set Bullet Behavior "Strict Subproofs".

(* ------------------------------------------------------------------ *)
(** ** Waypoints *)

Lemma get_set_same k p v : get_constraint k (set_cons k p v) = Some (v3_list p).
Proof.
  unfold get_constraint, set_cons; simpl. induction (v_cons v) as [|[j x] c IH]; simpl.
  - now rewrite Nat.eqb_refl.
  - destruct (Nat.ltb_spec k j); simpl; [now rewrite Nat.eqb_refl|].
    destruct (Nat.eqb_spec k j); simpl.
    + subst. now rewrite Nat.eqb_refl.
    + destruct (Nat.eqb_spec k j); [lia|auto].
Qed.
Lemma get_set_other k j p v : k <> j -> get_constraint k (set_cons j p v) = get_constraint k v.
Proof.
  intros Hk. unfold get_constraint, set_cons; simpl. induction (v_cons v) as [|[i x] c IH]; simpl.
  - destruct (Nat.eqb_spec k j); [lia|auto].
  - destruct (Nat.ltb_spec j i); simpl.
    + destruct (Nat.eqb_spec k j); [lia|auto].
    + destruct (Nat.eqb_spec j i); simpl.
      * subst. destruct (Nat.eqb_spec k i); [lia|auto].
      * destruct (Nat.eqb_spec k i); auto.
Qed.

Lemma ok_copy w : wp_ok w -> wp_ok (wp_copy w). Proof. auto. Qed.
Lemma set_cons_ok p v : v_D v = 3%nat ->
  v_D (set_cons 0 p v) = 3%nat /\ exists q, get_constraint 0 (set_cons 0 p v) = Some q /\ length q = 3%nat.
Proof. intros H. split; [auto|]. exists (v3_list p). now rewrite get_set_same. Qed.
Lemma ok_reset w : wp_ok w -> wp_ok (wp_reset w).
Proof. intros [H _]. now apply set_cons_ok. Qed.
Lemma ok_reset_to p w : wp_ok w -> wp_ok (wp_reset_to p w).
Proof. intros [H _]. now apply set_cons_ok. Qed.
Lemma ok_move p t w : wp_ok w -> wp_ok (wp_move p t w).
Proof. intros [H _]. unfold wp_ok. rewrite move_vertex. now apply set_cons_ok. Qed.
Lemma ok_stitch p l : wp_ok (stitch_waypoint (p :: l)).
Proof.
  unfold stitch_waypoint, stitch_vertex, wp_ok. cbn [w_vertex].
  assert (G : forall l k v, (v_D v = 3%nat /\ exists q, get_constraint 0 v = Some q /\ length q = 3%nat) ->
     let v' := fold_left (fun v kc => set_cons (fst kc) (snd kc) v) (combine (seq (S k) (length l)) l) v in
     v_D v' = 3%nat /\ exists q, get_constraint 0 v' = Some q /\ length q = 3%nat).
  { clear. induction l as [|a l IH]; intros k v H; [exact H|]. cbn [length seq combine fold_left fst snd].
    apply IH. destruct H as (HD & q & Hq & Hl). split; [exact HD|]. exists q.
    rewrite get_set_other by discriminate. auto. }
  apply (G l O). now apply set_cons_ok.
Qed.
Lemma ok_drone p : wp_ok (drone_waypoint p).
Proof.
  unfold drone_waypoint, wp_ok. cbn [w_vertex wp_set_constraint].
  split; [reflexivity|]. exists (v3_list p). rewrite !get_set_other by discriminate.
  unfold wp_reset_to, wp_reset. cbn [w_vertex w_cur]. now rewrite get_set_same.
Qed.

(** The stitching points are what the constructor returns. *)
Lemma stitch_waypoint_new cs : length cs = 1%nat \/ length cs = 3%nat ->
  wp_new (stitch_vertex cs) stitching_point = Some (stitch_waypoint cs).
Proof.
  intros H. unfold wp_new.
  assert (E : exists p l, cs = p :: l /\ (l = [] \/ exists a b, l = [a; b])).
  { destruct cs as [|p [|a [|b [|c l]]]]; simpl in H; try lia; eauto 8. }
  destruct E as (p & l & -> & [-> | (a & b & ->)]); destruct p; reflexivity.
Qed.

Lemma Forall_copy ws : Forall wp_ok ws -> Forall wp_ok (map wp_copy ws).
Proof. intros H. apply Forall_map. eapply Forall_impl; [|exact H]. auto. Qed.
Lemma Forall_filter_ok {A} (P : A -> Prop) f l : Forall P l -> Forall P (filter f l).
Proof. intros H. apply Forall_forall. intros x Hx. apply filter_In in Hx. rewrite Forall_forall in H. now apply H. Qed.

Lemma reset_named_ok n p ws : Forall wp_ok ws -> Forall wp_ok (reset_named n p ws).
Proof.
  intros H. unfold reset_named. destruct (name_eqb n no_name); auto. apply Forall_map.
  eapply Forall_impl; [|exact H]. intros w Hw. cbv beta. destruct (name_eqb _ _); auto using ok_reset_to.
Qed.
Lemma reset_all_ok ms ws : Forall wp_ok ws ->
  Forall wp_ok (fold_left (fun ws (m : name * V3) => reset_named (fst m) (snd m) ws) ms ws).
Proof. revert ws; induction ms; simpl; intros; auto. apply IHms. now apply reset_named_ok. Qed.
Lemma next_waypoints_ok s : Forall wp_ok (d_dyn s) -> Forall wp_ok (d_set s) -> Forall wp_ok (d_add s) ->
  Forall wp_ok (next_waypoints s).
Proof.
  intros Hd Hs Ha. unfold next_waypoints. apply reset_all_ok. apply Forall_app. split; [|now apply Forall_copy].
  destruct (d_set s) eqn:E; [|rewrite <- E in *; apply Forall_copy; auto].
  apply Forall_map. eapply Forall_impl; [intros w; apply ok_reset|].
  apply Forall_filter_ok. now apply Forall_copy.
Qed.
Lemma move_nth_length t m i ws : length (move_nth t m i ws) = length ws.
Proof. revert i; induction ws as [|w ws IH]; intros [|i]; cbn; auto. Qed.
(** Every element is as before or moved. *)
Lemma move_nth_spec t m i ws : forall j w', nth_error (move_nth t m i ws) j = Some w' ->
  exists w, nth_error ws j = Some w /\ (w' = w \/ j = i /\ applies (fst m) w = true /\ w' = wp_move (snd m) t w).
Proof.
  revert i; induction ws as [|w ws IH]; intros [|i] [|j] w' H; cbn in H; try discriminate.
  - inversion H; subst. exists w. split; [reflexivity|]. destruct (applies (fst m) w) eqn:E; auto.
  - exists w'. auto.
  - inversion H; subst. exists w'. auto.
  - destruct (IH i j w' H) as (w0 & A & [B|(B & C & D)]); exists w0; cbn; auto 6.
Qed.
Lemma move_nth_ok t m i ws : Forall wp_ok ws -> Forall wp_ok (move_nth t m i ws).
Proof.
  intros H. rewrite Forall_forall in *. intros w' Hw. apply In_nth_error in Hw. destruct Hw as [j Hj].
  destruct (move_nth_spec _ _ _ _ _ _ Hj) as (w & A & [->|(_ & _ & ->)]); [|apply ok_move]; apply H; eapply nth_error_In; eauto.
Qed.
Lemma stitch_waypoints_ok tr s : Forall wp_ok (d_next s) -> Forall wp_ok (stitch_waypoints tr s).
Proof.
  intros H. unfold stitch_waypoints. repeat constructor; try apply ok_stitch.
  apply Forall_copy. now apply Forall_filter_ok.
Qed.

(* ------------------------------------------------------------------ *)
(** ** The schedule *)

(** The i-th waypoint has index i and the start time of segment i, counted
    from the global time [gtl]. *)
Definition scheduled (ws : list waypoint) (tr : trajectory) (gtl : R) : Prop :=
  length ws = S (length (t_segs tr)) /\
  forall i w, nth_error ws i = Some w -> w_index w = Z.of_nat i /\ w_time w = start_of tr i + gtl.

Lemma fold_left_rev_sum (l : list segment) :
  fold_left (fun acc s => acc + s_time s) (rev l) 0 = lsum (map s_time l).
Proof.
  rewrite <- fold_left_rev_right, rev_involutive.
  induction l; cbn [fold_right map lsum]; [reflexivity|]. rewrite IHl. lra.
Qed.
Lemma cumulative_start tr i : (i <= length (t_segs tr))%nat ->
  cumulative_time (t_segs tr) i = Some (start_of tr i).
Proof.
  intros H. unfold cumulative_time. destruct (Nat.ltb_spec (length (t_segs tr)) i); [lia|].
  unfold start_of. now rewrite fold_left_rev_sum.
Qed.
Lemma retime_spec tr gtl ws i :
  (i + length ws <= S (length (t_segs tr)))%nat ->
  exists ws', retime (t_segs tr) gtl i ws = Some ws' /\ length ws' = length ws /\
    (forall j w', nth_error ws' j = Some w' -> exists w, nth_error ws j = Some w /\
       w' = wp_set_time (start_of tr (i + j) + gtl) (wp_set_index (Z.of_nat (i + j)) w)).
Proof.
  revert i; induction ws as [|w ws IH]; intros i H; cbn [retime].
  - exists []. repeat split; auto. intros [|j] w' E; discriminate.
  - cbn [length] in H. rewrite cumulative_start by lia.
    destruct (IH (S i)) as (l & -> & Hl & HN); [lia|].
    eexists. split; [reflexivity|]. split; [cbn; now rewrite Hl|].
    intros [|j] w' E; cbn [nth_error] in *.
    + exists w. rewrite Nat.add_0_r. split; [auto|congruence].
    + rewrite Nat.add_succ_r, <- Nat.add_succ_l. now apply HN.
Qed.
Lemma extract_length ws vs : extract_vertices ws = Some vs -> length vs = length ws.
Proof.
  unfold extract_vertices. destruct ws as [|w ws]; [discriminate|]. intros E.
  assert (vs = removelast (map w_vertex (w :: ws)) ++ [at_rest_end (last (map w_vertex (w :: ws)) (vertex_new 3))]) by congruence.
  subst. clear E. rewrite app_length. cbn [length].
  pose proof (app_removelast_last (vertex_new 3) (l := map w_vertex (w :: ws))) as H.
  apply (f_equal (@length _)) in H; [|discriminate]. rewrite app_length, map_length in H. cbn [length] in *. lia.
Qed.
Lemma scheduled_copy ws tr g : scheduled ws tr g -> scheduled (map wp_copy ws) tr g.
Proof.
  intros [HL HN]. split; [now rewrite map_length|]. intros i w E. rewrite nth_error_map in E.
  destruct (nth_error ws i) as [w0|] eqn:E2; inversion E; subst. exact (HN i w0 E2).
Qed.
Lemma scheduled_move ws tr g t m j : scheduled ws tr g -> scheduled (move_nth t m j ws) tr g.
Proof.
  intros [HL HN]. split; [now rewrite move_nth_length|]. intros i w' E.
  destruct (move_nth_spec _ _ _ _ _ _ E) as (w & A & [->|(_ & _ & ->)]); [now apply HN|].
  rewrite move_time, move_index. now apply HN.
Qed.

(* ------------------------------------------------------------------ *)
(** ** The invariant *)

Definition preparing (p : pc) : Prop :=
  p = PGen \/ p = PParams \/ p = PCheck \/ p = PStitch \/ p = PScratch \/ p = PLaunch \/ p = PApply \/
  moving p = true.
Definition good_traj (tr : trajectory) : Prop := traj_wf tr /\ positive_times tr /\ t_D tr = 3%nat /\ t_segs tr <> [].

Record inv (s : state) : Prop := mkInv {
  i_comp : d_computing s = true <-> (d_pc s = PAsync \/ d_fut s <> FNone);
  i_async : d_pc s = PAsync -> d_fut s = FNone;
  i_prep : preparing (d_pc s) -> d_computing s = false;
  i_unlocked : d_fut_locked s = false;
  i_noexn : d_fut s <> FExn;
  i_dyn : Forall wp_ok (d_dyn s);
  i_next : Forall wp_ok (d_next s);
  i_add : Forall wp_ok (d_add s);
  i_set : Forall wp_ok (d_set s);
  i_ne : d_pc s = PParams \/ d_pc s = PCheck \/ d_pc s = PStitch \/ d_pc s = PScratch -> d_next s <> [];
  i_two : d_pc s = PLaunch \/ d_pc s = PAsync \/ d_fut s <> FNone -> (2 <= length (d_next s))%nat;
  i_stitch : d_pc s = PStitch -> d_traj s <> None;
  i_scratch : d_scratch s = false -> d_traj s <> None;
  i_ready : forall tr, d_fut s = FReady tr -> good_traj tr /\ scheduled (d_next s) tr (p_gtl (d_new s));
  i_traj : forall tr, d_traj s = Some tr -> good_traj tr /\ scheduled (d_dyn s) tr (p_gtl (d_par s));
  i_none : d_traj s = None -> d_dyn s = [];
  i_speed : p_speed (d_par s) = p_speed (d_new s);
  i_tc : 0 <= d_tc s }.

Lemma inv_init junk : inv (init junk).
Proof.
  constructor; cbn; intros; auto; try discriminate; try solve [constructor]; try lra.
  - split; [discriminate|intros [H|H]; [discriminate|congruence]].
  - destruct H as [H|[H|[H|H]]]; discriminate.
  - destruct H as [H|[H|H]]; congruence.
Qed.

(** A finished computation makes [computing] true. *)
Lemma inv_computing s : inv s -> d_fut s <> FNone -> d_computing s = true.
Proof. intros I H. apply (i_comp s I). auto. Qed.

Lemma inv_next_preparing s : inv s -> preparing (d_pc s) -> d_fut s = FNone.
Proof.
  intros I H. pose proof (i_prep s I H) as HC. destruct (i_comp s I) as [_ H2].
  destruct (d_fut s) eqn:E; auto; rewrite H2 in HC; try discriminate; right; congruence.
Qed.

Ltac unprep := unfold preparing in *.
Ltac prep_cases := repeat match goal with H : _ \/ _ |- _ => destruct H as [H|H] end; try discriminate; try congruence.

Lemma swap_inv s tr : inv s -> d_fut s = FReady tr ->
  exists s', do_swap tr s = Some s' /\ inv s'.
Proof.
  intros I HF. unfold do_swap.
  assert (HT : exists q, (if d_scratch s then Some (d_vehicle s) else
     match d_traj s with
     | Some old => Some (eval_modified old (d_dyn s) (p_global (d_par s) + p_off (d_par s))
                           (p_local (d_par s) + p_off (d_par s)) 0)
     | None => None
     end) = Some q).
  { destruct (d_scratch s) eqn:E; [eauto|]. pose proof (i_scratch s I E). destruct (d_traj s); eauto; congruence. }
  destruct HT as [q ->]. eexists. split; [reflexivity|].
  assert (HC : d_computing s = true) by (apply (inv_computing s I); congruence).
  assert (HP : ~ preparing (d_pc s)) by (intros HP; rewrite (i_prep s I HP) in HC; discriminate).
  assert (HA : d_pc s <> PAsync) by (intros HA; pose proof (i_async s I HA); congruence).
  destruct (i_ready s I tr HF) as [HG HS].
  unprep.
  pose proof I as I2. destruct I. constructor; cbn; unfold preparing in *; intros; auto; try discriminate.
  - split; [discriminate|]. intros [H|H]; congruence.
  - apply Forall_copy. auto.
  - exfalso. apply HP. prep_cases; auto 8.
  - inversion H; subst. split; [auto|]. now apply scheduled_copy.
Qed.

Ltac comp_iff HC := split; intros HH; [apply HC in HH|apply HC]; prep_cases; auto.
Ltac inv_basic I HC := destruct I; constructor; cbn; unfold preparing in *; intros; auto;
  first [discriminate | assumption | solve [eauto]
        | solve [prep_cases; auto] | solve [comp_iff HC]
        | solve [split; intros; prep_cases; auto] | idtac].

Lemma back_inv s s' o : inv s -> back_step s = Ok s' o -> inv s'.
Proof.
  intros I H. unfold back_step in H. pose proof (inv_next_preparing s I) as HPF. pose proof (i_comp s I) as HC.
  unprep.
  destruct (d_pc s) eqn:EP.
  - (* PTop *)
    destruct (d_stop s); [|destruct (d_flag s)]; inversion H; subst; clear H; inv_basic I HC.
  - destruct (in_zone s); inversion H; subst; clear H; inv_basic I HC.
  - clear HC; destruct (d_computing s) eqn:EC; inversion H; subst; clear H; pose proof (i_comp s I) as HC; inv_basic I HC.
  - (* PGen *)
    assert (HN : Forall wp_ok (next_waypoints s)) by (apply next_waypoints_ok; apply I).
    assert (HF : d_fut s = FNone) by (apply HPF; auto 8).
    assert (HCF : d_computing s = false) by (apply (i_prep s I); unprep; auto 8).
    destruct (next_waypoints s) as [|w ws] eqn:EN; inversion H; subst; clear H; inv_basic I HC.
  - (* PEmpty *)
    inversion H; subst; clear H; inv_basic I HC.
  - (* PParams *)
    assert (HF : d_fut s = FNone) by (apply HPF; auto 8).
    inversion H; subst; clear H; inv_basic I HC.
  - (* PCheck *)
    assert (HF : d_fut s = FNone) by (apply HPF; auto 8).
    assert (HCF : d_computing s = false) by (apply (i_prep s I); unprep; auto 8).
    assert (HT : can_stitch s = true -> d_traj s <> None).
    { unfold can_stitch. destruct (d_traj s); congruence. }
    destruct (can_stitch s); inversion H; subst; clear H; inv_basic I HC.
  - (* PStitch *)
    assert (HF : d_fut s = FNone) by (apply HPF; auto 8).
    assert (HCF : d_computing s = false) by (apply (i_prep s I); unprep; auto 8).
    destruct (d_traj s) as [tr|] eqn:ET; inversion H; subst; clear H.
    pose proof (stitch_waypoints_ok tr s (i_next s I)) as HN.
    inv_basic I HC.
    lia.
  - (* PScratch *)
    assert (HF : d_fut s = FNone) by (apply HPF; auto 8).
    assert (HCF : d_computing s = false) by (apply (i_prep s I); unprep; auto 8).
    assert (HN : d_next s <> []) by (apply I; auto).
    inversion H; subst; clear H; inv_basic I HC.
    + constructor; [apply ok_drone|auto].
    + destruct (d_next s); [congruence|cbn; lia].
  - (* PLaunch *)
    assert (HF : d_fut s = FNone) by (apply HPF; auto 8).
    inversion H; subst; clear H; inv_basic I HC.
  - (* PAsync *)
    rewrite (i_unlocked s I) in H. inversion H; subst; clear H.
    inv_basic I HC.
    split; [intros; right; discriminate|intros; apply HC; auto].
  - inversion H; subst; clear H; inv_basic I HC.
  - clear HC; destruct (d_mod s); [|destruct (d_computing s) eqn:EC]; inversion H; subst; clear H;
      pose proof (i_comp s I) as HC; inv_basic I HC.
  - inversion H; subst; clear H; inv_basic I HC. apply i_prep0. auto 9.
  - assert (HF : d_fut s = FNone) by (apply HPF; auto 9).
    assert (HCF : d_computing s = false) by (apply (i_prep s I); unprep; rewrite EP; auto 9).
    destruct ms as [|m ms].
    + inversion H; subst; clear H; inv_basic I HC.
    + destruct (nth_error (d_dyn s) i) as [w|]; inversion H; subst; clear H; inv_basic I HC.
      * now apply move_nth_ok.
      * destruct (i_traj0 tr H). split; auto. now apply scheduled_move.
      * rewrite (i_none0 H). reflexivity.
  - discriminate.
Qed.

(** A call that needs todo_mutex has returned. *)
Ltac unblock H :=
  match type of H with
  | (if todo_locked ?s then _ else _) = _ => let U := fresh "UL" in destruct (todo_locked s) eqn:U; [discriminate H|]
  | _ => idtac
  end.
Lemma step_inv (post : list vertex -> trajectory -> Prop) s e s' o :
  (forall vs tr, post vs tr -> basic_post vs tr) ->
  inv s -> event_ok post s e -> step s e = Ok s' o -> inv s'.
Proof.
  intros Hpost I Hok H. pose proof (i_comp s I) as HC. destruct e; cbn [step] in H; unblock H.
  - inversion H; subst; clear H. inv_basic I HC. now apply Forall_copy.
  - inversion H; subst; clear H. inv_basic I HC. apply Forall_app. split; auto.
  - inversion H; subst; clear H. inv_basic I HC.
  - inversion H; subst; clear H. inv_basic I HC.
  - (* Poll *)
    unfold do_poll in H. rewrite (i_unlocked s I) in H.
    destruct (d_fut s) eqn:EF.
    + destruct (d_traj s); inversion H; subst; auto.
    + destruct (d_traj s); inversion H; subst; auto.
    + destruct (d_traj s); inversion H; subst; auto.
    + assert (HCC : d_computing s = true) by (apply (inv_computing s I); congruence).
      destruct (swap_inv s tr I EF) as (s2 & E & I2).
      rewrite HCC, E in H. destruct (d_traj s); inversion H; subst; auto.
    + destruct (i_noexn s I EF).
  - destruct (d_late s); inversion H; subst; clear H. inv_basic I HC.
  - destruct (d_traj s) eqn:ET; inversion H; subst; clear H. clear ET. inv_basic I HC.
  - inversion H; subst; clear H. inv_basic I HC.
  - inversion H; subst; clear H. inv_basic I HC.
  - inversion H; subst; clear H. inv_basic I HC.
  - inversion H; subst; clear H. inv_basic I HC.
  - eapply back_inv; eauto.
  - unfold back_torn in H. destruct (d_pc s) eqn:EP; try discriminate. destruct (d_fut s) eqn:EF; try discriminate.
    clear HC. destruct (d_computing s) eqn:EC; [|discriminate].
    destruct zone; inversion H; subst; clear H; pose proof (i_comp s I) as HC; inv_basic I HC;
      (split; intros; [right; congruence|auto]).
  - (* CompSpeed *)
    unfold comp_speed in H. destruct (d_fut s) eqn:EF; try discriminate.
    destruct (extract_vertices (d_next s)) as [vs|] eqn:EV; [|discriminate].
    pose proof (extract_length _ _ EV) as HL.
    assert (H2 : (2 <= length (d_next s))%nat) by (apply (i_two s I); right; right; congruence).
    destruct (Nat.ltb_spec (length vs) 2); [lia|].
    inversion H; subst; clear H. rewrite <- EF in HC. inv_basic I HC.
    + split; intros; [right; discriminate|]. apply HC. right; congruence.
    + pose proof (i_async0 H). congruence.
  - (* CompDone *)
    unfold comp_done in H. destruct (d_fut s) eqn:EF; try discriminate.
    destruct Hok as (Hel & vs & EV & HP). apply Hpost in HP. destruct HP as (Hwf & Hpos & HD & HL).
    pose proof (extract_length _ _ EV) as HL2.
    destruct (retime_spec tr (p_gtl (d_new s)) (d_next s) 0) as (ws & E & HLw & HN); [lia|].
    rewrite E in H. inversion H; subst; clear H. rewrite <- EF in HC. inv_basic I HC.
    + split; intros; [right; discriminate|]. apply HC. right; congruence.
    + pose proof (i_async0 H). congruence.
    + apply Forall_forall. intros w Hw. apply In_nth_error in Hw. destruct Hw as [j Hj].
      destruct (HN j w Hj) as (w0 & Hw0 & ->). apply nth_error_In in Hw0. rewrite Forall_forall in i_next0.
      exact (i_next0 w0 Hw0).
    + assert (d_next s <> []) by auto. destruct ws; [destruct (d_next s); [congruence|discriminate]|discriminate].
    + rewrite HLw. apply i_two0. right; right; congruence.
    + inversion H; subst. split.
      { split; [exact Hwf|]. split; [exact Hpos|]. split; [exact HD|]. intros E0. rewrite E0 in HL.
        assert (2 <= length (d_next s))%nat by (apply i_two0; right; right; congruence). cbn in HL. lia. }
      split; [congruence|]. intros i w Ei. destruct (HN i w Ei) as (w0 & _ & ->). cbn. auto.
  - destruct Hok.
Qed.

Lemma run_inv (post : list vertex -> trajectory -> Prop) s tr s' : (forall vs tr, post vs tr -> basic_post vs tr) -> inv s -> run post s tr s' -> inv s'.
Proof. intros Hp I H. induction H; auto. apply IHrun. eapply step_inv; eauto. Qed.
Lemma basic_self : forall vs tr, basic_post vs tr -> basic_post vs tr. Proof. auto. Qed.
Lemma full_basic : forall vs tr, full_post vs tr -> basic_post vs tr. Proof. intros vs tr H. apply H. Qed.
Lemma reachable_inv s : reachable s -> inv s.
Proof. intros (junk & tr & H). eapply run_inv; eauto using basic_self, inv_init. Qed.

Lemma run_app post s1 t1 s2 t2 s3 : run post s1 t1 s2 -> run post s2 t2 s3 -> run post s1 (t1 ++ t2) s3.
Proof. induction 1; simpl; intros; auto. econstructor; eauto. Qed.
Lemma run_app_inv post t1 t2 s1 s3 : run post s1 (t1 ++ t2) s3 -> exists s2, run post s1 t1 s2 /\ run post s2 t2 s3.
Proof.
  revert s1; induction t1 as [|[e o] t1 IH]; intros s1 H; cbn [app] in H.
  - exists s1. split; [constructor|auto].
  - inversion H; subst. destruct (IH _ H7) as (s2 & A & B). exists s2. split; auto. econstructor; eauto.
Qed.
Lemma event_ok_mono (P Q : list vertex -> trajectory -> Prop) s e :
  (forall vs tr, P vs tr -> Q vs tr) -> event_ok P s e -> event_ok Q s e.
Proof. intros H. destruct e; simpl; auto. intros (A & vs & B & C). eauto. Qed.
Lemma run_mono (P Q : list vertex -> trajectory -> Prop) s tr s' :
  (forall vs tr, P vs tr -> Q vs tr) -> run P s tr s' -> run Q s tr s'.
Proof. intros H R. induction R; econstructor; eauto using event_ok_mono. Qed.
Lemma reachable_run s tr s' : reachable s -> run basic_post s tr s' -> reachable s'.
Proof. intros (j & t & H) R. exists j, (t ++ tr). eapply run_app; eauto. Qed.
Lemma reachable_step s e o s' : reachable s -> event_ok basic_post s e -> step s e = Ok s' o -> reachable s'.
Proof. intros. eapply reachable_run; eauto. econstructor; eauto. constructor. Qed.

(** The two events of interleavings with a swap. *)
Lemma torn_cases s b s' o : step s (BackTorn b) = Ok s' o ->
  s' = set_pc (if b then PElse else PComp) s /\ o = Quiet /\ d_pc s = PZone /\ d_computing s = true /\ exists tr, d_fut s = FReady tr.
Proof.
  cbn [step]. unfold back_torn. destruct (d_pc s); try discriminate. destruct (d_fut s); try discriminate.
  destruct (d_computing s); try discriminate. intros H. inversion H; subst. eauto 8.
Qed.
Lemma end_cases s s' o : step s PollEnd = Ok s' o ->
  exists n, d_late s = S n /\ s' = set_late n (set_flag false s) /\ o = Quiet.
Proof. cbn [step]. destruct (d_late s); intros H; inversion H; subst. eauto. Qed.
