(** References returned by evaluateTrajectory: range, end, waypoints, time
    fitting. *)
From Coq Require Import Reals Lra Lia List Bool ZArith Arith.
From Coquelicot Require Import Coquelicot.
From Verif Require Import Base PolyModel PolySpec VertexModel TrajModel TrajSpec TrajProofs RangeProofs
  WaypointModel WaypointProofs DynModel DynSpec DynProofs DynFrame DynTrace DynQueue DynMore.
Import List ListNotations.
Local Open Scope R_scope.
Set Bullet Behavior "Strict Subproofs".

(** ** References *)
Lemma fold_compensations i ws g d v :
  v3_nth i (fold_left (fun acc w => if named w then v3_add acc (wp_compensation w g d) else acc) ws v) =
  v3_nth i v + lsum (map (fun w => v3_nth i (wp_compensation w g d))
                  (filter (fun w => negb (name_eqb (w_name w) no_name)) ws)).
Proof.
  revert v. induction ws as [|w ws IH]; intros v; cbn [fold_left filter map lsum]; [lra|].
  rewrite IH. unfold named. destruct (negb _); cbn [map lsum]; [rewrite v3_nth_add; lra|lra].
Qed.
Lemma clamp_bounds tr l : 0 <= t_max tr -> clamp_local tr l = Rmax 0 (Rmin l (t_max tr)).
Proof.
  intros H. unfold clamp_local, Rltb. cbn zeta. destruct (Rlt_dec l 0).
  - destruct (Rlt_dec (t_max tr) 0); [lra|]. unfold Rmax, Rmin. repeat destruct (Rle_dec _ _); lra.
  - destruct (Rlt_dec (t_max tr) l); unfold Rmax, Rmin; repeat destruct (Rle_dec _ _); lra.
Qed.
Lemma good_max tr : good_traj tr -> 0 < t_max tr.
Proof.
  intros (HW & HP & _ & HN). destruct HW as [_ ->]. unfold positive_times in HP.
  destruct (t_segs tr) as [|s ss]; [congruence|]. inversion HP; subst. cbn [map lsum].
  assert (0 <= lsum (map s_time ss)); [|lra]. apply lsum_nonneg, Forall_map. eapply Forall_impl; [|exact H2]. cbn. intros; lra.
Qed.

Lemma nth3 i l : length l = 3%nat -> v3_nth i (v3_of_list l) = nth i l 0 \/ (3 <= i)%nat.
Proof. intros H. destruct i as [|[|[|i]]]; cbn; auto. right. lia. Qed.
(** The trajectory part of a reference comes from a segment. *)
Lemma eval_clamped tr l d : good_traj tr -> exists k s,
  nth_error (t_segs tr) k = Some s /\
  start_of tr k <= Rmax 0 (Rmin l (t_max tr)) <= start_of tr (S k) /\
  traj_evaluate tr (Rmax 0 (Rmin l (t_max tr))) d = Some (seg_deriv s d (Rmax 0 (Rmin l (t_max tr)) - start_of tr k)).
Proof.
  intros HG. pose proof (good_max _ HG) as HM. destruct HG as (HW & HP & HD & HN).
  set (x := Rmax 0 (Rmin l (t_max tr))).
  assert (HX : 0 <= x <= t_max tr) by (unfold x, Rmax, Rmin; repeat destruct (Rle_dec _ _); lra). clearbody x.
  assert (HK : forall n, (n <= length (t_segs tr))%nat -> x < start_of tr n \/ (n = length (t_segs tr)) ->
     (0 < n)%nat -> exists k s, nth_error (t_segs tr) k = Some s /\ start_of tr k <= x <= start_of tr (S k) /\
        (x < start_of tr (S k) \/ S k = length (t_segs tr))).
  { induction n as [|n IH]; [lia|]. intros Hn Hx _.
    destruct (Rlt_dec x (start_of tr n)) as [Hl|Hl].
    - destruct n as [|n]; [unfold start_of in Hl; cbn in Hl; lra|]. apply IH; auto; lia.
    - destruct (nth_error (t_segs tr) n) as [s|] eqn:E; [|apply nth_error_None in E; lia].
      exists n, s. split; [auto|]. destruct Hx as [Hx|Hx]; [split; [lra|auto]|].
      split; [|auto]. rewrite Hx, start_of_all by auto. lra. }
  destruct (HK (length (t_segs tr)) ltac:(lia) ltac:(auto)) as (k & s & Hk & Hx & Hd).
  { destruct (t_segs tr); [congruence|cbn; lia]. }
  exists k, s. split; [auto|]. split; [auto|]. apply traj_evaluate_segment; auto; [lra|].
  destruct Hd as [Hd|Hd]; [left; auto|]. destruct (Rlt_dec x (start_of tr (S k))); [left; auto|right].
  split; [auto|]. rewrite Hd, start_of_all in Hx by auto. rewrite Hd, start_of_all in n by auto. lra.
Qed.

Lemma eval_modified_reference tr ws g l d i : good_traj tr -> (i < 3)%nat ->
  v3_nth i (eval_modified tr ws g l d) = reference tr ws g l d i.
Proof.
  intros HG Hi. pose proof (good_max _ HG) as HM. unfold eval_modified, reference.
  rewrite clamp_bounds by lra. unfold comp.
  destruct (eval_clamped tr l d HG) as (k & s & Hk & _ & E). rewrite E.
  assert (HL : v3_nth i (v3_of_list (seg_deriv s d (Rmax 0 (Rmin l (t_max tr)) - start_of tr k))) =
    nth i (seg_deriv s d (Rmax 0 (Rmin l (t_max tr)) - start_of tr k)) 0).
  { destruct i as [|[|[|i]]]; try reflexivity. lia. }
  rcase; [rewrite fold_compensations|]; rewrite HL; lra.
Qed.
Lemma v3_ext3 a b : (forall i, (i < 3)%nat -> v3_nth i a = v3_nth i b) -> a = b.
Proof.
  intros H. pose proof (H 0%nat ltac:(lia)). pose proof (H 1%nat ltac:(lia)). pose proof (H 2%nat ltac:(lia)).
  destruct a, b. cbn in *. congruence.
Qed.

(** ** Outside all modification windows there is no compensation *)
Lemma outside_sum ws g d i : outside ws g ->
  lsum (map (fun w => v3_nth i (wp_compensation w g d)) (filter (fun w => negb (name_eqb (w_name w) no_name)) ws)) = 0.
Proof.
  intros H. induction ws as [|w ws IH]; [reflexivity|]. cbn [filter].
  assert (HO : outside ws g) by (intros w' m j Hw; apply (H w' m j); right; auto).
  destruct (name_eqb (w_name w) no_name) eqn:E; cbn [negb]; [auto|]. cbn [map lsum]. rewrite IH by auto.
  assert (EC : wp_compensation w g d = v3_zero).
  { apply compensation_local. intros m j Hm. apply (H w m j); [left; auto| |auto].
    intros En. rewrite En, name_eqb_refl in E. discriminate. }
  rewrite EC, v3_nth_zero. lra.
Qed.

(** ** Trajectories meet the positions of the published waypoints *)
Lemma move_nth_orig t m i ws : map w_orig (move_nth t m i ws) = map w_orig ws.
Proof.
  revert i. induction ws as [|w ws IH]; intros [|i]; cbn [move_nth map]; auto; [|now rewrite IH].
  destruct (applies _ _); [now rewrite move_orig|auto].
Qed.
Record frinv (s : state) : Prop := mkFr {
  fr_set : Forall wp_fresh (d_set s);
  fr_add : Forall wp_fresh (d_add s);
  fr_next : Forall wp_fresh (d_next s);
  fr_ready : forall tr, d_fut s = FReady tr -> exists vs, extract_vertices (d_next s) = Some vs /\ full_post vs tr;
  fr_traj : forall tr, d_traj s = Some tr -> exists vs ws v, vs = ws ++ [v] /\ full_post vs tr /\
     Forall2 (fun w v => get_constraint 0 v = Some (v3_list (w_orig w))) (d_dyn s) vs /\
     get_constraint 1 v = Some [0; 0; 0] /\ get_constraint 2 v = Some [0; 0; 0] }.
Lemma fresh_copy w : wp_fresh w -> wp_fresh (wp_copy w). Proof. auto. Qed.
Lemma fresh_copies ws : Forall wp_fresh ws -> Forall wp_fresh (map wp_copy ws).
Proof. intros H. apply Forall_map. eapply Forall_impl; [|exact H]. auto. Qed.
Lemma fresh_reset w : wp_fresh (wp_reset w).
Proof. split; [reflexivity|]. split; [reflexivity|]. apply get_set_same. Qed.
Lemma fresh_reset_to p w : wp_fresh (wp_reset_to p w).
Proof. split; [reflexivity|]. split; [reflexivity|]. apply get_set_same. Qed.
Lemma fresh_drone p : wp_fresh (drone_waypoint p).
Proof. split; [reflexivity|]. split; [reflexivity|]. reflexivity. Qed.
Lemma fresh_stitch3 a b c : wp_fresh (stitch_waypoint [a; b; c]).
Proof. split; [reflexivity|]. split; reflexivity. Qed.
Lemma fresh_stitch1 a : wp_fresh (stitch_waypoint [a]).
Proof. split; [reflexivity|]. split; reflexivity. Qed.
Lemma fresh_retime segs g i ws ws' : retime segs g i ws = Some ws' -> Forall wp_fresh ws ->
  Forall wp_fresh ws' /\ map w_vertex ws' = map w_vertex ws.
Proof.
  revert i ws'. induction ws as [|w ws IH]; intros i ws' H HF; cbn [retime] in H; [inversion H; auto|].
  destruct (cumulative_time segs i); [|discriminate]. destruct (retime segs g (S i) ws) eqn:E; [|discriminate].
  inversion H; subst. inversion HF; subst. destruct (IH _ _ E H3) as [A B]. split; [|cbn [map]; rewrite B; reflexivity].
  constructor; [|auto]. destruct H2 as (M & O & C). split; [cbn; rewrite M; reflexivity|]. split; [exact O|exact C].
Qed.
Lemma fresh_next s : Forall wp_fresh (d_set s) -> Forall wp_fresh (d_add s) -> Forall wp_fresh (next_waypoints s).
Proof.
  intros HS HA. unfold next_waypoints.
  assert (HL : forall ms ws, Forall wp_fresh ws ->
     Forall wp_fresh (fold_left (fun ws (m : name * V3) => reset_named (fst m) (snd m) ws) ms ws)).
  { induction ms as [|m ms IH]; intros ws H; [auto|]. cbn [fold_left]. apply IH. unfold reset_named.
    destruct (name_eqb (fst m) no_name); [auto|]. apply Forall_map. eapply Forall_impl; [|exact H]. cbn beta. intros w Hw.
    destruct (name_eqb (w_name w) (fst m)); [apply fresh_reset_to|auto]. }
  apply HL. apply Forall_app. split; [|apply fresh_copies; auto].
  destruct (d_set s); [|apply fresh_copies; auto]. apply Forall_map. apply Forall_forall. intros w _. apply fresh_reset.
Qed.
Lemma extract_ext ws ws' : map w_vertex ws = map w_vertex ws' -> extract_vertices ws = extract_vertices ws'.
Proof. intros E. unfold extract_vertices. destruct ws, ws'; try discriminate; [auto|]. now rewrite E. Qed.

Lemma fr_swap s tr s' : frinv s -> d_fut s = FReady tr -> do_swap tr s = Some s' -> frinv s'.
Proof.
  intros [] HF HS. apply swap_fields in HS.
  destruct HS as (E1 & _ & E3 & E4 & E5 & _ & _ & _ & E9 & E10 & _).
  constructor; try congruence. rewrite E3. intros t Ht. inversion Ht; subst t.
  destruct (fr_ready0 tr HF) as (vs & EV & HP). destruct (extract_last _ _ EV) as (ws & w & EW & ->).
  exists (map w_vertex ws ++ [at_rest_end (w_vertex w)]), (map w_vertex ws), (at_rest_end (w_vertex w)).
  split; [auto|]. split; [auto|]. split.
  - rewrite E4, EW, map_app. rewrite EW in fr_next0. apply Forall_app in fr_next0. destruct fr_next0 as [F1 F2].
    apply Forall2_app.
    + clear - F1. induction F1 as [|x l Hx _ IH]; constructor; [apply Hx|auto].
    + inversion F2; subst. constructor; [|constructor]. unfold at_rest_end. rewrite !get_set_other by lia. apply H1.
  - unfold at_rest_end. split; [rewrite get_set_other by lia|]; rewrite get_set_same; reflexivity.
Qed.
Lemma fr_step s e o s' : inv s -> frinv s -> event_ok full_post s e -> step s e = Ok s' o ->
  match e with SetWaypoints ws => Forall wp_fresh ws | Append w => wp_fresh w | _ => True end -> frinv s'.
Proof.
  intros I F Hok H HC. pose proof F as F0. destruct F. destruct e; cbn [step] in H; unblock H; try (inversion H; subst; constructor; auto; fail).
  - inversion H; subst. constructor; cbn; auto. apply fresh_copies; auto.
  - inversion H; subst. constructor; cbn; auto. apply Forall_app. split; [auto|]. constructor; [auto|constructor].
  - destruct (poll_cases _ _ _ I H) as [(-> & _)|(tr & HF & HS & _)]; [auto|]. eapply fr_swap; eauto.
  - destruct (d_late s); inversion H; subst; constructor; auto.
  - destruct (d_traj s) eqn:E; inversion H; subst. constructor; cbn; auto. rewrite E. auto.
  - unfold back_step in H.
    assert (HP : preparing (d_pc s) -> d_fut s = FNone) by (apply inv_next_preparing; auto).
    destruct (d_pc s) eqn:EP; try (inversion H; subst; constructor; auto; fail).
    + destruct (d_stop s); inversion H; subst; constructor; auto.
    + assert (HN : d_fut s = FNone) by (apply HP; unfold preparing; auto).
      pose proof (fresh_next s fr_set0 fr_add0) as FN.
      destruct (next_waypoints s); inversion H; subst; constructor; cbn; auto; rewrite HN; discriminate.
    + destruct (d_traj s) as [old|] eqn:ET; [|discriminate]. inversion H; subst. constructor; cbn; auto.
      * constructor; [apply fresh_stitch3|]. constructor; [apply fresh_stitch1|]. apply fresh_copies. apply Forall_filter_ok; auto.
      * rewrite HP by (unfold preparing; auto 8). discriminate.
      * rewrite ET. auto.
    + inversion H; subst. constructor; cbn; auto.
      * constructor; [apply fresh_drone|auto].
      * rewrite HP by (unfold preparing; auto 8). discriminate.
    + destruct (d_fut_locked s); inversion H; subst. constructor; cbn; auto. discriminate.
    + destruct (d_mod s); inversion H; subst; constructor; auto.
    + destruct ms as [|m ms]; [|destruct (nth_error (d_dyn s) i)]; inversion H; subst; try (constructor; auto; fail).
      constructor; cbn; auto. intros tr Ht. destruct (fr_traj0 tr Ht) as (vs & ws & v & E & A & B & C).
      exists vs, ws, v. split; [auto|]. split; [auto|]. split; [|auto].
      pose proof (move_nth_orig (p_global (d_par s)) m i (d_dyn s)) as HO.
      revert HO. generalize (move_nth (p_global (d_par s)) m i (d_dyn s)) as l.
      clear - B. induction B as [|x v l1 vs Hx _ IH]; intros l HO; destruct l; try discriminate; constructor; inversion HO; auto.
      congruence.
  - destruct (torn_cases _ _ _ _ H) as (-> & _). constructor; auto.
  - unfold comp_speed in H. destruct (d_fut s) eqn:EF; try discriminate. destruct (extract_vertices _); [|discriminate].
    destruct (_ <? _)%nat; inversion H; subst; constructor; cbn; auto; discriminate.
  - unfold comp_done in H. destruct (d_fut s) eqn:EF; try discriminate. destruct (retime _ _ _ _) as [ws'|] eqn:ER; [|inversion H; subst; constructor; cbn; auto; discriminate].
    inversion H; subst. destruct (fresh_retime _ _ _ _ _ ER fr_next0) as [A B]. constructor; cbn; auto.
    intros t Ht. inversion Ht; subst t. destruct Hok as (_ & vs & EV & HP). exists vs. split; [|auto].
    rewrite <- EV. now apply extract_ext.
  - destruct Hok.
Qed.
Lemma fr_run junk tr s : run full_post (init junk) tr s -> fresh_calls tr -> frinv s /\ inv s.
Proof.
  intros R. assert (H0 : frinv (init junk)) by (constructor; cbn; auto; discriminate).
  pose proof (inv_init junk) as I0. revert H0 I0. induction R; intros F I HC; [auto|].
  inversion HC; subst. cbn [fst] in *. apply IHR; auto; [eapply fr_step; eauto|apply (step_inv full_post s e s1 o full_basic); auto].
Qed.

Lemma v3_list_nth i p : (i < 3)%nat -> nth i (v3_list p) 0 = v3_nth i p.
Proof. intros H. destruct i as [|[|[|i]]]; try reflexivity. lia. Qed.
Lemma start_nonneg tr k : positive_times tr -> 0 <= start_of tr k.
Proof.
  intros HP. unfold start_of. apply lsum_nonneg, Forall_map. apply Forall_forall. intros x Hx.
  unfold positive_times in HP. rewrite Forall_forall in HP.
  assert (In x (t_segs tr)) by (rewrite <- (firstn_skipn k); apply in_or_app; auto). specialize (HP x H). lra.
Qed.
(** The reference at the moment a waypoint is due (time compensation taken off). *)
Lemma reference_at s tr k w i : inv s -> frinv s -> d_traj s = Some tr -> nth_error (d_dyn s) k = Some w -> (i < 3)%nat ->
  reference tr (d_dyn s) (w_time w) (w_time w - p_gtl (d_par s)) 0 i =
  v3_nth i (w_orig w) + (if Rltb 0 (w_time w)
   then lsum (map (fun w' => v3_nth i (wp_compensation w' (w_time w) 0))
                  (filter (fun w => negb (name_eqb (w_name w) no_name)) (d_dyn s)))
   else 0).
Proof.
  intros I F HT Hk Hi. destruct (i_traj s I tr HT) as ((HW & HP & HD & HN) & HL & HS).
  destruct (HS k w Hk) as [_ ET]. destruct (fr_traj s F tr HT) as (vs & ws & v & _ & (HB & HM & _) & HF & _).
  assert (HV : exists v, nth_error vs k = Some v /\ get_constraint 0 v = Some (v3_list (w_orig w))).
  { clear - HF Hk. revert k Hk. induction HF; intros [|k] Hk; try discriminate; [inversion Hk; subst; exists y; auto|apply IHHF; auto]. }
  destruct HV as (v0 & Hv & HC). pose proof (HM _ _ _ _ Hv HC) as E.
  unfold reference. f_equal. unfold comp.
  pose proof (start_nonneg tr k HP). pose proof (start_of_le_max tr k HW HP).
  replace (Rmax 0 (Rmin (w_time w - p_gtl (d_par s)) (t_max tr))) with (start_of tr k)
    by (rewrite ET; unfold Rmax, Rmin; repeat destruct (Rle_dec _ _); lra).
  rewrite E. now apply v3_list_nth.
Qed.
Lemma reference_end s tr w g l d i : inv s -> frinv s -> d_traj s = Some tr ->
  nth_error (d_dyn s) (length (t_segs tr)) = Some w -> (i < 3)%nat -> t_max tr <= l -> outside (d_dyn s) g -> (d <= 2)%nat ->
  reference tr (d_dyn s) g l d i = match d with O => v3_nth i (w_orig w) | _ => 0 end.
Proof.
  intros I F HT Hk Hi Hl HO Hd. destruct (i_traj s I tr HT) as (HG & HL & HS). pose proof (good_max _ HG) as HX.
  destruct HG as (HW & HP & HD & HN).
  destruct (fr_traj s F tr HT) as (vs & ws & v & EV & (HB & HM & _) & HF & H1 & H2).
  assert (HLen : length vs = S (length (t_segs tr))) by apply HB.
  assert (Hv : nth_error vs (length (t_segs tr)) = Some v).
  { rewrite EV. rewrite EV, app_length in HLen. cbn in HLen. rewrite nth_error_app2 by lia.
    replace (length (t_segs tr) - length ws)%nat with O by lia. reflexivity. }
  assert (H0 : get_constraint 0 v = Some (v3_list (w_orig w))).
  { clear - HF Hk Hv. revert Hk Hv. generalize (length (t_segs tr)) as k.
    induction HF; intros [|k] Hk Hv; try discriminate; [inversion Hk; inversion Hv; subst; auto|eapply IHHF; eauto]. }
  unfold reference. rewrite outside_sum by auto. unfold comp.
  replace (Rmax 0 (Rmin l (t_max tr))) with (start_of tr (length (t_segs tr)))
    by (rewrite start_of_all by auto; unfold Rmax, Rmin; repeat destruct (Rle_dec _ _); lra).
  assert (EI : forall (x : R), x + (if Rltb 0 g then 0 else 0) = x) by (intros; rcase; lra). rewrite EI.
  destruct d as [|[|[|d]]]; [rewrite (HM _ _ _ _ Hv H0); now apply v3_list_nth| | |lia].
  - rewrite (HM _ _ _ _ Hv H1). destruct i as [|[|[|i]]]; try reflexivity. lia.
  - rewrite (HM _ _ _ _ Hv H2). destruct i as [|[|[|i]]]; try reflexivity. lia.
Qed.

(** ** Time fitting *)
(** Sample number k is looked at. *)
Definition sampled (bound : R) (k : nat) : Prop := k = O \/ INR k * STEP < bound.
Lemma fit_loop_spec dist bound fuel : forall k best,
  (best < k)%nat -> (1 <= k)%nat -> sampled bound best ->
  (forall j, (j < k)%nat -> sampled bound j -> dist (INR best * STEP) <= dist (INR j * STEP)) ->
  (forall j, (best < j < k)%nat -> sampled bound j -> dist (INR best * STEP) < dist (INR j * STEP)) ->
  (bound <= INR (k + fuel) * STEP) ->
  exists b, fit_loop fuel dist STEP bound (INR k * STEP) (INR best * STEP) (dist (INR best * STEP)) = INR b * STEP /\
    sampled bound b /\
    (forall j, sampled bound j -> dist (INR b * STEP) <= dist (INR j * STEP)) /\
    (forall j, (b < j)%nat -> sampled bound j -> dist (INR b * STEP) < dist (INR j * STEP)).
Proof.
  assert (HSTEP : 0 < STEP) by (unfold STEP; lra).
  assert (HM : forall a b, (a <= b)%nat -> INR a * STEP <= INR b * STEP).
  { intros a b Hab. apply Rmult_le_compat_r; [lra|]. now apply le_INR. }
  induction fuel as [|f IH]; intros k best Hb Hk HSb HA HB Hbound; cbn [fit_loop].
  - rewrite Nat.add_0_r in Hbound. exists best. split; [auto|]. split; [auto|].
    assert (HN : forall j, (k <= j)%nat -> ~ sampled bound j).
    { intros j Hj [->|H]; [lia|]. specialize (HM k j Hj). lra. }
    split; intros j; intros; (destruct (le_lt_dec k j); [exfalso; eapply HN; eauto|]); auto.
  - assert (ES : INR k * STEP + STEP = INR (S k) * STEP) by (rewrite S_INR; lra).
    rcase.
    + rewrite ES. rcase.
      * apply (IH (S k) k); try lia.
        -- right. auto.
        -- intros j Hj Sj. destruct (Nat.eq_dec j k) as [->|Hn]; [lra|].
           eapply Rle_trans; [eassumption|]. apply HA; auto. lia.
        -- replace (S k + f)%nat with (k + S f)%nat by lia. auto.
      * apply (IH (S k) best); try lia; auto.
        -- intros j Hj Sj. destruct (Nat.eq_dec j k) as [->|Hn]; [lra|]. apply HA; auto. lia.
        -- intros j Hj Sj. destruct (Nat.eq_dec j k) as [->|Hn]; [lra|]. apply HB; auto. lia.
        -- replace (S k + f)%nat with (k + S f)%nat by lia. auto.
    + exists best. split; [auto|]. split; [auto|].
      assert (HN : forall j, (k <= j)%nat -> ~ sampled bound j).
      { intros j Hj [->|Hj']; [lia|]. specialize (HM k j Hj). lra. }
      split; intros j; intros; (destruct (le_lt_dec k j); [exfalso; eapply HN; eauto|]); auto.
Qed.
Lemma fit_spec dist tc : exists b, fit_min_time dist tc = INR b * STEP /\ sampled (3 * tc) b /\
  (forall j, sampled (3 * tc) j -> dist (INR b * STEP) <= dist (INR j * STEP)) /\
  (forall j, (b < j)%nat -> sampled (3 * tc) j -> dist (INR b * STEP) < dist (INR j * STEP)).
Proof.
  unfold fit_min_time, computation_time. replace (3 / 2 * (2 * tc)) with (3 * tc) by lra.
  set (n := fit_samples STEP (3 * tc)).
  destruct (fit_loop_spec dist (3 * tc) n 1 0) as (b & E & H); try lia.
  - left; auto.
  - intros j Hj _. replace j with O by lia. lra.
  - assert (HSTEP : 0 < STEP) by (unfold STEP; lra).
    assert (HU : 3 * tc / STEP <= INR n).
    { unfold n, fit_samples. destruct (archimed (3 * tc / STEP)) as [HA _].
      destruct (Z_le_gt_dec 0 (up (3 * tc / STEP))) as [Hz|Hz].
      - rewrite INR_IZR_INZ, Z2Nat.id by auto. lra.
      - replace (Z.to_nat (up (3 * tc / STEP))) with O by lia. cbn [INR].
        assert (IZR (up (3 * tc / STEP)) < 0) by (apply IZR_lt; lia). lra. }
    rewrite plus_INR. cbn [INR]. apply (Rmult_le_compat_r STEP) in HU; [|lra].
    unfold Rdiv in HU. rewrite Rmult_assoc, Rinv_l, Rmult_1_r in HU by lra. lra.
  - exists b. split; [|exact H]. cbn [INR] in E. rewrite Rmult_0_l, Rmult_1_l in E. exact E.
Qed.
