(** Property theorems: evaluations while modifications are being applied (C90). *)
From Coq Require Import Reals Lra Lia List Bool ZArith Arith.
From Coquelicot Require Import Coquelicot.
From Verif Require Import Base PolyModel PolySpec VertexModel TrajModel TrajSpec TrajProofs RangeProofs
  WaypointModel WaypointProofs Names DynModel DynSpec DynProofs DynFrame DynTrace DynQueue DynMore StopAndGo EvalProofs
  DynScenario PropertiesDyn PropertiesReq PropertiesEval PropertiesLife PropertiesLife2.
Import List ListNotations.
Local Open Scope R_scope.
Set Bullet Behavior "Strict Subproofs".

(** ** What evaluations read changes only by swaps and modifications. *)
Lemma move_nth_id t m ws : forall i w, nth_error ws i = Some w -> applies (fst m) w = false -> move_nth t m i ws = ws.
Proof.
  induction ws as [|x ws IH]; intros [|i] w H A; cbn in *; try discriminate.
  - inversion H; subst. now rewrite A.
  - f_equal. eauto.
Qed.
Lemma kept_step s e o s' : inv s -> step s e = Ok s' o -> o <> Swapped ->
  d_traj s' = d_traj s /\ p_off (d_par s') = p_off (d_par s) /\ p_gtl (d_par s') = p_gtl (d_par s) /\
  (~ applied s e -> d_dyn s' = d_dyn s).
Proof.
  intros I H HO. destruct e; cbn [step] in H; unblock H; try (inversion H; subst; auto; fail).
  - destruct (poll_cases _ _ _ I H) as [(-> & _)|(t & _ & _ & ->)]; [auto|congruence].
  - destruct (d_late s); inversion H; subst; auto.
  - destruct (d_traj s) eqn:E; inversion H; subst; auto.
  - unfold back_step in H. destruct (d_pc s) eqn:EP; try (inversion H; subst; auto; fail).
    + destruct (d_stop s); inversion H; subst; auto.
    + destruct (next_waypoints s); inversion H; subst; auto.
    + destruct (d_traj s) eqn:E; inversion H; subst; auto.
    + destruct (d_fut_locked s); inversion H; subst; auto.
    + destruct (d_mod s); inversion H; subst; auto.
    + destruct ms as [|[n p] ms]; [|destruct (nth_error (d_dyn s) i) as [w|] eqn:EN]; inversion H; subst; cbn; auto.
      do 3 (split; [reflexivity|]). intros HA. apply (move_nth_id _ _ _ _ w EN).
      destruct (applies (fst (n, p)) w) eqn:EA; [|reflexivity]. elim HA. split; [reflexivity|].
      apply applies_spec in EA. exists n, p, ms, i, w. cbn [fst] in EA. tauto.
  - destruct (torn_cases s zone s' o H) as (-> & -> & _). auto.
  - unfold comp_speed in H. destruct (d_fut s); try discriminate. destruct (extract_vertices _); [|discriminate].
    destruct (_ <? _)%nat; inversion H; subst; auto.
  - unfold comp_done in H. destruct (d_fut s); try discriminate. destruct (retime _ _ _ _); inversion H; subst; auto.
  - unfold comp_throw in H. destruct (d_fut s); try discriminate. inversion H; subst; auto.
Qed.
Lemma kept_run s h s' : inv s -> run basic_post s h s' -> no_obs Swapped h ->
  d_traj s' = d_traj s /\ p_off (d_par s') = p_off (d_par s) /\ p_gtl (d_par s') = p_gtl (d_par s) /\
  (~ happens (fun s e o => applied s e) s h -> d_dyn s' = d_dyn s).
Proof.
  intros I R. induction R; intros HO; [auto|]. inversion HO; subst. cbn [snd] in *.
  destruct (kept_step _ _ _ _ I H0 H3) as (A & B & C & D).
  destruct (IHR (step_inv _ _ _ _ _ (fun _ _ X => X) I H H0) H4) as (A' & B' & C' & D').
  rewrite A', B', C', A, B, C. do 3 (split; [reflexivity|]). intros HN. rewrite D', D; [reflexivity| |].
  - intros HA. apply HN. now constructor.
  - intros HA. apply HN. eapply hap_later; eauto.
Qed.

(** ** C90: the three references of one call.  [s] is the state in which the
    call has taken its times, [sp], [sv], [sa] those in which it reads the
    waypoints; no trajectory is swapped in meanwhile, which holds if no other
    thread evaluates.  Each reference is one that an undisturbed call could
    return at that moment. *)
Theorem C90_each :
  forall (s sp sv sa : state) (h1 h2 h3 : list (event * obs)) (t : R) (tr : trajectory),
  reachable s -> d_traj s = Some tr ->
  run basic_post s h1 sp -> run basic_post sp h2 sv -> run basic_post sv h3 sa ->
  no_obs Swapped h1 -> no_obs Swapped h2 -> no_obs Swapped h3 ->
  exists r rp rv ra, call_refs t s sp sv sa = Some r /\
    eval_refs t false sp = Some rp /\ eval_refs t false sv = Some rv /\ eval_refs t false sa = Some ra /\
    r_pos r = r_pos rp /\ r_vel r = r_vel rv /\ r_acc r = r_acc ra.
Proof.
  intros s sp sv sa h1 h2 h3 t tr HR HT R1 R2 R3 N1 N2 N3. pose proof (reachable_inv s HR) as I.
  pose proof (run_inv _ _ _ _ (fun _ _ X => X) I R1) as I1. pose proof (run_inv _ _ _ _ (fun _ _ X => X) I1 R2) as I2.
  destruct (kept_run _ _ _ I R1 N1) as (A1 & B1 & C1 & _). destruct (kept_run _ _ _ I1 R2 N2) as (A2 & B2 & C2 & _).
  destruct (kept_run _ _ _ I2 R3 N3) as (A3 & B3 & C3 & _).
  unfold call_refs, eval_refs. rewrite A3, A2, A1, HT. do 4 eexists. do 4 (split; [reflexivity|]).
  cbn [get_references r_pos r_vel r_acc]. rewrite B3, C3, B2, C2, B1, C1. auto.
Qed.
(** Together they are those of one moment if no modification of a published
    waypoint is applied between the first and the last read. *)
Theorem C90_snapshot :
  forall (s sp sv sa : state) (h1 h2 h3 : list (event * obs)) (t : R) (tr : trajectory),
  reachable s -> d_traj s = Some tr ->
  run basic_post s h1 sp -> run basic_post sp h2 sv -> run basic_post sv h3 sa ->
  no_obs Swapped h1 -> no_obs Swapped h2 -> no_obs Swapped h3 ->
  ~ happens (fun s e o => applied s e) sp h2 -> ~ happens (fun s e o => applied s e) sv h3 ->
  call_refs t s sp sv sa = eval_refs t false sp.
Proof.
  intros s sp sv sa h1 h2 h3 t tr HR HT R1 R2 R3 N1 N2 N3 M2 M3. pose proof (reachable_inv s HR) as I.
  pose proof (run_inv _ _ _ _ (fun _ _ X => X) I R1) as I1. pose proof (run_inv _ _ _ _ (fun _ _ X => X) I1 R2) as I2.
  destruct (kept_run _ _ _ I R1 N1) as (A1 & B1 & C1 & _). destruct (kept_run _ _ _ I1 R2 N2) as (_ & _ & _ & D2).
  destruct (kept_run _ _ _ I2 R3 N3) as (_ & _ & _ & D3).
  unfold call_refs, eval_refs. rewrite A1, HT, D3, D2, B1, C1 by auto. reflexivity.
Qed.

(** ** Whatever is interleaved, at the end of a batch every published waypoint
    is at the position of the last modification of its name in the batch. *)
Fixpoint last_for (n : name) (ms : list (name * V3)) : option V3 :=
  match ms with
  | [] => None
  | (n', p) :: ms' => match last_for n ms' with Some q => Some q | None => if name_eqb n n' then Some p else None end
  end.
Definition target (ms : list (name * V3)) (w : waypoint) : V3 :=
  if name_eqb (w_name w) no_name then w_cur w
  else match last_for (w_name w) ms with Some p => p | None => w_cur w end.
Lemma last_for_snoc n ms m : last_for n (ms ++ [m]) = if name_eqb n (fst m) then Some (snd m) else last_for n ms.
Proof.
  induction ms as [|[n' p'] ms IH]; cbn; [destruct m as [n' p']; reflexivity|]. rewrite IH.
  destruct (name_eqb n (fst m)); reflexivity.
Qed.
Definition same_but (w0 w : waypoint) : Prop := w_name w = w_name w0 /\ w_time w = w_time w0 /\ w_orig w = w_orig w0.
Lemma target_snoc done n p t w0 w : same_but w0 w -> w_cur w = target done w0 ->
  same_but w0 (if applies n w then wp_move p t w else w) /\
  w_cur (if applies n w then wp_move p t w else w) = target (done ++ [(n, p)]) w0.
Proof.
  intros (HN & HT & HO) HC. split.
  - unfold same_but. destruct (applies n w); [rewrite move_name, move_time, move_orig|]; auto.
  - unfold target in *. rewrite last_for_snoc. cbn [fst snd]. unfold applies, named. rewrite HN.
    destruct (name_eqb (w_name w0) no_name); [rewrite andb_false_r; auto|]. rewrite andb_true_r.
    destruct (name_eqb (w_name w0) n); [apply move_cur|auto].
Qed.
Lemma move_nth_at t m ws : forall i k, nth_error (move_nth t m i ws) k =
  option_map (fun w => if (k =? i)%nat && applies (fst m) w then wp_move (snd m) t w else w) (nth_error ws k).
Proof.
  induction ws as [|w ws IH]; intros [|i] [|k]; cbn; try reflexivity.
  - now destruct (nth_error ws k).
  - apply IH.
Qed.
Definition mid (ms0 : list (name * V3)) (dyn0 : list waypoint) (s : state) : Prop :=
  exists done rest i, d_pc s = PMove rest i /\ ms0 = done ++ rest /\
    forall k w0, nth_error dyn0 k = Some w0 -> exists w, nth_error (d_dyn s) k = Some w /\ same_but w0 w /\
      w_cur w = target (match rest with m :: _ => if (k <? i)%nat then done ++ [m] else done | [] => done end) w0.
Lemma mid_step ms0 dyn0 s e o s' : inv s -> mid ms0 dyn0 s -> event_ok basic_post s e -> step s e = Ok s' o ->
  (e = Back -> o = Moved) -> mid ms0 dyn0 s'.
Proof.
  intros I (done & rest & i & EP & EM & HK) OK H HO.
  assert (HB : e = Back \/ e <> Back) by (destruct e; auto; right; discriminate). destruct HB as [->|HB].
  - specialize (HO eq_refl). subst o. cbn [step] in H. unfold back_step in H. rewrite EP in H.
    destruct rest as [|[n p] rest]; [discriminate|]. destruct (nth_error (d_dyn s) i) as [wi|] eqn:EN; inversion H; subst; clear H.
    + exists done, ((n, p) :: rest), (S i). split; [reflexivity|]. split; [reflexivity|]. intros k w0 E0.
      destruct (HK k w0 E0) as (w & EW & HS & HC). cbn [d_dyn set_dyn set_regen set_pc]. rewrite move_nth_at, EW. cbn [option_map].
      eexists. split; [reflexivity|]. cbn [fst snd]. destruct (Nat.eqb_spec k i) as [->|HKI].
      * cbn [andb]. rewrite Nat.ltb_irrefl in HC. replace (i <? S i)%nat with true by (symmetry; apply Nat.ltb_lt; lia).
        apply target_snoc; auto.
      * cbn [andb]. split; [auto|]. destruct (Nat.ltb_spec k i), (Nat.ltb_spec k (S i)); auto; lia.
    + exists (done ++ [(n, p)]), rest, O. split; [reflexivity|]. split; [now rewrite <- app_assoc|]. intros k w0 E0.
      destruct (HK k w0 E0) as (w & EW & HS & HC). exists w. split; [exact EW|]. split; [auto|].
      assert (HL : (k < i)%nat). { apply nth_error_None in EN. assert (k < length (d_dyn s))%nat by (apply nth_error_Some; congruence). lia. }
      apply Nat.ltb_lt in HL. rewrite HL in HC. destruct rest; exact HC.
  - assert (HF : d_fut s = FNone) by (apply inv_next_preparing; auto; rewrite EP; unfold preparing; cbn; auto 12).
    destruct (env_step _ _ _ _ _ I HF OK H HB) as (HS & _). exists done, rest, i.
    rewrite (f_pc _ _ HS), (f_dyn _ _ HS). auto.
Qed.
Theorem C90_batch :
  forall (s s' : state) (h : list (event * obs)) (ms : list (name * V3)) (i : nat),
  reachable s -> d_pc s = PMove ms 0 -> run basic_post s h s' ->
  (forall o, In (Back, o) h -> o = Moved) -> d_pc s' = PMove [] i ->
  forall k w, nth_error (dynamic_waypoints s) k = Some w ->
  exists w', nth_error (dynamic_waypoints s') k = Some w' /\
    w_name w' = w_name w /\ w_time w' = w_time w /\ w_orig w' = w_orig w /\ w_cur w' = target ms w.
Proof.
  intros s s' h ms i HR EP R HO EP' k w HW. pose proof (reachable_inv s HR) as I. clear HR.
  assert (M : mid ms (d_dyn s) s).
  { exists [], ms, O. split; [auto|]. split; [auto|]. intros j w0 E0. exists w0. split; [auto|]. split; [repeat split|].
    replace (match ms with [] => [] | m :: _ => if (j <? 0)%nat then [] ++ [m] else [] end) with (@nil (name * V3))
      by (destruct ms; reflexivity). unfold target. cbn. now destruct (name_eqb _ _). }
  assert (M' : mid ms (d_dyn s) s').
  { revert I M HO. clear EP EP' HW. generalize (d_dyn s). intros dyn0. induction R; intros I M HO; [auto|].
    apply IHR; [eapply step_inv; [exact (fun _ _ X => X)|eauto..]| |intros; apply HO; now right].
    eapply mid_step; eauto. intros ->. apply HO. now left. }
  destruct M' as (done & rest & j & EP2 & EM & HK). rewrite EP' in EP2. inversion EP2; subst. rewrite app_nil_r in *.
  unfold dynamic_waypoints in *. rewrite nth_error_map in *. destruct (nth_error (d_dyn s) k) as [w0|] eqn:E0; [|discriminate].
  inversion HW; subst. destruct (HK k w0 E0) as (w1 & E1 & (A & B & C) & D). rewrite E1. exists (wp_copy w1).
  split; [reflexivity|]. cbn. auto.
Qed.

(** ** User expectations: the references of one call belong together, and a
    call of modifyWaypoints takes effect as a whole.  At 0.95 s, in the security
    zone, a client moves "a" and "b" with one call. *)
Definition pb7 : V3 := mkV3 7 0 0.
Definition moves2 : list (name * V3) := [(name_a, p5); (name_b, pb7)].
Definition ts : state := set_flag true (do_modify name_b pb7 false (do_modify name_a p5 false (at1 (95 / 100)))).
Lemma zone_ts : in_zone ts = true.
Proof.
  unfold ts. cbn [in_zone d_traj at1 do_modify do_eval set_flag set_queues set_par st1 d_dyn d_par p_global d_tc].
  unfold dyn1. cbn [zone_scan]. change (named (wp_set_time 0 (wp_set_index 0 wd))) with false.
  change (named (wp_set_time 1 (wp_set_index 1 wa))) with true. cbn [andb]. cbn [wp_set_time wp_set_index w_time].
  unfold security_time, computation_time. rcase; [|lra]. rcase; [lra|auto].
Qed.
Definition trace_ts : list (event * obs) :=
  (trace1 ++ [(Eval (95 / 100), Quiet)]) ++
  [(Modify name_a p5 false, Quiet); (Modify name_b pb7 false, Quiet); (RaiseFlag, Quiet)] ++
  backs [Quiet; Quiet; Quiet; Quiet] ++ [(Eval (95 / 100), Quiet)].
Definition call1 : state := do_eval (95 / 100) (set_pc (PMove moves2 0) ts).
Lemma run_ts : run full_post (init v3_zero) trace_ts call1.
Proof.
  eapply run_app; [apply run_at1|]. unfold backs. cbn [map app].
  apply (run_cons _ _ _ _ (do_modify name_a p5 false (at1 (95 / 100)))); [exact Logic.I|reflexivity|].
  apply (run_cons _ _ _ _ (do_modify name_b pb7 false (do_modify name_a p5 false (at1 (95 / 100))))); [exact Logic.I|reflexivity|].
  apply (run_cons _ _ _ _ ts); [exact Logic.I|reflexivity|].
  apply (run_cons _ _ _ _ (set_pc PZone ts)); [exact Logic.I|reflexivity|].
  apply (run_cons _ _ _ _ (set_pc PElse ts)); [exact Logic.I| |].
  { cbn [step]. unfold back_step. cbn [d_pc set_pc]. change (in_zone (set_pc PZone ts)) with (in_zone ts). rewrite zone_ts. reflexivity. }
  apply (run_cons _ _ _ _ (set_pc PApply ts)); [exact Logic.I|reflexivity|].
  apply (run_cons _ _ _ _ (set_pc (PMove moves2 0) ts)); [exact Logic.I|reflexivity|].
  apply (run_cons _ _ _ _ call1); [cbn; discriminate|reflexivity|constructor].
Qed.
Definition dyn_a : list waypoint := apply_modification (95 / 100) (name_a, p5) dyn1.
Definition dyn_ab : list waypoint := apply_modification (95 / 100) (name_b, pb7) dyn_a.
Definition call2 : state := set_pc (PMove [(name_b, pb7)] 0) (set_regen true (set_dyn dyn_a call1)).
Definition call3 : state := set_pc (PMove [] 0) (set_regen true (set_dyn dyn_ab call1)).
Lemma run_call2 : run basic_post call1 (backs (repeat Moved 4)) call2.
Proof. apply (one_batch basic_post (name_a, p5) [(name_b, pb7)] dyn1 [] call1); reflexivity. Qed.
Lemma run_call3 : run basic_post call2 (backs (repeat Moved 4)) call3.
Proof.
  pose proof (one_batch basic_post (name_b, pb7) [] dyn_a [] call2 eq_refl eq_refl) as R.
  unfold dyn_a in R at 2. rewrite applies_apply in R. exact R.
Qed.
(** The effect on the x axis. *)
Definition eff_a (d : nat) : R := mod_eval (mkMod ((1 - 95 / 100) / 3) 1 (5 - 1)) (95 / 100 + STEP) d.
Definition eff_b (d : nat) : R := mod_eval (mkMod ((2 - 95 / 100) / 3) 2 (7 - 2)) (95 / 100 + STEP) d.
Lemma good1 : good_traj tr1.
Proof. destruct (i_traj st1 (reachable_inv _ st1_reachable) tr1 eq_refl); auto. Qed.
Definition ref1 (ws : list waypoint) (d : nat) : V3 := eval_modified tr1 ws (95 / 100 + STEP) (95 / 100 - 0 + STEP) d.
Definition x_mod (w : waypoint) (p : V3) : mod3 :=
  mkMod3 (mkMod ((w_time w - 95 / 100) / 3) (w_time w) (vx p - vx (w_cur w)))
         (mkMod ((w_time w - 95 / 100) / 3) (w_time w) (vy p - vy (w_cur w)))
         (mkMod ((w_time w - 95 / 100) / 3) (w_time w) (vz p - vz (w_cur w))).
Lemma moved_mods w p : w_mods w = [] -> w_mods (wp_move p (95 / 100) w) = [x_mod w p].
Proof. intros E. unfold wp_move, axis_modifier. rcase; [|lra]. cbn. now rewrite E. Qed.
Lemma moved_comp w p g d : w_mods w = [] ->
  v3_nth 0 (wp_compensation (wp_move p (95 / 100) w) g d) = mod_eval (m_x (x_mod w p)) g d.
Proof. intros E. unfold wp_compensation. rewrite moved_mods by auto. cbn [fold_left v3_add v3_zero v3_nth mod3_eval vx]. lra. Qed.
Definition va : waypoint := wp_set_time 1 (wp_set_index 1 wa).
Definition vb : waypoint := wp_set_time 2 (wp_set_index 2 wb).
Lemma dyn_a_eq : dyn_a = [wp_set_time 0 (wp_set_index 0 wd); wp_move p5 (95 / 100) va; vb].
Proof. reflexivity. Qed.
Lemma dyn_ab_eq : dyn_ab = [wp_set_time 0 (wp_set_index 0 wd); wp_move p5 (95 / 100) va; wp_move pb7 (95 / 100) vb].
Proof. unfold dyn_ab. rewrite dyn_a_eq. unfold apply_modification. cbn [map fst snd]. unfold applies, named. rewrite move_name. reflexivity. Qed.
Lemma ref1_x ws d : (d <= 2)%nat -> vx (ref1 ws d) = comp tr1 d 0 (Rmax 0 (Rmin (95 / 100 - 0 + STEP) (t_max tr1))) +
  lsum (map (fun w => v3_nth 0 (wp_compensation w (95 / 100 + STEP) d)) (filter (fun w => negb (name_eqb (w_name w) no_name)) ws)).
Proof.
  intros Hd. change (vx (ref1 ws d)) with (v3_nth 0 (ref1 ws d)). unfold ref1.
  rewrite eval_modified_reference by (auto using good1; lia). unfold reference. pose proof STEP_pos. rcase; [reflexivity|lra].
Qed.
Lemma ref1_a d : (d <= 2)%nat -> vx (ref1 dyn_a d) = vx (ref1 dyn1 d) + eff_a d.
Proof.
  intros Hd. rewrite !ref1_x, dyn_a_eq by auto. cbn [filter]. rewrite move_name.
  change (name_eqb (w_name va) no_name) with false. change (name_eqb (w_name vb) no_name) with false.
  unfold dyn1. cbn [filter]. fold va vb.
  change (name_eqb (w_name va) no_name) with false. change (name_eqb (w_name vb) no_name) with false.
  change (name_eqb (w_name (wp_set_time 0 (wp_set_index 0 wd))) no_name) with true.
  cbn [negb map lsum]. rewrite moved_comp by reflexivity. change (mod_eval (m_x (x_mod va p5)) (95 / 100 + STEP) d) with (eff_a d).
  change (v3_nth 0 (wp_compensation va (95 / 100 + STEP) d)) with 0. lra.
Qed.
Lemma ref1_ab d : (d <= 2)%nat -> vx (ref1 dyn_ab d) = vx (ref1 dyn1 d) + eff_a d + eff_b d.
Proof.
  intros Hd. rewrite <- ref1_a by auto. rewrite !ref1_x, dyn_a_eq, dyn_ab_eq by auto. cbn [filter]. rewrite !move_name.
  change (name_eqb (w_name va) no_name) with false. change (name_eqb (w_name vb) no_name) with false.
  change (name_eqb (w_name (wp_set_time 0 (wp_set_index 0 wd))) no_name) with true.
  cbn [negb map lsum]. rewrite !moved_comp by reflexivity. change (mod_eval (m_x (x_mod vb pb7)) (95 / 100 + STEP) d) with (eff_b d).
  change (v3_nth 0 (wp_compensation vb (95 / 100 + STEP) d)) with 0. lra.
Qed.
Lemma eff_sign : 0 < eff_a 0 /\ eff_a 1 < 0 /\ 0 < eff_b 0 /\ 0 < eff_b 1 /\ 0 < eff_a 2 /\ 0 < eff_b 2.
Proof.
  assert (HS : 10 / 100 <= STEP <= 101 / 1000) by (unfold STEP; lra).
  assert (HP : forall x, 0 < exp x) by apply exp_pos.
  unfold eff_a, eff_b, mod_eval. cbn [m_sigma m_mu m_inc].
  replace (Rltb (Rabs (5 - 1)) (2 / 100)) with false by (rcase; [rewrite Rabs_pos_eq in *; lra|auto]).
  replace (Rltb (Rabs (7 - 2)) (2 / 100)) with false by (rcase; [rewrite Rabs_pos_eq in *; lra|auto]).
  replace (Rltb (7 / 2 * ((1 - 95 / 100) / 3)) (Rabs (95 / 100 + STEP - 1))) with false
    by (rcase; [rewrite Rabs_pos_eq in *; lra|auto]).
  replace (Rltb (7 / 2 * ((2 - 95 / 100) / 3)) (Rabs (95 / 100 + STEP - 2))) with false
    by (rcase; [rewrite Rabs_left1 in *; lra|auto]).
  cbn [orb].
  assert (PA : 0 < (95 / 100 + STEP - 1) / ((1 - 95 / 100) / 3 * ((1 - 95 / 100) / 3))) by (apply Rdiv_lt_0_compat; lra).
  assert (PB : 0 < (2 - (95 / 100 + STEP)) / ((2 - 95 / 100) / 3 * ((2 - 95 / 100) / 3))) by (apply Rdiv_lt_0_compat; lra).
  assert (PB' : (95 / 100 + STEP - 2) / ((2 - 95 / 100) / 3 * ((2 - 95 / 100) / 3)) < 0) by (unfold Rdiv in *; lra).
  repeat match goal with |- context [exp ?x] => generalize (HP x); generalize (exp x); intros ? ? end.
  repeat match goal with |- context [?x / ?y] => idtac end.
  set (A := (95 / 100 + STEP - 1) / ((1 - 95 / 100) / 3 * ((1 - 95 / 100) / 3))) in *.
  set (B := (95 / 100 + STEP - 2) / ((2 - 95 / 100) / 3 * ((2 - 95 / 100) / 3))) in *.
  refine (conj _ (conj _ (conj _ (conj _ (conj _ _))))); try nra.
  all: assert (0 < A * A) by nra; assert (0 < B * B) by nra; nra.
Qed.
(** No single moment explains the three references of this call, made while
    the only other activity is one call of modifyWaypoints: the position is from
    before the modifications, the velocity from between them, the acceleration
    from after them. *)
Theorem C90_one_moment_refuted :
  exists (h h2 h3 : list (event * obs)) (s sv sa : state) (t : R) (r r1 r2 r3 : references),
    run full_post (init v3_zero) h s /\ run basic_post s h2 sv /\ run basic_post sv h3 sa /\
    h2 = backs (repeat Moved 4) /\ h3 = backs (repeat Moved 4) /\
    readable s = true /\ readable sv = true /\ readable sa = true /\
    call_refs t s s sv sa = Some r /\
    eval_refs t false s = Some r1 /\ eval_refs t false sv = Some r2 /\ eval_refs t false sa = Some r3 /\
    r <> r1 /\ r <> r2 /\ r <> r3.
Proof.
  exists trace_ts, (backs (repeat Moved 4)), (backs (repeat Moved 4)), call1, call2, call3, (95 / 100).
  do 4 eexists. split; [apply run_ts|]. split; [apply run_call2|]. split; [apply run_call3|].
  do 9 (split; [reflexivity|]). cbn [get_references].
  change (eval_modified tr1 (d_dyn call1) (95 / 100 + p_off (d_par call1)) (95 / 100 - p_gtl (d_par call1) + p_off (d_par call1))) with (ref1 dyn1).
  change (eval_modified tr1 (d_dyn call2) (95 / 100 + p_off (d_par call1)) (95 / 100 - p_gtl (d_par call1) + p_off (d_par call1))) with (ref1 dyn_a).
  change (eval_modified tr1 (d_dyn call2) (95 / 100 + p_off (d_par call2)) (95 / 100 - p_gtl (d_par call2) + p_off (d_par call2))) with (ref1 dyn_a).
  change (eval_modified tr1 (d_dyn call3) (95 / 100 + p_off (d_par call1)) (95 / 100 - p_gtl (d_par call1) + p_off (d_par call1))) with (ref1 dyn_ab).
  change (eval_modified tr1 (d_dyn call3) (95 / 100 + p_off (d_par call3)) (95 / 100 - p_gtl (d_par call3) + p_off (d_par call3))) with (ref1 dyn_ab).
  destruct eff_sign as (A & B & C & D & _).
  pose proof (ref1_a 0 ltac:(lia)) as A0. pose proof (ref1_a 1 ltac:(lia)) as A1. pose proof (ref1_ab 0 ltac:(lia)) as B0.
  split; [|split]; intros E.
  - assert (X : Some (ref1 dyn_a 1) = Some (ref1 dyn1 1)) by exact (f_equal r_vel E). assert (Y : ref1 dyn_a 1 = ref1 dyn1 1) by congruence.
    rewrite Y in A1. lra.
  - assert (X : ref1 dyn1 0 = ref1 dyn_a 0) by exact (f_equal r_pos E). rewrite <- X in A0. lra.
  - assert (X : ref1 dyn1 0 = ref1 dyn_ab 0) by exact (f_equal r_pos E). rewrite <- X in B0. lra.
Qed.
(** A call of modifyWaypoints for "a" and "b" does not take effect as a whole:
    an undisturbed evaluation sees "a" moved and "b" not, and its position is
    neither that before nor that after all the modifications. *)
Theorem C90_all_or_nothing_refuted :
  exists (h h1 h2 : list (event * obs)) (s s1 s2 : state) (t : R) (r r1 r2 : references),
    run full_post (init v3_zero) h s /\ run basic_post s h1 s1 /\ run basic_post s1 h2 s2 /\
    h1 = backs (repeat Moved 4) /\ h2 = backs (repeat Moved 4) /\ readable s1 = true /\
    d_pc s = PMove [(name_a, p5); (name_b, pb7)] 0 /\ d_pc s2 = PMove [] 0 /\
    eval_refs t false s = Some r /\ eval_refs t false s1 = Some r1 /\ eval_refs t false s2 = Some r2 /\
    vx (r_pos r) < vx (r_pos r1) < vx (r_pos r2).
Proof.
  exists trace_ts, (backs (repeat Moved 4)), (backs (repeat Moved 4)), call1, call2, call3, (95 / 100).
  do 3 eexists. split; [apply run_ts|]. split; [apply run_call2|]. split; [apply run_call3|].
  do 8 (split; [reflexivity|]). cbn [get_references r_pos].
  change (eval_modified tr1 (d_dyn call1) (95 / 100 + p_off (d_par call1)) (95 / 100 - p_gtl (d_par call1) + p_off (d_par call1)) 0) with (ref1 dyn1 0).
  change (eval_modified tr1 (d_dyn call2) (95 / 100 + p_off (d_par call2)) (95 / 100 - p_gtl (d_par call2) + p_off (d_par call2)) 0) with (ref1 dyn_a 0).
  change (eval_modified tr1 (d_dyn call3) (95 / 100 + p_off (d_par call3)) (95 / 100 - p_gtl (d_par call3) + p_off (d_par call3)) 0) with (ref1 dyn_ab 0).
  destruct eff_sign as (A & _ & C & _). rewrite ref1_a, ref1_ab by lia. lra.
Qed.
Print Assumptions C90_each.
Print Assumptions C90_snapshot.
Print Assumptions C90_batch.
Print Assumptions C90_one_moment_refuted.
Print Assumptions C90_all_or_nothing_refuted.
(** The hypotheses are met, also with modifications between the reads ... *)
Example C90_example_each : reachable call1 /\ d_traj call1 = Some tr1 /\
  run basic_post call1 (backs (repeat Moved 4)) call2 /\ run basic_post call2 (backs (repeat Moved 4)) call3 /\
  no_obs Swapped (backs (repeat Moved 4)).
Proof.
  split; [eapply full_reachable, run_ts|]. split; [reflexivity|]. split; [apply run_call2|]. split; [apply run_call3|].
  repeat constructor; discriminate.
Qed.
(** ... and with other calls between them. *)
Example C90_example_snapshot : run basic_post call1 [(SetSpeed 2, Quiet); (Vehicle pa, Quiet)] (set_vehicle pa (do_speed 2 call1)) /\
  ~ happens (fun s e o => applied s e) call1 [(SetSpeed 2, Quiet); (Vehicle pa, Quiet)].
Proof.
  split.
  - econstructor; [exact Logic.I|reflexivity|]. econstructor; [exact Logic.I|reflexivity|constructor].
  - intros H. inversion H as [? ? ? ? [X _]|? ? ? s1 ? X Y]; [discriminate|]. inversion Y as [? ? ? ? [Z _]|? ? ? s2 ? Z W]; [discriminate|].
    inversion W.
Qed.
(** A batch with an evaluation in its middle. *)
Example C90_example_batch : exists h s', reachable call1 /\ d_pc call1 = PMove moves2 0 /\ run basic_post call1 h s' /\
  In (Eval (96 / 100), Quiet) h /\ (forall o, In (Back, o) h -> o = Moved) /\ d_pc s' = PMove [] 0 /\
  map (target moves2) (dynamic_waypoints call1) = [v3_zero; p5; pb7].
Proof.
  exists (backs (repeat Moved 4) ++ (Eval (96 / 100), Quiet) :: backs (repeat Moved 4)). eexists.
  split; [eapply full_reachable, run_ts|]. split; [reflexivity|]. split; [|split; [|split; [|split]]].
  - eapply run_app; [apply run_call2|]. apply (run_cons _ _ _ _ (do_eval (96 / 100) call2)); [cbn; discriminate|reflexivity|].
    apply (one_batch basic_post (name_b, pb7) [] dyn_a [] (do_eval (96 / 100) call2)); reflexivity.
  - apply in_or_app. right. now left.
  - intros o. cbn. intuition congruence.
  - reflexivity.
  - reflexivity.
Qed.
