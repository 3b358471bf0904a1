(** Proofs about modifiers and waypoints. *)
From Coq Require Import Reals Lra Lia List Bool ZArith Arith.
From Coquelicot Require Import Coquelicot.
From Verif Require Import Base PolyModel VertexModel WaypointModel WaypointSpec.
Import List ListNotations.
Local Open Scope R_scope.

(* ------------------------------------------------------------------ *)
(** ** Sums over modifiers *)

Lemma v3_nth_add i a b : v3_nth i (v3_add a b) = v3_nth i a + v3_nth i b.
Proof. destruct i as [|[|i]]; reflexivity. Qed.
Lemma v3_nth_sub i a b : v3_nth i (v3_sub a b) = v3_nth i a - v3_nth i b.
Proof. destruct i as [|[|i]]; reflexivity. Qed.
Lemma v3_nth_zero i : v3_nth i v3_zero = 0.
Proof. destruct i as [|[|i]]; reflexivity. Qed.
Lemma v3_nth_eval i m t d : v3_nth i (mod3_eval m t d) = mod_eval (mod3_nth i m) t d.
Proof. destruct i as [|[|i]]; reflexivity. Qed.
Lemma v3_nth_ext a b : (forall i, v3_nth i a = v3_nth i b) -> a = b.
Proof. intros H. apply v3_eq; [apply (H 0%nat)|apply (H 1%nat)|apply (H 2%nat)]. Qed.

Lemma compensation_sum w t d i :
  v3_nth i (wp_compensation w t d) = lsum (map (fun m => mod_eval (mod3_nth i m) t d) (w_mods w)).
Proof.
  unfold wp_compensation.
  enough (G : forall l a, v3_nth i (fold_left (fun acc m => v3_add acc (mod3_eval m t d)) l a) =
     v3_nth i a + lsum (map (fun m => mod_eval (mod3_nth i m) t d) l)).
  { rewrite G, v3_nth_zero. lra. }
  induction l; intros; simpl; [lra|]. rewrite IHl, v3_nth_add, v3_nth_eval. lra.
Qed.

(** The modifier of axis i created by a move. *)
Lemma move_mods w p a :
  exists m, w_mods (wp_move p a w) = w_mods w ++ [m] /\
    (forall i, m_inc (mod3_nth i m) = v3_nth i p - v3_nth i (w_cur w)) /\
    (forall i, m_mu (mod3_nth i m) = w_time w) /\
    (0 < a -> forall i, m_sigma (mod3_nth i m) = (w_time w - a) / 3) /\
    (a <= 0 -> forall i, (i < 3)%nat -> m_sigma (mod3_nth i m) = w_sigma w * (3 / 4) ^ (S i)) /\
    (0 < a -> w_sigma (wp_move p a w) = w_sigma w) /\
    (a <= 0 -> w_sigma (wp_move p a w) = w_sigma w * (3 / 4) ^ 3).
Proof.
  unfold wp_move, axis_modifier, SIGMA_COEFFICIENT. rcase; cbn [w_mods w_sigma].
  - eexists. split; [reflexivity|].
    repeat split; intros; try lra; destruct i as [|[|i]]; reflexivity.
  - eexists. split; [reflexivity|].
    repeat split; intros; try lra; try (destruct i as [|[|i]]; reflexivity).
    destruct i as [|[|[|i]]]; cbn; try lra; lia.
Qed.
Lemma move_cur w p a : w_cur (wp_move p a w) = p.
Proof. unfold wp_move, axis_modifier. rcase; reflexivity. Qed.
Lemma move_orig w p a : w_orig (wp_move p a w) = w_orig w.
Proof. unfold wp_move, axis_modifier. rcase; reflexivity. Qed.
Lemma move_time w p a : w_time (wp_move p a w) = w_time w.
Proof. unfold wp_move, axis_modifier. rcase; reflexivity. Qed.
Lemma move_name w p a : w_name (wp_move p a w) = w_name w.
Proof. unfold wp_move, axis_modifier. rcase; reflexivity. Qed.
Lemma move_index w p a : w_index (wp_move p a w) = w_index w.
Proof. unfold wp_move, axis_modifier. rcase; reflexivity. Qed.
Lemma move_vertex w p a : w_vertex (wp_move p a w) = set_cons 0 p (w_vertex w).
Proof. unfold wp_move, axis_modifier. rcase; reflexivity. Qed.

Lemma set_time_nth t m i : mod3_nth i (mod3_set_time t m) = mod_set_time t (mod3_nth i m).
Proof. destruct i as [|[|i]]; reflexivity. Qed.

(* ------------------------------------------------------------------ *)
(** ** One modifier *)

Lemma mod_eval_at_mu m : 0 < m_sigma m -> mod_eval m (m_mu m) 0 = applied (m_inc m).
Proof.
  intros Hs. unfold mod_eval, applied. rewrite Rminus_diag_eq, Rabs_R0 by reflexivity.
  replace (Rltb (7 / 2 * m_sigma m) 0) with false by (symmetry; apply Rltb_false; lra).
  rewrite orb_false_r. rcase; [reflexivity|].
  replace (-1 * 0 * 0 / (2 * (m_sigma m * m_sigma m))) with 0 by (unfold Rdiv; ring).
  rewrite exp_0. ring.
Qed.

Lemma exp_le_1 x : x <= 0 -> exp x <= 1.
Proof. intros [H| ->]; [rewrite <- exp_0; left; apply exp_increasing; auto|rewrite exp_0; lra]. Qed.

Lemma gauss_arg_nonpos x s : - x * x / (2 * (s * s)) <= 0.
Proof.
  destruct (Req_dec s 0) as [->|Hs].
  - unfold Rdiv. replace (2 * (0 * 0)) with 0 by ring. rewrite Rinv_0. lra.
  - assert (0 < / (2 * (s * s))).
    { apply Rinv_0_lt_compat. assert (0 < s * s) by nra. lra. }
    unfold Rdiv. assert (- x * x <= 0) by nra. nra.
Qed.

Lemma mod_eval_bound m t : Rabs (mod_eval m t 0) <= Rabs (m_inc m).
Proof.
  unfold mod_eval. destruct (_ || _); [rewrite Rabs_R0; apply Rabs_pos|].
  rewrite Rabs_mult. replace (-1 * (t - m_mu m) * (t - m_mu m)) with (- (t - m_mu m) * (t - m_mu m)) by ring.
  rewrite (Rabs_right (exp _)) by (left; apply exp_pos).
  pose proof (exp_le_1 _ (gauss_arg_nonpos (t - m_mu m) (m_sigma m))).
  pose proof (Rabs_pos (m_inc m)). pose proof (exp_pos (- (t - m_mu m) * (t - m_mu m) / (2 * (m_sigma m * m_sigma m)))). nra.
Qed.

Lemma mod_eval_outside m t d : 7 / 2 * m_sigma m < Rabs (t - m_mu m) -> mod_eval m t d = 0.
Proof.
  intros H. unfold mod_eval.
  replace (Rltb (7 / 2 * m_sigma m) (Rabs (t - m_mu m))) with true by (symmetry; apply Rltb_true; auto).
  now rewrite orb_true_r.
Qed.
Lemma mod_eval_small m t d : Rabs (m_inc m) < 2 / 100 -> mod_eval m t d = 0.
Proof.
  intros H. unfold mod_eval.
  replace (Rltb (Rabs (m_inc m)) (2 / 100)) with true by (symmetry; apply Rltb_true; auto). reflexivity.
Qed.
Lemma mod_eval_inside m t d : Rabs (t - m_mu m) <= 7 / 2 * m_sigma m -> 2 / 100 <= Rabs (m_inc m) ->
  mod_eval m t d =
    match d with
    | 0%nat => exp (- (t - m_mu m) ^ 2 / (2 * m_sigma m ^ 2))
    | 1%nat => - ((t - m_mu m) / m_sigma m ^ 2) * exp (- (t - m_mu m) ^ 2 / (2 * m_sigma m ^ 2))
    | 2%nat => ((t - m_mu m) / m_sigma m ^ 2) ^ 2 * exp (- (t - m_mu m) ^ 2 / (2 * m_sigma m ^ 2))
    | _ => 0
    end * m_inc m.
Proof.
  intros H1 H2. unfold mod_eval.
  replace (Rltb (Rabs (m_inc m)) (2 / 100)) with false by (symmetry; apply Rltb_false; auto).
  replace (Rltb (7 / 2 * m_sigma m) (Rabs (t - m_mu m))) with false by (symmetry; apply Rltb_false; auto).
  cbn [orb]. f_equal.
  assert (A : m_sigma m * m_sigma m = m_sigma m ^ 2) by ring. rewrite A.
  assert (B : -1 * (t - m_mu m) * (t - m_mu m) = - (t - m_mu m) ^ 2) by ring. rewrite B.
  assert (C : - ((t - m_mu m) * (t - m_mu m)) = - (t - m_mu m) ^ 2) by ring. rewrite C.
  destruct d as [|[|[|d]]]; try reflexivity. f_equal. ring.
Qed.

Lemma derive_times_const (f : R -> R) t l k :
  is_derive f t l -> is_derive (fun u => f u * k) t (l * k).
Proof.
  intros H. apply is_derive_Reals. apply is_derive_Reals in H.
  exact (derivable_pt_lim_scal_right f t l k H).
Qed.
(** Derivative of the Gaussian. *)
Lemma gauss_derive s mu t : s <> 0 ->
  is_derive (fun t => exp (- (t - mu) ^ 2 / (2 * s ^ 2))) t
            (- ((t - mu) / s ^ 2) * exp (- (t - mu) ^ 2 / (2 * s ^ 2))).
Proof.
  intros Hs. auto_derive; [auto|].
  set (E := exp _). clearbody E. field; auto.
Qed.

(** Second derivative. *)
Lemma gauss_derive2 s mu t : s <> 0 ->
  is_derive (fun t => - ((t - mu) / s ^ 2) * exp (- (t - mu) ^ 2 / (2 * s ^ 2))) t
            ((((t - mu) / s ^ 2) ^ 2 - / s ^ 2) * exp (- (t - mu) ^ 2 / (2 * s ^ 2))).
Proof.
  intros Hs. auto_derive; [auto|].
  set (E := exp _). clearbody E. field; auto.
Qed.

(** A modifier away from the edge of its window: either it is locally zero or
    it is locally the Gaussian. *)
Lemma mod_eval_local m t d : Rabs (t - m_mu m) <> 7 / 2 * m_sigma m ->
  (locally t (fun u => mod_eval m u d = 0)) \/
  (0 < m_sigma m /\ Rabs (t - m_mu m) < 7 / 2 * m_sigma m /\ 2 / 100 <= Rabs (m_inc m) /\
   locally t (fun u => Rabs (u - m_mu m) <= 7 / 2 * m_sigma m)).
Proof.
  intros Hne. destruct (Rlt_dec (Rabs (m_inc m)) (2 / 100)) as [Hs|Hs].
  { left. exists (mkposreal 1 Rlt_0_1). intros. now apply mod_eval_small. }
  destruct (Rtotal_order (Rabs (t - m_mu m)) (7 / 2 * m_sigma m)) as [H|[H|H]]; [|tauto|].
  - right. pose proof (Rabs_pos (t - m_mu m)). split; [lra|]. split; [auto|]. split; [lra|].
    assert (Hd : 0 < 7 / 2 * m_sigma m - Rabs (t - m_mu m)) by lra.
    exists (mkposreal _ Hd). intros u Hu. unfold ball in Hu. simpl in Hu.
    unfold AbsRing_ball, abs, minus, plus, opp in Hu. simpl in Hu.
    replace (u - m_mu m) with ((u + - t) + (t - m_mu m)) by ring.
    eapply Rle_trans; [apply Rabs_triang|]. lra.
  - left. assert (Hd : 0 < Rabs (t - m_mu m) - 7 / 2 * m_sigma m) by lra.
    exists (mkposreal _ Hd). intros u Hu. unfold ball in Hu. simpl in Hu.
    unfold AbsRing_ball, abs, minus, plus, opp in Hu. simpl in Hu.
    apply mod_eval_outside.
    replace (t - m_mu m) with ((u - m_mu m) - (u + - t)) in Hu by ring.
    replace (t - m_mu m) with ((u - m_mu m) - (u + - t)) in Hd by ring.
    pose proof (Rabs_triang (u - m_mu m) (- (u + - t))). rewrite Rabs_Ropp in H0. unfold Rminus in *. lra.
Qed.

(** Velocity compensation is the derivative of the position compensation. *)
Lemma mod_derive m t : Rabs (t - m_mu m) <> 7 / 2 * m_sigma m ->
  is_derive (fun u => mod_eval m u 0) t (mod_eval m t 1).
Proof.
  intros Hne. destruct (mod_eval_local m t 0 Hne) as [H0|(Hs & Hin & Hinc & HL)].
  - assert (E1 : mod_eval m t 1 = 0).
    { destruct (Rlt_dec (Rabs (m_inc m)) (2 / 100)); [now apply mod_eval_small|].
      destruct (Rlt_dec (7 / 2 * m_sigma m) (Rabs (t - m_mu m))); [now apply mod_eval_outside|].
      exfalso. apply locally_singleton in H0. rewrite mod_eval_inside in H0 by lra.
      pose proof (exp_pos (- (t - m_mu m) ^ 2 / (2 * m_sigma m ^ 2))).
      apply Rmult_integral in H0 as [H0|H0]; [lra|]. rewrite H0, Rabs_R0 in n. lra. }
    rewrite E1. apply (is_derive_ext_loc (fun _ => 0)).
    + eapply filter_imp; [|exact H0]. simpl. intros; now symmetry.
    + apply @is_derive_const.
  - rewrite mod_eval_inside by lra.
    apply (is_derive_ext_loc (fun u => exp (- (u - m_mu m) ^ 2 / (2 * m_sigma m ^ 2)) * m_inc m)).
    + eapply filter_imp; [|exact HL]. simpl. intros u Hu. now rewrite mod_eval_inside by lra.
    + apply (derive_times_const (fun u => exp (- (u - m_mu m) ^ 2 / (2 * m_sigma m ^ 2)))).
      apply gauss_derive. lra.
Qed.

(** The acceleration compensation misses a term. *)
Lemma mod_derive2 m t : Rabs (t - m_mu m) < 7 / 2 * m_sigma m -> 2 / 100 <= Rabs (m_inc m) ->
  is_derive (fun u => mod_eval m u 1) t
    (mod_eval m t 2 - m_inc m / m_sigma m ^ 2 * exp (- (t - m_mu m) ^ 2 / (2 * m_sigma m ^ 2))).
Proof.
  intros Hin Hinc. pose proof (Rabs_pos (t - m_mu m)).
  assert (HL : locally t (fun u => Rabs (u - m_mu m) <= 7 / 2 * m_sigma m)).
  { destruct (mod_eval_local m t 0) as [H0|(_ & _ & _ & HL)]; [lra| |exact HL].
    exfalso. apply locally_singleton in H0. rewrite mod_eval_inside in H0 by lra.
    pose proof (exp_pos (- (t - m_mu m) ^ 2 / (2 * m_sigma m ^ 2))).
    apply Rmult_integral in H0 as [H0|H0]; [lra|]. rewrite H0, Rabs_R0 in Hinc. lra. }
  apply (is_derive_ext_loc (fun u => (- ((u - m_mu m) / m_sigma m ^ 2) *
      exp (- (u - m_mu m) ^ 2 / (2 * m_sigma m ^ 2))) * m_inc m)).
  { eapply filter_imp; [|exact HL]. simpl. intros u Hu. now rewrite mod_eval_inside by lra. }
  rewrite (mod_eval_inside m t 2) by lra.
  set (E := exp (- (t - m_mu m) ^ 2 / (2 * m_sigma m ^ 2))).
  replace (((t - m_mu m) / m_sigma m ^ 2) ^ 2 * E * m_inc m - m_inc m / m_sigma m ^ 2 * E)
    with ((((t - m_mu m) / m_sigma m ^ 2) ^ 2 - / m_sigma m ^ 2) * E * m_inc m)
    by (unfold Rdiv; ring).
  apply (derive_times_const (fun u => - ((u - m_mu m) / m_sigma m ^ 2) *
      exp (- (u - m_mu m) ^ 2 / (2 * m_sigma m ^ 2)))).
  apply gauss_derive2. lra.
Qed.

(* ------------------------------------------------------------------ *)
(** ** Waypoint level: derivatives *)

Lemma is_derive_lsum {A} (l : list A) (f : A -> R -> R) (g : A -> R) t :
  (forall a, In a l -> is_derive (f a) t (g a)) ->
  is_derive (fun u => lsum (map (fun a => f a u) l)) t (lsum (map g l)).
Proof.
  induction l as [|a l IH]; intros H.
  - simpl. apply @is_derive_const.
  - cbn [map lsum]. apply (is_derive_plus (f a) (fun u => lsum (map (fun a => f a u) l))).
    + apply H; left; auto.
    + apply IH. intros; apply H; right; auto.
Qed.

Lemma compensation_derive w t i :
  (forall m, In m (w_mods w) ->
     Rabs (t - m_mu (mod3_nth i m)) <> 7 / 2 * m_sigma (mod3_nth i m)) ->
  is_derive (fun u => v3_nth i (wp_compensation w u 0)) t (v3_nth i (wp_compensation w t 1)).
Proof.
  intros H. rewrite compensation_sum.
  apply (is_derive_ext (fun u => lsum (map (fun m => mod_eval (mod3_nth i m) u 0) (w_mods w)))).
  { intros. now rewrite compensation_sum. }
  apply (is_derive_lsum (w_mods w) (fun m u => mod_eval (mod3_nth i m) u 0)
           (fun m => mod_eval (mod3_nth i m) t 1)).
  intros. apply mod_derive. auto.
Qed.

(* ------------------------------------------------------------------ *)
(** ** Histories of changes *)

Definition incs (i : nat) (w : waypoint) : list R := map (fun m => m_inc (mod3_nth i m)) (w_mods w).

Lemma incs_run i os : forall w,
  incs i (run_wops w os) = incs i w ++ changes i (v3_nth i (w_cur w)) os.
Proof.
  induction os as [|o os IH]; intros w; [simpl; now rewrite app_nil_r|].
  change (run_wops w (o :: os)) with (run_wops (run_wop w o) os). rewrite IH.
  destruct o as [p a|t]; cbn [run_wop changes].
  - rewrite move_cur. destruct (move_mods w p a) as (m & E & Hi & _).
    unfold incs. rewrite E, map_app. cbn [map]. rewrite Hi. now rewrite <- app_assoc.
  - f_equal. unfold incs. cbn [w_mods wp_set_time]. rewrite map_map. apply map_ext.
    intros m. now rewrite set_time_nth.
Qed.
Lemma orig_run os : forall w, w_orig (run_wops w os) = w_orig w.
Proof.
  induction os as [|o os IH]; intros w; [reflexivity|].
  change (run_wops w (o :: os)) with (run_wops (run_wop w o) os). rewrite IH.
  destruct o; cbn [run_wop]; [apply move_orig|reflexivity].
Qed.
Lemma cur_run i os : forall w,
  v3_nth i (w_cur (run_wops w os)) = v3_nth i (w_cur w) + lsum (changes i (v3_nth i (w_cur w)) os).
Proof.
  induction os as [|o os IH]; intros w; [simpl; lra|].
  change (run_wops w (o :: os)) with (run_wops (run_wop w o) os). rewrite IH.
  destruct o as [p a|t]; cbn [run_wop changes lsum]; [rewrite move_cur; lra|reflexivity].
Qed.

(** All modifiers are centred at the waypoint's time with a positive width. *)
Definition centred (w : waypoint) : Prop :=
  0 < w_sigma w /\
  forall m i, In m (w_mods w) -> m_mu (mod3_nth i m) = w_time w /\ 0 < m_sigma (mod3_nth i m).
Lemma centred_run os : forall w, centred w -> before_passing (w_time w) os -> centred (run_wops w os).
Proof.
  induction os as [|o os IH]; intros w Hc Hb; [exact Hc|].
  change (run_wops w (o :: os)) with (run_wops (run_wop w o) os).
  destruct Hc as [Hs Hm]. destruct o as [p a|t]; cbn [run_wop before_passing] in *.
  - destruct Hb as [Ha Hb]. apply IH; [|now rewrite move_time].
    destruct (move_mods w p a) as (m & E & Hi & Hmu & Hs1 & Hs2 & Hs3 & Hs4).
    assert (Hpos : forall i, 0 < m_sigma (mod3_nth i m)).
    { intros i. destruct (Rle_lt_dec a 0) as [Hle|Hlt].
      - destruct (Nat.lt_ge_cases i 3).
        + rewrite Hs2 by auto. apply Rmult_lt_0_compat; [auto|apply pow_lt; lra].
        + replace (mod3_nth i m) with (mod3_nth 2 m) by (destruct i as [|[|[|i]]]; try lia; reflexivity).
          rewrite Hs2 by (auto; lia). apply Rmult_lt_0_compat; [auto|apply pow_lt; lra].
      - rewrite Hs1 by auto. destruct Ha; lra. }
    split.
    + destruct (Rle_lt_dec a 0); [rewrite Hs4 by auto; apply Rmult_lt_0_compat; [auto|apply pow_lt; lra]|rewrite Hs3; auto].
    + intros m' i Hin. rewrite E in Hin. rewrite move_time. apply in_app_or in Hin as [Hin|[<-|[]]]; [auto|].
      split; auto.
  - apply IH; [|exact Hb]. split; [exact Hs|]. cbn [w_mods wp_set_time w_time].
    intros m i Hin. apply in_map_iff in Hin as (m0 & <- & Hin). rewrite set_time_nth. simpl.
    split; [reflexivity|]. apply Hm; auto.
Qed.

Lemma compensation_centred w i : centred w ->
  v3_nth i (wp_compensation w (w_time w) 0) = lsum (map applied (incs i w)).
Proof.
  intros [_ Hm]. rewrite compensation_sum. unfold incs. rewrite map_map. f_equal.
  apply map_ext_in. intros m Hin. destruct (Hm m i Hin) as [<- Hs]. now apply mod_eval_at_mu.
Qed.

(** A fresh waypoint: no modifiers, original = current position. *)
Lemma moved_compensation w os i :
  w_mods w = [] -> w_orig w = w_cur w -> 0 < w_sigma w -> before_passing (w_time w) os ->
  let w' := run_wops w os in
  let ds := changes i (v3_nth i (w_orig w)) os in
  v3_nth i (wp_compensation w' (w_time w') 0) = lsum (map applied ds) /\
  v3_nth i (w_cur w') - v3_nth i (w_orig w') = lsum ds /\
  Rabs (v3_nth i (wp_compensation w' (w_time w') 0) - (v3_nth i (w_cur w') - v3_nth i (w_orig w')))
    <= 2 / 100 * INR (length (filter (fun x => Rltb (Rabs x) (2 / 100)) ds)) /\
  (Forall (fun x => x = 0 \/ 2 / 100 <= Rabs x) ds ->
   v3_nth i (wp_compensation w' (w_time w') 0) = v3_nth i (w_cur w') - v3_nth i (w_orig w')).
Proof.
  intros Hm Ho Hs Hb w' ds.
  assert (Hc : centred w') by (apply centred_run; auto; split; auto; rewrite Hm; simpl; tauto).
  assert (E1 : v3_nth i (wp_compensation w' (w_time w') 0) = lsum (map applied ds)).
  { rewrite compensation_centred by auto. unfold w', ds. rewrite incs_run. unfold incs. rewrite Hm.
    cbn [map app]. now rewrite Ho. }
  assert (E2 : v3_nth i (w_cur w') - v3_nth i (w_orig w') = lsum ds).
  { unfold w', ds. rewrite cur_run, orig_run, Ho. lra. }
  split; [exact E1|]. split; [exact E2|]. rewrite E1, E2. clearbody ds. clear. split.
  - induction ds as [|x ds IH]; [simpl; rewrite Rminus_diag_eq, Rabs_R0 by auto; lra|].
    cbn [map lsum filter]. unfold applied at 1. rcase.
    + cbn [length]. rewrite S_INR.
      replace (0 + lsum (map applied ds) - (x + lsum ds)) with (lsum (map applied ds) - lsum ds + - x) by ring.
      eapply Rle_trans; [apply Rabs_triang|]. rewrite Rabs_Ropp. lra.
    + replace (x + lsum (map applied ds) - (x + lsum ds)) with (lsum (map applied ds) - lsum ds) by ring. auto.
  - induction 1 as [|x ds Hx _ IH]; [reflexivity|]. cbn [map lsum]. rewrite IH. f_equal.
    unfold applied. rcase; [|reflexivity]. destruct Hx as [->|Hx]; [reflexivity|lra].
Qed.

(** Bound at every time, whatever the history. *)
Lemma compensation_bound w t i :
  Rabs (v3_nth i (wp_compensation w t 0)) <= lsum (map Rabs (incs i w)).
Proof.
  rewrite compensation_sum. unfold incs. rewrite map_map.
  induction (w_mods w) as [|m l IH]; [simpl; rewrite Rabs_R0; lra|].
  cbn [map lsum]. eapply Rle_trans; [apply Rabs_triang|]. pose proof (mod_eval_bound (mod3_nth i m) t). lra.
Qed.
Lemma history_bound w os t i : w_mods w = [] ->
  Rabs (v3_nth i (wp_compensation (run_wops w os) t 0)) <=
  lsum (map Rabs (changes i (v3_nth i (w_cur w)) os)).
Proof.
  intros Hm. eapply Rle_trans; [apply compensation_bound|]. rewrite incs_run.
  unfold incs. rewrite Hm. simpl. lra.
Qed.
Lemma compensation_local w t d :
  (forall m i, In m (w_mods w) -> 7 / 2 * m_sigma (mod3_nth i m) < Rabs (t - m_mu (mod3_nth i m))) ->
  wp_compensation w t d = v3_zero.
Proof.
  intros H. apply v3_nth_ext. intros i. rewrite compensation_sum, v3_nth_zero.
  induction (w_mods w) as [|m l IH]; [reflexivity|]. cbn [map lsum].
  rewrite IH by (intros; apply H; right; auto). rewrite mod_eval_outside by (apply H; left; auto). lra.
Qed.

(** Effect of one move on the compensation. *)
Lemma move_effect w p a t d i :
  exists m, v3_nth i (wp_compensation (wp_move p a w) t d) =
            v3_nth i (wp_compensation w t d) + mod_eval m t d /\
    m_inc m = v3_nth i p - v3_nth i (w_cur w) /\ m_mu m = w_time w /\
    (0 < a -> m_sigma m = (w_time w - a) / 3).
Proof.
  destruct (move_mods w p a) as (m & E & Hi & Hmu & Hs1 & _).
  exists (mod3_nth i m). split; [|split; [|split]]; auto.
  rewrite !compensation_sum, E, map_app, lsum_app. simpl. lra.
Qed.

Lemma move_now w p a i : 0 < a ->
  Rabs (v3_nth i (wp_compensation (wp_move p a w) a 0) - v3_nth i (wp_compensation w a 0)) <=
  exp (- (9 / 2)) * Rabs (v3_nth i p - v3_nth i (w_cur w)) \/ w_time w = a.
Proof.
  intros Ha. destruct (Req_dec (w_time w) a) as [|Hne]; [auto|]. left.
  destruct (move_effect w p a a 0 i) as (m & E & Hi & Hmu & Hs). rewrite E. rewrite <- Hi.
  replace (_ + _ - _) with (mod_eval m a 0) by ring. specialize (Hs Ha).
  pose proof (Rabs_pos (m_inc m)). pose proof (exp_pos (- (9 / 2))).
  unfold mod_eval. destruct (_ || _); [rewrite Rabs_R0; nra|].
  rewrite Rabs_mult, (Rabs_right (exp _)) by (left; apply exp_pos).
  rewrite Hmu, Hs. replace (-1 * (a - w_time w) * (a - w_time w) / (2 * ((w_time w - a) / 3 * ((w_time w - a) / 3))))
    with (- (9 / 2)) by (field; lra). lra.
Qed.

Lemma move_passed w p a t d : 0 < a -> w_time w < a ->
  wp_compensation (wp_move p a w) t d = wp_compensation w t d.
Proof.
  intros Ha Hp. apply v3_nth_ext. intros i.
  destruct (move_effect w p a t d i) as (m & E & Hi & Hmu & Hs). rewrite E.
  rewrite mod_eval_outside; [lra|]. rewrite Hs by auto. pose proof (Rabs_pos (t - m_mu m)). lra.
Qed.

(** Small changes are not applied, however often. *)
Lemma small_moves_ignored w os t d :
  w_mods w = [] ->
  (forall i, Forall (fun x => Rabs x < 2 / 100) (changes i (v3_nth i (w_cur w)) os)) ->
  wp_compensation (run_wops w os) t d = v3_zero.
Proof.
  intros Hm H. apply v3_nth_ext. intros i. rewrite compensation_sum, v3_nth_zero.
  assert (F : Forall (fun x => Rabs x < 2 / 100) (incs i (run_wops w os))).
  { rewrite incs_run. unfold incs. rewrite Hm. simpl. apply H. }
  unfold incs in F. rewrite Forall_map in F.
  induction F as [|m l Hx _ IH]; [reflexivity|]. cbn [map lsum]. rewrite IH, mod_eval_small by auto. lra.
Qed.

(** n steps of one centimetre along x. *)
Definition creep (p : V3) (n : nat) : list wop :=
  map (fun k => Move (mkV3 (vx p + / 100 * INR (S k)) (vy p) (vz p)) 0) (seq 0 n).
Lemma changes_creep p n k i :
  Forall (fun x => Rabs x < 2 / 100)
    (changes i (v3_nth i (mkV3 (vx p + / 100 * INR k) (vy p) (vz p)))
       (map (fun k => Move (mkV3 (vx p + / 100 * INR (S k)) (vy p) (vz p)) 0) (seq k n))) /\
  lsum (changes i (v3_nth i (mkV3 (vx p + / 100 * INR k) (vy p) (vz p)))
       (map (fun k => Move (mkV3 (vx p + / 100 * INR (S k)) (vy p) (vz p)) 0) (seq k n)))
  = match i with O => / 100 * INR n | _ => 0 end.
Proof.
  revert k; induction n; intros k.
  - cbn [seq map changes lsum]. split; [constructor|destruct i; simpl; lra].
  - cbn [seq map changes lsum]. destruct (IHn (S k)) as [F E]. rewrite E. split.
    + constructor; [|exact F]. destruct i as [|[|i]]; cbn [v3_nth vx vy vz]; try rewrite S_INR;
        match goal with |- Rabs ?x < _ => (replace x with (/ 100) by lra) || (replace x with 0 by lra) end;
        [rewrite Rabs_right by lra; lra|rewrite Rabs_R0; lra|rewrite Rabs_R0; lra].
    + destruct i as [|[|i]]; cbn [v3_nth vx vy vz]; repeat rewrite S_INR; lra.
Qed.
Lemma creep_unnoticed w n :
  w_mods w = [] ->
  let w' := run_wops w (creep (w_cur w) n) in
  vx (w_cur w') = vx (w_cur w) + / 100 * INR n /\
  forall t d, wp_compensation w' t d = v3_zero.
Proof.
  intros Hm w'.
  assert (Z : mkV3 (vx (w_cur w) + / 100 * INR 0) (vy (w_cur w)) (vz (w_cur w)) = w_cur w).
  { apply v3_eq; simpl; lra. }
  split.
  - unfold w'. pose proof (cur_run 0 (creep (w_cur w) n) w) as H. cbn [v3_nth] in H. rewrite H.
    destruct (changes_creep (w_cur w) n 0 0) as [_ E]. rewrite Z in E. unfold creep. cbn [v3_nth] in E. now rewrite E.
  - intros t d. apply small_moves_ignored; auto. intros i.
    destruct (changes_creep (w_cur w) n 0 i) as [F _]. now rewrite Z in F.
Qed.

(** Widths used while no positive time has been evaluated. *)
Lemma nonpositive_widths os : forall w k,
  Forall (fun o => match o with Move _ a => a <= 0 | Retime _ => False end) os ->
  nth_error os k <> None ->
  exists m, nth_error (w_mods (run_wops w os)) (length (w_mods w) + k) = Some m /\
    forall i, (i < 3)%nat -> m_sigma (mod3_nth i m) = w_sigma w * (3 / 4) ^ (3 * k + S i).
Proof.
  induction os as [|o os IH]; intros w k HF Hk; [destruct k; simpl in Hk; congruence|].
  inversion HF as [|? ? Ho HF']; subst. destruct o as [p a|]; [|contradiction].
  change (run_wops w (Move p a :: os)) with (run_wops (wp_move p a w) os).
  destruct (move_mods w p a) as (m & E & Hi & Hmu & Hs1 & Hs2 & Hs3 & Hs4).
  destruct k as [|k].
  - exists m. split.
    + assert (G : forall os w, exists l, w_mods (run_wops w os) = w_mods w ++ l \/ ~ Forall (fun o => match o with Move _ a => a <= 0 | Retime _ => False end) os).
      { clear. induction os as [|o os IH]; intros w; [exists []; left; now rewrite app_nil_r|].
        change (run_wops w (o :: os)) with (run_wops (run_wop w o) os).
        destruct (IH (run_wop w o)) as (l & [H|H]).
        - destruct o as [p a|t].
          + cbn [run_wop] in H |- *. destruct (move_mods w p a) as (m & E & _). rewrite E in H.
            rewrite <- app_assoc in H. eexists; left; exact H.
          + exists []; right. intros F. inversion F; auto.
        - exists []; right. intros F. inversion F; auto. }
      destruct (G os (wp_move p a w)) as (l & [H|H]); [|contradiction].
      rewrite H, E, <- app_assoc. rewrite Nat.add_0_r, nth_error_app2, Nat.sub_diag by lia. reflexivity.
    + intros i Hi3. rewrite Hs2 by auto. f_equal.
  - destruct (IH (wp_move p a w) k) as (m' & N & Hw); auto.
    exists m'. split.
    + rewrite E, app_length in N. simpl in N. rewrite <- N. f_equal. lia.
    + intros i Hi3. rewrite Hw, Hs4 by auto. rewrite Rmult_assoc, <- pow_add. f_equal. f_equal. lia.
Qed.

Lemma gauss_width s1 s2 x : 0 < s1 < s2 -> x <> 0 ->
  exp (- x ^ 2 / (2 * s1 ^ 2)) < exp (- x ^ 2 / (2 * s2 ^ 2)).
Proof.
  intros Hs Hx. apply exp_increasing. unfold Rdiv.
  assert (0 < x ^ 2) by (apply pow2_gt_0; auto).
  assert (/ (2 * s2 ^ 2) < / (2 * s1 ^ 2)).
  { apply Rinv_lt_contravar; [|nra]. apply Rmult_lt_0_compat; nra. }
  nra.
Qed.

(** Width decides the value away from the centre. *)
Lemma mod_eval_width m1 m2 t :
  m_mu m1 = m_mu m2 -> m_inc m1 = m_inc m2 -> 2 / 100 <= Rabs (m_inc m1) ->
  0 < m_sigma m1 < m_sigma m2 -> t <> m_mu m1 -> Rabs (t - m_mu m1) <= 7 / 2 * m_sigma m1 ->
  Rabs (mod_eval m1 t 0) < Rabs (mod_eval m2 t 0).
Proof.
  intros Hmu Hi Hinc Hs Ht Hw.
  rewrite (mod_eval_inside m1), (mod_eval_inside m2) by (rewrite <- ?Hmu, <- ?Hi; lra).
  rewrite <- Hmu, <- Hi, !Rabs_mult.
  rewrite !(Rabs_right (exp _)) by (left; apply exp_pos).
  apply Rmult_lt_compat_r; [lra|]. apply gauss_width; lra.
Qed.

Lemma axis_dependent w p a t :
  w_mods w = [] -> 0 < w_sigma w -> a <= 0 ->
  vx p - vx (w_cur w) = vy p - vy (w_cur w) -> vy p - vy (w_cur w) = vz p - vz (w_cur w) ->
  2 / 100 <= Rabs (vx p - vx (w_cur w)) ->
  t <> w_time w -> Rabs (t - w_time w) <= 7 / 2 * (w_sigma w * (3 / 4) ^ 3) ->
  Rabs (vz (wp_compensation (wp_move p a w) t 0)) < Rabs (vy (wp_compensation (wp_move p a w) t 0)) /\
  Rabs (vy (wp_compensation (wp_move p a w) t 0)) < Rabs (vx (wp_compensation (wp_move p a w) t 0)).
Proof.
  intros Hm Hs Ha Exy Eyz Hinc Ht Hw.
  destruct (move_mods w p a) as (m & E & Hi & Hmu & Hs1 & Hs2 & Hs3 & Hs4).
  assert (C : forall i, v3_nth i (wp_compensation (wp_move p a w) t 0) = mod_eval (mod3_nth i m) t 0).
  { intros i. rewrite compensation_sum, E, Hm. simpl. lra. }
  pose proof (C 0%nat) as C0. pose proof (C 1%nat) as C1. pose proof (C 2%nat) as C2.
  cbn [v3_nth] in C0, C1, C2. rewrite C0, C1, C2.
  pose proof (Hs2 Ha 0%nat ltac:(lia)) as S0. pose proof (Hs2 Ha 1%nat ltac:(lia)) as S1.
  pose proof (Hs2 Ha 2%nat ltac:(lia)) as S2.
  pose proof (Hi 0%nat) as I0. pose proof (Hi 1%nat) as I1. pose proof (Hi 2%nat) as I2. cbn [v3_nth] in *.
  pose proof (Hmu 0%nat) as M0. pose proof (Hmu 1%nat) as M1. pose proof (Hmu 2%nat) as M2.
  split; apply mod_eval_width; change (m_x m) with (mod3_nth 0 m); change (m_y m) with (mod3_nth 1 m);
    change (m_z m) with (mod3_nth 2 m);
    rewrite ?M0, ?M1, ?M2, ?I0, ?I1, ?I2, ?S0, ?S1, ?S2;
    try (split; simpl in *; lra); try assumption; simpl in *; try lra;
    rewrite <- ?Eyz, <- ?Exy; lra.
Qed.

(** Copying. *)
Lemma copy_same w :
  w_vertex (wp_copy w) = w_vertex w /\ w_orig (wp_copy w) = w_orig w /\ w_cur (wp_copy w) = w_cur w /\
  w_time (wp_copy w) = w_time w /\ w_name (wp_copy w) = w_name w /\ w_index (wp_copy w) = w_index w /\
  wp_has_modifiers (wp_copy w) = wp_has_modifiers w /\
  (forall t d, wp_compensation (wp_copy w) t d = wp_compensation w t d) /\
  (forall p a t d, 0 < a -> wp_compensation (wp_move p a (wp_copy w)) t d = wp_compensation (wp_move p a w) t d).
Proof.
  repeat split. intros p a t d Ha. unfold wp_move, axis_modifier.
  replace (Rltb 0 a) with true by (symmetry; apply Rltb_true; auto). reflexivity.
Qed.
Lemma copy_forgets_width w p a t :
  a <= 0 -> 0 < w_sigma w < 3 / 2 -> 2 / 100 <= Rabs (vx p - vx (w_cur w)) ->
  t <> w_time w -> Rabs (t - w_time w) <= 7 / 2 * (3 / 4 * w_sigma w) ->
  vx (wp_compensation (wp_move p a (wp_copy w)) t 0) <> vx (wp_compensation (wp_move p a w) t 0).
Proof.
  intros Ha Hs Hinc Ht Hw.
  destruct (move_mods w p a) as (m & E & Hi & Hmu & _ & Hs2 & _).
  destruct (move_mods (wp_copy w) p a) as (m' & E' & Hi' & Hmu' & _ & Hs2' & _).
  assert (C : vx (wp_compensation (wp_move p a w) t 0) = vx (wp_compensation w t 0) + mod_eval (m_x m) t 0).
  { change vx with (v3_nth 0). rewrite !compensation_sum, E, map_app, lsum_app. simpl. lra. }
  assert (C' : vx (wp_compensation (wp_move p a (wp_copy w)) t 0) = vx (wp_compensation w t 0) + mod_eval (m_x m') t 0).
  { change vx with (v3_nth 0). rewrite !compensation_sum, E', map_app, lsum_app. simpl. lra. }
  rewrite C, C'. intros Heq.
  pose proof (Hs2 Ha 0%nat ltac:(lia)) as S0. pose proof (Hs2' Ha 0%nat ltac:(lia)) as S0'.
  pose proof (Hi 0%nat) as I0. pose proof (Hi' 0%nat) as I0'. pose proof (Hmu 0%nat) as M0. pose proof (Hmu' 0%nat) as M0'.
  cbn [v3_nth mod3_nth w_cur w_time w_sigma wp_copy] in *. unfold SIGMA_FIXED in *.
  assert (Rabs (mod_eval (m_x m) t 0) < Rabs (mod_eval (m_x m') t 0)).
  { apply mod_eval_width; rewrite ?M0, ?M0', ?I0, ?I0', ?S0, ?S0'; simpl; lra. }
  assert (mod_eval (m_x m) t 0 = mod_eval (m_x m') t 0) by lra. rewrite H0 in H. lra.
Qed.

(** The compensation jumps at the edge of the window. *)
Lemma window_jump m : 0 < m_sigma m -> 2 / 100 <= Rabs (m_inc m) ->
  mod_eval m (m_mu m + 7 / 2 * m_sigma m) 0 = exp (- (49 / 8)) * m_inc m /\
  (forall t, m_mu m + 7 / 2 * m_sigma m < t -> mod_eval m t 0 = 0) /\
  ~ continuous (fun t => mod_eval m t 0) (m_mu m + 7 / 2 * m_sigma m).
Proof.
  intros Hs Hinc.
  assert (E : mod_eval m (m_mu m + 7 / 2 * m_sigma m) 0 = exp (- (49 / 8)) * m_inc m).
  { rewrite mod_eval_inside; auto.
    - f_equal. f_equal. field. lra.
    - replace (m_mu m + 7 / 2 * m_sigma m - m_mu m) with (7 / 2 * m_sigma m) by ring.
      rewrite Rabs_right by lra. lra. }
  assert (Z : forall t, m_mu m + 7 / 2 * m_sigma m < t -> mod_eval m t 0 = 0).
  { intros t Ht. apply mod_eval_outside. rewrite Rabs_right by lra. lra. }
  split; [auto|]. split; [auto|]. intros C.
  set (c := m_mu m + 7 / 2 * m_sigma m) in *.
  assert (Hv : 0 < Rabs (mod_eval m c 0)).
  { rewrite E, Rabs_mult, (Rabs_right (exp _)) by (left; apply exp_pos).
    apply Rmult_lt_0_compat; [apply exp_pos|lra]. }
  specialize (C (fun y => Rabs (y - mod_eval m c 0) < Rabs (mod_eval m c 0))). cbv beta in C.
  destruct C as [eps Heps].
  { exists (mkposreal _ Hv). intros y Hy. exact Hy. }
  specialize (Heps (c + eps / 2)).
  assert (He : 0 < eps) by apply cond_pos.
  rewrite Z in Heps by lra. rewrite Rminus_0_l, Rabs_Ropp in Heps.
  apply (Rlt_irrefl (Rabs (mod_eval m c 0))). apply Heps.
  unfold ball; simpl; unfold AbsRing_ball, abs, minus, plus, opp; simpl.
  replace (c + eps / 2 + - c) with (eps / 2) by ring. rewrite Rabs_right by lra. lra.
Qed.

(** Changing a waypoint at exactly its own time. *)
Lemma move_at_own_time_nan w p :
  0 < w_time w -> 2 / 100 <= Rabs (vx p - vx (w_cur w)) -> wp_nan (wp_move p (w_time w) w) (w_time w).
Proof.
  intros Ht Hi. destruct (move_mods w p (w_time w)) as (m & E & Hinc & Hmu & Hs & _).
  exists m, 0%nat. rewrite E. split; [apply in_or_app; right; left; auto|].
  split; [rewrite Hinc; exact Hi|]. split; [rewrite Hs by auto; lra|]. now rewrite Hmu.
Qed.
(** Otherwise no division by zero. *)
Lemma centred_not_nan w t : centred w -> ~ wp_nan w t.
Proof. intros [_ H] (m & i & Hin & _ & Hs & _). destruct (H m i Hin). lra. Qed.
Lemma history_not_nan w os t :
  w_mods w = [] -> 0 < w_sigma w -> before_passing (w_time w) os -> ~ wp_nan (run_wops w os) t.
Proof.
  intros Hm Hs Hb. apply centred_not_nan, centred_run; auto. split; auto. rewrite Hm. simpl. tauto.
Qed.

Lemma acceleration_wrong m t : Rabs (t - m_mu m) < 7 / 2 * m_sigma m -> 2 / 100 <= Rabs (m_inc m) ->
  is_derive (fun u => mod_eval m u 1) t
    (mod_eval m t 2 - m_inc m / m_sigma m ^ 2 * exp (- (t - m_mu m) ^ 2 / (2 * m_sigma m ^ 2))) /\
  ~ is_derive (fun u => mod_eval m u 1) t (mod_eval m t 2).
Proof.
  intros H1 H2. pose proof (mod_derive2 m t H1 H2) as D. split; [exact D|]. intros D'.
  apply is_derive_unique in D. apply is_derive_unique in D'. rewrite D' in D.
  pose proof (exp_pos (- (t - m_mu m) ^ 2 / (2 * m_sigma m ^ 2))) as He.
  pose proof (Rabs_pos (t - m_mu m)). assert (Hs : m_sigma m <> 0) by lra.
  assert (Hz : m_inc m / m_sigma m ^ 2 * exp (- (t - m_mu m) ^ 2 / (2 * m_sigma m ^ 2)) = 0) by lra.
  apply Rmult_integral in Hz as [Hz|Hz]; [|lra].
  apply Rmult_integral in Hz as [Hz|Hz].
  - rewrite Hz, Rabs_R0 in H2. lra.
  - revert Hz. apply Rinv_neq_0_compat. apply pow_nonzero; auto.
Qed.
Lemma acceleration_at_mu m : 0 < m_sigma m -> 2 / 100 <= Rabs (m_inc m) ->
  mod_eval m (m_mu m) 2 = 0 /\ is_derive (fun u => mod_eval m u 1) (m_mu m) (- m_inc m / m_sigma m ^ 2).
Proof.
  intros Hs Hi. assert (Z : Rabs (m_mu m - m_mu m) = 0) by (rewrite Rminus_diag_eq, Rabs_R0; auto).
  assert (E2 : mod_eval m (m_mu m) 2 = 0).
  { rewrite mod_eval_inside by lra. rewrite Rminus_diag_eq by auto. unfold Rdiv. ring. }
  split; [exact E2|]. pose proof (mod_derive2 m (m_mu m) ltac:(lra) Hi) as D. rewrite E2 in D.
  replace (- m_inc m / m_sigma m ^ 2) with (0 - m_inc m / m_sigma m ^ 2 * exp (- (m_mu m - m_mu m) ^ 2 / (2 * m_sigma m ^ 2))); auto.
  rewrite (Rminus_diag_eq (m_mu m)) by auto.
  replace (- 0 ^ 2 / (2 * m_sigma m ^ 2)) with 0 by (unfold Rdiv; ring). rewrite exp_0. unfold Rdiv. ring.
Qed.
