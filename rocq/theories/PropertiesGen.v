(** C82: the vertex generators. *)
From Coq Require Import Reals List Bool ZArith Arith Lra Lia Psatz.
From Verif Require Import Base PolyModel VertexModel VertexSpec VertexProofs GenModel.
Import ListNotations.
Local Open Scope R_scope.
Set Bullet Behavior "Strict Subproofs".

(** ** Specification *)
(** Squared distance of two points of dimension n. *)
Definition sqdist (n : nat) (a b : list R) : R := rsum n (fun i => (nth i a 0 - nth i b 0) ^ 2).
(** The vertex fixes the position and nothing else ... *)
Definition passes_at (pos : list R) (v : vertex) : Prop :=
  v_D v = length pos /\ forall k, get_constraint k v = if (k =? 0)%nat then Some pos else None.
(** ... or also that the derivatives 1 .. n vanish. *)
Definition rests_at (n : nat) (pos : list R) (v : vertex) : Prop :=
  v_D v = length pos /\
  forall k, get_constraint k v = if (k =? 0)%nat then Some pos
                                 else if (k <=? n)%nat then Some (repeat 0 (length pos)) else None.
Definition in_box (pmin pmax p : list R) : Prop :=
  length p = length pmin /\ forall i, (i < length pmin)%nat -> nth i pmin 0 <= nth i p 0 <= nth i pmax 0.
Definition unit_numbers (us : nat -> R) : Prop := forall k, 0 <= us k < 1.
(** The vertices describe the route along the points: rest at both ends. *)
Definition route (n : nat) (ps : list (list R)) (vs : list vertex) : Prop :=
  length vs = length ps /\
  forall i p v, nth_error ps i = Some p -> nth_error vs i = Some v ->
    if (i =? 0)%nat || (S i =? length ps)%nat then rests_at n p v else passes_at p v.

(** ** Lemmas *)
Lemma nth_vec_sub a b i : length a = length b -> nth i (vec_sub a b) 0 = nth i a 0 - nth i b 0.
Proof.
  revert b i. induction a as [|x a IH]; intros [|y b] i H; try discriminate; cbn in *.
  - destruct i; cbn; lra.
  - destruct i; auto. apply IH. lia.
Qed.
Lemma norm_sqdist n a b : length a = n -> length b = n -> vec_norm (vec_sub a b) = sqrt (sqdist n a b).
Proof.
  intros Ha Hb. unfold vec_norm, sqdist. f_equal. rewrite lsum_rsum, map_length.
  assert (L : length (vec_sub a b) = n) by (unfold vec_sub; rewrite map_length, combine_length; lia).
  rewrite L. apply rsum_ext. intros i Hi.
  rewrite (nth_indep _ 0 (0 * 0)) by (rewrite map_length; lia).
  rewrite (map_nth (fun x => x * x)), nth_vec_sub by lia. ring.
Qed.
Lemma sqdist_nonneg n a b : 0 <= sqdist n a b.
Proof. apply rsum_nonneg. intros. apply pow2_ge_0. Qed.
Lemma min_distance_spec n a b : length a = n -> length b = n ->
  Rltb MIN_DISTANCE (vec_norm (vec_sub a b)) = true <-> 1 / 25 < sqdist n a b.
Proof.
  intros Ha Hb. rewrite Rltb_true, (norm_sqdist n) by auto. pose proof (sqdist_nonneg n a b) as P.
  unfold MIN_DISTANCE. replace (1 / 25) with (2 / 10 * (2 / 10)) by lra.
  rewrite <- (sqrt_square (2 / 10)) at 1 by lra. split; intros H.
  - apply sqrt_lt_0_alt in H. exact H.
  - apply sqrt_lt_1_alt. lra.
Qed.
Lemma length_draw pmin pmax us n : length (draw pmin pmax us n) = length pmin.
Proof. unfold draw. now rewrite map_length, seq_length. Qed.
Lemma nth_draw pmin pmax us n i : (i < length pmin)%nat ->
  nth i (draw pmin pmax us n) 0 = nth i pmin 0 + (nth i pmax 0 - nth i pmin 0) * us (n + i)%nat.
Proof.
  intros H. unfold draw. set (f := fun i => _). rewrite (nth_indep _ 0 (f 0%nat)) by (rewrite map_length, seq_length; lia).
  rewrite map_nth, seq_nth by auto. reflexivity.
Qed.
Lemma draw_in_box pmin pmax us n : unit_numbers us -> (forall i, (i < length pmin)%nat -> nth i pmin 0 <= nth i pmax 0) ->
  in_box pmin pmax (draw pmin pmax us n).
Proof.
  intros U B. split; [apply length_draw|]. intros i Hi. rewrite nth_draw by auto.
  specialize (U (n + i)%nat). specialize (B i Hi). nra.
Qed.
Lemma next_pos_spec pmin pmax us : unit_numbers us -> (forall i, (i < length pmin)%nat -> nth i pmin 0 <= nth i pmax 0) ->
  forall fuel n last pos n', length last = length pmin -> next_pos fuel pmin pmax us n last = Some (pos, n') ->
  in_box pmin pmax pos /\ 1 / 25 < sqdist (length pmin) pos last.
Proof.
  intros U B. induction fuel as [|fuel IH]; intros n last pos n' L H; [discriminate|]. cbn [next_pos] in H.
  destruct (Rltb _ _) eqn:E.
  - injection H as <- <-. split; [now apply draw_in_box|]. apply (min_distance_spec (length pmin)) in E; auto. apply length_draw.
  - now apply IH in H.
Qed.
Lemma next_positions_spec pmin pmax us : unit_numbers us -> (forall i, (i < length pmin)%nat -> nth i pmin 0 <= nth i pmax 0) ->
  forall k fuel n last l, length last = length pmin -> next_positions k fuel pmin pmax us n last = Some l ->
  length l = k /\ Forall (in_box pmin pmax) l /\
  forall i, (i < k)%nat -> 1 / 25 < sqdist (length pmin) (nth (S i) (last :: l) []) (nth i (last :: l) []).
Proof.
  intros U B. induction k as [|k IH]; intros fuel n last l L H; cbn [next_positions] in H.
  - injection H as <-. repeat split; auto. lia.
  - destruct (next_pos _ _ _ _ _ _) as [[pos n']|] eqn:E; [|discriminate].
    destruct (next_positions _ _ _ _ _ _ _) as [l'|] eqn:E2; [|discriminate]. injection H as <-.
    destruct (next_pos_spec pmin pmax us U B _ _ _ _ _ L E) as [X Y].
    destruct (IH _ _ _ _ (proj1 X) E2) as (L' & F & D). repeat split.
    + cbn. auto.
    + constructor; auto.
    + intros [|i] Hi; [exact Y|]. apply (D i). lia.
Qed.
Lemma with_position_spec D pos : length pos = D -> exists v, with_position D pos = Some v /\ passes_at pos v.
Proof.
  intros L. unfold with_position. destruct (run_op_spec D (vertex_new D) (OpAdd 0 pos) (vertex_new_inv D) L) as (v & E & (I & _) & G).
  exists v. split; auto. split; [congruence|]. intros k. rewrite G. cbn. unfold upd. reflexivity.
Qed.
Lemma rest_spec D n pos v : vertex_inv D v -> length pos = D -> (forall k, (0 < k)%nat -> get_constraint k v = None) \/ rests_at n pos v ->
  exists v', make_start_or_end pos n v = Some v' /\ rests_at n pos v' /\ vertex_inv D v'.
Proof.
  intros I L H. destruct (run_op_spec D v (OpStartEnd pos n) I L) as (v' & E & I' & G).
  exists v'. split; auto. split; auto. split; [destruct I'; congruence|]. intros k. rewrite G. cbn.
  destruct (k =? 0)%nat eqn:K; auto. destruct (k <=? n)%nat eqn:K2; [now rewrite L|].
  destruct H as [H|[_ H]]; [apply H; apply Nat.eqb_neq in K; lia|]. rewrite H, K, K2. reflexivity.
Qed.
Lemma passes_inv D pos v : with_position D pos = Some v -> length pos = D -> vertex_inv D v.
Proof.
  intros E L. destruct (run_op_spec D (vertex_new D) (OpAdd 0 pos) (vertex_new_inv D) L) as (v' & E' & I & _).
  unfold with_position in E. cbn in E'. congruence.
Qed.
Lemma map_opt_spec D l : Forall (fun p => length p = D) l ->
  exists vs, map_opt (with_position D) l = Some vs /\ Forall2 (fun p v => passes_at p v /\ vertex_inv D v) l vs.
Proof.
  intros F. induction F as [|p l L F (vs & E & H)]; [exists []; cbn; auto|].
  destruct (with_position_spec D p L) as (v & Ev & Hv). exists (v :: vs). cbn [map_opt]. rewrite Ev, E.
  split; auto. constructor; auto. split; auto. now apply passes_inv with p.
Qed.
(** Making the last vertex an end. *)
Lemma end_last_spec D n : forall ps vs p v, Forall2 (fun p v => passes_at p v /\ vertex_inv D v) ps vs ->
  rests_at n p v -> vertex_inv D v -> Forall (fun p => length p = D) (p :: ps) ->
  exists r, end_last (last ps p) n (v :: vs) = Some r /\ route n (p :: ps) r.
Proof.
  assert (G : forall ps vs p v, Forall2 (fun p v => passes_at p v /\ vertex_inv D v) (p :: ps) (v :: vs) ->
    Forall (fun p => length p = D) (p :: ps) ->
    exists r, end_last (last ps p) n (v :: vs) = Some r /\ length r = length (v :: vs) /\
      forall i q w, nth_error (p :: ps) i = Some q -> nth_error r i = Some w ->
        if (S i =? length (p :: ps))%nat then rests_at n q w else passes_at q w).
  { induction ps as [|p' ps IH]; intros vs p v F L.
    - inversion F as [|? ? ? ? [HV HI] F']; subst. inversion F'; subst. inversion L; subst.
      destruct (rest_spec (length p) n p v HI eq_refl) as (v' & E & R & _).
      { left. intros k Hk. destruct HV as [_ HV]. rewrite HV. destruct k; [lia|reflexivity]. }
      exists [v']. cbn [end_last last]. rewrite E. repeat split; auto.
      intros [|i] q w Hq Hw; cbn in Hq, Hw; [|destruct i; discriminate]. injection Hq as <-. injection Hw as <-. exact R.
    - inversion F as [|? ? ? ? [HV HI] F']; subst. destruct vs as [|v' vs]; [inversion F'|].
      inversion L; subst. destruct (IH vs p' v' F' H2) as (r & E & LR & H).
      exists (v :: r). split; [|split].
      + change (end_last (last (p' :: ps) p) n (v :: v' :: vs)) with
          (match end_last (last (p' :: ps) p) n (v' :: vs) with Some r => Some (v :: r) | None => None end).
        replace (last (p' :: ps) p) with (last ps p') by (clear; revert p'; induction ps as [|a ps IH]; intros p'; auto; cbn in *; destruct ps; auto).
        now rewrite E.
      + cbn. cbn in LR. lia.
      + intros [|i] q w Hq Hw.
        * cbn in Hq, Hw. injection Hq as <-. injection Hw as <-. exact HV.
        * cbn in Hq, Hw. specialize (H i q w Hq Hw). exact H. }
  intros ps vs p v F R I L. destruct ps as [|p' ps].
  - inversion F; subst. inversion L; subst. destruct (rest_spec (length p) n p v I eq_refl (or_intror R)) as (v' & E & R' & _).
    exists [v']. cbn [end_last last]. rewrite E. split; auto. split; auto.
    intros [|i] q w Hq Hw; cbn in Hq, Hw; [|destruct i; discriminate]. injection Hq as <-. injection Hw as <-. exact R'.
  - inversion F as [|? v' ? vs' HV F']; subst. inversion L; subst. destruct (G ps vs' p' v' F H2) as (r & E & LR & H).
    exists (v :: r). split.
    + change (end_last (last (p' :: ps) p) n (v :: v' :: vs')) with
        (match end_last (last (p' :: ps) p) n (v' :: vs') with Some r => Some (v :: r) | None => None end).
      replace (last (p' :: ps) p) with (last ps p') by (clear; revert p'; induction ps as [|a ps IH]; intros p'; auto; cbn in *; destruct ps; auto).
      now rewrite E.
    + assert (LF : length ps = length vs') by (clear - F'; induction F'; cbn; auto).
      split; [cbn in *; lia|]. intros [|i] q w Hq Hw.
      * cbn in Hq, Hw. injection Hq as <-. injection Hw as <-. exact R.
      * cbn in Hq, Hw. specialize (H i q w Hq Hw). exact H.
Qed.

(** ** Random vertices *)

(** What is returned is a route of the requested number of segments, inside the
    box, with consecutive points more than 0.2 apart. *)
Theorem C82_random_vertices : forall fuel us max_deriv n_segments pmin pmax vs, unit_numbers us ->
  random_vertices fuel us max_deriv n_segments pmin pmax = GVal vs ->
  exists ps, length ps = S n_segments /\ route max_deriv ps vs /\ Forall (in_box pmin pmax) ps /\
    forall i, (i < n_segments)%nat -> 1 / 25 < sqdist (length pmin) (nth (S i) ps []) (nth i ps []).
Proof.
  intros fuel us md ns pmin pmax vs U H. unfold random_vertices in H.
  destruct (_ || _); [discriminate|]. destruct (_ || _); [discriminate|].
  destruct (existsb _ _) eqn:EB; [discriminate|].
  assert (B : forall i, (i < length pmin)%nat -> nth i pmin 0 <= nth i pmax 0).
  { intros i Hi. apply Rnot_lt_le. intros C. apply Bool.not_true_iff_false in EB. apply EB.
    apply existsb_exists. exists i. split; [apply in_seq; lia|]. now apply Rltb_true. }
  set (first := draw pmin pmax us 0) in *.
  assert (BF : in_box pmin pmax first) by now apply draw_in_box.
  destruct (next_positions _ _ _ _ _ _ _) as [l|] eqn:EN; [|discriminate].
  destruct (next_positions_spec pmin pmax us U B _ _ _ _ _ (proj1 BF) EN) as (LL & FL & DL).
  exists (first :: l). split; [cbn; auto|]. split; [|split; [constructor; auto|exact DL]].
  assert (LP : Forall (fun p => length p = length pmin) (first :: l)).
  { constructor; [apply BF|]. eapply Forall_impl; [|exact FL]. intros p Hp. apply Hp. }
  destruct (rest_spec (length pmin) md first (vertex_new (length pmin)) (vertex_new_inv _) (proj1 BF)) as (v0 & E0 & R0 & I0).
  { left. reflexivity. }
  destruct (map_opt_spec (length pmin) l) as (ws & EW & FW); [now inversion LP|].
  rewrite E0, EW in H. destruct (end_last_spec (length pmin) md l ws first v0 FW R0 I0 LP) as (r & E & RT).
  assert (H' : of_option (Some r) = GVal vs) by (rewrite <- H; f_equal; symmetry; exact E).
  injection H' as <-. exact RT.
Qed.

Lemma next_pos_length pmin pmax us last : forall fuel n pos n', next_pos fuel pmin pmax us n last = Some (pos, n') ->
  length pos = length pmin.
Proof.
  induction fuel as [|f IH]; intros n pos n' E; [discriminate|]. cbn [next_pos] in E.
  destruct (Rltb _ _); [injection E as <- <-; apply length_draw|eauto].
Qed.
Lemma next_positions_length pmin pmax us : forall k fuel n last l, next_positions k fuel pmin pmax us n last = Some l ->
  Forall (fun p => length p = length pmin) l.
Proof.
  induction k as [|k IH]; intros fuel n last l H; cbn [next_positions] in H; [injection H as <-; auto|].
  destruct (next_pos _ _ _ _ _ _) as [[pos n']|] eqn:E; [|discriminate].
  destruct (next_positions _ _ _ _ _ _ _) as [l'|] eqn:E2; [|discriminate]. injection H as <-.
  constructor; [now apply next_pos_length in E|eauto].
Qed.

(** The checks: it aborts exactly for no segment, no derivative, boxes of
    different dimension or with a diagonal below 0.2. *)
Theorem C82_random_checks : forall fuel us max_deriv n_segments pmin pmax,
  random_vertices fuel us max_deriv n_segments pmin pmax = GAbort <->
  n_segments = 0%nat \/ max_deriv = 0%nat \/ length pmin <> length pmax \/ sqdist (length pmin) pmax pmin < 1 / 25.
Proof.
  intros fuel us md ns pmin pmax. unfold random_vertices.
  destruct (_ || _) eqn:E1.
  { split; auto. intros _. apply orb_true_iff in E1. destruct E1 as [E|E].
    - apply Nat.ltb_lt in E. left. lia.
    - apply negb_true_iff, Nat.eqb_neq in E. auto. }
  apply orb_false_iff in E1. destruct E1 as [A B]. apply Nat.ltb_ge in A. apply negb_false_iff, Nat.eqb_eq in B.
  assert (Q : Rltb (vec_norm (vec_sub pmax pmin)) MIN_DISTANCE = true <-> sqdist (length pmin) pmax pmin < 1 / 25).
  { rewrite Rltb_true, (norm_sqdist (length pmin)) by auto. pose proof (sqdist_nonneg (length pmin) pmax pmin) as P.
    unfold MIN_DISTANCE. replace (1 / 25) with (2 / 10 * (2 / 10)) by lra.
    rewrite <- (sqrt_square (2 / 10)) at 1 by lra. split; intros H.
    - now apply sqrt_lt_0_alt in H.
    - apply sqrt_lt_1_alt. lra. }
  destruct (_ || _) eqn:E2.
  { split; auto. intros _. apply orb_true_iff in E2. destruct E2 as [E|E].
    - right; right; right. now apply Q.
    - apply Nat.ltb_lt in E. right. left. lia. }
  apply orb_false_iff in E2. destruct E2 as [C D]. apply Nat.ltb_ge in D.
  split.
  2:{ intros [X|[X|[X|X]]]; try lia. apply Q in X. congruence. }
  destruct (existsb _ _); [discriminate|].
  destruct (next_positions _ _ _ _ _ _ _) as [l|] eqn:EN; [|discriminate]. intros H. exfalso.
  (* the operations on vertices cannot fail *)
  set (first := draw pmin pmax us 0) in *. assert (LF : length first = length pmin) by apply length_draw.
  pose proof (next_positions_length pmin pmax us _ _ _ _ _ EN) as LL.
  destruct (rest_spec (length pmin) md first (vertex_new (length pmin)) (vertex_new_inv _) LF) as (v0 & E0 & R0 & I0).
  { left. reflexivity. }
  destruct (map_opt_spec (length pmin) l LL) as (ws & EW & FW).
  rewrite E0, EW in H. destruct (end_last_spec (length pmin) md l ws first v0 FW R0 I0) as (r & E & RT); [now constructor|].
  assert (H' : of_option (Some r) = GAbort) by (rewrite <- H; f_equal; symmetry; exact E). discriminate.
Qed.

(** With an accepted, properly ordered box it can only return or keep drawing. *)
Theorem C82_random_outcome : forall fuel us max_deriv n_segments pmin pmax,
  (1 <= n_segments)%nat -> (1 <= max_deriv)%nat -> length pmin = length pmax -> 1 / 25 <= sqdist (length pmin) pmax pmin ->
  (forall i, (i < length pmin)%nat -> nth i pmin 0 <= nth i pmax 0) ->
  (exists vs, random_vertices fuel us max_deriv n_segments pmin pmax = GVal vs) \/
  random_vertices fuel us max_deriv n_segments pmin pmax = GFuel.
Proof.
  intros fuel us md ns pmin pmax A B C D O.
  assert (NA : random_vertices fuel us md ns pmin pmax <> GAbort).
  { rewrite C82_random_checks. intros [X|[X|[X|X]]]; try lia; lra. }
  revert NA. unfold random_vertices. destruct (_ || _); [congruence|]. destruct (_ || _); [congruence|].
  destruct (existsb _ _) eqn:EB.
  { apply existsb_exists in EB. destruct EB as (i & Hi & L). apply in_seq in Hi. apply Rltb_true in L.
    specialize (O i). destruct O; try lia; lra. }
  destruct (next_positions _ _ _ _ _ _ _); [|auto]. destruct (of_option _) eqn:E; eauto; try congruence;
    unfold of_option in E; destruct (match make_start_or_end _ _ _ with Some _ => _ | None => _ end); discriminate.
Qed.

(** More steps do not change the outcome. *)
Lemma next_pos_more pmin pmax us last r : forall fuel fuel' n, (fuel <= fuel')%nat ->
  next_pos fuel pmin pmax us n last = Some r -> next_pos fuel' pmin pmax us n last = Some r.
Proof.
  induction fuel as [|f IH]; intros [|f'] n L H; try discriminate; try lia. cbn [next_pos] in *.
  destruct (Rltb _ _); auto. apply IH; auto. lia.
Qed.
Lemma next_positions_more pmin pmax us : forall k fuel fuel' n last r, (fuel <= fuel')%nat ->
  next_positions k fuel pmin pmax us n last = Some r -> next_positions k fuel' pmin pmax us n last = Some r.
Proof.
  induction k as [|k IH]; intros fuel fuel' n last r L H; cbn [next_positions] in *; auto.
  destruct (next_pos fuel _ _ _ _ _) as [[pos n']|] eqn:E; [|discriminate].
  rewrite (next_pos_more _ _ _ _ _ _ fuel' _ L E).
  destruct (next_positions k fuel _ _ _ _ _) as [l|] eqn:E2; [|discriminate].
  now rewrite (IH _ fuel' _ _ _ L E2).
Qed.
(** A point of the box at least half the diagonal away, nearly. *)
Lemma good_draw pmin pmax last n (us0 : nat -> R) : length pmin = length pmax -> in_box pmin pmax last ->
  (forall i, (i < length pmin)%nat -> nth i pmin 0 <= nth i pmax 0) -> unit_numbers us0 ->
  4 / 25 < sqdist (length pmin) pmax pmin ->
  exists us, unit_numbers us /\ (forall k, (k < n)%nat -> us k = us0 k) /\
    1 / 25 < sqdist (length pmin) (draw pmin pmax us n) last.
Proof.
  intros L [LL B] O U S0. set (Q := sqdist (length pmin) pmax pmin) in *.
  assert (SQ : 2 / 5 < sqrt Q).
  { rewrite <- (sqrt_square (2 / 5)) by lra. apply sqrt_lt_1_alt. lra. }
  assert (SS : sqrt Q * sqrt Q = Q) by (apply sqrt_sqrt; lra).
  set (e := (1 / 2 - 1 / (5 * sqrt Q)) / 2).
  assert (I1 : 1 / (5 * sqrt Q) * (5 * sqrt Q) = 1) by (field; lra).
  set (z := 1 / (5 * sqrt Q)) in *. assert (Z0 : 0 < z) by (apply Rdiv_lt_0_compat; lra).
  assert (Z1 : z < 1 / 2) by nra.
  assert (E0 : 0 < e < 1 / 2) by (unfold e; lra).
  set (us := fun k => if (k <? n)%nat then us0 k
                      else let i := (k - n)%nat in if Rltb (nth i last 0) ((nth i pmin 0 + nth i pmax 0) / 2) then 1 - e else 0).
  exists us. split; [|split].
  - intros k. unfold us. destruct (k <? n)%nat; [apply U|]. cbv zeta. destruct (Rltb _ _); lra.
  - intros k Hk. unfold us. apply Nat.ltb_lt in Hk. now rewrite Hk.
  - apply Rlt_le_trans with ((1 / 2 - e) ^ 2 * Q).
    + replace (1 / 2 - e) with (1 / 4 + z / 2) by (unfold e; field). assert (z * sqrt Q = 1 / 5) by lra.
      apply Rlt_le_trans with ((sqrt Q / 4 + z * sqrt Q / 2) ^ 2); [rewrite H; nra|].
      right. transitivity ((1 / 4 + z / 2) ^ 2 * (sqrt Q * sqrt Q)); [field|now rewrite SS].
    + unfold Q, sqdist. rewrite <- rsum_scal. apply rsum_le. intros i Hi. rewrite nth_draw by auto.
      specialize (B i Hi). specialize (O i Hi).
      assert (X : us (n + i)%nat = if Rltb (nth i last 0) ((nth i pmin 0 + nth i pmax 0) / 2) then 1 - e else 0).
      { unfold us. replace (n + i <? n)%nat with false by (symmetry; apply Nat.ltb_ge; lia). cbv zeta.
        replace (n + i - n)%nat with i by lia. reflexivity. }
      rewrite X. clear X. set (a := nth i pmin 0) in *. set (b := nth i pmax 0) in *. set (x := nth i last 0) in *.
      destruct (Rltb x ((a + b) / 2)) eqn:C.
      * apply Rltb_true in C. assert (0 <= (1 / 2 - e) * (b - a) <= a + (b - a) * (1 - e) - x) by (split; nra).
        replace ((1 / 2 - e) ^ 2 * (b - a) ^ 2) with (((1 / 2 - e) * (b - a)) ^ 2) by ring. apply pow_incr. lra.
      * apply Rltb_false in C. assert (0 <= (1 / 2 - e) * (b - a) <= x - a) by (split; nra).
        replace ((a + (b - a) * 0 - x) ^ 2) with ((x - a) ^ 2) by ring.
        replace ((1 / 2 - e) ^ 2 * (b - a) ^ 2) with (((1 / 2 - e) * (b - a)) ^ 2) by ring. apply pow_incr. lra.
Qed.
Lemma draw_agree pmin pmax us us' n m : (n + length pmin <= m)%nat -> (forall k, (k < m)%nat -> us k = us' k) ->
  draw pmin pmax us n = draw pmin pmax us' n.
Proof. intros L H. unfold draw. apply map_ext_in. intros i Hi. apply in_seq in Hi. rewrite H by lia. reflexivity. Qed.
Lemma next_pos_can pmin pmax last : length pmin = length pmax -> in_box pmin pmax last ->
  (forall i, (i < length pmin)%nat -> nth i pmin 0 <= nth i pmax 0) ->
  4 / 25 < sqdist (length pmin) pmax pmin -> (0 < length pmin)%nat ->
  forall fuel n m us0, unit_numbers us0 -> (m <= n + fuel)%nat ->
  exists us pos n', unit_numbers us /\ (forall k, (k < m)%nat -> us k = us0 k) /\ (n + length pmin <= n')%nat /\
    forall us', (forall k, (k < n')%nat -> us' k = us k) -> next_pos (S fuel) pmin pmax us' n last = Some (pos, n').
Proof.
  intros L B O S0 P. assert (DS : forall fuel n m us0, unit_numbers us0 -> (m <= n)%nat ->
    exists us pos n', unit_numbers us /\ (forall k, (k < m)%nat -> us k = us0 k) /\ (n + length pmin <= n')%nat /\
    forall us', (forall k, (k < n')%nat -> us' k = us k) -> next_pos (S fuel) pmin pmax us' n last = Some (pos, n')).
  { intros fuel n m us0 U Hm. destruct (good_draw pmin pmax last n us0 L B O U S0) as (us & Uu & Ag & G).
    exists us, (draw pmin pmax us n), (n + length pmin)%nat. split; auto. split; [intros; apply Ag; lia|]. split; auto.
    intros us' H'. cbn [next_pos]. rewrite (draw_agree pmin pmax us' us n (n + length pmin)) by auto.
    apply (min_distance_spec (length pmin)) in G; [|apply length_draw|apply B]. now rewrite G. }
  induction fuel as [|f IH]; intros n m us0 U Hm; [apply DS; auto; lia|].
  destruct (le_lt_dec m n) as [H|H]; [now apply DS|].
  destruct (Rltb MIN_DISTANCE (vec_norm (vec_sub (draw pmin pmax us0 n) last))) eqn:E.
  - exists us0, (draw pmin pmax us0 n), (n + length pmin)%nat. split; auto. split; auto. split; auto. intros us' H'. cbn [next_pos].
    rewrite (draw_agree pmin pmax us' us0 n (n + length pmin)) by auto. now rewrite E.
  - destruct (IH (n + length pmin)%nat (Nat.max m (n + length pmin)) us0 U) as (us & pos & n' & Uu & Ag & Le & G); [lia|].
    exists us, pos, n'. split; auto. split; [intros; apply Ag; lia|]. split; [lia|]. intros us' H'.
    rewrite <- (G us') by auto. cbn [next_pos].
    rewrite (draw_agree pmin pmax us' us0 n (n + length pmin)), E; auto.
    intros k Hk. rewrite H' by lia. apply Ag. lia.
Qed.
Lemma next_positions_can pmin pmax : length pmin = length pmax ->
  (forall i, (i < length pmin)%nat -> nth i pmin 0 <= nth i pmax 0) ->
  4 / 25 < sqdist (length pmin) pmax pmin -> (0 < length pmin)%nat ->
  forall k last n m us0, in_box pmin pmax last -> unit_numbers us0 ->
  exists us fuel l, unit_numbers us /\ (forall j, (j < m)%nat -> us j = us0 j) /\
    next_positions k fuel pmin pmax us n last = Some l.
Proof.
  intros L O S0 P. induction k as [|k IH]; intros last n m us0 B U.
  { exists us0, 0%nat, []. auto. }
  destruct (next_pos_can pmin pmax last L B O S0 P m n m us0 U) as (us1 & pos & n' & U1 & A1 & Le & G); [lia|].
  assert (BP : in_box pmin pmax pos) by (eapply (next_pos_spec pmin pmax us1 U1 O); [apply B|apply G; auto]).
  destruct (IH pos n' (Nat.max m n') us1 BP U1) as (us & fuel & l & Uu & A & E).
  exists us, (Nat.max fuel (S m)), (pos :: l). split; auto. split.
  { intros j Hj. rewrite A by lia. now apply A1. }
  cbn [next_positions]. rewrite (next_pos_more _ _ _ _ (pos, n') (S m)); [|lia|apply G; intros; apply A; lia].
  now rewrite (next_positions_more _ _ _ _ fuel (Nat.max fuel (S m)) _ _ l) by (auto; lia).
Qed.
Lemma sqdist_pos_dim n a b : 0 < sqdist n a b -> (0 < n)%nat.
Proof. destruct n; [cbn; lra|lia]. Qed.

(** With a diagonal longer than 0.4, whatever numbers have been drawn so far
    ([m] of them), there are numbers that let it return. *)
Theorem C82_random_can_finish : forall us0 m max_deriv n_segments pmin pmax, unit_numbers us0 ->
  (1 <= n_segments)%nat -> (1 <= max_deriv)%nat -> length pmin = length pmax -> 4 / 25 < sqdist (length pmin) pmax pmin ->
  (forall i, (i < length pmin)%nat -> nth i pmin 0 <= nth i pmax 0) ->
  exists us fuel vs, unit_numbers us /\ (forall j, (j < m)%nat -> us j = us0 j) /\
    random_vertices fuel us max_deriv n_segments pmin pmax = GVal vs.
Proof.
  intros us0 m md ns pmin pmax U A B L S0 O. assert (P : (0 < length pmin)%nat) by (apply (sqdist_pos_dim _ pmax pmin); lra).
  destruct (next_positions_can pmin pmax L O S0 P ns (draw pmin pmax us0 0) (length pmin) (Nat.max m (length pmin)) us0)
    as (us & fuel & l & Uu & Ag & E); auto; [now apply draw_in_box|].
  exists us, fuel. assert (X : draw pmin pmax us 0 = draw pmin pmax us0 0).
  { apply (draw_agree _ _ _ _ _ (length pmin)); auto. intros; apply Ag; lia. }
  destruct (C82_random_outcome fuel us md ns pmin pmax A B L ltac:(lra) O) as [[vs H]|H].
  { exists vs. split; auto. split; auto. intros; apply Ag; lia. }
  exfalso. revert H. unfold random_vertices. destruct (_ || _); [discriminate|]. destruct (_ || _); [discriminate|].
  destruct (existsb _ _); [discriminate|]. cbv zeta. rewrite X, E. unfold of_option.
  destruct (match make_start_or_end _ _ _ with Some _ => _ | None => _ end); discriminate.
Qed.

(** With a shorter diagonal, which is accepted down to 0.2, a first point in the
    middle of the box is never left: it draws forever, whatever is drawn next. *)
Theorem C82_random_stuck : forall fuel us max_deriv n_segments pmin pmax, unit_numbers us ->
  (1 <= n_segments)%nat -> (1 <= max_deriv)%nat -> length pmin = length pmax ->
  1 / 25 <= sqdist (length pmin) pmax pmin <= 4 / 25 ->
  (forall i, (i < length pmin)%nat -> nth i pmin 0 <= nth i pmax 0) ->
  (forall i, (i < length pmin)%nat -> us i = 1 / 2) ->
  random_vertices fuel us max_deriv n_segments pmin pmax = GFuel.
Proof.
  intros fuel us md ns pmin pmax U A B L S0 O H.
  assert (X : forall g n, next_pos g pmin pmax us n (draw pmin pmax us 0) = None).
  { induction g as [|f IH]; intros n; auto. cbn [next_pos].
    destruct (Rltb _ _) eqn:E; auto. exfalso.
    apply (min_distance_spec (length pmin)) in E; try apply length_draw.
    assert (Y : sqdist (length pmin) (draw pmin pmax us n) (draw pmin pmax us 0) <= (1 / 2) ^ 2 * sqdist (length pmin) pmax pmin).
    { unfold sqdist. rewrite <- rsum_scal. apply rsum_le. intros i Hi. rewrite !nth_draw by auto.
      rewrite (H (0 + i)%nat) by auto. specialize (O i Hi). specialize (U (n + i)%nat).
      set (w := nth i pmax 0 - nth i pmin 0). replace (_ - (_ + w * (1 / 2))) with (w * (us (n + i)%nat - 1 / 2)) by ring.
      replace ((w * (us (n + i)%nat - 1 / 2)) ^ 2) with ((us (n + i)%nat - 1 / 2) ^ 2 * w ^ 2) by ring.
      apply Rmult_le_compat_r; [apply pow2_ge_0|]. nra. }
    lra. }
  destruct (C82_random_outcome fuel us md ns pmin pmax A B L ltac:(lra) O) as [[vs E]|E]; auto.
  exfalso. revert E. unfold random_vertices. destruct (_ || _); [discriminate|]. destruct (_ || _); [discriminate|].
  destruct (existsb _ _); [discriminate|]. cbv zeta. destruct ns as [|ns]; [lia|]. cbn [next_positions].
  rewrite X. discriminate.
Qed.
(** One dimension, box [0, 0.3]: a third of the first draws leads there. *)
Theorem C82_random_finishes_refuted :
  forall us, unit_numbers us -> 1 / 3 <= us 0%nat <= 2 / 3 ->
  forall fuel n, random_vertices_1d fuel us 2 (S n) 0 (3 / 10) = GFuel.
Proof.
  intros us U H fuel n. unfold random_vertices_1d.
  assert (X : forall g n, next_pos g [0] [3 / 10] us n (draw [0] [3 / 10] us 0) = None).
  { induction g as [|f IH]; intros k; auto. cbn [next_pos].
    destruct (Rltb _ _) eqn:E; auto. exfalso.
    apply (min_distance_spec 1) in E; try apply length_draw. unfold sqdist in E. cbn [rsum] in E.
    rewrite !nth_draw in E by (cbn; lia). cbn [nth] in E. specialize (U (k + 0)%nat). change (0 + 0)%nat with 0%nat in E.
    assert (-(2 / 10) <= 0 + (3 / 10 - 0) * us (k + 0)%nat - (0 + (3 / 10 - 0) * us 0%nat) <= 2 / 10) by lra.
    set (d := 0 + (3 / 10 - 0) * us (k + 0)%nat - (0 + (3 / 10 - 0) * us 0%nat)) in *. nra. }
  destruct (C82_random_outcome fuel us 2 (S n) [0] [3 / 10]) as [[vs E]|E]; auto; try lia.
  - unfold sqdist. cbn. lra.
  - intros [|i] Hi; cbn in *; [lra|lia].
  - exfalso. revert E. unfold random_vertices. destruct (_ || _); [discriminate|]. destruct (_ || _); [discriminate|].
    destruct (existsb _ _); [discriminate|]. cbv zeta. cbn [next_positions]. rewrite X. discriminate.
Qed.
(** A box with minimum and maximum exchanged in some dimension is passed on to
    the random distribution, whose behaviour is then undefined. *)
Theorem C82_random_box_undefined : forall fuel us max_deriv n_segments pmin pmax,
  random_vertices fuel us max_deriv n_segments pmin pmax = GUndef <->
  (1 <= n_segments)%nat /\ (1 <= max_deriv)%nat /\ length pmin = length pmax /\ 1 / 25 <= sqdist (length pmin) pmax pmin /\
  exists i, (i < length pmin)%nat /\ nth i pmax 0 < nth i pmin 0.
Proof.
  intros fuel us md ns pmin pmax. split.
  - intros H. assert (NA : random_vertices fuel us md ns pmin pmax <> GAbort) by congruence.
    rewrite C82_random_checks in NA. apply Decidable.not_or in NA. destruct NA as [N1 NA].
    apply Decidable.not_or in NA. destruct NA as [N2 NA]. apply Decidable.not_or in NA. destruct NA as [N3 N4].
    split; [lia|]. split; [lia|]. split; [lia|]. split; [lra|].
    revert H. unfold random_vertices. destruct (_ || _); [discriminate|]. destruct (_ || _); [discriminate|].
    destruct (existsb _ _) eqn:E.
    + intros _. apply existsb_exists in E. destruct E as (i & Hi & Q). apply in_seq in Hi. apply Rltb_true in Q. exists i. split; [lia|auto].
    + destruct (next_positions _ _ _ _ _ _ _); [|discriminate]. unfold of_option.
      destruct (match make_start_or_end _ _ _ with Some _ => _ | None => _ end); discriminate.
  - intros (A & B & C & D & i & Hi & Q).
    assert (NA : random_vertices fuel us md ns pmin pmax <> GAbort).
    { rewrite C82_random_checks. intros [X|[X|[X|X]]]; try lia; lra. }
    revert NA. unfold random_vertices. destruct (_ || _); [congruence|]. destruct (_ || _); [congruence|].
    replace (existsb _ _) with true; auto. symmetry. apply existsb_exists. exists i. split; [apply in_seq; lia|now apply Rltb_true].
Qed.

(** ** Square *)
Definition corner (c : V3) (side : R) (i : nat) : list R :=
  match (i mod 4)%nat with
  | 0%nat => [vx c - side / 2; vy c - side / 2; vz c]
  | 1%nat => [vx c - side / 2; vy c + side / 2; vz c]
  | 2%nat => [vx c + side / 2; vy c + side / 2; vz c]
  | _ => [vx c + side / 2; vy c - side / 2; vz c]
  end.
Lemma corners_rounds c side r : forall k, (k mod 4 = 0)%nat ->
  map (corner c side) (seq (S k) (4 * r)) = concat (repeat [corner c side 1; corner c side 2; corner c side 3; corner c side 0] r).
Proof.
  induction r as [|r IH]; intros k Hk; auto. replace (4 * S r)%nat with (4 + 4 * r)%nat by lia.
  rewrite seq_app, map_app. cbn [repeat concat]. f_equal.
  - cbn [seq map]. unfold corner.
    assert (E : forall j, ((j + k) mod 4 = j mod 4)%nat) by (intros j; rewrite Nat.add_mod, Hk, Nat.add_0_r, Nat.mod_mod; lia).
    change (S k) with (1 + k)%nat. change (S (1 + k)) with (2 + k)%nat. change (S (2 + k)) with (3 + k)%nat. change (S (3 + k)) with (4 + k)%nat.
    rewrite !E. reflexivity.
  - rewrite <- (IH (4 + k)%nat); [f_equal; f_equal; lia|]. rewrite Nat.add_mod, Hk by lia. reflexivity.
Qed.
(** For every non-negative number of rounds: a route along the corners of the
    square, corner after corner, back to the start after every four. *)
Theorem C82_square_vertices : forall max_deriv c side (rounds : nat),
  exists vs, square_vertices max_deriv c side (Z.of_nat rounds) = GVal vs /\
    route max_deriv (map (corner c side) (seq 0 (S (4 * rounds)))) vs.
Proof.
  intros md c side r. unfold square_vertices. replace (Z.of_nat r <? 0)%Z with false by (symmetry; apply Z.ltb_ge; lia).
  cbv zeta. rewrite Nat2Z.id.
  change [vx c - side / 2; vy c - side / 2; vz c] with (corner c side 0).
  change [vx c - side / 2; vy c + side / 2; vz c] with (corner c side 1).
  change [vx c + side / 2; vy c + side / 2; vz c] with (corner c side 2).
  change [vx c + side / 2; vy c - side / 2; vz c] with (corner c side 3).
  destruct (with_position_spec 3 (corner c side 0) eq_refl) as (v1 & E1 & P1).
  destruct (with_position_spec 3 (corner c side 1) eq_refl) as (v2 & E2 & P2).
  destruct (with_position_spec 3 (corner c side 2) eq_refl) as (v3 & E3 & P3).
  destruct (with_position_spec 3 (corner c side 3) eq_refl) as (v4 & E4 & P4).
  rewrite E1, E2, E3, E4.
  destruct (rest_spec 3 md (corner c side 0) v1 (passes_inv _ _ _ E1 eq_refl) eq_refl) as (v0 & E0 & R0 & I0).
  { left. intros k Hk. destruct P1 as [_ P1]. rewrite P1. destruct k; [lia|reflexivity]. }
  rewrite E0. set (ps := map (corner c side) (seq 1 (4 * r))).
  assert (EP : ps = concat (repeat [corner c side 1; corner c side 2; corner c side 3; corner c side 0] r)) by now apply corners_rounds.
  destruct (end_last_spec 3 md ps (concat (repeat [v2; v3; v4; v1] r)) (corner c side 0) v0) as (vs & E & RT); auto.
  - rewrite EP. clear EP ps. induction r as [|r IH]; cbn [repeat concat]; auto.
    repeat (constructor; [split; auto; eapply passes_inv; eauto|]). exact IH.
  - constructor; auto. unfold ps. apply Forall_forall. intros p Hp. apply in_map_iff in Hp. destruct Hp as (i & <- & _).
    unfold corner. destruct (i mod 4)%nat as [|[|[|?]]]; reflexivity.
  - assert (EL : last ps (corner c side 0) = corner c side 0).
    { rewrite EP. clear. induction r as [|r IH]; auto. cbn [repeat concat]. destruct r; auto. }
    rewrite EL in E. exists vs. split; [|exact RT].
    transitivity (of_option (Some vs)); [f_equal; exact E|reflexivity].
Qed.
(** The sides have the requested length and the corners lie in the plane of the centre. *)
Theorem C82_square_sides : forall c side i,
  sqdist 3 (corner c side (S i)) (corner c side i) = side ^ 2 /\
  sqdist 3 (corner c side (S (S i))) (corner c side i) = 2 * side ^ 2 /\ nth 2 (corner c side i) 0 = vz c /\
  corner c side (i + 4) = corner c side i.
Proof.
  intros c side i.
  assert (E : forall j, corner c side (j + i) = corner c side (j + i mod 4)).
  { intros j. unfold corner. now rewrite Nat.add_mod_idemp_r by lia. }
  change (S (S i)) with (2 + i)%nat. change (S i) with (1 + i)%nat.
  assert (E0 : corner c side i = corner c side (i mod 4)) by exact (E 0%nat).
  replace (i + 4)%nat with (4 + i)%nat by lia. rewrite (E 1%nat), (E 2%nat), (E 4%nat), E0.
  pose proof (Nat.mod_upper_bound i 4 ltac:(lia)) as B.
  destruct (i mod 4)%nat as [|[|[|[|k]]]]; [| | | |lia]; unfold sqdist, corner; cbn; repeat split; try field; reflexivity.
Qed.
(** A negative number of rounds throws. *)
Theorem C82_square_negative_rounds : forall max_deriv c side rounds, (rounds < 0)%Z ->
  square_vertices max_deriv c side rounds = GThrow.
Proof. intros md c side r H. unfold square_vertices. apply Z.ltb_lt in H. now rewrite H. Qed.

(** ** Examples *)
(** Two segments in one dimension from the numbers 0, 1/2, 1/2, 3/4, ... *)
Example C82_random_example :
  exists vs, random_vertices_1d 2 (fun k => match k with 0%nat => 0 | 3%nat => 3 / 4 | _ => 1 / 2 end) 2 2 0 1 = GVal vs /\
    length vs = 3%nat.
Proof.
  set (us := fun k : nat => _).
  assert (U : unit_numbers us) by (intros [|[|[|[|k]]]]; cbn; lra).
  assert (O : forall i, (i < length [0])%nat -> nth i [0] 0 <= nth i [1] 0) by (intros [|i] Hi; cbn in *; [lra|lia]).
  destruct (C82_random_outcome 2 us 2 2 [0] [1]) as [[vs H]|H]; auto; try (unfold sqdist; cbn; lra).
  - exists vs. split; auto. destruct (C82_random_vertices _ _ _ _ _ _ _ U H) as (ps & L & (L2 & _) & _). lia.
  - exfalso. revert H. unfold random_vertices. destruct (_ || _); [discriminate|]. destruct (_ || _); [discriminate|].
    destruct (existsb _ _); [discriminate|]. cbv zeta.
    assert (T : forall a n, Rltb MIN_DISTANCE (vec_norm (vec_sub (draw [0] [1] us n) (draw [0] [1] us a))) = true
      <-> 1 / 25 < (us n - us a) ^ 2).
    { intros a n. rewrite (min_distance_spec 1) by apply length_draw. unfold sqdist. cbn [rsum]. rewrite !nth_draw by (cbn; lia).
      cbn [nth]. rewrite !Nat.add_0_r. replace (0 + _) with ((us n - us a) ^ 2) by ring. reflexivity. }
    assert (F : forall o, of_option o = GFuel -> False) by (intros [?|]; discriminate).
    cbn [next_positions]. cbn [next_pos length Nat.add].
    assert (T1 := proj2 (T 0%nat 1%nat)). cbn [us] in T1. rewrite T1 by lra. cbn [length Nat.add].
    destruct (Rltb MIN_DISTANCE (vec_norm (vec_sub (draw [0] [1] us 2) (draw [0] [1] us 1)))); [apply F|].
    assert (T3 := proj2 (T 1%nat 3%nat)). cbn [us] in T3. rewrite T3 by lra. apply F.
Qed.
Example C82_square_example : exists vs, square_vertices 2 (mkV3 0 0 1) 2 1 = GVal vs /\
  exists v, nth_error vs 2 = Some v /\ passes_at [1; 1; 1] v.
Proof.
  destruct (C82_square_vertices 2 (mkV3 0 0 1) 2 1) as (vs & E & L & H). exists vs. split; [exact E|].
  destruct (nth_error vs 2) as [v|] eqn:N; [|apply nth_error_None in N; cbn in L; lia].
  exists v. split; auto. specialize (H 2%nat _ v eq_refl N). cbn in H.
  replace [1; 1; 1] with [0 + 2 / 2; 0 + 2 / 2; 1] by (repeat f_equal; lra). exact H.
Qed.
