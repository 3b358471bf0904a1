(** The segments computed by the linear optimiser. *)
From Coq Require Import Reals Lra Lia List Bool ZArith Arith.
From Coquelicot Require Import Coquelicot.
From Verif Require Import Base PolyModel PolySpec PolyProofs VertexModel TrajModel TrajSpec TrajProofs
  LinOptModel LinAlg LinOptSpec LinInverse LinReorder.
Import List ListNotations.
Set Bullet Behavior "Strict Subproofs".
Local Open Scope R_scope.

Lemma nth_error_ext {A} : forall (l l' : list A), (forall i, nth_error l i = nth_error l' i) -> l = l'.
Proof.
  induction l as [|a l IH]; intros [|b l'] H; auto.
  - discriminate (H O).
  - discriminate (H O).
  - f_equal; [pose proof (H O) as E; simpl in E; congruence|]. apply IH. intros i. exact (H (S i)).
Qed.

(** ** End derivatives of a polynomial and the mapping matrix *)

Lemma base_row_dot N k t p : length p = N -> (k < N)%nat -> (t = 0 \/ DBL_EPS <= Rabs t) ->
  rsum N (fun j => nth j (base_row N k t) 0 * nth j p 0) = poly_evaluate p t k.
Proof.
  intros <- Hk Ht. unfold base_row.
  destruct (base_coeffs_with_time (length p) k t) as [l|] eqn:E.
  - apply base_coeffs_with_time_dot; auto.
  - unfold base_coeffs_with_time in E. destruct (Nat.ltb_spec k (length p)); [discriminate|lia].
Qed.

Lemma mapping_start N T k p : valid_size N -> length p = N -> (k < N / 2)%nat ->
  mvec N (mapping_matrix N T) (fun j => nth j p 0) k = poly_evaluate p 0 k.
Proof.
  intros V L Hk. destruct (valid_half N V) as [E Hh]. unfold mvec, mapping_matrix.
  destruct (Nat.ltb_spec k (N / 2)); [|lia]. apply base_row_dot; auto; lia.
Qed.
Lemma mapping_end N T k p : valid_size N -> length p = N -> DBL_EPS <= T -> (k < N / 2)%nat ->
  mvec N (mapping_matrix N T) (fun j => nth j p 0) (N / 2 + k)%nat = poly_evaluate p T k.
Proof.
  intros V L HT Hk. destruct (valid_half N V) as [E Hh]. unfold mvec, mapping_matrix.
  destruct (Nat.ltb_spec (N / 2 + k) (N / 2)); [lia|].
  replace (N / 2 + k - N / 2)%nat with k by lia. apply base_row_dot; auto; [lia|].
  right. apply usable_abs; auto.
Qed.

Lemma inverse_cancel n A B x i : is_inverse n A B -> (i < n)%nat -> mvec n A (mvec n B x) i = x i.
Proof.
  intros H Hi. rewrite <- mvec_mmul. unfold mvec.
  rewrite (rsum_ext n _ (fun k => delta i k * x k)).
  - apply rsum_delta_l; auto.
  - intros k Hk. unfold mmul. destruct (H i k Hi Hk) as [-> _]. reflexivity.
Qed.
Lemma is_inverse_sym n A B : is_inverse n A B -> is_inverse n B A.
Proof. intros H i j Hi Hj. destruct (H i j Hi Hj). split; auto. Qed.

(** ** State of the optimiser after setup *)

Lemma cons_find_filter (P : nat -> bool) k c : P k = true ->
  cons_find k (filter (fun kv => P (fst kv)) c) = cons_find k c.
Proof.
  intros HP. induction c as [|[k' v] c IH]; simpl; auto.
  destruct (P k') eqn:E; simpl; rewrite IH; auto.
  destruct (Nat.eqb_spec k k'); auto. congruence.
Qed.
Lemma drop_high_get D h v k : (k < h)%nat -> get_constraint k (drop_high D h v) = get_constraint k v.
Proof.
  intros. unfold drop_high, get_constraint. destruct (forallb _ _); auto. simpl.
  apply (cons_find_filter (fun k => (k <=? h - 1)%nat)). apply Nat.leb_le. lia.
Qed.

Record ready (inv : inverse_routine) (N D : nat) (vs : list vertex) (d : nat) (o : opt) : Prop := {
  rd_D : o_D o = D;
  rd_deriv : o_deriv o = d;
  rd_low : (d <= N / 2 - 1)%nat;
  rd_vs : o_vertices o = map (drop_high D (N / 2)) vs;
  rd_len : length vs = S (length (o_times o));
  rd_pos : Forall (fun T => 0 < T) (o_times o);
  rd_inv : o_inv o = map (fun T => invert_mapping inv N (mapping_matrix N T)) (o_times o);
  rd_cost : o_cost o = map (cost_matrix N d) (o_times o);
  rd_rows : o_rows o = map snd (all_cons D (N / 2) (length (o_vertices o) - 1) 0 (o_vertices o));
  rd_fixed : o_fixed o = con_set true (all_cons D (N / 2) (length (o_vertices o) - 1) 0 (o_vertices o));
  rd_free : o_free o = con_set false (all_cons D (N / 2) (length (o_vertices o) - 1) 0 (o_vertices o));
  rd_dp : length (o_dp o) = D
}.

Lemma forallb_pos times : forallb (fun t => Rltb 0 t) times = true <-> Forall (fun T => 0 < T) times.
Proof.
  rewrite forallb_forall, Forall_forall. split; intros H x Hx.
  - apply Rltb_true. auto.
  - apply Rltb_true. auto.
Qed.

Lemma setup_ready inv N D vs times d o :
  setup inv N D vs times d = Some o -> ready inv N D vs d o /\ o_times o = times.
Proof.
  unfold setup. destruct (Nat.leb_spec d (N / 2 - 1)); simpl; [|discriminate].
  destruct (Nat.eqb_spec (length vs) (length times + 1)); [|discriminate].
  unfold update_times. simpl. rewrite map_length.
  destruct (Nat.eqb_spec (length times) (length vs - 1)); simpl; [|discriminate].
  destruct (forallb (fun t => Rltb 0 t) times) eqn:F; [|discriminate].
  intros E. inversion E; subst o; clear E. split; [|reflexivity].
  constructor; simpl; auto.
  - lia.
  - apply forallb_pos; auto.
  - apply repeat_length.
Qed.

Lemma update_times_ready inv N D vs d times o o' :
  ready inv N D vs d o -> update_times inv N times o = Some o' ->
  ready inv N D vs d o' /\ o_times o' = times.
Proof.
  intros []. unfold update_times.
  destruct (Nat.eqb_spec (length times) (length (o_vertices o) - 1)) as [L|]; simpl; [|discriminate].
  destruct (forallb (fun t => Rltb 0 t) times) eqn:F; [|discriminate].
  intros E. inversion E; subst o'; clear E. split; [|reflexivity].
  rewrite rd_vs0, map_length in L.
  constructor; simpl; auto.
  - lia.
  - apply forallb_pos; auto.
  - congruence.
Qed.

Lemma update_segments_ready inv N D vs d dp o :
  ready inv N D vs d o -> length dp = D -> ready inv N D vs d (update_segments N dp o).
Proof. intros [] L. constructor; simpl; auto. Qed.

Lemma set_free_inv N dp o o' : set_free N dp o = Some o' ->
  o' = update_segments N dp o /\ length dp = o_D o /\
  Forall (fun v => length v = length (o_free o)) dp.
Proof.
  unfold set_free. destruct (Nat.eqb_spec (length dp) (o_D o)); simpl; [|discriminate].
  destruct (forallb _ dp) eqn:F; [|discriminate]. intros E; inversion E. repeat split; auto.
  apply Forall_forall. intros v Hv. rewrite forallb_forall in F. apply Nat.eqb_eq. apply F; auto.
Qed.

Lemma solve_linear_dp inv qr N D vs d o : ready inv N D vs d o ->
  exists dp, solve_linear qr N o = update_segments N dp o /\ length dp = D.
Proof.
  intros []. unfold solve_linear. destruct (length (o_free o) =? 0)%nat.
  - eauto.
  - eexists. split; [reflexivity|]. rewrite map_length, seq_length. auto.
Qed.

Lemma opt_use_ready inv qr N D vs d o : opt_use inv qr N D vs d o -> ready inv N D vs d o.
Proof.
  induction 1.
  - eapply setup_ready; eauto.
  - eapply update_times_ready; eauto.
  - destruct (set_free_inv _ _ _ _ H0) as (-> & L & _). apply update_segments_ready; auto.
    destruct IHopt_use. congruence.
  - destruct (solve_linear_dp inv qr N D vs d o IHopt_use) as (dp & -> & L).
    apply update_segments_ready; auto.
Qed.

(** ** Derivatives of the computed polynomials at the ends of a segment *)

Section Ready.
Variables (inv : inverse_routine) (N D : nat) (vs : list vertex) (d : nat) (o : opt).
Hypothesis HI : exact_inverse inv.
Hypothesis V : valid_size N.
Hypothesis RD : ready inv N D vs d o.
Hypothesis UT : usable_times (o_times o).

Let nseg := length (o_times o).
Let cols := o_fixed o ++ o_free o.
(** Value assigned to derivative k of vertex j in dimension dim. *)
Definition vval (dp : list (list R)) (dim j k : nat) : R :=
  colsum cols (fun c => nth c (fixed_compact o dim ++ nth dim dp []) 0) j k.

Lemma rd_vertices_len : length (o_vertices o) = S nseg.
Proof. destruct RD. rewrite rd_vs0, map_length. auto. Qed.

Lemma time_nth i : (i < nseg)%nat -> DBL_EPS <= nth i (o_times o) 0.
Proof. intros. unfold usable_times in UT. rewrite Forall_forall in UT. apply UT. apply nth_In; auto. Qed.

Lemma inv_nth i : (i < nseg)%nat ->
  nth i (o_inv o) (fun _ _ => 0) = invert_mapping inv N (mapping_matrix N (nth i (o_times o) 0)).
Proof.
  intros Hi. destruct RD. rewrite rd_inv0.
  rewrite nth_indep with (d' := (fun T => invert_mapping inv N (mapping_matrix N T)) 0)
    by (rewrite map_length; auto).
  exact (map_nth (fun T => invert_mapping inv N (mapping_matrix N T)) (o_times o) 0 i).
Qed.

Lemma inv_ok i : (i < nseg)%nat ->
  is_inverse N (mapping_matrix N (nth i (o_times o) 0)) (nth i (o_inv o) (fun _ _ => 0)).
Proof. intros Hi. rewrite inv_nth by auto. apply mapping_inverse; auto. apply time_nth; auto. Qed.

(** Row r of the part of the reordering matrix for segment i. *)
Lemma M_row x i r : (i < nseg)%nat -> (r < N)%nat ->
  rsum (length (o_fixed o) + length (o_free o)) (fun c => o_M o (i * N + r)%nat c * x c) =
  if (r <? N / 2)%nat then colsum cols x i r else colsum cols x (S i) (r - N / 2).
Proof.
  intros Hi Hr. destruct (valid_half N V) as [E Hh].
  rewrite <- app_length. unfold o_M. fold cols.
  pose proof (all_cons_nth D (N / 2) (o_vertices o) i r) as A.
  rewrite rd_vertices_len in A. specialize (A ltac:(lia) ltac:(lia)).
  rewrite <- E in A.
  assert (R1 : nth_error (o_rows o) (i * N + r) =
    Some (snd (if (r <? N / 2)%nat then con_at D (o_vertices o) i r else con_at D (o_vertices o) (S i) (r - N / 2)))).
  { rewrite (rd_rows _ _ _ _ _ _ RD), nth_error_map, rd_vertices_len, A. reflexivity. }
  rewrite (reordering_row _ _ x _ _ R1).
  destruct (r <? N / 2)%nat.
  - pose proof (con_at_key D (o_vertices o) i r) as K. unfold key in K. inversion K. congruence.
  - pose proof (con_at_key D (o_vertices o) (S i) (r - N / 2)) as K. unfold key in K. inversion K. congruence.
Qed.

Definition new_d dp dim i : nat -> R :=
  fun r => if (r <? N / 2)%nat then vval dp dim i r else vval dp dim (S i) (r - N / 2).

Lemma segment_coeffs_eq dp i dim : (i < nseg)%nat ->
  segment_coeffs N o dp i dim = map (mvec N (nth i (o_inv o) (fun _ _ => 0)) (new_d dp dim i)) (seq 0 N).
Proof.
  intros Hi. unfold segment_coeffs. apply map_ext_in. intros r Hr.
  apply mvec_ext; auto. intros k Hk. unfold new_d, vval, mvec.
  apply M_row; auto.
Qed.
Lemma segment_coeffs_length dp i dim : length (segment_coeffs N o dp i dim) = N.
Proof. unfold segment_coeffs. now rewrite map_length, seq_length. Qed.

Lemma segment_coeffs_image dp i dim r : (i < nseg)%nat -> (r < N)%nat ->
  mvec N (mapping_matrix N (nth i (o_times o) 0)) (fun j => nth j (segment_coeffs N o dp i dim) 0) r =
  new_d dp dim i r.
Proof.
  intros Hi Hr. rewrite <- (inverse_cancel N _ _ (new_d dp dim i) r (inv_ok i Hi) Hr).
  apply mvec_ext; auto. intros k Hk. rewrite segment_coeffs_eq by auto.
  rewrite nth_map_seq by auto. reflexivity.
Qed.

Lemma segment_start dp i dim k : (i < nseg)%nat -> (k < N / 2)%nat ->
  poly_evaluate (segment_coeffs N o dp i dim) 0 k = vval dp dim i k.
Proof.
  intros Hi Hk. destruct (valid_half N V) as [E Hh].
  rewrite <- (mapping_start N (nth i (o_times o) 0)) by (auto using segment_coeffs_length).
  rewrite segment_coeffs_image by (auto; lia). unfold new_d.
  destruct (Nat.ltb_spec k (N / 2)); [auto|lia].
Qed.
Lemma segment_end dp i dim k : (i < nseg)%nat -> (k < N / 2)%nat ->
  poly_evaluate (segment_coeffs N o dp i dim) (nth i (o_times o) 0) k = vval dp dim (S i) k.
Proof.
  intros Hi Hk. destruct (valid_half N V) as [E Hh].
  rewrite <- (mapping_end N) by (auto using segment_coeffs_length, time_nth).
  rewrite segment_coeffs_image by (auto; lia). unfold new_d.
  destruct (Nat.ltb_spec (N / 2 + k) (N / 2)); [lia|].
  f_equal. lia.
Qed.

(** Constrained derivatives get their value. *)
Lemma vval_fixed dp dim j k c : (1 <= nseg)%nat -> (j <= nseg)%nat -> (k < N / 2)%nat ->
  get_constraint k (nth j vs (vertex_new D)) = Some c -> vval dp dim j k = nth dim c 0.
Proof.
  intros H1 Hj Hk G. unfold vval, fixed_compact, cols.
  destruct RD. rewrite rd_fixed0, rd_free0.
  apply colsum_fixed; auto; rewrite ?rd_vertices_len; try lia.
  rewrite rd_vs0.
  rewrite nth_indep with (d' := drop_high D (N / 2) (vertex_new D))
    by (rewrite map_length, rd_len0; unfold nseg in *; lia).
  rewrite map_nth, drop_high_get; auto.
Qed.

(** Any values of the free derivatives can be prescribed. *)
Definition free_of (W : nat -> nat -> nat -> R) : list (list R) :=
  map (fun dim => map (fun c => W dim (c_vertex c) (c_order c)) (o_free o)) (seq 0 D).
Lemma vval_free_of W dim j k : (1 <= nseg)%nat -> (j <= nseg)%nat -> (k < N / 2)%nat -> (dim < D)%nat ->
  (forall c, get_constraint k (nth j vs (vertex_new D)) = Some c -> W dim j k = nth dim c 0) ->
  vval (free_of W) dim j k = W dim j k.
Proof.
  intros H1 Hj Hk Hd HW.
  destruct (get_constraint k (nth j vs (vertex_new D))) as [c|] eqn:G.
  - rewrite (HW c eq_refl). apply vval_fixed; auto.
  - unfold vval, fixed_compact, cols, free_of.
    rewrite nth_indep with (d' := (fun dim => map (fun c => W dim (c_vertex c) (c_order c)) (o_free o)) O)
      by (rewrite map_length, seq_length; auto).
    rewrite (map_nth (fun dim => map (fun c => W dim (c_vertex c) (c_order c)) (o_free o))).
    rewrite seq_nth by auto. simpl (0 + dim)%nat.
    destruct RD. rewrite rd_fixed0, rd_free0.
    apply (colsum_free D (N / 2) (o_vertices o) j k dim (W dim)); rewrite ?rd_vertices_len; auto; try lia.
    rewrite rd_vs0.
    rewrite nth_indep with (d' := drop_high D (N / 2) (vertex_new D))
      by (rewrite map_length, rd_len0; unfold nseg in *; lia).
    rewrite map_nth, drop_high_get; auto.
Qed.

(** ** The computed segments *)

Definition the_segs dp := o_segs (update_segments N dp o).

Lemma the_segs_nth dp i : (i < nseg)%nat ->
  nth_error (the_segs dp) i =
  Some (mkSeg (nth i (o_times o) 0) N D (map (segment_coeffs N o dp i) (seq 0 D))).
Proof.
  intros Hi. unfold the_segs. simpl. rewrite rd_vertices_len. simpl. rewrite Nat.sub_0_r.
  rewrite nth_error_map.
  rewrite (nth_error_nth' (seq 0 nseg) O) by (rewrite seq_length; auto).
  rewrite seq_nth by auto. simpl. rewrite (rd_D _ _ _ _ _ _ RD). reflexivity.
Qed.
Lemma the_segs_length dp : length (the_segs dp) = nseg.
Proof. unfold the_segs. simpl. rewrite map_length, seq_length, rd_vertices_len. lia. Qed.

Lemma the_segs_start dp i s k : nth_error (the_segs dp) i = Some s -> (k < N / 2)%nat ->
  seg_deriv s k 0 = map (fun dim => vval dp dim i k) (seq 0 D).
Proof.
  intros H Hk. assert (Hi : (i < nseg)%nat) by (rewrite <- (the_segs_length dp); apply nth_error_Some; congruence).
  rewrite the_segs_nth in H by auto. inversion H; subst s; clear H.
  unfold seg_deriv. simpl. rewrite map_map. apply map_ext_in. intros dim Hd.
  rewrite <- poly_evaluate_Derive_n. apply segment_start; auto.
Qed.
Lemma the_segs_end dp i s k : nth_error (the_segs dp) i = Some s -> (k < N / 2)%nat ->
  seg_deriv s k (s_time s) = map (fun dim => vval dp dim (S i) k) (seq 0 D).
Proof.
  intros H Hk. assert (Hi : (i < nseg)%nat) by (rewrite <- (the_segs_length dp); apply nth_error_Some; congruence).
  rewrite the_segs_nth in H by auto. inversion H; subst s; clear H.
  unfold seg_deriv. simpl. rewrite map_map. apply map_ext_in. intros dim Hd.
  rewrite <- poly_evaluate_Derive_n. apply segment_end; auto.
Qed.

Lemma the_segs_times dp : map s_time (the_segs dp) = o_times o.
Proof.
  apply nth_error_ext. intros i. rewrite nth_error_map.
  destruct (Nat.lt_ge_cases i nseg) as [Hi|Hi].
  - rewrite the_segs_nth by auto. simpl. symmetry. apply nth_error_nth'. auto.
  - rewrite (proj2 (nth_error_None _ _)) by (rewrite the_segs_length; auto).
    symmetry. apply nth_error_None. auto.
Qed.

Lemma the_segs_wf dp : Forall (fun s => seg_wf s /\ s_N s = N /\ s_D s = D) (the_segs dp).
Proof.
  apply Forall_forall. intros s Hs. apply In_nth_error in Hs. destruct Hs as (i & H).
  assert (Hi : (i < nseg)%nat) by (rewrite <- (the_segs_length dp); apply nth_error_Some; congruence).
  rewrite the_segs_nth in H by auto. inversion H; subst s; clear H.
  split; [|auto]. split; simpl.
  - now rewrite map_length, seq_length.
  - apply Forall_forall. intros p Hp. apply in_map_iff in Hp. destruct Hp as (x & <- & _).
    apply segment_coeffs_length.
Qed.

Lemma vec_of_nth (c : vec) : length c = D -> map (fun dim => nth dim c 0) (seq 0 D) = c.
Proof.
  intros <-. apply nth_ext with (d := 0) (d' := 0); rewrite map_length, seq_length; auto.
  intros n Hn. rewrite nth_map_seq; auto.
Qed.

Lemma segs_interpolate dp : vertices_dim D vs -> interpolates N D vs (o_times o) (the_segs dp).
Proof.
  intros VD. split; [apply the_segs_times|]. split; [rewrite the_segs_length; apply (rd_len _ _ _ _ _ _ RD)|].
  split; [apply the_segs_wf|].
  intros i s v v' Hs Hv Hv' k c Hk.
  assert (Hi : (i < nseg)%nat) by (rewrite <- (the_segs_length dp); apply nth_error_Some; congruence).
  assert (DimC : forall j w, nth_error vs j = Some w -> get_constraint k w = Some c -> length c = D).
  { intros j w Hw G. unfold vertices_dim in VD. rewrite Forall_forall in VD.
    apply (VD w (nth_error_In _ _ Hw)) in G. exact G. }
  split; intros G.
  - rewrite (the_segs_start dp i s k Hs Hk). rewrite <- (vec_of_nth c) by eauto.
    apply map_ext_in. intros dim _. apply vval_fixed; auto; try lia.
    rewrite (nth_error_nth _ _ _ Hv). exact G.
  - rewrite (the_segs_end dp i s k Hs Hk). rewrite <- (vec_of_nth c) by eauto.
    apply map_ext_in. intros dim _. apply vval_fixed; auto; try lia.
    rewrite (nth_error_nth _ _ _ Hv'). exact G.
Qed.

Lemma segs_smooth dp : smooth (N / 2) (the_segs dp).
Proof.
  intros i s s' Hs Hs' k Hk.
  rewrite (the_segs_end dp i s k Hs Hk), (the_segs_start dp (S i) s' k Hs' Hk). reflexivity.
Qed.

(** Conversely every smooth interpolation arises from some free constraints. *)
Definition end_value (segs : list segment) (dim j k : nat) : R :=
  match nth_error segs j with
  | Some s => nth dim (seg_deriv s k 0) 0
  | None => match nth_error segs (j - 1) with
            | Some s => nth dim (seg_deriv s k (s_time s)) 0
            | None => 0
            end
  end.

Lemma end_value_start segs dim j k s : nth_error segs j = Some s ->
  end_value segs dim j k = nth dim (seg_deriv s k 0) 0.
Proof. intros H. unfold end_value. now rewrite H. Qed.
Lemma end_value_end segs dim j k s : smooth (N / 2) segs -> (k < N / 2)%nat -> nth_error segs j = Some s ->
  end_value segs dim (S j) k = nth dim (seg_deriv s k (s_time s)) 0.
Proof.
  intros Sm Hk H. unfold end_value. destruct (nth_error segs (S j)) as [s'|] eqn:E.
  - now rewrite (Sm j s s' H E k Hk).
  - simpl. rewrite Nat.sub_0_r, H. reflexivity.
Qed.

Lemma segs_complete segs : (1 <= nseg)%nat ->
  interpolates N D vs (o_times o) segs -> smooth (N / 2) segs ->
  the_segs (free_of (end_value segs)) = segs.
Proof.
  intros H1 (HT & HL & HW & HC) Sm. destruct (valid_half N V) as [E Hh].
  pose proof (rd_len _ _ _ _ _ _ RD) as RL. fold nseg in RL.
  assert (LS : length segs = nseg) by (unfold nseg in *; lia).
  assert (NV : forall j, (j <= nseg)%nat -> nth_error vs j = Some (nth j vs (vertex_new D))).
  { intros j Hj. apply nth_error_nth'. lia. }
  assert (VV : forall dim j k, (dim < D)%nat -> (j <= nseg)%nat -> (k < N / 2)%nat ->
    vval (free_of (end_value segs)) dim j k = end_value segs dim j k).
  { intros dim j k Hd Hj Hk. apply vval_free_of; auto. intros c G.
    destruct (nth_error segs j) as [s|] eqn:Es.
    - rewrite (end_value_start _ _ _ _ _ Es).
      assert (Hj2 : (j < nseg)%nat) by (rewrite <- LS; apply nth_error_Some; congruence).
      destruct (HC j s _ _ Es (NV j Hj) (NV (S j) Hj2) k c Hk) as [C1 _].
      now rewrite C1.
    - assert (Hj2 : (nseg <= j)%nat) by (rewrite <- LS; apply nth_error_None; auto).
      replace j with (S (j - 1)) in G |- * by lia.
      destruct (nth_error segs (j - 1)) as [s|] eqn:Es'.
      2:{ apply nth_error_None in Es'. lia. }
      rewrite (end_value_end _ _ _ _ _ Sm Hk Es').
      destruct (HC (j - 1)%nat s _ _ Es' (NV (j - 1)%nat ltac:(lia)) (NV (S (j - 1)) ltac:(lia)) k c Hk) as [_ C2].
      now rewrite C2. }
  apply nth_error_ext. intros i. destruct (Nat.lt_ge_cases i nseg) as [Hi|Hi].
  2:{ rewrite (proj2 (nth_error_None _ _)) by (rewrite the_segs_length; auto).
      symmetry. apply nth_error_None. lia. }
  rewrite the_segs_nth by auto.
  destruct (nth_error segs i) as [s|] eqn:Es.
  2:{ apply nth_error_None in Es. lia. }
  f_equal.
  rewrite Forall_forall in HW. destruct (HW s (nth_error_In _ _ Es)) as ([W1 W2] & SN & SD).
  assert (ST : s_time s = nth i (o_times o) 0).
  { rewrite <- HT. symmetry. apply nth_error_nth. rewrite nth_error_map, Es. reflexivity. }
  rewrite <- ST. destruct s as [T0 N0 D0 ps]. simpl in SN, SD, ST, W1, W2. subst N0.
  rewrite SD in Es, W1 |- *. clear SD D0. simpl. f_equal.
  apply nth_ext with (d := []) (d' := []).
  { rewrite map_length, seq_length. exact (eq_sym W1). }
  intros dim Hd. rewrite map_length, seq_length in Hd.
  rewrite nth_indep with (d' := segment_coeffs N o (free_of (end_value segs)) i O)
    by (rewrite map_length, seq_length; auto).
  rewrite map_nth, seq_nth by auto. simpl (0 + dim)%nat.
  set (p := nth dim ps []).
  assert (Lp : length p = N) by (rewrite Forall_forall in W2; apply W2, nth_In; lia).
  rewrite segment_coeffs_eq by auto.
  apply nth_ext with (d := 0) (d' := 0).
  { rewrite map_length, seq_length. auto. }
  intros r Hr. rewrite map_length, seq_length in Hr. rewrite nth_map_seq by auto.
  change (mvec N (nth i (o_inv o) (fun _ _ : nat => 0))
    (new_d (free_of (end_value segs)) dim i) r = nth r p 0).
  rewrite <- (inverse_cancel N _ _ (fun j => nth j p 0) r (is_inverse_sym _ _ _ (inv_ok i Hi)) Hr).
  apply mvec_ext; auto. intros k Hk. unfold new_d.
  assert (SD : forall x kk, nth dim (seg_deriv (mkSeg T0 N D ps) kk x) 0 = poly_evaluate p x kk).
  { intros x kk. unfold seg_deriv. simpl.
    rewrite nth_indep with (d' := (fun p => Derive_n (pval p) kk x) [])
      by (rewrite map_length; exact (eq_ind_r (fun n => (dim < n)%nat) Hd W1)).
    rewrite (map_nth (fun p => Derive_n (pval p) kk x)). rewrite poly_evaluate_Derive_n. reflexivity. }
  destruct (Nat.ltb_spec k (N / 2)).
  - rewrite VV by (auto; lia). rewrite (end_value_start _ _ _ _ _ Es), SD.
    symmetry. apply mapping_start; auto.
  - assert (Hk2 : (k - N / 2 < N / 2)%nat) by lia.
    rewrite VV by lia. rewrite (end_value_end _ _ _ _ _ Sm Hk2 Es). simpl s_time. rewrite SD.
    rewrite ST. replace k with (N / 2 + (k - N / 2))%nat at 2 by lia.
    symmetry. apply mapping_end; auto. apply time_nth; auto.
Qed.
End Ready.
