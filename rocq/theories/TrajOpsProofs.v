(** Proofs about operations on trajectories: time scaling, scaling to limits,
    extraction and appending of dimensions, concatenation, offset, sampling. *)
From Coq Require Import Reals Lra Lia List Bool ZArith Arith Classical.
From Coquelicot Require Import Coquelicot.
From Verif Require Import Base PolyModel PolySpec PolyProofs VertexModel TrajModel TrajSpec TrajProofs ExtremaProofs.
Import List ListNotations.
Local Open Scope R_scope.

(* ------------------------------------------------------------------ *)
(** ** Scaling of the segment times *)

Lemma seg_poly_map (f : poly -> poly) s i :
  f [] = [] -> nth i (map f (s_polys s)) [] = f (seg_poly s i).
Proof. intros E. unfold seg_poly. rewrite <- E at 1. apply map_nth. Qed.

Lemma seg_scale_evaluate s k x d : k <> 0 ->
  seg_evaluate (seg_scale s k (1 / k)) (k * x) d = map (fun v => v / k ^ d) (seg_evaluate s x d).
Proof.
  intros Hk. unfold seg_evaluate. rewrite map_map. simpl s_D. apply map_ext. intros i.
  unfold seg_poly at 1, seg_scale. simpl s_polys.
  rewrite (seg_poly_map (fun p => poly_scale_time p (1 / k))) by reflexivity.
  rewrite poly_scale_time_evaluate. replace (1 / k * (k * x)) with x by (field; auto).
  unfold Rdiv. rewrite Rmult_1_l. rewrite pow_inv. ring.
Qed.

Lemma piece_scale segs t k kinv : 0 < k ->
  piece (map (fun s => seg_scale s k kinv) segs) (k * t) =
  match piece segs t with Some (s, x) => Some (seg_scale s k kinv, k * x) | None => None end.
Proof.
  intros Hk. revert t; induction segs as [|s segs IH]; intros t; [reflexivity|].
  destruct segs as [|s1 segs]; [reflexivity|].
  change (piece (s :: s1 :: segs) t) with
    (if Rltb t (s_time s) then Some (s, t) else piece (s1 :: segs) (t - s_time s)).
  change (piece (map (fun s => seg_scale s k kinv) (s :: s1 :: segs)) (k * t)) with
    (if Rltb (k * t) (s_time s * k) then Some (seg_scale s k kinv, k * t)
     else piece (map (fun s => seg_scale s k kinv) (s1 :: segs)) (k * t - s_time s * k)).
  replace (k * t - s_time s * k) with (k * (t - s_time s)) by ring. rewrite IH.
  repeat rcase; auto; nra.
Qed.

Lemma total_scale segs k kinv :
  lsum (map s_time (map (fun s => seg_scale s k kinv) segs)) = k * lsum (map s_time segs).
Proof. induction segs; simpl; [lra|]. rewrite IHsegs. ring. Qed.

Lemma seg_scale_wf s k kinv : seg_wf s -> seg_wf (seg_scale s k kinv).
Proof.
  intros [H1 H2]. split; simpl.
  - now rewrite map_length.
  - apply Forall_map. eapply Forall_impl; [|exact H2]. simpl; intros.
    now rewrite length_poly_scale_time.
Qed.

Lemma traj_scale_max tr k : t_max (traj_scale tr k) = k * lsum (map s_time (t_segs tr)).
Proof. unfold traj_scale; simpl. rewrite fold_sum_times, total_scale. lra. Qed.

Lemma traj_scale_wf tr k : traj_wf tr -> traj_wf (traj_scale tr k).
Proof.
  intros [H1 H2]. split.
  - simpl. apply Forall_map. eapply Forall_impl; [|exact H1]. simpl. intros s (A & B & C).
    split; auto using seg_scale_wf.
  - rewrite traj_scale_max. simpl. now rewrite total_scale.
Qed.

Lemma traj_scale_evaluate tr k t d : 0 < k ->
  Forall (fun s => 0 <= s_time s) (t_segs tr) ->
  traj_evaluate (traj_scale tr k) (k * t) d =
  option_map (map (fun v => v / k ^ d)) (traj_evaluate tr t d).
Proof.
  intros Hk HT.
  assert (HT' : Forall (fun s => 0 <= s_time s) (t_segs (traj_scale tr k))).
  { simpl. apply Forall_map. eapply Forall_impl; [|exact HT]. simpl; intros. nra. }
  destruct (Rle_dec t (lsum (map s_time (t_segs tr)))) as [Hle|Hgt].
  - destruct (t_segs tr) as [|s0 ss] eqn:E.
    + simpl in Hle. unfold traj_evaluate, traj_evaluate_gen, traj_scale. rewrite E. simpl.
      destruct (Rltb 0 t) eqn:E1; [apply Rltb_true in E1; lra|].
      destruct (Rltb 0 (k * t)) eqn:E2; [apply Rltb_true in E2; nra|]. reflexivity.
    + destruct (traj_evaluate_piece tr t d) as (s & x & Hp & He); [congruence|rewrite E; auto|].
      destruct (traj_evaluate_piece (traj_scale tr k) (k * t) d) as (s' & x' & Hp' & He').
      * simpl. rewrite E. discriminate.
      * simpl t_segs. rewrite total_scale, E. apply Rmult_le_compat_l; [lra|auto].
      * simpl t_segs in Hp'. rewrite piece_scale, Hp in Hp' by auto.
        inversion Hp'; subst. rewrite He, He'. simpl. f_equal. apply seg_scale_evaluate. lra.
  - rewrite !traj_evaluate_past; auto; try lra.
    + simpl. f_equal. induction (t_D tr); simpl; [reflexivity|]. rewrite <- IHn. f_equal.
      unfold Rdiv; ring.
    + simpl t_segs. rewrite total_scale. apply Rmult_lt_compat_l; lra.
Qed.

(* ------------------------------------------------------------------ *)
(** ** Scaling to meet limits *)

Lemma norm_dims_scale v dims c : 0 < c ->
  norm_dims (map (fun x => x / c) v) dims = norm_dims v dims / c.
Proof.
  intros Hc. unfold norm_dims.
  replace (lsum (map (fun i => nth i (map (fun x => x / c) v) 0 ^ 2) dims))
    with (lsum (map (fun i => nth i v 0 ^ 2) dims) / c ^ 2).
  - rewrite sqrt_div_alt by (apply pow_lt; auto). rewrite sqrt_pow2 by lra. reflexivity.
  - induction dims; cbn [map lsum]; [lra|]. rewrite <- IHdims.
    assert (nth a (map (fun x => x / c) v) 0 = nth a v 0 / c) as ->.
    { replace 0 with ((fun x => x / c) 0) at 1 by (unfold Rdiv; ring). apply (map_nth (fun x => x / c)). }
    simpl. field. lra.
Qed.

Lemma seg_scale_deriv s k x d : seg_wf s -> k <> 0 ->
  seg_deriv (seg_scale s k (1 / k)) d (k * x) = map (fun v => v / k ^ d) (seg_deriv s d x).
Proof.
  intros. rewrite <- !seg_evaluate_deriv; auto using seg_scale_wf. apply seg_scale_evaluate; auto.
Qed.

Lemma traj_max_scale segs d dims e e' k :
  0 < k -> Forall seg_wf segs -> Forall (fun s => 0 <= s_time s) segs ->
  traj_max_spec segs d dims e ->
  traj_max_spec (map (fun s => seg_scale s k (1 / k)) segs) d dims e' ->
  e_value e' = e_value e / k ^ d.
Proof.
  intros Hk Hwf HT [(s & N1 & T1 & V1) M1] [(s' & N2 & T2 & V2) M2].
  assert (Hkd : 0 < k ^ d) by (apply pow_lt; auto).
  apply Rle_antisym.
  - rewrite nth_error_map in N2. destruct (nth_error segs (e_seg e')) as [s0|] eqn:E; [|discriminate].
    inversion N2; subst s'. simpl in T2.
    rewrite Forall_forall in Hwf. assert (In s0 segs) by (eapply nth_error_In; eauto).
    rewrite <- V2. replace (e_time e') with (k * (e_time e' / k)) by (field; lra).
    rewrite seg_scale_deriv by (auto; lra). rewrite norm_dims_scale by auto.
    apply Rmult_le_compat_r; [left; apply Rinv_0_lt_compat; auto|].
    apply M1; auto. split.
    + apply Rmult_le_pos; [lra|left; apply Rinv_0_lt_compat; auto].
    + apply Rmult_le_reg_r with k; auto. replace (e_time e' / k * k) with (e_time e') by (field; lra). lra.
  - assert (In s segs) by (eapply nth_error_In; eauto).
    rewrite Forall_forall in Hwf.
    rewrite <- V1, <- norm_dims_scale, <- seg_scale_deriv by (auto; lra).
    apply M2; [apply in_map_iff; eauto|]. simpl. split.
    + apply Rmult_le_pos; lra.
    + rewrite Rmult_comm. apply Rmult_le_compat_r; lra.
Qed.

Lemma max_vel_acc_spec find_roots tr :
  exact_root_finder find_roots -> traj_wf tr -> t_segs tr <> [] ->
  Forall (fun s => 0 <= s_time s) (t_segs tr) -> (3 <= t_N tr)%nat -> (1 <= t_D tr)%nat ->
  exists v a, max_vel_acc find_roots tr = Val (e_value v, e_value a) /\
    traj_max_spec (t_segs tr) 1 (seq 0 (t_D tr)) v /\
    traj_max_spec (t_segs tr) 2 (seq 0 (t_D tr)) a.
Proof.
  intros HR Hwf Hne HT HN HD.
  assert (Hd : seq 0 (t_D tr) <> []) by (destruct (t_D tr); [lia|discriminate]).
  assert (HF : Forall (fun i => (i < t_D tr)%nat) (seq 0 (t_D tr))).
  { apply Forall_forall. intros x Hx. apply in_seq in Hx. lia. }
  destruct (traj_minmax_spec find_roots tr 1 (seq 0 (t_D tr))) as (mn1 & v & E1 & M1 & _); auto; [lia|].
  destruct (traj_minmax_spec find_roots tr 2 (seq 0 (t_D tr))) as (mn2 & a & E2 & M2 & _); auto.
  exists v, a. unfold max_vel_acc. rewrite E1, E2. auto.
Qed.

Lemma traj_max_nonneg segs d dims e : traj_max_spec segs d dims e -> 0 <= e_value e.
Proof. intros [(s & _ & _ & <-) _]. apply norm_dims_nonneg. Qed.

Lemma div_le_1 x y : 0 < y -> x / y <= 1 -> x <= y.
Proof.
  intros Hy H. replace x with (x / y * y) by (field; lra). nra.
Qed.
Lemma TOL_pos : 0 < TOL.
Proof. unfold TOL. apply Rinv_0_lt_compat, pow_lt. lra. Qed.

(** Result of the loop: the trajectory scaled by a factor k >= 1, with both
    maxima within tolerance; k = 1 (nothing changed) if they already were. *)
Lemma scale_to_constraints_spec find_roots tr v_max a_max :
  exact_root_finder find_roots -> traj_wf tr -> t_segs tr <> [] ->
  Forall (fun s => 0 <= s_time s) (t_segs tr) -> (3 <= t_N tr)%nat -> (1 <= t_D tr)%nat ->
  0 < v_max -> 0 < a_max ->
  exists tr', scale_to_constraints find_roots tr v_max a_max = Val (true, tr') /\
    (tr' = tr \/ exists k, 1 <= k /\ tr' = traj_scale tr k /\
       exists s t, In s (t_segs tr') /\ 0 <= t <= s_time s /\
         (norm_dims (seg_deriv s 1 t) (seq 0 (t_D tr)) = v_max \/ norm_dims (seg_deriv s 2 t) (seq 0 (t_D tr)) = a_max)) /\
    (forall s t, In s (t_segs tr') -> 0 <= t <= s_time s ->
       norm_dims (seg_deriv s 1 t) (seq 0 (t_D tr)) <= v_max * (1 + TOL) /\
       norm_dims (seg_deriv s 2 t) (seq 0 (t_D tr)) <= a_max * (1 + TOL)) /\
    ((forall s t, In s (t_segs tr) -> 0 <= t <= s_time s ->
       norm_dims (seg_deriv s 1 t) (seq 0 (t_D tr)) <= v_max * (1 + TOL) /\
       norm_dims (seg_deriv s 2 t) (seq 0 (t_D tr)) <= a_max * (1 + TOL)) -> tr' = tr).
Proof.
  intros HR Hwf Hne HT HN HD Hv Ha.
  destruct (max_vel_acc_spec find_roots tr) as (v & a & E & Mv & Ma); auto.
  pose proof TOL_pos as HTOL.
  unfold scale_to_constraints. cbn [scale_to_constraints_loop]. rewrite E.
  destruct (Rleb (e_value v / v_max) (1 + TOL) && Rleb (e_value a / a_max) (1 + TOL)) eqn:C.
  - exists tr. split; [reflexivity|]. split; [auto|]. split; [|auto].
    apply andb_prop in C as [C1 C2]. apply Rleb_true in C1, C2.
    intros s t Hs Ht. destruct Mv as [_ Mv], Ma as [_ Ma].
    specialize (Mv s t Hs Ht). specialize (Ma s t Hs Ht).
    assert (e_value v <= v_max * (1 + TOL)).
    { replace (e_value v) with (v_max * (e_value v / v_max)) by (field; lra).
      apply Rmult_le_compat_l; lra. }
    assert (e_value a <= a_max * (1 + TOL)).
    { replace (e_value a) with (a_max * (e_value a / a_max)) by (field; lra).
      apply Rmult_le_compat_l; lra. }
    split; lra.
  - set (vv := e_value v / v_max) in *. set (av := e_value a / a_max) in *.
    set (k := Rmax 1 (Rmax vv (sqrt av))).
    assert (Hk1 : 1 <= k) by apply Rmax_l.
    assert (Hkv : vv <= k).
    { eapply Rle_trans; [|apply Rmax_r]. apply Rmax_l. }
    assert (Hks : sqrt av <= k).
    { eapply Rle_trans; [|apply Rmax_r]. apply Rmax_r. }
    assert (Hav : 0 <= av).
    { apply Rmult_le_pos; [eapply traj_max_nonneg; eauto|left; apply Rinv_0_lt_compat; auto]. }
    assert (Hka : av <= k ^ 2).
    { rewrite <- (sqrt_sqrt av) by auto. simpl. pose proof (sqrt_pos av). nra. }
    assert (HT' : Forall (fun s => 0 <= s_time s) (t_segs (traj_scale tr k))).
    { simpl. apply Forall_map. eapply Forall_impl; [|exact HT]. simpl; intros. nra. }
    assert (Hne' : t_segs (traj_scale tr k) <> []).
    { simpl. destruct (t_segs tr); [congruence|discriminate]. }
    destruct (max_vel_acc_spec find_roots (traj_scale tr k)) as (v' & a' & E' & Mv' & Ma');
      auto using traj_scale_wf.
    rewrite E'. simpl t_D in *.
    assert (Hwf' : Forall seg_wf (t_segs tr)).
    { destruct Hwf as [Hw _]. eapply Forall_impl; [|exact Hw]. simpl; tauto. }
    assert (Vv : e_value v' = e_value v / k ^ 1) by (eapply traj_max_scale; eauto; lra).
    assert (Va : e_value a' = e_value a / k ^ 2) by (eapply traj_max_scale; eauto; lra).
    assert (C1 : e_value v' / v_max <= 1).
    { rewrite Vv. replace (e_value v / k ^ 1 / v_max) with (vv / k) by (unfold vv; field; lra).
      apply Rmult_le_reg_r with k; [lra|]. unfold Rdiv. rewrite Rmult_assoc, Rinv_l by lra. lra. }
    assert (C2 : e_value a' / a_max <= 1).
    { rewrite Va. replace (e_value a / k ^ 2 / a_max) with (av / k ^ 2) by (unfold av; field; lra).
      apply Rmult_le_reg_r with (k ^ 2); [apply pow_lt; lra|].
      unfold Rdiv. rewrite Rmult_assoc, Rinv_l by (apply pow_nonzero; lra). lra. }
    assert (C' : Rleb (e_value v' / v_max) (1 + TOL) && Rleb (e_value a' / a_max) (1 + TOL) = true).
    { apply andb_true_intro; split; apply Rleb_true; lra. }
    rewrite C'. exists (traj_scale tr k). split; [reflexivity|]. split.
    { right. exists k. split; auto. split; auto.
      assert (B : 1 < vv \/ 1 < av).
      { apply andb_false_iff in C as [C|C]; apply Rleb_false in C; lra. }
      assert (K : k = vv \/ k ^ 2 = av).
      { assert (1 < Rmax vv (sqrt av)).
        { destruct B as [B|B]; [eapply Rlt_le_trans; [exact B|apply Rmax_l]|].
          eapply Rlt_le_trans; [|apply Rmax_r]. rewrite <- sqrt_1. apply sqrt_lt_1; lra. }
        assert (k = Rmax vv (sqrt av)) as -> by (unfold k; rewrite Rmax_right; lra).
        unfold Rmax. destruct (Rle_dec vv (sqrt av)); [right|left; reflexivity].
        simpl. rewrite Rmult_1_r. apply sqrt_sqrt; auto. }
      destruct K as [K|K].
      - destruct Mv' as [(s & N1 & T1 & V1) _]. exists s, (e_time v'). split; [eapply nth_error_In; eauto|]. split; auto.
        left. rewrite V1, Vv, K. unfold vv. assert (0 < e_value v); [|field; lra].
        replace (e_value v) with (v_max * vv) by (unfold vv; field; lra). nra.
      - destruct Ma' as [(s & N1 & T1 & V1) _]. exists s, (e_time a'). split; [eapply nth_error_In; eauto|]. split; auto.
        right. rewrite V1, Va, K. unfold av. assert (0 < e_value a); [|field; lra].
        replace (e_value a) with (a_max * av) by (unfold av; field; lra). apply Rmult_lt_0_compat; auto.
        rewrite <- K. apply pow_lt. lra. }
    split.
    + intros s t Hs Ht. destruct Mv' as [_ Mv'], Ma' as [_ Ma'].
      specialize (Mv' s t Hs Ht). specialize (Ma' s t Hs Ht).
      assert (e_value v' <= v_max).
      { apply div_le_1; auto. }
      assert (e_value a' <= a_max).
      { apply div_le_1; auto. }
      split; nra.
    + intros Hok. exfalso.
      assert (e_value v <= v_max * (1 + TOL)).
      { destruct Mv as [(s & N1 & T1 & <-) _].
        exact (proj1 (Hok s (e_time v) (nth_error_In _ _ N1) T1)). }
      assert (e_value a <= a_max * (1 + TOL)).
      { destruct Ma as [(s & N1 & T1 & <-) _].
        exact (proj2 (Hok s (e_time a) (nth_error_In _ _ N1) T1)). }
      assert (vv <= 1 + TOL).
      { unfold vv. apply Rmult_le_reg_r with v_max; auto. unfold Rdiv.
        rewrite Rmult_assoc, Rinv_l by lra. lra. }
      assert (av <= 1 + TOL).
      { unfold av. apply Rmult_le_reg_r with a_max; auto. unfold Rdiv.
        rewrite Rmult_assoc, Rinv_l by lra. lra. }
      apply andb_false_iff in C as [C|C]; apply Rleb_false in C; lra.
Qed.

(* ------------------------------------------------------------------ *)
(** ** Single dimension *)

Lemma single_dimension_zero tr dim t d :
  (dim < t_D tr)%nat -> t_segs tr <> [] -> 0 < t ->
  exists r, traj_single_dimension tr dim = Some r /\ t_max r = 0 /\
            traj_evaluate r t d = Some [0].
Proof.
  intros Hd Hne Ht. unfold traj_single_dimension.
  destruct (Nat.ltb_spec dim (t_D tr)); [|lia].
  set (ss := map _ _).
  assert (Hall : Forall (fun s => s_time s = 0 /\ s_D s = 1%nat /\ s_N s = t_N tr) ss).
  { apply Forall_map, Forall_forall. simpl; auto. }
  unfold set_segments, set_segments_gen.
  destruct ss as [|s0 ss'] eqn:E.
  { exfalso. unfold ss in E. destruct (t_segs tr); [congruence|discriminate]. }
  inversion Hall as [|? ? (A1 & A2 & A3) _]; subst.
  unfold add_segments_gen. simpl t_D; simpl t_N.
  replace (forallb _ _) with true.
  2:{ symmetry. apply forallb_forall. intros x Hx. rewrite Forall_forall in Hall.
      destruct (Hall x Hx) as (_ & B2 & B3). rewrite A2, A3, B2, B3, !Nat.eqb_refl. reflexivity. }
  eexists. split; [reflexivity|]. simpl t_segs. simpl t_D.
  assert (Hsum : lsum (map s_time (s0 :: ss')) = 0).
  { clear - Hall. induction Hall; simpl; [auto|]. destruct H as (-> & _). lra. }
  split.
  - simpl t_max. change (fold_left _ ss' (0 + s_time s0)) with
      (fold_left (fun m s => m + s_time s) (s0 :: ss') 0).
    rewrite fold_sum_times, Hsum. lra.
  - rewrite traj_evaluate_past; simpl t_segs; simpl t_D.
    + now rewrite A2.
    + eapply Forall_impl; [|exact Hall]. simpl; intros ? (-> & _); lra.
    + rewrite Hsum. auto.
Qed.

(* ------------------------------------------------------------------ *)
(** ** Appending dimensions *)

(** Local time in a segment of duration T0 when it is stretched to T. *)
Definition stretched (T0 T x : R) : R := if Rltb T0 T then T0 / T * x else x.
Definition stretch_factor (T0 T : R) (d : nat) : R := if Rltb T0 T then (T0 / T) ^ d else 1.

Lemma map_nth_seq (l : list poly) (f : poly -> R) :
  map (fun i => f (nth i l [])) (seq 0 (length l)) = map f l.
Proof.
  induction l using rev_ind; [reflexivity|].
  rewrite app_length, seq_app, !map_app. simpl. f_equal.
  - etransitivity; [|exact IHl]. apply map_ext_in. intros i Hi. apply in_seq in Hi.
    rewrite app_nth1 by lia. reflexivity.
  - rewrite app_nth2, Nat.sub_diag by lia. reflexivity.
Qed.
Lemma append_evaluate (ps qs : list poly) (f : poly -> R) :
  map (fun i => f (nth i (ps ++ qs) [])) (seq 0 (length ps + length qs)) =
  map f ps ++ map f qs.
Proof. rewrite <- map_app, <- app_length. apply map_nth_seq. Qed.

Lemma map_seg_polys s (f : poly -> R) : seg_wf s ->
  map (fun i => f (seg_poly s i)) (seq 0 (s_D s)) = map f (s_polys s).
Proof.
  intros [H _]. rewrite <- H. pose proof (append_evaluate (s_polys s) [] f) as E.
  rewrite app_nil_r, Nat.add_0_r in E. simpl in E. rewrite app_nil_r in E. exact E.
Qed.

Lemma seg_append_evaluate s s2 x d :
  seg_wf s -> seg_wf s2 -> s_N s = s_N s2 -> (0 < s_N s)%nat -> (0 < s_D s)%nat -> (0 < s_D s2)%nat ->
  0 <= s_time s -> 0 <= s_time s2 ->
  let T := Rmax (s_time s) (s_time s2) in
  exists r, seg_append_dimension s s2 = Some r /\ seg_wf r /\ s_time r = T /\
    s_N r = s_N s /\ s_D r = (s_D s + s_D s2)%nat /\
    seg_evaluate r x d =
      map (fun v => stretch_factor (s_time s) T d * v) (seg_evaluate s (stretched (s_time s) T x) d) ++
      map (fun v => stretch_factor (s_time s2) T d * v) (seg_evaluate s2 (stretched (s_time s2) T x) d).
Proof.
  intros W1 W2 HN HN0 HD1 HD2 HT1 HT2 T. unfold seg_append_dimension.
  destruct (Nat.eqb_spec (s_N s) 0); [lia|]. destruct (Nat.eqb_spec (s_D s) 0); [lia|].
  destruct (Nat.eqb_spec (s_N s2) 0); [lia|]. destruct (Nat.eqb_spec (s_D s2) 0); [lia|].
  cbn [orb]. fold T. rewrite <- HN, Nat.eqb_refl, Nat.max_id.
  set (cur := if _ && _ then _ else s_polys s).
  set (app := if _ && _ then _ else s_polys s2).
  assert (Hcur : cur = if Rltb (s_time s) T then map (fun p => poly_scale_time p (s_time s / T)) (s_polys s) else s_polys s).
  { unfold cur. destruct (Rltb (s_time s) T) eqn:E; [|reflexivity].
    apply Rltb_true in E. replace (Rltb 0 T) with true; [reflexivity|].
    symmetry; apply Rltb_true; lra. }
  assert (Happ : app = if Rltb (s_time s2) T then map (fun p => poly_scale_time p (s_time s2 / T)) (s_polys s2) else s_polys s2).
  { unfold app. destruct (Rltb (s_time s2) T) eqn:E.
    - apply Rltb_true in E.
      assert (T = s_time s) by (unfold T, Rmax in *; destruct (Rle_dec (s_time s) (s_time s2)); lra).
      replace (Rltb (s_time s) T) with false by (symmetry; apply Rltb_false; lra).
      replace (Rltb 0 T) with true by (symmetry; apply Rltb_true; lra). reflexivity.
    - rewrite andb_false_l, andb_false_r. reflexivity. }
  clearbody cur app.
  assert (L1 : length cur = s_D s).
  { rewrite Hcur. destruct W1 as [W1 _]. destruct (Rltb (s_time s) T); [rewrite map_length|]; exact W1. }
  assert (L2 : length app = s_D s2).
  { rewrite Happ. destruct W2 as [W2 _]. destruct (Rltb (s_time s2) T); [rewrite map_length|]; exact W2. }
  eexists. split; [reflexivity|]. cbn [s_time s_N s_D].
  assert (LN : forall s, seg_wf s -> forall c, Forall (fun p => length p = s_N s)
                (map (fun p => poly_scale_time p c) (s_polys s))).
  { intros s' [_ HF] c. apply Forall_map. eapply Forall_impl; [|exact HF]. simpl; intros.
    now rewrite length_poly_scale_time. }
  split; [|split; [auto|split; [auto|split; [auto|]]]].
  - split; cbn [s_polys s_D s_N].
    + rewrite app_length; lia.
    + apply Forall_app. split.
      * rewrite Hcur. destruct (Rltb (s_time s) T); [apply LN; auto|apply W1].
      * rewrite Happ, HN. destruct (Rltb (s_time s2) T); [apply LN; auto|apply W2].
  - unfold seg_evaluate at 1, seg_poly at 1. cbn [s_polys s_D].
    rewrite <- L1, <- L2. rewrite append_evaluate with (f := fun p => poly_evaluate p x d).
    f_equal.
    + rewrite Hcur. unfold stretched, stretch_factor, seg_evaluate. rewrite map_map.
      destruct (Rltb (s_time s) T).
      * rewrite (map_seg_polys s (fun p => (s_time s / T) ^ d * poly_evaluate p (s_time s / T * x) d)) by auto.
        rewrite map_map. apply map_ext. intros. apply poly_scale_time_evaluate.
      * rewrite (map_seg_polys s (fun p => 1 * poly_evaluate p x d)) by auto.
        apply map_ext; intros; ring.
    + rewrite Happ. unfold stretched, stretch_factor, seg_evaluate. rewrite map_map.
      destruct (Rltb (s_time s2) T).
      * rewrite (map_seg_polys s2 (fun p => (s_time s2 / T) ^ d * poly_evaluate p (s_time s2 / T * x) d)) by auto.
        rewrite map_map. apply map_ext. intros. apply poly_scale_time_evaluate.
      * rewrite (map_seg_polys s2 (fun p => 1 * poly_evaluate p x d)) by auto.
        apply map_ext; intros; ring.
Qed.

(** Trajectories with equal segment times: plain concatenation of components. *)
Lemma append_dims_same N D1 D2 a b :
  Forall (fun s => seg_wf s /\ s_D s = D1 /\ s_N s = N) a ->
  Forall (fun s => seg_wf s /\ s_D s = D2 /\ s_N s = N) b ->
  (0 < N)%nat -> (0 < D1)%nat -> (0 < D2)%nat ->
  Forall (fun s => 0 <= s_time s) a -> map s_time a = map s_time b ->
  exists r, append_dims a b = Some r /\
    Forall (fun s => seg_wf s /\ s_D s = (D1 + D2)%nat /\ s_N s = N) r /\
    map s_time r = map s_time a /\
    forall t d, piece r t = None /\ piece a t = None \/
      exists s1 s2 s x, piece a t = Some (s1, x) /\ piece b t = Some (s2, x) /\
        piece r t = Some (s, x) /\ seg_evaluate s x d = seg_evaluate s1 x d ++ seg_evaluate s2 x d.
Proof.
  intros Ha. revert b. induction Ha as [|s1 a (W1 & E1 & F1) Ha IH]; intros b Hb HN HD1 HD2 HT Hmap.
  - destruct b; [|discriminate]. exists []. split; [reflexivity|]. split; [constructor|].
    split; [reflexivity|]. left; auto.
  - destruct b as [|s2 b]; [discriminate|]. inversion Hb as [|? ? (W2 & E2 & F2) Hb']; subst.
    inversion HT as [|? ? T1 HT']; subst. simpl in Hmap. inversion Hmap as [[Et Em]].
    destruct (IH b Hb' HN HD1 HD2 HT' Em) as (r & Er & HFr & Hmr & Hp).
    assert (HA : forall x d, exists q, seg_append_dimension s1 s2 = Some q /\ seg_wf q /\ s_time q = s_time s1 /\
              s_N q = s_N s1 /\ s_D q = (s_D s1 + s_D s2)%nat /\
              seg_evaluate q x d = seg_evaluate s1 x d ++ seg_evaluate s2 x d).
    { intros x d. destruct (seg_append_evaluate s1 s2 x d) as (q & Q1 & Q2 & Q3 & Q4 & Q5 & Q6); auto; try lra; try lia.
      exists q. repeat (split; auto).
      - rewrite Q3, <- Et. apply Rmax_left; lra.
      - rewrite Q6. rewrite <- Et. rewrite Rmax_left by lra. unfold stretched, stretch_factor.
        replace (Rltb (s_time s1) (s_time s1)) with false by (symmetry; apply Rltb_false; lra).
        f_equal; rewrite <- map_id; apply map_ext; intros; ring. }
    destruct (HA 0 0%nat) as (q & Q1 & Q2 & Q3 & Q4 & Q5 & _).
    assert (HE : forall x d, seg_evaluate q x d = seg_evaluate s1 x d ++ seg_evaluate s2 x d).
    { intros x d. destruct (HA x d) as (q' & Q1' & _ & _ & _ & _ & Q6). congruence. }
    exists (q :: r). simpl. rewrite Q1, Er. split; [reflexivity|]. split; [|split].
    + constructor; [split; [auto|split; [lia|lia]]|auto].
    + simpl. congruence.
    + intros t d. right.
      assert (L1 : length r = length a) by (rewrite <- (map_length s_time r), Hmr, map_length; auto).
      assert (L2 : length b = length a) by (rewrite <- (map_length s_time b), <- Em, map_length; auto).
      destruct a as [|a0 a'], b as [|b0 b'], r as [|r0 r']; try discriminate.
      * exists s1, s2, q, t. auto.
      * rewrite Q3, <- Et. destruct (Rltb t (s_time s1)).
        -- exists s1, s2, q, t. auto.
        -- destruct (Hp (t - s_time s1) d) as [[_ Hn]|H]; [|exact H].
           exfalso. clear - Hn. revert Hn. generalize (t - s_time s1). revert a0.
           induction a' as [|c a' IHa]; intros a0 u; simpl; [discriminate|].
           destruct (Rltb u (s_time a0)); [discriminate|]. intros H. eapply IHa; eauto.
Qed.

Lemma traj_append_evaluate tr tr2 :
  traj_wf tr -> traj_wf tr2 -> positive_times tr -> t_segs tr <> [] ->
  t_N tr = t_N tr2 -> (0 < t_N tr)%nat -> (0 < t_D tr)%nat -> (0 < t_D tr2)%nat ->
  segment_times tr = segment_times tr2 ->
  exists r, traj_append_dimension tr tr2 = Val r /\ traj_wf r /\
    segment_times r = segment_times tr /\
    forall t d a b, traj_evaluate tr t d = Some a -> traj_evaluate tr2 t d = Some b ->
      traj_evaluate r t d = Some (a ++ b).
Proof.
  intros [W1 M1] [W2 M2] HP Hne HN HN0 HD1 HD2 Hst. unfold traj_append_dimension.
  destruct (Nat.eqb_spec (t_N tr) 0); [lia|]. destruct (Nat.eqb_spec (t_D tr) 0); [lia|].
  destruct (Nat.eqb_spec (t_N tr2) 0); [lia|]. destruct (Nat.eqb_spec (t_D tr2) 0); [lia|].
  cbn [orb]. unfold segment_times in Hst.
  assert (HL : length (t_segs tr) = length (t_segs tr2)).
  { rewrite <- (map_length s_time), Hst, map_length. auto. }
  rewrite HL, Nat.eqb_refl.
  assert (HP0 : Forall (fun s => 0 <= s_time s) (t_segs tr)).
  { eapply Forall_impl; [|exact HP]. simpl; intros; lra. }
  destruct (append_dims_same (t_N tr) (t_D tr) (t_D tr2) (t_segs tr) (t_segs tr2)) as (ss & Ess & HFs & Hms & Hp); auto.
  { rewrite HN. auto. }
  rewrite Ess.
  assert (Hss : exists r, set_segments ss = Some r /\ t_D r = (t_D tr + t_D tr2)%nat).
  { unfold set_segments, set_segments_gen. destruct ss as [|s0 ss'] eqn:E.
    - destruct (t_segs tr); [congruence|discriminate].
    - unfold add_segments_gen. replace (forallb _ _) with true.
      + eexists. split; [reflexivity|]. inversion HFs; simpl; tauto.
      + symmetry. apply forallb_forall. intros s Hs. inversion HFs as [|? ? (A1 & A2 & A3) _]; subst.
        rewrite Forall_forall in HFs. destruct (HFs s Hs) as (B1 & B2 & B3).
        simpl. rewrite A2, A3, B2, B3, !Nat.eqb_refl. reflexivity. }
  destruct Hss as (r & Er & Dr). rewrite Er.
  destruct (set_segments_wf ss r) as (Wr & Sr & Nr); auto.
  { eapply Forall_impl; [|exact HFs]. simpl; tauto. }
  exists r. split; [reflexivity|]. split; [auto|]. split; [unfold segment_times; congruence|].
  intros t d a b Ea Eb.
  destruct (Rle_dec t (lsum (map s_time (t_segs tr)))) as [Hle|Hgt].
  - destruct (traj_evaluate_piece tr t d) as (s1 & x1 & P1 & V1); auto.
    destruct (traj_evaluate_piece tr2 t d) as (s2 & x2 & P2 & V2).
    { intros E; rewrite E in HL. destruct (t_segs tr); [congruence|discriminate]. }
    { rewrite <- Hst; auto. }
    destruct (traj_evaluate_piece r t d) as (s & x & P & V).
    { congruence. } { rewrite Sr, Hms; auto. }
    rewrite Sr in P.
    destruct (Hp t d) as [[? ?]|(s1' & s2' & s' & x' & Q1 & Q2 & Q3 & Q4)]; [congruence|].
    rewrite P1 in Q1. rewrite P2 in Q2. rewrite P in Q3. inversion Q1; inversion Q2; inversion Q3; subst.
    rewrite V1 in Ea. rewrite V2 in Eb. rewrite V. inversion Ea; inversion Eb. rewrite Q4. reflexivity.
  - rewrite traj_evaluate_past in Ea by (auto; lra).
    rewrite traj_evaluate_past in Eb.
    + rewrite traj_evaluate_past.
      * inversion Ea; inversion Eb; subst. rewrite Dr, repeat_app. reflexivity.
      * rewrite Sr. clear - Hms HP0. apply Forall_map with (f := s_time) (P := fun x => 0 <= x).
        rewrite Hms. apply Forall_map. auto.
      * rewrite Sr, Hms. lra.
    + apply Forall_map with (f := s_time) (P := fun x => 0 <= x). rewrite <- Hst. apply Forall_map; auto.
    + rewrite <- Hst. lra.
Qed.

(* ------------------------------------------------------------------ *)
(** ** Concatenation *)

Lemma piece_app a b t : a <> [] -> b <> [] -> Forall (fun s => 0 <= s_time s) a ->
  piece (a ++ b) t = if Rltb t (lsum (map s_time a)) then piece a t
                     else piece b (t - lsum (map s_time a)).
Proof.
  intros Hne Hb HF. revert t. induction a as [|s a IH]; intros t; [congruence|].
  inversion HF; subst. destruct a as [|s1 a].
  - simpl. rewrite Rplus_0_r. destruct b; [congruence|]. rcase; reflexivity.
  - change (piece ((s :: s1 :: a) ++ b) t) with
      (if Rltb t (s_time s) then Some (s, t) else piece ((s1 :: a) ++ b) (t - s_time s)).
    change (piece (s :: s1 :: a) t) with
      (if Rltb t (s_time s) then Some (s, t) else piece (s1 :: a) (t - s_time s)).
    rewrite IH by (auto; congruence).
    assert (0 <= lsum (map s_time (s1 :: a))).
    { apply lsum_nonneg, Forall_map; auto. }
    cbn [map lsum] in *.
    destruct (Rltb t (s_time s)) eqn:E1; [apply Rltb_true in E1|apply Rltb_false in E1].
    + rcase; [reflexivity|lra].
    + replace (t - (s_time s + (s_time s1 + lsum (map s_time a)))) with
        (t - s_time s - (s_time s1 + lsum (map s_time a))) by ring.
      repeat rcase; auto; lra.
Qed.

Lemma add_segments_spec tr ss r :
  add_segments tr ss = Some r ->
  t_D r = t_D tr /\ t_N r = t_N tr /\ t_segs r = t_segs tr ++ ss /\
  t_max r = t_max tr + lsum (map s_time ss) /\
  Forall (fun s => s_D s = t_D tr /\ s_N s = t_N tr) ss.
Proof.
  unfold add_segments, add_segments_gen. destruct (forallb _ _) eqn:E; [|discriminate].
  intros H; inversion H; subst; simpl. rewrite fold_sum_times. repeat split; auto.
  apply Forall_forall. intros s Hs. rewrite forallb_forall in E. specialize (E s Hs).
  apply andb_prop in E as [E1 E2]. apply Nat.eqb_eq in E1, E2. auto.
Qed.

Lemma add_trajectories_spec tr l r :
  add_trajectories tr l = Some r ->
  t_D r = t_D tr /\ t_N r = t_N tr /\
  t_segs r = t_segs tr ++ concat (map t_segs l) /\
  t_max r = t_max tr + lsum (map (fun x => lsum (map s_time (t_segs x))) l) /\
  Forall (fun x => t_D x = t_D tr /\ t_N x = t_N tr) l.
Proof.
  unfold add_trajectories.
  assert (G : forall l m, t_D m = t_D tr -> t_N m = t_N tr ->
    add_trajectories_loop (t_D tr) (t_N tr) m l = Some r ->
    t_D r = t_D tr /\ t_N r = t_N tr /\
    t_segs r = t_segs m ++ concat (map t_segs l) /\
    t_max r = t_max m + lsum (map (fun x => lsum (map s_time (t_segs x))) l) /\
    Forall (fun x => t_D x = t_D tr /\ t_N x = t_N tr) l).
  { clear l. induction l as [|x l IH]; intros m HD HN H; simpl in *.
    - inversion H; subst. rewrite app_nil_r. repeat split; auto; lra.
    - destruct (_ && _) eqn:E; [|discriminate].
      apply andb_prop in E as [E1 E2]. apply Nat.eqb_eq in E1, E2.
      destruct (add_segments m (t_segs x)) as [m'|] eqn:A; [|discriminate].
      destruct (add_segments_spec _ _ _ A) as (A1 & A2 & A3 & A4 & _).
      destruct (IH m') as (B1 & B2 & B3 & B4 & B5); try congruence.
      rewrite B3, A3, app_assoc, B4, A4. repeat split; auto; lra. }
  intros H. apply (G l tr); auto.
Qed.

(** addTrajectories succeeds on matching well-formed trajectories and rejects
    the first mismatching one. *)
Lemma add_trajectories_ok tr l :
  Forall (fun x => traj_wf x /\ t_D x = t_D tr /\ t_N x = t_N tr) l ->
  exists r, add_trajectories tr l = Some r.
Proof.
  unfold add_trajectories.
  assert (G : forall l m, t_D m = t_D tr -> t_N m = t_N tr ->
    Forall (fun x => traj_wf x /\ t_D x = t_D tr /\ t_N x = t_N tr) l ->
    exists r, add_trajectories_loop (t_D tr) (t_N tr) m l = Some r).
  { clear l. induction l as [|x l IH]; intros m HD HN HF; [eexists; reflexivity|].
    inversion HF as [|? ? ([W1 W2] & E1 & E2) HF']; subst. simpl. rewrite E1, E2, !Nat.eqb_refl. simpl.
    unfold add_segments, add_segments_gen.
    replace (forallb _ _) with true.
    - apply IH; auto.
    - symmetry. apply forallb_forall. intros s Hs. rewrite Forall_forall in W1.
      destruct (W1 s Hs) as (_ & B2 & B3). rewrite B2, B3, HD, HN, E1, E2, !Nat.eqb_refl. reflexivity. }
  intros; apply (G l tr); auto.
Qed.
Lemma add_trajectories_mismatch tr l :
  Exists (fun x => t_D x <> t_D tr \/ t_N x <> t_N tr) l -> add_trajectories tr l = None.
Proof.
  intros H. destruct (add_trajectories tr l) as [r|] eqn:E; auto.
  apply add_trajectories_spec in E as (_ & _ & _ & _ & HF).
  apply Exists_exists in H as (x & Hx & Hc). rewrite Forall_forall in HF. destruct (HF x Hx). tauto.
Qed.

Lemma add_trajectory_evaluate tr tr2 r t d :
  traj_wf tr -> traj_wf tr2 -> positive_times tr -> positive_times tr2 ->
  t_segs tr <> [] -> t_segs tr2 <> [] ->
  add_trajectories tr [tr2] = Some r ->
  traj_evaluate r t d = if Rltb t (t_max tr) then traj_evaluate tr t d
                        else traj_evaluate tr2 (t - t_max tr) d.
Proof.
  intros [W1 M1] [W2 M2] P1 P2 N1 N2 H.
  apply add_trajectories_spec in H as (HD & HN & HS & HM & HF). simpl in HS. rewrite app_nil_r in HS.
  inversion HF as [|? ? [E1 E2] _]; subst.
  assert (NN1 : Forall (fun s => 0 <= s_time s) (t_segs tr)).
  { eapply Forall_impl; [|exact P1]. simpl; intros; lra. }
  assert (NN2 : Forall (fun s => 0 <= s_time s) (t_segs tr2)).
  { eapply Forall_impl; [|exact P2]. simpl; intros; lra. }
  assert (HSum : lsum (map s_time (t_segs r)) = t_max tr + t_max tr2).
  { rewrite HS, map_app, lsum_app, M1, M2. reflexivity. }
  destruct (Rle_dec t (t_max tr + t_max tr2)) as [Hle|Hgt].
  - destruct (traj_evaluate_piece r t d) as (s & x & P & V).
    { rewrite HS. destruct (t_segs tr); [congruence|discriminate]. } { lra. }
    rewrite V. rewrite HS, piece_app, <- M1 in P by auto. rcase_in P.
    + destruct (traj_evaluate_piece tr t d) as (s' & x' & P' & V'); auto; [lra|].
      rewrite V'. congruence.
    + destruct (traj_evaluate_piece tr2 (t - t_max tr) d) as (s' & x' & P' & V'); auto; [lra|].
      rewrite V'. congruence.
  - assert (0 <= t_max tr2) by (rewrite M2; apply lsum_nonneg, Forall_map; auto).
    rcase; [lra|].
    rewrite !traj_evaluate_past; auto; try lra.
    + congruence.
    + rewrite HS. apply Forall_app; auto.
Qed.

(* ------------------------------------------------------------------ *)
Lemma nth_combine_seq {A} (l : list A) d i : (i < length l)%nat ->
  nth i (combine (seq 0 (length l)) l) (0%nat, d) = (i, nth i l d).
Proof.
  intros. rewrite combine_nth by (now rewrite seq_length). now rewrite seq_nth.
Qed.

Lemma seg_offset_evaluate s v s' x :
  seg_wf s -> (0 < s_N s)%nat -> seg_offset s v = Some s' ->
  seg_wf s' /\ s_time s' = s_time s /\ s_D s' = s_D s /\ s_N s' = s_N s /\
  seg_evaluate s' x 0 = offset_vec (seg_evaluate s x 0) v (Nat.min (s_D s) 3) /\
  forall d, (0 < d)%nat -> seg_evaluate s' x d = seg_evaluate s x d.
Proof.
  intros [W1 W2] HN. unfold seg_offset. destruct (_ <? _)%nat; [discriminate|].
  intros H; inversion H; clear H; subst s'. cbn [s_time s_D s_N].
  set (n := Nat.min (s_D s) 3).
  set (g := fun ip : nat * poly => if (fst ip <? n)%nat then poly_offset (snd ip) (nth (fst ip) v 0) else snd ip).
  assert (Hnth : forall i, (i < s_D s)%nat ->
     nth i (map g (combine (seq 0 (length (s_polys s))) (s_polys s))) [] = g (i, seg_poly s i)).
  { intros i Hi. rewrite nth_indep with (d' := g (0%nat, [])).
    - rewrite map_nth, nth_combine_seq by lia. reflexivity.
    - rewrite map_length, combine_length, seq_length. lia. }
  split; [|split; [auto|split; [auto|split; [auto|split]]]].
  - split; cbn [s_polys s_D s_N].
    + rewrite map_length, combine_length, seq_length. lia.
    + apply Forall_map, Forall_forall. intros [i p] Hin. unfold g; simpl.
      apply in_combine_r in Hin. rewrite Forall_forall in W2. specialize (W2 p Hin).
      destruct (i <? n)%nat; auto. now rewrite length_poly_offset.
  - unfold offset_vec. rewrite length_seg_evaluate. unfold seg_evaluate at 1. cbn [s_D].
    apply map_ext_in. intros i Hi. apply in_seq in Hi.
    unfold seg_poly at 1. cbn [s_polys]. rewrite Hnth by lia.
    rewrite nth_seg_evaluate by lia.
    unfold g; simpl. destruct (i <? n)%nat; auto.
    rewrite poly_offset_evaluate.
    assert (length (seg_poly s i) = s_N s) by (apply seg_wf_poly_length; [split; auto|lia]).
    destruct (seg_poly s i); [simpl in *; lia|]. reflexivity.
  - intros d Hd. unfold seg_evaluate. cbn [s_D]. apply map_ext_in. intros i Hi. apply in_seq in Hi.
    unfold seg_poly at 1. cbn [s_polys]. rewrite Hnth by lia. unfold g; simpl.
    destruct (i <? n)%nat; auto. rewrite poly_offset_evaluate.
    destruct d; [lia|]. destruct (seg_poly s i); lra.
Qed.

Lemma offset_segments_spec N D ss v ss' :
  Forall (fun s => seg_wf s /\ s_D s = D /\ s_N s = N) ss -> (0 < N)%nat ->
  offset_segments ss v = Some ss' ->
  Forall (fun s => seg_wf s /\ s_D s = D /\ s_N s = N) ss' /\
  map s_time ss' = map s_time ss /\
  forall t, match piece ss t, piece ss' t with
            | Some (s, x), Some (s', x') => x = x' /\
                seg_evaluate s' x 0 = offset_vec (seg_evaluate s x 0) v (Nat.min D 3) /\
                forall d, (0 < d)%nat -> seg_evaluate s' x d = seg_evaluate s x d
            | None, None => True
            | _, _ => False
            end.
Proof.
  intros HF HN. revert ss'. induction HF as [|s ss (W & E1 & E2) HF IH]; intros ss' H; simpl in H.
  - inversion H; subst. split; [constructor|]. split; [auto|]. intros; exact I.
  - destruct (seg_offset s v) as [s'|] eqn:O; [|discriminate].
    destruct (offset_segments ss v) as [r|] eqn:Or; [|discriminate].
    inversion H; clear H; subst ss'. destruct (IH r eq_refl) as (A1 & A2 & A3).
    assert (HO : forall x, _) by (intros x; apply (seg_offset_evaluate s v s' x W ltac:(lia) O)).
    destruct (HO 0) as (B1 & B2 & B3 & B4 & _).
    split; [|split].
    + constructor; auto. split; auto; split; congruence.
    + simpl. congruence.
    + intros t. assert (L : length r = length ss) by (rewrite <- (map_length s_time r), A2, map_length; auto).
      destruct ss as [|s1 ss], r as [|r1 r]; try discriminate.
      * simpl. split; auto. destruct (HO t) as (_ & _ & _ & _ & C1 & C2). rewrite <- E1. auto.
      * change (piece (s :: s1 :: ss) t) with (if Rltb t (s_time s) then Some (s, t) else piece (s1 :: ss) (t - s_time s)).
        change (piece (s' :: r1 :: r) t) with (if Rltb t (s_time s') then Some (s', t) else piece (r1 :: r) (t - s_time s')).
        rewrite B2. destruct (Rltb t (s_time s)); [|apply A3].
        split; auto. destruct (HO t) as (_ & _ & _ & _ & C1 & C2). rewrite <- E1. auto.
Qed.

Lemma traj_offset_evaluate tr v r t :
  traj_wf tr -> (0 < t_N tr)%nat -> t_segs tr <> [] -> traj_offset tr v = Some r -> t <= t_max tr ->
  traj_wf r /\ segment_times r = segment_times tr /\
  (exists p, traj_evaluate tr t 0 = Some p /\
             traj_evaluate r t 0 = Some (offset_vec p v (Nat.min (t_D tr) 3))) /\
  forall d, (0 < d)%nat -> traj_evaluate r t d = traj_evaluate tr t d.
Proof.
  intros [W M] HN Hne. unfold traj_offset. destruct (_ <? _)%nat; [discriminate|].
  destruct (offset_segments (t_segs tr) v) as [ss|] eqn:E; [|discriminate].
  intros H Ht; inversion H; clear H; subst r.
  destruct (offset_segments_spec (t_N tr) (t_D tr) _ _ _ W HN E) as (A1 & A2 & A3).
  specialize (A3 t).
  assert (Hne' : ss <> []).
  { intros ->. simpl in A2. destruct (t_segs tr); [congruence|discriminate]. }
  split; [split; simpl; [auto|congruence]|]. split; [unfold segment_times; simpl; auto|].
  assert (G : forall d, exists s s' x, piece (t_segs tr) t = Some (s, x) /\ piece ss t = Some (s', x) /\
     traj_evaluate tr t d = Some (seg_evaluate s x d) /\
     traj_evaluate (mkTraj (t_D tr) (t_N tr) (t_max tr) ss) t d = Some (seg_evaluate s' x d) /\
     seg_evaluate s' x 0 = offset_vec (seg_evaluate s x 0) v (Nat.min (t_D tr) 3) /\
     forall d, (0 < d)%nat -> seg_evaluate s' x d = seg_evaluate s x d).
  { intros d.
    destruct (traj_evaluate_piece tr t d) as (s & x & P & V); auto; [lra|].
    destruct (traj_evaluate_piece (mkTraj (t_D tr) (t_N tr) (t_max tr) ss) t d) as (s' & x' & P' & V');
      [auto|simpl; rewrite A2; lra|]. simpl in P'.
    rewrite P, P' in A3. destruct A3 as (<- & C1 & C2).
    exists s, s', x. repeat (split; auto). }
  split.
  - destruct (G 0%nat) as (s & s' & x & _ & _ & V & V' & C1 & _).
    exists (seg_evaluate s x 0). split; auto. rewrite V'. congruence.
  - intros d Hd. destruct (G d) as (s & s' & x & _ & _ & V & V' & _ & C2).
    rewrite V, V'. f_equal. apply C2; auto.
Qed.

(** offsetTrajectory succeeds iff enough offsets are given. *)
Lemma traj_offset_ok tr v :
  traj_wf tr -> (Nat.min (t_D tr) 3 <= length v)%nat -> exists r, traj_offset tr v = Some r.
Proof.
  intros [W _] Hv. unfold traj_offset. destruct (Nat.ltb_spec (length v) (Nat.min (t_D tr) 3)); [lia|].
  assert (E : exists ss, offset_segments (t_segs tr) v = Some ss).
  { clear H. induction W as [|s ss (_ & E1 & _) _ IH]; [eexists; reflexivity|].
    destruct IH as [r Er]. simpl. rewrite Er. unfold seg_offset.
    rewrite E1. destruct (Nat.ltb_spec (length v) (Nat.min (t_D tr) 3)); [lia|]. eauto. }
  destruct E as [ss ->]. eauto.
Qed.
Lemma traj_offset_fails tr v : (length v < Nat.min (t_D tr) 3)%nat -> traj_offset tr v = None.
Proof. intros. unfold traj_offset. destruct (Nat.ltb_spec (length v) (Nat.min (t_D tr) 3)); auto; lia. Qed.
