(** evaluateRange, getVertices, and trajectory-level appending. *)
From Coq Require Import Reals Lra Lia List Bool ZArith Arith.
From Coquelicot Require Import Coquelicot.
From Verif Require Import Base PolyModel PolySpec PolyProofs VertexModel TrajModel TrajSpec TrajProofs ExtremaProofs TrajOpsProofs.
Import List ListNotations.
Local Open Scope R_scope.

Lemma samples_nil tr d t0 acc0 t_end dt :
  ~ (acc0 < t_end /\ t0 <= t_max tr) -> samples tr d t0 acc0 t_end dt [].
Proof.
  intros H. split.
  - intros j x E. destruct j; discriminate.
  - simpl. rewrite !Rmult_0_l, !Rplus_0_r. auto.
Qed.
Lemma samples_cons tr d t0 acc0 t_end dt v l :
  sample_at tr t0 d v -> acc0 < t_end -> t0 <= t_max tr ->
  samples tr d (t0 + dt) (acc0 + dt) t_end dt l ->
  samples tr d t0 acc0 t_end dt ((v, acc0) :: l).
Proof.
  intros Hs Ha Ht [H1 H2]. split.
  - intros j x E. destruct j.
    + simpl in E. inversion E; subst. simpl. rewrite !Rmult_0_l, !Rplus_0_r. auto.
    + simpl in E. specialize (H1 j x E). rewrite S_INR.
      replace (t0 + (INR j + 1) * dt) with (t0 + dt + INR j * dt) by ring.
      replace (acc0 + (INR j + 1) * dt) with (acc0 + dt + INR j * dt) by ring. auto.
  - simpl length. rewrite S_INR.
    replace (t0 + (INR (length l) + 1) * dt) with (t0 + dt + INR (length l) * dt) by ring.
    replace (acc0 + (INR (length l) + 1) * dt) with (acc0 + dt + INR (length l) * dt) by ring. auto.
Qed.

Lemma start_of_le_max tr k : traj_wf tr -> positive_times tr -> start_of tr k <= t_max tr.
Proof. intros [_ ->] HP. apply lsum_firstn_le; auto. Qed.
Lemma start_of_all tr : traj_wf tr -> start_of tr (length (t_segs tr)) = t_max tr.
Proof. intros [_ ->]. unfold start_of. now rewrite firstn_all. Qed.

Lemma range_loop_spec tr t_end dt d :
  traj_wf tr -> positive_times tr -> 0 < dt ->
  forall m K i tis acc fuel,
  (i <= length (t_segs tr))%nat -> (m = K + (length (t_segs tr) - i))%nat ->
  t_end <= acc + INR K * dt -> 0 <= tis ->
  (i = length (t_segs tr) -> 0 < tis) -> (m < fuel)%nat ->
  exists l, range_loop fuel (t_segs tr) t_end dt d i tis acc = Some l /\
            samples tr d (start_of tr i + tis) acc t_end dt l.
Proof.
  intros Hwf HP Hdt. induction m as [m IH] using (well_founded_induction lt_wf).
  intros K i tis acc fuel Hi Hm HK Htis Hend Hfuel.
  destruct fuel as [|fuel]; [lia|]. simpl.
  destruct (Rltb acc t_end) eqn:Ea; [apply Rltb_true in Ea|apply Rltb_false in Ea].
  2:{ exists []. split; auto. apply samples_nil. lra. }
  destruct K as [|K]; [simpl in HK; lra|].
  destruct (nth_error (t_segs tr) i) as [s|] eqn:En.
  - assert (Hi' : (i < length (t_segs tr))%nat) by (apply nth_error_Some; congruence).
    pose proof (start_of_S tr i s En) as HS.
    destruct (Rltb (s_time s) tis) eqn:Et; [apply Rltb_true in Et|apply Rltb_false in Et].
    + destruct (IH (m - 1)%nat ltac:(lia) (S K) (S i) (tis - s_time s) acc fuel) as (l & El & Sl); try lia; try lra; auto.
      exists l. split; auto. replace (start_of tr i + tis) with (start_of tr (S i) + (tis - s_time s)) by lra. auto.
    + destruct (IH (m - 1)%nat ltac:(lia) K i (tis + dt) (acc + dt) fuel) as (l & El & Sl); try lia; try lra; auto.
      { rewrite S_INR in HK. lra. }
      rewrite El. eexists. split; [reflexivity|].
      pose proof (start_of_le_max tr (S i) Hwf HP).
      apply samples_cons; auto; try lra.
      * exists i, s. split; auto. split; [lra|].
        rewrite seg_evaluate_deriv.
        -- f_equal. lra.
        -- destruct Hwf as [Hw _]. rewrite Forall_forall in Hw. apply Hw. eapply nth_error_In; eauto.
      * replace (start_of tr i + tis + dt) with (start_of tr i + (tis + dt)) by ring. auto.
  - apply nth_error_None in En. assert (i = length (t_segs tr)) by lia. subst i.
    exists []. split; auto. apply samples_nil. rewrite start_of_all by auto. specialize (Hend eq_refl). lra.
Qed.

Lemma INR_up_bound x dt : 0 < dt -> exists K, x <= INR K * dt.
Proof.
  intros Hdt. destruct (archimed (x / dt)) as [HK _].
  exists (Z.to_nat (up (x / dt))).
  assert (HZ : IZR (up (x / dt)) <= INR (Z.to_nat (up (x / dt)))).
  { rewrite INR_IZR_INZ. apply IZR_le. lia. }
  assert (HK' : x / dt < INR (Z.to_nat (up (x / dt)))) by lra. clear HK HZ. rename HK' into HK.
  apply Rmult_lt_compat_r with (r := dt) in HK; auto.
  replace (x / dt * dt) with x in HK by (field; lra). lra.
Qed.

Lemma find_segment_start segs t acc i k s :
  Forall (fun s => 0 < s_time s) segs -> nth_error segs k = Some s ->
  acc + lsum (map s_time (firstn k segs)) <= t < acc + lsum (map s_time (firstn k segs)) + s_time s ->
  find_segment Rplus segs t acc i = ((i + k)%nat, acc + lsum (map s_time (firstn k segs)) + s_time s).
Proof.
  revert acc i k; induction segs as [|s0 segs IH]; intros acc i k HF Hk Ht; [destruct k; discriminate|].
  inversion HF; subst. destruct k.
  - simpl in *. inversion Hk; subst. rcase; [|lra]. f_equal; [lia|lra].
  - cbn [firstn map lsum nth_error] in *. simpl.
    assert (0 <= lsum (map s_time (firstn k segs))).
    { apply lsum_nonneg, Forall_map, Forall_forall. intros x Hx.
      assert (In x segs) by (rewrite <- (firstn_skipn k); apply in_or_app; auto).
      rewrite Forall_forall in H2. specialize (H2 x H). lra. }
    rcase; [lra|]. rewrite (IH (acc + s_time s0) (S i) k); auto; [|lra].
    f_equal; [lia|lra].
Qed.

Lemma evaluate_range_spec tr t_start t_end dt d k s :
  traj_wf tr -> positive_times tr -> 0 < dt ->
  nth_error (t_segs tr) k = Some s -> start_of tr k <= t_start < start_of tr (S k) ->
  exists fuel0 l, (forall fuel, (fuel0 <= fuel)%nat -> evaluate_range fuel tr t_start t_end dt d = Val l) /\
    samples tr d t_start (start_of tr k) t_end dt l.
Proof.
  intros Hwf HP Hdt Hk Ht.
  pose proof (start_of_S tr k s Hk) as HS.
  destruct (INR_up_bound (t_end - start_of tr k) dt Hdt) as [K HK].
  assert (Hi : (k < length (t_segs tr))%nat) by (apply nth_error_Some; congruence).
  assert (HR : forall fuel, (S (K + (length (t_segs tr) - k)) <= fuel)%nat ->
     exists l, range_loop fuel (t_segs tr) t_end dt d k (t_start - start_of tr k) (start_of tr k) = Some l /\
       samples tr d t_start (start_of tr k) t_end dt l).
  { intros fuel Hf.
    destruct (range_loop_spec tr t_end dt d Hwf HP Hdt (K + (length (t_segs tr) - k)) K k (t_start - start_of tr k) (start_of tr k) fuel)
      as (l & E & S1); try lia; try lra.
    exists l. split; auto. replace t_start with (start_of tr k + (t_start - start_of tr k)) by lra. auto. }
  assert (HE : forall fuel l, range_loop fuel (t_segs tr) t_end dt d k (t_start - start_of tr k) (start_of tr k) = Some l ->
     evaluate_range fuel tr t_start t_end dt d = Val l).
  { intros fuel l E. unfold evaluate_range.
    rewrite (find_segment_start (t_segs tr) t_start 0 0 k s); auto; [|unfold start_of in *; lra].
    fold (start_of tr k). rewrite Rplus_0_l. simpl.
    rcase; [lra|]. rewrite Hk.
    replace (start_of tr k + s_time s - s_time s) with (start_of tr k) by lra. rewrite E. reflexivity. }
  assert (Hmono : forall f segs te dtt dd i tis acc l, range_loop f segs te dtt dd i tis acc = Some l ->
      forall f', (f <= f')%nat -> range_loop f' segs te dtt dd i tis acc = Some l).
  { clear. induction f; intros segs te dtt dd i tis acc l E f' Hf; [discriminate|].
    destruct f' as [|f']; [lia|]. simpl in *. destruct (Rltb acc te); auto.
    destruct (nth_error segs i); auto. destruct (Rltb _ _).
    - eapply IHf; eauto; lia.
    - destruct (range_loop f segs te dtt dd i (tis + dtt) (acc + dtt)) eqn:E'; [|discriminate].
      rewrite (IHf _ _ _ _ _ _ _ _ E') by lia. auto. }
  set (f0 := S (K + (length (t_segs tr) - k))) in *.
  destruct (HR f0 (le_n _)) as (l & El & Sl).
  exists f0, l. split; auto. intros fuel Hf. apply HE. eapply Hmono; eauto.
Qed.

Lemma evaluate_range_end fuel tr t_end dt d :
  traj_wf tr -> positive_times tr -> t_segs tr <> [] ->
  evaluate_range fuel tr (t_max tr) t_end dt d = Undef.
Proof.
  intros [Hw Hm] HP Hne. unfold evaluate_range.
  assert (G : forall segs acc i, Forall (fun s => 0 < s_time s) segs ->
    find_segment Rplus segs (acc + lsum (map s_time segs)) acc i = ((i + length segs)%nat, acc + lsum (map s_time segs))).
  { clear. induction segs; simpl; intros acc i HF.
    - f_equal; [lia|lra].
    - inversion HF; subst. assert (0 <= lsum (map s_time segs)).
      { apply lsum_nonneg, Forall_map. eapply Forall_impl; [|exact H2]. simpl; intros; lra. }
      rcase; [lra|].
      replace (acc + (s_time a + lsum (map s_time segs))) with (acc + s_time a + lsum (map s_time segs)) by lra.
      rewrite IHsegs by auto. f_equal; lia. }
  specialize (G (t_segs tr) 0 0%nat HP). rewrite Rplus_0_l in G. rewrite Hm, G. simpl.
  rcase; [lra|].
  replace (nth_error (t_segs tr) (length (t_segs tr))) with (@None segment); auto.
  symmetry. apply nth_error_None. lia.
Qed.

Lemma evaluate_range_past fuel tr t_start t_end dt d :
  traj_wf tr -> positive_times tr -> t_max tr < t_start ->
  evaluate_range fuel tr t_start t_end dt d = Failed.
Proof.
  intros [Hw Hm] HP Ht. unfold evaluate_range.
  rewrite find_segment_past.
  - rcase; [reflexivity|]. lra.
  - lra.
  - eapply Forall_impl; [|exact HP]. simpl; intros; lra.
Qed.

(** With joints agreeing in the sampled derivative the samples are evaluate(). *)
Lemma sample_at_evaluate tr tau d v :
  traj_wf tr -> positive_times tr ->
  (forall k s s', nth_error (t_segs tr) k = Some s -> nth_error (t_segs tr) (S k) = Some s' ->
     seg_deriv s d (s_time s) = seg_deriv s' d 0) ->
  sample_at tr tau d v -> traj_evaluate tr tau d = Some v.
Proof.
  intros Hwf HP HJ (m & s & Hm & Ht & ->).
  pose proof (start_of_S tr m s Hm) as HS.
  destruct (Rlt_dec tau (start_of tr (S m))).
  - apply traj_evaluate_segment; auto; lra.
  - assert (E : tau = start_of tr (S m)) by lra.
    destruct (nth_error (t_segs tr) (S m)) as [s'|] eqn:E'.
    + rewrite (traj_evaluate_segment tr (S m) s' tau d); auto; try lra.
      * rewrite E, Rminus_diag_eq by auto. rewrite <- (HJ m s s' Hm E').
        do 2 f_equal. lra.
      * left. rewrite (start_of_S tr (S m) s' E').
        assert (0 < s_time s'); [|lra]. unfold positive_times in HP. rewrite Forall_forall in HP. apply HP. eapply nth_error_In; eauto.
    + apply traj_evaluate_segment; auto; try lra. right.
      apply nth_error_None in E'.
      assert ((m < length (t_segs tr))%nat) by (apply nth_error_Some; congruence).
      split; [lia|]. rewrite E. replace (S m) with (length (t_segs tr)) by lia. apply start_of_all; auto.
Qed.

(* ------------------------------------------------------------------ *)
(** ** Appending dimensions, segment by segment *)

Lemma append_dims_nth a b r k s1 s2 :
  append_dims a b = Some r -> nth_error a k = Some s1 -> nth_error b k = Some s2 ->
  exists s, nth_error r k = Some s /\ seg_append_dimension s1 s2 = Some s.
Proof.
  revert b r k; induction a as [|x a IH]; intros b r k H Ha Hb; [destruct k; discriminate|].
  destruct b as [|y b]; [destruct k; discriminate|]. simpl in H.
  destruct (seg_append_dimension x y) eqn:E; [|discriminate].
  destruct (append_dims a b) eqn:E2; [|discriminate]. inversion H; subst.
  destruct k; simpl in *; [|eapply IH; eauto].
  inversion Ha; inversion Hb; subst. eauto.
Qed.

Lemma append_dims_total N D1 D2 a b :
  Forall (fun s => seg_wf s /\ s_D s = D1 /\ s_N s = N) a ->
  Forall (fun s => seg_wf s /\ s_D s = D2 /\ s_N s = N) b ->
  (0 < N)%nat -> (0 < D1)%nat -> (0 < D2)%nat ->
  Forall (fun s => 0 <= s_time s) a -> Forall (fun s => 0 <= s_time s) b -> length a = length b ->
  exists r, append_dims a b = Some r /\ length r = length a /\
    Forall (fun s => seg_wf s /\ s_D s = (D1 + D2)%nat /\ s_N s = N) r.
Proof.
  intros Ha. revert b. induction Ha as [|s1 a (W1 & E1 & F1) Ha IH]; intros b Hb HN HD1 HD2 HT HT2 HL.
  - destruct b; [|discriminate]. exists []. auto.
  - destruct b as [|s2 b]; [discriminate|]. inversion Hb as [|? ? (W2 & E2 & F2) Hb']; subst.
    inversion HT; inversion HT2; subst.
    destruct (IH b) as (r & Er & Lr & Fr); auto.
    destruct (seg_append_evaluate s1 s2 0 0) as (q & Q1 & Q2 & Q3 & Q4 & Q5 & _); auto; try lia.
    exists (q :: r). cbn [append_dims]. rewrite Q1, Er. split; [reflexivity|]. split; [simpl; auto|].
    constructor; auto.
Qed.

Lemma traj_append_segments tr tr2 :
  traj_wf tr -> traj_wf tr2 -> positive_times tr -> positive_times tr2 -> t_segs tr <> [] ->
  t_N tr = t_N tr2 -> (0 < t_N tr)%nat -> (0 < t_D tr)%nat -> (0 < t_D tr2)%nat ->
  length (t_segs tr) = length (t_segs tr2) ->
  exists r, traj_append_dimension tr tr2 = Val r /\ traj_wf r /\ t_D r = (t_D tr + t_D tr2)%nat /\
    length (t_segs r) = length (t_segs tr) /\
    forall k s1 s2, nth_error (t_segs tr) k = Some s1 -> nth_error (t_segs tr2) k = Some s2 ->
    exists s, nth_error (t_segs r) k = Some s /\ s_time s = Rmax (s_time s1) (s_time s2) /\
      forall x d, seg_deriv s d x =
        map (fun v => (s_time s1 / s_time s) ^ d * v) (seg_deriv s1 d (s_time s1 / s_time s * x)) ++
        map (fun v => (s_time s2 / s_time s) ^ d * v) (seg_deriv s2 d (s_time s2 / s_time s * x)).
Proof.
  intros [W1 M1] [W2 M2] HP HP2 Hne HN HN0 HD1 HD2 HL. unfold traj_append_dimension.
  destruct (Nat.eqb_spec (t_N tr) 0); [lia|]. destruct (Nat.eqb_spec (t_D tr) 0); [lia|].
  destruct (Nat.eqb_spec (t_N tr2) 0); [lia|]. destruct (Nat.eqb_spec (t_D tr2) 0); [lia|].
  cbn [orb]. rewrite HL, Nat.eqb_refl.
  assert (HP0 : Forall (fun s => 0 <= s_time s) (t_segs tr)).
  { eapply Forall_impl; [|exact HP]. simpl; intros; lra. }
  assert (HP20 : Forall (fun s => 0 <= s_time s) (t_segs tr2)).
  { eapply Forall_impl; [|exact HP2]. simpl; intros; lra. }
  destruct (append_dims_total (t_N tr) (t_D tr) (t_D tr2) (t_segs tr) (t_segs tr2)) as (ss & Ess & Lss & HFs); auto.
  { rewrite HN. auto. }
  rewrite Ess.
  assert (Hss : exists r, set_segments ss = Some r /\ t_D r = (t_D tr + t_D tr2)%nat).
  { unfold set_segments, set_segments_gen. destruct ss as [|s0 ss'] eqn:E.
    - destruct (t_segs tr); [congruence|discriminate].
    - unfold add_segments_gen. replace (forallb _ _) with true.
      + eexists. split; [reflexivity|]. inversion HFs; simpl; tauto.
      + symmetry. apply forallb_forall. intros s Hs. inversion HFs as [|? ? (A1 & A2 & A3) _]; subst.
        rewrite Forall_forall in HFs. destruct (HFs s Hs) as (B1 & B2 & B3).
        simpl. rewrite A2, A3, B2, B3, !Nat.eqb_refl. reflexivity. }
  destruct Hss as (r & Er & Dr). rewrite Er.
  destruct (set_segments_wf ss r) as (Wr & Sr & Nr); auto.
  { eapply Forall_impl; [|exact HFs]. simpl; tauto. }
  exists r. split; [reflexivity|]. split; [auto|]. split; [auto|]. split; [congruence|].
  intros k s1 s2 K1 K2. rewrite Sr.
  destruct (append_dims_nth _ _ _ _ _ _ Ess K1 K2) as (s & Ks & As).
  exists s. split; auto.
  assert (I1 : In s1 (t_segs tr)) by (eapply nth_error_In; eauto).
  assert (I2 : In s2 (t_segs tr2)) by (eapply nth_error_In; eauto).
  unfold positive_times in *. rewrite Forall_forall in W1, W2, HP, HP2.
  destruct (W1 s1 I1) as (A1 & A2 & A3). destruct (W2 s2 I2) as (B1 & B2 & B3).
  specialize (HP s1 I1). specialize (HP2 s2 I2).
  assert (G : forall x d, _) by (intros x d; apply (seg_append_evaluate s1 s2 x d); auto; try lia; try lra).
  destruct (G 0 0%nat) as (q & Q1 & Q2 & Q3 & _). rewrite As in Q1. inversion Q1; subst q.
  split; auto. intros x d. destruct (G x d) as (q & Q1' & _ & _ & _ & _ & Q6).
  rewrite As in Q1'. inversion Q1'; subst q.
  rewrite <- !seg_evaluate_deriv by auto. rewrite Q6, Q3.
  assert (SF : forall T0 T, 0 < T0 -> T0 <= T -> stretch_factor T0 T d = (T0 / T) ^ d /\ stretched T0 T x = T0 / T * x).
  { intros T0 T H0 HT. unfold stretch_factor, stretched. rcase; auto.
    assert (T0 = T) by lra. subst. unfold Rdiv. rewrite Rinv_r by lra. rewrite pow1. split; ring. }
  destruct (SF (s_time s1) (Rmax (s_time s1) (s_time s2))) as [-> ->]; [auto|apply Rmax_l|].
  destruct (SF (s_time s2) (Rmax (s_time s1) (s_time s2))) as [-> ->]; [auto|apply Rmax_r|].
  reflexivity.
Qed.
