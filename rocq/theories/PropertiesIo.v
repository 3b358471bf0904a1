(** C61 (saving and loading trajectories) and C79 (nanosecond conversions). *)
From Coq Require Import String Reals List ZArith Arith Lra Lia Bool Psatz.
From Flocq Require Import Core.
From Verif Require Import Base PolyModel VertexModel TrajModel TrajSpec RotModel SamplingModel IoModel DoubleProofs.
Import List ListNotations.
Local Open Scope R_scope.
Set Bullet Behavior "Strict Subproofs".

(* ------------------------------------------------------------------ *)
(** ** Specification *)

(** [s'] has the shape and the coefficients of [s] and the duration [t']. *)
Definition same_shape (s s' : segment) : Prop :=
  s_N s' = s_N s /\ s_D s' = s_D s /\ s_polys s' = s_polys s.
Definition same_trajectory (close : R -> R -> Prop) (tr tr' : trajectory) : Prop :=
  t_D tr' = t_D tr /\ t_N tr' = t_N tr /\
  Forall2 (fun s s' => same_shape s s' /\ close (s_time s) (s_time s')) (t_segs tr) (t_segs tr').
(** Exact arithmetic: less than a nanosecond too short, never too long. *)
Definition truncated (t t' : R) : Prop := 0 <= t - t' < / 10 ^ 9.
(** Double arithmetic: within two nanoseconds. *)
Definition within_2ns (t t' : R) : Prop := Rabs (t' - t) < 2 / 10 ^ 9.

(** What can be written: int-sized N and D, at least one dimension and one
    segment, and durations from 0 to less than 2^51 ns (26 days). *)
Definition writable (tr : trajectory) : Prop :=
  t_segs tr <> [] /\ traj_wf tr /\ (1 <= t_D tr)%nat /\
  (Z.of_nat (t_D tr) < 2 ^ 31)%Z /\ (Z.of_nat (t_N tr) < 2 ^ 31)%Z /\
  Forall (fun s => 0 <= s_time s /\ s_time s * 10 ^ 9 < 2 ^ 51) (t_segs tr).
Definition no_rounding (x : R) : R := x.

(* ------------------------------------------------------------------ *)
(** ** Nanoseconds *)

Lemma pow9 : 10 ^ 9 = 1000000000.
Proof. rewrite pow_IZR. reflexivity. Qed.
Lemma pow51 : 2 ^ 51 = 2251799813685248.
Proof. rewrite pow_IZR. reflexivity. Qed.
Lemma pow20 : / 10 ^ 20 = / 100000000000000000000.
Proof. rewrite pow_IZR. reflexivity. Qed.
Lemma Ztrunc_between z x : IZR z <= x < IZR z + 1 -> 0 <= x -> Ztrunc x = z.
Proof.
  intros H P. rewrite Ztrunc_floor by auto. apply Zfloor_imp. rewrite plus_IZR. exact H.
Qed.

(** C79: seconds to nanoseconds undoes nanoseconds to seconds up to a missing
    last nanosecond, for |n| < 2^52 (52 days). *)
Lemma ns_round_trip_pos n : (0 <= n < 2 ^ 52)%Z ->
  secondsToNanoseconds double64 (nanosecondsToSeconds double64 n) = n \/
  secondsToNanoseconds double64 (nanosecondsToSeconds double64 n) = (n - 1)%Z.
Proof.
  intros H. unfold secondsToNanoseconds, nanosecondsToSeconds.
  assert (Z0 : n = 0%Z \/ (1 <= n)%Z) by lia. destruct Z0 as [->|N].
  { left. rewrite double64_0. unfold Rdiv. rewrite Rmult_0_l, double64_0, Rmult_0_l, double64_0. apply Ztrunc_IZR. }
  rewrite (double64_id (IZR n)) by (apply double_int; lia).
  assert (N1 : 1 <= IZR n) by (apply IZR_le; lia).
  assert (N2 : IZR n < 4503599627370496) by (apply IZR_lt; lia).
  set (q := double64 (IZR n / 10 ^ 9)).
  assert (Q : Rabs (q - IZR n / 10 ^ 9) <= eps * (IZR n / 10 ^ 9)).
  { apply double64_rel. rewrite pow9, pow20. lra. }
  rewrite pow9 in *. unfold eps in Q. apply Rabs_le_inv in Q.
  set (y := q * 1000000000) in *.
  assert (Y : IZR n - / 2 <= y <= IZR n + / 2) by (unfold y; lra).
  assert (D1 : double64 y <= IZR n + / 2).
  { rewrite <- (double64_id (IZR n + / 2)); [apply double64_le; lra|].
    replace (IZR n + / 2) with (IZR (2 * n + 1) / 2) by (rewrite plus_IZR, mult_IZR; lra).
    apply double_half; lia. }
  assert (D2 : IZR n - / 2 <= double64 y).
  { rewrite <- (double64_id (IZR n - / 2)); [apply double64_le; lra|].
    replace (IZR n - / 2) with (IZR (2 * n - 1) / 2) by (rewrite minus_IZR, mult_IZR; lra).
    apply double_half; lia. }
  destruct (Rle_lt_dec (IZR n) (double64 y)) as [C|C].
  - left. apply Ztrunc_between; lra.
  - right. apply Ztrunc_between; rewrite ?minus_IZR; lra.
Qed.
Theorem C79_round_trip : forall n, (Z.abs n < 2 ^ 52)%Z ->
  let m := secondsToNanoseconds double64 (nanosecondsToSeconds double64 n) in
  m = n \/ m = (n - Z.sgn n)%Z.
Proof.
  intros n H m. destruct (Z_le_gt_dec 0 n) as [P|P].
  - destruct (ns_round_trip_pos n ltac:(lia)) as [E|E]; [left; exact E|].
    destruct (Z.eq_dec n 0) as [->|NZ].
    + left. unfold m, secondsToNanoseconds, nanosecondsToSeconds. rewrite double64_0. unfold Rdiv.
      rewrite Rmult_0_l, double64_0, Rmult_0_l, double64_0. apply Ztrunc_IZR.
    + right. rewrite Z.sgn_pos by lia. exact E.
  - assert (E : m = (- secondsToNanoseconds double64 (nanosecondsToSeconds double64 (- n)))%Z).
    { unfold m, secondsToNanoseconds, nanosecondsToSeconds. rewrite <- Ztrunc_opp. f_equal.
      rewrite opp_IZR, double64_opp. unfold Rdiv. rewrite Ropp_mult_distr_l_reverse, double64_opp.
      rewrite Ropp_mult_distr_l_reverse, double64_opp. lra. }
    destruct (ns_round_trip_pos (- n) ltac:(lia)) as [F|F]; rewrite E, F; [left; lia|].
    right. rewrite Z.sgn_neg by lia. lia.
Qed.

(** The missing nanosecond does occur: 15 ns comes back as 14 ns. *)
Theorem C79_round_trip_refuted :
  secondsToNanoseconds double64 (nanosecondsToSeconds double64 15) = 14%Z.
Proof.
  unfold secondsToNanoseconds, nanosecondsToSeconds.
  rewrite (double64_id 15) by (apply (double_int 15); reflexivity).
  set (x := 15 / 10 ^ 9). assert (X : x = 15 / 1000000000) by (unfold x; now rewrite pow9).
  assert (E : double64 x = 4533471823554859 * / 302231454903657293676544).
  { assert (Dc : is_double (4533471823554859 * / 302231454903657293676544)).
    { change (/ 302231454903657293676544) with (bpow radix2 (-78)).
      apply (double_small_multiple 4533471823554859 78); [reflexivity|lia]. }
    assert (L : bpow radix2 (-26) <= double64 x).
    { rewrite <- (double64_id _ (is_double_bpow (-26) ltac:(lia))). apply double64_le. rewrite X.
      change (bpow radix2 (-26)) with (/ 67108864). lra. }
    destruct (double_multiple _ (-26) ltac:(lia) (double64_double x) L) as [m Em].
    change (-26 - 52)%Z with (-78)%Z in Em.
    pose proof (double64_nearest x _ Dc) as NR.
    change (bpow radix2 (-78)) with (/ 302231454903657293676544) in *.
    rewrite Em in NR |- *. rewrite X in NR.
    assert (NB : Rabs (4533471823554859 * / 302231454903657293676544 - 15 / 1000000000) <= / 2 * / 302231454903657293676544).
    { apply Rabs_le. lra. }
    apply (Rle_trans _ _ _ NR) in NB. apply Rabs_le_inv in NB.
    assert (EQ : (m = 4533471823554859)%Z).
    { destruct (Z_lt_le_dec m 4533471823554859) as [C|C].
      - exfalso. assert (C' : IZR m <= 4533471823554858) by (apply IZR_le; lia). lra.
      - destruct (Z_lt_le_dec 4533471823554859 m) as [C2|C2]; [|lia].
        exfalso. assert (C' : 4533471823554860 <= IZR m) by (apply IZR_le; lia). lra. }
    now rewrite EQ. }
  rewrite E, pow9. apply Ztrunc_between.
  - assert (B : is_double (8444249301319679 * / 562949953421312)).
    { change (/ 562949953421312) with (bpow radix2 (-49)).
      apply (double_small_multiple 8444249301319679 49); [reflexivity|lia]. }
    split.
    + rewrite <- (double64_id 14) by (apply (double_int 14); reflexivity). apply double64_le. lra.
    + apply Rle_lt_trans with (8444249301319679 * / 562949953421312); [|lra].
      set (y := 4533471823554859 * / 302231454903657293676544 * 1000000000).
      destruct (Rle_lt_dec (double64 y) (8444249301319679 * / 562949953421312)) as [C|C]; auto. exfalso.
      assert (L : bpow radix2 3 <= double64 y).
      { change (bpow radix2 3) with 8. lra. }
      destruct (double_multiple _ 3 ltac:(lia) (double64_double y) L) as [m Em].
      change (3 - 52)%Z with (-49)%Z in Em. change (bpow radix2 (-49)) with (/ 562949953421312) in Em.
      assert (M : (8444249301319680 <= m)%Z).
      { assert (8444249301319679 < m)%Z; [|lia]. apply lt_IZR. lra. }
      apply IZR_le in M.
      pose proof (double64_nearest y _ B) as NR.
      assert (Y : y < 8444249301319679 * / 562949953421312 + / 2 * / 562949953421312) by (unfold y; lra).
      assert (Y2 : 8444249301319679 * / 562949953421312 - / 2 * / 562949953421312 < y) by (unfold y; lra).
      assert (NB : Rabs (8444249301319679 * / 562949953421312 - y) < / 2 * / 562949953421312) by (apply Rabs_def1; lra).
      apply (Rle_lt_trans _ _ _ NR) in NB. apply Rabs_def2 in NB. lra.
  - rewrite <- double64_0. apply double64_le. lra.
Qed.

(** Whole seconds are converted exactly in both directions. *)
Theorem C79_whole_seconds : forall s, (Z.abs s <= 9007199)%Z ->
  secondsToNanoseconds double64 (IZR s) = (s * 10 ^ 9)%Z /\
  nanosecondsToSeconds double64 (s * 10 ^ 9) = IZR s.
Proof.
  intros s H. unfold secondsToNanoseconds, nanosecondsToSeconds.
  assert (E : IZR s * 10 ^ 9 = IZR (s * 10 ^ 9)).
  { rewrite mult_IZR. f_equal. rewrite pow9. reflexivity. }
  assert (D : is_double (IZR (s * 10 ^ 9))) by (apply double_int; lia).
  rewrite E, (double64_id _ D), Ztrunc_IZR. split; auto.
  rewrite <- E. replace (IZR s * 10 ^ 9 / 10 ^ 9) with (IZR s).
  - apply double64_id, double_int. lia.
  - field.
Qed.

(** C61: below 2^51 ns a duration set in nanoseconds is read back exactly. *)
Theorem C61_nanoseconds_exact : forall n, (0 <= n < 2 ^ 51)%Z -> get_time_ns double64 (set_time_ns double64 n) = n.
Proof.
  intros n H. unfold get_time_ns, set_time_ns.
  assert (Z0 : n = 0%Z \/ (1 <= n)%Z) by lia. destruct Z0 as [->|N].
  { rewrite double64_0, Rmult_0_l, double64_0, Rmult_0_r, double64_0. apply Ztrunc_IZR. }
  assert (Dn : is_double (IZR n)) by (apply double_int; lia).
  rewrite (double64_id (IZR n)) by auto. rewrite nanosecond_constant.
  assert (N1 : 1 <= IZR n) by (apply IZR_le; lia).
  assert (N2 : IZR n < 2251799813685248) by (apply IZR_lt; lia).
  set (x := IZR n * (4835703278458517 * / 4835703278458516698824704)).
  assert (Q : Rabs (double64 x - x) <= eps * x).
  { apply double64_rel. rewrite pow20. unfold x. lra. }
  unfold eps in Q. apply Rabs_le_inv in Q. rewrite pow9. set (y := 1000000000 * double64 x).
  assert (Y1 : IZR n * (1 - / 18100000000000000) <= y) by (unfold y, x in *; lra).
  assert (Y2 : y <= IZR n + / 2) by (unfold y, x in *; lra).
  assert (L : IZR n <= double64 y).
  { apply (double64_ge _ y (/ 18100000000000000)); auto; lra. }
  apply Ztrunc_between; [|lra]. split; auto.
  apply Rle_lt_trans with (IZR n + / 2); [|lra].
  rewrite <- (double64_id (IZR n + / 2)); [apply double64_le; lra|].
  replace (IZR n + / 2) with (IZR (2 * n + 1) / 2) by (rewrite plus_IZR, mult_IZR; lra).
  apply double_half; lia.
Qed.

(* ------------------------------------------------------------------ *)
(** ** The duration read back *)

Definition fits (rnd : R -> R) (close : R -> R -> Prop) (t : R) : Prop :=
  (0 <= get_time_ns rnd t < 2 ^ 64)%Z /\ close t (set_time_ns rnd (get_time_ns rnd t)).

Lemma fits_exact t : 0 <= t -> t * 10 ^ 9 < 2 ^ 51 -> fits no_rounding truncated t.
Proof.
  intros H L. unfold fits, truncated, get_time_ns, set_time_ns, no_rounding. rewrite pow9, pow51 in *.
  set (y := 1000000000 * t). rewrite Ztrunc_floor by (unfold y; lra).
  pose proof (Zfloor_lb y). pose proof (Zfloor_ub y).
  assert (0 <= Zfloor y)%Z by (apply Zfloor_lub; unfold y; lra).
  assert (Zfloor y < 2251799813685248)%Z by (apply lt_IZR; unfold y in *; lra).
  split; [lia|]. unfold y in *. lra.
Qed.
Lemma fits_double t : 0 <= t -> t * 10 ^ 9 < 2 ^ 51 -> fits double64 within_2ns t.
Proof.
  intros H L. unfold fits, within_2ns, get_time_ns, set_time_ns. rewrite pow9, pow51 in *.
  set (y := 1000000000 * t).
  assert (Y0 : 0 <= double64 y).
  { rewrite <- double64_0. apply double64_le. unfold y. lra. }
  assert (Y1 : y - / 4 <= double64 y <= y + / 4).
  { destruct (Rle_lt_dec (/ 4) y) as [C|C].
    - assert (Q : Rabs (double64 y - y) <= eps * y) by (apply double64_rel; rewrite pow20; lra).
      apply Rabs_le_inv in Q. unfold eps, y in *. lra.
    - assert (double64 y <= / 4).
      { rewrite <- (double64_id (/ 4)); [|exact (is_double_bpow (-2) ltac:(lia))]. apply double64_le. lra. }
      unfold y in *. lra. }
  rewrite Ztrunc_floor by auto.
  pose proof (Zfloor_lb (double64 y)) as F1. pose proof (Zfloor_ub (double64 y)) as F2.
  assert (F0 : (0 <= Zfloor (double64 y))%Z) by (now apply Zfloor_lub).
  set (n := Zfloor (double64 y)) in *.
  assert (F3 : (n < 2251799813685249)%Z) by (apply lt_IZR; unfold y in *; lra).
  split; [lia|]. rewrite (double64_id (IZR n)) by (apply double_int; lia).
  change (double64 (/ 1000000000)) with (double64 (/ 1000000000)).
  replace (double64 (/ 1000000000)) with (4835703278458517 * / 4835703278458516698824704)
    by (rewrite <- nanosecond_constant, pow9; reflexivity).
  set (x := IZR n * (4835703278458517 * / 4835703278458516698824704)).
  assert (N0 : 0 <= IZR n) by (apply IZR_le; lia).
  assert (N1 : IZR n < 2251799813685249) by (apply IZR_lt; lia).
  assert (X : Rabs (double64 x - x) <= eps * x).
  { destruct (Z.eq_dec n 0) as [->|NZ].
    - unfold x. rewrite Rmult_0_l, double64_0, Rmult_0_r, Rminus_0_r, Rabs_R0. lra.
    - assert (1 <= IZR n) by (apply IZR_le; lia). apply double64_rel. rewrite pow20. unfold x. lra. }
  apply Rabs_le_inv in X. unfold eps in X. apply Rabs_def1; unfold x, y in *; lra.
Qed.

(* ------------------------------------------------------------------ *)
(** ** Round trips *)

Lemma map_res_val {A B C : Type} (f : A -> res B) (g : C -> A) (h : C -> B) l :
  (forall c, In c l -> f (g c) = Val (h c)) -> map_res f (map g l) = Val (map h l).
Proof.
  induction l as [|a l IH]; intros H; cbn; auto. rewrite H by (left; auto). cbn. rewrite IH; auto.
  intros c Hc. apply H. right; auto.
Qed.
Lemma map_res_id {A B : Type} (f : A -> res B) (h : A -> B) l :
  (forall c, In c l -> f c = Val (h c)) -> map_res f l = Val (map h l).
Proof. intros H. rewrite <- (map_id l) at 1. now apply map_res_val. Qed.
Lemma map_res_as_double p : map_res as_double (map YReal p) = Val p.
Proof. rewrite (map_res_val as_double YReal (fun r => r)); [now rewrite map_id|reflexivity]. Qed.
Lemma all_some_map {A B : Type} (f : A -> option B) (g : A -> B) l : (forall a, In a l -> f a = Some (g a)) ->
  all_some (map f l) = Some (map g l).
Proof.
  induction l as [|a l IH]; intros H; cbn; auto. rewrite H by (left; auto). rewrite IH; auto.
  intros c Hc. apply H. right; auto.
Qed.
Lemma map_nth_seq {A : Type} (l : list A) d : map (fun i => nth i l d) (seq 0 (length l)) = l.
Proof.
  induction l as [|a l IH]; auto. cbn [length seq map nth]. f_equal.
  rewrite <- seq_shift, map_map. exact IH.
Qed.
Lemma seg_poly_seq s : seg_wf s -> map (seg_poly s) (seq 0 (s_D s)) = s_polys s.
Proof. intros [L _]. rewrite <- L. apply map_nth_seq. Qed.

(** The segment read back. *)
Definition reread (rnd : R -> R) (s : segment) : segment :=
  mkSeg (set_time_ns rnd (get_time_ns rnd (s_time s))) (s_N s) (s_D s) (s_polys s).
Definition int_sized (s : segment) : Prop := (Z.of_nat (s_D s) < 2 ^ 31)%Z /\ (Z.of_nat (s_N s) < 2 ^ 31)%Z.

Lemma as_int_nat n : (Z.of_nat n < 2 ^ 31)%Z -> as_int (YInt (Z.of_nat n)) = Val (Z.of_nat n).
Proof.
  intros H. unfold as_int. replace (- 2 ^ 31 <=? Z.of_nat n)%Z with true by (symmetry; apply Z.leb_le; lia).
  replace (Z.of_nat n <? 2 ^ 31)%Z with true by (symmetry; apply Z.ltb_lt; lia). reflexivity.
Qed.
Lemma as_uint64_val n : (0 <= n < 2 ^ 64)%Z -> as_uint64 (YInt n) = Val n.
Proof.
  intros H. unfold as_uint64. replace (0 <=? n)%Z with true by (symmetry; apply Z.leb_le; lia).
  replace (n <? 2 ^ 64)%Z with true by (symmetry; apply Z.ltb_lt; lia). reflexivity.
Qed.
Lemma not_neg n m : ((Z.of_nat n <? 0) || (Z.of_nat m <? 0))%Z = false.
Proof. apply orb_false_iff. split; apply Z.ltb_ge; lia. Qed.

Lemma segment_yaml_round_trip rnd s : seg_wf s -> (1 <= s_D s)%nat -> int_sized s ->
  (0 <= get_time_ns rnd (s_time s) < 2 ^ 64)%Z ->
  segment_from_yaml rnd (segment_to_yaml rnd s) = Val (reread rnd s).
Proof.
  intros W HD [I1 I2] T. unfold segment_from_yaml, segment_to_yaml.
  destruct (Nat.eqb_spec (s_D s) 0) as [E|_]; [lia|]. cbn -[as_int as_uint64 Z.of_nat map_res seq].
  rewrite !as_int_nat by auto. cbn -[as_uint64 Z.of_nat map_res seq]. rewrite not_neg, Nat2Z.id.
  replace (map_res _ (seq 0 (s_D s))) with (Val (map (seg_poly s) (seq 0 (s_D s)))).
  - cbn -[as_uint64 Z.of_nat seq]. rewrite as_uint64_val by auto. cbn -[seq Z.of_nat].
    unfold reread. rewrite seg_poly_seq by auto. rewrite !Nat2Z.id. reflexivity.
  - symmetry. apply map_res_id.
    intros i Hi. apply in_seq in Hi. cbn.
    rewrite (nth_error_nth' _ YNull) by (rewrite map_length, seq_length; lia).
    cbn. rewrite (nth_indep _ YNull (coefficients_to_yaml (seg_poly s 0%nat))) by (rewrite map_length, seq_length; lia).
    rewrite (map_nth (fun i => coefficients_to_yaml (seg_poly s i)) (seq 0 (s_D s)) 0%nat i), seq_nth by lia.
    cbn. apply map_res_as_double.
Qed.

Definition file_doc (rnd : R -> R) (s : segment) : yaml :=
  YMap [(kN, YInt (Z.of_nat (s_N s))); (kD, YInt (Z.of_nat (s_D s)));
        (kTime, YInt (get_time_ns rnd (s_time s))); (kCoefficients, YSeq (map coefficients_to_yaml (s_polys s)))].
Lemma segment_to_file_doc rnd s : seg_wf s -> segment_to_file rnd s = Some (file_doc rnd s).
Proof.
  intros W. unfold segment_to_file. rewrite (all_some_map _ (fun i => coefficients_to_yaml (seg_poly s i))).
  - unfold file_doc. rewrite <- (seg_poly_seq s W), map_map. reflexivity.
  - intros i Hi. apply in_seq in Hi. destruct W as [L F]. unfold file_row.
    assert (E : length (seg_poly s i) = s_N s).
    { rewrite Forall_forall in F. apply F. unfold seg_poly. apply nth_In. lia. }
    rewrite E. rewrite (proj2 (Nat.ltb_ge _ _) (le_n _)). unfold coefficients_to_yaml.
    f_equal. f_equal. f_equal. exact (eq_trans (f_equal (fun n => firstn n (seg_poly s i)) (eq_sym E)) (firstn_all _)).
Qed.
Lemma segment_file_round_trip rnd s : seg_wf s -> int_sized s ->
  (0 <= get_time_ns rnd (s_time s) < 2 ^ 64)%Z -> segment_from_file rnd (file_doc rnd s) = Val (reread rnd s).
Proof.
  intros W [I1 I2] T. unfold segment_from_file, file_doc. cbn -[as_int as_uint64 Z.of_nat map_res seq].
  rewrite !as_int_nat by auto. cbn -[as_uint64 Z.of_nat map_res seq]. rewrite not_neg, !Nat2Z.id.
  rewrite as_uint64_val by auto. cbn -[map_res seq]. rewrite map_length. destruct W as [L F].
  rewrite L, Nat.eqb_refl. cbn [negb].
  replace (map_res _ (seq 0 (s_D s))) with (Val (map (seg_poly s) (seq 0 (s_D s)))).
  - cbn [bind]. rewrite seg_poly_seq by (split; auto). reflexivity.
  - symmetry. apply map_res_id.
    intros i Hi. apply in_seq in Hi. unfold file_polynomial. cbn [get_index].
    rewrite (nth_error_nth' _ YNull) by (rewrite map_length; lia).
    rewrite (nth_indep _ YNull (coefficients_to_yaml [])) by (rewrite map_length; lia).
    rewrite (map_nth coefficients_to_yaml). cbn [defined bind ysize coefficients_to_yaml].
    change (nth i (s_polys s) []) with (seg_poly s i).
    assert (E : length (seg_poly s i) = s_N s).
    { rewrite Forall_forall in F. apply F. unfold seg_poly. apply nth_In. lia. }
    rewrite map_length. replace (length (seg_poly s i) =? s_N s)%nat with true by (symmetry; now apply Nat.eqb_eq).
    cbn [negb]. transitivity (Val (map (fun k => nth k (seg_poly s i) 0) (seq 0 (s_N s)))).
    + apply map_res_id. intros k Hk. apply in_seq in Hk.
      assert (Hk' : (k < length (seg_poly s i))%nat) by (rewrite E; lia).
      unfold file_coefficient. cbn [get_index coefficients_to_yaml].
      rewrite (nth_error_nth' _ (YReal 0)) by (rewrite map_length; exact Hk').
      rewrite (map_nth YReal). reflexivity.
    + f_equal. rewrite <- E. apply map_nth_seq.
Qed.
Lemma segments_file_loop_spec rnd (docs : list yaml) ss : forall pre rest acc,
  Forall2 (fun d s => segment_from_file rnd d = Val s) docs ss ->
  forall n, segments_file_loop rnd (length docs + n) (length pre) (YSeq (pre ++ docs ++ rest)) acc =
  segments_file_loop rnd n (length pre + length docs) (YSeq (pre ++ docs ++ rest)) (acc ++ ss).
Proof.
  revert ss. induction docs as [|d docs IH]; intros ss pre rest acc F n; inversion F as [|? s ? ss' E F' E1 E2]; subst; clear F.
  - cbn. now rewrite app_nil_r, Nat.add_0_r.
  - cbn [length Nat.add segments_file_loop get_index].
    rewrite nth_error_app2, Nat.sub_diag by lia. cbn [nth_error app defined bind]. rewrite E.
    specialize (IH ss' (pre ++ [d]) rest (acc ++ [s]) F' n). rewrite app_length in IH. cbn [length] in IH.
    rewrite <- !app_assoc in IH. cbn [app] in IH.
    replace (length pre + 1)%nat with (S (length pre)) in IH by lia. rewrite IH. f_equal. lia.
Qed.

Lemma set_segments_reread rnd add tr : t_segs tr <> [] -> traj_wf tr ->
  exists tr', set_segments_gen add (map (reread rnd) (t_segs tr)) = Some tr' /\
    t_D tr' = t_D tr /\ t_N tr' = t_N tr /\ t_segs tr' = map (reread rnd) (t_segs tr).
Proof.
  intros NE [W _]. destruct (t_segs tr) as [|s0 ss] eqn:E; [congruence|].
  cbn [map set_segments_gen]. unfold add_segments_gen. cbn [t_D t_N t_segs t_max].
  pose proof (Forall_inv W) as (_ & D0 & N0). cbn [reread s_D s_N].
  replace (forallb _ (reread rnd s0 :: map (reread rnd) ss)) with true.
  - eexists. split; [reflexivity|]. cbn [t_D t_N t_segs]. auto.
  - symmetry. apply forallb_forall. intros x Hx.
    change (reread rnd s0 :: map (reread rnd) ss) with (map (reread rnd) (s0 :: ss)) in Hx.
    apply in_map_iff in Hx. destruct Hx as (y & <- & Hy). cbn [reread s_D s_N].
    rewrite Forall_forall in W. destruct (W y Hy) as (_ & D1 & N1).
    rewrite D1, N1, D0, N0, !Nat.eqb_refl. reflexivity.
Qed.
Lemma same_reread rnd close tr tr' : Forall (fun s => fits rnd close (s_time s)) (t_segs tr) ->
  t_D tr' = t_D tr -> t_N tr' = t_N tr -> t_segs tr' = map (reread rnd) (t_segs tr) -> same_trajectory close tr tr'.
Proof.
  intros F D N E. refine (conj D (conj N _)). rewrite E. clear - F.
  induction F as [|s ss [_ H] F IH]; cbn; constructor; auto. split; [repeat split|exact H].
Qed.

Lemma yaml_round_trip rnd close tr : t_segs tr <> [] -> traj_wf tr -> (1 <= t_D tr)%nat ->
  (Z.of_nat (t_D tr) < 2 ^ 31)%Z -> (Z.of_nat (t_N tr) < 2 ^ 31)%Z ->
  Forall (fun s => fits rnd close (s_time s)) (t_segs tr) ->
  exists tr', trajectory_from_yaml rnd (trajectory_to_yaml rnd tr) = Val tr' /\ same_trajectory close tr tr' /\
    t_segs tr' = map (reread rnd) (t_segs tr).
Proof.
  intros NE W D1 D2 N2 F. destruct (set_segments_reread rnd (fun a b => rnd (a + b)) tr NE W) as (tr' & A & B & C & E).
  exists tr'. split; [|split; [now apply (same_reread rnd)|exact E]].
  assert (M : map_res (segment_from_yaml rnd) (map (segment_to_yaml rnd) (t_segs tr)) = Val (map (reread rnd) (t_segs tr))).
  { apply map_res_val. intros s Hs. destruct W as [W _]. rewrite Forall_forall in W, F.
    destruct (W s Hs) as (W1 & W2 & W3). destruct (F s Hs) as [F1 _].
    apply segment_yaml_round_trip; auto; [lia|]. unfold int_sized. rewrite W2, W3. auto. }
  unfold trajectory_to_yaml, segments_to_yaml, trajectory_from_yaml.
  destruct (t_segs tr) as [|s0 ss] eqn:ES; [congruence|].
  cbn [get_key assoc]. replace (String.eqb kSegments kSegments) with true by reflexivity.
  cbn [defined bind segments_from_yaml]. rewrite M. cbn [bind]. now rewrite A.
Qed.
Lemma file_round_trip rnd close tr : t_segs tr <> [] -> traj_wf tr ->
  (Z.of_nat (t_D tr) < 2 ^ 31)%Z -> (Z.of_nat (t_N tr) < 2 ^ 31)%Z ->
  Forall (fun s => fits rnd close (s_time s)) (t_segs tr) ->
  exists doc tr', trajectory_to_file rnd tr = Some doc /\
    trajectory_from_file rnd (Some doc) = Val (true, tr') /\ same_trajectory close tr tr' /\
    t_segs tr' = map (reread rnd) (t_segs tr).
Proof.
  intros NE W D2 N2 F. destruct (set_segments_reread rnd (fun a b => rnd (a + b)) tr NE W) as (tr' & A & B & C & E).
  exists (YMap [(kSegments, YSeq (map (file_doc rnd) (t_segs tr)))]), tr'.
  destruct W as [W _]. rewrite Forall_forall in W. split; [|split; [|split; [now apply (same_reread rnd)|exact E]]].
  - unfold trajectory_to_file, segments_to_file.
    rewrite (all_some_map _ (file_doc rnd)); auto. intros s Hs. apply segment_to_file_doc. now apply W.
  - unfold trajectory_from_file, segments_from_file. cbn [get_key assoc].
    replace (String.eqb kSegments kSegments) with true by reflexivity. cbn [bind ysize].
    assert (F2 : Forall2 (fun d s => segment_from_file rnd d = Val s) (map (file_doc rnd) (t_segs tr)) (map (reread rnd) (t_segs tr))).
    { rewrite Forall_forall in F. clear - W F D2 N2. revert W F. generalize (t_segs tr) as ss.
      induction ss as [|s ss IH]; intros W F; cbn; constructor.
      - destruct (W s (or_introl eq_refl)) as (W1 & W2 & W3). destruct (F s (or_introl eq_refl)) as [F1 _].
        apply segment_file_round_trip; auto. unfold int_sized. rewrite W2, W3. auto.
      - apply IH; intros x Hx; [apply W|apply F]; now right. }
    pose proof (segments_file_loop_spec rnd _ _ [] [] [] F2 0) as L. rewrite app_nil_r, Nat.add_0_r in L.
    cbn [length app Nat.add] in L. rewrite L. cbn [segments_file_loop bind snd fst]. now rewrite A.
Qed.
Lemma writable_fits rnd close tr : writable tr ->
  (forall t, 0 <= t -> t * 10 ^ 9 < 2 ^ 51 -> fits rnd close t) -> Forall (fun s => fits rnd close (s_time s)) (t_segs tr).
Proof.
  intros (_ & _ & _ & _ & _ & T) H. eapply Forall_impl; [|exact T]. cbn. intros s [A B]. auto.
Qed.

(** C61: a trajectory converted to YAML and back keeps its dimensions and
    coefficients; its durations are truncated to whole nanoseconds. *)
Theorem C61_yaml_round_trip : forall tr, writable tr ->
  (exists tr', trajectory_from_yaml no_rounding (trajectory_to_yaml no_rounding tr) = Val tr' /\
     same_trajectory truncated tr tr') /\
  (exists tr', trajectory_from_yaml double64 (trajectory_to_yaml double64 tr) = Val tr' /\
     same_trajectory within_2ns tr tr').
Proof.
  intros tr H. pose proof H as (H1 & H2 & H3 & H4 & H5 & _). split.
  - destruct (yaml_round_trip no_rounding truncated tr H1 H2 H3 H4 H5 (writable_fits _ _ _ H fits_exact)) as (tr' & A & B & _).
    eauto.
  - destruct (yaml_round_trip double64 within_2ns tr H1 H2 H3 H4 H5 (writable_fits _ _ _ H fits_double)) as (tr' & A & B & _).
    eauto.
Qed.
(** The same through a file. *)
Theorem C61_file_round_trip : forall tr, writable tr ->
  (exists doc tr', trajectory_to_file no_rounding tr = Some doc /\
     trajectory_from_file no_rounding (Some doc) = Val (true, tr') /\ same_trajectory truncated tr tr') /\
  (exists doc tr', trajectory_to_file double64 tr = Some doc /\
     trajectory_from_file double64 (Some doc) = Val (true, tr') /\ same_trajectory within_2ns tr tr').
Proof.
  intros tr H. pose proof H as (H1 & H2 & H3 & H4 & H5 & _). split.
  - destruct (file_round_trip no_rounding truncated tr H1 H2 H4 H5 (writable_fits _ _ _ H fits_exact)) as (doc & tr' & A & B & C & _).
    eauto.
  - destruct (file_round_trip double64 within_2ns tr H1 H2 H4 H5 (writable_fits _ _ _ H fits_double)) as (doc & tr' & A & B & C & _).
    eauto.
Qed.

(** Saving, loading and saving again writes the same document: nothing more is
    lost after the first save. *)
Lemma reread_stable s : (0 <= get_time_ns double64 (s_time s) < 2 ^ 51)%Z -> reread double64 (reread double64 s) = reread double64 s.
Proof. intros H. unfold reread. cbn [s_time s_N s_D s_polys]. now rewrite C61_nanoseconds_exact. Qed.
Lemma get_time_bound t : 0 <= t -> t * 10 ^ 9 < 2 ^ 51 - 1 -> (0 <= get_time_ns double64 t < 2 ^ 51)%Z.
Proof.
  intros H L. unfold get_time_ns. rewrite pow9, pow51 in *.
  assert (Y0 : 0 <= double64 (1000000000 * t)).
  { rewrite <- double64_0. apply double64_le. lra. }
  assert (Y1 : double64 (1000000000 * t) <= 2251799813685247).
  { rewrite <- (double64_id 2251799813685247) by (apply (double_int 2251799813685247); reflexivity). apply double64_le. lra. }
  rewrite Ztrunc_floor by auto. pose proof (Zfloor_lb (double64 (1000000000 * t))).
  split; [now apply Zfloor_lub|]. apply lt_IZR. change (IZR (2 ^ 51)) with 2251799813685248. lra.
Qed.
Theorem C61_saving_again : forall tr doc tr', writable tr -> Forall (fun s => s_time s * 10 ^ 9 < 2 ^ 51 - 1) (t_segs tr) ->
  trajectory_to_file double64 tr = Some doc -> trajectory_from_file double64 (Some doc) = Val (true, tr') ->
  trajectory_to_file double64 tr' = Some doc /\ trajectory_to_yaml double64 tr' = trajectory_to_yaml double64 tr.
Proof.
  intros tr doc tr' H B E1 E2. pose proof H as (H1 & H2 & H3 & H4 & H5 & T).
  destruct (file_round_trip double64 within_2ns tr H1 H2 H4 H5 (writable_fits _ _ _ H fits_double)) as (doc2 & tr2 & X1 & X2 & X3 & X4).
  assert (doc2 = doc) by congruence. subst doc2. assert (tr2 = tr') by congruence. subst tr2.
  assert (G : forall s, In s (t_segs tr) -> get_time_ns double64 (s_time (reread double64 s)) = get_time_ns double64 (s_time s)).
  { intros s Hs. rewrite Forall_forall in T, B. destruct (T s Hs) as [T1 _]. apply C61_nanoseconds_exact.
    apply get_time_bound; auto. }
  split.
  - rewrite <- E1. unfold trajectory_to_file, segments_to_file. rewrite X4, map_map.
    replace (map (fun x => segment_to_file double64 (reread double64 x)) (t_segs tr)) with (map (segment_to_file double64) (t_segs tr)); auto.
    apply map_ext_in. intros s Hs. unfold segment_to_file. rewrite (G s Hs). reflexivity.
  - unfold trajectory_to_yaml. rewrite X4. unfold segments_to_yaml.
    destruct (t_segs tr) as [|s0 ss] eqn:ES; [congruence|].
    cbn [map]. f_equal. f_equal. f_equal. f_equal.
    change (segment_to_yaml double64 (reread double64 s0) :: map (segment_to_yaml double64) (map (reread double64) ss))
      with (map (segment_to_yaml double64) (map (reread double64) (s0 :: ss))).
    change (segment_to_yaml double64 s0 :: map (segment_to_yaml double64) ss) with (map (segment_to_yaml double64) (s0 :: ss)).
    rewrite map_map. apply map_ext_in. intros s Hs. unfold segment_to_yaml. rewrite (G s Hs). reflexivity.
Qed.

(* ------------------------------------------------------------------ *)
(** ** What the readers accept *)

Lemma bind_val {A B : Type} (x : res A) (f : A -> res B) b : bind x f = Val b -> exists a, x = Val a /\ f a = Val b.
Proof. destruct x; cbn; try discriminate. eauto. Qed.
Lemma map_res_length {A B : Type} (f : A -> res B) l : forall r, map_res f l = Val r ->
  length r = length l /\ forall b, In b r -> exists a, In a l /\ f a = Val b.
Proof.
  induction l as [|a l IH]; intros r H; cbn in H.
  - injection H as <-. split; auto. intros b [].
  - apply bind_val in H. destruct H as (b & E & H). apply bind_val in H. destruct H as (bs & E2 & H).
    injection H as <-. destruct (IH _ E2) as [L I]. split; [cbn; congruence|].
    intros x [<-|Hx]; [exists a; split; auto; now left|]. destruct (I x Hx) as (c & Hc & Ec). exists c. split; auto. now right.
Qed.
Lemma segment_from_file_wf rnd y s : segment_from_file rnd y = Val s -> seg_wf s.
Proof.
  unfold segment_from_file. intros H.
  do 6 (apply bind_val in H; destruct H as (? & _ & H)).
  match type of H with (if ?c then _ else _) = _ => destruct c; [discriminate|] end.
  apply bind_val in H. destruct H as (t & _ & H).
  match type of H with (if ?c then _ else _) = _ => destruct c; [discriminate|] end.
  apply bind_val in H. destruct H as (polys & E & H). injection H as <-.
  destruct (map_res_length _ _ _ E) as [L I]. rewrite seq_length in L. split; cbn [s_polys s_D s_N]; auto.
  apply Forall_forall. intros p Hp. destruct (I p Hp) as (j & _ & Ej). unfold file_polynomial in Ej.
  apply bind_val in Ej. destruct Ej as (row & _ & Ej).
  destruct (negb (ysize row =? _)%nat); [discriminate|].
  destruct (map_res_length _ _ _ Ej) as [L2 _]. now rewrite seq_length in L2.
Qed.
Lemma segments_file_loop_wf rnd n : forall i ys acc ok ss, segments_file_loop rnd n i ys acc = Val (ok, ss) ->
  Forall seg_wf acc -> Forall seg_wf ss.
Proof.
  induction n as [|n IH]; intros i ys acc ok ss H F; cbn in H.
  - now injection H as _ <-.
  - apply bind_val in H. destruct H as (y & _ & H). destruct (segment_from_file rnd y) as [s| |] eqn:E; try discriminate.
    + apply (IH _ _ _ _ _ H). apply Forall_app. split; auto. constructor; auto. apply (segment_from_file_wf _ _ _ E).
    + now injection H as _ <-.
Qed.

(** Whatever the file contains: the segments that come out have D polynomials
    with N coefficients each. *)
Theorem C61_file_reader_checks_shape : forall rnd y old ok ss,
  segments_from_file rnd (Some y) old = Val (ok, ss) -> Forall seg_wf ss.
Proof.
  intros rnd y old ok ss H. unfold segments_from_file in H. apply bind_val in H. destruct H as ([ys|] & _ & H).
  - apply (segments_file_loop_wf _ _ _ _ _ _ _ H). constructor.
  - injection H as _ <-. constructor.
Qed.

(** trajectoryFromYaml does not: N = 3 with a row of two coefficients is
    accepted. *)
Definition short_row : yaml :=
  YMap [(kSegments, YSeq [YMap [(kN, YInt 3); (kD, YInt 1); (kTime, YInt 1000000000);
                                (kCoefficients, YSeq [YSeq [YReal 1; YReal 2]])]])].
Theorem C61_yaml_reader_checks_shape_refuted :
  exists tr s, trajectory_from_yaml no_rounding short_row = Val tr /\ In s (t_segs tr) /\ ~ seg_wf s /\
    segments_from_file no_rounding (Some short_row) [] = Val (false, []).
Proof.
  exists (mkTraj 1 3 (0 + set_time_ns no_rounding 1000000000) [mkSeg (set_time_ns no_rounding 1000000000) 3 1 [[1; 2]]]).
  exists (mkSeg (set_time_ns no_rounding 1000000000) 3 1 [[1; 2]]).
  split; [reflexivity|]. split; [now left|]. split; [|reflexivity].
  intros [_ F]. inversion F as [|? ? L]. discriminate.
Qed.

(** An unreadable file, or one without any segment: trajectoryFromFile does
    not return false, it aborts (CHECK in setSegments). *)
Theorem C61_unreadable_file_aborts : forall rnd,
  trajectory_from_file rnd None = Undef /\
  (forall l, ~ In kSegments (map fst l) -> trajectory_from_file rnd (Some (YMap l)) = Undef).
Proof.
  intros rnd. split; [reflexivity|]. intros l H. unfold trajectory_from_file, segments_from_file. cbn [get_key bind].
  assert (E : assoc kSegments l = None).
  { induction l as [|[k v] l IH]; auto. cbn [assoc]. destruct (String.eqb kSegments k) eqn:N.
    - apply String.eqb_eq in N. exfalso. apply H. left. exact (eq_sym N).
    - apply IH. intros I. apply H. now right. }
  rewrite E. reflexivity.
Qed.

(** segmentsFromFile itself does return false: it leaves the list alone if the
    file cannot be opened and empties it if there is no list of segments. *)
Theorem C61_unreadable_segments : forall rnd old,
  segments_from_file rnd None old = Val (false, old) /\
  (forall l, ~ In kSegments (map fst l) -> segments_from_file rnd (Some (YMap l)) old = Val (false, [])).
Proof.
  intros rnd old. split; [reflexivity|]. intros l H. unfold segments_from_file. cbn [get_key bind].
  assert (E : assoc kSegments l = None).
  { induction l as [|[k v] l IH]; auto. cbn [assoc]. destruct (String.eqb kSegments k) eqn:N.
    - apply String.eqb_eq in N. exfalso. apply H. left. exact (eq_sym N).
    - apply IH. intros I. apply H. now right. }
  rewrite E. reflexivity.
Qed.
Print Assumptions C61_unreadable_segments.

(** A number where a list is expected: no segments are read if it stands for the list
    of segments (and the result is true); if it stands for the coefficients of a
    segment or of one dimension, reading stops with false. *)
Definition number (y : yaml) : Prop := (exists z, y = YInt z) \/ (exists x, y = YReal x).
Theorem C61_number_for_list : forall rnd old (y : yaml) (n d : nat) (t : Z), number y ->
  segments_from_file rnd (Some (YMap [(kSegments, y)])) old = Val (true, []) /\
  ((0 < d < 100)%nat -> (0 < n < 100)%nat -> (0 <= t < 2 ^ 64)%Z -> forall c, c = y \/ c = YSeq (repeat y d) ->
   segments_from_file rnd (Some (YMap [(kSegments, YSeq [YMap [(kN, YInt (Z.of_nat n)); (kD, YInt (Z.of_nat d)); (kTime, YInt t); (kCoefficients, c)]])])) old
   = Val (false, [])).
Proof.
  intros rnd old y n d t Hy.
  assert (S0 : ysize y = 0%nat) by (destruct Hy as [[z ->]|[x ->]]; reflexivity). split.
  - unfold segments_from_file. cbn [get_key assoc]. replace (String.eqb kSegments kSegments) with true by reflexivity. cbn [bind].
    rewrite S0. reflexivity.
  - intros Hd Hn Ht c Hc. unfold segments_from_file. cbn [get_key assoc].
    replace (String.eqb kSegments kSegments) with true by reflexivity. cbn [bind ysize length segments_file_loop get_index nth_error defined].
    enough (E : segment_from_file rnd (YMap [(kN, YInt (Z.of_nat n)); (kD, YInt (Z.of_nat d)); (kTime, YInt t); (kCoefficients, c)]) = Failed)
      by now rewrite E.
    unfold segment_from_file.
    assert (K : forall k v, In (k, v) [(kN, YInt (Z.of_nat n)); (kD, YInt (Z.of_nat d)); (kTime, YInt t); (kCoefficients, c)] ->
      get_key k (YMap [(kN, YInt (Z.of_nat n)); (kD, YInt (Z.of_nat d)); (kTime, YInt t); (kCoefficients, c)]) = Val (Some v)).
    { intros k v I. cbn [In] in I. destruct I as [E|[E|[E|[E|[]]]]]; injection E as <- <-; reflexivity. }
    rewrite (K kN (YInt (Z.of_nat n))), (K kD (YInt (Z.of_nat d))), (K kTime (YInt t)), (K kCoefficients c) by (cbn [In]; auto).
    cbn [required bind].
    assert (I1 : forall m : nat, (m < 100)%nat -> as_int (YInt (Z.of_nat m)) = Val (Z.of_nat m)).
    { intros m Hm. unfold as_int. replace (_ && _)%bool with true; [reflexivity|]. symmetry. apply andb_true_iff. split; [apply Z.leb_le|apply Z.ltb_lt]; lia. }
    rewrite (I1 n), (I1 d) by lia. cbn [bind].
    replace ((Z.of_nat n <? 0) || (Z.of_nat d <? 0))%Z with false by (symmetry; apply orb_false_iff; split; apply Z.ltb_ge; lia).
    assert (I2 : as_uint64 (YInt t) = Val t).
    { unfold as_uint64. replace (_ && _)%bool with true; [reflexivity|]. symmetry. apply andb_true_iff. split; [apply Z.leb_le|apply Z.ltb_lt]; lia. }
    rewrite I2. cbn [bind]. rewrite !Nat2Z.id. destruct Hc as [-> | ->].
    + rewrite S0. destruct d; [lia|]. reflexivity.
    + cbn [ysize]. rewrite repeat_length, Nat.eqb_refl. cbn [negb]. destruct d as [|d]; [lia|]. cbn [seq map_res repeat].
      unfold file_polynomial at 1. cbn [get_index nth_error defined bind]. rewrite S0. destruct n; [lia|]. reflexivity.
Qed.
Print Assumptions C61_number_for_list.

(** A file whose entry k lacks a key: false is returned, but the trajectory has
    already been replaced by the segments before it. *)
Definition lacks_key (y : yaml) : Prop :=
  exists l k, y = YMap l /\ In k [kN; kD; kTime; kCoefficients] /\ assoc k l = None.
Lemma lacks_key_failed rnd y : lacks_key y -> segment_from_file rnd y = Failed.
Proof.
  intros (l & k & -> & I & E). unfold segment_from_file. cbn [get_key].
  destruct (assoc kN l) eqn:E1; [|reflexivity]. cbn [required bind].
  destruct (assoc kD l) eqn:E2; [|reflexivity]. cbn [required bind].
  destruct (assoc kTime l) eqn:E3; [|reflexivity]. cbn [required bind].
  destruct (assoc kCoefficients l) eqn:E4; [|reflexivity]. exfalso.
  destruct I as [<-|[<-|[<-|[<-|[]]]]]; congruence.
Qed.
Theorem C61_damaged_file_replaces_trajectory : forall tr docs bad rest, writable tr ->
  trajectory_to_file double64 tr = Some (YMap [(kSegments, YSeq docs)]) -> lacks_key bad ->
  exists tr', trajectory_from_file double64 (Some (YMap [(kSegments, YSeq (docs ++ bad :: rest))])) = Val (false, tr') /\
    same_trajectory within_2ns tr tr'.
Proof.
  intros tr docs bad rest H E B. pose proof H as (NE & W & H3 & D2 & N2 & T).
  pose proof (writable_fits _ _ _ H fits_double) as F.
  destruct (set_segments_reread double64 (fun a b => double64 (a + b)) tr NE W) as (tr' & A1 & A2 & A3 & A4).
  exists tr'. split; [|now apply (same_reread double64)].
  destruct W as [W _]. rewrite Forall_forall in W.
  assert (ED : docs = map (file_doc double64) (t_segs tr)).
  { unfold trajectory_to_file, segments_to_file in E.
    rewrite (all_some_map _ (file_doc double64)) in E by (intros s Hs; apply segment_to_file_doc; now apply W).
    now injection E as <-. }
  assert (F2 : Forall2 (fun d s => segment_from_file double64 d = Val s) docs (map (reread double64) (t_segs tr))).
  { rewrite ED. rewrite Forall_forall in F. clear - W F D2 N2. revert W F. generalize (t_segs tr) as ss.
    induction ss as [|s ss IH]; intros W F; cbn; constructor.
    - destruct (W s (or_introl eq_refl)) as (W1 & W2 & W3). destruct (F s (or_introl eq_refl)) as [F1 _].
      apply segment_file_round_trip; auto. unfold int_sized. rewrite W2, W3. auto.
    - apply IH; intros x Hx; [apply W|apply F]; now right. }
  unfold trajectory_from_file, segments_from_file. cbn [get_key assoc].
  replace (String.eqb kSegments kSegments) with true by reflexivity. cbn [bind ysize].
  rewrite app_length. pose proof (segments_file_loop_spec double64 _ _ [] (bad :: rest) [] F2 (length (bad :: rest))) as L.
  cbn [length app Nat.add] in L |- *. rewrite L. cbn [segments_file_loop get_index].
  rewrite nth_error_app2, Nat.sub_diag by lia. cbn [nth_error defined bind].
  rewrite (lacks_key_failed _ _ B). cbn [bind snd fst]. now rewrite A1.
Qed.

(** Without dimensions the key "coefficients" is not written and the document
    is not accepted again. *)
Theorem C61_no_dimension_refuted : forall tr, t_segs tr <> [] -> traj_wf tr -> t_D tr = 0%nat ->
  trajectory_from_yaml double64 (trajectory_to_yaml double64 tr) = Failed.
Proof.
  intros tr NE [W _] D. unfold trajectory_to_yaml, segments_to_yaml, trajectory_from_yaml.
  destruct (t_segs tr) as [|s ss] eqn:E; [congruence|]. cbn [get_key assoc].
  replace (String.eqb kSegments kSegments) with true by reflexivity.
  cbn [defined bind segments_from_yaml map map_res]. pose proof (Forall_inv W) as (_ & D0 & _).
  assert (X : segment_from_yaml double64 (segment_to_yaml double64 s) = Failed).
  { unfold segment_from_yaml, segment_to_yaml. rewrite D0, D. reflexivity. }
  now rewrite X.
Qed.

(* ------------------------------------------------------------------ *)
(** ** Examples *)

Definition ex_saved : trajectory :=
  mkTraj 2 2 (3 / 2 + 1) [mkSeg (3 / 2) 2 2 [[1; 2]; [0; 1]]; mkSeg 1 2 2 [[4; 0]; [3 / 2; 1]]].
Lemma ex_saved_writable : writable ex_saved.
Proof.
  unfold writable, ex_saved, traj_wf. cbn [t_segs t_D t_N t_max]. split; [discriminate|]. split; [split|].
  - repeat (constructor; [repeat (constructor; try reflexivity)|]). constructor.
  - cbn. lra.
  - split; [lia|]. split; [lia|]. split; [lia|]. rewrite pow9, pow51. constructor; [cbn; lra|]. constructor; [cbn; lra|constructor].
Qed.
Example ex_saved_again : Forall (fun s => s_time s * 10 ^ 9 < 2 ^ 51 - 1) (t_segs ex_saved).
Proof. rewrite pow9, pow51. constructor; [cbn; lra|]. constructor; [cbn; lra|constructor]. Qed.
Example ex_saved_file : exists docs, trajectory_to_file double64 ex_saved = Some (YMap [(kSegments, YSeq docs)]) /\
  length docs = 2%nat /\ lacks_key (YMap [(kN, YInt 2)]).
Proof.
  eexists. split; [reflexivity|]. split; [reflexivity|]. exists [(kN, YInt 2)], kD. repeat split. right; left; reflexivity.
Qed.
Example ex_no_dimension : t_segs (mkTraj 0 2 1 [mkSeg 1 2 0 []]) <> [] /\ traj_wf (mkTraj 0 2 1 [mkSeg 1 2 0 []]).
Proof.
  split; [discriminate|]. split; cbn; [|lra]. constructor; [|constructor]. repeat split. constructor.
Qed.

Print Assumptions C61_yaml_round_trip.
Print Assumptions C61_file_round_trip.
Print Assumptions C61_saving_again.
Print Assumptions C61_file_reader_checks_shape.
Print Assumptions C61_yaml_reader_checks_shape_refuted.
Print Assumptions C61_unreadable_file_aborts.
Print Assumptions C61_damaged_file_replaces_trajectory.
Print Assumptions C61_no_dimension_refuted.
Print Assumptions C61_nanoseconds_exact.
Print Assumptions C79_round_trip.
Print Assumptions C79_round_trip_refuted.
Print Assumptions C79_whole_seconds.
