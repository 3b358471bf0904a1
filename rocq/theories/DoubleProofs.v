(** Facts about binary64 rounding used by C61 and C79. *)
From Coq Require Import String Reals ZArith Lra Lia Psatz.
From Flocq Require Import Core Relative.
From Verif Require Import FloatProofs IoModel.
Local Open Scope R_scope.
Set Bullet Behavior "Strict Subproofs".

Global Instance valid64 : Valid_exp exp64.
Proof. apply FLT_exp_valid. reflexivity. Qed.
Global Instance mono64 : Monotone_exp exp64.
Proof. apply FLT_exp_monotone. Qed.

Lemma double64_double t : is_double (double64 t).
Proof. apply generic_format_round; typeclasses eauto. Qed.
Lemma double64_id t : is_double t -> double64 t = t.
Proof. intros H. apply round_generic; auto; typeclasses eauto. Qed.
Lemma double64_le t t' : t <= t' -> double64 t <= double64 t'.
Proof. apply round_le; typeclasses eauto. Qed.
Lemma double64_0 : double64 0 = 0.
Proof. apply round_0; typeclasses eauto. Qed.
Lemma double64_opp t : double64 (- t) = - double64 t.
Proof. unfold double64. apply round_NE_opp. Qed.
Lemma double64_nearest t f : is_double f -> Rabs (double64 t - t) <= Rabs (f - t).
Proof.
  intros H. destruct (round_N_pt radix2 exp64 (fun x => negb (Z.even x)) t) as [_ N]. apply N, H.
Qed.
Lemma is_double_bpow k : (-1074 <= k)%Z -> is_double (bpow radix2 k).
Proof. intros H. apply generic_format_bpow. unfold exp64, FLT_exp. lia. Qed.

(** From 2^k on, all doubles are multiples of 2^(k-52). *)
Lemma double_multiple r k : (-1022 <= k)%Z -> is_double r -> bpow radix2 k <= r ->
  exists m : Z, r = IZR m * bpow radix2 (k - 52).
Proof.
  intros Hk F H.
  assert (HM : (k + 1 <= mag radix2 r)%Z).
  { apply mag_ge_bpow. replace (k + 1 - 1)%Z with k by lia. rewrite Rabs_pos_eq; auto.
    pose proof (bpow_ge_0 radix2 k). lra. }
  unfold is_double, generic_format in F. unfold F2R in F; cbn [Fnum Fexp] in F.
  set (e := cexp radix2 exp64 r) in *.
  assert (He : (k - 52 <= e)%Z). { unfold e, cexp, exp64, FLT_exp. lia. }
  exists (Ztrunc (scaled_mantissa radix2 exp64 r) * Zpower 2 (e - (k - 52)))%Z.
  rewrite mult_IZR. change 2%Z with (radix_val radix2). rewrite IZR_Zpower by lia.
  rewrite Rmult_assoc, <- bpow_plus. replace (e - (k - 52) + (k - 52))%Z with e by lia. exact F.
Qed.

Lemma double_small_multiple m j : (Z.abs m < 2 ^ 53)%Z -> (j <= 1074)%Z ->
  is_double (IZR m * bpow radix2 (- j)).
Proof.
  intros Hm Hj. apply generic_format_FLT. exists (Float radix2 m (- j)); cbn [Fnum Fexp].
  - reflexivity.
  - change (Zpower radix2 53) with (2 ^ 53)%Z. lia.
  - lia.
Qed.
Lemma double_int m : (Z.abs m < 2 ^ 53)%Z -> is_double (IZR m).
Proof.
  intros H. pose proof (double_small_multiple m 0 H ltac:(lia)) as D. cbn in D. now rewrite Rmult_1_r in D.
Qed.
Lemma double_half m : (Z.abs m < 2 ^ 53)%Z -> is_double (IZR m / 2).
Proof. intros H. exact (double_small_multiple m 1 H ltac:(lia)). Qed.

Lemma double64_relative t : bpow radix2 (-1022) <= Rabs t -> Rabs (double64 t - t) <= bpow radix2 (-53) * Rabs t.
Proof.
  intros H. pose proof (relative_error_N_FLT radix2 (-1074) 53 eq_refl (fun x => negb (Z.even x)) t) as E.
  specialize (E H).
  replace (bpow radix2 (-53)) with (/ 2 * bpow radix2 (-53 + 1)); [exact E|].
  rewrite (bpow_plus radix2 (-53) 1). change (bpow radix2 1) with 2. lra.
Qed.
Definition eps : R := / 9007199254740992.
Lemma bpow_eps : bpow radix2 (-53) = eps.
Proof. reflexivity. Qed.
Lemma double64_rel t : / 10 ^ 20 <= t -> Rabs (double64 t - t) <= eps * t.
Proof.
  intros H. rewrite <- bpow_eps. assert (0 < t).
  { eapply Rlt_le_trans; [|exact H]. apply Rinv_0_lt_compat, pow_lt; lra. }
  replace (bpow radix2 (-53) * t) with (bpow radix2 (-53) * Rabs t) by (rewrite (Rabs_pos_eq t); [reflexivity|lra]).
  apply double64_relative.
  rewrite Rabs_pos_eq by lra. apply Rle_trans with (/ 10 ^ 20); auto.
  apply Rle_trans with (bpow radix2 (-100)); [apply bpow_le; lia|].
  change (bpow radix2 (-100)) with (/ IZR (2 ^ 100)). apply Rinv_le_contravar; [apply pow_lt; lra|].
  rewrite pow_IZR. apply IZR_le. vm_compute. discriminate.
Qed.

(** The gap below a double: two different positive doubles f < n (from 2^-1022
    on) differ by at least n 2^-53. *)
Lemma double_gap f n : is_double f -> is_double n -> / 2 <= f -> f < n -> n * eps <= n - f.
Proof.
  intros Df Dn Hf Hn.
  set (k := (mag radix2 f - 1)%Z).
  assert (M : bpow radix2 k <= f < bpow radix2 (k + 1)).
  { unfold k. replace (mag radix2 f - 1 + 1)%Z with (mag radix2 f : Z) by lia.
    destruct (mag radix2 f) as [e He]. cbn [mag_val]. pose proof (He ltac:(lra)) as He2. rewrite Rabs_pos_eq in He2 by lra. exact He2. }
  assert (K : (-1 <= k)%Z).
  { destruct (Z_lt_le_dec k (-1)) as [C|C]; auto. exfalso.
    assert (bpow radix2 (k + 1) <= bpow radix2 (-1)) by (apply bpow_le; lia).
    change (bpow radix2 (-1)) with (/ 2) in *. lra. }
  destruct (double_multiple f k ltac:(lia) Df ltac:(lra)) as [m Em].
  destruct (double_multiple n k ltac:(lia) Dn ltac:(lra)) as [m' Em'].
  set (u := bpow radix2 (k - 52)) in *. assert (U : 0 < u) by apply bpow_gt_0.
  assert (B : (m < m')%Z).
  { apply lt_IZR. apply Rmult_lt_reg_r with u; auto. lra. }
  assert (T : bpow radix2 (k + 1) = 9007199254740992 * u).
  { unfold u. replace (k + 1)%Z with (53 + (k - 52))%Z by lia. rewrite bpow_plus. f_equal. }
  assert (L : (m <= 9007199254740991)%Z).
  { assert (m < 9007199254740992)%Z; [|lia]. apply lt_IZR. apply Rmult_lt_reg_r with u; auto. lra. }
  apply IZR_le in L. assert (B' : IZR m + 1 <= IZR m') by (rewrite <- plus_IZR; apply IZR_le; lia).
  rewrite Em, Em' in *. unfold eps. nra.
Qed.

(** Rounding a value slightly below an integer gives at least the integer. *)
Lemma double64_ge n y k : is_double n -> 1 <= n -> 0 <= k -> k < / 18014398509481984 -> n * (1 - k) <= y -> n <= double64 y.
Proof.
  intros Dn N K0 K Y. destruct (Rle_lt_dec n y) as [C|C].
  - rewrite <- (double64_id n Dn). now apply double64_le.
  - destruct (Rle_lt_dec n (double64 y)) as [D|D]; auto. exfalso.
    assert (F : / 2 <= double64 y).
    { rewrite <- (double64_id (/ 2)); [|exact (is_double_bpow (-1) ltac:(lia))]. apply double64_le. nra. }
    pose proof (double_gap _ _ (double64_double y) Dn F D) as G.
    pose proof (double64_nearest y n Dn) as NR. rewrite (Rabs_pos_eq (n - y)) in NR by lra.
    assert (NK : n * k < n * / 18014398509481984) by nra. unfold eps in G.
    rewrite Rabs_left1 in NR; lra.
Qed.

(** The double nearest to 1e-9. *)
Lemma nanosecond_constant : double64 (/ 10 ^ 9) = 4835703278458517 * / 4835703278458516698824704.
Proof.
  set (x := / 10 ^ 9). set (c := 4835703278458517 * / 4835703278458516698824704).
  assert (X : x = / 1000000000) by (unfold x; f_equal; rewrite pow_IZR; reflexivity).
  assert (Ec : c = 4835703278458517 * bpow radix2 (-82)).
  { unfold c. f_equal. }
  assert (Dc : is_double c).
  { rewrite Ec. apply (double_small_multiple 4835703278458517 82); [reflexivity|lia]. }
  assert (L : bpow radix2 (-30) <= double64 x).
  { rewrite <- (double64_id _ (is_double_bpow (-30) ltac:(lia))). apply double64_le. rewrite X.
    change (bpow radix2 (-30)) with (/ 1073741824). lra. }
  destruct (double_multiple _ (-30) ltac:(lia) (double64_double x) L) as [m Em].
  change (-30 - 52)%Z with (-82)%Z in Em.
  pose proof (double64_nearest x c Dc) as NR.
  change (bpow radix2 (-82)) with (/ 4835703278458516698824704) in *.
  rewrite Em in NR |- *. unfold c in *.
  assert (U : 0 < / 4835703278458516698824704) by lra.
  assert (EQ : (m = 4835703278458517)%Z).
  { rewrite X in NR.
    rewrite (Rabs_pos_eq (4835703278458517 * / 4835703278458516698824704 - / 1000000000)) in NR by lra.
    destruct (Z_lt_le_dec m 4835703278458517) as [C|C].
    - exfalso. assert (C' : IZR m <= 4835703278458516) by (apply IZR_le; lia).
      rewrite Rabs_left1 in NR; [|]; nra.
    - destruct (Z_lt_le_dec 4835703278458517 m) as [C2|C2]; [|lia].
      exfalso. assert (C' : 4835703278458518 <= IZR m) by (apply IZR_le; lia).
      rewrite Rabs_pos_eq in NR; nra. }
  now rewrite EQ.
Qed.
