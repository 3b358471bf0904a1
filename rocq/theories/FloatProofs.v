(** Facts about binary32 rounding used by C63. *)
From Coq Require Import Reals ZArith Lra Lia Psatz.
From Flocq Require Import Core Relative.
From Verif Require Import FloatModel.
Local Open Scope R_scope.
Set Bullet Behavior "Strict Subproofs".

Local Instance valid32 : Valid_exp exp32.
Proof. apply FLT_exp_valid. reflexivity. Qed.
Local Instance mono32 : Monotone_exp exp32.
Proof. apply FLT_exp_monotone. Qed.

Lemma bpow_pow n : bpow radix2 (Z.of_nat n) = 2 ^ n.
Proof. rewrite <- (IZR_Zpower radix2) by lia. rewrite <- (Nat2Z.id n) at 2.
  change (IZR (Zpower radix2 (Z.of_nat n)) = 2 ^ Z.to_nat (Z.of_nat n)).
  rewrite Nat2Z.id. rewrite pow_IZR. f_equal.
Qed.

Lemma float32_float t : is_float (float32 t).
Proof. apply generic_format_round; typeclasses eauto. Qed.
Lemma float32_id t : is_float t -> float32 t = t.
Proof. intros H. apply round_generic; auto; typeclasses eauto. Qed.
Lemma float32_le t t' : t <= t' -> float32 t <= float32 t'.
Proof. apply round_le; typeclasses eauto. Qed.
Lemma float32_0 : float32 0 = 0.
Proof. apply round_0; typeclasses eauto. Qed.

Lemma float32_nearest t f : is_float f -> Rabs (float32 t - t) <= Rabs (f - t).
Proof.
  intros H. destruct (round_N_pt radix2 exp32 (fun x => negb (Z.even x)) t) as [_ N]. apply N, H.
Qed.

(** Powers of two are floats. *)
Lemma is_float_bpow k : (-149 <= k)%Z -> is_float (bpow radix2 k).
Proof.
  intros H. apply generic_format_bpow. unfold exp32, FLT_exp. lia.
Qed.

(** From 2^k on, all floats are multiples of 2^(k-23). *)
Lemma float_multiple r k : (-126 <= k)%Z -> is_float r -> bpow radix2 k <= r ->
  exists m : Z, r = IZR m * bpow radix2 (k - 23).
Proof.
  intros Hk F H.
  assert (HM : (k + 1 <= mag radix2 r)%Z).
  { apply mag_ge_bpow. replace (k + 1 - 1)%Z with k by lia. rewrite Rabs_pos_eq; auto.
    pose proof (bpow_ge_0 radix2 k). lra. }
  unfold is_float, generic_format in F. unfold F2R in F; cbn [Fnum Fexp] in F.
  set (e := cexp radix2 exp32 r) in *.
  assert (He : (k - 23 <= e)%Z). { unfold e, cexp, exp32, FLT_exp. lia. }
  exists (Ztrunc (scaled_mantissa radix2 exp32 r) * Zpower 2 (e - (k - 23)))%Z.
  rewrite mult_IZR. change 2%Z with (radix_val radix2). rewrite IZR_Zpower by lia.
  rewrite Rmult_assoc, <- bpow_plus. replace (e - (k - 23) + (k - 23))%Z with e by lia. exact F.
Qed.

(** Multiples of 2^-j with at most 24 bits are floats. *)
Lemma float_small_multiple m j : (Z.abs m <= 2 ^ 24)%Z -> (0 <= j <= 149)%Z ->
  is_float (IZR m * bpow radix2 (- j)).
Proof.
  intros Hm Hj.
  destruct (Z.eq_dec (Z.abs m) (2 ^ 24)) as [E|E].
  - assert (m = 2 ^ 24 \/ m = - 2 ^ 24)%Z as [C|C] by lia; subst m.
    + change (IZR (2 ^ 24)) with (bpow radix2 24). rewrite <- bpow_plus. apply is_float_bpow. lia.
    + change (IZR (- 2 ^ 24)) with (- bpow radix2 24). rewrite Ropp_mult_distr_l_reverse.
      apply generic_format_opp. rewrite <- bpow_plus. apply is_float_bpow. lia.
  - apply generic_format_FLT. exists (Float radix2 m (- j)); cbn [Fnum Fexp].
    + reflexivity.
    + change (Zpower radix2 24) with (2 ^ 24)%Z. lia.
    + lia.
Qed.

Lemma float32_relative t : bpow radix2 (-126) <= Rabs t -> Rabs (float32 t - t) <= bpow radix2 (-24) * Rabs t.
Proof.
  intros H. pose proof (relative_error_N_FLT radix2 (-149) 24 eq_refl (fun x => negb (Z.even x)) t) as E.
  specialize (E H).
  replace (bpow radix2 (-24)) with (/ 2 * bpow radix2 (-24 + 1)); [exact E|].
  rewrite (bpow_plus radix2 (-24) 1). change (bpow radix2 1) with 2. lra.
Qed.

Lemma ulp_ge k y : (-126 <= k)%Z -> bpow radix2 k <= y -> bpow radix2 (k - 23) <= ulp radix2 exp32 y.
Proof.
  intros Hk H. pose proof (bpow_gt_0 radix2 k).
  rewrite ulp_neq_0 by lra. apply bpow_le. unfold cexp, exp32, FLT_exp.
  assert (k + 1 <= mag radix2 y)%Z; [|lia].
  apply mag_ge_bpow. replace (k + 1 - 1)%Z with k by lia. rewrite Rabs_pos_eq; lra.
Qed.

Lemma ulp_le_rel y : bpow radix2 (-126) <= y -> ulp radix2 exp32 y <= y * bpow radix2 (-23).
Proof.
  intros H. pose proof (bpow_gt_0 radix2 (-126)).
  pose proof (ulp_FLT_le radix2 (-149) 24 y) as E. rewrite Rabs_pos_eq in E by lra.
  apply E. exact H.
Qed.

(** Above 2^k, two requests less than 2^(k-23) apart can denote the same instant. *)
Lemma collide k T d : (-126 <= k)%Z -> bpow radix2 k <= T -> 0 <= d < bpow radix2 (k - 23) ->
  exists t, T <= t <= T + T * bpow radix2 (-21) /\ float32 t = float32 (t + d).
Proof.
  intros Hk HT Hd. pose proof (bpow_gt_0 radix2 k) as P.
  assert (P126 : bpow radix2 (-126) <= bpow radix2 k) by (apply bpow_le; lia).
  set (y := round radix2 exp32 Zceil T).
  assert (Fy : is_float y) by (apply generic_format_round; typeclasses eauto).
  destruct (round_UP_pt radix2 exp32 T) as (_ & Ty & _). fold y in Ty.
  assert (UT : y <= T + ulp radix2 exp32 T).
  { destruct (generic_format_EM radix2 exp32 T) as [G|G].
    - unfold y. rewrite round_generic by (auto; typeclasses eauto). pose proof (ulp_ge_0 radix2 exp32 T). lra.
    - pose proof (round_UP_DN_ulp radix2 exp32 T G) as E. fold y in E.
      destruct (round_DN_pt radix2 exp32 T) as (_ & D & _). rewrite E. lra. }
  set (c := succ radix2 exp32 y).
  assert (Fc : is_float c) by (apply generic_format_succ; auto; typeclasses eauto).
  assert (Ec : c = y + ulp radix2 exp32 y) by (unfold c; apply succ_eq_pos; lra).
  assert (Uy : bpow radix2 (k - 23) <= ulp radix2 exp32 y) by (apply ulp_ge; auto; lra).
  pose proof (ulp_le_rel T ltac:(lra)) as RT. pose proof (ulp_le_rel y ltac:(lra)) as Ry.
  assert (near : forall x, bpow radix2 k <= x -> Rabs (c - x) < / 2 * bpow radix2 (k - 23) -> float32 x = c).
  { intros x Hx Hn. pose proof (float32_nearest x c Fc) as N.
    assert (Hr : bpow radix2 k <= float32 x).
    { rewrite <- (float32_id (bpow radix2 k)); [now apply float32_le|]. apply is_float_bpow. lia. }
    destruct (float_multiple (float32 x) k Hk (float32_float x) Hr) as [m Em].
    destruct (float_multiple c k Hk Fc ltac:(pose proof (ulp_ge_0 radix2 exp32 y); lra)) as [n En].
    pose proof (bpow_gt_0 radix2 (k - 23)) as B.
    assert (D : Rabs (float32 x - c) < bpow radix2 (k - 23)).
    { replace (float32 x - c) with ((float32 x - x) - (c - x)) by lra.
      pose proof (Rabs_triang (float32 x - x) (- (c - x))) as Tr. rewrite Rabs_Ropp in Tr.
      unfold Rminus at 1. lra. }
    rewrite Em, En. f_equal. f_equal. rewrite Em, En in D.
    replace (IZR m * bpow radix2 (k - 23) - IZR n * bpow radix2 (k - 23))
      with (IZR (m - n) * bpow radix2 (k - 23)) in D by (rewrite minus_IZR; ring).
    rewrite Rabs_mult, (Rabs_pos_eq (bpow radix2 (k-23))) in D by lra.
    assert (Rabs (IZR (m - n)) < 1).
    { apply Rmult_lt_reg_r with (bpow radix2 (k - 23)); auto. lra. }
    rewrite <- abs_IZR in H. apply lt_IZR in H. lia. }
  exists (c - d / 2). repeat split.
  - lra.
  - change (bpow radix2 (-21)) with (/ 2097152). change (bpow radix2 (-23)) with (/ 8388608) in *. lra.
  - rewrite !near; auto.
    + lra.
    + replace (c - (c - d / 2 + d)) with (- (d / 2)) by lra. rewrite Rabs_Ropp, Rabs_pos_eq; lra.
    + lra.
    + replace (c - (c - d / 2)) with (d / 2) by lra. rewrite Rabs_pos_eq; lra.
Qed.

(** Below 2^k, requests at least 2^(k-24) apart denote different instants. *)
Lemma separate k t t' : (-125 <= k)%Z -> 0 <= t -> t' < bpow radix2 k -> t + bpow radix2 (k - 24) < t' ->
  float32 t < float32 t'.
Proof.
  intros Hk H0 H1 H2. pose proof (bpow_gt_0 radix2 (k - 24)) as B.
  assert (E : forall x, 0 <= x < bpow radix2 k -> Rabs (float32 x - x) <= / 2 * bpow radix2 (k - 24)).
  { intros x Hx. eapply Rle_trans; [apply error_le_half_ulp; typeclasses eauto|].
    apply Rmult_le_compat_l; [lra|].
    destruct (Req_dec x 0) as [->|N].
    - unfold exp32. rewrite ulp_FLT_small; [|reflexivity|].
      + apply bpow_le. lia.
      + rewrite Rabs_R0. apply bpow_gt_0.
    - rewrite ulp_neq_0 by auto. apply bpow_le. unfold cexp, exp32, FLT_exp.
      assert (mag radix2 x <= k)%Z; [|lia]. apply mag_le_bpow; auto. rewrite Rabs_pos_eq; lra. }
  pose proof (E t ltac:(lra)) as E1. pose proof (E t' ltac:(lra)) as E2.
  apply Rabs_le_inv in E1. apply Rabs_le_inv in E2. lra.
Qed.
