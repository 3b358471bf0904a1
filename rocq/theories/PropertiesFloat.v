(** C63 - the time argument of evaluateTrajectory is a 32-bit float.
    [call_refs t] and [call_record t] are the effects of a call with the double t. *)
From Coq Require Import Reals ZArith Lra Lia List.
From Flocq Require Import Core.
From Verif Require Import Base FloatModel FloatProofs TrajModel WaypointModel DynModel FloatEval.
Import ListNotations.
Local Open Scope R_scope.
Set Bullet Behavior "Strict Subproofs".

Lemma inv_pow n : / 2 ^ n = bpow radix2 (- Z.of_nat n).
Proof. now rewrite <- bpow_pow, <- bpow_opp. Qed.

(** A call with time t returns the references of some time x (the references at
    t' being what the library computes for the double t') and records x ... *)
Definition time_used (t x : R) : Prop :=
  forall s, (forall b, call_refs t b s = eval_refs x b s) /\
    call_record t true s = s /\
    p_global (d_par (call_record t false s)) = x /\
    p_local (d_par (call_record t false s)) = x - p_gtl (d_par s).

(** ... where x is within 2^-24 of t relatively (2^-150 absolutely for tiny t),
    and the order of requests is kept (weakly). *)
Theorem C63_time_used : forall t, exists x, time_used t x /\
  Rabs (x - t) <= / 2 ^ 24 * Rabs t + / 2 ^ 150 /\
  (/ 2 ^ 126 <= Rabs t -> Rabs (x - t) <= / 2 ^ 24 * Rabs t).
Proof.
  intros t. exists (float32 t).
  assert (E : / 2 ^ 126 <= Rabs t -> Rabs (float32 t - t) <= / 2 ^ 24 * Rabs t).
  { rewrite !inv_pow. apply float32_relative. }
  split; [|split]; auto.
  - intros s. unfold call_refs, call_record, do_eval. repeat split.
  - destruct (Rle_dec (/ 2 ^ 126) (Rabs t)) as [H|H].
    + specialize (E H). pose proof (Rinv_0_lt_compat (2 ^ 150) ltac:(apply pow_lt; lra)). lra.
    + assert (A : Rabs (float32 t - t) <= / 2 ^ 150).
      { rewrite inv_pow. rewrite inv_pow in H. change (- Z.of_nat 150)%Z with (-150)%Z.
        change (- Z.of_nat 126)%Z with (-126)%Z in H.
        replace (bpow radix2 (-150)) with (/ 2 * bpow radix2 (-149)).
        2:{ replace (-149)%Z with (-150 + 1)%Z by lia. rewrite bpow_plus. change (bpow radix2 1) with 2. lra. }
        eapply Rle_trans; [apply error_le_half_ulp; apply FLT_exp_valid; reflexivity|].
        apply Rmult_le_compat_l; [lra|].
        unfold exp32. rewrite ulp_FLT_small; [apply Rle_refl|reflexivity|].
        apply Rnot_le_lt in H. eapply Rlt_le_trans; [exact H|]. apply bpow_le. lia. }
      pose proof (Rabs_pos t). pose proof (Rinv_0_lt_compat (2 ^ 24) ltac:(apply pow_lt; lra)).
      nra.
Qed.

Theorem C63_order : forall t t', t <= t' ->
  exists x x', time_used t x /\ time_used t' x' /\ x <= x'.
Proof.
  intros t t' H. exists (float32 t), (float32 t'). split; [|split].
  - intros s. unfold call_refs, call_record, do_eval. repeat split.
  - intros s. unfold call_refs, call_record, do_eval. repeat split.
  - now apply float32_le.
Qed.

(** Multiples of 2^-j up to 2^(24-j) are passed exactly: the library behaves as
    if the argument were a double. *)
Theorem C63_exact : forall (m : Z) (j : nat), (j <= 149)%nat -> (Z.abs m <= 2 ^ 24)%Z ->
  time_used (IZR m / 2 ^ j) (IZR m / 2 ^ j).
Proof.
  intros m j Hj Hm. assert (E : float32 (IZR m / 2 ^ j) = IZR m / 2 ^ j).
  { apply float32_id. unfold Rdiv. rewrite <- bpow_pow, <- bpow_opp. apply float_small_multiple; auto. lia. }
  intros s. unfold call_refs, call_record, do_eval. rewrite E. repeat split.
Qed.

(** Requests 10 ms apart denote different instants up to 2^17 s (36 hours) ... *)
Theorem C63_distinct : forall t t', 0 <= t -> t' < 2 ^ 17 -> t + / 100 <= t' ->
  exists x x', time_used t x /\ time_used t' x' /\ x < x'.
Proof.
  intros t t' H0 H1 H2. exists (float32 t), (float32 t'). split; [|split].
  - intros s. unfold call_refs, call_record, do_eval. repeat split.
  - intros s. unfold call_refs, call_record, do_eval. repeat split.
  - apply (separate 17); [lia|auto| |].
    + rewrite <- bpow_pow in H1. exact H1.
    + change (bpow radix2 (17 - 24)) with (/ 128). lra.
Qed.

(** ... and from then on, in every neighbourhood, there are two requests 10 ms
    apart that get the same references and leave the same state. *)
Definition same_call (t t' : R) : Prop :=
  forall s, (forall b, call_refs t b s = call_refs t' b s) /\
            (forall b, call_record t b s = call_record t' b s).
Lemma same_float t t' : float32 t = float32 t' -> same_call t t'.
Proof. intros E s. unfold call_refs, call_record. rewrite E. split; reflexivity. Qed.

Theorem C63_coincide_10ms : forall T, 2 ^ 17 <= T ->
  exists t, T <= t <= T + T / 2 ^ 21 /\ same_call t (t + / 100).
Proof.
  intros T H. destruct (collide 17 T (/ 100)) as (t & A & B).
  - lia.
  - rewrite <- bpow_pow in H. exact H.
  - change (bpow radix2 (17 - 23)) with (/ 64). lra.
  - exists t. split; [|now apply same_float].
    change (bpow radix2 (-21)) with (/ 2097152) in A. unfold Rdiv.
    replace (2 ^ 21) with 2097152 by (rewrite pow_IZR; reflexivity). exact A.
Qed.

(** Unix times 2004-2038: requests two minutes apart can coincide, and the time
    used is always a multiple of 128 s. *)
Theorem C63_coincide_unix : forall T, 2 ^ 30 <= T ->
  exists t, T <= t <= T + T / 2 ^ 21 /\ same_call t (t + 120).
Proof.
  intros T H. destruct (collide 30 T 120) as (t & A & B).
  - lia.
  - rewrite <- bpow_pow in H. exact H.
  - change (bpow radix2 (30 - 23)) with 128. lra.
  - exists t. split; [|now apply same_float].
    change (bpow radix2 (-21)) with (/ 2097152) in A. unfold Rdiv.
    replace (2 ^ 21) with 2097152 by (rewrite pow_IZR; reflexivity). exact A.
Qed.
Theorem C63_unix_grid : forall t, 2 ^ 30 <= t -> exists m : Z, time_used t (128 * IZR m).
Proof.
  intros t H. destruct (float_multiple (float32 t) 30) as [m E].
  - lia.
  - apply float32_float.
  - rewrite <- (float32_id (bpow radix2 30)) by (apply is_float_bpow; lia).
    apply float32_le. rewrite <- bpow_pow in H. exact H.
  - exists m. change (bpow radix2 (30 - 23)) with 128 in E. rewrite (Rmult_comm 128), <- E.
    intros s. unfold call_refs, call_record, do_eval. repeat split.
Qed.

(** Concrete requests: 0.25 s is exact; 1700000000 s and 1700000060 s coincide. *)
Example C63_example_exact : time_used (1 / 2 ^ 2) (1 / 2 ^ 2).
Proof. apply (C63_exact 1 2); [lia|cbn; lia]. Qed.
Example C63_example_unix : same_call 1700000000 1700000060.
Proof.
  apply same_float.
  assert (F : is_float 1700000000).
  { replace 1700000000 with (IZR 13281250 * bpow radix2 7) by (change (bpow radix2 7) with 128; lra).
    apply generic_format_FLT. exists (Float radix2 13281250 7); cbn [Fnum Fexp]; [reflexivity| |lia].
    change (Zpower radix2 24) with (2 ^ 24)%Z. cbn. lia. }
  rewrite (float32_id _ F). symmetry.
  pose proof (float32_nearest 1700000060 _ F) as N.
  destruct (float_multiple (float32 1700000060) 30) as [m E]; [lia|apply float32_float| |].
  { rewrite <- (float32_id (bpow radix2 30)) by (apply is_float_bpow; lia).
    apply float32_le. change (bpow radix2 30) with 1073741824. lra. }
  change (bpow radix2 (30 - 23)) with 128 in E. rewrite E in *.
  replace (1700000000 - 1700000060) with (- (60)) in N by lra.
  rewrite (Rabs_left (- (60))) in N by lra. apply Rabs_le_inv in N.
  assert (13281249 < m < 13281251)%Z.
  { split; apply lt_IZR; lra. }
  replace m with 13281250%Z by lia. lra.
Qed.

Print Assumptions C63_time_used.
Print Assumptions C63_order.
Print Assumptions C63_exact.
Print Assumptions C63_distinct.
Print Assumptions C63_coincide_10ms.
Print Assumptions C63_coincide_unix.
Print Assumptions C63_unix_grid.
