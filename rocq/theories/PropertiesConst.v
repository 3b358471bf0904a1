(** Property theorems: the decimal literals of the source are the floats and
    doubles nearest to them (C17, C77, C84). *)
From Coq Require Import Reals Lra Lia ZArith.
From Flocq Require Import Core.
From Verif Require Import Base FloatModel IoModel ComputeModel CandSampleModel.
Local Open Scope R_scope.
Set Bullet Behavior "Strict Subproofs".

(** Rounding to nearest of a number between 2^(k-1) and 2^k. *)
Lemma round_between emin prec x k m : (emin <= k - prec)%Z -> bpow radix2 (k - 1) <= x < bpow radix2 k ->
  Rabs (x * bpow radix2 (prec - k) - IZR m) < / 2 ->
  round radix2 (FLT_exp emin prec) ZnearestE x = IZR m * bpow radix2 (k - prec).
Proof.
  intros He Hx H. unfold round, scaled_mantissa, cexp, F2R. cbn [Fnum Fexp].
  assert (x0 : 0 < x) by (eapply Rlt_le_trans; [apply (bpow_gt_0 radix2 (k - 1))|apply Hx]).
  assert (EM : mag radix2 x = k :> Z) by (apply mag_unique; rewrite Rabs_pos_eq; lra).
  rewrite EM. replace (FLT_exp emin prec k) with (k - prec)%Z by (unfold FLT_exp; lia).
  replace (- (k - prec))%Z with (prec - k)%Z by lia. now rewrite (Znearest_imp _ _ m H).
Qed.

(** C17: the step of the time fitting is the float nearest to 0.1. *)
Theorem C17_step : STEP = float32 (1 / 10).
Proof.
  unfold float32, exp32. rewrite (round_between _ _ _ (-3) 13421773).
  - change (bpow radix2 (-3 - 24)) with (/ 134217728). unfold STEP. lra.
  - lia.
  - change (bpow radix2 (-3 - 1)) with (/ 16). change (bpow radix2 (-3)) with (/ 8). lra.
  - change (bpow radix2 (24 - -3)) with 134217728. apply Rabs_def1; lra.
Qed.
(** C77: the acceleration limit is the float nearest to 9.81. *)
Theorem C77_acceleration_limit : A_MAX = float32 (981 / 100).
Proof.
  unfold float32, exp32. rewrite (round_between _ _ _ 4 10286531).
  - change (bpow radix2 (4 - 24)) with (/ 1048576). unfold A_MAX. lra.
  - lia.
  - change (bpow radix2 (4 - 1)) with 8. change (bpow radix2 4) with 16. lra.
  - change (bpow radix2 (24 - 4)) with 1048576. apply Rabs_def1; lra.
Qed.
(** C84: the slope below which a sample is a candidate is the double nearest to 0.01. *)
Theorem C84_tolerance : SLOPE_TOL = double64 (1 / 100).
Proof.
  unfold double64, exp64. rewrite (round_between _ _ _ (-6) 5764607523034235).
  - change (bpow radix2 (-6 - 53)) with (/ 576460752303423488). unfold SLOPE_TOL. lra.
  - lia.
  - change (bpow radix2 (-6 - 1)) with (/ 128). change (bpow radix2 (-6)) with (/ 64). lra.
  - change (bpow radix2 (53 - -6)) with 576460752303423488. apply Rabs_def1; lra.
Qed.
Print Assumptions C17_step.
Print Assumptions C77_acceleration_limit.
Print Assumptions C84_tolerance.
