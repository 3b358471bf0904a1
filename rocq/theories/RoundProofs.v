(** Rounding errors of the evaluation of polynomials in double precision. *)
From Coq Require Import String Reals List ZArith Arith Lra Lia Psatz.
From Flocq Require Import Core Relative Plus_error.
From Coquelicot Require Import Coquelicot.
From Verif Require Import Base PolyModel PolySpec PolyProofs VertexModel TrajModel IoModel FloatProofs DoubleProofs RoundModel.
Import List ListNotations.
Local Open Scope R_scope.
Set Bullet Behavior "Strict Subproofs".

(** Half the smallest positive double. *)
Definition eta : R := bpow radix2 (-1075).
Lemma eta_pos : 0 < eta.
Proof. apply bpow_gt_0. Qed.
Lemma eps_val : 0 < eps <= / 9007199254740992.
Proof. unfold eps. lra. Qed.

Lemma double64_err x : Rabs (double64 x - x) <= eps * Rabs x + eta.
Proof.
  destruct (error_N_FLT radix2 (-1074) 53 ltac:(lia) (fun x => negb (Z.even x)) x) as (d & h & Hd & Hh & _ & E).
  change (round radix2 (FLT_exp (-1074) 53) (Znearest (fun x => negb (Z.even x))) x) with (double64 x) in E.
  rewrite E. replace (x * (1 + d) + h - x) with (d * x + h) by ring.
  eapply Rle_trans; [apply Rabs_triang|]. rewrite Rabs_mult.
  assert (A : / 2 * bpow radix2 (-53 + 1) = eps).
  { rewrite <- bpow_eps. change (/ 2) with (bpow radix2 (-1)). rewrite <- bpow_plus. reflexivity. }
  assert (B : / 2 * bpow radix2 (-1074) = eta).
  { change (/ 2) with (bpow radix2 (-1)). rewrite <- bpow_plus. reflexivity. }
  assert (Hd' : Rabs d <= eps) by (rewrite <- A; exact Hd).
  assert (Hh' : Rabs h <= eta) by (rewrite <- B; exact Hh). apply Rplus_le_compat; auto.
  apply Rmult_le_compat_r; auto using Rabs_pos.
Qed.
Local Instance prec53 : Prec_gt_0 53 := eq_refl.
(** A sum of two doubles has no underflow error. *)
Lemma double64_plus_err x y : is_double x -> is_double y ->
  Rabs (double64 (x + y) - (x + y)) <= eps * Rabs (x + y).
Proof.
  intros Hx Hy.
  destruct (FLT_plus_error_N_ex radix2 (-1074) 53 (fun x => negb (Z.even x)) x y Hx Hy) as (d & Hd & E).
  change (round radix2 (FLT_exp (-1074) 53) (Znearest (fun x => negb (Z.even x))) (x + y)) with (double64 (x + y)) in E.
  rewrite E. replace ((x + y) * (1 + d) - (x + y)) with (d * (x + y)) by ring.
  rewrite Rabs_mult. apply Rmult_le_compat_r; auto using Rabs_pos.
  eapply Rle_trans; [exact Hd|].
  assert (U : u_ro radix2 53 = eps).
  { unfold u_ro. rewrite <- bpow_eps. change (/ 2) with (bpow radix2 (-1)). rewrite <- bpow_plus. reflexivity. }
  rewrite U. pose proof eps_val. apply Rmult_le_reg_r with (1 + eps); [lra|]. unfold Rdiv.
  rewrite Rmult_assoc, Rinv_l by lra. nra.
Qed.

(* ------------------------------------------------------------------ *)
(** ** The table of derivative factors *)

Fixpoint table_z (n i : nat) : Z :=
  match n with
  | O => 1
  | S m => if (i <? m)%nat then 0 else (Z.of_nat i - Z.of_nat m) * table_z m i
  end.
(** [z] = odd part times a power of two, both small. *)
Fixpoint odd_part (k : nat) (z : Z) : Z :=
  match k with O => z | S k' => if Z.even z then odd_part k' (Z.div2 z) else z end.
Definition fits (z : Z) : bool := (Z.abs (odd_part 60 z) <? 2 ^ 53)%Z.
Lemma odd_part_spec k : forall z, exists j, z = (odd_part k z * 2 ^ Z.of_nat j)%Z.
Proof.
  induction k as [|k IH]; intros z; cbn [odd_part].
  - exists O. cbn. lia.
  - destruct (Z.even z) eqn:E.
    + destruct (IH (Z.div2 z)) as [j Hj]. exists (S j). rewrite Nat2Z.inj_succ, Z.pow_succ_r by lia.
      pose proof (Zdiv2_odd_eqn z) as Q. rewrite <- Z.negb_even, E in Q. cbn [negb] in Q. nia.
    + exists O. cbn. lia.
Qed.
Lemma fits_double z : fits z = true -> is_double (IZR z).
Proof.
  intros H. unfold fits in H. apply Z.ltb_lt in H. destruct (odd_part_spec 60 z) as [j Hj].
  rewrite Hj. rewrite mult_IZR. pose proof (double_small_multiple (odd_part 60 z) (- Z.of_nat j) H ltac:(lia)) as D.
  rewrite Z.opp_involutive in D. change 2%Z with (radix_val radix2). now rewrite IZR_Zpower by lia.
Qed.
Lemma table_fits : forallb (fun n => forallb (fun i => fits (table_z n i)) (seq 0 22)) (seq 0 22) = true.
Proof. vm_compute. reflexivity. Qed.
Lemma table_exact_z n i : (n <= 21)%nat -> (i <= 21)%nat -> table_r double64 n i = IZR (table_z n i).
Proof.
  intros Hn Hi. induction n as [|n IH]; [reflexivity|]. cbn [table_r table_z].
  destruct (i <? n)%nat eqn:E; [reflexivity|]. rewrite IH by lia. rewrite <- mult_IZR. apply double64_id.
  pose proof table_fits as F. rewrite forallb_forall in F. specialize (F (S n)).
  rewrite in_seq in F. specialize (F ltac:(lia)). rewrite forallb_forall in F. specialize (F i).
  rewrite in_seq in F. specialize (F ltac:(lia)). cbn [table_z] in F. rewrite E in F. now apply fits_double.
Qed.
Lemma base_coeff_z n i : base_coeff n i = IZR (table_z n i).
Proof.
  induction n as [|n IH]; [reflexivity|]. cbn [base_coeff table_z]. destruct (i <? n)%nat; [reflexivity|].
  rewrite mult_IZR, minus_IZR, <- !INR_IZR_INZ, <- IH. reflexivity.
Qed.
Lemma table_exact n i : (n <= 21)%nat -> (i <= 21)%nat -> table_r double64 n i = base_coeff n i.
Proof. intros. now rewrite table_exact_z, base_coeff_z. Qed.
Lemma base_coeff_nonneg n i : 0 <= base_coeff n i.
Proof.
  induction n as [|n IH]; cbn [base_coeff]; [lra|]. destruct (Nat.ltb_spec i n); [lra|].
  apply Rmult_le_pos; auto. assert (INR n <= INR i) by (apply le_INR; lia). lra.
Qed.

(* ------------------------------------------------------------------ *)
(** ** Horner's scheme *)

Fixpoint powers (k : nat) (t : R) : R := match k with O => 1 | S k' => t * powers k' t + 1 end.
Lemma powers_pos k t : 0 <= t -> 1 <= powers k t.
Proof. intros H. induction k; cbn; [lra|nra]. Qed.

Definition growth (k : nat) : R := (1 + eps) ^ k - 1.
Lemma growth_S k : growth (S k) = (1 + eps) * (1 + growth k) - 1.
Proof. unfold growth. cbn. ring. Qed.
Lemma growth_nonneg k : 0 <= growth k.
Proof. unfold growth. pose proof (pow_R1_Rle (1 + eps) k). pose proof eps_val. lra. Qed.
Lemma growth_quad k : INR k * eps <= 1 -> growth k <= INR k * eps + (INR k * eps) ^ 2.
Proof.
  pose proof eps_val as [E0 E1]. induction k as [|k IH]; intros H.
  - unfold growth. cbn. lra.
  - rewrite growth_S. rewrite S_INR in *. pose proof (pos_INR k). pose proof (growth_nonneg k).
    assert (Hk : INR k * eps <= 1) by nra. specialize (IH Hk).
    set (a := INR k * eps) in *. replace ((INR k + 1) * eps) with (a + eps) in * by (unfold a; ring).
    assert (0 <= a) by (unfold a; nra). clearbody a.
    assert (eps * growth k <= eps * (a + a ^ 2)) by (apply Rmult_le_compat_l; lra).
    assert (eps * a ^ 2 <= eps * a) by (apply Rmult_le_compat_l; nra).
    replace ((a + eps) ^ 2) with (a ^ 2 + 2 * (eps * a) + eps * eps) by ring.
    assert (0 <= eps * eps) by nra. lra.
Qed.
Lemma growth_le k : (Z.of_nat k <= 1000000)%Z -> growth k <= INR (S k) * eps.
Proof.
  intros H. pose proof eps_val as [E0 E1]. pose proof (pos_INR k).
  assert (B : INR k <= 1000000). { rewrite INR_IZR_INZ. now apply IZR_le. }
  assert (C : INR k * eps <= / 9000000000) by nra.
  eapply Rle_trans; [apply growth_quad; lra|]. rewrite S_INR.
  assert ((INR k * eps) * INR k <= 1) by nra. nra.
Qed.

(** One round of the loop. *)
Lemma horner_step t a A S g h P b B T :
  Rabs (a - A) <= g * S + h * P -> Rabs A <= S -> Rabs t <= T -> Rabs b <= B -> 0 <= g -> 0 <= h -> 0 <= P ->
  Rabs (double64 (double64 (a * t) + double64 b) - (A * t + b)) <=
  ((1 + eps) * ((1 + eps) * (1 + g)) - 1) * (S * T + B) + ((1 + eps) * (1 + eps) * h * (T * P) + 7 / 2 * eta).
Proof.
  intros H HA HT HB Hg Hh HP. pose proof eps_val as [E0 E1]. pose proof eta_pos as N0.
  pose proof (Rabs_pos t) as Pt. pose proof (Rabs_pos A) as PA. pose proof (Rabs_pos b) as Pb.
  pose proof (double64_err (a * t)) as H1. pose proof (double64_err b) as H2.
  pose proof (double64_err (double64 (a * t) + double64 b)) as H3.
  rewrite Rabs_mult in H1.
  assert (D : Rabs (a - A) * T <= (g * S + h * P) * T) by (apply Rmult_le_compat_r; lra).
  assert (Aa : Rabs a <= Rabs A + Rabs (a - A)).
  { replace a with (A + (a - A)) at 1 by ring. apply Rabs_triang. }
  (* error of the product *)
  assert (F1 : Rabs (double64 (a * t) - A * t) <=
    ((1 + eps) * (1 + g) - 1) * (S * T) + (1 + eps) * h * (T * P) + eta).
  { replace (double64 (a * t) - A * t) with ((double64 (a * t) - a * t) + (a - A) * t) by ring.
    eapply Rle_trans; [apply Rabs_triang|]. rewrite Rabs_mult.
    assert (X1 : Rabs (a - A) * Rabs t <= Rabs (a - A) * T) by (apply Rmult_le_compat_l; auto using Rabs_pos).
    assert (X2 : Rabs a * Rabs t <= (S + (g * S + h * P)) * T).
    { apply Rmult_le_compat; auto using Rabs_pos. lra. }
    assert (X3 : eps * (Rabs a * Rabs t) <= eps * ((S + (g * S + h * P)) * T)) by (apply Rmult_le_compat_l; lra).
    eapply Rle_trans.
    - apply Rplus_le_compat; [exact H1|exact (Rle_trans _ _ _ X1 D)].
    - eapply Rle_trans. { apply Rplus_le_compat_r, Rplus_le_compat_r. exact X3. }
      apply Req_le. ring. }
  (* error of the sum before its rounding *)
  set (x := double64 (a * t) + double64 b) in *.
  assert (F2 : Rabs (x - (A * t + b)) <=
    ((1 + eps) * (1 + g) - 1) * (S * T) + (1 + eps) * h * (T * P) + eps * B + 2 * eta).
  { replace (x - (A * t + b)) with ((double64 (a * t) - A * t) + (double64 b - b)) by (unfold x; ring).
    eapply Rle_trans; [apply Rabs_triang|].
    assert (eps * Rabs b <= eps * B) by (apply Rmult_le_compat_l; lra). lra. }
  assert (F3 : Rabs (A * t + b) <= S * T + B).
  { eapply Rle_trans; [apply Rabs_triang|]. rewrite Rabs_mult.
    assert (Rabs A * Rabs t <= S * T) by (apply Rmult_le_compat; lra). lra. }
  assert (F4 : Rabs x <= Rabs (A * t + b) + Rabs (x - (A * t + b))).
  { replace x with ((A * t + b) + (x - (A * t + b))) at 1 by ring. apply Rabs_triang. }
  replace (double64 x - (A * t + b)) with ((double64 x - x) + (x - (A * t + b))) by ring.
  eapply Rle_trans; [apply Rabs_triang|].
  set (U := Rabs (x - (A * t + b))) in *. set (W := S * T) in *. set (Z := h * (T * P)).
  replace ((1 + eps) * h * (T * P)) with ((1 + eps) * Z) in * by (unfold Z; ring).
  replace ((1 + eps) * (1 + eps) * h * (T * P)) with ((1 + eps) * (1 + eps) * Z) by (unfold Z; ring).
  assert (eps * Rabs x <= eps * ((W + B) + U)) by (apply Rmult_le_compat_l; lra).
  assert (G : U * (1 + eps) <= (((1 + eps) * (1 + g) - 1) * W + (1 + eps) * Z + eps * B + 2 * eta) * (1 + eps))
    by (apply Rmult_le_compat_r; lra).
  assert (WB : 0 <= (1 + eps) * (1 + eps) * g * B) by (repeat apply Rmult_le_pos; lra).
  assert (eps * (2 * eta) <= / 2 * eta) by nra.
  replace (((1 + eps) * ((1 + eps) * (1 + g)) - 1) * (W + B)) with
    ((((1 + eps) * (1 + g) - 1) * W) * (1 + eps) + eps * W + ((1 + eps) * (1 + eps) - 1) * B + (1 + eps) * (1 + eps) * g * B) by ring.
  lra.
Qed.

Lemma coef_abs p i : coef (map Rabs p) i = Rabs (coef p i).
Proof. unfold coef. rewrite <- Rabs_R0 at 1. apply map_nth. Qed.
Definition floor (k : nat) : R := 7 / 2 * eta * (1 + eps) ^ k.
Lemma loop_err p d t : (d <= 21)%nat -> forall cnt k acc A S, (d + cnt <= 22)%nat ->
  Rabs (acc - A) <= growth (2 * k + 1) * S + floor (2 * k) * powers k (Rabs t) -> Rabs A <= S ->
  Rabs (eval_loop_r double64 p d t cnt acc - eval_loop p d t cnt A) <=
    growth (2 * (cnt + k) + 1) * eval_loop (map Rabs p) d (Rabs t) cnt S +
    floor (2 * (cnt + k)) * powers (cnt + k) (Rabs t) /\
  Rabs (eval_loop p d t cnt A) <= eval_loop (map Rabs p) d (Rabs t) cnt S.
Proof.
  intros Hd. induction cnt as [|c IH]; intros k acc A S Hc He HA; [split; assumption|].
  cbn [eval_loop_r eval_loop]. replace (Datatypes.S c + k)%nat with (c + Datatypes.S k)%nat by lia.
  rewrite table_exact by lia. rewrite coef_abs.
  pose proof (base_coeff_nonneg d (d + c)) as B0. pose proof eps_val as [E0 E1]. pose proof eta_pos as N0.
  apply IH; [lia| |].
  - pose proof (horner_step t acc A S _ _ _ (base_coeff d (d + c) * coef p (d + c))
      (base_coeff d (d + c) * Rabs (coef p (d + c))) (Rabs t) He HA (Rle_refl _)) as Q.
    rewrite Rabs_mult, (Rabs_pos_eq (base_coeff d (d + c))) in Q by exact B0.
    pose proof (powers_pos k (Rabs t) (Rabs_pos t)) as PP.
    assert (F0 : 0 <= floor (2 * k)).
    { unfold floor. assert (1 <= (1 + eps) ^ (2 * k)) by (apply pow_R1_Rle; lra). nra. }
    specialize (Q (Rle_refl _) (growth_nonneg _) F0 ltac:(lra)).
    eapply Rle_trans; [exact Q|].
    replace (2 * Datatypes.S k + 1)%nat with (Datatypes.S (Datatypes.S (2 * k + 1))) by lia.
    replace (2 * Datatypes.S k)%nat with (Datatypes.S (Datatypes.S (2 * k))) by lia.
    rewrite (growth_S (Datatypes.S (2 * k + 1))), (growth_S (2 * k + 1)).
    replace (1 + ((1 + eps) * (1 + growth (2 * k + 1)) - 1)) with ((1 + eps) * (1 + growth (2 * k + 1))) by ring.
    apply Rplus_le_compat_l. cbn [powers].
    assert (FS : floor (Datatypes.S (Datatypes.S (2 * k))) = (1 + eps) * (1 + eps) * floor (2 * k)) by (unfold floor; cbn [pow]; ring).
    rewrite FS.
    assert (G : 7 / 2 * eta <= (1 + eps) * (1 + eps) * floor (2 * k)).
    { rewrite <- FS. unfold floor. rewrite <- (Rmult_1_r (7 / 2 * eta)) at 1.
      apply Rmult_le_compat_l; [lra|]. apply pow_R1_Rle. lra. }
    lra.
  - eapply Rle_trans; [apply Rabs_triang|]. rewrite !Rabs_mult, (Rabs_pos_eq (base_coeff _ _)) by exact B0.
    apply Rplus_le_compat_r. apply Rmult_le_compat_r; auto using Rabs_pos.
Qed.

Lemma evaluate_err p t d : (d < length p <= 22)%nat ->
  Rabs (poly_evaluate_r double64 p t d - poly_evaluate p t d) <=
  2 * INR (length p - d) * eps * poly_evaluate (map Rabs p) (Rabs t) d + 4 * eta * powers (length p - 1 - d) (Rabs t).
Proof.
  intros H. unfold poly_evaluate_r, poly_evaluate. rewrite map_length.
  destruct (Nat.leb_spec (length p) d); [lia|]. set (n := length p) in *.
  rewrite table_exact by lia. rewrite coef_abs. pose proof (base_coeff_nonneg d (n - 1)) as B0.
  pose proof eps_val as [E0 E1]. pose proof eta_pos as N0.
  destruct (loop_err p d t ltac:(lia) (n - 1 - d) 0 (double64 (base_coeff d (n - 1) * coef p (n - 1)))
    (base_coeff d (n - 1) * coef p (n - 1)) (base_coeff d (n - 1) * Rabs (coef p (n - 1)))) as [Q Z].
  - lia.
  - eapply Rle_trans; [apply double64_err|]. rewrite Rabs_mult, (Rabs_pos_eq (base_coeff _ _)) by exact B0.
    unfold growth, floor. cbn [powers pow Nat.mul Nat.add]. lra.
  - rewrite Rabs_mult, (Rabs_pos_eq (base_coeff _ _)) by exact B0. lra.
  - rewrite Nat.add_0_r in Q. set (k := (n - 1 - d)%nat) in *.
    set (S := eval_loop (map Rabs p) d (Rabs t) k (base_coeff d (n - 1) * Rabs (coef p (n - 1)))) in *.
    assert (S0 : 0 <= S) by (eapply Rle_trans; [apply Rabs_pos|exact Z]).
    pose proof (powers_pos k (Rabs t) (Rabs_pos t)) as PP.
    eapply Rle_trans; [exact Q|]. apply Rplus_le_compat.
    + apply Rmult_le_compat_r; auto. eapply Rle_trans; [apply growth_le; lia|]. apply Req_le.
      replace (Datatypes.S (2 * k + 1)) with (2 * (n - d))%nat by (unfold k; lia). rewrite mult_INR.
      change (INR 2) with 2. reflexivity.
    + apply Rmult_le_compat_r; [lra|]. unfold floor.
      assert (G : growth (2 * k) <= INR (Datatypes.S (2 * k)) * eps) by (apply growth_le; lia).
      assert (I : INR (Datatypes.S (2 * k)) <= 100).
      { replace 100 with (INR 100) by (rewrite INR_IZR_INZ; reflexivity). apply le_INR. lia. }
      unfold growth in G. assert ((1 + eps) ^ (2 * k) <= 8 / 7) by nra. nra.
Qed.
