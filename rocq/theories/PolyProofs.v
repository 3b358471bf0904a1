(** Proofs about the polynomial model. *)
From Coq Require Import Reals Lra Lia List Bool ZArith FunctionalExtensionality.
From Coquelicot Require Import Coquelicot.
From Verif Require Import Base PolyModel PolySpec.
Import ListNotations.
Local Open Scope R_scope.

(* ------------------------------------------------------------------ *)
(** ** The derivative as a coefficient list (proof device) *)

Fixpoint pderiv_from (k : nat) (c : list R) : list R :=
  match c with [] => [] | x :: c' => INR k * x :: pderiv_from (S k) c' end.
Definition pderiv (c : list R) : list R :=
  match c with [] => [] | _ :: c' => pderiv_from 1 c' end.
Fixpoint pderiv_n (n : nat) (c : list R) : list R :=
  match n with O => c | S m => pderiv (pderiv_n m c) end.

Lemma pval_rsum c t : pval c t = rsum (length c) (fun i => nth i c 0 * t ^ i).
Proof.
  induction c; [reflexivity|].
  simpl length. rewrite rsum_S_l. simpl pval. rewrite IHc. simpl nth at 1. simpl pow at 1.
  rewrite Rmult_1_r. f_equal. rewrite <- rsum_scal. apply rsum_ext. intros. simpl. ring.
Qed.

Lemma pval_rsum_ge c t n : (length c <= n)%nat -> pval c t = rsum n (fun i => nth i c 0 * t ^ i).
Proof.
  intros. rewrite pval_rsum.
  replace n with (length c + (n - length c))%nat by lia. rewrite rsum_split.
  rewrite (rsum_zero (n - length c)); [lra|].
  intros. rewrite nth_overflow by lia. lra.
Qed.

Lemma pval_app c d t : pval (c ++ d) t = pval c t + t ^ length c * pval d t.
Proof. induction c; simpl; [lra|]. rewrite IHc. ring. Qed.

Lemma pval_repeat0 n t : pval (repeat 0 n) t = 0.
Proof. induction n; simpl; [auto|rewrite IHn; ring]. Qed.

Lemma length_pderiv_from k c : length (pderiv_from k c) = length c.
Proof. revert k; induction c; simpl; intros; auto. Qed.
Lemma length_pderiv c : length (pderiv c) = (length c - 1)%nat.
Proof. destruct c; simpl; auto. rewrite length_pderiv_from. lia. Qed.
Lemma length_pderiv_n n c : length (pderiv_n n c) = (length c - n)%nat.
Proof. induction n; simpl; [lia|]. rewrite length_pderiv, IHn. lia. Qed.
Lemma nth_pderiv_from k c i : nth i (pderiv_from k c) 0 = INR (k + i) * nth i c 0.
Proof.
  revert k i; induction c; intros; simpl.
  - destruct i; lra.
  - destruct i; [now rewrite Nat.add_0_r|]. rewrite IHc. do 2 f_equal. lia.
Qed.
Lemma nth_pderiv c i : nth i (pderiv c) 0 = INR (S i) * nth (S i) c 0.
Proof.
  destruct c; [destruct i; simpl nth; ring|].
  unfold pderiv. rewrite nth_pderiv_from. reflexivity.
Qed.

Lemma base_coeff_SS n i : base_coeff (S n) (S i) = INR (S i) * base_coeff n i.
Proof.
  revert i; induction n; intros.
  - simpl. destruct i; lra.
  - change (base_coeff (S (S n)) (S i)) with
      (if (S i <? S n)%nat then 0 else (INR (S i) - INR (S n)) * base_coeff (S n) (S i)).
    change (base_coeff (S n) i) with
      (if (i <? n)%nat then 0 else (INR i - INR n) * base_coeff n i).
    replace (S i <? S n)%nat with (i <? n)%nat by reflexivity.
    destruct (i <? n)%nat; [lra|]. rewrite IHn. rewrite !S_INR. ring.
Qed.
Lemma base_coeff_lt n i : (i < n)%nat -> base_coeff n i = 0.
Proof.
  intros. destruct n; [lia|]. simpl. destruct (i <? n)%nat eqn:E; auto.
  apply Nat.ltb_ge in E. assert (i = n) by lia. subst. ring.
Qed.
(** base_coeff n i = i! / (i-n)! *)
Lemma base_coeff_fact n i : (n <= i)%nat -> base_coeff n i * INR (fact (i - n)) = INR (fact i).
Proof.
  revert i; induction n; intros.
  - simpl. rewrite Nat.sub_0_r. ring.
  - destruct i; [lia|]. rewrite base_coeff_SS.
    replace (S i - S n)%nat with (i - n)%nat by lia.
    rewrite Rmult_assoc, IHn by lia.
    change (fact (S i)) with (S i * fact i)%nat. now rewrite mult_INR.
Qed.
Lemma base_coeff_pos n i : (n <= i)%nat -> 0 < base_coeff n i.
Proof.
  intros H. pose proof (base_coeff_fact n i H).
  pose proof (lt_0_INR _ (lt_O_fact i)). pose proof (lt_0_INR _ (lt_O_fact (i - n))).
  nra.
Qed.

(** nth coefficient of the n-th derivative *)
Lemma nth_pderiv_n n c i : nth i (pderiv_n n c) 0 = base_coeff n (n + i) * nth (n + i) c 0.
Proof.
  revert i; induction n; intros; simpl pderiv_n.
  - simpl. lra.
  - rewrite nth_pderiv, IHn. replace (S n + i)%nat with (S (n + i)) by lia.
    replace (n + S i)%nat with (S (n + i)) by lia.
    change (base_coeff (S n) (S (n + i))) with
      (if (S (n + i) <? n)%nat then 0 else (INR (S (n + i)) - INR n) * base_coeff n (S (n + i))).
    replace (S (n + i) <? n)%nat with false by (symmetry; apply Nat.ltb_ge; lia).
    replace (INR (S i)) with (INR (S (n + i)) - INR n); [ring|].
    rewrite !S_INR, plus_INR. ring.
Qed.

Lemma pval_pderiv_from k c t :
  pval (pderiv_from (S k) c) t = pval (pderiv_from k c) t + pval c t.
Proof.
  revert k; induction c; intros; cbn [pderiv_from pval]; [lra|].
  rewrite (IHc (S k)). rewrite S_INR. ring.
Qed.
Lemma pval_pderiv_from_0 c t : pval (pderiv_from 0 c) t = t * pval (pderiv c) t.
Proof. destruct c; simpl; [ring|]. ring. Qed.

Lemma is_derive_pval c t : is_derive (pval c) t (pval (pderiv c) t).
Proof.
  revert t; induction c; intros.
  - apply (@is_derive_const R_AbsRing R_NormedModule 0).
  - replace (pval (pderiv (a :: c)) t) with (0 + (1 * pval c t + t * pval (pderiv c) t)).
    + change (pval (a :: c)) with (fun t0 : R => a + t0 * pval c t0). apply is_derive_Reals.
      change (fun t0 : R => a + t0 * pval c t0) with (plus_fct (fct_cte a) (mult_fct id (pval c))).
      apply derivable_pt_lim_plus; [apply derivable_pt_lim_const|].
      apply derivable_pt_lim_mult; [apply derivable_pt_lim_id|].
      apply is_derive_Reals, IHc.
    + cbn [pderiv]. rewrite pval_pderiv_from, pval_pderiv_from_0. ring.
Qed.
Lemma is_derive_n_pval c n t : is_derive_n (pval c) n t (pval (pderiv_n n c) t).
Proof.
  revert t; induction n; intros; simpl; auto.
  apply is_derive_ext with (f := pval (pderiv_n n c)); [|apply is_derive_pval].
  intros. symmetry. apply is_derive_n_unique. apply IHn.
Qed.
Lemma Derive_n_pval c n t : Derive_n (pval c) n t = pval (pderiv_n n c) t.
Proof. apply is_derive_n_unique, is_derive_n_pval. Qed.
Lemma ex_derive_n_pval c n t : ex_derive_n (pval c) n t.
Proof. destruct n; simpl; auto. eexists. apply (is_derive_n_pval c (S n)). Qed.
Lemma continuous_pval c t : continuous (pval c) t.
Proof. apply (@ex_derive_continuous R_AbsRing R_NormedModule). eexists. apply is_derive_pval. Qed.

(* ------------------------------------------------------------------ *)
(** ** evaluate *)

Lemma eval_loop_rsum p d t cnt acc :
  eval_loop p d t cnt acc =
  rsum cnt (fun i => base_coeff d (d + i) * coef p (d + i) * t ^ i) + acc * t ^ cnt.
Proof.
  revert acc; induction cnt; intros; simpl; [ring|].
  rewrite IHcnt. ring.
Qed.

Lemma poly_evaluate_rsum p t d :
  poly_evaluate p t d =
  rsum (length p - d) (fun i => base_coeff d (d + i) * coef p (d + i) * t ^ i).
Proof.
  unfold poly_evaluate. destruct (Nat.leb_spec (length p) d).
  - replace (length p - d)%nat with O by lia. reflexivity.
  - rewrite eval_loop_rsum.
    replace (length p - d)%nat with (S (length p - 1 - d)) by lia. simpl.
    replace (d + (length p - 1 - d))%nat with (length p - 1)%nat by lia. ring.
Qed.

Lemma poly_evaluate_pderiv_n p t d : poly_evaluate p t d = pval (pderiv_n d p) t.
Proof.
  rewrite poly_evaluate_rsum, pval_rsum, length_pderiv_n.
  apply rsum_ext; intros. rewrite nth_pderiv_n. reflexivity.
Qed.

Lemma poly_evaluate_0 p t : poly_evaluate p t 0 = pval p t.
Proof. apply poly_evaluate_pderiv_n. Qed.

Lemma poly_evaluate_is_derive_n p t d : is_derive_n (pval p) d t (poly_evaluate p t d).
Proof. rewrite poly_evaluate_pderiv_n. apply is_derive_n_pval. Qed.

Lemma poly_evaluate_Derive_n p t d : poly_evaluate p t d = Derive_n (pval p) d t.
Proof. symmetry. apply is_derive_n_unique, poly_evaluate_is_derive_n. Qed.

Lemma is_derive_poly_evaluate p t d :
  is_derive (fun s => poly_evaluate p s d) t (poly_evaluate p t (S d)).
Proof.
  rewrite poly_evaluate_pderiv_n.
  apply is_derive_ext with (f := pval (pderiv_n d p)).
  - intros; symmetry; apply poly_evaluate_pderiv_n.
  - apply is_derive_pval.
Qed.
Lemma continuous_poly_evaluate p t d : continuous (fun s => poly_evaluate p s d) t.
Proof.
  apply (@ex_derive_continuous R_AbsRing R_NormedModule). eexists. apply is_derive_poly_evaluate.
Qed.

Lemma poly_evaluate_vec_spec p t n :
  (n <= length p)%nat ->
  poly_evaluate_vec p t n = Some (map (poly_evaluate p t) (seq 0 n)).
Proof.
  intros. unfold poly_evaluate_vec. replace (n <=? length p)%nat with true
    by (symmetry; apply Nat.leb_le; lia).
  f_equal. apply map_ext_in. intros i Hi. apply in_seq in Hi.
  unfold poly_evaluate. replace (length p <=? i)%nat with false; auto.
  symmetry; apply Nat.leb_gt; lia.
Qed.

(* ------------------------------------------------------------------ *)
(** ** getCoefficients *)

Lemma length_get_coefficients p d : length (get_coefficients p d) = length p.
Proof. destruct d; simpl; auto. rewrite map_length, seq_length. auto. Qed.

Lemma nth_get_coefficients p d i :
  nth i (get_coefficients p d) 0 =
  if (i <? length p - d)%nat then base_coeff d (d + i) * nth (d + i) p 0 else 0.
Proof.
  destruct d.
  - simpl. rewrite Nat.sub_0_r. destruct (Nat.ltb_spec i (length p)); [lra|].
    apply nth_overflow; lia.
  - unfold get_coefficients. destruct (lt_dec i (length p)).
    + rewrite nth_indep with (d' := (fun i0 : nat => if (i0 <? length p - S d)%nat
          then coef p (S d + i0) * base_coeff (S d) (S d + i0) else 0) O)
        by (rewrite map_length, seq_length; lia).
      rewrite map_nth with (d := O). rewrite seq_nth by lia. simpl (0 + i)%nat.
      destruct (i <? length p - S d)%nat; [unfold coef; ring|auto].
    + rewrite nth_overflow by (rewrite map_length, seq_length; lia).
      destruct (Nat.ltb_spec i (length p - S d)); [lia|auto].
Qed.

Lemma get_coefficients_pderiv_n p d :
  get_coefficients p d = pderiv_n d p ++ repeat 0 (length p - (length p - d)).
Proof.
  apply nth_ext with (d := 0) (d' := 0).
  - rewrite length_get_coefficients, app_length, repeat_length, length_pderiv_n. lia.
  - intros i Hi. rewrite nth_get_coefficients.
    destruct (Nat.ltb_spec i (length p - d)).
    + rewrite app_nth1 by (rewrite length_pderiv_n; lia). now rewrite nth_pderiv_n.
    + rewrite app_nth2 by (rewrite length_pderiv_n; lia).
      rewrite length_pderiv_n. symmetry. apply nth_repeat.
Qed.

Lemma pval_get_coefficients p d t : pval (get_coefficients p d) t = poly_evaluate p t d.
Proof.
  rewrite get_coefficients_pderiv_n, pval_app, pval_repeat0, poly_evaluate_pderiv_n. ring.
Qed.
Lemma pval_head_get_coefficients p d t :
  pval (firstn (length p - d) (get_coefficients p d)) t = poly_evaluate p t d.
Proof.
  rewrite get_coefficients_pderiv_n.
  replace (length p - d)%nat with (length (pderiv_n d p)) at 1 by apply length_pderiv_n.
  rewrite firstn_app, Nat.sub_diag, firstn_all, firstn_O, app_nil_r.
  now rewrite poly_evaluate_pderiv_n.
Qed.

(* ------------------------------------------------------------------ *)
(** ** Sum, product *)

Lemma poly_add_pval p q r t : poly_add p q = Some r -> pval r t = pval p t + pval q t.
Proof.
  unfold poly_add. destruct (Nat.eqb_spec (length p) (length q)) as [E|]; [|discriminate].
  intros H; inversion H; clear H; subst.
  revert q E; induction p; destruct q; simpl; intros; try discriminate; [lra|].
  rewrite IHp by lia. ring.
Qed.

Lemma pval_map_mult c l t : pval (map (fun x => x * c) l) t = pval l t * c.
Proof. induction l; simpl; [ring|]. rewrite IHl; ring. Qed.

(** Cauchy product as a proof device. *)
Definition cauchy (d k : list R) (i : nat) : R :=
  rsum (S i) (fun j => nth j d 0 * nth (i - j) k 0).

Lemma nth_convolve d k i :
  (0 < length k)%nat ->
  (i < length d + length k - 1)%nat -> nth i (convolve d k) 0 = cauchy d k i.
Proof.
  intros Hk Hi. unfold convolve.
  set (F := fun i0 : nat => _).
  rewrite nth_indep with (d' := F O) by (rewrite map_length, seq_length; lia).
  rewrite map_nth with (d := O). rewrite seq_nth by lia. simpl (0 + i)%nat. unfold F; clear F.
  set (nd := Z.of_nat (length d)). set (nk := Z.of_nat (length k)).
  unfold cauchy.
  set (lo := Z.max 0 (- (Z.of_nat i - nk + 1))).
  set (hi := Z.min nk (nd - (Z.of_nat i - nk + 1))).
  (* data index a = data_idx + lo ... *)
  set (a := Z.to_nat (Z.of_nat i - nk + 1 + lo)).
  set (n := Z.to_nat (hi - lo)).
  assert (Hn : (a + n <= S i)%nat) by (unfold a, n, lo, hi, nd, nk; lia).
  replace (S i) with (a + (n + (S i - a - n)))%nat by lia.
  rewrite !rsum_split.
  rewrite (rsum_zero a).
  2:{ intros j Hj. rewrite (nth_overflow k); [lra|]. unfold a, lo, nk in Hj. lia. }
  rewrite (rsum_zero (S i - a - n)).
  2:{ intros j Hj. rewrite (nth_overflow d); [lra|].
      unfold a, n, lo, hi, nd, nk in *. lia. }
  rewrite Rplus_0_l, Rplus_0_r. apply rsum_ext. intros j Hj.
  rewrite Rmult_comm. f_equal.
  - f_equal. unfold a, n, lo, hi, nd, nk in *. lia.
  - f_equal. unfold a, n, lo, hi, nd, nk in *. lia.
Qed.

Lemma length_convolve d k : length (convolve d k) = (length d + length k - 1)%nat.
Proof. unfold convolve. now rewrite map_length, seq_length. Qed.

Lemma cauchy_cons x d k i :
  cauchy (x :: d) k i = x * nth i k 0 + match i with O => 0 | S j => cauchy d k j end.
Proof.
  unfold cauchy. rewrite rsum_S_l. simpl nth at 1. rewrite Nat.sub_0_r. f_equal.
  destruct i; [reflexivity|]. apply rsum_ext. intros. reflexivity.
Qed.

Lemma rsum_cauchy d k t n :
  (length d + length k - 1 <= n)%nat -> (0 < length k)%nat ->
  rsum n (fun i => cauchy d k i * t ^ i) = pval d t * pval k t.
Proof.
  revert n; induction d; intros n Hn Hk.
  - simpl pval. rewrite Rmult_0_l. apply rsum_zero. intros. unfold cauchy.
    rewrite rsum_zero; [lra|]. intros j _. destruct j; simpl; lra.
  - simpl pval. simpl length in Hn.
    destruct n as [|n]; [lia|].
    rewrite rsum_ext with (g := fun i => a * (nth i k 0 * t ^ i) +
        match i with O => 0 | S j => cauchy d k j * t ^ S j end).
    2:{ intros. rewrite cauchy_cons. destruct i; simpl; ring. }
    rewrite rsum_plus, rsum_scal, <- pval_rsum_ge by lia.
    rewrite (rsum_S_l n). rewrite Rplus_0_l.
    rewrite rsum_ext with (f := fun i => cauchy d k i * t ^ S i)
      (g := fun i => t * (cauchy d k i * t ^ i)) by (intros; simpl; ring).
    rewrite rsum_scal. rewrite IHd by lia. ring.
Qed.

Lemma pval_convolve d k t : pval (convolve d k) t = pval d t * pval k t.
Proof.
  destruct (Nat.eq_dec (length k) 0) as [E|].
  - destruct k; [|discriminate]. simpl (pval []). rewrite Rmult_0_r.
    rewrite pval_rsum. apply rsum_zero. intros i Hi. rewrite length_convolve in Hi.
    replace (nth i (convolve d []) 0) with 0; [lra|].
    symmetry. unfold convolve. set (F := fun i0 : nat => _).
    rewrite nth_indep with (d' := F O) by (rewrite map_length, seq_length; lia).
    rewrite map_nth with (d := O). unfold F. simpl Z.of_nat.
    apply rsum_zero. intros j Hj. destruct (Z.to_nat (0 - 1 - _)); simpl; lra.
  - rewrite <- (rsum_cauchy d k t (length (convolve d k))) by (rewrite ?length_convolve; lia).
    rewrite pval_rsum. apply rsum_ext. intros i Hi. rewrite length_convolve in Hi.
    rewrite nth_convolve by lia. reflexivity.
Qed.

(* ------------------------------------------------------------------ *)
(** ** Scaling in time, offset, appended coefficients *)

Lemma length_scale_loop p s b : length (scale_loop p s b) = length p.
Proof. revert s; induction p; simpl; intros; auto. Qed.
Lemma length_poly_scale_time p b : length (poly_scale_time p b) = length p.
Proof. apply length_scale_loop. Qed.
Lemma nth_scale_loop p s b i : nth i (scale_loop p s b) 0 = nth i p 0 * (s * b ^ i).
Proof.
  revert s i; induction p; intros; simpl.
  - destruct i; ring.
  - destruct i; simpl; [ring|]. rewrite IHp. ring.
Qed.
Lemma poly_scale_time_evaluate p b t d :
  poly_evaluate (poly_scale_time p b) t d = b ^ d * poly_evaluate p (b * t) d.
Proof.
  rewrite !poly_evaluate_rsum, length_poly_scale_time. rewrite <- rsum_scal.
  apply rsum_ext. intros. unfold coef, poly_scale_time. rewrite nth_scale_loop.
  rewrite Rmult_1_l, pow_add, Rpow_mult_distr. ring.
Qed.

Lemma length_poly_offset p o : length (poly_offset p o) = length p.
Proof. destruct p; reflexivity. Qed.
Lemma poly_offset_evaluate p o t d :
  poly_evaluate (poly_offset p o) t d =
  poly_evaluate p t d + (match p, d with _ :: _, O => o | _, _ => 0 end).
Proof.
  destruct p as [|c p]; [simpl poly_offset; lra|].
  rewrite !poly_evaluate_pderiv_n. destruct d.
  - simpl. ring.
  - rewrite Rplus_0_r. f_equal.
    assert (E : forall n c c' q, pderiv_n (S n) (c :: q) = pderiv_n (S n) (c' :: q)).
    { clear. induction n; intros; [reflexivity|].
      change (pderiv (pderiv_n (S n) (c :: q)) = pderiv (pderiv_n (S n) (c' :: q))).
      f_equal; auto. }
    apply E.
Qed.

Lemma poly_append_coeffs_evaluate p n t d :
  poly_evaluate (snd (poly_append_coeffs p n)) t d = poly_evaluate p t d.
Proof.
  unfold poly_append_coeffs. destruct (n =? length p)%nat; [reflexivity|].
  destruct (n <? length p)%nat; [reflexivity|]. simpl.
  rewrite !poly_evaluate_rsum, app_length, repeat_length.
  replace (length p + (n - length p) - d)%nat with
    ((length p - d) + (length p + (n - length p) - d - (length p - d)))%nat by lia.
  rewrite rsum_split.
  rewrite (rsum_zero (_ - _ - _)).
  - rewrite Rplus_0_r. apply rsum_ext. intros. unfold coef. rewrite app_nth1 by lia. reflexivity.
  - intros. unfold coef. rewrite app_nth2 by lia. rewrite nth_repeat. ring.
Qed.

Lemma poly_append_coeffs_length p n :
  (length p <= n)%nat -> poly_append_coeffs p n = (true, snd (poly_append_coeffs p n)) /\
  length (snd (poly_append_coeffs p n)) = n.
Proof.
  intros. unfold poly_append_coeffs. destruct (Nat.eqb_spec n (length p)); [simpl; auto|].
  destruct (Nat.ltb_spec n (length p)); [lia|]. simpl. rewrite app_length, repeat_length.
  split; [auto|lia].
Qed.

(* ------------------------------------------------------------------ *)
(** ** baseCoeffsWithTime *)

Definition dot (u v : list R) : R := rsum (length u) (fun i => nth i u 0 * nth i v 0).

Lemma base_coeffs_with_time_nth N d t l j :
  base_coeffs_with_time N d t = Some l -> (j < N)%nat ->
  (t = 0 \/ DBL_EPS <= Rabs t) ->
  nth j l 0 = if (j <? d)%nat then 0 else base_coeff d j * t ^ (j - d).
Proof.
  unfold base_coeffs_with_time. destruct (Nat.ltb_spec d N); [|discriminate].
  intros E Hj Ht. inversion E; clear E; subst l.
  set (F := fun j0 : nat => _).
  rewrite nth_indep with (d' := F O) by (rewrite map_length, seq_length; lia).
  rewrite map_nth with (d := O). rewrite seq_nth by lia. simpl (0 + j)%nat. unfold F; clear F.
  destruct (Nat.eqb_spec j d).
  - subst. rewrite Nat.ltb_irrefl, Nat.sub_diag. simpl. ring.
  - rcase.
    + destruct Ht as [->|]; [|lra]. destruct (Nat.ltb_spec j d); [auto|].
      replace (j - d)%nat with (S (j - d - 1)) by lia. simpl. ring.
    + reflexivity.
Qed.

Lemma base_coeffs_with_time_length N d t l :
  base_coeffs_with_time N d t = Some l -> length l = N.
Proof.
  unfold base_coeffs_with_time. destruct (d <? N)%nat; [|discriminate].
  intros E; inversion E. now rewrite map_length, seq_length.
Qed.

Lemma base_coeffs_with_time_dot p d t l :
  base_coeffs_with_time (length p) d t = Some l ->
  (t = 0 \/ DBL_EPS <= Rabs t) ->
  rsum (length p) (fun j => nth j l 0 * nth j p 0) = poly_evaluate p t d.
Proof.
  intros E Ht.
  assert (Hd : (d < length p)%nat).
  { unfold base_coeffs_with_time in E. destruct (Nat.ltb_spec d (length p)); [auto|discriminate]. }
  rewrite poly_evaluate_rsum.
  replace (length p) with (d + (length p - d))%nat at 1 by lia. rewrite rsum_split.
  rewrite rsum_zero, Rplus_0_l.
  - apply rsum_ext. intros i Hi.
    rewrite (base_coeffs_with_time_nth _ _ _ _ _ E) by (auto; lia).
    destruct (Nat.ltb_spec (d + i) d); [lia|].
    replace (d + i - d)%nat with i by lia. unfold coef. ring.
  - intros i Hi. rewrite (base_coeffs_with_time_nth _ _ _ _ _ E) by (auto; lia).
    destruct (Nat.ltb_spec i d); [ring|lia].
Qed.

(* ------------------------------------------------------------------ *)
(** ** Statements in the form used by the property files *)

Lemma nth_map_seq (f : nat -> R) n k d : (k < n)%nat -> nth k (map f (seq 0 n)) d = f k.
Proof.
  intros. rewrite nth_indep with (d' := f 0%nat) by (rewrite map_length, seq_length; auto).
  rewrite map_nth. now rewrite seq_nth.
Qed.
Lemma poly_add_defined p q : length p = length q ->
  exists r, poly_add p q = Some r /\ length r = length p.
Proof.
  intros E. unfold poly_add. rewrite E, Nat.eqb_refl. eexists. split; [reflexivity|].
  rewrite map_length, combine_length. lia.
Qed.
Lemma poly_offset_spec p o t : p <> [] ->
  poly_evaluate (poly_offset p o) t 0 = pval p t + o /\
  forall k, (0 < k)%nat -> poly_evaluate (poly_offset p o) t k = Derive_n (pval p) k t.
Proof.
  intros Hp. split.
  - rewrite poly_offset_evaluate, poly_evaluate_0. destruct p; [congruence|]. reflexivity.
  - intros k Hk. rewrite poly_offset_evaluate, poly_evaluate_Derive_n.
    destruct k; [lia|]. destruct p; lra.
Qed.
Lemma poly_append_coeffs_spec p n : (length p <= n)%nat ->
  fst (poly_append_coeffs p n) = true /\ length (snd (poly_append_coeffs p n)) = n /\
  forall t k, poly_evaluate (snd (poly_append_coeffs p n)) t k = poly_evaluate p t k.
Proof.
  intros H. destruct (poly_append_coeffs_length p n H) as [E1 E2].
  split; [rewrite E1; reflexivity|]. split; auto. intros; apply poly_append_coeffs_evaluate.
Qed.
