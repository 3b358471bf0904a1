(** Property theorems: polynomials (C36 - C39). *)
From Coq Require Import Reals Lra Lia List Bool ZArith Arith.
From Coquelicot Require Import Coquelicot.
From Verif Require Import Base PolyModel PolySpec PolyProofs ExtremaProofs.
Import List ListNotations.
Local Open Scope R_scope.

(** C36: evaluate(t, k) is the k-th derivative at t of the polynomial function. *)
Theorem C36_evaluate_is_derivative :
  forall (p : list R) (t : R) (k : nat), is_derive_n (pval p) k t (poly_evaluate p t k).
Proof. exact poly_evaluate_is_derive_n. Qed.
Print Assumptions C36_evaluate_is_derivative.

(** C36: the vector version returns the derivatives 0 .. n-1. *)
Theorem C36_evaluate_vector :
  forall (p : list R) (t : R) (n : nat), (n <= length p)%nat ->
  exists l, poly_evaluate_vec p t n = Some l /\ length l = n /\
    forall k, (k < n)%nat -> is_derive_n (pval p) k t (nth k l 0).
Proof.
  exact (fun p t n H => ex_intro _ (map (poly_evaluate p t) (seq 0 n))
    (conj (poly_evaluate_vec_spec p t n H)
      (conj (eq_trans (map_length _ _) (seq_length _ _))
        (fun k Hk => eq_ind_r (fun v => is_derive_n (pval p) k t v)
           (poly_evaluate_is_derive_n p t k)
           (nth_map_seq (poly_evaluate p t) n k 0 Hk))))).
Qed.
Print Assumptions C36_evaluate_vector.

(** C36: getCoefficients(k) has the length of the polynomial and is the k-th derivative. *)
Theorem C36_get_coefficients :
  forall (p : list R) (k : nat), length (get_coefficients p k) = length p /\
  forall t, is_derive_n (pval p) k t (pval (get_coefficients p k) t).
Proof.
  exact (fun p k => conj (length_get_coefficients p k)
    (fun t => eq_ind_r (fun v => is_derive_n (pval p) k t v)
       (poly_evaluate_is_derive_n p t k) (pval_get_coefficients p k t))).
Qed.
Print Assumptions C36_get_coefficients.

Example C36_example : poly_evaluate [1; 2; 3; 4] 2 2 = 54 /\ poly_evaluate [1; 2; 3; 4] 2 4 = 0.
Proof. split; cbn; lra. Qed.

(** C37: product, sum and scalar multiple. *)
Theorem C37_product :
  forall (p q : list R) (t : R), pval (poly_mul p q) t = pval p t * pval q t.
Proof. exact pval_convolve. Qed.
Print Assumptions C37_product.
Theorem C37_sum :
  forall (p q r : list R) (t : R), poly_add p q = Some r -> pval r t = pval p t + pval q t.
Proof. exact poly_add_pval. Qed.
Theorem C37_sum_defined :
  forall (p q : list R), length p = length q -> exists r, poly_add p q = Some r /\ length r = length p.
Proof. exact poly_add_defined. Qed.
Theorem C37_scalar :
  forall (p : list R) (c t : R), pval (poly_scale p c) t = pval p t * c.
Proof. exact (fun p c t => pval_map_mult c p t). Qed.
Print Assumptions C37_sum.
Example C37_example : poly_mul [1; 1] [1; -1; 2] = [1 * 1; 1 * 1 + -1 * 1; -1 * 1 + 2 * 1; 2 * 1].
Proof. unfold poly_mul, convolve. simpl. repeat (f_equal; try lra). Qed.

(** C38: scaling the time axis and adding an offset. *)
Theorem C38_scale_time :
  forall (p : list R) (b t : R) (k : nat),
  poly_evaluate (poly_scale_time p b) t k = b ^ k * Derive_n (pval p) k (b * t).
Proof.
  exact (fun p b t k => eq_trans (poly_scale_time_evaluate p b t k)
     (f_equal (Rmult (b ^ k)) (poly_evaluate_Derive_n p (b * t) k))).
Qed.
Theorem C38_offset :
  forall (p : list R) (o t : R), p <> [] ->
  poly_evaluate (poly_offset p o) t 0 = pval p t + o /\
  forall k, (0 < k)%nat -> poly_evaluate (poly_offset p o) t k = Derive_n (pval p) k t.
Proof. exact poly_offset_spec. Qed.
Theorem C38_append_coefficients :
  forall (p : list R) (n : nat), (length p <= n)%nat ->
  fst (poly_append_coeffs p n) = true /\ length (snd (poly_append_coeffs p n)) = n /\
  forall t k, poly_evaluate (snd (poly_append_coeffs p n)) t k = poly_evaluate p t k.
Proof. exact poly_append_coeffs_spec. Qed.
(** A smaller number of coefficients is refused and nothing is cut off. *)
Theorem C38_fewer_coefficients :
  forall (p : list R) (n : nat), (n < length p)%nat -> poly_append_coeffs p n = (false, p).
Proof.
  intros p n H. unfold poly_append_coeffs. destruct (Nat.eqb_spec n (length p)); [lia|].
  destruct (Nat.ltb_spec n (length p)); [reflexivity|lia].
Qed.
Print Assumptions C38_fewer_coefficients.
Print Assumptions C38_scale_time.
Print Assumptions C38_offset.
Example C38_example : poly_scale_time [1; 2; 4] 3 = [1; 6; 36] /\ poly_offset [1; 2; 4] 5 = [6; 2; 4].
Proof. split; cbn; repeat f_equal; lra. Qed.

(** C39: extrema of the k-th derivative over [a,b]. *)
Theorem C39_min_max :
  forall (find_roots : list R -> list croot) (p : list R) (a b : R) (k : nat),
  a <= b -> (k < length p)%nat ->
  roots_complete DBL_EPS (find_roots (get_coefficients p (S k))) (Derive_n (pval p) (S k)) a b ->
  (forall t, a <= t <= b -> Rabs (Derive_n (pval p) k t) < DBL_MAX) ->
  exists mn mx, compute_minmax find_roots p a b k = Some (mn, mx) /\
    is_min_on (Derive_n (pval p) k) a b (fst mn) (snd mn) /\
    is_max_on (Derive_n (pval p) k) a b (fst mx) (snd mx).
Proof. exact compute_minmax_spec. Qed.
Print Assumptions C39_min_max.

(** C39: an inverted interval is rejected. *)
Theorem C39_inverted :
  forall find_roots (p : list R) (a b : R) (k : nat), b < a -> compute_minmax find_roots p a b k = None.
Proof. exact compute_minmax_inverted. Qed.

(** The parabola t^2 - 2t on [0,3]: the root finder reports the root 1 of the derivative. *)
Example C39_example :
  let p := [0; -2; 1] in
  let find_roots := fun _ : list R => [(1, 0)] in
  roots_complete DBL_EPS (find_roots (get_coefficients p 1)) (Derive_n (pval p) 1) 0 3 /\
  (forall t, 0 <= t <= 3 -> Rabs (Derive_n (pval p) 0 t) < DBL_MAX) /\
  compute_minmax find_roots p 0 3 0 = Some ((1, -1), (3, 3)).
Proof. exact minmax_example. Qed.
