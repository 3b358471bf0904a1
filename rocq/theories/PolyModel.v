(** Model of mav_trajectory_generation::Polynomial.

    Source: MTG/include/mav_trajectory_generation/polynomial.h and
    MTG/src/polynomial.cpp (MTG = /repo/subpackages/mav_trajectory_generation).

    A polynomial is its vector of coefficients in increasing powers
    (polynomial.h:88-90); [N_] is the length of the vector (polynomial.h:52-61;
    the constructors make N_ and the vector size agree). *)
From Coq Require Import Reals Lra Lia List Bool ZArith.
From Verif Require Import Base.
Import ListNotations.
Local Open Scope R_scope.

Definition poly := list R.

(** [Polynomial(int N)] - polynomial.h:52: all coefficients zero. *)
Definition poly_zero (N : nat) : poly := repeat 0 N.

(** Coefficient access [coefficients_[i]]. *)
Definition coef (p : poly) (i : nat) : R := nth i p 0.

(** Entry (n,i) of the matrix of computeBaseCoefficients - polynomial.cpp:145-160.
    In the iteration for row n the loop variable [order] is DEG-(n-1), so the
    inner loop starts at column n-1 and multiplies by i-(n-1); columns before
    that keep the value 0 of setZero.  The C++ table has 22 rows and columns
    (polynomial.h:47); the model does not bound the indices. *)
Fixpoint base_coeff (n i : nat) : R :=
  match n with
  | O => 1
  | S m => if (i <? m)%nat then 0 else (INR i - INR m) * base_coeff m i
  end.

(** getCoefficients - polynomial.h:98-113 (CHECK_LE(derivative, N_) omitted:
    callers in the model pass derivative <= N). *)
Definition get_coefficients (p : poly) (d : nat) : list R :=
  let N := length p in
  match d with
  | O => p
  | S _ => map (fun i => if (i <? N - d)%nat
                         then coef p (d + i) * base_coeff d (d + i) else 0)
               (seq 0 N)
  end.

(** The loop [for (j = tmp-1; j >= derivative; --j)] of evaluate -
    polynomial.h:126-129 and 144-147; [cnt] iterations remain, the next index
    is d + cnt - 1. *)
Fixpoint eval_loop (p : poly) (d : nat) (t : R) (cnt : nat) (acc : R) : R :=
  match cnt with
  | O => acc
  | S c => eval_loop p d t c (acc * t + base_coeff d (d + c) * coef p (d + c))
  end.

(** evaluate(t, derivative) - polynomial.h:136-149. *)
Definition poly_evaluate (p : poly) (t : R) (d : nat) : R :=
  let N := length p in
  if (N <=? d)%nat then 0
  else let tmp := (N - 1)%nat in
       eval_loop p d t (tmp - d) (base_coeff d tmp * coef p tmp).

(** evaluate(t, result) - polynomial.h:118-132, [n] = result->size().
    CHECK_LE(n, N) is the [None] outcome. *)
Definition poly_evaluate_vec (p : poly) (t : R) (n : nat) : option (list R) :=
  let N := length p in
  if (n <=? N)%nat then
    Some (map (fun i => let tmp := (N - 1)%nat in
                        eval_loop p i t (tmp - i) (base_coeff i tmp * coef p tmp))
              (seq 0 n))
  else None.

(** operator+ - polynomial.h:71-73.  Eigen requires equal sizes: [None] otherwise. *)
Definition poly_add (p q : poly) : option poly :=
  if (length p =? length q)%nat
  then Some (map (fun xy => fst xy + snd xy) (combine p q)) else None.

(** operator*(double) - polynomial.h:84-86. *)
Definition poly_scale (p : poly) (c : R) : poly := map (fun x => x * c) p.

(** convolve - polynomial.cpp:162-180.  Index arithmetic in Z as in the code;
    [kernel_reverse[k] = kernel[size-1-k]]. *)
Definition convolve (data kernel : list R) : list R :=
  let nd := Z.of_nat (length data) in
  let nk := Z.of_nat (length kernel) in
  map (fun i =>
         let data_idx := (Z.of_nat i - nk + 1)%Z in
         let lower := Z.max 0 (- data_idx) in
         let upper := Z.min nk (nd - data_idx) in
         rsum (Z.to_nat (upper - lower))
              (fun j => let kernel_idx := (lower + Z.of_nat j)%Z in
                        nth (Z.to_nat (nk - 1 - kernel_idx)) kernel 0 *
                        nth (Z.to_nat (data_idx + kernel_idx)) data 0))
      (seq 0 (length data + length kernel - 1)).

(** operator* - polynomial.h:79-81. *)
Definition poly_mul (p q : poly) : poly := convolve p q.

(** getPolynomialWithAppendedCoefficients - polynomial.cpp:182-197:
    return value and new polynomial. *)
Definition poly_append_coeffs (p : poly) (new_N : nat) : bool * poly :=
  let N := length p in
  if (new_N =? N)%nat then (true, p)
  else if (new_N <? N)%nat then (false, p)
  else (true, p ++ repeat 0 (new_N - N)).

(** scalePolynomialInTime - polynomial.cpp:199-205; [scale] is the loop
    variable, multiplied by the factor after each coefficient. *)
Fixpoint scale_loop (p : poly) (scale b : R) : poly :=
  match p with
  | [] => []
  | c :: q => c * scale :: scale_loop q (scale * b) b
  end.
Definition poly_scale_time (p : poly) (b : R) : poly := scale_loop p 1 b.

(** offsetPolynomial - polynomial.cpp:207-211. *)
Definition poly_offset (p : poly) (o : R) : poly :=
  match p with [] => [] | c :: q => (c + o) :: q end.

(** baseCoeffsWithTime - polynomial.h:201-219.  The two CHECKs are [None].
    [t_power] starts at t for index derivative+1 and is multiplied by t. *)
Definition base_coeffs_with_time (N d : nat) (t : R) : option (list R) :=
  if (d <? N)%nat then
    Some (map (fun j =>
                 if (j =? d)%nat then base_coeff d d
                 else if Rltb (Rabs t) DBL_EPS then 0
                 else if (j <? d)%nat then 0
                 else base_coeff d j * t ^ (j - d))
              (seq 0 N))
  else None.

(* ------------------------------------------------------------------ *)
(** ** Extrema *)

(** A complex root is a pair (real, imaginary). *)
Definition croot := (R * R)%type.

(** selectMinMaxCandidatesFromRoots - polynomial.cpp:32-63; [None] = returns
    false (candidates untouched). *)
Definition select_candidates_from_roots (a b : R) (roots : list croot) : option (list R) :=
  if Rltb b a then None
  else Some (a :: b ::
       map fst (filter (fun z => negb (Rltb DBL_EPS (Rabs (snd z))) &&
                                 negb (Rltb (fst z) a || Rltb b (fst z))) roots)).

(** computeMinMaxCandidates - polynomial.cpp:65-83, with the derivative order
    of the polynomial whose roots are sought, [k] = derivative+1 (the C++ code
    is called with derivative = -1, i.e. k = 0, by Segment).  [find_roots] is
    findRootsJenkinsTraub (an oracle: coefficients to the roots it stores; when
    it returns false the vector stays empty, rpoly_ak1.cpp:70-117). *)
Definition compute_candidates (find_roots : list R -> list croot)
    (p : poly) (a b : R) (k : nat) : option (list R) :=
  if (length p <? k)%nat then None
  else select_candidates_from_roots a b (find_roots (get_coefficients p k)).

(** One iteration of the loop of selectMinMaxFromCandidates - polynomial.cpp:131-141. *)
Definition minmax_step (p : poly) (d : nat) (acc : (R * R) * (R * R)) (t : R) :
  (R * R) * (R * R) :=
  let '(mn, mx) := acc in
  let v := poly_evaluate p t d in
  ((if Rltb v (snd mn) then (t, v) else mn),
   (if Rltb (snd mx) v then (t, v) else mx)).

(** selectMinMaxFromCandidates - polynomial.cpp:116-143: pairs (time, value)
    of minimum and maximum. *)
Definition select_minmax_from_candidates (p : poly) (cands : list R) (d : nat) :
  option ((R * R) * (R * R)) :=
  match cands with
  | [] => None
  | c0 :: _ => Some (fold_left (minmax_step p d) cands ((c0, DBL_MAX), (c0, - DBL_MAX)))
  end.

(** computeMinMax - polynomial.cpp:102-114. *)
Definition compute_minmax (find_roots : list R -> list croot) (p : poly) (a b : R) (d : nat) :
  option ((R * R) * (R * R)) :=
  match compute_candidates find_roots p a b (S d) with
  | None => None
  | Some c => select_minmax_from_candidates p c d
  end.
