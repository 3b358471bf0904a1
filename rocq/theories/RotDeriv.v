(** Rotation vectors: inverse of matrixFromRotationVector, and its derivative. *)
From Coq Require Import Reals Lra Lia Psatz Nsatz Bool.
From Coquelicot Require Import Coquelicot.
From Verif Require Import Base RotModel RotProofs.
Local Open Scope R_scope.
Set Bullet Behavior "Strict Subproofs".

(* ------------------------------------------------------------------ *)
(** ** Algebra of rotation matrices *)

Lemma m3_mul_assoc a b c : m3_mul (m3_mul a b) c = m3_mul a (m3_mul b c).
Proof. apply m3_eq; cbn; ring. Qed.
Lemma m3_mul_id_l a : m3_mul m3_id a = a.
Proof. apply m3_eq; cbn; ring. Qed.
Lemma m3_mul_id_r a : m3_mul a m3_id = a.
Proof. apply m3_eq; cbn; ring. Qed.
(** Adjugate. *)
Definition m3_adj (a : M3) : M3 :=
  mkM3 (m11 a * m22 a - m12 a * m21 a) (m02 a * m21 a - m01 a * m22 a) (m01 a * m12 a - m02 a * m11 a)
       (m12 a * m20 a - m10 a * m22 a) (m00 a * m22 a - m02 a * m20 a) (m02 a * m10 a - m00 a * m12 a)
       (m10 a * m21 a - m11 a * m20 a) (m01 a * m20 a - m00 a * m21 a) (m00 a * m11 a - m01 a * m10 a).
Lemma m3_mul_adj a : m3_mul a (m3_adj a) = m3_scale (m3_det a) m3_id.
Proof. apply m3_eq; unfold m3_det; cbn; ring. Qed.
Lemma m3_scale_1 a : m3_scale 1 a = a.
Proof. apply m3_eq; cbn; ring. Qed.

Lemma rotation_adj m : is_rotation m -> m3_tr m = m3_adj m /\ m3_mul m (m3_tr m) = m3_id.
Proof.
  intros [O D]. pose proof (m3_mul_adj m) as A. rewrite D, m3_scale_1 in A.
  assert (E : m3_tr m = m3_adj m).
  { rewrite <- (m3_mul_id_r (m3_tr m)), <- A, <- m3_mul_assoc, O. apply m3_mul_id_l. }
  split; auto. now rewrite E.
Qed.

(** Euler: a rotation matrix is determined by its trace and skew part (unless
    the trace is -1). *)
Lemma rotation_sym m : is_rotation m ->
  let c := (m3_trace m - 1) / 2 in
  let x := (m21 m - m12 m) / 2 in let y := (m02 m - m20 m) / 2 in let z := (m10 m - m01 m) / 2 in
  x * x + y * y + z * z = 1 - c * c /\
  (1 + c) * ((m00 m + m00 m) / 2) = c * (1 + c) + x * x /\
  (1 + c) * ((m11 m + m11 m) / 2) = c * (1 + c) + y * y /\
  (1 + c) * ((m22 m + m22 m) / 2) = c * (1 + c) + z * z /\
  (1 + c) * ((m01 m + m10 m) / 2) = x * y /\
  (1 + c) * ((m02 m + m20 m) / 2) = x * z /\
  (1 + c) * ((m12 m + m21 m) / 2) = y * z.
Proof.
  intros HR. destruct (rotation_adj m HR) as [A B]. destruct HR as [O _].
  destruct m as [a b c d e f g h i]. unfold m3_trace. cbn in *.
  injection A as A1 A2 A3 A4 A5 A6 A7 A8 A9. injection B as B1 B2 B3 B4 B5 B6 B7 B8 B9.
  injection O as O1 O2 O3 O4 O5 O6 O7 O8 O9.
  repeat split; lra.
Qed.

(* ------------------------------------------------------------------ *)
(** ** vectorFromRotationMatrix *)

Lemma m3_norm_sq m : m3_norm m * m3_norm m =
  m00 m ^ 2 + m01 m ^ 2 + m02 m ^ 2 + m10 m ^ 2 + m11 m ^ 2 + m12 m ^ 2 + m20 m ^ 2 + m21 m ^ 2 + m22 m ^ 2.
Proof. unfold m3_norm. apply sqrt_sqrt. nra. Qed.

Lemma rotation_norm m : is_rotation m -> m3_norm (m3_sub m m3_id) * m3_norm (m3_sub m m3_id) = 2 * (3 - m3_trace m).
Proof.
  intros [O _]. rewrite m3_norm_sq. unfold m3_trace. destruct m as [a b c d e f g h i]. cbn in *.
  injection O as O1 O2 O3 O4 O5 O6 O7 O8 O9. lra.
Qed.

Lemma trace_range m : is_rotation m -> -1 <= (m3_trace m - 1) / 2 <= 1.
Proof.
  intros H. destruct (rotation_sym m H) as (S & _). cbn zeta in S.
  assert (Q : forall x y z c : R, x * x + y * y + z * z = 1 - c * c -> -1 <= c <= 1) by (intros; nra).
  eapply Q. exact S.
Qed.

Lemma cos_lower x : 1 - x * x / 2 <= cos x.
Proof.
  replace (cos x) with (cos (2 * (x / 2))) by (f_equal; lra). rewrite cos_2a_sin.
  assert (sin (x / 2) * sin (x / 2) <= (x / 2) * (x / 2)); [|lra].
  destruct (Rle_dec 0 (x / 2)) as [P|P].
  - destruct (Req_dec (x / 2) 0) as [->|N]; [rewrite sin_0; lra|].
    pose proof (sin_lt_x (x / 2) ltac:(lra)). pose proof (SIN_bound (x / 2)).
    destruct (Rle_dec (x / 2) 1) as [L|L]; [|nra].
    pose proof PI2_1. pose proof (sin_ge_0 (x / 2) ltac:(lra) ltac:(lra)). nra.
  - rewrite <- (Ropp_involutive (x / 2)), sin_neg. set (y := - (x / 2)) in *. assert (0 < y) by (unfold y; lra).
    pose proof (sin_lt_x y ltac:(lra)). pose proof (SIN_bound y).
    destruct (Rle_dec y 1) as [L|L]; [|nra].
    pose proof PI2_1. pose proof (sin_ge_0 y ltac:(lra) ltac:(lra)). nra.
Qed.

Lemma vector_of_rotation m : is_rotation m -> m3_trace m <> -1 ->
  exists v, vectorFromRotationMatrix m = Vec v /\ v3_norm v < PI /\
    ((v = v3_zero /\ m3_norm (m3_sub m m3_id) < 2 * kSmall) \/ matrixFromRotationVector v = m).
Proof.
  intros H NT. pose proof PI_RGT_0. unfold vectorFromRotationMatrix. rewrite (rotation_accepted m H). cbn [negb].
  pose proof kSmall_pos as KP. rcase.
  { exists v3_zero. rewrite v3_norm_zero. split; [reflexivity|]. split; [lra|]. left. split; [reflexivity|lra]. }
  pose proof (trace_range m H) as TR. destruct (rotation_sym m H) as (S0 & S1 & S2 & S3 & S4 & S5 & S6). cbn zeta in *.
  set (c := (m3_trace m - 1) / 2) in *.
  rewrite Rmin_right, Rmax_right by lra. pose proof (acos_bound c) as [AB1 AB2].
  pose proof (cos_acos c ltac:(lra)) as CA. set (phi := acos c) in *.
  rcase.
  { exists v3_zero. rewrite v3_norm_zero. split; [reflexivity|]. split; [lra|]. left. split; [reflexivity|].
    pose proof (rotation_norm m H) as RN. replace (m3_trace m) with (2 * c + 1) in RN by (unfold c; lra).
    pose proof (cos_lower phi). pose proof (m3_norm_nonneg (m3_sub m m3_id)).
    set (q := m3_norm (m3_sub m m3_id)) in *.
    assert (q * q <= 2 * (phi * phi)) by lra.
    apply Rnot_le_lt. intros C. nra. }
  assert (PL : phi < PI).
  { destruct AB2 as [|E]; auto. exfalso. apply NT. rewrite E, cos_PI in CA. unfold c in CA. lra. }
  assert (SP : 0 < sin phi) by (apply sin_gt_0; lra).
  destruct (Req_EM_T (sin phi) 0) as [E|_]; [lra|].
  set (x := (m21 m - m12 m) / 2) in *. set (y := (m02 m - m20 m) / 2) in *. set (z := (m10 m - m01 m) / 2) in *.
  assert (EK : m3_scale (/ (2 * sin phi)) (m3_scale phi (m3_sub m (m3_tr m))) =
     skewMatrixFromVector (v3_scale (phi / sin phi) (mkV3 x y z))).
  { unfold x, y, z. apply m3_eq; cbn; field; lra. }
  rewrite EK, skew_round.
  set (v := v3_scale (phi / sin phi) (mkV3 x y z)). exists v.
  assert (SC : sin phi * sin phi = x * x + y * y + z * z).
  { pose proof (sin2_cos2 phi) as Q. unfold Rsqr in Q. rewrite CA in Q. lra. }
  assert (NV : v3_norm v = phi).
  { apply Rsqr_inj; [apply v3_norm_nonneg|lra|]. unfold Rsqr. rewrite v3_norm_sq. unfold v; cbn.
    replace (phi / sin phi * x * (phi / sin phi * x) + phi / sin phi * y * (phi / sin phi * y) +
      phi / sin phi * z * (phi / sin phi * z))
      with (phi * phi * ((x * x + y * y + z * z) / (sin phi * sin phi))) by (field; lra).
    rewrite <- SC. field. lra. }
  split; [reflexivity|]. split; [lra|]. right.
  assert (NZ : v <> v3_zero) by (intros E; rewrite E, v3_norm_zero in NV; lra).
  rewrite (matrix_rodrigues v NZ), NV. unfold v; cbn [vx vy vz v3_scale].
  rewrite CA. set (s := sin phi) in *.
  replace (/ phi * (phi / s * x)) with (x / s) by (field; lra).
  replace (/ phi * (phi / s * y)) with (y / s) by (field; lra).
  replace (/ phi * (phi / s * z)) with (z / s) by (field; lra).
  assert (C1 : 1 + c <> 0). { intros E. apply NT. unfold c in E. lra. }
  assert (SS : s * s = (1 + c) * (1 - c)) by (rewrite SC, S0; ring).
  assert (C2 : 1 - c <> 0).
  { intros E. assert (s * s = 0) by (rewrite SS, E; ring). assert (0 < s * s) by (apply Rmult_lt_0_compat; auto). lra. }
  assert (K : forall a b, (1 - c) * (a / s * (b / s)) = a * b / (1 + c)).
  { intros a b. replace ((1 - c) * (a / s * (b / s))) with (a * b * (1 - c) / (s * s)) by (field; lra).
    rewrite SS. field. auto. }
  assert (D : forall a b, a = b * (1 + c) -> a / (1 + c) = b) by (intros a b ->; field; auto).
  assert (V : forall a, s * (a / s) = a) by (intros; field; lra).
  apply m3_eq; unfold rodrigues; cbn.
  - replace (1 + 0 * s + (0 * 0 + - (z / s) * (z / s) + y / s * - (y / s)) * (1 - c))
      with (1 - (1 - c) * (z / s * (z / s)) - (1 - c) * (y / s * (y / s))) by ring.
    rewrite !K. apply Rmult_eq_reg_r with (1 + c); [|auto]. 
    replace ((1 - z * z / (1 + c) - y * y / (1 + c)) * (1 + c)) with (1 + c - z * z - y * y) by (field; auto).
    nra.
  - replace (0 + - (z / s) * s + (0 * - (z / s) + - (z / s) * 0 + y / s * (x / s)) * (1 - c))
      with (- (s * (z / s)) + (1 - c) * (x / s * (y / s))) by ring.
    rewrite K, V. rewrite (D (x * y) ((m01 m + m10 m) / 2)) by lra. unfold z. lra.
  - replace (0 + y / s * s + (0 * (y / s) + - (z / s) * - (x / s) + y / s * 0) * (1 - c))
      with (s * (y / s) + (1 - c) * (x / s * (z / s))) by ring.
    rewrite K, V. rewrite (D (x * z) ((m02 m + m20 m) / 2)) by lra. unfold y. lra.
  - replace (0 + z / s * s + (z / s * 0 + 0 * (z / s) + - (x / s) * - (y / s)) * (1 - c))
      with (s * (z / s) + (1 - c) * (x / s * (y / s))) by ring.
    rewrite K, V. rewrite (D (x * y) ((m01 m + m10 m) / 2)) by lra. unfold z. lra.
  - replace (1 + 0 * s + (z / s * - (z / s) + 0 * 0 + - (x / s) * (x / s)) * (1 - c))
      with (1 - (1 - c) * (z / s * (z / s)) - (1 - c) * (x / s * (x / s))) by ring.
    rewrite !K. apply Rmult_eq_reg_r with (1 + c); [|auto].
    replace ((1 - z * z / (1 + c) - x * x / (1 + c)) * (1 + c)) with (1 + c - z * z - x * x) by (field; auto).
    nra.
  - replace (0 + - (x / s) * s + (z / s * (y / s) + 0 * - (x / s) + - (x / s) * 0) * (1 - c))
      with (- (s * (x / s)) + (1 - c) * (y / s * (z / s))) by ring.
    rewrite K, V. rewrite (D (y * z) ((m12 m + m21 m) / 2)) by lra. unfold x. lra.
  - replace (0 + - (y / s) * s + (- (y / s) * 0 + x / s * (z / s) + 0 * - (y / s)) * (1 - c))
      with (- (s * (y / s)) + (1 - c) * (x / s * (z / s))) by ring.
    rewrite K, V. rewrite (D (x * z) ((m02 m + m20 m) / 2)) by lra. unfold y. lra.
  - replace (0 + x / s * s + (- (y / s) * - (z / s) + x / s * 0 + 0 * (x / s)) * (1 - c))
      with (s * (x / s) + (1 - c) * (y / s * (z / s))) by ring.
    rewrite K, V. rewrite (D (y * z) ((m12 m + m21 m) / 2)) by lra. unfold x. lra.
  - replace (1 + 0 * s + (- (y / s) * (y / s) + x / s * - (x / s) + 0 * 0) * (1 - c))
      with (1 - (1 - c) * (y / s * (y / s)) - (1 - c) * (x / s * (x / s))) by ring.
    rewrite !K. apply Rmult_eq_reg_r with (1 + c); [|auto].
    replace ((1 - y * y / (1 + c) - x * x / (1 + c)) * (1 + c)) with (1 + c - y * y - x * x) by (field; auto).
    nra.
Qed.

(** The matrix determines the vector below half a turn. *)
Lemma matrix_trace v : m3_trace (matrixFromRotationVector v) = 1 + 2 * cos (v3_norm v).
Proof.
  destruct (Req_dec (v3_norm v) 0) as [E|E].
  - rewrite E, (v3_norm_eq0 v E), matrix_zero, cos_0. unfold m3_trace; cbn. lra.
  - assert (H : v <> v3_zero) by (intros ->; apply E, v3_norm_zero).
    rewrite matrix_rodrigues by auto. apply rodrigues_trace. now apply unit_of.
Qed.
Lemma matrix_inj v w : v3_norm v < PI -> v3_norm w < PI ->
  matrixFromRotationVector v = matrixFromRotationVector w -> v = w.
Proof.
  intros Hv Hw E. pose proof (v3_norm_nonneg v). pose proof (v3_norm_nonneg w).
  assert (EN : v3_norm v = v3_norm w).
  { pose proof (matrix_trace v) as A. rewrite E, matrix_trace in A.
    rewrite <- (acos_cos (v3_norm v)), <- (acos_cos (v3_norm w)) by lra. f_equal. lra. }
  destruct (Req_dec (v3_norm w) 0) as [Z|Z].
  - rewrite (v3_norm_eq0 w Z). apply v3_norm_eq0. congruence.
  - assert (Nw : w <> v3_zero) by (intros ->; apply Z, v3_norm_zero).
    assert (Nv : v <> v3_zero) by (intros ->; apply Z; rewrite <- EN; apply v3_norm_zero).
    rewrite (matrix_rodrigues v Nv), (matrix_rodrigues w Nw), EN in E.
    apply (f_equal (fun m => m3_sub m (m3_tr m))) in E. rewrite !rodrigues_skew in E.
    assert (SP : 0 < sin (v3_norm w)) by (apply sin_gt_0; lra).
    set (n := v3_norm w) in *. set (s := sin n) in *.
    assert (F : forall a b, / n * a * (2 * s) = / n * b * (2 * s) -> a = b).
    { intros a b H1. apply Rmult_eq_reg_r in H1; [|lra]. apply Rmult_eq_reg_l in H1; auto.
      apply Rinv_neq_0_compat; auto. }
    apply v3_eq; apply F.
    + apply (f_equal m21) in E. exact E.
    + apply (f_equal m02) in E. exact E.
    + apply (f_equal m10) in E. exact E.
Qed.

(* ------------------------------------------------------------------ *)
(** ** Derivatives *)

Definition v3_derive (r : R -> V3) (t : R) (r' : V3) : Prop :=
  is_derive (fun u => vx (r u)) t (vx r') /\ is_derive (fun u => vy (r u)) t (vy r') /\
  is_derive (fun u => vz (r u)) t (vz r').
Definition m3_derive (m : R -> M3) (t : R) (d : M3) : Prop :=
  is_derive (fun u => m00 (m u)) t (m00 d) /\ is_derive (fun u => m01 (m u)) t (m01 d) /\
  is_derive (fun u => m02 (m u)) t (m02 d) /\ is_derive (fun u => m10 (m u)) t (m10 d) /\
  is_derive (fun u => m11 (m u)) t (m11 d) /\ is_derive (fun u => m12 (m u)) t (m12 d) /\
  is_derive (fun u => m20 (m u)) t (m20 d) /\ is_derive (fun u => m21 (m u)) t (m21 d) /\
  is_derive (fun u => m22 (m u)) t (m22 d).

(** sin n / n, (1 - cos n) / n^2, (n - sin n) / n^3 *)
Definition ca (n : R) := sin n / n.
Definition cb (n : R) := (1 - cos n) / (n * n).
Definition ce (n : R) := (n - sin n) / (n * n * n).

Lemma matrix_ab v : matrixFromRotationVector v =
  let n := v3_norm v in let k := skewMatrixFromVector v in
  m3_add (m3_add m3_id (m3_scale (ca n) k)) (m3_scale (cb n) (m3_mul k k)).
Proof.
  cbn zeta. destruct (Req_dec (v3_norm v) 0) as [E|E].
  - rewrite (v3_norm_eq0 v E), matrix_zero. apply m3_eq; cbn; ring.
  - assert (H : v <> v3_zero) by (intros ->; apply E, v3_norm_zero).
    rewrite matrix_rodrigues by auto. unfold rodrigues, ca, cb. apply m3_eq; cbn; field; auto.
Qed.
Lemma ab_id n : n <> 0 -> ca n * ca n = 2 * cb n - cb n * cb n * (n * n).
Proof.
  intros H. unfold ca, cb. pose proof (sin2_cos2 n) as Q. unfold Rsqr in Q.
  replace (sin n / n * (sin n / n)) with ((sin n * sin n) / (n * n)) by (field; auto).
  replace (sin n * sin n) with (1 - cos n * cos n) by lra. field. auto.
Qed.
Lemma cos_b n : n <> 0 -> cos n = 1 - cb n * (n * n).
Proof. intros H. unfold cb. field. auto. Qed.
Lemma ce_a n : n <> 0 -> ce n * (n * n) = 1 - ca n.
Proof. intros H. unfold ce, ca. field. auto. Qed.

(** The angular velocity in polynomial form. *)
Definition omega_ab (b e : R) (v v' : V3) : V3 :=
  let k := skewMatrixFromVector v in
  m3_vec (m3_add (m3_add m3_id (m3_scale b k)) (m3_scale e (m3_mul k k))) v'.


Definition mat_ab (a b : R) (v : V3) : M3 :=
  let k := skewMatrixFromVector v in
  m3_add (m3_add m3_id (m3_scale a k)) (m3_scale b (m3_mul k k)).

Lemma mat_ab_derive (fa fb fx fy fz : R -> R) (t x' y' z' e N i2 : R) :
  let a := fa t in let b := fb t in let x := fx t in let y := fy t in let z := fz t in
  let q := x * x' + y * y' + z * z' in
  is_derive fx t x' -> is_derive fy t y' -> is_derive fz t z' ->
  is_derive fa t ((1 - b * N - a) * q * i2) -> is_derive fb t ((a - 2 * b) * q * i2) ->
  a * a = 2 * b - b * b * N -> e * N = 1 - a -> N = x * x + y * y + z * z -> N * i2 = 1 ->
  m3_derive (fun u => mat_ab (fa u) (fb u) (mkV3 (fx u) (fy u) (fz u))) t
    (m3_mul (skewMatrixFromVector (omega_ab b e (mkV3 x y z) (mkV3 x' y' z'))) (mat_ab a b (mkV3 x y z))).
Proof.
  intros a b x y z q X Y Z DA DB AB CE NQ I2.
  assert (dA : ex_derive fa t) by (eexists; exact DA). assert (dB : ex_derive fb t) by (eexists; exact DB).
  assert (dX : ex_derive fx t) by (eexists; exact X). assert (dY : ex_derive fy t) by (eexists; exact Y).
  assert (dZ : ex_derive fz t) by (eexists; exact Z).
  apply is_derive_unique in DA, DB, X, Y, Z.
  unfold m3_derive. refine (conj _ (conj _ (conj _ (conj _ (conj _ (conj _ (conj _ (conj _ _)))))))); cbn.
  all: evar_last; [auto_derive; [repeat split; auto|reflexivity]|].
  all: change (fun x0 => fa x0) with fa; change (fun x0 => fb x0) with fb;
       change (fun x0 => fx x0) with fx; change (fun x0 => fy x0) with fy; change (fun x0 => fz x0) with fz;
       rewrite ?DA, ?DB, ?X, ?Y, ?Z; fold a b x y z; unfold q.
  all: clearbody a b x y z; clear - AB CE NQ I2.
  all: nsatz.
Qed.

Section Deriv.
Variables (r : R -> V3) (t : R) (r' : V3).
Hypothesis Hr : v3_derive r t r'.
Hypothesis Hn : 0 < v3_norm (r t).
Let n := v3_norm (r t).
Let q := v3_dot (r t) r'.
Let i2 := / (n * n).

Lemma norm_derive : is_derive (fun u => v3_norm (r u)) t (q / n).
Proof.
  destruct Hr as (X & Y & Z). unfold v3_norm.
  assert (P : 0 < vx (r t) * vx (r t) + vy (r t) * vy (r t) + vz (r t) * vz (r t)).
  { rewrite <- v3_norm_sq. nra. }
  evar_last.
  - apply (is_derive_comp sqrt (fun u => vx (r u) * vx (r u) + vy (r u) * vy (r u) + vz (r u) * vz (r u))).
    + apply is_derive_Reals. apply derivable_pt_lim_sqrt. exact P.
    + apply (is_derive_plus (fun u => vx (r u) * vx (r u) + vy (r u) * vy (r u)) (fun u => vz (r u) * vz (r u))).
      * apply (is_derive_plus (fun u => vx (r u) * vx (r u)) (fun u => vy (r u) * vy (r u))).
        -- apply (is_derive_mult _ _ _ _ _ X X). intros; apply Rmult_comm.
        -- apply (is_derive_mult _ _ _ _ _ Y Y). intros; apply Rmult_comm.
      * apply (is_derive_mult _ _ _ _ _ Z Z). intros; apply Rmult_comm.
  - unfold q, n, v3_dot. fold (v3_norm (r t)). unfold plus, scal, mult; cbn. unfold mult; cbn. field.
    fold (v3_norm (r t)). lra.
Qed.

Lemma ca_derive : is_derive (fun u => ca (v3_norm (r u))) t ((1 - cb n * (n * n) - ca n) * q * i2).
Proof.
  evar_last.
  - apply (is_derive_comp ca (fun u => v3_norm (r u)) t).
    + unfold ca. auto_derive; [|reflexivity]. fold n. unfold n; lra.
    + apply norm_derive.
  - fold n. rewrite <- cos_b by (unfold n; lra). unfold scal; cbn. unfold mult; cbn. unfold ca, i2. field. unfold n; lra.
Qed.
Lemma cb_derive : is_derive (fun u => cb (v3_norm (r u))) t ((ca n - 2 * cb n) * q * i2).
Proof.
  evar_last.
  - apply (is_derive_comp cb (fun u => v3_norm (r u)) t).
    + unfold cb. auto_derive; [|reflexivity]. fold n. unfold n. nra.
    + apply norm_derive.
  - fold n. unfold scal; cbn. unfold mult; cbn. unfold cb, ca, i2. field. unfold n; lra.
Qed.
Lemma ce_derive : is_derive (fun u => ce (v3_norm (r u))) t ((cb n - 3 * ce n) * q * i2).
Proof.
  assert (n * n * n <> 0). { assert (0 < n) by (unfold n; lra). assert (0 < n * n) by nra. nra. }
  evar_last.
  - apply (is_derive_comp ce (fun u => v3_norm (r u)) t).
    + unfold ce. auto_derive; [|reflexivity]. fold n. auto.
    + apply norm_derive.
  - fold n. unfold scal; cbn. unfold mult; cbn. unfold cb, ce, i2. field. unfold n; lra.
Qed.

Lemma matrix_derive :
  m3_derive (fun u => matrixFromRotationVector (r u)) t
    (m3_mul (skewMatrixFromVector (omega_ab (cb n) (ce n) (r t) r')) (matrixFromRotationVector (r t))).
Proof.
  pose proof ca_derive as DA. pose proof cb_derive as DB.
  pose proof (ab_id n ltac:(unfold n; lra)) as AB. pose proof (ce_a n ltac:(unfold n; lra)) as CE.
  pose proof (v3_norm_sq (r t)) as NQ. fold n in NQ.
  assert (I2 : n * n * i2 = 1) by (unfold i2; field; unfold n; lra).
  destruct Hr as (X & Y & Z).
  pose proof (mat_ab_derive (fun u => ca (v3_norm (r u))) (fun u => cb (v3_norm (r u)))
    (fun u => vx (r u)) (fun u => vy (r u)) (fun u => vz (r u)) t (vx r') (vy r') (vz r') (ce n) (n * n) i2
    X Y Z DA DB AB CE NQ I2) as M.
  assert (ER : forall v, mkV3 (vx v) (vy v) (vz v) = v) by (intros []; reflexivity).
  cbn beta in M. rewrite !ER in M. rewrite (matrix_ab (r t)). fold n.
  assert (EM : forall u, matrixFromRotationVector (r u) =
     mat_ab (ca (v3_norm (r u))) (cb (v3_norm (r u))) (mkV3 (vx (r u)) (vy (r u)) (vz (r u)))).
  { intros u. rewrite ER. apply matrix_ab. }
  unfold m3_derive in *. decompose [and] M.
  refine (conj _ (conj _ (conj _ (conj _ (conj _ (conj _ (conj _ (conj _ _)))))))); (eapply is_derive_ext; [intros u; rewrite EM; reflexivity|assumption]).
Qed.
End Deriv.
