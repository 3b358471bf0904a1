(** C64 - rotation helpers of mav_msgs; C78 - gravity.
    Specification: quaternion product, [is_rotation m] (m^T m = I, det m = 1),
    [v3_derive], [m3_derive] (component-wise derivatives, Coquelicot). *)
From Coq Require Import Reals Lra Lia Psatz Nsatz Bool.
From Coquelicot Require Import Coquelicot.
From Verif Require Import Base RotModel RotProofs RotDeriv RotOmega.
Local Open Scope R_scope.
Set Bullet Behavior "Strict Subproofs".

(* ------------------------------------------------------------------ *)
(** ** Quaternions *)

Definition q_mul (p q : quat) : quat :=
  mkQ (qw p * qw q - qx p * qx q - qy p * qy q - qz p * qz q)
      (qw p * qx q + qx p * qw q + qy p * qz q - qz p * qy q)
      (qw p * qy q - qx p * qz q + qy p * qw q + qz p * qx q)
      (qw p * qz q + qx p * qy q - qy p * qx q + qz p * qw q).
Definition q_unit (q : quat) : Prop := qw q ^ 2 + qx q ^ 2 + qy q ^ 2 + qz q ^ 2 = 1.
(** Rotation of a vector: q v q*. *)
Definition q_rotate (q : quat) (v : V3) : V3 :=
  let r := q_mul (q_mul q (mkQ 0 (vx v) (vy v) (vz v))) (mkQ (qw q) (- qx q) (- qy q) (- qz q)) in
  mkV3 (qx r) (qy r) (qz r).
(** Rotation by an angle about a coordinate axis. *)
Definition q_about_x (a : R) : quat := mkQ (cos (a / 2)) (sin (a / 2)) 0 0.
Definition q_about_y (a : R) : quat := mkQ (cos (a / 2)) 0 (sin (a / 2)) 0.
Definition q_about_z (a : R) : quat := mkQ (cos (a / 2)) 0 0 (sin (a / 2)).

Lemma half_angle a : sin a = 2 * sin (a / 2) * cos (a / 2) /\ cos a = 1 - 2 * (sin (a / 2) * sin (a / 2)) /\
  sin (a / 2) * sin (a / 2) + cos (a / 2) * cos (a / 2) = 1.
Proof.
  repeat split.
  - replace (sin a) with (sin (2 * (a / 2))) by (f_equal; lra). rewrite sin_2a. ring.
  - replace (cos a) with (cos (2 * (a / 2))) by (f_equal; lra). rewrite cos_2a_sin. ring.
  - pose proof (sin2_cos2 (a / 2)). unfold Rsqr in *. lra.
Qed.

(** quaternionFromYaw is the unit quaternion that turns by yaw about z ... *)
Theorem C64_quaternion_from_yaw : forall yaw v, q_unit (quaternionFromYaw yaw) /\
  q_rotate (quaternionFromYaw yaw) v =
    mkV3 (cos yaw * vx v - sin yaw * vy v) (sin yaw * vx v + cos yaw * vy v) (vz v).
Proof.
  intros yaw v. destruct (half_angle yaw) as (S & C & U). split.
  - unfold q_unit; cbn [quaternionFromYaw qw qx qy qz]. lra.
  - rewrite S, C. apply v3_eq; cbn; nsatz.
Qed.
(** ... and yawFromQuaternion recovers the angle, also after roll and pitch. *)
Theorem C64_yaw_round_trip : forall yaw, - PI < yaw <= PI -> yawFromQuaternion (quaternionFromYaw yaw) = yaw.
Proof.
  intros yaw H. destruct (half_angle yaw) as (S & C & U). unfold yawFromQuaternion; cbn.
  transitivity (atan2 (1 * sin yaw) (1 * cos yaw)); [f_equal; nsatz|apply atan2_polar; lra].
Qed.
Lemma zyx_entries (a b c d e f : R) : a * a + b * b = 1 -> c * c + d * d = 1 -> e * e + f * f = 1 ->
  let q := q_mul (mkQ f 0 0 e) (q_mul (mkQ d 0 c 0) (mkQ b a 0 0)) in
  2 * (qw q * qz q + qx q * qy q) = (1 - 2 * (c * c)) * (2 * e * f) /\
  1 - 2 * (qy q * qy q + qz q * qz q) = (1 - 2 * (c * c)) * (1 - 2 * (e * e)) /\
  2 * (qw q * qx q + qy q * qz q) = (1 - 2 * (c * c)) * (2 * a * b) /\
  1 - 2 * (qx q * qx q + qy q * qy q) = (1 - 2 * (c * c)) * (1 - 2 * (a * a)) /\
  2 * (qw q * qy q - qz q * qx q) = 2 * c * d.
Proof. intros A C E q. unfold q; cbn; clear q. refine (conj _ (conj _ (conj _ (conj _ _)))); nsatz. Qed.
Theorem C64_euler_round_trip : forall roll pitch yaw,
  - PI < roll <= PI -> - (PI / 2) < pitch < PI / 2 -> - PI < yaw <= PI ->
  let q := q_mul (q_about_z yaw) (q_mul (q_about_y pitch) (q_about_x roll)) in
  eulerFromQuaternion q = mkV3 roll pitch yaw /\ yawFromQuaternion q = yaw.
Proof.
  intros roll pitch yaw Hr Hp Hy q.
  destruct (half_angle roll) as (Sr & Cr & Ur). destruct (half_angle pitch) as (Sp & Cp & Up).
  destruct (half_angle yaw) as (Sy & Cy & Uy).
  assert (CP : 0 < cos pitch) by (apply cos_gt_0; lra).
  destruct (zyx_entries _ _ _ _ _ _ Ur Up Uy) as (E1 & E2 & E3 & E4 & E5).
  change (q_mul _ _) with q in E1, E2, E3, E4, E5. rewrite <- Cp in *. rewrite <- Cy, <- Sy in *. rewrite <- Cr, <- Sr, <- Sp in *.
  assert (Y : atan2 (2 * (qw q * qz q + qx q * qy q)) (1 - 2 * (qy q * qy q + qz q * qz q)) = yaw).
  { rewrite E1, E2. apply atan2_polar; auto. }
  split; [|exact Y]. unfold eulerFromQuaternion. rewrite E3, E4, E5. f_equal; [| |exact Y].
  - apply atan2_polar; auto.
  - apply asin_sin; lra.
Qed.
(** At pitch = pi/2 the angles are not recovered (gimbal lock): the computed
    angles do not even describe the same rotation. *)
Theorem C64_gimbal_lock_refuted : exists yaw, - PI < yaw <= PI /\
  let q := q_mul (q_about_z yaw) (q_about_y (PI / 2)) in
  let e := eulerFromQuaternion q in
  q_rotate (q_mul (q_about_z (vz e)) (q_mul (q_about_y (vy e)) (q_about_x (vx e)))) (mkV3 0 1 0) <>
  q_rotate q (mkV3 0 1 0).
Proof.
  exists (PI / 2). pose proof PI_RGT_0. split; [lra|]. intros q e.
  assert (H4 : PI / 2 / 2 = PI / 4) by lra.
  assert (S4 : sin (PI / 4) * sin (PI / 4) = / 2).
  { rewrite sin_PI4. pose proof (sqrt_sqrt 2 ltac:(lra)). pose proof (sqrt_lt_R0 2 ltac:(lra)).
    replace (1 / sqrt 2 * (1 / sqrt 2)) with (/ (sqrt 2 * sqrt 2)) by (field; lra). now rewrite H0. }
  assert (EC : cos (PI / 4) = sin (PI / 4)) by (rewrite sin_PI4, cos_PI4; reflexivity).
  assert (EQ : q = mkQ (/ 2) (- / 2) (/ 2) (/ 2)).
  { unfold q, q_mul, q_about_z, q_about_y; cbn. rewrite H4, EC. f_equal; lra. }
  assert (E0 : forall a b, a = 0 -> b = 0 -> atan2 a b = 0).
  { intros a b -> ->. unfold atan2. repeat (rcase; try lra). }
  assert (EX : vx e = 0 /\ vz e = 0).
  { unfold e. rewrite EQ. cbn. split; apply E0; lra. }
  destruct EX as [-> ->]. rewrite EQ. intros E. apply (f_equal vx) in E. cbn in E.
  replace (0 / 2) with 0 in E by lra. rewrite sin_0, cos_0 in E. lra.
Qed.

(* ------------------------------------------------------------------ *)
(** ** Skew-symmetric matrices *)

(** skewMatrixFromVector is the matrix of the cross product, and
    vectorFromSkewMatrix inverts it. *)
Definition cross (a b : V3) : V3 :=
  mkV3 (vy a * vz b - vz a * vy b) (vz a * vx b - vx a * vz b) (vx a * vy b - vy a * vx b).
Theorem C64_skew : forall v w, m3_vec (skewMatrixFromVector v) w = cross v w /\
  m3_tr (skewMatrixFromVector v) = m3_scale (-1) (skewMatrixFromVector v) /\
  vectorFromSkewMatrix (skewMatrixFromVector v) = (true, v).
Proof.
  intros v w. split; [apply v3_eq; cbn; ring|]. split; [apply m3_eq; cbn; ring|]. apply skew_round.
Qed.
(** A matrix is accepted iff M + M^T has Frobenius norm below 1e-6; then the
    vector's matrix differs from M by less than 1e-6. *)
Theorem C64_skew_accepted : forall m, let s := m3_add m (m3_tr m) in
  (fst (vectorFromSkewMatrix m) = true <-> m3_norm s < / 1000000) /\
  (fst (vectorFromSkewMatrix m) = true ->
     m3_norm (m3_sub m (skewMatrixFromVector (snd (vectorFromSkewMatrix m)))) < / 1000000) /\
  (fst (vectorFromSkewMatrix m) = false -> snd (vectorFromSkewMatrix m) = v3_zero).
Proof.
  intros m s. unfold vectorFromSkewMatrix, kSmall. fold s. rcase; cbn [fst snd]; repeat split; auto; try easy.
  - intros _. eapply Rle_lt_trans; [|exact Hlt]. unfold m3_norm. apply sqrt_le_1_alt.
    unfold s. destruct m as [a b c d e f g h i]; cbn [m3_sub m3_add m3_scale m3_tr skewMatrixFromVector vx vy vz
      m00 m01 m02 m10 m11 m12 m20 m21 m22].
    unfold Rminus. pose proof (Rle_0_sqr a); pose proof (Rle_0_sqr e); pose proof (Rle_0_sqr i);
    pose proof (Rle_0_sqr (b + d)); pose proof (Rle_0_sqr (c + g)); pose proof (Rle_0_sqr (f + h)).
    unfold Rsqr in *. lra.
  - intros C. lra.
Qed.

(* ------------------------------------------------------------------ *)
(** ** Rotation matrices and rotation vectors *)

(** matrixFromRotationVector returns a rotation matrix that keeps the vector
    fixed and turns by its length: every vector orthogonal to it is turned by
    that angle in the right-handed sense. *)
Theorem C64_matrix_is_rotation : forall v, is_rotation (matrixFromRotationVector v) /\
  m3_vec (matrixFromRotationVector v) v = v /\
  forall w, v3_dot v w = 0 ->
    v3_scale (v3_norm v) (m3_vec (matrixFromRotationVector v) w) =
    v3_add (v3_scale (v3_norm v * cos (v3_norm v)) w) (v3_scale (sin (v3_norm v)) (cross v w)).
Proof.
  intros v. split; [apply matrix_rotation|]. rewrite matrix_ab. split.
  - apply v3_eq; cbn; ring.
  - intros w D. unfold v3_dot in D. destruct (Req_dec (v3_norm v) 0) as [E|E].
    + rewrite (v3_norm_eq0 v E), v3_norm_zero, sin_0. apply v3_eq; cbn; ring.
    + pose proof (v3_norm_sq v) as NQ. rewrite (cos_b (v3_norm v) E).
      replace (sin (v3_norm v)) with (ca (v3_norm v) * v3_norm v) by (unfold ca; field; auto).
      set (n := v3_norm v) in *. set (a := ca n). set (b := cb n).
      apply v3_eq; cbn; nsatz.
Qed.

(** Every rotation matrix is accepted ... *)
Theorem C64_rotation_accepted : forall m, is_rotation m -> isRotationMatrix m = true.
Proof. exact rotation_accepted. Qed.
(** ... and so are reflections, because the determinant is only bounded from above. *)
Theorem C64_only_rotations_refuted : exists m, isRotationMatrix m = true /\ m3_det m = -1.
Proof.
  exists (mkM3 1 0 0 0 1 0 0 0 (-1)). split; [|unfold m3_det; cbn; ring].
  unfold isRotationMatrix. rewrite m3_norm_zero by (apply m3_eq; cbn; ring).
  pose proof kSmall_pos. rcase; [lra|]. rcase; [|reflexivity]. unfold m3_det in Hlt0; cbn in Hlt0. lra.
Qed.

(** What is accepted nearly preserves lengths (1e-6, relative to the square),
    and has no determinant above 1 + 1e-6. *)
Lemma square_bound (x y z : R) : 0 <= x -> 0 <= z -> (forall t, 0 <= x * t ^ 2 + 2 * y * t + z) -> y ^ 2 <= x * z.
Proof.
  intros Hx Hz H. destruct (Req_dec x 0) as [E|E].
  - subst. assert (Y : y = 0); [|subst; lra].
    destruct (Req_dec y 0) as [|N]; auto. specialize (H (- (z + 1) / (2 * y))). replace (0 * (- (z + 1) / (2 * y)) ^ 2 + 2 * y * (- (z + 1) / (2 * y)) + z) with (-1) in H by (field; auto). lra.
  - specialize (H (- y / x)). replace (x * (- y / x) ^ 2 + 2 * y * (- y / x) + z) with ((x * z - y ^ 2) / x) in H by (field; auto).
    assert (P : 0 < x) by lra. apply (Rmult_le_compat_r x) in H; [|lra]. replace ((x * z - y ^ 2) / x * x) with (x * z - y ^ 2) in H by (field; auto). lra.
Qed.
Lemma quadratic_form (e : M3) (v : V3) : Rabs (v3_dot v (m3_vec e v)) <= m3_norm e * v3_norm v ^ 2.
Proof.
  replace (v3_norm v ^ 2) with (vx v ^ 2 + vy v ^ 2 + vz v ^ 2) by (pose proof (v3_norm_sq v) as Q; cbn in *; lra). set (q := v3_dot v (m3_vec e v)). set (n := vx v ^ 2 + vy v ^ 2 + vz v ^ 2).
  assert (N0 : 0 <= n) by (unfold n; nra).
  assert (B : q ^ 2 <= (m00 e ^ 2 + m01 e ^ 2 + m02 e ^ 2 + m10 e ^ 2 + m11 e ^ 2 + m12 e ^ 2 + m20 e ^ 2 + m21 e ^ 2 + m22 e ^ 2) * n ^ 2).
  { apply square_bound.
    - pose proof (pow2_ge_0 (m00 e)); pose proof (pow2_ge_0 (m01 e)); pose proof (pow2_ge_0 (m02 e)); pose proof (pow2_ge_0 (m10 e));
      pose proof (pow2_ge_0 (m11 e)); pose proof (pow2_ge_0 (m12 e)); pose proof (pow2_ge_0 (m20 e)); pose proof (pow2_ge_0 (m21 e));
      pose proof (pow2_ge_0 (m22 e)). lra.
    - apply pow2_ge_0.
    - intros t.
      replace (_ + _) with
        ((m00 e * t + vx v * vx v) ^ 2 + (m01 e * t + vx v * vy v) ^ 2 + (m02 e * t + vx v * vz v) ^ 2 +
         (m10 e * t + vy v * vx v) ^ 2 + (m11 e * t + vy v * vy v) ^ 2 + (m12 e * t + vy v * vz v) ^ 2 +
         (m20 e * t + vz v * vx v) ^ 2 + (m21 e * t + vz v * vy v) ^ 2 + (m22 e * t + vz v * vz v) ^ 2)
        by (unfold q, n, v3_dot, m3_vec; cbn [vx vy vz]; ring).
      repeat (apply Rplus_le_le_0_compat; [|apply pow2_ge_0]). apply pow2_ge_0. }
  rewrite <- (Rabs_pos_eq (m3_norm e * n)) by (apply Rmult_le_pos; [apply sqrt_pos|auto]).
  apply Rsqr_le_abs_0. unfold Rsqr.
  replace (m3_norm e * n * (m3_norm e * n)) with (m3_norm e ^ 2 * n ^ 2) by ring. unfold m3_norm. rewrite pow2_sqrt; [lra|].
  pose proof (pow2_ge_0 (m00 e)); pose proof (pow2_ge_0 (m01 e)); pose proof (pow2_ge_0 (m02 e)); pose proof (pow2_ge_0 (m10 e));
  pose proof (pow2_ge_0 (m11 e)); pose proof (pow2_ge_0 (m12 e)); pose proof (pow2_ge_0 (m20 e)); pose proof (pow2_ge_0 (m21 e));
  pose proof (pow2_ge_0 (m22 e)). lra.
Qed.
Theorem C64_accepted_nearly_rotation : forall m, isRotationMatrix m = true ->
  m3_det m <= 1 + / 1000000 /\
  forall v, Rabs (v3_norm (m3_vec m v) ^ 2 - v3_norm v ^ 2) <= / 1000000 * v3_norm v ^ 2.
Proof.
  intros m H. unfold isRotationMatrix, kSmall in H. rcase_in H; [discriminate|]. rcase_in H; [discriminate|].
  split; [lra|]. intros v. set (e := m3_sub (m3_mul (m3_tr m) m) m3_id) in *.
  replace (v3_norm (m3_vec m v) ^ 2 - v3_norm v ^ 2) with (v3_dot v (m3_vec e v)).
  - eapply Rle_trans; [apply quadratic_form|]. apply Rmult_le_compat_r; [apply pow2_ge_0|lra].
  - replace (v3_norm v ^ 2) with (v3_norm v * v3_norm v) by ring. replace (v3_norm (m3_vec m v) ^ 2) with (v3_norm (m3_vec m v) * v3_norm (m3_vec m v)) by ring.
    rewrite !v3_norm_sq. unfold e, v3_dot. destruct m, v. cbn. ring.
Qed.
Print Assumptions C64_accepted_nearly_rotation.

(** vectorFromRotationMatrix: for every rotation matrix that is not a half turn
    (trace -1) it returns a vector of length below pi that gives back the
    matrix; matrices within 2e-6 of the identity may be answered by zero. *)
Theorem C64_vector_of_matrix : forall m, is_rotation m -> m3_trace m <> -1 ->
  exists v, vectorFromRotationMatrix m = Vec v /\ v3_norm v < PI /\
    ((v = v3_zero /\ m3_norm (m3_sub m m3_id) < 2 * kSmall) \/ matrixFromRotationVector v = m).
Proof. exact vector_of_rotation. Qed.
Theorem C64_rotation_vector_round_trip : forall v, v3_norm v < PI ->
  exists w, vectorFromRotationMatrix (matrixFromRotationVector v) = Vec w /\
    (w = v \/ (w = v3_zero /\ m3_norm (m3_sub (matrixFromRotationVector v) m3_id) < 2 * kSmall)).
Proof.
  intros v H. destruct (vector_of_rotation (matrixFromRotationVector v)) as (w & A & B & C).
  - apply matrix_rotation.
  - rewrite matrix_trace. pose proof (v3_norm_nonneg v). intros E.
    assert (cos (v3_norm v) = -1) by lra.
    assert (-1 < cos (v3_norm v)); [|lra]. rewrite <- cos_PI. apply cos_decreasing_1; lra.
  - exists w. split; auto. destruct C as [C|C]; [right; auto|left]. now apply matrix_inj.
Qed.
(** For a half turn it divides zero by zero. *)
Theorem C64_half_turn_refuted : forall v, v3_norm v = PI ->
  vectorFromRotationMatrix (matrixFromRotationVector v) = NoValue.
Proof.
  intros v H. pose proof PI_RGT_0. pose proof PI2_1. unfold vectorFromRotationMatrix.
  rewrite (rotation_accepted _ (matrix_rotation v)). cbn [negb]. rewrite matrix_trace, H, cos_PI.
  replace ((1 + 2 * -1 - 1) / 2) with (-1) by lra. rewrite Rmin_right, Rmax_left by lra.
  replace (-1) with (- (1)) by lra. rewrite acos_opp, acos_1, Rminus_0_r, sin_PI.
  rcase.
  - exfalso. pose proof (rotation_norm _ (matrix_rotation v)) as N. rewrite matrix_trace, H, cos_PI in N.
    pose proof (m3_norm_nonneg (m3_sub (matrixFromRotationVector v) m3_id)). unfold kSmall in Hlt. nra.
  - rcase; [unfold kSmall in *; lra|]. destruct (Req_EM_T 0 0); congruence.
Qed.

(* ------------------------------------------------------------------ *)
(** ** Angular velocity and acceleration *)

(** [w] is the angular velocity (world frame) at time t of the rotation with
    rotation vector r: the matrix R satisfies R' = [w]x R. *)
Definition angular_velocity (r : R -> V3) (t : R) (w : V3) : Prop :=
  m3_derive (fun u => matrixFromRotationVector (r u)) t
    (m3_mul (skewMatrixFromVector w) (matrixFromRotationVector (r t))).

(** It is unique. *)
Theorem C64_angular_velocity_unique : forall r t w w', angular_velocity r t w -> angular_velocity r t w' -> w = w'.
Proof.
  intros r t w w' (A0 & A1 & A2 & A3 & A4 & A5 & A6 & A7 & A8) (B0 & B1 & B2 & B3 & B4 & B5 & B6 & B7 & B8).
  assert (E : m3_mul (skewMatrixFromVector w) (matrixFromRotationVector (r t)) =
    m3_mul (skewMatrixFromVector w') (matrixFromRotationVector (r t))).
  { apply m3_eq.
    - rewrite <- (is_derive_unique _ _ _ A0). apply is_derive_unique, B0.
    - rewrite <- (is_derive_unique _ _ _ A1). apply is_derive_unique, B1.
    - rewrite <- (is_derive_unique _ _ _ A2). apply is_derive_unique, B2.
    - rewrite <- (is_derive_unique _ _ _ A3). apply is_derive_unique, B3.
    - rewrite <- (is_derive_unique _ _ _ A4). apply is_derive_unique, B4.
    - rewrite <- (is_derive_unique _ _ _ A5). apply is_derive_unique, B5.
    - rewrite <- (is_derive_unique _ _ _ A6). apply is_derive_unique, B6.
    - rewrite <- (is_derive_unique _ _ _ A7). apply is_derive_unique, B7.
    - rewrite <- (is_derive_unique _ _ _ A8). apply is_derive_unique, B8. }
  destruct (rotation_adj _ (matrix_rotation (r t))) as [_ O].
  apply (f_equal (fun m => m3_mul m (m3_tr (matrixFromRotationVector (r t))))) in E.
  rewrite !m3_mul_assoc, O, !m3_mul_id_r in E.
  apply v3_eq; [apply (f_equal m21) in E|apply (f_equal m02) in E|apply (f_equal m10) in E]; exact E.
Qed.

(** omegaFromRotationVector is the angular velocity for |r| >= 1e-3 ... *)
Theorem C64_omega : forall r t r', v3_derive r t r' -> / 1000 <= v3_norm (r t) ->
  angular_velocity r t (omegaFromRotationVector (r t) r').
Proof. exact omega_matrix. Qed.

Lemma sin_cubic x : 0 <= x -> x - x ^ 3 / 6 <= sin x.
Proof.
  intros Hx. destruct (Req_dec x 0) as [->|N]; [rewrite sin_0; lra|].
  set (f := fun u => sin u - u + u ^ 3 / 6).
  assert (D : forall u, is_derive f u (cos u - 1 + u * u / 2)).
  { intros u. unfold f. auto_derive; auto. field. }
  destruct (MVT_gen f 0 x (fun u => cos u - 1 + u * u / 2)) as (c & Hc & E).
  - intros u _. apply D.
  - intros u _. apply (continuity_pt_filterlim f). apply (ex_derive_continuous f). eexists. apply D.
  - pose proof (cos_lower c). unfold f in E. rewrite sin_0 in E. rewrite Rmin_left, Rmax_right in Hc by lra.
    nra.
Qed.

(** ... and for smaller rotation vectors r' is within |r||r'| of it. *)
Theorem C64_omega_small : forall r t r', v3_derive r t r' -> 0 < v3_norm (r t) < / 1000 ->
  exists w, angular_velocity r t w /\
    v3_norm (v3_sub w (omegaFromRotationVector (r t) r')) <= v3_norm (r t) * v3_norm r'.
Proof.
  intros r t r' D [P H]. exists (omega_ab (cb (v3_norm (r t))) (ce (v3_norm (r t))) (r t) r').
  split; [apply matrix_derive; auto|].
  unfold omegaFromRotationVector. rewrite Rabs_pos_eq by lra. rcase; [|lra].
  set (v := r t) in *. set (n := v3_norm v) in *.
  pose proof (v3_norm_sq v) as NQ. fold n in NQ. pose proof (v3_norm_sq r') as NQ'.
  pose proof (v3_norm_nonneg r') as PN.
  assert (B : 0 <= cb n <= / 2).
  { unfold cb. pose proof (cos_lower n). pose proof (COS_bound n). assert (0 < n * n) by nra. split.
    - apply Rmult_le_pos; [lra|]. left. apply Rinv_0_lt_compat; auto.
    - apply Rmult_le_reg_r with (n * n); auto. unfold Rdiv. rewrite Rmult_assoc, Rinv_l by lra. lra. }
  assert (E : 0 <= ce n <= / 6).
  { unfold ce. pose proof (sin_cubic n ltac:(lra)). pose proof (sin_lt_x n ltac:(lra)).
    assert (0 < n * n) by nra. assert (0 < n * n * n) by nra. split.
    - apply Rmult_le_pos; [lra|]. left. apply Rinv_0_lt_compat; auto.
    - apply Rmult_le_reg_r with (n * n * n); auto. unfold Rdiv. rewrite Rmult_assoc, Rinv_l by lra. nra. }
  set (b := cb n) in *. set (e := ce n) in *.
  set (d := v3_sub (omega_ab b e v r') r'). pose proof (v3_norm_sq d) as ND.
  pose proof (v3_norm_nonneg d) as PD.
  set (p := cross v r').
  assert (Q : v3_norm d * v3_norm d = (vx p * vx p + vy p * vy p + vz p * vz p) * (b * b + e * e * (n * n))).
  { rewrite ND. unfold d, p. cbn. clear - NQ. nsatz. }
  assert (L : vx p * vx p + vy p * vy p + vz p * vz p <= (n * n) * (v3_norm r' * v3_norm r')).
  { rewrite NQ, NQ'. unfold p; cbn.
    pose proof (Rle_0_sqr (v3_dot v r')) as SQ. unfold Rsqr, v3_dot in SQ. lra. }
  set (m := v3_norm r') in *.
  assert (K : b * b + e * e * (n * n) <= 1).
  { assert (n * n <= 1) by nra. assert (b * b <= / 4) by nra. assert (0 <= e * e <= / 36) by nra. nra. }
  assert (Z : 0 <= b * b + e * e * (n * n)) by nra.
  apply Rsqr_incr_0_var; [|nra]. unfold Rsqr. rewrite Q.
  assert (0 <= vx p * vx p + vy p * vy p + vz p * vz p) by nra.
  replace (n * m * (n * m)) with (n * n * (m * m)) by ring.
  nra.
Qed.

(** Rotation about a fixed axis: the angular velocity is the rate. *)
Theorem C64_fixed_axis : forall (axis : V3) (angle rate : R),
  omegaFromRotationVector (v3_scale angle axis) (v3_scale rate axis) = v3_scale rate axis.
Proof.
  intros axis angle rate. unfold omegaFromRotationVector. rcase; [reflexivity|].
  apply v3_eq; cbn; ring.
Qed.

(** omegaDotFromRotationVector is the derivative of the angular velocity. *)
Theorem C64_omega_dot : forall (r r1 : R -> V3) t r2,
  v3_derive r t (r1 t) -> v3_derive r1 t r2 -> / 1000 < v3_norm (r t) ->
  v3_derive (fun u => omegaFromRotationVector (r u) (r1 u)) t (omegaDotFromRotationVector (r t) (r1 t) r2).
Proof. exact omega_derive. Qed.

(** Concrete case: a turn about z with rate 1/2, at angle 1. *)
Example C64_example : let r := fun t => mkV3 0 0 (t / 2) in
  v3_derive r 2 (mkV3 0 0 (/ 2)) /\ / 1000 <= v3_norm (r 2) /\ v3_norm (r 2) < PI /\
  angular_velocity r 2 (mkV3 0 0 (/ 2)) /\ m3_trace (matrixFromRotationVector (r 2)) <> -1.
Proof.
  intros r. assert (D : v3_derive r 2 (mkV3 0 0 (/ 2))).
  { unfold r. refine (conj _ (conj _ _)); cbn; auto_derive; auto; lra. }
  assert (N : v3_norm (r 2) = 1).
  { unfold v3_norm, r; cbn. replace (0 * 0 + 0 * 0 + 2 / 2 * (2 / 2)) with 1 by lra. apply sqrt_1. }
  pose proof PI2_1. refine (conj D (conj _ (conj _ (conj _ _)))).
  - rewrite N; lra.
  - rewrite N. lra.
  - pose proof (C64_omega r 2 _ D ltac:(rewrite N; lra)) as W.
    replace (r 2) with (v3_scale 1 (mkV3 0 0 1)) in W by (apply v3_eq; cbn; lra).
    replace (mkV3 0 0 (/ 2)) with (v3_scale (/ 2) (mkV3 0 0 1)) in W by (apply v3_eq; cbn; lra).
    rewrite C64_fixed_axis in W. unfold angular_velocity in W.
    replace (v3_scale (/ 2) (mkV3 0 0 1)) with (mkV3 0 0 (/ 2)) in W by (apply v3_eq; cbn; lra).
    exact W.
  - rewrite matrix_trace, N. pose proof (cos_gt_0 1 ltac:(lra) ltac:(lra)). lra.
Qed.

(* ------------------------------------------------------------------ *)
(** ** C78: gravity *)

(** At sea level between 9.780 and 9.833 m/s^2, smallest at the equator,
    symmetric in latitude, decreasing with height. *)
Theorem C78_gravity : forall h h' lat,
  97803 / 10000 <= MagnitudeOfGravity 0 lat <= 9833 / 1000 /\
  MagnitudeOfGravity 0 0 <= MagnitudeOfGravity 0 lat /\
  MagnitudeOfGravity h (- lat) = MagnitudeOfGravity h lat /\
  (h < h' -> MagnitudeOfGravity h' lat < MagnitudeOfGravity h lat).
Proof.
  intros h h' lat. unfold MagnitudeOfGravity.
  replace (2 * - lat) with (- (2 * lat)) by ring. rewrite !sin_neg, Rmult_0_r, sin_0, (sin_2a lat).
  pose proof (sin2_cos2 lat) as Q. unfold Rsqr in Q.
  set (s := sin lat) in *. set (c := cos lat) in *.
  assert (0 <= s * s <= 1) by nra. assert (0 <= c * c <= 1) by nra.
  assert (Z : 2 * s * c * (2 * s * c) = 4 * (s * s) * (1 - s * s)) by (rewrite <- Q; ring).
  rewrite Z. set (x := s * s) in *. repeat split; try nra.
  replace (- (2 * s * c) * - (2 * s * c)) with (2 * s * c * (2 * s * c)) by ring. rewrite Z.
  replace (- s * - s) with x by (unfold x; ring). fold x. ring.
Qed.
Example C78_example : MagnitudeOfGravity 0 0 = 9780327 / 1000000.
Proof. unfold MagnitudeOfGravity. rewrite Rmult_0_r, sin_0. lra. Qed.

Print Assumptions C64_quaternion_from_yaw.
Print Assumptions C64_yaw_round_trip.
Print Assumptions C64_euler_round_trip.
Print Assumptions C64_gimbal_lock_refuted.
Print Assumptions C64_skew.
Print Assumptions C64_skew_accepted.
Print Assumptions C64_matrix_is_rotation.
Print Assumptions C64_rotation_accepted.
Print Assumptions C64_only_rotations_refuted.
Print Assumptions C64_vector_of_matrix.
Print Assumptions C64_rotation_vector_round_trip.
Print Assumptions C64_half_turn_refuted.
Print Assumptions C64_angular_velocity_unique.
Print Assumptions C64_omega.
Print Assumptions C64_omega_small.
Print Assumptions C64_fixed_axis.
Print Assumptions C64_omega_dot.
Print Assumptions C78_gravity.
