(** Model of the rotation helpers of mav_msgs.
    Source: MTG/include/mav_msgs/common.hpp.  Eigen's fixed-size vectors,
    matrices and quaternions are records of reals with the usual operations;
    warnings on std::cerr are omitted.  Not modelled: the ROS2 conversions
    (57-105, 120-139, disabled by the preprocessor), the rotor speeds (344-357). *)
From Coq Require Import Reals.
From Verif Require Import Base.
Local Open Scope R_scope.

(** ** Eigen::Matrix3d *)
Record M3 := mkM3 { m00 : R; m01 : R; m02 : R; m10 : R; m11 : R; m12 : R; m20 : R; m21 : R; m22 : R }.
Definition m3_zero : M3 := mkM3 0 0 0 0 0 0 0 0 0.
Definition m3_id : M3 := mkM3 1 0 0 0 1 0 0 0 1.
Definition m3_add (a b : M3) : M3 :=
  mkM3 (m00 a + m00 b) (m01 a + m01 b) (m02 a + m02 b) (m10 a + m10 b) (m11 a + m11 b) (m12 a + m12 b)
       (m20 a + m20 b) (m21 a + m21 b) (m22 a + m22 b).
Definition m3_scale (k : R) (a : M3) : M3 :=
  mkM3 (m00 a * k) (m01 a * k) (m02 a * k) (m10 a * k) (m11 a * k) (m12 a * k)
       (m20 a * k) (m21 a * k) (m22 a * k).
Definition m3_sub (a b : M3) : M3 := m3_add a (m3_scale (-1) b).
Definition m3_mul (a b : M3) : M3 :=
  mkM3 (m00 a * m00 b + m01 a * m10 b + m02 a * m20 b) (m00 a * m01 b + m01 a * m11 b + m02 a * m21 b)
       (m00 a * m02 b + m01 a * m12 b + m02 a * m22 b)
       (m10 a * m00 b + m11 a * m10 b + m12 a * m20 b) (m10 a * m01 b + m11 a * m11 b + m12 a * m21 b)
       (m10 a * m02 b + m11 a * m12 b + m12 a * m22 b)
       (m20 a * m00 b + m21 a * m10 b + m22 a * m20 b) (m20 a * m01 b + m21 a * m11 b + m22 a * m21 b)
       (m20 a * m02 b + m21 a * m12 b + m22 a * m22 b).
Definition m3_tr (a : M3) : M3 :=
  mkM3 (m00 a) (m10 a) (m20 a) (m01 a) (m11 a) (m21 a) (m02 a) (m12 a) (m22 a).
Definition m3_vec (a : M3) (v : V3) : V3 :=
  mkV3 (m00 a * vx v + m01 a * vy v + m02 a * vz v) (m10 a * vx v + m11 a * vy v + m12 a * vz v)
       (m20 a * vx v + m21 a * vy v + m22 a * vz v).
Definition m3_det (a : M3) : R :=
  m00 a * (m11 a * m22 a - m12 a * m21 a) - m01 a * (m10 a * m22 a - m12 a * m20 a)
  + m02 a * (m10 a * m21 a - m11 a * m20 a).
Definition m3_trace (a : M3) : R := m00 a + m11 a + m22 a.
(** norm(): Frobenius. *)
Definition m3_norm (a : M3) : R :=
  sqrt (m00 a ^ 2 + m01 a ^ 2 + m02 a ^ 2 + m10 a ^ 2 + m11 a ^ 2 + m12 a ^ 2 + m20 a ^ 2 + m21 a ^ 2 + m22 a ^ 2).
Definition v3_scale (k : R) (v : V3) : V3 := mkV3 (k * vx v) (k * vy v) (k * vz v).
Definition v3_dot (a b : V3) : R := vx a * vx b + vy a * vy b + vz a * vz b.

(** ** Eigen::Quaterniond *)
Record quat := mkQ { qw : R; qx : R; qy : R; qz : R }.

(** std::atan2 without signed zeros. *)
Definition atan2 (y x : R) : R :=
  if Rltb 0 x then atan (y / x)
  else if Rltb x 0 then (if Rltb y 0 then atan (y / x) - PI else atan (y / x) + PI)
  else if Rltb 0 y then PI / 2 else if Rltb y 0 then - (PI / 2) else 0.

(** kSmallValueCheck - common.hpp:36. *)
Definition kSmall : R := / 1000000.

(** yawFromQuaternion - common.hpp:111-114. *)
Definition yawFromQuaternion (q : quat) : R :=
  atan2 (2 * (qw q * qz q + qx q * qy q)) (1 - 2 * (qy q * qy q + qz q * qz q)).

(** quaternionFromYaw - common.hpp:116-118; Quaternion(AngleAxis(a, n)) is
    (cos (a/2), sin (a/2) n) with n = UnitZ. *)
Definition quaternionFromYaw (yaw : R) : quat := mkQ (cos (yaw / 2)) 0 0 (sin (yaw / 2)).

(** getEulerAnglesFromQuaternion - common.hpp:141-152. *)
Definition eulerFromQuaternion (q : quat) : V3 :=
  mkV3 (atan2 (2 * (qw q * qx q + qy q * qz q)) (1 - 2 * (qx q * qx q + qy q * qy q)))
       (asin (2 * (qw q * qy q - qz q * qx q)))
       (atan2 (2 * (qw q * qz q + qx q * qy q)) (1 - 2 * (qy q * qy q + qz q * qz q))).

(** skewMatrixFromVector - common.hpp:154-159. *)
Definition skewMatrixFromVector (v : V3) : M3 :=
  mkM3 0 (- vz v) (vy v) (vz v) 0 (- vx v) (- vy v) (vx v) 0.

(** vectorFromSkewMatrix - common.hpp:161-172: return value and *vec. *)
Definition vectorFromSkewMatrix (m : M3) : bool * V3 :=
  if Rltb (m3_norm (m3_add m (m3_tr m))) kSmall then (true, mkV3 (m21 m) (m02 m) (m10 m))
  else (false, v3_zero).

(** isRotationMatrix - common.hpp:174-186. *)
Definition isRotationMatrix (m : M3) : bool :=
  if Rltb kSmall (m3_norm (m3_sub (m3_mul (m3_tr m) m) m3_id)) then false
  else if Rltb kSmall (m3_det m - 1) then false else true.

(** matrixFromRotationVector - common.hpp:191-204. *)
Definition matrixFromRotationVector (v : V3) : M3 :=
  let n := v3_norm v in
  let k := if Rltb 0 n then skewMatrixFromVector (v3_scale (/ n) v) else m3_zero in
  m3_add (m3_add m3_id (m3_scale (sin n) k)) (m3_scale (1 - cos n) (m3_mul k k)).

(** vectorFromRotationMatrix - common.hpp:209-247: [NotRotation] when it returns
    false; [NoValue] when it divides zero by zero (sin phi = 0 with phi > 0). *)
Inductive vres := Vec (v : V3) | NotRotation | NoValue.
Definition vectorFromRotationMatrix (m : M3) : vres :=
  if negb (isRotationMatrix m) then NotRotation
  else if Rltb (m3_norm (m3_sub m m3_id)) kSmall then Vec v3_zero
  else
    let cos_phi := (m3_trace m - 1) / 2 in
    let phi := acos (Rmax (-1) (Rmin 1 cos_phi)) in
    if Rltb phi kSmall then Vec v3_zero
    else if Req_EM_T (sin phi) 0 then NoValue
    else
      let sk := m3_scale (/ (2 * sin phi)) (m3_scale phi (m3_sub m (m3_tr m))) in
      let '(ok, v) := vectorFromSkewMatrix sk in
      if ok then Vec v else NotRotation.

(** omegaFromRotationVector - common.hpp:252-274. *)
Definition omegaFromRotationVector (r r' : V3) : V3 :=
  let phi := v3_norm r in
  if Rltb (Rabs phi) (/ 1000) then r'
  else
    let phi_inv := 1 / phi in
    let phi_2_inv := phi_inv / phi in
    let phi_3_inv := phi_2_inv / phi in
    let k := skewMatrixFromVector r in
    let w := m3_add (m3_add m3_id (m3_scale phi_2_inv (m3_scale (1 - cos phi) k)))
                    (m3_scale phi_3_inv (m3_scale (phi - sin phi) (m3_mul k k))) in
    m3_vec w r'.

(** omegaDotFromRotationVector - common.hpp:279-319. *)
Definition omegaDotFromRotationVector (r r' r'' : V3) : V3 :=
  let phi := v3_norm r in
  if Rltb (Rabs phi) (/ 1000) then r''
  else
    let phi_dot := v3_dot r r' / phi in
    let phi_inv := 1 / phi in
    let phi_2_inv := phi_inv / phi in
    let phi_3_inv := phi_2_inv / phi in
    let phi_4_inv := phi_3_inv / phi in
    let k := skewMatrixFromVector r in
    let k' := skewMatrixFromVector r' in
    let w_vel :=
      m3_add (m3_add
        (m3_scale phi_3_inv (m3_scale phi_dot (m3_scale (phi * sin phi - 2 + 2 * cos phi) k)))
        (m3_scale phi_4_inv (m3_scale phi_dot (m3_scale (- 2 * phi - phi * cos phi + 3 * sin phi) (m3_mul k k)))))
        (m3_scale phi_3_inv (m3_scale (phi - sin phi) (m3_mul k' k))) in
    let w_acc :=
      m3_add (m3_add m3_id (m3_scale phi_2_inv (m3_scale (1 - cos phi) k)))
             (m3_scale phi_3_inv (m3_scale (phi - sin phi) (m3_mul k k))) in
    v3_add (m3_vec w_vel r') (m3_vec w_acc r'').

(** MagnitudeOfGravity - common.hpp:42-56. *)
Definition MagnitudeOfGravity (height latitude : R) : R :=
  let s := sin latitude * sin latitude in
  let s2 := sin (2 * latitude) * sin (2 * latitude) in
  9780327 / 1000000 * ((1 + 53024 / 10000000 * s - 58 / 10000000 * s2) - 3155 / 1000 * / 10000000 * height).
