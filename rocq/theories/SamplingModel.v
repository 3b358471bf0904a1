(** Model of trajectory_sampling.cpp and of mav_msgs::EigenTrajectoryPoint and
    EigenOdometry.  Sources: MTG/src/trajectory_sampling.cpp and
    MTG/include/mav_msgs/eigen_mav_msgs.hpp. *)
From Coq Require Import Reals List ZArith Arith Bool.
From Flocq Require Import Core.
From Verif Require Import Base PolyModel VertexModel TrajModel RotModel.
Import List ListNotations.
Local Open Scope R_scope.

(** static_cast<int64_t>(x): truncation towards zero.  Values beyond +-2^63
    (292 years in nanoseconds) are outside the model. *)
Definition to_int64 (x : R) : Z := Ztrunc x.

(** MavActuation - eigen_mav_msgs.hpp:33. *)
Inductive actuation := DOF4 | DOF6.

(** EigenTrajectoryPoint - eigen_mav_msgs.hpp:163-224. *)
Record point := mkPoint {
  p_timestamp : Z; p_from_start : Z;
  p_position : V3; p_velocity : V3; p_acceleration : V3; p_jerk : V3; p_snap : V3;
  p_orientation : quat; p_ang_vel : V3; p_ang_acc : V3; p_dof : actuation }.
(** Default constructor - eigen_mav_msgs.hpp:166-177. *)
Definition point_default : point :=
  mkPoint (-1) 0 v3_zero v3_zero v3_zero v3_zero v3_zero (mkQ 1 0 0 0) v3_zero v3_zero DOF4.

(** getYaw, getYawRate, getYawAcc - eigen_mav_msgs.hpp:228-230. *)
Definition point_yaw (p : point) : R := yawFromQuaternion (p_orientation p).
Definition point_yaw_rate (p : point) : R := vz (p_ang_vel p).
Definition point_yaw_acc (p : point) : R := vz (p_ang_acc p).

(** head(3) and tail(3) of an Eigen vector. *)
Definition head3 (v : vec) : V3 := v3_of_list v.
Definition tail3 (v : vec) : V3 := v3_of_list (skipn (length v - 3) v).

(** The assignments shared by sampleFlatStateAtTime (lines 153-179) and the
    loop of sampleTrajectoryInRange (lines 77-107): derivatives 0..4, then by
    dimension setFromYaw/Rate/Acc (eigen_mav_msgs.hpp:232-244) or the rotation
    vector, then the time stamp.  [quat_of] is the constructor
    Eigen::Quaterniond(Matrix3d). *)
Definition fill_state (quat_of : M3 -> quat) (D : nat) (p v a j s : vec) (ns : Z) (st : point) : point :=
  let base := fun q w w' dof =>
    mkPoint (p_timestamp st) ns (head3 p) (head3 v) (head3 a) (head3 j) (head3 s) q w w' dof in
  if (D =? 4)%nat then
    base (quaternionFromYaw (nth 3 p 0)) (mkV3 0 0 (nth 3 v 0)) (mkV3 0 0 (nth 3 a 0)) DOF4
  else if (D =? 6)%nat then
    base (quat_of (matrixFromRotationVector (tail3 p)))
         (omegaFromRotationVector (tail3 p) (tail3 v))
         (omegaDotFromRotationVector (tail3 p) (tail3 v) (tail3 a)) DOF6
  else base (p_orientation st) (p_ang_vel st) (p_ang_acc st) DOF4.

Definition NS : R := 10 ^ 9.

(** sampleFlatStateAtTime<T> - trajectory_sampling.cpp:141-182; [ev] is
    type.evaluate.  [Failed]: returns false, state untouched. *)
Definition sample_flat_state (quat_of : M3 -> quat) (D : nat) (ev : R -> nat -> option vec)
    (t : R) (st : point) : res point :=
  if (D <? 3)%nat then Failed
  else match ev t 0%nat, ev t 1%nat, ev t 2%nat, ev t 3%nat, ev t 4%nat with
       | Some p, Some v, Some a, Some j, Some s =>
           Val (fill_state quat_of D p v a j s (to_int64 (t * NS)) st)
       | _, _, _, _, _ => Undef
       end.

(** sampleTrajectoryAtTime - trajectory_sampling.cpp:27-43; getMinTime is 0
    (trajectory.h:81). *)
Definition sample_trajectory_at_time quat_of (tr : trajectory) (t : R) (st : point) : res point :=
  if Rltb t 0 || Rltb (t_max tr) t then Failed
  else if (t_D tr <? 3)%nat then Failed
  else sample_flat_state quat_of (t_D tr) (traj_evaluate tr) t st.

(** sampleSegmentAtTime - trajectory_sampling.cpp:129-139. *)
Definition sample_segment_at_time quat_of (s : segment) (t : R) (st : point) : res point :=
  if Rltb t 0 || Rltb (s_time s) t then Failed
  else sample_flat_state quat_of (s_D s) (fun t d => Some (seg_evaluate s t d)) t st.

(** The vectors filled by one call of evaluateRange; on an out-of-range start
    it only logs and leaves the vector empty. *)
Definition range_values (fuel : nat) (tr : trajectory) (a b dt : R) (d : nat) : option (list vec) :=
  match evaluate_range fuel tr a b dt d with
  | Val l => Some (map fst l)
  | Failed => Some []
  | Undef => None
  end.

(** states->resize(n): existing elements stay, new ones are default. *)
Definition resize_states (n : nat) (old : list point) : list point :=
  firstn n old ++ repeat point_default (n - length old).

(** sampleTrajectoryInRange - trajectory_sampling.cpp:45-110.  [fuel] bounds
    the loop of evaluateRange, see [evaluate_range]. *)
Definition sample_trajectory_in_range (fuel : nat) quat_of (tr : trajectory) (a b dt : R)
    (old : list point) : res (list point) :=
  if Rltb a 0 || Rltb (t_max tr) b then Failed
  else if (t_D tr <? 3)%nat then Failed
  else match range_values fuel tr a b dt 0, range_values fuel tr a b dt 1,
             range_values fuel tr a b dt 2, range_values fuel tr a b dt 3,
             range_values fuel tr a b dt 4 with
       | Some p, Some v, Some ac, Some j, Some s =>
           let n := length p in
           Val (map (fun i => fill_state quat_of (t_D tr) (nth i p []) (nth i v []) (nth i ac [])
                                (nth i j []) (nth i s []) (to_int64 ((a + dt * INR i) * NS))
                                (nth i (resize_states n old) point_default))
                    (seq 0 n))
       | _, _, _, _, _ => Undef
       end.

(** sampleTrajectoryStartDuration - trajectory_sampling.cpp:112-117. *)
Definition sample_trajectory_start_duration fuel quat_of tr a duration dt old :=
  sample_trajectory_in_range fuel quat_of tr a (a + duration) dt old.
(** sampleWholeTrajectory - trajectory_sampling.cpp:119-127. *)
Definition sample_whole_trajectory fuel quat_of tr dt old :=
  sample_trajectory_in_range fuel quat_of tr 0 (t_max tr) dt old.

(* ------------------------------------------------------------------ *)
(** ** Change of frame *)

(** Quaternion::toRotationMatrix of Eigen. *)
Definition q_matrix (q : quat) : M3 :=
  let tx := 2 * qx q in let ty := 2 * qy q in let tz := 2 * qz q in
  mkM3 (1 - (ty * qy q + tz * qz q)) (ty * qx q - tz * qw q) (tz * qx q + ty * qw q)
       (ty * qx q + tz * qw q) (1 - (tx * qx q + tz * qz q)) (tz * qy q - tx * qw q)
       (tz * qx q - ty * qw q) (tz * qy q + tx * qw q) (1 - (tx * qx q + ty * qy q)).
(** operator*(Affine3d, EigenTrajectoryPoint) - eigen_mav_msgs.hpp:267-280.
    [rot], [tra]: linear part and translation of the transform;
    lhs.rotation() equals the linear part when that is a rotation.  In Eigen
    Matrix3 * Quaternion is the matrix product, converted back on assignment. *)
Definition transform_point (quat_of : M3 -> quat) (rot : M3) (tra : V3) (p : point) : point :=
  mkPoint (p_timestamp p) (p_from_start p)
    (v3_add (m3_vec rot (p_position p)) tra) (m3_vec rot (p_velocity p)) (m3_vec rot (p_acceleration p))
    (m3_vec rot (p_jerk p)) (m3_vec rot (p_snap p))
    (quat_of (m3_mul rot (q_matrix (p_orientation p))))
    (m3_vec rot (p_ang_vel p)) (m3_vec rot (p_ang_acc p)) (p_dof p).

(** Quaternion * vector (Eigen's _transformVector) and Quaternion::inverse. *)
Definition q_cross (a b : V3) : V3 :=
  mkV3 (vy a * vz b - vz a * vy b) (vz a * vx b - vx a * vz b) (vx a * vy b - vy a * vx b).
Definition q_transform (q : quat) (v : V3) : V3 :=
  let u := mkV3 (qx q) (qy q) (qz q) in
  let uv := q_cross u v in
  let uv := v3_add uv uv in
  v3_add (v3_add v (v3_scale (qw q) uv)) (q_cross u uv).
Definition q_inverse (q : quat) : quat :=
  let n2 := qw q * qw q + qx q * qx q + qy q * qy q + qz q * qz q in
  if Rltb 0 n2 then mkQ (qw q / n2) (- qx q / n2) (- qy q / n2) (- qz q / n2) else mkQ 0 0 0 0.

(** EigenOdometry - eigen_mav_msgs.hpp:282-330 (without the covariances). *)
Record odometry := mkOdom { o_timestamp : Z; o_position : V3; o_orientation : quat; o_velocity : V3; o_ang_vel : V3 }.
(** getVelocityWorld, setVelocityWorld - eigen_mav_msgs.hpp:324-329. *)
Definition velocity_world (o : odometry) : V3 := q_transform (o_orientation o) (o_velocity o).
Definition set_velocity_world (o : odometry) (v : V3) : odometry :=
  mkOdom (o_timestamp o) (o_position o) (o_orientation o) (q_transform (q_inverse (o_orientation o)) v) (o_ang_vel o).
(** setFromYaw, setFromYawRate, getYaw, getYawRate - eigen_mav_msgs.hpp:309-322. *)
Definition odom_set_yaw (o : odometry) (y : R) : odometry :=
  mkOdom (o_timestamp o) (o_position o) (quaternionFromYaw y) (o_velocity o) (o_ang_vel o).
Definition odom_set_yaw_rate (o : odometry) (y : R) : odometry :=
  mkOdom (o_timestamp o) (o_position o) (o_orientation o) (o_velocity o) (mkV3 0 0 y).
Definition odom_yaw (o : odometry) : R := yawFromQuaternion (o_orientation o).
Definition odom_yaw_rate (o : odometry) : R := vz (o_ang_vel o).

(** The algorithm behind Eigen::Quaterniond(Matrix3d) (Shoemake), as found in
    Eigen 3's Quaternion.h; Eigen is not part of the repository. *)
Definition eigen_quat (m : M3) : quat :=
  let tr := m00 m + m11 m + m22 m in
  if Rltb 0 tr then
    let t := sqrt (tr + 1) in
    let u := / 2 / t in
    mkQ (/ 2 * t) ((m21 m - m12 m) * u) ((m02 m - m20 m) * u) ((m10 m - m01 m) * u)
  else
    let i := if Rltb (m00 m) (m11 m) then 1%nat else 0%nat in
    let i := if Rltb (if Nat.eqb i 1 then m11 m else m00 m) (m22 m) then 2%nat else i in
    match i with
    | 0%nat => let t := sqrt (m00 m - m11 m - m22 m + 1) in let u := / 2 / t in
        mkQ ((m21 m - m12 m) * u) (/ 2 * t) ((m10 m + m01 m) * u) ((m20 m + m02 m) * u)
    | 1%nat => let t := sqrt (m11 m - m22 m - m00 m + 1) in let u := / 2 / t in
        mkQ ((m02 m - m20 m) * u) ((m01 m + m10 m) * u) (/ 2 * t) ((m21 m + m12 m) * u)
    | _ => let t := sqrt (m22 m - m00 m - m11 m + 1) in let u := / 2 / t in
        mkQ ((m10 m - m01 m) * u) ((m02 m + m20 m) * u) ((m12 m + m21 m) * u) (/ 2 * t)
    end.
