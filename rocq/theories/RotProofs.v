(** Proofs about the rotation helpers. *)
From Coq Require Import Reals Lra Lia Psatz Nsatz Bool.
From Coquelicot Require Import Coquelicot.
From Verif Require Import Base RotModel.
Local Open Scope R_scope.
Set Bullet Behavior "Strict Subproofs".

Lemma m3_eq a b :
  m00 a = m00 b -> m01 a = m01 b -> m02 a = m02 b -> m10 a = m10 b -> m11 a = m11 b -> m12 a = m12 b ->
  m20 a = m20 b -> m21 a = m21 b -> m22 a = m22 b -> a = b.
Proof. destruct a, b; cbn; congruence. Qed.

Definition is_rotation (m : M3) : Prop := m3_mul (m3_tr m) m = m3_id /\ m3_det m = 1.

(** ** atan2 *)

Lemma tan_half_pos x : - PI / 2 < x < PI / 2 -> 0 < cos x.
Proof. intros H. apply cos_gt_0; lra. Qed.

Lemma atan2_polar r th : 0 < r -> - PI < th <= PI -> atan2 (r * sin th) (r * cos th) = th.
Proof.
  intros Hr Hth. pose proof PI_RGT_0. unfold atan2.
  assert (Q : forall u, cos u <> 0 -> r * sin u / (r * cos u) = tan u).
  { intros u Hu. unfold tan. field. split; lra. }
  destruct (Rlt_le_dec (- (PI / 2)) th) as [A|A]; [destruct (Rlt_le_dec th (PI / 2)) as [B|B]|].
  - assert (C : 0 < cos th) by (apply cos_gt_0; lra).
    rewrite (proj2 (Rltb_true 0 (r * cos th))) by nra. rewrite Q by lra. apply atan_tan. lra.
  - destruct (Req_dec th (PI / 2)) as [->|D].
    + rewrite cos_PI2, sin_PI2. rewrite !Rmult_0_r, Rmult_1_r. rcase; [lra|]. rcase; [lra|]. rcase; lra.
    + assert (C : cos th < 0) by (apply cos_lt_0; lra).
      assert (S : 0 <= sin th) by (apply sin_ge_0; lra).
      rcase; [nra|]. rcase; [|nra]. rcase; [nra|]. rewrite Q by lra.
      replace (tan th) with (tan (th - PI)).
      * rewrite atan_tan by lra. lra.
      * unfold tan. rewrite sin_minus, cos_minus, sin_PI, cos_PI. field. lra.
  - destruct (Req_dec th (- (PI / 2))) as [->|D].
    + rewrite cos_neg, sin_neg, cos_PI2, sin_PI2. rewrite !Rmult_0_r.
      repeat (rcase; try nra).
    + assert (C : cos th < 0). { rewrite <- cos_neg. apply cos_lt_0; lra. }
      assert (S : sin th < 0). { rewrite <- (Ropp_involutive (sin th)), <- sin_neg. 
        pose proof (sin_gt_0 (- th) ltac:(lra) ltac:(lra)). lra. }
      rcase; [nra|]. rcase; [|nra]. rcase; [|nra]. rewrite Q by lra.
      replace (tan th) with (tan (th + PI)).
      * rewrite atan_tan by lra. lra.
      * unfold tan. rewrite sin_plus, cos_plus, sin_PI, cos_PI. field. lra.
Qed.

(** ** Norms *)

Lemma v3_norm_sq v : v3_norm v * v3_norm v = vx v * vx v + vy v * vy v + vz v * vz v.
Proof. unfold v3_norm. apply sqrt_sqrt. nra. Qed.
Lemma v3_norm_pos v : v <> v3_zero -> 0 < v3_norm v.
Proof.
  intros H. destruct (v3_norm_nonneg v) as [|E]; auto. exfalso. apply H.
  pose proof (v3_norm_sq v) as Q. rewrite <- E in Q.
  apply v3_eq; cbn; nra.
Qed.
Lemma v3_norm_zero : v3_norm v3_zero = 0.
Proof. unfold v3_norm. cbn. rewrite !Rmult_0_l, !Rplus_0_l. apply sqrt_0. Qed.
Lemma v3_norm_eq0 v : v3_norm v = 0 -> v = v3_zero.
Proof. intros E. pose proof (v3_norm_sq v) as Q. rewrite E in Q. apply v3_eq; cbn; nra. Qed.

Lemma unit_of v : v <> v3_zero -> let n := v3_norm v in
  (/ n * vx v) * (/ n * vx v) + (/ n * vy v) * (/ n * vy v) + (/ n * vz v) * (/ n * vz v) = 1.
Proof.
  intros H n. pose proof (v3_norm_pos v H) as P. fold n in P. pose proof (v3_norm_sq v) as Q. fold n in Q.
  replace (/ n * vx v * (/ n * vx v) + / n * vy v * (/ n * vy v) + / n * vz v * (/ n * vz v))
    with ((vx v * vx v + vy v * vy v + vz v * vz v) / (n * n)) by (field; lra).
  rewrite <- Q. field. lra.
Qed.

(** Rodrigues' formula with a unit axis. *)
Definition rodrigues (x y z s c : R) : M3 :=
  let k := skewMatrixFromVector (mkV3 x y z) in
  m3_add (m3_add m3_id (m3_scale s k)) (m3_scale (1 - c) (m3_mul k k)).

Lemma matrix_rodrigues v : v <> v3_zero -> let n := v3_norm v in
  matrixFromRotationVector v = rodrigues (/ n * vx v) (/ n * vy v) (/ n * vz v) (sin n) (cos n).
Proof.
  intros H n. unfold matrixFromRotationVector. fold n.
  rewrite (proj2 (Rltb_true 0 n)) by (apply v3_norm_pos; auto). reflexivity.
Qed.
Lemma matrix_zero : matrixFromRotationVector v3_zero = m3_id.
Proof.
  unfold matrixFromRotationVector. rewrite v3_norm_zero. rcase; [lra|].
  apply m3_eq; cbn; ring.
Qed.

Lemma rodrigues_rotation x y z s c : x * x + y * y + z * z = 1 -> s * s + c * c = 1 ->
  is_rotation (rodrigues x y z s c).
Proof.
  intros U T. split.
  - apply m3_eq; cbn; nsatz.
  - unfold m3_det; cbn. nsatz.
Qed.
Lemma rodrigues_axis x y z s c : m3_vec (rodrigues x y z s c) (mkV3 x y z) = mkV3 x y z.
Proof. apply v3_eq; cbn; ring. Qed.
Lemma rodrigues_trace x y z s c : x * x + y * y + z * z = 1 -> m3_trace (rodrigues x y z s c) = 1 + 2 * c.
Proof. intros U. unfold m3_trace; cbn. nsatz. Qed.
Lemma rodrigues_skew x y z s c : m3_sub (rodrigues x y z s c) (m3_tr (rodrigues x y z s c)) =
  m3_scale (2 * s) (skewMatrixFromVector (mkV3 x y z)).
Proof. apply m3_eq; cbn; ring. Qed.

Lemma matrix_rotation v : is_rotation (matrixFromRotationVector v).
Proof.
  destruct (Req_dec (v3_norm v) 0) as [E|E].
  - rewrite (v3_norm_eq0 v E), matrix_zero. split; [apply m3_eq; cbn; ring|unfold m3_det; cbn; ring].
  - assert (H : v <> v3_zero) by (intros ->; apply E, v3_norm_zero).
    rewrite matrix_rodrigues by auto. apply rodrigues_rotation; [now apply unit_of|].
    pose proof (sin2_cos2 (v3_norm v)). unfold Rsqr in *. lra.
Qed.

Lemma m3_norm_zero m : m = m3_zero -> m3_norm m = 0.
Proof. intros ->. unfold m3_norm; cbn [m3_zero m00 m01 m02 m10 m11 m12 m20 m21 m22].
  replace (_ + _) with 0 by ring. apply sqrt_0. Qed.
Lemma m3_norm_nonneg m : 0 <= m3_norm m.
Proof. apply sqrt_pos. Qed.
Lemma kSmall_pos : 0 < kSmall. Proof. unfold kSmall. lra. Qed.

Lemma rotation_accepted m : is_rotation m -> isRotationMatrix m = true.
Proof.
  intros [O D]. unfold isRotationMatrix. rewrite O, D.
  rewrite (m3_norm_zero (m3_sub m3_id m3_id)) by (apply m3_eq; cbn; ring).
  pose proof kSmall_pos. rcase; [lra|]. rcase; [lra|]. reflexivity.
Qed.

Lemma skew_round v : vectorFromSkewMatrix (skewMatrixFromVector v) = (true, v).
Proof.
  unfold vectorFromSkewMatrix. rewrite m3_norm_zero by (apply m3_eq; cbn; ring).
  pose proof kSmall_pos. rcase; [|lra]. destruct v; reflexivity.
Qed.
