(** The contract of the quaternion constructor assumed in C65 and C80 is met by
    Eigen's algorithm in exact arithmetic. *)
From Coq Require Import Reals Lra Lia Psatz Nsatz List Bool ZArith Arith.
From Verif Require Import Base RotModel RotProofs RotDeriv SamplingModel PropertiesRot PropertiesSampling.
Local Open Scope R_scope.
Set Bullet Behavior "Strict Subproofs".

Lemma rotation_eqs a b c d e f g h i : is_rotation (mkM3 a b c d e f g h i) ->
  (a * a + d * d + g * g = 1 /\ a * b + d * e + g * h = 0 /\ a * c + d * f + g * i = 0 /\
   b * b + e * e + h * h = 1 /\ b * c + e * f + h * i = 0 /\ c * c + f * f + i * i = 1) /\
  (a * a + b * b + c * c = 1 /\ a * d + b * e + c * f = 0 /\ a * g + b * h + c * i = 0 /\
   d * d + e * e + f * f = 1 /\ d * g + e * h + f * i = 0 /\ g * g + h * h + i * i = 1) /\
  (a = e * i - f * h /\ d = c * h - b * i /\ g = b * f - c * e /\
   b = f * g - d * i /\ e = a * i - c * g /\ h = c * d - a * f /\
   c = d * h - e * g /\ f = b * g - a * h /\ i = a * e - b * d).
Proof.
  intros H. destruct (rotation_adj _ H) as [A O2]. destruct H as [O _].
  pose proof (f_equal m00 O) as P0. pose proof (f_equal m01 O) as P1. pose proof (f_equal m02 O) as P2.
  pose proof (f_equal m11 O) as P4. pose proof (f_equal m12 O) as P5. pose proof (f_equal m22 O) as P8.
  pose proof (f_equal m00 O2) as Q0. pose proof (f_equal m01 O2) as Q1. pose proof (f_equal m02 O2) as Q2.
  pose proof (f_equal m11 O2) as Q4. pose proof (f_equal m12 O2) as Q5. pose proof (f_equal m22 O2) as Q8.
  pose proof (f_equal m00 A) as A0. pose proof (f_equal m01 A) as A1. pose proof (f_equal m02 A) as A2.
  pose proof (f_equal m10 A) as A3. pose proof (f_equal m11 A) as A4. pose proof (f_equal m12 A) as A5.
  pose proof (f_equal m20 A) as A6. pose proof (f_equal m21 A) as A7. pose proof (f_equal m22 A) as A8.
  cbn in *. repeat split; lra.
Qed.


(** One quaternion entry list: [u] is 1/(2t), k = t^2. *)
Lemma scale_facts t k : 0 < t -> t * t = k -> let u := / 2 / t in
  2 * (t * u) = 1 /\ 4 * (u * u) * k = 1.
Proof. intros P <- u. split; unfold u; field; lra. Qed.

Section Cases.
Context (a b c d e f g h i : R) (H : is_rotation (mkM3 a b c d e f g h i)).
Let ok (q : quat) := q_unit q /\ forall v, q_rotate q v = m3_vec (mkM3 a b c d e f g h i) v.

Lemma entries w x y z : w * w + x * x + y * y + z * z = 1 ->
  1 - 2 * (y * y + z * z) = a -> 2 * (x * y - z * w) = b -> 2 * (x * z + y * w) = c ->
  2 * (x * y + z * w) = d -> 1 - 2 * (x * x + z * z) = e -> 2 * (y * z - x * w) = f ->
  2 * (x * z - y * w) = g -> 2 * (y * z + x * w) = h -> 1 - 2 * (x * x + y * y) = i -> ok (mkQ w x y z).
Proof.
  clear H. intros U <- <- <- <- <- <- <- <- <-. assert (U' : q_unit (mkQ w x y z)).
  { unfold q_unit; cbn [qw qx qy qz]. rewrite <- U. ring. }
  split; auto. intros v. rewrite <- q_matrix_rotate by auto. f_equal. unfold q_matrix; cbn. f_equal; ring.
Qed.

Ltac prep := destruct (rotation_eqs _ _ _ _ _ _ _ _ _ H) as ((P0 & P1 & P2 & P4 & P5 & P8) & (Q0 & Q1 & Q2 & Q4 & Q5 & Q8) &
    (A0 & A1 & A2 & A3 & A4 & A5 & A6 & A7 & A8)).

Lemma case_w t : 0 < t -> t * t = a + e + i + 1 -> let u := / 2 / t in
  ok (mkQ (/ 2 * t) ((h - f) * u) ((c - g) * u) ((d - b) * u)).
Proof.
  intros Pt T u. destruct (scale_facts t _ Pt T) as [U UU]. fold u in U, UU. clearbody u.
  set (k := a + e + i + 1) in *.
  assert (F : (h - f) * (c - g) = (d + b) * k /\ (h - f) * (d - b) = (g + c) * k /\ (c - g) * (d - b) = (f + h) * k /\
    (h - f) * (h - f) = (1 + a - e - i) * k /\ (c - g) * (c - g) = (1 + e - a - i) * k /\
    (d - b) * (d - b) = (1 + i - a - e) * k).
  { unfold k. prep. repeat split; lra. }
  destruct F as (F1 & F2 & F3 & F4 & F5 & F6).
  set (uu := u * u) in *.
  assert (X : forall p q r, p * q = r * k -> p * u * (q * u) = r / 4).
  { intros p q r E. replace (p * u * (q * u)) with (p * q * uu) by (unfold uu; ring). rewrite E.
    replace (r * k * uu) with (r * (4 * uu * k) / 4) by field. rewrite UU. field. }
  assert (Y : forall p, p * u * (/ 2 * t) = p / 4).
  { intros p. replace (p * u * (/ 2 * t)) with (p * (2 * (t * u)) / 4) by field. rewrite U. field. }
  pose proof (X _ _ _ F1). pose proof (X _ _ _ F2). pose proof (X _ _ _ F3). pose proof (X _ _ _ F4).
  pose proof (X _ _ _ F5). pose proof (X _ _ _ F6). pose proof (Y (h - f)). pose proof (Y (c - g)). pose proof (Y (d - b)).
  assert (/ 2 * t * (/ 2 * t) = k / 4) by (rewrite <- T; field).
  unfold k in *. apply entries; lra.
Qed.

Lemma case_x t : 0 < t -> t * t = a - e - i + 1 -> let u := / 2 / t in
  ok (mkQ ((h - f) * u) (/ 2 * t) ((d + b) * u) ((g + c) * u)).
Proof.
  intros Pt T u. destruct (scale_facts t _ Pt T) as [U UU]. fold u in U, UU. clearbody u.
  set (k := a - e - i + 1) in *.
  assert (F : (h - f) * (d + b) = (c - g) * k /\ (h - f) * (g + c) = (d - b) * k /\ (d + b) * (g + c) = (f + h) * k /\
    (h - f) * (h - f) = (1 + a + e + i) * k /\ (d + b) * (d + b) = (1 + e - a - i) * k /\
    (g + c) * (g + c) = (1 + i - a - e) * k).
  { unfold k. prep. repeat split; lra. }
  destruct F as (F1 & F2 & F3 & F4 & F5 & F6).
  set (uu := u * u) in *.
  assert (X : forall p q r, p * q = r * k -> p * u * (q * u) = r / 4).
  { intros p q r E. replace (p * u * (q * u)) with (p * q * uu) by (unfold uu; ring). rewrite E.
    replace (r * k * uu) with (r * (4 * uu * k) / 4) by field. rewrite UU. field. }
  assert (Y : forall p, p * u * (/ 2 * t) = p / 4).
  { intros p. replace (p * u * (/ 2 * t)) with (p * (2 * (t * u)) / 4) by field. rewrite U. field. }
  pose proof (X _ _ _ F1). pose proof (X _ _ _ F2). pose proof (X _ _ _ F3). pose proof (X _ _ _ F4).
  pose proof (X _ _ _ F5). pose proof (X _ _ _ F6). pose proof (Y (h - f)). pose proof (Y (d + b)). pose proof (Y (g + c)).
  assert (/ 2 * t * (/ 2 * t) = k / 4) by (rewrite <- T; field).
  unfold k in *. apply entries; lra.
Qed.

Lemma case_y t : 0 < t -> t * t = e - i - a + 1 -> let u := / 2 / t in
  ok (mkQ ((c - g) * u) ((b + d) * u) (/ 2 * t) ((h + f) * u)).
Proof.
  intros Pt T u. destruct (scale_facts t _ Pt T) as [U UU]. fold u in U, UU. clearbody u.
  set (k := e - i - a + 1) in *.
  assert (F : (c - g) * (b + d) = (h - f) * k /\ (c - g) * (h + f) = (d - b) * k /\ (b + d) * (h + f) = (c + g) * k /\
    (c - g) * (c - g) = (1 + a + e + i) * k /\ (b + d) * (b + d) = (1 + a - e - i) * k /\
    (h + f) * (h + f) = (1 + i - a - e) * k).
  { unfold k. prep. repeat split; lra. }
  destruct F as (F1 & F2 & F3 & F4 & F5 & F6).
  set (uu := u * u) in *.
  assert (X : forall p q r, p * q = r * k -> p * u * (q * u) = r / 4).
  { intros p q r E. replace (p * u * (q * u)) with (p * q * uu) by (unfold uu; ring). rewrite E.
    replace (r * k * uu) with (r * (4 * uu * k) / 4) by field. rewrite UU. field. }
  assert (Y : forall p, p * u * (/ 2 * t) = p / 4).
  { intros p. replace (p * u * (/ 2 * t)) with (p * (2 * (t * u)) / 4) by field. rewrite U. field. }
  pose proof (X _ _ _ F1). pose proof (X _ _ _ F2). pose proof (X _ _ _ F3). pose proof (X _ _ _ F4).
  pose proof (X _ _ _ F5). pose proof (X _ _ _ F6). pose proof (Y (c - g)). pose proof (Y (b + d)). pose proof (Y (h + f)).
  assert (/ 2 * t * (/ 2 * t) = k / 4) by (rewrite <- T; field).
  unfold k in *. apply entries; lra.
Qed.

Lemma case_z t : 0 < t -> t * t = i - a - e + 1 -> let u := / 2 / t in
  ok (mkQ ((d - b) * u) ((c + g) * u) ((f + h) * u) (/ 2 * t)).
Proof.
  intros Pt T u. destruct (scale_facts t _ Pt T) as [U UU]. fold u in U, UU. clearbody u.
  set (k := i - a - e + 1) in *.
  assert (F : (d - b) * (c + g) = (h - f) * k /\ (d - b) * (f + h) = (c - g) * k /\ (c + g) * (f + h) = (b + d) * k /\
    (d - b) * (d - b) = (1 + a + e + i) * k /\ (c + g) * (c + g) = (1 + a - e - i) * k /\
    (f + h) * (f + h) = (1 + e - a - i) * k).
  { unfold k. prep. repeat split; lra. }
  destruct F as (F1 & F2 & F3 & F4 & F5 & F6).
  set (uu := u * u) in *.
  assert (X : forall p q r, p * q = r * k -> p * u * (q * u) = r / 4).
  { intros p q r E. replace (p * u * (q * u)) with (p * q * uu) by (unfold uu; ring). rewrite E.
    replace (r * k * uu) with (r * (4 * uu * k) / 4) by field. rewrite UU. field. }
  assert (Y : forall p, p * u * (/ 2 * t) = p / 4).
  { intros p. replace (p * u * (/ 2 * t)) with (p * (2 * (t * u)) / 4) by field. rewrite U. field. }
  pose proof (X _ _ _ F1). pose proof (X _ _ _ F2). pose proof (X _ _ _ F3). pose proof (X _ _ _ F4).
  pose proof (X _ _ _ F5). pose proof (X _ _ _ F6). pose proof (Y (d - b)). pose proof (Y (c + g)). pose proof (Y (f + h)).
  assert (/ 2 * t * (/ 2 * t) = k / 4) by (rewrite <- T; field).
  unfold k in *. apply entries; lra.
Qed.

End Cases.

Theorem C65_quaternion : quat_contract eigen_quat.
Proof.
  intros [a b c d e f g h i] H.
  assert (SQ : forall x, 0 < x -> 0 < sqrt x /\ sqrt x * sqrt x = x).
  { intros x Hx. split; [now apply sqrt_lt_R0|]. apply sqrt_sqrt. lra. }
  unfold eigen_quat; cbn [m00 m01 m02 m10 m11 m12 m20 m21 m22].
  rcase.
  - destruct (SQ (a + e + i + 1) ltac:(lra)). apply case_w; auto.
  - pose proof (trace_range _ H) as TR. unfold m3_trace in TR; cbn in TR.
    destruct (Rltb a e) eqn:E1; [apply Rltb_true in E1|apply Rltb_false in E1]; cbn [Nat.eqb]; rcase.
    + destruct (SQ (i - a - e + 1) ltac:(lra)). apply case_z; auto.
    + destruct (SQ (e - i - a + 1) ltac:(lra)). apply case_y; auto.
    + destruct (SQ (i - a - e + 1) ltac:(lra)). apply case_z; auto.
    + destruct (SQ (a - e - i + 1) ltac:(lra)). apply case_x; auto.
Qed.

(** Witness: the quarter turn about z. *)
Example C65_quaternion_example : is_rotation (mkM3 0 (-1) 0 1 0 0 0 0 1) /\
  qx (eigen_quat (mkM3 0 (-1) 0 1 0 0 0 0 1)) = 0 /\ q_unit (eigen_quat (mkM3 0 (-1) 0 1 0 0 0 0 1)).
Proof.
  assert (R : is_rotation (mkM3 0 (-1) 0 1 0 0 0 0 1)).
  { split; [apply m3_eq; cbn; ring|unfold m3_det; cbn; ring]. }
  split; [exact R|]. split; [|apply (C65_quaternion _ R)].
  unfold eigen_quat; cbn. rcase; [cbn; ring|lra].
Qed.
Print Assumptions C65_quaternion.
