(** omegaFromRotationVector and omegaDotFromRotationVector are the angular
    velocity and acceleration. *)
From Coq Require Import Reals Lra Lia Psatz Nsatz Bool.
From Coquelicot Require Import Coquelicot.
From Verif Require Import Base RotModel RotProofs RotDeriv.
Local Open Scope R_scope.
Set Bullet Behavior "Strict Subproofs".

Lemma omega_form r r' : / 1000 <= v3_norm r ->
  omegaFromRotationVector r r' = omega_ab (cb (v3_norm r)) (ce (v3_norm r)) r r'.
Proof.
  intros H. unfold omegaFromRotationVector. rewrite Rabs_pos_eq by lra. rcase; [lra|].
  unfold omega_ab, cb, ce. set (n := v3_norm r) in *. apply v3_eq; cbn; field; lra.
Qed.

(** The derivative of a rotation about the rotation vector r. *)
Lemma omega_matrix (r : R -> V3) t r' : v3_derive r t r' -> / 1000 <= v3_norm (r t) ->
  m3_derive (fun u => matrixFromRotationVector (r u)) t
    (m3_mul (skewMatrixFromVector (omegaFromRotationVector (r t) r')) (matrixFromRotationVector (r t))).
Proof. intros D H. rewrite omega_form by auto. apply matrix_derive; auto. lra. Qed.

Definition omega_dot_ab (b e b' e' : R) (v v' v'' : V3) : V3 :=
  let k := skewMatrixFromVector v in let k' := skewMatrixFromVector v' in
  v3_add (m3_vec (m3_add (m3_add (m3_scale b' k) (m3_scale e' (m3_mul k k))) (m3_scale e (m3_mul k' k))) v')
         (omega_ab b e v v'').

Lemma omega_ab_derive (fb fe fx fy fz gx gy gz : R -> R) (t x'' y'' z'' b' e' : R) :
  is_derive fx t (gx t) -> is_derive fy t (gy t) -> is_derive fz t (gz t) ->
  is_derive gx t x'' -> is_derive gy t y'' -> is_derive gz t z'' ->
  is_derive fb t b' -> is_derive fe t e' ->
  v3_derive (fun u => omega_ab (fb u) (fe u) (mkV3 (fx u) (fy u) (fz u)) (mkV3 (gx u) (gy u) (gz u))) t
    (omega_dot_ab (fb t) (fe t) b' e' (mkV3 (fx t) (fy t) (fz t)) (mkV3 (gx t) (gy t) (gz t)) (mkV3 x'' y'' z'')).
Proof.
  intros X Y Z X' Y' Z' DB DE.
  assert (dB : ex_derive fb t) by (eexists; exact DB). assert (dE : ex_derive fe t) by (eexists; exact DE).
  assert (dX : ex_derive fx t) by (eexists; exact X). assert (dY : ex_derive fy t) by (eexists; exact Y).
  assert (dZ : ex_derive fz t) by (eexists; exact Z).
  assert (dX' : ex_derive gx t) by (eexists; exact X'). assert (dY' : ex_derive gy t) by (eexists; exact Y').
  assert (dZ' : ex_derive gz t) by (eexists; exact Z').
  apply is_derive_unique in DB, DE, X, Y, Z, X', Y', Z'.
  unfold v3_derive. refine (conj _ (conj _ _)); cbn.
  all: evar_last; [auto_derive; [repeat split; auto|reflexivity]|].
  all: change (fun x0 => fb x0) with fb; change (fun x0 => fe x0) with fe;
       change (fun x0 => fx x0) with fx; change (fun x0 => fy x0) with fy; change (fun x0 => fz x0) with fz;
       change (fun x0 => gx x0) with gx; change (fun x0 => gy x0) with gy; change (fun x0 => gz x0) with gz;
       rewrite ?DB, ?DE, ?X, ?Y, ?Z, ?X', ?Y', ?Z'.
  all: ring.
Qed.

Lemma norm_locally (r : R -> V3) t r' : v3_derive r t r' -> / 1000 < v3_norm (r t) ->
  locally t (fun u => / 1000 < v3_norm (r u)).
Proof.
  intros D H. assert (P : 0 < v3_norm (r t)) by lra.
  pose proof (norm_derive r t r' D P) as ND.
  assert (C : continuous (fun u => v3_norm (r u)) t).
  { apply (ex_derive_continuous (fun u => v3_norm (r u))). eexists. exact ND. }
  apply C. exists (mkposreal _ (Rlt_Rminus _ _ H)). intros y Hy. cbn in *.
  apply Rabs_def2 in Hy. cbn in Hy. unfold minus, plus, opp in Hy. cbn in Hy. lra.
Qed.

Lemma omega_derive (r r1 : R -> V3) t r2 : v3_derive r t (r1 t) -> v3_derive r1 t r2 -> / 1000 < v3_norm (r t) ->
  v3_derive (fun u => omegaFromRotationVector (r u) (r1 u)) t (omegaDotFromRotationVector (r t) (r1 t) r2).
Proof.
  intros D D1 H. assert (P : 0 < v3_norm (r t)) by lra.
  pose proof (cb_derive r t (r1 t) D P) as DB. pose proof (ce_derive r t (r1 t) D P) as DE.
  pose proof (norm_locally r t _ D H) as L.
  destruct D as (X & Y & Z). destruct D1 as (X1 & Y1 & Z1).
  pose proof (omega_ab_derive (fun u => cb (v3_norm (r u))) (fun u => ce (v3_norm (r u)))
    (fun u => vx (r u)) (fun u => vy (r u)) (fun u => vz (r u))
    (fun u => vx (r1 u)) (fun u => vy (r1 u)) (fun u => vz (r1 u)) t _ _ _ _ _ X Y Z X1 Y1 Z1 DB DE) as M.
  assert (ER : forall v, mkV3 (vx v) (vy v) (vz v) = v) by (intros []; reflexivity).
  cbn beta in M. rewrite !ER in M.
  assert (EO : omegaDotFromRotationVector (r t) (r1 t) r2 =
    omega_dot_ab (cb (v3_norm (r t))) (ce (v3_norm (r t)))
      ((ca (v3_norm (r t)) - 2 * cb (v3_norm (r t))) * v3_dot (r t) (r1 t) * / (v3_norm (r t) * v3_norm (r t)))
      ((cb (v3_norm (r t)) - 3 * ce (v3_norm (r t))) * v3_dot (r t) (r1 t) * / (v3_norm (r t) * v3_norm (r t)))
      (r t) (r1 t) r2).
  { unfold omegaDotFromRotationVector. rewrite Rabs_pos_eq by lra. rcase; [lra|].
    unfold omega_dot_ab, omega_ab, ca, cb, ce. set (n := v3_norm (r t)) in *. set (q := v3_dot (r t) (r1 t)).
    apply v3_eq; cbn; field; lra. }
  rewrite EO.
  assert (EF : forall u, / 1000 < v3_norm (r u) ->
     omega_ab (cb (v3_norm (r u))) (ce (v3_norm (r u))) (mkV3 (vx (r u)) (vy (r u)) (vz (r u)))
       (mkV3 (vx (r1 u)) (vy (r1 u)) (vz (r1 u))) = omegaFromRotationVector (r u) (r1 u)).
  { intros u Hu. rewrite !ER. symmetry. apply omega_form. lra. }
  destruct M as (MX & MY & MZ). refine (conj _ (conj _ _)).
  - eapply is_derive_ext_loc; [|exact MX]. eapply filter_imp; [|exact L]. intros u Hu. cbn beta. now rewrite EF.
  - eapply is_derive_ext_loc; [|exact MY]. eapply filter_imp; [|exact L]. intros u Hu. cbn beta. now rewrite EF.
  - eapply is_derive_ext_loc; [|exact MZ]. eapply filter_imp; [|exact L]. intros u Hu. cbn beta. now rewrite EF.
Qed.
