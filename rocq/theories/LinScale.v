(** Proofs about scaling the segment times of the linear optimiser (C95). *)
From Coq Require Import Reals Lra Lia List Bool ZArith Arith.
From Coquelicot Require Import Coquelicot.
From Verif Require Import Base PolyModel PolySpec PolyProofs VertexModel VertexProofs TrajModel TrajSpec TrajProofs
  TrajOpsProofs LinOptModel LinOptSpec LinInverse LinProofs LinCost LinFinal LinUnique PropertiesLin PropertiesLin2.
Import List ListNotations.
Set Bullet Behavior "Strict Subproofs".
Local Open Scope R_scope.

(** Every fixed derivative of order 1 .. m-1 is zero. *)
Definition resting (m : nat) (vs : list vertex) : Prop :=
  forall v k c, In v vs -> (1 <= k < m)%nat -> get_constraint k v = Some c -> Forall (fun x => x = 0) c.

Definition scale_segs (k : R) (segs : list segment) : list segment := map (fun s => seg_scale s k (1 / k)) segs.

Lemma map_div_1 (v : list R) k : map (fun x => x / k ^ 0) v = v.
Proof. rewrite <- (map_id v) at 2. apply map_ext. intros. simpl. lra. Qed.
Lemma map_div_zero (v : list R) c : Forall (fun x => x = 0) v -> map (fun x => x / c) v = v.
Proof. induction 1 as [|x v H F IH]; simpl; [reflexivity|]. rewrite IH, H. f_equal. unfold Rdiv. ring. Qed.
Lemma map_div_inj (v w : list R) c : c <> 0 -> v = w -> map (fun x => x / c) v = map (fun x => x / c) w.
Proof. congruence. Qed.

Section Scale.
Variables (N D : nat) (vs : list vertex) (k : R).
Hypothesis Hk : 0 < k.

Lemma scale_interpolates times segs : resting (N / 2) vs -> interpolates N D vs times segs ->
  interpolates N D vs (map (fun T => T * k) times) (scale_segs k segs).
Proof.
  intros Rs (HT & HL & HF & HI). unfold scale_segs. split; [|split; [|split]].
  - rewrite <- HT, !map_map. reflexivity.
  - now rewrite map_length.
  - apply Forall_map. eapply Forall_impl; [|exact HF]. intros s (W & E1 & E2). split; [now apply seg_scale_wf|]. auto.
  - intros i s v v' Es Ev Ev' j c Hj. rewrite nth_error_map in Es. destruct (nth_error segs i) as [s0|] eqn:E0; [|discriminate].
    simpl in Es. injection Es as <-.
    assert (W : seg_wf s0) by (rewrite Forall_forall in HF; apply HF; eapply nth_error_In; eauto).
    assert (Z : forall u, nth_error vs i = Some u \/ nth_error vs (S i) = Some u -> get_constraint j u = Some c ->
              map (fun x => x / k ^ j) c = c).
    { intros u Hu Hc. destruct j as [|j]; [apply map_div_1|]. apply map_div_zero.
      apply (Rs u (S j)); auto; [|lia]. destruct Hu; eapply nth_error_In; eauto. }
    destruct (HI i s0 v v' E0 Ev Ev' j c Hj) as [A B]. split; intros G.
    + replace 0 with (k * 0) by ring. rewrite seg_scale_deriv by (auto; lra). rewrite (A G). eauto.
    + simpl s_time. rewrite (Rmult_comm (s_time s0)), seg_scale_deriv by (auto; lra). rewrite (B G). eauto.
Qed.

Lemma scale_smooth m segs : Forall seg_wf segs -> smooth m segs -> smooth m (scale_segs k segs).
Proof.
  intros W S i s s' E E' j Hj. unfold scale_segs in *. rewrite nth_error_map in E, E'.
  destruct (nth_error segs i) as [a|] eqn:Ea; [|discriminate]. destruct (nth_error segs (Datatypes.S i)) as [b|] eqn:Eb; [|discriminate].
  simpl in E, E'. injection E as <-. injection E' as <-. rewrite Forall_forall in W.
  simpl s_time. rewrite (Rmult_comm (s_time a)). rewrite seg_scale_deriv; [|apply W; eapply nth_error_In; eauto|lra].
  replace 0 with (k * 0) at 1 by ring. rewrite seg_scale_deriv; [|apply W; eapply nth_error_In; eauto|lra].
  f_equal. eapply S; eauto.
Qed.

Lemma scale_deriv_poly p d t : Derive_n (pval (poly_scale_time p (1 / k))) d t = (1 / k) ^ d * Derive_n (pval p) d (1 / k * t).
Proof. rewrite <- !poly_evaluate_Derive_n. apply poly_scale_time_evaluate. Qed.

Lemma scale_square p d T : RInt (fun t => Derive_n (pval (poly_scale_time p (1 / k))) d t ^ 2) 0 (T * k) =
  RInt (fun t => Derive_n (pval p) d t ^ 2) 0 T * (k * (1 / k) ^ (2 * d)).
Proof.
  set (g := fun t => Derive_n (pval p) d t ^ 2).
  assert (X : ex_RInt g (1 / k * 0 + 0) (1 / k * (T * k) + 0)) by apply square_ex.
  pose proof (RInt_comp_lin g (1 / k) 0 0 (T * k) X) as E.
  replace (1 / k * 0 + 0) with 0 in E by ring. replace (1 / k * (T * k) + 0) with T in E by (field; lra).
  rewrite <- E.
  rewrite (RInt_ext _ (fun y => scal (k * (1 / k) ^ (2 * d)) (scal (1 / k) (g (1 / k * y + 0))))).
  - rewrite (RInt_scal (V := R_CompleteNormedModule)); [unfold scal; simpl; unfold mult; simpl; ring|].
    apply (ex_RInt_comp_lin g). replace (1 / k * 0 + 0) with 0 by ring. apply square_ex.
  - intros y _. rewrite scale_deriv_poly.
    change (((1 / k) ^ d * Derive_n (pval p) d (1 / k * y)) ^ 2 =
      (k * (1 / k) ^ (2 * d)) * ((1 / k) * (Derive_n (pval p) d (1 / k * y + 0)) ^ 2)).
    rewrite Rplus_0_r, pow_mult, Rpow_mult_distr, <- !pow_mult, (Nat.mul_comm d 2). field. lra.
Qed.

Lemma scale_energy d segs : energy d (scale_segs k segs) = energy d segs * (k * (1 / k) ^ (2 * d)).
Proof.
  unfold energy, scale_segs. set (c := k * (1 / k) ^ (2 * d)).
  induction segs as [|s segs IH]; cbn [map lsum]; [ring|]. rewrite IH, Rmult_plus_distr_r. f_equal.
  unfold seg_scale. cbn [s_polys s_time]. induction (s_polys s) as [|p ps IHp]; cbn [map lsum]; [ring|].
  rewrite IHp, Rmult_plus_distr_r. f_equal. apply scale_square.
Qed.
End Scale.


(** Conditions under which the optimum is unique (C56). *)
Definition determined (d : nat) (vs : list vertex) : Prop :=
  (exists j v, nth_error vs j = Some v /\ forall k, (k < d)%nat -> exists c, get_constraint k v = Some c) \/
  (exists l, NoDup l /\ (d <= length l)%nat /\
     forall j, In j l -> exists v c, nth_error vs j = Some v /\ get_constraint 0 v = Some c).

Section Solve.
Variables (inv : inverse_routine) (qr : solve_routine) (N D : nat) (vs : list vertex) (d : nat) (o o' : opt) (k : R).
Hypotheses (HI : exact_inverse inv) (HQ : exact_solver qr) (V : valid_size N) (H2 : (2 <= length vs)%nat)
  (VD : vertices_dim D vs) (U : opt_use inv qr N D vs d o) (U' : opt_use inv qr N D vs d o')
  (UT : usable_times (o_times o)) (UT' : usable_times (o_times o'))
  (Hk : 0 < k) (HT : o_times o' = map (fun T => T * k) (o_times o)) (Rs : resting (N / 2) vs).
Let a := o_segs (solve_linear qr N o).
Let b := o_segs (solve_linear qr N o').

Lemma interp_wf times segs : interpolates N D vs times segs -> Forall seg_wf segs.
Proof. intros (_ & _ & F & _). eapply Forall_impl; [|exact F]. simpl. tauto. Qed.

Lemma scaled_energy : energy d b = energy d a * (k * (1 / k) ^ (2 * d)).
Proof.
  destruct (solve_interpolates inv qr N D vs d o HI V VD U UT) as [Ia Sa].
  destruct (solve_interpolates inv qr N D vs d o' HI V VD U' UT') as [Ib Sb]. fold a in Ia, Sa. fold b in Ib, Sb.
  assert (Hk' : 0 < 1 / k) by (apply Rdiv_lt_0_compat; lra).
  pose proof (scale_interpolates N D vs k Hk _ _ Rs Ia) as Ia'. rewrite <- HT in Ia'.
  pose proof (scale_interpolates N D vs (1 / k) Hk' _ _ Rs Ib) as Ib'.
  assert (E : map (fun T => T * (1 / k)) (o_times o') = o_times o).
  { rewrite HT, map_map. rewrite <- (map_id (o_times o)) at 2. apply map_ext. intros. field. lra. }
  rewrite E in Ib'.
  pose proof (solve_optimal inv qr N D vs d o HI HQ V H2 U UT _ Ib' (scale_smooth (1 / k) Hk' _ _ (interp_wf _ _ Ib) Sb)) as La.
  pose proof (solve_optimal inv qr N D vs d o' HI HQ V H2 U' UT' _ Ia' (scale_smooth k Hk _ _ (interp_wf _ _ Ia) Sa)) as Lb.
  fold a in La. fold b in Lb. rewrite scale_energy in La by auto. rewrite scale_energy in Lb by auto.
  apply Rle_antisym; auto.
  set (c := k * (1 / k) ^ (2 * d)) in *.
  assert (Hc : 0 < c) by (apply Rmult_lt_0_compat; [lra|now apply pow_lt]).
  replace (1 / k * (1 / (1 / k)) ^ (2 * d)) with (/ c) in La.
  - apply Rmult_le_compat_r with (r := c) in La; [|lra]. rewrite Rmult_assoc, Rinv_l, Rmult_1_r in La by lra. exact La.
  - unfold c. replace (1 / (1 / k)) with k by (field; lra). unfold Rdiv. rewrite !Rmult_1_l, pow_inv.
    field. split; [lra|]. apply pow_nonzero. lra.
Qed.

Lemma scaled_segs : determined d vs -> b = scale_segs k a.
Proof.
  intros Q.
  destruct (solve_interpolates inv qr N D vs d o HI V VD U UT) as [Ia Sa]. fold a in Ia, Sa.
  pose proof (scale_interpolates N D vs k Hk _ _ Rs Ia) as Ia'. rewrite <- HT in Ia'.
  pose proof (scale_smooth k Hk _ _ (interp_wf _ _ Ia) Sa) as Sa'.
  assert (Le : energy d (scale_segs k a) <= energy d (o_segs (solve_linear qr N o'))).
  { fold b. rewrite scaled_energy, scale_energy by auto. lra. }
  symmetry. destruct Q as [(j & v & Hv & G)|(l & ND & L & G)].
  - now apply (sol_unique_one inv qr N D vs d o') with (j := j) (v := v).
  - now apply (sol_unique_positions inv qr N D vs d o') with (l := l).
Qed.
End Solve.
