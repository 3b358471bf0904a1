(** Common vocabulary of the model: constants of the C++ code, boolean
    comparisons on reals, three-vectors, finite sums.

    [double] is modelled by [R] (see DESIGN.md, section 2). *)
From Coq Require Import Reals Lra Lia List Bool ZArith.
Import ListNotations.
Local Open Scope R_scope.

(* ------------------------------------------------------------------ *)
(** ** Boolean comparisons (C++ <, <=, >, >= on double, without NaN) *)

Definition Rltb (x y : R) : bool := if Rlt_dec x y then true else false.
Definition Rleb (x y : R) : bool := if Rle_dec x y then true else false.

Lemma Rltb_true x y : Rltb x y = true <-> x < y.
Proof. unfold Rltb; destruct (Rlt_dec x y); split; intros; auto; try discriminate; lra. Qed.
Lemma Rltb_false x y : Rltb x y = false <-> y <= x.
Proof. unfold Rltb; destruct (Rlt_dec x y); split; intros; auto; try discriminate; lra. Qed.
Lemma Rleb_true x y : Rleb x y = true <-> x <= y.
Proof. unfold Rleb; destruct (Rle_dec x y); split; intros; auto; try discriminate; lra. Qed.
Lemma Rleb_false x y : Rleb x y = false <-> y < x.
Proof. unfold Rleb; destruct (Rle_dec x y); split; intros; auto; try discriminate; lra. Qed.

(** Case analysis on every boolean comparison in the goal or a hypothesis. *)
Ltac rcase :=
  match goal with
  | |- context [Rltb ?x ?y] =>
      let H := fresh "Hlt" in
      destruct (Rltb x y) eqn:H; [apply Rltb_true in H | apply Rltb_false in H]
  | |- context [Rleb ?x ?y] =>
      let H := fresh "Hle" in
      destruct (Rleb x y) eqn:H; [apply Rleb_true in H | apply Rleb_false in H]
  end.
Ltac rcase_in H0 :=
  match type of H0 with
  | context [Rltb ?x ?y] =>
      let H := fresh "Hlt" in
      destruct (Rltb x y) eqn:H; [apply Rltb_true in H | apply Rltb_false in H]
  | context [Rleb ?x ?y] =>
      let H := fresh "Hle" in
      destruct (Rleb x y) eqn:H; [apply Rleb_true in H | apply Rleb_false in H]
  end.

(* ------------------------------------------------------------------ *)
(** ** Numeric constants *)

(** [std::numeric_limits<double>::max()] *)
Definition DBL_MAX : R := (2 - / 2 ^ 52) * 2 ^ 1023.
(** [std::numeric_limits<double>::min()], the smallest positive normal double *)
Definition DBL_MIN : R := / 2 ^ 1022.
(** [std::numeric_limits<double>::epsilon()] *)
Definition DBL_EPS : R := / 2 ^ 52.
(** The double obtained from the float literal [0.1f]
    (dynamic_trajectory.cpp:732). *)
Definition STEP : R := 13421773 / 134217728.

Lemma pow2_pos n : 0 < 2 ^ n.
Proof. apply pow_lt; lra. Qed.
Lemma DBL_MAX_pos : 0 < DBL_MAX.
Proof.
  unfold DBL_MAX. apply Rmult_lt_0_compat; [|apply pow2_pos].
  assert (/ 2 ^ 52 <= 1).
  { rewrite <- Rinv_1. apply Rinv_le_contravar; [lra|].
    apply pow_R1_Rle; lra. }
  lra.
Qed.
Lemma DBL_MIN_pos : 0 < DBL_MIN.
Proof. apply Rinv_0_lt_compat, pow2_pos. Qed.
Lemma DBL_EPS_pos : 0 < DBL_EPS.
Proof. apply Rinv_0_lt_compat, pow2_pos. Qed.
Lemma STEP_pos : 0 < STEP.
Proof. unfold STEP; lra. Qed.

(* ------------------------------------------------------------------ *)
(** ** Three-vectors (Eigen::Vector3d) *)

Record V3 := mkV3 { vx : R; vy : R; vz : R }.

Definition v3_zero : V3 := mkV3 0 0 0.
Definition v3_add (a b : V3) : V3 := mkV3 (vx a + vx b) (vy a + vy b) (vz a + vz b).
Definition v3_sub (a b : V3) : V3 := mkV3 (vx a - vx b) (vy a - vy b) (vz a - vz b).
Definition v3_norm (a : V3) : R := sqrt (vx a * vx a + vy a * vy a + vz a * vz a).
Definition v3_list (a : V3) : list R := [vx a; vy a; vz a].
(** Assigning an Eigen::VectorXd to a Vector3d (Eigen requires size 3; the
    model reads missing components as 0, which never happens for D = 3). *)
Definition v3_of_list (l : list R) : V3 := mkV3 (nth 0 l 0) (nth 1 l 0) (nth 2 l 0).
(** Component access [v[i]]. *)
Definition v3_nth (i : nat) (a : V3) : R :=
  match i with O => vx a | S O => vy a | _ => vz a end.

Lemma v3_eq a b : vx a = vx b -> vy a = vy b -> vz a = vz b -> a = b.
Proof. destruct a, b; simpl; intros; subst; reflexivity. Qed.
Lemma v3_of_list_list a : v3_of_list (v3_list a) = a.
Proof. destruct a; reflexivity. Qed.
Lemma v3_add_0_r a : v3_add a v3_zero = a.
Proof. apply v3_eq; simpl; lra. Qed.
Lemma v3_add_0_l a : v3_add v3_zero a = a.
Proof. apply v3_eq; simpl; lra. Qed.
Lemma v3_add_assoc a b c : v3_add a (v3_add b c) = v3_add (v3_add a b) c.
Proof. apply v3_eq; simpl; lra. Qed.
Lemma v3_add_comm a b : v3_add a b = v3_add b a.
Proof. apply v3_eq; simpl; lra. Qed.
Lemma v3_norm_nonneg a : 0 <= v3_norm a.
Proof. apply sqrt_pos. Qed.

(* ------------------------------------------------------------------ *)
(** ** Finite sums *)

(** [rsum n f] is [f 0 + ... + f (n-1)]. *)
Fixpoint rsum (n : nat) (f : nat -> R) : R :=
  match n with O => 0 | S m => rsum m f + f m end.

(** Sum of a list. *)
Fixpoint lsum (l : list R) : R :=
  match l with [] => 0 | x :: l' => x + lsum l' end.

Lemma rsum_ext n f g : (forall i, (i < n)%nat -> f i = g i) -> rsum n f = rsum n g.
Proof.
  induction n; simpl; intros; auto.
  rewrite IHn; [rewrite H by lia; reflexivity | intros; apply H; lia].
Qed.
Lemma rsum_0 n : rsum n (fun _ => 0) = 0.
Proof. induction n; simpl; lra. Qed.
Lemma rsum_zero n f : (forall i, (i < n)%nat -> f i = 0) -> rsum n f = 0.
Proof. intros. rewrite (rsum_ext n f (fun _ => 0)) by auto. apply rsum_0. Qed.
Lemma rsum_plus n f g : rsum n (fun i => f i + g i) = rsum n f + rsum n g.
Proof. induction n; simpl; lra. Qed.
Lemma rsum_minus n f g : rsum n (fun i => f i - g i) = rsum n f - rsum n g.
Proof. induction n; simpl; lra. Qed.
Lemma rsum_scal n c f : rsum n (fun i => c * f i) = c * rsum n f.
Proof. induction n; simpl; [lra|]. rewrite IHn. lra. Qed.
Lemma rsum_scal_r n c f : rsum n (fun i => f i * c) = rsum n f * c.
Proof. induction n; simpl; [lra|]. rewrite IHn. lra. Qed.
Lemma rsum_S_l n f : rsum (S n) f = f O + rsum n (fun i => f (S i)).
Proof. induction n; simpl in *; [lra|]. rewrite IHn. lra. Qed.
Lemma rsum_split n m f : rsum (n + m) f = rsum n f + rsum m (fun i => f (n + i)%nat).
Proof.
  induction m; simpl.
  - rewrite Nat.add_0_r. lra.
  - rewrite Nat.add_succ_r. simpl. rewrite IHm. lra.
Qed.
Lemma rsum_nonneg n f : (forall i, (i < n)%nat -> 0 <= f i) -> 0 <= rsum n f.
Proof.
  induction n; simpl; intros; [lra|].
  assert (0 <= f n) by (apply H; lia). assert (0 <= rsum n f) by (apply IHn; intros; apply H; lia). lra.
Qed.
Lemma rsum_le n f g : (forall i, (i < n)%nat -> f i <= g i) -> rsum n f <= rsum n g.
Proof.
  induction n; simpl; intros; [lra|].
  assert (f n <= g n) by (apply H; lia). assert (rsum n f <= rsum n g) by (apply IHn; intros; apply H; lia). lra.
Qed.
Lemma rsum_swap n m f :
  rsum n (fun i => rsum m (fun j => f i j)) = rsum m (fun j => rsum n (fun i => f i j)).
Proof.
  induction n; simpl.
  - rewrite rsum_0. reflexivity.
  - rewrite IHn. rewrite <- rsum_plus. reflexivity.
Qed.
(** Only one index contributes. *)
Lemma rsum_single n k f :
  (k < n)%nat -> (forall i, (i < n)%nat -> i <> k -> f i = 0) -> rsum n f = f k.
Proof.
  induction n; simpl; intros; [lia|].
  destruct (Nat.eq_dec k n) as [->|].
  - rewrite rsum_zero; [lra|]. intros; apply H0; lia.
  - rewrite IHn by (try lia; intros; apply H0; lia). rewrite (H0 n) by lia. lra.
Qed.

Lemma lsum_app l1 l2 : lsum (l1 ++ l2) = lsum l1 + lsum l2.
Proof. induction l1; simpl; lra. Qed.
Lemma lsum_nonneg l : Forall (fun x => 0 <= x) l -> 0 <= lsum l.
Proof. induction 1; simpl; lra. Qed.
Lemma lsum_rsum l : lsum l = rsum (length l) (fun i => nth i l 0).
Proof.
  induction l; [reflexivity|]. simpl length. rewrite rsum_S_l. simpl. rewrite IHl. reflexivity.
Qed.

(** Equality of two explicit lists of real expressions. *)
Ltac list_lra := repeat (apply (f_equal2 (@cons R)); [lra|]); reflexivity.
