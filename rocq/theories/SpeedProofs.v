(** How fast a polynomial curve must be somewhere, given where it is at the two
    ends of a time interval. *)
From Coq Require Import Reals Lra Lia List Bool Arith.
From Coquelicot Require Import Coquelicot.
From Verif Require Import Base PolyModel PolySpec VertexModel TrajModel TrajSpec PolyProofs VertexProofs TrajProofs LinAlg.
Import List ListNotations.
Local Open Scope R_scope.
Set Bullet Behavior "Strict Subproofs".

(** ** Scalar product and norm of the first D components *)
Definition dot (D : nat) (x y : nat -> R) : R := rsum D (fun i => x i * y i).
Definition nrm (D : nat) (x : nat -> R) : R := sqrt (dot D x x).
Lemma dot_nonneg D x : 0 <= dot D x x.
Proof. apply rsum_nonneg. intros. nra. Qed.
Lemma dot_zero D x : dot D x x = 0 -> forall i, (i < D)%nat -> x i = 0.
Proof.
  induction D; intros H i Hi; [lia|]. unfold dot in *. cbn [rsum] in H.
  assert (0 <= rsum D (fun i => x i * x i)) by (apply rsum_nonneg; intros; nra).
  assert (0 <= x D * x D) by nra. destruct (Nat.eq_dec i D) as [->|Hn]; [nra|]. apply IHD; [lra|lia].
Qed.
Lemma dot_lin D a b x y z : dot D z (fun i => a * x i + b * y i) = a * dot D z x + b * dot D z y.
Proof.
  unfold dot. rewrite <- !rsum_scal, <- rsum_plus. apply rsum_ext. intros. ring.
Qed.
Lemma dot_sym D x y : dot D x y = dot D y x.
Proof. unfold dot. apply rsum_ext. intros. ring. Qed.
Lemma dot_ext D x y x' y' : (forall i, (i < D)%nat -> x i = x' i) -> (forall i, (i < D)%nat -> y i = y' i) -> dot D x y = dot D x' y'.
Proof. intros A B. unfold dot. apply rsum_ext. intros. rewrite A, B by auto. reflexivity. Qed.
Lemma cauchy_schwarz D x y : dot D x y <= nrm D x * nrm D y.
Proof.
  set (A := dot D x x). set (B := dot D x y). set (C := dot D y y).
  assert (HA : 0 <= A) by apply dot_nonneg. assert (HC : 0 <= C) by apply dot_nonneg.
  assert (S2 : B * B <= A * C).
  { destruct (Req_dec A 0) as [Z|Z].
    - assert (B = 0); [|rewrite Z; nra]. unfold B, dot. apply rsum_zero. intros i Hi. rewrite (dot_zero D x Z i Hi). ring.
    - assert (Q : 0 <= dot D (fun i => A * y i + (- B) * x i) (fun i => A * y i + (- B) * x i)) by apply dot_nonneg.
      rewrite dot_lin, (dot_sym D _ y), (dot_sym D _ x), !dot_lin in Q. fold C A B in Q. rewrite (dot_sym D y x) in Q. fold B in Q.
      assert (0 <= A * (A * C - B * B)) by nra. assert (0 < A) by lra. nra. }
  unfold nrm. fold A C. rewrite <- sqrt_mult by auto. destruct (Rle_dec B 0) as [HB|HB].
  - pose proof (sqrt_pos (A * C)). lra.
  - rewrite <- (sqrt_square B) by lra. apply sqrt_le_1_alt. exact S2.
Qed.
Lemma nrm_sqr D x : nrm D x * nrm D x = dot D x x.
Proof. apply sqrt_sqrt, dot_nonneg. Qed.
Lemma nrm_nonneg D x : 0 <= nrm D x. Proof. apply sqrt_pos. Qed.
Lemma nrm_ext D x y : (forall i, (i < D)%nat -> x i = y i) -> nrm D x = nrm D y.
Proof. intros H. unfold nrm. f_equal. apply dot_ext; auto. Qed.
Lemma vec_norm_nrm v : vec_norm v = nrm (length v) (fun i => nth i v 0).
Proof.
  unfold vec_norm, nrm, dot. f_equal. rewrite lsum_rsum, map_length. apply rsum_ext. intros i Hi.
  rewrite (nth_indep _ 0 ((fun x => x * x) 0)) by (rewrite map_length; auto). rewrite (map_nth (fun x => x * x)). reflexivity.
Qed.

(** ** Curves with a bounded speed *)
Section Curve.
Variables (D : nat) (f g : nat -> R -> R) (T v : R).
Hypothesis HT : 0 < T.
Hypothesis Hd : forall i t, is_derive (f i) t (g i t).
Hypothesis Hv : forall t, 0 <= t <= T -> nrm D (fun i => g i t) <= v.
Let u (i : nat) : R := f i T - f i 0.
Let L := nrm D u.

Lemma is_derive_dot n (c : nat -> R) t : is_derive (fun x => rsum n (fun i => c i * f i x)) t (rsum n (fun i => c i * g i t)).
Proof.
  induction n; cbn [rsum]; [apply (@is_derive_const R_AbsRing R_NormedModule 0)|].
  apply (is_derive_plus (fun x => rsum n (fun i => c i * f i x)) (fun x => c n * f n x)); [exact IHn|].
  apply (is_derive_scal (f n)). apply Hd.
Qed.
Let phi (x : R) : R := dot D u (fun i => f i x).
Lemma phi_derive t : is_derive phi t (dot D u (fun i => g i t)).
Proof. apply is_derive_dot. Qed.
Lemma phi_gap : phi T - phi 0 = L * L.
Proof.
  unfold L. rewrite nrm_sqr. unfold phi, dot. rewrite <- rsum_minus. apply rsum_ext. intros. unfold u. ring.
Qed.
Lemma phi_slope t : 0 <= t <= T -> dot D u (fun i => g i t) <= L * v.
Proof.
  intros Ht. eapply Rle_trans; [apply cauchy_schwarz|]. apply Rmult_le_compat_l; [apply nrm_nonneg|]. apply Hv; auto.
Qed.
Lemma mean_value h h' a b : a < b -> (forall t, is_derive h t (h' t)) -> exists c, a < c < b /\ h b - h a = h' c * (b - a).
Proof.
  intros Hab H. destruct (MVT_cor2 h h' a b Hab) as (c & E & Hc); [|exists c; auto].
  intros c _. apply is_derive_Reals. apply H.
Qed.
(** The time needed is at least distance / speed. *)
Lemma time_needed : L <= v * T.
Proof.
  destruct (mean_value phi (fun t => dot D u (fun i => g i t)) 0 T HT phi_derive) as (c & Hc & E).
  rewrite phi_gap in E. pose proof (phi_slope c ltac:(lra)) as S. pose proof (nrm_nonneg D u) as HL. fold L in HL.
  assert (0 <= v). { eapply Rle_trans; [apply (nrm_nonneg D)|apply (Hv 0)]. lra. }
  destruct (Req_dec L 0) as [Z|Z]; [rewrite Z; nra|]. nra.
Qed.
(** With no time to spare the motion is uniform. *)
Lemma no_time_to_spare i t : L = v * T -> 0 < L -> (i < D)%nat -> 0 < t < T -> g i t = u i / T.
Proof.
  intros E HL Hi Ht.
  set (psi := fun x => phi x - phi 0 - L * v * x).
  assert (DP : forall x, is_derive psi x (dot D u (fun i => g i x) - L * v)).
  { intros x. unfold psi. apply (is_derive_ext (fun x => plus (phi x) (opp (phi 0 + L * v * x)))).
    { intros y. unfold plus, opp; cbn. ring. }
    apply (is_derive_plus phi (fun x => opp (phi 0 + L * v * x))); [apply phi_derive|].
    apply (@is_derive_opp R_AbsRing R_NormedModule (fun x => phi 0 + L * v * x)).
    generalize (phi 0) (L * v). intros p0 c. evar_last; [auto_derive; auto|ring]. }
  assert (P0 : psi 0 = 0) by (unfold psi; ring).
  assert (PT : psi T = 0) by (unfold psi; rewrite phi_gap, E; ring).
  assert (DEC : forall a b, 0 <= a -> a < b -> b <= T -> psi b <= psi a).
  { intros a b Ha Hab Hb. destruct (mean_value psi _ a b Hab DP) as (c & Hc & EQ). pose proof (phi_slope c ltac:(lra)). nra. }
  assert (ZERO : forall x, 0 < x < T -> psi x = 0).
  { intros x Hx. pose proof (DEC 0 x ltac:(lra) ltac:(lra) ltac:(lra)). pose proof (DEC x T ltac:(lra) ltac:(lra) ltac:(lra)). lra. }
  assert (SL : dot D u (fun i => g i t) = L * v).
  { assert (Z : is_derive psi t 0).
    { apply (is_derive_ext_loc (fun _ => 0)).
      - assert (HP : 0 < Rmin t (T - t)) by (apply Rmin_glb_lt; lra).
        exists (mkposreal _ HP). intros y Hy. cbn in Hy. unfold ball in Hy; cbn in Hy. unfold AbsRing_ball, abs, minus, plus, opp in Hy. cbn in Hy.
        symmetry. apply ZERO. apply Rabs_lt_between in Hy. pose proof (Rmin_l t (T - t)). pose proof (Rmin_r t (T - t)). lra.
      - apply (@is_derive_const R_AbsRing R_NormedModule). }
    pose proof (is_derive_unique _ _ _ Z). pose proof (is_derive_unique _ _ _ (DP t)). lra. }
  pose proof (Hv t ltac:(lra)) as SP.
  set (w := fun i => g i t).
  assert (Z : dot D (fun i => 1 * w i + - (/ T) * u i) (fun i => 1 * w i + - (/ T) * u i) = 0).
  { apply Rle_antisym; [|apply dot_nonneg].
    rewrite dot_lin, (dot_sym D _ w), (dot_sym D _ u), !dot_lin. rewrite (dot_sym D w u). change (dot D u w = L * v) in SL. rewrite SL.
    assert (WW : dot D w w <= v * v).
    { rewrite <- nrm_sqr. fold w in SP. pose proof (nrm_nonneg D w). nra. }
    assert (UU : dot D u u = L * L) by (unfold L; rewrite nrm_sqr; reflexivity). rewrite UU, E.
    assert (TT : / T * T = 1) by (apply Rinv_l; lra).
    replace (1 * (1 * dot D w w + - / T * (v * T * v)) + - / T * (1 * (v * T * v) + - / T * (v * T * (v * T))))
      with (dot D w w - 2 * (/ T * T) * (v * v) + (/ T * T) * (/ T * T) * (v * v)) by ring.
    rewrite TT. lra. }
  pose proof (dot_zero _ _ Z i Hi) as Q. cbn beta in Q. unfold w in Q. unfold Rdiv. lra.
Qed.
Lemma uniform_position i t : L = v * T -> 0 < L -> (i < D)%nat -> 0 <= t <= T -> f i t = f i 0 + t / T * u i.
Proof.
  intros E HL Hi Ht. destruct (Req_dec t 0) as [->|Hn]; [unfold Rdiv; ring|].
  destruct (mean_value (f i) (g i) 0 t ltac:(lra) (Hd i)) as (c & Hc & EQ).
  rewrite no_time_to_spare in EQ by (auto; lra). unfold Rdiv in *. lra.
Qed.
Lemma uniform_velocity i t : L = v * T -> 0 < L -> (i < D)%nat -> 0 <= t <= T -> continuous (g i) t -> g i t = u i / T.
Proof.
  intros E HL Hi Ht HC. destruct (Req_dec (g i t) (u i / T)) as [|Hn]; [auto|exfalso].
  assert (HP : 0 < Rabs (g i t - u i / T)) by (apply Rabs_pos_lt; lra).
  destruct (proj1 (filterlim_locally (g i) (g i t)) HC (mkposreal _ HP)) as [[d Hdp] HB].
  set (m := Rmin (d / 2) (T / 2)). assert (Hm : 0 < m) by (apply Rmin_glb_lt; lra).
  assert (M1 : m <= d / 2) by apply Rmin_l. assert (M2 : m <= T / 2) by apply Rmin_r.
  assert (EX : exists y, 0 < y < T /\ Rabs (y - t) < d).
  { destruct (Rlt_dec t (T / 2)).
    - exists (t + m / 2). split; [lra|]. rewrite Rabs_pos_eq; lra.
    - exists (t - m / 2). split; [lra|]. rewrite Rabs_left; lra. }
  destruct EX as (y & Hy & Hyd). specialize (HB y). cbn in HB. unfold ball in HB; cbn in HB. unfold AbsRing_ball, abs, minus, plus, opp in HB. cbn in HB.
  rewrite (no_time_to_spare i y) in HB by auto. specialize (HB Hyd).
  rewrite <- (Rabs_Ropp (g i t - u i / T)) in HB. replace (- (g i t - u i / T)) with (u i / T + - g i t) in HB by ring. lra.
Qed.

(** ** Quadrature rules with positive weights *)
Definition exact_rule (m : nat) (x w : nat -> R) : Prop :=
  forall i, (i < D)%nat -> f i T - f i 0 = T * rsum m (fun j => w j * g i (x j * T)).
(** [q]: bound of the speed at the nodes. *)
Lemma rule_bound m x w (q : nat -> R) : exact_rule m x w -> (forall j, (j < m)%nat -> 0 <= w j) ->
  (forall j, (j < m)%nat -> nrm D (fun i => g i (x j * T)) <= q j) -> L <= T * rsum m (fun j => w j * q j).
Proof.
  intros HX Hw Hq. pose proof (nrm_nonneg D u) as HL. fold L in HL.
  assert (HQ : forall j, (j < m)%nat -> 0 <= q j).
  { intros j Hj. eapply Rle_trans; [apply (nrm_nonneg D)|apply Hq; auto]. }
  assert (HS : 0 <= rsum m (fun j => w j * q j)) by (apply rsum_nonneg; intros; apply Rmult_le_pos; auto).
  assert (E : L * L = T * rsum m (fun j => w j * dot D u (fun i => g i (x j * T)))).
  { unfold L at 1 2. rewrite nrm_sqr. unfold dot.
    assert (A : forall j, w j * rsum D (fun i => u i * g i (x j * T)) = rsum D (fun i => u i * (w j * g i (x j * T)))).
    { intros j. rewrite <- rsum_scal. apply rsum_ext. intros. ring. }
    rewrite (rsum_ext m _ _ (fun j _ => A j)), rsum_swap, <- rsum_scal. apply rsum_ext. intros i Hi.
    rewrite rsum_scal. rewrite <- Rmult_assoc, (Rmult_comm T), Rmult_assoc, <- (HX i Hi). reflexivity. }
  assert (B : L * L <= L * (T * rsum m (fun j => w j * q j))).
  { rewrite E, (Rmult_comm L), Rmult_assoc. apply Rmult_le_compat_l; [lra|].
    rewrite <- rsum_scal_r. apply rsum_le. intros j Hj. rewrite Rmult_assoc. apply Rmult_le_compat_l; [auto|].
    eapply Rle_trans; [apply cauchy_schwarz|]. rewrite Rmult_comm. fold L. apply Rmult_le_compat_r; auto. }
  destruct (Req_dec L 0) as [Z|Z]; [rewrite Z; apply Rmult_le_pos; lra|]. nra.
Qed.
End Curve.

(** A rule exact for all powers below n is exact for polynomials with at most
    n + 1 coefficients. *)
Definition moments (n m : nat) (x w : nat -> R) : Prop :=
  forall k, (k < n)%nat -> INR (S k) * rsum m (fun j => w j * x j ^ k) = 1.
Lemma rule_exact n m x w p T : moments n m x w -> (length p <= S n)%nat ->
  pval p T - pval p 0 = T * rsum m (fun j => w j * pval (pderiv p) (x j * T)).
Proof.
  intros HM HL.
  assert (HN : (length (pderiv p) <= n)%nat) by (pose proof (length_pderiv_n 1 p) as X; cbn in X; lia).
  assert (A : forall j, w j * pval (pderiv p) (x j * T) = rsum n (fun k => INR (S k) * nth (S k) p 0 * T ^ k * (w j * x j ^ k))).
  { intros j. rewrite (pval_rsum_ge _ _ n HN), <- rsum_scal. apply rsum_ext. intros k Hk. rewrite nth_pderiv, Rpow_mult_distr. ring. }
  rewrite (rsum_ext m _ _ (fun j _ => A j)), rsum_swap.
  rewrite !(pval_rsum_ge p _ (S n) HL), !rsum_S_l, <- rsum_scal.
  assert (Z : rsum n (fun i => nth (S i) p 0 * 0 ^ S i) = 0) by (apply rsum_zero; intros; rewrite pow_i by lia; ring).
  rewrite Z. replace (nth 0 p 0 * T ^ 0 + rsum n (fun i => nth (S i) p 0 * T ^ S i) - (nth 0 p 0 * 0 ^ 0 + 0))
    with (rsum n (fun i => nth (S i) p 0 * T ^ S i)) by (cbn; ring).
  apply rsum_ext. intros k Hk. rewrite rsum_scal.
  transitivity (nth (S k) p 0 * T ^ S k * (INR (S k) * rsum m (fun j => w j * x j ^ k))); [rewrite HM by auto; ring|cbn [pow]; ring].
Qed.

(** Nine nodes, one of them 0 with weight above 1/26. *)
Definition radau_x (j : nat) : R := nth j [0; 3/24; 4/24; 9/24; 10/24; 17/24; 18/24; 22/24; 23/24] 0.
Definition radau_w (j : nat) : R := nth j [786664 / 20322225; 114712 / 814625; 5139 / 60515; 28 / 1755; 64557 / 222950;
  421956 / 1895075; 18281 / 330750; 38007 / 475475; 358776 / 4970875] 0.
Lemma radau_moments : moments 9 9 radau_x radau_w.
Proof.
  intros k Hk. do 9 (destruct k as [|k]; [cbn [rsum radau_x radau_w nth pow]; rewrite ?S_INR; cbn [INR]; field|]). lia.
Qed.
Definition mirror_x (j : nat) : R := 1 - radau_x j.
Lemma mirror_moments : moments 9 9 mirror_x radau_w.
Proof.
  intros k Hk. do 9 (destruct k as [|k]; [unfold mirror_x; cbn [rsum radau_x radau_w nth pow]; rewrite ?S_INR; cbn [INR]; field|]). lia.
Qed.
(** Ten nodes, both ends with weight above 1/32. *)
Definition lobatto_x (j : nat) : R := nth j [0; 1/12; 1/8; 1/3; 3/8; 5/8; 2/3; 7/8; 11/12; 1] 0.
Definition lobatto_w (j : nat) : R := nth j [30923/970200; 160704/4659655; 141824/907725; 103113/891800; 162304/1003275;
  162304/1003275; 103113/891800; 141824/907725; 160704/4659655; 30923/970200] 0.
Lemma lobatto_moments : moments 9 10 lobatto_x lobatto_w.
Proof.
  intros k Hk. do 9 (destruct k as [|k]; [cbn [rsum lobatto_x lobatto_w nth pow]; rewrite ?S_INR; cbn [INR]; field|]). lia.
Qed.
