(** Uniqueness of the optimum of the linear optimiser. *)
From Coq Require Import Reals Lra Lia List Bool Arith FinFun.
From Coquelicot Require Import Coquelicot.
From Verif Require Import Base PolyModel PolySpec PolyProofs ExtremaProofs VertexModel TrajModel TrajSpec
  LinOptModel LinOptSpec LinAlg LinInverse LinProofs LinCost LinFinal.
Import List ListNotations.
Set Bullet Behavior "Strict Subproofs".
Local Open Scope R_scope.

(** ** Polynomials with many zeros *)
Lemma many_roots : forall n p (l : list R), (length p <= n)%nat -> NoDup l -> (n <= length l)%nat ->
  (forall x, In x l -> pval p x = 0) -> forall x, pval p x = 0.
Proof.
  induction n as [|n IH]; intros p l Lp ND Ll Z x.
  - destruct p; [reflexivity|cbn in Lp; lia].
  - destruct l as [|a l]; [cbn in Ll; lia|]. destruct (synthetic_division p a) as (q & Lq & Hq).
    rewrite (Hq x), (Z a (or_introl eq_refl)). inversion ND as [|? ? Na ND']; subst.
    rewrite (IH q l); [ring|lia|auto|cbn in Ll; lia|]. intros y Hy.
    specialize (Z y (or_intror Hy)) as Zy. rewrite (Hq y), (Z a (or_introl eq_refl)), Rplus_0_r in Zy.
    apply Rmult_integral in Zy. destruct Zy as [Zy|]; auto. exfalso. apply Na. replace a with y by lra. exact Hy.
Qed.
Lemma zero_on_interval p a b : a < b -> (forall x, a < x < b -> pval p x = 0) -> forall x, pval p x = 0.
Proof.
  intros H Z. set (n := length p). set (f := fun k => a + (b - a) * (INR (S k) / INR (S n))).
  assert (P : 0 < INR (S n)) by (apply lt_0_INR; lia).
  apply (many_roots n p (map f (seq 0 n))); auto.
  - apply FinFun.Injective_map_NoDup; [|apply seq_NoDup]. intros i j E. unfold f in E.
    assert (E2 : (b - a) * (INR (S i) / INR (S n)) = (b - a) * (INR (S j) / INR (S n))) by lra.
    apply Rmult_eq_reg_l in E2; [|lra]. unfold Rdiv in E2. apply Rmult_eq_reg_r in E2; [|apply Rinv_neq_0_compat; lra].
    apply INR_eq in E2. lia.
  - now rewrite map_length, seq_length.
  - intros x Hx. apply in_map_iff in Hx. destruct Hx as (k & <- & Hk). apply in_seq in Hk. apply Z. unfold f.
    assert (0 < INR (S k) / INR (S n) < 1).
    { split; [apply Rdiv_lt_0_compat; auto; apply lt_0_INR; lia|].
      apply Rmult_lt_reg_r with (INR (S n)); auto. unfold Rdiv. rewrite Rmult_assoc, Rinv_l by lra.
      rewrite Rmult_1_r, Rmult_1_l. apply lt_INR. lia. }
    nra.
Qed.
Lemma zero_coefs p : (forall x, pval p x = 0) -> forall k, nth k p 0 = 0.
Proof.
  intros Z k. assert (E : Derive_n (pval p) k 0 = 0).
  { rewrite (Derive_n_ext (pval p) (fun _ => 0)) by auto. destruct k; [reflexivity|]. apply Derive_n_const. }
  rewrite Derive_n_pval in E. rewrite pval_rsum in E.
  destruct (le_lt_dec (length p) k) as [H|H]; [now apply nth_overflow|].
  rewrite (rsum_single _ 0) in E; [|rewrite length_pderiv_n; lia|].
  - rewrite nth_pderiv_n, Nat.add_0_r in E. cbn [pow] in E. rewrite Rmult_1_r in E.
    apply Rmult_integral in E. destruct E; auto. pose proof (base_coeff_pos k k ltac:(lia)). lra.
  - intros i _ Hi. rewrite pow_ne_zero by auto. ring.
Qed.

(** ** Integrals of squares *)
Lemma square_continuous p d t : continuous (fun t => Derive_n (pval p) d t ^ 2) t.
Proof.
  apply (continuous_ext (fun t => mult (pval (pderiv_n d p) t) (pval (pderiv_n d p) t))).
  - intros x. rewrite Derive_n_pval. change (pval (pderiv_n d p) x * pval (pderiv_n d p) x = pval (pderiv_n d p) x ^ 2). ring.
  - apply (continuous_mult (pval (pderiv_n d p)) (pval (pderiv_n d p))); apply continuous_pval.
Qed.
Lemma square_ex p d a b : ex_RInt (fun t => Derive_n (pval p) d t ^ 2) a b.
Proof. apply (ex_RInt_continuous (V := R_CompleteNormedModule)). intros. apply square_continuous. Qed.
Lemma square_nonneg p d a b : a <= b -> 0 <= RInt (fun t => Derive_n (pval p) d t ^ 2) a b.
Proof. intros H. apply RInt_ge_0; auto using square_ex. intros. apply pow2_ge_0. Qed.
Lemma square_zero p d T : 0 < T -> RInt (fun t => Derive_n (pval p) d t ^ 2) 0 T <= 0 ->
  forall t, Derive_n (pval p) d t = 0.
Proof.
  intros HT H. set (f := fun t => Derive_n (pval p) d t ^ 2) in *.
  assert (G : forall t, 0 <= t <= T -> RInt f 0 t = 0).
  { intros t Ht. pose proof (square_nonneg p d 0 t (proj1 Ht)) as A. pose proof (square_nonneg p d t T (proj2 Ht)) as B.
    fold f in A, B. pose proof (RInt_Chasles f 0 t T (square_ex p d 0 t) (square_ex p d t T)) as C.
    change (RInt f 0 t + RInt f t T = RInt f 0 T) in C. lra. }
  intros t. rewrite Derive_n_pval. apply (zero_on_interval _ 0 T HT). intros x Hx.
  assert (D1 : is_derive (fun t => RInt f 0 t) x (f x)).
  { apply (is_derive_RInt f (fun t => RInt f 0 t) 0 x); [|apply square_continuous].
    apply filter_forall. intros y. apply (RInt_correct f 0 y). apply square_ex. }
  assert (D2 : is_derive (fun t => RInt f 0 t) x 0).
  { apply (is_derive_ext_loc (fun _ => 0)); [|apply (is_derive_const 0 x)].
    assert (P : 0 < Rmin x (T - x)) by (apply Rmin_pos; lra).
    exists (mkposreal _ P). intros y Hy. symmetry. apply G. unfold ball in Hy. cbn in Hy. unfold AbsRing_ball, abs, minus, plus, opp in Hy. cbn in Hy.
    pose proof (Rmin_l x (T - x)). pose proof (Rmin_r x (T - x)). apply Rabs_def2 in Hy. lra. }
  assert (E : f x = 0) by (rewrite <- (is_derive_unique _ _ _ D1); now apply is_derive_unique).
  unfold f in E. rewrite <- Derive_n_pval. nra.
Qed.

(** ** Linear combinations *)
Definition comb (N : nat) (a b : R) (p q : poly) : poly := map (fun k => a * nth k p 0 + b * nth k q 0) (seq 0 N).
Lemma comb_length N a b p q : length (comb N a b p q) = N.
Proof. unfold comb. now rewrite map_length, seq_length. Qed.
Lemma comb_derive N a b p q d t : length p = N -> length q = N ->
  Derive_n (pval (comb N a b p q)) d t = a * Derive_n (pval p) d t + b * Derive_n (pval q) d t.
Proof.
  intros Lp Lq. rewrite <- !poly_evaluate_Derive_n, !poly_evaluate_rsum, comb_length, Lp, Lq.
  rewrite <- !rsum_scal, <- rsum_plus. apply rsum_ext. intros i Hi. unfold coef, comb. rewrite nth_map_seq by lia. ring.
Qed.
(** The parallelogram identity. *)
Lemma parallelogram N p q d T : length p = N -> length q = N ->
  RInt (fun t => Derive_n (pval (comb N (1 / 2) (1 / 2) p q)) d t ^ 2) 0 T +
  RInt (fun t => Derive_n (pval (comb N (1 / 2) (- (1 / 2)) p q)) d t ^ 2) 0 T =
  1 / 2 * RInt (fun t => Derive_n (pval p) d t ^ 2) 0 T + 1 / 2 * RInt (fun t => Derive_n (pval q) d t ^ 2) 0 T.
Proof.
  intros Lp Lq.
  set (f := fun t => Derive_n (pval (comb N (1 / 2) (1 / 2) p q)) d t ^ 2).
  set (g := fun t => Derive_n (pval (comb N (1 / 2) (- (1 / 2)) p q)) d t ^ 2).
  set (u := fun t => Derive_n (pval p) d t ^ 2). set (v := fun t => Derive_n (pval q) d t ^ 2).
  assert (A : is_RInt (fun t => f t + g t) 0 T (RInt f 0 T + RInt g 0 T)).
  { apply (is_RInt_plus f g); apply (RInt_correct (V := R_CompleteNormedModule)); apply square_ex. }
  assert (B : is_RInt (fun t => 1 / 2 * u t + 1 / 2 * v t) 0 T (1 / 2 * RInt u 0 T + 1 / 2 * RInt v 0 T)).
  { apply (is_RInt_plus (fun t => 1 / 2 * u t) (fun t => 1 / 2 * v t)).
    - apply (is_RInt_scal u 0 T (1 / 2)). apply (RInt_correct (V := R_CompleteNormedModule)), square_ex.
    - apply (is_RInt_scal v 0 T (1 / 2)). apply (RInt_correct (V := R_CompleteNormedModule)), square_ex. }
  rewrite <- (is_RInt_unique _ _ _ _ A), <- (is_RInt_unique _ _ _ _ B).
  apply RInt_ext. intros t _. unfold f, g, u, v. rewrite !comb_derive by auto.
  match goal with |- ?a = ?b => change (@eq R a b) end. field.
Qed.

(** ** Combinations of trajectories *)
Section Combination.
Variables (N D : nat) (times : list R) (segs segs' : list segment).
Let n := length times.
Hypothesis W : Forall (fun s => seg_wf s /\ s_N s = N /\ s_D s = D) segs.
Hypothesis W' : Forall (fun s => seg_wf s /\ s_N s = N /\ s_D s = D) segs'.
Hypothesis HT : map s_time segs = times.
Hypothesis HT' : map s_time segs' = times.
Let s0 := seg_new N 0.
Definition pl (l : list segment) (i m : nat) : poly := nth m (s_polys (nth i l s0)) [].
Definition combine_segs (a b : R) : list segment :=
  map (fun i => mkSeg (nth i times 0) N D (map (fun m => comb N a b (pl segs i m) (pl segs' i m)) (seq 0 D))) (seq 0 n).

Lemma len_of l : map s_time l = times -> length l = n.
Proof. intros H. unfold n. now rewrite <- H, map_length. Qed.
Lemma pl_length l i m : Forall (fun s => seg_wf s /\ s_N s = N /\ s_D s = D) l -> (i < length l)%nat -> (m < D)%nat ->
  length (pl l i m) = N.
Proof.
  intros F Hi Hm. rewrite Forall_forall in F. destruct (F _ (nth_In l s0 Hi)) as ([A B] & C & E).
  unfold pl. rewrite Forall_forall in B. rewrite <- C. apply B. apply nth_In. rewrite A, E. exact Hm.
Qed.
Lemma polys_length l i : Forall (fun s => seg_wf s /\ s_N s = N /\ s_D s = D) l -> (i < length l)%nat ->
  length (s_polys (nth i l s0)) = D.
Proof. intros F Hi. rewrite Forall_forall in F. destruct (F _ (nth_In l s0 Hi)) as ([A B] & C & E). congruence. Qed.
Lemma time_of l i : map s_time l = times -> (i < n)%nat -> s_time (nth i l s0) = nth i times 0.
Proof. intros H Hi. rewrite <- H. change 0 with (s_time s0) at 1. symmetry. apply map_nth. Qed.
Lemma energy_rsum d l : Forall (fun s => seg_wf s /\ s_N s = N /\ s_D s = D) l -> map s_time l = times ->
  energy d l = rsum n (fun i => rsum D (fun m => RInt (fun t => Derive_n (pval (pl l i m)) d t ^ 2) 0 (nth i times 0))).
Proof.
  intros F H. unfold energy. rewrite (lsum_map_rsum n _ l s0) by now apply len_of. apply rsum_ext. intros i Hi.
  rewrite (lsum_map_rsum D _ _ []) by (apply polys_length; auto; rewrite len_of; auto). rewrite time_of by auto. reflexivity.
Qed.
Lemma combine_wf a b : Forall (fun s => seg_wf s /\ s_N s = N /\ s_D s = D) (combine_segs a b).
Proof.
  apply Forall_forall. intros s Hs. apply in_map_iff in Hs. destruct Hs as (i & <- & _). cbn. split; [|auto]. split; cbn.
  - now rewrite map_length, seq_length.
  - apply Forall_forall. intros p Hp. apply in_map_iff in Hp. destruct Hp as (m & <- & _). apply comb_length.
Qed.
Lemma combine_times a b : map s_time (combine_segs a b) = times.
Proof.
  unfold combine_segs. rewrite map_map. cbn [s_time]. apply nth_ext with (d := 0) (d' := 0).
  - now rewrite map_length, seq_length.
  - intros i Hi. rewrite map_length, seq_length in Hi. now rewrite nth_map_seq.
Qed.
Lemma combine_nth a b i : (i < n)%nat -> nth_error (combine_segs a b) i =
  Some (mkSeg (nth i times 0) N D (map (fun m => comb N a b (pl segs i m) (pl segs' i m)) (seq 0 D))).
Proof.
  intros Hi. unfold combine_segs. rewrite nth_error_map.
  rewrite (nth_error_nth' (seq 0 n) O) by (rewrite seq_length; auto). now rewrite seq_nth by auto.
Qed.
Lemma combine_pl a b i m : (i < n)%nat -> (m < D)%nat -> pl (combine_segs a b) i m = comb N a b (pl segs i m) (pl segs' i m).
Proof.
  intros Hi Hm. unfold pl at 1. rewrite (nth_error_nth _ _ _ (combine_nth a b i Hi)). cbn [s_polys].
  rewrite nth_indep with (d' := (fun m => comb N a b (pl segs i m) (pl segs' i m)) O) by (rewrite map_length, seq_length; auto).
  rewrite (map_nth (fun m => comb N a b (pl segs i m) (pl segs' i m))), seq_nth by auto. reflexivity.
Qed.
Lemma combine_deriv a b i s k t : nth_error (combine_segs a b) i = Some s ->
  seg_deriv s k t = map (fun m => a * Derive_n (pval (pl segs i m)) k t + b * Derive_n (pval (pl segs' i m)) k t) (seq 0 D).
Proof.
  intros H. assert (Hi : (i < n)%nat).
  { rewrite <- (len_of _ (combine_times a b)). apply nth_error_Some. congruence. }
  rewrite combine_nth in H by auto. injection H as <-. unfold seg_deriv. cbn [s_polys]. rewrite map_map.
  apply map_ext_in. intros m Hm. apply in_seq in Hm.
  apply comb_derive; apply pl_length; auto; try lia; rewrite len_of; auto.
Qed.
Lemma seg_deriv_pl l i s k t : Forall (fun s => seg_wf s /\ s_N s = N /\ s_D s = D) l -> nth_error l i = Some s ->
  seg_deriv s k t = map (fun m => Derive_n (pval (pl l i m)) k t) (seq 0 D).
Proof.
  intros F H. pose proof (nth_error_nth _ _ s0 H) as E. assert (Hi : (i < length l)%nat) by (apply nth_error_Some; congruence).
  unfold seg_deriv, pl. rewrite E. pose proof (polys_length l i F Hi) as L. rewrite E in L.
  apply nth_ext with (d := 0) (d' := 0).
  - rewrite !map_length, seq_length. exact L.
  - intros m Hm. rewrite map_length in Hm. assert (Hm' : (m < D)%nat) by (rewrite <- L; exact Hm).
    rewrite nth_map_seq by auto.
    rewrite nth_indep with (d' := (fun p => Derive_n (pval p) k t) []) by (rewrite map_length; auto).
    exact (map_nth (fun p => Derive_n (pval p) k t) (s_polys s) [] m).
Qed.
Lemma map_seq_nth (f g : nat -> R) : map f (seq 0 D) = map g (seq 0 D) -> forall m, (m < D)%nat -> f m = g m.
Proof. intros H m Hm. rewrite <- (nth_map_seq f D m 0 Hm), <- (nth_map_seq g D m 0 Hm). now rewrite H. Qed.
Lemma mid_interpolates vs : interpolates N D vs times segs -> interpolates N D vs times segs' ->
  interpolates N D vs times (combine_segs (1 / 2) (1 / 2)).
Proof.
  intros (_ & L & _ & C) (_ & _ & _ & C'). split; [apply combine_times|]. split.
  { rewrite L, !len_of; auto using combine_times. }
  split; [apply combine_wf|]. intros i s v v' Hs Hv Hv' k c Hk.
  assert (Hi : (i < n)%nat). { rewrite <- (len_of _ (combine_times (1 / 2) (1 / 2))). apply nth_error_Some. congruence. }
  destruct (nth_error segs i) as [s1|] eqn:E1; [|apply nth_error_None in E1; rewrite len_of in E1; auto; lia].
  destruct (nth_error segs' i) as [s2|] eqn:E2; [|apply nth_error_None in E2; rewrite len_of in E2; auto; lia].
  destruct (C i s1 v v' E1 Hv Hv' k c Hk) as [X Y]. destruct (C' i s2 v v' E2 Hv Hv' k c Hk) as [X' Y'].
  assert (T0 : s_time s = nth i times 0) by (rewrite combine_nth in Hs by auto; injection Hs as <-; reflexivity).
  assert (T1 : s_time s1 = nth i times 0) by (rewrite <- (nth_error_nth _ _ s0 E1); now apply time_of).
  assert (T2 : s_time s2 = nth i times 0) by (rewrite <- (nth_error_nth _ _ s0 E2); now apply time_of).
  rewrite T1 in Y. rewrite T2 in Y'. rewrite T0.
  assert (G : forall t, seg_deriv s1 k t = c -> seg_deriv s2 k t = c -> seg_deriv s k t = c).
  { intros t A B. rewrite (combine_deriv _ _ i s k t Hs). rewrite <- A.
    rewrite (seg_deriv_pl segs i s1 k t W E1) in A |- *. rewrite (seg_deriv_pl segs' i s2 k t W' E2), <- A in B.
    apply map_ext_in. intros m Hm. apply in_seq in Hm. rewrite (map_seq_nth _ _ B m) by lia. field. }
  split; intros H; apply G; auto.
Qed.
Lemma mid_smooth h : smooth h segs -> smooth h segs' -> smooth h (combine_segs (1 / 2) (1 / 2)).
Proof.
  intros S1 S2 i s s' Hs Hs' k Hk.
  assert (Hi : (S i < n)%nat). { rewrite <- (len_of _ (combine_times (1 / 2) (1 / 2))). apply nth_error_Some. congruence. }
  destruct (nth_error segs i) as [a|] eqn:E1; [|apply nth_error_None in E1; rewrite len_of in E1; auto; lia].
  destruct (nth_error segs (S i)) as [a'|] eqn:E1'; [|apply nth_error_None in E1'; rewrite len_of in E1'; auto; lia].
  destruct (nth_error segs' i) as [b|] eqn:E2; [|apply nth_error_None in E2; rewrite len_of in E2; auto; lia].
  destruct (nth_error segs' (S i)) as [b'|] eqn:E2'; [|apply nth_error_None in E2'; rewrite len_of in E2'; auto; lia].
  pose proof (S1 i a a' E1 E1' k Hk) as A. pose proof (S2 i b b' E2 E2' k Hk) as B.
  assert (T0 : s_time s = nth i times 0) by (rewrite combine_nth in Hs by lia; injection Hs as <-; reflexivity).
  assert (T1 : s_time a = nth i times 0) by (rewrite <- (nth_error_nth _ _ s0 E1); apply time_of; auto; lia).
  assert (T2 : s_time b = nth i times 0) by (rewrite <- (nth_error_nth _ _ s0 E2); apply time_of; auto; lia).
  rewrite T1 in A. rewrite T2 in B. rewrite T0.
  rewrite (combine_deriv _ _ i s k _ Hs), (combine_deriv _ _ (S i) s' k _ Hs').
  rewrite (seg_deriv_pl segs i a k _ W E1), (seg_deriv_pl segs (S i) a' k _ W E1') in A.
  rewrite (seg_deriv_pl segs' i b k _ W' E2), (seg_deriv_pl segs' (S i) b' k _ W' E2') in B.
  apply map_ext_in. intros m Hm. apply in_seq in Hm.
  rewrite (map_seq_nth _ _ A m), (map_seq_nth _ _ B m) by lia. reflexivity.
Qed.
Lemma energy_parallelogram d :
  energy d (combine_segs (1 / 2) (1 / 2)) + energy d (combine_segs (1 / 2) (- (1 / 2))) = 1 / 2 * energy d segs + 1 / 2 * energy d segs'.
Proof.
  rewrite !energy_rsum by auto using combine_wf, combine_times.
  rewrite <- !rsum_scal, <- !rsum_plus. apply rsum_ext. intros i Hi. rewrite <- !rsum_scal, <- !rsum_plus. apply rsum_ext. intros m Hm.
  rewrite !combine_pl by auto. apply parallelogram; apply pl_length; auto; rewrite len_of; auto.
Qed.
End Combination.

Lemma rsum_nonneg_zero k (f : nat -> R) : (forall i, (i < k)%nat -> 0 <= f i) -> rsum k f <= 0 -> forall i, (i < k)%nat -> f i <= 0.
Proof.
  induction k as [|k IH]; intros P H i Hi; [lia|]. cbn [rsum] in H.
  pose proof (rsum_nonneg k f (fun i Hi => P i (Nat.lt_lt_succ_r _ _ Hi))) as Q. pose proof (P k ltac:(lia)) as Pk.
  destruct (Nat.eq_dec i k) as [->|]; [lra|]. apply IH; auto; [lra|lia].
Qed.

(** Two smooth interpolations whose midpoint does not cost less have the same
    derivative of the optimised order. *)
Lemma same_derivative N D vs times segs segs' h d : Forall (fun T => 0 < T) times ->
  interpolates N D vs times segs -> smooth h segs -> interpolates N D vs times segs' -> smooth h segs' ->
  energy d segs' <= energy d segs ->
  (forall l, interpolates N D vs times l -> smooth h l -> energy d segs <= energy d l) ->
  forall i m t, (i < length times)%nat -> (m < D)%nat ->
  Derive_n (pval (pl N segs i m)) d t = Derive_n (pval (pl N segs' i m)) d t.
Proof.
  intros P I S I' S' Le Opt i m t Hi Hm.
  destruct I as (HT & L & W & C) eqn:EI. destruct I' as (HT' & L' & W' & C') eqn:EI'. clear EI EI'.
  pose proof (Opt _ (mid_interpolates N D times segs segs' W W' HT HT' vs (conj HT (conj L (conj W C))) (conj HT' (conj L' (conj W' C'))))
    (mid_smooth N D times segs segs' W W' HT HT' h S S')) as O.
  pose proof (energy_parallelogram N D times segs segs' W W' HT HT' d) as E.
  assert (Z : energy d (combine_segs N D times segs segs' (1 / 2) (- (1 / 2))) <= 0) by lra.
  rewrite (energy_rsum N D times d) in Z by auto using combine_wf, combine_times.
  assert (TP : forall i, (i < length times)%nat -> 0 < nth i times 0).
  { rewrite Forall_forall in P. intros j Hj. apply P, nth_In; auto. }
  apply (rsum_nonneg_zero _ _) with (i := i) in Z; auto.
  2:{ intros j Hj. apply rsum_nonneg. intros. apply square_nonneg. specialize (TP j Hj). lra. }
  apply (rsum_nonneg_zero _ _) with (i := m) in Z; auto.
  2:{ intros j Hj. apply square_nonneg. specialize (TP i Hi). lra. }
  pose proof (square_zero _ d _ (TP i Hi) Z t) as Q. rewrite combine_pl in Q by auto.
  rewrite comb_derive in Q; [lra| |]; apply (pl_length N D); auto; rewrite (len_of times); auto.
Qed.

(** ** Polynomials of degree below d *)
Lemma derivative_step p k t0 : (forall t, Derive_n (pval p) (S k) t = 0) -> Derive_n (pval p) k t0 = 0 ->
  forall t, Derive_n (pval p) k t = 0.
Proof.
  intros Z H0 t.
  assert (Dk : forall x, is_derive (Derive_n (pval p) k) x 0).
  { intros x. rewrite <- (Z x). cbn [Derive_n]. apply Derive_correct. apply (ex_derive_n_pval p (S k) x). }
  destruct (Rtotal_order t t0) as [L|[->|L]]; auto.
  - rewrite <- H0. apply (eq_is_derive (Derive_n (pval p) k) t t0); auto.
  - rewrite <- H0. symmetry. apply (eq_is_derive (Derive_n (pval p) k) t0 t); auto.
Qed.
Lemma determined p d t0 : (forall t, Derive_n (pval p) d t = 0) -> (forall k, (k < d)%nat -> Derive_n (pval p) k t0 = 0) ->
  forall t, pval p t = 0.
Proof.
  revert p. induction d as [|d IH]; intros p Z H; [exact Z|].
  apply (IH p); [|intros; apply H; lia]. apply (derivative_step p d t0); auto.
Qed.
Lemma poly_equal N p q d t0 : length p = N -> length q = N ->
  (forall t, Derive_n (pval p) d t = Derive_n (pval q) d t) ->
  (forall k, (k < d)%nat -> Derive_n (pval p) k t0 = Derive_n (pval q) k t0) -> p = q.
Proof.
  intros Lp Lq Z H.
  assert (E : forall t, pval (comb N 1 (-1) p q) t = 0).
  { apply (determined _ d t0).
    - intros t. rewrite comb_derive, Z by auto. ring.
    - intros k Hk. rewrite comb_derive, H by auto. ring. }
  apply nth_ext with (d := 0) (d' := 0); [congruence|]. intros k Hk.
  pose proof (zero_coefs _ E k) as C. unfold comb in C. rewrite nth_map_seq in C by lia. lra.
Qed.

(** Shift of the argument. *)
Lemma shift_exists (s : R) : forall p, exists r, length r = length p /\ forall t, pval r t = pval p (t + s).
Proof.
  induction p as [|c p (r & L & E)]; [exists []; auto|].
  exists (comb (S (length p)) 1 s (c :: r) (r ++ [0])). split; [apply comb_length|]. intros t.
  assert (X : pval (comb (S (length p)) 1 s (c :: r) (r ++ [0])) t = 1 * pval (c :: r) t + s * pval (r ++ [0]) t).
  { apply (comb_derive (S (length p)) 1 s (c :: r) (r ++ [0]) 0 t); [cbn; lia|rewrite app_length; cbn; lia]. }
  rewrite X, pval_app. cbn [pval]. rewrite E. ring.
Qed.
Lemma shift_derive (s : R) (p r : poly) : (forall t, pval r t = pval p (t + s)) ->
  forall k t, Derive_n (pval r) k t = Derive_n (pval p) k (t + s).
Proof. intros E k t. rewrite (Derive_n_ext _ (fun y => pval p (y + s))) by exact E. apply Derive_n_comp_trans. Qed.
(** A polynomial whose d-th derivative vanishes and that has d zeros. *)
Lemma low_degree_zeros p d l : (forall t, Derive_n (pval p) d t = 0) -> NoDup l -> (d <= length l)%nat ->
  (forall x, In x l -> pval p x = 0) -> forall x, pval p x = 0.
Proof.
  intros Z ND L R0.
  assert (HI : forall k, (d <= k)%nat -> nth k p 0 = 0).
  { intros k Hk. assert (Q : forall x, pval (pderiv_n d p) x = 0) by (intros; rewrite <- Derive_n_pval; auto).
    pose proof (zero_coefs _ Q (k - d)) as C. rewrite nth_pderiv_n in C. replace (d + (k - d))%nat with k in C by lia.
    apply Rmult_integral in C. destruct C; auto. pose proof (base_coeff_pos d k Hk). lra. }
  assert (E : forall x, pval p x = pval (firstn d p) x).
  { intros x. rewrite <- (firstn_skipn d p) at 1. rewrite pval_app.
    replace (pval (skipn d p) x) with 0; [ring|]. symmetry. rewrite pval_rsum. apply rsum_zero. intros i Hi.
    rewrite <- (firstn_skipn d p) in HI. destruct (le_lt_dec d (length p)) as [Le|Lt].
    - specialize (HI (d + i)%nat ltac:(lia)). rewrite app_nth2 in HI by (rewrite firstn_length; lia).
      rewrite firstn_length, Nat.min_l in HI by lia. replace (d + i - d)%nat with i in HI by lia. rewrite HI. ring.
    - rewrite skipn_length in Hi. lia. }
  intros x. rewrite E. apply (many_roots d (firstn d p) l); auto.
  - rewrite firstn_length. lia.
  - intros y Hy. rewrite <- E. auto.
Qed.

Section Unique.
Variables (N D : nat) (vs : list vertex) (times : list R) (segs segs' : list segment) (h d : nat).
Hypothesis I : interpolates N D vs times segs.
Hypothesis I' : interpolates N D vs times segs'.
Hypothesis Sm : smooth h segs.
Hypothesis Sm' : smooth h segs'.
Hypothesis Hh : (h <= N / 2)%nat.
Hypothesis Hd : (d <= h)%nat.
Let n := length times.
Let p i m := pl N segs i m.
Let q i m := pl N segs' i m.
Hypothesis Dd : forall i m t, (i < n)%nat -> (m < D)%nat -> Derive_n (pval (p i m)) d t = Derive_n (pval (q i m)) d t.

Lemma seg_at l i : interpolates N D vs times l -> (i < n)%nat -> exists s, nth_error l i = Some s /\ s_time s = nth i times 0 /\
  (forall k t, seg_deriv s k t = map (fun m => Derive_n (pval (pl N l i m)) k t) (seq 0 D)) /\
  forall m, (m < D)%nat -> length (pl N l i m) = N.
Proof.
  intros (HT & L & W & C) Hi. pose proof (len_of times l HT) as Ll. fold n in Ll.
  destruct (nth_error l i) as [s|] eqn:E; [|apply nth_error_None in E; lia]. exists s. split; auto.
  split; [rewrite <- (nth_error_nth _ _ (seg_new N 0) E); now apply (time_of N times)|].
  split; [intros k t; now apply (seg_deriv_pl N D)|]. intros m Hm. apply (pl_length N D); auto. lia.
Qed.
Lemma smooth_pl l i k m : interpolates N D vs times l -> smooth h l -> (S i < n)%nat -> (k < h)%nat -> (m < D)%nat ->
  Derive_n (pval (pl N l i m)) k (nth i times 0) = Derive_n (pval (pl N l (S i) m)) k 0.
Proof.
  intros Il Sl Hi Hk Hm. destruct (seg_at l i Il ltac:(lia)) as (s & E & T & P & _).
  destruct (seg_at l (S i) Il Hi) as (s' & E' & _ & P' & _).
  pose proof (Sl i s s' E E' k Hk) as X. rewrite T, P, P' in X. now apply (map_seq_nth D _ _ X m).
Qed.
Lemma vertex_pl l j v k c m : interpolates N D vs times l -> nth_error vs j = Some v -> get_constraint k v = Some c -> (k < N / 2)%nat ->
  (m < D)%nat -> ((j < n)%nat -> Derive_n (pval (pl N l j m)) k 0 = nth m c 0) /\
  (forall i, j = S i -> (i < n)%nat -> Derive_n (pval (pl N l i m)) k (nth i times 0) = nth m c 0).
Proof.
  intros Il Hv G Hk Hm. pose proof Il as (HT & L & W & C).
  assert (LV : length vs = S n) by (rewrite L, (len_of times l HT); reflexivity).
  assert (NV : forall j, (j <= n)%nat -> exists v, nth_error vs j = Some v).
  { intros a Ha. destruct (nth_error vs a) eqn:E; eauto. apply nth_error_None in E. lia. }
  split.
  - intros Hj. destruct (seg_at l j Il Hj) as (s & E & T & P & _). destruct (NV (S j) Hj) as (v' & Hv').
    destruct (C j s v v' E Hv Hv' k c Hk) as [X _]. specialize (X G). rewrite P in X. rewrite <- X. now rewrite nth_map_seq.
  - intros i -> Hi. destruct (seg_at l i Il Hi) as (s & E & T & P & _). destruct (NV i ltac:(lia)) as (v' & Hv').
    destruct (C i s v' v E Hv' Hv k c Hk) as [_ X]. specialize (X G). rewrite P, T in X. rewrite <- X. now rewrite nth_map_seq.
Qed.
(** The derivatives below d agree at vertex j. *)
Definition agree (j : nat) : Prop := forall k m, (k < d)%nat -> (m < D)%nat ->
  ((j < n)%nat -> Derive_n (pval (p j m)) k 0 = Derive_n (pval (q j m)) k 0) /\
  (forall i, j = S i -> (i < n)%nat -> Derive_n (pval (p i m)) k (nth i times 0) = Derive_n (pval (q i m)) k (nth i times 0)).
Lemma same_poly i m t0 : (i < n)%nat -> (m < D)%nat ->
  (forall k, (k < d)%nat -> Derive_n (pval (p i m)) k t0 = Derive_n (pval (q i m)) k t0) -> p i m = q i m.
Proof.
  intros Hi Hm H. destruct (seg_at segs i I Hi) as (_ & _ & _ & _ & L). destruct (seg_at segs' i I' Hi) as (_ & _ & _ & _ & L').
  apply (poly_equal N _ _ d t0); auto.
Qed.
Lemma agree_right j : agree j -> (j < n)%nat -> (forall m, (m < D)%nat -> p j m = q j m) /\ agree (S j).
Proof.
  intros A Hj. assert (E : forall m, (m < D)%nat -> p j m = q j m).
  { intros m Hm. apply (same_poly j m 0 Hj Hm). intros k Hk. now apply A. }
  split; auto. intros k m Hk Hm. split.
  - intros HS. unfold p, q. rewrite <- (smooth_pl segs j k m I Sm HS), <- (smooth_pl segs' j k m I' Sm' HS) by lia.
    fold (p j m) (q j m). now rewrite E.
  - intros i Ei Hi. injection Ei as <-. now rewrite E.
Qed.
Lemma agree_left j : agree (S j) -> (j < n)%nat -> (forall m, (m < D)%nat -> p j m = q j m) /\ agree j.
Proof.
  intros A Hj. assert (E : forall m, (m < D)%nat -> p j m = q j m).
  { intros m Hm. apply (same_poly j m (nth j times 0) Hj Hm). intros k Hk. now apply (A k m Hk Hm). }
  split; auto. intros k m Hk Hm. split.
  - intros _. now rewrite E.
  - intros i -> Hi. unfold p, q. rewrite (smooth_pl segs i k m I Sm Hj), (smooth_pl segs' i k m I' Sm' Hj) by lia.
    fold (p (S i) m) (q (S i) m). now rewrite E.
Qed.
Lemma agree_all j : agree j -> (j <= n)%nat -> forall i, (i <= n)%nat -> agree i.
Proof.
  intros A Hj.
  assert (R1 : forall i, (j + i <= n)%nat -> agree (j + i)).
  { induction i as [|i IH]; intros H; [now rewrite Nat.add_0_r|]. rewrite Nat.add_succ_r. apply agree_right; [apply IH|]; lia. }
  assert (L1 : forall i, (i <= j)%nat -> agree (j - i)).
  { induction i as [|i IH]; intros H; [now rewrite Nat.sub_0_r|]. apply agree_left; [|lia].
    replace (S (j - S i)) with (j - i)%nat by lia. apply IH. lia. }
  intros i Hi. destruct (le_lt_dec j i).
  - replace i with (j + (i - j))%nat by lia. apply R1. lia.
  - replace i with (j - (j - i))%nat by lia. apply L1. lia.
Qed.
Lemma segs_equal : (forall i m, (i < n)%nat -> (m < D)%nat -> p i m = q i m) -> segs = segs'.
Proof.
  intros E. destruct I as (HT & L & W & _). destruct I' as (HT' & L' & W' & _).
  pose proof (len_of times segs HT) as Ls. pose proof (len_of times segs' HT') as Ls'. fold n in Ls, Ls'.
  apply nth_ext with (d := seg_new N 0) (d' := seg_new N 0); [congruence|]. intros i Hi. rewrite Ls in Hi.
  pose proof (time_of N times segs i HT Hi) as T. pose proof (time_of N times segs' i HT' Hi) as T'.
  pose proof (polys_length N D segs i W ltac:(lia)) as PL. pose proof (polys_length N D segs' i W' ltac:(lia)) as PL'.
  assert (H1 : (i < length segs)%nat) by lia. assert (H1' : (i < length segs')%nat) by lia.
  rewrite Forall_forall in W, W'. destruct (W _ (nth_In segs (seg_new N 0) H1)) as (_ & A & B).
  destruct (W' _ (nth_In segs' (seg_new N 0) H1')) as (_ & A' & B').
  assert (X : s_polys (nth i segs (seg_new N 0)) = s_polys (nth i segs' (seg_new N 0))).
  { apply nth_ext with (d := []) (d' := []); [congruence|]. intros m Hm. apply (E i m); auto. rewrite PL in Hm. exact Hm. }
  destruct (nth i segs (seg_new N 0)), (nth i segs' (seg_new N 0)). cbn in *. congruence.
Qed.
Lemma agree_equal j : agree j -> (j <= n)%nat -> segs = segs'.
Proof.
  intros A Hj. apply segs_equal. intros i m Hi Hm. apply agree_right; auto. apply (agree_all j); auto. lia.
Qed.

(** One vertex that fixes the derivatives below d. *)
Lemma unique_one j v : nth_error vs j = Some v -> (forall k, (k < d)%nat -> exists c, get_constraint k v = Some c) -> segs = segs'.
Proof.
  intros Hv G. assert (Hj : (j <= n)%nat).
  { destruct I as (HT & L & _). pose proof (len_of times segs HT) as Ls. fold n in Ls.
    assert (j < length vs)%nat by (apply nth_error_Some; congruence). lia. }
  apply (agree_equal j); auto. intros k m Hk Hm. destruct (G k Hk) as (c & Gc).
  destruct (vertex_pl segs j v k c m I Hv Gc ltac:(lia) Hm) as [X Y].
  destruct (vertex_pl segs' j v k c m I' Hv Gc ltac:(lia) Hm) as [X' Y']. split.
  - intros H. unfold p, q. now rewrite X, X'.
  - intros i E Hi. unfold p, q. now rewrite (Y i E Hi), (Y' i E Hi).
Qed.

(** d vertices that fix the position. *)
Definition start_time (i : nat) : R := rsum i (fun k => nth k times 0).
Lemma start_time_increasing i j : Forall (fun T => 0 < T) times -> (i < j)%nat -> (j <= n)%nat -> start_time i < start_time j.
Proof.
  intros P H Hn. induction j as [|j IH]; [lia|]. unfold start_time in *. cbn [rsum].
  assert (0 < nth j times 0) by (rewrite Forall_forall in P; apply P, nth_In; unfold n in Hn; lia).
  destruct (Nat.eq_dec i j) as [->|]; [lra|]. specialize (IH ltac:(lia) ltac:(lia)). lra.
Qed.
Lemma start_NoDup l : Forall (fun T => 0 < T) times -> NoDup l -> (forall j, In j l -> (j <= n)%nat) -> NoDup (map start_time l).
Proof.
  intros P. induction l as [|j l IH]; intros ND LJ; cbn; [constructor|]. inversion ND as [|? ? Nj ND']; subst.
  constructor; [|apply IH; auto; intros; apply LJ; now right]. intros Hin. apply in_map_iff in Hin. destruct Hin as (j' & E & Hj').
  pose proof (LJ j (or_introl eq_refl)). pose proof (LJ j' (or_intror Hj')).
  destruct (Nat.lt_total j j') as [Hl|[->|Hl]]; auto;
    apply start_time_increasing in Hl; auto; lra.
Qed.
Definition diff (i m : nat) : poly := comb N 1 (-1) (p i m) (q i m).
Lemma diff_derive i m k t : (i < n)%nat -> (m < D)%nat ->
  Derive_n (pval (diff i m)) k t = Derive_n (pval (p i m)) k t - Derive_n (pval (q i m)) k t.
Proof.
  intros Hi Hm. destruct (seg_at segs i I Hi) as (_ & _ & _ & _ & L). destruct (seg_at segs' i I' Hi) as (_ & _ & _ & _ & L').
  unfold diff. rewrite comb_derive by (unfold p, q; auto). ring.
Qed.
Lemma diff_shift i m : (i < n)%nat -> (m < D)%nat -> forall t, pval (diff i m) t = pval (diff 0 m) (t + start_time i).
Proof.
  intros Hi Hm. assert (H0 : (0 < n)%nat) by lia. induction i as [|i IH].
  { intros t. unfold start_time. cbn [rsum]. now rewrite Rplus_0_r. }
  specialize (IH ltac:(lia)). destruct (shift_exists (start_time (S i)) (diff 0 m)) as (r & Lr & Er).
  assert (X : diff (S i) m = r).
  { apply (poly_equal N _ _ d 0).
    - apply comb_length.
    - rewrite Lr. apply comb_length.
    - intros t. rewrite diff_derive, Dd by auto. rewrite (shift_derive _ _ _ Er), diff_derive, Dd by auto. ring.
    - intros k Hk. rewrite (shift_derive _ _ _ Er).
      replace (0 + start_time (S i)) with (nth i times 0 + start_time i) by (unfold start_time; cbn [rsum]; ring).
      rewrite <- (shift_derive _ _ _ IH). rewrite !diff_derive by (auto; lia). unfold p, q.
      rewrite (smooth_pl segs i k m I Sm Hi), (smooth_pl segs' i k m I' Sm' Hi) by lia. reflexivity. }
  intros t. rewrite X. apply Er.
Qed.
Lemma unique_positions (l : list nat) : Forall (fun T => 0 < T) times -> NoDup l -> (d <= length l)%nat ->
  (forall j, In j l -> exists v c, nth_error vs j = Some v /\ get_constraint 0 v = Some c) -> (1 <= N / 2)%nat -> segs = segs'.
Proof.
  intros P ND L G HN. apply segs_equal. intros i m Hi Hm. assert (H0 : (0 < n)%nat) by lia.
  assert (LV : length vs = S n).
  { destruct I as (HT & LL & _). pose proof (len_of times segs HT) as Ls. fold n in Ls. lia. }
  assert (LJ : forall j, In j l -> (j <= n)%nat).
  { intros j Hj. destruct (G j Hj) as (v & c & Hv & _). assert (j < length vs)%nat by (apply nth_error_Some; congruence). lia. }
  assert (Z : forall x, pval (diff 0 m) x = 0).
  { apply (low_degree_zeros _ d (map start_time l)).
    - intros t. rewrite diff_derive, Dd by auto. ring.
    - now apply start_NoDup.
    - now rewrite map_length.
    - intros x Hx. apply in_map_iff in Hx. destruct Hx as (j & <- & Hj). destruct (G j Hj) as (v & c & Hv & Gc).
      destruct (vertex_pl segs j v 0 c m I Hv Gc ltac:(lia) Hm) as [X Y].
      destruct (vertex_pl segs' j v 0 c m I' Hv Gc ltac:(lia) Hm) as [X' Y']. specialize (LJ j Hj).
      destruct (Nat.eq_dec j n) as [En|Hn].
      + destruct j as [|j']; [lia|]. specialize (Y j' eq_refl ltac:(lia)). specialize (Y' j' eq_refl ltac:(lia)).
        replace (start_time (S j')) with (nth j' times 0 + start_time j') by (unfold start_time; cbn [rsum]; ring).
        rewrite <- (diff_shift j' m) by (auto; lia).
        change (Derive_n (pval (diff j' m)) 0 (nth j' times 0) = 0). rewrite diff_derive by (auto; lia).
        unfold p, q. rewrite Y, Y'. ring.
      + replace (start_time j) with (0 + start_time j) by ring. rewrite <- (diff_shift j m) by (auto; lia).
        change (Derive_n (pval (diff j m)) 0 0 = 0). rewrite diff_derive by (auto; lia).
        unfold p, q. rewrite X, X' by lia. ring. }
  apply (same_poly i m 0 Hi Hm). intros k Hk.
  assert (E : Derive_n (pval (diff i m)) k 0 = 0).
  { rewrite (Derive_n_ext _ (fun _ => 0)) by (intros t; rewrite diff_shift by auto; apply Z).
    destruct k; [reflexivity|apply Derive_n_const]. }
  rewrite diff_derive in E by auto. lra.
Qed.
End Unique.
