(** Property theorems: evaluation in double precision (C89). *)
From Coq Require Import String Reals List ZArith Arith Bool Lra Lia Psatz Factorial.
From Flocq Require Import Core.
From Coquelicot Require Import Coquelicot.
From Verif Require Import Base PolyModel PolySpec PolyProofs VertexModel TrajModel TrajSpec TrajProofs IoModel
  FloatProofs DoubleProofs RoundModel RoundProofs RoundTime LinCost.
Import List ListNotations.
Local Open Scope R_scope.
Set Bullet Behavior "Strict Subproofs".

(* ------------------------------------------------------------------ *)
(** ** Specification *)

(** Relative rounding error of one operation on doubles. *)
Definition unit_roundoff : R := / 2 ^ 53.
(** Four times half the smallest positive double. *)
Definition tiny : R := bpow radix2 (-1073).

(** The error allowed for the d-th derivative at times up to r: relative to the
    value the derivative would have if all terms had the same sign, plus
    underflow. *)
Definition rounding (p : list R) (d : nat) (r : R) : R :=
  2 * INR (length p - d) * unit_roundoff * Derive_n (pval (map Rabs p)) d r
  + tiny * lsum (map (fun k => r ^ k) (seq 0 (length p - d))).

(** The error allowed for the time in a segment. *)
Definition time_error (ss : list segment) : R :=
  INR (length ss + 3) * unit_roundoff * lsum (map s_time ss).

(** Durations as they are stored: positive doubles. *)
Definition durations_ok (ss : list segment) : Prop := Forall (fun s => is_double (s_time s) /\ 0 < s_time s) ss.

Lemma unit_eps : unit_roundoff = eps.
Proof. unfold unit_roundoff, eps. f_equal. rewrite pow_IZR. reflexivity. Qed.
Lemma tiny_eta : tiny = 4 * eta.
Proof. unfold tiny, eta. change 4 with (bpow radix2 2). rewrite <- bpow_plus. reflexivity. Qed.
Lemma powers_sum k t : powers k t = lsum (map (fun j => t ^ j) (seq 0 (S k))).
Proof.
  induction k as [|k IH]; [cbn; lra|]. cbn [powers]. rewrite IH, !lsum_map_seq.
  rewrite (rsum_S_l (S k)). rewrite <- rsum_scal. cbn [pow]. lra.
Qed.

Lemma rounding_spec p d r : (d < length p)%nat ->
  rounding p d r = 2 * INR (length p - d) * eps * poly_evaluate (map Rabs p) r d + 4 * eta * powers (length p - 1 - d) r.
Proof.
  intros H. unfold rounding. rewrite unit_eps, tiny_eta, powers_sum, poly_evaluate_Derive_n.
  replace (S (length p - 1 - d)) with (length p - d)%nat by lia. reflexivity.
Qed.
Lemma abs_eval_mono p d r r' : 0 <= r <= r' -> poly_evaluate (map Rabs p) r d <= poly_evaluate (map Rabs p) r' d.
Proof.
  intros H. rewrite !poly_evaluate_rsum. apply rsum_le. intros i _. rewrite coef_abs.
  apply Rmult_le_compat_l; [|now apply pow_incr].
  apply Rmult_le_pos; [apply base_coeff_nonneg|apply Rabs_pos].
Qed.
Lemma powers_mono k r r' : 0 <= r <= r' -> powers k r <= powers k r'.
Proof.
  intros H. induction k as [|k IH]; cbn; [lra|]. apply Rplus_le_compat_r.
  pose proof (powers_pos k r ltac:(lra)). apply Rmult_le_compat; lra.
Qed.
Lemma rounding_mono p d r r' : (d < length p)%nat -> 0 <= r <= r' -> rounding p d r <= rounding p d r'.
Proof.
  intros Hd H. rewrite !rounding_spec by auto. pose proof eps_val. pose proof eta_pos. pose proof (pos_INR (length p - d)).
  apply Rplus_le_compat.
  - apply Rmult_le_compat_l; [|now apply abs_eval_mono]. apply Rmult_le_pos; [|lra]. lra.
  - apply Rmult_le_compat_l; [lra|now apply powers_mono].
Qed.

(* ------------------------------------------------------------------ *)
(** ** Polynomials *)

(** C89: the table of derivative factors i (i-1) ... (i-n+1), computed once in
    double arithmetic, is exact in all its 22 rows and columns. *)
Theorem C89_table : forall n i, (n <= i)%nat -> (i <= 21)%nat ->
  table_r double64 n i = INR (fact i) / INR (fact (i - n)).
Proof.
  intros n i Hn Hi. rewrite table_exact by lia. revert Hn. induction n as [|n IH]; intros Hn.
  - cbn [base_coeff]. rewrite Nat.sub_0_r. field. apply INR_fact_neq_0.
  - cbn [base_coeff]. destruct (Nat.ltb_spec i n); [lia|]. rewrite IH by lia.
    replace (i - n)%nat with (S (i - S n)) by lia.
    assert (E : INR i - INR n = INR (S (i - S n))).
    { rewrite <- minus_INR by lia. f_equal. lia. }
    rewrite E. change (fact (S (i - S n))) with ((S (i - S n)) * fact (i - S n))%nat. rewrite mult_INR.
    field. split; [apply INR_fact_neq_0|]. apply not_0_INR. lia.
Qed.
Example C89_table_example : table_r double64 9 9 = 362880 /\ table_r double64 21 21 = 51090942171709440000.
Proof. split; rewrite table_exact_z by lia; f_equal. Qed.

(** C89: evaluate(t, d) computed in doubles, against the d-th derivative. *)
Theorem C89_polynomial : forall p t d, (d < length p)%nat -> (length p <= 22)%nat ->
  Rabs (poly_evaluate_r double64 p t d - Derive_n (pval p) d t) <= rounding p d (Rabs t).
Proof.
  intros p t d H1 H2. rewrite rounding_spec by auto. rewrite <- poly_evaluate_Derive_n.
  apply evaluate_err. lia.
Qed.
(** Derivatives of at least as high an order as there are coefficients are exact. *)
Theorem C89_beyond_degree : forall p t d, (length p <= d)%nat -> poly_evaluate_r double64 p t d = Derive_n (pval p) d t.
Proof.
  intros p t d H. rewrite <- poly_evaluate_Derive_n. unfold poly_evaluate_r, poly_evaluate. destruct (Nat.leb_spec (length p) d); [reflexivity|lia].
Qed.
Print Assumptions C89_beyond_degree.
Example C89_beyond_example : poly_evaluate_r double64 [1; 2] 3 2 = 0.
Proof. rewrite C89_beyond_degree by (cbn; lia). rewrite Derive_n_pval. reflexivity. Qed.
(** At the start of a segment nothing is lost: position and velocity are the
    stored coefficients. *)
Theorem C89_start_exact : forall p d, (d <= 1)%nat -> (d < length p)%nat -> (length p <= 22)%nat -> Forall is_double p ->
  poly_evaluate_r double64 p 0 d = nth d p 0.
Proof.
  intros p d Hd H1 H2 HD. unfold poly_evaluate_r. destruct (Nat.leb_spec (length p) d); [lia|].
  assert (B : double64 (table_r double64 d d * coef p d) = nth d p 0).
  { rewrite table_exact by lia. assert (E : base_coeff d d = 1).
    { destruct d as [|[|d]]; [reflexivity| |lia]. cbn. lra. }
    rewrite E, Rmult_1_l. apply double64_id. unfold coef. rewrite Forall_forall in HD. apply HD, nth_In. auto. }
  remember (length p - 1 - d)%nat as k eqn:K.
  destruct k as [|k].
  - cbn [eval_loop_r]. replace (length p - 1)%nat with d by lia. exact B.
  - clear K. generalize (double64 (table_r double64 d (length p - 1) * coef p (length p - 1))).
    induction k as [|k IH]; intros acc.
    + cbn [eval_loop_r]. rewrite Nat.add_0_r, B, Rmult_0_r, double64_0, Rplus_0_l.
      apply double64_id. rewrite Forall_forall in HD. apply HD, nth_In. auto.
    + remember (S k) as k'. cbn [eval_loop_r]. apply IH.
Qed.

(* ------------------------------------------------------------------ *)
(** ** Trajectories *)

(** A trajectory as the code builds it: the total duration is a sum of doubles. *)
Definition built (ss : list segment) (tr : trajectory) : Prop :=
  set_segments_gen (fun a b => double64 (a + b)) ss = Some tr.

Lemma built_fields ss tr : built ss tr -> t_segs tr = ss /\ t_max tr = fold_left (fun m s => dadd m (s_time s)) ss 0 /\ ss <> [] /\
  Forall (fun s => s_D s = t_D tr /\ s_N s = t_N tr) ss.
Proof.
  unfold built, set_segments_gen, add_segments_gen. destruct ss as [|s0 ss']; [discriminate|].
  destruct (forallb _ _) eqn:E; [|discriminate]. intros H; inversion H; clear H; subst tr. cbn [t_segs t_max t_D t_N app].
  split; [reflexivity|]. split; [reflexivity|]. split; [discriminate|].
  rewrite forallb_forall in E. apply Forall_forall. intros s Hs. specialize (E s Hs). cbn [t_D t_N] in E.
  apply andb_prop in E as [E1 E2]. apply Nat.eqb_eq in E1, E2. auto.
Qed.
Lemma csum_fold segs : forall acc, csum acc (length segs) segs = fold_left (fun m s => dadd m (s_time s)) segs acc.
Proof. induction segs as [|s segs IH]; intros acc; cbn; auto. Qed.
Lemma xsum_all segs : xsum (length segs) segs = lsum (map s_time segs).
Proof. induction segs as [|s segs IH]; cbn; [reflexivity|now rewrite IH]. Qed.

Lemma locate_exists ss tr t : built ss tr -> t <= t_max tr -> exists i x, locate_r double64 tr t = Some (i, x).
Proof.
  intros B Ht. destruct (built_fields _ _ B) as (Es & Em & Hne & _). unfold locate_r.
  change (fun a b => double64 (a + b)) with dadd. rewrite Es.
  destruct (find_rounded ss t 0 0) as [(k & Hk & E & A & _)|[E A]]; rewrite E; cbn [Nat.add].
  - rcase; [lra|]. destruct (Nat.leb_spec (length ss) k); [lia|].
    destruct (nth_error ss k) as [s|] eqn:N; [|apply nth_error_None in N; lia]. eauto.
  - rcase; [rewrite csum_fold in *; lra|]. rewrite Nat.leb_refl.
    destruct (nth_error ss (length ss - 1)) as [s|] eqn:N; [eauto|]. apply nth_error_None in N.
    destruct ss; [congruence|cbn in N; lia].
Qed.
Lemma evaluate_located tr t d i x s : locate_r double64 tr t = Some (i, x) -> nth_error (t_segs tr) i = Some s ->
  traj_evaluate_r double64 tr t d = Some (seg_evaluate_r double64 s x d).
Proof.
  unfold locate_r, traj_evaluate_r. destruct (find_segment _ _ _ _ _) as [j acc]. destruct (Rltb acc t); [discriminate|].
  set (m := if (length (t_segs tr) <=? j)%nat then (length (t_segs tr) - 1)%nat else j).
  destruct (nth_error (t_segs tr) m) as [q|] eqn:N; [|discriminate]. intros H; inversion H; subst.
  rewrite N. intros E; inversion E; subst. reflexivity.
Qed.

(** C89: the segment chosen by evaluate and the time in it, for times up to the
    duration of the trajectory. *)
Theorem C89_time_in_segment : forall ss tr t d, built ss tr -> durations_ok ss ->
  (Z.of_nat (length ss) <= 999000)%Z -> is_double t -> 0 <= t <= t_max tr ->
  exists i s x, nth_error ss i = Some s /\ traj_evaluate_r double64 tr t d = Some (seg_evaluate_r double64 s x d) /\
    start_of tr i - time_error ss <= t <= start_of tr (S i) + time_error ss /\
    Rabs (x - (t - start_of tr i)) <= time_error ss.
Proof.
  intros ss tr t d B HF Hn Dt Ht. destruct (built_fields _ _ B) as (Es & Em & Hne & _).
  destruct (locate_exists ss tr t B ltac:(lra)) as (i & x & E).
  destruct (local_time tr t i x) as (s & N & P); [now rewrite Es|auto|lra|now rewrite Es|exact E|].
  exists i, s, x. rewrite Es in *. cbv zeta in P. rewrite <- (xsum_start tr (length ss)), Es, xsum_all in P.
  unfold time_error. rewrite unit_eps. refine (conj N (conj _ P)).
  eapply evaluate_located; [exact E|]. now rewrite Es.
Qed.

Lemma csum_le_all ss : durations_ok ss -> forall k acc, is_double acc ->
  csum acc k ss <= csum acc (length ss) ss.
Proof.
  induction 1 as [|s ss [D P] F IH]; intros k acc Da; [destruct k; cbn; lra|].
  cbn [length]. assert (X : acc <= dadd acc (s_time s)) by (apply dadd_ge; auto; lra).
  assert (Dd : is_double (dadd acc (s_time s))) by apply (csum_double [s] 1 acc Da).
  destruct k as [|k]; cbn [csum]; [|apply IH; auto].
  eapply Rle_trans; [exact X|]. specialize (IH 0%nat _ Dd). cbn [csum] in IH. destruct ss; exact IH.
Qed.
(** C89: past the end of the trajectory, as the code computes it, every
    derivative evaluates to zero. *)
Theorem C89_past_end : forall ss tr t d, built ss tr -> durations_ok ss -> t_max tr < t ->
  exists z, traj_evaluate_r double64 tr t d = Some z /\ length z = t_D tr /\ Forall (fun c => c = 0) z.
Proof.
  intros ss tr t d B HF Ht. destruct (built_fields _ _ B) as (Es & Em & Hne & _). unfold traj_evaluate_r.
  change (fun a b => double64 (a + b)) with dadd. rewrite Es.
  rewrite <- csum_fold in Em.
  destruct (find_rounded ss t 0 0) as [(k & Hk & E & A & _)|[E A]].
  - pose proof (csum_le_all ss HF (S k) 0 double_0). lra.
  - rewrite E, <- Em. rcase; [|lra].
    exists (repeat 0 (t_D tr)). split; auto. split; [apply repeat_length|].
    apply Forall_forall. intros c Hc. apply repeat_spec in Hc. exact Hc.
Qed.
Print Assumptions C89_past_end.

(** C89: the value computed by evaluate against the motion the segments
    describe exactly.  L bounds the next derivative, E the rounding errors of
    the polynomials; the motion is continuous at the joints. *)
Theorem C89_trajectory : forall ss tr exact d i L E,
  built ss tr -> set_segments ss = Some exact ->
  Forall seg_wf ss -> durations_ok ss -> (Z.of_nat (length ss) <= 999000)%Z ->
  joined exact d -> (i < t_D exact)%nat -> (d < t_N exact)%nat -> (t_N exact <= 22)%nat ->
  (forall s p, In s ss -> nth_error (s_polys s) i = Some p ->
     forall x, - (3 * time_error ss) <= x <= s_time s + 3 * time_error ss -> Rabs (Derive_n (pval p) (S d) x) <= L) ->
  (forall s p, In s ss -> nth_error (s_polys s) i = Some p -> rounding p d (s_time s + 3 * time_error ss) <= E) ->
  forall t, is_double t -> 0 <= t <= t_max tr ->
  exists v, traj_evaluate_r double64 tr t d = Some v /\ length v = t_D exact /\
    Rabs (nth i v 0 - comp exact d i (Rmin t (t_max exact))) <= 4 * time_error ss * L + E.
Proof.
  intros ss tr ex d i L E B X HW HF Hn HJ Hi Hd HN HL HE t Dt Ht.
  destruct (set_segments_wf ss ex HW X) as (Wx & Sx & Hne).
  destruct (C89_time_in_segment ss tr t d B HF Hn Dt Ht) as (k & s & x & N & Ev & [Hk1 Hk2] & Hx).
  exists (seg_evaluate_r double64 s x d). split; [exact Ev|].
  assert (Hin : In s ss) by (eapply nth_error_In; exact N).
  destruct Wx as [Wf Wm]. pose proof Wf as Wf'. rewrite Sx in Wf. rewrite Forall_forall in Wf.
  destruct (Wf s Hin) as ((LP & LN) & SD & SN).
  assert (Hlen : length (seg_evaluate_r double64 s x d) = s_D s) by (unfold seg_evaluate_r; now rewrite map_length, seq_length).
  split; [now rewrite Hlen|].
  set (dl := time_error ss) in *.
  assert (dl0 : 0 <= dl).
  { unfold dl, time_error. rewrite unit_eps. pose proof eps_val. apply Rmult_le_pos.
    - apply Rmult_le_pos; [apply pos_INR|lra].
    - apply lsum_nonneg. apply Forall_map. eapply Forall_impl; [|exact HF]. cbn. intros; lra. }
  assert (Hp : nth_error (s_polys s) i = Some (seg_poly s i)).
  { unfold seg_poly. apply nth_error_nth'. lia. }
  assert (Lp : length (seg_poly s i) = t_N ex).
  { rewrite Forall_forall in LN. rewrite <- SN. apply LN. eapply nth_error_In; exact Hp. }
  assert (St : forall j, start_of tr j = start_of ex j).
  { intros j. unfold start_of. destruct (built_fields _ _ B) as (Es & _). now rewrite Es, Sx. }
  rewrite !St in *.
  assert (HT : 0 < s_time s). { unfold durations_ok in HF. rewrite Forall_forall in HF. now apply HF. }
  assert (Pos : positive_times ex).
  { unfold positive_times. rewrite Sx. eapply Forall_impl; [|exact HF]. cbn. intros; lra. }
  assert (SL : slope (t_segs ex) i d (dl + 2 * dl) L).
  { intros q Hq y Hy. rewrite Sx in Hq. rewrite poly_evaluate_Derive_n.
    destruct (Wf q Hq) as ((LPq & _) & SDq & _).
    apply (HL q (seg_poly q i) Hq); [unfold seg_poly; apply nth_error_nth'; lia|]. lra. }
  pose proof N as N'. rewrite <- Sx in N'.
  pose proof (start_of_S ex k s N') as SS.
  assert (Smax : start_of ex (S k) <= t_max ex).
  { rewrite Wm. apply lsum_firstn_le. exact Pos. }
  assert (S0 : 0 <= start_of ex k).
  { rewrite <- xsum_start. apply (xsum_inside (t_segs ex) Pos k s N'). }
  assert (tm : t_max ex = lsum (map s_time ss)) by (now rewrite Wm, Sx).
  set (t' := Rmin t (t_max ex)).
  assert (Ht' : start_of ex k - dl <= t' <= start_of ex (S k) + dl /\ 0 <= t' <= t_max ex /\ Rabs (t - t') <= dl).
  { unfold t', Rmin. destruct (Rle_dec t (t_max ex)).
    - replace (t - t) with 0 by ring. rewrite Rabs_R0. lra.
    - rewrite (Rabs_pos_eq (t - t_max ex)) by lra. lra. }
  destruct Ht' as (T1 & T2 & T3). apply Rabs_le_between in T3. apply Rabs_le_between in Hx.
  assert (V : Rabs (poly_evaluate (seg_poly s i) x d - comp ex d i t') <= (2 * dl + 2 * dl) * L).
  { apply (value_at ex d i L dl (2 * dl) k s t' x); auto; try lra; [split; auto|]. apply Rabs_le. lra. }
  assert (Nv : nth i (seg_evaluate_r double64 s x d) 0 = poly_evaluate_r double64 (seg_poly s i) x d).
  { unfold seg_evaluate_r. rewrite (nth_indep _ 0 (poly_evaluate_r double64 (seg_poly s 0) x d)) by (rewrite map_length, seq_length; lia).
    rewrite (map_nth (fun j => poly_evaluate_r double64 (seg_poly s j) x d)). rewrite seq_nth by lia. reflexivity. }
  rewrite Nv.
  pose proof (C89_polynomial (seg_poly s i) x d ltac:(lia) ltac:(lia)) as Q. rewrite <- poly_evaluate_Derive_n in Q.
  assert (RM : rounding (seg_poly s i) d (Rabs x) <= E).
  { eapply Rle_trans; [|apply (HE s _ Hin Hp)]. apply rounding_mono; [lia|]. split; [apply Rabs_pos|]. apply Rabs_le. lra. }
  replace (poly_evaluate_r double64 (seg_poly s i) x d - comp ex d i t') with
    ((poly_evaluate_r double64 (seg_poly s i) x d - poly_evaluate (seg_poly s i) x d) +
     (poly_evaluate (seg_poly s i) x d - comp ex d i t')) by ring.
  eapply Rle_trans; [apply Rabs_triang|]. lra.
Qed.

(* ------------------------------------------------------------------ *)
(** ** A concrete trajectory *)

(** One metre per second for two seconds, in two segments. *)
Definition walk : list segment := [mkSeg 1 2 1 [[0; 1]]; mkSeg 1 2 1 [[1; 1]]].
Lemma eta_small : eta <= eps.
Proof. rewrite <- bpow_eps. apply bpow_le. lia. Qed.
Lemma time_error_walk : time_error walk = 10 * eps.
Proof. unfold time_error. rewrite unit_eps. cbn. lra. Qed.
Example C89_trajectory_example : exists tr exact L E,
  built walk tr /\ set_segments walk = Some exact /\ Forall seg_wf walk /\ durations_ok walk /\
  (Z.of_nat (length walk) <= 999000)%Z /\ joined exact 0 /\ (0 < t_D exact)%nat /\ (0 < t_N exact)%nat /\ (t_N exact <= 22)%nat /\
  (forall s p, In s walk -> nth_error (s_polys s) 0 = Some p ->
     forall x, - (3 * time_error walk) <= x <= s_time s + 3 * time_error walk -> Rabs (Derive_n (pval p) 1 x) <= L) /\
  (forall s p, In s walk -> nth_error (s_polys s) 0 = Some p -> rounding p 0 (s_time s + 3 * time_error walk) <= E) /\
  is_double (3 / 2) /\ 0 <= 3 / 2 <= t_max tr /\ comp exact 0 0 (Rmin (3 / 2) (t_max exact)) = 3 / 2 /\
  4 * time_error walk * L + E <= / 10 ^ 14.
Proof.
  pose proof eps_val as [E0 E1]. pose proof eta_small as ET. pose proof eta_pos as ET0.
  assert (D1 : double64 1 = 1) by (apply double64_id, (double_int 1); reflexivity).
  assert (D2 : double64 2 = 2) by (apply double64_id, (double_int 2); reflexivity).
  exists (mkTraj 1 2 2 walk), (mkTraj 1 2 2 walk), 1, (21 * eps).
  assert (P14 : / 10 ^ 14 = / 100000000000000) by (f_equal; rewrite pow_IZR; reflexivity).
  refine (conj _ (conj _ (conj _ (conj _ (conj _ (conj _ (conj _ (conj _ (conj _ (conj _ (conj _ (conj _ (conj _ (conj _ _)))))))))))))).
  - unfold built, set_segments_gen, add_segments_gen, walk. cbn. rewrite Rplus_0_l, D1.
    replace (1 + 1) with 2 by lra. rewrite D2. reflexivity.
  - unfold set_segments, set_segments_gen, add_segments_gen, walk. cbn. do 2 f_equal. lra.
  - repeat constructor.
  - repeat constructor; cbn; try lra; apply (double_int 1); reflexivity.
  - cbn. lia.
  - intros [|[|k]] s s' A B j Hj; cbn in A, B; try discriminate.
    inversion A; subst. inversion B; subst. assert (j = 0)%nat by lia. subst j. cbn. f_equal. lra.
  - cbn. lia.
  - cbn. lia.
  - cbn. lia.
  - intros s p Hs Hp x _. rewrite <- poly_evaluate_Derive_n.
    destruct Hs as [<-|[<-|[]]]; cbn in Hp; inversion Hp; subst; cbn; rewrite Rabs_pos_eq; lra.
  - rewrite time_error_walk. intros s p Hs Hp.
    destruct Hs as [<-|[<-|[]]]; cbn in Hp; inversion Hp; subst; rewrite rounding_spec by (cbn; lia);
      clear - E0 E1 ET ET0; revert ET ET0; generalize eta; intros et ET ET0; cbn; rewrite ?Rabs_R0, Rabs_R1;
      assert (eps * eps <= eps * / 1000) by (apply Rmult_le_compat_l; lra);
      assert (et * eps <= et * / 1000) by (apply Rmult_le_compat_l; lra); lra.
  - apply (double_half 3). reflexivity.
  - cbn. lra.
  - rewrite Rmin_left by (cbn; lra). unfold comp, traj_evaluate, traj_evaluate_gen, walk. cbn [t_segs find_segment s_time].
    rcase; [lra|]. rcase; [|lra]. rcase; [lra|]. cbn. lra.
  - rewrite time_error_walk, P14. lra.
Qed.

Example C89_past_end_example : exists tr, built walk tr /\ durations_ok walk /\ t_max tr < 3.
Proof.
  assert (D1 : double64 1 = 1) by (apply double64_id, (double_int 1); reflexivity).
  assert (D2 : double64 2 = 2) by (apply double64_id, (double_int 2); reflexivity).
  exists (mkTraj 1 2 2 walk). split; [|split].
  - unfold built, set_segments_gen, add_segments_gen, walk. cbn. rewrite Rplus_0_l, D1.
    replace (1 + 1) with 2 by lra. rewrite D2. reflexivity.
  - repeat constructor; cbn; try lra; apply (double_int 1); reflexivity.
  - cbn. lra.
Qed.

(* ------------------------------------------------------------------ *)
(** ** Times outside the segment *)

(** Rounding of numbers near a double. *)
Lemma double64_near x k m : (-1022 <= k)%Z -> bpow radix2 k <= x -> (Z.abs m < 2 ^ 53)%Z -> (k <= 52)%Z ->
  Rabs (IZR m * bpow radix2 (k - 52) - x) < bpow radix2 (k - 52) / 2 ->
  double64 x = IZR m * bpow radix2 (k - 52).
Proof.
  intros Hk Hx Hm Hk2 H. set (g := bpow radix2 (k - 52)) in *. assert (g0 : 0 < g) by apply bpow_gt_0.
  assert (Dc : is_double (IZR m * g)).
  { unfold g. replace (k - 52)%Z with (- (52 - k))%Z by lia. apply double_small_multiple; lia. }
  assert (L : bpow radix2 k <= double64 x).
  { rewrite <- (double64_id _ (is_double_bpow k ltac:(lia))). now apply double64_le. }
  destruct (double_multiple _ k Hk (double64_double x) L) as [n En]. fold g in En.
  pose proof (double64_nearest x _ Dc) as NR. rewrite En in NR |- *.
  assert (HH : Rabs (IZR n * g - IZR m * g) < g).
  { replace (IZR n * g - IZR m * g) with ((IZR n * g - x) + - (IZR m * g - x)) by ring.
    eapply Rle_lt_trans; [apply Rabs_triang|]. rewrite Rabs_Ropp. lra. }
  replace (IZR n * g - IZR m * g) with (IZR (n - m) * g) in HH by (rewrite minus_IZR; ring).
  rewrite Rabs_mult, (Rabs_pos_eq g), <- abs_IZR in HH by lra.
  assert (IZR (Z.abs (n - m)) < 1) by nra. assert (Z.abs (n - m) < 1)%Z by now apply lt_IZR.
  replace n with m by lia. reflexivity.
Qed.

(** Two segments which report the time since their start. *)
Definition clocks (a b : R) : list segment := [mkSeg a 2 1 [[0; 1]]; mkSeg b 2 1 [[0; 1]]].
Lemma clock_value x : is_double x -> poly_evaluate_r double64 [0; 1] x 0 = x.
Proof.
  intros D. unfold poly_evaluate_r. cbn. rewrite !Rmult_1_l.
  rewrite (double64_id 1) by (apply (double_int 1); reflexivity). rewrite Rmult_1_l, (double64_id x D).
  rewrite double64_0, Rplus_0_r. now apply double64_id.
Qed.
Lemma clocks_value a b t : is_double a -> is_double t ->
  a <= t -> (t < double64 (a + b) \/ t = double64 (a + b)) ->
  traj_evaluate_r double64 (mkTraj 1 2 (double64 (a + b)) (clocks a b)) t 0 =
  Some [double64 (t - double64 (double64 (a + b) - b))].
Proof.
  intros Da Dt Hat Ht. unfold traj_evaluate_r, clocks. cbn [t_segs find_segment s_time].
  rewrite Rplus_0_l, (double64_id a Da). rcase; [lra|]. rcase.
  - rcase; [lra|]. cbn [length Nat.leb Nat.sub nth_error]. unfold seg_evaluate_r. cbn [s_D seq map seg_poly s_polys nth s_time].
    rewrite clock_value by apply double64_double. reflexivity.
  - rcase; [lra|]. cbn [length Nat.leb Nat.sub nth_error]. unfold seg_evaluate_r. cbn [s_D seq map seg_poly s_polys nth s_time].
    rewrite clock_value by apply double64_double. reflexivity.
Qed.
Lemma clocks_built a b : is_double a -> is_double b -> 0 < a -> 0 < b ->
  built (clocks a b) (mkTraj 1 2 (double64 (a + b)) (clocks a b)) /\ durations_ok (clocks a b).
Proof.
  intros Da Db a0 b0. split.
  - unfold built, set_segments_gen, add_segments_gen, clocks. cbn. rewrite Rplus_0_l, (double64_id a Da). reflexivity.
  - repeat constructor; auto.
Qed.

(** C89 (negative): the polynomial of a segment is only evaluated between 0 and
    the duration of the segment.  It can be evaluated before its start ... *)
Theorem C89_after_start_refuted : ~ forall a b tr t v,
  built (clocks a b) tr -> durations_ok (clocks a b) -> is_double t -> 0 <= t <= t_max tr ->
  traj_evaluate_r double64 tr t 0 = Some [v] -> 0 <= v.
Proof.
  intros H. set (g := / 4503599627370496). set (a := 7 / 4). set (b := 1 / 4 + 5 / 4 * g).
  assert (G : bpow radix2 (0 - 52) = g) by reflexivity.
  assert (G1 : bpow radix2 (1 - 52) = 2 * g).
  { change (bpow radix2 (1 - 52)) with (/ 2251799813685248). unfold g. lra. }
  assert (g0 : 0 < g <= / 1000000) by (unfold g; lra).
  assert (Da : is_double a).
  { replace a with (IZR 7 * bpow radix2 (- 2)) by (unfold a; change (bpow radix2 (-2)) with (/ 4); lra).
    apply (double_small_multiple _ 2); lia. }
  assert (Db : is_double b).
  { replace b with (IZR 4503599627370501 * bpow radix2 (- 54)).
    - apply (double_small_multiple _ 54); lia.
    - change (bpow radix2 (- 54)) with (/ 18014398509481984). unfold b, g. lra. }
  assert (S1 : double64 (a + b) = 2 + 2 * g).
  { rewrite (double64_near _ 1 4503599627370497); try lia.
    - rewrite G1. unfold g. lra.
    - change (bpow radix2 1) with 2. unfold a, b. lra.
    - rewrite G1. rewrite Rabs_pos_eq; unfold a, b, g; lra. }
  assert (S2 : double64 (2 + 2 * g - b) = 7 / 4 + g).
  { rewrite (double64_near _ 0 7881299347898369); try lia.
    - rewrite G. unfold g. lra.
    - change (bpow radix2 0) with 1. unfold b. lra.
    - rewrite G. rewrite Rabs_pos_eq; unfold b, g; lra. }
  assert (S3 : double64 (a - (7 / 4 + g)) = - g).
  { replace (a - (7 / 4 + g)) with (- g) by (unfold a; lra). rewrite double64_opp. f_equal.
    rewrite <- G. apply double64_id, is_double_bpow. lia. }
  destruct (clocks_built a b Da Db ltac:(unfold a; lra) ltac:(unfold b; lra)) as [B D].
  assert (V := clocks_value a b a Da Da (Rle_refl _) ltac:(rewrite S1; unfold a; lra)).
  rewrite S1, S2, S3 in V. rewrite S1 in B.
  specialize (H a b _ a (- g) B D Da ltac:(cbn; unfold a; lra) V). lra.
Qed.
(** ... and after its end. *)
Theorem C89_before_end_refuted : ~ forall a b tr t v,
  built (clocks a b) tr -> durations_ok (clocks a b) -> is_double t -> a <= t <= t_max tr ->
  traj_evaluate_r double64 tr t 0 = Some [v] -> v <= b.
Proof.
  intros H. set (g := / 36028797018963968). set (a := 1). set (b := 1 / 4 - g).
  assert (g0 : 0 < g <= / 1000000) by (unfold g; lra).
  assert (G : bpow radix2 (0 - 52) = 8 * g).
  { change (bpow radix2 (0 - 52)) with (/ 4503599627370496). unfold g. lra. }
  assert (Da : is_double a) by (apply (double_int 1); reflexivity).
  assert (Db : is_double b).
  { replace b with (IZR 9007199254740991 * bpow radix2 (- 55)).
    - apply (double_small_multiple _ 55); lia.
    - change (bpow radix2 (- 55)) with (/ 36028797018963968). unfold b, g. lra. }
  assert (D5 : is_double (5 / 4)).
  { replace (5 / 4) with (IZR 5 * bpow radix2 (- 2)) by (change (bpow radix2 (-2)) with (/ 4); lra).
    apply (double_small_multiple _ 2); lia. }
  assert (S1 : double64 (a + b) = 5 / 4).
  { rewrite (double64_near _ 0 5629499534213120); try lia.
    - rewrite G. unfold g. lra.
    - change (bpow radix2 0) with 1. unfold a, b. lra.
    - rewrite G. rewrite Rabs_pos_eq; unfold a, b, g; lra. }
  assert (S2 : double64 (5 / 4 - b) = 1).
  { rewrite (double64_near _ 0 4503599627370496); try lia.
    - rewrite G. unfold g. lra.
    - change (bpow radix2 0) with 1. unfold b. lra.
    - rewrite G. rewrite Rabs_left1; unfold b, g; lra. }
  assert (S3 : double64 (5 / 4 - 1) = 1 / 4).
  { replace (5 / 4 - 1) with (bpow radix2 (-2)) by (change (bpow radix2 (-2)) with (/ 4); lra).
    rewrite double64_id by (apply is_double_bpow; lia). change (bpow radix2 (-2)) with (/ 4). lra. }
  destruct (clocks_built a b Da Db ltac:(unfold a; lra) ltac:(unfold b; lra)) as [B D].
  assert (V := clocks_value a b (5 / 4) Da D5 ltac:(unfold a; lra) ltac:(rewrite S1; lra)).
  rewrite S1, S2, S3 in V. rewrite S1 in B.
  specialize (H a b _ (5 / 4) (1 / 4) B D D5 ltac:(cbn; unfold a; lra) V). unfold b in H. lra.
Qed.
