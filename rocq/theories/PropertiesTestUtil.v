(** Property theorems: the numerical helpers of test_utils.h (C94). *)
From Coq Require Import Reals Lra Lia List Bool ZArith Arith.
From Coquelicot Require Import Coquelicot.
From Verif Require Import Base PolyModel PolySpec PolyProofs VertexModel TrajModel TrajSpec TrajProofs LinOptSpec LinCost
  RoundTime LinFinal PropertiesSampling TestUtilModel.
Import List ListNotations.
Local Open Scope R_scope.
Set Bullet Behavior "Strict Subproofs".

(** Squared length of the d-th derivative at time t. *)
Definition squared (tr : trajectory) (d : nat) (t : R) : R := rsum (t_D tr) (fun i => comp tr d i t ^ 2).
(** On every segment the d-th derivative is at most M and the next at most L in every component. *)
Definition bounded (tr : trajectory) (d : nat) (M L : R) : Prop :=
  forall s p x, In s (t_segs tr) -> In p (s_polys s) -> 0 <= x <= s_time s ->
  Rabs (Derive_n (pval p) d x) <= M /\ Rabs (Derive_n (pval p) (S d) x) <= L.
(** A usable trajectory whose d-th derivative is continuous. *)
Definition sampled_ok (tr : trajectory) (d : nat) : Prop :=
  traj_wf tr /\ positive_times tr /\ t_segs tr <> [] /\ joined tr d.

(** ** Sums and the loops *)
Lemma squared_norm tr t d v : traj_evaluate tr t d = Some v -> length v = t_D tr ->
  vec_squared_norm v = squared tr d t /\ vec_norm v = sqrt (squared tr d t).
Proof.
  intros E H.
  assert (X : lsum (map (fun x => x * x) v) = squared tr d t).
  { rewrite lsum_rsum, map_length, H. unfold squared. apply rsum_ext. intros i Hi.
    rewrite (nth_indep _ 0 (0 * 0)) by (rewrite map_length; lia). rewrite (map_nth (fun x => x * x)).
    unfold comp. rewrite E. ring. }
  split; [exact X|]. unfold vec_norm. now rewrite X.
Qed.
Lemma squared_nonneg tr d t : 0 <= squared tr d t.
Proof. apply rsum_nonneg. intros. apply pow2_ge_0. Qed.

Section Tr.
Context (tr : trajectory) (d : nat) (OK : sampled_ok tr d).
Let T := t_max tr.
Lemma evaluates t : t <= T -> exists v, traj_evaluate tr t d = Some v /\ vec_squared_norm v = squared tr d t /\
  vec_norm v = sqrt (squared tr d t).
Proof.
  intros Ht. destruct OK as (W & _ & NE & _). destruct (traj_evaluate_some tr t d W NE Ht) as (v & E & L & _).
  exists v. split; [exact E|]. now apply squared_norm.
Qed.
Lemma T_pos : 0 < T.
Proof.
  destruct OK as ((_ & M) & P & NE & _). unfold T. rewrite M. unfold positive_times in P.
  destruct (t_segs tr) as [|s l]; [congruence|]. inversion P; subst. cbn.
  assert (0 <= lsum (map s_time l)). { apply lsum_nonneg. clear - H2. induction H2; cbn; constructor; auto; lra. }
  lra.
Qed.

Context (M L : R) (B : bounded tr d M L).
Lemma nonneg_bounds : (0 < t_D tr)%nat -> 0 <= M /\ 0 <= L.
Proof.
  intros HD. destruct OK as ((W & _) & P & NE & _). unfold positive_times in P.
  destruct (t_segs tr) as [|s l] eqn:E; [congruence|]. inversion W as [|? ? [[LP _] [SD _]] _]; subst. inversion P; subst.
  destruct (s_polys s) as [|p ps] eqn:EP; [cbn in LP; lia|].
  destruct (B s p 0) as [B1 B2]; [rewrite E; now left|rewrite EP; now left|lra|].
  pose proof (Rabs_pos (Derive_n (pval p) d 0)). pose proof (Rabs_pos (Derive_n (pval p) (S d) 0)). lra.
Qed.
Lemma seg_bound s i : In s (t_segs tr) -> (i < t_D tr)%nat -> In (seg_poly s i) (s_polys s).
Proof.
  intros Hs Hi. destruct OK as ((W & _) & _). rewrite Forall_forall in W. destruct (W s Hs) as ((LP & _) & SD & _).
  apply nth_In. lia.
Qed.
Lemma comp_lip i a b : (i < t_D tr)%nat -> 0 <= a -> a <= b -> b <= T -> Rabs (comp tr d i b - comp tr d i a) <= L * (b - a).
Proof.
  intros Hi Ha Hab Hb. destruct OK as (W & P & NE & J). rewrite !comp_glued by (auto; fold T; lra).
  apply (glued_lipschitz _ i d 0 L); auto; try lra.
  - now apply joined_joined_segs.
  - intros s Hs x Hx. rewrite poly_evaluate_Derive_n. apply (B s); auto using seg_bound. lra.
  - destruct W as [_ W]. rewrite <- W. fold T. lra.
Qed.
Lemma comp_bound i t : (i < t_D tr)%nat -> 0 <= t <= T -> Rabs (comp tr d i t) <= M.
Proof.
  intros Hi Ht. destruct OK as (W & P & NE & J). rewrite comp_glued by (auto; fold T; lra).
  assert (HS : forall s, In s (t_segs tr) -> forall x, 0 <= x <= s_time s -> Rabs (poly_evaluate (seg_poly s i) x d) <= M).
  { intros s Hs x Hx. rewrite poly_evaluate_Derive_n. apply (B s); auto using seg_bound. }
  assert (HT : t <= lsum (map s_time (t_segs tr))) by (destruct W as [_ W]; rewrite <- W; fold T; lra).
  unfold positive_times in P. clear - HS HT P NE Ht. destruct Ht as [Ht _]. revert t Ht HT.
  induction (t_segs tr) as [|s l IH]; intros t Ht HT; [congruence|]. inversion P as [|? ? P1 P2]; subst.
  destruct l as [|s' l].
  - cbn in *. apply HS; [now left|lra].
  - change (Rabs (if Rltb t (s_time s) then poly_evaluate (seg_poly s i) t d else glued (s' :: l) d i (t - s_time s)) <= M).
    rcase; [apply HS; [now left|lra]|]. apply IH; auto; try discriminate; [|lra|].
    + intros q Hq. apply HS. now right.
    + change (lsum (map s_time (s :: s' :: l))) with (s_time s + lsum (map s_time (s' :: l))) in HT. lra.
Qed.
Definition K : R := 2 * INR (t_D tr) * M * L.
Definition S2 : R := INR (t_D tr) * M ^ 2.
Lemma rsum_const n c : rsum n (fun _ => c) = INR n * c.
Proof. induction n; [cbn; ring|]. rewrite S_INR. cbn [rsum]. rewrite IHn. ring. Qed.
Lemma rsum_abs n f : Rabs (rsum n f) <= rsum n (fun i => Rabs (f i)).
Proof.
  induction n; [cbn; rewrite Rabs_R0; lra|]. cbn [rsum]. eapply Rle_trans; [apply Rabs_triang|]. lra.
Qed.
Lemma squared_lip a b : 0 <= a -> a <= b -> b <= T -> Rabs (squared tr d b - squared tr d a) <= K * (b - a).
Proof.
  intros Ha Hab Hb. unfold squared. rewrite <- rsum_minus. eapply Rle_trans; [apply rsum_abs|].
  replace (K * (b - a)) with (rsum (t_D tr) (fun _ => 2 * M * (L * (b - a)))) by (rewrite rsum_const; unfold K; ring).
  apply rsum_le. intros i Hi. pose proof (comp_lip i a b Hi Ha Hab Hb) as C.
  pose proof (comp_bound i a Hi ltac:(lra)) as C1. pose proof (comp_bound i b Hi ltac:(lra)) as C2.
  replace (comp tr d i b ^ 2 - comp tr d i a ^ 2) with ((comp tr d i b + comp tr d i a) * (comp tr d i b - comp tr d i a)) by ring.
  rewrite Rabs_mult. apply Rmult_le_compat; auto using Rabs_pos.
  eapply Rle_trans; [apply Rabs_triang|]. lra.
Qed.
Lemma squared_bound t : 0 <= t <= T -> squared tr d t <= S2.
Proof.
  intros Ht. unfold squared, S2. rewrite <- rsum_const. apply rsum_le. intros i Hi.
  rewrite <- pow2_abs. apply pow_incr. split; [apply Rabs_pos|]. now apply comp_bound.
Qed.
Definition clamped (u : R) : R := squared tr d (Rmax 0 (Rmin u T)).
Lemma clamped_in u : 0 <= u <= T -> clamped u = squared tr d u.
Proof. intros H. unfold clamped. rewrite Rmin_left, Rmax_right by lra. reflexivity. Qed.
Lemma clamped_lip a b : (0 < t_D tr)%nat -> a <= b -> Rabs (clamped b - clamped a) <= K * (b - a).
Proof.
  intros HD H. destruct (nonneg_bounds HD) as [M0 L0]. pose proof T_pos as TP.
  assert (K0 : 0 <= K).
  { unfold K. pose proof (pos_INR (t_D tr)). apply Rmult_le_pos; [apply Rmult_le_pos; [|auto]|auto]. lra. }
  unfold clamped. eapply Rle_trans; [apply squared_lip|apply Rmult_le_compat_l; [exact K0|]];
  unfold Rmax, Rmin; repeat destruct Rle_dec; lra.
Qed.
Lemma clamped_continuous u : (0 < t_D tr)%nat -> continuous clamped u.
Proof.
  intros HD. destruct (nonneg_bounds HD) as [M0 L0].
  assert (K0 : 0 <= K).
  { unfold K. pose proof (pos_INR (t_D tr)). apply Rmult_le_pos; [apply Rmult_le_pos; [|auto]|auto]. lra. }
  apply continuity_pt_filterlim. intros e He. exists (e / (K + 1)). split; [apply Rdiv_lt_0_compat; lra|].
  intros x (_ & Hx). unfold dist, R_met, R_dist in *. cbn in *. unfold R_dist in *.
  assert (Q : Rabs (clamped x - clamped u) <= K * Rabs (x - u)).
  { destruct (Rle_dec u x).
    - rewrite (Rabs_pos_eq (x - u)) by lra. apply clamped_lip; auto.
    - rewrite Rabs_minus_sym, (Rabs_minus_sym x), (Rabs_pos_eq (u - x)) by lra. apply clamped_lip; auto. lra. }
  eapply Rle_lt_trans; [exact Q|]. pose proof (Rabs_pos (x - u)).
  apply (Rle_lt_trans _ ((K + 1) * Rabs (x - u))); [nra|].
  apply (Rmult_lt_compat_l (K + 1)) in Hx; [|lra]. replace ((K + 1) * (e / (K + 1))) with e in Hx by (field; lra). lra.
Qed.
Lemma clamped_RInt a b : (0 < t_D tr)%nat -> ex_RInt clamped a b.
Proof. intros HD. apply (ex_RInt_continuous (V := R_CompleteNormedModule)). intros z _. now apply clamped_continuous. Qed.
(** One sample against the integral over the interval it stands for. *)
Lemma one_sample a b : (0 < t_D tr)%nat -> 0 <= a -> a <= b -> b <= T ->
  Rabs (squared tr d a * (b - a) - RInt clamped a b) <= K * (b - a) * (b - a).
Proof.
  intros HD Ha Hab Hb. rewrite <- (clamped_in a) by lra.
  replace (clamped a * (b - a)) with (RInt (fun _ => clamped a) a b)
    by (rewrite RInt_const; unfold scal; cbn; unfold mult; cbn; ring).
  assert (X : RInt (fun _ => clamped a) a b - RInt clamped a b = RInt (fun t => minus (clamped a) (clamped t)) a b).
  { symmetry. apply (RInt_minus (V := R_CompleteNormedModule) (fun _ => clamped a) clamped); [apply ex_RInt_const|now apply clamped_RInt]. }
  rewrite X.
  replace (K * (b - a) * (b - a)) with ((b - a) * (K * (b - a))) by ring.
  apply (norm_RInt_le_const (fun t => minus (clamped a) (clamped t)) a b); [exact Hab| |].
  - intros t Ht. change (Rabs (clamped a - clamped t) <= K * (b - a)). rewrite Rabs_minus_sym.
    eapply Rle_trans; [apply clamped_lip; auto; lra|]. destruct (nonneg_bounds HD) as [M0 L0].
    assert (K0 : 0 <= K).
    { unfold K. pose proof (pos_INR (t_D tr)). apply Rmult_le_pos; [apply Rmult_le_pos; [|auto]|auto]. lra. }
    apply Rmult_le_compat_l; lra.
  - apply (RInt_correct (V := R_CompleteNormedModule)). apply (ex_RInt_minus (V := R_NormedModule) (fun _ => clamped a) clamped); [apply ex_RInt_const|now apply clamped_RInt].
Qed.

(** The cost loop. *)
Lemma cost_loop_spec dt : (0 < t_D tr)%nat -> 0 < dt -> forall f ts acc, 0 <= ts -> T <= ts + INR f * dt ->
  exists c, cost_loop (S f) tr d dt ts acc = Some c /\
    (T <= ts -> c = acc) /\ (ts < T -> Rabs (c - acc - RInt clamped ts T) <= dt * (K * (T - ts) + S2)).
Proof.
  intros HD Hdt. destruct (nonneg_bounds HD) as [M0 L0].
  assert (K0 : 0 <= K).
  { unfold K. pose proof (pos_INR (t_D tr)). apply Rmult_le_pos; [apply Rmult_le_pos; [|auto]|auto]. lra. }
  induction f as [|f IH]; intros ts acc H0 HF.
  - exists acc. cbn in HF. cbn [cost_loop]. fold T. rcase; [lra|]. split; [auto|]. split; [auto|lra].
  - remember (S f) as g. cbn [cost_loop]. subst g. fold T. rcase; [|exists acc; split; [auto|split; [auto|lra]]].
    destruct (evaluates ts ltac:(lra)) as (v & -> & -> & _).
    destruct (IH (ts + dt) (acc + squared tr d ts * dt)) as (c & E & C1 & C2); [lra|rewrite S_INR in HF; lra|].
    exists c. split; [exact E|]. split; [lra|]. intros _.
    pose proof (squared_nonneg tr d ts) as Q0. pose proof (squared_bound ts ltac:(lra)) as Q1.
    destruct (Rle_dec T (ts + dt)) as [HE|HE].
    + rewrite (C1 HE). pose proof (one_sample ts T HD H0 ltac:(lra) ltac:(lra)) as P.
      replace (acc + squared tr d ts * dt - acc - RInt clamped ts T) with
        ((squared tr d ts * (T - ts) - RInt clamped ts T) + squared tr d ts * (dt - (T - ts))) by ring.
      eapply Rle_trans; [apply Rabs_triang|]. rewrite (Rabs_pos_eq (_ * (dt - _))) by (apply Rmult_le_pos; lra).
      assert (K * (T - ts) * (T - ts) <= K * (T - ts) * dt) by (apply Rmult_le_compat_l; [apply Rmult_le_pos; lra|lra]).
      assert (squared tr d ts * (dt - (T - ts)) <= S2 * dt) by (apply Rmult_le_compat; lra). lra.
    + pose proof (one_sample ts (ts + dt) HD H0 ltac:(lra) ltac:(lra)) as P. specialize (C2 ltac:(lra)).
      assert (CH : RInt clamped ts T = RInt clamped ts (ts + dt) + RInt clamped (ts + dt) T).
      { symmetry. apply (RInt_Chasles clamped); now apply clamped_RInt. }
      rewrite CH. replace (ts + dt - ts) with dt in P by ring.
      replace (c - acc - (RInt clamped ts (ts + dt) + RInt clamped (ts + dt) T)) with
        ((squared tr d ts * dt - RInt clamped ts (ts + dt)) + (c - (acc + squared tr d ts * dt) - RInt clamped (ts + dt) T)) by ring.
      eapply Rle_trans; [apply Rabs_triang|]. lra.
Qed.
(** The maximum loop. *)
Lemma norm_lip n (x y : nat -> R) : sqrt (rsum n (fun i => y i ^ 2)) <= sqrt (rsum n (fun i => x i ^ 2)) + rsum n (fun i => Rabs (y i - x i)).
Proof.
  induction n as [|n IH]; [cbn; rewrite Rplus_0_r; lra|]. cbn [rsum].
  set (A := rsum n (fun i => x i ^ 2)) in *. set (C := rsum n (fun i => y i ^ 2)) in *.
  set (e := rsum n (fun i => Rabs (y i - x i))) in *.
  assert (A0 : 0 <= A) by (apply rsum_nonneg; intros; apply pow2_ge_0).
  assert (C0 : 0 <= C) by (apply rsum_nonneg; intros; apply pow2_ge_0).
  assert (e0 : 0 <= e) by (apply rsum_nonneg; intros; apply Rabs_pos).
  pose proof (pow2_ge_0 (x n)) as X0. pose proof (pow2_ge_0 (y n)) as Y0.
  set (s := sqrt (A + x n ^ 2)).
  assert (s0 : 0 <= s) by apply sqrt_pos. assert (ss : s * s = A + x n ^ 2) by (apply sqrt_sqrt; lra).
  pose proof (sqrt_pos A) as sA0. pose proof (sqrt_sqrt A A0) as sA. pose proof (sqrt_pos C) as sC0. pose proof (sqrt_sqrt C C0) as sC.
  assert (s1 : sqrt A <= s) by (apply sqrt_le_1; lra).
  assert (s2 : Rabs (x n) <= s).
  { rewrite <- sqrt_Rsqr_abs. apply sqrt_le_1; unfold Rsqr; nra. }
  set (z := Rabs (y n - x n)). assert (z0 : 0 <= z) by apply Rabs_pos.
  assert (yz : Rabs (y n) <= Rabs (x n) + z).
  { replace (y n) with (x n + (y n - x n)) by ring. apply Rabs_triang. }
  pose proof (Rabs_pos (x n)) as x0. pose proof (Rabs_pos (y n)) as y0.
  assert (y2 : y n ^ 2 = Rabs (y n) * Rabs (y n)) by (rewrite <- (pow2_abs (y n)); ring).
  assert (x2 : x n ^ 2 = Rabs (x n) * Rabs (x n)) by (rewrite <- (pow2_abs (x n)); ring).
  rewrite <- (sqrt_Rsqr (s + (e + z))) by lra. apply sqrt_le_1; [lra|apply Rle_0_sqr|]. unfold Rsqr.
  assert (C <= (sqrt A + e) * (sqrt A + e)) by (rewrite <- sC; apply Rmult_le_compat; lra).
  assert (y n ^ 2 <= (Rabs (x n) + z) * (Rabs (x n) + z)) by (rewrite y2; apply Rmult_le_compat; lra).
  assert (sqrt A * e <= s * e) by (apply Rmult_le_compat_r; lra).
  assert (Rabs (x n) * z <= s * z) by (apply Rmult_le_compat_r; lra).
  assert (0 <= e * z) by (apply Rmult_le_pos; lra). nra.
Qed.
Lemma magnitude_lip a b : 0 <= a -> a <= b -> b <= T -> sqrt (squared tr d b) <= sqrt (squared tr d a) + INR (t_D tr) * L * (b - a).
Proof.
  intros Ha Hab Hb. unfold squared. eapply Rle_trans; [apply norm_lip|]. apply Rplus_le_compat_l.
  replace (INR (t_D tr) * L * (b - a)) with (rsum (t_D tr) (fun _ => L * (b - a))) by (rewrite rsum_const; ring).
  apply rsum_le. intros i Hi. now apply comp_lip.
Qed.
Lemma maximum_loop_spec dt : (0 < t_D tr)%nat -> 0 < dt -> forall f ts m, 0 <= ts -> T <= ts + INR f * dt ->
  exists r, maximum_loop (S f) tr d dt ts m = Some r /\ m <= r /\
    (r = m \/ exists t, ts <= t < T /\ r = sqrt (squared tr d t)) /\
    forall t, ts <= t <= T -> ts < T -> sqrt (squared tr d t) <= r + INR (t_D tr) * L * dt.
Proof.
  intros HD Hdt. destruct (nonneg_bounds HD) as [M0 L0].
  assert (C0 : 0 <= INR (t_D tr) * L) by (apply Rmult_le_pos; [apply pos_INR|lra]).
  induction f as [|f IH]; intros ts m H0 HF.
  - exists m. cbn in HF. cbn [maximum_loop]. fold T. rcase; [lra|]. split; [auto|]. split; [lra|]. split; [auto|intros; lra].
  - remember (S f) as g. cbn [maximum_loop]. subst g. fold T.
    rcase; [|exists m; split; [auto|]; split; [lra|]; split; [auto|intros; lra]].
    destruct (evaluates ts ltac:(lra)) as (v & -> & _ & ->). cbv zeta.
    set (m' := if Rltb m (sqrt (squared tr d ts)) then sqrt (squared tr d ts) else m).
    assert (M1 : m <= m' /\ sqrt (squared tr d ts) <= m' /\ (m' = m \/ m' = sqrt (squared tr d ts))).
    { unfold m'. rcase; [split; [lra|]; split; [lra|auto]|split; [lra|]; split; [lra|auto]]. }
    clearbody m'. destruct M1 as (M1 & M2 & M3).
    destruct (IH (ts + dt) m') as (r & E & R1 & R2 & R3); [lra|rewrite S_INR in HF; lra|].
    exists r. split; [exact E|]. split; [lra|]. split.
    + destruct R2 as [->|(t & Ht & ->)]; [|right; exists t; split; [lra|auto]].
      destruct M3 as [-> | ->]; [auto|]. right. exists ts. split; [lra|auto].
    + intros t Ht _. destruct (Rle_dec t (ts + dt)) as [HE|HE].
      * eapply Rle_trans; [apply (magnitude_lip ts t); lra|].
        assert (INR (t_D tr) * L * (t - ts) <= INR (t_D tr) * L * dt) by (apply Rmult_le_compat_l; lra). lra.
      * apply R3; lra.
Qed.
End Tr.

(** ** The integral of the glued pieces is the cost *)
Lemma is_RInt_rsum n (f : nat -> R -> R) (v : nat -> R) a b : (forall i, (i < n)%nat -> is_RInt (f i) a b (v i)) ->
  is_RInt (fun t => rsum n (fun i => f i t)) a b (rsum n v).
Proof.
  induction n; intros H; cbn [rsum].
  - pose proof (is_RInt_const (V := R_NormedModule) a b 0) as P. unfold scal in P. cbn in P. unfold mult in P. cbn in P.
    now rewrite Rmult_0_r in P.
  - apply (is_RInt_plus (V := R_NormedModule) (fun t => rsum n (fun i => f i t)) (f n)); [apply IHn; auto|apply H; lia].
Qed.
Lemma poly_sq_RInt (p : list R) d T : is_RInt (fun t => poly_evaluate p t d ^ 2) 0 T (RInt (fun t => Derive_n (pval p) d t ^ 2) 0 T).
Proof.
  apply (is_RInt_ext (fun t => Derive_n (pval p) d t ^ 2)).
  { intros t _. now rewrite poly_evaluate_Derive_n. }
  apply (RInt_correct (V := R_CompleteNormedModule)). apply (ex_RInt_continuous (V := R_CompleteNormedModule)).
  intros z _. apply (continuous_ext (fun t => poly_evaluate p t d * poly_evaluate p t d)).
  { intros t. rewrite poly_evaluate_Derive_n. generalize (Derive_n (pval p) d t). intros y. change (y * y = y * (y * 1)). ring. }
  apply (continuous_mult (K := R_AbsRing)); apply continuous_poly_evaluate.
Qed.
Lemma glued_energy D d segs : Forall (fun s => seg_wf s /\ s_D s = D) segs -> Forall (fun s => 0 < s_time s) segs -> segs <> [] ->
  is_RInt (fun t => rsum D (fun i => glued segs d i t ^ 2)) 0 (lsum (map s_time segs)) (energy d segs).
Proof.
  intros W P NE.
  assert (ONE : forall s, seg_wf s /\ s_D s = D -> is_RInt (fun t => rsum D (fun i => poly_evaluate (seg_poly s i) t d ^ 2)) 0 (s_time s)
    (lsum (map (fun p => RInt (fun t => (Derive_n (pval p) d t) ^ 2) 0 (s_time s)) (s_polys s)))).
  { intros s [[LP _] SD]. rewrite (lsum_map_rsum D _ _ [] (eq_trans LP SD)). apply is_RInt_rsum. intros i Hi.
    apply poly_sq_RInt. }
  induction segs as [|s l IH]; [congruence|]. inversion W as [|? ? W1 W2]; inversion P as [|? ? P1 P2]; subst.
  destruct l as [|s' l].
  - unfold energy. cbn [map lsum]. rewrite !Rplus_0_r. cbn [glued]. now apply ONE.
  - assert (EE : energy d (s :: s' :: l) = plus (lsum (map (fun p => RInt (fun t => (Derive_n (pval p) d t) ^ 2) 0 (s_time s)) (s_polys s)))
      (energy d (s' :: l))) by reflexivity.
    assert (LE : lsum (map s_time (s :: s' :: l)) = s_time s + lsum (map s_time (s' :: l))) by reflexivity.
    assert (U : forall i t, glued (s :: s' :: l) d i t = if Rltb t (s_time s) then poly_evaluate (seg_poly s i) t d
      else glued (s' :: l) d i (t - s_time s)) by reflexivity.
    assert (T0 : 0 <= lsum (map s_time (s' :: l))). { apply lsum_nonneg. clear - P2. induction P2; cbn; constructor; auto; lra. }
    specialize (IH W2 P2 ltac:(discriminate)). rewrite EE, LE.
    apply (is_RInt_Chasles (V := R_NormedModule) _ 0 (s_time s)).
    + apply (is_RInt_ext (fun t => rsum D (fun i => poly_evaluate (seg_poly s i) t d ^ 2))); [|now apply ONE].
      intros t. rewrite Rmin_left, Rmax_right by lra. intros Ht. apply rsum_ext. intros i _. rewrite U. rcase; [auto|lra].
    + pose proof (is_RInt_comp_lin (V := R_NormedModule) (fun t => rsum D (fun i => glued (s' :: l) d i t ^ 2)) 1 (- s_time s)
        (s_time s) (s_time s + lsum (map s_time (s' :: l))) (energy d (s' :: l))) as Q.
      replace (1 * s_time s + - s_time s) with 0 in Q by ring.
      replace (1 * (s_time s + lsum (map s_time (s' :: l))) + - s_time s) with (lsum (map s_time (s' :: l))) in Q by ring.
      specialize (Q IH). eapply is_RInt_ext; [|exact Q]. intros t. rewrite Rmin_left, Rmax_right by lra. intros Ht.
      cbn beta. unfold scal. cbn [ModuleSpace.scal R_ModuleSpace]. change (1 * rsum D (fun i => glued (s' :: l) d i (1 * t + - s_time s) ^ 2) =
        rsum D (fun i => glued (s :: s' :: l) d i t ^ 2)). rewrite Rmult_1_l. apply rsum_ext. intros i _. rewrite U.
      rcase; [lra|]. now replace (1 * t + - s_time s) with (t - s_time s) by ring.
Qed.

(** ** C94 *)

(** C94: computeCostNumeric is the cost integral up to a multiple of the
    sampling step. *)
Theorem C94_cost :
  forall (tr : trajectory) (d fuel : nat) (dt M L : R), sampled_ok tr d -> (0 < t_D tr)%nat -> bounded tr d M L -> 0 < dt ->
  t_max tr <= INR fuel * dt ->
  exists c, cost_numeric (S fuel) tr d dt = Some c /\
    Rabs (c - energy d (t_segs tr)) <= dt * (INR (t_D tr) * (2 * M * L * t_max tr + M ^ 2)).
Proof.
  intros tr d fuel dt M L OK HD B Hdt HF. pose proof (T_pos tr d OK) as TP.
  destruct (cost_loop_spec tr d OK M L B dt HD Hdt fuel 0 0) as (c & E & _ & C); [lra|lra|].
  exists c. split; [exact E|]. specialize (C TP).
  assert (X : RInt (clamped tr d) 0 (t_max tr) = energy d (t_segs tr)).
  { destruct OK as (W & P & NE & J). apply is_RInt_unique.
    assert (G : is_RInt (fun t => rsum (t_D tr) (fun i => glued (t_segs tr) d i t ^ 2)) 0 (t_max tr) (energy d (t_segs tr))).
    { rewrite (proj2 W). apply glued_energy; auto. destruct W as [W _]. eapply Forall_impl; [|exact W]. cbn. tauto. }
    eapply is_RInt_ext; [|exact G]. intros t. rewrite Rmin_left, Rmax_right by lra. intros Ht.
    rewrite clamped_in by lra. unfold squared. apply rsum_ext. intros i Hi. rewrite comp_glued; auto. lra. }
  rewrite X in C. replace (dt * (INR (t_D tr) * (2 * M * L * t_max tr + M ^ 2))) with
    (dt * (K tr M L * (t_max tr - 0) + S2 tr M)) by (unfold K, S2; ring).
  now replace (c - energy d (t_segs tr)) with (c - 0 - energy d (t_segs tr)) by ring.
Qed.
(** C94: getMaximumMagnitude never exceeds the maximum and misses it by at most
    a multiple of the sampling step. *)
Theorem C94_maximum :
  forall (tr : trajectory) (d fuel : nat) (dt M L : R), sampled_ok tr d -> (0 < t_D tr)%nat -> bounded tr d M L -> 0 < dt ->
  t_max tr <= INR fuel * dt ->
  exists r, maximum_magnitude (S fuel) tr d dt = Some r /\
    (exists t, 0 <= t < t_max tr /\ r = sqrt (squared tr d t)) /\
    forall t, 0 <= t <= t_max tr -> sqrt (squared tr d t) <= r + INR (t_D tr) * L * dt.
Proof.
  intros tr d fuel dt M L OK HD B Hdt HF. pose proof (T_pos tr d OK) as TP.
  destruct fuel as [|f]; [cbn in HF; lra|].
  unfold maximum_magnitude. remember (S f) as g. cbn [maximum_loop]. rcase; [|lra]. subst g.
  destruct (evaluates tr d OK 0 ltac:(lra)) as (v & -> & _ & ->). cbv zeta.
  pose proof (sqrt_pos (squared tr d 0)) as S0. rcase; [|lra].
  destruct (maximum_loop_spec tr d OK M L B dt HD Hdt f (0 + dt) (sqrt (squared tr d 0))) as (r & E & R1 & R2 & R3);
    [lra|rewrite S_INR in HF; lra|].
  exists r. split; [exact E|]. split.
  - destruct R2 as [->|(t & Ht & ->)]; [exists 0|exists t]; split; auto; lra.
  - intros t Ht. destruct (Rle_dec t dt) as [Hle|Hle]; [|apply R3; lra].
    destruct (nonneg_bounds tr d OK M L B HD) as [M0 L0].
    eapply Rle_trans; [apply (magnitude_lip tr d OK M L B 0 t); lra|].
    assert (INR (t_D tr) * L * (t - 0) <= INR (t_D tr) * L * dt).
    { apply Rmult_le_compat_l; [apply Rmult_le_pos; [apply pos_INR|lra]|lra]. }
    lra.
Qed.
(** C94 (negative): the result is not an upper bound for any sampling step: on a
    steadily accelerating trajectory it is always below the final speed. *)
Definition speeding (T : R) : trajectory := mkTraj 1 3 T [mkSeg T 3 1 [[0; 0; 1]]].
Lemma speeding_ok T d : 0 < T -> sampled_ok (speeding T) d.
Proof.
  intros H. split; [|split; [|split]].
  - split; [|cbn; lra]. repeat constructor.
  - repeat constructor. exact H.
  - discriminate.
  - intros k s s' H1 H2. destruct k as [|[|k]]; discriminate.
Qed.
Lemma speeding_poly x : Derive_n (pval [0; 0; 1]) 1 x = 2 * x /\ Derive_n (pval [0; 0; 1]) 2 x = 2.
Proof. rewrite !Derive_n_pval. split; cbn; lra. Qed.
Lemma speeding_bounded T : 0 < T -> bounded (speeding T) 1 (2 * T) 2.
Proof.
  intros H s p x [<-|[]] [<-|[]] Hx. cbn in Hx. destruct (speeding_poly x) as [E1 E2]. rewrite E1, E2.
  rewrite !Rabs_pos_eq by lra. lra.
Qed.
Lemma speeding_speed T t : 0 < T -> 0 <= t <= T -> sqrt (squared (speeding T) 1 t) = 2 * t.
Proof.
  intros HT Ht. destruct (speeding_ok T 1 HT) as (W & _ & NE & _).
  unfold squared. cbn [t_D speeding rsum]. rewrite comp_glued; [|exact W|exact NE|cbn; lia|cbn; lra].
  cbn [t_segs speeding glued]. change (seg_poly (mkSeg T 3 1 [[0; 0; 1]]) 0) with [0; 0; 1].
  rewrite poly_evaluate_Derive_n. rewrite (proj1 (speeding_poly t)). rewrite Rplus_0_l.
  replace ((2 * t) ^ 2) with (Rsqr (2 * t)) by (unfold Rsqr; ring). apply sqrt_Rsqr. lra.
Qed.
Theorem C94_upper_bound_refuted :
  forall (T dt : R) (fuel : nat) (r : R), 0 < T -> 0 < dt -> T <= INR fuel * dt ->
  maximum_magnitude (S fuel) (speeding T) 1 dt = Some r ->
  sampled_ok (speeding T) 1 /\ r < sqrt (squared (speeding T) 1 T).
Proof.
  intros T dt fuel r HT Hdt HF E. split; [now apply speeding_ok|].
  destruct (C94_maximum (speeding T) 1 fuel dt (2 * T) 2 (speeding_ok T 1 HT) ltac:(cbn; lia) (speeding_bounded T HT) Hdt HF)
    as (r' & E' & (t & Ht & ->) & _).
  rewrite E in E'. injection E' as ->. cbn [t_max speeding] in Ht. rewrite !speeding_speed by lra. lra.
Qed.
(** C94: without segments the results are 0 and -1e9. *)
Theorem C94_empty :
  forall (D N d fuel : nat) (dt : R), cost_numeric (S fuel) (mkTraj D N 0 []) d dt = Some 0 /\
  maximum_magnitude (S fuel) (mkTraj D N 0 []) d dt = Some (- 10 ^ 9).
Proof.
  intros. unfold cost_numeric, maximum_magnitude. cbn [cost_loop maximum_loop t_max]. rcase; [lra|]. split; reflexivity.
Qed.
(** C94: createRandomDouble stays in its range and reaches both ends. *)
Theorem C94_random :
  forall (u mn mx : R), mn <= mx -> 0 <= u <= 1 ->
  mn <= create_random_double u mn mx <= mx /\ create_random_double 0 mn mx = mn /\ create_random_double 1 mn mx = mx.
Proof. intros u mn mx H Hu. unfold create_random_double. split; [nra|]. split; ring. Qed.
(** C94: checkMatrices accepts exactly the matrices that agree within the
    tolerance in every entry. *)
Theorem C94_matrices :
  forall (m1 m2 : list R) (tol : R), length m1 = length m2 -> m1 <> [] ->
  exists b, check_matrices m1 m2 tol = Some b /\
    (b = true <-> forall i, (i < length m1)%nat -> Rabs (nth i m1 0 - nth i m2 0) < tol).
Proof.
  intros m1 m2 tol HL HN. unfold check_matrices.
  set (f := fun p : R * R => Rabs (fst p - snd p)).
  assert (EN : forall i, nth i (map f (combine m1 m2)) (f (0, 0)) = Rabs (nth i m1 0 - nth i m2 0)).
  { intros i. rewrite map_nth, combine_nth by auto. reflexivity. }
  assert (EL : length (map f (combine m1 m2)) = length m1) by (rewrite map_length, combine_length; lia).
  destruct (map f (combine m1 m2)) as [|x l]; [destruct m1; [congruence|discriminate]|].
  assert (F : forall l a, fold_left Rmax l a < tol <-> a < tol /\ Forall (fun y => y < tol) l).
  { clear. induction l as [|y l IH]; intros a; cbn [fold_left]; [split; [auto|tauto]|]. rewrite IH, Forall_cons_iff.
    split; [intros [H1 H2]; split; [eapply Rle_lt_trans; [apply Rmax_l|eauto]|split; [eapply Rle_lt_trans; [apply Rmax_r|eauto]|auto]]|].
    intros (H1 & H2 & H3). split; [apply Rmax_lub_lt; auto|auto]. }
  eexists. split; [reflexivity|]. rewrite <- EL. split.
  - intros H i Hi. rcase_in H; [|discriminate]. apply F in Hlt. destruct Hlt as [H1 H2]. rewrite <- EN.
    assert (HA : Forall (fun y => y < tol) (x :: l)) by (constructor; auto). rewrite Forall_forall in HA. apply HA, nth_In. exact Hi.
  - intros H. rcase; [reflexivity|]. exfalso. apply (Rlt_irrefl tol). eapply Rle_lt_trans; [eassumption|].
    apply F. assert (HA : Forall (fun y => y < tol) (x :: l)).
    { apply Forall_forall. intros y Hy. apply (In_nth _ _ (f (0, 0))) in Hy. destruct Hy as (i & Hi & <-). rewrite EN. auto. }
    inversion HA; auto.
Qed.
Print Assumptions C94_cost.
Print Assumptions C94_maximum.
Print Assumptions C94_upper_bound_refuted.
Print Assumptions C94_empty.
Print Assumptions C94_random.
Print Assumptions C94_matrices.
(** Two seconds of steady acceleration, the default step of 0.01 s: the final
    speed 4 is missed by at most 0.02; the cost integral of the velocity is 32/3. *)
Example C94_example : sampled_ok (speeding 2) 1 /\ bounded (speeding 2) 1 4 2 /\ t_max (speeding 2) <= INR 200 * (1 / 100) /\
  (exists r, maximum_magnitude 201 (speeding 2) 1 (1 / 100) = Some r /\ 398 / 100 <= r < 4) /\
  energy 1 (t_segs (speeding 2)) = 32 / 3.
Proof.
  assert (H200 : INR 200 = 200) by (rewrite INR_IZR_INZ; reflexivity).
  assert (H2 : 0 < 2) by lra. pose proof (speeding_bounded 2 H2) as B. replace (2 * 2) with 4 in B by ring.
  assert (HF : t_max (speeding 2) <= INR 200 * (1 / 100)) by (rewrite H200; cbn; lra).
  split; [now apply speeding_ok|]. split; [exact B|]. split; [exact HF|]. split.
  - destruct (C94_maximum (speeding 2) 1 200 (1 / 100) 4 2 (speeding_ok 2 1 H2) ltac:(cbn; lia) B ltac:(lra) HF)
      as (r & E & (t & Ht & Er) & U).
    exists r. split; [exact E|]. specialize (U 2 ltac:(cbn; lra)). cbn [t_max speeding] in Ht. rewrite speeding_speed in U, Er by lra.
    cbn [t_D speeding] in U. change (INR 1) with 1 in U. lra.
  - unfold energy, speeding. cbn [t_segs map lsum s_polys s_time]. rewrite !Rplus_0_r. apply is_RInt_unique.
    apply (is_RInt_ext (fun t => 4 * t ^ 2)). { intros t _. rewrite (proj1 (speeding_poly t)). change (4 * t ^ 2 = (2 * t) * ((2 * t) * 1)). ring. }
    replace (32 / 3) with (minus (4 / 3 * 2 ^ 3) (4 / 3 * 0 ^ 3)) by (unfold minus, plus, opp; cbn; field).
    apply (is_RInt_derive (fun t => 4 / 3 * t ^ 3)).
    + intros x _. auto_derive; [auto|]. field.
    + intros x _. apply (continuous_mult (K := R_AbsRing)); [apply continuous_const|].
      apply (ex_derive_continuous (V := R_NormedModule)). auto_derive. auto.
Qed.
