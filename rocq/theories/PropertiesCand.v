(** Property theorems: candidates for the maximum magnitude found by sampling
    a segment (C84). *)
From Coq Require Import Reals Lra Lia List Bool ZArith Arith Sorted.
From Coquelicot Require Import Coquelicot.
From Verif Require Import Base PolyModel PolySpec PolyProofs VertexModel VertexProofs TrajModel TrajSpec TrajProofs CandSampleModel.
Import List ListNotations.
Set Bullet Behavior "Strict Subproofs".
Local Open Scope R_scope.

(** ** Specification *)

(** Magnitude of the d-th derivative. *)
Definition magnitude (s : segment) (d : nat) (t : R) : R :=
  sqrt (lsum (map (fun p => Derive_n (pval p) d t ^ 2) (s_polys s))).
(** The n + 2 sample times: steps of dt from the start, then the end. *)
Definition sample (start stop dt : R) (n k : nat) : R := if (k <=? n)%nat then start + INR k * dt else stop.
(** The magnitude stops falling or stops growing at b (samples a, b, c). *)
Definition turns (s : segment) (d : nat) (a b c : R) : Prop :=
  (magnitude s d b < magnitude s d a /\ magnitude s d b <= magnitude s d c) \/
  (magnitude s d a <= magnitude s d b /\ magnitude s d c < magnitude s d b).
(** The call returns [r] (for all sufficient loop bounds). *)
Definition returns (s : segment) (d : nat) (start stop dt : R) (prior r : list R) : Prop :=
  exists fuel, forall fuel', (fuel <= fuel')%nat -> candidates_by_sampling fuel' s d start stop dt prior = Some r.

(** ** Proofs *)

Lemma norm_magnitude s d t : seg_wf s -> vec_norm (seg_evaluate s t d) = magnitude s d t.
Proof.
  intros W. rewrite seg_evaluate_deriv by auto. unfold vec_norm, magnitude, seg_deriv. f_equal. f_equal. rewrite map_map.
  apply map_ext. intros p. ring.
Qed.

Section Loop.
Variables (s : segment) (d : nat) (start stop dt : R) (n : nat).
Hypothesis W : seg_wf s.
Hypothesis Hdt : 0 < dt.
Hypothesis Hn : start + INR n * dt <= stop < start + INR (S n) * dt.
Let x k := sample start stop dt n k.
Let M t := magnitude s d t.
Definition kept (k : nat) : bool :=
  negb (Bool.eqb (Rltb (M (x k) - M (x (k - 1))) 0) (Rltb (M (x (S k)) - M (x k)) 0)) &&
  Rltb (magnitude s (S d) (x k)) SLOPE_TOL.

Lemma x_low k : (k <= n)%nat -> x k = start + INR k * dt.
Proof. intros H. unfold x, sample. destruct (Nat.leb_spec k n); [auto|lia]. Qed.
Lemma x_high : x (S n) = stop.
Proof. unfold x, sample. destruct (Nat.leb_spec (S n) n); [lia|auto]. Qed.
Lemma x_le k : (k <= n)%nat -> x k <= stop.
Proof.
  intros H. rewrite x_low by auto. apply le_INR in H. assert (INR k * dt <= INR n * dt) by (apply Rmult_le_compat_r; lra). lra.
Qed.

(** Last round, at the end of the segment. *)
Lemma loop_last fuel c : (1 <= n)%nat -> (2 <= fuel)%nat ->
  sampling_loop fuel s d stop dt stop (seg_evaluate s (x n) d) (M (x n) - M (x (n - 1))) (x n) true c =
  Some (c ++ (if kept n then [x n] else [])).
Proof.
  intros H1 HF. destruct fuel as [|[|fuel]]; [lia|lia|]. cbn [sampling_loop].
  replace (Rleb stop stop) with true by (symmetry; apply Rleb_true; lra).
  rewrite andb_false_r. cbn [negb orb]. replace (Rleb (stop + dt) stop) with false by (symmetry; apply Rleb_false; lra).
  f_equal. unfold kept, signbit. rewrite x_high, !norm_magnitude by auto. fold (M stop) (M (x n)).
  destruct (negb _); cbn [andb]; [|now rewrite app_nil_r]. destruct (Rltb _ SLOPE_TOL); auto. now rewrite app_nil_r.
Qed.
Lemma loop_run m : forall j fuel c, (j + m = S n)%nat -> (2 <= j)%nat -> (m <> 0)%nat -> (m + 2 <= fuel)%nat ->
  sampling_loop fuel s d stop dt (x j) (seg_evaluate s (x (j - 1)) d) (M (x (j - 1)) - M (x (j - 2))) (x (j - 1)) false c =
  Some (c ++ map x (filter kept (seq (j - 1) (S m)))).
Proof.
  induction m as [|m IH]; intros j fuel c Hj H2 Hm HF; [lia|]. destruct fuel as [|fuel]; [lia|]. cbn [sampling_loop].
  replace (Rleb (x j) stop) with true by (symmetry; apply Rleb_true; apply x_le; lia).
  rewrite !norm_magnitude by auto. fold (M (x j)) (M (x (j - 1))).
  assert (K : (if negb (Bool.eqb (signbit (M (x (j - 1)) - M (x (j - 2)))) (signbit (M (x j) - M (x (j - 1)))))
               then if Rltb (magnitude s (S d) (x (j - 1))) SLOPE_TOL then c ++ [x (j - 1)] else c else c) =
              c ++ (if kept (j - 1) then [x (j - 1)] else [])).
  { unfold kept, signbit. replace (j - 1 - 1)%nat with (j - 2)%nat by lia. replace (S (j - 1)) with j by lia.
    destruct (negb _); cbn [andb]; [|now rewrite app_nil_r]. destruct (Rltb _ SLOPE_TOL); auto. now rewrite app_nil_r. }
  rewrite K. clear K. rewrite andb_true_r, orb_false_r.
  assert (SQ : c ++ map x (filter kept (seq (j - 1) (S (S m)))) =
               (c ++ (if kept (j - 1) then [x (j - 1)] else [])) ++ map x (filter kept (seq j (S m)))).
  { cbn [seq]. replace (S (j - 1)) with j by lia. cbn [filter].
    destruct (kept (j - 1)); cbn [map app]; rewrite <- app_assoc; reflexivity. }
  rewrite SQ. clear SQ. destruct (Nat.eq_dec m 0) as [->|Hm0].
  - assert (E : j = n) by lia. subst j.
    replace (Rltb stop (x n + dt)) with true.
    2:{ symmetry. apply Rltb_true. rewrite x_low by auto. rewrite S_INR in Hn. lra. }
    replace (stop - dt + dt) with stop by ring. rewrite loop_last by lia. cbn [seq filter].
    destruct (kept n); reflexivity.
  - replace (Rltb stop (x j + dt)) with false.
    2:{ symmetry. apply Rltb_false. pose proof (x_le (S j) ltac:(lia)) as X. rewrite x_low, S_INR in X by lia. rewrite x_low by lia. lra. }
    replace (x j + dt) with (x (S j)) by (rewrite !x_low, S_INR by lia; ring).
    specialize (IH (S j) fuel (c ++ (if kept (j - 1) then [x (j - 1)] else [])) ltac:(lia) ltac:(lia) Hm0 ltac:(lia)).
    cbn [Nat.sub] in IH. rewrite Nat.sub_0_r in IH. exact IH.
Qed.
(** The candidates between start and end. *)
Definition inner : list nat := if (2 <=? n)%nat then filter kept (seq 1 n) else [].
Definition result : list R :=
  start :: map x inner ++ (if Req_EM_T (last (start :: map x inner) 0) stop then [] else [stop]).
Lemma sampling_result prior fuel : (n + 2 <= fuel)%nat ->
  candidates_by_sampling fuel s d start stop dt prior = Some (prior ++ result).
Proof.
  intros HF. unfold candidates_by_sampling.
  assert (L : sampling_loop fuel s d stop dt (start + dt + dt) (seg_evaluate s (start + dt) d)
    (vec_norm (seg_evaluate s (start + dt) d) - vec_norm (seg_evaluate s start d)) (start + dt) false (prior ++ [start]) =
    Some ((prior ++ [start]) ++ map x inner)).
  { unfold inner. destruct (Nat.leb_spec 2 n) as [H2|H2].
    - pose proof (loop_run (n - 1) 2 fuel (prior ++ [start]) ltac:(lia) ltac:(lia) ltac:(lia) ltac:(lia)) as E.
      cbn [Nat.sub] in E. replace (S (n - 1)) with n in E by lia. rewrite !x_low in E by lia.
      rewrite !norm_magnitude by auto. fold (M (start + dt)) (M start). cbn [INR] in E.
      replace (start + (1 + 1) * dt) with (start + dt + dt) in E by ring.
      replace (start + 1 * dt) with (start + dt) in E by ring. replace (start + 0 * dt) with start in E by ring. exact E.
    - destruct fuel as [|fuel]; [lia|]. cbn [sampling_loop map].
      replace (Rleb (start + dt + dt) stop) with false; [now rewrite app_nil_r|].
      symmetry. apply Rleb_false. assert (N1 : (S n <= 2)%nat) by lia. apply le_INR in N1.
      change (INR 2) with (1 + 1) in N1.
      assert (INR (S n) * dt <= (1 + 1) * dt) by (apply Rmult_le_compat_r; lra). lra. }
  rewrite L. f_equal. unfold result. rewrite <- app_assoc. cbn [app].
  assert (LA : forall l, l <> [] -> last (prior ++ l) 0 = last l 0).
  { clear L. intros l Hl. induction prior as [|a p IH]; auto. cbn [app]. rewrite <- IH. destruct p; [destruct l; [exfalso; now apply Hl|]|]; reflexivity. }
  rewrite LA by discriminate. destruct (Req_EM_T _ _); [now rewrite app_nil_r|]. rewrite <- app_assoc. reflexivity.
Qed.
End Loop.

Lemma steps_exist (start stop dt : R) : 0 < dt -> start <= stop -> exists n, start + INR n * dt <= stop < start + INR (S n) * dt.
Proof.
  intros H L. destruct (nfloor_ex ((stop - start) / dt)) as (n & A & B).
  - apply Rdiv_le_0_compat; lra.
  - exists n. rewrite S_INR. assert (E : (stop - start) / dt * dt = stop - start) by (field; lra). split.
    + apply (Rmult_le_compat_r dt) in A; lra.
    + apply (Rmult_lt_compat_r dt) in B; lra.
Qed.

Lemma sample_step start stop dt n k : 0 < dt -> start + INR n * dt <= stop < start + INR (S n) * dt -> (k < n)%nat ->
  sample start stop dt n k < sample start stop dt n (S k).
Proof.
  intros H Hn Hk. rewrite !x_low by lia. rewrite S_INR. lra.
Qed.
Lemma sample_mono start stop dt n j k : 0 < dt -> start + INR n * dt <= stop < start + INR (S n) * dt -> (j < k)%nat -> (k <= n)%nat ->
  sample start stop dt n j < sample start stop dt n k.
Proof.
  intros H Hn Hk L. rewrite !x_low by lia. apply lt_INR in Hk. assert (INR j * dt < INR k * dt) by (apply Rmult_lt_compat_r; lra). lra.
Qed.
Lemma sorted_map_filter (f : nat -> R) (g : nat -> bool) n : forall a, (forall j k, (a <= j < k)%nat -> (k < a + n)%nat -> f j < f k) ->
  StronglySorted Rlt (map f (filter g (seq a n))).
Proof.
  induction n as [|n IH]; intros a H; cbn; [constructor|].
  assert (T : StronglySorted Rlt (map f (filter g (seq (S a) n)))) by (apply IH; intros; apply H; lia).
  destruct (g a); auto. cbn. constructor; auto. apply Forall_forall. intros y Hy. apply in_map_iff in Hy.
  destruct Hy as (k & <- & Hk). apply filter_In in Hk. destruct Hk as [Hk _]. apply in_seq in Hk. apply H; lia.
Qed.
Lemma kept_spec s d start stop dt n k :
  kept s d start stop dt n k = true <->
  turns s d (sample start stop dt n (k - 1)) (sample start stop dt n k) (sample start stop dt n (S k)) /\
  magnitude s (S d) (sample start stop dt n k) < SLOPE_TOL.
Proof.
  unfold kept, turns. set (a := magnitude s d (sample start stop dt n (k - 1))). set (b := magnitude s d (sample start stop dt n k)).
  set (c := magnitude s d (sample start stop dt n (S k))). set (e := magnitude s (S d) (sample start stop dt n k)).
  rewrite andb_true_iff, Rltb_true. destruct (Rltb (b - a) 0) eqn:E1, (Rltb (c - b) 0) eqn:E2; cbn;
    try apply Rltb_true in E1; try apply Rltb_true in E2; try apply Rltb_false in E1; try apply Rltb_false in E2;
    intuition (try discriminate; try lra).
Qed.
Lemma last_app_single (l : list R) y : last (l ++ [y]) 0 = y.
Proof. induction l as [|a [|b l] IH]; auto. Qed.
Lemma last_max l y : StronglySorted Rlt (y :: l) -> Forall (fun z => z <= last (y :: l) 0) (y :: l).
Proof.
  revert y. induction l as [|a l IH]; intros y H; [constructor; [cbn; lra|constructor]|].
  inversion H as [|? ? H1 H2]; subst. specialize (IH a H1). change (last (y :: a :: l) 0) with (last (a :: l) 0).
  constructor; auto. inversion IH; subst. inversion H2; subst. lra.
Qed.
Lemma sorted_app_one l y : StronglySorted Rlt l -> Forall (fun z => z < y) l -> StronglySorted Rlt (l ++ [y]).
Proof.
  induction 1 as [|a l H IH F]; intros G; cbn; [repeat constructor|]. inversion G; subst. constructor; auto.
  apply Forall_app. split; auto.
Qed.

(** ** C84 *)

(** C84: with a positive interval the call returns; it appends to the vector
    strictly increasing times: the start, the end, and in between exactly the
    sample points at which the magnitude stops growing or falling from one
    sample to the next and the next derivative is shorter than the tolerance.
    (Without at least two whole steps no sample is looked at.) *)
Theorem C84_candidates :
  forall (s : segment) (d : nat) (start stop dt : R) (prior : list R),
  seg_wf s -> 0 < dt -> start <= stop ->
  exists n out, start + INR n * dt <= stop < start + INR (S n) * dt /\
  returns s d start stop dt prior (prior ++ out) /\ StronglySorted Rlt out /\
  forall x, In x out <-> x = start \/ x = stop \/
    (2 <= n)%nat /\ exists k, (1 <= k <= n)%nat /\ x = start + INR k * dt /\
       magnitude s (S d) x < SLOPE_TOL /\
       turns s d (start + INR (k - 1) * dt) x (if (k =? n)%nat then stop else start + INR (S k) * dt).
Proof.
  intros s d start stop dt prior W H L. destruct (steps_exist start stop dt H L) as (n & Hn).
  exists n, (result s d start stop dt n). split; auto.
  split; [exists (n + 2)%nat; intros; now apply sampling_result|].
  assert (IN : forall k, In k (inner s d start stop dt n) <-> (2 <= n)%nat /\ (1 <= k <= n)%nat /\ kept s d start stop dt n k = true).
  { intros k. unfold inner. destruct (Nat.leb_spec 2 n); [|cbn; lia]. rewrite filter_In, in_seq. intuition lia. }
  set (x := sample start stop dt n) in *.
  assert (SI : StronglySorted Rlt (start :: map x (inner s d start stop dt n))).
  { constructor.
    - unfold inner. destruct (2 <=? n)%nat; [|constructor]. apply sorted_map_filter. intros j k Hj Hk. apply sample_mono; auto; lia.
    - apply Forall_forall. intros y Hy. apply in_map_iff in Hy. destruct Hy as (k & <- & Hk). apply IN in Hk.
      replace start with (x 0%nat) by (unfold x; rewrite x_low by lia; cbn; ring). apply sample_mono; auto; lia. }
  assert (LE : Forall (fun y => y <= stop) (start :: map x (inner s d start stop dt n))).
  { constructor; auto. apply Forall_forall. intros y Hy. apply in_map_iff in Hy. destruct Hy as (k & <- & Hk). apply IN in Hk.
    apply x_le; auto; lia. }
  assert (ST : In stop (result s d start stop dt n)).
  { unfold result. fold x. destruct (Req_EM_T _ _) as [E|E].
    - rewrite app_nil_r. rewrite <- E at 1. generalize start. intros y.
      assert (G : forall (l : list R) y, In (last (y :: l) 0) (y :: l)).
      { induction l as [|a l IH]; intros z; [now left|]. right. apply IH. }
      apply G.
    - right. apply in_app_iff. right. now left. }
  split.
  - unfold result. fold x. destruct (Req_EM_T _ _) as [E|E]; [now rewrite app_nil_r|].
    rewrite app_comm_cons. apply sorted_app_one; auto. pose proof (last_max _ _ SI) as LM.
    assert (LL : last (start :: map x (inner s d start stop dt n)) 0 <= stop).
    { assert (G : forall (l : list R) y, In (last (y :: l) 0) (y :: l)).
      { induction l as [|a l IH]; intros z; [now left|]. right. apply IH. }
      rewrite Forall_forall in LE. apply LE, G. }
    change (fun k => x k) with x in *. rewrite Forall_forall in *. intros y Hy. specialize (LM y Hy). lra.
  - intros y. split.
    + intros [<-|Hy]; [now left|]. right. apply in_app_iff in Hy. destruct Hy as [Hy|Hy].
      2:{ left. destruct (Req_EM_T _ _); [destruct Hy|]. destruct Hy as [<-|[]]. reflexivity. }
      right. apply in_map_iff in Hy. destruct Hy as (k & <- & Hk). apply IN in Hk. destruct Hk as (H2 & Hk & K). split; auto.
      exists k. split; auto. apply kept_spec in K. destruct K as [T Sl].
      split; [apply x_low; lia|]. split; [exact Sl|]. rewrite x_low in T by lia.
      destruct (Nat.eqb_spec k n) as [->|Nk].
      * rewrite x_high in T. exact T.
      * rewrite (x_low start stop dt n (S k)) in T by lia. exact T.
    + intros [->|[->|(H2 & k & Hk & -> & Sl & T)]]; [now left|exact ST|]. right. apply in_app_iff. left.
      apply in_map_iff. exists k. split; [apply x_low; lia|]. apply IN. split; auto. split; auto.
      apply kept_spec. rewrite (x_low start stop dt n k) by lia. split; auto. rewrite (x_low start stop dt n (k - 1)) by lia.
      destruct (Nat.eqb_spec k n) as [->|Nk]; [rewrite x_high; exact T|].
      rewrite (x_low start stop dt n (S k)) by lia. exact T.
Qed.

(** C84: with a reversed range only the two ends are returned. *)
Theorem C84_reversed_range :
  forall (s : segment) (d : nat) (start stop dt : R) (prior : list R),
  0 < dt -> stop < start -> returns s d start stop dt prior (prior ++ [start; stop]).
Proof.
  intros s d start stop dt prior H L. exists 1%nat. intros fuel HF. destruct fuel as [|fuel]; [lia|].
  unfold candidates_by_sampling. cbn [sampling_loop].
  replace (Rleb (start + dt + dt) stop) with false by (symmetry; apply Rleb_false; lra).
  rewrite last_app_single. destruct (Req_EM_T start stop); [lra|]. now rewrite <- app_assoc.
Qed.
(** C84: with a zero or negative interval the call does not return (unless the
    first two steps already pass the end, which needs a reversed range). *)
Theorem C84_bad_interval :
  forall (s : segment) (d : nat) (start stop dt : R) (prior : list R) (fuel : nat),
  dt <= 0 -> start + 2 * dt <= stop -> candidates_by_sampling fuel s d start stop dt prior = None.
Proof.
  intros s d start stop dt prior fuel H L. unfold candidates_by_sampling.
  assert (G : forall fuel t v dir told c, t <= stop -> sampling_loop fuel s d stop dt t v dir told false c = None).
  { intros f. induction f as [|f IH]; intros t v dir told c Ht; cbn [sampling_loop]; auto.
    replace (Rleb t stop) with true by (symmetry; now apply Rleb_true).
    replace (Rltb stop (t + dt)) with false by (symmetry; apply Rltb_false; lra). cbn [andb orb]. apply IH. lra. }
  rewrite G by lra. reflexivity.
Qed.
(** C84: the maximum need not be near a candidate, however fine the sampling: in
    the plane the magnitude can be largest while the next derivative is large.
    Here the position runs through (t - 1, 2 - (t - 1)^2). *)
Theorem C84_finds_maximum_refuted :
  exists (s : segment) (start stop : R), seg_wf s /\ start < stop /\ s_time s = stop - start /\
  exists t, start < t < stop /\ magnitude s 0 start < magnitude s 0 t /\ magnitude s 0 stop < magnitude s 0 t /\
  forall dt, 0 < dt -> returns s 0 start stop dt [] [start; stop].
Proof.
  set (s := mkSeg 2 3 2 [[-1; 1; 0]; [1; 2; -1]]).
  assert (W : seg_wf s) by (split; [reflexivity|repeat constructor]).
  assert (M0 : forall t, magnitude s 0 t = sqrt ((t - 1) ^ 2 + (2 - (t - 1) ^ 2) ^ 2)).
  { intros t. unfold magnitude, s. cbn [s_polys map lsum Derive_n pval]. f_equal. ring. }
  assert (M1 : forall t, 1 <= magnitude s 1 t).
  { intros t. unfold magnitude, s. cbn [s_polys map lsum]. rewrite !Derive_n_pval. cbn [pderiv_n].
    rewrite <- sqrt_1 at 1. apply sqrt_le_1_alt.
    match goal with |- _ <= pval ?p t ^ 2 + (pval ?q t ^ 2 + 0) => assert (E : pval p t = 1) end.
    { cbn. lra. }
    rewrite E. match goal with |- _ <= _ + (?q + 0) => assert (0 <= q) by apply pow2_ge_0 end. lra. }
  exists s, 0, 2. split; auto. split; [lra|]. split; [cbn; lra|]. exists 1. split; [lra|].
  rewrite !M0. split; [apply sqrt_lt_1_alt; lra|]. split; [apply sqrt_lt_1_alt; lra|].
  intros dt H. destruct (C84_candidates s 0 0 2 dt [] W H ltac:(lra)) as (n & out & _ & Re & So & In0).
  replace [0; 2] with out; [exact Re|].
  assert (In1 : forall x, In x out <-> x = 0 \/ x = 2).
  { intros x. rewrite In0. split; [|tauto]. intros [|[|(_ & k & _ & _ & Sl & _)]]; auto. specialize (M1 x). unfold SLOPE_TOL in Sl. lra. }
  clear - So In1. destruct out as [|a [|b [|c out]]].
  - destruct (proj2 (In1 0) (or_introl eq_refl)).
  - destruct (proj2 (In1 0) (or_introl eq_refl)) as [A|[]]. destruct (proj2 (In1 2) (or_intror eq_refl)) as [B|[]]. lra.
  - inversion So as [|? ? S1 F1]; subst. inversion F1; subst.
    destruct (proj1 (In1 a) (or_introl eq_refl)), (proj1 (In1 b) (or_intror (or_introl eq_refl))); subst; try lra. reflexivity.
  - inversion So as [|? ? S1 F1]; subst. inversion S1 as [|? ? S2 F2]; subst. inversion F1; subst. inversion F2; subst.
    destruct (proj1 (In1 a) (or_introl eq_refl)), (proj1 (In1 b) (or_intror (or_introl eq_refl))),
      (proj1 (In1 c) (or_intror (or_intror (or_introl eq_refl)))); lra.
Qed.

(** ** One dimension *)

Lemma pval_mvt q a b : a < b -> exists c, a <= c <= b /\ pval q b - pval q a = pval (pderiv q) c * (b - a).
Proof.
  intros H. destruct (MVT_gen (pval q) a b (pval (pderiv q))) as (c & Hc & E).
  - intros x _. apply is_derive_pval.
  - intros x _. apply continuity_pt_filterlim. apply (@ex_derive_continuous R_AbsRing R_NormedModule). eexists. apply is_derive_pval.
  - rewrite Rmin_left, Rmax_right in Hc by lra. exists c. auto.
Qed.
Lemma pval_lipschitz q B a b lo hi : lo <= a <= hi -> lo <= b <= hi -> (forall t, lo <= t <= hi -> Rabs (pval (pderiv q) t) <= B) ->
  Rabs (pval q b - pval q a) <= B * Rabs (b - a).
Proof.
  intros Ha Hb HB. assert (G : forall a b, lo <= a <= hi -> lo <= b <= hi -> a < b -> Rabs (pval q b - pval q a) <= B * Rabs (b - a)).
  { clear a b Ha Hb. intros a b Ha Hb L. destruct (pval_mvt q a b L) as (c & Hc & ->). rewrite Rabs_mult.
    apply Rmult_le_compat_r; [apply Rabs_pos|]. apply HB. lra. }
  destruct (Rtotal_order a b) as [L|[->|L]]; auto.
  - unfold Rminus. rewrite !Rplus_opp_r, Rabs_R0. lra.
  - rewrite Rabs_minus_sym, (Rabs_minus_sym b). auto.
Qed.
Lemma last_argmax (f : nat -> R) n : exists k, (k <= n)%nat /\ (forall j, (j <= n)%nat -> f j <= f k) /\
  forall j, (k < j <= n)%nat -> f j < f k.
Proof.
  induction n as [|n (k & Hk & A & B)].
  - exists 0%nat. split; [lia|]. split; [intros j Hj; replace j with 0%nat by lia; lra|intros; lia].
  - destruct (Rlt_le_dec (f (S n)) (f k)).
    + exists k. split; [lia|]. split; intros j Hj; destruct (Nat.eq_dec j (S n)) as [->|]; try lra; try (apply A; lia); apply B; lia.
    + exists (S n). split; [lia|]. split; [|intros; lia]. intros j Hj. destruct (Nat.eq_dec j (S n)) as [->|]; [lra|].
      specialize (A j ltac:(lia)). lra.
Qed.
Lemma turning_slope q B a b c dt : (forall t, a <= t <= c -> Rabs (pval (pderiv (pderiv q)) t) <= B) ->
  a < b < c -> b - a <= dt -> c - b <= dt ->
  Rabs (pval q a) <= Rabs (pval q b) -> Rabs (pval q c) < Rabs (pval q b) -> Rabs (pval (pderiv q) b) <= B * dt.
Proof.
  intros HB Hab Hd1 Hd2 Ma Mc.
  assert (B0 : 0 <= B) by (eapply Rle_trans; [apply Rabs_pos|apply (HB b); lra]).
  destruct (pval_mvt q a b) as (u & Hu & Eu); [lra|]. destruct (pval_mvt q b c) as (v & Hv & Ev); [lra|].
  assert (Lu : Rabs (pval (pderiv q) b - pval (pderiv q) u) <= B * dt).
  { eapply Rle_trans; [apply (pval_lipschitz _ B u b a c); auto; lra|]. apply Rmult_le_compat_l; auto. rewrite Rabs_pos_eq; lra. }
  assert (Lv : Rabs (pval (pderiv q) b - pval (pderiv q) v) <= B * dt).
  { eapply Rle_trans; [apply (pval_lipschitz _ B v b a c); auto; lra|]. apply Rmult_le_compat_l; auto. rewrite Rabs_left1; lra. }
  set (gb := pval (pderiv q) b) in *. set (gu := pval (pderiv q) u) in *. set (gv := pval (pderiv q) v) in *.
  set (A := pval q a) in *. set (Bv := pval q b) in *. set (C := pval q c) in *.
  assert (S1 : 0 <= Bv -> 0 <= gu /\ gv <= 0).
  { intros P. rewrite (Rabs_pos_eq Bv P) in *. pose proof (Rle_abs A). pose proof (Rle_abs C). split.
    - apply Rnot_lt_le. intros N. assert (gu * (b - a) < 0) by nra. lra.
    - apply Rnot_lt_le. intros N. assert (0 < gv * (c - b)) by (apply Rmult_lt_0_compat; lra). lra. }
  assert (S2 : Bv <= 0 -> gu <= 0 /\ 0 <= gv).
  { intros P. rewrite (Rabs_left1 Bv P) in *. pose proof (Rle_abs (- A)) as X. pose proof (Rle_abs (- C)) as Y. rewrite Rabs_Ropp in X, Y. split.
    - apply Rnot_lt_le. intros N. assert (0 < gu * (b - a)) by (apply Rmult_lt_0_compat; lra). lra.
    - apply Rnot_lt_le. intros N. assert (gv * (c - b) < 0) by nra. lra. }
  apply Rabs_le_between in Lu. apply Rabs_le_between in Lv. apply Rabs_le_between.
  destruct (Rle_lt_dec 0 Bv) as [P|P]; [destruct (S1 P)|destruct (S2 (Rlt_le _ _ P))]; lra.
Qed.
Lemma magnitude_one s p d t : s_polys s = [p] -> magnitude s d t = Rabs (Derive_n (pval p) d t).
Proof. intros E. unfold magnitude. rewrite E. cbn [map lsum]. rewrite Rplus_0_r, <- Rsqr_pow2. apply sqrt_Rsqr_abs. Qed.

(** C84: in one dimension a fine enough interval (relative to the derivative
    after the next) makes the largest sample a candidate, so the largest
    magnitude is missed by no more than the change within one interval. *)
Theorem C84_one_dimension :
  forall (s : segment) (p : poly) (d : nat) (start stop dt B G : R) (prior : list R),
  seg_wf s -> s_polys s = [p] -> 0 < dt -> start + 2 * dt <= stop ->
  (forall t, start <= t <= stop -> Rabs (Derive_n (pval p) (S (S d)) t) <= B) ->
  (forall t, start <= t <= stop -> Rabs (Derive_n (pval p) (S d) t) <= G) ->
  B * dt < SLOPE_TOL ->
  exists out, returns s d start stop dt prior (prior ++ out) /\
  forall t, start <= t <= stop -> exists c, In c out /\ start <= c <= stop /\ magnitude s d t <= magnitude s d c + G * dt.
Proof.
  intros s p d start stop dt B G prior W E1 H L HB HG HT.
  destruct (C84_candidates s d start stop dt prior W H ltac:(lra)) as (n & out & Hn & Re & _ & In0).
  exists out. split; auto. set (x := sample start stop dt n).
  assert (N2 : (2 <= n)%nat).
  { destruct (le_lt_dec 2 n); auto. exfalso. assert (N1 : (S n <= 2)%nat) by lia. apply le_INR in N1. change (INR 2) with (1 + 1) in N1.
    assert (INR (S n) * dt <= (1 + 1) * dt) by (apply Rmult_le_compat_r; lra). lra. }
  destruct (last_argmax (fun k => magnitude s d (x k)) (S n)) as (k & Hk & Mx & Ms).
  assert (Xr : forall j, (j <= S n)%nat -> start <= x j <= stop).
  { intros j Hj. unfold x. destruct (Nat.eq_dec j (S n)) as [->|]; [rewrite x_high; lra|].
    split; [|apply x_le; auto; lia]. rewrite x_low by lia. assert (0 <= INR j * dt) by (apply Rmult_le_pos; [apply pos_INR|lra]). lra. }
  assert (Xs : forall j, (j < n)%nat -> x (S j) = x j + dt).
  { intros j Hj. unfold x. rewrite !x_low, S_INR by lia. ring. }
  assert (KI : In (x k) out).
  { apply In0. destruct (Nat.eq_dec k 0) as [->|K0]; [left; unfold x; rewrite x_low by lia; cbn; ring|].
    destruct (Nat.eq_dec k (S n)) as [->|K1]; [right; left; apply x_high|]. right; right. split; auto. exists k.
    split; [lia|]. split; [apply x_low; lia|].
    assert (Ta : magnitude s d (x (k - 1)%nat) <= magnitude s d (x k)) by (apply Mx; lia).
    assert (Tc : magnitude s d (x (S k)) < magnitude s d (x k)) by (apply Ms; lia).
    split.
    - rewrite (magnitude_one s p) by auto. rewrite !(magnitude_one s p) in Ta, Tc by auto. rewrite !Derive_n_pval in *. cbn [pderiv_n].
      pose proof (Xs (k - 1)%nat ltac:(lia)) as Xa. replace (S (k - 1)) with k in Xa by lia.
      assert (Xc : x k <= x (S k) <= x k + dt).
      { destruct (Nat.eq_dec k n) as [->|]; [|rewrite Xs by lia; lra]. unfold x at 2 3. rewrite x_high. unfold x. rewrite x_low by lia.
        rewrite S_INR in Hn. lra. }
      pose proof (Xr (k - 1)%nat ltac:(lia)). pose proof (Xr (S k) ltac:(lia)).
      eapply Rle_lt_trans; [|exact HT]. apply (turning_slope _ B (x (k - 1)%nat) (x k) (x (S k)) dt); try lra.
      + intros t Ht. specialize (HB t ltac:(lra)). rewrite Derive_n_pval in HB. exact HB.
      + split; [lra|]. destruct (proj1 Xc) as [|Eq]; auto. rewrite Eq in Tc. lra.
    - right. assert (Ea : x (k - 1)%nat = start + INR (k - 1) * dt) by (apply x_low; lia). rewrite <- Ea. split; auto.
      destruct (Nat.eqb_spec k n) as [->|].
      + unfold x in Tc at 1. rewrite x_high in Tc. exact Tc.
      + unfold x in Tc at 1. rewrite x_low in Tc by lia. exact Tc. }
  intros t Ht. exists (x k). split; auto. split; [apply Xr; auto|].
  destruct (steps_exist start t dt H (proj1 Ht)) as (j & Hj1 & Hj2).
  assert (Hj : (j <= n)%nat).
  { destruct (le_lt_dec j n) as [|J]; auto. exfalso. apply le_INR in J. assert (INR (S n) * dt <= INR j * dt) by (apply Rmult_le_compat_r; lra). lra. }
  specialize (Mx j ltac:(lia)). cbv beta in Mx. eapply Rle_trans; [|apply Rplus_le_compat_r; exact Mx].
  assert (Ej : x j = start + INR j * dt) by (apply x_low; lia). rewrite !(magnitude_one s p) by auto. rewrite !Derive_n_pval.
  assert (Lp : Rabs (pval (pderiv_n d p) t - pval (pderiv_n d p) (x j)) <= G * Rabs (t - x j)).
  { apply (pval_lipschitz _ G (x j) t start stop); auto. intros u Hu. specialize (HG u Hu). rewrite Derive_n_pval in HG. exact HG. }
  assert (G0 : 0 <= G) by (eapply Rle_trans; [apply Rabs_pos|apply (HG start); lra]).
  assert (Dt : Rabs (t - x j) <= dt) by (rewrite Rabs_pos_eq; rewrite S_INR in Hj2; lra).
  assert (G * Rabs (t - x j) <= G * dt) by (apply Rmult_le_compat_l; auto).
  pose proof (Rabs_triang (pval (pderiv_n d p) t - pval (pderiv_n d p) (x j)) (pval (pderiv_n d p) (x j))) as Tr.
  replace (pval (pderiv_n d p) t - pval (pderiv_n d p) (x j) + pval (pderiv_n d p) (x j)) with (pval (pderiv_n d p) t) in Tr by ring.
  lra.
Qed.
Print Assumptions C84_candidates.
Print Assumptions C84_reversed_range.
Print Assumptions C84_bad_interval.
Print Assumptions C84_finds_maximum_refuted.
Print Assumptions C84_one_dimension.

(** The parabola t - t^2 on [0, 1]: an interval of 1/1000 meets the condition, and
    the middle is returned. *)
Example C84_example :
  let s := mkSeg 1 3 1 [[0; 1; -1]] in
  seg_wf s /\
  (forall t, 0 <= t <= 1 -> Rabs (Derive_n (pval [0; 1; -1]) 2 t) <= 2) /\
  (forall t, 0 <= t <= 1 -> Rabs (Derive_n (pval [0; 1; -1]) 1 t) <= 1) /\
  2 * (1 / 1000) < SLOPE_TOL /\ returns s 0 0 1 (1 / 4) [] [0; 1 / 2; 1].
Proof.
  cbv zeta. set (s := mkSeg 1 3 1 [[0; 1; -1]]).
  assert (W : seg_wf s) by (split; [reflexivity|repeat constructor]). split; auto.
  assert (D2 : forall t, Derive_n (pval [0; 1; -1]) 2 t = -2) by (intros; rewrite Derive_n_pval; cbn; lra).
  assert (D1 : forall t, Derive_n (pval [0; 1; -1]) 1 t = 1 - 2 * t) by (intros; rewrite Derive_n_pval; cbn; lra).
  split; [intros t _; rewrite D2; rewrite Rabs_left; lra|].
  split; [intros t Ht; rewrite D1; apply Rabs_le_between; lra|]. split; [unfold SLOPE_TOL; lra|].
  assert (M0 : forall t, 0 <= t <= 1 -> magnitude s 0 t = t - t * t).
  { intros t Ht. rewrite (magnitude_one s [0; 1; -1]) by reflexivity. cbn [Derive_n pval]. rewrite Rabs_pos_eq; [ring|].
    assert (0 <= t * (1 - t)) by (apply Rmult_le_pos; lra). lra. }
  assert (M1 : forall t, magnitude s 1 t = Rabs (1 - 2 * t)) by (intros; rewrite (magnitude_one s [0; 1; -1]) by reflexivity; now rewrite D1).
  assert (Hn : 0 + INR 4 * (1 / 4) <= 1 < 0 + INR 5 * (1 / 4)) by (cbn; lra).
  exists 6%nat. intros f Hf. rewrite (sampling_result s 0 0 1 (1 / 4) 4 W ltac:(lra) Hn [] f) by lia. f_equal. cbn [app].
  assert (X : forall k, (k <= 4)%nat -> sample 0 1 (1 / 4) 4 k = INR k / 4) by (intros; rewrite x_low by auto; field).
  assert (X5 : sample 0 1 (1 / 4) 4 5 = 1) by apply (x_high 0 1 (1 / 4) 4).
  assert (K : forall k, (1 <= k <= 4)%nat -> kept s 0 0 1 (1 / 4) 4 k = (k =? 2)%nat).
  { intros k Hk. destruct (Nat.eqb_spec k 2) as [->|Nk].
    - apply kept_spec. rewrite !X by (cbn; lia). cbn [Nat.sub INR]. unfold turns. rewrite !M0, M1 by lra. split; [lra|].
      unfold SLOPE_TOL. rewrite Rabs_pos_eq; lra.
    - apply not_true_iff_false. intros Kt. apply kept_spec in Kt. destruct Kt as [T Sl]. rewrite X, M1 in Sl by lia.
      apply Rabs_lt_between in Sl. unfold SLOPE_TOL in Sl. assert (C : (k = 1 \/ k = 3 \/ k = 4)%nat) by lia.
      destruct C as [C|[C|C]]; subst k; cbn in Sl; lra. }
  unfold result, inner. cbn [Nat.leb seq filter]. rewrite !K by lia. cbn [Nat.eqb map].
  rewrite X by lia. cbn [INR last]. destruct (Req_EM_T _ _) as [Q|Q]; [lra|]. cbn [app]. replace ((1 + 1) / 4) with (1 / 2) by lra. reflexivity.
Qed.
