(** Rounding errors of Trajectory::evaluate: the segment, the time in it and the value. *)
From Coq Require Import String Reals List ZArith Arith Bool Lra Lia Psatz.
From Flocq Require Import Core Relative Plus_error.
From Coquelicot Require Import Coquelicot.
From Verif Require Import Base PolyModel PolySpec PolyProofs VertexModel TrajModel TrajSpec TrajProofs IoModel
  FloatProofs DoubleProofs RoundModel RoundProofs.
Import List ListNotations.
Local Open Scope R_scope.
Set Bullet Behavior "Strict Subproofs".

Definition dadd (a b : R) : R := double64 (a + b).

Lemma double_opp x : is_double x -> is_double (- x).
Proof. apply generic_format_opp. Qed.
Lemma double_0 : is_double 0.
Proof. apply generic_format_0. Qed.
Lemma minus_err x y : is_double x -> is_double y -> Rabs (double64 (x - y) - (x - y)) <= eps * Rabs (x - y).
Proof. intros Hx Hy. apply double64_plus_err; auto using double_opp. Qed.

(** Sums of the first k durations, computed and exact. *)
Fixpoint csum (acc : R) (k : nat) (segs : list segment) : R :=
  match k, segs with
  | S k', s :: rest => csum (dadd acc (s_time s)) k' rest
  | _, _ => acc
  end.
Fixpoint xsum (k : nat) (segs : list segment) : R :=
  match k, segs with
  | S k', s :: rest => s_time s + xsum k' rest
  | _, _ => 0
  end.
Definition good (s : segment) : Prop := is_double (s_time s) /\ 0 < s_time s.

Lemma csum_S segs : forall k acc s, nth_error segs k = Some s -> csum acc (S k) segs = dadd (csum acc k segs) (s_time s).
Proof.
  induction segs as [|s0 segs IH]; intros [|k] acc s H; try discriminate.
  - inversion H; subst. cbn. destruct segs; reflexivity.
  - cbn [csum]. cbn in H. rewrite <- (IH k (dadd acc (s_time s0)) s H). reflexivity.
Qed.
Lemma xsum_S segs : forall k s, nth_error segs k = Some s -> xsum (S k) segs = xsum k segs + s_time s.
Proof.
  induction segs as [|s0 segs IH]; intros [|k] s H; try discriminate.
  - inversion H; subst. cbn. destruct segs; cbn; lra.
  - cbn in H. specialize (IH k s H). cbn [xsum] in *. lra.
Qed.
Lemma xsum_start tr k : xsum k (t_segs tr) = start_of tr k.
Proof.
  unfold start_of. generalize (t_segs tr). induction k as [|k IH]; intros [|s l]; cbn; try reflexivity.
  now rewrite IH.
Qed.
Lemma csum_double segs : forall k acc, is_double acc -> is_double (csum acc k segs).
Proof.
  induction segs as [|s segs IH]; intros [|k] acc H; cbn; auto. apply IH, double64_double.
Qed.
Lemma xsum_mono segs : Forall good segs -> forall k l, (k <= l)%nat -> 0 <= xsum k segs <= xsum l segs.
Proof.
  intros HF. induction HF as [|s segs [_ G] HF IH]; intros k l H.
  - destruct k, l; cbn; lra.
  - destruct k as [|k], l as [|l]; cbn; try lia; try lra.
    + specialize (IH O l ltac:(lia)). destruct segs; cbn in *; lra.
    + specialize (IH k l ltac:(lia)). lra.
Qed.
Lemma dadd_ge a b : is_double a -> 0 <= b -> a <= dadd a b.
Proof. intros Ha Hb. rewrite <- (double64_id a Ha) at 1. apply double64_le. lra. Qed.
Lemma dadd_ge_r a b : is_double b -> 0 <= a -> b <= dadd a b.
Proof. intros Ha Hb. rewrite <- (double64_id b Ha) at 1. apply double64_le. lra. Qed.

Lemma csum_nonneg segs : Forall good segs -> forall k z, is_double z -> 0 <= z -> 0 <= csum z k segs.
Proof.
  intros HF. induction HF as [|s l [Ds Ts] HF IH]; intros [|k] z D G; cbn; auto.
  apply IH; [apply double64_double|]. eapply Rle_trans; [exact G|]. apply dadd_ge; [auto|lra].
Qed.

Lemma csum_err segs : Forall good segs -> forall k, (k <= length segs)%nat ->
  Rabs (csum 0 k segs - xsum k segs) <= growth k * xsum k segs.
Proof.
  intros HF. induction k as [|k IH]; intros Hk.
  - destruct segs; cbn; unfold growth; cbn; rewrite Rminus_diag_eq, Rabs_R0 by reflexivity; lra.
  - specialize (IH ltac:(lia)). destruct (nth_error segs k) as [s|] eqn:E; [|apply nth_error_None in E; lia].
    rewrite (csum_S _ _ _ _ E), (xsum_S _ _ _ E). rewrite Forall_forall in HF.
    destruct (HF s (nth_error_In _ _ E)) as [D T].
    assert (HF' : Forall good segs) by (now rewrite Forall_forall).
    pose proof (xsum_mono _ HF' k k (le_n _)) as [X _].
    set (c := csum 0 k segs) in *. set (x := xsum k segs) in *.
    pose proof (double64_plus_err c (s_time s) (csum_double _ _ _ double_0) D) as Q.
    pose proof (growth_nonneg k) as G. pose proof eps_val as [E0 E1].
    fold (dadd c (s_time s)) in Q. rewrite growth_S.
    assert (C : Rabs (c + s_time s) <= (1 + growth k) * x + s_time s).
    { replace (c + s_time s) with ((x + s_time s) + (c - x)) by ring.
      eapply Rle_trans; [apply Rabs_triang|]. rewrite (Rabs_pos_eq (x + s_time s)) by lra. lra. }
    replace (dadd c (s_time s) - (x + s_time s)) with ((dadd c (s_time s) - (c + s_time s)) + (c - x)) by ring.
    eapply Rle_trans; [apply Rabs_triang|].
    assert (eps * Rabs (c + s_time s) <= eps * ((1 + growth k) * x + s_time s)) by (apply Rmult_le_compat_l; lra).
    assert (0 <= growth k * s_time s) by (apply Rmult_le_pos; lra).
    assert (0 <= eps * (growth k * s_time s)) by (apply Rmult_le_pos; lra).
    replace (((1 + eps) * (1 + growth k) - 1) * (x + s_time s)) with
      (growth k * x + growth k * s_time s + eps * (growth k * s_time s) + eps * ((1 + growth k) * x + s_time s)) by ring.
    lra.
Qed.

(** What the search loop finds. *)
Lemma find_rounded segs : forall t acc i,
  (exists k, (k < length segs)%nat /\ find_segment dadd segs t acc i = ((i + k)%nat, csum acc (S k) segs) /\
     t < csum acc (S k) segs /\ (k = O \/ csum acc k segs <= t)) \/
  (find_segment dadd segs t acc i = ((i + length segs)%nat, csum acc (length segs) segs) /\
   (segs <> [] -> csum acc (length segs) segs <= t)).
Proof.
  induction segs as [|s segs IH]; intros t acc i.
  - right. cbn. rewrite Nat.add_0_r. split; congruence.
  - cbn [find_segment]. fold (dadd acc (s_time s)). rcase.
    + left. exists O. cbn. rewrite Nat.add_0_r. split; [lia|]. destruct segs; auto.
    + destruct (IH t (dadd acc (s_time s)) (S i)) as [(k & Hk & E & A & B)|[E A]].
      * left. exists (S k). split; [cbn; lia|]. replace (i + S k)%nat with (S i + k)%nat by lia.
        cbn [csum]. cbn [csum] in E. split; [exact E|]. split; [exact A|]. right.
        destruct B as [->|B]; [destruct segs; cbn; lra|exact B].
      * right. replace (i + length (s :: segs))%nat with (S i + length segs)%nat by (cbn; lia).
        cbn [csum length]. split; [exact E|]. intros _. destruct segs as [|s' segs]; [cbn; lra|].
        apply A. discriminate.
Qed.

Lemma located tr t i x : Forall good (t_segs tr) -> 0 <= t -> locate_r double64 tr t = Some (i, x) ->
  exists s, nth_error (t_segs tr) i = Some s /\
    csum 0 i (t_segs tr) <= t <= csum 0 (S i) (t_segs tr) /\
    x = double64 (t - double64 (csum 0 (S i) (t_segs tr) - s_time s)).
Proof.
  intros HF Ht H. unfold locate_r in H. change (fun a b => double64 (a + b)) with dadd in H.
  set (segs := t_segs tr) in *.
  destruct (find_rounded segs t 0 0) as [(k & Hk & E & A & B)|[E A]]; rewrite E in H; cbn [Nat.add] in H.
  - rcase_in H; [discriminate|]. destruct (Nat.leb_spec (length segs) k); [lia|].
    destruct (nth_error segs k) as [s|] eqn:N; [|discriminate]. inversion H; subst. exists s.
    split; [exact N|]. split; [|reflexivity]. split; [|lra].
    destruct B as [->|B]; [|exact B]. destruct segs; cbn; lra.
  - rcase_in H; [discriminate|]. rewrite Nat.leb_refl in H.
    destruct (nth_error segs (length segs - 1)) as [s|] eqn:N; [|discriminate]. inversion H; subst.
    assert (Hne : segs <> []). { intros E'. rewrite E' in N. discriminate. }
    assert (L : (S (length segs - 1) = length segs)%nat) by (destruct segs; [congruence|cbn; lia]).
    exists s. split; [exact N|]. rewrite L. split; [|reflexivity]. split; [|lra].
    apply Rle_trans with (csum 0 (length segs) segs); [|auto].
    rewrite <- L at 2. rewrite (csum_S _ _ _ _ N). apply dadd_ge; [apply csum_double, double_0|].
    rewrite Forall_forall in HF. destruct (HF s (nth_error_In _ _ N)). lra.
Qed.

(** The error of the time in the segment. *)
Lemma local_time tr t i x : Forall good (t_segs tr) -> is_double t -> 0 <= t ->
  (Z.of_nat (length (t_segs tr)) <= 999000)%Z ->
  locate_r double64 tr t = Some (i, x) ->
  exists s, nth_error (t_segs tr) i = Some s /\
  let delta := INR (length (t_segs tr) + 3) * eps * start_of tr (length (t_segs tr)) in
  start_of tr i - delta <= t <= start_of tr (S i) + delta /\
  Rabs (x - (t - start_of tr i)) <= delta.
Proof.
  intros HF Dt Ht Hn H. destruct (located _ _ _ _ HF Ht H) as (s & N & [T1 T2] & ->).
  exists s. split; [exact N|]. cbv zeta. rewrite <- !xsum_start. set (segs := t_segs tr) in *.
  assert (Hi : (S i <= length segs)%nat) by (apply nth_error_Some; congruence).
  pose proof (csum_err segs HF i ltac:(lia)) as C0. pose proof (csum_err segs HF (S i) Hi) as C1.
  pose proof (xsum_mono segs HF i (S i) ltac:(lia)) as [X0 X1].
  pose proof (xsum_mono segs HF (S i) (length segs) Hi) as [_ X2].
  assert (Ts : is_double (s_time s) /\ 0 < s_time s).
  { rewrite Forall_forall in HF. apply HF. eapply nth_error_In; eauto. }
  destruct Ts as [Ds Ts]. pose proof (xsum_S segs i s N) as XS. pose proof (csum_S segs i 0 s N) as CS.
  set (c := csum 0 i segs) in *. set (c' := csum 0 (S i) segs) in *.
  set (X := xsum i segs) in *. set (X' := xsum (S i) segs) in *. set (XT := xsum (length segs) segs) in *.
  assert (Dc : is_double c) by apply csum_double, double_0.
  assert (Dc' : is_double c') by apply csum_double, double_0.
  assert (c0 : 0 <= c) by (apply csum_nonneg; auto using double_0; lra).
  assert (cs : s_time s <= c') by (rewrite CS; apply dadd_ge_r; auto).
  pose proof eps_val as [E0 E1]. set (n := length segs) in *.
  pose proof (growth_nonneg i) as G0. pose proof (growth_nonneg (S i)) as G1. pose proof (growth_nonneg (S (S i))) as G2.
  assert (W : growth (S (S (S i))) * X' <= INR (n + 3) * eps * XT).
  { apply Rmult_le_compat; [apply growth_nonneg|lra| |lra].
    eapply Rle_trans; [apply growth_le; lia|]. apply Rmult_le_compat_r; [lra|]. apply le_INR. lia. }
  assert (GM : forall k, growth k <= growth (S k)).
  { intros k. rewrite growth_S. pose proof (growth_nonneg k). nra. }
  pose proof (GM i) as M0. pose proof (GM (S i)) as M1. pose proof (GM (S (S i))) as M2.
  assert (W1 : growth (S i) * X' <= INR (n + 3) * eps * XT).
  { eapply Rle_trans; [|exact W]. apply Rmult_le_compat_r; lra. }
  assert (W0 : growth i * X <= INR (n + 3) * eps * XT).
  { eapply Rle_trans; [|exact W]. apply Rmult_le_compat; lra. }
  assert (A0 : X - growth i * X <= c) by (apply Rabs_le_between in C0; lra).
  assert (A1 : c' <= X' + growth (S i) * X') by (apply Rabs_le_between in C1; lra).
  split; [lra|].
  (* start of the segment *)
  pose proof (minus_err c' (s_time s) Dc' Ds) as Q1. set (st := double64 (c' - s_time s)) in *.
  assert (st0 : 0 <= st). { unfold st. rewrite <- double64_0. apply double64_le. lra. }
  rewrite (Rabs_pos_eq (c' - s_time s)) in Q1 by lra.
  assert (B1 : Rabs (st - X) <= growth (S (S i)) * X').
  { replace (st - X) with ((st - (c' - s_time s)) + (c' - X')) by lra.
    eapply Rle_trans; [apply Rabs_triang|]. rewrite (growth_S (S i)).
    assert (eps * (c' - s_time s) <= eps * (X' + growth (S i) * X')) by (apply Rmult_le_compat_l; lra).
    replace (((1 + eps) * (1 + growth (S i)) - 1) * X') with
      (eps * (X' + growth (S i) * X') + growth (S i) * X') by ring. lra. }
  pose proof (minus_err t st Dt (double64_double _)) as Q2.
  assert (B2 : Rabs (t - st) <= (1 + growth (S (S i))) * X').
  { assert (st <= (1 + growth (S (S i))) * X') by (apply Rabs_le_between in B1; lra).
    assert (growth (S i) * X' <= growth (S (S i)) * X') by (apply Rmult_le_compat_r; lra).
    apply Rabs_le. lra. }
  replace (double64 (t - st) - (t - X)) with ((double64 (t - st) - (t - st)) + - (st - X)) by ring.
  eapply Rle_trans; [apply Rabs_triang|]. rewrite Rabs_Ropp. eapply Rle_trans; [|exact W].
  rewrite (growth_S (S (S i))).
  assert (eps * Rabs (t - st) <= eps * ((1 + growth (S (S i))) * X')) by (apply Rmult_le_compat_l; lra).
  replace (((1 + eps) * (1 + growth (S (S i))) - 1) * X') with
    (eps * ((1 + growth (S (S i))) * X') + growth (S (S i)) * X') by ring. lra.
Qed.

(* ------------------------------------------------------------------ *)
(** ** The value *)

Lemma poly_lipschitz p d L u v : (forall x, u <= x <= v -> Rabs (poly_evaluate p x (S d)) <= L) ->
  forall a b, u <= a <= v -> u <= b <= v -> Rabs (poly_evaluate p b d - poly_evaluate p a d) <= L * Rabs (b - a).
Proof.
  intros H a b Ha Hb.
  destruct (MVT_gen (fun x => poly_evaluate p x d) a b (fun x => poly_evaluate p x (S d))) as (c & Hc & E).
  - intros x _. apply is_derive_poly_evaluate.
  - intros x _. apply continuity_pt_filterlim. apply continuous_poly_evaluate.
  - rewrite E, Rabs_mult. apply Rmult_le_compat_r; [apply Rabs_pos|]. apply H.
    unfold Rmin, Rmax in Hc. destruct (Rle_dec a b); lra.
Qed.

Definition slope (segs : list segment) (i d : nat) (r L : R) : Prop :=
  forall s, In s segs -> forall x, - r <= x <= s_time s + r -> Rabs (poly_evaluate (seg_poly s i) x (S d)) <= L.
Lemma glued_lipschitz segs i d r L : 0 <= r -> Forall (fun s => 0 < s_time s) segs -> joined_segs segs i d -> slope segs i d r L ->
  segs <> [] -> forall a b, - r <= a -> a <= b -> b <= lsum (map s_time segs) + r ->
  Rabs (glued segs d i b - glued segs d i a) <= L * (b - a).
Proof.
  intros Hr. induction segs as [|s segs IH]; intros HF HJ HS Hne a b Ha Hab Hb; [congruence|].
  assert (P : forall a b, - r <= a -> a <= b -> b <= s_time s + r ->
    Rabs (poly_evaluate (seg_poly s i) b d - poly_evaluate (seg_poly s i) a d) <= L * (b - a)).
  { intros a' b' H1 H2 H3. rewrite <- (Rabs_pos_eq (b' - a')) by lra.
    apply (poly_lipschitz (seg_poly s i) d L (- r) (s_time s + r)); [|lra|lra].
    intros x Hx. apply HS; [now left|exact Hx]. }
  destruct segs as [|s' segs].
  - cbn in *. apply P; lra.
  - destruct HJ as [HJ1 HJ2]. inversion HF as [|? ? T1 T2]; subst.
    assert (IH' : forall a b, - r <= a -> a <= b -> b <= lsum (map s_time (s' :: segs)) + r ->
      Rabs (glued (s' :: segs) d i b - glued (s' :: segs) d i a) <= L * (b - a)).
    { apply IH; auto; [|discriminate]. intros q Hq. apply HS. now right. }
    assert (LS : lsum (map s_time (s :: s' :: segs)) = s_time s + lsum (map s_time (s' :: segs))) by reflexivity.
    rewrite LS in Hb.
    assert (U : forall t, glued (s :: s' :: segs) d i t = if Rltb t (s_time s) then poly_evaluate (seg_poly s i) t d
      else glued (s' :: segs) d i (t - s_time s)) by reflexivity.
    rewrite !U. rcase; rcase; [apply P; lra|lra| |].
    + pose proof (P a (s_time s) ltac:(lra) ltac:(lra) ltac:(lra)) as Q1.
      pose proof (IH' 0 (b - s_time s) ltac:(lra) ltac:(lra) ltac:(lra)) as Q2.
      rewrite (glued_at_0 s' segs d i T2) in Q2. rewrite (HJ1 d (le_n _)) in Q1.
      replace (glued (s' :: segs) d i (b - s_time s) - poly_evaluate (seg_poly s i) a d) with
        ((glued (s' :: segs) d i (b - s_time s) - poly_evaluate (seg_poly s' i) 0 d) +
         (poly_evaluate (seg_poly s' i) 0 d - poly_evaluate (seg_poly s i) a d)) by ring.
      eapply Rle_trans; [apply Rabs_triang|]. lra.
    + replace (b - a) with ((b - s_time s) - (a - s_time s)) by ring. apply IH'; lra.
Qed.

Lemma glued_inside segs i d : Forall (fun s => 0 < s_time s) segs -> joined_segs segs i d ->
  forall k s t, nth_error segs k = Some s -> xsum k segs <= t <= xsum k segs + s_time s ->
  glued segs d i t = poly_evaluate (seg_poly s i) (t - xsum k segs) d.
Proof.
  intros HF. induction HF as [|s0 segs T0 HF IH]; intros HJ k s t Hk Ht; [destruct k; discriminate|].
  destruct segs as [|s' segs].
  - destruct k as [|k]; [|destruct k; discriminate]. inversion Hk; subst. cbn. f_equal. lra.
  - destruct HJ as [HJ1 HJ2].
    assert (U : forall t, glued (s0 :: s' :: segs) d i t = if Rltb t (s_time s0) then poly_evaluate (seg_poly s0 i) t d
      else glued (s' :: segs) d i (t - s_time s0)) by reflexivity.
    rewrite U. destruct k as [|k].
    + inversion Hk; subst. cbn [xsum] in *. rewrite Rminus_0_r. rcase; [reflexivity|].
      replace t with (s_time s) by lra. rewrite Rminus_diag_eq by reflexivity.
      rewrite glued_at_0 by auto. symmetry. apply HJ1. lia.
    + cbn [xsum] in Ht |- *. fold xsum in *.
      assert (X0 : 0 <= xsum k (s' :: segs)).
      { clear - HF. revert k. induction HF as [|q l Q HF IH]; intros [|k]; cbn; try lra. specialize (IH k). lra. }
      rcase; [lra|]. cbn in Hk. rewrite (IH HJ2 k s (t - s_time s0) Hk) by lra. f_equal. ring.
Qed.

Lemma xsum_inside segs : Forall (fun s => 0 < s_time s) segs -> forall k s, nth_error segs k = Some s ->
  0 <= xsum k segs /\ xsum k segs + s_time s <= lsum (map s_time segs).
Proof.
  intros HF. induction HF as [|q l Q HF IH]; intros [|k] s H; try discriminate.
  - inversion H; subst. cbn. assert (0 <= lsum (map s_time l)); [|lra].
    clear - HF. induction HF; cbn; lra.
  - cbn in H |- *. specialize (IH k s H). lra.
Qed.
Lemma value_at tr d i L delta e k s t x :
  traj_wf tr -> positive_times tr -> joined tr d -> (i < t_D tr)%nat -> 0 <= delta -> 0 <= e ->
  slope (t_segs tr) i d (delta + e) L ->
  nth_error (t_segs tr) k = Some s ->
  start_of tr k - delta <= t <= start_of tr (S k) + delta -> t <= t_max tr -> 0 <= t ->
  Rabs (x - (t - start_of tr k)) <= e ->
  Rabs (poly_evaluate (seg_poly s i) x d - comp tr d i t) <= (2 * delta + e) * L.
Proof.
  intros Hwf Hpos HJ Hi Hd He HS Hk Ht Htm Ht0 Hx.
  assert (Hne : t_segs tr <> []). { intros E. rewrite E in Hk. destruct k; discriminate. }
  rewrite comp_glued by auto. pose proof (joined_joined_segs tr d i Hwf Hi HJ) as HJ'.
  destruct Hwf as [_ Hmax]. rewrite Hmax in Htm. rewrite (start_of_S _ _ _ Hk) in Ht. rewrite <- !xsum_start in *.
  set (segs := t_segs tr) in *. set (a := xsum k segs) in *.
  assert (T : 0 < s_time s). { eapply Forall_forall in Hpos; [exact Hpos|]. eapply nth_error_In; exact Hk. }
  assert (a0 : 0 <= a /\ a + s_time s <= lsum (map s_time segs)).
  { apply xsum_inside; auto. }
  set (u := Rmax a (Rmin t (a + s_time s))).
  assert (Hu : a <= u <= a + s_time s).
  { unfold u, Rmax, Rmin. destruct (Rle_dec t _); destruct (Rle_dec a _); lra. }
  assert (Hut : Rabs (u - t) <= delta).
  { apply Rabs_le. unfold u, Rmax, Rmin. destruct (Rle_dec t _); destruct (Rle_dec a _); lra. }
  apply Rabs_le_between in Hx. apply Rabs_le_between in Hut.
  assert (G1 : Rabs (glued segs d i u - glued segs d i t) <= L * delta).
  { assert (L0 : 0 <= L).
    { eapply Rle_trans; [apply Rabs_pos|apply (HS s) with (x := 0)]; [eapply nth_error_In; exact Hk|lra]. }
    destruct (Rle_dec t u) as [C|C].
    - eapply Rle_trans; [apply (glued_lipschitz segs i d (delta + e) L)|]; auto; try lra.
      apply Rmult_le_compat_l; lra.
    - rewrite Rabs_minus_sym.
      eapply Rle_trans; [apply (glued_lipschitz segs i d (delta + e) L)|]; auto; try lra.
      apply Rmult_le_compat_l; lra. }
  assert (G2 : Rabs (poly_evaluate (seg_poly s i) x d - poly_evaluate (seg_poly s i) (u - a) d) <= L * (delta + e)).
  { eapply Rle_trans.
    - apply (poly_lipschitz (seg_poly s i) d L (- (delta + e)) (s_time s + (delta + e))); [|lra|lra].
      intros y Hy. apply HS; [eapply nth_error_In; exact Hk|lra].
    - apply Rmult_le_compat_l.
      + eapply Rle_trans; [apply Rabs_pos|apply (HS s) with (x := 0)]; [eapply nth_error_In; exact Hk|lra].
      + apply Rabs_le. lra. }
  rewrite (glued_inside segs i d Hpos HJ' k s u Hk Hu) in G1. fold a in G1.
  replace (poly_evaluate (seg_poly s i) x d - glued segs d i t) with
    ((poly_evaluate (seg_poly s i) x d - poly_evaluate (seg_poly s i) (u - a) d) +
     (poly_evaluate (seg_poly s i) (u - a) d - glued segs d i t)) by ring.
  eapply Rle_trans; [apply Rabs_triang|]. lra.
Qed.
