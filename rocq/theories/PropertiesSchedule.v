(** Property theorems: the published times of the waypoints in double precision (C92). *)
From Coq Require Import String Reals List ZArith Arith Bool Lra Lia Psatz.
From Flocq Require Import Core.
From Coquelicot Require Import Coquelicot.
From Verif Require Import Base PolyModel PolySpec PolyProofs VertexModel TrajModel TrajSpec TrajProofs WaypointModel IoModel
  FloatProofs DoubleProofs RoundModel RoundProofs RoundTime LinCost PropertiesRound ScheduleModel.
Import List ListNotations.
Local Open Scope R_scope.
Set Bullet Behavior "Strict Subproofs".

(* ------------------------------------------------------------------ *)
(** ** Specification *)

(** The error allowed for a published time, [gtl] being the time at which the
    trajectory starts. *)
Definition schedule_error (gtl : R) (ss : list segment) : R :=
  INR (length ss + 3) * unit_roundoff * (Rabs gtl + lsum (map s_time ss)).

(* ------------------------------------------------------------------ *)
(** ** Auxiliary lemmas *)

(** The sum of getCummulativeTime. *)
Definition back (ss : list segment) (i : nat) : R :=
  fold_left (fun acc s => double64 (acc + s_time s)) (rev (firstn i ss)) 0.

Lemma retimed_nth ss g : forall ws i l, retime_r double64 ss g i ws = Some l ->
  length l = length ws /\
  forall k w, nth_error l k = Some w -> (i + k <= length ss)%nat /\ w_time w = double64 (back ss (i + k) + g) /\
    exists w0, nth_error ws k = Some w0 /\ w_name w = w_name w0.
Proof.
  induction ws as [|w ws IH]; intros i l H; cbn [retime_r] in H.
  - inversion H; subst. split; [reflexivity|]. intros [|k] w E; discriminate.
  - unfold cumulative_time_r in H. destruct (Nat.ltb_spec (length ss) i); [discriminate|]. fold (back ss i) in H.
    destruct (retime_r double64 ss g (S i) ws) as [l'|] eqn:E; [|discriminate]. inversion H; subst. clear H.
    destruct (IH _ _ E) as [L N]. split; [cbn; lia|]. intros [|k] w' Hk; cbn [nth_error] in Hk.
    + inversion Hk; subst. rewrite Nat.add_0_r. split; [lia|]. split; [reflexivity|]. exists w. split; reflexivity.
    + destruct (N _ _ Hk) as (A & B & C). replace (i + S k)%nat with (S i + k)%nat by lia. auto.
Qed.
Lemma retimed_exists ss g : forall ws i, (i + length ws <= S (length ss))%nat -> exists l, retime_r double64 ss g i ws = Some l.
Proof.
  induction ws as [|w ws IH]; intros i H; cbn [retime_r]; [eauto|]. cbn [length] in H.
  unfold cumulative_time_r. destruct (Nat.ltb_spec (length ss) i); [lia|].
  destruct (IH (S i) ltac:(lia)) as [l ->]. eauto.
Qed.

Lemma fold_back_mono (l : list segment) : forall a b, a <= b ->
  fold_left (fun acc s => double64 (acc + s_time s)) l a <= fold_left (fun acc s => double64 (acc + s_time s)) l b.
Proof. induction l as [|s l IH]; intros a b H; cbn; [exact H|]. apply IH, double64_le. lra. Qed.
Lemma firstn_S (A : Type) (l : list A) : forall i x, nth_error l i = Some x -> firstn (S i) l = firstn i l ++ [x].
Proof.
  induction l as [|a l IH]; intros [|i] x H; try discriminate.
  - inversion H; reflexivity.
  - cbn [firstn app]. f_equal. apply IH. exact H.
Qed.
Lemma back_S ss i : durations_ok ss -> back ss i <= back ss (S i).
Proof.
  intros HF. destruct (nth_error ss i) as [s|] eqn:E.
  - unfold back. rewrite (firstn_S _ _ _ _ E), rev_app_distr. cbn [rev app fold_left].
    apply fold_back_mono. unfold durations_ok in HF. rewrite Forall_forall in HF.
    destruct (HF s (nth_error_In _ _ E)) as [D P]. rewrite Rplus_0_l, double64_id by auto. lra.
  - apply nth_error_None in E. unfold back. rewrite !firstn_all2 by lia. lra.
Qed.
Lemma back_mono ss i j : durations_ok ss -> (i <= j)%nat -> back ss i <= back ss j.
Proof. intros HF H. induction H; [lra|]. eapply Rle_trans; [eassumption|]. now apply back_S. Qed.

Lemma lsum_rev l : lsum (rev l) = lsum l.
Proof. induction l as [|x l IH]; cbn; [reflexivity|]. rewrite lsum_app, IH. cbn. lra. Qed.

Lemma csum_back l : forall acc, csum acc (length l) l = fold_left (fun a s => double64 (a + s_time s)) l acc.
Proof. induction l as [|s l IH]; intros acc; cbn; auto. Qed.
Lemma back_err ss i : durations_ok ss -> (i <= length ss)%nat ->
  let X := lsum (map s_time (firstn i ss)) in Rabs (back ss i - X) <= growth i * X /\ is_double (back ss i) /\ 0 <= X /\ 0 <= back ss i.
Proof.
  intros HF Hi X.
  assert (HR : Forall good (rev (firstn i ss))).
  { apply Forall_rev. apply Forall_forall. intros s Hs. unfold durations_ok in HF. rewrite Forall_forall in HF. apply HF.
    rewrite <- (firstn_skipn i ss). apply in_or_app. auto. }
  assert (LR : length (rev (firstn i ss)) = i) by (rewrite rev_length, firstn_length; lia).
  pose proof (csum_err _ HR i ltac:(lia)) as Q.
  pose proof (csum_double (rev (firstn i ss)) i 0 double_0) as D.
  pose proof (csum_nonneg _ HR i 0 double_0 (Rle_refl _)) as P.
  pose proof (xsum_mono _ HR i i (le_n _)) as [P' _].
  assert (C : csum 0 i (rev (firstn i ss)) = back ss i) by (rewrite <- LR at 1; apply csum_back).
  assert (Y : xsum i (rev (firstn i ss)) = X).
  { rewrite <- LR at 1. rewrite xsum_all, map_rev, lsum_rev. reflexivity. }
  rewrite C in *. rewrite Y in *. auto.
Qed.
Lemma total_mono ss i : durations_ok ss -> lsum (map s_time (firstn i ss)) <= lsum (map s_time ss).
Proof.
  intros HF. rewrite <- (firstn_skipn i ss) at 2. rewrite map_app, lsum_app.
  assert (0 <= lsum (map s_time (skipn i ss))); [|lra].
  apply lsum_nonneg, Forall_map. apply Forall_forall. intros s Hs. unfold durations_ok in HF. rewrite Forall_forall in HF.
  left. apply HF. rewrite <- (firstn_skipn i ss). apply in_or_app. auto.
Qed.

(* ------------------------------------------------------------------ *)
(** ** Theorems *)

(** C92: there is a time for every waypoint of a plan with one waypoint more
    than segments, the first is the start time itself, and they never decrease. *)
Theorem C92_monotone : forall ss gtl ws, durations_ok ss -> is_double gtl -> length ws = S (length ss) ->
  exists l, retime_r double64 ss gtl 0 ws = Some l /\ map w_name l = map w_name ws /\
    (forall w, nth_error l 0 = Some w -> w_time w = gtl) /\
    (forall i j wi wj, (i <= j)%nat -> nth_error l i = Some wi -> nth_error l j = Some wj -> w_time wi <= w_time wj).
Proof.
  intros ss g ws HF Dg HL. destruct (retimed_exists ss g ws 0 ltac:(lia)) as [l E]. exists l.
  destruct (retimed_nth _ _ _ _ _ E) as [L N]. split; [exact E|]. split; [|split].
  - apply nth_ext with (d := ""%string) (d' := ""%string); rewrite !map_length; [exact L|].
    intros k Hk. destruct (nth_error l k) as [w|] eqn:Ek; [|apply nth_error_None in Ek; lia].
    destruct (N _ _ Ek) as (_ & _ & w0 & E0 & En).
    rewrite (nth_error_nth _ _ _ (map_nth_error w_name _ _ Ek)), (nth_error_nth _ _ _ (map_nth_error w_name _ _ E0)). exact En.
  - intros w H. destruct (N _ _ H) as (_ & T & _). rewrite T. cbn. rewrite Rplus_0_l. now apply double64_id.
  - intros i j wi wj H Hi Hj. destruct (N _ _ Hi) as (_ & -> & _). destruct (N _ _ Hj) as (_ & -> & _).
    apply double64_le. cbn [Nat.add]. pose proof (back_mono ss i j HF H). lra.
Qed.

(** C92: the k-th time is the start time plus the first k durations, up to
    rounding. *)
Theorem C92_error : forall ss gtl ws l k w, durations_ok ss -> is_double gtl -> (Z.of_nat (length ss) <= 999000)%Z ->
  retime_r double64 ss gtl 0 ws = Some l -> nth_error l k = Some w ->
  Rabs (w_time w - (gtl + lsum (map s_time (firstn k ss)))) <= schedule_error gtl ss.
Proof.
  intros ss g ws l k w HF Dg Hn E Hk. destruct (retimed_nth _ _ _ _ _ E) as [_ N].
  destruct (N _ _ Hk) as (Kn & -> & _). cbn [Nat.add] in *.
  destruct (back_err ss k HF Kn) as (B & Db & X0 & B0). pose proof (total_mono ss k HF) as TM.
  set (X := lsum (map s_time (firstn k ss))) in *. set (T := lsum (map s_time ss)) in *. set (b := back ss k) in *.
  pose proof (double64_plus_err b g Db Dg) as Q. pose proof eps_val as [E0 E1]. pose proof (growth_nonneg k) as G0.
  assert (C : Rabs (b + g) <= (1 + growth k) * X + Rabs g).
  { eapply Rle_trans; [apply Rabs_triang|]. rewrite (Rabs_pos_eq b) by auto. apply Rabs_le_between in B. lra. }
  assert (S1 : growth (S k) <= INR (length ss + 3) * eps).
  { eapply Rle_trans; [apply growth_le; lia|]. apply Rmult_le_compat_r; [lra|]. apply le_INR. lia. }
  replace (double64 (b + g) - (g + X)) with ((double64 (b + g) - (b + g)) + (b - X)) by ring.
  eapply Rle_trans; [apply Rabs_triang|]. unfold schedule_error. rewrite unit_eps.
  assert (eps * Rabs (b + g) <= eps * ((1 + growth k) * X + Rabs g)) by (apply Rmult_le_compat_l; lra).
  pose proof (Rabs_pos g) as Pg.
  assert (S2 : growth (S k) * X <= INR (length ss + 3) * eps * T).
  { apply Rmult_le_compat; auto; apply growth_nonneg. }
  assert (S3 : eps * Rabs g <= INR (length ss + 3) * eps * Rabs g).
  { apply Rmult_le_compat_r; auto. assert (1 <= INR (length ss + 3)) by (change 1 with (INR 1); apply le_INR; lia). nra. }
  rewrite growth_S in S2.
  replace (((1 + eps) * (1 + growth k) - 1) * X) with (eps * ((1 + growth k) * X) + growth k * X) in S2 by ring. fold T. lra.
Qed.

(** C92: so a leg that lasts longer than the errors separates its waypoints. *)
Theorem C92_separated : forall ss gtl ws l k s w w', durations_ok ss -> is_double gtl -> (Z.of_nat (length ss) <= 999000)%Z ->
  retime_r double64 ss gtl 0 ws = Some l -> nth_error l k = Some w -> nth_error l (S k) = Some w' ->
  nth_error ss k = Some s -> 2 * schedule_error gtl ss < s_time s -> w_time w < w_time w'.
Proof.
  intros ss g ws l k s w w' HF Dg Hn E Hk Hk' Hs H.
  pose proof (C92_error _ _ _ _ _ _ HF Dg Hn E Hk) as A. pose proof (C92_error _ _ _ _ _ _ HF Dg Hn E Hk') as B.
  rewrite (firstn_S _ _ _ _ Hs), map_app, lsum_app in B. cbn [map lsum] in B.
  apply Rabs_le_between in A. apply Rabs_le_between in B. lra.
Qed.

(** C92: the time of the last waypoint against getMaxTime: equal with one or two
    segments, and otherwise equal up to rounding. *)
Theorem C92_last : forall ss tr gtl ws l w, built ss tr -> durations_ok ss -> is_double gtl -> (Z.of_nat (length ss) <= 999000)%Z ->
  retime_r double64 ss gtl 0 ws = Some l -> nth_error l (length ss) = Some w ->
  ((length ss <= 2)%nat -> w_time w = end_time_r double64 tr gtl) /\
  Rabs (w_time w - end_time_r double64 tr gtl) <= 2 * schedule_error gtl ss.
Proof.
  intros ss tr g ws l w B HF Dg Hn E Hk. destruct (built_fields _ _ B) as (Es & Em & Hne & _).
  pose proof (C92_error _ _ _ _ _ _ HF Dg Hn E Hk) as A.
  destruct (retimed_nth _ _ _ _ _ E) as [_ N]. destruct (N _ _ Hk) as (_ & T & _). cbn [Nat.add] in T. split.
  - intros L2. rewrite T. unfold end_time_r. f_equal. f_equal. rewrite Em. unfold back. rewrite firstn_all.
    destruct ss as [|s1 [|s2 [|s3 ss]]]; cbn in L2; try lia; cbn [rev app fold_left]; unfold dadd; try reflexivity.
    unfold durations_ok in HF. inversion HF as [|? ? [D1 _] HF']; subst. inversion HF' as [|? ? [D2 _] _]; subst.
    rewrite !Rplus_0_l, (double64_id _ D1), (double64_id _ D2). f_equal. lra.
  - rewrite firstn_all in A.
    assert (HG : Forall good ss) by exact HF.
    pose proof (csum_err ss HG (length ss) (le_n _)) as C. rewrite csum_fold, xsum_all, <- Em in C.
    assert (Dm : is_double (t_max tr)).
    { rewrite Em, <- csum_fold. apply csum_double, double_0. }
    assert (P0 : 0 <= lsum (map s_time ss)).
    { apply lsum_nonneg, Forall_map. eapply Forall_impl; [|exact HF]. cbn. intros; lra. }
    set (X := lsum (map s_time ss)) in *. set (m := t_max tr) in *. set (n := length ss) in *.
    pose proof (double64_plus_err m g Dm Dg) as Q. pose proof eps_val as [E0 E1]. pose proof (growth_nonneg n) as G0.
    pose proof (Rabs_pos g) as Pg.
    assert (C2 : Rabs (m + g) <= (1 + growth n) * X + Rabs g).
    { eapply Rle_trans; [apply Rabs_triang|]. apply Rplus_le_compat_r.
      replace m with (X + (m - X)) by ring. eapply Rle_trans; [apply Rabs_triang|]. rewrite (Rabs_pos_eq X) by auto. lra. }
    assert (S1 : growth (S n) <= INR (n + 3) * eps).
    { eapply Rle_trans; [apply growth_le; lia|]. apply Rmult_le_compat_r; [lra|]. apply le_INR. lia. }
    assert (S2 : growth (S n) * X <= INR (n + 3) * eps * X) by (apply Rmult_le_compat_r; auto).
    assert (S3 : eps * Rabs g <= INR (n + 3) * eps * Rabs g).
    { apply Rmult_le_compat_r; auto. assert (1 <= INR (n + 3)) by (change 1 with (INR 1); apply le_INR; lia). nra. }
    assert (eps * Rabs (m + g) <= eps * ((1 + growth n) * X + Rabs g)) by (apply Rmult_le_compat_l; lra).
    rewrite growth_S in S2.
    replace (((1 + eps) * (1 + growth n) - 1) * X) with (eps * ((1 + growth n) * X) + growth n * X) in S2 by ring.
    assert (Z : Rabs (end_time_r double64 tr g - (g + X)) <= schedule_error g ss).
    { unfold end_time_r. fold m. replace (double64 (m + g) - (g + X)) with ((double64 (m + g) - (m + g)) + (m - X)) by ring.
      eapply Rle_trans; [apply Rabs_triang|]. unfold schedule_error. rewrite unit_eps. fold n X. lra. }
    apply Rabs_le_between in A. apply Rabs_le_between in Z. apply Rabs_le. lra.
Qed.

(** C92: at the published time of the k-th waypoint, evaluation returns what the
    segments describe exactly at their k-th joint, up to rounding.  L bounds the next
    derivative, E the rounding errors of the polynomials, as in C89. *)
Theorem C92_passes : forall ss tr exact gtl ws l k w d i L E,
  built ss tr -> set_segments ss = Some exact ->
  Forall seg_wf ss -> durations_ok ss -> is_double gtl -> (Z.of_nat (length ss) <= 999000)%Z ->
  joined exact d -> (i < t_D exact)%nat -> (d < t_N exact)%nat -> (t_N exact <= 22)%nat ->
  (forall s p, In s ss -> nth_error (s_polys s) i = Some p ->
     forall x, - (3 * time_error ss) <= x <= s_time s + 3 * time_error ss -> Rabs (Derive_n (pval p) (S d) x) <= L) ->
  (forall s p, In s ss -> nth_error (s_polys s) i = Some p -> rounding p d (s_time s + 3 * time_error ss) <= E) ->
  retime_r double64 ss gtl 0 ws = Some l -> nth_error l k = Some w ->
  exists v, traj_evaluate_r double64 tr (local_time_r double64 tr gtl (w_time w)) d = Some v /\ length v = t_D exact /\
    Rabs (nth i v 0 - comp exact d i (start_of exact k)) <= 7 * schedule_error gtl ss * L + E.
Proof.
  intros ss tr ex g ws l k w d i L E B X HW HF Dg Hn HJ Hi Hd HN HL HE ER Hk.
  destruct (built_fields _ _ B) as (Es & Em & Hne & _). destruct (set_segments_wf ss ex HW X) as (Wx & Sx & _).
  pose proof (C92_error _ _ _ _ _ _ HF Dg Hn ER Hk) as A.
  destruct (retimed_nth _ _ _ _ _ ER) as [_ NT]. destruct (NT _ _ Hk) as (Kn & TW & _). cbn [Nat.add] in Kn.
  assert (Dw : is_double (w_time w)) by (rewrite TW; apply double64_double).
  pose proof (total_mono ss k HF) as TM.
  destruct (back_err ss k HF Kn) as (_ & _ & X0 & _).
  assert (ST : start_of ex k = lsum (map s_time (firstn k ss))) by (unfold start_of; now rewrite Sx).
  rewrite <- ST in *. set (x := start_of ex k) in *. set (T := lsum (map s_time ss)) in *.
  pose proof (csum_err ss HF (length ss) (le_n _)) as C. rewrite csum_fold, xsum_all, <- Em in C. fold T in C.
  assert (Dm : is_double (t_max tr)). { rewrite Em, <- csum_fold. apply csum_double, double_0. }
  assert (M0 : 0 <= t_max tr). { rewrite Em, <- csum_fold. apply csum_nonneg; auto using double_0; lra. }
  pose proof eps_val as [E0 E1]. set (se := schedule_error g ss) in *. set (te := time_error ss) in *.
  assert (N3 : 3 <= INR (length ss + 3)).
  { replace 3 with (INR 3) by (rewrite INR_IZR_INZ; reflexivity). apply le_INR. lia. }
  assert (TS : te <= se).
  { unfold te, se, time_error, schedule_error. rewrite unit_eps. fold T. apply Rmult_le_compat_l; [nra|].
    pose proof (Rabs_pos g). lra. }
  assert (ET : 3 * (eps * T) <= te).
  { unfold te, time_error. rewrite unit_eps. fold T. rewrite <- (Rmult_assoc 3 eps T). apply Rmult_le_compat_r; [lra|].
    apply Rmult_le_compat_r; lra. }
  assert (CT : Rabs (t_max tr - T) <= te).
  { eapply Rle_trans; [exact C|]. unfold te, time_error. rewrite unit_eps. fold T. apply Rmult_le_compat_r; [lra|].
    eapply Rle_trans; [apply growth_le; lia|]. apply Rmult_le_compat_r; [lra|]. apply le_INR. lia. }
  assert (te0 : 0 <= te). { eapply Rle_trans; [|exact ET]. assert (0 <= eps * T) by (apply Rmult_le_pos; lra). lra. }
  pose proof (minus_err (w_time w) g Dw Dg) as Q. set (y := double64 (w_time w - g)) in *.
  apply Rabs_le_between in A. apply Rabs_le_between in CT.
  assert (QY : Rabs (w_time w - g) <= T + se) by (apply Rabs_le; lra).
  assert (QE : eps * Rabs (w_time w - g) <= se).
  { eapply Rle_trans; [apply Rmult_le_compat_l; [lra|exact QY]|]. assert (eps * se <= / 3 * se) by (apply Rmult_le_compat_r; lra). lra. }
  apply Rabs_le_between in Q.
  set (t := local_time_r double64 tr g (w_time w)) in *.
  assert (HT : is_double t /\ 0 <= t <= t_max tr /\ Rabs (t - x) <= 3 * se).
  { unfold t, local_time_r. cbv zeta. fold y. set (c := if Rltb y 0 then 0 else y).
    assert (HC : is_double c /\ 0 <= c /\ - (2 * se) <= c - x <= 2 * se).
    { unfold c. rcase; [split; [apply double_0|lra]|split; [apply double64_double|lra]]. }
    clearbody c. destruct HC as (C1 & C2 & C3). rcase.
    - split; [exact Dm|]. split; [lra|]. apply Rabs_le. lra.
    - split; [exact C1|]. split; [lra|]. apply Rabs_le. lra. }
  destruct HT as (Dt & Ht & Hx).
  destruct (C89_trajectory ss tr ex d i L E B X HW HF Hn HJ Hi Hd HN HL HE t Dt Ht) as (v & Ev & Lv & Bv).
  exists v. split; [exact Ev|]. split; [exact Lv|].
  assert (Pos : positive_times ex).
  { unfold positive_times. rewrite Sx. eapply Forall_impl; [|exact HF]. cbn. intros; lra. }
  assert (Hne' : t_segs ex <> []) by (rewrite Sx; exact Hne).
  assert (tm : t_max ex = T). { destruct Wx as [_ Wm]. now rewrite Wm, Sx. }
  set (t' := Rmin t (t_max ex)) in *.
  assert (Ht' : 0 <= t' <= T /\ Rabs (t' - x) <= 3 * se).
  { apply Rabs_le_between in Hx. split; [|apply Rabs_le]; unfold t', Rmin; destruct (Rle_dec t (t_max ex)); lra. }
  destruct Ht' as [T1 T2].
  assert (LIP : Rabs (comp ex d i t' - comp ex d i x) <= 3 * se * L).
  { pose proof (joined_joined_segs ex d i Wx Hi HJ) as HJ'.
    rewrite !comp_glued by (auto; lra).
    assert (SL : slope (t_segs ex) i d 0 L).
    { intros q Hq z Hz. rewrite Sx in Hq. rewrite poly_evaluate_Derive_n. destruct Wx as [Wf _].
      rewrite Sx, Forall_forall in Wf. destruct (Wf q Hq) as ((LPq & _) & SDq & _).
      apply (HL q (seg_poly q i) Hq); [unfold seg_poly; apply nth_error_nth'; lia|]. fold te. lra. }
    assert (L0 : 0 <= L).
    { rewrite Sx in SL. destruct ss as [|s0 ss']; [congruence|]. eapply Rle_trans; [apply Rabs_pos|apply (SL s0) with (x := 0); [now left|]].
      inversion HF; subst. lra. }
    assert (TX : lsum (map s_time (t_segs ex)) = T) by (now rewrite Sx).
    apply Rabs_le_between in T2.
    destruct (Rle_dec x t') as [O|O].
    - eapply Rle_trans; [apply (glued_lipschitz (t_segs ex) i d 0 L)|]; auto; try lra.
      rewrite (Rmult_comm L). apply Rmult_le_compat_r; lra.
    - rewrite Rabs_minus_sym. eapply Rle_trans; [apply (glued_lipschitz (t_segs ex) i d 0 L)|]; auto; try lra.
      rewrite (Rmult_comm L). apply Rmult_le_compat_r; lra. }
  assert (L0 : 0 <= L).
  { destruct ss as [|s0 ss']; [congruence|].
    assert (H0 : In s0 (s0 :: ss')) by now left.
    destruct Wx as [Wf _]. rewrite Sx, Forall_forall in Wf. destruct (Wf s0 H0) as ((LPq & _) & SDq & _).
    eapply Rle_trans; [apply Rabs_pos|apply (HL s0 (seg_poly s0 i) H0) with (x := 0)].
    - unfold seg_poly. apply nth_error_nth'. lia.
    - inversion HF; subst. fold te. lra. }
  replace (nth i v 0 - comp ex d i x) with ((nth i v 0 - comp ex d i t') + (comp ex d i t' - comp ex d i x)) by ring.
  eapply Rle_trans; [apply Rabs_triang|]. fold te in Bv.
  assert (te * L <= se * L) by (apply Rmult_le_compat_r; lra). lra.
Qed.

(** C92 (negative): the last waypoint is reached exactly at getMaxTime.  The
    durations are added in opposite orders, and the last waypoint can lie after
    the end of the trajectory. *)
Definition hop (t : R) : segment := mkSeg t 2 1 [[0; 0]].
Theorem C92_last_is_end_refuted : ~ forall ss tr gtl ws l w,
  built ss tr -> durations_ok ss -> is_double gtl -> length ws = S (length ss) ->
  retime_r double64 ss gtl 0 ws = Some l -> nth_error l (length ss) = Some w ->
  w_time w <= end_time_r double64 tr gtl.
Proof.
  intros H. set (u := / 4503599627370496). set (a := 1 / 8 + 3 / 8 * u).
  assert (U : bpow radix2 (0 - 52) = u) by reflexivity.
  assert (u0 : 0 < u <= / 1000000) by (unfold u; lra).
  assert (D1 : is_double 1) by (apply (double_int 1); reflexivity).
  assert (U55 : bpow radix2 (- 55) = u / 8).
  { change (bpow radix2 (-55)) with (/ 36028797018963968). unfold u. lra. }
  assert (U54 : bpow radix2 (- 54) = u / 4).
  { change (bpow radix2 (-54)) with (/ 18014398509481984). unfold u. lra. }
  assert (Da : is_double a).
  { replace a with (IZR 4503599627370499 * bpow radix2 (- 55)) by (rewrite U55; unfold a, u; lra).
    apply (double_small_multiple 4503599627370499 55); lia. }
  assert (Daa : double64 (a + a) = 2 * a).
  { replace (a + a) with (2 * a) by ring. apply double64_id.
    replace (2 * a) with (IZR 4503599627370499 * bpow radix2 (- 54)) by (rewrite U54; unfold a, u; lra).
    apply (double_small_multiple 4503599627370499 54); lia. }
  assert (P0 : bpow radix2 0 = 1) by reflexivity.
  assert (F1 : double64 (1 + a) = 9 / 8).
  { rewrite (double64_near (1 + a) 0 5066549580791808); rewrite ?U, ?P0; try lia; [unfold u; lra|unfold a; lra|].
    replace (IZR 5066549580791808 * u - (1 + a)) with (- (3 / 8 * u)) by (unfold a, u; lra).
    rewrite Rabs_Ropp, Rabs_pos_eq; lra. }
  assert (F2 : double64 (9 / 8 + a) = 5 / 4).
  { rewrite (double64_near (9 / 8 + a) 0 5629499534213120); rewrite ?U, ?P0; try lia; [unfold u; lra|unfold a; lra|].
    replace (IZR 5629499534213120 * u - (9 / 8 + a)) with (- (3 / 8 * u)) by (unfold a, u; lra).
    rewrite Rabs_Ropp, Rabs_pos_eq; lra. }
  assert (F3 : double64 (2 * a + 1) = 5 / 4 + u).
  { rewrite (double64_near (2 * a + 1) 0 5629499534213121); rewrite ?U, ?P0; try lia; [unfold u; lra|unfold a; lra|].
    replace (IZR 5629499534213121 * u - (2 * a + 1)) with (1 / 4 * u) by (unfold a, u; lra).
    rewrite Rabs_pos_eq; lra. }
  pose (w0 := wp_default v3_zero v3_zero).
  assert (BB : built [hop 1; hop a; hop a] (mkTraj 1 2 (5 / 4) [hop 1; hop a; hop a])).
  { unfold built, set_segments_gen, add_segments_gen, hop. cbn.
    rewrite Rplus_0_l, (double64_id 1 D1), F1, F2. reflexivity. }
  assert (DD : durations_ok [hop 1; hop a; hop a]).
  { repeat constructor; cbn; auto; try lra; unfold a; lra. }
  destruct (retimed_exists [hop 1; hop a; hop a] 0 [w0; w0; w0; w0] 0 ltac:(cbn; lia)) as [l E].
  destruct (retimed_nth _ _ _ _ _ E) as [L N].
  destruct (nth_error l 3) as [w|] eqn:Ew; [|apply nth_error_None in Ew; cbn in L; lia].
  specialize (H _ _ 0 [w0; w0; w0; w0] l w BB DD double_0 eq_refl E Ew).
  destruct (N _ _ Ew) as (_ & T & _). rewrite T in H. clear - H Daa F3 D1 Da u0.
  unfold end_time_r, back in H. cbn [firstn rev app fold_left Nat.add s_time hop t_max] in H.
  rewrite Rplus_0_l, (double64_id a Da), Daa, F3, !Rplus_0_r in H. rewrite <- F3 in H at 1.
  rewrite (double64_id (double64 _)) in H by apply double64_double. rewrite F3 in H.
  assert (D54 : double64 (5 / 4) = 5 / 4).
  { apply double64_id. replace (5 / 4) with (IZR 5 * bpow radix2 (- 2)) by (cbn; lra). apply (double_small_multiple 5 2); lia. }
  rewrite D54 in H. lra.
Qed.

(** Two legs of one second, started at a Unix time: the waypoints are a second
    apart up to two microseconds, in order, and the last is the end. *)
Example C92_example : exists tr l w0 w1 w2, let w := wp_default v3_zero v3_zero in
  built walk tr /\ durations_ok walk /\ is_double 1700000000 /\
  retime_r double64 walk 1700000000 0 [w; w; w] = Some l /\
  nth_error l 0 = Some w0 /\ nth_error l 1 = Some w1 /\ nth_error l 2 = Some w2 /\
  w_time w0 = 1700000000 /\ w_time w0 < w_time w1 < w_time w2 /\
  schedule_error 1700000000 walk <= / 10 ^ 6 /\ w_time w2 = end_time_r double64 tr 1700000000.
Proof.
  pose proof eps_val as [E0 E1].
  assert (D1 : double64 1 = 1) by (apply double64_id, (double_int 1); reflexivity).
  assert (D2 : double64 2 = 2) by (apply double64_id, (double_int 2); reflexivity).
  assert (BB : built walk (mkTraj 1 2 2 walk)).
  { unfold built, set_segments_gen, add_segments_gen, walk. cbn. rewrite Rplus_0_l, D1.
    replace (1 + 1) with 2 by lra. rewrite D2. reflexivity. }
  assert (DD : durations_ok walk) by (repeat constructor; cbn; try lra; apply (double_int 1); reflexivity).
  assert (DG : is_double 1700000000) by (apply (double_int 1700000000); reflexivity).
  assert (SE : schedule_error 1700000000 walk <= / 1000000).
  { unfold schedule_error, walk. rewrite unit_eps. cbn [length Nat.add map s_time lsum]. rewrite INR_IZR_INZ, Rabs_pos_eq by lra.
    cbn [Z.of_nat Pos.of_succ_nat Pos.succ]. lra. }
  set (w := wp_default v3_zero v3_zero).
  destruct (C92_monotone walk 1700000000 [w; w; w] DD DG eq_refl) as (l & E & NM & F & _).
  pose proof (f_equal (@length _) NM) as L. rewrite !map_length in L. cbn in L.
  destruct (nth_error l 0) as [w0|] eqn:N0; [|apply nth_error_None in N0; lia].
  destruct (nth_error l 1) as [w1|] eqn:N1; [|apply nth_error_None in N1; lia].
  destruct (nth_error l 2) as [w2|] eqn:N2; [|apply nth_error_None in N2; lia].
  exists (mkTraj 1 2 2 walk), l, w0, w1, w2. cbv zeta.
  refine (conj BB (conj DD (conj DG (conj E (conj N0 (conj N1 (conj N2 (conj (F _ eq_refl) (conj (conj _ _) (conj _ _)))))))))).
  - eapply (C92_separated walk 1700000000 _ l 0); eauto; [cbn; lia|reflexivity|cbn [s_time]; lra].
  - eapply (C92_separated walk 1700000000 _ l 1); eauto; [cbn; lia|reflexivity|cbn [s_time]; lra].
  - replace (10 ^ 6) with 1000000 by (rewrite pow_IZR; reflexivity). exact SE.
  - apply (C92_last walk _ _ [w; w; w] l w2 BB DD DG); auto; cbn; lia.
Qed.
