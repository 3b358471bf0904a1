(** Property theorems: how far the position reference jumps when a new
    trajectory is swapped in (C69). *)
From Coq Require Import Reals Lra Lia List Bool ZArith Arith.
From Coquelicot Require Import Coquelicot.
From Verif Require Import Base PolyModel PolySpec VertexModel TrajModel TrajSpec TrajProofs RangeProofs PolyProofs
  WaypointModel WaypointProofs Names DynModel DynSpec DynProofs DynFrame DynTrace DynQueue DynMore EvalProofs StopAndGo
  DynScenario PropertiesDyn PropertiesReq PropertiesEval PropertiesLife PropertiesLife2 PropertiesLife3
  LinAlg SpeedProofs PropertiesSpeed PropertiesTorn.
Import List ListNotations.
Local Open Scope R_scope.
Set Bullet Behavior "Strict Subproofs".

(** ** Specification *)
(** The point of a trajectory at time x; before its start and after its end, its
    first and last point. *)
Definition position (tr : trajectory) (x : R) : V3 :=
  let c i := comp tr 0 i (Rmax 0 (Rmin x (t_max tr))) in mkV3 (c 0%nat) (c 1%nat) (c 2%nat).
(** Euclidean distance. *)
Definition gap (p q : V3) : R :=
  sqrt ((vx p - vx q) * (vx p - vx q) + (vy p - vy q) * (vy p - vy q) + (vz p - vz q) * (vz p - vz q)).
(** No waypoint with a name has been moved since the plan was published. *)
Definition unmodified (ws : list waypoint) : Prop := forall w, In w ws -> w_name w <> no_name -> w_mods w = [].

(** ** Distances *)
Lemma gap_nrm p q : gap p q = nrm 3 (fun i => v3_nth i p - v3_nth i q).
Proof. unfold gap, nrm, dot. f_equal. cbn [rsum v3_nth]. ring. Qed.
Lemma nrm_plus D x y : nrm D (fun i => x i + y i) <= nrm D x + nrm D y.
Proof.
  pose proof (nrm_nonneg D x) as X. pose proof (nrm_nonneg D y) as Y. pose proof (cauchy_schwarz D x y) as C.
  pose proof (nrm_sqr D x) as SX. pose proof (nrm_sqr D y) as SY.
  assert (E : dot D (fun i => x i + y i) (fun i => x i + y i) = dot D x x + 2 * dot D x y + dot D y y).
  { unfold dot. rewrite <- rsum_scal, <- !rsum_plus. apply rsum_ext. intros. ring. }
  unfold nrm at 1. rewrite E, <- (sqrt_square (nrm D x + nrm D y)) by lra. apply sqrt_le_1_alt. nra.
Qed.
Lemma gap_triangle p q r : gap p r <= gap p q + gap q r.
Proof.
  rewrite !gap_nrm. eapply Rle_trans; [|apply nrm_plus]. apply Req_le. apply nrm_ext. intros. ring.
Qed.
Lemma gap_sym p q : gap p q = gap q p.
Proof. unfold gap. f_equal. ring. Qed.
Lemma gap_same p : gap p p = 0.
Proof. unfold gap. rewrite <- sqrt_0. f_equal. ring. Qed.
Lemma gap_nonneg p q : 0 <= gap p q. Proof. apply sqrt_pos. Qed.

(** ** A trajectory with a bounded speed *)
Section Bounded.
Variables (tr : trajectory) (v : R).
Hypothesis G : good_traj tr.
Hypothesis J : joined tr 1.
Hypothesis B : respects tr v.
Let at_ (x : R) : V3 := mkV3 (comp tr 0 0 x) (comp tr 0 1 x) (comp tr 0 2 x).

Lemma speed_nonneg : 0 <= v.
Proof.
  destruct G as (W & P & D & N). destruct (t_segs tr) as [|s l] eqn:E; [congruence|].
  assert (Hs : nth_error (t_segs tr) 0 = Some s) by (rewrite E; reflexivity).
  eapply Rle_trans; [apply (nrm_nonneg (t_D tr))|apply (curve_bound tr 0 s W P Hs v J B 0)].
  pose proof (seg_pos tr 0 s P Hs). lra.
Qed.
Lemma within_segment k s a b : nth_error (t_segs tr) k = Some s -> start_of tr k <= a -> a <= b -> b <= start_of tr (S k) ->
  gap (at_ b) (at_ a) <= v * (b - a).
Proof.
  intros Hs H1 H2 H3. destruct G as (W & P & D & N). rewrite (start_of_S _ _ _ Hs) in H3.
  destruct (Req_dec a b) as [->|Hn]; [rewrite gap_same; lra|].
  set (x := a - start_of tr k). set (y := b - start_of tr k).
  assert (EA : forall i, (i < 3)%nat -> v3_nth i (at_ a) = pval (nth i (s_polys s) []) (0 + x)).
  { intros i Hi. transitivity (comp tr 0 i a); [destruct i as [|[|[|i]]]; try reflexivity; lia|]. unfold comp.
    replace a with (start_of tr k + x) by (unfold x; ring). rewrite (eval_closed tr k s W P Hs 1 0 x J) by (try lia; unfold x; lra).
    rewrite (seg_nth0 tr k s W Hs) by (rewrite D; auto). f_equal. unfold x. ring. }
  assert (EB : forall i, (i < 3)%nat -> v3_nth i (at_ b) = pval (nth i (s_polys s) []) ((b - a) + x)).
  { intros i Hi. transitivity (comp tr 0 i b); [destruct i as [|[|[|i]]]; try reflexivity; lia|]. unfold comp.
    replace b with (start_of tr k + y) at 1 by (unfold y; ring).
    rewrite (eval_closed tr k s W P Hs 1 0 y J) by (try lia; unfold y; lra).
    rewrite (seg_nth0 tr k s W Hs) by (rewrite D; auto). f_equal. unfold x, y. ring. }
  rewrite gap_nrm.
  rewrite (nrm_ext 3 _ (fun i => pval (nth i (s_polys s) []) ((b - a) + x) - pval (nth i (s_polys s) []) (0 + x)))
    by (intros; rewrite EA, EB by auto; reflexivity).
  apply (time_needed 3 (fun c t => pval (nth c (s_polys s) []) (t + x)) (fun c t => pval (pderiv (nth c (s_polys s) [])) (t + x))); [lra| |].
  - intros c t. evar_last.
    + apply (is_derive_comp (pval (nth c (s_polys s) [])) (fun t => t + x)); [apply is_derive_pval|].
      apply (is_derive_plus (fun t => t) (fun _ => x)); [apply is_derive_id|apply (is_derive_const (V := R_NormedModule))].
    + unfold scal, plus, one, zero. cbn. unfold mult. cbn. ring.
  - intros t Ht. pose proof (curve_bound tr k s W P Hs v J B (t + x)) as C. rewrite D in C. apply C. unfold x. lra.
Qed.
Lemma lipschitz_upto k : (k <= length (t_segs tr))%nat -> forall a b, 0 <= a -> a <= b -> b <= start_of tr k ->
  gap (at_ b) (at_ a) <= v * (b - a).
Proof.
  induction k as [|k IH]; intros Hk a b Ha Hab Hb.
  - assert (E0 : start_of tr 0 = 0) by reflexivity. replace b with a by lra. rewrite gap_same. lra.
  - destruct (nth_error (t_segs tr) k) as [s|] eqn:Hs; [|apply nth_error_None in Hs; lia].
    destruct (Rle_dec b (start_of tr k)) as [H|H]; [apply IH; auto; lia|].
    destruct (Rle_dec (start_of tr k) a) as [H'|H']; [eapply within_segment; eauto|].
    eapply Rle_trans; [apply (gap_triangle _ (at_ (start_of tr k)))|].
    pose proof (within_segment k s (start_of tr k) b Hs) as X.
    pose proof (IH ltac:(lia) a (start_of tr k) Ha ltac:(lra) ltac:(lra)) as Y.
    specialize (X ltac:(lra) ltac:(lra) Hb). lra.
Qed.
Lemma position_speed x y : gap (position tr x) (position tr y) <= v * Rabs (x - y).
Proof.
  pose proof speed_nonneg as V. pose proof (good_max _ G) as M.
  assert (EM : start_of tr (length (t_segs tr)) = t_max tr) by (apply start_of_all; apply G).
  assert (H : forall x y, x <= y -> gap (position tr y) (position tr x) <= v * (y - x)).
  { clear x y. intros x y Hxy.
    pose proof (lipschitz_upto (length (t_segs tr)) ltac:(lia) (Rmax 0 (Rmin x (t_max tr))) (Rmax 0 (Rmin y (t_max tr)))) as L.
    rewrite EM in L.
    change (position tr y) with (at_ (Rmax 0 (Rmin y (t_max tr)))). change (position tr x) with (at_ (Rmax 0 (Rmin x (t_max tr)))).
    eapply Rle_trans; [apply L|].
    - apply Rmax_l.
    - apply Rle_max_compat_l. unfold Rmin; repeat destruct (Rle_dec _ _); lra.
    - unfold Rmax, Rmin; repeat destruct (Rle_dec _ _); lra.
    - apply Rmult_le_compat_l; [exact V|]. unfold Rmax, Rmin; repeat destruct (Rle_dec _ _); lra. }
  destruct (Rle_dec x y).
  - rewrite gap_sym, Rabs_left1 by lra. replace (- (x - y)) with (y - x) by ring. apply H; auto.
  - rewrite Rabs_right by lra. apply H. lra.
Qed.
End Bounded.

(** ** References without modifications *)
Lemma reference_plain tr ws g l i : unmodified ws -> (i < 3)%nat -> reference tr ws g l 0 i = v3_nth i (position tr l).
Proof.
  intros U Hi. unfold reference. rewrite outside_sum.
  - transitivity (comp tr 0 i (Rmax 0 (Rmin l (t_max tr)))); [rcase; ring|]. destruct i as [|[|[|i]]]; try reflexivity. lia.
  - intros w m j Hw Hn Hm. rewrite (U w Hw Hn) in Hm. destruct Hm.
Qed.
Lemma distance_plain tr ws m q x : unmodified ws -> distance_at tr ws m q x = gap (position tr x) q.
Proof. intros U. unfold distance_at, gap. rewrite !reference_plain by (auto; lia). reflexivity. Qed.
Lemma refs_plain s tr t r : reachable s -> d_traj s = Some tr -> unmodified (dynamic_waypoints s) -> eval_refs t true s = Some r ->
  r_pos r = position tr (t - p_gtl (d_par s) + p_off (d_par s)).
Proof.
  intros HR HT U Hr.
  destruct (C12_references s tr t (0 + p_gtl (d_par s)) HR HT) as (p & v & a & _ & E & H); [unfold min_time; rewrite HT; reflexivity|].
  rewrite E in Hr. inversion Hr; subst r. cbn [r_pos]. apply v3_ext3. intros i Hi. destruct (H i Hi) as (-> & _).
  rewrite reference_plain by auto. f_equal. f_equal. unfold time_compensation. ring.
Qed.

(** ** C69 *)
(** C69: right after a swap the reference at the last evaluated time is one step
    of 0.1f s past the sample of the new trajectory that is nearest to the
    target: the vehicle, or the old reference at that time. *)
Theorem C69_one_step_ahead :
  forall (s s' : state) (new : trajectory),
  reachable s -> step s Poll = Ok s' Swapped -> d_traj s' = Some new ->
  unmodified (dynamic_waypoints s) -> unmodified (dynamic_waypoints s') ->
  exists (q : V3) (k : nat),
    (if d_scratch s then q = d_vehicle s
     else exists old, d_traj s = Some old /\ q = position old (p_local (d_par s) + time_compensation s)) /\
    (k = O \/ INR k * STEP < 3 * d_tc s) /\
    (forall j, j = O \/ INR j * STEP < 3 * d_tc s -> gap (position new (INR k * STEP)) q <= gap (position new (INR j * STEP)) q) /\
    (forall t r, eval_refs t true s' = Some r ->
       r_pos r = position new (INR k * STEP + STEP + (t - p_global (d_par s)))).
Proof.
  intros s s' new HR H HT U U'.
  assert (HR' : reachable s') by (eapply (reachable_step s Poll); eauto; exact Logic.I).
  destruct (C17_nearest s s' new (0 + p_gtl (d_par s')) HR H HT) as (q & k & HQ & EO & HK & HN & _);
    [unfold min_time; rewrite HT; reflexivity|].
  exists q, k. split.
  { destruct (d_scratch s); [exact HQ|]. destruct HQ as (old & E & HQ). exists old. split; [exact E|].
    apply v3_ext3. intros i Hi. rewrite HQ by auto. apply reference_plain; auto. }
  split; [exact HK|]. split.
  { intros j Hj. rewrite <- !(distance_plain new (dynamic_waypoints s) (0 + p_gtl (d_par s'))) by auto. apply HN. exact Hj. }
  intros t r Hr. rewrite (refs_plain s' new t r HR' HT U' Hr). f_equal. unfold time_compensation in EO. rewrite EO. ring.
Qed.

(** The jump, given how far the start of the new trajectory is from the target. *)
Lemma jump_bound s s' new v q0 r :
  reachable s -> step s Poll = Ok s' Swapped -> d_traj s' = Some new ->
  unmodified (dynamic_waypoints s) -> unmodified (dynamic_waypoints s') -> joined new 1 -> respects new v ->
  (if d_scratch s then q0 = d_vehicle s
   else exists old, d_traj s = Some old /\ q0 = position old (p_local (d_par s) + time_compensation s)) ->
  eval_refs (p_global (d_par s)) true s' = Some r ->
  gap (r_pos r) q0 <= gap (position new 0) q0 + v * STEP.
Proof.
  intros HR H HT U U' J B HQ Hr. destruct (C69_one_step_ahead s s' new HR H HT U U') as (q & k & Hq & HK & HN & HE).
  assert (q0 = q).
  { destruct (d_scratch s); [congruence|]. destruct HQ as (o1 & E1 & ->), Hq as (o2 & E2 & ->). congruence. }
  subst q0. rewrite (HE _ _ Hr). pose proof (HN O (or_introl eq_refl)) as X. cbn [INR] in X. rewrite Rmult_0_l in X.
  assert (HR' : reachable s') by (eapply (reachable_step s Poll); eauto; exact Logic.I).
  destruct (i_traj s' (reachable_inv s' HR') new HT) as (G & _).
  eapply Rle_trans; [apply (gap_triangle _ (position new (INR k * STEP)))|].
  pose proof (position_speed new v G J B (INR k * STEP + STEP + (p_global (d_par s) - p_global (d_par s))) (INR k * STEP)) as L.
  replace (INR k * STEP + STEP + (p_global (d_par s) - p_global (d_par s)) - INR k * STEP) with STEP in L by ring.
  rewrite (Rabs_right STEP) in L by (unfold STEP; lra). lra.
Qed.

(** New plans have no modified waypoints, and their trajectory starts at the
    first vertex. *)
Lemma swap_fresh s s' new : inv s -> frinv s -> step s Poll = Ok s' Swapped -> d_traj s' = Some new ->
  unmodified (dynamic_waypoints s') /\ joined new 1 /\
  exists vs, extract_vertices (d_next s) = Some vs /\ meets vs new.
Proof.
  intros I F H HT. destruct (poll_cases _ _ _ I H) as [(_ & A & _)|(tr & EF & ES & _)]; [discriminate|].
  apply swap_fields in ES. destruct ES as (_ & _ & E3 & E4 & _). rewrite HT in E3. inversion E3; subst tr.
  destruct (fr_ready s F new EF) as (vs & EV & _ & HM & HJ). split; [|split].
  - intros w Hw _. unfold dynamic_waypoints in Hw. rewrite E4, map_map in Hw. apply in_map_iff in Hw. destruct Hw as (x & <- & Hx).
    pose proof (fr_next s F) as FN. rewrite Forall_forall in FN. apply (FN x Hx).
  - intros k a b Ha Hb j Hj. eapply HJ; eauto.
  - exists vs. auto.
Qed.
Lemma position_start new vs v rest p : meets vs new -> vs = v :: rest -> get_constraint 0 v = Some (v3_list p) -> good_traj new ->
  position new 0 = p.
Proof.
  intros HM -> HC G. pose proof (HM O v O _ eq_refl HC) as E. pose proof (good_max _ G) as M.
  change (start_of new 0) with 0 in E. apply v3_ext3. intros i Hi.
  transitivity (comp new 0 i (Rmax 0 (Rmin 0 (t_max new)))); [destruct i as [|[|[|i]]]; try reflexivity; lia|].
  replace (Rmax 0 (Rmin 0 (t_max new))) with 0 by (unfold Rmax, Rmin; repeat destruct (Rle_dec _ _); lra).
  unfold comp. rewrite E. now apply v3_list_nth.
Qed.

(** Between swaps the time on the trajectory follows the evaluated time. *)
Definition synced (s : state) : Prop := p_local (d_par s) = p_global (d_par s) - p_gtl (d_par s).
Lemma synced_run s h s' : inv s -> synced s -> run basic_post s h s' -> no_obs Swapped h -> synced s'.
Proof.
  intros I S R. induction R; intros HO; [auto|]. inversion HO; subst. cbn [snd] in *.
  apply IHR; auto; [eapply step_inv; eauto using basic_self|].
  assert (HE : (exists t, e = Eval t) \/ forall t, e <> Eval t) by (destruct e; try (right; discriminate); left; eauto).
  destruct HE as [(t & ->)|HE].
  - cbn [step] in H0. destruct (d_traj s); inversion H0; subst. reflexivity.
  - destruct (clock_step _ _ _ _ I H0 H3 HE) as (A & B & C & D). unfold synced in *. congruence.
Qed.
Lemma launch_no_swap s h s' : inv s -> d_pc s = PParams -> run basic_post s h s' -> d_pc s' = PAsync -> no_obs Launched h ->
  no_obs Swapped h.
Proof.
  intros I HP R HA HL.
  assert (HF : d_fut s = FNone) by (apply inv_next_preparing; auto; rewrite HP; unfold preparing; auto).
  assert (I' : inv s') by (eapply run_inv; eauto using basic_self). pose proof (i_async s' I' HA) as HF'.
  pose proof (run_flight _ _ _ _ basic_self I R) as C. unfold in_flight in C. rewrite HF, HF' in C.
  assert (HL1 : count_obs Launched h = O).
  { clear - HL. unfold count_obs. induction HL as [|[e o] l H _ IH]; [auto|]. cbn [filter snd] in *. destruct o; cbn [is_obs]; auto. congruence. }
  assert (HS1 : count_obs Swapped h = O) by lia. clear - HS1. induction h as [|[e o] t IH]; constructor.
  - cbn [snd]. intros ->. rewrite count_cons in HS1. cbn in HS1. lia.
  - apply IH. rewrite count_cons in HS1. destruct (is_obs Swapped o); lia.
Qed.
(** C69: a stitched trajectory.  [tl] is the time evaluated when it was
    launched, [rl] the reference there; [r] is the reference at the last
    evaluated time before the swap, [r'] at the same time after it. *)
Theorem C69_jump_stitched :
  forall (junk : V3) (h0 h1 h2 h3 : list (event * obs)) (s0 s1 s s2 s3 s4 : state) (tl v : R) (o : obs)
         (new : trajectory) (rl r r' : references),
  run full_post (init junk) h0 s0 -> d_traj s0 <> None -> step s0 (Eval tl) = Ok s1 o ->
  run full_post s1 h1 s -> no_obs Swapped h1 -> not_eval h1 -> d_pc s = PParams ->
  run full_post s h2 s2 -> d_pc s2 = PAsync -> no_obs Launched h2 -> not_eval h2 -> d_scratch s2 = false ->
  run full_post s2 h3 s3 -> no_obs Swapped h3 -> step s3 Poll = Ok s4 Swapped -> d_traj s4 = Some new ->
  fresh_calls (h0 ++ h1 ++ h2 ++ h3) -> unmodified (dynamic_waypoints s3) -> respects new v ->
  let t := p_global (d_par s3) in
  eval_refs tl true s = Some rl -> eval_refs t true s3 = Some r -> eval_refs t true s4 = Some r' ->
  gap (r_pos r') (r_pos r) <= gap (r_pos rl) (r_pos r) + v * STEP /\
  forall old v', d_traj s3 = Some old -> respects old v' -> unmodified (dynamic_waypoints s) ->
    gap (r_pos r') (r_pos r) <= v' * Rabs (t - tl) + v * STEP.
Proof.
  intros junk h0 h1 h2 h3 s0 s1 s s2 s3 s4 tl v o new rl r r' R0 T0 HE R1 O1 E1 P R2 A L2 E2 SC R3 O3 HS HT HF U B t Hl Hr Hr'.
  assert (Q0 : reachable s0) by (eapply full_reachable; eauto).
  pose proof (run_mono _ _ _ _ _ full_basic R1) as b1. pose proof (run_mono _ _ _ _ _ full_basic R2) as b2.
  pose proof (run_mono _ _ _ _ _ full_basic R3) as b3.
  assert (Q1 : reachable s1) by (eapply (reachable_step s0 (Eval tl)); eauto).
  assert (Qs : reachable s) by (eapply reachable_run; eauto). assert (Q2 : reachable s2) by (eapply reachable_run; eauto).
  assert (Q3 : reachable s3) by (eapply reachable_run; eauto).
  assert (Q4 : reachable s4) by (eapply (reachable_step s3 Poll); eauto; exact Logic.I).
  assert (RF : run full_post (init junk) (h0 ++ [(Eval tl, o)] ++ h1 ++ h2 ++ h3) s3).
  { eapply run_app; [exact R0|]. eapply run_app; [apply (run_cons _ _ _ _ s1); [exact T0|exact HE|constructor]|].
    eapply run_app; [exact R1|]. eapply run_app; eauto. }
  destruct (fr_run junk _ s3 RF) as [F I3].
  { apply Forall_app in HF. destruct HF as [HF HF']. apply Forall_app. split; [exact HF|]. constructor; [exact Logic.I|exact HF']. }
  destruct (swap_fresh s3 s4 new I3 F HS HT) as (U' & J & vs & EV & HM).
  destruct (i_traj s4 (reachable_inv s4 Q4) new HT) as (G & _).
  assert (O2 : no_obs Swapped h2) by (apply (launch_no_swap s h2 s2); auto; apply reachable_inv; auto).
  destruct (C03_stitched s0 s1 s s2 s3 tl o h1 h2 h3 vs Q0 HE T0 b1 O1 E1 P b2 A L2 E2 SC b3 O3 EV)
    as (p & w & a & x & rest & EL & -> & EC & _).
  assert (EP : position new 0 = r_pos rl).
  { rewrite (position_start new (x :: rest) x rest p HM eq_refl EC G).
    unfold eval_refs in EL, Hl. destruct (d_traj s) as [ts|] eqn:ETs; [|discriminate]. inversion EL. inversion Hl. reflexivity. }
  destruct (kept_run s2 h3 s3 (reachable_inv s2 Q2) b3 O3) as (K1 & K2 & K3 & _).
  destruct (kept_run s h2 s2 (reachable_inv s Qs) b2 O2) as (M1 & M2 & M3 & _).
  assert (SY : synced s3).
  { apply (synced_run s2 h3); auto; [apply reachable_inv; auto|]. apply (synced_run s h2); auto; [apply reachable_inv; auto|].
    apply (synced_run s1 h1); auto; [apply reachable_inv; auto|]. cbn [step] in HE. destruct (d_traj s0); inversion HE; subst. reflexivity. }
  assert (SC3 : d_scratch s3 = false).
  { destruct (fixed_run _ _ _ _ basic_self (reachable_inv s2 Q2) (or_intror (or_introl A)) b3 O3) as [[] _]. congruence. }
  destruct (d_traj s3) as [old|] eqn:ET3; [|unfold eval_refs in Hr; rewrite ET3 in Hr; discriminate].
  assert (ER : r_pos r = position old (p_local (d_par s3) + time_compensation s3)).
  { rewrite (refs_plain s3 old t r Q3 ET3 U Hr). f_equal. unfold time_compensation, t. rewrite SY. reflexivity. }
  pose proof (jump_bound s3 s4 new v (r_pos r) r' Q3 HS HT U U' J B) as X. rewrite SC3, EP in X.
  assert (Y : gap (r_pos r') (r_pos r) <= gap (r_pos rl) (r_pos r) + v * STEP) by (apply X; eauto).
  split; [exact Y|]. intros old' v' EO B' Us. inversion EO; subst old'. eapply Rle_trans; [exact Y|]. apply Rplus_le_compat_r.
  assert (ETs : d_traj s = Some old) by congruence.
  rewrite (refs_plain s old tl rl Qs ETs Us Hl), (refs_plain s3 old t r Q3 ET3 U Hr), K2, K3, M2, M3.
  destruct (i_traj s3 I3 old ET3) as (Go & _).
  assert (Jo : joined old 1).
  { destruct (fr_traj s3 F old ET3) as (vs' & _ & _ & _ & (_ & _ & HJ) & _). intros k y z Hy Hz j Hj. eapply HJ; eauto. }
  eapply Rle_trans; [apply (position_speed old v' Go Jo B')|]. apply Req_le. f_equal. rewrite <- Rabs_Ropp. f_equal. ring.
Qed.

(** C69: a trajectory generated from scratch.  [s] is where the vehicle's
    position is read; [r'] the reference right after the swap. *)
Theorem C69_jump_scratch :
  forall (junk : V3) (h h' : list (event * obs)) (s s1 s2 s3 : state) (o : obs) (new : trajectory) (v : R) (r' : references),
  run full_post (init junk) h s -> d_pc s = PScratch -> step s Back = Ok s1 o ->
  run full_post s1 h' s2 -> no_obs Swapped h' -> step s2 Poll = Ok s3 Swapped -> d_traj s3 = Some new ->
  fresh_calls (h ++ h') -> unmodified (dynamic_waypoints s2) -> respects new v ->
  eval_refs (p_global (d_par s2)) true s3 = Some r' ->
  gap (r_pos r') (d_vehicle s2) <= gap (d_vehicle s) (d_vehicle s2) + v * STEP.
Proof.
  intros junk h h' s s1 s2 s3 o new v r' R0 P HB R1 O1 HS HT HF U B Hr'.
  assert (Q : reachable s) by (eapply full_reachable; eauto).
  pose proof (run_mono _ _ _ _ _ full_basic R1) as b1.
  assert (Q1 : reachable s1) by (eapply (reachable_step s Back); eauto; exact Logic.I).
  assert (Q2 : reachable s2) by (eapply reachable_run; eauto).
  assert (Q3 : reachable s3) by (eapply (reachable_step s2 Poll); eauto; exact Logic.I).
  assert (RF : run full_post (init junk) (h ++ [(Back, o)] ++ h') s2).
  { eapply run_app; [exact R0|]. eapply run_app; [apply (run_cons _ _ _ _ s1); [exact Logic.I|exact HB|constructor]|exact R1]. }
  destruct (fr_run junk _ s2 RF) as [F I2].
  { apply Forall_app in HF. destruct HF as [HF HF']. apply Forall_app. split; [exact HF|]. constructor; [exact Logic.I|exact HF']. }
  destruct (swap_fresh s2 s3 new I2 F HS HT) as (U' & J & vs & EV & HM).
  destruct (i_traj s3 (reachable_inv s3 Q3) new HT) as (G & _).
  destruct (C03_from_scratch s s1 s2 o h' vs Q P HB b1 O1 EV) as (x & rest & -> & EC & _).
  rewrite <- (position_start new (x :: rest) x rest (d_vehicle s) HM eq_refl EC G).
  apply (jump_bound s2 s3 new v); auto.
  assert (SC : d_scratch s2 = true); [|rewrite SC; reflexivity].
  cbn [step] in HB. unfold back_step in HB. rewrite P in HB. inversion HB; subst s1 o.
  destruct (fixed_run _ _ _ _ basic_self (reachable_inv _ Q1) (or_introl eq_refl) b1 O1) as [[] _]. rewrite g_scratch. reflexivity.
Qed.

(** Every trajectory has a greatest speed. *)
Lemma some_speed tr : good_traj tr -> exists v, respects tr v.
Proof.
  intros (W & P & D & N).
  assert (HS : forall s, In s (t_segs tr) -> exists v, forall t, 0 <= t <= s_time s -> vec_norm (seg_deriv s 1 t) <= v).
  { intros s Hs. apply In_nth_error in Hs. destruct Hs as (k & Hk). pose proof (seg_pos tr k s P Hk) as HT.
    set (g := fun c t => pval (pderiv (nth c (s_polys s) [])) t).
    set (f := fun t => dot 3 (fun c => g c t) (fun c => g c t)).
    assert (C : forall t, continuity_pt f t).
    { intros t. unfold f, dot, g. cbn [rsum]. reg; apply derivable_continuous_pt; eexists; apply is_derive_Reals, is_derive_pval. }
    destruct (continuity_ab_maj f 0 (s_time s) ltac:(lra) (fun c _ => C c)) as (m & Hm & _).
    exists (sqrt (f m)). intros t Ht. rewrite (curve_speed tr k s W Hk), D. apply sqrt_le_1_alt. apply Hm. exact Ht. }
  assert (HA : exists v, forall s, In s (t_segs tr) -> forall t, 0 <= t <= s_time s -> vec_norm (seg_deriv s 1 t) <= v).
  { clear - HS. induction (t_segs tr) as [|s l IH]; [exists 0; intros ? []|].
    destruct IH as (v & IH); [intros; apply HS; right; auto|]. destruct (HS s (or_introl eq_refl)) as (v' & H').
    exists (Rmax v v'). intros x [<-|Hx] t Ht.
    - eapply Rle_trans; [apply H'; auto|apply Rmax_r].
    - eapply Rle_trans; [apply IH; eauto|apply Rmax_l]. }
  destruct HA as (v & HA). exists v. intros t vel Ht E.
  destruct (eval_clamped tr t 1 (conj W (conj P (conj D N)))) as (k & s & Hk & HB & EK).
  pose proof (start_of_S _ _ _ Hk) as ES.
  replace (Rmax 0 (Rmin t (t_max tr))) with t in * by (unfold Rmax, Rmin; repeat destruct (Rle_dec _ _); lra).
  rewrite EK in E. inversion E; subst vel. apply (HA s); [eapply nth_error_In; eauto|lra].
Qed.

(** The flight of C68, launched at 0.8 s and swapped in at once. *)
Lemma ready4 : exists s3 s4, run full_post (launched (req (8 / 10))) [(CompSpeed, Quiet); (CompDone tr4 (/ 1000), Quiet)] s3 /\
  step s3 Poll = Ok s4 Swapped /\ step s4 PollEnd = Ok st4 Quiet.
Proof.
  pose proof run4 as R4. apply (run_app_inv _ [(CompSpeed, Quiet); (CompDone tr4 (/ 1000), Quiet)] [(Poll, Swapped); (PollEnd, Quiet)]) in R4.
  destruct R4 as (s3 & R4 & R5). inversion R5 as [|? ? ? s4 ? ? _ H4 R6]; subst. inversion R6 as [|? ? ? s5 ? ? _ H5 R7]; subst.
  inversion R7; subst. exists s3, s4. auto.
Qed.

Lemma at_08 : vx (position tr1 (8 / 10 + STEP)) < 1.
Proof.
  set (x := 8 / 10 + STEP). assert (Hx : 0 < x < 1) by (unfold x, STEP; lra).
  unfold position. cbn [vx]. replace (Rmax 0 (Rmin x (t_max tr1))) with x.
  2: { cbn [t_max tr1 sag go map fst lsum]. unfold Rmax, Rmin; repeat destruct (Rle_dec _ _); lra. }
  assert (Hs : nth_error (t_segs tr1) 0 = Some (go_seg 1 v3_zero v3_zero v3_zero pa)) by reflexivity.
  assert (W : traj_wf tr1) by apply go_wf.
  assert (P : positive_times tr1) by (unfold positive_times; cbn [t_segs tr1 sag go go_segs]; repeat constructor; cbn; lra).
  unfold comp. replace x with (start_of tr1 0 + x) by (change (start_of tr1 0) with 0; ring).
  rewrite (eval_inside tr1 0 _ W P Hs) by (cbn [s_time go_seg]; lra).
  cbn [seg_deriv go_seg s_polys map nth vx vy vz v3_zero pa]. cbn [Derive_n]. unfold go_poly. cbn [pval].
  unfold x, STEP. lra.
Qed.

(** C69: the reference is not continuous: nothing happens between the two
    evaluations at 0.8 s but the swap, and the reference moves by more than 1 m.
    The execution meets the hypotheses of [C69_jump_stitched]. *)
Theorem C69_continuous_refuted :
  exists (h0 h1 h2 h3 : list (event * obs)) (s0 s1 s s2 s3 s4 : state) (tl v : R) (new old : trajectory) (rl r r' : references),
  run full_post (init v3_zero) h0 s0 /\ d_traj s0 <> None /\ step s0 (Eval tl) = Ok s1 Quiet /\
  run full_post s1 h1 s /\ no_obs Swapped h1 /\ not_eval h1 /\ d_pc s = PParams /\
  run full_post s h2 s2 /\ d_pc s2 = PAsync /\ no_obs Launched h2 /\ not_eval h2 /\ d_scratch s2 = false /\
  run full_post s2 h3 s3 /\ no_obs Swapped h3 /\ not_eval h3 /\ step s3 Poll = Ok s4 Swapped /\ d_traj s4 = Some new /\
  fresh_calls (h0 ++ h1 ++ h2 ++ h3) /\ unmodified (dynamic_waypoints s3) /\ unmodified (dynamic_waypoints s) /\
  respects new v /\ d_traj s3 = Some old /\
  eval_refs tl true s = Some rl /\ eval_refs tl true s3 = Some r /\ eval_refs tl true s4 = Some r' /\
  p_global (d_par s3) = tl /\ 1 < gap (r_pos r') (r_pos r).
Proof.
  destruct ready4 as (s3 & s4 & R3 & HS & HE).
  set (s := set_pc PParams (collected (req (8 / 10)))). set (s2 := ready (req (8 / 10))).
  set (b4 := backs [Quiet; Quiet; Quiet; Quiet]).
  set (h3 := [(Back, Launched); (Back, Quiet); (CompSpeed, Quiet); (CompDone tr4 (/ 1000), Quiet)]).
  assert (Rs : run full_post (at1 (8 / 10)) ((Append wc, Quiet) :: b4) s).
  { apply (run_cons _ _ _ _ (req (8 / 10))); [apply fresh_ok|reflexivity|]. apply params_req. lra. }
  assert (R2 : run full_post s b4 s2) by apply async_solo.
  assert (R23 : run full_post s2 h3 s3).
  { apply (run_cons _ _ _ _ (set_pc PClear (set_fut FStarted (ready (req (8 / 10)))))); [exact Logic.I|apply ready_async; reflexivity|].
    apply (run_cons _ _ _ _ (launched (req (8 / 10)))); [exact Logic.I|apply clear_solo|exact R3]. }
  assert (Q0 : reachable st1) by apply st1_reachable.
  assert (Q1 : reachable (at1 (8 / 10))) by (eapply full_reachable, run_at1).
  assert (Qs : reachable s) by (eapply reachable_run; [exact Q1|eapply run_mono; [exact full_basic|exact Rs]]).
  assert (Q2 : reachable s2) by (eapply reachable_run; [exact Qs|eapply run_mono; [exact full_basic|exact R2]]).
  assert (Q3 : reachable s3) by (eapply reachable_run; [exact Q2|eapply run_mono; [exact full_basic|exact R23]]).
  assert (O3 : no_obs Swapped h3) by (unfold h3; repeat (apply Forall_cons; [discriminate|]); apply Forall_nil).
  destruct (fixed_run _ _ _ _ basic_self (reachable_inv s2 Q2) (or_intror (or_introl eq_refl)) (run_mono _ _ _ _ _ full_basic R23) O3) as [FS _].
  assert (ET3 : d_traj s3 = Some tr1).
  { rewrite (g_traj _ _ FS). unfold s2, ready, started. destruct (if can_stitch _ then _ else _); reflexivity. }
  assert (ED3 : d_dyn s3 = dyn1).
  { rewrite (g_dyn _ _ FS). unfold s2, ready, started. destruct (if can_stitch _ then _ else _); reflexivity. }
  assert (N3 : not_eval h3) by (unfold h3; repeat (apply Forall_cons; [discriminate|]); apply Forall_nil).
  assert (EG2 : d_par s2 = d_par (req (8 / 10))).
  { unfold s2, ready, started. destruct (if can_stitch _ then _ else _); reflexivity. }
  destruct (clock_run _ _ _ _ basic_self (reachable_inv s2 Q2) (run_mono _ _ _ _ _ full_basic R23) O3 N3) as (C1 & C2 & C3 & C4).
  rewrite EG2 in C1, C2, C3, C4.
  assert (E4 : d_traj s4 = Some tr4 /\ forall t, eval_refs t true s4 = eval_refs t true st4).
  { destruct (end_cases _ _ _ HE) as (n & _ & X & _). destruct st4_fields as (_ & _ & _ & _ & X4 & _). rewrite X in X4.
    split; [exact X4|]. intros t. rewrite X. reflexivity. }
  assert (U1 : forall ws, ws = map wp_copy dyn1 -> unmodified ws).
  { intros ws -> w Hw _. apply in_map_iff in Hw. destruct Hw as (x & <- & Hx). unfold dyn1 in Hx.
    repeat (destruct Hx as [<-|Hx]; [reflexivity|]). destruct Hx. }
  assert (U3 : unmodified (dynamic_waypoints s3)) by (apply U1; unfold dynamic_waypoints; rewrite ED3; reflexivity).
  assert (Us : unmodified (dynamic_waypoints s)) by (apply U1; reflexivity).
  assert (Q4 : reachable s4) by (eapply (reachable_step s3 Poll); eauto; exact Logic.I).
  destruct (some_speed tr4) as (v & Hv); [apply (i_traj s4 (reachable_inv s4 Q4)); apply E4|].
  destruct now4 as (r' & Er' & Ep').
  assert (ER : exists r, eval_refs (8 / 10) true s3 = Some r) by (unfold eval_refs; rewrite ET3; eauto). destruct ER as (r & Er).
  assert (ERl : exists r, eval_refs (8 / 10) true s = Some r) by (eexists; reflexivity). destruct ERl as (rl & Erl).
  exists trace1, ((Append wc, Quiet) :: b4), b4, h3, st1, (at1 (8 / 10)), s, s2, s3, s4, (8 / 10), v, tr4, tr1, rl, r, r'.
  split; [apply run1|]. split; [discriminate|]. split; [reflexivity|]. split; [exact Rs|].
  split; [unfold b4, backs; cbn [map]; repeat (apply Forall_cons; [discriminate|]); apply Forall_nil|].
  split; [unfold b4, backs; cbn [map]; repeat (apply Forall_cons; [discriminate|]); apply Forall_nil|].
  split; [reflexivity|]. split; [exact R2|]. split; [reflexivity|].
  split; [unfold b4, backs; cbn [map]; repeat (apply Forall_cons; [discriminate|]); apply Forall_nil|].
  split; [unfold b4, backs; cbn [map]; repeat (apply Forall_cons; [discriminate|]); apply Forall_nil|].
  split; [apply ready_scratch; lra|]. split; [exact R23|]. split; [exact O3|].
  split; [unfold h3; repeat (apply Forall_cons; [discriminate|]); apply Forall_nil|].
  split; [exact HS|]. split; [apply E4|]. split.
  { unfold trace1, b4, h3, backs. cbn [map app].
    repeat (apply Forall_cons; [cbn [fst]; first [exact Logic.I | solve [repeat split] | solve [repeat (apply Forall_cons; [repeat split|]); apply Forall_nil]]|]).
    apply Forall_nil. }
  do 5 (split; [assumption|]). split; [exact Er|]. split; [rewrite (proj2 E4); exact Er'|].
  split; [rewrite C3; reflexivity|].
  rewrite Ep'. rewrite (refs_plain s3 tr1 _ r Q3 ET3 U3 Er), C2, C4.
  replace (8 / 10 - p_gtl (d_par (req (8 / 10))) + p_off (d_par (req (8 / 10)))) with (8 / 10 + STEP).
  2: { change (p_gtl (d_par (req (8 / 10)))) with 0. change (p_off (d_par (req (8 / 10)))) with STEP. ring. }
  pose proof at_08 as X. set (p := position tr1 (8 / 10 + STEP)) in *. unfold gap. cbn [vx vy vz pb].
  rewrite <- sqrt_1. apply sqrt_lt_1_alt. split; [lra|]. nra.
Qed.
Print Assumptions C69_one_step_ahead.
Print Assumptions C69_jump_stitched.
Print Assumptions C69_jump_scratch.
Print Assumptions C69_continuous_refuted.
(** The first plan of DynScenario meets the hypotheses of [C69_jump_scratch];
    the vehicle does not move. *)
Example C69_example_scratch :
  exists h h' s s1 s3 v r', run full_post (init v3_zero) h s /\ d_pc s = PScratch /\ step s Back = Ok s1 Quiet /\
  run full_post s1 h' swap_ready1 /\ no_obs Swapped h' /\ step swap_ready1 Poll = Ok s3 Swapped /\ d_traj s3 = Some tr1 /\
  fresh_calls (h ++ h') /\ unmodified (dynamic_waypoints swap_ready1) /\ respects tr1 v /\
  eval_refs (p_global (d_par swap_ready1)) true s3 = Some r' /\ d_vehicle s = d_vehicle swap_ready1.
Proof.
  pose (s := set_pc PScratch (set_new (mkParams 0 0 0 1 0) (set_next [wa; wb] (do_speed 1 (set_flag true (init v3_zero)))))).
  destruct C17_example as (Q & (s3 & HS & HE) & _).
  assert (E3 : d_traj s3 = Some tr1).
  { destruct (end_cases _ _ _ HE) as (n & _ & X & _). assert (Y : d_traj st1 = Some tr1) by reflexivity. rewrite X in Y. exact Y. }
  assert (G : good_traj tr1).
  { apply (i_traj s3); [|exact E3]. apply reachable_inv. eapply (reachable_step swap_ready1 Poll); eauto. exact Logic.I. }
  destruct (some_speed tr1 G) as (v & Hv).
  exists ((SetSpeed 1, Quiet) :: (SetWaypoints [wa; wb], Quiet) :: backs [Quiet; Quiet; Quiet; Quiet; Quiet; Quiet]).
  exists (backs [Quiet; Launched; Quiet] ++ [(CompSpeed, Quiet); (CompDone tr1 (/ 100), Quiet)]). exists s.
  do 4 eexists. split.
  { econstructor; [exact Logic.I|reflexivity|]. econstructor; [cbn; repeat constructor; apply fresh_ok|reflexivity|].
    unfold backs. cbn [map]. do 6 (eapply back_ok; [reflexivity|]).
    match goal with |- run _ ?a _ ?b => replace a with b by reflexivity end. constructor. }
  split; [reflexivity|]. split; [reflexivity|]. split.
  { unfold backs. cbn [map app]. do 3 (eapply back_ok; [reflexivity|]).
    match goal with |- run _ ?a _ _ => replace a with l1 by reflexivity end.
    econstructor; [exact Logic.I|reflexivity|].
    econstructor; [split; [lra|]; eexists; split; [reflexivity|exact full1]| |constructor].
    cbn [step]. unfold comp_done. cbn [d_fut set_fut]. change (p_gtl (d_new (set_fut (FRunning (p_speed (d_par l1))) l1))) with 0.
    change (d_next (set_fut (FRunning (p_speed (d_par l1))) l1)) with [wd; wa; wb]. rewrite retime1. reflexivity. }
  split; [unfold backs; cbn [map app]; repeat (apply Forall_cons; [discriminate|]); apply Forall_nil|].
  split; [exact HS|]. split; [exact E3|]. split.
  { unfold backs. cbn [map app].
    repeat (apply Forall_cons; [cbn [fst]; first [exact Logic.I | solve [repeat split] | solve [repeat (apply Forall_cons; [repeat split|]); apply Forall_nil]]|]).
    apply Forall_nil. }
  split; [intros w []|]. split; [exact Hv|]. split; [unfold eval_refs; rewrite E3; reflexivity|reflexivity].
Qed.
