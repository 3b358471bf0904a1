(** Property theorems: comparison of trajectories (C88). *)
From Coq Require Import Reals Lra Lia List Bool Arith.
From Coquelicot Require Import Coquelicot.
From Verif Require Import Base PolyModel PolySpec VertexModel TrajModel TrajSpec PolyProofs TrajProofs LinUnique EqModel.
Import List ListNotations.
Local Open Scope R_scope.
Set Bullet Behavior "Strict Subproofs".

(* ------------------------------------------------------------------ *)
(** ** Polynomials *)

(** Two coefficient lists of one length that agree as functions on an interval are equal. *)
Lemma same_on_interval (p q : list R) a b : a < b -> length p = length q ->
  (forall x, a < x < b -> pval p x = pval q x) -> p = q.
Proof.
  intros Hab L H. set (d := map (fun i => nth i p 0 - nth i q 0) (seq 0 (length p))).
  assert (ND : forall i, (i < length p)%nat -> nth i d 0 = nth i p 0 - nth i q 0).
  { intros i Hi. unfold d. rewrite (nth_indep _ 0 ((fun i => nth i p 0 - nth i q 0) O)) by (rewrite map_length, seq_length; auto).
    rewrite (map_nth (fun i => nth i p 0 - nth i q 0)). rewrite seq_nth by auto. reflexivity. }
  assert (LD : length d = length p) by (unfold d; rewrite map_length, seq_length; reflexivity).
  assert (E : forall x, pval d x = pval p x - pval q x).
  { intros x. rewrite !pval_rsum, LD, <- L, <- rsum_minus. apply rsum_ext. intros i Hi. rewrite ND by auto. ring. }
  assert (Z : forall x, pval d x = 0).
  { apply (zero_on_interval d a b Hab). intros x Hx. rewrite E, H by auto. ring. }
  apply (nth_ext _ _ 0 0 L). intros i Hi. pose proof (zero_coefs d Z i) as K. rewrite ND in K by auto. lra.
Qed.

Lemma poly_equal_spec p q : length p = length q -> exists b, poly_equal p q = Val b /\ (b = true <-> p = q).
Proof.
  intros L. unfold poly_equal. rewrite (proj2 (Nat.eqb_eq _ _) L). destruct (list_eq_dec Req_EM_T p q) as [E|E].
  - exists true. tauto.
  - exists false. split; [reflexivity|]. split; [discriminate|tauto].
Qed.
Lemma polys_equal_spec N ps : forall qs, Forall (fun p : poly => length p = N) ps -> Forall (fun p : poly => length p = N) qs ->
  length ps = length qs -> exists b, polys_equal ps qs = Val b /\ (b = true <-> ps = qs).
Proof.
  induction ps as [|p ps IH]; intros [|q qs] Fp Fq L; try discriminate; [exists true; split; [reflexivity|tauto]|].
  inversion Fp; subst. inversion Fq; subst. destruct (poly_equal_spec p q) as (b & E & B); [congruence|].
  cbn [polys_equal]. rewrite E. destruct b.
  - assert (p = q) by tauto. subst q. destruct (IH qs) as (b' & E' & B'); auto. exists b'. split; [auto|]. rewrite B'.
    split; [intros ->; auto|intros Q; inversion Q; auto].
  - exists false. split; [reflexivity|]. split; [discriminate|]. intros Q. inversion Q; subst. apply B. reflexivity.
Qed.
Lemma seg_ext a b : s_time a = s_time b -> s_N a = s_N b -> s_D a = s_D b -> s_polys a = s_polys b -> a = b.
Proof. destruct a, b; cbn. congruence. Qed.
Lemma seg_equal_eq a b : seg_wf a -> seg_wf b -> s_N a = s_N b -> exists r, seg_equal a b = Val r /\ (r = true <-> a = b).
Proof.
  intros (La & Fa) (Lb & Fb) N. unfold seg_equal. destruct (Nat.eqb_spec (s_D a) (s_D b)) as [D|D]; cbn [negb].
  - destruct (Req_EM_T (s_time a) (s_time b)) as [T|T].
    + rewrite N in Fa. destruct (polys_equal_spec (s_N b) (s_polys a) (s_polys b) Fa Fb) as (r & E & B).
      { rewrite La, Lb. exact D. }
      exists r. split; [auto|]. rewrite B. split; [apply seg_ext; auto|intros ->; auto].
    + exists false. split; [auto|]. split; [discriminate|intros ->; tauto].
  - exists false. split; [auto|]. split; [discriminate|intros ->; tauto].
Qed.
Lemma segs_equal_eq N ss : forall ts, Forall (fun s => seg_wf s /\ s_N s = N) ss -> Forall (fun s => seg_wf s /\ s_N s = N) ts ->
  length ss = length ts -> exists r, segs_equal ss ts = Val r /\ (r = true <-> ss = ts).
Proof.
  induction ss as [|s ss IH]; intros [|t ts] Fs Ft L; try discriminate; [exists true; split; [reflexivity|tauto]|].
  inversion Fs as [|? ? (W1 & N1) Fs']; subst. inversion Ft as [|? ? (W2 & N2) Ft']; subst.
  destruct (seg_equal_eq s t W1 W2 ltac:(auto)) as (b & E & B). cbn [segs_equal]. rewrite E. destruct b.
  - assert (s = t) by tauto. subst t. destruct (IH ts) as (b' & E' & B'); auto. exists b'. split; [auto|]. rewrite B'.
    split; [intros ->; auto|intros Q; inversion Q; auto].
  - exists false. split; [reflexivity|]. split; [discriminate|]. intros Q. inversion Q; subst. apply B. reflexivity.
Qed.
Lemma rounds_eq ss ts r : segs_equal ss ts = Val r -> (ss = [] -> r = true) -> forall k, (1 <= k)%nat \/ r = true ->
  compare_rounds k ss ts = Val r.
Proof.
  intros E Z k. induction k as [|k IH]; intros H; cbn [compare_rounds]; [destruct H as [H| ->]; [lia|reflexivity]|].
  rewrite E. destruct r; auto.
Qed.
Lemma traj_equal_eq a b : traj_wf a -> traj_wf b -> t_N a = t_N b ->
  exists r, traj_equal a b = Val r /\ (r = true <-> t_segs a = t_segs b).
Proof.
  intros (Fa & _) (Fb & _) N. unfold traj_equal.
  destruct (Nat.eqb_spec (length (t_segs a)) (length (t_segs b))) as [L|L]; cbn [negb].
  - destruct (segs_equal_eq (t_N b) (t_segs a) (t_segs b)) as (r & E & B); auto.
    + eapply Forall_impl; [|exact Fa]. intros s (W & _ & Q). split; [auto|congruence].
    + eapply Forall_impl; [|exact Fb]. intros s (W & _ & Q). auto.
    + exists r. split; [|exact B]. apply rounds_eq; auto.
      * intros Z. rewrite Z in E. inversion E. auto.
      * destruct (t_segs a) eqn:Es; [right|left; cbn; lia]. cbn in E. inversion E. auto.
  - exists false. split; [reflexivity|]. split; [discriminate|]. intros Q. rewrite Q in L. tauto.
Qed.

(* ------------------------------------------------------------------ *)
(** ** C88 *)

Lemma seg_comp s i x : nth i (seg_deriv s 0 x) 0 = pval (nth i (s_polys s) []) x.
Proof.
  unfold seg_deriv. exact (map_nth (fun p => Derive_n (pval p) 0 x) (s_polys s) [] i).
Qed.
(** C88: two segments whose polynomials have one size compare equal if and only if they have the same
    duration and dimension and are the same function of time. *)
Theorem C88_segments :
  forall a b : segment, seg_wf a -> seg_wf b -> s_N a = s_N b ->
  exists r, seg_equal a b = Val r /\
    (r = true <-> s_D a = s_D b /\ s_time a = s_time b /\ forall t, seg_deriv a 0 t = seg_deriv b 0 t).
Proof.
  intros a b Wa Wb N. destruct (seg_equal_eq a b Wa Wb N) as (r & E & B). exists r. split; [auto|]. rewrite B.
  split; [intros ->; auto|]. intros (D & T & F). apply seg_ext; auto.
  destruct Wa as (La & Fa), Wb as (Lb & Fb). rewrite Forall_forall in Fa, Fb.
  assert (LL : length (s_polys a) = length (s_polys b)) by (rewrite La, Lb; exact D).
  apply (nth_ext _ _ [] [] LL). intros i Hi. apply (same_on_interval _ _ 0 1); [lra| |].
  - assert (Q1 := Fa (nth i (s_polys a) []) (nth_In _ _ Hi)).
    assert (Q2 := Fb (nth i (s_polys b) []) (nth_In _ _ (eq_ind _ (fun n => (i < n)%nat) Hi _ LL))).
    exact (eq_trans Q1 (eq_trans N (eq_sym Q2))).
  - intros x _. pose proof (f_equal (fun v => nth i v 0) (F x)) as Q. cbn beta in Q. rewrite !seg_comp in Q. exact Q.
Qed.

Lemma start_of_times a b k : map s_time (t_segs a) = map s_time (t_segs b) -> start_of a k = start_of b k.
Proof. intros E. unfold start_of. rewrite <- !firstn_map, E. reflexivity. Qed.

(** C88: two trajectories of one polynomial size and with positive durations compare equal if
    and only if they have the same segment durations and the same position at every time in between. *)
Theorem C88_trajectories :
  forall a b : trajectory, traj_wf a -> traj_wf b -> positive_times a -> positive_times b -> t_N a = t_N b ->
  exists r, traj_equal a b = Val r /\
    (r = true <-> map s_time (t_segs a) = map s_time (t_segs b) /\
                  forall t, 0 <= t <= t_max a -> traj_evaluate a t 0 = traj_evaluate b t 0).
Proof.
  intros a b Wa Wb Pa Pb N. destruct (traj_equal_eq a b Wa Wb N) as (r & E & B). exists r. split; [auto|]. rewrite B.
  assert (TM : map s_time (t_segs a) = map s_time (t_segs b) -> t_max a = t_max b).
  { intros Q. rewrite (proj2 Wa), (proj2 Wb), Q. reflexivity. }
  split.
  - intros Q. split; [rewrite Q; reflexivity|]. intros t Ht. destruct (t_segs a) as [|s ss] eqn:Es.
    + pose proof (proj2 Wa) as M. rewrite Es in M. cbn in M. assert (t = 0) by lra. subst t.
      unfold traj_evaluate, traj_evaluate_gen. rewrite <- Q, Es. cbn. rcase; [lra|reflexivity].
    + assert (D : t_D a = t_D b).
      { destruct Wa as (Fa & _), Wb as (Fb & _). rewrite <- Q in Fb. rewrite Es in Fa.
        inversion Fa as [|? ? (_ & A & _) _]. inversion Fb as [|? ? (_ & A' & _) _]. congruence. }
      assert (a = b); [|subst; reflexivity].
      assert (TE : t_max a = t_max b) by (apply TM; rewrite Q; reflexivity).
      destruct a, b. cbn in *. congruence.
  - intros (T & F). assert (L : length (t_segs a) = length (t_segs b)).
    { rewrite <- (map_length s_time (t_segs a)), T, map_length. reflexivity. }
    assert (SEG : forall k s s', nth_error (t_segs a) k = Some s -> nth_error (t_segs b) k = Some s' -> s = s').
    { intros k s s' Hs Hs'.
      destruct Wa as (Fa & Ma). pose proof Fa as Fa'. rewrite Forall_forall in Fa'. destruct (Fa' s (nth_error_In _ _ Hs)) as ((L1 & F1) & D1 & N1).
      destruct Wb as (Fb & Mb). pose proof Fb as Fb'. rewrite Forall_forall in Fb'. destruct (Fb' s' (nth_error_In _ _ Hs')) as ((L2 & F2) & D2 & N2).
      assert (TS : s_time s = s_time s').
      { apply (f_equal (fun l => nth_error l k)) in T. rewrite !nth_error_map, Hs, Hs' in T. cbn in T. congruence. }
      assert (P1 : 0 < s_time s) by (unfold positive_times in Pa; rewrite Forall_forall in Pa; apply Pa; eapply nth_error_In; eauto).
      pose proof (start_of_S _ _ _ Hs) as S1. pose proof (start_of_S _ _ _ Hs') as S2.
      pose proof (start_of_times a b k T) as SA.
      assert (K0 : 0 <= start_of a k).
      { apply lsum_nonneg. apply Forall_forall. intros x Hx. apply in_map_iff in Hx. destruct Hx as (y & <- & Hy).
        unfold positive_times in Pa. rewrite Forall_forall in Pa. left. apply Pa.
        rewrite <- (firstn_skipn k (t_segs a)). apply in_or_app. now left. }
      assert (K1 : start_of a (S k) <= t_max a).
      { rewrite Ma. unfold start_of. rewrite <- (firstn_skipn (S k) (t_segs a)) at 2. rewrite map_app, lsum_app.
        assert (0 <= lsum (map s_time (skipn (S k) (t_segs a)))); [|lra].
        apply lsum_nonneg. apply Forall_forall. intros x Hx. apply in_map_iff in Hx. destruct Hx as (y & <- & Hy).
        unfold positive_times in Pa. rewrite Forall_forall in Pa. left. apply Pa.
        rewrite <- (firstn_skipn (S k) (t_segs a)). apply in_or_app. now right. }
      assert (EV : forall x, 0 < x < s_time s -> seg_deriv s 0 x = seg_deriv s' 0 x).
      { intros x Hx. pose proof (F (start_of a k + x) ltac:(lra)) as Q.
        rewrite (traj_evaluate_segment a k s) in Q by (try (split; assumption); auto; lra).
        rewrite (traj_evaluate_segment b k s') in Q by (try (split; assumption); auto; lra).
        rewrite SA in Q. replace (start_of b k + x - start_of b k) with x in Q by ring. congruence. }
      assert (LL : length (s_polys s) = length (s_polys s')).
      { pose proof (f_equal (@length R) (EV (s_time s / 2) ltac:(lra))) as Q. unfold seg_deriv in Q. rewrite !map_length in Q. exact Q. }
      rewrite Forall_forall in F1, F2.
      apply seg_ext; [auto|rewrite N1, N2; exact N|rewrite <- L1, <- L2; exact LL|].
      apply (nth_ext _ _ [] [] LL). intros i Hi. apply (same_on_interval _ _ 0 (s_time s) P1).
      - assert (Q1 := F1 (nth i (s_polys s) []) (nth_In _ _ Hi)).
        assert (Q2 := F2 (nth i (s_polys s') []) (nth_In _ _ (eq_ind _ (fun n => (i < n)%nat) Hi _ LL))).
        exact (eq_trans Q1 (eq_trans N1 (eq_trans N (eq_sym (eq_trans Q2 N2))))).
      - intros x Hx. pose proof (f_equal (fun v => nth i v 0) (EV x Hx)) as Q. cbn beta in Q. rewrite !seg_comp in Q. exact Q. }
    clear - L SEG. revert L SEG. generalize (t_segs a) (t_segs b). intros l. induction l as [|x l IH]; intros [|y m] L SEG; try discriminate; auto.
    f_equal; [apply (SEG 0%nat); reflexivity|]. apply IH; [now injection L|]. intros k s s' H H'. exact (SEG (S k) s s' H H').
Qed.

(** C88: comparing polynomials of different sizes is undefined, even if they are the same function. *)
Theorem C88_different_sizes :
  forall (a b : trajectory) (s t : segment) (ss ts : list segment),
  t_segs a = s :: ss -> t_segs b = t :: ts -> length ss = length ts -> seg_wf s -> seg_wf t ->
  s_D s = s_D t -> (1 <= s_D s)%nat -> s_time s = s_time t -> s_N s <> s_N t -> traj_equal a b = Undef.
Proof.
  intros a b s t ss ts Ea Eb L (L1 & F1) (L2 & F2) D D1 T N. unfold traj_equal. rewrite Ea, Eb. cbn [length].
  rewrite L, Nat.eqb_refl. cbn [negb compare_rounds segs_equal]. unfold seg_equal.
  rewrite (proj2 (Nat.eqb_eq _ _) D). cbn [negb]. destruct (Req_EM_T (s_time s) (s_time t)); [|tauto].
  destruct (s_polys s) as [|p ps]; [cbn in L1; lia|]. destruct (s_polys t) as [|q qs]; [cbn in L2; lia|].
  inversion F1; subst. inversion F2; subst. cbn [polys_equal]. unfold poly_equal.
  destruct (Nat.eqb_spec (length p) (length q)); [congruence|reflexivity].
Qed.

(** Half of a motion of one metre per second. *)
Definition whole_line : trajectory := mkTraj 1 2 2 [mkSeg 2 2 1 [[0; 1]]].
Definition split_line : trajectory := mkTraj 1 2 2 [mkSeg 1 2 1 [[0; 1]]; mkSeg 1 2 1 [[1; 1]]].
Lemma line_wf : traj_wf whole_line /\ traj_wf split_line /\ positive_times whole_line /\ positive_times split_line.
Proof.
  assert (X : forall T p, length p = 2%nat -> seg_wf (mkSeg T 2 1 [p])).
  { intros T p H. split; [reflexivity|]. constructor; [exact H|constructor]. }
  split; [|split; [|split]].
  - split; [|cbn; ring]. constructor; [|constructor]. split; [apply X; reflexivity|split; reflexivity].
  - split; [|cbn; ring]. constructor; [|constructor; [|constructor]]; (split; [apply X; reflexivity|split; reflexivity]).
  - constructor; [cbn; lra|constructor].
  - constructor; [cbn; lra|constructor; [cbn; lra|constructor]].
Qed.
(** C88: trajectories that describe the same motion need not compare equal. *)
Theorem C88_same_motion_refuted :
  traj_equal whole_line split_line = Val false /\
  forall t d, 0 <= t <= 2 -> traj_evaluate whole_line t d = traj_evaluate split_line t d.
Proof.
  split; [reflexivity|]. intros t d Ht. destruct line_wf as (W1 & W2 & P1 & P2).
  rewrite (traj_evaluate_segment whole_line 0 (mkSeg 2 2 1 [[0; 1]])); auto; [|cbn; lra|cbn; destruct (Req_dec t 2); [right; auto|left; lra]].
  assert (E : forall x, Derive_n (pval [0; 1]) d x = Derive_n (pval [1; 1]) d (x - 1)).
  { intros x. rewrite !Derive_n_pval. destruct d as [|[|d]]; [cbn; lra|cbn; lra|].
    assert (Z : forall p : list R, length p = 2%nat -> pderiv_n (S (S d)) p = []).
    { intros p Hp. apply length_zero_iff_nil. rewrite length_pderiv_n, Hp. lia. }
    rewrite !Z by reflexivity. reflexivity. }
  destruct (Rlt_dec t 1).
  - rewrite (traj_evaluate_segment split_line 0 (mkSeg 1 2 1 [[0; 1]])); auto; [cbn; lra|left; cbn; lra].
  - rewrite (traj_evaluate_segment split_line 1 (mkSeg 1 2 1 [[1; 1]])); auto; [|cbn; lra|cbn; destruct (Req_dec t 2); [right; auto|left; lra]].
    f_equal. unfold seg_deriv. cbn [map s_polys]. f_equal. rewrite E. f_equal. cbn. ring.
Qed.

(** C88: equal trajectories need not have the same dimension: without segments nothing is compared. *)
Theorem C88_same_dimension_refuted :
  exists a b : trajectory, traj_wf a /\ traj_wf b /\ t_D a <> t_D b /\ traj_equal a b = Val true.
Proof.
  exists (mkTraj 1 10 0 []), (mkTraj 3 10 0 []). split; [split; [constructor|reflexivity]|].
  split; [split; [constructor|reflexivity]|]. split; [discriminate|reflexivity].
Qed.

(** The hypotheses are met: a trajectory equals itself and differs from a shifted one. *)
Example C88_example : traj_equal whole_line whole_line = Val true /\
  traj_equal whole_line (mkTraj 1 2 2 [mkSeg 2 2 1 [[1; 1]]]) = Val false.
Proof.
  destruct line_wf as (W1 & _ & P1 & _). split.
  - destruct (C88_trajectories _ _ W1 W1 P1 P1 eq_refl) as (r & E & B). rewrite E. f_equal. apply B. auto.
  - assert (W3 : traj_wf (mkTraj 1 2 2 [mkSeg 2 2 1 [[1; 1]]])).
    { split; [|cbn; ring]. constructor; [|constructor]. split; [split; [reflexivity|repeat constructor]|split; reflexivity]. }
    assert (P3 : positive_times (mkTraj 1 2 2 [mkSeg 2 2 1 [[1; 1]]])) by (constructor; [cbn; lra|constructor]).
    destruct (C88_trajectories _ _ W1 W3 P1 P3 eq_refl) as (r & E & B). rewrite E. f_equal. destruct r; auto. exfalso.
    destruct (proj1 B eq_refl) as (_ & F). specialize (F 0 ltac:(cbn; lra)).
    rewrite (traj_evaluate_segment whole_line 0 (mkSeg 2 2 1 [[0; 1]])) in F; auto; [|cbn; lra|left; cbn; lra].
    rewrite (traj_evaluate_segment _ 0 (mkSeg 2 2 1 [[1; 1]])) in F; auto; [|cbn; lra|left; cbn; lra].
    unfold seg_deriv in F. cbn in F. injection F as F. lra.
Qed.
Example C88_sizes_example : traj_equal whole_line (mkTraj 1 3 2 [mkSeg 2 3 1 [[0; 1; 0]]]) = Undef.
Proof.
  apply (C88_different_sizes _ _ (mkSeg 2 2 1 [[0; 1]]) (mkSeg 2 3 1 [[0; 1; 0]]) [] []); try reflexivity.
  - split; [reflexivity|repeat constructor].
  - split; [reflexivity|repeat constructor].
  - cbn. discriminate.
Qed.
Print Assumptions C88_segments.
Print Assumptions C88_trajectories.
Print Assumptions C88_different_sizes.
Print Assumptions C88_same_motion_refuted.
Print Assumptions C88_same_dimension_refuted.
