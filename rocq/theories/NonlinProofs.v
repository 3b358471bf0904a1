(** Proofs about the nonlinear optimiser. *)
From Coq Require Import Reals Lra Lia List Bool ZArith Arith Sorted.
From Coquelicot Require Import Coquelicot.
From Verif Require Import Base PolyModel PolySpec PolyProofs VertexModel VertexProofs TrajModel TrajSpec TrajProofs
  ExtremaProofs TrajFinal LinOptModel LinAlg LinOptSpec LinInverse LinReorder LinProofs LinCost LinFinal
  NonlinModel NonlinSpec.
Import List ListNotations.
Set Bullet Behavior "Strict Subproofs".
Local Open Scope R_scope.

(** ** Maximum of the magnitude *)

Lemma ext_max_fold (m : R -> R) i times e :
  let r := fold_left (fun e t => ext_max e (mkExt t (m t) i)) times e in
  e_value e <= e_value r /\ (forall t, In t times -> m t <= e_value r) /\
  (r = e \/ exists t, In t times /\ r = mkExt t (m t) i).
Proof.
  cbv zeta. revert e. induction times as [|t times IH]; intros e; simpl.
  - split; [lra|]. split; [tauto|auto].
  - destruct (IH (ext_max e (mkExt t (m t) i))) as (A & B & C).
    set (r := fold_left _ _ _) in *. clearbody r.
    assert (M : e_value e <= e_value (ext_max e (mkExt t (m t) i)) /\ m t <= e_value (ext_max e (mkExt t (m t) i))).
    { unfold ext_max. simpl. rcase; simpl; lra. }
    split; [lra|]. split.
    + intros u [<-|H]; [lra|auto].
    + destruct C as [C|(u & Hu & C)]; [|eauto 6].
      unfold ext_max in C. destruct (Rltb _ _); [|auto]. right. exists t. auto.
Qed.

Lemma norm_all s d t : seg_wf s -> vec_norm (seg_deriv s d t) = norm_dims (seg_deriv s d t) (seq 0 (s_D s)).
Proof. intros W. rewrite <- (length_seg_deriv s d t W). symmetry. apply norm_dims_all. Qed.

Lemma norm_sq_sum s d t : seg_wf s ->
  vec_norm (seg_evaluate s t d) = sqrt (sq_sum s d (seq 0 (s_D s)) t).
Proof.
  intros W. rewrite seg_evaluate_deriv, norm_all by auto.
  rewrite <- seg_magnitude_norm; auto. apply Forall_forall. intros i Hi. apply in_seq in Hi. lia.
Qed.

(** Where the loop found its extremum. *)
Definition found (pre : list segment) (d : nat) (e : extremum) : Prop :=
  e_value e = 0 /\ e_time e = 0 /\ e_seg e = O \/
  exists s, nth_error pre (e_seg e) = Some s /\ 0 <= e_time e <= s_time s /\
    vec_norm (seg_deriv s d (e_time e)) = e_value e.

Lemma nth_error_app_some {A} (l l' : list A) i x : nth_error l i = Some x -> nth_error (l ++ l') i = Some x.
Proof. intros H. rewrite nth_error_app1; auto. apply nth_error_Some. congruence. Qed.

Lemma max_loop_defined find_roots N d segs : (d < N)%nat ->
  Forall (fun s => s_N s = N) segs ->
  forall i e, exists e', max_magnitude_loop find_roots d i segs e = Val e'.
Proof.
  intros Hd F. induction F as [|s segs HN F IH]; intros i e; simpl; [eauto|].
  destruct (seg_candidate_times find_roots s d 0 (s_time s) (seq 0 (s_D s))) as [c| |] eqn:E; eauto.
  exfalso. unfold seg_candidate_times in E.
  destruct (seq 0 (s_D s)) as [|a [|b l]] eqn:S.
  - discriminate.
  - assert (a = O /\ s_D s = 1)%nat as [-> ED].
    { destruct (s_D s) as [|[|?]]; simpl in S; inversion S; auto. }
    rewrite ED in E. simpl in E. destruct (compute_candidates _ _ _ _ _); discriminate.
  - destruct (Nat.leb_spec (s_N s) d); [lia|].
    destruct (forallb _ _); [|discriminate]. destruct (compute_candidates _ _ _ _ _); discriminate.
Qed.

Lemma max_loop_spec find_roots N d D segs : exact_root_finder find_roots -> (d < N)%nat -> (1 <= D)%nat ->
  Forall (fun s => seg_wf s /\ s_N s = N /\ s_D s = D) segs -> Forall (fun s => 0 <= s_time s) segs ->
  forall pre e, found pre d e -> 0 <= e_value e ->
  exists e', max_magnitude_loop find_roots d (length pre) segs e = Val e' /\
    found (pre ++ segs) d e' /\ e_value e <= e_value e' /\
    forall i s t, nth_error segs i = Some s -> 0 <= t <= s_time s -> vec_norm (seg_deriv s d t) <= e_value e'.
Proof.
  intros HR Hd HD F. induction F as [|s segs (W & HN & HDs) F IH]; intros P pre e Fe Pe.
  - simpl. exists e. rewrite app_nil_r. split; [auto|]. split; [auto|]. split; [lra|].
    intros [|i] s t H; discriminate.
  - inversion P as [|? ? P1 P2]; subst.
    destruct (seg_candidate_times_spec find_roots s d 0 (s_time s) (seq 0 (s_D s)) HR W) as
      (c & E & Fc & (xM & IM & MM) & _); auto.
    { destruct (s_D s); [lia|discriminate]. }
    { apply Forall_forall. intros i Hi. apply in_seq in Hi. lia. }
    cbn [max_magnitude_loop]. rewrite E.
    destruct (ext_max_fold (fun t => vec_norm (seg_evaluate s t d)) (length pre) c e) as (A & B & C).
    cbv zeta in A, B, C. set (e1 := fold_left _ _ _) in *. clearbody e1.
    assert (F1 : found (pre ++ [s]) d e1).
    { destruct C as [->|(t & Ht & ->)].
      - destruct Fe as [Fe|(u & Hu & Fe)]; [left; auto|]. right. exists u. split; auto.
        apply nth_error_app_some; auto.
      - right. exists s. simpl. split; [rewrite nth_error_app2, Nat.sub_diag by lia; reflexivity|].
        rewrite Forall_forall in Fc. split; [auto|]. rewrite seg_evaluate_deriv by auto. reflexivity. }
    destruct (IH P2 (pre ++ [s]) e1 F1 ltac:(lra)) as (e' & L & F' & M' & All).
    rewrite app_length in L. simpl in L. rewrite Nat.add_1_r in L.
    exists e'. split; [exact L|]. rewrite <- app_assoc in F'. split; [exact F'|]. split; [lra|].
    intros [|i] s' t Hs Ht; simpl in Hs; [|eauto].
    inversion Hs; subst s'. apply (Rle_trans _ (e_value e1)); [|lra].
    apply (Rle_trans _ (vec_norm (seg_evaluate s xM d))); [|auto].
    rewrite <- seg_evaluate_deriv by auto. rewrite !norm_sq_sum by auto. apply sqrt_le_1_alt. auto.
Qed.

Lemma max_of_magnitude_defined find_roots N d o : (d + 1 < N)%nat -> o_segs o <> [] ->
  Forall (fun s => s_N s = N) (o_segs o) -> exists e, max_of_magnitude find_roots N d o = Val e.
Proof.
  intros Hd Ne F. unfold max_of_magnitude. destruct (Nat.ltb_spec (d + 1) N); [|lia].
  destruct (o_segs o) as [|s0 l] eqn:E; [congruence|].
  destruct (max_loop_defined find_roots N d (s0 :: l) ltac:(lia) F 0 ext_default) as (e & ->). eauto.
Qed.

Lemma max_of_magnitude_spec find_roots N d D o : exact_root_finder find_roots -> (d + 1 < N)%nat -> (1 <= D)%nat ->
  o_segs o <> [] -> length (o_vertices o) = S (length (o_segs o)) ->
  Forall (fun s => seg_wf s /\ s_N s = N /\ s_D s = D) (o_segs o) -> Forall (fun s => 0 <= s_time s) (o_segs o) ->
  exists e s, max_of_magnitude find_roots N d o = Val e /\
    max_norm (o_segs o) d (e_value e) /\
    nth_error (o_segs o) (e_seg e) = Some s /\ 0 <= e_time e <= s_time s /\
    vec_norm (seg_deriv s d (e_time e)) = e_value e.
Proof.
  intros HR Hd HD Ne LV F P. unfold max_of_magnitude. destruct (Nat.ltb_spec (d + 1) N); [|lia].
  destruct (o_segs o) as [|s0 l] eqn:E; [congruence|]. set (segs := s0 :: l) in *.
  destruct (max_loop_spec find_roots N d D segs HR ltac:(lia) HD F P [] ext_default) as (e & L & Fe & M & All).
  { left. repeat split. }
  { simpl. lra. }
  simpl length in L. rewrite L. simpl app in Fe.
  set (b := last segs s0). set (c := mkExt (s_time b) _ _).
  assert (Lb : nth_error segs (length segs - 1) = Some b).
  { destruct (exists_last Ne) as (l' & x & El). subst b. rewrite El, last_last, app_length. simpl.
    rewrite nth_error_app2 by lia. replace (_ - _)%nat with O by lia. reflexivity. }
  assert (Pb : 0 <= s_time b) by (rewrite Forall_forall in P; apply P; eapply nth_error_In; eauto).
  assert (X : exists s, nth_error segs (e_seg (ext_max e c)) = Some s /\ 0 <= e_time (ext_max e c) <= s_time s /\
    vec_norm (seg_deriv s d (e_time (ext_max e c))) = e_value (ext_max e c)).
  { unfold ext_max. destruct (Rltb (e_value e) (e_value c)) eqn:Lt.
    - exists b. simpl. rewrite LV. replace (S (length segs) - 1 - 1)%nat with (length segs - 1)%nat by lia.
      split; [auto|]. split; [lra|]. rewrite Forall_forall in F.
      rewrite seg_evaluate_deriv by (apply F; eapply nth_error_In; eauto). reflexivity.
    - destruct Fe as [(V & T & S)|(s & H1 & H2 & H3)]; [|eauto].
      exists s0. rewrite V, T, S. split; [reflexivity|].
      assert (P0 : 0 <= s_time s0) by (rewrite Forall_forall in P; apply P; left; auto).
      split; [lra|]. apply Rle_antisym; [|apply sqrt_pos]. rewrite <- V. apply (All O); [reflexivity|lra]. }
  destruct X as (s & X1 & X2 & X3). exists (ext_max e c), s. split; [reflexivity|].
  split; [|auto]. split.
  - exists (e_seg (ext_max e c)), s, (e_time (ext_max e c)). auto.
  - intros i s' t Hs Ht. apply (Rle_trans _ (e_value e)); [eauto|]. unfold ext_max. rcase; lra.
Qed.

(** ** Soft constraints *)

Lemma soft_cost_defined find_roots N o w mx cs :
  o_segs o <> [] -> Forall (fun s => s_N s = N) (o_segs o) ->
  Forall (fun c => (cd_deriv c + 1 < N)%nat) cs -> exists v, soft_cost find_roots N o w mx cs = Val v.
Proof.
  intros Ne F Fc. induction Fc as [|c cs Hc Fc (v & IH)]; simpl; [eauto|].
  destruct (max_of_magnitude_defined find_roots N (cd_deriv c) o Hc Ne F) as (e & ->). rewrite IH. eauto.
Qed.

(** Cost of a maximum M against the limit L. *)
Definition soft_term (mx w M L : R) : R := Rmin mx (exp ((M - L) / L * w)).

Lemma soft_term_bounds mx w M L : 0 <= mx -> 0 <= soft_term mx w M L <= mx.
Proof.
  intros. unfold soft_term. split; [|apply Rmin_l]. apply Rmin_glb; auto. left. apply exp_pos.
Qed.
Lemma exp_le x y : x <= y -> exp x <= exp y.
Proof. intros [H| ->]; [left; apply exp_increasing; auto|right; auto]. Qed.
Lemma soft_term_mono mx w M M' L : 0 <= w -> 0 < L -> M <= M' -> soft_term mx w M L <= soft_term mx w M' L.
Proof.
  intros. unfold soft_term. apply Rle_min_compat_l. apply exp_le. apply Rmult_le_compat_r; auto.
  unfold Rdiv. apply Rmult_le_compat_r; [left; apply Rinv_0_lt_compat; auto|lra].
Qed.
Lemma soft_term_respected mx w M L : 0 <= w -> 0 < L -> M <= L -> soft_term mx w M L <= 1.
Proof.
  intros. unfold soft_term. eapply Rle_trans; [apply Rmin_r|]. rewrite <- exp_0. apply exp_le.
  assert (0 < / L) by (apply Rinv_0_lt_compat; auto). unfold Rdiv.
  assert ((M - L) * / L <= 0) by nra. nra.
Qed.
Lemma soft_term_violated mx w M L : 1 < mx -> 0 < w -> 0 < L -> L < M -> 1 < soft_term mx w M L.
Proof.
  intros. unfold soft_term. apply Rmin_glb_lt; auto. rewrite <- exp_0 at 1. apply exp_increasing.
  apply Rmult_lt_0_compat; auto. apply Rdiv_lt_0_compat; lra.
Qed.

Lemma max_norm_unique segs d M M' : max_norm segs d M -> max_norm segs d M' -> M = M'.
Proof.
  intros ((i & s & t & H1 & H2 & H3) & A) ((i' & s' & t' & H1' & H2' & H3') & A').
  apply Rle_antisym; [rewrite <- H3|rewrite <- H3']; eauto.
Qed.

Lemma soft_cost_value find_roots N D o w mx cs (M : nat -> R) : exact_root_finder find_roots -> (1 <= D)%nat ->
  o_segs o <> [] -> length (o_vertices o) = S (length (o_segs o)) ->
  Forall (fun s => seg_wf s /\ s_N s = N /\ s_D s = D) (o_segs o) -> Forall (fun s => 0 <= s_time s) (o_segs o) ->
  Forall (fun c => (cd_deriv c + 1 < N)%nat) cs ->
  Forall (fun c => max_norm (o_segs o) (cd_deriv c) (M (cd_deriv c))) cs ->
  soft_cost find_roots N o w mx cs =
  Val (lsum (map (fun c => soft_term mx w (M (cd_deriv c)) (cd_value c)) cs)).
Proof.
  intros HR HD Ne LV F P Fc Fm. induction Fc as [|c cs Hc Fc IH]; simpl; auto.
  inversion Fm as [|? ? Hm Fm']; subst.
  destruct (max_of_magnitude_spec find_roots N (cd_deriv c) D o HR Hc HD Ne LV F P) as (e & s & -> & Me & _).
  rewrite (max_norm_unique _ _ _ _ Me Hm). rewrite IH by auto. reflexivity.
Qed.

(** ** Free constraints, listed *)

Fixpoint free_list (D h idx : nat) (vs : list vertex) : list con :=
  match vs with
  | [] => []
  | v :: vs' => map (fun k => mkCon idx k (repeat 0 D)) (filter (fun k => negb (has_constraint k v)) (seq 0 h))
                ++ free_list D h (S idx) vs'
  end.

Lemma free_list_in D h c : forall vs idx, In c (free_list D h idx vs) <->
  exists j k v, nth_error vs j = Some v /\ (k < h)%nat /\ has_constraint k v = false /\
    c = mkCon (idx + j) k (repeat 0 D).
Proof.
  induction vs as [|v vs IH]; intros idx; simpl.
  - split; [tauto|]. intros (j & k & v & H & _). destruct j; discriminate.
  - rewrite in_app_iff, in_map_iff, IH. split.
    + intros [(k & <- & Hk)|(j & k & u & H & Hk & Hu & ->)].
      * apply filter_In in Hk. destruct Hk as [Hk Hv]. apply in_seq in Hk. apply negb_true_iff in Hv.
        exists O, k, v. rewrite Nat.add_0_r. repeat split; auto. lia.
      * exists (S j), k, u. rewrite Nat.add_succ_r. repeat split; auto.
    + intros (j & k & u & H & Hk & Hu & ->). destruct j as [|j]; simpl in H.
      * left. inversion H; subst u. exists k. rewrite Nat.add_0_r. split; auto. apply filter_In.
        split; [apply in_seq; lia|]. rewrite Hu. reflexivity.
      * right. exists j, k, u. rewrite Nat.add_succ_r. repeat split; auto.
Qed.

Lemma sorted_app {A} (P : A -> A -> Prop) l l' : StronglySorted P l -> StronglySorted P l' ->
  (forall x y, In x l -> In y l' -> P x y) -> StronglySorted P (l ++ l').
Proof.
  induction 1 as [|a l S IH F]; intros S' H; simpl; auto.
  constructor; [apply IH; auto; intros; apply H; simpl; auto|].
  apply Forall_app. split; auto. apply Forall_forall. intros y Hy. apply H; simpl; auto.
Qed.
Lemma sorted_seq_filter (p : nat -> bool) idx z : forall n a,
  StronglySorted clt (map (fun k => mkCon idx k z) (filter p (seq a n))).
Proof.
  induction n as [|n IH]; intros a; simpl; [constructor|].
  destruct (p a); simpl; auto. constructor; auto.
  apply Forall_forall. intros y Hy. apply in_map_iff in Hy. destruct Hy as (k & <- & Hk).
  apply filter_In in Hk. destruct Hk as [Hk _]. apply in_seq in Hk. right. simpl. lia.
Qed.
Lemma free_list_sorted D h : forall vs idx, StronglySorted clt (free_list D h idx vs).
Proof.
  induction vs as [|v vs IH]; intros idx; simpl; [constructor|].
  apply sorted_app; auto; [apply sorted_seq_filter|].
  intros x y Hx Hy. apply in_map_iff in Hx. destruct Hx as (k & <- & _).
  apply free_list_in in Hy. destruct Hy as (j & k' & u & _ & _ & _ & ->). left. simpl. lia.
Qed.

Lemma clt_irrefl a : ~ clt a a.
Proof. unfold clt. lia. Qed.
Lemma sorted_ext l : StronglySorted clt l -> forall l', StronglySorted clt l' ->
  (forall x, In x l <-> In x l') -> l = l'.
Proof.
  induction 1 as [|a l S IH F]; intros l' S' H.
  - destruct l' as [|b l']; auto. exfalso. apply (H b). left; auto.
  - destruct S' as [|b l' S' F'].
    + exfalso. apply (H a). left; auto.
    + rewrite Forall_forall in F, F'.
      assert (E : a = b).
      { assert (Ha : In a (b :: l')) by (apply H; left; auto).
        assert (Hb : In b (a :: l)) by (apply H; left; auto).
        destruct Ha as [|Ha]; auto. destruct Hb as [|Hb]; auto.
        exfalso. apply (clt_irrefl a). eapply clt_trans; [apply F; eauto|apply F'; auto]. }
      subst b. f_equal. apply IH; auto. intros x. split; intros Hx.
      * assert (X : In x (a :: l')) by (apply H; right; auto). destruct X as [->|]; auto.
        exfalso. apply (clt_irrefl x). auto.
      * assert (X : In x (a :: l)) by (apply H; right; auto). destruct X as [->|]; auto.
        exfalso. apply (clt_irrefl x). auto.
Qed.

Lemma free_list_eq D h vs : (2 <= length vs)%nat ->
  con_set false (all_cons D h (length vs - 1) 0 vs) = free_list D h 0 vs.
Proof.
  intros H2. apply sorted_ext.
  - rewrite con_set_unfold. apply set_fold. constructor.
  - apply free_list_sorted.
  - intros c. rewrite free_list_in. split.
    + intros H. apply set_elem in H. destruct H as (j & k & Hj & Hk & E).
      destruct (nth_error vs j) as [v|] eqn:Ev; [|apply nth_error_None in Ev; lia].
      unfold con_at in E. rewrite (nth_error_nth _ _ _ Ev) in E.
      exists j, k, v. unfold has_constraint. unfold get_constraint in E.
      destruct (cons_find k (v_cons v)); [discriminate|]. inversion E. auto.
    + intros (j & k & v & Ev & Hk & Hv & ->).
      assert (Hj : (j < length vs)%nat) by (apply nth_error_Some; congruence).
      pose proof (set_has D h vs j k H2 Hj Hk) as H. unfold con_at in H.
      rewrite (nth_error_nth _ _ _ Ev) in H. unfold has_constraint in Hv. unfold get_constraint in H.
      destruct (cons_find k (v_cons v)); [discriminate|]. exact H.
Qed.

(** ** Bounds *)

(** Orders up to d of the free derivatives, vertex by vertex. *)
Definition free_orders (d : nat) (vs : list vertex) : list nat :=
  flat_map (fun v => filter (fun k => negb (has_constraint k v)) (seq 0 (S d))) vs.
Lemma free_orders_cons d v vs :
  free_orders d (v :: vs) = filter (fun k => negb (has_constraint k v)) (seq 0 (S d)) ++ free_orders d vs.
Proof. reflexivity. Qed.

Lemma free_list_orders D h : forall vs idx,
  map c_order (free_list D h idx vs) = flat_map (fun v => filter (fun k => negb (has_constraint k v)) (seq 0 h)) vs.
Proof.
  induction vs as [|v vs IH]; intros idx; simpl; auto.
  rewrite map_app, IH, map_map. f_equal. simpl. apply map_id.
Qed.

Lemma set_at_spec {A} i (x : A) l l' d : set_at i x l = Some l' ->
  length l' = length l /\ forall j, nth j l' d = if (j =? i)%nat then x else nth j l d.
Proof.
  unfold set_at. destruct (Nat.ltb_spec i (length l)); [|discriminate]. intros E.
  assert (E' : l' = firstn i l ++ x :: skipn (S i) l) by congruence. clear E. subst l'.
  assert (L : length (firstn i l) = i) by (rewrite firstn_length; lia).
  split.
  - rewrite app_length, L. cbn [length]. rewrite skipn_length. lia.
  - intros j. destruct (Nat.eqb_spec j i) as [->|Ne].
    + rewrite app_nth2 by lia. rewrite L, Nat.sub_diag. reflexivity.
    + destruct (Nat.lt_ge_cases j i).
      * rewrite app_nth1 by lia. rewrite <- (firstn_skipn i l) at 2. rewrite app_nth1 by lia. reflexivity.
      * rewrite app_nth2 by lia. rewrite L. replace (j - i)%nat with (S (j - i - 1)) by lia. simpl nth.
        rewrite <- (firstn_skipn (S i) l) at 2.
        rewrite app_nth2 by (rewrite firstn_length; lia). rewrite firstn_length.
        f_equal. lia.
Qed.
Lemma set_at_defined {A} i (x : A) l : (i < length l)%nat -> exists l', set_at i x l = Some l'.
Proof. intros. unfold set_at. destruct (Nat.ltb_spec i (length l)); [eauto|lia]. Qed.

Lemma bound_dims_spec nf j b d0 : (j < nf)%nat -> forall n a l, length l = ((a + n) * nf)%nat ->
  exists l', bound_dims (seq a n) nf j b l = Some l' /\ length l' = length l /\
    forall k i, (i < nf)%nat -> nth (k * nf + i) l' d0 =
      if (a <=? k)%nat && (k <? a + n)%nat && (i =? j)%nat then b else nth (k * nf + i) l d0.
Proof.
  intros Hj. induction n as [|n IH]; intros a l L; simpl.
  - exists l. split; auto. split; auto. intros k i Hi.
    destruct (Nat.leb_spec a k); simpl; auto. destruct (Nat.ltb_spec k (a + 0)); simpl; auto. lia.
  - destruct (set_at_defined (a * nf + j) b l) as (l1 & E1); [rewrite L; nia|]. rewrite E1.
    destruct (set_at_spec _ _ _ _ d0 E1) as (L1 & N1).
    destruct (IH (S a) l1) as (l2 & E2 & L2 & N2); [rewrite L1, L; f_equal; lia|].
    exists l2. split; auto. split; [congruence|]. intros k i Hi. rewrite N2, N1 by auto.
    destruct (Nat.leb_spec (S a) k), (Nat.leb_spec a k), (Nat.ltb_spec k (S a + n)), (Nat.ltb_spec k (a + S n)),
      (Nat.eqb_spec i j), (Nat.eqb_spec (k * nf + i) (a * nf + j)); simpl; auto; try lia; try nia; exfalso; nia.
Qed.

(** One pass over a list of free orders, starting at index [j]. *)
Definition bound_at (c : con_data) (orders : list nat) (j : nat) (i : nat) (old : R * R) : R * R :=
  if (j <=? i)%nat then
    match nth_error orders (i - j) with
    | Some k => if (k =? cd_deriv c)%nat then (- Rabs (cd_value c), Rabs (cd_value c)) else old
    | None => old
    end
  else old.

Lemma bound_at_app c o1 o2 j i old :
  bound_at c (o1 ++ o2) j i old = bound_at c o2 (j + length o1) i (bound_at c o1 j i old).
Proof.
  unfold bound_at. destruct (Nat.leb_spec j i), (Nat.leb_spec (j + length o1) i); try lia; auto.
  - rewrite nth_error_app2 by lia. replace (i - j - length o1)%nat with (i - (j + length o1))%nat by lia.
    destruct (nth_error o2 (i - (j + length o1))) as [k|]; auto.
    + destruct (k =? cd_deriv c)%nat; auto.
      destruct (nth_error o1 (i - j)) eqn:E; auto.
      assert (nth_error o1 (i - j) <> None) by congruence. apply nth_error_Some in H1. lia.
    + destruct (nth_error o1 (i - j)) eqn:E; auto.
      assert (nth_error o1 (i - j) <> None) by congruence. apply nth_error_Some in H1. lia.
  - rewrite nth_error_app1 by lia. reflexivity.
Qed.

Lemma bound_derivs_spec D nf c v d0 : forall derivs j l,
  length l = (D * nf)%nat ->
  (j + length (filter (fun k => negb (has_constraint k v)) derivs) <= nf)%nat ->
  exists l', bound_derivs D nf c v derivs (j, l) =
      Some ((j + length (filter (fun k => negb (has_constraint k v)) derivs))%nat, l') /\
    length l' = length l /\
    forall k i, (k < D)%nat -> (i < nf)%nat -> nth (k * nf + i) l' d0 =
      bound_at c (filter (fun k => negb (has_constraint k v)) derivs) j i (nth (k * nf + i) l d0).
Proof.
  induction derivs as [|m derivs IH]; intros j l L Hn; simpl.
  - exists l. rewrite Nat.add_0_r. split; auto. split; auto. intros. unfold bound_at.
    destruct (j <=? i)%nat; auto. destruct (i - j)%nat; reflexivity.
  - simpl in Hn. destruct (has_constraint m v) eqn:Hm; simpl in *; [apply IH; auto|].
    assert (X : exists l1, (if (m =? cd_deriv c)%nat
                then bound_dims (seq 0 D) nf j (- Rabs (cd_value c), Rabs (cd_value c)) l else Some l) = Some l1 /\
              length l1 = length l /\
              forall k i, (k < D)%nat -> (i < nf)%nat -> nth (k * nf + i) l1 d0 = bound_at c [m] j i (nth (k * nf + i) l d0)).
    { destruct (Nat.eqb_spec m (cd_deriv c)) as [->|Ne].
      - destruct (bound_dims_spec nf j (- Rabs (cd_value c), Rabs (cd_value c)) d0 ltac:(lia) D 0 l) as (l1 & E & L1 & N1);
          [exact L|].
        exists l1. split; auto. split; auto. intros k i Hk Hi. rewrite N1 by auto. unfold bound_at.
        destruct (Nat.ltb_spec k (0 + D)); [|lia]. simpl.
        destruct (Nat.eqb_spec i j) as [->|Nij].
        + rewrite Nat.leb_refl, Nat.sub_diag. simpl. rewrite Nat.eqb_refl. reflexivity.
        + destruct (Nat.leb_spec j i); auto. destruct (i - j)%nat as [|q] eqn:Q; [lia|]. destruct q; reflexivity.
      - exists l. split; auto. split; auto. intros k i Hk Hi. unfold bound_at. destruct (j <=? i)%nat; auto.
        destruct (i - j)%nat as [|q]; simpl; [|destruct q; reflexivity].
        destruct (Nat.eqb_spec m (cd_deriv c)); [congruence|reflexivity]. }
    destruct X as (l1 & -> & L1 & N1).
    destruct (IH (S j) l1) as (l2 & E2 & L2 & N2); [congruence|lia|].
    exists l2. rewrite E2. split; [f_equal; f_equal; lia|]. split; [congruence|].
    intros k i Hk Hi. rewrite N2, N1 by auto.
    change (m :: filter (fun k0 => negb (has_constraint k0 v)) derivs) with
      ([m] ++ filter (fun k0 => negb (has_constraint k0 v)) derivs).
    rewrite bound_at_app. simpl length. rewrite Nat.add_1_r. reflexivity.
Qed.

Lemma bound_vertices_spec D nf d c d0 : forall vs j l,
  length l = (D * nf)%nat -> (j + length (free_orders d vs) <= nf)%nat ->
  exists j' l', bound_vertices D nf d c vs (j, l) = Some (j', l') /\ length l' = length l /\
    forall k i, (k < D)%nat -> (i < nf)%nat -> nth (k * nf + i) l' d0 =
      bound_at c (free_orders d vs) j i (nth (k * nf + i) l d0).
Proof.
  induction vs as [|v vs IH]; intros j l L Hn.
  - exists j, l. split; auto. split; auto. intros. unfold bound_at. simpl.
    destruct (j <=? i)%nat; auto. destruct (i - j)%nat; reflexivity.
  - rewrite free_orders_cons, app_length in Hn.
    destruct (bound_derivs_spec D nf c v d0 (seq 0 (S d)) j l L) as (l1 & E1 & L1 & N1); [lia|].
    destruct (IH (j + length (filter (fun k => negb (has_constraint k v)) (seq 0 (S d))))%nat l1) as
      (j2 & l2 & E2 & L2 & N2); [congruence|lia|].
    exists j2, l2. cbn [bound_vertices]. rewrite E1. split; auto. split; [congruence|].
    intros k i Hk Hi. rewrite N2, N1 by auto. rewrite free_orders_cons.
    rewrite bound_at_app. reflexivity.
Qed.

Lemma bound_cons_spec D nf d vs d0 : (length (free_orders d vs) <= nf)%nat -> forall cs l,
  length l = (D * nf)%nat ->
  exists l', bound_cons D nf d vs cs l = Some l' /\ length l' = length l /\
    forall k i, (k < D)%nat -> (i < nf)%nat -> nth (k * nf + i) l' d0 =
      match nth_error (free_orders d vs) i with
      | Some o => fold_left (fun b c => if (cd_deriv c =? o)%nat then (- Rabs (cd_value c), Rabs (cd_value c)) else b)
                    cs (nth (k * nf + i) l d0)
      | None => nth (k * nf + i) l d0
      end.
Proof.
  intros Hn. induction cs as [|c cs IH]; intros l L; simpl.
  - exists l. split; auto. split; auto. intros. destruct (nth_error _ i); auto.
  - destruct (bound_vertices_spec D nf d c d0 vs 0 l L Hn) as (j1 & l1 & E1 & L1 & N1). rewrite E1.
    destruct (IH l1) as (l2 & E2 & L2 & N2); [congruence|].
    exists l2. split; auto. split; [congruence|]. intros k i Hk Hi. rewrite N2, N1 by auto.
    unfold bound_at. rewrite Nat.sub_0_r. simpl.
    destruct (nth_error (free_orders d vs) i) as [o|]; auto.
    rewrite (Nat.eqb_sym o (cd_deriv c)). reflexivity.
Qed.

Lemma filter_seq_le (p : nat -> bool) d h : (S d <= h)%nat ->
  (length (filter p (seq 0 (S d))) <= length (filter p (seq 0 h)))%nat.
Proof.
  intros H. replace h with (S d + (h - S d))%nat by lia. rewrite seq_app, filter_app, app_length. lia.
Qed.
Lemma free_orders_le D d h vs idx : (S d <= h)%nat ->
  (length (free_orders d vs) <= length (free_list D h idx vs))%nat.
Proof.
  intros H. revert idx. induction vs as [|v vs IH]; intros idx; [simpl; auto|].
  rewrite free_orders_cons. cbn [free_list]. rewrite !app_length, map_length.
  specialize (IH (S idx)). pose proof (filter_seq_le (fun k => negb (has_constraint k v)) d h H). lia.
Qed.

(** The bounds computed for the free constraints. *)
Lemma free_bounds_spec inv N D vs d o cs : valid_size N -> ready inv N D vs d o -> (2 <= length vs)%nat ->
  exists l, free_bounds o cs = Some l /\ length l = (D * length (o_free o))%nat /\
    forall k i, (k < D)%nat -> (i < length (o_free o))%nat ->
      nth (k * length (o_free o) + i) l (0, 0) =
      match nth_error (free_orders d (o_vertices o)) i with
      | Some q => wanted_bounds cs q
      | None => (- DBL_MAX, DBL_MAX)
      end.
Proof.
  intros V RD H2. unfold free_bounds.
  assert (LV : length (o_vertices o) = length vs) by (rewrite (rd_vs _ _ _ _ _ _ RD), map_length; auto).
  rewrite (rd_D _ _ _ _ _ _ RD), (rd_deriv _ _ _ _ _ _ RD).
  assert (Hn : (length (free_orders d (o_vertices o)) <= length (o_free o))%nat).
  { rewrite (rd_free _ _ _ _ _ _ RD), free_list_eq by lia. apply free_orders_le.
    pose proof (rd_low _ _ _ _ _ _ RD). destruct (valid_half N V) as [_ ?]. lia. }
  destruct (bound_cons_spec D (length (o_free o)) d (o_vertices o) (0, 0) Hn cs
    (repeat (- DBL_MAX, DBL_MAX) (D * length (o_free o)))) as (l & E & L & Nl); [apply repeat_length|].
  exists l. split; auto. rewrite repeat_length in L. split; auto. intros k i Hk Hi. rewrite Nl by auto.
  assert (X : nth (k * length (o_free o) + i) (repeat (- DBL_MAX, DBL_MAX) (D * length (o_free o))) (0, 0)
    = (- DBL_MAX, DBL_MAX)).
  { apply (repeat_spec (D * length (o_free o))). apply nth_In. rewrite repeat_length. nia. }
  rewrite X. reflexivity.
Qed.
