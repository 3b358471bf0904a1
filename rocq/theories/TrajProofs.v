(** Proofs about evaluation of trajectories. *)
From Coq Require Import Reals Lra Lia List Bool ZArith Arith.
From Coquelicot Require Import Coquelicot.
From Verif Require Import Base PolyModel PolySpec PolyProofs VertexModel TrajModel TrajSpec.
Import List ListNotations.
Local Open Scope R_scope.

(* ------------------------------------------------------------------ *)
(** ** Segments *)

Lemma seg_evaluate_deriv s x d : seg_wf s -> seg_evaluate s x d = seg_deriv s d x.
Proof.
  intros [HD _]. unfold seg_evaluate, seg_deriv. rewrite <- HD.
  unfold seg_poly. clear HD. induction (s_polys s) as [|p l IH] using rev_ind; [reflexivity|].
  rewrite app_length, seq_app, !map_app. simpl. f_equal.
  - etransitivity; [|exact IH]. apply map_ext_in. intros i Hi. apply in_seq in Hi.
    rewrite app_nth1 by lia. reflexivity.
  - rewrite app_nth2, Nat.sub_diag by lia. simpl. now rewrite poly_evaluate_Derive_n.
Qed.

Lemma length_seg_evaluate s x d : length (seg_evaluate s x d) = s_D s.
Proof. unfold seg_evaluate. now rewrite map_length, seq_length. Qed.

Lemma nth_seg_evaluate s x d i : (i < s_D s)%nat ->
  nth i (seg_evaluate s x d) 0 = poly_evaluate (seg_poly s i) x d.
Proof.
  intros. unfold seg_evaluate.
  rewrite nth_indep with (d' := poly_evaluate (seg_poly s 0) x d)
    by (rewrite map_length, seq_length; lia).
  rewrite map_nth with (f := fun i => poly_evaluate (seg_poly s i) x d).
  now rewrite seq_nth.
Qed.
Lemma nth_seg_evaluate_out s x d i : (s_D s <= i)%nat -> nth i (seg_evaluate s x d) 0 = 0.
Proof. intros. apply nth_overflow. rewrite length_seg_evaluate. lia. Qed.

(* ------------------------------------------------------------------ *)
(** ** The piece of a trajectory at a time (exact arithmetic) *)

Fixpoint piece (segs : list segment) (t : R) : option (segment * R) :=
  match segs with
  | [] => None
  | s :: rest =>
      match rest with
      | [] => Some (s, t)
      | _ => if Rltb t (s_time s) then Some (s, t) else piece rest (t - s_time s)
      end
  end.

Lemma find_segment_index add segs t acc i :
  (i <= fst (find_segment add segs t acc i) <= i + length segs)%nat.
Proof.
  revert acc i; induction segs; simpl; intros; [lia|].
  destruct (Rltb _ _); simpl; [lia|]. specialize (IHsegs (add acc (s_time a)) (S i)). lia.
Qed.

(** If the search runs through, the accumulated time is the folded sum. *)
Lemma find_segment_through add segs t acc i :
  (snd (find_segment add segs t acc i) = fold_left (fun m s => add m (s_time s)) segs acc /\
   fst (find_segment add segs t acc i) = i + length segs)%nat \/
  (t < snd (find_segment add segs t acc i) /\
   (fst (find_segment add segs t acc i) < i + length segs)%nat).
Proof.
  revert acc i; induction segs; simpl; intros; [left; split; auto; lia|].
  rcase; simpl.
  - right; split; auto; lia.
  - destruct (IHsegs (add acc (s_time a)) (S i)) as [[]|[]]; [left|right]; split; auto; lia.
Qed.

(** Never the out-of-range branch for t <= max_time_, for any addition. *)
Lemma evaluate_gen_in_range add sub ss tr t d :
  set_segments_gen add ss = Some tr -> t <= t_max tr ->
  exists s x, In s ss /\ traj_evaluate_gen add sub tr t d = Some (seg_evaluate s x d).
Proof.
  unfold set_segments_gen. destruct ss as [|s0 ss']; [discriminate|].
  unfold add_segments_gen. destruct (forallb _ _); [|discriminate].
  intros H Ht; inversion H; clear H; subst tr. simpl t_max in Ht.
  unfold traj_evaluate_gen. simpl t_segs. set (ss := s0 :: ss') in *.
  change (fold_left (fun m s => add m (s_time s)) ss' (add 0 (s_time s0)))
    with (fold_left (fun m s => add m (s_time s)) ss 0) in Ht.
  pose proof (find_segment_through add ss t 0 0) as H.
  pose proof (find_segment_index add ss t 0 0) as HI.
  destruct (find_segment add ss t 0 0) as [i acc]; simpl fst in *; simpl snd in *.
  assert (Hge : t <= acc) by (destruct H as [[-> _]|[? _]]; lra).
  rcase; [lra|].
  assert (Hlen : (0 < length ss)%nat) by (unfold ss; simpl; lia).
  set (j := if (length ss <=? i)%nat then (length ss - 1)%nat else i).
  assert (Hj : (j < length ss)%nat).
  { unfold j. destruct (Nat.leb_spec (length ss) i); lia. }
  destruct (nth_error ss j) as [s|] eqn:E.
  - exists s, (sub t (sub acc (s_time s))). split; [eapply nth_error_In; eauto|reflexivity].
  - apply nth_error_None in E. lia.
Qed.

Lemma fold_sum_times segs acc :
  fold_left (fun m s => m + s_time s) segs acc = acc + lsum (map s_time segs).
Proof. revert acc; induction segs; simpl; intros; [lra|]. rewrite IHsegs. lra. Qed.

(** Exact evaluation through [piece]. *)
Lemma find_piece segs t acc i pre :
  segs <> [] -> length pre = i -> t <= acc + lsum (map s_time segs) ->
  let '(j, a) := find_segment Rplus segs t acc i in
  t <= a /\
  exists s, nth_error (pre ++ segs)
     (if (length (pre ++ segs) <=? j)%nat then (length (pre ++ segs) - 1)%nat else j) = Some s /\
   piece segs (t - acc) = Some (s, t - (a - s_time s)).
Proof.
  revert acc i pre; induction segs as [|s0 segs IH]; intros acc i pre Hne Hl Ht; [congruence|].
  simpl find_segment. rcase.
  - split; [lra|]. exists s0. split.
    + rewrite app_length; simpl.
      destruct (Nat.leb_spec (length pre + S (length segs)) i); [lia|].
      rewrite nth_error_app2, Hl, Nat.sub_diag by lia. reflexivity.
    + simpl. replace (acc + s_time s0 - s_time s0) with acc by lra.
      destruct segs; [reflexivity|]. rcase; [reflexivity|lra].
  - destruct segs as [|s1 segs].
    + simpl in *. split; [lra|]. exists s0. split.
      * rewrite app_length; simpl. destruct (Nat.leb_spec (length pre + 1) (S i)); [|lia].
        replace (length pre + 1 - 1)%nat with (length pre) by lia.
        rewrite nth_error_app2, Nat.sub_diag by lia. reflexivity.
      * do 2 f_equal. lra.
    + specialize (IH (acc + s_time s0) (S i) (pre ++ [s0])).
      destruct (find_segment Rplus (s1 :: segs) t (acc + s_time s0) (S i)) as [j a].
      rewrite <- app_assoc in IH. simpl app in IH.
      destruct IH as [Ha (s & Hn & Hp)].
      * congruence.
      * rewrite app_length; simpl; lia.
      * simpl in *; lra.
      * split; [auto|]. exists s. split; [exact Hn|].
        change (piece (s0 :: s1 :: segs) (t - acc)) with
          (if Rltb (t - acc) (s_time s0) then Some (s0, t - acc)
           else piece (s1 :: segs) (t - acc - s_time s0)).
        rcase; [lra|].
        replace (t - acc - s_time s0) with (t - (acc + s_time s0)) by lra. exact Hp.
Qed.

Lemma traj_evaluate_piece tr t d :
  t_segs tr <> [] -> t <= lsum (map s_time (t_segs tr)) ->
  exists s x, piece (t_segs tr) t = Some (s, x) /\
              traj_evaluate tr t d = Some (seg_evaluate s x d).
Proof.
  intros Hne Ht. unfold traj_evaluate, traj_evaluate_gen.
  pose proof (find_piece (t_segs tr) t 0 0 [] Hne eq_refl) as H.
  destruct (find_segment Rplus (t_segs tr) t 0 0) as [j a].
  destruct H as [Ha (s & Hn & Hp)]; [lra|].
  rewrite Rminus_0_r in Hp. simpl app in Hn.
  exists s, (t - (a - s_time s)). split; [exact Hp|].
  rcase; [lra|]. rewrite Hn. reflexivity.
Qed.

Lemma find_segment_past segs t acc i :
  acc + lsum (map s_time segs) < t -> Forall (fun s => 0 <= s_time s) segs ->
  find_segment Rplus segs t acc i = ((i + length segs)%nat, acc + lsum (map s_time segs)).
Proof.
  revert acc i; induction segs; simpl; intros acc i Ht HF.
  - f_equal; [lia|lra].
  - inversion HF; subst.
    assert (0 <= lsum (map s_time segs)).
    { apply lsum_nonneg. apply Forall_map. auto. }
    rcase; [lra|]. rewrite IHsegs by (auto; lra). f_equal; [lia|lra].
Qed.

Lemma traj_evaluate_past tr t d :
  Forall (fun s => 0 <= s_time s) (t_segs tr) ->
  lsum (map s_time (t_segs tr)) < t ->
  traj_evaluate tr t d = Some (repeat 0 (t_D tr)).
Proof.
  intros HF Ht. unfold traj_evaluate, traj_evaluate_gen.
  rewrite find_segment_past by (auto; lra). rcase; [reflexivity|lra].
Qed.

(** [piece] in terms of prefix sums. *)
Lemma piece_nth segs k t s :
  Forall (fun s => 0 < s_time s) segs -> nth_error segs k = Some s ->
  lsum (map s_time (firstn k segs)) <= t ->
  (t < lsum (map s_time (firstn k segs)) + s_time s \/ S k = length segs) ->
  piece segs t = Some (s, t - lsum (map s_time (firstn k segs))).
Proof.
  revert k t; induction segs as [|s0 segs IH]; intros k t HF Hk H1 H2.
  - destruct k; discriminate.
  - inversion HF; subst. destruct k; simpl in *.
    + inversion Hk; subst. rewrite Rminus_0_r. destruct segs; [reflexivity|].
      rcase; [reflexivity|]. destruct H2; [lra|discriminate].
    + destruct segs as [|s1 segs]; [destruct k; discriminate|].
      assert (0 <= lsum (map s_time (firstn k (s1 :: segs)))).
      { apply lsum_nonneg, Forall_map. apply Forall_forall. intros x Hx.
        assert (In x (s1 :: segs)) by (rewrite <- (firstn_skipn k); apply in_or_app; auto).
        rewrite Forall_forall in H4. specialize (H4 x H). lra. }
      rcase; [lra|].
      rewrite IH with (k := k); auto.
      * do 2 f_equal. lra.
      * lra.
      * destruct H2 as [|E]; [left; lra|right; lia].
Qed.

Lemma piece_neg segs t s0 : nth_error segs 0 = Some s0 -> Forall (fun s => 0 < s_time s) segs ->
  t < 0 -> piece segs t = Some (s0, t).
Proof.
  destruct segs as [|s segs]; [discriminate|]. simpl. intros E HF Ht. inversion E; subst.
  destruct segs; [reflexivity|]. inversion HF; subst. rcase; [reflexivity|lra].
Qed.

Lemma lsum_firstn_le segs k :
  Forall (fun s => 0 < s_time s) segs ->
  lsum (map s_time (firstn k segs)) <= lsum (map s_time segs).
Proof.
  intros. rewrite <- (firstn_skipn k segs) at 2. rewrite map_app, lsum_app.
  assert (0 <= lsum (map s_time (skipn k segs))); [|lra].
  apply lsum_nonneg, Forall_map. apply Forall_forall. intros x Hx.
  assert (In x segs) by (rewrite <- (firstn_skipn k); apply in_or_app; auto).
  rewrite Forall_forall in H. specialize (H x H0). lra.
Qed.

Lemma start_of_S tr k s : nth_error (t_segs tr) k = Some s ->
  start_of tr (S k) = start_of tr k + s_time s.
Proof.
  unfold start_of. intros H.
  assert (E : firstn (S k) (t_segs tr) = firstn k (t_segs tr) ++ [s]).
  { revert H. generalize (t_segs tr). induction k; intros l H; destruct l; try discriminate.
    - simpl in *. congruence.
    - simpl in *. rewrite <- IHk by auto. reflexivity. }
  rewrite E, map_app, lsum_app. simpl. lra.
Qed.

Lemma traj_evaluate_segment tr k s t d :
  traj_wf tr -> positive_times tr -> nth_error (t_segs tr) k = Some s ->
  start_of tr k <= t -> t < start_of tr (S k) \/ (S k = length (t_segs tr) /\ t = t_max tr) ->
  traj_evaluate tr t d = Some (seg_deriv s d (t - start_of tr k)).
Proof.
  intros [Hwf Hmax] Hpos Hk H1 H2.
  rewrite (start_of_S _ _ _ Hk) in H2.
  assert (Hle : start_of tr (S k) <= t_max tr).
  { rewrite Hmax. apply lsum_firstn_le; auto. }
  rewrite (start_of_S _ _ _ Hk) in Hle.
  destruct (traj_evaluate_piece tr t d) as (s' & x & Hp & He).
  - intros E. rewrite E in Hk. destruct k; discriminate.
  - rewrite <- Hmax. destruct H2 as [|[_ ->]]; lra.
  - rewrite (piece_nth _ k t s) in Hp; auto.
    + inversion Hp; subst. rewrite He. f_equal. apply seg_evaluate_deriv.
      rewrite Forall_forall in Hwf. apply Hwf. eapply nth_error_In; eauto.
    + unfold start_of in *. destruct H2 as [|[]]; [left; lra|right; auto].
Qed.

Lemma traj_evaluate_before tr s0 t d :
  traj_wf tr -> positive_times tr -> nth_error (t_segs tr) 0 = Some s0 -> t < 0 ->
  traj_evaluate tr t d = Some (seg_deriv s0 d t).
Proof.
  intros [Hwf Hmax] Hpos Hk Ht.
  destruct (traj_evaluate_piece tr t d) as (s' & x & Hp & He).
  - intros E. rewrite E in Hk. discriminate.
  - assert (0 <= lsum (map s_time (t_segs tr))); [|lra].
    apply lsum_nonneg, Forall_map. eapply Forall_impl; [|exact Hpos]. simpl; intros; lra.
  - rewrite (piece_neg _ t s0) in Hp; auto. inversion Hp; subst. rewrite He. f_equal.
    apply seg_evaluate_deriv. rewrite Forall_forall in Hwf. apply Hwf. eapply nth_error_In; eauto.
Qed.

(** Trajectories built by setSegments satisfy the class invariant. *)
Lemma set_segments_wf ss tr :
  Forall seg_wf ss -> set_segments ss = Some tr ->
  traj_wf tr /\ t_segs tr = ss /\ ss <> [].
Proof.
  unfold set_segments, set_segments_gen. destruct ss as [|s0 ss']; [discriminate|].
  intros HF. unfold add_segments_gen. destruct (forallb _ _) eqn:E; [|discriminate].
  intros H; inversion H; clear H; subst tr. simpl. split; [|split; [auto|congruence]].
  rewrite forallb_forall in E.
  split.
  - simpl. apply Forall_forall. intros s Hs. split.
    + rewrite Forall_forall in HF. auto.
    + specialize (E s Hs). apply andb_prop in E as [E1 E2].
      apply Nat.eqb_eq in E1, E2. auto.
  - simpl. rewrite fold_sum_times. lra.
Qed.

(* ------------------------------------------------------------------ *)
(** ** Smoothness *)

Section Glue.
  Variables f g : R -> R.
  Variable c : R.
  Let h (t : R) := if Rltb t c then f t else g (t - c).

  Lemma glue_continuous t :
    (forall x, x <= c -> continuous f x) -> (forall x, 0 <= x -> continuous g x) ->
    f c = g 0 -> continuous h t.
  Proof.
    intros Hf Hg E.
    destruct (Rlt_dec t c) as [Hlt|Hge].
    - apply continuous_ext_loc with (g := f).
      + exists (mkposreal (c - t) ltac:(lra)). intros y Hy. unfold h.
        unfold ball in Hy; simpl in Hy. unfold AbsRing_ball, abs, minus, plus, opp in Hy; simpl in Hy.
        apply Rabs_def2 in Hy. rcase; [reflexivity|lra].
      + apply Hf; lra.
    - destruct (Rlt_dec c t) as [Hgt|Hle].
      + apply continuous_ext_loc with (g := fun x => g (x - c)).
        * exists (mkposreal (t - c) ltac:(lra)). intros y Hy. unfold h.
          unfold ball in Hy; simpl in Hy. unfold AbsRing_ball, abs, minus, plus, opp in Hy; simpl in Hy.
          apply Rabs_def2 in Hy. rcase; [lra|reflexivity].
        * apply continuous_comp with (f := fun x => x - c) (g := g).
          -- apply (continuous_minus (fun x : R => x) (fun _ => c)); [apply continuous_id|apply continuous_const].
          -- apply Hg; lra.
      + assert (t = c) by lra. subst t.
        apply continuity_pt_filterlim. intros eps Heps.
        assert (C1 : continuity_pt f c) by (apply continuity_pt_filterlim, Hf; lra).
        assert (C2 : continuity_pt g 0) by (apply continuity_pt_filterlim, Hg; lra).
        destruct (C1 eps Heps) as (d1 & D1 & P1). destruct (C2 eps Heps) as (d2 & D2 & P2).
        exists (Rmin d1 d2). split; [apply Rmin_pos; auto|].
        intros x [Hx Hd]. simpl in *. unfold R_dist in *.
        unfold h at 2. rcase; [lra|]. rewrite (Rminus_diag_eq c c) by auto.
        unfold h. rcase.
        * rewrite <- E. apply P1. split; auto. eapply Rlt_le_trans; [exact Hd|apply Rmin_l].
        * apply P2. destruct (Req_dec x c) as [->|].
          { destruct Hx as [_ Hx]. exfalso; apply Hx; auto. }
          split; [split; [exact I|lra]|].
          replace (x - c - 0) with (x - c) by lra.
          eapply Rlt_le_trans; [exact Hd|apply Rmin_r].
  Qed.

  Lemma glue_derive (f' g' : R -> R) t :
    (forall x, x <= c -> is_derive f x (f' x)) -> (forall x, 0 <= x -> x <= Rmax 0 (t - c) -> is_derive g x (g' x)) ->
    f c = g 0 -> f' c = g' 0 ->
    is_derive h t (if Rltb t c then f' t else g' (t - c)).
  Proof.
    intros Hf Hg E E'.
    destruct (Rlt_dec t c) as [Hlt|Hge].
    - apply is_derive_ext_loc with (f := f).
      + exists (mkposreal (c - t) ltac:(lra)). intros y Hy. unfold h.
        unfold ball in Hy; simpl in Hy. unfold AbsRing_ball, abs, minus, plus, opp in Hy; simpl in Hy.
        apply Rabs_def2 in Hy. rcase; [reflexivity|lra].
      + rcase; [apply Hf; lra|lra].
    - destruct (Rlt_dec c t) as [Hgt|Hle].
      + apply is_derive_ext_loc with (f := fun x => g (x - c)).
        * exists (mkposreal (t - c) ltac:(lra)). intros y Hy. unfold h.
          unfold ball in Hy; simpl in Hy. unfold AbsRing_ball, abs, minus, plus, opp in Hy; simpl in Hy.
          apply Rabs_def2 in Hy. rcase; [lra|reflexivity].
        * rcase; [lra|].
          replace (g' (t - c)) with (1 * g' (t - c)) by ring.
          apply (is_derive_comp g (fun x => x - c) t).
          -- apply Hg; [lra|apply Rmax_r].
          -- auto_derive; auto; ring.
      + assert (t = c) by lra. subst t.
        apply is_derive_Reals. intros eps Heps.
        assert (C1 : derivable_pt_lim f c (f' c)) by (apply is_derive_Reals, Hf; lra).
        assert (C2 : derivable_pt_lim g 0 (g' 0)).
        { apply is_derive_Reals, Hg; [lra|]. apply Rmax_l. }
        destruct (C1 eps Heps) as (d1 & P1). destruct (C2 eps Heps) as (d2 & P2).
        exists (mkposreal (Rmin d1 d2) (Rmin_pos _ _ (cond_pos d1) (cond_pos d2))).
        intros x Hx Hd. simpl in Hd.
        unfold h at 2. rcase; [lra|]. rewrite (Rminus_diag_eq c c) by auto.
        unfold h. rcase.
        * rewrite <- E, <- E'. apply P1; auto. eapply Rlt_le_trans; [exact Hd|apply Rmin_l].
        * replace (c + x - c) with (0 + x) by lra. apply P2; auto.
          eapply Rlt_le_trans; [exact Hd|apply Rmin_r].
  Qed.
End Glue.

(** Value of component i of a list of segments glued together. *)
Fixpoint glued (segs : list segment) (d i : nat) (t : R) : R :=
  match segs with
  | [] => 0
  | s :: rest =>
      match rest with
      | [] => poly_evaluate (seg_poly s i) t d
      | _ => if Rltb t (s_time s) then poly_evaluate (seg_poly s i) t d
             else glued rest d i (t - s_time s)
      end
  end.

Lemma glued_piece segs d i t s x :
  piece segs t = Some (s, x) -> glued segs d i t = poly_evaluate (seg_poly s i) x d.
Proof.
  revert t; induction segs as [|s0 segs IH]; intros t H; [discriminate|].
  simpl in *. destruct segs as [|s1 segs]; [inversion H; reflexivity|].
  rcase_in H; [inversion H; reflexivity|]. apply IH. exact H.
Qed.

Fixpoint joined_segs (segs : list segment) (i m : nat) : Prop :=
  match segs with
  | s :: (s' :: _) as rest =>
      (forall j, (j <= m)%nat ->
         poly_evaluate (seg_poly s i) (s_time s) j = poly_evaluate (seg_poly s' i) 0 j)
      /\ joined_segs rest i m
  | _ => True
  end.

Lemma glued_at_0 s segs d i :
  Forall (fun s => 0 < s_time s) (s :: segs) ->
  glued (s :: segs) d i 0 = poly_evaluate (seg_poly s i) 0 d.
Proof. intros HF. inversion HF; subst. simpl. destruct segs; auto. rcase; [auto|lra]. Qed.

Lemma glued_continuous segs i m d :
  Forall (fun s => 0 < s_time s) segs -> joined_segs segs i m -> (d <= m)%nat ->
  forall t, continuous (glued segs d i) t.
Proof.
  intros HF HJ Hd. induction segs as [|s segs IH]; intros t.
  - apply continuous_const.
  - destruct segs as [|s' segs].
    + apply continuous_poly_evaluate.
    + destruct HJ as [HJ1 HJ2]. inversion HF; subst.
      apply (glue_continuous (fun t => poly_evaluate (seg_poly s i) t d) (glued (s' :: segs) d i) (s_time s)).
      * intros; apply continuous_poly_evaluate.
      * intros; apply IH; auto.
      * rewrite glued_at_0 by auto. apply HJ1; auto.
Qed.

Lemma glued_derive segs i m d :
  Forall (fun s => 0 < s_time s) segs -> joined_segs segs i m -> (d < m)%nat ->
  forall t, is_derive (glued segs d i) t (glued segs (S d) i t).
Proof.
  intros HF HJ Hd. induction segs as [|s segs IH]; intros t.
  - apply (@is_derive_const R_AbsRing R_NormedModule).
  - destruct segs as [|s' segs].
    + apply is_derive_poly_evaluate.
    + destruct HJ as [HJ1 HJ2]. inversion HF; subst.
      apply (glue_derive (fun t => poly_evaluate (seg_poly s i) t d) (glued (s' :: segs) d i) (s_time s)
               (fun t => poly_evaluate (seg_poly s i) t (S d)) (glued (s' :: segs) (S d) i)).
      * intros; apply is_derive_poly_evaluate.
      * intros; apply IH; auto.
      * rewrite glued_at_0 by auto. apply HJ1; lia.
      * rewrite glued_at_0 by auto. apply HJ1; lia.
Qed.

Lemma comp_glued tr d i t :
  traj_wf tr -> t_segs tr <> [] -> (i < t_D tr)%nat -> t <= t_max tr ->
  comp tr d i t = glued (t_segs tr) d i t.
Proof.
  intros [Hwf Hmax] Hne Hi Ht. unfold comp.
  destruct (traj_evaluate_piece tr t d) as (s & x & Hp & He); [auto|lra|].
  rewrite He, (glued_piece _ _ _ _ _ _ Hp).
  apply nth_seg_evaluate.
  assert (Hin : In s (t_segs tr)).
  { clear - Hp. revert t Hp. induction (t_segs tr) as [|s0 l IH]; intros; [discriminate|].
    simpl in Hp. destruct l as [|s1 l]; [inversion Hp; left; auto|].
    rcase_in Hp; [inversion Hp; left; auto|]. right. eapply IH; eauto. }
  rewrite Forall_forall in Hwf. destruct (Hwf s Hin) as (_ & -> & _). auto.
Qed.

Lemma joined_joined_segs tr m i :
  traj_wf tr -> (i < t_D tr)%nat -> joined tr m -> joined_segs (t_segs tr) i m.
Proof.
  intros [Hwf _] Hi HJ. unfold joined in HJ.
  remember (t_D tr) as D. remember (t_N tr) as N. remember (t_segs tr) as segs. clear - Hwf Hi HJ.
  induction segs as [|s segs IH]; [exact I|].
  destruct segs as [|s' segs]; [exact I|].
  inversion Hwf as [|? ? H1 H2]; subst. inversion H2 as [|? ? H3 H4]; subst.
  split.
  - intros j Hj. specialize (HJ 0%nat s s' eq_refl eq_refl j Hj).
    rewrite <- !seg_evaluate_deriv in HJ by tauto.
    apply (f_equal (fun l => nth i l 0)) in HJ.
    destruct H1 as (_ & E1 & _), H3 as (_ & E3 & _).
    rewrite !nth_seg_evaluate in HJ by lia. exact HJ.
  - apply IH; auto. intros k a b Ha Hb. apply (HJ (S k)); auto.
Qed.

(** Main smoothness lemmas. *)
Lemma traj_continuous tr m i d :
  traj_wf tr -> positive_times tr -> t_segs tr <> [] -> joined tr m ->
  (i < t_D tr)%nat -> (d <= m)%nat ->
  forall t, continuous (fun s => comp tr d i (Rmin s (t_max tr))) t.
Proof.
  intros Hwf Hpos Hne HJ Hi Hd t.
  apply continuous_ext with (f := fun s => glued (t_segs tr) d i (Rmin s (t_max tr))).
  - intros. rewrite comp_glued; auto. apply Rmin_r.
  - apply continuous_comp with (f := fun s => Rmin s (t_max tr)) (g := glued (t_segs tr) d i).
    + apply continuity_pt_filterlim.
      apply continuity_pt_ext with (f := fun s => (s + t_max tr - Rabs (s - t_max tr)) / 2).
      { intros x. unfold Rmin. destruct (Rle_dec x (t_max tr)).
        - rewrite Rabs_left1 by lra. lra.
        - rewrite Rabs_pos_eq by lra. lra. }
      apply continuity_pt_filterlim.
      apply (continuous_scal_l (fun s => s + t_max tr - Rabs (s - t_max tr)) (/ 2)).
      apply (continuous_minus (fun s => s + t_max tr) (fun s => Rabs (s - t_max tr))).
      * apply (continuous_plus (fun s : R => s) (fun _ => t_max tr)); [apply continuous_id|apply continuous_const].
      * apply (continuous_comp (fun s => s - t_max tr) Rabs).
        -- apply (continuous_minus (fun s : R => s) (fun _ => t_max tr)); [apply continuous_id|apply continuous_const].
        -- apply continuous_Rabs.
    + eapply glued_continuous with (m := m); auto. apply joined_joined_segs; auto.
Qed.

Lemma traj_derive tr m i d t :
  traj_wf tr -> positive_times tr -> t_segs tr <> [] -> joined tr m ->
  (i < t_D tr)%nat -> (d < m)%nat -> t < t_max tr ->
  is_derive (comp tr d i) t (comp tr (S d) i t).
Proof.
  intros Hwf Hpos Hne HJ Hi Hd Ht.
  rewrite comp_glued by (auto; lra).
  apply is_derive_ext_loc with (f := glued (t_segs tr) d i).
  - exists (mkposreal (t_max tr - t) ltac:(lra)). intros y Hy.
    unfold ball in Hy; simpl in Hy. unfold AbsRing_ball, abs, minus, plus, opp in Hy; simpl in Hy.
    apply Rabs_def2 in Hy. symmetry; apply comp_glued; auto; lra.
  - eapply glued_derive with (m := m); auto. apply joined_joined_segs; auto.
Qed.
