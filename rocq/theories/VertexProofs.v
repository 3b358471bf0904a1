(** Proofs about Vertex and the segment time estimates. *)
From Coq Require Import Reals Lra Lia List Bool ZArith Arith Sorted.
From Verif Require Import Base PolyModel VertexModel VertexSpec.
Import ListNotations.
Local Open Scope R_scope.

(* ------------------------------------------------------------------ *)
(** ** The constraint map *)


Lemma keys_set_in k v c k' : In k' (keys (cons_set k v c)) -> k' = k \/ In k' (keys c).
Proof.
  induction c as [|[k0 v0] c IH]; simpl; [intuition|].
  destruct (k <? k0)%nat; [simpl; intuition|].
  destruct (Nat.eqb_spec k k0); [subst; simpl; intuition|].
  simpl. intros [H|H]; auto. apply IH in H as [H|H]; auto.
Qed.
Lemma sorted_set k v c : sorted_keys c -> sorted_keys (cons_set k v c).
Proof.
  unfold sorted_keys. induction c as [|[k0 v0] c IH]; simpl; intros HS.
  - constructor; [constructor|constructor].
  - inversion HS as [|? ? HS' HF]; subst.
    destruct (Nat.ltb_spec k k0).
    + simpl. constructor; [constructor; auto|]. constructor; [auto|].
      eapply Forall_impl; [|exact HF]. simpl; intros; lia.
    + destruct (Nat.eqb_spec k k0).
      * subst. simpl. constructor; auto.
      * simpl. constructor; auto. apply Forall_forall. intros x Hx.
        apply keys_set_in in Hx as [->|Hx]; [lia|].
        rewrite Forall_forall in HF. auto.
Qed.
Lemma keys_erase_in k c k' : In k' (keys (cons_erase k c)) -> In k' (keys c).
Proof.
  induction c as [|[k0 v0] c IH]; simpl; auto.
  destruct (k =? k0)%nat; simpl; auto. intros [|H]; auto.
Qed.
Lemma sorted_erase k c : sorted_keys c -> sorted_keys (cons_erase k c).
Proof.
  unfold sorted_keys. induction c as [|[k0 v0] c IH]; simpl; intros HS; auto.
  inversion HS as [|? ? HS' HF]; subst. destruct (k =? k0)%nat; auto.
  simpl. constructor; auto. apply Forall_forall. intros x Hx.
  apply keys_erase_in in Hx. rewrite Forall_forall in HF. auto.
Qed.

Lemma find_set k v c k' :
  sorted_keys c -> cons_find k' (cons_set k v c) = if (k' =? k)%nat then Some v else cons_find k' c.
Proof.
  unfold sorted_keys. induction c as [|[k0 v0] c IH]; simpl; intros HS; auto.
  inversion HS as [|? ? HS' HF]; subst.
  destruct (Nat.ltb_spec k k0); simpl; [reflexivity|].
  destruct (Nat.eqb_spec k k0).
  - subst. simpl. destruct (k' =? k0)%nat; reflexivity.
  - simpl. destruct (Nat.eqb_spec k' k0).
    + subst. destruct (Nat.eqb_spec k0 k); [lia|reflexivity].
    + apply IH; auto.
Qed.
Lemma find_not_in k c : ~ In k (keys c) -> cons_find k c = None.
Proof.
  induction c as [|[k0 v0] c IH]; simpl; auto. intros H.
  destruct (Nat.eqb_spec k k0); [subst; tauto|]. apply IH; tauto.
Qed.
Lemma find_in k c : In k (keys c) -> exists v, cons_find k c = Some v.
Proof.
  induction c as [|[k0 v0] c IH]; simpl; [tauto|]. intros [->|H].
  - rewrite Nat.eqb_refl. eauto.
  - destruct (k =? k0)%nat; eauto.
Qed.
Lemma find_erase k c k' :
  sorted_keys c -> cons_find k' (cons_erase k c) = if (k' =? k)%nat then None else cons_find k' c.
Proof.
  unfold sorted_keys. induction c as [|[k0 v0] c IH]; simpl; intros HS.
  - destruct (k' =? k)%nat; auto.
  - inversion HS as [|? ? HS' HF]; subst. destruct (Nat.eqb_spec k k0).
    + subst. destruct (Nat.eqb_spec k' k0); auto. subst.
      apply find_not_in. intros H. rewrite Forall_forall in HF. specialize (HF k0 H). lia.
    + simpl. destruct (Nat.eqb_spec k' k0).
      * subst. destruct (Nat.eqb_spec k0 k); [lia|auto].
      * apply IH; auto.
Qed.
Lemma find_some_in k c v : cons_find k c = Some v -> In (k, v) c.
Proof.
  induction c as [|[k0 v0] c IH]; simpl; [discriminate|].
  destruct (Nat.eqb_spec k k0); [|auto]. intros H; inversion H; subst. auto.
Qed.
Lemma in_find k c v : sorted_keys c -> In (k, v) c -> cons_find k c = Some v.
Proof.
  unfold sorted_keys. induction c as [|[k0 v0] c IH]; simpl; [tauto|].
  intros HS [H|H].
  - inversion H; subst. now rewrite Nat.eqb_refl.
  - inversion HS as [|? ? HS' HF]; subst.
    assert (In k (keys c)) by (apply in_map_iff; exists (k, v); auto).
    rewrite Forall_forall in HF. specialize (HF k H0).
    destruct (Nat.eqb_spec k k0); [lia|]. auto.
Qed.
Lemma sorted_NoDup c : sorted_keys c -> NoDup (keys c).
Proof.
  unfold sorted_keys. induction 1 as [|k l HS IH HF]; constructor; auto.
  intros H. rewrite Forall_forall in HF. specialize (HF k H). lia.
Qed.

Lemma sorted_start_end n D c : sorted_keys c -> sorted_keys (start_end_loop n D c).
Proof. intros; induction n; simpl; auto. apply sorted_set; auto. Qed.
Lemma find_start_end n D c k : sorted_keys c ->
  cons_find k (start_end_loop n D c) =
  if (1 <=? k)%nat && (k <=? n)%nat then Some (repeat 0 D) else cons_find k c.
Proof.
  intros HS. induction n; simpl start_end_loop.
  - destruct k; reflexivity.
  - rewrite find_set by (apply sorted_start_end; auto). rewrite IHn.
    destruct (Nat.eqb_spec k (S n)).
    + subst. rewrite Nat.leb_refl. reflexivity.
    + destruct (Nat.leb_spec 1 k), (Nat.leb_spec k n), (Nat.leb_spec k (S n)); simpl; auto; lia.
Qed.

Lemma vertex_new_inv D : vertex_inv D (vertex_new D).
Proof. split; [reflexivity|]. split; [constructor|]. discriminate. Qed.

Lemma run_op_spec D v o :
  vertex_inv D v -> op_dim D o ->
  exists v', run_op v o = Some v' /\ vertex_inv D v' /\
    forall k, get_constraint k v' = spec_op D (fun k => get_constraint k v) o k.
Proof.
  intros (HD & HS & HL) Ho. destruct o as [d c|d x|d|c n]; simpl in *.
  - unfold add_constraint. rewrite HD, Ho, Nat.eqb_refl. eexists. split; [reflexivity|].
    unfold vertex_inv, get_constraint in *. simpl.
    assert (HF : forall k, cons_find k (cons_set d c (v_cons v)) = upd (fun k => cons_find k (v_cons v)) d (Some c) k).
    { intros; apply find_set; auto. }
    split; [split; [auto|split; [apply sorted_set; auto|]]|auto].
    intros k c'. rewrite HF. unfold upd. destruct (k =? d)%nat; [intros E; inversion E; subst; auto|apply HL].
  - eexists. split; [reflexivity|]. unfold add_constraint_scalar, vertex_inv, get_constraint in *. simpl.
    rewrite HD.
    assert (HF : forall k, cons_find k (cons_set d (repeat x D) (v_cons v)) = upd (fun k => cons_find k (v_cons v)) d (Some (repeat x D)) k).
    { intros; apply find_set; auto. }
    split; [split; [auto|split; [apply sorted_set; auto|]]|auto].
    intros k c'. rewrite HF. unfold upd. destruct (k =? d)%nat; [|apply HL].
    intros E; inversion E; apply repeat_length.
  - eexists. split; [reflexivity|]. unfold remove_constraint, vertex_inv, get_constraint in *.
    destruct (cons_find d (v_cons v)) eqn:E; simpl.
    + assert (HF : forall k, cons_find k (cons_erase d (v_cons v)) = upd (fun k => cons_find k (v_cons v)) d None k).
      { intros; apply find_erase; auto. }
      split; [split; [auto|split; [apply sorted_erase; auto|]]|auto].
      intros k c'. rewrite HF. unfold upd. destruct (k =? d)%nat; [discriminate|apply HL].
    + split; [auto|]. intros k. unfold upd. destruct (Nat.eqb_spec k d); [subst; auto|auto].
  - unfold make_start_or_end, add_constraint. rewrite HD, Ho, Nat.eqb_refl. eexists. split; [reflexivity|].
    unfold vertex_inv, get_constraint in *. simpl.
    assert (HF : forall k, cons_find k (start_end_loop n D (cons_set 0 c (v_cons v))) =
              if (k =? 0)%nat then Some c else if (k <=? n)%nat then Some (repeat 0 D) else cons_find k (v_cons v)).
    { intros k. rewrite find_start_end by (apply sorted_set; auto). rewrite find_set by auto.
      destruct k; [reflexivity|]. simpl. destruct n; simpl; auto. }
    split; [split; [auto|split; [apply sorted_start_end, sorted_set; auto|]]|auto].
    intros k c'. rewrite HF. destruct (k =? 0)%nat; [intros E; inversion E; subst; auto|].
    destruct (k <=? n)%nat; [intros E; inversion E; apply repeat_length|apply HL].
Qed.

Lemma run_ops_spec D os v :
  vertex_inv D v -> Forall (op_dim D) os ->
  exists v', run_ops v os = Some v' /\ vertex_inv D v' /\
    forall k, get_constraint k v' = fold_left (spec_op D) os (fun k => get_constraint k v) k.
Proof.
  revert v; induction os as [|o os IH]; intros v Hv HF; [exists v; auto|].
  inversion HF; subst. destruct (run_op_spec D v o) as (v1 & E1 & I1 & G1); auto.
  destruct (IH v1) as (v2 & E2 & I2 & G2); auto.
  exists v2. simpl. rewrite E1. split; auto. split; auto. intros k. rewrite G2.
  assert (Hext : forall os (m m' : fmap), (forall k, m k = m' k) ->
            forall k, fold_left (spec_op D) os m k = fold_left (spec_op D) os m' k).
  { clear. induction os as [|o os IH]; intros m m' H k; simpl; auto. apply IH.
    intros k'. destruct o; simpl; unfold upd; rewrite ?H; auto. }
  apply Hext. exact G1.
Qed.

(** *** isEqualTol *)

Lemma vec_sub_nth a b i : length a = length b -> nth i (vec_sub a b) 0 = nth i a 0 - nth i b 0.
Proof.
  revert b i; induction a; destruct b; simpl; intros; try discriminate.
  - destruct i; lra.
  - destruct i; auto. apply IHa. lia.
Qed.
Lemma length_vec_sub a b : length a = length b -> length (vec_sub a b) = length a.
Proof. intros. unfold vec_sub. rewrite map_length, combine_length. lia. Qed.

Lemma is_zero_tol_spec v tol : 0 <= tol ->
  is_zero_tol v tol = true <-> forall i, Rabs (nth i v 0) <= tol.
Proof.
  intros Ht. unfold is_zero_tol. rewrite forallb_forall. split.
  - intros H i. destruct (Nat.lt_ge_cases i (length v)) as [Hi|Hi].
    + apply Rleb_true, H, nth_In; auto.
    + rewrite nth_overflow by auto. rewrite Rabs_R0; auto.
  - intros H x Hx. apply Rleb_true. apply In_nth with (d := 0) in Hx as (i & _ & <-). apply H.
Qed.

Lemma keys_incl_eq a b :
  sorted_keys a -> sorted_keys b -> length a = length b ->
  incl (keys a) (keys b) -> incl (keys b) (keys a).
Proof.
  intros Ha Hb HL Hi. apply NoDup_length_incl; auto.
  - apply sorted_NoDup; auto.
  - unfold keys. rewrite !map_length. lia.
Qed.

(** isEqualTol is true exactly when the same orders are constrained and all
    components differ by at most tol. *)
Lemma is_equal_tol_spec D a b tol :
  vertex_inv D a -> vertex_inv D b -> 0 <= tol ->
  is_equal_tol a b tol = true <->
  (forall k, match get_constraint k a, get_constraint k b with
             | None, None => True
             | Some x, Some y => forall i, Rabs (nth i x 0 - nth i y 0) <= tol
             | _, _ => False
             end).
Proof.
  intros (Da & Sa & La) (Db & Sb & Lb) Ht. unfold is_equal_tol, get_constraint in *.
  rewrite andb_true_iff, Nat.eqb_eq, forallb_forall. split.
  - intros [HL HF] k.
    assert (Hi : incl (keys (v_cons a)) (keys (v_cons b))).
    { intros x Hx. apply in_map_iff in Hx as ([k' v] & <- & Hin). specialize (HF _ Hin). simpl in HF.
      destruct (cons_find k' (v_cons b)) eqn:E; [|discriminate]. simpl.
      apply find_some_in in E. apply in_map_iff. exists (k', v0). auto. }
    destruct (cons_find k (v_cons a)) as [x|] eqn:E1.
    + specialize (HF (k, x) (find_some_in _ _ _ E1)). simpl in HF.
      destruct (cons_find k (v_cons b)) as [y|] eqn:E2; [|discriminate].
      intros i. rewrite is_zero_tol_spec in HF by auto. specialize (HF i).
      rewrite vec_sub_nth in HF; auto. rewrite (La _ _ E1), (Lb _ _ E2). reflexivity.
    + destruct (cons_find k (v_cons b)) as [y|] eqn:E2; auto.
      assert (Hin : In k (keys (v_cons a))).
      { apply (keys_incl_eq _ _ Sa Sb HL Hi). apply in_map_iff. exists (k, y). split; auto.
        apply find_some_in; auto. }
      apply find_in in Hin as [v E]. congruence.
  - intros H.
    assert (Hk : forall k, In k (keys (v_cons a)) <-> In k (keys (v_cons b))).
    { intros k. specialize (H k). split; intros Hin; apply find_in in Hin as [v E]; rewrite E in H.
      - destruct (cons_find k (v_cons b)) eqn:E2; [|tauto].
        apply in_map_iff. exists (k, v0). split; auto. apply find_some_in; auto.
      - destruct (cons_find k (v_cons a)) eqn:E2; [|tauto].
        apply in_map_iff. exists (k, v0). split; auto. apply find_some_in; auto. }
    split.
    + assert (L1 : (length (keys (v_cons a)) <= length (keys (v_cons b)))%nat).
      { apply NoDup_incl_length; [apply sorted_NoDup; auto|]. intros x; apply Hk. }
      assert (L2 : (length (keys (v_cons b)) <= length (keys (v_cons a)))%nat).
      { apply NoDup_incl_length; [apply sorted_NoDup; auto|]. intros x; apply Hk. }
      unfold keys in *. rewrite !map_length in *. lia.
    + intros [k v] Hin. simpl. specialize (H k). rewrite (in_find k _ v) in H by auto.
      destruct (cons_find k (v_cons b)) as [w|] eqn:E; [|tauto].
      apply is_zero_tol_spec; auto. intros i.
      rewrite vec_sub_nth; auto.
      rewrite (Lb _ _ E). apply (La k). apply in_find; auto.
Qed.

(** *** getSubdimension *)

Lemma sub_fold dims mo c acc :
  sorted_keys acc ->
  sorted_keys (fold_left (fun acc kv => if (mo <? fst kv)%nat then acc
          else cons_set (fst kv) (map (fun d => nth d (snd kv) 0) dims) acc) c acc) /\
  (sorted_keys c -> forall k,
   cons_find k (fold_left (fun acc kv => if (mo <? fst kv)%nat then acc
          else cons_set (fst kv) (map (fun d => nth d (snd kv) 0) dims) acc) c acc) =
   match cons_find k c with
   | Some v => if (mo <? k)%nat then cons_find k acc else Some (map (fun d => nth d v 0) dims)
   | None => cons_find k acc
   end).
Proof.
  revert acc; induction c as [|[k0 v0] c IH]; intros acc HS; simpl.
  - auto.
  - set (acc1 := if (mo <? k0)%nat then acc else _).
    assert (HS1 : sorted_keys acc1).
    { unfold acc1. destruct (mo <? k0)%nat; auto. apply sorted_set; auto. }
    destruct (IH acc1 HS1) as [A B]. split; auto.
    intros HC k. inversion HC as [|? ? HC' HF]; subst. rewrite B by auto.
    destruct (Nat.eqb_spec k k0).
    + subst. rewrite (find_not_in k0 c).
      * unfold acc1. destruct (mo <? k0)%nat; auto. rewrite find_set by auto.
        now rewrite Nat.eqb_refl.
      * intros H. rewrite Forall_forall in HF. specialize (HF k0 H). lia.
    + assert (E : cons_find k acc1 = cons_find k acc).
      { unfold acc1. destruct (mo <? k0)%nat; auto. rewrite find_set by auto.
        destruct (Nat.eqb_spec k k0); [lia|auto]. }
      rewrite E. reflexivity.
Qed.

Lemma get_subdimension_spec D dims mo v :
  vertex_inv D v -> Forall (fun d => (d < D)%nat) dims ->
  exists s, get_subdimension dims mo v = (true, s) /\ v_D s = length dims /\
    forall k, get_constraint k s =
      if (k <=? mo)%nat
      then match get_constraint k v with Some c => Some (map (fun d => nth d c 0) dims) | None => None end
      else None.
Proof.
  intros (HD & HS & HL) HF. unfold get_subdimension.
  replace (forallb _ dims) with true.
  2:{ symmetry. apply forallb_forall. intros x Hx. rewrite Forall_forall in HF.
      apply Nat.ltb_lt. rewrite HD. auto. }
  eexists. split; [reflexivity|]. split; [reflexivity|]. intros k. unfold get_constraint. simpl.
  destruct (sub_fold dims mo (v_cons v) []) as [_ B]; [constructor|]. rewrite B by auto. simpl.
  destruct (cons_find k (v_cons v)); destruct (Nat.ltb_spec mo k), (Nat.leb_spec k mo); auto; lia.
Qed.
Lemma get_subdimension_out D dims mo v :
  v_D v = D -> Exists (fun d => (D <= d)%nat) dims -> fst (get_subdimension dims mo v) = false.
Proof.
  intros HD HE. unfold get_subdimension.
  replace (forallb _ dims) with false; auto. symmetry.
  apply Exists_exists in HE as (x & Hx & Hd).
  destruct (forallb _ dims) eqn:E; auto. rewrite forallb_forall in E. specialize (E x Hx).
  apply Nat.ltb_lt in E. lia.
Qed.

(* ------------------------------------------------------------------ *)
(** ** Segment times *)

Lemma length_pairwise {A B} (f : A -> A -> B) l : length (pairwise f l) = (length l - 1)%nat.
Proof.
  induction l as [|a l IH]; [reflexivity|]. destruct l as [|b l]; [reflexivity|].
  change (pairwise f (a :: b :: l)) with (f a b :: pairwise f (b :: l)). simpl length in *. lia.
Qed.
Lemma nth_pairwise {A B} (f : A -> A -> B) l i a b :
  nth_error l i = Some a -> nth_error l (S i) = Some b -> nth_error (pairwise f l) i = Some (f a b).
Proof.
  revert i; induction l as [|x l IH]; intros i Ha Hb; [destruct i; discriminate|].
  destruct l as [|y l]; [destruct i; discriminate|].
  change (pairwise f (x :: y :: l)) with (f x y :: pairwise f (y :: l)).
  destruct i; simpl in *.
  - congruence.
  - apply IH; auto.
Qed.

Lemma vec_norm_nonneg v : 0 <= vec_norm v.
Proof. apply sqrt_pos. Qed.
Lemma vec_norm_pos v : (exists i, nth i v 0 <> 0) -> 0 < vec_norm v.
Proof.
  intros [i Hi]. apply sqrt_lt_R0. revert i Hi. induction v as [|x v IH]; intros i Hi.
  - destruct i; simpl in Hi; lra.
  - simpl. assert (0 <= lsum (map (fun x => x * x) v)).
    { apply lsum_nonneg, Forall_map, Forall_forall. intros; nra. }
    destruct i; simpl in Hi.
    + nra.
    + specialize (IH i Hi). nra.
Qed.
Lemma vec_norm_zero v : (forall i, nth i v 0 = 0) -> vec_norm v = 0.
Proof.
  intros H. unfold vec_norm. rewrite <- sqrt_0. f_equal.
  induction v as [|x v IH]; simpl; auto. rewrite IH.
  - specialize (H 0%nat). simpl in H. subst. lra.
  - intros i. apply (H (S i)).
Qed.

Lemma nfabian_ge v_max a_max a b : 0 < v_max -> 0 < a_max ->
  vec_norm (vec_sub (pos_of b) (pos_of a)) / v_max <= nfabian_time v_max a_max a b.
Proof.
  intros. unfold nfabian_time. destruct (_ || _); [|lra].
  assert (0 < v_max / a_max) by (apply Rdiv_lt_0_compat; auto). lra.
Qed.
Lemma nfabian_pos v_max a_max a b : 0 < v_max -> 0 < a_max ->
  (0 < vec_norm (vec_sub (pos_of b) (pos_of a)) \/ at_rest a = true \/ at_rest b = true) ->
  0 < nfabian_time v_max a_max a b.
Proof.
  intros Hv Ha H. unfold nfabian_time.
  assert (0 < v_max / a_max) by (apply Rdiv_lt_0_compat; auto).
  pose proof (vec_norm_nonneg (vec_sub (pos_of b) (pos_of a))).
  assert (0 <= vec_norm (vec_sub (pos_of b) (pos_of a)) / v_max).
  { apply Rmult_le_pos; auto. left; apply Rinv_0_lt_compat; auto. }
  destruct (at_rest a || at_rest b) eqn:E; [lra|].
  apply orb_false_elim in E as [E1 E2].
  destruct H as [H|[H|H]]; try congruence.
  apply Rdiv_lt_0_compat; auto.
Qed.

(** Rest-to-rest speed profile with acceleration a, peak speed p and cruising
    time c: it lasts 2 p/a + c and covers p^2/a + p c. *)
Lemma ramp_profile start goal v_max a_max : 0 < v_max -> 0 < a_max ->
  let d := vec_norm (vec_sub start goal) in
  let T := time_velocity_ramp start goal v_max a_max in
  exists p c, 0 <= p <= v_max /\ 0 <= c /\ (c = 0 \/ p = v_max) /\
    T = p / a_max + c + p / a_max /\ d = p * (p / a_max) / 2 + p * c + p * (p / a_max) / 2.
Proof.
  intros Hv Ha d T. unfold T, time_velocity_ramp. fold d.
  pose proof (vec_norm_nonneg (vec_sub start goal)) as Hd. fold d in Hd.
  rcase.
  - exists (sqrt (d * a_max)), 0.
    assert (Hda : 0 <= d * a_max) by (apply Rmult_le_pos; lra).
    assert (Hsq : sqrt (d * a_max) * sqrt (d * a_max) = d * a_max) by (apply sqrt_sqrt; auto).
    split; [split; [apply sqrt_pos|]|].
    + apply Rsqr_incr_0_var; [|lra]. unfold Rsqr. rewrite Hsq.
      assert (d * a_max < v_max * v_max); [|lra].
      replace (v_max * v_max) with (2 * (/ 2 * v_max * (v_max / a_max)) * a_max) by (field; lra).
      apply Rmult_lt_compat_r; auto.
    + split; [lra|]. split; [auto|]. split.
      * replace (d / a_max) with (d * a_max / (a_max * a_max)) by (field; lra).
        rewrite sqrt_div_alt by nra. rewrite sqrt_square by lra. field. lra.
      * replace (sqrt (d * a_max) * (sqrt (d * a_max) / a_max) / 2) with
          (sqrt (d * a_max) * sqrt (d * a_max) / a_max / 2) by (field; lra).
        rewrite Hsq. field. lra.
  - exists v_max, ((d - 2 * (/ 2 * v_max * (v_max / a_max))) / v_max).
    split; [lra|]. split.
    + apply Rmult_le_pos; [lra|left; apply Rinv_0_lt_compat; auto].
    + split; [auto|]. split; field; lra.
Qed.
Lemma ramp_ge start goal v_max a_max : 0 < v_max -> 0 < a_max ->
  vec_norm (vec_sub start goal) / v_max <= time_velocity_ramp start goal v_max a_max.
Proof.
  intros Hv Ha. destruct (ramp_profile start goal v_max a_max Hv Ha) as (p & c & Hp & Hc & _ & HT & Hd).
  cbv zeta in *. rewrite HT.
  apply Rmult_le_reg_r with v_max; auto.
  unfold Rdiv at 1. rewrite Rmult_assoc, Rinv_l, Rmult_1_r by lra. rewrite Hd.
  assert (0 <= p / a_max) by (apply Rmult_le_pos; [lra|left; apply Rinv_0_lt_compat; auto]).
  nra.
Qed.

(** Two equal consecutive positions, none at rest: segment time zero. *)
Lemma nfabian_zero v_max a_max a b :
  pos_of a = pos_of b -> at_rest a = false -> at_rest b = false -> nfabian_time v_max a_max a b = 0.
Proof.
  intros E A B. unfold nfabian_time. rewrite A, B. simpl. rewrite E.
  rewrite vec_norm_zero; [unfold Rdiv; ring|]. intros i. rewrite vec_sub_nth by auto. lra.
Qed.
(** Non-positive speed with distinct positions. *)
Lemma nfabian_bad_speed v_max a_max a b : v_max < 0 -> 0 < a_max -> nfabian_time v_max a_max a b <= 0.
Proof.
  intros Hv Ha. unfold nfabian_time.
  pose proof (vec_norm_nonneg (vec_sub (pos_of b) (pos_of a))).
  assert (vec_norm (vec_sub (pos_of b) (pos_of a)) / v_max <= 0).
  { unfold Rdiv. assert (/ v_max < 0) by (apply Rinv_lt_0_compat; auto). nra. }
  assert (v_max / a_max < 0).
  { unfold Rdiv. assert (0 < / a_max) by (apply Rinv_0_lt_compat; auto). nra. }
  destruct (_ || _); lra.
Qed.

(* ------------------------------------------------------------------ *)
(** ** Statements about whole vertex lists *)

Lemma estimate_segment_times_spec vs v_max a_max :
  (2 <= length vs)%nat -> 0 < v_max -> 0 < a_max ->
  exists ts, estimate_segment_times vs v_max a_max = Some ts /\ length ts = (length vs - 1)%nat /\
    forall i a b, nth_error vs i = Some a -> nth_error vs (S i) = Some b ->
    exists T, nth_error ts i = Some T /\
      vec_norm (vec_sub (pos_of b) (pos_of a)) / v_max <= T /\
      (0 < vec_norm (vec_sub (pos_of b) (pos_of a)) \/ at_rest a = true \/ at_rest b = true -> 0 < T) /\
      (pos_of a = pos_of b -> at_rest a = false -> at_rest b = false -> T = 0).
Proof.
  intros HL Hv Ha. unfold estimate_segment_times. destruct (Nat.ltb_spec (length vs) 2); [lia|].
  eexists. split; [reflexivity|]. split; [apply length_pairwise|].
  intros i a b H1 H2. exists (nfabian_time v_max a_max a b). split; [apply nth_pairwise; auto|].
  split; [apply nfabian_ge; auto|]. split; [apply nfabian_pos; auto|]. apply nfabian_zero.
Qed.
Lemma estimate_segment_times_short vs v_max a_max :
  (length vs < 2)%nat -> estimate_segment_times vs v_max a_max = None.
Proof. intros H. unfold estimate_segment_times. destruct (Nat.ltb_spec (length vs) 2); [auto|lia]. Qed.

Lemma estimate_segment_times_ramp_spec vs v_max a_max :
  (2 <= length vs)%nat -> 0 < v_max -> 0 < a_max ->
  exists ts, estimate_segment_times_ramp vs v_max a_max = Some ts /\ length ts = (length vs - 1)%nat /\
    forall i a b, nth_error vs i = Some a -> nth_error vs (S i) = Some b ->
    exists T, nth_error ts i = Some T /\ / 10 <= T /\
      vec_norm (vec_sub (pos_of a) (pos_of b)) / v_max <= T /\
      time_velocity_ramp (pos_of a) (pos_of b) v_max a_max <= T /\
      (T = / 10 \/ T = time_velocity_ramp (pos_of a) (pos_of b) v_max a_max).
Proof.
  intros HL Hv Ha. unfold estimate_segment_times_ramp. destruct (Nat.ltb_spec (length vs) 2); [lia|].
  eexists. split; [reflexivity|]. split; [apply length_pairwise|].
  intros i a b H1 H2. exists (ramp_time v_max a_max a b). split; [apply nth_pairwise; auto|].
  unfold ramp_time. split; [|split; [|split]].
  - eapply Rle_trans; [|apply Rmax_l]. lra.
  - eapply Rle_trans; [|apply Rmax_r]. apply ramp_ge; auto.
  - apply Rmax_r.
  - unfold Rmax. destruct Rle_dec; [auto|left; lra].
Qed.

Lemma is_equal_tol_refl D a tol : vertex_inv D a -> 0 <= tol -> is_equal_tol a a tol = true.
Proof.
  intros H Ht. apply (is_equal_tol_spec D); auto. intros k. destruct (get_constraint k a); auto.
  intros i. rewrite Rminus_diag_eq, Rabs_R0; auto.
Qed.
Lemma is_equal_tol_sym D a b tol : vertex_inv D a -> vertex_inv D b -> 0 <= tol ->
  is_equal_tol a b tol = is_equal_tol b a tol.
Proof.
  intros H1 H2 Ht. apply eq_true_iff_eq.
  rewrite (is_equal_tol_spec D), (is_equal_tol_spec D) by auto.
  split; intros H k; specialize (H k); destruct (get_constraint k a), (get_constraint k b); auto;
    intros i; rewrite Rabs_minus_sym; auto.
Qed.

Lemma has_constraint_iff k v : has_constraint k v = true <-> get_constraint k v <> None.
Proof. unfold has_constraint, get_constraint. destruct (cons_find k (v_cons v)); intuition congruence. Qed.
Lemma vertex_operations D os : Forall (op_dim D) os ->
  exists v, run_ops (vertex_new D) os = Some v /\ vertex_inv D v /\
    (forall k, get_constraint k v = fold_left (spec_op D) os (fun _ => None) k) /\
    (forall k, has_constraint k v = true <-> get_constraint k v <> None).
Proof.
  intros H. destruct (run_ops_spec D os (vertex_new D)) as (v & E & I & S); auto using vertex_new_inv.
  exists v. split; auto. split; auto. split; [exact S|]. intros. apply has_constraint_iff.
Qed.
Lemma add_constraint_mismatch D v d c : v_D v = D -> length c <> D -> add_constraint d c v = None.
Proof. intros <- H. unfold add_constraint. apply Nat.eqb_neq in H. now rewrite H. Qed.
Lemma remove_reports v d : fst (remove_constraint d v) = has_constraint d v.
Proof. unfold remove_constraint, has_constraint. destruct (cons_find d (v_cons v)); reflexivity. Qed.
