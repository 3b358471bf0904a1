(** C60 - timing accumulator, tags and handles. *)
From Coq Require Import String Reals Lra Lia List Arith Permutation.
From Verif Require Import Base TimingModel.
Import ListNotations.
Local Open Scope R_scope.
Set Bullet Behavior "Strict Subproofs".

(* ------------------------------------------------------------------ *)
(** ** Specification: statistics of a list of samples *)

Definition average (l : list R) : R := lsum l / INR (length l).
Definition variance (l : list R) : R := lsum (map (fun x => (x - average l) ^ 2) l) / INR (length l).
(** The last [min n N] samples. *)
Definition last_samples (N : nat) (xs : list R) : list R := skipn (length xs - N) xs.
Definition is_min (l : list R) (m : R) : Prop := In m l /\ forall x, In x l -> m <= x.
Definition is_max (l : list R) (m : R) : Prop := In m l /\ forall x, In x l -> x <= m.

(** The accumulator after the samples xs. *)
Definition acc_after (N : nat) (junk : nat -> R) (xs : list R) : accumulator :=
  fold_left (acc_add N) xs (acc_new junk).

(* ------------------------------------------------------------------ *)
(** ** Invariant *)

Record acc_inv (N : nat) (xs : list R) (a : accumulator) : Prop := {
  ai_window : a_window a = length xs;
  ai_total : a_total a = length xs;
  ai_sum : a_sum a = lsum xs;
  ai_wsum : a_wsum a = lsum (last_samples N xs);
  ai_samples : forall j, (length xs - N <= j < length xs)%nat -> a_samples a (j mod N)%nat = nth j xs 0;
  ai_min_le : a_min a <= DBL_MAX /\ forall x, In x xs -> a_min a <= x;
  ai_min_in : a_min a = DBL_MAX \/ In (a_min a) xs;
  ai_max_ge : DBL_MIN <= a_max a /\ forall x, In x xs -> x <= a_max a;
  ai_max_in : a_max a = DBL_MIN \/ In (a_max a) xs }.

Lemma lsum_app l m : lsum (l ++ m) = lsum l + lsum m.
Proof. induction l; cbn; [lra|]. rewrite IHl. lra. Qed.

Lemma skipn_cons_nth k (l : list R) : (k < length l)%nat -> skipn k l = nth k l 0 :: skipn (S k) l.
Proof.
  revert k; induction l as [|x l IH]; intros k H; cbn in H; [lia|]. destruct k; [reflexivity|].
  cbn [skipn nth]. apply IH. lia.
Qed.

Lemma mod_neq N j n : (0 < N)%nat -> (n < j + N /\ j < n)%nat -> (j mod N <> n mod N)%nat.
Proof.
  intros HN H E. pose proof (Nat.div_mod j N ltac:(lia)) as Ej. pose proof (Nat.div_mod n N ltac:(lia)) as En.
  rewrite E in Ej. set (a := (j / N)%nat) in *. set (b := (n / N)%nat) in *. set (r := (n mod N)%nat) in *.
  clearbody a b r. destruct (Nat.le_gt_cases b a); nia.
Qed.

Lemma acc_inv_add N xs a x : (0 < N)%nat -> acc_inv N xs a -> acc_inv N (xs ++ [x]) (acc_add N a x).
Proof.
  intros HN I. destruct I as [I1 I2 I3 I4 I5 [I6 I6'] I7 [I8 I8'] I9].
  set (n := length xs) in *.
  assert (Ln : length (xs ++ [x]) = S n) by (rewrite app_length; cbn; fold n; lia).
  assert (Hidx : (a_window a mod N = n mod N)%nat) by (now rewrite I1).
  assert (HS : forall j, (S n - N <= j < S n)%nat ->
     array_set (a_samples a) (n mod N) x (j mod N)%nat = nth j (xs ++ [x]) 0).
  { intros j Hj. unfold array_set. destruct (Nat.eq_dec j n) as [->|D].
    - rewrite Nat.eqb_refl, app_nth2 by (fold n; lia). fold n. now rewrite Nat.sub_diag.
    - destruct (Nat.eqb_spec (j mod N) (n mod N)) as [E|_].
      + exfalso. apply (mod_neq N j n); auto. lia.
      + rewrite app_nth1 by (fold n; lia). apply I5. lia. }
  assert (HW : lsum (last_samples N (xs ++ [x])) =
     lsum (last_samples N xs) + x - (if (n <? N)%nat then 0 else nth (n - N) xs 0)).
  { unfold last_samples. rewrite Ln. fold n. destruct (Nat.ltb_spec n N) as [C|C].
    - replace (S n - N)%nat with 0%nat by lia. replace (n - N)%nat with 0%nat by lia.
      cbn [skipn]. rewrite lsum_app. cbn. lra.
    - rewrite (skipn_cons_nth (n - N) xs) by (fold n; lia). cbn [lsum fold_right].
      replace (S n - N)%nat with (S (n - N)) by lia.
      rewrite skipn_app. fold n. replace (S (n - N) - n)%nat with 0%nat by lia.
      rewrite lsum_app. unfold lsum. cbn. lra. }
  assert (Hw : forall w : R,
     (if (n <? N)%nat then (S n, a_wsum a + x, array_set (a_samples a) n x)
      else (S n, a_wsum a + (x - a_samples a (n mod N)%nat), array_set (a_samples a) (n mod N) x))
     = (S n, lsum (last_samples N (xs ++ [x])), array_set (a_samples a) (n mod N) x)).
  { intros _. rewrite HW, I4. destruct (Nat.ltb_spec n N) as [C|C].
    - rewrite Nat.mod_small by lia. f_equal. f_equal. lra.
    - f_equal. f_equal. rewrite <- (I5 (n - N)%nat) by lia.
      replace (n mod N)%nat with ((n - N) mod N)%nat; [lra|].
      replace n with (n - N + 1 * N)%nat at 2 by lia. now rewrite Nat.mod_add by lia. }
  unfold acc_add. rewrite I1, (Hw 0). constructor; cbn.
  - auto.
  - now rewrite I2, Ln.
  - now rewrite I3, lsum_app; cbn; lra.
  - reflexivity.
  - rewrite Ln. exact HS.
  - split.
    + rcase; lra.
    + intros y Hy. apply in_app_or in Hy. destruct Hy as [Hy|[<-|[]]]; [specialize (I6' y Hy)|]; rcase; lra.
  - rcase; [right; apply in_or_app; right; now left|].
    destruct I7 as [->|I7]; [now left|right; apply in_or_app; now left].
  - split.
    + rcase; lra.
    + intros y Hy. apply in_app_or in Hy. destruct Hy as [Hy|[<-|[]]]; [specialize (I8' y Hy)|]; rcase; lra.
  - rcase; [right; apply in_or_app; right; now left|].
    destruct I9 as [->|I9]; [now left|right; apply in_or_app; now left].
Qed.

Lemma acc_after_inv N junk xs : (0 < N)%nat -> acc_inv N xs (acc_after N junk xs).
Proof.
  intros HN. induction xs as [|x xs IH] using rev_ind.
  - constructor; cbn; auto; try (intros; lia); split; try lra; intros ? [].
  - unfold acc_after in *. rewrite fold_left_app. cbn. now apply acc_inv_add.
Qed.

Lemma last_samples_length N xs : length (last_samples N xs) = Nat.min (length xs) N.
Proof. unfold last_samples. rewrite skipn_length. lia. Qed.

Lemma nth_skipn_R k i (l : list R) : nth i (skipn k l) 0 = nth (k + i) l 0.
Proof.
  revert l; induction k; intros l; cbn; [reflexivity|]. destruct l; [now destruct i|]. apply IHk.
Qed.
Lemma NoDup_map_in {A B} (f : A -> B) (l : list A) :
  (forall x y, In x l -> In y l -> f x = f y -> x = y) -> NoDup l -> NoDup (map f l).
Proof.
  induction l as [|x l IH]; intros H ND; cbn; [constructor|]. inversion ND; subst. constructor.
  - intros C. apply in_map_iff in C. destruct C as (y & E & Hy).
    assert (x = y) by (apply H; cbn; auto). subst; contradiction.
  - apply IH; auto. intros; apply H; cbn; auto.
Qed.

(** The array holds the last samples in some order. *)
Lemma window_perm N xs a : (0 < N)%nat -> acc_inv N xs a ->
  Permutation (map (a_samples a) (seq 0 (Nat.min (length xs) N))) (last_samples N xs).
Proof.
  intros HN I. set (n := length xs). set (m := Nat.min n N).
  assert (P : Permutation (seq 0 m) (map (fun j => j mod N) (seq (n - m) m))).
  { symmetry. apply NoDup_Permutation_bis.
    - apply NoDup_map_in; [|apply seq_NoDup].
      intros i j Hi Hj E. rewrite in_seq in Hi, Hj.
      destruct (Nat.lt_trichotomy i j) as [L|[L|L]]; auto; exfalso.
      + apply (mod_neq N i j); auto; lia.
      + apply (mod_neq N j i); auto; lia.
    - rewrite map_length, !seq_length. lia.
    - intros k Hk. apply in_map_iff in Hk. destruct Hk as (j & <- & Hj). apply in_seq in Hj. apply in_seq.
      pose proof (Nat.mod_upper_bound j N ltac:(lia)).
      destruct (Nat.le_gt_cases N n); [lia|]. rewrite Nat.mod_small by lia. lia. }
  rewrite P, map_map.
  replace (map (fun x => a_samples a (x mod N)%nat) (seq (n - m) m)) with (map (fun j => nth j xs 0) (seq (n - m) m)).
  2:{ apply map_ext_in. intros j Hj. apply in_seq in Hj. symmetry. apply (ai_samples _ _ _ I). fold n. lia. }
  replace (map (fun j => nth j xs 0) (seq (n - m) m)) with (last_samples N xs); [reflexivity|].
  apply nth_ext with 0 0.
  - rewrite last_samples_length, map_length, seq_length. reflexivity.
  - intros k Hk. rewrite last_samples_length in Hk. fold n m in Hk.
    rewrite (nth_indep (map _ _) 0 (nth 0 xs 0)) by (now rewrite map_length, seq_length).
    rewrite (map_nth (fun j => nth j xs 0)), seq_nth by auto.
    unfold last_samples. fold n. rewrite nth_skipn_R. f_equal. lia.
Qed.

Lemma lsum_perm l m : Permutation l m -> lsum l = lsum m.
Proof. induction 1; cbn; try lra. Qed.

Lemma fold_lsum (f : nat -> R) l z : fold_left (fun v i => v + f i) l z = z + lsum (map f l).
Proof. revert z; induction l; intros z; cbn; [lra|]. rewrite IHl. lra. Qed.

(* ------------------------------------------------------------------ *)
(** ** C60: statistics *)

(** Number, sum, mean, mean and variance of the last min(n,N) samples. *)
Theorem C60_statistics : forall (N : nat) (junk : nat -> R) (xs : list R), (0 < N)%nat ->
  let a := acc_after N junk xs in
  acc_total_samples a = length xs /\ acc_get_sum a = lsum xs /\ acc_mean a = average xs /\
  acc_rolling_mean N a = average (last_samples N xs) /\
  (xs <> [] -> acc_lazy_variance N a = variance (last_samples N xs)) /\
  (xs = [] -> acc_lazy_variance N a = 0).
Proof.
  intros N junk xs HN a. pose proof (acc_after_inv N junk xs HN) as I. fold a in I.
  assert (RM : acc_rolling_mean N a = average (last_samples N xs)).
  { unfold acc_rolling_mean, average. now rewrite (ai_wsum _ _ _ I), (ai_window _ _ _ I), last_samples_length. }
  repeat split.
  - apply (ai_total _ _ _ I).
  - apply (ai_sum _ _ _ I).
  - unfold acc_mean, average. now rewrite (ai_sum _ _ _ I), (ai_total _ _ _ I).
  - exact RM.
  - intros NE. unfold acc_lazy_variance. rewrite RM, (ai_window _ _ _ I).
    destruct (Nat.eqb_spec (length xs) 0) as [E|_]; [destruct xs; [easy|discriminate]|].
    unfold variance. rewrite last_samples_length. f_equal.
    set (mu := average (last_samples N xs)).
    rewrite (fold_lsum (fun i => (a_samples a i - mu) * (a_samples a i - mu))). rewrite Rplus_0_l.
    rewrite <- (map_map (a_samples a) (fun x => (x - mu) * (x - mu))).
    rewrite (map_ext _ (fun x => (x - mu) ^ 2)) by (intros; ring).
    apply lsum_perm, Permutation_map, window_perm; auto.
  - intros ->. reflexivity.
Qed.

(** Minimum: right as soon as one sample is a finite double. *)
Theorem C60_minimum : forall (N : nat) (junk : nat -> R) (xs : list R), (0 < N)%nat ->
  (exists x, In x xs /\ x <= DBL_MAX) -> is_min xs (acc_get_min (acc_after N junk xs)).
Proof.
  intros N junk xs HN (x & Hx & Hle). pose proof (acc_after_inv N junk xs HN) as I.
  split; [|apply (proj2 (ai_min_le _ _ _ I))].
  unfold acc_get_min. destruct (ai_min_in _ _ _ I) as [E|E]; auto.
  replace (a_min (acc_after N junk xs)) with x; auto.
  pose proof (proj2 (ai_min_le _ _ _ I) x Hx). lra.
Qed.

(** Maximum: right if some sample is at least DBL_MIN; otherwise it is DBL_MIN,
    which is then larger than every sample. *)
Theorem C60_maximum : forall (N : nat) (junk : nat -> R) (xs : list R), (0 < N)%nat ->
  ((exists x, In x xs /\ DBL_MIN <= x) -> is_max xs (acc_get_max (acc_after N junk xs))) /\
  ((forall x, In x xs -> x < DBL_MIN) -> acc_get_max (acc_after N junk xs) = DBL_MIN).
Proof.
  intros N junk xs HN. pose proof (acc_after_inv N junk xs HN) as I. split.
  - intros (x & Hx & Hle). split; [|apply (proj2 (ai_max_ge _ _ _ I))].
    unfold acc_get_max. destruct (ai_max_in _ _ _ I) as [E|E]; auto.
    replace (a_max (acc_after N junk xs)) with x; auto.
    pose proof (proj2 (ai_max_ge _ _ _ I) x Hx). lra.
  - intros H. unfold acc_get_max. destruct (ai_max_in _ _ _ I) as [E|E]; auto.
    pose proof (H _ E). pose proof (proj1 (ai_max_ge _ _ _ I)). lra.
Qed.
(** The maximum of negative samples (e.g. the clock was set back) is wrong. *)
Theorem C60_maximum_refuted : forall N junk, (0 < N)%nat ->
  exists xs, xs <> [] /\ ~ is_max xs (acc_get_max (acc_after N junk xs)).
Proof.
  intros N junk HN. exists [-1; -2]. split; [discriminate|]. intros [H _].
  rewrite (proj2 (C60_maximum N junk [-1; -2] HN)) in H.
  - pose proof DBL_MIN_pos. cbn in H. destruct H as [H|[H|[]]]; lra.
  - intros x Hx. pose proof DBL_MIN_pos. cbn in Hx. destruct Hx as [Hx|[Hx|[]]]; subst; lra.
Qed.

Example C60_example : forall junk, let a := acc_after 2 junk [1; 2; 4] in
  acc_total_samples a = 3%nat /\ acc_get_sum a = 7 /\ acc_rolling_mean 2 a = 3 /\
  acc_lazy_variance 2 a = 1 /\ is_min [1; 2; 4] 1.
Proof.
  intros junk a. destruct (C60_statistics 2 junk [1; 2; 4] ltac:(lia)) as (A & B & _ & D & E & _).
  repeat split.
  - fold a in B. rewrite B. cbn; lra.
  - fold a in D. rewrite D. unfold average, last_samples. cbn. lra.
  - fold a in E. rewrite E by discriminate. unfold variance, average, last_samples. cbn. lra.
  - cbn; auto.
  - cbn. intros x [<-|[<-|[<-|[]]]]; lra.
Qed.

(* ------------------------------------------------------------------ *)
(** ** C60: tags and handles *)

(** Samples recorded for handle h in a history. *)
Definition recorded (h : nat) (os : list top) : list R :=
  flat_map (fun o => match o with OAdd h' x => if (h' =? h)%nat then [x] else [] | _ => [] end) os.

Record tm_inv (junk : nat -> R) (os : list top) (s : timing) : Prop := {
  ti_keys : NoDup (map fst (tm_tags s));
  ti_handles : NoDup (map snd (tm_tags s));
  ti_range : forall t h, In (t, h) (tm_tags s) -> (h < length (tm_timers s))%nat;
  ti_timers : forall h a, nth_error (tm_timers s) h = Some a -> a = acc_after TIMER_WINDOW junk (recorded h os);
  ti_fresh : forall h, (length (tm_timers s) <= h)%nat -> recorded h os = [] }.

Lemma lookup_in tag m h : lookup tag m = Some h -> In (tag, h) m.
Proof.
  induction m as [|[t k] m IH]; cbn; [discriminate|].
  destruct (String.eqb_spec t tag) as [->|]; [intros [= ->]; now left|auto].
Qed.
Lemma lookup_none tag m : lookup tag m = None -> ~ In tag (map fst m).
Proof.
  induction m as [|[t k] m IH]; cbn; [auto|].
  destruct (String.eqb_spec t tag) as [->|]; [discriminate|]. intros H [C|C]; [easy|]. now apply IH.
Qed.
Lemma lookup_complete tag m h : NoDup (map fst m) -> In (tag, h) m -> lookup tag m = Some h.
Proof.
  induction m as [|[t k] m IH]; cbn; [easy|]. intros ND [E|E].
  - inversion E; subst. now rewrite String.eqb_refl.
  - inversion ND; subst. destruct (String.eqb_spec t tag) as [->|]; [|auto].
    exfalso. apply H1. apply in_map_iff. now exists (tag, h).
Qed.

Lemma recorded_app h os o : recorded h (os ++ [o]) =
  recorded h os ++ match o with OAdd h' x => if (h' =? h)%nat then [x] else [] | _ => [] end.
Proof. unfold recorded. rewrite flat_map_app. cbn. now rewrite app_nil_r. Qed.

Lemma nth_error_update {A} (l : list A) i x j y : (i < length l)%nat ->
  nth_error (update_nth i x l) j = Some y -> (j = i /\ y = x) \/ (j <> i /\ nth_error l j = Some y).
Proof.
  unfold update_nth. revert i j; induction l as [|z l IH]; intros i j Hi H; cbn in Hi; [lia|].
  destruct i; cbn in H.
  - destruct j; cbn in H; [left; split; congruence|right; split; [easy|exact H]].
  - destruct j; cbn in H; [right; split; [easy|exact H]|].
    destruct (IH i j ltac:(lia) H) as [[-> ->]|[D E]]; [left; auto|right; split; [lia|exact E]].
Qed.
Lemma update_length {A} (l : list A) i x : (i < length l)%nat -> length (update_nth i x l) = length l.
Proof. intros H. unfold update_nth. rewrite app_length, firstn_length. cbn [length]. rewrite skipn_length. lia. Qed.

Lemma acc_after_snoc junk xs x :
  acc_after TIMER_WINDOW junk (xs ++ [x]) = acc_add TIMER_WINDOW (acc_after TIMER_WINDOW junk xs) x.
Proof. unfold acc_after. now rewrite fold_left_app. Qed.

Lemma tm_inv_step junk os o s s' : tm_inv junk os s -> top_step junk o s = Some s' -> tm_inv junk (os ++ [o]) s'.
Proof.
  intros I E. destruct o as [tag|h x|]; cbn in E.
  - injection E as <-. unfold get_handle. destruct (lookup tag (tm_tags s)) as [h|] eqn:L.
    + destruct I as [I1 I2 I3 I4 I5]. constructor; cbn; auto; intros; rewrite recorded_app, app_nil_r; auto.
    + destruct I as [I1 I2 I3 I4 I5]. constructor; cbn.
      * rewrite map_app. cbn.
        apply Permutation_NoDup with (l := tag :: map fst (tm_tags s)); [apply Permutation_cons_append|].
        constructor; auto. now apply lookup_none.
      * rewrite map_app. cbn.
        apply Permutation_NoDup with (l := length (tm_timers s) :: map snd (tm_tags s)); [apply Permutation_cons_append|].
        constructor; auto. intros C. apply in_map_iff in C. destruct C as ([t k] & Ek & Hk). cbn in Ek; subst k.
        apply I3 in Hk. lia.
      * intros t h H. rewrite app_length; cbn. apply in_app_or in H. destruct H as [H|[H|[]]].
        -- apply I3 in H. lia.
        -- injection H as _ <-. lia.
      * intros h a H. rewrite recorded_app, app_nil_r.
        destruct (Nat.lt_ge_cases h (length (tm_timers s))) as [C|C].
        -- rewrite nth_error_app1 in H by auto. auto.
        -- rewrite nth_error_app2 in H by auto. destruct (h - length (tm_timers s))%nat eqn:D; cbn in H.
           ++ injection H as <-. rewrite I5 by lia. reflexivity.
           ++ now destruct n.
      * intros h H. rewrite app_length in H; cbn in H. rewrite recorded_app, app_nil_r. apply I5. lia.
  - unfold add_time in E. destruct (nth_error (tm_timers s) h) as [a|] eqn:Ea; [|discriminate]. injection E as <-.
    assert (Hh : (h < length (tm_timers s))%nat) by (apply nth_error_Some; congruence).
    destruct I as [I1 I2 I3 I4 I5]. constructor; cbn; auto.
    + intros t k H. rewrite update_length by auto. eauto.
    + intros k b H. rewrite recorded_app. apply nth_error_update in H; auto. destruct H as [[-> ->]|[D H]].
      * rewrite Nat.eqb_refl. rewrite acc_after_snoc. now rewrite (I4 h a).
      * destruct (Nat.eqb_spec h k); [congruence|]. rewrite app_nil_r. auto.
    + intros k H. rewrite update_length in H by auto. rewrite recorded_app.
      destruct (Nat.eqb_spec h k); [lia|]. rewrite app_nil_r. auto.
  - injection E as <-. destruct I as [I1 I2 I3 I4 I5]. constructor; cbn; try constructor; try easy.
    + intros h a H. rewrite recorded_app, app_nil_r. auto.
    + intros h H. rewrite recorded_app, app_nil_r. auto.
Qed.

Lemma top_run_app junk a b s : top_run junk (a ++ b) s =
  match top_run junk a s with Some s' => top_run junk b s' | None => None end.
Proof. revert s; induction a; intros s; cbn; auto. destruct (top_step junk a s); auto. Qed.

Lemma tm_inv_run junk os s : top_run junk os timing_new = Some s -> tm_inv junk os s.
Proof.
  revert s; induction os as [|o os IH] using rev_ind; intros s H.
  - injection H as <-. constructor; cbn; try constructor; try easy. intros [|h] a; cbn; discriminate.
  - rewrite top_run_app in H. destruct (top_run junk os timing_new) as [s0|]; [|discriminate].
    cbn in H. destruct (top_step junk o s0) as [s1|] eqn:E; [|discriminate]. injection H as <-.
    eapply tm_inv_step; eauto.
Qed.

(** The handle of a tag leads back to the tag; asking again changes nothing;
    different tags have different handles; handles are valid. *)
Theorem C60_tag_of_handle : forall junk os s tag h s',
  top_run junk os timing_new = Some s -> get_handle junk tag s = (h, s') ->
  get_tag h s' = tag /\ get_handle junk tag s' = (h, s') /\ get_num_samples h s' <> None /\
  (forall tag' h' s'', get_handle junk tag' s' = (h', s'') -> h' = h -> tag' = tag).
Proof.
  intros junk os s tag h s' R G.
  assert (R' : top_run junk (os ++ [OHandle tag]) timing_new = Some s').
  { rewrite top_run_app, R. cbn. now rewrite G. }
  apply tm_inv_run in R'. destruct R' as [J1 J2 J3 J4 J5].
  assert (L : lookup tag (tm_tags s') = Some h).
  { unfold get_handle in G. destruct (lookup tag (tm_tags s)) as [h0|] eqn:L.
    - injection G as <- <-. exact L.
    - injection G as <- <-. cbn in J1 |- *. apply lookup_complete; auto. apply in_or_app. right; now left. }
  pose proof (lookup_in _ _ _ L) as IN.
  assert (U : forall t k t', In (t, k) (tm_tags s') -> In (t', k) (tm_tags s') -> t = t').
  { clear - J2. intros t k t'. induction (tm_tags s') as [|[u j] m IH]; cbn in *; [easy|].
    inversion J2; subst. intros [A|A] [B|B]; try congruence; auto.
    - exfalso. injection A as -> ->. apply H1. apply in_map_iff. now exists (t', k).
    - exfalso. injection B as -> ->. apply H1. apply in_map_iff. now exists (t, k). }
  repeat split.
  - unfold get_tag. destruct (find _ _) as [[t k]|] eqn:F.
    + apply find_some in F. cbn in F. destruct F as [F1 F2]. apply Nat.eqb_eq in F2. subst k. cbn. eauto.
    + exfalso. apply (find_none _ _ F) in IN. cbn in IN. rewrite Nat.eqb_refl in IN. discriminate.
  - unfold get_handle. now rewrite L.
  - unfold get_num_samples, get_stat. apply J3 in IN. apply nth_error_Some in IN.
    destruct (nth_error (tm_timers s') h); cbn; congruence.
  - intros tag' h' s'' G' ->. unfold get_handle in G'. destruct (lookup tag' (tm_tags s')) as [k|] eqn:L'.
    + injection G' as -> <-. apply lookup_in in L'. eauto.
    + injection G' as E <-. apply J3 in IN. lia.
Qed.

(** Until Reset a tag keeps its handle. *)
Lemma lookup_app tag h m n : lookup tag m = Some h -> lookup tag (m ++ n) = Some h.
Proof. induction m as [|[t k] m IH]; cbn; [discriminate|]. destruct (String.eqb t tag); auto. Qed.

Theorem C60_handle_stable : forall junk tag h os s1 s2,
  (exists s0, get_handle junk tag s0 = (h, s1) /\ exists os0, top_run junk os0 timing_new = Some s0) ->
  top_run junk os s1 = Some s2 -> ~ In OReset os -> get_handle junk tag s2 = (h, s2).
Proof.
  intros junk tag h os s1 s2 (s0 & G & os0 & R0) R NR.
  assert (L : lookup tag (tm_tags s1) = Some h).
  { destruct (C60_tag_of_handle _ _ _ _ _ _ R0 G) as (_ & G' & _). unfold get_handle in G'.
    destruct (lookup tag (tm_tags s1)) as [k|] eqn:L; [congruence|]. injection G' as _ E.
    apply (f_equal (fun s => length (tm_timers s))) in E. cbn in E. rewrite app_length in E. cbn in E. lia. }
  clear s0 G os0 R0. revert s1 L R. induction os as [|o os IH]; intros s1 L R; cbn in R.
  - injection R as <-. unfold get_handle. now rewrite L.
  - destruct (top_step junk o s1) as [s'|] eqn:E; [|discriminate].
    apply (IH ltac:(intros C; apply NR; now right) s'); auto.
    destruct o as [t|k x|]; cbn in E.
    + injection E as <-. unfold get_handle. destruct (lookup t (tm_tags s1)); cbn; auto. now apply lookup_app.
    + unfold add_time in E. destruct (nth_error (tm_timers s1) k); [|discriminate]. injection E as <-. exact L.
    + exfalso. apply NR. now left.
Qed.

(** Every valid handle reports the statistics of exactly the samples recorded
    for it since it was created, across Reset too. *)
Theorem C60_statistics_of_handle : forall junk os s h,
  top_run junk os timing_new = Some s -> get_num_samples h s <> None ->
  let xs := recorded h os in
  get_num_samples h s = Some (length xs) /\ get_total_seconds h s = Some (lsum xs) /\
  get_mean_seconds h s = Some (average xs) /\
  (xs <> [] -> get_variance_seconds h s = Some (variance (last_samples 50 xs)) /\
     get_hz h s = Some (1 / average (last_samples 50 xs))) /\
  ((exists x, In x xs /\ x <= DBL_MAX) -> exists m, get_min_seconds h s = Some m /\ is_min xs m) /\
  ((exists x, In x xs /\ DBL_MIN <= x) -> exists m, get_max_seconds h s = Some m /\ is_max xs m).
Proof.
  intros junk os s h R V xs. apply tm_inv_run in R. destruct R as [_ _ _ J _].
  unfold get_num_samples, get_total_seconds, get_mean_seconds, get_variance_seconds, get_hz, get_min_seconds,
    get_max_seconds, get_stat in *.
  destruct (nth_error (tm_timers s) h) as [a|] eqn:E; [|now cbn in V]. rewrite (J h a E). fold xs. cbn [option_map].
  destruct (C60_statistics TIMER_WINDOW junk xs ltac:(unfold TIMER_WINDOW; lia)) as (A & B & C & D & F & _).
  rewrite A, B, C, D. repeat split.
  - now rewrite F.
  - intros H. eexists; split; [reflexivity|]. apply C60_minimum; auto. unfold TIMER_WINDOW; lia.
  - intros H. eexists; split; [reflexivity|]. apply C60_maximum; auto. unfold TIMER_WINDOW; lia.
Qed.

(** Reset forgets the tags only: the data of old handles stays and no handle is
    used twice, so a tag looked up again starts from zero with a new handle. *)
Theorem C60_reset : forall junk os s h,
  top_run junk os timing_new = Some s -> get_num_samples h s <> None ->
  let r := timing_reset s in
  top_run junk (os ++ [OReset]) timing_new = Some r /\
  get_tag h r = ""%string /\ get_num_samples h r = get_num_samples h s /\
  get_total_seconds h r = get_total_seconds h s /\
  (forall tag h' s', get_handle junk tag r = (h', s') -> h' <> h /\ get_num_samples h' s' = Some 0%nat /\
     get_num_samples h s' = get_num_samples h s).
Proof.
  intros junk os s h R V r. repeat split.
  - rewrite top_run_app, R. reflexivity.
  - unfold r, get_handle in H. cbn in H. injection H as <- <-. intros <-. apply V.
    unfold get_num_samples, get_stat. now rewrite (proj2 (nth_error_None _ _)) by lia.
  - unfold r, get_handle in H. cbn in H. injection H as <- <-. unfold get_num_samples, get_stat. cbn.
    rewrite nth_error_app2, Nat.sub_diag by lia. reflexivity.
  - unfold r, get_handle in H. cbn in H. injection H as <- <-. unfold get_num_samples, get_stat in *. cbn.
    destruct (nth_error (tm_timers s) h) eqn:E; [|now cbn in V].
    rewrite nth_error_app1 by (apply nth_error_Some; congruence). now rewrite E.
Qed.

(** ** C60: timers *)

(** A timer records the time between start and stop (or destruction) for its
    handle and touches nothing else. *)
Theorem C60_timer : forall (h : nat) (t0 t1 : R) (s : timing), get_num_samples h s <> None ->
  exists s', timer_destroy t1 (timer_new h false t0) s = Some s' /\
    add_time h (t1 - t0) s = Some s' /\
    (forall r, timer_stop t1 (timer_new h false t0) s = Some (r, s') -> timer_destroy t1 r s' = Some s') /\
    timer_stop t1 (timer_new h false t0) s <> None.
Proof.
  intros h t0 t1 s V. unfold get_num_samples, get_stat in V.
  unfold timer_destroy, timer_new, timer_start, timer_stop, add_time. cbn [r_timing r_handle r_time].
  destruct (nth_error (tm_timers s) h) as [a|] eqn:E; [|now cbn in V]. cbn [option_map snd].
  eexists. repeat split; try easy. intros r H. injection H as <-. reflexivity.
Qed.
(** A timer constructed stopped records nothing on destruction, but its Stop
    records the time since the epoch; a second Stop records a second sample. *)
Theorem C60_stop_twice_refuted : forall (h : nat) (t0 t1 t2 : R) (s : timing), get_num_samples h s <> None ->
  timer_destroy t1 (timer_new h true t0) s = Some s /\
  (exists s', option_map snd (timer_stop t1 (timer_new h true t0) s) = Some s' /\ add_time h t1 s = Some s') /\
  (forall r s', timer_stop t1 (timer_new h false t0) s = Some (r, s') ->
     exists s'', option_map snd (timer_stop t2 r s') = Some s'' /\ add_time h (t2 - t0) s' = Some s'').
Proof.
  intros h t0 t1 t2 s V. unfold get_num_samples, get_stat in V. repeat split.
  - unfold timer_stop, timer_new, add_time. cbn [r_handle r_time].
    destruct (nth_error (tm_timers s) h) as [a|] eqn:E; [|now cbn in V]. cbn.
    rewrite Rminus_0_r. eexists; split; reflexivity.
  - intros r s' H. unfold timer_stop, timer_new, timer_start, add_time in H. cbn [r_handle r_time] in H.
    destruct (nth_error (tm_timers s) h) as [a|] eqn:E; [|discriminate]. injection H as <- <-.
    unfold timer_stop. cbn [r_handle r_time].
    assert (Hh : (h < length (tm_timers s))%nat) by (apply nth_error_Some; congruence).
    unfold add_time. cbn [tm_timers].
    destruct (nth_error (update_nth h (acc_add TIMER_WINDOW a (t1 - t0)) (tm_timers s)) h) eqn:E2.
    + cbn. eexists; split; reflexivity.
    + exfalso. apply nth_error_None in E2. rewrite update_length in E2; lia.
Qed.
(** MiniTimer reports the elapsed time, and 0 if the clock went back. *)
Theorem C60_mini_timer : forall a b : R, mini_get_time a b = Rmax 0 (b - a).
Proof. intros a b. unfold mini_get_time. rcase; [rewrite Rmax_left|rewrite Rmax_right]; lra. Qed.

(** Non-trivial history: two tags, three samples, a reset. *)
Example C60_example_tags : forall junk, exists s,
  top_run junk [OHandle "a"; OHandle "b"; OAdd 1 5; OAdd 0 1; OAdd 1 7; OReset; OHandle "b"] timing_new = Some s /\
  get_num_samples 1 s = Some 2%nat /\ get_total_seconds 1 s = Some 12 /\ get_tag 1 s = ""%string /\
  fst (get_handle junk "b" s) = 2%nat /\ get_num_samples 2 s = Some 0%nat.
Proof.
  intros junk. eexists. split; [reflexivity|]. repeat split.
  unfold get_total_seconds, get_stat. cbn. f_equal. unfold acc_get_sum. cbn. lra.
Qed.

Print Assumptions C60_statistics.
Print Assumptions C60_minimum.
Print Assumptions C60_maximum.
Print Assumptions C60_maximum_refuted.
Print Assumptions C60_tag_of_handle.
Print Assumptions C60_handle_stable.
Print Assumptions C60_statistics_of_handle.
Print Assumptions C60_reset.
Print Assumptions C60_timer.
Print Assumptions C60_stop_twice_refuted.
Print Assumptions C60_mini_timer.
