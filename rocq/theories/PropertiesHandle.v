(** Property theorems: ThreadSafeTrajectory as a handle on a shared trajectory (C104). *)
From Coq Require Import Reals Lra Lia List Bool Arith.
From Verif Require Import Base PolyModel VertexModel TrajModel HandleModel.
Import List ListNotations.
Local Open Scope R_scope.
Set Bullet Behavior "Strict Subproofs".

(** ** Specification *)

(** The memory after some program without undefined behaviour. *)
Definition mem_reachable (m : mem) : Prop := exists os, mem_run mem_empty os = Some m.
(** All that the calls of handle i return. *)
Definition same_answers (m : mem) (i : nat) (m' : mem) (i' : nat) : Prop :=
  h_is_null m i = h_is_null m' i' /\ h_max_time m i = h_max_time m' i' /\ h_min_time m i = h_min_time m' i' /\
  h_segments m i = h_segments m' i' /\ h_waypoints m i = h_waypoints m' i' /\
  forall t d, h_evaluate m i t d = h_evaluate m' i' t d.
(** The answers are those of the trajectory tr. *)
Definition answers_of (tr : trajectory) (m : mem) (i : nat) : Prop :=
  h_is_null m i = Some false /\ h_max_time m i = Some (t_max tr) /\ h_min_time m i = Some 0 /\
  h_segments m i = Some (t_segs tr) /\ h_waypoints m i = Some (get_vertices tr 0) /\
  forall t d, h_evaluate m i t d = Some (traj_evaluate tr t d).
(** The handles or pointers c that refer to allocation p. *)
Definition refers (c : cell) (p : nat) : bool := match c with Holds (Some q) => (q =? p)%nat | _ => false end.

(** ** Lists *)
Lemma put_length {A} (a : A) l : forall i, length (put i a l) = length l.
Proof. induction l as [|x l IH]; intros [|i]; cbn; auto. Qed.
Lemma put_nth {A} (a : A) l : forall i k, nth_error (put i a l) k =
  if (k =? i)%nat then (if (k <? length l)%nat then Some a else None) else nth_error l k.
Proof.
  induction l as [|x l IH]; intros i k.
  - cbn [put length]. destruct k; destruct (_ =? i)%nat; reflexivity.
  - destruct i as [|i], k as [|k]; cbn [put nth_error length Nat.eqb]; try reflexivity. rewrite IH. reflexivity.
Qed.
Lemma put_nth_same {A} (a : A) l i x : nth_error l i = Some x -> nth_error (put i a l) i = Some a.
Proof.
  intros H. rewrite put_nth, Nat.eqb_refl. assert (i < length l)%nat by (apply nth_error_Some; congruence).
  destruct (Nat.ltb_spec i (length l)); [reflexivity|lia].
Qed.
Lemma put_nth_other {A} (a : A) l i k : k <> i -> nth_error (put i a l) k = nth_error l k.
Proof. intros H. rewrite put_nth. destruct (Nat.eqb_spec k i); [congruence|reflexivity]. Qed.
Definition uses (l : list cell) (p : nat) : nat := length (filter (fun c => refers c p) l).
Lemma uses_app l l' p : uses (l ++ l') p = (uses l p + uses l' p)%nat.
Proof. unfold uses. rewrite filter_app, app_length. reflexivity. Qed.
Lemma uses_put c l p : forall i x, nth_error l i = Some x ->
  (uses (put i c l) p + Nat.b2n (refers x p) = uses l p + Nat.b2n (refers c p))%nat.
Proof.
  unfold uses. induction l as [|y l IH]; intros [|i] x H; cbn [nth_error] in H; try discriminate.
  - inversion H; subst. cbn [put filter]. destruct (refers x p), (refers c p); cbn; lia.
  - specialize (IH i x H). cbn [put filter]. destruct (refers y p); cbn [length]; lia.
Qed.
Lemma uses_zero l p : uses l p = 0%nat <-> forall i q, nth_error l i = Some (Holds (Some q)) -> q <> p.
Proof.
  unfold uses. split.
  - intros H i q E ->. apply nth_error_In in E. assert (K : In (Holds (Some p)) (filter (fun c => refers c p) l)).
    { apply filter_In. split; [exact E|]. cbn. apply Nat.eqb_refl. }
    destruct (filter _ l); [contradiction|discriminate].
  - intros H. destruct (filter (fun c => refers c p) l) as [|c l'] eqn:E; [reflexivity|exfalso].
    assert (K : In c (filter (fun c => refers c p) l)) by (rewrite E; left; reflexivity).
    apply filter_In in K. destruct K as [K1 K2]. apply In_nth_error in K1. destruct K1 as [i K1].
    destruct c as [|[q|]]; try discriminate. cbn in K2. apply Nat.eqb_eq in K2. apply (H i q K1 K2).
Qed.

(** ** The counts are right *)
Record good (m : mem) (d : nat -> nat) : Prop := mkGood {
  g_len : length (m_counts m) = length (m_objects m);
  (* d: references acquired but not yet stored, or stored but no longer counted *)
  g_cnt : forall p, (p < length (m_objects m))%nat ->
     (nth p (m_counts m) 0 = uses (m_handles m) p + uses (m_client m) p + d p)%nat;
  g_live : forall p, (p < length (m_objects m))%nat -> (nth_error (m_objects m) p = Some None <-> nth p (m_counts m) 0%nat = 0%nat);
  g_in : forall p, (length (m_objects m) <= p)%nat -> (uses (m_handles m) p = 0 /\ uses (m_client m) p = 0 /\ d p = 0)%nat }.
Definition none : nat -> nat := fun _ => 0%nat.
Definition one (q : option nat) : nat -> nat := fun p => match q with Some x => Nat.b2n (x =? p)%nat | None => 0%nat end.
Lemma nth_put (l : list nat) i a k : (i < length l)%nat -> nth k (put i a l) 0%nat = if (k =? i)%nat then a else nth k l 0%nat.
Proof.
  intros H. assert (E : nth_error (put i a l) k = if (k =? i)%nat then Some a else nth_error l k).
  { rewrite put_nth. destruct (Nat.eqb_spec k i); [|reflexivity]. subst. destruct (Nat.ltb_spec i (length l)); [reflexivity|lia]. }
  destruct (Nat.eqb_spec k i).
  - apply nth_error_nth. exact E.
  - destruct (nth_error l k) eqn:F.
    + rewrite (nth_error_nth _ _ _ E), (nth_error_nth _ _ _ F). reflexivity.
    + rewrite (proj2 (nth_error_None _ _)) in E by (rewrite put_length; now apply nth_error_None). clear E.
      rewrite !nth_overflow; auto; [now apply nth_error_None|rewrite put_length; now apply nth_error_None].
Qed.
(** Acquiring a pointer that is in use. *)
Lemma acquire_good m d q : good m d -> (forall p, q = Some p -> (p < length (m_objects m))%nat /\ nth p (m_counts m) 0%nat <> 0%nat) ->
  good (acquire q m) (fun p => d p + one q p)%nat.
Proof.
  intros G H. destruct q as [x|]; cbn [acquire one].
  2: { destruct G as [G1 G2 G3 G4]. constructor; auto.
       - intros p Hp. rewrite (G2 p Hp). lia.
       - intros p Hp. destruct (G4 p Hp) as (? & ? & ?). repeat split; auto; lia. }
  destruct (H x eq_refl) as [Hx Hn]. destruct G as [G1 G2 G3 G4].
  constructor; cbn [m_counts m_objects m_handles m_client].
  - rewrite put_length. exact G1.
  - intros p Hp. rewrite nth_put by lia. rewrite (Nat.eqb_sym x p). destruct (Nat.eqb_spec p x); cbn [Nat.b2n].
    + subst. rewrite (G2 x Hp). lia.
    + rewrite (G2 p Hp). lia.
  - intros p Hp. rewrite nth_put by lia. destruct (Nat.eqb_spec p x); [|auto]. subst. rewrite G3 by auto. lia.
  - intros p Hp. destruct (G4 p Hp) as (? & ? & ?). destruct (Nat.eqb_spec x p); [lia|]. cbn [Nat.b2n]. repeat split; auto; lia.
Qed.
Lemma release_good m d q : good m (fun p => d p + one q p)%nat -> good (release q m) d.
Proof.
  intros G. destruct G as [G1 G2 G3 G4]. destruct q as [x|]; cbn [release].
  2: { constructor; auto.
       - intros p Hp. rewrite (G2 p Hp). unfold one. lia.
       - intros p Hp. destruct (G4 p Hp) as (? & ? & ?). unfold one in *. repeat split; auto; lia. }
  assert (Hx : (x < length (m_objects m))%nat).
  { destruct (Nat.lt_ge_cases x (length (m_objects m))) as [K|K]; [exact K|]. destruct (G4 x K) as (_ & _ & Z). unfold one in Z. rewrite Nat.eqb_refl in Z. cbn in Z. lia. }
  assert (C : nth x (m_counts m) 0%nat = (uses (m_handles m) x + uses (m_client m) x + d x + 1)%nat).
  { rewrite (G2 x Hx). unfold one. rewrite Nat.eqb_refl. cbn. lia. }
  set (n := pred (nth x (m_counts m) 0%nat)).
  assert (L : length (if (n =? 0)%nat then put x None (m_objects m) else m_objects m) = length (m_objects m)).
  { destruct (n =? 0)%nat; [apply put_length|reflexivity]. }
  constructor; cbn [m_counts m_objects m_handles m_client]; rewrite ?L.
  - rewrite put_length. exact G1.
  - intros p Hp. rewrite nth_put by lia. destruct (Nat.eqb_spec p x).
    + subst p. unfold n. rewrite C. lia.
    + rewrite (G2 p Hp). unfold one. destruct (Nat.eqb_spec x p); [congruence|]. cbn. lia.
  - intros p Hp. rewrite nth_put by lia. destruct (Nat.eqb_spec p x).
    + subst p. destruct (Nat.eqb_spec n 0) as [Z|Z].
      * rewrite put_nth, Nat.eqb_refl. destruct (Nat.ltb_spec x (length (m_objects m))); [|lia]. split; auto.
      * rewrite G3 by auto. rewrite C. lia.
    + destruct (n =? 0)%nat; [rewrite put_nth_other by auto|]; apply G3; auto.
  - intros p Hp. destruct (G4 p Hp) as (? & ? & K). unfold one in K. repeat split; auto; lia.
Qed.
Lemma good_ext m d d' : (forall p, d p = d' p) -> good m d -> good m d'.
Proof.
  intros E [G1 G2 G3 G4]. constructor; auto.
  - intros p Hp. rewrite (G2 p Hp), E. reflexivity.
  - intros p Hp. destruct (G4 p Hp) as (? & ? & ?). rewrite E in *. auto.
Qed.
Lemma refers_one q p : Nat.b2n (refers (Holds q) p) = one q p.
Proof. destruct q; reflexivity. Qed.
(** Storing an acquired pointer; what was there before has to be released. *)
Lemma set_handle_good m d i q old : handle m i = Some old -> good m (fun p => d p + one q p)%nat ->
  good (set_handle i (Holds q) m) (fun p => d p + one old p)%nat.
Proof.
  intros H [G1 G2 G3 G4]. unfold handle in H. destruct (nth_error (m_handles m) i) as [[|o]|] eqn:E; try discriminate. inversion H; subst o.
  assert (U : forall p, (uses (put i (Holds q) (m_handles m)) p + one old p = uses (m_handles m) p + one q p)%nat).
  { intros p. rewrite <- !refers_one. apply uses_put. exact E. }
  constructor; cbn [set_handle m_counts m_objects m_handles m_client]; auto.
  - intros p Hp. rewrite (G2 p Hp). specialize (U p). lia.
  - intros p Hp. destruct (G4 p Hp) as (? & ? & ?). specialize (U p). repeat split; auto; lia.
Qed.
Lemma set_gone_good m d i old : handle m i = Some old -> good m d -> good (set_handle i Gone m) (fun p => d p + one old p)%nat.
Proof.
  intros H [G1 G2 G3 G4]. unfold handle in H. destruct (nth_error (m_handles m) i) as [[|o]|] eqn:E; try discriminate. inversion H; subst o.
  assert (U : forall p, (uses (put i Gone (m_handles m)) p + one old p = uses (m_handles m) p)%nat).
  { intros p. rewrite <- refers_one. rewrite (uses_put Gone _ p i _ E). cbn. lia. }
  constructor; cbn [set_handle m_counts m_objects m_handles m_client]; auto.
  - intros p Hp. rewrite (G2 p Hp). specialize (U p). lia.
  - intros p Hp. destruct (G4 p Hp) as (? & ? & ?). specialize (U p). repeat split; auto; lia.
Qed.
Lemma new_handle_good m d : good m d -> good (new_handle None m) d.
Proof.
  intros [G1 G2 G3 G4]. assert (U : forall p, uses (m_handles m ++ [Holds None]) p = uses (m_handles m) p).
  { intros p. rewrite uses_app. cbn. lia. }
  constructor; cbn [new_handle m_counts m_objects m_handles m_client]; auto.
  - intros p Hp. rewrite U. auto.
  - intros p Hp. rewrite U. auto.
Qed.
Lemma in_use m q p (c : mem -> list cell) i : good m none -> (c = m_handles \/ c = m_client) ->
  nth_error (c m) i = Some (Holds q) -> q = Some p -> (p < length (m_objects m))%nat /\ nth p (m_counts m) 0%nat <> 0%nat.
Proof.
  intros [G1 G2 G3 G4] HC E ->.
  assert (U : (uses (m_handles m) p + uses (m_client m) p <> 0)%nat).
  { intros Z. assert (Z1 : uses (c m) p = 0%nat) by (destruct HC as [-> | ->]; lia).
    apply uses_zero with (i := i) (q := p) in Z1; [congruence|exact E]. }
  assert (L : (p < length (m_objects m))%nat).
  { destruct (Nat.lt_ge_cases p (length (m_objects m))) as [K|K]; [exact K|]. destruct (G4 p K) as (? & ? & ?). lia. }
  split; [exact L|]. rewrite (G2 p L). lia.
Qed.
Lemma handle_cell m i q : handle m i = Some q <-> nth_error (m_handles m) i = Some (Holds q).
Proof. unfold handle. destruct (nth_error (m_handles m) i) as [[|o]|]; split; intros H; inversion H; reflexivity. Qed.
Lemma client_cell m i q : client m i = Some q <-> nth_error (m_client m) i = Some (Holds q).
Proof. unfold client. destruct (nth_error (m_client m) i) as [[|o]|]; split; intros H; inversion H; reflexivity. Qed.
Lemma acquire_handles q m : m_handles (acquire q m) = m_handles m /\ m_client (acquire q m) = m_client m /\ m_objects (acquire q m) = m_objects m.
Proof. destruct q; auto. Qed.
Lemma release_handles q m : m_handles (release q m) = m_handles m /\ m_client (release q m) = m_client m.
Proof. destruct q; auto. Qed.
Lemma reset_good m i old new : good m none -> handle m i = Some old ->
  (forall p, new = Some p -> (p < length (m_objects m))%nat /\ nth p (m_counts m) 0%nat <> 0%nat) -> good (h_reset i old new m) none.
Proof.
  intros G H U. unfold h_reset. apply release_good. apply (set_handle_good _ none i new old).
  - unfold handle. destruct (acquire_handles new m) as (-> & _). exact H.
  - apply acquire_good; assumption.
Qed.
Lemma handle_new m q : handle (new_handle q m) (length (m_handles m)) = Some q.
Proof. apply handle_cell. cbn. rewrite nth_error_app2, Nat.sub_diag by lia. reflexivity. Qed.
Lemma step_good m o m' : good m none -> mem_step m o = Some m' -> good m' none.
Proof.
  intros G H. destruct o; cbn [mem_step] in H.
  - inversion H; subst. clear H. destruct G as [G1 G2 G3 G4]. constructor; cbn [m_counts m_objects m_handles m_client]; rewrite ?app_length; cbn [length].
    + lia.
    + intros p Hp. rewrite uses_app. unfold uses at 3. cbn [filter refers]. unfold none in *.
      destruct (Nat.eqb_spec (length (m_objects m)) p); cbn [length].
      * subst p. rewrite app_nth2, G1, Nat.sub_diag by lia. cbn. destruct (G4 (length (m_objects m)) ltac:(lia)) as (? & ? & _). lia.
      * rewrite app_nth1 by lia. rewrite G2 by lia. lia.
    + intros p Hp. destruct (Nat.eq_dec p (length (m_objects m))) as [->|N].
      * rewrite nth_error_app2, Nat.sub_diag, app_nth2, G1, Nat.sub_diag by lia. cbn. split; discriminate.
      * rewrite nth_error_app1, app_nth1 by lia. apply G3. lia.
    + intros p Hp. destruct (G4 p ltac:(lia)) as (? & ? & ?). rewrite uses_app. unfold uses at 3. cbn [filter refers].
      destruct (Nat.eqb_spec (length (m_objects m)) p); [lia|]. cbn. repeat split; auto; lia.
  - destruct (client m k) as [q|] eqn:E; inversion H; subst. clear H. apply release_good. apply client_cell in E.
    destruct G as [G1 G2 G3 G4].
    assert (U : forall p, (uses (put k (Holds None) (m_client m)) p + one q p = uses (m_client m) p)%nat).
    { intros p. rewrite <- refers_one. rewrite (uses_put (Holds None) _ p k _ E). cbn. lia. }
    constructor; cbn [m_counts m_objects m_handles m_client]; auto; unfold none in *.
    + intros p Hp. rewrite (G2 p Hp). specialize (U p). lia.
    + intros p Hp. destruct (G4 p Hp) as (? & ? & ?). specialize (U p). repeat split; auto; lia.
  - destruct (client m k) as [[x|]|] eqn:E; inversion H; subst. clear H. apply client_cell in E.
    destruct (in_use m _ x m_client k G (or_intror eq_refl) E eq_refl) as [Hx Hn]. destruct G as [G1 G2 G3 G4].
    constructor; cbn [m_counts m_objects m_handles m_client]; rewrite ?put_length; auto.
    intros p Hp. rewrite put_nth. destruct (Nat.eqb_spec p x); [|apply G3; auto]. subst p.
    destruct (Nat.ltb_spec x (length (m_objects m))); [|lia]. split; [discriminate|contradiction].
  - inversion H; subst. apply new_handle_good. exact G.
  - destruct (client m k) as [q|] eqn:E; inversion H; subst. clear H. apply client_cell in E.
    apply reset_good; [apply new_handle_good; exact G|apply handle_new|]. intros p Hp. cbn.
    apply (in_use m q p m_client k); auto.
  - destruct (handle m j) as [q|] eqn:E; inversion H; subst. clear H. apply handle_cell in E.
    apply reset_good; [apply new_handle_good; exact G|apply handle_new|]. intros p Hp. cbn.
    apply (in_use m q p m_handles j); auto.
  - destruct (handle m j) as [q|] eqn:E; inversion H; subst. clear H. apply handle_cell in E.
    apply reset_good; [apply new_handle_good; exact G|apply handle_new|]. intros p Hp. cbn.
    apply (in_use m q p m_handles j); auto.
  - destruct (handle m i) as [old|] eqn:EI; [|discriminate]. destruct (handle m j) as [q|] eqn:E; inversion H; subst. clear H. apply handle_cell in E.
    apply reset_good; [exact G|exact EI|]. intros p Hp. apply (in_use m q p m_handles j); auto.
  - destruct (handle m i) as [old|] eqn:EI; inversion H; subst. apply release_good. apply (set_gone_good _ none); assumption.
Qed.
Lemma run_good os : forall m m', good m none -> mem_run m os = Some m' -> good m' none.
Proof.
  induction os as [|o os IH]; intros m m' G H; cbn in H; [inversion H; subst; exact G|].
  destruct (mem_step m o) eqn:E; [|discriminate]. eapply IH; [|exact H]. eapply step_good; eauto.
Qed.
Lemma empty_good : good mem_empty none.
Proof. constructor; cbn; auto; intros; lia. Qed.
Lemma reach_good m : mem_reachable m -> good m none.
Proof. intros [os H]. eapply run_good; [exact empty_good|exact H]. Qed.
Lemma mem_reachable_step m o m' : mem_reachable m -> mem_step m o = Some m' -> mem_reachable m'.
Proof.
  intros [os H] S. exists (os ++ [o]). revert H. generalize mem_empty. induction os as [|x os IH]; intros m0 H; cbn in *.
  - inversion H; subst. rewrite S. reflexivity.
  - destruct (mem_step m0 x); [|discriminate]. apply IH. exact H.
Qed.

(** ** C104: handles *)

Lemma answers m i p tr : handle m i = Some (Some p) -> nth_error (m_objects m) p = Some (Some tr) -> answers_of tr m i.
Proof.
  intros H E. unfold answers_of, h_is_null, h_max_time, h_min_time, h_segments, h_waypoints, h_evaluate, h_read. rewrite H, E. cbn. auto 10.
Qed.
Lemma same_if m i m' i' : handle m i = handle m' i' ->
  (forall p, handle m i = Some (Some p) -> nth_error (m_objects m) p = nth_error (m_objects m') p) -> same_answers m i m' i'.
Proof.
  intros H E. unfold same_answers, h_is_null, h_max_time, h_min_time, h_segments, h_waypoints, h_evaluate, h_read. rewrite <- H.
  destruct (handle m i) as [[p|]|]; auto 10. rewrite (E p eq_refl). auto 10.
Qed.
Lemma live_object m i p : good m none -> handle m i = Some (Some p) -> exists tr, nth_error (m_objects m) p = Some (Some tr).
Proof.
  intros G H. apply handle_cell in H. destruct (in_use m _ p m_handles i G (or_introl eq_refl) H eq_refl) as [L N].
  destruct (nth_error (m_objects m) p) as [[tr|]|] eqn:E; [eauto| |].
  - apply (g_live m none G p L) in E. contradiction.
  - apply nth_error_None in E. lia.
Qed.

(** A handle that is not null always answers, with one trajectory. *)
Theorem C104_never_dangling :
  forall m i, mem_reachable m -> h_is_null m i = Some false -> exists tr, answers_of tr m i.
Proof.
  intros m i R H. unfold h_is_null in H. destruct (handle m i) as [[p|]|] eqn:E; try discriminate.
  destruct (live_object m i p (reach_good m R) E) as [tr T]. exists tr. eapply answers; eauto.
Qed.
(** A trajectory is deleted exactly when no handle and no pointer of the client refers to it. *)
Theorem C104_deleted :
  forall m p, mem_reachable m -> (p < length (m_objects m))%nat ->
  (nth_error (m_objects m) p = Some None <-> (forall i, handle m i <> Some (Some p)) /\ (forall k, client m k <> Some (Some p))).
Proof.
  intros m p R L. pose proof (reach_good m R) as G. rewrite (g_live m none G p L), (g_cnt m none G p L). unfold none. split.
  - intros Z. split.
    + intros i H. apply handle_cell in H. assert (Z1 : uses (m_handles m) p = 0%nat) by lia. apply (proj1 (uses_zero _ _) Z1) in H. congruence.
    + intros k H. apply client_cell in H. assert (Z1 : uses (m_client m) p = 0%nat) by lia. apply (proj1 (uses_zero _ _) Z1) in H. congruence.
  - intros [H1 H2].
    assert (Z1 : uses (m_handles m) p = 0%nat).
    { apply uses_zero. intros i q E ->. apply handle_cell in E. apply (H1 i E). }
    assert (Z2 : uses (m_client m) p = 0%nat).
    { apply uses_zero. intros i q E ->. apply client_cell in E. apply (H2 i E). }
    lia.
Qed.

(** What a release leaves alone. *)
Lemma release_objects q m p : good (release q m) none -> (exists i, handle (release q m) i = Some (Some p)) \/ (exists k, client (release q m) k = Some (Some p)) ->
  nth_error (m_objects (release q m)) p = nth_error (m_objects m) p.
Proof.
  intros G H. assert (K : (p < length (m_objects (release q m)))%nat /\ nth p (m_counts (release q m)) 0%nat <> 0%nat).
  { destruct H as [[i H]|[i H]].
    - apply handle_cell in H. eapply in_use with (c := m_handles); eauto.
    - apply client_cell in H. eapply in_use with (c := m_client); eauto. }
  destruct K as [L N]. destruct q as [x|]; [|reflexivity]. cbn [release m_objects] in *.
  destruct (Nat.eqb_spec (pred (nth x (m_counts m) 0%nat)) 0) as [Z|Z]; [|reflexivity].
  destruct (Nat.eq_dec p x) as [->|NE]; [|apply put_nth_other; exact NE].
  exfalso. apply N. cbn [m_counts]. pose proof (g_len _ _ G) as GL. cbn [m_counts m_objects] in GL. rewrite !put_length in *.
  rewrite nth_put by lia. rewrite Nat.eqb_refl. exact Z.
Qed.
Lemma reset_handle m i old new k : handle m i = Some old -> handle (h_reset i old new m) k = if (k =? i)%nat then Some new else handle m k.
Proof.
  intros H. unfold handle at 1. destruct (release_handles old (set_handle i (Holds new) (acquire new m))) as [E _]. unfold h_reset. rewrite E.
  cbn [set_handle m_handles]. destruct (acquire_handles new m) as (-> & _). apply handle_cell in H. destruct (Nat.eqb_spec k i) as [->|N].
  - rewrite (put_nth_same _ _ _ _ H). reflexivity.
  - rewrite put_nth_other by exact N. reflexivity.
Qed.
Lemma reset_client m i old new k : client (h_reset i old new m) k = client m k.
Proof.
  unfold client. unfold h_reset. destruct (release_handles old (set_handle i (Holds new) (acquire new m))) as [_ ->].
  cbn [set_handle m_client]. destruct (acquire_handles new m) as (_ & -> & _). reflexivity.
Qed.
Lemma reset_objects m i old new p : good (h_reset i old new m) none -> (exists k, handle (h_reset i old new m) k = Some (Some p)) \/ (exists k, client (h_reset i old new m) k = Some (Some p)) ->
  nth_error (m_objects (h_reset i old new m)) p = nth_error (m_objects m) p.
Proof.
  intros G H. unfold h_reset in *. rewrite release_objects by assumption. cbn [set_handle m_objects].
  destruct (acquire_handles new m) as (_ & _ & ->). reflexivity.
Qed.

(** Assignment: the target answers like the source, every other handle (also the
    source, and also in a self-assignment) as before. *)
Theorem C104_assign :
  forall m i j m', mem_reachable m -> mem_step m (Assign i j) = Some m' ->
  same_answers m' i m j /\ (forall k, k <> i -> same_answers m' k m k) /\ same_answers m' j m j /\
  h_eq m' i j = Some true /\ forall k, client m' k = client m k.
Proof.
  intros m i j m' R S. pose proof (reach_good _ (mem_reachable_step _ _ _ R S)) as G. cbn [mem_step] in S.
  destruct (handle m i) as [old|] eqn:EI; [|discriminate]. destruct (handle m j) as [new|] eqn:EJ; [|discriminate]. inversion S; subst. clear S.
  assert (HI : handle (h_reset i old new m) i = Some new) by (rewrite reset_handle, Nat.eqb_refl by exact EI; reflexivity).
  assert (HK : forall k, k <> i -> handle (h_reset i old new m) k = handle m k).
  { intros k N. rewrite reset_handle by exact EI. destruct (Nat.eqb_spec k i); [congruence|reflexivity]. }
  assert (HJ : handle (h_reset i old new m) j = Some new) by (destruct (Nat.eq_dec j i) as [->|N]; [exact HI|rewrite HK by exact N; exact EJ]).
  split; [|split; [|split; [|split]]].
  - apply same_if; [congruence|]. intros p E. apply reset_objects; [exact G|]. left. eauto.
  - intros k N. apply same_if; [apply HK; exact N|]. intros p E. apply reset_objects; [exact G|]. left. eauto.
  - apply same_if; [congruence|]. intros p E. apply reset_objects; [exact G|]. left. eauto.
  - unfold h_eq. rewrite HI, HJ. destruct new as [x|]; cbn; [rewrite Nat.eqb_refl|]; reflexivity.
  - intros k. apply reset_client.
Qed.
(** Construction: the new handle is the last one.  A copy and a "moved" handle answer like
    their source, which stays as it is; a handle made from a pointer answers with
    the trajectory it points to, and the client still has its pointer. *)
Definition made_from (m : mem) (o : op) (q : option nat) : Prop :=
  match o with
  | Default => q = None
  | CopyFrom j | MoveFrom j => handle m j = Some q
  | FromPtr k => client m k = Some q
  | _ => False
  end.
Theorem C104_construct :
  forall m o m' q, mem_reachable m -> made_from m o q -> mem_step m o = Some m' ->
  let n := length (m_handles m) in
  handle m n = None /\ (forall k, k <> n -> same_answers m' k m k) /\ (forall k, client m' k = client m k) /\
  match o, q with
  | Default, _ => h_is_null m' n = Some true
  | CopyFrom j, _ | MoveFrom j, _ => same_answers m' n m j /\ same_answers m' j m j /\ h_eq m' n j = Some true
  | FromPtr k, None => h_is_null m' n = Some true
  | FromPtr k, Some p => exists tr, nth_error (m_objects m') p = Some (Some tr) /\ nth_error (m_objects m) p = Some (Some tr) /\
      client m' k = Some (Some p) /\ answers_of tr m' n
  | _, _ => False
  end.
Proof.
  intros m o m' q R MF S n. pose proof (reach_good _ R) as G0. pose proof (reach_good _ (mem_reachable_step _ _ _ R S)) as G.
  assert (HN : handle m n = None) by (unfold handle; rewrite (proj2 (nth_error_None _ _)) by (unfold n; lia); reflexivity).
  assert (K1 : forall k, k <> n -> handle (new_handle None m) k = handle m k).
  { intros k N. unfold handle. cbn [new_handle m_handles]. destruct (Nat.lt_ge_cases k n) as [L|L].
    - rewrite nth_error_app1 by exact L. reflexivity.
    - rewrite !(proj2 (nth_error_None _ _)); auto; rewrite ?app_length; cbn; unfold n in *; lia. }
  pose proof (handle_new m None) as K2. fold n in K2.
  assert (H1 : forall q', handle (h_reset n None q' (new_handle None m)) n = Some q') by (intros; rewrite reset_handle, Nat.eqb_refl by exact K2; reflexivity).
  assert (H2 : forall q' k, k <> n -> handle (h_reset n None q' (new_handle None m)) k = handle m k).
  { intros q' k N. rewrite reset_handle by exact K2. destruct (Nat.eqb_spec k n); [congruence|apply K1; exact N]. }
  assert (OB : forall q' p, good (h_reset n None q' (new_handle None m)) none ->
     (exists k, handle (h_reset n None q' (new_handle None m)) k = Some (Some p)) \/ (exists k, client (h_reset n None q' (new_handle None m)) k = Some (Some p)) ->
     nth_error (m_objects (h_reset n None q' (new_handle None m))) p = nth_error (m_objects m) p).
  { intros q' p G' H'. rewrite reset_objects by assumption. reflexivity. }
  assert (OTH : forall q', good (h_reset n None q' (new_handle None m)) none -> forall k, k <> n -> same_answers (h_reset n None q' (new_handle None m)) k m k).
  { intros q' G' k N. apply same_if; [apply H2; exact N|]. intros p E. apply OB; [exact G'|left; eauto]. }
  assert (CL : forall q' k, client (h_reset n None q' (new_handle None m)) k = client m k).
  { intros q' k. rewrite reset_client. reflexivity. }
  split; [exact HN|]. destruct o; cbn [made_from] in MF; try contradiction; cbn [mem_step] in S.
  - inversion S; subst. clear S. split; [|split; [reflexivity|]].
    + intros k N. apply same_if; [apply K1; exact N|reflexivity].
    + unfold h_is_null. unfold h_default. rewrite K2. reflexivity.
  - rewrite MF in S. inversion S; subst. clear S. split; [apply OTH; exact G|]. split; [intros; apply CL|].
    destruct q as [p|].
    + assert (CP : client (h_from (Some p) m) k = Some (Some p)) by (unfold h_from; fold n; rewrite CL; exact MF).
      assert (HP : handle (h_from (Some p) m) n = Some (Some p)) by apply H1.
      destruct (live_object _ n p G HP) as [tr T]. exists tr. split; [exact T|]. split.
      * rewrite <- T. symmetry. apply OB; [exact G|left; eauto].
      * split; [exact CP|]. eapply answers; eauto.
    + unfold h_is_null, h_from. fold n. rewrite H1. reflexivity.
  - rewrite MF in S. inversion S; subst. clear S. unfold h_copy in *. fold n in G |- *.
    assert (NJ : j <> n) by congruence.
    split; [apply OTH; exact G|]. split; [intros; apply CL|]. split; [|split; [apply OTH; auto|]].
    + apply same_if; [rewrite H1; congruence|]. intros p E. apply OB; [exact G|left; eauto].
    + unfold h_eq. rewrite H1, H2, MF by exact NJ. destruct q as [x|]; cbn; [rewrite Nat.eqb_refl|]; reflexivity.
  - rewrite MF in S. inversion S; subst. clear S. unfold h_copy in *. fold n in G |- *.
    assert (NJ : j <> n) by congruence.
    split; [apply OTH; exact G|]. split; [intros; apply CL|]. split; [|split; [apply OTH; auto|]].
    + apply same_if; [rewrite H1; congruence|]. intros p E. apply OB; [exact G|left; eauto].
    + unfold h_eq. rewrite H1, H2, MF by exact NJ. destruct q as [x|]; cbn; [rewrite Nat.eqb_refl|]; reflexivity.
Qed.
(** Destroying a handle, or giving up a pointer, does not disturb the other handles. *)
Theorem C104_destroy :
  forall m o m', mem_reachable m -> mem_step m o = Some m' ->
  (forall i, o = Destroy i -> handle m' i = None /\ forall k, k <> i -> same_answers m' k m k) /\
  (forall c, o = ClientReset c -> forall k, same_answers m' k m k).
Proof.
  intros m o m' R S. pose proof (reach_good _ (mem_reachable_step _ _ _ R S)) as G. split.
  - intros i ->. cbn [mem_step] in S. destruct (handle m i) as [old|] eqn:EI; inversion S; subst. clear S.
    assert (HK : forall k, handle (h_destroy i old m) k = if (k =? i)%nat then None else handle m k).
    { intros k. unfold handle at 1. unfold h_destroy. destruct (release_handles old (set_handle i Gone m)) as [-> _]. cbn [set_handle m_handles].
      apply handle_cell in EI. destruct (Nat.eqb_spec k i) as [->|N]; [rewrite (put_nth_same _ _ _ _ EI); reflexivity|].
      rewrite put_nth_other by exact N. reflexivity. }
    split; [rewrite HK, Nat.eqb_refl; reflexivity|]. intros k N.
    apply same_if; [rewrite HK; destruct (Nat.eqb_spec k i); [congruence|reflexivity]|].
    intros p E. unfold h_destroy in *. rewrite release_objects by eauto. reflexivity.
  - intros c ->. intros k. cbn [mem_step] in S. destruct (client m c) as [q|] eqn:EC; inversion S; subst. clear S.
    assert (HK : forall x, handle (release q x) k = handle x k) by (intros x; unfold handle; destruct (release_handles q x) as [-> _]; reflexivity).
    apply same_if; [rewrite HK; reflexivity|]. intros p E. rewrite release_objects by eauto. reflexivity.
Qed.
(** Writing through a pointer the client kept is seen by exactly the handles on
    the same trajectory. *)
Theorem C104_write :
  forall m c p tr m' k, mem_reachable m -> client m c = Some (Some p) -> mem_step m (ClientWrite c tr) = Some m' ->
  (handle m k = Some (Some p) -> answers_of tr m' k) /\ (handle m k <> Some (Some p) -> same_answers m' k m k).
Proof.
  intros m c p tr m' k R HC S. pose proof (reach_good _ R) as G. cbn [mem_step] in S. rewrite HC in S. inversion S; subst. clear S. split.
  - intros H. destruct (live_object m k p G H) as [t0 T]. apply (answers _ _ p); [exact H|]. cbn [m_objects]. eapply put_nth_same. exact T.
  - intros H. apply same_if; [reflexivity|]. intros q E. cbn [m_objects]. apply put_nth_other. intros ->. apply H. exact E.
Qed.
(** Equal handles give equal answers, now and after any write of the client; != is its negation. *)
Theorem C104_equal :
  forall m i j b, mem_reachable m -> h_eq m i j = Some b ->
  h_ne m i j = Some (negb b) /\ h_eq m j i = Some b /\
  (b = true -> same_answers m i m j /\ forall c tr m', mem_step m (ClientWrite c tr) = Some m' -> same_answers m' i m' j).
Proof.
  intros m i j b R H. unfold h_eq, h_ne in *. destruct (handle m i) as [a|] eqn:EI; [|discriminate]. destruct (handle m j) as [a'|] eqn:EJ; [|discriminate].
  inversion H; subst b. split; [reflexivity|]. split.
  - destruct a, a'; cbn; auto. rewrite Nat.eqb_sym. reflexivity.
  - intros E. assert (a' = a) as -> by (destruct a, a'; cbn in E; try discriminate; [apply Nat.eqb_eq in E; congruence|reflexivity]). split.
    + apply same_if; [congruence|reflexivity].
    + intros c tr m' S. cbn [mem_step] in S. destruct (client m c) as [[p|]|]; inversion S; subst. apply same_if; [|reflexivity].
      unfold handle in *. cbn [m_handles]. congruence.
Qed.

(** User expectations: handles on equal trajectories are equal; once a handle
    has been made from std::move(pointer), the client has no access to its trajectory any more. *)
Definition ex_tr (T : R) : trajectory := mkTraj 1 1 T [mkSeg T 1 1 [[0]]].
Definition two_equal : list op := [MakeShared (ex_tr 1); MakeShared (ex_tr 1); FromPtr 0; FromPtr 1].
Theorem C104_equal_content_refuted :
  exists m i j, mem_reachable m /\ same_answers m i m j /\ h_eq m i j = Some false.
Proof.
  exists (mkMem [Holds (Some 0%nat); Holds (Some 1%nat)] [Holds (Some 0%nat); Holds (Some 1%nat)] [2%nat; 2%nat] [Some (ex_tr 1); Some (ex_tr 1)]), 0%nat, 1%nat.
  split; [exists two_equal; reflexivity|]. unfold same_answers. repeat split; reflexivity.
Qed.
Theorem C104_exclusive_refuted :
  exists m c p tr m' i, mem_reachable m /\ (exists os, mem_run mem_empty (os ++ [FromPtr c]) = Some m) /\
    client m c = Some (Some p) /\ mem_step m (ClientWrite c tr) = Some m' /\
    h_max_time m i = Some 1 /\ h_max_time m' i = Some 2.
Proof.
  exists (mkMem [Holds (Some 0%nat)] [Holds (Some 0%nat)] [2%nat] [Some (ex_tr 1)]), 0%nat, 0%nat, (ex_tr 2),
    (mkMem [Holds (Some 0%nat)] [Holds (Some 0%nat)] [2%nat] [Some (ex_tr 2)]), 0%nat.
  split; [exists [MakeShared (ex_tr 1); FromPtr 0]; reflexivity|]. split; [exists [MakeShared (ex_tr 1)]; reflexivity|].
  repeat split; reflexivity.
Qed.
(** Not vacuous: a trajectory outlives the pointer and the first handle, and is
    deleted with the last one. *)
Example C104_example : exists m m', mem_run mem_empty
    [MakeShared (ex_tr 3); FromPtr 0; ClientReset 0; Default; Assign 1 0; Assign 1 1; Destroy 0; MoveFrom 1] = Some m /\
  answers_of (ex_tr 3) m 1 /\ answers_of (ex_tr 3) m 2 /\ h_is_null m 0 = None /\
  mem_run m [Destroy 1; Destroy 2] = Some m' /\ nth_error (m_objects m') 0 = Some None.
Proof.
  exists (mkMem [Gone; Holds (Some 0%nat); Holds (Some 0%nat)] [Holds None] [2%nat] [Some (ex_tr 3)]),
    (mkMem [Gone; Gone; Gone] [Holds None] [0%nat] [None]).
  split; [reflexivity|]. split; [apply (answers _ _ 0); reflexivity|]. split; [apply (answers _ _ 0); reflexivity|].
  split; [reflexivity|]. split; reflexivity.
Qed.
Print Assumptions C104_never_dangling.
Print Assumptions C104_deleted.
Print Assumptions C104_assign.
Print Assumptions C104_construct.
Print Assumptions C104_destroy.
Print Assumptions C104_write.
Print Assumptions C104_equal.
Print Assumptions C104_equal_content_refuted.
Print Assumptions C104_exclusive_refuted.
