(** The constraint lists of the optimiser and the reordering matrix. *)
From Coq Require Import Reals Lra Lia List Bool ZArith Arith Sorted.
From Verif Require Import Base PolyModel PolyProofs VertexModel TrajModel LinOptModel LinAlg.
Import ListNotations.
Set Bullet Behavior "Strict Subproofs".
Local Open Scope R_scope.

(** ** The sets *)

Definition key (c : con) : nat * nat := (c_vertex c, c_order c).
Lemma con_eqb_key a b : con_eqb a b = true <-> key a = key b.
Proof.
  unfold con_eqb, key. rewrite andb_true_iff, !Nat.eqb_eq. split; intros H.
  - destruct H; congruence.
  - inversion H; auto.
Qed.
Definition clt (a b : con) : Prop :=
  (c_vertex a < c_vertex b \/ c_vertex a = c_vertex b /\ c_order a < c_order b)%nat.
Lemma con_ltb_clt a b : con_ltb a b = true <-> clt a b.
Proof.
  unfold con_ltb, clt.
  destruct (Nat.ltb_spec (c_vertex a) (c_vertex b)); [split; auto|].
  destruct (Nat.ltb_spec (c_vertex b) (c_vertex a)); [split; [discriminate|lia]|].
  rewrite Nat.ltb_lt. lia.
Qed.
Lemma not_clt_eq a b : ~ clt a b -> ~ clt b a -> key a = key b.
Proof. unfold clt, key. intros. f_equal; lia. Qed.
Lemma clt_trans a b c : clt a b -> clt b c -> clt a c.
Proof. unfold clt. lia. Qed.
Lemma clt_key a b : clt a b -> key a <> key b.
Proof. unfold clt, key. intros H E. inversion E. lia. Qed.
Lemma key_clt a b c : key a = key b -> clt a c -> clt b c.
Proof. unfold clt, key. intros E. inversion E. lia. Qed.

Lemma con_insert_in x l y : In y (con_insert x l) -> y = x \/ In y l.
Proof.
  induction l as [|z l IH]; simpl; [intuition auto|].
  destruct (con_ltb x z); simpl; [intuition auto|].
  destruct (con_ltb z x); simpl; [|intuition auto].
  intros [->|H]; auto. destruct (IH H); auto.
Qed.
Lemma con_insert_old x l y : In y l -> In y (con_insert x l).
Proof.
  induction l as [|z l IH]; simpl; [tauto|].
  destruct (con_ltb x z); simpl; [intuition auto|].
  destruct (con_ltb z x); simpl; intuition auto.
Qed.
Lemma con_insert_new x l : exists y, In y (con_insert x l) /\ key y = key x.
Proof.
  induction l as [|z l IH]; simpl; [eauto|].
  destruct (con_ltb x z) eqn:E1; simpl; [eauto|].
  destruct (con_ltb z x) eqn:E2; simpl.
  - destruct IH as (y & H & K). eauto.
  - exists z. split; auto. apply not_clt_eq; rewrite <- con_ltb_clt; congruence.
Qed.
Lemma con_insert_sorted x l : StronglySorted clt l -> StronglySorted clt (con_insert x l).
Proof.
  induction 1 as [|z l S IH F]; simpl; [repeat constructor|].
  destruct (con_ltb x z) eqn:E1.
  - apply con_ltb_clt in E1. constructor; [constructor; auto|].
    constructor; auto. eapply Forall_impl; [|exact F]. intros; eapply clt_trans; eauto.
  - destruct (con_ltb z x) eqn:E2.
    + constructor; auto. apply Forall_forall. intros y Hy.
      destruct (con_insert_in _ _ _ Hy) as [->|Hy']; [apply con_ltb_clt; auto|].
      rewrite Forall_forall in F; auto.
    + constructor; auto.
Qed.
Lemma sorted_keys l : StronglySorted clt l -> NoDup (map key l).
Proof.
  induction 1 as [|z l S IH F]; simpl; constructor; auto.
  intros H. apply in_map_iff in H. destruct H as (y & E & Hy).
  rewrite Forall_forall in F. apply (clt_key z y); auto.
Qed.

Definition set_step (b : bool) (acc : list con) (bc : bool * con) :=
  if eqb (fst bc) b then con_insert (snd bc) acc else acc.
Lemma con_set_unfold b l : con_set b l = fold_left (set_step b) l [].
Proof. reflexivity. Qed.
Lemma set_fold b l : forall acc,
  (StronglySorted clt acc -> StronglySorted clt (fold_left (set_step b) l acc)) /\
  (forall y, In y (fold_left (set_step b) l acc) -> In y acc \/ In (b, y) l) /\
  (forall y, In y acc -> In y (fold_left (set_step b) l acc)) /\
  (forall x, In (b, x) l -> exists y, In y (fold_left (set_step b) l acc) /\ key y = key x).
Proof.
  induction l as [|[b' z] l IH]; intros acc; simpl.
  - repeat split; auto. intros; tauto.
  - destruct (IH (set_step b acc (b', z))) as (A & B & C & D).
    assert (E0 : set_step b acc (b', z) = if eqb b' b then con_insert z acc else acc) by reflexivity.
    rewrite E0 in *. clear E0.
    destruct (eqb b' b) eqn:E.
    + apply eqb_prop in E. subst b'. repeat split.
      * intros S. apply A. apply con_insert_sorted; auto.
      * intros y Hy. destruct (B y Hy) as [H|H]; auto.
        destruct (con_insert_in _ _ _ H) as [->|]; auto.
      * intros y Hy. apply C. apply con_insert_old; auto.
      * intros x [H|H]; [|auto]. inversion H; subst.
        destruct (con_insert_new x acc) as (y & Hy & K). exists y. split; auto.
    + repeat split; auto.
      * intros y Hy. destruct (B y Hy); auto.
      * intros x [H|H]; [|auto]. inversion H; subst. rewrite eqb_reflx in E. discriminate.
Qed.

(** ** The list of all constraints *)

(** The entry for derivative [k] of vertex [j]. *)
Definition con_at (D : nat) (vs : list vertex) (j k : nat) : bool * con :=
  match get_constraint k (nth j vs (vertex_new D)) with
  | Some c => (true, mkCon j k c)
  | None => (false, mkCon j k (repeat 0 D))
  end.
Lemma con_at_key D vs j k : key (snd (con_at D vs j k)) = (j, k).
Proof. unfold con_at. destruct (get_constraint _ _); reflexivity. Qed.

Definition con_of (D idx k : nat) (v : vertex) : bool * con :=
  match get_constraint k v with
  | Some c => (true, mkCon idx k c)
  | None => (false, mkCon idx k (repeat 0 D))
  end.
Lemma vertex_cons_nth D h idx v k : (k < h)%nat ->
  nth_error (vertex_cons D h idx v) k = Some (con_of D idx k v).
Proof.
  intros. unfold vertex_cons. rewrite nth_error_map.
  assert (E : nth_error (seq 0 h) k = Some k).
  { rewrite (nth_error_nth' _ O) by (rewrite seq_length; auto). now rewrite seq_nth. }
  rewrite E. reflexivity.
Qed.
Lemma vertex_cons_length D h idx v : length (vertex_cons D h idx v) = h.
Proof. unfold vertex_cons. now rewrite map_length, seq_length. Qed.
Lemma vertex_cons_in D h idx v bc : In bc (vertex_cons D h idx v) ->
  exists k, (k < h)%nat /\ bc = con_of D idx k v.
Proof.
  unfold vertex_cons. rewrite in_map_iff. intros (k & <- & Hk). apply in_seq in Hk.
  exists k. split; [lia|reflexivity].
Qed.

Lemma all_cons_in D h n bc : forall vs idx, In bc (all_cons D h n idx vs) ->
  exists j k, (j < length vs)%nat /\ (k < h)%nat /\ bc = con_of D (idx + j) k (nth j vs (vertex_new D)).
Proof.
  induction vs as [|v vs IH]; intros idx; simpl; [tauto|].
  rewrite in_app_iff. intros [H|H].
  - assert (H' : In bc (vertex_cons D h idx v)).
    { destruct (_ || _); [auto|]. apply in_app_or in H; tauto. }
    apply vertex_cons_in in H'. destruct H' as (k & Hk & E).
    exists O, k. rewrite Nat.add_0_r. split; [lia|auto].
  - apply IH in H. destruct H as (j & k & Hj & Hk & E).
    exists (S j), k. split; [lia|]. split; auto. rewrite Nat.add_succ_r. exact E.
Qed.

Lemma all_cons_in0 D h n vs bc : In bc (all_cons D h n 0 vs) ->
  exists j k, (j < length vs)%nat /\ (k < h)%nat /\ bc = con_at D vs j k.
Proof. intros H. apply all_cons_in in H. exact H. Qed.

(** Position of the entries from the second vertex on. *)
Lemma all_cons_tail D h n : forall vs idx i r,
  (1 <= idx)%nat -> (idx + length vs = n + 1)%nat -> (r < h + h)%nat ->
  (i + 1 < length vs \/ i + 1 = length vs /\ r < h)%nat ->
  nth_error (all_cons D h n idx vs) (i * (h + h) + r) =
  Some (con_of D (idx + i) (if (r <? h)%nat then r else r - h)
               (nth i vs (vertex_new D))).
Proof.
  induction vs as [|v vs IH]; intros idx i r Hidx Hlen Hr Hi; simpl in Hi; [lia|].
  simpl in Hlen. cbn [all_cons].
  destruct (Nat.eqb_spec idx 0); [lia|]. simpl (false || _).
  destruct i as [|i].
  - simpl (0 * _ + r)%nat. rewrite Nat.add_0_r. simpl nth.
    destruct (Nat.eqb_spec idx n) as [En|En].
    + destruct (Nat.ltb_spec r h); [|destruct vs; simpl in *; lia].
      rewrite nth_error_app1 by (rewrite vertex_cons_length; auto).
      apply vertex_cons_nth; auto.
    + destruct (Nat.ltb_spec r h).
      * rewrite nth_error_app1 by (rewrite app_length, !vertex_cons_length; lia).
        rewrite nth_error_app1 by (rewrite vertex_cons_length; auto).
        apply vertex_cons_nth; auto.
      * rewrite nth_error_app1 by (rewrite app_length, !vertex_cons_length; lia).
        rewrite nth_error_app2 by (rewrite vertex_cons_length; auto).
        rewrite vertex_cons_length. apply vertex_cons_nth; lia.
  - destruct (Nat.eqb_spec idx n) as [En|En]; [destruct vs; simpl in *; lia|].
    rewrite nth_error_app2 by (rewrite app_length, !vertex_cons_length; lia).
    rewrite app_length, !vertex_cons_length.
    replace (S i * (h + h) + r - (h + h))%nat with (i * (h + h) + r)%nat by lia.
    rewrite IH by lia. simpl nth. do 2 f_equal. lia.
Qed.

(** Entry [r] of segment [i]. *)
Lemma all_cons_nth D h vs i r :
  (i + 1 < length vs)%nat -> (r < h + h)%nat ->
  nth_error (all_cons D h (length vs - 1) 0 vs) (i * (h + h) + r) =
  Some (if (r <? h)%nat then con_at D vs i r else con_at D vs (S i) (r - h)).
Proof.
  intros Hi Hr. destruct vs as [|v vs]; simpl in Hi; [lia|].
  cbn [all_cons]. simpl (0 =? 0)%nat. cbn [orb].
  simpl length. replace (S (length vs) - 1)%nat with (length vs) by lia.
  destruct i as [|i].
  - simpl (0 * _ + r)%nat. destruct (Nat.ltb_spec r h).
    + rewrite nth_error_app1 by (rewrite vertex_cons_length; auto).
      rewrite vertex_cons_nth by auto. reflexivity.
    + rewrite nth_error_app2 by (rewrite vertex_cons_length; auto).
      rewrite vertex_cons_length.
      replace (r - h)%nat with (0 * (h + h) + (r - h))%nat at 1 by lia.
      rewrite all_cons_tail by lia.
      destruct (Nat.ltb_spec (r - h) h); [reflexivity|lia].
  - rewrite nth_error_app2 by (rewrite vertex_cons_length; lia).
    rewrite vertex_cons_length. destruct (Nat.ltb_spec r h).
    + replace (S i * (h + h) + r - h)%nat with (i * (h + h) + (r + h))%nat by lia.
      rewrite all_cons_tail by lia.
      destruct (Nat.ltb_spec (r + h) h); [lia|].
      replace (r + h - h)%nat with r by lia. reflexivity.
    + replace (S i * (h + h) + r - h)%nat with (S i * (h + h) + (r - h))%nat by lia.
      rewrite all_cons_tail by lia.
      destruct (Nat.ltb_spec (r - h) h); [reflexivity|lia].
Qed.

(** ** Columns *)

(** Sum of the entries of x at the columns for derivative k of vertex j. *)
Definition colsum (cols : list con) (x : nat -> R) (j k : nat) : R :=
  rsum (length cols) (fun c =>
    match nth_error cols c with
    | Some b => (if con_eqb (mkCon j k []) b then 1 else 0) * x c
    | None => 0
    end).

Lemma reordering_row rows cols x r a : nth_error rows r = Some a ->
  rsum (length cols) (fun c => reordering rows cols r c * x c) = colsum cols x (c_vertex a) (c_order a).
Proof.
  intros H. apply rsum_ext. intros c Hc. unfold reordering. rewrite H.
  destruct (nth_error cols c) as [b|] eqn:E; [|ring].
  unfold con_eqb. simpl. reflexivity.
Qed.

Lemma nodup_key_nth cols c c' b b' : NoDup (map key cols) ->
  nth_error cols c = Some b -> nth_error cols c' = Some b' -> key b = key b' -> c = c'.
Proof.
  intros ND H H' K. rewrite NoDup_nth_error in ND. apply ND.
  - rewrite map_length. apply nth_error_Some. congruence.
  - rewrite !nth_error_map, H, H'. simpl. congruence.
Qed.

Lemma colsum_at cols x c b : NoDup (map key cols) -> nth_error cols c = Some b ->
  colsum cols x (c_vertex b) (c_order b) = x c.
Proof.
  intros ND H. unfold colsum.
  assert (Hc : (c < length cols)%nat) by (apply nth_error_Some; congruence).
  rewrite (rsum_single _ c); auto.
  - rewrite H.
    assert (E : con_eqb (mkCon (c_vertex b) (c_order b) []) b = true) by (apply con_eqb_key; reflexivity).
    rewrite E. ring.
  - intros c' Hc' Hne. destruct (nth_error cols c') as [b'|] eqn:E'; [|ring].
    destruct (con_eqb (mkCon (c_vertex b) (c_order b) []) b') eqn:E; [|ring].
    apply con_eqb_key in E. exfalso. apply Hne.
    apply (nodup_key_nth cols c' c b' b); auto.
Qed.

(** Properties of the columns computed by setupConstraintReorderingMatrix. *)
Section Columns.
Variables (D h : nat) (vs : list vertex).
Let all := all_cons D h (length vs - 1) 0 vs.
Let fixed := con_set true all.
Let free := con_set false all.

Lemma set_elem b y : In y (con_set b all) ->
  exists j k, (j < length vs)%nat /\ (k < h)%nat /\ con_at D vs j k = (b, y).
Proof.
  rewrite con_set_unfold. intros H.
  destruct (set_fold b all []) as (_ & B & _). destruct (B y H) as [[]|H'].
  apply all_cons_in0 in H'. destruct H' as (j & k & Hj & Hk & E). eauto 6.
Qed.

Lemma in_all j k : (2 <= length vs)%nat -> (j < length vs)%nat -> (k < h)%nat -> In (con_at D vs j k) all.
Proof.
  intros H2 Hj Hk. destruct (Nat.eq_dec (j + 1) (length vs)) as [E|E].
  - pose proof (all_cons_nth D h vs (j - 1) (h + k) ltac:(lia) ltac:(lia)) as H.
    destruct (Nat.ltb_spec (h + k) h); [lia|].
    replace (h + k - h)%nat with k in H by lia. replace (S (j - 1)) with j in H by lia.
    eapply nth_error_In; eauto.
  - pose proof (all_cons_nth D h vs j k ltac:(lia) ltac:(lia)) as H.
    destruct (Nat.ltb_spec k h); [|lia]. eapply nth_error_In; eauto.
Qed.

Lemma set_has j k : (2 <= length vs)%nat -> (j < length vs)%nat -> (k < h)%nat ->
  In (snd (con_at D vs j k)) (con_set (fst (con_at D vs j k)) all).
Proof.
  intros H2 Hj Hk. pose proof (in_all j k H2 Hj Hk) as H.
  set (b := fst (con_at D vs j k)) in *.
  destruct (set_fold b all []) as (_ & _ & _ & C).
  destruct (C (snd (con_at D vs j k))) as (y & Hy & K).
  { unfold b. rewrite <- surjective_pairing. exact H. }
  rewrite <- con_set_unfold in Hy.
  destruct (set_elem b y Hy) as (j' & k' & _ & _ & E).
  pose proof (con_at_key D vs j' k') as K'. rewrite E in K'. simpl in K'.
  rewrite K, con_at_key in K'. inversion K'; subst j' k'.
  rewrite E. exact Hy.
Qed.

Lemma columns_nodup : NoDup (map key (fixed ++ free)).
Proof.
  assert (S : forall b, NoDup (map key (con_set b all))).
  { intros b. rewrite con_set_unfold. apply sorted_keys.
    destruct (set_fold b all []) as (A & _). apply A. constructor. }
  rewrite map_app. 
  assert (Dj : forall x, In x (map key fixed) -> ~ In x (map key free)).
  { intros x Hx Hy. apply in_map_iff in Hx. apply in_map_iff in Hy.
    destruct Hx as (a & Ka & Ha). destruct Hy as (b & Kb & Hb).
    destruct (set_elem _ _ Ha) as (j & k & _ & _ & E).
    destruct (set_elem _ _ Hb) as (j' & k' & _ & _ & E').
    pose proof (con_at_key D vs j k) as K. rewrite E in K. simpl in K.
    pose proof (con_at_key D vs j' k') as K'. rewrite E' in K'. simpl in K'.
    rewrite Ka in K. rewrite Kb in K'. rewrite K in K'. inversion K'; subst j' k'. congruence. }
  pose proof (S true) as S1. pose proof (S false) as S2. fold fixed in S1. fold free in S2.
  clear S. revert S1 S2 Dj. generalize (map key fixed) (map key free). clear.
  induction l as [|a l IH]; simpl; intros l' H1 H2 Dj; auto.
  inversion H1; subst. constructor.
  - rewrite in_app_iff. intros [?|?]; auto. apply (Dj a); auto.
  - apply IH; auto.
Qed.

(** Every vertex derivative has its column, a fixed one iff it is constrained. *)
Lemma column_of j k : (2 <= length vs)%nat -> (j < length vs)%nat -> (k < h)%nat ->
  exists c, nth_error (fixed ++ free) c = Some (snd (con_at D vs j k)) /\
    (if fst (con_at D vs j k) then (c < length fixed)%nat
     else (length fixed <= c)%nat /\ nth_error free (c - length fixed) = Some (snd (con_at D vs j k))).
Proof.
  intros H2 Hj Hk. pose proof (set_has j k H2 Hj Hk) as H.
  destruct (fst (con_at D vs j k)).
  - apply In_nth_error in H. destruct H as (c & H). exists c.
    assert (Hc : (c < length fixed)%nat) by (apply nth_error_Some; unfold fixed; congruence).
    rewrite nth_error_app1 by auto. split; auto.
  - apply In_nth_error in H. destruct H as (c & H). exists (length fixed + c)%nat.
    rewrite nth_error_app2 by lia. replace (length fixed + c - length fixed)%nat with c by lia.
    split; [auto|]. split; [lia|auto].
Qed.

(** Values on the columns: constraint values on fixed ones. *)
Lemma colsum_fixed j k c d dp : (2 <= length vs)%nat -> (j < length vs)%nat -> (k < h)%nat ->
  get_constraint k (nth j vs (vertex_new D)) = Some c ->
  colsum (fixed ++ free)
    (fun i => nth i (map (fun c => nth d (c_value c) 0) fixed ++ dp) 0) j k = nth d c 0.
Proof.
  intros H2 Hj Hk G. destruct (column_of j k H2 Hj Hk) as (i & Hi & Hf).
  unfold con_at in Hi, Hf. rewrite G in Hi, Hf. simpl in Hi, Hf.
  pose proof (colsum_at _ (fun i => nth i (map (fun c => nth d (c_value c) 0) fixed ++ dp) 0) i _
                columns_nodup Hi) as E.
  simpl in E. rewrite E.
  rewrite nth_error_app1 in Hi by auto.
  rewrite app_nth1 by (rewrite map_length; auto).
  change (nth i (map (fun c0 : con => nth d (c_value c0) 0) fixed) 0 = nth d c 0).
  rewrite nth_indep with (d' := nth d (c_value (mkCon 0 0 [])) 0) by (rewrite map_length; auto).
  rewrite (map_nth (fun c0 => nth d (c_value c0) 0)).
  rewrite (nth_error_nth _ _ _ Hi). reflexivity.
Qed.

(** ... and any prescribed values on the free ones. *)
Lemma colsum_free j k d (V : nat -> nat -> R) : (2 <= length vs)%nat -> (j < length vs)%nat -> (k < h)%nat ->
  get_constraint k (nth j vs (vertex_new D)) = None ->
  colsum (fixed ++ free)
    (fun i => nth i (map (fun c => nth d (c_value c) 0) fixed ++
                     map (fun c => V (c_vertex c) (c_order c)) free) 0) j k = V j k.
Proof.
  intros H2 Hj Hk G. destruct (column_of j k H2 Hj Hk) as (i & Hi & Hf).
  unfold con_at in Hi, Hf. rewrite G in Hi, Hf. simpl in Hi, Hf. destruct Hf as [Hf Hn].
  match goal with |- colsum _ ?x _ _ = _ => pose proof (colsum_at _ x i _ columns_nodup Hi) as E end.
  simpl in E. rewrite E.
  rewrite app_nth2 by (rewrite map_length; auto). rewrite map_length.
  assert (Hl : (i - length fixed < length free)%nat) by (apply nth_error_Some; congruence).
  rewrite nth_indep with (d' := (fun c => V (c_vertex c) (c_order c)) (mkCon 0 0 [])) by (rewrite map_length; auto).
  rewrite (map_nth (fun c => V (c_vertex c) (c_order c))).
  rewrite (nth_error_nth _ _ _ Hn). reflexivity.
Qed.
End Columns.
