(** Property theorems: what a call that has started something always does before
    it returns, in every interleaving of any number of threads (C100): a
    trajectory that is published is announced, the waypoints are exchanged with
    it, a request that is stored is flagged. *)
From Coq Require Import List Bool Arith Lia.
From Verif Require Import ConcModel ConcSpec ConcProofs PropertiesConc2.
Import ListNotations.
Set Bullet Behavior "Strict Subproofs".

(** Executions in which thread [i] does not execute the command [c]; the other
    threads do anything. *)
Inductive reach_without (i : nat) (c : cmd) (s0 : state) : state -> Prop :=
| without_refl : reach_without i c s0 s0
| without_step s j b s' : reach_without i c s0 s -> (j = i -> head_of s i <> Some c) -> exec j b s = Next s' ->
    reach_without i c s0 s'.
(** In every execution of the object with the threads [l], a thread of [l] that
    has executed [a] executes [z] before its call returns. *)
Definition always_follows (l : list thread) (a z : cmd) : Prop :=
  forall i b s s1 s2, 1 <= i -> i <= length l -> reach (start l) s -> head_of s i = Some a -> exec i b s = Next s1 ->
    reach_without i z s1 s2 -> ~ between_calls s2 i.

(* ------------------------------------------------------------------ *)
(** ** The check *)

Section Check.
Variables (a z : cmd) (isA isZ : cmd -> bool).
Hypothesis specA : forall c, isA c = true <-> c = a.
Hypothesis specZ : forall c, isZ c = true <-> c = z.
Definition simple (c : cmd) : bool :=
  match c with Seq _ _ | If _ _ _ | Loop _ | Break => false | _ => true end.
Hypothesis simpleA : simple a = true.

(** The loop of calls of a client. *)
Definition is_calls (c : cmd) : bool :=
  match c with If TAny Break Skip | If TAny Break (If TAny _ _) => true | _ => false end.
Record res := mkR { r_norm : bool; r_brk : bool; r_ok : bool }.
(** Started with the obligation [m]: the obligation afterwards, at a break, and
    whether loops and calls start without one. *)
Fixpoint chk (c : cmd) (m : bool) : res :=
  match c with
  | Seq c1 c2 => let r1 := chk c1 m in let r2 := chk c2 (r_norm r1) in
                 mkR (r_norm r2) (r_brk r1 || r_brk r2) (r_ok r1 && r_ok r2)
  | If _ c1 c2 => let r1 := chk c1 m in let r2 := chk c2 m in
                  mkR (r_norm r1 || r_norm r2) (r_brk r1 || r_brk r2) (r_ok r1 && r_ok r2)
  | Loop c => mkR (r_brk (chk c m)) false (r_ok (chk c m) && negb (r_norm (chk c false)) && negb (m && is_calls c))
  | Break => mkR false m true
  | _ => mkR (if isA c then true else if isZ c then false else m) false true
  end.
Fixpoint chks (cs : list cmd) (m : bool) : res :=
  match cs with
  | [] => mkR m false true
  | c :: cs' => let r1 := chk c m in let r2 := chks cs' (r_norm r1) in
                mkR (r_norm r2) (r_brk r1 || r_brk r2) (r_ok r1 && r_ok r2)
  end.
Fixpoint wk (m : bool) (k : cont) : Prop :=
  match k with
  | KEnd cs => r_ok (chks cs m) = true
  | KLoop cs c k' => exists m0, r_ok (chks cs m) = true /\ (r_norm (chks cs m) = true -> m0 = true) /\
                       r_ok (chk (Loop c) m0) = true /\ wk (r_brk (chks cs m) || r_brk (chk c m0)) k'
  end.

Definition imp (x y : bool) : Prop := x = true -> y = true.
Lemma chk_mono c : forall m, r_ok (chk c m) = true -> r_ok (chk c false) = true /\
  imp (r_norm (chk c false)) (r_norm (chk c m)) /\ imp (r_brk (chk c false)) (r_brk (chk c m)).
Proof.
  destruct m; [|intros H; split; auto; split; intros X; exact X].
  induction c; cbn [chk r_ok r_norm r_brk]; intros H; unfold imp in *;
    try (split; auto; split; auto; destruct (isA _); auto; destruct (isZ _); auto; discriminate); auto.
  - apply andb_prop in H as [H1 H2]. destruct (IHc1 H1) as (A1 & B1 & C1).
    destruct (chk c1 false) as [n1 b1 o1]. destruct (chk c1 true) as [n1' b1' o1']. cbn in *. subst.
    destruct n1, n1'; try (specialize (B1 eq_refl); discriminate).
    + rewrite H2. split; auto. split; auto. intros X. apply orb_prop in X as [X|X]; apply orb_true_iff; auto.
    + destruct (IHc2 H2) as (A2 & B2 & C2). rewrite A2. split; auto. split; auto.
      intros X. apply orb_prop in X as [X|X]; apply orb_true_iff; auto.
    + rewrite H2. split; auto. split; auto. intros X. apply orb_prop in X as [X|X]; apply orb_true_iff; auto.
  - apply andb_prop in H as [H1 H2]. destruct (IHc1 H1) as (A1 & B1 & C1). destruct (IHc2 H2) as (A2 & B2 & C2).
    rewrite A1, A2. split; auto. split; intros X; apply orb_prop in X as [X|X]; apply orb_true_iff; auto.
  - rewrite !andb_true_iff in H. destruct H as ((H1 & H2) & H3). destruct (IHc H1) as (A & B & C).
    rewrite A, H2. split; auto.
Qed.
Lemma chk_anti c m m' : imp m' m -> r_ok (chk c m) = true -> r_ok (chk c m') = true /\
  imp (r_norm (chk c m')) (r_norm (chk c m)) /\ imp (r_brk (chk c m')) (r_brk (chk c m)).
Proof.
  intros I H. destruct m'; [rewrite (I eq_refl) in *; unfold imp; auto|]. apply chk_mono. exact H.
Qed.
Lemma chks_anti cs : forall m m', imp m' m -> r_ok (chks cs m) = true -> r_ok (chks cs m') = true /\
  imp (r_norm (chks cs m')) (r_norm (chks cs m)) /\ imp (r_brk (chks cs m')) (r_brk (chks cs m)).
Proof.
  induction cs as [|c cs IH]; intros m m' I H; cbn [chks r_ok r_norm r_brk] in *; [unfold imp in *; auto|].
  apply andb_prop in H as [H1 H2]. destruct (chk_anti c m m' I H1) as (A1 & B1 & C1).
  destruct (IH _ _ B1 H2) as (A2 & B2 & C2). rewrite A1, A2. split; auto. split; auto.
  intros X. apply orb_prop in X as [X|X]; apply orb_true_iff; [left|right]; auto.
Qed.
Lemma wk_anti k : forall m m', imp m' m -> wk m k -> wk m' k.
Proof.
  induction k as [cs|cs c k IH]; intros m m' I H; cbn [wk] in *.
  - eapply chks_anti; eauto.
  - destruct H as (m0 & H1 & H2 & H3 & H4). destruct (chks_anti cs m m' I H1) as (A & B & C).
    exists m0. split; auto. split; [intros X; apply H2, B, X|]. split; auto.
    eapply IH; [|exact H4]. intros X. apply orb_prop in X as [X|X]; apply orb_true_iff; auto.
Qed.

(** A command list with another start. *)
Lemma chks_head cs cs' m m' rest : chks cs' m' = chks cs m -> chks (cs' ++ rest) m' = chks (cs ++ rest) m.
Proof.
  assert (G : forall l x, chks (l ++ rest) x =
    let r1 := chks l x in let r2 := chks rest (r_norm r1) in
    mkR (r_norm r2) (r_brk r1 || r_brk r2) (r_ok r1 && r_ok r2)).
  { induction l as [|c l IH]; intros x; cbn [app chks]; [cbn; destruct (chks rest x); reflexivity|].
    rewrite IH. cbn [r_norm r_brk r_ok]. rewrite orb_assoc, andb_assoc. reflexivity. }
  intros E. rewrite !G, E. reflexivity.
Qed.

Lemma chks_seq c1 c2 m : chks [c1; c2] m = chks [Seq c1 c2] m.
Proof. cbn. rewrite !orb_false_r, !andb_true_r. reflexivity. Qed.
Lemma chks_if t c1 c2 (x : bool) l m : r_ok (chks (If t c1 c2 :: l) m) = true ->
  r_ok (chks ((if x then c1 else c2) :: l) m) = true /\
  imp (r_norm (chks ((if x then c1 else c2) :: l) m)) (r_norm (chks (If t c1 c2 :: l) m)) /\
  imp (r_brk (chks ((if x then c1 else c2) :: l) m)) (r_brk (chks (If t c1 c2 :: l) m)).
Proof.
  cbn [chks chk r_ok r_norm r_brk]. intros H. rewrite !andb_true_iff in H. destruct H as ((H1 & H2) & H3).
  destruct (chks_anti l (r_norm (chk c1 m) || r_norm (chk c2 m)) (r_norm (chk (if x then c1 else c2) m))) as (A & B & C); auto.
  { intros X. destruct x; rewrite X; auto using orb_true_r. }
  rewrite A. split; [destruct x; rewrite ?H1, ?H2; reflexivity|]. split; auto.
  intros X. apply orb_prop in X as [X|X]; [|rewrite (C X); apply orb_true_r].
  destruct x; rewrite X; cbn; rewrite ?orb_true_r; reflexivity.
Qed.
Lemma loop_norm c m : r_ok (chk (Loop c) m) = true -> r_norm (chk c m) = true -> m = true.
Proof.
  cbn [chk r_ok]. intros H N. destruct m; auto. rewrite N in H. rewrite andb_false_r in H. discriminate.
Qed.
Lemma wk_loop c l m : wk m (KEnd (Loop c :: l)) -> wk m (KLoop [c] c (KEnd l)).
Proof.
  cbn [wk chks r_ok r_norm r_brk]. intros H. apply andb_prop in H as [H1 H2].
  assert (O : r_ok (chk c m) = true) by (cbn [chk r_ok] in H1; rewrite !andb_true_iff in H1; tauto).
  exists m. rewrite O. split; auto. split; [apply loop_norm; exact H1|]. split; [exact H1|].
  rewrite orb_false_r, orb_diag. exact H2.
Qed.
Lemma wk_loop_in c l c' k m : wk m (KLoop (Loop c :: l) c' k) -> wk m (KLoop [c] c (KLoop l c' k)).
Proof.
  cbn [wk chks r_ok r_norm r_brk]. intros (m0 & H1 & H2 & H3 & H4). apply andb_prop in H1 as [H0 H1].
  assert (O : r_ok (chk c m) = true) by (cbn [chk r_ok] in H0; rewrite !andb_true_iff in H0; tauto).
  exists m. rewrite O. split; auto. split; [apply loop_norm; exact H0|]. split; [exact H0|].
  exists m0. rewrite orb_false_r, orb_diag. auto.
Qed.

(** What thread [i] owes after its next command. *)
Definition after (h : option cmd) (m : bool) : bool :=
  match h with
  | Some c => if simple c then (if isA c then true else if isZ c then false else m) else m
  | None => m
  end.

Lemma other_step i j b s s' t : i <> j -> nth_error (s_thr s) i = Some t -> exec j b s = Next s' -> nth_error (s_thr s') i = Some t.
Proof.
  intros N T E. unfold exec in E. destruct (nth_error (s_thr s) j) as [u|] eqn:U; [|discriminate].
  assert (G : forall k sm, s_thr sm = s_thr s \/ s_thr sm = s_thr s ++ [mkT Comp (KEnd [compute])] ->
    nth_error (s_thr (goto j k sm)) i = Some t).
  { intros k sm H. assert (J : nth_error (s_thr sm) j = Some u /\ nth_error (s_thr sm) i = Some t).
    { destruct H as [-> | ->]; auto. split; (rewrite nth_error_app1; [auto|apply nth_error_Some; congruence]). }
    destruct J as [J1 J2]. rewrite (goto_thr _ _ _ _ _ J1). apply Nat.eqb_neq in N. rewrite N. exact J2. }
  repeat match type of E with
  | context [match ?x with _ => _ end] => destruct x; try discriminate E
  end; injection E as <-; apply G; auto.
Qed.
Lemma own_step i b s s' t m : nth_error (s_thr s) i = Some t -> exec i b s = Next s' -> wk m (t_cont t) ->
  exists t', nth_error (s_thr s') i = Some t' /\ wk (after (head (t_cont t)) m) (t_cont t').
Proof.
  intros T E W. unfold exec in E. rewrite T in E.
  assert (G : forall k sm, s_thr sm = s_thr s \/ s_thr sm = s_thr s ++ [mkT Comp (KEnd [compute])] ->
    nth_error (s_thr (goto i k sm)) i = Some (mkT (t_role t) k)).
  { intros k sm H. assert (J : nth_error (s_thr sm) i = Some t).
    { destruct H as [-> | ->]; auto. rewrite nth_error_app1; [auto|apply nth_error_Some; congruence]. }
    rewrite (goto_thr _ _ _ _ _ J), Nat.eqb_refl. reflexivity. }
  assert (R : forall c l k, (t_cont t = KEnd (c :: l) /\ k = KEnd l) \/
      (exists c' k', t_cont t = KLoop (c :: l) c' k' /\ k = KLoop l c' k') -> simple c = true ->
      wk (after (head (t_cont t)) m) k).
  { intros c l k H S.
    assert (X : forall l' , chks (c :: l') m = chks l' (if isA c then true else if isZ c then false else m)).
    { intros l'. cbn [chks]. replace (chk c m) with (mkR (if isA c then true else if isZ c then false else m) false true)
        by (destruct c; try discriminate S; reflexivity).
      cbn. destruct (chks l' _); reflexivity. }
    destruct H as [[H ->]|(c' & k' & H & ->)]; rewrite H in *; cbn [head after]; rewrite S; cbn [wk] in *; rewrite X in W; exact W. }
  destruct (t_cont t) as [[|c l]|[|c l] c' k'] eqn:K.
  - discriminate.
  - destruct c; cbn [replace_head app] in E;
      try (repeat match type of E with
           | context [match ?x with _ => _ end] => destruct x; try discriminate E
           end; injection E as <-;
           eexists; split; [apply G; cbn [s_thr]; auto|cbn [t_cont]; eapply R; [left; split; reflexivity|reflexivity]]).
    + injection E as <-. eexists; split; [apply G; auto|]. cbn [t_cont head after simple]. cbn [wk] in *.
      rewrite <- W. f_equal. apply (chks_head [Seq c1 c2] [c1; c2]). apply chks_seq.
    + injection E as <-. eexists; split; [apply G; auto|]. cbn [t_cont head after simple]. cbn [wk] in *.
      destruct (chks_if t0 c1 c2 (eval_test t0 b s) l m W) as (A & _). exact A.
    + injection E as <-. eexists; split; [apply G; auto|]. cbn [t_cont head after simple].
      apply wk_loop. exact W.
    + discriminate.
  - injection E as <-. eexists; split; [apply G; auto|]. cbn [t_cont head after]. cbn [wk chks r_ok r_norm r_brk] in *.
    destruct W as (m0 & _ & W2 & W3 & W4). cbn [orb] in W4.
    assert (O : r_ok (chk c' m0) = true) by (cbn [chk r_ok] in W3; rewrite !andb_true_iff in W3; tauto).
    destruct (chk_anti c' m0 m W2 O) as (A & B & C). exists m0. rewrite A. split; auto.
    split; [intros X; apply (loop_norm c' m0 W3), B, X|]. split; auto.
    eapply wk_anti; [|exact W4]. intros X. rewrite orb_false_r in X. apply orb_prop in X as [X|X]; auto.
  - destruct c; cbn [replace_head app] in E;
      try (repeat match type of E with
           | context [match ?x with _ => _ end] => destruct x; try discriminate E
           end; injection E as <-;
           eexists; split; [apply G; cbn [s_thr]; auto|cbn [t_cont]; eapply R; [right; do 2 eexists; split; reflexivity|reflexivity]]).
    + injection E as <-. eexists; split; [apply G; auto|]. cbn [t_cont head after simple]. cbn [wk] in *.
      assert (X : chks ([c1; c2] ++ l) m = chks (Seq c1 c2 :: l) m).
      { apply (chks_head [Seq c1 c2] [c1; c2]). apply chks_seq. }
      cbn [app] in X. rewrite X. exact W.
    + injection E as <-. eexists; split; [apply G; auto|]. cbn [t_cont head after simple]. cbn [wk] in *.
      destruct W as (m0 & W1 & W2 & W3 & W4).
      destruct (chks_if t0 c1 c2 (eval_test t0 b s) l m W1) as (A & B & C).
      exists m0. split; auto. split; [intros X; apply W2, B, X|]. split; auto.
      eapply wk_anti; [|exact W4]. intros X. apply orb_prop in X as [X|X]; apply orb_true_iff; auto.
    + injection E as <-. eexists; split; [apply G; auto|]. cbn [t_cont head after simple].
      apply wk_loop_in. exact W.
    + injection E as <-. eexists; split; [apply G; auto|]. cbn [t_cont head after simple].
      cbn [wk chks chk r_ok r_norm r_brk] in W. destruct W as (m0 & _ & _ & _ & W).
      eapply wk_anti; [|exact W]. intros ->. reflexivity.
Qed.

Lemma kept_false l i s : (forall t, In t l -> wk false (t_cont t)) -> 1 <= i <= length l -> reach (start l) s ->
  exists t, nth_error (s_thr s) i = Some t /\ wk false (t_cont t).
Proof.
  intros W L R. induction R as [|s j b s' R (t & N & X) E].
  - destruct i as [|i]; [lia|]. cbn. destruct (nth_error l i) as [t|] eqn:Q; [|apply nth_error_None in Q; lia].
    exists t. split; auto. apply W. eapply nth_error_In; eauto.
  - destruct (Nat.eq_dec i j) as [->|D]; [|exists t; split; auto; eapply other_step; eauto].
    destruct (own_step j b s s' t false N E X) as (t' & N' & X'). exists t'. split; auto.
    eapply wk_anti; [|exact X']. discriminate.
Qed.
Lemma follows l : (forall t, In t l -> wk false (t_cont t)) -> always_follows l a z.
Proof.
  intros W i b s s1 s2 L1 L2 R Ha E U.
  destruct (kept_false l i s W (conj L1 L2) R) as (t & N & X).
  unfold head_of in Ha. rewrite N in Ha.
  destruct (own_step i b s s1 t false N E X) as (t1 & N1 & X1). rewrite Ha in X1. cbn [after] in X1.
  rewrite simpleA, (proj2 (specA a) eq_refl) in X1.
  assert (G : exists t2, nth_error (s_thr s2) i = Some t2 /\ wk true (t_cont t2)).
  { clear - U N1 X1 specA specZ simpleA. induction U as [|s j b s' U (t & N & X) Hz E]; [eauto|].
    destruct (Nat.eq_dec i j) as [->|D]; [|exists t; split; auto; eapply other_step; eauto].
    destruct (own_step j b s s' t true N E X) as (t' & N' & X'). exists t'. split; auto.
    replace true with (after (head (t_cont t)) true) at 1; [exact X'|].
    specialize (Hz eq_refl). unfold head_of in Hz. rewrite N in Hz.
    destruct (head (t_cont t)) as [c|]; [|reflexivity]. cbn [after]. destruct (simple c); auto. destruct (isA c); auto.
    destruct (isZ c) eqn:Q; auto. apply specZ in Q. congruence. }
  destruct G as (t2 & N2 & X2). intros (u & lc & k & Nu & Ku).
  assert (u = t2) by congruence. subst u. rewrite Ku in X2. cbn [wk chks r_norm r_ok] in X2.
  destruct X2 as (m0 & _ & W2 & W3 & _). rewrite (W2 eq_refl) in W3. cbn [chk r_ok] in W3. rewrite !andb_true_iff in W3.
  destruct W3 as (_ & W3). destruct lc; discriminate.
Qed.
End Check.

(* ------------------------------------------------------------------ *)
(** ** The calls *)

Definition is_write (v : var) (c : cmd) : bool := match c with Write w => var_beq w v | _ => false end.
Definition is_set (f : flag) (x : bool) (c : cmd) : bool := match c with Set_ g y => flag_beq g f && Bool.eqb y x | _ => false end.
Definition is_get (c : cmd) : bool := match c with Get => true | _ => false end.
Lemma is_write_spec v c : is_write v c = true <-> c = Write v.
Proof.
  destruct c; cbn; split; try discriminate; intros H.
  - apply internal_var_dec_bl in H. congruence.
  - injection H as ->. apply internal_var_dec_lb. reflexivity.
Qed.
Lemma is_set_spec f x c : is_set f x c = true <-> c = Set_ f x.
Proof.
  destruct c; cbn; split; try discriminate; intros H.
  - apply andb_prop in H as [H1 H2]. apply flag_beq_spec in H1. apply eqb_prop in H2. congruence.
  - injection H as -> ->. rewrite eqb_reflx, andb_true_r. apply flag_beq_spec. reflexivity.
Qed.
Lemma is_get_spec c : is_get c = true <-> c = Get.
Proof. destruct c; cbn; split; congruence. Qed.

(** Any number of threads that make any calls, with or without the destructor
    in the end. *)
Definition any_threads (l : list thread) : Prop := Forall (fun t => t = any_client \/ t = any_owner) l.

Lemma any_wk isA isZ l : wk isA isZ false (t_cont any_client) -> wk isA isZ false (t_cont any_owner) ->
  any_threads l -> forall t, In t l -> wk isA isZ false (t_cont t).
Proof. intros A B F t I. unfold any_threads in F. rewrite Forall_forall in F. destruct (F t I) as [-> | ->]; auto. Qed.

(** C100: a call that publishes a trajectory sets the regenerated flag, after
    that, before it returns; it also exchanges the waypoints. *)
Theorem C100_publish_notifies : forall l, any_threads l -> always_follows l (Write VTraj) (Set_ FRegen true).
Proof.
  intros l A. apply (follows _ _ (is_write VTraj) (is_set FRegen true) (is_write_spec _) (is_set_spec _ _) eq_refl).
  apply any_wk; auto; vm_compute; reflexivity.
Qed.
Theorem C100_publish_waypoints : forall l, any_threads l -> always_follows l (Write VTraj) (Write VDyn).
Proof.
  intros l A. apply (follows _ _ (is_write VTraj) (is_write VDyn) (is_write_spec _) (is_write_spec _) eq_refl).
  apply any_wk; auto; vm_compute; reflexivity.
Qed.
(** C100: a call that takes a result publishes it before it returns, and then
    reports that no computation is running. *)
Theorem C100_taken_published : forall l, any_threads l -> always_follows l Get (Write VTraj).
Proof.
  intros l A. apply (follows _ _ is_get (is_write VTraj) is_get_spec (is_write_spec _) eq_refl).
  apply any_wk; auto; vm_compute; reflexivity.
Qed.
Theorem C100_published_idle : forall l, any_threads l -> always_follows l (Write VTraj) (Set_ FComp false).
Proof.
  intros l A. apply (follows _ _ (is_write VTraj) (is_set FComp false) (is_write_spec _) (is_set_spec _ _) eq_refl).
  apply any_wk; auto; vm_compute; reflexivity.
Qed.
(** C100: a call that stores waypoints to be set or added raises the request
    flag, after that, before it returns. *)
Theorem C100_request_flagged : forall l, any_threads l -> always_follows l (Write VAdd) (Set_ FGen true).
Proof.
  intros l A. apply (follows _ _ (is_write VAdd) (is_set FGen true) (is_write_spec _) (is_set_spec _ _) eq_refl).
  apply any_wk; auto; vm_compute; reflexivity.
Qed.
Theorem C100_set_flagged : forall l, any_threads l -> always_follows l (Write VSet) (Set_ FGen true).
Proof.
  intros l A. apply (follows _ _ (is_write VSet) (is_set FGen true) (is_write_spec _) (is_set_spec _ _) eq_refl).
  apply any_wk; auto; vm_compute; reflexivity.
Qed.
(** C100: every mutex a call locks is unlocked before it returns. *)
Definition is_lock (m : mutex) (c : cmd) : bool := match c with Lock m' => mutex_beq m' m | _ => false end.
Definition is_unlock (m : mutex) (c : cmd) : bool := match c with Unlock m' => mutex_beq m' m | _ => false end.
Lemma is_lock_spec m c : is_lock m c = true <-> c = Lock m.
Proof.
  destruct c; cbn; split; try discriminate; intros H.
  - apply mutex_beq_spec in H. congruence.
  - injection H as ->. apply mutex_beq_spec. reflexivity.
Qed.
Lemma is_unlock_spec m c : is_unlock m c = true <-> c = Unlock m.
Proof.
  destruct c; cbn; split; try discriminate; intros H.
  - apply mutex_beq_spec in H. congruence.
  - injection H as ->. apply mutex_beq_spec. reflexivity.
Qed.
Theorem C100_locks_released : forall l m, any_threads l -> always_follows l (Lock m) (Unlock m).
Proof.
  intros l m A. apply (follows _ _ (is_lock m) (is_unlock m) (is_lock_spec _) (is_unlock_spec _) eq_refl).
  apply any_wk; auto; destruct m; vm_compute; reflexivity.
Qed.
Print Assumptions C100_publish_notifies.
Print Assumptions C100_publish_waypoints.
Print Assumptions C100_taken_published.
Print Assumptions C100_published_idle.
Print Assumptions C100_request_flagged.
Print Assumptions C100_set_flagged.
Print Assumptions C100_locks_released.

(** The hypotheses are met: two clients; the first one publishes, and later is
    between two calls; and takes a result, stores waypoints, holds a mutex. *)
Definition two_clients : list thread := [any_client; any_owner].
Definition stored : option state := first_computed 1 5 3 (start two_clients).
Definition ended (i : nat) (s : state) : bool :=
  match nth_error (s_thr s) i with
  | Some (mkT _ (KLoop [] _ _)) => true
  | _ => false
  end.
Example C100_example : any_threads two_clients /\
  (exists s, reach (start two_clients) s /\ at_write VTraj (head_of s 1) = true) /\
  (exists s, reach (start two_clients) s /\ at_get (head_of s 1) = true) /\
  (exists s, reach (start two_clients) s /\ at_write VSet (head_of s 1) = true) /\
  (exists s, reach (start two_clients) s /\ at_write VAdd (head_of s 2) = true) /\
  (exists s, reach (start two_clients) s /\ at_lock MDyn (head_of s 2) = true) /\
  (exists s, reach (start two_clients) s /\ (s_flg s FRegen && s_flg s FHas && ended 1 s) = true).
Proof.
  split; [apply Forall_cons; [auto|apply Forall_cons; auto]|].
  split; [|split; [|split; [|split; [|split]]]].
  - apply (scenario_has (stored >> call_until (at_write VTraj) 1 0 [false; true])); [|vm_compute; reflexivity].
    unfold stored, first_computed, make_call. reaches.
  - apply (scenario_has (stored >> call_until at_get 1 0 [])); [|vm_compute; reflexivity].
    unfold stored, first_computed, make_call. reaches.
  - apply (scenario_has (call_until (at_write VSet) 1 4 [] (start two_clients))); [|vm_compute; reflexivity].
    reaches.
  - apply (scenario_has (call_until (at_write VAdd) 2 5 [] (start two_clients))); [|vm_compute; reflexivity].
    reaches.
  - apply (scenario_has (call_until (at_lock MDyn) 2 14 [] (start two_clients))); [|vm_compute; reflexivity].
    reaches.
  - apply (scenario_has (stored >> make_call 1 0 [false; true])); [|vm_compute; reflexivity].
    unfold stored, first_computed, make_call. reaches.
Qed.
