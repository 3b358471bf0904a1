(** Properties of the threads: lock order, misuse of the future, data races,
    lost notifications, destruction. *)
From Coq Require Import List Bool Arith Lia Relations.
From Verif Require Import ConcModel ConcSpec ConcCheck ConcProofs.
Import ListNotations.
Set Bullet Behavior "Strict Subproofs".

(* ------------------------------------------------------------------ *)
(** ** The invariant holds *)

Definition start_held (l : list thread) : nat -> list tok :=
  fun i => match nth_error (mkT Back (KEnd [background]) :: l) i with Some t => base (t_role t) | None => [] end.

Lemma wt_one md ro c : check md ro None (base ro) c = Some (Some (base ro)) -> wtk md ro (base ro) (KEnd [c]).
Proof. intros E. simpl. eapply wts_leq; eauto. apply wts_nil. tauto. Qed.
Lemma wt_back md : wtk md Back (base Back) (KEnd [background]).
Proof. apply wt_one. destruct md; vm_compute; reflexivity. Qed.
Lemma wt_any_client : wtk false Client (base Client) (t_cont any_client).
Proof. apply wt_one. vm_compute. reflexivity. Qed.
Lemma wt_any_owner : wtk false Owner (base Owner) (t_cont any_owner).
Proof.
  apply (wts_leq false Owner None _ _ _ []); [vm_compute; reflexivity|].
  apply (wts_leq false Owner None _ _ _ []); [vm_compute; reflexivity|]. apply wts_nil. tauto.
Qed.
Lemma wt_evaluator : wtk true Evaluator (base Evaluator) (t_cont the_evaluator).
Proof. apply wt_one. vm_compute. reflexivity. Qed.
Lemma wt_plain : wtk true Client (base Client) (t_cont plain_client).
Proof. apply wt_one. vm_compute. reflexivity. Qed.

Lemma ok_start md l : (forall t, In t l -> wtk md (t_role t) (base (t_role t)) (t_cont t)) ->
  ok md (start l) (start_held l).
Proof.
  intros W. unfold start, start_held. split; cbn [s_thr s_own s_fut s_pend].
  - intros i t N. rewrite N. apply nth_error_In in N. destruct N as [<-|I]; [apply wt_back|auto].
  - intros i N. rewrite N. auto.
  - intros m i. split; [discriminate|]. destruct (nth_error _ i) as [t|]; [|simpl; tauto].
    destruct (t_role t); simpl; intuition discriminate.
  - intros i t x N _. rewrite N. tauto.
  - intros j [Q|Q]; discriminate.
Qed.
Lemma ok_reach l s : (forall t, In t l -> wtk false (t_role t) (base (t_role t)) (t_cont t)) ->
  reach (start l) s -> exists Hs, ok false s Hs.
Proof.
  intros W R. induction R.
  - eexists. apply ok_start. auto.
  - destruct IHR as [Hs O]. destruct (ok_step _ _ _ _ _ _ O H) as (t & k' & H' & sm & _ & _ & _ & O'). eauto.
Qed.

Lemma repeat_nth {A} (x y : A) n i : nth_error (repeat x n) i = Some y -> y = x.
Proof. intros N. apply nth_error_In, repeat_spec in N. auto. Qed.
Lemma role_start n i : role_at (recommended n) i =
  match i with 0 => Some Back | 1 => Some Evaluator | S (S j) => if j <? n then Some Client else None end.
Proof.
  unfold role_at, recommended, start. cbn [s_thr]. destruct i as [|[|j]]; cbn [nth_error option_map t_role]; auto.
  destruct (nth_error (repeat plain_client n) j) as [t|] eqn:Q; cbn [option_map].
  - assert (L : j < length (repeat plain_client n)) by (apply nth_error_Some; congruence).
    apply repeat_nth in Q. subst t. rewrite repeat_length in L. apply Nat.ltb_lt in L. rewrite L. reflexivity.
  - apply nth_error_None in Q. rewrite repeat_length in Q. apply Nat.ltb_ge in Q. rewrite Q. auto.
Qed.
Lemma turn_start n : turn (recommended n) (start_held (the_evaluator :: repeat plain_client n)).
Proof.
  assert (Z : forall i x, droppable x = true -> ~ In x (start_held (the_evaluator :: repeat plain_client n) i)).
  { intros i x D. unfold start_held. destruct (nth_error _ i) as [t|]; [|simpl; tauto].
    destruct (t_role t); simpl; intros I; decompose [or] I; subst; auto; discriminate. }
  unfold turn, recommended, start. split; cbn [s_flg s_fut s_pend]; try (intros; exfalso; eapply Z; eauto; reflexivity).
  - intros _. repeat split; auto. intros i I. exfalso. apply (Z i XTurn); auto.
  - auto.
  - intros i j. fold (start (the_evaluator :: repeat plain_client n)). fold (recommended n). rewrite !role_start.
    destruct i as [|[|i]], j as [|[|j]]; auto; intros E R; try discriminate.
    + destruct (j <? n); discriminate.
    + destruct (j <? n); discriminate.
    + destruct (i <? n); discriminate.
    + destruct (i <? n); discriminate.
    + destruct (i <? n); destruct R; discriminate.
  - intros j [Q|Q]; discriminate.
Qed.
Lemma turn_reach n s : reach (recommended n) s -> exists Hs, ok true s Hs /\ turn s Hs.
Proof.
  intros R. induction R.
  - eexists. split; [|apply turn_start]. apply ok_start. intros t [<-|I]; [apply wt_evaluator|].
    apply repeat_spec in I. subst. apply wt_plain.
  - destruct IHR as (Hs & O & T). destruct (ok_step _ _ _ _ _ _ O H) as (t & k' & H' & sm & N & E & -> & O').
    eexists. split; [exact O'|]. eapply turn_step; eauto.
Qed.

(* ------------------------------------------------------------------ *)
(** ** C23: lock order *)

(** The head of a well-typed thread is checked. *)
Lemma head_checked md s Hs i c : ok md s Hs -> head_of s i = Some c ->
  exists t B r, nth_error (s_thr s) i = Some t /\ check md (t_role t) B (Hs i) c = Some r.
Proof.
  intros O E. unfold head_of in E. destruct (nth_error (s_thr s) i) as [t|] eqn:N; [|discriminate].
  destruct (wtk_split _ _ _ _ _ (ok_wt _ _ _ O i t N) E) as (B & cs & W & _).
  exists t, B. apply wts_inv in W. destruct W as [W|(H1 & H2 & W & _)]; eauto.
Qed.

Lemma waits_rank s Hs i j : ok false s Hs -> waits_for s i j ->
  exists x r, In x (Hs j) /\ trank x = Some r /\ below r (Hs i) = true /\ r <= 9.
Proof.
  intros O W. unfold waits_for in W. destruct (head_of s i) as [c|] eqn:E; [|contradiction].
  destruct (head_checked _ _ _ _ _ O E) as (t & B & r & N & C).
  destruct c; try contradiction; cbn in C.
  - exists (M m), (rank m). destruct (below (rank m) (Hs i)) eqn:Eb; [|discriminate].
    repeat split; auto; [apply (ok_own _ _ _ O); auto|]. destruct m; simpl; lia.
  - destruct (below 2 (Hs i)) eqn:Eb; [|discriminate]. destruct W as [F D].
    destruct (ok_fut _ _ _ O j (or_introl F)) as (tj & Nj & Rj).
    exists XRun, 2. repeat split; auto; [|lia]. apply (ok_base _ _ _ O j tj XRun Nj); [simpl; auto|]. rewrite Rj. simpl. auto.
  - destruct (below 2 (Hs i)) eqn:Eb; [|discriminate]. destruct W as [F D].
    destruct (ok_fut _ _ _ O j (or_introl F)) as (tj & Nj & Rj).
    exists XRun, 2. repeat split; auto; [|lia]. apply (ok_base _ _ _ O j tj XRun Nj); [simpl; auto|]. rewrite Rj. simpl. auto.
  - destruct (below 2 (Hs i)) eqn:Eb; [|discriminate]. destruct W as [F D].
    destruct (ok_fut _ _ _ O j (or_introl F)) as (tj & Nj & Rj).
    exists XRun, 2. repeat split; auto; [|lia]. apply (ok_base _ _ _ O j tj XRun Nj); [simpl; auto|]. rewrite Rj. simpl. auto.
  - destruct (below 0 (Hs i)) eqn:Eb; [|discriminate]. destruct W as (tj & Nj & Rj & _).
    exists XBack, 0. repeat split; auto; [|lia]. apply (ok_base _ _ _ O j tj XBack Nj); [simpl; auto|]. rewrite Rj. simpl. auto.
Qed.
Lemma below_mono r r' H : below r H = true -> r <= r' -> below r' H = true.
Proof. rewrite !below_spec. intros A L x q I T. specialize (A x q I T). lia. Qed.

Lemma waits_trans_rank s Hs i j : ok false s Hs -> clos_trans nat (waits_for s) i j ->
  exists x r, In x (Hs j) /\ trank x = Some r /\ below r (Hs i) = true /\ r <= 9.
Proof.
  intros O W. induction W as [i j W|i j k W1 IH1 W2 IH2].
  - eapply waits_rank; eauto.
  - destruct IH1 as (x & r & I & T & B & L). destruct IH2 as (x' & r' & I' & T' & B' & L').
    exists x', r'. repeat split; auto. eapply below_mono; eauto. rewrite below_spec in B'. specialize (B' x r I T). lia.
Qed.

Definition clients (l : list thread) : Prop := forall t, In t l -> t = any_client \/ t = any_owner.
Lemma clients_wt l : clients l -> forall t, In t l -> wtk false (t_role t) (base (t_role t)) (t_cont t).
Proof. intros C t I. destruct (C t I) as [->| ->]; [apply wt_any_client|apply wt_any_owner]. Qed.

Theorem C23_no_circular_wait : forall l s i, clients l -> reach (start l) s ->
  ~ clos_trans nat (waits_for s) i i.
Proof.
  intros l s i C R W. destruct (ok_reach _ _ (clients_wt _ C) R) as [Hs O].
  destruct (waits_trans_rank _ _ _ _ O W) as (x & r & I & T & B & _).
  rewrite below_spec in B. specialize (B x r I T). lia.
Qed.

Lemma blocked_waits s i : blocked s i -> exists j, waits_for s i j.
Proof.
  intros B. unfold blocked, exec in B. unfold waits_for, head_of.
  destruct (nth_error (s_thr s) i) as [t|] eqn:N; [|discriminate].
  assert (D : back_done s = false -> exists j t, nth_error (s_thr s) j = Some t /\ t_role t = Back /\ finished (t_cont t) = false).
  { unfold back_done. intros Q.
    assert (X : exists t, In t (s_thr s) /\ (match t_role t with Back => finished (t_cont t) | _ => true end) = false).
    { clear -Q. induction (s_thr s) as [|a l IH]; [discriminate|]. simpl in Q. apply andb_false_iff in Q.
      destruct Q as [Q|Q]; [exists a; simpl; auto|]. destruct (IH Q) as (t & I & E). exists t. simpl. auto. }
    destruct X as (t0 & I & E). apply In_nth_error in I. destruct I as [j Nj]. exists j, t0.
    destruct (t_role t0); try discriminate. auto. }
  destruct (t_cont t) as [[|c l]|[|c l] c' k]; try discriminate; cbn [head]; destruct c; try discriminate.
  all: try (destruct (s_own s m) as [j|] eqn:E; [|discriminate];
            first [exists j; reflexivity | destruct (i =? j); discriminate]).
  all: try (destruct (s_fut s) as [j|] eqn:E; [|discriminate]; destruct (done s j) eqn:Ed; [discriminate|];
            exists j; auto).
  all: destruct (back_done s) eqn:E; [discriminate|]; apply D; auto.
Qed.

Lemma waited_alive s Hs i j : ok false s Hs -> waits_for s i j -> exec j true s <> Ended.
Proof.
  intros O W X. assert (F : forall t, nth_error (s_thr s) j = Some t -> finished (t_cont t) = true).
  { intros t N. unfold exec in X. rewrite N in X.
    destruct (t_cont t) as [[|c l]|[|c l] c' k]; auto; try discriminate; exfalso.
    - destruct c; try discriminate; repeat match type of X with
        | context [match ?e with _ => _ end] => destruct e; try discriminate end.
    - destruct c; try discriminate; repeat match type of X with
        | context [match ?e with _ => _ end] => destruct e; try discriminate end. }
  destruct (waits_rank _ _ _ _ O W) as (x & r & I & T & B & _).
  destruct (nth_error (s_thr s) j) as [t|] eqn:N.
  - specialize (F t eq_refl). unfold waits_for in W. destruct (head_of s i) as [[]|] eqn:E; try contradiction.
    + (* lock *) assert (V := ok_wt _ _ _ O j t N). destruct (t_cont t) as [[|c l]|]; try discriminate.
      cbn in V. inversion V as [? Z| |]; subst. apply (ok_own _ _ _ O) in W. apply Z in W.
      destruct (t_role t); simpl in W; intuition discriminate.
    + destruct W as [_ D]. unfold done in D. rewrite N in D. congruence.
    + destruct W as [_ D]. unfold done in D. rewrite N in D. congruence.
    + destruct W as [_ D]. unfold done in D. rewrite N in D. congruence.
    + destruct W as (t0 & N0 & _ & D). rewrite N in N0. injection N0 as <-. congruence.
  - rewrite (ok_out _ _ _ O j N) in I. destruct I.
Qed.

Theorem C23_no_deadlock : forall l s i, clients l -> reach (start l) s -> blocked s i ->
  exists j, clos_trans nat (waits_for s) i j /\ can_go s j.
Proof.
  intros l s i C R B. destruct (ok_reach _ _ (clients_wt _ C) R) as [Hs O].
  assert (G : forall n i, blocked s i -> (exists x r, In x (Hs i) /\ trank x = Some r /\ 10 <= r + n) \/ 10 < n + 0 ->
     exists j, clos_trans nat (waits_for s) i j /\ can_go s j).
  { induction n as [|n IH]; intros k Bk Hk.
    - exfalso. destruct Hk as [(x & r & I & T & L)|L]; [|lia].
      destruct (blocked_waits s k Bk) as [j W].
      destruct (waits_rank _ _ _ _ O W) as (x' & r' & I' & T' & B' & L').
      rewrite below_spec in B'. specialize (B' x r I T). lia.
    - destruct (blocked_waits s k Bk) as [j W].
      assert (A := waited_alive _ _ _ _ O W).
      destruct (waits_rank _ _ _ _ O W) as (x' & r' & I' & T' & B' & L').
      destruct (exec j true s) eqn:E.
      + exists j. split; [apply t_step; auto|]. split; congruence.
      + destruct (IH j E) as (j' & W' & G').
        * destruct Hk as [(x & r & I & T & L)|L].
          -- rewrite below_spec in B'. specialize (B' x r I T). left. exists x', r'. repeat split; auto. lia.
          -- left. exists x', r'. repeat split; auto. lia.
        * exists j'. split; auto. eapply t_trans; [apply t_step; eauto|auto].
      + congruence.
      + exists j. split; [apply t_step; auto|]. split; congruence. }
  apply (G 11 i B). right. lia.
Qed.

(* ------------------------------------------------------------------ *)
(** ** C25, C71: one evaluating thread *)

Theorem C25_one_evaluator_no_misuse : forall n s i b, reach (recommended n) s -> exec i b s <> Bad.
Proof.
  intros n s i b R X. destruct (turn_reach _ _ R) as (Hs & O & T).
  unfold exec in X. destruct (nth_error (s_thr s) i) as [t|] eqn:N; [|discriminate].
  destruct (head (t_cont t)) as [c|] eqn:E.
  2:{ destruct (t_cont t) as [[|c l]|[|c l] c' k]; discriminate. }
  destruct (wtk_split _ _ _ _ _ (ok_wt _ _ _ O i t N) E) as (B & cs & W & _).
  assert (C : exists r, check true (t_role t) B (Hs i) c = Some r).
  { apply wts_inv in W. destruct W as [W|(H1 & H2 & W & _)]; eauto. }
  destruct C as [r C].
  assert (VB : forall x, In x (Hs i) -> x = XValid -> s_fut s <> None).
  { intros x I ->. apply (tn_valid _ _ _ _ _ T i I). }
  assert (V := ok_wt _ _ _ O i t N).
  destruct (t_cont t) as [[|c0 l]|[|c0 l] c' k]; try discriminate; cbn [head] in E; injection E as ->;
    destruct c; try discriminate; cbn in C.
  all: try solve [destruct (s_own s m); discriminate].
  all: try (destruct (s_own s m) as [j|] eqn:Eo;
    [ destruct (mem (M m) (Hs i)) eqn:Em; [|discriminate]; apply mem_spec, (ok_own _ _ _ O) in Em;
      rewrite Eo in Em; injection Em as ->; rewrite Nat.eqb_refl in X; discriminate
    | first [discriminate | destruct (mem (M m) (Hs i)) eqn:Em; [|discriminate]; apply mem_spec, (ok_own _ _ _ O) in Em; congruence] ]).
  all: try (destruct (s_fut s) as [j|] eqn:Ef; [destruct (done s j); discriminate|]).
  all: try (destruct (back_done s); discriminate).
  - (* Break at the end *) cbn in V. apply wts_inv in V. cbn in V. destruct V as [V|(? & ? & V & _)]; discriminate.
  - destruct (below 2 (Hs i)); [|discriminate]. destruct (mem XValid (Hs i)) eqn:Em; [|discriminate].
    apply mem_spec in Em. apply (VB _ Em); auto.
  - destruct (below 2 (Hs i)); [|discriminate]. destruct (mem XValid (Hs i)) eqn:Em; [|discriminate].
    apply mem_spec in Em. apply (VB _ Em); auto.
  - destruct (below 2 (Hs i)); [|discriminate]. destruct (mem XValid (Hs i)) eqn:Em; [|discriminate].
    apply mem_spec in Em. apply (VB _ Em); auto.
  - destruct (below 2 (Hs i)); [|discriminate]. destruct (mem XValid (Hs i)) eqn:Em; [|discriminate].
    apply mem_spec in Em. apply (VB _ Em); auto.
Qed.

Lemma guard_exclusive s Hs i j g v : ok true s Hs -> turn s Hs -> In g (guards v) ->
  In g (Hs i) -> In g (Hs j) -> i = j.
Proof.
  intros O T G I J. destruct g.
  - apply (ok_own _ _ _ O) in I, J. congruence.
  - destruct v; simpl in G; intuition discriminate.
  - destruct v; simpl in G; intuition discriminate.
  - assert (Z : forall k, In XEval (Hs k) -> role_at s k = Some Evaluator).
    { intros k Q. unfold role_at. destruct (nth_error (s_thr s) k) as [t|] eqn:N.
      - apply (ok_base _ _ _ O k t XEval N) in Q; [|simpl; auto].
        cbn [option_map]. destruct (t_role t); simpl in Q; intuition discriminate.
      - rewrite (ok_out _ _ _ O k N) in Q. destruct Q. }
    apply (tn_one _ _ _ _ _ T); rewrite (Z i I); auto. rewrite (Z j J). auto.
  - apply (tn_uni _ _ _ _ _ T); auto.
  - destruct v; simpl in G; intuition discriminate.
  - destruct v; simpl in G; intuition discriminate.
  - destruct v; simpl in G; intuition discriminate.
Qed.
Lemma guards_nonempty v : exists g l, guards v = g :: l.
Proof. destruct v; simpl; eauto. Qed.

Lemma role_step md s Hs i b s' j r : ok md s Hs -> exec i b s = Next s' -> role_at s j = Some r -> role_at s' j = Some r.
Proof.
  intros O X Rj. destruct (ok_step _ _ _ _ _ _ O X) as (t & k' & H' & sm & N & E & -> & _).
  unfold role_at in *. destruct (nth_error (s_thr s) j) as [tj|] eqn:Nj; [|discriminate].
  assert (Li : i < length (s_thr s)) by (apply nth_error_Some; congruence).
  assert (Lj : j < length (s_thr s)) by (apply nth_error_Some; congruence).
  assert (K : forall x, x < length (s_thr s) -> nth_error (s_thr sm) x = nth_error (s_thr s) x).
  { intros x L. destruct (effect_thr _ _ _ _ _ _ _ E) as [[-> _]|(-> & _ & _)]; auto. apply nth_error_app1. auto. }
  rewrite (goto_thr i k' sm t j) by (rewrite K; auto). destruct (j =? i) eqn:Ej.
  - apply Nat.eqb_eq in Ej. subst. rewrite N in Nj. injection Nj as <-. auto.
  - rewrite K, Nj; auto.
Qed.
Lemma background_first n s : reach (recommended n) s -> role_at s 0 = Some Back.
Proof.
  intros R. induction R.
  - apply role_start.
  - destruct (turn_reach _ _ R) as (Hs & O & _). eapply role_step; eauto.
Qed.

Theorem C71_races_only_bare : forall n s i j v, reach (recommended n) s -> race s i j v ->
  j = 0 /\ head_of s j = Some (ReadBare v) /\ In v [VTraj; VLocal; VMod].
Proof.
  intros n s i j v R (Nij & A & w & B). destruct (turn_reach _ _ R) as (Hs & O & T).
  cbn in A. destruct (head_checked _ _ _ _ _ O A) as (t & B0 & r & N & C). cbn in C.
  destruct (may_write (Hs i) v) eqn:Ew; [|discriminate].
  unfold may_write in Ew. rewrite forallb_forall in Ew.
  destruct w; cbn in B.
  - exfalso. destruct (head_checked _ _ _ _ _ O B) as (t' & B0' & r' & N' & C'). cbn in C'.
    destruct (may_write (Hs j) v) eqn:Ew'; [|discriminate].
    unfold may_write in Ew'. rewrite forallb_forall in Ew'.
    destruct (guards_nonempty v) as (g & l & G). assert (Ig : In g (guards v)) by (rewrite G; simpl; auto).
    apply Nij. eapply guard_exclusive; eauto; apply mem_spec; auto.
  - destruct B as [B|B]; destruct (head_checked _ _ _ _ _ O B) as (t' & B0' & r' & N' & C'); cbn in C'.
    + exfalso. destruct (may_read (Hs j) v) eqn:Er; [|discriminate]. unfold may_read in Er.
      rewrite existsb_exists in Er. destruct Er as (g & Ig & Mg).
      apply Nij. eapply guard_exclusive; eauto; apply mem_spec; auto.
    + destruct (may_bare (t_role t') v) eqn:Eb; [|discriminate].
      assert (Rj : t_role t' = Back /\ In v [VTraj; VLocal; VMod]).
      { destruct (t_role t'), v; simpl in *; try discriminate; auto. }
      destruct Rj as [Rj Iv]. split; [|auto].
      assert (R0 := background_first _ _ R).
      apply (tn_one _ _ _ _ _ T); unfold role_at; rewrite N'; cbn [option_map]; rewrite Rj; auto.
Qed.

Print Assumptions C23_no_circular_wait.
Print Assumptions C23_no_deadlock.
Print Assumptions C25_one_evaluator_no_misuse.
Print Assumptions C71_races_only_bare.
