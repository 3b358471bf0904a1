(** The invariant of all executions: what every thread holds, and who has the
    turn in the hand-over between background thread, computation and the
    evaluating thread. *)
From Coq Require Import List Bool Arith Lia.
From Verif Require Import ConcModel ConcCheck.
Import ListNotations.
Set Bullet Behavior "Strict Subproofs".

Record ok (md : bool) (s : state) (Hs : nat -> list tok) : Prop := {
  ok_wt : forall i t, nth_error (s_thr s) i = Some t -> wtk md (t_role t) (Hs i) (t_cont t);
  ok_out : forall i, nth_error (s_thr s) i = None -> Hs i = [];
  ok_own : forall m i, s_own s m = Some i <-> In (M m) (Hs i);
  ok_base : forall i t x, nth_error (s_thr s) i = Some t -> In x [XBack; XRun; XEval] ->
    (In x (Hs i) <-> In x (base (t_role t)));
  ok_fut : forall j, s_fut s = Some j \/ s_pend s = Some j ->
    exists t, nth_error (s_thr s) j = Some t /\ t_role t = Comp
}.
Definition role_at (s : state) (i : nat) : option role := option_map t_role (nth_error (s_thr s) i).
(** [ra]: roles, [fc]: computing_new_trajectory_, [fu], [pe]: the futures. *)
Record turns (ra : nat -> option role) (fc : bool) (fu pe : option nat) (Hs : nat -> list tok) : Prop := {
  tn_uni : forall i j, In XTurn (Hs i) -> In XTurn (Hs j) -> i = j;
  tn_idle : fc = false -> fu = None /\ pe = None /\ forall i, In XTurn (Hs i) -> ra i = Some Back;
  tn_fut : forall j i, fu = Some j \/ pe = Some j -> In XTurn (Hs i) -> i = j;
  tn_pend : pe <> None -> fu = None;
  tn_valid : forall i, In XValid (Hs i) -> fu <> None /\ ra i = Some Evaluator;
  tn_commit : forall i, In XCommit (Hs i) -> In XTurn (Hs i) /\ fc = true;
  tn_spawned : forall i, In XSpawned (Hs i) -> pe <> None /\ ra i = Some Back;
  tn_one : forall i j, ra i = ra j -> ra i = Some Back \/ ra i = Some Evaluator -> i = j;
  tn_comp : forall j, fu = Some j \/ pe = Some j -> ra j = Some Comp
}.
Definition turn (s : state) (Hs : nat -> list tok) : Prop :=
  turns (role_at s) (s_flg s FComp) (s_fut s) (s_pend s) Hs.

Definition upd (Hs : nat -> list tok) (i : nat) (H : list tok) : nat -> list tok :=
  fun j => if j =? i then H else Hs j.
Lemma upd_same Hs i H : upd Hs i H i = H.
Proof. unfold upd. rewrite Nat.eqb_refl. auto. Qed.
Lemma upd_other Hs i j H : j <> i -> upd Hs i H j = Hs j.
Proof. intros N. unfold upd. apply Nat.eqb_neq in N. rewrite N. auto. Qed.

Lemma nth_upd_same {A} (l : list A) i x : i < length l -> nth_error (upd_nth i x l) i = Some x.
Proof.
  revert i. induction l as [|a l IH]; intros [|i] L; simpl in *; auto; try lia. apply IH. lia.
Qed.
Lemma nth_upd_other {A} (l : list A) i j x : j <> i -> nth_error (upd_nth i x l) j = nth_error l j.
Proof.
  revert i j. induction l as [|a l IH]; intros [|i] [|j] N; simpl; auto; try lia. 
Qed.
Lemma length_upd {A} (l : list A) i x : length (upd_nth i x l) = length l.
Proof. revert i. induction l as [|a l IH]; intros [|i]; simpl; auto. Qed.

Lemma goto_thr i k s t j : nth_error (s_thr s) i = Some t ->
  nth_error (s_thr (goto i k s)) j = if j =? i then Some (mkT (t_role t) k) else nth_error (s_thr s) j.
Proof.
  intros N. unfold goto. rewrite N. simpl. destruct (j =? i) eqn:E.
  - apply Nat.eqb_eq in E. subst. apply nth_upd_same. apply nth_error_Some. congruence.
  - apply Nat.eqb_neq in E. apply nth_upd_other. auto.
Qed.
Lemma goto_rest i k s : s_own (goto i k s) = s_own s /\ s_flg (goto i k s) = s_flg s /\
  s_fut (goto i k s) = s_fut s /\ s_pend (goto i k s) = s_pend s.
Proof. unfold goto. destruct (nth_error (s_thr s) i); auto. Qed.

Lemma mutex_beq_spec m m' : mutex_beq m m' = true <-> m = m'.
Proof. split; [apply internal_mutex_dec_bl|apply internal_mutex_dec_lb]. Qed.
Lemma flag_beq_spec m m' : flag_beq m m' = true <-> m = m'.
Proof. split; [apply internal_flag_dec_bl|apply internal_flag_dec_lb]. Qed.

(** [leq] keeps everything that is not droppable. *)
Lemma leq_in H H' x : leq H H' = true -> droppable x = false -> (In x H' <-> In x H).
Proof.
  rewrite leq_spec. intros (A & B & _) D. split; intros I; auto. destruct (B x I); congruence.
Qed.
Lemma leq_sub H H' x : leq H H' = true -> In x H' -> In x H.
Proof. rewrite leq_spec. intros [A _]. auto. Qed.

Definition fixed_tok (x : tok) : bool := match x with XBack | XRun | XEval => true | _ => false end.
Lemma del_nd d x H : droppable d = true -> droppable x = false -> (In x (del d H) <-> In x H).
Proof. intros D X. rewrite del_spec. split; [tauto|]. intros I; split; auto. intros ->. congruence. Qed.
Lemma add_nd d x H : droppable d = true -> droppable x = false -> (In x (d :: del d H) <-> In x H).
Proof.
  intros D X. simpl. rewrite del_nd by auto. split; auto. intros [I|I]; auto. congruence.
Qed.
(** A step that is not Lock or Unlock keeps what is not droppable. *)
Lemma effect_nd md ro i s H H' sm : effect md ro i s H H' sm ->
  (s_own sm = s_own s /\ forall x, droppable x = false -> (In x H' <-> In x H)) \/
  (exists m, s_own s m = None /\ s_own sm = upd_own m (Some i) (s_own s) /\ below (rank m) H = true /\ leq (M m :: H) H' = true) \/
  (exists m, s_own s m = Some i /\ s_own sm = upd_own m None (s_own s) /\ leq (del (M m) H) H' = true).
Proof.
  intros E. destruct E.
  - left. split; auto. intros. apply leq_in; auto.
  - right; left. exists m. auto.
  - right; right. exists m. auto.
  - left. split; auto. intros x X.
    destruct md; [|apply leq_in; auto].
    destruct (flag_eq_dec f FComp) as [->|Nf]; [|apply leq_in; auto].
    destruct (H0 eq_refl eq_refl) as [_ Z]. destruct v; destruct Z as [_ Z]; rewrite (leq_in _ _ x Z X).
    + apply add_nd; auto.
    + rewrite !del_nd by auto. tauto.
  - left. split; auto. intros x X. rewrite (leq_in _ _ x H3 X). apply add_nd; auto.
  - left. split; auto. intros x X. rewrite (leq_in _ _ x H3 X). apply add_nd; auto.
  - left. split; auto. intros x X. destruct md; [|apply leq_in; auto].
    destruct H3 as (_ & _ & Z); auto. rewrite (leq_in _ _ x Z X). rewrite add_nd by auto. apply del_nd; auto.
  - left. split; auto. intros x X. destruct md; [|apply leq_in; auto].
    destruct H1 as (_ & _ & Z); auto. rewrite (leq_in _ _ x Z X). rewrite add_nd by auto. rewrite !del_nd by auto. tauto.
  - left. split; auto. intros x X. destruct md; [|apply leq_in; auto].
    destruct H1 as (_ & _ & Z); auto. rewrite (leq_in _ _ x Z X). apply del_nd; auto.
Qed.
Lemma effect_fixed md ro i s H H' sm : effect md ro i s H H' sm ->
  forall x, fixed_tok x = true -> (In x H' <-> In x H).
Proof.
  intros E x F. assert (D : droppable x = false) by (destruct x; auto; discriminate).
  destruct (effect_nd _ _ _ _ _ _ _ E) as [[_ Z]|[(m & _ & _ & _ & L)|(m & _ & _ & L)]]; auto;
    rewrite (leq_in _ _ x L D).
  - simpl. split; auto. intros [I|I]; auto. subst. discriminate.
  - rewrite del_spec. split; [tauto|]. intros I; split; auto. intros ->. discriminate.
Qed.
Lemma effect_lock md ro i s H H' sm : effect md ro i s H H' sm ->
  (forall m j, s_own s m = Some j -> s_own sm m = Some j \/ j = i) /\
  (forall m j, s_own sm m = Some j -> s_own s m = Some j \/ j = i) /\
  ((forall m, s_own s m = Some i <-> In (M m) H) -> forall m, s_own sm m = Some i <-> In (M m) H').
Proof.
  intros E. destruct (effect_nd _ _ _ _ _ _ _ E) as [[-> Z]|[(m & O0 & -> & _ & L)|(m & O0 & -> & L)]]; (split; [|split]); auto.
  - intros O m. rewrite O. symmetry. apply Z. auto.
  - intros m' j O. unfold upd_own. destruct (mutex_beq m' m) eqn:Em; auto.
    apply mutex_beq_spec in Em. congruence.
  - intros m' j. unfold upd_own. destruct (mutex_beq m' m) eqn:Em; auto. intros X. injection X; auto.
  - intros O m'. rewrite (leq_in _ _ (M m') L) by auto. simpl. unfold upd_own.
    destruct (mutex_beq m' m) eqn:Em.
    + apply mutex_beq_spec in Em. subst. split; auto.
    + rewrite O. split; auto. intros [I|I]; auto. injection I as ->.
      assert (X : mutex_beq m' m' = true) by (apply mutex_beq_spec; auto). congruence.
  - intros m' j O. unfold upd_own. destruct (mutex_beq m' m) eqn:Em; auto.
    apply mutex_beq_spec in Em. subst. right. congruence.
  - intros m' j. unfold upd_own. destruct (mutex_beq m' m) eqn:Em; auto. discriminate.
  - intros O m'. rewrite (leq_in _ _ (M m') L) by auto. rewrite del_spec. unfold upd_own.
    destruct (mutex_beq m' m) eqn:Em.
    + apply mutex_beq_spec in Em. subst. split; [discriminate|]. intros [_ N]. congruence.
    + rewrite O. split; [|tauto]. intros I; split; auto. intros X. injection X as ->.
      assert (X : mutex_beq m m = true) by (apply mutex_beq_spec; auto). congruence.
Qed.

Definition spawn_held (md : bool) : list tok := if md then [XTurn; XRun] else [XRun].
Lemma compute_wt md : wtk md Comp (spawn_held md) (KEnd [compute]).
Proof.
  destruct md; simpl.
  - apply (wts_cons _ _ _ _ _ [XTurn; XRun] [XRun]); [vm_compute; reflexivity|reflexivity|]. apply wts_nil. tauto.
  - apply (wts_cons _ _ _ _ _ [XRun] [XRun]); [vm_compute; reflexivity|reflexivity|]. apply wts_nil. tauto.
Qed.

(** Threads before the step of [i] continues. *)
Lemma effect_thr md ro i s H H' sm : effect md ro i s H H' sm ->
  (s_thr sm = s_thr s /\ (s_pend sm = s_pend s \/ s_pend sm = None)) \/
  (s_thr sm = s_thr s ++ [mkT Comp (KEnd [compute])] /\ s_pend sm = Some (length (s_thr s)) /\ s_fut sm = s_fut s).
Proof. intros E. destruct E; simpl; auto. Qed.
Lemma effect_fut md ro i s H H' sm : effect md ro i s H H' sm ->
  s_fut sm = s_fut s \/ s_fut sm = None \/ s_fut sm = s_pend s.
Proof. intros E. destruct E; simpl; auto. Qed.

Lemma nth_app_last {A} (l : list A) x j :
  nth_error (l ++ [x]) j = if j =? length l then Some x else nth_error l j.
Proof.
  destruct (j =? length l) eqn:E.
  - apply Nat.eqb_eq in E. subst. rewrite nth_error_app2, Nat.sub_diag by lia. auto.
  - apply Nat.eqb_neq in E. destruct (Nat.lt_ge_cases j (length l)).
    + apply nth_error_app1; auto.
    + rewrite nth_error_app2 by lia. rewrite (proj2 (nth_error_None l j)) by lia.
      destruct (j - length l) eqn:D; [lia|]. simpl. destruct n; auto.
Qed.

(** The new ghost state. *)
Definition next_held (md : bool) (s sm : state) (i : nat) (H' : list tok) (Hs : nat -> list tok) : nat -> list tok :=
  if length (s_thr sm) =? length (s_thr s) then upd Hs i H' else upd (upd Hs (length (s_thr s)) (spawn_held md)) i H'.

Lemma ok_step md s Hs i b s' : ok md s Hs -> exec i b s = Next s' ->
  exists t k' H' sm, nth_error (s_thr s) i = Some t /\ effect md (t_role t) i s (Hs i) H' sm /\
    s' = goto i k' sm /\ ok md s' (next_held md s sm i H' Hs).
Proof.
  intros O X. destruct (nth_error (s_thr s) i) as [t|] eqn:N; [|unfold exec in X; rewrite N in X; discriminate].
  destruct (exec_effect md i b s s' t (Hs i) X N (ok_wt _ _ _ O i t N)) as (k' & H' & sm & E & W & ->).
  exists t, k', H', sm. split; [auto|]. split; [auto|]. split; [auto|].
  assert (Li : i < length (s_thr s)) by (apply nth_error_Some; congruence).
  assert (F := effect_fixed _ _ _ _ _ _ _ E). assert (EL := effect_lock _ _ _ _ _ _ _ E).
  destruct EL as (L1 & L2 & L3).
  assert (Nm : nth_error (s_thr sm) i = Some t).
  { destruct (effect_thr _ _ _ _ _ _ _ E) as [[-> _]|[-> _]]; auto. rewrite nth_app_last.
    replace (i =? length (s_thr s)) with false by (symmetry; apply Nat.eqb_neq; lia). auto. }
  assert (OU : forall m j, s_own sm m = Some j <-> In (M m) (upd Hs i H' j)).
  { intros m j. unfold upd. destruct (j =? i) eqn:Ej.
    - apply Nat.eqb_eq in Ej. subst. apply L3. intros. apply (ok_own _ _ _ O).
    - apply Nat.eqb_neq in Ej. rewrite <- (ok_own _ _ _ O m j). split; intros Z.
      + destruct (L2 _ _ Z); auto. congruence.
      + destruct (L1 _ _ Z); auto. congruence. }
  destruct (goto_rest i k' sm) as (G1 & G2 & G3 & G4).
  assert (FU : forall j, s_fut sm = Some j \/ s_pend sm = Some j ->
    j = length (s_thr s) /\ s_thr sm = s_thr s ++ [mkT Comp (KEnd [compute])] \/
    exists t, nth_error (s_thr s) j = Some t /\ t_role t = Comp).
  { intros j Q. destruct (effect_thr _ _ _ _ _ _ _ E) as [[E1 E2]|(E1 & E2 & E3)].
    - right. apply (ok_fut _ _ _ O). destruct (effect_fut _ _ _ _ _ _ _ E) as [Z|[Z|Z]];
        destruct E2 as [E2|E2]; rewrite ?Z, ?E2 in Q; destruct Q; auto; discriminate.
    - rewrite E2, E3 in Q. destruct Q as [Q|Q]; [right; apply (ok_fut _ _ _ O); auto|].
      left. split; auto. congruence. }
  destruct (effect_thr _ _ _ _ _ _ _ E) as [[Et _]|(Et & _ & _)]; unfold next_held; rewrite Et.
  - rewrite Nat.eqb_refl. split.
    + intros j tj. rewrite (goto_thr _ _ _ _ _ Nm), Et. unfold upd. destruct (j =? i) eqn:Ej.
      * intros Z. injection Z as <-. auto.
      * apply (ok_wt _ _ _ O).
    + intros j. rewrite (goto_thr _ _ _ _ _ Nm), Et. unfold upd. destruct (j =? i); [discriminate|]. apply (ok_out _ _ _ O).
    + intros m j. rewrite G1. auto.
    + intros j tj x. rewrite (goto_thr _ _ _ _ _ Nm), Et. unfold upd. destruct (j =? i) eqn:Ej.
      * intros Z I. injection Z as <-. cbn [t_role]. rewrite F; [apply (ok_base _ _ _ O); auto|].
        simpl in I. destruct I as [<-|[<-|[<-|[]]]]; auto.
      * apply (ok_base _ _ _ O).
    + intros j. rewrite G3, G4. intros Q. destruct (FU j Q) as [[_ Z]|(tj & Nj & Rj)].
      * rewrite Et in Z. apply (f_equal (@length _)) in Z. rewrite app_length in Z. simpl in Z. lia.
      * rewrite (goto_thr _ _ _ _ _ Nm), Et. destruct (j =? i) eqn:Ej; eauto.
        apply Nat.eqb_eq in Ej. subst. eexists; split; eauto. simpl. congruence.
  - rewrite app_length. cbn [length].
    replace (length (s_thr s) + 1 =? length (s_thr s)) with false by (symmetry; apply Nat.eqb_neq; lia).
    set (n := length (s_thr s)) in *.
    assert (Hn : Hs n = []) by (apply (ok_out _ _ _ O), nth_error_None; unfold n; lia).
    split.
    + intros j tj. rewrite (goto_thr _ _ _ _ _ Nm), Et, nth_app_last. fold n. unfold upd. destruct (j =? i) eqn:Ej.
      * intros Z. injection Z as <-. auto.
      * destruct (j =? n) eqn:En; [|apply (ok_wt _ _ _ O)].
        intros Z. injection Z as <-. apply compute_wt.
    + intros j. rewrite (goto_thr _ _ _ _ _ Nm), Et, nth_app_last. fold n. unfold upd.
      destruct (j =? i); [discriminate|]. destruct (j =? n); [discriminate|]. apply (ok_out _ _ _ O).
    + intros m j. rewrite G1, OU. unfold upd. destruct (j =? i) eqn:Ej; [tauto|].
      destruct (j =? n) eqn:En; [|tauto]. apply Nat.eqb_eq in En. subst j. rewrite Hn.
      unfold spawn_held. destruct md; simpl; split; intros Z; decompose [or] Z; try tauto; discriminate.
    + intros j tj x. rewrite (goto_thr _ _ _ _ _ Nm), Et, nth_app_last. fold n. unfold upd. destruct (j =? i) eqn:Ej.
      * intros Z I. injection Z as <-. cbn [t_role]. rewrite F; [apply (ok_base _ _ _ O); auto|].
        simpl in I. destruct I as [<-|[<-|[<-|[]]]]; auto.
      * destruct (j =? n) eqn:En; [|apply (ok_base _ _ _ O)].
        intros Z I. injection Z as <-. cbn [t_role base]. simpl in I. unfold spawn_held.
        destruct I as [<-|[<-|[<-|[]]]]; destruct md; simpl; split; intros Z; decompose [or] Z; auto; try discriminate; tauto.
    + intros j. rewrite G3, G4. intros Q. rewrite (goto_thr _ _ _ _ _ Nm), Et, nth_app_last. fold n.
      destruct (FU j Q) as [[-> _]|(tj & Nj & Rj)].
      * fold n. replace (n =? i) with false by (symmetry; apply Nat.eqb_neq; unfold n; lia).
        rewrite Nat.eqb_refl. eexists; split; eauto.
      * destruct (j =? i) eqn:Ej.
        -- apply Nat.eqb_eq in Ej. subst. eexists; split; eauto. simpl. congruence.
        -- destruct (j =? n); eauto.
Qed.

(* ------------------------------------------------------------------ *)
(** ** The turn *)

Lemma done_no_turn md s Hs j : ok md s Hs -> done s j = true -> ~ In XTurn (Hs j).
Proof.
  intros O D I. unfold done in D. destruct (nth_error (s_thr s) j) as [t|] eqn:N.
  - assert (W := ok_wt _ _ _ O j t N). destruct (t_cont t) as [[|c l]|]; try discriminate.
    cbn in W. inversion W as [? Z| |]; subst. apply Z in I. destruct (t_role t); simpl in I; intuition discriminate.
  - rewrite (ok_out _ _ _ O j N) in I. auto.
Qed.

(** The right holdings after a step of [i]: from [X], some dropped. *)
Definition from (Hs Hs' : nat -> list tok) (i : nat) (X : list tok) : Prop :=
  (forall j, j <> i -> Hs' j = Hs j) /\ leq X (Hs' i) = true.
Lemma from_in Hs Hs' i X j x : from Hs Hs' i X -> In x (Hs' j) -> j = i /\ In x X \/ j <> i /\ In x (Hs j).
Proof.
  intros [A L] I. destruct (Nat.eq_dec j i) as [->|N].
  - left. split; auto. eapply leq_sub; eauto.
  - right. rewrite A in I; auto.
Qed.
Lemma from_commit Hs Hs' i X : from Hs Hs' i X -> (In XCommit X -> In XTurn X) ->
  (forall j, In XCommit (Hs j) -> In XTurn (Hs j)) -> forall j, In XCommit (Hs' j) -> In XTurn (Hs' j).
Proof.
  intros [A L] C D j I. destruct (Nat.eq_dec j i) as [->|N].
  - assert (I' := leq_sub _ _ _ L I). apply leq_spec in L. destruct L as (L1 & L2 & L3). auto.
  - rewrite (A j N) in *. auto.
Qed.

Ltac fromtac F I :=
  let Z := fresh "Z" in let N := fresh "N" in
  destruct (from_in _ _ _ _ _ _ F I) as [[-> Z]|[N Z]]; cbn [In] in Z; rewrite ?del_spec in Z.

Section steps.
Context (ra : nat -> option role) (fc : bool) (fu pe : option nat) (Hs Hs' : nat -> list tok) (i : nat).
Hypothesis T : turns ra fc fu pe Hs.

Lemma turns_sub X fc' : from Hs Hs' i X -> (forall x, droppable x = true -> In x X -> In x (Hs i)) ->
  (In XCommit X -> In XTurn X) -> (fc' = false -> fc = false) -> (fc = true -> fc' = true) -> turns ra fc' fu pe Hs'.
Proof.
  intros F S C E1 E2.
  assert (D : forall x j, droppable x = true -> In x (Hs' j) -> In x (Hs j)).
  { intros x j Dx I. destruct (from_in _ _ _ _ _ _ F I) as [[-> Z]|[_ Z]]; auto. }
  destruct T. split; auto.
  - intros H. destruct (tn_idle0 (E1 H)) as (A & B & C'). repeat split; auto.
  - intros j I. split.
    + revert j I. apply (from_commit _ _ _ _ F C). intros j I. apply (tn_commit0 j I).
    + apply E2. apply (tn_commit0 j). auto.
Qed.
Lemma turns_take : ra i = Some Back -> fc = false -> from Hs Hs' i (XTurn :: del XTurn (Hs i)) -> turns ra fc fu pe Hs'.
Proof.
  intros R E F. assert (T' := T). destruct T'. destruct (tn_idle0 E) as (F1 & F2 & F3). subst fu pe.
  assert (TI : forall j, In XTurn (Hs' j) -> j = i).
  { intros j I. fromtac F I; auto. apply tn_one0; rewrite (F3 j Z); auto. }
  split; auto.
  - intros a c A C. rewrite (TI a A), (TI c C). auto.
  - intros _. repeat split; auto. intros a A. rewrite (TI a A). auto.
  - intros a c [Q|Q]; discriminate.
  - intros a I. assert (I' : In XValid (Hs a)) by (fromtac F I; intuition congruence). eauto.
  - intros a I. assert (I' : In XCommit (Hs a)) by (fromtac F I; intuition congruence). destruct (tn_commit0 a I'). congruence.
  - intros a I. assert (I' : In XSpawned (Hs a)) by (fromtac F I; intuition congruence). eauto.
Qed.
Lemma turns_valid : ra i = Some Evaluator -> fu <> None -> from Hs Hs' i (XValid :: del XValid (Hs i)) -> turns ra fc fu pe Hs'.
Proof.
  intros R E F. assert (T' := T). destruct T'.
  assert (TI : forall x j, x <> XValid -> In x (Hs' j) -> In x (Hs j)).
  { intros x j N I. fromtac F I; intuition congruence. }
  split; auto.
  - intros a c A C. apply tn_uni0; apply TI; auto; discriminate.
  - intros Q. destruct (tn_idle0 Q) as (F1 & F2 & F3). congruence.
  - intros a c Q I. apply (tn_fut0 _ _ Q). apply TI; auto. discriminate.
  - intros a I. fromtac F I; [auto|eauto].
  - intros a I. split.
    + revert a I. apply (from_commit _ _ _ _ F).
      * simpl. rewrite !del_spec. intros [Z|[Z _]]; [discriminate|]. right. split; [apply (tn_commit0 i Z)|discriminate].
      * intros j I. apply (tn_commit0 j I).
    + apply (tn_commit0 a). apply TI; auto. discriminate.
  - intros a I. apply tn_spawned0. apply TI; auto. discriminate.
Qed.
Lemma turns_commit : ra i = Some Back -> In XTurn (Hs i) -> from Hs Hs' i (XCommit :: del XCommit (Hs i)) -> turns ra true fu pe Hs'.
Proof.
  intros R E F. assert (T' := T). destruct T'.
  assert (TI : forall x j, x <> XCommit -> In x (Hs' j) -> In x (Hs j)).
  { intros x j N I. fromtac F I; intuition congruence. }
  split; auto.
  - intros a c A C. apply tn_uni0; apply TI; auto; discriminate.
  - discriminate.
  - intros a c Q I. apply (tn_fut0 _ _ Q). apply TI; auto. discriminate.
  - intros a I. apply tn_valid0. apply TI; auto. discriminate.
  - intros a I. split; auto. revert a I. apply (from_commit _ _ _ _ F).
    + intros _. simpl. rewrite !del_spec. right. split; [auto|discriminate].
    + intros j I. apply (tn_commit0 j I).
  - intros a I. apply tn_spawned0. apply TI; auto. discriminate.
Qed.
Lemma turns_release : ra i = Some Evaluator -> In XTurn (Hs i) -> from Hs Hs' i (del XTurn (del XCommit (Hs i))) ->
  turns ra false fu pe Hs'.
Proof.
  intros R E F. assert (T' := T). destruct T'.
  assert (NT : forall j, ~ In XTurn (Hs' j)).
  { intros j I. fromtac F I; [tauto|]. apply N. apply tn_uni0; auto. }
  assert (FN : forall j, ~ (fu = Some j \/ pe = Some j)).
  { intros j Q. assert (i = j) by (apply (tn_fut0 j i Q E)). subst j. rewrite (tn_comp0 i Q) in R. discriminate. }
  assert (fu = None) by (destruct fu as [j|]; auto; exfalso; apply (FN j); auto).
  assert (pe = None) by (destruct pe as [j|]; auto; exfalso; apply (FN j); auto).
  split; auto.
  - intros a c A. exfalso. eapply NT; eauto.
  - intros _. repeat split; auto. intros a A. exfalso. eapply NT; eauto.
  - intros a c _ A. exfalso. eapply NT; eauto.
  - intros a I. apply tn_valid0. fromtac F I; tauto.
  - intros a I. exfalso. fromtac F I; [tauto|].
    destruct (tn_commit0 _ Z) as [A _]. apply N. apply tn_uni0; auto.
  - intros a I. apply tn_spawned0. fromtac F I; tauto.
Qed.
Lemma turns_get j : ra i = Some Evaluator -> In XValid (Hs i) -> fu = Some j -> ~ In XTurn (Hs j) ->
  from Hs Hs' i (XTurn :: del XTurn (del XValid (Hs i))) -> turns ra fc None pe Hs'.
Proof.
  intros R E Q D F. assert (T' := T). destruct T'.
  assert (NT : forall a, ~ In XTurn (Hs a)).
  { intros a I. assert (a = j) by (apply (tn_fut0 j a); auto). subst. auto. }
  assert (P : pe = None).
  { destruct pe as [x|]; auto. assert (fu = None) by (apply tn_pend0; discriminate). congruence. }
  assert (NC : forall a, ~ In XCommit (Hs a)).
  { intros a I. eapply NT. apply (tn_commit0 a I). }
  subst pe. split; auto.
  - assert (TI : forall a, In XTurn (Hs' a) -> a = i).
    { intros a I. fromtac F I; auto. exfalso. eapply NT; eauto. }
    intros a c A C. rewrite (TI a A), (TI c C). auto.
  - intros Z. destruct (tn_idle0 Z). congruence.
  - intros a c [Z|Z]; discriminate.
  - intros a I. exfalso. fromtac F I.
    + destruct Z as [Z|[Z _]]; [discriminate|]. tauto.
    + apply N. destruct (tn_valid0 _ Z) as [_ Ra]. apply tn_one0; rewrite Ra; auto.
  - intros a I. exfalso. apply (NC a). fromtac F I; auto. destruct Z as [Z|[Z _]]; [discriminate|]. tauto.
  - intros a I. apply tn_spawned0. fromtac F I; auto. destruct Z as [Z|[Z _]]; [discriminate|]. tauto.
  - intros a [Z|Z]; discriminate.
Qed.
Lemma turns_spawn n ra' : ra i = Some Back -> In XCommit (Hs i) -> Hs n = [] -> n <> i ->
  (forall j, j <> n -> ra' j = ra j) -> ra' n = Some Comp ->
  from (upd Hs n (spawn_held true)) Hs' i (XSpawned :: del XSpawned (del XTurn (del XCommit (Hs i)))) ->
  turns ra' fc fu (Some n) Hs'.
Proof.
  intros R E Hn Ni Ra Rn F. assert (T' := T). destruct T'.
  destruct (tn_commit0 _ E) as [Et Ec].
  assert (FN : forall j, ~ (fu = Some j \/ pe = Some j)).
  { intros j Q. assert (i = j) by (apply (tn_fut0 j i Q Et)). subst j. rewrite (tn_comp0 i Q) in R. discriminate. }
  assert (Fu : fu = None) by (destruct fu as [j|]; auto; exfalso; apply (FN j); auto).
  assert (V : forall j x, In x (Hs' j) ->
       j = i /\ (x = XSpawned \/ In x (Hs i) /\ x <> XSpawned /\ x <> XTurn /\ x <> XCommit) \/
       j = n /\ In x [XTurn; XRun] \/ j <> i /\ j <> n /\ In x (Hs j)).
  { intros j x I. fromtac F I.
    - left. split; auto. destruct Z as [Z|[Z Z3]]; auto. tauto.
    - right. destruct (Nat.eq_dec j n) as [->|Nn].
      + left. rewrite upd_same in Z. auto.
      + right. rewrite upd_other in Z; auto. }
  assert (TI : forall j, In XTurn (Hs' j) -> j = n).
  { intros j I. destruct (V _ _ I) as [[-> [Z|Z]]|[[-> Z]|(N1 & N2 & Z)]]; auto.
    - discriminate.
    - tauto.
    - exfalso. apply N1. apply tn_uni0; auto. }
  split.
  - intros a c A C. rewrite (TI a A), (TI c C). auto.
  - intros Z. congruence.
  - intros a c [Q|Q] I; [congruence|]. injection Q as <-. auto.
  - auto.
  - intros a I. exfalso. destruct (V _ _ I) as [[-> [Z|Z]]|[[-> Z]|(N1 & N2 & Z)]].
    + discriminate.
    + destruct Z as [Z _]. destruct (tn_valid0 _ Z). congruence.
    + destruct Z as [Z|[Z|[]]]; discriminate.
    + destruct (tn_valid0 _ Z). congruence.
  - intros a I. exfalso. destruct (V _ _ I) as [[-> [Z|Z]]|[[-> Z]|(N1 & N2 & Z)]].
    + discriminate.
    + tauto.
    + destruct Z as [Z|[Z|[]]]; discriminate.
    + destruct (tn_commit0 _ Z) as [Zt _]. apply N1, tn_uni0; auto.
  - intros a I. split; [discriminate|]. destruct (V _ _ I) as [[-> [Z|Z]]|[[-> Z]|(N1 & N2 & Z)]].
    + rewrite Ra; auto.
    + rewrite Ra; auto.
    + destruct Z as [Z|[Z|[]]]; discriminate.
    + rewrite Ra by auto. apply (tn_spawned0 _ Z).
  - intros a c Er Ro. destruct (Nat.eq_dec a n) as [->|Na]; [rewrite Rn in Ro; destruct Ro; discriminate|].
    destruct (Nat.eq_dec c n) as [->|Nc]; [rewrite Er, Rn in Ro; destruct Ro; discriminate|].
    rewrite !Ra in * by auto. auto.
  - intros a [Q|Q]; [congruence|]. injection Q as <-. auto.
Qed.
Lemma turns_assign : ra i = Some Back -> In XSpawned (Hs i) -> from Hs Hs' i (del XSpawned (Hs i)) ->
  turns ra fc pe None Hs'.
Proof.
  intros R E F. assert (T' := T). destruct T'. destruct (tn_spawned0 _ E) as [P _].
  assert (Fu : fu = None) by auto. subst fu.
  assert (TI : forall x j, In x (Hs' j) -> In x (Hs j)).
  { intros x j I. fromtac F I; tauto. }
  split; auto.
  - intros Q. destruct (tn_idle0 Q) as (F1 & F2 & F3). repeat split; auto.
  - intros a c [Q|Q] I; [|discriminate]. eauto.
  - congruence.
  - intros a I. exfalso. destruct (tn_valid0 a (TI _ _ I)). congruence.
  - intros a I. split; [|apply (tn_commit0 a); auto]. revert a I. apply (from_commit _ _ _ _ F).
    + rewrite !del_spec. intros [Z _]. split; [apply (tn_commit0 i Z)|discriminate].
    + intros j I. apply (tn_commit0 j I).
  - intros a I. exfalso. fromtac F I; [tauto|]. destruct (tn_spawned0 _ Z) as [_ Ra]. apply N, tn_one0; rewrite Ra; auto.
  - intros a [Q|Q]; [auto|discriminate].
Qed.
End steps.

Lemma turn_step s Hs i t k' H' sm : ok true s Hs -> turn s Hs -> nth_error (s_thr s) i = Some t ->
  effect true (t_role t) i s (Hs i) H' sm -> turn (goto i k' sm) (next_held true s sm i H' Hs).
Proof.
  intros O T N E.
  assert (Li : i < length (s_thr s)) by (apply nth_error_Some; congruence).
  assert (Ri : role_at s i = Some (t_role t)) by (unfold role_at; rewrite N; auto).
  destruct (goto_rest i k' sm) as (G1 & G2 & G3 & G4). unfold turn. rewrite G2, G3, G4.
  assert (RS : nth_error (s_thr sm) i = Some t -> forall j, role_at (goto i k' sm) j = role_at sm j).
  { intros Nm j. unfold role_at. rewrite (goto_thr i k' sm t j) by auto. destruct (j =? i) eqn:Ej; auto.
    apply Nat.eqb_eq in Ej. subst. rewrite Nm. auto. }
  assert (RX : forall ra ra' fc fu pe h, (forall j, ra' j = ra j) -> turns ra fc fu pe h -> turns ra' fc fu pe h).
  { intros ra ra' fc fu pe h R Q. destruct Q. split; auto; intros; rewrite ?R in *; auto.
     - destruct tn_idle0 as (? & ? & ?); auto. repeat split; auto. intros. rewrite R. auto.
    }
  assert (FU : forall X, leq X H' = true -> from Hs (upd Hs i H') i X).
  { intros X L. split; [intros; apply upd_other; auto|]. rewrite upd_same. auto. }
  assert (CT : In XCommit (Hs i) -> In XTurn (Hs i)) by (intros; apply (tn_commit _ _ _ _ _ T i); auto).
  unfold turn in T. 
  destruct (effect_thr _ _ _ _ _ _ _ E) as [[Et _]|(Et & _ & _)].
  - assert (Nm : nth_error (s_thr sm) i = Some t) by congruence.
    specialize (RS Nm). unfold next_held. rewrite Et, Nat.eqb_refl.
    assert (RS' : forall j, role_at (goto i k' sm) j = role_at s j).
    { intros j. rewrite RS. unfold role_at. rewrite Et. auto. }
    eapply RX; [exact RS'|]. clear RS RS' RX G1 G2 G3 G4 Nm.
    destruct E; cbn [s_thr s_flg s_fut s_pend] in *.
    + apply (turns_sub _ _ _ _ _ _ i T (Hs i)); auto.
    + apply (turns_sub _ _ _ _ _ _ i T (M m :: Hs i)); auto.
      * intros x D [Z|Z]; auto. subst. discriminate.
      * intros [Z|Z]; [discriminate|]. right. auto.
    + apply (turns_sub _ _ _ _ _ _ i T (del (M m) (Hs i))); auto.
      * intros x D Z. apply del_spec in Z. tauto.
      * rewrite !del_spec. intros [Z _]. split; auto. discriminate.
    + destruct (flag_eq_dec f FComp) as [->|Nf].
      * destruct (H eq_refl eq_refl) as [It Rv]. destruct v; destruct Rv as [Rv L]; cbn [upd_flg flag_beq].
        -- apply (turns_commit _ _ _ _ _ _ i T); auto. congruence.
        -- apply (turns_release _ _ _ _ _ _ i T); auto. congruence.
      * assert (Q : upd_flg f v (s_flg s) FComp = s_flg s FComp).
        { unfold upd_flg. destruct (flag_beq FComp f) eqn:Ef; auto. apply flag_beq_spec in Ef. congruence. }
        rewrite Q. apply (turns_sub _ _ _ _ _ _ i T (Hs i)); auto.
    + apply (turns_take _ _ _ _ _ _ i T); auto. congruence.
    + apply (turns_valid _ _ _ _ _ _ i T); auto. congruence.
    + destruct (H2 eq_refl) as (Iv & Re & L). apply (turns_get _ _ _ _ _ _ i T j); auto; [congruence|].
      eapply done_no_turn; eauto.
    + apply (f_equal (@length _)) in Et. rewrite app_length in Et. simpl in Et. lia.
    + destruct (H0 eq_refl) as (Is & Rb & L). apply (turns_assign _ _ _ _ _ _ i T); auto. congruence.
  - assert (Nm : nth_error (s_thr sm) i = Some t).
    { rewrite Et, nth_app_last. replace (i =? length (s_thr s)) with false by (symmetry; apply Nat.eqb_neq; lia). auto. }
    specialize (RS Nm). unfold next_held. rewrite Et, app_length. cbn [length].
    replace (length (s_thr s) + 1 =? length (s_thr s)) with false by (symmetry; apply Nat.eqb_neq; lia).
    eapply RX; [exact RS|]. clear RX RS.
    destruct E; cbn [s_thr s_flg s_fut s_pend] in *;
      try (apply (f_equal (@length _)) in Et; rewrite app_length in Et; simpl in Et; lia).
    destruct (H0 eq_refl) as (It & Rb & L).
    apply (turns_spawn _ _ _ _ _ _ i T (length (s_thr s))); auto.
    + congruence.
    + apply (ok_out _ _ _ O), nth_error_None. lia.
    + lia.
    + intros j Nj. unfold role_at. cbn [s_thr]. rewrite nth_app_last.
      replace (j =? length (s_thr s)) with false by (symmetry; apply Nat.eqb_neq; lia). auto.
    + unfold role_at. cbn [s_thr]. rewrite nth_app_last, Nat.eqb_refl. auto.
    + split; [intros; apply upd_other; auto|]. rewrite upd_same. auto.
Qed.
