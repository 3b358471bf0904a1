(** Executions with several threads that go wrong, and examples. *)
From Coq Require Import List Bool Arith Lia Relations.
From Verif Require Import ConcModel ConcSpec ConcCheck ConcProofs PropertiesConc.
Import ListNotations.
Set Bullet Behavior "Strict Subproofs".

Definition is_any (c : option cmd) : bool := match c with Some (If TAny _ _) => true | _ => false end.
(** Thread [i] runs until its next command satisfies [stop]; [bs] resolves the
    choices on data. *)
Fixpoint until (fuel i : nat) (stop : option cmd -> bool) (bs : list bool) (s : state) : option state :=
  match fuel with
  | O => None
  | S f =>
      if stop (head_of s i) then Some s else
        match exec i (hd false bs) s with
        | Next s' => until f i stop (if is_any (head_of s i) then tl bs else bs) s'
        | _ => None
        end
  end.
Definition one (i : nat) (b : bool) (s : state) : option state :=
  match exec i b s with Next s' => Some s' | _ => None end.
Definition bind (o : option state) (f : state -> option state) : option state :=
  match o with Some s => f s | None => None end.
Notation "o >> f" := (bind o f) (at level 50, left associativity).

Lemma until_reach s0 fuel i stop : forall bs s s', reach s0 s -> until fuel i stop bs s = Some s' -> reach s0 s'.
Proof.
  induction fuel as [|f IH]; intros bs s s' R E; [discriminate|]. cbn [until] in E.
  destruct (stop (head_of s i)); [injection E as <-; auto|].
  destruct (exec i (hd false bs) s) eqn:X; try discriminate.
  eapply IH; [|exact E]. eapply reach_step; eauto.
Qed.
Lemma one_reach s0 i b s s' : reach s0 s -> one i b s = Some s' -> reach s0 s'.
Proof.
  intros R E. unfold one in E. destruct (exec i b s) eqn:X; try discriminate. injection E as <-.
  eapply reach_step; eauto.
Qed.
Lemma bind_reach s0 o f : (forall s, o = Some s -> reach s0 s) -> (forall s s', reach s0 s -> f s = Some s' -> reach s0 s') ->
  forall s, (o >> f) = Some s -> reach s0 s.
Proof. intros A B s. destruct o as [x|]; [|discriminate]. simpl. intros E. eapply B; eauto. Qed.

(** Stops. *)
Definition at_end (c : option cmd) : bool := match c with None => true | _ => false end.
Definition at_get (c : option cmd) : bool := match c with Some Get => true | _ => false end.
Definition at_break (c : option cmd) : bool := match c with Some Break => true | _ => false end.
Definition at_lock (m : mutex) (c : option cmd) : bool := match c with Some (Lock m') => mutex_beq m m' | _ => false end.
Definition at_set (f : flag) (c : option cmd) : bool := match c with Some (Set_ f' _) => flag_beq f f' | _ => false end.
Definition at_flag (f : flag) (c : option cmd) : bool := match c with Some (If (TFlag f') _ _) => flag_beq f f' | _ => false end.
Scheme Equality for var.
Definition at_write (v : var) (c : option cmd) : bool := match c with Some (Write v') => var_beq v v' | _ => false end.
Definition at_bare (v : var) (c : option cmd) : bool := match c with Some (ReadBare v') => var_beq v v' | _ => false end.
Definition at_read (v : var) (c : option cmd) : bool := match c with Some (Read v') => var_beq v v' | _ => false end.
Definition fuel := 400.

(** The choices by which a thread takes the [n]-th call of its list. *)
Definition call (n : nat) : list bool := false :: repeat false n ++ [true].
(** Thread [i], between two calls, makes its [n]-th call with the choices [bs]
    until [stop]. *)
Definition call_until (stop : option cmd -> bool) (i n : nat) (bs : list bool) (s : state) : option state :=
  one i false s >> until fuel i stop (call n ++ bs).
Definition make_call : nat -> nat -> list bool -> state -> option state := call_until at_end.
Lemma call_until_reach s0 stop i n bs s s' : reach s0 s -> call_until stop i n bs s = Some s' -> reach s0 s'.
Proof.
  intros R. unfold call_until. apply bind_reach.
  - intros x E. eapply one_reach; eauto.
  - intros. eapply until_reach; eauto.
Qed.
Ltac reaches :=
  repeat first
    [ apply bind_reach
    | apply call_until_reach
    | intros; eapply until_reach; [first [eassumption | apply reach_refl] | eassumption]
    | intros; eapply one_reach; [first [eassumption | apply reach_refl] | eassumption]
    | intros; eapply call_until_reach; [first [eassumption | apply reach_refl] | eassumption] ].

(** A state of a scenario with a property that can be computed. *)
Lemma scenario_has (o : option state) (P : state -> bool) (s0 : state) :
  (forall s, o = Some s -> reach s0 s) ->
  match o with Some s => P s | None => false end = true -> exists s, reach s0 s /\ P s = true.
Proof. intros R E. destruct o as [s|]; [|discriminate]. eauto. Qed.

(* ------------------------------------------------------------------ *)
(** ** C25: two evaluating threads *)

(** Thread [i] appends a waypoint, the background thread launches the
    computation (thread [c]), which ends. *)
Definition first_computed (i n c : nat) (s : state) : option state :=
  make_call i n [] s >> one 0 false >> until fuel 0 at_end [] >> until fuel c at_end [].

(** The first thread has seen that the computation is ready, then the second
    one evaluates. *)
Definition double_get : option state :=
  first_computed 1 4 3 (start [the_evaluator; the_evaluator])
    >> call_until (at_lock MFuture) 1 0 [] >> one 1 false
    >> until fuel 1 (at_lock MFuture) [] >> one 1 false
    >> until fuel 1 (at_lock MFuture) [] >> one 1 false
    >> until fuel 1 (at_lock MFuture) []
    >> make_call 2 0 [false; true] >> one 1 false >> until fuel 1 at_get [].
Definition gets_invalid (i : nat) (s : state) : bool :=
  at_get (head_of s i) && match s_fut s with None => true | Some _ => false end.
Theorem C25_two_evaluators_refuted :
  ~ (forall s i b, reach (start [the_evaluator; the_evaluator]) s -> exec i b s <> Bad).
Proof.
  intros F.
  assert (E : exists s, reach (start [the_evaluator; the_evaluator]) s /\ gets_invalid 1 s = true).
  { apply (scenario_has double_get); [|vm_compute; reflexivity].
    unfold double_get, first_computed, make_call. reaches. }
  destruct E as (s & R & G). apply (F s 1 true R).
  unfold gets_invalid in G. apply andb_true_iff in G. destruct G as [G1 G2].
  destruct (s_fut s) eqn:Ef; [discriminate|]. unfold head_of in G1. unfold exec.
  destruct (nth_error (s_thr s) 1) as [t|]; [|discriminate].
  destruct (t_cont t) as [[|c l]|[|c l] c' k]; try discriminate; destruct c; try discriminate; rewrite Ef; reflexivity.
Qed.

(** One evaluating thread: a reachable state in which it takes the result. *)
Example C25_example : exists s, reach (recommended 1) s /\ at_get (head_of s 1) = true /\ s_fut s = Some 3.
Proof.
  assert (E : exists s, reach (recommended 1) s /\
    (at_get (head_of s 1) && match s_fut s with Some 3 => true | _ => false end) = true).
  { apply (scenario_has (first_computed 1 4 3 (recommended 1) >> call_until at_get 1 0 [])); [|vm_compute; reflexivity].
    unfold first_computed, make_call. reaches. }
  destruct E as (s & R & G). apply andb_true_iff in G. destruct G as [G1 G2]. exists s. repeat split; auto.
  destruct (s_fut s) as [[|[|[|[|n]]]]|]; congruence.
Qed.

(* ------------------------------------------------------------------ *)
(** ** C23: a thread that waits *)

Definition at_wait (c : option cmd) : bool := match c with Some Wait => true | _ => false end.
Definition is_blocked (i : nat) (s : state) : bool := match exec i true s with Blocked => true | _ => false end.
Example C23_example : exists s, reach (start [any_client; any_owner]) s /\ blocked s 1 /\ blocked s 2.
Proof.
  assert (E : exists s, reach (start [any_client; any_owner]) s /\ (is_blocked 1 s && is_blocked 2 s) = true).
  { apply (scenario_has (make_call 1 5 [] (start [any_client; any_owner]) >> one 0 false >> until fuel 0 at_end []
       >> call_until at_wait 1 0 [] >> call_until (at_lock MFuture) 2 0 [])); [|vm_compute; reflexivity].
    unfold make_call. reaches. }
  destruct E as (s & R & G). apply andb_true_iff in G. destruct G as [G1 G2]. exists s.
  unfold is_blocked, blocked in *. repeat split; auto.
  - destruct (exec 1 true s); congruence.
  - destruct (exec 2 true s); congruence.
Qed.

(* ------------------------------------------------------------------ *)
(** ** C71: the three races *)

Lemma race_intro s i j v : i <> j -> at_write v (head_of s i) = true -> at_bare v (head_of s j) = true -> race s i j v.
Proof.
  intros N A B. split; auto. split.
  - cbn. destruct (head_of s i) as [[]|]; try discriminate. apply internal_var_dec_bl in A. congruence.
  - exists false. cbn. right. destruct (head_of s j) as [[]|]; try discriminate. apply internal_var_dec_bl in B. congruence.
Qed.
Definition racing (i j : nat) (v : var) (s : state) : bool := at_write v (head_of s i) && at_bare v (head_of s j).
Lemma racing_race i j v s0 : i <> j -> (exists s, reach s0 s /\ racing i j v s = true) -> exists s, reach s0 s /\ race s i j v.
Proof.
  intros N (s & R & G). exists s. split; auto. apply andb_true_iff in G. destruct G. apply race_intro; auto.
Qed.

(** The first trajectory has been swapped in. *)
Definition first_swapped (c : nat) (s : state) : option state := first_computed 1 4 c s >> make_call 1 0 [false; true].

(** modifyWaypoint while the background thread reads the size of the list;
    the swap while it compares the trajectory with null; an evaluation while it
    takes the last evaluated time for the stitching. *)
Theorem C71_races_exist :
  (exists s, reach (recommended 1) s /\ race s 2 0 VMod) /\
  (exists s, reach (recommended 1) s /\ race s 1 0 VTraj) /\
  (exists s, reach (recommended 1) s /\ race s 1 0 VLocal).
Proof.
  split; [|split]; apply racing_race; try discriminate.
  - apply (scenario_has (until fuel 0 (at_bare VMod) [] (recommended 1) >> call_until (at_write VMod) 2 2 []));
      [|vm_compute; reflexivity].
    reaches.
  - apply (scenario_has (first_computed 1 4 3 (recommended 1) >> make_call 2 1 [] >> one 0 false >> until fuel 0 (at_bare VTraj) []
       >> call_until (at_write VTraj) 1 0 [false; true])); [|vm_compute; reflexivity].
    unfold first_computed, make_call. reaches.
  - apply (scenario_has (first_swapped 3 (recommended 1) >> make_call 2 1 [] >> one 0 false
       >> until fuel 0 (at_bare VLocal) [false; false; false; false; true]
       >> call_until (at_write VLocal) 1 0 [true])); [|vm_compute; reflexivity].
    unfold first_swapped, first_computed, make_call. reaches.
Qed.

(* ------------------------------------------------------------------ *)
(** ** C22: a lost notification *)

(** The client has read the flag and not yet cleared it while the background
    thread applies a modification. *)
Definition before_set : option state :=
  first_swapped 2 (recommended 0) >> make_call 1 10 [] >> make_call 1 5 [false]
    >> call_until (at_set FRegen) 1 10 []
    >> one 0 false >> until fuel 0 (at_set FRegen) [true; false; false].
Definition lost (s1 : state) : bool :=
  match head_of s1 0, one 0 true s1 with
  | Some (Set_ FRegen true), Some s2 =>
      match one 1 true s2 >> one 1 true with
      | Some s3 =>
          negb (s_flg s3 FRegen) && at_end (head_of s3 1) &&
          negb (at_flag FRegen (head_of s2 1)) &&
          match one 1 true s2 with Some s => negb (at_flag FRegen (head_of s 1)) | None => false end
      | None => false
      end
  | _, _ => false
  end.
Lemma not_at_flag f s i : at_flag f (head_of s i) = false -> ~ (exists c1 c2, head_of s i = Some (If (TFlag f) c1 c2)).
Proof.
  intros A (c1 & c2 & E). rewrite E in A. simpl in A. assert (X : flag_beq f f = true) by (apply flag_beq_spec; auto). congruence.
Qed.
(** The background thread sets the flag, nobody reads it set, and it is clear. *)
Theorem C22_never_lost_refuted :
  ~ (forall s1 s2 s3, reach (recommended 0) s1 -> head_of s1 0 = Some (Set_ FRegen true) -> exec 0 true s1 = Next s2 ->
       reach_unread s2 s3 -> s_flg s3 FRegen = true).
Proof.
  intros F.
  assert (E : exists s, reach (recommended 0) s /\ lost s = true).
  { apply (scenario_has before_set); [|vm_compute; reflexivity].
    unfold before_set, first_swapped, first_computed, make_call. reaches. }
  destruct E as (s1 & R & L). unfold lost in L.
  destruct (head_of s1 0) as [[]|] eqn:Hd; try discriminate. destruct f; try discriminate. destruct b; try discriminate.
  destruct (one 0 true s1) as [s2|] eqn:E1; [|discriminate].
  destruct (one 1 true s2) as [s|] eqn:E2; [|discriminate]. cbn [bind] in L.
  destruct (one 1 true s) as [s3|] eqn:E3; [|discriminate].
  rewrite !andb_true_iff, !negb_true_iff in L. destruct L as (((L1 & L2) & L3) & L4).
  unfold one in E1, E2, E3.
  destruct (exec 0 true s1) eqn:X1; try discriminate. injection E1 as ->.
  destruct (exec 1 true s2) eqn:X2; try discriminate. injection E2 as ->.
  destruct (exec 1 true s) eqn:X3; try discriminate. injection E3 as ->.
  assert (U : reach_unread s2 s3).
  { eapply unread_step; [|intros [_ Q]; exact (not_at_flag _ _ _ L4 Q)|exact X3].
    eapply unread_step; [|intros [_ Q]; exact (not_at_flag _ _ _ L3 Q)|exact X2]. apply unread_refl. }
  specialize (F s1 s2 s3 R Hd X1 U). congruence.
Qed.

(* ------------------------------------------------------------------ *)
(** ** C70: destruction during a computation *)

Definition destroyed : option state :=
  make_call 1 5 [] (start [any_owner]) >> one 0 false >> until fuel 0 at_end []
    >> one 1 false >> until fuel 1 (fun c => match c with Some Join => true | _ => false end) [true]
    >> until fuel 0 (fun c => match c with Some Break => true | _ => false end) [] >> one 0 false
    >> until fuel 1 at_end [] >> until fuel 2 (at_write VNext) [].
Definition after_death (s : state) : bool :=
  at_write VNext (head_of s 2) &&
  match nth_error (s_thr s) 1, nth_error (s_thr s) 0 with
  | Some t, Some t0 => finished (t_cont t) && finished (t_cont t0) | _, _ => false end.
(** The object may be destroyed while a computation runs without the
    computation touching a destroyed list: false. *)
Theorem C70_safe_destruction_refuted :
  ~ (forall s j, reach (start [any_owner]) s ->
       (exists t, nth_error (s_thr s) 1 = Some t /\ finished (t_cont t) = true) ->
       forall w, ~ accesses s j VNext w).
Proof.
  intros F.
  assert (E : exists s, reach (start [any_owner]) s /\ after_death s = true).
  { apply (scenario_has destroyed); [|vm_compute; reflexivity].
    unfold destroyed, make_call. reaches. }
  destruct E as (s & R & L). unfold after_death in L. apply andb_true_iff in L. destruct L as [L1 L2].
  destruct (nth_error (s_thr s) 1) as [t|] eqn:N; [|discriminate].
  destruct (nth_error (s_thr s) 0) as [t0|]; [|discriminate]. apply andb_true_iff in L2. destruct L2 as [L2 _].
  apply (F s 2 R (ex_intro _ t (conj N L2)) true). cbn.
  destruct (head_of s 2) as [[]|]; try discriminate. cbn [at_write] in L1. apply internal_var_dec_bl in L1. congruence.
Qed.

Print Assumptions C25_two_evaluators_refuted.
Print Assumptions C71_races_exist.
Print Assumptions C22_never_lost_refuted.
Print Assumptions C70_safe_destruction_refuted.
