(** Property theorems: the gradient of Mellinger's time allocation (C96). *)
From Coq Require Import Reals Lra Lia List Bool ZArith Arith.
From Coquelicot Require Import Coquelicot.
From Verif Require Import Base PolyModel PolySpec PolyProofs VertexModel VertexProofs TrajModel TrajSpec
  LinOptModel LinOptSpec LinInverse LinProofs LinCost LinFinal PropertiesLin NonlinModel NonlinSpec NonlinFinal.
Import List ListNotations.
Set Bullet Behavior "Strict Subproofs".
Local Open Scope R_scope.

(** ** Specification *)

(** The times [ts'] give segment i a tenth of a second more and take it evenly
    from the other segments, but leave no segment below a tenth of a second. *)
Definition moved_time (i : nat) (ts ts' : list R) : Prop :=
  length ts' = length ts /\
  forall j T, nth_error ts j = Some T ->
    nth_error ts' j = Some (Rmax (1 / 10) (if Nat.eq_dec j i then T + 1 / 10 else T - 1 / 10 / (INR (length ts) - 1))).

(** ** Lemmas *)
Lemma bigger_moved i ts : moved_time i ts (bigger_times i ts).
Proof.
  unfold bigger_times. split; [now rewrite map_length, seq_length|].
  intros j T E. assert (Hj : (j < length ts)%nat) by (apply nth_error_Some; congruence).
  rewrite nth_error_map. rewrite (nth_error_nth' _ 0%nat) by (rewrite seq_length; auto). rewrite seq_nth by auto. simpl.
  rewrite (nth_error_nth _ _ 0 E). unfold TIME_LOWER. f_equal. f_equal.
  destruct (Nat.eqb_spec j i), (Nat.eq_dec j i); congruence.
Qed.
Lemma moved_unique i ts a b : moved_time i ts a -> moved_time i ts b -> a = b.
Proof.
  intros [La A] [Lb B]. apply nth_ext with (d := 0) (d' := 0); [congruence|]. intros j Hj.
  assert (E : exists T, nth_error ts j = Some T).
  { destruct (nth_error ts j) eqn:E; eauto. apply nth_error_None in E. lia. }
  destruct E as (T & E). rewrite (nth_error_nth _ _ 0 (A j T E)), (nth_error_nth _ _ 0 (B j T E)). reflexivity.
Qed.

Section G.
Variables (inv : inverse_routine) (qr : solve_routine) (N D : nat) (vs : list vertex) (d : nat).
Hypotheses (V : valid_size N) (H2 : (2 <= length vs)%nat).
Notation use := (opt_use inv qr N D vs d).

Lemma gradient_loop_values x J : good_times vs x -> forall ns o, use o ->
  exists o' g, gradient_loop inv qr N x J ns o = Some (o', g) /\ use o' /\ length g = length ns /\
    forall i n, nth_error ns i = Some n -> forall oi, use oi -> o_times oi = bigger_times n x ->
      nth_error g i = Some ((energy d (o_segs (solve_linear qr N oi)) - J) * 10).
Proof.
  intros G. induction ns as [|n ns IH]; intros o U; simpl.
  { do 2 eexists. split; [reflexivity|]. split; auto. split; auto. intros [|i] m E; discriminate. }
  destruct (update_defined inv qr N D vs d H2 o _ U (bigger_good vs x n G)) as (o1 & -> & U1 & E1).
  destruct (IH (solve_linear qr N o1) (use_solve _ _ _ _ _ _ _ U1)) as (o' & g & -> & U' & L & Q).
  do 2 eexists. split; [reflexivity|]. split; auto. split; [simpl; auto|].
  intros [|i] m E oi Ui Ei; simpl in *; [|eapply Q; eauto]. injection E as <-.
  rewrite (solve_det inv qr N D vs d oi o1 Ui U1 ltac:(congruence)).
  rewrite (cost_energy_use inv qr N D vs d o1 (solve_linear qr N o1) V U1) by eauto. f_equal. field.
Qed.
End G.

(** ** C96 *)

(** C96: the gradient computed for Mellinger's method has one entry per
    segment; entry i is the difference quotient of the optimal cost when
    segment i gets a tenth of a second from the others.  Computing it leaves
    the optimiser exactly as it was. *)
Theorem C96_gradient :
  forall (inv : inverse_routine) (qr : solve_routine) (N D : nat) (vs : list vertex) (d : nat) (o : opt),
  valid_size N -> (3 <= length vs)%nat -> opt_use inv qr N D vs d o ->
  exists g, cost_gradient inv qr N (solve_linear qr N o) =
      Some (solve_linear qr N o, g, energy d (o_segs (solve_linear qr N o))) /\
    length g = length (o_times o) /\
    forall i gi oi, nth_error g i = Some gi -> opt_use inv qr N D vs d oi -> moved_time i (o_times o) (o_times oi) ->
      gi = (energy d (o_segs (solve_linear qr N oi)) - energy d (o_segs (solve_linear qr N o))) / (1 / 10).
Proof.
  intros inv qr N D vs d o V H3 U. assert (H2 : (2 <= length vs)%nat) by lia.
  pose proof (use_solve _ _ _ _ _ _ _ U) as US.
  unfold cost_gradient. rewrite (use_vertices inv qr N D vs d _ US).
  destruct (Nat.eqb_spec (length vs - 1) 1) as [E|Ne]; [lia|].
  assert (G : good_times vs (o_times (solve_linear qr N o))).
  { split; [apply (use_times_len inv qr N D vs d); auto|]. apply (rd_pos _ _ _ _ _ _ (opt_use_ready _ _ _ _ _ _ _ US)). }
  destruct (gradient_loop_values inv qr N D vs d V H2 _ (compute_cost N (solve_linear qr N o)) G (seq 0 (length vs - 1)) _ US)
    as (o1 & g & -> & U1 & L & Q).
  destruct (update_defined inv qr N D vs d H2 o1 _ U1 G) as (o2 & -> & U2 & E2).
  rewrite (cost_energy_use inv qr N D vs d o (solve_linear qr N o) V U) in * by eauto.
  assert (Lt : length (o_times o) = (length vs - 1)%nat).
  { pose proof (use_times_len inv qr N D vs d o U). lia. }
  exists g. split; [|split].
  - rewrite (solve_det inv qr N D vs d o2 o); auto. rewrite E2. apply solve_times.
  - rewrite L, seq_length. lia.
  - intros i gi oi E Ui M. rewrite solve_times in Q.
    assert (Hi : (i < length vs - 1)%nat) by (rewrite <- (seq_length (length vs - 1) 0), <- L; apply nth_error_Some; congruence).
    assert (Ei : nth_error (seq 0 (length vs - 1)) i = Some i).
    { rewrite (nth_error_nth' _ 0%nat) by (rewrite seq_length; auto). now rewrite seq_nth. }
    rewrite (Q i i Ei oi Ui (moved_unique _ _ _ _ M (bigger_moved i _))) in E. injection E as <-. field.
Qed.
(** C96: with a single segment the gradient is zero. *)
Theorem C96_single_segment :
  forall (inv : inverse_routine) (qr : solve_routine) (N D : nat) (vs : list vertex) (d : nat) (o : opt),
  valid_size N -> length vs = 2%nat -> opt_use inv qr N D vs d o ->
  cost_gradient inv qr N (solve_linear qr N o) =
    Some (solve_linear qr N o, [0], energy d (o_segs (solve_linear qr N o))).
Proof.
  intros inv qr N D vs d o V H2 U. unfold cost_gradient.
  rewrite (use_vertices inv qr N D vs d _ (use_solve _ _ _ _ _ _ _ U)), H2. simpl.
  rewrite (cost_energy_use inv qr N D vs d o (solve_linear qr N o) V U) by eauto. reflexivity.
Qed.
(** C96: the moved times exist and are admissible; the total time is unchanged
    if no segment falls below the tenth of a second, otherwise it grows. *)
Theorem C96_moved_times :
  forall (i : nat) (ts : list R), (2 <= length ts)%nat -> (i < length ts)%nat ->
  exists ts', moved_time i ts ts' /\ Forall (fun T => 1 / 10 <= T) ts' /\ lsum ts <= lsum ts' /\
    (Forall (fun T => 1 / 10 + 1 / 10 / (INR (length ts) - 1) <= T) ts -> lsum ts' = lsum ts).
Proof.
  intros i ts H2 Hi. exists (bigger_times i ts). split; [apply bigger_moved|].
  assert (Hm : 1 <= INR (length ts) - 1) by (assert (X : INR 2 <= INR (length ts)) by (apply le_INR; lia); simpl in X; lra).
  set (c := 1 / 10 / (INR (length ts) - 1)).
  assert (Hc : 0 < c) by (unfold c; apply Rdiv_lt_0_compat; lra).
  split.
  { apply Forall_forall. intros T HT. unfold bigger_times in HT. apply in_map_iff in HT. destruct HT as (j & <- & _). apply Rmax_l. }
  assert (S : lsum (map (fun j => if (j =? i)%nat then nth j ts 0 + 1 / 10 else nth j ts 0 - c) (seq 0 (length ts))) = lsum ts).
  { assert (E : forall (l : list R) k, lsum (map (fun j => if (j =? i)%nat then nth (j - k) l 0 + 1 / 10 else nth (j - k) l 0 - c) (seq k (length l))) =
      lsum l - INR (length l) * c + (if (k <=? i)%nat && (i <? k + length l)%nat then 1 / 10 + c else 0)).
    { induction l as [|x l IH]; intros k; [simpl; destruct (k <=? i)%nat eqn:A; simpl; [|lra];
        apply Nat.leb_le in A; destruct (Nat.ltb_spec i (k + 0)); [lia|lra]|].
      cbn [length seq map lsum]. rewrite Nat.sub_diag. cbn [nth].
      rewrite (map_ext_in _ (fun j => if (j =? i)%nat then nth (j - S k) l 0 + 1 / 10 else nth (j - S k) l 0 - c)).
      - rewrite IH, S_INR. destruct (Nat.eqb_spec k i) as [-> | Ne].
        + replace (S i <=? i)%nat with false by (symmetry; apply Nat.leb_gt; lia).
          replace (i <=? i)%nat with true by (symmetry; apply Nat.leb_le; lia).
          replace (i <? i + S (length l))%nat with true by (symmetry; apply Nat.ltb_lt; lia). cbn [andb]. lra.
        + assert (X : ((S k <=? i)%nat && (i <? S k + length l)%nat) = ((k <=? i)%nat && (i <? k + S (length l))%nat)).
          { replace (k + S (length l))%nat with (S k + length l)%nat by lia. f_equal.
            destruct (Nat.leb_spec (S k) i), (Nat.leb_spec k i); auto; lia. }
          rewrite X. lra.
      - intros j Hj. apply in_seq in Hj. replace (j - k)%nat with (S (j - S k)) by lia. reflexivity. }
    specialize (E ts 0%nat). rewrite <- (map_ext_in (fun j => if (j =? i)%nat then nth (j - 0) ts 0 + 1 / 10 else nth (j - 0) ts 0 - c)).
    - rewrite E. replace (0 <=? i)%nat with true by reflexivity.
      replace (i <? 0 + length ts)%nat with true by (symmetry; apply Nat.ltb_lt; lia). cbn [andb].
      unfold c. field. lra.
    - intros j _. rewrite Nat.sub_0_r. reflexivity. }
  unfold bigger_times. fold c. split.
  - rewrite <- S at 1. clear S. induction (seq 0 (length ts)) as [|j l IH]; simpl; [lra|]. apply Rplus_le_compat; [apply Rmax_r|exact IH].
  - intros F. rewrite <- S. f_equal. apply map_ext_in. intros j Hj. apply in_seq in Hj. rewrite Forall_forall in F.
    assert (P : 1 / 10 + c <= nth j ts 0) by (apply F, nth_In; lia). unfold TIME_LOWER. apply Rmax_right.
    destruct (j =? i)%nat; lra.
Qed.
Print Assumptions C96_gradient.
Print Assumptions C96_single_segment.
Print Assumptions C96_moved_times.
Example C96_example :
  forall inv qr, exists o oi, opt_use inv qr 10 3 three_vertices 2 o /\ opt_use inv qr 10 3 three_vertices 2 oi /\
    moved_time 0 (o_times o) (o_times oi) /\ (3 <= length three_vertices)%nat.
Proof.
  intros inv qr. destruct (C53_example inv qr) as (o & o' & U & _ & _ & _ & _ & V).
  assert (H2 : (2 <= length three_vertices)%nat) by (simpl; lia).
  assert (G : good_times three_vertices (o_times o)).
  { split; [apply (use_times_len inv qr _ _ _ _ o U)|]. apply (rd_pos _ _ _ _ _ _ (opt_use_ready _ _ _ _ _ _ _ U)). }
  destruct (update_defined inv qr 10 3 three_vertices 2 H2 o _ U (bigger_good three_vertices _ 0 G)) as (o1 & E & U1 & E1).
  exists o, o1. split; auto. split; auto. split; [rewrite E1; apply bigger_moved|simpl; lia].
Qed.
