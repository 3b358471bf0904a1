(** Proofs about the nonlinear optimiser: what NLopt is given, and what a run
    of it leaves behind. *)
From Coq Require Import Reals Lra Lia List Bool ZArith Arith Sorted.
From Coquelicot Require Import Coquelicot.
From Verif Require Import Base PolyModel PolySpec PolyProofs VertexModel VertexProofs TrajModel TrajSpec TrajProofs
  ExtremaProofs TrajOpsProofs TrajFinal LinOptModel LinAlg LinOptSpec LinInverse LinReorder LinProofs LinCost LinFinal
  NonlinModel NonlinSpec NonlinProofs.
Import List ListNotations.
Set Bullet Behavior "Strict Subproofs".
Local Open Scope R_scope.

Section Run.
Variables (find_roots : list R -> list croot) (inv : inverse_routine) (qr : solve_routine) (N D : nat)
  (vs : list vertex) (d : nat).
Hypothesis V : valid_size N.
Hypothesis H2 : (2 <= length vs)%nat.

Notation use := (opt_use inv qr N D vs d).

Lemma use_vertices o : use o -> length (o_vertices o) = length vs.
Proof. intros U. rewrite (rd_vs _ _ _ _ _ _ (opt_use_ready _ _ _ _ _ _ _ U)), map_length. auto. Qed.
Lemma use_times_len o : use o -> S (length (o_times o)) = length vs.
Proof. intros U. symmetry. apply (rd_len _ _ _ _ _ _ (opt_use_ready _ _ _ _ _ _ _ U)). Qed.

Lemma use_dp_none o : use o -> length (o_free o) = O -> o_dp o = repeat [] D.
Proof.
  intros U Z. pose proof (opt_use_dp _ _ _ _ _ _ _ U) as F. rewrite Z in F.
  pose proof (rd_dp _ _ _ _ _ _ (opt_use_ready _ _ _ _ _ _ _ U)) as L. revert L F. clear.
  generalize (o_dp o). intros l <-. induction l as [|v l IH]; simpl; intros F; auto.
  inversion F; subst. f_equal; auto. destruct v; auto. simpl in *. lia.
Qed.

(** A state in which the segments belong to the current segment times. *)
Definition solved (o : opt) : Prop :=
  exists o0, use o0 /\ o_times o = o_times o0 /\
    ((exists dp, set_free N dp o0 = Some o) \/ o = solve_linear qr N o0).

Lemma solve_times o : o_times (solve_linear qr N o) = o_times o.
Proof. unfold solve_linear. destruct (_ =? _)%nat; reflexivity. Qed.

Lemma solved_use o : solved o -> use o.
Proof.
  intros (o0 & U & _ & [(dp & S)| ->]); [eapply use_free; eauto|apply use_solve; auto].
Qed.
Lemma solved_times o : solved o -> map s_time (o_segs o) = o_times o.
Proof.
  intros (o0 & U & Et & [(dp & S)| ->]); pose proof (opt_use_ready _ _ _ _ _ _ _ U) as RD.
  - destruct (set_free_inv _ _ _ _ S) as (-> & _ & _). rewrite Et. apply (the_segs_times inv N D vs d o0 RD).
  - rewrite Et. destruct (solve_linear_dp inv qr N D vs d o0 RD) as (dp & -> & _).
    apply (the_segs_times inv N D vs d o0 RD).
Qed.
Lemma solved_positive o : solved o -> Forall (fun s => 0 < s_time s) (o_segs o).
Proof.
  intros S. pose proof (rd_pos _ _ _ _ _ _ (opt_use_ready _ _ _ _ _ _ _ (solved_use _ S))) as P.
  rewrite <- (solved_times o S), Forall_map in P. exact P.
Qed.
Lemma solved_interpolates o : solved o -> exact_inverse inv -> vertices_dim D vs -> usable_times (o_times o) ->
  interpolates N D vs (o_times o) (o_segs o) /\ smooth (N / 2) (o_segs o).
Proof.
  intros (o0 & U & Et & S) HI VD UT. rewrite Et in UT |- *. destruct S as [(dp & S)| ->].
  - eapply free_interpolates; eauto.
  - eapply solve_interpolates; eauto.
Qed.

Lemma use_segs_ne o : use o -> o_segs o <> [].
Proof.
  intros U E. destruct (opt_use_segs _ _ _ _ _ _ _ U) as [L _]. pose proof (use_times_len o U).
  rewrite E in L. simpl in L. lia.
Qed.

(** ** One evaluation *)

Definition good_times (x : list R) : Prop := S (length x) = length vs /\ Forall (fun T => 0 < T) x.

Lemma update_defined o x : use o -> good_times x -> exists o', update_times inv N x o = Some o' /\ use o' /\ o_times o' = x.
Proof.
  intros U [L P]. assert (E : exists o', update_times inv N x o = Some o').
  { unfold update_times. rewrite (use_vertices o U). destruct (Nat.eqb_spec (length x) (length vs - 1)); [|lia].
    simpl. apply forallb_pos in P. rewrite P. eauto. }
  destruct E as (o' & E). exists o'. split; auto. split; [eapply use_times; eauto|].
  eapply update_times_ready; eauto. eapply opt_use_ready; eauto.
Qed.

(** The state after an update of the times and a new solution depends on the
    times only. *)
Lemma set_free_det o1 o2 dp : use o1 -> use o2 -> o_times o1 = o_times o2 -> set_free N dp o1 = set_free N dp o2.
Proof.
  intros U1 U2 E. pose proof (opt_use_ready _ _ _ _ _ _ _ U1) as R1. pose proof (opt_use_ready _ _ _ _ _ _ _ U2) as R2.
  destruct o1 as [D1 d1 v1 t1 i1 c1 r1 f1 p1 dp1 s1], o2 as [D2 d2 v2 t2 i2 c2 r2 f2 p2 dp2 s2].
  destruct R1, R2. simpl in *. subst. unfold set_free. simpl. reflexivity.
Qed.
Lemma solve_det o1 o2 : use o1 -> use o2 -> o_times o1 = o_times o2 -> solve_linear qr N o1 = solve_linear qr N o2.
Proof.
  intros U1 U2 E. pose proof (opt_use_ready _ _ _ _ _ _ _ U1) as R1. pose proof (opt_use_ready _ _ _ _ _ _ _ U2) as R2.
  pose proof (use_dp_none _ U1) as P1. pose proof (use_dp_none _ U2) as P2.
  destruct o1 as [D1 d1 v1 t1 i1 c1 r1 f1 p1 dp1 s1], o2 as [D2 d2 v2 t2 i2 c2 r2 f2 p2 dp2 s2].
  destruct R1, R2. simpl in *. subst. unfold solve_linear. cbn [o_free o_D o_fixed o_dp].
  match goal with |- context [(length ?l =? 0)%nat] => destruct (Nat.eqb_spec (length l) 0) as [Z|Z] end; [|reflexivity].
  rewrite P1, P2 by auto. reflexivity.
Qed.

(** ** Objective functions *)

Definition kept (s s' : nonlin) : Prop :=
  nl_params_ s' = nl_params_ s /\ nl_cons s' = nl_cons s /\
  i_iterations (nl_info s') = S (i_iterations (nl_info s)).

Lemma finish_defined x o s : use o -> orders_ok N s ->
  exists s' J, finish_objective find_roots N x o s = Val (s', J) /\ nl_opt s' = o /\ kept s s'.
Proof.
  intros U OK. unfold finish_objective.
  assert (X : exists cs, (if p_use_soft (nl_params_ s) then
    soft_cost find_roots N o (p_soft_weight (nl_params_ s)) (10 ^ 12) (nl_cons s) else Val 0) = Val cs).
  { destruct (p_use_soft _); [|eauto]. apply soft_cost_defined; auto.
    - apply use_segs_ne; auto.
    - destruct (opt_use_segs _ _ _ _ _ _ _ U) as [_ F]. eapply Forall_impl; [|exact F]. simpl. tauto. }
  destruct X as (cs & ->). do 2 eexists. split; [reflexivity|]. simpl. split; auto. repeat split.
Qed.

Lemma objective_time_spec x s : use (nl_opt s) -> orders_ok N s -> good_times x ->
  exists s' J o1, objective_time find_roots inv qr N x s = Val (s', J) /\ kept s s' /\
    solved (nl_opt s') /\ o_times (nl_opt s') = x /\
    use o1 /\ o_times o1 = x /\ nl_opt s' = solve_linear qr N o1.
Proof.
  intros U OK G. unfold objective_time. destruct (update_defined _ _ U G) as (o1 & -> & U1 & E1).
  destruct (finish_defined x (solve_linear qr N o1) s) as (s' & J & -> & E & K); auto.
  { apply use_solve; auto. }
  exists s', J, o1. split; auto. split; auto. rewrite E. split.
  - exists o1. split; auto. split; [apply solve_times|auto].
  - split; [rewrite solve_times; auto|auto].
Qed.

Definition good_full (x : list R) : Prop :=
  good_times (firstn (length vs - 1) x) /\
  length x = (length vs - 1 + length (con_set false (all_cons D (N / 2) (length vs - 1) 0 (map (drop_high D (N / 2)) vs))) * D)%nat.

Lemma use_free_eq o : use o -> o_free o = con_set false (all_cons D (N / 2) (length vs - 1) 0 (map (drop_high D (N / 2)) vs)).
Proof.
  intros U. pose proof (opt_use_ready _ _ _ _ _ _ _ U) as RD.
  rewrite (rd_free _ _ _ _ _ _ RD), (rd_vs _ _ _ _ _ _ RD), map_length. reflexivity.
Qed.

Lemma objective_full_spec x s : use (nl_opt s) -> orders_ok N s -> good_full x ->
  exists s' J o1, objective_full find_roots inv N x s = Val (s', J) /\ kept s s' /\
    solved (nl_opt s') /\ o_times (nl_opt s') = x_times (length vs - 1) x /\
    use o1 /\ o_times o1 = x_times (length vs - 1) x /\
    set_free N (x_free (length vs - 1) (length (o_free o1)) D x) o1 = Some (nl_opt s').
Proof.
  intros U OK [G L]. unfold objective_full. rewrite (use_vertices _ U).
  rewrite <- (use_free_eq _ U) in L. rewrite (rd_D _ _ _ _ _ _ (opt_use_ready _ _ _ _ _ _ _ U)).
  rewrite (proj2 (Nat.eqb_eq _ _) L).
  destruct (update_defined _ _ U G) as (o1 & E & U1 & E1). unfold x_times at 1. rewrite E.
  assert (X : exists o2, set_free N (x_free (length vs - 1) (length (o_free (nl_opt s))) D x) o1 = Some o2).
  { unfold set_free. rewrite (rd_D _ _ _ _ _ _ (opt_use_ready _ _ _ _ _ _ _ U1)).
    unfold x_free at 1. rewrite map_length, seq_length, Nat.eqb_refl. simpl.
    assert (F : forallb (fun v => length v =? length (o_free o1))%nat
      (x_free (length vs - 1) (length (o_free (nl_opt s))) D x) = true).
    { apply forallb_forall. intros v Hv. unfold x_free in Hv. apply in_map_iff in Hv. destruct Hv as (k & <- & _).
      rewrite map_length, seq_length, (use_free_eq _ U), (use_free_eq _ U1). apply Nat.eqb_refl. }
    rewrite F. eauto. }
  destruct X as (o2 & X). rewrite X.
  destruct (finish_defined (x_times (length vs - 1) x) o2 s) as (s' & J & -> & Es & K); auto.
  { eapply use_free; eauto. }
  destruct (set_free_inv _ _ _ _ X) as (X' & _ & _).
  exists s', J, o1. split; auto. split; auto. rewrite Es.
  assert (Et : o_times o2 = o_times o1) by (rewrite X'; reflexivity).
  split.
  - exists o1. split; auto. split; auto. left. eauto.
  - split; [rewrite Et; exact E1|]. split; [exact U1|]. split; [exact E1|].
    rewrite (use_free_eq _ U1), <- (use_free_eq _ U). exact X.
Qed.

Lemma TIME_LOWER_pos : 0 < TIME_LOWER.
Proof. unfold TIME_LOWER. lra. Qed.

Lemma bigger_good x n : good_times x -> good_times (bigger_times n x).
Proof.
  intros [L P]. split.
  - unfold bigger_times. rewrite map_length, seq_length. auto.
  - apply Forall_forall. intros T HT. unfold bigger_times in HT. apply in_map_iff in HT. destruct HT as (i & <- & _).
    eapply Rlt_le_trans; [apply TIME_LOWER_pos|apply Rmax_l].
Qed.

Lemma gradient_loop_spec x J : good_times x -> forall ns o, use o ->
  exists o' g, gradient_loop inv qr N x J ns o = Some (o', g) /\ use o' /\ length g = length ns.
Proof.
  intros G. induction ns as [|n ns IH]; intros o U; simpl; [eauto|].
  destruct (update_defined o _ U (bigger_good x n G)) as (o1 & -> & U1 & _).
  destruct (IH (solve_linear qr N o1) (use_solve _ _ _ _ _ _ _ U1)) as (o' & g & -> & U' & L).
  do 2 eexists. split; [reflexivity|]. simpl. auto.
Qed.

(** The gradient leaves the solution as it found it. *)
Lemma cost_gradient_spec o : use o -> 
  exists g, cost_gradient inv qr N (solve_linear qr N o) =
    Some (solve_linear qr N o, g, compute_cost N (solve_linear qr N o)) /\ length g = (length vs - 1)%nat.
Proof.
  intros U. unfold cost_gradient. pose proof (use_solve _ _ _ _ _ _ _ U) as US. rewrite (use_vertices _ US).
  destruct (Nat.eqb_spec (length vs - 1) 1) as [E|Ne].
  - exists [0]. split; auto.
  - assert (G : good_times (o_times (solve_linear qr N o))).
    { split; [apply use_times_len; auto|]. apply (rd_pos _ _ _ _ _ _ (opt_use_ready _ _ _ _ _ _ _ US)). }
    destruct (gradient_loop_spec _ (compute_cost N (solve_linear qr N o)) G (seq 0 (length vs - 1)) _ US)
      as (o1 & g & -> & U1 & L).
    destruct (update_defined o1 _ U1 G) as (o2 & -> & U2 & E2).
    exists g. split; [|rewrite L, seq_length; auto]. f_equal. f_equal. f_equal.
    apply solve_det; auto. rewrite E2. apply solve_times.
Qed.

Lemma objective_mellinger_spec x s : use (nl_opt s) -> good_times x ->
  exists s' J o1, objective_mellinger inv qr N x s = Val (s', J) /\ kept s s' /\
    solved (nl_opt s') /\ o_times (nl_opt s') = x /\
    use o1 /\ o_times o1 = x /\ nl_opt s' = solve_linear qr N o1.
Proof.
  intros U G. unfold objective_mellinger. destruct (update_defined _ _ U G) as (o1 & -> & U1 & E1).
  destruct (cost_gradient_spec o1 U1) as (g & -> & _).
  do 3 eexists. split; [reflexivity|]. simpl. split; [repeat split|]. split.
  - exists o1. split; auto. split; [apply solve_times|auto].
  - split; [rewrite solve_times; auto|]. split; [exact U1|auto].
Qed.

(** ** Runs *)

Lemma evaluate_all_app f xs ys s :
  evaluate_all f (xs ++ ys) s = match evaluate_all f xs s with Val s' => evaluate_all f ys s' | r => r end.
Proof.
  revert s. induction xs as [|x xs IH]; intros s; simpl; auto.
  destruct (f x s) as [[s' J]| |]; auto.
Qed.

(** A function that is defined on good points and whose result depends on the
    point only. *)
Lemma evaluate_all_spec (f : list R -> nonlin -> res (nonlin * R)) (good : list R -> Prop) (out : list R -> opt -> Prop) :
  (forall x s, use (nl_opt s) -> orders_ok N s -> good x ->
     exists s' J, f x s = Val (s', J) /\ kept s s' /\ use (nl_opt s') /\ out x (nl_opt s')) ->
  forall xs s, use (nl_opt s) -> orders_ok N s -> Forall good xs ->
  exists s', evaluate_all f xs s = Val s' /\ use (nl_opt s') /\
    nl_params_ s' = nl_params_ s /\ nl_cons s' = nl_cons s /\
    i_iterations (nl_info s') = (length xs + i_iterations (nl_info s))%nat /\
    (xs = [] -> s' = s) /\ (forall ys x, xs = ys ++ [x] -> out x (nl_opt s')).
Proof.
  intros Hf xs. induction xs as [|x xs IH]; intros s U OK F; simpl.
  - exists s. repeat split; auto. intros ys x E. destruct ys; discriminate.
  - inversion F as [|? ? G F']; subst. destruct (Hf x s U OK G) as (s1 & J & -> & (K1 & K2 & K3) & U1 & O1).
    destruct (IH s1 U1) as (s' & E & U' & P' & C' & I' & N' & O'); auto.
    { unfold orders_ok in *. rewrite K2. auto. }
    exists s'. split; auto. split; auto. split; [congruence|]. split; [congruence|]. split; [rewrite I', K3; lia|].
    split; [discriminate|]. intros ys y Ey. destruct ys as [|z ys]; simpl in Ey; inversion Ey; subst.
    + rewrite (N' eq_refl). auto.
    + eapply O'; eauto.
Qed.

(** ** The configured state *)

Lemma configured_use p times s : configured inv N D p vs times d s ->
  use (nl_opt s) /\ o_times (nl_opt s) = times /\ nl_params_ s = p /\ nl_info s = info_new /\
  o_segs (nl_opt s) = repeat (seg_new N D) (length vs - 1).
Proof.
  induction 1.
  - unfold nl_setup in H. destruct (setup _ _ _ _ _ _) as [o|] eqn:E; [|discriminate]. inversion H; subst s; simpl.
    split; [eapply use_setup; eauto|]. split; [eapply setup_ready; eauto|]. split; auto. split; auto.
    unfold setup in E. destruct (_ && _); [|discriminate]. unfold update_times in E. simpl in E.
    destruct (_ && _); [|discriminate]. inversion E; subst o; reflexivity.
  - unfold add_max_constraint in H0. destruct (Rltb v 0); [discriminate|]. inversion H0; subst s'; simpl. auto.
Qed.
Lemma configured_same p times s : configured inv N D p vs times d s ->
  mkNL (nl_opt s) (nl_params_ s) (nl_cons s) info_new = s.
Proof.
  intros C. destruct (configured_use _ _ _ C) as (_ & _ & _ & I & _). destruct s; simpl in *. congruence.
Qed.
Lemma configured_times p times s : configured inv N D p vs times d s -> good_times times.
Proof.
  intros C. destruct (configured_use _ _ _ C) as (U & E & _). rewrite <- E. split.
  - apply use_times_len; auto.
  - apply (rd_pos _ _ _ _ _ _ (opt_use_ready _ _ _ _ _ _ _ U)).
Qed.

(** ** The problem given to NLopt *)

Lemma widen_in x b : fst b <= snd b -> fst (widen x b) <= x <= snd (widen x b).
Proof. intros H. unfold widen. rcase; simpl; [lra|]. rcase; simpl; lra. Qed.
Lemma widen_wider x b : fst (widen x b) <= fst b /\ snd b <= snd (widen x b).
Proof. unfold widen. rcase; simpl; [lra|]. rcase; simpl; lra. Qed.

Lemma wanted_ordered cs q : fst (wanted_bounds cs q) <= snd (wanted_bounds cs q).
Proof.
  unfold wanted_bounds. assert (B : fst (- DBL_MAX, DBL_MAX) <= snd (- DBL_MAX, DBL_MAX)) by (simpl; pose proof DBL_MAX_pos; lra).
  revert B. generalize (- DBL_MAX, DBL_MAX). induction cs as [|c cs IH]; intros b B; simpl; auto.
  apply IH. destruct (_ =? _)%nat; auto. simpl. pose proof (Rabs_pos (cd_value c)). lra.
Qed.

Lemma concat_length_const {A} (l : list (list A)) n : Forall (fun v => length v = n) l ->
  length (concat l) = (length l * n)%nat.
Proof. induction 1; simpl; auto. rewrite app_length. lia. Qed.

Lemma solve_dp_length o : use o -> Forall (fun v => length v = length (o_free o)) (o_dp (solve_linear qr N o)).
Proof.
  intros U. unfold solve_linear. destruct (Nat.eqb_spec (length (o_free o)) 0) as [Z|Z]; simpl.
  - rewrite (use_dp_none _ U Z), Z. apply Forall_forall. intros v Hv. apply repeat_spec in Hv. subst. reflexivity.
  - apply Forall_forall. intros v Hv. apply in_map_iff in Hv. destruct Hv as (k & <- & _).
    rewrite map_length, seq_length. auto.
Qed.

Lemma free_bounds_ordered o cs : use o ->
  exists l, free_bounds o cs = Some l /\ length l = (D * length (o_free o))%nat /\
    (forall k i, (k < D)%nat -> (i < length (o_free o))%nat ->
      nth (k * length (o_free o) + i) l (0, 0) =
      match nth_error (free_orders d (o_vertices o)) i with
      | Some q => wanted_bounds cs q
      | None => (- DBL_MAX, DBL_MAX)
      end) /\
    Forall (fun b => fst b <= snd b) l.
Proof.
  intros U. destruct (free_bounds_spec inv N D vs d o cs V (opt_use_ready _ _ _ _ _ _ _ U) H2) as (l & E & L & B).
  exists l. split; auto. split; auto. split; auto. apply Forall_forall. intros b Hb.
  destruct (In_nth _ _ (0, 0) Hb) as (j & Hj & <-). set (nf := length (o_free o)) in *.
  assert (nf <> 0)%nat by (intros Z; rewrite L, Z in Hj; lia).
  assert (Hm : (j mod nf < nf)%nat) by (apply Nat.mod_upper_bound; auto).
  assert (Hd : (j / nf < D)%nat) by (apply Nat.div_lt_upper_bound; nia).
  rewrite (Nat.div_mod j nf) by auto. rewrite (Nat.mul_comm nf). rewrite (B _ _ Hd Hm).
  destruct (nth_error _ _); [apply wanted_ordered|simpl; pose proof DBL_MAX_pos; lra].
Qed.

Lemma admit_in_bounds : forall x0 b, length x0 = length b -> Forall (fun b => fst b <= snd b) b ->
  in_bounds (map (fun xb => widen (fst xb) (snd xb)) (combine x0 b)) x0.
Proof.
  induction x0 as [|x x0 IH]; intros [|b bs] L F; simpl in *; try lia; [constructor|].
  inversion F; subst. constructor; [apply widen_in; auto|apply IH; auto].
Qed.
Lemma in_bounds_length b x : in_bounds b x -> length b = length x.
Proof. induction 1; simpl; auto. Qed.

Lemma full_problem_defined s : use (nl_opt s) ->
  exists s1 x0 b, full_problem qr N s = Some (s1, x0, b) /\
    s1 = mkNL (solve_linear qr N (nl_opt s)) (nl_params_ s) (nl_cons s) (nl_info s) /\
    x0 = o_times (nl_opt s) ++ concat (o_dp (nl_opt s1)) /\
    in_bounds b x0 /\
    length b = (length vs - 1 + length (o_free (nl_opt s)) * D)%nat /\
    (forall i, (i < length vs - 1)%nat -> nth i b (0, 0) = widen (nth i (o_times (nl_opt s)) 0) (TIME_LOWER, DBL_MAX)) /\
    (forall k i, (k < D)%nat -> (i < length (o_free (nl_opt s)))%nat ->
       nth (length vs - 1 + (k * length (o_free (nl_opt s)) + i)) b (0, 0) =
       widen (nth (length vs - 1 + (k * length (o_free (nl_opt s)) + i)) x0 0)
         match nth_error (free_orders d (o_vertices (nl_opt s))) i with
         | Some q => wanted_bounds (nl_cons s) q
         | None => (- DBL_MAX, DBL_MAX)
         end).
Proof.
  intros U. pose proof (use_solve _ _ _ _ _ _ _ U) as US. unfold full_problem.
  destruct (free_bounds_ordered _ (nl_cons s) US) as (fb & Ef & Lf & Bf & Of). rewrite Ef.
  assert (Efr : o_free (solve_linear qr N (nl_opt s)) = o_free (nl_opt s)) by (rewrite !use_free_eq by auto; auto).
  assert (Ev : o_vertices (solve_linear qr N (nl_opt s)) = o_vertices (nl_opt s)).
  { unfold solve_linear. destruct (_ =? _)%nat; reflexivity. }
  rewrite Efr in Lf, Bf. rewrite Ev in Bf.
  pose proof (solve_dp_length _ U) as Fd.
  assert (Ld : length (o_dp (solve_linear qr N (nl_opt s))) = D) by apply (rd_dp _ _ _ _ _ _ (opt_use_ready _ _ _ _ _ _ _ US)).
  pose proof (concat_length_const _ _ Fd) as Lc. rewrite Ld in Lc.
  pose proof (use_times_len _ U) as Lt.
  set (x0 := o_times (nl_opt s) ++ concat (o_dp (solve_linear qr N (nl_opt s)))).
  set (b0 := repeat (TIME_LOWER, DBL_MAX) (length (o_times (nl_opt s))) ++ fb).
  assert (L0 : length x0 = (length vs - 1 + length (o_free (nl_opt s)) * D)%nat).
  { subst x0. rewrite app_length, Lc. lia. }
  assert (Lb : length b0 = length x0).
  { rewrite L0. subst b0. rewrite app_length, repeat_length, Lf. lia. }
  rewrite <- Lb, Nat.eqb_refl. destruct (Nat.ltb_spec 0 (length b0)); [|lia]. simpl.
  do 3 eexists. split; [reflexivity|]. split; [reflexivity|]. split; [reflexivity|]. simpl.
  assert (Ordered : Forall (fun b => fst b <= snd b) b0).
  { subst b0. apply Forall_app. split; auto. apply Forall_forall. intros b Hb. apply repeat_spec in Hb. subst b.
    simpl. unfold TIME_LOWER, DBL_MAX. assert (1 <= 2 ^ 1023) by (apply pow_R1_Rle; lra).
    assert (/ 2 ^ 52 <= 1) by (rewrite <- Rinv_1; apply Rinv_le_contravar; [lra|apply pow_R1_Rle; lra]).
    try nra. }
  split; [apply admit_in_bounds; auto|].
  split; [rewrite map_length, combine_length; lia|].
  assert (Nb : forall i, (i < length x0)%nat ->
    nth i (map (fun xb => widen (fst xb) (snd xb)) (combine x0 b0)) (0, 0) = widen (nth i x0 0) (nth i b0 (0, 0))).
  { intros i Hi.
    assert (E0 : nth i (combine x0 b0) (0, (0, 0)) = (nth i x0 0, nth i b0 (0, 0))) by (apply combine_nth; auto).
    assert (Hi' : (i < length (combine x0 b0))%nat) by (rewrite combine_length; lia).
    rewrite (nth_indep _ (0, 0) (widen 0 (0, 0))) by (rewrite map_length; auto).
    exact (eq_trans (map_nth (fun xb => widen (fst xb) (snd xb)) (combine x0 b0) (0, (0, 0)) i)
             (f_equal (fun xb => widen (fst xb) (snd xb)) E0)). }
  split.
  - intros i Hi. rewrite Nb by lia. f_equal.
    + subst x0. apply app_nth1. lia.
    + subst b0. rewrite app_nth1 by (rewrite repeat_length; lia).
      apply (repeat_spec (length (o_times (nl_opt s)))). apply nth_In. rewrite repeat_length. lia.
  - intros k i Hk Hi. rewrite Nb by (rewrite L0; nia). f_equal.
    subst b0. rewrite app_nth2 by (rewrite repeat_length; lia). rewrite repeat_length.
    replace (_ - _)%nat with (k * length (o_free (nl_opt s)) + i)%nat by lia. apply Bf; auto.
Qed.
End Run.

(** ** optimize() *)

(** Segment times no smaller than the given ones or 0.1 s. *)
Definition not_below (times ts : list R) : Prop := Forall2 (fun T T' => Rmin TIME_LOWER T <= T') times ts.

Lemma forall2_nth (P : R -> R -> Prop) : forall l l', length l = length l' ->
  (forall i, (i < length l)%nat -> P (nth i l 0) (nth i l' 0)) -> Forall2 P l l'.
Proof.
  induction l as [|a l IH]; intros [|b l'] L H; simpl in *; try lia; constructor.
  - apply (H O). lia.
  - apply IH; [lia|]. intros i Hi. apply (H (S i)). lia.
Qed.
Lemma in_bounds_nth b x i : in_bounds b x -> (i < length b)%nat ->
  fst (nth i b (0, 0)) <= nth i x 0 <= snd (nth i b (0, 0)).
Proof.
  intros F. revert i. induction F as [|b0 x0 b x H F IH]; intros [|i] Hi; simpl in *; try lia; auto. apply IH. lia.
Qed.
Lemma not_below_refl times : not_below times times.
Proof. induction times; constructor; auto. apply Rmin_r. Qed.
Lemma nth_firstn_lt {A} (l : list A) n i x : (i < n)%nat -> nth i (firstn n l) x = nth i l x.
Proof. revert n i. induction l as [|a l IH]; intros [|n] [|i] H; simpl; auto; try lia. apply IH. lia. Qed.
Lemma not_below_pos times ts : not_below times ts -> Forall (fun T => 0 < T) times -> Forall (fun T => 0 < T) ts.
Proof.
  induction 1 as [|T T' times ts H F IH]; intros P; constructor; inversion P; subst; auto.
  eapply Rlt_le_trans; [|exact H]. apply Rmin_glb_lt; auto. unfold TIME_LOWER. lra.
Qed.
Lemma not_below_usable times ts : not_below times ts -> usable_times times -> usable_times ts.
Proof.
  induction 1 as [|T T' times ts H F IH]; intros P; constructor; inversion P; subst; auto.
  - eapply Rle_trans; [|exact H]. apply Rmin_glb; auto. unfold TIME_LOWER, DBL_EPS.
    apply (Rle_trans _ (/ 2 ^ 4)); [|lra].
    apply Rinv_le_contravar; [apply pow_lt; lra|]. apply Rle_pow; [lra|lia].
  - apply IH; auto.
Qed.
Lemma not_below_length times ts : not_below times ts -> length times = length ts.
Proof. induction 1; simpl; auto. Qed.

Section Optimize.
Variables (find_roots : list R -> list croot) (inv : inverse_routine) (qr : solve_routine) (N D : nat)
  (vs : list vertex) (d : nat) (p : nl_params) (times : list R).
Hypothesis V : valid_size N.
Hypothesis H2 : (2 <= length vs)%nat.

Notation use := (opt_use inv qr N D vs d).
Notation conf := (configured inv N D p vs times d).

Lemma time_bounds_good x : good_times vs times -> in_bounds (time_bounds times) x ->
  good_times vs x /\ not_below times x.
Proof.
  intros [L P] B. pose proof (in_bounds_length _ _ B) as Lb. unfold time_bounds in Lb. rewrite repeat_length in Lb.
  assert (F : not_below times x).
  { apply forall2_nth; auto. intros i Hi. eapply Rle_trans; [apply Rmin_l|].
    assert (Hb : (i < length (time_bounds times))%nat) by (unfold time_bounds; rewrite repeat_length; auto).
    destruct (in_bounds_nth _ _ i B Hb) as [H _].
    assert (E : nth i (time_bounds times) (0, 0) = (TIME_LOWER, DBL_MAX)).
    { apply (repeat_spec (length times)). apply nth_In. exact Hb. }
    rewrite E in H. exact H. }
  split; auto. split; [congruence|]. eapply not_below_pos; eauto.
Qed.

Lemma full_bounds_good s s1 x0 b x : use (nl_opt s) -> o_times (nl_opt s) = times ->
  full_problem qr N s = Some (s1, x0, b) -> in_bounds b x ->
  good_full N D vs x /\ not_below times (x_times (length vs - 1) x).
Proof.
  intros U Et E B.
  destruct (full_problem_defined inv qr N D vs d V H2 s U) as (s1' & x0' & b' & E' & _ & _ & _ & L & Bt & _).
  rewrite E in E'. inversion E'; subst s1' x0' b'; clear E'. rewrite Et in Bt.
  pose proof (in_bounds_length _ _ B) as Lb. pose proof (use_times_len inv qr N D vs d _ U) as Lt. rewrite Et in Lt.
  pose proof (rd_pos _ _ _ _ _ _ (opt_use_ready _ _ _ _ _ _ _ U)) as P. rewrite Et in P.
  assert (Lf : length (firstn (length vs - 1) x) = length times) by (rewrite firstn_length; lia).
  assert (F : not_below times (x_times (length vs - 1) x)).
  { apply forall2_nth; [unfold x_times; lia|]. intros i Hi. unfold x_times. rewrite nth_firstn_lt by lia.
    destruct (in_bounds_nth _ _ i B ltac:(lia)) as [H _]. rewrite Bt in H by lia.
    eapply Rle_trans; [|exact H]. unfold widen. simpl. rcase; [apply Rmin_r|]. rcase; apply Rmin_l. }
  split; auto. split; [|rewrite <- Lb, L, (use_free_eq inv qr N D vs d _ U); auto].
  split; [lia|]. eapply not_below_pos; eauto.
Qed.

(** Methods that optimise the free constraints as well. *)
Definition full_method (a : alloc) : Prop := a = SquaredTimeAndConstraints \/ a = RichterTimeAndConstraints.

Definition is_full (a : alloc) : bool :=
  match a with SquaredTimeAndConstraints | RichterTimeAndConstraints => true | _ => false end.
(** The state after an evaluation at [x], a function of [x]. *)
Definition outcome (x : list R) (o : opt) : Prop :=
  exists o1, use o1 /\
    if is_full (p_alloc p) then
      o_times o1 = x_times (length vs - 1) x /\
      set_free N (x_free (length vs - 1) (length (o_free o1)) D x) o1 = Some o
    else o_times o1 = x /\ o = solve_linear qr N o1.

Lemma outcome_det x o o' : outcome x o -> outcome x o' -> o = o'.
Proof.
  intros (o1 & U1 & H1) (o1' & U1' & H1'). destruct (is_full _).
  - destruct H1 as [T1 S1], H1' as [T1' S1'].
    rewrite (set_free_det inv qr N D vs d o1 o1') in S1 by congruence.
    rewrite (use_free_eq inv qr N D vs d o1 U1), <- (use_free_eq inv qr N D vs d o1' U1') in S1. congruence.
  - destruct H1 as [T1 ->], H1' as [T1' ->]. apply (solve_det inv qr N D vs d); congruence.
Qed.

Lemma optimize_spec xs ab s : conf s -> orders_ok N s -> p_alloc p <> MellingerOuterLoop -> allowed qr N s xs ->
  exists s', optimize find_roots inv qr N xs ab s = Val s' /\ use (nl_opt s') /\
    nl_params_ s' = nl_params_ s /\ nl_cons s' = nl_cons s /\ i_iterations (nl_info s') = length xs /\
    not_below times (o_times (nl_opt s')) /\
    (xs <> [] \/ full_method (p_alloc p) -> solved inv qr N D vs d (nl_opt s')) /\
    (xs = [] -> full_method (p_alloc p) -> nl_opt s' = solve_linear qr N (nl_opt s)) /\
    (xs = [] -> ~ full_method (p_alloc p) -> s' = s) /\
    (forall ys x, xs = ys ++ [x] -> outcome x (nl_opt s')).
Proof.
  intros C OK NM A. destruct (configured_use inv qr N D vs d p times s C) as (U & Et & Ep & Ei & _).
  pose proof (configured_times inv qr N D vs d p times s C) as G.
  unfold optimize. rewrite (configured_same inv qr N D vs d p times s C). unfold allowed in A. rewrite Ep in *.
  assert (T : is_full (p_alloc p) = false -> forall xs0 : list (list R), nlopt_run times (time_bounds times) xs0 ->
    exists s', evaluate_all (objective_time find_roots inv qr N) xs0 s = Val s' /\ use (nl_opt s') /\
      nl_params_ s' = nl_params_ s /\ nl_cons s' = nl_cons s /\
      i_iterations (nl_info s') = length xs0 /\
      not_below times (o_times (nl_opt s')) /\
      (xs0 <> [] -> solved inv qr N D vs d (nl_opt s')) /\ (xs0 = [] -> s' = s) /\
      (forall ys x, xs0 = ys ++ [x] -> outcome x (nl_opt s'))).
  { intros NF ys [B _].
    destruct (evaluate_all_spec inv qr N D vs d H2 (objective_time find_roots inv qr N)
      (fun x => good_times vs x /\ not_below times x)
      (fun x o => solved inv qr N D vs d o /\ o_times o = x /\ not_below times x /\ outcome x o)) with (xs := ys) (s := s)
      as (s' & E & U' & P' & C' & I' & N' & O'); auto.
    - intros x s0 U0 OK0 [G0 B0].
      destruct (objective_time_spec find_roots inv qr N D vs d H2 x s0 U0 OK0 G0) as (s' & J & o1 & E & K & S & T & O).
      exists s', J. split; auto. split; auto. split; [eapply solved_use; eauto|].
      split; auto. split; auto. split; auto. exists o1. rewrite NF. exact O.
    - eapply Forall_impl; [|exact B]. intros x. apply time_bounds_good; auto.
    - exists s'. split; auto. split; auto. split; auto. split; auto. rewrite I', Ei. simpl.
      split; [lia|]. destruct ys as [|y zs].
      + rewrite (N' eq_refl), Et. split; [apply not_below_refl|]. split; [congruence|]. split; auto.
        intros [|? ?] ? ?; discriminate.
      + destruct (@exists_last _ (y :: zs)) as (l & x & El); [discriminate|].
        destruct (O' _ _ El) as (S & T & B' & _). split; [congruence|]. split; [auto|]. split; [discriminate|].
        intros us u Eu. apply (O' us u Eu). }
  assert (F : full_method (p_alloc p) -> (forall s1 x0 b, full_problem qr N s = Some (s1, x0, b) -> nlopt_run x0 b xs) ->
    exists s', match full_problem qr N s with
        | Some (s1, _, _) => evaluate_all (objective_full find_roots inv N) xs s1 | None => Undef end = Val s' /\
      use (nl_opt s') /\
      nl_params_ s' = nl_params_ s /\ nl_cons s' = nl_cons s /\
      i_iterations (nl_info s') = length xs /\
      not_below times (o_times (nl_opt s')) /\
      solved inv qr N D vs d (nl_opt s') /\ (xs = [] -> nl_opt s' = solve_linear qr N (nl_opt s)) /\
      (forall ys x, xs = ys ++ [x] -> outcome x (nl_opt s'))).
  { intros FM B.
    assert (NF : is_full (p_alloc p) = true) by (destruct FM as [-> | ->]; reflexivity).
    destruct (full_problem_defined inv qr N D vs d V H2 s U) as (s1 & x0 & b & E & Es1 & _ & B0 & _).
    rewrite E. destruct (B _ _ _ E) as [B1 _].
    destruct (evaluate_all_spec inv qr N D vs d H2 (objective_full find_roots inv N)
      (fun x => good_full N D vs x /\ not_below times (x_times (length vs - 1) x))
      (fun x o => solved inv qr N D vs d o /\ not_below times (o_times o) /\ outcome x o)) with (xs := xs) (s := s1)
      as (s' & E1 & U' & P' & C' & I' & N' & O').
    - intros x s0 U0 OK0 [G0 B0'].
      destruct (objective_full_spec find_roots inv qr N D vs d H2 x s0 U0 OK0 G0) as (s' & J & o1 & E1 & K & S & Tx & O).
      exists s', J. split; auto. split; auto. split; [eapply solved_use; eauto|]. rewrite Tx. split; auto. split; auto.
      exists o1. rewrite NF. exact O.
    - rewrite Es1. simpl. apply use_solve; auto.
    - rewrite Es1. exact OK.
    - eapply Forall_impl; [|exact B1]. intros x Hx. eapply full_bounds_good; eauto.
    - exists s'. split; auto. split; auto. rewrite P', C', I', Es1. simpl. rewrite Ei. simpl.
      split; auto. split; auto. split; [lia|].
      destruct xs as [|y ys].
      + rewrite (N' eq_refl), Es1. simpl. rewrite solve_times, Et. split; [apply not_below_refl|].
        split; [exists (nl_opt s); split; [auto|split; [apply solve_times|auto]]|].
        split; auto. intros [|? ?] ? ?; discriminate.
      + destruct (@exists_last _ (y :: ys)) as (l & x & El); [discriminate|].
        destruct (O' _ _ El) as (S & Tx & _). split; [auto|]. split; [auto|]. split; [discriminate|].
        intros us u Eu. apply (O' us u Eu). }
  unfold full_method in *.
  destruct (p_alloc p); try congruence.
  - rewrite Et in A. destruct (T eq_refl xs A) as (s' & E & R). exists s'. split; auto.
    destruct R as (R1 & R2 & R3 & R4 & R5 & R6 & R7 & R8).
    do 5 (split; [solve [auto | congruence]|]). split; [intros [X|[X|X]]; auto; discriminate|]. split; [intros _ [X|X]; discriminate|]. split; auto.
  - rewrite Et in A. destruct (T eq_refl xs A) as (s' & E & R). exists s'. split; auto.
    destruct R as (R1 & R2 & R3 & R4 & R5 & R6 & R7 & R8).
    do 5 (split; [solve [auto | congruence]|]). split; [intros [X|[X|X]]; auto; discriminate|]. split; [intros _ [X|X]; discriminate|]. split; auto.
  - destruct F as (s' & E & R); auto. exists s'. split; auto.
    destruct R as (R1 & R2 & R3 & R4 & R5 & R6 & R7 & R8). do 5 (split; [solve [auto | congruence]|]). tauto.
  - destruct F as (s' & E & R); auto. exists s'. split; auto.
    destruct R as (R1 & R2 & R3 & R4 & R5 & R6 & R7 & R8). do 5 (split; [solve [auto | congruence]|]). tauto.
Qed.
End Optimize.

(** ** Costs *)

Lemma total_time_lsum ts : total_time ts = lsum ts.
Proof.
  unfold total_time. assert (H : forall a, fold_left Rplus ts a = a + lsum ts); [|rewrite H; lra].
  induction ts as [|t ts IH]; intros a; simpl; [lra|]. rewrite IH. lra.
Qed.
Lemma lsum_nonneg ts : Forall (fun T => 0 <= T) ts -> 0 <= lsum ts.
Proof. induction 1; simpl; lra. Qed.

Lemma soft_cost_bounds find_roots N o w mx cs v : 0 <= mx ->
  soft_cost find_roots N o w mx cs = Val v -> 0 <= v <= INR (length cs) * mx.
Proof.
  intros Hm. revert v. induction cs as [|c cs IH]; intros v E; cbn [soft_cost] in E.
  - inversion E. simpl. lra.
  - destruct (max_of_magnitude find_roots N (cd_deriv c) o) as [e| |]; try discriminate.
    destruct (soft_cost find_roots N o w mx cs) as [r| |]; try discriminate. inversion E; subst v.
    specialize (IH r eq_refl). pose proof (soft_term_bounds mx w (e_value e) (cd_value c) Hm) as B.
    unfold soft_term in B. cbn [length]. rewrite S_INR. lra.
Qed.
Lemma soft_cost_caps find_roots N o w m m' cs v : m <= m' ->
  soft_cost find_roots N o w m' cs = Val v ->
  exists v', soft_cost find_roots N o w m cs = Val v' /\ v' <= v /\
    (Forall (fun c => exists e, max_of_magnitude find_roots N (cd_deriv c) o = Val e /\
       exp ((e_value e - cd_value c) / cd_value c * w) <= m) cs -> v' = v).
Proof.
  intros Hm. revert v. induction cs as [|c cs IH]; intros v E; cbn [soft_cost] in *.
  - exists v. split; auto. split; [lra|auto].
  - destruct (max_of_magnitude find_roots N (cd_deriv c) o) as [e| |] eqn:Ee; try discriminate.
    destruct (soft_cost find_roots N o w m' cs) as [r| |]; try discriminate. inversion E; subst v.
    destruct (IH r eq_refl) as (r' & -> & L & Q). eexists. split; [reflexivity|]. split.
    + assert (Rmin m (exp ((e_value e - cd_value c) / cd_value c * w)) <=
              Rmin m' (exp ((e_value e - cd_value c) / cd_value c * w))) by (apply Rle_min_compat_r; auto). lra.
    + intros F. inversion F as [|? ? (e' & Ee' & B) F']; subst. rewrite Ee in Ee'. inversion Ee'; subst e'.
      rewrite (Q F'). rewrite !Rmin_right by lra. reflexivity.
Qed.

Lemma finish_costs find_roots N x o s s' J :
  finish_objective find_roots N x o s = Val (s', J) ->
  nl_opt s' = o /\ nl_params_ s' = nl_params_ s /\ nl_cons s' = nl_cons s /\
  exists cs, J = compute_cost N o + time_cost (nl_params_ s) x + cs /\
    (if p_use_soft (nl_params_ s) then soft_cost find_roots N o (p_soft_weight (nl_params_ s)) (10 ^ 12) (nl_cons s)
     else Val 0) = Val cs /\
    nl_info s' = mkInfo (S (i_iterations (nl_info s))) (compute_cost N o) (time_cost (nl_params_ s) x) cs.
Proof.
  unfold finish_objective.
  destruct (if p_use_soft (nl_params_ s) then _ else _) as [cs| |] eqn:E; try discriminate.
  intros H. inversion H; subst. simpl. repeat (split; [reflexivity|]). exists cs. auto.
Qed.

Lemma total_cost_finish find_roots N x o s s' J :
  finish_objective find_roots N x o s = Val (s', J) -> o_times o = x ->
  p_use_soft (nl_params_ s) = true ->
  p_alloc (nl_params_ s) = SquaredTime \/ p_alloc (nl_params_ s) = SquaredTimeAndConstraints ->
  exists c, total_cost find_roots N s' = Val c /\ c <= J /\
    (Forall (fun k => exists e, max_of_magnitude find_roots N (cd_deriv k) o = Val e /\
       exp ((e_value e - cd_value k) / cd_value k * p_soft_weight (nl_params_ s)) <= 10 ^ 9) (nl_cons s) -> c = J).
Proof.
  intros F Et Soft Al. destruct (finish_costs _ _ _ _ _ _ _ F) as (Eo & Ep & Ec & cs & EJ & Es & _).
  rewrite Soft in Es. unfold total_cost. rewrite Eo, Ep, Ec.
  destruct (soft_cost_caps find_roots N o (p_soft_weight (nl_params_ s)) (10 ^ 9) (10 ^ 12) (nl_cons s) cs) as
    (v & -> & L & Q); auto.
  { apply Rle_pow; [lra|lia]. }
  assert (Tc : time_cost (nl_params_ s) x = total_time (o_times o) * total_time (o_times o) * p_time_penalty (nl_params_ s)).
  { unfold time_cost. rewrite Et. destruct Al as [-> | ->]; reflexivity. }
  eexists. split; [reflexivity|]. rewrite EJ, Tc. split; [lra|]. intros H. rewrite (Q H). lra.
Qed.

(** ** Only the last evaluation counts *)

Section Last.
Variables (find_roots : list R -> list croot) (inv : inverse_routine) (qr : solve_routine) (N D : nat)
  (vs : list vertex) (d : nat) (p : nl_params) (times : list R).
Hypothesis V : valid_size N.
Hypothesis H2 : (2 <= length vs)%nat.
Notation conf := (configured inv N D p vs times d).

Lemma allowed_last s xs x : allowed qr N s (xs ++ [x]) -> allowed qr N s [x].
Proof.
  assert (X : forall x0 b, nlopt_run x0 b (xs ++ [x]) -> nlopt_run x0 b [x]).
  { intros x0 b [F E]. split.
    - apply Forall_app in F. tauto.
    - intros H. specialize (E H). destruct xs; discriminate. }
  unfold allowed. destruct (p_alloc (nl_params_ s)); eauto.
Qed.

Lemma optimize_last xs x ab s : conf s -> orders_ok N s -> p_alloc p <> MellingerOuterLoop ->
  allowed qr N s (xs ++ [x]) ->
  exists s' s'', optimize find_roots inv qr N (xs ++ [x]) ab s = Val s' /\
    optimize find_roots inv qr N [x] ab s = Val s'' /\ nl_opt s' = nl_opt s'' /\
    i_iterations (nl_info s') = S (length xs).
Proof.
  intros C OK NM A.
  destruct (optimize_spec find_roots inv qr N D vs d p times V H2 _ ab s C OK NM A) as
    (s' & E' & _ & _ & _ & I' & _ & _ & _ & _ & O').
  destruct (optimize_spec find_roots inv qr N D vs d p times V H2 _ ab s C OK NM (allowed_last _ _ _ A)) as
    (s'' & E'' & _ & _ & _ & _ & _ & _ & _ & _ & O'').
  exists s', s''. split; auto. split; auto. split.
  - eapply outcome_det; [apply (O' xs x eq_refl)|apply (O'' [] x eq_refl)].
  - rewrite I', app_length. simpl. lia.
Qed.

(** Raising the segment times of a point. *)
Definition raise (n : nat) (T : R) (x : list R) : list R := map (Rmax T) (firstn n x) ++ skipn n x.

Lemma raise_in_bounds n T x b : in_bounds b x -> (n <= length x)%nat ->
  (forall i, (i < n)%nat -> T <= snd (nth i b (0, 0))) -> in_bounds b (raise n T x).
Proof.
  unfold raise, in_bounds. intros F. revert n. induction F as [|b0 x0 b x H F IH]; intros n L HT.
  - destruct n; simpl; constructor.
  - destruct n as [|n]; simpl; [constructor; auto|]. constructor.
    + split; [eapply Rle_trans; [|apply Rmax_r]; tauto|]. apply Rmax_lub; [apply (HT O); lia|tauto].
    + simpl in L. apply IH; [lia|]. intros i Hi. apply (HT (S i)). lia.
Qed.
Lemma raise_times n T x : (n <= length x)%nat -> x_times n (raise n T x) = map (Rmax T) (x_times n x).
Proof.
  intros L. unfold x_times, raise. rewrite firstn_app, map_length, firstn_length, Nat.min_l by auto.
  rewrite Nat.sub_diag, firstn_O, app_nil_r. apply firstn_all2. rewrite map_length, firstn_length. lia.
Qed.
Lemma lsum_raise T ts : 0 <= T -> Forall (fun t => 0 <= t) ts -> ts <> [] -> T <= lsum (map (Rmax T) ts).
Proof.
  intros HT P Ne. destruct ts as [|t ts]; [congruence|]. simpl. pose proof (Rmax_l T t).
  assert (0 <= lsum (map (Rmax T) ts)); [|lra]. apply lsum_nonneg. apply Forall_forall. intros y Hy.
  apply in_map_iff in Hy. destruct Hy as (z & <- & _). pose proof (Rmax_l T z). lra.
Qed.

Lemma objective_full_cost x s s' J : opt_use inv qr N D vs d (nl_opt s) -> good_full N D vs x ->
  objective_full find_roots inv N x s = Val (s', J) ->
  time_cost (nl_params_ s) (x_times (length vs - 1) x) <= J.
Proof.
  intros U [G L] E. unfold objective_full in E. rewrite (use_vertices inv qr N D vs d _ U) in E.
  destruct (_ =? _)%nat; [|discriminate].
  destruct (update_times _ _ _ _) as [o1|] eqn:E1; [|discriminate].
  destruct (set_free _ _ _) as [o2|] eqn:E2; [|discriminate].
  destruct (finish_costs _ _ _ _ _ _ _ E) as (_ & _ & _ & cs & -> & Es & _).
  assert (0 <= compute_cost N o2).
  { apply (cost_nonneg inv qr N D vs d); auto. eapply use_free; [|exact E2]. eapply use_times; eauto. }
  assert (0 <= cs).
  { destruct (p_use_soft _).
    - apply soft_cost_bounds in Es; [lra|]. apply pow_le. lra.
    - inversion Es. lra. }
  lra.
Qed.

(** Some admissible run ends with a point that is worse than an earlier one. *)
Lemma worse_last s s1 x0 b x J sx : conf s -> orders_ok N s -> p_alloc p = SquaredTimeAndConstraints ->
  1 <= p_time_penalty p ->
  full_problem qr N s = Some (s1, x0, b) -> in_bounds b x ->
  objective_full find_roots inv N x s1 = Val (sx, J) -> J <= 10 ^ 100 ->
  exists x' J' sx', in_bounds b x' /\ allowed qr N s [x; x'] /\
    objective_full find_roots inv N x' s1 = Val (sx', J') /\ J < J' /\
    exists s', optimize find_roots inv qr N [x; x'] false s = Val s' /\ nl_opt s' = nl_opt sx'.
Proof.
  intros C OK Al Pen E B Ex HJ.
  destruct (configured_use inv qr N D vs d p times s C) as (U & Et & Ep & Ei & _).
  destruct (full_problem_defined inv qr N D vs d V H2 s U) as (s1' & x0' & b' & E' & Es1 & _ & B0 & L & Bt & _).
  assert (Q : s1' = s1 /\ x0' = x0 /\ b' = b) by (rewrite E in E'; split; [congruence|split; congruence]).
  destruct Q as (Q1 & Q2 & Q3). rewrite Q1 in Es1. rewrite Q2, Q3 in B0. rewrite Q3 in L, Bt. clear E'.
  destruct (full_bounds_good inv qr N D vs d times V H2 s s1 x0 b x U Et E B) as [Gx _].
  assert (U1 : opt_use inv qr N D vs d (nl_opt s1)) by (rewrite Es1; apply use_solve; auto).
  assert (OK1 : orders_ok N s1) by (rewrite Es1; exact OK).
  assert (Lx : length x = length b) by (symmetry; apply in_bounds_length; auto).
  pose proof (objective_full_cost x s1 sx J U1 Gx Ex) as HC.
  assert (Params : nl_params_ s1 = p) by (rewrite Es1; auto).
  assert (J0 : 0 <= J).
  { eapply Rle_trans; [|exact HC]. unfold time_cost. rewrite Params, Al.
    apply Rmult_le_pos; [|lra]. apply Rle_0_sqr. }
  assert (Big : 1 + J <= DBL_MAX).
  { assert (M : 10 ^ 100 <= 2 ^ 999).
    { replace 10 with (IZR 10) by lra. replace 2 with (IZR 2) by lra. rewrite !pow_IZR. apply IZR_le.
      apply Z.leb_le. vm_compute. reflexivity. }
    unfold DBL_MAX. assert (/ 2 ^ 52 <= 1) by (rewrite <- Rinv_1; apply Rinv_le_contravar; [lra|apply pow_R1_Rle; lra]).
    assert (M2 : 2 ^ 1000 <= 2 ^ 1023) by (apply Rle_pow; [lra|lia]).
    assert (M3 : 2 ^ 1000 = 2 * 2 ^ 999) by reflexivity.
    assert (M4 : 1 <= 2 ^ 999) by (apply pow_R1_Rle; lra).
    revert HJ M M2 M3 M4 H. generalize (2 ^ 1023) (2 ^ 1000) (2 ^ 999) (/ 2 ^ 52) (10 ^ 100). intros. nra. }
  set (x' := raise (length vs - 1) (1 + J) x).
  assert (B' : in_bounds b x').
  { apply raise_in_bounds; [auto|lia|]. intros i Hi. rewrite Bt by auto.
    eapply Rle_trans; [exact Big|]. apply (widen_wider _ (TIME_LOWER, DBL_MAX)). }
  destruct (full_bounds_good inv qr N D vs d times V H2 s s1 x0 b x' U Et E B') as [Gx' _].
  destruct (objective_full_spec find_roots inv qr N D vs d H2 x' s1 U1 OK1 Gx') as (sx' & J' & o1 & Ex' & K & S' & T' & O').
  assert (A : allowed qr N s [x; x']).
  { unfold allowed. rewrite Ep, Al. intros s2 y0 c E2.
    assert (Qb : c = b /\ y0 = x0) by (rewrite E in E2; split; congruence).
    destruct Qb as [-> ->]. split; [repeat (constructor; auto)|tauto]. }
  exists x', J', sx'. split; auto. split; auto. split; auto. split.
  - pose proof (objective_full_cost x' s1 sx' J' U1 Gx' Ex') as HC'. eapply Rlt_le_trans; [|exact HC'].
    unfold time_cost. rewrite Params, Al, total_time_lsum. subst x'. rewrite raise_times by lia.
    destruct Gx as [[Lt Pt] _].
    assert (1 + J <= lsum (map (Rmax (1 + J)) (x_times (length vs - 1) x))).
    { apply lsum_raise; [lra| |].
      - eapply Forall_impl; [|exact Pt]. simpl. intros; lra.
      - intros Z. unfold x_times in Z. rewrite Z in Lt. simpl in Lt. lia. }
    set (T := lsum _) in *. clearbody T.
    assert (1 + J <= T * T) by nra. nra.
  - destruct (optimize_spec find_roots inv qr N D vs d p times V H2 _ false s C OK ltac:(congruence) A) as
      (s' & Es' & _ & _ & _ & _ & _ & _ & _ & _ & O).
    exists s'. split; auto. apply (outcome_det inv qr N D vs d p x'); [apply (O [x] x' eq_refl)|].
    exists o1. rewrite Al. simpl. exact O'.
Qed.
End Last.

(** ** Mellinger's method *)

Lemma limit_set_of s k v : limit_set s k v -> 0 < limit_of k (nl_cons s).
Proof.
  intros (P & b & c & a & -> & Ek & Ev & F). unfold limit_of. rewrite fold_left_app. simpl. rewrite Ek, Nat.eqb_refl, Ev.
  clear Ek Ev c b. induction a as [|c a IH]; simpl; auto. inversion F; subst.
  destruct (Nat.eqb_spec (cd_deriv c) k); [contradiction|auto].
Qed.
Lemma limit_set_eq s k v : limit_set s k v -> limit_of k (nl_cons s) = v.
Proof.
  intros (P & b & c & a & -> & Ek & Ev & F). unfold limit_of. rewrite fold_left_app. simpl. rewrite Ek, Nat.eqb_refl, Ev.
  clear Ek Ev c b. induction a as [|c a IH]; simpl; auto. inversion F; subst.
  destruct (Nat.eqb_spec (cd_deriv c) k); [contradiction|auto].
Qed.

Section Mellinger.
Variables (find_roots : list R -> list croot) (inv : inverse_routine) (qr : solve_routine) (N D : nat)
  (vs : list vertex) (d : nat) (p : nl_params) (times : list R).
Hypothesis V : valid_size N.
Hypothesis H2 : (2 <= length vs)%nat.
Notation use := (opt_use inv qr N D vs d).
Notation conf := (configured inv N D p vs times d).

Lemma set_segments_defined ss : ss <> [] -> Forall (fun s => seg_wf s /\ s_N s = N /\ s_D s = D) ss ->
  exists tr, set_segments ss = Some tr /\ traj_wf tr /\ t_segs tr = ss /\ t_N tr = N /\ t_D tr = D.
Proof.
  intros Ne F.
  assert (E : exists tr, set_segments ss = Some tr /\ t_N tr = N /\ t_D tr = D).
  { unfold set_segments, set_segments_gen. destruct ss as [|s0 ss]; [congruence|].
    unfold add_segments_gen. inversion F as [|? ? (W & HN & HD) F']; subst.
    match goal with |- context [forallb ?f ?l] => assert (X : forallb f l = true) end.
    { apply forallb_forall. intros s Hs. rewrite Forall_forall in F. destruct (F s Hs) as (_ & A & B).
      simpl. rewrite A, B, !Nat.eqb_refl. reflexivity. }
    rewrite X. eexists. split; [reflexivity|]. simpl. auto. }
  destruct E as (tr & E & HN & HD). exists tr. split; auto.
  destruct (set_segments_wf ss tr) as (W & S & _); auto.
  eapply Forall_impl; [|exact F]. simpl. tauto.
Qed.

Lemma scale_violation_spec s : exact_root_finder find_roots -> (3 <= N)%nat -> (1 <= D)%nat ->
  solved inv qr N D vs d (nl_opt s) -> 0 < limit_of 1 (nl_cons s) -> 0 < limit_of 2 (nl_cons s) ->
  exists s' k o1, scale_with_violation find_roots inv qr N s = Some s' /\ 1 <= k /\
    solved inv qr N D vs d (nl_opt s') /\
    o_times (nl_opt s') = map (fun T => T * k) (o_times (nl_opt s)) /\
    nl_params_ s' = nl_params_ s /\ nl_cons s' = nl_cons s /\ nl_info s' = nl_info s /\
    use o1 /\ o_times o1 = o_times (nl_opt s') /\ nl_opt s' = solve_linear qr N o1.
Proof.
  intros HR HN HD S L1 L2. pose proof (solved_use _ _ _ _ _ _ _ S) as U.
  destruct (set_segments_defined (o_segs (nl_opt s))) as (tr & E & W & Es & EN & ED).
  { apply (use_segs_ne inv qr N D vs d H2); auto. }
  { apply (opt_use_segs _ _ _ _ _ _ _ U). }
  unfold scale_with_violation, get_trajectory. rewrite E.
  pose proof (solved_positive inv qr N D vs d _ S) as P.
  destruct (scale_to_constraints_spec find_roots tr (limit_of 1 (nl_cons s)) (limit_of 2 (nl_cons s))) as (tr' & Es' & K & _); auto.
  { rewrite Es. apply (use_segs_ne inv qr N D vs d H2); auto. }
  { rewrite Es. eapply Forall_impl; [|exact P]. simpl. intros; lra. }
  { lia. }
  { lia. }
  rewrite Es'.
  assert (X : exists k, 1 <= k /\ map s_time (t_segs tr') = map (fun T => T * k) (o_times (nl_opt s))).
  { pose proof (solved_times inv qr N D vs d _ S) as T. destruct K as [-> | (k & Hk & -> & _)].
    - exists 1. split; [lra|]. rewrite Es, T. rewrite <- (map_id (o_times (nl_opt s))) at 1. apply map_ext. intros; ring.
    - exists k. split; auto. simpl. rewrite Es, map_map, <- T, map_map. reflexivity. }
  destruct X as (k & Hk & X). rewrite X.
  assert (G : good_times vs (map (fun T => T * k) (o_times (nl_opt s)))).
  { split; [rewrite map_length; apply (use_times_len _ _ _ _ _ _ _ U)|].
    apply Forall_forall. intros y Hy. apply in_map_iff in Hy. destruct Hy as (T & <- & HT).
    pose proof (rd_pos _ _ _ _ _ _ (opt_use_ready _ _ _ _ _ _ _ U)) as Pt. rewrite Forall_forall in Pt.
    specialize (Pt T HT). nra. }
  destruct (update_defined inv qr N D vs d H2 _ _ U G) as (o1 & -> & U1 & E1).
  exists (mkNL (solve_linear qr N o1) (nl_params_ s) (nl_cons s) (nl_info s)), k, o1.
  split; [reflexivity|]. split; auto. simpl. split.
  - exists o1. split; auto. split; [apply solve_times|auto].
  - rewrite solve_times. auto 10.
Qed.

Lemma scale_violation_ext s t : nl_opt s = nl_opt t -> nl_cons s = nl_cons t ->
  option_map nl_opt (scale_with_violation find_roots inv qr N s) =
  option_map nl_opt (scale_with_violation find_roots inv qr N t).
Proof.
  intros E C. unfold scale_with_violation. rewrite E, C. destruct (get_trajectory _); [|reflexivity].
  destruct (scale_to_constraints _ _ _ _) as [[? ?]| |]; try reflexivity. destruct (update_times _ _ _ _); reflexivity.
Qed.

Lemma not_below_scaled k ts ts' : 1 <= k -> Forall (fun T => 0 < T) ts' -> not_below ts ts' ->
  not_below ts (map (fun T => T * k) ts').
Proof.
  intros Hk P F. induction F as [|T T' ts ts' H F IH]; simpl; [constructor|].
  inversion P; subst. constructor; [nra|apply IH; auto].
Qed.

Lemma mellinger_run xs s : conf s -> p_alloc p = MellingerOuterLoop -> allowed qr N s xs -> orders_ok N s ->
  exists s1, evaluate_all (objective_mellinger inv qr N) xs s = Val s1 /\ use (nl_opt s1) /\
    nl_params_ s1 = nl_params_ s /\ nl_cons s1 = nl_cons s /\ i_iterations (nl_info s1) = length xs /\
    (xs = [] -> s1 = s) /\
    (forall ys x, xs = ys ++ [x] -> solved inv qr N D vs d (nl_opt s1) /\ o_times (nl_opt s1) = x /\
       good_times vs x /\ not_below times x /\ exists o1, use o1 /\ o_times o1 = x /\ nl_opt s1 = solve_linear qr N o1).
Proof.
  intros C Al A OK. destruct (configured_use inv qr N D vs d p times s C) as (U & Et & Ep & Ei & _).
  pose proof (configured_times inv qr N D vs d p times s C) as G.
  unfold allowed in A. rewrite Ep, Al, Et in A. destruct A as [B _].
  destruct (evaluate_all_spec inv qr N D vs d H2 (objective_mellinger inv qr N)
      (fun x => good_times vs x /\ not_below times x)
      (fun x o => solved inv qr N D vs d o /\ o_times o = x /\ good_times vs x /\ not_below times x /\
         exists o1, use o1 /\ o_times o1 = x /\ o = solve_linear qr N o1)) with (xs := xs) (s := s)
      as (s' & E & U' & P' & C' & I' & N' & O'); auto.
  - intros x s0 U0 OK0 [G0 B0].
    destruct (objective_mellinger_spec inv qr N D vs d H2 x s0 U0 G0) as (s' & J & o1 & E & K & S & T & O).
    exists s', J. split; auto. split; auto. split; [eapply solved_use; eauto|].
    repeat (split; [solve [auto]|]). eauto.
  - eapply Forall_impl; [|exact B]. intros x. apply time_bounds_good; auto.
  - exists s'. rewrite I', Ei. simpl. rewrite Nat.add_0_r. auto 10.
Qed.

Lemma optimize_mellinger xs x ab s : conf s -> orders_ok N s -> p_alloc p = MellingerOuterLoop ->
  exact_root_finder find_roots -> (3 <= N)%nat -> (1 <= D)%nat ->
  0 < limit_of 1 (nl_cons s) -> 0 < limit_of 2 (nl_cons s) ->
  allowed qr N s (xs ++ [x]) ->
  exists s' s'' k, optimize find_roots inv qr N (xs ++ [x]) ab s = Val s' /\
    optimize find_roots inv qr N [x] ab s = Val s'' /\ nl_opt s' = nl_opt s'' /\
    i_iterations (nl_info s') = S (length xs) /\ nl_params_ s' = nl_params_ s /\ nl_cons s' = nl_cons s /\
    solved inv qr N D vs d (nl_opt s') /\ 1 <= k /\ (ab = true -> k = 1) /\
    o_times (nl_opt s') = map (fun T => T * k) x /\ not_below times (o_times (nl_opt s')).
Proof.
  intros C OK Al HR HN HD L1 L2 A.
  assert (A1 : allowed qr N s [x]) by (eapply allowed_last; eauto).
  destruct (mellinger_run _ s C Al A OK) as (sa & Ea & Ua & Pa & Ca & Ia & _ & Oa).
  destruct (mellinger_run _ s C Al A1 OK) as (sb & Eb & Ub & Pb & Cb & Ib & _ & Ob).
  destruct (Oa xs x eq_refl) as (Sa & Ta & Ga & Na & oa & Uoa & Toa & Qa).
  destruct (Ob [] x eq_refl) as (Sb & Tb & _ & _ & ob & Uob & Tob & Qb).
  assert (Q : nl_opt sa = nl_opt sb) by (rewrite Qa, Qb; apply (solve_det inv qr N D vs d); congruence).
  assert (Ep : p_alloc (nl_params_ s) = MellingerOuterLoop).
  { destruct (configured_use inv qr N D vs d p times s C) as (_ & _ & -> & _). auto. }
  unfold optimize. rewrite (configured_same inv qr N D vs d p times s C), Ep, Ea, Eb.
  rewrite app_length in Ia. simpl in Ia.
  destruct ab.
  - exists sa, sb, 1. assert (E1 : map (fun T => T * 1) x = x).
    { rewrite <- (map_id x) at 2. apply map_ext. intros; ring. }
    rewrite E1, Ta. repeat (split; [solve [auto | lia | lra]|]). auto.
  - rewrite <- Ca in L1, L2.
    destruct (scale_violation_spec sa HR HN HD Sa L1 L2) as (sa' & k & o1 & Esa & Hk & S' & T' & P' & C' & I' & U1 & T1 & Q1).
    rewrite Esa.
    rewrite Ca, <- Cb in L1, L2.
    destruct (scale_violation_spec sb HR HN HD Sb L1 L2) as (sb' & kb & o1' & Esb & Hkb & S1' & T1' & P1' & C1' & I1' & U1' & Tb1 & Q1').
    rewrite Esb. exists sa', sb', k. split; auto. split; auto. split.
    + pose proof (scale_violation_ext sa sb Q ltac:(congruence)) as X. rewrite Esa, Esb in X. simpl in X. congruence.
    + rewrite I', P', C', T', Ta. split; [lia|]. split; [congruence|]. split; [congruence|]. split; auto. split; auto.
      split; [discriminate|]. split; auto. destruct Ga as [_ Pos]. apply not_below_scaled; auto.
Qed.
End Mellinger.
