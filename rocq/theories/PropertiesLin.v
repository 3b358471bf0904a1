(** Property theorems: the linear optimiser (C52-C56).
    [inv] and [qr] stand for Eigen's dense inverse and sparse QR solver; the
    theorems assume that they are exact ([exact_inverse], [exact_solver]), and
    C54_routines_exist shows that such routines exist. *)
From Coq Require Import Reals Lra Lia List Bool ZArith Arith.
From Coquelicot Require Import Coquelicot.
From Verif Require Import Base PolyModel PolySpec PolyProofs VertexModel VertexProofs TrajModel TrajSpec
  LinOptModel LinOptSpec LinInverse LinProofs LinCost LinFinal.
Import List ListNotations.
Set Bullet Behavior "Strict Subproofs".
Local Open Scope R_scope.

(** Three vertices: rest, a free waypoint, rest. *)
Definition three_vertices : list vertex :=
  [start_end_vertex [0; 0; 0] 4; pos_vertex [1; 2; 3]; start_end_vertex [4; 0; 1] 4].

(** ** C52 *)

(** The vertices at both ends of a segment coincide and neither is at rest. *)
Definition stuck_pair (a b : vertex) : Prop :=
  get_constraint 0 a = get_constraint 0 b /\ at_rest a = false /\ at_rest b = false.

(** C52: with positive limits the estimated segment times are accepted by the
    optimiser exactly if no two consecutive vertices coincide while neither is
    at rest. *)
Theorem C52_accepted_iff :
  forall (inv : inverse_routine) (N D : nat) (vs : list vertex) (d : nat) (v_max a_max : R),
  (2 <= length vs)%nat -> 0 < v_max -> 0 < a_max -> (d <= N / 2 - 1)%nat ->
  Forall (fun v => exists p, get_constraint 0 v = Some p /\ length p = D) vs ->
  exists times, estimate_segment_times vs v_max a_max = Some times /\
    ((exists o, setup inv N D vs times d = Some o) <->
     forall i a b, nth_error vs i = Some a -> nth_error vs (S i) = Some b -> ~ stuck_pair a b).
Proof.
  intros inv N D vs d v_max a_max HL Hv Ha Hd HP.
  unfold estimate_segment_times. destruct (Nat.ltb_spec (length vs) 2); [lia|].
  eexists. split; [reflexivity|]. rewrite setup_defined, length_pairwise, <- pairwise_forall.
  rewrite Forall_forall in HP. split.
  - intros (_ & _ & F) i a b Na Nb (E & Ra & Rb). specialize (F i a b Na Nb).
    rewrite nfabian_zero in F; auto; [lra|]. unfold pos_of. rewrite E. reflexivity.
  - intros F. split; [auto|]. split; [lia|]. intros i a b Na Nb. apply nfabian_pos_iff; auto.
    destruct (at_rest a) eqn:Ra; auto. destruct (at_rest b) eqn:Rb; auto. left. intros Z.
    destruct (HP a (nth_error_In _ _ Na)) as (p & Ep & Lp).
    destruct (HP b (nth_error_In _ _ Nb)) as (q & Eq & Lq).
    unfold pos_of in Z. rewrite Ep, Eq in Z. apply vec_sub_norm_iff in Z; [|congruence].
    apply (F i a b Na Nb). repeat split; auto. congruence.
Qed.
(** C52: so a repeated waypoint in the middle of a plan aborts. *)
Theorem C52_repeated_waypoint_refuted :
  forall (inv : inverse_routine), exists (vs : list vertex) (times : list R),
    (2 <= length vs)%nat /\
    Forall (fun v => exists p, get_constraint 0 v = Some p /\ length p = 3%nat) vs /\
    estimate_segment_times vs 1 1 = Some times /\ setup inv 10 3 vs times 2 = None.
Proof.
  intros inv. exists [pos_vertex [0; 0; 0]; pos_vertex [1; 2; 3]; pos_vertex [1; 2; 3]; start_end_vertex [4; 0; 1] 4].
  destruct (C52_accepted_iff inv 10 3 [pos_vertex [0; 0; 0]; pos_vertex [1; 2; 3]; pos_vertex [1; 2; 3]; start_end_vertex [4; 0; 1] 4]
    2 1 1) as (times & E & C).
  - simpl; lia.
  - lra.
  - lra.
  - simpl; lia.
  - repeat constructor; eexists; split; reflexivity.
  - exists times. split; [simpl; lia|]. split; [repeat constructor; eexists; split; reflexivity|].
    split; [exact E|]. destruct (setup _ _ _ _ _ _) eqn:S; [|reflexivity]. exfalso.
    refine (proj1 C (ex_intro _ _ eq_refl) 1%nat _ _ eq_refl eq_refl _). repeat split; reflexivity.
Qed.
(** C52: with a negative speed every plan aborts. *)
Theorem C52_negative_speed :
  forall (inv : inverse_routine) (N D : nat) (vs : list vertex) (d : nat) (v_max a_max : R) (times : list R),
  v_max < 0 -> 0 < a_max -> estimate_segment_times vs v_max a_max = Some times ->
  setup inv N D vs times d = None.
Proof.
  intros inv N D vs d v_max a_max times Hv Ha E. unfold estimate_segment_times in E.
  destruct (Nat.ltb_spec (length vs) 2); [discriminate|]. inversion E; subst times.
  apply setup_none. destruct vs as [|a [|b vs]]; simpl in *; try lia.
  constructor. apply nfabian_bad_speed; auto.
Qed.
Print Assumptions C52_accepted_iff.
Print Assumptions C52_repeated_waypoint_refuted.
Print Assumptions C52_negative_speed.
Example C52_example :
  forall i a b, nth_error three_vertices i = Some a -> nth_error three_vertices (S i) = Some b -> ~ stuck_pair a b.
Proof.
  intros [|[|[|i]]] a b Ha Hb; simpl in Ha, Hb; try discriminate; inversion Ha; inversion Hb; subst;
    intros (E & _); cbn in E; inversion E; lra.
Qed.

(** ** C53 *)

(** C53: when the optimiser accepts its input. *)
Theorem C53_setup_accepts :
  forall (inv : inverse_routine) (N D : nat) (vs : list vertex) (times : list R) (d : nat),
  (exists o, setup inv N D vs times d = Some o) <->
  (d <= N / 2 - 1)%nat /\ length vs = S (length times) /\ Forall (fun T => 0 < T) times.
Proof. exact setup_defined. Qed.
(** C53: any choice of the free constraints interpolates and is smooth. *)
Theorem C53_any_free_constraints :
  forall (inv : inverse_routine) (qr : solve_routine) (N D : nat) (vs : list vertex) (d : nat)
         (o : opt) (dp : list (list R)) (o' : opt),
  exact_inverse inv -> valid_size N -> vertices_dim D vs ->
  opt_use inv qr N D vs d o -> usable_times (o_times o) -> set_free N dp o = Some o' ->
  interpolates N D vs (o_times o) (o_segs o') /\ smooth (N / 2) (o_segs o').
Proof. exact free_interpolates. Qed.
(** C53: so does the linear solution, whatever the sparse solver returns. *)
Theorem C53_solve_linear :
  forall (inv : inverse_routine) (qr : solve_routine) (N D : nat) (vs : list vertex) (d : nat) (o : opt),
  exact_inverse inv -> valid_size N -> vertices_dim D vs ->
  opt_use inv qr N D vs d o -> usable_times (o_times o) ->
  interpolates N D vs (o_times o) (o_segs (solve_linear qr N o)) /\
  smooth (N / 2) (o_segs (solve_linear qr N o)).
Proof. exact solve_interpolates. Qed.
(** C53: the optimiser keeps the vertices without their constraints of order
    N/2 and above (getVertices). *)
Theorem C53_vertices :
  forall (inv : inverse_routine) (qr : solve_routine) (N D : nat) (vs : list vertex) (d : nat) (o : opt) (i : nat) (v : vertex),
  valid_size N -> opt_use inv qr N D vs d o -> nth_error vs i = Some v ->
  length (o_vertices o) = length vs /\
  exists w, nth_error (o_vertices o) i = Some w /\
    forall k, get_constraint k w = if (k <? N / 2)%nat then get_constraint k v else None.
Proof.
  intros inv qr N D vs d o i v [HN _] U HV. pose proof (opt_use_ready _ _ _ _ _ _ _ U) as RD.
  rewrite (rd_vs _ _ _ _ _ _ RD), map_length. split; [reflexivity|].
  exists (drop_high D (N / 2) v). split; [now apply map_nth_error|]. intros k.
  destruct (Nat.ltb_spec k (N / 2)) as [H|H]; [now apply drop_high_get|].
  assert (HH : (1 <= N / 2)%nat) by (apply Nat.div_le_lower_bound; lia).
  unfold drop_high, get_constraint. destruct (forallb _ (v_cons v)) eqn:E.
  - induction (v_cons v) as [|[k' x] c IH]; [reflexivity|]. cbn [forallb fst] in E. apply andb_prop in E. destruct E as [E1 E2].
    apply Nat.leb_le in E1. cbn [cons_find]. destruct (Nat.eqb_spec k k'); [lia|auto].
  - clear E. cbn [v_cons]. induction (v_cons v) as [|[k' x] c IH]; [reflexivity|]. cbn [filter fst].
    destruct (Nat.leb_spec k' (N / 2 - 1)); [|exact IH]. cbn [cons_find]. destruct (Nat.eqb_spec k k'); [lia|exact IH].
Qed.
Print Assumptions C53_vertices.
Print Assumptions C53_setup_accepts.
Print Assumptions C53_any_free_constraints.
Print Assumptions C53_solve_linear.

Lemma three_vertices_dim : vertices_dim 3 three_vertices.
Proof.
  repeat constructor; intros k c H; destruct k as [|[|[|[|[|k]]]]]; cbn in H; try discriminate;
    inversion H; reflexivity.
Qed.
Lemma eps_le_1 : DBL_EPS <= 1.
Proof.
  unfold DBL_EPS. apply (Rle_trans _ (/ 1)); [|lra]. apply Rinv_le_contravar; [lra|]. apply pow_R1_Rle. lra.
Qed.

(** A state with four free constraints, three free vectors set to 1. *)
Example C53_example :
  forall inv qr, exists o o', opt_use inv qr 10 3 three_vertices 2 o /\ usable_times (o_times o) /\
    length (o_free o) = 4%nat /\ set_free 10 (repeat (repeat 1 4) 3) o = Some o' /\
    vertices_dim 3 three_vertices /\ valid_size 10.
Proof.
  intros inv qr.
  assert (S : exists o, setup inv 10 3 three_vertices [1; 2] 2 = Some o).
  { apply setup_defined. split; [simpl; lia|]. split; [reflexivity|]. repeat constructor; lra. }
  destruct S as (o & S). pose proof (setup_ready _ _ _ _ _ _ _ S) as (RD & Et).
  assert (F : length (o_free o) = 4%nat).
  { rewrite (rd_free _ _ _ _ _ _ RD), (rd_vs _ _ _ _ _ _ RD). reflexivity. }
  assert (X : exists o', set_free 10 (repeat (repeat 1 4) 3) o = Some o').
  { unfold set_free. rewrite (rd_D _ _ _ _ _ _ RD), F. simpl. eauto. }
  destruct X as (o' & X).
  exists o, o'. split; [apply use_setup with [1; 2]; exact S|]. split.
  - rewrite Et. pose proof eps_le_1. unfold usable_times. repeat (apply Forall_cons; [lra|]). apply Forall_nil.
  - split; [exact F|]. split; [exact X|]. split; [apply three_vertices_dim|]. split; [lia|reflexivity].
Qed.

(** ** C54 *)

(** C54: invertMappingMatrix gives the two-sided inverse. *)
Theorem C54_mapping_inverse :
  forall (inv : inverse_routine) (N : nat) (T : R),
  exact_inverse inv -> valid_size N -> DBL_EPS <= T ->
  is_inverse N (mapping_matrix N T) (invert_mapping inv N (mapping_matrix N T)).
Proof. exact mapping_inverse. Qed.
(** C54: the mapping matrix maps the coefficients to the derivatives at both ends. *)
Theorem C54_mapping_meaning :
  forall (N : nat) (T : R) (k : nat) (p : poly),
  valid_size N -> length p = N -> DBL_EPS <= T -> (k < N / 2)%nat ->
  rsum N (fun c => mapping_matrix N T k c * nth c p 0) = Derive_n (pval p) k 0 /\
  rsum N (fun c => mapping_matrix N T (N / 2 + k)%nat c * nth c p 0) = Derive_n (pval p) k T.
Proof.
  intros N T k p V L HT Hk. rewrite <- !poly_evaluate_Derive_n. split.
  - exact (mapping_start N T k p V L Hk).
  - exact (mapping_end N T k p V L HT Hk).
Qed.
(** C54: positive times below epsilon pass the checks of the setup, but their
    mapping matrix has no inverse. *)
Theorem C54_tiny_times_refuted :
  exists (vs : list vertex) (T : R), forall (inv : inverse_routine),
    0 < T /\ (exists o, setup inv 10 3 vs [T; 1] 2 = Some o) /\
    forall B, ~ is_inverse 10 (mapping_matrix 10 T) B.
Proof.
  exists three_vertices, (DBL_EPS / 2). intros inv.
  assert (P : 0 < DBL_EPS) by (unfold DBL_EPS; apply Rinv_0_lt_compat, pow_lt; lra).
  split; [lra|]. split.
  - apply setup_defined. split; [simpl; lia|]. split; [reflexivity|]. repeat constructor; lra.
  - intros B. apply mapping_singular; [split; [lia|reflexivity]|lra].
Qed.
(** C54: the routines assumed in this file exist. *)
Theorem C54_routines_exist : (exists inv, exact_inverse inv) /\ (exists qr, exact_solver qr).
Proof. exact (conj exact_inverse_exists exact_solver_exists). Qed.
Print Assumptions C54_mapping_inverse.
Print Assumptions C54_mapping_meaning.
Print Assumptions C54_tiny_times_refuted.
Print Assumptions C54_routines_exist.
Example C54_example : valid_size 10 /\ valid_size 12 /\ DBL_EPS <= 1.
Proof. split; [|split]; [split; [lia|reflexivity]..|exact eps_le_1]. Qed.

(** ** C55 *)

(** C55: after setFreeConstraints or solveLinear the cost is the integral. *)
Theorem C55_cost_is_energy :
  forall (inv : inverse_routine) (qr : solve_routine) (N D : nat) (vs : list vertex) (d : nat) (o o' : opt),
  valid_size N -> opt_use inv qr N D vs d o ->
  (exists dp, set_free N dp o = Some o') \/ o' = solve_linear qr N o ->
  compute_cost N o' = energy d (o_segs o').
Proof. exact cost_energy_use. Qed.
(** C55: in every state (also between a change of the times and the next
    solution) the integrals run over the current segment times. *)
Theorem C55_cost_any_state :
  forall (inv : inverse_routine) (qr : solve_routine) (N D : nat) (vs : list vertex) (d : nat) (o : opt),
  valid_size N -> opt_use inv qr N D vs d o ->
  length (o_segs o) = length (o_times o) /\
  compute_cost N o =
  lsum (map (fun sT => lsum (map (fun p =>
    RInt (fun t => (Derive_n (pval p) d t) ^ 2) 0 (snd sT)) (s_polys (fst sT))))
    (combine (o_segs o) (o_times o))).
Proof.
  exact (fun inv qr N D vs d o V U => conj (proj1 (opt_use_segs inv qr N D vs d o U)) (cost_any inv qr N D vs d o V U)).
Qed.
(** C55: the cost is not negative. *)
Theorem C55_cost_nonneg :
  forall (inv : inverse_routine) (qr : solve_routine) (N D : nat) (vs : list vertex) (d : nat) (o : opt),
  valid_size N -> opt_use inv qr N D vs d o -> 0 <= compute_cost N o.
Proof. exact cost_nonneg. Qed.
Print Assumptions C55_cost_is_energy.
Print Assumptions C55_cost_any_state.
Print Assumptions C55_cost_nonneg.
Example C55_example :
  forall inv qr, exists o, opt_use inv qr 10 3 three_vertices 2 o /\ valid_size 10 /\ length (o_times o) = 2%nat.
Proof.
  intros inv qr. destruct (C53_example inv qr) as (o & o' & U & _ & _ & _ & _ & V).
  exists o. split; [exact U|]. split; [exact V|].
  pose proof (rd_len _ _ _ _ _ _ (opt_use_ready _ _ _ _ _ _ _ U)) as L. simpl in L. lia.
Qed.

(** ** C56 *)

(** C56: solveLinear minimises the integral among all piecewise polynomials of
    the same sizes and durations that meet the vertex constraints and have
    N/2 - 1 continuous derivatives. *)
Theorem C56_optimal :
  forall (inv : inverse_routine) (qr : solve_routine) (N D : nat) (vs : list vertex) (d : nat) (o : opt),
  exact_inverse inv -> exact_solver qr -> valid_size N -> (2 <= length vs)%nat ->
  opt_use inv qr N D vs d o -> usable_times (o_times o) ->
  forall segs, interpolates N D vs (o_times o) segs -> smooth (N / 2) segs ->
  energy d (o_segs (solve_linear qr N o)) <= energy d segs.
Proof. exact solve_optimal. Qed.
(** C56: in particular no choice of the free constraints costs less. *)
Theorem C56_optimal_cost :
  forall (inv : inverse_routine) (qr : solve_routine) (N D : nat) (vs : list vertex) (d : nat)
         (o : opt) (dp : list (list R)) (o' : opt),
  exact_inverse inv -> exact_solver qr -> valid_size N -> (2 <= length vs)%nat -> vertices_dim D vs ->
  opt_use inv qr N D vs d o -> usable_times (o_times o) -> set_free N dp o = Some o' ->
  compute_cost N (solve_linear qr N o) <= compute_cost N o'.
Proof.
  intros inv qr N D vs d o dp o' HI HQ V H2 VD U UT F.
  rewrite (cost_energy_use inv qr N D vs d o o' V U) by eauto.
  rewrite (cost_energy_use inv qr N D vs d o _ V U) by eauto.
  destruct (free_interpolates inv qr N D vs d o dp o' HI V VD U UT F).
  apply (solve_optimal inv qr N D vs d o); auto.
Qed.
Print Assumptions C56_optimal.
Print Assumptions C56_optimal_cost.
Example C56_example :
  exists inv qr o segs, exact_inverse inv /\ exact_solver qr /\ opt_use inv qr 10 3 three_vertices 2 o /\
    usable_times (o_times o) /\ interpolates 10 3 three_vertices (o_times o) segs /\ smooth 5 segs.
Proof.
  destruct C54_routines_exist as ((inv & HI) & (qr & HQ)).
  destruct (C53_example inv qr) as (o & o' & U & UT & _ & F & VD & V).
  exists inv, qr, o, (o_segs o').
  destruct (C53_any_free_constraints inv qr 10 3 three_vertices 2 o _ o' HI V VD U UT F) as [I S].
  repeat (split; [assumption|]). exact S.
Qed.
