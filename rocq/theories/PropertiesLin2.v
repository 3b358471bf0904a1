(** Property theorems: uniqueness of the linear solution (C56). *)
From Coq Require Import Reals Lra Lia List Bool ZArith Arith.
From Coquelicot Require Import Coquelicot.
From Verif Require Import Base PolyModel PolySpec PolyProofs VertexModel VertexProofs TrajModel TrajSpec
  LinOptModel LinOptSpec LinInverse LinProofs LinCost LinFinal LinUnique PropertiesLin.
Import List ListNotations.
Set Bullet Behavior "Strict Subproofs".
Local Open Scope R_scope.

Lemma opt_use_d inv qr N D vs d o : opt_use inv qr N D vs d o -> (d <= N / 2)%nat.
Proof.
  induction 1 as [times o H| | |]; auto.
  assert (X : exists o, setup inv N D vs times d = Some o) by eauto. apply setup_defined in X. lia.
Qed.
Lemma usable_positive times : usable_times times -> Forall (fun T => 0 < T) times.
Proof. unfold usable_times. rewrite !Forall_forall. intros H x Hx. specialize (H x Hx). pose proof (Rinv_0_lt_compat _ (pow2_pos 52)) as P. unfold DBL_EPS in H. eapply Rlt_le_trans; eauto. Qed.

Section Opt.
Variables (inv : inverse_routine) (qr : solve_routine) (N D : nat) (vs : list vertex) (d : nat) (o : opt).
Hypotheses (HI : exact_inverse inv) (HQ : exact_solver qr) (V : valid_size N) (H2 : (2 <= length vs)%nat)
  (VD : vertices_dim D vs) (U : opt_use inv qr N D vs d o) (UT : usable_times (o_times o)).
Variable segs : list segment.
Hypotheses (I : interpolates N D vs (o_times o) segs) (S : smooth (N / 2) segs)
  (Le : energy d segs <= energy d (o_segs (solve_linear qr N o))).
Let sol := o_segs (solve_linear qr N o).
Lemma sol_derivative : forall i m t, (i < length (o_times o))%nat -> (m < D)%nat ->
  Derive_n (pval (pl N sol i m)) d t = Derive_n (pval (pl N segs i m)) d t.
Proof.
  destruct (solve_interpolates inv qr N D vs d o HI V VD U UT) as [Is Ss].
  apply (same_derivative N D vs (o_times o) sol segs (N / 2) d); auto.
  - now apply usable_positive.
  - intros l Il Sl. now apply (solve_optimal inv qr N D vs d o).
Qed.
Lemma sol_seg_deriv i a b t : nth_error sol i = Some a -> nth_error segs i = Some b -> seg_deriv a d t = seg_deriv b d t.
Proof.
  intros Ea Eb. destruct (solve_interpolates inv qr N D vs d o HI V VD U UT) as [Is Ss].
  pose proof (opt_use_d inv qr N D vs d o U) as Hd.
  assert (Hi : (i < length (o_times o))%nat).
  { destruct I as (HT & _). rewrite <- HT, map_length. apply nth_error_Some. congruence. }
  destruct (seg_at N D vs (o_times o) (N / 2) d (le_n _) Hd sol i Is Hi) as (a' & Ea' & _ & Pa & _).
  destruct (seg_at N D vs (o_times o) (N / 2) d (le_n _) Hd segs i I Hi) as (b' & Eb' & _ & Pb & _).
  fold sol in Ea'. assert (a' = a) by congruence. assert (b' = b) by congruence. subst.
  rewrite Pa, Pb. apply map_ext_in. intros m Hm. apply in_seq in Hm. apply sol_derivative; auto. lia.
Qed.
Lemma sol_unique_one j v : nth_error vs j = Some v ->
  (forall k, (k < d)%nat -> exists c, get_constraint k v = Some c) -> segs = sol.
Proof.
  intros Hv G. destruct (solve_interpolates inv qr N D vs d o HI V VD U UT) as [Is Ss]. symmetry.
  apply (unique_one N D vs (o_times o) sol segs (N / 2) d) with (j := j) (v := v); auto.
  - exact (opt_use_d inv qr N D vs d o U).
  - exact sol_derivative.
Qed.
Lemma sol_unique_positions l : NoDup l -> (d <= length l)%nat ->
  (forall j, In j l -> exists v c, nth_error vs j = Some v /\ get_constraint 0 v = Some c) -> segs = sol.
Proof.
  intros ND L G. destruct (solve_interpolates inv qr N D vs d o HI V VD U UT) as [Is Ss]. symmetry.
  apply (unique_positions N D vs (o_times o) sol segs (N / 2) d) with (l := l); auto.
  - exact (opt_use_d inv qr N D vs d o U).
  - exact sol_derivative.
  - now apply usable_positive.
  - destruct V as [[B1 B2] _]. apply (Nat.div_le_mono 2 N 2); lia.
Qed.
End Opt.

(** ** C56: uniqueness *)

(** C56: every trajectory of the same form that costs no more has the same
    d-th derivative at all times. *)
Theorem C56_same_derivative :
  forall (inv : inverse_routine) (qr : solve_routine) (N D : nat) (vs : list vertex) (d : nat) (o : opt),
  exact_inverse inv -> exact_solver qr -> valid_size N -> (2 <= length vs)%nat -> vertices_dim D vs ->
  opt_use inv qr N D vs d o -> usable_times (o_times o) ->
  forall segs, interpolates N D vs (o_times o) segs -> smooth (N / 2) segs ->
  energy d segs <= energy d (o_segs (solve_linear qr N o)) ->
  forall i a b t, nth_error (o_segs (solve_linear qr N o)) i = Some a -> nth_error segs i = Some b ->
  seg_deriv a d t = seg_deriv b d t.
Proof. exact sol_seg_deriv. Qed.
(** C56: if some vertex fixes all derivatives below d, or if d vertices fix the
    position, the optimum is unique: no other trajectory of the same form costs
    as little. *)
Theorem C56_unique :
  forall (inv : inverse_routine) (qr : solve_routine) (N D : nat) (vs : list vertex) (d : nat) (o : opt),
  exact_inverse inv -> exact_solver qr -> valid_size N -> (2 <= length vs)%nat -> vertices_dim D vs ->
  opt_use inv qr N D vs d o -> usable_times (o_times o) ->
  (exists j v, nth_error vs j = Some v /\ forall k, (k < d)%nat -> exists c, get_constraint k v = Some c) \/
  (exists l, NoDup l /\ (d <= length l)%nat /\
     forall j, In j l -> exists v c, nth_error vs j = Some v /\ get_constraint 0 v = Some c) ->
  forall segs, interpolates N D vs (o_times o) segs -> smooth (N / 2) segs ->
  segs <> o_segs (solve_linear qr N o) ->
  energy d (o_segs (solve_linear qr N o)) < energy d segs.
Proof.
  intros inv qr N D vs d o HI HQ V H2 VD U UT Q segs I S NE.
  destruct (Rlt_le_dec (energy d (o_segs (solve_linear qr N o))) (energy d segs)) as [|Le]; auto. exfalso. apply NE.
  destruct Q as [(j & v & Hv & G)|(l & ND & L & G)].
  - now apply (sol_unique_one inv qr N D vs d o) with (j := j) (v := v).
  - now apply (sol_unique_positions inv qr N D vs d o) with (l := l).
Qed.
(** C56: so the result does not depend on which exact solver is used, nor on
    the calls made before, only on vertices, times and derivative. *)
Theorem C56_solver_independent :
  forall (inv inv' : inverse_routine) (qr qr' : solve_routine) (N D : nat) (vs : list vertex) (d : nat) (o o' : opt),
  exact_inverse inv -> exact_solver qr -> exact_inverse inv' -> exact_solver qr' ->
  valid_size N -> (2 <= length vs)%nat -> vertices_dim D vs ->
  opt_use inv qr N D vs d o -> opt_use inv' qr' N D vs d o' -> usable_times (o_times o) -> o_times o' = o_times o ->
  (exists j v, nth_error vs j = Some v /\ forall k, (k < d)%nat -> exists c, get_constraint k v = Some c) \/
  (exists l, NoDup l /\ (d <= length l)%nat /\
     forall j, In j l -> exists v c, nth_error vs j = Some v /\ get_constraint 0 v = Some c) ->
  o_segs (solve_linear qr' N o') = o_segs (solve_linear qr N o).
Proof.
  intros inv inv' qr qr' N D vs d o o' HI HQ HI' HQ' V H2 VD U U' UT ET Q.
  assert (UT' : usable_times (o_times o')) by (rewrite ET; exact UT).
  destruct (solve_interpolates inv' qr' N D vs d o' HI' V VD U' UT') as [I' S'].
  destruct (solve_interpolates inv qr N D vs d o HI V VD U UT) as [I S]. rewrite ET in I'.
  assert (Le : energy d (o_segs (solve_linear qr' N o')) <= energy d (o_segs (solve_linear qr N o))).
  { apply (solve_optimal inv' qr' N D vs d o'); auto. now rewrite ET. }
  destruct Q as [(j & v & Hv & G)|(l & ND & L & G)].
  - now apply (sol_unique_one inv qr N D vs d o) with (j := j) (v := v).
  - now apply (sol_unique_positions inv qr N D vs d o) with (l := l).
Qed.
(** C56: without such constraints the optimum need not be unique: two segments
    of equal cost, both minimal, through the same (unconstrained) vertices. *)
Theorem C56_unique_refuted :
  exists (N D : nat) (vs : list vertex) (d : nat) (times : list R) (segs segs' : list segment),
  valid_size N /\ (2 <= length vs)%nat /\ vertices_dim D vs /\ usable_times times /\
  (forall inv, exists o, setup inv N D vs times d = Some o) /\
  interpolates N D vs times segs /\ smooth (N / 2) segs /\
  interpolates N D vs times segs' /\ smooth (N / 2) segs' /\
  segs <> segs' /\ energy d segs = 0 /\ energy d segs' = 0.
Proof.
  set (sg := fun c => [mkSeg 1 4 1 [[c; 0; 0; 0]]]). set (w := [vertex_new 1; vertex_new 1]).
  assert (W : forall c, interpolates 4 1 w [1] (sg c)).
  { intros c. split; [reflexivity|]. split; [reflexivity|]. split.
    - constructor; [|constructor]. split; [|split; reflexivity]. split; [reflexivity|]. constructor; [reflexivity|constructor].
    - intros [|i] s v v' E Ev Ev'; cbn in E; [|destruct i; discriminate]. cbn in Ev, Ev'.
      injection Ev as <-. injection Ev' as <-. intros k c0 _. split; intros X; discriminate X. }
  assert (Sm : forall c, smooth 2 (sg c)).
  { intros c [|i] s s' E E'; cbn in E'; [discriminate|destruct i; discriminate]. }
  assert (Z : forall c, energy 1 (sg c) = 0).
  { intros c. unfold energy, sg. cbn [map lsum s_polys s_time]. rewrite (RInt_ext _ (fun _ => 0)).
    - rewrite RInt_const. unfold scal. cbn. unfold mult. cbn. lra.
    - intros x _. rewrite (Derive_n_ext _ (fun _ => c)) by (intros t; cbn [pval]; ring).
      pose proof (Derive_n_const 0 c x) as E. match goal with |- ?a = ?b => change (@eq R a b) end. rewrite E. ring. }
  exists 4%nat, 1%nat, w, 1%nat, [1], (sg 0), (sg 1).
  split; [split; [lia|reflexivity]|]. split; [cbn; lia|]. split.
  { repeat constructor; intros k c X; discriminate X. }
  split. { constructor; [|constructor]. unfold DBL_EPS. rewrite <- Rinv_1. apply Rinv_le_contravar; [lra|]. apply pow_R1_Rle. lra. }
  split. { intros inv. apply setup_defined. split; [cbn; lia|]. split; [reflexivity|]. constructor; [lra|constructor]. }
  refine (conj (W 0) (conj (Sm 0) (conj (W 1) (conj (Sm 1) (conj _ (conj (Z 0) (Z 1))))))).
  unfold sg. intros E. injection E. lra.
Qed.
Print Assumptions C56_same_derivative.
Print Assumptions C56_unique.
Print Assumptions C56_solver_independent.
Print Assumptions C56_unique_refuted.
(** The three vertices of the examples meet both conditions, and a different
    trajectory of the same form exists (other free constraints). *)
Example C56_unique_example :
  vertices_dim 3 three_vertices /\
  (exists j v, nth_error three_vertices j = Some v /\ forall k, (k < 2)%nat -> exists c, get_constraint k v = Some c) /\
  (exists l, NoDup l /\ (2 <= length l)%nat /\
     forall j, In j l -> exists v c, nth_error three_vertices j = Some v /\ get_constraint 0 v = Some c).
Proof.
  refine (conj _ (conj _ _)).
  - destruct (C53_example (fun _ A => A) (fun _ _ r => r)) as (_ & _ & _ & _ & _ & _ & VD & _). exact VD.
  - exists 0%nat. eexists. split; [reflexivity|]. intros k Hk. destruct k as [|[|k]]; [| |lia]; eexists; reflexivity.
  - exists [0; 1; 2]%nat. split; [|split; [cbn; lia|]].
    + repeat constructor; cbn; lia.
    + intros j [<-|[<-|[<-|[]]]]; eexists; eexists; split; reflexivity.
Qed.
