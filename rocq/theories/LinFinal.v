(** Final forms of the linear-optimiser results used by the property file. *)
From Coq Require Import Reals Lra Lia List Bool ZArith Arith ClassicalChoice Classical.
From Coquelicot Require Import Coquelicot.
From Verif Require Import Base PolyModel PolySpec PolyProofs VertexModel VertexProofs TrajModel TrajSpec TrajProofs
  LinOptModel LinAlg LinOptSpec LinInverse LinReorder LinProofs LinCost.
Import List ListNotations.
Set Bullet Behavior "Strict Subproofs".
Local Open Scope R_scope.

(** ** The contracts of the two routines can be met *)

Lemma inverse_unique n A B B' i j : is_inverse n A B -> is_inverse n A B' ->
  (i < n)%nat -> (j < n)%nat -> B i j = B' i j.
Proof.
  intros H H' Hi Hj.
  rewrite <- (rsum_delta_r n j (fun k => B i k)) by auto.
  transitivity (rsum n (fun k => B i k * rsum n (fun l => A k l * B' l j))).
  - apply rsum_ext. intros k Hk. destruct (H' k j Hk Hj) as [-> _]. reflexivity.
  - rewrite (rsum_ext n _ (fun k => rsum n (fun l => B i k * (A k l * B' l j)))) by (intros; rewrite rsum_scal; reflexivity).
    rewrite rsum_swap.
    transitivity (rsum n (fun l => delta i l * B' l j)).
    + apply rsum_ext. intros l Hl. rewrite (rsum_ext n _ (fun k => B i k * A k l * B' l j)) by (intros; ring).
      rewrite rsum_scal_r. destruct (H i l Hi Hl) as [_ ->]. reflexivity.
    + exact (rsum_delta_l n i (fun l => B' l j) Hi).
Qed.

Lemma exact_inverse_exists : exists inv, exact_inverse inv.
Proof.
  destruct (choice (fun (nA : nat * mat) (B : mat) =>
    forall B', is_inverse (fst nA) (snd nA) B' -> is_inverse (fst nA) (snd nA) B)) as (f & Hf).
  - intros [n A]. destruct (classic (exists B', is_inverse n A B')) as [(B & HB)|No].
    + exists B. auto.
    + exists (fun _ _ => 0). intros B' H. exfalso. apply No. eauto.
  - exists (fun n A => f (n, A)). intros n A B HB i j Hi Hj.
    apply (inverse_unique n A); auto. exact (Hf (n, A) B HB).
Qed.

Lemma exact_solver_exists : exists qr, exact_solver qr.
Proof.
  destruct (choice (fun (p : nat * mat * (nat -> R)) (x : nat -> R) =>
    (exists x', forall i, (i < fst (fst p))%nat -> rsum (fst (fst p)) (fun j => snd (fst p) i j * x' j) = snd p i) ->
    forall i, (i < fst (fst p))%nat -> rsum (fst (fst p)) (fun j => snd (fst p) i j * x j) = snd p i)) as (f & Hf).
  - intros [[n A] b]. simpl.
    destruct (classic (exists x', forall i, (i < n)%nat -> rsum n (fun j => A i j * x' j) = b i)) as [(x & Hx)|No].
    + exists x. auto.
    + exists (fun _ => 0). intros. exfalso. auto.
  - exists (fun n A b => f (n, A, b)). intros n A b. exact (Hf (n, A, b)).
Qed.

(** ** Setup *)

Lemma setup_defined inv N D vs times d :
  (exists o, setup inv N D vs times d = Some o) <->
  (d <= N / 2 - 1)%nat /\ length vs = S (length times) /\ Forall (fun T => 0 < T) times.
Proof.
  split.
  - intros (o & H). destruct (setup_ready _ _ _ _ _ _ _ H) as ([] & E). rewrite E in *. auto.
  - intros (H1 & H2 & H3). unfold setup, update_times. cbn -[Nat.div]. rewrite ?map_length.
    destruct (Nat.leb_spec d (N / 2 - 1)); [|lia].
    destruct (Nat.eqb_spec (length vs) (length times + 1)); [|lia]. cbn -[Nat.div].
    destruct (Nat.eqb_spec (length times) (length vs - 1)); [|lia]. cbn -[Nat.div].
    apply forallb_pos in H3. rewrite H3. eauto.
Qed.

Lemma setup_none inv N D vs times d :
  Exists (fun T => T <= 0) times -> setup inv N D vs times d = None.
Proof.
  intros H. destruct (setup inv N D vs times d) eqn:E; auto. exfalso.
  assert (X : exists o, setup inv N D vs times d = Some o) by eauto.
  apply setup_defined in X. destruct X as (_ & _ & F).
  rewrite Forall_forall in F. rewrite Exists_exists in H. destruct H as (T & HT & L).
  specialize (F T HT). lra.
Qed.

(** ** Interpolation *)

Lemma free_interpolates inv qr N D vs d o dp o' :
  exact_inverse inv -> valid_size N -> vertices_dim D vs ->
  opt_use inv qr N D vs d o -> usable_times (o_times o) -> set_free N dp o = Some o' ->
  interpolates N D vs (o_times o) (o_segs o') /\ smooth (N / 2) (o_segs o').
Proof.
  intros HI V VD U UT F. apply opt_use_ready in U.
  destruct (set_free_inv _ _ _ _ F) as (-> & _ & _). split.
  - apply (segs_interpolate inv N D vs d o HI V U UT dp VD).
  - apply (segs_smooth inv N D vs d o HI V U UT dp).
Qed.

Lemma solve_interpolates inv qr N D vs d o :
  exact_inverse inv -> valid_size N -> vertices_dim D vs ->
  opt_use inv qr N D vs d o -> usable_times (o_times o) ->
  interpolates N D vs (o_times o) (o_segs (solve_linear qr N o)) /\
  smooth (N / 2) (o_segs (solve_linear qr N o)).
Proof.
  intros HI V VD U UT. apply opt_use_ready in U.
  destruct (solve_linear_dp inv qr N D vs d o U) as (dp & -> & _). split.
  - apply (segs_interpolate inv N D vs d o HI V U UT dp VD).
  - apply (segs_smooth inv N D vs d o HI V U UT dp).
Qed.

(** ** Cost *)

Lemma opt_use_segs inv qr N D vs d o : opt_use inv qr N D vs d o ->
  length (o_segs o) = length (o_times o) /\
  Forall (fun s => seg_wf s /\ s_N s = N /\ s_D s = D) (o_segs o).
Proof.
  intros U. induction U.
  - destruct (setup_ready _ _ _ _ _ _ _ H) as (RD & Et).
    unfold setup in H. destruct (_ && _); [|discriminate].
    unfold update_times in H. simpl in H. destruct (_ && _); [|discriminate].
    inversion H; subst o; simpl. rewrite repeat_length. split.
    + pose proof (rd_len _ _ _ _ _ _ RD). simpl in H0. lia.
    + apply Forall_forall. intros s Hs. apply repeat_spec in Hs. subst s.
      split; [|split; reflexivity]. split; simpl; [apply repeat_length|].
      apply Forall_forall. intros p Hp. apply repeat_spec in Hp. subst p. apply repeat_length.
  - destruct IHU as [A B]. pose proof (opt_use_ready _ _ _ _ _ _ _ U) as RD.
    destruct (update_times_ready _ _ _ _ _ _ _ _ RD H) as (RD' & Et).
    unfold update_times in H. destruct (_ && _); [|discriminate]. inversion H; subst o'; simpl in *.
    split; auto. pose proof (rd_len _ _ _ _ _ _ RD). pose proof (rd_len _ _ _ _ _ _ RD'). simpl in *. lia.
  - pose proof (opt_use_ready _ _ _ _ _ _ _ U) as RD.
    destruct (set_free_inv _ _ _ _ H) as (-> & _ & _).
    split; [apply (the_segs_length inv N D vs d o RD)|apply (the_segs_wf inv N D vs d o RD)].
  - pose proof (opt_use_ready _ _ _ _ _ _ _ U) as RD.
    destruct (solve_linear_dp inv qr N D vs d o RD) as (dp & -> & _).
    split; [apply (the_segs_length inv N D vs d o RD)|apply (the_segs_wf inv N D vs d o RD)].
Qed.

Lemma qform_swap N Q c :
  rsum N (fun j => rsum N (fun k => coef c k * Q k j) * coef c j) =
  qform N Q (fun j => coef c j) (fun j => coef c j).
Proof.
  unfold qform, mvec.
  erewrite rsum_ext by (intros; rewrite <- rsum_scal_r; reflexivity).
  rewrite rsum_swap. apply rsum_ext. intros k Hk. rewrite <- rsum_scal. apply rsum_ext. intros. ring.
Qed.

Lemma lsum_map_rsum {A} n (f : A -> R) (l : list A) (d : A) : length l = n ->
  lsum (map f l) = rsum n (fun i => f (nth i l d)).
Proof.
  intros <-. rewrite lsum_rsum, map_length. apply rsum_ext. intros i Hi.
  rewrite nth_indep with (d' := f d) by (rewrite map_length; auto). apply map_nth.
Qed.

(** computeCost in every state of use. *)
Lemma cost_any inv qr N D vs d o : valid_size N -> opt_use inv qr N D vs d o ->
  compute_cost N o =
  lsum (map (fun sT => lsum (map (fun p =>
    RInt (fun t => (Derive_n (pval p) d t) ^ 2) 0 (snd sT)) (s_polys (fst sT))))
    (combine (o_segs o) (o_times o))).
Proof.
  intros V U. pose proof (opt_use_ready _ _ _ _ _ _ _ U) as RD.
  destruct (opt_use_segs _ _ _ _ _ _ _ U) as (LS & WF).
  unfold compute_cost. rewrite (rd_vertices_len inv N D vs d o RD).
  replace (S (length (o_times o)) - 1)%nat with (length (o_times o)) by lia.
  rewrite lsum_rsum, map_length, combine_length, LS, Nat.min_id, <- rsum_scal.
  apply rsum_ext. intros i Hi.
  set (s := nth i (o_segs o) (seg_new N 0)).
  assert (Hs : In s (o_segs o)) by (apply nth_In; lia).
  rewrite Forall_forall in WF. destruct (WF s Hs) as ([W1 W2] & SN & SD).
  match goal with |- _ = nth i (map ?f _) 0 =>
    rewrite nth_indep with (d' := f (seg_new N 0, 0)) by (rewrite map_length, combine_length, LS, Nat.min_id; auto);
    rewrite (map_nth f) end.
  rewrite combine_nth by auto. fold s. simpl fst. simpl snd.
  rewrite (cost_nth inv N D vs d o RD) by auto.
  assert (LP : length (s_polys s) = D) by (rewrite <- SD; exact W1).
  rewrite (lsum_map_rsum D _ _ [] LP).
  rewrite (rd_D _ _ _ _ _ _ RD), <- rsum_scal.
  apply rsum_ext. intros dim Hd. cbv zeta.
  change (get_coefficients (seg_poly s dim) 0) with (seg_poly s dim).
  rewrite qform_swap, qform_square.
  - change (nth dim (s_polys s) []) with (seg_poly s dim). match goal with |- 1 / 2 * (2 * ?x) = _ => set (z := x) end.
    change (1 / 2 * (2 * z) = z). lra.
  - apply (deriv_lt inv N D vs d o V RD).
  - rewrite Forall_forall in W2. rewrite <- SN. apply W2. apply nth_In.
    apply (Nat.lt_le_trans _ D); auto. rewrite <- SD. apply Nat.eq_le_incl. exact (eq_sym W1).
Qed.

Lemma energy_times d segs :
  lsum (map (fun sT => lsum (map (fun p =>
    RInt (fun t => (Derive_n (pval p) d t) ^ 2) 0 (snd sT)) (s_polys (fst sT))))
    (combine segs (map s_time segs))) = energy d segs.
Proof.
  unfold energy. f_equal. induction segs as [|s segs IH]; [reflexivity|].
  cbn [map combine fst snd]. f_equal. exact IH.
Qed.

Lemma energy_nonneg d segs : Forall (fun s => 0 <= s_time s) segs -> 0 <= energy d segs.
Proof.
  intros H. unfold energy. apply lsum_nonneg. apply Forall_forall. intros x Hx.
  apply in_map_iff in Hx. destruct Hx as (s & <- & Hs). rewrite Forall_forall in H.
  apply lsum_nonneg. apply Forall_forall. intros y Hy.
  apply in_map_iff in Hy. destruct Hy as (p & <- & Hp).
  apply RInt_ge_0; auto.
  - set (u := fun a => base_coeff d (d + a) * coef p (d + a)).
    eexists. eapply is_RInt_ext; [|apply (is_RInt_square (length p - d) u (s_time s))].
    intros t _. simpl. rewrite <- poly_evaluate_Derive_n, poly_evaluate_rsum. reflexivity.
  - intros. apply pow2_ge_0.
Qed.

Lemma combine_times_segs inv N D vs d o dp : ready inv N D vs d o ->
  o_times (update_segments N dp o) = map s_time (the_segs N o dp).
Proof. intros RD. simpl. symmetry. apply (the_segs_times inv N D vs d o RD). Qed.

Lemma cost_energy_use inv qr N D vs d o o' : valid_size N -> opt_use inv qr N D vs d o ->
  (exists dp, set_free N dp o = Some o') \/ o' = solve_linear qr N o ->
  compute_cost N o' = energy d (o_segs o').
Proof.
  intros V U H. pose proof (opt_use_ready _ _ _ _ _ _ _ U) as RD.
  assert (U' : opt_use inv qr N D vs d o').
  { destruct H as [(dp & H)| ->]; [eapply use_free; eauto|apply use_solve; auto]. }
  rewrite (cost_any inv qr N D vs d o' V U').
  assert (X : exists dp, o' = update_segments N dp o).
  { destruct H as [(dp & H)| ->].
    - destruct (set_free_inv _ _ _ _ H) as (-> & _). eauto.
    - destruct (solve_linear_dp inv qr N D vs d o RD) as (dp & -> & _). eauto. }
  destruct X as (dp & ->).
  rewrite (combine_times_segs inv N D vs d o dp RD). apply energy_times.
Qed.

(** ** Optimality *)

Lemma opt_use_dp inv qr N D vs d o : opt_use inv qr N D vs d o ->
  Forall (fun v => length v = O \/ length v = length (o_free o)) (o_dp o).
Proof.
  intros U. induction U.
  - unfold setup in H. destruct (_ && _); [|discriminate].
    unfold update_times in H. simpl in H. destruct (_ && _); [|discriminate].
    inversion H; subst o; simpl. apply Forall_forall. intros v Hv.
    apply repeat_spec in Hv. subst. auto.
  - unfold update_times in H. destruct (_ && _); [|discriminate]. inversion H; subst o'; simpl. auto.
  - destruct (set_free_inv _ _ _ _ H) as (-> & _ & F). simpl.
    eapply Forall_impl; [|exact F]. auto.
  - unfold solve_linear. destruct (length (o_free o) =? 0)%nat; simpl; auto.
    apply Forall_forall. intros v Hv. apply in_map_iff in Hv. destruct Hv as (x & <- & _).
    rewrite map_length, seq_length. auto.
Qed.

Lemma solve_optimal inv qr N D vs d o : exact_inverse inv -> exact_solver qr -> valid_size N ->
  (2 <= length vs)%nat -> opt_use inv qr N D vs d o -> usable_times (o_times o) ->
  forall segs, interpolates N D vs (o_times o) segs -> smooth (N / 2) segs ->
  energy d (o_segs (solve_linear qr N o)) <= energy d segs.
Proof.
  intros HI HQ V H2 U UT segs I S. pose proof (opt_use_ready _ _ _ _ _ _ _ U) as RD.
  pose proof (rd_len _ _ _ _ _ _ RD) as L.
  pose proof (segs_complete inv N D vs d o HI V RD UT segs ltac:(lia) I S) as C.
  rewrite <- C.
  apply (solve_minimal inv N D vs d o V RD qr); auto.
  - unfold free_of. rewrite map_length, seq_length. reflexivity.
  - apply Forall_forall. intros v Hv. unfold free_of in Hv. apply in_map_iff in Hv.
    destruct Hv as (x & <- & _). apply map_length.
  - apply (rd_dp _ _ _ _ _ _ RD).
  - intros Z. pose proof (opt_use_dp _ _ _ _ _ _ _ U) as F. eapply Forall_impl; [|exact F].
    simpl. intros v [?|?]; lia.
Qed.

(** ** Segment times of vertices *)

Lemma pairwise_forall {A B} (f : A -> A -> B) (P : B -> Prop) l :
  (forall i a b, nth_error l i = Some a -> nth_error l (S i) = Some b -> P (f a b)) <->
  Forall P (pairwise f l).
Proof.
  split.
  - intros H. apply Forall_forall. intros y Hy. apply In_nth_error in Hy. destruct Hy as (i & Hy).
    assert (Hi : (i < length (pairwise f l))%nat) by (apply nth_error_Some; congruence).
    rewrite length_pairwise in Hi.
    destruct (nth_error l i) as [a|] eqn:Ea; [|apply nth_error_None in Ea; lia].
    destruct (nth_error l (S i)) as [b|] eqn:Eb; [|apply nth_error_None in Eb; lia].
    rewrite (nth_pairwise f l i a b Ea Eb) in Hy. inversion Hy; subst. eauto.
  - intros H i a b Ha Hb. rewrite Forall_forall in H. apply H.
    eapply nth_error_In. eapply nth_pairwise; eauto.
Qed.

Lemma nfabian_pos_iff v_max a_max a b : 0 < v_max -> 0 < a_max ->
  0 < nfabian_time v_max a_max a b <->
  (vec_norm (vec_sub (pos_of b) (pos_of a)) <> 0 \/ at_rest a = true \/ at_rest b = true).
Proof.
  intros Hv Ha. pose proof (vec_norm_nonneg (vec_sub (pos_of b) (pos_of a))) as P.
  assert (Q : 0 < v_max / a_max) by (apply Rdiv_lt_0_compat; auto).
  unfold nfabian_time. set (x := vec_norm _) in *.
  assert (Q2 : 0 <= x / v_max) by (apply Rmult_le_pos; [auto|left; apply Rinv_0_lt_compat; auto]).
  destruct (at_rest a); simpl; [split; [auto|intros; lra]|].
  destruct (at_rest b); simpl; [split; [auto|intros; lra]|].
  split.
  - intros H. left. intros E. rewrite E in H. unfold Rdiv in H. lra.
  - intros [H|[H|H]]; try discriminate. apply Rdiv_lt_0_compat; auto. lra.
Qed.

Lemma vec_sub_norm_iff p q : length p = length q -> vec_norm (vec_sub p q) = 0 <-> p = q.
Proof.
  intros L. split.
  - intros H. apply (nth_ext p q 0 0 L). intros i Hi.
    destruct (Req_dec (nth i p 0) (nth i q 0)) as [|Ne]; auto. exfalso.
    assert (P : 0 < vec_norm (vec_sub p q)).
    { apply vec_norm_pos. exists i. rewrite vec_sub_nth by auto. lra. }
    lra.
  - intros ->. apply vec_norm_zero. intros i. rewrite vec_sub_nth by auto. lra.
Qed.

Lemma cost_nonneg inv qr N D vs d o : valid_size N -> opt_use inv qr N D vs d o -> 0 <= compute_cost N o.
Proof.
  intros V U. rewrite (cost_any inv qr N D vs d o V U).
  pose proof (rd_pos _ _ _ _ _ _ (opt_use_ready _ _ _ _ _ _ _ U)) as P. rewrite Forall_forall in P.
  apply lsum_nonneg. apply Forall_forall. intros x Hx.
  apply in_map_iff in Hx. destruct Hx as ((s, T) & <- & Hs). apply in_combine_r in Hs.
  assert (E : forall p, 0 <= RInt (fun t => (Derive_n (pval p) d t) ^ 2) 0 T).
  { intros p. pose proof (energy_nonneg d [mkSeg T O 1 [p]]) as E. unfold energy in E.
    cbn [map s_polys s_time lsum fold_right] in E.
    assert (E0 : Forall (fun s => 0 <= s_time s) [mkSeg T O 1 [p]]) by (constructor; [simpl; left; auto|constructor]).
    specialize (E E0). revert E. match goal with |- 0 <= ?x + 0 + 0 -> _ => generalize x end.
    intros z Hz. lra. }
  apply lsum_nonneg. apply Forall_forall. intros y Hy.
  apply in_map_iff in Hy. destruct Hy as (p & <- & _). apply E.
Qed.
