(** The optimisers meet the contract that the execution model assumed. *)
From Coq Require Import Reals Lra Lia List Bool ZArith Arith.
From Coquelicot Require Import Coquelicot.
From Verif Require Import Base PolyModel PolySpec VertexModel VertexProofs TrajModel TrajSpec TrajProofs
  WaypointModel WaypointProofs DynModel DynSpec DynProofs
  LinOptModel LinOptSpec LinProofs LinFinal PropertiesLin NonlinModel NonlinSpec NonlinProofs NonlinFinal PropertiesNonlin
  FloatModel ComputeModel ComputeSpec.
Import List ListNotations.
Set Bullet Behavior "Strict Subproofs".
Local Open Scope R_scope.

(* ------------------------------------------------------------------ *)
(** ** From interpolation to the contract *)

Lemma interpolates_meets vs tr times :
  interpolates 10 3 vs times (t_segs tr) -> smooth 5 (t_segs tr) -> traj_wf tr -> t_D tr = 3%nat ->
  positive_times tr -> t_segs tr <> [] ->
  (forall v k c, In v vs -> get_constraint k v = Some c -> (k <= 4)%nat) ->
  full_post vs tr.
Proof.
  intros (_ & L & _ & I) Sm W D P Ne Low. split; [|split].
  - split; auto.
  - intros i v k c Hv Hc. assert (Hk : (k < 10 / 2)%nat).
    { pose proof (Low v k c (nth_error_In _ _ Hv) Hc). simpl. lia. }
    assert (Hi : (i < length vs)%nat) by (apply nth_error_Some; congruence).
    destruct (Nat.lt_ge_cases i (length (t_segs tr))) as [H|H].
    + destruct (nth_error (t_segs tr) i) as [s|] eqn:Es; [|apply nth_error_None in Es; lia].
      destruct (nth_error vs (S i)) as [v'|] eqn:Ev'; [|apply nth_error_None in Ev'; lia].
      rewrite (traj_evaluate_segment tr i s); auto; [|lra|].
      * rewrite Rminus_diag_eq by auto. f_equal. eapply I; eauto.
      * left. rewrite (start_of_S _ _ _ Es). pose proof (Forall_forall (fun s => 0 < s_time s) (t_segs tr)) as [F _].
        specialize (F P s (nth_error_In _ _ Es)). simpl in F. lra.
    + assert (Ei : i = length (t_segs tr)) by lia. destruct i as [|i].
      { destruct (t_segs tr); [congruence|simpl in Ei; lia]. }
      destruct (nth_error (t_segs tr) i) as [s|] eqn:Es; [|apply nth_error_None in Es; lia].
      destruct (nth_error vs i) as [v0|] eqn:Ev0; [|apply nth_error_None in Ev0; lia].
      assert (Em : start_of tr (S i) = t_max tr).
      { unfold start_of. rewrite Ei, firstn_all. symmetry. apply W. }
      pose proof (start_of_S _ _ _ Es) as E1.
      assert (Ps : 0 < s_time s).
      { unfold positive_times in P. rewrite Forall_forall in P. apply P. eapply nth_error_In; eauto. }
      rewrite (traj_evaluate_segment tr i s); auto; [|lra].
      f_equal. replace (start_of tr (S i) - start_of tr i) with (s_time s) by lra. eapply I; eauto.
  - intros k s s' Hs Hs' j Hj. eapply Sm; eauto. lia.
Qed.

Lemma solved_post inv qr vs o tr : exact_inverse inv -> solved inv qr 10 3 vs 2 o -> (2 <= length vs)%nat ->
  vertices_dim 3 vs -> usable_times (o_times o) ->
  (forall v k c, In v vs -> get_constraint k v = Some c -> (k <= 4)%nat) ->
  get_trajectory o = Some tr -> full_post vs tr.
Proof.
  intros HI S H2 VD UT Low E.
  destruct (solved_interpolates inv qr 10 3 vs 2 valid_10 o S HI VD UT) as [I Sm].
  assert (W : Forall seg_wf (o_segs o)).
  { destruct I as (_ & _ & F & _). eapply Forall_impl; [|exact F]. simpl. tauto. }
  destruct (set_segments_wf _ _ W E) as (WT & Es & Ne).
  assert (D : t_D tr = 3%nat).
  { destruct WT as [F _]. rewrite Es in F. destruct I as (_ & _ & G & _).
    destruct (o_segs o) as [|g gs]; [congruence|]. inversion F as [|? ? (_ & A & _) _]; subst.
    inversion G as [|? ? (_ & _ & B) _]; subst. congruence. }
  pose proof (solved_positive inv qr 10 3 vs 2 o S) as P.
  rewrite <- Es in I, Sm, P, Ne. eapply interpolates_meets; eauto.
Qed.

Lemma solved_trajectory inv qr vs o : solved inv qr 10 3 vs 2 o -> (2 <= length vs)%nat ->
  exists tr, get_trajectory o = Some tr.
Proof.
  intros S H2. pose proof (solved_use _ _ _ _ _ _ _ S) as U.
  destruct (opt_use_segs _ _ _ _ _ _ _ U) as [_ F].
  destruct (set_segments_defined (fun _ => []) 10 3 [] valid_10 (o_segs o)) as (tr & E & _); eauto.
  apply (use_segs_ne inv qr 10 3 vs 2 H2); auto.
Qed.

(* ------------------------------------------------------------------ *)
(** ** computeTrajectory *)

Lemma A_MAX_pos : 0 < A_MAX.
Proof. unfold A_MAX. lra. Qed.

Lemma configure_configured inv vs times v s : configure_nonlinear inv vs times v = Some s ->
  configured inv 10 3 generator_params vs times 2 s /\ orders_ok 10 s.
Proof.
  unfold configure_nonlinear. destruct (nl_setup _ _ _ _ _ _ _) as [s0|] eqn:E0; [|discriminate].
  destruct (add_max_constraint 1 v s0) as [s1|] eqn:E1; [|discriminate]. intros E2. split.
  - eapply conf_add; [eapply conf_add; [eapply conf_setup; exact E0|exact E1]|exact E2].
  - unfold nl_setup in E0. destruct (setup _ _ _ _ _ _); [|discriminate]. inversion E0; subst s0.
    unfold add_max_constraint in *. destruct (Rltb v 0); [discriminate|]. inversion E1; subst s1.
    destruct (Rltb A_MAX 0); [discriminate|]. inversion E2; subst s. unfold orders_ok. simpl.
    repeat (apply Forall_cons; [simpl; lia|]). apply Forall_nil.
Qed.
Lemma configure_defined inv vs times v : 0 < v ->
  ((exists s, configure_nonlinear inv vs times v = Some s) <-> exists o, setup inv 10 3 vs times 2 = Some o).
Proof.
  intros Hv. unfold configure_nonlinear, nl_setup. destruct (setup inv 10 3 vs times 2) as [o|].
  - unfold add_max_constraint. pose proof A_MAX_pos. rcase; [lra|]. rcase; [lra|]. split; intros _; eauto.
  - split; intros [x E]; discriminate.
Qed.

Section Compute.
Variables (find_roots : list R -> list croot) (inv : inverse_routine) (qr : solve_routine).
Hypothesis HI : exact_inverse inv.

Lemma nonlinear_post xs vs times v : 0 < v -> (2 <= length vs)%nat -> vertices_dim 3 vs ->
  (forall w k c, In w vs -> get_constraint k w = Some c -> (k <= 4)%nat) ->
  usable_times times -> (exists o, setup inv 10 3 vs times 2 = Some o) ->
  (forall s, configure_nonlinear inv vs times v = Some s -> allowed qr 10 s xs) ->
  exists tr, nonlinear_result find_roots inv qr xs vs times v = Val tr /\ full_post vs tr.
Proof.
  intros Hv H2 VD Low UT So A. apply (configure_defined inv vs times v Hv) in So. destruct So as (s & E).
  unfold nonlinear_result. rewrite E. destruct (configure_configured _ _ _ _ _ E) as [C OK].
  destruct (optimize_spec find_roots inv qr 10 3 vs 2 generator_params times valid_10 H2 xs false s C OK) as
    (s' & E' & _ & _ & _ & _ & NB & S & _); [discriminate|auto|].
  rewrite E'. assert (S' : solved inv qr 10 3 vs 2 (nl_opt s')) by (apply S; right; left; reflexivity).
  destruct (solved_trajectory inv qr vs _ S' H2) as (tr & Et). rewrite Et.
  exists tr. split; auto. eapply solved_post; eauto. eapply not_below_usable; eauto.
Qed.
Lemma linear_post vs times : (2 <= length vs)%nat -> vertices_dim 3 vs ->
  (forall w k c, In w vs -> get_constraint k w = Some c -> (k <= 4)%nat) ->
  usable_times times -> (exists o, setup inv 10 3 vs times 2 = Some o) ->
  exists tr, linear_result inv qr vs times = Val tr /\ full_post vs tr.
Proof.
  intros H2 VD Low UT (o & E). unfold linear_result. rewrite E.
  assert (U : opt_use inv qr 10 3 vs 2 o) by (eapply use_setup; eauto).
  assert (Et : o_times o = times).
  { eapply setup_ready; eauto. }
  assert (S' : solved inv qr 10 3 vs 2 (solve_linear qr 10 o)).
  { exists o. split; auto. split; [apply solve_times|auto]. }
  destruct (solved_trajectory inv qr vs _ S' H2) as (tr & Er). rewrite Er.
  exists tr. split; auto. eapply solved_post; eauto. rewrite solve_times, Et. auto.
Qed.
End Compute.

(* ------------------------------------------------------------------ *)
(** ** Vertices of the waypoints *)

Lemma set_cons_good k p v : vertex_good v -> (k <= 4)%nat -> vertex_good (set_cons k p v).
Proof.
  intros (D & (q & Q) & F) Hk. split; [exact D|]. split.
  - destruct (Nat.eq_dec k 0) as [-> |H]; [rewrite get_set_same; eauto|].
    rewrite get_set_other by lia. eauto.
  - intros j c. destruct (Nat.eq_dec j k) as [-> |H].
    + rewrite get_set_same. intros E. inversion E; subst. split; auto.
    + rewrite get_set_other by auto. apply F.
Qed.
Lemma set_position_good p v : v_D v = 3%nat -> v_cons v = [] -> vertex_good (set_cons 0 p v).
Proof.
  intros D E. split; [exact D|]. split; [rewrite get_set_same; eauto|].
  intros j c. destruct (Nat.eq_dec j 0) as [-> |H].
  - rewrite get_set_same. intros X. inversion X; subst. split; [lia|reflexivity].
  - rewrite get_set_other by auto. unfold get_constraint. rewrite E. discriminate.
Qed.
Lemma good_ok w : wp_good w -> wp_ok w.
Proof. intros (D & (p & E) & F). split; auto. exists p. split; auto. apply (F 0%nat p E). Qed.

Lemma good_copy w : wp_good w -> wp_good (wp_copy w). Proof. auto. Qed.
Lemma good_reset w : wp_good w -> wp_good (wp_reset w).
Proof. intros G. apply set_cons_good; [exact G|lia]. Qed.
Lemma good_reset_to p w : wp_good w -> wp_good (wp_reset_to p w).
Proof. intros G. apply set_cons_good; [exact G|lia]. Qed.
Lemma good_move p t w : wp_good w -> wp_good (wp_move p t w).
Proof. intros G. unfold wp_good. rewrite move_vertex. apply set_cons_good; [exact G|lia]. Qed.
Lemma good_stitch1 p : wp_good (stitch_waypoint [p]).
Proof. apply set_position_good; reflexivity. Qed.
Lemma good_stitch3 p q r : wp_good (stitch_waypoint [p; q; r]).
Proof.
  unfold wp_good, stitch_waypoint, stitch_vertex. cbn [w_vertex length seq combine fold_left fst snd].
  apply set_cons_good; [|lia]. apply set_cons_good; [|lia]. apply set_position_good; reflexivity.
Qed.
Lemma good_drone p : wp_good (drone_waypoint p).
Proof.
  unfold drone_waypoint, wp_good. cbn [w_vertex wp_set_constraint].
  apply set_cons_good; [|lia]. apply set_cons_good; [|lia]. apply set_position_good; reflexivity.
Qed.
Lemma goods_copy ws : Forall wp_good ws -> Forall wp_good (map wp_copy ws).
Proof. intros H. apply Forall_map. eapply Forall_impl; [|exact H]. auto. Qed.
Lemma goods_reset_all ms ws : Forall wp_good ws ->
  Forall wp_good (fold_left (fun ws (m : name * V3) => reset_named (fst m) (snd m) ws) ms ws).
Proof.
  revert ws; induction ms as [|m ms IH]; simpl; intros ws H; auto. apply IH. unfold reset_named.
  destruct (name_eqb (fst m) no_name); auto. apply Forall_map.
  eapply Forall_impl; [|exact H]. intros w Hw. cbv beta. destruct (name_eqb _ _); auto using good_reset_to.
Qed.
Lemma goods_next s : Forall wp_good (d_dyn s) -> Forall wp_good (d_set s) -> Forall wp_good (d_add s) ->
  Forall wp_good (next_waypoints s).
Proof.
  intros Hd Hs Ha. unfold next_waypoints. apply goods_reset_all. apply Forall_app. split; [|now apply goods_copy].
  destruct (d_set s) eqn:E; [|rewrite <- E in *; apply goods_copy; auto].
  apply Forall_map. eapply Forall_impl; [intros w; apply good_reset|].
  apply Forall_filter_ok. now apply goods_copy.
Qed.
Lemma goods_move t m i ws : Forall wp_good ws -> Forall wp_good (move_nth t m i ws).
Proof.
  revert i. induction ws as [|w ws IH]; intros [|i] H; cbn [move_nth]; auto; inversion H; subst; constructor; auto.
  destruct (applies _ _); auto using good_move.
Qed.
Lemma goods_stitch tr s : Forall wp_good (d_next s) -> Forall wp_good (stitch_waypoints tr s).
Proof.
  intros H. unfold stitch_waypoints. constructor; [apply good_stitch3|]. constructor; [apply good_stitch1|].
  apply goods_copy. now apply Forall_filter_ok.
Qed.
Lemma goods_retime segs g ws : forall i ws', retime segs g i ws = Some ws' -> Forall wp_good ws -> Forall wp_good ws'.
Proof.
  induction ws as [|w ws IH]; intros i ws' E F; cbn [retime] in E.
  - inversion E. constructor.
  - destruct (cumulative_time segs i); [|discriminate].
    destruct (retime segs g (S i) ws) as [l|] eqn:El; [|discriminate]. inversion E; subst.
    inversion F; subst. constructor; [assumption|]. eapply IH; eauto.
Qed.
Lemma goods_extract ws vs : Forall wp_good ws -> extract_vertices ws = Some vs -> Forall vertex_good vs.
Proof.
  unfold extract_vertices. destruct ws as [|w ws]; [discriminate|]. intros F E.
  assert (vs = removelast (map w_vertex (w :: ws)) ++ [at_rest_end (last (map w_vertex (w :: ws)) (vertex_new 3))]) by congruence.
  subst vs. clear E. assert (G : Forall vertex_good (map w_vertex (w :: ws))) by (apply Forall_map; exact F).
  rewrite (app_removelast_last (vertex_new 3)) in G by discriminate. apply Forall_app in G. destruct G as [G1 G2].
  apply Forall_app. split; auto. constructor; [|constructor]. inversion G2; subst.
  unfold at_rest_end. apply set_cons_good; [|lia]. apply set_cons_good; [assumption|lia].
Qed.

Definition goods (s : state) : Prop :=
  Forall wp_good (d_dyn s) /\ Forall wp_good (d_next s) /\ Forall wp_good (d_add s) /\ Forall wp_good (d_set s).

Lemma goods_back s s' o : goods s -> back_step s = Ok s' o -> goods s'.
Proof.
  intros (A & B & C & D) H. unfold back_step in H. destruct (d_pc s).
  1-3, 5-7, 10, 12: repeat match type of H with context [if ?b then _ else _] => destruct b end;
    inversion H; subst; unfold goods; cbn; auto.
  - pose proof (goods_next s A D C) as G. destruct (next_waypoints s) as [|w ws]; inversion H; subst; unfold goods; cbn; auto.
  - destruct (d_traj s) as [tr|]; inversion H; subst. unfold goods; cbn. pose proof (goods_stitch tr s B). auto.
  - inversion H; subst. unfold goods; cbn. repeat split; auto. constructor; auto. apply good_drone.
  - destruct (d_fut_locked s); inversion H; subst; unfold goods; cbn; auto.
  - destruct (d_mod s); inversion H; subst; unfold goods; cbn; auto.
  - inversion H; subst. unfold goods; cbn. auto.
  - destruct ms as [|m ms]; [|destruct (nth_error (d_dyn s) i)]; inversion H; subst; unfold goods; cbn; auto.
    pose proof (goods_move (p_global (d_par s)) m i _ A). auto.
  - discriminate.
Qed.
Lemma goods_step find_roots inv qr s e s' o : goods s -> code_ok find_roots inv qr s e -> step s e = Ok s' o -> goods s'.
Proof.
  intros G K H. pose proof G as (A & B & C & D). destruct e; cbn [step] in H; unblock H; cbn [code_ok] in K.
  1-4, 8-11: inversion H; subst; unfold goods; cbn; auto.
  - repeat split; auto. now apply goods_copy.
  - repeat split; auto. apply Forall_app. split; auto. 
  - unfold do_poll in H. destruct (d_fut_locked s); [discriminate|].
    assert (X : forall tr x, do_swap tr s = Some x -> goods x).
    { intros tr x E. unfold do_swap in E. destruct (if d_scratch s then _ else _); [|discriminate].
      inversion E; subst. unfold goods; cbn. pose proof (goods_copy _ B). auto. }
    destruct (d_traj s), (d_fut s); try discriminate; try (inversion H; subst; auto; fail);
      destruct (d_computing s); try discriminate; try (inversion H; subst; auto; fail);
      (destruct (do_swap tr s) eqn:E + destruct (do_swap tr0 s) eqn:E + idtac); try discriminate; inversion H; subst; eauto.
  - destruct (d_late s); inversion H; subst; unfold goods; cbn; auto.
  - destruct (d_traj s); inversion H; subst; unfold goods; cbn; auto.
  - eapply goods_back; eauto.
  - destruct (torn_cases s zone s' o H) as (-> & _). unfold goods; cbn; auto.
  - unfold comp_speed in H. destruct (d_fut s); try discriminate. destruct (extract_vertices _); [|discriminate].
    destruct (_ <? _)%nat; inversion H; subst; unfold goods; cbn; auto.
  - unfold comp_done in H. destruct (d_fut s); try discriminate. destruct (retime _ _ _ _) eqn:E; inversion H; subst; unfold goods; cbn; auto.
    repeat split; auto. eapply goods_retime; eauto.
  - contradiction.
Qed.
