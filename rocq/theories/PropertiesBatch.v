(** Property theorems: the order of modifications does not matter, their
    grouping into batches can (C103). *)
From Coq Require Import Reals Lra Lia List Bool ZArith Arith.
From Coquelicot Require Import Coquelicot.
From Verif Require Import Base PolyModel PolySpec VertexModel TrajModel TrajSpec
  WaypointModel WaypointSpec WaypointProofs Names DynModel DynSpec DynProofs DynQueue DynMore StopAndGo DynScenario PropertiesDyn PropertiesReq PropertiesTorn.
Import List ListNotations.
Local Open Scope R_scope.
Set Bullet Behavior "Strict Subproofs".

(** ** Specification *)

(** Only calls of modifyWaypoint (or modifyWaypoints, which is several of
    them) that do not ask for a new trajectory. *)
Definition only_modifies (h : list (event * obs)) : Prop := Forall (fun eo => exists n p, fst eo = Modify n p false) h.
(** The background thread is between two rounds, nothing is requested and
    nothing is computed. *)
Definition idle (s : state) : Prop := d_pc s = PTop /\ d_stop s = false /\ d_computing s = false /\ d_flag s = false.
(** From s the background thread alone works until it is between two rounds
    and no modification is pending: s'. *)
Definition settles (post : list vertex -> trajectory -> Prop) (s s' : state) : Prop :=
  exists os, run post s (backs os) s' /\ d_pc s' = PTop /\ d_mod s' = [].
(** A change that is no change or large enough to be noticed. *)
Definition coarse (x : R) : Prop := x = 0 \/ 2 / 100 <= Rabs x.

(** ** What a batch does, whatever its steps *)

(** The published waypoints at the end of the batch under way. *)
Definition fin (s : state) : list waypoint :=
  let t := p_global (d_par s) in
  match d_pc s with
  | PMove [] _ => d_dyn s
  | PMove (m :: ms) i => apply_all t ms (firstn i (d_dyn s) ++ apply_modification t m (skipn i (d_dyn s)))
  | _ => apply_all t (d_mod s) (d_dyn s)
  end.
Definition working (s : state) : Prop :=
  d_stop s = false /\ d_computing s = false /\ d_flag s = false /\
  match d_pc s with PTop | PElse | PApply | PMove _ _ => True | _ => False end.
Lemma move_nth_split t m : forall i ws, (i < length ws)%nat ->
  firstn (S i) (move_nth t m i ws) ++ apply_modification t m (skipn (S i) (move_nth t m i ws)) =
  firstn i ws ++ apply_modification t m (skipn i ws).
Proof.
  induction i as [|i IH]; intros [|w ws] H; cbn [length] in H; try lia.
  - reflexivity.
  - specialize (IH ws ltac:(lia)). cbn [move_nth firstn skipn app] in *. f_equal. exact IH.
Qed.
Lemma work_step s s' o : working s -> step s Back = Ok s' o ->
  working s' /\ fin s' = fin s /\ d_par s' = d_par s /\ d_traj s' = d_traj s.
Proof.
  intros (W1 & W2 & W3 & W4) H. cbn [step] in H. unfold back_step in H.
  assert (M : forall ms, fin (set_pc (PMove ms 0) s) = apply_all (p_global (d_par s)) ms (d_dyn s)).
  { intros [|m ms]; reflexivity. }
  destruct (d_pc s) eqn:EP; try contradiction.
  - rewrite W1, W3 in H. inversion H; subst. unfold working, fin. rewrite EP. cbn. auto.
  - rewrite W2 in H. destruct (d_mod s) eqn:EM; inversion H; subst; unfold working, fin; rewrite EP; cbn; rewrite ?EM; auto 10.
  - inversion H; subst. rewrite M. unfold working, fin. rewrite EP. cbn. auto 10.
  - destruct ms as [|m ms].
    + inversion H; subst. unfold working, fin. rewrite EP. cbn. auto 10.
    + destruct (nth_error (d_dyn s) i) eqn:EN; inversion H; subst.
      * unfold working, fin. rewrite EP. cbn [d_pc d_dyn d_par d_traj d_stop d_computing d_flag set_pc set_regen set_dyn].
        rewrite move_nth_split; [auto 10|]. apply nth_error_Some. congruence.
      * rewrite M. unfold working. cbn [d_pc d_dyn d_par d_traj d_stop d_computing d_flag set_pc]. split; [auto|]. split; [|auto].
        unfold fin. rewrite EP. apply nth_error_None in EN. rewrite firstn_all2, skipn_all2 by lia. cbn [apply_modification map].
        rewrite app_nil_r. reflexivity.
Qed.
Lemma work_run post : forall os s s', working s -> run post s (backs os) s' ->
  working s' /\ fin s' = fin s /\ d_par s' = d_par s /\ d_traj s' = d_traj s.
Proof.
  induction os as [|o os IH]; intros s s' W R; inversion R as [|? ? ? s1 ? ? _ ST R1]; subst; [auto|].
  destruct (work_step s s1 o W ST) as (W1 & E1 & E2 & E3). destruct (IH s1 s' W1 R1) as (W2 & F1 & F2 & F3).
  split; [exact W2|]. split; [congruence|]. split; congruence.
Qed.
Lemma settles_fin post s s' : idle s -> settles post s s' ->
  d_dyn s' = apply_all (p_global (d_par s)) (d_mod s) (d_dyn s) /\ d_par s' = d_par s /\ d_traj s' = d_traj s /\ idle s'.
Proof.
  intros (I1 & I2 & I3 & I4) (os & R & EP & EM).
  destruct (work_run post os s s') as ((W1 & W2 & W3 & _) & F & E1 & E2); [unfold working; rewrite I1; auto|exact R|].
  unfold fin in F. rewrite EP, I1, EM in F. split; [exact F|]. split; [exact E1|]. split; [exact E2|]. repeat split; auto.
Qed.
Lemma settles_exists post s : idle s -> exists s', settles post s s'.
Proof.
  intros (I1 & I2 & I3 & I4). destruct (d_mod s) as [|m ms] eqn:EM.
  - exists s. exists []. split; [constructor|auto].
  - exists (batch_done (set_pc PApply s)). exists ([Quiet; Quiet] ++ batch (set_pc PApply s)). split; [|auto].
    cbn [app]. unfold backs. cbn [map].
    eapply back_ok; [unfold back_step; rewrite I1, I2, I4; reflexivity|].
    eapply back_ok; [unfold back_step; cbn [d_pc set_pc d_mod d_computing]; rewrite EM, I3; reflexivity|].
    change (map (fun o => (Back, o)) (batch (set_pc PApply s))) with (backs (batch (set_pc PApply s))).
    match goal with |- run _ ?a _ _ => replace a with (set_pc PApply s) by (destruct s; reflexivity) end.
    apply batch_solo. reflexivity.
Qed.
(** The calls. *)
Lemma modifies_run post : forall h s s', idle s -> NoDup (map fst (d_mod s)) -> only_modifies h -> run post s h s' ->
  idle s' /\ d_dyn s' = d_dyn s /\ d_par s' = d_par s /\ d_traj s' = d_traj s /\ NoDup (map fst (d_mod s')) /\
  forall n, assoc n (d_mod s') = match last_modified n h with Some p => Some p | None => assoc n (d_mod s) end.
Proof.
  intros h s s' I ND HM R.
  assert (C : collecting post s h s' /\ idle s' /\ d_dyn s' = d_dyn s /\ d_par s' = d_par s /\ d_traj s' = d_traj s).
  { clear ND. revert s I R. induction HM as [|[e o] h (n & p & E) HM IH]; intros s I R; inversion R as [|? ? ? s1 ? ? OK ST R1]; subst.
    - split; [constructor|auto].
    - cbn [fst] in E. subst e. cbn [step] in ST. destruct (todo_locked s) eqn:EL; [discriminate|]. inversion ST; subst.
      destruct (IH (do_modify n p false s)) as (C & I' & E1 & E2 & E3); [destruct I as (? & ? & ? & ?); repeat split; auto|exact R1|].
      split; [|auto]. econstructor; try discriminate; [exact OK| |exact C]. cbn [step]. rewrite EL. reflexivity. }
  destruct C as (C & I' & E1 & E2 & E3). destruct (collecting_queues _ _ _ _ C ND) as (_ & _ & N & A).
  do 4 (split; [assumption|]). split; assumption.
Qed.
(** Both together. *)
Lemma modified post s h s1 s2 : idle s -> d_mod s = [] -> only_modifies h -> run post s h s1 -> settles post s1 s2 ->
  d_dyn s2 = map (fun w => match (if name_eqb (w_name w) no_name then None else last_modified (w_name w) h) with
                           | Some p => wp_move p (p_global (d_par s)) w | None => w end) (d_dyn s) /\
  d_par s2 = d_par s /\ d_traj s2 = d_traj s /\ idle s2 /\ d_mod s2 = [].
Proof.
  intros I EM HM R S. destruct (modifies_run post h s s1 I) as (I1 & E1 & E2 & E3 & N & A); auto.
  { rewrite EM. constructor. }
  destruct (settles_fin post s1 s2 I1 S) as (F1 & F2 & F3 & I2). split.
  - rewrite F1, apply_all_pending by exact N. rewrite E1, E2. apply map_ext. intros w. unfold pending. rewrite A, EM.
    destruct (name_eqb _ _); [reflexivity|]. cbn [assoc]. destruct (last_modified _ _); reflexivity.
  - split; [congruence|]. split; [congruence|]. split; [exact I2|]. destruct S as (? & ? & ? & ?). assumption.
Qed.

(** ** C103: order and grouping of modifications *)

Theorem C103_order :
  forall (post : list vertex -> trajectory -> Prop) (s s1 s2 s1' s2' : state) (h1 h2 : list (event * obs)),
  idle s -> d_mod s = [] -> only_modifies h1 -> only_modifies h2 ->
  run post s h1 s1 -> run post s h2 s2 -> (forall n, last_modified n h1 = last_modified n h2) ->
  settles post s1 s1' -> settles post s2 s2' ->
  dynamic_waypoints s1' = dynamic_waypoints s2' /\ forall t b, eval_refs t b s1' = eval_refs t b s2'.
Proof.
  intros post s s1 s2 s1' s2' h1 h2 I EM M1 M2 R1 R2 EQ S1 S2.
  destruct (modified post s h1 s1 s1' I EM M1 R1 S1) as (D1 & P1 & T1 & _).
  destruct (modified post s h2 s2 s2' I EM M2 R2 S2) as (D2 & P2 & T2 & _).
  assert (D : d_dyn s1' = d_dyn s2').
  { rewrite D1, D2. apply map_ext. intros w. rewrite EQ. reflexivity. }
  split; [unfold dynamic_waypoints; now rewrite D|]. intros t b. unfold eval_refs. rewrite T1, T2, P1, P2, D. reflexivity.
Qed.
(** The background thread does get there. *)
Theorem C103_settles :
  forall (post : list vertex -> trajectory -> Prop) (s s1 : state) (h : list (event * obs)),
  idle s -> d_mod s = [] -> only_modifies h -> run post s h s1 -> exists s1', settles post s1 s1'.
Proof.
  intros post s s1 h I EM M R. apply settles_exists. apply (modifies_run post h s s1); auto. rewrite EM. constructor.
Qed.

Lemma last_modified_app n h1 h2 :
  last_modified n (h1 ++ h2) = match last_modified n h2 with Some q => Some q | None => last_modified n h1 end.
Proof.
  induction h1 as [|[e o] h1 IH]; cbn [app].
  - cbn. destruct (last_modified n h2); reflexivity.
  - destruct e; cbn [last_modified]; rewrite IH; destruct (last_modified n h2); reflexivity.
Qed.
Lemma mod_eval_add sg mu x y t d : coarse x -> coarse y -> coarse (x + y) ->
  mod_eval (mkMod sg mu x) t d + mod_eval (mkMod sg mu y) t d = mod_eval (mkMod sg mu (x + y)) t d.
Proof.
  assert (K : forall z, coarse z -> mod_eval (mkMod sg mu z) t d = if Rltb (7 / 2 * sg) (Rabs (t - mu)) then 0 else mod_eval (mkMod sg mu 1) t d * z).
  { intros z HZ. unfold mod_eval. cbn [m_inc m_sigma m_mu]. rewrite Rabs_R1.
    destruct (Rltb (7 / 2 * sg) (Rabs (t - mu))); [rewrite orb_true_r; reflexivity|]. rewrite !orb_false_r.
    replace (Rltb 1 (2 / 100)) with false by (symmetry; rcase; [lra|reflexivity]).
    destruct HZ as [-> |HZ]; [rewrite Rabs_R0; rcase; [ring|lra]|]. rcase; [lra|ring]. }
  intros HX HY HS. rewrite (K x), (K y), (K (x + y)) by assumption. destruct (Rltb _ _); ring.
Qed.
Lemma move_twice w p q t g d : 0 < t ->
  (forall i, coarse (v3_nth i p - v3_nth i (w_cur w)) /\ coarse (v3_nth i q - v3_nth i p) /\ coarse (v3_nth i q - v3_nth i (w_cur w))) ->
  wp_compensation (wp_move q t (wp_move p t w)) g d = wp_compensation (wp_move q t w) g d.
Proof.
  intros HT HC. unfold wp_move, axis_modifier. rcase; [|lra]. unfold wp_compensation. cbn [w_mods w_cur w_time]. rewrite !fold_left_app. cbn [fold_left].
  set (X := fold_left _ _ _). unfold mod3_eval. cbn [m_x m_y m_z].
  assert (K : forall i mu sg, mod_eval (mkMod sg mu (v3_nth i p - v3_nth i (w_cur w))) g d + mod_eval (mkMod sg mu (v3_nth i q - v3_nth i p)) g d =
    mod_eval (mkMod sg mu (v3_nth i q - v3_nth i (w_cur w))) g d).
  { intros i mu sg. destruct (HC i) as (H1 & H2 & H3).
    replace (v3_nth i q - v3_nth i (w_cur w)) with ((v3_nth i p - v3_nth i (w_cur w)) + (v3_nth i q - v3_nth i p)) in * by ring.
    apply mod_eval_add; assumption. }
  unfold v3_add. cbn [vx vy vz]. pose proof (K 0%nat) as KX. pose proof (K 1%nat) as KY. pose proof (K 2%nat) as KZ. cbn [v3_nth] in KX, KY, KZ.
  rewrite <- KX, <- KY, <- KZ. f_equal; ring.
Qed.
Lemma eval_same tr ws ws' g l d :
  Forall2 (fun w w' => w_name w = w_name w' /\ wp_compensation w g d = wp_compensation w' g d) ws ws' ->
  eval_modified tr ws g l d = eval_modified tr ws' g l d.
Proof.
  intros F. unfold eval_modified. destruct (Rltb 0 g); [|reflexivity].
  match goal with |- fold_left _ _ ?v = _ => generalize v end.
  induction F as [|w w' ws ws' [E1 E2] F IH]; intros v; [reflexivity|]. cbn [fold_left]. unfold named at 2 4. rewrite E1, E2. apply IH.
Qed.

(** The changes h1 take effect as a batch of their own before h2 (s, sa, sb), or
    all take effect together (s, sc). *)
Theorem C103_grouping :
  forall (post : list vertex -> trajectory -> Prop) (s s1 sa s2 sb s3 sc : state) (h1 h2 : list (event * obs)),
  idle s -> d_mod s = [] -> only_modifies h1 -> only_modifies h2 ->
  run post s h1 s1 -> settles post s1 sa -> run post sa h2 s2 -> settles post s2 sb ->
  run post s (h1 ++ h2) s3 -> settles post s3 sc ->
  0 < p_global (d_par s) ->
  (forall w p q i, In w (dynamic_waypoints s) -> last_modified (w_name w) h1 = Some p -> last_modified (w_name w) h2 = Some q ->
     coarse (v3_nth i p - v3_nth i (w_cur w)) /\ coarse (v3_nth i q - v3_nth i p) /\ coarse (v3_nth i q - v3_nth i (w_cur w))) ->
  map w_cur (dynamic_waypoints sb) = map w_cur (dynamic_waypoints sc) /\ forall t b, eval_refs t b sb = eval_refs t b sc.
Proof.
  intros post s s1 sa s2 sb s3 sc h1 h2 I EM M1 M2 R1 S1 R2 S2 R3 S3 HT HC.
  destruct (modified post s h1 s1 sa I EM M1 R1 S1) as (D1 & P1 & T1 & I1 & EM1).
  destruct (modified post sa h2 s2 sb I1 EM1 M2 R2 S2) as (D2 & P2 & T2 & _).
  destruct (modified post s (h1 ++ h2) s3 sc I EM (proj2 (Forall_app _ _ _) (conj M1 M2)) R3 S3) as (D3 & P3 & T3 & _).
  assert (HC' : forall w p q i, In w (d_dyn s) -> last_modified (w_name w) h1 = Some p -> last_modified (w_name w) h2 = Some q ->
     coarse (v3_nth i p - v3_nth i (w_cur w)) /\ coarse (v3_nth i q - v3_nth i p) /\ coarse (v3_nth i q - v3_nth i (w_cur w))).
  { intros w p q i HI. apply (HC (wp_copy w) p q i). unfold dynamic_waypoints. now apply in_map. }
  assert (F : forall g d, Forall2 (fun w w' => w_cur w = w_cur w' /\ w_name w = w_name w' /\ wp_compensation w g d = wp_compensation w' g d) (d_dyn sb) (d_dyn sc)).
  { intros g d. rewrite D2, D3, D1, P1, map_map. clear HC. revert HC'. generalize (d_dyn s).
    induction l as [|w ws IH]; intros HC; cbn [map]; constructor; [|apply IH; intros; apply HC; auto; right; auto].
    rewrite last_modified_app. specialize (HC w).
    assert (EN : w_name (match (if name_eqb (w_name w) no_name then None else last_modified (w_name w) h1) with
                           | Some p => wp_move p (p_global (d_par s)) w | None => w end) = w_name w).
    { destruct (name_eqb _ _); [reflexivity|]. destruct (last_modified _ h1); [apply move_name|reflexivity]. }
    rewrite EN. destruct (name_eqb (w_name w) no_name) eqn:E0; [auto|].
    destruct (last_modified (w_name w) h2) as [q|] eqn:E2; destruct (last_modified (w_name w) h1) as [p|] eqn:E1; auto.
    split; [rewrite !move_cur; reflexivity|]. split; [rewrite !move_name; reflexivity|]. apply move_twice; [exact HT|].
    intros i. apply HC; auto. left. reflexivity. }
  split.
  - unfold dynamic_waypoints. rewrite !map_map. specialize (F 0 0%nat). clear - F. induction F as [|w w' ws ws' (E & _) F IH]; [reflexivity|]. cbn [map]. rewrite IH. f_equal. exact E.
  - intros t b. unfold eval_refs. rewrite T2, T3, P2, P3, T1, P1. destruct (d_traj s); [|reflexivity].
    assert (G : forall g l d, eval_modified t0 (d_dyn sb) g l d = eval_modified t0 (d_dyn sc) g l d).
    { intros g l d. apply eval_same. specialize (F g d). clear - F. induction F as [|w w' ws ws' (E & E1 & E2) F IH]; constructor; auto. }
    unfold get_references. rewrite !G. reflexivity.
Qed.

(** Without the condition on the changes the grouping is visible: "a" is moved
    by 15 mm and again by 15 mm, in two batches or in one. *)
Definition s0 : state := at1 (95 / 100).
Definition pa1 : V3 := mkV3 (1 + 15 / 1000) 0 0.
Definition pa2 : V3 := mkV3 (1 + 30 / 1000) 0 0.
Definition h_a1 : list (event * obs) := [(Modify name_a pa1 false, Quiet)].
Definition h_a2 : list (event * obs) := [(Modify name_a pa2 false, Quiet)].
Lemma s0_idle : idle s0 /\ d_mod s0 = [] /\ d_par s0 = mkParams (95 / 100 - 0) STEP (95 / 100) 1 0 /\ d_traj s0 = Some tr1 /\ d_dyn s0 = dyn1.
Proof. repeat split. Qed.
Lemma h_only : only_modifies h_a1 /\ only_modifies h_a2.
Proof. split; (constructor; [do 2 eexists; reflexivity|constructor]). Qed.
Lemma one_modify post s n p : idle s -> run post s [(Modify n p false, Quiet)] (do_modify n p false s).
Proof.
  intros (I & _). econstructor; [exact Logic.I| |constructor]. cbn [step]. unfold todo_locked. rewrite I. reflexivity.
Qed.
Lemma two_modifies post s n p q : idle s -> run post s ([(Modify n p false, Quiet)] ++ [(Modify n q false, Quiet)]) (do_modify n q false (do_modify n p false s)).
Proof.
  intros I. eapply run_app; [apply one_modify; exact I|]. apply one_modify. destruct I as (? & ? & ? & ?). repeat split; assumption.
Qed.
Lemma small_comp : v3_nth 0 (wp_compensation (wp_move pa2 (95 / 100) (wp_move pa1 (95 / 100) va)) (95 / 100 + STEP) 0) = 0.
Proof.
  unfold wp_move, axis_modifier. rcase; [|lra]. unfold wp_compensation. cbn [w_mods w_cur w_time va wp_set_time wp_set_index wa fresh map app fold_left].
  unfold mod3_eval. cbn [m_x v3_add v3_zero v3_nth vx]. unfold mod_eval. cbn [m_inc m_sigma m_mu vx pa1 pa2 pa].
  rewrite (Rabs_right (1 + 15 / 1000 - 1)) by lra. rewrite (Rabs_right (1 + 30 / 1000 - (1 + 15 / 1000))) by lra.
  replace (Rltb (1 + 15 / 1000 - 1) (2 / 100)) with true by (symmetry; rcase; [reflexivity|lra]).
  replace (Rltb (1 + 30 / 1000 - (1 + 15 / 1000)) (2 / 100)) with true by (symmetry; rcase; [reflexivity|lra]).
  cbn [orb]. ring.
Qed.
Lemma large_comp : 0 < v3_nth 0 (wp_compensation (wp_move pa2 (95 / 100) va) (95 / 100 + STEP) 0).
Proof.
  rewrite moved_comp by reflexivity. unfold x_mod, mod_eval. cbn [m_x m_inc m_sigma m_mu w_time va wp_set_time vx pa2 w_cur wp_set_index wa fresh pa].
  pose proof STEP_pos. rewrite (Rabs_right (1 + 30 / 1000 - 1)) by lra. rewrite (Rabs_right (95 / 100 + STEP - 1)) by lra.
  unfold STEP in *. rcase; [lra|]. rcase; [lra|]. cbn [orb]. apply Rmult_lt_0_compat; [apply exp_pos|lra].
Qed.
Theorem C103_grouping_refuted :
  exists (h0 h1 h2 : list (event * obs)) (s s1 sa s2 sb s3 sc : state) (t : R) (r r' : references),
    run full_post (init v3_zero) h0 s /\ idle s /\ d_mod s = [] /\ only_modifies h1 /\ only_modifies h2 /\ 0 < p_global (d_par s) /\
    run full_post s h1 s1 /\ settles full_post s1 sa /\ run full_post sa h2 s2 /\ settles full_post s2 sb /\
    run full_post s (h1 ++ h2) s3 /\ settles full_post s3 sc /\
    map w_cur (dynamic_waypoints sb) = map w_cur (dynamic_waypoints sc) /\
    eval_refs t false sb = Some r /\ eval_refs t false sc = Some r' /\ vx (r_pos r) < vx (r_pos r').
Proof.
  destruct s0_idle as (I & EM & EP & ET & ED). destruct h_only as [O1 O2].
  pose proof (one_modify full_post s0 name_a pa1 I) as R1.
  destruct (C103_settles full_post s0 _ h_a1 I EM O1 R1) as [sa Sa].
  destruct (modified full_post s0 h_a1 _ sa I EM O1 R1 Sa) as (D1 & P1 & T1 & I1 & EM1).
  pose proof (one_modify full_post sa name_a pa2 I1) as R2.
  destruct (C103_settles full_post sa _ h_a2 I1 EM1 O2 R2) as [sb Sb].
  destruct (modified full_post sa h_a2 _ sb I1 EM1 O2 R2 Sb) as (D2 & P2 & T2 & _ & _).
  pose proof (two_modifies full_post s0 name_a pa1 pa2 I) as R3. assert (O3 : only_modifies (h_a1 ++ h_a2)) by (apply Forall_app; auto).
  destruct (C103_settles full_post s0 _ (h_a1 ++ h_a2) I EM O3 R3) as [sc Sc].
  destruct (modified full_post s0 (h_a1 ++ h_a2) _ sc I EM O3 R3 Sc) as (D3 & P3 & T3 & _ & _).
  assert (E1 : d_dyn sa = [wp_set_time 0 (wp_set_index 0 wd); wp_move pa1 (95 / 100) va; vb]) by (rewrite D1, ED, EP; reflexivity).
  assert (E2 : d_dyn sb = [wp_set_time 0 (wp_set_index 0 wd); wp_move pa2 (95 / 100) (wp_move pa1 (95 / 100) va); vb]).
  { rewrite D2, E1, P1, EP. cbn [map]. rewrite move_name. reflexivity. }
  assert (E3 : d_dyn sc = [wp_set_time 0 (wp_set_index 0 wd); wp_move pa2 (95 / 100) va; vb]) by (rewrite D3, ED, EP; reflexivity).
  assert (V : forall x, d_traj x = Some tr1 -> d_par x = d_par s0 -> eval_refs (95 / 100) false x =
      Some (mkRefs (ref1 (d_dyn x) 0) (Some (ref1 (d_dyn x) 1)) (Some (ref1 (d_dyn x) 2)))).
  { intros x Hx Px. unfold eval_refs. rewrite Hx, Px, EP. reflexivity. }
  exists (trace1 ++ [(Eval (95 / 100), Quiet)]), h_a1, h_a2, s0, (do_modify name_a pa1 false s0), sa, (do_modify name_a pa2 false sa), sb,
    (do_modify name_a pa2 false (do_modify name_a pa1 false s0)), sc, (95 / 100). do 2 eexists.
  split; [apply run_at1|]. do 4 (split; [assumption|]). split; [rewrite EP; cbn; lra|].
  do 6 (split; [assumption|]).
  split; [unfold dynamic_waypoints; rewrite E2, E3; cbn [map w_cur wp_copy]; rewrite !move_cur; reflexivity|].
  split; [apply V; congruence|]. split; [apply V; congruence|]. cbn [r_pos].
  rewrite !ref1_x, E2, E3 by lia. cbn [filter]. rewrite !move_name.
  change (name_eqb (w_name va) no_name) with false. change (name_eqb (w_name vb) no_name) with false.
  change (name_eqb (w_name (wp_set_time 0 (wp_set_index 0 wd))) no_name) with true. cbn [negb map lsum].
  rewrite small_comp. pose proof large_comp. lra.
Qed.

(** Not vacuous: two orders of the same two moves, and two batches of large moves. *)
Example C103_example : exists s h1 h2 s1 s2 s1' s2', reachable s /\ idle s /\ d_mod s = [] /\ h1 <> h2 /\
  only_modifies h1 /\ only_modifies h2 /\ run full_post s h1 s1 /\ run full_post s h2 s2 /\
  (forall n, last_modified n h1 = last_modified n h2) /\ settles full_post s1 s1' /\ settles full_post s2 s2'.
Proof.
  destruct s0_idle as (I & EM & EP & ET & ED).
  assert (R : forall n p m q, run full_post s0 [(Modify n p false, Quiet); (Modify m q false, Quiet)] (do_modify m q false (do_modify n p false s0))).
  { intros n p m q. econstructor; [exact Logic.I|reflexivity|]. econstructor; [exact Logic.I|reflexivity|constructor]. }
  assert (O : forall n p m q, only_modifies [(Modify n p false, Quiet); (Modify m q false, Quiet)]).
  { intros. constructor; [do 2 eexists; reflexivity|]. constructor; [do 2 eexists; reflexivity|constructor]. }
  destruct (C103_settles full_post s0 _ _ I EM (O name_a pc_ name_b pa) (R name_a pc_ name_b pa)) as [s1' S1].
  destruct (C103_settles full_post s0 _ _ I EM (O name_b pa name_a pc_) (R name_b pa name_a pc_)) as [s2' S2].
  exists s0. do 6 eexists. split; [|split; [exact I|split; [exact EM|split; [|split; [apply O|split; [apply O|
    split; [apply R|split; [apply R|split; [|split; [exact S1|exact S2]]]]]]]]]].
  - eapply full_reachable, run_at1.
  - intros E. inversion E.
  - intros n. cbn [last_modified]. destruct (name_eqb name_a n) eqn:E1; destruct (name_eqb name_b n) eqn:E2; try reflexivity.
    apply name_eqb_eq in E1, E2. subst n. discriminate E2.
Qed.
(** ... and two batches of changes of two and of one metre. *)
Example C103_grouping_example : exists h1 h2 s1 sa s2 sb s3 sc,
  reachable s0 /\ idle s0 /\ d_mod s0 = [] /\ only_modifies h1 /\ only_modifies h2 /\
  run full_post s0 h1 s1 /\ settles full_post s1 sa /\ run full_post sa h2 s2 /\ settles full_post s2 sb /\
  run full_post s0 (h1 ++ h2) s3 /\ settles full_post s3 sc /\ 0 < p_global (d_par s0) /\
  (exists w p q, In w (dynamic_waypoints s0) /\ last_modified (w_name w) h1 = Some p /\ last_modified (w_name w) h2 = Some q) /\
  (forall w p q i, In w (dynamic_waypoints s0) -> last_modified (w_name w) h1 = Some p -> last_modified (w_name w) h2 = Some q ->
     coarse (v3_nth i p - v3_nth i (w_cur w)) /\ coarse (v3_nth i q - v3_nth i p) /\ coarse (v3_nth i q - v3_nth i (w_cur w))).
Proof.
  destruct s0_idle as (I & EM & EP & ET & ED).
  assert (O : forall n p, only_modifies [(Modify n p false, Quiet)]) by (intros; constructor; [do 2 eexists; reflexivity|constructor]).
  pose proof (one_modify full_post s0 name_a pc_ I) as R1.
  destruct (C103_settles full_post s0 _ _ I EM (O name_a pc_) R1) as [sa Sa].
  destruct (modified full_post s0 _ _ sa I EM (O name_a pc_) R1 Sa) as (_ & _ & _ & I1 & EM1).
  pose proof (one_modify full_post sa name_a pb I1) as R2.
  destruct (C103_settles full_post sa _ _ I1 EM1 (O name_a pb) R2) as [sb Sb].
  pose proof (two_modifies full_post s0 name_a pc_ pb I) as R3.
  assert (O3 : only_modifies ([(Modify name_a pc_ false, Quiet)] ++ [(Modify name_a pb false, Quiet)])) by (apply Forall_app; split; apply O).
  destruct (C103_settles full_post s0 _ _ I EM O3 R3) as [sc Sc].
  do 8 eexists. split; [eapply full_reachable, run_at1|]. split; [exact I|]. split; [exact EM|]. split; [apply (O name_a pc_)|].
  split; [apply (O name_a pb)|]. split; [exact R1|]. split; [exact Sa|]. split; [exact R2|]. split; [exact Sb|].
  split; [exact R3|]. split; [exact Sc|]. split; [rewrite EP; cbn; lra|]. unfold dynamic_waypoints. rewrite ED. split.
  - exists (wp_copy va), pc_, pb. split; [right; left; reflexivity|]. split; reflexivity.
  - intros w p q i [<-|[<-|[<-|[]]]] E1 E2; cbn in E1, E2; try discriminate. inversion E1; subst. inversion E2; subst.
    unfold coarse. destruct i as [|[|i]]; cbn.
    + rewrite (Rabs_right (3 - 1)), (Rabs_right (2 - 1)), (Rabs_left (2 - 3)) by lra. repeat split; right; lra.
    + repeat split; left; lra.
    + repeat split; left; lra.
Qed.
Print Assumptions C103_order.
Print Assumptions C103_settles.
Print Assumptions C103_grouping.
Print Assumptions C103_grouping_refuted.
