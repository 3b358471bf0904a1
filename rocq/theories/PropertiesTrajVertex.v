(** Property theorems: the vertices of a trajectory (C86). *)
From Coq Require Import Reals Lra Lia List Bool ZArith Arith.
From Coquelicot Require Import Coquelicot.
From Verif Require Import Base PolyModel PolySpec VertexModel VertexSpec VertexProofs TrajModel TrajSpec TrajProofs
  RangeProofs Examples TrajVertexModel DynSpec.
Import List ListNotations.
Local Open Scope R_scope.
Set Bullet Behavior "Strict Subproofs".

Lemma evaluate_length tr t d : traj_wf tr -> positive_times tr -> t_segs tr <> [] -> 0 <= t <= t_max tr ->
  exists v, traj_evaluate tr t d = Some v /\ length v = t_D tr.
Proof.
  intros W P N [H0 H1].
  assert (HX : exists k s, nth_error (t_segs tr) k = Some s /\ start_of tr k <= t /\
     (t < start_of tr (S k) \/ (S k = length (t_segs tr) /\ t = t_max tr))).
  { destruct (Rlt_dec t (t_max tr)) as [HL|HL].
    - assert (HK : forall n, t < start_of tr n -> (n <= length (t_segs tr))%nat ->
        exists k s, nth_error (t_segs tr) k = Some s /\ start_of tr k <= t < start_of tr (S k)).
      { induction n as [|n IH]; intros HN HLn.
        - unfold start_of in HN. cbn in HN. lra.
        - destruct (Rlt_dec t (start_of tr n)) as [H|H]; [apply IH; [auto|lia]|].
          destruct (nth_error (t_segs tr) n) as [s|] eqn:E; [|apply nth_error_None in E; lia].
          exists n, s. split; [auto|]. split; [lra|auto]. }
      destruct (HK (length (t_segs tr))) as (k & s & A & B & C); [rewrite (start_of_all tr W); auto|auto|].
      exists k, s. auto.
    - destruct (t_segs tr) as [|s0 r] eqn:ES; [congruence|]. rewrite <- ES in *.
      destruct (nth_error (t_segs tr) (length (t_segs tr) - 1)) as [s|] eqn:E.
      2:{ apply nth_error_None in E. rewrite ES in E. cbn in E. lia. }
      exists (length (t_segs tr) - 1)%nat, s. split; [auto|]. split.
      + assert (start_of tr (length (t_segs tr) - 1) <= t_max tr) by (apply start_of_le_max; auto). lra.
      + right. split; [rewrite ES; cbn; lia|lra]. }
  destruct HX as (k & s & HK & HA & HB). exists (seg_deriv s d (t - start_of tr k)).
  split; [apply traj_evaluate_segment; auto|]. unfold seg_deriv. rewrite map_length.
  destruct W as [W _]. rewrite Forall_forall in W. destruct (W s) as ([A _] & B & _); [eapply nth_error_In; eauto|].
  rewrite <- B. exact A.
Qed.

Lemma vertex_at_spec tr t n : (forall k, exists v, traj_evaluate tr t k = Some v /\ length v = t_D tr) ->
  exists v, vertex_at_loop tr t n = Some v /\ vertex_inv (t_D tr) v /\
    forall k, get_constraint k v = if (k <? n)%nat then traj_evaluate tr t k else None.
Proof.
  intros HE. induction n as [|n (v & E & I & G)].
  - exists (vertex_new (t_D tr)). split; [reflexivity|]. split.
    + unfold vertex_inv. split; [reflexivity|]. split; [constructor|]. intros k c H. discriminate.
    + intros k. reflexivity.
  - destruct (HE n) as (x & EX & LX). destruct I as (ID & IS & IL). cbn [vertex_at_loop]. rewrite E, EX.
    unfold add_constraint. rewrite ID, LX, Nat.eqb_refl. eexists. split; [reflexivity|]. split.
    + unfold vertex_inv. cbn [v_D v_cons]. split; [reflexivity|]. split; [apply sorted_set; auto|].
      intros k c H. unfold get_constraint in H. cbn [v_cons] in H. rewrite find_set in H by auto.
      destruct (k =? n)%nat; [inversion H; subst; auto|apply (IL k c H)].
    + intros k. unfold get_constraint. cbn [v_cons]. rewrite find_set by auto. specialize (G k). unfold get_constraint in G.
      rewrite G. destruct (Nat.eqb_spec k n), (Nat.ltb_spec k n), (Nat.ltb_spec k (S n)); subst; try lia; auto.
Qed.

Lemma vertices_loop_spec tr n : traj_wf tr -> positive_times tr -> t_segs tr <> [] ->
  forall segs j, skipn j (t_segs tr) = segs -> (j <= length (t_segs tr))%nat ->
  exists vs, vertices_loop tr segs (start_of tr j) n = Some vs /\ length vs = length segs /\
    forall i v, nth_error vs i = Some v -> vertex_inv (t_D tr) v /\
      forall k, get_constraint k v = if (k <=? n)%nat then traj_evaluate tr (start_of tr (S (j + i))) k else None.
Proof.
  intros W P N segs. induction segs as [|s r IH]; intros j HS HJ.
  - exists []. split; [reflexivity|]. split; [reflexivity|]. intros i v H. destruct i; discriminate.
  - assert (HN : nth_error (t_segs tr) j = Some s).
    { clear - HS. revert HS. generalize (t_segs tr). induction j; intros l HS; destruct l; cbn in HS; try discriminate.
      - inversion HS. reflexivity.
      - cbn. auto. }
    assert (HR : skipn (S j) (t_segs tr) = r).
    { clear - HS. revert HS. generalize (t_segs tr). induction j; intros l HS; destruct l; cbn in HS; try discriminate.
      - inversion HS. reflexivity.
      - rewrite skipn_cons. auto. }
    assert (HJ' : (S j <= length (t_segs tr))%nat) by (apply nth_error_Some; congruence).
    cbn [vertices_loop]. rewrite <- (start_of_S _ _ _ HN).
    assert (H0 : 0 <= start_of tr (S j)).
    { unfold start_of. apply lsum_nonneg, Forall_map. apply Forall_forall. intros y Hy.
      unfold positive_times in P. rewrite Forall_forall in P.
      assert (In y (t_segs tr)) by (rewrite <- (firstn_skipn (S j)); apply in_or_app; auto).
      specialize (P y H). lra. }
    pose proof (start_of_le_max tr (S j) W P) as H1.
    destruct (vertex_at_spec tr (start_of tr (S j)) (S n)) as (v0 & E0 & I0 & G0).
    { intros k. apply evaluate_length; auto. }
    unfold vertex_at_time. rewrite E0. destruct (IH (S j) HR HJ') as (vs & EV & LV & GV).
    fold (vertex_at_time) in *. rewrite EV. exists (v0 :: vs). split; [reflexivity|]. split; [cbn; congruence|].
    intros i v H. destruct i as [|i]; cbn [nth_error] in H.
    + inversion H; subst. split; [auto|]. intros k. rewrite (G0 k), Nat.add_0_r. reflexivity.
    + destruct (GV i v H) as (A & B). split; [auto|]. intros k. rewrite (B k). now rewrite Nat.add_succ_r.
Qed.

Lemma get_vertices_spec tr n : traj_wf tr -> positive_times tr -> t_segs tr <> [] ->
  exists vs, get_vertices tr n = Some vs /\ length vs = S (length (t_segs tr)) /\
    forall i v, nth_error vs i = Some v -> vertex_inv (t_D tr) v /\
      forall k, get_constraint k v = if (k <=? n)%nat then traj_evaluate tr (start_of tr i) k else None.
Proof.
  intros W P N. unfold get_vertices, start_vertex, vertex_at_time.
  assert (HM : 0 <= t_max tr).
  { pose proof (start_of_le_max tr 0 W P) as H. unfold start_of in H. cbn in H. auto. }
  destruct (vertex_at_spec tr 0 (S n)) as (v0 & E0 & I0 & G0).
  { intros k. apply evaluate_length; auto. lra. }
  rewrite E0. destruct (vertices_loop_spec tr n W P N (t_segs tr) 0) as (vs & EV & LV & GV); [reflexivity|lia|].
  change (start_of tr 0) with 0 in EV. rewrite EV. exists (v0 :: vs). split; [reflexivity|]. split; [cbn; congruence|].
  intros i v H. destruct i as [|i]; cbn [nth_error] in H.
  - inversion H; subst. split; [auto|]. exact G0.
  - exact (GV i v H).
Qed.

(** At the joints evaluate() uses the segment that starts there, at the end the
    last one. *)
Lemma evaluate_start tr i s d : traj_wf tr -> positive_times tr -> nth_error (t_segs tr) i = Some s ->
  traj_evaluate tr (start_of tr i) d = Some (seg_deriv s d 0).
Proof.
  intros W P H. replace 0 with (start_of tr i - start_of tr i) by lra. apply traj_evaluate_segment; auto; [lra|].
  left. rewrite (start_of_S _ _ _ H). unfold positive_times in P. rewrite Forall_forall in P.
  specialize (P s (nth_error_In _ _ H)). lra.
Qed.
Lemma evaluate_end tr i s d : traj_wf tr -> positive_times tr -> nth_error (t_segs tr) i = Some s ->
  S i = length (t_segs tr) -> traj_evaluate tr (start_of tr (S i)) d = Some (seg_deriv s d (s_time s)).
Proof.
  intros W P H HL. pose proof (start_of_S _ _ _ H) as ES.
  replace (s_time s) with (start_of tr (S i) - start_of tr i) by lra.
  unfold positive_times in P. pose proof P as P'. rewrite Forall_forall in P. specialize (P s (nth_error_In _ _ H)).
  apply traj_evaluate_segment; auto; [lra|]. right. split; [auto|]. rewrite HL. apply start_of_all; auto.
Qed.

(** C86: one vertex per segment boundary, with exactly the constraints of the
    orders 0..n: the derivatives of the segment starting there, at the end those
    of the last segment. *)
Theorem C86_vertices :
  forall (tr : trajectory) (n : nat), traj_wf tr -> positive_times tr -> t_segs tr <> [] ->
  exists vs, get_vertices tr n = Some vs /\ length vs = S (length (t_segs tr)) /\
    (forall i s, nth_error (t_segs tr) i = Some s ->
       exists v, nth_error vs i = Some v /\ v_D v = t_D tr /\
         forall k, get_constraint k v = if (k <=? n)%nat then Some (seg_deriv s k 0) else None) /\
    (forall i s, nth_error (t_segs tr) i = Some s -> S i = length (t_segs tr) ->
       exists v, nth_error vs (S i) = Some v /\ v_D v = t_D tr /\
         forall k, get_constraint k v = if (k <=? n)%nat then Some (seg_deriv s k (s_time s)) else None).
Proof.
  intros tr n W P N. destruct (get_vertices_spec tr n W P N) as (vs & E & L & G).
  exists vs. split; [auto|]. split; [auto|]. split.
  - intros i s H. destruct (nth_error vs i) as [v|] eqn:EV.
    2:{ apply nth_error_None in EV. assert (i < length (t_segs tr))%nat by (apply nth_error_Some; congruence). lia. }
    destruct (G i v EV) as ((D & _) & C). exists v. split; [auto|]. split; [auto|]. intros k. rewrite C.
    destruct (k <=? n)%nat; [apply evaluate_start; auto|auto].
  - intros i s H HL. destruct (nth_error vs (S i)) as [v|] eqn:EV; [|apply nth_error_None in EV; lia].
    destruct (G _ v EV) as ((D & _) & C). exists v. split; [auto|]. split; [auto|]. intros k. rewrite C.
    destruct (k <=? n)%nat; [apply evaluate_end; auto|auto].
Qed.
(** The first and the last one are the start and goal vertices. *)
Theorem C86_start_and_goal :
  forall (tr : trajectory) (n : nat) (vs : list vertex), traj_wf tr -> positive_times tr -> t_segs tr <> [] ->
  get_vertices tr n = Some vs ->
  nth_error vs 0 = start_vertex tr n /\ nth_error vs (length (t_segs tr)) = goal_vertex tr n /\
  start_vertex tr n <> None /\ goal_vertex tr n <> None.
Proof.
  intros tr n vs W P N E.
  assert (HG : goal_vertex tr n <> None /\ nth_error vs (length (t_segs tr)) = goal_vertex tr n).
  { unfold get_vertices in E. destruct (start_vertex tr n) as [v|]; [|discriminate].
    destruct (vertices_loop tr (t_segs tr) 0 n) as [l|] eqn:EL; [|discriminate]. inversion E; subst. clear E.
    unfold goal_vertex. rewrite <- (start_of_all tr W).
    assert (HX : forall segs t l, vertices_loop tr segs t n = Some l -> segs <> [] -> forall v0,
      nth_error (v0 :: l) (length segs) = vertex_at_time tr (t + lsum (map s_time segs)) n /\
      nth_error (v0 :: l) (length segs) <> None).
    { clear. induction segs as [|s r IH]; intros t l EL NS v0; [congruence|].
      cbn [vertices_loop] in EL. destruct (vertex_at_time tr (t + s_time s) n) as [x|] eqn:EX; [|discriminate].
      destruct (vertices_loop tr r (t + s_time s) n) as [l'|] eqn:EL'; [|discriminate]. inversion EL; subst.
      cbn [length nth_error]. destruct r as [|s2 r].
      - cbn [map]. assert (E0 : t + lsum [s_time s] = t + s_time s) by (unfold lsum; cbn; lra).
        rewrite E0, EX. cbn. split; [auto|discriminate].
      - destruct (IH _ _ EL' ltac:(discriminate) x) as (A & B). split; [|exact B]. rewrite A. f_equal.
        change (map s_time (s :: s2 :: r)) with ([s_time s] ++ map s_time (s2 :: r)). rewrite lsum_app.
        assert (E0 : lsum [s_time s] = s_time s) by (unfold lsum; cbn; lra). rewrite E0. lra. }
    destruct (HX _ _ _ EL N v) as (A & B). unfold start_of. rewrite firstn_all.
    replace (lsum (map s_time (t_segs tr))) with (0 + lsum (map s_time (t_segs tr))) by lra. rewrite <- A. auto. }
  destruct HG as [HG1 HG2]. unfold get_vertices in E. destruct (start_vertex tr n) as [v|] eqn:ES; [|discriminate].
  destruct (vertices_loop tr (t_segs tr) 0 n) as [l|]; [|discriminate]. inversion E; subst.
  split; [reflexivity|]. split; [auto|]. split; [discriminate|auto].
Qed.
(** A trajectory meets all constraints of its own vertices. *)
Theorem C86_meets :
  forall (tr : trajectory) (n : nat) (vs : list vertex), traj_wf tr -> positive_times tr -> t_segs tr <> [] ->
  get_vertices tr n = Some vs -> meets vs tr.
Proof.
  intros tr n vs W P N E. destruct (get_vertices_spec tr n W P N) as (vs' & E' & _ & G).
  assert (vs' = vs) by congruence. subst. intros i v k c HV HC. destruct (G i v HV) as (_ & C).
  rewrite C in HC. destruct (k <=? n)%nat; [auto|discriminate].
Qed.

Lemma split_all_spec D n mp my vs : (4 <= D)%nat -> Forall (vertex_inv D) vs -> (mp <= n)%nat -> (my <= n)%nat ->
  exists l, split_all mp my vs = Some l /\ length l = length vs /\
    forall i v, nth_error vs i = Some v -> exists p y, nth_error l i = Some (p, y) /\ v_D p = 3%nat /\ v_D y = 1%nat /\
      (forall k, get_constraint k p = if (k <=? mp)%nat
         then match get_constraint k v with Some c => Some [nth 0 c 0; nth 1 c 0; nth 2 c 0] | None => None end else None) /\
      (forall k, get_constraint k y = if (k <=? my)%nat
         then match get_constraint k v with Some c => Some [nth 3 c 0] | None => None end else None).
Proof.
  intros HD HF H1 H2. induction HF as [|v vs I _ (l & E & L & G)].
  - exists []. split; [reflexivity|]. split; [reflexivity|]. intros i v H. destruct i; discriminate.
  - destruct (get_subdimension_spec D [0;1;2]%nat mp v I) as (p & EP & DP & CP); [repeat constructor; lia|].
    destruct (get_subdimension_spec D [3]%nat my v I) as (y & EY & DY & CY); [repeat constructor; lia|].
    cbn [split_all]. unfold split_vertex. rewrite EP, EY, E. exists ((p, y) :: l). split; [reflexivity|].
    split; [cbn; congruence|]. intros i w H. destruct i as [|i]; cbn [nth_error] in H.
    + inversion H; subst. exists p, y. split; [reflexivity|]. split; [exact DP|]. split; [exact DY|]. split.
      * intros k. rewrite CP. reflexivity.
      * intros k. rewrite CY. reflexivity.
    + destruct (G i w H) as (p' & y' & A). exists p', y'. exact A.
Qed.

(** Position and yaw: the first three components and the fourth one, each up to
    its own order. *)
Theorem C86_position_and_yaw :
  forall (tr : trajectory) (mp my : nat), traj_wf tr -> positive_times tr -> t_segs tr <> [] ->
  (4 <= t_D tr)%nat ->
  exists ps ys, get_pos_yaw_vertices tr mp my = Val (ps, ys) /\
    length ps = S (length (t_segs tr)) /\ length ys = S (length (t_segs tr)) /\
    (forall i s, nth_error (t_segs tr) i = Some s ->
       exists p y, nth_error ps i = Some p /\ nth_error ys i = Some y /\ v_D p = 3%nat /\ v_D y = 1%nat /\
         forall k, let c := seg_deriv s k 0 in
           get_constraint k p = (if (k <=? mp)%nat then Some [nth 0 c 0; nth 1 c 0; nth 2 c 0] else None) /\
           get_constraint k y = (if (k <=? my)%nat then Some [nth 3 c 0] else None)) /\
    (forall i s, nth_error (t_segs tr) i = Some s -> S i = length (t_segs tr) ->
       exists p y, nth_error ps (S i) = Some p /\ nth_error ys (S i) = Some y /\ v_D p = 3%nat /\ v_D y = 1%nat /\
         forall k, let c := seg_deriv s k (s_time s) in
           get_constraint k p = (if (k <=? mp)%nat then Some [nth 0 c 0; nth 1 c 0; nth 2 c 0] else None) /\
           get_constraint k y = (if (k <=? my)%nat then Some [nth 3 c 0] else None)).
Proof.
  intros tr mp my W P N HD. set (n := Nat.max mp my).
  destruct (get_vertices_spec tr n W P N) as (vs & E & L & G).
  assert (HF : Forall (vertex_inv (t_D tr)) vs).
  { apply Forall_forall. intros v HV. apply In_nth_error in HV. destruct HV as [i HV]. apply (G i v HV). }
  destruct (split_all_spec (t_D tr) n mp my vs HD HF) as (l & EL & LL & GL); [unfold n; lia|unfold n; lia|].
  exists (map fst l), (map snd l). unfold get_pos_yaw_vertices. fold n. rewrite E, EL. split; [reflexivity|].
  rewrite !map_length, LL, L. split; [reflexivity|]. split; [reflexivity|].
  assert (HX : forall j, (j < S (length (t_segs tr)))%nat -> exists p y, nth_error (map fst l) j = Some p /\ nth_error (map snd l) j = Some y /\
     v_D p = 3%nat /\ v_D y = 1%nat /\ forall k c, traj_evaluate tr (start_of tr j) k = Some c ->
     get_constraint k p = (if (k <=? mp)%nat then Some [nth 0 c 0; nth 1 c 0; nth 2 c 0] else None) /\
     get_constraint k y = (if (k <=? my)%nat then Some [nth 3 c 0] else None)).
  { intros j HJ. destruct (nth_error vs j) as [v|] eqn:EV; [|apply nth_error_None in EV; lia].
    destruct (G j v EV) as (_ & C). destruct (GL j v EV) as (p & y & A & DP & DY & CP & CY). exists p, y.
    split; [apply (map_nth_error fst j l A)|]. split; [apply (map_nth_error snd j l A)|]. split; [auto|]. split; [auto|].
    intros k c HC. rewrite CP, CY, C, HC. unfold n.
    destruct (Nat.leb_spec k mp), (Nat.leb_spec k my), (Nat.leb_spec k (Nat.max mp my)); auto; lia. }
  split.
  - intros i s H. assert (HI : (i < length (t_segs tr))%nat) by (apply nth_error_Some; congruence).
    destruct (HX i ltac:(lia)) as (p & y & A & B & DP & DY & C). exists p, y. do 4 (split; [auto|]). intros k.
    apply C. apply evaluate_start; auto.
  - intros i s H HL. destruct (HX (S i) ltac:(lia)) as (p & y & A & B & DP & DY & C). exists p, y. do 4 (split; [auto|]).
    intros k. apply C. apply evaluate_end; auto.
Qed.
(** Fewer than four dimensions: the call returns false. *)
Theorem C86_no_yaw :
  forall (tr : trajectory) (mp my : nat), traj_wf tr -> positive_times tr -> t_segs tr <> [] ->
  (t_D tr < 4)%nat -> get_pos_yaw_vertices tr mp my = Failed.
Proof.
  intros tr mp my W P N HD. destruct (get_vertices_spec tr (Nat.max mp my) W P N) as (vs & E & L & G).
  unfold get_pos_yaw_vertices. rewrite E. destruct vs as [|v vs]; [discriminate|].
  destruct (G O v eq_refl) as ((D & _) & _). cbn [split_all]. unfold split_vertex, get_subdimension. rewrite D.
  destruct (forallb _ [0;1;2]%nat); [|reflexivity]. cbn [forallb].
  destruct (Nat.ltb_spec 3 (t_D tr)); [lia|]. reflexivity.
Qed.
Print Assumptions C86_vertices.
Print Assumptions C86_start_and_goal.
Print Assumptions C86_meets.
Print Assumptions C86_position_and_yaw.
Print Assumptions C86_no_yaw.

Definition yaw_traj : trajectory :=
  mkTraj 4 2 3 [mkSeg 1 2 4 [[0; 1]; [0; 2]; [0; 3]; [0; 4]]; mkSeg 2 2 4 [[1; 0]; [2; 0]; [3; 0]; [4; 0]]].
Example C86_example : traj_wf ex_traj /\ positive_times ex_traj /\ t_segs ex_traj <> [] /\
  traj_wf yaw_traj /\ positive_times yaw_traj /\ t_segs yaw_traj <> [] /\ t_D yaw_traj = 4%nat /\
  exists ps ys v y, get_pos_yaw_vertices yaw_traj 1 0 = Val (ps, ys) /\
    nth_error ps 1 = Some v /\ get_constraint 0 v = Some [1; 2; 3] /\ get_constraint 1 v = Some [0; 0; 0] /\
    nth_error ys 1 = Some y /\ get_constraint 0 y = Some [4] /\ get_constraint 1 y = None.
Proof.
  split; [exact ex_traj_wf|]. split; [exact ex_traj_pos|]. split; [discriminate|].
  assert (W : traj_wf yaw_traj).
  { split; [|cbn; unfold lsum; cbn; lra]. repeat constructor. }
  assert (P : positive_times yaw_traj) by (repeat constructor; cbn; lra).
  split; [auto|]. split; [auto|]. split; [discriminate|]. split; [reflexivity|].
  destruct (C86_position_and_yaw yaw_traj 1 0 W P ltac:(discriminate) ltac:(cbn; lia))
    as (ps & ys & E & _ & _ & H & _). destruct (H 1%nat _ eq_refl) as (p & y & HP & HY & _ & _ & C).
  exists ps, ys, p, y. split; [auto|]. split; [auto|].
  assert (W2 : seg_wf (mkSeg 2 2 4 [[1; 0]; [2; 0]; [3; 0]; [4; 0]])) by (repeat constructor).
  pose proof (C 0%nat) as [A0 B0]. pose proof (C 1%nat) as [A1 B1].
  rewrite <- seg_evaluate_deriv in A0, B0, A1 by exact W2. cbn in A0, B0, A1, B1.
  split; [rewrite A0; f_equal; list_lra|]. split; [rewrite A1; f_equal; list_lra|]. split; [auto|]. split; [rewrite B0; f_equal; list_lra|exact B1].
Qed.
