(** A family of trajectories that meet the complete optimiser contract: they
    leave the first vertex with a given velocity and acceleration and stop at
    every other vertex.  Used to exhibit concrete executions. *)
From Coq Require Import Reals Lra Lia List Bool ZArith Arith.
From Coquelicot Require Import Coquelicot.
From Verif Require Import Base PolyModel PolySpec PolyProofs VertexModel TrajModel TrajSpec TrajProofs RangeProofs
  WaypointModel DynModel DynSpec.
Import List ListNotations.
Local Open Scope R_scope.
Set Bullet Behavior "Strict Subproofs".

(** From a (velocity v, acceleration w) to b in time h, with zero third and
    fourth derivative at the start and all derivatives zero at the end. *)
Definition go_poly (h a v w b : R) : poly :=
  [a; v; w / 2; 0; 0;
   126 * (b - a) / h ^ 5 - 70 * v / h ^ 4 - 35 / 2 * w / h ^ 3;
   - (420 * (b - a) / h ^ 6) + 224 * v / h ^ 5 + 105 / 2 * w / h ^ 4;
   540 * (b - a) / h ^ 7 - 280 * v / h ^ 6 - 63 * w / h ^ 5;
   - (315 * (b - a) / h ^ 8) + 160 * v / h ^ 7 + 35 * w / h ^ 6;
   70 * (b - a) / h ^ 9 - 35 * v / h ^ 8 - 15 / 2 * w / h ^ 7].
Definition go_seg (h : R) (p v a q : V3) : segment :=
  mkSeg h 10 3 [go_poly h (vx p) (vx v) (vx a) (vx q); go_poly h (vy p) (vy v) (vy a) (vy q);
                go_poly h (vz p) (vz v) (vz a) (vz q)].
Fixpoint go_segs (p v a : V3) (l : list (R * V3)) : list segment :=
  match l with
  | [] => []
  | (h, q) :: l' => go_seg h p v a q :: go_segs q v3_zero v3_zero l'
  end.
Definition go (p v a : V3) (l : list (R * V3)) : trajectory :=
  mkTraj 3 10 (lsum (map fst l)) (go_segs p v a l).
(** Starting at rest. *)
Definition sag (p : V3) (l : list (R * V3)) : trajectory := go p v3_zero v3_zero l.

Lemma go_seg_wf h p v a q : seg_wf (go_seg h p v a q).
Proof. split; [reflexivity|repeat constructor]. Qed.
Lemma go_segs_times p v a l : map s_time (go_segs p v a l) = map fst l.
Proof. revert p v a; induction l as [|[h q] l IH]; intros p v a; cbn [go_segs map]; [auto|]. now rewrite IH. Qed.
Lemma go_length p v a l : length (t_segs (go p v a l)) = length l.
Proof. rewrite <- (map_length s_time). cbn [t_segs go]. now rewrite go_segs_times, map_length. Qed.
Lemma go_wf p v a l : traj_wf (go p v a l).
Proof.
  split; [|cbn; now rewrite go_segs_times]. cbn [t_segs t_D t_N go].
  revert p v a; induction l as [|[h q] l IH]; intros p v a; cbn [go_segs]; constructor; auto.
  repeat split; repeat constructor.
Qed.
Lemma go_pos p v a l : Forall (fun hq => 0 < fst hq) l -> positive_times (go p v a l).
Proof.
  unfold positive_times. cbn [t_segs go]. revert p v a; induction l as [|[h q] l IH]; intros p v a HF; cbn [go_segs]; constructor;
    inversion HF; subst; auto.
Qed.

Definition start_value (p v a : V3) (d : nat) : vec :=
  match d with O => v3_list p | 1%nat => v3_list v | 2%nat => v3_list a | _ => [0; 0; 0] end.
Definition stop_value (p : V3) (d : nat) : vec := match d with O => v3_list p | _ => [0; 0; 0] end.
Lemma start_stop p d : start_value p v3_zero v3_zero d = stop_value p d.
Proof. destruct d as [|[|[|d]]]; reflexivity. Qed.
Lemma go_start h p v a q d : (d <= 4)%nat -> seg_deriv (go_seg h p v a q) d 0 = start_value p v a d.
Proof.
  intros Hd. rewrite <- seg_evaluate_deriv by apply go_seg_wf.
  destruct d as [|[|[|[|[|d]]]]]; [| | | | |lia]; unfold seg_evaluate, seg_poly; cbn; unfold v3_list;
    repeat (f_equal; try lra).
Qed.
Lemma go_end h p v a q d : 0 < h -> (d <= 4)%nat -> seg_deriv (go_seg h p v a q) d h = stop_value q d.
Proof.
  intros Hh Hd. rewrite <- seg_evaluate_deriv by apply go_seg_wf.
  destruct d as [|[|[|[|[|d]]]]]; [| | | | |lia]; unfold seg_evaluate, seg_poly; cbn; unfold v3_list;
    repeat (f_equal; try (field; lra)).
Qed.

Definition go_state (p v a : V3) (l : list (R * V3)) (k : nat) (d : nat) : vec :=
  match k with O => start_value p v a d | S k => stop_value (nth k (map snd l) v3_zero) d end.
Lemma go_nth p v a l k s : nth_error (go_segs p v a l) k = Some s ->
  exists h p' v' a' q, nth_error l k = Some (h, q) /\ s = go_seg h p' v' a' q /\
    forall d, start_value p' v' a' d = go_state p v a l k d.
Proof.
  revert p v a k; induction l as [|[h q] l IH]; intros p v a [|k] H; cbn [go_segs nth_error] in H; try discriminate.
  - inversion H; subst. exists h, p, v, a, q. auto.
  - destruct (IH q v3_zero v3_zero k H) as (h' & p' & v' & a' & q' & A & B & C). exists h', p', v', a', q'.
    split; [auto|]. split; [auto|]. intros d. rewrite C. destruct k; cbn [go_state map snd nth]; auto using start_stop.
Qed.

Lemma go_joined p v a l : Forall (fun hq => 0 < fst hq) l -> joined (go p v a l) 4.
Proof.
  intros HF k s s' H1 H2 j Hj. cbn [t_segs go] in *.
  destruct (go_nth _ _ _ _ _ _ H1) as (h1 & p1 & v1 & a1 & q1 & A1 & -> & _).
  destruct (go_nth _ _ _ _ _ _ H2) as (h2 & p2 & v2 & a2 & q2 & A2 & -> & E2).
  assert (0 < h1) by (rewrite Forall_forall in HF; apply (HF (h1, q1)); eapply nth_error_In; eauto).
  cbn [s_time go_seg]. rewrite (go_end h1) by auto. rewrite go_start, E2 by auto. cbn [go_state]. f_equal.
  symmetry. apply nth_error_nth. rewrite nth_error_map, A1. reflexivity.
Qed.

(** The state at the i-th vertex. *)
Lemma go_at p v a l i d : Forall (fun hq => 0 < fst hq) l -> l <> [] -> (i <= length l)%nat -> (d <= 4)%nat ->
  traj_evaluate (go p v a l) (start_of (go p v a l) i) d = Some (go_state p v a l i d).
Proof.
  intros HF Hne Hi Hd. pose proof (go_wf p v a l) as HW. pose proof (go_pos p v a l HF) as HP.
  destruct (Nat.eq_dec i (length l)) as [->|Hn].
  - destruct (exists_last Hne) as (l' & [h q] & ->). set (tr := go p v a (l' ++ [(h, q)])) in *.
    assert (HL : length (l' ++ [(h, q)]) = S (length l')) by (rewrite app_length; cbn; lia).
    assert (HLS : length (t_segs tr) = S (length l')) by (unfold tr; rewrite go_length; auto).
    assert (HS : exists s, nth_error (t_segs tr) (length l') = Some s).
    { destruct (nth_error (t_segs tr) (length l')) eqn:E; [eauto|]. apply nth_error_None in E. lia. }
    destruct HS as [s HS]. pose proof (start_of_S _ _ _ HS) as E. rewrite HL.
    assert (Hmax : start_of tr (S (length l')) = t_max tr) by (rewrite <- HLS; now apply start_of_all).
    rewrite (traj_evaluate_segment _ (length l') s); auto.
    + rewrite E. replace (start_of _ (length l') + s_time s - start_of _ (length l')) with (s_time s) by ring.
      destruct (go_nth _ _ _ _ _ _ HS) as (h' & p' & v' & a' & q' & A & -> & _).
      rewrite nth_error_app2, Nat.sub_diag in A by lia. inversion A; subst h' q'. cbn [s_time go_seg].
      rewrite go_end; auto.
      * cbn [go_state]. do 2 f_equal. rewrite map_app. rewrite app_nth2; rewrite map_length; [|lia].
        now rewrite Nat.sub_diag.
      * rewrite Forall_forall in HF. apply (HF (h, q)). apply in_or_app. right; now left.
    + rewrite E. assert (0 < s_time s) by (unfold positive_times in HP; rewrite Forall_forall in HP; apply HP;
        eapply nth_error_In; eauto). lra.
  - destruct (nth_error (t_segs (go p v a l)) i) as [s|] eqn:HS.
    + rewrite (traj_evaluate_segment _ i s); auto.
      * rewrite Rminus_diag_eq by auto. destruct (go_nth _ _ _ _ _ _ HS) as (h & p' & v' & a' & q & A & -> & E).
        now rewrite go_start, E.
      * lra.
      * left. rewrite (start_of_S _ _ _ HS).
        assert (0 < s_time s) by (unfold positive_times in HP; rewrite Forall_forall in HP; apply HP;
        eapply nth_error_In; eauto). lra.
    + apply nth_error_None in HS. rewrite go_length in HS. lia.
Qed.

(** Vertices that ask for these points and for rest. *)
Definition start_vertex (x : vertex) (p v a : V3) : Prop :=
  get_constraint 0 x = Some (v3_list p) /\
  forall k c, get_constraint k x = Some c -> (k <= 4)%nat /\ c = start_value p v a k.
Definition stop_vertex (x : vertex) (p : V3) : Prop :=
  get_constraint 0 x = Some (v3_list p) /\
  forall k c, get_constraint (S k) x = Some c -> (S k <= 4)%nat /\ c = [0; 0; 0].

Lemma Forall2_len {A B} (P : A -> B -> Prop) l l' : Forall2 P l l' -> length l = length l'.
Proof. induction 1; cbn; congruence. Qed.
Lemma go_full x vs p v a l : Forall (fun hq => 0 < fst hq) l -> l <> [] -> start_vertex x p v a ->
  Forall2 stop_vertex vs (map snd l) -> full_post (x :: vs) (go p v a l).
Proof.
  intros HF Hne HX H2. assert (HL : length vs = length l).
  { rewrite (Forall2_len _ _ _ H2). now rewrite map_length. }
  split; [|split].
  - repeat split; try apply go_wf; auto using go_pos. rewrite go_length. cbn. congruence.
  - intros i y k c Hv Hc.
    assert (Hi : (i <= length l)%nat).
    { assert (i < length (x :: vs))%nat by (apply nth_error_Some; congruence). cbn in *. lia. }
    assert (HS : (k <= 4)%nat /\ c = go_state p v a l i k).
    { destruct i as [|i]; cbn [nth_error] in Hv.
      - inversion Hv; subst. now apply HX.
      - assert (HS : stop_vertex y (nth i (map snd l) v3_zero)).
        { clear - H2 Hv. revert i Hv. induction H2; intros [|i] Hv; try discriminate; cbn [nth nth_error] in *.
          - inversion Hv; subst; auto.
          - now apply IHForall2. }
        destruct HS as [H0 HK]. cbn [go_state]. destruct k.
        + split; [lia|]. cbn [stop_value]. congruence.
        + destruct (HK k c Hc) as [Hk ->]. auto. }
    destruct HS as [Hk ->]. now apply go_at.
  - now apply go_joined.
Qed.
Lemma sag_full vs p l : Forall (fun hq => 0 < fst hq) l -> l <> [] ->
  Forall2 stop_vertex vs (p :: map snd l) -> full_post vs (sag p l).
Proof.
  intros HF Hne H2. inversion H2 as [|x y vs' l' HX H3]; subst. apply go_full; auto.
  destruct HX as [H0 HK]. split; [auto|]. intros [|k] c Hc.
  - split; [lia|]. cbn. congruence.
  - rewrite start_stop. now apply HK.
Qed.
