(** Lemmas about the request queues and about running the background thread
    without interference. *)
From Coq Require Import Reals Lra Lia List Bool ZArith Arith.
From Coquelicot Require Import Coquelicot.
From Verif Require Import Base PolyModel PolySpec VertexModel TrajModel TrajSpec TrajProofs
  WaypointModel WaypointProofs Names DynModel DynSpec DynProofs DynFrame DynTrace.
Import List ListNotations.
Local Open Scope R_scope.
Set Bullet Behavior "Strict Subproofs".

Lemma name_eqb_eq a b : name_eqb a b = true <-> a = b.
Proof. apply String.eqb_eq. Qed.
Lemma name_eqb_refl a : name_eqb a a = true.
Proof. apply String.eqb_refl. Qed.
Lemma name_eqb_neq a b : name_eqb a b = false <-> a <> b.
Proof. apply String.eqb_neq. Qed.
Lemma name_eqb_sym a b : name_eqb a b = name_eqb b a.
Proof. apply String.eqb_sym. Qed.

Fixpoint assoc (n : name) (l : list (name * V3)) : option V3 :=
  match l with
  | [] => None
  | (n', p) :: l' => if name_eqb n' n then Some p else assoc n l'
  end.

Lemma mod_put_assoc n p l m : assoc m (mod_put n p l) = if name_eqb n m then Some p else assoc m l.
Proof.
  induction l as [|[n' p'] l IH]; cbn [mod_put assoc]; [reflexivity|].
  destruct (name_eqb n' n) eqn:E; cbn [assoc].
  - apply name_eqb_eq in E. subst. destruct (name_eqb n m); auto.
  - rewrite IH. destruct (name_eqb n' m) eqn:E2; destruct (name_eqb n m) eqn:E3; auto.
    apply name_eqb_eq in E2. apply name_eqb_eq in E3. subst. rewrite name_eqb_refl in E. discriminate.
Qed.
Lemma mod_put_in n p l m : In m (map fst (mod_put n p l)) <-> m = n \/ In m (map fst l).
Proof.
  induction l as [|[n' p'] l IH]; cbn [mod_put map In fst]; [intuition|].
  destruct (name_eqb n' n) eqn:E; cbn [map fst In].
  - apply name_eqb_eq in E. subst. intuition.
  - rewrite IH. intuition.
Qed.
Lemma mod_put_nodup n p l : NoDup (map fst l) -> NoDup (map fst (mod_put n p l)).
Proof.
  induction l as [|[n' p'] l IH]; cbn [mod_put map fst]; intros H.
  - constructor; [simpl; tauto|constructor].
  - destruct (name_eqb n' n) eqn:E; cbn [map fst].
    + apply name_eqb_eq in E. now subst.
    + inversion H; subst. constructor; [|auto]. rewrite mod_put_in. intros [H1|H1]; [|auto].
      subst. rewrite name_eqb_refl in E. discriminate.
Qed.
Lemma assoc_in n p l : NoDup (map fst l) -> (assoc n l = Some p <-> In (n, p) l).
Proof.
  induction l as [|[n' p'] l IH]; cbn [assoc map fst In]; intros H; [split; [discriminate|tauto]|].
  inversion H; subst. destruct (name_eqb n' n) eqn:E.
  - apply name_eqb_eq in E. subst. split; [intros X; left; congruence|].
    intros [X|X]; [congruence|]. exfalso. apply H2. apply in_map_iff. exists (n, p). auto.
  - rewrite IH by auto. split; auto. intros [X|X]; auto. inversion X; subst. rewrite name_eqb_refl in E. discriminate.
Qed.

Lemma collecting_run post s tr s' : collecting post s tr s' -> run post s tr s'.
Proof. induction 1; econstructor; eauto. Qed.

Lemma swap_queues tr s s' : do_swap tr s = Some s' -> d_add s' = d_add s /\ d_set s' = d_set s /\ d_mod s' = d_mod s.
Proof. intros H. apply swap_fields in H. tauto. Qed.

(** How one event changes the queues. *)
Definition queues_after (s : state) (e : event) : list waypoint * list waypoint * list (name * V3) :=
  match e with
  | SetWaypoints ws => ([], map wp_copy ws, [])
  | Append w => (d_add s ++ [wp_copy w], d_set s, d_mod s)
  | Modify n p _ => (d_add s, d_set s, mod_put n p (d_mod s))
  | Back => match d_pc s with
            | PGen => ([], [], [])
            | PMove [] _ => (d_add s, d_set s, [])
            | _ => (d_add s, d_set s, d_mod s)
            end
  | _ => (d_add s, d_set s, d_mod s)
  end.
Lemma step_queues s e s' o : step s e = Ok s' o -> (d_add s', d_set s', d_mod s') = queues_after s e.
Proof.
  intros H. destruct e; cbn [step queues_after] in *; unblock H; try (inversion H; subst; reflexivity).
  - unfold do_poll in H. destruct (d_fut_locked s); [discriminate|].
    assert (G : forall tr, match do_swap tr s with Some s' => Ok s' Swapped | None => UB end = Ok s' o ->
       (d_add s', d_set s', d_mod s') = (d_add s, d_set s, d_mod s)).
    { intros tr E. destruct (do_swap tr s) eqn:ES; [|discriminate]. inversion E; subst.
      apply swap_queues in ES. destruct ES as (-> & -> & ->). reflexivity. }
    destruct (d_traj s), (d_fut s), (d_computing s); try discriminate; try (inversion H; subst; reflexivity); eauto.
  - destruct (d_late s); inversion H; subst; reflexivity.
  - destruct (d_traj s); inversion H; subst; reflexivity.
  - unfold back_step in H. destruct (d_pc s); try (inversion H; subst; reflexivity).
    + destruct (d_stop s); inversion H; subst; reflexivity.
    + destruct (next_waypoints s); inversion H; subst; reflexivity.
    + destruct (d_traj s); inversion H; subst; reflexivity.
    + destruct (d_fut_locked s); inversion H; subst; reflexivity.
    + destruct (d_mod s) eqn:E; inversion H; subst; rewrite <- E; reflexivity.
    + destruct ms as [|m ms]; [inversion H; subst; reflexivity|]. destruct (nth_error (d_dyn s) i); inversion H; subst; reflexivity.
  - destruct (torn_cases s zone s' o H) as (-> & _). reflexivity.
  - unfold comp_speed in H. destruct (d_fut s); try discriminate. destruct (extract_vertices _); [|discriminate].
    destruct (_ <? _)%nat; inversion H; subst; reflexivity.
  - unfold comp_done in H. destruct (d_fut s); try discriminate. destruct (retime _ _ _ _); inversion H; subst; reflexivity.
  - unfold comp_throw in H. destruct (d_fut s); try discriminate. inversion H; subst; reflexivity.
Qed.

Lemma appended_cons e o tr : appended ((e, o) :: tr) = match e with Append w => [w] | _ => [] end ++ appended tr.
Proof. destruct e; reflexivity. Qed.
Lemma last_modified_cons n e o tr : last_modified n ((e, o) :: tr) =
  match last_modified n tr with
  | Some q => Some q
  | None => match e with Modify n' p _ => if name_eqb n' n then Some p else None | _ => None end
  end.
Proof. destruct e; cbn [last_modified]; destruct (last_modified n tr); reflexivity. Qed.

Lemma collecting_queues post s tr s' : collecting post s tr s' -> NoDup (map fst (d_mod s)) ->
  d_add s' = d_add s ++ map wp_copy (appended tr) /\ d_set s' = d_set s /\ NoDup (map fst (d_mod s')) /\
  forall n, assoc n (d_mod s') = match last_modified n tr with Some p => Some p | None => assoc n (d_mod s) end.
Proof.
  intros H. induction H; intros ND.
  - rewrite app_nil_r. auto.
  - pose proof (step_queues _ _ _ _ H0) as Q.
    assert (Q2 : (d_add s1, d_set s1, d_mod s1) =
      match e with
      | Append w => (d_add s ++ [wp_copy w], d_set s, d_mod s)
      | Modify n p _ => (d_add s, d_set s, mod_put n p (d_mod s))
      | _ => (d_add s, d_set s, d_mod s)
      end).
    { rewrite Q. destruct e; cbn [queues_after]; auto.
      - elim (H2 ws); auto.
      - destruct (H1 eq_refl) as [A B]. destruct (d_pc s) as [| | | | | | | | | | | | | |[|? ?] i|]; try congruence; elim (B i); reflexivity. }
    clear Q H0 H1 H2 H.
    assert (ND1 : NoDup (map fst (d_mod s1))).
    { destruct e; inversion Q2; subst; rewrite ?H1, ?H2; auto. now apply mod_put_nodup. }
    destruct (IHcollecting ND1) as (A & B & C & D).
    rewrite appended_cons. split; [|split; [|split; [auto|]]].
    + rewrite A. destruct e; inversion Q2 as [[X1 X2 X3]]; rewrite X1; cbn [app map]; auto.
      now rewrite <- app_assoc.
    + rewrite B. destruct e; inversion Q2; congruence.
    + intros n. rewrite last_modified_cons, D. destruct (last_modified n tr); [auto|].
      destruct e; inversion Q2 as [[X1 X2 X3]]; rewrite X3; auto. rewrite mod_put_assoc.
      destruct (name_eqb n0 n); auto.
Qed.

(** ** The collected waypoints *)

Lemma reset_all_placed ms ws :
  Forall2 (fun w w' => if name_eqb (w_name w) no_name then w' = w
                       else match assoc (w_name w) (rev ms) with
                            | Some p => placed (Some p) w w'
                            | None => w' = w
                            end) ws
    (fold_left (fun ws (m : name * V3) => reset_named (fst m) (snd m) ws) ms ws).
Proof.
  induction ms as [|[n p] ms IH] using rev_ind.
  - cbn [rev assoc fold_left]. induction ws; constructor; auto. destruct (name_eqb _ _); auto.
  - rewrite fold_left_app, rev_app_distr. cbn [rev app fold_left assoc fst snd].
    revert IH. generalize (fold_left (fun ws0 (m : name * V3) => reset_named (fst m) (snd m) ws0) ms ws) as ws'.
    intros ws' H. induction H as [|w w' l l' Hw HF IH]; [unfold reset_named; destruct (name_eqb n no_name); constructor|].
    assert (E : reset_named n p (w' :: l') =
      (if name_eqb n no_name then w' else if name_eqb (w_name w') n then wp_reset_to p w' else w') :: reset_named n p l').
    { unfold reset_named. destruct (name_eqb n no_name); reflexivity. }
    rewrite E. constructor; [|exact IH]. clear E IH HF.
    assert (HN : w_name w' = w_name w /\ placed (if name_eqb (w_name w) no_name then None else assoc (w_name w) (rev ms)) w w').
    { destruct (name_eqb (w_name w) no_name); [subst; split; [auto|repeat split]|].
      destruct (assoc (w_name w) (rev ms)); [split; [apply Hw|auto]|subst; split; [auto|repeat split]]. }
    destruct HN as [HN HP]. rewrite HN, (name_eqb_sym (w_name w) n).
    destruct (name_eqb (w_name w) no_name) eqn:E0.
    + destruct (name_eqb n no_name) eqn:E1; [auto|]. destruct (name_eqb n (w_name w)) eqn:E2; [|auto].
      apply name_eqb_eq in E2. subst n. congruence.
    + destruct (name_eqb n (w_name w)) eqn:E2.
      * apply name_eqb_eq in E2. subst n. rewrite E0.
        destruct HP as (A & B & C & D & F & _).
        split; [exact A|]. split; [exact B|]. split; [exact C|]. split; [exact D|]. split.
        { intros k Hk. unfold wp_reset_to, wp_reset. cbn [w_vertex w_cur]. rewrite get_set_other by auto. now apply F. }
        split; [apply get_set_same|]. auto.
      * destruct (name_eqb n no_name); exact Hw.
Qed.

Lemma assoc_rev n l : NoDup (map fst l) -> assoc n (rev l) = assoc n l.
Proof.
  intros H. assert (HR : NoDup (map fst (rev l))) by (rewrite map_rev; now apply NoDup_rev).
  destruct (assoc n l) eqn:E.
  - apply assoc_in; auto. apply -> in_rev. now apply assoc_in.
  - destruct (assoc n (rev l)) eqn:E2; [|auto]. apply assoc_in in E2; auto. apply in_rev in E2.
    apply assoc_in in E2; auto. congruence.
Qed.
Lemma placed_refl w : placed None w (wp_copy w). Proof. repeat split. Qed.

(** The position requested for a waypoint by the queued modifications. *)
Definition pending (ms : list (name * V3)) (w : waypoint) : option V3 :=
  if name_eqb (w_name w) no_name then None else assoc (w_name w) ms.

Lemma next_waypoints_set s : NoDup (map fst (d_mod s)) -> d_set s <> [] ->
  Forall2 (fun w w' => placed (pending (d_mod s) w) w w') (d_set s ++ d_add s) (next_waypoints s).
Proof.
  intros ND HS. unfold next_waypoints.
  replace (match d_set s with [] => _ | _ => map wp_copy (d_set s) end) with (map wp_copy (d_set s))
    by (destruct (d_set s); congruence).
  rewrite <- map_app.
  pose proof (reset_all_placed (d_mod s) (map wp_copy (d_set s ++ d_add s))) as H.
  revert H. generalize (fold_left (fun ws (m : name * V3) => reset_named (fst m) (snd m) ws) (d_mod s)
    (map wp_copy (d_set s ++ d_add s))) as l'. generalize (d_set s ++ d_add s) as l.
  induction l as [|w l IH]; intros l' H; inversion H; subst; constructor; [|auto].
  unfold pending. rewrite assoc_rev in H2 by auto. change (w_name (wp_copy w)) with (w_name w) in H2.
  destruct (name_eqb (w_name w) no_name); [subst; apply placed_refl|].
  destruct (assoc (w_name w) (d_mod s)); [exact H2|subst; apply placed_refl].
Qed.

Lemma filter_map_copy f ws : (forall w, f (wp_copy w) = f w) -> filter f (map wp_copy ws) = map wp_copy (filter f ws).
Proof.
  intros Hf. induction ws as [|w ws IH]; cbn [map filter]; [auto|]. rewrite Hf. destruct (f w); cbn [map]; now rewrite IH.
Qed.

Lemma next_waypoints_keep s : NoDup (map fst (d_mod s)) -> d_set s = [] ->
  exists kept added, next_waypoints s = kept ++ added /\
    Forall2 (fun w w' => placed (Some (match pending (d_mod s) w with Some p => p | None => w_cur w end)) w w')
      (filter (fun w => negb (Rltb (w_time w) (p_global (d_par s)))) (d_dyn s)) kept /\
    Forall2 (fun w w' => placed (pending (d_mod s) w) w w') (d_add s) added.
Proof.
  intros ND HS. unfold next_waypoints, filter_passed. rewrite HS, filter_map_copy by reflexivity.
  set (ks := filter (fun w => negb (Rltb (w_time w) (p_global (d_par s)))) (d_dyn s)). clearbody ks.
  pose proof (reset_all_placed (d_mod s) (map wp_reset (map wp_copy ks) ++ map wp_copy (d_add s))) as H.
  apply Forall2_app_inv_l in H. destruct H as (kept & added & HK & HA & ->).
  exists kept, added. split; [auto|]. split.
  - revert kept HK. induction ks as [|w ks IH]; intros kept HK; cbn [map] in HK; inversion HK; subst; constructor; [|auto].
    rewrite assoc_rev in H1 by auto. unfold pending. change (w_name (wp_reset (wp_copy w))) with (w_name w) in H1.
    assert (HR : placed (Some (w_cur w)) w (wp_reset (wp_copy w))).
    { repeat split; cbn.
      - intros k Hk. change (get_constraint k (set_cons 0 (w_cur w) (w_vertex w)) = get_constraint k (w_vertex w)).
        now rewrite get_set_other.
      - change (get_constraint 0 (set_cons 0 (w_cur w) (w_vertex w)) = Some (v3_list (w_cur w))). now rewrite get_set_same. }
    destruct (name_eqb (w_name w) no_name); [subst; auto|].
    destruct (assoc (w_name w) (d_mod s)) as [p|]; [|subst; auto].
    destruct HR as (A & B & C & D & E & _). destruct H1 as (A' & B' & C' & D' & E' & F').
    repeat split; try (congruence || apply F').
    intros k Hk. rewrite E', E; auto.
  - revert added HA. induction (d_add s) as [|w l IH]; intros added HA; cbn [map] in HA; inversion HA; subst; constructor; [|auto].
    rewrite assoc_rev in H1 by auto. unfold pending. change (w_name (wp_copy w)) with (w_name w) in H1.
    destruct (name_eqb (w_name w) no_name); [subst; apply placed_refl|].
    destruct (assoc (w_name w) (d_mod s)); [exact H1|subst; apply placed_refl].
Qed.
