(** Property theorems: every request that is not overtaken by another is served
    in the end, in every infinite execution that treats the threads fairly (C98). *)
From Coq Require Import Reals Lra Lia List Bool ZArith Arith Classical_Prop.
From Coquelicot Require Import Coquelicot.
From Verif Require Import Base PolyModel PolySpec VertexModel TrajModel TrajSpec TrajProofs RangeProofs
  WaypointModel WaypointProofs Names DynModel DynSpec DynProofs DynFrame DynTrace DynQueue DynMore StopAndGo DynScenario
  PropertiesDyn PropertiesReq.
Import List ListNotations.
Local Open Scope R_scope.
Set Bullet Behavior "Strict Subproofs".

(** ** Specification *)

(** An infinite execution: state, event and observation at every instant. *)
Definition execution (post : list vertex -> trajectory -> Prop) (st : nat -> state) (ev : nat -> event) (ob : nat -> obs) : Prop :=
  forall n, event_ok post (st n) (ev n) /\ step (st n) (ev n) = Ok (st (S n)) (ob n).

Definition of_background (e : event) : Prop := match e with Back | BackTorn _ => True | _ => False end.
Definition of_computation (e : event) : Prop := match e with CompSpeed | CompDone _ _ => True | _ => False end.
Definition can (s : state) (e : event) : Prop := exists s' o, step s e = Ok s' o.
Definition running (s : state) : Prop := d_fut s = FStarted \/ exists v, d_fut s = FRunning v.

(** Nobody waits forever for its turn: the background thread makes a step if it
    always could; someone who evaluates or asks for references looks for a result
    if that always is possible; a computation goes on. *)
Definition fair (st : nat -> state) (ev : nat -> event) : Prop :=
  (forall n, (forall m, (n <= m)%nat -> can (st m) Back) -> exists m, (n <= m)%nat /\ of_background (ev m)) /\
  (forall n, (forall m, (n <= m)%nat -> can (st m) Poll) -> exists m, (n <= m)%nat /\ ev m = Poll) /\
  (forall n, (forall m, (n <= m)%nat -> running (st m)) -> exists m, (n <= m)%nat /\ of_computation (ev m)).

(** From instant n on no client changes the plan or destroys the object; all other
    calls go on. *)
Definition changes_plan (e : event) : Prop :=
  match e with SetWaypoints _ | Append _ | Modify _ _ _ | RaiseFlag | Stop => True | _ => False end.
Definition left_alone (ev : nat -> event) (n : nat) : Prop := forall m, (n <= m)%nat -> ~ changes_plan (ev m).

(** The background thread has not passed the place where it collects requests. *)
Definition listening (p : pc) : Prop := p = PTop \/ p = PZone \/ p = PComp \/ p = PGen \/ p = PElse.

(** The list ends with the given waypoints (name, position and constraints). *)
Definition same_place (w w' : waypoint) : Prop :=
  w_name w' = w_name w /\ w_cur w' = w_cur w /\ w_vertex w' = w_vertex w.
Definition ends_with (ws l : list waypoint) : Prop := exists pre ws', l = pre ++ ws' /\ Forall2 same_place ws ws'.

(** ** Proof *)

Section Live.
Variables (post : list vertex -> trajectory -> Prop) (st : nat -> state) (ev : nat -> event) (ob : nat -> obs).
Hypothesis HP : forall vs tr, post vs tr -> basic_post vs tr.
Hypothesis HX : execution post st ev ob.
Hypothesis HF : fair st ev.
Variable n0 : nat.
Hypothesis HA : left_alone ev n0.
Hypothesis I0 : inv (st n0).

Lemma leads (P Q : nat -> Prop) (A : event -> Prop) (En : state -> Prop) n :
  (forall k, (forall m, (k <= m)%nat -> En (st m)) -> exists m, (k <= m)%nat /\ A (ev m)) ->
  (forall m, (n <= m)%nat -> P m -> P (S m) \/ Q (S m)) ->
  (forall m, (n <= m)%nat -> P m -> En (st m)) ->
  (forall m, (n <= m)%nat -> P m -> A (ev m) -> Q (S m)) ->
  P n -> exists m, (n <= m)%nat /\ Q m.
Proof.
  intros F S E H Pn. apply NNPP. intros C.
  assert (NQ : forall m, (n <= m)%nat -> ~ Q m) by (intros m L q; apply C; eauto).
  assert (AP : forall m, (n <= m)%nat -> P m).
  { intros m L. induction L as [|m L IH]; auto. destruct (S m L IH) as [X|X]; auto. exfalso. apply (NQ (Datatypes.S m)); auto. }
  destruct (F n) as (m & L & a); [auto|]. apply (NQ (Datatypes.S m)); [lia|]. apply H; auto.
Qed.

Lemma inv_at m : (n0 <= m)%nat -> inv (st m).
Proof. intros L. induction L as [|m L IH]; auto. destruct (HX m) as [X Y]. exact (step_inv post _ _ _ _ HP IH X Y). Qed.

(** Before the launch: what is pending and what the events do to it. *)
Variables (S0 A0 : list waypoint).
Definition pending := S0 ++ A0.

Definition waits (s : state) : Prop :=
  d_fut s = FNone /\ d_flag s = true /\ d_late s = O /\ d_stop s = false /\ d_mod s = [].
Definition listens (s : state) : Prop :=
  waits s /\ d_computing s = false /\ d_set s = S0 /\ d_add s = A0 /\ listening (d_pc s).

Lemma calm_step s e s' o : inv s -> ~ changes_plan e -> ~ of_background e -> waits s -> event_ok post s e -> step s e = Ok s' o ->
  waits s' /\ d_computing s' = d_computing s /\ d_set s' = d_set s /\ d_add s' = d_add s /\ d_pc s' = d_pc s /\
  d_next s' = d_next s /\ o <> Launched.
Proof.
  intros IV NC NB (W1 & W2 & W3 & W4 & W5) HO H. unfold waits.
  destruct e; cbn in NC, NB; try tauto; try (cbn [step] in H; inversion H; subst; cbn; repeat split; auto; discriminate).
  - destruct (poll_cases _ _ _ IV H) as [(-> & -> & _)|(tr & EF & _)]; [|congruence]. repeat split; auto; discriminate.
  - destruct (end_cases _ _ _ H) as (k & E & _). congruence.
  - cbn [step] in H. destruct (d_traj s); inversion H; subst; cbn. repeat split; auto; discriminate.
  - cbn [step] in H. unfold comp_speed in H. rewrite W1 in H. discriminate.
  - cbn [step] in H. unfold comp_done in H. rewrite W1 in H. discriminate.
Qed.

(** After collecting: the pending waypoints are at the end of the next plan. *)
Definition new_tail (l : list waypoint) : Prop :=
  exists pre ws', l = pre ++ ws' /\ Forall2 (fun w w' => same_place w w' /\ w_time w' <= 0) pending ws'.
Definition collected_ (p : pc) (s : state) : Prop :=
  waits s /\ d_set s = [] /\ d_add s = [] /\ d_pc s = p /\ new_tail (d_next s).
Definition prepared (p : pc) (s : state) : Prop :=
  waits s /\ d_set s = [] /\ d_add s = [] /\ d_pc s = p /\ ends_with pending (d_next s).

Hypothesis Pne : pending <> [].
Hypothesis Ptime : Forall (fun w => w_time w <= 0) pending.

Lemma copies_same ws : Forall (fun w => w_time w <= 0) ws -> Forall2 (fun w w' => same_place w w' /\ w_time w' <= 0) ws (map wp_copy ws).
Proof. induction 1; cbn; constructor; auto. split; [|exact H]. split; [|split]; reflexivity. Qed.

Lemma next_tail s : d_mod s = [] -> d_set s = S0 -> d_add s = A0 -> new_tail (next_waypoints s) /\ next_waypoints s <> [].
Proof.
  intros M E1 E2. unfold next_waypoints. rewrite M, E1, E2. cbn [fold_left].
  assert (T : new_tail ((match S0 with [] => map wp_reset (filter_passed (p_global (d_par s)) (map wp_copy (d_dyn s))) | _ => map wp_copy S0 end) ++ map wp_copy A0)).
  { unfold new_tail. unfold pending in *. destruct S0 as [|w ws] eqn:ES.
    - eexists. exists (map wp_copy A0). split; [reflexivity|]. apply copies_same. exact Ptime.
    - exists [], (map wp_copy (w :: ws) ++ map wp_copy A0). split; [reflexivity|]. rewrite <- map_app. apply copies_same. exact Ptime. }
  split; [exact T|]. destruct T as (pre & ws' & E & F). rewrite E. intros X. apply app_eq_nil in X. destruct X as [_ X]. subst ws'.
  inversion F. congruence.
Qed.

(** One step of the background thread while listening. *)
Lemma listen_back s s' o : listens s -> step s Back = Ok s' o ->
  o = Quiet /\
  match d_pc s with
  | PTop => listens s' /\ d_pc s' = PZone
  | PZone => listens s' /\ d_pc s' = (if in_zone s then PElse else PComp)
  | PComp => listens s' /\ d_pc s' = PGen
  | PGen => collected_ PParams s'
  | PElse => listens s' /\ d_pc s' = PTop
  | _ => True
  end.
Proof.
  intros ((W1 & W2 & W3 & W4 & W5) & C & E1 & E2 & L) H. cbn [step] in H. unfold back_step in H.
  destruct (d_pc s) eqn:EP; try (exfalso; unfold listening in L; destruct L as [L|[L|[L|[L|L]]]]; discriminate).
  - rewrite W4, W2 in H. inversion H; subst. unfold listens, waits, listening. cbn. repeat split; auto.
  - inversion H; subst. unfold listens, waits, listening. cbn. destruct (in_zone s); repeat split; auto 6.
  - rewrite C in H. inversion H; subst. unfold listens, waits, listening. cbn. repeat split; auto 6.
  - destruct (next_tail s W5 E1 E2) as [T N]. destruct (next_waypoints s) as [|w ws] eqn:EN; [congruence|].
    inversion H; subst. split; [reflexivity|]. unfold collected_, waits. cbn. repeat split; auto.
  - rewrite W5 in H. inversion H; subst. unfold listens, waits, listening. cbn. repeat split; auto 6.
Qed.
Lemma listen_step m : (n0 <= m)%nat -> listens (st m) ->
  ob m <> Launched /\
  ((of_background (ev m) /\ match d_pc (st m) with
     | PTop => listens (st (S m)) /\ d_pc (st (S m)) = PZone
     | PZone => listens (st (S m)) /\ d_pc (st (S m)) = (if in_zone (st m) then PElse else PComp)
     | PComp => listens (st (S m)) /\ d_pc (st (S m)) = PGen
     | PGen => collected_ PParams (st (S m))
     | PElse => listens (st (S m)) /\ d_pc (st (S m)) = PTop
     | _ => True
     end) \/
   (~ of_background (ev m) /\ listens (st (S m)) /\ d_pc (st (S m)) = d_pc (st m))).
Proof.
  intros L HL. destruct (HX m) as [HO HS]. pose proof (inv_at m L) as IV. pose proof (HA m L) as NC.
  assert (B : of_background (ev m) \/ ~ of_background (ev m)) by apply classic. destruct B as [B|B].
  - destruct (ev m) eqn:EV; cbn in B; try tauto.
    + destruct (listen_back _ _ _ HL HS) as [-> H]. split; [discriminate|]. left. auto.
    + exfalso. destruct (torn_cases _ _ _ _ HS) as (_ & _ & _ & _ & tr & E). destruct HL as ((W & _) & _). congruence.
  - destruct HL as (W & C & E1 & E2 & LI). destruct (calm_step _ _ _ _ IV NC B W HO HS) as (X1 & X2 & X3 & X4 & X5 & _ & X6).
    split; auto. right. split; auto. unfold listens. rewrite X2, X3, X4, X5. auto 6.
Qed.
Lemma listen_can s : listens s -> can s Back.
Proof.
  intros ((W1 & W2 & W3 & W4 & W5) & C & E1 & E2 & L). unfold can. cbn [step]. unfold back_step.
  destruct (d_pc s) eqn:EP; try (exfalso; unfold listening in L; destruct L as [L|[L|[L|[L|L]]]]; discriminate); eauto.
  - rewrite W4. eauto.
  - destruct (next_waypoints s); eauto.
  - rewrite W5. eauto.
Qed.

(** After collecting. *)
Lemma stitch_keeps tr s : new_tail (d_next s) -> ends_with pending (stitch_waypoints tr s).
Proof.
  intros (pre & ws' & E & F). unfold stitch_waypoints. rewrite E, filter_app, map_app.
  assert (K : forall b, filter (fun w => negb (stitch_drop b w)) ws' = ws').
  { clear E Pne Ptime. intros b. induction F as [|w w' ws ws' [_ T] F IH]; [reflexivity|]. cbn [filter].
    replace (stitch_drop b w') with false; [cbn; congruence|]. unfold stitch_drop. symmetry.
    replace (Rltb 0 (w_time w')) with false by (symmetry; apply Rltb_false; lra). apply andb_false_r. }
  rewrite K. eexists (_ :: _ :: _), (map wp_copy ws'). split; [reflexivity|].
  clear -F. induction F as [|w w' ws ws' [S _] F IH]; cbn; constructor; auto.
Qed.
Lemma tail_ends l : new_tail l -> ends_with pending l.
Proof.
  intros (pre & ws' & E & F). exists pre, ws'. split; auto. clear -F. induction F as [|w w' ws ws' [S _] F IH]; constructor; auto.
Qed.

Definition getting_ready (s : state) : Prop :=
  collected_ PParams s \/ collected_ PCheck s \/ collected_ PStitch s \/ collected_ PScratch s \/
  prepared PLaunch s \/ prepared PAsync s.
(** From PClear on: the computation in flight. *)
Definition calm (s : state) : Prop :=
  d_stop s = false /\ d_set s = [] /\ d_add s = [] /\ d_mod s = [] /\ (d_flag s = true -> d_pc s = PClear) /\
  (d_pc s = PClear \/ d_pc s = PTop \/ d_pc s = PElse).
Definition flying (s : state) : Prop := calm s /\ d_fut s = FStarted /\ ends_with pending (d_next s).

Lemma ready_back s s' o : inv s -> getting_ready s -> step s Back = Ok s' o ->
  (collected_ PParams s -> collected_ PCheck s') /\
  (collected_ PCheck s -> collected_ PStitch s' \/ collected_ PScratch s') /\
  (collected_ PStitch s \/ collected_ PScratch s -> prepared PLaunch s') /\
  (prepared PLaunch s -> prepared PAsync s') /\
  (prepared PAsync s -> flying s').
Proof.
  intros IV G H. cbn [step] in H. unfold back_step in H.
  unfold collected_, prepared, flying, calm, waits.
  split; [|split; [|split; [|split]]].
  - intros ((W1 & W2 & W3 & W4 & W5) & E1 & E2 & EP & T). rewrite EP in H. inversion H; subst. cbn. repeat split; auto.
  - intros ((W1 & W2 & W3 & W4 & W5) & E1 & E2 & EP & T). rewrite EP in H. inversion H; subst. cbn.
    destruct (can_stitch s); [left|right]; repeat split; auto.
  - intros [((W1 & W2 & W3 & W4 & W5) & E1 & E2 & EP & T)|((W1 & W2 & W3 & W4 & W5) & E1 & E2 & EP & T)]; rewrite EP in H.
    + destruct (d_traj s) as [tr|] eqn:ET; [|discriminate]. inversion H; subst. cbn.
      repeat split; auto. now apply stitch_keeps.
    + inversion H; subst. cbn. repeat split; auto. destruct (tail_ends _ T) as (pre & ws' & E & F). exists (drone_waypoint (d_vehicle s) :: pre), ws'.
      rewrite E. split; auto.
  - intros ((W1 & W2 & W3 & W4 & W5) & E1 & E2 & EP & T). rewrite EP in H. inversion H; subst. cbn. repeat split; auto.
  - intros ((W1 & W2 & W3 & W4 & W5) & E1 & E2 & EP & T). rewrite EP, (i_unlocked s IV) in H. inversion H; subst. cbn. repeat split; auto.
Qed.
Lemma ready_other (X : state -> Prop) m : (n0 <= m)%nat -> ~ of_background (ev m) ->
  (X = collected_ PParams \/ X = collected_ PCheck \/ (exists p, X = collected_ p) \/ exists p, X = prepared p) -> X (st m) -> X (st (S m)).
Proof.
  intros L B HXs H. destruct (HX m) as [HO HS]. pose proof (inv_at m L) as IV. pose proof (HA m L) as NC.
  assert (W : waits (st m)) by (destruct HXs as [-> | [-> | [(p & ->)|(p & ->)]]]; apply H).
  destruct (calm_step _ _ _ _ IV NC B W HO HS) as (X1 & X2 & X3 & X4 & X5 & X6 & _).
  destruct HXs as [-> | [-> | [(p & ->)|(p & ->)]]]; unfold collected_, prepared in *; rewrite X3, X4, X5, X6; tauto.
Qed.
Lemma ready_event m : (n0 <= m)%nat -> waits (st m) -> of_background (ev m) -> step (st m) Back = Ok (st (S m)) (ob m).
Proof.
  intros L W B. destruct (HX m) as [HO HS]. destruct (ev m) eqn:EV; cbn in B; try tauto.
  exfalso. destruct (torn_cases _ _ _ _ HS) as (_ & _ & _ & _ & tr & E). destruct W as (W & _). congruence.
Qed.
Lemma ready_can s : inv s -> getting_ready s -> can s Back.
Proof.
  intros IV G. unfold can. cbn [step]. unfold back_step.
  destruct G as [G|[G|[G|[G|[G|G]]]]]; unfold collected_, prepared in G; destruct G as (W & _ & _ & EP & _); rewrite EP; eauto.
  - pose proof (i_stitch s IV EP) as X. destruct (d_traj s); [eauto|congruence].
  - rewrite (i_unlocked s IV). eauto.
Qed.
Lemma one_back (X Y : state -> Prop) n : (n0 <= n)%nat ->
  (forall s, X s -> getting_ready s) -> ((exists p, X = collected_ p) \/ exists p, X = prepared p) ->
  (forall s s' o, inv s -> X s -> step s Back = Ok s' o -> Y s') ->
  X (st n) -> exists m, (n <= m)%nat /\ Y (st m).
Proof.
  intros L HG HK HY Hn. destruct HF as [FB _].
  apply (leads (fun m => X (st m)) (fun m => Y (st m)) of_background (fun s => can s Back) n FB); auto.
  - intros m Lm Xm. destruct (classic (of_background (ev m))) as [B|B].
    + right. apply (HY (st m) _ (ob m)); auto; [apply inv_at; lia|]. apply ready_event; auto; [lia|].
      destruct HK as [(p & ->)|(p & ->)]; apply Xm.
    + left. apply (ready_other X m); [lia|exact B| |exact Xm]. tauto.
  - intros m Lm Xm. apply ready_can; auto. apply inv_at. lia.
  - intros m Lm Xm B. apply (HY (st m) _ (ob m)); auto; [apply inv_at; lia|]. apply ready_event; auto; [lia|].
    destruct HK as [(p & ->)|(p & ->)]; apply Xm.
Qed.
Lemma collected_flies n : (n0 <= n)%nat -> collected_ PParams (st n) -> exists m, (n <= m)%nat /\ flying (st m).
Proof.
  intros L H.
  assert (G : forall s, collected_ PParams s \/ collected_ PCheck s \/ collected_ PStitch s \/ collected_ PScratch s \/ prepared PLaunch s \/ prepared PAsync s -> getting_ready s) by (intros s X; exact X).
  destruct (one_back (collected_ PParams) (collected_ PCheck) n) as (n1 & L1 & H1); [lia|intros s X; apply G; tauto|left; eexists; reflexivity|intros s s' o IV X S; apply (ready_back s s' o IV); auto; apply G; tauto|exact H|].
  destruct (one_back (collected_ PCheck) (fun s => collected_ PStitch s \/ collected_ PScratch s) n1) as (n2 & L2 & H2); [lia|intros s X; apply G; tauto|left; eexists; reflexivity|intros s s' o IV X S; apply (ready_back s s' o IV); auto; apply G; tauto|exact H1|].
  assert (H3 : exists n3, (n2 <= n3)%nat /\ prepared PLaunch (st n3)).
  { destruct H2 as [H2|H2].
    - apply (one_back (collected_ PStitch)); [lia|intros s X; apply G; tauto|left; eexists; reflexivity|intros s s' o IV X S; apply (ready_back s s' o IV); auto; apply G; tauto|exact H2].
    - apply (one_back (collected_ PScratch)); [lia|intros s X; apply G; tauto|left; eexists; reflexivity|intros s s' o IV X S; apply (ready_back s s' o IV); auto; apply G; tauto|exact H2]. }
  destruct H3 as (n3 & L3 & H3).
  destruct (one_back (prepared PLaunch) (prepared PAsync) n3) as (n4 & L4 & H4); [lia|intros s X; apply G; tauto|right; eexists; reflexivity|intros s s' o IV X S; apply (ready_back s s' o IV); auto; apply G; tauto|exact H3|].
  destruct (one_back (prepared PAsync) flying n4) as (n5 & L5 & H5); [lia|intros s X; apply G; tauto|right; eexists; reflexivity|intros s s' o IV X S; apply (ready_back s s' o IV); auto; apply G; tauto|exact H4|].
  exists n5. split; [lia|auto].
Qed.

(** The request is collected. *)
Definition heard (m : nat) : Prop := forall k, (n0 <= k <= m)%nat -> listens (st k).
Lemma heard_step m : (n0 <= m)%nat -> heard m ->
  heard (S m) \/ collected_ PParams (st (S m)).
Proof.
  intros L H. assert (Lm : listens (st m)) by (apply H; lia). destruct (listen_step m L Lm) as [_ X].
  assert (D : listens (st (S m)) \/ collected_ PParams (st (S m))).
  { destruct X as [(B & X)|(B & X & _)]; [|left; exact X].
    destruct Lm as (_ & _ & _ & _ & LI). unfold listening in LI.
    destruct LI as [E|[E|[E|[E|E]]]]; rewrite E in X; tauto. }
  destruct D as [D|D]; [left|right; exact D]. intros k Hk. destruct (Nat.eq_dec k (S m)) as [-> | N]; auto. apply H. lia.
Qed.
Lemma heard_quiet m : heard m -> forall k, (n0 <= k <= m)%nat -> ob k <> Launched.
Proof. intros H k Hk. apply (listen_step k); [lia|]. apply H. lia. Qed.

Variable n1 : nat.
Hypothesis L1 : (n0 <= n1)%nat.
Hypothesis HZ : forall m, (n1 <= m)%nat -> in_zone (st m) = true -> exists k, (n0 <= k < m)%nat /\ ob k = Launched.

Lemma heard_zone m : (n1 <= m)%nat -> heard m -> in_zone (st m) = false.
Proof.
  intros L H. destruct (in_zone (st m)) eqn:E; auto. destruct (HZ m L E) as (k & Hk & EK).
  exfalso. apply (heard_quiet m H k); [lia|exact EK].
Qed.
Definition heard_at (p : pc) (m : nat) : Prop := heard m /\ d_pc (st m) = p.
Lemma heard_snoc m : heard m -> listens (st (S m)) -> heard (S m).
Proof. intros H D k Hk. destruct (Nat.eq_dec k (S m)) as [-> | N]; auto. apply H. lia. Qed.
Lemma one_listen p (Q : nat -> Prop) n : (n1 <= n)%nat ->
  (forall m, (n1 <= m)%nat -> heard_at p m -> of_background (ev m) -> Q (S m)) ->
  heard_at p n -> exists m, (n <= m)%nat /\ Q m.
Proof.
  intros L HQ Hn. destruct HF as [FB _].
  apply (leads (heard_at p) Q of_background (fun s => can s Back) n FB); auto.
  - intros m Lm [Hm Em]. destruct (classic (of_background (ev m))) as [B|B].
    + right. apply HQ; auto; [lia|split; auto].
    + left. assert (Lh : listens (st m)) by (apply Hm; lia). destruct (listen_step m) as [_ [(B' & _)|(_ & X & E)]]; auto; try lia; [tauto|].
      split; [apply heard_snoc; auto|congruence].
  - intros m Lm [Hm _]. apply listen_can. apply Hm. lia.
  - intros m Lm Hm B. apply HQ; auto. lia.
Qed.
Lemma listening_collected : listens (st n0) -> exists m, (n0 <= m)%nat /\ collected_ PParams (st m).
Proof.
  intros H0.
  assert (D : forall m, (n0 <= m)%nat -> heard m \/ exists k, (n0 <= k)%nat /\ collected_ PParams (st k)).
  { intros m L. induction L as [|m L IH].
    - left. intros k Hk. replace k with n0 by lia. exact H0.
    - destruct IH as [IH|IH]; [|right; exact IH]. destruct (heard_step m L IH) as [X|X]; [left; exact X|right; exists (S m); split; [lia|exact X]]. }
  destruct (D n1 L1) as [Hn|Hn]; [|exact Hn].
  assert (SL : forall m, (n1 <= m)%nat -> heard m -> listens (st m)) by (intros m Lm Hm; apply Hm; lia).
  assert (ST : forall p m, (n1 <= m)%nat -> heard_at p m -> of_background (ev m) ->
    match p with
    | PTop => heard_at PZone (S m) | PZone => heard_at PComp (S m) | PComp => heard_at PGen (S m)
    | PGen => collected_ PParams (st (S m)) | PElse => heard_at PTop (S m) | _ => True end).
  { intros p m Lm [Hm Em] B. destruct (listen_step m) as [_ [(_ & X)|(B' & _)]]; [lia|auto| |tauto].
    rewrite Em in X. destruct p; auto.
    - split; [apply heard_snoc|]; tauto.
    - rewrite (heard_zone m Lm Hm) in X. split; [apply heard_snoc|]; tauto.
    - split; [apply heard_snoc|]; tauto.
    - split; [apply heard_snoc|]; tauto. }
  assert (G : forall n, (n1 <= n)%nat -> heard_at PGen n -> exists m, (n0 <= m)%nat /\ collected_ PParams (st m)).
  { intros n L X. destruct (one_listen PGen (fun m => collected_ PParams (st m)) n L (ST PGen) X) as (m & Lm & Q). exists m. split; [lia|exact Q]. }
  assert (C : forall n, (n1 <= n)%nat -> heard_at PComp n -> exists m, (n0 <= m)%nat /\ collected_ PParams (st m)).
  { intros n L X. destruct (one_listen PComp (heard_at PGen) n L (ST PComp) X) as (m & Lm & Q). apply (G m); [lia|exact Q]. }
  assert (Z : forall n, (n1 <= n)%nat -> heard_at PZone n -> exists m, (n0 <= m)%nat /\ collected_ PParams (st m)).
  { intros n L X. destruct (one_listen PZone (heard_at PComp) n L (ST PZone) X) as (m & Lm & Q). apply (C m); [lia|exact Q]. }
  assert (T : forall n, (n1 <= n)%nat -> heard_at PTop n -> exists m, (n0 <= m)%nat /\ collected_ PParams (st m)).
  { intros n L X. destruct (one_listen PTop (heard_at PZone) n L (ST PTop) X) as (m & Lm & Q). apply (Z m); [lia|exact Q]. }
  assert (E : forall n, (n1 <= n)%nat -> heard_at PElse n -> exists m, (n0 <= m)%nat /\ collected_ PParams (st m)).
  { intros n L X. destruct (one_listen PElse (heard_at PTop) n L (ST PElse) X) as (m & Lm & Q). apply (T m); [lia|exact Q]. }
  destruct (SL n1 (le_n _) Hn) as (_ & _ & _ & _ & LI). unfold listening in LI.
  destruct LI as [X|[X|[X|[X|X]]]].
  - apply (T n1); [lia|split; auto].
  - apply (Z n1); [lia|split; auto].
  - apply (C n1); [lia|split; auto].
  - apply (G n1); [lia|split; auto].
  - apply (E n1); [lia|split; auto].
Qed.

(** The computation, the swap, and afterwards. *)
Lemma calm_keep s e s' o : inv s -> ~ changes_plan e -> calm s -> event_ok post s e -> step s e = Ok s' o ->
  calm s' /\
  match e with
  | Poll => (s' = s /\ forall tr, d_fut s <> FReady tr) \/
            (exists tr, d_fut s = FReady tr /\ d_fut s' = FNone /\ d_traj s' = Some tr /\ d_dyn s' = map wp_copy (d_next s) /\ d_pc s' = d_pc s)
  | CompSpeed => d_fut s = FStarted /\ (exists v, d_fut s' = FRunning v) /\ d_next s' = d_next s
  | CompDone tr _ => (exists v, d_fut s = FRunning v) /\ d_fut s' = FReady tr /\ exists g, retime (t_segs tr) g 0 (d_next s) = Some (d_next s')
  | _ => d_fut s' = d_fut s /\ d_next s' = d_next s /\ d_traj s' = d_traj s /\ d_dyn s' = d_dyn s /\ (e <> Back -> d_pc s' = d_pc s) /\
         (e = Back -> d_pc s' <> PClear)
  end.
Proof.
  intros IV NC (K1 & K2 & K3 & K4 & K5 & K6) HO H. unfold calm.
  destruct e; cbn in NC; try tauto.
  - destruct (poll_cases _ _ _ IV H) as [(-> & -> & _ & X)|(tr & EF & ES & ->)].
    + split; [auto 8|]. left. auto.
    + apply swap_fields in ES. destruct ES as (F1 & F2 & F3 & F4 & F5 & F6 & F7 & F8 & F9 & F10 & F11 & F12 & _).
      rewrite F2, F6, F9, F10, F11, F12. split; [auto 8|]. right. exists tr. auto.
  - destruct (end_cases _ _ _ H) as (k & E & -> & _). cbn. split; [repeat split; auto; discriminate|]. repeat split; auto; discriminate.
  - cbn [step] in H. destruct (d_traj s) eqn:ET; inversion H; subst; cbn. split; [auto 8|]. rewrite ET. repeat split; auto; discriminate.
  - cbn [step] in H. inversion H; subst; cbn. split; [auto 8|]. repeat split; auto; discriminate.
  - cbn [step] in H. inversion H; subst; cbn. split; [auto 8|]. repeat split; auto; discriminate.
  - cbn [step] in H. inversion H; subst; cbn. split; [auto 8|]. repeat split; auto; discriminate.
  - cbn [step] in H. unfold back_step in H. destruct K6 as [E|[E|E]]; rewrite E in *.
    + inversion H; subst; cbn. split; [repeat split; auto; discriminate|]. repeat split; auto; congruence.
    + assert (FL : d_flag s = false) by (destruct (d_flag s); [discriminate (K5 eq_refl)|reflexivity]).
      rewrite K1, FL in H. inversion H; subst; cbn. split; [repeat split; auto; congruence|]. repeat split; auto; congruence.
    + rewrite K4 in H. inversion H; subst; cbn. split; [repeat split; auto; intros Q; discriminate (K5 Q)|]. repeat split; auto; congruence.
  - destruct (torn_cases _ _ _ _ H) as (_ & _ & E & _). rewrite E in K6. destruct K6 as [Q|[Q|Q]]; discriminate Q.
  - cbn [step] in H. unfold comp_speed in H. destruct (d_fut s) eqn:EF; try discriminate.
    destruct (extract_vertices (d_next s)) as [vs|] eqn:EV; [|discriminate].
    pose proof (extract_length _ _ EV) as HL.
    assert (H2 : (2 <= length (d_next s))%nat) by (apply (i_two s IV); right; right; congruence).
    destruct (Nat.ltb_spec (length vs) 2); [lia|]. inversion H; subst; cbn. split; [auto 8|]. split; auto. split; eauto.
  - pose proof (step_inv post _ _ _ _ HP IV HO H) as IV'. cbn [step] in H. unfold comp_done in H.
    destruct (d_fut s) eqn:EF; try discriminate. destruct (retime _ _ _ _) as [ws|] eqn:ER.
    + inversion H; subst; cbn. split; [auto 8|]. split; [eauto|]. split; auto. exists (p_gtl (d_new s)). exact ER.
    + inversion H; subst. destruct (i_noexn _ IV' eq_refl).
Qed.
Lemma retime_same segs g : forall ws i ws', retime segs g i ws = Some ws' -> Forall2 same_place ws ws'.
Proof.
  induction ws as [|w ws IH]; intros i ws' H; cbn in H; [inversion H; constructor|].
  destruct (cumulative_time segs i); [|discriminate]. destruct (retime segs g (S i) ws) eqn:E; [|discriminate].
  inversion H; subst. constructor; [split; [|split]; reflexivity|]. eapply IH; eauto.
Qed.
Lemma ends_trans ws l l' : ends_with ws l -> Forall2 same_place l l' -> ends_with ws l'.
Proof.
  intros (pre & t & -> & F) G. apply Forall2_app_inv_l in G. destruct G as (p' & t' & _ & G & ->). exists p', t'. split; auto.
  revert t' G. clear Pne Ptime. induction F as [|a b x y S F IH]; intros t' G; inversion G; subst; constructor; auto.
  destruct S as (A & B & C). match goal with X : same_place b _ |- _ => destruct X as (A' & B' & C') end. split; [|split]; congruence.
Qed.
Lemma copy_same l : Forall2 same_place l (map wp_copy l).
Proof. induction l; cbn; constructor; auto. split; [|split]; reflexivity. Qed.

Definition computing_ (s : state) : Prop := calm s /\ (exists v, d_fut s = FRunning v) /\ ends_with pending (d_next s).
Definition finished_ (s : state) : Prop := calm s /\ (exists tr, d_fut s = FReady tr) /\ ends_with pending (d_next s).
Definition published (s : state) : Prop := calm s /\ d_fut s = FNone /\ d_traj s <> None /\ ends_with pending (d_dyn s).

Lemma calm_next m : (n0 <= m)%nat -> calm (st m) -> calm (st (S m)) /\
  match ev m with
  | Poll => (st (S m) = st m /\ forall tr, d_fut (st m) <> FReady tr) \/
            (exists tr, d_fut (st m) = FReady tr /\ d_fut (st (S m)) = FNone /\ d_traj (st (S m)) = Some tr /\
               d_dyn (st (S m)) = map wp_copy (d_next (st m)) /\ d_pc (st (S m)) = d_pc (st m))
  | CompSpeed => d_fut (st m) = FStarted /\ (exists v, d_fut (st (S m)) = FRunning v) /\ d_next (st (S m)) = d_next (st m)
  | CompDone tr _ => (exists v, d_fut (st m) = FRunning v) /\ d_fut (st (S m)) = FReady tr /\
      exists g, retime (t_segs tr) g 0 (d_next (st m)) = Some (d_next (st (S m)))
  | e => d_fut (st (S m)) = d_fut (st m) /\ d_next (st (S m)) = d_next (st m) /\ d_traj (st (S m)) = d_traj (st m) /\
         d_dyn (st (S m)) = d_dyn (st m) /\ (e <> Back -> d_pc (st (S m)) = d_pc (st m)) /\ (e = Back -> d_pc (st (S m)) <> PClear)
  end.
Proof.
  intros L K. destruct (HX m) as [HO HS]. pose proof (calm_keep _ _ _ _ (inv_at m L) (HA m L) K HO HS) as X.
  destruct (ev m); exact X.
Qed.

Lemma flying_computing n : (n0 <= n)%nat -> flying (st n) -> exists m, (n <= m)%nat /\ computing_ (st m).
Proof.
  intros L H. destruct HF as (_ & _ & FC).
  assert (X : forall m, (n <= m)%nat -> flying (st m) ->
    (of_computation (ev m) -> computing_ (st (S m))) /\ (flying (st (S m)) \/ computing_ (st (S m)))).
  { intros m Lm (K & EF & T). destruct (calm_next m ltac:(lia) K) as [K' Q]. unfold flying, computing_.
    assert (D : of_computation (ev m) -> calm (st (S m)) /\ (exists v, d_fut (st (S m)) = FRunning v) /\ ends_with pending (d_next (st (S m)))).
    { destruct (ev m); cbn; try tauto.
      - intros _. destruct Q as (_ & Q1 & ->). auto.
      - destruct Q as ((v & Q) & _). congruence. }
    split; [exact D|]. destruct (ev m) eqn:EV; try (left; destruct Q as (-> & -> & _); auto; fail); try (right; apply D; exact Logic.I).
    destruct Q as [[-> _]|(tr & Q & _)]; [left; auto|congruence]. }
  apply (leads (fun m => flying (st m)) (fun m => computing_ (st m)) of_computation running n FC); auto.
  - intros m Lm Hm. apply X; auto.
  - intros m Lm (_ & EF & _). left. exact EF.
  - intros m Lm Hm. apply X; auto.
Qed.
Lemma computing_finished n : (n0 <= n)%nat -> computing_ (st n) -> exists m, (n <= m)%nat /\ finished_ (st m).
Proof.
  intros L H. destruct HF as (_ & _ & FC).
  assert (X : forall m, (n <= m)%nat -> computing_ (st m) ->
    (of_computation (ev m) -> finished_ (st (S m))) /\ (computing_ (st (S m)) \/ finished_ (st (S m)))).
  { intros m Lm (K & (v & EF) & T). destruct (calm_next m ltac:(lia) K) as [K' Q]. unfold computing_, finished_.
    assert (D : of_computation (ev m) -> calm (st (S m)) /\ (exists tr, d_fut (st (S m)) = FReady tr) /\ ends_with pending (d_next (st (S m)))).
    { destruct (ev m); cbn; try tauto.
      - destruct Q as (Q & _). congruence.
      - intros _. destruct Q as (_ & Q & g & R). split; auto. split; [eauto|]. eapply ends_trans; [exact T|]. eapply retime_same; eauto. }
    split; [exact D|]. destruct (ev m) eqn:EV; try (left; destruct Q as (-> & -> & _); eauto; fail); try (right; apply D; exact Logic.I).
    destruct Q as [[-> _]|(tr & Q & _)]; [left; eauto|congruence]. }
  apply (leads (fun m => computing_ (st m)) (fun m => finished_ (st m)) of_computation running n FC); auto.
  - intros m Lm Hm. apply X; auto.
  - intros m Lm (_ & EF & _). right. exact EF.
  - intros m Lm Hm. apply X; auto.
Qed.
Lemma finished_published n : (n0 <= n)%nat -> finished_ (st n) -> exists m, (n <= m)%nat /\ published (st m).
Proof.
  intros L H. destruct HF as (_ & FP & _).
  assert (X : forall m, (n <= m)%nat -> finished_ (st m) ->
    (ev m = Poll -> published (st (S m))) /\ (finished_ (st (S m)) \/ published (st (S m)))).
  { intros m Lm (K & (tr & EF) & T). destruct (calm_next m ltac:(lia) K) as [K' Q]. unfold finished_, published.
    assert (D : ev m = Poll -> calm (st (S m)) /\ d_fut (st (S m)) = FNone /\ d_traj (st (S m)) <> None /\ ends_with pending (d_dyn (st (S m)))).
    { intros E. rewrite E in Q. destruct Q as [[_ Q]|(tr' & _ & Q2 & Q3 & Q4 & _)]; [destruct (Q tr EF)|].
      split; auto. split; auto. split; [congruence|]. rewrite Q4. eapply ends_trans; [exact T|apply copy_same]. }
    split; [exact D|]. destruct (ev m) eqn:EV; try (left; destruct Q as (-> & -> & _); eauto; fail); try (right; apply D; reflexivity).
    - destruct Q as (Q & _). congruence.
    - destruct Q as ((v & Q) & _). congruence. }
  apply (leads (fun m => finished_ (st m)) (fun m => published (st m)) (fun e => e = Poll) (fun s => can s Poll) n FP); auto.
  - intros m Lm Hm. apply X; auto.
  - intros m Lm (K & (tr & EF) & T). pose proof (inv_at m ltac:(lia)) as IV. destruct (swap_inv _ tr IV EF) as (s2 & E & _).
    unfold can. cbn [step]. unfold do_poll. rewrite (i_unlocked _ IV), EF, (inv_computing _ IV) by congruence. rewrite E.
    destruct (d_traj (st m)); eauto.
  - intros m Lm Hm. apply X; auto.
Qed.
Lemma published_stays n m : (n0 <= n)%nat -> (n <= m)%nat -> published (st n) ->
  published (st m) /\ d_traj (st m) = d_traj (st n) /\ d_dyn (st m) = d_dyn (st n) /\ (d_pc (st n) <> PClear -> d_pc (st m) <> PClear).
Proof.
  intros L Lm H. induction Lm as [|m Lm IH]; [auto|].
  destruct IH as ((K & EF & ET & T) & E1 & E2 & E3). destruct (calm_next m ltac:(lia) K) as [K' Q]. unfold published.
  assert (D : d_fut (st (S m)) = FNone /\ d_traj (st (S m)) = d_traj (st m) /\ d_dyn (st (S m)) = d_dyn (st m) /\
    (d_pc (st m) <> PClear -> d_pc (st (S m)) <> PClear)).
  { destruct (ev m) eqn:EV; try (destruct Q as (-> & _ & -> & -> & Q1 & Q2); repeat split; auto;
      first [rewrite Q1 by discriminate; auto; fail | intros _; apply Q2; reflexivity]).
    - destruct Q as [[-> _]|(tr & Q & _)]; [auto|congruence].
    - destruct Q as (Q & _). congruence.
    - destruct Q as ((v & Q) & _). congruence. }
  destruct D as (D1 & D2 & D3 & D4). rewrite D1, D2, D3. auto 8.
Qed.
Lemma published_settles n : (n0 <= n)%nat -> published (st n) -> exists m, (n <= m)%nat /\ published (st m) /\ d_pc (st m) <> PClear.
Proof.
  intros L H. destruct HF as (FB & _).
  assert (X : forall m, (n <= m)%nat -> published (st m) -> of_background (ev m) -> published (st (S m)) /\ d_pc (st (S m)) <> PClear).
  { intros m Lm Hm B. split; [apply (published_stays m (S m)); auto; lia|]. destruct Hm as (K & _).
    destruct (calm_next m ltac:(lia) K) as [K' Q]. destruct (ev m) eqn:EV; cbn in B; try tauto.
    - apply Q. reflexivity.
    - destruct (HX m) as [_ HS]. rewrite EV in HS. destruct (torn_cases _ _ _ _ HS) as (_ & _ & E & _).
      destruct K as (_ & _ & _ & _ & _ & K). rewrite E in K. destruct K as [K|[K|K]]; discriminate K. }
  apply (leads (fun m => published (st m)) (fun m => published (st m) /\ d_pc (st m) <> PClear) of_background (fun s => can s Back) n FB); auto.
  - intros m Lm Hm. left. apply (published_stays m (S m)); auto; lia.
  - intros m Lm ((K1 & K2 & K3 & K4 & K5 & K6) & _). unfold can. cbn [step]. unfold back_step.
    destruct K6 as [E|[E|E]]; rewrite E; eauto.
    + rewrite K1. eauto.
    + rewrite K4. eauto.
Qed.
Lemma served : listens (st n0) -> exists m, (n0 <= m)%nat /\
  ends_with pending (d_dyn (st m)) /\ d_traj (st m) <> None /\
  forall k, (m <= k)%nat -> d_flag (st k) = false /\ d_computing (st k) = false /\ d_traj (st k) = d_traj (st m) /\ d_dyn (st k) = d_dyn (st m).
Proof.
  intros H0. destruct (listening_collected H0) as (a & La & Ha). destruct (collected_flies a La Ha) as (b & Lb & Hb).
  destruct (flying_computing b ltac:(lia) Hb) as (c & Lc & Hc). destruct (computing_finished c ltac:(lia) Hc) as (d & Ld & Hd).
  destruct (finished_published d ltac:(lia) Hd) as (e & Le & He). destruct (published_settles e ltac:(lia) He) as (m & Lm & Hm & Pm).
  exists m. split; [lia|]. destruct Hm as (K & EF & ET & T). split; auto. split; auto. intros k Lk.
  destruct (published_stays m k ltac:(lia) Lk ltac:(split; auto)) as ((K' & EF' & _) & E1 & E2 & E3). specialize (E3 Pm).
  split; [|split; auto].
  - destruct (d_flag (st k)) eqn:F; auto. destruct K' as (_ & _ & _ & _ & Q & _). destruct (E3 (Q F)).
  - destruct (d_computing (st k)) eqn:C; auto. pose proof (proj1 (i_comp _ (inv_at k ltac:(lia))) C) as [X|X]; [|congruence].
    destruct K' as (_ & _ & _ & _ & _ & Q). rewrite X in Q. destruct Q as [Q|[Q|Q]]; discriminate Q.
Qed.
End Live.

(** ** Building infinite executions *)

(** A finite run followed by a run from its last state to itself, over and over. *)
Section Lasso.
Variables (post : list vertex -> trajectory -> Prop) (pre loop : list (event * obs)) (s0 s1 : state).
Hypothesis RP : run post s0 pre s1.
Hypothesis RL : run post s1 loop s1.
Hypothesis LN : (0 < length loop)%nat.
Definition lasso_at (n : nat) : event * obs :=
  if (n <? length pre)%nat then nth n pre (Back, Quiet) else nth ((n - length pre) mod length loop) loop (Back, Quiet).
Fixpoint lasso_st (n : nat) : state :=
  match n with
  | O => s0
  | S n => match step (lasso_st n) (fst (lasso_at n)) with Ok s _ => s | _ => lasso_st n end
  end.
Lemma lasso_run tr : forall n s s', run post s tr s' -> lasso_st n = s ->
  (forall i, (i < length tr)%nat -> lasso_at (n + i) = nth i tr (Back, Quiet)) ->
  lasso_st (n + length tr) = s' /\
  forall i, (i < length tr)%nat -> event_ok post (lasso_st (n + i)) (fst (lasso_at (n + i))) /\
    step (lasso_st (n + i)) (fst (lasso_at (n + i))) = Ok (lasso_st (S (n + i))) (snd (lasso_at (n + i))).
Proof.
  induction tr as [|[e o] tr IH]; intros n s s' R En Et; inversion R; subst; cbn [length].
  - rewrite Nat.add_0_r. split; [reflexivity|]. intros i Hi. lia.
  - pose proof (Et O ltac:(cbn; lia)) as E0. rewrite Nat.add_0_r in E0. cbn [nth] in E0.
    assert (E1 : lasso_st (S n) = s3) by (cbn [lasso_st]; rewrite E0; cbn [fst]; match goal with X : step _ e = _ |- _ => rewrite X end; reflexivity).
    destruct (IH (S n) s3 s') as [IH1 IH2]; auto.
    { intros i Hi. replace (S n + i)%nat with (n + S i)%nat by lia. rewrite Et by (cbn; lia). reflexivity. }
    split; [rewrite <- IH1; f_equal; lia|]. intros [|i] Hi.
    + rewrite Nat.add_0_r, E1, E0. auto.
    + replace (n + S i)%nat with (S n + i)%nat by lia. apply IH2. lia.
Qed.
Lemma lasso_pre : lasso_st (length pre) = s1 /\
  forall i, (i < length pre)%nat -> event_ok post (lasso_st i) (fst (lasso_at i)) /\
    step (lasso_st i) (fst (lasso_at i)) = Ok (lasso_st (S i)) (snd (lasso_at i)).
Proof.
  apply (lasso_run pre 0 s0 s1 RP eq_refl). intros i Hi. unfold lasso_at. cbn [Nat.add]. now rewrite (proj2 (Nat.ltb_lt _ _) Hi).
Qed.
Lemma lasso_in_loop j i : (i < length loop)%nat -> lasso_at (length pre + j * length loop + i) = nth i loop (Back, Quiet).
Proof.
  intros Hi. unfold lasso_at. destruct (Nat.ltb_spec (length pre + j * length loop + i) (length pre)); [lia|].
  replace (length pre + j * length loop + i - length pre)%nat with (i + j * length loop)%nat by lia.
  rewrite Nat.mod_add, Nat.mod_small by lia. reflexivity.
Qed.
Lemma lasso_loop j : lasso_st (length pre + j * length loop) = s1.
Proof.
  induction j as [|j IH].
  - cbn [Nat.mul]. rewrite Nat.add_0_r. apply lasso_pre.
  - replace (length pre + S j * length loop)%nat with (length pre + j * length loop + length loop)%nat by lia.
    apply (lasso_run loop _ s1 s1 RL IH). intros i Hi. now apply lasso_in_loop.
Qed.
Lemma lasso_split n : (length pre <= n)%nat -> exists j i, n = (length pre + j * length loop + i)%nat /\ (i < length loop)%nat.
Proof.
  intros L. exists ((n - length pre) / length loop)%nat, ((n - length pre) mod length loop)%nat.
  pose proof (Nat.div_mod (n - length pre) (length loop) ltac:(lia)). pose proof (Nat.mod_upper_bound (n - length pre) (length loop) ltac:(lia)). lia.
Qed.
Definition lasso_ev (n : nat) : event := fst (lasso_at n).
Definition lasso_ob (n : nat) : obs := snd (lasso_at n).
Lemma lasso_execution : execution post lasso_st lasso_ev lasso_ob.
Proof.
  intros n. unfold lasso_ev, lasso_ob. destruct (Nat.lt_ge_cases n (length pre)) as [L|L].
  - now apply lasso_pre.
  - destruct (lasso_split n L) as (j & i & -> & Hi).
    apply (lasso_run loop _ s1 s1 RL (lasso_loop j)); auto. intros k Hk. now apply lasso_in_loop.
Qed.
Lemma lasso_fair o o' : In (Back, o) loop -> In (Poll, o') loop -> ~ running s1 -> fair lasso_st lasso_ev.
Proof.
  intros HB HPo HR.
  assert (Oft : forall x n, In x loop -> exists m, (n <= m)%nat /\ lasso_at m = x).
  { intros x n HI. destruct (In_nth loop x (Back, Quiet) HI) as (i & Hi & E). exists (length pre + n * length loop + i)%nat.
    split; [nia|]. rewrite lasso_in_loop; auto. }
  split; [|split].
  - intros n _. destruct (Oft _ n HB) as (m & L & E). exists m. split; auto. unfold lasso_ev. rewrite E. exact Logic.I.
  - intros n _. destruct (Oft _ n HPo) as (m & L & E). exists m. split; auto. unfold lasso_ev. rewrite E. reflexivity.
  - intros n HA. exfalso. apply HR. rewrite <- (lasso_loop n). apply HA. nia.
Qed.
Lemma lasso_old n : (n < length pre)%nat -> lasso_at n = nth n pre (Back, Quiet).
Proof. intros L. unfold lasso_at. now rewrite (proj2 (Nat.ltb_lt _ _) L). Qed.
Lemma lasso_new n : (length pre <= n)%nat -> In (lasso_at n) loop.
Proof. intros L. destruct (lasso_split n L) as (j & i & -> & Hi). rewrite lasso_in_loop by auto. now apply nth_In. Qed.
End Lasso.

(** ** C98: every request that is not overtaken is served in the end *)

Lemma basic_ok (post : list vertex -> trajectory -> Prop) s e : (forall vs tr, post vs tr -> basic_post vs tr) ->
  event_ok post s e -> event_ok basic_post s e.
Proof. intros HP. destruct e; cbn; auto. intros (H & vs & A & B). split; eauto. Qed.
Lemma reach_at (post : list vertex -> trajectory -> Prop) st ev ob n m : (forall vs tr, post vs tr -> basic_post vs tr) ->
  execution post st ev ob -> (n <= m)%nat -> reachable (st n) -> reachable (st m).
Proof.
  intros HP HX L H. induction L as [|m L IH]; auto. destruct IH as (junk & tr & R). destruct (HX m) as [HO HS].
  exists junk, (tr ++ [(ev m, ob m)]). eapply run_app; [exact R|]. econstructor; [eapply basic_ok; eauto|exact HS|constructor].
Qed.

(** A request is pending at instant n0: waypoints set or appended (none of them
    modified), nothing in flight, the background thread has not passed the place
    where it collects requests.  From then on no other request is made.  The vehicle
    leaves the security zone of the old plan.  Then some day and for ever after: the
    request flag is down, nothing is in flight, and the published plan, which does not
    change any more, ends with the requested waypoints. *)
Theorem C98_served :
  forall (post : list vertex -> trajectory -> Prop) (st : nat -> state) (ev : nat -> event) (ob : nat -> obs) (n0 n1 : nat),
  (forall vs tr, post vs tr -> basic_post vs tr) -> execution post st ev ob -> fair st ev -> left_alone ev n0 ->
  reachable (st n0) -> listening (d_pc (st n0)) -> d_flag (st n0) = true -> d_computing (st n0) = false ->
  d_late (st n0) = O -> d_stop (st n0) = false -> d_mod (st n0) = [] ->
  d_set (st n0) ++ d_add (st n0) <> [] -> Forall (fun w => w_time w <= 0) (d_set (st n0) ++ d_add (st n0)) ->
  (n0 <= n1)%nat -> (forall m, (n1 <= m)%nat -> security_zone (st m) -> exists k, (n0 <= k < m)%nat /\ ob k = Launched) ->
  exists m, (n0 <= m)%nat /\ ends_with (d_set (st n0) ++ d_add (st n0)) (d_dyn (st m)) /\ d_traj (st m) <> None /\
    forall k, (m <= k)%nat -> d_flag (st k) = false /\ d_computing (st k) = false /\
      d_traj (st k) = d_traj (st m) /\ d_dyn (st k) = d_dyn (st m).
Proof.
  intros post st ev ob n0 n1 HP HX HF HA HR HL H1 H2 H3 H4 H5 H6 H7 HN HZ.
  pose proof (reachable_inv _ HR) as I0.
  apply (served post st ev ob HP HX HF n0 HA I0 (d_set (st n0)) (d_add (st n0)) H6 H7 n1 HN).
  - intros m L Z. apply (HZ m L). apply (zone_spec (st m)); auto. apply (reach_at post st ev ob n0 m HP HX); [lia|exact HR].
  - unfold listens, waits. repeat split; auto.
    destruct (d_fut (st n0)) eqn:F; auto; exfalso;
      assert (d_computing (st n0) = true) by (apply (i_comp _ I0); right; congruence); congruence.
Qed.

(** A new object and one call of setWaypoints: the plan comes. *)
Lemma unborn_step s e s' o : d_fut s = FNone -> d_traj s = None -> step s e = Ok s' o ->
  (d_fut s' = FNone /\ d_traj s' = None) \/ o = Launched.
Proof.
  intros B1 B2 H. destruct e; cbn [step] in H; unfold do_poll, comp_speed, comp_done, comp_throw, back_torn in H; try rewrite B1 in H; try rewrite B2 in H;
    try (destruct (todo_locked s)); try (destruct (d_fut_locked s)); try (destruct (d_late s));
    try (destruct (d_pc s); discriminate); inversion H; subst; cbn; auto.
  all: unfold back_step in H; destruct (d_pc s) as [ | | | | | | | | | | | | | |[|x y] i| ] eqn:EP; try rewrite B2 in H; try discriminate;
      try (destruct (d_stop s)); try (destruct (next_waypoints s)); try (destruct (d_fut_locked s)); try (destruct (d_mod s));
      try (destruct (nth_error _ _)); inversion H; subst; cbn; auto.
Qed.
Definition fresh_object (s : state) : Prop :=
  d_fut s = FNone /\ d_traj s = None /\ d_computing s = false /\ d_late s = O /\ d_stop s = false /\ d_flag s = false /\
  d_set s = [] /\ d_add s = [] /\ d_mod s = [] /\ (d_pc s = PTop \/ d_pc s = PElse).
Lemma fresh_step s e s' o : fresh_object s -> ~ changes_plan e -> step s e = Ok s' o -> fresh_object s'.
Proof.
  intros (B1 & B2 & B3 & B4 & B5 & B6 & B7 & B8 & B9 & B10) NC H.
  destruct e; cbn in NC; try tauto; cbn [step] in H; unfold do_poll, comp_speed, comp_done, comp_throw, back_torn in H;
    try rewrite B1 in H; try rewrite B2 in H; try rewrite B4 in H;
    try (destruct (d_fut_locked s); discriminate); try (destruct (d_pc s); discriminate); try discriminate;
    try (inversion H; subst; cbn; unfold fresh_object; cbn; auto 12; fail).
  unfold back_step in H. destruct B10 as [E|E]; rewrite E in H; [rewrite B5, B6 in H|rewrite B9 in H]; inversion H; subst; unfold fresh_object; cbn; auto 12.
Qed.
Theorem C98_first_plan :
  forall (post : list vertex -> trajectory -> Prop) (st : nat -> state) (ev : nat -> event) (ob : nat -> obs) (junk : V3) (n : nat) (ws : list waypoint),
  (forall vs tr, post vs tr -> basic_post vs tr) -> execution post st ev ob -> fair st ev ->
  st 0%nat = init junk -> ev n = SetWaypoints ws -> (forall m, m <> n -> ~ changes_plan (ev m)) ->
  ws <> [] -> Forall (fun w => w_time w <= 0) ws ->
  exists m, (n < m)%nat /\ ends_with ws (d_dyn (st m)) /\ d_traj (st m) <> None /\
    forall k, (m <= k)%nat -> d_flag (st k) = false /\ d_computing (st k) = false /\
      d_traj (st k) = d_traj (st m) /\ d_dyn (st k) = d_dyn (st m).
Proof.
  intros post st ev ob junk n ws HP HX HF E0 EN HA HW HT.
  assert (FR : forall m, (m <= n)%nat -> fresh_object (st m)).
  { induction m as [|m IH]; intros L; [rewrite E0; unfold fresh_object; cbn; auto 12|].
    destruct (HX m) as [_ HS]. apply (fresh_step _ _ _ _ (IH ltac:(lia)) (HA m ltac:(lia)) HS). }
  pose proof (FR n (le_n n)) as (B1 & B2 & B3 & B4 & B5 & B6 & B7 & B8 & B9 & B10).
  destruct (HX n) as [HO HS]. rewrite EN in HS. cbn [step] in HS.
  assert (TL : todo_locked (st n) = false) by (unfold todo_locked; destruct B10 as [E|E]; rewrite E; reflexivity).
  rewrite TL in HS. inversion HS as [[ES EO]].
  assert (R0 : reachable (st 0%nat)) by (rewrite E0; exists junk, []; constructor).
  assert (UB : forall m, (S n <= m)%nat -> (d_fut (st m) = FNone /\ d_traj (st m) = None) \/ exists k, (S n <= k < m)%nat /\ ob k = Launched).
  { intros m L. induction L as [|m L IH]; [left; rewrite <- ES; auto|].
    destruct IH as [[I1 I2]|(k & Lk & I)]; [|right; exists k; split; [lia|exact I]].
    destruct (HX m) as [_ HS']. destruct (unborn_step _ _ _ _ I1 I2 HS') as [X|X]; [left; exact X|right; exists m; split; [lia|exact X]]. }
  assert (ED : d_set (st (S n)) ++ d_add (st (S n)) = map wp_copy ws) by (rewrite <- ES; cbn; apply app_nil_r).
  destruct (C98_served post st ev ob (S n) (S n) HP HX HF) as (m & Lm & T & R).
  - intros m L. apply HA. lia.
  - apply (reach_at post st ev ob 0 (S n) HP HX); [lia|exact R0].
  - rewrite <- ES. cbn. unfold listening. destruct B10 as [E|E]; rewrite E; auto.
  - rewrite <- ES. reflexivity.
  - rewrite <- ES. exact B3.
  - rewrite <- ES. exact B4.
  - rewrite <- ES. exact B5.
  - rewrite <- ES. reflexivity.
  - rewrite ED. destruct ws; [congruence|discriminate].
  - rewrite ED. clear -HT. induction HT; cbn; constructor; auto.
  - lia.
  - intros m L (HZ & _). destruct (UB m L) as [[_ X]|X]; [congruence|exact X].
  - exists m. split; [lia|]. split; [|exact R]. rewrite ED in T. destruct T as (pre & t & E & F). exists pre, t. split; [exact E|].
    clear -F. revert t F. induction ws as [|w ws IH]; intros t F; inversion F; subst; constructor; auto.
Qed.

(** The hypotheses are met: the flight of the other examples, followed by polls
    and steps of the background thread for ever. *)
Definition idle_loop : list (event * obs) := [(Poll, Quiet); (Back, Quiet); (Back, Quiet)].
Lemma idle_run post : run post st1 idle_loop st1.
Proof.
  unfold idle_loop. econstructor; [exact Logic.I|reflexivity|]. econstructor; [exact Logic.I|reflexivity|].
  econstructor; [exact Logic.I|reflexivity|]. constructor.
Qed.
Theorem C98_example : exists st ev ob, execution full_post st ev ob /\ fair st ev /\ st 0%nat = init v3_zero /\
  ev 1%nat = SetWaypoints [wa; wb] /\ (forall m, m <> 1%nat -> ~ changes_plan (ev m)) /\
  [wa; wb] <> [] /\ Forall (fun w => w_time w <= 0) [wa; wb].
Proof.
  exists (lasso_st trace1 idle_loop (init v3_zero)), (lasso_ev trace1 idle_loop), (lasso_ob trace1 idle_loop).
  split; [apply (lasso_execution full_post trace1 idle_loop (init v3_zero) st1); [apply run1|apply idle_run|cbn; lia]|].
  split; [apply (lasso_fair full_post trace1 idle_loop (init v3_zero) st1 run1 (idle_run _) ltac:(cbn; lia) Quiet Quiet); [cbn; auto|cbn; auto|]|].
  - unfold running. cbn. intros [X|[v X]]; discriminate.
  - split; [reflexivity|]. split; [reflexivity|]. split; [|split; [discriminate|]].
    + intros m Hm. unfold lasso_ev. destruct (Nat.lt_ge_cases m (length trace1)) as [L|L].
      * rewrite lasso_old by exact L. cbn in L. do 16 (destruct m as [|m]; [cbn; tauto|]). lia.
      * pose proof (lasso_new trace1 idle_loop ltac:(cbn; lia) m L) as I. cbn [In idle_loop] in I.
        destruct I as [I|[I|[I|[]]]]; rewrite <- I; cbn; tauto.
    + repeat constructor; cbn; lra.
Qed.

(** Leaving the security zone is needed: a vehicle that hovers (nobody evaluates a
    later time) shortly before a named waypoint keeps its request pending for ever,
    although every thread gets its turns. *)
Lemma hover_zone : in_zone (req (19 / 20)) = true.
Proof.
  cbn [in_zone d_traj req at1 do_append do_eval set_flag set_queues set_par st1 d_dyn d_par p_global d_tc dyn1].
  unfold dyn1. cbn [zone_scan]. change (named (wp_set_time 0 (wp_set_index 0 wd))) with false.
  change (named (wp_set_time 1 (wp_set_index 1 wa))) with true. cbn [andb]. cbn [wp_set_time wp_set_index w_time].
  unfold security_time, computation_time. rcase; [|lra]. rcase; [lra|auto].
Qed.
Definition hover_loop : list (event * obs) := [(Poll, Quiet); (Back, Quiet); (Back, Quiet); (Back, Quiet)].
Lemma hover_run post : run post (req (19 / 20)) hover_loop (req (19 / 20)).
Proof.
  unfold hover_loop. econstructor; [exact Logic.I|reflexivity|]. econstructor; [exact Logic.I|reflexivity|].
  econstructor; [exact Logic.I| |].
  { cbn [step]. unfold back_step. cbn [d_pc set_pc]. change (in_zone (set_pc _ ?x)) with (in_zone (req (19 / 20))). rewrite hover_zone. reflexivity. }
  econstructor; [exact Logic.I|reflexivity|]. constructor.
Qed.
Definition hovers (s : state) : Prop :=
  d_flag s = true /\ d_add s = [wc] /\ exists p, (p = PTop \/ p = PZone \/ p = PElse) /\ s = set_pc p (req (19 / 20)).
Lemma hovers_start : hovers (req (19 / 20)).
Proof. split; [reflexivity|]. split; [reflexivity|]. exists PTop. split; auto. Qed.
Lemma hovers_step s e s' o : hovers s -> e = Poll \/ e = Back -> step s e = Ok s' o -> hovers s'.
Proof.
  intros (_ & _ & p & HP & ->) [-> | ->] H; cbn [step] in H.
  - unfold do_poll in H. cbn in H. inversion H; subst. split; [reflexivity|]. split; [reflexivity|]. exists p. auto.
  - unfold back_step in H. cbn [d_pc set_pc] in H. destruct HP as [-> | [-> | ->]].
    + cbn in H. inversion H; subst. split; [reflexivity|]. split; [reflexivity|]. exists PZone. auto.
    + change (in_zone (set_pc PZone (req (19 / 20)))) with (in_zone (req (19 / 20))) in H. rewrite hover_zone in H.
      inversion H; subst. split; [reflexivity|]. split; [reflexivity|]. exists PElse. auto.
    + cbn in H. inversion H; subst. split; [reflexivity|]. split; [reflexivity|]. exists PTop. auto.
Qed.
Theorem C98_hovering_refuted : exists st ev ob n0, execution full_post st ev ob /\ fair st ev /\ left_alone ev n0 /\
  reachable (st n0) /\ listening (d_pc (st n0)) /\ d_computing (st n0) = false /\ d_stop (st n0) = false /\ d_add (st n0) = [wc] /\
  forall m, (n0 <= m)%nat -> d_flag (st m) = true /\ d_add (st m) = [wc] /\ ob m <> Launched.
Proof.
  set (pre := trace1 ++ [(Eval (19 / 20), Quiet); (Append wc, Quiet)]).
  assert (HL : (0 < length hover_loop)%nat) by (cbn; lia).
  exists (lasso_st pre hover_loop (init v3_zero)), (lasso_ev pre hover_loop), (lasso_ob pre hover_loop), (length pre).
  pose proof (lasso_execution full_post pre hover_loop (init v3_zero) (req (19 / 20)) (run_req _) (hover_run _) HL) as HX.
  destruct (lasso_pre full_post pre hover_loop (init v3_zero) (req (19 / 20)) (run_req _) HL) as [EP _].
  split; [exact HX|].
  split; [apply (lasso_fair full_post pre hover_loop (init v3_zero) _ (run_req _) (hover_run _) HL Quiet Quiet); [cbn; auto|cbn; auto|]|].
  { unfold running. cbn. intros [X|[v X]]; discriminate. }
  split; [|rewrite EP; split; [|split; [left; reflexivity|split; [reflexivity|split; [reflexivity|split; [reflexivity|]]]]]].
  - intros m L. pose proof (lasso_new pre hover_loop HL m L) as I. unfold lasso_ev. cbn [In hover_loop] in I.
    destruct I as [I|[I|[I|[I|[]]]]]; rewrite <- I; cbn; tauto.
  - exists v3_zero, pre. eapply run_mono; [|apply run_req]. apply full_basic.
  - assert (K : forall m, (length pre <= m)%nat -> hovers (lasso_st pre hover_loop (init v3_zero) m)).
    { intros m L. induction L as [|m L IH]; [rewrite EP; apply hovers_start|].
      destruct (HX m) as [_ HS]. eapply hovers_step; [exact IH| |exact HS]. unfold lasso_ev.
      pose proof (lasso_new pre hover_loop HL m L) as I. cbn [In hover_loop] in I. destruct I as [I|[I|[I|[I|[]]]]]; rewrite <- I; cbn; auto. }
    intros m L. destruct (K m L) as (K1 & K2 & _). split; [exact K1|]. split; [exact K2|].
    unfold lasso_ob. pose proof (lasso_new pre hover_loop HL m L) as I. cbn [In hover_loop] in I. destruct I as [I|[I|[I|[I|[]]]]]; rewrite <- I; cbn; discriminate.
Qed.
Print Assumptions C98_served.
Print Assumptions C98_first_plan.
Print Assumptions C98_example.
Print Assumptions C98_hovering_refuted.
