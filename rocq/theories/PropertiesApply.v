(** Property theorems: every modification that is not overtaken is applied in the
    end, in every infinite execution that treats the threads fairly (C105). *)
From Coq Require Import Reals Lra Lia List Bool ZArith Arith Classical_Prop Classical_Pred_Type.
From Coquelicot Require Import Coquelicot.
From Verif Require Import Base PolyModel PolySpec VertexModel TrajModel TrajSpec TrajProofs RangeProofs
  WaypointModel WaypointProofs Names DynModel DynSpec DynProofs DynFrame DynTrace DynQueue DynMore StopAndGo DynScenario
  PropertiesDyn PropertiesReq PropertiesLive PropertiesLive2.
Import List ListNotations.
Local Open Scope R_scope.
Set Bullet Behavior "Strict Subproofs".

(** ** Specification *)

(** The waypoint w has become w' : it was moved, once, to the position wanted for
    its name, at the time that had been evaluated last at some instant in between;
    or it is as before, if it has no name or nothing is wanted for it. *)
Definition obeys (st : nat -> state) (n0 m : nat) (ms : list (name * V3)) (w w' : waypoint) : Prop :=
  (forall p, In (w_name w, p) ms -> w_name w <> no_name ->
     exists k, (n0 <= k < m)%nat /\ w' = wp_move p (p_global (d_par (st k))) w) /\
  (w_name w = no_name \/ (forall p, ~ In (w_name w, p) ms) -> w' = w).

(** ** Proof *)

Section Apply.
Variables (post : list vertex -> trajectory -> Prop) (st : nat -> state) (ev : nat -> event) (ob : nat -> obs).
Hypothesis HX : execution post st ev ob.
Hypothesis HF : fair st ev.
Variable n0 : nat.
Hypothesis HA : left_alone ev n0.
Variables (T0 : option trajectory) (D0 : list waypoint) (ms : list (name * V3)).
Hypothesis ND : NoDup (map fst ms).

Definition still (s : state) : Prop :=
  d_fut s = FNone /\ d_flag s = false /\ d_stop s = false /\ d_computing s = false /\ d_traj s = T0.

Lemma still_client m : (n0 <= m)%nat -> still (st m) -> ~ of_background (ev m) ->
  still (st (S m)) /\ d_mod (st (S m)) = d_mod (st m) /\ d_dyn (st (S m)) = d_dyn (st m) /\ d_pc (st (S m)) = d_pc (st m).
Proof.
  intros L (F & G & Sp & C & T) NB. destruct (HX m) as [_ HS].
  destruct (client_step _ _ _ _ F (HA m L) NB HS) as (A1 & A2 & A3 & A4 & A5 & A6 & A7 & A8 & _).
  unfold still. rewrite A1, A3, A4, A8. auto 10.
Qed.
Lemma still_back m : still (st m) -> of_background (ev m) -> back_step (st m) = Ok (st (S m)) (ob m).
Proof.
  intros (F & _) B. destruct (HX m) as [_ HS]. destruct (ev m); cbn in B; try contradiction; cbn [step] in HS; [exact HS|].
  unfold back_torn in HS. rewrite F in HS. destruct (d_pc (st m)); discriminate.
Qed.

(** Before: nothing has been applied yet. *)
Definition before (p : pc) (m : nat) : Prop := still (st m) /\ d_mod (st m) = ms /\ d_dyn (st m) = D0 /\ d_pc (st m) = p.
(** Meanwhile. *)
Definition between (rest : list (name * V3)) (i m : nat) : Prop :=
  still (st m) /\ d_mod (st m) = ms /\ d_pc (st m) = PMove rest i /\ (i <= length D0)%nat /\ (rest = [] -> i = O) /\
  exists done, ms = done ++ rest /\ length (d_dyn (st m)) = length D0 /\
    forall j w, nth_error D0 j = Some w -> exists w', nth_error (d_dyn (st m)) j = Some w' /\
      obeys st n0 m (done ++ (if (j <? i)%nat then firstn 1 rest else [])) w w'.
(** Afterwards. *)
Definition after (m : nat) : Prop :=
  still (st m) /\ d_mod (st m) = [] /\ (d_pc (st m) = PTop \/ d_pc (st m) = PElse) /\ Forall2 (obeys st n0 m ms) D0 (d_dyn (st m)).

Lemma obeys_later m m' l w w' : (m <= m')%nat -> obeys st n0 m l w w' -> obeys st n0 m' l w w'.
Proof. intros L [A B]. split; auto. intros p I N. destruct (A p I N) as (k & K & E). exists k. split; [lia|exact E]. Qed.
Lemma obeys_name m l w w' : obeys st n0 m l w w' -> w_name w' = w_name w.
Proof.
  intros [A B]. destruct (classic (w_name w = no_name \/ forall p, ~ In (w_name w, p) l)) as [C|C].
  - now rewrite (B C).
  - apply not_or_and in C. destruct C as [C1 C2]. apply not_all_ex_not in C2. destruct C2 as [p C2]. apply NNPP in C2.
    destruct (A p C2 C1) as (k & _ & ->). unfold wp_move. repeat destruct (axis_modifier _ _ _ _). reflexivity.
Qed.

Lemma move_nth_same t m : forall ws i, nth_error (move_nth t m i ws) i =
  option_map (fun w => if applies (fst m) w then wp_move (snd m) t w else w) (nth_error ws i).
Proof. induction ws as [|w ws IH]; intros [|i]; cbn; auto. Qed.
Lemma move_nth_other t m : forall ws i j, i <> j -> nth_error (move_nth t m i ws) j = nth_error ws j.
Proof. induction ws as [|w ws IH]; intros [|i] [|j] N; cbn; auto; congruence. Qed.
Lemma move_nth_len t m : forall ws i, length (move_nth t m i ws) = length ws.
Proof. induction ws as [|w ws IH]; intros [|i]; cbn; auto. Qed.

(** One step of the loop. *)
Lemma obeys_step m done x rest w w' : (n0 <= m)%nat -> ms = done ++ x :: rest -> obeys st n0 m done w w' ->
  obeys st n0 (S m) (done ++ [x]) w (if applies (fst x) w' then wp_move (snd x) (p_global (d_par (st m))) w' else w').
Proof.
  intros L E O. pose proof (obeys_name _ _ _ _ O) as EN. unfold applies, named. rewrite EN.
  assert (NX : forall p, ~ In (fst x, p) done).
  { intros p I. rewrite E, map_app in ND. cbn [map] in ND. apply NoDup_remove_2 in ND. apply ND. apply in_or_app. left.
    change (fst x) with (fst (fst x, p)). now apply in_map. }
  destruct O as [A B]. destruct x as [n q]. cbn [fst snd] in *.
  destruct (name_eqb (w_name w) n) eqn:E1; cbn [andb].
  - apply name_eqb_eq in E1. destruct (name_eqb (w_name w) no_name) eqn:E2; cbn [negb].
    + apply name_eqb_eq in E2. split; [intros p I N; congruence|auto].
    + apply name_eqb_neq in E2. assert (w' = w) as -> by (apply B; right; rewrite E1; exact NX). split.
      * intros p I _. apply in_app_or in I. destruct I as [I|[I|[]]]; [exfalso; rewrite E1 in I; exact (NX _ I)|].
        inversion I; subst. exists m. split; [lia|reflexivity].
      * intros [X|X]; [contradiction|]. exfalso. apply (X q). apply in_or_app. right. left. congruence.
  - apply name_eqb_neq in E1. split.
    + intros p I N. apply in_app_or in I. destruct I as [I|[I|[]]]; [|congruence].
      destruct (A p I N) as (k & K & EW). exists k. split; [lia|exact EW].
    + intros [X|X]; apply B; [left; exact X|right]. intros p I. apply (X p). apply in_or_app. auto.
Qed.

Lemma between_back rest i m : (n0 <= m)%nat -> between rest i m -> of_background (ev m) ->
  match rest with
  | [] => after (S m)
  | x :: rest' => if (i <? length D0)%nat then between rest (S i) (S m) else between rest' 0 (S m)
  end.
Proof.
  intros L (S0 & M & P & Li & Ri & done & E & LD & H) B. pose proof (still_back m S0 B) as HS.
  unfold back_step in HS. rewrite P in HS. destruct rest as [|x rest'].
  - injection HS as ES _. destruct S0 as (F & G & Sp & C & T). unfold after, still. rewrite <- ES. cbn. split; [auto|]. split; [reflexivity|]. split; [auto|].
    rewrite app_nil_r in E. subst done. clear - H LD.
    assert (G : forall l l' : list waypoint, length l' = length l -> (forall j w, nth_error l j = Some w -> exists w', nth_error l' j = Some w' /\ obeys st n0 (S m) ms w w') -> Forall2 (obeys st n0 (S m) ms) l l').
    { induction l as [|a l IH]; intros [|b l'] EL K; try discriminate; constructor.
      - destruct (K O a eq_refl) as (w' & E1 & O). cbn in E1. congruence.
      - apply IH; [cbn in EL; lia|]. intros j w Hj. exact (K (S j) w Hj). }
    apply G; [exact LD|]. intros j w Hj. destruct (H j w Hj) as (w' & E1 & O). exists w'. split; [exact E1|].
    replace (if (j <? i)%nat then firstn 1 [] else []) with (@nil (name * V3)) in O by (destruct (j <? i)%nat; reflexivity).
    rewrite app_nil_r in O. eapply obeys_later; [|exact O]. lia.
  - destruct (Nat.ltb_spec i (length D0)) as [LT|GE].
    + destruct (nth_error (d_dyn (st m)) i) as [wi|] eqn:Ei; [|apply nth_error_None in Ei; lia].
      injection HS as ES _. destruct S0 as (F & G & Sp & C & T). unfold between, still. rewrite <- ES. cbn [d_fut d_flag d_stop d_computing d_traj d_mod d_pc d_dyn set_pc set_regen set_dyn].
      split; [auto|]. split; [exact M|]. split; [reflexivity|]. split; [lia|]. split; [discriminate|].
      exists done. split; [exact E|]. split; [now rewrite move_nth_len|]. intros j w Hj. destruct (H j w Hj) as (w' & E1 & O).
      destruct (Nat.eq_dec i j) as [<- | NE].
      * rewrite move_nth_same, E1. cbn [option_map]. eexists. split; [reflexivity|].
        rewrite Nat.ltb_irrefl, app_nil_r in O. destruct (Nat.ltb_spec i (S i)); [|lia]. cbn [firstn].
        apply (obeys_step m done x rest'); auto.
      * rewrite move_nth_other by exact NE. exists w'. split; [exact E1|].
        replace (j <? S i)%nat with (j <? i)%nat by (destruct (Nat.ltb_spec j i), (Nat.ltb_spec j (S i)); auto; lia).
        eapply obeys_later; [|exact O]. lia.
    + destruct (nth_error (d_dyn (st m)) i) as [wi|] eqn:Ei.
      { assert (i < length (d_dyn (st m)))%nat by (apply nth_error_Some; congruence). lia. }
      injection HS as ES _. destruct S0 as (F & G & Sp & C & T). unfold between, still. rewrite <- ES. cbn [d_fut d_flag d_stop d_computing d_traj d_mod d_pc d_dyn set_pc].
      split; [auto|]. split; [exact M|]. split; [reflexivity|]. split; [lia|]. split; [reflexivity|].
      exists (done ++ [x]). split; [rewrite <- app_assoc; exact E|]. split; [exact LD|]. intros j w Hj. destruct (H j w Hj) as (w' & E1 & O).
      exists w'. split; [exact E1|]. assert (j < length D0)%nat by (apply nth_error_Some; congruence).
      destruct (Nat.ltb_spec j i); [|lia]. destruct (Nat.ltb_spec j 0); [lia|]. cbn [firstn] in O. rewrite app_nil_r.
      eapply obeys_later; [|exact O]. lia.
Qed.
Lemma between_client rest i m : (n0 <= m)%nat -> between rest i m -> ~ of_background (ev m) -> between rest i (S m).
Proof.
  intros L (S0 & M & P & Li & Ri & done & E & LD & H) NB. destruct (still_client m L S0 NB) as (S1 & M1 & D1 & P1).
  unfold between. rewrite M1, D1, P1. split; [exact S1|]. split; [exact M|]. split; [exact P|]. split; [exact Li|]. split; [exact Ri|].
  exists done. split; [exact E|]. split; [exact LD|]. intros j w Hj. destruct (H j w Hj) as (w' & E1 & O). exists w'. split; [exact E1|].
  eapply obeys_later; [|exact O]. lia.
Qed.
Lemma moving_can s ms' i : d_pc s = PMove ms' i -> can s Back.
Proof.
  intros P. unfold can. cbn [step]. unfold back_step. rewrite P. destruct ms' as [|x l]; [do 2 eexists; reflexivity|].
  destruct (nth_error (d_dyn s) i); do 2 eexists; reflexivity.
Qed.
Lemma between_after : forall N rest i n, (length rest * S (length D0) - i <= N)%nat -> (n0 <= n)%nat -> between rest i n ->
  exists m, (n <= m)%nat /\ after m.
Proof.
  destruct HF as [FB _].
  assert (ST : forall rest i n (Q : nat -> Prop), (n0 <= n)%nat -> between rest i n ->
    (forall m, (n0 <= m)%nat -> between rest i m -> of_background (ev m) -> Q (S m)) -> exists m, (n <= m)%nat /\ Q m).
  { intros rest i n Q L Bt HQ. apply (leads st ev (between rest i) Q of_background (fun s => can s Back) n FB); auto.
    - intros m Lm X. destruct (classic (of_background (ev m))) as [B|B]; [right; apply HQ; auto; lia|left; apply between_client; auto; lia].
    - intros m Lm (_ & _ & P & _). eapply moving_can; exact P.
    - intros m Lm X B. apply HQ; auto. lia. }
  induction N as [|N IH]; intros rest i n LN L Bt.
  - destruct rest as [|x rest'].
    + apply (ST [] i n); auto. intros m Lm X B. exact (between_back [] i m Lm X B).
    + pose proof Bt as (_ & _ & _ & Li & _). cbn [length] in LN. lia.
  - destruct rest as [|x rest'].
    + apply (ST [] i n); auto. intros m Lm X B. exact (between_back [] i m Lm X B).
    + cbn [length] in LN. destruct (Nat.ltb_spec i (length D0)) as [LT|GE].
      * destruct (ST (x :: rest') i n (between (x :: rest') (S i)) L Bt) as (m & Lm & X).
        { intros m Lm X B. pose proof (between_back _ _ m Lm X B) as Y. cbn iota beta in Y. destruct (Nat.ltb_spec i (length D0)); [exact Y|lia]. }
        destruct (IH (x :: rest') (S i) m) as (m' & L' & Y); [cbn [length]; lia|lia|exact X|]. exists m'. split; [lia|exact Y].
      * destruct (ST (x :: rest') i n (between rest' 0) L Bt) as (m & Lm & X).
        { intros m Lm X B. pose proof (between_back _ _ m Lm X B) as Y. cbn iota beta in Y. destruct (Nat.ltb_spec i (length D0)); [lia|exact Y]. }
        pose proof Bt as (_ & _ & _ & Li & _).
        destruct (IH rest' 0%nat m) as (m' & L' & Y); [lia|lia|exact X|]. exists m'. split; [lia|exact Y].
Qed.

Hypothesis NM : ms <> [].
Lemma before_back p m : (n0 <= m)%nat -> before p m -> of_background (ev m) ->
  match p with
  | PTop => before PElse (S m)
  | PElse => before PApply (S m)
  | PApply => between ms 0 (S m)
  | _ => True
  end.
Proof.
  intros L (S0 & M & D & P) B. pose proof (still_back m S0 B) as HS. unfold back_step in HS. rewrite P in HS.
  destruct S0 as (F & G & Sp & C & T). unfold before, between, still. destruct p; try exact Logic.I.
  - rewrite Sp, G in HS. injection HS as ES _. rewrite <- ES. cbn. auto 10.
  - rewrite C, M in HS. destruct ms as [|x l]; [congruence|]. injection HS as ES _. rewrite <- ES. cbn. auto 10.
  - injection HS as ES _. rewrite <- ES. cbn [d_fut d_flag d_stop d_computing d_traj d_mod d_pc d_dyn set_pc]. rewrite M.
    split; [auto|]. split; [reflexivity|]. split; [reflexivity|]. split; [lia|]. split; [reflexivity|].
    exists []. split; [reflexivity|]. split; [now rewrite D|]. intros j w Hj. exists w. split; [now rewrite D|].
    destruct (Nat.ltb_spec j 0); [lia|]. split; [intros p []|auto].
Qed.
Lemma before_client p m : (n0 <= m)%nat -> before p m -> ~ of_background (ev m) -> before p (S m).
Proof. intros L (S0 & M & D & P) NB. destruct (still_client m L S0 NB) as (S1 & M1 & D1 & P1). unfold before. rewrite M1, D1, P1. auto. Qed.
Lemma before_one p (Q : nat -> Prop) n : p = PTop \/ p = PElse \/ p = PApply -> (n0 <= n)%nat -> before p n ->
  (forall m, (n0 <= m)%nat -> before p m -> of_background (ev m) -> Q (S m)) -> exists m, (n <= m)%nat /\ Q m.
Proof.
  destruct HF as [FB _]. intros HP L Bt HQ. apply (leads st ev (before p) Q of_background (fun s => can s Back) n FB); auto.
  - intros m Lm X. destruct (classic (of_background (ev m))) as [B|B]; [right; apply HQ; auto; lia|left; apply before_client; auto; lia].
  - intros m Lm ((F & G & Sp & C & T) & M & _ & P). unfold can. cbn [step]. unfold back_step. rewrite P.
    destruct HP as [-> |[-> | ->]]; [rewrite Sp; do 2 eexists; reflexivity|rewrite M; destruct ms; do 2 eexists; reflexivity|do 2 eexists; reflexivity].
  - intros m Lm X B. apply HQ; auto. lia.
Qed.
Lemma all_applied p n : p = PTop \/ p = PElse \/ p = PApply -> (n0 <= n)%nat -> before p n -> exists m, (n <= m)%nat /\ after m.
Proof.
  assert (A : forall n, (n0 <= n)%nat -> before PApply n -> exists m, (n <= m)%nat /\ after m).
  { intros k L X. destruct (before_one PApply (between ms 0) k) as (m & Lm & Y); auto.
    - intros m Lm Y B. exact (before_back PApply m Lm Y B).
    - destruct (between_after (length ms * S (length D0) - 0) ms 0 m (le_n _)) as (m' & L' & Z); [lia|exact Y|]. exists m'. split; [lia|exact Z]. }
  assert (E : forall n, (n0 <= n)%nat -> before PElse n -> exists m, (n <= m)%nat /\ after m).
  { intros k L X. destruct (before_one PElse (before PApply) k) as (m & Lm & Y); auto.
    - intros m Lm Y B. exact (before_back PElse m Lm Y B).
    - destruct (A m ltac:(lia) Y) as (m' & L' & Z). exists m'. split; [lia|exact Z]. }
  intros [-> |[-> | ->]] L X; auto. destruct (before_one PTop (before PElse) n) as (m & Lm & Y); auto.
  - intros m Lm Y B. exact (before_back PTop m Lm Y B).
  - destruct (E m ltac:(lia) Y) as (m' & L' & Z). exists m'. split; [lia|exact Z].
Qed.
Lemma after_stays m : (n0 <= m)%nat -> after m -> forall k, (m <= k)%nat ->
  still (st k) /\ d_mod (st k) = [] /\ (d_pc (st k) = PTop \/ d_pc (st k) = PElse) /\ d_dyn (st k) = d_dyn (st m).
Proof.
  intros L (S0 & M & P & _) k LK. induction LK as [|k LK (S1 & M1 & P1 & D1)]; [auto|].
  destruct (classic (of_background (ev k))) as [B|B].
  - pose proof (still_back k S1 B) as HS. unfold back_step in HS. destruct S1 as (F & G & Sp & C & T).
    destruct P1 as [P1|P1]; rewrite P1 in HS; [rewrite Sp, G in HS|rewrite M1 in HS]; injection HS as ES _; unfold still; rewrite <- ES; cbn; auto 10.
  - destruct (still_client k ltac:(lia) S1 B) as (S2 & M2 & D2 & P2). rewrite M2, D2, P2. auto.
Qed.
End Apply.

(** ** C105: every modification that is not overtaken is applied in the end *)

Theorem C105_applied :
  forall (post : list vertex -> trajectory -> Prop) (st : nat -> state) (ev : nat -> event) (ob : nat -> obs) (n0 : nat),
  (forall vs tr, post vs tr -> basic_post vs tr) -> execution post st ev ob -> fair st ev -> left_alone ev n0 ->
  reachable (st n0) -> d_pc (st n0) = PTop \/ d_pc (st n0) = PElse \/ d_pc (st n0) = PApply ->
  d_flag (st n0) = false -> d_computing (st n0) = false -> d_stop (st n0) = false -> d_mod (st n0) <> [] ->
  exists m, (n0 <= m)%nat /\ Forall2 (obeys st n0 m (d_mod (st n0))) (d_dyn (st n0)) (d_dyn (st m)) /\
    forall k, (m <= k)%nat -> d_mod (st k) = [] /\ d_dyn (st k) = d_dyn (st m) /\ d_traj (st k) = d_traj (st n0) /\
      d_flag (st k) = false /\ d_computing (st k) = false.
Proof.
  intros post st ev ob n0 HP HX HF HA HR HC H1 H2 H3 H4. pose proof (reachable_inv _ HR) as I0.
  destruct (all_applied post st ev ob HX HF n0 HA (d_traj (st n0)) (d_dyn (st n0)) (d_mod (st n0)) (reachable_nodup _ HR) H4 (d_pc (st n0)) n0 HC (le_n _)) as (m & Lm & X).
  - split; [|auto]. split; [|auto]. destruct (d_fut (st n0)) eqn:F; auto; exfalso;
      assert (d_computing (st n0) = true) by (apply (i_comp _ I0); right; congruence); congruence.
  - exists m. split; [exact Lm|]. pose proof X as (_ & _ & _ & Y). split; [exact Y|]. intros k Lk.
    destruct (after_stays post st ev ob HX n0 HA (d_traj (st n0)) (d_dyn (st n0)) (d_mod (st n0)) m Lm X k Lk) as ((F & G & Sp & C & T) & M & P & D).
    auto 10.
Qed.
Print Assumptions C105_applied.

(** In particular one call of modifyWaypoint, without asking for a new trajectory,
    on an object without a computation in flight: in the end exactly the waypoints
    of that name have the new position, and stay so. *)
Definition only_named_moved (nm : name) (p : V3) (w w' : waypoint) : Prop :=
  w_name w' = w_name w /\ w_time w' = w_time w /\ (w_name w = nm -> w_cur w' = p) /\ (w_name w <> nm -> w' = w).
Theorem C105_modify :
  forall (post : list vertex -> trajectory -> Prop) (st : nat -> state) (ev : nat -> event) (ob : nat -> obs) (n : nat) (nm : name) (p : V3),
  (forall vs tr, post vs tr -> basic_post vs tr) -> execution post st ev ob -> fair st ev -> left_alone ev (S n) ->
  reachable (st n) -> d_pc (st n) = PTop \/ d_pc (st n) = PElse -> d_computing (st n) = false -> d_stop (st n) = false ->
  d_mod (st n) = [] -> ev n = Modify nm p false -> nm <> no_name ->
  exists m, (n < m)%nat /\ forall k, (m <= k)%nat ->
    Forall2 (only_named_moved nm p) (d_dyn (st n)) (d_dyn (st k)) /\ d_dyn (st k) = d_dyn (st m) /\ d_traj (st k) = d_traj (st n).
Proof.
  intros post st ev ob n nm p HP HX HF HA HR HC H1 H2 H3 HE HN. destruct (HX n) as [_ HS]. rewrite HE in HS. cbn [step] in HS.
  assert (TL : todo_locked (st n) = false) by (unfold todo_locked; destruct HC as [E|E]; rewrite E; reflexivity).
  rewrite TL in HS. inversion HS as [[ES EO]]. unfold do_modify in ES. rewrite H3 in ES. cbn [mod_put] in ES.
  assert (F : d_pc (st (S n)) = d_pc (st n) /\ d_flag (st (S n)) = false /\ d_computing (st (S n)) = d_computing (st n) /\
    d_stop (st (S n)) = d_stop (st n) /\ d_mod (st (S n)) = [(nm, p)] /\ d_dyn (st (S n)) = d_dyn (st n) /\ d_traj (st (S n)) = d_traj (st n))
    by (rewrite <- ES; repeat split).
  destruct F as (F1 & F2 & F3 & F4 & F5 & F6 & F7).
  destruct (C105_applied post st ev ob (S n) HP HX HF HA) as (m & Lm & O & K); try congruence.
  - apply (reach_at post st ev ob n (S n) HP HX); [lia|exact HR].
  - rewrite F1. tauto.
  - exists m. split; [lia|]. intros k Lk. destruct (K k Lk) as (_ & K2 & K3 & _). rewrite F7 in K3. split; [|split; [exact K2|exact K3]].
    rewrite K2. rewrite F5, F6 in O. clear - O HN. induction O as [|w w' l l' [A B] O IH]; constructor; auto.
    destruct (classic (w_name w = nm)) as [E|E].
    + destruct (A p) as (k & _ & ->); [left; congruence|congruence|]. unfold only_named_moved.
      unfold wp_move. repeat destruct (axis_modifier _ _ _ _). cbn. tauto.
    + rewrite B; [unfold only_named_moved; tauto|]. right. intros q [X|[]]. congruence.
Qed.
Print Assumptions C105_modify.

Lemma idle_loop_run post s : d_pc s = PTop -> d_flag s = false -> d_stop s = false -> d_fut s = FNone -> d_fut_locked s = false ->
  d_mod s = [] -> d_traj s <> None -> run post s idle_loop s.
Proof.
  intros H1 H2 H3 H4 H5 H6 H7. unfold idle_loop.
  econstructor; [exact Logic.I| |].
  { cbn [step]. unfold do_poll. rewrite H4, H5. destruct (d_traj s); [reflexivity|congruence]. }
  econstructor; [exact Logic.I| |].
  { cbn [step]. unfold back_step. rewrite H1, H2, H3. reflexivity. }
  econstructor; [exact Logic.I| |constructor].
  cbn [step]. unfold back_step. cbn [set_pc d_pc d_mod]. rewrite H6. f_equal. apply pc_back. exact H1.
Qed.

(** The hypotheses are met: the second waypoint of the plan of the other examples
    is moved. *)
Definition asked (p : V3) : state := do_modify name_b p false st1.
Definition asked_trace (p : V3) : list (event * obs) :=
  trace1 ++ [(Modify name_b p false, Quiet); (Back, Quiet); (Back, Quiet)] ++ backs (batch (set_pc PApply (asked p))).
Lemma asked_run p : run full_post (init v3_zero) (asked_trace p) (batch_done (set_pc PApply (asked p))).
Proof.
  unfold asked_trace. eapply run_app; [apply run1|]. eapply run_app; [|apply batch_solo; reflexivity].
  econstructor; [exact Logic.I|reflexivity|]. econstructor; [exact Logic.I|reflexivity|]. econstructor; [exact Logic.I|reflexivity|].
  constructor.
Qed.
Lemma done_fields s : d_pc (batch_done s) = PTop /\ d_flag (batch_done s) = d_flag s /\ d_stop (batch_done s) = d_stop s /\
  d_fut (batch_done s) = d_fut s /\ d_fut_locked (batch_done s) = d_fut_locked s /\ d_mod (batch_done s) = [] /\ d_traj (batch_done s) = d_traj s.
Proof. repeat split. Qed.
Theorem C105_example : exists st ev ob n p, execution full_post st ev ob /\ fair st ev /\ left_alone ev (S n) /\
  reachable (st n) /\ d_pc (st n) = PTop /\ d_computing (st n) = false /\ d_stop (st n) = false /\
  d_mod (st n) = [] /\ ev n = Modify name_b p false /\ name_b <> no_name /\ exists w, In w (d_dyn (st n)) /\ w_name w = name_b /\ w_cur w <> p.
Proof.
  set (q := mkV3 2 1 0). set (pre := asked_trace q). set (s1 := batch_done (set_pc PApply (asked q))).
  assert (RP : run full_post (init v3_zero) pre s1) by apply asked_run.
  destruct (done_fields (set_pc PApply (asked q))) as (G1 & G2 & G3 & G4 & G5 & G6 & G7). fold s1 in G1, G2, G3, G4, G5, G6, G7.
  assert (F1 : d_fut s1 = FNone) by (rewrite G4; reflexivity).
  assert (RL : run full_post s1 idle_loop s1).
  { apply idle_loop_run; [exact G1|rewrite G2; reflexivity|rewrite G3; reflexivity|exact F1|rewrite G5; reflexivity|exact G6|rewrite G7; discriminate]. }
  clearbody s1. assert (LN : (0 < length idle_loop)%nat) by (cbn; lia).
  exists (lasso_st pre idle_loop (init v3_zero)), (lasso_ev pre idle_loop), (lasso_ob pre idle_loop), (length trace1), q.
  assert (AT : forall i, (i < length trace1)%nat -> lasso_at pre idle_loop (0 + i) = nth i trace1 (Back, Quiet)).
  { intros i Hi. assert (i < length pre)%nat by (unfold pre, asked_trace; rewrite app_length; lia).
    cbn [Nat.add]. rewrite lasso_old by assumption. unfold pre, asked_trace. now rewrite app_nth1 by exact Hi. }
  destruct (lasso_run full_post pre idle_loop (init v3_zero) LN trace1 0 _ _ run1 eq_refl AT) as [E0 _]. cbn [Nat.add] in E0. rewrite E0.
  split; [apply (lasso_execution full_post pre idle_loop (init v3_zero) s1); auto|].
  split; [apply (lasso_fair full_post pre idle_loop (init v3_zero) s1 RP RL LN Quiet Quiet); [cbn; auto|cbn; auto|]|].
  { unfold running. rewrite F1. intros [X|[v X]]; discriminate. }
  split.
  { intros m Hm. unfold lasso_ev. destruct (Nat.lt_ge_cases m (length pre)) as [L|L].
    - rewrite lasso_old by exact L. unfold pre, asked_trace in L |- *. rewrite app_length in L. rewrite app_nth2 by lia.
      assert (NB : forall m l, (m < length (backs l))%nat -> fst (nth m (backs l) (Back, Quiet)) = Back).
      { intros k l Hk. unfold backs in *. rewrite map_length in Hk.
        change (Back, Quiet) with ((fun o => (Back, o)) Quiet). rewrite map_nth. reflexivity. }
      remember (m - length trace1)%nat as j eqn:Ej. destruct j as [|[|[|j]]]; [lia|cbn; tauto|cbn; tauto|].
      cbn [app nth]. rewrite NB; [cbn; tauto|]. rewrite app_length in L. cbn [length] in L. lia.
    - pose proof (lasso_new pre idle_loop LN m L) as I. destruct (lasso_at pre idle_loop m) as [e o]. cbn [fst].
      unfold idle_loop in I. cbn [In] in I. destruct I as [I|[I|[I|[]]]]; injection I as <- _; cbn; tauto. }
  split; [eapply full_reachable, run1|]. do 4 (split; [reflexivity|]).
  split.
  { unfold lasso_ev. rewrite lasso_old by (unfold pre, asked_trace; rewrite app_length; cbn [app length]; lia).
    unfold pre, asked_trace. rewrite app_nth2 by lia. rewrite Nat.sub_diag. reflexivity. }
  split; [discriminate|]. exists (wp_set_time 2 (wp_set_index 2 wb)).
  split; [right; right; left; reflexivity|]. split; [reflexivity|]. cbn. unfold pb, q. intros X. injection X as X. lra.
Qed.
Print Assumptions C105_example.
