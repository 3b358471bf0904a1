(** Property theorems: a waypoint object after any sequence of calls (C97). *)
From Coq Require Import Reals Lra Lia List Bool ZArith Arith.
From Coquelicot Require Import Coquelicot.
From Verif Require Import Base PolyModel VertexModel WaypointModel WaypointSpec WaypointProofs DynProofs WpObjModel.
Import List ListNotations.
Set Bullet Behavior "Strict Subproofs".
Local Open Scope R_scope.

(** ** Specification *)

(** a is what the last call that says anything (according to f) says, or the
    initial a0 if none does. *)
Definition last_said {A : Type} (f : call -> option A) (cs : list call) (a0 a : A) : Prop :=
  (exists before c after, cs = before ++ c :: after /\ f c = Some a /\ Forall (fun c => f c = None) after) \/
  (Forall (fun c => f c = None) cs /\ a = a0).

Definition says_name (c : call) := match c with Name_ n => Some n | _ => None end.
Definition says_time (c : call) := match c with Time_ t => Some t | _ => None end.
Definition says_position (c : call) :=
  match c with MoveTo p _ | Constrain O p | ResetTo p => Some p | _ => None end.
Definition says_constraint (k : nat) (c : call) :=
  match c with Constrain j p => if (j =? k)%nat then Some (Some (v3_list p)) else None | _ => None end.
(** Calls after which the position counts as the original one. *)
Definition is_reset (c : call) : Prop := match c with Constrain O _ | ResetTo _ | ResetHere => True | _ => False end.
Definition is_move (c : call) : Prop := match c with MoveTo _ _ => True | _ => False end.
(** Index after the calls. *)
Fixpoint index_after (cs : list call) (i : Z) : Z :=
  match cs with
  | [] => i
  | Index_ j :: r => index_after r j
  | Displace j :: r => index_after r (i + j)
  | _ :: r => index_after r i
  end%Z.

(** ** Lemmas *)
Lemma last_said_snoc {A} (f : call -> option A) cs c a0 a :
  match f c with Some b => a = b | None => last_said f cs a0 a end -> last_said f (cs ++ [c]) a0 a.
Proof.
  intros H. destruct (f c) as [b|] eqn:E.
  - subst. left. exists cs, c, []. auto.
  - destruct H as [(x & y & z & -> & H1 & H2)|(H1 & H2)].
    + left. exists x, y, (z ++ [c]). split; [now rewrite <- app_assoc|]. split; auto. apply Forall_app. auto.
    + right. split; auto. apply Forall_app. auto.
Qed.
Lemma calls_snoc cs c w : wp_calls (cs ++ [c]) w = wp_call c (wp_calls cs w).
Proof. unfold wp_calls. now rewrite fold_left_app. Qed.
Lemma said_cur c w : w_cur (wp_call c w) = match says_position c with Some p => p | None => w_cur w end.
Proof. destruct c as [| | | |p a|[|k] p|p|]; try reflexivity. apply move_cur. Qed.
Lemma said_orig c w : w_orig (wp_call c w) = match c with Constrain O _ | ResetTo _ | ResetHere => w_cur (wp_call c w) | _ => w_orig w end.
Proof. destruct c as [| | | |p a|[|k] p|p|]; try reflexivity. apply move_orig. Qed.
Lemma said_vertex c w : w_vertex (wp_call c w) = match c with
  | MoveTo p _ | ResetTo p => set_cons 0 p (w_vertex w) | Constrain k p => set_cons k p (w_vertex w)
  | ResetHere => set_cons 0 (w_cur w) (w_vertex w) | _ => w_vertex w end.
Proof. destruct c as [| | | |p a|[|k] p|p|]; try reflexivity. apply move_vertex. Qed.
Lemma said_name c w : w_name (wp_call c w) = match says_name c with Some n => n | None => w_name w end.
Proof. destruct c as [| | | |p a|[|k] p|p|]; try reflexivity. apply move_name. Qed.
Lemma said_time c w : w_time (wp_call c w) = match says_time c with Some n => n | None => w_time w end.
Proof. destruct c as [| | | |p a|[|k] p|p|]; try reflexivity. apply move_time. Qed.
Lemma said_index c w : w_index (wp_call c w) = index_after [c] (w_index w).
Proof. destruct c as [| | | |p a|[|k] p|p|]; try reflexivity. apply move_index. Qed.
Lemma said_mods c w : w_mods (wp_call c w) = [] <-> is_reset c \/ (~ is_move c /\ w_mods w = []).
Proof.
  destruct c as [| t | | |p a|[|k] p|p|]; cbn [is_reset is_move]; try (cbn; tauto).
  - cbn. destruct (w_mods w); cbn; split; try tauto; try discriminate. intros [[]|(_ & H)]; discriminate.
  - cbn [wp_call]. destruct (move_mods w p a) as (m & -> & _). split; [|tauto]. destruct (w_mods w); discriminate.
Qed.
Lemma index_after_app a b i : index_after (a ++ b) i = index_after b (index_after a i).
Proof. revert i. induction a as [|c a IH]; intros i; simpl; auto. destruct c; apply IH. Qed.

(** ** C97 *)

(** C97: a waypoint built from a vertex with a three-dimensional position starts
    at that position, unnamed time 0, unmodified; without three coordinates the
    constructor reads what is not there. *)
Theorem C97_construct :
  forall (v : vertex) (n : name),
  (forall x y z, get_constraint 0 v = Some [x; y; z] ->
     exists w, wp_new v n = Some w /\ w_vertex w = v /\ w_orig w = mkV3 x y z /\ w_cur w = mkV3 x y z /\ w_time w = 0 /\
       w_name w = n /\ w_index w = (-1)%Z /\ wp_has_modifiers w = false /\
       (forall i, wp_new_indexed v i n = Some (wp_set_index i w))) /\
  (get_constraint 0 v = None \/ (exists p, get_constraint 0 v = Some p /\ (length p < 3)%nat) ->
     wp_new v n = None /\ forall i, wp_new_indexed v i n = None).
Proof.
  intros v n. unfold wp_new_indexed, wp_new. split.
  - intros x y z ->. simpl. eexists. split; [reflexivity|]. cbn. auto 10.
  - intros [-> |(p & -> & L)]; [auto|]. destruct (Nat.leb_spec 3 (length p)); [lia|auto].
Qed.

(** C97: a default-constructed waypoint has time 0, no name, no constraint and no
    modification (its positions are not initialised); once given a position it
    is the unnamed waypoint built from a vertex with that position. *)
Theorem C97_default :
  forall (junk_orig junk_cur p : V3) (c : call), c = ResetTo p \/ c = Constrain 0 p ->
  let w := wp_default junk_orig junk_cur in
  w_time w = 0 /\ w_name w = no_name /\ w_index w = (-1)%Z /\ wp_has_modifiers w = false /\
  (forall k, get_constraint k (w_vertex w) = None) /\
  forall v, v_D v = 3%nat -> v_cons v = [(0%nat, v3_list p)] -> wp_new v no_name = Some (wp_call c w).
Proof.
  intros jo jc p c Hc. cbv zeta. do 5 (split; [reflexivity|]).
  intros [D cons] HD HV. cbn in HD, HV. subst. destruct p as [x y z]. destruct Hc as [-> | ->]; reflexivity.
Qed.

(** C97: the getters after any calls: each returns what was last said about it;
    the position constraint of the vertex is the current position. *)
Theorem C97_getters :
  forall (v : vertex) (n : name) (x y z : R) (w0 : waypoint) (cs : list call),
  get_constraint 0 v = Some [x; y; z] -> wp_new v n = Some w0 ->
  let w := wp_calls cs w0 in
  last_said says_name cs n (w_name w) /\
  last_said says_time cs 0 (w_time w) /\
  last_said says_position cs (mkV3 x y z) (w_cur w) /\
  get_constraint 0 (w_vertex w) = Some (v3_list (w_cur w)) /\
  (forall k, (1 <= k)%nat -> last_said (says_constraint k) cs (get_constraint k v) (get_constraint k (w_vertex w))) /\
  w_index w = index_after cs (-1).
Proof.
  intros v n x y z w0 cs Hp Hw.
  assert (E0 : w0 = mkWp v (mkV3 x y z) (mkV3 x y z) 0 n (-1) [] SIGMA_FIXED).
  { unfold wp_new in Hw. rewrite Hp in Hw. simpl in Hw. injection Hw as <-. reflexivity. }
  subst w0. clear Hw. cbv zeta. induction cs as [|c cs IH] using rev_ind.
  { cbn. split; [right; auto|]. split; [right; auto|]. split; [right; auto|]. split; [exact Hp|]. split; [|reflexivity].
    intros k _. right. auto. }
  rewrite calls_snoc. set (w := wp_calls cs _) in *.
  destruct IH as (I1 & I2 & I3 & I4 & I5 & I6).
  split; [|split; [|split; [|split; [|split]]]].
  - apply last_said_snoc. rewrite said_name. destruct (says_name c); auto.
  - apply last_said_snoc. rewrite said_time. destruct (says_time c); auto.
  - apply last_said_snoc. rewrite said_cur. destruct (says_position c); auto.
  - rewrite said_cur, said_vertex. destruct c as [| | | |p a|[|k] p|p|]; cbn [says_position]; auto; try apply get_set_same.
    rewrite get_set_other by lia. exact I4.
  - intros k Hk. apply last_said_snoc. rewrite said_vertex. specialize (I5 k Hk).
    destruct c as [| | | |p a|j p|p|]; cbn [says_constraint]; auto; try (rewrite get_set_other by lia; exact I5).
    destruct (Nat.eqb_spec j k) as [-> | Ne]; [apply get_set_same|]. rewrite get_set_other by lia. exact I5.
  - rewrite index_after_app, <- I6. apply said_index.
Qed.

(** C97: the original position is the position at the last reset (or at
    construction); the waypoint has modifications exactly if it was moved
    since; without modifications the trajectory is not compensated. *)
Theorem C97_original :
  forall (v : vertex) (n : name) (x y z : R) (w0 : waypoint) (cs : list call),
  get_constraint 0 v = Some [x; y; z] -> wp_new v n = Some w0 ->
  let w := wp_calls cs w0 in
  exists before after, cs = before ++ after /\ (before = [] \/ exists b c, before = b ++ [c] /\ is_reset c) /\
    Forall (fun c => ~ is_reset c) after /\
    w_orig w = w_cur (wp_calls before w0) /\
    (wp_has_modifiers w = true <-> Exists is_move after) /\
    (wp_has_modifiers w = false -> w_orig w = w_cur w /\ forall t d, wp_compensation w t d = v3_zero).
Proof.
  intros v n x y z w0 cs Hp Hw.
  assert (E0 : w0 = mkWp v (mkV3 x y z) (mkV3 x y z) 0 n (-1) [] SIGMA_FIXED).
  { unfold wp_new in Hw. rewrite Hp in Hw. simpl in Hw. injection Hw as <-. reflexivity. }
  assert (B0 : w_orig w0 = w_cur w0 /\ w_mods w0 = []) by (rewrite E0; auto). clear E0 Hw Hp.
  assert (HM : forall u, wp_has_modifiers u = true <-> w_mods u <> []).
  { intros u. unfold wp_has_modifiers. destruct (w_mods u); split; congruence. }
  assert (Main : exists before after, cs = before ++ after /\ (before = [] \/ exists b c, before = b ++ [c] /\ is_reset c) /\
    Forall (fun c => ~ is_reset c) after /\ w_orig (wp_calls cs w0) = w_cur (wp_calls before w0) /\
    (w_mods (wp_calls cs w0) <> [] <-> Exists is_move after) /\
    (w_mods (wp_calls cs w0) = [] -> w_orig (wp_calls cs w0) = w_cur (wp_calls cs w0))).
  { induction cs as [|c cs IH] using rev_ind.
    { exists [], []. cbn. destruct B0 as [B1 B2]. rewrite B2. split; auto. split; auto. split; auto. split; auto.
      split; auto. split; [congruence|]. intros X; inversion X. }
    rewrite calls_snoc. set (u := wp_calls cs w0) in *.
    destruct IH as (b & a & E & Hb & Ha & Ho & Hm & Hc).
    assert (D : is_reset c \/ ~ is_reset c) by (destruct c as [| | | | |[|k] ?| |]; cbn; tauto).
    destruct D as [D|D].
    - exists (cs ++ [c]), []. split; [now rewrite app_nil_r|]. split; [right; eauto|]. split; auto.
      rewrite calls_snoc. fold u.
      assert (O : w_orig (wp_call c u) = w_cur (wp_call c u)) by (rewrite said_orig; destruct c as [| | | | |[|k] ?| |]; cbn in D; tauto || reflexivity).
      assert (M : w_mods (wp_call c u) = []) by (apply said_mods; auto).
      split; auto. rewrite M. split; [|auto]. split; [congruence|]. intros X; inversion X.
    - exists b, (a ++ [c]). split; [rewrite E; now rewrite app_assoc|]. split; auto. split; [apply Forall_app; auto|].
      assert (O : w_orig (wp_call c u) = w_orig u) by (rewrite said_orig; destruct c as [| | | | |[|k] ?| |]; cbn in D; tauto || reflexivity).
      split; [rewrite O; auto|]. split.
      + rewrite Exists_app, <- Hm, said_mods. split.
        * intros H. destruct c as [| | | | |[|k] ?| |]; cbn in *; try (left; tauto); try tauto. right. repeat constructor.
        * intros [H|H] [K|(K1 & K2)]; auto; try (inversion H as [? ? Q|? ? Q]; subst; [auto|inversion Q]).
      + intros K. apply said_mods in K. destruct K as [K|(K1 & K2)]; [tauto|]. rewrite O, (Hc K2), said_cur.
        destruct c as [| | | | |[|k] ?| |]; cbn in *; auto; tauto. }
  destruct Main as (b & a & E & Hb & Ha & Ho & Hm & Hc). exists b, a. cbv zeta. split; auto. split; auto. split; auto. split; auto.
  split; [now rewrite HM|]. intros F.
  assert (M : w_mods (wp_calls cs w0) = []) by (unfold wp_has_modifiers in F; destruct (w_mods (wp_calls cs w0)); [auto|discriminate]).
  split; auto. intros t d. unfold wp_compensation. now rewrite M.
Qed.

(** C97: the first modification of a new waypoint, without telling the current
    time, acts on axis i exactly during 7/2 * 3/2 * (3/4)^(i+1) seconds before
    and after the waypoint. *)
Theorem C97_first_window :
  forall (v : vertex) (n : name) (w0 : waypoint) (T : R) (p : V3) (a t : R) (i : nat),
  wp_new v n = Some w0 -> a <= 0 -> (i < 3)%nat ->
  2 / 100 <= Rabs (v3_nth i p - v3_nth i (w_cur w0)) ->
  let w := wp_calls [Time_ T; MoveTo p a] w0 in
  v3_nth i (wp_compensation w t 0) <> 0 <-> Rabs (t - T) <= 7 / 2 * (3 / 2 * (3 / 4) ^ (S i)).
Proof.
  intros v n w0 T p a t i Hw Ha Hi Hd. cbv zeta. unfold wp_calls. cbn [fold_left wp_call].
  assert (B0 : w_mods w0 = [] /\ w_sigma w0 = 3 / 2).
  { unfold wp_new in Hw. destruct (get_constraint 0 v) as [q|]; [|discriminate]. destruct (3 <=? length q)%nat; [|discriminate].
    injection Hw as <-. auto. }
  destruct B0 as [B1 B2].
  destruct (move_mods (wp_set_time T w0) p a) as (m & Em & Inc & Mu & _ & Sg & _).
  specialize (Sg Ha i Hi). rewrite compensation_sum, Em. cbn [wp_set_time w_mods]. rewrite B1. cbn [map app lsum].
  rewrite Rplus_0_r. specialize (Inc i). specialize (Mu i). cbn [wp_set_time w_sigma w_cur w_time] in *. rewrite B2 in Sg.
  split.
  - intros H. destruct (Rle_dec (Rabs (t - T)) (7 / 2 * (3 / 2 * (3 / 4) ^ S i))) as [L|L]; auto. exfalso. apply H.
    apply mod_eval_outside. rewrite Sg, Mu. lra.
  - intros L. assert (P : 0 < (3 / 4) ^ S i) by (apply pow_lt; lra).
    unfold mod_eval. rewrite Inc, Mu, Sg.
    replace (Rltb (Rabs (v3_nth i p - v3_nth i (w_cur w0))) (2 / 100)) with false by (symmetry; apply Rltb_false; lra).
    replace (Rltb (7 / 2 * (3 / 2 * (3 / 4) ^ S i)) (Rabs (t - T))) with false by (symmetry; apply Rltb_false; lra).
    cbn [orb]. apply Rmult_integral_contrapositive_currified; [apply Rgt_not_eq, exp_pos|].
    intros Z. rewrite Z, Rabs_R0 in Hd. lra.
Qed.

(** C97 (negative): resetting a waypoint does not restore the width: later
    modifications act for a shorter time than on a new waypoint. *)
Theorem C97_reset_keeps_width_refuted :
  forall (v : vertex) (n : name) (w0 : waypoint) (q p : V3) (a : R),
  wp_new v n = Some w0 -> a <= 0 -> 2 / 100 <= Rabs (vx p - vx (w_cur w0)) ->
  let w := wp_calls [MoveTo q a; ResetTo (w_cur w0)] w0 in
  w_orig w = w_orig w0 /\ w_cur w = w_cur w0 /\ w_time w = w_time w0 /\ wp_has_modifiers w = wp_has_modifiers w0 /\
  exists t, vx (wp_compensation (wp_call (MoveTo p a) w) t 0) = 0 /\ vx (wp_compensation (wp_call (MoveTo p a) w0) t 0) <> 0.
Proof.
  intros v n w0 q p a Hw Ha Hd. cbv zeta. unfold wp_calls. cbn [fold_left wp_call].
  assert (B0 : w_mods w0 = [] /\ w_sigma w0 = 3 / 2 /\ w_orig w0 = w_cur w0).
  { unfold wp_new in Hw. destruct (get_constraint 0 v) as [r|]; [|discriminate]. destruct (3 <=? length r)%nat; [|discriminate].
    injection Hw as <-. auto. }
  destruct B0 as (B1 & B2 & B3). set (w := wp_reset_to (w_cur w0) (wp_move q a w0)).
  assert (Sw : w_sigma w = 3 / 2 * (3 / 4) ^ 3).
  { unfold w. cbn. destruct (move_mods w0 q a) as (_ & _ & _ & _ & _ & _ & _ & S). rewrite S by auto. now rewrite B2. }
  assert (Tw : w_time w = w_time w0) by (unfold w; cbn; apply move_time).
  split; [unfold w; cbn; congruence|]. split; [reflexivity|]. split; auto.
  split; [unfold wp_has_modifiers; rewrite B1; reflexivity|].
  exists (w_time w0 + 3).
  change (vx (wp_compensation (wp_move p a w) (w_time w0 + 3) 0)) with (v3_nth 0 (wp_compensation (wp_move p a w) (w_time w0 + 3) 0)).
  change (vx (wp_compensation (wp_move p a w0) (w_time w0 + 3) 0)) with (v3_nth 0 (wp_compensation (wp_move p a w0) (w_time w0 + 3) 0)).
  split; rewrite compensation_sum.
  - destruct (move_mods w p a) as (m & Em & Inc & Mu & _ & Sg & _). rewrite Em. change (w_mods w) with (@nil mod3). cbn [map app lsum].
    rewrite Rplus_0_r. apply mod_eval_outside. rewrite Mu, (Sg Ha 0%nat) by lia. rewrite Sw, Tw.
    replace (w_time w0 + 3 - w_time w0) with 3 by ring. rewrite Rabs_pos_eq by lra. lra.
  - destruct (move_mods w0 p a) as (m & Em & Inc & Mu & _ & Sg & _). rewrite Em, B1. cbn [map app lsum]. rewrite Rplus_0_r.
    specialize (Sg Ha 0%nat ltac:(lia)). specialize (Inc 0%nat). specialize (Mu 0%nat). rewrite B2 in Sg.
    unfold mod_eval. rewrite Inc, Mu, Sg. cbn [v3_nth].
    replace (Rltb (Rabs (vx p - vx (w_cur w0))) (2 / 100)) with false by (symmetry; apply Rltb_false; lra).
    replace (w_time w0 + 3 - w_time w0) with 3 by ring. rewrite (Rabs_pos_eq 3) by lra.
    replace (Rltb (7 / 2 * (3 / 2 * (3 / 4) ^ 1)) 3) with false by (symmetry; apply Rltb_false; lra).
    cbn [orb]. apply Rmult_integral_contrapositive_currified; [apply Rgt_not_eq, exp_pos|].
    intros Z. rewrite Z, Rabs_R0 in Hd. lra.
Qed.
Print Assumptions C97_construct.
Print Assumptions C97_default.
Print Assumptions C97_getters.
Print Assumptions C97_original.
Print Assumptions C97_first_window.
Print Assumptions C97_reset_keeps_width_refuted.
Example C97_example :
  exists w0, get_constraint 0 (pos_vertex [1; 2; 3]) = Some [1; 2; 3] /\ wp_new (pos_vertex [1; 2; 3]) no_name = Some w0 /\
    2 / 100 <= Rabs (vx (mkV3 2 2 3) - vx (w_cur w0)) /\
    wp_has_modifiers (wp_calls [Time_ 4; MoveTo (mkV3 2 2 3) 0; Constrain 1 v3_zero] w0) = true /\
    wp_has_modifiers (wp_calls [Time_ 4; MoveTo (mkV3 2 2 3) 0; Constrain 0 v3_zero] w0) = false.
Proof.
  eexists. split; [reflexivity|]. split; [reflexivity|]. cbn [w_cur vx]. split; [cbn; rewrite Rabs_pos_eq; lra|].
  split; [|reflexivity]. unfold wp_calls, wp_has_modifiers. cbn [fold_left wp_call wp_set_constraint w_mods].
  destruct (move_mods (wp_set_time 4 (mkWp (pos_vertex [1; 2; 3]) (v3_of_list [1; 2; 3]) (v3_of_list [1; 2; 3]) 0 no_name (-1) [] SIGMA_FIXED)) (mkV3 2 2 3) 0)
    as (m & -> & _). reflexivity.
Qed.
