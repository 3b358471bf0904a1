(** C62 - derivative names.  The specification is the table of names. *)
From Coq Require Import ZArith Lia List String.
From Verif Require Import MotionModel.
Import ListNotations.
Set Bullet Behavior "Strict Subproofs".
Local Open Scope Z_scope.

(** The documented names. *)
Definition position_names : list (Z * string) :=
  [(0, "position"); (1, "velocity"); (2, "acceleration"); (3, "jerk"); (4, "snap")]%string.
Definition orientation_names : list (Z * string) :=
  [(0, "orientation"); (1, "angular_velocity"); (2, "angular_acceleration")]%string.

(** [to_s] and [to_i] are the two directions of the table [names]; whatever is
    not in the table is reported as invalid. *)
Definition names_table (names : list (Z * string)) (to_s : Z -> string) (to_i : string -> Z) : Prop :=
  (forall d s, In (d, s) names -> to_s d = s /\ to_i s = d) /\
  (forall d, (forall s, ~ In (d, s) names) -> to_s d = "invalid"%string) /\
  (forall s, (forall d, ~ In (d, s) names) -> to_i s = -1).

Theorem C62_position :
  names_table position_names positionDerivativeToString positionDerivativeToInt.
Proof.
  repeat split.
  - cbn in H; repeat destruct H as [H|H]; try easy; injection H; intros; subst; reflexivity.
  - cbn in H; repeat destruct H as [H|H]; try easy; injection H; intros; subst; reflexivity.
  - intros d H. unfold positionDerivativeToString, POSITION, SNAP.
    destruct (0 <=? d) eqn:E1; destruct (d <=? 4) eqn:E2; try reflexivity. exfalso.
    assert (d = 0 \/ d = 1 \/ d = 2 \/ d = 3 \/ d = 4) as C by lia.
    repeat destruct C as [C|C]; subst; eapply H; cbn; tauto.
  - intros s H. unfold positionDerivativeToInt, INVALID.
    repeat match goal with |- context [String.eqb s ?c] =>
      destruct (String.eqb_spec s c); [subst; exfalso; eapply H; cbn; tauto|] end.
    reflexivity.
Qed.

Theorem C62_orientation :
  names_table orientation_names orintationDerivativeToString orientationDerivativeToInt.
Proof.
  repeat split.
  - cbn in H; repeat destruct H as [H|H]; try easy; injection H; intros; subst; reflexivity.
  - cbn in H; repeat destruct H as [H|H]; try easy; injection H; intros; subst; reflexivity.
  - intros d H. unfold orintationDerivativeToString, ORIENTATION, ANGULAR_ACCELERATION.
    destruct (0 <=? d) eqn:E1; destruct (d <=? 2) eqn:E2; try reflexivity. exfalso.
    assert (d = 0 \/ d = 1 \/ d = 2) as C by lia.
    repeat destruct C as [C|C]; subst; eapply H; cbn; tauto.
  - intros s H. unfold orientationDerivativeToInt, INVALID.
    repeat match goal with |- context [String.eqb s ?c] =>
      destruct (String.eqb_spec s c); [subst; exfalso; eapply H; cbn; tauto|] end.
    reflexivity.
Qed.

(** Consequences: the two functions are mutually inverse on 0..4 and on the
    five names, and no other integer or string takes part. *)
Theorem C62_inverse : forall d s, s <> "invalid"%string ->
  (positionDerivativeToString d = s <-> positionDerivativeToInt s = d /\ 0 <= d <= 4).
Proof.
  intros d s Hs. destruct C62_position as [T [Ti Tn]]. split.
  - intros E. destruct (Z_le_dec 0 d); [destruct (Z_le_dec d 4)|].
    + assert (d = 0 \/ d = 1 \/ d = 2 \/ d = 3 \/ d = 4) as C by lia.
      repeat destruct C as [C|C]; subst; split; try reflexivity; lia.
    + exfalso. apply Hs. rewrite <- E. apply Ti. intros s' I.
      cbn in I; repeat destruct I as [I|I]; try easy; injection I; intros; subst; lia.
    + exfalso. apply Hs. rewrite <- E. apply Ti. intros s' I.
      cbn in I; repeat destruct I as [I|I]; try easy; injection I; intros; subst; lia.
  - intros [E R].
    assert (dec : forall a b : Z * string, {a = b} + {a <> b})
      by (decide equality; [apply string_dec|apply Z.eq_dec]).
    destruct (in_dec dec (d, s) position_names) as [I|I].
    + apply (proj1 (T _ _ I)).
    + exfalso. assert (to_i : positionDerivativeToInt s = -1).
      { apply Tn. intros d' I'. pose proof (proj2 (T _ _ I')) as E'.
        rewrite E in E'. subst d'. contradiction. }
      lia.
Qed.

Theorem C62_invalid_round_trip : forall d, ~ (0 <= d <= 4) ->
  positionDerivativeToInt (positionDerivativeToString d) = -1.
Proof.
  intros d H. destruct C62_position as [_ [Ti _]]. rewrite Ti; [reflexivity|].
  intros s I. cbn in I; repeat destruct I as [I|I]; try easy; injection I; intros; subst; lia.
Qed.

Example C62_example : positionDerivativeToString 3 = "jerk"%string /\
  positionDerivativeToInt "snap" = 4 /\ positionDerivativeToString 5 = "invalid"%string /\
  positionDerivativeToInt "Snap" = -1 /\ orintationDerivativeToString 3 = "invalid"%string.
Proof. repeat split. Qed.

Print Assumptions C62_position.
Print Assumptions C62_orientation.
Print Assumptions C62_inverse.
Print Assumptions C62_invalid_round_trip.
