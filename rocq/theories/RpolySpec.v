(** Specification of the root finder, independent of its algorithm: complex
    values of real polynomials, leading coefficient first. *)
From Coq Require Import Reals List.
From Coquelicot Require Import Coquelicot.
From Verif Require Import PolyModel.
Import List ListNotations.
Local Open Scope R_scope.

Fixpoint cpow (z : C) (n : nat) : C := match n with O => RtoC 1 | S m => Cmult z (cpow z m) end.
(** p(z) = p_0 z^n + ... + p_n. *)
Fixpoint cval (p : list R) (z : C) : C :=
  match p with [] => RtoC 0 | c :: l => Cplus (Cmult (RtoC c) (cpow z (length l))) (cval l z) end.
(** |p_0| r^n + ... + |p_n|: the scale against which p(z) is compared. *)
Fixpoint aval (p : list R) (r : R) : R :=
  match p with [] => 0 | c :: l => Rabs c * r ^ length l + aval l r end.
(** The machine epsilon 2^-52 of double arithmetic. *)
Definition machine_eps : R := / 4503599627370496.

(** [z] is a zero of [p] up to rounding: |p(z)| is at most [d] machine epsilons
    relative to the size of the terms of p(z). *)
Definition nearly_zero (d : R) (p : list R) (z : C) : Prop :=
  Cmod (cval p z) <= d * machine_eps * aval p (Cmod z).

(** How a list of zeros is explained by successive deflation of [p]:
    [explained p complete zs].  A linear or quadratic polynomial is solved
    exactly; otherwise one or two approximate zeros of the current polynomial
    are split off (the polynomial may be rescaled by a constant), or the search
    gives up. *)
Inductive explained : list R -> bool -> list C -> Prop :=
  | ex_constant p0 : explained [p0] true []
  | ex_linear p0 p1 z : (forall x, cval [p0; p1] x = Cmult (RtoC p0) (Cminus x z)) ->
      snd z = 0 -> explained [p0; p1] true [z]
  | ex_quadratic p0 p1 p2 z1 z2 :
      (forall x, cval [p0; p1; p2] x = Cmult (RtoC p0) (Cmult (Cminus x z1) (Cminus x z2))) ->
      (z2 = Cconj z1 \/ snd z1 = 0 /\ snd z2 = 0) ->
      explained [p0; p1; p2] true [z1; z2]
  | ex_stop p : (4 <= length p)%nat -> explained p false []
  | ex_one p q k s ok zs : (4 <= length p)%nat -> k <> 0 -> length p = S (length q) ->
      hd 0 q = k * hd 0 p ->
      nearly_zero (40 * INR (length p)) p (RtoC s) ->
      (forall x, Cmult (RtoC k) (cval p x) =
         Cplus (Cmult (Cminus x (RtoC s)) (cval q x)) (Cmult (RtoC k) (cval p (RtoC s)))) ->
      explained q ok zs -> explained p ok (RtoC s :: zs)
  | ex_two p q k z1 z2 r0 r1 ok zs : (4 <= length p)%nat -> k <> 0 -> length p = S (S (length q)) ->
      hd 0 q = k * hd 0 p ->
      (z2 = Cconj z1 \/ snd z1 = 0 /\ snd z2 = 0) ->
      Cmod z1 <= Cmod z2 -> 99 / 100 * Cmod z2 <= Cmod z1 ->
      nearly_zero (360 * INR (length p) ^ 2) p z2 ->
      (forall x, Cmult (RtoC k) (cval p x) =
         Cplus (Cmult (Cmult (Cminus x z1) (Cminus x z2)) (cval q x)) (Cplus (Cmult (RtoC r1) x) (RtoC r0))) ->
      explained q ok zs -> explained p ok (z1 :: z2 :: zs).

(** The value c_0 + c_1 z + ... of a polynomial given by increasing coefficients. *)
Fixpoint cinc (cs : list R) (z : C) : C :=
  match cs with [] => RtoC 0 | c :: l => Cplus (RtoC c) (Cmult z (cinc l z)) end.
(** The product of (x - z) over a list of zeros. *)
Fixpoint zprod (zs : list C) (x : C) : C :=
  match zs with [] => RtoC 1 | z :: l => Cmult (Cminus x z) (zprod l x) end.
(** The smallest normal double, 2^-1022. *)
Definition least_normal : R := / 2 ^ 1022.
(** How a coefficient vector (increasing) is read: j zeros at the origin, the
    coefficients of [p] (leading coefficient first, neither its leading nor its
    constant coefficient vanishes) and negligible coefficients behind. *)
Definition reads_as (cs : list R) (j : nat) (p small : list R) : Prop :=
  cs = repeat 0 j ++ rev p ++ small /\ Forall (fun c => Rabs c < least_normal) small /\
  least_normal <= Rabs (hd 0 p) /\ last p 0 <> 0.
