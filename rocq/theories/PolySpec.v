(** Specification vocabulary for polynomials, independent of the model. *)
From Coq Require Import Reals List.
From Coquelicot Require Import Coquelicot.
Import ListNotations.
Local Open Scope R_scope.

(** Value at [t] of the polynomial with coefficients [c0; c1; ...]:
    c0 + c1 t + c2 t^2 + ... *)
Fixpoint pval (c : list R) (t : R) : R :=
  match c with [] => 0 | c0 :: cs => c0 + t * pval cs t end.

(** [is_min_on f a b t v]: v = f t with t in [a,b] and v is the least value of
    f on [a,b]; likewise [is_max_on]. *)
Definition is_min_on (f : R -> R) (a b t v : R) : Prop :=
  a <= t <= b /\ f t = v /\ forall x, a <= x <= b -> v <= f x.
Definition is_max_on (f : R -> R) (a b t v : R) : Prop :=
  a <= t <= b /\ f t = v /\ forall x, a <= x <= b -> f x <= v.

(** A list of complex roots (re, im) is complete for a function on [a,b] when
    the function is identically zero or every real zero in [a,b] is listed with
    imaginary part at most eps. *)
Definition roots_complete (eps : R) (roots : list (R * R)) (f : R -> R) (a b : R) : Prop :=
  (exists x, f x <> 0) ->
  forall x, a <= x <= b -> f x = 0 -> exists y, Rabs y <= eps /\ In (x, y) roots.
