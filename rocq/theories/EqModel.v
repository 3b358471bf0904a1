(** Model of the comparison operators of Polynomial, Segment and Trajectory. *)
From Coq Require Import Reals List Bool Arith.
From Verif Require Import Base PolyModel TrajModel.
Import ListNotations.
Local Open Scope R_scope.

(** Polynomial::operator== - polynomial.h:65-67: comparison of two coefficient
    vectors; Eigen asserts that their sizes agree ([Undef] otherwise). *)
Definition poly_equal (p q : poly) : res bool :=
  if (length p =? length q)%nat then Val (if list_eq_dec Req_EM_T p q then true else false) else Undef.

(** The loop of Segment::operator== - segment.cpp:32-36, over the polynomials
    i .. D-1 of the two segments. *)
Fixpoint polys_equal (ps qs : list poly) : res bool :=
  match ps, qs with
  | p :: ps', q :: qs' =>
      match poly_equal p q with
      | Val true => polys_equal ps' qs'
      | r => r
      end
  | _, _ => Val true
  end.
(** Segment::operator== - segment.cpp:28-39. *)
Definition seg_equal (a b : segment) : res bool :=
  if negb (s_D a =? s_D b)%nat then Val false
  else if Req_EM_T (s_time a) (s_time b) then polys_equal (s_polys a) (s_polys b) else Val false.

(** operator== of std::vector<Segment> for equal sizes: element by element up
    to the first difference. *)
Fixpoint segs_equal (ss ts : list segment) : res bool :=
  match ss, ts with
  | s :: ss', t :: ts' =>
      match seg_equal s t with
      | Val true => segs_equal ss' ts'
      | r => r
      end
  | _, _ => Val true
  end.
(** The loop of Trajectory::operator== - trajectory.cpp:39-44: [k] rounds, each
    of which compares all segments. *)
Fixpoint compare_rounds (k : nat) (ss ts : list segment) : res bool :=
  match k with
  | O => Val true
  | S k' =>
      match segs_equal ss ts with
      | Val true => compare_rounds k' ss ts
      | r => r
      end
  end.
(** Trajectory::operator== - trajectory.cpp:34-46. *)
Definition traj_equal (a b : trajectory) : res bool :=
  if negb (length (t_segs a) =? length (t_segs b))%nat then Val false
  else compare_rounds (length (t_segs a)) (t_segs a) (t_segs b).
