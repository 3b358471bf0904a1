(** Model of the accessors for the internal matrices and counts of the linear
    optimiser.  Source: MTG/include/.../polynomial_optimization_linear.h:196-228
    and impl/polynomial_optimization_linear_impl.h:510-565 ("impl"). *)
From Coq Require Import Reals List Bool Arith.
From Verif Require Import Base PolyModel VertexModel TrajModel LinOptModel.
Import ListNotations.
Local Open Scope R_scope.

(** n_segments_, n_fixed_constraints_, n_free_constraints_, n_all_constraints_
    - linear.h:218-221 with impl 52, 225-228. *)
Definition n_segments (o : opt) : nat := (length (o_vertices o) - 1)%nat.
Definition n_fixed (o : opt) : nat := length (o_fixed o).
Definition n_free (o : opt) : nat := length (o_free o).
Definition n_all (o : opt) : nat := length (o_rows o).

(** [resize], [setZero] and the assignment of the N x N blocks on the diagonal
    - impl 513-518, 540-553. *)
Definition block_diag (N : nat) (blocks : list mat) : mat :=
  fun r c => if (r / N =? c / N)%nat then nth (r / N) blocks (fun _ _ => 0) (r mod N)%nat (c mod N)%nat else 0.

(** getAInverse - impl 510-520. *)
Definition get_A_inverse (N : nat) (o : opt) : mat := block_diag N (o_inv o).
(** getM - impl 522-526. *)
Definition get_M (o : opt) : mat := o_M o.
(** getR - impl 528-536. *)
Definition get_R (N : nat) (o : opt) : mat := cost_R N o.
(** getA - impl 538-554; [None]: the CHECK on a segment time fails. *)
Definition get_A (N : nat) (o : opt) : option mat :=
  if forallb (fun T => Rltb 0 T) (o_times o) then Some (block_diag N (map (mapping_matrix N) (o_times o))) else None.
(** getMpinv - impl 556-565: the transpose with every row divided by its sum.
    Division by a zero sum would give NaN; C83 shows it does not occur. *)
Definition get_Mpinv (N : nat) (o : opt) : mat :=
  fun r c => o_M o c r / rsum (N * n_segments o) (fun k => o_M o k r).
