(** Specification vocabulary for Vertex: sequences of operations against a
    finite map from derivative orders to vectors. *)
From Coq Require Import Reals List Bool Arith Sorted.
From Verif Require Import Base PolyModel VertexModel.
Import ListNotations.
Local Open Scope R_scope.

Definition keys (c : constraints) : list nat := map fst c.
Definition sorted_keys (c : constraints) : Prop := StronglySorted lt (keys c).

(** *** Every sequence of operations *)

Inductive vop :=
| OpAdd (d : nat) (c : vec)
| OpAddScalar (d : nat) (x : R)
| OpRemove (d : nat)
| OpStartEnd (c : vec) (up_to : nat).

(** The operations on the model; [None] = fatal CHECK. *)
Definition run_op (v : vertex) (o : vop) : option vertex :=
  match o with
  | OpAdd d c => add_constraint d c v
  | OpAddScalar d x => Some (add_constraint_scalar d x v)
  | OpRemove d => Some (snd (remove_constraint d v))
  | OpStartEnd c n => make_start_or_end c n v
  end.
Fixpoint run_ops (v : vertex) (os : list vop) : option vertex :=
  match os with
  | [] => Some v
  | o :: os' => match run_op v o with Some v' => run_ops v' os' | None => None end
  end.

(** The same operations on mathematical partial functions. *)
Definition fmap := nat -> option vec.
Definition upd (m : fmap) (k : nat) (v : option vec) : fmap :=
  fun k' => if (k' =? k)%nat then v else m k'.
Definition spec_op (D : nat) (m : fmap) (o : vop) : fmap :=
  match o with
  | OpAdd d c => upd m d (Some c)
  | OpAddScalar d x => upd m d (Some (repeat x D))
  | OpRemove d => upd m d None
  | OpStartEnd c n => fun k => if (k =? 0)%nat then Some c
                               else if (k <=? n)%nat then Some (repeat 0 D) else m k
  end.
(** Vector arguments have the dimension of the vertex. *)
Definition op_dim (D : nat) (o : vop) : Prop :=
  match o with OpAdd _ c | OpStartEnd c _ => length c = D | _ => True end.

Definition vertex_inv (D : nat) (v : vertex) : Prop :=
  v_D v = D /\ sorted_keys (v_cons v) /\
  forall k c, get_constraint k v = Some c -> length c = D.
