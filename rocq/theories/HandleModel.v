(** Model of ThreadSafeTrajectory - thread_safe_trajectory.hpp:14-125 - as a
    handle on a shared trajectory.  Modelled: the trajectories allocated so far
    with their reference counts (std::shared_ptr), the handles, and the
    shared_ptr variables of the client they were constructed from.  Locking is
    the subject of ConcModel; here calls do not overlap. *)
From Coq Require Import Reals List Bool Arith.
From Verif Require Import Base PolyModel VertexModel TrajModel.
Import ListNotations.
Local Open Scope R_scope.

(** A std::shared_ptr that was destroyed, or is null, or points to allocation p. *)
Inductive cell := Gone | Holds (p : option nat).
Record mem := mkMem {
  m_handles : list cell;                 (* trajectory_ptr_ of each handle *)
  m_client : list cell;                  (* shared_ptr variables of the client *)
  m_counts : list nat;                   (* use counts *)
  m_objects : list (option trajectory)   (* None: deleted *) }.
Definition mem_empty : mem := mkMem [] [] [] [].

Fixpoint put {A} (i : nat) (a : A) (l : list A) {struct l} : list A :=
  match l, i with
  | [], _ => []
  | _ :: l', O => a :: l'
  | x :: l', S i' => x :: put i' a l'
  end.

(** Reference counting of std::shared_ptr: copying and releasing. *)
Definition acquire (q : option nat) (m : mem) : mem :=
  match q with
  | None => m
  | Some p => mkMem (m_handles m) (m_client m) (put p (S (nth p (m_counts m) 0%nat)) (m_counts m)) (m_objects m)
  end.
Definition release (q : option nat) (m : mem) : mem :=
  match q with
  | None => m
  | Some p => let n := pred (nth p (m_counts m) 0%nat) in
      mkMem (m_handles m) (m_client m) (put p n (m_counts m))
        (if (n =? 0)%nat then put p None (m_objects m) else m_objects m)
  end.
Definition set_handle (i : nat) (c : cell) (m : mem) : mem :=
  mkMem (put i c (m_handles m)) (m_client m) (m_counts m) (m_objects m).
Definition new_handle (q : option nat) (m : mem) : mem :=
  mkMem (m_handles m ++ [Holds q]) (m_client m) (m_counts m) (m_objects m).

Definition handle (m : mem) (i : nat) : option (option nat) :=
  match nth_error (m_handles m) i with Some (Holds q) => Some q | _ => None end.
Definition client (m : mem) (k : nat) : option (option nat) :=
  match nth_error (m_client m) k with Some (Holds q) => Some q | _ => None end.

(** Calls.  MakeShared: the client allocates a trajectory; ClientReset: it gives
    up its pointer; ClientWrite: it overwrites the trajectory through its pointer. *)
Inductive op :=
| MakeShared (tr : trajectory)
| ClientReset (k : nat)
| ClientWrite (k : nat) (tr : trajectory)
| Default
| FromPtr (k : nat)
| CopyFrom (j : nat)
| MoveFrom (j : nat)
| Assign (i j : nat)
| Destroy (i : nat).

(** ThreadSafeTrajectory() - 29-30. *)
Definition h_default (m : mem) : mem := new_handle None m.
(** reset - 21-26: std::move of a const reference copies; the shared_ptr
    assignment acquires the new pointer before it releases the old one. *)
Definition h_reset (i : nat) (old new : option nat) (m : mem) : mem :=
  release old (set_handle i (Holds new) (acquire new m)).
(** Copy and move constructors - 36-46: both take a copy of the pointer of the
    other handle. *)
Definition h_copy (q : option nat) (m : mem) : mem :=
  h_reset (length (m_handles m)) None q (new_handle None m).
(** ThreadSafeTrajectory(shared_ptr &&) - 55-64: the argument is an lvalue inside
    the constructor, so the pointer is copied and the client's stays as it is. *)
Definition h_from (q : option nat) (m : mem) : mem :=
  h_reset (length (m_handles m)) None q (new_handle None m).
(** ~ThreadSafeTrajectory - 31-35. *)
Definition h_destroy (i : nat) (old : option nat) (m : mem) : mem := release old (set_handle i Gone m).

(** [None]: the program uses a destroyed or missing object, or writes through a null pointer. *)
Definition mem_step (m : mem) (o : op) : option mem :=
  match o with
  | MakeShared tr =>
      Some (mkMem (m_handles m) (m_client m ++ [Holds (Some (length (m_objects m)))]) (m_counts m ++ [1%nat]) (m_objects m ++ [Some tr]))
  | ClientReset k =>
      match client m k with
      | Some q => Some (release q (mkMem (m_handles m) (put k (Holds None) (m_client m)) (m_counts m) (m_objects m)))
      | None => None
      end
  | ClientWrite k tr =>
      match client m k with
      | Some (Some p) => Some (mkMem (m_handles m) (m_client m) (m_counts m) (put p (Some tr) (m_objects m)))
      | _ => None
      end
  | Default => Some (h_default m)
  | FromPtr k => match client m k with Some q => Some (h_from q m) | None => None end
  | CopyFrom j | MoveFrom j => match handle m j with Some q => Some (h_copy q m) | None => None end
  | Assign i j =>
      match handle m i, handle m j with
      | Some old, Some new => Some (h_reset i old new m)
      | _, _ => None
      end
  | Destroy i => match handle m i with Some old => Some (h_destroy i old m) | None => None end
  end.
Fixpoint mem_run (m : mem) (os : list op) : option mem :=
  match os with
  | [] => Some m
  | o :: os' => match mem_step m o with Some m' => mem_run m' os' | None => None end
  end.

(** Access through trajectory_ptr_: [None] is undefined behaviour (null pointer,
    deleted trajectory, destroyed handle). *)
Definition h_read {A} (f : trajectory -> A) (m : mem) (i : nat) : option A :=
  match handle m i with
  | Some (Some p) => match nth_error (m_objects m) p with Some (Some tr) => Some (f tr) | _ => None end
  | _ => None
  end.
(** evaluate - 110-114; getMaxTime, getMinTime - 82-91. *)
Definition h_evaluate (m : mem) (i : nat) (t : R) (d : nat) : option (option vec) := h_read (fun tr => traj_evaluate tr t d) m i.
Definition h_max_time (m : mem) (i : nat) : option R := h_read t_max m i.
Definition h_min_time (m : mem) (i : nat) : option R := h_read (fun _ => 0) m i.
(** getSegments, getWaypoints - 67-80. *)
Definition h_segments (m : mem) (i : nat) : option (list segment) := h_read t_segs m i.
Definition h_waypoints (m : mem) (i : nat) : option (option (list vertex)) := h_read (fun tr => get_vertices tr 0) m i.
(** operator== and != - 93-108. *)
Definition ptr_eqb (a b : option nat) : bool :=
  match a, b with
  | Some p, Some q => (p =? q)%nat
  | None, None => true
  | _, _ => false
  end.
Definition h_eq (m : mem) (i j : nat) : option bool :=
  match handle m i, handle m j with Some a, Some b => Some (ptr_eqb b a) | _, _ => None end.
Definition h_ne (m : mem) (i j : nat) : option bool :=
  match handle m i, handle m j with Some a, Some b => Some (negb (ptr_eqb b a)) | _, _ => None end.
Definition h_is_null (m : mem) (i : nat) : option bool :=
  match handle m i with Some a => Some (ptr_eqb a None) | None => None end.
