(** Vocabulary of the properties about threads. *)
From Coq Require Import List Bool Arith Relations.
From Verif Require Import ConcModel.
Import ListNotations.

(** Client threads that call everything in any order, any number of times;
    the thread that owns the object may destroy it in the end. *)
Definition any_client : thread := mkT Client (KEnd [calls all_calls]).
Definition any_owner : thread := mkT Owner (KEnd [calls all_calls; destructor]).
(** The recommended use: one thread evaluates (and makes any other call but
    generateTrajectory), the others make only calls that cannot swap. *)
Definition the_evaluator : thread := mkT Evaluator (KEnd [calls (swapping_calls ++ plain_calls)]).
Definition plain_client : thread := mkT Client (KEnd [calls plain_calls]).
Definition recommended (n : nat) : state := start (the_evaluator :: repeat plain_client n).

Definition head_of (s : state) (i : nat) : option cmd :=
  match nth_error (s_thr s) i with Some t => head (t_cont t) | None => None end.
(** Thread [i] cannot go on before thread [j] does something. *)
Definition waits_for (s : state) (i j : nat) : Prop :=
  match head_of s i with
  | Some (Lock m) => s_own s m = Some j
  | Some Wait | Some Get | Some Assign => s_fut s = Some j /\ done s j = false
  | Some Join => exists t, nth_error (s_thr s) j = Some t /\ t_role t = Back /\ finished (t_cont t) = false
  | _ => False
  end.
Definition blocked (s : state) (i : nat) : Prop := exec i true s = Blocked.
(** It executes its next command. *)
Definition can_go (s : state) (i : nat) : Prop := exec i true s <> Blocked /\ exec i true s <> Ended.

(** A data race: two threads are about to access the same variable, one writes. *)
Definition accesses (s : state) (i : nat) (v : var) (w : bool) : Prop :=
  if w then head_of s i = Some (Write v) else head_of s i = Some (Read v) \/ head_of s i = Some (ReadBare v).
Definition race (s : state) (i j : nat) (v : var) : Prop :=
  i <> j /\ accesses s i v true /\ exists w, accesses s j v w.

(** Executions in which nobody reads the regenerated flag while it is set. *)
Definition reads_set (s : state) (i : nat) : Prop :=
  s_flg s FRegen = true /\ exists c1 c2, head_of s i = Some (If (TFlag FRegen) c1 c2).
Inductive reach_unread (s0 : state) : state -> Prop :=
| unread_refl : reach_unread s0 s0
| unread_step s i b s' : reach_unread s0 s -> ~ reads_set s i -> exec i b s = Next s' -> reach_unread s0 s'.
(** A thread between two calls. *)
Definition between_calls (s : state) (i : nat) : Prop :=
  exists t l k, nth_error (s_thr s) i = Some t /\ t_cont t = KLoop [] (If TAny Break (one_of l)) k.
