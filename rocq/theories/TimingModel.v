(** Model of the timing utilities.
    Source: MTG/include/mav_trajectory_generation/timing.h, MTG/src/timing.cpp.
    Simplifications: double is R; the int counters do not overflow; the tag map
    is an association list in order of insertion (std::map iterates in key
    order, which only matters to GetTag, and there at most one entry matches);
    printing (timing.cpp:147-198) is not modelled. *)
From Coq Require Import String Reals List Arith.
From Verif Require Import Base PolyModel.
Import ListNotations.
Local Open Scope R_scope.

(** Accumulator<double, double, N> - timing.h:36-101.  [a_samples] is the array
    samples_, uninitialised at first. *)
Record accumulator := mkAcc {
  a_window : nat; a_total : nat; a_wsum : R; a_sum : R; a_min : R; a_max : R; a_samples : nat -> R }.

(** Accumulator() - timing.h:39-45, limits as in Base; [junk]: contents of the uninitialised array. *)
Definition acc_new (junk : nat -> R) : accumulator :=
  mkAcc 0 0 0 0 DBL_MAX DBL_MIN junk.

Definition array_set (a : nat -> R) (i : nat) (x : R) : nat -> R :=
  fun j => if (j =? i)%nat then x else a j.

(** Add - timing.h:47-64. *)
Definition acc_add (N : nat) (a : accumulator) (x : R) : accumulator :=
  let '(w, ws, arr) :=
    if (a_window a <? N)%nat then
      (S (a_window a), a_wsum a + x, array_set (a_samples a) (a_window a) x)
    else
      let i := (a_window a mod N)%nat in
      (S (a_window a), a_wsum a + (x - a_samples a i), array_set (a_samples a) i x) in
  mkAcc w (S (a_total a)) ws (a_sum a + x)
        (if Rltb x (a_min a) then x else a_min a)
        (if Rltb (a_max a) x then x else a_max a) arr.

(** TotalSamples, Sum, Mean, RollingMean, Max, Min - timing.h:66-78. *)
Definition acc_total_samples (a : accumulator) : nat := a_total a.
Definition acc_get_sum (a : accumulator) : R := a_sum a.
Definition acc_mean (a : accumulator) : R := a_sum a / INR (a_total a).
Definition acc_rolling_mean (N : nat) (a : accumulator) : R := a_wsum a / INR (Nat.min (a_window a) N).
Definition acc_get_max (a : accumulator) : R := a_max a.
Definition acc_get_min (a : accumulator) : R := a_min a.
(** LazyVariance - timing.h:80-91. *)
Definition acc_lazy_variance (N : nat) (a : accumulator) : R :=
  if (a_window a =? 0)%nat then 0
  else
    let mean := acc_rolling_mean N a in
    fold_left (fun var i => var + (a_samples a i - mean) * (a_samples a i - mean))
              (seq 0 (Nat.min (a_window a) N)) 0
    / INR (Nat.min (a_window a) N).

(** The window size of TimerMapValue - timing.h:107. *)
Definition TIMER_WINDOW : nat := 50.

(** The singleton Timing - timing.h:141-182. *)
Record timing := mkTiming { tm_timers : list accumulator; tm_tags : list (string * nat) }.
Definition timing_new : timing := mkTiming [] [].

Fixpoint lookup (tag : string) (m : list (string * nat)) : option nat :=
  match m with
  | [] => None
  | (t, h) :: m' => if String.eqb t tag then Some h else lookup tag m'
  end.

(** GetHandle - timing.cpp:45-61. *)
Definition get_handle (junk : nat -> R) (tag : string) (s : timing) : nat * timing :=
  match lookup tag (tm_tags s) with
  | Some h => (h, s)
  | None =>
      let h := length (tm_timers s) in
      (h, mkTiming (tm_timers s ++ [acc_new junk]) (tm_tags s ++ [(tag, h)]))
  end.

(** GetTag - timing.cpp:63-73. *)
Definition get_tag (h : nat) (s : timing) : string :=
  match find (fun p => (snd p =? h)%nat) (tm_tags s) with
  | Some p => fst p
  | None => ""%string
  end.

(** AddTime - timing.cpp:106-108; [None]: timers_[handle] out of bounds. *)
Definition update_nth {A} (i : nat) (x : A) (l : list A) : list A :=
  firstn i l ++ x :: skipn (S i) l.
Definition add_time (h : nat) (x : R) (s : timing) : option timing :=
  match nth_error (tm_timers s) h with
  | None => None
  | Some a => Some (mkTiming (update_nth h (acc_add TIMER_WINDOW a x) (tm_timers s)) (tm_tags s))
  end.

(** Reset - timing.cpp:200: only the tag map is cleared. *)
Definition timing_reset (s : timing) : timing := mkTiming (tm_timers s) [].

(** GetTotalSeconds, GetMeanSeconds, GetNumSamples, GetVarianceSeconds,
    GetMinSeconds, GetMaxSeconds, GetHz by handle - timing.cpp:110-145. *)
Definition get_stat {A} (f : accumulator -> A) (h : nat) (s : timing) : option A :=
  option_map f (nth_error (tm_timers s) h).
Definition get_total_seconds := get_stat acc_get_sum.
Definition get_mean_seconds := get_stat acc_mean.
Definition get_num_samples := get_stat acc_total_samples.
Definition get_variance_seconds := get_stat (acc_lazy_variance TIMER_WINDOW).
Definition get_min_seconds := get_stat acc_get_min.
Definition get_max_seconds := get_stat acc_get_max.
Definition get_hz := get_stat (fun a => 1 / acc_rolling_mean TIMER_WINDOW a).

(** Timer - timing.h:124-139, timing.cpp:75-104.  [r_time] is the start time;
    a default-constructed time_point is the epoch of the clock (0). *)
Record timer := mkTimer { r_time : R; r_timing : bool; r_handle : nat }.
(** Start - timing.cpp:90-93, at clock reading [now]. *)
Definition timer_start (now : R) (r : timer) : timer := mkTimer now true (r_handle r).
(** Timer(handle, constructStopped) - timing.cpp:76-79. *)
Definition timer_new (h : nat) (stopped : bool) (now : R) : timer :=
  let r := mkTimer 0 false h in if stopped then r else timer_start now r.
(** Stop - timing.cpp:95-102. *)
Definition timer_stop (now : R) (r : timer) (s : timing) : option (timer * timing) :=
  match add_time (r_handle r) (now - r_time r) s with
  | None => None
  | Some s' => Some (mkTimer (r_time r) false (r_handle r), s')
  end.
(** ~Timer - timing.cpp:86-88. *)
Definition timer_destroy (now : R) (r : timer) (s : timing) : option timing :=
  if r_timing r then option_map snd (timer_stop now r s) else Some s.

(** MiniTimer - timing.h:190-214: readings of the clock at start and stop
    (0 = epoch before the first stop). *)
Definition mini_get_time (start end_ : R) : R := if Rltb end_ start then 0 else end_ - start.

(** ** Client operations on the singleton *)
Inductive top :=
| OHandle (tag : string)      (* GetHandle(tag), also inside the getters by tag *)
| OAdd (h : nat) (x : R)      (* a Timer with handle h records x seconds *)
| OReset.
Definition top_step (junk : nat -> R) (o : top) (s : timing) : option timing :=
  match o with
  | OHandle tag => Some (snd (get_handle junk tag s))
  | OAdd h x => add_time h x s
  | OReset => Some (timing_reset s)
  end.
Fixpoint top_run (junk : nat -> R) (os : list top) (s : timing) : option timing :=
  match os with
  | [] => Some s
  | o :: os' => match top_step junk o s with Some s' => top_run junk os' s' | None => None end
  end.
