(** Specification vocabulary for segments and trajectories: what a composed
    trajectory is as a function of time, stated with real analysis only. *)
From Coq Require Import Reals List.
From Coquelicot Require Import Coquelicot.
From Verif Require Import Base PolyModel PolySpec VertexModel TrajModel.
Import List ListNotations.
Local Open Scope R_scope.

(** Class invariants of Segment and Trajectory. *)
Definition seg_wf (s : segment) : Prop :=
  length (s_polys s) = s_D s /\ Forall (fun p => length p = s_N s) (s_polys s).
Definition traj_wf (tr : trajectory) : Prop :=
  Forall (fun s => seg_wf s /\ s_D s = t_D tr /\ s_N s = t_N tr) (t_segs tr) /\
  t_max tr = lsum (map s_time (t_segs tr)).
Definition positive_times (tr : trajectory) : Prop :=
  Forall (fun s => 0 < s_time s) (t_segs tr).

(** Start time of the k-th segment: sum of the durations before it. *)
Definition start_of (tr : trajectory) (k : nat) : R :=
  lsum (map s_time (firstn k (t_segs tr))).

(** d-th derivative of the vector-valued polynomial of a segment at local time x. *)
Definition seg_deriv (s : segment) (d : nat) (x : R) : vec :=
  map (fun p => Derive_n (pval p) d x) (s_polys s).

(** Euclidean norm of the selected components. *)
Definition norm_dims (v : vec) (dims : list nat) : R :=
  sqrt (lsum (map (fun i => nth i v 0 ^ 2) dims)).

(** Component i of the d-th derivative returned by evaluate at time t. *)
Definition comp (tr : trajectory) (d i : nat) (t : R) : R :=
  match traj_evaluate tr t d with Some v => nth i v 0 | None => 0 end.

(** Consecutive segments agree at the joints in the derivatives 0..m. *)
Definition joined (tr : trajectory) (m : nat) : Prop :=
  forall k s s', nth_error (t_segs tr) k = Some s -> nth_error (t_segs tr) (S k) = Some s' ->
  forall j, (j <= m)%nat -> seg_deriv s j (s_time s) = seg_deriv s' j 0.

(** A root finder that reports all real roots of every non-zero polynomial
    (with imaginary part at most epsilon). *)
Definition exact_root_finder (find_roots : list R -> list croot) : Prop :=
  forall c, (exists x, pval c x <> 0) ->
  forall x, pval c x = 0 -> exists y, Rabs y <= DBL_EPS /\ In (x, y) (find_roots c).

(** Component i of the d-th derivative of the segment keeps its sign on [a,b]. *)
Definition sign_constant (s : segment) (d i : nat) (a b : R) : Prop :=
  (forall t, a <= t <= b -> 0 <= nth i (seg_deriv s d t) 0) \/
  (forall t, a <= t <= b -> nth i (seg_deriv s d t) 0 <= 0).

(** Several dimensions, or one whose value keeps its sign. *)
Definition min_computable (s : segment) (d : nat) (a b : R) (dims : list nat) : Prop :=
  (2 <= length dims)%nat \/ exists i, dims = [i] /\ sign_constant s d i a b.

(** What the result of computeMinMaxMagnitude must be: time and value of an
    extremum over all segments, with the index of its segment. *)
Definition traj_max_spec (segs : list segment) d dims (e : extremum) : Prop :=
  (exists s, nth_error segs (e_seg e) = Some s /\ 0 <= e_time e <= s_time s /\
     norm_dims (seg_deriv s d (e_time e)) dims = e_value e) /\
  (forall s t, In s segs -> 0 <= t <= s_time s -> norm_dims (seg_deriv s d t) dims <= e_value e).
Definition traj_min_spec (segs : list segment) d dims (e : extremum) : Prop :=
  (exists s, nth_error segs (e_seg e) = Some s /\ 0 <= e_time e <= s_time s /\
     norm_dims (seg_deriv s d (e_time e)) dims = e_value e) /\
  (forall s t, In s segs -> 0 <= t <= s_time s -> e_value e <= norm_dims (seg_deriv s d t) dims).

(** ** Offset *)

Definition offset_vec (v : vec) (o : vec) (n : nat) : vec :=
  map (fun i => if (i <? n)%nat then nth i v 0 + nth i o 0 else nth i v 0) (seq 0 (length v)).

(** [sample_at tr tau d v]: v is the d-th derivative at time tau computed from a
    segment whose closed time span contains tau. *)
Definition sample_at (tr : trajectory) (tau : R) (d : nat) (v : vec) : Prop :=
  exists m s, nth_error (t_segs tr) m = Some s /\
    start_of tr m <= tau <= start_of tr (S m) /\ v = seg_deriv s d (tau - start_of tr m).

(** [samples tr d t0 acc0 t_end dt l]: the list l holds the samples of the
    times t0, t0+dt, ..., with reported times acc0, acc0+dt, ...; it stops
    at the first index whose reported time is >= t_end or whose sample time is
    past the end. *)
Definition samples (tr : trajectory) (d : nat) (t0 acc0 t_end dt : R) (l : list (vec * R)) : Prop :=
  (forall j x, nth_error l j = Some x ->
     sample_at tr (t0 + INR j * dt) d (fst x) /\ snd x = acc0 + INR j * dt /\
     acc0 + INR j * dt < t_end /\ t0 + INR j * dt <= t_max tr) /\
  ~ (acc0 + INR (length l) * dt < t_end /\ t0 + INR (length l) * dt <= t_max tr).

