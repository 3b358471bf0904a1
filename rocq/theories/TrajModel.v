(** Model of mav_trajectory_generation::Segment and Trajectory.
    Sources: MTG/include/mav_trajectory_generation/{segment,trajectory,extremum}.h,
    MTG/src/segment.cpp, MTG/src/trajectory.cpp. *)
From Coq Require Import Reals Lra Lia List Bool ZArith Arith.
From Verif Require Import Base PolyModel VertexModel.
Import ListNotations.
Local Open Scope R_scope.

(* ------------------------------------------------------------------ *)
(** ** Segment *)

(** Fields of Segment - segment.h:121-127. *)
Record segment := mkSeg { s_time : R; s_N : nat; s_D : nat; s_polys : list poly }.

(** Segment(N, D) - segment.h:47-49. *)
Definition seg_new (N D : nat) : segment := mkSeg 0 N D (repeat (poly_zero N) D).

(** [polynomials_[i]] *)
Definition seg_poly (s : segment) (i : nat) : poly := nth i (s_polys s) [].

(** evaluate - segment.cpp:51-58. *)
Definition seg_evaluate (s : segment) (t : R) (d : nat) : vec :=
  map (fun i => poly_evaluate (seg_poly s i) t d) (seq 0 (s_D s)).

(** Result of an operation that can also fail with a return value [false]
    or run into undefined behaviour / a fatal CHECK. *)
Inductive res (A : Type) := Val (a : A) | Failed | Undef.
Arguments Val {A} a. Arguments Failed {A}. Arguments Undef {A}.

(** Sum of vectors of equal length ([convolved_coefficients += ...]). *)
Definition vec_add (a b : list R) : list R := map (fun p => fst p + snd p) (combine a b).

(** computeMinMaxMagnitudeCandidateTimes - segment.cpp:83-134.
    [Undef]: derivative >= N with several dimensions (negative Eigen size), or
    a single dimension out of range (vector access out of bounds). *)
Definition seg_candidate_times (find_roots : list R -> list croot) (s : segment)
    (d : nat) (a b : R) (dims : list nat) : res (list R) :=
  match dims with
  | [] => Failed
  | [dim] =>
      if (dim <? s_D s)%nat then
        match compute_candidates find_roots (seg_poly s dim) a b (S d) with
        | Some c => Val c | None => Failed end
      else Undef
  | _ =>
      if (s_N s <=? d)%nat then Undef
      else if forallb (fun dim => dim <? s_D s)%nat dims then
        let n_d := (s_N s - d)%nat in
        let n_dd := (n_d - 1)%nat in
        let conv := fold_left (fun acc dim =>
              let p := seg_poly s dim in
              vec_add acc (convolve (firstn n_d (get_coefficients p d))
                                    (firstn n_dd (get_coefficients p (S d)))))
              dims (repeat 0 (n_d + n_dd - 1)) in
        match compute_candidates find_roots conv a b 0 with
        | Some c => Val c | None => Failed end
      else Failed
  end.

(** Extremum - extremum.h:30-44. *)
Record extremum := mkExt { e_time : R; e_value : R; e_seg : nat }.
Definition ext_default : extremum := mkExt 0 0 0.
(** std::max(a, b) and std::min(a, b) with operator< of Extremum. *)
Definition ext_max (a b : extremum) : extremum := if Rltb (e_value a) (e_value b) then b else a.
Definition ext_min (a b : extremum) : extremum := if Rltb (e_value b) (e_value a) then b else a.

(** Magnitude over the dimensions - segment.cpp:149-154. *)
Definition seg_magnitude (s : segment) (d : nat) (dims : list nat) (t : R) : R :=
  sqrt (lsum (map (fun dim => poly_evaluate (seg_poly s dim) t d ^ 2) dims)).

(** computeMinMaxMagnitudeCandidates - segment.cpp:136-159: the return value of
    the candidate-time computation is ignored, a failure leaves no candidates. *)
Definition seg_candidates find_roots (s : segment) (d : nat) (a b : R) (dims : list nat) :
  res (list extremum) :=
  match seg_candidate_times find_roots s d a b dims with
  | Undef => Undef
  | Failed => Val []
  | Val times => Val (map (fun t => mkExt t (seg_magnitude s d dims t) 0) times)
  end.

(** selectMinMaxMagnitudeFromCandidates - segment.cpp:161-185: minimum and
    maximum start as default extrema with value DBL_MAX / -DBL_MAX. *)
Definition seg_select (a b : R) (cands : list extremum) (mn mx : extremum) :
  res (extremum * extremum) :=
  if Rltb b a then Failed
  else Val (fold_left (fun acc c =>
         if Rltb (e_time c) a || Rltb b (e_time c) then acc
         else (ext_min (fst acc) c, ext_max (snd acc) c))
       cands (mkExt (e_time mn) DBL_MAX (e_seg mn), mkExt (e_time mx) (- DBL_MAX) (e_seg mx))).

(** getSegmentWithSingleDimension - segment.cpp:187-199. *)
Definition seg_single_dimension (s : segment) (dim : nat) : option segment :=
  if (dim <? s_D s)%nat then Some (mkSeg (s_time s) (s_N s) 1 [seg_poly s dim]) else None.

(** getSegmentWithAppendedDimension - segment.cpp:201-262. *)
Definition seg_append_dimension (s s2 : segment) : option segment :=
  if (s_N s =? 0)%nat || (s_D s =? 0)%nat then Some s2
  else if (s_N s2 =? 0)%nat || (s_D s2 =? 0)%nat then Some s
  else
    let new_N := Nat.max (s_N s2) (s_N s) in
    let new_time := Rmax (s_time s) (s_time s2) in
    let scale1 := Rltb (s_time s) new_time && Rltb 0 new_time in
    let scale2 := negb scale1 && (Rltb (s_time s2) new_time && Rltb 0 new_time) in
    let cur := if scale1 then map (fun p => poly_scale_time p (s_time s / new_time)) (s_polys s)
               else s_polys s in
    let app := if scale2 then map (fun p => poly_scale_time p (s_time s2 / new_time)) (s_polys s2)
               else s_polys s2 in
    if (s_N s =? s_N s2)%nat then
      Some (mkSeg new_time new_N (s_D s + s_D s2) (cur ++ app))
    else
      (* the unscaled members are used here: segment.cpp:246 and 251 *)
      let rs := map (fun p => poly_append_coeffs p new_N) (s_polys s ++ s_polys s2) in
      if forallb fst rs then
        Some (mkSeg new_time new_N (s_D s + s_D s2) (map snd rs))
      else None.

(** offsetSegment - segment.cpp:264-276. *)
Definition seg_offset (s : segment) (v : vec) : option segment :=
  let n := Nat.min (s_D s) 3 in
  if (length v <? n)%nat then None
  else Some (mkSeg (s_time s) (s_N s) (s_D s)
         (map (fun ip => if (fst ip <? n)%nat then poly_offset (snd ip) (nth (fst ip) v 0)
                         else snd ip)
              (combine (seq 0 (length (s_polys s))) (s_polys s)))).

(* ------------------------------------------------------------------ *)
(** ** Trajectory *)

(** Fields of Trajectory - trajectory.h:143-149. *)
Record trajectory := mkTraj { t_D : nat; t_N : nat; t_max : R; t_segs : list segment }.

(** addSegments - trajectory.h:65-72; [None] = fatal CHECK_EQ.  [add] is the
    addition on double, [Rplus] in the idealised model. *)
Definition add_segments_gen (add : R -> R -> R) (tr : trajectory) (ss : list segment) :
  option trajectory :=
  if forallb (fun s => (s_D s =? t_D tr)%nat && (s_N s =? t_N tr)%nat) ss then
    Some (mkTraj (t_D tr) (t_N tr) (fold_left (fun m s => add m (s_time s)) ss (t_max tr))
                 (t_segs tr ++ ss))
  else None.
(** setSegments - trajectory.h:54-63. *)
Definition set_segments_gen (add : R -> R -> R) (ss : list segment) : option trajectory :=
  match ss with
  | [] => None
  | s0 :: _ => add_segments_gen add (mkTraj (s_D s0) (s_N s0) 0 []) ss
  end.
Definition add_segments := add_segments_gen Rplus.
Definition set_segments := set_segments_gen Rplus.

(** The search loop of evaluate - trajectory.cpp:49-64: index and accumulated
    time at loop exit. *)
Fixpoint find_segment (add : R -> R -> R) (segs : list segment) (t acc : R) (i : nat) : nat * R :=
  match segs with
  | [] => (i, acc)
  | s :: rest =>
      let acc' := add acc (s_time s) in
      if Rltb t acc' then (i, acc') else find_segment add rest t acc' (S i)
  end.

(** evaluate - trajectory.cpp:48-79.  [None]: no segment at all and t <= 0
    (segments_[size_t(-1)]). *)
Definition traj_evaluate_gen (add sub : R -> R -> R) (tr : trajectory) (t : R) (d : nat) :
  option vec :=
  let '(i, acc) := find_segment add (t_segs tr) t 0 O in
  if Rltb acc t then Some (repeat 0 (t_D tr))
  else
    let n := length (t_segs tr) in
    let i := if (n <=? i)%nat then (n - 1)%nat else i in
    match nth_error (t_segs tr) i with
    | None => None
    | Some s => let acc := sub acc (s_time s) in
                Some (seg_evaluate s (sub t acc) d)
    end.
Definition traj_evaluate := traj_evaluate_gen Rplus Rminus.

(** State of the sampling loop of evaluateRange - trajectory.cpp:121-140:
    segment index, time in segment, accumulated time; [fuel] bounds the
    iterations.  Result: samples and sampling times. *)
Fixpoint range_loop (fuel : nat) (segs : list segment) (t_end dt : R) (d : nat)
    (i : nat) (tis acc : R) : option (list (vec * R)) :=
  match fuel with
  | O => None
  | S f =>
      if Rltb acc t_end then
        match nth_error segs i with
        | None => Some []     (* i >= size: break *)
        | Some s =>
            if Rltb (s_time s) tis
            then range_loop f segs t_end dt d (S i) (tis - s_time s) acc
            else match range_loop f segs t_end dt d i (tis + dt) (acc + dt) with
                 | None => None
                 | Some l => Some ((seg_evaluate s tis d, acc) :: l)
                 end
        end
      else Some []
  end.

(** evaluateRange - trajectory.cpp:81-141.  [Undef]: segments_[i] out of
    bounds at line 117; [Failed]: start time out of range (nothing sampled).
    For dt <= 0 the loop need not end; [Undef] also stands for running out of
    fuel, which the proofs exclude for dt > 0. *)
Definition evaluate_range (fuel : nat) (tr : trajectory) (t_start t_end dt : R) (d : nat) :
  res (list (vec * R)) :=
  let '(i, acc) := find_segment Rplus (t_segs tr) t_start 0 O in
  if Rltb acc t_start then Failed
  else match nth_error (t_segs tr) i with
       | None => Undef
       | Some s =>
           let acc := acc - s_time s in
           match range_loop fuel (t_segs tr) t_end dt d i (t_start - acc) acc with
           | Some l => Val l
           | None => Undef
           end
       end.

(** getTrajectoryWithSingleDimension - trajectory.cpp:143-159: new Segment(N,1)
    objects whose time stays 0. *)
Definition traj_single_dimension (tr : trajectory) (dim : nat) : option trajectory :=
  if (dim <? t_D tr)%nat then
    set_segments (map (fun s => mkSeg 0 (t_N tr) 1 [seg_poly s dim]) (t_segs tr))
  else None.

(** getTrajectoryWithAppendedDimension - trajectory.cpp:161-189. *)
Fixpoint append_dims (a b : list segment) : option (list segment) :=
  match a, b with
  | s :: a', s2 :: b' =>
      match seg_append_dimension s s2, append_dims a' b' with
      | Some x, Some l => Some (x :: l)
      | _, _ => None
      end
  | _, _ => Some []
  end.
Definition traj_append_dimension (tr tr2 : trajectory) : res trajectory :=
  if (t_N tr =? 0)%nat || (t_D tr =? 0)%nat then Val tr2
  else if (t_N tr2 =? 0)%nat || (t_D tr2 =? 0)%nat then Val tr
  else if (length (t_segs tr) =? length (t_segs tr2))%nat then
    match append_dims (t_segs tr) (t_segs tr2) with
    | None => Failed
    | Some ss => match set_segments ss with Some r => Val r | None => Undef end
    end
  else Undef.

(** computeMinMaxMagnitude - trajectory.cpp:191-227. *)
Fixpoint traj_minmax_loop find_roots (segs : list segment) (d : nat) (dims : list nat)
    (idx : nat) (mn mx : extremum) : res (extremum * extremum) :=
  match segs with
  | [] => Val (mn, mx)
  | s :: rest =>
      match seg_candidates find_roots s d 0 (s_time s) dims with
      | Undef => Undef | Failed => Failed
      | Val cands =>
          match seg_select 0 (s_time s) cands ext_default ext_default with
          | Undef => Undef | Failed => Failed
          | Val (mnc, mxc) =>
              let mn' := if Rltb (e_value mnc) (e_value mn)
                         then mkExt (e_time mnc) (e_value mnc) idx else mn in
              let mx' := if Rltb (e_value mx) (e_value mxc)
                         then mkExt (e_time mxc) (e_value mxc) idx else mx in
              traj_minmax_loop find_roots rest d dims (S idx) mn' mx'
          end
      end
  end.
Definition traj_minmax find_roots (tr : trajectory) (d : nat) (dims : list nat) :
  res (extremum * extremum) :=
  traj_minmax_loop find_roots (t_segs tr) d dims 0 (mkExt 0 DBL_MAX 0) (mkExt 0 (- DBL_MAX) 0).

(** computeMaxVelocityAndAcceleration - trajectory.cpp:344-361. *)
Definition max_vel_acc find_roots (tr : trajectory) : res (R * R) :=
  let dims := seq 0 (t_D tr) in
  match traj_minmax find_roots tr 1 dims, traj_minmax find_roots tr 2 dims with
  | Val (_, v), Val (_, a) => Val (e_value v, e_value a)
  | Undef, _ | _, Undef => Undef
  | _, _ => Failed
  end.

(** getSegmentTimes - trajectory.cpp:229-235. *)
Definition segment_times (tr : trajectory) : list R := map s_time (t_segs tr).

(** addTrajectories - trajectory.cpp:237-260: [None] = returns false. *)
Fixpoint add_trajectories_loop (D N : nat) (merged : trajectory) (l : list trajectory) :
  option trajectory :=
  match l with
  | [] => Some merged
  | t :: l' =>
      if (t_D t =? D)%nat && (t_N t =? N)%nat then
        match add_segments merged (t_segs t) with
        | Some m => add_trajectories_loop D N m l'
        | None => None   (* fatal CHECK in addSegments *)
        end
      else None
  end.
Definition add_trajectories (tr : trajectory) (l : list trajectory) : option trajectory :=
  add_trajectories_loop (t_D tr) (t_N tr) tr l.

(** offsetTrajectory - trajectory.cpp:262-274: [None] = returns false. *)
Fixpoint offset_segments (ss : list segment) (v : vec) : option (list segment) :=
  match ss with
  | [] => Some []
  | s :: r => match seg_offset s v, offset_segments r v with
              | Some s', Some r' => Some (s' :: r') | _, _ => None end
  end.
Definition traj_offset (tr : trajectory) (v : vec) : option trajectory :=
  if (length v <? Nat.min (t_D tr) 3)%nat then None
  else match offset_segments (t_segs tr) v with
       | Some ss => Some (mkTraj (t_D tr) (t_N tr) (t_max tr) ss)
       | None => None
       end.

(** scalePolynomialInTime on every dimension and setTime(time * s) -
    trajectory.cpp:369-376 and 418-425. *)
Definition seg_scale (s : segment) (k kinv : R) : segment :=
  mkSeg (s_time s * k) (s_N s) (s_D s) (map (fun p => poly_scale_time p kinv) (s_polys s)).
Definition traj_scale (tr : trajectory) (k : R) : trajectory :=
  let ss := map (fun s => seg_scale s k (1 / k)) (t_segs tr) in
  mkTraj (t_D tr) (t_N tr) (fold_left (fun m s => m + s_time s) ss 0) ss.

(** scaleSegmentTimes - trajectory.cpp:363-380: return value and new state. *)
Definition scale_segment_times (tr : trajectory) (k : R) : bool * trajectory :=
  if Rltb k (/ 10 ^ 6) then (false, tr) else (true, traj_scale tr k).

(** scaleSegmentTimesToMeetConstraints - trajectory.cpp:385-429, [n] = number
    of iterations left (20 at the start).  The return value of the maximum
    computation is ignored (line 398); when it fails the C++ code continues
    with whatever value it holds, here the outcome [Undef]. *)
Definition TOL : R := / 10 ^ 3.
Fixpoint scale_to_constraints_loop find_roots (n : nat) (within : bool) (tr : trajectory)
    (v_max a_max : R) : res (bool * trajectory) :=
  match n with
  | O => Val (within, tr)
  | S m =>
      match max_vel_acc find_roots tr with
      | Val (v, a) =>
          let vv := v / v_max in
          let av := a / a_max in
          if Rleb vv (1 + TOL) && Rleb av (1 + TOL) then Val (true, tr)
          else
            let k := Rmax 1 (Rmax vv (sqrt av)) in
            scale_to_constraints_loop find_roots m false (traj_scale tr k) v_max a_max
      | _ => Undef
      end
  end.
Definition scale_to_constraints find_roots tr v_max a_max :=
  scale_to_constraints_loop find_roots 20 false tr v_max a_max.

(** getVertexAtTime - trajectory.cpp:276-282: constraints for the orders
    0..max.  [None]: evaluate undefined, or dimension mismatch (CHECK). *)
Fixpoint vertex_at_loop (tr : trajectory) (t : R) (n : nat) : option vertex :=
  match n with
  | O => Some (vertex_new (t_D tr))
  | S m => match vertex_at_loop tr t m, traj_evaluate tr t m with
           | Some v, Some x => add_constraint m x v
           | _, _ => None
           end
  end.
Definition vertex_at_time (tr : trajectory) (t : R) (max_order : nat) : option vertex :=
  vertex_at_loop tr t (S max_order).
(** getStartVertex, getGoalVertex - trajectory.cpp:284-290. *)
Definition start_vertex tr n := vertex_at_time tr 0 n.
Definition goal_vertex tr n := vertex_at_time tr (t_max tr) n.
(** getVertices(max_order, vertices) - trajectory.cpp:329-341. *)
Fixpoint vertices_loop (tr : trajectory) (segs : list segment) (t : R) (n : nat) :
  option (list vertex) :=
  match segs with
  | [] => Some []
  | s :: r =>
      let t' := t + s_time s in
      match vertex_at_time tr t' n, vertices_loop tr r t' n with
      | Some v, Some l => Some (v :: l)
      | _, _ => None
      end
  end.
Definition get_vertices (tr : trajectory) (n : nat) : option (list vertex) :=
  match start_vertex tr n, vertices_loop tr (t_segs tr) 0 n with
  | Some v, Some l => Some (v :: l)
  | _, _ => None
  end.
