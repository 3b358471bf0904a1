(** Model of mav_trajectory_generation::PolynomialOptimizationNonLinear<N>.
    Sources: MTG/include/mav_trajectory_generation/polynomial_optimization_nonlinear.h
    ("header") and impl/polynomial_optimization_nonlinear_impl.h ("impl").

    The solver NLopt is an argument: a run of it is the list of points at which
    it evaluated the objective before it returned or threw.  The result vector
    it returns is not an argument, because the code does not read it.  Debug
    output, stopping criteria and initial steps only reach NLopt and are not
    modelled.  exp and division are those of R. *)
From Coq Require Import Reals Lra Lia List Bool ZArith Arith.
From Verif Require Import Base PolyModel VertexModel TrajModel LinOptModel.
Import ListNotations.
Local Open Scope R_scope.

(** kOptimizationTimeLowerBound - header 31. *)
Definition TIME_LOWER : R := 1 / 10.

(** TimeAllocMethod - header 88-95 (kUnknown: optimize() does nothing). *)
Inductive alloc := SquaredTime | RichterTime | MellingerOuterLoop
  | SquaredTimeAndConstraints | RichterTimeAndConstraints.

(** The parameters read by the functions below - header 34-99. *)
Record nl_params := mkParams {
  p_alloc : alloc;
  p_time_penalty : R;
  p_use_soft : bool;
  p_soft_weight : R
}.

(** ConstraintData - header 207-211 without the back pointer. *)
Record con_data := mkCD { cd_deriv : nat; cd_value : R }.

(** OptimizationInfo - header 101-109: the costs of the last evaluation. *)
Record opt_info := mkInfo {
  i_iterations : nat;
  i_cost_trajectory : R;
  i_cost_time : R;
  i_cost_soft : R
}.
Definition info_new : opt_info := mkInfo 0 0 0 0.

(** Fields of PolynomialOptimizationNonLinear - header 292-304. *)
Record nonlin := mkNL {
  nl_opt : opt;
  nl_params_ : nl_params;
  nl_cons : list con_data;
  nl_info : opt_info
}.

(** Constructor and setupFromVertices - impl 49-89. *)
Definition nl_setup (inv : inverse_routine) (N D : nat) (p : nl_params) (vs : list vertex)
    (times : list R) (d : nat) : option nonlin :=
  match setup inv N D vs times d with
  | Some o => Some (mkNL o p [] info_new)
  | None => None
  end.

(** addMaximumMagnitudeConstraint - impl 525-553; [None]: CHECK_GE fails.  With
    soft constraints switched off the constraint is also handed to NLopt, which
    only changes the points NLopt chooses. *)
Definition add_max_constraint (d : nat) (v : R) (s : nonlin) : option nonlin :=
  if Rltb v 0 then None
  else Some (mkNL (nl_opt s) (nl_params_ s) (nl_cons s ++ [mkCD d v]) (nl_info s)).

(** computeMaximumOfMagnitude - polynomial_optimization_linear_impl.h:463-497.
    The start time pushed on line 475 is removed again by the clear() in
    computeMinMaxMagnitudeCandidateTimes (segment.cpp:88).  [Undef]: the CHECK
    in computeSegmentMaximumMagnitudeCandidates (lines 400-401) fails or there
    is no segment. *)
Fixpoint max_magnitude_loop (find_roots : list R -> list croot) (d i : nat) (segs : list segment)
    (e : extremum) : res extremum :=
  match segs with
  | [] => Val e
  | s :: segs' =>
      match seg_candidate_times find_roots s d 0 (s_time s) (seq 0 (s_D s)) with
      | Undef => Undef
      | Failed => max_magnitude_loop find_roots d (S i) segs' e
      | Val times =>
          max_magnitude_loop find_roots d (S i) segs'
            (fold_left (fun e t => ext_max e (mkExt t (vec_norm (seg_evaluate s t d)) i)) times e)
      end
  end.
Definition max_of_magnitude (find_roots : list R -> list croot) (N d : nat) (o : opt) : res extremum :=
  if (d + 1 <? N)%nat then
    match o_segs o with
    | [] => Undef
    | s0 :: _ =>
        match max_magnitude_loop find_roots d 0 (o_segs o) ext_default with
        | Val e =>
            let b := last (o_segs o) s0 in
            Val (ext_max e (mkExt (s_time b) (vec_norm (seg_evaluate b (s_time b) d))
                              (length (o_vertices o) - 1 - 1)))
        | r => r
        end
    end
  else Undef.

(** evaluateMaximumMagnitudeAsSoftConstraint - impl 766-796 (with
    evaluateMaximumMagnitudeConstraint, 744-763). *)
Fixpoint soft_cost (find_roots : list R -> list croot) (N : nat) (o : opt) (weight maximum : R)
    (cs : list con_data) : res R :=
  match cs with
  | [] => Val 0
  | c :: cs' =>
      match max_of_magnitude find_roots N (cd_deriv c) o, soft_cost find_roots N o weight maximum cs' with
      | Val e, Val rest =>
          let relative_violation := (e_value e - cd_value c) / cd_value c in
          Val (Rmin maximum (exp (relative_violation * weight)) + rest)
      | _, _ => Undef
      end
  end.

(** computeTotalTrajectoryTime - impl 846-852. *)
Definition total_time (times : list R) : R := fold_left Rplus times 0.

(** The time cost of the objective functions - impl 578-588 and 699-709. *)
Definition time_cost (p : nl_params) (times : list R) : R :=
  match p_alloc p with
  | RichterTime | RichterTimeAndConstraints => total_time times * p_time_penalty p
  | _ => total_time times * total_time times * p_time_penalty p
  end.

(** Common end of the two gradient-free objective functions - impl 574-615 and
    695-742: the new state and the returned cost. *)
Definition finish_objective find_roots (N : nat) (times : list R) (o : opt) (s : nonlin) : res (nonlin * R) :=
  let p := nl_params_ s in
  let ct := compute_cost N o in
  let tt := time_cost p times in
  match (if p_use_soft p then soft_cost find_roots N o (p_soft_weight p) (10 ^ 12) (nl_cons s) else Val 0) with
  | Val cs => Val (mkNL o p (nl_cons s) (mkInfo (S (i_iterations (nl_info s))) ct tt cs), ct + tt + cs)
  | _ => Undef
  end.

(** objectiveFunctionTime - impl 556-615. *)
Definition objective_time find_roots inv qr (N : nat) (x : list R) (s : nonlin) : res (nonlin * R) :=
  match update_times inv N x (nl_opt s) with
  | Some o => finish_objective find_roots N x (solve_linear qr N o) s
  | None => Undef
  end.

(** objectiveFunctionTimeAndConstraints - impl 660-742. *)
Definition x_times (n : nat) (x : list R) : list R := firstn n x.
Definition x_free (n nf D : nat) (x : list R) : list (list R) :=
  map (fun d => map (fun i => nth (n + d * nf + i) x 0) (seq 0 nf)) (seq 0 D).
Definition objective_full find_roots inv (N : nat) (x : list R) (s : nonlin) : res (nonlin * R) :=
  let o := nl_opt s in
  let n := (length (o_vertices o) - 1)%nat in
  let nf := length (o_free o) in
  if (length x =? n + nf * o_D o)%nat then
    match update_times inv N (x_times n x) o with
    | None => Undef
    | Some o1 =>
        match set_free N (x_free n nf (o_D o) x) o1 with
        | None => Undef
        | Some o2 => finish_objective find_roots N (x_times n x) o2 s
        end
    end
  else Undef.

(** getCostAndGradientMellinger - impl 286-364: the state afterwards, the
    gradient and the cost. *)
Definition bigger_times (n : nat) (times : list R) : list R :=
  let m := length times in
  map (fun i => Rmax TIME_LOWER
         (if (i =? n)%nat then nth i times 0 + 1 / 10
          else nth i times 0 - 1 / 10 / (INR m - 1))) (seq 0 m).
Fixpoint gradient_loop inv qr (N : nat) (times : list R) (J : R) (ns : list nat) (o : opt) :
  option (opt * list R) :=
  match ns with
  | [] => Some (o, [])
  | n :: ns' =>
      match update_times inv N (bigger_times n times) o with
      | None => None
      | Some o1 =>
          let o2 := solve_linear qr N o1 in
          match gradient_loop inv qr N times J ns' o2 with
          | Some (o3, g) => Some (o3, (compute_cost N o2 - J) / (1 / 10) :: g)
          | None => None
          end
      end
  end.
Definition cost_gradient inv qr (N : nat) (o : opt) : option (opt * list R * R) :=
  let times := o_times o in
  let J := compute_cost N o in
  let m := (length (o_vertices o) - 1)%nat in
  if (m =? 1)%nat then Some (o, [0], J)
  else
    match gradient_loop inv qr N times J (seq 0 m) o with
    | Some (o1, g) =>
        match update_times inv N times o1 with
        | Some o2 => Some (solve_linear qr N o2, g, J)
        | None => None
        end
    | None => None
    end.

(** objectiveFunctionTimeMellingerOuterLoop - impl 617-657. *)
Definition objective_mellinger inv qr (N : nat) (x : list R) (s : nonlin) : res (nonlin * R) :=
  match update_times inv N x (nl_opt s) with
  | None => Undef
  | Some o =>
      match cost_gradient inv qr N (solve_linear qr N o) with
      | None => Undef
      | Some (o', _, J) =>
          let i := nl_info s in
          Val (mkNL o' (nl_params_ s) (nl_cons s)
                 (mkInfo (S (i_iterations i)) J (i_cost_time i) (i_cost_soft i)), J)
      end
  end.

(** getTotalCostWithSoftConstraints - impl 266-284. *)
Definition total_cost find_roots (N : nat) (s : nonlin) : res R :=
  let o := nl_opt s in
  let t := total_time (o_times o) in
  match soft_cost find_roots N o (p_soft_weight (nl_params_ s)) (10 ^ 9) (nl_cons s) with
  | Val cs => Val (compute_cost N o + t * t * p_time_penalty (nl_params_ s) + cs)
  | _ => Undef
  end.

(** A run of NLopt: the objective is evaluated at the points of [xs] in turn. *)
Fixpoint evaluate_all (f : list R -> nonlin -> res (nonlin * R)) (xs : list (list R)) (s : nonlin) : res nonlin :=
  match xs with
  | [] => Val s
  | x :: xs' => match f x s with Val (s', _) => evaluate_all f xs' s' | _ => Undef end
  end.

(* ------------------------------------------------------------------ *)
(** ** Bounds *)

(** [v.at(i) = x]; [None] = std::out_of_range. *)
Definition set_at {A} (i : nat) (x : A) (l : list A) : option (list A) :=
  if (i <? length l)%nat then Some (firstn i l ++ x :: skipn (S i) l) else None.

(** The two innermost loops of setFreeEndpointDerivativeHardConstraints - impl
    831-836: the bounds of index start + counter in all dimensions. *)
Fixpoint bound_dims (dims : list nat) (nf counter : nat) (b : R * R) (l : list (R * R)) : option (list (R * R)) :=
  match dims with
  | [] => Some l
  | k :: dims' =>
      match set_at (k * nf + counter) b l with
      | Some l' => bound_dims dims' nf counter b l'
      | None => None
      end
  end.
(** The loop over the derivatives of one vertex - impl 828-840; the counter is
    free_deriv_counter. *)
Fixpoint bound_derivs (D nf : nat) (c : con_data) (v : vertex) (derivs : list nat)
    (st : nat * list (R * R)) : option (nat * list (R * R)) :=
  match derivs with
  | [] => Some st
  | k :: derivs' =>
      if has_constraint k v then bound_derivs D nf c v derivs' st
      else
        match (if (k =? cd_deriv c)%nat
               then bound_dims (seq 0 D) nf (fst st) (- Rabs (cd_value c), Rabs (cd_value c)) (snd st)
               else Some (snd st)) with
        | Some l => bound_derivs D nf c v derivs' (S (fst st), l)
        | None => None
        end
  end.
(** The loop over the vertices - impl 827-842. *)
Fixpoint bound_vertices (D nf d : nat) (c : con_data) (vs : list vertex) (st : nat * list (R * R)) :
  option (nat * list (R * R)) :=
  match vs with
  | [] => Some st
  | v :: vs' =>
      match bound_derivs D nf c v (seq 0 (S d)) st with
      | Some st' => bound_vertices D nf d c vs' st'
      | None => None
      end
  end.
(** The loop over the constraints - impl 822-843. *)
Fixpoint bound_cons (D nf d : nat) (vs : list vertex) (cs : list con_data) (l : list (R * R)) :
  option (list (R * R)) :=
  match cs with
  | [] => Some l
  | c :: cs' =>
      match bound_vertices D nf d c vs (O, l) with
      | Some (_, l') => bound_cons D nf d vs cs' l'
      | None => None
      end
  end.
(** setFreeEndpointDerivativeHardConstraints - impl 798-844: pairs of lower and
    upper bound. *)
Definition free_bounds (o : opt) (cs : list con_data) : option (list (R * R)) :=
  let nf := length (o_free o) in
  bound_cons (o_D o) nf (o_deriv o) (o_vertices o) cs (repeat (- DBL_MAX, DBL_MAX) (o_D o * nf)).

(** Adjustment of the bounds to the initial solution - impl 482-487. *)
Definition widen (x : R) (b : R * R) : R * R :=
  if Rltb x (fst b) then (x, snd b) else if Rltb (snd b) x then (fst b, x) else b.

(** What optimizeTimeAndFreeConstraints hands to NLopt - impl 409-503: the
    state with the initial solution, the initial solution and the bounds;
    [None]: a CHECK fails or an exception leaves the function. *)
Definition full_problem (qr : solve_routine) (N : nat) (s : nonlin) : option (nonlin * list R * list (R * R)) :=
  let o := solve_linear qr N (nl_opt s) in
  let x0 := o_times (nl_opt s) ++ concat (o_dp o) in
  match free_bounds o (nl_cons s) with
  | None => None
  | Some fb =>
      let b := repeat (TIME_LOWER, DBL_MAX) (length (o_times (nl_opt s))) ++ fb in
      if (length x0 =? length b)%nat && (0 <? length x0)%nat then
        Some (mkNL o (nl_params_ s) (nl_cons s) (nl_info s), x0,
              map (fun xb => widen (fst xb) (snd xb)) (combine x0 b))
      else None
  end.

(** The bounds of the time-only methods - impl 133-168, 171-205. *)
Definition time_bounds (times : list R) : list (R * R) := repeat (TIME_LOWER, DBL_MAX) (length times).

(** scaleSegmentTimesWithViolation - impl 366-406. *)
Definition limit_of (d : nat) (cs : list con_data) : R :=
  fold_left (fun v c => if (cd_deriv c =? d)%nat then cd_value c else v) cs 0.
Definition scale_with_violation find_roots inv qr (N : nat) (s : nonlin) : option nonlin :=
  match get_trajectory (nl_opt s) with
  | None => None
  | Some tr =>
      match scale_to_constraints find_roots tr (limit_of 1 (nl_cons s)) (limit_of 2 (nl_cons s)) with
      | Val (_, tr') =>
          match update_times inv N (map s_time (t_segs tr')) (nl_opt s) with
          | Some o => Some (mkNL (solve_linear qr N o) (nl_params_ s) (nl_cons s) (nl_info s))
          | None => None
          end
      | _ => None
      end
  end.

(** optimize - impl 96-130, with the points [xs] evaluated by NLopt.
    optimizeTimeMellingerOuterLoop returns without scaling only if NLopt threw
    and left final_cost untouched (lines 208-215); the flag [aborted] says so. *)
Definition optimize find_roots inv qr (N : nat) (xs : list (list R)) (aborted : bool) (s : nonlin) : res nonlin :=
  let s0 := mkNL (nl_opt s) (nl_params_ s) (nl_cons s) info_new in
  match p_alloc (nl_params_ s) with
  | SquaredTime | RichterTime => evaluate_all (objective_time find_roots inv qr N) xs s0
  | MellingerOuterLoop =>
      match evaluate_all (objective_mellinger inv qr N) xs s0 with
      | Val s1 => if aborted then Val s1
                  else match scale_with_violation find_roots inv qr N s1 with
                       | Some s2 => Val s2 | None => Undef end
      | r => r
      end
  | SquaredTimeAndConstraints | RichterTimeAndConstraints =>
      match full_problem qr N s0 with
      | Some (s1, _, _) => evaluate_all (objective_full find_roots inv N) xs s1
      | None => Undef
      end
  end.
