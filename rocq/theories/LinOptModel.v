(** Model of mav_trajectory_generation::PolynomialOptimization<N>, the linear
    polynomial optimiser.
    Sources: MTG/include/mav_trajectory_generation/polynomial_optimization_linear.h
    and impl/polynomial_optimization_linear_impl.h (called "impl" below).

    Matrices are functions from row and column to R; only the entries inside
    the size used by the code are read.  Two numerical routines of Eigen are
    arguments of the model: [inv n A], the inverse of a dense n x n matrix, and
    [qr n A b], the solution of the sparse n x n system A x = b. *)
From Coq Require Import Reals Lra Lia List Bool ZArith Arith.
From Verif Require Import Base PolyModel VertexModel TrajModel.
Import ListNotations.
Local Open Scope R_scope.

Definition mat := nat -> nat -> R.
Definition inverse_routine := nat -> mat -> mat.
Definition solve_routine := nat -> mat -> (nat -> R) -> nat -> R.

(** Row [d] of baseCoeffsWithTime(N, d, t) as assigned to a matrix row -
    impl 117-119; the CHECKs cannot fire for d < N/2. *)
Definition base_row (N d : nat) (t : R) : list R :=
  match base_coeffs_with_time N d t with Some l => l | None => [] end.

(** setupMappingMatrix - impl 111-121. *)
Definition mapping_matrix (N : nat) (T : R) : mat :=
  fun r c => if (r <? N / 2)%nat then nth c (base_row N r 0) 0
             else nth c (base_row N (r - N / 2) T) 0.

(** Product of matrices with inner dimension [n]. *)
Definition mmul (n : nat) (A B : mat) : mat := fun i j => rsum n (fun k => A i k * B k j).
(** Matrix times vector. *)
Definition mvec (n : nat) (A : mat) (x : nat -> R) : nat -> R := fun i => rsum n (fun k => A i k * x k).

(** invertMappingMatrix - impl 142-179. *)
Definition invert_mapping (inv : inverse_routine) (N : nat) (A : mat) : mat :=
  let h := (N / 2)%nat in
  let A_inv : mat := fun i j => if (i =? j)%nat then / A i i else 0 in
  let C : mat := fun i j => A (h + i)%nat j in
  let D_inv : mat := inv h (fun i j => A (h + i)%nat (h + j)%nat) in
  let lower : mat := mmul h (mmul h (fun i j => - D_inv i j) C) A_inv in
  fun r c =>
    if (r <? h)%nat then (if (c <? h)%nat then A_inv r c else 0)
    else if (c <? h)%nat then lower (r - h)%nat c
    else D_inv (r - h)%nat (c - h)%nat.

(** computeQuadraticCostJacobian - impl 567-583 (CHECK_LT(derivative, N) holds:
    derivative <= N/2-1 was checked by setupFromVertices).  The loop writes
    entry (N-1-row, N-1-col) for row, col < N-derivative. *)
Definition cost_matrix (N d : nat) (T : R) : mat :=
  fun r c =>
    let row := (N - 1 - r)%nat in
    let col := (N - 1 - c)%nat in
    if (row <? N - d)%nat && (col <? N - d)%nat then
      let e := ((N - 1 - d) * 2 + 1 - row - col)%nat in
      base_coeff d r * base_coeff d c * T ^ e * 2 / INR e
    else 0.

(* ------------------------------------------------------------------ *)
(** ** Constraints and their reordering *)

(** struct Constraint - polynomial_optimization_linear.h:287-304. *)
Record con := mkCon { c_vertex : nat; c_order : nat; c_value : vec }.
(** operator< - lines 288-295. *)
Definition con_ltb (a b : con) : bool :=
  if (c_vertex a <? c_vertex b)%nat then true
  else if (c_vertex b <? c_vertex a)%nat then false
  else (c_order a <? c_order b)%nat.
(** operator== - lines 297-299. *)
Definition con_eqb (a b : con) : bool :=
  (c_vertex a =? c_vertex b)%nat && (c_order a =? c_order b)%nat.
(** [std::set<Constraint>::insert]: sorted, an equivalent element stays. *)
Fixpoint con_insert (x : con) (l : list con) : list con :=
  match l with
  | [] => [x]
  | y :: l' => if con_ltb x y then x :: y :: l'
               else if con_ltb y x then y :: con_insert x l'
               else y :: l'
  end.

(** The constraints pushed for one occurrence of a vertex - impl 206-223. *)
Definition vertex_cons (D half idx : nat) (v : vertex) : list (bool * con) :=
  map (fun k => match get_constraint k v with
                | Some c => (true, mkCon idx k c)
                | None => (false, mkCon idx k (repeat 0 D))
                end) (seq 0 half).

(** The loop over the vertices - impl 197-226; [nseg] is n_segments_. *)
Fixpoint all_cons (D half nseg idx : nat) (vs : list vertex) : list (bool * con) :=
  match vs with
  | [] => []
  | v :: vs' =>
      let once := vertex_cons D half idx v in
      (if (idx =? 0)%nat || (idx =? nseg)%nat then once else once ++ once)
      ++ all_cons D half nseg (S idx) vs'
  end.

(** Contents of the two sets after the loop. *)
Definition con_set (fixed : bool) (l : list (bool * con)) : list con :=
  fold_left (fun acc bc => if eqb (fst bc) fixed then con_insert (snd bc) acc else acc) l [].

(** A sparse matrix given by the entries of [rows] against [cols] - impl
    239-259: every pair of row and column is visited once, a triplet 1.0 is
    added where the constraints are equal. *)
Definition reordering (rows cols : list con) : mat :=
  fun r c => match nth_error rows r, nth_error cols c with
             | Some a, Some b => if con_eqb a b then 1 else 0
             | _, _ => 0
             end.

(* ------------------------------------------------------------------ *)
(** ** The optimiser *)

(** Fields of PolynomialOptimization - polynomial_optimization_linear.h:248-284.
    fixed_constraints_compact_ and the counters are functions of [o_rows],
    [o_fixed], [o_free] (below); [o_dp] is free_constraints_compact_. *)
Record opt := mkOpt {
  o_D : nat;
  o_deriv : nat;
  o_vertices : list vertex;
  o_times : list R;
  o_inv : list mat;
  o_cost : list mat;
  o_rows : list con;
  o_fixed : list con;
  o_free : list con;
  o_dp : list (list R);
  o_segs : list segment
}.

(** Removal of constraints of too high order - impl 83-104. *)
Definition drop_high (D half : nat) (v : vertex) : vertex :=
  if forallb (fun kv => fst kv <=? half - 1)%nat (v_cons v) then v
  else mkVertex D (filter (fun kv => fst kv <=? half - 1)%nat (v_cons v)).

(** updateSegmentTimes - impl 285-305; [None]: a CHECK fails. *)
Definition update_times (inv : inverse_routine) (N : nat) (times : list R) (o : opt) : option opt :=
  if (length times =? length (o_vertices o) - 1)%nat && forallb (fun t => Rltb 0 t) times then
    Some (mkOpt (o_D o) (o_deriv o) (o_vertices o) times
            (map (fun T => invert_mapping inv N (mapping_matrix N T)) times)
            (map (cost_matrix N (o_deriv o)) times)
            (o_rows o) (o_fixed o) (o_free o) (o_dp o) (o_segs o))
  else None.

(** setupConstraintReorderingMatrix - impl 181-260. *)
Definition setup_reordering (N : nat) (o : opt) : opt :=
  let all := all_cons (o_D o) (N / 2) (length (o_vertices o) - 1) 0 (o_vertices o) in
  mkOpt (o_D o) (o_deriv o) (o_vertices o) (o_times o) (o_inv o) (o_cost o)
        (map snd all) (con_set true all) (con_set false all) (o_dp o) (o_segs o).

(** setupFromVertices on a newly constructed object - impl 43-109; [None]: a
    CHECK fails.  Simplifications: at least one vertex (with none n_segments_
    wraps around), and the vertices have dimension [D]. *)
Definition setup (inv : inverse_routine) (N D : nat) (vs : list vertex) (times : list R) (d : nat) :
  option opt :=
  if (d <=? N / 2 - 1)%nat && (length vs =? length times + 1)%nat then
    match update_times inv N times
            (mkOpt D d (map (drop_high D (N / 2)) vs) times [] [] [] [] [] (repeat [] D)
                   (repeat (seg_new N D) (length vs - 1))) with
    | Some o => Some (setup_reordering N o)
    | None => None
    end
  else None.

(** fixed_constraints_compact_[d] - impl 236-251. *)
Definition fixed_compact (o : opt) (d : nat) : list R :=
  map (fun c => nth d (c_value c) 0) (o_fixed o).
(** constraint_reordering_ *)
Definition o_M (o : opt) : mat := reordering (o_rows o) (o_fixed o ++ o_free o).

(** Coefficients of segment [i] in dimension [d] - impl 268-278. *)
Definition segment_coeffs (N : nat) (o : opt) (dp : list (list R)) (i d : nat) : list R :=
  let d_all := fixed_compact o d ++ nth d dp [] in
  let n := (length (o_fixed o) + length (o_free o))%nat in
  let new_d := mvec n (fun r c => o_M o (i * N + r)%nat c) (fun c => nth c d_all 0) in
  map (mvec N (nth i (o_inv o) (fun _ _ => 0)) new_d) (seq 0 N).

(** updateSegmentsFromCompactConstraints - impl 262-283, with
    [free_constraints_compact_ = dp]; [d_all << df, dp_opt] asserts the sizes. *)
Definition update_segments (N : nat) (dp : list (list R)) (o : opt) : opt :=
  mkOpt (o_D o) (o_deriv o) (o_vertices o) (o_times o) (o_inv o) (o_cost o)
        (o_rows o) (o_fixed o) (o_free o) dp
        (map (fun i => mkSeg (nth i (o_times o) 0) N (o_D o)
                             (map (segment_coeffs N o dp i) (seq 0 (o_D o))))
             (seq 0 (length (o_vertices o) - 1))).

(** setFreeConstraints - impl 499-508; [None]: a CHECK fails. *)
Definition set_free (N : nat) (dp : list (list R)) (o : opt) : option opt :=
  if (length dp =? o_D o)%nat && forallb (fun v => length v =? length (o_free o))%nat dp
  then Some (update_segments N dp o) else None.

(** constructR - impl 307-336: the block diagonal matrix H and R = Mt H M. *)
Definition cost_H (N : nat) (o : opt) : mat :=
  fun r c =>
    let i := (r / N)%nat in
    if (c / N =? i)%nat then
      let Ai := nth i (o_inv o) (fun _ _ => 0) in
      let Q := nth i (o_cost o) (fun _ _ => 0) in
      mmul N (mmul N (fun a b => Ai b a) Q) Ai (r mod N) (c mod N)
    else 0.
Definition cost_R (N : nat) (o : opt) : mat :=
  let n := (N * (length (o_vertices o) - 1))%nat in
  mmul n (mmul n (fun a b => o_M o b a) (cost_H N o)) (o_M o).

(** solveLinear - impl 338-379 (its CHECK was established by setup). *)
Definition solve_linear (qr : solve_routine) (N : nat) (o : opt) : opt :=
  let nf := length (o_fixed o) in
  let np := length (o_free o) in
  if (np =? 0)%nat then update_segments N (o_dp o) o
  else
    let R_ := cost_R N o in
    let Rpp : mat := fun i j => R_ (nf + i)%nat (nf + j)%nat in
    let rhs d : nat -> R := fun i =>
      rsum nf (fun j => - R_ (nf + i)%nat j * nth j (fixed_compact o d) 0) in
    update_segments N (map (fun d => map (qr np Rpp (rhs d)) (seq 0 np)) (seq 0 (o_D o))) o.

(** getTrajectory - polynomial_optimization_linear.h:112-115 with
    Trajectory::setSegments. *)
Definition get_trajectory (o : opt) : option trajectory := set_segments (o_segs o).

(** computeCost - impl 123-140. *)
Definition compute_cost (N : nat) (o : opt) : R :=
  1 / 2 * rsum (length (o_vertices o) - 1) (fun i =>
    let Q := nth i (o_cost o) (fun _ _ => 0) in
    rsum (o_D o) (fun d =>
      let c := get_coefficients (seg_poly (nth i (o_segs o) (seg_new N 0)) d) 0 in
      rsum N (fun j => rsum N (fun k => coef c k * Q k j) * coef c j))).
