(** Property theorems: vertices and segment time estimates (C50, C51). *)
From Coq Require Import Reals Lra Lia List Bool ZArith Arith Sorted.
From Verif Require Import Base PolyModel VertexModel VertexSpec VertexProofs.
Import ListNotations.
Local Open Scope R_scope.

(** C50: any sequence of operations on a new vertex acts like the same sequence
    on a partial function from orders to vectors. *)
Theorem C50_operations :
  forall (D : nat) (os : list vop), Forall (op_dim D) os ->
  exists v, run_ops (vertex_new D) os = Some v /\ vertex_inv D v /\
    (forall k, get_constraint k v = fold_left (spec_op D) os (fun _ => None) k) /\
    (forall k, has_constraint k v = true <-> get_constraint k v <> None).
Proof. exact vertex_operations. Qed.
(** The number of constraints and the order of iteration: exactly the orders that have
    a constraint, each once, in increasing order. *)
Theorem C50_iteration :
  forall (D : nat) (os : list vop) (v : vertex), Forall (op_dim D) os -> run_ops (vertex_new D) os = Some v ->
  number_of_constraints v = length (iterate_constraints v) /\
  StronglySorted lt (map fst (iterate_constraints v)) /\
  (forall k c, In (k, c) (iterate_constraints v) <-> get_constraint k v = Some c).
Proof.
  intros D os v H E. destruct (vertex_operations D os H) as (v' & E' & (_ & S & _) & _). replace v' with v in S by congruence.
  split; [reflexivity|]. split; [exact S|]. clear - S. unfold iterate_constraints, get_constraint, sorted_keys, keys in *.
  intros k c. induction (v_cons v) as [|[k0 c0] l IH]; cbn [In cons_find map fst] in *; [split; [tauto|discriminate]|].
  inversion S as [|? ? S' F]; subst. specialize (IH S'). rewrite Forall_forall in F. destruct (Nat.eqb_spec k k0) as [-> |N].
  - split; [|intros X; left; congruence]. intros [X|X]; [congruence|]. exfalso.
    specialize (F k0 (in_map fst _ _ X)). lia.
  - rewrite <- IH. split; [|auto]. intros [X|X]; [congruence|auto].
Qed.
Print Assumptions C50_iteration.
Theorem C50_size_mismatch_aborts :
  forall (D : nat) (v : vertex) (d : nat) (c : vec), v_D v = D -> length c <> D ->
  add_constraint d c v = None.
Proof. exact add_constraint_mismatch. Qed.
Theorem C50_remove_reports :
  forall (v : vertex) (d : nat), fst (remove_constraint d v) = has_constraint d v.
Proof. exact remove_reports. Qed.
Theorem C50_subdimension :
  forall (D : nat) (dims : list nat) (mo : nat) (v : vertex),
  vertex_inv D v -> Forall (fun d => (d < D)%nat) dims ->
  exists s, get_subdimension dims mo v = (true, s) /\ v_D s = length dims /\
    forall k, get_constraint k s =
      if (k <=? mo)%nat
      then match get_constraint k v with Some c => Some (map (fun d => nth d c 0) dims) | None => None end
      else None.
Proof. exact get_subdimension_spec. Qed.
Theorem C50_subdimension_out_of_range :
  forall (D : nat) (dims : list nat) (mo : nat) (v : vertex),
  v_D v = D -> Exists (fun d => (D <= d)%nat) dims ->
  exists s, get_subdimension dims mo v = (false, s) /\ v_D s = length dims /\ forall k, get_constraint k s = None.
Proof.
  intros D dims mo v HD HE. pose proof (get_subdimension_out D dims mo v HD HE) as F. unfold get_subdimension in *.
  destruct (forallb _ dims); [discriminate|]. eexists. split; [reflexivity|]. split; reflexivity.
Qed.
Theorem C50_equal_tol :
  forall (D : nat) (a b : vertex) (tol : R), vertex_inv D a -> vertex_inv D b -> 0 <= tol ->
  is_equal_tol a b tol = true <->
  (forall k, match get_constraint k a, get_constraint k b with
             | None, None => True
             | Some x, Some y => forall i, Rabs (nth i x 0 - nth i y 0) <= tol
             | _, _ => False
             end).
Proof. exact is_equal_tol_spec. Qed.
Theorem C50_equal_tol_refl_sym :
  forall (D : nat) (a b : vertex) (tol : R), vertex_inv D a -> vertex_inv D b -> 0 <= tol ->
  is_equal_tol a a tol = true /\ is_equal_tol a b tol = is_equal_tol b a tol.
Proof. exact (fun D a b tol Ha Hb Ht => conj (is_equal_tol_refl D a tol Ha Ht) (is_equal_tol_sym D a b tol Ha Hb Ht)). Qed.
Print Assumptions C50_operations.
Print Assumptions C50_subdimension.
Print Assumptions C50_equal_tol.
Example C50_example :
  Forall (op_dim 3) [OpStartEnd [1; 2; 3] 2; OpAdd 1 [4; 5; 6]; OpRemove 2; OpAddScalar 4 7] /\
  fold_left (spec_op 3) [OpStartEnd [1; 2; 3] 2; OpAdd 1 [4; 5; 6]; OpRemove 2; OpAddScalar 4 7]
    (fun _ => None) 1%nat = Some [4; 5; 6].
Proof. split; [repeat constructor|reflexivity]. Qed.

(** C51: estimateSegmentTimes. *)
Theorem C51_segment_times :
  forall (vs : list vertex) (v_max a_max : R),
  (2 <= length vs)%nat -> 0 < v_max -> 0 < a_max ->
  exists ts, estimate_segment_times vs v_max a_max = Some ts /\ length ts = (length vs - 1)%nat /\
    forall i a b, nth_error vs i = Some a -> nth_error vs (S i) = Some b ->
    exists T, nth_error ts i = Some T /\
      vec_norm (vec_sub (pos_of b) (pos_of a)) / v_max <= T /\
      (0 < vec_norm (vec_sub (pos_of b) (pos_of a)) \/ at_rest a = true \/ at_rest b = true -> 0 < T) /\
      (pos_of a = pos_of b -> at_rest a = false -> at_rest b = false -> T = 0).
Proof. exact estimate_segment_times_spec. Qed.
Theorem C51_segment_times_ramp :
  forall (vs : list vertex) (v_max a_max : R),
  (2 <= length vs)%nat -> 0 < v_max -> 0 < a_max ->
  exists ts, estimate_segment_times_ramp vs v_max a_max = Some ts /\ length ts = (length vs - 1)%nat /\
    forall i a b, nth_error vs i = Some a -> nth_error vs (S i) = Some b ->
    exists T, nth_error ts i = Some T /\ / 10 <= T /\
      vec_norm (vec_sub (pos_of a) (pos_of b)) / v_max <= T /\
      time_velocity_ramp (pos_of a) (pos_of b) v_max a_max <= T /\
      (T = / 10 \/ T = time_velocity_ramp (pos_of a) (pos_of b) v_max a_max).
Proof. exact estimate_segment_times_ramp_spec. Qed.
(** C51: the ramp time is the duration of accelerating at a_max to the peak
    speed p <= v_max, cruising for c (only at v_max) and braking at a_max. *)
Theorem C51_velocity_ramp :
  forall (start goal : vec) (v_max a_max : R), 0 < v_max -> 0 < a_max ->
  let d := vec_norm (vec_sub start goal) in
  let T := time_velocity_ramp start goal v_max a_max in
  exists p c, 0 <= p <= v_max /\ 0 <= c /\ (c = 0 \/ p = v_max) /\
    T = p / a_max + c + p / a_max /\ d = p * (p / a_max) / 2 + p * c + p * (p / a_max) / 2.
Proof. exact ramp_profile. Qed.
Print Assumptions C51_segment_times.
Print Assumptions C51_segment_times_ramp.
Print Assumptions C51_velocity_ramp.
Example C51_example :
  (2 <= length [pos_vertex [0; 0; 0]%R; pos_vertex [3; 4; 0]%R])%nat /\
  0 < vec_norm (vec_sub (pos_of (pos_vertex [3; 4; 0])) (pos_of (pos_vertex [0; 0; 0]))).
Proof.
  split; [simpl; lia|]. apply vec_norm_pos. exists 0%nat. cbn. lra.
Qed.
