(** The quadratic cost of the linear optimiser: it is the integral of the
    squared derivative, and the linear solve minimises it. *)
From Coq Require Import Reals Lra Lia List Bool ZArith Arith.
From Coquelicot Require Import Coquelicot.
From Verif Require Import Base PolyModel PolySpec PolyProofs VertexModel TrajModel TrajSpec TrajProofs
  LinOptModel LinAlg LinOptSpec LinInverse LinReorder LinProofs.
Import List ListNotations.
Set Bullet Behavior "Strict Subproofs".
Local Open Scope R_scope.

(** ** Integrals of polynomials *)

Lemma is_RInt_rsum n (f : nat -> R -> R) a b v :
  (forall i, (i < n)%nat -> is_RInt (f i) a b (v i)) ->
  is_RInt (fun t => rsum n (fun i => f i t)) a b (rsum n v).
Proof.
  induction n; intros H; simpl.
  - pose proof (@is_RInt_const R_NormedModule a b 0) as X.
    assert (S : @scal R_AbsRing R_NormedModule (b - a) 0 = 0) by (unfold scal; simpl; unfold mult; simpl; ring).
    exact (eq_ind _ (fun z => @is_RInt R_NormedModule (fun _ => 0) a b z) X _ S).
  - apply (@is_RInt_plus R_NormedModule); [apply IHn; intros; apply H; lia|apply H; lia].
Qed.

Lemma is_RInt_pow m T : is_RInt (fun t => t ^ m) 0 T (T ^ S m / INR (S m)).
Proof.
  assert (P : INR (S m) <> 0) by (apply not_0_INR; lia).
  replace (T ^ S m / INR (S m)) with (minus (T ^ S m / INR (S m)) (0 ^ S m / INR (S m))).
  2:{ unfold minus, plus, opp; simpl. rewrite Rmult_0_l. unfold Rdiv. ring. }
  apply (@is_RInt_derive R_CompleteNormedModule (fun t => t ^ S m / INR (S m)) (fun t => t ^ m)).
  - intros x _. apply is_derive_Reals.
    replace (x ^ m) with (INR (S m) * x ^ pred (S m) * / INR (S m)) by (simpl pred; field; auto).
    unfold Rdiv. 
    apply (derivable_pt_lim_ext (fun t => / INR (S m) * t ^ S m)); [intros; ring|].
    replace (INR (S m) * x ^ pred (S m) * / INR (S m)) with (/ INR (S m) * (INR (S m) * x ^ pred (S m))) by ring.
    apply derivable_pt_lim_scal, derivable_pt_lim_pow.
  - intros x _. apply (@ex_derive_continuous R_AbsRing R_NormedModule).
    eexists. apply is_derive_Reals. apply derivable_pt_lim_pow.
Qed.

Lemma rsum_square n (u : nat -> R) (t : R) :
  rsum n (fun a => u a * t ^ a) ^ 2 = rsum n (fun b => rsum n (fun a => u a * u b * t ^ (a + b))).
Proof.
  simpl. rewrite Rmult_1_r. rewrite <- rsum_scal. apply rsum_ext. intros b Hb.
  rewrite <- rsum_scal_r. apply rsum_ext. intros a Ha. rewrite pow_add. ring.
Qed.

Lemma is_RInt_square n u T :
  is_RInt (fun t => rsum n (fun a => u a * t ^ a) ^ 2) 0 T
          (rsum n (fun b => rsum n (fun a => u a * u b * (T ^ S (a + b) / INR (S (a + b)))))).
Proof.
  apply is_RInt_ext with (f := fun t => rsum n (fun b => rsum n (fun a => u a * u b * t ^ (a + b)))).
  { intros. symmetry. apply rsum_square. }
  apply is_RInt_rsum. intros b Hb. apply is_RInt_rsum. intros a Ha.
  apply (@is_RInt_scal R_NormedModule (fun t => t ^ (a + b)) 0 T (u a * u b)).
  apply is_RInt_pow.
Qed.

(** ** The cost matrix *)

Definition qform (N : nat) (Q : mat) (x y : nat -> R) : R :=
  rsum N (fun k => x k * mvec N Q y k).

Lemma cost_matrix_zero N d T r c : (r < N)%nat -> (c < N)%nat -> (r < d \/ c < d)%nat -> cost_matrix N d T r c = 0.
Proof.
  intros Hr Hc H. unfold cost_matrix.
  destruct (Nat.ltb_spec (N - 1 - r) (N - d)); destruct (Nat.ltb_spec (N - 1 - c) (N - d)); simpl; auto; lia.
Qed.
Lemma cost_matrix_entry N d T a b : (d + a < N)%nat -> (d + b < N)%nat ->
  cost_matrix N d T (d + a)%nat (d + b)%nat =
  2 * (base_coeff d (d + a) * base_coeff d (d + b) * (T ^ S (a + b) / INR (S (a + b)))).
Proof.
  intros Ha Hb. unfold cost_matrix.
  destruct (Nat.ltb_spec (N - 1 - (d + a)) (N - d)); [|lia].
  destruct (Nat.ltb_spec (N - 1 - (d + b)) (N - d)); [|lia]. cbn [andb].
  replace ((N - 1 - d) * 2 + 1 - (N - 1 - (d + a)) - (N - 1 - (d + b)))%nat with (S (a + b)) by lia.
  unfold Rdiv. ring.
Qed.
Lemma cost_matrix_sym N d T r c : cost_matrix N d T r c = cost_matrix N d T c r.
Proof.
  unfold cost_matrix. rewrite andb_comm. destruct (_ && _); auto.
  replace ((N - 1 - d) * 2 + 1 - (N - 1 - c) - (N - 1 - r))%nat
    with ((N - 1 - d) * 2 + 1 - (N - 1 - r) - (N - 1 - c))%nat by lia.
  unfold Rdiv. ring.
Qed.

Lemma qform_square N d T p : (d < N)%nat -> length p = N ->
  qform N (cost_matrix N d T) (fun j => coef p j) (fun j => coef p j) =
  2 * RInt (fun t => Derive_n (pval p) d t ^ 2) 0 T.
Proof.
  intros Hd L. set (n := (N - d)%nat).
  set (u := fun a => base_coeff d (d + a) * coef p (d + a)).
  assert (I : RInt (fun t => Derive_n (pval p) d t ^ 2) 0 T =
    rsum n (fun b => rsum n (fun a => u a * u b * (T ^ S (a + b) / INR (S (a + b)))))).
  { apply is_RInt_unique. eapply is_RInt_ext; [|apply (is_RInt_square n u T)].
    intros t _. simpl. rewrite <- poly_evaluate_Derive_n, poly_evaluate_rsum, L. reflexivity. }
  rewrite I. unfold qform, mvec.
  replace N with (d + n)%nat at 1 by (unfold n; lia). rewrite rsum_split, rsum_zero, Rplus_0_l.
  - rewrite rsum_swap, <- rsum_scal. apply rsum_ext. intros a Ha.
    replace (rsum N (fun k => cost_matrix N d T (d + a)%nat k * coef p k)) with
      (rsum n (fun b => 2 * (base_coeff d (d + a) * u b * (T ^ S (a + b) / INR (S (a + b)))))).
    + rewrite rsum_scal.
      rewrite (rsum_ext n (fun j => u a * u j * (T ^ S (a + j) / INR (S (a + j))))
                 (fun b => coef p (d + a) * (base_coeff d (d + a) * u b * (T ^ S (a + b) / INR (S (a + b))))))
        by (intros; unfold u at 1; ring).
      rewrite rsum_scal. ring.
    + replace N with (d + n)%nat at 1 by (unfold n; lia). rewrite rsum_split.
      rewrite (rsum_zero d), Rplus_0_l.
      * apply rsum_ext. intros b Hb. rewrite cost_matrix_entry by (unfold n in *; lia). unfold u. ring.
      * intros k Hk. rewrite cost_matrix_zero by (unfold n in *; lia). ring.
  - intros k Hk. rewrite rsum_zero; [ring|]. intros j Hj. rewrite cost_matrix_zero by lia. ring.
Qed.

Lemma qform_nonneg N d T p : (d < N)%nat -> length p = N -> 0 <= T ->
  0 <= qform N (cost_matrix N d T) (fun j => coef p j) (fun j => coef p j).
Proof.
  intros Hd L HT. rewrite (qform_square N d T p Hd L).
  apply Rmult_le_pos; [lra|]. apply RInt_ge_0; auto.
  - set (n := (N - d)%nat).
    set (u := fun a => base_coeff d (d + a) * coef p (d + a)).
    eexists. eapply is_RInt_ext; [|apply (is_RInt_square n u T)].
    intros t _. simpl. rewrite <- poly_evaluate_Derive_n, poly_evaluate_rsum, L. reflexivity.
  - intros. apply pow2_ge_0.
Qed.

(** ** Bilinear forms *)

Lemma transpose_dot p m P x z :
  rsum p (fun i => x i * mvec m (fun a b => P b a) z i) = rsum m (fun k => mvec p P x k * z k).
Proof.
  unfold mvec.
  erewrite rsum_ext by (intros; rewrite <- rsum_scal; reflexivity).
  rewrite rsum_swap. apply rsum_ext. intros k Hk. rewrite <- rsum_scal_r.
  apply rsum_ext. intros. ring.
Qed.

Lemma congruence_dot p n M H x y :
  rsum p (fun i => x i * mvec p (mmul n (mmul n (fun a b => M b a) H) M) y i) =
  rsum n (fun k => mvec p M x k * mvec n H (mvec p M y) k).
Proof.
  rewrite <- (transpose_dot p n M x). apply rsum_ext. intros i Hi. f_equal.
  rewrite !mvec_mmul. reflexivity.
Qed.

Lemma qform_comp N d T Ai x y :
  rsum N (fun k => x k * mvec N (mmul N (mmul N (fun a b => Ai b a) (cost_matrix N d T)) Ai) y k) =
  qform N (cost_matrix N d T) (mvec N Ai x) (mvec N Ai y).
Proof. apply congruence_dot. Qed.

Lemma qform_sym N d T x y : qform N (cost_matrix N d T) x y = qform N (cost_matrix N d T) y x.
Proof.
  unfold qform. 
  rewrite (rsum_ext N (fun k => y k * _) (fun k => y k * mvec N (fun a b => cost_matrix N d T b a) x k)).
  - rewrite transpose_dot. apply rsum_ext. intros. ring.
  - intros k Hk. f_equal. apply rsum_ext. intros. rewrite cost_matrix_sym. reflexivity.
Qed.

Section Cost.
Variables (inv : inverse_routine) (N D : nat) (vs : list vertex) (d : nat) (o : opt).
Hypothesis V : valid_size N.
Hypothesis RD : ready inv N D vs d o.

Let nseg := length (o_times o).
Let ncol := (length (o_fixed o) + length (o_free o))%nat.

Let Ai i := nth i (o_inv o) (fun _ _ => 0).
Let Ti i := nth i (o_times o) 0.

Lemma cost_nth i : (i < nseg)%nat -> nth i (o_cost o) (fun _ _ => 0) = cost_matrix N d (Ti i).
Proof.
  intros Hi. rewrite (rd_cost _ _ _ _ _ _ RD).
  rewrite nth_indep with (d' := cost_matrix N d 0) by (rewrite map_length; auto).
  exact (map_nth (cost_matrix N d) (o_times o) 0 i).
Qed.

(** Coefficients of segment i for the values x of the columns. *)
Definition cvec (x : nat -> R) (i : nat) : nat -> R :=
  mvec N (Ai i) (mvec ncol (fun r c => o_M o (i * N + r)%nat c) x).

Definition E (x y : nat -> R) : R :=
  rsum nseg (fun i => qform N (cost_matrix N d (Ti i)) (cvec x i) (cvec y i)).

Lemma H_block i r z : (i < nseg)%nat -> (r < N)%nat ->
  mvec (N * nseg) (cost_H N o) z (i * N + r)%nat =
  mvec N (mmul N (mmul N (fun a b => Ai i b a) (cost_matrix N d (Ti i))) (Ai i))
         (fun c => z (i * N + c)%nat) r.
Proof.
  intros Hi Hr. assert (HN : N <> O) by lia. unfold mvec at 1. rewrite rsum_blocks.
  rewrite (rsum_single nseg i); auto.
  - unfold mvec. apply rsum_ext. intros c Hc. unfold cost_H.
    rewrite (Nat.div_add_l i N r), (Nat.div_add_l i N c) by auto.
    rewrite (Nat.div_small r N), (Nat.div_small c N) by auto. rewrite !Nat.add_0_r, Nat.eqb_refl.
    replace (i * N + r)%nat with (r + i * N)%nat by lia.
    replace (i * N + c)%nat with (c + i * N)%nat by lia.
    rewrite !Nat.mod_add, !Nat.mod_small by auto.
    rewrite cost_nth by auto. reflexivity.
  - intros j Hj Hne. apply rsum_zero. intros c Hc. unfold cost_H.
    rewrite (Nat.div_add_l i N r), (Nat.div_add_l j N c) by auto.
    rewrite (Nat.div_small r N), (Nat.div_small c N) by auto. rewrite !Nat.add_0_r.
    destruct (Nat.eqb_spec j i); [congruence|ring].
Qed.

Lemma R_bilinear x y : rsum ncol (fun a => x a * mvec ncol (cost_R N o) y a) = E x y.
Proof.
  unfold cost_R. rewrite (rd_vertices_len inv N D vs d o RD). fold nseg.
  replace (S nseg - 1)%nat with nseg by lia.
  rewrite congruence_dot. rewrite rsum_blocks. unfold E. apply rsum_ext. intros i Hi.
  erewrite rsum_ext by (intros; rewrite H_block by auto; reflexivity).
  apply (qform_comp N d (Ti i) (Ai i)
    (fun c => mvec ncol (o_M o) x (i * N + c)%nat) (fun c => mvec ncol (o_M o) y (i * N + c)%nat)).
Qed.

Lemma E_sym x y : E x y = E y x.
Proof. apply rsum_ext. intros. apply qform_sym. Qed.

Lemma E_plus_l x x' y : E (fun a => x a + x' a) y = E x y + E x' y.
Proof.
  rewrite <- !R_bilinear. rewrite <- rsum_plus. apply rsum_ext. intros. ring.
Qed.
Lemma E_scal_l c x y : E (fun a => c * x a) y = c * E x y.
Proof. rewrite <- !R_bilinear. rewrite <- rsum_scal. apply rsum_ext. intros. ring. Qed.
Lemma E_ext x x' y y' : (forall a, (a < ncol)%nat -> x a = x' a) -> (forall a, (a < ncol)%nat -> y a = y' a) ->
  E x y = E x' y'.
Proof.
  intros. rewrite <- !R_bilinear. apply rsum_ext. intros a Ha. rewrite H by auto. f_equal.
  apply mvec_ext; auto.
Qed.

Lemma E_square_plus x y : E (fun a => x a + y a) (fun a => x a + y a) = E x x + 2 * E y x + E y y.
Proof.
  rewrite (E_plus_l x y (fun a => x a + y a)).
  rewrite (E_sym x (fun a => x a + y a)), (E_sym y (fun a => x a + y a)).
  rewrite (E_plus_l x y x), (E_plus_l x y y), (E_sym x y). ring.
Qed.

Lemma deriv_lt : (d < N)%nat.
Proof. destruct (valid_half N V). pose proof (rd_low _ _ _ _ _ _ RD). lia. Qed.

Lemma E_nonneg x : 0 <= E x x.
Proof.
  apply rsum_nonneg. intros i Hi.
  assert (HT : 0 <= Ti i).
  { pose proof (rd_pos _ _ _ _ _ _ RD) as P. rewrite Forall_forall in P.
    assert (0 < Ti i) by (apply P, nth_In; auto). lra. }
  pose proof (qform_nonneg N d (Ti i) (map (cvec x i) (seq 0 N)) deriv_lt
                ltac:(now rewrite map_length, seq_length) HT) as Q.
  unfold qform in *. erewrite rsum_ext; [exact Q|].
  intros k Hk. cbn beta. unfold coef. rewrite nth_map_seq by auto. f_equal.
  apply mvec_ext; auto. intros. rewrite nth_map_seq; auto.
Qed.

(** A semidefinite form vanishes against every x where its square vanishes. *)
Lemma E_null y x : E y y = 0 -> E y x = 0.
Proof.
  intros H0. destruct (Req_dec (E y x) 0) as [|Hn]; auto. exfalso.
  set (s := - (E x x + 1) / (2 * E y x)).
  pose proof (E_nonneg (fun a => s * y a + x a)) as P.
  rewrite E_plus_l, E_scal_l, E_sym, (E_sym x) in P.
  rewrite !E_plus_l, !E_scal_l, H0 in P. rewrite (E_sym x y) in P.
  replace (s * (s * 0 + E y x) + (s * E y x + E x x)) with (2 * E y x * s + E x x) in P by ring.
  unfold s in P. replace (2 * E y x * (- (E x x + 1) / (2 * E y x))) with (- (E x x + 1)) in P by (field; auto).
  lra.
Qed.

(** Values of the columns for given free constraints. *)
Definition xvec (dp : list (list R)) (dim : nat) : nat -> R :=
  fun c => nth c (fixed_compact o dim ++ nth dim dp []) 0.

Lemma segment_coeffs_cvec dp i dim :
  segment_coeffs N o dp i dim = map (cvec (xvec dp dim) i) (seq 0 N).
Proof. reflexivity. Qed.

Lemma lsum_map_seq n f : lsum (map f (seq 0 n)) = rsum n f.
Proof.
  rewrite lsum_rsum, map_length, seq_length. apply rsum_ext. intros. apply nth_map_seq; auto.
Qed.

Lemma energy_E dp :
  2 * energy d (the_segs N o dp) = rsum D (fun dim => E (xvec dp dim) (xvec dp dim)).
Proof.
  unfold energy, the_segs. simpl. rewrite (rd_vertices_len inv N D vs d o RD). fold nseg.
  replace (S nseg - 1)%nat with nseg by lia. rewrite map_map, lsum_map_seq. simpl.
  unfold E. rewrite rsum_swap, <- rsum_scal. apply rsum_ext. intros i Hi.
  rewrite map_map, lsum_map_seq, (rd_D _ _ _ _ _ _ RD), <- rsum_scal. apply rsum_ext. intros dim Hd.
  fold (Ti i).
  change (2 * RInt (fun t => Derive_n (pval (segment_coeffs N o dp i dim)) d t ^ 2) 0 (Ti i) =
    qform N (cost_matrix N d (Ti i)) (cvec (xvec dp dim) i) (cvec (xvec dp dim) i)).
  rewrite <- (qform_square N d (Ti i)) by (auto using deriv_lt, segment_coeffs_length).
  rewrite segment_coeffs_cvec. unfold qform. apply rsum_ext. intros k Hk.
  unfold coef. rewrite nth_map_seq by auto. f_equal. apply mvec_ext; auto.
  intros. rewrite nth_map_seq; auto.
Qed.

(** ** The linear solve *)

Let nf := length (o_fixed o).
Let np := length (o_free o).
Let Rpp : mat := fun i j => cost_R N o (nf + i)%nat (nf + j)%nat.
Let rhs dim : nat -> R := fun i => rsum nf (fun j => - cost_R N o (nf + i)%nat j * nth j (fixed_compact o dim) 0).

Definition pad (w : nat -> R) : nat -> R := fun a => if (a <? nf)%nat then 0 else w (a - nf)%nat.

Lemma fixed_compact_length dim : length (fixed_compact o dim) = nf.
Proof. unfold fixed_compact. apply map_length. Qed.

Lemma E_pad w y : E (pad w) y = rsum np (fun i => w i * mvec ncol (cost_R N o) y (nf + i)%nat).
Proof.
  rewrite <- R_bilinear. unfold ncol. fold nf np. rewrite rsum_split, rsum_zero, Rplus_0_l.
  - apply rsum_ext. intros i Hi. unfold pad.
    destruct (Nat.ltb_spec (nf + i) nf); [lia|]. replace (nf + i - nf)%nat with i by lia. reflexivity.
  - intros i Hi. unfold pad. destruct (Nat.ltb_spec i nf); [ring|lia].
Qed.
Lemma E_pad_pad w z : E (pad w) (pad z) = rsum np (fun i => w i * mvec np Rpp z i).
Proof.
  rewrite E_pad. apply rsum_ext. intros i Hi. f_equal. unfold mvec, ncol. fold nf np.
  rewrite rsum_split, rsum_zero, Rplus_0_l.
  - apply rsum_ext. intros j Hj. unfold pad, Rpp.
    destruct (Nat.ltb_spec (nf + j) nf); [lia|]. replace (nf + j - nf)%nat with j by lia. reflexivity.
  - intros j Hj. unfold pad. destruct (Nat.ltb_spec j nf); [ring|lia].
Qed.
Lemma E_pad_fixed w dim :
  E (pad w) (fun a => if (a <? nf)%nat then nth a (fixed_compact o dim) 0 else 0) =
  - rsum np (fun i => w i * rhs dim i).
Proof.
  rewrite E_pad, <- rsum_opp. apply rsum_ext. intros i Hi. unfold mvec, ncol, rhs. fold nf np.
  rewrite rsum_split, (rsum_zero np), Rplus_0_r.
  - rewrite <- Ropp_mult_distr_r_reverse. f_equal. rewrite <- rsum_opp.
    apply rsum_ext. intros j Hj. destruct (Nat.ltb_spec j nf); [ring|lia].
  - intros j Hj. destruct (Nat.ltb_spec (nf + j) nf); [lia|ring].
Qed.

(** The linear system always has a solution. *)
Lemma system_consistent dim : exists x, forall i, (i < np)%nat -> mvec np Rpp x i = rhs dim i.
Proof.
  destruct (fredholm np np Rpp (rhs dim)) as [H|(w & Hw & Hb)]; auto. exfalso. apply Hb.
  assert (Z : E (pad w) (pad w) = 0).
  { rewrite E_pad_pad. unfold mvec.
    erewrite rsum_ext by (intros; rewrite <- rsum_scal; reflexivity).
    rewrite rsum_swap. apply rsum_zero. intros j Hj.
    rewrite (rsum_ext np _ (fun i => w i * Rpp i j * w j)) by (intros; ring).
    rewrite rsum_scal_r, Hw by auto. ring. }
  pose proof (E_null _ (fun a => if (a <? nf)%nat then nth a (fixed_compact o dim) 0 else 0) Z) as N0.
  rewrite E_pad_fixed in N0. lra.
Qed.

(** A solution minimises the form among all vectors with the same fixed part. *)
Lemma solution_minimal dim (sol : list R) (alt : list R) :
  length sol = np -> length alt = np ->
  (forall i, (i < np)%nat -> mvec np Rpp (fun j => nth j sol 0) i = rhs dim i) ->
  let x l := fun c => nth c (fixed_compact o dim ++ l) 0 in
  E (x sol) (x sol) <= E (x alt) (x alt).
Proof.
  intros Ls La S x.
  set (dl := fun j => nth j alt 0 - nth j sol 0).
  assert (Xa : forall a, (a < ncol)%nat -> x alt a = x sol a + pad dl a).
  { intros a Ha. unfold x, pad, dl. destruct (Nat.ltb_spec a nf).
    - rewrite !app_nth1 by (rewrite fixed_compact_length; auto). ring.
    - rewrite !app_nth2 by (rewrite fixed_compact_length; auto). rewrite fixed_compact_length. ring. }
  assert (Xs : forall a, (a < ncol)%nat -> x sol a =
     (if (a <? nf)%nat then nth a (fixed_compact o dim) 0 else 0) + pad (fun j => nth j sol 0) a).
  { intros a Ha. unfold x, pad. destruct (Nat.ltb_spec a nf).
    - rewrite app_nth1 by (rewrite fixed_compact_length; auto). ring.
    - rewrite app_nth2 by (rewrite fixed_compact_length; auto). rewrite fixed_compact_length. ring. }
  assert (C : E (pad dl) (x sol) = 0).
  { rewrite (E_ext _ (pad dl) _ _ (fun a _ => eq_refl) Xs).
    rewrite E_sym, E_plus_l, E_sym, E_pad_fixed, (E_sym (pad _)), E_pad_pad.
    assert (rsum np (fun i => dl i * mvec np Rpp (fun j => nth j sol 0) i) = rsum np (fun i => dl i * rhs dim i)).
    { apply rsum_ext. intros i Hi. rewrite S; auto. }
    lra. }
  rewrite (E_ext (x alt) (fun a => x sol a + pad dl a) (x alt) (fun a => x sol a + pad dl a) Xa Xa).
  rewrite E_square_plus, C.
  pose proof (E_nonneg (pad dl)). lra.
Qed.

(** solveLinear's trajectory has the least energy of all choices of the free constraints. *)
Lemma solve_minimal qr dp : exact_solver qr ->
  length dp = D -> Forall (fun v => length v = np) dp ->
  length (o_dp o) = D -> (np = O -> Forall (fun v => length v = np) (o_dp o)) ->
  energy d (o_segs (solve_linear qr N o)) <= energy d (the_segs N o dp).
Proof.
  intros HQ L F L0 F0. unfold solve_linear. fold nf np. 
  destruct (Nat.eqb_spec np 0) as [Z|NZ].
  - change (o_segs (update_segments N (o_dp o) o)) with (the_segs N o (o_dp o)).
    assert (2 * energy d (the_segs N o (o_dp o)) = 2 * energy d (the_segs N o dp)); [|lra].
    rewrite !energy_E. apply rsum_ext. intros dim Hd. unfold xvec.
    specialize (F0 Z). rewrite Forall_forall in F, F0.
    assert (length (nth dim dp []) = O) by (rewrite <- Z; apply F, nth_In; lia).
    assert (length (nth dim (o_dp o) []) = O) by (rewrite <- Z; apply F0, nth_In; lia).
    destruct (nth dim dp []); [|discriminate]. destruct (nth dim (o_dp o) []); [|discriminate]. reflexivity.
  - rewrite (rd_D _ _ _ _ _ _ RD).
    set (sol := map (fun dim => map (qr np Rpp (rhs dim)) (seq 0 np)) (seq 0 D)).
    change (energy d (the_segs N o sol) <= energy d (the_segs N o dp)).
    cut (2 * energy d (the_segs N o sol) <= 2 * energy d (the_segs N o dp)); [lra|].
    rewrite !energy_E. apply rsum_le. intros dim Hd.
    assert (Es : nth dim sol [] = map (qr np Rpp (rhs dim)) (seq 0 np)).
    { unfold sol. rewrite nth_indep with (d' := (fun dim => map (qr np Rpp (rhs dim)) (seq 0 np)) O)
        by (rewrite map_length, seq_length; auto).
      rewrite (map_nth (fun dim => map (qr np Rpp (rhs dim)) (seq 0 np))), seq_nth by auto. reflexivity. }
    unfold xvec. rewrite Es. apply solution_minimal.
    + now rewrite map_length, seq_length.
    + rewrite Forall_forall in F. apply F, nth_In. lia.
    + intros i Hi. rewrite <- (HQ np Rpp (rhs dim) (system_consistent dim) i Hi).
      apply rsum_ext. intros j Hj. rewrite nth_map_seq by auto. reflexivity.
Qed.
End Cost.
