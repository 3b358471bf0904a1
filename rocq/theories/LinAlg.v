(** Finite linear algebra over R with matrices as functions: products of
    sums, a solvability criterion for linear systems, and the inverse of the
    matrix of falling factorials that appears in the linear optimiser. *)
From Coq Require Import Reals Lra Lia List Bool ZArith Arith QArith Qreals.
From Verif Require Import Base PolyModel PolyProofs LinOptModel.
Import ListNotations.
Set Bullet Behavior "Strict Subproofs".
Local Open Scope R_scope.

Lemma rsum_opp n f : rsum n (fun i => - f i) = - rsum n f.
Proof. induction n; simpl; [lra|]. rewrite IHn. lra. Qed.

(** Double sum over blocks. *)
Lemma rsum_blocks n m f :
  rsum (n * m) f = rsum m (fun i => rsum n (fun r => f (i * n + r)%nat)).
Proof.
  induction m; simpl.
  - now rewrite Nat.mul_0_r.
  - replace (n * S m)%nat with (n * m + n)%nat by lia. rewrite rsum_split, IHm.
    f_equal. apply rsum_ext. intros. f_equal. lia.
Qed.

(** Kronecker delta. *)
Definition delta (i j : nat) : R := if (i =? j)%nat then 1 else 0.

Lemma rsum_delta_l n k f : (k < n)%nat -> rsum n (fun i => delta k i * f i) = f k.
Proof.
  intros. rewrite (rsum_single n k); auto.
  - unfold delta. rewrite Nat.eqb_refl. lra.
  - intros. unfold delta. destruct (Nat.eqb_spec k i); [congruence|lra].
Qed.
Lemma rsum_delta_r n k f : (k < n)%nat -> rsum n (fun i => f i * delta i k) = f k.
Proof.
  intros. rewrite (rsum_single n k); auto.
  - unfold delta. rewrite Nat.eqb_refl. lra.
  - intros. unfold delta. destruct (Nat.eqb_spec i k); [congruence|lra].
Qed.

Lemma mmul_ext n A B A' B' i j :
  (forall k, (k < n)%nat -> A i k = A' i k) -> (forall k, (k < n)%nat -> B k j = B' k j) ->
  mmul n A B i j = mmul n A' B' i j.
Proof. intros. apply rsum_ext. intros. rewrite H, H0; auto. Qed.

Lemma mmul_assoc n m A B C i j :
  mmul n (mmul m A B) C i j = mmul m A (mmul n B C) i j.
Proof.
  unfold mmul.
  erewrite rsum_ext by (intros; rewrite <- rsum_scal_r; reflexivity).
  rewrite rsum_swap. apply rsum_ext. intros k Hk.
  rewrite <- rsum_scal. apply rsum_ext. intros. ring.
Qed.

Lemma mvec_mmul n m A B x i : mvec n (mmul m A B) x i = mvec m A (mvec n B x) i.
Proof.
  unfold mvec, mmul.
  erewrite rsum_ext by (intros; rewrite <- rsum_scal_r; reflexivity).
  rewrite rsum_swap. apply rsum_ext. intros k Hk.
  rewrite <- rsum_scal. apply rsum_ext. intros. ring.
Qed.

Lemma mvec_ext n A A' x x' i :
  (forall k, (k < n)%nat -> A i k = A' i k) -> (forall k, (k < n)%nat -> x k = x' k) ->
  mvec n A x i = mvec n A' x' i.
Proof. intros. apply rsum_ext. intros. rewrite H, H0; auto. Qed.

(* ------------------------------------------------------------------ *)
(** ** A system A x = b has a solution unless some combination of the rows is
    zero while the same combination of the right-hand sides is not. *)

Lemma some_nonzero m (a : nat -> R) :
  (forall i, (i < m)%nat -> a i = 0) \/ (exists p, (p < m)%nat /\ a p <> 0).
Proof.
  induction m.
  - left. intros; lia.
  - destruct IHm as [H|(p & Hp & E)].
    + destruct (Req_dec (a m) 0).
      * left. intros i Hi. destruct (Nat.eq_dec i m); [subst; auto|apply H; lia].
      * right. exists m. auto.
    + right. exists p. split; [lia|auto].
Qed.

Lemma fredholm : forall m n (A : mat) (b : nat -> R),
  (exists x, forall i, (i < m)%nat -> mvec n A x i = b i) \/
  (exists w, (forall j, (j < n)%nat -> rsum m (fun i => w i * A i j) = 0) /\
             rsum m (fun i => w i * b i) <> 0).
Proof.
  intros m. induction n; intros A b.
  - destruct (some_nonzero m b) as [H|(p & Hp & E)].
    + left. exists (fun _ => 0). intros. unfold mvec. simpl. symmetry; auto.
    + right. exists (delta p). split; [intros; lia|].
      rewrite rsum_delta_l; auto.
  - destruct (some_nonzero m (fun i => A i n)) as [H|(p & Hp & E)].
    + destruct (IHn A b) as [(x & Hx)|(w & Hw & Hb)].
      * left. exists x. intros i Hi. unfold mvec. simpl. rewrite (H i Hi).
        specialize (Hx i Hi). unfold mvec in Hx. lra.
      * right. exists w. split; auto. intros j Hj.
        destruct (Nat.eq_dec j n) as [->|].
        { apply rsum_zero. intros i Hi. rewrite (H i Hi). ring. }
        apply Hw; lia.
    + set (a := fun i => A i n) in *.
      destruct (IHn (fun i j => A i j - a i / a p * A p j) (fun i => b i - a i / a p * b p))
        as [(x & Hx)|(w & Hw & Hb)].
      * left.
        set (xn := (b p - rsum n (fun j => A p j * x j)) / a p).
        exists (fun j => if (j <? n)%nat then x j else xn).
        intros i Hi. unfold mvec. simpl. rewrite Nat.ltb_irrefl.
        rewrite (rsum_ext n _ (fun j => (A i j - a i / a p * A p j) * x j + a i / a p * (A p j * x j))).
        2:{ intros j Hj. destruct (Nat.ltb_spec j n); [ring|lia]. }
        rewrite rsum_plus, rsum_scal. specialize (Hx i Hi). unfold mvec in Hx. rewrite Hx.
        fold (a i). unfold xn. field. exact E.
      * right.
        set (s := rsum m (fun i => w i * (a i / a p))).
        exists (fun i => w i - s * delta p i).
        assert (G : forall v : nat -> R,
          rsum m (fun i => (w i - s * delta p i) * v i) =
          rsum m (fun i => w i * (v i - a i / a p * v p))).
        { intros v.
          rewrite (rsum_ext m _ (fun i => w i * v i - s * (delta p i * v i))) by (intros; ring).
          rewrite rsum_minus, rsum_scal, rsum_delta_l by auto.
          rewrite (rsum_ext m (fun i => w i * (v i - a i / a p * v p))
                            (fun i => w i * v i - w i * (a i / a p) * v p)) by (intros; ring).
          rewrite rsum_minus, rsum_scal_r. unfold s. ring. }
        split.
        -- intros j Hj. rewrite (G (fun i => A i j)).
           destruct (Nat.eq_dec j n) as [->|].
           { apply rsum_zero. intros i Hi. fold (a i). fold (a p). field. exact E. }
           apply Hw. lia.
        -- rewrite (G b). exact Hb.
Qed.

(* ------------------------------------------------------------------ *)
(** ** The matrix of falling factorials *)

(** [base_coeff] as an integer. *)
Fixpoint bz (n i : nat) : Z :=
  match n with
  | O => 1
  | S m => if (i <? m)%nat then 0 else (Z.of_nat i - Z.of_nat m) * bz m i
  end%Z.
Lemma base_coeff_bz n i : base_coeff n i = IZR (bz n i).
Proof.
  induction n; simpl; auto.
  destruct (i <? n)%nat; auto.
  rewrite mult_IZR, minus_IZR, IHn, <- !INR_IZR_INZ. reflexivity.
Qed.

(** Gauss-Jordan elimination on lists of rows of rationals, each row followed
    by its part of the identity; used only to find the inverse, the result is
    checked below. *)
Definition qrow_sub (a b : list Q) (f : Q) : list Q :=
  map (fun xy => Qred (fst xy - f * snd xy)) (combine a b).
Fixpoint pick (k : nat) (pre rows : list (list Q)) : option (list Q * list (list Q)) :=
  match rows with
  | [] => None
  | r :: rows' => if Qeq_bool (nth k r 0%Q) 0 then pick k (pre ++ [r]) rows'
                  else Some (r, pre ++ rows')
  end.
Fixpoint gauss (k n : nat) (done rest : list (list Q)) : list (list Q) :=
  match n with
  | O => done
  | S n' =>
      match pick k [] rest with
      | None => done
      | Some (r, rest') =>
          let r' := map (fun x => Qred (x / nth k r 0%Q)) r in
          let el l := map (fun q => qrow_sub q r' (nth k q 0%Q)) l in
          gauss (S k) n' (el done ++ [r']) (el rest')
      end
  end.
Definition qinv (h : nat) : list (list Q) :=
  map (skipn h) (gauss 0 h []
    (map (fun i => map (fun j => inject_Z (bz i (h + j))) (seq 0 h) ++
                   map (fun j => if (i =? j)%nat then 1%Q else 0%Q) (seq 0 h)) (seq 0 h))).
Fixpoint qsum (n : nat) (f : nat -> Q) : Q :=
  match n with O => 0 | S m => (qsum m f + f m)%Q end.
Definition qentry (m : list (list Q)) (i j : nat) : Q := nth j (nth i m []) 0%Q.
Definition qcheck (h : nat) : bool :=
  let m := qinv h in
  forallb (fun i => forallb (fun k =>
    Qeq_bool (qsum h (fun j => (inject_Z (bz i (h + j)) * qentry m j k)%Q)) (if (i =? k)%nat then 1 else 0)%Q &&
    Qeq_bool (qsum h (fun j => (qentry m i j * inject_Z (bz j (h + k)))%Q)) (if (i =? k)%nat then 1 else 0)%Q)
    (seq 0 h)) (seq 0 h).
Lemma qcheck_all : forallb qcheck (seq 1 11) = true.
Proof. vm_compute. reflexivity. Qed.

Lemma Q2R_qsum n f : Q2R (qsum n f) = rsum n (fun i => Q2R (f i)).
Proof. induction n; simpl; [unfold Q2R; simpl; lra|]. rewrite Q2R_plus, IHn. reflexivity. Qed.
Lemma Q2R_inject z : Q2R (inject_Z z) = IZR z.
Proof. unfold Q2R, inject_Z; simpl. lra. Qed.
Lemma Q2R_delta i k : Q2R (if (i =? k)%nat then 1 else 0)%Q = delta i k.
Proof. unfold delta. destruct (i =? k)%nat; unfold Q2R; simpl; lra. Qed.

(** For 1 <= h <= 11 the matrix with entries d^i/dt^i t^(h+j) at t = 1 has a
    two-sided inverse. *)
Lemma falling_inverse h : (1 <= h <= 11)%nat -> exists B : mat,
  forall i k, (i < h)%nat -> (k < h)%nat ->
    rsum h (fun j => base_coeff i (h + j) * B j k) = delta i k /\
    rsum h (fun j => B i j * base_coeff j (h + k)) = delta i k.
Proof.
  intros Hh. exists (fun i j => Q2R (qentry (qinv h) i j)). intros i k Hi Hk.
  pose proof qcheck_all as Q. rewrite forallb_forall in Q.
  assert (Q' : qcheck h = true) by (apply Q, in_seq; lia). clear Q.
  unfold qcheck in Q'. rewrite forallb_forall in Q'.
  specialize (Q' i ltac:(apply in_seq; lia)). cbv beta in Q'.
  rewrite forallb_forall in Q'. specialize (Q' k ltac:(apply in_seq; lia)). cbv beta in Q'.
  apply andb_true_iff in Q'. destruct Q' as [Q1 Q2].
  apply Qeq_bool_iff, Qeq_eqR in Q1. apply Qeq_bool_iff, Qeq_eqR in Q2.
  rewrite Q2R_qsum, Q2R_delta in Q1, Q2. split.
  - rewrite <- Q1. apply rsum_ext. intros j Hj. rewrite Q2R_mult, Q2R_inject, base_coeff_bz. reflexivity.
  - rewrite <- Q2. apply rsum_ext. intros j Hj. rewrite Q2R_mult, Q2R_inject, base_coeff_bz. reflexivity.
Qed.
