(** The mapping matrix and its block inverse. *)
From Coq Require Import Reals Lra Lia List Bool ZArith Arith.
From Verif Require Import Base PolyModel PolyProofs LinOptModel LinAlg LinOptSpec.
Import ListNotations.
Set Bullet Behavior "Strict Subproofs".
Local Open Scope R_scope.

Lemma valid_half N : valid_size N -> N = (N / 2 + N / 2)%nat /\ (1 <= N / 2 <= 11)%nat.
Proof.
  intros [H E]. apply Nat.even_spec in E. destruct E as [h ->].
  rewrite (Nat.mul_comm 2 h), Nat.div_mul by lia. lia.
Qed.

Lemma base_row_nth N d t c : (d < N)%nat -> (c < N)%nat -> (t = 0 \/ DBL_EPS <= Rabs t) ->
  nth c (base_row N d t) 0 = if (c <? d)%nat then 0 else base_coeff d c * t ^ (c - d).
Proof.
  intros Hd Hc Ht. unfold base_row.
  destruct (base_coeffs_with_time N d t) as [l|] eqn:E.
  - eapply base_coeffs_with_time_nth; eauto.
  - unfold base_coeffs_with_time in E. destruct (Nat.ltb_spec d N); [discriminate|lia].
Qed.

Lemma usable_abs T : DBL_EPS <= T -> DBL_EPS <= Rabs T /\ 0 < T.
Proof. intros. pose proof DBL_EPS_pos. rewrite Rabs_right by lra. lra. Qed.

Lemma mapping_upper N T r c : valid_size N -> (r < N / 2)%nat -> (c < N)%nat ->
  mapping_matrix N T r c = if (c =? r)%nat then base_coeff r r else 0.
Proof.
  intros V Hr Hc. destruct (valid_half N V) as [E Hh]. unfold mapping_matrix.
  destruct (Nat.ltb_spec r (N / 2)); [|lia].
  rewrite base_row_nth by (auto; lia).
  destruct (Nat.eqb_spec c r).
  - subst c. rewrite Nat.ltb_irrefl, Nat.sub_diag. simpl. ring.
  - destruct (Nat.ltb_spec c r); auto.
    replace (c - r)%nat with (S (c - r - 1)) by lia. simpl. ring.
Qed.

Lemma mapping_lower N T i c : valid_size N -> DBL_EPS <= T -> (i < N / 2)%nat -> (c < N)%nat ->
  mapping_matrix N T (N / 2 + i)%nat c = if (c <? i)%nat then 0 else base_coeff i c * T ^ (c - i).
Proof.
  intros V HT Hi Hc. destruct (valid_half N V) as [E Hh]. unfold mapping_matrix.
  destruct (Nat.ltb_spec (N / 2 + i) (N / 2)); [lia|].
  replace (N / 2 + i - N / 2)%nat with i by lia.
  apply base_row_nth; try lia. right. apply usable_abs; auto.
Qed.

(** A matrix of scaled falling factorials is invertible for every T > 0. *)
Lemma lower_block_inverse h T : (1 <= h <= 11)%nat -> 0 < T -> exists B,
  is_inverse h (fun i j => base_coeff i (h + j) * T ^ (h + j - i)) B.
Proof.
  intros Hh HT. destruct (falling_inverse h Hh) as (B & HB).
  exists (fun j k => / T ^ (h + j) * B j k * T ^ k).
  assert (P : forall n, T ^ n <> 0) by (intros; apply pow_nonzero; lra).
  intros i k Hi Hk. destruct (HB i k Hi Hk) as [H1 H2]. split.
  - rewrite (rsum_ext h _ (fun j => / T ^ i * T ^ k * (base_coeff i (h + j) * B j k))).
    + rewrite rsum_scal, H1. unfold delta. destruct (Nat.eqb_spec i k).
      * subst. field. apply P.
      * ring.
    + intros j Hj. replace (T ^ (h + j)) with (T ^ (h + j - i) * T ^ i)
        by (rewrite <- pow_add; f_equal; lia).
      field. auto.
  - rewrite (rsum_ext h _ (fun j => / T ^ (h + i) * T ^ (h + k) * (B i j * base_coeff j (h + k)))).
    + rewrite rsum_scal, H2. unfold delta. destruct (Nat.eqb_spec i k).
      * subst. field. apply P.
      * ring.
    + intros j Hj. replace (T ^ (h + k)) with (T ^ (h + k - j) * T ^ j)
        by (rewrite <- pow_add; f_equal; lia).
      field. auto.
Qed.

(** Block inverse: only the structure of the matrix matters. *)
Lemma block_inverse inv h (A B : mat) :
  (forall r c, (r < h)%nat -> (c < h + h)%nat -> c <> r -> A r c = 0) ->
  (forall r, (r < h)%nat -> A r r <> 0) ->
  is_inverse h (fun i j => A (h + i)%nat (h + j)%nat) B ->
  (forall i j, (i < h)%nat -> (j < h)%nat -> inv h (fun i j => A (h + i)%nat (h + j)%nat) i j = B i j) ->
  ((h + h) / 2 = h)%nat ->
  is_inverse (h + h) A (invert_mapping inv (h + h) A).
Proof.
  intros Hz Hd HB Hinv E r c Hr Hc.
  set (X := invert_mapping inv (h + h) A).
  set (I := inv h (fun i j => A (h + i)%nat (h + j)%nat)) in *.
  assert (HI : is_inverse h (fun i j => A (h + i)%nat (h + j)%nat) I).
  { intros i j Hi Hj. destruct (HB i j Hi Hj) as [B1 B2]. split.
    - rewrite <- B1. apply rsum_ext. intros. rewrite Hinv; auto.
    - rewrite <- B2. apply rsum_ext. intros. rewrite Hinv; auto. }
  clear HB Hinv B.
  assert (X1 : forall i j, (i < h)%nat -> (j < h)%nat -> X i j = if (i =? j)%nat then / A i i else 0).
  { intros. unfold X, invert_mapping. rewrite E.
    destruct (Nat.ltb_spec i h); [|lia]. destruct (Nat.ltb_spec j h); [|lia]. reflexivity. }
  assert (X2 : forall i j, (i < h)%nat -> X i (h + j)%nat = 0).
  { intros. unfold X, invert_mapping. rewrite E.
    destruct (Nat.ltb_spec i h); [|lia]. destruct (Nat.ltb_spec (h + j) h); [lia|]. reflexivity. }
  assert (X4 : forall i j, X (h + i)%nat (h + j)%nat = I i j).
  { intros. unfold X, invert_mapping. rewrite E.
    destruct (Nat.ltb_spec (h + i) h); [lia|]. destruct (Nat.ltb_spec (h + j) h); [lia|].
    replace (h + i - h)%nat with i by lia. replace (h + j - h)%nat with j by lia. reflexivity. }
  assert (X3 : forall i j, (i < h)%nat -> (j < h)%nat ->
             X (h + i)%nat j = - (rsum h (fun l => I i l * A (h + l)%nat j)) * / A j j).
  { intros i j Hi Hj. unfold X, invert_mapping. rewrite E.
    destruct (Nat.ltb_spec (h + i) h); [lia|]. destruct (Nat.ltb_spec j h); [|lia].
    replace (h + i - h)%nat with i by lia. unfold mmul. fold I.
    rewrite (rsum_single h j); auto.
    - rewrite Nat.eqb_refl. f_equal. rewrite <- rsum_opp. apply rsum_ext. intros. ring.
    - intros m Hm Hne. destruct (Nat.eqb_spec m j); [congruence|]. ring. }
  split.
  - destruct (Nat.lt_ge_cases r h) as [Lr|Lr].
    + rewrite (rsum_single (h + h) r); auto.
      * destruct (Nat.lt_ge_cases c h) as [Lc|Lc].
        -- rewrite X1 by auto. destruct (Nat.eqb_spec r c); [field; auto|ring].
        -- replace c with (h + (c - h))%nat by lia. rewrite X2 by auto.
           destruct (Nat.eqb_spec r (h + (c - h))); [lia|ring].
      * intros k Hk Hne. rewrite Hz by auto. ring.
    + replace r with (h + (r - h))%nat by lia. set (i := (r - h)%nat).
      assert (Hi : (i < h)%nat) by (unfold i; lia).
      rewrite rsum_split.
      destruct (Nat.lt_ge_cases c h) as [Lc|Lc].
      * rewrite (rsum_single h c); auto.
        -- rewrite X1, Nat.eqb_refl by auto.
           rewrite (rsum_ext h _ (fun k => (- / A c c) *
             rsum h (fun l => A (h + i)%nat (h + k)%nat * I k l * A (h + l)%nat c))).
           2:{ intros k Hk. rewrite X3 by auto.
               rewrite (rsum_ext h (fun l => A (h + i)%nat (h + k)%nat * I k l * A (h + l)%nat c)
                 (fun l => A (h + i)%nat (h + k)%nat * (I k l * A (h + l)%nat c)))
                 by (intros; ring). rewrite rsum_scal. ring. }
           rewrite rsum_scal, rsum_swap.
           rewrite (rsum_ext h _ (fun l => delta i l * A (h + l)%nat c)).
           2:{ intros l Hl. rewrite rsum_scal_r. destruct (HI i l Hi Hl) as [-> _]. reflexivity. }
           rewrite rsum_delta_l by auto.
           destruct (Nat.eqb_spec (h + i) c); [lia|]. ring.
        -- intros k Hk Hne. rewrite X1 by auto. destruct (Nat.eqb_spec k c); [congruence|ring].
      * rewrite rsum_zero, Rplus_0_l.
        -- replace c with (h + (c - h))%nat by lia.
           erewrite rsum_ext by (intros; rewrite X4; reflexivity).
           destruct (HI i (c - h)%nat Hi ltac:(lia)) as [-> _].
           destruct (Nat.eqb_spec i (c - h)); destruct (Nat.eqb_spec (h + i) (h + (c - h))); auto; lia.
        -- intros k Hk. replace c with (h + (c - h))%nat by lia. rewrite X2 by auto. ring.
  - destruct (Nat.lt_ge_cases r h) as [Lr|Lr].
    + rewrite rsum_split. rewrite (rsum_zero h (fun k => X r (h + k)%nat * _)).
      2:{ intros k Hk. rewrite X2 by auto. ring. }
      rewrite (rsum_single h r); auto.
      * rewrite X1, Nat.eqb_refl by auto.
        destruct (Nat.eqb_spec r c).
        -- subst. field. auto.
        -- rewrite (Hz r c) by (auto; lia). ring.
      * intros k Hk Hne. rewrite X1 by auto. destruct (Nat.eqb_spec r k); [congruence|ring].
    + replace r with (h + (r - h))%nat by lia. set (i := (r - h)%nat).
      assert (Hi : (i < h)%nat) by (unfold i; lia).
      rewrite rsum_split.
      erewrite (rsum_ext h (fun k => X (h + i)%nat (h + k)%nat * _)) by (intros; rewrite X4; reflexivity).
      destruct (Nat.lt_ge_cases c h) as [Lc|Lc].
      * rewrite (rsum_single h c); auto.
        -- rewrite X3 by auto. destruct (Nat.eqb_spec (h + i) c); [lia|]. field. auto.
        -- intros k Hk Hne. rewrite (Hz k c) by (auto; lia). ring.
      * rewrite rsum_zero, Rplus_0_l.
        -- replace c with (h + (c - h))%nat by lia.
           destruct (HI i (c - h)%nat Hi ltac:(lia)) as [_ ->].
           destruct (Nat.eqb_spec i (c - h)); destruct (Nat.eqb_spec (h + i) (h + (c - h))); auto; lia.
        -- intros k Hk. rewrite (Hz k c) by lia. ring.
Qed.

Lemma mapping_inverse inv N T : exact_inverse inv -> valid_size N -> DBL_EPS <= T ->
  is_inverse N (mapping_matrix N T) (invert_mapping inv N (mapping_matrix N T)).
Proof.
  intros HI V HT. destruct (valid_half N V) as [E Hh]. destruct (usable_abs T HT) as [_ HT0].
  destruct (lower_block_inverse (N / 2) T Hh HT0) as (B & HB).
  assert (HB' : is_inverse (N / 2) (fun i j => mapping_matrix N T (N / 2 + i)%nat (N / 2 + j)%nat) B).
  { assert (F : forall i j, (i < N / 2)%nat -> (j < N / 2)%nat ->
      mapping_matrix N T (N / 2 + i)%nat (N / 2 + j)%nat =
      base_coeff i (N / 2 + j) * T ^ (N / 2 + j - i)).
    { intros i j Hi Hj. rewrite mapping_lower by (auto; lia).
      destruct (Nat.ltb_spec (N / 2 + j) i); [lia|reflexivity]. }
    intros i j Hi Hj. destruct (HB i j Hi Hj) as [B1 B2]. split.
    - rewrite <- B1. apply rsum_ext. intros. rewrite F; auto.
    - rewrite <- B2. apply rsum_ext. intros. rewrite F; auto. }
  set (h := (N / 2)%nat) in *. clearbody h. subst N.
  assert (E2 : ((h + h) / 2 = h)%nat) by (replace (h + h)%nat with (h * 2)%nat by lia; apply Nat.div_mul; lia).
  apply (block_inverse inv h (mapping_matrix (h + h) T) B); auto.
  - intros r c Hr Hc Hne. rewrite mapping_upper by (rewrite ?E2; auto).
    destruct (Nat.eqb_spec c r); [congruence|auto].
  - intros r Hr. rewrite mapping_upper, Nat.eqb_refl by (rewrite ?E2; auto; lia).
    pose proof (base_coeff_pos r r (le_n r)). lra.
Qed.

(** Below epsilon the matrix is singular: its rows 0 and N/2 coincide. *)
Lemma mapping_singular N T B : valid_size N -> 0 < T < DBL_EPS ->
  ~ is_inverse N (mapping_matrix N T) B.
Proof.
  intros V HT HB. destruct (valid_half N V) as [E Hh].
  destruct (HB 0%nat 0%nat ltac:(lia) ltac:(lia)) as [H1 _].
  destruct (HB (N / 2)%nat 0%nat ltac:(lia) ltac:(lia)) as [H2 _].
  simpl in H1. destruct (Nat.eqb_spec (N / 2) 0); [lia|].
  assert (F : forall c, (c < N)%nat -> mapping_matrix N T (N / 2)%nat c = mapping_matrix N T 0%nat c).
  { intros c Hc. unfold mapping_matrix.
    destruct (Nat.ltb_spec (N / 2) (N / 2)); [lia|]. destruct (Nat.ltb_spec 0 (N / 2)); [|lia].
    rewrite Nat.sub_diag. unfold base_row, base_coeffs_with_time.
    destruct (Nat.ltb_spec 0 N); [|lia].
    rewrite !nth_map_seq by lia.
    destruct (Nat.eqb_spec c 0); auto.
    pose proof DBL_EPS_pos. rewrite (Rabs_right T) by lra.
    rcase; [|lra]. rewrite Rabs_R0. rcase; [auto|lra]. }
  erewrite rsum_ext in H2 by (intros; rewrite F by auto; reflexivity).
  rewrite H1 in H2. lra.
Qed.
