(** Proofs about extrema of polynomials, segments and trajectories. *)
From Coq Require Import Reals Lra Lia List Bool ZArith Arith Classical.
From Coquelicot Require Import Coquelicot.
From Verif Require Import Base PolyModel PolySpec PolyProofs VertexModel TrajModel TrajSpec TrajProofs.
Import List ListNotations.
Local Open Scope R_scope.

(* ------------------------------------------------------------------ *)
(** ** Candidates contain the extrema *)

Lemma candidates_in a b roots c :
  select_candidates_from_roots a b roots = Some c -> a <= b /\ Forall (fun x => a <= x <= b) c /\ In a c.
Proof.
  unfold select_candidates_from_roots. rcase; [discriminate|]. intros H; inversion H; clear H.
  split; [lra|]. split; [|left; auto].
  constructor; [lra|]. constructor; [lra|].
  apply Forall_forall. intros x Hx. apply in_map_iff in Hx as (z & <- & Hz).
  apply filter_In in Hz as [_ Hz]. apply andb_prop in Hz as [_ Hz].
  apply negb_true_iff, orb_false_elim in Hz as [K1 K2].
  apply Rltb_false in K1, K2. lra.
Qed.

Lemma candidates_root a b roots c x y :
  select_candidates_from_roots a b roots = Some c -> a <= x <= b ->
  Rabs y <= DBL_EPS -> In (x, y) roots -> In x c.
Proof.
  unfold select_candidates_from_roots. rcase; [discriminate|]. intros H; inversion H; clear H.
  intros Hx Hy Hin. right; right. apply in_map_iff. exists (x, y). split; auto.
  apply filter_In. split; auto. simpl. apply andb_true_intro. split.
  - apply negb_true_iff, Rltb_false. auto.
  - apply negb_true_iff, orb_false_intro; apply Rltb_false; lra.
Qed.

Lemma candidates_end a b roots c :
  select_candidates_from_roots a b roots = Some c -> In b c.
Proof.
  unfold select_candidates_from_roots. rcase; [discriminate|]. intros H; inversion H.
  right; left; auto.
Qed.

Lemma derive_nonzero_const f g a b :
  (forall x, is_derive f x (g x)) -> ~ (exists x, g x <> 0) -> f a = f b.
Proof.
  intros Hd Hz.
  assert (Z : forall x, g x = 0).
  { intros x. destruct (Req_dec (g x) 0); auto. exfalso; apply Hz; eauto. }
  destruct (Rtotal_order a b) as [|[->|]]; auto.
  - apply eq_is_derive; auto. intros. change (@zero R_NormedModule) with 0.
    rewrite <- (Z t). apply Hd.
  - symmetry. apply eq_is_derive; auto. intros. change (@zero R_NormedModule) with 0.
    rewrite <- (Z t). apply Hd.
Qed.

Lemma candidate_min f g a b roots c :
  (forall x, is_derive f x (g x)) -> roots_complete DBL_EPS roots g a b ->
  select_candidates_from_roots a b roots = Some c ->
  exists x, In x c /\ a <= x <= b /\ forall y, a <= y <= b -> f x <= f y.
Proof.
  intros Hd Hroots Hc.
  destruct (candidates_in _ _ _ _ Hc) as (Hab & HF & Ha).
  destruct (continuity_ab_min f a b Hab) as (m & Hm & Hmab).
  { intros x _. apply continuity_pt_filterlim.
    apply (@ex_derive_continuous R_AbsRing R_NormedModule). exists (g x). apply Hd. }
  destruct (Req_dec m a) as [->|]; [exists a; auto|].
  destruct (Req_dec m b) as [->|]; [exists b; split; [eapply candidates_end; eauto|auto]|].
  assert (G : g m = 0).
  { assert (D : derivable_pt_lim f m (g m)) by (apply is_derive_Reals, Hd).
    set (pr := exist _ (g m) D : derivable_pt f m).
    change (derive_pt f m pr = 0). apply (deriv_minimum f a b m pr); try lra.
    intros; apply Hm; lra. }
  destruct (classic (exists x, g x <> 0)) as [NZ|Z].
  - destruct (Hroots NZ m Hmab G) as (y & Hy & Hin).
    exists m. split; [eapply candidates_root; eauto|auto].
  - exists a. split; auto. split; [lra|]. intros y Hy.
    rewrite (derive_nonzero_const f g a y); auto. lra.
Qed.

Lemma candidate_max f g a b roots c :
  (forall x, is_derive f x (g x)) -> roots_complete DBL_EPS roots g a b ->
  select_candidates_from_roots a b roots = Some c ->
  exists x, In x c /\ a <= x <= b /\ forall y, a <= y <= b -> f y <= f x.
Proof.
  intros Hd Hroots Hc.
  destruct (candidate_min (fun x => - f x) (fun x => - g x) a b roots c) as (x & H1 & H2 & H3); auto.
  - intros x. apply (is_derive_opp f x (g x)); auto.
  - intros [x Hx] z Hz E. apply Hroots; auto; [exists x; lra|lra].
  - exists x. split; auto. split; auto. intros y Hy. specialize (H3 y Hy). lra.
Qed.

(* ------------------------------------------------------------------ *)
(** ** Polynomials *)

Lemma minmax_fold p d cands mn mx :
  let f := fun t => poly_evaluate p t d in
  let r := fold_left (minmax_step p d) cands (mn, mx) in
  (snd (fst r) <= snd mn /\ (forall c, In c cands -> snd (fst r) <= f c) /\
   (fst r = mn \/ exists c, In c cands /\ fst r = (c, f c))) /\
  (snd mx <= snd (snd r) /\ (forall c, In c cands -> f c <= snd (snd r)) /\
   (snd r = mx \/ exists c, In c cands /\ snd r = (c, f c))).
Proof.
  intros f. revert mn mx. induction cands as [|c cands IH]; intros mn mx r.
  - simpl in r. subst r. simpl. repeat split; try lra; auto; intros; contradiction.
  - simpl in r. specialize (IH (if Rltb (f c) (snd mn) then (c, f c) else mn)
                               (if Rltb (snd mx) (f c) then (c, f c) else mx)).
    fold f in r. change (poly_evaluate p c d) with (f c) in r.
    simpl in IH. change (fold_left (minmax_step p d) cands _) with r in IH.
    destruct IH as [(A1 & A2 & A3) (B1 & B2 & B3)].
    split; [split; [|split]|split; [|split]].
    + rcase_in A1; simpl in A1; lra.
    + intros x [<-|Hx]; auto. rcase_in A1; simpl in A1; lra.
    + destruct A3 as [A3|(x & Hx & A3)].
      * rcase_in A3; auto. right. exists c. split; [left; auto|auto].
      * right. exists x. split; [right; auto|auto].
    + rcase_in B1; simpl in B1; lra.
    + intros x [<-|Hx]; auto. rcase_in B1; simpl in B1; lra.
    + destruct B3 as [B3|(x & Hx & B3)].
      * rcase_in B3; auto. right. exists c. split; [left; auto|auto].
      * right. exists x. split; [right; auto|auto].
Qed.

Lemma compute_minmax_spec find_roots p a b d :
  a <= b -> (d < length p)%nat ->
  roots_complete DBL_EPS (find_roots (get_coefficients p (S d))) (Derive_n (pval p) (S d)) a b ->
  (forall t, a <= t <= b -> Rabs (Derive_n (pval p) d t) < DBL_MAX) ->
  exists mn mx, compute_minmax find_roots p a b d = Some (mn, mx) /\
    is_min_on (Derive_n (pval p) d) a b (fst mn) (snd mn) /\
    is_max_on (Derive_n (pval p) d) a b (fst mx) (snd mx).
Proof.
  intros Hab Hd Hroots Hrange. unfold compute_minmax, compute_candidates.
  destruct (Nat.ltb_spec (length p) (S d)); [lia|].
  destruct (select_candidates_from_roots a b (find_roots (get_coefficients p (S d)))) as [c|] eqn:E.
  2:{ unfold select_candidates_from_roots in E. rcase_in E; [lra|discriminate]. }
  destruct (candidates_in _ _ _ _ E) as (_ & HF & _).
  assert (Hder : forall x, is_derive (Derive_n (pval p) d) x (Derive_n (pval p) (S d) x)).
  { intros x. rewrite <- poly_evaluate_Derive_n.
    apply is_derive_ext with (f := fun t => poly_evaluate p t d).
    - intros; apply poly_evaluate_Derive_n.
    - apply is_derive_poly_evaluate. }
  destruct (candidate_min _ _ _ _ _ _ Hder Hroots E) as (x1 & I1 & R1 & M1).
  destruct (candidate_max _ _ _ _ _ _ Hder Hroots E) as (x2 & I2 & R2 & M2).
  unfold select_minmax_from_candidates. destruct c as [|c0 c']; [contradiction|].
  pose proof (minmax_fold p d (c0 :: c') (c0, DBL_MAX) (c0, - DBL_MAX)) as HM.
  set (r := fold_left _ _ _) in *. destruct r as [mn mx]. simpl in HM.
  destruct HM as [(A1 & A2 & A3) (B1 & B2 & B3)].
  rewrite Forall_forall in HF.
  exists mn, mx. split; [reflexivity|]. split.
  - specialize (A2 x1 I1). rewrite poly_evaluate_Derive_n in A2.
    assert (HR := Rabs_def2 _ _ (Hrange x1 R1)).
    destruct A3 as [->|(x & Hx & ->)]; simpl in *; [lra|].
    rewrite poly_evaluate_Derive_n in *.
    split; [auto|]. split; [auto|]. intros y Hy. specialize (M1 y Hy). lra.
  - specialize (B2 x2 I2). rewrite poly_evaluate_Derive_n in B2.
    assert (HR := Rabs_def2 _ _ (Hrange x2 R2)).
    destruct B3 as [->|(x & Hx & ->)]; simpl in *; [lra|].
    rewrite poly_evaluate_Derive_n in *.
    split; [auto|]. split; [auto|]. intros y Hy. specialize (M2 y Hy). lra.
Qed.

(* ------------------------------------------------------------------ *)
(** ** Segments *)

Lemma seg_magnitude_norm s d dims t :
  seg_wf s -> Forall (fun i => (i < s_D s)%nat) dims ->
  seg_magnitude s d dims t = norm_dims (seg_deriv s d t) dims.
Proof.
  intros Hwf HF. unfold seg_magnitude, norm_dims. f_equal. f_equal.
  apply map_ext_in. intros i Hi. rewrite Forall_forall in HF.
  rewrite <- seg_evaluate_deriv, nth_seg_evaluate; auto.
Qed.

Definition sq_sum (s : segment) (d : nat) (dims : list nat) (t : R) : R :=
  lsum (map (fun dim => poly_evaluate (seg_poly s dim) t d ^ 2) dims).

Lemma sq_sum_nonneg s d dims t : 0 <= sq_sum s d dims t.
Proof. apply lsum_nonneg, Forall_map, Forall_forall. intros; apply pow2_ge_0. Qed.

Lemma pval_vec_add a b t : length a = length b -> pval (vec_add a b) t = pval a t + pval b t.
Proof.
  revert b; induction a; destruct b; simpl; intros; try discriminate; [lra|].
  unfold vec_add in IHa. rewrite IHa by lia. ring.
Qed.
Lemma length_vec_add a b : length a = length b -> length (vec_add a b) = length a.
Proof. intros. unfold vec_add. rewrite map_length, combine_length. lia. Qed.

Lemma seg_wf_poly_length s i : seg_wf s -> (i < s_D s)%nat -> length (seg_poly s i) = s_N s.
Proof.
  intros [H1 H2] Hi. rewrite Forall_forall in H2. apply H2. apply nth_In. lia.
Qed.

Lemma conv_fold s d dims acc t :
  seg_wf s -> (d < s_N s)%nat -> Forall (fun i => (i < s_D s)%nat) dims ->
  length acc = (s_N s - d + (s_N s - d - 1) - 1)%nat ->
  pval (fold_left (fun acc dim =>
              let p := seg_poly s dim in
              vec_add acc (convolve (firstn (s_N s - d) (get_coefficients p d))
                                    (firstn (s_N s - d - 1) (get_coefficients p (S d)))))
              dims acc) t =
  pval acc t + lsum (map (fun dim => poly_evaluate (seg_poly s dim) t d *
                                     poly_evaluate (seg_poly s dim) t (S d)) dims).
Proof.
  intros Hwf Hd HF. revert acc. induction HF as [|i dims Hi HF IH]; intros acc Hacc; cbn [fold_left map lsum].
  - lra.
  - pose proof (seg_wf_poly_length s i Hwf Hi) as HL.
    assert (HC : length acc = length (convolve (firstn (s_N s - d) (get_coefficients (seg_poly s i) d))
                          (firstn (s_N s - d - 1) (get_coefficients (seg_poly s i) (S d))))).
    { rewrite length_convolve, !firstn_length, !length_get_coefficients. lia. }
    rewrite IH by (cbn zeta; rewrite length_vec_add by exact HC; auto).
    cbn zeta. rewrite pval_vec_add by exact HC. rewrite pval_convolve.
    rewrite <- HL at 1. rewrite pval_head_get_coefficients.
    replace (s_N s - d - 1)%nat with (length (seg_poly s i) - S d)%nat by lia.
    rewrite pval_head_get_coefficients. ring.
Qed.

Lemma is_derive_sq_sum s d dims t :
  is_derive (sq_sum s d dims) t
    (2 * lsum (map (fun dim => poly_evaluate (seg_poly s dim) t d *
                               poly_evaluate (seg_poly s dim) t (S d)) dims)).
Proof.
  unfold sq_sum. induction dims as [|i dims IH]; cbn [map lsum].
  - rewrite Rmult_0_r. apply (@is_derive_const R_AbsRing R_NormedModule 0).
  - rewrite Rmult_plus_distr_l.
    apply (is_derive_plus (fun t => poly_evaluate (seg_poly s i) t d ^ 2)
             (fun t => lsum (map (fun dim => poly_evaluate (seg_poly s dim) t d ^ 2) dims))); auto.
    apply is_derive_ext with (f := fun t => poly_evaluate (seg_poly s i) t d * poly_evaluate (seg_poly s i) t d).
    { intros; simpl. lra. }
    apply is_derive_Reals.
    replace (2 * _) with
      (poly_evaluate (seg_poly s i) t (S d) * poly_evaluate (seg_poly s i) t d +
       poly_evaluate (seg_poly s i) t d * poly_evaluate (seg_poly s i) t (S d)) by ring.
    change (fun t => poly_evaluate (seg_poly s i) t d * poly_evaluate (seg_poly s i) t d)
      with (mult_fct (fun t => poly_evaluate (seg_poly s i) t d) (fun t => poly_evaluate (seg_poly s i) t d)).
    apply derivable_pt_lim_mult; apply is_derive_Reals, is_derive_poly_evaluate.
Qed.

Lemma sq_between a b y : a <= y <= b -> a ^ 2 <= b ^ 2 -> y ^ 2 <= b ^ 2.
Proof.
  intros H1 H2. destruct (Rle_dec 0 y); [simpl; nra|].
  assert (y ^ 2 <= a ^ 2) by (simpl; nra). lra.
Qed.
Lemma sq_between' a b y : a <= y <= b -> b ^ 2 <= a ^ 2 -> y ^ 2 <= a ^ 2.
Proof.
  intros H1 H2. destruct (Rle_dec y 0); [simpl; nra|].
  assert (y ^ 2 <= b ^ 2) by (simpl; nra). lra.
Qed.

(** The list of times used by the selection of a segment. *)
Lemma seg_candidate_times_spec find_roots s d a b dims :
  exact_root_finder find_roots -> seg_wf s -> (d < s_N s)%nat -> a <= b ->
  dims <> [] -> Forall (fun i => (i < s_D s)%nat) dims ->
  exists c, seg_candidate_times find_roots s d a b dims = Val c /\
    Forall (fun x => a <= x <= b) c /\
    (exists x, In x c /\ forall y, a <= y <= b -> sq_sum s d dims y <= sq_sum s d dims x) /\
    (min_computable s d a b dims ->
     exists x, In x c /\ forall y, a <= y <= b -> sq_sum s d dims x <= sq_sum s d dims y).
Proof.
  intros HR Hwf Hd Hab Hne HF.
  assert (HRC : forall cf, roots_complete DBL_EPS (find_roots cf) (pval cf) a b).
  { intros cf NZ x _ Hx. apply HR; auto. }
  destruct dims as [|i [|j dims]]; [congruence| |].
  - inversion HF; subst. simpl. destruct (Nat.ltb_spec i (s_D s)); [|lia].
    unfold compute_candidates. pose proof (seg_wf_poly_length s i Hwf H1) as HL.
    destruct (Nat.ltb_spec (length (seg_poly s i)) (S d)); [lia|].
    set (cf := get_coefficients (seg_poly s i) (S d)).
    destruct (select_candidates_from_roots a b (find_roots cf)) as [c|] eqn:E.
    2:{ unfold select_candidates_from_roots in E. rcase_in E; [lra|discriminate]. }
    exists c. split; [reflexivity|]. destruct (candidates_in _ _ _ _ E) as (_ & HFc & _).
    assert (Hder : forall x, is_derive (fun t => poly_evaluate (seg_poly s i) t d) x (pval cf x)).
    { intros x. unfold cf. rewrite pval_get_coefficients. apply is_derive_poly_evaluate. }
    destruct (candidate_min _ _ _ _ _ _ Hder (HRC cf) E) as (x1 & I1 & R1 & M1).
    destruct (candidate_max _ _ _ _ _ _ Hder (HRC cf) E) as (x2 & I2 & R2 & M2).
    split; [auto|]. split.
    + unfold sq_sum. simpl map. simpl lsum.
      set (f := fun t => poly_evaluate (seg_poly s i) t d) in *.
      destruct (Rle_dec (f x1 ^ 2) (f x2 ^ 2)).
      * exists x2. split; auto. intros y Hy. specialize (M1 y Hy). specialize (M2 y Hy).
        change (poly_evaluate (seg_poly s i) y d) with (f y).
        change (poly_evaluate (seg_poly s i) x2 d) with (f x2).
        rewrite !Rplus_0_r. apply sq_between with (a := f x1); auto; split; auto.
      * exists x1. split; auto. intros y Hy. specialize (M1 y Hy). specialize (M2 y Hy).
        change (poly_evaluate (seg_poly s i) y d) with (f y).
        change (poly_evaluate (seg_poly s i) x1 d) with (f x1).
        rewrite !Rplus_0_r. apply sq_between' with (b := f x2); [split; auto|lra].
    + intros [Hlen|(i' & E' & Hsign)]; [simpl in Hlen; lia|]. inversion E'; subst i'; clear E'.
      assert (Hs : forall t, nth i (seg_deriv s d t) 0 = poly_evaluate (seg_poly s i) t d).
      { intros t. rewrite <- seg_evaluate_deriv, nth_seg_evaluate; auto. }
      unfold sq_sum. cbn [map lsum]. destruct Hsign as [Hp|Hn].
      * exists x1. split; auto. intros y Hy. specialize (M1 y Hy). rewrite !Rplus_0_r.
        specialize (Hp x1 R1). rewrite Hs in Hp. apply pow_incr. split; auto.
      * exists x2. split; auto. intros y Hy. specialize (M2 y Hy). rewrite !Rplus_0_r.
        specialize (Hn x2 R2). rewrite Hs in Hn. simpl in *. nra.
  - set (dims' := i :: j :: dims) in *. unfold seg_candidate_times.
    change (match dims' with [] => Failed | [dim] => _ | _ :: _ :: _ => ?x end) with x.
    destruct (Nat.leb_spec (s_N s) d); [lia|].
    replace (forallb (fun dim => (dim <? s_D s)%nat) dims') with true.
    2:{ symmetry. apply forallb_forall. intros x Hx. rewrite Forall_forall in HF.
        apply Nat.ltb_lt; auto. }
    cbn zeta. set (cf := fold_left _ dims' _).
    unfold compute_candidates. change (length cf <? 0)%nat with false. cbv iota.
    change (get_coefficients cf 0) with cf.
    destruct (select_candidates_from_roots a b (find_roots cf)) as [c|] eqn:E.
    2:{ unfold select_candidates_from_roots in E. rcase_in E; [lra|discriminate]. }
    exists c. split; [reflexivity|]. destruct (candidates_in _ _ _ _ E) as (_ & HFc & _).
    assert (Hder : forall x, is_derive (fun t => sq_sum s d dims' t / 2) x (pval cf x)).
    { intros x. unfold cf.
      rewrite (conv_fold s d dims'); auto; [|rewrite repeat_length; lia].
      rewrite pval_repeat0, Rplus_0_l.
      pose proof (is_derive_sq_sum s d dims' x) as HD.
      set (L := lsum _) in *.
      replace L with (scal (/ 2) (2 * L)) by (unfold scal; simpl; unfold mult; simpl; field).
      apply is_derive_ext with (f := fun t => scal (/ 2) (sq_sum s d dims' t)).
      { intros; unfold scal; simpl; unfold mult; simpl; field. }
      apply is_derive_scal; auto. }
    destruct (candidate_min _ _ _ _ _ _ Hder (HRC cf) E) as (x1 & I1 & R1 & M1).
    destruct (candidate_max _ _ _ _ _ _ Hder (HRC cf) E) as (x2 & I2 & R2 & M2).
    split; [auto|]. split.
    + exists x2. split; auto. intros y Hy. specialize (M2 y Hy). lra.
    + intros _. exists x1. split; auto. intros y Hy. specialize (M1 y Hy). lra.
Qed.

Lemma seg_select_fold a b (m : R -> R) times mn mx :
  Forall (fun x => a <= x <= b) times ->
  let r := fold_left (fun acc c =>
         if Rltb (e_time c) a || Rltb b (e_time c) then acc
         else (ext_min (fst acc) c, ext_max (snd acc) c))
       (map (fun t => mkExt t (m t) 0) times) (mn, mx) in
  (e_value (fst r) <= e_value mn /\ (forall c, In c times -> e_value (fst r) <= m c) /\
   (fst r = mn \/ exists c, In c times /\ fst r = mkExt c (m c) 0)) /\
  (e_value mx <= e_value (snd r) /\ (forall c, In c times -> m c <= e_value (snd r)) /\
   (snd r = mx \/ exists c, In c times /\ snd r = mkExt c (m c) 0)).
Proof.
  intros HF. revert mn mx. induction HF as [|c times Hc HF IH]; intros mn mx r.
  - simpl in r. subst r. simpl. repeat split; try lra; auto; intros; contradiction.
  - assert (E : Rltb c a || Rltb b c = false).
    { apply orb_false_intro; apply Rltb_false; lra. }
    subst r. cbn [fold_left map]. cbn [e_time fst snd]. rewrite E.
    specialize (IH (ext_min mn (mkExt c (m c) 0)) (ext_max mx (mkExt c (m c) 0))).
    cbv zeta in IH. set (r := fold_left _ (map _ times) _) in *.
    destruct IH as [(A1 & A2 & A3) (B1 & B2 & B3)].
    unfold ext_min, ext_max in *. simpl in *.
    split; [split; [|split]|split; [|split]].
    + rcase_in A1; simpl in A1; lra.
    + intros x [<-|Hx]; auto. rcase_in A1; simpl in A1; lra.
    + destruct A3 as [A3|(x & Hx & A3)].
      * rcase_in A3; auto. right. exists c. split; [left; auto|auto].
      * right. exists x. split; [right; auto|auto].
    + rcase_in B1; simpl in B1; lra.
    + intros x [<-|Hx]; auto. rcase_in B1; simpl in B1; lra.
    + destruct B3 as [B3|(x & Hx & B3)].
      * rcase_in B3; auto. right. exists c. split; [left; auto|auto].
      * right. exists x. split; [right; auto|auto].
Qed.

(** Minimum/maximum of the magnitude over an interval of a segment. *)
Lemma seg_minmax_spec find_roots s d a b dims mn0 mx0 :
  exact_root_finder find_roots -> seg_wf s -> (d < s_N s)%nat -> a <= b ->
  dims <> [] -> Forall (fun i => (i < s_D s)%nat) dims ->
  exists cands mn mx,
    seg_candidates find_roots s d a b dims = Val cands /\
    seg_select a b cands mn0 mx0 = Val (mn, mx) /\
    is_max_on (fun t => norm_dims (seg_deriv s d t) dims) a b (e_time mx) (e_value mx) /\
    (min_computable s d a b dims ->
     (forall t, a <= t <= b -> norm_dims (seg_deriv s d t) dims < DBL_MAX) ->
     is_min_on (fun t => norm_dims (seg_deriv s d t) dims) a b (e_time mn) (e_value mn)).
Proof.
  intros HR Hwf Hd Hab Hne HF.
  destruct (seg_candidate_times_spec find_roots s d a b dims HR Hwf Hd Hab Hne HF)
    as (c & E & HFc & (xM & IM & MM) & Hm).
  unfold seg_candidates. rewrite E.
  set (m := fun t => norm_dims (seg_deriv s d t) dims).
  assert (Em : forall t, seg_magnitude s d dims t = m t).
  { intros; apply seg_magnitude_norm; auto. }
  assert (Es : forall t, m t = sqrt (sq_sum s d dims t)).
  { intros. rewrite <- Em. reflexivity. }
  assert (Eab : Rltb b a = false) by (apply Rltb_false; auto).
  exists (map (fun t => mkExt t (seg_magnitude s d dims t) 0) c).
  unfold seg_select. rewrite Eab.
  rewrite (map_ext (fun t => mkExt t (seg_magnitude s d dims t) 0) (fun t => mkExt t (m t) 0))
    by (intros; rewrite Em; reflexivity).
  pose proof (seg_select_fold a b m c (mkExt (e_time mn0) DBL_MAX (e_seg mn0))
                (mkExt (e_time mx0) (- DBL_MAX) (e_seg mx0)) HFc) as HS.
  cbv zeta in HS.
  match goal with |- context [fold_left ?f ?l ?i] => set (r := fold_left f l i) in * end.
  exists (fst r), (snd r).
  split; [reflexivity|]. split; [destruct r; reflexivity|].
  generalize (fst r) (snd r) HS. clear HS r. intros mn mx HS.
  simpl in HS. destruct HS as [(A1 & A2 & A3) (B1 & B2 & B3)].
  rewrite Forall_forall in HFc.
  split.
  - specialize (B2 xM IM).
    assert (0 <= m xM) by (rewrite Es; apply sqrt_pos).
    pose proof DBL_MAX_pos.
    destruct B3 as [->|(x & Hx & ->)]; simpl in *; [lra|].
    split; [auto|]. split; [auto|]. intros y Hy. specialize (MM y Hy).
    fold m in B2 |- *. rewrite !Es in *. eapply Rle_trans; [apply sqrt_le_1_alt; exact MM|]. exact B2.
  - intros Hlen Hrange. destruct (Hm Hlen) as (xm & Im & Mm). specialize (A2 xm Im).
    specialize (Hrange xm (HFc xm Im)). fold (m xm) in Hrange.
    destruct A3 as [->|(x & Hx & ->)]; simpl in *; [lra|].
    split; [auto|]. split; [auto|]. intros y Hy. specialize (Mm y Hy).
    rewrite !Es in *. eapply Rle_trans; [exact A2|]. apply sqrt_le_1_alt. exact Mm.
Qed.

(* ------------------------------------------------------------------ *)
(** ** Trajectories *)

Lemma norm_dims_nonneg v dims : 0 <= norm_dims v dims.
Proof. apply sqrt_pos. Qed.

Lemma nth_error_mid {A} (pre : list A) s rest : nth_error (pre ++ s :: rest) (length pre) = Some s.
Proof. rewrite nth_error_app2, Nat.sub_diag by lia. reflexivity. Qed.
Lemma nth_error_pre {A} (pre : list A) l i x :
  nth_error pre i = Some x -> nth_error (pre ++ l) i = Some x.
Proof. intros. rewrite nth_error_app1; auto. apply nth_error_Some. congruence. Qed.

Lemma traj_minmax_loop_spec find_roots d dims N D segs pre mn mx :
  exact_root_finder find_roots -> (d < N)%nat -> dims <> [] -> Forall (fun i => (i < D)%nat) dims ->
  Forall (fun s => seg_wf s /\ s_D s = D /\ s_N s = N) segs ->
  Forall (fun s => 0 <= s_time s) segs ->
  (pre = [] /\ e_value mx < 0 \/ traj_max_spec pre d dims mx) ->
  exists mn' mx', traj_minmax_loop find_roots segs d dims (length pre) mn mx = Val (mn', mx') /\
    (pre ++ segs <> [] -> traj_max_spec (pre ++ segs) d dims mx') /\
    ((forall s, In s (pre ++ segs) -> min_computable s d 0 (s_time s) dims) ->
     (forall s t, In s (pre ++ segs) -> 0 <= t <= s_time s -> norm_dims (seg_deriv s d t) dims < DBL_MAX) ->
     (pre = [] /\ e_value mn = DBL_MAX \/ traj_min_spec pre d dims mn) ->
     pre ++ segs <> [] -> traj_min_spec (pre ++ segs) d dims mn').
Proof.
  intros HR Hd Hne HD. revert pre mn mx.
  induction segs as [|s segs IH]; intros pre mn mx Hwf HT Hmx.
  - exists mn, mx. rewrite app_nil_r. split; [reflexivity|]. split.
    + intros Hp. destruct Hmx as [[]|]; congruence || auto.
    + intros _ _ [[]|H] Hp; [congruence|auto].
  - inversion Hwf as [|? ? [W1 [W2 W3]] W4]; subst. inversion HT as [|? ? T1 T2]; subst.
    destruct (seg_minmax_spec find_roots s d 0 (s_time s) dims ext_default ext_default)
      as (cands & mnc & mxc & E1 & E2 & HM & Hm); auto.
    simpl. rewrite E1, E2.
    set (mn1 := if Rltb (e_value mnc) (e_value mn) then mkExt (e_time mnc) (e_value mnc) (length pre) else mn).
    set (mx1 := if Rltb (e_value mx) (e_value mxc) then mkExt (e_time mxc) (e_value mxc) (length pre) else mx).
    destruct HM as (M1 & M2 & M3).
    pose proof (norm_dims_nonneg (seg_deriv s d (e_time mxc)) dims) as Hnn.
    assert (Hmx1 : traj_max_spec (pre ++ [s]) d dims mx1).
    { unfold mx1. rcase.
      - split; simpl.
        + exists s. split; [apply nth_error_mid|]. split; auto.
        + intros s' t Hin Ht. apply in_app_or in Hin as [Hin|[<-|[]]]; [|apply M3; auto].
          destruct Hmx as [[-> ?]|[_ Hmx]]; [contradiction|]. specialize (Hmx s' t Hin Ht). lra.
      - destruct Hmx as [[-> ?]|[(s0 & H1 & H2) H3]]; [lra|]. split.
        + exists s0. split; [apply nth_error_pre; auto|auto].
        + intros s' t Hin Ht. apply in_app_or in Hin as [Hin|[<-|[]]]; [apply H3; auto|].
          specialize (M3 t Ht). lra. }
    specialize (IH (pre ++ [s]) mn1 mx1).
    rewrite app_length, Nat.add_1_r, <- app_assoc in IH. simpl in IH.
    destruct IH as (mn' & mx' & R1 & R2 & R3); auto.
    exists mn', mx'. split; [exact R1|]. split; [auto|].
    intros Hlen Hrange Hmn Hp. apply R3; auto. right.
    destruct Hm as (m1 & m2 & m3); auto.
    { apply Hlen, in_or_app; right; left; auto. }
    { intros t Ht. apply (Hrange s); auto. apply in_or_app; right; left; auto. }
    assert (Hlt : e_value mnc < DBL_MAX).
    { rewrite <- m2. apply (Hrange s); auto. apply in_or_app; right; left; auto. }
    unfold mn1. rcase.
    + split; simpl.
      * exists s. split; [apply nth_error_mid|]. split; auto.
      * intros s' t Hin Ht. apply in_app_or in Hin as [Hin|[<-|[]]]; [|apply m3; auto].
        destruct Hmn as [[-> ?]|[_ Hmn]]; [contradiction|]. specialize (Hmn s' t Hin Ht). lra.
    + destruct Hmn as [[-> ?]|[(s0 & H1 & H2) H3]]; [lra|]. split.
      * exists s0. split; [apply nth_error_pre; auto|auto].
      * intros s' t Hin Ht. apply in_app_or in Hin as [Hin|[<-|[]]]; [apply H3; auto|].
        specialize (m3 t Ht). lra.
Qed.

Lemma traj_minmax_spec find_roots tr d dims :
  exact_root_finder find_roots -> traj_wf tr -> t_segs tr <> [] ->
  Forall (fun s => 0 <= s_time s) (t_segs tr) -> (d < t_N tr)%nat ->
  dims <> [] -> Forall (fun i => (i < t_D tr)%nat) dims ->
  exists mn mx, traj_minmax find_roots tr d dims = Val (mn, mx) /\
    traj_max_spec (t_segs tr) d dims mx /\
    ((forall s, In s (t_segs tr) -> min_computable s d 0 (s_time s) dims) ->
     (forall s t, In s (t_segs tr) -> 0 <= t <= s_time s -> norm_dims (seg_deriv s d t) dims < DBL_MAX) ->
     traj_min_spec (t_segs tr) d dims mn).
Proof.
  intros HR [Hwf _] Hne HT Hd Hdims HD.
  pose proof DBL_MAX_pos.
  destruct (traj_minmax_loop_spec find_roots d dims (t_N tr) (t_D tr) (t_segs tr) []
              (mkExt 0 DBL_MAX 0) (mkExt 0 (- DBL_MAX) 0))
    as (mn & mx & E & HM & Hm); auto.
  - left; split; auto; simpl; lra.
  - exists mn, mx. split; [exact E|]. simpl in *. split; [auto|]. intros. apply Hm; auto.
Qed.

(* ------------------------------------------------------------------ *)
(** ** An exact root finder exists *)

Lemma synthetic_division p a :
  exists q, length q = (length p - 1)%nat /\ forall x, pval p x = (x - a) * pval q x + pval p a.
Proof.
  induction p as [|c p IH].
  - exists []. split; [reflexivity|]. intros; simpl; lra.
  - destruct p as [|c1 p'].
    + exists []. split; [reflexivity|]. intros; simpl; lra.
    + destruct IH as (q & Hl & Hq).
      exists (pval (c1 :: p') a :: q). split; [simpl in *; lia|].
      intros x. change (pval (c :: c1 :: p') x) with (c + x * pval (c1 :: p') x).
      change (pval (c :: c1 :: p') a) with (c + a * pval (c1 :: p') a).
      change (pval (pval (c1 :: p') a :: q) x) with (pval (c1 :: p') a + x * pval q x).
      rewrite (Hq x). ring.
Qed.

Lemma finitely_many_roots p :
  (exists x, pval p x <> 0) -> exists l, forall x, pval p x = 0 -> In x l.
Proof.
  remember (length p) as n. revert p Heqn. induction n; intros p Hn [x Hx].
  - destruct p; [simpl in Hx; lra|discriminate].
  - destruct (classic (exists a, pval p a = 0)) as [[a Ha]|Hno].
    + destruct (synthetic_division p a) as (q & Hl & Hq).
      destruct (IHn q) as (l & Hlq).
      * lia.
      * exists x. intros E. apply Hx. rewrite (Hq x), E, Ha. ring.
      * exists (a :: l). intros y Hy. rewrite (Hq y), Ha, Rplus_0_r in Hy.
        apply Rmult_integral in Hy as [Hy|Hy]; [left; lra|right; auto].
    + exists []. intros y Hy. exfalso; eauto.
Qed.

Lemma compute_minmax_inverted find_roots p a b k :
  b < a -> compute_minmax find_roots p a b k = None.
Proof.
  intros H. unfold compute_minmax, compute_candidates, select_candidates_from_roots.
  destruct (_ <? _)%nat; auto. rcase; [reflexivity|lra].
Qed.

Lemma big_lt_DBL_MAX : 2 ^ 1000 < DBL_MAX.
Proof.
  unfold DBL_MAX. rewrite <- (Rmult_1_l (2 ^ 1000)).
  assert (/ 2 ^ 52 < 1).
  { rewrite <- Rinv_1. apply Rinv_lt_contravar; [|apply Rlt_pow_R1; [lra|lia]].
    rewrite Rmult_1_l. apply pow_lt; lra. }
  apply Rmult_le_0_lt_compat; [lra|apply pow_le; lra|lra|apply Rlt_pow; [lra|lia]].
Qed.
Lemma small_lt_DBL_MAX x : x < 1000 -> x < DBL_MAX.
Proof.
  intros. eapply Rlt_trans; [exact H|]. eapply Rlt_trans; [|exact big_lt_DBL_MAX].
  assert (2 ^ 10 < 2 ^ 1000) by (apply Rlt_pow; [lra|lia]). 
  assert (1000 < 2 ^ 10) by (simpl; lra). eapply Rlt_trans; eauto.
Qed.

Lemma minmax_example :
  let p := [0; -2; 1] in
  let find_roots := fun _ : list R => [(1, 0)] in
  roots_complete DBL_EPS (find_roots (get_coefficients p 1)) (Derive_n (pval p) 1) 0 3 /\
  (forall t, 0 <= t <= 3 -> Rabs (Derive_n (pval p) 0 t) < DBL_MAX) /\
  compute_minmax find_roots p 0 3 0 = Some ((1, -1), (3, 3)).
Proof.
  cbv zeta. split; [|split].
  - intros _ x Hx E. rewrite <- poly_evaluate_Derive_n in E. cbn in E.
    exists 0. rewrite Rabs_R0. split; [left; apply DBL_EPS_pos|]. left. f_equal. lra.
  - intros t Ht. rewrite <- poly_evaluate_Derive_n. cbn. apply small_lt_DBL_MAX.
    apply Rabs_def1; nra.
  - unfold compute_minmax, compute_candidates, select_candidates_from_roots.
    cbn [length Nat.ltb Nat.leb].
    destruct (Rltb 3 0) eqn:E; [apply Rltb_true in E; lra|]. clear E.
    cbn [filter fst snd map].
    replace (Rltb DBL_EPS (Rabs 0)) with false
      by (symmetry; apply Rltb_false; rewrite Rabs_R0; left; apply DBL_EPS_pos).
    replace (Rltb 1 0) with false by (symmetry; apply Rltb_false; lra).
    replace (Rltb 3 1) with false by (symmetry; apply Rltb_false; lra).
    cbn [negb andb orb map fst].
    unfold select_minmax_from_candidates. cbn [fold_left].
    pose proof DBL_MAX_pos. pose proof (small_lt_DBL_MAX 3 ltac:(lra)).
    pose proof (small_lt_DBL_MAX 0 ltac:(lra)).
    assert (V0 : poly_evaluate [0; -2; 1] 0 0 = 0) by (cbn; lra).
    assert (V3 : poly_evaluate [0; -2; 1] 3 0 = 3) by (cbn; lra).
    assert (V1 : poly_evaluate [0; -2; 1] 1 0 = -1) by (cbn; lra).
    unfold minmax_step at 3. rewrite V0. cbn [fst snd].
    replace (Rltb 0 DBL_MAX) with true by (symmetry; apply Rltb_true; lra).
    replace (Rltb (- DBL_MAX) 0) with true by (symmetry; apply Rltb_true; lra).
    unfold minmax_step at 2. rewrite V3. cbn [fst snd].
    replace (Rltb 3 0) with false by (symmetry; apply Rltb_false; lra).
    replace (Rltb 0 3) with true by (symmetry; apply Rltb_true; lra).
    unfold minmax_step. rewrite V1. cbn [fst snd].
    replace (Rltb (-1) 0) with true by (symmetry; apply Rltb_true; lra).
    replace (Rltb 3 (-1)) with false by (symmetry; apply Rltb_false; lra).
    reflexivity.
Qed.
