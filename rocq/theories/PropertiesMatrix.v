(** C83: the matrices handed out by the linear optimiser. *)
From Coq Require Import Reals Lra Lia List Bool ZArith Arith Permutation.
From Coquelicot Require Import Coquelicot.
From Verif Require Import Base PolyModel PolySpec PolyProofs VertexModel VertexProofs TrajModel TrajSpec
  LinOptModel LinOptSpec LinAlg LinReorder LinInverse LinProofs LinCost LinFinal MatrixModel PropertiesLin.
Import List ListNotations.
Set Bullet Behavior "Strict Subproofs".
Local Open Scope R_scope.

(** ** Specification *)
(** All polynomial coefficients of one dimension, segment after segment. *)
Definition all_coefficients (N : nat) (segs : list segment) (dim : nat) : nat -> R :=
  fun r => nth (r mod N) (nth dim (s_polys (nth (r / N) segs (seg_new N 0))) []) 0.
(** Fixed and free constraints of one dimension, stacked. *)
Definition all_constraints (o : opt) (dim : nat) : nat -> R :=
  fun c => nth c (fixed_compact o dim ++ nth dim (o_dp o) []) 0.
(** The state after setFreeConstraints or solveLinear. *)
Definition solved (inv : inverse_routine) (qr : solve_routine) (N D : nat) (vs : list vertex) (d : nat) (o' : opt) : Prop :=
  exists o, opt_use inv qr N D vs d o /\ ((exists dp, set_free N dp o = Some o') \/ o' = solve_linear qr N o).

(** ** Lemmas *)
Lemma block_entry N blocks i j r c : (r < N)%nat -> (c < N)%nat ->
  block_diag N blocks (i * N + r)%nat (j * N + c)%nat = if (i =? j)%nat then nth i blocks (fun _ _ => 0) r c else 0.
Proof.
  intros Hr Hc. unfold block_diag. rewrite !Nat.div_add_l, !Nat.div_small, !Nat.add_0_r by lia.
  replace (i * N + r)%nat with (r + i * N)%nat by lia. replace (j * N + c)%nat with (c + j * N)%nat by lia.
  rewrite !Nat.mod_add, !Nat.mod_small by lia. reflexivity.
Qed.
Lemma block_mvec N n blocks x i r : (i < n)%nat -> (r < N)%nat ->
  rsum (N * n) (fun k => block_diag N blocks (i * N + r)%nat k * x k) =
  rsum N (fun c => nth i blocks (fun _ _ => 0) r c * x (i * N + c)%nat).
Proof.
  intros Hi Hr. rewrite rsum_blocks, (rsum_single n i); auto.
  - apply rsum_ext. intros c Hc. rewrite block_entry by auto. now rewrite Nat.eqb_refl.
  - intros j Hj Hne. apply rsum_zero. intros c Hc. rewrite block_entry by auto.
    destruct (Nat.eqb_spec i j); [congruence|ring].
Qed.
Lemma block_split N n a : (N <> 0)%nat -> (a < N * n)%nat -> exists i r, (i < n)%nat /\ (r < N)%nat /\ a = (i * N + r)%nat.
Proof.
  intros HN Ha. exists (a / N)%nat, (a mod N)%nat. split; [apply Nat.div_lt_upper_bound; lia|].
  split; [apply Nat.mod_upper_bound; auto|]. rewrite (Nat.div_mod a N) at 1 by auto. lia.
Qed.
Lemma block_eqb N i r j c : (r < N)%nat -> (c < N)%nat ->
  (i * N + r =? j * N + c)%nat = ((i =? j) && (r =? c))%nat.
Proof.
  intros Hr Hc. destruct (Nat.eqb_spec (i * N + r) (j * N + c)) as [E|E], (Nat.eqb_spec i j) as [->|Ne]; cbn.
  - symmetry. apply Nat.eqb_eq. lia.
  - exfalso. apply Ne. apply (f_equal (fun a => a / N)%nat) in E. rewrite !Nat.div_add_l, !Nat.div_small in E by lia. lia.
  - symmetry. apply Nat.eqb_neq. lia.
  - reflexivity.
Qed.
Lemma block_inverse N n As Bs : (N <> 0)%nat ->
  (forall i, (i < n)%nat -> is_inverse N (nth i As (fun _ _ => 0)) (nth i Bs (fun _ _ => 0))) ->
  is_inverse (N * n) (block_diag N As) (block_diag N Bs).
Proof.
  intros HN H a b Ha Hb. destruct (block_split N n a HN Ha) as (i & r & Hi & Hr & ->).
  destruct (block_split N n b HN Hb) as (j & c & Hj & Hc & ->).
  rewrite !block_mvec, block_eqb by auto. destruct (Nat.eqb_spec i j) as [->|Ne]; cbn [andb].
  - destruct (H j Hj r c Hr Hc) as [X Y].
    split; [rewrite <- X|rewrite <- Y]; apply rsum_ext; intros k Hk; rewrite block_entry by auto; now rewrite Nat.eqb_refl.
  - split; apply rsum_zero; intros k Hk; rewrite block_entry by auto; destruct (Nat.eqb_spec i j); try congruence; ring.
Qed.
Lemma n_segments_times inv N D vs d o : ready inv N D vs d o -> n_segments o = length (o_times o).
Proof. intros RD. unfold n_segments. rewrite (rd_vertices_len inv N D vs d o RD). lia. Qed.
Lemma get_A_defined inv N D vs d o : ready inv N D vs d o ->
  get_A N o = Some (block_diag N (map (mapping_matrix N) (o_times o))).
Proof.
  intros RD. unfold get_A. replace (forallb _ _) with true; auto. symmetry. apply forallb_pos. apply (rd_pos _ _ _ _ _ _ RD).
Qed.
Lemma nth_mapping N l i : (i < length l)%nat -> nth i (map (mapping_matrix N) l) (fun _ _ => 0) = mapping_matrix N (nth i l 0).
Proof.
  intros H. rewrite nth_indep with (d' := mapping_matrix N 0) by (rewrite map_length; auto).
  exact (map_nth (mapping_matrix N) l 0 i).
Qed.
Lemma solved_form inv qr N D vs d o' : solved inv qr N D vs d o' ->
  exists o dp, ready inv N D vs d o /\ length dp = D /\ o' = update_segments N dp o.
Proof.
  intros (o & U & H). pose proof (opt_use_ready _ _ _ _ _ _ _ U) as RD. exists o. destruct H as [(dp & F)| ->].
  - destruct (set_free_inv _ _ _ _ F) as (-> & L & _). exists dp. rewrite (rd_D _ _ _ _ _ _ RD) in L. auto.
  - destruct (solve_linear_dp inv qr N D vs d o RD) as (dp & E & L). exists dp. auto.
Qed.

(** ** Theorems *)

(** getA() and getAInverse() are inverse to each other. *)
Theorem C83_A_inverse : forall (inv : inverse_routine) (qr : solve_routine) (N D : nat) (vs : list vertex) (d : nat) (o : opt),
  exact_inverse inv -> valid_size N -> opt_use inv qr N D vs d o -> usable_times (o_times o) ->
  exists A, get_A N o = Some A /\ is_inverse (N * n_segments o) A (get_A_inverse N o).
Proof.
  intros inv qr N D vs d o HI V U UT. pose proof (opt_use_ready _ _ _ _ _ _ _ U) as RD.
  rewrite (get_A_defined inv N D vs d o RD). eexists. split; [reflexivity|].
  rewrite (n_segments_times inv N D vs d o RD). apply block_inverse; [destruct V; lia|].
  intros i Hi. rewrite nth_mapping by auto. now apply (inv_ok inv N D vs d o).
Qed.

(** getA() maps coefficients to the derivatives at both ends of the segments. *)
Theorem C83_A_meaning : forall (inv : inverse_routine) (qr : solve_routine) (N D : nat) (vs : list vertex) (d : nat) (o : opt) (A : mat),
  valid_size N -> opt_use inv qr N D vs d o -> usable_times (o_times o) -> get_A N o = Some A ->
  forall (ps : list poly), Forall (fun p => length p = N) ps -> length ps = n_segments o ->
  forall i k, (i < n_segments o)%nat -> (k < N / 2)%nat ->
    let x := fun r => nth (r mod N) (nth (r / N) ps []) 0 in
    rsum (N * n_segments o) (fun c => A (i * N + k)%nat c * x c) = Derive_n (pval (nth i ps [])) k 0 /\
    rsum (N * n_segments o) (fun c => A (i * N + (N / 2 + k))%nat c * x c) = Derive_n (pval (nth i ps [])) k (nth i (o_times o) 0).
Proof.
  intros inv qr N D vs d o A V U UT EA ps FP LP i k Hi Hk x. pose proof (opt_use_ready _ _ _ _ _ _ _ U) as RD.
  destruct (valid_half N V) as [EN HN]. rewrite (get_A_defined inv N D vs d o RD) in EA. injection EA as <-.
  rewrite !block_mvec by (auto; lia). rewrite (n_segments_times inv N D vs d o RD) in *.
  rewrite nth_mapping by auto.
  assert (LI : length (nth i ps []) = N). { rewrite Forall_forall in FP. apply FP, nth_In. unfold poly in *. lia. }
  assert (X : forall c, (c < N)%nat -> x (i * N + c)%nat = nth c (nth i ps []) 0).
  { intros c Hc. unfold x. rewrite Nat.div_add_l, Nat.div_small, Nat.add_0_r by lia.
    replace (i * N + c)%nat with (c + i * N)%nat by lia. now rewrite Nat.mod_add, Nat.mod_small by lia. }
  destruct (C54_mapping_meaning N (nth i (o_times o) 0) k (nth i ps []) V LI (time_nth o UT i Hi) Hk) as [Y Z].
  rewrite <- Y, <- Z. split; apply rsum_ext; intros c Hc; now rewrite X.
Qed.

(** After a solution the coefficients are A^-1 M d, with d the fixed and free
    constraints handed out. *)
Theorem C83_coefficients : forall (inv : inverse_routine) (qr : solve_routine) (N D : nat) (vs : list vertex) (d : nat) (o : opt),
  valid_size N -> solved inv qr N D vs d o ->
  forall dim r, (dim < D)%nat -> (r < N * n_segments o)%nat ->
  all_coefficients N (o_segs o) dim r =
  rsum (N * n_segments o) (fun k => get_A_inverse N o r k *
    rsum (n_fixed o + n_free o) (fun c => get_M o k c * all_constraints o dim c)).
Proof.
  intros inv qr N D vs d o' V SO dim r Hd Hr. destruct (solved_form _ _ _ _ _ _ _ SO) as (o & dp & RD & LD & ->).
  assert (HN : (N <> 0)%nat) by (destruct V; lia).
  assert (NS : n_segments (update_segments N dp o) = length (o_times o)) by exact (n_segments_times inv N D vs d o RD).
  rewrite NS in *. destruct (block_split N _ r HN Hr) as (i & k & Hi & Hk & ->).
  unfold get_A_inverse. rewrite block_mvec by auto. unfold all_coefficients.
  rewrite Nat.div_add_l, Nat.div_small, Nat.add_0_r by lia.
  replace (i * N + k)%nat with (k + i * N)%nat by lia. rewrite Nat.mod_add, Nat.mod_small by lia.
  assert (EI : nth i (o_segs (update_segments N dp o)) (seg_new N 0) =
    mkSeg (nth i (o_times o) 0) N D (map (segment_coeffs N o dp i) (seq 0 D))).
  { apply nth_error_nth. exact (the_segs_nth inv N D vs d o RD dp i Hi). }
  rewrite EI. cbn [s_polys].
  rewrite nth_indep with (d' := segment_coeffs N o dp i 0) by (rewrite map_length, seq_length; auto).
  rewrite (map_nth (segment_coeffs N o dp i)), seq_nth by auto. cbn [Nat.add].
  unfold segment_coeffs. cbv zeta. rewrite nth_map_seq by auto. reflexivity.
Qed.

Lemma all_cons_count_tail D h n : forall vs idx, (1 <= idx)%nat -> (idx + length vs = S n)%nat -> (1 <= length vs)%nat ->
  length (all_cons D h n idx vs) = ((2 * length vs - 1) * h)%nat.
Proof.
  induction vs as [|v vs IH]; intros idx Hi L HL; [cbn in HL; lia|]. cbn [all_cons]. rewrite app_length.
  replace (idx =? 0)%nat with false by (symmetry; apply Nat.eqb_neq; lia). cbn [orb].
  destruct vs as [|w vs].
  - cbn [length] in L. replace (idx =? n)%nat with true by (symmetry; apply Nat.eqb_eq; lia).
    rewrite vertex_cons_length. cbn. lia.
  - cbn [length] in L. replace (idx =? n)%nat with false by (symmetry; apply Nat.eqb_neq; lia).
    rewrite app_length, !vertex_cons_length. rewrite IH by (cbn [length]; lia). cbn [length]. nia.
Qed.
Lemma all_cons_count D h vs : (2 <= length vs)%nat -> length (all_cons D h (length vs - 1) 0 vs) = (2 * (length vs - 1) * h)%nat.
Proof.
  intros L. destruct vs as [|v vs]; [cbn in L; lia|]. cbn [all_cons Nat.eqb orb]. rewrite app_length, vertex_cons_length.
  cbn [length] in *. rewrite all_cons_count_tail by lia. nia.
Qed.
Lemma NoDup_list_prod {A B} (l : list A) (l' : list B) : NoDup l -> NoDup l' -> NoDup (list_prod l l').
Proof.
  intros H H'. induction H as [|a l Ha H IH]; cbn [list_prod]; [constructor|].
  assert (X : forall (m : list (A * B)) , NoDup m -> (forall b, ~ In (a, b) m) -> NoDup (map (fun y => (a, y)) l' ++ m)).
  { intros m Hm Hn. clear IH. induction H' as [|b l' Hb H' IH]; cbn; auto. constructor; auto.
    rewrite in_app_iff, in_map_iff. intros [(y & E & I)|I]; [injection E as ->; auto|]. now apply (Hn b). }
  apply X; auto. intros b I. apply in_prod_iff in I. tauto.
Qed.

(** Every column of M has an entry, so getMpinv() does not divide by zero; it is
    a left inverse and the Moore-Penrose pseudo-inverse. *)
Section Pinv.
Variables (inv : inverse_routine) (N D : nat) (vs : list vertex) (d : nat) (o : opt).
Hypothesis V : valid_size N.
Hypothesis RD : ready inv N D vs d o.
Hypothesis H2 : (2 <= length vs)%nat.
Let cols := o_fixed o ++ o_free o.
Let n := (N * n_segments o)%nat.
Lemma cols_nodup : NoDup (map key cols).
Proof. unfold cols. rewrite (rd_fixed _ _ _ _ _ _ RD), (rd_free _ _ _ _ _ _ RD). apply columns_nodup. Qed.
Lemma M_01 r c : o_M o r c = 0 \/ o_M o r c = 1.
Proof.
  unfold o_M, reordering. destruct (nth_error (o_rows o) r); auto. destruct (nth_error _ c); auto. destruct (con_eqb _ _); auto.
Qed.
(** Two columns have no row in common. *)
Lemma M_disjoint r c c' : o_M o r c = 1 -> o_M o r c' = 1 -> c = c'.
Proof.
  unfold o_M, reordering. fold cols. destruct (nth_error (o_rows o) r) as [a|]; [|intros; lra].
  destruct (nth_error cols c) as [b|] eqn:Eb; [|intros; lra]. destruct (nth_error cols c') as [b'|] eqn:Eb'; [|intros; lra].
  destruct (con_eqb a b) eqn:E; [|intros; lra]. destruct (con_eqb a b') eqn:E'; [|intros; lra]. intros _ _.
  apply con_eqb_key in E. apply con_eqb_key in E'. apply (nodup_key_nth cols c c' b b' cols_nodup Eb Eb'). congruence.
Qed.
Lemma rows_length : length (o_rows o) = n.
Proof.
  rewrite (rd_rows _ _ _ _ _ _ RD), map_length. pose proof (rd_vertices_len inv N D vs d o RD) as L.
  pose proof (rd_len _ _ _ _ _ _ RD) as L2. destruct (valid_half N V) as [EN HN].
  unfold n, n_segments. rewrite EN at 2. destruct (o_vertices o) as [|v [|w l]]; cbn [length] in L; try lia.
  rewrite all_cons_count by (cbn [length]; lia). cbn [length]. nia.
Qed.
Lemma M_hit c : (c < length cols)%nat -> exists r, (r < n)%nat /\ o_M o r c = 1.
Proof.
  intros Hc. destruct (nth_error cols c) as [b|] eqn:E; [|apply nth_error_None in E; lia].
  assert (I : In b cols) by (eapply nth_error_In; eauto).
  assert (X : exists bc, In bc (all_cons D (N / 2) (length (o_vertices o) - 1) 0 (o_vertices o)) /\ key (snd bc) = key b).
  { unfold cols in I. rewrite (rd_fixed _ _ _ _ _ _ RD), (rd_free _ _ _ _ _ _ RD) in I. apply in_app_iff in I.
    assert (Y : forall fx, In b (con_set fx (all_cons D (N / 2) (length (o_vertices o) - 1) 0 (o_vertices o))) ->
      exists bc, In bc (all_cons D (N / 2) (length (o_vertices o) - 1) 0 (o_vertices o)) /\ key (snd bc) = key b).
    { intros fx Hb. destruct (set_elem D (N / 2) (o_vertices o) fx b Hb) as (j & k & Hj & Hk & E1).
      exists (con_at D (o_vertices o) j k). split.
      - apply in_all; auto. pose proof (rd_vertices_len inv N D vs d o RD). pose proof (rd_len _ _ _ _ _ _ RD). lia.
      - now rewrite E1. }
    destruct I; eauto. }
  destruct X as (bc & IB & K). apply (in_map snd) in IB. rewrite <- (rd_rows _ _ _ _ _ _ RD) in IB.
  apply In_nth_error in IB. destruct IB as (r & Er). exists r. split.
  - rewrite <- rows_length. apply nth_error_Some. congruence.
  - unfold o_M, reordering. fold cols. rewrite Er, E. apply con_eqb_key in K. now rewrite K.
Qed.
Lemma colsum_pos c : (c < length cols)%nat -> 0 < rsum n (fun k => o_M o k c).
Proof.
  intros Hc. destruct (M_hit c Hc) as (r & Hr & E). apply Rlt_le_trans with (rsum n (fun k => if (k =? r)%nat then 1 else 0)).
  - rewrite (rsum_single n r); [rewrite Nat.eqb_refl; lra|auto|]. intros k _ Hk. destruct (Nat.eqb_spec k r); [congruence|auto].
  - apply rsum_le. intros k Hk. destruct (Nat.eqb_spec k r) as [->|]; [lra|]. destruct (M_01 k c); lra.
Qed.
Lemma pinv_left c c' : (c < length cols)%nat -> (c' < length cols)%nat ->
  rsum n (fun k => get_Mpinv N o c k * o_M o k c') = if (c =? c')%nat then 1 else 0.
Proof.
  intros Hc Hc'. unfold get_Mpinv. fold n. pose proof (colsum_pos c Hc) as P. set (S0 := rsum n (fun k => o_M o k c)) in *.
  destruct (Nat.eqb_spec c c') as [<-|Ne].
  - transitivity (/ S0 * S0); [|field; lra]. unfold S0 at 3. rewrite <- rsum_scal. apply rsum_ext. intros k Hk.
    destruct (M_01 k c) as [->| ->]; field; lra.
  - apply rsum_zero. intros k Hk. destruct (M_01 k c) as [->|E]; [unfold Rdiv; ring|].
    destruct (M_01 k c') as [->|E']; [ring|]. exfalso. apply Ne. exact (M_disjoint k c c' E E').
Qed.
End Pinv.

Theorem C83_pseudo_inverse : forall (inv : inverse_routine) (qr : solve_routine) (N D : nat) (vs : list vertex) (d : nat) (o : opt),
  valid_size N -> (2 <= length vs)%nat -> opt_use inv qr N D vs d o ->
  let n := (N * n_segments o)%nat in
  let m := (n_fixed o + n_free o)%nat in
  (forall c, (c < m)%nat -> 0 < rsum n (fun r => get_M o r c)) /\
  (forall c c', (c < m)%nat -> (c' < m)%nat ->
     rsum n (fun k => get_Mpinv N o c k * get_M o k c') = if (c =? c')%nat then 1 else 0) /\
  (forall r r', rsum m (fun c => get_M o r c * get_Mpinv N o c r') = rsum m (fun c => get_M o r' c * get_Mpinv N o c r)).
Proof.
  intros inv qr N D vs d o V H2 U n m. pose proof (opt_use_ready _ _ _ _ _ _ _ U) as RD.
  assert (EM : m = length (o_fixed o ++ o_free o)) by (unfold m, n_fixed, n_free; now rewrite app_length).
  rewrite EM. split; [|split].
  - exact (colsum_pos inv N D vs d o V RD H2).
  - exact (pinv_left inv N D vs d o V RD H2).
  - intros r r'. apply rsum_ext. intros c Hc. unfold get_Mpinv, get_M, Rdiv. ring.
Qed.
(** So the constraints can be read back from the coefficients: d = M^+ A c. *)
Theorem C83_constraints_recovered : forall (inv : inverse_routine) (qr : solve_routine) (N D : nat) (vs : list vertex) (d : nat) (o : opt) (A : mat),
  exact_inverse inv -> valid_size N -> (2 <= length vs)%nat -> solved inv qr N D vs d o -> usable_times (o_times o) ->
  get_A N o = Some A ->
  forall dim c, (dim < D)%nat -> (c < n_fixed o + n_free o)%nat ->
  rsum (N * n_segments o) (fun k => get_Mpinv N o c k *
    rsum (N * n_segments o) (fun r => A k r * all_coefficients N (o_segs o) dim r)) = all_constraints o dim c.
Proof.
  intros inv qr N D vs d o A HI V H2 SO UT EA dim c Hd Hc.
  assert (U : opt_use inv qr N D vs d o).
  { destruct SO as (o0 & U & [(dp & F)| ->]); [eapply use_free; eauto|now apply use_solve]. }
  destruct (C83_A_inverse inv qr N D vs d o HI V U UT) as (A' & EA' & I). rewrite EA in EA'. injection EA' as <-.
  destruct (C83_pseudo_inverse inv qr N D vs d o V H2 U) as (_ & P & _).
  set (n := (N * n_segments o)%nat) in *. set (m := (n_fixed o + n_free o)%nat) in *.
  set (x := all_constraints o dim).
  transitivity (rsum n (fun k => get_Mpinv N o c k * rsum m (fun j => get_M o k j * x j))).
  { apply rsum_ext. intros k Hk. f_equal.
    transitivity (mvec n A (mvec n (get_A_inverse N o) (mvec m (get_M o) x)) k).
    - apply rsum_ext. intros r Hr. f_equal. exact (C83_coefficients inv qr N D vs d o V SO dim r Hd Hr).
    - exact (inverse_cancel n A (get_A_inverse N o) _ k I Hk). }
  transitivity (rsum m (fun j => delta c j * x j)); [|now apply rsum_delta_l].
  transitivity (mvec m (mmul n (get_Mpinv N o) (get_M o)) x c).
  { symmetry. apply (mvec_mmul m n). }
  apply rsum_ext. intros j Hj. f_equal. unfold mmul. rewrite P by auto. reflexivity.
Qed.

(** The counts: a row per derivative and segment end, a column per derivative
    and vertex; fixed are those that the vertices constrain. *)
Definition constrains (vs : list vertex) (jk : nat * nat) : bool :=
  match nth_error vs (fst jk) with
  | Some v => match get_constraint (snd jk) v with Some _ => true | None => false end
  | None => false
  end.
Lemma set_count inv N D vs d o (b : bool) : ready inv N D vs d o -> (2 <= length vs)%nat ->
  length (con_set b (all_cons D (N / 2) (length (o_vertices o) - 1) 0 (o_vertices o))) =
  length (filter (fun jk => eqb (constrains vs jk) b) (list_prod (seq 0 (length vs)) (seq 0 (N / 2)))).
Proof.
  intros RD H2. rewrite <- (map_length key). apply Permutation.Permutation_length. apply Permutation.NoDup_Permutation.
  - rewrite con_set_unfold. apply sorted_keys. destruct (set_fold b (all_cons D (N / 2) (length (o_vertices o) - 1) 0 (o_vertices o)) []) as (A & _).
    apply A. constructor.
  - apply NoDup_filter. apply NoDup_list_prod; apply seq_NoDup.
  - assert (LV : length (o_vertices o) = length vs) by (rewrite (rd_vs _ _ _ _ _ _ RD); apply map_length).
    assert (CA : forall j k, (j < length vs)%nat -> (k < N / 2)%nat -> fst (con_at D (o_vertices o) j k) = constrains vs (j, k)).
    { intros j k Hj Hk. unfold con_at, constrains. cbn [fst snd]. rewrite (rd_vs _ _ _ _ _ _ RD).
      rewrite nth_indep with (d' := drop_high D (N / 2) (vertex_new D)) by (rewrite map_length; auto).
      rewrite map_nth, drop_high_get by auto. rewrite (nth_error_nth' vs (vertex_new D) Hj).
      destruct (get_constraint k _); reflexivity. }
    intros [j k]. rewrite filter_In, in_prod_iff, !in_seq. split.
    + intros H. apply in_map_iff in H. destruct H as (y & Ky & Hy).
      destruct (set_elem D (N / 2) (o_vertices o) b y Hy) as (j' & k' & Hj & Hk & E).
      pose proof (con_at_key D (o_vertices o) j' k') as K. rewrite E in K. cbn [snd] in K. rewrite Ky in K. injection K as -> ->.
      split; [lia|]. rewrite <- CA by lia. rewrite E. cbn. apply eqb_reflx.
    + intros [[Hj Hk] Hb]. apply eqb_prop in Hb. rewrite <- CA in Hb by lia.
      pose proof (set_has D (N / 2) (o_vertices o) j k ltac:(lia) ltac:(lia) ltac:(lia)) as S0. rewrite Hb in S0.
      apply in_map_iff. eexists. split; [|exact S0]. apply con_at_key.
Qed.
Theorem C83_counts : forall (inv : inverse_routine) (qr : solve_routine) (N D : nat) (vs : list vertex) (d : nat) (o : opt),
  valid_size N -> (2 <= length vs)%nat -> opt_use inv qr N D vs d o ->
  n_segments o = (length vs - 1)%nat /\ n_all o = (N * (length vs - 1))%nat /\
  n_fixed o = length (filter (constrains vs) (list_prod (seq 0 (length vs)) (seq 0 (N / 2)))) /\
  (n_fixed o + n_free o = length vs * (N / 2))%nat.
Proof.
  intros inv qr N D vs d o V H2 U. pose proof (opt_use_ready _ _ _ _ _ _ _ U) as RD.
  assert (NS : n_segments o = (length vs - 1)%nat).
  { rewrite (n_segments_times inv N D vs d o RD). rewrite (rd_len _ _ _ _ _ _ RD). lia. }
  split; auto. split; [unfold n_all; rewrite (rows_length inv N D vs d o V RD H2), NS; reflexivity|].
  unfold n_fixed, n_free. rewrite (rd_fixed _ _ _ _ _ _ RD), (rd_free _ _ _ _ _ _ RD).
  rewrite !(set_count inv N D vs d o) by auto. split.
  - f_equal. apply filter_ext. intros jk. destruct (constrains vs jk); reflexivity.
  - rewrite <- (seq_length (length vs) 0) at 3. rewrite <- (seq_length (N / 2) 0) at 3.
    rewrite <- prod_length. generalize (list_prod (seq 0 (length vs)) (seq 0 (N / 2))). clear.
    induction l as [|x l IH]; cbn [filter length]; auto. destruct (constrains vs x); cbn [eqb length]; lia.
Qed.

(** getR() is the matrix of (twice) the cost in terms of the constraints ... *)
Theorem C83_R_cost : forall (inv : inverse_routine) (qr : solve_routine) (N D : nat) (vs : list vertex) (d : nat) (o : opt),
  valid_size N -> solved inv qr N D vs d o ->
  let m := (n_fixed o + n_free o)%nat in
  rsum D (fun dim => rsum m (fun a => all_constraints o dim a * rsum m (fun b => get_R N o a b * all_constraints o dim b))) =
  2 * compute_cost N o.
Proof.
  intros inv qr N D vs d o' V SO m. destruct (solved_form _ _ _ _ _ _ _ SO) as (o & dp & RD & LD & E).
  destruct SO as (o0 & U & H). rewrite (cost_energy_use inv qr N D vs d o0 o' V U H). clear U H o0. subst o'.
  change (o_segs (update_segments N dp o)) with (the_segs N o dp).
  rewrite (energy_E inv N D vs d o V RD dp). apply rsum_ext. intros dim Hd.
  rewrite <- (R_bilinear inv N D vs d o RD). reflexivity.
Qed.
(** ... symmetric and positive semidefinite. *)
Theorem C83_R_semidefinite : forall (inv : inverse_routine) (qr : solve_routine) (N D : nat) (vs : list vertex) (d : nat) (o : opt),
  valid_size N -> opt_use inv qr N D vs d o ->
  let m := (n_fixed o + n_free o)%nat in
  (forall a b, (a < m)%nat -> (b < m)%nat -> get_R N o a b = get_R N o b a) /\
  (forall x, 0 <= rsum m (fun a => x a * rsum m (fun b => get_R N o a b * x b))).
Proof.
  intros inv qr N D vs d o V U m. pose proof (opt_use_ready _ _ _ _ _ _ _ U) as RD. split.
  - intros a b Ha Hb.
    assert (X : forall a b, (a < m)%nat -> (b < m)%nat -> get_R N o a b = E N d o (delta a) (delta b)).
    { intros i j Hi Hj. rewrite <- (R_bilinear inv N D vs d o RD). fold (n_fixed o) (n_free o). fold m.
      rewrite rsum_delta_l by auto. unfold mvec. rewrite (rsum_single m j); auto.
      - unfold delta. rewrite Nat.eqb_refl. unfold get_R. ring.
      - intros k _ Hk. unfold delta. destruct (Nat.eqb_spec j k); [congruence|ring]. }
    rewrite !X by auto. apply E_sym.
  - intros x. pose proof (E_nonneg inv N D vs d o V RD x) as P. rewrite <- (R_bilinear inv N D vs d o RD) in P. exact P.
Qed.

(** ** Example *)
Example C83_example : exists inv qr o, exact_inverse inv /\ solved inv qr 10 3 three_vertices 2 o /\ usable_times (o_times o) /\
  n_segments o = 2%nat /\ n_all o = 20%nat /\ (n_fixed o + n_free o = 15)%nat.
Proof.
  destruct C54_routines_exist as ((inv & HI) & (qr & HQ)).
  destruct (C53_example inv qr) as (o & o' & U & UT & _ & F & VD & V).
  exists inv, qr, o'. split; auto. split; [exists o; eauto|].
  assert (U' : opt_use inv qr 10 3 three_vertices 2 o') by (eapply use_free; eauto).
  split; [destruct (set_free_inv _ _ _ _ F) as (-> & _); exact UT|].
  destruct (C83_counts inv qr 10 3 three_vertices 2 o' V ltac:(cbn; lia) U') as (A & B & _ & C).
  cbn in A, B, C. repeat split; auto.
Qed.
