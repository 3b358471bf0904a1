(** C59: the polynomial root finder findRootsJenkinsTraub (exact arithmetic), and
    what it gives for the extrema of polynomials (C39).  [rdiv] is any division
    (arbitrary results for division by zero). *)
From Coq Require Import Reals List ZArith Arith Lra Lia Bool Psatz Permutation.
From Flocq Require Import Core.
From Coquelicot Require Import Coquelicot.
From Verif Require Import Base PolyModel PolySpec PolyProofs ExtremaProofs PropertiesPoly TrajModel RpolyModel RpolySpec RpolyProofs RpolyMain.
Import List ListNotations.
Local Open Scope R_scope.
Set Bullet Behavior "Strict Subproofs".

(* ------------------------------------------------------------------ *)
(** ** Facts about the specification *)

Lemma cval_app p q x : cval (p ++ q) x = Cplus (Cmult (cval p x) (cpow x (length q))) (cval q x).
Proof.
  assert (PA : forall a b, cpow x (a + b) = Cmult (cpow x a) (cpow x b)).
  { induction a as [|a IH]; intros b; cbn; [ring|]. rewrite IH. ring. }
  induction p as [|c p IH]; cbn [app cval]; [ring|]. rewrite IH, app_length, PA. ring.
Qed.
Lemma cinc_cval cs x : cinc cs x = cval (rev cs) x.
Proof.
  induction cs as [|c cs IH]; cbn [cinc rev]; auto. rewrite cval_app, IH. cbn. ring.
Qed.
Lemma cinc_zeros j cs x : cinc (repeat 0 j ++ cs) x = Cmult (cpow x j) (cinc cs x).
Proof.
  induction j as [|j IH]; cbn [repeat app cinc cpow]; [ring|]. rewrite IH. ring.
Qed.
Lemma zprod_app a b x : zprod (a ++ b) x = Cmult (zprod a x) (zprod b x).
Proof. induction a as [|z a IH]; cbn [app zprod]; [ring|]. rewrite IH. ring. Qed.
Lemma zprod_zeros j x : zprod (repeat (0, 0) j) x = cpow x j.
Proof.
  induction j as [|j IH]; cbn [repeat zprod cpow]; auto. rewrite IH. change (0, 0) with (RtoC 0). ring.
Qed.
Lemma zprod_zero zs x : zprod zs x = RtoC 0 -> In x zs.
Proof.
  induction zs as [|z zs IH]; cbn [zprod]; intros H.
  - exfalso. assert (1 = 0) by (apply (f_equal fst) in H; exact H). lra.
  - destruct (Ceq_dec (Cminus x z) (RtoC 0)) as [E|E].
    + left. replace x with (Cplus (Cminus x z) z) by ring. rewrite E. ring.
    + right. apply IH. destruct (Ceq_dec (zprod zs x) (RtoC 0)) as [Q|Q]; auto.
      exfalso. exact (Cmult_neq_0 _ _ E Q H).
Qed.
Lemma explained_length p ok zs : explained p ok zs ->
  (if ok then length zs = (length p - 1)%nat else (length zs + 4 <= length p)%nat).
Proof.
  intros E. induction E; cbn [length]; try lia.
  - destruct ok; lia.
  - destruct ok; lia.
Qed.
Lemma conj_real z : snd z = 0 -> Cconj z = z.
Proof. destruct z as [a b]. cbn. intros ->. unfold Cconj. cbn. f_equal. lra. Qed.
Lemma conj_pair z1 z2 : z2 = Cconj z1 \/ snd z1 = 0 /\ snd z2 = 0 ->
  forall zs, Permutation (map Cconj zs) zs -> Permutation (map Cconj (z1 :: z2 :: zs)) (z1 :: z2 :: zs).
Proof.
  intros H zs P. cbn [map]. destruct H as [->|[H1 H2]].
  - rewrite Cconj_conj || (replace (Cconj (Cconj z1)) with z1 by (destruct z1; unfold Cconj; cbn; f_equal; lra)).
    eapply perm_trans; [apply perm_swap|]. now repeat apply perm_skip.
  - rewrite !conj_real by auto. now repeat apply perm_skip.
Qed.
Lemma explained_conj p ok zs : explained p ok zs -> Permutation (map Cconj zs) zs.
Proof.
  intros E. induction E; cbn [map]; auto.
  - rewrite conj_real by auto. auto.
  - now apply (conj_pair z1 z2 H0 []).
  - rewrite conj_real by auto. now apply perm_skip.
  - now apply (conj_pair z1 z2 H3 zs).
Qed.

(* ------------------------------------------------------------------ *)
(** ** Building blocks *)

(** Division of a polynomial by x^2 + u x + v: the quotient q (one coefficient
    per coefficient of degree at least two) and the remainder b (x + u) + a. *)
Theorem C59_synthetic_division : forall (u v : R) (p : list R), (2 <= length p)%nat ->
  let '(q, a, b) := quad_sd u v p in
  forall x, cval p x =
    Cplus (Cmult (Cplus (Cmult x x) (Cplus (Cmult (RtoC u) x) (RtoC v))) (cval (firstn (length p - 2) q) x))
          (Cplus (Cmult (RtoC b) (Cplus x (RtoC u))) (RtoC a)).
Proof.
  intros u v p H. pose proof (quad_sd_spec u v p H) as Q. destruct (quad_sd u v p) as [[q a] b]. apply Q.
Qed.
Print Assumptions C59_synthetic_division.

(** The quadratic solver: the two numbers are exactly the zeros with their
    multiplicity, both real or conjugate, the smaller one first; a linear
    equation is solved, a constant one gives two zeros. *)
Theorem C59_quadratic_solver : forall rdiv (a b c : R), divides rdiv ->
  let '(z1, z2) := quad rdiv a b c in
  (a <> 0 -> (forall x, cval [a; b; c] x = Cmult (RtoC a) (Cmult (Cminus x z1) (Cminus x z2))) /\
             (z2 = Cconj z1 \/ snd z1 = 0 /\ snd z2 = 0) /\ Cmod z1 <= Cmod z2) /\
  (a = 0 -> b <> 0 -> cval [a; b; c] z1 = RtoC 0 /\ snd z1 = 0 /\ z2 = RtoC 0) /\
  (a = 0 -> b = 0 -> z1 = RtoC 0 /\ z2 = RtoC 0).
Proof.
  intros rdiv a b c DV. destruct (quad rdiv a b c) as [z1 z2] eqn:E. refine (conj _ (conj _ _)).
  - intros Ha. pose proof (quad_spec rdiv a b c DV Ha) as Q. rewrite E in Q. destruct Q as (Z & CJ & M).
    refine (conj _ (conj _ M)).
    + now apply zeros_of_factor.
    + destruct CJ; auto.
  - intros Ha Hb. unfold quad in E. rewrite (proj2 (is_zero_true a) Ha), (proj2 (is_zero_false b) Hb), DV in E by auto.
    injection E as <- <-. subst a. split; [|split; auto]. cbn. change (- (c / b), 0) with (RtoC (- (c / b))).
    rewrite RtoC_opp. unfold Rdiv. rewrite RtoC_mult, RtoC_inv by auto.
    field. intros Q. apply Hb. now apply RtoC_inj in Q.
  - intros Ha Hb. unfold quad in E. rewrite (proj2 (is_zero_true a) Ha), (proj2 (is_zero_true b) Hb) in E.
    injection E as <- <-. auto.
Qed.
Print Assumptions C59_quadratic_solver.

(* ------------------------------------------------------------------ *)
(** ** The root finder *)

(** It returns (true and) no roots exactly for vectors with at most one
    significant coefficient, the constant one. *)
Theorem C59_no_roots : forall rdiv fuel cs,
  find_roots_jt rdiv fuel cs = Val [] <-> Forall (fun c => Rabs c < least_normal) (tl cs).
Proof.
  intros rdiv fuel cs. unfold find_roots_jt.
  assert (T : forall l, length (drop_small l) = 0%nat <-> Forall (fun c => Rabs c < least_normal) l).
  { induction l as [|x l IH]; cbn [drop_small]; [split; auto|]. rewrite DBLMIN_least. destruct (Rleb _ _) eqn:E.
    - apply Rleb_true in E. split; [discriminate|]. intros F. inversion F. lra.
    - apply Rleb_false in E. rewrite IH. split; [auto|]. intros F. now inversion F. }
  assert (L : (length (drop_small (rev cs)) < 2)%nat <-> Forall (fun c => Rabs c < least_normal) (tl cs)).
  { destruct cs as [|c0 cs]; cbn [rev tl]; [cbn; split; auto; lia|].
    assert (FR : forall l, Forall (fun c => Rabs c < least_normal) (rev l) <-> Forall (fun c => Rabs c < least_normal) l).
    { intros l. rewrite !Forall_forall. split; intros H x Hx; apply H; [now rewrite <- in_rev|now apply in_rev]. }
    rewrite <- FR. generalize (rev cs) as l. intros l. induction l as [|x l IH].
    - cbn. destruct (Rleb _ _); cbn; split; auto; lia.
    - cbn [app drop_small]. rewrite DBLMIN_least. destruct (Rleb _ _) eqn:E.
      + apply Rleb_true in E. cbn. rewrite app_length. cbn. split; [lia|]. intros F. inversion F. lra.
      + apply Rleb_false in E. rewrite IH. split; [auto|]. intros F. now inversion F. }
  rewrite <- L. destruct (_ <? 2)%nat eqn:E; [apply Nat.ltb_lt in E|apply Nat.ltb_ge in E]; [tauto|].
  split; [|lia]. destruct (101 <? _)%nat; [discriminate|].
  destruct (rpoly _ _ _) as [[ok zs]| |]; try discriminate. destruct zs; discriminate.
Qed.
Print Assumptions C59_no_roots.

(** Whatever roots are returned: first the zeros at the origin, with their exact
    multiplicity; then zeros of the remaining polynomial, each of which is a zero
    up to rounding of the polynomial from which the previous ones were divided out. *)
Theorem C59_zeros : forall rdiv fuel cs zs, divides rdiv -> find_roots_jt rdiv fuel cs = Val zs -> zs <> [] ->
  exists j p small ok ys, reads_as cs j p small /\ zs = repeat (RtoC 0) j ++ ys /\ explained p ok ys.
Proof.
  intros rdiv fuel cs zs DV H NZ.
  assert (2 <= length (drop_small (rev cs)) <= 101)%nat as L.
  { unfold find_roots_jt in H. destruct (_ <? 2)%nat eqn:E; [congruence|]. apply Nat.ltb_ge in E.
    destruct (101 <? _)%nat eqn:E2; [discriminate|]. apply Nat.ltb_ge in E2. lia. }
  destruct (reading cs ltac:(lia)) as (j & p & small & RA & ED). rewrite ED, app_length, repeat_length in L.
  rewrite (find_roots_reads rdiv fuel cs j p small RA L) in H.
  destruct (main_loop _ _ _ _ _ _) as [[ok ys]| |] eqn:EM; try discriminate.
  exists j, p, small, ok, ys. split; auto. split.
  - revert H. change (repeat (0, 0) j ++ ys) with (repeat (RtoC 0) j ++ ys).
    destruct (repeat (RtoC 0) j ++ ys); [discriminate|]. intros H. now injection H as <-.
  - apply (main_loop_ok rdiv DV _ _ _ _ _ _ _ (reads_hd _ _ _ _ RA) EM).
Qed.
Print Assumptions C59_zeros.

Lemma main_loop_not_failed rdiv fuel : forall n p xx yy, main_loop rdiv n fuel p xx yy <> Failed.
Proof.
  induction n as [|n IH]; intros p xx yy; cbn [main_loop]; [discriminate|].
  destruct p as [|p0 [|p1 [|p2 [|p3 p]]]]; try discriminate.
  - destruct (quad _ _ _ _). discriminate.
  - destruct (lower_bound _ _ _ _); [|discriminate].
    destruct (shifts _ _ _ _ _ _ _ _ _) as [[| | |] [x2 y2]]; try discriminate.
    + match goal with |- context [main_loop rdiv n fuel ?q ?x ?y] => specialize (IH q x y); destruct (main_loop rdiv n fuel q x y) as [[? ?]| |] end; auto; discriminate.
    + match goal with |- context [main_loop rdiv n fuel ?q ?x ?y] => specialize (IH q x y); destruct (main_loop rdiv n fuel q x y) as [[? ?]| |] end; auto; discriminate.
Qed.
(** It returns false only when the search gives up before finding any zero. *)
Theorem C59_failure : forall rdiv fuel cs, divides rdiv -> find_roots_jt rdiv fuel cs = Failed ->
  exists p small, reads_as cs 0 p small /\ explained p false [].
Proof.
  intros rdiv fuel cs DV H.
  assert (2 <= length (drop_small (rev cs)) <= 101)%nat as L.
  { unfold find_roots_jt in H. destruct (_ <? 2)%nat eqn:E; [congruence|]. apply Nat.ltb_ge in E.
    destruct (101 <? _)%nat eqn:E2; [discriminate|]. apply Nat.ltb_ge in E2. lia. }
  destruct (reading cs ltac:(lia)) as (j & p & small & RA & ED). rewrite ED, app_length, repeat_length in L.
  rewrite (find_roots_reads rdiv fuel cs j p small RA L) in H.
  destruct (main_loop _ _ _ _ _ _) as [[ok ys]| |] eqn:EM; try discriminate.
  - pose proof (main_loop_ok rdiv DV _ _ _ _ _ _ _ (reads_hd _ _ _ _ RA) EM) as X.
    destruct j as [|j]; [|discriminate]. destruct ys; [|discriminate]. destruct ok.
    + apply explained_length in X. cbn in X. lia.
    + exists p, small. auto.
  - exfalso. exact (main_loop_not_failed rdiv fuel _ _ _ _ EM).
Qed.
Print Assumptions C59_failure.

(** The number of roots is the degree (trailing negligible coefficients
    dropped), or at least three are missing. *)
Theorem C59_number_of_roots : forall rdiv fuel cs zs, divides rdiv -> find_roots_jt rdiv fuel cs = Val zs -> zs <> [] ->
  exists j p small, reads_as cs j p small /\
    (length zs = j + length p - 1 \/ length zs + 4 <= j + length p)%nat.
Proof.
  intros rdiv fuel cs zs DV H NZ. destruct (C59_zeros rdiv fuel cs zs DV H NZ) as (j & p & small & ok & ys & RA & -> & X).
  exists j, p, small. split; auto. apply explained_length in X. pose proof (reads_length _ _ _ _ RA).
  rewrite app_length, repeat_length. destruct ok; lia.
Qed.
Print Assumptions C59_number_of_roots.

(** The non-real roots come in conjugate pairs. *)
Theorem C59_conjugate_pairs : forall rdiv fuel cs zs, divides rdiv -> find_roots_jt rdiv fuel cs = Val zs ->
  Permutation (map Cconj zs) zs.
Proof.
  intros rdiv fuel cs zs DV H. destruct zs as [|z zs]; [constructor|].
  destruct (C59_zeros rdiv fuel cs _ DV H ltac:(discriminate)) as (j & p & small & ok & ys & RA & -> & X).
  rewrite map_app. apply Permutation_app; [|now apply explained_conj with p ok].
  clear. induction j as [|j IH]; cbn [repeat map]; auto. rewrite conj_real by reflexivity. now apply perm_skip.
Qed.
Print Assumptions C59_conjugate_pairs.

(** It always terminates with an answer: enough steps give one result, the same
    for any larger number of steps. *)
Theorem C59_terminates : forall rdiv cs, divides rdiv -> (length cs <= 101)%nat ->
  exists steps r, r <> Undef /\ forall fuel, (steps <= fuel)%nat -> find_roots_jt rdiv fuel cs = r.
Proof.
  intros rdiv cs DV L. destruct (lt_dec (length (drop_small (rev cs))) 2) as [S|S].
  - exists 0%nat, (Val []). split; [discriminate|]. intros. unfold find_roots_jt.
    now rewrite (proj2 (Nat.ltb_lt _ _) S).
  - destruct (reading cs ltac:(lia)) as (j & p & small & RA & ED).
    assert (LL : (2 <= length p + j <= 101)%nat).
    { rewrite ED, app_length, repeat_length in S. split; [lia|]. destruct RA as (-> & _).
      rewrite !app_length, repeat_length, rev_length in L. lia. }
    destruct (main_loop_ends rdiv DV (length p) p (sqrt (1 / 2)) (- sqrt (1 / 2)) (reads_hd _ _ _ _ RA)) as (f0 & [ok zs] & E).
    { pose proof (reads_length _ _ _ _ RA). lia. }
    exists f0. eexists. split; [|intros fuel Hf; rewrite (find_roots_reads rdiv fuel cs j p small RA LL), E by auto; reflexivity].
    destruct (repeat (0, 0) j ++ zs); discriminate.
Qed.
Print Assumptions C59_terminates.

(** Up to two zeros besides the origin: the roots are exactly the zeros, with
    multiplicity, of the polynomial (trailing negligible coefficients dropped). *)
Theorem C59_degree_two_exact : forall rdiv fuel cs j p small, divides rdiv -> reads_as cs j p small ->
  (length p <= 3)%nat -> (2 <= length p + j <= 101)%nat ->
  exists zs, find_roots_jt rdiv fuel cs = Val zs /\
    forall x, cinc (repeat 0 j ++ rev p) x = Cmult (RtoC (hd 0 p)) (zprod zs x).
Proof.
  intros rdiv fuel cs j p small DV RA L3 L. rewrite (find_roots_reads rdiv fuel cs j p small RA L).
  pose proof (reads_length _ _ _ _ RA) as L1. pose proof (reads_hd _ _ _ _ RA) as HD.
  assert (EX : exists ys, main_loop rdiv (length p) fuel p (sqrt (1 / 2)) (- sqrt (1 / 2)) = Val (true, ys) /\
                 length ys = (length p - 1)%nat /\ forall x, cval p x = Cmult (RtoC (hd 0 p)) (zprod ys x)).
  { destruct p as [|p0 [|p1 [|p2 [|p3 p]]]]; try (cbn in L1, L3; lia); cbn [hd] in *.
    - exists []. split; [auto|split; [auto|]]. intros x. cbn. ring.
    - exists [(- rdiv p1 p0, 0)]. split; [auto|split; [auto|]]. intros x. rewrite DV by auto. cbn [zprod cval length cpow].
      change (- (p1 / p0), 0) with (RtoC (- (p1 / p0))). rewrite RtoC_opp. unfold Rdiv.
      rewrite RtoC_mult, RtoC_inv by auto. field. intros Q. apply HD. now apply RtoC_inj in Q.
    - pose proof (C59_quadratic_solver rdiv p0 p1 p2 DV) as Q. cbn [length main_loop].
      destruct (quad rdiv p0 p1 p2) as [z1 z2]. exists [z1; z2]. split; [auto|split; [auto|]]. intros x.
      destruct Q as ((Q & _) & _); auto. rewrite Q. cbn [zprod]. ring. }
  destruct EX as (ys & -> & LY & V). exists (repeat (0, 0) j ++ ys). split.
  - destruct (repeat (0, 0) j ++ ys) eqn:EL; auto. exfalso.
    apply app_eq_nil in EL. destruct EL as [E1 E2]. subst ys. destruct j; [|discriminate]. cbn in LY. lia.
  - intros x. rewrite cinc_zeros, cinc_cval, rev_involutive, V.
    transitivity (Cmult (RtoC (hd 0 p)) (Cmult (zprod (repeat (0, 0) j) x) (zprod ys x))).
    + rewrite zprod_zeros. ring.
    + f_equal. symmetry. apply zprod_app.
Qed.
Print Assumptions C59_degree_two_exact.

(** A real number that is a zero up to rounding is an exact zero of a polynomial
    whose coefficients differ by that relative amount. *)
Theorem C59_backward_error : forall (d : R) (p : list R) (s : R), 0 <= d -> nearly_zero d p (RtoC s) ->
  exists p', Forall2 (fun c c' => Rabs (c' - c) <= d * machine_eps * Rabs c) p p' /\ cval p' (RtoC s) = RtoC 0.
Proof.
  intros d p s D H. unfold nearly_zero in H. rewrite Cmod_R in H.
  assert (CP : forall n, cpow (RtoC s) n = RtoC (s ^ n)).
  { induction n as [|n IH]; cbn; auto. now rewrite IH, RtoC_mult. }
  assert (RV : forall l, exists r, cval l (RtoC s) = RtoC r).
  { induction l as [|c l [r IH]]; [exists 0; auto|]. exists (c * s ^ length l + r). cbn.
    now rewrite IH, CP, RtoC_plus, RtoC_mult. }
  destruct (RV p) as [r Er]. rewrite Er, Cmod_R in H.
  set (A := aval p (Rabs s)) in *. assert (A0 : 0 <= A) by (apply aval_pos, Rabs_pos).
  pose proof eps_pos as EP. set (k := if Req_EM_T A 0 then 0 else r / A).
  assert (K : Rabs k <= d * machine_eps).
  { unfold k. destruct (Req_EM_T A 0); [rewrite Rabs_R0; nra|].
    unfold Rdiv. rewrite Rabs_mult, Rabs_inv, (Rabs_pos_eq A) by auto.
    apply (Rmult_le_reg_r A); [lra|]. rewrite Rmult_assoc, Rinv_l by auto. lra. }
  assert (KA : k * A = r).
  { unfold k. destruct (Req_EM_T A 0) as [Z|Z]; [|field; auto]. rewrite Z in H. rewrite Rmult_0_r in H.
    assert (r = 0); [|lra]. destruct (Req_dec r 0); auto. apply Rabs_pos_lt in H0. lra. }
  assert (G : forall l, exists l', length l' = length l /\
     Forall2 (fun c c' => Rabs (c' - c) <= d * machine_eps * Rabs c) l l' /\
     Cplus (cval l' (RtoC s)) (RtoC (k * aval l (Rabs s))) = cval l (RtoC s)).
  { induction l as [|c l (l' & L & F & E)]; [exists []; cbn; repeat split; auto; rewrite Rmult_0_r; ring|].
    set (sg := if Rle_dec 0 (s ^ length l) then 1 else -1).
    assert (SG : sg * s ^ length l = Rabs s ^ length l).
    { rewrite RPow_abs. unfold sg. destruct (Rle_dec 0 (s ^ length l)).
      - rewrite Rabs_pos_eq by auto. lra.
      - rewrite Rabs_left by lra. lra. }
    assert (SA : Rabs sg = 1). { unfold sg. destruct (Rle_dec _ _); [apply Rabs_pos_eq; lra|rewrite Rabs_left; lra]. }
    exists ((c - k * (Rabs c * sg)) :: l'). cbn [length]. split; [auto|split].
    - constructor; auto. replace (c - k * (Rabs c * sg) - c) with (- (k * (Rabs c * sg))) by ring.
      rewrite Rabs_Ropp, !Rabs_mult, SA, Rabs_Rabsolu. pose proof (Rabs_pos c). nra.
    - cbn [cval aval]. rewrite <- E, L, CP, <- SG.
      replace (k * (Rabs c * (sg * s ^ length l) + aval l (Rabs s)))
        with (k * (Rabs c * sg) * s ^ length l + k * aval l (Rabs s)) by ring.
      unfold Rminus. rewrite !RtoC_plus, RtoC_opp, !RtoC_mult. ring. }
  destruct (G p) as (p' & L & F & E). exists p'. split; auto. fold A in E. rewrite KA, Er in E.
  replace (cval p' (RtoC s)) with (Cminus (Cplus (cval p' (RtoC s)) (RtoC r)) (RtoC r)) by ring.
  rewrite E. ring.
Qed.
Print Assumptions C59_backward_error.

(** More than 101 significant coefficients: the copy into the fixed array writes
    past its end, before the degree is checked. *)
Theorem C59_too_many_coefficients_undefined : forall rdiv fuel cs j p small, reads_as cs j p small ->
  (101 < length p + j)%nat -> find_roots_jt rdiv fuel cs = Undef.
Proof.
  intros rdiv fuel cs j p small RA H. unfold find_roots_jt. rewrite (reads_drop _ _ _ _ RA), app_length, repeat_length.
  rewrite (proj2 (Nat.ltb_ge _ _)) by lia. now rewrite (proj2 (Nat.ltb_lt _ _) H).
Qed.
Print Assumptions C59_too_many_coefficients_undefined.

(** Not every polynomial with a root has its root reported: below the smallest
    normal double a coefficient counts as zero. *)
Theorem C59_every_root_reported_refuted :
  ~ forall rdiv cs x, divides rdiv -> (length cs <= 101)%nat -> (exists y, cinc cs y <> RtoC 0) -> cinc cs x = RtoC 0 ->
    exists fuel zs, find_roots_jt rdiv fuel cs = Val zs /\ In x zs.
Proof.
  intros H. pose proof least_pos as LP.
  destruct (H Rdiv [- (least_normal / 2); least_normal / 2] (RtoC 1)) as (fuel & zs & E & I).
  - intros x y _. reflexivity.
  - cbn. lia.
  - exists (RtoC 0). intros Q. apply (f_equal fst) in Q. cbn in Q. lra.
  - cbn [cinc]. rewrite RtoC_opp. ring.
  - assert (Z : find_roots_jt Rdiv fuel [- (least_normal / 2); least_normal / 2] = Val []).
    { apply C59_no_roots. cbn [tl]. constructor; auto. rewrite Rabs_pos_eq; lra. }
    rewrite Z in E. injection E as <-. destruct I.
Qed.
Print Assumptions C59_every_root_reported_refuted.

(** The search for a pair of zeros tests only the second of two real zeros: the
    pair 1, -1 is accepted for x^3 + x^2 + x + 1, which is 4 at 1. *)
Theorem C59_pair_search_refuted :
  ~ forall rdiv p K u v s l qp, divides rdiv -> (4 <= length p)%nat ->
    quad_it rdiv 64 (length p - 1) p K u v 0 false 0 0 = QFound s l qp ->
    nearly_zero (360 * INR (length p) ^ 2) p s.
Proof.
  intros H. set (p := [1; 1; 1; 1]).
  assert (Q : quad Rdiv 1 0 (-1) = ((1, 0), (-1, 0))).
  { unfold quad. rewrite (proj2 (is_zero_false 1)), (proj2 (is_zero_false (-1))) by lra.
    replace (0 / 2) with 0 by lra. rewrite Rabs_R0, (Rabs_left (-1)) by lra.
    rewrite (proj2 (Rltb_true 0 (- -1))) by lra. rewrite (proj2 (Rleb_false 0 (-1))) by lra.
    replace (- - (1) + 0 * (0 / - (-1))) with 1 by field. rewrite (Rabs_pos_eq 1) by lra.
    replace (- (-1)) with 1 by lra. rewrite sqrt_1, (proj2 (Rleb_true 0 1)), (proj2 (Rleb_true 0 0)) by lra.
    replace ((- 0 + - (1 * 1)) / 1) with (-1) by field. rewrite (proj2 (is_zero_false (-1))) by lra.
    repeat f_equal; field. }
  assert (SD : quad_sd 0 (-1) p = ([1; 1; 2; 2], 2, 2)).
  { unfold p. cbn [quad_sd sd_loop]. repeat f_equal; lra. }
  assert (E : forall n, quad_it Rdiv (S n) (length p - 1) p [] 0 (-1) 0 false 0 0 = QFound (1, 0) (-1, 0) [1; 1; 2; 2]).
  { intros n. cbn [quad_it]. rewrite Q, (Rabs_pos_eq 1), (Rabs_left (-1)) by lra.
    replace (1 - - (-1)) with 0 by lra. rewrite Rabs_R0, (proj2 (Rltb_false (1 / 100 * - (-1)) 0)) by lra.
    rewrite SD. replace (- (1 * 2) + 2) with 0 by lra. replace (0 * 2) with 0 by lra. rewrite Rabs_R0, Rplus_0_r.
    match goal with |- (if Rleb 0 ?b then _ else _) = _ => assert (B : 0 <= b) end.
    { unfold quad_bound, elem, p. cbn [length Nat.sub firstn tl fold_left nth].
      rewrite (Rabs_left (-1)) by lra. replace (- (-1)) with 1 by lra. rewrite sqrt_1.
      replace (2 + - (1 * 2)) with 0 by lra. rewrite Rabs_R0, Rabs_Ropp.
      rewrite !(Rabs_pos_eq 1), !(Rabs_pos_eq 2) by lra. rewrite Rabs_pos_eq by lra.
      rewrite EPS_eps. pose proof eps_pos. nra. }
    rewrite (proj2 (Rleb_true _ _) B). reflexivity. }
  specialize (H Rdiv p [] 0 (-1) (1, 0) (-1, 0) [1; 1; 2; 2] (fun x y _ => eq_refl) ltac:(cbn; lia) (E 63%nat)).
  change (1, 0) with (RtoC 1) in H. unfold nearly_zero in H.
  assert (V : cval p (RtoC 1) = RtoC 4).
  { unfold p. cbn. change 4 with (1 + 1 + 1 + 1) || idtac. replace 4 with (1 + (1 + (1 + 1))) by lra. rewrite !RtoC_plus. ring. }
  rewrite V, !Cmod_R, (Rabs_pos_eq 4), (Rabs_pos_eq 1) in H by lra.
  unfold p in H. cbn [length aval] in H. rewrite (Rabs_pos_eq 1) in H by lra. unfold machine_eps in H. cbn in H. lra.
Qed.
Print Assumptions C59_pair_search_refuted.

(* ------------------------------------------------------------------ *)
(** ** Extrema of polynomials with the actual root finder *)

(** The vector of roots as Polynomial::computeMinMaxCandidates uses it (it stays
    empty when the root finder returns false). *)
Definition found_roots (rdiv : R -> R -> R) (fuel : nat) (c : list R) : list croot :=
  match find_roots_jt rdiv fuel c with Val zs => zs | _ => [] end.

Lemma cinc_real cs x : cinc cs (RtoC x) = RtoC (pval cs x).
Proof. induction cs as [|c cs IH]; cbn [cinc pval]; auto. now rewrite IH, RtoC_plus, RtoC_mult. Qed.

(** C39 without assumptions on the root finder: when the next derivative has at
    most two zeros besides the origin (and no coefficient below the smallest
    normal double), the minimum and maximum are exact. *)
Theorem C39_min_max_low_degree : forall rdiv fuel (p : list R) (a b : R) (k j : nat) (q : list R), divides rdiv ->
  a <= b -> (k < length p <= 101)%nat -> (length q <= 3)%nat -> 
  reads_as (get_coefficients p (S k)) j q (repeat 0 (length p - j - length q)) ->
  (forall t, a <= t <= b -> Rabs (Derive_n (pval p) k t) < DBL_MAX) ->
  exists mn mx, compute_minmax (found_roots rdiv fuel) p a b k = Some (mn, mx) /\
    is_min_on (Derive_n (pval p) k) a b (fst mn) (snd mn) /\
    is_max_on (Derive_n (pval p) k) a b (fst mx) (snd mx).
Proof.
  intros rdiv fuel p a b k j q DV AB LP LQ RA BD. apply C39_min_max; auto; [lia|].
  intros _ x _ Hx. set (cs := get_coefficients p (S k)) in *.
  assert (LC : length cs = length p) by apply length_get_coefficients.
  assert (Hc : pval cs x = 0).
  { unfold cs. rewrite pval_get_coefficients. etransitivity; [|exact Hx].
    symmetry. apply is_derive_n_unique. apply C36_evaluate_is_derivative. }
  pose proof (reads_length _ _ _ _ RA) as L1. pose proof (reads_hd _ _ _ _ RA) as HD.
  assert (RC : cs = repeat 0 j ++ rev q ++ repeat 0 (length p - j - length q)) by apply RA.
  assert (VC : forall y, cinc cs y = cinc (repeat 0 j ++ rev q) y).
  { intros y. rewrite RC, app_assoc, !cinc_cval, rev_app_distr, cval_app.
    assert (Z : cval (rev (repeat 0 (length p - j - length q))) y = RtoC 0).
    { rewrite rev_repeat. generalize (length p - j - length q)%nat. clear. induction n as [|n IH]; cbn; auto. rewrite IH. ring. }
    rewrite Z. ring. }
  exists 0. split; [rewrite Rabs_R0; unfold DBL_EPS; lra|].
  destruct (le_lt_dec 2 (length q + j)) as [L2|L2].
  - destruct (C59_degree_two_exact rdiv fuel cs j q _ DV RA LQ) as (zs & E & V).
    { split; auto. rewrite RC, !app_length, !repeat_length, rev_length in LC. lia. }
    unfold found_roots. rewrite E. change (x, 0) with (RtoC x). apply zprod_zero.
    assert (Z : Cmult (RtoC (hd 0 q)) (zprod zs (RtoC x)) = RtoC 0).
    { rewrite <- V, <- VC, cinc_real, Hc. reflexivity. }
    destruct (Ceq_dec (zprod zs (RtoC x)) (RtoC 0)) as [G|G]; auto. exfalso.
    apply (Cmult_neq_0 _ _ (fun Q => HD (RtoC_inj _ _ Q)) G Z).
  - exfalso. assert (j = 0%nat) by lia. subst j. destruct q as [|q0 [|q1 q]]; cbn in L1, L2; try lia.
    cbn in HD. apply HD. assert (Z : cinc cs (RtoC x) = RtoC 0) by (rewrite cinc_real, Hc; reflexivity).
    rewrite VC in Z. cbn in Z. apply RtoC_inj. rewrite <- Z. ring.
Qed.
Print Assumptions C39_min_max_low_degree.

(* ------------------------------------------------------------------ *)
(** ** Examples *)

Lemma least_lt_1 : least_normal < 1.
Proof.
  unfold least_normal. rewrite <- Rinv_1. apply Rinv_lt_contravar; [rewrite Rmult_1_l; apply pow_lt; lra|].
  apply Rlt_pow_R1; [lra|lia].
Qed.
(** x^2 (x^2 - 3 x + 2), with a negligible coefficient of x^5 behind it. *)
Example C59_example_reading : reads_as [0; 0; 2; -3; 1; least_normal / 2] 2 [1; -3; 2] [least_normal / 2].
Proof.
  pose proof least_pos. pose proof least_lt_1. unfold reads_as. refine (conj _ (conj _ (conj _ _))).
  - reflexivity.
  - constructor; auto. rewrite Rabs_pos_eq; lra.
  - cbn. rewrite Rabs_R1. lra.
  - cbn. lra.
Qed.
Example C59_example_quadratic : quad Rdiv 1 (-3) 2 = ((1, 0), (2, 0)).
Proof.
  unfold quad. rewrite (proj2 (is_zero_false 1)), (proj2 (is_zero_false 2)) by lra.
  rewrite (Rabs_left (-3 / 2)), (Rabs_pos_eq 2) by lra.
  rewrite (proj2 (Rltb_true (- (-3 / 2)) 2)), (proj2 (Rleb_true 0 2)) by lra.
  replace (- (1) + -3 / 2 * (-3 / 2 / 2)) with (/ 8) by field. rewrite (Rabs_pos_eq (/ 8)) by lra.
  rewrite <- sqrt_mult by lra. replace (/ 8 * 2) with (/ 2 * / 2) by field. rewrite sqrt_square by lra.
  rewrite (proj2 (Rleb_true 0 (/ 8))), (proj2 (Rleb_false 0 (-3 / 2))) by lra.
  replace ((- (-3 / 2) + / 2) / 1) with 2 by field. rewrite (proj2 (is_zero_false 2)) by lra.
  repeat f_equal; field.
Qed.
Example C59_example_run : forall fuel,
  find_roots_jt Rdiv fuel [0; 0; 2; -3; 1; least_normal / 2] = Val [(0, 0); (0, 0); (1, 0); (2, 0)].
Proof.
  intros fuel. rewrite (find_roots_reads Rdiv fuel _ 2 [1; -3; 2] _ C59_example_reading) by (cbn; lia).
  cbn [length main_loop]. rewrite C59_example_quadratic. reflexivity.
Qed.
(** How the roots 1, 2, 3 of x^3 - 6 x^2 + 11 x - 6 are explained. *)
Example C59_example_explained : explained [1; -6; 11; -6] true [RtoC 1; RtoC 2; RtoC 3].
Proof.
  assert (N1 : cval [1; -6; 11; -6] (RtoC 1) = RtoC 0).
  { apply injective_projections; cbn; lra. }
  apply (ex_one [1; -6; 11; -6] [1; -5; 6] 1 1 true).
  - cbn. lia.
  - lra.
  - reflexivity.
  - cbn. lra.
  - unfold nearly_zero. rewrite N1, Cmod_0. pose proof eps_pos.
    apply Rmult_le_pos; [|apply aval_pos, Cmod_ge_0]. cbn. lra.
  - intros [x y]. rewrite N1. apply injective_projections; cbn; ring.
  - apply ex_quadratic; [|right; split; reflexivity].
    intros [x y]. apply injective_projections; cbn; ring.
Qed.
(** 101 coefficients are accepted, 102 are not. *)
Example C59_example_limit : forall fuel,
  find_roots_jt Rdiv fuel (repeat 0 101 ++ [1]) = Undef /\
  find_roots_jt Rdiv fuel (repeat 0 100 ++ [1]) = Val (repeat (0, 0) 100).
Proof.
  intros fuel. pose proof least_pos. pose proof least_lt_1.
  assert (RA : forall j, reads_as (repeat 0 j ++ [1]) j [1] []).
  { intros j. unfold reads_as. cbn. rewrite Rabs_R1. repeat split; auto; lra. }
  split.
  - apply (C59_too_many_coefficients_undefined _ _ _ 101 [1] [] (RA 101%nat)). cbn. lia.
  - rewrite (find_roots_reads Rdiv fuel _ 100 [1] [] (RA 100%nat)) by (cbn; lia).
    cbn [length main_loop]. rewrite app_nil_r. reflexivity.
Qed.
(** t^3 / 3 - 3 t^2 / 2 + 2 t on [0, 3]: the derivative is t^2 - 3 t + 2. *)
Example C39_example_low_degree :
  reads_as (get_coefficients [0; 2; - (3 / 2); 1 / 3] 1) 0 [1; -3; 2] (repeat 0 1) /\
  exists mn mx, compute_minmax (found_roots Rdiv 0) [0; 2; - (3 / 2); 1 / 3] 0 3 0 = Some (mn, mx) /\
    is_min_on (Derive_n (pval [0; 2; - (3 / 2); 1 / 3]) 0) 0 3 (fst mn) (snd mn) /\
    is_max_on (Derive_n (pval [0; 2; - (3 / 2); 1 / 3]) 0) 0 3 (fst mx) (snd mx).
Proof.
  pose proof least_pos. pose proof least_lt_1.
  assert (G : get_coefficients [0; 2; - (3 / 2); 1 / 3] 1 = [2; -3; 1; 0]).
  { cbn. repeat f_equal; lra. }
  assert (RA : reads_as (get_coefficients [0; 2; - (3 / 2); 1 / 3] 1) 0 [1; -3; 2] (repeat 0 1)).
  { rewrite G. unfold reads_as. cbn. rewrite Rabs_R1. repeat split; try lra. constructor; auto. now rewrite Rabs_R0. }
  split; auto. apply (C39_min_max_low_degree Rdiv 0 _ 0 3 0 0 [1; -3; 2]); cbn [length]; try lia; auto; try lra.
  - intros x y _. reflexivity.
  - intros t Ht. cbn. assert (Rabs (0 + t * (2 + t * (- (3 / 2) + t * (1 / 3 + t * 0)))) <= 100).
    { apply Rabs_le. nra. }
    apply small_lt_DBL_MAX. lra.
Qed.
