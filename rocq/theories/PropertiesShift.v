(** C99: what the iterations of the root finder do with the zeros they look for
    (exact arithmetic; [rdiv] is any division, arbitrary for division by zero). *)
From Coq Require Import Reals List ZArith Arith Lra Lia Bool Psatz.
From Flocq Require Import Core.
From Coquelicot Require Import Coquelicot.
From Verif Require Import Base PolyModel PolySpec TrajModel RpolyModel RpolySpec RpolyProofs RpolyMain PropertiesRpoly.
Import List ListNotations.
Local Open Scope R_scope.
Set Bullet Behavior "Strict Subproofs".

(** ** Specification *)

(** x^2 + u x + v and l1 x + l0. *)
Definition quadratic (u v : R) (x : C) : C := Cplus (Cmult x x) (Cplus (Cmult (RtoC u) x) (RtoC v)).
Definition line (l1 l0 : R) (x : C) : C := Cplus (Cmult (RtoC l1) x) (RtoC l0).

(** ** Coefficient lists *)

Definition sh (k : nat) (q : list R) (i : nat) : R := if (i <? k)%nat then 0 else elem q (i - k).
Lemma cval_linear (f g h : nat -> R) (r s : R) z : forall l,
  cval (map (fun i => r * f i + s * g i + h i) l) z =
  Cplus (Cplus (Cmult (RtoC r) (cval (map f l) z)) (Cmult (RtoC s) (cval (map g l) z))) (cval (map h l) z).
Proof.
  induction l as [|i l IH]; cbn; [ring|]. rewrite IH, !map_length, !RtoC_plus, !RtoC_mult. ring.
Qed.
Lemma elems_firstn q : forall n k, (n <= length q)%nat -> map (fun i => elem q (i - k)) (seq k n) = firstn n q.
Proof.
  intros n k H. apply nth_ext with (d := 0) (d' := 0).
  - rewrite map_length, seq_length, firstn_length. lia.
  - intros i Hi. rewrite map_length, seq_length in Hi.
    rewrite (nth_indep _ 0 (elem q (0 - k))) by (rewrite map_length, seq_length; lia).
    rewrite (map_nth (fun i => elem q (i - k))), seq_nth by lia. unfold elem. replace (k + i - k)%nat with i by lia.
    rewrite <- (firstn_skipn n q) at 1. rewrite app_nth1; auto. rewrite firstn_length. lia.
Qed.
Lemma cval_zeros z n : cval (repeat 0 n) z = RtoC 0.
Proof. induction n; cbn; auto. rewrite IHn. ring. Qed.
Lemma cval_zeros_app z n l : cval (repeat 0 n ++ l) z = cval l z.
Proof. induction n; cbn; auto. rewrite IHn. ring. Qed.
Lemma sh_list k q n : (k <= n)%nat -> (n - k <= length q)%nat -> map (sh k q) (seq 0 n) = repeat 0 k ++ firstn (n - k) q.
Proof.
  intros H1 H2. replace n with (k + (n - k))%nat at 1 by lia. rewrite seq_app, map_app. f_equal.
  - assert (X : forall m a, (a + m <= k)%nat -> map (sh k q) (seq a m) = repeat 0 m).
    { induction m as [|m IH]; intros a L; cbn; auto. rewrite IH by lia. f_equal. unfold sh. destruct (Nat.ltb_spec a k); [auto|lia]. }
    apply X. lia.
  - rewrite <- (elems_firstn q (n - k) k H2). cbn [Nat.add]. apply map_ext_in. intros i Hi. apply in_seq in Hi.
    unfold sh. destruct (Nat.ltb_spec i k); [lia|auto].
Qed.
Lemma cval_sh k q n z : (k <= n)%nat -> (n - k <= length q)%nat -> cval (map (sh k q) (seq 0 n)) z = cval (firstn (n - k) q) z.
Proof. intros H1 H2. rewrite sh_list by auto. apply cval_zeros_app. Qed.
Lemma cval_snoc q c z : cval (q ++ [c]) z = Cplus (Cmult z (cval q z)) (RtoC c).
Proof. rewrite cval_app. cbn. ring. Qed.

(** The last two coefficients of the quotient list. *)
Lemma sd_loop_tail u v l : forall a b r a' b', sd_loop u v a b l = (r, a', b') -> exists pre, b :: a :: r = pre ++ [b'; a'].
Proof.
  induction l as [|x l IH]; intros a b r a' b' H; cbn in H.
  - inversion H; subst. exists []. reflexivity.
  - destruct (sd_loop u v (- (a * u + b * v) + x) a l) as [[r1 a1] b1] eqn:E. inversion H; subst.
    destruct (IH _ _ _ _ _ E) as (pre & EP). exists (b :: pre). cbn. now rewrite EP.
Qed.
Lemma quad_sd_tail u v p q a b : (2 <= length p)%nat -> quad_sd u v p = (q, a, b) -> exists pre, q = pre ++ [b; a].
Proof.
  intros L H. destruct p as [|p0 [|p1 l]]; try (cbn in L; lia). cbn in H.
  destruct (sd_loop u v (- (p0 * u) + p1) p0 l) as [[r a'] b'] eqn:E. inversion H; subst. apply (sd_loop_tail _ _ _ _ _ _ _ _ E).
Qed.

(** ** One step with a quadratic shift *)

Lemma next_k_scaled N sc qp (r s : R) : (2 <= N)%nat ->
  elem qp 0 :: (- (r * elem qp 0) + elem qp 1) :: map (fun i => - (r * elem qp (i - 1)) + s * elem (sc_qk sc) (i - 2) + elem qp i) (seq 2 (N - 2)) =
  map (fun i => - r * sh 1 qp i + s * sh 2 (sc_qk sc) i + sh 0 qp i) (seq 0 N) /\
  0 :: - r * elem qp 0 :: map (fun i => - (r * elem qp (i - 1)) + s * elem (sc_qk sc) (i - 2)) (seq 2 (N - 2)) =
  map (fun i => - r * sh 1 qp i + s * sh 2 (sc_qk sc) i + 0) (seq 0 N) /\
  0 :: 0 :: map (fun i => elem (sc_qk sc) (i - 2)) (seq 2 (N - 2)) = map (sh 2 (sc_qk sc)) (seq 0 N).
Proof.
  intros H. destruct N as [|[|n]]; try lia. replace (S (S n) - 2)%nat with n by lia. cbn [seq map].
  assert (C2 : forall (x x' y y' : R) l l', x = x' -> y = y' -> l = l' -> x :: y :: l = x' :: y' :: l') by (intros; subst; reflexivity).
  split; [|split]; apply C2; try (unfold sh; cbn; ring);
    apply map_ext_in; intros i Hi; apply in_seq in Hi; unfold sh;
    destruct (Nat.ltb_spec i 2); try lia; destruct (Nat.ltb_spec i 1); try lia; destruct (Nat.ltb_spec i 0); try lia;
    rewrite ?Nat.sub_0_r; ring.
Qed.

Lemma scalar_identities rdiv N a b K u v : divides rdiv ->
  let sc := calc_sc rdiv N a b K u v in
  sc_flag sc <> Type3 ->
  sc_a7 sc * b - sc_a3 sc * sc_d sc = a * sc_a1 sc /\
  sc_a7 sc * (b * u + a) + b * v * sc_a1 sc = sc_a3 sc * (sc_d sc * u + sc_c sc) /\
  (sc_c sc <> 0 \/ sc_d sc <> 0) /\
  exists w, w <> 0 /\ sc_a3 sc * w = a * a + u * a * b + v * b * b.
Proof.
  intros DV. unfold calc_sc. destruct (quad_sd u v K) as [[qk c] d]. cbv zeta.
  destruct (_ && _) eqn:E; [cbn; congruence|].
  assert (NZ : c <> 0 \/ d <> 0).
  { destruct (Req_dec c 0) as [-> |]; auto. destruct (Req_dec d 0) as [-> |]; auto. exfalso. rewrite Rabs_R0 in E.
    assert (P : forall x, Rleb 0 (10 * EPS * Rabs x) = true).
    { intros x. apply Rleb_true. pose proof (Rabs_pos x). pose proof eps_pos. rewrite EPS_eps. nra. }
    rewrite !P in E. discriminate. }
  intros _. destruct (Rleb (Rabs c) (Rabs d)) eqn:EC; cbn [sc_flag sc_a1 sc_a3 sc_a7 sc_c sc_d].
  - apply Rleb_true in EC. assert (D : d <> 0).
    { intros ->. rewrite Rabs_R0 in EC. destruct NZ as [C|C]; [|congruence]. apply Rabs_pos_lt in C. lra. }
    rewrite !DV by auto. split; [field; auto|]. split; [field; auto|]. split; auto. exists d. split; auto. field; auto.
  - apply Rleb_false in EC. assert (D : c <> 0).
    { intros ->. rewrite Rabs_R0 in EC. pose proof (Rabs_pos d). lra. }
    rewrite !DV by auto. split; [field; auto|]. split; [field; auto|]. split; auto. exists c. split; auto. field; auto.
Qed.
Lemma third_type rdiv N a b K u v : let sc := calc_sc rdiv N a b K u v in
  sc_flag sc = Type3 -> Rabs (sc_c sc) <= 10 * EPS * Rabs (elem K (N - 1)) /\ Rabs (sc_d sc) <= 10 * EPS * Rabs (elem K (N - 2)).
Proof.
  unfold calc_sc. destruct (quad_sd u v K) as [[qk c] d]. cbv zeta. destruct (_ && _) eqn:E.
  - intros _. apply andb_prop in E. destruct E as [B1 B2]. apply Rleb_true in B1. apply Rleb_true in B2. auto.
  - destruct (Rleb (Rabs c) (Rabs d)); cbn [sc_flag]; discriminate.
Qed.
Lemma calc_sc_division rdiv N a b K u v : let sc := calc_sc rdiv N a b K u v in
  quad_sd u v K = (sc_qk sc, sc_c sc, sc_d sc).
Proof.
  unfold calc_sc. destruct (quad_sd u v K) as [[qk c] d]. cbv zeta. destruct (_ && _); [reflexivity|]. destruct (Rleb _ _); reflexivity.
Qed.
Lemma next_k_length rdiv N sc a b qp : (2 <= N)%nat -> length (next_k rdiv N sc a b qp) = N.
Proof.
  intros H. unfold next_k. destruct (sc_flag sc); [destruct (Rltb _ _)|destruct (Rltb _ _)|]; cbn [length]; rewrite map_length, seq_length; lia.
Qed.
(** The remainder at the zeros of the divisor. *)
Lemma shared_zero u v a b : a * a + u * a * b + v * b * b = 0 ->
  exists s, quadratic u v s = RtoC 0 /\ Cplus (Cmult (RtoC b) (Cplus s (RtoC u))) (RtoC a) = RtoC 0.
Proof.
  intros H. set (rd := fun x y : R => x / y). assert (DV : divides rd) by (intros x y _; reflexivity).
  destruct (quad rd 1 u v) as [s l] eqn:E. pose proof (C59_quadratic_solver rd 1 u v DV) as Q. rewrite E in Q.
  destruct Q as [Q _]. destruct (Q ltac:(lra)) as (F & _ & _).
  assert (FQ : forall x, quadratic u v x = Cmult (Cminus x s) (Cminus x l)).
  { intros x. specialize (F x). unfold quadratic. cbn in F. transitivity (Cmult (RtoC 1) (Cmult (Cminus x s) (Cminus x l))); [rewrite <- F; ring|ring]. }
  assert (SL : Cplus s l = Copp (RtoC u) /\ Cmult s l = RtoC v).
  { pose proof (FQ (RtoC 0)) as F0. pose proof (FQ (RtoC 1)) as F1. unfold quadratic in F0, F1.
    assert (M : Cmult s l = RtoC v) by (transitivity (Cmult (Cminus (RtoC 0) s) (Cminus (RtoC 0) l)); [ring|rewrite <- F0; ring]).
    split; auto. transitivity (Cminus (Cplus (RtoC 1) (Cmult s l)) (Cmult (Cminus (RtoC 1) s) (Cminus (RtoC 1) l))); [ring|].
    rewrite <- F1, M. ring. }
  destruct SL as [S1 S2].
  assert (P : Cmult (Cplus (Cmult (RtoC b) (Cplus s (RtoC u))) (RtoC a)) (Cplus (Cmult (RtoC b) (Cplus l (RtoC u))) (RtoC a)) = RtoC 0).
  { transitivity (Cplus (Cplus (Cmult (Cmult (RtoC b) (RtoC b)) (Cplus (Cmult s l) (Cmult (RtoC u) (Cplus (Cplus s l) (RtoC u)))))
      (Cmult (Cmult (RtoC a) (RtoC b)) (Cplus (Cplus s l) (Cplus (RtoC u) (RtoC u))))) (Cmult (RtoC a) (RtoC a))); [ring|].
    rewrite S1, S2. transitivity (RtoC (a * a + u * a * b + v * b * b)); [rewrite !RtoC_plus, !RtoC_mult; ring|now rewrite H]. }
  assert (D : forall x y : C, Cmult x y = RtoC 0 -> x = RtoC 0 \/ y = RtoC 0).
  { intros x y Exy. destruct (Ceq_dec x (RtoC 0)) as [|N]; auto. right.
    transitivity (Cmult (Cinv x) (Cmult x y)); [field; auto|rewrite Exy; ring]. }
  destruct (D _ _ P) as [Z|Z]; [exists s|exists l]; (split; [rewrite FQ; ring|exact Z]).
Qed.

(** Write P for the polynomial, K for the auxiliary polynomial, s(x) for the shift
    x^2 + u x + v, K' for the next auxiliary polynomial.  Normally
    s K' = (x + l0) P + k K: at each zero of P the value of K is divided by that of
    s, up to a common factor k, which does not vanish unless s and P share a zero.
    Thus the zeros nearest to those of s win.  (In the other two cases a remainder
    at most ten machine epsilons of the sizes involved is neglected.) *)
Theorem C99_quadratic_step : forall rdiv (p K : list R) (u v : R), divides rdiv ->
  length p = S (length K) -> (2 <= length K)%nat ->
  let '(qp, a, b) := quad_sd u v p in
  let K' := next_k rdiv (length K) (calc_sc rdiv (length K) a b K u v) a b qp in
  length K' = length K /\
  exists l1 l0 k r1 r0,
    (forall x, Cmult (quadratic u v x) (cval K' x) =
       Cplus (Cplus (Cmult (line l1 l0 x) (cval p x)) (Cmult (RtoC k) (cval K x))) (line r1 r0 x)) /\
    ((l1 = 1 /\ r1 = 0 /\ r0 = 0 /\ hd 0 K' = hd 0 p /\
      ((forall x, quadratic u v x = RtoC 0 -> cval p x <> RtoC 0) -> k <> 0)) \/
     (l1 = 0 /\ hd 0 K' = 0 /\ Rabs r1 <= 10 * machine_eps * (Rmax (Rabs a) (Rabs b) * Rabs a) /\
                Rabs r0 <= 10 * machine_eps * (Rmax (Rabs a) (Rabs b) * Rabs (b * v))) \/
     (l1 = 0 /\ hd 0 K' = 0 /\ l0 = 0 /\ k = 1 /\ Rabs r1 <= 10 * machine_eps * Rabs (elem K (length K - 2)) /\
                Rabs (r0 - u * r1) <= 10 * machine_eps * Rabs (elem K (length K - 1)))).
Proof.
  intros rdiv p K u v DV LP LK. destruct (quad_sd u v p) as [[qp a] b] eqn:EP. cbv zeta.
  set (N := length K) in *. set (sc := calc_sc rdiv N a b K u v).
  split; [now apply next_k_length|].
  pose proof (quad_sd_spec u v p ltac:(lia)) as SP. rewrite EP in SP. destruct SP as (LQ & HQ & SP).
  pose proof (calc_sc_division rdiv N a b K u v) as EK. cbv zeta in EK. fold sc in EK.
  pose proof (quad_sd_spec u v K LK) as SK. rewrite EK in SK. destruct SK as (LQK & _ & SK).
  destruct (quad_sd_tail u v p qp a b ltac:(lia) EP) as (pre & EQ).
  set (c := sc_c sc) in *. set (d := sc_d sc) in *. set (qk := sc_qk sc) in *.
  assert (LPre : length pre = (N - 1)%nat) by (rewrite EQ, app_length in LQ; cbn in LQ; lia).
  replace (length p - 2)%nat with (N - 1)%nat in SP by lia. replace (length K - 2)%nat with (N - 2)%nat in SK by reflexivity.
  assert (E1 : firstn (N - 1) qp = pre) by (rewrite EQ, <- LPre, firstn_app, firstn_all, Nat.sub_diag; apply app_nil_r).
  assert (E0 : firstn (N - 0) qp = pre ++ [b]).
  { rewrite Nat.sub_0_r, EQ. replace N with (length (pre ++ [b])) by (rewrite app_length; cbn; lia).
    replace (pre ++ [b; a]) with ((pre ++ [b]) ++ [a]) by (rewrite <- app_assoc; reflexivity).
    rewrite firstn_app, firstn_all, Nat.sub_diag. apply app_nil_r. }
  rewrite E1 in SP.
  destruct (next_k_scaled N sc qp (rdiv (sc_a7 sc) (sc_a1 sc)) (rdiv (sc_a3 sc) (sc_a1 sc)) LK) as (F1 & _ & F3).
  destruct (next_k_scaled N sc qp (sc_a7 sc) (sc_a3 sc) LK) as (_ & F2 & _). fold qk in F1, F2, F3.
  assert (CS : forall r s h z, cval (map (fun i => - r * sh 1 qp i + s * sh 2 qk i + h i) (seq 0 N)) z =
    Cplus (Cplus (Cmult (RtoC (- r)) (cval pre z)) (Cmult (RtoC s) (cval (firstn (N - 2) qk) z))) (cval (map h (seq 0 N)) z)).
  { intros. rewrite cval_linear, !cval_sh, E1 by lia. reflexivity. }
  assert (C0 : forall z, cval (map (sh 0 qp) (seq 0 N)) z = Cplus (Cmult z (cval pre z)) (RtoC b)).
  { intros z. rewrite cval_sh by lia. rewrite E0. apply cval_snoc. }
  assert (CZ : forall z, cval (map (fun _ => 0) (seq 0 N)) z = RtoC 0).
  { intros z. clear. induction (seq 0 N); cbn; auto. rewrite IHl. ring. }
  pose proof (scalar_identities rdiv N a b K u v DV) as ID. cbv zeta in ID. fold sc in ID. fold c d in ID.
  assert (NT : sc_flag sc = Type3 \/ sc_flag sc <> Type3) by (destruct (sc_flag sc); auto; right; discriminate).
  destruct NT as [T3|T3].
  - (* the quadratic nearly divides K *)
    exists 0, 0, 1, (- d), (- (d * u + c)). split.
    + intros x. unfold next_k. rewrite T3. fold qk. rewrite F3, cval_sh by lia. rewrite SK. unfold quadratic, line.
      rewrite !RtoC_opp, !RtoC_plus, !RtoC_mult. ring.
    + right. right. split; auto. split; [unfold next_k; now rewrite T3|]. split; auto. split; auto. rewrite <- EPS_eps.
      destruct (third_type rdiv N a b K u v T3) as [B1 B2]. fold sc in B1, B2. fold c in B1. fold d in B2.
      rewrite Rabs_Ropp. split; auto. replace (- (d * u + c) - u * - d) with (- c) by ring. now rewrite Rabs_Ropp.
  - destruct (ID T3) as (I1 & I2 & _ & w & Hw & I3).
    set (temp := match sc_flag sc with Type1 => b | _ => a end).
    assert (NK : next_k rdiv N sc a b qp = if Rltb (10 * EPS * Rabs temp) (Rabs (sc_a1 sc)) then
        map (fun i => - rdiv (sc_a7 sc) (sc_a1 sc) * sh 1 qp i + rdiv (sc_a3 sc) (sc_a1 sc) * sh 2 qk i + sh 0 qp i) (seq 0 N)
      else map (fun i => - sc_a7 sc * sh 1 qp i + sc_a3 sc * sh 2 qk i + 0) (seq 0 N)).
    { unfold next_k. fold qk. unfold temp. destruct (sc_flag sc); try congruence; destruct (Rltb _ _); auto. }
    rewrite NK. destruct (Rltb (10 * EPS * Rabs temp) (Rabs (sc_a1 sc))) eqn:EB.
    + (* the scaled form *)
      apply Rltb_true in EB.
      assert (A1 : sc_a1 sc <> 0).
      { intros Z. rewrite Z, Rabs_R0 in EB. pose proof (Rabs_pos temp). pose proof eps_pos. rewrite EPS_eps in EB. nra. }
      rewrite !DV by auto. set (r := sc_a7 sc / sc_a1 sc). set (s := sc_a3 sc / sc_a1 sc).
      assert (J1 : r * b - s * d = a).
      { unfold r, s. apply (Rmult_eq_reg_r (sc_a1 sc)); auto. rewrite <- I1. field. auto. }
      assert (J2 : r * (b * u + a) + b * v - s * (d * u + c) = 0).
      { unfold r, s. apply (Rmult_eq_reg_r (sc_a1 sc)); auto. rewrite Rmult_0_l.
        transitivity (sc_a7 sc * (b * u + a) + b * v * sc_a1 sc - sc_a3 sc * (d * u + c)); [field; auto|rewrite I2; ring]. }
      exists 1, (- r), s, 0, 0. split.
      * intros x. rewrite CS, C0, SP, SK. unfold quadratic, line.
        match goal with |- ?l = ?rr => transitivity (Cplus rr (Cplus (Cmult (RtoC (r * b - s * d - a)) x) (RtoC (r * (b * u + a) + b * v - s * (d * u + c))))) end.
        { repeat rewrite ?RtoC_minus, ?RtoC_plus, ?RtoC_mult, ?RtoC_opp. ring. }
        replace (r * b - s * d - a) with 0 by lra. rewrite J2. ring.
      * left. split; auto. split; auto. split; auto. split.
        { destruct N as [|n]; [lia|]. cbn [seq map hd]. unfold sh. cbn. rewrite <- HQ. destruct qp; cbn; ring. }
        intros HS Z.
        assert (A0 : a * a + u * a * b + v * b * b = 0).
        { rewrite <- I3. unfold s in Z. replace (sc_a3 sc) with (sc_a3 sc / sc_a1 sc * sc_a1 sc) by (field; auto). rewrite Z. ring. }
        destruct (shared_zero u v a b A0) as (z & Z1 & Z2). apply (HS z Z1). rewrite SP. unfold quadratic in Z1. rewrite Z1, Z2. ring.
    + (* the special form *)
      apply Rltb_false in EB. exists 0, (- sc_a7 sc), (sc_a3 sc), (sc_a1 sc * a), (- (sc_a1 sc * (b * v))). split.
      * intros x. rewrite (CS (sc_a7 sc) (sc_a3 sc) (fun _ => 0)), CZ, SP, SK. unfold quadratic, line.
        match goal with |- ?l = ?rr => transitivity (Cplus rr (Cplus (Cmult (RtoC (sc_a7 sc * b - sc_a3 sc * d - a * sc_a1 sc)) x)
          (RtoC (sc_a7 sc * (b * u + a) + b * v * sc_a1 sc - sc_a3 sc * (d * u + c))))) end.
        { repeat rewrite ?RtoC_minus, ?RtoC_plus, ?RtoC_mult, ?RtoC_opp. ring. }
        rewrite I1, I2, !Rminus_diag_eq by reflexivity. ring.
      * right. left. split; auto. rewrite EPS_eps in EB. split.
        { destruct N as [|m]; [lia|]. cbn [seq map hd]. unfold sh. cbn. ring. }
        assert (TM : Rabs temp <= Rmax (Rabs a) (Rabs b)) by (unfold temp; destruct (sc_flag sc); auto using Rmax_l, Rmax_r).
        assert (TB : Rabs (sc_a1 sc) <= 10 * machine_eps * Rmax (Rabs a) (Rabs b)).
        { eapply Rle_trans; [exact EB|]. apply Rmult_le_compat_l; auto. pose proof eps_pos. lra. }
        rewrite Rabs_Ropp, (Rabs_mult (sc_a1 sc) a), (Rabs_mult (sc_a1 sc) (b * v)), <- !Rmult_assoc.
        split; apply Rmult_le_compat_r; auto using Rabs_pos.
Qed.
Print Assumptions C99_quadratic_step.

(** ** One step with a real shift *)

(** The value at a real point is real. *)
Definition rval (p : list R) (s : R) : R := fst (cval p (RtoC s)).
Lemma cval_real p s : cval p (RtoC s) = RtoC (rval p s).
Proof.
  unfold rval. assert (CP : forall n, cpow (RtoC s) n = RtoC (s ^ n)) by (induction n as [|n IH]; cbn; auto; now rewrite IH, RtoC_mult).
  assert (X : exists r, cval p (RtoC s) = RtoC r).
  { induction p as [|c l [r IH]]; cbn; [now exists 0|]. rewrite CP, IH. exists (c * s ^ length l + r). now rewrite RtoC_plus, RtoC_mult. }
  destruct X as [r ->]. reflexivity.
Qed.
Lemma horner_last p s : (1 <= length p)%nat -> last (horner s p) 0 = rval p s.
Proof.
  intros H. assert (E : RtoC (last (horner s p) 0) = RtoC (rval p s)).
  { rewrite <- last_map_RtoC, horner_C, chorner_last, gval_RtoC. apply cval_real. }
  now apply RtoC_inj.
Qed.
Lemma real_lists N (qp qk : list R) t : (1 <= N)%nat ->
  elem qp 0 :: map (fun i => t * elem qk (i - 1) + elem qp i) (seq 1 (N - 1)) =
  map (fun i => t * sh 1 qk i + 0 * sh 1 qk i + sh 0 qp i) (seq 0 N) /\
  0 :: map (fun i => elem qk (i - 1)) (seq 1 (N - 1)) = map (sh 1 qk) (seq 0 N).
Proof.
  intros H. destruct N as [|n]; [lia|]. replace (S n - 1)%nat with n by lia. cbn [seq map].
  assert (C2 : forall (x x' : R) l l', x = x' -> l = l' -> x :: l = x' :: l') by (intros; subst; reflexivity).
  split; apply C2; try (unfold sh; cbn; ring); apply map_ext_in; intros i Hi; apply in_seq in Hi; unfold sh;
    destruct (Nat.ltb_spec i 1); try lia; destruct (Nat.ltb_spec i 0); try lia; rewrite ?Nat.sub_0_r; ring.
Qed.

(** The linear iteration: from the auxiliary polynomial K and the shift s either the
    shift is accepted, or the iteration stops on a cluster of zeros, or it goes
    on with K' and s + t: (x - s) K' = P + k K with k = - P(s) / K(s) (the value of
    K at each zero of P is divided by its distance from s), and t = - P(s) / K'(s);
    K(s) and K'(s) of at most ten machine epsilons of their last term are
    treated as zero. *)
Theorem C99_linear_step : forall rdiv n (p K : list R) (s0 s t omp : R) (j : nat), divides rdiv ->
  length p = S (length K) -> (1 <= length K)%nat ->
  let step := real_it rdiv (S n) (length K) p K s0 s j t omp in
  step = RFound s (horner s p) \/
  (step = RFail true s K /\ (1 <= j)%nat /\ Rabs t <= 1 / 1000 * Rabs (s - t) /\ omp < Rabs (rval p s)) \/
  exists K' t', length K' = length K /\ step = real_it rdiv n (length K) p K' s0 (s + t') (S j) t' (Rabs (rval p s)) /\
    ((rval K s <> 0 /\ hd 0 K' = hd 0 p /\
      forall x, Cmult (Cminus x (RtoC s)) (cval K' x) = Cplus (cval p x) (Cmult (RtoC (- (rval p s / rval K s))) (cval K x))) \/
     (Rabs (rval K s) <= 10 * machine_eps * Rabs (last K 0) /\
      forall x, Cmult (Cminus x (RtoC s)) (cval K' x) = Cminus (cval K x) (RtoC (rval K s)))) /\
    ((rval K' s <> 0 /\ t' = - (rval p s / rval K' s)) \/
     (Rabs (rval K' s) <= 10 * machine_eps * Rabs (last K' 0) /\ t' = 0)).
Proof.
  intros rdiv n p K s0 s t omp j DV LP LK. cbv zeta. cbn [real_it]. set (N := length K) in *.
  rewrite (horner_last p s) by lia.
  destruct (Rleb (Rabs (rval p s)) _) eqn:EA; [now left|]. right.
  destruct ((2 <=? S j)%nat && _ && _) eqn:EC.
  { left. apply andb_prop in EC. destruct EC as [EC E3]. apply andb_prop in EC. destruct EC as [E1 E2].
    apply Nat.leb_le in E1. apply Rleb_true in E2. apply Rltb_true in E3. split; auto. split; [lia|]. split; auto.
    replace (s - t) with (- t + s) by ring. auto. }
  right. rewrite (horner_last K s) by lia.
  assert (LE : forall L : list R, length L = N -> elem L (N - 1) = last L 0).
  { intros L HL. unfold elem. destruct L as [|x L] using rev_ind; [cbn in HL; lia|]. rewrite app_length in HL. cbn in HL.
    rewrite last_last, app_nth2 by lia. now replace (N - 1 - length L)%nat with 0%nat by lia. }
  rewrite (LE K eq_refl).
  destruct (horner_deflate p s ltac:(lia)) as (LQ & HQ & SP). destruct (horner_deflate K s LK) as (LQK & _ & SK).
  fold N in SK. rewrite cval_real in SP, SK. replace (length p - 1)%nat with N in SP by lia.
  destruct (real_lists N (horner s p) (horner s K) (- rdiv (rval p s) (rval K s)) LK) as [F1 _].
  destruct (real_lists N (horner s p) (horner s K) 0 LK) as [_ F2]. rewrite F1, F2.
  set (K1 := map (fun i => - rdiv (rval p s) (rval K s) * sh 1 (horner s K) i + 0 * sh 1 (horner s K) i + sh 0 (horner s p) i) (seq 0 N)).
  set (K2 := map (sh 1 (horner s K)) (seq 0 N)).
  assert (L1 : length K1 = N) by (unfold K1; now rewrite map_length, seq_length).
  assert (L2 : length K2 = N) by (unfold K2; now rewrite map_length, seq_length).
  set (big := Rltb (Rabs (last K 0) * 10 * EPS) (Rabs (rval K s))).
  set (K' := if big then K1 else K2).
  assert (L' : length K' = N) by (unfold K'; destruct big; auto).
  rewrite (horner_last K' s) by lia. rewrite (LE K' L').
  eexists K', _. split; [exact L'|]. split; [reflexivity|]. split.
  - unfold K'. destruct big eqn:EB; unfold big in EB.
    + left. apply Rltb_true in EB.
      assert (NZ : rval K s <> 0).
      { intros Z. rewrite Z, Rabs_R0 in EB. pose proof (Rabs_pos (last K 0)). pose proof eps_pos. rewrite EPS_eps in EB. nra. }
      split; auto. split.
      { unfold K1. destruct N as [|m]; [lia|]. cbn [seq map hd]. unfold sh. cbn. rewrite <- HQ. destruct (horner s p); cbn; ring. }
      intros x. unfold K1. rewrite cval_linear, !cval_sh by lia. rewrite Nat.sub_0_r, DV by auto.
      rewrite (SP x), (SK x). set (A := cval (firstn N (horner s p)) x). set (B := cval (firstn (N - 1) (horner s K)) x).
      set (k := - (rval p s / rval K s)).
      transitivity (Cplus (Cplus (Cmult (Cminus x (RtoC s)) A) (Cmult (RtoC k) (Cmult (Cminus x (RtoC s)) B))) (RtoC (rval p s + k * rval K s))).
      * replace (rval p s + k * rval K s) with 0 by (unfold k; field; auto). ring.
      * rewrite RtoC_plus, RtoC_mult. ring.
    + right. apply Rltb_false in EB. rewrite EPS_eps in EB. split; [lra|].
      intros x. unfold K2. rewrite cval_sh by lia. rewrite (SK x). ring.
  - destruct (Rltb (Rabs (last K' 0) * 10 * EPS) (Rabs (rval K' s))) eqn:EB.
    + left. apply Rltb_true in EB.
      assert (NZ : rval K' s <> 0).
      { intros Z. rewrite Z, Rabs_R0 in EB. pose proof (Rabs_pos (last K' 0)). pose proof eps_pos. rewrite EPS_eps in EB. nra. }
      split; auto. now rewrite DV.
    + right. apply Rltb_false in EB. rewrite EPS_eps in EB. split; [lra|auto].
Qed.
Print Assumptions C99_linear_step.

(** Polynomials are locally Lipschitz, so equality off one point is equality. *)
Lemma gval_bound l x r : Cmod x <= r -> Cmod (gval l x) <= gnorm l r.
Proof.
  intros H. induction l as [|c l IH]; cbn [gval gnorm]; [rewrite Cmod_0; lra|].
  assert (P : Cmod (cpow x (length l)) <= r ^ length l).
  { clear IH. induction (length l) as [|n IHn]; cbn; [rewrite Cmod_1; lra|]. rewrite Cmod_mult.
    pose proof (Cmod_ge_0 x). pose proof (Cmod_ge_0 (cpow x n)). apply Rmult_le_compat; auto. }
  eapply Rle_trans; [apply Cmod_triangle|]. rewrite Cmod_mult. pose proof (Cmod_ge_0 c). nra.
Qed.
Lemma cval_lipschitz p s : exists B, 0 <= B /\ forall x, Cmod (Cminus x s) <= 1 -> Cmod (Cminus (cval p x) (cval p s)) <= B * Cmod (Cminus x s).
Proof.
  set (q := removelast (chorner s (map RtoC p))). exists (gnorm q (Cmod s + 1)). pose proof (Cmod_ge_0 s) as P0. split; [apply gnorm_pos; lra|].
  intros x H. replace (Cminus (cval p x) (cval p s)) with (Cmult (gval q x) (Cminus x s)).
  - rewrite Cmod_mult. apply Rmult_le_compat_r; [apply Cmod_ge_0|]. apply gval_bound.
    replace x with (Cplus s (Cminus x s)) by ring. eapply Rle_trans; [apply Cmod_triangle|]. lra.
  - rewrite <- !gval_RtoC. rewrite (chorner_value s (map RtoC p) x). rewrite chorner_last. unfold q. ring.
Qed.
Lemma vanishing (z : C) B : 0 <= B -> (forall e, 0 < e <= 1 -> Cmod z <= B * e) -> z = RtoC 0.
Proof.
  intros HB H. apply Cmod_eq_0. pose proof (Cmod_ge_0 z) as P. destruct (Rle_lt_dec (Cmod z) 0) as [|G]; [lra|]. exfalso.
  destruct (Req_dec B 0) as [-> |NB]; [specialize (H 1); lra|].
  set (e := Rmin 1 (Cmod z / (2 * B))).
  assert (E0 : 0 < e) by (unfold e; apply Rmin_glb_lt; [lra|apply Rdiv_lt_0_compat; lra]).
  pose proof (H e ltac:(split; auto; apply Rmin_l)) as X.
  assert (Y : B * e <= B * (Cmod z / (2 * B))) by (apply Rmult_le_compat_l; auto; apply Rmin_r).
  replace (B * (Cmod z / (2 * B))) with (Cmod z / 2) in Y by (field; auto). lra.
Qed.
Lemma same_values (p q : list R) (s : C) : (forall x, x <> s -> cval p x = cval q x) -> forall x, cval p x = cval q x.
Proof.
  intros H x. destruct (Ceq_dec x s) as [-> |N]; auto.
  destruct (cval_lipschitz p s) as (B1 & P1 & H1). destruct (cval_lipschitz q s) as (B2 & P2 & H2).
  assert (Z : Cminus (cval p s) (cval q s) = RtoC 0).
  { apply (vanishing _ (B1 + B2)); [lra|]. intros e He. set (y := Cplus s (RtoC e)).
    assert (YS : Cminus y s = RtoC e) by (unfold y; ring).
    assert (NE : y <> s).
    { intros E. assert (RtoC e = RtoC 0) by (rewrite <- YS, E; ring). apply RtoC_inj in H0. lra. }
    specialize (H1 y). specialize (H2 y). rewrite YS, Cmod_R, Rabs_pos_eq in H1, H2 by lra.
    replace (Cminus (cval p s) (cval q s)) with (Cplus (Copp (Cminus (cval p y) (cval p s))) (Cminus (cval q y) (cval q s))) by (rewrite (H y NE); ring).
    eapply Rle_trans; [apply Cmod_triangle|]. rewrite Cmod_opp. lra. }
  transitivity (Cplus (Cminus (cval p s) (cval q s)) (cval q s)); [ring|rewrite Z; ring].
Qed.
Lemma last_value (l : list R) : last l 0 = rval l 0.
Proof.
  destruct l as [|x l] using rev_ind; [reflexivity|]. unfold rval. rewrite last_last, cval_snoc. cbn. ring.
Qed.

(** When only one zero is left in P / K, one step of the linear iteration finds
    it, from any shift that is not a zero of K to within rounding. *)
Theorem C99_linear_exact : forall rdiv n (p K M : list R) (s0 s t omp k z : R), divides rdiv ->
  length p = S (length K) -> (1 <= length K)%nat -> k <> 0 ->
  (forall x, cval p x = Cmult (Cminus x (RtoC z)) (cval M x)) -> (forall x, cval K x = Cmult (RtoC k) (cval M x)) ->
  10 * machine_eps * Rabs (last K 0) < Rabs (rval K s) ->
  exists x, real_it rdiv (S n) (length K) p K s0 s 0 t omp = RFound x (horner x p) /\ (x = s \/ x = z).
Proof.
  intros rdiv n p K M s0 s t omp k z DV LP LK NK HP HK NS.
  destruct (C99_linear_step rdiv n p K s0 s t omp 0 DV LP LK) as [H|[(_ & J & _)|(K' & t' & L' & H & HK' & HT)]]; [exists s; auto|lia|].
  destruct HK' as [(KS & _ & HK')|(Z & _)]; [|lra].
  assert (RM : rval K s = k * rval M s).
  { unfold rval. rewrite HK. rewrite cval_real. cbn. ring. }
  assert (RP : rval p s = (s - z) * rval M s).
  { unfold rval. rewrite HP. rewrite (cval_real M). rewrite <- RtoC_minus, <- RtoC_mult. reflexivity. }
  assert (MS : rval M s <> 0) by (intros E; apply KS; rewrite RM, E; ring).
  assert (EQ : forall x, cval K' x = cval M x).
  { apply (same_values K' M (RtoC s)). intros x NX. specialize (HK' x). rewrite HP, HK, RP, RM in HK'.
    assert (NZ : Cminus x (RtoC s) <> RtoC 0) by (intros E; apply NX; transitivity (Cplus (Cminus x (RtoC s)) (RtoC s)); [ring|rewrite E; ring]).
    replace (- ((s - z) * rval M s / (k * rval M s))) with (- ((s - z) / k)) in HK' by (field; auto).
    transitivity (Cdiv (Cmult (Cminus x (RtoC s)) (cval K' x)) (Cminus x (RtoC s))); [field; auto|]. rewrite HK'.
    transitivity (Cdiv (Cplus (Cmult (Cminus x (RtoC z)) (cval M x)) (Cmult (RtoC (- ((s - z) / k) * k)) (cval M x))) (Cminus x (RtoC s))).
    - rewrite (RtoC_mult _ k). field; auto.
    - replace (- ((s - z) / k) * k) with (- (s - z)) by (field; auto). rewrite RtoC_opp, RtoC_minus. field; auto. }
  assert (RK : forall x, rval K' x = rval M x) by (intros x; unfold rval; now rewrite EQ).
  destruct HT as [(_ & HT)|(Z & _)].
  - rewrite RK, RP in HT. assert (ST : s + t' = z) by (rewrite HT; field; auto). rewrite ST in H.
    exists z. split; auto. rewrite H.
    assert (PZ : rval p z = 0) by (unfold rval; rewrite HP; cbn; ring).
    destruct n; cbn [real_it]; rewrite (horner_last p z), PZ, Rabs_R0 by lia.
    + destruct (Rleb 0 _) eqn:E; auto. apply Rleb_false in E. exfalso. unfold real_bound in E. rewrite bound_fold in E.
      pose proof (aval_pos (tl (horner z p)) (Rabs z) (Rabs_pos z)). pose proof (pow_le (Rabs z) (length (tl (horner z p))) (Rabs_pos z)).
      pose proof (Rabs_pos (elem (horner z p) 0)). pose proof eps_pos. rewrite EPS_eps in E. 
      assert (0 <= Rabs (elem (horner z p) 0) * Rabs z ^ length (tl (horner z p))) by (apply Rmult_le_pos; auto).
      nra.
    + destruct (Rleb 0 _) eqn:E; auto. apply Rleb_false in E. exfalso. unfold real_bound in E. rewrite bound_fold in E.
      pose proof (aval_pos (tl (horner z p)) (Rabs z) (Rabs_pos z)). pose proof (pow_le (Rabs z) (length (tl (horner z p))) (Rabs_pos z)).
      pose proof (Rabs_pos (elem (horner z p) 0)). pose proof eps_pos. rewrite EPS_eps in E. 
      assert (0 <= Rabs (elem (horner z p) 0) * Rabs z ^ length (tl (horner z p))) by (apply Rmult_le_pos; auto).
      nra.
  - exfalso. rewrite last_value, !RK in Z. rewrite last_value in NS.
    assert (RK0 : rval K 0 = k * rval M 0) by (unfold rval; rewrite HK, cval_real; cbn; ring).
    rewrite RK0, RM, !Rabs_mult in NS. pose proof (Rabs_pos_lt k NK). nra.
Qed.
Print Assumptions C99_linear_exact.

(** ** Repeating the quadratic shift *)

(** The next auxiliary polynomial for the shift x^2 + u x + v. *)
Definition shifted (rdiv : R -> R -> R) (p : list R) (u v : R) (K : list R) : list R :=
  let '(qp, a, b) := quad_sd u v p in next_k rdiv (length K) (calc_sc rdiv (length K) a b K u v) a b qp.

(** With a fixed shift (all steps of the normal kind) the values of the n-th
    auxiliary polynomial at the zeros of P are those of the first one divided by the
    n-th powers of the values of the shift, up to a common non-zero factor.  So
    of two zeros the one where the shift is smaller wins: relative to the value
    at that zero, the value at the other tends to 0. *)
Theorem C99_fixed_shift : forall rdiv (p : list R) (u v : R) (K : nat -> list R), divides rdiv ->
  length p = S (length (K O)) -> (2 <= length (K O))%nat -> hd 0 p <> 0 ->
  (forall x, quadratic u v x = RtoC 0 -> cval p x <> RtoC 0) ->
  (forall n, K (S n) = shifted rdiv p u v (K n)) -> (forall n, hd 0 (K (S n)) <> 0) ->
  (forall n, exists k, k <> 0 /\ forall z, cval p z = RtoC 0 ->
     Cmult (cpow (quadratic u v z) n) (cval (K n) z) = Cmult (RtoC k) (cval (K O) z)) /\
  (forall z w, cval p z = RtoC 0 -> cval p w = RtoC 0 -> cval (K O) z <> RtoC 0 ->
     Cmod (quadratic u v z) < Cmod (quadratic u v w) ->
     (forall n, cval (K n) z <> RtoC 0) /\
     forall e, 0 < e -> exists n0, forall n, (n0 <= n)%nat -> Cmod (cval (K n) w) <= e * Cmod (cval (K n) z)).
Proof.
  intros rdiv p u v K DV LP LK HP NS HK NH.
  assert (LN : forall n, length (K n) = length (K O)).
  { induction n as [|n IH]; auto. rewrite HK. unfold shifted. destruct (quad_sd u v p) as [[qp a] b]. rewrite IH. now apply next_k_length. }
  assert (ST : forall n, exists l1 l0 k, k <> 0 /\ forall x, Cmult (quadratic u v x) (cval (K (S n)) x) =
       Cplus (Cmult (line l1 l0 x) (cval p x)) (Cmult (RtoC k) (cval (K n) x))).
  { intros n. pose proof (C99_quadratic_step rdiv p (K n) u v DV ltac:(rewrite LN; auto) ltac:(rewrite LN; auto)) as Q.
    specialize (NH n). rewrite HK in *. unfold shifted in *. destruct (quad_sd u v p) as [[qp a] b]. cbv zeta in Q.
    destruct Q as (_ & l1 & l0 & k & r1 & r0 & E & [(-> & -> & -> & _ & NK)|[(_ & Z & _)|(_ & Z & _)]]); try contradiction.
    exists 1, l0, k. split; auto. intros x. rewrite E. unfold line. ring. }
  assert (PW : forall n, exists k, k <> 0 /\ forall z, cval p z = RtoC 0 ->
     Cmult (cpow (quadratic u v z) n) (cval (K n) z) = Cmult (RtoC k) (cval (K O) z)).
  { induction n as [|n (k & NK & IH)]; [exists 1; split; [lra|intros; cbn; ring]|].
    destruct (ST n) as (l1 & l0 & k' & NK' & E). exists (k' * k). split; [now apply Rmult_integral_contrapositive|].
    intros z Hz. cbn [cpow]. transitivity (Cmult (cpow (quadratic u v z) n) (Cmult (quadratic u v z) (cval (K (S n)) z))); [ring|].
    rewrite E, Hz. transitivity (Cmult (RtoC k') (Cmult (cpow (quadratic u v z) n) (cval (K n) z))); [ring|].
    rewrite (IH z Hz), RtoC_mult. ring. }
  split; auto. intros z w Hz Hw Kz LT.
  assert (CI : forall x y : C, Cmult x y = RtoC 0 -> x = RtoC 0 \/ y = RtoC 0).
  { intros x y Exy. destruct (Ceq_dec x (RtoC 0)) as [|N]; auto. right. transitivity (Cmult (Cinv x) (Cmult x y)); [field; auto|rewrite Exy; ring]. }
  assert (NZ : forall n, cval (K n) z <> RtoC 0).
  { intros n E. destruct (PW n) as (k & NK & H). specialize (H z Hz). rewrite E in H.
    destruct (CI (RtoC k) (cval (K O) z)) as [X|X]; [rewrite <- H; ring|apply RtoC_inj in X; auto|auto]. }
  split; auto. intros e He.
  set (sz := Cmod (quadratic u v z)) in *. set (sw := Cmod (quadratic u v w)) in *.
  assert (P0 : 0 <= sz) by apply Cmod_ge_0. assert (P1 : 0 < sw) by lra.
  assert (MP : forall x n, Cmod (cpow x n) = Cmod x ^ n).
  { intros x. induction n as [|n IH]; cbn; [apply Cmod_1|]. now rewrite Cmod_mult, IH. }
  pose proof (proj1 (Cmod_gt_0 _) Kz) as KZ. set (kz := Cmod (cval (K O) z)) in *. set (kw := Cmod (cval (K O) w)).
  assert (KW : 0 <= kw) by apply Cmod_ge_0.
  assert (RT : 0 <= sz / sw < 1).
  { split; [apply Rdiv_le_0_compat; auto|]. apply (Rmult_lt_reg_r sw); auto. unfold Rdiv. rewrite Rmult_assoc, Rinv_l; lra. }
  destruct (pow_lt_1_zero (sz / sw) ltac:(rewrite Rabs_pos_eq; lra) (e * kz / (kw + 1))) as (n0 & HN).
  { apply Rdiv_lt_0_compat; [apply Rmult_lt_0_compat|]; lra. }
  exists n0. intros n Hn. specialize (HN n Hn). rewrite Rabs_pos_eq in HN by (apply pow_le; lra).
  destruct (PW n) as (k & NK & H). pose proof (f_equal Cmod (H z Hz)) as HZ. pose proof (f_equal Cmod (H w Hw)) as HW.
  rewrite !Cmod_mult, !MP, !Cmod_R in HZ, HW. fold sz kz in HZ. fold sw kw in HW.
  set (a := Cmod (cval (K n) z)) in *. set (b := Cmod (cval (K n) w)) in *.
  assert (SW : 0 < sw ^ n) by now apply pow_lt. assert (AK : 0 < Rabs k) by now apply Rabs_pos_lt.
  assert (A0 : 0 <= a) by apply Cmod_ge_0.
  apply (Rmult_le_reg_l (sw ^ n)); auto. rewrite HW.
  assert (RN : sz ^ n = (sz / sw) ^ n * sw ^ n).
  { rewrite <- Rpow_mult_distr. f_equal. field. lra. }
  assert (B1 : (sz / sw) ^ n * (kw + 1) <= e * kz).
  { apply Rlt_le in HN. apply (Rmult_le_compat_r (kw + 1)) in HN; [|lra]. unfold Rdiv at 2 in HN. rewrite Rmult_assoc, Rinv_l in HN; lra. }
  set (q := (sz / sw) ^ n) in *. assert (Q0 : 0 <= q) by (apply pow_le; lra).
  rewrite RN in HZ. 
  (* |k| kz = q sw^n a *)
  apply (Rmult_le_reg_r kz); auto.
  replace (Rabs k * kw * kz) with (kw * (Rabs k * kz)) by ring. rewrite <- HZ.
  replace (kw * (q * sw ^ n * a)) with ((q * kw) * (sw ^ n * a)) by ring.
  replace (sw ^ n * (e * a) * kz) with ((e * kz) * (sw ^ n * a)) by ring.
  apply Rmult_le_compat_r; [apply Rmult_le_pos; lra|]. nra.
Qed.
Print Assumptions C99_fixed_shift.

(** ** The estimate of the quadratic factor *)

(** The two equations for the estimate uu, vv (u, v the current shift; a, b and c, d
    the remainders of P and K; b1, b2 the first two coefficients of - K / P at 0). *)
Definition estimate_eqs (a b c d u v b1 b2 uu vv : R) : Prop :=
  (uu - u) * c + (vv - v) * d + (b1 * uu + b2 * vv) * a + b1 * vv * b = 0 /\
  (vv - v) * (d * u + c) - v * (uu - u) * d + b1 * vv * (b * u + a) - v * (b1 * uu + b2 * vv) * b = 0.
Definition estimate_det (a b c d u v b1 b2 : R) : R :=
  (c + b1 * a) * (d * u + c + b1 * (b * u + a) - v * b2 * b) + (v * d + v * b1 * b) * (d + b2 * a + b1 * b).
Lemma estimate_unique a b c d u v b1 b2 uu vv : estimate_det a b c d u v b1 b2 <> 0 ->
  estimate_eqs a b c d u v b1 b2 uu vv -> forall u' v', estimate_eqs a b c d u v b1 b2 u' v' -> u' = uu /\ v' = vv.
Proof.
  unfold estimate_det, estimate_eqs. intros NZ [E1 E2] u' v' [F1 F2].
  split; apply Rminus_diag_uniq.
  - apply (Rmult_eq_reg_r ((c + b1 * a) * (d * u + c + b1 * (b * u + a) - v * b2 * b) + (v * d + v * b1 * b) * (d + b2 * a + b1 * b))); auto.
    rewrite Rmult_0_l.
    transitivity ((d * u + c + b1 * (b * u + a) - v * b2 * b) *
      ((u' - u) * c + (v' - v) * d + (b1 * u' + b2 * v') * a + b1 * v' * b - ((uu - u) * c + (vv - v) * d + (b1 * uu + b2 * vv) * a + b1 * vv * b))
      - (d + b2 * a + b1 * b) *
      ((v' - v) * (d * u + c) - v * (u' - u) * d + b1 * v' * (b * u + a) - v * (b1 * u' + b2 * v') * b
       - ((vv - v) * (d * u + c) - v * (uu - u) * d + b1 * vv * (b * u + a) - v * (b1 * uu + b2 * vv) * b))); [ring|].
    rewrite E1, E2, F1, F2. ring.
  - apply (Rmult_eq_reg_r ((c + b1 * a) * (d * u + c + b1 * (b * u + a) - v * b2 * b) + (v * d + v * b1 * b) * (d + b2 * a + b1 * b))); auto.
    rewrite Rmult_0_l.
    transitivity ((v * d + v * b1 * b) *
      ((u' - u) * c + (v' - v) * d + (b1 * u' + b2 * v') * a + b1 * v' * b - ((uu - u) * c + (vv - v) * d + (b1 * uu + b2 * vv) * a + b1 * vv * b))
      + (c + b1 * a) *
      ((v' - v) * (d * u + c) - v * (u' - u) * d + b1 * v' * (b * u + a) - v * (b1 * u' + b2 * v') * b
       - ((vv - v) * (d * u + c) - v * (uu - u) * d + b1 * vv * (b * u + a) - v * (b1 * uu + b2 * vv) * b))); [ring|].
    rewrite E1, E2, F1, F2. ring.
Qed.
Lemma newest_solves rdiv N a b (K p : list R) u v : divides rdiv -> elem p N <> 0 ->
  let sc := calc_sc rdiv N a b K u v in
  let c := sc_c sc in let d := sc_d sc in
  let b1 := - elem K (N - 1) / elem p N in
  let b2 := - (elem K (N - 2) + b1 * elem p (N - 1)) / elem p N in
  let '(uu, vv) := newest rdiv sc a b u v K N p in
  (uu = 0 /\ vv = 0) \/
  (estimate_eqs a b c d u v b1 b2 uu vv /\ forall u' v', estimate_eqs a b c d u v b1 b2 u' v' -> u' = uu /\ v' = vv).
Proof.
  intros DV PN. unfold newest, calc_sc. destruct (quad_sd u v K) as [[qk c] d]. cbv zeta.
  destruct (_ && _) eqn:E; [now left|].
  assert (NZ : c <> 0 \/ d <> 0).
  { destruct (Req_dec c 0) as [-> |]; auto. destruct (Req_dec d 0) as [-> |]; auto. exfalso. rewrite Rabs_R0 in E.
    assert (P : forall x, Rleb 0 (10 * EPS * Rabs x) = true).
    { intros x. apply Rleb_true. pose proof (Rabs_pos x). pose proof eps_pos. rewrite EPS_eps. nra. }
    rewrite !P in E. discriminate. }
  rewrite !(DV _ (elem p N)) by auto.
  set (b1 := - elem K (N - 1) / elem p N). set (b2 := - (elem K (N - 2) + b1 * elem p (N - 1)) / elem p N).
  destruct (Rleb (Rabs c) (Rabs d)) eqn:EC; cbn [sc_flag sc_a1 sc_a3 sc_a7 sc_c sc_d sc_f sc_g sc_h].
  - apply Rleb_true in EC. assert (D : d <> 0).
    { intros ->. rewrite Rabs_R0 in EC. destruct NZ as [C|C]; [|congruence]. apply Rabs_pos_lt in C. lra. }
    rewrite !(DV _ d) by auto.
    match goal with |- context [is_zero ?t] => set (temp := t) end.
    destruct (is_zero temp) eqn:ET; [now left|]. right. apply is_zero_false in ET. rewrite !(DV _ temp) by auto.
    assert (TD : estimate_det a b c d u v b1 b2 = d * temp) by (unfold estimate_det, temp; field; auto).
    assert (ND : estimate_det a b c d u v b1 b2 <> 0) by (rewrite TD; now apply Rmult_integral_contrapositive).
    match goal with |- estimate_eqs _ _ _ _ _ _ _ _ ?x ?y /\ _ => set (uu := x); set (vv := y) end.
    assert (EE : estimate_eqs a b c d u v b1 b2 uu vv).
    { unfold estimate_eqs, uu, vv. clearbody b1 b2. clear - D ET TD. 
      split; apply (Rmult_eq_reg_r temp); auto; rewrite Rmult_0_l.
      - field_simplify_eq; auto. unfold temp. field. auto.
      - field_simplify_eq; auto. unfold temp. field. auto. }
    split; auto. now apply estimate_unique.
  - apply Rleb_false in EC. assert (D : c <> 0).
    { intros ->. rewrite Rabs_R0 in EC. pose proof (Rabs_pos d). lra. }
    rewrite !(DV _ c) by auto.
    match goal with |- context [is_zero ?t] => set (temp := t) end.
    destruct (is_zero temp) eqn:ET; [now left|]. right. apply is_zero_false in ET. rewrite !(DV _ temp) by auto.
    assert (TD : estimate_det a b c d u v b1 b2 = c * temp) by (unfold estimate_det, temp; field; auto).
    assert (ND : estimate_det a b c d u v b1 b2 <> 0) by (rewrite TD; now apply Rmult_integral_contrapositive).
    match goal with |- estimate_eqs _ _ _ _ _ _ _ _ ?x ?y /\ _ => set (uu := x); set (vv := y) end.
    assert (EE : estimate_eqs a b c d u v b1 b2 uu vv).
    { unfold estimate_eqs, uu, vv. clearbody b1 b2. clear - D ET TD. 
      split; apply (Rmult_eq_reg_r temp); auto; rewrite Rmult_0_l.
      - field_simplify_eq; auto. unfold temp. field. auto.
      - field_simplify_eq; auto. unfold temp. field. auto. }
    split; auto. now apply estimate_unique.
Qed.

(** Polynomial functions. *)
Definition polyfun (f : C -> C) : Prop := exists l, forall x, f x = cval l x.
Lemma poly_ext f g : (forall x, f x = g x) -> polyfun f -> polyfun g.
Proof. intros H [l E]. exists l. intros x. now rewrite <- H. Qed.
Lemma poly_cval l : polyfun (cval l).
Proof. now exists l. Qed.
Lemma poly_line l1 l0 : polyfun (line l1 l0).
Proof. exists [l1; l0]. intros x. unfold line. cbn. ring. Qed.
Lemma poly_add f g : polyfun f -> polyfun g -> polyfun (fun x => Cplus (f x) (g x)).
Proof.
  intros [l Hl] [m Hm]. assert (X : forall l m, exists n, forall x, Cplus (cval l x) (cval m x) = cval n x).
  { clear. induction l as [|c l IH] using rev_ind; intros m; [exists m; intros; cbn; ring|].
    destruct m as [|d m] using rev_ind; [exists (l ++ [c]); intros; cbn; ring|]. clear IHm.
    destruct (IH m) as [n Hn]. exists (n ++ [c + d]). intros x. rewrite !cval_snoc, <- Hn, RtoC_plus. ring. }
  destruct (X l m) as [n Hn]. exists n. intros x. now rewrite Hl, Hm, Hn.
Qed.
Lemma poly_scale k f : polyfun f -> polyfun (fun x => Cmult (RtoC k) (f x)).
Proof. intros [l Hl]. exists (map (fun c => c * k) l). intros x. now rewrite cval_scale, Hl. Qed.
Lemma poly_x f : polyfun f -> polyfun (fun x => Cmult x (f x)).
Proof. intros [l Hl]. exists (l ++ [0]). intros x. rewrite cval_snoc, Hl. ring. Qed.
Lemma poly_mul_line l1 l0 f : polyfun f -> polyfun (fun x => Cmult (line l1 l0 x) (f x)).
Proof.
  intros H. apply poly_ext with (fun x => Cplus (Cmult (RtoC l1) (Cmult x (f x))) (Cmult (RtoC l0) (f x))); [intros; unfold line; ring|].
  apply poly_add; [apply poly_scale; now apply poly_x|now apply poly_scale].
Qed.
Lemma poly_mul_quadratic u v f : polyfun f -> polyfun (fun x => Cmult (quadratic u v x) (f x)).
Proof.
  intros H. apply poly_ext with (fun x => Cplus (Cmult x (Cmult x (f x))) (Cmult (line u v x) (f x))); [intros; unfold line, quadratic; ring|].
  apply poly_add; [now repeat apply poly_x|now apply poly_mul_line].
Qed.
Lemma csub_nz (x s : C) : x <> s -> Cminus x s <> RtoC 0.
Proof. intros NX X. apply NX. transitivity (Cplus (Cminus x s) s); [ring|rewrite X; ring]. Qed.
(** A line is not a multiple of a quadratic. *)
Lemma no_linear_multiple u v r1 r0 f : polyfun f -> (forall x, line r1 r0 x = Cmult (quadratic u v x) (f x)) -> r1 = 0 /\ r0 = 0.
Proof.
  intros [W HW] H. set (rd := fun x y : R => x / y). assert (DV : divides rd) by (intros x y _; reflexivity).
  destruct (quad rd 1 u v) as [s l] eqn:E. pose proof (C59_quadratic_solver rd 1 u v DV) as Q. rewrite E in Q.
  destruct Q as [Q _]. destruct (Q ltac:(lra)) as (F & _ & _).
  assert (FQ : forall x, quadratic u v x = Cmult (Cminus x s) (Cminus x l)).
  { intros x. specialize (F x). unfold quadratic. cbn in F. transitivity (Cmult (RtoC 1) (Cmult (Cminus x s) (Cminus x l))); [rewrite <- F; ring|ring]. }
  assert (Z : line r1 r0 s = RtoC 0) by (rewrite H, FQ; ring).
  assert (L : forall x, line r1 r0 x = Cmult (RtoC r1) (Cminus x s)).
  { intros x. transitivity (Cminus (line r1 r0 x) (line r1 r0 s)); [rewrite Z; ring|unfold line; ring]. }
  assert (D : forall x, x <> s -> RtoC r1 = Cmult (Cminus x l) (cval W x)).
  { intros x NX. pose proof (csub_nz x s NX) as NZ.
    pose proof (H x) as Hx. rewrite L, FQ, HW in Hx.
    transitivity (Cdiv (Cmult (RtoC r1) (Cminus x s)) (Cminus x s)); [field; auto|]. rewrite Hx. field; auto. }
  assert (R1 : RtoC r1 = RtoC 0).
  { destruct (Ceq_dec l s) as [-> |N]; [|rewrite (D l N); ring].
    destruct (cval_lipschitz W s) as (B & PB & HB). apply (vanishing _ (B + Cmod (cval W s))).
    - pose proof (Cmod_ge_0 (cval W s)). lra.
    - intros e He. set (y := Cplus s (RtoC e)). assert (YS : Cminus y s = RtoC e) by (unfold y; ring).
      rewrite (D y).
      + specialize (HB y). rewrite YS, Cmod_R, Rabs_pos_eq in HB by lra. rewrite Cmod_mult, YS, Cmod_R, Rabs_pos_eq, Rmult_comm by lra.
        apply Rmult_le_compat_r; [lra|]. replace (cval W y) with (Cplus (Cminus (cval W y) (cval W s)) (cval W s)) by ring.
        eapply Rle_trans; [apply Cmod_triangle|]. specialize (HB ltac:(lra)). nra.
      + intros X. assert (Y : RtoC e = RtoC 0) by (rewrite <- YS, X; ring). apply RtoC_inj in Y. lra. }
  apply RtoC_inj in R1. split; auto. pose proof (L (RtoC 0)) as L0. rewrite R1 in L0. unfold line in L0.
  apply RtoC_inj. transitivity (Cplus (Cmult (RtoC 0) (RtoC 0)) (RtoC r0)); [ring|]. rewrite L0. ring.
Qed.
Lemma low_terms (p : list R) : (2 <= length p)%nat ->
  exists q, forall x, cval p x = Cplus (Cmult (Cmult x x) (cval q x)) (line (elem p (length p - 2)) (elem p (length p - 1)) x).
Proof.
  intros H. destruct p as [|c0 p _] using rev_ind; [cbn in H; lia|]. destruct p as [|c1 p _] using rev_ind; [cbn in H; lia|].
  exists p. intros x. rewrite !cval_snoc. unfold elem. rewrite !app_length. cbn [length].
  replace (length p + 1 + 1 - 2)%nat with (length p) by lia. replace (length p + 1 + 1 - 1)%nat with (length p + 1)%nat by lia.
  rewrite app_nth1 by (rewrite app_length; cbn; lia). rewrite app_nth2 by lia. rewrite Nat.sub_diag. cbn [nth].
  rewrite app_nth2 by (rewrite app_length; cbn; lia). rewrite app_length. cbn [length]. rewrite Nat.sub_diag. cbn [nth].
  unfold line. ring.
Qed.

(** Specification: with some line L, L / (x^2 + u' x + v') interpolates - K / P at
    the zeros of x^2 + u x + v and, with its derivative, at 0. *)
Definition interpolates (p K : list R) (u v u' v' : R) : Prop :=
  exists (l1 l0 : R) (W V : list R), forall x,
    Cplus (Cmult (quadratic u' v' x) (cval K x)) (Cmult (line l1 l0 x) (cval p x)) = Cmult (quadratic u v x) (cval W x) /\
    Cplus (Cmult (quadratic u' v' x) (cval K x)) (Cmult (line l1 l0 x) (cval p x)) = Cmult (Cmult x x) (cval V x).
(** The estimate of the quadratic factor is the denominator of that interpolant,
    which is unique, unless it is reported as 0, 0 (no estimate). *)
Theorem C99_estimate : forall rdiv (p K : list R) (u v : R), divides rdiv ->
  length p = S (length K) -> (2 <= length K)%nat -> last p 0 <> 0 ->
  let '(qp, a, b) := quad_sd u v p in
  let '(uu, vv) := newest rdiv (calc_sc rdiv (length K) a b K u v) a b u v K (length K) p in
  (uu = 0 /\ vv = 0) \/
  (interpolates p K u v uu vv /\ forall u' v', interpolates p K u v u' v' -> u' = uu /\ v' = vv).
Proof.
  intros rdiv p K u v DV LP LK PN. destruct (quad_sd u v p) as [[qp a] b] eqn:EP.
  pose proof (quad_sd_spec u v p ltac:(lia)) as SP. rewrite EP in SP. destruct SP as (_ & _ & SP).
  set (N := length K) in *. set (sc := calc_sc rdiv N a b K u v).
  pose proof (calc_sc_division rdiv N a b K u v) as EK. cbv zeta in EK. fold sc in EK.
  pose proof (quad_sd_spec u v K LK) as SK. rewrite EK in SK. destruct SK as (_ & _ & SK).
  assert (PE : elem p N = last p 0).
  { unfold elem. destruct p as [|x l _] using rev_ind; [cbn in LP; lia|]. rewrite app_length in LP. cbn in LP.
    rewrite last_last, app_nth2 by lia. now replace (N - length l)%nat with 0%nat by lia. }
  pose proof (newest_solves rdiv N a b K p u v DV ltac:(rewrite PE; auto)) as NS. cbv zeta in NS. fold sc in NS.
  set (c := sc_c sc) in *. set (d := sc_d sc) in *.
  set (b1 := - elem K (N - 1) / elem p N) in *. set (b2 := - (elem K (N - 2) + b1 * elem p (N - 1)) / elem p N) in *.
  destruct (newest rdiv sc a b u v K N p) as [uu vv]. destruct NS as [NS|[NE NU]]; [now left|]. right.
  destruct (low_terms K LK) as [K2 HK2]. destruct (low_terms p ltac:(lia)) as [P2 HP2]. fold N in HK2.
  replace (length p - 1)%nat with N in HP2 by lia. replace (length p - 2)%nat with (N - 1)%nat in HP2 by lia.
  set (k0 := elem K (N - 1)) in *. set (k1 := elem K (N - 2)) in *. set (p0 := elem p N) in *. set (p1 := elem p (N - 1)) in *.
  assert (P0 : p0 <> 0) by (rewrite PE; auto).
  assert (B1 : k0 + b1 * p0 = 0) by (unfold b1; field; auto).
  assert (B2 : k1 + b1 * p1 + b2 * p0 = 0) by (unfold b2; field; auto).
  set (Qk := cval (firstn (length K - 2) (sc_qk sc))) in *. set (Qp := cval (firstn (length p - 2) qp)) in *.
  assert (PK : polyfun Qk) by apply poly_cval. assert (PP : polyfun Qp) by apply poly_cval.
  (* the combination as a multiple of the shift and of x^2, plus lines *)
  assert (DS : forall u' v' l1 l0, exists f, polyfun f /\ forall x,
    Cplus (Cmult (quadratic u' v' x) (cval K x)) (Cmult (line l1 l0 x) (cval p x)) =
    Cplus (Cmult (quadratic u v x) (f x)) (line ((u' - u) * c + (v' - v) * d + l1 * a + l0 * b)
       ((v' - v) * (d * u + c) - v * (u' - u) * d + l0 * (b * u + a) - v * l1 * b) x)).
  { intros u' v' l1 l0.
    exists (fun x => Cplus (Cplus (Cmult (quadratic u' v' x) (Qk x)) (Cmult (line l1 l0 x) (Qp x))) (line d (c + u' * d + l1 * b) x)).
    split.
    - apply poly_add; [apply poly_add; [now apply poly_mul_quadratic|now apply poly_mul_line]|apply poly_line].
    - intros x. rewrite SP, SK. fold c d. unfold quadratic, line. repeat rewrite ?RtoC_minus, ?RtoC_plus, ?RtoC_mult. ring. }
  assert (DX : forall u' v' l1 l0, exists f, polyfun f /\ forall x,
    Cplus (Cmult (quadratic u' v' x) (cval K x)) (Cmult (line l1 l0 x) (cval p x)) =
    Cplus (Cmult (Cmult x x) (f x)) (line (u' * k0 + v' * k1 + l1 * p0 + l0 * p1) (v' * k0 + l0 * p0) x)).
  { intros u' v' l1 l0.
    exists (fun x => Cplus (Cplus (Cmult (quadratic u' v' x) (cval K2 x)) (Cmult (line l1 l0 x) (cval P2 x))) (line k1 (k0 + u' * k1 + l1 * p1) x)).
    split.
    - apply poly_add; [apply poly_add; [apply poly_mul_quadratic|apply poly_mul_line]; apply poly_cval|apply poly_line].
    - intros x. rewrite HK2, HP2. unfold quadratic, line. repeat rewrite ?RtoC_minus, ?RtoC_plus, ?RtoC_mult. ring. }
  assert (LZ : forall x, line 0 0 x = RtoC 0) by (intros x; unfold line; ring).
  split.
  - destruct NE as [E1 E2]. exists (b1 * uu + b2 * vv), (b1 * vv).
    destruct (DS uu vv (b1 * uu + b2 * vv) (b1 * vv)) as (f & [W HW] & HS). destruct (DX uu vv (b1 * uu + b2 * vv) (b1 * vv)) as (g & [V HV] & HX).
    exists W, V. intros x. split.
    + rewrite HS, E1, E2, LZ, HW. ring.
    + rewrite HX.
      replace (uu * k0 + vv * k1 + (b1 * uu + b2 * vv) * p0 + b1 * vv * p1) with (uu * (k0 + b1 * p0) + vv * (k1 + b1 * p1 + b2 * p0)) by ring.
      replace (vv * k0 + b1 * vv * p0) with (vv * (k0 + b1 * p0)) by ring. rewrite B1, B2, !Rmult_0_r, Rplus_0_r, LZ, HV. ring.
  - intros u' v' (l1 & l0 & W & V & H). apply NU.
    assert (SUB : forall f g u v r1 r0, polyfun f -> polyfun g -> (forall x, Cplus (Cmult (quadratic u v x) (f x)) (line r1 r0 x) = Cmult (quadratic u v x) (g x)) -> r1 = 0 /\ r0 = 0).
    { clear. intros f g u v r1 r0 F G H. apply (no_linear_multiple u v r1 r0 (fun x => Cplus (g x) (Cmult (RtoC (-1)) (f x)))).
      - apply poly_add; auto. now apply poly_scale.
      - intros x. transitivity (Cminus (Cplus (Cmult (quadratic u v x) (f x)) (line r1 r0 x)) (Cmult (quadratic u v x) (f x))); [ring|].
        rewrite H. replace (RtoC (-1)) with (Copp (RtoC 1)) by (rewrite <- RtoC_opp; reflexivity). ring. }
    destruct (DX u' v' l1 l0) as (g & Pg & HX). destruct (DS u' v' l1 l0) as (f & Pf & HS).
    assert (HX' : forall x, Cplus (Cmult (quadratic 0 0 x) (g x)) (line (u' * k0 + v' * k1 + l1 * p0 + l0 * p1) (v' * k0 + l0 * p0) x) = Cmult (quadratic 0 0 x) (cval V x)).
    { intros x. destruct (H x) as [_ H2]. rewrite HX in H2. transitivity (Cmult (Cmult x x) (cval V x)); [rewrite <- H2; unfold quadratic; ring|unfold quadratic; ring]. }
    destruct (SUB _ _ _ _ _ _ Pg (poly_cval V) HX') as [X1 X0].
    destruct (SUB _ _ _ _ _ _ Pf (poly_cval W) (fun x => eq_trans (eq_sym (HS x)) (proj1 (H x)))) as [S1 S0].
    assert (L0 : l0 = b1 * v').
    { apply (Rmult_eq_reg_r p0); auto. apply Rminus_diag_uniq. transitivity ((v' * k0 + l0 * p0) - v' * (k0 + b1 * p0)); [ring|rewrite X0, B1; ring]. }
    assert (L1 : l1 = b1 * u' + b2 * v').
    { apply (Rmult_eq_reg_r p0); auto. apply Rminus_diag_uniq.
      transitivity ((u' * k0 + v' * k1 + l1 * p0 + l0 * p1) - u' * (k0 + b1 * p0) - v' * (k1 + b1 * p1 + b2 * p0)); [rewrite L0; ring|rewrite X1, B1, B2; ring]. }
    unfold estimate_eqs. rewrite <- L1, <- L0. split; [exact S1|exact S0].
Qed.
Print Assumptions C99_estimate.
(** So when only two zeros are left in P / K the estimate is their quadratic. *)
Theorem C99_estimate_exact : forall rdiv (p K M : list R) (u v u' v' l1 l0 : R), divides rdiv ->
  length p = S (length K) -> (2 <= length K)%nat -> last p 0 <> 0 ->
  (forall x, cval p x = Cmult (quadratic u' v' x) (cval M x)) -> (forall x, cval K x = Cmult (line l1 l0 x) (cval M x)) ->
  let '(qp, a, b) := quad_sd u v p in
  let e := newest rdiv (calc_sc rdiv (length K) a b K u v) a b u v K (length K) p in
  e = (u', v') \/ e = (0, 0).
Proof.
  intros rdiv p K M u v u' v' l1 l0 DV LP LK PN HP HK. pose proof (C99_estimate rdiv p K u v DV LP LK PN) as H.
  destruct (quad_sd u v p) as [[qp a] b]. cbv zeta. destruct (newest _ _ _ _ _ _ _ _ _) as [uu vv].
  destruct H as [[-> ->]|[_ H]]; auto. left.
  destruct (H u' v') as [-> ->]; auto. exists (- l1), (- l0), [], []. intros x. rewrite HP, HK. unfold line. cbn [cval]. rewrite !RtoC_opp. split; ring.
Qed.
Print Assumptions C99_estimate_exact.

(** ** The first stage *)

(** A step without shift: x K' = P - P(0)/K(0) K, or x K' = K - K(0) when K(0)
    is taken to be 0. *)
Definition unshifted_step (p K K' : list R) : Prop :=
  length K' = length K /\
  ((rval K 0 <> 0 /\ forall x, Cmult x (cval K' x) = Cplus (cval p x) (Cmult (RtoC (- (rval p 0 / rval K 0))) (cval K x))) \/
   (Rabs (rval K 0) <= 10 * machine_eps * Rabs (nth (length K - 1) p 0) /\
    forall x, Cmult x (cval K' x) = Cminus (cval K x) (RtoC (rval K 0)))).
Inductive unshifted (p : list R) : nat -> list R -> list R -> Prop :=
  | un_0 K : unshifted p 0 K K
  | un_S n K K' L : unshifted_step p K K' -> unshifted p n K' L -> unshifted p (S n) K L.

Lemma elem_last (L : list R) : elem L (length L - 1) = last L 0.
Proof.
  unfold elem. destruct L as [|x L _] using rev_ind; [reflexivity|]. rewrite app_length, last_last. cbn [length].
  rewrite app_nth2 by lia. now replace (length L + 1 - 1 - length L)%nat with 0%nat by lia.
Qed.
Lemma cval_split (p : list R) x : (1 <= length p)%nat -> cval p x = Cplus (Cmult x (cval (firstn (length p - 1) p) x)) (RtoC (rval p 0)).
Proof.
  intros H. rewrite <- last_value. destruct p as [|c p _] using rev_ind; [cbn in H; lia|].
  rewrite last_last, cval_snoc, app_length. cbn [length]. replace (length p + 1 - 1)%nat with (length p) by lia.
  rewrite firstn_app, firstn_all, Nat.sub_diag. cbn [firstn]. now rewrite app_nil_r.
Qed.
Lemma no_shift_steps rdiv (p : list R) : divides rdiv -> forall n K zerok, length p = S (length K) -> (1 <= length K)%nat ->
  (zerok = true -> Rabs (rval K 0) <= 10 * machine_eps * Rabs (nth (length K - 1) p 0)) -> (zerok = false -> rval K 0 <> 0) ->
  unshifted p n K (no_shift rdiv n (length K) p K zerok).
Proof.
  intros DV. induction n as [|n IH]; intros K zerok LP LK HT HF; [constructor|]. cbn [no_shift].
  assert (EP : elem p (length K) = last p 0) by (rewrite <- elem_last; f_equal; lia).
  destruct zerok.
  - set (K' := 0 :: removelast K).
    assert (L' : length K' = length K).
    { unfold K'. cbn. rewrite removelast_firstn_len, firstn_length. lia. }
    assert (RK : forall x, cval K x = Cplus (Cmult x (cval K' x)) (RtoC (rval K 0))).
    { intros x. unfold K'. rewrite <- last_value. rewrite (app_removelast_last 0 (l := K)) at 1 by (intros ->; cbn in LK; lia).
      rewrite cval_snoc. cbn [cval]. ring. }
    apply un_S with K'.
    + split; auto. right. split; auto. intros x. rewrite RK. ring.
    + rewrite <- L'. apply IH; try lia.
      * intros Z. apply is_zero_true in Z. rewrite elem_last, last_value in Z. rewrite Z, Rabs_R0. pose proof eps_pos.
        pose proof (Rabs_pos (nth (length K' - 1) p 0)). nra.
      * intros Z. apply is_zero_false in Z. now rewrite elem_last, last_value in Z.
  - specialize (HF eq_refl). rewrite EP, elem_last, !last_value. rewrite DV by auto. set (t := - rval p 0 / rval K 0).
    set (K' := elem p 0 :: map (fun j => t * elem K (j - 1) + elem p j) (seq 1 (length K - 1))).
    assert (L' : length K' = length K) by (unfold K'; cbn; rewrite map_length, seq_length; lia).
    apply un_S with K'.
    + split; auto. left. split; auto. intros x.
      destruct (real_lists (length K) p K t LK) as [F _]. unfold K'. rewrite F, cval_linear, !cval_sh by lia. rewrite Nat.sub_0_r.
      pose proof (cval_split p x ltac:(lia)) as X1. replace (length p - 1)%nat with (length K) in X1 by lia.
      pose proof (cval_split K x LK) as X2.
      rewrite X1, X2. fold t.
      replace (- (rval p 0 / rval K 0)) with t by (unfold t; field; auto).
      match goal with |- ?l = ?r => transitivity (Cminus r (RtoC (rval p 0 + t * rval K 0))) end.
      * rewrite RtoC_plus, RtoC_mult. ring.
      * replace (rval p 0 + t * rval K 0) with 0 by (unfold t; field; auto). ring.
    + rewrite <- L'. apply IH; try lia.
      * intros Z. apply Rleb_true in Z. rewrite elem_last, last_value, EPS_eps in Z. unfold elem in Z. lra.
      * intros Z X. apply Rleb_false in Z. rewrite elem_last, last_value, X, Rabs_R0, EPS_eps in Z. pose proof eps_pos.
        pose proof (Rabs_pos (elem p (length K' - 1))). nra.
Qed.
Lemma cpow_real s n : cpow (RtoC s) n = RtoC (s ^ n).
Proof. induction n as [|n IH]; cbn; auto. now rewrite IH, RtoC_mult. Qed.
Lemma rval_cons c l x : rval (c :: l) x = c * x ^ length l + rval l x.
Proof. unfold rval. cbn [cval]. rewrite cpow_real, cval_real. cbn. ring. Qed.
Lemma rval_snoc l c x : rval (l ++ [c]) x = x * rval l x + c.
Proof. unfold rval. rewrite cval_snoc, cval_real. cbn. ring. Qed.

(** The first stage starts from the derivative divided by the degree and makes
    five steps without shift. *)
Theorem C99_first_stage : forall rdiv (p : list R), divides rdiv -> (2 <= length p)%nat ->
  exists K0, (forall x, is_derive (rval p) x (INR (length p - 1) * rval K0 x)) /\
    unshifted p 5 K0 (first_stage rdiv (length p - 1) p).
Proof.
  intros rdiv p DV LP. unfold first_stage. set (N := (length p - 1)%nat).
  set (K0 := elem p 0 :: map (fun i => rdiv (INR (N - i) * elem p i) (INR N)) (seq 1 (N - 1))).
  assert (LK : length K0 = N) by (unfold K0; cbn; rewrite map_length, seq_length; unfold N; lia).
  assert (NP : INR N <> 0) by (apply not_0_INR; unfold N; lia).
  exists K0. split.
  - intros x.
    assert (DP : forall l, is_derive (rval l) x (rval (map (fun i => INR (length l - 1 - i) * elem l i) (seq 0 (length l - 1))) x)).
    { induction l as [|c l IH].
      - cbn. change (rval [] x) with (@zero R_NormedModule). apply (is_derive_ext (fun _ : R => 0)); [reflexivity|]. apply (is_derive_const (V := R_NormedModule)).
      - apply is_derive_ext with (fun y => c * y ^ length l + rval l y); [intros y; symmetry; apply rval_cons|].
        destruct l as [|c' l].
        + cbn. change (rval [] x) with (@zero R_NormedModule). apply (is_derive_ext (fun _ : R => c * 1 + 0)); [reflexivity|]. apply (is_derive_const (V := R_NormedModule)).
        + set (m := c' :: l) in *. assert (LM : (1 <= length m)%nat) by (cbn; lia).
          replace (length (c :: m) - 1)%nat with (length m) by (cbn; lia).
          assert (SQ : seq 0 (length m) = 0%nat :: map S (seq 0 (length m - 1))).
          { rewrite seq_shift. replace (length m) with (S (length m - 1)) at 1 by lia. reflexivity. }
          rewrite SQ. cbn [map]. rewrite rval_cons, !map_length, seq_length, map_map.
          apply (is_derive_plus (V := R_NormedModule)).
          * unfold elem. cbn [nth]. rewrite Nat.sub_0_r. replace (length m) with (S (length m - 1)) by lia.
            generalize (length m - 1)%nat. intros k. replace (S k - 1)%nat with k by lia. replace (INR (S k) * c * x ^ k) with (c * (INR (S k) * x ^ k)) by ring.
            apply is_derive_Reals, (derivable_pt_lim_scal (fun y => y ^ S k)), (derivable_pt_lim_pow x (S k)).
          * erewrite map_ext_in; [exact IH|]. intros i Hi. apply in_seq in Hi. cbn. unfold elem. f_equal. f_equal. lia. }
    specialize (DP p). fold N in DP. replace (INR N * rval K0 x) with (rval (map (fun i => INR (N - i) * elem p i) (seq 0 N)) x); auto.
    assert (SC : forall k l, k * rval l x = rval (map (fun c => c * k) l) x).
    { intros k l. unfold rval. rewrite cval_scale, cval_real. cbn. ring. }
    rewrite SC. f_equal. unfold K0.
    assert (SQ : seq 0 N = 0%nat :: seq 1 (N - 1)) by (replace N with (S (N - 1)) at 1 by (unfold N; lia); reflexivity).
    rewrite SQ. cbn [map]. rewrite map_map, Nat.sub_0_r, Rmult_comm. f_equal. apply map_ext_in. intros i Hi. rewrite DV by auto. field. auto.
  - rewrite <- LK. apply no_shift_steps; auto; try (rewrite LK; unfold N; lia).
    + intros Z. apply is_zero_true in Z. rewrite elem_last, last_value in Z. rewrite Z, Rabs_R0. pose proof eps_pos.
      pose proof (Rabs_pos (nth (length K0 - 1) p 0)). nra.
    + intros Z. apply is_zero_false in Z. now rewrite elem_last, last_value in Z.
Qed.
Print Assumptions C99_first_stage.

(** ** The bound on the moduli of the zeros *)

Lemma evalr_mono r x l : Forall (fun c => 0 <= c) l -> 0 <= r <= x -> forall f g, 0 <= f <= g -> 0 <= evalr r l f <= evalr x l g.
Proof.
  intros F H. induction F as [|c l Hc F IH]; intros f g HF; [exact HF|]. cbn [evalr fold_left]. apply IH.
  assert (f * r <= g * x) by (apply Rmult_le_compat; lra). assert (0 <= f * r) by (apply Rmult_le_pos; lra). lra.
Qed.
Lemma pairr_slope x l : Forall (fun c => 0 <= c) l -> 0 <= x -> forall f d k, 0 <= f -> 0 <= k -> d <= k * f ->
  let '(f', d') := pairr x l (f, d) in d' <= (k + INR (length l)) * f'.
Proof.
  intros F Hx. induction F as [|c l Hc F IH]; intros f d k Hf Hk H; [cbn; lra|].
  cbn [pairr fold_left fst snd]. cbn [length]. rewrite S_INR.
  assert (X0 : 0 <= x * f) by (apply Rmult_le_pos; lra).
  assert (X1 : x * d <= x * (k * f)) by (apply Rmult_le_compat_l; lra).
  specialize (IH (x * f + c) (x * d + (x * f + c)) (k + 1) ltac:(lra) ltac:(lra) ltac:(nra)).
  unfold pairr in IH. destruct (fold_left _ l _) as [f' d']. lra.
Qed.

(** Newton's method for c0 x^(m+1) + ... - e. *)
Lemma newton_result rdiv c0 e cr : divides rdiv -> 0 < c0 -> 0 < e -> Forall (fun c => 0 <= c) cr -> (1 <= length cr)%nat ->
  let pt := c0 :: cr ++ [- e] in
  forall fuel x dx y, 0 < x ->
    (dx = x \/ (0 <= eval_dec pt x /\ forall r, 0 <= r -> 0 <= eval_dec pt r -> x - INR (length cr) * Rabs dx <= r)) ->
    newton rdiv fuel pt x dx = Some y ->
    0 < y /\ 0 <= eval_dec pt y /\ forall r, 0 <= r -> 0 <= eval_dec pt r -> y * (1 - INR (length cr) / 200) <= r.
Proof.
  intros DV Hc He Hcr HL pt. induction fuel as [|fuel IH]; intros x dx y Hx HI E; [discriminate|]. cbn [newton] in E.
  assert (HM : 1 <= INR (length cr)) by (change 1 with (INR 1); now apply le_INR).
  assert (EV : forall r, eval_dec pt r = r * evalr r cr c0 - e) by (intros; apply eval_pt).
  rewrite DV in E by lra.
  destruct (Rltb (5 / 1000) (Rabs (dx / x))) eqn:EC.
  - pose proof (newton_tangent c0 e cr Hc Hcr x 0 Hx ltac:(lra)) as T. fold pt in T.
    pose proof (fun z (Hz : 0 <= z) => newton_tangent c0 e cr Hc Hcr x z Hx Hz) as T2. fold pt in T2.
    pose proof (newton_pt c0 e cr x) as NP. fold pt in NP.
    pose proof (pairr_slope x cr Hcr ltac:(lra) c0 c0 1 ltac:(lra) ltac:(lra) ltac:(lra)) as SL.
    pose proof (pairr_spec x x cr Hcr Hx ltac:(lra) c0 c0 c0 ltac:(lra) Hc ltac:(lra)) as PS.
    destruct (newton_pair pt x) as [ff df]. destruct (pairr x cr (c0, c0)) as [f d0]. injection NP as EF ED. subst d0.
    destruct PS as (Ef & F0 & _ & _).
    destruct T as (E0 & D & T). rewrite EV, Rmult_0_l in T.
    rewrite DV in E by lra. set (d := ff / df) in *.
    assert (Ed : df * d = ff) by (unfold d; field; lra).
    assert (X1 : 0 < x - d).
    { apply (Rmult_lt_reg_l df); auto. nra. }
    destruct (T2 (x - d) ltac:(lra)) as (_ & _ & T3).
    apply (IH (x - d) d); auto. right. split; [nra|]. intros r Hr Fr. rewrite EV in Fr.
    destruct (Rle_lt_dec 0 ff) as [P|P].
    + assert (D0 : 0 <= d) by (unfold d; apply Rmult_le_pos; [lra|left; now apply Rinv_0_lt_compat]).
      rewrite Rabs_pos_eq by auto.
      destruct (Rle_lt_dec x r) as [G|G].
      { assert (0 <= INR (length cr) * d) by (apply Rmult_le_pos; lra). lra. }
      destruct (evalr_mono r x cr Hcr ltac:(lra) c0 c0 ltac:(lra)) as [M0 M]. rewrite <- Ef in M.
      assert (RF : e <= r * f) by (assert (r * evalr r cr c0 <= r * f) by (apply Rmult_le_compat_l; lra); lra).
      assert (FP : 0 < f). { destruct (Rle_lt_dec f 0); auto. assert (f = 0) by lra. subst f. rewrite H in RF. lra. }
      set (n := INR (length cr)) in *.
      apply (Rmult_le_reg_r f); auto.
      assert (df * d <= ((1 + n) * f) * d) by (apply Rmult_le_compat_r; auto).
      replace ((x - d - n * d) * f) with (x * f - ((1 + n) * f) * d) by ring. lra.
    + assert (D0 : d < 0).
      { unfold d. apply (Rmult_lt_reg_l df); auto. replace (df * (ff / df)) with ff by (field; lra). lra. }
      rewrite Rabs_left by auto. assert (X2 : x <= r).
      { destruct (Rle_lt_dec x r) as [G|G]; auto. exfalso.
        destruct (evalr_mono r x cr Hcr ltac:(lra) c0 c0 ltac:(lra)) as [M0 M]. rewrite <- Ef in M.
        assert (r * evalr r cr c0 <= x * f) by (apply Rmult_le_compat; lra). lra. }
      assert (1 * - d <= INR (length cr) * - d) by (apply Rmult_le_compat_r; lra). lra.
  - injection E as <-. apply Rltb_false in EC. destruct HI as [-> |[F0 HI]].
    { exfalso. replace (x / x) with 1 in EC by (field; lra). rewrite Rabs_R1 in EC. lra. }
    split; auto. split; auto. intros r Hr Fr. specialize (HI r Hr Fr).
    unfold Rdiv in EC. rewrite Rabs_mult, Rabs_inv, (Rabs_pos_eq x) in EC by lra.
    assert (AD : Rabs dx <= 5 / 1000 * x).
    { apply (Rmult_le_compat_r x) in EC; [|lra]. rewrite Rmult_assoc, Rinv_l in EC; lra. }
    assert (INR (length cr) * Rabs dx <= INR (length cr) * (5 / 1000 * x)) by (apply Rmult_le_compat_l; lra). lra.
Qed.

(** |p_0| r^N + ... + |p_{N-1}| r - |p_N|: its positive zero is the classical lower
    bound for the moduli of the zeros. *)
Definition modulus_gap (p : list R) (r : R) : R := aval p r - 2 * Rabs (last p 0).
Lemma evalr_value x l : forall f, evalr x l f = f * x ^ length l + rval l x.
Proof.
  induction l as [|c l IH]; intros f; [unfold rval; cbn; ring|]. cbn [evalr fold_left]. unfold evalr in IH. rewrite IH, rval_cons. cbn. ring.
Qed.
Lemma aval_rval l r : aval l r = rval (map Rabs l) r.
Proof. induction l as [|c l IH]; [reflexivity|]. cbn [map]. rewrite rval_cons, map_length. cbn [aval]. now rewrite IH. Qed.
Lemma bound_poly_gap c0 cr e r : let p := (c0 :: cr) ++ [e] in
  eval_dec (Rabs c0 :: map Rabs cr ++ [- Rabs e]) r = modulus_gap p r.
Proof.
  cbv zeta. rewrite eval_pt, evalr_value, map_length. unfold modulus_gap. rewrite last_last, aval_app. cbn [aval]. rewrite aval_rval. ring.
Qed.
Lemma zero_gap p z : (1 <= length p)%nat -> cval p z = RtoC 0 -> 0 <= modulus_gap p (Cmod z).
Proof.
  intros H Z. destruct p as [|e p _] using rev_ind; [cbn in H; lia|]. unfold modulus_gap. rewrite last_last, aval_app. rewrite cval_snoc in Z.
  assert (B : Cmod (cval p z) <= aval p (Cmod z)).
  { rewrite <- gval_RtoC, <- gnorm_RtoC. apply gval_bound. lra. }
  assert (E : Rabs e = Cmod (Cmult z (cval p z))).
  { rewrite <- (Cmod_R e). rewrite <- (Cmod_opp (RtoC e)). f_equal. transitivity (Cminus (Cmult z (cval p z)) (Cplus (Cmult z (cval p z)) (RtoC e))); [ring|rewrite Z; ring]. }
  rewrite Cmod_mult in E. pose proof (Cmod_ge_0 z). nra.
Qed.

(** The bound used for the shifts: never below the classical bound, and every
    zero has at least 1 - (N - 1)/200 of it as modulus (N the degree). *)
Theorem C99_modulus_bound : forall rdiv fuel (p : list R) b, divides rdiv -> (3 <= length p)%nat -> hd 0 p <> 0 -> last p 0 <> 0 ->
  lower_bound rdiv fuel (length p - 1) p = Some b ->
  0 < b /\ 0 <= modulus_gap p b /\ forall z, cval p z = RtoC 0 -> b * (1 - INR (length p - 2) / 200) <= Cmod z.
Proof.
  intros rdiv fuel p b DV HL HP PN. unfold lower_bound. rewrite elem_last, (proj2 (is_zero_false _) PN).
  assert (SP : exists cr e0, p = (hd 0 p :: cr) ++ [e0]).
  { destruct p as [|p0 p]; [cbn in HL; lia|]. destruct p as [|p1 p] using rev_ind; [cbn in HL; lia|]. exists p, p1. reflexivity. }
  destruct SP as (cr & e0 & SP). set (c0 := hd 0 p) in *.
  assert (E0 : last p 0 = e0) by (rewrite SP; apply last_last). rewrite E0 in PN.
  assert (LP : (length p - 1 = S (length cr))%nat) by (rewrite SP, app_length; cbn; lia).
  assert (EB : bound_poly p = Rabs c0 :: map Rabs cr ++ [- Rabs e0]).
  { unfold bound_poly. rewrite E0. rewrite SP, removelast_last. reflexivity. }
  rewrite EB. set (pt := Rabs c0 :: map Rabs cr ++ [- Rabs e0]).
  assert (Hc0 : 0 < Rabs c0) by now apply Rabs_pos_lt. assert (He : 0 < Rabs e0) by now apply Rabs_pos_lt.
  assert (Hcr : Forall (fun c => 0 <= c) (map Rabs cr)).
  { apply Forall_forall. intros c Hc. apply in_map_iff in Hc. destruct Hc as (x & <- & _). apply Rabs_pos. }
  assert (EN : elem pt (length p - 1) = - Rabs e0).
  { unfold elem, pt. rewrite LP. cbn [nth]. rewrite app_nth2; rewrite map_length; [|lia]. now rewrite Nat.sub_diag. }
  assert (SX : 0 < start_x rdiv (length p - 1) pt).
  { unfold start_x. destruct (is_zero (elem pt (length p - 1 - 1))) eqn:EI; [apply exp_pos|]. apply is_zero_false in EI.
    destruct (Rltb _ _); [|apply exp_pos]. rewrite EN, Ropp_involutive, DV by auto. apply Rdiv_lt_0_compat; auto.
    assert (NP : 0 <= elem pt (length p - 1 - 1)).
    { rewrite LP. replace (S (length cr) - 1)%nat with (length cr) by lia. unfold elem, pt.
      destruct (length cr) as [|n] eqn:EL; cbn [nth]; [lra|].
      rewrite app_nth1 by (rewrite map_length; lia).
      rewrite Forall_forall in Hcr. apply Hcr. apply nth_In. rewrite map_length. lia. }
    lra. }
  assert (CH : forall f x y, 0 < x -> chop f pt x = Some y -> 0 < y).
  { induction f as [|f IH]; intros x y Hx E; [discriminate|]. cbn [chop] in E. destruct (Rltb _ _); [|injection E as <-; auto].
    apply (IH (1 / 10 * x)); auto. lra. }
  destruct (chop fuel pt _) as [x|] eqn:EC; [|discriminate]. intros EW. pose proof (CH _ _ _ SX EC) as X0.
  destruct (newton_result rdiv (Rabs c0) (Rabs e0) (map Rabs cr) DV Hc0 He Hcr ltac:(rewrite map_length; lia) fuel x x b X0 (or_introl eq_refl) EW) as (B0 & B1 & B2).
  fold pt in B1, B2. rewrite map_length in B2.
  assert (GP : forall r, eval_dec pt r = modulus_gap p r) by (intros r; unfold pt; rewrite bound_poly_gap, <- SP; reflexivity).
  split; auto. split; [now rewrite <- GP|]. intros z Hz. replace (length p - 2)%nat with (length cr) by lia.
  apply B2; [apply Cmod_ge_0|]. rewrite GP. apply zero_gap; auto. lia.
Qed.
Print Assumptions C99_modulus_bound.
(** It is not a lower bound, as the source calls it: x^3 + 1000 x - 1001 has the
    zero 1, and the bound is larger (Newton's method comes from above). *)
Lemma bound_value : lower_bound Rdiv 2 3 [1; 0; 1000; -1001] =
  Some (1001 / 1000 - (1001 / 1000) ^ 3 / (3 * (1001 / 1000) ^ 2 + 1000)).
Proof.
  unfold lower_bound, elem. cbn [nth]. rewrite (proj2 (is_zero_false (-1001))) by lra.
  assert (BP : bound_poly [1; 0; 1000; -1001] = [1; 0; 1000; -1001]).
  { unfold bound_poly. cbn. rewrite Rabs_R0, Rabs_R1, (Rabs_pos_eq 1000), (Rabs_left (-1001)) by lra. repeat f_equal; lra. }
  rewrite BP. unfold start_x, elem. cbn [nth Nat.sub]. rewrite (proj2 (is_zero_false 1000)) by lra.
  assert (LT : - -1001 / 1000 < exp ((ln (- -1001) - ln 1) / INR 3)).
  { assert (L1 : 1 < ln (- -1001)).
    { rewrite <- (ln_exp 1) at 1. apply ln_increasing; [apply exp_pos|]. pose proof exp_le_3. lra. }
    rewrite ln_1. cbn [INR]. pose proof (exp_ineq1 ((ln (- -1001) - 0) / (1 + 1 + 1)) ltac:(lra)). lra. }
  rewrite (proj2 (Rltb_true _ _) LT). cbn [chop].
  replace (Rltb 0 (eval_dec [1; 0; 1000; -1001] (1 / 10 * (- -1001 / 1000)))) with false
    by (symmetry; apply Rltb_false; unfold eval_dec, elem; cbn; lra).
  replace (- -1001 / 1000) with (1001 / 1000) by lra. cbn [newton].
  replace (1001 / 1000 / (1001 / 1000)) with 1 by lra. rewrite Rabs_R1, (proj2 (Rltb_true (5 / 1000) 1)) by lra.
  unfold newton_pair, elem. cbn [nth tl removelast fold_left fst snd last].
  set (d := (1001 / 1000 * (1001 / 1000 * (1001 / 1000 * 1 + 0) + 1000) + -1001) /
            (1001 / 1000 * (1001 / 1000 * 1 + (1001 / 1000 * 1 + 0)) + (1001 / 1000 * (1001 / 1000 * 1 + 0) + 1000))).
  assert (Ed : d = (1001 / 1000) ^ 3 / (3 * (1001 / 1000) ^ 2 + 1000)) by (unfold d; lra).
  rewrite (proj2 (Rltb_false (5 / 1000) _)).
  - now rewrite Ed.
  - rewrite Ed. rewrite Rabs_pos_eq by lra. lra.
Qed.
Theorem C99_lower_bound_refuted :
  ~ forall rdiv fuel (p : list R) b, divides rdiv -> (4 <= length p)%nat -> hd 0 p <> 0 -> last p 0 <> 0 ->
      lower_bound rdiv fuel (length p - 1) p = Some b -> forall z, cval p z = RtoC 0 -> b <= Cmod z.
Proof.
  intros H. specialize (H Rdiv 2%nat [1; 0; 1000; -1001] _ (fun x y _ => eq_refl) ltac:(cbn; lia) ltac:(cbn; lra) ltac:(cbn; lra) bound_value (RtoC 1)).
  rewrite Cmod_1 in H. enough (X : cval [1; 0; 1000; -1001] (RtoC 1) = RtoC 0) by (specialize (H X); lra).
  rewrite cval_real. f_equal. unfold rval. cbn. ring.
Qed.
Print Assumptions C99_lower_bound_refuted.

(** ** The shift points *)

(** The first step of the second stage divides by the quadratic with sum of zeros
    2 b xx and product of zeros b. *)
Theorem C99_shift_points : forall rdiv (p K : list R) (b xx : R), divides rdiv ->
  exists z w, Cplus z w = RtoC (2 * b * xx) /\ Cmult z w = RtoC b /\
    (forall x, quadratic (- (2 * (b * xx))) b x = Cmult (Cminus x z) (Cminus x w)) /\
    fxshfr rdiv 1 (length K) p K (b * xx) b = FNone (shifted rdiv p (- (2 * (b * xx))) b K) (1 / 4) (1 / 4).
Proof.
  intros rdiv p K b xx DV. set (u := - (2 * (b * xx))).
  pose proof (quad_spec rdiv 1 u b DV ltac:(lra)) as Q. destruct (quad rdiv 1 u b) as [z w]. destruct Q as (Z & _ & _).
  exists z, w. destruct (zeros_of_C u b z w Z) as [S P].
  split; [rewrite S; f_equal; unfold u; ring|]. split; auto. split.
  - intros x. transitivity (Cplus (Cmult x x) (Cplus (Cmult (Copp (RtoC (- u))) x) (RtoC b))).
    + unfold quadratic. rewrite RtoC_opp. ring.
    + rewrite <- S, <- P. ring.
  - unfold fxshfr, shifted. fold u. destruct (quad_sd u b p) as [[qp a] b']. cbn [fxshfr_loop]. 
    destruct (newest _ _ _ _ _ _ _ _ _) as [ui vi]. cbn [negb andb]. reflexivity.
Qed.
Print Assumptions C99_shift_points.
(** So they do not have the modulus b, as the source says (unless b is 1). *)
Theorem C99_shift_modulus_refuted :
  ~ forall b xx yy z, 0 < b -> xx * xx + yy * yy = 1 -> quadratic (- (2 * (b * xx))) b z = RtoC 0 -> Cmod z = b.
Proof.
  intros H. specialize (H 4 0 1 (0, 2) ltac:(lra) ltac:(lra)).
  enough (X : quadratic (- (2 * (4 * 0))) 4 (0, 2) = RtoC 0).
  - specialize (H X). unfold Cmod in H. cbn in H. replace (0 * (0 * 1) + 2 * (2 * 1)) with (2 * 2) in H by ring.
    rewrite sqrt_square in H by lra. lra.
  - unfold quadratic. apply injective_projections; cbn; ring.
Qed.
Print Assumptions C99_shift_modulus_refuted.

(** Each attempt turns the direction of the shift by the same angle of 94 degrees
    (with the source's value of pi); it is kept for the next zero. *)
Theorem C99_rotation : forall rdiv n jj N (p K : list R) (b xx yy : R),
  let '(r, (xx', yy')) := shifts rdiv n jj N p K b xx yy in
  exists k, (k <= n)%nat /\ (match r with FNone _ _ _ => k = n | _ => (1 <= k)%nat end) /\
    let t := INR k * (94 * (314159265358979323846 / 10 ^ 20 / 180)) in
    xx' = cos t * xx - sin t * yy /\ yy' = sin t * xx + cos t * yy.
Proof.
  intros rdiv. induction n as [|n IH]; intros jj N p K b xx yy; cbn [shifts].
  - exists 0%nat. cbn [INR]. rewrite Rmult_0_l, cos_0, sin_0. repeat split; auto; ring.
  - fold RADFAC in IH |- *. set (th := 94 * RADFAC) in *.
    set (x1 := - (sin th * yy) + cos th * xx). set (y1 := sin th * xx + cos th * yy).
    assert (K1 : (1 <= S n)%nat) by lia.
    assert (ONE : let t := INR 1 * th in x1 = cos t * xx - sin t * yy /\ y1 = sin t * xx + cos t * yy).
    { cbn [INR]. rewrite Rmult_1_l. unfold x1, y1. split; ring. }
    specialize (IH (S jj) N p K b x1 y1).
    destruct (fxshfr rdiv (20 * jj) N p K (b * x1) b); try (exists 1%nat; auto).
    destruct (shifts rdiv n (S jj) N p K b x1 y1) as [r [xx' yy']]. destruct IH as (k & Hk & HR & E1 & E2).
    exists (S k). split; [lia|]. split; [destruct r; auto; lia|].
    cbv zeta. rewrite S_INR. replace ((INR k + 1) * th) with (INR k * th + th) by ring. rewrite cos_plus, sin_plus.
    rewrite E1, E2. unfold x1, y1. split; ring.
Qed.
Print Assumptions C99_rotation.

(** ** Scaling *)

Lemma moduli_spec l : forall mx mn, 
  fst (fold_left (fun m c => let x := Rabs c in ((if Rltb (fst m) x then x else fst m),
     (if negb (is_zero x) && Rltb x (snd m) then x else snd m))) l (mx, mn)) = fold_left (fun m c => Rmax m (Rabs c)) l mx /\
  snd (fold_left (fun m c => let x := Rabs c in ((if Rltb (fst m) x then x else fst m),
     (if negb (is_zero x) && Rltb x (snd m) then x else snd m))) l (mx, mn)) =
  fold_left (fun m c => if Req_EM_T c 0 then m else Rmin m (Rabs c)) l mn.
Proof.
  induction l as [|c l IH]; intros mx mn; [split; reflexivity|]. cbn [fold_left]. cbv zeta. cbn [fst snd].
  assert (E1 : (if Rltb mx (Rabs c) then Rabs c else mx) = Rmax mx (Rabs c)).
  { unfold Rmax. destruct (Rltb _ _) eqn:E; [apply Rltb_true in E|apply Rltb_false in E]; destruct (Rle_dec _ _); lra. }
  assert (E2 : (if negb (is_zero (Rabs c)) && Rltb (Rabs c) mn then Rabs c else mn) = if Req_EM_T c 0 then mn else Rmin mn (Rabs c)).
  { destruct (Req_EM_T c 0) as [-> |N].
    - rewrite Rabs_R0. now rewrite (proj2 (is_zero_true 0) eq_refl).
    - rewrite (proj2 (is_zero_false (Rabs c))) by now apply Rabs_no_R0. cbn [negb andb]. clear. unfold Rmin.
      destruct (Rltb (Rabs c) mn) eqn:E; [apply Rltb_true in E|apply Rltb_false in E]; destruct (Rle_dec mn (Rabs c)); auto; lra. }
  rewrite E1, E2. apply IH.
Qed.
Lemma least_modulus (m : R) l : forall mn, m <= mn -> (mn = m \/ exists c, In c l /\ Rabs c = m) -> 0 < m ->
  (forall c, In c l -> c <> 0 -> m <= Rabs c) -> fold_left (fun m c => if Req_EM_T c 0 then m else Rmin m (Rabs c)) l mn = m.
Proof.
  induction l as [|c l IH]; intros mn L X M H; cbn [fold_left].
  - destruct X as [|(c & [] & _)]; auto.
  - destruct (Req_EM_T c 0) as [-> |N].
    + apply IH; auto with datatypes. destruct X as [|(c & [<- |I] & E)]; [auto| |right; eauto].
      rewrite Rabs_R0 in E. lra.
    + pose proof (H c ltac:(now left) N) as Hc. apply IH; auto with datatypes.
      * now apply Rmin_glb.
      * destruct X as [-> |(d & [<- |I] & E)].
        { left. now apply Rmin_left. }
        { left. rewrite E. now apply Rmin_right. }
        { right. eauto. }
Qed.

Lemma greatest_modulus (M : R) l : forall mx, mx <= M -> (mx = M \/ exists c, In c l /\ Rabs c = M) ->
  (forall c, In c l -> Rabs c <= M) -> fold_left (fun m c => Rmax m (Rabs c)) l mx = M.
Proof.
  induction l as [|c l IH]; intros mx L X H; cbn [fold_left].
  - destruct X as [|(c & [] & _)]; auto.
  - pose proof (H c ltac:(now left)) as Hc. apply IH; auto with datatypes.
    + now apply Rmax_lub.
    + destruct X as [-> |(d & [<- |I] & E)].
      * left. now apply Rmax_left.
      * left. rewrite E. now apply Rmax_right.
      * right. eauto.
Qed.

(** The coefficients are multiplied by a power of two, so that no digits are lost.
    Let m and M be the smallest non-zero and the largest modulus.  If m is at least
    2^-74 and M at least 10, or m is smaller and scaling keeps M in the range of
    float, then m is brought close to 2^-74 (to within the factors 2^(-1/2) and
    2^(3/2)); otherwise the coefficients are left alone. *)
Theorem C99_scaling : forall rdiv (p : list R) (m M : R), divides rdiv ->
  0 < m <= (2 - / 2 ^ 23) * 2 ^ 127 ->
  (exists c, In c p /\ Rabs c = m) -> (forall c, In c p -> c <> 0 -> m <= Rabs c) ->
  (exists c, In c p /\ Rabs c = M) -> (forall c, In c p -> Rabs c <= M) ->
  exists k : Z, scale_factor rdiv p = powerRZ 2 k /\
    ((/ 2 ^ 74 <= m /\ 10 <= M) \/ (m < / 2 ^ 74 /\ M * (/ 2 ^ 74 / m) <= (2 - / 2 ^ 23) * 2 ^ 127) ->
     (/ 2 ^ 74) ^ 2 < 2 * (m * powerRZ 2 k) ^ 2 /\ (m * powerRZ 2 k) ^ 2 < 8 * (/ 2 ^ 74) ^ 2) /\
    ((/ 2 ^ 74 <= m /\ M < 10) \/ (m < / 2 ^ 74 /\ (2 - / 2 ^ 23) * 2 ^ 127 < M * (/ 2 ^ 74 / m)) -> k = 0%Z).
Proof.
  intros rdiv p m M DV Hm HI HL GI GL. unfold scale_factor.
  assert (FM : (2 - / 2 ^ 23) * 2 ^ 127 = FLTMAX).
  { unfold FLTMAX. change (-23)%Z with (- (23))%Z. rewrite bpow_opp, !bpow_powerRZ. reflexivity. }
  rewrite FM in *.
  assert (EX : fst (moduli p) = M).
  { transitivity (fold_left (fun m c => Rmax m (Rabs c)) p 0); [exact (proj1 (moduli_spec p 0 FLTMAX))|]. apply greatest_modulus; auto.
    destruct GI as (c & _ & <-). apply Rabs_pos. }
  assert (EM : snd (moduli p) = m).
  { transitivity (fold_left (fun m c => if Req_EM_T c 0 then m else Rmin m (Rabs c)) p FLTMAX); [exact (proj2 (moduli_spec p 0 FLTMAX))|]. apply least_modulus; auto; lra. }
  destruct (moduli p) as [mx mn]. cbn [fst snd] in EM, EX. subst mn mx. rewrite DV by lra.
  assert (LO : FLTMIN / EPS = / 2 ^ 74).
  { unfold FLTMIN, EPS. unfold Rdiv. rewrite <- bpow_opp, <- bpow_plus. change (-126 + - (-52))%Z with (- (74))%Z.
    rewrite bpow_opp, bpow_powerRZ. f_equal. }
  rewrite LO. set (lo := / 2 ^ 74). assert (L0 : 0 < lo) by (unfold lo; apply Rinv_0_lt_compat, pow_lt; lra).
  assert (S0 : 0 < lo / m) by (apply Rdiv_lt_0_compat; lra). rewrite DV by lra.
  assert (C1 : lo / m <= 1 <-> lo <= m).
  { split; intros L; [replace lo with (lo / m * m) by (field; lra); nra|]. apply Rmult_le_reg_r with m; [lra|]. replace (lo / m * m) with lo by (field; lra). lra. }
  assert (C2 : M <= FLTMAX / (lo / m) <-> M * (lo / m) <= FLTMAX).
  { split; intros L.
    - replace FLTMAX with (FLTMAX / (lo / m) * (lo / m)) by (field; lra). apply Rmult_le_compat_r; lra.
    - apply Rmult_le_reg_r with (lo / m); [lra|]. replace (FLTMAX / (lo / m) * (lo / m)) with FLTMAX by (field; lra). exact L. }
  destruct (_ || _) eqn:CB.
  2: { exists 0%Z. split; [reflexivity|]. split; [|reflexivity]. intros CC. exfalso. apply orb_false_iff in CB. destruct CB as [B1 B2].
       apply andb_false_iff in B1, B2. destruct CC as [[X1 X2]|[X1 X2]].
       - apply C1 in X1. destruct B1 as [B1|B1]; apply Rleb_false in B1; lra.
       - apply C2 in X2. destruct B2 as [B2|B2]; [apply Rltb_false in B2; apply C1 in B2; lra|apply Rleb_false in B2; lra]. }
  rewrite (proj2 (is_zero_false (lo / m))) by lra. unfold LN2.
  set (y := ln (lo / m) / ln 2 + 1 / 2). exists (Ztrunc y). split; auto. split.
  2: { intros CC. exfalso. apply orb_true_iff in CB. destruct CB as [B|B]; apply andb_true_iff in B; destruct B as [B1 B2].
       - apply Rleb_true in B1, B2. apply C1 in B1. lra.
       - apply Rltb_true in B1. apply Rleb_true in B2. apply C2 in B2. assert (~ lo <= m) by (intros X; apply C1 in X; lra). lra. }
  intros _.
  assert (LN : 0 < ln 2) by (rewrite <- ln_1; apply ln_increasing; lra).
  assert (KB : y - 1 < IZR (Ztrunc y) < y + 1).
  { destruct (Rle_lt_dec 0 y) as [P|P].
    - rewrite Ztrunc_floor by auto. pose proof (Zfloor_lb y). pose proof (Zfloor_ub y). lra.
    - rewrite Ztrunc_ceil by lra. pose proof (Zceil_ub y). 
      assert (IZR (Zceil y) < y + 1). { unfold Zceil. rewrite opp_IZR. pose proof (Zfloor_ub (- y)). lra. }
      lra. }
  set (k := Ztrunc y) in *.
  assert (PE : powerRZ 2 k = exp (IZR k * ln 2)).
  { rewrite <- (bpow_powerRZ radix2). rewrite bpow_exp. reflexivity. }
  assert (ME : m * powerRZ 2 k = exp (ln m + IZR k * ln 2)) by (rewrite PE, exp_plus, exp_ln by lra; reflexivity).
  assert (YE : y * ln 2 = ln lo - ln m + ln 2 / 2).
  { unfold y. rewrite ln_div by lra. field. lra. }
  assert (B1 : ln lo - ln 2 / 2 < ln m + IZR k * ln 2) by nra.
  assert (B2 : ln m + IZR k * ln 2 < ln lo + 3 * (ln 2 / 2)) by nra.
  rewrite ME. cbn [pow]. rewrite !Rmult_1_r.
  assert (SQ : forall a, exp a * exp a = exp (a + a)) by (intros a; now rewrite exp_plus).
  rewrite SQ. rewrite <- (exp_ln lo) by auto. rewrite SQ.
  assert (E2 : 2 = exp (ln 2)) by (rewrite exp_ln; lra). assert (E8 : 8 = exp (3 * ln 2)).
  { replace (3 * ln 2) with (ln 2 + (ln 2 + ln 2)) by ring. rewrite !exp_plus, exp_ln; lra. }
  rewrite E8. split.
  - replace (2 * exp (ln m + IZR k * ln 2 + (ln m + IZR k * ln 2))) with (exp (ln 2 + (ln m + IZR k * ln 2 + (ln m + IZR k * ln 2)))) by (rewrite (exp_plus (ln 2)), exp_ln; lra).
    apply exp_increasing. lra.
  - rewrite <- exp_plus. apply exp_increasing. lra.
Qed.
Print Assumptions C99_scaling.

(** ** Examples *)

(** x^3 - x with the shift x^2 + 1: the value of the shift is 1 at the zero 0 and 2 at
    the zeros 1 and -1; from x^2 - 1/2 the auxiliary polynomials are
    x^2 - 2^n / (2^n + 1), all by steps of the normal kind. *)
Definition example_K (n : nat) : list R := [1; 0; - (2 ^ n / (2 ^ n + 1))].
Lemma example_step k : 0 < k <= 1 -> shifted Rdiv [1; 0; -1; 0] 0 1 [1; 0; - k] = [1; 0; - (2 * k / (1 + k))].
Proof.
  intros Hk. unfold shifted. cbn [quad_sd sd_loop length]. unfold calc_sc. cbn [quad_sd sd_loop length]. unfold elem. cbn [nth Nat.sub].
  assert (E10 : 10 * EPS < 1) by (rewrite EPS_eps; unfold machine_eps; lra).
  assert (E0 : 0 < EPS) by (rewrite EPS_eps; apply eps_pos).
  set (c := - ((- (1 * 0) + 0) * 0 + 1 * 1) + - k). assert (EC : c = - (1 + k)) by (unfold c; ring).
  set (d := - (1 * 0) + 0). assert (ED : d = 0) by (unfold d; ring).
  rewrite EC, ED. rewrite Rabs_R0.
  replace (Rleb (Rabs (- (1 + k))) (10 * EPS * Rabs (- k))) with false
    by (symmetry; apply Rleb_false; rewrite !Rabs_Ropp, !Rabs_pos_eq by lra; nra).
  cbn [andb]. replace (Rleb (Rabs (- (1 + k))) 0) with false by (symmetry; apply Rleb_false; rewrite Rabs_Ropp, Rabs_pos_eq; lra).
  unfold next_k. cbn [sc_flag sc_a1 sc_a3 sc_a7 sc_qk]. unfold elem. cbn [nth Nat.sub seq map].
  match goal with |- (if Rltb _ (Rabs ?x) then _ else _) = _ => assert (EA : x = -2) by (field; lra); rewrite EA end.
  match goal with |- (if Rltb (10 * EPS * Rabs ?x) _ then _ else _) = _ => assert (EB : x = -2) by ring; rewrite EB end.
  rewrite (proj2 (Rltb_true (10 * EPS * Rabs (-2)) (Rabs (-2)))) by (rewrite (Rabs_left (-2)) by lra; nra).
  assert (C3 : forall x x' y y' z z' : R, x = x' -> y = y' -> z = z' -> [x; y; z] = [x'; y'; z']) by (intros; subst; reflexivity).
  apply C3; field; lra.
Qed.
Theorem C99_example :
  (length [1; 0; -1; 0] = S (length (example_K 0)) /\ (2 <= length (example_K 0))%nat /\
   (forall x, quadratic 0 1 x = RtoC 0 -> cval [1; 0; -1; 0] x <> RtoC 0) /\
   (forall n, example_K (S n) = shifted Rdiv [1; 0; -1; 0] 0 1 (example_K n)) /\ (forall n, hd 0 (example_K (S n)) <> 0) /\
   cval [1; 0; -1; 0] (RtoC 0) = RtoC 0 /\ cval [1; 0; -1; 0] (RtoC 1) = RtoC 0 /\ cval (example_K 0) (RtoC 0) <> RtoC 0 /\
   cval (example_K 0) (RtoC 1) <> RtoC 0 /\ Cmod (quadratic 0 1 (RtoC 0)) < Cmod (quadratic 0 1 (RtoC 1))) /\
  (* (x - 2)(x^2 + 1) with K = 3 x^2 + 3: the linear iteration from 1 finds 2. *)
  (exists qp, real_it Rdiv 10 3 [1; -2; 1; -2] [3; 0; 3] 1 1 0 0 0 = RFound 2 qp) /\
  (* (x^2 + 1)(x + 1) with K = x (x + 1): the estimate for the shift x^2 + 2 x + 2 is x^2 + 1. *)
  (let '(qp, a, b) := quad_sd 2 2 [1; 1; 1; 1] in
   newest Rdiv (calc_sc Rdiv 3 a b [1; 1; 0] 2 2) a b 2 2 [1; 1; 0] 3 [1; 1; 1; 1] = (0, 1)).
Proof.
  assert (DV : divides Rdiv) by (intros x y _; reflexivity).
  assert (E10 : 10 * EPS < 1 / 100) by (rewrite EPS_eps; unfold machine_eps; lra).
  assert (E0 : 0 < EPS) by (rewrite EPS_eps; apply eps_pos).
  split; [|split].
  - split; [reflexivity|]. split; [cbn; lia|]. split.
    { intros x H E. assert (X : Cmult x x = RtoC (-1)).
      { transitivity (Cminus (quadratic 0 1 x) (RtoC 1)); [unfold quadratic; ring|]. rewrite H, <- RtoC_minus. f_equal. ring. }
      assert (Y : Cmult (RtoC (-2)) x = RtoC 0).
      { transitivity (Cminus (Cmult x (Cmult x x)) x); [rewrite X; replace (RtoC (-2)) with (Cminus (RtoC (-1)) (RtoC 1)) by (rewrite <- RtoC_minus; f_equal; ring); ring|].
        rewrite <- E. cbn. replace (RtoC (-1)) with (Copp (RtoC 1)) by (rewrite <- RtoC_opp; f_equal; ring). ring. }
      assert (Z : x = RtoC 0).
      { transitivity (Cmult (RtoC (-1/2)) (Cmult (RtoC (-2)) x)); [|rewrite Y; ring].
        transitivity (Cmult (RtoC 1) x); [ring|]. replace 1 with (-1/2 * -2) by lra. rewrite RtoC_mult. ring. }
      rewrite Z in X. assert (W : RtoC 0 = RtoC (-1)) by (rewrite <- X; ring). apply RtoC_inj in W. lra. }
    split.
    { intros n. unfold example_K. assert (P : 0 < 2 ^ n) by (apply pow_lt; lra).
      rewrite example_step.
      - assert (C3 : forall x x' : R, x = x' -> [1; 0; x] = [1; 0; x']) by (intros; subst; reflexivity).
        apply C3. cbn [pow]. field. lra.
      - split; [apply Rdiv_lt_0_compat; lra|]. apply (Rmult_le_reg_r (2 ^ n + 1)); [lra|]. unfold Rdiv. rewrite Rmult_assoc, Rinv_l; lra. }
    split; [intros n; cbn; lra|]. 
    assert (V : forall l x, cval l (RtoC x) = RtoC 0 <-> rval l x = 0).
    { intros l x. rewrite cval_real. split; [apply RtoC_inj|intros ->; auto]. }
    rewrite !V. unfold rval. cbn. 
    split; [ring|]. split; [ring|]. split; [lra|]. split; [lra|].
    assert (Q0 : quadratic 0 1 (RtoC 0) = RtoC 1) by (unfold quadratic; ring).
    assert (Q1 : quadratic 0 1 (RtoC 1) = RtoC 2) by (unfold quadratic; replace (RtoC 2) with (Cplus (RtoC 1) (RtoC 1)) by (rewrite <- RtoC_plus; f_equal; ring); ring).
    rewrite Q0, Q1, !Cmod_R, !Rabs_pos_eq by lra. lra.
  - destruct (C99_linear_exact Rdiv 9 [1; -2; 1; -2] [3; 0; 3] [1; 0; 1] 1 1 0 0 3 2 DV eq_refl ltac:(cbn; lia) ltac:(lra)) as (x & E & X).
    + intros x. cbn. replace (RtoC (-2)) with (Copp (RtoC 2)) by (rewrite <- RtoC_opp; f_equal; ring). ring.
    + intros x. cbn. ring.
    + rewrite last_value. unfold rval. cbn. rewrite !Rabs_pos_eq by lra. unfold machine_eps. lra.
    + destruct X as [-> | ->]; [exfalso|eauto].
      destruct (real_it_ok Rdiv [1; -2; 1; -2] ltac:(cbn; lia) 10 [3; 0; 3] 1 1 0 0 0 1 _ E) as (_ & NZ).
      unfold nearly_zero in NZ. rewrite cval_real, !Cmod_R in NZ. unfold rval in NZ. cbn in NZ.
      rewrite (Rabs_left (-2)), !Rabs_R1 in NZ by lra.
      match type of NZ with Rabs ?t <= _ => assert (XT : t = -2) by ring; rewrite XT, (Rabs_left (-2)) in NZ by lra end.
      unfold machine_eps in NZ. lra.
  - cbn [quad_sd sd_loop]. unfold calc_sc. cbn [quad_sd sd_loop]. unfold elem. cbn [nth Nat.sub].
    set (a := - ((- ((- (1 * 2) + 1) * 2 + 1 * 2) + 1) * 2 + (- (1 * 2) + 1) * 2) + 1). assert (Ea : a = 1) by (unfold a; ring).
    set (b := - ((- (1 * 2) + 1) * 2 + 1 * 2) + 1). assert (Eb : b = 1) by (unfold b; ring).
    set (c := - ((- (1 * 2) + 1) * 2 + 1 * 2) + 0). assert (Ec : c = 0) by (unfold c; ring).
    set (d := - (1 * 2) + 1). assert (Ed : d = -1) by (unfold d; ring).
    rewrite Ea, Eb, Ec, Ed, Rabs_R0, (Rabs_left (-1)), Rabs_R1 by lra.
    rewrite (proj2 (Rleb_false (- (-1)) (10 * EPS * 1))) by lra. rewrite andb_false_r.
    rewrite (proj2 (Rleb_true 0 (- (-1)))) by lra.
    unfold newest. cbn [sc_flag sc_a1 sc_a3 sc_a7 sc_c sc_d sc_f sc_g sc_h]. unfold elem. cbn [nth Nat.sub].
    match goal with |- context [is_zero ?t] => set (temp := t); assert (ET : temp = -4) by (unfold temp; field) end.
    rewrite (proj2 (is_zero_false temp)) by lra. rewrite ET. f_equal; field.
Qed.
Print Assumptions C99_example.
