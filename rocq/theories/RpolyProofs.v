(** Proofs about the root finder: quadratic solver, synthetic division and the
    acceptance tests. *)
From Coq Require Import Reals List ZArith Arith Lra Lia Bool Psatz.
From Flocq Require Import Core.
From Coquelicot Require Import Coquelicot.
From Verif Require Import Base PolyModel TrajModel RpolyModel RpolySpec.
Import List ListNotations.
Local Open Scope R_scope.
Set Bullet Behavior "Strict Subproofs".

Definition divides (rdiv : R -> R -> R) : Prop := forall x y, y <> 0 -> rdiv x y = x / y.

Lemma is_zero_true x : is_zero x = true <-> x = 0.
Proof. unfold is_zero. destruct (Req_EM_T x 0); split; intros; auto; try discriminate; contradiction. Qed.
Lemma is_zero_false x : is_zero x = false <-> x <> 0.
Proof. unfold is_zero. destruct (Req_EM_T x 0); split; intros; auto; try discriminate; contradiction. Qed.
Lemma EPS_eps : EPS = machine_eps.
Proof. unfold EPS, machine_eps. change (bpow radix2 (-52)) with (/ 4503599627370496). reflexivity. Qed.
Lemma eps_pos : 0 < machine_eps.
Proof. unfold machine_eps. lra. Qed.

(* ------------------------------------------------------------------ *)
(** ** The quadratic solver *)

(** The two numbers are the zeros of a z^2 + b z + c. *)
Definition zeros_of (a b c : R) (s l : C) : Prop :=
  fst s + fst l = - b / a /\ snd s + snd l = 0 /\
  fst s * fst l - snd s * snd l = c / a /\ fst s * snd l + snd s * fst l = 0.

Lemma zeros_of_factor a b c s l : a <> 0 -> zeros_of a b c s l ->
  forall x, cval [a; b; c] x = Cmult (RtoC a) (Cmult (Cminus x s) (Cminus x l)).
Proof.
  intros Ha (S1 & S2 & P1 & P2) [x y]. destruct s as [s1 s2], l as [l1 l2]. cbn [fst snd] in *.
  assert (Eb : b = - a * (s1 + l1)) by (rewrite S1; field; auto).
  assert (Ec : c = a * (s1 * l1 - s2 * l2)) by (rewrite P1; field; auto).
  assert (El : l2 = - s2) by lra. subst l2 b c.
  unfold cval, cpow, Cminus, Cmult, Cplus, Copp, RtoC; cbn [length fst snd].
  apply injective_projections; cbn [fst snd]; [ring|].
  assert (P3 : s2 * l1 = s1 * s2) by lra.
  match goal with |- ?L = ?R => replace R with (L + a * (s2 * l1 - s1 * s2)) end; [rewrite P3; ring|ring].
Qed.

Lemma sqrt_mult_abs x y : sqrt (Rabs x) * sqrt (Rabs y) = sqrt (Rabs (x * y)).
Proof. rewrite Rabs_mult. symmetry. apply sqrt_mult; apply Rabs_pos. Qed.
Lemma sqr_sqrt_abs x : sqrt (Rabs x) * sqrt (Rabs x) = Rabs x.
Proof. apply sqrt_sqrt, Rabs_pos. Qed.

(** e and d of Quad_ak1: e has the sign of the discriminant b^2 - a c and
    d^2 = |b^2 - a c|. *)
Lemma quad_disc rdiv a b c : divides rdiv -> c <> 0 ->
  let '(e, d) :=
      if Rltb (Rabs b) (Rabs c) then
        let e0 := if Rleb 0 c then a else - a in
        let e := - e0 + b * rdiv b (Rabs c) in (e, sqrt (Rabs e) * sqrt (Rabs c))
      else
        let e := - (rdiv a b * rdiv c b) + 1 in (e, sqrt (Rabs e) * Rabs b) in
  0 <= d /\ d * d = Rabs (b * b - a * c) /\ (0 <= e <-> 0 <= b * b - a * c).
Proof.
  intros DV Hc. assert (Pc : 0 < Rabs c) by now apply Rabs_pos_lt.
  destruct (Rltb (Rabs b) (Rabs c)) eqn:E; [apply Rltb_true in E|apply Rltb_false in E].
  - cbv zeta. set (e0 := if Rleb 0 c then a else - a). rewrite (DV b (Rabs c)) by lra.
    set (e := - e0 + b * (b / Rabs c)).
    assert (Ee : e * Rabs c = b * b - a * c).
    { unfold e, e0. destruct (Rleb 0 c) eqn:F.
      - apply Rleb_true in F. rewrite (Rabs_pos_eq c) by auto. field. auto.
      - apply Rleb_false in F. rewrite (Rabs_left c) by auto. field. auto. }
    split; [apply Rmult_le_pos; apply sqrt_pos|]. split.
    + rewrite <- Ee, Rabs_mult, Rabs_Rabsolu.
      transitivity ((sqrt (Rabs e) * sqrt (Rabs e)) * (sqrt (Rabs c) * sqrt (Rabs c))); [ring|].
      now rewrite !sqr_sqrt_abs.
    + rewrite <- Ee. split; intros H; [nra|]. destruct (Rle_lt_dec 0 e); auto. nra.
  - cbv zeta. assert (Hb : b <> 0).
    { intros ->. rewrite Rabs_R0 in E. lra. }
    assert (Pb : 0 < Rabs b) by now apply Rabs_pos_lt. rewrite !DV by auto.
    set (e := - (a / b * (c / b)) + 1).
    assert (Ee : e * (b * b) = b * b - a * c) by (unfold e; field; auto).
    assert (Bb : Rabs b * Rabs b = b * b) by (rewrite <- Rabs_mult; apply Rabs_pos_eq; nra).
    split; [apply Rmult_le_pos; [apply sqrt_pos|lra]|]. split.
    + rewrite <- Ee, Rabs_mult, (Rabs_pos_eq (b * b)) by nra.
      transitivity ((sqrt (Rabs e) * sqrt (Rabs e)) * (Rabs b * Rabs b)); [ring|].
      now rewrite sqr_sqrt_abs, Bb.
    + assert (0 < b * b) by (rewrite <- Bb; nra). rewrite <- Ee. split; intros H0; [nra|].
      destruct (Rle_lt_dec 0 e); auto. nra.
Qed.

Lemma quad_spec rdiv a b1 c : divides rdiv -> a <> 0 ->
  let '(s, l) := quad rdiv a b1 c in
  zeros_of a b1 c s l /\ (snd s = 0 /\ snd l = 0 \/ l = Cconj s) /\ Cmod s <= Cmod l.
Proof.
  intros DV Ha. unfold quad. rewrite (proj2 (is_zero_false a) Ha).
  destruct (is_zero c) eqn:Ec; [apply is_zero_true in Ec|apply is_zero_false in Ec].
  { subst c. rewrite DV by auto. unfold zeros_of; cbn [fst snd]. split; [|split].
    - repeat split; field; auto.
    - left. auto.
    - change (0, 0) with (RtoC 0). change (- (b1 / a), 0) with (RtoC (- (b1 / a))). rewrite Cmod_0. apply Cmod_ge_0. }
  set (b := b1 / 2). pose proof (quad_disc rdiv a b c DV Ec) as Q. cbv zeta in *.
  destruct (if Rltb (Rabs b) (Rabs c) then _ else _) as [e d].
  destruct Q as (Hd & Hdd & He).
  destruct (Rleb 0 e) eqn:E; [apply Rleb_true in E|apply Rleb_false in E].
  - apply He in E. rewrite Rabs_pos_eq in Hdd by auto.
    set (d' := if Rleb 0 b then - d else d).
    assert (Hd' : d' * d' = b * b - a * c) by (unfold d'; destruct (Rleb 0 b); nra).
    assert (Bd : b * d' <= 0).
    { unfold d'. destruct (Rleb 0 b) eqn:F; [apply Rleb_true in F|apply Rleb_false in F]; nra. }
    assert (NZ : - b + d' <> 0).
    { intros F. assert (d' = b) by lra. assert (b * b = 0) by nra. assert (b = 0) by nra.
      assert (a * c = 0) by nra. assert (a * c <> 0) by (now apply Rmult_integral_contrapositive_currified). lra. }
    rewrite (DV (- b + d')) by auto.
    assert (LZ : (- b + d') / a <> 0).
    { unfold Rdiv. apply Rmult_integral_contrapositive_currified; auto. now apply Rinv_neq_0_compat. }
    rewrite (proj2 (is_zero_false _) LZ). rewrite !DV by auto.
    set (lr := (- b + d') / a) in *.
    assert (Hl : a * lr = - b + d') by (unfold lr; field; auto).
    assert (Hs : c / lr / a = (- b - d') / a).
    { assert (a * lr * (- b - d') = a * c) by (rewrite Hl; nra).
      apply (Rmult_eq_reg_r (a * lr)); [|now apply Rmult_integral_contrapositive_currified].
      replace (c / lr / a * (a * lr)) with c by (field; auto).
      replace ((- b - d') / a * (a * lr)) with (lr * (- b - d')) by (field; auto). nra. }
    rewrite Hs. unfold zeros_of; cbn [fst snd]. split; [|split].
    + unfold lr. repeat split.
      * unfold b. field. auto.
      * lra.
      * replace ((- b - d') / a * ((- b + d') / a) - 0 * 0) with ((b * b - d' * d') / (a * a)) by (field; auto).
        rewrite Hd'. field. auto.
      * lra.
    + left. auto.
    + change ((- b - d') / a, 0) with (RtoC ((- b - d') / a)). change (lr, 0) with (RtoC lr). rewrite !Cmod_R.
      unfold lr, Rdiv. rewrite !Rabs_mult. apply Rmult_le_compat_r; [apply Rabs_pos|].
      apply Rsqr_le_abs_0. unfold Rsqr. nra.
  - assert (E2 : b * b - a * c < 0).
    { destruct (Rlt_le_dec (b * b - a * c) 0); auto. apply He in r. lra. }
    rewrite Rabs_left in Hdd by auto. rewrite !DV by auto.
    set (re := - (b / a)). set (im := Rabs (d / a)).
    assert (Him : im * im = (a * c - b * b) / (a * a)).
    { unfold im. rewrite <- Rabs_mult, Rabs_pos_eq by nra. replace (d / a * (d / a)) with (d * d / (a * a)) by (field; auto).
      rewrite Hdd. f_equal. ring. }
    unfold zeros_of; cbn [fst snd]. split; [|split].
    + repeat split.
      * unfold re, b. field. auto.
      * lra.
      * replace (re * re - im * - im) with (re * re + im * im) by ring. rewrite Him. unfold re. field. auto.
      * ring.
    + right. reflexivity.
    + unfold Cmod; cbn [fst snd]. right. f_equal. ring.
Qed.

(* ------------------------------------------------------------------ *)
(** ** Synthetic division *)

Lemma sd_loop_length u v l : forall a b, length (fst (fst (sd_loop u v a b l))) = length l.
Proof.
  induction l as [|x l IH]; intros a b; cbn; auto.
  specialize (IH (- (a * u + b * v) + x) a). destruct (sd_loop u v _ a l) as [[r a'] b']. cbn in *. auto.
Qed.
Lemma sd_loop_spec u v l : forall a b x, let '(r, a', b') := sd_loop u v a b l in
  Cplus (Cmult (Cplus (Cmult (RtoC b) (Cplus x (RtoC u))) (RtoC a)) (cpow x (length l))) (cval l x) =
  Cplus (Cmult (Cplus (Cmult x x) (Cplus (Cmult (RtoC u) x) (RtoC v))) (cval (firstn (length l) (b :: a :: r)) x))
        (Cplus (Cmult (RtoC b') (Cplus x (RtoC u))) (RtoC a')).
Proof.
  induction l as [|c l IH]; intros a b x.
  - cbn. ring.
  - cbn [sd_loop]. set (q := - (a * u + b * v) + c). specialize (IH q a x).
    pose proof (sd_loop_length u v l q a) as L.
    destruct (sd_loop u v q a l) as [[r a'] b']. cbn [fst] in L. cbn [length firstn cval cpow].
    assert (LL : length (firstn (length l) (a :: q :: r)) = length l).
    { rewrite firstn_length. cbn [length]. lia. }
    rewrite LL. 
    assert (Eq : RtoC q = Cplus (Copp (Cplus (Cmult (RtoC a) (RtoC u)) (Cmult (RtoC b) (RtoC v)))) (RtoC c)).
    { unfold q. now rewrite RtoC_plus, RtoC_opp, RtoC_plus, !RtoC_mult. }
    rewrite Eq in IH. 
    match goal with |- _ = Cplus (Cmult ?Q (Cplus ?T ?G)) ?Rm =>
      replace (Cplus (Cmult Q (Cplus T G)) Rm) with (Cplus (Cmult Q T) (Cplus (Cmult Q G) Rm)) by ring end.
    rewrite <- IH. ring.
Qed.

(** p(x) = (x^2 + u x + v) q(x) + b (x + u) + a. *)
Lemma quad_sd_spec u v p : (2 <= length p)%nat -> let '(q, a, b) := quad_sd u v p in
  length q = length p /\ hd 0 q = hd 0 p /\
  forall x, cval p x =
    Cplus (Cmult (Cplus (Cmult x x) (Cplus (Cmult (RtoC u) x) (RtoC v))) (cval (firstn (length p - 2) q) x))
          (Cplus (Cmult (RtoC b) (Cplus x (RtoC u))) (RtoC a)).
Proof.
  intros H. destruct p as [|p0 [|p1 l]]; try (cbn in H; lia). cbn [quad_sd].
  set (a0 := - (p0 * u) + p1). pose proof (sd_loop_length u v l a0 p0) as L.
  pose proof (sd_loop_spec u v l a0 p0) as S. destruct (sd_loop u v a0 p0 l) as [[r a'] b']. cbn [fst] in L.
  split; [cbn; now rewrite L|]. split; [reflexivity|]. intros x. cbn [length].
  replace (Datatypes.S (Datatypes.S (length l)) - 2)%nat with (length l) by lia. rewrite <- (S x).
  cbn [cval length cpow]. unfold a0. rewrite RtoC_plus, RtoC_opp, RtoC_mult. ring.
Qed.

(* ------------------------------------------------------------------ *)
(** ** Horner's scheme over C *)

Fixpoint hloop (z acc : C) (l : list C) : list C :=
  match l with
  | [] => []
  | c :: l' => Cplus (Cmult acc z) c :: hloop z (Cplus (Cmult acc z) c) l'
  end.
Definition chorner (z : C) (l : list C) : list C := match l with [] => [] | c :: l' => c :: hloop z c l' end.
Fixpoint gval (l : list C) (x : C) : C :=
  match l with [] => RtoC 0 | c :: l' => Cplus (Cmult c (cpow x (length l'))) (gval l' x) end.
Fixpoint gnorm (l : list C) (r : R) : R :=
  match l with [] => 0 | c :: l' => Cmod c * r ^ length l' + gnorm l' r end.

Lemma hloop_length z l : forall acc, length (hloop z acc l) = length l.
Proof. induction l; intros; cbn; auto. Qed.
Lemma chorner_length z l : length (chorner z l) = length l.
Proof. destruct l; cbn; auto. now rewrite hloop_length. Qed.
Lemma gval_RtoC p x : gval (map RtoC p) x = cval p x.
Proof. induction p as [|c p IH]; cbn; auto. now rewrite IH, map_length. Qed.
Lemma gnorm_RtoC p r : gnorm (map RtoC p) r = aval p r.
Proof. induction p as [|c p IH]; cbn; auto. now rewrite IH, map_length, Cmod_R. Qed.
Lemma gnorm_pos l r : 0 <= r -> 0 <= gnorm l r.
Proof.
  intros H. induction l as [|c l IH]; cbn; [lra|].
  pose proof (Cmod_ge_0 c). pose proof (pow_le r (length l) H). nra.
Qed.
Lemma aval_pos l r : 0 <= r -> 0 <= aval l r.
Proof. intros. rewrite <- gnorm_RtoC. now apply gnorm_pos. Qed.

Lemma hloop_norm z r l : Cmod z <= r -> forall acc,
  gnorm (hloop z acc l) r <= INR (length l) * (Cmod acc * r ^ length l + gnorm l r).
Proof.
  intros Hz. pose proof (Cmod_ge_0 z) as Z0. induction l as [|c l IH]; intros acc.
  - cbn. lra.
  - cbn [hloop gnorm length]. rewrite hloop_length. rewrite S_INR.
    set (c1 := Cplus (Cmult acc z) c). specialize (IH c1).
    assert (P : 0 <= r ^ length l) by (apply pow_le; lra).
    assert (N : Cmod c1 <= Cmod acc * r + Cmod c).
    { unfold c1. eapply Rle_trans; [apply Cmod_triangle|]. rewrite Cmod_mult.
      pose proof (Cmod_ge_0 acc). nra. }
    assert (G : 0 <= gnorm l r) by (apply gnorm_pos; lra).
    assert (I : 0 <= INR (length l)) by apply pos_INR.
    assert (N2 : Cmod c1 * r ^ length l <= (Cmod acc * r + Cmod c) * r ^ length l) by (apply Rmult_le_compat_r; auto).
    cbn [pow]. replace (Cmod acc * (r * r ^ length l) + (Cmod c * r ^ length l + gnorm l r))
      with ((Cmod acc * r + Cmod c) * r ^ length l + gnorm l r) by ring.
    assert (N3 : INR (length l) * (Cmod c1 * r ^ length l + gnorm l r) <=
                 INR (length l) * ((Cmod acc * r + Cmod c) * r ^ length l + gnorm l r)) by (apply Rmult_le_compat_l; lra).
    lra.
Qed.
Lemma chorner_norm z r l : Cmod z <= r -> gnorm (chorner z l) r <= INR (length l) * gnorm l r.
Proof.
  intros Hz. destruct l as [|c l]; [cbn; lra|]. cbn [chorner gnorm]. rewrite hloop_length.
  pose proof (hloop_norm z r l Hz c) as H. cbn [length]. rewrite S_INR.
  assert (0 <= gnorm l r) by (apply gnorm_pos; pose proof (Cmod_ge_0 z); lra). lra.
Qed.

Lemma hloop_value z l : forall acc x,
  Cplus (Cmult acc (cpow x (length l))) (gval l x) =
  Cplus (Cmult (Cminus x z) (gval (removelast (acc :: hloop z acc l)) x)) (last (acc :: hloop z acc l) (RtoC 0)).
Proof.
  induction l as [|c l IH]; intros acc x.
  - cbn. ring.
  - set (a1 := Cplus (Cmult acc z) c). specialize (IH a1 x).
    change (hloop z acc (c :: l)) with (a1 :: hloop z a1 l).
    change (removelast (acc :: a1 :: hloop z a1 l)) with (acc :: removelast (a1 :: hloop z a1 l)).
    change (last (acc :: a1 :: hloop z a1 l) (RtoC 0)) with (last (a1 :: hloop z a1 l) (RtoC 0)).
    cbn [gval length cpow].
    replace (length (removelast (a1 :: hloop z a1 l))) with (length l).
    + transitivity (Cplus (Cmult (Cmult acc (cpow x (length l))) (Cminus x z)) (Cplus (Cmult a1 (cpow x (length l))) (gval l x))).
      * unfold a1. ring.
      * rewrite IH. ring.
    + rewrite removelast_firstn_len, firstn_length. cbn [length]. rewrite hloop_length. lia.
Qed.
Lemma chorner_value z l x : gval l x =
  Cplus (Cmult (Cminus x z) (gval (removelast (chorner z l)) x)) (last (chorner z l) (RtoC 0)).
Proof. destruct l as [|c l]; [cbn; ring|]. apply hloop_value. Qed.
Lemma chorner_last z l : last (chorner z l) (RtoC 0) = gval l z.
Proof. rewrite (chorner_value z l z). ring. Qed.

(** The real scheme of RealIT_ak1. *)
Lemma horner_loop_C s l : forall acc, map RtoC (horner_loop s acc l) = hloop (RtoC s) (RtoC acc) (map RtoC l).
Proof.
  induction l as [|c l IH]; intros acc; cbn; auto. rewrite IH. now rewrite RtoC_plus, RtoC_mult.
Qed.
Lemma horner_C s p : map RtoC (horner s p) = chorner (RtoC s) (map RtoC p).
Proof. destruct p as [|c p]; cbn; auto. now rewrite horner_loop_C. Qed.
(** The quadratic division is Horner's scheme for one zero after the other. *)
Lemma sd_loop_C s l u v p : Cplus s l = RtoC (- u) -> Cmult s l = RtoC v -> forall a b,
  map RtoC (fst (fst (sd_loop u v a b p))) =
  hloop l (RtoC a) (hloop s (Cminus (RtoC a) (Cmult l (RtoC b))) (map RtoC p)).
Proof.
  intros Hu Hv. induction p as [|c p IH]; intros a b; auto.
  cbn [sd_loop map hloop]. set (q := - (a * u + b * v) + c). specialize (IH q a).
  destruct (sd_loop u v q a p) as [[r a'] b']. cbn [fst map] in *. rewrite IH.
  assert (Eq : RtoC q = Cplus (Cmult (RtoC a) l) (Cplus (Cmult (Cminus (RtoC a) (Cmult l (RtoC b))) s) (RtoC c))).
  { unfold q. rewrite RtoC_plus, RtoC_opp, RtoC_plus, !RtoC_mult, <- Hv.
    assert (Hu2 : RtoC u = Copp (Cplus s l)) by (rewrite Hu, RtoC_opp; ring). rewrite Hu2. ring. }
  rewrite <- Eq. f_equal. f_equal. f_equal. rewrite Eq. ring.
Qed.
Lemma quad_sd_C s l u v p : Cplus s l = RtoC (- u) -> Cmult s l = RtoC v -> (2 <= length p)%nat ->
  map RtoC (fst (fst (quad_sd u v p))) = chorner l (chorner s (map RtoC p)).
Proof.
  intros Hu Hv H. destruct p as [|p0 [|p1 p]]; try (cbn in H; lia). cbn [quad_sd].
  set (a := - (p0 * u) + p1). pose proof (sd_loop_C s l u v p Hu Hv a p0) as S.
  destruct (sd_loop u v a p0 p) as [[r a'] b']. cbn [fst map chorner hloop] in *. rewrite S.
  assert (Ea : RtoC a = Cplus (Cmult (RtoC p0) l) (Cplus (Cmult (RtoC p0) s) (RtoC p1))).
  { unfold a. rewrite RtoC_plus, RtoC_opp, RtoC_mult.
    assert (Hu2 : RtoC u = Copp (Cplus s l)) by (rewrite Hu, RtoC_opp; ring). rewrite Hu2. ring. }
  rewrite <- Ea. f_equal. f_equal. f_equal. f_equal. rewrite Ea. ring.
Qed.

(* ------------------------------------------------------------------ *)
(** ** The acceptance tests *)

Lemma aval_app l c r : aval (l ++ [c]) r = aval l r * r + Rabs c.
Proof.
  induction l as [|x l IH]; cbn; [lra|]. rewrite IH, app_length. cbn.
  replace (length l + 1)%nat with (S (length l)) by lia. cbn. ring.
Qed.
Lemma aval_mono l r r' : 0 <= r <= r' -> aval l r <= aval l r'.
Proof.
  intros H. induction l as [|x l IH]; cbn; [lra|].
  pose proof (pow_incr r r' (length l) H). pose proof (Rabs_pos x). nra.
Qed.
Lemma bound_fold r l : forall e, fold_left (fun e q => e * r + Rabs q) l e = e * r ^ length l + aval l r.
Proof.
  induction l as [|q l IH]; intros e; cbn; [lra|]. rewrite IH. ring.
Qed.
Lemma last_map_RtoC l : last (map RtoC l) (RtoC 0) = RtoC (last l 0).
Proof. induction l as [|a [|b l] IH]; cbn in *; auto. Qed.

(** RealIT_ak1 accepts s: |p(s)| is within 40 (n+1) machine epsilons. *)
Lemma real_accept p s : (1 <= length p)%nat ->
  Rabs (last (horner s p) 0) <= 20 * EPS * (2 * real_bound (horner s p) s - Rabs (last (horner s p) 0)) ->
  nearly_zero (40 * INR (length p)) p (RtoC s).
Proof.
  intros HL H. rewrite EPS_eps in H. unfold nearly_zero.
  assert (V : Cmod (cval p (RtoC s)) = Rabs (last (horner s p) 0)).
  { rewrite <- gval_RtoC, <- chorner_last, <- horner_C, last_map_RtoC, Cmod_R. reflexivity. }
  rewrite V, Cmod_R. pose proof eps_pos as EP.
  assert (B : real_bound (horner s p) s <= INR (length p) * aval p (Rabs s)).
  { apply Rle_trans with (aval (horner s p) (Rabs s)).
    - unfold real_bound. destruct (horner s p) as [|q0 q] eqn:E; [destruct p; [cbn in HL; lia|discriminate]|].
      cbn [tl elem nth aval]. unfold elem; cbn [nth]. rewrite bound_fold.
      pose proof (pow_le (Rabs s) (length q) (Rabs_pos s)). pose proof (Rabs_pos q0). nra.
    - rewrite <- gnorm_RtoC, horner_C. rewrite <- (map_length RtoC p), <- (gnorm_RtoC p).
      apply chorner_norm. rewrite Cmod_R. lra. }
  assert (A : 0 <= aval p (Rabs s)) by (apply aval_pos, Rabs_pos).
  assert (M : 0 <= Rabs (last (horner s p) 0)) by apply Rabs_pos.
  assert (20 * machine_eps * (2 * real_bound (horner s p) s - Rabs (last (horner s p) 0)) <=
          20 * machine_eps * (2 * (INR (length p) * aval p (Rabs s)))) by (apply Rmult_le_compat_l; lra).
  lra.
Qed.

Lemma horner_deflate p s : (1 <= length p)%nat ->
  length (horner s p) = length p /\ hd 0 (horner s p) = hd 0 p /\
  forall x, cval p x = Cplus (Cmult (Cminus x (RtoC s)) (cval (firstn (length p - 1) (horner s p)) x)) (cval p (RtoC s)).
Proof.
  intros HL.
  assert (LH : length (horner s p) = length p) by (rewrite <- (map_length RtoC), horner_C, chorner_length, map_length; auto).
  split; auto. split; [destruct p; auto|]. intros x.
  rewrite <- gval_RtoC. rewrite (chorner_value (RtoC s)). f_equal.
  - f_equal. rewrite <- horner_C, <- gval_RtoC. f_equal. rewrite removelast_firstn_len, map_length, LH.
    rewrite firstn_map. f_equal. f_equal. lia.
  - rewrite chorner_last. apply gval_RtoC.
Qed.

Lemma zeros_of_C u v s l : zeros_of 1 u v s l -> Cplus s l = RtoC (- u) /\ Cmult s l = RtoC v.
Proof.
  intros (S1 & S2 & P1 & P2). destruct s as [s1 s2], l as [l1 l2]. cbn [fst snd] in *.
  split; apply injective_projections; cbn; lra.
Qed.
Lemma fst_le_Cmod s : Rabs (fst s) <= Cmod s.
Proof.
  unfold Cmod. rewrite <- (sqrt_Rsqr_abs (fst s)). apply sqrt_le_1_alt. unfold Rsqr. pose proof (pow2_ge_0 (snd s)). nra.
Qed.

(** QuadIT_ak1 accepts a pair: the larger zero l is within 360 (n+1)^2 machine
    epsilons. *)
Lemma quad_accept rdiv p u v : divides rdiv -> (2 <= length p)%nat ->
  let '(s, l) := quad rdiv 1 u v in let '(qp, a, b) := quad_sd u v p in
  Rabs (- (fst s * b) + a) + Rabs (snd s * b) <= 20 * quad_bound (length p - 1) qp a b v (fst s) ->
  nearly_zero (360 * INR (length p) ^ 2) p l.
Proof.
  intros DV HL. pose proof (quad_spec rdiv 1 u v DV ltac:(lra)) as Q.
  destruct (quad rdiv 1 u v) as [s l]. destruct Q as (Z & _ & SL).
  destruct (zeros_of_C _ _ _ _ Z) as [ZS ZP].
  pose proof (quad_sd_C s l u v p ZS ZP HL) as QC. pose proof (quad_sd_spec u v p HL) as QS.
  destruct (quad_sd u v p) as [[qp a] b] eqn:EQ. cbn [fst] in QC. destruct QS as (QL & _ & QV).
  intros H. unfold nearly_zero. pose proof eps_pos as EP.
  (* the value at l *)
  assert (V : cval p l = Cminus (RtoC a) (Cmult s (RtoC b))).
  { rewrite (QV l). replace (RtoC v) with (Cmult s l) by auto.
    assert (Hu : RtoC u = Copp (Cplus s l)) by (rewrite ZS, RtoC_opp; ring). rewrite Hu. ring. }
  assert (MV : Cmod (cval p l) <= Rabs (- (fst s * b) + a) + Rabs (snd s * b)).
  { rewrite V. replace (Cminus (RtoC a) (Cmult s (RtoC b))) with (Cplus (RtoC (- (fst s * b) + a)) (Cmult Ci (RtoC (- (snd s * b))))).
    - eapply Rle_trans; [apply Cmod_triangle|]. rewrite Cmod_mult, !Cmod_R, Rabs_Ropp.
      assert (CI : Cmod Ci = 1). { unfold Cmod, Ci; cbn. replace (0 * (0 * 1) + 1 * (1 * 1)) with 1 by ring. apply sqrt_1. }
      rewrite CI. lra.
    - destruct s as [s1 s2]. apply injective_projections; cbn; ring. }
  (* moduli *)
  assert (PV : Cmod s * Cmod l = Rabs v) by (rewrite <- Cmod_mult, ZP, Cmod_R; auto).
  pose proof (Cmod_ge_0 s) as S0. pose proof (Cmod_ge_0 l) as L0.
  set (zm := sqrt (Rabs v)). assert (ZM : zm * zm = Rabs v) by (apply sqr_sqrt_abs).
  assert (Z0 : 0 <= zm) by apply sqrt_pos.
  assert (SZ : Cmod s <= zm) by (apply Rsqr_incr_0_var; [unfold Rsqr; nra|auto]).
  assert (ZL : zm <= Cmod l) by (apply Rsqr_incr_0_var; [unfold Rsqr; nra|auto]).
  assert (FS : Rabs (fst s) <= zm) by (eapply Rle_trans; [apply fst_le_Cmod|exact SZ]).
  (* last entry of qp is a *)
  assert (LA : exists q', qp = q' ++ [a] /\ length q' = (length p - 1)%nat).
  { destruct p as [|p0 [|p1 p']]; try (cbn in HL; lia). cbn [quad_sd] in EQ.
    assert (G : forall l a b, last (a :: fst (fst (sd_loop u v a b l))) 0 = snd (fst (sd_loop u v a b l))).
    { clear. induction l as [|c l IH]; intros a b; cbn [sd_loop]; auto. specialize (IH (- (a * u + b * v) + c) a).
      destruct (sd_loop u v _ a l) as [[r a'] b']. cbn [fst snd] in *. cbn [last] in *. exact IH. }
    specialize (G p' (- (p0 * u) + p1) p0). pose proof (sd_loop_length u v p' (- (p0 * u) + p1) p0) as LL.
    destruct (sd_loop u v _ p0 p') as [[r a'] b']. injection EQ as <- <- <-. cbn [fst snd] in G, LL.
    exists (removelast (p0 :: (- (p0 * u) + p1) :: r)). split.
    - rewrite <- G. change (last ((- (p0 * u) + p1) :: r) 0) with (last (p0 :: (- (p0 * u) + p1) :: r) 0).
      apply app_removelast_last. discriminate.
    - rewrite removelast_firstn_len, firstn_length. cbn [length]. lia. }
  destruct LA as (q' & Eq & Lq').
  (* the bound *)
  assert (B : quad_bound (length p - 1) qp a b v (fst s) <= 18 * machine_eps * aval qp zm).
  { unfold quad_bound. fold zm. rewrite EPS_eps. destruct q' as [|q0 q']; [cbn in Lq'; lia|].
    rewrite Eq. cbn [app tl]. unfold elem; cbn [nth].
    replace (firstn (length p - 1 - 1) (q' ++ [a])) with q'.
    - rewrite bound_fold. change (q0 :: q' ++ [a]) with ((q0 :: q') ++ [a]). rewrite aval_app. cbn [aval].
      set (t := - (fst s * b)).
      assert (T : Rabs t <= zm * Rabs b).
      { unfold t. rewrite Rabs_Ropp, Rabs_mult. apply Rmult_le_compat_r; [apply Rabs_pos|auto]. }
      assert (AT : Rabs (a + t) <= Rabs a + Rabs t) by apply Rabs_triang.
      assert (PA : 0 <= aval q' zm) by (now apply aval_pos).
      assert (PZ : 0 <= aval q' zm * zm) by nra.
      pose proof (Rabs_pos a). pose proof (Rabs_pos b). pose proof (Rabs_pos t).
      match goal with |- ?X * machine_eps <= 18 * machine_eps * ?Y =>
        replace (18 * machine_eps * Y) with (18 * Y * machine_eps) by ring end.
      apply Rmult_le_compat_r; [lra|]. lra.
    - cbn [length] in Lq'. replace (length p - 1 - 1)%nat with (length q') by lia.
      rewrite firstn_app, Nat.sub_diag, firstn_all. cbn. now rewrite app_nil_r. }
  assert (N : aval qp (Cmod l) <= INR (length p) ^ 2 * aval p (Cmod l)).
  { rewrite <- gnorm_RtoC, QC.
    eapply Rle_trans; [apply chorner_norm; lra|]. rewrite chorner_length, map_length.
    replace (INR (length p) ^ 2 * aval p (Cmod l)) with (INR (length p) * (INR (length p) * aval p (Cmod l))) by ring.
    apply Rmult_le_compat_l; [apply pos_INR|].
    eapply Rle_trans; [apply chorner_norm; exact SL|]. rewrite map_length, gnorm_RtoC. lra. }
  pose proof (aval_mono qp zm (Cmod l) ltac:(lra)) as MO.
  assert (18 * machine_eps * aval qp zm <= 18 * machine_eps * (INR (length p) ^ 2 * aval p (Cmod l))).
  { apply Rmult_le_compat_l; lra. }
  lra.
Qed.

(* ------------------------------------------------------------------ *)
(** ** What the iterations return *)

Definition one_ok (p : list R) (s : R) (qp : list R) : Prop :=
  qp = horner s p /\ nearly_zero (40 * INR (length p)) p (RtoC s).
Definition two_ok (rdiv : R -> R -> R) (p : list R) (s l : C) (qp : list R) : Prop :=
  exists u v, (s, l) = quad rdiv 1 u v /\ qp = fst (fst (quad_sd u v p)) /\
    Rabs (Rabs (fst s) - Rabs (fst l)) <= 1 / 100 * Rabs (fst l) /\
    nearly_zero (360 * INR (length p) ^ 2) p l.

Lemma quad_it_ok rdiv p : divides rdiv -> (2 <= length p)%nat -> forall fuel K u v j tried relstp omp s l qp,
  quad_it rdiv fuel (length p - 1) p K u v j tried relstp omp = QFound s l qp -> two_ok rdiv p s l qp.
Proof.
  intros DV HL. induction fuel as [|fuel IH]; intros K u v j tried relstp omp s l qp; [discriminate|].
  cbn [quad_it]. pose proof (quad_accept rdiv p u v DV HL) as QA.
  destruct (quad rdiv 1 u v) as [[szr szi] [lzr lzi]] eqn:EQ.
  destruct (Rltb (1 / 100 * Rabs lzr) (Rabs (Rabs szr - Rabs lzr))) eqn:E1; [discriminate|]. apply Rltb_false in E1.
  destruct (quad_sd u v p) as [[q a] b] eqn:ES. cbn [fst snd] in QA.
  destruct (Rleb _ (20 * quad_bound _ _ _ _ _ _)) eqn:E2.
  - apply Rleb_true in E2. intros E. injection E as <- <- <-. exists u, v. rewrite ES. cbn [fst snd].
    split; [now rewrite EQ|]. split; auto.
  - destruct (20 <? S j)%nat; [discriminate|].
    match goal with |- context [if ?c then u - _ else u] => destruct c end;
      (match goal with |- context [quad_sd ?u' ?v' p] => destruct (quad_sd u' v' p) as [[q2 a2] b2] end);
      (match goal with |- context [newest ?r ?a ?b ?c ?d ?e ?f ?g ?h] => destruct (newest r a b c d e f g h) as [ui vi] end);
      destruct (is_zero vi); try discriminate; apply IH.
Qed.
Lemma real_it_ok rdiv p : (1 <= length p)%nat -> forall n K s0 s j t omp x qp,
  real_it rdiv n (length p - 1) p K s0 s j t omp = RFound x qp -> one_ok p x qp.
Proof.
  intros HL. induction n as [|n IH]; intros K s0 s j t omp x qp; cbn [real_it].
  - destruct (Rleb _ _) eqn:E; [|discriminate]. apply Rleb_true in E. intros H. injection H as <- <-.
    split; auto. now apply real_accept.
  - destruct (Rleb (Rabs (last (horner s p) 0)) _) eqn:E.
    + apply Rleb_true in E. intros H. injection H as <- <-. split; auto. now apply real_accept.
    + match goal with |- context [if ?c then RFail _ _ _ else _] => destruct c end; [discriminate|]. apply IH.
Qed.
Definition res_ok (rdiv : R -> R -> R) (p : list R) (r : fres) : Prop :=
  match r with FOne s qp => one_ok p s qp | FTwo s l qp => two_ok rdiv p s l qp | _ => True end.
Lemma try_loop_ok rdiv p : divides rdiv -> (2 <= length p)%nat ->
  forall fuel svk K spass vpass sbetter fflag stry vtry s ui vi betav betas,
  res_ok rdiv p (try_loop rdiv fuel (length p - 1) p svk K spass vpass sbetter fflag stry vtry s ui vi betav betas).
Proof.
  intros DV HL. induction fuel as [|fuel IH]; intros; cbn [try_loop]; [exact I|].
  assert (LIN : forall K vtry betav, res_ok rdiv p
    match real_it rdiv 10 (length p - 1) p K s s 0 0 0 with
          | RFound x qp => FOne x qp
          | RFail iflag s' K' =>
              let betas := betas * (1 / 4) in
              if iflag then
                if vpass && negb vtry then
                  try_loop rdiv fuel (length p - 1) p svk K' spass vpass sbetter false true vtry s' (- (s' + s')) (s' * s') betav betas
                else FNone K' betav betas
              else if vpass && negb vtry then
                try_loop rdiv fuel (length p - 1) p svk svk spass vpass sbetter false true vtry s' ui vi betav betas
              else FNone svk betav betas
          end).
  { intros K1 vtry1 betav1. destruct (real_it rdiv 10 _ p K1 s s 0 0 0) as [x qp|iflag s' K'] eqn:E.
    - cbn. apply (real_it_ok rdiv p ltac:(lia) _ _ _ _ _ _ _ _ _ E).
    - cbv zeta. destruct iflag; destruct (vpass && negb vtry1); try exact I; apply IH. }
  destruct (fflag && (spass && (negb vpass || sbetter))); [apply LIN|].
  destruct (quad_it rdiv 64 _ p K ui vi 0 false 0 0) as [sz lz qp|K'|] eqn:E; [|destruct (stry || negb spass); [exact I|apply LIN]|exact I].
  exact (quad_it_ok rdiv p DV HL _ _ _ _ _ _ _ _ _ _ _ E).
Qed.
Lemma fxshfr_loop_ok rdiv p : divides rdiv -> (2 <= length p)%nat ->
  forall n K u v a b qp sc first ovv oss otv ots betav betas,
  res_ok rdiv p (fxshfr_loop rdiv n (length p - 1) p K u v a b qp sc first ovv oss otv ots betav betas).
Proof.
  intros DV HL. induction n as [|n IH]; intros; cbn [fxshfr_loop]; [exact I|].
  match goal with |- context [newest ?r ?a ?b ?c ?d ?e ?f ?g ?h] => destruct (newest r a b c d e f g h) as [ui vi] end.
  match goal with |- context [if ?c then match _ with _ => _ end else _] => destruct c end; [|apply IH].
  match goal with |- context [try_loop rdiv ?f ?n ?p ?a1 ?a2 ?a3 ?a4 ?a5 ?a6 ?a7 ?a8 ?a9 ?b1 ?b2 ?b3 ?b4] =>
    pose proof (try_loop_ok rdiv p DV HL f a1 a2 a3 a4 a5 a6 a7 a8 a9 b1 b2 b3 b4) as T;
    destruct (try_loop rdiv f n p a1 a2 a3 a4 a5 a6 a7 a8 a9 b1 b2 b3 b4) end; auto.
  destruct (quad_sd u v p) as [[q2 a2] b2]. apply IH.
Qed.
Lemma shifts_ok rdiv p : divides rdiv -> (2 <= length p)%nat -> forall n jj temp bnd xx yy,
  res_ok rdiv p (fst (shifts rdiv n jj (length p - 1) p temp bnd xx yy)).
Proof.
  intros DV HL. induction n as [|n IH]; intros; cbn [shifts]; [exact I|].
  match goal with |- context [fxshfr rdiv ?a ?b ?c ?d ?e ?f] =>
    assert (T : res_ok rdiv p (fxshfr rdiv a b c d e f)); [|destruct (fxshfr rdiv a b c d e f)] end; auto.
  unfold fxshfr. destruct (quad_sd _ _ p) as [[q2 a2] b2]. now apply fxshfr_loop_ok.
Qed.
