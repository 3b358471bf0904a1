(** The root finder as a whole: what its zeros mean, and that it terminates. *)
From Coq Require Import Reals List ZArith Arith Lra Lia Bool Psatz.
From Flocq Require Import Core.
From Coquelicot Require Import Coquelicot.
From Verif Require Import Base PolyModel TrajModel RpolyModel RpolySpec RpolyProofs.
Import List ListNotations.
Local Open Scope R_scope.
Set Bullet Behavior "Strict Subproofs".

Lemma cval_scale k p x : cval (map (fun c => c * k) p) x = Cmult (RtoC k) (cval p x).
Proof.
  induction p as [|c p IH]; cbn [map cval]; [ring|]. rewrite IH, map_length, RtoC_mult. ring.
Qed.
Lemma aval_scale k p r : aval (map (fun c => c * k) p) r = Rabs k * aval p r.
Proof.
  induction p as [|c p IH]; cbn [map aval]; [ring|]. rewrite IH, map_length, Rabs_mult. ring.
Qed.
Lemma nearly_zero_scale d k p z : k <> 0 -> nearly_zero d (map (fun c => c * k) p) z -> nearly_zero d p z.
Proof.
  intros K. unfold nearly_zero. rewrite cval_scale, aval_scale, Cmod_mult, Cmod_R. intros H.
  assert (P : 0 < Rabs k) by now apply Rabs_pos_lt.
  apply (Rmult_le_reg_l (Rabs k)); auto. lra.
Qed.
Lemma scale_factor_nonzero rdiv p : scale_factor rdiv p <> 0.
Proof.
  unfold scale_factor. destruct (moduli p). destruct (_ || _); [apply powerRZ_NOR; lra|lra].
Qed.
Lemma hd_map k p : hd 0 (map (fun c => c * k) p) = k * hd 0 p.
Proof. destruct p; cbn; ring. Qed.
Lemma hd_firstn n (l : list R) : (1 <= n)%nat -> hd 0 (firstn n l) = hd 0 l.
Proof. destruct n; [lia|]. destruct l; auto. Qed.

Lemma main_loop_ok rdiv : divides rdiv -> forall rounds fuel p xx yy ok zs, hd 0 p <> 0 ->
  main_loop rdiv rounds fuel p xx yy = Val (ok, zs) -> explained p ok zs.
Proof.
  intros DV. induction rounds as [|rounds IH]; intros fuel p xx yy ok zs HP; [discriminate|].
  cbn [main_loop]. destruct p as [|p0 [|p1 [|p2 [|p3 p]]]].
  - cbn in HP. congruence.
  - intros E. injection E as <- <-. constructor.
  - intros E. injection E as <- <-. cbn in HP. rewrite DV by auto. apply ex_linear; [|reflexivity]. intros x.
    cbn [cval length cpow]. 
    replace (((- (p1 / p0))%R, 0)) with (RtoC (- (p1 / p0))) by reflexivity.
    rewrite RtoC_opp, RtoC_div by auto. field. intros F. apply HP. now apply RtoC_inj.
  - pose proof (quad_spec rdiv p0 p1 p2 DV) as Q. destruct (quad rdiv p0 p1 p2) as [s l].
    cbn in HP. destruct (Q HP) as (Z & CJ & _). intros E. injection E as <- <-.
    apply ex_quadratic; [now apply zeros_of_factor|]. tauto.
  - set (P := p0 :: p1 :: p2 :: p3 :: p) in *. set (k := scale_factor rdiv P).
    assert (K : k <> 0) by apply scale_factor_nonzero.
    set (p' := map (fun c => c * k) P).
    assert (L' : length p' = length P) by apply map_length.
    assert (L4 : (4 <= length P)%nat) by (cbn; lia).
    destruct (lower_bound rdiv fuel (length P - 1) p') as [bnd|]; [|discriminate].
    pose proof (shifts_ok rdiv p' DV ltac:(lia) 20 1 (first_stage rdiv (length P - 1) p') bnd xx yy) as S.
    rewrite L' in S.
    destruct (shifts rdiv 20 1 (length P - 1) p' _ bnd xx yy) as [[s qp|s l qp|? ? ?|] [xx' yy']]; cbn [fst] in S.
    + destruct S as [-> S]. destruct (main_loop rdiv rounds fuel _ xx' yy') as [[ok' zs']| |] eqn:EM; try discriminate.
      intros E. injection E as <- <-.
      destruct (horner_deflate p' s ltac:(lia)) as (HL & HH & HV).
      assert (HQ : hd 0 (firstn (length P - 1) (horner s p')) = k * hd 0 P).
      { rewrite hd_firstn by lia. rewrite HH. apply hd_map. }
      change (s, 0) with (RtoC s). apply (ex_one P (firstn (length P - 1) (horner s p')) k s); auto.
      * rewrite firstn_length, HL, L'. lia.
      * rewrite <- L'. apply (nearly_zero_scale _ k); auto.
      * intros x. rewrite <- !cval_scale. fold p'. rewrite (HV x) at 1. now rewrite L'.
      * apply (IH fuel _ xx' yy'); auto. rewrite HQ. now apply Rmult_integral_contrapositive_currified.
    + destruct S as (u & v & EQ & -> & CL & S). destruct (main_loop rdiv rounds fuel _ xx' yy') as [[ok' zs']| |] eqn:EM; try discriminate.
      intros E. injection E as <- <-.
      pose proof (quad_sd_spec u v p' ltac:(lia)) as QS. destruct (quad_sd u v p') as [[q a] b]. cbn [fst] in *.
      destruct QS as (HL & HH & HV).
      pose proof (quad_spec rdiv 1 u v DV ltac:(lra)) as Q. rewrite <- EQ in Q. destruct Q as (Z & CJ & SL).
      destruct (zeros_of_C _ _ _ _ Z) as [ZS ZP].
      assert (HQ : hd 0 (firstn (length P - 1 - 1) q) = k * hd 0 P).
      { rewrite hd_firstn by lia. rewrite HH. apply hd_map. }
      apply (ex_two P (firstn (length P - 1 - 1) q) k s l (b * u + a) b); auto.
      * rewrite firstn_length, HL, L'. lia.
      * tauto.
      * destruct CJ as [[S2 L2]|CJ].
        -- destruct s as [s1 s2], l as [l1 l2]. cbn [fst snd] in *. subst s2 l2.
           change (s1, 0) with (RtoC s1). change (l1, 0) with (RtoC l1). rewrite !Cmod_R. apply Rabs_le_inv in CL. lra.
        -- rewrite CJ. assert (EC : Cmod (Cconj s) = Cmod s) by (unfold Cmod, Cconj; cbn; f_equal; ring).
           rewrite EC. pose proof (Cmod_ge_0 s). lra.
      * rewrite <- L'. apply (nearly_zero_scale _ k); auto.
      * intros x. rewrite <- cval_scale. fold p'. rewrite (HV x). rewrite L'.
        replace (length P - 1 - 1)%nat with (length P - 2)%nat by lia.
        rewrite <- ZP. rewrite RtoC_plus, RtoC_mult.
        assert (Hu : RtoC u = Copp (Cplus s l)) by (rewrite ZS, RtoC_opp; ring). rewrite Hu. ring.
      * apply (IH fuel _ xx' yy'); auto. rewrite HQ. now apply Rmult_integral_contrapositive_currified.
    + intros E. injection E as <- <-. now apply ex_stop.
    + discriminate.
Qed.

(* ------------------------------------------------------------------ *)
(** ** Termination of the iterations with a counter *)

Lemma quad_it_fuel rdiv N p : forall fuel K u v j (tried : bool) relstp omp, (j <= 20)%nat ->
  ((if tried then 0 else 21) + (21 - j) <= fuel)%nat -> quad_it rdiv fuel N p K u v j tried relstp omp <> QFuel.
Proof.
  induction fuel as [|fuel IH]; intros K u v j tried relstp omp Hj HF; [destruct tried; lia|].
  cbn [quad_it]. destruct (quad rdiv 1 u v) as [[szr szi] [lzr lzi]].
  destruct (Rltb _ _); [discriminate|]. destruct (quad_sd u v p) as [[q a] b].
  destruct (Rleb _ (20 * _)); [discriminate|].
  destruct (Nat.ltb_spec 20 (S j)) as [H|H]; [discriminate|].
  destruct ((2 <=? S j)%nat && Rleb relstp (1 / 100) && Rleb omp _ && negb tried) eqn:E;
    (match goal with |- context [quad_sd ?u' ?v' p] => destruct (quad_sd u' v' p) as [[q2 a2] b2] end);
    (match goal with |- context [newest ?r ?a ?b ?c ?d ?e ?f ?g ?h] => destruct (newest r a b c d e f g h) as [ui vi] end);
    destruct (is_zero vi); try discriminate; apply IH; try lia.
  apply andb_prop in E. destruct E as [_ E]. destruct tried; [discriminate|]. lia.
Qed.
Lemma try_loop_fuel rdiv N p : forall fuel svk K spass vpass sbetter (fflag stry vtry : bool) s ui vi betav betas,
  ((if vtry then 0 else if fflag then 2 else 1) < fuel)%nat -> 
  (vtry = false) -> (fflag = true \/ stry = true) ->
  try_loop rdiv fuel N p svk K spass vpass sbetter fflag stry vtry s ui vi betav betas <> FFuel.
Proof.
  induction fuel as [|fuel IH]; intros svk K spass vpass sbetter fflag stry vtry s ui vi betav betas HF -> HS; [lia|].
  cbn [try_loop].
  destruct (fflag && (spass && (negb vpass || sbetter))) eqn:E0.
  - apply andb_prop in E0. destruct E0 as [-> _].
    destruct (real_it rdiv 10 N p K s s 0 0 0) as [x qp|iflag s' K']; [discriminate|]. cbv zeta.
    destruct iflag; destruct (vpass && negb false); try discriminate; apply IH; auto; lia.
  - destruct (quad_it rdiv 64 N p K ui vi 0 false 0 0) as [sz lz qp|K'|] eqn:E; [discriminate| |].
    + destruct (stry || negb spass); [discriminate|].
      destruct (real_it rdiv 10 N p svk s s 0 0 0) as [x qp|iflag s' K2]; [discriminate|]. cbv zeta.
      cbn [negb]. rewrite andb_false_r. destruct iflag; discriminate.
    + exfalso. apply (quad_it_fuel rdiv N p 64 K ui vi 0 false 0 0); auto; lia.
Qed.
Lemma fxshfr_loop_fuel rdiv N p : forall n K u v a b qp sc first ovv oss otv ots betav betas,
  fxshfr_loop rdiv n N p K u v a b qp sc first ovv oss otv ots betav betas <> FFuel.
Proof.
  induction n as [|n IH]; intros; cbn [fxshfr_loop]; [discriminate|].
  match goal with |- context [newest ?r ?a ?b ?c ?d ?e ?f ?g ?h] => destruct (newest r a b c d e f g h) as [ui vi] end.
  match goal with |- context [if ?c then match _ with _ => _ end else _] => destruct c end; [|apply IH].
  match goal with |- context [try_loop rdiv ?f ?n ?p ?a1 ?a2 ?a3 ?a4 ?a5 ?a6 ?a7 ?a8 ?a9 ?b1 ?b2 ?b3 ?b4] =>
    pose proof (try_loop_fuel rdiv n p f a1 a2 a3 a4 a5 a6 a7 a8 a9 b1 b2 b3 b4 ltac:(cbn; lia) eq_refl (or_introl eq_refl)) as T;
    destruct (try_loop rdiv f n p a1 a2 a3 a4 a5 a6 a7 a8 a9 b1 b2 b3 b4) end; auto; try discriminate.
  destruct (quad_sd u v p) as [[q2 a2] b2]. apply IH.
Qed.
Lemma shifts_fuel rdiv N p : forall n jj temp bnd xx yy, fst (shifts rdiv n jj N p temp bnd xx yy) <> FFuel.
Proof.
  induction n as [|n IH]; intros; cbn [shifts]; [discriminate|].
  match goal with |- context [fxshfr rdiv ?a ?b ?c ?d ?e ?f] =>
    assert (T : fxshfr rdiv a b c d e f <> FFuel); [|destruct (fxshfr rdiv a b c d e f)] end; auto; try discriminate.
  unfold fxshfr. destruct (quad_sd _ _ p) as [[q2 a2] b2]. apply fxshfr_loop_fuel.
Qed.

(* ------------------------------------------------------------------ *)
(** ** Termination of the bound on the moduli *)

Definition evalr (x : R) (l : list R) (f : R) : R := fold_left (fun f c => f * x + c) l f.
Definition pairr (x : R) (l : list R) (fd : R * R) : R * R :=
  fold_left (fun fd c => let ff := x * fst fd + c in (ff, x * snd fd + ff)) l fd.

Lemma pairr_spec x r l : Forall (fun c => 0 <= c) l -> 0 < x -> 0 <= r -> forall f d fr,
  0 <= f -> 0 < d -> x * f + d * (r - x) <= r * fr ->
  let '(f', d') := pairr x l (f, d) in
  f' = evalr x l f /\ 0 <= f' /\ 0 < d' /\ x * f' + d' * (r - x) <= r * evalr r l fr.
Proof.
  intros F Hx Hr. induction F as [|c l Hc F IH]; intros f d fr Hf Hd H.
  - cbn. auto.
  - cbn [pairr fold_left evalr fst snd]. specialize (IH (x * f + c) (x * d + (x * f + c)) (fr * r + c)).
    unfold pairr, evalr in *.
    replace (f * x + c) with (x * f + c) by ring.
    apply IH.
    + nra.
    + nra.
    + assert (0 <= d * ((r - x) * (r - x))) by (apply Rmult_le_pos; [lra|apply Rle_0_sqr]).
      assert (r * (x * f + d * (r - x)) <= r * (r * fr)) by (apply Rmult_le_compat_l; lra). nra.
Qed.
Lemma evalr_small x l : Forall (fun c => 0 <= c) l -> 0 <= x <= 1 -> forall f, 0 <= f -> evalr x l f <= f + fold_right Rplus 0 l.
Proof.
  intros F Hx. induction F as [|c l Hc F IH]; intros f Hf; cbn; [lra|].
  unfold evalr in IH. eapply Rle_trans; [apply IH; nra|]. nra.
Qed.

Lemma sum_nonneg l : Forall (fun c => 0 <= c) l -> 0 <= fold_right Rplus 0 l.
Proof. intros F. induction F; cbn; lra. Qed.

Section Bound.
Context (rdiv : R -> R -> R) (DV : divides rdiv) (c0 e : R) (cr : list R).
Context (Hc0 : 0 < c0) (He : 0 < e) (Hcr : Forall (fun c => 0 <= c) cr).
Let pt := c0 :: cr ++ [- e].
Lemma last_pt : last pt 0 = - e.
Proof. unfold pt. change (c0 :: cr ++ [- e]) with ((c0 :: cr) ++ [- e]). apply last_last. Qed.
Lemma eval_pt x : eval_dec pt x = x * evalr x cr c0 - e.
Proof. unfold eval_dec, pt, elem. cbn [tl nth]. rewrite fold_left_app. cbn. unfold evalr. ring. Qed.
Lemma newton_pt x : newton_pair pt x = (let '(f, d) := pairr x cr (c0, c0) in (x * f - e, d)).
Proof.
  unfold newton_pair. rewrite last_pt. unfold pt, elem. cbn [tl nth]. rewrite removelast_last.
  unfold pairr. destruct (fold_left _ cr (c0, c0)). f_equal.
Qed.
(** The tangent at x lies below the polynomial. *)
Lemma newton_tangent x r : 0 < x -> 0 <= r ->
  let '(ff, df) := newton_pair pt x in ff = eval_dec pt x /\ 0 < df /\ ff + df * (r - x) <= eval_dec pt r.
Proof.
  intros Hx Hr. rewrite newton_pt, !eval_pt.
  pose proof (pairr_spec x r cr Hcr Hx Hr c0 c0 c0 ltac:(lra) Hc0 ltac:(lra)) as P.
  destruct (pairr x cr (c0, c0)) as [f d]. destruct P as (-> & _ & D & T). repeat split; lra.
Qed.

Lemma chop_ends x : 0 < x -> exists fuel y, chop fuel pt x = Some y /\ 0 < y /\ eval_dec pt (1 / 10 * y) <= 0.
Proof.
  intros Hx. set (S := c0 + fold_right Rplus 0 cr).
  assert (HS : 0 < S).
  { unfold S. pose proof (sum_nonneg cr Hcr). lra. }
  set (b := Rmin 1 (e / S)).
  assert (Hb : 0 < b). { unfold b. apply Rmin_glb_lt; [lra|]. now apply Rdiv_lt_0_compat. }
  assert (small : forall z, 0 <= z <= b -> eval_dec pt z <= 0).
  { intros z Hz. rewrite eval_pt.
    assert (z <= 1) by (eapply Rle_trans; [apply Hz|apply Rmin_l]).
    assert (z <= e / S) by (eapply Rle_trans; [apply Hz|apply Rmin_r]).
    pose proof (evalr_small z cr Hcr ltac:(lra) c0 ltac:(lra)) as EB. fold S in EB.
    assert (z * evalr z cr c0 <= z * S) by (apply Rmult_le_compat_l; lra).
    assert (z * S <= e).
    { apply Rle_trans with (e / S * S); [apply Rmult_le_compat_r; lra|]. right. field. lra. }
    lra. }
  assert (G : forall M x, 0 < x -> x <= b * 10 ^ M -> exists fuel y, chop fuel pt x = Some y /\ 0 < y /\ eval_dec pt (1 / 10 * y) <= 0).
  { induction M as [|M IH]; intros z Hz HM.
    - exists 1%nat, z. cbn in HM. assert (X : eval_dec pt (1 / 10 * z) <= 0) by (apply small; lra).
      cbn [chop]. rewrite (proj2 (Rltb_false 0 _) X). auto.
    - destruct (Rltb 0 (eval_dec pt (1 / 10 * z))) eqn:E.
      + destruct (IH (1 / 10 * z) ltac:(lra)) as (f & y & A & B).
        * cbn [pow] in HM. lra.
        * exists (Datatypes.S f), y. cbn [chop]. rewrite E. auto.
      + exists 1%nat, z. cbn [chop]. rewrite E. apply Rltb_false in E. auto. }
  destruct (Pow_x_infinity 10) with (b := x / b) as [M HM]; [rewrite Rabs_pos_eq; lra|].
  apply (G M x Hx). specialize (HM M (le_n _)). rewrite Rabs_pos_eq in HM by (apply pow_le; lra).
  apply Rge_le in HM. apply (Rmult_le_compat_l b) in HM; [|lra]. replace (b * (x / b)) with x in HM by (field; lra). exact HM.
Qed.

Lemma newton_geometric r0 : 0 < r0 -> eval_dec pt r0 <= 0 -> forall M x dx, r0 <= x -> x < r0 * (1005 / 1000) ^ M ->
  0 <= eval_dec pt x -> exists y, newton rdiv (M + 2) pt x dx = Some y.
Proof.
  intros H0 HR. induction M as [|M IH]; intros x dx Hx HM HE; [cbn in HM; lra|].
  change (S M + 2)%nat with (S (M + 2)). cbn [newton].
  destruct (Rltb (5 / 1000) (Rabs (rdiv dx x))); [|eauto].
  pose proof (newton_tangent x r0 ltac:(lra) ltac:(lra)) as T.
  pose proof (fun z (Hz : 0 <= z) => newton_tangent x z ltac:(lra) Hz) as T2.
  destruct (newton_pair pt x) as [ff df]. destruct T as (E & D & T). rewrite DV by lra.
  set (d := ff / df). assert (Ed : df * d = ff) by (unfold d; field; lra).
  assert (D0 : 0 <= d). { unfold d. apply Rmult_le_pos; [lra|]. left. now apply Rinv_0_lt_compat. }
  assert (X1 : r0 <= x - d).
  { apply (Rmult_le_reg_l df); auto. nra. }
  destruct (T2 (x - d) ltac:(lra)) as (_ & _ & T3).
  assert (E1 : 0 <= eval_dec pt (x - d)) by nra.
  destruct (Rltb (5 / 1000) (Rabs (rdiv d (x - d)))) eqn:EC.
  - apply Rltb_true in EC. rewrite DV in EC by lra. rewrite Rabs_pos_eq in EC.
    + apply IH; auto. assert (5 / 1000 * (x - d) < d).
      { apply (Rmult_lt_compat_r (x - d)) in EC; [|lra]. replace (d / (x - d) * (x - d)) with d in EC by (field; lra). exact EC. }
      cbn [pow] in HM. lra.
    + apply Rmult_le_pos; auto. left. apply Rinv_0_lt_compat. lra.
  - exists (x - d). replace (M + 2)%nat with (S (M + 1)) by lia. cbn [newton]. rewrite EC. reflexivity.
Qed.
Lemma newton_ends x : 0 < x -> eval_dec pt (1 / 10 * x) <= 0 -> exists fuel y, newton rdiv fuel pt x x = Some y.
Proof.
  intros Hx HR. set (r0 := 1 / 10 * x).
  pose proof (newton_tangent x r0 Hx ltac:(unfold r0; lra)) as T.
  pose proof (fun z (Hz : 0 <= z) => newton_tangent x z Hx Hz) as T2.
  destruct (newton_pair pt x) as [ff df] eqn:EN. destruct T as (E & D & T).
  set (d := ff / df). assert (Ed : df * d = ff) by (unfold d; field; lra).
  assert (X1 : r0 <= x - d).
  { apply (Rmult_le_reg_l df); auto. unfold r0 in *. nra. }
  assert (E1 : 0 <= eval_dec pt (x - d)).
  { destruct (T2 (x - d) ltac:(unfold r0 in *; lra)) as (_ & _ & T3). nra. }
  destruct (Pow_x_infinity (1005 / 1000)) with (b := (x - d) / r0 + 1) as [M HM]; [rewrite Rabs_pos_eq; lra|].
  specialize (HM M (le_n _)). rewrite Rabs_pos_eq in HM by (apply pow_le; lra).
  assert (R0 : 0 < r0) by (unfold r0; lra).
  destruct (newton_geometric r0 R0 HR M (x - d) d X1) as (y & Y); auto.
  - apply Rge_le in HM. apply (Rmult_le_compat_l r0) in HM; [|lra].
    replace (r0 * ((x - d) / r0 + 1)) with (x - d + r0) in HM by (field; lra). lra.
  - exists (S (M + 2)), y. cbn [newton]. rewrite EN. rewrite !DV by lra.
    replace (x / x) with 1 by (field; lra). rewrite Rabs_R1.
    replace (Rltb (5 / 1000) 1) with true by (symmetry; apply Rltb_true; lra). exact Y.
Qed.
End Bound.

Lemma chop_more pt f : forall f' x y, (f <= f')%nat -> chop f pt x = Some y -> chop f' pt x = Some y.
Proof.
  induction f as [|f IH]; intros f' x y H E; [discriminate|]. destruct f' as [|f']; [lia|]. cbn [chop] in *.
  destruct (Rltb 0 _); auto. apply IH; auto. lia.
Qed.
Lemma newton_more rdiv pt f : forall f' x dx y, (f <= f')%nat -> newton rdiv f pt x dx = Some y -> newton rdiv f' pt x dx = Some y.
Proof.
  induction f as [|f IH]; intros f' x dx y H E; [discriminate|]. destruct f' as [|f']; [lia|]. cbn [newton] in *.
  destruct (Rltb _ _); auto. destruct (newton_pair pt x). apply IH; auto. lia.
Qed.

Lemma lower_bound_ends rdiv p : divides rdiv -> (2 <= length p)%nat -> hd 0 p <> 0 ->
  exists f0 b, forall f, (f0 <= f)%nat -> lower_bound rdiv f (length p - 1) p = Some b.
Proof.
  intros DV HL HP. unfold lower_bound.
  destruct (is_zero (elem p (length p - 1))) eqn:EZ; [exists 0%nat, 0; auto|]. apply is_zero_false in EZ.
  assert (SP : exists cr e0, p = (hd 0 p :: cr) ++ [e0]).
  { destruct p as [|p0 p]; [cbn in HL; lia|]. destruct p as [|p1 p] using rev_ind; [cbn in HL; lia|].
    exists p, p1. reflexivity. }
  destruct SP as (cr & e0 & SP).
  assert (LP : (length p - 1 = S (length cr))%nat) by (rewrite SP, app_length; cbn; lia).
  assert (E0 : elem p (length p - 1) = e0).
  { unfold elem. rewrite LP, SP. change (S (length cr)) with (length (hd 0 p :: cr)).
    rewrite app_nth2, Nat.sub_diag by lia. reflexivity. }
  rewrite E0 in EZ.
  set (c0 := Rabs (hd 0 p)). set (e := Rabs e0). set (cr' := map Rabs cr).
  assert (EB : bound_poly p = c0 :: cr' ++ [- e]).
  { unfold bound_poly. rewrite SP at 1 2. rewrite removelast_last, last_last. reflexivity. }
  assert (Hc0 : 0 < c0) by now apply Rabs_pos_lt.
  assert (He : 0 < e) by now apply Rabs_pos_lt.
  assert (Hcr : Forall (fun c => 0 <= c) cr').
  { apply Forall_forall. intros c Hc. apply in_map_iff in Hc. destruct Hc as (x & <- & _). apply Rabs_pos. }
  rewrite EB. set (pt := c0 :: cr' ++ [- e]).
  assert (EN : elem pt (length p - 1) = - e).
  { unfold elem, pt. rewrite LP. cbn [nth]. rewrite app_nth2; unfold cr'; rewrite map_length; [|lia]. now rewrite Nat.sub_diag. }
  assert (SX : 0 < start_x rdiv (length p - 1) pt).
  { unfold start_x. destruct (is_zero (elem pt _)) eqn:EI; [apply exp_pos|]. apply is_zero_false in EI.
    destruct (Rltb _ _); [|apply exp_pos]. rewrite EN, Ropp_involutive, DV by auto. apply Rdiv_lt_0_compat; auto.
    assert (NP : 0 <= elem pt (length p - 1 - 1)).
    { rewrite LP. replace (S (length cr) - 1)%nat with (length cr) by lia. unfold elem, pt.
      destruct (length cr) as [|n] eqn:EL; cbn [nth]; [lra|].
      rewrite app_nth1 by (unfold cr'; rewrite map_length; lia).
      rewrite Forall_forall in Hcr. apply Hcr. apply nth_In. unfold cr'. rewrite map_length. lia. }
    lra. }
  destruct (chop_ends c0 e cr' Hc0 He Hcr _ SX) as (f1 & y & A & Y & B).
  destruct (newton_ends rdiv DV c0 e cr' Hc0 Hcr y Y B) as (f2 & z & Z).
  exists (max f1 f2), z. intros f Hf.
  pose proof (chop_more _ f1 f _ y ltac:(lia) A) as A'. fold pt in A', Z. rewrite A'.
  apply (newton_more _ _ f2); auto. lia.
Qed.

(** The main loop ends. *)
Lemma main_loop_ends rdiv : divides rdiv -> forall rounds p xx yy, hd 0 p <> 0 -> (1 <= length p <= rounds)%nat ->
  exists f0 r, forall f, (f0 <= f)%nat -> main_loop rdiv rounds f p xx yy = Val r.
Proof.
  intros DV. induction rounds as [|rounds IH]; intros p xx yy HP HL; [lia|].
  cbn [main_loop]. destruct p as [|p0 [|p1 [|p2 [|p3 p]]]].
  - exists 0%nat, (true, []). auto.
  - exists 0%nat, (true, []). auto.
  - exists 0%nat, (true, [(- rdiv p1 p0, 0)]). auto.
  - destruct (quad rdiv p0 p1 p2) as [s l]. exists 0%nat, (true, [s; l]). auto.
  - set (P := p0 :: p1 :: p2 :: p3 :: p) in *. set (k := scale_factor rdiv P).
    assert (K : k <> 0) by apply scale_factor_nonzero.
    set (p' := map (fun c => c * k) P).
    assert (L' : length p' = length P) by apply map_length.
    assert (L4 : (4 <= length P)%nat) by (cbn; lia).
    assert (HP' : hd 0 p' <> 0).
    { unfold p'. rewrite hd_map. now apply Rmult_integral_contrapositive_currified. }
    destruct (lower_bound_ends rdiv p' DV ltac:(lia) HP') as (f1 & bnd & B). rewrite L' in B.
    pose proof (shifts_ok rdiv p' DV ltac:(lia) 20 1 (first_stage rdiv (length P - 1) p') bnd xx yy) as S.
    pose proof (shifts_fuel rdiv (length P - 1) p' 20 1 (first_stage rdiv (length P - 1) p') bnd xx yy) as SF.
    rewrite L' in S.
    destruct (shifts rdiv 20 1 (length P - 1) p' _ bnd xx yy) as [[s qp|s l qp|? ? ?|] [xx' yy']] eqn:ES; cbn [fst] in S, SF.
    + destruct S as [-> S]. destruct (horner_deflate p' s ltac:(lia)) as (LH & HH & _).
      destruct (IH (firstn (length P - 1) (horner s p')) xx' yy') as (f2 & [ok zs] & E).
      * rewrite hd_firstn by lia. now rewrite HH.
      * rewrite firstn_length, LH, L'. lia.
      * exists (max f1 f2). eexists. intros f Hf. rewrite B by lia. rewrite ES, E by lia. reflexivity.
    + destruct S as (u & v & EQ & -> & _). pose proof (quad_sd_spec u v p' ltac:(lia)) as QS.
      destruct (quad_sd u v p') as [[q a] b]. cbn [fst] in *. destruct QS as (LH & HH & _).
      destruct (IH (firstn (length P - 1 - 1) q) xx' yy') as (f2 & [ok zs] & E).
      * rewrite hd_firstn by lia. now rewrite HH.
      * rewrite firstn_length, LH, L'. lia.
      * exists (max f1 f2). eexists. intros f Hf. rewrite B by lia. rewrite ES, E by lia. reflexivity.
    + exists f1, (false, []). intros f Hf. rewrite B by lia. rewrite ES. reflexivity.
    + congruence.
Qed.


(* ------------------------------------------------------------------ *)
(** ** Reading the coefficient vector *)

Lemma DBLMIN_least : DBLMIN = least_normal.
Proof.
  unfold DBLMIN, least_normal. change (-1022)%Z with (Z.opp 1022). rewrite bpow_opp. f_equal.
  rewrite bpow_powerRZ. change 1022%Z with (Z.of_nat 1022). rewrite <- pow_powerRZ. reflexivity.
Qed.
Lemma least_pos : 0 < least_normal.
Proof. unfold least_normal. apply Rinv_0_lt_compat, pow_lt. lra. Qed.

Lemma drop_small_split l : exists small, l = small ++ drop_small l /\ Forall (fun c => Rabs c < least_normal) small /\
  (drop_small l = [] \/ least_normal <= Rabs (hd 0 (drop_small l))).
Proof.
  induction l as [|x l IH]; cbn [drop_small]; [exists []; auto|]. rewrite DBLMIN_least.
  destruct (Rleb least_normal (Rabs x)) eqn:E.
  - exists []. apply Rleb_true in E. auto.
  - apply Rleb_false in E. destruct IH as (s & Q & F & H). exists (x :: s). split; [|split; auto].
    cbn. f_equal. exact Q.
Qed.
Lemma drop_small_app s l : Forall (fun c => Rabs c < least_normal) s -> l = [] \/ least_normal <= Rabs (hd 0 l) ->
  drop_small (s ++ l) = l.
Proof.
  intros F H. induction F as [|c s Hc F IH]; cbn [app drop_small].
  - destruct l as [|c l]; auto. destruct H as [H|H]; [discriminate|]. cbn [hd drop_small] in *. rewrite DBLMIN_least.
    now rewrite (proj2 (Rleb_true _ _) H).
  - rewrite DBLMIN_least. rewrite (proj2 (Rleb_false _ _) Hc). exact IH.
Qed.
Lemma leading_zeros_split l : exists r, l = repeat 0 (leading_zeros l) ++ r /\ (r = [] \/ hd 0 r <> 0).
Proof.
  induction l as [|x l IH]; cbn [leading_zeros]; [exists []; auto|].
  destruct (is_zero x) eqn:E.
  - apply is_zero_true in E. subst. destruct IH as (r & Q & H). exists r. split; auto. cbn. f_equal. exact Q.
  - apply is_zero_false in E. exists (x :: l). auto.
Qed.
Lemma leading_zeros_app j r : hd 0 r <> 0 -> leading_zeros (repeat 0 j ++ r) = j.
Proof.
  intros H. induction j as [|j IH]; cbn.
  - destruct r as [|x r]; cbn in *; [lra|]. now rewrite (proj2 (is_zero_false x) H).
  - rewrite (proj2 (is_zero_true 0) eq_refl). now rewrite IH.
Qed.
Lemma rev_repeat {A} (x : A) n : rev (repeat x n) = repeat x n.
Proof.
  induction n as [|n IH]; auto. cbn. rewrite IH. clear. induction n as [|n IH]; auto. cbn. now rewrite IH.
Qed.
Lemma hd_rev (l : list R) : hd 0 (rev l) = last l 0.
Proof.
  destruct l as [|x l] using rev_ind; auto. rewrite rev_app_distr, last_last. reflexivity.
Qed.

(** Every vector with at least two significant coefficients has a reading. *)
Lemma reading cs : (2 <= length (drop_small (rev cs)))%nat ->
  exists j p small, reads_as cs j p small /\ drop_small (rev cs) = p ++ repeat 0 j.
Proof.
  intros H. destruct (drop_small_split (rev cs)) as (s & E & F & B).
  destruct B as [B|B]; [rewrite B in H; cbn in H; lia|]. set (d := drop_small (rev cs)) in *.
  destruct (leading_zeros_split (rev d)) as (r & Er & Hr). set (j := leading_zeros (rev d)) in *.
  assert (Ed : d = rev r ++ repeat 0 j).
  { rewrite <- (rev_involutive d), Er, rev_app_distr, rev_repeat. reflexivity. }
  assert (NR : r <> []).
  { intros ->. cbn in Ed. rewrite Ed in B. pose proof least_pos. destruct j; cbn in B; rewrite ?Rabs_R0 in B; lra. }
  assert (HR : hd 0 r <> 0) by (destruct Hr; [contradiction|auto]).
  exists j, (rev r), (rev s). split; auto. unfold reads_as.
  assert (Hh : hd 0 (rev r) = hd 0 d).
  { rewrite Ed. destruct (rev r) eqn:Q; auto. apply (f_equal (@rev R)) in Q. rewrite rev_involutive in Q. contradiction. }
  refine (conj _ (conj _ (conj _ _))).
  - rewrite <- (rev_involutive cs), E, rev_app_distr, Ed, rev_app_distr, rev_repeat, <- app_assoc. reflexivity.
  - apply Forall_forall. intros x Hx. rewrite Forall_forall in F. apply F. now apply in_rev.
  - rewrite Hh. exact B.
  - rewrite <- hd_rev, rev_involutive. exact HR.
Qed.
Lemma reads_drop cs j p small : reads_as cs j p small -> drop_small (rev cs) = p ++ repeat 0 j.
Proof.
  intros (-> & F & B & _). rewrite !rev_app_distr, rev_involutive, rev_repeat, <- app_assoc.
  apply drop_small_app.
  - apply Forall_forall. intros x Hx. rewrite Forall_forall in F. apply F. now apply in_rev.
  - right. destruct p; auto. cbn in B. pose proof least_pos. rewrite Rabs_R0 in B. lra.
Qed.
Lemma reads_rpoly rdiv fuel cs j p small : reads_as cs j p small ->
  rpoly rdiv fuel (p ++ repeat 0 j) =
  match main_loop rdiv (length p) fuel p (sqrt (1 / 2)) (- sqrt (1 / 2)) with
  | Val (ok, zs) => Val (ok, repeat (0, 0) j ++ zs)
  | r => r
  end.
Proof.
  intros (_ & _ & B & L). pose proof least_pos as LP. unfold rpoly.
  assert (HP : hd 0 p <> 0). { intros Q. rewrite Q, Rabs_R0 in B. lra. }
  destruct p as [|p0 p]; [cbn in HP; lra|]. unfold elem. cbn [nth app].
  rewrite (proj2 (is_zero_false p0) HP).
  change (p0 :: p ++ repeat 0 j) with ((p0 :: p) ++ repeat 0 j).
  rewrite rev_app_distr, rev_repeat, leading_zeros_app by (rewrite hd_rev; auto).
  rewrite app_length, repeat_length. replace (length (p0 :: p) + j - j)%nat with (length (p0 :: p)) by lia.
  rewrite firstn_app, firstn_all, Nat.sub_diag. cbn [firstn]. rewrite app_nil_r. reflexivity.
Qed.
Lemma reads_hd cs j p small : reads_as cs j p small -> hd 0 p <> 0.
Proof. intros (_ & _ & B & _) Q. pose proof least_pos. rewrite Q, Rabs_R0 in B. lra. Qed.
Lemma reads_length cs j p small : reads_as cs j p small -> (1 <= length p)%nat.
Proof. intros R. apply reads_hd in R. destruct p; cbn in *; [lra|lia]. Qed.

Lemma find_roots_reads rdiv fuel cs j p small : reads_as cs j p small -> (2 <= length p + j <= 101)%nat ->
  find_roots_jt rdiv fuel cs =
  match main_loop rdiv (length p) fuel p (sqrt (1 / 2)) (- sqrt (1 / 2)) with
  | Val (ok, zs) => match repeat (0, 0) j ++ zs with [] => Failed | l => Val l end
  | Failed => Failed
  | Undef => Undef
  end.
Proof.
  intros RA H. unfold find_roots_jt. rewrite (reads_drop _ _ _ _ RA).
  rewrite app_length, repeat_length.
  rewrite (proj2 (Nat.ltb_ge _ _)) by lia. rewrite (proj2 (Nat.ltb_ge _ _)) by lia.
  rewrite (reads_rpoly rdiv fuel cs j p small RA).
  destruct (main_loop _ _ _ _ _ _) as [[ok zs]| |]; auto.
  destruct (repeat (0, 0) j ++ zs); auto.
Qed.
