(** C99: the fixed-shift stage of the root finder notices that its auxiliary
    polynomial has settled (exact arithmetic; [rdiv] is any division, arbitrary
    for division by zero). *)
From Coq Require Import Reals List ZArith Arith Lra Lia Bool Psatz.
From Flocq Require Import Core.
From Coquelicot Require Import Coquelicot.
From Verif Require Import Base PolyModel PolySpec TrajModel RpolyModel RpolySpec RpolyProofs RpolyMain PropertiesRpoly PropertiesShift.
Import List ListNotations.
Local Open Scope R_scope.
Set Bullet Behavior "Strict Subproofs".

Lemma root_accepted rdiv n N (p K : list R) s0 s j t omp : (1 <= length p)%nat -> rval p s = 0 ->
  real_it rdiv n N p K s0 s j t omp = RFound s (horner s p).
Proof.
  intros LP PZ. destruct n; cbn [real_it]; rewrite (horner_last p s), PZ, Rabs_R0 by lia.
  all: destruct (Rleb 0 _) eqn:E; auto; apply Rleb_false in E; exfalso; unfold real_bound in E; rewrite bound_fold in E;
    pose proof (aval_pos (tl (horner s p)) (Rabs s) (Rabs_pos s)); pose proof (pow_le (Rabs s) (length (tl (horner s p))) (Rabs_pos s));
    pose proof (Rabs_pos (elem (horner s p) 0)); pose proof eps_pos; rewrite EPS_eps in E;
    assert (0 <= Rabs (elem (horner s p) 0) * Rabs s ^ length (tl (horner s p))) by (apply Rmult_le_pos; auto); nra.
Qed.

Lemma tried_found rdiv (p K : list R) s ui vi vpass sbetter : (1 <= length p)%nat -> rval p s = 0 ->
  let r := try_loop rdiv 3 (length K) p K K true vpass sbetter true false false s ui vi (1 / 4) (1 / 4) in
  (r = FOne s (horner s p) \/ exists sz lz qp, r = FTwo sz lz qp) /\ (vpass = false -> r = FOne s (horner s p)).
Proof.
  intros LP PZ. cbv zeta. cbn [try_loop andb]. rewrite root_accepted by assumption.
  split; [|intros ->; reflexivity].
  destruct (negb vpass || sbetter); [left; reflexivity|].
  destruct (quad_it rdiv 64 (length K) p K ui vi 0 false 0 0) as [sz lz qp|K'|] eqn:E; [right; eauto|left; reflexivity|].
  exfalso. revert E. apply quad_it_fuel; cbn; lia.
Qed.

(** Let the auxiliary polynomial K of P (one coefficient less) be unchanged by the
    fixed shift x^2 - 2 sr x + b, without having lost its first coefficient, and let
    the linear estimate -P(0)/K(0) be a zero s of P other than 0.  Then the stage,
    allowed two steps or more, ends with a finding: that zero, or a pair
    that was accepted before it was looked at.  When the quadratic estimate
    (u', v') has v' = 0, it is that zero. *)
Theorem C99_settled : forall rdiv n (p K : list R) (sr b s : R), divides rdiv ->
  length p = S (length K) -> (2 <= length K)%nat -> hd 0 K <> 0 -> shifted rdiv p (- (2 * sr)) b K = K ->
  last K 0 <> 0 -> s = - (last p 0 / last K 0) -> s <> 0 -> rval p s = 0 ->
  let found := fxshfr rdiv (S (S n)) (length K) p K sr b in
  (found = FOne s (horner s p) \/ exists sz lz qp, found = FTwo sz lz qp) /\
  (snd (let '(_, a1, b1) := quad_sd (- (2 * sr)) b p in
        newest rdiv (calc_sc rdiv (length K) a1 b1 K (- (2 * sr)) b) a1 b1 (- (2 * sr)) b K (length K) p) = 0 ->
   found = FOne s (horner s p)).
Proof.
  intros rdiv n p K sr b s DV LP LK HD HS NZ ES NS PZ. cbv zeta. unfold shifted in HS. unfold fxshfr.
  set (u := - (2 * sr)) in *. destruct (quad_sd u b p) as [[qp a1] b1] eqn:EQ. set (N := length K) in *.
  set (sc := calc_sc rdiv N a1 b1 K u b) in *.
  assert (FL : sc_flag sc <> Type3).
  { intros E. unfold next_k in HS. rewrite E in HS. rewrite <- HS in HD. cbn in HD. congruence. }
  assert (EK : elem K (N - 1) = last K 0).
  { unfold elem, N. destruct K as [|x l] using rev_ind; [cbn in LK; lia|]. rewrite last_last, app_length. cbn [length].
    replace (length l + 1 - 1)%nat with (length l) by lia. rewrite app_nth2, Nat.sub_diag by lia. reflexivity. }
  assert (EP : elem p N = last p 0).
  { unfold elem. destruct p as [|x l] using rev_ind; [cbn in LP; lia|]. rewrite app_length in LP. cbn [length] in LP. rewrite last_last.
    rewrite app_nth2 by lia. replace (N - length l)%nat with 0%nat by lia. reflexivity. }
  assert (SS : (if is_zero (elem K (N - 1)) then 0 else - rdiv (elem p N) (elem K (N - 1))) = s).
  { rewrite EK, EP, (proj2 (is_zero_false _) NZ), DV by exact NZ. auto. }
  cbn [fxshfr_loop]. rewrite HS. fold sc. destruct (newest rdiv sc a1 b1 u b K N p) as [ui vi] eqn:EN. rewrite SS.
  cbn [negb andb orb]. rewrite HS. fold sc. rewrite EN, SS.
  assert (FA : (match sc_flag sc with Type3 => false | _ => true end) = true) by (destruct (sc_flag sc); congruence).
  rewrite FA. cbn [andb]. rewrite (proj2 (is_zero_false s) NS). cbn [negb].
  assert (TS : Rabs (rdiv (s - s) s) = 0) by (rewrite DV by exact NS; replace ((s - s) / s) with 0 by (field; exact NS); apply Rabs_R0).
  rewrite TS, (proj2 (Rltb_true 0 1)), Rmult_0_l, (proj2 (Rltb_true 0 (1 / 4))) by lra. cbn [orb snd].
  set (vpass := Rltb (if Rltb _ 1 then _ else 1) (1 / 4)). set (sbetter := Rltb 0 (if Rltb _ 1 then _ else 1)).
  destruct (tried_found rdiv p K s ui vi vpass sbetter ltac:(lia) PZ) as [T1 T2]. fold N in T1, T2. split.
  - destruct T1 as [-> | (sz & lz & q & ->)]; eauto 8.
  - intros V0. rewrite T2; [reflexivity|]. unfold vpass. rewrite (proj2 (is_zero_true vi) V0). cbn [negb].
    destruct (Rltb 1 1) eqn:E1; [apply Rltb_true in E1; lra|]. apply Rltb_false. lra.
Qed.
Print Assumptions C99_settled.

(** The hypotheses are met: (x - 1)^3 with K = (x - 1)^2 and the shift x^2 + 1; the
    triple zero is found. *)
Theorem C99_settled_example :
  (shifted Rdiv [1; -3; 3; -1] (- (2 * 0)) 1 [1; -2; 1] = [1; -2; 1] /\ 1 = - (last [1; -3; 3; -1] 0 / last [1; -2; 1] 0) /\ rval [1; -3; 3; -1] 1 = 0) /\
  fxshfr Rdiv 20 3 [1; -3; 3; -1] [1; -2; 1] 0 1 = FOne 1 (horner 1 [1; -3; 3; -1]).
Proof.
  assert (DV : divides Rdiv) by (intros x y _; reflexivity).
  assert (E10 : 10 * EPS < 1 / 100) by (rewrite EPS_eps; unfold machine_eps; lra).
  assert (E0 : 0 < EPS) by (rewrite EPS_eps; apply eps_pos).
  assert (U : - (2 * 0) = 0) by ring.
  assert (QP : quad_sd 0 1 [1; -3; 3; -1] = ([1; -3; 2; 2], 2, 2)).
  { cbn [quad_sd sd_loop]. assert (T : forall q q' r r' t t' x x' y y' z z' : R, q = q' -> r = r' -> t = t' -> x = x' -> y = y' -> z = z' ->
      ([q; r; t; x], y, z) = ([q'; r'; t'; x'], y', z')) by (intros; subst; reflexivity). apply T; ring. }
  assert (QK : quad_sd 0 1 [1; -2; 1] = ([1; -2; 0], 0, -2)).
  { cbn [quad_sd sd_loop]. assert (T : forall q q' r r' t t' y y' z z' : R, q = q' -> r = r' -> t = t' -> y = y' -> z = z' ->
      ([q; r; t], y, z) = ([q'; r'; t'], y', z')) by (intros; subst; reflexivity). apply T; ring. }
  assert (SC : calc_sc Rdiv 3 2 2 [1; -2; 1] 0 1 = mkSc Type2 0 (-2) 0 0 2 (-2) (-4) 2 [1; -2; 0]).
  { unfold calc_sc. rewrite QK. unfold elem. cbn [nth Nat.sub]. rewrite Rabs_R0, (Rabs_left (-2)), Rabs_R1 by lra.
    rewrite (proj2 (Rleb_false (- -2) (10 * EPS * - -2))) by lra. rewrite andb_false_r.
    rewrite (proj2 (Rleb_true 0 (- -2))) by lra. f_equal; field. }
  assert (SH : shifted Rdiv [1; -3; 3; -1] (- (2 * 0)) 1 [1; -2; 1] = [1; -2; 1]).
  { unfold shifted. rewrite U, QP. cbn [length]. rewrite SC. unfold next_k. cbn [sc_flag sc_a1 sc_a3 sc_a7 sc_qk]. unfold elem. cbn [nth Nat.sub seq map].
    rewrite (Rabs_left (-2)), (Rabs_pos_eq 2) by lra. rewrite (proj2 (Rltb_true (10 * EPS * 2) (- -2))) by lra.
    assert (T : forall x x' y y' z z' : R, x = x' -> y = y' -> z = z' -> [x; y; z] = [x'; y'; z']) by (intros; subst; reflexivity). apply T; field. }
  assert (L1 : 1 = - (last [1; -3; 3; -1] 0 / last [1; -2; 1] 0)) by (cbn [last]; field).
  assert (RV : rval [1; -3; 3; -1] 1 = 0) by (unfold rval; cbn; ring).
  split; [auto|].
  destruct (C99_settled Rdiv 18 [1; -3; 3; -1] [1; -2; 1] 0 1 1 DV eq_refl ltac:(cbn; lia) ltac:(cbn; lra) SH ltac:(cbn; lra) L1 ltac:(lra) RV) as [_ H].
  cbn [length] in H. apply H. rewrite U, QP, SC. unfold newest. cbn [sc_flag sc_a1 sc_a3 sc_a7 sc_f sc_g sc_h sc_c sc_d]. unfold elem. cbn [nth Nat.sub].
  match goal with |- snd (if is_zero ?t then _ else _) = 0 => assert (ET : t = 0) by field; rewrite (proj2 (is_zero_true t) ET) end. reflexivity.
Qed.
Print Assumptions C99_settled_example.
