(** Model of the polynomial root finder (Jenkins-Traub).
    Source: MTG/src/rpoly/rpoly_ak1.cpp.

    Simplifications: doubles are reals (no rounding, overflow or NaN).  The
    result of a division by zero is arbitrary: the parameter [rdiv] is only
    assumed to divide by non-zero numbers (Inf and NaN themselves are not
    modelled).  Arrays are lists; the polynomial [p] has length NN = N + 1
    (leading coefficient first), [K] has length N.  Scratch arrays (qk) and
    scalars that are written before they are read are not carried along. *)
From Coq Require Import Reals List ZArith Arith Bool.
From Flocq Require Import Core.
From Verif Require Import Base PolyModel TrajModel.
Import List ListNotations.
Local Open Scope R_scope.
Set Bullet Behavior "Strict Subproofs".

Definition is_zero (x : R) : bool := if Req_EM_T x 0 then true else false.
(** Constants of <cfloat>: DBL_EPSILON = 2^-52, DBL_MIN = 2^-1022,
    FLT_MIN = 2^-126, FLT_MAX = (2 - 2^-23) 2^127. *)
Definition EPS : R := bpow radix2 (-52).
Definition DBLMIN : R := bpow radix2 (-1022).
Definition FLTMIN : R := bpow radix2 (-126).
Definition FLTMAX : R := (2 - bpow radix2 (-23)) * bpow radix2 127.
Definition elem (l : list R) (i : nat) : R := nth i l 0.

(** QuadSD_ak1 - rpoly_ak1.cpp:547-564: quotient list q (the last two entries
    are b and a again) and the remainder scalars a, b. *)
Fixpoint sd_loop (u v a b : R) (l : list R) : list R * R * R :=
  match l with
  | [] => ([], a, b)
  | x :: l' =>
      let q := - (a * u + b * v) + x in
      let '(r, a', b') := sd_loop u v q a l' in (q :: r, a', b')
  end.
Definition quad_sd (u v : R) (p : list R) : list R * R * R :=
  match p with
  | p0 :: p1 :: l =>
      let a := - (p0 * u) + p1 in
      let '(r, a', b') := sd_loop u v a p0 l in (p0 :: a :: r, a', b')
  | _ => (p, 0, 0)
  end.

Section Division.
Context (rdiv : R -> R -> R).

(** Quad_ak1 - rpoly_ak1.cpp:885-937: (sr, si), (lr, li). *)
Definition quad (a b1 c : R) : (R * R) * (R * R) :=
  if is_zero a then ((if is_zero b1 then 0 else - rdiv c b1, 0), (0, 0))
  else if is_zero c then ((0, 0), (- rdiv b1 a, 0))
  else
    let b := b1 / 2 in
    let '(e, d) :=
      if Rltb (Rabs b) (Rabs c) then
        let e0 := if Rleb 0 c then a else - a in
        let e := - e0 + b * rdiv b (Rabs c) in (e, sqrt (Rabs e) * sqrt (Rabs c))
      else
        let e := - (rdiv a b * rdiv c b) + 1 in (e, sqrt (Rabs e) * Rabs b) in
    if Rleb 0 e then
      let d' := if Rleb 0 b then - d else d in
      let lr := rdiv (- b + d') a in
      ((if is_zero lr then 0 else rdiv (rdiv c lr) a, 0), (lr, 0))
    else
      let re := - rdiv b a in
      let im := Rabs (rdiv d a) in
      ((re, im), (re, - im)).

(** calcSC_ak1 - rpoly_ak1.cpp:566-607. *)
Inductive sc_type := Type1 | Type2 | Type3.
Record scalars := mkSc { sc_flag : sc_type; sc_c : R; sc_d : R; sc_f : R; sc_g : R; sc_h : R;
                         sc_a1 : R; sc_a3 : R; sc_a7 : R; sc_qk : list R }.
Definition calc_sc (N : nat) (a b : R) (K : list R) (u v : R) : scalars :=
  let '(qk, c, d) := quad_sd u v K in
  if Rleb (Rabs c) (10 * EPS * Rabs (elem K (N - 1))) && Rleb (Rabs d) (10 * EPS * Rabs (elem K (N - 2)))
  then mkSc Type3 c d 0 0 0 0 0 0 qk
  else
    let h := v * b in
    if Rleb (Rabs c) (Rabs d) then
      let e := rdiv a d in let f := rdiv c d in let g := u * b in
      mkSc Type2 c d f g h (- a + f * b) (e * (g + a) + h * rdiv b d) (h + (f + u) * a) qk
    else
      let e := rdiv a c in let f := rdiv d c in let g := e * u in
      mkSc Type1 c d f g h (- (a * rdiv d c) + b) (e * a + (g + rdiv h c) * b) (g * d + h * f + a) qk.

(** nextK_ak1 - rpoly_ak1.cpp:609-649. *)
Definition next_k (N : nat) (sc : scalars) (a b : R) (qp : list R) : list R :=
  let qk := sc_qk sc in
  match sc_flag sc with
  | Type3 => 0 :: 0 :: map (fun i => elem qk (i - 2)) (seq 2 (N - 2))
  | _ =>
      let temp := match sc_flag sc with Type1 => b | _ => a end in
      let a1 := sc_a1 sc in
      if Rltb (10 * EPS * Rabs temp) (Rabs a1) then
        let a7 := rdiv (sc_a7 sc) a1 in let a3 := rdiv (sc_a3 sc) a1 in
        elem qp 0 :: (- (a7 * elem qp 0) + elem qp 1) ::
        map (fun i => - (a7 * elem qp (i - 1)) + a3 * elem qk (i - 2) + elem qp i) (seq 2 (N - 2))
      else
        0 :: - sc_a7 sc * elem qp 0 ::
        map (fun i => - (sc_a7 sc * elem qp (i - 1)) + sc_a3 sc * elem qk (i - 2)) (seq 2 (N - 2))
  end.

(** newest_ak1 - rpoly_ak1.cpp:651-689: (uu, vv). *)
Definition newest (sc : scalars) (a b u v : R) (K : list R) (N : nat) (p : list R) : R * R :=
  match sc_flag sc with
  | Type3 => (0, 0)
  | fl =>
      let '(a4, a5) :=
        match fl with
        | Type2 => ((a + sc_g sc) * sc_f sc + sc_h sc, (sc_f sc + u) * sc_c sc + v * sc_d sc)
        | _ => (a + u * b + sc_h sc * sc_f sc, sc_c sc + (u + v * sc_f sc) * sc_d sc)
        end in
      let b1 := rdiv (- elem K (N - 1)) (elem p N) in
      let b2 := rdiv (- (elem K (N - 2) + b1 * elem p (N - 1))) (elem p N) in
      let c1 := v * b2 * sc_a1 sc in
      let c2 := b1 * sc_a7 sc in
      let c3 := b1 * b1 * sc_a3 sc in
      let c4 := - (c2 + c3) + c1 in
      let temp := - c4 + a5 + b1 * a4 in
      if is_zero temp then (0, 0)
      else (- rdiv (u * (c3 + c2) + v * (b1 * sc_a1 sc + b2 * sc_a7 sc)) temp + u,
            v * (1 + rdiv c4 temp))
  end.

(** The error bound of QuadIT_ak1 - rpoly_ak1.cpp:719-731. *)
Definition quad_bound (N : nat) (qp : list R) (a b v szr : R) : R :=
  let zm := sqrt (Rabs v) in
  let t := - (szr * b) in
  let ee := fold_left (fun e q => e * zm + Rabs q) (firstn (N - 1) (tl qp)) (2 * Rabs (elem qp 0)) in
  let ee := ee * zm + Rabs (a + t) in
  (9 * ee + 2 * Rabs t - 7 * (Rabs (a + t) + zm * Rabs b)) * EPS.

(** QuadIT_ak1 - rpoly_ak1.cpp:691-792.  [QFound]: NZ = 2, with the two zeros
    and qp; [QFail]: NZ = 0, with the final K; [QFuel]: the model ran out of
    fuel (never with fuel 64, see RpolyProofs). *)
Inductive qres :=
  | QFound (sz lz : R * R) (qp : list R)
  | QFail (K : list R)
  | QFuel.
Fixpoint five_steps (n N : nat) (a b u v : R) (qp K : list R) : list R :=
  match n with
  | O => K
  | S m => five_steps m N a b u v qp (next_k N (calc_sc N a b K u v) a b qp)
  end.
Fixpoint quad_it (fuel N : nat) (p K : list R) (u v : R) (j : nat) (tried : bool) (relstp omp : R) : qres :=
  match fuel with
  | O => QFuel
  | S fuel' =>
      let '((szr, szi), (lzr, lzi)) := quad 1 u v in
      if Rltb (1 / 100 * Rabs lzr) (Rabs (Rabs szr - Rabs lzr)) then QFail K
      else
        let '(qp, a, b) := quad_sd u v p in
        let mp := Rabs (- (szr * b) + a) + Rabs (szi * b) in
        if Rleb mp (20 * quad_bound N qp a b v szr) then QFound (szr, szi) (lzr, lzi) qp
        else
          let j := S j in
          if (20 <? j)%nat then QFail K
          else
            let cluster := (2 <=? j)%nat && Rleb relstp (1 / 100) && Rleb omp mp && negb tried in
            let r := if Rltb relstp EPS then sqrt EPS else sqrt relstp in
            let u := if cluster then u - u * r else u in
            let v := if cluster then v + v * r else v in
            let '(qp, a, b) := quad_sd u v p in
            let K := if cluster then five_steps 5 N a b u v qp K else K in
            let tried := if cluster then true else tried in
            let j := if cluster then 0%nat else j in
            let K := next_k N (calc_sc N a b K u v) a b qp in
            let '(ui, vi) := newest (calc_sc N a b K u v) a b u v K N p in
            if is_zero vi then QFail K
            else quad_it fuel' N p K ui vi j tried (Rabs (rdiv (- v + vi) vi)) mp
  end.

(** Horner's scheme: the partial values qp[i] = qp[i-1] s + p[i]. *)
Fixpoint horner_loop (s acc : R) (l : list R) : list R :=
  match l with [] => [] | x :: l' => (acc * s + x) :: horner_loop s (acc * s + x) l' end.
Definition horner (s : R) (p : list R) : list R :=
  match p with [] => [] | x :: l => x :: horner_loop s x l end.

(** The error bound of RealIT_ak1 - rpoly_ak1.cpp:818-822. *)
Definition real_bound (qp : list R) (s : R) : R :=
  fold_left (fun e q => e * Rabs s + Rabs q) (tl qp) (1 / 2 * Rabs (elem qp 0)).

(** RealIT_ak1 - rpoly_ak1.cpp:794-883, [n] = number of further steps allowed.
    [RFound]: NZ = 1; [RFail iFlag s K]. *)
Inductive rres :=
  | RFound (s : R) (qp : list R)
  | RFail (iflag : bool) (s : R) (K : list R).
Fixpoint real_it (n N : nat) (p K : list R) (s0 s : R) (j : nat) (t omp : R) : rres :=
  let qp := horner s p in
  let pv := last qp 0 in
  let mp := Rabs pv in
  if Rleb mp (20 * EPS * (2 * real_bound qp s - mp)) then RFound s qp
  else
    match n with
    | O => RFail false s0 K
    | S n' =>
        let j := S j in
        if (2 <=? j)%nat && Rleb (Rabs t) (1 / 1000 * Rabs (- t + s)) && Rltb omp mp then RFail true s K
        else
          let qk := horner s K in
          let kv := last qk 0 in
          let K' :=
            if Rltb (Rabs (elem K (N - 1)) * 10 * EPS) (Rabs kv) then
              let t' := - rdiv pv kv in
              elem qp 0 :: map (fun i => t' * elem qk (i - 1) + elem qp i) (seq 1 (N - 1))
            else 0 :: map (fun i => elem qk (i - 1)) (seq 1 (N - 1)) in
          let kv' := last (horner s K') 0 in
          let t' := if Rltb (Rabs (elem K' (N - 1)) * 10 * EPS) (Rabs kv') then - rdiv pv kv' else 0 in
          real_it n' N p K' s0 (s + t') j t' mp
    end.

(** The do-while loop of Fxshfr_ak1 - rpoly_ak1.cpp:449-519.  [continue] jumps to
    the loop condition, skipping the restoring of K. *)
Inductive fres :=
  | FOne (s : R) (qp : list R)
  | FTwo (sz lz : R * R) (qp : list R)
  | FNone (K : list R) (betav betas : R)
  | FFuel.
Fixpoint try_loop (fuel N : nat) (p svk K : list R) (spass vpass sbetter : bool)
    (fflag stry vtry : bool) (s ui vi betav betas : R) : fres :=
  match fuel with
  | O => FFuel
  | S fuel' =>
      let linear :=
        fun (K : list R) (vtry : bool) (betav : R) =>
          match real_it 10 N p K s s 0 0 0 with
          | RFound x qp => FOne x qp
          | RFail iflag s' K' =>
              let betas := betas * (1 / 4) in
              if iflag then
                if vpass && negb vtry then
                  try_loop fuel' N p svk K' spass vpass sbetter false true vtry s' (- (s' + s')) (s' * s') betav betas
                else FNone K' betav betas
              else if vpass && negb vtry then
                try_loop fuel' N p svk svk spass vpass sbetter false true vtry s' ui vi betav betas
              else FNone svk betav betas
          end in
      if fflag && (spass && (negb vpass || sbetter)) then linear K vtry betav
      else
        match quad_it 64 N p K ui vi 0 false 0 0 with
        | QFound sz lz qp => FTwo sz lz qp
        | QFuel => FFuel
        | QFail _ =>
            let betav := betav * (1 / 4) in
            if stry || negb spass then FNone svk betav betas
            else linear svk true betav
        end
  end.

(** Fxshfr_ak1 - rpoly_ak1.cpp:391-545; [n] = L2 - j. *)
Fixpoint fxshfr_loop (n N : nat) (p K : list R) (u v a b : R) (qp : list R) (sc : scalars) (first : bool)
    (ovv oss otv ots betav betas : R) : fres :=
  match n with
  | O => FNone K betav betas
  | S n' =>
      let K := next_k N sc a b qp in
      let sc := calc_sc N a b K u v in
      let '(ui, vi) := newest sc a b u v K N p in
      let vv := vi in
      let ss := if is_zero (elem K (N - 1)) then 0 else - rdiv (elem p N) (elem K (N - 1)) in
      let active := negb first && match sc_flag sc with Type3 => false | _ => true end in
      let tv := if active && negb (is_zero vv) then Rabs (rdiv (vv - ovv) vv) else 1 in
      let ts := if active && negb (is_zero ss) then Rabs (rdiv (ss - oss) ss) else 1 in
      let tvv := if Rltb tv otv then tv * otv else 1 in
      let tss := if Rltb ts ots then ts * ots else 1 in
      let vpass := active && Rltb tvv betav in
      let spass := active && Rltb tss betas in
      if spass || vpass then
        match try_loop 3 N p K K spass vpass (Rltb tss tvv) true false false ss ui vi betav betas with
        | FNone K' betav' betas' =>
            let '(qp', a', b') := quad_sd u v p in
            fxshfr_loop n' N p K' u v a' b' qp' (calc_sc N a' b' K' u v) false vv ss tv ts betav' betas'
        | r => r
        end
      else fxshfr_loop n' N p K u v a b qp sc false vv ss tv ts betav betas
  end.
Definition fxshfr (L2 N : nat) (p K : list R) (sr bnd : R) : fres :=
  let u := - (2 * sr) in
  let v := bnd in
  let '(qp, a, b) := quad_sd u v p in
  fxshfr_loop L2 N p K u v a b qp (calc_sc N a b K u v) true v sr 0 0 (1 / 4) (1 / 4).

(* ------------------------------------------------------------------ *)
(** ** rpoly_ak1 - rpoly_ak1.cpp:153-389 *)

Definition LN2 : R := ln 2.
Definition RADFAC : R := 314159265358979323846 / 10 ^ 20 / 180.

(** Scaling - rpoly_ak1.cpp:208-243. *)
Definition moduli (p : list R) : R * R :=
  fold_left (fun m c => let x := Rabs c in
    ((if Rltb (fst m) x then x else fst m),
     (if negb (is_zero x) && Rltb x (snd m) then x else snd m))) p (0, FLTMAX).
Definition scale_factor (p : list R) : R :=
  let '(mx, mn) := moduli p in
  let sc := rdiv (FLTMIN / EPS) mn in
  if (Rleb sc 1 && Rleb 10 mx) || (Rltb 1 sc && Rleb mx (rdiv FLTMAX sc)) then
    let sc := if is_zero sc then FLTMIN else sc in
    powerRZ 2 (Ztrunc (ln sc / LN2 + 1 / 2))
  else 1.

(** pt - rpoly_ak1.cpp:247-248 and its value and slope. *)
Definition bound_poly (p : list R) : list R := map Rabs (removelast p) ++ [- Rabs (last p 0)].
Definition eval_dec (p : list R) (x : R) : R := fold_left (fun f c => f * x + c) (tl p) (elem p 0).
Definition newton_pair (pt : list R) (x : R) : R * R :=
  let p0 := elem pt 0 in
  let '(ff, df) := fold_left (fun fd c => let ff := x * fst fd + c in (ff, x * snd fd + ff))
                             (removelast (tl pt)) (p0, p0) in
  (x * ff + last pt 0, df).
(** Chopping (0, x) - rpoly_ak1.cpp:265-271; [None]: out of fuel. *)
Fixpoint chop (fuel : nat) (pt : list R) (xm : R) : option R :=
  match fuel with
  | O => None
  | S fuel' =>
      let x := xm in
      let xm := 1 / 10 * x in
      if Rltb 0 (eval_dec pt xm) then chop fuel' pt xm else Some x
  end.
(** Newton iteration - rpoly_ak1.cpp:277-286. *)
Fixpoint newton (fuel : nat) (pt : list R) (x dx : R) : option R :=
  match fuel with
  | O => None
  | S fuel' =>
      if Rltb (5 / 1000) (Rabs (rdiv dx x)) then
        let '(ff, df) := newton_pair pt x in
        newton fuel' pt (x - rdiv ff df) (rdiv ff df)
      else Some x
  end.
(** Lower bound on the moduli of the zeros - rpoly_ak1.cpp:247-288.  With a
    zero constant term log gives -Inf, exp 0, and dx / x = NaN ends the loop
    with the bound 0. *)
Definition start_x (N : nat) (pt : list R) : R :=
  let x := exp (rdiv (ln (- elem pt N) - ln (elem pt 0)) (INR N)) in
  if is_zero (elem pt (N - 1)) then x
  else let xm := rdiv (- elem pt N) (elem pt (N - 1)) in if Rltb xm x then xm else x.
Definition lower_bound (fuel N : nat) (p : list R) : option R :=
  if is_zero (elem p N) then Some 0
  else
    let pt := bound_poly p in
    match chop fuel pt (start_x N pt) with
    | Some x => newton fuel pt x x
    | None => None
    end.

(** First stage: five steps without shift - rpoly_ak1.cpp:293-326. *)
Fixpoint no_shift (n N : nat) (p K : list R) (zerok : bool) : list R :=
  match n with
  | O => K
  | S n' =>
      if zerok then
        let K := 0 :: removelast K in no_shift n' N p K (is_zero (elem K (N - 1)))
      else
        let t := rdiv (- elem p N) (elem K (N - 1)) in
        let K := elem p 0 :: map (fun j => t * elem K (j - 1) + elem p j) (seq 1 (N - 1)) in
        no_shift n' N p K (Rleb (Rabs (elem K (N - 1))) (Rabs (elem p (N - 1)) * EPS * 10))
  end.
Definition first_stage (N : nat) (p : list R) : list R :=
  let K := elem p 0 :: map (fun i => rdiv (INR (N - i) * elem p i) (INR N)) (seq 1 (N - 1)) in
  no_shift 5 N p K (is_zero (elem K (N - 1))).

(** The loop over the shifts - rpoly_ak1.cpp:333-374; [n] = shifts left. *)
Fixpoint shifts (n jj N : nat) (p temp : list R) (bnd xx yy : R) : (fres * (R * R)) :=
  match n with
  | O => (FNone temp 0 0, (xx, yy))
  | S n' =>
      let cosr := cos (94 * RADFAC) in
      let sinr := sin (94 * RADFAC) in
      let xxx := - (sinr * yy) + cosr * xx in
      let yy := sinr * xx + cosr * yy in
      match fxshfr (20 * jj) N p temp (bnd * xxx) bnd with
      | FNone _ _ _ => shifts n' (S jj) N p temp bnd xxx yy
      | r => (r, (xxx, yy))
      end
  end.

(** The main loop.  [Val (complete, zeros)]: the zeros in the order in which
    they are stored and whether all of them were found; [Undef]: out of fuel. *)
Fixpoint main_loop (rounds fuel : nat) (p : list R) (xx yy : R) : res (bool * list croot) :=
  match rounds with
  | O => Undef
  | S rounds' =>
      let N := (length p - 1)%nat in
      match p with
      | [] | [_] => Val (true, [])
      | [p0; p1] => Val (true, [(- rdiv p1 p0, 0)])
      | [p0; p1; p2] => let '(s, l) := quad p0 p1 p2 in Val (true, [s; l])
      | _ =>
          let p := map (fun c => c * scale_factor p) p in
          match lower_bound fuel N p with
          | None => Undef
          | Some bnd =>
              match shifts 20 1 N p (first_stage N p) bnd xx yy with
              | (FOne s qp, (xx, yy)) =>
                  match main_loop rounds' fuel (firstn N qp) xx yy with
                  | Val (ok, zs) => Val (ok, (s, 0) :: zs)
                  | r => r
                  end
              | (FTwo s l qp, (xx, yy)) =>
                  match main_loop rounds' fuel (firstn (N - 1) qp) xx yy with
                  | Val (ok, zs) => Val (ok, s :: l :: zs)
                  | r => r
                  end
              | (FNone _ _ _, _) => Val (false, [])
              | (FFuel, _) => Undef
              end
          end
      end
  end.

(** Zeros at the origin - rpoly_ak1.cpp:187-193: their number (the leading
    coefficient is not zero). *)
Fixpoint leading_zeros (l : list R) : nat :=
  match l with [] => 0%nat | x :: l' => if is_zero x then S (leading_zeros l') else 0%nat end.
(** rpoly_ak1 for a polynomial of degree at most MAXDEGREE. *)
Definition rpoly (fuel : nat) (op : list R) : res (bool * list croot) :=
  if is_zero (elem op 0) then Val (false, [])
  else
    let j := leading_zeros (rev op) in
    let p := firstn (length op - j) op in
    match main_loop (length p) fuel p (sqrt (1 / 2)) (- sqrt (1 / 2)) with
    | Val (ok, zs) => Val (ok, repeat (0, 0) j ++ zs)
    | r => r
    end.

(** findLastNonZeroCoeff - rpoly_ak1.cpp:57-68: the coefficients up to the last
    one of at least DBL_MIN. *)
Fixpoint drop_small (l : list R) : list R :=
  match l with [] => [] | x :: l' => if Rleb DBLMIN (Rabs x) then x :: l' else drop_small l' end.
(** findRootsJenkinsTraub - rpoly_ak1.cpp:70-117 (coefficients in increasing
    order).  [Val (true, zs)]: returns true with the roots zs; [Failed]:
    returns false; [Undef]: more than 101 coefficients (the copy writes past the
    array) or out of fuel. *)
Definition find_roots_jt (fuel : nat) (coefficients_increasing : list R) : res (list croot) :=
  let dec := drop_small (rev coefficients_increasing) in
  if (length dec <? 2)%nat then Val []
  else if (101 <? length dec)%nat then Undef
  else
    match rpoly fuel dec with
    | Val (_, []) => Failed
    | Val (_, zs) => Val zs
    | Failed => Failed
    | Undef => Undef
    end.
End Division.
