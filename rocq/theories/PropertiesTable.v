(** C81: the table of sampled states written for plotting. *)
From Coq Require Import String Reals List ZArith Arith Lra Lia Bool.
From Coquelicot Require Import Coquelicot.
From Verif Require Import Base PolyModel PolySpec VertexModel TrajModel TrajSpec TrajProofs RotModel SamplingModel IoModel PropertiesRot PropertiesSampling.
Import List ListNotations.
Local Open Scope R_scope.
Set Bullet Behavior "Strict Subproofs".

(** Row [row] of the table describes the trajectory at time [t]: column 0 is
    the time in nanoseconds, columns 1-15 are position, velocity, acceleration,
    jerk and snap. *)
Definition row_at (tr : trajectory) (row : list R) (t : R) : Prop :=
  length row = 27%nat /\
  (exists ns : Z, nth 0 row 0 = IZR ns /\ IZR ns <= t * 10 ^ 9 < IZR ns + 1) /\
  (forall d i, (d <= 4)%nat -> (i < 3)%nat -> nth (1 + 3 * d + i) row 0 = comp tr d i t).

Lemma end_time_start tr j : end_time (t_segs tr) j = start_of tr (S j).
Proof.
  unfold end_time, start_of. generalize (firstn (S j) (t_segs tr)). intros l.
  assert (G : forall l acc, fold_left (fun acc s => acc + s_time s) l acc = acc + lsum (map s_time l)).
  { induction l0 as [|s l0 IH]; intros acc; cbn; [lra|]. rewrite IH. lra. }
  rewrite G. lra.
Qed.
Lemma row_length st x : length (state_row st ++ [x]) = 27%nat.
Proof. reflexivity. Qed.
Lemma row_columns D c old st x d i : flat_state D c old st -> (d <= 4)%nat -> (i < 3)%nat ->
  nth (1 + 3 * d + i) (state_row st ++ [x]) 0 = c d i.
Proof.
  intros (_ & P & V & A & J & S & _) Hd Hi. unfold state_row. rewrite P, V, A, J, S.
  destruct d as [|[|[|[|[|]]]]]; try lia; destruct i as [|[|[|]]]; try lia; reflexivity.
Qed.
Lemma row_time st x t : stamped st t -> exists ns : Z, nth 0 (state_row st ++ [x]) 0 = IZR ns /\ IZR ns <= t * 10 ^ 9 < IZR ns + 1.
Proof. intros H. exists (p_from_start st). split; [reflexivity|exact H]. Qed.

Lemma map_nth_error' {A B : Type} (f : A -> B) l j b : nth_error (map f l) j = Some b ->
  exists a, nth_error l j = Some a /\ f a = b.
Proof.
  revert j. induction l as [|a l IH]; intros [|j] H; cbn in *; try discriminate.
  - injection H as <-. eauto.
  - apply IH, H.
Qed.

(** One row per hundredth of a second; the last column of row j is the end time
    of segment j, 0 in the rows after that. *)
Theorem C81_table : forall quat_of tr, quat_contract quat_of -> traj_wf tr -> positive_times tr ->
  t_segs tr <> [] -> joined tr 4 -> (3 <= t_D tr)%nat ->
  INR (length (t_segs tr) - 1) / 100 < t_max tr ->
  exists fuel0 rows,
    (forall fuel, (fuel0 <= fuel)%nat -> states_table fuel quat_of tr = Val rows) /\
    (forall j, (j < length rows)%nat <-> INR j / 100 < t_max tr) /\
    (forall j row, nth_error rows j = Some row -> row_at tr row (INR j / 100) /\
       nth 26 row 0 = if (j <? length (t_segs tr))%nat then start_of tr (S j) else 0).
Proof.
  intros quat_of tr Q W P NE J HD HT.
  destruct (C65_whole quat_of tr (1 / 100) [] Q W P NE J HD ltac:(lra)) as (f & sts & A & B & C).
  assert (B' : forall j, (j < length sts)%nat <-> INR j / 100 < t_max tr).
  { intros j. rewrite B. replace (INR j * (1 / 100)) with (INR j / 100) by lra. reflexivity. }
  exists f. eexists. split; [|split].
  - intros fuel Hf. unfold states_table. rewrite (A fuel Hf). cbn [bind].
    replace (length sts <? length (t_segs tr))%nat with false; [reflexivity|].
    symmetry. apply Nat.ltb_ge. apply B' in HT. destruct (t_segs tr); [congruence|]. cbn [length] in *. lia.
  - intros j. rewrite map_length, seq_length. apply B'.
  - intros j row E. assert (Hj : (j < length sts)%nat).
    { assert (X : nth_error (map (fun i => state_row (nth i sts point_default) ++
        [if (i <? length (t_segs tr))%nat then end_time (t_segs tr) i else 0]) (seq 0 (length sts))) j <> None) by congruence.
      apply nth_error_Some in X. now rewrite map_length, seq_length in X. }
    apply map_nth_error' in E.
    destruct E as (i & Ei & <-).
    assert (i = j). { rewrite (nth_error_nth' _ 0%nat) in Ei by (now rewrite seq_length). rewrite seq_nth in Ei by auto. injection Ei as <-. lia. }
    subst i. destruct (nth_error sts j) as [st|] eqn:Est; [|apply nth_error_None in Est; lia].
    rewrite (nth_error_nth _ _ point_default Est). destruct (C _ _ Est) as [C1 C2].
    replace (INR j * (1 / 100)) with (INR j / 100) in * by lra.
    split; [split; [apply row_length|split; [now apply row_time|]]|].
    + intros d i Hd Hi. rewrite (row_columns _ _ _ _ _ _ _ C2 Hd Hi). reflexivity.
    + change (nth 26 (state_row st ++ [if (j <? length (t_segs tr))%nat then end_time (t_segs tr) j else 0]) 0)
        with (if (j <? length (t_segs tr))%nat then end_time (t_segs tr) j else 0).
      now rewrite end_time_start.
Qed.

(** With more segments than samples the last column is written beyond the end
    of the table. *)
Theorem C81_more_segments_than_samples_undefined : forall quat_of tr, quat_contract quat_of -> traj_wf tr ->
  positive_times tr -> t_segs tr <> [] -> joined tr 4 -> (3 <= t_D tr)%nat ->
  t_max tr <= INR (length (t_segs tr) - 1) / 100 ->
  exists fuel0, forall fuel, (fuel0 <= fuel)%nat -> states_table fuel quat_of tr = Undef.
Proof.
  intros quat_of tr Q W P NE J HD HT.
  destruct (C65_whole quat_of tr (1 / 100) [] Q W P NE J HD ltac:(lra)) as (f & sts & A & B & C).
  exists f. intros fuel Hf. unfold states_table. rewrite (A fuel Hf). cbn [bind].
  replace (length sts <? length (t_segs tr))%nat with true; [reflexivity|].
  symmetry. apply Nat.ltb_lt. destruct (t_segs tr) as [|s ss] eqn:E; [congruence|]. cbn [length] in *.
  destruct (le_lt_dec (length sts) (length ss)) as [L|L]; [lia|]. exfalso.
  apply B in L. replace (S (length ss) - 1)%nat with (length ss) in HT by lia. lra.
Qed.
Definition ex_short : trajectory :=
  mkTraj 3 1 (1 / 250 + 1 / 250)
    (mkSeg (1 / 250) 1 3 ((1 :: nil) :: (1 :: nil) :: (1 :: nil) :: nil) ::
     mkSeg (1 / 250) 1 3 ((1 :: nil) :: (1 :: nil) :: (1 :: nil) :: nil) :: nil).
Example C81_undefined_case : traj_wf ex_short /\ positive_times ex_short /\ t_segs ex_short <> [] /\ joined ex_short 4 /\
  (3 <= t_D ex_short)%nat /\ t_max ex_short <= INR (length (t_segs ex_short) - 1) / 100.
Proof.
  refine (conj _ (conj _ (conj _ (conj _ (conj _ _))))).
  - split; [|unfold ex_short; cbn; lra].
    repeat (constructor; [split; [split; [reflexivity|repeat (constructor; [reflexivity|]); constructor]|split; reflexivity]|]).
    constructor.
  - repeat (constructor; [cbn; lra|]). constructor.
  - discriminate.
  - intros k s s' E E' j Hj. destruct k as [|[|]]; try discriminate. injection E as <-. injection E' as <-.
    assert (X : forall x, Derive_n (pval (1 :: nil)) j x = Derive_n (fun _ => 1) j x).
    { intros x. apply Derive_n_ext. intros t. cbn. ring. }
    unfold seg_deriv. cbn [map s_polys s_time]. rewrite !X.
    destruct j as [|j]; [reflexivity|]. rewrite !Derive_n_const. reflexivity.
  - cbn; lia.
  - cbn. lra.
Qed.
Example C81_table_case : traj_wf ex_flight /\ positive_times ex_flight /\ t_segs ex_flight <> [] /\ joined ex_flight 4 /\
  (3 <= t_D ex_flight)%nat /\ INR (length (t_segs ex_flight) - 1) / 100 < t_max ex_flight.
Proof.
  destruct ex_flight_ok as (A & B & C & D). refine (conj A (conj B (conj C (conj D (conj _ _))))); cbn; [lia|lra].
Qed.

Print Assumptions C81_table.
Print Assumptions C81_more_segments_than_samples_undefined.
