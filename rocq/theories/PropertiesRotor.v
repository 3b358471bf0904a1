(** Property theorems: rotor speeds from the state (C85). *)
From Coq Require Import Reals Lra Lia List Bool Arith.
From Coquelicot Require Import Coquelicot.
From Verif Require Import Base RotModel RotProofs RotDeriv RotorModel.
Import List ListNotations.
Set Bullet Behavior "Strict Subproofs".
Local Open Scope R_scope.

(** ** Specification *)

(** Angular momentum in the world frame of a body with attitude A (body to
    world), diagonal inertia j and angular velocity w (both in the body frame). *)
Definition momentum (A : M3) (j w : V3) : V3 :=
  m3_vec A (mkV3 (vx j * vx w) (vy j * vy w) (vz j * vz w)).
(** The attitude changes with body angular velocity w. *)
Definition turns_with (A : R -> M3) (t : R) (w : V3) : Prop :=
  m3_derive A t (m3_mul (A t) (mkM3 0 (- vz w) (vy w) (vz w) 0 (- vx w) (- vy w) (vx w) 0)).
(** Forces: matrix (list of rows) times vector. *)
Definition apply_rows (m : list (list R)) (x : list R) : list R :=
  map (fun row => lsum (map (fun p => fst p * snd p) (combine row x))) m.
(** The matrix [allocation] undoes [inv]. *)
Definition undoes (allocation inv : list (list R)) : Prop :=
  forall a b c d, apply_rows allocation (apply_rows inv [a; b; c; d]) = [a; b; c; d].

(** ** Proofs *)
Lemma v3_derive_rotated A w j alpha t : turns_with A t (w t) -> v3_derive w t alpha ->
  v3_derive (fun u => momentum (A u) j (w u)) t
    (m3_vec (A t) (v3_add (diag_mul j alpha) (v3_cross (w t) (diag_mul j (w t))))).
Proof.
  intros (D00 & D01 & D02 & D10 & D11 & D12 & D20 & D21 & D22) (X & Y & Z).
  assert (P : forall (a b c fx fy fz : R -> R) a' b' c' x' y' z' j0 j1 j2,
    is_derive a t a' -> is_derive b t b' -> is_derive c t c' -> is_derive fx t x' -> is_derive fy t y' -> is_derive fz t z' ->
    is_derive (fun u => a u * (j0 * fx u) + b u * (j1 * fy u) + c u * (j2 * fz u)) t
      (a' * (j0 * fx t) + a t * (j0 * x') + (b' * (j1 * fy t) + b t * (j1 * y')) + (c' * (j2 * fz t) + c t * (j2 * z')))).
  { intros a b c fx fy fz a' b' c' x' y' z' j0 j1 j2 Da Db Dc Dx Dy Dz.
    assert (Ta := is_derive_unique _ _ _ Da). assert (Tb := is_derive_unique _ _ _ Db). assert (Tc := is_derive_unique _ _ _ Dc).
    assert (Tx := is_derive_unique _ _ _ Dx). assert (Ty := is_derive_unique _ _ _ Dy). assert (Tz := is_derive_unique _ _ _ Dz).
    auto_derive; [repeat split; eexists; eassumption|].
    change (fun x => a x) with a. change (fun x => b x) with b. change (fun x => c x) with c.
    change (fun x => fx x) with fx. change (fun x => fy x) with fy. change (fun x => fz x) with fz.
    rewrite Ta, Tb, Tc, Tx, Ty, Tz. ring. }
  unfold v3_derive, momentum, m3_vec. cbn [vx vy vz]. unfold turns_with in *. cbn [m3_mul m00 m01 m02 m10 m11 m12 m20 m21 m22] in *.
  refine (conj _ (conj _ _)).
  - pose proof (P _ _ _ _ _ _ _ _ _ _ _ _ (vx j) (vy j) (vz j) D00 D01 D02 X Y Z) as Q.
    match type of Q with is_derive _ _ ?a => match goal with |- is_derive _ _ ?b => replace b with a; [exact Q|] end end. cbn. ring.
  - pose proof (P _ _ _ _ _ _ _ _ _ _ _ _ (vx j) (vy j) (vz j) D10 D11 D12 X Y Z) as Q.
    match type of Q with is_derive _ _ ?a => match goal with |- is_derive _ _ ?b => replace b with a; [exact Q|] end end. cbn. ring.
  - pose proof (P _ _ _ _ _ _ _ _ _ _ _ _ (vx j) (vy j) (vz j) D20 D21 D22 X Y Z) as Q.
    match type of Q with is_derive _ _ ?a => match goal with |- is_derive _ _ ?b => replace b with a; [exact Q|] end end. cbn. ring.
Qed.

Lemma rotor_apply inv j m w al a : Forall (fun row => length row = 4%nat) inv ->
  rotor_speeds inv j m w al a =
  let tau := v3_add (diag_mul j al) (v3_cross w (diag_mul j w)) in
  Some (apply_rows inv [vx tau; vy tau; vz tau; m * v3_norm a]).
Proof.
  intros F. unfold rotor_speeds. replace (forallb _ inv) with true; [reflexivity|]. symmetry. apply forallb_forall.
  intros row Hr. rewrite Forall_forall in F. rewrite (F row Hr). reflexivity.
Qed.

(** ** C85 *)

(** C85: rotors with the returned squared speeds, through any allocation matrix
    undone by the given one, produce exactly the torque that the motion needs:
    rotated into the world frame it is the rate of change of the angular
    momentum; and the thrust is mass times the length of the acceleration. *)
Theorem C85_torque_and_thrust :
  forall (inv allocation : list (list R)) (j : V3) (mass : R) (A : R -> M3) (w : R -> V3) (alpha acc : V3) (t : R),
  Forall (fun row => length row = 4%nat) inv -> undoes allocation inv ->
  turns_with A t (w t) -> v3_derive w t alpha ->
  exists speeds tau, rotor_speeds inv j mass (w t) alpha acc = Some speeds /\
    length speeds = length inv /\
    apply_rows allocation speeds = [vx tau; vy tau; vz tau; mass * v3_norm acc] /\
    v3_derive (fun u => momentum (A u) j (w u)) t (m3_vec (A t) tau).
Proof.
  intros inv allocation j mass A w alpha acc t F U HA Hw. rewrite rotor_apply by auto. cbv zeta.
  eexists. exists (v3_add (diag_mul j alpha) (v3_cross (w t) (diag_mul j (w t)))). split; [reflexivity|].
  split; [unfold apply_rows; now rewrite map_length|]. split; [apply U|]. now apply v3_derive_rotated.
Qed.
(** C85: a matrix without exactly four columns is refused. *)
Theorem C85_columns :
  forall (inv : list (list R)) (j : V3) (mass : R) (w alpha acc : V3),
  (exists speeds, rotor_speeds inv j mass w alpha acc = Some speeds) <-> Forall (fun row => length row = 4%nat) inv.
Proof.
  intros inv j mass w alpha acc. split.
  - intros (sp & E). unfold rotor_speeds in E. destruct (forallb _ inv) eqn:B; [|discriminate].
    rewrite forallb_forall in B. apply Forall_forall. intros r Hr. apply Nat.eqb_eq. auto.
  - intros F. rewrite rotor_apply by auto. eauto.
Qed.
(** C85: only the length of the acceleration counts: the thrust along the body z
    axis is the force needed exactly if the acceleration points that way. *)
Theorem C85_thrust_direction :
  forall (mass : R) (acc : V3), 0 < mass ->
  (mkV3 0 0 (mass * v3_norm acc) = v3_scale mass acc <-> vx acc = 0 /\ vy acc = 0 /\ 0 <= vz acc).
Proof.
  intros mass [ax ay az] Hm. unfold v3_norm, v3_scale. cbn [vx vy vz]. split.
  - intros E. injection E as Ex Ey Ez.
    assert (X : ax = 0) by (symmetry in Ex; apply Rmult_integral in Ex; lra).
    assert (Y : ay = 0) by (symmetry in Ey; apply Rmult_integral in Ey; lra).
    apply Rmult_eq_reg_l in Ez; [|lra]. refine (conj X (conj Y _)). rewrite <- Ez. apply sqrt_pos.
  - intros (-> & -> & Hz). rewrite !Rmult_0_r, !Rplus_0_l, sqrt_square by auto. reflexivity.
Qed.
Theorem C85_acceleration_direction_refuted :
  forall (inv : list (list R)) (j : V3) (mass : R) (w alpha : V3),
  exists up down, vz up = 1 /\ vz down = -1 /\
  rotor_speeds inv j mass w alpha up = rotor_speeds inv j mass w alpha down.
Proof.
  intros. exists (mkV3 0 0 1), (mkV3 0 0 (-1)). split; [reflexivity|]. split; [reflexivity|].
  unfold rotor_speeds. cbn [vx vy vz]. replace (0 * 0 + 0 * 0 + -1 * -1) with (0 * 0 + 0 * 0 + 1 * 1) by ring. reflexivity.
Qed.

(** The hexacopter of the source comment: arm length l, thrust and moment
    constants cT, cM. *)
Definition hexacopter (l cT cM : R) : list (list R) :=
  let s := 1 / 2 in let c := sqrt 3 / 2 in
  [map (Rmult (l * cT)) [s; 1; s; - s; -1; - s];
   map (Rmult (l * cT)) [- c; 0; c; c; 0; - c];
   map (Rmult cM) [-1; 1; -1; 1; -1; 1];
   map (Rmult cT) [1; 1; 1; 1; 1; 1]].
(** B^pseudo * K^-1 *)
Definition hexacopter_inv (l cT cM : R) : list (list R) :=
  let s := 1 / 2 in let c := sqrt 3 / 2 in
  map (fun col => match col with (b0, b1, b2) => [b0 / 3 / (l * cT); b1 / 3 / (l * cT); b2 / 6 / cM; 1 / 6 / cT] end)
   [(s, - c, -1); (1, 0, 1); (s, c, -1); (- s, c, 1); (-1, 0, -1); (- s, - c, 1)].
(** C85: for it the pseudo-inverse recommended in the comment is exact, and
    hovering takes the same speed of all six rotors. *)
Theorem C85_hexacopter :
  forall l cT cM : R, l <> 0 -> cT <> 0 -> cM <> 0 ->
  undoes (hexacopter l cT cM) (hexacopter_inv l cT cM) /\
  forall j mass g, 0 <= g ->
    rotor_speeds (hexacopter_inv l cT cM) j mass v3_zero v3_zero (mkV3 0 0 g) = Some (repeat (mass * g / (6 * cT)) 6).
Proof.
  intros l cT cM Hl HT HM. assert (S3 : sqrt 3 * sqrt 3 = 3) by (apply sqrt_sqrt; lra). split.
  - intros a b c d. unfold undoes, apply_rows, hexacopter, hexacopter_inv. cbn [map combine lsum fst snd].
    assert (Q : forall (x y z u x' y' z' u' : R), x = x' -> y = y' -> z = z' -> u = u' -> [x; y; z; u] = [x'; y'; z'; u'])
      by (intros; subst; reflexivity).
    apply Q; try (field; auto).
    field_simplify; auto. replace (sqrt 3 ^ 2) with 3 by (rewrite <- S3 at 1; ring). field. auto.
  - intros j mass g Hg. rewrite rotor_apply by (repeat constructor). cbv zeta. unfold v3_norm, apply_rows, hexacopter_inv.
    cbn [map combine lsum fst snd vx vy vz v3_add diag_mul v3_cross v3_zero repeat].
    replace (0 * 0 + 0 * 0 + g * g) with (g * g) by ring. rewrite sqrt_square by auto.
    f_equal. repeat (apply f_equal2; [field; auto|]). reflexivity.
Qed.
(** C85: a squared speed can come out negative: the rotors then cannot do it. *)
Theorem C85_speeds_nonnegative_refuted :
  exists inv j mass w alpha acc speeds, Forall (fun row => length row = 4%nat) inv /\
  inv = hexacopter_inv 1 1 1 /\ 0 < vx j /\ 0 < vy j /\ 0 < vz j /\ 0 < mass /\ 0 < vz acc /\
  rotor_speeds inv j mass w alpha acc = Some speeds /\ exists x, In x speeds /\ x < 0.
Proof.
  exists (hexacopter_inv 1 1 1), (mkV3 1 1 1), 1, v3_zero, (mkV3 0 0 20), (mkV3 0 0 10).
  eexists. split; [repeat constructor|]. split; [reflexivity|]. cbn [vx vy vz]. repeat (split; [lra|]).
  split; [rewrite rotor_apply by (repeat constructor); reflexivity|].
  eexists. split; [left; reflexivity|]. unfold v3_norm. cbn [combine map lsum fst snd vx vy vz v3_add diag_mul v3_cross v3_zero].
  replace (0 * 0 + 0 * 0 + 10 * 10) with (10 * 10) by ring. rewrite sqrt_square by lra. lra.
Qed.
Print Assumptions C85_torque_and_thrust.
Print Assumptions C85_columns.
Print Assumptions C85_thrust_direction.
Print Assumptions C85_acceleration_direction_refuted.
Print Assumptions C85_hexacopter.
Print Assumptions C85_speeds_nonnegative_refuted.
(** A steady turn about z satisfies the hypotheses on the motion. *)
Example C85_example :
  let A := fun t => mkM3 (cos t) (- sin t) 0 (sin t) (cos t) 0 0 0 1 in
  let w := fun _ : R => mkV3 0 0 1 in
  forall t, turns_with A t (w t) /\ v3_derive w t v3_zero.
Proof.
  intros A w t. split.
  - unfold turns_with, m3_derive, A, w, m3_mul. cbn.
    refine (conj _ (conj _ (conj _ (conj _ (conj _ (conj _ (conj _ (conj _ _)))))))); auto_derive; auto; ring.
  - unfold v3_derive, w. cbn. refine (conj _ (conj _ _)); auto_derive; auto.
Qed.
