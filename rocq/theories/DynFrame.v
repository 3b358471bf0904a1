(** Frame lemmas: what cannot change while a trajectory is being prepared or
    computed. *)
From Coq Require Import Reals Lra Lia List Bool ZArith Arith.
From Coquelicot Require Import Coquelicot.
From Verif Require Import Base PolyModel PolySpec VertexModel TrajModel TrajSpec
  WaypointModel Names DynModel DynSpec DynProofs.
Import List ListNotations.
Local Open Scope R_scope.
Set Bullet Behavior "Strict Subproofs".

(** Everything but the speed of a parameter set. *)
Definition eq_params (a b : params) : Prop :=
  p_local a = p_local b /\ p_off a = p_off b /\ p_global a = p_global b /\ p_gtl a = p_gtl b.
Lemma eq_params_refl a : eq_params a a. Proof. repeat split. Qed.
Lemma eq_params_trans a b c : eq_params a b -> eq_params b c -> eq_params a c.
Proof. unfold eq_params. intros (->&->&->&->) H. exact H. Qed.

Record same_plan (s s' : state) : Prop := mkSame {
  f_next : d_next s' = d_next s;
  f_traj : d_traj s' = d_traj s;
  f_dyn : d_dyn s' = d_dyn s;
  f_off : p_off (d_par s') = p_off (d_par s);
  f_gtl : p_gtl (d_par s') = p_gtl (d_par s);
  f_new : eq_params (d_new s') (d_new s);
  f_scratch : d_scratch s' = d_scratch s;
  f_tc : d_tc s' = d_tc s;
  f_fut : d_fut s' = d_fut s;
  f_computing : d_computing s' = d_computing s;
  f_pc : d_pc s' = d_pc s }.
Lemma same_refl s : same_plan s s. Proof. constructor; auto using eq_params_refl. Qed.
Lemma same_trans a b c : same_plan a b -> same_plan b c -> same_plan a c.
Proof.
  intros [] []. constructor; try congruence. eapply eq_params_trans; eauto.
Qed.

(** Without a computation, events other than those of the background thread
    leave the plan alone. *)
Lemma env_step post s e o s' : inv s -> d_fut s = FNone -> event_ok post s e -> step s e = Ok s' o -> e <> Back ->
  same_plan s s' /\ o <> Launched /\ o <> Swapped.
Proof.
  intros I HF Hok H HB. destruct e; cbn [step] in H; unblock H; try congruence;
    try (inversion H; subst; clear H; split; [constructor; cbn; auto using eq_params_refl; repeat split|split; discriminate]).
  - unfold do_poll in H. rewrite (i_unlocked s I), HF in H. destruct (d_traj s); inversion H; subst.
    split; [apply same_refl|split; discriminate].
  - destruct (d_late s); inversion H; subst. split; [constructor; cbn; auto using eq_params_refl|split; discriminate].
  - destruct (d_traj s) eqn:E; inversion H; subst. split; [constructor; cbn; auto using eq_params_refl|split; discriminate].
  - unfold back_torn in H. rewrite HF in H. destruct (d_pc s); discriminate.
  - unfold comp_speed in H. rewrite HF in H. discriminate.
  - unfold comp_done in H. rewrite HF in H. discriminate.
  - destruct Hok.
Qed.
Lemma env_run (post : list vertex -> trajectory -> Prop) s tr s' : (forall vs tr, post vs tr -> basic_post vs tr) ->
  inv s -> d_fut s = FNone -> run post s tr s' -> no_back tr ->
  same_plan s s' /\ no_obs Launched tr /\ no_obs Swapped tr.
Proof.
  intros Hp I HF R. induction R; intros HB.
  - split; [apply same_refl|split; constructor].
  - inversion HB; subst. cbn [fst] in *.
    destruct (env_step _ _ _ _ _ I HF H H0 H3) as (HS & HO1 & HO2).
    destruct IHR as (A & B & C); auto.
    + eapply step_inv; eauto.
    + rewrite (f_fut _ _ HS); auto.
    + split; [eapply same_trans; eauto|split; constructor; auto].
Qed.

(** Splitting an execution at the first step of the background thread. *)
Lemma split_back post s tr s' : run post s tr s' ->
  no_back tr \/ exists t1 sa o sb t2, tr = t1 ++ (Back, o) :: t2 /\ no_back t1 /\ run post s t1 sa /\
    step sa Back = Ok sb o /\ run post sb t2 s'.
Proof.
  intros R. induction R; [left; constructor|].
  assert (HE : e = Back \/ e <> Back) by (destruct e; auto; right; discriminate).
  destruct HE as [->|HE].
  - right. exists [], s, o, s1, tr. repeat split; auto; constructor.
  - destruct IHR as [IHR|(t1 & sa & o' & sb & t2 & -> & HN & Q1 & HS & Q2)].
    + left; constructor; auto.
    + right; exists ((e, o) :: t1), sa, o', sb, t2. split; [reflexivity|].
      split; [constructor; auto|]. split; [econstructor; eauto|auto].
Qed.

(** One step of the background thread on the way to a launch. *)
Lemma prep_step (post : list vertex -> trajectory -> Prop) s tr s' :
  (forall vs tr, post vs tr -> basic_post vs tr) -> inv s -> preparing (d_pc s) -> run post s tr s' -> d_pc s' <> d_pc s ->
  exists t1 sa o sb t2, tr = t1 ++ (Back, o) :: t2 /\ run post s t1 sa /\ same_plan s sa /\ no_back t1 /\
    back_step sa = Ok sb o /\ run post sb t2 s' /\ inv sa /\ inv sb.
Proof.
  intros Hp I HP R HN. pose proof (inv_next_preparing s I HP) as HF.
  destruct (split_back _ _ _ _ R) as [HB|(t1 & sa & o & sb & t2 & E & HB & R1 & HS & R2)].
  - destruct (env_run _ _ _ _ Hp I HF R HB) as (A & _). elim HN. apply A.
  - exists t1, sa, o, sb, t2. destruct (env_run _ _ _ _ Hp I HF R1 HB) as (A & _).
    assert (Ia : inv sa) by (eapply run_inv; eauto).
    repeat (split; [solve [auto]|]). eapply back_inv; eauto.
Qed.

(** The whole way from collecting the waypoints to the launch: the state [sp]
    in which the parameters are copied, [sc] in which stitching is decided and
    [sx] in which the start points are inserted. *)
Lemma launch_path (post : list vertex -> trajectory -> Prop) s tr s' :
  (forall vs tr, post vs tr -> basic_post vs tr) -> inv s -> d_pc s = PParams ->
  run post s tr s' -> d_pc s' = PAsync -> no_obs Launched tr ->
  exists t1 sp t2 sc t3 sx t4,
    tr = t1 ++ t2 ++ t3 ++ t4 /\
    run post s t1 sp /\ run post sp t2 sc /\ run post sc t3 sx /\ run post sx t4 s' /\
    same_plan s sp /\ d_pc sp = PParams /\ d_pc sc = PCheck /\
    d_next sc = d_next s /\ d_traj sc = d_traj s /\ d_dyn sc = d_dyn s /\
    p_off (d_par sc) = p_off (d_par s) /\ p_gtl (d_par sc) = p_gtl (d_par s) /\ d_tc sc = d_tc s /\
    eq_params (d_new sc) (mkParams (p_local (d_par sp)) (p_off (d_par sp)) (p_global (d_par sp)) 0 (p_global (d_par sp))) /\
    d_pc sx = (if can_stitch sc then PStitch else PScratch) /\
    d_next sx = d_next s /\ d_traj sx = d_traj s /\ d_dyn sx = d_dyn s /\
    p_off (d_par sx) = p_off (d_par s) /\ p_gtl (d_par sx) = p_gtl (d_par s) /\ d_tc sx = d_tc s /\
    eq_params (d_new sx) (d_new sc) /\
    (exists sb o, back_step sx = Ok sb o /\ d_next s' = d_next sb /\ d_scratch s' = d_scratch sb) /\
    d_traj s' = d_traj s /\ d_dyn s' = d_dyn s /\ eq_params (d_new s') (d_new sc).
Proof.
  intros Hp I HP R HA HL.
  destruct (prep_step _ _ _ _ Hp I ltac:(unfold preparing; auto) R ltac:(congruence))
    as (t1 & sp & o1 & sp' & u1 & E1 & R1 & F1 & NB1 & B1 & RR1 & I1 & I1'). subst tr.
  pose proof B1 as B1'. unfold back_step in B1. rewrite (f_pc _ _ F1), HP in B1. inversion B1; subst o1. clear B1.
  assert (P1 : d_pc sp' = PCheck) by (subst sp'; reflexivity).
  destruct (prep_step _ _ _ _ Hp I1' ltac:(unfold preparing; auto) RR1 ltac:(congruence))
    as (t2 & sc & o2 & sc' & u2 & E2 & R2 & F2 & NB2 & B2 & RR2 & I2 & I2'). subst u1.
  pose proof B2 as B2'. unfold back_step in B2. rewrite (f_pc _ _ F2), P1 in B2. inversion B2; subst o2. clear B2.
  assert (P2 : d_pc sc' = if can_stitch sc then PStitch else PScratch) by (subst sc'; reflexivity).
  destruct (prep_step _ _ _ _ Hp I2' ltac:(rewrite P2; unfold preparing; destruct (can_stitch sc); auto 8) RR2
      ltac:(rewrite P2, HA; destruct (can_stitch sc); discriminate))
    as (t3 & sx & o3 & sx' & u3 & E3 & R3 & F3 & NB3 & B3 & RR3 & I3 & I3'). subst u2.
  pose proof B3 as B3'.
  assert (P3 : d_pc sx' = PLaunch).
  { unfold back_step in B3. rewrite (f_pc _ _ F3), P2 in B3.
    destruct (can_stitch sc); [destruct (d_traj sx)|]; inversion B3; subst; reflexivity. }
  destruct (prep_step _ _ _ _ Hp I3' ltac:(unfold preparing; auto 8) RR3 ltac:(congruence))
    as (t4 & sl & o4 & sl' & u4 & E4 & R4 & F4 & NB4 & B4 & RR4 & I4 & I4'). subst u3.
  pose proof B4 as B4'. unfold back_step in B4. rewrite (f_pc _ _ F4), P3 in B4. inversion B4; subst o4. clear B4.
  assert (P4 : d_pc sl' = PAsync) by (subst sl'; reflexivity).
  (* from PAsync without a launch nothing moves *)
  assert (F5 : same_plan sl' s').
  { pose proof (i_async _ I4' P4) as HF.
    destruct (split_back _ _ _ _ RR4) as [HB|(t5 & sa & o & sb & t6 & E & HB & R5 & HS & R6)].
    - apply (env_run _ _ _ _ Hp I4' HF RR4 HB).
    - exfalso. destruct (env_run _ _ _ _ Hp I4' HF R5 HB) as (A & _).
      cbn [step] in HS. unfold back_step in HS. rewrite (f_pc _ _ A), P4 in HS.
      destruct (d_fut_locked sa); [discriminate|]. inversion HS; subst.
      unfold no_obs in HL. rewrite Forall_forall in HL. apply (HL (Back, Launched)); [|reflexivity].
      do 4 (apply in_or_app; right; right). apply in_or_app; right; left; reflexivity. }
  exists t1, sp, ((Back, Quiet) :: t2), sc, ((Back, Quiet) :: t3), sx, ((Back, o3) :: t4 ++ (Back, Quiet) :: u4).
  split; [reflexivity|].
  split; [auto|]. split; [econstructor; [exact Logic.I|exact B1'|auto]|].
  split; [econstructor; [exact Logic.I|exact B2'|auto]|].
  split; [econstructor; [exact Logic.I|exact B3'|eapply run_app; [exact R4|econstructor; [exact Logic.I|exact B4'|auto]]]|].
  split; [auto|]. destruct F1, F2, F3, F4, F5. subst sp' sc' sl'. cbn in *.
  assert (HSX : d_traj sx' = d_traj sx /\ d_dyn sx' = d_dyn sx /\ d_new sx' = d_new sx).
  { unfold back_step in B3. destruct (d_pc sx) eqn:EP; try (rewrite f_pc2 in EP; destruct (can_stitch sc); discriminate).
    - destruct (d_traj sx) eqn:ET; inversion B3; subst; cbn; auto.
    - inversion B3; subst; cbn; auto. }
  destruct HSX as (X1 & X2 & X3).
  repeat (split; [solve [congruence | exact f_new1 | exact f_new2 | eapply eq_params_trans; eauto using eq_params_refl]|]).
  split; [exists sx', o3; split; [auto|split; congruence]|].
  split; [congruence|]. split; [congruence|].
  eapply eq_params_trans; [exact f_new4|]. eapply eq_params_trans; [exact f_new3|]. rewrite X3. auto.
Qed.
