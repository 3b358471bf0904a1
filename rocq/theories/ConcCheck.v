(** A checker for the lock order and for the protection of the shared
    variables, and its soundness: proof machinery, no model. *)
From Coq Require Import List Bool Arith Lia.
From Verif Require Import ConcModel.
Import ListNotations.
Set Bullet Behavior "Strict Subproofs".

(** What a thread is known to hold: mutexes and rights that are not mutexes:
    being the background thread, a running computation or the evaluating
    thread, the turn in the hand-over of the waypoints of the next trajectory,
    the knowledge that the future is valid, that the flag was set with the turn
    in hand, that a computation was started and not yet assigned. *)
Inductive tok := M (m : mutex) | XBack | XRun | XEval | XTurn | XValid | XCommit | XSpawned.
Scheme Equality for tok.
Scheme Equality for role.

Definition rank (m : mutex) : nat :=
  match m with
  | MFuture => 1 | MTodo => 3 | MDyn => 4 | MPar => 5 | MEval => 6 | MTime => 7 | MVeh => 8 | MMeas => 9
  end.
(** Ranks of what can be waited for: the end of the background thread 0, the
    end of a computation 2. *)
Definition trank (x : tok) : option nat :=
  match x with
  | M m => Some (rank m) | XBack => Some 0 | XRun => Some 2 | XEval | XTurn | XValid | XCommit | XSpawned => None
  end.
Definition below (n : nat) (H : list tok) : bool :=
  forallb (fun x => match trank x with Some r => r <? n | None => true end) H.
Definition mem (x : tok) (H : list tok) : bool := existsb (tok_beq x) H.
Definition del (x : tok) (H : list tok) : list tok := filter (fun y => negb (tok_beq x y)) H.
Definition droppable (x : tok) : bool := match x with XTurn | XValid | XCommit | XSpawned => true | _ => false end.
(** [H] is [H'] and possibly some droppable rights; the turn is not dropped
    while XCommit is kept. *)
Definition leq (H H' : list tok) : bool :=
  forallb (fun x => mem x H) H' && forallb (fun x => droppable x || mem x H') H &&
  implb (mem XCommit H' && mem XTurn H) (mem XTurn H').
Definition merge (H1 H2 : list tok) : list tok := filter (fun x => mem x H2) H1.

(** All of these are needed to write, one of them to read. *)
Definition guards (v : var) : list tok :=
  match v with
  | VTraj => [M MEval; M MTime; XEval; XTurn]
  | VDyn => [M MDyn; XTurn]
  | VNext => [XTurn]
  | VAdd | VSet | VMod => [M MTodo]
  | VVeh => [M MVeh]
  | VTc | VT0 => [M MMeas]
  | VLocal | VGlob | VSpeed | VGtl | VNewSpeed => [M MPar]
  | VOff => [M MPar; XEval; XTurn]
  | VNew => [XTurn]
  end.
Definition may_read (H : list tok) (v : var) : bool := existsb (fun g => mem g H) (guards v).
(** The unprotected reads. *)
Definition may_bare (ro : role) (v : var) : bool :=
  match ro, v with Back, VTraj | Back, VLocal | Back, VMod => true | _, _ => false end.
Definition may_write (H : list tok) (v : var) : bool := forallb (fun g => mem g H) (guards v).

Definition if_held (md : bool) (ro : role) (t : test) (H : list tok) : list tok * list tok :=
  if md then
    match t, ro with
    | TFlag FComp, Back => (H, XTurn :: del XTurn H)
    | TValid, Evaluator => (XValid :: del XValid H, H)
    | _, _ => (H, H)
    end
  else (H, H).

(** [check md ro B H c]: from [H], [c] ends holding the result (None: it never
    ends normally); [B]: what must be held at a Break.  With [md] the accesses
    and the hand-over are checked too, otherwise only the lock order. *)
Fixpoint check (md : bool) (ro : role) (B : option (list tok)) (H : list tok) (c : cmd) : option (option (list tok)) :=
  match c with
  | Skip => Some (Some H)
  | ReadBare v => if implb md (may_bare ro v) then Some (Some H) else None
  | Seq c1 c2 =>
      match check md ro B H c1 with
      | Some (Some H1) => check md ro B H1 c2
      | r => r
      end
  | Lock m => if below (rank m) H then Some (Some (M m :: H)) else None
  | Unlock m => if mem (M m) H then Some (Some (del (M m) H)) else None
  | Read v => if implb md (may_read H v) then Some (Some H) else None
  | Write v => if implb md (may_write H v) then Some (Some H) else None
  | Set_ f v =>
      match md, f with
      | true, FComp =>
          if v then if mem XTurn H && role_beq ro Back then Some (Some (XCommit :: del XCommit H)) else None
          else if mem XTurn H && role_beq ro Evaluator then Some (Some (del XTurn (del XCommit H))) else None
      | _, _ => Some (Some H)
      end
  | If t c1 c2 =>
      let (Ht, Hf) := if_held md ro t H in
      match check md ro B Ht c1, check md ro B Hf c2 with
      | Some (Some H1), Some (Some H2) =>
          if leq H1 (merge H1 H2) && leq H2 (merge H1 H2) then Some (Some (merge H1 H2)) else None
      | Some None, Some r | Some r, Some None => Some r
      | _, _ => None
      end
  | Loop c =>
      match check md ro (Some H) H c with
      | Some None => Some (Some H)
      | Some (Some H') => if leq H' H then Some (Some H) else None
      | None => None
      end
  | Break => match B with Some HB => if leq H HB then Some None else None | None => None end
  | Wait => if below 2 H && implb md (mem XValid H) then Some (Some H) else None
  | Get =>
      if below 2 H then
        if md then
          if mem XValid H && role_beq ro Evaluator && mem (M MFuture) H then Some (Some (XTurn :: del XTurn (del XValid H))) else None
        else Some (Some H)
      else None
  | Spawn =>
      if md then if mem XCommit H && role_beq ro Back && mem (M MFuture) H then Some (Some (XSpawned :: del XSpawned (del XTurn (del XCommit H)))) else None
      else Some (Some H)
  | Assign =>
      if below 2 H then
        if md then
          if mem XSpawned H && role_beq ro Back && mem (M MFuture) H then Some (Some (del XSpawned H)) else None
        else Some (Some H)
      else None
  | Join => if below 0 H then Some (Some H) else None
  end.

(** What a thread of a role holds all the time. *)
Definition base (ro : role) : list tok :=
  match ro with Back => [XBack] | Comp => [XRun] | Evaluator => [XEval] | Client | Owner => [] end.

Inductive wts (md : bool) (ro : role) (B : option (list tok)) : list tok -> list cmd -> Prop :=
| wts_nil H : match B with
              | Some HL => leq H HL = true
              | None => forall x, In x H <-> In x (base ro)
              end -> wts md ro B H []
| wts_cons H c H1 H2 cs :
    check md ro B H c = Some (Some H1) -> leq H1 H2 = true -> wts md ro B H2 cs -> wts md ro B H (c :: cs)
| wts_brk H c cs : check md ro B H c = Some None -> wts md ro B H (c :: cs).

Fixpoint wtk (md : bool) (ro : role) (H : list tok) (k : cont) : Prop :=
  match k with
  | KEnd cs => wts md ro None H cs
  | KLoop cs c k' =>
      exists HL HK, wts md ro (Some HL) H cs /\ wts md ro (Some HL) HL [c] /\ leq HL HK = true /\ wtk md ro HK k'
  end.

(* ------------------------------------------------------------------ *)

Lemma tok_beq_spec x y : tok_beq x y = true <-> x = y.
Proof. split; [apply internal_tok_dec_bl | apply internal_tok_dec_lb]. Qed.
Lemma role_beq_spec x y : role_beq x y = true <-> x = y.
Proof. split; [apply internal_role_dec_bl | apply internal_role_dec_lb]. Qed.
Lemma mem_spec x H : mem x H = true <-> In x H.
Proof.
  unfold mem. rewrite existsb_exists. split.
  - intros [y [I E]]. apply tok_beq_spec in E. subst. auto.
  - intros I. exists x. split; auto. apply tok_beq_spec. auto.
Qed.
Lemma del_spec x y H : In y (del x H) <-> In y H /\ y <> x.
Proof.
  unfold del. rewrite filter_In. split; intros [A B]; split; auto.
  - intros ->. assert (E : tok_beq x x = true) by (apply tok_beq_spec; auto). rewrite E in B. discriminate.
  - destruct (tok_beq x y) eqn:E; auto. apply tok_beq_spec in E. congruence.
Qed.
Lemma leq_spec H H' : leq H H' = true <->
  (forall x, In x H' -> In x H) /\ (forall x, In x H -> droppable x = true \/ In x H') /\
  (In XCommit H' -> In XTurn H -> In XTurn H').
Proof.
  unfold leq. rewrite !andb_true_iff, !forallb_forall. split; [intros [[A B] C]|intros (A & B & C)]; (split; [|]).
  - intros x I. apply mem_spec, A, I.
  - split.
    + intros x I. specialize (B x I). apply orb_true_iff in B. destruct B as [B|B]; auto. right. apply mem_spec; auto.
    + intros I J. apply mem_spec in I, J. rewrite I, J in C. apply mem_spec. auto.
  - split; intros x I.
    + apply mem_spec, A, I.
    + apply orb_true_iff. destruct (B x I); auto. right. apply mem_spec; auto.
  - destruct (mem XCommit H' && mem XTurn H) eqn:E; auto. apply andb_true_iff in E. destruct E as [E F].
    apply mem_spec in E, F. simpl. apply mem_spec. auto.
Qed.
Lemma leq_refl H : leq H H = true.
Proof. apply leq_spec. auto. Qed.
Lemma leq_trans H1 H2 H3 : leq H1 H2 = true -> leq H2 H3 = true -> leq H1 H3 = true.
Proof.
  rewrite !leq_spec. intros (A & B & G) (C & D & K). split; [|split]; auto.
  intros x I. destruct (B x I) as [E|E]; auto.
Qed.
Lemma below_spec n H : below n H = true <-> (forall x r, In x H -> trank x = Some r -> r < n).
Proof.
  unfold below. rewrite forallb_forall. split; intros A.
  - intros x r I E. specialize (A x I). rewrite E in A. apply Nat.ltb_lt; auto.
  - intros x I. destruct (trank x) eqn:E; auto. apply Nat.ltb_lt. eauto.
Qed.
Lemma rank_inj m m' : rank m = rank m' -> m = m'.
Proof. destruct m, m'; simpl; intros; congruence || discriminate. Qed.

Lemma wts_leq md ro B cs :
  forall H c H1, check md ro B H c = Some (Some H1) -> wts md ro B H1 cs -> wts md ro B H (c :: cs).
Proof. intros. econstructor; eauto. apply leq_refl. Qed.
Lemma wts_inv md ro B H c cs : wts md ro B H (c :: cs) ->
  check md ro B H c = Some None \/
  exists H1 H2, check md ro B H c = Some (Some H1) /\ leq H1 H2 = true /\ wts md ro B H2 cs.
Proof. intros W. inversion W; subst; eauto 8. Qed.

Lemma wts_seq md ro B H c1 c2 cs : wts md ro B H (Seq c1 c2 :: cs) -> wts md ro B H (c1 :: c2 :: cs).
Proof.
  intros W. apply wts_inv in W. simpl in W.
  destruct (check md ro B H c1) as [[H1|]|] eqn:E.
  - destruct W as [W|(H2 & H3 & W & L & W2)].
    + eapply wts_leq; eauto. apply wts_brk; auto.
    + eapply wts_leq; eauto. econstructor; eauto.
  - apply wts_brk; auto.
  - destruct W as [W|(? & ? & W & ?)]; discriminate.
Qed.
Lemma wts_if md ro B H t c1 c2 cs : wts md ro B H (If t c1 c2 :: cs) ->
  wts md ro B (fst (if_held md ro t H)) (c1 :: cs) /\ wts md ro B (snd (if_held md ro t H)) (c2 :: cs).
Proof.
  intros W. apply wts_inv in W. cbn [check] in W.
  destruct (if_held md ro t H) as [Ht Hf]. simpl.
  destruct (check md ro B Ht c1) as [[H1|]|] eqn:E1, (check md ro B Hf c2) as [[H2|]|] eqn:E2.
  - destruct (leq H1 (merge H1 H2) && leq H2 (merge H1 H2)) eqn:L.
    + apply andb_true_iff in L. destruct L as [L1 L2].
      destruct W as [W|(H3 & H4 & W & L & W2)]; [discriminate|]. injection W as <-.
      split; (econstructor; [eassumption| |exact W2]); eapply leq_trans; eauto.
    + destruct W as [W|(? & ? & W & ?)]; discriminate.
  - destruct W as [W|(H3 & H4 & W & L & W2)]; [discriminate|]. injection W as <-.
    split; [econstructor; eauto|apply wts_brk; auto].
  - destruct W as [W|(? & ? & W & ?)]; discriminate.
  - destruct W as [W|(H3 & H4 & W & L & W2)]; [discriminate|]. injection W as <-.
    split; [apply wts_brk; auto|econstructor; eauto].
  - split; apply wts_brk; auto.
  - destruct W as [W|(? & ? & W & ?)]; discriminate.
  - destruct W as [W|(? & ? & W & ?)]; discriminate.
  - destruct W as [W|(? & ? & W & ?)]; discriminate.
  - destruct W as [W|(? & ? & W & ?)]; discriminate.
Qed.
Lemma wts_loop md ro B H c cs : wts md ro B H (Loop c :: cs) ->
  exists H2, leq H H2 = true /\ wts md ro B H2 cs /\ wts md ro (Some H) H [c].
Proof.
  intros W. apply wts_inv in W. cbn [check] in W.
  destruct (check md ro (Some H) H c) as [[H'|]|] eqn:E.
  - destruct (leq H' H) eqn:L.
    + destruct W as [W|(H1 & H2 & W & L' & W2)]; [discriminate|]. injection W as <-.
      exists H2. repeat split; auto. econstructor; eauto. apply wts_nil. apply leq_refl.
    + destruct W as [W|(? & ? & W & ?)]; discriminate.
  - destruct W as [W|(H1 & H2 & W & L' & W2)]; [discriminate|]. injection W as <-.
    exists H2. repeat split; auto. apply wts_brk; auto.
  - destruct W as [W|(? & ? & W & ?)]; discriminate.
Qed.

(** The commands before the end of the current list. *)
Lemma wtk_split md ro H k c : wtk md ro H k -> head k = Some c ->
  exists B cs, wts md ro B H (c :: cs) /\
    (forall H' cs', wts md ro B H' (cs' ++ cs) -> wtk md ro H' (replace_head cs' k)).
Proof.
  intros W E. destruct k as [[|c0 l]|[|c0 l] c' k0]; try discriminate; simpl in E; injection E as ->.
  - exists None, l. split; auto.
  - destruct W as (HL & HK & W & Wc & L & Wk). exists (Some HL), l. split; auto.
    intros H' cs' W'. exists HL, HK. auto.
Qed.
(** A command without control flow. *)
Lemma wtk_simple md ro H k c H1 : wtk md ro H k -> head k = Some c ->
  (forall B, check md ro B H c = Some (Some H1) \/ check md ro B H c = None) ->
  (exists B, check md ro B H c = Some (Some H1)) /\
  exists H2, leq H1 H2 = true /\ wtk md ro H2 (replace_head [] k).
Proof.
  intros W E C. destruct (wtk_split _ _ _ _ _ W E) as (B & cs & Wc & F).
  apply wts_inv in Wc. destruct (C B) as [D|D]; rewrite D in Wc.
  - destruct Wc as [Wc|(H3 & H2 & Wc & L & W2)]; [discriminate|]. injection Wc as <-.
    split; eauto.
  - destruct Wc as [Wc|(H3 & H2 & Wc & L & W2)]; discriminate.
Qed.

(* ------------------------------------------------------------------ *)
(** ** Effect of a step *)

Inductive effect (md : bool) (ro : role) (i : nat) (s : state) (H : list tok) : list tok -> state -> Prop :=
| E_same H' : leq H H' = true -> effect md ro i s H H' s
| E_lock m H' : s_own s m = None -> below (rank m) H = true -> leq (M m :: H) H' = true ->
    effect md ro i s H H' (mkS (s_thr s) (upd_own m (Some i) (s_own s)) (s_flg s) (s_fut s) (s_pend s))
| E_unlock m H' : s_own s m = Some i -> leq (del (M m) H) H' = true ->
    effect md ro i s H H' (mkS (s_thr s) (upd_own m None (s_own s)) (s_flg s) (s_fut s) (s_pend s))
| E_set (f : flag) (v : bool) H' : (md = true -> f = FComp ->
      In XTurn H /\ (if v then ro = Back /\ leq (XCommit :: del XCommit H) H' = true
                     else ro = Evaluator /\ leq (del XTurn (del XCommit H)) H' = true)) ->
    (md = false \/ f <> FComp -> leq H H' = true) ->
    effect md ro i s H H' (mkS (s_thr s) (s_own s) (upd_flg f v (s_flg s)) (s_fut s) (s_pend s))
| E_turn H' : md = true -> ro = Back -> s_flg s FComp = false -> leq (XTurn :: del XTurn H) H' = true ->
    effect md ro i s H H' s
| E_valid H' : md = true -> ro = Evaluator -> s_fut s <> None -> leq (XValid :: del XValid H) H' = true ->
    effect md ro i s H H' s
| E_get j H' : s_fut s = Some j -> done s j = true ->
    (md = false -> leq H H' = true) ->
    (md = true -> In XValid H /\ ro = Evaluator /\ leq (XTurn :: del XTurn (del XValid H)) H' = true) ->
    effect md ro i s H H' (mkS (s_thr s) (s_own s) (s_flg s) None (s_pend s))
| E_spawn H' : (md = false -> leq H H' = true) ->
    (md = true -> In XCommit H /\ ro = Back /\ leq (XSpawned :: del XSpawned (del XTurn (del XCommit H))) H' = true) ->
    effect md ro i s H H'
      (mkS (s_thr s ++ [mkT Comp (KEnd [compute])]) (s_own s) (s_flg s) (s_fut s) (Some (length (s_thr s))))
| E_assign H' : (md = false -> leq H H' = true) -> (md = true -> In XSpawned H /\ ro = Back /\ leq (del XSpawned H) H' = true) ->
    match s_fut s with Some j => done s j = true | None => True end ->
    effect md ro i s H H' (mkS (s_thr s) (s_own s) (s_flg s) (s_pend s) None).

Lemma exec_effect md i b s s' t H :
  exec i b s = Next s' -> nth_error (s_thr s) i = Some t -> wtk md (t_role t) H (t_cont t) ->
  exists k' H' sm, effect md (t_role t) i s H H' sm /\ wtk md (t_role t) H' k' /\ s' = goto i k' sm.
Proof.
  intros X N W. unfold exec in X. rewrite N in X. destruct t as [ro k]. cbn [t_role t_cont] in *.
  destruct (head k) as [c|] eqn:Hd.
  2:{ destruct k as [[|c0 l]|[|c0 l] c' k0]; try discriminate.
      injection X as <-. destruct W as (HL & HK & W & Wc & L & Wk).
      inversion W as [? L0| |]; subst.
      exists (KLoop [c'] c' k0), HL, s. split; [apply E_same; auto|]. split; auto.
      exists HL, HK. auto. }
  assert (X' : match c with
      | Skip => Next (goto i (replace_head [] k) s)
      | Seq c1 c2 => Next (goto i (replace_head [c1; c2] k) s)
      | Lock m =>
          match s_own s m with
          | Some _ => Blocked
          | None => Next (goto i (replace_head [] k) (mkS (s_thr s) (upd_own m (Some i) (s_own s)) (s_flg s) (s_fut s) (s_pend s)))
          end
      | Unlock m =>
          match s_own s m with
          | Some j => if (i =? j)%nat
              then Next (goto i (replace_head [] k) (mkS (s_thr s) (upd_own m None (s_own s)) (s_flg s) (s_fut s) (s_pend s)))
              else Bad
          | None => Bad
          end
      | Read _ | Write _ | ReadBare _ => Next (goto i (replace_head [] k) s)
      | Set_ f v => Next (goto i (replace_head [] k) (mkS (s_thr s) (s_own s) (upd_flg f v (s_flg s)) (s_fut s) (s_pend s)))
      | If t c1 c2 => Next (goto i (replace_head [if eval_test t b s then c1 else c2] k) s)
      | Loop c => match k with
                  | KEnd (_ :: l) => Next (goto i (KLoop [c] c (KEnd l)) s)
                  | KLoop (_ :: l) c' k' => Next (goto i (KLoop [c] c (KLoop l c' k')) s)
                  | _ => Bad
                  end
      | Break => match k with KLoop _ _ k' => Next (goto i k' s) | _ => Bad end
      | Wait => match s_fut s with
                | None => Bad
                | Some j => if done s j then Next (goto i (replace_head [] k) s) else Blocked
                end
      | Get => match s_fut s with
               | None => Bad
               | Some j => if done s j
                   then Next (goto i (replace_head [] k) (mkS (s_thr s) (s_own s) (s_flg s) None (s_pend s)))
                   else Blocked
               end
      | Spawn => Next (goto i (replace_head [] k)
                   (mkS (s_thr s ++ [mkT Comp (KEnd [compute])]) (s_own s) (s_flg s) (s_fut s) (Some (length (s_thr s)))))
      | Assign => if match s_fut s with Some j => done s j | None => true end
          then Next (goto i (replace_head [] k) (mkS (s_thr s) (s_own s) (s_flg s) (s_pend s) None))
          else Blocked
      | Join => if back_done s then Next (goto i (replace_head [] k) s) else Blocked
      end = Next s').
  { destruct k as [[|c0 l]|[|c0 l] c' k0]; try discriminate; simpl in Hd; injection Hd as ->; exact X. }
  clear X. rename X' into X.
  destruct c.
  - (* Skip *) injection X as <-.
    destruct (wtk_simple _ _ _ _ _ H W Hd) as [_ (H2 & L & W2)]; [intros; left; reflexivity|].
    exists (replace_head [] k), H2, s. split; [apply E_same; auto|]. auto.
  - (* Seq *) injection X as <-. destruct (wtk_split _ _ _ _ _ W Hd) as (B & cs & Wc & F).
    apply wts_seq in Wc. exists (replace_head [c1; c2] k), H, s.
    split; [apply E_same, leq_refl|]. split; [apply F; exact Wc|reflexivity].
  - (* Lock *) destruct (s_own s m) eqn:Eo; [discriminate|]. injection X as <-.
    destruct (wtk_simple _ _ _ _ _ (M m :: H) W Hd) as [[B D] (H2 & L & W2)];
      [intros; cbn; destruct (below (rank m) H); auto|].
    cbn in D. destruct (below (rank m) H) eqn:Eb; [|discriminate].
    exists (replace_head [] k), H2; eexists; split; [apply E_lock; eauto|]. auto.
  - (* Unlock *) destruct (s_own s m) as [j|] eqn:Eo; [|discriminate].
    destruct (i =? j) eqn:Ej; [|discriminate]. apply Nat.eqb_eq in Ej. subst j. injection X as <-.
    destruct (wtk_simple _ _ _ _ _ (del (M m) H) W Hd) as [[B D] (H2 & L & W2)];
      [intros; cbn; destruct (mem (M m) H); auto|].
    exists (replace_head [] k), H2; eexists; split; [apply E_unlock; eauto|]. auto.
  - (* Read *) injection X as <-.
    destruct (wtk_simple _ _ _ _ _ H W Hd) as [_ (H2 & L & W2)];
      [intros; cbn; destruct (implb md (may_read H v)); auto|].
    exists (replace_head [] k), H2, s. split; [apply E_same; auto|]. auto.
  - (* Write *) injection X as <-.
    destruct (wtk_simple _ _ _ _ _ H W Hd) as [_ (H2 & L & W2)];
      [intros; cbn; destruct (implb md (may_write H v)); auto|].
    exists (replace_head [] k), H2, s. split; [apply E_same; auto|]. auto.
  - (* ReadBare *) injection X as <-.
    destruct (wtk_simple _ _ _ _ _ H W Hd) as [_ (H2 & L & W2)];
      [intros; cbn; destruct (implb md (may_bare ro v)); auto|].
    exists (replace_head [] k), H2, s. split; [apply E_same; auto|]. auto.
  - (* Set_ *) injection X as <-.
    destruct md.
    + destruct (flag_eq_dec f FComp) as [->|Ef].
      * destruct b0.
        -- destruct (wtk_simple _ _ _ _ _ (XCommit :: del XCommit H) W Hd) as [[B D] (H2 & L & W2)];
             [intros; cbn; destruct (mem XTurn H && role_beq ro Back); auto|].
           cbn in D. destruct (mem XTurn H && role_beq ro Back) eqn:Em; [|discriminate].
           apply andb_true_iff in Em. destruct Em as [Em Er]. apply mem_spec in Em. apply role_beq_spec in Er.
           exists (replace_head [] k), H2; eexists; split; [apply (E_set true ro i s H FComp true); auto|]; auto.
           intros [Q|Q]; congruence.
        -- destruct (wtk_simple _ _ _ _ _ (del XTurn (del XCommit H)) W Hd) as [[B D] (H2 & L & W2)];
             [intros; cbn; destruct (mem XTurn H && role_beq ro Evaluator); auto|].
           cbn in D. destruct (mem XTurn H && role_beq ro Evaluator) eqn:Em; [|discriminate].
           apply andb_true_iff in Em. destruct Em as [Em Er]. apply mem_spec in Em. apply role_beq_spec in Er.
           exists (replace_head [] k), H2; eexists; split; [apply (E_set true ro i s H FComp false); auto|]; auto.
           intros [Q|Q]; congruence.
      * destruct (wtk_simple _ _ _ _ _ H W Hd) as [_ (H2 & L & W2)];
          [intros; cbn; destruct f; auto; congruence|].
        exists (replace_head [] k), H2; eexists; split; [apply (E_set true ro i s H f b0); auto; congruence|]. auto.
    + destruct (wtk_simple _ _ _ _ _ H W Hd) as [_ (H2 & L & W2)]; [intros; cbn; destruct f; auto|].
      exists (replace_head [] k), H2; eexists; split; [apply (E_set false ro i s H f b0); auto; congruence|]. auto.
  - (* If *) injection X as <-. destruct (wtk_split _ _ _ _ _ W Hd) as (B & cs & Wc & F).
    apply wts_if in Wc. destruct Wc as [W1 W2].
    assert (Z : exists H', effect md ro i s H H' s /\ wts md ro B H' ((if eval_test t b s then c1 else c2) :: cs)).
    { destruct md.
      - destruct t as [f| | |]; [destruct f| | |]; destruct ro; cbn [if_held fst snd] in W1, W2;
          try (exists H; split; [apply E_same, leq_refl|]; destruct (eval_test _ b s); assumption).
        + destruct (eval_test (TFlag FComp) b s) eqn:Ev.
          * exists H; split; [apply E_same, leq_refl|auto].
          * eexists; split; [|exact W2]. apply E_turn; auto. apply leq_refl.
        + destruct (eval_test TValid b s) eqn:Ev.
          * eexists; split; [|exact W1]. apply E_valid; auto; [|apply leq_refl].
            simpl in Ev. destruct (s_fut s); congruence.
          * exists H; split; [apply E_same, leq_refl|auto].
      - cbn [if_held fst snd] in W1, W2. exists H; split; [apply E_same, leq_refl|]; destruct (eval_test _ b s); assumption. }
    destruct Z as (H' & Ef & W'). eexists _, H', _. split; [exact Ef|]. split; [|reflexivity].
    apply F. exact W'.
  - (* Loop *)
    destruct k as [[|c0 l]|[|c0 l] c' k0]; try discriminate; simpl in Hd; injection Hd as ->; injection X as <-.
    + apply wts_loop in W. destruct W as (H2 & L & W & W').
      eexists _, H, _. split; [apply E_same, leq_refl|]. split; [|reflexivity].
      exists H, H2. auto.
    + destruct W as (HL & HK & W & Wc & L0 & Wk). apply wts_loop in W. destruct W as (H2 & L & W & W').
      eexists _, H, _. split; [apply E_same, leq_refl|]. split; [|reflexivity].
      exists H, H2. repeat (split; auto). exists HL, HK. auto.
  - (* Break *)
    destruct k as [[|c0 l]|[|c0 l] c' k0]; try discriminate; simpl in Hd; injection Hd as ->; injection X as <-.
    destruct W as (HL & HK & W & Wc & L0 & Wk). apply wts_inv in W. cbn in W.
    destruct (leq H HL) eqn:L; [|destruct W as [W|(? & ? & W & ?)]; discriminate].
    exists k0, HK; eexists; split; [apply E_same; eapply leq_trans; eauto|]. auto.
  - (* Wait *) destruct (s_fut s) as [j|] eqn:Ef; [|discriminate]. destruct (done s j) eqn:Ed; [|discriminate].
    injection X as <-.
    destruct (wtk_simple _ _ _ _ _ H W Hd) as [_ (H2 & L & W2)];
      [intros; cbn; destruct (below 2 H && implb md (mem XValid H)); auto|].
    exists (replace_head [] k), H2, s. split; [apply E_same; auto|]. auto.
  - (* Get *) destruct (s_fut s) as [j|] eqn:Ef; [|discriminate]. destruct (done s j) eqn:Ed; [|discriminate].
    injection X as <-. destruct md.
    + destruct (wtk_simple _ _ _ _ _ (XTurn :: del XTurn (del XValid H)) W Hd) as [[B D] (H2 & L & W2)];
        [intros; cbn; destruct (below 2 H), (mem XValid H && role_beq ro Evaluator && mem (M MFuture) H); auto|].
      cbn in D. destruct (below 2 H); [|discriminate].
      destruct (mem XValid H && role_beq ro Evaluator && mem (M MFuture) H) eqn:Em; [|discriminate].
      rewrite !andb_true_iff, !mem_spec, role_beq_spec in Em.
      exists (replace_head [] k), H2; eexists; split; [apply (E_get true ro i s H j); auto; [discriminate|tauto]|]. auto.
    + destruct (wtk_simple _ _ _ _ _ H W Hd) as [_ (H2 & L & W2)]; [intros; cbn; destruct (below 2 H); auto|].
      exists (replace_head [] k), H2; eexists; split; [apply (E_get false ro i s H j); auto; discriminate|]. auto.
  - (* Spawn *) injection X as <-. destruct md.
    + destruct (wtk_simple _ _ _ _ _ (XSpawned :: del XSpawned (del XTurn (del XCommit H))) W Hd) as [[B D] (H2 & L & W2)];
        [intros; cbn; destruct (mem XCommit H && role_beq ro Back && mem (M MFuture) H); auto|].
      cbn in D. destruct (mem XCommit H && role_beq ro Back && mem (M MFuture) H) eqn:Em; [|discriminate].
      rewrite !andb_true_iff, !mem_spec, role_beq_spec in Em.
      exists (replace_head [] k), H2; eexists; split; [apply E_spawn; [discriminate|tauto]|]; auto.
    + destruct (wtk_simple _ _ _ _ _ H W Hd) as [_ (H2 & L & W2)]; [intros; cbn; auto|].
      exists (replace_head [] k), H2; eexists; split; [apply E_spawn; [auto|discriminate]|]. auto.
  - (* Assign *)
    destruct (match s_fut s with Some j => done s j | None => true end) eqn:Ef; [|discriminate]. injection X as <-.
    assert (Ef' : match s_fut s with Some j => done s j = true | None => True end) by (destruct (s_fut s); auto).
    destruct md.
    + destruct (wtk_simple _ _ _ _ _ (del XSpawned H) W Hd) as [[B D] (H2 & L & W2)];
        [intros; cbn; destruct (below 2 H), (mem XSpawned H && role_beq ro Back && mem (M MFuture) H); auto|].
      cbn in D. destruct (below 2 H); [|discriminate].
      destruct (mem XSpawned H && role_beq ro Back && mem (M MFuture) H) eqn:Em; [|discriminate].
      rewrite !andb_true_iff, !mem_spec, role_beq_spec in Em.
      exists (replace_head [] k), H2; eexists; split; [apply E_assign; [discriminate|tauto|auto]|]; auto.
    + destruct (wtk_simple _ _ _ _ _ H W Hd) as [_ (H2 & L & W2)]; [intros; cbn; destruct (below 2 H); auto|].
      exists (replace_head [] k), H2; eexists; split; [apply E_assign; [auto|discriminate|auto]|]; auto.
  - (* Join *) destruct (back_done s) eqn:Eb; [|discriminate]. injection X as <-.
    destruct (wtk_simple _ _ _ _ _ H W Hd) as [_ (H2 & L & W2)]; [intros; cbn; destruct (below 0 H); auto|].
    exists (replace_head [] k), H2, s. split; [apply E_same; auto|]. auto.
Qed.
