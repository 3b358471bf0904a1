(** The swap of a finished trajectory and the evaluation of a time step by
    step: what happens inside the single events Poll and Eval of DynModel, with
    every other agent running in between - dynamic_trajectory.cpp:378-419,
    676-679, 727-770, 122-131; and the two reads of checkInSecurityZone - 698,
    700-703.

    One thread evaluates.  Its first steps of a poll (653-675) only read, so
    they are part of [Begin]; a poll that does not swap stays the single event
    of DynModel.  Client calls are critical sections of todo_mutex and remain
    single events. *)
From Coq Require Import Reals List Bool.
From Verif Require Import Base PolyModel TrajModel WaypointModel DynModel.
Import ListNotations.
Local Open Scope R_scope.

(** Where the evaluating thread is: the next thing it does. *)
Inductive micro :=
| MIdle
| MGot (tr : trajectory)                 (* 385: read from_scratch_; 387-389: the vehicle position, or 395-398: the times *)
| MArgs (tr : trajectory) (g l : R)      (* 399-400: evaluate traj_ *)
| MFirst (tr : trajectory) (q : V3)      (* 735-739: distance at time 0 *)
| MLoop (tr : trajectory) (q : V3) (fuel : nat) (t best best_d : R)  (* 741-753 *)
| MOff (tr : trajectory) (best : R)      (* 755-764: new_parameters_.t_offset *)
| MScratch (tr : trajectory)             (* 391: from_scratch_ = false (already so after stitching) *)
| MPar (tr : trajectory)                 (* 403-405: parameters_ = new_parameters_ *)
| MTraj (tr : trajectory)                (* 407: traj_ *)
| MRegen                                 (* 409: trajectory_regenerated_ = true *)
| MDyn                                   (* 415-417: dynamic_waypoints_ *)
| MComp                                  (* 678: computing_new_trajectory_ = false *)
| MEval (t l : R).                       (* 127-130: parameters_.last_..._time_evaluated *)

(** [f_seen]: the background thread is inside checkInSecurityZone and has found
    traj_ not null (698). *)
Record fstate := mkF { f_s : state; f_m : micro; f_seen : bool }.
Definition finit (junk : V3) : fstate := mkF (init junk) MIdle false.

Inductive fevent :=
| Call (e : event)   (* an event of DynModel other than those below *)
| Begin              (* the evaluating thread takes the result: 381-383 *)
| BeginEval (t : R)  (* convertFromGlobalTime: 225-229 *)
| Next.              (* its next step *)

Inductive fout := FOk (f : fstate) (o : obs) | FBlocked | FUB.

(** The rest of line 724 in checkInSecurityZone: 699-719, waypoints and time as
    they are when the lock of the waypoints is taken. *)
Definition zone_rest (s : state) : bool :=
  zone_scan (d_dyn s) (p_global (d_par s)) (security_time (d_tc s)).
Definition fine_back (f : fstate) : fout :=
  let s := f_s f in
  match d_pc s with
  | PZone =>
      if f_seen f
      then FOk (mkF (set_pc (if zone_rest s then PElse else PComp) s) (f_m f) false) Quiet
      else match d_traj s with
           | None => FOk (mkF (set_pc PComp s) (f_m f) false) Quiet
           | Some _ => FOk (mkF s (f_m f) true) Quiet
           end
  | _ => match back_step s with
         | Ok s' o => FOk (mkF s' (f_m f) (f_seen f)) o
         | UB => FUB
         | _ => FBlocked
         end
  end.

(** What the evaluating thread does next. *)
Definition fine_next (f : fstate) : fout :=
  let s := f_s f in
  let go s' m := FOk (mkF s' m (f_seen f)) Quiet in
  match f_m f with
  | MIdle => FBlocked
  | MGot tr => if d_scratch s then go s (MFirst tr (d_vehicle s))
               else go s (MArgs tr (p_global (d_par s) + p_off (d_par s)) (p_local (d_par s) + p_off (d_par s)))
  | MArgs tr g l => match d_traj s with
                    | None => FUB
                    | Some old => go s (MFirst tr (eval_modified old (d_dyn s) g l 0))
                    end
  | MFirst tr q =>
      go s (MLoop tr q (fit_samples STEP (3 / 2 * computation_time (d_tc s))) STEP 0
              (fit_distance tr (d_dyn s) (p_gtl (d_new s)) q 0))
  | MLoop tr q fuel t best best_d =>
      match fuel with
      | O => go s (MOff tr best)
      | S n => if Rltb t (3 / 2 * computation_time (d_tc s)) then
                 let d := fit_distance tr (d_dyn s) (p_gtl (d_new s)) q t in
                 if Rleb d best_d then go s (MLoop tr q n (t + STEP) t d)
                 else go s (MLoop tr q n (t + STEP) best best_d)
               else go s (MOff tr best)
      end
  | MOff tr best =>
      go (set_new (par_off (best - (p_global (d_par s) - p_gtl (d_new s)) + STEP) (d_new s)) s) (MScratch tr)
  | MScratch tr => go (set_scratch false s) (MPar tr)
  | MPar tr => go (set_par (d_new s) s) (MTraj tr)
  | MTraj tr => go (set_traj (Some tr) s) MRegen
  | MRegen => go (set_regen true s) MDyn
  | MDyn => go (set_dyn (map wp_copy (d_next s)) s) MComp
  | MComp => FOk (mkF (set_late (S (d_late s)) (set_computing false s)) MIdle (f_seen f)) Swapped
  | MEval t l =>
      let q := d_par s in
      go (set_par (mkParams l (p_off q) t (p_speed q) (p_gtl q)) s) MIdle
  end.

(** Events that are not steps of the evaluating thread and not steps of the
    background thread. *)
Definition others (e : event) : bool :=
  match e with
  | SetWaypoints _ | Append _ | Modify _ _ _ | RaiseFlag | SetSpeed _ | Vehicle _ | GetRegenerated
  | Stop | CompSpeed | CompDone _ _ | CompThrow => true
  | _ => false
  end.
Definition lift (f : fstate) (x : outcome) : fout :=
  match x with
  | Ok s o => FOk (mkF s (f_m f) (f_seen f)) o
  | UB => FUB
  | _ => FBlocked
  end.
(** A poll that finds no finished computation. *)
Definition no_result (s : state) : bool :=
  match d_fut s with FReady _ => false | _ => true end.

Definition fine_step (f : fstate) (e : fevent) : fout :=
  let s := f_s f in
  match e with
  | Call Back => fine_back f
  | Call Poll => match f_m f with
                 | MIdle => if no_result s then lift f (step s Poll) else FBlocked
                 | _ => FBlocked
                 end
  | Call PollEnd => match f_m f with MIdle => lift f (step s PollEnd) | _ => FBlocked end
  | Call e => if others e then lift f (step s e) else FBlocked
  | Begin => match f_m f, d_fut s with
             | MIdle, FReady tr =>
                 if d_computing s && negb (d_fut_locked s)
                 then FOk (mkF (set_fut FNone s) (MGot tr) (f_seen f)) Quiet else FBlocked
             | _, _ => FBlocked
             end
  | BeginEval t => match f_m f, d_traj s with
                   | MIdle, Some _ => FOk (mkF s (MEval t (t - p_gtl (d_par s))) (f_seen f)) Quiet
                   | MIdle, None => FUB
                   | _, _ => FBlocked
                   end
  | Next => fine_next f
  end.
