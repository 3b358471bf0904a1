(** Concrete objects used to show that the hypotheses of the theorems can be met. *)
From Coq Require Import Reals Lra Lia List Bool ZArith Arith ClassicalChoice.
From Coquelicot Require Import Coquelicot.
From Verif Require Import Base PolyModel PolySpec PolyProofs VertexModel TrajModel TrajSpec TrajProofs ExtremaProofs.
Import List ListNotations.
Local Open Scope R_scope.

(** A planar trajectory with two segments: (t^2, t) during 1, then (1+2t, 1+t)
    during 2; position and velocity are continuous at the joint. *)
Definition ex_seg1 : segment := mkSeg 1 3 2 [[0; 0; 1]; [0; 1; 0]].
Definition ex_seg2 : segment := mkSeg 2 3 2 [[1; 2; 0]; [1; 1; 0]].
Definition ex_traj : trajectory := mkTraj 2 3 3 [ex_seg1; ex_seg2].

Lemma ex_seg1_wf : seg_wf ex_seg1.
Proof. split; [reflexivity|repeat constructor]. Qed.
Lemma ex_seg2_wf : seg_wf ex_seg2.
Proof. split; [reflexivity|repeat constructor]. Qed.
Lemma ex_traj_wf : traj_wf ex_traj.
Proof.
  split; [|simpl; lra].
  repeat constructor; try reflexivity; apply ex_seg1_wf || apply ex_seg2_wf.
Qed.
Lemma ex_traj_set : set_segments [ex_seg1; ex_seg2] = Some ex_traj.
Proof. unfold set_segments, set_segments_gen, add_segments_gen, ex_traj. simpl. do 2 f_equal. lra. Qed.
Lemma ex_traj_pos : positive_times ex_traj.
Proof. repeat constructor; simpl; lra. Qed.
Lemma ex_traj_nonneg : Forall (fun s => 0 <= s_time s) (t_segs ex_traj).
Proof. repeat constructor; simpl; lra. Qed.
Lemma ex_traj_joined : joined ex_traj 1.
Proof.
  intros k s s' H1 H2 j Hj.
  destruct k as [|[|k]]; simpl in H1, H2; try discriminate.
  inversion H1; inversion H2; subst.
  rewrite <- (seg_evaluate_deriv ex_seg1), <- (seg_evaluate_deriv ex_seg2)
    by (apply ex_seg1_wf || apply ex_seg2_wf).
  destruct j as [|[|j]]; [| |lia]; cbn; list_lra.
Qed.

(** An exact root finder exists. *)
Lemma exact_root_finder_exists : exists f, exact_root_finder f.
Proof.
  destruct (choice (fun (c : list R) (l : list croot) =>
     (exists x, pval c x <> 0) ->
     forall x, pval c x = 0 -> exists y, Rabs y <= DBL_EPS /\ In (x, y) l)) as [f Hf].
  - intros c. destruct (Classical_Prop.classic (exists x, pval c x <> 0)) as [H|H].
    + destruct (finitely_many_roots c H) as [l Hl]. exists (map (fun x => (x, 0)) l).
      intros _ x Hx. exists 0. split; [rewrite Rabs_R0; left; apply DBL_EPS_pos|].
      apply in_map_iff. eauto.
    + exists []. tauto.
  - exists f. intros c. apply Hf.
Qed.
