(** Model of [derive_uncertainty_region_costs]
    (r_u_sure/wrappers/uncertainty_regions_wrapper.py:41-200) and the cheapest
    edits of a single suggested token under the derived costs.  Floats are
    rationals. *)

From Coq Require Import List Bool Arith ZArith Lia QArith Qcanon.
From Verif Require Import Base Graph GatedDag SeqNodes PackedSeq PackedSeqProofs Numbered Decisions EditDag EditSpec EditProofs EditTheorems.
Import ListNotations.
Close Scope Qc_scope. Close Scope Q_scope. Close Scope Z_scope. Open Scope nat_scope.

(** uncertainty_regions_wrapper.py:139-200. *)
Definition derive_uncertainty_region_costs (effective_precision start_editing sensitivity : Qc) : parameters :=
  (let p := effective_precision in
   let low_delete := 1 - Q2Qc 2 * p * (1 - sensitivity) in
   let low_match := Q2Qc 2 * sensitivity - low_delete in
   let low_start := sensitivity * start_editing in
   let region := (1 - p) * (1 - sensitivity) * start_editing in
   mkParams 1 1 low_match low_delete 0 region start_editing low_start)%Qc.

(** A token that may be put in a region of its own, and a target of one token. *)
Definition one_token {M} (t : text) (m : M) : list (node M) := [RegionStart; Token t m; RegionEnd].
Definition kept_outside : list decision :=
  [((0, RegionShouldStart), DFalse); ((1, NodeInRegion), DFalse); ((2, RegionShouldEnd), DNA)].
Definition put_in_region : list decision :=
  [((0, RegionShouldStart), DTrue); ((1, NodeInRegion), DTrue); ((2, RegionShouldEnd), DTrue)].

(** The least cost of the paths with given decisions. *)
Definition least_cost {St In : Type} (d : dag St decision In) (ds : list decision) (k : Qc) : Prop :=
  (exists p, complete_path d p /\ path_assignments p = ds /\ path_cost p = Fin k) /\
  (forall p k', complete_path d p -> path_assignments p = ds -> path_cost p = Fin k' -> (k <= k')%Qc).

Section OneToken.
  Context {M : Type} {md : EqDec M} (P : parameters).
  Context (Hins : insert_per_char P = 0%Qc) (Hhs : (0 <= high_start P)%Qc) (Hls : (0 <= low_start P)%Qc) (Hlh : (low_start P <= high_start P)%Qc).
  Context (t : text) (m : M) (t' : text) (m' : M).
  Notation tree := (labelled (one_token t m)).
  Notation goal := (labelled [Token t' m']).
  Local Open Scope Qc_scope.

  Ltac one := match goal with
    | H : edited _ _ _ _ _ _ _ _ |- _ => inversion H; clear H; subst; cbn [app] in *
    | H : passes _ _ _ _ _ _ |- _ => inversion H; clear H; subst; cbn [app] in *
    | H : removed _ _ _ _ _ _ |- _ => inversion H; clear H; subst; cbn [app] in *
    | H : ?x <> ?x |- _ => now destruct H
    | H : _ :: _ = _ |- _ => discriminate H || (injection H as H; subst; cbn [app] in *)
    | H : _ ++ _ = [] |- _ => apply app_eq_nil in H as [? ?]; subst
    | H : [] = _ :: _ |- _ => discriminate H
    | H : Some _ = None |- _ => discriminate H
    | H : None = Some _ |- _ => discriminate H
    | H : False |- _ => destruct H
    end.
  Ltac finish := cbn [begin_price delete_price keep_gain insert_total] in *; rewrite ?Hins; split;
    [intros _ A; clear -A Hhs Hls Hlh; qc_lra|intros N; first [now destruct N|clear -Hhs Hls Hlh; qc_lra]].
  Lemma outside_bound k : edit P tree goal k kept_outside ->
    ((t, m) = (t', m') -> 0 <= high_match P * characters t + high_delete P * characters t -> - (high_match P * characters t) <= k) /\
    ((t, m) <> (t', m') -> high_start P + high_delete P * characters t <= k).
  Proof.
    unfold kept_outside. cbn. intros [H|H]; repeat one; cbn [marked] in *; try discriminate; finish.
  Qed.
  Lemma inside_bound k : edit P tree goal k put_in_region ->
    ((t, m) = (t', m') -> 0 <= low_match P * characters t + low_delete P * characters t -> region_cost P - low_match P * characters t <= k) /\
    ((t, m) <> (t', m') -> region_cost P + low_start P + low_delete P * characters t <= k).
  Proof.
    unfold put_in_region. cbn. intros [H|H]; repeat one; cbn [marked] in *; try discriminate; finish.
  Qed.
  Lemma outside_wrong : exists k, edit P tree goal k kept_outside /\ k = high_start P + high_delete P * characters t.
  Proof.
    eexists. split.
    - left. cbn. eapply (ed_pass _ _ _ _ _ [_]); [discriminate|apply pa_no_start|]. apply ed_begin.
      eapply (ed_remove _ _ _ _ _ _ [_]); [apply rm_token, rm_nil|]. eapply (ed_pass _ _ _ _ _ [_]); [discriminate|apply pa_end_out|].
      apply ed_add; [discriminate|exact I|]. apply ed_end.
    - cbn [begin_price delete_price insert_total]. rewrite Hins. ring.
  Qed.
  Lemma inside_wrong : exists k, edit P tree goal k put_in_region /\ k = region_cost P + low_start P + low_delete P * characters t.
  Proof.
    eexists. split.
    - left. cbn. eapply (ed_pass _ _ _ _ _ [_]); [discriminate|apply pa_start|]. apply ed_begin.
      eapply (ed_remove _ _ _ _ _ _ [_]); [apply rm_token, rm_nil|]. eapply (ed_pass _ _ _ _ _ [_]); [discriminate|apply pa_end|].
      apply ed_add; [discriminate|exact I|]. apply ed_end.
    - cbn [begin_price delete_price insert_total]. rewrite Hins. ring.
  Qed.
  Lemma outside_right : exists k, edit P tree (labelled [Token t m]) k kept_outside /\ k = - (high_match P * characters t).
  Proof.
    eexists. split.
    - left. cbn. eapply (ed_pass _ _ _ _ _ [_]); [discriminate|apply pa_no_start|]. apply ed_keep.
      eapply (ed_pass _ _ _ _ _ [_]); [discriminate|apply pa_end_out|]. apply ed_end.
    - cbn [keep_gain]. ring.
  Qed.
  Lemma inside_right : exists k, edit P tree (labelled [Token t m]) k put_in_region /\ k = region_cost P - low_match P * characters t.
  Proof.
    eexists. split.
    - left. cbn. eapply (ed_pass _ _ _ _ _ [_]); [discriminate|apply pa_start|]. apply ed_keep.
      eapply (ed_pass _ _ _ _ _ [_]); [discriminate|apply pa_end|]. apply ed_end.
    - cbn [keep_gain]. ring.
  Qed.
End OneToken.
