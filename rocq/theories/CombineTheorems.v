(** [combine_samples] for the edit-distance wrappers and for call sequences. *)

From Coq Require Import String.
From Coq Require Import List Bool Arith Lia ZArith Sorted Permutation QArith Qcanon.
From Verif Require Import Base SeqNodes Transforms PackedSeq PackedSeqProofs Numbered Graph GatedDag Decisions ConstraintSpec ConstraintDag
  PseudoParse EditDag EditSpec EditTheorems SelectionDag SelectionSpec SelectionTheorems RegionDecisions RegionProofs Html CallSequence CallSpec CallProofs
  CallBaselines CallTheorems Properties_Tree Properties_Regions Properties_Calls SystemSpec BuildSystem BuildProofs BuildKeys Combine CombineSpec CombineProofs CombineStats.
Import ListNotations.
Close Scope string_scope. Close Scope Qc_scope. Close Scope Q_scope. Close Scope Z_scope. Open Scope nat_scope. Open Scope list_scope.

Lemma designates_index {A} (l : list A) i x : designates l i x -> py_index l i = Ok x.
Proof.
  intros [j [Hj Hi]]. pose proof (nth_error_Some l j) as Hl. rewrite Hj in Hl.
  assert (j < length l) by (apply Hl; discriminate). unfold py_index.
  assert (E : (if (i <? 0)%Z then (i + Z.of_nat (length l))%Z else i) = Z.of_nat j).
  { destruct Hi as [-> | ->].
    - destruct (Z.ltb_spec (Z.of_nat j) 0); lia.
    - destruct (Z.ltb_spec (Z.of_nat j - Z.of_nat (length l)) 0); lia. }
  rewrite E. cbv zeta. destruct (Z.ltb_spec (Z.of_nat j) 0); [lia|]. rewrite Nat2Z.id, Hj. reflexivity.
Qed.

(** ** Edit-distance wrappers. *)
Section Edit.
  Context (P : parameters) (low exit : bool) (parse : text -> result (list (node mtype))) (context : text) (samples : list text) (index : Z) (sample : text).
  Context (trees : text -> list (node mtype)) (Hread : forall s, In s samples -> reads parse (context ++ s) (trees s)).
  Context (Hsample : designates samples index sample).
  Definition prototype_of : list (node mtype) := annotate low exit (trees sample) (length context).
  Definition target_of (s : text) : list (node mtype) := truncate_prefix_at_offset (trees s) (Z.of_nat (length context)).
  Definition edits_to (s : text) : Qc -> list decision -> Prop := edit P (labelled prototype_of) (labelled (target_of s)).

  Lemma sample_In : In sample samples.
  Proof. destruct Hsample as [j [Hj _]]. eapply nth_error_In; eauto. Qed.
  Lemma target_text s : In s samples -> Forall text_only (labelled (target_of s)) /\ render (target_of s) = s.
  Proof.
    intros Hs. destruct (Hread s Hs) as [_ [R D]]. split.
    - apply no_decisions_only. unfold labelled. rewrite erase_labs. unfold target_of. eapply suffix_no_decisions; eauto. apply truncate_suffix.
    - unfold target_of. rewrite C25_truncate_text, R. rewrite skipn_app, skipn_all, Nat.sub_diag. reflexivity.
  Qed.
  Lemma prototype_text : render prototype_of = sample.
  Proof.
    destruct (Hread sample sample_In) as [_ [R D]]. unfold prototype_of, annotate. rewrite C25_truncate_text.
    replace (render (if exit then _ else _)) with (render (trees sample)).
    - rewrite R, skipn_app, skipn_all, Nat.sub_diag. reflexivity.
    - destruct low, exit; rewrite ?insert_early_exit_text, ?insert_regions_text; reflexivity.
  Qed.
  Lemma prototype_context : firstn (length context) (render (trees sample)) = context.
  Proof. destruct (Hread sample sample_In) as [_ [R _]]. rewrite R, firstn_app, firstn_all, Nat.sub_diag. cbn. apply app_nil_r. Qed.
  Lemma no_exits : exit = false -> Forall (free is_exit) prototype_of.
  Proof.
    intros E. destruct (Hread sample sample_In) as [_ [_ D]]. unfold prototype_of, annotate. rewrite E.
    eapply suffix_free; [apply truncate_suffix|]. destruct low; [apply regions_free|]; now apply no_decisions_free.
  Qed.
  Lemma no_starts : low = false -> Forall (free is_start) prototype_of.
  Proof.
    intros E. destruct (Hread sample sample_In) as [_ [_ D]]. unfold prototype_of, annotate. rewrite E.
    eapply suffix_free; [apply truncate_suffix|]. destruct exit; [apply early_free|]; now apply no_decisions_free.
  Qed.
  Lemma enough_questions : low = true -> context ++ sample <> [] -> 2 <= length (questions (labelled prototype_of)).
  Proof.
    intros E Hn. destruct (Hread sample sample_In) as [_ [R D]]. rewrite questions_weight. unfold labelled. rewrite erase_labs.
    unfold prototype_of, annotate. rewrite E. unfold insert_regions. set (body := flat_map (region_subseq_node true allow_regions) (trees sample)).
    assert (Rb : render body = context ++ sample).
    { rewrite <- R, <- (insert_regions_text (trees sample) true allow_regions). unfold insert_regions. fold body. rewrite SeqNodes.render_app. cbn. now rewrite app_nil_r. }
    assert (X : exists body', render body' = context ++ sample /\
              (if exit then insert_early_exit (body ++ trailing true) true true else body ++ trailing true) = body' ++ [RegionStart; RegionEnd]).
    { destruct exit.
      - exists (insert_early_exit body true true). split; [now rewrite insert_early_exit_text|].
        unfold insert_early_exit. rewrite flat_map_app. cbn [trailing flat_map early_exit_node app]. reflexivity.
      - exists body. split; auto. }
    destruct X as [body' [Rb' ->]]. rewrite truncate_keeps_end.
    - rewrite map_app. assert (S : forall a b, list_sum (a ++ b) = list_sum a + list_sum b) by apply list_sum_app. rewrite S. cbn. lia.
    - rewrite Rb', app_length. lia.
    - now rewrite Rb'.
  Qed.

  Lemma edit_returns clock : exists fuel r, forall more, combine_samples (fuel + more) clock (edit_wrapper P low exit) parse context samples index = Some (Ok r).
  Proof.
    apply (combine_returns (edit_wrapper P low exit) parse context samples index sample trees (fun s Hs => proj1 (Hread s Hs)) (designates_index _ _ _ Hsample)
             prototype_of _ eq_refl (construct_edit_dag P) (fun _ _ => eq_refl) edits_to).
    - intros s Hs. apply edit_allows. now apply target_text.
    - intros s ds Hs Hc. apply choice_edit; auto. now apply target_text.
  Qed.
  Definition edit_spec fuel clock r := fun H =>
    combine_spec (edit_wrapper P low exit) parse context samples index sample trees (fun s Hs => proj1 (Hread s Hs)) (designates_index _ _ _ Hsample)
             prototype_of _ eq_refl (construct_edit_dag P) (fun _ _ => eq_refl) edits_to
     (fun s Hs => edit_allows P prototype_of (target_of s) (proj1 (target_text s Hs)))
     (fun s ds Hs Hc => choice_edit P (labelled prototype_of) (labelled (target_of s)) ds (proj1 (target_text s Hs)) Hc) fuel clock r H.
End Edit.

(** ** Call sequences. *)
Section Calls.
  Context (isspace : nat -> bool) (builtin : list text) (U : text -> text -> utilities) (parse : text -> result (list (node text))).
  Context (context : text) (samples : list text) (index : Z) (sample : text).
  Context (trees : text -> list (node text)) (Hread : forall s, In s samples -> reads parse (context ++ s) (trees s)).
  Context (Hsample : designates samples index sample).
  Definition calls_of (s : text) : list (node text) := make_callseq_tree isspace builtin (trees s) (length context).
  Definition selects_from (s : text) : Qc -> list decision -> Prop :=
    selection U (walks (labelled (calls_of sample))) (walks (labelled (strip_decision_nodes (calls_of s)))).

  Lemma calls_lines s : exists k expected ks seqs,
    line_start (render (trees s)) (length context) k /\ finds (truncate_prefix_at_offset (trees s) (Z.of_nat k)) ks /\
    Forall2 (marked_call isspace expected) ks seqs /\ calls_of s = lines seqs /\ Forall (Forall flat_node) seqs.
  Proof.
    destruct (C51_calls_extracted isspace builtin (trees s) (length context)) as (k & expected & ks & seqs & H1 & _ & H2 & _ & F & E).
    exists k, expected, ks, seqs. splits; auto. clear -F. induction F; constructor; auto. eapply marked_call_flat; eauto.
  Qed.
  Lemma calls_hyps : Forall no_exit (walks (labelled (calls_of sample))) /\ ~ begins_with_end (walks (labelled (calls_of sample))) /\
    forall s, Forall text_only (labelled (strip_decision_nodes (calls_of s))).
  Proof.
    destruct (calls_lines sample) as (k & expected & ks & seqs & _ & _ & _ & EP & HF). splits.
    - apply walks_no_exit. apply (lines_no_exit seqs HF). rewrite EP. apply erase_labs.
    - apply (lines_begin seqs). rewrite EP. apply erase_labs.
    - intros s. apply no_decisions_only. unfold labelled. rewrite erase_labs. apply strip_output_no_decisions.
  Qed.
  Lemma calls_exit_free : Forall (free is_exit) (calls_of sample).
  Proof.
    destruct (calls_lines sample) as (k & expected & ks & seqs & _ & _ & _ & EP & HF). rewrite EP. clear -HF. unfold lines. apply Forall_flat_map.
    eapply Forall_impl; [|exact HF]. intros seq F. constructor; [|repeat constructor]. apply free_group. eapply Forall_impl; [|exact F].
    intros n Hn. destruct n; cbn in *; auto; contradiction.
  Qed.
  Lemma call_returns clock : exists fuel r, forall more, combine_samples (fuel + more) clock (call_wrapper isspace builtin U) parse context samples index = Some (Ok r).
  Proof.
    destruct calls_hyps as [H1 [H2 H3]].
    apply (combine_returns (call_wrapper isspace builtin U) parse context samples index sample trees (fun s Hs => proj1 (Hread s Hs)) (designates_index _ _ _ Hsample)
             (calls_of sample) _ eq_refl (construct_selection_dag U) (fun _ _ => eq_refl) selects_from).
    - intros s Hs. apply selection_allows; auto.
    - intros s ds Hs Hc. apply choice_selection; auto.
  Qed.
  Definition call_spec fuel clock r := fun H =>
    combine_spec (call_wrapper isspace builtin U) parse context samples index sample trees (fun s Hs => proj1 (Hread s Hs)) (designates_index _ _ _ Hsample)
             (calls_of sample) _ eq_refl (construct_selection_dag U) (fun _ _ => eq_refl) selects_from
     (fun s Hs => selection_allows U (calls_of sample) (strip_decision_nodes (calls_of s)) (proj1 calls_hyps) (proj1 (proj2 calls_hyps)) (proj2 (proj2 calls_hyps) s))
     (fun s ds Hs Hc => choice_selection U (labelled (calls_of sample)) _ ds (proj1 calls_hyps) Hc) fuel clock r H.
End Calls.
