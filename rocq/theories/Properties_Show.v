(** C67: what the displays of a result show ([show_suggestion], [show_edits],
    [show_utilities], [show_token_probs], demo_runner.py:247-381).

    Specification vocabulary.  [page html] ([ShowSpec.v]) is what a reader of the page
    sees: the characters in order, each with the spans around it; it is [None] for
    markup that is not well-formed.  [under spans t] is the text [t] within
    [spans].  [heading_line i] is the heading for sample [i].
    [edit_block], [edit_told] ([ShowProofs.v]) and [call_block], [calls_told]
    ([ShowCalls.v]) say what is shown for a sample and what that says of it.
    [marks_empty marker displayed parts]: the parts, with [marker] for the empty
    regions. *)

From Coq Require Import String.
From Coq Require Import List Bool Arith Lia ZArith Sorted QArith Qcanon.
From Verif Require Import Base SeqNodes Transforms PackedSeq PackedSeqProofs Numbered Graph GatedDag PackedDag Convert MapDag Decisions ConstraintSpec ConstraintDag
  EditDag EditSpec EditReport EditReportProofs SelectionDag SelectionSpec SelectionReport SelectionReportProofs SelectionVerdicts RegionDecisions RegionProofs Html
  Properties_Tree Properties_Regions Properties_Edit Properties_Report Properties_Tree SystemSpec BuildSystem BuildProofs BuildKeys Combine CombineSpec CombineProofs CombineStats CombinePaths CombineTheorems
  DualSolver PseudoParse TokenProb CallSequence CallTheorems Properties_Calls Properties_EndToEnd Show ShowSpec ShowProofs ShowCalls ShowTokens.
Import ListNotations.
Close Scope string_scope. Close Scope Qc_scope. Close Scope Q_scope. Close Scope Z_scope. Open Scope nat_scope. Open Scope list_scope.

(** ** The suggestion.  The page shows the context, in its own span, and then the
    suggestion: its characters in order, those in regions within the span for
    regions, a marker for an empty region, and a line break.  Without a result,
    nothing is shown. *)
Theorem C67_edit_suggestion_shown :
  forall (P : parameters) (low exit : bool) parse (context : text) (samples : list text) (index : Z) (sample : text) trees fuel clock r,
    (forall s, In s samples -> reads parse (context ++ s) (trees s)) -> designates samples index sample ->
    combine_samples fuel clock (edit_wrapper P low exit) parse context samples index = Some (Ok r) ->
    (get_extracted_parts r = None -> show_suggestion render_solution_html (r_prototype r) (r_context_info r) (assignment_map r) = Ok None) /\
    forall parts, get_extracted_parts r = Some parts ->
      exists html displayed raw, show_suggestion render_solution_html (r_prototype r) (r_context_info r) (assignment_map r) = Ok (Some html) /\
        page html = Some (under [context_span] context ++ flat_map (fun p => under (region_stack (snd p)) (fst p)) displayed ++ line_break) /\
        marks_empty empty_marker displayed raw /\ annotated raw = annotated parts.
Proof.
  intros P low exit parse context samples index sample trees fuel clock r Hread Hsample H.
  pose proof (edit_spec P low exit parse context samples index sample trees Hread Hsample fuel clock r H) as S.
  destruct S as [Hc [Hp [_ S]]]. rewrite (prototype_context parse context samples index sample trees Hread Hsample) in Hc. unfold get_extracted_parts.
  destruct S as [[_ [Ha [Hs _]]]|(_ & asg & ds & sol & ks & u & Ha & Hs & _ & _ & _ & _ & _ & Hx & _)]; rewrite Hs, Ha.
  - split; [reflexivity|discriminate].
  - split; [discriminate|]. intros parts E. injection E as <-. destruct (suggestion_pieces _ asg _ Hx) as [body [displayed [E1 [E2 [_ E3]]]]].
    eexists _, displayed, (extracted_parts sol). unfold show_suggestion, render_solution_html. rewrite Hc, Hp. cbv iota zeta. rewrite E1. cbn [bind]. splits.
    + reflexivity.
    + apply piece_page. rewrite (app_assoc (escape context)), (app_assoc (tag context_span)).
      apply piece_app; [apply piece_span; [apply context_plain|apply context_opens|apply piece_text]|].
      apply piece_app; [exact E3|apply piece_break].
    + exact E2.
    + symmetry. apply grouped_same.
Qed.
Example C67_edit_suggestion_example :
  match combine_samples 100 (fun _ => false) (edit_wrapper ex_costs true false) letters (chars "<") [chars "a"; chars "b"] 0 with
  | Some (Ok r) => match show_suggestion render_solution_html (r_prototype r) (r_context_info r) (assignment_map r) with
                   | Ok (Some html) => page html = Some [(60, [context_span]); (97, [region_span; root_span]); (10, [])]
                   | _ => False
                   end
  | _ => False
  end.
Proof. vm_compute. reflexivity. Qed.
Print Assumptions C67_edit_suggestion_shown.

(** No page is made without a context to show, whatever the assignments: neither the suggestion nor
    the edits. *)
Theorem C67_context_required :
  forall (M St : Type) (prototype : storage M) (targets : list (storage M)) marker info (sy : @system St dkey dvalue (option einfo + cinfo)) asg html,
    render_solution_html prototype info asg = Ok html \/ render_pairwise_matching_html marker prototype targets info sy asg = Ok html ->
    exists context, info = Some context.
Proof. intros M St prototype targets marker [t|] sy asg html [H|H]; [now exists t|now exists t|discriminate|discriminate]. Qed.
Example C67_context_required_example :
  exists html, render_solution_html (pack [Token (chars "a") tt]) (Some (chars "x")) [((0, NodeInRegion), DFalse)] = Ok html /\ html <> [].
Proof. eexists. split; [vm_compute; reflexivity|discriminate]. Qed.
Print Assumptions C67_context_required.

Theorem C67_call_suggestion_shown :
  forall (isspace : nat -> bool) (builtin : list text) (U : text -> text -> utilities) parse (context : text) (samples : list text) (index : Z) (sample : text)
         trees fuel clock r,
    (forall s, In s samples -> reads parse (context ++ s) (trees s)) -> designates samples index sample ->
    combine_samples fuel clock (call_wrapper isspace builtin U) parse context samples index = Some (Ok r) ->
    let shown := show_suggestion (fun p _ a => render_calls_html p a) (r_prototype r) (r_context_info r) (assignment_map r) in
    (get_extracted_parts r = None -> shown = Ok None) /\
    forall parts, get_extracted_parts r = Some parts ->
      exists html displayed raw, shown = Ok (Some html) /\
        page html = Some (flat_map (fun p => under (region_stack (snd p)) (fst p)) displayed) /\
        marks_empty empty_marker displayed raw /\ annotated raw = annotated parts.
Proof.
  intros isspace builtin U parse context samples index sample trees fuel clock r Hread Hsample H shown. subst shown.
  pose proof (call_spec isspace builtin U parse context samples index sample trees Hread Hsample fuel clock r H) as S.
  destruct S as [_ [Hp [_ S]]]. unfold get_extracted_parts.
  destruct S as [[_ [Ha [Hs _]]]|(_ & asg & ds & sol & ks & u & Ha & Hs & _ & _ & _ & _ & _ & Hx & _)]; rewrite Hs, Ha.
  - split; [reflexivity|discriminate].
  - split; [discriminate|]. intros parts E. injection E as <-. destruct (suggestion_pieces _ asg _ Hx) as [body [displayed [E1 [E2 [_ E3]]]]].
    eexists _, displayed, (extracted_parts sol). unfold show_suggestion, render_calls_html. rewrite Hp, E1. cbn [bind]. splits.
    + reflexivity.
    + now apply piece_page.
    + exact E2.
    + symmetry. apply grouped_same.
Qed.
Print Assumptions C67_call_suggestion_shown.

(** ** The edits.  One block per sample, in order: a heading with the number of the
    sample, the context, and the groups of an edit of the suggestion into the sample,
    each under a span that says what it is.  The edit follows the decisions made, at
    the least cost, which is the reported one; the kept and deleted groups spell the
    suggestion, up to an exit that was decided.  (The texts of the groups for an action
    are those of the nodes an edit script reports with it, possibly with decorations of
    the same side.) *)
Theorem C67_edits_shown :
  forall (P : parameters) (low exit : bool) parse (context : text) (samples : list text) (index : Z) (sample : text) trees fuel clock r (marker : bool),
    (forall s, In s samples -> reads parse (context ++ s) (trees s)) -> designates samples index sample ->
    combine_samples fuel clock (edit_wrapper P low exit) parse context samples index = Some (Ok r) ->
    let prototype := prototype_of low exit context sample trees in
    let target := target_of context trees in
    render prototype = sample /\ (forall s, In s samples -> render (target s) = s) /\
    (assignment_map r = None -> show_edits (render_pairwise_matching_html marker) r = Ok None) /\
    forall asg, assignment_map r = Some asg ->
      exists html blocks ks, show_edits (render_pairwise_matching_html marker) r = Ok (Some html) /\ page html = Some (concat blocks) /\
        length ks = length samples /\ (forall sol, r_solution_info r = Some sol -> costs_unsorted (s_sample sol) = map Fin ks) /\
        Forall2 (fun x block => let '(i, (s, k)) := x in exists groups names,
            block = edit_block context (editing_marker marker) i groups names /\ Forall2 describes groups names /\
            edit_told P exit asg prototype (target s) k groups)
          (combine (seq 0 (length samples)) (combine samples ks)) blocks.
Proof.
  intros P low exit parse context samples index sample trees fuel clock r marker Hread Hsample H prototype target.
  pose proof (edit_spec P low exit parse context samples index sample trees Hread Hsample fuel clock r H) as S.
  splits.
  - eapply prototype_text; eauto.
  - intros s Hs. eapply target_text; eauto.
  - intros Ha. unfold show_edits. now rewrite Ha.
  - intros asg Ha.
    destruct S as [Hc [Hp [Ht S]]]. rewrite (prototype_context parse context samples index sample trees Hread Hsample) in Hc.
    destruct S as [[_ [Ha' _]]|(_ & asg' & ds & sol & ks' & u & Ha' & Hs & Na & _ & _ & _ & _ & _ & Hk & _ & Hi & _)]; [congruence|].
    assert (asg' = asg) by congruence. subst asg'.
    pose proof (edit_paths P low exit parse context samples index sample trees Hread Hsample fuel clock r asg H Ha) as Hpaths.
    assert (F : Forall2 (fun s dc => exists k p, best_path (construct_edit_dag P (pack prototype) (pack (target s))) (edit P (labelled prototype) (labelled (target s))) asg dc p k)
      samples (combine (map m_dag (removelast (tables (data (r_system r))))) (conversion_data (r_system r)))).
    { eapply Forall2_impl; [|exact Hpaths]. intros s dc [p [k B]]. eauto. }
    clear Hpaths. apply Forall2_choose in F as [ks [Lk F]].
    assert (Ek : ks = ks').
    { eapply (least_unique_all (edits_to P low exit context sample trees) asg samples); [|exact Hk].
      eapply Forall2_fst; [exact Lk| |exact F]. intros a c b [p [d [y [_ [_ [_ [_ [B _]]]]]]]]. exact B. }
    subst ks'.
    apply (Forall2_with _ (fun sk => pack (target (fst sk)))) in F.
    replace (map (fun sk : text * Qc => pack (target (fst sk))) (combine samples ks)) with (r_targets r) in F.
    2:{ rewrite Ht. clear -Lk. revert ks Lk. induction samples as [|s l IH]; intros [|k ks] Lk; try discriminate; [reflexivity|]. cbn in *. f_equal. apply IH. congruence. }
    unfold show_edits. rewrite Ha. unfold render_pairwise_matching_html. rewrite Hc, Hp. fold prototype.
    match goal with |- context [each ?f 0 _] => set (one := f) end.
    edestruct (each_pieces one
      (fun i sk out => exists groups names, out = edit_block context (editing_marker marker) i groups names /\ Forall2 describes groups names /\
            edit_told P exit asg prototype (target (fst sk)) (snd sk) groups) (combine samples ks)) with (i := 0) as [t [outs [R1 [R2 R3]]]].
    + eapply Forall2_impl; [|exact F]. intros [s k] [[d c] tg] [[p [dg [y [B1 [B2 [B3 [B4 [B5 B6]]]]]]]] Et] i. cbn [fst snd] in *. subst tg.
      destruct (edit_tells P exit asg prototype (target s) dg p k B1 B2 B4 B5 B6 Na) as [groups [G1 G2]].
      { intros E. apply (no_exits low exit parse context samples index sample trees Hread Hsample E). }
      destruct (edit_block_piece (pack prototype) (pack (target s)) p context (editing_marker marker) groups i G1) as [html [names [G3 [G4 G5]]]].
      eexists _, _. unfold one. rewrite B3. cbn [bind fst]. rewrite target_edges. cbn [bind]. rewrite edit_html_moved, G3. cbn [bind]. splits; [reflexivity|exact G5|].
      exists groups, names. splits; auto.
    + rewrite R1. cbn [bind]. exists t, outs, ks. splits; auto.
      * now apply piece_page.
      * intros sol' Hs'. assert (sol' = sol) by congruence. subst sol'. now rewrite Hi.
      * assert (L : length (combine samples ks) = length samples) by (rewrite combine_length, Lk; apply Nat.min_id). rewrite L in R3.
        eapply Forall2_impl; [|exact R3]. intros [i [s k]] b Hb. exact Hb.
Qed.
Example C67_edits_example :
  match combine_samples 100 (fun _ => false) (edit_wrapper ex_costs true false) letters (chars "<") [chars "a"; chars "b"] 0 with
  | Some (Ok r) => match show_edits (render_pairwise_matching_html true) r with
                   | Ok (Some html) => match page html with
                                       | Some l => map fst l = heading_line 0 ++ [10] ++ chars "<a" ++ [10] ++ heading_line 1 ++ [10] ++ chars "<" ++ [4960] ++ chars "ab" ++ [10]
                                       | None => False
                                       end
                   | _ => False
                   end
  | _ => False
  end.
Proof. vm_compute. reflexivity. Qed.
Print Assumptions C67_edits_shown.

(** ** The calls.  One block per sample, in order: a heading with the number of the
    sample and a line for each group of calls that were suggested, saying whether they
    are matched by the sample or wrong.  Behind the lines is a verdict on every token of
    the suggestion: the ones not in a region are not selected, the others are matched
    or wrong, the lines list them in order, the matched ones occur in the sample in this
    order, and what the verdicts cost is the least cost, which is the reported one. *)
Theorem C67_calls_shown :
  forall (isspace : nat -> bool) (builtin : list text) (U : text -> text -> utilities) parse (context : text) (samples : list text) (index : Z) (sample : text)
         trees fuel clock r,
    (forall s, In s samples -> reads parse (context ++ s) (trees s)) -> designates samples index sample ->
    combine_samples fuel clock (call_wrapper isspace builtin U) parse context samples index = Some (Ok r) ->
    let calls := calls_of isspace builtin context trees in
    let target s := strip_decision_nodes (calls s) in
    let shown := show_edits (fun p ts _ sy a => render_pairwise_calls_html p ts sy a) r in
    (assignment_map r = None -> shown = Ok None) /\
    forall asg, assignment_map r = Some asg ->
      exists html blocks ks, shown = Ok (Some html) /\ page html = Some (concat blocks) /\
        length ks = length samples /\ (forall sol, r_solution_info r = Some sol -> costs_unsorted (s_sample sol) = map Fin ks) /\
        Forall2 (fun x block => let '(i, (s, k)) := x in exists groups verdicts,
            block = call_block i groups /\ calls_told U asg (calls sample) (target s) k verdicts /\
            concat (map sg_tokens (matched_groups groups)) = verdict_texts Matched verdicts /\
            concat (map sg_tokens (wrong_groups groups)) = verdict_texts Wrong verdicts)
          (combine (seq 0 (length samples)) (combine samples ks)) blocks.
Proof.
  intros isspace builtin U parse context samples index sample trees fuel clock r Hread Hsample H calls target shown. subst shown.
  pose proof (call_spec isspace builtin U parse context samples index sample trees Hread Hsample fuel clock r H) as S.
  splits.
  - intros Ha. unfold show_edits. now rewrite Ha.
  - intros asg Ha.
    destruct S as [Hc [Hp [Ht S]]].
    destruct S as [[_ [Ha' _]]|(_ & asg' & ds & sol & ks' & u & Ha' & Hs & Na & _ & _ & _ & _ & _ & Hk & _ & Hi & _)]; [congruence|].
    assert (asg' = asg) by congruence. subst asg'.
    pose proof (call_paths isspace builtin U parse context samples index sample trees Hread Hsample fuel clock r asg H Ha) as Hpaths.
    assert (F : Forall2 (fun s dc => exists k p, best_path (construct_selection_dag U (pack (calls sample)) (pack (target s)))
        (selection U (walks (labelled (calls sample))) (walks (labelled (target s)))) asg dc p k)
      samples (combine (map m_dag (removelast (tables (data (r_system r))))) (conversion_data (r_system r)))).
    { eapply Forall2_impl; [|exact Hpaths]. intros s dc [p [k B]]. eauto. }
    clear Hpaths. apply Forall2_choose in F as [ks [Lk F]].
    assert (Ek : ks = ks').
    { eapply (least_unique_all (fun s => selection U (walks (labelled (calls sample))) (walks (labelled (target s)))) asg samples); [|exact Hk].
      eapply Forall2_fst; [exact Lk| |exact F]. intros a c b [p [d [y [_ [_ [_ [_ [B _]]]]]]]]. exact B. }
    subst ks'.
    apply (Forall2_with _ (fun sk => pack (target (fst sk)))) in F.
    replace (map (fun sk : text * Qc => pack (target (fst sk))) (combine samples ks)) with (r_targets r) in F.
    2:{ rewrite Ht. clear -Lk. revert ks Lk. induction samples as [|s l IH]; intros [|k ks] Lk; try discriminate; [reflexivity|]. cbn in *. f_equal. apply IH. congruence. }
    unfold show_edits. rewrite Ha. unfold render_pairwise_calls_html. rewrite Hp. fold calls.
    match goal with |- context [each ?f 0 _] => set (one := f) end.
    edestruct (each_pieces one
      (fun i sk out => exists groups verdicts, out = call_block i groups /\ calls_told U asg (calls sample) (target (fst sk)) (snd sk) verdicts /\
            concat (map sg_tokens (matched_groups groups)) = verdict_texts Matched verdicts /\
            concat (map sg_tokens (wrong_groups groups)) = verdict_texts Wrong verdicts) (combine samples ks)) with (i := 0) as [t [outs [R1 [R2 R3]]]].
    + eapply Forall2_impl; [|exact F]. intros [s k] [[d c] tg] [[p [dg [y [B1 [B2 [B3 [B4 [B5 B6]]]]]]]] Et] i. cbn [fst snd] in *. subst tg.
      assert (Hsel : selection U (walks (labelled (calls sample))) (walks (labelled (target s))) k (path_assignments p)).
      { destruct (calls_hyps isspace builtin context sample trees) as [H1 [H2 H3]].
        destruct (selection_allows U (calls sample) (target s) H1 H2 (H3 s)) as [d' [E' A]]. assert (d' = dg) by congruence. subst d'.
        destruct (al_sound _ _ _ A p B2) as [k' [E1 E2]]. assert (k' = k) by congruence. now subst k'. }
      destruct (calls_tell U asg (calls sample) (target s) dg p k B1 B2 B4 Hsel B5 B6) as [groups [ss [G1 [G2 [G3 [G4 _]]]]]].
      eexists _, _. unfold one. rewrite B3. cbn [bind fst]. rewrite target_edges. cbn [bind]. rewrite match_groups_moved, G1. cbn [bind]. splits; [reflexivity|apply call_block_piece|].
      exists groups, (on_tokens ss). splits; auto.
    + rewrite R1. cbn [bind]. exists t, outs, ks. splits; auto.
      * now apply piece_page.
      * intros sol' Hs'. assert (sol' = sol) by congruence. subst sol'. now rewrite Hi.
      * assert (L : length (combine samples ks) = length samples) by (rewrite combine_length, Lk; apply Nat.min_id). rewrite L in R3.
        eapply Forall2_impl; [|exact R3]. intros [i [s k]] b Hb. exact Hb.
Qed.
Example C67_calls_example :
  match combine_samples 100 (fun _ => false) (call_wrapper ascii_space [] (call_utilities (Q2Qc (1 # 4)))) call_parse (chars "x" ++ [10]) [chars "f()"; chars "g"] 0 with
  | Some (Ok r) => match show_edits (fun p ts _ sy a => render_pairwise_calls_html p ts sy a) r with
                   | Ok (Some html) => match page html with
                                       | Some l => map fst l = heading_line 0 ++ [10] ++ chars "MATCHED: f (  )" ++ [10; 10] ++ heading_line 1 ++ [10] ++ chars "WRONG: f (  )" ++ [10; 10]
                                       | None => False
                                       end
                   | _ => False
                   end
  | _ => False
  end.
Proof. vm_compute. reflexivity. Qed.
Example C67_call_suggestion_example :
  match combine_samples 100 (fun _ => false) (call_wrapper ascii_space [] (call_utilities (Q2Qc (1 # 4)))) call_parse (chars "x" ++ [10]) [chars "f()"; chars "g"] 0 with
  | Some (Ok r) => match show_suggestion (fun p _ a => render_calls_html p a) (r_prototype r) (r_context_info r) (assignment_map r) with
                   | Ok (Some html) => page html = Some (under [region_span; root_span] (chars "f()") ++ under [root_span] [10])
                   | _ => False
                   end
  | _ => False
  end.
Proof. vm_compute. reflexivity. Qed.
Print Assumptions C67_calls_shown.

(** ** The utilities.  One line per sample, in order, with its number and minus the
    least cost of editing the suggestion into it.  ([rounded] is how a number is
    written.) *)
Theorem C67_edit_utilities_shown :
  forall (P : parameters) (low exit : bool) parse (context : text) (samples : list text) (index : Z) (sample : text) trees fuel clock r (rounded : cost -> text),
    (forall s, In s samples -> reads parse (context ++ s) (trees s)) -> designates samples index sample ->
    combine_samples fuel clock (edit_wrapper P low exit) parse context samples index = Some (Ok r) ->
    (assignment_map r = None -> show_utilities rounded r = Ok None) /\
    forall asg, assignment_map r = Some asg ->
      exists ks, Forall2 (fun s k => least_cost (edit P (labelled (prototype_of low exit context sample trees)) (labelled (target_of context trees s))) asg k) samples ks /\
        show_utilities rounded r =
          Ok (Some (map (fun x => chars "Target " ++ number_text (fst x) ++ chars ": " ++ rounded (Fin (- snd x)%Qc)) (combine (seq 0 (length samples)) ks))).
Proof.
  intros P low exit parse context samples index sample trees fuel clock r rounded Hread Hsample H.
  pose proof (edit_spec P low exit parse context samples index sample trees Hread Hsample fuel clock r H) as S. split.
  - intros Ha. unfold show_utilities. now rewrite Ha.
  - intros asg Ha. destruct S as [_ [_ [_ S]]].
    destruct S as [[_ [Hn _]]|(Hq & asg' & ds & sol & ks & u & Ha' & Hs & _ & _ & _ & _ & _ & _ & Hk & _ & Hi & _)]; [congruence|].
    assert (asg' = asg) by congruence. subst asg'. exists ks. split; [exact Hk|]. unfold show_utilities. rewrite Ha, Hs, Hi. cbn [costs_unsorted s_sample].
    apply utility_lines. clear -Hk. induction Hk; cbn; congruence.
Qed.
Theorem C67_call_utilities_shown :
  forall (isspace : nat -> bool) (builtin : list text) (U : text -> text -> utilities) parse (context : text) (samples : list text) (index : Z) (sample : text)
         trees fuel clock r (rounded : cost -> text),
    (forall s, In s samples -> reads parse (context ++ s) (trees s)) -> designates samples index sample ->
    combine_samples fuel clock (call_wrapper isspace builtin U) parse context samples index = Some (Ok r) ->
    let calls := calls_of isspace builtin context trees in
    (assignment_map r = None -> show_utilities rounded r = Ok None) /\
    forall asg, assignment_map r = Some asg ->
      exists ks, Forall2 (fun s k => least_cost (selection U (walks (labelled (calls sample))) (walks (labelled (strip_decision_nodes (calls s))))) asg k) samples ks /\
        show_utilities rounded r =
          Ok (Some (map (fun x => chars "Target " ++ number_text (fst x) ++ chars ": " ++ rounded (Fin (- snd x)%Qc)) (combine (seq 0 (length samples)) ks))).
Proof.
  intros isspace builtin U parse context samples index sample trees fuel clock r rounded Hread Hsample H calls.
  pose proof (call_spec isspace builtin U parse context samples index sample trees Hread Hsample fuel clock r H) as S. split.
  - intros Ha. unfold show_utilities. now rewrite Ha.
  - intros asg Ha. destruct S as [_ [_ [_ S]]].
    destruct S as [[_ [Hn _]]|(Hq & asg' & ds & sol & ks & u & Ha' & Hs & _ & _ & _ & _ & _ & _ & Hk & _ & Hi & _)]; [congruence|].
    assert (asg' = asg) by congruence. subst asg'. exists ks. split; [exact Hk|]. unfold show_utilities. rewrite Ha, Hs, Hi. cbn [costs_unsorted s_sample].
    apply utility_lines. clear -Hk. induction Hk; cbn; congruence.
Qed.
Example C67_utilities_example :
  match combine_samples 100 (fun _ => false) (call_wrapper ascii_space [] (call_utilities (Q2Qc (1 # 4)))) call_parse (chars "x" ++ [10]) [chars "f()"; chars "g"] 0 with
  | Some (Ok r) => show_utilities (fun c => match c with Fin q => if Qclt_le_dec q 0 then chars "less" else chars "more" | _ => chars "?" end) r =
                     Ok (Some [chars "Target 0: more"; chars "Target 1: less"])
  | _ => False
  end.
Proof. vm_compute. reflexivity. Qed.
Print Assumptions C67_edit_utilities_shown.
Print Assumptions C67_call_utilities_shown.

(** ** The probabilities of tokens.  The page shows the context and then pieces of text,
    each on a background for its value.  They are the tokens given, or, if asked to
    align them with the parsed text, the tokens and decorations of the text after the
    context: a token has the sum of the values of the given tokens that touch it, a
    decoration has the value 0.  Either way the pieces spell the given tokens.  (A line
    break is shown with an arrow before it; [percent] is how the shade for a value is
    written.) *)
Theorem C67_token_probs_shown :
  forall (percent : Qc -> text) parse (context : text) (parts : list (text * Qc)) (realign : bool) (ns : list (node mtype)),
    (forall q, Forall (fun c => c <> 60 /\ c <> 62) (percent q)) ->
    reads parse (context ++ text_of parts) ns ->
    let tree := truncate_prefix_at_offset ns (Z.of_nat (length context)) in
    exists html shown, show_token_probs percent parse context parts realign = Ok html /\
      page html = Some (under [mono_span] context ++ flat_map (fun x => under [colour_span percent (snd x); probs_span] (arrowed (fst x))) shown) /\
      text_of shown = text_of parts /\
      (realign = false -> shown = parts) /\
      (realign = true -> render tree = text_of parts /\
        Forall2 (fun kn x => fst x = own_text (snd kn) /\
                   (Forall (fun n => is_text n = true -> own_text n <> []) (nodes_of tree) ->
                    snd x = if TokenProb.is_token (snd kn) then touching parts (chars_before tree (fst kn)) (length (fst x)) else 0%Qc))
          (text_positions tree) shown).
Proof.
  intros percent parse context parts realign ns HP [R1 [R2 _]] tree.
  assert (RT : render tree = text_of parts) by (unfold tree; rewrite C25_truncate_text, R2, skipn_app, skipn_all, Nat.sub_diag; reflexivity).
  unfold show_token_probs. destruct realign.
  - destruct (proj2 (C32_align_succeeds_iff_spells mtype parts tree false)) as [r Er]; [exists []; rewrite app_nil_r; split; [symmetry; exact RT|discriminate]|].
    destruct (flatten_values parts tree false r Er) as [l [El Fl]].
    destruct (C32_flatten_lists_text mtype parts tree false r Er) as [l' [El' [_ Tl]]]. assert (l' = l) by congruence. subst l'.
    unfold text_of in R1. rewrite R1. cbn [bind]. fold tree. rewrite Er. cbn [bind]. rewrite El. cbn [bind]. eexists _, l. splits.
    + reflexivity.
    + apply piece_page. now apply probs_piece.
    + congruence.
    + discriminate.
    + intros _. split; [exact RT|]. destruct (C32_one_entry_per_token mtype parts tree false r Er) as [Nr _].
      assert (HI : forall kn, In kn (text_positions tree) -> nth_error (nodes_of tree) (fst kn) = Some (snd kn)).
      { intros [k n] Hk. unfold text_positions in Hk. apply filter_In in Hk as [Hk _]. cbn [fst snd].
        apply (In_nth_error) in Hk as [j Hj]. assert (Hj' := Hj).
        apply (f_equal (option_map fst)) in Hj. apply (f_equal (option_map snd)) in Hj'. rewrite <- nth_error_map in Hj, Hj'.
        rewrite map_fst_combine in Hj by now rewrite seq_length. rewrite map_snd_combine in Hj' by now rewrite seq_length.
        cbn [option_map fst snd] in Hj, Hj'. assert (j < length (nodes_of tree)) by (rewrite <- (seq_length (length (nodes_of tree)) 0); apply nth_error_Some; congruence).
        apply nth_error_nth with (d := 0) in Hj. rewrite seq_nth in Hj by assumption. cbn in Hj. now subst j. }
      revert HI Fl. clear -Nr Er. induction 2 as [|[k n] [t v] kns l [H1 H2] F IH]; constructor; auto.
      * split; [exact H1|]. intros Hne. cbn [fst snd] in *. destruct (TokenProb.is_token n) eqn:Et; [|exact H2].
        destruct n as [| t' m | | | |]; try discriminate. cbn [own_text] in H1. subst t'.
        assert (E := C32_entry_values mtype parts tree false r k t m Hne Er (HI (k, Token t m) (or_introl eq_refl))).
        eapply NoDup_map_inj; eauto.
      * apply IH. intros kn Hkn. apply HI. now right.
  - cbn [bind]. eexists _, parts. splits; auto; try discriminate. apply piece_page. now apply probs_piece.
Qed.
Example C67_token_probs_example :
  match show_token_probs (fun q => if Qclt_le_dec q 0 then chars "1" else chars "0") letters (chars "<") [(chars "ab", (-(1))%Qc); (chars "c", 0%Qc)] true with
  | Ok html => page html = Some (under [mono_span] (chars "<") ++ under [colour_span (fun _ => chars "1") 0%Qc; probs_span] (chars "ab") ++
                                 under [colour_span (fun _ => chars "0") 0%Qc; probs_span] (chars "c"))
  | _ => False
  end.
Proof. vm_compute. reflexivity. Qed.
Print Assumptions C67_token_probs_shown.
