(** Property theorems about the baselines for a suggestion, built from raw text (C66).

    Specification vocabulary: from [PrefixBaselines.v], the rules of the prefix
    baselines ([stops_before], [stops_after], [stops_at_best], [before]); from
    [RegionBaselines.v], which tokens a region baseline singles out; from
    [CallSpec.v], what is shown of calls ([shows]); [reads], [parseable]. *)

From Coq Require Import String.
From Coq Require Import List Bool Arith Lia ZArith QArith Qcanon.
From Verif Require Import Base SeqNodes Transforms PackedSeq PackedSeqProofs Numbered Graph GatedDag PackedDag Convert Decisions ConstraintSpec ConstraintDag
  TokenProb PseudoParse EditDag EditSpec SelectionDag RegionDecisions RegionProofs PrefixBaselines PrefixTheorems Html CallSequence CallSpec CallProofs CallBaselines CallTheorems
  Properties_Tree Properties_Regions Properties_Calls Properties_Edit Properties_Baselines SystemSpec BuildSystem BuildKeys DualSolver Combine CombineSpec CombineStats CombineProofs CombineTheorems
  Properties_EndToEnd RegionBaselines RegionBaselineProofs RegionBaselineSolve Properties_RegionBaselines Lexer ParserTools Properties_ParserTools
  RunBaselines RunBaselineProofs.
Import ListNotations.
Close Scope string_scope. Close Scope Qc_scope. Close Scope Q_scope. Close Scope Z_scope. Open Scope nat_scope. Open Scope list_scope.

(** ** Specification. *)
(** What the prefix wrapper was asked to build. *)
Definition prefix_configured (cfg : prefix_config) (b : prefix_baseline) : Prop :=
  match b with
  | ProbThreshold t => In t (token_prob_thresholds cfg)
  | PrefixProbThreshold t => In t (prefix_prob_thresholds cfg)
  | Intellicode => intellicode cfg = true
  | MaxAvgLogProb => max_avg_log_prob cfg = true
  | CharacterLength n => In n (max_characters cfg)
  | LineLength n => In n (max_lines cfg)
  end.
(** Where each of them stops. *)
Definition prefix_stops {M} (low : Qc -> Qc -> bool) (low_at : nat -> Qc -> bool) (all : list (lnode M)) (aligned : list (nat * Qc))
    (b : prefix_baseline) (o : option nat) : Prop :=
  match b with
  | ProbThreshold t => stops_before all (low_token all aligned (fun x => low x t)) o
  | PrefixProbThreshold t => stops_before all (low_prefix all aligned (fun x => low x t)) o
  | Intellicode => stops_before all (low_for_position all aligned low_at) o
  | MaxAvgLogProb => stops_at_best all aligned o
  | CharacterLength n => stops_after all (characters_reached all n) o
  | LineLength n => stops_after all (lines_reached all n) o
  end.
(** The texts of nodes, none highlighted. *)
Definition plainly {M} (l : list (lnode M)) : list (text * bool) :=
  flat_map (fun x => match text_in x with Some t => [(t, false)] | None => [] end) l.

Section Shared.
  Context (parse : text -> result (list (node mtype))) (context : text) (parts : list (text * Qc)) (ns : list (node mtype)).
  Notation sample := (concat (map fst parts)).
  Hypothesis Hread : reads parse (context ++ sample) ns.
  Let trees := fun _ : text => ns.
  Lemma one_read : forall s, In s [sample] -> reads parse (context ++ s) (trees s).
  Proof using Hread. intros s [<-|[]]. exact Hread. Qed.
  Lemma one_designated : designates [sample] 0 sample.
  Proof. exists 0. split; auto. Qed.
  Lemma shown_sample low exit : render (annotate low exit ns (length context)) = sample.
  Proof using Hread. exact (prototype_text low exit parse context [sample] 0%Z sample trees one_read one_designated). Qed.
  Lemma context_kept : firstn (length context) (render ns) = context.
  Proof using Hread. exact (prototype_context parse context [sample] 0%Z sample trees one_read one_designated). Qed.
  Lemma suggestion_text : Forall text_only (labelled (truncate_prefix_at_offset ns (Z.of_nat (length context)))) /\
    render (truncate_prefix_at_offset ns (Z.of_nat (length context))) = sample.
  Proof using Hread. exact (target_text parse context [sample] trees one_read sample (or_introl eq_refl)). Qed.
  Lemma text_of_parts : text_of parts = sample.
  Proof. reflexivity. Qed.
  Lemma aligned_ok low exit : exists aligned, align_token_log_probs parts (pack (annotate low exit ns (length context))) false = Ok aligned.
  Proof using Hread. apply C32_align_succeeds_iff_spells. exists []. rewrite app_nil_r, shown_sample. split; auto. Qed.
End Shared.

(** ** C66.  Truncating baselines. *)
Lemma prefix_one (M : Type) (low : Qc -> Qc -> bool) low_at (prototype : list (node M)) parts aligned b :
  align_token_log_probs parts (pack prototype) false = Ok aligned ->
  exists o asg, prefix_assignment low low_at (pack prototype) aligned b = Ok asg /\ marks (in_preorder prototype) o asg /\
    prefix_stops low low_at (in_preorder prototype) aligned b o.
Proof.
  intros Ha. destruct b as [t|t| | |n|n]; cbn [prefix_assignment prefix_stops].
  - exact (C50_token_probability M prototype parts aligned _ false Ha).
  - exact (C50_token_probability M prototype parts aligned _ true Ha).
  - exact (C50_intellicode M prototype parts aligned _ Ha).
  - exact (C50_max_average M prototype parts aligned Ha).
  - exact (C50_characters M prototype n).
  - exact (C50_lines M prototype n).
Qed.
Lemma prefix_names_exit {M} low low_at (all : list (lnode M)) aligned b e : prefix_stops low low_at all aligned b (Some e) -> exit_at all e.
Proof. destruct b; cbn [prefix_stops]; intros H; apply H. Qed.
Lemma prefix_baselines_configured cfg b : In b (prefix_baselines cfg) <-> prefix_configured cfg b.
Proof.
  assert (Opt : forall (c : bool) (x : prefix_baseline), In b (if c then [x] else []) <-> c = true /\ b = x).
  { intros [] x; cbn; [split; [intros [<-|[]]; auto|intros [_ ->]; auto]|split; [intros []|intros [C _]; discriminate]]. }
  unfold prefix_baselines. rewrite !in_app_iff, !in_map_iff, !Opt. destruct b as [t|t| | |n|n]; cbn [prefix_configured]; split;
    try (intros [[? [E H]]|[[? [E H]]|[[H E]|[[H E]|[[? [E H]]|[? [E H]]]]]]]; try discriminate E; try (injection E as ->); auto; fail);
    intros H; eauto 9.
Qed.

Theorem C66_prefix_baselines :
  forall (P : parameters) (low : Qc -> Qc -> bool) (low_at : nat -> Qc -> bool) (cfg : prefix_config) parse (context : text) (parts : list (text * Qc)) ns,
    reads parse (context ++ concat (map fst parts)) ns ->
    exists results, run_prefix_baselines P low low_at cfg parse context parts = Some (Ok results) /\
    (also_insert_uncertainty_regions cfg = true -> results = []) /\
    (also_insert_uncertainty_regions cfg = false ->
      NoDup (map fst results) /\ (forall b, In b (map fst results) <-> prefix_configured cfg b) /\
      let prototype := annotate false true ns (length context) in
      exists aligned, align_token_log_probs parts (pack prototype) false = Ok aligned /\
      forall b r, In (b, r) results ->
        b_context_info r = Some context /\ b_prototype r = pack prototype /\
        b_prototype_as_target r = pack (truncate_prefix_at_offset ns (Z.of_nat (length context))) /\
        exists o rest, prefix_stops low low_at (in_preorder prototype) aligned b o /\
          marks (in_preorder prototype) o (b_assignment_map r) /\
          b_extracted_parts r = plainly (match o with Some e => before (in_preorder prototype) e | None => in_preorder prototype end) /\
          concat (map fst parts) = concat (map fst (b_extracted_parts r)) ++ rest /\ (o = None -> rest = [])).
Proof.
  intros P low low_at cfg parse context parts ns Hr. unfold run_prefix_baselines, build_baselines. rewrite (proj1 Hr). cbn [w_prototype w_target edit_wrapper].
  unfold build_prefix_baselines. destruct (also_insert_uncertainty_regions cfg) eqn:Ea.
  { cbn [collect_results]. exists []. splits; auto. discriminate. }
  set (prototype := annotate false true ns (length context)). rewrite (context_kept parse context parts ns Hr).
  destruct (aligned_ok parse context parts ns Hr false true) as [aligned Al]. fold prototype in Al. rewrite Al. cbn [bind].
  pose proof (fun b => prefix_one _ low low_at prototype parts aligned b Al) as One.
  destruct (collect_ok (prefix_assignment low low_at (pack prototype) aligned) (prefix_baselines cfg)) with (acc := @nil (prefix_baseline * assignments))
    as [l [E [N [Hk Hv]]]].
  { intros b _. destruct (One b) as [o [asg [H _]]]. eauto. } { constructor. } { intros ? ? []. }
  rewrite E.
  assert (Shown : forall b asg, prefix_assignment low low_at (pack prototype) aligned b = Ok asg ->
    exists o, prefix_stops low low_at (in_preorder prototype) aligned b o /\ marks (in_preorder prototype) o asg /\
      extract_sequence_with_regions (pack prototype) asg [] =
        (plainly (match o with Some e => before (in_preorder prototype) e | None => in_preorder prototype end), None)).
  { intros b asg Hb. destruct (One b) as [o [asg' [H1 [H2 H3]]]]. assert (asg' = asg) by congruence. subst asg'. exists o. splits; auto.
    apply C50_prefix_shown; auto.
    - intros i. apply (exits_only ns context (proj2 (proj2 Hr))).
    - intros i. apply (exits_only ns context (proj2 (proj2 Hr))).
    - intros e ->. eapply prefix_names_exit; eauto. }
  destruct (collect_results_ok (Some context) (pack prototype) (pack (truncate_prefix_at_offset ns (Z.of_nat (length context)))) l) as [results [R1 [R2 R3]]].
  { intros b asg Hi. destruct (Shown b asg (Hv _ _ Hi)) as [o [_ [_ H]]]. eauto. }
  exists results. split; [f_equal; exact R1|]. split; [discriminate|]. intros _. rewrite R2. split; auto. split.
  { intros b. rewrite Hk, <- prefix_baselines_configured. cbn. tauto. }
  exists aligned. split; auto. intros b r Hi. destruct (R3 b r Hi) as [A [B [C [D F]]]]. splits; auto.
  destruct (Shown b (b_assignment_map r) (Hv _ _ A)) as [o [O1 [O2 O3]]].
  assert (Ep : b_extracted_parts r = plainly (match o with Some e => before (in_preorder prototype) e | None => in_preorder prototype end)) by congruence.
  pose proof (nodes_render prototype) as Ht. unfold prototype in Ht at 2. rewrite (shown_sample parse context parts ns Hr) in Ht.
  destruct o as [e|].
  - destruct (before_prefix (in_preorder prototype) e) as [after Eb]; [apply (nodes_sorted _ 0), labelled_numbered|].
    exists (Some e), (RegionProofs.texts after). splits; auto; [|discriminate].
    rewrite Ep. change (plainly (before (in_preorder prototype) e)) with (shown_of (before (in_preorder prototype) e)).
    rewrite shown_of_text, <- texts_app, <- Eb. now symmetry.
  - exists None, []. splits; auto. rewrite Ep, app_nil_r. change (plainly (in_preorder prototype)) with (shown_of (in_preorder prototype)).
    rewrite shown_of_text. now symmetry.
Qed.

(** From raw text in any supported language. *)
Theorem C66_prefix_baselines_raw_text :
  forall (isupper islower isdigit isspace digit : nat -> bool) (l : helper_language) (flatten : bool)
         (P : parameters) (low : Qc -> Qc -> bool) (low_at : nat -> Qc -> bool) (cfg : prefix_config) (context : text) (parts : list (text * Qc)),
    ascii_digits digit -> isspace 10 = true -> parseable l context [concat (map fst parts)] ->
    also_insert_uncertainty_regions cfg = false ->
    exists results,
      run_prefix_baselines P low low_at cfg (parse_to_nodes isupper islower isdigit isspace digit l flatten) context parts = Some (Ok results) /\
      NoDup (map fst results) /\ (forall b, In b (map fst results) <-> prefix_configured cfg b) /\
      forall b r, In (b, r) results -> b_context_info r = Some context /\ Forall (fun p => snd p = false) (b_extracted_parts r) /\
        exists rest, concat (map fst parts) = concat (map fst (b_extracted_parts r)) ++ rest.
Proof.
  intros u lo d sp digit l f P low low_at cfg context parts H1 H2 H3 H4.
  destruct (parseable_reads u lo d sp digit H1 H2 l f context [concat (map fst parts)] H3) as [trees Ht].
  destruct (Ht _ (or_introl eq_refl)) as [Hr _].
  destruct (C66_prefix_baselines P low low_at cfg _ context parts _ Hr) as [results [E [_ H]]]. exists results. split; auto.
  destruct (H H4) as [N [Hk [aligned [_ Hb]]]]. splits; auto. intros b r Hi. destruct (Hb b r Hi) as [A [_ [_ [o [rest [_ [_ [Ep [Et _]]]]]]]]]. splits; eauto.
  rewrite Ep. apply shown_of_flags.
Qed.
Definition ex_cfg : prefix_config := mkPrefixConfig false [Q2Qc (-2)] [Q2Qc (-2)] true true [1] [1].
Definition ex_parts : list (text * Qc) := [(chars "f(", Q2Qc (-1)); (chars "x", Q2Qc (-1)); (chars ")", Q2Qc (-3))].
Example C66_prefix_example : parseable (Parsed Python) (chars "y = ") [concat (map fst ex_parts)] /\
  match run_prefix_baselines ex_costs below (fun n x => below x (Q2Qc (-2))) ex_cfg
          (parse_to_nodes ex_up ex_low ex_dig ex_spc ex_dig (Parsed Python) false) (chars "y = ") ex_parts with
  | Some (Ok results) => map (fun br => (fst br, concat (map fst (b_extracted_parts (snd br))))) results
  | _ => []
  end = [(ProbThreshold (Q2Qc (-2)), chars "f(x"); (PrefixProbThreshold (Q2Qc (-2)), chars "f("); (Intellicode, chars "f(x"); (MaxAvgLogProb, chars "f");
         (CharacterLength 1, chars "f"); (LineLength 1, chars "f(x)")].
Proof. split; [left; discriminate|]. vm_compute. reflexivity. Qed.
Print Assumptions C66_prefix_baselines.
Print Assumptions C66_prefix_baselines_raw_text.

(** ** C66.  Highlighting baselines. *)
Definition region_configured (thresholds fractions : list Qc) (cutoffs : list (Z * Z)) (b : baseline) : Prop :=
  match b with
  | Nonempty t | Cumulative t => In t thresholds
  | ExampleFraction f => In f fractions
  | Cutoff ancestor child => In (ancestor, child) cutoffs
  end.
Lemma baselines_configured thresholds fractions cutoffs b :
  In b (baselines thresholds fractions cutoffs) <-> region_configured thresholds fractions cutoffs b.
Proof.
  unfold baselines. rewrite !in_app_iff, in_flat_map, !in_map_iff. split.
  - intros [[t [H [E|[E|[]]]]]|[[f [E H]]|[[x y] [E H]]]]; subst b; cbn; auto.
  - destruct b as [t|t|f|x y]; cbn [region_configured]; intros H.
    + left. exists t. cbn. auto.
    + left. exists t. cbn. auto.
    + right. left. eauto.
    + right. right. exists (x, y). auto.
Qed.

Theorem C66_region_baselines :
  forall (P : parameters) (low : Qc -> Qc -> bool) thresholds fractions (cutoffs : list (Z * Z)) parse (context : text) (parts : list (text * Qc)) ns,
    reads parse (context ++ concat (map fst parts)) ns -> context ++ concat (map fst parts) <> [] ->
    let run fuel clocks := run_region_baselines P fuel clocks low thresholds fractions cutoffs parse context parts in
    let prototype := annotate true false ns (length context) in
    let target := truncate_prefix_at_offset ns (Z.of_nat (length context)) in
    (forall clocks, exists fuel r, (forall more, run (fuel + more) clocks = Some r) /\
      ((forall c, In c cutoffs -> (1 <= fst c /\ 1 <= snd c)%Z) -> exists results, r = Ok results) /\
      ((exists c, In c cutoffs /\ (fst c < 1 \/ snd c < 1)%Z) -> r = Err ValueError)) /\
    exists aligned, align_token_log_probs parts (pack prototype) false = Ok aligned /\
    forall fuel clocks results, run fuel clocks = Some (Ok results) ->
      NoDup (map fst results) /\ (forall b, In b (map fst results) <-> region_configured thresholds fractions cutoffs b) /\
      forall b r, In (b, r) results ->
        b_context_info r = Some context /\ b_prototype r = pack prototype /\ b_prototype_as_target r = pack target /\
        concat (map fst (b_extracted_parts r)) = concat (map fst parts) /\
        shown (in_preorder prototype) (b_assignment_map r) [] (in_preorder prototype) (b_extracted_parts r) /\
        exists places, lists_places (singled_out low (labelled prototype) aligned b) places /\
          exists sy clock res c, baseline_system P (pack prototype) (pack target) = Ok sy /\
            solve_baseline fuel clock sy places = Some (Ok (res, b_assignment_map r, c)).
Proof.
  intros P low thresholds fractions cutoffs parse context parts ns Hr Hne run prototype target.
  destruct (aligned_ok parse context parts ns Hr true false) as [aligned Al]. fold prototype in Al.
  assert (HT : Forall text_only (labelled target)) by apply (suggestion_text parse context parts ns Hr).
  assert (HQ : questions (labelled prototype) <> []).
  { pose proof (enough_questions true false parse context [concat (map fst parts)] 0%Z (concat (map fst parts)) (fun _ => ns)
      (one_read parse context parts ns Hr) (one_designated parts) eq_refl Hne) as Q.
    unfold prototype_of in Q. fold prototype in Q. intros C. rewrite C in Q. cbn in Q. lia. }
  destruct (C62_baselines _ _ P prototype target low thresholds fractions cutoffs parts aligned HT HQ Al) as [B1 B2].
  assert (Erun : forall fuel clocks, run fuel clocks =
    match RegionBaselines.build_baseline_assignments P fuel clocks low thresholds fractions cutoffs (pack prototype) (pack target) parts with
    | None => None | Some (Err e) => Some (Err e)
    | Some (Ok l) => Some (collect_results (Some context) (pack prototype) (pack target) l) end).
  { intros fuel clocks. unfold run, run_region_baselines, build_baselines. rewrite (proj1 Hr). cbn [w_prototype w_target edit_wrapper].
    rewrite (context_kept parse context parts ns Hr). reflexivity. }
  assert (Good : forall fuel clocks l, RegionBaselines.build_baseline_assignments P fuel clocks low thresholds fractions cutoffs (pack prototype) (pack target) parts = Some (Ok l) ->
    forall b asg, In (b, asg) l -> exists shown_parts, extract_sequence_with_regions (pack prototype) asg [] = (shown_parts, None) /\
      shown (in_preorder prototype) asg [] (in_preorder prototype) shown_parts /\ concat (map fst shown_parts) = concat (map fst parts)).
  { intros fuel clocks l El b asg Hi. destruct (B2 _ _ _ El) as [_ [_ H]]. destruct (H b asg Hi) as [[Na [Ka [ds [Hch Hsame]]]] _].
    assert (Rs : respects asg ds).
    { apply same_respects; auto; [eapply choice_once; [apply labelled_numbered|exact Hch]|].
      intros k Hk. apply Ka. eapply choice_keys; eauto. }
    destruct (C47_regions_shown _ prototype ds asg [] Hch Rs) as [ps [Eps [Sh _]]].
    destruct (C47_text _ prototype ds asg Hch Rs) as [ps' [rest [E' [Hrr Hn]]]]. assert (ps' = ps) by congruence. subst ps'.
    exists ps. splits; auto. unfold prototype in Hrr. rewrite (shown_sample parse context parts ns Hr) in Hrr.
    destruct Hch as [Hch|Hch]; [rewrite (Hn Hch), app_nil_r in Hrr; now symmetry|]. exfalso.
    destruct (exits_taken _ _ Hch) as [_ Hf]. apply Hf. unfold labelled. rewrite erase_labs.
    exact (no_exits true false parse context [concat (map fst parts)] 0%Z (concat (map fst parts)) (fun _ => ns)
      (one_read parse context parts ns Hr) (one_designated parts) eq_refl). }
  split; [|exists aligned; split; auto].
  - intros clocks. destruct (B1 clocks) as [fuel [r [Hf [Hok Herr]]]].
    destruct r as [l|e].
    + pose proof (Hf 0) as H0.
      destruct (collect_results_ok (Some context) (pack prototype) (pack target) l) as [results [R1 _]].
      { intros b asg Hi. destruct (Good _ _ _ H0 b asg Hi) as [ps [E _]]. eauto. }
      exists fuel, (Ok results). splits; eauto.
      * intros more. now rewrite Erun, Hf, R1.
      * intros Hb. discriminate (Herr Hb).
    + exists fuel, (Err e). splits.
      * intros more. now rewrite Erun, Hf.
      * intros Hb. destruct (Hok Hb). discriminate.
      * intros Hb. pose proof (Herr Hb) as X. injection X as ->. reflexivity.
  - intros fuel clocks results H. rewrite Erun in H.
    destruct (RegionBaselines.build_baseline_assignments P fuel clocks low thresholds fractions cutoffs (pack prototype) (pack target) parts) as [[l|e]|] eqn:El; try discriminate.
    destruct (collect_results_ok (Some context) (pack prototype) (pack target) l) as [results' [R1 [R2 R3]]].
    { intros b asg Hi. destruct (Good _ _ _ El b asg Hi) as [ps [E _]]. eauto. }
    rewrite R1 in H. injection H as <-. destruct (B2 _ _ _ El) as [N [Hk Hv]]. rewrite R2. splits; auto.
    { intros b. rewrite Hk. apply baselines_configured. }
    intros b r Hi. destruct (R3 b r Hi) as [A [B [C [D F]]]]. destruct (Good _ _ _ El _ _ A) as [ps [E1 [E2 E3]]].
    assert (ps = b_extracted_parts r) by congruence. subst ps. splits; auto. apply (Hv _ _ A).
Qed.
Theorem C66_region_baselines_raw_text :
  forall (isupper islower isdigit isspace digit : nat -> bool) (l : helper_language) (flatten : bool)
         (P : parameters) (low : Qc -> Qc -> bool) thresholds fractions (cutoffs : list (Z * Z)) (context : text) (parts : list (text * Qc)),
    ascii_digits digit -> isspace 10 = true -> context ++ concat (map fst parts) <> [] -> (forall c, In c cutoffs -> (1 <= fst c /\ 1 <= snd c)%Z) ->
    let run fuel clocks := run_region_baselines P fuel clocks low thresholds fractions cutoffs
                             (parse_to_nodes isupper islower isdigit isspace digit l flatten) context parts in
    (forall clocks, exists fuel results, forall more, run (fuel + more) clocks = Some (Ok results)) /\
    forall fuel clocks results, run fuel clocks = Some (Ok results) ->
      NoDup (map fst results) /\ (forall b, In b (map fst results) <-> region_configured thresholds fractions cutoffs b) /\
      forall b r, In (b, r) results -> b_context_info r = Some context /\ concat (map fst (b_extracted_parts r)) = concat (map fst parts).
Proof.
  intros u lo d sp digit l f P low thresholds fractions cutoffs context parts H1 H2 H3 H4 run.
  assert (Hp : parseable l context [concat (map fst parts)]).
  { intros _. destruct context; [right; constructor; auto|left; discriminate]. }
  destruct (parseable_reads u lo d sp digit H1 H2 l f context [concat (map fst parts)] Hp) as [trees Ht].
  destruct (Ht _ (or_introl eq_refl)) as [Hr _].
  destruct (C66_region_baselines P low thresholds fractions cutoffs _ context parts _ Hr H3) as [A [aligned [_ B]]]. split.
  - intros clocks. destruct (A clocks) as [fuel [r [Hf [Hok _]]]]. destruct (Hok H4) as [results ->]. eauto.
  - intros fuel clocks results E. destruct (B fuel clocks results E) as [N [Hk Hb]]. splits; auto.
    intros b r Hi. destruct (Hb b r Hi) as [X [_ [_ [Y _]]]]. auto.
Qed.
Example C66_region_example :
  match run_region_baselines ex_costs 300 (fun _ _ => false) below [Q2Qc (-2)] [Q2Qc 1] [] letters [] ex_model_tokens with
  | Some (Ok results) => map (fun br => b_extracted_parts (snd br)) results
  | _ => []
  end = [[(chars "a", false); (chars "b", true)]; [(chars "a", false); (chars "b", true)]; [(chars "a", false); (chars "b", false)]] /\
  (exists ns, reads letters ([] ++ concat (map fst ex_model_tokens)) ns) /\ [] ++ concat (map fst ex_model_tokens) <> [].
Proof.
  split; [vm_cast_no_check (eq_refl [[(chars "a", false); (chars "b", true)]; [(chars "a", false); (chars "b", true)]; [(chars "a", false); (chars "b", false)]])|].
  split; [eexists; apply (letters_read [])|discriminate].
Qed.
Print Assumptions C66_region_baselines.
Print Assumptions C66_region_baselines_raw_text.

(** ** C66.  Baselines for calls. *)
Definition call_shows (b : call_baseline) : list (node text) -> list part -> Prop :=
  match b with AllCallsFull => shows_full | AllCallsShorter => shows_short | NovelCallsShorter => shows_novel end.
Theorem C66_call_baselines :
  forall (isspace : nat -> bool) (builtin : list text) (U : text -> text -> utilities) parse (context : text) (parts : list (text * Qc)) ns,
    parse (context ++ concat (map fst parts)) = Ok ns -> spaced isspace ns ->
    exists seqs results,
      make_callseq_tree isspace builtin ns (length context) = flat_map (fun seq => [Group seq (chars "API_CALL"); Deco [10]]) seqs /\
      run_call_baselines isspace builtin U parse context parts = Some (Ok results) /\
      map fst results = [AllCallsFull; AllCallsShorter; NovelCallsShorter] /\
      forall b r, In (b, r) results -> b_prototype r = pack (make_callseq_tree isspace builtin ns (length context)) /\
        shows (call_shows b) seqs (b_extracted_parts r) /\
        exists ds, region_choice (labelled (make_callseq_tree isspace builtin ns (length context))) ds /\ satisfies_constraints (b_assignment_map r) ds.
Proof.
  intros isspace builtin U parse context parts ns Hr Hs.
  destruct (C51_baselines_fit_and_show isspace builtin ns (length context) Hs) as [seqs [b [E1 [E2 [B1 [B2 B3]]]]]].
  unfold run_call_baselines, build_baselines. rewrite Hr. cbn [w_prototype w_target call_wrapper]. unfold build_call_baselines. rewrite E2. cbn [bind].
  set (P := make_callseq_tree isspace builtin ns (length context)) in *.
  change (process_prototype_and_context isspace builtin ns (length context)) with (pack P) in *.
  set (l := [(AllCallsFull, all_calls_full b); (AllCallsShorter, all_calls_shorter b); (NovelCallsShorter, novel_calls_shorter b)]).
  assert (Good : forall k asg, In (k, asg) l -> baseline_ok P (call_shows k) seqs asg).
  { intros k asg [H|[H|[H|[]]]]; injection H as <- <-; auto. }
  destruct (collect_results_ok None (pack P) (CallSequence.process_target isspace builtin ns (length context)) l) as [results [R1 [R2 R3]]].
  { intros k asg Hi. destruct (Good k asg Hi) as [_ [ps [_ H]]]. eauto. }
  exists seqs, results. split; auto. split; [f_equal; exact R1|]. split; [exact R2|]. intros k r Hi. destruct (R3 k r Hi) as [A [_ [B [_ C]]]].
  destruct (Good _ _ A) as [D [ps [S1 S2]]]. splits; auto. specialize (S2 []). assert (ps = b_extracted_parts r) by congruence. now subst ps.
Qed.
Definition ex_call_parts : list (text * Qc) := [(chars "hello", Q2Qc (-1))].
Example C66_calls_example :
  match run_call_baselines ascii_space [chars "print"] (call_utilities (Q2Qc (1 # 2))) (fun _ => Ok calls_ex) (chars "123456789") ex_call_parts with
  | Some (Ok results) => map (fun br => (fst br, concat (map fst (b_extracted_parts (snd br))))) results
  | _ => []
  end = [(AllCallsFull, chars "x = a.run(1)" ++ [10]); (AllCallsShorter, chars "x = a.run(1)" ++ [10]); (NovelCallsShorter, chars "x = a.run(1)" ++ [10])] /\
  spaced ascii_space calls_ex.
Proof. split; [vm_compute; reflexivity|exact calls_ex_spaced]. Qed.
Print Assumptions C66_call_baselines.
