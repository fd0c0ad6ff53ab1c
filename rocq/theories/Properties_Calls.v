(** C51: the call-sequence wrapper.  Specification vocabulary: [CallSpec.v]
    ([finds], [marked_call], [in_order], [shows_full], [shows_short],
    [shows_novel]) and, from [CallTheorems.v], [starts_before], [line_start] and
    [spaced]. *)

From Coq Require Import String.
From Coq Require Import List Bool Arith Lia ZArith QArith Qcanon.
From Verif Require Import Base Graph GatedDag SeqNodes Transforms PackedSeq PackedSeqProofs Numbered Decisions EditSpec ConstraintDag ConstraintSpec
  ConstraintProofs SelectionDag SelectionSpec RegionDecisions PrefixBaselines PrefixTheorems Html CallSequence CallSpec CallProofs CallBaselines
  CallTheorems Properties_Tree Properties_Selection.
Import ListNotations.
Close Scope string_scope. Close Scope Qc_scope. Close Scope Q_scope. Close Scope Z_scope. Open Scope nat_scope. Open Scope list_scope.

(** The example: the context "import a\n" and the suggestion "x = a.run(1)\nprint\n". *)
Definition leaf (s : string) : N := Token (chars s) CONTENT_LEAF.
Definition space : N := Deco (chars " ").
Definition parens (inside : list N) : N :=
  Group [Token (chars "(") MATCH_LEFT; Group inside (chars "MATCH_INNER"); Token (chars ")") (chars "MATCH_RIGHT")] MATCH.
Definition calls_ex : list N :=
  [leaf "import"; space; leaf "a"; Deco s_newline;
   Group [leaf "x"; space; leaf "="; space; leaf "a"; leaf "."; leaf "run"; parens [leaf "1"]; Deco s_newline] (chars "BODY");
   leaf "print"; Deco s_newline].
Definition ascii_space (c : nat) : bool := (c =? 32) || (c =? 10).

(** ** The wrapper looks for calls from the last line break before the prediction
    location on; it yields exactly the calls found there, one group and one
    line break per call, with options for regions.  Tokens that start before the
    location (or are the first text) and the built-in ones count as expected. *)
Theorem C51_calls_extracted :
  forall (isspace : nat -> bool) (builtin : list text) (ns : list N) (location : nat),
  exists k expected ks seqs,
    line_start (render ns) location k /\
    (forall t, In t expected <-> starts_before ns location t \/ In t builtin) /\
    finds (truncate_prefix_at_offset ns (Z.of_nat k)) ks /\
    (forall ks', finds (truncate_prefix_at_offset ns (Z.of_nat k)) ks' -> ks' = ks) /\
    Forall2 (marked_call isspace expected) ks seqs /\
    make_callseq_tree isspace builtin ns location =
      flat_map (fun seq => [Group seq (chars "API_CALL"); Deco [10]]) seqs.
Proof.
  intros isspace builtin ns location. set (k := adjusted_location (render ns) location).
  set (expected := extract_context_tokens ns location ++ builtin).
  destruct (extract_finds isspace expected (truncate_prefix_at_offset ns (Z.of_nat k))) as (ks & H & _).
  exists k, expected, ks, (extract_all_from isspace expected (truncate_prefix_at_offset ns (Z.of_nat k))). splits.
  - apply adjusted_spec.
  - intros t. unfold expected. rewrite in_app_iff, context_tokens. reflexivity.
  - exact H.
  - intros ks' H'. symmetry. exact (proj1 finds_fun _ _ H _ H').
  - now apply extract_marked.
  - reflexivity.
Qed.
Example C51_calls_example :
  make_callseq_tree ascii_space [chars "print"] calls_ex 9 =
  [Group [RegionStart; Token (chars "x") NOVEL; space; RegionStart; Token (chars "=") NOVEL; space; RegionStart;
          Token (chars "a") EXPECTED; RegionStart; Token (chars ".") ATTRIBUTE_DOT; Token (chars "run") NOVEL;
          Token (chars "(") START_CALL; RegionEnd; Token (chars "1") ARGS; Token (chars ")") END_CALL; RegionEnd] API_CALL; Deco [10]].
Proof. vm_compute. reflexivity. Qed.
Print Assumptions C51_calls_extracted.

(** ** The calls stand in the text after that line break, in the order in which
    they are yielded and without overlap, and a group spells its call. *)
Theorem C51_calls_occur_in_the_text :
  forall (isspace : nat -> bool) (expected : list text) (ns : list N) (k : nat) ks seqs,
    finds (truncate_prefix_at_offset ns (Z.of_nat k)) ks -> Forall2 (marked_call isspace expected) ks seqs ->
    in_order (map spelled ks) (skipn k (render ns)) /\
    Forall2 (fun call seq => render seq = spelled call ++ chars ")") ks seqs.
Proof.
  intros isspace expected ns k ks seqs H F. split.
  - rewrite <- C25_truncate_text. now apply (proj1 finds_in_order).
  - clear H. induction F; constructor; auto. eapply marked_call_render; eauto.
Qed.
Example C51_text_example : exists ks, finds (truncate_prefix_at_offset calls_ex 8%Z) ks /\
  map spelled ks = [chars "x = a.run(1"] /\ skipn 8 (render calls_ex) = [10] ++ chars "x = a.run(1" ++ chars ")" ++ [10] ++ chars "print" ++ [10].
Proof.
  destruct (extract_finds ascii_space [] (truncate_prefix_at_offset calls_ex 8%Z)) as (ks & H & E). exists ks. split; [exact H|].
  split; [|vm_compute; reflexivity].
  pose proof (extract_marked ascii_space [] _ _ H) as F. 
  assert (R : map (@render text) (extract_all_from ascii_space [] (truncate_prefix_at_offset calls_ex 8%Z)) = [chars "x = a.run(1" ++ chars ")"]) by (vm_compute; reflexivity).
  revert F R. generalize (extract_all_from ascii_space [] (truncate_prefix_at_offset calls_ex 8%Z)). intros seqs F R.
  destruct F as [|c s ks' seqs' Hc F]; [discriminate|]. destruct F; [|discriminate].
  cbn [map] in *. f_equal. apply (app_inv_tail (chars ")")). rewrite <- (marked_call_render _ _ _ _ Hc).
  apply (f_equal (@hd text [])) in R. exact R.
Qed.
Print Assumptions C51_calls_occur_in_the_text.

(** ** The baselines.  If decorations in front of a group are white space, the
    three baselines exist; each fits an allowed choice of regions, and it shows
    every call from its beginning to its end, every call from its last white
    space to its opening parenthesis, or the latter for calls with something
    novel in that part. *)
Theorem C51_baselines_fit_and_show :
  forall (isspace : nat -> bool) (builtin : list text) (ns : list N) (location : nat),
    spaced isspace ns ->
    exists seqs b,
      make_callseq_tree isspace builtin ns location = flat_map (fun seq => [Group seq (chars "API_CALL"); Deco [10]]) seqs /\
      build_baseline_assignments (process_prototype_and_context isspace builtin ns location) = Ok b /\
      baseline_ok (make_callseq_tree isspace builtin ns location) shows_full seqs (all_calls_full b) /\
      baseline_ok (make_callseq_tree isspace builtin ns location) shows_short seqs (all_calls_shorter b) /\
      baseline_ok (make_callseq_tree isspace builtin ns location) shows_novel seqs (novel_calls_shorter b).
Proof.
  intros isspace builtin ns location Hs. unfold process_prototype_and_context, make_callseq_tree.
  set (k := adjusted_location (render ns) location). set (expected := extract_context_tokens ns location ++ builtin).
  set (tr := truncate_prefix_at_offset ns (Z.of_nat k)).
  assert (Hn : nearly isspace tr).
  { apply (suffix_nearly isspace ns); auto. unfold tr. destruct k as [|k]; [apply C25_truncate_zero|apply C25_truncate_keeps_ancestors; lia]. }
  destruct (extract_finds isspace expected tr) as (ks & H & _). pose proof (extract_marked isspace expected _ _ H) as F.
  assert (G : Forall (good isspace expected) (extract_all_from isspace expected tr)).
  { pose proof (proj1 (nearly_calls isspace) _ _ H Hn) as W. clear -F W. induction F as [|c s ks seqs Hc F IH]; constructor.
    - exists c. split; auto. apply W. now left.
    - apply IH. intros c' Hc'. apply W. now right. }
  destruct (baselines_spec isspace expected _ G) as (b & Hb & A1 & A2 & A3).
  exists (extract_all_from isspace expected tr), b. splits; auto.
Qed.
(** In particular when all decorations are white space. *)
Fixpoint all_white (isspace : nat -> bool) (n : N) : bool :=
  match n with Deco t => all_space isspace t | Group cs _ => forallb (all_white isspace) cs | _ => true end.
Lemma all_white_spaced isspace ns : forallb (all_white isspace) ns = true -> spaced isspace ns.
Proof.
  assert (L : forall l, (forall cs m, In (Group cs m) l -> spaced isspace cs) -> forallb (all_white isspace) l = true -> spaced isspace l).
  { intros l H E. constructor; auto. intros a t b cs m c ->. rewrite forallb_app in E. apply andb_true_iff in E as [_ E]. cbn in E.
    apply andb_true_iff in E as [E _]. now apply all_space_white. }
  assert (G : forall n : N, match n with Group cs _ => forallb (all_white isspace) cs = true -> spaced isspace cs | _ => True end).
  { induction n as [| | | | |cs m IH] using node_ind'; auto. intros E. apply L; auto. intros cs' m' Hi. rewrite Forall_forall in IH. specialize (IH _ Hi).
    cbn in IH. apply IH. rewrite forallb_forall in E. apply (E _ Hi). }
  intros E. apply L; auto. intros cs m Hi. apply (G (Group cs m)). rewrite forallb_forall in E. apply (E _ Hi).
Qed.
Lemma calls_ex_spaced : spaced ascii_space calls_ex.
Proof. apply all_white_spaced. vm_compute. reflexivity. Qed.
Example C51_baselines_example :
  match build_baseline_assignments (process_prototype_and_context ascii_space [chars "print"] calls_ex 9) with
  | Ok b => fst (extract_sequence_with_regions (process_prototype_and_context ascii_space [chars "print"] calls_ex 9) (novel_calls_shorter b) [])
            = [(chars "x", false); (chars " ", false); (chars "=", false); (chars " ", false); (chars "a", true); (chars ".", true);
               (chars "run", true); (chars "(", true); (chars "1", false); (chars ")", false); ([10], false)]
  | Err _ => False
  end.
Proof. vm_compute. reflexivity. Qed.
Print Assumptions C51_baselines_fit_and_show.

(** ** Whatever regions are allowed for the prototype can be selected for every
    target. *)
Theorem C51_choices_feasible :
  forall (isspace : nat -> bool) (builtin : list text) (U : text -> text -> utilities) (ns : list N) (targets : list (list N)) (location : nat) dc pc,
    construct_constraint_dag (process_prototype_and_context isspace builtin ns location) = Ok dc -> complete_path dc pc ->
    Forall (fun target => exists d p,
              construct_selection_dag U (process_prototype_and_context isspace builtin ns location) (process_target isspace builtin target location) = Ok d /\
              complete_path d p /\ path_assignments p = path_assignments pc /\ exists c, path_cost p = Fin c) targets.
Proof.
  intros isspace builtin U ns targets location dc pc Hd Hp. unfold process_prototype_and_context, process_target in *.
  set (P := make_callseq_tree isspace builtin ns location) in *.
  set (stripped := map (fun t => strip_decision_nodes (make_callseq_tree isspace builtin t location)) targets).
  assert (HP : exists seqs, P = lines seqs /\ Forall (Forall flat_node) seqs).
  { destruct (C51_calls_extracted isspace builtin ns location) as (k & expected & ks & seqs & _ & _ & _ & _ & F & E). exists seqs. split; [exact E|].
    clear -F. induction F; constructor; auto. eapply marked_call_flat; eauto. }
  destruct HP as (seqs & EP & HF).
  pose proof (C59_every_choice_selects text _ U P stripped dc pc) as C.
  assert (R : Forall (fun target => exists d p, construct_selection_dag U (pack P) (pack target) = Ok d /\
     complete_path d p /\ path_assignments p = path_assignments pc /\ exists k, path_cost p = Fin k) stripped).
  { apply C; auto.
    - apply walks_no_exit. apply (lines_no_exit seqs HF). rewrite EP. apply erase_labs.
    - apply (lines_begin seqs). rewrite EP. apply erase_labs.
    - unfold stripped. apply Forall_forall. intros t Ht. apply in_map_iff in Ht as (t' & <- & _). apply no_decisions_text_only.
      unfold labelled. rewrite erase_labs. apply strip_output_no_decisions. }
  unfold stripped in R. rewrite Forall_forall in *. intros t Ht. apply R. apply in_map_iff. eauto.
Qed.
Example C51_choices_example : exists dc pc,
  construct_constraint_dag (process_prototype_and_context ascii_space [chars "print"] calls_ex 9) = Ok dc /\ complete_path dc pc.
Proof.
  destruct (constraint_choices (labelled (make_callseq_tree ascii_space [chars "print"] calls_ex 9)) _ (or_introl (ConstraintPack.no_regions_chosen _))) as [p [Hp _]].
  eexists. exists p. split; [apply construct_ok|exact Hp].
Qed.
Print Assumptions C51_choices_feasible.

(** ** Showing a token is worth it exactly above the precision asked for. *)
Theorem C51_utilities_break_even :
  forall (precision q : Qc) (t m : text),
    let u := call_utilities precision t m in
    ((0 < match_utility u + delete_cost u)%Qc ->
     ((0 < q * match_utility u - (1 - q) * delete_cost u)%Qc <-> (precision < q)%Qc)) /\
    (m = ARGS \/ m = EMPTY_ARGS \/ m = EXPECTED \/ m = NOVEL -> (0 < match_utility u + delete_cost u)%Qc).
Proof.
  intros p q t m. unfold call_utilities. cbn zeta. cbn [match_utility delete_cost].
  set (util := if eqb m ARGS then 1%Qc else if eqb m EMPTY_ARGS then 1%Qc else if eqb m EXPECTED then 1%Qc else if eqb m NOVEL then Q2Qc 10 else 0%Qc).
  assert (E1 : (util * (1 - p) + util * p)%Qc = util) by ring. rewrite E1.
  assert (E2 : (q * (util * (1 - p)) - (1 - q) * (util * p))%Qc = (util * (q - p))%Qc) by ring. rewrite E2. split.
  - intros Hu. split; intros H.
    + destruct (Qclt_le_dec p q) as [C|C]; auto. exfalso. apply (Qclt_not_le _ _ H).
      assert (X : (0 <= util * (p - q))%Qc).
      { replace 0%Qc with (0 * (p - q))%Qc by ring. apply Qcmult_le_compat_r; [now apply Qclt_le_weak|]. apply -> Qcle_minus_iff in C. exact C. }
      apply Qcle_minus_iff. replace (0 + - (util * (q - p)))%Qc with (util * (p - q))%Qc by ring. exact X.
    + apply -> Qclt_minus_iff in H. replace 0%Qc with (0 * (q - p))%Qc by ring. apply Qcmult_lt_compat_r; auto.
  - intros H. unfold util. destruct H as [->|[->|[->| ->]]]; vm_compute; reflexivity.
Qed.
Print Assumptions C51_utilities_break_even.

(** ** Findings.  With the prediction location at the beginning, the first token of
    the suggestion counts as context. *)
Theorem C51_context_only_refuted :
  exists (ns : list N) t, In t (extract_context_tokens ns 0) /\ render ns = t.
Proof. exists [leaf "x"], (chars "x"). split; [now left|]. vm_compute. reflexivity. Qed.
(** A decoration that is not white space, right before a name and its parenthesis, makes the
    baselines fail. *)
Theorem C51_baselines_refuted :
  exists (ns : list N), build_baseline_assignments (process_prototype_and_context ascii_space [] ns 0) = Err AssertionError /\
    forall n, In n ns -> is_deco n -> n <> Deco [].
Proof.
  exists [leaf "x"; Deco (chars "#"); leaf "f"; parens []]. split; [vm_compute; reflexivity|].
  intros n Hn (t & ->). cbn in Hn. repeat destruct Hn as [Hn|Hn]; try discriminate; try contradiction. inversion Hn; subst. discriminate.
Qed.
Print Assumptions C51_context_only_refuted.
Print Assumptions C51_baselines_refuted.
