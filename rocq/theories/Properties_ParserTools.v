(** C63-C65: lexing, parsing and combining text in the supported languages
    (stack_parser.py:147-212, 905-1137, utilities.py:24-63, parser_tools.py:69-140,
    demo_runner.py:62-178).  Specification vocabulary: [LexSpec.v] ([scanned]),
    [StackParserProofs.v] ([valid_tree], [leaf_ranges]), [ParseShape.v] ([shaped]),
    [CombineSpec.v] ([designates], [annotated], [alternating]), [CallSpec.v].

    The character classes of Python's [str] methods and of [re] are parameters; the
    theorems need only that the ASCII digits are the digits below 128
    ([ascii_digits]) and that the newline is white space. *)

From Coq Require Import String.
From Coq Require Import List Bool Arith Lia ZArith QArith Qcanon.
From Verif Require Import Base SeqNodes Transforms Subtokenizer StackParser StackParserProofs ParseShape PseudoParse PseudoParseProofs
  Lexer LexerProofs LexerPython LexSpec ParserTools ParserToolsProofs PackedSeq Graph Decisions Html EditDag SelectionDag RegionDecisions
  CallSequence CallSpec CallTheorems Properties_Tree Properties_Calls Properties_Edit SystemSpec BuildSystem Combine CombineSpec CombineTheorems Properties_EndToEnd.
Import ListNotations.
Close Scope string_scope. Close Scope Qc_scope. Close Scope Q_scope. Close Scope Z_scope. Open Scope nat_scope. Open Scope list_scope.

Definition ascii_digits (digit : nat -> bool) : Prop := forall c, c < 128 -> (digit c = true <-> 48 <= c <= 57).
Lemma ascii_digits_eq digit : ascii_digits digit -> forall c, c < 128 -> digit c = (48 <=? c) && (c <=? 57).
Proof.
  intros H c Hc. specialize (H c Hc). rewrite <- !Nat.leb_le, <- andb_true_iff in H.
  destruct (digit c), ((48 <=? c) && (c <=? 57)); auto; destruct H as [H1 H2]; [symmetry; auto|auto].
Qed.
(** The classes for the examples. *)
Definition ex_dig (c : nat) : bool := (48 <=? c) && (c <=? 57).
Definition ex_spc (c : nat) : bool := (c =? 32) || ((9 <=? c) && (c <=? 13)).
Definition ex_up (c : nat) : bool := (65 <=? c) && (c <=? 90).
Definition ex_low (c : nat) : bool := (97 <=? c) && (c <=? 122).
Example classes_example : ascii_digits ex_dig /\ ex_spc 10 = true.
Proof. split; auto. intros c _. unfold ex_dig. now rewrite andb_true_iff, !Nat.leb_le. Qed.

(** ** C63.  Lexing.  In every language and for every text: the tokens spell the text,
    no token is empty, and a token's text determines its type, whatever surrounds
    it. *)
Theorem C63_lexing_loses_nothing :
  forall (digit : nat -> bool) (l : preset) (code : text), ascii_digits digit ->
    concat (map fst (preset_lex digit l code)) = code /\
    (forall t ty, In (t, ty) (preset_lex digit l code) -> t <> []) /\
    (forall code' t ty ty', In (t, ty) (preset_lex digit l code) -> In (t, ty') (preset_lex digit l code') -> ty = ty').
Proof.
  intros digit l code H. pose proof (ascii_digits_eq digit H) as D. splits.
  - now apply preset_lossless.
  - intros t ty Hi. pose proof (preset_nonempty digit D l code) as F. rewrite Forall_forall in F. apply (F _ Hi).
  - intros code' t ty ty' H1 H2. pose proof (preset_typed digit D l code) as F1. pose proof (preset_typed digit D l code') as F2.
    rewrite Forall_forall in F1, F2. pose proof (F1 _ H1). pose proof (F2 _ H2). cbn in *. congruence.
Qed.
(** A string with an escaped quote, and a comment, in Python; directives and comments
    in C++. *)
Example C63_python_example :
  preset_lex ex_dig Python_preprocessor (chars "x = ""a\""b"" # c") =
  [(chars "x", TId); (chars " ", TWhiteSpace); (chars "=", TPunc); (chars " ", TWhiteSpace); (chars """a\""b""", TString);
   (chars " ", TWhiteSpace); (chars "# c", TCommentHash)].
Proof. vm_compute. reflexivity. Qed.
Example C63_cpp_example :
  map fst (preset_lex ex_dig Cpp (chars "#if A" ++ [10] ++ chars "f(1.5, b2); // t" ++ [10] ++ chars "/* s */")) =
  [chars "#if A"; [10]; chars "f"; chars "("; chars "1.5"; chars ","; chars " "; chars "b2"; chars ")"; chars ";"; chars " "; chars "// t"; [10]; chars "/* s */"].
Proof. vm_compute. reflexivity. Qed.
Print Assumptions C63_lexing_loses_nothing.

(** The tokens of the simple language are exactly the longest numbers, names and runs
    of blanks, and single characters. *)
Theorem C63_simple_tokens :
  forall (digit : nat -> bool) (code : text) (ts : list (text * ttype)), ascii_digits digit ->
    (scanned (fun c => digit c = true) code ts <-> preset_lex digit Simple code = ts).
Proof. intros digit code ts H. apply simple_scans, ascii_digits_eq, H. Qed.
Example C63_simple_example :
  preset_lex ex_dig Simple (chars "a1=2.5.x  !") =
  [(chars "a1", TId); (chars "=", TPunc); (chars "2.5", TNumber); (chars ".", TPunc); (chars "x", TId); (chars "  ", TWhiteSpace); (chars "!", TOther)].
Proof. vm_compute. reflexivity. Qed.
Print Assumptions C63_simple_tokens.

(** Finding: in C++, Java and JavaScript no token is ever a string, because the
    expression for strings refers back to a group that does not belong to it. *)
Theorem C63_no_strings_in_c_family :
  forall (digit : nat -> bool) (l : preset) (code t : text) (ty : ttype), ascii_digits digit ->
    In l [Cpp; Java; Javascript] -> In (t, ty) (preset_lex digit l code) -> ty <> TString.
Proof.
  intros digit l code t ty H Hl Hi. pose proof (preset_typed digit (ascii_digits_eq digit H) l code) as F. rewrite Forall_forall in F.
  specialize (F _ Hi). cbn [fst snd] in F. subst ty.
  assert (K : forall c, kind digit c <> TString).
  { intros c. unfold kind. repeat match goal with |- context [if ?b then _ else _] => destruct b end; discriminate. }
  cbn in Hl. destruct Hl as [<-|[<-|[<-|[]]]]; unfold type_of; destruct t as [|c [|d r]]; try discriminate; try apply K;
    repeat match goal with |- context [if ?b then _ else _] => destruct b end; try discriminate; apply K.
Qed.
Example C63_quoted_is_a_comment : preset_lex ex_dig Java (chars """ab""") = [(chars """ab""", TCommentSlashStar)].
Proof. vm_compute. reflexivity. Qed.
Print Assumptions C63_no_strings_in_c_family.

(** ** C64.  Parsing.  Every text can be parsed in every language (in Python, unless
    it is empty).  The raw tokens spell the text; the tree tiles the tokens, each in
    one leaf; brackets in the tree are matching brackets of the corrected text, or
    the beginning and the end of an indented block; block markers are empty. *)
Theorem C64_parsing_succeeds :
  forall (isspace digit : nat -> bool) (l : language) (code : text) (spaces_per_indent : nat),
    ascii_digits digit -> isspace 10 = true -> 0 < spaces_per_indent -> (l = Python -> code <> []) ->
    exists o, parse_and_maybe_preprocess isspace digit l code spaces_per_indent = Ok o /\
      concat (o_raws o) = code /\
      length (o_texts o) = length (o_raws o) /\ length (o_types o) = length (o_raws o) /\
      valid_tree (o_tree o) (length (o_raws o)) /\
      filter nonempty_range (leaf_ranges (o_tree o)) = map single (seq 0 (length (o_raws o))) /\
      shaped (fun a b =>
        (exists x y, nth_error (o_texts o) a = Some x /\ nth_error (o_texts o) b = Some y /\
           In (x, y) [(chars "(", chars ")"); (chars "[", chars "]"); (chars "{", chars "}")]) \/
        (nth_error (o_types o) a = Some TPythonIndent /\ nth_error (o_types o) b = Some TPythonDedent)) (o_tree o) /\
      (forall i, nth_error (o_types o) i = Some TPythonIndent \/ nth_error (o_types o) i = Some TPythonDedent ->
         nth_error (o_texts o) i = Some [] /\ nth_error (o_raws o) i = Some []).
Proof.
  intros isspace digit l code spi H1 H2 H3 H4. destruct (parse_ok isspace digit (ascii_digits_eq digit H1) H2 l code spi H3 H4) as [o [E O]].
  exists o. splits; auto; apply O.
Qed.
(** [if a:\n  b(\nc]: a block with an unclosed bracket. *)
Example C64_python_example :
  match parse_and_maybe_preprocess ex_spc ex_dig Python (chars "if a:" ++ [10] ++ chars "  b(" ++ [10] ++ chars "c") 2 with
  | Ok o => o_raws o = [chars "if"; chars " "; chars "a"; chars ":"; [10]; []; chars "  "; chars "b"; chars "("; [10]; chars "c"; []; []; []; []] /\
            o_texts o = [chars "if"; chars " "; chars "a"; chars ":"; [10]; []; chars "  "; chars "b"; chars "("; [10]; chars "c"; [10]; chars ")"; []; [10]] /\
            nth_error (o_types o) 5 = Some TPythonIndent /\ nth_error (o_types o) 13 = Some TPythonDedent
  | Err _ => False
  end.
Proof. vm_compute. splits; reflexivity. Qed.
Print Assumptions C64_parsing_succeeds.
(** Finding: Python's empty text has no last character to look at. *)
Theorem C64_python_empty_refuted :
  forall (isspace digit : nat -> bool) (spaces_per_indent : nat),
    parse_and_maybe_preprocess isspace digit Python [] spaces_per_indent = Err IndexError.
Proof. reflexivity. Qed.
Print Assumptions C64_python_empty_refuted.

(** The helper's node sequences spell the text and have no decisions, with and
    without groups. *)
Theorem C64_helper_reads_every_text :
  forall (isupper islower isdigit isspace digit : nat -> bool) (l : helper_language) (flatten : bool) (code : text),
    ascii_digits digit -> isspace 10 = true -> (l = Parsed Python -> code <> []) ->
    exists ns, reads (parse_to_nodes isupper islower isdigit isspace digit l flatten) code ns /\
               reads (parse_to_named_nodes isupper islower isdigit isspace digit l flatten) code (map named ns).
Proof.
  intros u lo d sp digit l f code H1 H2 H3. pose proof (ascii_digits_eq digit H1) as D.
  destruct (nodes_ok u lo d sp digit D H2 l f code H3) as [ns [E [R N]]]. exists ns. unfold reads. splits; auto.
  - unfold parse_to_named_nodes. now rewrite E.
  - now rewrite named_text.
  - now apply named_plain.
Qed.
Example C64_nodes_example :
  match parse_to_nodes ex_up ex_low ex_dig ex_spc ex_dig (Parsed Python) false (chars "f(x)") with
  | Ok ns => ns = [Group [Group [Token (chars "f") (MNode NContentLeaf);
                                 Group [Token (chars "(") (MNode NMatchLeft);
                                        Group [Token (chars "x") (MNode NContentLeaf)] (MNode NMatchInner);
                                        Token (chars ")") (MNode NMatchRight)] (MNode NMatch);
                                 Deco []] (MNode NSplitGroup)] (MNode NRoot)]
  | Err _ => False
  end.
Proof. vm_compute. reflexivity. Qed.
Print Assumptions C64_helper_reads_every_text.

(** Flattening gives the leaves of the unflattened sequence in order, without groups;
    the unflattened sequence is one node. *)
Theorem C64_flattened :
  forall (isupper islower isdigit isspace digit : nat -> bool) (l : language) (code : text),
    ascii_digits digit -> isspace 10 = true -> (l = Python -> code <> []) ->
    exists root flat,
      parse_to_nodes isupper islower isdigit isspace digit (Parsed l) false code = Ok [root] /\
      parse_to_nodes isupper islower isdigit isspace digit (Parsed l) true code = Ok flat /\
      flat = map item_node (walk_with_paths [root] false false []) /\
      Forall (fun n => ~ is_group n) flat.
Proof.
  intros u lo d sp digit l code H1 H2 H3. pose proof (ascii_digits_eq digit H1) as D.
  destruct (nodes_ok u lo d sp digit D H2 (Parsed l) false code) as [ns [E _]]; [intros E; apply H3; congruence|].
  cbn [parse_to_nodes] in *. apply bind_ok_inv in E as [spi [-> E]]. apply bind_ok_inv in E as [o [Eo E]]. apply bind_ok_inv in E as [r [Er E]].
  exists r, (flatten_groups [r]). destruct (C23_flatten_groups _ [r]) as [F1 [F2 _]].
  cbn [bind]. rewrite Eo. cbn [bind]. rewrite Er. cbn [bind]. splits; auto.
Qed.
Example C64_flattened_example :
  match parse_to_nodes ex_up ex_low ex_dig ex_spc ex_dig (Parsed Python) true (chars "f(x)") with
  | Ok ns => ns = [Token (chars "f") (MNode NContentLeaf); Token (chars "(") (MNode NMatchLeft); Token (chars "x") (MNode NContentLeaf);
                   Token (chars ")") (MNode NMatchRight); Deco []]
  | Err _ => False
  end.
Proof. vm_compute. reflexivity. Qed.
Print Assumptions C64_flattened.

(** The indentation width found for a text is one of the candidates. *)
Theorem C64_inferred_width :
  forall (isspace digit : nat -> bool) (code : text), ascii_digits digit -> isspace 10 = true ->
    exists n, infer_python_spaces_per_indent isspace digit code = Ok n /\ 1 <= n <= 4.
Proof.
  intros isspace digit code H1 H2. destruct (infer_ok isspace digit (ascii_digits_eq digit H1) H2 code) as [n [E H]]. exists n. split; auto. cbn in H. lia.
Qed.
Example C64_width_example :
  infer_python_spaces_per_indent ex_spc ex_dig (chars "if a:" ++ [10] ++ chars "    if b:" ++ [10] ++ chars "        c") = Ok 4 /\
  infer_python_spaces_per_indent ex_spc ex_dig (chars "if a:" ++ [10] ++ chars "  b" ++ [10]) = Ok 2.
Proof. split; vm_compute; reflexivity. Qed.
Print Assumptions C64_inferred_width.

(** ** C65.  Combining, from raw text.  No parser hypothesis is left: the samples are any
    texts in any supported language. *)
Definition parseable (l : helper_language) (context : text) (samples : list text) : Prop :=
  l = Parsed Python -> context <> [] \/ Forall (fun s => s <> []) samples.

Section Raw.
  Variables isupper islower isdigit isspace digit : nat -> bool.
  Hypothesis digits : ascii_digits digit.
  Hypothesis newline_space : isspace 10 = true.
  Lemma parseable_reads l flatten context samples : parseable l context samples ->
    exists trees, forall s, In s samples -> reads (parse_to_nodes isupper islower isdigit isspace digit l flatten) (context ++ s) (trees s) /\
      reads (parse_to_named_nodes isupper islower isdigit isspace digit l flatten) (context ++ s) (map named (trees s)).
  Proof using digits newline_space.
    intros H. exists (fun s => match parse_to_nodes isupper islower isdigit isspace digit l flatten (context ++ s) with Ok ns => ns | Err _ => [] end).
    intros s Hs. destruct (C64_helper_reads_every_text isupper islower isdigit isspace digit l flatten (context ++ s) digits newline_space) as [ns [R1 R2]].
    - intros El C. apply app_eq_nil in C as [-> ->]. destruct (H El) as [C|F]; [contradiction|]. rewrite Forall_forall in F. now apply (F _ Hs).
    - destruct R1 as [E R1]. rewrite E. split; [split; [exact E|exact R1]|exact R2].
  Qed.
End Raw.

Theorem C65_combine_raw_text :
  forall (isupper islower isdigit isspace digit : nat -> bool) (l : helper_language) (flatten : bool)
         (P : parameters) (low exit : bool) (context : text) (samples : list text) (index : Z) (sample : text) (clock : nat -> bool),
    ascii_digits digit -> isspace 10 = true -> parseable l context samples -> designates samples index sample ->
    let run := fun fuel => combine_samples fuel clock (edit_wrapper P low exit)
                 (parse_to_nodes isupper islower isdigit isspace digit l flatten) context samples index in
    (exists fuel r, forall more, run (fuel + more) = Some (Ok r)) /\
    forall fuel r, run fuel = Some (Ok r) ->
      r_context_info r = Some context /\
      (low = true -> context ++ sample <> [] -> get_extracted_parts r <> None) /\
      forall parts, get_extracted_parts r = Some parts ->
        alternating parts /\ (low = false -> Forall (fun p => snd p = false) parts) /\
        exists rest, sample = concat (map fst parts) ++ rest /\ (rest <> [] -> exit = true).
Proof.
  intros u lo d sp digit l f P low exit context samples index sample clock H1 H2 H3 H4 run.
  destruct (parseable_reads u lo d sp digit H1 H2 l f context samples H3) as [trees Ht].
  assert (Hr : forall s, In s samples -> reads (parse_to_nodes u lo d sp digit l f) (context ++ s) (trees s)) by (intros s Hs; now apply Ht).
  split.
  - eapply C55_combine_returns; eauto.
  - intros fuel r E. destruct (C55_suggestion_is_the_sample P low exit _ context samples index sample trees fuel clock r Hr H4 E) as [A [B C]].
    split; [exact A|]. split; [exact B|]. intros parts Hp. destruct (C parts Hp) as [C1 [C2 [asg [rest [_ [C3 [C4 _]]]]]]].
    splits; auto. exists rest. split; auto. intros Hn. now apply C4.
Qed.
Example C65_hypotheses : parseable (Parsed Python) (chars "x = ") [chars "f(1)"; chars "f(2)"] /\
  designates [chars "f(1)"; chars "f(2)"] 0 (chars "f(1)").
Proof. split; [left; discriminate|]. exists 0. split; auto. Qed.
Print Assumptions C65_combine_raw_text.

Theorem C65_combine_calls_raw_text :
  forall (isupper islower isdigit isspace digit : nat -> bool) (l : helper_language) (flatten : bool)
         (builtin : list text) (U : text -> text -> utilities) (context : text) (samples : list text) (index : Z) (sample : text) (clock : nat -> bool),
    ascii_digits digit -> isspace 10 = true -> parseable l context samples -> designates samples index sample ->
    let run := fun fuel => combine_samples fuel clock (call_wrapper isspace builtin U)
                 (parse_to_named_nodes isupper islower isdigit isspace digit l flatten) context samples index in
    (exists fuel r, forall more, run (fuel + more) = Some (Ok r)) /\
    forall fuel r, run fuel = Some (Ok r) ->
    exists k ks, line_start (context ++ sample) (length context) k /\
      in_order (map spelled ks) (skipn k (context ++ sample)) /\
      (get_extracted_parts r = None <-> ks = []) /\
      forall parts, get_extracted_parts r = Some parts ->
        alternating parts /\ concat (map fst parts) = flat_map (fun call => spelled call ++ chars ")" ++ [10]) ks.
Proof.
  intros u lo d sp digit l f builtin U context samples index sample clock H1 H2 H3 H4 run.
  destruct (parseable_reads u lo d sp digit H1 H2 l f context samples H3) as [trees Ht].
  assert (Hr : forall s, In s samples -> reads (parse_to_named_nodes u lo d sp digit l f) (context ++ s) ((fun s => map named (trees s)) s)) by (intros s Hs; now apply Ht).
  destruct (C55_suggestion_is_the_calls sp builtin U _ context samples index sample _ clock Hr H4) as [A B]. split; [exact A|].
  intros fuel r E. destruct (B fuel r E) as [k [ks [B1 [_ [B2 [B3 B4]]]]]]. exists k, ks. splits; auto.
Qed.
Example C65_calls_example :
  match combine_samples 100 (fun _ => false) (call_wrapper ex_spc [] (call_utilities (Q2Qc (1 # 2))))
          (parse_to_named_nodes ex_up ex_low ex_dig ex_spc ex_dig (Parsed Python) false) (chars "x" ++ [10]) [chars "y = f(1)"; chars "f(2)"] 0 with
  | Some (Ok r) => match get_extracted_parts r with Some parts => concat (map fst parts) = chars "y = f(1)" ++ [10] | None => False end
  | _ => False
  end.
Proof. vm_compute. reflexivity. Qed.
Print Assumptions C65_combine_calls_raw_text.

(** Finding: an empty sample after an empty context cannot be combined in Python. *)
Theorem C65_empty_sample_refuted :
  forall (isupper islower isdigit isspace digit : nat -> bool) (flatten : bool) (P : parameters) (low exit : bool) (fuel : nat) (clock : nat -> bool),
    combine_samples fuel clock (edit_wrapper P low exit)
      (parse_to_nodes isupper islower isdigit isspace digit (Parsed Python) flatten) [] [[]] 0 = Some (Err IndexError).
Proof. reflexivity. Qed.
Print Assumptions C65_empty_sample_refuted.
