(** Model of the parser presets, of [parse_and_maybe_preprocess]
    (parsing/pseudo_parser/stack_parser.py:905-1137), of
    [infer_python_spaces_per_indent] (parsing/pseudo_parser/utilities.py:24-63)
    and of [ParserHelper] (wrappers/parser_tools.py:69-140). *)

From Coq Require Import String.
From Coq Require Import List Bool Arith.
From Verif Require Import Base SeqNodes Transforms StackParser Subtokenizer PseudoParse Lexer Html.
Import ListNotations.
Close Scope string_scope. Open Scope list_scope.

(** Languages of [parse_and_maybe_preprocess] (stack_parser.py:1009, 793-800).  An
    unknown name raises an exception and is not modelled.  ["python_preprocessor"]
    is a language of its own, besides its use for ["python"]. *)
Inductive language := Python | Direct (l : preset).

(** What [parse_and_maybe_preprocess] returns (stack_parser.py:997-1007). *)
Record outcome := mkOutcome {
  o_tree : pnode;
  o_texts : list text;
  o_types : list ttype;
  o_raws : list text;
  o_pre : nat;
  o_post : nat }.

(** The three bracket pairs of every preset (stack_parser.py:927, 934, 941, 957, 964). *)
Definition brackets : list (text * text) := [([40], [41]); ([91], [93]); ([123], [125])].

(** stack_parser.py:1031-1032: the raw text of the newline that was appended
    becomes empty.  [raws[-n_post-1]] raises IndexError in too short a list. *)
Definition blank_newline (raw : list text) (post : nat) : result (list text) :=
  if length raw <? post + 1 then Err IndexError
  else
    let k := length raw - (post + 1) in
    match nth_error raw k with
    | Some t => if eqb t newline_text then Ok (firstn k raw ++ [] :: skipn (S k) raw) else Err AssertionError
    | None => Err IndexError
    end.

(** stack_parser.py:1077-1083: markers get an empty text, the others their own. *)
Fixpoint spread {A} `{EqDec A} (special : list A) (raw : list text) (l : list A) : result (list text) :=
  match l with
  | [] => Ok []
  | t :: l' =>
      if mem t special then do r <- spread special raw l'; Ok ([] :: r)
      else match raw with
           | x :: raw' => do r <- spread special raw' l'; Ok (x :: r)
           | [] => Err StopIteration
           end
  end.
(** stack_parser.py:1067-1085, [_get_raw_desugared_tokens]. *)
Definition raw_desugared {A} `{EqDec A} (special : list A) (raw : list text) (l : list A) : result (list text) :=
  let n1 := length raw + length (filter (fun t => mem t special) l) in
  if n1 =? length l
  then do r <- spread special raw l; if length r =? n1 then Ok r else Err AssertionError
  else Err AssertionError.

Section Tools.
  (** Character classes: [str.isupper] ... [str.isspace], and [\d] of [re].
      Python's [\s] and [str.isspace] agree. *)
  Variables isupper islower isdigit isspace digit : nat -> bool.
  Notation lex := (preset_lex digit).

  (** stack_parser.py:905-977, [PseudoParser.preset]; the second [[]] of the first
      preset's third argument stands in the source. *)
  Definition preset_parser (l : preset) : result parser :=
    match l with
    | Python_preprocessor =>
        make_parser (lex l) brackets [] [([40], [41]); ([91], [93]); ([91], [93])] [] true
    | Simple => make_parser (lex l) brackets [[59]] [([40], [41]); ([91], [93])] [] false
    | Cpp => make_parser (lex l) brackets [[59]] [] [TCPreprocessor; TCommentSlashSlash; TCommentSlashStar] false
    | Java | Javascript =>
        make_parser (lex l) brackets [[59]] [] [TCommentSlashSlash; TCommentSlashStar] false
    end.

  (** stack_parser.py:1009-1120, the branch for Python.  A [spi] of zero raises
      ZeroDivisionError in the code; here as in [line_indent] it must be positive. *)
  Definition parse_python (spi : nat) (code0 : text) : result outcome :=
    match rev code0 with
    | [] => Err IndexError
    | z :: _ =>
        let appended := negb (z =? 10) in
        let code := if appended then code0 ++ newline_text else code0 in
        do p <- preset_parser Python_preprocessor;
        do r <- pseudo_parse (lex Python_preprocessor) p code;
        do raw <- (if appended then blank_newline (raws r) (n_post r) else Ok (raws r));
        if negb (length (texts r) =? length raw) then Err AssertionError else
        if negb (valid_parse_ranges (tree r) (length (texts r))) then Err AssertionError else
        do e <- encode (lex Python_preprocessor) (codec_after r) newline_text;
        match snd e with
        | [newline] =>
            do a <- add_token (fst e) [] TPythonIndent true;
            do b <- add_token (fst a) [] TPythonDedent true;
            let indent := snd a in
            let dedent := snd b in
            do f <- encode (lex Python_preprocessor) (fst b) (concat (texts r));
            do out <- python_indent_dedent_desugar isspace (tree r) (texts r) (snd f) indent dedent newline spi;
            do ts <- decode_token (fst f) out;
            do tys <- decode_type (fst f) out;
            do raw' <- raw_desugared [indent; dedent] raw out;
            do unsplit <- stack_based_bracket_match (match_pairs p ++ [(indent, dedent)]) true out;
            if negb (valid_parse_ranges unsplit (length out)) then Err AssertionError else
            do split <- split_parse unsplit out [newline] (unsplittable_pairs p) (Some (indent, dedent));
            if negb (valid_parse_ranges split (length out)) then Err AssertionError else
            Ok (mkOutcome split ts tys raw' (n_pre r) (n_post r))
        | _ => Err ValueError
        end
    end.

  (** stack_parser.py:980-1137, [parse_and_maybe_preprocess]. *)
  Definition parse_and_maybe_preprocess (l : language) (code : text) (spi : nat) : result outcome :=
    match l with
    | Python => parse_python spi code
    | Direct l =>
        do p <- preset_parser l;
        do r <- pseudo_parse (lex l) p code;
        Ok (mkOutcome (tree r) (texts r) (types r) (raws r) (n_pre r) (n_post r))
    end.

  (** utilities.py:24-63, [infer_python_spaces_per_indent], with the default
      candidates. *)
  Definition infer_python_spaces_per_indent (code : text) : result nat :=
    match code with
    | [] => Ok 1
    | _ =>
        do o <- parse_and_maybe_preprocess Python code 1;
        Ok (infer_from_lengths (indent_lengths (o_types o) (o_raws o)) [1; 2; 3; 4])
    end.

  (** parser_tools.py:72-89: the two settings of a [ParserHelper]. *)
  Inductive helper_language := RawSimpleTokens | Parsed (l : language).

  (** parser_tools.py:91-140, [parse_to_nodes]. *)
  Definition parse_to_nodes (l : helper_language) (flatten : bool) (code : text) : result (list (node mtype)) :=
    match l with
    | RawSimpleTokens => Ok (subtokenize_token isupper islower isdigit isspace code)
    | Parsed l =>
        do spi <- (match l with Python => infer_python_spaces_per_indent code | Direct _ => Ok 1 end);
        do o <- parse_and_maybe_preprocess l code spi;
        do root <- to_nested isupper islower isdigit isspace (o_raws o) (o_types o)
                     [NWhiteSpaceLeaf; NNonContentLeaf] [NStringLiteral] (o_tree o);
        Ok (if flatten then flatten_groups [root] else [root])
    end.
End Tools.

(** stack_parser.py:215-226 and sequence_from_pseudo_parse.py:73, 79, 104, 125: the
    strings that serve as match types. *)
Definition type_name (m : mtype) : text :=
  match m with
  | MNode NRoot => chars "ROOT"
  | MNode NMatch => chars "MATCH"
  | MNode NMatchLeft => chars "MATCH_LEFT"
  | MNode NMatchRight => chars "MATCH_RIGHT"
  | MNode NMatchInner => chars "MATCH_INNER"
  | MNode NContentLeaf => chars "CONTENT_LEAF"
  | MNode NNonContentLeaf => chars "NON_CONTENT_LEAF"
  | MNode NWhiteSpaceLeaf => chars "WHITE_SPACE_LEAF"
  | MNode NSplitGroup => chars "SPLIT_GROUP"
  | MNode NStringLiteral => chars "STRING_LITERAL"
  | MSubtoken => chars "subtoken"
  end.
(** The same tree with these strings as match types. *)
Fixpoint named (n : node mtype) : node text :=
  match n with
  | Deco t => Deco t
  | Token t m => Token t (type_name m)
  | RegionStart => RegionStart
  | RegionEnd => RegionEnd
  | EarlyExit => EarlyExit
  | Group cs m => Group (map named cs) (type_name m)
  end.
Definition parse_to_named_nodes (isupper islower isdigit isspace digit : nat -> bool) (l : helper_language) (flatten : bool) (code : text)
  : result (list (node text)) :=
  do ns <- parse_to_nodes isupper islower isdigit isspace digit l flatten code; Ok (map named ns).
