(** Model of the codec, the pseudo parser and its clients:
    parsing/pseudo_parser/stack_parser.py:46-145, 776-903,
    parsing/sequence_from_pseudo_parse.py and parsing/pseudo_parser/utilities.py.

    The regular expressions of the codec presets (stack_parser.py:165-212) are a
    parameter [lex]: what [re.finditer] yields, as (text, token type) pairs. *)

From Coq Require Import List Bool Arith Lia.
From Verif Require Import Base SeqNodes StackParser Subtokenizer.
Import ListNotations.

(** stack_parser.py:46-66, [TokenType]. *)
Inductive ttype :=
| TNumber | TId | TOp | TPunc | TBrace | TNewline | TTab | TWhiteSpace | TOther | TString
| TCommentHash | TCommentSlashSlash | TCommentSlashStar | TCPreprocessor | TNonContent
| TPythonIndent | TPythonDedent.
#[export] Instance EqDec_ttype : EqDec ttype.
Proof. intros x y. decide equality. Defined.

(** Assignment to a Python dict: replaces the value of a known key. *)
Fixpoint dict_set {K V} `{EqDec K} (k : K) (v : V) (d : list (K * V)) : list (K * V) :=
  match d with
  | [] => [(k, v)]
  | (k', v') :: d' => if eqb k k' then (k, v) :: d' else (k', v') :: dict_set k v d'
  end.

(** stack_parser.py:69-87, the three dicts of [RegexCodec]. *)
Record codec := mkCodec {
  token_to_index : list (text * nat);
  index_to_token : list (nat * text);
  index_to_type : list (nat * ttype) }.
Definition new_codec : codec := mkCodec [] [] [].

(** stack_parser.py:89-107, [add_token]. *)
Definition add_token (c : codec) (t : text) (ty : ttype) (non_unique : bool) : result (codec * nat) :=
  match assoc t (token_to_index c), non_unique with
  | Some _, false => Err AssertionError
  | _, _ =>
      let i := length (token_to_index c) + 1 in
      Ok (mkCodec (dict_set t i (token_to_index c)) (dict_set i t (index_to_token c))
            (dict_set i ty (index_to_type c)), i)
  end.

(** stack_parser.py:121-131: the loop of [encode] over the matches. *)
Fixpoint encode_matches (c : codec) (ms : list (text * ttype)) : result (codec * list nat) :=
  match ms with
  | [] => Ok (c, [])
  | (t, ty) :: ms' =>
      do c1 <- match assoc t (token_to_index c) with
               | Some _ => Ok c
               | None => do r <- add_token c t ty false; Ok (fst r)
               end;
      match assoc t (token_to_index c1) with
      | None => Err KeyError
      | Some i =>
          match assoc i (index_to_type c1) with
          | None => Err KeyError
          | Some ty' =>
              if eqb ty ty' then do r <- encode_matches c1 ms'; Ok (fst r, i :: snd r)
              else Err AssertionError
          end
      end
  end.

(** stack_parser.py:134-140. *)
Definition or_key {A} (o : option A) : result A := match o with Some a => Ok a | None => Err KeyError end.
Definition decode_token (c : codec) (l : list nat) : result (list text) :=
  mapM (fun i => or_key (assoc i (index_to_token c))) l.
Definition decode_type (c : codec) (l : list nat) : result (list ttype) :=
  mapM (fun i => or_key (assoc i (index_to_type c))) l.

Section Parser.
  Variable lex : text -> list (text * ttype).

  (** stack_parser.py:109-132, [encode]; the returned types are those of the
      matches, [map snd (lex code)]. *)
  Definition encode (c : codec) (code : text) : result (codec * list nat) := encode_matches c (lex code).

  (** stack_parser.py:776-829, [PseudoParser]. *)
  Record parser := mkParser {
    match_pairs : list (nat * nat);
    unsplittable_pairs : list (nat * nat);
    splitters : list nat;
    split_types : list ttype;
    newline_terminate : bool;
    codec_of : codec }.

  (** stack_parser.py:812-816, [encode_one]. *)
  Definition encode_one (c : codec) (s : text) : result (codec * nat) :=
    do r <- encode c s; match snd r with [i] => Ok (fst r, i) | _ => Err AssertionError end.
  Fixpoint encode_all (c : codec) (l : list text) : result (codec * list nat) :=
    match l with
    | [] => Ok (c, [])
    | s :: l' => do r <- encode_one c s; do r' <- encode_all (fst r) l'; Ok (fst r', snd r :: snd r')
    end.
  Fixpoint encode_pairs (c : codec) (l : list (text * text)) : result (codec * list (nat * nat)) :=
    match l with
    | [] => Ok (c, [])
    | (a, b) :: l' =>
        do x <- encode_one c a; do y <- encode_one (fst x) b;
        do r <- encode_pairs (fst y) l'; Ok (fst r, (snd x, snd y) :: snd r)
    end.
  (** stack_parser.py:799-829, the constructor. *)
  Definition make_parser (pairs : list (text * text)) (split_tokens : list text)
      (unsplit : list (text * text)) (types : list ttype) (terminate : bool) : result parser :=
    do m <- encode_pairs new_codec pairs;
    do u <- encode_pairs (fst m) unsplit;
    do s <- encode_all (fst u) split_tokens;
    Ok (mkParser (snd m) (snd u) (snd s) types terminate (fst s)).

  Record parsed := mkParsed {
    tree : pnode;
    codes : list nat;
    texts : list text;
    types : list ttype;
    raws : list text;
    n_pre : nat;
    n_post : nat;
    codec_after : codec }.

  Definition newline_text : text := [10].

  (** stack_parser.py:831-903, [pseudo_parse]. *)
  Definition pseudo_parse (p : parser) (code : text) : result parsed :=
    do e <- encode (codec_of p) code;
    let (c1, tokens) := e in
    let (prefix, suffix0) := error_correcting_prefix_and_suffix (match_pairs p) tokens in
    do cs <- (if negb (length suffix0 =? 0) && newline_terminate p
              then do r <- encode c1 newline_text;
                   match snd r with i :: _ => Ok (fst r, suffix0 ++ [i]) | [] => Err IndexError end
              else Ok (c1, suffix0));
    let (c2, suffix) := cs in
    let corrected := prefix ++ tokens ++ suffix in
    do ts <- decode_token c2 corrected;
    do raw <- decode_token c2 tokens;
    do tys <- decode_type c2 corrected;
    do unsplit <- stack_based_bracket_match (match_pairs p) true corrected;
    if negb (valid_parse_ranges unsplit (length corrected)) then Err AssertionError else
    let by_type := map fst (filter (fun x => mem (snd (snd x)) (split_types p))
                              (combine tokens (lex code))) in
    do split <- split_parse unsplit corrected (splitters p ++ by_type) (unsplittable_pairs p) None;
    if negb (valid_parse_ranges split (length corrected)) then Err AssertionError else
    Ok (mkParsed split corrected ts tys
          (repeat [] (length prefix) ++ raw ++ repeat [] (length suffix))
          (length prefix) (length suffix) c2).
End Parser.

(** ** sequence_from_pseudo_parse.py *)

(** stack_parser.py:215-229, [NodeType]. *)
Inductive ntype :=
| NRoot | NMatch | NMatchLeft | NMatchRight | NMatchInner | NContentLeaf | NNonContentLeaf
| NWhiteSpaceLeaf | NSplitGroup | NStringLiteral.
#[export] Instance EqDec_ntype : EqDec ntype.
Proof. intros x y. decide equality. Defined.
(** Match types are node type names (sequence_from_pseudo_parse.py:73, 79, 104)
    and ["subtoken"] (125). *)
Inductive mtype := MNode (t : ntype) | MSubtoken.

Section Sequence.
  Variables isupper islower isdigit isspace : nat -> bool.

  (** stack_parser.py:302-303, [Node.text]. *)
  Definition p_text (tokens : list text) (n : pnode) : text := concat (py_slice (p_lo n, p_hi n) tokens).

  (** stack_parser.py:246-273, [Node.type].  [TokenType.STRING] and
      [NodeType.STRING_LITERAL] are both 9, so that the comparison of line 258
      holds for string tokens.  [ALL_WHITE_SPACE_REGEX] (29) matches the nonempty
      strings of white space. *)
  Definition p_type (tokens : list text) (tys : list ttype) (n : pnode) : result ntype :=
    match p_ann n with
    | ARoot => Ok NRoot
    | ASibling =>
        match p_children n with
        | _ :: _ => Err AssertionError
        | [] =>
            match p_text tokens n with
            | [] => Ok NNonContentLeaf
            | s => if forallb isspace s then Ok NWhiteSpaceLeaf
                   else if forallb (eqb TString) (py_slice (p_lo n, p_hi n) tys) then Ok NStringLiteral
                   else Ok NContentLeaf
            end
        end
    | APaired => Ok NMatch
    | ALeft => Ok NMatchLeft
    | ARight => Ok NMatchRight
    | AMiddle => Ok NMatchInner
    | ASplit => Ok NSplitGroup
    end.

  (** sequence_from_pseudo_parse.py:108-127. *)
  Definition subtokenize_token (t : text) : list (node mtype) :=
    map (fun s => Token s MSubtoken) (code_to_tokens isupper islower isdigit isspace t).

  (** sequence_from_pseudo_parse.py:35-105. *)
  Fixpoint to_nested (tokens : list text) (tys : list ttype) (deco subtok : list ntype) (n : pnode)
    : result (node mtype) :=
    do ty <- p_type tokens tys n;
    if mem ty deco then Ok (Deco (p_text tokens n))
    else if mem ty subtok then Ok (Group (subtokenize_token (p_text tokens n)) (MNode ty))
    else
      match n with
      | PNode lo hi ann cs =>
          match cs with
          | [] => Ok (Token (p_text tokens n) (MNode ty))
          | _ =>
              if eqb (Some lo :: map p_hi cs) (map (fun c => Some (p_lo c)) cs ++ [hi])
              then do l <- (fix go (l : list pnode) : result (list (node mtype)) :=
                              match l with
                              | [] => Ok []
                              | c :: l' => do x <- to_nested tokens tys deco subtok c; do r <- go l'; Ok (x :: r)
                              end) cs;
                   Ok (Group l (MNode ty))
              else Err ValueError
          end
      end.
End Sequence.

(** ** utilities.py *)
Section Utilities.
  (** utilities.py:54-63: the last of the candidates that divides every length. *)
  Definition divides_all (c : nat) (lengths : list nat) : bool := forallb (fun l => l mod c =? 0) lengths.
  Definition infer_from_lengths (lengths candidates : list nat) : nat :=
    match lengths with
    | [] => 1
    | _ => fold_left (fun best c => if divides_all c lengths then c else best) candidates 1
    end.
  (** utilities.py:44-52. *)
  Fixpoint indent_lengths (tys : list ttype) (raw : list text) : list nat :=
    match tys, raw with
    | p :: ((t :: _) as tys'), _ :: ((r :: _) as raw') =>
        (if eqb t TWhiteSpace && (eqb p TPythonIndent || eqb p TPythonDedent) && negb (length r =? 0)
         then [length r] else []) ++ indent_lengths tys' raw'
    | _, _ => []
    end.

  (** The leaves in depth-first order, each with the number of relevant bracket
      pairs around it (utilities.py:190-216) and, for the split search, with
      whether it is the last child of a split group (288-290).  [deeper] tells
      whether a pair with these outer children counts. *)
  Section Leaves.
    Variable deeper : pnode -> pnode -> result bool.
    Fixpoint depth_leaves (n : pnode) (d : nat) : result (list (pnode * nat)) :=
      match n with
      | PNode lo hi ann cs =>
          match cs with
          | [] => Ok [(n, d)]
          | _ =>
              (fix go (l : list pnode) : result (list (pnode * nat)) :=
                 match l with
                 | [] => Ok []
                 | c :: l' =>
                     do inc <- (if eqb (p_ann c) AMiddle then
                                  match cs with
                                  | [lc; mc; rc] =>
                                      if eqb (p_ann lc) ALeft && eqb (p_ann rc) ARight then deeper lc rc
                                      else Err AssertionError
                                  | _ => Err ValueError
                                  end
                                else Ok false);
                     do x <- depth_leaves c (if inc then S d else d);
                     do r <- go l';
                     Ok (x ++ r)
                 end) cs
          end
      end.
  End Leaves.
  Definition leaf_length (raw : list text) (n : pnode) : result nat :=
    if eqb (p_hi n) (Some (p_lo n)) then Ok 0
    else match nth_error raw (p_lo n) with Some t => Ok (length t) | None => Err IndexError end.

  (** utilities.py:218-246: the loop over the leaves. *)
  Fixpoint match_pair_loop (raw : list text) (cursor : nat) (code_index : nat) (cursor_depth : option nat)
      (finished : bool) (l : list (pnode * nat)) : result (option nat) :=
    match l with
    | [] => Ok None
    | (n, d) :: l' =>
        let found := (cursor <? code_index) && (match cursor_depth with None => true | Some _ => false end) in
        if found && (d =? 0) then Ok None
        else
          let cd := if found then Some d else cursor_depth in
          do len <- leaf_length raw n;
          let code_index := code_index + len in
          if finished then Ok (Some code_index)
          else match_pair_loop raw cursor code_index cd
                 (match cd with Some k => (d + 1 =? k) | None => false end) l'
    end.

  (** The pair to look for: every pair, a pair of token types, a pair of texts. *)
  Inductive wanted_pair := AnyPair | TypePair (a b : ttype) | TextPair (a b : text).
  Definition nth_or {A} (l : list A) (i : nat) : result A :=
    match nth_error l i with Some a => Ok a | None => Err IndexError end.
  (** utilities.py:203-215. *)
  Definition pair_counts (raw : list text) (tys : list ttype) (w : wanted_pair) (lc rc : pnode) : result bool :=
    match w with
    | AnyPair => Ok true
    | TypePair a b =>
        do x <- nth_or tys (p_lo lc);
        if eqb x a then do y <- nth_or tys (p_lo rc); if eqb y b then Ok true else Err AssertionError
        else Ok false
    | TextPair a b =>
        do x <- nth_or raw (p_lo lc);
        if eqb x a then Ok true else do y <- nth_or raw (p_lo rc); Ok (eqb y b)
    end.
  (** utilities.py:158-248, [infer_match_pair_truncation_index].  The traversal
      of the code is lazy; the model computes all leaves first, so that an
      exception in a part of the tree after the returned position is raised by
      the model only. *)
  Definition infer_match_pair_truncation_index (root : pnode) (raw : list text) (tys : list ttype)
      (w : wanted_pair) (cursor : nat) : result (option nat) :=
    let len := length (concat raw) in
    if cursor =? len then Ok (Some len)
    else if len <? cursor then Err AssertionError
    else do l <- depth_leaves (pair_counts raw tys w) root 0; match_pair_loop raw cursor 0 None false l.

  (** utilities.py:251-296.  Each leaf comes with whether its parent is a split
      group whose last child it is. *)
  Fixpoint split_leaves (n : pnode) (last_of_split : bool) : list (pnode * bool) :=
    match n with
    | PNode lo hi ann cs =>
        match cs with
        | [] => [(n, last_of_split)]
        | _ =>
            (fix go (l : list pnode) : list (pnode * bool) :=
               match l with
               | [] => []
               | [c] => split_leaves c (eqb ann ASplit)
               | c :: l' => split_leaves c false ++ go l'
               end) cs
        end
    end.
  Fixpoint split_loop (raw : list text) (splitters : list text) (cursor : nat) (code_index : nat)
      (after : bool) (l : list (pnode * bool)) : result nat :=
    match l with
    | [] => Ok code_index
    | (n, is_last) :: l' =>
        let after := after || (cursor <? code_index) in
        do len <- leaf_length raw n;
        let code_index := code_index + len in
        do stop <- (if after && is_last then do t <- nth_or raw (p_lo n); Ok (mem t splitters) else Ok false);
        if stop then Ok code_index else split_loop raw splitters cursor code_index after l'
    end.
  Definition infer_split_truncation_index (root : pnode) (raw : list text) (splitters : list text) (cursor : nat)
    : result nat :=
    let len := length (concat raw) in
    if cursor =? len then Ok len
    else if len <? cursor then Err AssertionError
    else split_loop raw splitters cursor 0 false (split_leaves root false).

  (** utilities.py:332-353: the two searches of [infer_truncation_with_fallbacks]
      on the result of the parse. *)
  Definition truncation_with_fallbacks (root : pnode) (raw : list text) (tys : list ttype)
      (w : wanted_pair) (splitters : list text) (cursor : nat) : result nat :=
    do m <- infer_match_pair_truncation_index root raw tys w cursor;
    match m with Some k => Ok k | None => infer_split_truncation_index root raw splitters cursor end.

  (** utilities.py:356-382, [infer_truncation_pydocstring]; [find] returns the
      first position of a substring. *)
  Fixpoint starts_with (p l : text) : bool :=
    match p, l with
    | [], _ => true
    | _ :: _, [] => false
    | x :: p', y :: l' => (x =? y) && starts_with p' l'
    end.
  Fixpoint find (p l : text) : option nat :=
    if starts_with p l then Some 0
    else match l with [] => None | _ :: l' => option_map S (find p l') end.
  Definition infer_truncation_pydocstring (code : text) (cursor : nat) : result (option nat) :=
    let before := firstn cursor code in
    let q := skipn (length before - 3) before in
    if eqb q [34; 34; 34] || eqb q [39; 39; 39] then
      match find q (skipn cursor code) with
      | None => Ok None
      | Some k => Ok (Some (cursor + k + length q))
      end
    else Err AssertionError.
End Utilities.
