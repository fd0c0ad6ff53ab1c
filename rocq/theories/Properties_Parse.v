(** C34-C40: the token codec, bracket matching, splitting, indentation,
    conversion to node sequences and truncation points.  Specification
    vocabulary: [StackParserProofs.v] ([balanced], [strictly_balanced], [tiles],
    [valid_tree], [leaf_tokens], [leaf_ranges], [split_up]), [DesugarProofs.v]
    ([without_markers], [occurrences], [nested], [lines_of], [line_placed]),
    [PseudoParseProofs.v] ([convertible], [chained], [ends_split], [stops],
    [parse_of]). *)

From Coq Require Import List Bool Arith Lia Sorting.Sorted.
From Verif Require Import Base SeqNodes Subtokenizer StackParser StackParserProofs DesugarProofs
  ParseShape PseudoParse PseudoParseProofs.
Import ListNotations.

(** A lexer for the examples: every character is a token. *)
Definition ex_type (t : text) : ttype :=
  if mem t [[40]; [41]; [91]; [93]; [123]; [125]] then TBrace else if eqb t [10] then TNewline
  else if eqb t [32] then TWhiteSpace else if eqb t [34] then TString else TId.
Definition ex_lex (code : text) : list (text * ttype) := map (fun c => ([c], ex_type [c])) code.
Definition ex_pairs : list (text * text) := [([40], [41]); ([91], [93])].

(** ** C34.  The codec. *)
(** After any history of registrations and encodings, distinct tokens have
    distinct codes; encoding any sequence of matches and decoding the codes
    gives the tokens and their types back; and later operations do not change
    what codes stand for. *)
Theorem C34_codec_faithful :
  forall (ops : list codec_op) (c : codec), codec_run new_codec ops = Ok c ->
    (forall t u i, assoc t (token_to_index c) = Some i -> assoc u (token_to_index c) = Some i -> t = u) /\
    (forall ms c' l, encode_matches c ms = Ok (c', l) ->
       decode_token c' l = Ok (map fst ms) /\ decode_type c' l = Ok (map snd ms) /\
       forall later c'', codec_run c' later = Ok c'' -> decode_token c'' l = Ok (map fst ms)).
Proof.
  intros ops c E. destruct (codec_run_ok _ _ _ new_codec_ok E) as [Hc _]. split.
  - intros t u i A B. apply (ck_inv _ Hc) in A, B. congruence.
  - intros ms c' l Em. destruct (encode_matches_spec _ _ _ _ Hc Em) as [Hc' [_ F]].
    destruct (decode_known _ _ _ Hc' F) as [D1 D2]. splits; auto.
    intros later c'' El. destruct (codec_run_ok _ _ _ Hc' El) as [_ Hx]. eapply decode_extends; eauto.
Qed.
(** Encoding fails only when a token is seen with two types. *)
Theorem C34_encode_succeeds :
  forall (ty : text -> ttype) (histories : list (list (text * ttype))) (ms : list (text * ttype)) (c : codec),
    Forall (Forall (fun m => snd m = ty (fst m))) histories -> Forall (fun m => snd m = ty (fst m)) ms ->
    codec_run new_codec (map Encode histories) = Ok c ->
    exists c' l, encode_matches c ms = Ok (c', l) /\ length l = length ms.
Proof.
  intros ty hs ms c Hh Hm E.
  assert (G : forall hs c0, codec_ok c0 -> types_by ty c0 -> Forall (Forall (fun m => snd m = ty (fst m))) hs ->
            codec_run c0 (map Encode hs) = Ok c -> codec_ok c /\ types_by ty c).
  { clear. induction hs as [|h hs IH]; intros c0 H0 T0 HF E; cbn [map codec_run codec_step] in E.
    - injection E as <-. auto.
    - inversion HF as [|? ? F1 F2]; subst. apply bind_ok_inv in E as [c1 [E1 E2]].
      apply bind_ok_inv in E1 as [[c2 l] [E1 [= <-]]]. cbn [fst] in E2.
      destruct (encode_matches_ok ty _ F1 c0 H0 T0) as [c3 [l3 [E3 T3]]]. rewrite E1 in E3. injection E3 as <- <-.
      destruct (encode_matches_spec _ _ _ _ H0 E1) as [A _]. eauto. }
  destruct (G hs new_codec new_codec_ok) as [Hc Ht]; auto; [intros t i C; discriminate|].
  destruct (encode_matches_ok ty _ Hm c Hc Ht) as [c' [l [El _]]]. exists c', l. split; auto.
  destruct (encode_matches_spec _ _ _ _ Hc El) as [_ [_ F]]. symmetry. now apply F2_len in F.
Qed.
Example C34_example :
  match codec_run new_codec [Encode (ex_lex [40; 120; 41]); Register [200] TOther] with
  | Ok c => match encode_matches c (ex_lex [120; 120; 10; 40]) with Ok (_, l) => l | Err _ => [] end
  | Err _ => []
  end = [2; 2; 5; 1].
Proof. reflexivity. Qed.
(** Registering one token several times, as [parse_and_maybe_preprocess] does
    for its two empty marker tokens (stack_parser.py:1046-1055), spoils the
    numbering: the next new token gets the code of the second marker. *)
Definition after_markers : result (codec * nat) :=
  do a <- add_token new_codec [] TPythonIndent true;
  do b <- add_token (fst a) [] TPythonDedent true;
  Ok b.
Theorem C34_nonunique_refuted :
  exists c i, after_markers = Ok (c, i) /\
    exists c' j, add_token c [120] TId false = Ok (c', j) /\ j = i /\
      decode_token c' [i] = Ok [[120]].
Proof.
  unfold after_markers. eexists _, _. split; [reflexivity|]. eexists _, _. split; [reflexivity|]. split; reflexivity.
Qed.
Print Assumptions C34_codec_faithful.
Print Assumptions C34_encode_succeeds.
Print Assumptions C34_nonunique_refuted.

(** ** C35.  Error correction. *)
Theorem C35_correction_balances :
  forall (T : Type) (dec : EqDec T) (pairs : list (T * T)) (tokens : list T), proper_pairs pairs ->
    forall prefix suffix, error_correcting_prefix_and_suffix pairs tokens = (prefix, suffix) ->
      balanced pairs None (prefix ++ tokens ++ suffix) /\
      incl prefix (openers pairs) /\ incl suffix (closers pairs).
Proof.
  intros T dec pairs tokens HP prefix suffix E. split; [now apply correction_balances|].
  eapply correction_members; eauto.
Qed.
Theorem C35_nothing_added_iff_balanced :
  forall (T : Type) (dec : EqDec T) (pairs : list (T * T)) (tokens : list T), proper_pairs pairs ->
    (balanced pairs None tokens <-> error_correcting_prefix_and_suffix pairs tokens = ([], [])).
Proof. intros. now apply correction_idle. Qed.
(** The corrected sequence is accepted by the bracket matcher, which builds the
    tree of the brackets. *)
Theorem C35_matching_accepts :
  forall (T : Type) (dec : EqDec T) (pairs : list (T * T)) (tokens : list T), proper_pairs pairs ->
    forall prefix suffix, error_correcting_prefix_and_suffix pairs tokens = (prefix, suffix) ->
    let all := prefix ++ tokens ++ suffix in
    exists ns, forest pairs None 0 all ns /\
      stack_based_bracket_match pairs true all = Ok (PNode 0 (Some (length all)) ARoot ns).
Proof.
  intros T dec pairs tokens HP prefix suffix E all. apply match_tree; auto. now apply correction_balances.
Qed.
Example C35_example :
  let pairs := [(1, 2); (3, 4)] in
  proper_pairs pairs /\
  error_correcting_prefix_and_suffix pairs [2; 9; 1; 3; 2; 9] = ([1], [4; 2]).
Proof.
  split; [|reflexivity]. split; [|split].
  - repeat constructor; cbn; intuition discriminate.
  - repeat constructor; cbn; intuition discriminate.
  - cbn. intros t [<-|[<-|[]]]; intuition discriminate.
Qed.
Print Assumptions C35_correction_balances.
Print Assumptions C35_nothing_added_iff_balanced.
Print Assumptions C35_matching_accepts.

(** ** C36.  The parse covers the tokens exactly. *)
Theorem C36_match_covers :
  forall (T : Type) (dec : EqDec T) (pairs : list (T * T)) (tolerant : bool) (tokens : list T),
    proper_pairs pairs -> balanced pairs None tokens -> tolerant = true \/ strictly_balanced pairs tokens ->
    exists root, stack_based_bracket_match pairs tolerant tokens = Ok root /\
      valid_tree root (length tokens) /\ leaf_tokens root = seq 0 (length tokens) /\
      filter nonempty_range (leaf_ranges root) = map single (seq 0 (length tokens)).
Proof.
  intros T dec pairs tol tokens HP Hb Ht. destruct (match_tree pairs HP tol tokens Hb Ht) as [ns [F E]].
  exists (PNode 0 (Some (length tokens)) ARoot ns). pose proof (forest_tiles _ _ _ _ _ F) as Ti. cbn [Nat.add] in Ti. splits; auto.
  - exists ARoot, ns. auto.
  - cbn [leaf_tokens]. destruct ns as [|c cs]; [now rewrite Nat.sub_0_r|]. rewrite (tiles_leaves _ _ _ Ti). now rewrite Nat.sub_0_r.
  - cbn [leaf_ranges]. destruct ns as [|c cs].
    + assert (Z : length tokens = 0) by (inversion Ti; auto). rewrite Z. reflexivity.
    + apply (forest_leaves _ _ _ _ _ F).
Qed.
(** Splitting succeeds on every such tree, keeps the cover and the leaves, and
    cuts every sequence of siblings right after each split token. *)
Theorem C36_split_covers :
  forall (T : Type) (dec : EqDec T) (pairs unsplit : list (T * T)) (splits tokens : list T) (root : pnode),
    proper_pairs pairs -> balanced pairs None tokens -> stack_based_bracket_match pairs true tokens = Ok root ->
    exists root', split_parse root tokens splits unsplit None = Ok root' /\
      valid_tree root' (length tokens) /\ leaf_tokens root' = seq 0 (length tokens) /\
      leaf_ranges root' = leaf_ranges root /\
      (splits <> [] -> split_up tokens splits unsplit root').
Proof.
  intros T dec pairs unsplit splits tokens root HP Hb E.
  destruct (match_tree pairs HP true tokens Hb (or_introl eq_refl)) as [ns [F E']]. rewrite E in E'. injection E' as ->.
  pose proof (forest_tiles _ _ _ _ _ F) as Ti. cbn [Nat.add] in Ti.
  assert (Wr : well_formed (length tokens) (PNode 0 (Some (length tokens)) ARoot ns)).
  { apply WF; auto with arith; [now apply (forest_well_formed _ _ 0 _ _ F)|discriminate]. }
  assert (Ur : unsplit_tree (PNode 0 (Some (length tokens)) ARoot ns)).
  { constructor; [discriminate|]. apply (forest_unsplit _ _ _ _ _ F). }
  destruct (split_parse_ok tokens splits unsplit _ Wr Ur) as [n' En]. exists n'. split; auto.
  destruct (split_parse_spec _ _ _ _ _ _ Wr Ur En) as [W' [F' [L' S']]].
  destruct F' as [F1 [F2 F3]]. inversion W' as [lo hi ann cs A B C D E0]; subst. cbn [p_lo p_hi p_ann] in *.
  injection F2 as ->. subst lo. splits; auto.
  - exists ann, cs. auto.
  - cbn [leaf_tokens]. destruct cs as [|c cs]; [now rewrite Nat.sub_0_r|]. destruct C as [C|C]; [discriminate|].
    rewrite (tiles_leaves _ _ _ C). now rewrite Nat.sub_0_r.
Qed.
(** With nesting of a pair's group under its left neighbour, whatever is
    returned still covers the tokens exactly. *)
Theorem C36_split_nested_covers :
  forall (T : Type) (dec : EqDec T) (pairs unsplit : list (T * T)) (splits tokens : list T) (sub : T * T) (root root' : pnode),
    proper_pairs pairs -> balanced pairs None tokens -> stack_based_bracket_match pairs true tokens = Ok root ->
    split_parse root tokens splits unsplit (Some sub) = Ok root' ->
    valid_tree root' (length tokens) /\ leaf_tokens root' = seq 0 (length tokens) /\ leaf_ranges root' = leaf_ranges root.
Proof.
  intros T dec pairs unsplit splits tokens sub root root' HP Hb E En.
  destruct (match_tree pairs HP true tokens Hb (or_introl eq_refl)) as [ns [F E']]. rewrite E in E'. injection E' as ->.
  pose proof (forest_tiles _ _ _ _ _ F) as Ti. cbn [Nat.add] in Ti.
  assert (Wr : well_formed (length tokens) (PNode 0 (Some (length tokens)) ARoot ns)).
  { apply WF; auto with arith; [now apply (forest_well_formed _ _ 0 _ _ F)|discriminate]. }
  assert (Ur : unsplit_tree (PNode 0 (Some (length tokens)) ARoot ns)).
  { constructor; [discriminate|]. apply (forest_unsplit _ _ _ _ _ F). }
  destruct (split_parse_spec _ _ _ _ _ _ Wr Ur En) as [W' [F' [L' S']]].
  destruct F' as [F1 [F2 F3]]. inversion W' as [lo hi ann cs A B C D E0]; subst. cbn [p_lo p_hi p_ann] in *.
  injection F2 as ->. subst lo. splits; auto.
  - exists ann, cs. auto.
  - cbn [leaf_tokens]. destruct cs as [|c cs]; [now rewrite Nat.sub_0_r|]. destruct C as [C|C]; [discriminate|].
    rewrite (tiles_leaves _ _ _ C). now rewrite Nat.sub_0_r.
Qed.
(** The check the parser runs on its trees is exact (for ranges that are not
    reversed). *)
Theorem C36_check_exact :
  forall (root : pnode) (size : nat), forward_ranges root ->
    (valid_parse_ranges root size = true <-> valid_tree root size).
Proof. exact valid_parse_ranges_iff. Qed.
(** The whole of [pseudo_parse], for every lexer whose tokens' types are
    determined by their texts: it never fails, adds brackets only where needed,
    and its tree covers the corrected tokens exactly. *)
Theorem C36_pseudo_parse :
  forall (lex : text -> list (text * ttype)) (ty : text -> ttype),
    (forall code, Forall (fun m => snd m = ty (fst m)) (lex code)) ->
    lex newline_text = [(newline_text, ty newline_text)] ->
    forall (pairs : list (text * text)) (split_tokens : list text) (unsplit : list (text * text))
           (split_by_type : list ttype) (terminate : bool) (p : parser) (code : text),
    make_parser lex pairs split_tokens unsplit split_by_type terminate = Ok p ->
    (forall s t, In s (openers pairs ++ closers pairs) -> map fst (lex s) = [t] -> t = s) ->
    proper_pairs pairs -> ~ In newline_text (openers pairs) -> ~ In newline_text (closers pairs) ->
    exists r, pseudo_parse lex p code = Ok r /\ parse_of lex ty pairs terminate code r.
Proof. intros lex ty Hty Hnl. exact (pseudo_parse_spec lex ty Hty Hnl). Qed.
Example C36_example : (* "(x;y)" without its last bracket, split at ";" *)
  match make_parser ex_lex ex_pairs [[59]] [] [] true with
  | Ok p => match pseudo_parse ex_lex p [40; 120; 59; 121] with
            | Ok r => (texts r, raws r, n_post r, leaf_tokens (tree r), valid_parse_ranges (tree r) (length (texts r)))
            | Err _ => ([], [], 0, [], false)
            end
  | Err _ => ([], [], 0, [], false)
  end = ([[40]; [120]; [59]; [121]; [41]; [10]], [[40]; [120]; [59]; [121]; []; []], 2, [0; 1; 2; 3; 4; 5], true)
  /\ proper_pairs ex_pairs /\ ex_lex newline_text = [(newline_text, ex_type newline_text)].
Proof.
  split; [vm_compute; reflexivity|]. split; [|reflexivity]. split; [|split].
  - repeat constructor; cbn; intuition discriminate.
  - repeat constructor; cbn; intuition discriminate.
  - cbn. intros t [<-|[<-|[]]]; intuition discriminate.
Qed.
(** Without error correction a closer outside of all brackets disappears from
    the tree, in both modes. *)
Theorem C36_uncorrected_refuted :
  exists (pairs : list (nat * nat)) (tokens : list nat), proper_pairs pairs /\
    forall tolerant, exists root, stack_based_bracket_match pairs tolerant tokens = Ok root /\
      valid_parse_ranges root (length tokens) = false /\ leaf_tokens root = [1].
Proof.
  exists [(1, 2)], [2; 9]. split.
  - split; [|split].
    + repeat constructor; cbn; intuition discriminate.
    + repeat constructor; cbn; intuition discriminate.
    + cbn. intros t [<-|[]]; intuition discriminate.
  - intros [|]; eexists; splits; reflexivity.
Qed.
Print Assumptions C36_match_covers.
Print Assumptions C36_split_covers.
Print Assumptions C36_split_nested_covers.
Print Assumptions C36_check_exact.
Print Assumptions C36_pseudo_parse.
Print Assumptions C36_uncorrected_refuted.

(** ** C37.  Indentation markers. *)
Theorem C37_desugar :
  forall (T : Type) (dec : EqDec T) (is_space : nat -> bool) (texts : list text) (tokens : list T)
         (indent dedent newline : T) (spaces : nat) (root : pnode),
    indent <> dedent -> ~ In indent tokens -> ~ In dedent tokens -> 0 < spaces ->
    tiles 0 (length tokens) (p_children root) ->
    Forall (fun c => forall h, p_hi c = Some h -> p_lo c < h) (p_children root) ->
    (tokens <> [] -> nth_error tokens (length tokens - 1) = Some newline) ->
    exists lines out,
      lines_of tokens newline 0 (p_children root) lines /\
      python_indent_dedent_desugar is_space root texts tokens indent dedent newline spaces = Ok out /\
      without_markers indent dedent out = tokens /\
      occurrences indent out = occurrences dedent out /\
      (forall A B, out = A ++ B -> occurrences dedent A <= occurrences indent A) /\
      (** every line that is not blank stands inside as many open indents as its
          leading white space asks for *)
      Forall (fun l => forall i, line_indent is_space spaces (concat (span texts (fst l) (snd l))) = Some i ->
                exists A B, out = A ++ span tokens (fst l) (snd l - 1) ++ B ++ [newline] /\
                  without_markers indent dedent A = firstn (fst l) tokens /\
                  occurrences indent A = occurrences dedent A + i) lines.
Proof.
  intros T dec is_space texts tokens indent dedent newline spaces root Hne Hi Hd Hs Ht Hf Hl.
  destruct (desugar_spec is_space texts tokens indent dedent newline spaces Hne Hi Hd root Hs Ht Hf Hl)
    as [ls [out [A [B [C [D [E F]]]]]]]. exists ls, out. splits; auto.
Qed.
Definition ex_space (c : nat) : bool := c =? 32.
Definition ex_leaf (i : nat) : pnode := PNode i (Some (S i)) ASibling [].
Example C37_example : (* "a\n b\nc\n" *)
  let texts := [[97]; [10]; [32]; [98]; [10]; [99]; [10]] in
  python_indent_dedent_desugar ex_space (PNode 0 (Some 7) ARoot (map ex_leaf (seq 0 7))) texts [5; 1; 6; 7; 1; 8; 1] 2 3 1 1
  = Ok [5; 1; 2; 6; 7; 3; 1; 8; 1] /\
  tiles 0 7 (map ex_leaf (seq 0 7)).
Proof. split; [reflexivity|]. cbn. repeat (apply tiles_cons; [lia|now left|]). apply tiles_nil. Qed.
(** Without a final newline all but the first node of the last line are lost,
    or the assertion fails. *)
Theorem C37_no_final_newline_refuted :
  let run texts tokens :=
    let n := length tokens in
    python_indent_dedent_desugar ex_space (PNode 0 (Some n) ARoot (map ex_leaf (seq 0 n))) texts tokens 2 3 1 1 in
  run [[97]; [10]; [32]; [98]] [5; 1; 6; 7] = Ok [5; 1; 6] /\
  run [[32; 97]] [5] = Err AssertionError.
Proof. split; reflexivity. Qed.
Print Assumptions C37_desugar.
Print Assumptions C37_no_final_newline_refuted.

(** ** C38.  From parse tree to node sequence. *)
Theorem C38_succeeds_iff_convertible :
  forall (isupper islower isdigit isspace : nat -> bool) (tokens : list text) (tys : list ttype)
         (deco subtok : list ntype) (n : pnode),
    (exists s, to_nested isupper islower isdigit isspace tokens tys deco subtok n = Ok s) <->
    convertible isspace tokens tys deco subtok n.
Proof. exact convert_ok_iff. Qed.
Theorem C38_errors :
  forall (isupper islower isdigit isspace : nat -> bool) (tokens : list text) (tys : list ttype)
         (deco subtok : list ntype) (n : pnode) (e : exn),
    to_nested isupper islower isdigit isspace tokens tys deco subtok n = Err e ->
    e = ValueError \/ e = AssertionError.
Proof. exact convert_errors. Qed.
Theorem C38_text :
  forall (isupper islower isdigit isspace : nat -> bool) (tokens : list text) (tys : list ttype)
         (deco subtok : list ntype) (n : pnode) (s : node mtype),
    forward_ranges n -> to_nested isupper islower isdigit isspace tokens tys deco subtok n = Ok s ->
    render [s] = concat (py_slice (p_lo n, p_hi n) tokens).
Proof. intros until s. apply convert_text. Qed.
(** Every tree returned by [pseudo_parse] is convertible, to a sequence with the
    text of the corrected tokens. *)
Theorem C38_parse_trees_convert :
  forall (lex : text -> list (text * ttype)) (ty : text -> ttype) (pairs : list (text * text)) (terminate : bool)
         (code : text) (r : parsed), parse_of lex ty pairs terminate code r ->
  forall (isupper islower isdigit isspace : nat -> bool) (deco subtok : list ntype),
    exists s, to_nested isupper islower isdigit isspace (texts r) (types r) deco subtok (tree r) = Ok s /\
      render [s] = concat (texts r).
Proof.
  intros lex ty pairs terminate code r Hr u l d sp deco subtok.
  destruct (proj2 (convert_ok_iff u l d sp (texts r) (types r) deco subtok (tree r))) as [s Es].
  { eapply shaped_convertible; [apply (po_wf _ _ _ _ _ _ Hr)|apply (po_shape _ _ _ _ _ _ Hr)]. }
  exists s. split; auto. rewrite (convert_text _ _ _ _ _ _ _ _ _ s) with (2 := Es).
  - destruct (po_tree _ _ _ _ _ _ Hr) as [ann [cs [E _]]]. unfold p_text. rewrite E. cbn [p_lo p_hi]. unfold py_slice. cbn [fst snd skipn].
    now rewrite Nat.sub_0_r, firstn_all.
  - eapply well_formed_forward. apply (po_wf _ _ _ _ _ _ Hr).
Qed.
Example C38_example :
  let tokens := [[40]; [120]; [32]; [41]] in
  match stack_based_bracket_match [(1, 2)] true [1; 5; 6; 2] with
  | Ok root => match to_nested ex_space ex_space ex_space ex_space tokens (map ex_type tokens) [NWhiteSpaceLeaf] [NStringLiteral] root with
               | Ok s => render [s]
               | Err _ => []
               end
  | Err _ => []
  end = [40; 120; 32; 41].
Proof. vm_compute. reflexivity. Qed.
(** The boundary check does not notice reversed ranges, and then the text is
    not preserved. *)
Theorem C38_reversed_refuted :
  let tokens := [[97]; [98]] in
  let n := PNode 0 (Some 1) ARoot [PNode 0 (Some 2) ASibling []; PNode 2 (Some 1) ASibling []] in
  exists s, to_nested ex_space ex_space ex_space ex_space tokens [TId; TId] [] [] n = Ok s /\
    render [s] = [97; 98] /\ concat (py_slice (p_lo n, p_hi n) tokens) = [97].
Proof. cbn. eexists. splits; reflexivity. Qed.
Print Assumptions C38_succeeds_iff_convertible.
Print Assumptions C38_errors.
Print Assumptions C38_text.
Print Assumptions C38_parse_trees_convert.
Print Assumptions C38_reversed_refuted.

(** ** C39.  Truncation points. *)
Theorem C39_match_pair_range :
  forall (raw : list text) (root : pnode) (tys : list ttype) (w : wanted_pair) (cursor k : nat),
    filter nonempty_range (leaf_ranges root) = map single (seq 0 (length raw)) ->
    cursor < length (concat raw) ->
    infer_match_pair_truncation_index root raw tys w cursor = Ok (Some k) ->
    cursor < k /\ k <= length (concat raw) /\
    exists m, m <= length raw /\ k = length (concat (firstn m raw)).
Proof. exact match_pair_index_range. Qed.
(** The split search always succeeds: it returns the end of the first token
    after the cursor that ends a split group and is a wanted splitter, or the
    end of the text if there is none. *)
Theorem C39_split_exact :
  forall (raw : list text) (root : pnode) (splitters : list text) (cursor : nat),
    filter nonempty_range (leaf_ranges root) = map single (seq 0 (length raw)) ->
    Forall (fun r => fst r < length raw) (leaf_ranges root) ->
    (forall e, ends_split root e -> p_hi e = Some (S (p_lo e))) ->
    cursor < length (concat raw) ->
    exists k, infer_split_truncation_index root raw splitters cursor = Ok k /\
      cursor < k /\ k <= length (concat raw) /\
      ((exists m, stops raw root splitters cursor m /\ k = length (concat (firstn (S m) raw)) /\
          forall m', m' < m -> ~ stops raw root splitters cursor m') \/
       (k = length (concat raw) /\ forall m, ~ stops raw root splitters cursor m)).
Proof. exact split_index_spec. Qed.
(** On every parsed program the fallback combination succeeds with an index
    strictly after the cursor and within the code. *)
Theorem C39_fallbacks_on_parses :
  forall (lex : text -> list (text * ttype)) (ty : text -> ttype) (pairs : list (text * text)) (terminate : bool)
         (code : text) (r : parsed), parse_of lex ty pairs terminate code r ->
    concat (map fst (lex code)) = code ->
  forall (w : wanted_pair) (splitters : list text) (cursor : nat),
    match w with TypePair x y => forall o c, In (o, c) pairs -> ty o = x -> ty c = y | _ => True end ->
    cursor < length code ->
    exists k, truncation_with_fallbacks (tree r) (raws r) (types r) w splitters cursor = Ok k /\ cursor < k <= length code.
Proof.
  intros lex ty pairs terminate code r Hr Hlex w splitters cursor Hw Hc.
  assert (Ecode : concat (raws r) = code).
  { rewrite (po_raws _ _ _ _ _ _ Hr), !concat_app. assert (Z : forall n, concat (repeat (@nil nat) n) = []) by (induction n; auto).
    rewrite !Z, app_nil_r. cbn [app]. exact Hlex. }
  destruct (po_texts _ _ _ _ _ _ Hr) as [pre [post [L1 [L2 [Et _]]]]].
  assert (Lr : length (raws r) = length (texts r)).
  { rewrite (po_raws _ _ _ _ _ _ Hr), Et, !app_length, !repeat_length, L1, L2. reflexivity. }
  assert (HL : filter nonempty_range (leaf_ranges (tree r)) = map single (seq 0 (length (raws r)))).
  { rewrite Lr. apply (po_leaves _ _ _ _ _ _ Hr). }
  assert (Hlo : Forall (fun k => fst k < length (raws r)) (leaf_ranges (tree r))).
  { rewrite Lr. apply (po_lows _ _ _ _ _ _ Hr).
    - intros ->. cbn in Hc. lia.
    - intros C. rewrite C in Hlex. cbn in Hlex. subst code. cbn in Hc. lia. }
  pose proof (po_shape _ _ _ _ _ _ Hr) as Hs.
  assert (He : forall e, ends_split (tree r) e -> p_hi e = Some (S (p_lo e))).
  { intros e. eapply shaped_ends; [exact Hs|]. intros k Hk Hn.
    assert (Hin : In k (map single (seq 0 (length (raws r))))) by (rewrite <- HL; apply filter_In; auto).
    apply in_map_iff in Hin as [j [<- _]]. reflexivity. }
  rewrite <- Ecode in Hc |- *.
  assert (Hpair : forall a b, (exists o c, nth_error (texts r) a = Some o /\ nth_error (texts r) b = Some c /\ In (o, c) pairs) ->
            pair_ok (raws r) (types r) w a b).
  { intros a b [o [c [Ea [Eb Hi]]]]. unfold pair_ok. destruct w as [|x y|x y]; auto.
    - rewrite (po_types _ _ _ _ _ _ Hr), !nth_error_map, Ea, Eb. cbn [option_map]. eexists. split; [reflexivity|].
      intros E. f_equal. eapply Hw; eauto.
    - rewrite Lr. split; apply nth_error_Some; congruence. }
  destruct (match_pair_total _ (tree r) (raws r) (types r) w cursor HL Hpair Hs) as [o Eo]; [lia|].
  destruct (split_index_spec (raws r) (tree r) splitters cursor HL Hlo He Hc) as [k [Ek [K1 [K2 _]]]].
  unfold truncation_with_fallbacks. rewrite Eo. cbn [bind]. destruct o as [j|].
  - exists j. split; auto. destruct (match_pair_index_range _ _ _ _ _ _ HL Hc Eo) as [A [B _]]. auto.
  - exists k. auto.
Qed.
Theorem C39_pydocstring :
  forall (code : text) (cursor : nat), cursor <= length code ->
    match infer_truncation_pydocstring code cursor with
    | Ok o => exists a q rest, code = a ++ q ++ rest /\ cursor = length a + 3 /\ (q = [34; 34; 34] \/ q = [39; 39; 39]) /\
        match o with
        | Some k => (exists b r, rest = b ++ q ++ r /\ k = cursor + length b + 3 /\
                       forall b' r', rest = b' ++ q ++ r' -> length b <= length b') /\ cursor < k <= length code
        | None => forall b r, rest <> b ++ q ++ r
        end
    | Err e => e = AssertionError /\ ~ exists a q rest, code = a ++ q ++ rest /\ cursor = length a + 3 /\
                 (q = [34; 34; 34] \/ q = [39; 39; 39])
    end.
Proof. exact pydocstring_spec. Qed.
(** "(x);y" with the cursor at 0, split at ";": the first index after the cursor
    that ends a group. *)
Example C39_example :
  match make_parser ex_lex ex_pairs [[59]] [] [] true with
  | Ok p => match pseudo_parse ex_lex p [40; 120; 41; 59; 121] with
            | Ok r => truncation_with_fallbacks (tree r) (raws r) (types r) AnyPair [[59]] 3
            | Err e => Err e
            end
  | Err e => Err e
  end = Ok 5 /\
  match make_parser ex_lex ex_pairs [[59]] [] [] true with
  | Ok p => match pseudo_parse ex_lex p [40; 120; 41; 59; 121] with
            | Ok r => infer_split_truncation_index (tree r) (raws r) [[59]] 0
            | Err e => Err e
            end
  | Err e => Err e
  end = Ok 4.
Proof. split; vm_compute; reflexivity. Qed.
(** Findings.  When the pair is closed by the last token of the text there is no
    leaf left to report and None is returned; when there is one, the index lies
    one token after the closing bracket. *)
Theorem C39_closing_bracket_refuted :
  let index code cursor :=
    match make_parser ex_lex ex_pairs [] [] [] true with
    | Ok p => match pseudo_parse ex_lex p code with
              | Ok r => infer_match_pair_truncation_index (tree r) (raws r) (types r) AnyPair cursor
              | Err e => Err e
              end
    | Err e => Err e
    end in
  index [40; 120; 121; 41] 0 = Ok None /\ index [40; 120; 121; 41; 122] 0 = Ok (Some 5).
Proof. split; vm_compute; reflexivity. Qed.
Print Assumptions C39_match_pair_range.
Print Assumptions C39_split_exact.
Print Assumptions C39_fallbacks_on_parses.
Print Assumptions C39_pydocstring.
Print Assumptions C39_closing_bracket_refuted.

(** ** C40.  Indent widths. *)
Theorem C40_largest_dividing_candidate :
  forall (widths candidates : list nat), widths <> [] -> StronglySorted lt candidates ->
    let r := infer_from_lengths widths candidates in
    Forall (fun w => w mod r = 0) widths /\ (In r candidates \/ r = 1) /\
    (forall c, In c candidates -> Forall (fun w => w mod c = 0) widths -> c <= r).
Proof. exact infer_largest. Qed.
Theorem C40_no_evidence :
  forall candidates, infer_from_lengths [] candidates = 1.
Proof. reflexivity. Qed.
(** For candidates in any order: the last one that divides every width. *)
Theorem C40_last_dividing_candidate :
  forall (widths candidates : list nat), widths <> [] ->
    (exists a r b, candidates = a ++ r :: b /\ infer_from_lengths widths candidates = r /\ Forall (fun w => w mod r = 0) widths /\
        Forall (fun c => ~ Forall (fun w => w mod c = 0) widths) b) \/
    (infer_from_lengths widths candidates = 1 /\ Forall (fun c => ~ Forall (fun w => w mod c = 0) widths) candidates).
Proof. exact infer_last. Qed.
Theorem C40_observed_widths :
  forall (tys : list ttype) (raw : list text) (w : nat),
    In w (indent_lengths tys raw) <->
    exists k p r, nth_error tys k = Some p /\ (p = TPythonIndent \/ p = TPythonDedent) /\
      nth_error tys (S k) = Some TWhiteSpace /\ nth_error raw (S k) = Some r /\ r <> [] /\ w = length r.
Proof. exact indent_lengths_spec. Qed.
Example C40_example :
  StronglySorted lt [1; 2; 3; 4] /\ infer_from_lengths [4; 8; 4] [1; 2; 3; 4] = 4 /\
  infer_from_lengths [4; 6] [1; 2; 3; 4] = 2.
Proof. splits; try reflexivity. repeat constructor. Qed.
(** With unsorted candidates the result need not be the largest. *)
Theorem C40_unsorted_refuted : infer_from_lengths [4] [4; 2] = 2.
Proof. reflexivity. Qed.
Print Assumptions C40_largest_dividing_candidate.
Print Assumptions C40_last_dividing_candidate.
Print Assumptions C40_observed_widths.
