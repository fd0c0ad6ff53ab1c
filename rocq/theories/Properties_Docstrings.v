(** C69: finding the docstrings of Python functions
    (parsing/pseudo_parser/utilities.py:68-155, 356-382).  Specification vocabulary:
    [DocSpec.v] ([next_sibling], [documents], [triple_quote], [blanks]).

    Hypotheses on the character classes: besides those of C64, the blank is white
    space, and the two quotation marks and the letter d are not. *)

From Coq Require Import String.
From Coq Require Import List Bool Arith Lia.
From Verif Require Import Base SeqNodes StackParser StackParserProofs ParseShape PseudoParse PseudoParseProofs ParserTools ParserToolsProofs Html
  Docstrings DocSpec DocstringProofs Properties_ParserTools.
Import ListNotations.
Close Scope string_scope. Open Scope list_scope.

Definition space_class (isspace : nat -> bool) : Prop :=
  isspace 10 = true /\ isspace 32 = true /\ isspace 34 = false /\ isspace 39 = false /\ isspace 100 = false.
Example space_class_example : space_class ex_spc. Proof. repeat split. Qed.

(** Every text that is not empty can be searched.  The positions are those at which,
    somewhere in the parse tree, a docstring follows a signature as its next sibling
    and is indented one level deeper; none is reported twice. *)
Theorem C69_docstrings_found :
  forall (isspace digit : nat -> bool) (code : text), ascii_digits digit -> space_class isspace -> code <> [] ->
    exists width o positions,
      infer_python_spaces_per_indent isspace digit code = Ok width /\ 1 <= width <= 4 /\
      parse_and_maybe_preprocess isspace digit Python code width = Ok o /\
      find_python_function_docstrings isspace digit code = Ok positions /\
      NoDup positions /\
      forall p, In p positions <->
        exists a b k, next_sibling (o_tree o) a b /\ documents width (p_text (o_raws o) a) (p_text (o_raws o) b) k /\
                      p = length (concat (firstn (p_lo b) (o_raws o))) + k.
Proof.
  intros isspace digit code H1 [S1 [S2 [S3 [S4 S5]]]] Hc.
  destruct (C64_inferred_width isspace digit code H1 S1) as [w [Ew Hw]].
  destruct (parse_ok isspace digit (ascii_digits_eq digit H1) S1 Python code w ltac:(lia)) as [o [Eo O]]; auto.
  destruct (docstrings_below_spec isspace S2 (conj S3 S4) S5 (o_raws o) w ltac:(lia) _ (o_tree o) (oc_wf _ _ O) (oc_shape _ _ O)) as [ps [Ep Hp]].
  exists w, o, ps. splits; auto; try lia.
  - unfold find_python_function_docstrings. rewrite Ew. cbn [bind]. rewrite Eo. exact Ep.
  - exact (docstrings_once isspace S2 (conj S3 S4) S5 (o_raws o) w ltac:(lia) _ (o_tree o) ps (oc_wf _ _ O) (oc_shape _ _ O) Ep).
  - intros p. rewrite Hp. unfold pair_found. split; [intros [a [b [Hn [k [D E]]]]]; eauto 6|intros [a [b [k [Hn [D E]]]]]; eauto 6].
Qed.
Print Assumptions C69_docstrings_found.

(** In terms of the text alone: before each position there are a signature, which
    begins with [def] and some number of blanks before it and ends with a newline, and,
    in front of the position, three quotation marks with one more level of blanks at
    the start of the line.  So each position
    is a cursor that [infer_truncation_pydocstring] accepts, and the docstring it
    delimits ends with the first such three marks after it. *)
Theorem C69_docstrings_in_text :
  forall (isspace digit : nat -> bool) (code : text) (positions : list nat), ascii_digits digit -> space_class isspace ->
    find_python_function_docstrings isspace digit code = Ok positions ->
    exists width, infer_python_spaces_per_indent isspace digit code = Ok width /\
    forall p, In p positions ->
      exists before m signature n q rest,
        code = before ++ blanks m ++ chars "def " ++ signature ++ [10] ++ blanks n ++ q ++ rest /\ triple_quote q /\
        p = length (before ++ blanks m ++ chars "def " ++ signature ++ [10] ++ blanks n ++ q) /\
        n / width = m / width + 1 /\
        match infer_truncation_pydocstring code p with
        | Ok (Some stop) => exists body rest', rest = body ++ q ++ rest' /\ stop = p + length body + 3 /\
                              forall body' r, rest = body' ++ q ++ r -> length body <= length body'
        | Ok None => forall body r, rest <> body ++ q ++ r
        | Err _ => False
        end.
Proof.
  intros isspace digit code positions H1 HS E. pose proof HS as [S1 [S2 [S3 [S4 S5]]]].
  destruct code as [|c0 code0] eqn:Ec.
  { cbv in E. discriminate. }
  assert (Hc : code <> []) by congruence. rewrite <- Ec in *. clear Ec c0 code0.
  destruct (C64_inferred_width isspace digit code H1 S1) as [w [Ew Hw]]. exists w. split; auto.
  destruct (parse_ok isspace digit (ascii_digits_eq digit H1) S1 Python code w ltac:(lia)) as [o [Eo O]]; auto.
  destruct (docstrings_below_spec isspace S2 (conj S3 S4) S5 (o_raws o) w ltac:(lia) _ (o_tree o) (oc_wf _ _ O) (oc_shape _ _ O)) as [ps [Ep Hp]].
  unfold find_python_function_docstrings in E. rewrite Ew in E. cbn [bind] in E. rewrite Eo in E. cbn [bind] in E. rewrite Ep in E. injection E as <-.
  intros p Hi. apply Hp in Hi as [a [b [Hn Hf]]].
  destruct (found_text (o_raws o) w (o_tree o) a b p (oc_wf _ _ O) Hn Hf) as [m [sig [n [q [rest [Et [Ea [Hq [Hd [Ob [-> _]]]]]]]]]]].
  rewrite (oc_text _ _ O) in Et.
  assert (Hs : exists sig', sig = sig' ++ [10]).
  { destruct Hf as [k [D _]]. pose proof (parse_lines isspace digit (ascii_digits_eq digit H1) S1 code w o ltac:(lia) Hc Eo) as PL.
    destruct (docstring_line digit (ascii_digits_eq digit H1) o (oc_wf _ _ O) PL w a b k ltac:(lia) Hn D) as [a' Ha]. rewrite Ea in Ha.
    destruct sig as [|s0 sig0] using rev_ind.
    - exfalso. rewrite app_nil_r in Ha. apply (f_equal (@rev nat)) in Ha. rewrite !rev_app_distr in Ha. cbn in Ha. discriminate.
    - exists sig0. rewrite !app_assoc in Ha. apply app_inj_tail in Ha as [_ ->]. reflexivity. }
  destruct Hs as [sig' ->]. rename sig' into sig.
  assert (Lq : length q = 3) by (destruct Hq as [-> | ->]; reflexivity).
  exists (concat (firstn (p_lo a) (o_raws o))), m, sig, n, q, rest.
  assert (Et' : code = concat (firstn (p_lo a) (o_raws o)) ++ blanks m ++ chars "def " ++ sig ++ [10] ++ blanks n ++ q ++ rest).
  { rewrite Et, <- !app_assoc. reflexivity. }
  assert (Lp : offset (o_raws o) (p_lo b) + n + 3 =
    length (concat (firstn (p_lo a) (o_raws o)) ++ blanks m ++ chars "def " ++ sig ++ [10] ++ blanks n ++ q)).
  { rewrite Ob, Ea. unfold offset. rewrite !app_length, Lq. replace (length (blanks n)) with n by (symmetry; apply repeat_length). cbn [length]. lia. }
  splits; auto.
  set (p := offset (o_raws o) (p_lo b) + n + 3) in *.
  set (front := concat (firstn (p_lo a) (o_raws o)) ++ blanks m ++ chars "def " ++ sig ++ [10] ++ blanks n) in *.
  assert (Ef : code = front ++ q ++ rest) by (unfold front; rewrite Et', <- !app_assoc; reflexivity).
  assert (Lf : p = length front + 3).
  { rewrite Lp. unfold front. rewrite !app_length, Lq. lia. }
  assert (Hle : p <= length code) by (rewrite Ef, !app_length, Lq, Lf; lia).
  pose proof (pydocstring_spec code p Hle) as D. destruct (infer_truncation_pydocstring code p) as [[stop|]|e].
  - destruct D as [a' [q' [rest' [E1 [E2 [E3 [E4 E5]]]]]]].
    assert (front = a' /\ q ++ rest = q' ++ rest') as [-> Eq].
    { rewrite Ef in E1. assert (L : length front = length a') by lia. clear -E1 L. revert a' L E1.
      induction front as [|x f IH]; intros [|y a'] L E1; cbn in *; try discriminate; auto. injection E1 as -> E1. injection L as L.
      destruct (IH a' L E1) as [-> ->]. auto. }
    assert (q = q' /\ rest = rest') as [-> ->].
    { destruct Hq as [-> | ->], E3 as [-> | ->]; cbn in Eq; injection Eq; intros; subst; auto; discriminate. }
    destruct E4 as [body [r [F1 [F2 F3]]]]. exists body, r. splits; auto.
  - destruct D as [a' [q' [rest' [E1 [E2 [E3 E4]]]]]].
    assert (front = a' /\ q ++ rest = q' ++ rest') as [-> Eq].
    { rewrite Ef in E1. assert (L : length front = length a') by lia. clear -E1 L. revert a' L E1.
      induction front as [|x f IH]; intros [|y a'] L E1; cbn in *; try discriminate; auto. injection E1 as -> E1. injection L as L.
      destruct (IH a' L E1) as [-> ->]. auto. }
    assert (q = q' /\ rest = rest') as [-> ->]; [|exact E4].
    destruct Hq as [-> | ->], E3 as [-> | ->]; cbn in Eq; injection Eq; intros; subst; auto; discriminate.
  - destruct D as [_ D]. apply D. exists front, q, rest. splits; auto.
Qed.
Print Assumptions C69_docstrings_in_text.

(** A class with two methods, one docstring in single quotes, and a string that
    documents nothing. *)
Definition line (s : string) : text := chars s ++ [10].
Definition C69_code : text :=
  line "class A:" ++ line "  def f(self):" ++ line "    """"""One.""""""" ++ line "    return 1" ++
  line "  def g(self):" ++ line "    '''Two.'''" ++ line """""""No.""""""".
Example C69_example :
  find_python_function_docstrings ex_spc ex_dig C69_code = Ok [31; 74] /\
  infer_truncation_pydocstring C69_code 31 = Ok (Some 38) /\
  find_python_function_docstrings ex_spc ex_dig (line "def f():" ++ line """""""No.""""""") = Ok [].
Proof. splits; vm_compute; reflexivity. Qed.

(** Finding: the positions need not be in the order of the text. *)
Theorem C69_order_refuted :
  exists code p p', find_python_function_docstrings ex_spc ex_dig code = Ok [p; p'] /\ p' < p.
Proof.
  exists (line "def f {" ++ line "def g" ++ line "  """"""a""""""" ++ line "}:" ++ line "  """"""b"""""""), 32, 19. split; [vm_compute; reflexivity|lia].
Qed.
Print Assumptions C69_order_refuted.
(** Finding: the empty text cannot be searched. *)
Theorem C69_empty_refuted :
  forall (isspace digit : nat -> bool), find_python_function_docstrings isspace digit [] = Err IndexError.
Proof. reflexivity. Qed.
Print Assumptions C69_empty_refuted.
