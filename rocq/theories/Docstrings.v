(** Model of [find_python_function_docstrings],
    parsing/pseudo_parser/utilities.py:68-155, with [Node.copy] and
    [Node.depth_first_traversal], stack_parser.py:330-378.

    Simplifications.  The loop visits each node together with its parent and the
    siblings before it, instead of following pointers; the root, which has no
    parent (line 117), is not visited.  The two regular expressions (lines 83-84)
    match a run of blanks and then a fixed string: since neither string begins with
    a blank, the run is the longest one. *)

From Coq Require Import String.
From Coq Require Import List Bool Arith.
From Verif Require Import Base SeqNodes StackParser PseudoParse ParserTools Html.
Import ListNotations.
Close Scope string_scope. Open Scope list_scope.

(** Lines 83-84: the number of characters matched at the beginning. *)
Fixpoint leading_blanks (t : text) : nat :=
  match t with c :: t' => if c =? 32 then S (leading_blanks t') else 0 | [] => 0 end.
Definition match_after_blanks (words : list text) (t : text) : option nat :=
  let n := leading_blanks t in
  match List.find (fun w => starts_with w (skipn n t)) words with
  | Some w => Some (n + length w)
  | None => None
  end.
Definition function_words : list text := [chars "def "].
Definition docstring_words : list text := [[34; 34; 34]; [39; 39; 39]].

(** [==] between a node and a sibling before it (stack_parser.py:224-239, the
    comparison of a data class): the fields are compared in order, and the parent
    is the same object.  Comparing the children compares their parents, which are
    the two nodes: RecursionError, a RuntimeError. *)
Definition sibling_eq (a b : pnode) : result bool :=
  if (p_lo a =? p_lo b) && eqb (p_hi a) (p_hi b) && eqb (p_ann a) (p_ann b) then
    match p_children a, p_children b with
    | [], [] => Ok true
    | c :: cs, d :: ds =>
        if negb (length cs =? length ds) then Ok false
        else if (p_lo c =? p_lo d) && eqb (p_hi c) (p_hi d) then Err RuntimeError
        else Ok false
    | _, _ => Ok false
    end
  else Ok false.
(** [parent.children.index(node)], lines 121-122: the siblings before the node are
    compared with it; the node is found at the latest at its own place. *)
Fixpoint index_after (earlier : list pnode) (n : pnode) : result nat :=
  match earlier with
  | [] => Ok 0
  | e :: earlier' => do same <- sibling_eq e n; if same then Ok 0 else do i <- index_after earlier' n; Ok (S i)
  end.

Section Docstrings.
  Variables isspace digit : nat -> bool.

  (** Lines 102-111, [leading_indents]: pieces of the indentation's width, while
      there is text after them.  [width] is at least one (line 86); the first
      argument is at least the number of pieces. *)
  Fixpoint leading_indents (limit width : nat) (fragment : text) : nat :=
    match limit with
    | 0 => 0
    | S limit' =>
        if (width <? length fragment) && forallb isspace (firstn width fragment)
        then S (leading_indents limit' width (skipn width fragment)) else 0
    end.
  Definition indents (width : nat) (fragment : text) : nat := leading_indents (length fragment) width fragment.

  (** Lines 116-153, for one node.  A node is false if its length is zero
      (stack_parser.py:305-306). *)
  Definition docstring_after (raws : list text) (width : nat) (parent : pnode) (earlier : list pnode) (n : pnode) : result (option nat) :=
    do len <- p_len parent;
    if len =? 0 then Ok None
    else
      do i <- index_after earlier n;
      match nth_error (p_children parent) (i + 1) with
      | None => Ok None
      | Some rhs =>
          match match_after_blanks function_words (p_text raws n) with
          | None => Ok None
          | Some _ =>
              match match_after_blanks docstring_words (p_text raws rhs) with
              | None => Ok None
              | Some k =>
                  if indents width (p_text raws rhs) =? indents width (p_text raws n) + 1
                  then Ok (Some (length (concat (firstn (p_lo rhs) raws)) + k))
                  else Ok None
              end
          end
      end.
  (** Lines 113-153, the loop, in depth-first order. *)
  Fixpoint docstrings_below (raws : list text) (width : nat) (n : pnode) : result (list nat) :=
    match n with
    | PNode lo hi ann cs =>
        (fix go (earlier l : list pnode) : result (list nat) :=
           match l with
           | [] => Ok []
           | c :: l' =>
               do x <- docstring_after raws width n earlier c;
               do inner <- docstrings_below raws width c;
               do rest <- go (earlier ++ [c]) l';
               Ok (match x with Some k => [k] | None => [] end ++ inner ++ rest)
           end) [] cs
    end.
  (** Lines 68-155. *)
  Definition find_python_function_docstrings (code : text) : result (list nat) :=
    do width <- infer_python_spaces_per_indent isspace digit code;
    do o <- parse_and_maybe_preprocess isspace digit Python code width;
    docstrings_below (o_raws o) width (o_tree o).
End Docstrings.
