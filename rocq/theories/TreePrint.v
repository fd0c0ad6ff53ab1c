(** Model of the printing of pseudo-parse trees, parsing/pseudo_parser/stack_parser.py:270-322.

    Simplifications: tokens are texts (the code also prints integers); [unquoted] is [unquoted_string_repr] on texts
    (lines 288-292), which is built on [repr] and is a parameter; so is the class of white space of [str.strip]. *)

From Coq Require Import String.
From Coq Require Import List Bool Arith.
From Verif Require Import Base SeqNodes StackParser Drawing Html Show.
Import ListNotations.
Close Scope string_scope. Open Scope nat_scope. Open Scope list_scope.

Section Printing.
  Variable unquoted : text -> text.
  Variable isspace : nat -> bool.

  (** The value of the field [annotation] (stack_parser.py:225-256). *)
  Definition annotation_text (a : annotation_kind) : text :=
    match a with
    | ARoot => chars "root" | ASibling => chars "sibling" | APaired => chars "paired" | ALeft => chars "left"
    | ARight => chars "right" | AMiddle => chars "middle" | ASplit => chars "split"
    end.
  (** [str] of an optional integer. *)
  Definition optional_text (h : option nat) : text := match h with Some h => number_text h | None => chars "None" end.
  (** Lines 270-272, [__repr__] *)
  Definition node_text (n : pnode) : text :=
    chars "Node(" ++ number_text (p_lo n) ++ chars "-" ++ optional_text (p_hi n) ++ chars ", " ++ annotation_text (p_ann n) ++ chars ")".
  (** Lines 298-303: the loop of [mask_view]. *)
  Fixpoint mask (lo hi i : nat) (tokens : list text) : text :=
    match tokens with
    | [] => []
    | t :: tokens' =>
        (if (lo <=? i) && (i <? hi) then unquoted t else repeat 95 (length (unquoted t))) ++ mask lo hi (S i) tokens'
    end.
  (** Lines 294-304, [mask_view]; zero is false, so that an end of 0 counts as no end. *)
  Definition mask_view (tokens : list text) (n : pnode) : text :=
    match tokens with
    | [] => []
    | _ => unquoted (mask (p_lo n) (match p_hi n with Some (S h) => S h | _ => p_lo n + 1 end) 0 tokens)
    end.
  (** Lines 306-312, [_f]: the rows of the two columns. *)
  Fixpoint print_rows (tokens : list text) (depth : nat) (n : pnode) : list (text * text) :=
    let 'PNode _ _ _ cs := n in
    (mask_view tokens n, concat (repeat (chars "   ") depth) ++ node_text n) :: flat_map (print_rows tokens (S depth)) cs.
  (** [str.ljust], [max] of a list that is not empty, [str.strip] *)
  Definition ljust (t : text) (width : nat) : text := t ++ repeat 32 (width - length t).
  Definition widest (l : list text) : nat := fold_right (fun t k => Nat.max (length t) k) 0 l.
  Fixpoint lstrip (t : text) : text := match t with c :: t' => if isspace c then lstrip t' else t | [] => [] end.
  Definition strip (t : text) : text := rev (lstrip (rev (lstrip t))).
  (** Lines 274-322, [human_readable_string] *)
  Definition human_readable_string (tokens : list text) (n : pnode) : text :=
    let rows := print_rows tokens 0 n in
    let width1 := widest (map fst rows) in
    let width2 := widest (map snd rows) in
    strip (concat (map (fun row => chars "| " ++ join (chars " | ") [ljust (fst row) width1; ljust (snd row) width2] ++ newline) rows)).
End Printing.
