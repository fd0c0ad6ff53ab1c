(** What the printed form of a pseudo-parse tree should be: the nodes in reading order, one to a line in two columns; the
    second column tells the node, indented by three blanks for every ancestor, and the first shows its tokens within the
    text, with underscores for all others. *)

From Coq Require Import String.
From Coq Require Import List Bool Arith.
From Verif Require Import Base SeqNodes StackParser Html Show.
Import ListNotations.
Close Scope string_scope. Open Scope nat_scope. Open Scope list_scope.

(** The nodes in reading order, parents before their children, with their depths. *)
Fixpoint outline (depth : nat) (n : pnode) : list (nat * pnode) :=
  (depth, n) :: let 'PNode _ _ _ cs := n in flat_map (outline (S depth)) cs.
(** The word for an annotation. *)
Definition annotation_word (a : annotation_kind) : string :=
  (match a with
   | ARoot => "root" | ASibling => "sibling" | APaired => "paired" | ALeft => "left"
   | ARight => "right" | AMiddle => "middle" | ASplit => "split"
   end)%string.
(** What is said of a node; the end of a node is unknown while it is being parsed. *)
Definition words_for (n : pnode) : text :=
  chars "Node(" ++ number_text (p_lo n) ++ chars "-" ++ match p_hi n with Some hi => number_text hi | None => chars "None" end ++ chars ", " ++
  chars (annotation_word (p_ann n)) ++ chars ")".
(** The tokens from [lo] to [hi] among all tokens, the others being underscores. *)
Definition highlights (tokens : list text) (lo hi : nat) (view : text) : Prop :=
  view = repeat 95 (length (concat (firstn lo tokens))) ++ concat (skipn lo (firstn hi tokens)) ++ repeat 95 (length (concat (skipn hi tokens))).
