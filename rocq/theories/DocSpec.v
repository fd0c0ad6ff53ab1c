(** Specification vocabulary for docstrings of functions. *)

From Coq Require Import String.
From Coq Require Import List Arith.
From Verif Require Import Base SeqNodes StackParser PseudoParse Html.
Import ListNotations.
Close Scope string_scope. Open Scope list_scope.

(** Somewhere in the tree, [b] is the next sibling of [a]. *)
Inductive next_sibling : pnode -> pnode -> pnode -> Prop :=
| Here lo hi ann l a b r : next_sibling (PNode lo hi ann (l ++ a :: b :: r)) a b
| Below lo hi ann cs c a b : In c cs -> next_sibling c a b -> next_sibling (PNode lo hi ann cs) a b.

Definition blanks (n : nat) : text := repeat 32 n.
(** Three quotation marks, double or single. *)
Definition triple_quote (q : text) : Prop := q = [34; 34; 34] \/ q = [39; 39; 39].
(** The texts [a] and [b] look like a function signature and, one level deeper, a
    docstring that begins after [k] characters of [b]. *)
Definition documents (width : nat) (a b : text) (k : nat) : Prop :=
  exists m n q rest rest',
    a = blanks m ++ chars "def " ++ rest /\ b = blanks n ++ q ++ rest' /\ triple_quote q /\
    n / width = m / width + 1 /\ k = n + 3.
