(** What a linked tree in memory is, stated without the program: a tree whose nodes carry their addresses. *)

From Coq Require Import List Arith.
From Verif Require Import Base StackParser HeapTree.
Import ListNotations.

Inductive ltree := LNode (a lo : nat) (hi : option nat) (ann : annotation_kind) (kids : list ltree).
Definition addr (t : ltree) : nat := let 'LNode a _ _ _ _ := t in a.

(** The tree without addresses. *)
Fixpoint shape (t : ltree) : pnode := let 'LNode _ lo hi ann kids := t in PNode lo hi ann (map shape kids).
(** The addresses of its nodes, parents first. *)
Fixpoint addrs (t : ltree) : list nat := let 'LNode a _ _ _ kids := t in a :: flat_map addrs kids.

(** The heap shows the tree to a reader who follows [children]; the parents may be anything. *)
Fixpoint shows (h : heap) (t : ltree) : Prop :=
  let 'LNode a lo hi ann kids := t in
  (exists p, nth_error h a = Some (mkCell lo hi p ann (map addr kids))) /\
  (fix all (l : list ltree) : Prop := match l with [] => True | k :: l' => shows h k /\ all l' end) kids.

(** The heap holds the tree: [p] is the parent of the root, and the parent of every other node is the node whose
    child it is. *)
Fixpoint holds (h : heap) (p : option nat) (t : ltree) : Prop :=
  let 'LNode a lo hi ann kids := t in
  nth_error h a = Some (mkCell lo hi p ann (map addr kids)) /\
  (fix all (l : list ltree) : Prop := match l with [] => True | k :: l' => holds h (Some a) k /\ all l' end) kids.

(** All that was in [h] is still in [h'], unchanged. *)
Definition kept (h h' : heap) : Prop := forall a c, nth_error h a = Some c -> nth_error h' a = Some c.
