(** Model of the debug view of sequence nodes, tree_structure/sequence_node_helpers.py:65-132.

    Simplifications: [repr] of a text is a parameter; so is [type_text], the formatting of a match type, which is
    [None] for the match type [None]. *)

From Coq Require Import String.
From Coq Require Import List Bool Arith.
From Verif Require Import Base Drawing SeqNodes Html.
Import ListNotations.
Close Scope string_scope. Open Scope nat_scope. Open Scope list_scope.

Section Debug.
  Context {M : Type}.
  Variable repr : text -> text.
  Variable type_text : M -> option text.

  (** sequence_node_helpers.py:128-132, [_summarize_contents] *)
  Definition summarize_contents (contents : text) : text :=
    if 80 <? length contents then repr (firstn 77 contents) ++ chars "..." else repr contents.
  (** Lines 101 and 114-115: the header of a token or group. *)
  Definition debug_header (kind : text) (m : M) : text :=
    match type_text m with
    | None => kind ++ chars ": "
    | Some t => kind ++ chars "(" ++ t ++ chars "): "
    end.
  (** sequence_node_helpers.py:86-125, [_render_debug_helper].  The last line is [str] of a node without fields. *)
  Fixpoint render_debug_helper (n : node M) : text * list text :=
    match n with
    | Deco t => (t, [chars "DEC: " ++ summarize_contents t])
    | Token t m => (t, [debug_header (chars "TOK") m ++ summarize_contents t])
    | Group cs m =>
        let '(texts, debugviews) :=
          (fix go (l : list (node M)) : list text * list text :=
             match l with
             | [] => ([], [])
             | c :: l' =>
                 let '(t, v) := render_debug_helper c in
                 let '(ts, vs) := go l' in
                 (t :: ts, v ++ vs)
             end) cs in
        let combined_text := concat texts in
        (combined_text,
         (debug_header (chars "GROUP") m ++ summarize_contents combined_text) :: map (fun line => chars "  " ++ line) debugviews)
    | RegionStart => ([], [chars "RegionStartNode()"])
    | RegionEnd => ([], [chars "RegionEndNode()"])
    | EarlyExit => ([], [chars "EarlyExitNode()"])
    end.
  (** sequence_node_helpers.py:65-83, [render_debug], on a list of nodes; on one node it is that of the list of it. *)
  Definition render_debug (ns : list (node M)) : text := join newline (flat_map (fun n => snd (render_debug_helper n)) ns).
End Debug.
