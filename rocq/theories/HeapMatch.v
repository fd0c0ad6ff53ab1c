(** Model of the linked nodes that the bracket matcher makes, and of the check of parse trees that follows the links:
    [stack_based_bracket_match] and [valid_parse_ranges], parsing/pseudo_parser/stack_parser.py:499-536 and 539-622. *)

From Coq Require Import List Bool Arith Lia.
From Verif Require Import Base StackParser HeapTree.
Import ListNotations.

Section Match.
  Context {T : Type} `{EqDec T}.

  (** [children.append(x)] *)
  Definition append_child (x : nat) (c : cell) : cell := set_children (c_children c ++ [x]) c.

  (** The loop of lines 574-617: the nodes, the variable [parent] and the stack of openers, innermost first.  [None]
      stands for a [parent] that is no node. *)
  Definition heap_match_step (pairs : list (T * T)) (tolerant : bool) (i : nat) (token : T) (s : heap * nat * list T)
    : option (result (heap * nat * list T)) :=
    let '(h, parent, stack) := s in
    let plain := Some (Ok (update parent (append_child (length h)) (h ++ [mkCell i (Some (i + 1)) (Some parent) ASibling []]), parent, stack)) in
    if mem token (openers pairs) then
      (* lines 590-601 *)
      let n := length h in
      let h1 := h ++ [mkCell i None (Some parent) APaired []] in
      let left_ := length h1 in
      let h2 := update n (append_child left_) (h1 ++ [mkCell i (Some (i + 1)) (Some n) ALeft []]) in
      let h3 := update parent (append_child n) h2 in
      let contents := length h3 in
      let h4 := update n (append_child contents) (h3 ++ [mkCell (i + 1) None (Some n) AMiddle []]) in
      Some (Ok (h4, contents, token :: stack))
    else if mem token (closers pairs) then
      match stack with
      | [] => Some (Ok s)
      | o :: rest =>
          if eqb (closer_to_opener pairs token) (Some o) then
            (* lines 602-614 *)
            let? c := node_at h parent in
            match c_parent c with
            | None => None
            | Some g =>
                let? cg := node_at h g in
                match c_children cg with
                | [_; middle] =>
                    let h1 := update middle (set_hi (Some i)) h in
                    let r := length h1 in
                    let h2 := update g (append_child r) (h1 ++ [mkCell i (Some (i + 1)) (Some g) ARight []]) in
                    let h3 := update g (set_hi (Some (i + 1))) h2 in
                    let? cg3 := node_at h3 g in
                    match c_parent cg3 with None => None | Some q => Some (Ok (h3, q, rest)) end
                | _ => Some (Err AssertionError)
                end
            end
          else if tolerant then plain else Some (Err ParseError)
      end
    else plain.
  Fixpoint heap_match_loop (pairs : list (T * T)) (tolerant : bool) (i : nat) (tokens : list T) (s : heap * nat * list T)
    : option (result (heap * nat * list T)) :=
    match tokens with
    | [] => Some (Ok s)
    | t :: ts => let? s' := heap_match_step pairs tolerant i t s in heap_match_loop pairs tolerant (S i) ts s'
    end.
  (** Lines 566-622; the root is the first node made. *)
  Definition heap_match (pairs : list (T * T)) (tolerant : bool) (tokens : list T) (h : heap) : option (result (heap * nat)) :=
    let root := length h in
    let? s := heap_match_loop pairs tolerant 0 tokens (h ++ [mkCell 0 (Some (length tokens)) None ARoot []], root, []) in
    match snd s, tolerant with
    | _ :: _, false => Some (Err ParseError)
    | _, _ => Some (Ok (fst (fst s), root))
    end.
End Match.

(** Lines 518-536, with nodes compared by address ([!=] of line 529 compares the fields, which are the same objects
    when the address is the same). *)
Fixpoint all_true {A} (f : A -> option bool) (l : list A) : option bool :=
  match l with
  | [] => Some true
  | x :: l' => match f x with None => None | Some false => Some false | Some true => all_true f l' end
  end.
Fixpoint cells (h : heap) (l : list nat) : option (list cell) :=
  match l with
  | [] => Some []
  | a :: l' => match nth_error h a, cells h l' with Some c, Some cs => Some (c :: cs) | _, _ => None end
  end.
Fixpoint heap_check (limit : nat) (h : heap) (a : nat) : option bool :=
  match limit with
  | 0 => None
  | S limit' =>
      match nth_error h a with
      | None => None
      | Some c =>
          match cells h (c_children c) with
          | None => None
          | Some [] => Some true
          | Some (c0 :: cs) =>
              if negb (c_lo c =? c_lo c0) then Some false
              else if negb (eqb (c_hi c) (c_hi (last (c0 :: cs) c0))) then Some false
              else if eqb (c_hi c) None then Some false
              else if negb (eqb (map (fun c => Some (c_lo c)) cs) (map c_hi (removelast (c0 :: cs)))) then Some false
              else all_true (fun x => match nth_error h x with
                                      | None => None
                                      | Some cx => if negb (eqb (c_parent cx) (Some a)) then Some false else heap_check limit' h x
                                      end) (c_children c)
          end
      end
  end.
Definition heap_valid (limit : nat) (h : heap) (root size : nat) : option bool :=
  match nth_error h root with
  | None => None
  | Some c => if (c_lo c =? 0) && eqb (c_hi c) (Some size) then heap_check limit h root else Some false
  end.
