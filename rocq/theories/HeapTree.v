(** Model of the linked nodes of pseudo-parse trees: [Node], [Node.copy] and [split_parse], which
    changes nodes in place, parsing/pseudo_parser/stack_parser.py:225-240, 327-352 and 381-496.

    A heap is the list of the nodes made so far; an address is a place in it, and a new node goes to its end.
    [None] is not a result of the program: it stands for a limit on the depth of the recursion that was too small
    or for an address without a node. *)

From Coq Require Import List Bool Arith Lia.
From Verif Require Import Base StackParser.
Import ListNotations.

(** Lines 225-240, the data class [Node]. *)
Record cell := mkCell { c_lo : nat; c_hi : option nat; c_parent : option nat; c_ann : annotation_kind; c_children : list nat }.
Definition heap := list cell.

(** Assignments to the fields [children] and [parent] of a node. *)
Fixpoint update (a : nat) (f : cell -> cell) (h : heap) : heap :=
  match h, a with
  | [], _ => []
  | c :: h', 0 => f c :: h'
  | c :: h', S a' => c :: update a' f h'
  end.
Definition set_children (cs : list nat) (c : cell) : cell := mkCell (c_lo c) (c_hi c) (c_parent c) (c_ann c) cs.
Definition set_parent (p : option nat) (c : cell) : cell := mkCell (c_lo c) (c_hi c) p (c_ann c) (c_children c).
(** [for child in l: child.parent = n] *)
Definition adopt (n : nat) (l : list nat) (h : heap) : heap := fold_left (fun h x => update x (set_parent (Some n)) h) l h.

(** Lines 341-350, [_copy]. *)
Fixpoint copy (limit : nat) (h : heap) (a : nat) : option (heap * nat) :=
  match limit with
  | 0 => None
  | S limit' =>
      match nth_error h a with
      | None => None
      | Some c =>
          let n := length h in
          match
            (fix copies (h : heap) (l : list nat) : option (heap * list nat) :=
               match l with
               | [] => Some (h, [])
               | x :: l' =>
                   match copy limit' h x with
                   | None => None
                   | Some (h1, y) => match copies h1 l' with None => None | Some (h2, ys) => Some (h2, y :: ys) end
                   end
               end) (h ++ [mkCell (c_lo c) (c_hi c) (c_parent c) (c_ann c) []]) (c_children c)
          with
          | None => None
          | Some (h', ys) => Some (adopt n ys (update n (set_children ys) h'), n)
          end
      end
  end.

Definition obind {A B} (m : option (result A)) (k : A -> option (result B)) : option (result B) :=
  match m with None => None | Some (Err e) => Some (Err e) | Some (Ok x) => k x end.
Notation "'let?' x ':=' m 'in' k" := (obind m (fun x => k)) (at level 200, x name, m at level 100, k at level 200).
Definition node_at (h : heap) (a : nat) : option (result cell) := match nth_error h a with Some c => Some (Ok c) | None => None end.
Fixpoint omapM {A B} (f : A -> option (result B)) (l : list A) : option (result (list B)) :=
  match l with [] => Some (Ok []) | x :: l' => let? y := f x in let? ys := omapM f l' in Some (Ok (y :: ys)) end.

(** Lines 327-328, [__len__]. *)
Definition c_len (c : cell) : result nat := match c_hi c with Some h => Ok (h - c_lo c) | None => Err TypeError end.

Section Split.
  Context {T : Type} `{EqDec T}.
  Variables (tokens splits : list T) (pairs : list (T * T)).

  (** Lines 418-425: the first and the last of three children. *)
  Definition heap_unsplittable (h : heap) (c : cell) : option (result bool) :=
    if eqb (c_ann c) APaired then
      match c_children c with
      | [l; m; r] =>
          let? cl := node_at h l in
          let? cr := node_at h r in
          Some (do tl <- token_at tokens (c_lo cl);
                match assoc tl pairs with
                | None => Ok false
                | Some closer =>
                    match c_hi cr with
                    | None => Err TypeError
                    | Some e => do tr <- token_at tokens (e - 1); Ok (eqb tr closer)
                    end
                end)
      | _ => Some (Err AssertionError)
      end
    else Some (Ok false).
  (** Line 430. *)
  Definition heap_splitter (h : heap) (x : nat) : option (result bool) :=
    let? c := node_at h x in
    Some (do len <- c_len c; if len =? 1 then do t <- token_at tokens (c_lo c); Ok (mem t splits) else Ok false).
  (** Lines 434-442: the new nodes between a node and its children. *)
  Fixpoint group_nodes (a : nat) (groups : list (list nat)) (h : heap) : option (result (heap * list nat)) :=
    match groups with
    | [] => Some (Ok (h, []))
    | [] :: groups' => group_nodes a groups' h
    | (x :: g) :: groups' =>
        let? first := node_at h x in
        let? end_ := node_at h (last (x :: g) x) in
        let n := length h in
        let? r := group_nodes a groups' (adopt n (x :: g) (h ++ [mkCell (c_lo first) (c_hi end_) (Some a) ASplit (x :: g)])) in
        Some (Ok (fst r, n :: snd r))
    end.
  (** Lines 427-443. *)
  Definition heap_regroup (h : heap) (a : nat) (c : cell) (flags : list bool) : option (result heap) :=
    let groups := group_by (combine (c_children c) flags) in
    if (1 <? length groups) && negb (eqb (c_ann c) APaired) then
      let? r := group_nodes a groups h in
      Some (Ok (update a (set_children (snd r)) (fst r)))
    else Some (Ok h).
  (** Lines 414-446, [_split]. *)
  Fixpoint heap_split (limit : nat) (h : heap) (a : nat) : option (result heap) :=
    match limit with
    | 0 => None
    | S limit' =>
        let? c := node_at h a in
        let? stop := heap_unsplittable h c in
        if stop then Some (Ok h)
        else
          let? flags := omapM (heap_splitter h) (c_children c) in
          let? h1 := heap_regroup h a c flags in
          (fix each (h : heap) (l : list nat) : option (result heap) :=
             match l with
             | [] => Some (Ok h)
             | x :: l' =>
                 let? cx := node_at h x in
                 let? len := Some (c_len cx) in
                 let? h' := (if 1 <? len then heap_split limit' h x else Some (Ok h)) in
                 each h' l'
             end) h1 (c_children c)
    end.

  (** [l.index(x)] and [l.remove(x)].  Nodes are compared by address: [==] of the data class looks at [lo] and [hi]
      first, which are different for the children of a node. *)
  Fixpoint index_of (x : nat) (l : list nat) : option nat :=
    match l with [] => None | y :: l' => if x =? y then Some 0 else option_map S (index_of x l') end.
  Fixpoint remove_first (x : nat) (l : list nat) : option (list nat) :=
    match l with [] => None | y :: l' => if x =? y then Some l' else option_map (cons y) (remove_first x l') end.
  (** [l[i - 1]]: the last element for 0. *)
  Definition before (l : list nat) (i : nat) : option nat := nth_error l (match i with 0 => length l - 1 | S i' => i' end).

  (** Lines 454-467: what [_sub_match] yields for one node. *)
  Definition heap_yield (sub : T * T) (h : heap) (c : cell) : option (result (list (nat * nat))) :=
    if eqb (c_ann c) APaired then
      match c_children c with
      | [l; m; r] =>
          let? cl := node_at h l in
          let? cr := node_at h r in
          let? found := Some (do tl <- token_at tokens (c_lo cl);
                              match c_hi cr with
                              | None => Err TypeError
                              | Some e => do tr <- token_at tokens (e - 1); Ok (eqb tl (fst sub) && eqb tr (snd sub))
                              end) in
          if found then
            match c_parent c with
            | None => Some (Ok [])
            | Some new_child =>
                let? cn := node_at h new_child in
                match c_parent cn with
                | None => Some (Ok [])
                | Some grand_parent =>
                    let? cg := node_at h grand_parent in
                    match index_of new_child (c_children cg) with
                    | None => Some (Err ValueError)
                    | Some i =>
                        match before (c_children cg) i with
                        | None => Some (Err IndexError)
                        | Some new_parent =>
                            let? cp := node_at h new_parent in
                            Some (Ok (if eqb (c_ann cn) ASplit && eqb (c_ann cp) ASplit && eqb (c_hi cp) (Some (c_lo cn))
                                      then [(new_child, new_parent)] else []))
                        end
                    end
                end
            end
          else Some (Ok [])
      | _ => Some (Err AssertionError)
      end
    else Some (Ok []).
  (** Lines 448-470, [_sub_match]. *)
  Fixpoint heap_sub_match (sub : T * T) (limit : nat) (h : heap) (a : nat) : option (result (list (nat * nat))) :=
    match limit with
    | 0 => None
    | S limit' =>
        let? c := node_at h a in
        let? here := heap_yield sub h c in
        let? below := omapM (heap_sub_match sub limit' h) (c_children c) in
        Some (Ok (here ++ concat below))
    end.
  (** Lines 472-488, [_sub_match_transplant]; [None] also for a [new_parent] without a parent. *)
  Definition set_hi (e : option nat) (c : cell) : cell := mkCell (c_lo c) e (c_parent c) (c_ann c) (c_children c).
  Definition heap_transplant (h : heap) (new_child new_parent : nat) : option (result heap) :=
    let? cp := node_at h new_parent in
    let n := length h in
    let h1 := adopt n (c_children cp) (h ++ [mkCell (c_lo cp) (c_hi cp) (Some new_parent) ASplit []]) in
    let h2 := update n (set_children (c_children cp)) h1 in
    let h3 := update new_parent (set_children [n; new_child]) h2 in
    let? cp3 := node_at h3 new_parent in
    match c_parent cp3 with
    | None => None
    | Some q =>
        let? cq := node_at h3 q in
        match remove_first new_child (c_children cq) with
        | None => Some (Err ValueError)
        | Some l =>
            let h4 := update new_child (set_parent (Some new_parent)) (update q (set_children l) h3) in
            let? cn := node_at h4 new_child in
            Some (Ok (update new_parent (set_hi (c_hi cn)) h4))
        end
    end.
  Fixpoint heap_transplants (l : list (nat * nat)) (h : heap) : option (result heap) :=
    match l with
    | [] => Some (Ok h)
    | (new_child, new_parent) :: l' => let? h' := heap_transplant h new_child new_parent in heap_transplants l' h'
    end.

  (** Lines 381-412 and 490-496, [split_parse] *)
  Definition heap_split_parse (sub : option (T * T)) (limit : nat) (h : heap) (root : nat) : option (result (heap * nat)) :=
    match copy limit h root with
    | None => None
    | Some (h1, r) =>
        match splits with
        | [] => Some (Ok (h1, r))
        | _ =>
            let? h2 := heap_split limit h1 r in
            match sub with
            | None => Some (Ok (h2, r))
            | Some s =>
                let? l := heap_sub_match s limit h2 r in
                let? h3 := heap_transplants l h2 in
                Some (Ok (h3, r))
            end
        end
    end.
End Split.
