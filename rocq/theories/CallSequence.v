(** Model of r_u_sure/wrappers/call_sequence_wrapper.py: extraction of API calls,
    and the baselines of the wrapper.

    Match types are Python strings here.  [isspace] is the character class [\s];
    [builtin] stands for the fixed set PYTHON_BUILTIN_TOKENS of
    parsing/python_builtin_tokens.py. *)

From Coq Require Import String.
From Coq Require Import List Bool Arith Lia ZArith.
From Verif Require Import Base SeqNodes Transforms PackedSeq Decisions RegionDecisions PrefixBaselines Html.
Import ListNotations.
Close Scope string_scope. Close Scope Z_scope. Open Scope nat_scope.
Open Scope list_scope.

Notation N := (node text).

Definition s_open := chars "(".
Definition s_close := chars ")".
Definition s_dot := chars ".".
Definition s_newline : text := [10].
Definition MATCH := chars "MATCH".
Definition MATCH_LEFT := chars "MATCH_LEFT".
Definition CONTENT_LEAF := chars "CONTENT_LEAF".
Definition END_CALL := chars "END_CALL".
Definition START_CALL := chars "START_CALL".
Definition ARGS := chars "ARGS".
Definition EMPTY_ARGS := chars "EMPTY_ARGS".
Definition ATTRIBUTE_DOT := chars "ATTRIBUTE_DOT".
Definition EXPECTED := chars "EXPECTED".
Definition NOVEL := chars "NOVEL".
Definition API_CALL := chars "API_CALL".

(** [node == TextTokenNode(t, m)] (dataclass equality). *)
Definition is_token (t m : text) (n : N) : bool :=
  match n with Token t' m' => eqb t' t && eqb m' m | _ => false end.
Definition group_node (n : N) : bool := match n with Group _ _ => true | _ => false end.
Definition deco_node (n : N) : bool := match n with Deco _ => true | _ => false end.
Definition token_node (n : N) : bool := match n with Token _ _ => true | _ => false end.

(** call_sequence_wrapper.py:56-74, [extract_context_tokens]: the loop over the
    leaves ([walk_with_paths] without groups). *)
Fixpoint context_loop (location position : nat) (seen : list text) (l : list (N * path * walk_tag)) : list text :=
  match l with
  | [] => seen
  | (n, _, _) :: l' =>
      let seen' := match n with Token t _ => t :: seen | _ => seen end in
      match n with
      | Token t _ | Deco t =>
          let position' := position + length t in
          if location <=? position' then seen' else context_loop location position' seen' l'
      | _ => context_loop location position seen' l'
      end
  end.
Definition extract_context_tokens (ns : list N) (location : nat) : list text :=
  context_loop location 0 [] (walk_with_paths ns false false []).

Section Extract.
  Variable isspace : nat -> bool.

  (** Lines 80-87, [_is_paren]. *)
  Definition is_paren (n : N) : bool :=
    match n with
    | Group cs m =>
        eqb m MATCH && (length cs =? 3) &&
        match cs with c :: _ => is_token s_open MATCH_LEFT c | [] => false end
    | _ => false
    end.

  (** Lines 122-137: the nodes up to the first group, without the decorations at
      the beginning, and the nodes after it.  The nodes come with a value
      [X], which is what recursion finds in them. *)
  Fixpoint split_candidate {X : Type} (started : bool) (l : list (N * X)) : list (N * X) * list (N * X) :=
    match l with
    | [] => ([], [])
    | (n, x) :: l' =>
        let started' := if negb (deco_node n) then true else started in
        let keep := if started' then [(n, x)] else [] in
        if group_node n then (keep, l')
        else let (c, a) := split_candidate started' l' in (keep ++ c, a)
    end.
  (** Lines 140-149. *)
  Definition is_call (candidate : list N) : bool :=
    (2 <=? length candidate) &&
    match candidate, rev candidate with
    | c0 :: _, last :: before :: _ =>
        negb (is_token (chars "def") CONTENT_LEAF c0) && negb (is_token (chars "class") CONTENT_LEAF c0) &&
        is_paren last && token_node before
    | _, _ => false
    end.
  (** [re.fullmatch(r"\s+", t)]. *)
  Definition all_space (t : text) : bool := match t with [] => false | _ => forallb isspace t end.
  (** Lines 163-181, the body of the loop: what is appended to [reverse_outs]. *)
  Definition reverse_out (expected : list text) (n : N) : list N :=
    match n with
    | Token t m =>
        if is_token s_dot CONTENT_LEAF n then [Token s_dot ATTRIBUTE_DOT; RegionStart]
        else if mem t expected then [Token t EXPECTED]
        else [Token t NOVEL]
    | Deco t => (if all_space t then [RegionStart] else []) ++ [n]
    | _ => []
    end.
  (** Lines 150-184.  [candidate[-1].children[1]] exists because [candidate[-1]]
      has three children. *)
  Definition make_call (expected : list text) (candidate : list N) : list N :=
    let args_text := match rev candidate with
                     | Group (_ :: c1 :: _) _ :: _ => render_node c1
                     | _ => []
                     end in
    let reverse_outs :=
      [RegionEnd; Token s_close END_CALL;
       match args_text with [] => Token [] EMPTY_ARGS | _ => Token args_text ARGS end;
       RegionEnd; Token s_open START_CALL]
      ++ flat_map (reverse_out expected) (rev candidate) ++ [RegionStart] in
    rev reverse_outs.
  (** Lines 139-193, given what recursion yields for every node. *)
  Definition assemble (expected : list text) (l : list (N * list (list N))) : list (list N) :=
    let (candidate, after) := split_candidate false l in
    (if is_call (map fst candidate) then [make_call expected (map fst candidate)]
     else concat (map snd candidate)) ++ concat (map snd after).
  (** Lines 89-193, [_extract_all_from].  The generator is the list of what it
      yields; [extract_node] is [_extract_all_from(node.children)] for a group and
      empty otherwise.  Simplification: recursion results are computed for all
      nodes, and dropped for the nodes Python does not recurse into. *)
  Fixpoint extract_node (expected : list text) (n : N) : list (list N) :=
    match n with
    | Group cs _ => assemble expected (map (fun c => (c, extract_node expected c)) cs)
    | _ => []
    end.
  Definition extract_all_from (expected : list text) (ns : list N) : list (list N) :=
    assemble expected (map (fun c => (c, extract_node expected c)) ns).

  (** [s.rfind("\n")] (line 218); [None] is -1. *)
  Fixpoint rfind_from (i : nat) (c : nat) (s : text) : option nat :=
    match s with
    | [] => None
    | x :: s' => match rfind_from (S i) c s' with
                 | Some k => Some k
                 | None => if x =? c then Some i else None
                 end
    end.
  Definition adjusted_location (raw : text) (location : nat) : nat :=
    match rfind_from 0 10 (firstn location raw) with Some k => k | None => 0 end.
  (** Lines 195-233, [_make_callseq_tree], for a prediction location that is not
      negative. *)
  Definition make_callseq_tree (builtin : list text) (ns : list N) (location : nat) : list N :=
    let adjusted := adjusted_location (render ns) location in
    let expected := extract_context_tokens ns location ++ builtin in
    let truncated := truncate_prefix_at_offset ns (Z.of_nat adjusted) in
    flat_map (fun seq => [Group seq API_CALL; Deco s_newline]) (extract_all_from expected truncated).

  (** Lines 319-329, [process_prototype_and_context]; packing is [pack]
      (parser_tools.py:30-40). *)
  Definition process_prototype_and_context (builtin : list text) (ns : list N) (location : nat) : storage text :=
    pack (make_callseq_tree builtin ns location).
  (** Lines 331-342, [process_target]. *)
  Definition process_target (builtin : list text) (ns : list N) (location : nat) : storage text :=
    pack (strip_decision_nodes (make_callseq_tree builtin ns location)).
End Extract.

(** ** Lines 344-494, [build_baseline_assignments]. *)
Section Baselines.
  Notation storage := (storage text).

  (** [l[-k]]. *)
  Definition from_end {A} (l : list A) (k : nat) : result A :=
    match nth_error (rev l) (k - 1) with Some x => Ok x | None => Err IndexError end.
  Definition check (b : bool) : result unit := if b then Ok tt else Err AssertionError.
  Definition category_is (c : category) (i : node_id) : bool :=
    match c, cat i with
    | CDeco, CDeco | CToken, CToken | CStart, CStart | CEnd, CEnd | CExit, CExit | CGroup, CGroup => true
    | _, _ => false
    end.

  (** Lines 402-422: the loop over [children_ids[-5::-1]]; the result is
      [current_call_shorter_start] and [saw_novel]. *)
  Fixpoint shorter_loop (S : storage) (prev_start : option nat) (saw_novel : bool) (ids : list node_id) : result (nat * bool) :=
    match ids with
    | [] => match prev_start with Some s => Ok (s, saw_novel) | None => Err AssertionError end
    | i :: ids' =>
        match cat i with
        | CToken =>
            do x <- lookup (tokens S) (idx i);
            shorter_loop S prev_start (if eqb (snd x) NOVEL then true else saw_novel) ids'
        | CDeco => match prev_start with Some s => Ok (s, saw_novel) | None => Err AssertionError end
        | CStart => shorter_loop S (Some (pre i)) saw_novel ids'
        | _ => shorter_loop S prev_start saw_novel ids'
        end
    end.
  (** What one call adds to [all_calls_full], [all_calls_shorter] and
      [novel_calls_shorter]. *)
  Record call_marks := mkMarks { cm_full : list nat; cm_shorter : list nat; cm_novel : list nat }.
  (** Lines 368-436, for one group. *)
  Definition mark_call (S : storage) (children : list node_id) : result call_marks :=
    do last_end <- from_end children 1;
    do _ <- check (category_is CEnd last_end);
    do c2 <- from_end children 2;
    do _ <- check (category_is CToken c2);
    do c3 <- from_end children 3;
    do _ <- check (category_is CToken c3);
    do c4 <- from_end children 4;
    do _ <- check (category_is CEnd c4);
    do r <- shorter_loop S None false (skipn 4 (rev children));
    let (start, saw_novel) := r in
    match children with
    | [] => Err IndexError
    | first :: _ =>
        do _ <- check (category_is CStart first);
        Ok (mkMarks [pre last_end; pre first] [start; pre c4] (if saw_novel then [start; pre c4] else []))
    end.
  (** Lines 366-436, the loop. *)
  Fixpoint mark_calls (S : storage) (ids : list node_id) : result call_marks :=
    match ids with
    | [] => Ok (mkMarks [] [] [])
    | i :: ids' =>
        match cat i with
        | CGroup =>
            do g <- lookup (groups S) (idx i);
            do m <- mark_call S (fst g);
            do r <- mark_calls S ids';
            Ok (mkMarks (cm_full m ++ cm_full r) (cm_shorter m ++ cm_shorter r) (cm_novel m ++ cm_novel r))
        | _ => mark_calls S ids'
        end
    end.
  (** Lines 442-488, the loop of [_make_suggestion]: the assignment and the
      indices seen. *)
  Fixpoint suggestion_loop (indices : list nat) (in_low_conf : bool) (seen : list nat) (asg : assignments) (ids : list node_id)
    : result (assignments * list nat) :=
    match ids with
    | [] => Ok (asg, seen)
    | i :: ids' =>
        match cat i with
        | CStart =>
            let key := (pre i, RegionShouldStart) in
            if mem (pre i) indices then
              do _ <- check (negb in_low_conf);
              suggestion_loop indices true (pre i :: seen) (put key DTrue asg) ids'
            else suggestion_loop indices in_low_conf (pre i :: seen) (put key (if in_low_conf then DNA else DFalse) asg) ids'
        | CEnd =>
            let key := (pre i, RegionShouldEnd) in
            if mem (pre i) indices then
              do _ <- check in_low_conf;
              suggestion_loop indices false (pre i :: seen) (put key DTrue asg) ids'
            else suggestion_loop indices in_low_conf (pre i :: seen) (put key (if in_low_conf then DFalse else DNA) asg) ids'
        | _ => suggestion_loop indices in_low_conf seen asg ids'
        end
    end.
  Definition make_suggestion (S : storage) (indices : list nat) : result assignments :=
    do r <- suggestion_loop indices false [] [] (preorder_traversal S);
    do _ <- check (forallb (fun k => mem k (snd r)) indices);
    Ok (fst r).
  Record baselines := mkBaselines { all_calls_full : assignments; all_calls_shorter : assignments; novel_calls_shorter : assignments }.
  Definition build_baseline_assignments (S : storage) : result baselines :=
    do m <- mark_calls S (root_sequence S);
    do a <- make_suggestion S (cm_full m);
    do b <- make_suggestion S (cm_shorter m);
    do c <- make_suggestion S (cm_novel m);
    Ok (mkBaselines a b c).
End Baselines.
