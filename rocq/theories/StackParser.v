(** Model of r_u_sure/parsing/pseudo_parser/stack_parser.py: bracket matching,
    error correction, splitting and the desugaring of Python indentation.

    Tokens are of any type with decidable equality (the code uses integer codes
    or strings).  Parent pointers are left out: in the model a node's parent is
    the node it is a child of, which is what the fourth condition of
    [valid_parse_ranges] (lines 508, 529) checks. *)

From Coq Require Import List Bool Arith Lia.
From Verif Require Import Base.
Import ListNotations.

(** stack_parser.py:28-30, [ParseError]; nothing modelled here raises Python's
    RuntimeError, whose name it borrows. *)
Notation ParseError := RuntimeError.

(** stack_parser.py:241-355: the annotation strings. *)
Inductive annotation_kind := ARoot | ASibling | APaired | ALeft | ARight | AMiddle | ASplit.
#[export] Instance EqDec_annotation : EqDec annotation_kind.
Proof. intros x y. decide equality. Defined.

(** stack_parser.py:240-256, [Node]; [hi] is [None] until it is known. *)
Inductive pnode := PNode (lo : nat) (hi : option nat) (ann : annotation_kind) (children : list pnode).
Definition p_lo (n : pnode) := let 'PNode lo _ _ _ := n in lo.
Definition p_hi (n : pnode) := let 'PNode _ hi _ _ := n in hi.
Definition p_ann (n : pnode) := let 'PNode _ _ a _ := n in a.
Definition p_children (n : pnode) := let 'PNode _ _ _ cs := n in cs.

Section PnodeInd.
  Context (P : pnode -> Prop).
  Hypothesis HN : forall lo hi ann cs, Forall P cs -> P (PNode lo hi ann cs).
  Fixpoint pnode_ind' (n : pnode) : P n :=
    match n with
    | PNode lo hi ann cs =>
        HN lo hi ann cs ((fix go l := match l return Forall P l with
                                      | [] => Forall_nil P
                                      | c :: l' => Forall_cons c (pnode_ind' c) (go l')
                                      end) cs)
    end.
End PnodeInd.

Section Brackets.
  Context {T : Type} `{EqDec T}.

  (** stack_parser.py:33-43, [_unzip_pairs], and the dicts of 572 and 645-646:
      the last entry for a key wins. *)
  Definition openers (pairs : list (T * T)) : list T := map fst pairs.
  Definition closers (pairs : list (T * T)) : list T := map snd pairs.
  Definition closer_to_opener (pairs : list (T * T)) (t : T) : option T :=
    assoc t (rev (map (fun p => (snd p, fst p)) pairs)).
  Definition opener_to_closer (pairs : list (T * T)) (t : T) : option T := assoc t (rev pairs).

  (** The loop state of [stack_based_bracket_match]: [current] are the children
      of the variable [parent] so far; [stack] holds, innermost first, the open
      brackets, each with its position and the children that precede it under
      its own parent. *)
  Record matching := mkMatching { current : list pnode; stack : list (T * nat * list pnode) }.

  Definition sibling (i : nat) : pnode := PNode i (Some (i + 1)) ASibling [].
  (** lines 594-614: the three-child node of a closed bracket. *)
  Definition paired (j i : nat) (inner : list pnode) : pnode :=
    PNode j (Some (i + 1)) APaired
      [PNode j (Some (j + 1)) ALeft []; PNode (j + 1) (Some i) AMiddle inner; PNode i (Some (i + 1)) ARight []].
  (** lines 590-601: a bracket that is never closed. *)
  Definition unclosed (j : nat) (inner : list pnode) : pnode :=
    PNode j None APaired [PNode j (Some (j + 1)) ALeft []; PNode (j + 1) None AMiddle inner].

  (** lines 574-617: the loop body.  A closer that meets an empty stack takes
      none of the branches: it gets no node. *)
  Definition match_step (pairs : list (T * T)) (tolerant : bool) (i : nat) (token : T) (m : matching)
    : result matching :=
    if mem token (openers pairs) then Ok (mkMatching [] ((token, i, current m) :: stack m))
    else if mem token (closers pairs) then
      match stack m with
      | [] => Ok m
      | (o, j, before) :: rest =>
          if eqb (closer_to_opener pairs token) (Some o)
          then Ok (mkMatching (before ++ [paired j i (current m)]) rest)
          else if tolerant then Ok (mkMatching (current m ++ [sibling i]) (stack m))
          else Err ParseError
      end
    else Ok (mkMatching (current m ++ [sibling i]) (stack m)).
  Fixpoint match_loop (pairs : list (T * T)) (tolerant : bool) (i : nat) (tokens : list T) (m : matching)
    : result matching :=
    match tokens with
    | [] => Ok m
    | t :: ts => do m' <- match_step pairs tolerant i t m; match_loop pairs tolerant (S i) ts m'
    end.
  (** What the tree looks like when the loop ends with open brackets. *)
  Definition close_all (m : matching) : list pnode :=
    fold_left (fun inner f => let '(_, j, before) := f in before ++ [unclosed j inner]) (stack m) (current m).
  (** lines 539-622, [stack_based_bracket_match]. *)
  Definition stack_based_bracket_match (pairs : list (T * T)) (tolerant : bool) (tokens : list T) : result pnode :=
    do m <- match_loop pairs tolerant 0 tokens (mkMatching [] []);
    match stack m, tolerant with
    | _ :: _, false => Err ParseError
    | _, _ => Ok (PNode 0 (Some (length tokens)) ARoot (close_all m))
    end.

  (** lines 655-678: the loop of [error_correcting_prefix_and_suffix], on the
      stack (innermost first) and the prefix in the order it is collected. *)
  Definition correct_step (pairs : list (T * T)) (s : list T * list T) (token : T) : list T * list T :=
    let '(stack, prefix) := s in
    if mem token (openers pairs) then (token :: stack, prefix)
    else if mem token (closers pairs) then
      match stack with
      | [] => (stack, match closer_to_opener pairs token with Some o => prefix ++ [o] | None => prefix end)
      | o :: rest => if eqb (closer_to_opener pairs token) (Some o) then (rest, prefix) else (stack, prefix)
      end
    else (stack, prefix).
  (** lines 625-689; the suffix reversed is innermost first. *)
  Definition error_correcting_prefix_and_suffix (pairs : list (T * T)) (tokens : list T) : list T * list T :=
    let '(stack, prefix) := fold_left (correct_step pairs) tokens ([], []) in
    (rev prefix, flat_map (fun o => match opener_to_closer pairs o with Some c => [c] | None => [] end) stack).

  (** lines 499-536, [valid_parse_ranges]. *)
  Fixpoint check_ranges (n : pnode) : bool :=
    match n with
    | PNode lo hi _ cs =>
        match cs with
        | [] => true
        | c0 :: _ =>
            (lo =? p_lo c0) && eqb hi (p_hi (last cs c0))
            && (match hi with Some _ => true | None => false end)
            && eqb (map (fun c => Some (p_lo c)) (tl cs)) (map p_hi (removelast cs))
            && forallb check_ranges cs
        end
    end.
  Definition valid_parse_ranges (n : pnode) (size : nat) : bool :=
    (p_lo n =? 0) && eqb (p_hi n) (Some size) && check_ranges n.

  (** lines 305-307, [__len__]. *)
  Definition p_len (n : pnode) : result nat :=
    match p_hi n with Some h => Ok (h - p_lo n) | None => Err TypeError end.
  Definition token_at (tokens : list T) (i : nat) : result T :=
    match nth_error tokens i with Some t => Ok t | None => Err IndexError end.

  (** lines 410-420: is the node a bracket inside which nothing is split? *)
  Definition unsplittable (tokens : list T) (pairs : list (T * T)) (n : pnode) : result bool :=
    if eqb (p_ann n) APaired then
      match p_children n with
      | [l; _; r] =>
          do tl <- token_at tokens (p_lo l);
          match assoc tl pairs with
          | None => Ok false
          | Some c =>
              match p_hi r with
              | None => Err TypeError
              | Some h => do tr <- token_at tokens (h - 1); Ok (eqb tr c)
              end
          end
      | _ => Err AssertionError
      end
    else Ok false.
  (** lines 423-427: the groups, each ending after a split token. *)
  Definition is_splitter (tokens splits : list T) (n : pnode) : result bool :=
    do len <- p_len n;
    if len =? 1 then do t <- token_at tokens (p_lo n); Ok (mem t splits) else Ok false.
  (** Put [x] in front of the first group. *)
  Definition cons_group {A} (x : A) (gs : list (list A)) : list (list A) :=
    match gs with [] => [[x]] | g :: gs' => (x :: g) :: gs' end.
  (** [groups] of a list of children with their splitter flags; as in the code
      the last group may be empty. *)
  Fixpoint group_by {A} (l : list (A * bool)) : list (list A) :=
    match l with
    | [] => [[]]
    | (x, true) :: l' => [x] :: group_by l'
    | (x, false) :: l' => cons_group x (group_by l')
    end.
  (** lines 429-438: a group's common parent (none for an empty group). *)
  Definition split_group (g : list pnode) : list pnode :=
    match g with
    | [] => []
    | c0 :: _ => [PNode (p_lo c0) (p_hi (last g c0)) ASplit g]
    end.
  Definition regroup (ann : annotation_kind) (cs : list (pnode * bool)) : list pnode :=
    let groups := group_by cs in
    if (1 <? length groups) && negb (eqb ann APaired) then flat_map split_group groups
    else map fst cs.
  (** lines 405-441, [_split]; children are split in place after the grouping,
      which the grouping does not see. *)
  Fixpoint split_node (tokens splits : list T) (pairs : list (T * T)) (n : pnode) : result pnode :=
    match n with
    | PNode lo hi ann cs =>
        do stop <- unsplittable tokens pairs n;
        if stop then Ok n
        else
          do flags <- mapM (is_splitter tokens splits) cs;
          do cs' <- (fix go (l : list pnode) : result (list pnode) :=
                       match l with
                       | [] => Ok []
                       | c :: l' =>
                           do len <- p_len c;
                           do c' <- (if 1 <? len then split_node tokens splits pairs c else Ok c);
                           do r <- go l';
                           Ok (c' :: r)
                       end) cs;
          Ok (PNode lo hi ann (regroup ann (combine cs' flags)))
    end.

  (** lines 443-466, [_sub_match]: does a node hold, among its children, a pair
      that is to be nested under the preceding split group?  The result counts
      such children (one item is yielded for each). *)
  Definition is_sub_pair (tokens : list T) (sub : T * T) (n : pnode) : result bool :=
    if eqb (p_ann n) APaired then
      match p_children n with
      | [l; _; r] =>
          do tl <- token_at tokens (p_lo l);
          match p_hi r with
          | None => Err TypeError
          | Some h => do tr <- token_at tokens (h - 1); Ok (eqb tl (fst sub) && eqb tr (snd sub))
          end
      | _ => Err AssertionError
      end
    else Ok false.
  Definition count_sub_pairs (tokens : list T) (sub : T * T) (n : pnode) : result nat :=
    do flags <- mapM (is_sub_pair tokens sub) (p_children n);
    Ok (length (filter (fun b => b) flags)).
  (** Lines 458-464: may [c] go under its left neighbour [p]?  (For a first child
      the code looks at the last one instead; its [hi] is never the first one's
      [lo].) *)
  Definition adjacent_splits (p c : pnode) : bool :=
    eqb (p_ann c) ASplit && eqb (p_ann p) ASplit && eqb (p_hi p) (Some (p_lo c)).
  (** lines 468-486, [_sub_match_transplant]. *)
  Definition transplant (p c : pnode) : pnode :=
    PNode (p_lo p) (p_hi c) (p_ann p) [PNode (p_lo p) (p_hi p) ASplit (p_children p); c].
  (** The transplants among one node's children; [n] is the number of pairs a
      child holds, determined before any transplant (line 491).  If a child is
      to move twice, or is to receive its neighbour after having moved itself,
      [list.remove] of line 483 does not find it. *)
  Fixpoint transplant_list (prev : pnode) (l : list (pnode * nat)) : result (list pnode) :=
    match l with
    | [] => Ok [prev]
    | (c, n) :: l' =>
        if (0 <? n) && adjacent_splits prev c then
          if 1 <? n then Err ValueError
          else
            match l' with
            | [] => Ok [transplant prev c]
            | (c2, n2) :: l'' =>
                if (0 <? n2) && adjacent_splits c c2 then Err ValueError
                else do rest <- transplant_list c2 l''; Ok (transplant prev c :: rest)
            end
        else do rest <- transplant_list c l'; Ok (prev :: rest)
    end.
  Definition transplant_children (l : list (pnode * nat)) : result (list pnode) :=
    match l with [] => Ok [] | (c, _) :: l' => transplant_list c l' end.
  (** lines 490-492, on the whole tree.  Transplants under different nodes do
      not affect each other. *)
  Fixpoint sub_match (tokens : list T) (sub : T * T) (n : pnode) : result pnode :=
    match n with
    | PNode lo hi ann cs =>
        do counts <- mapM (count_sub_pairs tokens sub) cs;
        do cs' <- (fix go (l : list pnode) : result (list pnode) :=
                     match l with
                     | [] => Ok []
                     | c :: l' => do c' <- sub_match tokens sub c; do r <- go l'; Ok (c' :: r)
                     end) cs;
        do out <- transplant_children (combine cs' counts);
        Ok (PNode lo hi ann out)
    end.
  (** lines 381-496, [split_parse]. *)
  Definition split_parse (root : pnode) (tokens splits : list T) (pairs : list (T * T)) (sub : option (T * T))
    : result pnode :=
    match splits with
    | [] => Ok root
    | _ =>
        do r <- split_node tokens splits pairs root;
        match sub with None => Ok r | Some s => sub_match tokens s r end
    end.

  (** lines 719-743, [_top_level_line_slices]: (start, stop) pairs.  [first] is
      the first node of the line being read.  The slice of an unfinished last
      line covers only its first node. *)
  Fixpoint line_slices (tokens : list T) (newline : T) (first : option pnode) (l : list pnode)
    : result (list (nat * option nat)) :=
    match l with
    | [] => Ok (match first with None => [] | Some f => [(p_lo f, p_hi f)] end)
    | c :: l' =>
        let f := match first with None => c | Some f => f end in
        match p_hi c with
        | None => Err TypeError
        | Some h =>
            do t <- token_at tokens (h - 1);
            if eqb t newline then do r <- line_slices tokens newline None l'; Ok ((p_lo f, Some h) :: r)
            else line_slices tokens newline (Some f) l'
        end
    end.
  (** Python's [l[a:b]]. *)
  Definition py_slice {A} (s : nat * option nat) (l : list A) : list A :=
    match snd s with Some b => firstn (b - fst s) (skipn (fst s) l) | None => skipn (fst s) l end.
  (** lines 756-771: dedents go before the newline just written. *)
  Definition write_change (newline indent dedent : T) (current line : nat) (out : list T) : result (list T) :=
    if current <? line then Ok (out ++ repeat indent (line - current))
    else if line <? current then
      match rev out with
      | [] => Err IndexError
      | t :: r => if eqb t newline then Ok (rev r ++ repeat dedent (current - line) ++ [t]) else Err AssertionError
      end
    else Ok out.
End Brackets.
Arguments mkMatching {T}. Arguments current {T}. Arguments stack {T}. Arguments matching : clear implicits.

Section Desugar.
  Context {T : Type} `{EqDec T}.
  (** Python's [\s] on code points. *)
  Variable is_space : nat -> bool.

  Fixpoint leading_spaces (t : list nat) : nat :=
    match t with c :: t' => if is_space c then S (leading_spaces t') else 0 | [] => 0 end.
  (** lines 745-752, [_line_indent]; [None] for a line of white space only.  The
      empty line string cannot match [^(\s+)$] and has indent 0.
      [spaces_per_indent] must be positive (ZeroDivisionError otherwise). *)
  Definition line_indent (spaces_per_indent : nat) (line : list nat) : option nat :=
    if forallb is_space line && negb (eqb line []) then None
    else Some (leading_spaces line / spaces_per_indent).
  (** lines 754-765: the loop. *)
  Fixpoint desugar_loop (texts : list (list nat)) (tokens : list T) (indent dedent newline : T)
      (spaces_per_indent : nat) (current : nat) (out : list T) (lines : list (nat * option nat))
    : result (nat * list T) :=
    match lines with
    | [] => Ok (current, out)
    | s :: lines' =>
        do r <- match line_indent spaces_per_indent (concat (py_slice s texts)) with
                | None => Ok (current, out)
                | Some i => do out' <- write_change newline indent dedent current i out; Ok (i, out')
                end;
        desugar_loop texts tokens indent dedent newline spaces_per_indent (fst r)
          (snd r ++ py_slice s tokens) lines'
    end.
  (** lines 692-773, [python_indent_dedent_desugar]. *)
  Definition python_indent_dedent_desugar (root : pnode) (texts : list (list nat)) (tokens : list T)
      (indent dedent newline : T) (spaces_per_indent : nat) : result (list T) :=
    do lines <- line_slices tokens newline None (p_children root);
    do r <- desugar_loop texts tokens indent dedent newline spaces_per_indent 0 [] lines;
    write_change newline indent dedent (fst r) 0 (snd r).
End Desugar.
