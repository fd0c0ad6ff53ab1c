(** Model of the baselines of r_u_sure/wrappers/prefix_truncation_wrapper.py, with
    the rules they follow stated over the nodes of the prototype. *)

From Coq Require Import List Bool Arith Lia QArith Qcanon Sorting.Sorted.
From Verif Require Import Base SeqNodes PackedSeq PackedSeqProofs Numbered Decisions TokenProb RegionDecisions.
Import ListNotations.
Close Scope Qc_scope. Close Scope Q_scope. Open Scope nat_scope.

(** [constraints[key] = value] of a Python dict. *)
Fixpoint put (k : dkey) (v : dvalue) (d : assignments) : assignments :=
  match d with
  | [] => [(k, v)]
  | (k', v') :: d' => if eqb k k' then (k', v) :: d' else (k', v') :: put k v d'
  end.
(** [a < b] for an average and [best_average_log_prob_at_exit_point], where
    [None] is the initial -inf. *)
Definition qc_ltb (a b : Qc) : bool := if Qclt_le_dec a b then true else false.
Definition above (best : option Qc) (x : Qc) : bool := match best with None => true | Some b => qc_ltb b x end.
Definition of_nat (n : nat) : Qc := Q2Qc (inject_Z (Z.of_nat n)).
Definition newline : nat := 10.

Section Baselines.
  Context {M : Type}.
  Notation L := (lnode M).
  Notation storage := (storage M).

  (** prefix_truncation_wrapper.py:247-271, the loop of
      [_assignment_from_exit_point]. *)
  Fixpoint exit_loop (at_exit : option nat) (exited : bool) (acc : assignments) (ids : list node_id) : result (assignments * bool) :=
    match ids with
    | [] => Ok (acc, exited)
    | i :: ids' =>
        match cat i with
        | CExit =>
            let key := (pre i, ShouldEarlyExit) in
            if eqb (Some (pre i)) at_exit then
              if exited then Err AssertionError else exit_loop at_exit true (put key DTrue acc) ids'
            else exit_loop at_exit exited (put key (if exited then DNA else DFalse) acc) ids'
        | CStart => exit_loop at_exit exited (put (pre i, RegionShouldStart) DFalse acc) ids'
        | _ => exit_loop at_exit exited acc ids'
        end
    end.
  (** prefix_truncation_wrapper.py:229-280, [_assignment_from_exit_point]. *)
  Definition assignment_from_exit_point (S : storage) (at_exit : option nat) : result assignments :=
    do r <- exit_loop at_exit false [] (preorder_traversal S);
    match at_exit with
    | Some _ => if snd r then Ok (fst r) else Err ValueError
    | None => Ok (fst r)
    end.

  (** prefix_truncation_wrapper.py:288-309, the loop of
      [baseline_assignment_from_token_prob]; the result is the exit to take.
      [low x] is [math.exp(x) < probability_threshold], for any threshold. *)
  Fixpoint token_prob_loop (low : Qc -> bool) (cumulative : bool) (S : storage) (aligned : list (nat * Qc))
      (current : Qc) (last_exit : option nat) (exit_next : bool) (ids : list node_id) : result (option nat) :=
    match ids with
    | [] => Ok None
    | i :: ids' =>
        match cat i with
        | CExit =>
            if exit_next then Ok (Some (pre i))
            else token_prob_loop low cumulative S aligned current (Some (pre i)) exit_next ids'
        | CToken =>
            do x <- lookup (tokens S) (idx i);
            match fst x with
            | [] => token_prob_loop low cumulative S aligned current last_exit exit_next ids'
            | _ :: _ =>
                match assoc (pre i) aligned with
                | None => Err KeyError
                | Some p =>
                    let current' := if cumulative then (current + p)%Qc else p in
                    if low current' then
                      match last_exit with
                      | Some e => Ok (Some e)
                      | None => token_prob_loop low cumulative S aligned current' last_exit true ids'
                      end
                    else token_prob_loop low cumulative S aligned current' last_exit exit_next ids'
                end
            end
        | _ => token_prob_loop low cumulative S aligned current last_exit exit_next ids'
        end
    end.
  (** prefix_truncation_wrapper.py:282-312, [baseline_assignment_from_token_prob]. *)
  Definition baseline_from_token_prob (low : Qc -> bool) (cumulative : bool) (S : storage) (aligned : list (nat * Qc)) :=
    do e <- token_prob_loop low cumulative S aligned 0%Qc None false (preorder_traversal S);
    assignment_from_exit_point S e.

  (** prefix_truncation_wrapper.py:314-342, the loop of
      [baseline_assignment_from_max_average_log_prob]. *)
  Fixpoint max_average_loop (S : storage) (aligned : list (nat * Qc)) (current : Qc) (count : nat)
      (best : option Qc) (best_exit : option nat) (ids : list node_id) : result (option nat) :=
    match ids with
    | [] => Ok best_exit
    | i :: ids' =>
        match cat i with
        | CExit =>
            let average := (current / of_nat count)%Qc in
            if (0 <? count) && above best average
            then max_average_loop S aligned current count (Some average) (Some (pre i)) ids'
            else max_average_loop S aligned current count best best_exit ids'
        | CToken =>
            do x <- lookup (tokens S) (idx i);
            match fst x with
            | [] => max_average_loop S aligned current count best best_exit ids'
            | _ :: _ =>
                match assoc (pre i) aligned with
                | None => Err KeyError
                | Some p => max_average_loop S aligned (current + p)%Qc (count + 1) best best_exit ids'
                end
            end
        | _ => max_average_loop S aligned current count best best_exit ids'
        end
    end.
  Definition baseline_from_max_average_log_prob (S : storage) (aligned : list (nat * Qc)) :=
    do e <- max_average_loop S aligned 0%Qc 0 None None (preorder_traversal S);
    assignment_from_exit_point S e.

  (** prefix_truncation_wrapper.py:378-397, the loop of
      [baseline_assignment_from_intellicode_compose].  [low n x] is
      [math.exp(x) < alpha / (1 + math.exp(-n / kappa))]. *)
  Fixpoint intellicode_loop (low : nat -> Qc -> bool) (S : storage) (aligned : list (nat * Qc))
      (seen : nat) (last_exit : option nat) (exit_next : bool) (ids : list node_id) : result (option nat) :=
    match ids with
    | [] => Ok None
    | i :: ids' =>
        match cat i with
        | CExit =>
            if exit_next then Ok (Some (pre i))
            else intellicode_loop low S aligned seen (Some (pre i)) exit_next ids'
        | CToken =>
            do x <- lookup (tokens S) (idx i);
            match fst x with
            | [] => intellicode_loop low S aligned seen last_exit exit_next ids'
            | _ :: _ =>
                match assoc (pre i) aligned with
                | None => Err KeyError
                | Some p =>
                    if low seen p then
                      match last_exit with
                      | Some e => Ok (Some e)
                      | None => intellicode_loop low S aligned (seen + 1) last_exit true ids'
                      end
                    else intellicode_loop low S aligned (seen + 1) last_exit exit_next ids'
                end
            end
        | _ => intellicode_loop low S aligned seen last_exit exit_next ids'
        end
    end.
  Definition baseline_from_intellicode (low : nat -> Qc -> bool) (S : storage) (aligned : list (nat * Qc)) :=
    do e <- intellicode_loop low S aligned 0 None false (preorder_traversal S);
    assignment_from_exit_point S e.

  (** prefix_truncation_wrapper.py:402-420, [baseline_assignment_from_characters]. *)
  Fixpoint characters_loop (most : nat) (S : storage) (so_far : nat) (exit_next : bool) (ids : list node_id) : result (option nat) :=
    match ids with
    | [] => Ok None
    | i :: ids' =>
        match cat i with
        | CExit => if exit_next then Ok (Some (pre i)) else characters_loop most S so_far exit_next ids'
        | CToken =>
            do x <- lookup (tokens S) (idx i);
            let so_far' := so_far + length (fst x) in
            characters_loop most S so_far' (if most <=? so_far' then true else exit_next) ids'
        | _ => characters_loop most S so_far exit_next ids'
        end
    end.
  Definition baseline_from_characters (most : nat) (S : storage) :=
    do e <- characters_loop most S 0 false (preorder_traversal S);
    assignment_from_exit_point S e.

  (** prefix_truncation_wrapper.py:422-445, [baseline_assignment_from_lines]. *)
  Fixpoint lines_loop (most : nat) (S : storage) (so_far : nat) (exit_next : bool) (ids : list node_id) : result (option nat) :=
    match ids with
    | [] => Ok None
    | i :: ids' =>
        match cat i with
        | CExit => if exit_next then Ok (Some (pre i)) else lines_loop most S so_far exit_next ids'
        | CDeco =>
            do t <- lookup (decos S) (idx i);
            if mem newline t
            then lines_loop most S (so_far + 1) (if most <=? so_far + 1 then true else exit_next) ids'
            else lines_loop most S so_far exit_next ids'
        | _ => lines_loop most S so_far exit_next ids'
        end
    end.
  Definition baseline_from_lines (most : nat) (S : storage) :=
    do e <- lines_loop most S 0 false (preorder_traversal S);
    assignment_from_exit_point S e.

  (** ** Specification: the rules, over the nodes of the prototype in preorder.
      A node's place is its preorder index. *)
  Section Rules.
    Context (all : list L).
    Definition exit_at (k : nat) : Prop := exists i, In (LExit i) all /\ pre i = k.
    (** The nodes up to a place, and before it. *)
    Definition through (k : nat) : list L := filter (fun x => number x <=? k) all.
    Definition before (k : nat) : list L := filter (fun x => number x <? k) all.
    (** The non-empty token at a place. *)
    Definition token_at (k : nat) : Prop := exists i t m, In (LToken i t m) all /\ pre i = k /\ t <> [].
    (** The log probabilities of the non-empty tokens of a list of nodes. *)
    Definition log_probs (aligned : list (nat * Qc)) (l : list L) : list Qc :=
      flat_map (fun x => match x with
                         | LToken i (_ :: _) _ => match assoc (pre i) aligned with Some p => [p] | None => [] end
                         | _ => []
                         end) l.
    Definition total_characters (l : list L) : nat :=
      list_sum (map (fun x => match x with LToken _ t _ => length t | _ => 0 end) l).
    Definition breaks_line (x : L) : bool := match x with LDeco _ t => mem newline t | _ => false end.

    (** The place where a limit is reached. *)
    Definition low_token (aligned : list (nat * Qc)) (low : Qc -> bool) (k : nat) : Prop :=
      token_at k /\ exists p, assoc k aligned = Some p /\ low p = true.
    Definition low_prefix (aligned : list (nat * Qc)) (low : Qc -> bool) (k : nat) : Prop :=
      token_at k /\ low (qsum (log_probs aligned (through k))) = true.
    Definition low_for_position (aligned : list (nat * Qc)) (low : nat -> Qc -> bool) (k : nat) : Prop :=
      token_at k /\ exists p, assoc k aligned = Some p /\ low (length (log_probs aligned (before k))) p = true.
    Definition characters_reached (most k : nat) : Prop :=
      (exists i t m, In (LToken i t m) all /\ pre i = k) /\ most <= total_characters (through k).
    Definition lines_reached (most k : nat) : Prop :=
      (exists x, In x all /\ number x = k /\ breaks_line x = true) /\ most <= length (filter breaks_line (through k)).

    Definition first (P : nat -> Prop) (k : nat) : Prop := P k /\ forall j, P j -> k <= j.
    (** Stop at the last exit before the first place [P]; if there is none, at
        the first exit after it. *)
    Definition stops_before (P : nat -> Prop) (o : option nat) : Prop :=
      match o with
      | Some e => exit_at e /\ exists k, first P k /\
          ((e < k /\ forall e', exit_at e' -> e' < k -> e' <= e) \/ (k < e /\ forall e', exit_at e' -> e <= e'))
      | None => (forall k, ~ P k) \/ (forall e, ~ exit_at e)
      end.
    (** Stop at the first exit after the first place [P]. *)
    Definition stops_after (P : nat -> Prop) (o : option nat) : Prop :=
      match o with
      | Some e => exit_at e /\ exists k, first P k /\ k < e /\ forall e', exit_at e' -> k < e' -> e <= e'
      | None => forall k e, P k -> exit_at e -> e < k
      end.
    (** Stop at the first of the exits with the best average log probability of
        the tokens before them. *)
    Definition average_before (aligned : list (nat * Qc)) (e : nat) (a : Qc) : Prop :=
      let ps := log_probs aligned (before e) in ps <> [] /\ a = (qsum ps / of_nat (length ps))%Qc.
    Definition stops_at_best (aligned : list (nat * Qc)) (o : option nat) : Prop :=
      match o with
      | Some e => exit_at e /\ exists a, average_before aligned e a /\
          forall e' a', exit_at e' -> average_before aligned e' a' -> (a' <= a)%Qc /\ (e' < e -> (a' < a)%Qc)
      | None => forall e a, exit_at e -> ~ average_before aligned e a
      end.

    (** The constraints for stopping at an exit: it is taken, the earlier ones
        are not, the later ones do not apply; no region starts; nothing else is
        said. *)
    Definition exit_value (o : option nat) (k : nat) : dvalue :=
      match o with
      | None => DFalse
      | Some e => if k <? e then DFalse else if k =? e then DTrue else DNA
      end.
    Definition marks (o : option nat) (c : assignments) : Prop :=
      NoDup (map fst c) /\
      forall key v, In (key, v) c <->
        (exists i, In (LExit i) all /\ key = (pre i, ShouldEarlyExit) /\ v = exit_value o (pre i)) \/
        (exists i, In (LStart i) all /\ key = (pre i, RegionShouldStart) /\ v = DFalse).
  End Rules.
End Baselines.
