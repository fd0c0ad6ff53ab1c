(** Model of the baselines of r_u_sure/wrappers/uncertainty_regions_wrapper.py:327-517
    ([UncertaintyRegionsBaselineBuilder]), with the rules they follow stated over the
    nodes of the prototype.

    Simplifications.  Probabilities enter through [low x], which stands for
    [math.exp(x) < probability_threshold].  The copy of the baseline system is the
    value itself.  [clock] stands for the wall clock compared with the soft timeout
    and [fuel] bounds the rounds of the solver; running out of it is [None]. *)

From Coq Require Import List Bool Arith Lia ZArith QArith Qcanon Sorting.Sorted.
From Verif Require Import Base SeqNodes PackedSeq PackedSeqProofs Numbered Decisions TokenProb RegionDecisions PrefixBaselines
  Graph GatedDag PackedDag Convert EditDag ConstraintDag SystemSpec BuildSystem DualSolver Combine.
Import ListNotations.
Close Scope Qc_scope. Close Scope Q_scope. Close Scope Z_scope. Open Scope nat_scope.

(** Line 388, the penalty [1e6]. *)
Definition baseline_penalty : Qc := Q2Qc 1000000.

Section Model.
  Context {M : Type}.
  Notation storage := (storage M).

  (** Lines 374-381: the constraints, a Python dict. *)
  Definition region_constraints (places : list nat) : assignments :=
    fold_left (fun d k => put (k, NodeInRegion) DTrue d) places [].
  Section Solve.
    Context {St In : Type}.
    (** Lines 360-401, [_assignment_from_low_confidence_nodes]; the results of the solver,
        which Python drops, and the greedy cost are kept beside the assignment. *)
    Definition solve_baseline (fuel : nat) (clock : nat -> bool) (baseline_system : @system St dkey dvalue In) (places : list nat)
      : option (result (sweep_results * assignments * cost)) :=
      match constrain_system baseline_system (region_constraints places) (Fin baseline_penalty) with
      | Err e => Some (Err e)
      | Ok copy =>
          match solve_system_with_sweeps fuel clock default_tolerance (data copy) with
          | None => None
          | Some (Err e) => Some (Err e)
          | Some (Ok (res, s')) => Some (
              do g <- greedy_extract s' FORWARD;
              do asg <- assignments_from_assignment_vector copy (map (vector_index (length (sys_values copy))) (fst g));
              Ok (res, asg, snd g))
          end
      end.
    Definition assignment_from_low_confidence_nodes fuel clock baseline_system places : option (result assignments) :=
      option_map (fun r => do x <- r; Ok (snd (fst x))) (solve_baseline fuel clock baseline_system places).
  End Solve.

  (** Lines 409-427, the loop of [baseline_assignment_from_token_probabilities]. *)
  Fixpoint low_probability (low : Qc -> bool) (only_nonempty cumulative : bool) (S : storage) (current : Qc) (aligned : list (nat * Qc))
    : result (list nat) :=
    match aligned with
    | [] => Ok []
    | (k, p) :: rest =>
        let current' := if cumulative then (current + p)%Qc else p in
        do here <- (if low current' then
                      if only_nonempty then
                        do i <- or_err IndexError (nth_error (preorder_traversal S) k);
                        match cat i with
                        | CToken => do x <- lookup (tokens S) (idx i); Ok (match fst x with [] => [] | _ :: _ => [k] end)
                        | _ => Err AssertionError
                        end
                      else Ok [k]
                    else Ok []);
        do l <- low_probability low only_nonempty cumulative S current' rest;
        Ok (here ++ l)
    end.
  (** Lines 434-449, the loop of [baseline_assignment_from_character_offset]. *)
  Fixpoint past_offset (offset : Qc) (S : storage) (seen : nat) (ids : list node_id) : result (list nat) :=
    match ids with
    | [] => Ok []
    | i :: ids' =>
        match cat i with
        | CToken =>
            do x <- lookup (tokens S) (idx i);
            let seen' := seen + length (fst x) in
            do l <- past_offset offset S seen' ids';
            Ok (match fst x with
                | _ :: _ => if qc_ltb offset (of_nat seen') then pre i :: l else l
                | [] => l
                end)
        | CDeco => do t <- lookup (decos S) (idx i); past_offset offset S (seen + length t) ids'
        | _ => past_offset offset S seen ids'
        end
    end.
  (** Lines 456-467, the size of the suggestion. *)
  Fixpoint total_size (S : storage) (ids : list node_id) : result nat :=
    match ids with
    | [] => Ok 0
    | i :: ids' =>
        match cat i with
        | CToken => do x <- lookup (tokens S) (idx i); do n <- total_size S ids'; Ok (length (fst x) + n)
        | CDeco => do t <- lookup (decos S) (idx i); do n <- total_size S ids'; Ok (length t + n)
        | _ => total_size S ids'
        end
    end.
  (** Lines 497-515, the loop of [baseline_assignment_from_depth_cutoff]. *)
  Fixpoint depth_loop (ancestor child depth : Z) (first : option Z) (items : list (visit * node_id)) : list nat :=
    match items with
    | [] => []
    | (VBefore, _) :: items' => depth_loop ancestor child (depth + 1) first items'
    | (VAfter, _) :: items' => depth_loop ancestor child (depth - 1) first items'
    | (VLeaf, i) :: items' =>
        match cat i, first with
        | CToken, None => depth_loop ancestor child depth (Some depth) items'
        | CToken, Some d =>
            if (depth <=? d - ancestor)%Z || (d + child <=? depth)%Z
            then pre i :: depth_loop ancestor child depth first items'
            else depth_loop ancestor child depth first items'
        | _, _ => depth_loop ancestor child depth first items'
        end
    end.

  (** The low-confidence nodes of the four baselines. *)
  Definition places_from_token_probabilities (low : Qc -> bool) (only_nonempty cumulative : bool) (S : storage) (aligned : list (nat * Qc)) :=
    low_probability low only_nonempty cumulative S 0%Qc aligned.
  Definition places_from_character_offset (offset : Qc) (S : storage) := past_offset offset S 0 (preorder_traversal S).
  (** Lines 452-469; the offset is [fraction * total_size]. *)
  Definition places_from_example_fraction (fraction : Qc) (S : storage) : result (list nat) :=
    do n <- total_size S (preorder_traversal S);
    places_from_character_offset (fraction * of_nat n)%Qc S.
  (** Lines 491-515. *)
  Definition places_from_depth_cutoff (ancestor child : Z) (S : storage) : result (list nat) :=
    if (child <? 1)%Z then Err ValueError else
    if (ancestor <? 1)%Z then Err ValueError else
    do items <- in_order_traversal S true;
    Ok (depth_loop ancestor child 0 None items).

  (** Lines 349-358: the system with just the prototype, for [edit_wrapper]. *)
  Definition baseline_system {md : EqDec M} (P : parameters) (prototype suggestion : storage) :=
    build_system (construct_edit_dag P prototype) (construct_constraint_dag prototype) [suggestion] None.

  (** Lines 284-324, [build_baseline_assignments].  The keys of the dict are formatted
      strings, here [baseline]; [low x t] is [math.exp(x) < t].  Each baseline is
      solved under a clock of its own. *)
  Inductive baseline := Nonempty (threshold : Qc) | Cumulative (threshold : Qc) | ExampleFraction (fraction : Qc) | Cutoff (ancestor child : Z).
  #[export] Instance EqDec_baseline : EqDec baseline.
  Proof. intros x y. decide equality; apply eq_dec. Defined.
  Fixpoint put_result (k : baseline) (v : assignments) (d : list (baseline * assignments)) : list (baseline * assignments) :=
    match d with
    | [] => [(k, v)]
    | (k', v') :: d' => if eqb k k' then (k', v) :: d' else (k', v') :: put_result k v d'
    end.
  Definition baselines (thresholds fractions : list Qc) (cutoffs : list (Z * Z)) : list baseline :=
    flat_map (fun t => [Nonempty t; Cumulative t]) thresholds ++ map ExampleFraction fractions ++
    map (fun c : Z * Z => Cutoff (fst c) (snd c)) cutoffs.
  Definition baseline_places (low : Qc -> Qc -> bool) (S : storage) (aligned : list (nat * Qc)) (b : baseline) : result (list nat) :=
    match b with
    | Nonempty t => places_from_token_probabilities (fun x => low x t) true false S aligned
    | Cumulative t => places_from_token_probabilities (fun x => low x t) true true S aligned
    | ExampleFraction f => places_from_example_fraction f S
    | Cutoff ancestor child => places_from_depth_cutoff ancestor child S
    end.
  Section Build.
    Context {St In : Type} (fuel : nat) (clocks : nat -> nat -> bool) (low : Qc -> Qc -> bool) (S : storage) (aligned : list (nat * Qc)).
    Context (sy : @system St dkey dvalue In).
    Fixpoint run_baselines (n : nat) (todo : list baseline) (results : list (baseline * assignments)) : option (result (list (baseline * assignments))) :=
      match todo with
      | [] => Some (Ok results)
      | b :: todo' =>
          match baseline_places low S aligned b with
          | Err e => Some (Err e)
          | Ok places =>
              match assignment_from_low_confidence_nodes fuel (clocks n) sy places with
              | None => None
              | Some (Err e) => Some (Err e)
              | Some (Ok asg) => run_baselines (n + 1) todo' (put_result b asg results)
              end
          end
      end.
  End Build.
  Definition build_baseline_assignments {md : EqDec M} (P : parameters) (fuel : nat) (clocks : nat -> nat -> bool) (low : Qc -> Qc -> bool)
      (thresholds fractions : list Qc) (cutoffs : list (Z * Z)) (prototype suggestion : storage) (model_tokens : list (text * Qc))
    : option (result (list (baseline * assignments))) :=
    match align_token_log_probs model_tokens prototype false with
    | Err e => Some (Err e)
    | Ok aligned =>
        match baseline_system P prototype suggestion with
        | Err e => Some (Err e)
        | Ok sy => run_baselines fuel clocks low prototype aligned sy 0 (baselines thresholds fractions cutoffs) []
        end
    end.
End Model.

(** ** Specification: which nodes a rule singles out. *)
Section Rules.
  Context {M : Type}.
  Notation L := (lnode M).
  (** [l] lists the places satisfying [P], in order. *)
  Definition lists_places (P : nat -> Prop) (l : list nat) : Prop := StronglySorted lt l /\ forall k, In k l <-> P k.

  Section Nodes.
    Context (all : list L).
    (** The token at a place, possibly an empty one. *)
    Definition a_token_at (k : nat) : Prop := exists i t m, In (LToken i t m) all /\ pre i = k.
    (** The log probability of a token, or of all tokens up to it. *)
    Definition own_log_prob (aligned : list (nat * Qc)) (k : nat) (p : Qc) : Prop := assoc k aligned = Some p.
    Definition log_prob_through (aligned : list (nat * Qc)) (k : nat) (p : Qc) : Prop :=
      p = qsum (flat_map (fun x => match x with
                                   | LToken i _ _ => match assoc (pre i) aligned with Some p => [p] | None => [] end
                                   | _ => []
                                   end) (through all k)).
    Definition improbable (aligned : list (nat * Qc)) (low : Qc -> bool) (only_nonempty cumulative : bool) (k : nat) : Prop :=
      (if only_nonempty then token_at all k else a_token_at k) /\
      exists p, (if cumulative then log_prob_through aligned k p else own_log_prob aligned k p) /\ low p = true.
    (** The characters written by nodes. *)
    Definition written (l : list L) : nat :=
      list_sum (map (fun x => match x with LToken _ t _ => length t | LDeco _ t => length t | _ => 0 end) l).
    Definition ends_after (offset : Qc) (k : nat) : Prop := token_at all k /\ (offset < of_nat (written (through all k)))%Qc.
  End Nodes.
  (** [x] is in [tree], inside [d] nested groups. *)
  Inductive at_depth : list L -> L -> nat -> Prop :=
  | ad_here l x : In x l -> at_depth l x 0
  | ad_inside l i cs m x d : In (LGroup i cs m) l -> at_depth cs x d -> at_depth l x (S d).
  (** A token that is [ancestor] levels shallower or [child] levels deeper than the
      first token. *)
  Definition far_from_first (tree : list L) (ancestor child : Z) (k : nat) : Prop :=
    exists i0 t0 m0 d0 i t m d,
      at_depth tree (LToken i0 t0 m0) d0 /\ (forall j, a_token_at (flat_map nodes tree) j -> pre i0 <= j) /\
      at_depth tree (LToken i t m) d /\ pre i = k /\
      (Z.of_nat d <= Z.of_nat d0 - ancestor \/ Z.of_nat d0 + child <= Z.of_nat d)%Z.
  (** How many of the places are not put in regions. *)
  Definition left_out (ds : list decision) (places : list nat) : nat :=
    length (filter (fun k => negb (eqb (decided ds (k, NodeInRegion)) DTrue)) places).
  (** The rule of a baseline. *)
  Definition singled_out (low : Qc -> Qc -> bool) (tree : list L) (aligned : list (nat * Qc)) (b : baseline) : nat -> Prop :=
    let all := flat_map nodes tree in
    match b with
    | Nonempty t => improbable all aligned (fun x => low x t) true false
    | Cumulative t => improbable all aligned (fun x => low x t) true true
    | ExampleFraction f => ends_after all (f * of_nat (written all))%Qc
    | Cutoff ancestor child => far_from_first tree ancestor child
    end.
End Rules.
