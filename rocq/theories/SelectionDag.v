(** Model of r_u_sure/edit_distance_utility/part_selection_dags.py. *)

From Coq Require Import List Bool Arith ZArith Lia QArith Qcanon.
From Verif Require Import Base Graph GatedDag SeqNodes PackedSeq Numbered Decisions Convert.
Import ListNotations.
Close Scope Qc_scope. Close Scope Q_scope. Close Scope Z_scope. Open Scope nat_scope.

(** part_selection_dags.py:128-152, [DagStateCategory] (all but the final state's). *)
Inductive scategory := SkipUnselected | SkipInTarget | SelectMatched | SelectUnmatched.
(** part_selection_dags.py:171-196, [PartSelectionDagState], [FINAL_STATE]. *)
Inductive sstate := SAt (c : scategory) (proto target : nat) | SFinal.
#[export] Instance scategory_eqdec : EqDec scategory.
Proof. intros x y. decide equality. Defined.
#[export] Instance sstate_eqdec : EqDec sstate.
Proof. intros x y. decide equality; auto using Nat.eq_dec, scategory_eqdec. Defined.
(** part_selection_dags.py:203-220, [PartSelectionDagEdgeInfo]; -1 is [None].
    The information of an edge may be Python's None. *)
Record sinfo := mkSInfo { s_category : scategory; s_proto : option nat; s_target : option nat }.
Definition sedge : Type := edge sstate decision (option sinfo).

(** part_selection_dags.py:98-120: the match utility and the delete cost of a
    token, by its text and match type.  Simplification: finite numbers. *)
Record utilities := mkUtilities { match_utility : Qc; delete_cost : Qc }.

Section Builder.
  Context {M : Type} {md : EqDec M} (U : text -> M -> utilities).
  (** An [InOrderTraversalItem]; the target's are followed by one whose id is
      invalid ([None]), part_selection_dags.py:318-328. *)
  Definition item : Type := visit * node_id.

  (** The [assert]s that the visit of a node that is no group is a leaf visit. *)
  Definition assert_leaf (v : visit) : result unit := match v with VLeaf => Ok tt | _ => Err AssertionError end.
  (** The assignment that goes with a visit of a group
      (part_selection_dags.py:367-388, 751-771). *)
  Definition group_assignment (v : visit) (k : nat) (d : dvalue) : result (option decision) :=
    match v with
    | VBefore => Ok (Some ((k, NodeInRegion), d))
    | VAfter => Ok None
    | VLeaf => Err ValueError
    end.
  Definition is_text_or_group (t : option item) : option node_id :=
    match t with
    | Some (_, y) => match cat y with CToken | CGroup => Some y | _ => None end
    | None => None
    end.

  Section Round.
    Context (prototype target : storage M) (flag : option bool) (i j : nat) (p : item) (t : option item).
    Let v := fst p.
    Let x := snd p.
    Let k := pre x.

    (** part_selection_dags.py:352-433, skipping in SKIP_UNSELECTED_IN_PROTOTYPE. *)
    Definition skipping : result (list sedge) :=
      let edge a := mkEdge (SAt SkipUnselected i j) (SAt SkipUnselected (S i) j) (Fin 0) a
                      (Some (mkSInfo SkipUnselected (Some k) None)) in
      match cat x with
      | CToken => do _ <- assert_leaf v; Ok [edge (Some ((k, NodeInRegion), DFalse))]
      | CGroup => do a <- group_assignment v k DFalse; Ok [edge a]
      | CEnd => do _ <- assert_leaf v; Ok [edge (Some ((k, RegionShouldEnd), DNA))]
      | CStart => do _ <- assert_leaf v; Ok [edge (Some ((k, RegionShouldStart), DFalse))]
      | _ => Ok []
      end.
    (** part_selection_dags.py:435-487, region start. *)
    Definition starting : result (list sedge) :=
      match cat x with
      | CStart =>
          do _ <- assert_leaf v;
          Ok [mkEdge (SAt SkipUnselected i j) (SAt SkipInTarget (S i) j) (Fin 0) (Some ((k, RegionShouldStart), DTrue)) None;
              mkEdge (SAt SkipUnselected i j) (SAt SelectUnmatched (S i) j) (Fin 0) (Some ((k, RegionShouldStart), DTrue)) None]
      | _ => Ok []
      end.
    (** part_selection_dags.py:489-538, skipping in the target and starting to
        match. *)
    Definition skipping_target : list sedge :=
      match is_text_or_group t with
      | Some y => [mkEdge (SAt SkipInTarget i j) (SAt SkipInTarget i (S j)) (Fin 0) None (Some (mkSInfo SkipInTarget None (Some (pre y))))]
      | None => []
      end.
    Definition starting_to_match : list sedge :=
      match is_text_or_group t with
      | Some _ => [mkEdge (SAt SkipInTarget i j) (SAt SelectMatched i j) (Fin 0) None None]
      | None => []
      end.
    Definition matching_edge (c : Qc) (a : option decision) (y : node_id) : sedge :=
      mkEdge (SAt SelectMatched i j) (SAt SelectMatched (S i) (S j)) (Fin c) a
        (Some (mkSInfo SelectMatched (Some k) (Some (pre y)))).
    (** part_selection_dags.py:544-594, matching tokens. *)
    Definition matching_tokens : result (list sedge) :=
      match t with
      | Some (w, y) =>
          match cat x, cat y with
          | CToken, CToken =>
              do _ <- assert_leaf v; do _ <- assert_leaf w;
              do a <- lookup (tokens prototype) (idx x);
              do b <- lookup (tokens target) (idx y);
              Ok (if eqb (fst a) (fst b) && eqb (snd a) (snd b)
                  then [matching_edge (- match_utility (U (fst a) (snd a)))%Qc (Some ((k, NodeInRegion), DTrue)) y] else [])
          | _, _ => Ok []
          end
      | None => Ok []
      end.
    (** part_selection_dags.py:596-645, matching group markers. *)
    Definition matching_groups : result (list sedge) :=
      match t with
      | Some (w, y) =>
          match cat x, cat y with
          | CGroup, CGroup =>
              if match v, w with VLeaf, VLeaf | VBefore, VBefore | VAfter, VAfter => true | _, _ => false end then
                do a <- lookup (groups prototype) (idx x);
                do b <- lookup (groups target) (idx y);
                Ok (if eqb (snd a) (snd b)
                    then [matching_edge 0%Qc (match v with VBefore => Some ((k, NodeInRegion), DTrue) | _ => None end) y] else [])
              else Ok []
          | _, _ => Ok []
          end
      | None => Ok []
      end.
    Definition staying_matched (a : decision) : sedge :=
      mkEdge (SAt SelectMatched i j) (SAt SelectMatched (S i) j) (Fin 0) (Some a) (Some (mkSInfo SelectMatched (Some k) None)).
    (** part_selection_dags.py:647-677, region starts met while matching. *)
    Definition matched_start : result (list sedge) :=
      match cat x with
      | CStart => do _ <- assert_leaf v; Ok [staying_matched ((k, RegionShouldStart), DNA)]
      | _ => Ok []
      end.
    (** part_selection_dags.py:679-729, region ends met while matching. *)
    Definition matched_end : result (list sedge) :=
      match cat x with
      | CEnd =>
          do _ <- assert_leaf v;
          Ok [mkEdge (SAt SelectMatched i j) (SAt SkipUnselected (S i) j) (Fin 0) (Some ((k, RegionShouldEnd), DTrue)) None;
              staying_matched ((k, RegionShouldEnd), DFalse)]
      | _ => Ok []
      end.
    (** part_selection_dags.py:731-818, selected but unmatched nodes.  [flag] is
        the variable [can_advance_unmatched], whose value survives from the
        previous round of the loops and which the branch for region ends does
        not set; [None] when it has not been set yet. *)
    Definition unmatched : result (list sedge * option bool) :=
      let edge c a := mkEdge (SAt SelectUnmatched i j) (SAt SelectUnmatched (S i) j) (Fin c) a
                        (Some (mkSInfo SelectUnmatched (Some k) None)) in
      match cat x with
      | CToken =>
          do _ <- assert_leaf v; do a <- lookup (tokens prototype) (idx x);
          Ok ([edge (delete_cost (U (fst a) (snd a))) (Some ((k, NodeInRegion), DTrue))], Some true)
      | CGroup => do a <- group_assignment v k DTrue; Ok ([edge 0%Qc a], Some true)
      | CStart => do _ <- assert_leaf v; Ok ([edge 0%Qc (Some ((k, RegionShouldStart), DNA))], Some true)
      | CEnd =>
          do _ <- assert_leaf v;
          match flag with
          | None => Err UnboundLocalError
          | Some b => Ok (if b then [edge 0%Qc (Some ((k, RegionShouldEnd), DFalse))] else [], flag)
          end
      | _ => Ok ([], Some false)
      end.
    (** part_selection_dags.py:820-850, ending an unmatched selection. *)
    Definition unmatched_end : result (list sedge) :=
      match cat x with
      | CEnd =>
          do _ <- assert_leaf v;
          Ok [mkEdge (SAt SelectUnmatched i j) (SAt SkipUnselected (S i) j) (Fin 0) (Some ((k, RegionShouldEnd), DTrue)) None]
      | _ => Ok []
      end.
    (** part_selection_dags.py:331-850, one round of the two loops. *)
    Definition round : result (list sedge * option bool) :=
      do e1 <- skipping; do e2 <- starting; do e3 <- matching_tokens; do e4 <- matching_groups;
      do e5 <- matched_start; do e6 <- matched_end; do e7 <- unmatched; do e8 <- unmatched_end;
      Ok (e1 ++ e2 ++ skipping_target ++ starting_to_match ++ e3 ++ e4 ++ e5 ++ e6 ++ fst e7 ++ e8, snd e7).
  End Round.

  (** part_selection_dags.py:330-850, the loops. *)
  Fixpoint targets_loop (prototype target : storage M) (flag : option bool) (i j : nat) (p : item) (ts : list (option item))
    : result (list sedge * option bool) :=
    match ts with
    | [] => Ok ([], flag)
    | t :: ts' =>
        do a <- round prototype target flag i j p t;
        do b <- targets_loop prototype target (snd a) i (S j) p ts';
        Ok (fst a ++ fst b, snd b)
    end.
  Fixpoint prototypes_loop (prototype target : storage M) (flag : option bool) (i : nat) (ps : list item) (ts : list (option item))
    : result (list sedge) :=
    match ps with
    | [] => Ok []
    | p :: ps' =>
        do a <- targets_loop prototype target flag i 0 p ts;
        do b <- prototypes_loop prototype target (snd a) (S i) ps' ts;
        Ok (fst a ++ b)
    end.
  (** part_selection_dags.py:852-870, the transitions to the final state. *)
  Definition finishing (n m : nat) : list sedge :=
    map (fun j => mkEdge (SAt SkipUnselected n j) SFinal (Fin 0) None None) (seq 0 m).
  (** part_selection_dags.py:260-873, [make_selection_dag_builder] without
      Numba.  Simplification: the edges are added to the graph after all of them
      have been made. *)
  Definition construct_selection_dag (prototype target : storage M) : result (dag sstate decision (option sinfo)) :=
    do ps <- in_order_traversal prototype true;
    do ts <- in_order_traversal target true;
    let ts := map Some ts ++ [None] in
    do es <- prototypes_loop prototype target None 0 ps ts;
    do partial <- add_edges (partial_starting_from (SAt SkipUnselected 0 0)) (es ++ finishing (length ps) (length ts));
    Ok (partial_finish partial SFinal).
  (** part_selection_dags.py:881-891, [pack_dag]. *)
  Definition pack_selection_dag (d : dag sstate decision (option sinfo)) :=
    convert_dag_to_packed dkey_leb dvalue_leb d DNA (Some all_values).
End Builder.
