(** The three annotators that place the states of the builders' DAGs:
    r_u_sure/edit_distance_utility/constraint_dags.py:873-1201, edit_dags.py:2019-2595 and
    part_selection_dags.py:1004-1432; and the render data of edit_dags.py.

    Simplifications: coordinates are exact rationals; [repr] and the formatting of costs are
    parameters; the dictionary [layout_positions] is split by the strings in its keys; [start_x], which is
    never read, is left out, and so is [original_info] (edit_dags.py:2404-2407), which
    only DAGs with tracebacks have. *)

From Coq Require Import String.
From Coq Require Import List Bool Arith ZArith Lia QArith Qcanon.
From Verif Require Import Base SeqNodes Graph GatedDag PackedSeq PackedSeqProofs Numbered Decisions Html
  ConstraintDag EditDag SelectionDag Drawing.
Import ListNotations.
Close Scope string_scope. Close Scope Qc_scope. Close Scope Q_scope. Close Scope Z_scope. Open Scope nat_scope. Open Scope list_scope.

#[export] Instance EqDec_Z : EqDec Z := Z.eq_dec.

(** constraint_dags.py:63-72, edit_dags.py:111-120, part_selection_dags.py:84-92: the render
    configurations (without [edge_gap_horizontal], which is never read). *)
Record sizes := mkSizes {
  font : Qc; state_width : Qc; state_height : Qc; gap_horizontal : Qc; gap_vertical : Qc; state_separation : Qc }.
Definition default_sizes : sizes := mkSizes (of_nat 12) (of_nat 170) (of_nat 20) (of_nat 130) (of_nat 60) (of_nat 36).

(** Python's [d[k]] *)
Definition at_key {K V} `{EqDec K} (k : K) (d : list (K * V)) : result V :=
  match assoc k d with Some v => Ok v | None => Err KeyError end.

(** ** Laying a tree out along one axis *)
Section Axis.
  Context {M : Type}.
  Notation L := (lnode M).
  (** The number of rows at every position ([NUM_STATE_OFFSETS] for targets, 1 for prototypes), the extent
      of a row, the distance of two rows at a position and the gap between positions. *)
  Variable rows : nat.
  Variable size sep gap : Qc.
  (** The annotation of a leaf, by the node and the interval of its gap. *)
  Variable note : L -> Qc -> Qc -> extra_annotation.

  (** [current_x] or [current_y]; the entries ["prototype_state_x", q, i] (or ["target_state_y", q, i, row]),
      ["prototype_subproblem_left_x", q] (or ["target_subproblem_top_y", q]) and
      ["prototype_subproblem_right_x", q] (or ["target_subproblem_bottom_y", q]) and ["final_state_x"] (in
      constraint_dags.py) of [layout_positions]; [text_annotations]. *)
  Record axis := mkAxis {
    cursor : Qc;
    places : list ((Z * nat * nat) * (Qc * Qc));
    opened : list (Z * Qc);
    closed : list (Z * Qc);
    final : option (Qc * Qc);
    notes : list extra_annotation }.
  Definition move (d : Qc) (a : axis) : axis := mkAxis (cursor a + d)%Qc (places a) (opened a) (closed a) (final a) (notes a).

  (** edit_dags.py:2243-2253 (and 2317-2331): the rows at a position.  For prototypes (2142-2147,
      2206-2212; constraint_dags.py:935-939, 1024-1032) there is one row, and the separation is added and taken
      away again. *)
  Fixpoint put_rows (q : Z) (i row n : nat) (a : axis) : axis :=
    match n with
    | 0 => a
    | S n' =>
        put_rows q i (S row) n'
          (mkAxis (cursor a + size + sep)%Qc (((q, i, row), (cursor a, (cursor a + size)%Qc)) :: places a)
             (opened a) (closed a) (final a) (notes a))
    end.
  Definition position (q : Z) (i : nat) (a : axis) : axis := move (- sep)%Qc (put_rows q i 0 rows a).
  (** edit_dags.py:2160-2204, 2265-2315: the gap of a leaf *)
  Definition leaf_gap (x : L) (a : axis) : axis :=
    mkAxis (cursor a + gap)%Qc (places a) (opened a) (closed a) (final a) (notes a ++ [note x (cursor a) (cursor a + gap)%Qc]).
  (** edit_dags.py:2136-2139, 2240-2241 *)
  Definition enter (q : Z) (a : axis) : axis :=
    mkAxis (cursor a + gap)%Qc (places a) ((q, cursor a) :: opened a) (closed a) (final a) (notes a).
  (** edit_dags.py:2206-2217, 2317-2334.  In constraint_dags.py (1024-1043), where [with_final] is set, the right
      end is noted before the gap is added, and the final state is placed after the gap: after the root
      sequence, but also after every group, to be placed anew later. *)
  Variable with_final : bool.
  Definition leave (q : Z) (i : nat) (a : axis) : axis :=
    let a := position q i a in
    let b := move gap a in
    if with_final
    then mkAxis (cursor b + size)%Qc (places b) (opened b) ((q, cursor a) :: closed b)
           (Some (cursor b, (cursor b + size)%Qc)) (notes b)
    else mkAxis (cursor b) (places b) (opened b) ((q, cursor b) :: closed b) (final b) (notes b).

  (** edit_dags.py:2127-2217, [process_prototype], 2232-2334, [process_target], and
      constraint_dags.py:919-1043, [process_prototype]: one round of the loop over the nodes ... *)
  Fixpoint walk_node (q : Z) (i : nat) (x : L) (a : axis) {struct x} : axis :=
    let a := position q i a in
    match x with
    | LGroup p cs _ =>
        let g := Z.of_nat (pre p) in
        move gap
          (leave g (List.length cs)
             ((fix go (k : nat) (l : list L) (a : axis) : axis :=
                 match l with [] => a | c :: l' => go (S k) l' (walk_node g k c a) end) 0 cs (enter g (move gap a))))
    | _ => leaf_gap x a
    end.
  (** ... the loop, and the whole. *)
  Fixpoint walk_list (q : Z) (k : nat) (l : list L) (a : axis) : axis :=
    match l with [] => a | c :: l' => walk_list q (S k) l' (walk_node q k c a) end.
  Definition walk (q : Z) (l : list L) (a : axis) : axis := leave q (List.length l) (walk_list q 0 l (enter q a)).

  Lemma walk_group q i p (cs : list L) m a :
    walk_node q i (LGroup p cs m) a = move gap (walk (Z.of_nat (pre p)) cs (move gap (position q i a))).
  Proof.
    unfold walk. cbn [walk_node]. cbv zeta. f_equal. f_equal. generalize 0, (enter (Z.of_nat (pre p)) (move gap (position q i a))).
    induction cs as [|c l IH]; intros k b; auto. cbn [walk_list]. apply IH.
  Qed.
End Axis.

(** ** What texts are shown *)
Section Annotators.
  Context {M : Type} {md : EqDec M}.
  Notation L := (lnode M).
  Variable z : sizes.
  (** [repr(text)[1:-1]]; [repr] of an id, of an id with its node, of a visit, of a state, of an edge; the
      formatting of a cost *)
  Variable repr_text : text -> text.
  Variable repr_id : node_id -> text.
  Variable repr_node : L -> text.
  Variable str_cost : cost -> text.

  (** edit_dags.py:2170-2204, constraint_dags.py:965-1022: the texts for the leaves of the prototype, in a box with
      the given top and bottom (a decision node is drawn as a symbol). *)
  Definition prototype_note (top bottom : Qc) (x : L) (left right : Qc) : extra_annotation :=
    let b := from_boundary left top right bottom in
    match x with
    | LToken _ t _ => TextAnnotation b (repr_text t) (font z) (Some (repr_node x)) [chars "text_token"]
    | LDeco _ t => TextAnnotation b (repr_text t) (font z) (Some (repr_node x)) [chars "text_decoration"]
    | LStart i => TextAnnotation b [Z.to_nat 10218] (font z) (Some (repr_id i)) [chars "region_start"]
    | LEnd i => TextAnnotation b [Z.to_nat 10219] (font z) (Some (repr_id i)) [chars "region_end"]
    | LExit i => TextAnnotation b [Z.to_nat 10142; 124] (font z) (Some (repr_id i)) [chars "early_exit"]
    | LGroup i _ _ => TextAnnotation b (repr_id i) (font z) (Some (repr_id i)) [chars "unexpected_node"]
    end.
  (** edit_dags.py:2278-2315: the texts for the leaves of the target *)
  Definition target_note (x : L) (top bottom : Qc) : extra_annotation :=
    let b := from_boundary (- state_width z)%Qc top 0%Qc bottom in
    match x with
    | LToken _ t _ => TextAnnotation b (repr_text t) (font z) (Some (repr_node x)) [chars "text_token"]
    | LDeco _ t => TextAnnotation b (repr_text t) (font z) (Some (repr_node x)) [chars "text_decoration"]
    | _ => TextAnnotation b (repr_id (label x)) (font z) (Some (repr_id (label x))) [chars "unexpected_node"]
    end.

  (** region_decisions.py:65-75 and 103-111, [shortname]; the names of the members. *)
  Definition category_shortname (c : dcategory) : text :=
    match c with
    | RegionShouldStart => chars "start" | RegionShouldEnd => chars "end"
    | NodeInRegion => chars "in" | ShouldEarlyExit => chars "exit"
    end.
  Definition value_shortname (v : dvalue) : text :=
    match v with DTrue => chars "true" | DFalse => chars "false" | DNA => chars "N/A" end.
  Definition category_name (c : dcategory) : text :=
    match c with
    | RegionShouldStart => chars "REGION_SHOULD_START" | RegionShouldEnd => chars "REGION_SHOULD_END"
    | NodeInRegion => chars "NODE_IN_REGION" | ShouldEarlyExit => chars "SHOULD_EARLY_EXIT"
    end.
  Definition value_name (v : dvalue) : text :=
    match v with DTrue => chars "TRUE" | DFalse => chars "FALSE" | DNA => chars "NOT_APPLICABLE" end.
  (** edit_dags.py:2457-2468, constraint_dags.py:1109-1120, part_selection_dags.py:1353-1361 *)
  Definition assignment_summary (a : option decision) : text :=
    match a with
    | Some ((_, c), v) => newline ++ category_shortname c ++ chars ": " ++ value_shortname v
    | None => []
    end.
  Definition assignment_tags (a : option decision) : list text :=
    match a with Some ((_, c), v) => [category_name c; value_name v] | None => [] end.
  (** edit_dags.py:2417-2422 and the like: an alignment that depends on a row *)
  Definition row_alignment (row rows : nat) : Qc := (of_nat (row + 1) / of_nat (rows + 1))%Qc.
  Definition percent (n : Z) : Qc := Q2Qc (n # 100).

  Definition found (x : option (Qc * Qc)) : result (Qc * Qc) := match x with Some p => Ok p | None => Err KeyError end.

  (** ** constraint_dags.py *)
  Section Constraint.
    Variable repr_cstate : cstate -> text.
    Variable repr_cedge : cedge -> text.

    (** constraint_dags.py:878-884, [STATE_OFFSET_MAPPING]; [None] for the final state's category *)
    Definition c_row (s : cstate) : nat :=
      match s with CAt Temporary _ _ _ => 0 | CAt Forced _ _ _ => 0 | CAt Outside _ _ _ => 1 | CFinal => 0 end.
    Definition c_rows : nat := 2.
    (** constraint_dags.py:949-963: top and bottom of the texts *)
    Definition c_shift : Qc := (gap_vertical z + state_height z + state_separation z)%Qc.
    (** constraint_dags.py:907-1045, [precompute_layout] *)
    Definition constraint_layout (tree : list L) : axis :=
      walk 1 (state_width z) 0%Qc (gap_horizontal z)
        (prototype_note (- c_shift - state_height z)%Qc (- c_shift)%Qc) true ROOT tree
        (mkAxis (state_width z + gap_horizontal z)%Qc [] [] [] None []).
    (** constraint_dags.py:92-103, [shortname] *)
    Definition c_shortname (s : cstate) : text :=
      match s with
      | CAt Outside _ _ _ => chars "Outside" | CAt Temporary _ _ _ => chars "In region"
      | CAt Forced _ _ _ => chars "In region (forced)" | CFinal => chars "Final State"
      end.
    (** constraint_dags.py:1047-1095, [annotate_state] *)
    Definition c_annotate_state (a : axis) (s : cstate) : result state_annotation :=
      do b <- match s with
              | CFinal =>
                  do x <- found (final a);
                  let bottom := (- gap_vertical z)%Qc in
                  Ok (from_boundary (fst x) (bottom - state_height z)%Qc (snd x) bottom)
              | CAt _ q i level =>
                  do x <- at_key (q, i, 0) (places a);
                  let level_offset := ((of_nat 2 * state_height z + state_separation z + gap_vertical z) * of_nat level)%Qc in
                  let top := (level_offset + of_nat (c_row s) * (state_height z + state_separation z))%Qc in
                  Ok (from_boundary (fst x) top (snd x) (top + state_height z)%Qc)
              end;
      Ok (mkStateAnnotation b (c_shortname s) (font z) (Some (repr_cstate s)) []).
    (** constraint_dags.py:1097-1158, [annotate_edge] *)
    Definition c_annotate_edge (e : cedge) : edge_annotation :=
      let elbow := match assignment e with
                   | Some (_, v) => (of_nat (value_number v) / of_nat 4)%Qc
                   | None => half
                   end in
      let end_align := row_alignment (c_row (source e)) c_rows in
      let start_align := row_alignment (c_row (dest e)) c_rows in
      let '(elbow, elbow_adjust, text_align, text_adjust) :=
        match info e with
        | EarlyExitInfo => (0%Qc, (gap_horizontal z * percent 20)%Qc, 0%Qc, (percent (-90) * state_separation z)%Qc)
        | NoInfo => (elbow, 0%Qc, half, 0%Qc)
        end in
      mkEdgeAnnotation Horizontal elbow start_align text_align end_align
        (str_cost (ecost e) ++ assignment_summary (assignment e)) (font z) (Some (repr_cedge e))
        (assignment_tags (assignment e)) elbow_adjust text_adjust.
    (** constraint_dags.py:1164-1201, [renderer_specific_setup] *)
    Definition c_css : text := chars "rect.unexpected_node {
    fill: red;
}
rect.label_in_box.text_token {
    fill: #ddd;
}
rect.label_in_box.text_decoration {
    fill: #eee;
    stroke-dasharray: 5 5;
}
.edge-annotation {
  --edge-annotation-color: black;
}
.edge-annotation.REGION_SHOULD_START.TRUE,
.edge-annotation.REGION_SHOULD_END.TRUE {
  --edge-annotation-color: #966F33;
}
.edge-annotation.REGION_SHOULD_START.FALSE,
.edge-annotation.REGION_SHOULD_END.FALSE {
  --edge-annotation-color: #151B54;
}
.edge-annotation.REGION_SHOULD_START.NOT_APPLICABLE,
.edge-annotation.REGION_SHOULD_END.NOT_APPLICABLE {
  --edge-annotation-color: #616D7E;
}
.edge-annotation.SHOULD_EARLY_EXIT.TRUE {
  --edge-annotation-color: lightblue;
}
.edge-annotation path {
  stroke: var(--edge-annotation-color);
}
.edge-annotation text {
  fill: var(--edge-annotation-color);
}
".
    (** constraint_dags.py:887-1201, [ConstraintDagGraphAnnotator] *)
    Definition constraint_annotator (prototype : storage M) : result (annotator cstate decision cinfo) :=
      do tree <- read_tree prototype;
      let a := constraint_layout tree in
      Ok (mkAnnotator (c_annotate_state a) (fun e => Ok (c_annotate_edge e)) (Ok (notes a))
            (fun svg => if svg then [Css c_css] else [])).
  End Constraint.

  (** ** edit_dags.py *)
  Section Edit.
    Variable repr_estate : estate -> text.
    Variable repr_eedge : eedge -> text.

    (** edit_dags.py:2023-2078, [STATE_OFFSET_MAPPING] and [NUM_STATE_OFFSETS] *)
    Definition e_row_of (a : align) (c : conf) : nat :=
      match a, c with
      | PROCESS, High => 0 | PROCESS, Low => 1
      | DELETE, High => 2 | DELETE, Low => 3
      | INSERT, High => 4 | INSERT, Low => 5
      | MATCH, High => 6 | MATCH, Low => 7
      | RDELETE, High => 2 | RDELETE, Low => 3
      | RINSERT, High => 4 | RINSERT, Low => 5
      end.
    Definition e_row (s : estate) : nat := match s with EAt a c _ _ _ _ => e_row_of a c | EFinal => 0 end.
    Definition e_rows : nat := 8.

    (** edit_dags.py:1142-1147 and 1394-1508: the list of subproblems in the render data, in the order in which
        [build_matching_subproblem] is called. *)
    Fixpoint node_subproblems (x : L) (ts : list L) {struct x} : list (Z * Z) :=
      flat_map (fun y =>
        match x, y with
        | LGroup p cs m, LGroup p' ds m' =>
            if eqb m' m then
              (Z.of_nat (pre p), Z.of_nat (pre p')) ::
              (fix go (l : list L) : list (Z * Z) :=
                 match l with [] => [] | c :: l' => node_subproblems c ds ++ go l' end) cs
            else []
        | _, _ => []
        end) ts.
    Definition subproblems (ps ts : list L) : list (Z * Z) :=
      (ROOT_SEQ, ROOT_SEQ) :: flat_map (fun x => node_subproblems x ts) ps.
    (** The render data [construct_edit_dag] returns beside the DAG. *)
    Definition edit_render_data (prototype target : storage M) : result (list (Z * Z)) :=
      do ps <- read_tree prototype; do ts <- read_tree target; Ok (subproblems ps ts).

    (** edit_dags.py:2108-2348, [precompute_layout] *)
    Definition edit_x (ps : list L) : axis :=
      walk 1 (state_width z) 0%Qc (gap_horizontal z)
        (prototype_note (- gap_vertical z - state_height z)%Qc (- gap_vertical z)%Qc) false ROOT_SEQ ps
        (mkAxis (state_width z + gap_horizontal z)%Qc [] [] [] None []).
    Definition edit_y (ts : list L) : axis :=
      walk e_rows (state_height z) (state_separation z) (gap_vertical z) target_note false ROOT_SEQ ts
        (mkAxis 0%Qc [] [] [] None []).
    (** edit_dags.py:251-268 and 287-295, [shortname]; the names of the members. *)
    Definition align_shortname (a : align) : text :=
      match a with
      | PROCESS => chars "Advance" | DELETE => chars "Delete" | INSERT => chars "Insert" | MATCH => chars "Match"
      | RDELETE => chars "Delete (forced)" | RINSERT => chars "Insert (forced)"
      end.
    Definition conf_shortname (c : conf) : text := match c with High => chars "High" | Low => chars "Low" end.
    Definition align_name (s : estate) : text :=
      match s with
      | EAt PROCESS _ _ _ _ _ => chars "PROCESS_PROTOTYPE" | EAt DELETE _ _ _ _ _ => chars "MAY_DELETE"
      | EAt INSERT _ _ _ _ _ => chars "MAY_INSERT" | EAt MATCH _ _ _ _ _ => chars "MATCH"
      | EAt RDELETE _ _ _ _ _ => chars "RECURSIVELY_DELETING" | EAt RINSERT _ _ _ _ _ => chars "RECURSIVELY_INSERTING"
      | EFinal => chars "SPECIAL_FINAL_STATE"
      end.
    Definition conf_name (s : estate) : text :=
      match s with
      | EAt _ High _ _ _ _ => chars "HIGH_CONFIDENCE" | EAt _ Low _ _ _ _ => chars "LOW_CONFIDENCE"
      | EFinal => chars "NOT_APPLICABLE"
      end.
    Definition action_name (a : action) : text :=
      match a with
      | Keep => chars "KEEP" | Delete => chars "DELETE" | Insert => chars "INSERT"
      | PrototypeDecoration => chars "PROTOTYPE_DECORATION" | TargetDecoration => chars "TARGET_DECORATION"
      | StartLowConfidence => chars "START_LOW_CONFIDENCE" | StartEditing => chars "START_EDITING"
      | ActEarlyExit => chars "EARLY_EXIT"
      end.
    (** edit_dags.py:2350-2391, [annotate_state]; the final state's place is of 2338-2348. *)
    Definition e_bounds (x y : axis) (s : estate) : result box :=
      match s with
      | EFinal =>
          let left := (cursor x + gap_horizontal z)%Qc in
          let top := (cursor y + gap_vertical z)%Qc in
          Ok (from_boundary left top (left + state_width z)%Qc (top + state_height z)%Qc)
      | EAt a c q i h j =>
          do xs <- at_key (q, i, 0) (places x);
          do ys <- at_key (h, j, e_row_of a c) (places y);
          Ok (from_boundary (fst xs) (fst ys) (snd xs) (snd ys))
      end.
    Definition e_display (s : estate) : text :=
      match s with
      | EAt a c _ _ _ _ => align_shortname a ++ chars " " ++ conf_shortname c
      | EFinal => chars "Final State"
      end.
    Definition e_annotate_state (x y : axis) (s : estate) : result state_annotation :=
      do b <- e_bounds x y s; Ok (mkStateAnnotation b (e_display s) (font z) (Some (repr_estate s)) []).
    (** edit_dags.py:2425-2442, [known_offsets] *)
    Definition known_offset (s t : estate) : option nat :=
      match s, t with
      | EAt PROCESS _ _ _ _ _, EAt MATCH _ _ _ _ _ => Some 1
      | EAt PROCESS _ _ _ _ _, EAt DELETE _ _ _ _ _ => Some 2
      | EAt DELETE _ _ _ _ _, EAt INSERT _ _ _ _ _ => Some 3
      | EAt INSERT _ _ _ _ _, EAt INSERT _ _ _ _ _ => Some 4
      | EAt INSERT _ _ _ _ _, EAt MATCH _ _ _ _ _ => Some 5
      | _, _ => None
      end.
    (** edit_dags.py:2393-2504, [annotate_edge] *)
    Definition e_annotate_edge (x y : axis) (e : eedge) : result edge_annotation :=
      let style_tags :=
        [chars "from_" ++ align_name (source e); chars "to_" ++ align_name (dest e);
         chars "from_" ++ conf_name (source e); chars "to_" ++ conf_name (dest e)] ++
        match info e with Some f => [action_name (act f)] | None => [] end ++ assignment_tags (assignment e) in
      let end_align := row_alignment (e_row (source e)) e_rows in
      let start_align := row_alignment (e_row (dest e)) e_rows in
      let vertical_line_offset :=
        match known_offset (source e) (dest e) with
        | Some n =>
            let v := (of_nat n / of_nat 6)%Qc in
            match dest e with
            | EAt _ High _ _ _ _ => (v - percent 10 / of_nat 6)%Qc
            | _ => (v + percent 10 / of_nat 6)%Qc
            end
        | None => (percent 63 * start_align + percent 37 * end_align)%Qc
        end in
      do src <- e_annotate_state x y (source e);
      do dst <- e_annotate_state x y (dest e);
      let '(axis, start_align, end_align, elbow, elbow_adjust) :=
        if eqb (b_left (s_bounds src)) (b_left (s_bounds dst))
        then (Vertical, vertical_line_offset, vertical_line_offset, 0%Qc, (state_separation z * percent 25)%Qc)
        else (Horizontal, start_align, end_align, (1 - vertical_line_offset)%Qc, 0%Qc) in
      let '(elbow, elbow_adjust, text_align, text_adjust) :=
        match info e with
        | Some (mkInfo _ _ ActEarlyExit _) => (0%Qc, (gap_horizontal z * percent 20)%Qc, 0%Qc, state_separation z)
        | _ => (elbow, elbow_adjust, half, 0%Qc)
        end in
      Ok (mkEdgeAnnotation axis elbow start_align text_align end_align
            (str_cost (ecost e) ++ assignment_summary (assignment e)) (font z) (Some (repr_eedge e))
            style_tags elbow_adjust text_adjust).
    (** edit_dags.py:2506-2532, [extra_annotations] *)
    Definition region_of (x y : axis) (s : Z * Z) : result extra_annotation :=
      do l <- at_key (fst s) (opened x);
      do r <- at_key (fst s) (closed x);
      do t <- at_key (snd s) (opened y);
      do b <- at_key (snd s) (closed y);
      Ok (RegionAnnotation (from_boundary l t r b) []).
    Definition e_extra (x y : axis) (subs : list (Z * Z)) : result (list extra_annotation) :=
      do regions <- mapM (region_of x y) subs; Ok (regions ++ notes x ++ notes y).
    (** edit_dags.py:2534-2595, [renderer_specific_setup] *)
    Definition e_css : text := chars "rect.unexpected_node {
    fill: red;
}

rect.label_in_box.text_token {
    fill: #ddd;
}
rect.label_in_box.text_decoration {
    fill: #eee;
    stroke-dasharray: 5 5;
}

.edge-annotation {
  --edge-annotation-color: black;
}
.edge-annotation.from_HIGH_CONFIDENCE.KEEP {
  --edge-annotation-color: green;
}
.edge-annotation.from_HIGH_CONFIDENCE.from_MAY_INSERT,
.edge-annotation.from_HIGH_CONFIDENCE.to_MAY_INSERT {
  --edge-annotation-color: magenta;
}
.edge-annotation.from_HIGH_CONFIDENCE.to_MAY_DELETE,
.edge-annotation.to_HIGH_CONFIDENCE.DELETE {
  --edge-annotation-color: red;
}
.edge-annotation.from_LOW_CONFIDENCE.KEEP {
  --edge-annotation-color: teal;
}
.edge-annotation.from_LOW_CONFIDENCE.from_MAY_INSERT,
.edge-annotation.from_LOW_CONFIDENCE.to_MAY_INSERT  {
  --edge-annotation-color: maroon;
}
.edge-annotation.from_LOW_CONFIDENCE.to_MAY_DELETE,
.edge-annotation.to_LOW_CONFIDENCE.DELETE {
  --edge-annotation-color: orange;
}
.edge-annotation.REGION_SHOULD_START.TRUE,
.edge-annotation.REGION_SHOULD_END.TRUE {
  --edge-annotation-color: #966F33;
}
.edge-annotation.REGION_SHOULD_START.FALSE,
.edge-annotation.REGION_SHOULD_END.FALSE {
  --edge-annotation-color: #151B54;
}
.edge-annotation.REGION_SHOULD_START.NOT_APPLICABLE,
.edge-annotation.REGION_SHOULD_END.NOT_APPLICABLE {
  --edge-annotation-color: #616D7E;
}
.edge-annotation.SHOULD_EARLY_EXIT.TRUE {
  --edge-annotation-color: lightblue;
}
.edge-annotation path {
  stroke: var(--edge-annotation-color);
}
.edge-annotation text {
  fill: var(--edge-annotation-color);
}
".
    (** edit_dags.py:2081-2595, [EditDagGraphAnnotator], given the render data. *)
    Definition edit_annotator (prototype target : storage M) (subs : list (Z * Z))
      : result (annotator estate decision (option einfo)) :=
      do ps <- read_tree prototype;
      do ts <- read_tree target;
      let x := edit_x ps in
      let y := edit_y ts in
      Ok (mkAnnotator (e_annotate_state x y) (e_annotate_edge x y) (e_extra x y subs) (fun svg => if svg then [Css e_css] else [])).
  End Edit.

  (** ** part_selection_dags.py *)
  Section Selection.
    Variable repr_sstate : sstate -> text.
    Variable repr_sedge : sedge -> text.
    Variable repr_visit : item -> text.
    (** [repr((visit, node))] *)
    Variable repr_visited : item -> text -> M -> text.

    (** part_selection_dags.py:1008-1016, [STATE_OFFSET_MAPPING], [NUM_STATE_OFFSETS] *)
    Definition s_row_of (c : scategory) : nat :=
      match c with SkipUnselected => 0 | SkipInTarget => 1 | SelectMatched => 2 | SelectUnmatched => 3 end.
    Definition s_row (s : sstate) : nat := match s with SAt c _ _ => s_row_of c | SFinal => 0 end.
    Definition s_rows : nat := 4.
    Definition y_offset_matching : Qc := (state_height z + gap_vertical z)%Qc.

    (** part_selection_dags.py:1089-1154 (and 1207-1251 with [in_target], which does not know of regions): the
        text for a visit *)
    Definition visit_note (S : storage M) (in_target : bool) (b : box) (v : item) : result extra_annotation :=
      let show t tag := TextAnnotation b (chars t) (font z) (Some (repr_visit v)) [chars tag] in
      let other := TextAnnotation b (repr_visit v) (font z) (Some (repr_visit v)) [chars "unexpected_node"] in
      match fst v, cat (snd v) with
      | VLeaf, CToken =>
          do n <- lookup (tokens S) (idx (snd v));
          Ok (TextAnnotation b (repr_text (fst n)) (font z) (Some (repr_visited v (fst n) (snd n))) [chars "text_token"])
      | VLeaf, CStart => Ok (if in_target then other else show "Region Start" "region_start")%string
      | VLeaf, CEnd => Ok (if in_target then other else show "Region End" "region_end")%string
      | VBefore, CGroup => Ok (show "Group Start" "group_start")%string
      | VAfter, CGroup => Ok (show "Group End" "group_end")%string
      | _, _ => Ok other
      end.

    (** part_selection_dags.py:1064-1171: the columns of the prototype, numbered from [i], and the texts above them.
        After the last visit come the column of the end and that of the final state. *)
    Fixpoint s_columns (S : storage M) (i : nat) (l : list item) (x : Qc) : result (list (nat * (Qc * Qc)) * list extra_annotation) :=
      let right := (x + state_width z)%Qc in
      match l with
      | [] =>
          let left' := (right + gap_horizontal z)%Qc in
          Ok ([(Datatypes.S i, (left', (left' + state_width z)%Qc)); (i, (x, right))], [])
      | v :: l' =>
          let x' := (right + gap_horizontal z)%Qc in
          do n <- visit_note S false (mkBox right 0%Qc (x' - right)%Qc (state_height z)) v;
          do rest <- s_columns S (Datatypes.S i) l' x';
          Ok (fst rest ++ [(i, (x, right))], n :: snd rest)
      end.
    (** part_selection_dags.py:1179-1187 and 1253-1262: the rows at position [j] of the target; then the cursor is one
        separation further. *)
    Fixpoint s_put_rows (j row n : nat) (y : Qc) : list ((nat * nat) * (Qc * Qc)) * Qc :=
      match n with
      | 0 => ([], y)
      | S n' =>
          let '(rest, y') := s_put_rows j (S row) n' (y + state_height z + state_separation z)%Qc in
          (rest ++ [((j, row), (y, (y + state_height z)%Qc))], y')
      end.
    (** part_selection_dags.py:1173-1262: the rows of the target and the texts beside them. *)
    Fixpoint s_lines (S : storage M) (j : nat) (l : list item) (y : Qc) : result (list ((nat * nat) * (Qc * Qc)) * list extra_annotation) :=
      let '(here, y1) := s_put_rows j 0 s_rows y in
      match l with
      | [] => Ok (here, [])
      | v :: l' =>
          let top := (y1 - state_separation z)%Qc in
          let bottom := (top + gap_vertical z)%Qc in
          do n <- visit_note S true (mkBox (- (state_width z + gap_horizontal z))%Qc top (state_width z) (bottom - top)%Qc) v;
          do rest <- s_lines S (Datatypes.S j) l' bottom;
          Ok (fst rest ++ here, n :: snd rest)
      end.
    (** part_selection_dags.py:155-168, [shortname]; the names of the members *)
    Definition s_shortname (s : sstate) : text :=
      match s with
      | SAt SkipUnselected _ _ => chars "Skip Prototype" | SAt SkipInTarget _ _ => chars "Skip Target"
      | SAt SelectUnmatched _ _ => chars "Unmatched" | SAt SelectMatched _ _ => chars "Matched"
      | SFinal => chars "Final State"
      end.
    Definition s_name (s : sstate) : text :=
      match s with
      | SAt SkipUnselected _ _ => chars "SKIP_UNSELECTED_IN_PROTOTYPE" | SAt SkipInTarget _ _ => chars "SKIP_IN_TARGET"
      | SAt SelectUnmatched _ _ => chars "SELECT_UNMATCHED" | SAt SelectMatched _ _ => chars "SELECT_MATCHED"
      | SFinal => chars "SPECIAL_FINAL_STATE"
      end.
    Section Placed.
      (** [n]: the number of visits of the prototype *)
      Variable n : nat.
      Variable xs : list (nat * (Qc * Qc)).
      Variable ys : list ((nat * nat) * (Qc * Qc)).
      (** part_selection_dags.py:1264-1311, [annotate_state] *)
      Definition s_annotate_state (s : sstate) : result state_annotation :=
        do b <- match s with
                | SFinal =>
                    do x <- at_key (n + 1) xs; do y <- at_key (0, 0) ys; Ok (from_boundary (fst x) (fst y) (snd x) (snd y))
                | SAt c i j =>
                    do x <- at_key i xs; do y <- at_key (j, s_row_of c) ys; Ok (from_boundary (fst x) (fst y) (snd x) (snd y))
                end;
        Ok (mkStateAnnotation b (s_shortname s) (font z) (Some (repr_sstate s)) []).
      (** part_selection_dags.py:1313-1395, [annotate_edge] *)
      Definition s_annotate_edge (e : sedge) : result edge_annotation :=
        let style_tags :=
          [chars "from_" ++ s_name (source e); chars "to_" ++ s_name (dest e)] ++ assignment_tags (assignment e) in
        let end_align := row_alignment (s_row (source e)) s_rows in
        let start_align := row_alignment (s_row (dest e)) s_rows in
        let vertical_line_offset :=
          match source e, dest e with
          | SAt SkipInTarget _ _, SAt SkipInTarget _ _ => (of_nat 1 / of_nat 3)%Qc
          | SAt SkipInTarget _ _, SAt SelectMatched _ _ => (of_nat 2 / of_nat 3)%Qc
          | _, _ => (percent 63 * start_align + percent 37 * end_align)%Qc
          end in
        do src <- s_annotate_state (source e);
        do dst <- s_annotate_state (dest e);
        let '(axis, start_align, end_align, elbow, elbow_adjust) :=
          if eqb (b_left (s_bounds src)) (b_left (s_bounds dst))
          then (Vertical, vertical_line_offset, vertical_line_offset, 0%Qc, (state_separation z * percent 25)%Qc)
          else (Horizontal, start_align, end_align, (1 - vertical_line_offset)%Qc, 0%Qc) in
        Ok (mkEdgeAnnotation axis elbow start_align half end_align
              (str_cost (ecost e) ++ assignment_summary (assignment e)) (font z) (Some (repr_sedge e))
              style_tags elbow_adjust 0%Qc).
    End Placed.
    (** part_selection_dags.py:1401-1432, [renderer_specific_setup] *)
    Definition s_css : text := chars "rect.unexpected_node {
    fill: red;
}

rect.label_in_box {
    fill: #f3f3f3;
    stroke-dasharray: 2 2;
}
rect.label_in_box.text_token {
    fill: #ccc;
}
rect.label_in_box.text_decoration {
    fill: #eee;
    stroke-dasharray: 5 5;
}

.edge-annotation {
  --edge-annotation-color: black;
}
.edge-annotation.from_SELECT_MATCHED.to_SELECT_MATCHED {
  --edge-annotation-color: darkgreen;
}
.edge-annotation.from_SELECT_UNMATCHED.to_SELECT_UNMATCHED {
  --edge-annotation-color: darkorange;
}
.edge-annotation path {
  stroke: var(--edge-annotation-color);
}
.edge-annotation text {
  fill: var(--edge-annotation-color);
}
".
    (** part_selection_dags.py:1019-1432, [PartSelectionGraphAnnotator] *)
    Definition selection_annotator (prototype target : storage M) : result (annotator sstate decision (option sinfo)) :=
      do ps <- in_order_traversal prototype true;
      do ts <- in_order_traversal target true;
      do columns <- s_columns prototype 0 ps 0%Qc;
      do lines <- s_lines target 0 ts y_offset_matching;
      let n := List.length ps in
      Ok (mkAnnotator (s_annotate_state n (fst columns) (fst lines)) (s_annotate_edge n (fst columns) (fst lines))
            (Ok (snd columns ++ snd lines)) (fun svg => if svg then [Css s_css] else [])).
  End Selection.
End Annotators.
