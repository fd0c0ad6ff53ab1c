(** Drawing state DAGs: r_u_sure/rendering/rendering.py (geometry and the drawing
    interface), r_u_sure/rendering/dag_annotator.py ([render_dag]) and
    r_u_sure/rendering/svg_renderer.py (the SVG renderer).

    Simplifications: coordinates are exact rationals; how a number is printed inside an
    f-string is a parameter [num]. *)

From Coq Require Import String.
From Coq Require Import List Bool Arith Lia QArith Qcanon.
From Verif Require Import Base SeqNodes Graph GatedDag Html.
Import ListNotations.
Close Scope string_scope. Close Scope Qc_scope. Close Scope Q_scope. Open Scope nat_scope. Open Scope list_scope.

(** ** rendering.py *)
Definition half : Qc := Q2Qc (1 # 2).
Definition of_nat (n : nat) : Qc := Q2Qc (inject_Z (Z.of_nat n)).
(** Python's [min] and [max] of two numbers. *)
Definition qmin (a b : Qc) : Qc := if qc_ltb b a then b else a.
Definition qmax (a b : Qc) : Qc := if qc_ltb a b then b else a.

(** rendering.py:23-31, [Point]. *)
Record point := mkPoint { px : Qc; py : Qc }.
(** rendering.py:29-31, [Point.shift]. *)
Definition shift (p : point) (dx dy : Qc) : point := mkPoint (px p + dx)%Qc (py p + dy)%Qc.
(** rendering.py:34-40, [BoundingBox]. *)
Record box := mkBox { b_left : Qc; b_top : Qc; b_width : Qc; b_height : Qc }.
(** rendering.py:42-50, [BoundingBox.from_boundary] *)
Definition from_boundary (left top right bottom : Qc) : box := mkBox left top (right - left)%Qc (bottom - top)%Qc.
(** rendering.py:52-58, [right] and [bottom]. *)
Definition b_right (b : box) : Qc := (b_left b + b_width b)%Qc.
Definition b_bottom (b : box) : Qc := (b_top b + b_height b)%Qc.
(** rendering.py:60-70, [horizontal_center], [vertical_center], [center_point]. *)
Definition horizontal_center (b : box) : Qc := (b_left b + half * b_width b)%Qc.
Definition vertical_center (b : box) : Qc := (b_top b + half * b_height b)%Qc.
Definition center_point (b : box) : point := mkPoint (horizontal_center b) (vertical_center b).
(** rendering.py:72-74, [BoundingBox.point_within] *)
Definition point_within (b : box) (toward_right toward_bottom : Qc) : point :=
  mkPoint (b_left b + toward_right * b_width b)%Qc (b_top b + toward_bottom * b_height b)%Qc.
(** rendering.py:76-82, [BoundingBox.union] *)
Definition union (b b' : box) : box :=
  from_boundary (qmin (b_left b) (b_left b')) (qmin (b_top b) (b_top b'))
                (qmax (b_right b) (b_right b')) (qmax (b_bottom b) (b_bottom b')).
(** rendering.py:85-95, [PointDirection] *)
Inductive direction := Up | UpRight | ToRight | DownRight | Down | DownLeft | ToLeft | UpLeft | Around.
(** rendering.py:206-214, [point_interpolator] *)
Definition interpolate (p q : point) (x y : Qc) : point :=
  mkPoint (px p + x * (px q - px p))%Qc (py p + y * (py q - py p))%Qc.

(** rendering.py:98-203, [Renderer], as the calls made on it; [Css] and [Custom] are the calls
    that only the SVG renderer has (svg_renderer.py:284-290).  [Group] holds what is drawn
    inside the [with] block. *)
Inductive command :=
| Label (b : box) (t : text) (hover : option text) (size : Qc) (tags : list text)
| LabelAt (p : point) (t : text) (size : Qc) (d : direction) (hover : option text) (padding : Qc) (tags : list text)
| Container (b : box) (tags : list text)
| Line (points : list point) (hover : option text) (tags : list text)
| Dot (p : point) (hover : option text) (tags : list text)
| Group (hover : option text) (tags : list text) (body : list command)
| Css (style : text)
| Custom (svg : text).

(** ** dag_annotator.py *)
(** dag_annotator.py:34-50, [StateAnnotation] *)
Record state_annotation := mkStateAnnotation {
  s_bounds : box; s_text : text; s_size : Qc; s_hover : option text; s_tags : list text }.
(** dag_annotator.py:53-57, [ElbowEdgeOrientation] *)
Inductive orientation := Horizontal | Vertical.
(** dag_annotator.py:60-93, [ElbowEdgeAnnotation]; the only kind of [EdgeAnnotation] (line 96), so
    the error at line 374 cannot be raised. *)
Record edge_annotation := mkEdgeAnnotation {
  e_axis : orientation; elbow_distance : Qc; start_alignment : Qc; text_alignment : Qc; end_alignment : Qc;
  e_text : text; e_size : Qc; e_hover : option text; e_tags : list text;
  elbow_distance_adjust : Qc; text_alignment_adjust : Qc }.
(** dag_annotator.py:99-128, [RegionAnnotation] and [TextAnnotation] *)
Inductive extra_annotation :=
| RegionAnnotation (b : box) (tags : list text)
| TextAnnotation (b : box) (t : text) (size : Qc) (hover : option text) (tags : list text).

(** dag_annotator.py:377-420, [default_svg_style_css] *)
Definition default_svg_style_css : text := chars "
      rect.state-annotation.unreachable-state {
          fill: white;
          stroke-dasharray: 2 2;
      }
      .unreachable-edge path.line {
          stroke-opacity: 0.7;
          stroke-dasharray: 2 4;
      }
      .reachable-edge path.line {
          stroke-width: 2;
      }
      circle.dot {
          r: 2;
      }

      .edge-annotation.reachable-edge.highlight path {
          stroke-width: 3;
      }

      .edge-annotation.lowlight text {
          opacity: 0.5;
      }
      .edge-annotation.lowlight path {
          stroke-opacity: 0.3;
          stroke-width: 1;
      }
      .edge-annotation.unreachable-edge.lowlight path {
          stroke-dasharray: 2 8;
      }

      .edge-annotation:hover {
          filter: url(#hoverhighlight);
      }

      .edge-annotation.lowlight:hover text {
          opacity: 1.0;
      }
      .edge-annotation.lowlight:hover path {
          stroke-opacity: 1.0;
      }
  ".
(** dag_annotator.py:201-216 *)
Definition hover_filter : text := chars "
        <filter id=""hoverhighlight"">
          <feMorphology
              operator=""dilate"" radius=""5""
              in=""SourceGraphic"" result=""dilated""/>
          <feColorMatrix
              type=""matrix"" values=""0.5 0   0   0.5 0
                                    0   0.5 0   0.5 0
                                    0   0   0.5 0.5 0
                                    0   0   0   1   0""
              in=""dilated"" result=""glow""/>
          <feGaussianBlur stdDeviation=""3""
              in=""glow"" result=""glowblur""/>
          <feBlend in=""SourceGraphic"" in2=""glowblur"" mode=""normal"" />
        </filter>
        ".

Section RenderDag.
  Context {St As In : Type} `{EqDec St} `{EqDec As}.
  Notation E := (edge St As In).

  (** dag_annotator.py:131-175, [StateDAGAnnotator].  Simplification: an annotator is a pure
      function (which may raise); [a_setup svg] is what [renderer_specific_setup] does on a
      renderer that is ([true]) or is not an SVG renderer. *)
  Record annotator := mkAnnotator {
    annotate_state : St -> result state_annotation;
    annotate_edge : E -> result edge_annotation;
    extra_annotations : result (list extra_annotation);
    a_setup : bool -> list command
  }.

  (** dag_annotator.py:224-237 *)
  Definition draw_extra (x : extra_annotation) : command :=
    match x with
    | RegionAnnotation b tags => Container b (tags ++ [chars "text-annotation"])
    | TextAnnotation b t size hover tags => Label b t hover size (tags ++ [chars "text-annotation"])
    end.
  (** dag_annotator.py:240-254 *)
  Definition draw_state (a : annotator) (reachable : list St) (s : St) : result command :=
    do n <- annotate_state a s;
    Ok (Label (s_bounds n) (s_text n) (s_hover n) (s_size n)
          (s_tags n ++ [chars "state-annotation"] ++
           (if mem s reachable then [chars "reachable-state"] else [chars "unreachable-state"]))).
  (** dag_annotator.py:261-267 and 277-283: an edge with its [info] dropped. *)
  Definition infoless (e : E) : St * St * cost * option As := (source e, dest e, ecost e, assignment e).
  (** dag_annotator.py:257-268 and 275-288: highlight and lowlight.  Simplification: the emphasised
      edges are a list, so that truth means being given and not empty. *)
  Definition lights (emphasized : option (list E)) (e : E) : bool * bool :=
    match emphasized with
    | Some (x :: l) => let highlight := mem (infoless e) (map infoless (x :: l)) in (highlight, negb highlight)
    | _ => (false, false)
    end.
  (** dag_annotator.py:290-347: the points of the line, the anchor of the text, the point of the
      text and its direction.  [abs] is written as a maximum. *)
  Definition elbow (n : edge_annotation) (src dst : box) : list point * point * point * direction :=
    match e_axis n with
    | Horizontal =>
        let start_point := point_within src 1%Qc (start_alignment n) in
        let end_point := point_within dst 0%Qc (end_alignment n) in
        let at_ := interpolate start_point end_point in
        let p1 := shift (at_ (elbow_distance n) 0%Qc) (elbow_distance_adjust n) 0%Qc in
        let p2 := shift (at_ (elbow_distance n) 1%Qc) (elbow_distance_adjust n) 0%Qc in
        let points := [at_ 0%Qc 0%Qc; p1; p2; at_ 1%Qc 1%Qc] in
        let dy := (py p2 - py p1)%Qc in
        let '(text_anchor, label_direction) :=
          if qc_ltb (e_size n) (qmax dy (- dy)%Qc)
          then (shift (at_ (elbow_distance n) (text_alignment n)) (elbow_distance_adjust n) 0%Qc, ToRight)
          else (shift (at_ (elbow_distance n) 0%Qc) (elbow_distance_adjust n) 0%Qc, Around) in
        (points, text_anchor, shift text_anchor 0%Qc (text_alignment_adjust n), label_direction)
    | Vertical =>
        let start_point := point_within src (start_alignment n) 1%Qc in
        let end_point := point_within dst (end_alignment n) 0%Qc in
        let at_ := interpolate start_point end_point in
        let points := [at_ 0%Qc 0%Qc;
                       shift (at_ 0%Qc (elbow_distance n)) 0%Qc (elbow_distance_adjust n);
                       shift (at_ 1%Qc (elbow_distance n)) 0%Qc (elbow_distance_adjust n);
                       at_ 1%Qc 1%Qc] in
        let text_anchor := shift (at_ (text_alignment n) (elbow_distance n)) 0%Qc (elbow_distance_adjust n) in
        (points, text_anchor, shift text_anchor (text_alignment_adjust n) 0%Qc, DownRight)
    end.
  (** dag_annotator.py:270-371 *)
  Definition draw_edge (a : annotator) (reachable : list St) (emphasized : option (list E)) (e : E) : result command :=
    do n <- annotate_edge a e;
    do ns <- annotate_state a (source e);
    do nd <- annotate_state a (dest e);
    let '(highlight, lowlight) := lights emphasized e in
    let '(points, text_anchor, text_point, label_direction) := elbow n (s_bounds ns) (s_bounds nd) in
    let style_tags :=
      e_tags n ++ [chars "edge-annotation"] ++
      (if highlight then [chars "highlight"] else []) ++
      (if lowlight then [chars "lowlight"] else []) ++
      (if mem (source e) reachable && mem (dest e) reachable then [chars "reachable-edge"] else [chars "unreachable-edge"]) in
    Ok (Group (e_hover n) (style_tags ++ [chars "hover_to_top"])
          [Line points None []; Dot text_anchor None [];
           LabelAt text_point (e_text n) (e_size n) label_direction None half []]).
  (** dag_annotator.py:178-374, [render_dag] *)
  Definition render_dag (d : dag St As In) (a : annotator) (is_svg : bool) (emphasized : option (list E)) : result (list command) :=
    let setup := a_setup a is_svg ++ (if is_svg then [Css default_svg_style_css; Custom hover_filter] else []) in
    let reachable := compute_reachable_states d in
    do extras <- extra_annotations a;
    do states <- mapM (draw_state a reachable) (extract_state_list d);
    do drawn <- mapM (draw_edge a reachable emphasized) (edges d);
    Ok (setup ++ map draw_extra extras ++ states ++ drawn).
End RenderDag.
Arguments annotator : clear implicits.

(** ** svg_renderer.py *)
Section Svg.
  Variable num : Qc -> text.

  (** svg_renderer.py:30-33 *)
  Record renderer := mkRenderer { r_items : list text; r_styles : list text; r_bounds : option box; r_hover : bool }.
  (** svg_renderer.py:35-40 and 42-62 *)
  Definition basic_styles : text := chars "
    text.label_in_box {
        text-anchor: middle;
        dominant-baseline: middle;
    }
  ".
  Definition default_styles : text := chars "
    rect.label_in_box {
        fill: lightgray;
        stroke: black;
        stroke-width: 1;
    }
    rect.container {
        fill: none;
        stroke: blue;
        stroke-width: 1;
    }
    path.line {
        fill: none;
        stroke: black;
        stroke-width: 2;
    }
    circle.dot {
        r: 2;
        fill: black;
    }
  ".
  (** svg_renderer.py:64-78, [__init__] *)
  Definition new_renderer (with_default_styles with_hover_text : bool) : renderer :=
    mkRenderer [] (basic_styles :: if with_default_styles then [default_styles] else []) None with_hover_text.
  (** svg_renderer.py:80-85, [_update_bounds] *)
  Definition update_bounds (r : renderer) (b : box) : renderer :=
    mkRenderer (r_items r) (r_styles r)
      (Some match r_bounds r with None => b | Some b0 => union b0 b end) (r_hover r).
  Definition add_item (r : renderer) (t : text) : renderer :=
    mkRenderer (r_items r ++ [t]) (r_styles r) (r_bounds r) (r_hover r).
  (** svg_renderer.py:87-92, [_render_hover_title] *)
  Definition hover_title (r : renderer) (hover : option text) : text :=
    match hover with
    | Some t => if r_hover r then tag (chars "title") ++ escape t ++ tag (chars "/title") else []
    | None => []
    end.
  (** [s.split('\n')] for a text. *)
  Fixpoint split_lines (s : text) : list text :=
    match s with
    | [] => [[]]
    | c :: s' =>
        if c =? 10 then [] :: split_lines s'
        else match split_lines s' with l :: ls => (c :: l) :: ls | [] => [[c]] end
    end.
  (** [sep.join(l)] *)
  Fixpoint join (sep : text) (l : list text) : text :=
    match l with [] => [] | [x] => x | x :: l' => x ++ sep ++ join sep l' end.
  (** [enumerate(l)] *)
  Fixpoint enumerate {A} (i : nat) (l : list A) : list (nat * A) :=
    match l with [] => [] | x :: l' => (i, x) :: enumerate (S i) l' end.
  Definition quote (t : text) : text := [34] ++ t ++ [34].
  Definition rect (b : box) (tags : list text) (kind : text) : text :=
    tag (chars "rect x=" ++ quote (num (b_left b)) ++ chars " y=" ++ quote (num (b_top b)) ++ chars "
              width=" ++ quote (num (b_width b)) ++ chars " height=" ++ quote (num (b_height b)) ++ chars "
              class=" ++ quote (join [32] tags ++ [32] ++ kind) ++ chars "
              /").
  (** svg_renderer.py:94-123, [label_in_box] *)
  Definition label_in_box (r : renderer) (b : box) (t : text) (hover : option text) (size : Qc) (tags : list text) : renderer :=
    let r := update_bounds r b in
    let center := center_point b in
    let lines := split_lines t in
    let offset := (- size * (of_nat (List.length lines) - 1) / of_nat 2)%Qc in
    let texts := map (fun p : nat * text => let '(i, line) := p in
      tag (chars "text font-size=" ++ num size ++ chars " x=" ++ quote (num (px center)) ++ chars " y=" ++
           quote (num (py center + offset + size * of_nat i)%Qc) ++ chars " class=""label_in_box""") ++
      escape line ++ tag (chars "/text")) (enumerate 0 lines) in
    add_item r (chars "
      <g>
        " ++ hover_title r hover ++ chars "
        " ++ rect b tags (chars "label_in_box") ++ chars "
        " ++ join newline texts ++ chars "
      </g>
    ").
  (** svg_renderer.py:141-167 *)
  Definition vertical_offset (d : direction) (n : nat) (size padding : Qc) : Qc * Qc :=
    match d with
    | Up | UpLeft | UpRight => ((of_nat n + half) * size, - padding * size)%Qc
    | Down | DownLeft | DownRight => (half * size, padding * size)%Qc
    | ToLeft | ToRight => (size * (of_nat n - 1) / of_nat 2, 0)%Qc
    | Around => ((- of_nat ((n + 1) / 2) + half) * size, 0)%Qc
    end.
  (** svg_renderer.py:169-190 *)
  Definition horizontal_offset (d : direction) (size padding : Qc) : text * Qc :=
    match d with
    | ToLeft | UpLeft | DownLeft => (chars "text-anchor: end;", (- padding * size)%Qc)
    | ToRight | UpRight | DownRight => (chars "text-anchor: start;", (padding * size)%Qc)
    | Up | Down | Around => (chars "text-anchor: middle;", 0%Qc)
    end.
  (** svg_renderer.py:125-207, [label_at_point] *)
  Definition label_at_point (r : renderer) (p : point) (t : text) (size : Qc) (d : direction) (hover : option text)
      (padding : Qc) (tags : list text) : renderer :=
    let r := update_bounds r (mkBox (px p) (py p) 0%Qc 0%Qc) in
    let lines := split_lines t in
    let '(vertical_align_offset, vertical_pad_offset) := vertical_offset d (List.length lines) size padding in
    let '(anchor_style, horizontal_pad_offset) := horizontal_offset d size padding in
    let inline_styles := [chars "dominant-baseline: middle;"; anchor_style] in
    let base_x := (px p + horizontal_pad_offset)%Qc in
    let base_y := (py p + vertical_align_offset + vertical_pad_offset)%Qc in
    let texts := map (fun p : nat * text => let '(i, line) := p in
      tag (chars "text font-size=" ++ num size ++ chars " x=" ++ quote (num base_x) ++ chars " y=" ++
           quote (num (base_y + size * of_nat i)%Qc) ++ chars " style=" ++ quote (join [32] inline_styles) ++
           chars " class=" ++ quote (join [32] tags ++ chars " label_at_point")) ++
      escape line ++ tag (chars "/text")) (enumerate 0 lines) in
    add_item r (chars "
      <g>
        " ++ hover_title r hover ++ chars "
        " ++ join newline texts ++ chars "
      </g>
    ").
  (** svg_renderer.py:209-223, [container] *)
  Definition container (r : renderer) (b : box) (tags : list text) : renderer :=
    add_item (update_bounds r b) (chars "
      <g>
        " ++ rect b tags (chars "container") ++ chars "
      </g>
    ").
  (** svg_renderer.py:225-249, [line]; the minimum of no points is a [ValueError]. *)
  Definition line (r : renderer) (points : list point) (hover : option text) (tags : list text) : result renderer :=
    match points with
    | [] => Err ValueError
    | p :: ps =>
        let r := update_bounds r
          (from_boundary (fold_left qmin (map px ps) (px p)) (fold_left qmin (map py ps) (py p))
                         (fold_left qmax (map px ps) (px p)) (fold_left qmax (map py ps) (py p))) in
        let pathspec := (chars "M " ++ num (px p) ++ [32] ++ num (py p)) ::
                        map (fun q => chars "L " ++ num (px q) ++ [32] ++ num (py q)) ps in
        Ok (add_item r (chars "
      <g>
        " ++ hover_title r hover ++ chars "
        " ++ tag (chars "path d=" ++ quote (join [32] pathspec) ++ chars " class=" ++ quote (join [32] tags ++ chars " line") ++ chars "
              marker-start=""url(#arrowstart)""
              marker-end=""url(#arrowend)""/") ++ chars "
      </g>
    "))
    end.
  (** svg_renderer.py:251-266, [dot] *)
  Definition dot (r : renderer) (p : point) (hover : option text) (tags : list text) : renderer :=
    let r := update_bounds r (from_boundary (px p) (py p) (px p) (py p)) in
    add_item r (chars "
      <g>
        " ++ hover_title r hover ++ chars "
        " ++ tag (chars "circle cx=" ++ quote (num (px p)) ++ chars " cy=" ++ quote (num (py p)) ++
                  chars " class=" ++ quote (join [32] tags ++ chars " dot") ++ chars "/") ++ chars "
      </g>
    ").
  (** svg_renderer.py:268-278, the opening of a [group] *)
  Definition group_open (r : renderer) (hover : option text) (tags : list text) : renderer :=
    add_item r (chars "
      " ++ tag (chars "g class=" ++ quote (join [32] tags)) ++ chars "
        " ++ hover_title r hover ++ chars "
    ").
  (** svg_renderer.py:280-282, its closing, which is reached when the body raises nothing *)
  Definition group_close (r : renderer) : renderer :=
    add_item r (chars "
      </g>
    ").
  (** svg_renderer.py:284-286, [configure_style_css] *)
  Definition configure_style_css (r : renderer) (t : text) : renderer :=
    mkRenderer (r_items r) (r_styles r ++ [t]) (r_bounds r) (r_hover r).
  (** svg_renderer.py:288-290, [add_custom_svg] *)
  Definition add_custom_svg (r : renderer) (t : text) : renderer := add_item r t.

  (** One call on the renderer, and a sequence of calls. *)
  Fixpoint perform (r : renderer) (c : command) : result renderer :=
    match c with
    | Label b t hover size tags => Ok (label_in_box r b t hover size tags)
    | LabelAt p t size d hover padding tags => Ok (label_at_point r p t size d hover padding tags)
    | Container b tags => Ok (container r b tags)
    | Line points hover tags => line r points hover tags
    | Dot p hover tags => Ok (dot r p hover tags)
    | Group hover tags body =>
        do r' <- (fix go (r : renderer) (l : list command) : result renderer :=
                    match l with [] => Ok r | c :: l' => do r1 <- perform r c; go r1 l' end)
                 (group_open r hover tags) body;
        Ok (group_close r')
    | Css t => Ok (configure_style_css r t)
    | Custom t => Ok (add_custom_svg r t)
    end.
  Fixpoint perform_all (r : renderer) (l : list command) : result renderer :=
    match l with [] => Ok r | c :: l' => do r1 <- perform r c; perform_all r1 l' end.

  (** svg_renderer.py:294-299 *)
  Definition viewbox (r : renderer) (padding : Qc) : box :=
    let bounds := match r_bounds r with Some b => b | None => mkBox 0%Qc 0%Qc (of_nat 10) (of_nat 10) end in
    from_boundary (b_left bounds - padding)%Qc (b_top bounds - padding)%Qc
                  (b_right bounds + padding)%Qc (b_bottom bounds + padding)%Qc.
  (** svg_renderer.py:292-329, [to_html] *)
  Definition to_html (r : renderer) (padding : Qc) : text :=
    let v := viewbox r padding in
    chars "
      " ++ tag (chars "style type=""text/css""") ++ chars "
        " ++ join newline (r_styles r) ++ chars "
      " ++ tag (chars "/style") ++ chars "
      " ++ tag (chars "svg class=""rendered_graph"" viewBox=" ++
                quote (num (b_left v) ++ [32] ++ num (b_top v) ++ [32] ++ num (b_width v) ++ [32] ++ num (b_height v))) ++ chars "
      <defs>
        <marker id=""arrowend""
            markerWidth=""5"" markerHeight=""4""
            refX=""5"" refY=""2""
            orient=""auto"" markerUnits=""strokeWidth""
        >
          <path d=""M0,0 L0,4 L5,2 z"" fill=""black"" />
        </marker>
        <marker id=""arrowstart""
            markerWidth=""5"" markerHeight=""5""
            refX=""0"" refY=""2""
            orient=""auto"" markerUnits=""strokeWidth""
        >
          <circle cx=""1.5"" cy=""2"" r=1.5 fill=""black"" />
        </marker>
      </defs>
        <g>
          " ++ join newline (r_items r) ++ chars "
        </g>
      </svg>
    ".
End Svg.
