(** r_u_sure/rendering/simple_dag_annotator.py and [to_bounded_irrational] of
    r_u_sure/rendering/rendering.py.

    Simplifications: the exponential is a parameter, through [sigmoid]; [str], [repr], the cost's
    and the assignment's formatting, the hash of an assigned value modulo 100, and the colour
    given in an edge's [info] (line 139) are parameters. *)

From Coq Require Import String.
From Coq Require Import List Bool Arith Lia ZArith QArith Qcanon Qround.
From Verif Require Import Base SeqNodes Graph GatedDag Html Drawing.
Import ListNotations.
Close Scope string_scope. Close Scope Qc_scope. Close Scope Q_scope. Close Scope Z_scope. Open Scope nat_scope. Open Scope list_scope.

(** rendering.py:217-233, [to_bounded_irrational].  The remainder modulo 1 is the fractional part. *)
Definition to_bounded_irrational (index : Z) : Qc :=
  let q := (inject_Z index / (161803 # 100000) + (1 # 2))%Q in
  Q2Qc (q - inject_Z (Qfloor q))%Q.

Definition tenth (n : Z) : Qc := Q2Qc (n # 10).

Section Simple.
  Context {St As In : Type}.
  Notation E := (edge St As In).
  (** simple_dag_annotator.py:36-37, [_sigmoid] *)
  Variable sigmoid : Qc -> Qc.
  (** Lines 67-72, [bounds_for_state], abstract in the code. *)
  Variable bounds_for_state : St -> result box.
  Variable str_state repr_state : St -> text.
  Variable repr_edge : E -> text.
  Variable str_cost : cost -> text.
  Variable str_key str_value : As -> text.
  (** Line 111. *)
  Variable hash100 : As -> nat.
  (** Lines 139-140. *)
  Variable color_of : In -> option text.

  (** Lines 40-46, [_summarize_edge] *)
  Definition summarize_edge (e : E) : text :=
    str_cost (ecost e) ++
    match assignment e with
    | Some x => chars " if " ++ str_key x ++ chars " = " ++ str_value x
    | None => []
    end.

  (** Lines 52-65 *)
  Definition font_size : Qc := of_nat 10.
  Definition horizontal_scale : Qc := of_nat 100.
  Definition vertical_scale : Qc := of_nat 100.
  Definition known_colors : list text :=
    map chars ["red"; "darkred"; "limegreen"; "darkgreen"; "lightblue"; "blue"; "orange"; "magenta"; "cyan"]%string.

  (** Lines 74-82, [annotate_state] *)
  Definition simple_annotate_state (s : St) : result state_annotation :=
    do b <- bounds_for_state s;
    Ok (mkStateAnnotation b (str_state s) font_size (Some (repr_state s)) []).

  (** Lines 84-158, [annotate_edge] *)
  Definition simple_annotate_edge (e : E) : result edge_annotation :=
    do source_bounds <- bounds_for_state (source e);
    do dest_bounds <- bounds_for_state (dest e);
    let horizontal_gap := (b_left dest_bounds - b_right source_bounds)%Qc in
    let '(axis, secondary_offset, secondary_scale) :=
      if qc_ltb horizontal_gap 0%Qc
      then (Vertical, (horizontal_center dest_bounds - horizontal_center source_bounds)%Qc, horizontal_scale)
      else (Horizontal, (vertical_center dest_bounds - vertical_center source_bounds)%Qc, vertical_scale) in
    let relative_offset_for_endpoints := (of_nat 2 * sigmoid (secondary_offset / (half * secondary_scale)) - 1)%Qc in
    let jitter :=
      match assignment e with
      | Some x => (of_nat 2 * to_bounded_irrational (Z.of_nat (hash100 x)) - 1)%Qc
      | None => 0%Qc
      end in
    let start_align := (half + tenth 3 * relative_offset_for_endpoints + tenth 1 * jitter)%Qc in
    let end_align := (half - tenth 3 * relative_offset_for_endpoints + tenth 1 * jitter)%Qc in
    let middle := (of_nat 2 * sigmoid (secondary_offset / (Q2Qc (3 # 2) * secondary_scale)) - 1)%Qc in
    let '(elbow_align, text_align) :=
      if qc_ltb (qmax middle (- middle)%Qc) (Q2Qc (1 # 100)) then (half, half)
      else if qc_ltb 0%Qc middle
      then let x := (tenth 9 - tenth 8 * middle - tenth 1 * jitter)%Qc in (x, (1 - x)%Qc)
      else let x := (tenth 9 + tenth 8 * middle + tenth 1 * jitter)%Qc in (x, x) in
    do style_tags <- match color_of (info e) with
                     | Some color => if mem color known_colors then Ok [chars "color_" ++ color] else Err ValueError
                     | None => Ok []
                     end;
    Ok (mkEdgeAnnotation axis elbow_align start_align text_align end_align
          (summarize_edge e) font_size (Some (repr_edge e)) style_tags 0%Qc 0%Qc).

  (** Lines 160-176, [renderer_specific_setup] *)
  Definition color_css (color : text) : text :=
    chars ".edge-annotation.color_" ++ color ++ chars " path {
    stroke: " ++ color ++ chars ";
}
.edge-annotation.color_" ++ color ++ chars " text {
    fill: " ++ color ++ chars ";
}
".
  Definition simple_setup (svg : bool) : list command :=
    if svg then [Css (join newline (map color_css known_colors))] else [].

  (** The annotator; lines 168-172 of dag_annotator.py are the default for extra annotations. *)
  Definition simple_annotator : annotator St As In :=
    mkAnnotator simple_annotate_state simple_annotate_edge (Ok []) simple_setup.
End Simple.
