(** Model of the postprocessing of edit paths
    (r_u_sure/edit_distance_utility/edit_dags.py:1730-2014): grouping for display,
    text and HTML rendering, summary metrics. *)

From Coq Require Import String List Bool Arith ZArith Lia QArith Qcanon.
From Verif Require Import Base Graph SeqNodes PackedSeq Decisions EditDag RegionDecisions Html.
Import ListNotations.
Close Scope Qc_scope. Close Scope Q_scope. Close Scope Z_scope. Open Scope nat_scope.

#[export] Instance action_eqdec : EqDec action.
Proof. intros x y. decide equality. Defined.
#[export] Instance confidence_eqdec : EqDec (option (option conf)).
Proof. intros x y. repeat decide equality. Defined.
#[export] Instance shown_action_eqdec : EqDec (option action).
Proof. intros x y. repeat decide equality. Defined.
#[export] Instance cost_eqdec : EqDec cost.
Proof. intros [x| |] [y| |]; try (right; discriminate); try (left; reflexivity). destruct (Qc_eq_dec x y) as [E|N]; [left; now rewrite E|right; congruence]. Defined.

(** edit_dags.py:1744-1748, what [_group_edit_sequence] yields.  Confidence
    [None] is Python's None, [Some None] is NOT_APPLICABLE. *)
Record group := mkGroup { g_text : text; g_action : option action; g_conf : option (option conf); g_cost : cost }.

Section Report.
  Context {M St : Type}.

  (** edit_dags.py:1762-1777 (and 1991-2004), the text of an edge with
      information. *)
  Definition content (prototype target : storage M) (f : einfo) : result text :=
    match proto_node f with
    | Some i => do x <- lookup (preorder_traversal prototype) (Some i); render_id (fuel_of prototype) prototype x
    | None =>
        match target_node f with
        | Some j => do x <- lookup (preorder_traversal target) (Some j); render_id (fuel_of target) target x
        | None => Ok []
        end
    end.
  (** edit_dags.py:1805-1812 and 1820-1827, the two [yield] statements. *)
  Definition flush (a : option action) (c : option (option conf)) (parts : list text) (k : cost) : list group :=
    if negb (eqb a None) || negb (eqb k (Fin 0)) then [mkGroup (concat parts) a c k] else [].
  (** edit_dags.py:1730-1827, [_group_edit_sequence], from a given point of the
      loop on. *)
  Fixpoint group_from (prototype target : storage M) (a : option action) (c : option (option conf)) (parts : list text)
      (k : cost) (last : option action) (path : list (edge St decision (option einfo))) : result (list group) :=
    match path with
    | [] => Ok (flush a c parts k)
    | e :: path' =>
        let put (t : text) (a' : option action) (c' : option (option conf)) (k' : cost) :=
          let last' := match a' with None | Some StartLowConfidence | Some StartEditing => last | _ => a' end in
          if negb (eqb a' a) || negb (eqb c' c) then
            do out <- group_from prototype target a' c' [t] (cadd (Fin 0) k') last' path';
            Ok (flush a c parts k ++ out)
          else group_from prototype target a c (parts ++ [t]) (cadd k k') last' path' in
        match info e with
        | Some f =>
            do t <- content prototype target f;
            match act f with
            | PrototypeDecoration =>
                put t (Some (if eqb last (Some Delete) then Delete else Keep)) (Some (at_conf f)) (ecost e)
            | TargetDecoration =>
                if eqb last (Some Keep) then group_from prototype target a c parts k last path'
                else put t (Some Insert) (Some None) (ecost e)
            | a' => put t (Some a') (Some (at_conf f)) (ecost e)
            end
        | None =>
            if negb (eqb (ecost e) (Fin 0)) then put [] None None (ecost e)
            else group_from prototype target a c parts k last path'
        end
    end.
  Definition group_edit_sequence (path : list (edge St decision (option einfo))) (prototype target : storage M) : result (list group) :=
    group_from prototype target None None [] (Fin 0) None path.

  (** edit_dags.py:1830-1863, [extract_edit_sequence_text].  Simplification:
      [line] stands for the formatting of one group and [finish] for that of
      the total. *)
  Definition extract_edit_sequence_text (line : group -> text) (finish : cost -> text)
      (path : list (edge St decision (option einfo))) (prototype target : storage M) : result text :=
    do gs <- group_edit_sequence path prototype target;
    Ok (concat (map line gs) ++ finish (fold_left (fun k g => cadd k (g_cost g)) gs (Fin 0))).

  (** edit_dags.py:1889-1925, the style sheet. *)
  Definition line_of (s : string) : text := chars s ++ newline.
  Definition edit_style : text :=
    line_of "<style>" ++
    line_of ".edit_sequence_root {" ++ line_of "    white-space: pre;" ++ line_of "    font-family: monospace;" ++ line_of "}" ++
    line_of ".edit_sequence_root .prefix {" ++ line_of "    font-weight: bold;" ++ line_of "    color: black;" ++ line_of "}" ++
    line_of ".edit_sequence_root .high_confidence," ++ line_of ".edit_sequence_root .insert.was_high_confidence{" ++
    line_of "    font-weight: normal;" ++ line_of "}" ++
    line_of ".edit_sequence_root .low_confidence," ++ line_of ".edit_sequence_root .insert.was_low_confidence {" ++
    line_of "    font-weight: normal;" ++ line_of "    background-color: #ffcc99;" ++ line_of "}" ++
    line_of ".edit_sequence_root .keep {" ++ line_of "    color: black;" ++ line_of "}" ++
    line_of ".edit_sequence_root .delete {" ++ line_of "    color: darkred;" ++ line_of "    text-decoration: line-through;" ++ line_of "}" ++
    line_of ".edit_sequence_root .insert {" ++ line_of "    color: darkgreen;" ++ line_of "    text-decoration: underline;" ++
    line_of "    font-weight: normal;" ++ line_of "}" ++
    line_of ".edit_sequence_root .start_editing {" ++ line_of "    color: red;" ++ line_of "    font-weight: bold;" ++ line_of "}" ++
    chars "</style>".
  (** [" ".join(class_names)]. *)
  Fixpoint joined (l : list text) : text :=
    match l with [] => [] | [x] => x | x :: l' => x ++ [32] ++ joined l' end.
  (** edit_dags.py:1940-1957, the class names of a group. *)
  Definition class_names (last_confidence : option (option conf)) (a : option action) (c : option (option conf)) : list text :=
    match a with
    | Some Insert =>
        chars "insert" :: match last_confidence with
                          | Some (Some High) => [chars "was_high_confidence"]
                          | Some (Some Low) => [chars "was_low_confidence"]
                          | _ => []
                          end
    | Some Delete => [chars "delete"]
    | Some Keep => [chars "keep"]
    | Some StartEditing => [chars "start_editing"]
    | _ => []
    end ++
    match c with
    | Some (Some High) => [chars "high_confidence"]
    | Some (Some Low) => [chars "low_confidence"]
    | _ => []
    end.
  (** edit_dags.py:1930-1961, the loop. *)
  Fixpoint edit_parts (marker : text) (last_confidence : option (option conf)) (gs : list group) : text :=
    match gs with
    | [] => []
    | g :: gs' =>
        let put (t : text) :=
          chars "<span class=""" ++ joined (class_names last_confidence (g_action g) (g_conf g)) ++ chars """>" ++
          escape t ++ chars "</span>" ++ edit_parts marker (g_conf g) gs' in
        if eqb (g_action g) (Some StartEditing) then put marker
        else match g_text g with [] => edit_parts marker last_confidence gs' | t => put t end
    end.
  (** edit_dags.py:1866-1964, [extract_edit_sequence_html]. *)
  Definition extract_edit_sequence_html (path : list (edge St decision (option einfo))) (prototype target : storage M)
      (prefix marker style_override : text) : result text :=
    let style := match style_override with [] => edit_style | s => s end in
    do gs <- group_edit_sequence path prototype target;
    Ok (style ++ chars "<span class=""edit_sequence_root"">" ++
        chars "<span class=""prefix"">" ++ escape prefix ++ chars "</span>" ++
        edit_parts marker (Some None) gs ++ chars "</span>").

  (** [EditAction.name] and [EditDagStateConfidence.name]. *)
  Definition action_name (a : action) : string :=
    match a with
    | Keep => "KEEP" | Delete => "DELETE" | Insert => "INSERT"
    | PrototypeDecoration => "PROTOTYPE_DECORATION" | TargetDecoration => "TARGET_DECORATION"
    | StartLowConfidence => "START_LOW_CONFIDENCE" | StartEditing => "START_EDITING" | ActEarlyExit => "EARLY_EXIT"
    end.
  Definition conf_name (c : option conf) : string :=
    match c with Some High => "HIGH_CONFIDENCE" | Some Low => "LOW_CONFIDENCE" | None => "NOT_APPLICABLE" end.
  Definition metric (a : action) (c : option conf) (what : string) : text :=
    chars (action_name a ++ "_" ++ conf_name c ++ "_" ++ what).
  (** A [defaultdict] of numbers. *)
  Fixpoint increase (name : text) (k : cost) (d : list (text * cost)) : list (text * cost) :=
    match d with
    | [] => [(name, cadd (Fin 0) k)]
    | (n, v) :: d' => if eqb n name then (n, cadd v k) :: d' else (n, v) :: increase name k d'
    end.
  Definition count (n : nat) : cost := Fin (Q2Qc (inject_Z (Z.of_nat n))).
  (** edit_dags.py:1967-2014, [extract_edit_summary_metrics]. *)
  Fixpoint metrics_from (prototype target : storage M) (d : list (text * cost)) (path : list (edge St decision (option einfo))) : result (list (text * cost)) :=
    match path with
    | [] => Ok d
    | e :: path' =>
        match info e with
        | Some f =>
            do t <- content prototype target f;
            metrics_from prototype target
              (increase (metric (act f) (at_conf f) "edges") (count 1)
                (increase (metric (act f) (at_conf f) "chars") (count (List.length t))
                  (increase (metric (act f) (at_conf f) "cost") (ecost e) d))) path'
        | None => metrics_from prototype target d path'
        end
    end.
  Definition extract_edit_summary_metrics (path : list (edge St decision (option einfo))) (prototype target : storage M) : result (list (text * cost)) :=
    metrics_from prototype target [] path.
End Report.
