(** Model of the postprocessing of selection paths
    (r_u_sure/edit_distance_utility/part_selection_dags.py:932-1002). *)

From Coq Require Import List Bool Arith Lia QArith Qcanon.
From Verif Require Import Base Graph SeqNodes PackedSeq Decisions SelectionDag EditReport.
Import ListNotations.
Close Scope Qc_scope. Close Scope Q_scope. Close Scope Z_scope. Open Scope nat_scope.

#[export] Instance shown_category_eqdec : EqDec (option scategory).
Proof. intros x y. repeat decide equality. Defined.

(** [itertools.groupby(l, key)], every group as a list. *)
Section GroupBy.
  Context {A K : Type} {kd : EqDec K} (key : A -> K).
  Fixpoint groupby (l : list A) : list (K * list A) :=
    match l with
    | [] => []
    | x :: l' =>
        match groupby l' with
        | (k, g) :: rest => if eqb (key x) k then (k, x :: g) :: rest else (key x, [x]) :: (k, g) :: rest
        | [] => [(key x, [x])]
        end
    end.
End GroupBy.

(** part_selection_dags.py:937-943, [PartSelectionGroup]. *)
Record sgroup := mkSGroup { sg_tokens : list text; sg_category : option scategory; sg_cost : cost }.

Section Report.
  Context {M St : Type}.
  (** part_selection_dags.py:963-967, [_get_category]. *)
  Definition category_of (e : edge St decision (option sinfo)) : option scategory := match info e with Some f => Some (s_category f) | None => None end.
  (** part_selection_dags.py:979-987 (and 989-997), the text of the node with a
      given index if it is a token; [None] is -1. *)
  Definition token_text (S : storage M) (k : option nat) : result (list text) :=
    match k with
    | None => Ok []
    | Some k =>
        do x <- lookup (preorder_traversal S) (Some k);
        match cat x with CToken => do y <- lookup (tokens S) (idx x); Ok [fst y] | _ => Ok [] end
    end.
  (** part_selection_dags.py:972-997, what an edge adds to [content_tokens]. *)
  Definition edge_tokens (prototype target : storage M) (e : edge St decision (option sinfo)) : result (list text) :=
    match info e with
    | None => Ok []
    | Some f => match s_category f with
                | SelectMatched | SelectUnmatched | SkipUnselected => token_text prototype (s_proto f)
                | SkipInTarget => token_text target (s_target f)
                end
    end.
  (** part_selection_dags.py:969-1002, one round of the outer loop. *)
  Definition part_group (prototype target : storage M) (part : option scategory * list (edge St decision (option sinfo))) : result (list sgroup) :=
    do ts <- mapM (edge_tokens prototype target) (snd part);
    let cost := fold_left (fun k e => cadd k (ecost e)) (snd part) (Fin 0) in
    Ok (if negb (eqb cost (Fin 0)) || negb (eqb (concat ts) []) then [mkSGroup (concat ts) (fst part) cost] else []).
  (** part_selection_dags.py:946-1002, [extract_match_groups]. *)
  Definition extract_match_groups (path : list (edge St decision (option sinfo))) (prototype target : storage M) : result (list sgroup) :=
    do gs <- mapM (part_group prototype target) (groupby category_of path);
    Ok (concat gs).
End Report.
