(** What the debug view of a list of nodes should be: the nodes in reading order, one to a line, children indented
    by two blanks more than their parent. *)

From Coq Require Import String.
From Coq Require Import List Bool Arith.
From Verif Require Import Base SeqNodes Html.
Import ListNotations.
Close Scope string_scope. Open Scope nat_scope. Open Scope list_scope.

(** The nodes in reading order, parents before their children, with their depths. *)
Fixpoint outline {M} (depth : nat) (n : node M) : list (nat * node M) :=
  (depth, n) :: match n with Group cs _ => flat_map (outline (S depth)) cs | _ => [] end.

(** What a line says about its node: its kind, its match type if it has one, its text (the beginning of a long one). *)
Definition kind_word {M} (n : node M) : string :=
  (match n with
   | Deco _ => "DEC" | Token _ _ => "TOK" | Group _ _ => "GROUP"
   | RegionStart => "RegionStartNode()" | RegionEnd => "RegionEndNode()" | EarlyExit => "EarlyExitNode()"
   end)%string.
Definition match_type_of {M} (n : node M) : option M := match n with Token _ m | Group _ m => Some m | _ => None end.
Definition is_text {M} (n : node M) : Prop := match n with Deco _ | Token _ _ | Group _ _ => True | _ => False end.

Inductive describes {M} (repr : text -> text) (type_text : M -> option text) (n : node M) : text -> Prop :=
| describes_decision : ~ is_text n -> describes repr type_text n (chars (kind_word n))
| describes_text : forall type contents, is_text n ->
    match match_type_of n with
    | Some m => match type_text m with Some t => type = chars "(" ++ t ++ chars ")" | None => type = [] end
    | None => type = []
    end ->
    (length (render_node n) <= 80 -> contents = repr (render_node n)) ->
    (80 < length (render_node n) -> contents = repr (firstn 77 (render_node n)) ++ chars "...") ->
    describes repr type_text n (chars (kind_word n) ++ type ++ chars ": " ++ contents).

(** All texts of the leaves are short enough to be shown in full. *)
Inductive short {M} : node M -> Prop :=
| short_deco : forall t, length t <= 80 -> short (Deco t)
| short_token : forall t m, length t <= 80 -> short (Token t m)
| short_start : short RegionStart
| short_end : short RegionEnd
| short_exit : short EarlyExit
| short_group : forall cs m, (forall c, In c cs -> short c) -> short (Group cs m).
