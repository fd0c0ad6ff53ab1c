(** What the call-sequence wrapper should find and show: specification over node
    sequences only. *)

From Coq Require Import String.
From Coq Require Import List Bool Arith Lia.
From Verif Require Import Base SeqNodes RegionDecisions Html CallSequence.
Import ListNotations.
Close Scope string_scope. Open Scope nat_scope. Open Scope list_scope.

(** A call: the nodes before the parenthesis, and what is between the
    parentheses. *)
Record call := mkCall { callee : list N; arguments : N }.

Definition parenthesis (inner closing : N) : N := Group [Token (chars "(") (chars "MATCH_LEFT"); inner; closing] (chars "MATCH").
Definition is_deco (n : N) : Prop := exists t, n = Deco t.
Definition not_group (n : N) : Prop := forall cs m, n <> Group cs m.
Definition keyword (k : text) : N := Token k (chars "CONTENT_LEAF").

(** The first group of a sequence is a parenthesis right behind a token, and what
    precedes it is not a definition: the call starts at the first node that is
    not a decoration. *)
Definition call_in (l : list N) (c : call) (after : list N) : Prop :=
  exists lead before t m closing,
    l = lead ++ callee c ++ parenthesis (arguments c) closing :: after /\
    callee c = before ++ [Token t m] /\
    Forall is_deco lead /\ Forall not_group (callee c) /\
    (forall n rest, callee c = n :: rest -> ~ is_deco n /\ n <> keyword (chars "def") /\ n <> keyword (chars "class")).

(** The calls of a sequence, in order.  A sequence has at most one call of its
    own; nothing is looked for inside its arguments.  Everywhere else the groups
    are searched. *)
Inductive finds : list N -> list call -> Prop :=
| finds_call l c after cs : call_in l c after -> finds_within after cs -> finds l (c :: cs)
| finds_none l cs : (forall c after, ~ call_in l c after) -> finds_within l cs -> finds l cs
with finds_within : list N -> list call -> Prop :=
| within_nil : finds_within [] []
| within_leaf n l cs : not_group n -> finds_within l cs -> finds_within (n :: l) cs
| within_group kids m l cs cs' : finds kids cs -> finds_within l cs' -> finds_within (Group kids m :: l) (cs ++ cs').

(** How a call is written. *)
Definition spelled (c : call) : text := render (callee c) ++ chars "(" ++ render_node (arguments c).
(** Texts that occur in a text in this order without overlapping. *)
Inductive in_order : list text -> text -> Prop :=
| io_nil t : in_order [] t
| io_cons gap t ts rest : in_order ts rest -> in_order (t :: ts) (gap ++ t ++ rest).

Section Marked.
  Variables (isspace : nat -> bool) (expected : list text).
  Definition white (t : text) : Prop := t <> [] /\ Forall (fun c => isspace c = true) t.
  (** A call with the places where regions may start (at the beginning, before a
      dot, after white space) and end (after either parenthesis). *)
  Inductive marked : list N -> list N -> Prop :=
  | mk_nil : marked [] []
  | mk_dot l o : marked l o -> marked (keyword (chars ".") :: l) (RegionStart :: Token (chars ".") (chars "ATTRIBUTE_DOT") :: o)
  | mk_expected t m l o : Token t m <> keyword (chars ".") -> In t expected -> marked l o ->
      marked (Token t m :: l) (Token t (chars "EXPECTED") :: o)
  | mk_novel t m l o : Token t m <> keyword (chars ".") -> ~ In t expected -> marked l o ->
      marked (Token t m :: l) (Token t (chars "NOVEL") :: o)
  | mk_white t l o : white t -> marked l o -> marked (Deco t :: l) (Deco t :: RegionStart :: o)
  | mk_deco t l o : ~ white t -> marked l o -> marked (Deco t :: l) (Deco t :: o)
  | mk_start l o : marked l o -> marked (RegionStart :: l) o
  | mk_end l o : marked l o -> marked (RegionEnd :: l) o
  | mk_exit l o : marked l o -> marked (EarlyExit :: l) o.
  Definition marked_call (c : call) (seq : list N) : Prop :=
    exists body args_type, marked (callee c) body /\
      seq = RegionStart :: body ++
            [Token (chars "(") (chars "START_CALL"); RegionEnd; Token (render_node (arguments c)) args_type;
             Token (chars ")") (chars "END_CALL"); RegionEnd] /\
      (render_node (arguments c) = [] -> args_type = chars "EMPTY_ARGS") /\
      (render_node (arguments c) <> [] -> args_type = chars "ARGS").
End Marked.

(** ** The baselines. *)
Definition part_of (b : bool) (n : N) : list part :=
  match n with Token t _ | Deco t => [(t, b)] | _ => [] end.
Definition outside (l : list N) : list part := flat_map (part_of false) l.
Definition highlighted (l : list N) : list part := flat_map (part_of true) l.
(** The short region of a call: from the last white space (or the beginning) to
    the opening parenthesis. *)
Definition short_region (seq a m z : list N) : Prop :=
  seq = a ++ RegionStart :: m ++ RegionEnd :: z /\
  Forall (fun n => ~ is_deco n) m /\ (a = [] \/ exists a' t, a = a' ++ [Deco t]) /\
  (exists m', m = m' ++ [Token (chars "(") (chars "START_CALL")]) /\ length z = 3.
Definition has_novel (m : list N) : Prop := exists t, In (Token t (chars "NOVEL")) m.
Definition shows_full (seq : list N) (ps : list part) : Prop := ps = highlighted seq.
Definition shows_short (seq : list N) (ps : list part) : Prop :=
  exists a m z, short_region seq a m z /\ ps = outside a ++ highlighted m ++ outside z.
Definition shows_novel (seq : list N) (ps : list part) : Prop :=
  exists a m z, short_region seq a m z /\
    ((has_novel m /\ ps = outside a ++ highlighted m ++ outside z) \/ (~ has_novel m /\ ps = outside seq)).
(** What is shown for all calls: one per line. *)
Inductive shows (pick : list N -> list part -> Prop) : list (list N) -> list part -> Prop :=
| shows_nil : shows pick [] []
| shows_cons seq seqs ps out : pick seq ps -> shows pick seqs out -> shows pick (seq :: seqs) (ps ++ (s_newline, false) :: out).
