(** What a good layout is: vocabulary for the statements about the annotators.  Nothing here mentions a
    function of the code that lays out. *)

From Coq Require Import String.
From Coq Require Import List Bool Arith ZArith Lia QArith Qcanon.
From Verif Require Import Base SeqNodes Graph PackedSeq PackedSeqProofs Numbered Decisions Html ConstraintDag EditDag SelectionDag Drawing DrawSpec.
Import ListNotations.
Close Scope string_scope. Close Scope Qc_scope. Close Scope Q_scope. Close Scope Z_scope. Open Scope nat_scope. Open Scope list_scope.

(** The states that have an edge. *)
Definition has_edge {St As In} (d : dag St As In) (s : St) : Prop :=
  exists e, List.In e (edges d) /\ (s = source e \/ s = dest e).
(** [b] is to the left of [b'], or above it, with some distance. *)
Definition left_of (distance : Qc) (b b' : box) : Prop := (b_left b + b_width b + distance <= b_left b')%Qc.
Definition above (distance : Qc) (b b' : box) : Prop := (b_top b + b_height b + distance <= b_top b')%Qc.
(** Two boxes do not touch: there is a distance [dx] between them horizontally or [dy] vertically. *)
Definition apart (dx dy : Qc) (b b' : box) : Prop :=
  left_of dx b b' \/ left_of dx b' b \/ above dy b b' \/ above dy b' b.
(** One box contains another. *)
Definition encloses (b b' : box) : Prop :=
  (b_left b <= b_left b' /\ b_left b' + b_width b' <= b_left b + b_width b /\
   b_top b <= b_top b' /\ b_top b' + b_height b' <= b_top b + b_height b)%Qc.

(** An edge is drawn well: it goes to the right, or straight down; its line starts and ends on the boxes
    and never turns back. *)
Definition flows (dx dy : Qc) (n : edge_annotation) (src dst : box) : Prop :=
  (e_axis n = Horizontal /\ left_of dx src dst \/
   e_axis n = Vertical /\ b_left src = b_left dst /\ b_width src = b_width dst /\ above dy src dst) /\
  forall p0 p1 p2 p3 dot text dir, connects n src dst p0 p1 p2 p3 dot text dir ->
    in_box src p0 /\ in_box dst p3 /\
    match e_axis n with
    | Horizontal => (px p0 <= px p1 /\ px p1 = px p2 /\ px p2 <= px p3)%Qc /\ py p0 = py p1 /\ py p2 = py p3
    | Vertical => (py p0 <= py p1 /\ py p1 = py p2 /\ py p2 <= py p3)%Qc /\ px p0 = px p1 /\ px p1 = px p2 /\ px p2 = px p3
    end.

Section Trees.
  Context {M : Type}.
  Notation L := (lnode M).
  (** [seq_in T q d l]: the nodes [l] are the sequence called [q] of the tree [T], at depth [d]: the
      root sequence is called -1, the children of a group are called by its preorder index. *)
  Inductive seq_in (T : list L) : Z -> nat -> list L -> Prop :=
  | seq_root : seq_in T (-1)%Z 0 T
  | seq_group q d l p cs m : seq_in T q d l -> In (LGroup p cs m) l -> seq_in T (Z.of_nat (pre p)) (S d) cs.
  (** The leaves of a tree in reading order, each with its sequence and its index there. *)
  Fixpoint leaves_at (q : Z) (i : nat) (x : L) : list (Z * nat * L) :=
    match x with
    | LGroup p cs _ =>
        (fix go (k : nat) (l : list L) : list (Z * nat * L) :=
           match l with [] => [] | c :: l' => leaves_at (Z.of_nat (pre p)) k c ++ go (S k) l' end) 0 cs
    | _ => [(q, i, x)]
    end.
  Fixpoint leaves_from (q : Z) (i : nat) (l : list L) : list (Z * nat * L) :=
    match l with [] => [] | c :: l' => leaves_at q i c ++ leaves_from q (S i) l' end.
  (** [matched T T' q h l l']: sequences [q] (the nodes [l]) of [T] and [h] (the nodes [l']) of [T'] are aligned
      with each other: the root sequences are, and so are the children of any two groups of the same match type
      in aligned sequences. *)
  Inductive matched (T T' : list L) : Z -> Z -> list L -> list L -> Prop :=
  | matched_root : matched T T' (-1)%Z (-1)%Z T T'
  | matched_groups q h l l' p cs m p' ds : matched T T' q h l l' -> In (LGroup p cs m) l -> In (LGroup p' ds m) l' ->
      matched T T' (Z.of_nat (pre p)) (Z.of_nat (pre p')) cs ds.
End Trees.

(** ** Whole layouts *)
Section Laid.
  Context {St In : Type}.
  Variable str_cost : cost -> text.
  (** What is written at an edge: its cost and, in a second line, its decision. *)
  Definition decision_words (c : dcategory) (v : dvalue) : text :=
    chars (match c with RegionShouldStart => "start" | RegionShouldEnd => "end" | NodeInRegion => "in" | ShouldEarlyExit => "exit" end) ++
    chars ": " ++ chars (match v with DTrue => "true" | DFalse => "false" | DNA => "N/A" end).
  Definition edge_words (e : edge St decision In) : text :=
    str_cost (ecost e) ++ match assignment e with Some ((_, c), v) => newline ++ decision_words c v | None => [] end.
  (** Every state that has an edge has a box of the given size with its name in it; no two boxes touch;
      every edge runs to the right or straight down, on the boxes of its ends. *)
  Definition well_laid (d : dag St decision In) (a : annotator St decision In) (width height dx dy : Qc) (name : St -> text) : Prop :=
    (forall s, has_edge d s -> exists n, annotate_state a s = Ok n /\ b_width (s_bounds n) = width /\ b_height (s_bounds n) = height /\ s_text n = name s) /\
    (forall s s' n n', has_edge d s -> has_edge d s' -> s <> s' -> annotate_state a s = Ok n -> annotate_state a s' = Ok n' ->
       apart dx dy (s_bounds n) (s_bounds n')) /\
    (forall e, List.In e (edges d) -> exists n ns nd, annotate_edge a e = Ok n /\ annotate_state a (source e) = Ok ns /\ annotate_state a (dest e) = Ok nd /\
       flows dx dy n (s_bounds ns) (s_bounds nd) /\ e_text n = edge_words e).
  (** A text [b] above all states, in the gap between two columns: those of the states that satisfy [here] and [next]. *)
  Definition between_columns (d : dag St decision In) (a : annotator St decision In) (dy : Qc) (here next : St -> Prop) (b : box) : Prop :=
    forall s n, has_edge d s -> annotate_state a s = Ok n ->
      above dy b (s_bounds n) /\
      (here s -> b_left b = (b_left (s_bounds n) + b_width (s_bounds n))%Qc) /\
      (next s -> b_left (s_bounds n) = (b_left b + b_width b)%Qc).
  (** A text to the left of all states, in the gap below all those that satisfy [here] and above those that satisfy [next]. *)
  Definition between_lines (d : dag St decision In) (a : annotator St decision In) (dx : Qc) (here next : St -> Prop) (b : box) : Prop :=
    forall s n, has_edge d s -> annotate_state a s = Ok n ->
      left_of dx b (s_bounds n) /\ (here s -> above 0%Qc (s_bounds n) b) /\ (next s -> above 0%Qc b (s_bounds n)).
End Laid.

(** The names of the states. *)
Definition constraint_name (s : cstate) : text :=
  chars (match s with
         | CAt Outside _ _ _ => "Outside" | CAt Temporary _ _ _ => "In region" | CAt Forced _ _ _ => "In region (forced)"
         | CFinal => "Final State"
         end).
Definition edit_name (s : estate) : text :=
  match s with
  | EFinal => chars "Final State"
  | EAt a c _ _ _ _ =>
      chars (match a with
             | PROCESS => "Advance " | DELETE => "Delete " | INSERT => "Insert " | MATCH => "Match "
             | RDELETE => "Delete (forced) " | RINSERT => "Insert (forced) "
             end) ++ chars (match c with High => "High" | Low => "Low" end)
  end.
Definition selection_name (s : sstate) : text :=
  chars (match s with
         | SAt SkipUnselected _ _ => "Skip Prototype" | SAt SkipInTarget _ _ => "Skip Target"
         | SAt SelectUnmatched _ _ => "Unmatched" | SAt SelectMatched _ _ => "Matched"
         | SFinal => "Final State"
         end).
(** What is written for a leaf: its text, or a sign. *)
Definition leaf_words {M} (repr_text : text -> text) (x : lnode M) (t : text) : Prop :=
  match x with
  | LToken _ s _ | LDeco _ s => t = repr_text s
  | LStart _ => t = [Z.to_nat 10218]
  | LEnd _ => t = [Z.to_nat 10219]
  | LExit _ => t = [Z.to_nat 10142; 124]
  | LGroup _ _ _ => False
  end.
(** In the target a decision node, which no utility function puts there, is shown by its id. *)
Definition target_words {M} (repr_text : text -> text) (repr_id : node_id -> text) (x : lnode M) (t : text) : Prop :=
  match x with
  | LToken _ s _ | LDeco _ s => t = repr_text s
  | _ => t = repr_id (label x)
  end.
(** What is written for the visits of a tree by the selection layout, in order. *)
Fixpoint visit_words {M} (in_target : bool) (repr_text : text -> text) (repr_visit : item -> text) (x : lnode M) : list text :=
  match x with
  | LToken _ t _ => [repr_text t]
  | LDeco _ _ => []
  | LStart i => [if in_target then repr_visit (VLeaf, i) else chars "Region Start"]
  | LEnd i => [if in_target then repr_visit (VLeaf, i) else chars "Region End"]
  | LExit i => [repr_visit (VLeaf, i)]
  | LGroup _ cs _ => chars "Group Start" :: flat_map (visit_words in_target repr_text repr_visit) cs ++ [chars "Group End"]
  end.
(** A list with the position of each element *)
Definition counted {A} (l : list A) : list (nat * A) := combine (seq 0 (length l)) l.
