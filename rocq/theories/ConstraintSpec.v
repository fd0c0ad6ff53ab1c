(** What region decisions make sense for a prototype: the specification of the
    constraint DAG, written over the tree of the prototype only.

    The trees carry the preorder index of every node ([pre i]); nothing here
    mentions states, edges or the builder. *)

From Coq Require Import List Bool Arith Lia.
From Verif Require Import Base SeqNodes PackedSeq Decisions.
Import ListNotations.

Section Spec.
  Context {M : Type}.
  Notation L := (lnode M).

  (** The decisions about a node that lies inside a region, nothing of which
      starts or ends a region. *)
  Fixpoint inside (x : L) : list decision :=
    match x with
    | LDeco _ _ => []
    | LToken i _ _ => [((pre i, NodeInRegion), DTrue)]
    | LGroup i cs _ => ((pre i, NodeInRegion), DTrue) :: flat_map inside cs
    | LStart i => [((pre i, RegionShouldStart), DNA)]
    | LEnd i => [((pre i, RegionShouldEnd), DFalse)]
    | LExit i => [((pre i, ShouldEarlyExit), DFalse)]
    end.
  (** ... and when an early exit is taken inside the region. *)
  Inductive inside_exits : list L -> list decision -> Prop :=
  | ie_here i l : inside_exits (LExit i :: l) [((pre i, ShouldEarlyExit), DTrue)]
  | ie_group i cs m l a : inside_exits cs a ->
      inside_exits (LGroup i cs m :: l) (((pre i, NodeInRegion), DTrue) :: a)
  | ie_skip x l a : inside_exits l a -> inside_exits (x :: l) (inside x ++ a).

  (** Well-formed choices for a sequence of siblings outside regions: nodes are
      outside, or in a region that starts at a start node and ends at an end node
      of the same sequence. *)
  Inductive chosen : list L -> list decision -> Prop :=
  | ch_nil : chosen [] []
  | ch_deco i t l a : chosen l a -> chosen (LDeco i t :: l) a
  | ch_token i t m l a : chosen l a -> chosen (LToken i t m :: l) (((pre i, NodeInRegion), DFalse) :: a)
  | ch_group i cs m l a b : chosen cs a -> chosen l b ->
      chosen (LGroup i cs m :: l) (((pre i, NodeInRegion), DFalse) :: a ++ b)
  | ch_no_start i l a : chosen l a -> chosen (LStart i :: l) (((pre i, RegionShouldStart), DFalse) :: a)
  | ch_no_end i l a : chosen l a -> chosen (LEnd i :: l) (((pre i, RegionShouldEnd), DNA) :: a)
  | ch_no_exit i l a : chosen l a -> chosen (LExit i :: l) (((pre i, ShouldEarlyExit), DFalse) :: a)
  | ch_region i inner j l a : chosen l a ->
      chosen (LStart i :: inner ++ LEnd j :: l)
        (((pre i, RegionShouldStart), DTrue) :: flat_map inside inner ++ ((pre j, RegionShouldEnd), DTrue) :: a).
  (** Well-formed choices that stop at an early exit; a region may be open. *)
  Inductive exits : list L -> list decision -> Prop :=
  | ex_here i l : exits (LExit i :: l) [((pre i, ShouldEarlyExit), DTrue)]
  | ex_group i cs m l a : exits cs a ->
      exits (LGroup i cs m :: l) (((pre i, NodeInRegion), DFalse) :: a)
  | ex_region i l a : inside_exits l a ->
      exits (LStart i :: l) (((pre i, RegionShouldStart), DTrue) :: a)
  | ex_skip l1 l2 a b : chosen l1 a -> exits l2 b -> exits (l1 ++ l2) (a ++ b).

  (** A complete choice of regions and, possibly, of an early exit. *)
  Definition region_choice (tree : list L) (ds : list decision) : Prop := chosen tree ds \/ exits tree ds.
End Spec.
