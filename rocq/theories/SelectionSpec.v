(** What a selection of parts is: the specification of the selection DAG, written
    over the in-order walks of the prototype and the target only.  Nothing here
    mentions states, edges or the builder. *)

From Coq Require Import List Bool Arith Lia QArith Qcanon.
From Verif Require Import Base SeqNodes PackedSeq Decisions SelectionDag.
Import ListNotations.
Close Scope Qc_scope. Close Scope Q_scope. Close Scope Z_scope. Open Scope nat_scope.

Section Spec.
  Context {M : Type} (U : text -> M -> utilities).
  Notation L := (lnode M).

  (** A step of the walk through a tree; [k] is the preorder index of the node. *)
  Inductive step :=
  | WToken (k : nat) (t : text) (m : M)
  | WOpen (k : nat) (m : M)
  | WClose (k : nat) (m : M)
  | WStart (k : nat)
  | WEnd (k : nat)
  | WExit (k : nat).
  Fixpoint walk (x : L) : list step :=
    match x with
    | LDeco _ _ => []
    | LToken i t m => [WToken (pre i) t m]
    | LGroup i cs m => WOpen (pre i) m :: flat_map walk cs ++ [WClose (pre i) m]
    | LStart i => [WStart (pre i)]
    | LEnd i => [WEnd (pre i)]
    | LExit i => [WExit (pre i)]
    end.
  Definition walks (tree : list L) : list step := flat_map walk tree.

  (** What can be seen of a step. *)
  Inductive sight := Text (t : text) (m : M) | Open (m : M) | Close (m : M).
  Definition sights (x : step) : list sight :=
    match x with
    | WToken _ t m => [Text t m] | WOpen _ m => [Open m] | WClose _ m => [Close m] | _ => []
    end.
  (** Costs of selecting: matched tokens gain, unmatched ones cost. *)
  Definition gain (x : step) : Qc := match x with WToken _ t m => match_utility (U t m) | _ => 0 end.
  Definition penalty (x : step) : Qc := match x with WToken _ t m => delete_cost (U t m) | _ => 0 end.
  Definition total_of (f : step -> Qc) (l : list step) : Qc := fold_right (fun x s => (f x + s)%Qc) 0%Qc l.

  (** The decisions about a step outside of all selected parts. *)
  Definition left_out (x : step) : list decision :=
    match x with
    | WToken k _ _ | WOpen k _ => [((k, NodeInRegion), DFalse)]
    | WClose _ _ => []
    | WStart k => [((k, RegionShouldStart), DFalse)]
    | WEnd k => [((k, RegionShouldEnd), DNA)]
    | WExit k => []
    end.
  (** The decisions about a step inside a selected part. *)
  Definition taken (x : step) : list decision :=
    match x with
    | WToken k _ _ | WOpen k _ => [((k, NodeInRegion), DTrue)]
    | WClose _ _ => []
    | WStart k => [((k, RegionShouldStart), DNA)]
    | WEnd k => [((k, RegionShouldEnd), DFalse)]
    | WExit k => []
    end.
  Definition no_exit (x : step) : Prop := match x with WExit _ => False | _ => True end.

  (** The walk begins with a region end. *)
  Definition begins_with_end (ws : list step) : Prop := match ws with WEnd _ :: _ => True | _ => False end.

  (** [selection from to k ds]: parts of [from], each from a region start to a
      region end, are selected as [ds] says; every part either is looked for in
      [to] and found, as a contiguous run after the previous one found, or is
      paid for; [k] is the cost. *)
  Inductive selection : list step -> list step -> Qc -> list decision -> Prop :=
  | sel_nothing to : selection [] to 0%Qc []
  | sel_leave x from to k ds : no_exit x -> selection from to k ds ->
      selection (x :: from) to k (left_out x ++ ds)
  | sel_found i part j from gap run to k ds :
      Forall no_exit part -> flat_map sights part = flat_map sights run -> selection from to k ds ->
      selection (WStart i :: part ++ WEnd j :: from) (gap ++ run ++ to) (k - total_of gain part)%Qc
        (((i, RegionShouldStart), DTrue) :: flat_map taken part ++ ((j, RegionShouldEnd), DTrue) :: ds)
  | sel_lost i part j from to k ds :
      Forall no_exit part -> selection from to k ds ->
      selection (WStart i :: part ++ WEnd j :: from) to (total_of penalty part + k)%Qc
        (((i, RegionShouldStart), DTrue) :: flat_map taken part ++ ((j, RegionShouldEnd), DTrue) :: ds).
End Spec.
