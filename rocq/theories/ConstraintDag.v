(** Model of r_u_sure/edit_distance_utility/constraint_dags.py. *)

From Coq Require Import List Bool Arith ZArith Lia QArith Qcanon.
From Verif Require Import Base Graph GatedDag SeqNodes PackedSeq Numbered Decisions Convert.
Import ListNotations.
Close Scope Qc_scope. Close Scope Q_scope. Close Scope Z_scope. Open Scope nat_scope.

(** constraint_dags.py:80-87 (all but the final state's category). *)
Inductive ccategory := Outside | Temporary | Forced.
(** constraint_dags.py:107-138, [ConstraintDagState] and [FINAL_STATE]; the
    sequence index is -1 for the root sequence. *)
Inductive cstate :=
| CAt (c : ccategory) (sequence : Z) (before : nat) (level : nat)
| CFinal.
#[export] Instance ccategory_eqdec : EqDec ccategory.
Proof. intros x y. decide equality. Defined.
#[export] Instance cstate_eqdec : EqDec cstate.
Proof. intros x y. decide equality; auto using Nat.eq_dec, Z.eq_dec, ccategory_eqdec. Defined.
Definition ROOT : Z := (-1)%Z.

(** constraint_dags.py:145-153: the edge information is [None] or says that the
    edge is an early exit. *)
Inductive cinfo := NoInfo | EarlyExitInfo.
Definition cedge : Type := edge cstate decision cinfo.
Definition free (s t : cstate) : cedge := mkEdge s t (Fin 0) None NoInfo.
Definition deciding (s t : cstate) (i : nat) (c : dcategory) (v : dvalue) : cedge :=
  mkEdge s t (Fin 0) (Some ((i, c), v)) NoInfo.
Definition exiting (s : cstate) (i : nat) : cedge :=
  mkEdge s CFinal (Fin 0) (Some ((i, ShouldEarlyExit), DTrue)) EarlyExitInfo.

Section Builder.
  Context {M : Type}.
  Notation L := (lnode M).

  (** constraint_dags.py:644-812, one round of the loop of
      [build_prototype_subgraph_inside_region]. *)
  Fixpoint inside_node (q : Z) (lvl k : nat) (x : L) {struct x} : list cedge :=
    let s := CAt Forced q k lvl in
    let t := CAt Forced q (S k) lvl in
    match x with
    | LDeco _ _ => [free s t]
    | LToken i _ _ => [deciding s t (pre i) NodeInRegion DTrue]
    | LGroup i cs _ =>
        let g := Z.of_nat (pre i) in
        deciding s (CAt Forced g 0 lvl) (pre i) NodeInRegion DTrue ::
        (fix go (k : nat) (l : list L) : list cedge :=
           match l with [] => [] | c :: l' => inside_node g lvl k c ++ go (S k) l' end) 0 cs ++
        [free (CAt Forced g (length cs) lvl) t]
    | LStart i => [deciding s t (pre i) RegionShouldStart DNA]
    | LEnd i => [deciding s t (pre i) RegionShouldEnd DFalse]
    | LExit i => [exiting s (pre i); deciding s t (pre i) ShouldEarlyExit DFalse]
    end.
  Fixpoint inside_list (q : Z) (lvl k : nat) (l : list L) : list cedge :=
    match l with [] => [] | c :: l' => inside_node q lvl k c ++ inside_list q lvl (S k) l' end.

  (** constraint_dags.py:313-607, one round of the loop of
      [build_prototype_subgraph_from_outside_region]. *)
  Fixpoint outside_node (q : Z) (lvl k : nat) (x : L) {struct x} : list cedge :=
    let o := CAt Outside q k lvl in
    let o' := CAt Outside q (S k) lvl in
    let r := CAt Temporary q k lvl in
    let r' := CAt Temporary q (S k) lvl in
    match x with
    | LDeco _ _ => [free o o'; free r r']
    | LToken i _ _ => [deciding o o' (pre i) NodeInRegion DFalse; deciding r r' (pre i) NodeInRegion DTrue]
    | LGroup i cs _ =>
        let g := Z.of_nat (pre i) in
        (deciding o (CAt Outside g 0 (S lvl)) (pre i) NodeInRegion DFalse ::
         (fix go (k : nat) (l : list L) : list cedge :=
            match l with [] => [] | c :: l' => outside_node g (S lvl) k c ++ go (S k) l' end) 0 cs ++
         [free (CAt Outside g (length cs) (S lvl)) o']) ++
        (deciding r (CAt Forced g 0 lvl) (pre i) NodeInRegion DTrue ::
         inside_list g lvl 0 cs ++
         [free (CAt Forced g (length cs) lvl) r'])
    | LStart i =>
        [deciding o o' (pre i) RegionShouldStart DFalse;
         deciding o r' (pre i) RegionShouldStart DTrue;
         deciding r r' (pre i) RegionShouldStart DNA]
    | LEnd i =>
        [deciding r r' (pre i) RegionShouldEnd DFalse;
         deciding r o' (pre i) RegionShouldEnd DTrue;
         deciding o o' (pre i) RegionShouldEnd DNA]
    | LExit i =>
        [exiting o (pre i); deciding o o' (pre i) ShouldEarlyExit DFalse;
         exiting r (pre i); deciding r r' (pre i) ShouldEarlyExit DFalse]
    end.
  Fixpoint outside_list (q : Z) (lvl k : nat) (l : list L) : list cedge :=
    match l with [] => [] | c :: l' => outside_node q lvl k c ++ outside_list q lvl (S k) l' end.

  (** constraint_dags.py:209-268, [construct_constraint_dag]. *)
  Definition construct_constraint_dag (prototype : storage M) : result (dag cstate decision cinfo) :=
    do tree <- read_tree prototype;
    do partial <- add_edges (partial_starting_from (CAt Outside ROOT 0 0))
      (outside_list ROOT 0 0 tree ++
       [free (CAt Outside ROOT (length (root_sequence prototype)) 0) CFinal]);
    Ok (partial_finish partial CFinal).

  (** constraint_dags.py:823-833, [pack_dag]. *)
  Definition pack_constraint_dag (d : dag cstate decision cinfo) :=
    convert_dag_to_packed dkey_leb dvalue_leb d DNA (Some all_values).
End Builder.
