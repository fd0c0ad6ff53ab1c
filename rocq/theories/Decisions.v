(** The shared decisions of region_decisions.py. *)

From Coq Require Import List Bool Arith Lia.
From Verif Require Import Base.
Import ListNotations.

(** region_decisions.py:54-60, [DecisionCategory], in the order of its values. *)
Inductive dcategory := RegionShouldStart | RegionShouldEnd | NodeInRegion | ShouldEarlyExit.
(** region_decisions.py:89-98, [DecisionValue], in the order of its values. *)
Inductive dvalue := DFalse | DTrue | DNA.
#[export] Instance dcategory_eqdec : EqDec dcategory.
Proof. intros x y. decide equality. Defined.
#[export] Instance dvalue_eqdec : EqDec dvalue.
Proof. intros x y. decide equality. Defined.

(** region_decisions.py:78-82, [DecisionKey]: preorder index and category. *)
Definition dkey : Type := nat * dcategory.
(** gated_state_dag.py:58-62, [SharedVariableAssignment]. *)
Definition decision : Type := dkey * dvalue.

(** Python's order on the two components of a [DecisionKey]. *)
Definition category_value (c : dcategory) : nat :=
  match c with RegionShouldStart => 1 | RegionShouldEnd => 2 | NodeInRegion => 3 | ShouldEarlyExit => 4 end.
Definition dkey_leb (a b : dkey) : bool :=
  (fst a <? fst b) || ((fst a =? fst b) && (category_value (snd a) <=? category_value (snd b))).
Definition value_number (v : dvalue) : nat := match v with DFalse => 1 | DTrue => 2 | DNA => 3 end.
Definition dvalue_leb (a b : dvalue) : bool := value_number a <=? value_number b.
(** [list(DecisionValue)], the value ordering given to the packer
    (constraint_dags.py:832, edit_dags.py:1686). *)
Definition all_values : list dvalue := [DFalse; DTrue; DNA].
