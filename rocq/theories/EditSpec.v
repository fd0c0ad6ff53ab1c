(** What it means to edit a prototype into a target, and what that costs: the
    specification of the edit DAG, written over the two trees only.

    Nothing here mentions states, edges or the builder. *)

From Coq Require Import List Bool Arith ZArith Lia QArith Qcanon.
From Verif Require Import Base SeqNodes PackedSeq Decisions EditDag.
Import ListNotations.
Close Scope Qc_scope. Close Scope Q_scope. Close Scope Z_scope. Open Scope nat_scope.

Section Spec.
  Context {M : Type} (P : parameters).
  Notation L := (lnode M).
  Local Open Scope Qc_scope.

  (** Prices: a rate that may depend on the confidence, times the number of characters. *)
  Definition characters (t : text) : Qc := Q2Qc (inject_Z (Z.of_nat (length t))).
  Definition delete_price (c : conf) (t : text) : Qc :=
    match c with High => high_delete P * characters t | Low => low_delete P * characters t end.
  Definition keep_gain (c : conf) (t : text) : Qc :=
    match c with High => high_match P * characters t | Low => low_match P * characters t end.
  Definition begin_price (c : conf) : Qc := match c with High => high_start P | Low => low_start P end.
  (** A node is marked when the confidence is low. *)
  Definition marked (c : conf) : dvalue := match c with High => DFalse | Low => DTrue end.

  (** A target has no region or early-exit nodes. *)
  Fixpoint text_only (x : L) : Prop :=
    match x with
    | LDeco _ _ | LToken _ _ _ => True
    | LGroup _ cs _ => fold_right (fun c Q => text_only c /\ Q) True cs
    | LStart _ | LEnd _ | LExit _ => False
    end.
  (** Inserting costs [insert_per_char] for every character of every token. *)
  Fixpoint insert_total (x : L) : Qc :=
    match x with
    | LToken _ t _ => insert_per_char P * characters t
    | LGroup _ cs _ => fold_right (fun c k => insert_total c + k) 0 cs
    | _ => 0
    end.
  (** Reading past a node of the prototype that is neither token nor group, from
      one confidence to another, at a cost and with a decision.  Opening a
      low-confidence region costs [region_cost]; nothing else costs anything. *)
  Inductive passes : conf -> L -> Qc -> list decision -> conf -> Prop :=
  | pa_deco c i t : passes c (LDeco i t) 0 [] c
  | pa_no_start i : passes High (LStart i) 0 [((pre i, RegionShouldStart), DFalse)] High
  | pa_start i : passes High (LStart i) (region_cost P) [((pre i, RegionShouldStart), DTrue)] Low
  | pa_start_in i : passes Low (LStart i) 0 [((pre i, RegionShouldStart), DNA)] Low
  | pa_no_end i : passes Low (LEnd i) 0 [((pre i, RegionShouldEnd), DFalse)] Low
  | pa_end i : passes Low (LEnd i) 0 [((pre i, RegionShouldEnd), DTrue)] High
  | pa_end_out i : passes High (LEnd i) 0 [((pre i, RegionShouldEnd), DNA)] High
  | pa_no_exit c i : passes c (LExit i) 0 [((pre i, ShouldEarlyExit), DFalse)] c.
  (** Removing nodes: every character of every token is paid for at the price of
      the confidence it is in.  The result is the confidence afterwards, or
      [None] if a decision to exit early was taken. *)
  Inductive removed : conf -> list L -> Qc -> list decision -> option conf -> Prop :=
  | rm_nil c : removed c [] 0 [] (Some c)
  | rm_pass c x k ds c' l k' ds' r : passes c x k ds c' -> removed c' l k' ds' r ->
      removed c (x :: l) (k + k') (ds ++ ds') r
  | rm_exit c i l : removed c (LExit i :: l) 0 [((pre i, ShouldEarlyExit), DTrue)] None
  | rm_token c i t m l k ds r : removed c l k ds r ->
      removed c (LToken i t m :: l) (delete_price c t + k) (((pre i, NodeInRegion), marked c) :: ds) r
  | rm_group c i cs m l k ds c' k' ds' r : removed c cs k ds (Some c') -> removed c' l k' ds' r ->
      removed c (LGroup i cs m :: l) (k + k') (((pre i, NodeInRegion), marked c) :: ds ++ ds') r
  | rm_group_exit c i cs m l k ds : removed c cs k ds None ->
      removed c (LGroup i cs m :: l) k (((pre i, NodeInRegion), marked c) :: ds) None.

  (** Between two kept nodes there may be an edit: it is begun at a price, then
      nodes of the prototype are removed, then nodes of the target are added. *)
  Inductive gap := Untouched | Removing | Adding.
  Inductive edited : gap -> conf -> list L -> list L -> Qc -> list decision -> option conf -> Prop :=
  | ed_end g c : edited g c [] [] 0 [] (Some c)
  | ed_pass g c x k ds c' ps ts k' ds' r : g <> Adding -> passes c x k ds c' -> edited g c' ps ts k' ds' r ->
      edited g c (x :: ps) ts (k + k') (ds ++ ds') r
  | ed_exit g c i ps ts : g <> Adding -> edited g c (LExit i :: ps) ts 0 [((pre i, ShouldEarlyExit), DTrue)] None
  | ed_begin c ps ts k ds r : edited Removing c ps ts k ds r ->
      edited Untouched c ps ts (begin_price c + k) ds r
  | ed_remove c x ps ts k ds c' k' ds' r : removed c [x] k ds (Some c') -> edited Removing c' ps ts k' ds' r ->
      edited Removing c (x :: ps) ts (k + k') (ds ++ ds') r
  | ed_remove_exit c x ps ts k ds : removed c [x] k ds None -> edited Removing c (x :: ps) ts k ds None
  | ed_add g c y ps ts k ds r : g <> Untouched -> text_only y -> edited Adding c ps ts k ds r ->
      edited g c ps (y :: ts) (insert_total y + k) ds r
  | ed_deco g c ps i t ts k ds r : edited g c ps ts k ds r -> edited g c ps (LDeco i t :: ts) k ds r
  (* keep a token that is the same on both sides *)
  | ed_keep g c i i' t m ps ts k ds r : edited Untouched c ps ts k ds r ->
      edited g c (LToken i t m :: ps) (LToken i' t m :: ts) (- keep_gain c t + k)
        (((pre i, NodeInRegion), marked c) :: ds) r
  (* edit one group into another of the same type *)
  | ed_group g c i cs i' cs' m ps ts k ds c' k' ds' r :
      edited Untouched c cs cs' k ds (Some c') -> edited Untouched c' ps ts k' ds' r ->
      edited g c (LGroup i cs m :: ps) (LGroup i' cs' m :: ts) (k + k')
        (((pre i, NodeInRegion), marked c) :: ds ++ ds') r
  | ed_group_exit g c i cs i' cs' m ps ts k ds : edited Untouched c cs cs' k ds None ->
      edited g c (LGroup i cs m :: ps) (LGroup i' cs' m :: ts) k (((pre i, NodeInRegion), marked c) :: ds) None.

  (** A whole edit starts outside regions and ends there, or exits early. *)
  Definition edit (prototype target : list L) (k : Qc) (ds : list decision) : Prop :=
    edited Untouched High prototype target k ds (Some High) \/ edited Untouched High prototype target k ds None.

  (** ** What is shown. *)
  (** The text nodes of a tree, in order. *)
  Fixpoint text_nodes (x : L) : list nat :=
    match x with
    | LDeco i _ => [pre i]
    | LToken i _ _ => [pre i]
    | LGroup _ cs _ => flat_map text_nodes cs
    | _ => []
    end.
  Fixpoint token_nodes (x : L) : list (nat * (text * M)) :=
    match x with
    | LToken i t m => [(pre i, (t, m))]
    | LGroup _ cs _ => flat_map token_nodes cs
    | _ => []
    end.
End Spec.

(** The nodes of the prototype that an edit reports as kept, deleted or passed... *)
Definition prototype_side (l : list (option einfo)) : list nat :=
  flat_map (fun x => match x with
    | Some f => match act f, proto_node f with
                | (Keep | Delete | PrototypeDecoration), Some i => [i] | _, _ => [] end
    | None => [] end) l.
(** ... and the nodes of the target that it reports as kept, inserted or passed. *)
Definition target_side (l : list (option einfo)) : list nat :=
  flat_map (fun x => match x with
    | Some f => match act f, target_node f with
                | (Keep | Insert | TargetDecoration), Some j => [j] | _, _ => [] end
    | None => [] end) l.
Definition stops (x : option einfo) : Prop := match x with Some f => act f = ActEarlyExit | None => False end.
