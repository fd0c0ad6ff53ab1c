(** Model of the DAG builder of r_u_sure/edit_distance_utility/edit_dags.py. *)

From Coq Require Import List Bool Arith ZArith Lia QArith Qcanon.
From Verif Require Import Base Graph GatedDag SeqNodes PackedSeq Numbered Decisions Convert.
Import ListNotations.
Close Scope Qc_scope. Close Scope Q_scope. Close Scope Z_scope. Open Scope nat_scope.

(** edit_dags.py:148-175, [TrustRegionUtilityParameters].  Simplification: exact
    finite rationals for floats. *)
Record parameters := mkParams {
  high_match : Qc;   (* high_confidence_match_utility_per_char *)
  high_delete : Qc;  (* high_confidence_delete_cost_per_char *)
  low_match : Qc;    (* low_confidence_match_utility_per_char *)
  low_delete : Qc;   (* low_confidence_delete_cost_per_char *)
  insert_per_char : Qc;
  region_cost : Qc;  (* low_confidence_region_cost *)
  high_start : Qc;   (* high_confidence_start_editing_cost *)
  low_start : Qc     (* low_confidence_start_editing_cost *)
}.

(** edit_dags.py:209-245, [EditDagStateAlignment] (all but the final state's). *)
Inductive align := PROCESS | DELETE | INSERT | MATCH | RDELETE | RINSERT.
(** edit_dags.py:278-283, the two confidences of states; [None] stands for
    NOT_APPLICABLE in edge information. *)
Inductive conf := High | Low.
(** edit_dags.py:313-344, [EditDagState] and [FINAL_STATE]; sequence index -1 is
    the root sequence. *)
Inductive estate :=
| EAt (a : align) (c : conf) (pseq : Z) (ppos : nat) (tseq : Z) (tpos : nat)
| EFinal.
#[export] Instance align_eqdec : EqDec align.
Proof. intros x y. decide equality. Defined.
#[export] Instance conf_eqdec : EqDec conf.
Proof. intros x y. decide equality. Defined.
#[export] Instance estate_eqdec : EqDec estate.
Proof. intros x y. decide equality; auto using Nat.eq_dec, Z.eq_dec, align_eqdec, conf_eqdec. Defined.

(** edit_dags.py:351-364, [EditAction]. *)
Inductive action :=
| Keep | Delete | Insert | PrototypeDecoration | TargetDecoration
| StartLowConfidence | StartEditing | ActEarlyExit.
(** edit_dags.py:367-383, [EditDagEdgeInfo]; [None] for NO_PREORDER_INDEX. *)
Record einfo := mkInfo { proto_node : option nat; target_node : option nat; act : action; at_conf : option conf }.
(** The information of an edge may be Python's None. *)
Definition eedge : Type := edge estate decision (option einfo).

Definition ROOT_SEQ : Z := (-1)%Z.
(** edit_dags.py:178-203, [token_node_utility_from_parameters]: a parameter
    times the length of the token. *)
Definition per_char (u : Qc) (t : text) : Qc := (u * Q2Qc (inject_Z (Z.of_nat (length t))))%Qc.
(** edit_dags.py:443-451, [node_in_low_confidence_value]. *)
Definition in_low (c : conf) : dvalue := match c with Low => DTrue | High => DFalse end.
(** The loops over the two confidences. *)
Definition both (f : conf -> list eedge) : list eedge := f High ++ f Low.
Definition delete_cost (P : parameters) (c : conf) (t : text) : Qc :=
  per_char (match c with High => high_delete P | Low => low_delete P end) t.
Definition match_utility (P : parameters) (c : conf) (t : text) : Qc :=
  per_char (match c with High => high_match P | Low => low_match P end) t.
Definition start_cost (P : parameters) (c : conf) : Qc :=
  match c with High => high_start P | Low => low_start P end.

Section Builder.
  Context {M : Type} {md : EqDec M} (P : parameters).
  Notation L := (lnode M).

  (** edit_dags.py:780-785 and 961-1073: the part of
      [maybe_delete_node_or_advance_in_prototype] that does not depend on
      [allow_delete].  The node is child [i] of sequence [q] of the prototype;
      the code reads that position back from the storage (766-774), which for
      packed trees is the same (theorem C27_parents). *)
  Definition advance (a : align) (q : Z) (i : nat) (h : Z) (j : nat) (x : L) : list eedge :=
    let at_ c := EAt a c q i h j in
    let next c := EAt a c q (S i) h j in
    match x with
    | LDeco p _ => both (fun c =>
        [mkEdge (at_ c) (next c) (Fin 0) None (Some (mkInfo (Some (pre p)) None PrototypeDecoration (Some c)))])
    | LStart p =>
        [mkEdge (at_ High) (next High) (Fin 0) (Some ((pre p, RegionShouldStart), DFalse)) None;
         mkEdge (at_ High) (next Low) (Fin (region_cost P)) (Some ((pre p, RegionShouldStart), DTrue))
           (Some (mkInfo (Some (pre p)) None StartLowConfidence None));
         mkEdge (at_ Low) (next Low) (Fin 0) (Some ((pre p, RegionShouldStart), DNA)) None]
    | LEnd p =>
        [mkEdge (at_ Low) (next Low) (Fin 0) (Some ((pre p, RegionShouldEnd), DFalse)) None;
         mkEdge (at_ Low) (next High) (Fin 0) (Some ((pre p, RegionShouldEnd), DTrue)) None;
         mkEdge (at_ High) (next High) (Fin 0) (Some ((pre p, RegionShouldEnd), DNA)) None]
    | LExit p => both (fun c =>
        [mkEdge (at_ c) EFinal (Fin 0) (Some ((pre p, ShouldEarlyExit), DTrue))
           (Some (mkInfo (Some (pre p)) None ActEarlyExit (Some c)));
         mkEdge (at_ c) (next c) (Fin 0) (Some ((pre p, ShouldEarlyExit), DFalse)) None])
    | LToken _ _ _ => []
    | LGroup _ _ _ => []
    end.
  (** edit_dags.py:730-1073 with [allow_delete=True]; with the loop of
      [build_recursive_delete_subsequence] (1569-1579) for groups. *)
  Fixpoint remove (a : align) (q : Z) (i : nat) (h : Z) (j : nat) (x : L) {struct x} : list eedge :=
    let at_ c := EAt a c q i h j in
    let next c := EAt a c q (S i) h j in
    match x with
    | LToken p t _ => both (fun c =>
        [mkEdge (at_ c) (next c) (Fin (delete_cost P c t)) (Some ((pre p, NodeInRegion), in_low c))
           (Some (mkInfo (Some (pre p)) None Delete (Some c)))])
    | LGroup p cs _ =>
        let g := Z.of_nat (pre p) in
        both (fun c =>
          [mkEdge (at_ c) (EAt RDELETE c g 0 h j) (Fin 0) (Some ((pre p, NodeInRegion), in_low c)) None]) ++
        (fix go (k : nat) (l : list L) : list eedge :=
           match l with [] => [] | c :: l' => remove RDELETE g k h j c ++ go (S k) l' end) 0 cs ++
        both (fun c => [mkEdge (EAt RDELETE c g (length cs) h j) (next c) (Fin 0) None None])
    | _ => advance a q i h j x
    end.
  Fixpoint remove_list (q : Z) (k : nat) (h : Z) (j : nat) (l : list L) : list eedge :=
    match l with [] => [] | c :: l' => remove RDELETE q k h j c ++ remove_list q (S k) h j l' end.

  (** edit_dags.py:602-625, skipping a decoration of the target. *)
  Definition skip (a : align) (q : Z) (i : nat) (h : Z) (j : nat) (y : L) : list eedge :=
    match y with
    | LDeco p _ => both (fun c =>
        [mkEdge (EAt a c q i h j) (EAt a c q i h (S j)) (Fin 0) None
           (Some (mkInfo None (Some (pre p)) TargetDecoration (Some c)))])
    | _ => []
    end.
  (** edit_dags.py:542-727 with [allow_insert=True] and the loop of
      [build_recursive_insert_subsequence] (1635-1646). *)
  Fixpoint add (a : align) (q : Z) (i : nat) (h : Z) (j : nat) (y : L) {struct y} : list eedge :=
    let at_ c := EAt a c q i h j in
    let next c := EAt a c q i h (S j) in
    match y with
    | LToken p t _ => both (fun c =>
        [mkEdge (at_ c) (next c) (Fin (per_char (insert_per_char P) t)) None
           (Some (mkInfo None (Some (pre p)) Insert None))])
    | LGroup p ds _ =>
        let g := Z.of_nat (pre p) in
        both (fun c => [mkEdge (at_ c) (EAt RINSERT c q i g 0) (Fin 0) None None]) ++
        (fix go (k : nat) (l : list L) : list eedge :=
           match l with [] => [] | c :: l' => add RINSERT q i g k c ++ go (S k) l' end) 0 ds ++
        both (fun c => [mkEdge (EAt RINSERT c q i g (length ds)) (next c) (Fin 0) None None])
    | _ => skip a q i h j y
    end.
  Fixpoint add_list (q : Z) (i : nat) (h : Z) (k : nat) (l : list L) : list eedge :=
    match l with [] => [] | c :: l' => add RINSERT q i h k c ++ add_list q i h (S k) l' end.

  (** edit_dags.py:1330-1392, keeping a token. *)
  Definition keep (q : Z) (i : nat) (h : Z) (j : nat) (x y : L) : list eedge :=
    match x, y with
    | LToken p t m, LToken p' t' m' =>
        if eqb t' t && eqb m' m then
          both (fun c =>
            [mkEdge (EAt MATCH c q i h j) (EAt PROCESS c q (S i) h (S j)) (Fin (- match_utility P c t)%Qc)
               (Some ((pre p, NodeInRegion), in_low c))
               (Some (mkInfo (Some (pre p)) (Some (pre p')) Keep (Some c)))])
        else []
    | _, _ => []
    end.
  Definition on {A} (f : L -> list A) (x : option L) : list A := match x with Some x => f x | None => [] end.
  (** edit_dags.py:1153-1392, what the body of the two loops does at positions
      [i] and [j] before groups are matched; [None] for INVALID_NODE_ID past the
      end. *)
  Definition here (q : Z) (i : nat) (h : Z) (j : nat) (x y : option L) : list eedge :=
    let at_ a c := EAt a c q i h j in
    on (advance PROCESS q i h j) x ++
    both (fun c =>
      [mkEdge (at_ PROCESS c) (at_ DELETE c) (Fin (start_cost P c)) None
         (Some (mkInfo None None StartEditing (Some c)));
       mkEdge (at_ PROCESS c) (at_ MATCH c) (Fin 0) None None]) ++
    on (remove DELETE q i h j) x ++
    both (fun c => [mkEdge (at_ DELETE c) (at_ INSERT c) (Fin 0) None None]) ++
    on (add INSERT q i h j) y ++
    both (fun c => [mkEdge (at_ INSERT c) (at_ MATCH c) (Fin 0) None None]) ++
    on (skip MATCH q i h j) y ++
    match x, y with Some x, Some y => keep q i h j x y | _, _ => [] end.
  (** The inner loop (1158-1508), over the target. *)
  Fixpoint row (base : nat -> option L -> list eedge) (sub : nat -> L -> list eedge) (j : nat) (ts : list L)
    : list eedge :=
    match ts with
    | [] => base j None
    | y :: ts' => base j (Some y) ++ sub j y ++ row base sub (S j) ts'
    end.
  (** The outer loop's last round, past the end of the prototype. *)
  Definition last_row (q h : Z) (i : nat) (ts : list L) : list eedge :=
    row (fun j y => here q i h j None y) (fun _ _ => []) 0 ts.
  (** edit_dags.py:1076-1513, [build_matching_subproblem]: the round of the outer
      loop for node [x], including matched groups (1394-1508) ... *)
  Fixpoint node_row (x : L) (q h : Z) (i : nat) (ts : list L) {struct x} : list eedge :=
    row (fun j y => here q i h j (Some x) y)
      (fun j y =>
         match x, y with
         | LGroup p cs m, LGroup p' ds m' =>
             if eqb m' m then
               let g := Z.of_nat (pre p) in
               let g' := Z.of_nat (pre p') in
               both (fun c =>
                 [mkEdge (EAt MATCH c q i h j) (EAt PROCESS c g 0 g' 0) (Fin 0)
                    (Some ((pre p, NodeInRegion), in_low c)) None]) ++
               (fix go (k : nat) (l : list L) : list eedge :=
                  match l with
                  | [] => last_row g g' k ds
                  | c :: l' => node_row c g g' k ds ++ go (S k) l'
                  end) 0 cs ++
               both (fun c =>
                 [mkEdge (EAt MATCH c g (length cs) g' (length ds)) (EAt PROCESS c q (S i) h (S j)) (Fin 0) None None])
             else []
         | _, _ => []
         end) 0 ts.
  (** ... and the loop. *)
  Fixpoint rows (q h : Z) (i : nat) (ps ts : list L) : list eedge :=
    match ps with
    | [] => last_row q h i ts
    | x :: ps' => node_row x q h i ts ++ rows q h (S i) ps' ts
    end.

  (** edit_dags.py:463-539, [construct_edit_dag].  The render data are
      [edit_render_data] of Layouts.v. *)
  Definition construct_edit_dag (prototype target : storage M) : result (dag estate decision (option einfo)) :=
    do ps <- read_tree prototype;
    do ts <- read_tree target;
    do partial <- add_edges (partial_starting_from (EAt PROCESS High ROOT_SEQ 0 ROOT_SEQ 0))
      (rows ROOT_SEQ ROOT_SEQ 0 ps ts ++
       [mkEdge (EAt MATCH High ROOT_SEQ (length (root_sequence prototype)) ROOT_SEQ (length (root_sequence target)))
          EFinal (Fin 0) None None]);
    Ok (partial_finish partial EFinal).
  (** edit_dags.py:1674-1684, [pack_dag]. *)
  Definition pack_edit_dag (d : dag estate decision (option einfo)) :=
    convert_dag_to_packed dkey_leb dvalue_leb d DNA (Some all_values).

  (** Unfolding equations. *)
  Lemma remove_group a q i h j p (cs : list L) m :
    remove a q i h j (LGroup p cs m) =
      both (fun c => [mkEdge (EAt a c q i h j) (EAt RDELETE c (Z.of_nat (pre p)) 0 h j) (Fin 0)
                        (Some ((pre p, NodeInRegion), in_low c)) None]) ++
      remove_list (Z.of_nat (pre p)) 0 h j cs ++
      both (fun c => [mkEdge (EAt RDELETE c (Z.of_nat (pre p)) (length cs) h j) (EAt a c q (S i) h j) (Fin 0) None None]).
  Proof.
    cbn [remove]. f_equal. f_equal. generalize 0. induction cs as [|c l IH]; intros k; auto.
    cbn [remove_list]. f_equal. apply IH.
  Qed.
  Lemma add_group a q i h j p (ds : list L) m :
    add a q i h j (LGroup p ds m) =
      both (fun c => [mkEdge (EAt a c q i h j) (EAt RINSERT c q i (Z.of_nat (pre p)) 0) (Fin 0) None None]) ++
      add_list q i (Z.of_nat (pre p)) 0 ds ++
      both (fun c => [mkEdge (EAt RINSERT c q i (Z.of_nat (pre p)) (length ds)) (EAt a c q i h (S j)) (Fin 0) None None]).
  Proof.
    cbn [add]. f_equal. f_equal. generalize 0. induction ds as [|c l IH]; intros k; auto.
    cbn [add_list]. f_equal. apply IH.
  Qed.
  (** Matching two groups. *)
  Definition pair (q : Z) (i : nat) (h : Z) (j : nat) (x y : L) : list eedge :=
    match x, y with
    | LGroup p cs m, LGroup p' ds m' =>
        if eqb m' m then
          let g := Z.of_nat (pre p) in
          let g' := Z.of_nat (pre p') in
          both (fun c =>
            [mkEdge (EAt MATCH c q i h j) (EAt PROCESS c g 0 g' 0) (Fin 0)
               (Some ((pre p, NodeInRegion), in_low c)) None]) ++
          rows g g' 0 cs ds ++
          both (fun c =>
            [mkEdge (EAt MATCH c g (length cs) g' (length ds)) (EAt PROCESS c q (S i) h (S j)) (Fin 0) None None])
        else []
    | _, _ => []
    end.
  Lemma row_ext base sub sub' ts : (forall j y, sub j y = sub' j y) -> forall j, row base sub j ts = row base sub' j ts.
  Proof. intros H. induction ts as [|y ts IH]; intros j; auto. cbn [row]. now rewrite H, IH. Qed.
  Lemma node_row_eq x q h i ts :
    node_row x q h i ts = row (fun j y => here q i h j (Some x) y) (fun j y => pair q i h j x y) 0 ts.
  Proof.
    destruct x as [p t|p t m|p|p|p|p cs m]; cbn [node_row]; try reflexivity.
    apply row_ext. intros j y. destruct y as [| | | | |p' ds m']; auto. cbn [pair].
    destruct (eqb m' m); auto. f_equal. f_equal. generalize 0.
    induction cs as [|c l IH]; intros k; auto. cbn [rows]. f_equal. apply IH.
  Qed.
End Builder.
