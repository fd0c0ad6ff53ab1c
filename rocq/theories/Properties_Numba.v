(** C78: the compiled wrappers return what the pure Python wrappers return. *)

From Coq Require Import String.
From Coq Require Import List Bool Arith ZArith Lia QArith Qcanon.
From Verif Require Import Base SeqNodes Transforms PackedSeq PackedSeqProofs Numbered Graph GatedDag GatedDagRewrite PackedDag Convert MapDag Decisions ConstraintSpec ConstraintDag
  EditDag EditSpec EditTheorems SelectionDag SelectionSpec SelectionTheorems RegionDecisions RegionProofs CallSequence CallSpec CombineSpec CombineStats
  DualSolver SystemSpec BuildSystem BuildProofs BuildKeys CostDerivation PseudoParse Combine CombineProofs CombineTheorems Html Subtokenizer ParserTools Properties_Tree Properties_ParserTools
  NumbaBuild NumbaSpec NumbaProofs.
Import ListNotations.
Close Scope string_scope. Close Scope Qc_scope. Close Scope Q_scope. Close Scope Z_scope. Open Scope nat_scope. Open Scope list_scope.

(** ** C78.  One DAG: packing after pruning with renumbering gives the packed DAG that
    packing after plain pruning gives, and the same data to read paths back, up to the
    names of the states. *)
Theorem C78_packed_dags :
  forall (S I : Type) (dec : EqDec S) (hash : S -> nat) (scratch : list (option nat)) (d : dag S decision I),
    topological (edges d) -> 0 < length scratch -> collision_free hash (length scratch) d ->
    (exists p, complete_path d p /\ Forall finite_edge p) ->
    exists d', prune_and_rewrite hash d scratch = Ok d' /\
    match convert_dag_to_packed dkey_leb dvalue_leb (prune_to_reachable d) DNA (Some all_values),
          convert_dag_to_packed dkey_leb dvalue_leb d' DNA (Some all_values) with
    | Ok (packed, conversion), Ok (packed', conversion') => packed' = packed /\ renamed conversion conversion'
    | Err e, Err e' => e = e'
    | _, _ => False
    end.
Proof.
  intros S I dec hash scratch d [O _] L C P.
  destruct (proj1 (rewrite_exact_aux hash (states_of d) (length scratch) L C d scratch eq_refl eq_refl O)) as (f & n & E & _ & J & _).
  { apply pruned_useful; auto. cbn. auto. }
  exists (rename_dag f (prune_to_reachable d)). split; auto.
  assert (J' : forall s s', List.In s (states_of (prune_to_reachable d)) -> List.In s' (states_of (prune_to_reachable d)) -> f s = f s' -> s = s')
    by (intros; apply J; auto; now apply pruned_useful).
  rewrite (convert_rename (K := dkey) (V := dvalue) dkey_leb dvalue_leb f (prune_to_reachable d) J').
  destruct (convert_dag_to_packed dkey_leb dvalue_leb (prune_to_reachable d) DNA (Some all_values)) as [[p c]|] eqn:Ec; cbn [rmap fst snd]; auto.
  split; auto. apply renamed_map. apply converted_states in Ec. cbn [snd] in Ec. rewrite Ec.
  assert (U : forall y, In y (source_states (edges (prune_to_reachable d)) ++ [final_state (prune_to_reachable d)]) -> In y (states_of (prune_to_reachable d))).
  { intros y Y. unfold states_of. apply in_app_iff in Y as [Y|[<-|[]]]; [|right; left; reflexivity].
    apply source_states_In in Y as (e & Y & <-). right. right. apply in_flat_map. exists e. cbn. auto. }
  intros s s' X X'. apply J'; auto.
Qed.
Print Assumptions C78_packed_dags.

(** ** The prototypes and targets that combining makes. *)
Definition prototype_made {M S I} (w : wrapper M S I) (parse : text -> result (list (node M))) (context : text) (samples : list text) (index : Z) (p : storage M) : Prop :=
  exists s ns, py_index (map (fun sample => context ++ sample) samples) index = Ok s /\ parse s = Ok ns /\ p = fst (w_prototype w ns (length context)).
Definition target_made {M S I} (w : wrapper M S I) (parse : text -> result (list (node M))) (context : text) (samples : list text) (t : storage M) : Prop :=
  exists s ns, In s samples /\ parse (context ++ s) = Ok ns /\ t = w_target w ns (length context).

Lemma mapM_In {A B} (f : A -> result B) l l' y : mapM f l = Ok l' -> In y l' -> exists x, In x l /\ f x = Ok y.
Proof.
  revert l'. induction l as [|x l IH]; intros l' E Y; cbn [mapM] in E; [injection E as <-; destruct Y|].
  apply bind_ok_inv in E as (b & E1 & E). apply bind_ok_inv in E as (bs & E2 & E). injection E as <-. destruct Y as [<-|Y].
  - exists x. split; auto. now left.
  - destruct (IH bs E2 Y) as (z & Z1 & Z2). exists z. split; auto. now right.
Qed.
Lemma combine_alike {M S S' I} fuel clock (w : wrapper M S I) (w' : wrapper M S' I) parse context samples index :
  w_prototype w' = w_prototype w -> w_target w' = w_target w ->
  (forall p targets, prototype_made w parse context samples index p -> (forall t, In t targets -> target_made w parse context samples t) ->
     rel_result same_system (w_build w p targets) (w_build w' p targets)) ->
  same_outcome (combine_samples fuel clock w parse context samples index) (combine_samples fuel clock w' parse context samples index).
Proof.
  intros E1 E2 H. apply same_combine; auto. intros s ns targets Hi P T. apply H; [exists s, ns; auto|].
  intros t Ht. destruct (mapM_In _ _ _ _ T Ht) as (x & X & E). apply in_map_iff in X as (sample & <- & X).
  apply bind_ok_inv in E as (ns' & E & Et). injection Et as <-. exists sample, ns'. auto.
Qed.
Lemma combine_equal {M S I} fuel clock (w w' : wrapper M S I) parse context samples index :
  w_prototype w' = w_prototype w -> w_target w' = w_target w ->
  (forall p targets, prototype_made w parse context samples index p -> (forall t, In t targets -> target_made w parse context samples t) ->
     w_build w' p targets = w_build w p targets) ->
  combine_samples fuel clock w' parse context samples index = combine_samples fuel clock w parse context samples index.
Proof.
  intros E1 E2 H. unfold combine_samples, prepare. rewrite E1, E2. cbv zeta.
  destruct (py_index _ index) as [s|] eqn:Ei; cbn [bind]; [|reflexivity].
  destruct (parse s) as [ns|] eqn:Ep; cbn [bind]; [|reflexivity]. destruct (w_prototype w ns (length context)) as [p ci] eqn:Ew.
  destruct (mapM _ _) as [ts|] eqn:Et; cbn [bind]; [|reflexivity]. rewrite H; auto.
  - exists s, ns. rewrite Ew. auto.
  - intros t Ht. destruct (mapM_In _ _ _ _ Et Ht) as (x & X & E). apply in_map_iff in X as (sample & <- & X).
    apply bind_ok_inv in E as (ns' & E & Eq). injection Eq as <-. exists sample, ns'. auto.
Qed.
Lemma allows_finite {S I} `{EqDec S} rel K (d : dag S decision I) k ds : allows rel K d -> rel k ds -> exists p, complete_path d p /\ Forall finite_edge p.
Proof.
  intros A R. destruct (al_complete _ _ _ A k ds R) as (p & P & C & _). exists p. split; auto.
  apply csum_finite in C. rewrite Forall_forall in *. intros e E. apply (C (ecost e)). now apply in_map.
Qed.
Lemma constraint_fits {M} (ns : list (node M)) : exists d, construct_constraint_dag (pack ns) = Ok d /\ construct_constraint_dag_jit (pack ns) = Ok d /\
  topological (edges d) /\ exists p, complete_path d p /\ Forall finite_edge p.
Proof.
  destruct (constraint_allows ns) as (d & E & A). exists d. splits; auto; [now apply constraint_jit|eapply al_top; eauto|].
  destruct (choice_full ns) as (ds & D & _). apply (allows_finite _ _ d 0%Qc ds A). auto.
Qed.
Lemma edit_fits {M} {md : EqDec M} P (ns ts : list (node M)) : Forall text_only (labelled ts) ->
  exists d, construct_edit_dag P (pack ns) (pack ts) = Ok d /\ construct_edit_dag_jit P (pack ns) (pack ts) = Ok d /\
  topological (edges d) /\ exists p, complete_path d p /\ Forall finite_edge p.
Proof.
  intros T. destruct (edit_allows P ns ts T) as (d & E & A). exists d. splits; auto; [now apply edit_jit|eapply al_top; eauto|].
  destruct (choice_full ns) as (ds & D & _). destruct (choice_edit P _ _ ds T D) as [k K]. exact (allows_finite _ _ d k ds A K).
Qed.
Lemma selection_fits {M} {md : EqDec M} (U : text -> M -> utilities) (ns ts : list (node M)) :
  Forall no_exit (walks (labelled ns)) -> ~ begins_with_end (walks (labelled ns)) -> Forall text_only (labelled ts) ->
  exists d, construct_selection_dag U (pack ns) (pack ts) = Ok d /\ construct_selection_dag_jit U (pack ns) (pack ts) = Ok d /\
  topological (edges d) /\ exists p, complete_path d p /\ Forall finite_edge p.
Proof.
  intros F B T. destruct (selection_allows U ns ts F B T) as (d & E & A). exists d. splits; auto; [now apply selection_jit|eapply al_top; eauto|].
  destruct (choice_full ns) as (ds & D & _). destruct (choice_selection U _ (walks (labelled ts)) ds F D) as [k K]. exact (allows_finite _ _ d k ds A K).
Qed.
Lemma add_inl {S S2 I I2} {dec : EqDec S} hash scratch (d : dag S decision I) :
  topological (edges d) -> 0 < length scratch -> collision_free hash (length scratch) d -> (exists p, complete_path d p /\ Forall finite_edge p) ->
  forall k, rel_result same_item (add_dag (inl : S -> S + S2) (inl : I -> I + I2) d k) (add_dag_rewrite hash scratch inl d k).
Proof.
  intros [O _] L C P k. apply (add_same inl (fun x y E => ltac:(now injection E)) (fun x => match x with inl s => Some s | inr _ => None end)); auto.
Qed.
Lemma add_inr {S S2 I I2} {dec : EqDec S} hash scratch (d : dag S decision I) :
  topological (edges d) -> 0 < length scratch -> collision_free hash (length scratch) d -> (exists p, complete_path d p /\ Forall finite_edge p) ->
  forall k, rel_result same_item (add_dag (inr : S -> S2 + S) (inr : I -> I2 + I) d k) (add_dag_rewrite hash scratch inr d k).
Proof.
  intros [O _] L C P k. apply (add_same inr (fun x y E => ltac:(now injection E)) (fun x => match x with inr s => Some s | inl _ => None end)); auto.
Qed.
Lemma build_jit {S1 S2 I1 I2 T} {d1 : EqDec S1} {d2 : EqDec S2} (construct construct' : T -> result (dag S1 decision I1)) (constraint constraint' : result (dag S2 decision I2)) targets factors :
  (forall t, In t targets -> exists d, construct t = Ok d /\ construct' t = Ok d /\ topological (edges d)) ->
  (exists d, constraint = Ok d /\ constraint' = Ok d /\ topological (edges d)) ->
  build_system_with (add_dag_jit inl inl) (add_dag_jit inr inr) construct' constraint' targets factors = build_system construct constraint targets factors.
Proof.
  intros H1 (dc & C1 & C2 & [O _]). rewrite build_system_python. unfold build_system_with.
  destruct (match factors with Some l => Ok l | None => uniform_weights targets end) as [fs|]; cbn [bind]; [|reflexivity]. cbv zeta.
  rewrite C1, C2. cbn [bind]. rewrite (add_jit inr inr dc _ O).
  assert (E : mapM (fun tf => do d <- construct' (fst tf); add_dag_jit (inl : S1 -> S1 + S2) (inl : I1 -> I1 + I2) d (snd tf)) (combine targets fs) =
              mapM (fun tf => do d <- construct (fst tf); add_dag (inl : S1 -> S1 + S2) (inl : I1 -> I1 + I2) d (snd tf)) (combine targets fs)).
  { assert (G : forall t k, In (t, k) (combine targets fs) -> In t targets) by (intros t k; apply in_combine_l). revert G. generalize (combine targets fs).
    induction l as [|[t k] l IH]; intros G; auto. cbn [mapM fst snd]. destruct (H1 t (G t k (or_introl eq_refl))) as (d & -> & -> & [O' _]).
    cbn [bind]. rewrite (add_jit inl inl d k O'), IH; auto. intros t' k' X. apply (G t' k'). now right. }
  rewrite E. reflexivity.
Qed.

(** ** C78.  Edit-distance wrappers. *)
Lemma edit_target_text (P : parameters) low exit parse context samples t :
  (forall s ns, In s samples -> parse (context ++ s) = Ok ns -> no_decisions ns) ->
  target_made (edit_wrapper P low exit) parse context samples t -> exists ts, t = pack ts /\ Forall text_only (labelled ts).
Proof.
  intros D (s & ns & I & E & ->). exists (truncate_prefix_at_offset ns (Z.of_nat (length context))). split; [reflexivity|].
  apply no_decisions_only. unfold labelled. rewrite erase_labs. eapply suffix_no_decisions; [apply truncate_suffix|eauto].
Qed.
(** [use_numba=True], [rewrite_states=True] (the default): for any hash functions under
    which the states of each DAG have different slots, and any scratch table. *)
Theorem C78_edit_wrapper_rewrite :
  forall (P : parameters) (low exit : bool) (hash : estate -> nat) (hashc : cstate -> nat) (scratch : list (option nat))
         fuel clock parse (context : text) (samples : list text) (index : Z),
    let made := prototype_made (edit_wrapper P low exit) parse context samples index in
    let target := target_made (edit_wrapper P low exit) parse context samples in
    (forall s ns, In s samples -> parse (context ++ s) = Ok ns -> no_decisions ns) ->
    0 < length scratch ->
    (forall p t d, made p -> target t -> construct_edit_dag P p t = Ok d -> collision_free hash (length scratch) d) ->
    (forall p d, made p -> construct_constraint_dag p = Ok d -> collision_free hashc (length scratch) d) ->
    same_outcome (combine_samples fuel clock (edit_wrapper P low exit) parse context samples index)
                 (combine_samples fuel clock (edit_wrapper_rewrite hash hashc scratch P low exit) parse context samples index).
Proof.
  intros P low exit hash hashc scratch fuel clock parse context samples index made target D L C1 C2.
  apply combine_alike; try reflexivity. intros p targets Hp Ht. cbn [w_build edit_wrapper edit_wrapper_rewrite]. rewrite build_system_python.
  pose proof Hp as (s & ns & _ & _ & Ep). cbn [fst w_prototype edit_wrapper] in Ep. apply same_build.
  - intros t T. destruct (edit_target_text P low exit parse context samples t D (Ht t T)) as (ts & Et & X).
    destruct (edit_fits P (annotate low exit ns (length context)) ts X) as (d & E1 & E2 & O & F).
    rewrite <- Ep, <- Et in E1, E2. exists d. splits; auto. apply add_inl; auto. apply (C1 p t d); auto. apply Ht; auto.
  - destruct (constraint_fits (annotate low exit ns (length context))) as (d & E1 & E2 & O & F). rewrite <- Ep in E1, E2.
    exists d. splits; auto. apply add_inr; auto. apply (C2 p d); auto.
Qed.
Print Assumptions C78_edit_wrapper_rewrite.
(** [use_numba=True], [rewrite_states=False]: equal in every field. *)
Theorem C78_edit_wrapper_jit :
  forall (P : parameters) (low exit : bool) fuel clock parse (context : text) (samples : list text) (index : Z),
    (forall s ns, In s samples -> parse (context ++ s) = Ok ns -> no_decisions ns) ->
    combine_samples fuel clock (edit_wrapper_jit P low exit) parse context samples index =
    combine_samples fuel clock (edit_wrapper P low exit) parse context samples index.
Proof.
  intros P low exit fuel clock parse context samples index D. apply combine_equal; try reflexivity. intros p targets Hp Ht.
  pose proof Hp as (s & ns & _ & _ & Ep). cbn [fst w_prototype edit_wrapper] in Ep. cbn [w_build edit_wrapper edit_wrapper_jit]. apply build_jit.
  - intros t T. destruct (edit_target_text P low exit parse context samples t D (Ht t T)) as (ts & Et & X).
    destruct (edit_fits P (annotate low exit ns (length context)) ts X) as (d & E1 & E2 & O & F). rewrite <- Ep, <- Et in E1, E2. eauto.
  - destruct (constraint_fits (annotate low exit ns (length context))) as (d & E1 & E2 & O & F). rewrite <- Ep in E1, E2. eauto.
Qed.
Print Assumptions C78_edit_wrapper_jit.

(** ** C78.  Call sequences, whatever the parser returns. *)
Lemma calls_fit isspace builtin (ns ns' : list (node text)) n : 
  Forall no_exit (walks (labelled (make_callseq_tree isspace builtin ns n))) /\
  ~ begins_with_end (walks (labelled (make_callseq_tree isspace builtin ns n))) /\
  Forall text_only (labelled (strip_decision_nodes (make_callseq_tree isspace builtin ns' n))).
Proof.
  destruct (calls_hyps isspace builtin (repeat 0 n) [] (fun _ => ns)) as (H1 & H2 & _). unfold calls_of in *. rewrite repeat_length in *. splits; auto.
  apply no_decisions_only. unfold labelled. rewrite erase_labs. apply strip_output_no_decisions.
Qed.
Theorem C78_call_wrapper_rewrite :
  forall (isspace : nat -> bool) (builtin : list text) (U : text -> text -> utilities) (hash : sstate -> nat) (hashc : cstate -> nat) (scratch : list (option nat))
         fuel clock parse (context : text) (samples : list text) (index : Z),
    let made := prototype_made (call_wrapper isspace builtin U) parse context samples index in
    let target := target_made (call_wrapper isspace builtin U) parse context samples in
    0 < length scratch ->
    (forall p t d, made p -> target t -> construct_selection_dag U p t = Ok d -> collision_free hash (length scratch) d) ->
    (forall p d, made p -> construct_constraint_dag p = Ok d -> collision_free hashc (length scratch) d) ->
    same_outcome (combine_samples fuel clock (call_wrapper isspace builtin U) parse context samples index)
                 (combine_samples fuel clock (call_wrapper_rewrite hash hashc scratch isspace builtin U) parse context samples index).
Proof.
  intros isspace builtin U hash hashc scratch fuel clock parse context samples index made target L C1 C2.
  apply combine_alike; try reflexivity. intros p targets Hp Ht. cbn [w_build call_wrapper call_wrapper_rewrite]. rewrite build_system_python.
  pose proof Hp as (s & ns & _ & _ & Ep). apply same_build.
  - intros t T. pose proof (Ht t T) as (s' & ns' & _ & _ & Et). destruct (calls_fit isspace builtin ns ns' (length context)) as (H1 & H2 & H3).
    destruct (selection_fits U _ _ H1 H2 H3) as (d & E1 & E2 & O & F).
    exists d. splits; subst p t; auto. apply add_inl; auto. refine (C1 _ _ d Hp (Ht _ T) E1).
  - destruct (constraint_fits (make_callseq_tree isspace builtin ns (length context))) as (d & E1 & E2 & O & F).
    exists d. splits; subst p; auto. apply add_inr; auto. exact (C2 _ d Hp E1).
Qed.
Print Assumptions C78_call_wrapper_rewrite.
Theorem C78_call_wrapper_jit :
  forall (isspace : nat -> bool) (builtin : list text) (U : text -> text -> utilities) fuel clock parse (context : text) (samples : list text) (index : Z),
    combine_samples fuel clock (call_wrapper_jit isspace builtin U) parse context samples index =
    combine_samples fuel clock (call_wrapper isspace builtin U) parse context samples index.
Proof.
  intros isspace builtin U fuel clock parse context samples index. apply combine_equal; try reflexivity. intros p targets Hp Ht.
  pose proof Hp as (s & ns & _ & _ & Ep). cbn [w_build call_wrapper call_wrapper_jit]. apply build_jit.
  - intros t T. pose proof (Ht t T) as (s' & ns' & _ & _ & Et). destruct (calls_fit isspace builtin ns ns' (length context)) as (H1 & H2 & H3).
    destruct (selection_fits U _ _ H1 H2 H3) as (d & E1 & E2 & O & F). exists d. subst p t. auto.
  - destruct (constraint_fits (make_callseq_tree isspace builtin ns (length context))) as (d & E1 & E2 & O & F). exists d. subst p. auto.
Qed.
Print Assumptions C78_call_wrapper_jit.

(** ** C78.  Raw text in any supported language. *)
Theorem C78_edit_raw_text :
  forall (isupper islower isdigit isspace digit : nat -> bool) (l : helper_language) (flatten : bool)
         (P : parameters) (low exit : bool) (hash : estate -> nat) (hashc : cstate -> nat) (scratch : list (option nat))
         fuel clock (context : text) (samples : list text) (index : Z),
    ascii_digits digit -> isspace 10 = true -> parseable l context samples -> 0 < length scratch ->
    let parse := parse_to_nodes isupper islower isdigit isspace digit l flatten in
    let made := prototype_made (edit_wrapper P low exit) parse context samples index in
    let target := target_made (edit_wrapper P low exit) parse context samples in
    (forall p t d, made p -> target t -> construct_edit_dag P p t = Ok d -> collision_free hash (length scratch) d) ->
    (forall p d, made p -> construct_constraint_dag p = Ok d -> collision_free hashc (length scratch) d) ->
    same_outcome (combine_samples fuel clock (edit_wrapper P low exit) parse context samples index)
                 (combine_samples fuel clock (edit_wrapper_rewrite hash hashc scratch P low exit) parse context samples index).
Proof.
  intros u lo d sp digit l f P low exit hash hashc scratch fuel clock context samples index H1 H2 H3 L parse made target C1 C2.
  apply C78_edit_wrapper_rewrite; auto. intros x ns Hx E. destruct (parseable_reads u lo d sp digit H1 H2 l f context samples H3) as [trees Ht].
  destruct (Ht x Hx) as [[R1 [_ R2]] _]. fold parse in R1. rewrite E in R1. now injection R1 as ->.
Qed.
Print Assumptions C78_edit_raw_text.

(** Finding: when states share slots, the compiled wrapper builds a different system
    without any exception.  Here all states share one slot. *)
Definition ex_costs : parameters := derive_uncertainty_region_costs (Q2Qc (7 # 10)) (Q2Qc 5) (Q2Qc (1 # 2)).
Definition ex_nodes (t : text) : list (node mtype) := map (fun c => Token [c] (MNode NContentLeaf)) t.
Definition ex_W := edit_wrapper ex_costs true false.
Local Notation ex_prototype := (fst (w_prototype ex_W (ex_nodes [97; 98]) 1)).
Local Notation ex_target c := (w_target ex_W (ex_nodes [97; c]) 1).
Definition sizes {S I} (r : result (@system S dkey dvalue I)) : option (list (nat * nat)) :=
  match r with Ok sy => Some (map (fun t => (n_states (m_dag t), length (pedges (m_dag t)))) (tables (data sy))) | Err _ => None end.
Lemma sizes_differ {S S' I} (r : result (@system S dkey dvalue I)) (r' : result (@system S' dkey dvalue I)) z z' :
  sizes r = Some z -> sizes r' = Some z' -> z <> z' -> exists sy sy', r = Ok sy /\ r' = Ok sy' /\ data sy' <> data sy.
Proof.
  destruct r as [sy|], r' as [sy'|]; try discriminate. intros E E' N. exists sy, sy'. splits; auto. intros C. apply N.
  cbn in E, E'. rewrite C in E'. congruence.
Qed.
Theorem C78_collisions_refuted :
  ~ (forall (hash : estate -> nat) (hashc : cstate -> nat) scratch P low exit ns ts location sy sy',
       0 < length scratch -> no_decisions ns -> no_decisions ts ->
       let p := fst (w_prototype (edit_wrapper P low exit) ns location) in
       let t := w_target (edit_wrapper P low exit) ts location in
       w_build (edit_wrapper P low exit) p [t] = Ok sy ->
       w_build (edit_wrapper_rewrite hash hashc scratch P low exit) p [t] = Ok sy' -> data sy' = data sy).
Proof.
  intros H.
  assert (N : forall t, no_decisions (ex_nodes t)).
  { intros t. apply Forall_forall. intros x X. apply in_map_iff in X as (c & <- & _). exact I. }
  pose proof (fun sy sy' => H (fun _ => 0) (fun _ => 0) [None] ex_costs true false (ex_nodes [97; 98]) (ex_nodes [97; 99]) 1 sy sy' Nat.lt_0_1 (N _) (N _)) as G.
  clear H. cbv zeta in G.
  match type of G with forall sy sy', ?r = _ -> ?r' = _ -> _ =>
    assert (Z1 : sizes r = Some [(23, 32); (14, 17)]) by (vm_compute; reflexivity);
    assert (Z2 : sizes r' = Some [(19, 22); (14, 17)]) by (vm_compute; reflexivity)
  end.
  destruct (sizes_differ _ _ _ _ Z1 Z2) as (sy & sy' & B1 & B2 & D); [discriminate|]. exact (D (G sy sy' B1 B2)).
Qed.
Print Assumptions C78_collisions_refuted.

(** Hypotheses met: for finitely many DAGs there are always such hash functions, namely
    positions in the list of all their states.  Here two samples, so two edit DAGs. *)
Fixpoint position {A} `{EqDec A} (l : list A) (x : A) : nat :=
  match l with [] => 0 | y :: l' => if eqb y x then 0 else S (position l' x) end.
Lemma position_free {S A I} {dec : EqDec S} (L : list S) n (d : dag S A I) : incl (states_of d) L -> length L <= n -> collision_free (position L) n d.
Proof.
  intros Hi Hn.
  assert (B : forall l (x : S), In x l -> position l x < length l).
  { induction l as [|y l IH]; intros x X; [destruct X|]. cbn. destruct (eqb y x) eqn:Q; [lia|].
    destruct X as [X|X]; [apply eqb_neq in Q; contradiction|]. specialize (IH x X). lia. }
  assert (J : forall l (x y : S), In x l -> In y l -> position l x = position l y -> x = y).
  { induction l as [|z l IH]; intros x y X Y E; [destruct X|]. cbn [position] in E.
    destruct (eqb z x) eqn:Q1, (eqb z y) eqn:Q2; try discriminate.
    - apply eqb_eq in Q1, Q2. congruence.
    - injection E as E. apply eqb_neq in Q1, Q2. destruct X as [X|X], Y as [Y|Y]; try contradiction. now apply IH. }
  intros s s' H1 H2 E. apply (J L); auto. rewrite !Nat.mod_small in E; auto; [eapply Nat.lt_le_trans; [apply B; auto|auto]..].
Qed.
Definition ex_parse (t : text) : result (list (node mtype)) := Ok (ex_nodes t).
Lemma Ok_inj {A} (a b : A) : Ok a = Ok b -> a = b.
Proof. now injection 1. Qed.
Definition states_in {S A I} (r : result (dag S A I)) : list S := match r with Ok d => states_of d | Err _ => [] end.
Lemma states_in_Ok {S A I} (r : result (dag S A I)) d : r = Ok d -> states_of d = states_in r.
Proof. now intros ->. Qed.
Definition ex_states : list estate := states_in (construct_edit_dag ex_costs ex_prototype (ex_target 98)) ++ states_in (construct_edit_dag ex_costs ex_prototype (ex_target 99)).
Definition ex_cstates : list cstate := states_in (construct_constraint_dag ex_prototype).
Example C78_hypotheses :
  let context := [97] in let samples := [[98]; [99]] in let scratch := repeat (Some 5) 1000 in
  let made := prototype_made ex_W ex_parse context samples 0 in
  let target := target_made ex_W ex_parse context samples in
  (forall s ns, In s samples -> ex_parse (context ++ s) = Ok ns -> no_decisions ns) /\ 0 < length scratch /\
  (forall p t d, made p -> target t -> construct_edit_dag ex_costs p t = Ok d -> collision_free (position ex_states) (length scratch) d) /\
  (forall p d, made p -> construct_constraint_dag p = Ok d -> collision_free (position ex_cstates) (length scratch) d) /\
  (exists p t d, made p /\ target t /\ construct_edit_dag ex_costs p t = Ok d /\ 20 < length (states_of d)).
Proof.
  cbv zeta. rewrite repeat_length.
  assert (Made : forall p, prototype_made ex_W ex_parse [97] [[98]; [99]] 0 p -> p = ex_prototype).
  { intros p (s & ns & E1 & E2 & ->). assert (s = [97; 98]) as -> by (cbv in E1; congruence). apply Ok_inj in E2 as <-. reflexivity. }
  assert (Target : forall t, target_made ex_W ex_parse [97] [[98]; [99]] t -> t = ex_target 98 \/ t = ex_target 99).
  { intros t (s & ns & I & E & ->). apply Ok_inj in E as <-. destruct I as [<-|[<-|[]]]; [left|right]; reflexivity. }
  splits.
  - intros s ns _ E. apply Ok_inj in E as <-. apply Forall_forall. intros x X. apply in_map_iff in X as (c & <- & _). exact I.
  - lia.
  - intros p t d Hp Ht E. rewrite (Made p Hp) in E. apply position_free; [|apply Nat.leb_le; vm_compute; reflexivity].
    unfold ex_states. destruct (Target t Ht) as [-> | ->]; pose proof (states_in_Ok _ _ E) as Q; clear E; intros x X; rewrite Q in X; apply in_or_app; [left|right]; exact X.
  - intros p d Hp E. rewrite (Made p Hp) in E. apply position_free; [|apply Nat.leb_le; vm_compute; reflexivity].
    unfold ex_cstates. pose proof (states_in_Ok _ _ E) as Q. clear E. intros x X. rewrite Q in X. exact X.
  - assert (L : 20 < length (states_in (construct_edit_dag ex_costs ex_prototype (ex_target 99)))) by (apply Nat.ltb_lt; vm_compute; reflexivity).
    assert (G : forall r : result (dag estate decision (option einfo)), 20 < length (states_in r) -> exists d, r = Ok d /\ 20 < length (states_of d)).
    { intros [d|] X; [exists d; auto|cbn in X; lia]. }
    destruct (G _ L) as (d & E & X). exists ex_prototype, (ex_target 99), d. split; [|split; [|split; [exact E|exact X]]].
    + exists [97; 98], (ex_nodes [97; 98]). split; [|split]; reflexivity.
    + exists [99], (ex_nodes [97; 99]). split; [right; now left|split; reflexivity].
Qed.
