(** C80: the linked nodes of parse trees. *)

From Coq Require Import List Bool Arith Lia.
From Verif Require Import Base StackParser StackParserProofs HeapTree HeapMatch LinkSpec HeapProofs HeapSplitProofs HeapNestProofs HeapYieldProofs HeapFrame HeapMatchProofs.
Import ListNotations.

(** ** C80.  A copy is a tree of new nodes with the same shape, linked both ways; nothing that was there before
    changes.  The root of the copy gets the parent of the original. *)
Theorem C80_copy :
  forall (h : heap) (t : ltree) (c : cell), shows h t -> nth_error h (addr t) = Some c ->
    exists least, forall limit, least <= limit -> exists h' t',
      copy limit h (addr t) = Some (h', addr t') /\ shape t' = shape t /\ holds h' (c_parent c) t' /\
      NoDup (addrs t') /\ (forall a, In a (addrs t') -> length h <= a) /\ kept h h'.
Proof.
  intros h t c S Ec. exists (lsize t). intros limit L. destruct (copy_spec limit t h L S) as (h' & t' & c' & Ec' & E & Sh & Ho & Ad & _ & F).
  assert (c' = c) by congruence. subst c'. exists h', t'. splits; auto.
  - rewrite Ad. apply seq_NoDup.
  - intros a I. rewrite Ad in I. apply in_seq in I. lia.
  - intros a d Ea. rewrite F; auto. exact (nth_error_lt _ _ _ Ea).
Qed.
Print Assumptions C80_copy.

(** ** C80.  Bracket matching makes a tree linked both ways, of new nodes, of the shape that the functional model
    computes, and raises what that raises. *)
Theorem C80_match :
  forall (T : Type) (dec : EqDec T) (pairs : list (T * T)) (tolerant : bool) (tokens : list T) (h : heap),
    match stack_based_bracket_match pairs tolerant tokens with
    | Err e => heap_match pairs tolerant tokens h = Some (Err e)
    | Ok n => exists h' t, heap_match pairs tolerant tokens h = Some (Ok (h', addr t)) /\ shape t = n /\ holds h' None t /\ NoDup (addrs t) /\
        kept h h' /\ (forall x, In x (addrs t) -> length h <= x)
    end.
Proof. intros. apply heap_match_spec. Qed.
Print Assumptions C80_match.

(** ** C80.  Splitting copies the tree and then moves nodes in place, one transplant after the other; the outcome is a
    tree linked both ways, of new nodes, of the shape that the functional model computes at once. *)
Theorem C80_split_parse :
  forall (T : Type) (dec : EqDec T) (tokens splits : list T) (pairs : list (T * T)) (sub : option (T * T)) (h : heap) (t : ltree) (c : cell) (n : pnode),
    shows h t -> nth_error h (addr t) = Some c -> c_parent c = None ->
    well_formed (length tokens) (shape t) -> unsplit_tree (shape t) ->
    split_parse (shape t) tokens splits pairs sub = Ok n ->
    exists least, forall limit, least <= limit -> exists h' t',
      heap_split_parse tokens splits pairs sub limit h (addr t) = Some (Ok (h', addr t')) /\
      shape t' = n /\ holds h' None t' /\ NoDup (addrs t') /\ (forall a, In a (addrs t') -> length h <= a).
Proof. intros T dec tokens splits pairs sub h t c n S Ec P W U E. exact (split_parse_linked tokens splits pairs sub t h c S Ec P W U n E). Qed.
Print Assumptions C80_split_parse.

(** ** C80.  Whatever is in memory, splitting leaves the nodes that were there as they were and returns a new one. *)
Theorem C80_callers_nodes_untouched :
  forall (T : Type) (dec : EqDec T) (tokens splits : list T) (pairs : list (T * T)) (sub : option (T * T)) limit (h : heap) root c h' r,
    nth_error h root = Some c -> c_parent c = None ->
    heap_split_parse tokens splits pairs sub limit h root = Some (Ok (h', r)) -> length h <= r /\ kept h h'.
Proof.
  intros T dec tokens splits pairs sub limit h root c h' r Ec P E. destruct (split_parse_safe tokens splits pairs sub limit h root c h' r Ec P E) as [-> S].
  split; auto. intros a d Ea. destruct S as [_ S]. rewrite S; auto. exact (nth_error_lt _ _ _ Ea).
Qed.
Print Assumptions C80_callers_nodes_untouched.

(** ** C80.  The check that follows the links, on a tree linked both ways, is the check of the ranges. *)
Theorem C80_check :
  forall (h : heap) (p : option nat) (t : ltree) (size : nat), holds h p t ->
    exists least, forall limit, least <= limit -> heap_valid limit h (addr t) size = Some (valid_parse_ranges (shape t) size).
Proof. intros h p t size Hh. exists (lsize t). intros limit L. eapply heap_valid_spec; eauto. Qed.
Print Assumptions C80_check.
(** And it accepts only trees that are linked both ways. *)
Theorem C80_check_links :
  forall (h : heap) (t : ltree) (c : cell) (limit size : nat), shows h t -> nth_error h (addr t) = Some c ->
    heap_valid limit h (addr t) size = Some true -> holds h (c_parent c) t /\ valid_parse_ranges (shape t) size = true.
Proof.
  intros h t c limit size S Ec E. assert (Hh : holds h (c_parent c) t).
  { unfold heap_valid in E. rewrite Ec in E. destruct (_ && _); [|discriminate]. now apply (heap_check_links t limit). }
  split; auto. destruct (C80_check h _ t size Hh) as [least Q]. 
  assert (M : forall l1 l2 a b, heap_check l1 h a = Some b -> l1 <= l2 -> heap_check l2 h a = Some b).
  { induction l1 as [|l1 IH]; intros l2 a b Eb L; [discriminate|]. destruct l2 as [|l2]; [lia|]. cbn [heap_check] in *.
    destruct (nth_error h a) as [ca|]; auto. destruct (cells h (c_children ca)) as [[|c0 cs]|]; auto.
    repeat match goal with |- context [if ?x then _ else _] => destruct x; [exact Eb|] end.
    generalize dependent (c_children ca). intros l. induction l as [|x l IHl]; cbn [all_true]; auto.
    destruct (nth_error h x) as [cx|]; auto. destruct (negb (eqb (c_parent cx) (Some a))); auto.
    destruct (heap_check l1 h x) as [bx|] eqn:Ex; [|discriminate]. rewrite (IH l2 x bx Ex) by lia. destruct bx; auto. }
  specialize (Q (Nat.max least limit) ltac:(lia)). unfold heap_valid in E, Q. rewrite Ec in E, Q. destruct (_ && _); [|discriminate].
  rewrite (M _ _ _ _ E) in Q by lia. now injection Q.
Qed.
Print Assumptions C80_check_links.

(** ** C80.  The two together, for all balanced texts: the matched tree is still there after it was split, and both
    trees pass the check. *)
Theorem C80_match_and_split :
  forall (T : Type) (dec : EqDec T) (pairs unsplit : list (T * T)) (splits tokens : list T) (sub : option (T * T)) (h0 : heap) (n n' : pnode),
    proper_pairs pairs -> balanced pairs None tokens ->
    stack_based_bracket_match pairs true tokens = Ok n -> split_parse n tokens splits unsplit sub = Ok n' ->
    exists least, forall limit, least <= limit -> exists h1 t1 h2 t2,
      heap_match pairs true tokens h0 = Some (Ok (h1, addr t1)) /\
      heap_split_parse tokens splits unsplit sub limit h1 (addr t1) = Some (Ok (h2, addr t2)) /\
      shape t1 = n /\ shape t2 = n' /\ holds h2 None t1 /\ holds h2 None t2 /\ NoDup (addrs t1 ++ addrs t2) /\ kept h0 h2 /\
      heap_valid limit h2 (addr t1) (length tokens) = Some true /\ heap_valid limit h2 (addr t2) (length tokens) = Some true.
Proof.
  intros T dec pairs unsplit splits tokens sub h0 n n' HP Hb E En.
  pose proof (C80_match T dec pairs true tokens h0) as Q. rewrite E in Q. destruct Q as (h1 & t1 & E1 & Sh1 & Ho1 & N1 & K1 & B1).
  destruct (match_tree pairs HP true tokens Hb (or_introl eq_refl)) as [ns [F E']]. rewrite E in E'. injection E' as ->.
  pose proof (forest_tiles _ _ _ _ _ F) as Ti. cbn [Nat.add] in Ti.
  assert (Wr : well_formed (length tokens) (PNode 0 (Some (length tokens)) ARoot ns)).
  { apply WF; auto with arith; [now apply (forest_well_formed _ _ 0 _ _ F)|discriminate]. }
  assert (Ur : unsplit_tree (PNode 0 (Some (length tokens)) ARoot ns)).
  { constructor; [discriminate|]. apply (forest_unsplit _ _ _ _ _ F). }
  assert (V : forall m, well_formed (length tokens) m -> p_lo m = 0 -> p_hi m = Some (length tokens) -> valid_parse_ranges m (length tokens) = true).
  { intros m Wm Lo Hi. assert (Vt : valid_tree m (length tokens)).
    { inversion Wm as [lo hi ann cs A B C D G]; subst. cbn [p_lo p_hi] in Lo, Hi. subst lo. injection Hi as ->. exists ann, cs. auto. }
    apply (valid_parse_ranges_iff m (length tokens) (valid_tree_forward _ _ Vt)). exact Vt. }
  destruct (split_parse_spec _ _ _ _ _ _ Wr Ur En) as [W' [[F1 [F2 F3]] _]].
  pose proof (holds_cell _ _ _ Ho1) as Ec.
  destruct (C80_split_parse T dec tokens splits unsplit sub h1 t1 _ n' (holds_shows _ _ _ Ho1) Ec eq_refl ltac:(now rewrite Sh1) ltac:(now rewrite Sh1) ltac:(now rewrite Sh1)) as [least Sp].
  exists (Nat.max least (lsize t1 + psize n')). intros limit L. destruct (Sp limit ltac:(lia)) as (h2 & t2 & E2 & Sh2 & Ho2 & N2 & B2).
  destruct (C80_callers_nodes_untouched T dec _ _ _ _ _ _ _ _ _ _ Ec eq_refl E2) as [_ K2].
  assert (Ho1' : holds h2 None t1).
  { apply (holds_frame t1 h1); auto. intros a I. pose proof (holds_bound _ _ _ a Ho1 I) as Ba.
    destruct (nth_error h1 a) as [d|] eqn:Ea; [now apply K2|]. apply nth_error_None in Ea. lia. }
  exists h1, t1, h2, t2. splits; auto.
  - apply NoDup_app_intro; auto. intros a I J. pose proof (holds_bound _ _ _ a Ho1 I). specialize (B2 a J). lia.
  - intros a d Ea. apply K2. now apply K1.
  - rewrite (heap_valid_spec t1 limit h2 None) by (auto; lia). f_equal. rewrite Sh1. apply V; auto.
  - rewrite (heap_valid_spec t2 limit h2 None); auto; [|rewrite lsize_shape, Sh2; lia]. f_equal. rewrite Sh2. apply V; auto.
Qed.
Print Assumptions C80_match_and_split.

(** Hypotheses met: the tokens [a ; { b ; } c ; d], split after [;] and with the braces nested under what is before
    them, in a memory that holds another node already. *)
Local Notation brace := (100, 101).
Definition ex_tokens : list nat := [1; 50; 100; 2; 50; 101; 3; 50; 4].
Definition ex_heap : heap := [mkCell 7 None None ASplit []].
Example C80_hypotheses :
  proper_pairs [brace] /\ balanced [brace] None ex_tokens /\
  (exists n n', stack_based_bracket_match [brace] true ex_tokens = Ok n /\ split_parse n ex_tokens [50] [] (Some brace) = Ok n' /\ n <> n') /\
  exists h1 h2, heap_match [brace] true ex_tokens ex_heap = Some (Ok (h1, 1)) /\ length h1 = 13 /\
    heap_split_parse ex_tokens [50] [] (Some brace) 20 h1 1 = Some (Ok (h2, 13)) /\ length h2 = 30 /\
    (* [a ;] holds a copy of itself and [{ b ; } c ;] *)
    option_map c_children (nth_error h2 13) = Some [25; 27] /\
    option_map (fun c => (c_lo c, c_hi c, c_parent c, c_children c)) (nth_error h2 25) = Some (0, Some 8, Some 13, [29; 26]) /\
    option_map (fun c => (c_lo c, c_hi c, c_parent c)) (nth_error h2 26) = Some (2, Some 8, Some 25) /\
    option_map (fun c => (c_lo c, c_hi c, c_parent c, c_children c)) (nth_error h2 29) = Some (0, Some 2, Some 25, [14; 15]) /\
    option_map c_parent (nth_error h2 14) = Some (Some 29).
Proof.
  split; [|split; [|split]].
  - split; [|split]; try (repeat constructor; cbn; intuition discriminate). cbn. intros t [<-|[]]. intuition discriminate.
  - unfold ex_tokens. do 2 (apply bal_plain; [cbn; intuition discriminate|cbn; intuition discriminate|]).
    apply (bal_pair [brace] None 100 101 [2; 50] [3; 50; 4]); [cbn; auto| |];
      repeat (apply bal_plain; [cbn; intuition discriminate|cbn; intuition discriminate|]); apply bal_nil.
  - do 2 eexists. split; [vm_compute; reflexivity|]. split; [vm_compute; reflexivity|]. vm_compute. discriminate.
  - do 2 eexists. split; [vm_compute; reflexivity|]. split; [vm_compute; reflexivity|]. split; [vm_compute; reflexivity|].
    splits; vm_compute; reflexivity.
Qed.
