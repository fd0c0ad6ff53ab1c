(** C82: when a suggestion that may be cut off early can be cut off altogether.
    Specification vocabulary: [ends_at], [exit_first], [texts_nonempty] in
    [ExitProofs.v]; [prototype_of] is the parsed sample with the options inserted and
    the context cut off. *)

From Coq Require Import String.
From Coq Require Import List Bool Arith Lia ZArith Sorted Permutation QArith Qcanon.
From Verif Require Import Base SeqNodes Transforms PackedSeq PackedSeqProofs Numbered Graph GatedDag Convert Decisions ConstraintSpec ConstraintDag ConstraintPack Html
  PseudoParse EditDag EditSpec EditProofs EditTheorems RegionDecisions RegionProofs Properties_Tree Properties_Edit SystemSpec BuildSystem BuildProofs Combine CombineSpec CombineProofs CombineStats CombineTheorems
  Properties_EndToEnd ExitProofs ExitSuggestion UtilityBounds Properties_Bounds.
Import ListNotations.
Close Scope string_scope. Close Scope Qc_scope. Close Scope Q_scope. Close Scope Z_scope. Open Scope nat_scope. Open Scope list_scope.

(** ** C82.  With early exits, some exit comes before any text of the suggestion exactly
    if a token or a group of the parsed text ends at the cursor.  The exit inserted at
    the start of the whole text never does: it is cut off with the context, also if
    the context is empty. *)
Theorem C82_exit_before_any_text :
  forall (low : bool) (parsed : list (node mtype)) (cursor : nat), no_decisions parsed ->
    (1 <= cursor -> exit_first (annotate low true parsed cursor) <-> ends_at parsed cursor) /\
    (Forall texts_nonempty parsed -> ~ exit_first (annotate low true parsed 0)).
Proof.
  intros low ns k D. split; [now apply exit_first_iff|]. apply no_exit_at_the_start.
Qed.

(** So a combined result suggests at least one character unless a token or a group ends
    at the cursor. *)
Theorem C82_something_is_suggested :
  forall (P : parameters) (low exit : bool) parse (context : text) (samples : list text) (index : Z) (sample : text) trees fuel clock r parts,
    (forall s, In s samples -> reads parse (context ++ s) (trees s)) -> designates samples index sample -> sample <> [] ->
    combine_samples fuel clock (edit_wrapper P low exit) parse context samples index = Some (Ok r) -> get_extracted_parts r = Some parts ->
    (context <> [] /\ ~ ends_at (trees sample) (length context) \/ context = [] /\ Forall texts_nonempty (trees sample) \/ exit = false) ->
    concat (map fst parts) <> [].
Proof.
  intros P low exit parse context samples index sample trees fuel clock r parts Hread Hsample Hne H Hp Hc.
  destruct (C55_suggestion_is_the_sample P low exit parse context samples index sample trees fuel clock r Hread Hsample H) as [_ [_ S]].
  destruct (S parts Hp) as [_ [_ (asg & rest & _ & Es & Hrest & raw & Sh & Er)]].
  assert (Hin : In sample samples) by (destruct Hsample as [j [Hj _]]; eapply nth_error_In; eauto).
  destruct (Hread sample Hin) as [_ [_ D]].
  assert (T : render (prototype_of low exit context sample trees) = sample) by (eapply prototype_text; eauto).
  destruct exit.
  2: { intros C. destruct rest as [|c rest]; [rewrite C in Es; now apply Hne|]. destruct (Hrest ltac:(discriminate)) as [X _]. discriminate. }
  assert (N : ~ exit_first (prototype_of low true context sample trees)).
  { unfold prototype_of. destruct Hc as [[C1 C2]|[[-> C2]|C2]]; [|now apply no_exit_at_the_start|discriminate].
    rewrite exit_first_iff; auto. destruct context; [congruence|cbn; lia]. }
  pose proof (shown_something (prototype_of low true context sample trees) asg raw N ltac:(now rewrite T) Sh) as X.
  rewrite <- annotated_text, Er, annotated_text. exact X.
Qed.

(** If the context ends with a token that is not inside a group, the suggestion can be
    cut off altogether, and the reported bound is not negative. *)
Theorem C82_nothing_can_be_suggested :
  forall (P : parameters) (low : bool) parse (context : text) (samples : list text) (index : Z) (sample : text) trees fuel clock r asg before t m after,
    (forall s, In s samples -> reads parse (context ++ s) (trees s)) -> designates samples index sample ->
    trees sample = before ++ Token t m :: after -> t <> [] -> context = render (before ++ [Token t m]) ->
    combine_samples fuel clock (edit_wrapper P low true) parse context samples index = Some (Ok r) -> assignment_map r = Some asg ->
    (exists rest, prototype_of low true context sample trees = EarlyExit :: rest) /\
    exists u, utility_dual_bound r = Fin u /\ (0 <= u)%Qc.
Proof.
  intros P low parse context samples index sample trees fuel clock r asg before t m rest Hread Hsample Et Ht Ec H Ha.
  assert (Lc : length context = length (render before) + length t).
  { rewrite Ec, SeqNodes.render_app, app_length. f_equal. unfold render. cbn. now rewrite app_nil_r. }
  destruct (annotate_at_token low before rest t m Ht) as [l El].
  assert (Ep : prototype_of low true context sample trees = EarlyExit :: l) by (unfold prototype_of; now rewrite Et, Lc).
  split; [eauto|].
  destruct (C60_edit_utility P low true parse context samples index sample trees fuel clock r Hread Hsample H) as [W _].
  destruct (W asg Ha) as [_ [ks [u [_ [_ [Hu [_ Ho]]]]]]]. exists u. split; auto.
  rewrite Ep in Ho. unfold labelled in Ho. cbn [labs] in Ho.
  match type of Ho with forall ds ks', region_choice (?x :: ?xs) ds -> _ => set (rest' := xs) in Ho end.
  cbn [lab] in Ho. match type of Ho with forall ds ks', region_choice (LExit ?j :: _) ds -> _ => set (i := j) in Ho end.
  pose proof (Ho [((pre i, ShouldEarlyExit), DTrue)] (map (fun _ => 0%Qc) samples)) as B.
  assert (Z : average (map (fun _ : text => 0%Qc) samples) = 0%Qc).
  { unfold average. assert (F : fold_right Qcplus 0%Qc (map (fun _ : text => 0%Qc) samples) = 0%Qc).
    { clear. induction samples as [|s ss IH]; auto. cbn [map fold_right]. rewrite IH. reflexivity. }
    rewrite F. unfold Qcdiv. ring. }
  rewrite Z in B. replace (- 0)%Qc with 0%Qc in B by ring. apply B.
  - right. apply ex_here.
  - clear -i rest'. generalize samples. intros ss. induction ss as [|s ss IH]; cbn [map]; [exact (Forall2_nil _)|]. apply Forall2_cons; [|exact IH].
    exists [((pre i, ShouldEarlyExit), DTrue)]. split; [|intros key; reflexivity]. right. apply ed_exit. discriminate.
Qed.

(** Finding: nevertheless, allowing early exits does not always allow to suggest nothing,
    which would be worth 0.  After a context that ends with white space, with samples
    that have nothing in common, every suggestion is worth less than 0. *)
Definition spaced_letters (t : text) : result (list (node mtype)) :=
  Ok (map (fun c => if Nat.eqb c 32 then Deco [c] else Token [c] (MNode NContentLeaf)) t).
Definition spaced_tree (context s : text) : list (node mtype) := map (fun c => if Nat.eqb c 32 then Deco [c] else Token [c] (MNode NContentLeaf)) (context ++ s).
Lemma spaced_read context s : reads spaced_letters (context ++ s) (spaced_tree context s).
Proof.
  unfold reads, spaced_letters, spaced_tree. splits; auto.
  - induction (context ++ s) as [|c l IH]; auto. cbn [map]. rewrite SeqNodes.render_cons, IH. destruct (Nat.eqb c 32); reflexivity.
  - unfold no_decisions. induction (context ++ s) as [|c l IH]; constructor; auto. destruct (Nat.eqb c 32); exact I.
Qed.
Theorem C82_never_worse_than_nothing_refuted :
  ~ (forall (P : parameters) (low : bool) parse (context : text) (samples : list text) (index : Z) (sample : text) trees fuel clock r u,
      sensible P -> (forall s, In s samples -> reads parse (context ++ s) (trees s)) -> designates samples index sample ->
      combine_samples fuel clock (edit_wrapper P low true) parse context samples index = Some (Ok r) ->
      utility_dual_bound r = Fin u -> (0 <= u)%Qc).
Proof.
  intros C. set (samples := [chars "a"; chars "b"; chars "c"]).
  assert (E : exists r u, combine_samples 100 (fun _ => false) (edit_wrapper ex_derived false true) spaced_letters (chars "x ") samples 0 = Some (Ok r) /\
                utility_dual_bound r = Fin u /\ ~ (0 <= u)%Qc).
  { vm_compute. eexists. eexists. split; [reflexivity|]. split; [reflexivity|]. intros X. apply X. reflexivity. }
  destruct E as (r & u & E1 & E2 & E3). apply E3.
  refine (C ex_derived false spaced_letters (chars "x ") samples 0%Z (chars "a") (spaced_tree (chars "x ")) 100 (fun _ => false) r u _ _ _ E1 E2).
  - apply C81_hypotheses.
  - intros s _. apply spaced_read.
  - exists 0. split; auto.
Qed.

(** After the context "x" of one token the same samples give nothing at all, worth 0. *)
Example C82_nothing_example :
  match combine_samples 100 (fun _ => false) (edit_wrapper ex_derived false true) spaced_letters (chars "x") [chars "a"; chars "b"; chars "c"] 0 with
  | Some (Ok r) => get_extracted_parts r = Some [] /\ assignment_map r <> None /\ solution_utility r = Fin 0%Qc /\ utility_dual_bound r = Fin 0%Qc
  | _ => False
  end.
Proof. vm_compute. repeat split; discriminate. Qed.
Example C82_something_example :
  match combine_samples 100 (fun _ => false) (edit_wrapper ex_derived false true) spaced_letters (chars "x ") [chars "a"; chars "b"; chars "c"] 0 with
  | Some (Ok r) => get_extracted_parts r = Some [(chars "a", false)]
  | _ => False
  end.
Proof. vm_compute. reflexivity. Qed.
Example C82_hypotheses :
  spaced_tree (chars "x") (chars "a") = [] ++ Token (chars "x") (MNode NContentLeaf) :: [Token (chars "a") (MNode NContentLeaf)] /\
  Forall texts_nonempty (spaced_tree [] (chars "a")) /\ ends_at (spaced_tree (chars "x") (chars "a")) 1 /\ ~ ends_at (spaced_tree (chars "x ") (chars "a")) 2.
Proof.
  splits.
  - reflexivity.
  - repeat constructor. discriminate.
  - exact (en_token [] (chars "x") (MNode NContentLeaf) [Token (chars "a") (MNode NContentLeaf)]).
  - intros H. inversion H as [b t m a E|b cs m a E|b cs m a k Hk E].
    + destruct b as [|x [|y [|z [|w b]]]]; cbn in E; try discriminate; injection E; intros; subst; discriminate.
    + destruct b as [|x [|y [|z [|w b]]]]; cbn in E; discriminate.
    + destruct b as [|x [|y [|z [|w b]]]]; cbn in E; discriminate.
Qed.
Print Assumptions C82_exit_before_any_text.
Print Assumptions C82_something_is_suggested.
Print Assumptions C82_nothing_can_be_suggested.
Print Assumptions C82_never_worse_than_nothing_refuted.
