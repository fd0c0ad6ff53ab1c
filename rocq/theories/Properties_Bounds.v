(** C81: how much a suggestion can be worth, and that it is worth all of it when it
    comes true.  Specification vocabulary: [tokens_length], [number], [sensible],
    [no_gain_from_deleting] in [UtilityBounds.v]; [average] in [SystemSpec.v];
    [target_of context trees s] is the parsed sample with the context cut off. *)

From Coq Require Import String.
From Coq Require Import List Bool Arith Lia ZArith Sorted Permutation QArith Qcanon.
From Verif Require Import Base SeqNodes Transforms PackedSeq PackedSeqProofs Numbered Graph GatedDag Convert Decisions ConstraintSpec ConstraintDag ConstraintPack Html
  PseudoParse EditDag EditSpec EditProofs EditTheorems CostDerivation Properties_Tree Properties_Edit SystemSpec BuildSystem BuildProofs Combine CombineSpec CombineProofs CombineStats CombineTheorems
  Properties_EndToEnd UtilityBounds.
Import ListNotations.
Close Scope string_scope. Close Scope Qc_scope. Close Scope Q_scope. Close Scope Z_scope. Open Scope nat_scope. Open Scope list_scope.

(** Nothing is put in a region and nothing is cut off. *)
Definition nothing_chosen (ds : list decision) : Prop := Forall (fun d => snd d = DFalse \/ snd d = DNA) ds.

(** ** C81.  Whatever is decided and however the suggestion is edited, it is worth at
    most the price of its tokens, so of its text.  If deleting never pays, the same
    holds of the continuation. *)
Theorem C81_worth_at_most_the_text :
  forall (M : Type) (md : EqDec M) (P : parameters) (suggestion continuation : list (node M)) d p,
    sensible P -> construct_edit_dag P (pack suggestion) (pack continuation) = Ok d -> complete_path d p ->
    exists k, path_cost p = Fin k /\
      (- k <= high_match P * number (tokens_length suggestion))%Qc /\
      (- k <= high_match P * number (length (render suggestion)))%Qc /\
      (no_gain_from_deleting P -> (- k <= high_match P * number (tokens_length continuation))%Qc).
Proof.
  intros M md P ns ts d p S E Hp. destruct (C44_edit_dag_exact M md P ns ts) as [d' [E' [H _]]].
  assert (d' = d) by congruence. subst d'. destruct (H p Hp) as [k [Hk He]]. exists k.
  assert (W : forall l : list (node M), weight (labelled l) = number (tokens_length l)) by (intros; unfold weight, labelled; now rewrite erase_labs).
  assert (B : (- k <= high_match P * number (tokens_length ns))%Qc).
  { rewrite <- W. destruct He as [He|He]; eapply edited_bound; eauto. }
  splits; auto.
  - eapply Qcle_trans; [exact B|]. pose proof (number_le _ _ (tokens_in_text ns)) as T. pose proof (s_high_match P S) as G.
    rewrite (Qcmult_comm (high_match P) (number (tokens_length ns))), (Qcmult_comm (high_match P)). now apply Qcmult_le_compat_r.
  - intros D. rewrite <- W. destruct He as [He|He]; eapply edited_target_bound; eauto.
Qed.

(** A suggestion that comes true is worth the price of all its tokens, if nothing is
    put in a region or cut off; under sensible costs no decision is worth more. *)
Theorem C81_worth_all_when_true :
  forall (M : Type) (md : EqDec M) (P : parameters) (suggestion : list (node M)) d,
    construct_edit_dag P (pack suggestion) (pack (strip_decision_nodes suggestion)) = Ok d ->
    (exists p, complete_path d p /\ nothing_chosen (path_assignments p) /\ path_cost p = Fin (- (high_match P * number (tokens_length suggestion)))%Qc) /\
    (sensible P -> forall p, complete_path d p -> exists k, path_cost p = Fin k /\ (- (high_match P * number (tokens_length suggestion)) <= k)%Qc).
Proof.
  intros M md P ns d E. split.
  - destruct (C44_edit_dag_exact M md P ns (strip_decision_nodes ns)) as [d' [E' [_ H]]].
    assert (d' = d) by congruence. subst d'.
    assert (K : edit P (labelled ns) (labelled (strip_decision_nodes ns)) (- (high_match P * weight (labelled ns)))%Qc (flat_map no_regions (labelled ns))).
    { left. apply (kept_whole P (lsizes (labelled ns))); auto. unfold labelled. now rewrite !erase_labs. }
    destruct (H _ _ K) as [p [H1 [H2 H3]]]. exists p. splits; auto.
    + rewrite H3. apply (no_regions_negative (lsizes (labelled ns))); auto.
    + rewrite H2. unfold weight, labelled. now rewrite erase_labs.
  - intros S p Hp. destruct (C81_worth_at_most_the_text M md P ns _ d p S E Hp) as [k [H1 [H2 _]]]. exists k. split; auto. qc_lra.
Qed.

(** Whatever comes, the suggestion without regions need not cost more than starting one
    edit, deleting its tokens and inserting those of the continuation. *)
Theorem C81_worst_case :
  forall (M : Type) (md : EqDec M) (P : parameters) (suggestion continuation : list (node M)) d,
    no_decisions continuation -> construct_edit_dag P (pack suggestion) (pack continuation) = Ok d ->
    exists p, complete_path d p /\ nothing_chosen (path_assignments p) /\
      path_cost p = Fin (high_start P + (high_delete P * number (tokens_length suggestion) + insert_per_char P * number (tokens_length continuation)))%Qc.
Proof.
  intros M md P ns ts d Ht E. destruct (C44_edit_dag_exact M md P ns ts) as [d' [E' [_ H]]].
  assert (d' = d) by congruence. subst d'.
  assert (To : Forall text_only (labelled ts)) by (apply no_decisions_only; unfold labelled; now rewrite erase_labs).
  destruct (H _ _ (or_introl (replaced_whole P (labelled ns) (labelled ts) To))) as [p [H1 [H2 H3]]]. exists p. splits; auto.
  - rewrite H3. apply (no_regions_negative (lsizes (labelled ns))); auto.
  - rewrite H2. unfold weight, labelled. now rewrite !erase_labs.
Qed.

(** The costs derived from a precision are sensible, and each character counts once. *)
Theorem C81_derived_costs_are_sensible :
  forall precision start sensitivity : Qc, (0 <= precision <= 1)%Qc -> (0 <= sensitivity <= 1)%Qc -> (0 <= start)%Qc ->
    sensible (derive_uncertainty_region_costs precision start sensitivity) /\
    high_match (derive_uncertainty_region_costs precision start sensitivity) = 1%Qc.
Proof.
  intros p c s [Hp1 Hp2] [Hs1 Hs2] Hc. split; [|reflexivity].
  assert (Q1 : (0 <= p * (1 - s))%Qc) by (apply qc_prod; [exact Hp1|qc_lra]).
  assert (Q2 : (p * (1 - s) <= 1 * (1 - s))%Qc) by (apply qc_scale; [exact Hp2|qc_lra]).
  assert (Q3 : (0 <= (1 - p) * (1 - s) * c)%Qc) by (apply qc_prod; [apply qc_prod; qc_lra|exact Hc]).
  constructor; cbn.
  - discriminate.
  - replace (Q2Qc 2 * s - (1 - Q2Qc 2 * p * (1 - s)))%Qc with (Q2Qc 2 * s - 1 + Q2Qc 2 * (p * (1 - s)))%Qc by ring. qc_lra.
  - discriminate.
  - replace (1 - Q2Qc 2 * p * (1 - s))%Qc with (1 - Q2Qc 2 * (p * (1 - s)))%Qc by ring. qc_lra.
  - discriminate.
  - exact Q3.
  - exact Hc.
  - apply qc_prod; auto.
Qed.

(** ** The reported utility and bound. *)
Lemma average_least b ks : ks <> [] -> Forall (fun k => (b <= k)%Qc) ks -> (b <= average ks)%Qc.
Proof.
  intros Hn F. unfold average. change (Q2Qc (inject_Z (Z.of_nat (length ks)))) with (number (length ks)).
  assert (T : (b * number (length ks) <= fold_right Qcplus 0 ks)%Qc).
  { clear Hn. induction F as [|k ks Hk F IH]; cbn [length fold_right].
    - change (number 0) with 0%Qc. replace (b * 0)%Qc with 0%Qc by ring. apply Qcle_refl.
    - change (S (length ks)) with (1 + length ks). rewrite number_add. change (number 1) with 1%Qc.
      replace (b * (1 + number (length ks)))%Qc with (b + b * number (length ks))%Qc by ring. qc_lra. }
  assert (Pos : (0 < number (length ks))%Qc).
  { destruct ks; [congruence|]. unfold number, Qclt. rewrite !Q2Qc_this. unfold inject_Z, Qlt. cbn [Qnum Qden length]. lia. }
  assert (Nz : number (length ks) <> 0%Qc) by (intros C; rewrite C in Pos; discriminate).
  unfold Qcdiv. replace b with (b * number (length ks) * / number (length ks))%Qc by (field; exact Nz).
  apply Qcmult_le_compat_r; [exact T|]. apply Qclt_le_weak. apply Qcnot_le_lt. intros C.
  assert (X : (number (length ks) * / number (length ks) <= 0)%Qc).
  { replace 0%Qc with (0 * number (length ks))%Qc by ring. rewrite Qcmult_comm. apply Qcmult_le_compat_r; [exact C|]. now apply Qclt_le_weak. }
  rewrite Qcmult_inv_r in X by exact Nz. now apply X.
Qed.
Lemma strip_prototype low exit context sample trees : no_decisions (trees sample) ->
  strip_decision_nodes (prototype_of low exit context sample trees) = target_of context trees sample.
Proof.
  intros D. unfold prototype_of, annotate, target_of. rewrite truncate_strip. f_equal.
  destruct low, exit; cbn [andb].
  - exact (C22_strip_undoes_insertions mtype [InsertRegions true allow_regions; InsertExit true true] _ D).
  - exact (C22_strip_undoes_insertions mtype [InsertRegions true allow_regions] _ D).
  - exact (C22_strip_undoes_insertions mtype [InsertExit true true] _ D).
  - now apply strip_no_decisions_id.
Qed.

(** What each sample costs if nothing is put in a region or cut off and edits are made
    only where a sample differs from the chosen one. *)
Definition plain_cost (P : parameters) (tokens : text -> nat) (sample s : text) : Qc :=
  (if eqb s sample then - (high_match P * number (tokens sample))
   else high_start P + (high_delete P * number (tokens sample) + insert_per_char P * number (tokens s)))%Qc.

(** The reported utility is at most the price of the tokens of the chosen sample, so of
    its text.  The reported bound is at least what the suggestion is worth when it is
    shown as it is: the price of its tokens for every sample that agrees, less the price
    of a replacement for every other sample. *)
Theorem C81_reported_utility :
  forall (P : parameters) (low exit : bool) parse (context : text) (samples : list text) (index : Z) (sample : text) trees fuel clock r asg,
    (forall s, In s samples -> reads parse (context ++ s) (trees s)) -> designates samples index sample ->
    combine_samples fuel clock (edit_wrapper P low exit) parse context samples index = Some (Ok r) -> assignment_map r = Some asg ->
    let tokens s := tokens_length (target_of context trees s) in
    tokens sample <= length sample /\
    exists v u, solution_utility r = Fin v /\ utility_dual_bound r = Fin u /\ (v <= u)%Qc /\
      (sensible P -> (v <= high_match P * number (tokens sample))%Qc) /\
      (- average (map (plain_cost P tokens sample) samples) <= u)%Qc.
Proof.
  intros P low exit parse context samples index sample trees fuel clock r asg Hread Hsample H Ha tokens.
  destruct (C60_edit_utility P low exit parse context samples index sample trees fuel clock r Hread Hsample H) as [W [R1 R2]].
  destruct (W asg Ha) as [_ [ks [u [F [Hv [Hu [Hle Ho]]]]]]]. clear W.
  assert (Hin : In sample samples) by (destruct Hsample as [j [Hj _]]; eapply nth_error_In; eauto).
  assert (D : no_decisions (trees sample)) by (destruct (Hread sample Hin) as [_ [_ D]]; exact D).
  set (proto := prototype_of low exit context sample trees) in *.
  assert (S : strip_decision_nodes proto = target_of context trees sample) by now apply strip_prototype.
  assert (T : tokens_length proto = tokens sample) by (unfold tokens; rewrite <- S; symmetry; apply strip_tokens).
  assert (Wt : forall l : list (node mtype), weight (labelled l) = number (tokens_length l)) by (intros; unfold weight, labelled; now rewrite erase_labs).
  split; [rewrite <- T, <- R1; apply tokens_in_text|]. exists (- average ks)%Qc, u. splits; auto.
  - intros Sn. assert (N : ks <> []) by (intros ->; inversion F as [E|]; rewrite <- E in Hin; destruct Hin).
    assert (B : (- (high_match P * number (tokens sample)) <= average ks)%Qc).
    { apply average_least; auto. clear -F T Sn Wt. clearbody proto. induction F as [|s k l l' Hk F IH]; constructor; auto.
      destruct Hk as [[ds [Hk _]] _].
      assert (B : (- k <= high_match P * weight (labelled proto))%Qc) by (destruct Hk as [Hk|Hk]; eapply edited_bound; eauto).
      rewrite Wt, T in B. qc_lra. }
    qc_lra.
  - apply (Ho (flat_map no_regions (labelled proto))).
    { left. apply no_regions_chosen. }
    assert (G : forall s, In s samples -> exists ds', edit P (labelled proto) (labelled (target_of context trees s)) (plain_cost P tokens sample s) ds' /\
                same_decisions (flat_map no_regions (labelled proto)) ds').
    { intros s Hs. exists (flat_map no_regions (labelled proto)). split; [|intros key; reflexivity]. left. unfold plain_cost. destruct (eqb s sample) eqn:Es.
      - apply eqb_eq in Es. subst s. rewrite <- T, <- Wt. apply (kept_whole P (lsizes (labelled proto))); auto.
        unfold labelled. rewrite !erase_labs. now symmetry.
      - rewrite <- T. unfold tokens. rewrite <- !Wt. apply replaced_whole.
        destruct (Hread s Hs) as [_ [_ Ds]]. apply no_decisions_only. unfold labelled. rewrite erase_labs. unfold target_of. eapply suffix_no_decisions; eauto. apply truncate_suffix. }
    revert G. generalize samples as l. clear. induction l as [|s l IH]; intros G; cbn [map]; [exact (Forall2_nil _)|].
    apply Forall2_cons; [apply G; now left|]. apply IH. intros s' Hs'. apply G. now right.
Qed.

(** When all samples agree, the bound says that the suggestion can be worth the price of
    all its tokens. *)
Corollary C81_when_all_agree :
  forall (P : parameters) (low exit : bool) parse (context : text) (samples : list text) (index : Z) (sample : text) trees fuel clock r asg,
    (forall s, In s samples -> reads parse (context ++ s) (trees s)) -> designates samples index sample -> (forall s, In s samples -> s = sample) ->
    combine_samples fuel clock (edit_wrapper P low exit) parse context samples index = Some (Ok r) -> assignment_map r = Some asg ->
    exists u, utility_dual_bound r = Fin u /\ (high_match P * number (tokens_length (target_of context trees sample)) <= u)%Qc.
Proof.
  intros P low exit parse context samples index sample trees fuel clock r asg Hread Hsample Hall H Ha.
  destruct (C81_reported_utility P low exit parse context samples index sample trees fuel clock r asg Hread Hsample H Ha) as [_ [v [u [_ [Hu [_ [_ B]]]]]]].
  exists u. split; auto. eapply Qcle_trans; [|exact B].
  set (t := (high_match P * number (tokens_length (target_of context trees sample)))%Qc) in *.
  assert (N : samples <> []) by (destruct Hsample as [j [Hj _]]; destruct samples, j; discriminate).
  assert (E : average (map (plain_cost P (fun s => tokens_length (target_of context trees s)) sample) samples) = (- t)%Qc).
  { replace (map (plain_cost P (fun s => tokens_length (target_of context trees s)) sample) samples) with (repeat (- t)%Qc (length samples)).
    - unfold average. rewrite repeat_length. change (Q2Qc (inject_Z (Z.of_nat (length samples)))) with (number (length samples)).
      assert (Fl : fold_right Qcplus 0%Qc (repeat (- t)%Qc (length samples)) = (- t * number (length samples))%Qc).
      { generalize (length samples). induction n as [|n IH]; cbn [repeat fold_right]; [change (number 0) with 0%Qc; ring|].
        rewrite IH. change (S n) with (1 + n). rewrite number_add. change (number 1) with 1%Qc. ring. }
      rewrite Fl. field. destruct samples; [congruence|]. intros C.
      assert (Pos : (0 < number (length (t0 :: samples)))%Qc) by (unfold number, Qclt; rewrite !Q2Qc_this; unfold inject_Z, Qlt; cbn [Qnum Qden length]; lia).
      rewrite C in Pos. discriminate.
    - symmetry. clear -Hall. induction samples as [|s l IH]; auto. cbn [map length repeat]. f_equal; [|apply IH; intros s' Hs'; apply Hall; now right].
      unfold plain_cost. rewrite (Hall s (or_introl eq_refl)), eqb_refl. reflexivity. }
  rewrite E. qc_lra.
Qed.

Definition ex_derived : parameters := derive_uncertainty_region_costs (Q2Qc (7 # 10)) (Q2Qc 5) (Q2Qc (1 # 2)).
Example C81_hypotheses : sensible ex_derived /\ no_gain_from_deleting ex_derived /\
  (forall s, In s ex_samples -> reads letters (chars "x" ++ s) (letter_tree (chars "x") s)) /\ designates ex_samples (-1) (chars "ac").
Proof.
  split; [|split; [|exact C55_hypotheses]].
  - apply C81_derived_costs_are_sensible; repeat split; discriminate.
  - split; discriminate.
Qed.
(** Both samples are the same: the utility is the number of characters. *)
Example C81_example :
  match combine_samples 100 (fun _ => false) (edit_wrapper ex_derived true false) letters (chars "x") [chars "ac"; chars "ac"] (-1) with
  | Some (Ok r) => assignment_map r <> None /\ solution_utility r = Fin (Q2Qc 2) /\ utility_dual_bound r = Fin (Q2Qc 2)
  | _ => False
  end.
Proof. vm_compute. repeat split; discriminate. Qed.
Print Assumptions C81_worth_at_most_the_text.
Print Assumptions C81_worth_all_when_true.
Print Assumptions C81_worst_case.
Print Assumptions C81_derived_costs_are_sensible.
Print Assumptions C81_reported_utility.
Print Assumptions C81_when_all_agree.
