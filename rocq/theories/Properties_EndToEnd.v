(** C55, C60, C61: combining samples, from texts to the annotated suggestion
    ([combine], demo_runner.py:62-178).  Specification vocabulary: [CombineSpec.v]
    ([designates], [reads], [annotated], [alternating]), [SystemSpec.v]
    ([least_cost], [same_decisions], [average], [sample_variance]),
    [ConstraintSpec.v] ([region_choice]), [EditSpec.v] ([edit]), [SelectionSpec.v]
    ([selection]), [RegionDecisions.v] ([shown]), [CallSpec.v].

    From [CombineTheorems.v]: [prototype_of low exit context sample trees] is the
    parsed sample with the options inserted and the context cut off;
    [target_of context trees s] is the parsed sample [s] with the context cut off;
    [calls_of] is the sequence of calls of a sample. *)

From Coq Require Import String.
From Coq Require Import List Bool Arith Lia ZArith Sorted Permutation QArith Qcanon.
From Verif Require Import Base SeqNodes Transforms PackedSeq PackedSeqProofs Numbered Graph GatedDag Convert Decisions ConstraintSpec ConstraintDag
  PseudoParse EditDag EditSpec SelectionDag SelectionSpec RegionDecisions RegionProofs Html CallSequence CallSpec CallProofs CallBaselines CallTheorems
  Properties_Tree Properties_Regions Properties_Calls Properties_Edit SystemSpec BuildSystem BuildProofs Combine CombineSpec CombineProofs CombineStats CombineTheorems.
Import ListNotations.
Close Scope string_scope. Close Scope Qc_scope. Close Scope Q_scope. Close Scope Z_scope. Open Scope nat_scope. Open Scope list_scope.

(** The example: a parser with one token per character; the context "x" and the
    samples "ab" and "ac". *)
Definition letters (t : text) : result (list (node mtype)) := Ok (map (fun c => Token [c] (MNode NContentLeaf)) t).
Definition letter_tree (context s : text) : list (node mtype) := map (fun c => Token [c] (MNode NContentLeaf)) (context ++ s).
Lemma letters_read context s : reads letters (context ++ s) (letter_tree context s).
Proof.
  unfold reads, letters, letter_tree. splits; auto.
  - induction (context ++ s) as [|c l IH]; auto. cbn [map]. rewrite SeqNodes.render_cons, IH. reflexivity.
  - unfold no_decisions. induction (context ++ s) as [|c l IH]; constructor; auto. exact I.
Qed.
Definition ex_samples : list text := [chars "ab"; chars "ac"].

(** ** C55.  Combining always returns a result, whatever the clock. *)
Theorem C55_combine_returns :
  forall (P : parameters) (low exit : bool) parse (context : text) (samples : list text) (index : Z) (sample : text) trees (clock : nat -> bool),
    (forall s, In s samples -> reads parse (context ++ s) (trees s)) -> designates samples index sample ->
    exists fuel r, forall more, combine_samples (fuel + more) clock (edit_wrapper P low exit) parse context samples index = Some (Ok r).
Proof. intros. eapply edit_returns; eauto. Qed.
Example C55_hypotheses :
  (forall s, In s ex_samples -> reads letters (chars "x" ++ s) (letter_tree (chars "x") s)) /\ designates ex_samples (-1) (chars "ac").
Proof. split; [intros; apply letters_read|]. exists 1. split; auto. Qed.
Print Assumptions C55_combine_returns.

(** The suggestion spells the chosen sample up to an early exit that was decided; the
    parts are flagged as the decisions say, and neighbouring parts have different
    flags.  With regions, there is a suggestion unless there is no text at all. *)
Theorem C55_suggestion_is_the_sample :
  forall (P : parameters) (low exit : bool) parse (context : text) (samples : list text) (index : Z) (sample : text) trees fuel clock r,
    (forall s, In s samples -> reads parse (context ++ s) (trees s)) -> designates samples index sample ->
    combine_samples fuel clock (edit_wrapper P low exit) parse context samples index = Some (Ok r) ->
    r_context_info r = Some context /\
    (low = true -> context ++ sample <> [] -> get_extracted_parts r <> None) /\
    forall parts, get_extracted_parts r = Some parts ->
      let all := flat_map nodes (labelled (prototype_of low exit context sample trees)) in
      alternating parts /\
      (low = false -> Forall (fun p => snd p = false) parts) /\
      exists asg rest, assignment_map r = Some asg /\ sample = concat (map fst parts) ++ rest /\
        (rest <> [] -> exit = true /\ exists k, In ((k, ShouldEarlyExit), DTrue) asg) /\
        exists raw, shown all asg [] all raw /\ annotated parts = annotated raw.
Proof.
  intros P low exit parse context samples index sample trees fuel clock r Hread Hsample H.
  pose proof (edit_spec P low exit parse context samples index sample trees Hread Hsample fuel clock r H) as S.
  destruct S as [Hc [_ [_ S]]]. rewrite (prototype_context parse context samples index sample trees Hread Hsample) in Hc. split; [exact Hc|]. unfold get_extracted_parts.
  destruct S as [[Hq [_ [Hs _]]]|[Hq [asg [ds [sol [ks [u [Ha [Hs [_ [_ [Hch [Hsame [Hresp [Hx _]]]]]]]]]]]]]]].
  - rewrite Hs. split; [|discriminate]. intros El Hn. exfalso.
    pose proof (enough_questions low exit parse context samples index sample trees Hread Hsample El Hn). lia.
  - rewrite Hs. split; [discriminate|]. intros parts Hp. injection Hp as <-.
    destruct (C47_regions_shown _ (prototype_of low exit context sample trees) ds asg [] Hch Hresp) as [raw [Er [Sh _]]].
    assert (Eraw : raw = extracted_parts sol). { rewrite Er in Hx. now injection Hx. }
    destruct (grouped_same (extracted_parts sol)) as [G1 G2]. cbv zeta. splits; auto.
    + intros El. apply grouped_flags. rewrite <- Eraw. eapply shown_no_start; [|exact Sh]. intros i. apply free_starts.
      unfold labelled. rewrite erase_labs. apply (no_starts low exit parse context samples index sample trees Hread Hsample El).
    + destruct (C47_text _ (prototype_of low exit context sample trees) ds asg Hch Hresp) as [parts' [rest [E' [Hr Hn]]]].
      assert (Ep : parts' = extracted_parts sol). { rewrite E' in Hx. now injection Hx. }
      subst parts'. rewrite (prototype_text low exit parse context samples index sample trees Hread Hsample) in Hr.
      exists asg, rest. splits; auto.
      * rewrite <- annotated_text, G1, annotated_text. exact Hr.
      * intros Hne. destruct Hch as [Hch|Hch]; [destruct (Hne (Hn Hch))|]. destruct (exits_taken _ _ Hch) as [[k Hk] Hf]. split.
        -- destruct exit; auto. exfalso. apply Hf. unfold labelled. rewrite erase_labs.
           now apply (no_exits low false parse context samples index sample trees Hread Hsample).
        -- exists k. assert (Ed : assoc (k, ShouldEarlyExit) asg = Some DTrue) by now apply Hresp. now apply assoc_In.
      * exists raw. rewrite G1, Eraw. split; auto. now rewrite <- Eraw.
Qed.
(** Both ways: letting the suggestion exit early after "a", or marking the rest. *)
Example C55_exit_example :
  match combine_samples 100 (fun _ => false) (edit_wrapper ex_costs false true) letters (chars "x") ex_samples (-1) with
  | Some (Ok r) => get_extracted_parts r = Some [(chars "a", false)]
  | _ => False
  end.
Proof. vm_compute. reflexivity. Qed.
Example C55_region_example :
  match combine_samples 100 (fun _ => false) (edit_wrapper ex_costs true false) letters (chars "x") [chars "a"; chars "b"] 0 with
  | Some (Ok r) => get_extracted_parts r = Some [(chars "a", true)]
  | _ => False
  end.
Proof. vm_compute. reflexivity. Qed.
Print Assumptions C55_suggestion_is_the_sample.

(** Finding: with early exits but without regions, there is no suggestion when the
    sample adds a decoration only; the empty result says nothing of the sample. *)
Theorem C55_always_suggests_refuted :
  ~ (forall (P : parameters) (low exit : bool) parse (context : text) (samples : list text) (index : Z) (sample : text) trees fuel clock r,
      (forall s, In s samples -> reads parse (context ++ s) (trees s)) -> designates samples index sample ->
      combine_samples fuel clock (edit_wrapper P low exit) parse context samples index = Some (Ok r) ->
      low || exit = true -> sample <> [] -> get_extracted_parts r <> None).
Proof.
  intros C. set (parse := fun t : text => Ok [Deco t] : result (list (node mtype))).
  assert (E : exists r, combine_samples 100 (fun _ => false) (edit_wrapper ex_costs false true) parse (chars "x") [chars " "] 0 = Some (Ok r) /\ get_extracted_parts r = None).
  { vm_compute. eexists. split; reflexivity. }
  destruct E as [r [E1 E2]].
  refine (C ex_costs false true parse (chars "x") [chars " "] 0%Z (chars " ") (fun s => [Deco (chars "x" ++ s)]) 100 (fun _ => false) r _ _ E1 eq_refl _ E2).
  - intros s [<-|[]]. unfold reads. splits; try reflexivity. repeat constructor.
  - exists 0. split; auto.
  - discriminate.
Qed.
Print Assumptions C55_always_suggests_refuted.

(** The suggested sequence of calls: every call found in the sample, in order, one per
    line, whatever is highlighted.  There is one exactly if the sample has a call. *)
Theorem C55_suggestion_is_the_calls :
  forall (isspace : nat -> bool) (builtin : list text) (U : text -> text -> utilities) parse (context : text) (samples : list text) (index : Z) (sample : text)
         trees (clock : nat -> bool),
    (forall s, In s samples -> reads parse (context ++ s) (trees s)) -> designates samples index sample ->
    (exists fuel r, forall more, combine_samples (fuel + more) clock (call_wrapper isspace builtin U) parse context samples index = Some (Ok r)) /\
    forall fuel r, combine_samples fuel clock (call_wrapper isspace builtin U) parse context samples index = Some (Ok r) ->
    exists k ks, line_start (context ++ sample) (length context) k /\
      finds (truncate_prefix_at_offset (trees sample) (Z.of_nat k)) ks /\
      in_order (map spelled ks) (skipn k (context ++ sample)) /\
      (get_extracted_parts r = None <-> ks = []) /\
      forall parts, get_extracted_parts r = Some parts ->
        alternating parts /\
        concat (map fst parts) = flat_map (fun call => spelled call ++ chars ")" ++ [10]) ks.
Proof.
  intros isspace builtin U parse context samples index sample trees clock Hread Hsample. split; [eapply call_returns; eauto|].
  intros fuel r H.
  assert (Hin : In sample samples) by (destruct Hsample as [j [Hj _]]; eapply nth_error_In; eauto).
  destruct (Hread sample Hin) as [_ [R _]].
  destruct (calls_lines isspace builtin context trees sample) as (k & expected & ks & seqs & H1 & H2 & F & EP & HF).
  destruct (C51_calls_occur_in_the_text isspace expected (trees sample) k ks seqs H2 F) as [T1 T2]. rewrite R in H1, T1.
  exists k, ks. split; [exact H1|]. split; [exact H2|]. split; [exact T1|].
  assert (RL : render (calls_of isspace builtin context trees sample) = flat_map (fun call => spelled call ++ chars ")" ++ [10]) ks).
  { rewrite EP. clear -T2. induction T2 as [|c s ks seqs E F IH]; auto. unfold lines in *. cbn [flat_map app].
    rewrite !SeqNodes.render_cons, IH, Transforms.render_group, E. cbn [render_node]. now rewrite <- !app_assoc. }
  assert (Q : ks = [] \/ 2 <= length (questions (labelled (calls_of isspace builtin context trees sample)))).
  { rewrite questions_weight. unfold labelled. rewrite erase_labs, EP. destruct F as [|c s ks seqs Hm F]; auto. right.
    destruct Hm as (body & at' & _ & -> & _). unfold lines. cbn [flat_map app map weight list_sum fold_right]. lia. }
  assert (Q0 : ks = [] -> length (questions (labelled (calls_of isspace builtin context trees sample))) = 0).
  { intros ->. rewrite questions_weight. unfold labelled. rewrite erase_labs, EP. inversion F. reflexivity. }
  pose proof (call_spec isspace builtin U parse context samples index sample trees Hread Hsample fuel clock r H) as S.
  destruct S as [_ [_ [_ S]]]. unfold get_extracted_parts.
  destruct S as [[Hq [_ [Hs _]]]|[Hq [asg [ds [sol [cs [u [Ha [Hs [_ [_ [Hch [Hsame [Hresp [Hx _]]]]]]]]]]]]]]]; rewrite Hs.
  - split; [|discriminate]. split; auto. intros _. destruct Q as [Q|Q]; auto. lia.
  - split; [split; [discriminate|]; intros Ek; specialize (Q0 Ek); lia|]. intros parts Hp. injection Hp as <-.
    destruct (grouped_same (extracted_parts sol)) as [G1 G2]. split; auto.
    destruct (C47_text _ (calls_of isspace builtin context trees sample) ds asg Hch Hresp) as [parts' [rest [E' [Hr Hn]]]].
    assert (Ep : parts' = extracted_parts sol). { rewrite E' in Hx. now injection Hx. }
    subst parts'. rewrite <- annotated_text, G1, annotated_text, <- RL, Hr.
    destruct Hch as [Hch|Hch].
    + rewrite (Hn Hch), app_nil_r. reflexivity.
    + exfalso. destruct (exits_taken _ _ Hch) as [_ Hf]. apply Hf. unfold labelled. rewrite erase_labs. apply calls_exit_free.
Qed.
(** The sample "f()\n" after the context "x\n", read as a name and brackets. *)
Definition call_parse (t : text) : result (list (node text)) :=
  Ok (if eqb t (chars "x" ++ [10] ++ chars "f()") then [leaf "x"; Deco [10]; leaf "f"; parens []] else [Deco t]).
Definition call_tree (s : text) : list (node text) :=
  if eqb s (chars "f()") then [leaf "x"; Deco [10]; leaf "f"; parens []] else [Deco (chars "x" ++ [10] ++ s)].
Example C55_calls_hypotheses :
  (forall s, In s [chars "f()"; chars "g"] -> reads call_parse ((chars "x" ++ [10]) ++ s) (call_tree s)) /\ designates [chars "f()"; chars "g"] 0 (chars "f()").
Proof.
  split.
  - intros s [<-|[<-|[]]]; unfold reads; splits; try reflexivity; repeat constructor.
  - exists 0. split; auto.
Qed.
Example C55_calls_example :
  match combine_samples 100 (fun _ => false) (call_wrapper ascii_space [] (call_utilities (Q2Qc (1 # 2)))) call_parse (chars "x" ++ [10]) [chars "f()"; chars "g"] 0 with
  | Some (Ok r) => match get_extracted_parts r with Some parts => concat (map fst parts) = chars "f()" ++ [10] | None => False end
  | _ => False
  end.
Proof. vm_compute. reflexivity. Qed.
Print Assumptions C55_suggestion_is_the_calls.

(** ** C60.  The reported utility is what the chosen decisions are worth: minus the
    average, over all samples, of the least cost of editing the suggestion into the
    sample.  The reported bound is at least the worth of every choice of regions and
    exit there is, so of the chosen one. *)
Definition worth_reported {M St In} (rels : text -> Qc -> list decision -> Prop) (tree : list (lnode M)) (samples : list text) (r : combine_result M St In) : Prop :=
  forall asg, assignment_map r = Some asg ->
    (exists ds, region_choice tree ds /\ same_decisions asg ds) /\
    exists ks u, Forall2 (fun s k => least_cost (rels s) asg k) samples ks /\
      solution_utility r = Fin (- average ks)%Qc /\ utility_dual_bound r = Fin u /\ (- average ks <= u)%Qc /\
      forall ds ks', region_choice tree ds ->
        Forall2 (fun s k => exists ds', rels s k ds' /\ same_decisions ds ds') samples ks' -> (- average ks' <= u)%Qc.

Lemma chosen_bounded (samples : list text) (rels : text -> Qc -> list decision -> Prop) asg ds ks :
  same_decisions asg ds -> Forall2 (fun s k => least_cost (rels s) asg k) samples ks ->
  Forall2 (fun s k => exists ds', rels s k ds' /\ same_decisions ds ds') samples ks.
Proof.
  intros S F. induction F as [|s k l l' H F IH]; constructor; auto. destruct H as [[ds' [H1 H2]] _]. exists ds'. split; auto.
  intros key. rewrite <- (S key). apply H2.
Qed.

Theorem C60_edit_utility :
  forall (P : parameters) (low exit : bool) parse (context : text) (samples : list text) (index : Z) (sample : text) trees fuel clock r,
    (forall s, In s samples -> reads parse (context ++ s) (trees s)) -> designates samples index sample ->
    combine_samples fuel clock (edit_wrapper P low exit) parse context samples index = Some (Ok r) ->
    worth_reported (fun s => edit P (labelled (prototype_of low exit context sample trees)) (labelled (target_of context trees s)))
      (labelled (prototype_of low exit context sample trees)) samples r /\
    render (prototype_of low exit context sample trees) = sample /\
    forall s, In s samples -> render (target_of context trees s) = s.
Proof.
  intros P low exit parse context samples index sample trees fuel clock r Hread Hsample H. splits.
  - pose proof (edit_spec P low exit parse context samples index sample trees Hread Hsample fuel clock r H) as S.
    destruct S as [_ [_ [_ S]]]. intros asg Ha.
    destruct S as [[_ [Hn _]]|(Hq & asg' & ds & sol & ks & u & Ha' & _ & _ & _ & Hch & Hsame & _ & _ & Hk & Hu & _ & Hb & Ho)]; [congruence|].
    assert (asg' = asg) by congruence. subst asg'. split; [eauto|]. exists ks, u. splits; auto. apply (Ho ds); auto. eapply chosen_bounded; eauto.
  - eapply prototype_text; eauto.
  - intros s Hs. eapply target_text; eauto.
Qed.
Theorem C60_call_utility :
  forall (isspace : nat -> bool) (builtin : list text) (U : text -> text -> utilities) parse (context : text) (samples : list text) (index : Z) (sample : text)
         trees fuel clock r,
    (forall s, In s samples -> reads parse (context ++ s) (trees s)) -> designates samples index sample ->
    combine_samples fuel clock (call_wrapper isspace builtin U) parse context samples index = Some (Ok r) ->
    let calls := calls_of isspace builtin context trees in
    worth_reported (fun s => selection U (walks (labelled (calls sample))) (walks (labelled (strip_decision_nodes (calls s))))) (labelled (calls sample)) samples r.
Proof.
  intros isspace builtin U parse context samples index sample trees fuel clock r Hread Hsample H calls.
  pose proof (call_spec isspace builtin U parse context samples index sample trees Hread Hsample fuel clock r H) as S.
  destruct S as [_ [_ [_ S]]]. intros asg Ha.
  destruct S as [[_ [Hn _]]|(Hq & asg' & ds & sol & ks & u & Ha' & _ & _ & _ & Hch & Hsame & _ & _ & Hk & Hu & _ & Hb & Ho)]; [congruence|].
  assert (asg' = asg) by congruence. subst asg'. split; [eauto|]. exists ks, u. splits; auto. apply (Ho ds); auto. eapply chosen_bounded; eauto.
Qed.
Example C60_example :
  match combine_samples 100 (fun _ => false) (edit_wrapper ex_costs false true) letters (chars "x") ex_samples (-1) with
  | Some (Ok r) => assignment_map r <> None /\ solution_utility r = Fin 1%Qc /\ utility_dual_bound r = Fin 1%Qc
  | _ => False
  end.
Proof. vm_compute. repeat split; discriminate. Qed.
Print Assumptions C60_edit_utility.
Print Assumptions C60_call_utility.

(** ** C61.  The statistics reported about the samples: the least cost for each of
    them, in order; the same costs sorted; their mean, which is minus the reported
    utility; and the sample variance. *)
Definition statistics_reported {M St In} (rels : text -> Qc -> list decision -> Prop) (samples : list text) (r : combine_result M St In) : Prop :=
  forall asg sol, assignment_map r = Some asg -> r_solution_info r = Some sol ->
    exists ks sorted, Forall2 (fun s k => least_cost (rels s) asg k) samples ks /\
      costs_unsorted (s_sample sol) = map Fin ks /\
      costs_sorted (s_sample sol) = map Fin sorted /\ Permutation ks sorted /\ StronglySorted Qcle sorted /\
      cost_average (s_sample sol) = Fin (average ks) /\ solution_utility r = Fin (- average ks)%Qc /\
      (2 <= length samples -> cost_variance (s_sample sol) = Fin (sample_variance ks)) /\
      (length samples = 1 -> cost_variance (s_sample sol) = NaN).
Lemma statistics {M St In} (rels : text -> Qc -> list decision -> Prop) (samples : list text) (r : combine_result M St In) asg sol ks :
  samples <> [] -> assignment_map r = Some asg -> r_solution_info r = Some sol ->
  Forall2 (fun s k => least_cost (rels s) asg k) samples ks -> solution_utility r = Fin (- average ks)%Qc ->
  s_sample sol = mkSample (map Fin ks) (sort_costs (map Fin ks)) (mean (sort_costs (map Fin ks))) (var_ddof1 (sort_costs (map Fin ks))) None ->
  statistics_reported rels samples r.
Proof.
  intros Hn Ha Hs Hk Hu Hi asg' sol' Ha' Hs'. assert (asg' = asg) by congruence. assert (sol' = sol) by congruence. subst asg' sol'.
  destruct (sorted_fin ks) as [ks' [E [Hp So]]]. rewrite E in Hi.
  assert (L : length samples = length ks) by (clear -Hk; induction Hk; cbn; auto).
  pose proof (Permutation_length Hp) as L'. exists ks, ks'. rewrite Hi. cbn [costs_unsorted costs_sorted cost_average cost_variance]. splits; auto.
  - rewrite mean_fin by (intros C; subst ks'; destruct samples; [congruence|cbn in *; lia]). f_equal. symmetry. now apply average_perm.
  - intros H2. rewrite variance_fin by lia. f_equal. symmetry. now apply variance_perm.
  - intros H1. destruct ks' as [|x [|y l]]; cbn in *; try lia. reflexivity.
Qed.
Theorem C61_edit_statistics :
  forall (P : parameters) (low exit : bool) parse (context : text) (samples : list text) (index : Z) (sample : text) trees fuel clock r,
    (forall s, In s samples -> reads parse (context ++ s) (trees s)) -> designates samples index sample ->
    combine_samples fuel clock (edit_wrapper P low exit) parse context samples index = Some (Ok r) ->
    statistics_reported (fun s => edit P (labelled (prototype_of low exit context sample trees)) (labelled (target_of context trees s))) samples r.
Proof.
  intros P low exit parse context samples index sample trees fuel clock r Hread Hsample H.
  pose proof (edit_spec P low exit parse context samples index sample trees Hread Hsample fuel clock r H) as S.
  destruct S as [_ [_ [_ S]]].
  destruct S as [[_ [Hn _]]|(Hq & asg' & ds & sol & ks & u & Ha' & Hs & _ & _ & Hch & Hsame & _ & _ & Hk & Hu & Hi & _)]; [intros asg sol C; congruence|].
  eapply statistics; eauto. destruct Hsample as [j [Hj _]]. intros ->. destruct j; discriminate.
Qed.
Theorem C61_call_statistics :
  forall (isspace : nat -> bool) (builtin : list text) (U : text -> text -> utilities) parse (context : text) (samples : list text) (index : Z) (sample : text)
         trees fuel clock r,
    (forall s, In s samples -> reads parse (context ++ s) (trees s)) -> designates samples index sample ->
    combine_samples fuel clock (call_wrapper isspace builtin U) parse context samples index = Some (Ok r) ->
    let calls := calls_of isspace builtin context trees in
    statistics_reported (fun s => selection U (walks (labelled (calls sample))) (walks (labelled (strip_decision_nodes (calls s))))) samples r.
Proof.
  intros isspace builtin U parse context samples index sample trees fuel clock r Hread Hsample H calls.
  pose proof (call_spec isspace builtin U parse context samples index sample trees Hread Hsample fuel clock r H) as S.
  destruct S as [_ [_ [_ S]]].
  destruct S as [[_ [Hn _]]|(Hq & asg' & ds & sol & ks & u & Ha' & Hs & _ & _ & Hch & Hsame & _ & _ & Hk & Hu & Hi & _)]; [intros asg sol C; congruence|].
  eapply statistics; eauto. destruct Hsample as [j [Hj _]]. intros ->. destruct j; discriminate.
Qed.
(** The rank of a total cost is the number of samples that cost less. *)
Theorem C61_rank :
  forall St In (dags : list PackedDag.pdag) (convs : list (@conversion St dkey dvalue In)) asg (ks : list Qc) (total : Qc) info,
    compute_sample_system_info dags convs asg (Some (Fin total)) = Ok info -> costs_unsorted info = map Fin ks ->
    cost_rank info = Some (length (filter (fun k => if Qclt_le_dec k total then true else false) ks)).
Proof.
  intros St In dags convs asg ks total info H Hc. unfold compute_sample_system_info in H.
  apply bind_ok_inv in H as [cs [H1 H]]. injection H as <-. cbn [costs_unsorted cost_rank] in *. subst cs.
  destruct (sorted_fin ks) as [ks' [E [Hp So]]]. rewrite E, bisect_rank by assumption. f_equal. symmetry. now apply below_perm.
Qed.
Example C61_example :
  match combine_samples 100 (fun _ => false) (edit_wrapper ex_costs false true) letters (chars "x") ex_samples (-1) with
  | Some (Ok r) =>
      match r_solution_info r, assignment_map r with
      | Some sol, Some asg =>
          costs_unsorted (s_sample sol) = [Fin (- (1))%Qc; Fin (- (1))%Qc] /\ cost_variance (s_sample sol) = Fin 0%Qc /\
          match compute_sample_system_info (map PackedDag.m_dag (removelast (DualSolver.tables (DualSolver.data (r_system r))))) (removelast (DualSolver.conversion_data (r_system r))) asg (Some (Fin 0%Qc)) with
          | Ok info => costs_unsorted info = map Fin [(- (1))%Qc; (- (1))%Qc] /\ cost_rank info = Some 2
          | Err _ => False
          end
      | _, _ => False
      end
  | _ => False
  end.
Proof. vm_compute. repeat split; reflexivity. Qed.
Print Assumptions C61_edit_statistics.
Print Assumptions C61_call_statistics.
Print Assumptions C61_rank.
