(** C68: evaluating a combined result on another continuation, such as the one the
    user wrote ([solution_info] with an evaluation target and a sample system,
    edit_distance_wrapper_base.py:190-246 and call_sequence_wrapper.py:541-643).

    Specification vocabulary.  [least_cost] and [edit], [selection] are those of C60.
    [measured actions metrics] ([Evaluation.v]) adds up the numbers of characters that
    the metrics give for the actions.  [calls_told] ([ShowCalls.v]) says what verdicts
    on the tokens of the suggestion have to do with a continuation, and
    [tallies verdicts] ([Evaluation.v]) counts the verdicts by type. *)

From Coq Require Import String.
From Coq Require Import List Bool Arith Lia ZArith Sorted QArith Qcanon.
From Verif Require Import Base SeqNodes Transforms PackedSeq PackedSeqProofs Numbered Graph GatedDag PackedDag Convert MapDag Decisions ConstraintSpec ConstraintDag
  EditDag EditSpec EditTheorems EditReport EditReportProofs SelectionDag SelectionSpec SelectionProofs SelectionTheorems SelectionReport SelectionReportProofs SelectionVerdicts RegionDecisions RegionProofs Html
  Properties_Tree Properties_Edit Properties_Report SystemSpec BuildSystem BuildProofs BuildKeys Combine CombineSpec CombineProofs CombineStats CombinePaths CombineTheorems
  DualSolver PseudoParse CallSequence CallTheorems Properties_Calls Properties_EndToEnd Show ShowSpec ShowProofs ShowCalls Evaluation.
Import ListNotations.
Close Scope string_scope. Close Scope Qc_scope. Close Scope Q_scope. Close Scope Z_scope. Open Scope nat_scope. Open Scope list_scope.

(** How many of the costs are below [k]. *)
Definition below (k : Qc) (ks : list Qc) : nat := length (filter (fun x => if Qclt_le_dec x k then true else false) ks).

(** ** Edits.  The evaluation always succeeds.  Its parts are those of the suggestion.  The
    total cost is the least cost of editing the suggestion into the continuation under
    the decisions made.  The metrics account for it: their costs add up to it, and
    their characters add up to the text of the suggestion on one side and to the
    continuation on the other, unless an early exit was decided.  The costs of the
    samples are those reported with the result, and the rank is the number of samples
    that cost less. *)
Theorem C68_edit_evaluation :
  forall (P : parameters) (low exit : bool) parse (context : text) (samples : list text) (index : Z) (sample truth : text) trees fuel clock r asg,
    (forall s, In s (truth :: samples) -> reads parse (context ++ s) (trees s)) -> designates samples index sample ->
    combine_samples fuel clock (edit_wrapper P low exit) parse context samples index = Some (Ok r) -> assignment_map r = Some asg ->
    let prototype := prototype_of low exit context sample trees in
    let target := target_of context trees truth in
    render prototype = sample /\ render target = truth /\
    exists sy sol k metrics info ks,
      w_build (edit_wrapper P low exit) (r_prototype r) [pack target] = Ok sy /\ r_solution_info r = Some sol /\
      solution_info_evaluated (evaluate_edits (r_prototype r) (pack target) sy) (r_prototype r) asg (r_system r) =
        Ok (extracted_parts sol, (Fin k, metrics), info) /\
      least_cost (edit P (labelled prototype) (labelled target)) asg k /\
      csum (map (fun kind => value (metric (fst kind) (snd kind) "cost") metrics) (list_prod all_actions all_confs)) = Fin k /\
      (exists from to from' to', sample = from ++ from' /\ truth = to ++ to' /\
         measured [Keep; Delete; PrototypeDecoration] metrics = count (length from) /\ measured [Keep; Insert; TargetDecoration] metrics = count (length to) /\
         (~ (exists n, In ((n, ShouldEarlyExit), DTrue) asg) -> from' = [] /\ to' = [])) /\
      costs_unsorted (s_sample sol) = map Fin ks /\ costs_unsorted info = map Fin ks /\ cost_rank info = Some (below k ks).
Proof.
  intros P low exit parse context samples index sample truth trees fuel clock r asg Hread Hsample H Ha prototype target.
  assert (Hr : forall s, In s samples -> reads parse (context ++ s) (trees s)) by (intros; apply Hread; now right).
  assert (T1 : render prototype = sample) by (eapply prototype_text; eauto).
  assert (T2 : Forall text_only (labelled target) /\ render target = truth) by (apply (target_text parse context (truth :: samples) trees Hread); now left).
  destruct T2 as [To T2]. splits; auto.
  destruct (evaluated (edit_wrapper P low exit) parse context samples index sample trees (fun s Hs => proj1 (Hr s Hs)) (designates_index _ _ _ Hsample)
             prototype _ eq_refl (construct_edit_dag P) (fun _ _ => eq_refl) (fun s => edit P (labelled prototype) (labelled (target_of context trees s)))
             (fun s Hs => edit_allows P prototype (target_of context trees s) (proj1 (target_text parse context samples trees Hr s Hs)))
             (fun s ds Hs Hc => choice_edit P (labelled prototype) (labelled (target_of context trees s)) ds (proj1 (target_text parse context samples trees Hr s Hs)) Hc)
             fuel clock r asg (pack target) (edit P (labelled prototype) (labelled target)) H Ha (edit_allows P prototype target To)
             (fun ds Hc => choice_edit P (labelled prototype) (labelled target) ds To Hc))
    as (Hp & Na & sy & m & m' & c & cs & p & k & sol & E1 & E2 & E3 & (d & y & B1 & B2 & B3 & B4 & B5 & B6) & Hs & Hx & ks & info & _ & K2 & K3 & K4 & K5).
  destruct (C52_metrics_account_for_the_path mtype _ P prototype target d p B1 B2) as [metrics [M1 [_ [_ [_ M2]]]]].
  destruct (measured_text P prototype target d p B1 B2 metrics M1) as [from [to [from' [to' [F1 [F2 [F3 [F4 F5]]]]]]]].
  exists sy, sol, k, metrics, info, ks. rewrite Hp. splits; auto.
  - unfold solution_info_evaluated. rewrite Hx. unfold evaluate_edits. rewrite E2, E3. cbn [fst snd] in B3. rewrite B3. cbn [bind fst]. rewrite target_edges. cbn [bind].
    rewrite metrics_moved, cost_moved, M1. cbn [bind fst]. rewrite B4. cbn [fst]. rewrite K3. reflexivity.
  - now rewrite M2, B4.
  - exists from, to, from', to'. rewrite <- T1, <- T2. splits; auto. intros C. apply F5. intros [n Hn]. apply C. exists n.
    assert (Q := B6 (n, ShouldEarlyExit)). unfold SystemSpec.decided in Q.
    match type of Q with (match ?x with _ => _ end) = (match ?z with _ => _ end) => 
      assert (Z : z = Some DTrue); [|rewrite Z in Q; destruct x as [[]|] eqn:Ex; try discriminate Q; exact (assoc_In _ _ _ Ex)] end.
    apply assoc_once; [exact (path_once P prototype target d p B1 B2)|exact Hn].
Qed.

(** Two samples "ab" and "ac" after "x"; the user wrote "ad". *)
Example C68_edit_hypotheses :
  (forall s, In s (chars "ad" :: ex_samples) -> reads letters (chars "x" ++ s) (letter_tree (chars "x") s)) /\ designates ex_samples 0 (chars "ab").
Proof. split; [intros; apply letters_read|exists 0; split; auto]. Qed.
Example C68_edit_example :
  match combine_samples 100 (fun _ => false) (edit_wrapper ex_costs true false) letters (chars "x") ex_samples 0 with
  | Some (Ok r) =>
      match assignment_map r, w_build (edit_wrapper ex_costs true false) (r_prototype r) [pack (target_of (chars "x") (letter_tree (chars "x")) (chars "ad"))] with
      | Some asg, Ok sy =>
          match solution_info_evaluated (evaluate_edits (r_prototype r) (pack (target_of (chars "x") (letter_tree (chars "x")) (chars "ad"))) sy) (r_prototype r) asg (r_system r) with
          | Ok (parts, (c, metrics), info) => parts = [(chars "a", false); (chars "b", true)] /\ c = Fin (Q2Qc (3 # 2)) /\ cost_rank info = Some 1 /\
              measured [Keep; Delete; PrototypeDecoration] metrics = count 2 /\ assoc (metric Delete (Some Low) "chars") metrics = Some (count 1)
          | Err _ => False
          end
      | _, _ => False
      end
  | _ => False
  end.
Proof. vm_compute. repeat split; reflexivity. Qed.
Print Assumptions C68_edit_evaluation.

(** ** Calls.  The total cost is the least cost under the decisions made; the counters
    count the verdicts on the tokens of the suggestion behind that cost: the novel,
    expected and argument tokens that were suggested and are matched by the
    continuation, and those that were suggested and are not. *)
Theorem C68_call_evaluation :
  forall (isspace : nat -> bool) (builtin : list text) (U : text -> text -> utilities) parse (context : text) (samples : list text) (index : Z) (sample truth : text)
         trees fuel clock r asg,
    (forall s, In s (truth :: samples) -> reads parse (context ++ s) (trees s)) -> designates samples index sample ->
    combine_samples fuel clock (call_wrapper isspace builtin U) parse context samples index = Some (Ok r) -> assignment_map r = Some asg ->
    let calls := calls_of isspace builtin context trees in
    let target := strip_decision_nodes (calls truth) in
    exists sy sol k counts info ks verdicts,
      w_build (call_wrapper isspace builtin U) (r_prototype r) [pack target] = Ok sy /\ r_solution_info r = Some sol /\
      solution_info_evaluated (evaluate_calls (r_prototype r) sy) (r_prototype r) asg (r_system r) = Ok (extracted_parts sol, (Fin k, counts), info) /\
      calls_told U asg (calls sample) target k verdicts /\ counts = tallies verdicts /\
      costs_unsorted (s_sample sol) = map Fin ks /\ costs_unsorted info = map Fin ks /\ cost_rank info = Some (below k ks).
Proof.
  intros isspace builtin U parse context samples index sample truth trees fuel clock r asg Hread Hsample H Ha calls target.
  assert (Hr : forall s, In s samples -> reads parse (context ++ s) (trees s)) by (intros; apply Hread; now right).
  destruct (calls_hyps isspace builtin context sample trees) as [H1 [H2 H3]].
  destruct (evaluated (call_wrapper isspace builtin U) parse context samples index sample trees (fun s Hs => proj1 (Hr s Hs)) (designates_index _ _ _ Hsample)
             (calls sample) _ eq_refl (construct_selection_dag U) (fun _ _ => eq_refl)
             (fun s => selection U (walks (labelled (calls sample))) (walks (labelled (strip_decision_nodes (calls s)))))
             (fun s Hs => selection_allows U (calls sample) (strip_decision_nodes (calls s)) H1 H2 (H3 s))
             (fun s ds Hs Hc => choice_selection U (labelled (calls sample)) _ ds H1 Hc)
             fuel clock r asg (pack target) (selection U (walks (labelled (calls sample))) (walks (labelled target))) H Ha
             (selection_allows U (calls sample) target H1 H2 (H3 truth))
             (fun ds Hc => choice_selection U (labelled (calls sample)) _ ds H1 Hc))
    as (Hp & Na & sy & m & m' & c & cs & p & k & sol & E1 & E2 & E3 & (d & y & B1 & B2 & B3 & B4 & B5 & B6) & Hs & Hx & ks & info & _ & K2 & K3 & K4 & K5).
  assert (Hsel : selection U (walks (labelled (calls sample))) (walks (labelled target)) k (path_assignments p)).
  { destruct (selection_allows U (calls sample) target H1 H2 (H3 truth)) as [d' [E' A]]. assert (d' = d) by congruence. subst d'.
    destruct (al_sound _ _ _ A p B2) as [k' [Q1 Q2]]. assert (k' = k) by congruence. now subst k'. }
  destruct (calls_tell U asg (calls sample) target d p k B1 B2 B4 Hsel B5 B6) as [groups [ss [G1 [G2 [_ [_ [G5 G6]]]]]]].
  exists sy, sol, k, (tallies (on_tokens ss)), info, ks, (on_tokens ss). rewrite Hp. splits; auto.
  unfold solution_info_evaluated. rewrite Hx. unfold evaluate_calls. rewrite E2, E3. cbn [fst snd] in B3. rewrite B3. cbn [bind fst]. rewrite target_edges. cbn [bind].
  rewrite counts_moved, cost_moved, (count_verdicts (calls sample) p ss no_counts G5 G6). cbn [bind fst]. rewrite B4. cbn [fst]. rewrite K3. reflexivity.
Qed.
(** With the utilities of the wrapper, the total cost follows from the counters and the
    verdicts on empty argument lists.  (Finding: these are paid for like the others, but
    no counter shows them.) *)
Theorem C68_call_cost :
  forall (precision : Qc) (verdicts : list (nat * (text * text) * verdict)),
    let n (x : nat) := Q2Qc (inject_Z (Z.of_nat x)) in
    let counts := tallies verdicts in
    fold_right (fun v q => (verdict_cost (call_utilities precision) v + q)%Qc) 0%Qc verdicts =
      (precision * (n (10 * deleted_novel counts + deleted_not_novel counts + deleted_args counts + tally EMPTY_ARGS Wrong verdicts)%nat)
       - (1 - precision) * (n (10 * correct_novel counts + correct_not_novel counts + correct_args counts + tally EMPTY_ARGS Matched verdicts)%nat))%Qc.
Proof.
  intros precision verdicts n counts. subst counts.
  assert (Na : forall a b, n (a + b) = (n a + n b)%Qc).
  { intros a b. unfold n. apply Qc_is_canon. unfold Qcplus. cbn [this Q2Qc]. rewrite Nat2Z.inj_add, inject_Z_plus. now rewrite !Qred_correct. }
  assert (Nm : forall a, n (10 * a) = (Q2Qc 10 * n a)%Qc).
  { intros a. cbn [Nat.mul]. rewrite !Na. change (n 0) with 0%Qc. replace (Q2Qc 10) with (1 + 1 + 1 + 1 + 1 + 1 + 1 + 1 + 1 + 1)%Qc by (apply Qc_is_canon; reflexivity). ring. }
  assert (C : forall m' v' x (l : list (nat * (text * text) * verdict)),
    tally m' v' (x :: l) = (if eqb (snd (snd (fst x))) m' && is_verdict v' (snd x) then 1 else 0) + tally m' v' l).
  { intros m' v' x l. unfold tally. cbn [filter]. now destruct (eqb (snd (snd (fst x))) m' && is_verdict v' (snd x)). }
  assert (D : forall a b : text, eqb a b = false -> forall x, eqb x a = true -> eqb x b = false) by (intros a b E x Ex; apply eqb_eq in Ex; now subst x).
  induction verdicts as [|[[i [t m]] v] l IH].
  - cbn. change (n 0) with 0%Qc. ring.
  - cbn [fold_right]. rewrite IH. unfold tallies. cbn [deleted_novel deleted_not_novel deleted_args correct_novel correct_not_novel correct_args].
    rewrite !C, !Na, !Nm, !Na. cbn [fst snd]. change (n 0) with 0%Qc. unfold verdict_cost, call_utilities.
    assert (N0 : n 0 = 0%Qc) by reflexivity. assert (N1 : n 1 = 1%Qc) by reflexivity.
    destruct (eqb m NOVEL) eqn:E1; [rewrite !(D NOVEL EXPECTED), !(D NOVEL ARGS), !(D NOVEL EMPTY_ARGS) by auto|
      destruct (eqb m EXPECTED) eqn:E2; [rewrite !(D EXPECTED ARGS), !(D EXPECTED EMPTY_ARGS) by auto|
        destruct (eqb m ARGS) eqn:E3; [rewrite !(D ARGS EMPTY_ARGS) by auto|destruct (eqb m EMPTY_ARGS) eqn:E4]]];
      destruct v; cbn [andb is_verdict match_utility delete_cost]; rewrite ?N0, ?N1; ring.
Qed.
Example C68_call_hypotheses :
  (forall s, In s (chars "f()" :: [chars "f()"; chars "g"]) -> reads call_parse ((chars "x" ++ [10]) ++ s) (call_tree s)) /\ designates [chars "f()"; chars "g"] 0 (chars "f()").
Proof.
  split.
  - intros s [<-|[<-|[<-|[]]]]; unfold reads; splits; try reflexivity; repeat constructor.
  - exists 0. split; auto.
Qed.
Example C68_call_example :
  let U := call_utilities (Q2Qc (1 # 4)) in
  let target := pack (strip_decision_nodes (calls_of ascii_space [] (chars "x" ++ [10]) call_tree (chars "f()"))) in
  match combine_samples 100 (fun _ => false) (call_wrapper ascii_space [] U) call_parse (chars "x" ++ [10]) [chars "f()"; chars "g"] 0 with
  | Some (Ok r) =>
      match assignment_map r, w_build (call_wrapper ascii_space [] U) (r_prototype r) [target] with
      | Some asg, Ok sy =>
          match solution_info_evaluated (evaluate_calls (r_prototype r) sy) (r_prototype r) asg (r_system r) with
          | Ok (parts, (c, counts), info) => (c, counts, cost_rank info) = (Fin (Q2Qc (- 33 # 4)), mkCounters 1 0 0 0 0 0, Some 0)
          | Err _ => False
          end
      | _, _ => False
      end
  | _ => False
  end.
Proof. vm_compute. repeat split; reflexivity. Qed.
Print Assumptions C68_call_evaluation.
Print Assumptions C68_call_cost.
