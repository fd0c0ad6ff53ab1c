(** C86: how much a suggestion of calls can be worth.  Specification vocabulary: [tame],
    [worth_if_found], [cost_if_missed] in [CallWorth.v]; [average] in [SystemSpec.v];
    [calls_of isspace builtin context trees s] is the list of the calls of a sample. *)

From Coq Require Import String.
From Coq Require Import List Bool Arith Lia ZArith QArith Qcanon.
From Verif Require Import Base SeqNodes Transforms PackedSeq PackedSeqProofs Numbered Graph GatedDag Convert Decisions ConstraintSpec ConstraintDag ConstraintPack Html
  PseudoParse EditDag EditSpec EditProofs SelectionDag SelectionSpec SelectionTheorems Properties_Selection RegionDecisions CallSequence CallSpec CallProofs CallBaselines CallTheorems CostDerivation Properties_Tree Properties_Edit SystemSpec BuildSystem BuildProofs
  Combine CombineSpec CombineProofs CombineStats CombineTheorems Properties_EndToEnd UtilityBounds Properties_Bounds Properties_Prices Properties_Order CallWorth Properties_Calls.
Import ListNotations.
Close Scope string_scope. Close Scope Qc_scope. Close Scope Q_scope. Close Scope Z_scope. Open Scope nat_scope. Open Scope list_scope.

(** ** C86.  However parts of a prototype are selected and sought in a target, they are
    worth at most what all tokens of the prototype are worth, and at most what all tokens
    of the target are worth. *)
Theorem C86_selection_worth :
  forall (M : Type) (md : EqDec M) (U : text -> M -> utilities) (prototype target : list (node M)) d p,
    tame U -> construct_selection_dag U (pack prototype) (pack target) = Ok d -> complete_path d p ->
    exists k, path_cost p = Fin k /\ (- k <= worth_if_found U prototype)%Qc /\ (- k <= worth_if_found U target)%Qc.
Proof.
  intros M md U ns ts d p T E Hp. destruct (C45_selection_paths_credit_occurrences M md U ns ts d p E Hp) as [k [Hk S]]. exists k. split; auto.
  destruct (selection_bound U T _ _ _ _ S) as [B1 B2]. rewrite walks_found in B1, B2. unfold labelled in *. rewrite erase_labs in B1, B2. auto.
Qed.
(** Selecting nothing is always possible, and neither gains nor costs anything. *)
Theorem C86_nothing_selected :
  forall (M : Type) (md : EqDec M) (U : text -> M -> utilities) (prototype target : list (node M)),
    Forall no_exit (walks (labelled prototype)) -> ~ begins_with_end (walks (labelled prototype)) -> Forall text_only (labelled target) ->
    exists d p, construct_selection_dag U (pack prototype) (pack target) = Ok d /\ complete_path d p /\ path_cost p = Fin 0%Qc /\
      region_choice (labelled prototype) (path_assignments p) /\ nothing_chosen (path_assignments p).
Proof.
  intros M md U ns ts F B T. destruct (C45_selection_dag_exact M md U ns ts F B T) as [d [E H]].
  destruct (proj1 (H 0%Qc _) (leave_all U _ (walks (labelled ts)) F)) as [p [Hp [Hk Ha]]]. exists d, p. rewrite Ha. rewrite (left_out_walks (labelled ns) F). splits; auto.
  - left. apply no_regions_chosen.
  - rewrite <- (left_out_walks (labelled ns) F). unfold nothing_chosen. apply Forall_flat_map. eapply Forall_impl; [|exact F]. intros x _. destruct x; cbn [left_out]; repeat (apply Forall_cons || apply Forall_nil); cbn [snd]; auto.
Qed.
(** The prices of the tool satisfy the hypothesis. *)
Theorem C86_call_utilities_tame : forall p : Qc, (0 <= p)%Qc -> (p <= 1)%Qc -> tame (call_utilities p).
Proof.
  intros p P0 P1 t m. unfold call_utilities. cbn [match_utility delete_cost].
  set (util := if eqb m ARGS then 1%Qc else _). assert (G : (0 <= util)%Qc) by (unfold util; repeat (destruct (eqb m _); [discriminate|]); discriminate).
  assert (P2 : (0 <= 1 - p)%Qc) by qc_lra. clearbody util. split.
  - replace 0%Qc with (util * 0)%Qc by ring. rewrite (Qcmult_comm util), (Qcmult_comm util). replace (0 * util)%Qc with (0 * util)%Qc by ring. now apply Qcmult_le_compat_r.
  - replace 0%Qc with (util * 0)%Qc by ring. rewrite (Qcmult_comm util), (Qcmult_comm util). now apply Qcmult_le_compat_r.
Qed.

Lemma average_opp (f : text -> Qc) l : average (map f l) = (- average (map (fun s => - f s) l))%Qc.
Proof.
  unfold average. rewrite !map_length. unfold Qcdiv. generalize (/ Q2Qc (inject_Z (Z.of_nat (length l))))%Qc as z. intros z.
  assert (Fl : fold_right Qcplus 0%Qc (map (fun s => (- f s)%Qc) l) = (- fold_right Qcplus 0%Qc (map f l))%Qc).
  { clear. induction l as [|s l IH]; cbn [map fold_right]; [ring|]. rewrite IH. ring. }
  rewrite Fl. ring.
Qed.
(** The reported utility is at most what the calls of the chosen sample are worth, and at
    most what those of the samples are worth on average.  The reported bound is never
    negative, and at least what suggesting all calls whole is worth: all of their worth
    for the samples that make the same calls, less the cost of missing them for others. *)
Theorem C86_reported_call_worth :
  forall (isspace : nat -> bool) (builtin : list text) (U : text -> text -> utilities) parse (context : text) (samples : list text) (index : Z) (sample : text)
         trees fuel clock r asg,
    (forall s, In s samples -> reads parse (context ++ s) (trees s)) -> designates samples index sample ->
    combine_samples fuel clock (call_wrapper isspace builtin U) parse context samples index = Some (Ok r) -> assignment_map r = Some asg ->
    let calls := calls_of isspace builtin context trees in
    exists v u, solution_utility r = Fin v /\ utility_dual_bound r = Fin u /\ (v <= u)%Qc /\ (0 <= u)%Qc /\
      (forall agrees : text -> bool, (forall s, In s samples -> agrees s = true -> strip_decision_nodes (calls s) = strip_decision_nodes (calls sample)) ->
        (average (map (fun s => if agrees s then worth_if_found U (calls sample) else - cost_if_missed U (calls sample)) samples) <= u)%Qc) /\
      (tame U -> (v <= worth_if_found U (calls sample))%Qc /\ (v <= average (map (fun s => worth_if_found U (calls s)) samples))%Qc).
Proof.
  intros isspace builtin U parse context samples index sample trees fuel clock r asg Hread Hsample H Ha calls.
  pose proof (C60_call_utility isspace builtin U parse context samples index sample trees fuel clock r Hread Hsample H) as W. cbn zeta in W. fold calls in W.
  destruct (W asg Ha) as [_ [ks [u [F [Hv [Hu [Hle Ho]]]]]]]. clear W.
  assert (Hin : In sample samples) by (destruct Hsample as [j [Hj _]]; eapply nth_error_In; eauto).
  assert (N : ks <> []) by (intros ->; inversion F as [E|]; rewrite <- E in Hin; destruct Hin).
  destruct (calls_hyps isspace builtin context sample trees) as [Hx _]. fold calls in Hx.
  exists (- average ks)%Qc, u. splits; auto.
  - assert (B : (- average (map (fun _ => 0%Qc) samples) <= u)%Qc).
    { apply (Ho (flat_map no_regions (labelled (calls sample)))); [left; apply no_regions_chosen|].
      rewrite <- (left_out_walks _ Hx). clear -Hx. induction samples as [|s l IH]; cbn [map]; [exact (Forall2_nil _)|]. apply Forall2_cons; auto.
      eexists. split; [apply leave_all; exact Hx|]. intros key. reflexivity. }
    replace (average (map (fun _ => 0%Qc) samples)) with 0%Qc in B; [qc_lra|].
    unfold average. replace (fold_right Qcplus 0%Qc (map (fun _ : text => 0%Qc) samples)) with 0%Qc; [unfold Qcdiv; ring|].
    clear. induction samples as [|s l IH]; cbn [map fold_right]; [reflexivity|]. rewrite <- IH. ring.
  - intros agrees Hg. rewrite average_opp.
    destruct (calls_lines isspace builtin context trees sample) as (k & expected & cs & seqs & _ & _ & HM & EP & HF). fold calls in EP.
    assert (Wc : Forall whole_call seqs).
    { clear -HM HF. induction HM as [|c seq ks seqs Hm HM IH]; inversion HF; subst; constructor; auto.
      destruct Hm as (body & at' & _ & -> & _). exists (body ++ [Token (chars "(") (chars "START_CALL"); RegionEnd; Token (render_node (arguments c)) at'; Token (chars ")") (chars "END_CALL")]).
      split; [now rewrite <- app_assoc|]. inversion H1 as [|? ? _ G]; subst. apply Forall_app in G as [G1 _]. apply Forall_app. split; [exact G1|]. repeat constructor. }
    destruct (full_selection U seqs Wc (labelled (calls sample))) as [ds [C [S Lo]]]; [unfold labelled; rewrite erase_labs; exact EP|].
    apply (Ho ds); [now left|]. clear -S Lo EP Hg. induction samples as [|s l IH]; cbn [map]; [exact (Forall2_nil _)|].
    apply Forall2_cons; [|apply IH; intros s' Hs'; apply Hg; now right].
    exists ds. split; [|intros key; reflexivity]. destruct (agrees s) eqn:Es.
    + pose proof (Hg s (or_introl eq_refl) Es) as Eq. specialize (S (labelled (strip_decision_nodes (calls s)))). rewrite walks_found in S. unfold labelled in *. rewrite !erase_labs in S. apply S. now rewrite Eq, EP.
    + rewrite Qcopp_involutive. specialize (Lo (walks (labelled (strip_decision_nodes (calls s))))). rewrite walks_missed in Lo. unfold labelled in *. rewrite erase_labs in Lo. exact Lo.
  - intros T.
    assert (B : forall s k, SystemSpec.least_cost (selection U (walks (labelled (calls sample))) (walks (labelled (strip_decision_nodes (calls s))))) asg k ->
              (- k <= worth_if_found U (calls sample))%Qc /\ (- k <= worth_if_found U (calls s))%Qc).
    { intros s k [[ds [Hk _]] _]. destruct (selection_bound U T _ _ _ _ Hk) as [B1 B2]. rewrite walks_found in B1, B2. unfold labelled in *. rewrite erase_labs in B1, B2.
      unfold worth_if_found in B2. rewrite strip_sum in B2. auto. }
    split.
    + assert (G : (- worth_if_found U (calls sample) <= average ks)%Qc).
      { apply average_least; auto. clear -F B. induction F as [|s k l l' Hk F IH]; constructor; auto. destruct (B s k Hk). qc_lra. }
      qc_lra.
    + assert (G : (average (map (fun s => - worth_if_found U (calls s)) samples) <= average ks)%Qc).
      { apply average_le. clear -F B. induction F as [|s k l l' Hk F IH]; cbn [map]; [exact (Forall2_nil _)|]. apply Forall2_cons; auto. destruct (B s k Hk). qc_lra. }
      rewrite (average_opp (fun s => worth_if_found U (calls s)) samples). qc_lra.
Qed.

(** When all samples make the same calls, the bound says that they can be worth all. *)
Corollary C86_when_all_make_the_same_calls :
  forall (isspace : nat -> bool) (builtin : list text) (U : text -> text -> utilities) parse (context : text) (samples : list text) (index : Z) (sample : text)
         trees fuel clock r asg,
    (forall s, In s samples -> reads parse (context ++ s) (trees s)) -> designates samples index sample ->
    combine_samples fuel clock (call_wrapper isspace builtin U) parse context samples index = Some (Ok r) -> assignment_map r = Some asg ->
    let calls := calls_of isspace builtin context trees in
    (forall s, In s samples -> strip_decision_nodes (calls s) = strip_decision_nodes (calls sample)) ->
    exists u, utility_dual_bound r = Fin u /\ (worth_if_found U (calls sample) <= u)%Qc.
Proof.
  intros isspace builtin U parse context samples index sample trees fuel clock r asg Hread Hsample H Ha calls Hall.
  destruct (C86_reported_call_worth isspace builtin U parse context samples index sample trees fuel clock r asg Hread Hsample H Ha) as (v & u & _ & Hu & _ & _ & B & _).
  exists u. split; auto. eapply Qcle_trans; [|apply (B (fun _ => true)); intros; now apply Hall].
  apply average_least; [destruct Hsample as [j [Hj _]]; destruct samples, j; discriminate|]. fold calls. clear. induction samples; constructor; auto. apply Qcle_refl.
Qed.

(** "f()" suggested for "f()" and "g": a new name is worth ten and an empty argument
    list one, times three quarters when found and times one quarter when missed. *)
Example C86_hypotheses : tame (call_utilities (Q2Qc (1 # 2))) /\
  (forall s, In s [chars "f()"; chars "g"] -> reads call_parse ((chars "x" ++ [10]) ++ s) (call_tree s)) /\ designates [chars "f()"; chars "g"] 0 (chars "f()").
Proof. split; [apply C86_call_utilities_tame; discriminate|exact C55_calls_hypotheses]. Qed.
Example C86_example :
  let run samples index := match combine_samples 100 (fun _ => false) (call_wrapper ascii_space [] (call_utilities (Q2Qc (1 # 4)))) call_parse (chars "x" ++ [10]) samples index with
    | Some (Ok r) => match assignment_map r with Some _ => Some (solution_utility r, utility_dual_bound r) | None => None end | _ => None end in
  let calls := calls_of ascii_space [] (chars "x" ++ [10]) call_tree in
  let U := call_utilities (Q2Qc (1 # 4)) in
  (worth_if_found U (calls (chars "f()")), cost_if_missed U (calls (chars "f()")), worth_if_found U (calls (chars "g")), run [chars "f()"; chars "g"] 0%Z, run [chars "f()"; chars "f()"] 0%Z) = (Q2Qc (33 # 4), Q2Qc (11 # 4), 0%Qc,
   Some (Fin (Q2Qc (11 # 4)), Fin (Q2Qc (11 # 4))), Some (Fin (Q2Qc (33 # 4)), Fin (Q2Qc (33 # 4)))).
Proof. vm_compute. reflexivity. Qed.
Print Assumptions C86_selection_worth.
Print Assumptions C86_nothing_selected.
Print Assumptions C86_call_utilities_tame.
Print Assumptions C86_reported_call_worth.
Print Assumptions C86_when_all_make_the_same_calls.
