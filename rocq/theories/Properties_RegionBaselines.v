(** C62: the baselines of the uncertainty-regions wrapper
    ([build_baseline_assignments], uncertainty_regions_wrapper.py:268-324 and
    [UncertaintyRegionsBaselineBuilder], 327-517).  Specification vocabulary: the
    section [Rules] of [RegionBaselines.v] ([lists_places], [improbable],
    [ends_after], [far_from_first], [left_out], [singled_out]), [SystemSpec.v]
    ([least_cost], [same_decisions]), [ConstraintSpec.v] ([region_choice],
    [questions]), [EditSpec.v] ([edit], [text_only]). *)

From Coq Require Import String.
From Coq Require Import List Bool Arith Lia ZArith Sorted QArith Qcanon.
From Verif Require Import Base SeqNodes Transforms PackedSeq PackedSeqProofs Numbered Graph GatedDag Convert Decisions TokenProb RegionDecisions PrefixBaselines
  ConstraintSpec ConstraintDag PseudoParse EditDag EditSpec SelectionSpec Properties_Edit SystemSpec BuildSystem DualSolver Combine CombineSpec CombineTheorems
  Html Properties_Calls Properties_EndToEnd RegionBaselines RegionBaselineProofs RegionBaselineSolve.
Import ListNotations.
Close Scope string_scope. Close Scope Qc_scope. Close Scope Q_scope. Close Scope Z_scope. Open Scope nat_scope. Open Scope list_scope.

(** The example: the sample "ab" with regions, and the tokens "a" and "b" with log
    probabilities -1 and -3. *)
Definition ex_region_prototype : list (node mtype) := prototype_of true false [] (chars "ab") (letter_tree []).
Definition ex_region_target : list (node mtype) := target_of [] (letter_tree []) (chars "ab").
Definition ex_model_tokens : list (text * Qc) := [(chars "a", Q2Qc (-1)); (chars "b", Q2Qc (-3))].
Definition below (x t : Qc) : bool := qc_ltb x t.

(** ** C62.  Which tokens each baseline singles out. *)
Theorem C62_token_probabilities :
  forall (M : Type) (ns : list (node M)) (model_tokens : list (text * Qc)) must aligned (low : Qc -> bool) (only_nonempty cumulative : bool),
    align_token_log_probs model_tokens (pack ns) must = Ok aligned ->
    exists places, places_from_token_probabilities low only_nonempty cumulative (pack ns) aligned = Ok places /\
      lists_places (improbable (flat_map nodes (labelled ns)) aligned low only_nonempty cumulative) places.
Proof. intros. eapply probability_rule; eauto. Qed.
Theorem C62_character_offset :
  forall (M : Type) (ns : list (node M)) (offset : Qc), exists places,
    places_from_character_offset offset (pack ns) = Ok places /\ lists_places (ends_after (flat_map nodes (labelled ns)) offset) places.
Proof. intros. apply offset_rule. Qed.
Theorem C62_example_fraction :
  forall (M : Type) (ns : list (node M)) (fraction : Qc), exists places,
    let all := flat_map nodes (labelled ns) in
    places_from_example_fraction fraction (pack ns) = Ok places /\ lists_places (ends_after all (fraction * of_nat (written all))%Qc) places.
Proof. intros. apply fraction_rule. Qed.
Theorem C62_depth_cutoff :
  forall (M : Type) (ns : list (node M)) (ancestor child : Z),
    (1 <= ancestor -> 1 <= child ->
     exists places, places_from_depth_cutoff ancestor child (pack ns) = Ok places /\ lists_places (far_from_first (labelled ns) ancestor child) places)%Z /\
    (ancestor < 1 \/ child < 1 -> places_from_depth_cutoff ancestor child (pack ns) = Err ValueError)%Z.
Proof. intros. split; [apply depth_rule|apply cutoffs_rejected]. Qed.
Definition ex_nested : list (node nat) := [Group [Token [97] 0; Deco [32]; Group [Token [98; 99] 1; Token [] 2] 0] 0; Token [100] 3].
Example C62_rules_example :
  align_token_log_probs [([97], Q2Qc (-1)); ([32; 98; 99], Q2Qc (-3)); ([100], Q2Qc (-1))] (pack ex_nested) false
    = Ok [(1, Q2Qc (-1)); (4, Q2Qc (-3)); (5, Q2Qc (-1)); (6, Q2Qc (-1))] /\
  places_from_character_offset (Q2Qc 4) (pack ex_nested) = Ok [6] /\
  places_from_example_fraction (Q2Qc (1 # 5)) (pack ex_nested) = Ok [4; 6] /\
  places_from_depth_cutoff 1 1 (pack ex_nested) = Ok [4; 5; 6] /\ places_from_depth_cutoff 1 2 (pack ex_nested) = Ok [6] /\
  places_from_depth_cutoff 0 1 (pack ex_nested) = Err ValueError.
Proof. vm_compute. repeat split. Qed.
Print Assumptions C62_token_probabilities.
Print Assumptions C62_character_offset.
Print Assumptions C62_example_fraction.
Print Assumptions C62_depth_cutoff.

(** Solving for a set of tokens: it ends under any clock; the assignment answers the
    prototype's questions, each once, with decisions that can occur; the reported cost
    is the cheapest edit under those decisions plus [1e6] for every token left out of
    the regions; and the objectives are lower bounds for any other decisions. *)
Theorem C62_solving :
  forall (M : Type) (md : EqDec M) (P : parameters) (ns ts : list (node M)) (places : list nat),
    Forall text_only (labelled ts) -> questions (labelled ns) <> [] -> NoDup places ->
    (forall k, In k places -> a_token_at (flat_map nodes (labelled ns)) k) ->
    exists sy, baseline_system P (pack ns) (pack ts) = Ok sy /\
    (forall clock, exists fuel r, forall more, solve_baseline (fuel + more) clock sy places = Some (Ok r)) /\
    forall fuel clock res asg c, solve_baseline fuel clock sy places = Some (Ok (res, asg, c)) ->
      NoDup (map fst asg) /\ (forall k, In k (map fst asg) <-> In k (questions (labelled ns))) /\
      exists ds k, region_choice (labelled ns) ds /\ same_decisions asg ds /\ least_cost (edit P (labelled ns) (labelled ts)) asg k /\
        c = Fin (k + baseline_penalty * of_nat (left_out asg places))%Qc /\
        forall b ds' k', In b (objective_at_step res) -> region_choice (labelled ns) ds' ->
          (exists ds'', edit P (labelled ns) (labelled ts) k' ds'' /\ same_decisions ds' ds'') ->
          cle b (Fin (k' + baseline_penalty * of_nat (left_out ds' places))%Qc).
Proof. intros M md P ns ts places Ht HK N Hp. exact (baseline_solved P ns ts Ht places HK N Hp). Qed.

(** When the solver closes the gap, no decisions are better; in particular no token is
    left out that cheap enough decisions would put in a region. *)
Theorem C62_solved_exactly :
  forall (M : Type) (md : EqDec M) (P : parameters) (ns ts : list (node M)) (places : list nat) sy fuel clock res asg c,
    Forall text_only (labelled ts) -> questions (labelled ns) <> [] -> NoDup places ->
    (forall k, In k places -> a_token_at (flat_map nodes (labelled ns)) k) ->
    baseline_system P (pack ns) (pack ts) = Ok sy -> solve_baseline fuel clock sy places = Some (Ok (res, asg, c)) -> In c (objective_at_step res) ->
    exists k, least_cost (edit P (labelled ns) (labelled ts)) asg k /\
      forall ds' k', region_choice (labelled ns) ds' -> least_cost (edit P (labelled ns) (labelled ts)) ds' k' ->
        (k + baseline_penalty * of_nat (left_out asg places) <= k' + baseline_penalty * of_nat (left_out ds' places))%Qc /\
        (left_out ds' places = 0 -> (k' < k + baseline_penalty)%Qc -> left_out asg places = 0).
Proof.
  intros M md P ns ts places sy fuel clock res asg c Ht HK N Hp Es Hs Hc.
  destruct (C62_solving M md P ns ts places Ht HK N Hp) as [sy' [Es' [_ R]]]. assert (sy' = sy) by congruence. subst sy'.
  destruct (R _ _ _ _ _ Hs) as [_ [_ [ds [k [_ [_ [Hk [Ec B]]]]]]]]. exists k. split; auto. intros ds' k' Hch Hk'.
  assert (X : (k + baseline_penalty * of_nat (left_out asg places) <= k' + baseline_penalty * of_nat (left_out ds' places))%Qc).
  { specialize (B c ds' k' Hc Hch). rewrite Ec in B. apply B. destruct Hk' as [H _]. exact H. }
  split; auto. intros E0 Hlt. rewrite E0 in X. destruct (left_out asg places) as [|n]; auto. exfalso.
  assert (H1 : (baseline_penalty * of_nat (S n) = baseline_penalty + baseline_penalty * of_nat n)%Qc).
  { assert (E : of_nat (S n) = (1 + of_nat n)%Qc).
    { unfold of_nat. apply Qc_is_canon. cbn [this Q2Qc Qcplus]. rewrite !Qred_correct. rewrite Nat2Z.inj_succ, <- Z.add_1_l. rewrite inject_Z_plus. reflexivity. }
    rewrite E. ring. }
  assert (H2 : (0 <= baseline_penalty * of_nat n)%Qc).
  { rewrite <- (Qcmult_0_l (of_nat n)). apply Qcmult_le_compat_r; [unfold Qcle; cbn; unfold Qle; cbn; lia|].
    unfold Qcle, of_nat. cbn [this Q2Qc]. rewrite !Qred_correct. change 0%Q with (inject_Z 0). rewrite <- Zle_Qle. lia. }
  assert (H3 : (baseline_penalty * of_nat 0 = 0)%Qc) by (change (of_nat 0) with 0%Qc; ring).
  rewrite H1, H3 in X. revert X H2 Hlt. generalize (baseline_penalty * of_nat n)%Qc as z, baseline_penalty. clear. intros z b X H2 Hlt. qc_lra.
Qed.
Example C62_solving_hypotheses :
  Forall text_only (labelled ex_region_target) /\ questions (labelled ex_region_prototype) <> [] /\
  (forall k, In k [4] -> a_token_at (flat_map nodes (labelled ex_region_prototype)) k) /\
  match baseline_system ex_costs (pack ex_region_prototype) (pack ex_region_target) with
  | Ok sy => match solve_baseline 300 (fun _ => false) sy [4] with
             | Some (Ok (res, asg, c)) => existsb (fun b => negb (cltb b c || cltb c b)) (objective_at_step res) && Nat.eqb (left_out asg [4]) 0
             | _ => false
             end
  | _ => false
  end = true.
Proof.
  splits; [apply (target_text letters [] [chars "ab"] (letter_tree []) (fun s _ => letters_read [] s)); now left|discriminate| |vm_cast_no_check (eq_refl true)].
  intros k [<-|[]]. vm_compute. do 3 eexists. split; [right; right; right; right; left; reflexivity|reflexivity].
Qed.
Print Assumptions C62_solving.
Print Assumptions C62_solved_exactly.

(** The whole call: every configured baseline gets exactly one entry, for the tokens
    its rule singles out; cutoffs below one raise an error. *)
Theorem C62_baselines :
  forall (M : Type) (md : EqDec M) (P : parameters) (ns ts : list (node M)) (low : Qc -> Qc -> bool) thresholds fractions cutoffs model_tokens aligned,
    Forall text_only (labelled ts) -> questions (labelled ns) <> [] -> align_token_log_probs model_tokens (pack ns) false = Ok aligned ->
    let build fuel clocks := build_baseline_assignments P fuel clocks low thresholds fractions cutoffs (pack ns) (pack ts) model_tokens in
    (forall clocks, exists fuel r, (forall more, build (fuel + more) clocks = Some r) /\
      ((forall c, In c cutoffs -> (1 <= fst c /\ 1 <= snd c)%Z) -> exists results, r = Ok results) /\
      ((exists c, In c cutoffs /\ (fst c < 1 \/ snd c < 1)%Z) -> r = Err ValueError)) /\
    forall fuel clocks results, build fuel clocks = Some (Ok results) ->
      NoDup (map fst results) /\ (forall b, In b (map fst results) <-> In b (baselines thresholds fractions cutoffs)) /\
      forall b asg, In (b, asg) results ->
        (NoDup (map fst asg) /\ (forall k, In k (map fst asg) <-> In k (questions (labelled ns))) /\
         exists ds, region_choice (labelled ns) ds /\ same_decisions asg ds) /\
        exists places, lists_places (singled_out low (labelled ns) aligned b) places /\
          exists sy clock res c, baseline_system P (pack ns) (pack ts) = Ok sy /\ solve_baseline fuel clock sy places = Some (Ok (res, asg, c)).
Proof.
  intros M md P ns ts low thresholds fractions cutoffs toks aligned Ht HK Ha build.
  destruct (all_baselines P ns ts Ht HK low thresholds fractions cutoffs toks aligned Ha) as [A1 A2]. split; [exact A1|].
  intros fuel clocks results H. destruct (A2 fuel clocks results H) as [N [Hk Hr]]. splits; auto.
  intros b asg Hi. destruct (Hr b asg Hi) as [places [Hl [Np [Hp [sy [clock [res [c [Es Hs]]]]]]]]]. split; [|exists places; split; auto; exists sy, clock, res, c; auto].
  destruct (C62_solving M md P ns ts places Ht HK Np Hp) as [sy' [Es' [_ R]]]. assert (sy' = sy) by congruence. subst sy'.
  destruct (R _ _ _ _ _ Hs) as [R1 [R2 [ds [k [R3 [R4 _]]]]]]. splits; auto. eauto.
Qed.
Example C62_baselines_example :
  align_token_log_probs ex_model_tokens (pack ex_region_prototype) false = Ok [(0, Q2Qc (-1)); (4, Q2Qc (-3))] /\
  match build_baseline_assignments ex_costs 300 (fun _ _ => false) below [Q2Qc (-2)] [] [(1%Z, 1%Z)]
          (pack ex_region_prototype) (pack ex_region_target) ex_model_tokens with
  | Some (Ok results) => map (fun r => map (fun k => decided (snd r) (k, NodeInRegion)) [0; 4]) results
  | _ => []
  end = [[DFalse; DTrue]; [DFalse; DTrue]; [DFalse; DFalse]].
Proof. split; [vm_compute; reflexivity|vm_cast_no_check (eq_refl [[DFalse; DTrue]; [DFalse; DTrue]; [DFalse; DFalse]])]. Qed.
Print Assumptions C62_baselines.
