(** C87: how the prices of tokens act on the worth of a suggestion of calls.
    Specification vocabulary: [dearer_tokens], [scaled_tokens], [base_worth] below;
    [worth_if_found] in [CallWorth.v]; [average] in [SystemSpec.v]. *)

From Coq Require Import String.
From Coq Require Import List Bool Arith Lia ZArith QArith Qcanon.
From Verif Require Import Base SeqNodes Transforms PackedSeq PackedSeqProofs Numbered Graph GatedDag Convert Decisions ConstraintSpec ConstraintDag ConstraintPack Html
  PseudoParse EditDag EditSpec EditProofs SelectionDag SelectionSpec SelectionTheorems Properties_Selection RegionDecisions CallSequence CallSpec CallProofs CallBaselines CallTheorems CostDerivation Properties_Tree Properties_Edit SystemSpec BuildSystem BuildProofs
  Combine CombineSpec CombineProofs CombineStats CombineTheorems Properties_EndToEnd UtilityBounds PriceProofs Properties_Bounds Properties_Prices Properties_Order CallWorth Properties_Calls Properties_CallWorth.
Import ListNotations.
Close Scope string_scope. Close Scope Qc_scope. Close Scope Q_scope. Close Scope Z_scope. Open Scope nat_scope. Open Scope list_scope.

(** ** Specification. *)
(** [U'] pays no more for a token that is found and asks no less for one that is missed. *)
Definition dearer_tokens {M} (U U' : text -> M -> utilities) : Prop :=
  forall t m, (match_utility (U' t m) <= match_utility (U t m))%Qc /\ (delete_cost (U t m) <= delete_cost (U' t m))%Qc.
(** [U'] is [q] times [U]. *)
Definition scaled_tokens {M} (q : Qc) (U U' : text -> M -> utilities) : Prop :=
  forall t m, match_utility (U' t m) = (q * match_utility (U t m))%Qc /\ delete_cost (U' t m) = (q * delete_cost (U t m))%Qc.
(** What calls are worth, whatever the precision: ten for a new name, one for an expected
    name and one for a list of arguments. *)
Definition base_worth : list (node text) -> Qc :=
  tokens_sum (fun _ m => if eqb m ARGS then 1%Qc else if eqb m EMPTY_ARGS then 1%Qc else if eqb m EXPECTED then 1%Qc else if eqb m NOVEL then Q2Qc 10 else 0%Qc).

Section Prices.
  Context {M : Type} (U U' : text -> M -> utilities).
  Notation step := (@SelectionSpec.step M).
  Lemma total_le (f g : step -> Qc) l : (forall x, f x <= g x)%Qc -> (total_of f l <= total_of g l)%Qc.
  Proof. intros H. unfold total_of. induction l as [|x l IH]; cbn [fold_right]; [apply Qcle_refl|]. pose proof (H x). qc_lra. Qed.
  Lemma total_scaled q (f g : step -> Qc) l : (forall x, g x = q * f x)%Qc -> total_of g l = (q * total_of f l)%Qc.
  Proof. intros H. unfold total_of. induction l as [|x l IH]; cbn [fold_right]; [ring|]. rewrite H, IH. ring. Qed.
  Lemma selection_dearer : dearer_tokens U U' -> forall (from to : list step) k' ds, selection U' from to k' ds -> exists k, selection U from to k ds /\ (k <= k')%Qc.
  Proof.
    intros D. induction 1 as [to|x from to k ds Hx Hs [k0 [I1 I2]]|i part j from gap run to k ds Hp Es Hs [k0 [I1 I2]]|i part j from to k ds Hp Hs [k0 [I1 I2]]].
    - exists 0%Qc. split; [apply sel_nothing|apply Qcle_refl].
    - exists k0. split; auto. now apply sel_leave.
    - eexists. split; [apply sel_found; [exact Hp|exact Es|exact I1]|]. assert (G : (total_of (gain U') part <= total_of (gain U) part)%Qc) by (apply total_le; intros []; cbn; try apply Qcle_refl; apply D). qc_lra.
    - eexists. split; [apply sel_lost; [exact Hp|exact I1]|]. assert (G : (total_of (penalty U) part <= total_of (penalty U') part)%Qc) by (apply total_le; intros []; cbn; try apply Qcle_refl; apply D). qc_lra.
  Qed.
  Lemma selection_scaled q : scaled_tokens q U U' -> forall (from to : list step) k ds, selection U from to k ds -> selection U' from to (q * k)%Qc ds.
  Proof.
    intros D. induction 1 as [to|x from to k ds Hx Hs IH|i part j from gap run to k ds Hp Es Hs IH|i part j from to k ds Hp Hs IH].
    - replace (q * 0)%Qc with 0%Qc by ring. apply sel_nothing.
    - now apply sel_leave.
    - assert (G : total_of (gain U') part = (q * total_of (gain U) part)%Qc) by (apply total_scaled; intros []; cbn; try ring; apply D).
      replace (q * (k - total_of (gain U) part))%Qc with (q * k - total_of (gain U') part)%Qc by (rewrite G; ring). now apply sel_found.
    - assert (G : total_of (penalty U') part = (q * total_of (penalty U) part)%Qc) by (apply total_scaled; intros []; cbn; try ring; apply D).
      replace (q * (total_of (penalty U) part + k))%Qc with (total_of (penalty U') part + q * k)%Qc by (rewrite G; ring). now apply sel_lost.
  Qed.
End Prices.
Lemma scaled_back {M} q (U U' : text -> M -> utilities) : q <> 0%Qc -> scaled_tokens q U U' -> scaled_tokens (/ q) U' U.
Proof. intros Nz S t m. destruct (S t m) as [-> ->]. split; field; exact Nz. Qed.

(** ** C87.  Whatever is decided and found at the dearer prices can be had for no more at
    the others. *)
Theorem C87_dearer_tokens :
  forall (M : Type) (md : EqDec M) (U U' : text -> M -> utilities) (prototype target : list (node M)),
    dearer_tokens U U' -> Forall no_exit (walks (labelled prototype)) -> ~ begins_with_end (walks (labelled prototype)) -> Forall text_only (labelled target) ->
    exists d d', construct_selection_dag U (pack prototype) (pack target) = Ok d /\ construct_selection_dag U' (pack prototype) (pack target) = Ok d' /\
      forall p', complete_path d' p' ->
        exists p k k', complete_path d p /\ path_assignments p = path_assignments p' /\ path_cost p = Fin k /\ path_cost p' = Fin k' /\ (k <= k')%Qc.
Proof.
  intros M md U U' ns ts D F B T. destruct (C45_selection_dag_exact M md U ns ts F B T) as [d [E H]]. destruct (C45_selection_dag_exact M md U' ns ts F B T) as [d' [E' _]].
  exists d, d'. splits; auto. intros p' Hp. destruct (C45_selection_paths_credit_occurrences M md U' ns ts d' p' E' Hp) as [k' [Hk' S]].
  destruct (selection_dearer U U' D _ _ _ _ S) as [k [S' Hle]]. destruct (proj1 (H k _) S') as [p [P1 [P2 P3]]]. exists p, k, k'. splits; auto.
Qed.
(** If all prices are multiplied by a number, so are all costs. *)
Theorem C87_scaled_tokens :
  forall (M : Type) (md : EqDec M) (U U' : text -> M -> utilities) (q : Qc) (prototype target : list (node M)),
    scaled_tokens q U U' -> Forall no_exit (walks (labelled prototype)) -> ~ begins_with_end (walks (labelled prototype)) -> Forall text_only (labelled target) ->
    exists d d', construct_selection_dag U (pack prototype) (pack target) = Ok d /\ construct_selection_dag U' (pack prototype) (pack target) = Ok d' /\
      forall p, complete_path d p ->
        exists p' k, complete_path d' p' /\ path_assignments p' = path_assignments p /\ path_cost p = Fin k /\ path_cost p' = Fin (q * k)%Qc.
Proof.
  intros M md U U' q ns ts D F B T. destruct (C45_selection_dag_exact M md U ns ts F B T) as [d [E _]]. destruct (C45_selection_dag_exact M md U' ns ts F B T) as [d' [E' H]].
  exists d, d'. splits; auto. intros p Hp. destruct (C45_selection_paths_credit_occurrences M md U ns ts d p E Hp) as [k [Hk S]].
  pose proof (selection_scaled U U' q D _ _ _ _ S) as S'. destruct (proj1 (H _ _) S') as [p' [P1 [P2 P3]]]. exists p', k. splits; auto.
Qed.

(** The utility of calls reported at dearer prices is never above the bound reported at
    the others. *)
Theorem C87_reported_dearer :
  forall (isspace : nat -> bool) (builtin : list text) (U U' : text -> text -> utilities) parse (context : text) (samples : list text) (index : Z) (sample : text)
         trees fuel fuel' clock clock' r r' asg asg',
    dearer_tokens U U' -> (forall s, In s samples -> reads parse (context ++ s) (trees s)) -> designates samples index sample ->
    combine_samples fuel clock (call_wrapper isspace builtin U) parse context samples index = Some (Ok r) -> assignment_map r = Some asg ->
    combine_samples fuel' clock' (call_wrapper isspace builtin U') parse context samples index = Some (Ok r') -> assignment_map r' = Some asg' ->
    exists u v', utility_dual_bound r = Fin u /\ solution_utility r' = Fin v' /\ (v' <= u)%Qc.
Proof.
  intros isspace builtin U U' parse context samples index sample trees fuel fuel' clock clock' r r' asg asg' D Hread Hsample H Ha H' Ha'.
  pose proof (C60_call_utility isspace builtin U parse context samples index sample trees fuel clock r Hread Hsample H) as W. cbn zeta in W.
  destruct (W asg Ha) as [_ [ks [u [_ [_ [Hu [_ Ho]]]]]]].
  pose proof (C60_call_utility isspace builtin U' parse context samples index sample trees fuel' clock' r' Hread Hsample H') as W'. cbn zeta in W'.
  destruct (W' asg' Ha') as [[ds [Hc Hs]] [ks' [u' [F [Hv' _]]]]]. set (calls := calls_of isspace builtin context trees) in *. clearbody calls.
  exists u, (- average ks')%Qc. splits; auto.
  assert (G : exists ks0, Forall2 (fun s k => exists ds', selection U (walks (labelled (calls sample))) (walks (labelled (strip_decision_nodes (calls s)))) k ds' /\ same_decisions ds ds') samples ks0 /\
    Forall2 Qcle ks0 ks').
  { clear -F Hs D. induction F as [|s k l l' Hk F [ks0 [I1 I2]]]; [exists []; split; [exact (Forall2_nil _)|exact (Forall2_nil _)]|].
    destruct Hk as [[ds' [Hk Hd]] _]. apply (selection_dearer U U' D) in Hk as [k0 [Hk Hle]]. exists (k0 :: ks0).
    split; apply Forall2_cons; auto. exists ds'. split; auto. intros key. rewrite <- Hd. symmetry. apply Hs. }
  destruct G as [ks0 [G1 G2]]. pose proof (Ho ds ks0 Hc G1) as B. pose proof (average_le _ _ G2). qc_lra.
Qed.
(** If all prices are multiplied by a positive number, so is what can be reported. *)
Theorem C87_reported_scaled :
  forall (isspace : nat -> bool) (builtin : list text) (U U' : text -> text -> utilities) (q : Qc) parse (context : text) (samples : list text) (index : Z) (sample : text)
         trees fuel fuel' clock clock' r r' asg asg',
    (0 < q)%Qc -> scaled_tokens q U U' -> (forall s, In s samples -> reads parse (context ++ s) (trees s)) -> designates samples index sample ->
    combine_samples fuel clock (call_wrapper isspace builtin U) parse context samples index = Some (Ok r) -> assignment_map r = Some asg ->
    combine_samples fuel' clock' (call_wrapper isspace builtin U') parse context samples index = Some (Ok r') -> assignment_map r' = Some asg' ->
    exists v u v' u', solution_utility r = Fin v /\ utility_dual_bound r = Fin u /\ solution_utility r' = Fin v' /\ utility_dual_bound r' = Fin u' /\
      (q * v <= u')%Qc /\ (v' <= q * u)%Qc /\ (v = u -> v' = u' -> v' = (q * v)%Qc).
Proof.
  intros isspace builtin U U' q parse context samples index sample trees fuel fuel' clock clock' r r' asg asg' Q Sc Hread Hsample H Ha H' Ha'.
  pose proof (C60_call_utility isspace builtin U parse context samples index sample trees fuel clock r Hread Hsample H) as W. cbn zeta in W.
  destruct (W asg Ha) as [[ds [Hc Hs]] [ks [u [F [Hv [Hu [_ Ho]]]]]]].
  pose proof (C60_call_utility isspace builtin U' parse context samples index sample trees fuel' clock' r' Hread Hsample H') as W'. cbn zeta in W'.
  destruct (W' asg' Ha') as [[ds' [Hc' Hs']] [ks' [u' [F' [Hv' [Hu' [_ Ho']]]]]]]. set (calls := calls_of isspace builtin context trees) in *. clearbody calls.
  assert (G : forall U U' q ds asg ks, scaled_tokens q U U' ->
    Forall2 (fun s k => SystemSpec.least_cost (selection U (walks (labelled (calls sample))) (walks (labelled (strip_decision_nodes (calls s))))) asg k) samples ks -> same_decisions asg ds ->
    Forall2 (fun s k => exists ds', selection U' (walks (labelled (calls sample))) (walks (labelled (strip_decision_nodes (calls s)))) k ds' /\ same_decisions ds ds') samples (map (Qcmult q) ks)).
  { clear. intros U U' q ds asg ks Sc F Hs. induction F as [|s k l l' Hk F IH]; cbn [map]; [exact (Forall2_nil _)|]. apply Forall2_cons; auto.
    destruct Hk as [[ds' [Hk Hd]] _]. exists ds'. split; [eapply selection_scaled; eauto|]. intros key. rewrite <- Hd. symmetry. apply Hs. }
  assert (Nz : q <> 0%Qc) by (intros ->; discriminate Q).
  assert (B1 : (- average (map (Qcmult q) ks) <= u')%Qc) by (apply (Ho' ds); [exact Hc|]; now apply (G U U' q ds asg)).
  assert (B2 : (- average (map (Qcmult (/ q)) ks') <= u)%Qc) by (apply (Ho ds'); [exact Hc'|]; apply (G U' U (/ q)%Qc ds' asg'); auto; now apply scaled_back).
  rewrite average_scaled in B1, B2.
  assert (C1 : (q * - average ks <= u')%Qc) by (replace (q * - average ks)%Qc with (- (q * average ks))%Qc by ring; exact B1).
  assert (C2 : (- average ks' <= q * u)%Qc).
  { replace (- average ks')%Qc with (- (/ q * average ks') * q)%Qc by (field; exact Nz). rewrite (Qcmult_comm q u). apply Qcmult_le_compat_r; [exact B2|]. now apply Qclt_le_weak. }
  exists (- average ks)%Qc, u, (- average ks')%Qc, u'. splits; auto.
  intros E1 E2. apply Qcle_antisym; [now rewrite E1|now rewrite E2].
Qed.

(** With the prices of the tool, a higher effective precision is dearer. *)
Theorem C87_higher_precision_is_dearer : forall p p' : Qc, (p <= p')%Qc -> dearer_tokens (call_utilities p) (call_utilities p').
Proof.
  intros p p' Hp t m. unfold call_utilities. cbn [match_utility delete_cost].
  set (util := if eqb m ARGS then 1%Qc else _). assert (G : (0 <= util)%Qc) by (unfold util; repeat (destruct (eqb m _); [discriminate|]); discriminate). clearbody util.
  rewrite !(Qcmult_comm util). split; apply Qcmult_le_compat_r; auto. qc_lra.
Qed.

Lemma tokens_scaled {M} q (f g : text -> M -> Qc) : (forall t m, g t m = q * f t m)%Qc -> forall ns : list (node M), tokens_sum g ns = (q * tokens_sum f ns)%Qc.
Proof.
  intros H.
  assert (G : forall n : node M, token_sum g n = (q * token_sum f n)%Qc).
  { induction n as [t|t m| | | |cs m IH] using node_ind'; cbn [token_sum]; try ring; auto.
    induction IH as [|c cs Hc Hcs IH]; cbn [fold_right]; [ring|]. rewrite Hc, IH. ring. }
  intros ns. unfold tokens_sum. induction ns as [|n ns IH]; cbn [fold_right]; [ring|]. rewrite G, IH. ring.
Qed.
Lemma tool_worth p ns : worth_if_found (call_utilities p) ns = ((1 - p) * base_worth ns)%Qc.
Proof. apply tokens_scaled. intros t m. cbn. ring. Qed.
Lemma tool_cost p ns : cost_if_missed (call_utilities p) ns = (p * base_worth ns)%Qc.
Proof. apply tokens_scaled. intros t m. cbn. ring. Qed.

(** The effective precision is where suggesting calls breaks even: suggesting all calls
    whole is worth their base worth times the share of samples that make the same calls
    less the precision, and what is reported is within that and the whole worth. *)
Theorem C87_break_even_at_the_precision :
  forall (isspace : nat -> bool) (builtin : list text) (p : Qc) parse (context : text) (samples : list text) (index : Z) (sample : text)
         trees fuel clock r asg,
    (0 <= p)%Qc -> (p <= 1)%Qc ->
    (forall s, In s samples -> reads parse (context ++ s) (trees s)) -> designates samples index sample ->
    combine_samples fuel clock (call_wrapper isspace builtin (call_utilities p)) parse context samples index = Some (Ok r) -> assignment_map r = Some asg ->
    let calls := calls_of isspace builtin context trees in
    exists v u, solution_utility r = Fin v /\ utility_dual_bound r = Fin u /\ (v <= base_worth (calls sample) * (1 - p))%Qc /\ (v <= u)%Qc /\ (0 <= u)%Qc /\
      forall agrees : text -> bool, (forall s, In s samples -> agrees s = true -> strip_decision_nodes (calls s) = strip_decision_nodes (calls sample)) ->
        (base_worth (calls sample) * (number (length (filter agrees samples)) / number (length samples) - p) <= u)%Qc.
Proof.
  intros isspace builtin p parse context samples index sample trees fuel clock r asg P0 P1 Hread Hsample H Ha calls.
  destruct (C86_reported_call_worth isspace builtin (call_utilities p) parse context samples index sample trees fuel clock r asg Hread Hsample H Ha) as (v & u & Hv & Hu & Hle & H0 & B & T).
  fold calls in B, T. exists v, u. splits; auto.
  - destruct (T (C86_call_utilities_tame p P0 P1)) as [T1 _]. rewrite tool_worth in T1. rewrite Qcmult_comm. exact T1.
  - intros agrees Hg. specialize (B agrees Hg). rewrite tool_worth, tool_cost in B. eapply Qcle_trans; [|exact B].
    set (w := base_worth (calls sample)). unfold average. rewrite map_length. change (Q2Qc (inject_Z (Z.of_nat (length samples)))) with (number (length samples)).
    assert (Nz : number (length samples) <> 0%Qc).
    { intros C. assert (Ns : samples <> []) by (destruct Hsample as [j [Hj _]]; destruct samples, j; discriminate). destruct samples as [|s0 l]; [congruence|].
      assert (Pos : (0 < number (length (s0 :: l)))%Qc) by (unfold number, Qclt; rewrite !Q2Qc_this; unfold inject_Z, Qlt; cbn [Qnum Qden length]; lia).
      rewrite C in Pos. discriminate. }
    assert (Fl : fold_right Qcplus 0%Qc (map (fun s => if agrees s then ((1 - p) * w)%Qc else (- (p * w))%Qc) samples) = (w * (number (length (filter agrees samples)) - p * number (length samples)))%Qc).
    { clear. induction samples as [|s l IH]; cbn [map fold_right filter]; [change (number (length (@nil text))) with 0%Qc; ring|].
      rewrite IH. cbn [length]. destruct (agrees s); cbn [length]; change (S (length l)) with (1 + length l); [change (S (length (filter agrees l))) with (1 + length (filter agrees l))|];
        rewrite !number_add; change (number 1) with 1%Qc; ring. }
    rewrite Fl.
    match goal with |- (?a <= ?b)%Qc => replace b with a by (field; exact Nz) end. apply Qcle_refl.
Qed.

(** "f()" suggested for "f()" and "g" at two precisions; the higher one does not pay. *)
Example C87_hypotheses : dearer_tokens (call_utilities (Q2Qc (1 # 4))) (call_utilities (Q2Qc (3 # 4))) /\
  (forall s, In s [chars "f()"; chars "g"] -> reads call_parse ((chars "x" ++ [10]) ++ s) (call_tree s)) /\ designates [chars "f()"; chars "g"] 0 (chars "f()").
Proof. split; [apply C87_higher_precision_is_dearer; discriminate|exact C55_calls_hypotheses]. Qed.
Definition ex_calls_at p := match combine_samples 100 (fun _ => false) (call_wrapper ascii_space [] (call_utilities p)) call_parse (chars "x" ++ [10]) [chars "f()"; chars "g"] 0 with
  | Some (Ok r) => match assignment_map r with Some _ => Some (solution_utility r, utility_dual_bound r) | None => None end | _ => None end.
Example C87_example :
  base_worth (calls_of ascii_space [] (chars "x" ++ [10]) call_tree (chars "f()")) = Q2Qc 11 /\
  ex_calls_at (Q2Qc (1 # 4)) = Some (Fin (Q2Qc (11 # 4)), Fin (Q2Qc (11 # 4))) /\ ex_calls_at (Q2Qc (3 # 4)) = Some (Fin 0%Qc, Fin 0%Qc).
Proof. vm_compute. repeat split. Qed.
Example C87_scaled_example : scaled_tokens (Q2Qc 3) (call_utilities (Q2Qc (1 # 4)))
  (fun t m => mkUtilities (Q2Qc 3 * match_utility (call_utilities (Q2Qc (1 # 4)) t m))%Qc (Q2Qc 3 * delete_cost (call_utilities (Q2Qc (1 # 4)) t m))%Qc).
Proof. intros t m. split; reflexivity. Qed.
Print Assumptions C87_dearer_tokens.
Print Assumptions C87_scaled_tokens.
Print Assumptions C87_reported_dearer.
Print Assumptions C87_reported_scaled.
Print Assumptions C87_higher_precision_is_dearer.
Print Assumptions C87_break_even_at_the_precision.

(** [base_worth] counts: ten for every new name among the leaves, one for every expected
    name and every list of arguments, nothing for dots and parentheses. *)
Definition leaf_type (m : text) (n : node text) : bool := match n with Token _ m' => eqb m m' | _ => false end.
Definition of_type (m : text) (ns : list (node text)) : nat := length (filter (leaf_type m) (leaves ns)).
Theorem C87_base_worth : forall ns : list (node text),
  base_worth ns = number (10 * of_type NOVEL ns + of_type EXPECTED ns + of_type ARGS ns + of_type EMPTY_ARGS ns).
Proof.
  set (w := fun n : node text => number (10 * length (filter (leaf_type NOVEL) (leaves_node n)) + length (filter (leaf_type EXPECTED) (leaves_node n)) +
              length (filter (leaf_type ARGS) (leaves_node n)) + length (filter (leaf_type EMPTY_ARGS) (leaves_node n)))).
  set (f := fun (_ : text) (m : text) => if eqb m ARGS then 1%Qc else if eqb m EMPTY_ARGS then 1%Qc else if eqb m EXPECTED then 1%Qc else if eqb m NOVEL then Q2Qc 10 else 0%Qc).
  assert (Sum : forall l : list (node text), fold_right (fun c k => (w c + k)%Qc) 0%Qc l =
            number (10 * of_type NOVEL l + of_type EXPECTED l + of_type ARGS l + of_type EMPTY_ARGS l)).
  { induction l as [|n l IH]; [reflexivity|]. cbn [fold_right]. rewrite IH. unfold w. rewrite <- number_add. f_equal. unfold of_type, leaves. cbn [flat_map].
    rewrite !filter_app, !app_length. lia. }
  assert (Ext : forall (g h : node text -> Qc) l, Forall (fun c => g c = h c) l -> fold_right (fun c k => (g c + k)%Qc) 0%Qc l = fold_right (fun c k => (h c + k)%Qc) 0%Qc l).
  { induction 1 as [|c l E _ IH]; [reflexivity|]. cbn [fold_right]. now rewrite E, IH. }
  assert (One : forall n, token_sum f n = w n).
  { induction n as [t|t m| | | |cs m IH] using node_ind'; try reflexivity.
    - cbn [token_sum]. unfold w, f, leaves_node, filter, leaf_type.
      destruct (eq_dec m ARGS) as [->|N1]; [reflexivity|]. destruct (eq_dec m EMPTY_ARGS) as [->|N2]; [reflexivity|].
      destruct (eq_dec m EXPECTED) as [->|N3]; [reflexivity|]. destruct (eq_dec m NOVEL) as [->|N4]; [reflexivity|].
      assert (F : forall k, m <> k -> eqb m k = false /\ eqb k m = false).
      { intros k Hk. split; [destruct (eqb m k) eqn:E|destruct (eqb k m) eqn:E]; auto; apply eqb_eq in E; congruence. }
      destruct (F _ N1) as [-> ->]. destruct (F _ N2) as [-> ->]. destruct (F _ N3) as [-> ->]. destruct (F _ N4) as [-> ->]. reflexivity.
    - cbn [token_sum]. rewrite (Ext _ w cs IH), Sum. reflexivity. }
  intros ns. unfold base_worth, tokens_sum. fold f. rewrite (Ext (token_sum f) w ns), Sum; auto. apply Forall_forall. auto.
Qed.
Example C87_base_worth_example : of_type NOVEL (calls_of ascii_space [] (chars "x" ++ [10]) call_tree (chars "f()")) = 1 /\
  of_type EMPTY_ARGS (calls_of ascii_space [] (chars "x" ++ [10]) call_tree (chars "f()")) = 1.
Proof. vm_compute. auto. Qed.
Print Assumptions C87_base_worth.
