(** C84: how the prices act on the worth of a suggestion.  Specification vocabulary:
    [dearer] and [scaled] in [PriceProofs.v]. *)

From Coq Require Import String.
From Coq Require Import List Bool Arith Lia ZArith Sorted Permutation QArith Qcanon.
From Verif Require Import Base SeqNodes Transforms PackedSeq PackedSeqProofs Numbered Graph GatedDag Convert Decisions ConstraintSpec ConstraintDag ConstraintPack Html
  PseudoParse EditDag EditSpec EditProofs EditTheorems CostDerivation Properties_Tree Properties_Edit SystemSpec BuildSystem BuildProofs Combine CombineSpec CombineProofs CombineStats CombineTheorems
  Properties_EndToEnd UtilityBounds Properties_Bounds PriceProofs.
Import ListNotations.
Close Scope string_scope. Close Scope Qc_scope. Close Scope Q_scope. Close Scope Z_scope. Open Scope nat_scope. Open Scope list_scope.

(** ** C84.  At dearer prices no decisions can be had for less. *)
Theorem C84_dearer_prices :
  forall (M : Type) (md : EqDec M) (P P' : parameters) (suggestion continuation : list (node M)) d d' p',
    dearer P P' -> construct_edit_dag P (pack suggestion) (pack continuation) = Ok d -> construct_edit_dag P' (pack suggestion) (pack continuation) = Ok d' ->
    complete_path d' p' ->
    exists p k k', complete_path d p /\ path_assignments p = path_assignments p' /\ path_cost p = Fin k /\ path_cost p' = Fin k' /\ (k <= k')%Qc.
Proof.
  intros M md P P' ns ts d d' p' D E E' Hp. destruct (C44_edit_dag_exact M md P' ns ts) as [d0 [E0 [X _]]]. assert (d0 = d') by congruence. subst d0.
  destruct (X p' Hp) as [k' [Hk He]]. apply (edit_dearer P P' D) in He as [k [He Hle]].
  destruct (C44_edit_dag_exact M md P ns ts) as [d0 [E1 [_ Y]]]. assert (d0 = d) by congruence. subst d0.
  destruct (Y k _ He) as [p [Z1 [Z2 Z3]]]. exists p, k, k'. splits; auto.
Qed.
(** If all prices are multiplied by a number, so are all costs. *)
Theorem C84_scaled_prices :
  forall (M : Type) (md : EqDec M) (P : parameters) (q : Qc) (suggestion continuation : list (node M)) d d' p,
    construct_edit_dag P (pack suggestion) (pack continuation) = Ok d -> construct_edit_dag (scaled q P) (pack suggestion) (pack continuation) = Ok d' ->
    complete_path d p ->
    exists p' k, complete_path d' p' /\ path_assignments p' = path_assignments p /\ path_cost p = Fin k /\ path_cost p' = Fin (q * k)%Qc.
Proof.
  intros M md P q ns ts d d' p E E' Hp. destruct (C44_edit_dag_exact M md P ns ts) as [d0 [E0 [X _]]]. assert (d0 = d) by congruence. subst d0.
  destruct (X p Hp) as [k [Hk He]]. apply (edit_scaled P q) in He.
  destruct (C44_edit_dag_exact M md (scaled q P) ns ts) as [d0 [E1 [_ Y]]]. assert (d0 = d') by congruence. subst d0.
  destruct (Y _ _ He) as [p' [Z1 [Z2 Z3]]]. exists p', k. splits; auto.
Qed.

Lemma average_le ks ks' : Forall2 Qcle ks ks' -> (average ks <= average ks')%Qc.
Proof.
  intros F. unfold average. replace (length ks) with (length ks') by (symmetry; induction F; cbn; congruence). change (Q2Qc (inject_Z (Z.of_nat (length ks')))) with (number (length ks')).
  assert (S : (fold_right Qcplus 0 ks <= fold_right Qcplus 0 ks')%Qc) by (induction F; cbn [fold_right]; [apply Qcle_refl|qc_lra]).
  unfold Qcdiv. apply Qcmult_le_compat_r; [exact S|]. pose proof (number_nonneg (length ks')) as N.
  destruct (Qc_eq_dec (number (length ks')) 0%Qc) as [->|Nz]; [discriminate|].
  apply Qclt_le_weak, Qcnot_le_lt. intros C.
  assert (X : (number (length ks') * / number (length ks') <= 0)%Qc).
  { replace 0%Qc with (0 * number (length ks'))%Qc by ring. rewrite Qcmult_comm. now apply Qcmult_le_compat_r. }
  rewrite Qcmult_inv_r in X by exact Nz. now apply X.
Qed.
Lemma average_scaled q ks : average (map (Qcmult q) ks) = (q * average ks)%Qc.
Proof.
  unfold average. rewrite map_length.
  assert (S : fold_right Qcplus 0%Qc (map (Qcmult q) ks) = (q * fold_right Qcplus 0 ks)%Qc) by (induction ks as [|k ks IH]; cbn [map fold_right]; [|rewrite IH]; ring).
  rewrite S. unfold Qcdiv. ring.
Qed.

(** The utility reported at dearer prices is never above the bound reported at the
    others. *)
Theorem C84_reported_dearer :
  forall (P P' : parameters) (low exit : bool) parse (context : text) (samples : list text) (index : Z) (sample : text) trees fuel fuel' clock clock' r r' asg asg',
    dearer P P' -> (forall s, In s samples -> reads parse (context ++ s) (trees s)) -> designates samples index sample ->
    combine_samples fuel clock (edit_wrapper P low exit) parse context samples index = Some (Ok r) -> assignment_map r = Some asg ->
    combine_samples fuel' clock' (edit_wrapper P' low exit) parse context samples index = Some (Ok r') -> assignment_map r' = Some asg' ->
    exists u v', utility_dual_bound r = Fin u /\ solution_utility r' = Fin v' /\ (v' <= u)%Qc.
Proof.
  intros P P' low exit parse context samples index sample trees fuel fuel' clock clock' r r' asg asg' D Hread Hsample H Ha H' Ha'.
  destruct (C60_edit_utility P low exit parse context samples index sample trees fuel clock r Hread Hsample H) as [W _].
  destruct (W asg Ha) as [_ [ks [u [_ [_ [Hu [_ Ho]]]]]]].
  destruct (C60_edit_utility P' low exit parse context samples index sample trees fuel' clock' r' Hread Hsample H') as [W' _].
  destruct (W' asg' Ha') as [[ds [Hc Hs]] [ks' [u' [F [Hv' _]]]]].
  exists u, (- average ks')%Qc. splits; auto.
  assert (G : exists ks0, Forall2 (fun s k => exists ds', edit P (labelled (prototype_of low exit context sample trees)) (labelled (target_of context trees s)) k ds' /\ same_decisions ds ds') samples ks0 /\
    Forall2 Qcle ks0 ks').
  { clear -F Hs D. induction F as [|s k l l' Hk F [ks0 [I1 I2]]]; [exists []; split; [exact (Forall2_nil _)|exact (Forall2_nil _)]|].
    destruct Hk as [[ds' [Hk Hd]] _]. apply (edit_dearer P P' D) in Hk as [k0 [Hk Hle]]. exists (k0 :: ks0).
    split; apply Forall2_cons; auto. exists ds'. split; auto. intros key. rewrite <- Hd. symmetry. apply Hs. }
  destruct G as [ks0 [G1 G2]]. pose proof (Ho ds ks0 Hc G1) as B. pose proof (average_le _ _ G2). qc_lra.
Qed.
(** If all prices are multiplied by a positive number, so is what can be reported: each
    reported utility is at most the other bound, up to that factor, and if both results
    are optimal they differ by the factor only. *)
Theorem C84_reported_scaled :
  forall (P : parameters) (q : Qc) (low exit : bool) parse (context : text) (samples : list text) (index : Z) (sample : text) trees fuel fuel' clock clock' r r' asg asg',
    (0 < q)%Qc -> (forall s, In s samples -> reads parse (context ++ s) (trees s)) -> designates samples index sample ->
    combine_samples fuel clock (edit_wrapper P low exit) parse context samples index = Some (Ok r) -> assignment_map r = Some asg ->
    combine_samples fuel' clock' (edit_wrapper (scaled q P) low exit) parse context samples index = Some (Ok r') -> assignment_map r' = Some asg' ->
    exists v u v' u', solution_utility r = Fin v /\ utility_dual_bound r = Fin u /\ solution_utility r' = Fin v' /\ utility_dual_bound r' = Fin u' /\
      (q * v <= u')%Qc /\ (v' <= q * u)%Qc /\ (v = u -> v' = u' -> v' = (q * v)%Qc).
Proof.
  intros P q low exit parse context samples index sample trees fuel fuel' clock clock' r r' asg asg' Q Hread Hsample H Ha H' Ha'.
  assert (G : forall P q ds asg ks, Forall2 (fun s k => SystemSpec.least_cost (edit P (labelled (prototype_of low exit context sample trees)) (labelled (target_of context trees s))) asg k) samples ks ->
    same_decisions asg ds ->
    Forall2 (fun s k => exists ds', edit (scaled q P) (labelled (prototype_of low exit context sample trees)) (labelled (target_of context trees s)) k ds' /\ same_decisions ds ds') samples (map (Qcmult q) ks)).
  { clear. intros P q ds asg ks F Hs. induction F as [|s k l l' Hk F IH]; cbn [map]; [exact (Forall2_nil _)|]. apply Forall2_cons; auto.
    destruct Hk as [[ds' [Hk Hd]] _]. exists ds'. split; [now apply edit_scaled|]. intros key. rewrite <- Hd. symmetry. apply Hs. }
  destruct (C60_edit_utility P low exit parse context samples index sample trees fuel clock r Hread Hsample H) as [W _].
  destruct (W asg Ha) as [[ds [Hc Hs]] [ks [u [F [Hv [Hu [_ Ho]]]]]]].
  destruct (C60_edit_utility (scaled q P) low exit parse context samples index sample trees fuel' clock' r' Hread Hsample H') as [W' _].
  destruct (W' asg' Ha') as [[ds' [Hc' Hs']] [ks' [u' [F' [Hv' [Hu' [_ Ho']]]]]]].
  assert (Nz : q <> 0%Qc) by (intros ->; discriminate Q).
  assert (B1 : (- average (map (Qcmult q) ks) <= u')%Qc) by (apply (Ho' ds); [exact Hc|]; now apply (G P q ds asg)).
  assert (Sb : scaled (/ q) (scaled q P) = P).
  { destruct P. unfold scaled. cbn. f_equal; field; exact Nz. }
  assert (B2 : (- average (map (Qcmult (/ q)) ks') <= u)%Qc).
  { apply (Ho ds'); [exact Hc'|]. pose proof (G (scaled q P) (/ q)%Qc ds' asg' ks' F' Hs') as X. rewrite Sb in X. exact X. }
  rewrite average_scaled in B1, B2.
  assert (C1 : (q * - average ks <= u')%Qc) by (replace (q * - average ks)%Qc with (- (q * average ks))%Qc by ring; exact B1).
  assert (C2 : (- average ks' <= q * u)%Qc).
  { replace (- average ks')%Qc with (- (/ q * average ks') * q)%Qc by (field; exact Nz). rewrite (Qcmult_comm q u). apply Qcmult_le_compat_r; [exact B2|]. now apply Qclt_le_weak. }
  exists (- average ks)%Qc, u, (- average ks')%Qc, u'. splits; auto.
  intros E1 E2. apply Qcle_antisym; [now rewrite E1|now rewrite E2].
Qed.

(** The prices derived from a precision: a higher start-of-editing price is dearer, a
    higher precision is cheaper. *)
Theorem C84_derived_prices :
  forall precision precision' start start' sensitivity : Qc,
    (0 <= precision)%Qc -> (precision <= precision')%Qc -> (precision' <= 1)%Qc -> (0 <= start)%Qc -> (start <= start')%Qc -> (0 <= sensitivity <= 1)%Qc ->
    dearer (derive_uncertainty_region_costs precision' start sensitivity) (derive_uncertainty_region_costs precision start' sensitivity).
Proof.
  intros p p' c c' s Hp Hpp Hp1 Hc Hcc [Hs1 Hs2].
  assert (Q1 : (p * (1 - s) <= p' * (1 - s))%Qc) by (apply qc_scale; [exact Hpp|qc_lra]).
  assert (Q2 : ((1 - p') * (1 - s) * c <= (1 - p) * (1 - s) * c')%Qc).
  { apply Qcle_trans with ((1 - p) * (1 - s) * c)%Qc.
    - apply qc_scale; [|exact Hc]. apply qc_scale; qc_lra.
    - rewrite (Qcmult_comm _ c), (Qcmult_comm _ c'). apply qc_scale; [exact Hcc|]. apply qc_prod; qc_lra. }
  constructor; cbn; try apply Qcle_refl; auto.
  - replace (Q2Qc 2 * s - (1 - Q2Qc 2 * p * (1 - s)))%Qc with (Q2Qc 2 * s - 1 + Q2Qc 2 * (p * (1 - s)))%Qc by ring.
    replace (Q2Qc 2 * s - (1 - Q2Qc 2 * p' * (1 - s)))%Qc with (Q2Qc 2 * s - 1 + Q2Qc 2 * (p' * (1 - s)))%Qc by ring. qc_lra.
  - replace (1 - Q2Qc 2 * p * (1 - s))%Qc with (1 - Q2Qc 2 * (p * (1 - s)))%Qc by ring.
    replace (1 - Q2Qc 2 * p' * (1 - s))%Qc with (1 - Q2Qc 2 * (p' * (1 - s)))%Qc by ring. qc_lra.
  - rewrite (Qcmult_comm s c), (Qcmult_comm s c'). now apply qc_scale.
Qed.

(** The samples "ab" and "ac" at the derived prices, at three times those and with a
    start price of 7 instead of 5. *)
Definition ex_dearer : parameters := derive_uncertainty_region_costs (Q2Qc (7 # 10)) (Q2Qc 7) (Q2Qc (1 # 2)).
Example C84_example :
  let run P := match combine_samples 100 (fun _ => false) (edit_wrapper P false false) letters (chars "x") [chars "ab"; chars "ac"] 0 with
    | Some (Ok r) => match assignment_map r with Some _ => Some (solution_utility r, utility_dual_bound r) | None => None end | _ => None end in
  run ex_derived = Some (Fin (Q2Qc (-3 # 2)), Fin (Q2Qc (-3 # 2))) /\
  run (scaled (Q2Qc 3) ex_derived) = Some (Fin (Q2Qc (-9 # 2)), Fin (Q2Qc (-9 # 2))) /\
  run ex_dearer = Some (Fin (Q2Qc (-5 # 2)), Fin (Q2Qc (-5 # 2))).
Proof. vm_compute. repeat split. Qed.
Example C84_hypotheses : dearer ex_derived ex_dearer /\ (0 < Q2Qc 3)%Qc /\
  (forall s, In s [chars "ab"; chars "ac"] -> reads letters (chars "x" ++ s) (letter_tree (chars "x") s)) /\ designates [chars "ab"; chars "ac"] 0 (chars "ab").
Proof.
  splits.
  - apply C84_derived_prices; try split; discriminate.
  - reflexivity.
  - intros s Hs. cbn in Hs. destruct Hs as [<-|[<-|[]]]; repeat split; repeat constructor.
  - exists 0. split; auto.
Qed.
Print Assumptions C84_dearer_prices.
Print Assumptions C84_scaled_prices.
Print Assumptions C84_reported_dearer.
Print Assumptions C84_reported_scaled.
Print Assumptions C84_derived_prices.
