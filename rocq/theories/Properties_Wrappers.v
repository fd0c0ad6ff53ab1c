(** C49: the costs derived from a precision.  Specification vocabulary:
    [least_cost], [kept_outside], [put_in_region] in [CostDerivation.v]. *)

From Coq Require Import List Bool Arith ZArith Lia QArith Qcanon.
From Verif Require Import Base Graph GatedDag SeqNodes PackedSeq PackedSeqProofs Numbered Decisions EditDag EditSpec EditProofs EditTheorems CostDerivation.
Import ListNotations.
Close Scope Qc_scope. Close Scope Q_scope. Close Scope Z_scope. Open Scope nat_scope.

Lemma least_edit {M : Type} {md : EqDec M} (P : parameters) (ns ts : list (node M)) d ds k :
  construct_edit_dag P (pack ns) (pack ts) = Ok d ->
  edit P (labelled ns) (labelled ts) k ds -> (forall k', edit P (labelled ns) (labelled ts) k' ds -> (k <= k')%Qc) -> least_cost d ds k.
Proof.
  rewrite construct_edit_ok. intros E H Hmin. injection E as <-. split.
  - destruct (edits_are_paths P _ _ _ _ H) as [p [H1 [H2 H3]]]. exists p. auto.
  - intros p k' Hp Ha Hc. destruct (paths_are_edits P _ _ p (labelled_numbered ns) (labelled_numbered ts) Hp) as [k'' [E1 E2]].
    rewrite Ha in E2. rewrite Hc in E1. injection E1 as <-. auto.
Qed.

Lemma qc_mult_nonneg a b : (0 <= a -> 0 <= b -> 0 <= a * b)%Qc.
Proof. intros H1 H2. replace 0%Qc with (0 * b)%Qc by ring. now apply Qcmult_le_compat_r. Qed.
Lemma characters_nonneg t : (0 <= characters t)%Qc.
Proof. unfold characters, Qcle. rewrite !Q2Qc_this. unfold inject_Z, Qle. cbn [Qnum Qden]. lia. Qed.
Lemma characters_pos t : t <> [] -> (0 < characters t)%Qc.
Proof. intros H. unfold characters, Qclt. rewrite !Q2Qc_this. unfold inject_Z, Qlt. cbn [Qnum Qden]. destruct t; [congruence|cbn [length]; lia]. Qed.

(** ** C49.  A suggested token, once outside and once inside a region of its
    own; a target where it is right and one where it is wrong.  Whatever the
    chance [q] of being right, keeping the token outside is better in
    expectation by exactly [(1 - sensitivity) * (2 * length + start) * (q - precision)]. *)
Theorem C49_break_even_at_the_precision :
  forall (M : Type) (md : EqDec M) (precision start sensitivity : Qc) (t : text) (m : M) (t' : text) (m' : M) right wrong,
    (0 <= precision <= 1)%Qc -> (0 <= sensitivity <= 1)%Qc -> (0 <= start)%Qc -> (t, m) <> (t', m') ->
    let costs := derive_uncertainty_region_costs precision start sensitivity in
    construct_edit_dag costs (pack (one_token t m)) (pack [Token t m]) = Ok right ->
    construct_edit_dag costs (pack (one_token t m)) (pack [Token t' m']) = Ok wrong ->
    exists out_right in_right out_wrong in_wrong,
      least_cost right kept_outside out_right /\ least_cost right put_in_region in_right /\
      least_cost wrong kept_outside out_wrong /\ least_cost wrong put_in_region in_wrong /\
      (out_right <= out_wrong /\ in_right <= in_wrong)%Qc /\
      forall q : Qc,
        let expected (if_right if_wrong : Qc) := (q * - if_right + (1 - q) * - if_wrong)%Qc in
        (expected out_right out_wrong - expected in_right in_wrong =
         (1 - sensitivity) * (Q2Qc 2 * characters t + start) * (q - precision))%Qc.
Proof.
  intros M md p c s t m t' m' R W Hp Hs Hc N costs HR HW.
  pose proof (characters_nonneg t) as L.
  assert (X1 : (0 <= high_start costs)%Qc) by exact Hc.
  assert (X2 : (0 <= low_start costs)%Qc) by (cbn; apply qc_mult_nonneg; [apply Hs|exact Hc]).
  assert (X3 : (low_start costs <= high_start costs)%Qc).
  { cbn. replace c with (1 * c)%Qc at 2 by ring. apply Qcmult_le_compat_r; [apply Hs|exact Hc]. }
  assert (X4 : (0 <= high_match costs * characters t + high_delete costs * characters t)%Qc) by (cbn; qc_lra).
  assert (X5 : (0 <= low_match costs * characters t + low_delete costs * characters t)%Qc).
  { cbn. replace ((Q2Qc 2 * s - (1 - Q2Qc 2 * p * (1 - s))) * characters t + (1 - Q2Qc 2 * p * (1 - s)) * characters t)%Qc with (Q2Qc 2 * s * characters t)%Qc by ring.
    apply qc_mult_nonneg; [|exact L]. apply qc_mult_nonneg; [discriminate|apply Hs]. }
  exists (- (high_match costs * characters t))%Qc, (region_cost costs - low_match costs * characters t)%Qc,
    (high_start costs + high_delete costs * characters t)%Qc, (region_cost costs + low_start costs + low_delete costs * characters t)%Qc.
  splits.
  - destruct (outside_right costs t m) as [k [H ->]]. eapply least_edit; [exact HR|exact H|].
    intros k' H'. apply (outside_bound costs eq_refl X1 t m t m k' H'); auto.
  - destruct (inside_right costs t m) as [k [H ->]]. eapply least_edit; [exact HR|exact H|].
    intros k' H'. apply (inside_bound costs eq_refl X1 X2 X3 t m t m k' H'); auto.
  - destruct (outside_wrong costs eq_refl t m t' m') as [k [H ->]]. eapply least_edit; [exact HW|exact H|].
    intros k' H'. apply (outside_bound costs eq_refl X1 t m t' m' k' H'); auto.
  - destruct (inside_wrong costs eq_refl t m t' m') as [k [H ->]]. eapply least_edit; [exact HW|exact H|].
    intros k' H'. apply (inside_bound costs eq_refl X1 X2 X3 t m t' m' k' H'); auto.
  - clear -X4 X1. qc_lra.
  - clear -X5 X2. qc_lra.
  - intros q. cbn. replace (Q2Qc 2) with (1 + 1)%Qc by (apply Qc_is_canon; reflexivity). ring.
Qed.
(** So a token is put in a region exactly when its chance is below the precision. *)
Theorem C49_regions_below_the_precision :
  forall (M : Type) (md : EqDec M) (precision start sensitivity : Qc) (t : text) (m : M) (t' : text) (m' : M) right wrong,
    (0 <= precision <= 1)%Qc -> (0 <= sensitivity)%Qc /\ (sensitivity < 1)%Qc -> (0 <= start)%Qc -> (t, m) <> (t', m') ->
    t <> [] \/ (0 < start)%Qc ->
    let costs := derive_uncertainty_region_costs precision start sensitivity in
    construct_edit_dag costs (pack (one_token t m)) (pack [Token t m]) = Ok right ->
    construct_edit_dag costs (pack (one_token t m)) (pack [Token t' m']) = Ok wrong ->
    exists out_right in_right out_wrong in_wrong,
      least_cost right kept_outside out_right /\ least_cost right put_in_region in_right /\
      least_cost wrong kept_outside out_wrong /\ least_cost wrong put_in_region in_wrong /\
      forall q : Qc,
        let outside := (q * - out_right + (1 - q) * - out_wrong)%Qc in
        let inside := (q * - in_right + (1 - q) * - in_wrong)%Qc in
        ((outside < inside)%Qc <-> (q < precision)%Qc) /\ ((inside < outside)%Qc <-> (precision < q)%Qc) /\
        (outside = inside <-> q = precision).
Proof.
  intros M md p c s t m t' m' R W Hp Hs Hc N Hpos costs HR HW.
  destruct (C49_break_even_at_the_precision M md p c s t m t' m' R W Hp (conj (proj1 Hs) (Qclt_le_weak _ _ (proj2 Hs))) Hc N HR HW)
    as [a [b [x [y [H1 [H2 [H3 [H4 [_ H5]]]]]]]]]. exists a, b, x, y. splits; auto. intros q. specialize (H5 q). cbv zeta in *.
  set (out := (q * - a + (1 - q) * - x)%Qc) in *. set (inn := (q * - b + (1 - q) * - y)%Qc) in *.
  assert (G : (0 < (1 - s) * (Q2Qc 2 * characters t + c))%Qc).
  { assert (G1 : (0 < 1 - s)%Qc) by (destruct Hs as [_ Hs]; clear -Hs; qc_lra).
    assert (G2 : (0 < Q2Qc 2 * characters t + c)%Qc).
    { pose proof (characters_nonneg t) as L.
      destruct Hpos as [Ht|Hp']; [|qc_lra].
      pose proof (characters_pos t Ht) as L'.
      qc_lra. }
    replace 0%Qc with (0 * (Q2Qc 2 * characters t + c))%Qc by ring. now apply Qcmult_lt_compat_r. }
  set (g := ((1 - s) * (Q2Qc 2 * characters t + c))%Qc) in *.
  assert (E : out = (inn + g * (q - p))%Qc) by (rewrite <- H5; ring).
  assert (A : (q < p -> g * (q - p) < 0)%Qc).
  { intros H. replace 0%Qc with (0 * g)%Qc by ring. rewrite (Qcmult_comm g). apply Qcmult_lt_compat_r; auto. clear -H. qc_lra. }
  assert (B : (p < q -> 0 < g * (q - p))%Qc).
  { intros H. replace 0%Qc with (0 * g)%Qc by ring. rewrite (Qcmult_comm g). apply Qcmult_lt_compat_r; auto. clear -H. qc_lra. }
  assert (C : (q = p -> g * (q - p) = 0)%Qc) by (intros ->; ring).
  clearbody out inn g. clear -E A B C. destruct (Qc_dec q p) as [[H|H]|H].
  - specialize (A H). splits; split; intros K; try (exfalso; qc_lra); try qc_lra.
  - specialize (B H). splits; split; intros K; try (exfalso; qc_lra); try qc_lra.
  - specialize (C H). splits; split; intros K; try (exfalso; qc_lra); try qc_lra.
Qed.
Example C49_example :
  (0 <= Q2Qc (7 # 10) <= 1)%Qc /\ (0 <= Q2Qc (1 # 2))%Qc /\ (Q2Qc (1 # 2) < 1)%Qc /\ (0 <= Q2Qc 5)%Qc /\ ([97], 0) <> ([98], 0) /\
  match construct_edit_dag (derive_uncertainty_region_costs (Q2Qc (7 # 10)) (Q2Qc 5) (Q2Qc (1 # 2))) (pack (one_token [97] 0)) (pack [Token [98] 0]) with
  | Ok d => 10 <? length (edges d) = true
  | Err _ => False
  end.
Proof. splits; [discriminate|discriminate|discriminate|reflexivity|discriminate|discriminate|vm_compute; reflexivity]. Qed.
Print Assumptions C49_break_even_at_the_precision.
Print Assumptions C49_regions_below_the_precision.
