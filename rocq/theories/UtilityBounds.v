(** How much a suggestion can be worth: every edit costs at least minus the gain for
    the characters of the tokens of the suggestion, and there is an edit of exactly
    that cost into what is left when the regions and exits are taken out. *)

From Coq Require Import List Bool Arith ZArith Lia QArith Qcanon.
From Verif Require Import Base SeqNodes Transforms PackedSeq PackedSeqProofs Numbered Decisions ConstraintSpec ConstraintDag ConstraintProofs ConstraintPack EditDag EditSpec EditProofs EditTheorems SystemSpec.
Import ListNotations.
Close Scope Qc_scope. Close Scope Q_scope. Close Scope Z_scope. Open Scope nat_scope.

(** ** Specification. *)
(** The number of characters in tokens; those in decorations do not count. *)
Fixpoint token_length {M} (n : node M) : nat :=
  match n with
  | Token t _ => length t
  | Group cs _ => list_sum (map token_length cs)
  | _ => 0
  end.
Definition tokens_length {M} (ns : list (node M)) : nat := list_sum (map token_length ns).
(** A number of characters as a cost. *)
Definition number (n : nat) : Qc := Q2Qc (inject_Z (Z.of_nat n)).
(** Costs under which nothing is worth more than keeping a token outside regions. *)
Record sensible (P : parameters) : Prop := mkSensible {
  s_high_match : (0 <= high_match P)%Qc;
  s_low_match : (low_match P <= high_match P)%Qc;
  s_high_delete : (- high_delete P <= high_match P)%Qc;
  s_low_delete : (- low_delete P <= high_match P)%Qc;
  s_insert : (0 <= insert_per_char P)%Qc;
  s_region : (0 <= region_cost P)%Qc;
  s_high_start : (0 <= high_start P)%Qc;
  s_low_start : (0 <= low_start P)%Qc }.

(** ** Arithmetic. *)
Lemma qc_scale a b c : (a <= b -> 0 <= c -> a * c <= b * c)%Qc.
Proof. intros. now apply Qcmult_le_compat_r. Qed.
Lemma qc_prod a b : (0 <= a -> 0 <= b -> 0 <= a * b)%Qc.
Proof. intros H1 H2. replace 0%Qc with (0 * b)%Qc by ring. now apply Qcmult_le_compat_r. Qed.
Lemma number_nonneg n : (0 <= number n)%Qc.
Proof. unfold number, Qcle. rewrite !Q2Qc_this. unfold inject_Z, Qle. cbn [Qnum Qden]. lia. Qed.
Lemma number_add a b : number (a + b) = (number a + number b)%Qc.
Proof.
  unfold number. apply Qc_is_canon. unfold Qcplus. rewrite !Q2Qc_this. rewrite Nat2Z.inj_add, inject_Z_plus. reflexivity.
Qed.
Lemma number_le a b : a <= b -> (number a <= number b)%Qc.
Proof. intros H. unfold number, Qcle. rewrite !Q2Qc_this. unfold inject_Z, Qle. cbn [Qnum Qden]. lia. Qed.

Section Bounds.
  Context {M : Type} {md : EqDec M} (P : parameters).
  Notation L := (lnode M).
  Local Open Scope Qc_scope.
  Definition weight (l : list L) : Qc := number (tokens_length (map erase l)).
  Lemma weight_nil : weight [] = 0.
  Proof. reflexivity. Qed.
  Lemma weight_cons x l : weight (x :: l) = number (token_length (erase x)) + weight l.
  Proof. unfold weight, tokens_length. cbn [map list_sum fold_right]. apply number_add. Qed.
  Lemma weight_group i cs m l : weight (LGroup i cs m :: l) = weight cs + weight l.
  Proof. rewrite weight_cons. cbn [erase token_length]. reflexivity. Qed.
  Lemma weight_token i t m l : weight (LToken i t m :: l) = characters t + weight l.
  Proof. rewrite weight_cons. reflexivity. Qed.
  Lemma weight_nonneg l : 0 <= weight l.
  Proof. apply number_nonneg. Qed.
  Lemma passes_weight c x k ds c' l : passes P c x k ds c' -> weight (x :: l) = weight l.
  Proof. intros H. rewrite weight_cons. destruct H; cbn [erase token_length]; change (number 0) with 0; ring. Qed.
  Lemma passes_cost c (x : L) k ds c' : sensible P -> passes P c x k ds c' -> 0 <= k.
  Proof. intros S H. destruct H; try apply Qcle_refl. apply (s_region P S). Qed.

  Lemma removed_bound c l k ds r : sensible P -> removed P c l k ds r -> - k <= high_match P * weight l.
  Proof.
    intros S. pose proof (s_high_match P S) as G0. induction 1 as [c|c x k ds c' l k' ds' r Hp H IH|c i l|c i t m l k ds r H IH|c i cs m l k ds c' k' ds' r H1 IH1 H2 IH2|c i cs m l k ds H IH].
    - rewrite weight_nil. qc_lra.
    - rewrite (passes_weight _ _ _ _ _ _ Hp). pose proof (passes_cost _ _ _ _ _ S Hp). qc_lra.
    - pose proof (qc_prod _ _ G0 (weight_nonneg (LExit i :: l))). qc_lra.
    - rewrite weight_token. replace (high_match P * (characters t + weight l)) with (high_match P * characters t + high_match P * weight l) by ring.
      pose proof (number_nonneg (length t)) as N. change (number (length t)) with (characters t) in N.
      assert (D : - delete_price P c t <= high_match P * characters t).
      { destruct c; cbn [delete_price].
        - replace (- (high_delete P * characters t)) with (- high_delete P * characters t) by ring. apply qc_scale; [apply S|exact N].
        - replace (- (low_delete P * characters t)) with (- low_delete P * characters t) by ring. apply qc_scale; [apply S|exact N]. }
      qc_lra.
    - rewrite weight_group. qc_lra.
    - rewrite weight_group. pose proof (qc_prod _ _ G0 (weight_nonneg l)). qc_lra.
  Qed.
  Lemma insert_total_nonneg (y : L) : sensible P -> 0 <= insert_total P y.
  Proof.
    intros S. induction y as [i t|i t m|i|i|i|i cs m IH] using lnode_ind'; cbn [insert_total]; try apply Qcle_refl.
    - apply qc_prod; [apply S|]. apply (number_nonneg (length t)).
    - induction IH as [|c cs Hc Hcs IH]; cbn [fold_right]; [apply Qcle_refl|]. qc_lra.
  Qed.
  Lemma edited_bound g c ps ts k ds r : sensible P -> edited P g c ps ts k ds r -> - k <= high_match P * weight ps.
  Proof.
    intros S. pose proof (s_high_match P S) as G0.
    induction 1 as [g c|g c x k ds c' ps ts k' ds' r Hg Hp H IH|g c i ps ts Hg|c ps ts k ds r H IH|c x ps ts k ds c' k' ds' r Hr H IH|c x ps ts k ds Hr|g c y ps ts k ds r Hg Ht H IH|g c ps i t ts k ds r H IH|g c i i' t m ps ts k ds r H IH|g c i cs i' cs' m ps ts k ds c' k' ds' r H1 IH1 H2 IH2|g c i cs i' cs' m ps ts k ds H IH].
    - rewrite weight_nil. qc_lra.
    - rewrite (passes_weight _ _ _ _ _ _ Hp). pose proof (passes_cost _ _ _ _ _ S Hp). qc_lra.
    - pose proof (qc_prod _ _ G0 (weight_nonneg (LExit i :: ps))). qc_lra.
    - pose proof (s_high_start P S). pose proof (s_low_start P S). destruct c; cbn [begin_price]; qc_lra.
    - apply removed_bound in Hr; [|exact S]. rewrite weight_cons. rewrite (weight_cons x []), weight_nil in Hr. qc_lra.
    - apply removed_bound in Hr; [|exact S]. rewrite weight_cons. rewrite (weight_cons x []), weight_nil in Hr. pose proof (qc_prod _ _ G0 (weight_nonneg ps)). qc_lra.
    - pose proof (insert_total_nonneg y S). qc_lra.
    - exact IH.
    - rewrite weight_token. replace (high_match P * (characters t + weight ps)) with (high_match P * characters t + high_match P * weight ps) by ring.
      pose proof (number_nonneg (length t)) as N. change (number (length t)) with (characters t) in N.
      assert (D : keep_gain P c t <= high_match P * characters t).
      { destruct c; cbn [keep_gain]; [apply Qcle_refl|]. apply qc_scale; [apply S|exact N]. }
      qc_lra.
    - rewrite weight_group. qc_lra.
    - rewrite weight_group. pose proof (qc_prod _ _ G0 (weight_nonneg ps)). qc_lra.
  Qed.

  (** Nothing is gained by deleting either: then a continuation is worth no more than its own tokens. *)
  Definition no_gain_from_deleting : Prop := 0 <= high_delete P /\ 0 <= low_delete P.
  Lemma removed_costs c (l : list L) k ds r : sensible P -> no_gain_from_deleting -> removed P c l k ds r -> 0 <= k.
  Proof.
    intros S [D1 D2]. induction 1 as [c|c x k ds c' l k' ds' r Hp H IH|c i l|c i t m l k ds r H IH|c i cs m l k ds c' k' ds' r H1 IH1 H2 IH2|c i cs m l k ds H IH]; try apply Qcle_refl; auto.
    - pose proof (passes_cost _ _ _ _ _ S Hp). qc_lra.
    - pose proof (number_nonneg (length t)) as N. change (number (length t)) with (characters t) in N.
      assert (0 <= delete_price P c t) by (destruct c; cbn [delete_price]; apply qc_prod; auto). qc_lra.
    - qc_lra.
  Qed.
  Lemma edited_target_bound g c ps ts k ds r : sensible P -> no_gain_from_deleting -> edited P g c ps ts k ds r -> - k <= high_match P * weight ts.
  Proof.
    intros S D. pose proof (s_high_match P S) as G0.
    induction 1 as [g c|g c x k ds c' ps ts k' ds' r Hg Hp H IH|g c i ps ts Hg|c ps ts k ds r H IH|c x ps ts k ds c' k' ds' r Hr H IH|c x ps ts k ds Hr|g c y ps ts k ds r Hg Ht H IH|g c ps i t ts k ds r H IH|g c i i' t m ps ts k ds r H IH|g c i cs i' cs' m ps ts k ds c' k' ds' r H1 IH1 H2 IH2|g c i cs i' cs' m ps ts k ds H IH].
    - rewrite weight_nil. qc_lra.
    - pose proof (passes_cost _ _ _ _ _ S Hp). qc_lra.
    - pose proof (qc_prod _ _ G0 (weight_nonneg ts)). qc_lra.
    - pose proof (s_high_start P S). pose proof (s_low_start P S). destruct c; cbn [begin_price]; qc_lra.
    - apply removed_costs in Hr; auto. qc_lra.
    - apply removed_costs in Hr; auto. pose proof (qc_prod _ _ G0 (weight_nonneg ts)). qc_lra.
    - pose proof (insert_total_nonneg y S). rewrite weight_cons. pose proof (qc_prod _ _ G0 (number_nonneg (token_length (erase y)))). qc_lra.
    - rewrite weight_cons. cbn [erase token_length]. change (number 0) with 0. qc_lra.
    - rewrite weight_token. replace (high_match P * (characters t + weight ts)) with (high_match P * characters t + high_match P * weight ts) by ring.
      pose proof (number_nonneg (length t)) as N. change (number (length t)) with (characters t) in N.
      assert (K : keep_gain P c t <= high_match P * characters t).
      { destruct c; cbn [keep_gain]; [apply Qcle_refl|]. apply qc_scale; [apply S|exact N]. }
      qc_lra.
    - rewrite weight_group. qc_lra.
    - rewrite weight_group. pose proof (qc_prod _ _ G0 (weight_nonneg ts)). qc_lra.
  Qed.

  (** Keeping everything. *)
  Lemma kept_whole n : forall (ps ts : list L), (lsizes ps <= n)%nat -> map erase ts = strip_decision_nodes (map erase ps) ->
    edited P Untouched High ps ts (- (high_match P * weight ps)) (flat_map no_regions ps) (Some High).
  Proof.
    assert (Q : forall g c (ps ts : list L) k k' ds ds' r, edited P g c ps ts k ds r -> k = k' -> ds = ds' -> edited P g c ps ts k' ds' r) by (intros; subst; auto).
    induction n as [|n IH]; intros [|x ps] ts Hs E; try (rewrite lsizes_cons in Hs; pose proof (lsize_pos x); lia).
    - destruct ts; [|discriminate]. eapply Q; [apply ed_end| |reflexivity]. rewrite weight_nil. ring.
    - destruct ts; [|discriminate]. eapply Q; [apply ed_end| |reflexivity]. rewrite weight_nil. ring.
    - rewrite lsizes_cons in Hs. pose proof (lsize_pos x) as Px. unfold strip_decision_nodes in E. cbn [map flat_map] in E.
      destruct x as [i t|i t m|i|i|i|i cs m]; cbn [erase strip_node app] in E.
      + destruct ts as [|[j u|j u m'|j|j|j|j us m'] ts]; try discriminate. cbn [map erase] in E. injection E as -> E.
        eapply Q; [eapply ed_pass; [discriminate|apply pa_deco|]; apply ed_deco, (IH ps ts); [lia|exact E]|..].
        * rewrite weight_cons. cbn [erase token_length]. change (number 0) with 0. ring.
        * reflexivity.
      + destruct ts as [|[j u|j u m'|j|j|j|j us m'] ts]; try discriminate. cbn [map erase] in E. injection E as -> -> E.
        eapply Q; [apply ed_keep, (IH ps ts); [lia|exact E]|..].
        * rewrite weight_token. cbn [keep_gain]. ring.
        * reflexivity.
      + eapply Q; [eapply ed_pass; [discriminate|apply pa_no_start|]; apply (IH ps ts); [lia|exact E]|..].
        * rewrite weight_cons. cbn [erase token_length]. change (number 0) with 0. ring.
        * reflexivity.
      + eapply Q; [eapply ed_pass; [discriminate|apply pa_end_out|]; apply (IH ps ts); [lia|exact E]|..].
        * rewrite weight_cons. cbn [erase token_length]. change (number 0) with 0. ring.
        * reflexivity.
      + eapply Q; [eapply ed_pass; [discriminate|apply pa_no_exit|]; apply (IH ps ts); [lia|exact E]|..].
        * rewrite weight_cons. cbn [erase token_length]. change (number 0) with 0. ring.
        * reflexivity.
      + destruct ts as [|[j u|j u m'|j|j|j|j us m'] ts]; try discriminate. cbn [map erase] in E. injection E as E1 -> E.
        rewrite lsize_group in Hs.
        eapply Q; [eapply ed_group; [apply (IH cs us); [lia|exact E1]|apply (IH ps ts); [lia|exact E]]|..].
        * rewrite weight_group. ring.
        * reflexivity.
  Qed.

  (** Replacing everything. *)
  Lemma removed_whole n : forall (l : list L), (lsizes l <= n)%nat -> removed P High l (high_delete P * weight l) (flat_map no_regions l) (Some High).
  Proof.
    assert (Q : forall c (l : list L) k k' ds ds' r, removed P c l k ds r -> k = k' -> ds = ds' -> removed P c l k' ds' r) by (intros; subst; auto).
    induction n as [|n IH]; intros [|x l] Hs; try (rewrite lsizes_cons in Hs; pose proof (lsize_pos x); lia).
    - eapply Q; [apply rm_nil| |reflexivity]. rewrite weight_nil. ring.
    - eapply Q; [apply rm_nil| |reflexivity]. rewrite weight_nil. ring.
    - rewrite lsizes_cons in Hs. pose proof (lsize_pos x) as Px.
      destruct x as [i t|i t m|i|i|i|i cs m];
        try (eapply Q; [eapply rm_pass; [constructor|apply (IH l); lia]|rewrite weight_cons; cbn [erase token_length]; change (number 0) with 0; ring|reflexivity]).
      + eapply Q; [apply rm_token, (IH l); lia|rewrite weight_token; cbn [delete_price]; ring|reflexivity].
      + rewrite lsize_group in Hs.
        eapply Q; [eapply rm_group; [apply (IH cs); lia|apply (IH l); lia]|rewrite weight_group; ring|reflexivity].
  Qed.
  Lemma insert_total_weight (y : L) : insert_total P y = insert_per_char P * number (token_length (erase y)).
  Proof.
    induction y as [i t|i t m|i|i|i|i cs m IH] using lnode_ind'; cbn [insert_total erase token_length]; try (change (number 0) with 0; ring).
    - reflexivity.
    - induction IH as [|c cs Hc Hcs IH]; cbn [fold_right map list_sum]; [change (number 0) with 0; ring|].
      unfold list_sum in IH |- *. cbn [fold_right]. rewrite number_add, IH, Hc. ring.
  Qed.
  Lemma added_whole g (ts : list L) : g <> Untouched -> Forall text_only ts -> edited P g High [] ts (insert_per_char P * weight ts) [] (Some High).
  Proof.
    assert (Q : forall g c (ps ts : list L) k k' ds r, edited P g c ps ts k ds r -> k = k' -> edited P g c ps ts k' ds r) by (intros; subst; auto).
    intros Hg F. revert g Hg. induction F as [|y ts Hy F IH]; intros g Hg.
    - eapply Q; [apply ed_end|]. rewrite weight_nil. ring.
    - eapply Q; [apply ed_add; [exact Hg|exact Hy|apply IH; discriminate]|]. rewrite weight_cons, insert_total_weight. ring.
  Qed.
  Lemma replaced_whole (ps ts : list L) : Forall text_only ts ->
    edited P Untouched High ps ts (high_start P + (high_delete P * weight ps + insert_per_char P * weight ts)) (flat_map no_regions ps) (Some High).
  Proof.
    intros F. apply ed_begin. induction ps as [|x ps IH].
    - replace (high_delete P * weight [] + insert_per_char P * weight ts) with (insert_per_char P * weight ts) by (rewrite weight_nil; ring).
      apply added_whole; [discriminate|exact F].
    - replace (high_delete P * weight (x :: ps) + insert_per_char P * weight ts) with (high_delete P * weight [x] + (high_delete P * weight ps + insert_per_char P * weight ts))
        by (rewrite !weight_cons, weight_nil; ring).
      cbn [flat_map]. eapply ed_remove; [|exact IH].
      pose proof (removed_whole (lsizes [x]) [x] (le_n _)) as R. cbn [flat_map] in R. rewrite app_nil_r in R. exact R.
  Qed.
  Lemma no_regions_negative n : forall (l : list L), (lsizes l <= n)%nat -> Forall (fun d => snd d = DFalse \/ snd d = DNA) (flat_map no_regions l).
  Proof.
    induction n as [|n IH]; intros [|x l] Hs; try (rewrite lsizes_cons in Hs; pose proof (lsize_pos x); lia); try (apply Forall_nil).
    rewrite lsizes_cons in Hs. pose proof (lsize_pos x) as Px. cbn [flat_map]. apply Forall_app. split; [|apply IH; lia].
    destruct x as [i t|i t m|i|i|i|i cs m]; cbn [no_regions]; try (repeat constructor; auto; fail).
    rewrite lsize_group in Hs. apply Forall_cons; [auto|]. apply IH. lia.
  Qed.
End Bounds.

(** ** Tokens are part of the text. *)
Lemma tokens_in_text {M} (ns : list (node M)) : tokens_length ns <= length (render ns).
Proof.
  assert (N : forall n : node M, token_length n <= length (render_node n)).
  { induction n as [t|t m| | | |cs m IH] using node_ind'; cbn [token_length render_node]; try lia.
    induction IH as [|c cs Hc Hcs IH]; cbn; [lia|]. rewrite app_length. unfold list_sum in IH. lia. }
  unfold tokens_length, render. induction ns as [|n ns IH]; cbn; [lia|]. rewrite app_length. specialize (N n). unfold list_sum in IH. lia.
Qed.
(** Decision nodes contain no tokens. *)
Lemma strip_tokens {M} (ns : list (node M)) : tokens_length (strip_decision_nodes ns) = tokens_length ns.
Proof.
  assert (A : forall a b : list (node M), tokens_length (a ++ b) = tokens_length a + tokens_length b).
  { intros a b. unfold tokens_length. now rewrite map_app, list_sum_app. }
  assert (N : forall n : node M, tokens_length (strip_node n) = token_length n).
  { induction n as [t|t m| | | |cs m IH] using node_ind'; cbn [strip_node]; try reflexivity.
    - unfold tokens_length. cbn [map token_length list_sum fold_right]. lia.
    - unfold tokens_length at 1. cbn [map token_length list_sum fold_right]. rewrite Nat.add_0_r.
      change (tokens_length (flat_map strip_node cs) = tokens_length cs).
      induction IH as [|c cs Hc Hcs IH]; auto. cbn [flat_map]. rewrite A, Hc, IH. reflexivity. }
  unfold strip_decision_nodes. induction ns as [|n ns IH]; auto. cbn [flat_map]. rewrite A, N, IH. reflexivity.
Qed.

(** ** Stripping and cutting off a prefix commute. *)
Lemma trunc_list_app_strip {M} off (a b : list (node M)) : forall st,
  trunc_list off st (a ++ b) = let '(s1, o1) := trunc_list off st a in let '(s2, o2) := trunc_list off s1 b in (s2, o1 ++ o2).
Proof.
  induction a as [|n a IH]; intros st; cbn [app trunc_list].
  - now destruct (trunc_list off st b).
  - destruct (trunc_node off st n) as [s1 o1]. rewrite IH. destruct (trunc_list off s1 a) as [s2 o2]. destruct (trunc_list off s2 b) as [s3 o3].
    now rewrite app_assoc.
Qed.
Lemma trunc_strip_list {M} off (l : list (node M)) :
  Forall (fun n => forall st, trunc_list off st (strip_node n) = let '(s, o) := trunc_node off st n in (s, flat_map strip_node o)) l ->
  forall st, trunc_list off st (flat_map strip_node l) = let '(s, o) := trunc_list off st l in (s, flat_map strip_node o).
Proof.
  induction 1 as [|n l Hn Hl IH]; intros st; auto. cbn [flat_map trunc_list]. rewrite trunc_list_app_strip, Hn.
  destruct (trunc_node off st n) as [s1 o1]. rewrite IH. destruct (trunc_list off s1 l) as [s2 o2]. now rewrite flat_map_app.
Qed.
Lemma trunc_strip_node {M} off (n : node M) : forall st,
  trunc_list off st (strip_node n) = let '(s, o) := trunc_node off st n in (s, flat_map strip_node o).
Proof.
  induction n as [t|t m| | | |cs m IH] using node_ind'; intros st; cbn [strip_node trunc_list];
    try (cbn [trunc_node]; destruct st; reflexivity).
  - cbn [trunc_node]. destruct (trunc_text off st t) as [s [u|]]; reflexivity.
  - cbn [trunc_node]. destruct (trunc_text off st t) as [s [u|]]; reflexivity.
  - rewrite !trunc_node_group, (trunc_strip_list off cs IH). destruct (trunc_list off st cs) as [[k|] o]; reflexivity.
Qed.
Lemma truncate_strip {M} (ns : list (node M)) off :
  strip_decision_nodes (truncate_prefix_at_offset ns off) = truncate_prefix_at_offset (strip_decision_nodes ns) off.
Proof.
  unfold truncate_prefix_at_offset, strip_decision_nodes. rewrite trunc_strip_list.
  - now destruct (trunc_list off (Some 0) ns).
  - apply Forall_forall. intros n _. apply trunc_strip_node.
Qed.
