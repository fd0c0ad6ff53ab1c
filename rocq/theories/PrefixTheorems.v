(** The prefix baselines: the rules hold, and their constraints single out one
    allowed choice, whose text is the prefix. *)

From Coq Require Import List Bool Arith Lia QArith Qcanon Sorting.Sorted.
From Verif Require Import Base SeqNodes PackedSeq PackedSeqProofs Numbered Decisions TokenProb ConvertPaths ConstraintSpec ConstraintProofs ConstraintPack
  RegionDecisions RegionProofs PrefixBaselines PrefixProofs.
Import ListNotations.
Close Scope Qc_scope. Close Scope Q_scope. Open Scope nat_scope.

Section Theorems.
  Context {M : Type}.
  Notation L := (lnode M).

  Lemma align_loop_keys (S : storage M) ids : forall st r st', align_loop S st ids = Ok (r, st') ->
    forall i, In i ids -> cat i = CToken -> exists p, assoc (pre i) r = Some p.
  Proof.
    induction ids as [|j ids IH]; intros st r st' E i Hi Hc; [destruct Hi|]. cbn [align_loop] in E.
    destruct (cat j) eqn:Ej;
      repeat match type of E with
      | bind _ _ = Ok _ => let y := fresh "y" in let H := fresh "H" in apply bind_ok_inv in E as [y [H E]]
      end; try (destruct Hi as [->|Hi]; [congruence|]; eapply IH; eauto; fail).
    - destruct y1 as [r1 s1]. injection E as <- <-. cbn [assoc fst]. destruct (eqb (pre i) (pre j)) eqn:Ep; [eauto|].
      destruct Hi as [->|Hi]; [now rewrite eqb_refl in Ep|]. cbn [fst]. eapply IH; eauto.
  Qed.
  Lemma aligned_tokens toks (ns : list (node M)) must aligned : align_token_log_probs toks (pack ns) must = Ok aligned ->
    forall i t m, In (LToken i t m) (flat_map nodes (labelled ns)) -> exists p, assoc (pre i) aligned = Some p.
  Proof.
    unfold align_token_log_probs. intros E i t m Hi. apply bind_ok_inv in E as [[r st] [E1 E2]].
    assert (aligned = r) as ->.
    { destruct must; [apply bind_ok_inv in E2 as [? [_ E2]]|]; cbn in E2; congruence. }
    eapply align_loop_keys; [exact E1| |].
    - rewrite preorder_labels. change i with (label (LToken i t m)). now apply in_map.
    - pose proof (nodes_all_placed ns) as F. rewrite Forall_forall in F. apply F in Hi. apply placed_inv in Hi. apply Hi.
  Qed.

  Section Prototype.
    Context (ns : list (node M)).
    Notation S := (pack ns).
    Notation all := (flat_map nodes (labelled ns)).
    Let Sd : StronglySorted (fun x y => number x < number y) all := nodes_sorted _ _ (labelled_numbered ns).
    Let same (x y : L) : In x all -> In y all -> number x = number y -> x = y.
    Proof.
      intros Hx Hy E. apply in_split in Hx as [l1 [l2 Hx]]. 
      destruct (split_in all Sd _ _ _ _ Hx Hy) as [[_ H]|[H|[_ H]]]; auto; lia.
    Qed.

    Theorem token_prob_rule toks must aligned low cumulative : align_token_log_probs toks S must = Ok aligned ->
      exists o c, baseline_from_token_prob low cumulative S aligned = Ok c /\ marks all o c /\
        stops_before all (if cumulative : bool then low_prefix all aligned low else low_token all aligned low) o.
    Proof.
      intros Hal. assert (Ht : forall i t m, In (LToken i t m) all -> t <> [] -> exists p, assoc (pre i) aligned = Some p)
        by (intros i t m Hi _; eapply aligned_tokens; eauto).
      exists (before_loop (prob_trig ns aligned low cumulative) None false all).
      assert (Hs : stops_before all (if cumulative : bool then low_prefix all aligned low else low_token all aligned low)
                     (before_loop (prob_trig ns aligned low cumulative) None false all)).
      { eapply stops_before_ext; [|apply (before_loop_spec all Sd (prob_trig ns aligned low cumulative)) with (done := []); auto; intros x []].
        intros k. unfold at_limit. split.
        - intros [x [Hx [<- T]]]. destruct x as [i t|i t m|i|i|i|i cs m]; try discriminate. cbn [prob_trig] in T.
          destruct t as [|ch t]; [discriminate|]. destruct (assoc (pre i) aligned) as [p|] eqn:Ep; [|discriminate]. unfold number. cbn [label].
          assert (Ta : token_at all (pre i)) by (exists i, (ch :: t), m; splits; auto; discriminate).
          destruct cumulative; split; auto. now exists p.
        - intros H. assert (Ta : token_at all k) by (destruct cumulative; apply H). destruct Ta as [i [t [m [Hi [<- Hne]]]]].
          destruct (Ht i t m Hi Hne) as [p Hp]. exists (LToken i t m). splits; auto. cbn [prob_trig]. destruct t as [|ch t]; [congruence|].
          rewrite Hp. destruct cumulative; destruct H as [_ H]; auto. destruct H as [p' [E1 E2]]. congruence. }
      destruct (assignment_marks ns (before_loop (prob_trig ns aligned low cumulative) None false all)) as [c [Ec Hm]].
      { intros e Ee. rewrite Ee in Hs. eapply stops_before_exit; eauto. }
      exists c. splits; auto. unfold baseline_from_token_prob. rewrite preorder_labels.
      rewrite (token_prob_run ns aligned Ht low cumulative all [] 0%Qc None false eq_refl (nodes_all_placed ns)) by reflexivity.
      cbn [bind]. exact Ec.
    Qed.
    Theorem intellicode_rule toks must aligned low : align_token_log_probs toks S must = Ok aligned ->
      exists o c, baseline_from_intellicode low S aligned = Ok c /\ marks all o c /\ stops_before all (low_for_position all aligned low) o.
    Proof.
      intros Hal. assert (Ht : forall i t m, In (LToken i t m) all -> t <> [] -> exists p, assoc (pre i) aligned = Some p)
        by (intros i t m Hi _; eapply aligned_tokens; eauto).
      exists (before_loop (position_trig ns aligned low) None false all).
      assert (Hs : stops_before all (low_for_position all aligned low) (before_loop (position_trig ns aligned low) None false all)).
      { eapply stops_before_ext; [|apply (before_loop_spec all Sd (position_trig ns aligned low)) with (done := []); auto; intros x []].
        intros k. unfold at_limit. split.
        - intros [x [Hx [<- T]]]. destruct x as [i t|i t m|i|i|i|i cs m]; try discriminate. cbn [position_trig] in T.
          destruct t as [|ch t]; [discriminate|]. destruct (assoc (pre i) aligned) as [p|] eqn:Ep; [|discriminate]. unfold number. cbn [label].
          split; [exists i, (ch :: t), m; splits; auto; discriminate|]. now exists p.
        - intros [[i [t [m [Hi [<- Hne]]]]] [p' [E1 E2]]].
          exists (LToken i t m). splits; auto. cbn [position_trig]. destruct t as [|ch t]; [congruence|]. now rewrite E1. }
      destruct (assignment_marks ns (before_loop (position_trig ns aligned low) None false all)) as [c [Ec Hm]].
      { intros e Ee. rewrite Ee in Hs. eapply stops_before_exit; eauto. }
      exists c. splits; auto. unfold baseline_from_intellicode. rewrite preorder_labels.
      rewrite (intellicode_run ns aligned Ht low all [] 0 None false eq_refl (nodes_all_placed ns)) by reflexivity.
      cbn [bind]. exact Ec.
    Qed.
    Theorem characters_rule most :
      exists o c, baseline_from_characters most S = Ok c /\ marks all o c /\ stops_after all (characters_reached all most) o.
    Proof.
      exists (after_loop (characters_trig ns most) false all).
      assert (Hs : stops_after all (characters_reached all most) (after_loop (characters_trig ns most) false all)).
      { eapply stops_after_ext; [|apply (after_loop_spec all Sd (characters_trig ns most)) with (done := []); auto; intros x []].
        intros k. unfold at_limit, characters_reached. split.
        - intros [x [Hx [<- T]]]. destruct x as [i t|i t m|i|i|i|i cs m]; try discriminate. cbn [characters_trig] in T.
          apply Nat.leb_le in T. split; auto. now exists i, t, m.
        - intros [[i [t [m [Hi <-]]]] H]. exists (LToken i t m). splits; auto. now apply Nat.leb_le. }
      destruct (assignment_marks ns (after_loop (characters_trig ns most) false all)) as [c [Ec Hm]].
      { intros e Ee. rewrite Ee in Hs. eapply stops_after_exit; eauto. }
      exists c. splits; auto. unfold baseline_from_characters. rewrite preorder_labels.
      rewrite (characters_run ns most all [] 0 false eq_refl (nodes_all_placed ns)) by reflexivity.
      cbn [bind]. exact Ec.
    Qed.
    Theorem lines_rule most :
      exists o c, baseline_from_lines most S = Ok c /\ marks all o c /\ stops_after all (lines_reached all most) o.
    Proof.
      exists (after_loop (lines_trig ns most) false all).
      assert (Hs : stops_after all (lines_reached all most) (after_loop (lines_trig ns most) false all)).
      { eapply stops_after_ext; [|apply (after_loop_spec all Sd (lines_trig ns most)) with (done := []); auto; intros x []].
        intros k. unfold at_limit, lines_reached, lines_trig. split.
        - intros [x [Hx [<- T]]]. apply andb_true_iff in T as [T1 T2]. apply Nat.leb_le in T2. split; auto. now exists x.
        - intros [[x [Hx [<- T]]] H]. exists x. splits; auto. rewrite T. now apply Nat.leb_le. }
      destruct (assignment_marks ns (after_loop (lines_trig ns most) false all)) as [c [Ec Hm]].
      { intros e Ee. rewrite Ee in Hs. eapply stops_after_exit; eauto. }
      exists c. splits; auto. unfold baseline_from_lines. rewrite preorder_labels.
      rewrite (lines_run ns most all [] 0 false eq_refl (nodes_all_placed ns)) by reflexivity.
      cbn [bind]. exact Ec.
    Qed.
    Theorem max_average_rule toks must aligned : align_token_log_probs toks S must = Ok aligned ->
      exists o c, baseline_from_max_average_log_prob S aligned = Ok c /\ marks all o c /\ stops_at_best all aligned o.
    Proof.
      intros Hal. assert (Ht : forall i t m, In (LToken i t m) all -> t <> [] -> exists p, assoc (pre i) aligned = Some p)
        by (intros i t m Hi _; eapply aligned_tokens; eauto).
      destruct (max_average_run ns aligned Ht all [] 0%Qc 0 None None eq_refl (nodes_all_placed ns) eq_refl eq_refl) as [o [Eo Ho]].
      { intros i a' []. }
      destruct (assignment_marks ns o) as [c [Ec Hm]].
      { intros e ->. apply Ho. }
      exists o, c. splits; auto. unfold baseline_from_max_average_log_prob. rewrite preorder_labels, Eo. cbn [bind]. exact Ec.
    Qed.
  End Prototype.

  (** ** The choice that stops at an exit and starts no region. *)
  Fixpoint stop_at (l : list L) : list decision :=
    match l with
    | [] => []
    | LDeco _ _ :: l' => stop_at l'
    | LToken i _ _ :: l' | LGroup i _ _ :: l' => ((pre i, NodeInRegion), DFalse) :: stop_at l'
    | LStart i :: l' => ((pre i, RegionShouldStart), DFalse) :: stop_at l'
    | LEnd i :: l' => ((pre i, RegionShouldEnd), DNA) :: stop_at l'
    | LExit i :: l' => ((pre i, ShouldEarlyExit), DFalse) :: stop_at l'
    end.
  Lemma stop_at_app l l' : stop_at (l ++ l') = stop_at l ++ stop_at l'.
  Proof. induction l as [|x l IH]; auto. destruct x; cbn [app stop_at]; rewrite IH; reflexivity. Qed.
  Definition no_starts (l : list L) : Prop := forall i, ~ In (LStart i) l.
  Lemma crun_stop b (l : list L) a r : crun b l a r -> b = false -> no_starts (flat_map nodes l) ->
    match r with
    | Some b' => b' = false /\ a = stop_at (flat_map nodes l)
    | None => exists l1 i l2, flat_map nodes l = l1 ++ LExit i :: l2 /\ a = stop_at l1 ++ [((pre i, ShouldEarlyExit), DTrue)]
    end.
  Proof.
    assert (P : forall (x : L) l a a' (r : option bool), a' = stop_at (nodes x) ++ a ->
      match r with
      | Some b' => b' = false /\ a = stop_at (flat_map nodes l)
      | None => exists l1 i l2, flat_map nodes l = l1 ++ LExit i :: l2 /\ a = stop_at l1 ++ [((pre i, ShouldEarlyExit), DTrue)]
      end ->
      match r with
      | Some b' => b' = false /\ a' = stop_at (flat_map nodes (x :: l))
      | None => exists l1 i l2, flat_map nodes (x :: l) = l1 ++ LExit i :: l2 /\ a' = stop_at l1 ++ [((pre i, ShouldEarlyExit), DTrue)]
      end).
    { intros x l0 a0 a0' [b'|] -> H; cbn [flat_map].
      - destruct H as [-> ->]. split; auto. now rewrite stop_at_app.
      - destruct H as [l1 [i [l2 [E ->]]]]. exists (nodes x ++ l1), i, l2. rewrite E, stop_at_app, <- !app_assoc. auto. }
    assert (Q : forall x l, no_starts (flat_map nodes (x :: l)) -> no_starts (nodes x) /\ no_starts (flat_map nodes l)).
    { intros x l0 H. split; intros i Hi; apply (H i); cbn [flat_map]; apply in_or_app; auto. }
    induction 1; intros Hb Hn; subst; try discriminate;
      try (apply Q in Hn as [Hn1 Hn2]; eapply P; [reflexivity|now apply IHcrun]; fail).
    - auto.
    - apply Q in Hn as [Hn1 Hn2]. assert (Hn3 : no_starts (flat_map nodes cs)) by (intros j Hj; apply (Hn1 j); now right).
      destruct (IHcrun1 eq_refl Hn3) as [_ ->]. eapply P; [|now apply IHcrun2]. reflexivity.
    - apply Q in Hn as [Hn1 Hn2]. assert (Hn3 : no_starts (flat_map nodes cs)) by (intros j Hj; apply (Hn1 j); now right).
      destruct (IHcrun eq_refl Hn3) as [l1 [j [l2 [E ->]]]]. exists (LGroup i cs m :: l1), j, (l2 ++ flat_map nodes l).
      cbn [flat_map nodes stop_at app]. rewrite E, <- app_assoc. auto.
    - exfalso. apply (Hn i). now left.
    - exists [], i, (flat_map nodes l). auto.
  Qed.
  Lemma app_split {A} (a b l1 : list A) x l2 : a ++ b = l1 ++ x :: l2 ->
    (exists m, a = l1 ++ x :: m /\ l2 = m ++ b) \/ (exists m, l1 = a ++ m /\ b = m ++ x :: l2).
  Proof.
    revert l1. induction a as [|y a IH]; intros l1 E.
    - right. exists l1. auto.
    - destruct l1 as [|z l1]; cbn [app] in E; injection E as -> E.
      + left. exists a. auto.
      + destruct (IH _ E) as [[m [-> ->]]|[m [-> E2]]]; [left|right]; exists m; auto.
  Qed.
  Lemma chosen_app (l1 : list L) a1 : chosen l1 a1 -> forall l2 a2, chosen l2 a2 -> chosen (l1 ++ l2) (a1 ++ a2).
  Proof.
    induction 1; intros l2 a2 H2; cbn [app]; try (constructor; auto; fail); auto.
    - rewrite <- app_assoc. constructor; auto.
    - rewrite <- !app_assoc. cbn [app]. constructor; auto.
  Qed.
  Lemma exits_stop_upto n : forall (l : list L), lsizes l <= n -> forall l1 i l2, flat_map nodes l = l1 ++ LExit i :: l2 ->
    exits l (stop_at l1 ++ [((pre i, ShouldEarlyExit), DTrue)]).
  Proof.
    induction n as [|n IH]; intros [|x l] Hs l1 i l2 E; try (destruct l1; discriminate); rewrite lsizes_cons in Hs; pose proof (lsize_pos x) as Px; [lia|].
    cbn [flat_map] in E. destruct (app_split _ _ _ _ _ E) as [[m [E1 E2]]|[m [E1 E2]]].
    - destruct x as [j t|j t m'|j|j|j|j cs m']; cbn [nodes] in E1;
        try (destruct l1 as [|y [|z l1]]; cbn [app] in E1; inversion E1; fail).
      + destruct l1 as [|y [|z l1]]; cbn [app] in E1; inversion E1; subst. cbn. constructor.
      + destruct l1 as [|y l1]; cbn [app] in E1; [discriminate|]. injection E1 as <- E1.
        cbn [stop_at app]. constructor. rewrite lsize_group in Hs. eapply IH; [lia|exact E1].
    - subst l1. rewrite stop_at_app, <- app_assoc. change (x :: l) with ([x] ++ l). apply ex_skip; [|eapply IH; [lia|exact E2]].
      assert (Hx : stop_at (nodes x) = flat_map no_regions [x]).
      { clear. cbn [flat_map]. rewrite app_nil_r. induction x as [j t|j t m'|j|j|j|j cs m' H] using lnode_ind'; try reflexivity.
        cbn [nodes stop_at no_regions]. f_equal. induction H as [|c l Hc HF IHl]; auto. cbn [flat_map]. now rewrite stop_at_app, Hc, IHl. }
      rewrite Hx. apply no_regions_chosen.
  Qed.
  Lemma stop_at_none (l : list L) : stop_at (flat_map nodes l) = flat_map no_regions l.
  Proof.
    induction l as [|x l IH]; auto. cbn [flat_map]. rewrite stop_at_app, IH. f_equal. clear.
    induction x as [j t|j t m'|j|j|j|j cs m' H] using lnode_ind'; try reflexivity.
    cbn [nodes stop_at no_regions]. f_equal. induction H as [|c l Hc HF IHl]; auto. cbn [flat_map]. now rewrite stop_at_app, Hc, IHl.
  Qed.

  (** A choice satisfies constraints; decisions that are not taken do not apply. *)
  Definition satisfies_constraints (c : assignments) (ds : list decision) : Prop :=
    forall k v, In (k, v) c -> value_of ds DNA k = v.
  Lemma sorted_assoc (ds : list decision) : StronglySorted lt (positions ds) -> forall k v, In (k, v) ds -> assoc k ds = Some v.
  Proof.
    unfold positions. induction ds as [|[k' v'] ds IH]; intros Sd k v H; [destruct H|]. cbn [map fst] in Sd. inversion Sd as [|? ? S1 F]; subst.
    cbn [assoc]. destruct H as [H|H]; [injection H as -> ->; now rewrite eqb_refl|].
    destruct (eqb k k') eqn:E; [|now apply IH]. apply eqb_eq in E. subst k'. rewrite Forall_forall in F.
    assert (Hp : In (fst k) (map (fun a : decision => fst (fst a)) ds)) by (apply in_map_iff; exists (k, v); auto).
    apply F in Hp. lia.
  Qed.
  Lemma assoc_absent (ds : list decision) k : (forall v, ~ In (k, v) ds) -> assoc k ds = None.
  Proof.
    induction ds as [|[k' v'] ds IH]; intros H; auto. cbn [assoc]. destruct (eqb k k') eqn:E.
    - apply eqb_eq in E. subst. exfalso. apply (H v'). now left.
    - apply IH. intros v Hv. apply (H v). now right.
  Qed.
  Lemma stop_at_exit (l : list L) i : In (LExit i) l -> In ((pre i, ShouldEarlyExit), DFalse) (stop_at l).
  Proof. induction l as [|x l IH]; intros H; [destruct H|]. destruct H as [->|H]; [now left|]. destruct x; cbn [stop_at]; auto; right; auto. Qed.
  Lemma stop_at_key (l : list L) k v : In (k, v) (stop_at l) -> exists x, In x l /\ number x = fst k.
  Proof.
    induction l as [|x l IH]; intros H; [destruct H|]. destruct x; cbn [stop_at] in H;
      try (destruct H as [[= <- <-]|H]; [eexists; split; [now left|reflexivity]|]); apply IH in H as [y [Hy E]]; exists y; split; auto; now right.
  Qed.

  Theorem marks_single_out (ns : list (node M)) o c :
    let all := flat_map nodes (labelled ns) in
    no_starts all -> (forall e, o = Some e -> exit_at all e) -> marks all o c ->
    exists ds, region_choice (labelled ns) ds /\ satisfies_constraints c ds /\
      forall ds', region_choice (labelled ns) ds' -> satisfies_constraints c ds' -> ds' = ds.
  Proof.
    intros all Hns He [Hnd Hm]. pose proof (nodes_sorted _ _ (labelled_numbered ns)) as Sd. fold all in Sd.
    assert (Cases : forall ds', region_choice (labelled ns) ds' ->
      ds' = stop_at all \/ exists l1 i l2, all = l1 ++ LExit i :: l2 /\ ds' = stop_at l1 ++ [((pre i, ShouldEarlyExit), DTrue)]).
    { intros ds' H. apply crun_region_choice in H as [H|H]; apply crun_stop in H; auto. left. apply H. }
    assert (Val : forall ds' k v, region_choice (labelled ns) ds' -> In (k, v) ds' -> value_of ds' DNA k = v).
    { intros ds' k v Hc Hi. unfold value_of. rewrite (sorted_assoc ds') with (v := v); auto. apply choice_increasing with (l := labelled ns); auto.
      apply labelled_numbered. }
    assert (Cin : forall i, In (LExit i) all -> In ((pre i, ShouldEarlyExit), exit_value o (pre i)) c).
    { intros i Hi. apply Hm. left. eauto. }
    destruct o as [e|].
    - destruct (He e eq_refl) as [i [Hi Ei]]. pose proof Hi as Hi'. apply in_split in Hi' as [l1 [l2 Es]].
      exists (stop_at l1 ++ [((pre i, ShouldEarlyExit), DTrue)]).
      assert (Hch : region_choice (labelled ns) (stop_at l1 ++ [((pre i, ShouldEarlyExit), DTrue)])).
      { right. eapply exits_stop_upto; [apply le_n|exact Es]. }
      split; [exact Hch|]. split.
      + intros k v Hkv. apply Hm in Hkv as [[j [Hj [-> ->]]]|[j [Hj _]]]; [|now destruct (Hns j)].
        destruct (split_in all Sd _ _ _ _ Es Hj) as [[H1 H2]|[H1|[H1 H2]]]; unfold number in *; cbn [label] in *; unfold exit_value.
        * destruct (Nat.ltb_spec (pre j) e); [|lia]. apply Val; auto. apply in_or_app. left. now apply stop_at_exit.
        * injection H1 as ->. subst e. rewrite Nat.ltb_irrefl, Nat.eqb_refl. apply Val; auto. apply in_or_app. right. now left.
        * destruct (Nat.ltb_spec (pre j) e); [lia|]. destruct (Nat.eqb_spec (pre j) e); [lia|]. unfold value_of. rewrite assoc_absent; auto.
          intros v Hv. apply in_app_or in Hv as [Hv|[[= Hv _]|[]]]; [|lia]. apply stop_at_key in Hv as [y [Hy Ey]]. cbn in Ey.
          destruct (sorted_here all Sd _ _ _ Es) as [_ [B _]]. apply B in Hy. unfold number in Hy, Ey. cbn in Hy. lia.
      + intros ds' Hc' Hs'. destruct (Cases ds' Hc') as [->|[l1' [i' [l2' [Es' ->]]]]].
        * exfalso. specialize (Hs' _ _ (Cin i Hi)). rewrite (Val _ _ DFalse Hc' (stop_at_exit _ _ Hi)) in Hs'.
          unfold exit_value in Hs'. rewrite Ei, Nat.ltb_irrefl, Nat.eqb_refl in Hs'. discriminate.
        * assert (Hi' : In (LExit i') all) by (rewrite Es'; apply in_or_app; right; now left).
          specialize (Hs' _ _ (Cin i' Hi')). rewrite (Val _ _ DTrue Hc') in Hs' by (apply in_or_app; right; now left).
          unfold exit_value in Hs'. destruct (Nat.ltb_spec (pre i') e); [discriminate|]. destruct (Nat.eqb_spec (pre i') e) as [E|]; [|discriminate].
          pose proof (before_here all Sd _ _ _ Es) as T1. pose proof (before_here all Sd _ _ _ Es') as T2. unfold number in T1, T2. cbn [label] in T1, T2.
          rewrite E in *. rewrite Ei in *. now rewrite <- T1, <- T2.
    - exists (stop_at all).
      assert (Hch : region_choice (labelled ns) (stop_at all)) by (left; unfold all; rewrite stop_at_none; apply no_regions_chosen).
      split; [exact Hch|]. split.
      + intros k v Hkv. apply Hm in Hkv as [[j [Hj [-> ->]]]|[j [Hj _]]]; [|now destruct (Hns j)]. cbn. apply Val; auto. now apply stop_at_exit.
      + intros ds' Hc' Hs'. destruct (Cases ds' Hc') as [->|[l1' [i' [l2' [Es' ->]]]]]; auto. exfalso.
        assert (Hi' : In (LExit i') all) by (rewrite Es'; apply in_or_app; right; now left).
        specialize (Hs' _ _ (Cin i' Hi')). rewrite (Val _ _ DTrue Hc') in Hs' by (apply in_or_app; right; now left). discriminate.
  Qed.

  (** ** What is shown. *)
  Definition plain_part (x : L) : list part := match text_in x with Some t => [(t, false)] | None => [] end.
  Lemma marked_go (c : assignments) marker o : forall l : list L, StronglySorted (fun x y => number x < number y) l ->
    no_starts l -> (forall i, ~ In (LEnd i) l) -> (forall e, o = Some e -> exists i, In (LExit i) l /\ pre i = e) ->
    (forall i, In (LExit i) l -> assoc (pre i, ShouldEarlyExit) c = Some (exit_value o (pre i))) ->
    forall emp, go c marker false emp l = (flat_map plain_part (match o with Some e => before l e | None => l end), None).
  Proof.
    induction l as [|x l IH]; intros Sd N1 N2 He Hc emp.
    - destruct o as [e|]; auto.
    - inversion Sd as [|? ? S1 F]; subst. rewrite Forall_forall in F.
      assert (N1' : no_starts l) by (intros i Hi; apply (N1 i); now right).
      assert (N2' : forall i, ~ In (LEnd i) l) by (intros i Hi; apply (N2 i); now right).
      assert (Hc' : forall i, In (LExit i) l -> assoc (pre i, ShouldEarlyExit) c = Some (exit_value o (pre i))) by (intros i Hi; apply Hc; now right).
      assert (Step : (forall i, x <> LExit i \/ o <> Some (pre i)) -> forall emp,
                flat_map plain_part (match o with Some e => before (x :: l) e | None => x :: l end) = plain_part x ++ fst (go c marker false emp l) /\
                snd (go c marker false emp l) = None).
      { intros Hx emp'. assert (He' : forall e, o = Some e -> exists i, In (LExit i) l /\ pre i = e).
        { intros e ->. destruct (He e eq_refl) as [i [[->|Hi] Ei]]; [|eauto]. destruct (Hx i) as [H|H]; congruence. }
        rewrite (IH S1 N1' N2' He' Hc'). cbn [fst snd]. split; auto. destruct o as [e|]; [|reflexivity].
        unfold before. cbn [filter]. destruct (He' e eq_refl) as [i [Hi Ei]]. apply F in Hi. unfold number in Hi at 2. cbn [label] in Hi.
        destruct (Nat.ltb_spec (number x) e); [|lia]. reflexivity. }
      destruct x as [i t|i t m|i|i|i|i cs m]; cbn [go].
      + destruct (Step ltac:(left; discriminate) false) as [-> E]. unfold prepend. cbn [plain_part text_in app]. now rewrite E.
      + destruct (Step ltac:(left; discriminate) false) as [-> E]. unfold prepend. cbn [plain_part text_in app]. now rewrite E.
      + exfalso. apply (N1 i). now left.
      + exfalso. apply (N2 i). now left.
      + rewrite (Hc i) by now left. destruct (eqb o (Some (pre i))) eqn:Eo.
        * apply eqb_eq in Eo. subst o. unfold exit_value. rewrite Nat.ltb_irrefl, Nat.eqb_refl. unfold before. cbn [filter].
          replace (number (LExit i)) with (pre i) by reflexivity. rewrite Nat.ltb_irrefl. f_equal.
          replace (filter (fun x => number x <? pre i) l) with (@nil L); auto. clear -F. induction l as [|y l IHl]; auto. cbn [filter].
          pose proof (F y (or_introl eq_refl)) as Fy. unfold number in Fy at 1. cbn [label] in Fy.
          destruct (Nat.ltb_spec (number y) (pre i)); [lia|]. apply IHl. intros z Hz. apply F. now right.
        * apply eqb_false_iff in Eo. 
          destruct (Step ltac:(intros j; destruct (Nat.eq_dec (pre j) (pre i)) as [E|E]; [right; congruence|left; congruence]) emp) as [-> E].
          cbn [plain_part text_in app]. assert (Ev : exit_value o (pre i) <> DTrue).
          { unfold exit_value. destruct o as [e|]; [|discriminate]. destruct (pre i <? e); [discriminate|]. destruct (Nat.eqb_spec (pre i) e); [congruence|discriminate]. }
          destruct (exit_value o (pre i)); try congruence; destruct (go c marker false emp l); cbn [fst snd] in *; congruence.
      + destruct (Step ltac:(left; discriminate) emp) as [-> E]. cbn [plain_part text_in app]. destruct (go c marker false emp l); cbn [fst snd] in *; congruence.
  Qed.
  Theorem marks_shown (ns : list (node M)) o c marker :
    let all := flat_map nodes (labelled ns) in
    no_starts all -> (forall i, ~ In (LEnd i) all) -> (forall e, o = Some e -> exit_at all e) -> marks all o c ->
    extract_sequence_with_regions (pack ns) c marker =
      (flat_map plain_part (match o with Some e => before all e | None => all end), None).
  Proof.
    intros all N1 N2 He [Hnd Hm]. rewrite extract_pack. apply marked_go; auto.
    - exact (nodes_sorted _ _ (labelled_numbered ns)).
    - intros i Hi. assert (H : In ((pre i, ShouldEarlyExit), exit_value o (pre i)) c) by (apply Hm; left; eauto).
      clear -Hnd H. revert H. generalize (exit_value o (pre i)). generalize (pre i, ShouldEarlyExit). intros k v H.
      induction c as [|[k' v'] c IH]; [destruct H|]. cbn [map fst] in Hnd. inversion Hnd as [|? ? H1 H2]; subst. cbn [assoc].
      destruct H as [[= -> ->]|H]; [now rewrite eqb_refl|]. destruct (eqb k k') eqn:E; [|auto].
      apply eqb_eq in E. subst k'. exfalso. apply H1. now apply (in_map fst) in H.
  Qed.
End Theorems.
