(** What the displays show. *)

From Coq Require Import String DecimalString.
From Coq Require Import List Bool Arith Lia ZArith Sorted QArith Qcanon.
From Verif Require Import Base SeqNodes Transforms PackedSeq PackedSeqProofs Numbered Graph GatedDag PackedDag Convert MapDag Decisions ConstraintSpec ConstraintDag
  ConstraintPack EditDag EditScript EditSpec EditProofs EditView EditTheorems EditReport EditReportProofs SelectionDag SelectionReport RegionDecisions RegionProofs Html
  Properties_Regions Properties_Edit Properties_Report SystemSpec BuildSystem BuildProofs BuildKeys Combine CombineSpec CombineProofs CombineStats CombinePaths CombineTheorems
  DualSolver PseudoParse TokenProb CallSequence Show ShowSpec.
Import ListNotations.
Close Scope string_scope. Close Scope Qc_scope. Close Scope Q_scope. Close Scope Z_scope. Open Scope nat_scope. Open Scope list_scope.

Ltac plain_text := repeat (constructor; [splits; discriminate|]); constructor.

(** ** Numbers and headings. *)
Lemma chars_string_plain s : (forall s1 s2 c, s = append s1 (String c s2) -> Ascii.nat_of_ascii c <> 60 /\ Ascii.nat_of_ascii c <> 62 /\ Ascii.nat_of_ascii c <> 38) ->
  Forall (fun c => c <> 60 /\ c <> 62 /\ c <> 38) (chars s).
Proof.
  induction s as [|c s IH]; intros H; [constructor|]. cbn [chars]. constructor; [apply (H EmptyString s c eq_refl)|].
  apply IH. intros s1 s2 c' ->. apply (H (String c s1) s2 c' eq_refl).
Qed.
Lemma digits_plain d : Forall (fun c => c <> 60 /\ c <> 62 /\ c <> 38) (chars (NilEmpty.string_of_uint d)).
Proof. induction d; cbn [NilEmpty.string_of_uint chars]; constructor; auto; splits; cbv; discriminate. Qed.
Lemma number_plain i : Forall (fun c => c <> 60 /\ c <> 62 /\ c <> 38) (number_text i).
Proof.
  unfold number_text, NilZero.string_of_uint. destruct (Nat.to_uint i); try apply digits_plain.
  cbn. constructor; [splits; discriminate|constructor].
Qed.
Definition heading_line (i : nat) : text := chars "========== Target " ++ number_text i ++ chars " ==========".
Lemma heading_piece i : piece [] (heading i) (under [] (heading_line i) ++ line_break).
Proof.
  unfold heading, heading_line. change (chars " ==========<br>") with (chars " ==========" ++ chars "<br>").
  rewrite !app_assoc. apply piece_app; [|apply piece_break]. apply piece_plain. repeat rewrite Forall_app. splits; [|apply number_plain|]; plain_text.
Qed.
Lemma mono_opens : opening mono_span = true. Proof. reflexivity. Qed.
Lemma context_opens : opening context_span = true. Proof. reflexivity. Qed.
Lemma mono_plain : plain_tag_text mono_span. Proof. plain_tag. Qed.
Lemma context_plain : plain_tag_text context_span. Proof. plain_tag. Qed.

(** ** Lists of blocks. *)
Lemma each_pieces {A B} (f : nat -> A -> result text) (Q : nat -> B -> list (nat * list text) -> Prop) samples l :
  Forall2 (fun s x => forall i, exists t out, f i x = Ok t /\ piece [] t out /\ Q i s out) samples l ->
  forall i, exists t outs, each f i l = Ok t /\ piece [] t (concat outs) /\
    Forall2 (fun x out => Q (fst x) (snd x) out) (combine (seq i (length samples)) samples) outs.
Proof.
  induction 1 as [|s x samples l H F IH]; intros i.
  - exists [], []. splits; [reflexivity|apply piece_nil|constructor].
  - destruct (H i) as [t [out [E1 [E2 E3]]]]. destruct (IH (S i)) as [t' [outs [F1 [F2 F3]]]].
    exists (t ++ t'), (out :: outs). cbn [each length seq combine concat]. rewrite E1. cbn [bind]. rewrite F1. splits; [reflexivity|now apply piece_app|constructor; auto].
Qed.
Lemma target_edges {S S' I1 I2} (g : S -> S') (p : list (edge S decision I1)) :
  mapM target_edge (map (map_edge g (fun c : cost => c) (inl : I1 -> I1 + I2)) p) = Ok (map (map_edge g (fun c : cost => c) (fun i => i)) p).
Proof. induction p as [|e p IH]; [reflexivity|]. cbn [map mapM]. rewrite IH. now destruct e as [s t c [a|] i]. Qed.
(** The reports do not look at the states. *)
Section States.
  Context {M S S' : Type} (g : S -> S').
  Local Notation moved := (map (map_edge g (fun c : cost => c) (fun i => i))).
  Lemma group_moved (prototype target : storage M) p : group_edit_sequence (moved p) prototype target = group_edit_sequence p prototype target.
  Proof.
    unfold group_edit_sequence. generalize (@None action) at 1 3. generalize (@None (option conf)) (@nil text) (Fin 0) (@None action).
    induction p as [|e p IH]; intros c parts k last a; [reflexivity|]. cbn [map group_from]. destruct e as [s t ce asg [f|]]; cbn [map_edge info ecost].
    - destruct (content prototype target f) as [x|x]; [|reflexivity]. cbn [bind]. destruct (act f); rewrite ?IH; reflexivity.
    - now rewrite !IH.
  Qed.
  Lemma edit_html_moved (prototype target : storage M) p prefix marker style :
    extract_edit_sequence_html (moved p) prototype target prefix marker style = extract_edit_sequence_html p prototype target prefix marker style.
  Proof. unfold extract_edit_sequence_html. now rewrite group_moved. Qed.
  Lemma metrics_moved (prototype target : storage M) p : extract_edit_summary_metrics (moved p) prototype target = extract_edit_summary_metrics p prototype target.
  Proof.
    unfold extract_edit_summary_metrics. generalize (@nil (text * cost)). induction p as [|e p IH]; intros d; [reflexivity|].
    cbn [map metrics_from]. destruct e as [s t ce asg [f|]]; cbn [map_edge info ecost]; [|apply IH].
    destruct (content prototype target f); [cbn [bind]; apply IH|reflexivity].
  Qed.
  Lemma cost_moved {As In} (p : list (edge S As In)) : path_cost (map (map_edge g (fun c : cost => c) (fun i => i)) p) = path_cost p.
  Proof. unfold path_cost. f_equal. rewrite map_map. reflexivity. Qed.
  Lemma groupby_moved (p : list (edge S decision (option sinfo))) : groupby category_of (moved p) = map (fun x => (fst x, moved (snd x))) (groupby category_of p).
  Proof.
    induction p as [|e p IH]; [reflexivity|]. cbn [map groupby]. rewrite IH. destruct (groupby category_of p) as [|[k l] rest]; cbn [map fst snd]; [reflexivity|].
    change (category_of (map_edge g (fun c : cost => c) (fun i => i) e)) with (category_of e). now destruct (eqb (category_of e) k).
  Qed.
  Lemma match_groups_moved (prototype target : storage M) p : extract_match_groups (moved p) prototype target = extract_match_groups p prototype target.
  Proof.
    unfold extract_match_groups. rewrite groupby_moved. f_equal. induction (groupby category_of p) as [|[k l] rest IH]; [reflexivity|].
    cbn [map mapM]. rewrite IH. f_equal. unfold part_group. cbn [fst snd].
    assert (E : mapM (edge_tokens prototype target) (moved l) = mapM (edge_tokens prototype target) l).
    { clear. induction l as [|e l IH]; [reflexivity|]. cbn [map mapM]. now rewrite IH. }
    rewrite E. f_equal. assert (F : forall z, fold_left (fun k e => cadd k (ecost e)) (moved l) z = fold_left (fun k e => cadd k (ecost e)) l z).
    { clear. induction l as [|e l IH]; intros z; [reflexivity|]. cbn [map fold_left]. apply IH. }
    now rewrite F.
  Qed.
  Lemma counts_moved (prototype : storage text) (p : list (edge S decision (option sinfo))) : forall k, count_path prototype k (moved p) = count_path prototype k p.
  Proof.
    induction p as [|e p IH]; intros k; [reflexivity|]. cbn [map count_path]. change (info (map_edge g (fun c : cost => c) (fun i => i) e)) with (info e).
    match goal with |- bind ?a _ = bind ?b _ => change a with b; destruct b; [cbn [bind]; apply IH|reflexivity] end.
  Qed.
End States.

(** ** Regions. *)
Lemma region_style_piece : piece [] (region_style (chars "darkorange") (chars "orange") (chars "yellow")) [].
Proof.
  assert (E : exists t, region_style (chars "darkorange") (chars "orange") (chars "yellow") = tag (chars "style") ++ t ++ tag (chars "/style") /\
    forallb (fun c => negb (c =? 60) && negb (c =? 62) && negb (c =? 38)) t = true).
  { exists (firstn (length (region_style (chars "darkorange") (chars "orange") (chars "yellow")) - 15)
      (skipn 7 (region_style (chars "darkorange") (chars "orange") (chars "yellow")))). split; vm_compute; reflexivity. }
  destruct E as [t [-> E]]. apply piece_style. rewrite forallb_forall in E. apply Forall_forall. intros c Hc. specialize (E c Hc).
  apply andb_prop in E as [E E3]. apply andb_prop in E as [E1 E2]. apply negb_true_iff in E1, E2, E3. apply Nat.eqb_neq in E1, E2, E3. auto.
Qed.
Lemma edit_style_piece : piece [] edit_style [].
Proof.
  assert (E : exists t, edit_style = tag (chars "style") ++ t ++ tag (chars "/style") /\
    forallb (fun c => negb (c =? 60) && negb (c =? 62) && negb (c =? 38)) t = true).
  { exists (firstn (length edit_style - 15) (skipn 7 edit_style)). split; vm_compute; reflexivity. }
  destruct E as [t [-> E]]. apply piece_style. rewrite forallb_forall in E. apply Forall_forall. intros c Hc. specialize (E c Hc).
  apply andb_prop in E as [E E3]. apply andb_prop in E as [E1 E2]. apply negb_true_iff in E1, E2, E3. apply Nat.eqb_neq in E1, E2, E3. auto.
Qed.
Lemma go_markers {M} asg marker (l : list (lnode M)) : forall inr emp parts, go asg [] inr emp l = (parts, None) ->
  exists displayed, go asg marker inr emp l = (displayed, None) /\ marks_empty marker displayed parts.
Proof.
  assert (P : forall o o' r r' (parts : list part), prepend o r = (parts, None) ->
    (forall ps, r = (ps, None) -> exists ds, r' = (ds, None) /\ marks_empty marker ds ps) -> marks_empty marker o' o ->
    exists ds, prepend o' r' = (ds, None) /\ marks_empty marker ds parts).
  { intros o o' [ps e] r' parts H IH Ho. unfold prepend in H. cbn in H. injection H as <- ->. destruct (IH ps eq_refl) as [ds [-> Hd]].
    eexists. split; [reflexivity|]. cbn. now apply Forall2_app. }
  induction l as [|x l IH]; intros inr emp parts H.
  - injection H as <-. exists []. split; [reflexivity|constructor].
  - destruct x as [i t|i t m|i|i|i|i cs m]; cbn [go] in *.
    + eapply P; [exact H|intros; now apply IH|]. constructor; [now left|constructor].
    + eapply P; [exact H|intros; now apply IH|]. constructor; [now left|constructor].
    + destruct (assoc (pre i, RegionShouldStart) asg) as [[]|]; try discriminate; now apply IH.
    + destruct (assoc (pre i, RegionShouldEnd) asg) as [[]|]; try discriminate; try (now apply IH). destruct inr; [|discriminate].
      cbn [negb] in *. eapply P; [exact H|intros; now apply IH|]. destruct emp; [constructor; [now right|]|]; constructor.
    + destruct (assoc (pre i, ShouldEarlyExit) asg) as [[]|]; try discriminate; try (now apply IH). injection H as <-. exists []. split; [reflexivity|constructor].
    + now apply IH.
Qed.
Lemma suggestion_pieces {M} (ns : list (node M)) asg parts : extract_sequence_with_regions (pack ns) asg [] = (parts, None) ->
  exists html displayed, render_regions_to_html (pack ns) asg (chars "darkorange") (chars "orange") (chars "yellow") = Ok html /\
    marks_empty empty_marker displayed parts /\ extract_sequence_with_regions (pack ns) asg empty_marker = (displayed, None) /\
    piece [] html (flat_map (fun p => under (region_stack (snd p)) (fst p)) displayed).
Proof.
  intros H. rewrite extract_pack in H. destruct (go_markers asg empty_marker _ _ _ _ H) as [displayed [E Hm]].
  rewrite <- extract_pack in E. destruct (regions_html (pack ns) asg (chars "darkorange") (chars "orange") (chars "yellow") displayed E) as [body [Hb Hd]].
  eexists _, displayed. splits; [exact Hb|exact Hm|exact E|].
  change (flat_map (fun p => under (region_stack (snd p)) (fst p)) displayed) with ([] ++ flat_map (fun p => under (region_stack (snd p)) (fst p)) displayed).
  apply piece_app; [apply region_style_piece|]. now apply document_piece.
Qed.

(** ** Edits. *)
(** A path that stops has taken an exit. *)
Section Stops.
  Context {M : Type} (P : parameters).
  Lemma dels_leaves c (l : list (lnode M)) tr r : dels P c l tr r -> r = None ->
    (exists k, In ((k, ShouldEarlyExit), DTrue) (EditProofs.decided tr)) /\ ~ Forall (free is_exit) (map erase l).
  Proof.
    assert (G : forall a b, (exists k, In ((k, ShouldEarlyExit), DTrue) (EditProofs.decided b)) -> exists k, In ((k, ShouldEarlyExit), DTrue) (EditProofs.decided (a ++ b))).
    { intros a b [k H]. exists k. unfold EditProofs.decided. rewrite flat_map_app. apply in_or_app. auto. }
    assert (G' : forall a b, (exists k, In ((k, ShouldEarlyExit), DTrue) (EditProofs.decided a)) -> exists k, In ((k, ShouldEarlyExit), DTrue) (EditProofs.decided (a ++ b))).
    { intros a b [k H]. exists k. unfold EditProofs.decided. rewrite flat_map_app. apply in_or_app. auto. }
    induction 1 as [c|c x e c' l tr r Hq H IH|c p l|c p t m l tr r H IH|c p cs m l tr c' tr' r H1 IH1 H2 IH2|c p cs m l tr H IH]; intros E; subst; try discriminate.
    - destruct (IH eq_refl) as [A B]. split; [now apply (G [e])|]. intros F. inversion F; auto.
    - split; [exists (pre p); now left|]. intros F. inversion F as [|? ? C _]. discriminate C.
    - destruct (IH eq_refl) as [A B]. split; [now apply (G [_])|]. intros F. inversion F; auto.
    - destruct (IH2 eq_refl) as [A B]. split; [|intros F; inversion F; auto].
      change (exists k, In ((k, ShouldEarlyExit), DTrue) (EditProofs.decided ([entering p c] ++ tr ++ [silent] ++ tr'))). auto.
    - destruct (IH eq_refl) as [A B]. split; [now apply (G [_])|]. intros F. inversion F as [|? ? C _]. apply free_group in C. auto.
  Qed.
  Lemma sc_leaves a c (ps ts : list (lnode M)) tr r : sc P a c ps ts tr r -> r = None ->
    (exists k, In ((k, ShouldEarlyExit), DTrue) (EditProofs.decided tr)) /\ ~ Forall (free is_exit) (map erase ps).
  Proof.
    assert (G : forall a b, (exists k, In ((k, ShouldEarlyExit), DTrue) (EditProofs.decided b)) -> exists k, In ((k, ShouldEarlyExit), DTrue) (EditProofs.decided (a ++ b))).
    { intros a' b [k H]. exists k. unfold EditProofs.decided. rewrite flat_map_app. apply in_or_app. auto. }
    assert (G1 : forall e b, (exists k, In ((k, ShouldEarlyExit), DTrue) (EditProofs.decided b)) -> exists k, In ((k, ShouldEarlyExit), DTrue) (EditProofs.decided (e :: b))).
    { intros e b H. now apply (G [e]). }
    assert (I : forall x l, ~ Forall (free is_exit) (map erase l) -> ~ Forall (free is_exit) (map erase (x :: l : list (lnode M)))).
    { intros x l H F. inversion F; auto. }
    induction 1; intros E; subst; try discriminate; try (destruct (IHsc eq_refl) as [A B]; split; auto; fail).
    - split; [exists (pre p); now left|]. intros F. inversion F as [|? ? C _]. discriminate C.
    - match goal with H : dels _ _ _ _ None |- _ => destruct (dels_leaves _ _ _ _ H eq_refl) as [A B] end. split; auto.
      intros F. inversion F as [|? ? C _]. apply free_group in C. auto.
    - destruct (IHsc2 eq_refl) as [A B]. split; auto.
    - destruct (IHsc eq_refl) as [A B]. split; auto. intros F. inversion F as [|? ? C _]. apply free_group in C. auto.
  Qed.
  Context {md : EqDec M}.
  Lemma path_stops (ns ts : list (node M)) d p x : construct_edit_dag P (pack ns) (pack ts) = Ok d -> complete_path d p -> In x (map info p) -> EditSpec.stops x ->
    (exists k, In ((k, ShouldEarlyExit), DTrue) (path_assignments p)) /\ ~ Forall (free is_exit) ns.
  Proof.
    intros Hd Hp Hx Hs. rewrite construct_edit_ok in Hd. injection Hd as <-. unfold complete_path in Hp. cbn in Hp. rewrite <- effects_reports in Hx.
    apply path_script in Hp as [Hsc|[tr [E Hsc]]]; try apply labelled_numbered.
    - rewrite <- effects_decided. destruct (sc_leaves _ _ _ _ _ _ Hsc eq_refl) as [A B]. split; auto. unfold labelled in B. now rewrite erase_labs in B.
    - exfalso. pose proof (sc_sides _ _ _ _ _ _ _ Hsc) as [_ [_ F]]. cbn in F. rewrite E in Hx. unfold reports in *. rewrite map_app in Hx. apply in_app_or in Hx as [Hx|[<-|[]]]; [|exact Hs].
      rewrite Forall_forall in F. apply (F x Hx Hs).
  Qed.
  Lemma path_once (ns ts : list (node M)) d p : construct_edit_dag P (pack ns) (pack ts) = Ok d -> complete_path d p -> NoDup (map fst (path_assignments p)).
  Proof.
    intros Hd Hp. rewrite construct_edit_ok in Hd. injection Hd as <-. unfold complete_path in Hp. cbn in Hp.
    assert (St : StronglySorted lt (positions (path_assignments (As := decision) p))).
    { rewrite <- effects_decided. apply path_script in Hp as [Hs|[tr [E Hs]]]; try apply labelled_numbered.
      + apply (sc_within _ _ _ _ _ _ _ Hs 0 (labelled_numbered ns)).
      + rewrite E, decided_app. cbn. rewrite app_nil_r. apply (sc_within _ _ _ _ _ _ _ Hs 0 (labelled_numbered ns)). }
    assert (G : forall l, StronglySorted lt l -> NoDup l).
    { induction 1 as [|x l H IH F]; constructor; auto. intros C. rewrite Forall_forall in F. specialize (F x C). lia. }
    apply distinct_keys. exact (G _ St).
  Qed.
End Stops.
Lemma edit_html_piece {M St} (proto target : storage M) (p : list (edge St decision (option einfo))) marker groups : group_edit_sequence p proto target = Ok groups ->
  exists html names, extract_edit_sequence_html p proto target [] marker [] = Ok html /\ Forall2 describes groups names /\
    piece [] html (flat_map (fun x => under [class_span (snd x); edit_root_span] (shown_text marker (fst x))) (combine groups names)).
Proof.
  intros H. destruct (C48_edit_html M St proto target p [] marker [] groups H) as [body [names [E [F D]]]]. cbn [under map app] in D. change (eqb (A := text) [] []) with true in E. cbv iota in E.
  eexists _, names. splits; [exact E|exact F|].
  change (flat_map (fun x => under [class_span (snd x); edit_root_span] (shown_text marker (fst x))) (combine groups names))
    with ([] ++ flat_map (fun x => under [class_span (snd x); edit_root_span] (shown_text marker (fst x))) (combine groups names)).
  apply piece_app; [apply edit_style_piece|]. now apply document_piece.
Qed.
(** The block shown for a sample. *)
Definition edit_block (context marker : text) (i : nat) (groups : list group) (names : list (list text)) : list (nat * list text) :=
  under [] (heading_line i) ++ line_break ++ under [mono_span] context ++
  flat_map (fun x => under [class_span (snd x); edit_root_span] (shown_text marker (fst x))) (combine groups names) ++ line_break.
(** What the groups of a sample say of it. *)
Definition edit_told {M} `{EqDec M} (P : parameters) (exit : bool) (asg : assignments) (prototype target : list (node M)) (k : Qc) (groups : list group) : Prop :=
  differ groups /\ csum (map g_cost groups) = Fin k /\ least_cost (edit P (labelled prototype) (labelled target)) asg k /\
  (exists rest, render prototype = g_texts stays_or_goes groups ++ rest /\ (rest <> [] -> exit = true /\ exists n, In ((n, ShouldEarlyExit), DTrue) asg)) /\
  exists report : list (option einfo),
    (forall a, a = Keep \/ a = Delete \/ a = Insert -> spells a (info_text (labelled prototype) (labelled target)) report (g_texts (is a) groups)) /\
    (exists rest, flat_map text_nodes (labelled prototype) = prototype_side report ++ rest /\ (exit = false -> rest = [])) /\
    (exists rest, flat_map text_nodes (labelled target) = target_side report ++ rest /\ (exit = false -> rest = [])).

Lemma edit_tells {M} {md : EqDec M} P exit asg (ns ts : list (node M)) d p k : construct_edit_dag P (pack ns) (pack ts) = Ok d -> complete_path d p ->
  path_cost p = Fin k -> least_cost (edit P (labelled ns) (labelled ts)) asg k -> same_decisions asg (path_assignments p) ->
  NoDup (map fst asg) -> (exit = false -> Forall (free is_exit) ns) ->
  exists groups, group_edit_sequence p (pack ns) (pack ts) = Ok groups /\ edit_told P exit asg ns ts k groups.
Proof.
  intros Hd Hp Hk Hl Hs Na He.
  destruct (C52_groups_account_for_the_cost M md P ns ts d p Hd Hp) as [gs [E [T [D _]]]]. exists gs. split; [exact E|].
  assert (X : forall x, In x (map info p) -> EditSpec.stops x -> exit = true /\ exists n, In ((n, ShouldEarlyExit), DTrue) asg).
  { intros x H1 H2. destruct (path_stops P ns ts d p x Hd Hp H1 H2) as [[n Hn] Hf]. split.
    - destruct exit; [reflexivity|]. destruct Hf. now apply He.
    - exists n. specialize (Hs (n, ShouldEarlyExit)). unfold SystemSpec.decided in Hs. rewrite (assoc_once _ _ _ (path_once P ns ts d p Hd Hp) Hn) in Hs.
      match type of Hs with match ?a with _ => _ end = _ => destruct a as [v|] eqn:Ea; [|discriminate] end. subst v. now apply assoc_In in Ea. }
  unfold edit_told. splits; auto; try congruence.
  - destruct (C52_groups_spell_the_prototype M md P ns ts d p gs Hd Hp E) as [rest [E1 E2]]. exists rest. split; auto. intros Hn.
    destruct (C43_edit_paths_are_scripts M md P ns ts d p Hd Hp) as [[[F _]|[b [x [E3 [S _]]]]] _]; [destruct (Hn (E2 F))|].
    apply (X x); auto. rewrite E3. apply in_or_app. right. now left.
  - exists (map info p). split.
    + intros a Ha. exact (C52_groups_show_every_node M md P ns ts d p gs a Hd Hp E Ha).
    + destruct (C43_edit_paths_are_scripts M md P ns ts d p Hd Hp) as [[[F [E1 E2]]|[b [x [E1 [S [F [[r1 E2] [r2 E3]]]]]]]] _].
      * split; exists []; rewrite app_nil_r; auto.
      * assert (Hx : exit = true) by (apply (X x); auto; rewrite E1; apply in_or_app; right; now left).
        split; [exists r1|exists r2]; split; auto; intros C; congruence.
Qed.
Lemma edit_block_piece {M St} (proto target : storage M) (p : list (edge St decision (option einfo))) context marker groups i : group_edit_sequence p proto target = Ok groups ->
  exists html names, extract_edit_sequence_html p proto target [] marker [] = Ok html /\ Forall2 describes groups names /\
    piece [] (heading i ++ tag mono_span ++ escape context ++ chars "</span>" ++ html ++ chars "<br>") (edit_block context marker i groups names).
Proof.
  intros H. destruct (edit_html_piece proto target p marker groups H) as [html [names [E [F D]]]]. exists html, names. splits; auto.
  unfold edit_block.
  replace (heading i ++ tag mono_span ++ escape context ++ chars "</span>" ++ html ++ chars "<br>")
    with (heading i ++ (tag mono_span ++ escape context ++ chars "</span>") ++ html ++ chars "<br>") by now rewrite <- !app_assoc.
  rewrite (app_assoc (under [] _)). apply piece_app; [apply heading_piece|]. apply piece_app; [|apply piece_app; [exact D|apply piece_break]].
  apply piece_span; [apply mono_plain|apply mono_opens|apply piece_text].
Qed.

(** What a combined result says, for edits. *)
Section EditShown.
  Context (P : parameters) (low exit : bool) (parse : text -> result (list (node mtype))) (context : text) (samples : list text) (index : Z) (sample : text).
  Context (trees : text -> list (node mtype)) (Hread : forall s, In s samples -> reads parse (context ++ s) (trees s)).
  Context (Hsample : designates samples index sample).
  Let proto := prototype_of low exit context sample trees.
  Let target := target_of context trees.

  Lemma edit_paths fuel clock r asg : combine_samples fuel clock (edit_wrapper P low exit) parse context samples index = Some (Ok r) -> assignment_map r = Some asg ->
    Forall2 (fun s dc => exists p k, best_path (construct_edit_dag P (pack proto) (pack (target s))) (edit P (labelled proto) (labelled (target s))) asg dc p k)
      samples (combine (map m_dag (removelast (tables (data (r_system r))))) (conversion_data (r_system r))).
  Proof.
    intros H Ha.
    refine (proj1 (combine_paths (edit_wrapper P low exit) parse context samples index sample trees (fun s Hs => proj1 (Hread s Hs)) (designates_index _ _ _ Hsample)
             proto _ eq_refl (construct_edit_dag P) (fun _ _ => eq_refl) (fun s => edit P (labelled proto) (labelled (target s)))
             (fun s Hs => edit_allows P proto (target s) (proj1 (target_text parse context samples trees Hread s Hs)))
             (fun s ds Hs Hc => choice_edit P (labelled proto) (labelled (target s)) ds (proj1 (target_text parse context samples trees Hread s Hs)) Hc)
             fuel clock r asg H Ha)).
  Qed.
End EditShown.

(** ** Lists. *)
Lemma Forall2_choose {A B C} (R : A -> C -> B -> Prop) l l' : Forall2 (fun a b => exists c, R a c b) l l' ->
  exists cs, length cs = length l /\ Forall2 (fun ac b => R (fst ac) (snd ac) b) (combine l cs) l'.
Proof.
  induction 1 as [|a b l l' [c H] F [cs [E IH]]]; [exists []; split; constructor|]. exists (c :: cs). split; [cbn; congruence|]. constructor; auto.
Qed.
Lemma Forall2_with {A B C} (R : A -> B -> Prop) (g : A -> C) l l' : Forall2 R l l' ->
  Forall2 (fun a x => R a (fst x) /\ snd x = g a) l (combine l' (map g l)).
Proof. induction 1; cbn; constructor; auto. Qed.
Lemma Forall2_fst {A B C} (R : A -> C -> Prop) (R' : A * C -> B -> Prop) l cs l' : length cs = length l -> (forall a c b, R' (a, c) b -> R a c) ->
  Forall2 R' (combine l cs) l' -> Forall2 R l cs.
Proof.
  intros E H. revert cs l' E. induction l as [|a l IH]; intros [|c cs] l' E F; try discriminate; [constructor|]. cbn in F. inversion F; subst. constructor; eauto.
Qed.
