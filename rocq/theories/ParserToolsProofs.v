(** Proofs about the parser presets and [parse_and_maybe_preprocess]. *)

From Coq Require Import List Bool Arith Lia.
From Verif Require Import Base SeqNodes Transforms StackParser StackParserProofs Subtokenizer PseudoParse PseudoParseProofs
  ParseShape DesugarProofs DesugarShape NestProofs Lexer LexerProofs LexerPython ParserTools DocSpec LineProofs.
Import ListNotations.

Lemma F2_length {A B} (R : A -> B -> Prop) l l' : Forall2 R l l' -> length l = length l'.
Proof. induction 1; cbn; auto. Qed.

(** ** Codecs without the empty token *)
Definition no_empty (c : codec) : Prop := assoc ([] : text) (token_to_index c) = None.

Lemma encode_matches_no_empty (ms : list (text * ttype)) : Forall (fun m => fst m <> []) ms -> forall c c' l,
  encode_matches c ms = Ok (c', l) -> no_empty c -> no_empty c'.
Proof.
  induction ms as [|[t ty] ms IH]; intros HF c c' l E Hc; cbn [encode_matches] in E.
  - injection E as <- <-. exact Hc.
  - inversion HF as [|? ? Hm HF']; subst. cbn [fst] in Hm. apply bind_ok_inv in E as [c1 [E1 E2]]. assert (H1 : no_empty c1).
    { destruct (assoc t (token_to_index c)) eqn:Et; [injection E1 as <-; exact Hc|].
      unfold add_token in E1. rewrite Et in E1. cbn [bind fst] in E1. injection E1 as <-. unfold no_empty. cbn [token_to_index].
      rewrite assoc_dict_set. rewrite neq_eqb by congruence. exact Hc. }
    destruct (assoc t (token_to_index c1)) as [n|]; [|discriminate]. destruct (assoc n (index_to_type c1)) as [t0|]; [|discriminate].
    destruct (eqb ty t0); [|discriminate]. apply bind_ok_inv in E2 as [[c2 l2] [E2 E3]]. injection E3 as <- <-. eapply IH; eauto.
Qed.

(** Known tokens of the right types are encoded without change. *)
Lemma encode_known c ms l : Forall2 (fun m i => knows c (fst m) i /\ has_type c i (snd m)) ms l ->
  encode_matches c ms = Ok (c, l).
Proof.
  induction 1 as [|[t ty] i ms l [K T] F IH]; cbn [encode_matches]; auto. cbn [fst snd] in *. unfold knows, has_type in *.
  rewrite K. cbn [bind]. rewrite K, T, eqb_refl, IH. reflexivity.
Qed.

Section Presets.
  Variable digit : nat -> bool.
  Hypothesis digit_ascii : forall c, c < 128 -> digit c = (48 <=? c) && (c <=? 57).
  Notation lex := (preset_lex digit).
  Notation ty := (type_of digit).

  Lemma lex_typed l : forall code, Forall (fun m => snd m = ty l (fst m)) (lex l code).
  Proof using digit_ascii. intros. now apply preset_typed. Qed.
  Lemma lex_newline l : lex l newline_text = [(newline_text, ty l newline_text)].
  Proof using digit_ascii. now apply preset_single. Qed.

  Lemma encode_one_single l c ch : codec_ok c -> types_by (ty l) c -> no_empty c ->
    exists c' i, encode_one (lex l) c [ch] = Ok (c', i) /\ codec_ok c' /\ types_by (ty l) c' /\ no_empty c'.
  Proof using digit_ascii.
    intros Hc Ht Hn. destruct (encode_ok (lex l) (ty l) (lex_typed l) c [ch] Hc Ht) as [c' [k [E [A [B [_ F]]]]]].
    assert (Hl : exists i, k = [i]).
    { rewrite preset_single in F by auto. cbn [map fst] in F. inversion F as [|? i ? ? ? F']; subst. inversion F'; subst. eauto. }
    destruct Hl as [i ->]. exists c', i. unfold encode_one. rewrite E. cbn [bind fst snd]. splits; auto.
    eapply encode_matches_no_empty; [apply (preset_nonempty digit digit_ascii l [ch])|exact E|exact Hn].
  Qed.
  Definition single_text (t : text) : Prop := exists ch, t = [ch].
  Lemma encode_pairs_single l ps : Forall (fun ab => single_text (fst ab) /\ single_text (snd ab)) ps ->
    forall c, codec_ok c -> types_by (ty l) c -> no_empty c ->
    exists c' ks, encode_pairs (lex l) c ps = Ok (c', ks) /\ codec_ok c' /\ types_by (ty l) c' /\ no_empty c'.
  Proof using digit_ascii.
    induction 1 as [|[a b] ps [Ha Hb] HF IH]; intros c Hc Ht Hn; cbn [encode_pairs]; [exists c, []; auto|].
    cbn [fst snd] in *. destruct Ha as [x ->], Hb as [y ->]. destruct (encode_one_single l c x Hc Ht Hn) as [c1 [i [E1 [A1 [A2 A3]]]]]. rewrite E1. cbn [bind fst snd].
    destruct (encode_one_single l c1 y A1 A2 A3) as [c2 [j [E2 [B1 [B2 B3]]]]]. rewrite E2. cbn [bind fst snd].
    destruct (IH c2 B1 B2 B3) as [c3 [ks [E3 D]]]. rewrite E3. cbn [bind fst snd]. eauto.
  Qed.
  Lemma encode_all_single l ts : Forall single_text ts ->
    forall c, codec_ok c -> types_by (ty l) c -> no_empty c ->
    exists c' ks, encode_all (lex l) c ts = Ok (c', ks) /\ codec_ok c' /\ types_by (ty l) c' /\ no_empty c'.
  Proof using digit_ascii.
    induction 1 as [|a ts [x ->] HF IH]; intros c Hc Ht Hn; cbn [encode_all]; [exists c, []; auto|].
    destruct (encode_one_single l c x Hc Ht Hn) as [c1 [i [E1 [A1 [A2 A3]]]]]. rewrite E1. cbn [bind fst snd].
    destruct (IH c1 A1 A2 A3) as [c3 [ks [E3 D]]]. rewrite E3. cbn [bind fst snd]. eauto.
  Qed.
  Lemma make_parser_single l pairs splits unsplit stypes terminate :
    Forall (fun ab => single_text (fst ab) /\ single_text (snd ab)) pairs ->
    Forall (fun ab => single_text (fst ab) /\ single_text (snd ab)) unsplit -> Forall single_text splits ->
    exists p, make_parser (lex l) pairs splits unsplit stypes terminate = Ok p /\ no_empty (codec_of p) /\
      newline_terminate p = terminate /\ split_types p = stypes /\ (splits = [] -> splitters p = []).
  Proof using digit_ascii.
    intros H1 H2 H3. unfold make_parser.
    destruct (encode_pairs_single l pairs H1 new_codec) as [c1 [m [E1 [A1 [A2 A3]]]]];
      [apply new_codec_ok|intros t i K; discriminate|reflexivity|]. rewrite E1. cbn [bind fst snd].
    destruct (encode_pairs_single l unsplit H2 c1 A1 A2 A3) as [c2 [u [E2 [B1 [B2 B3]]]]]. rewrite E2. cbn [bind fst snd].
    destruct (encode_all_single l splits H3 c2 B1 B2 B3) as [c3 [s [E3 [D1 [D2 D3]]]]]. rewrite E3. cbn [bind fst snd].
    eexists. split; [reflexivity|]. cbn. splits; auto. intros ->. cbn [encode_all] in E3. now injection E3 as _ <-.
  Qed.

  (** What building a preset passes to [make_parser]. *)
  Definition terminates (l : preset) : bool := match l with Python_preprocessor => true | _ => false end.
  Lemma preset_parser_ok l : exists p splits unsplit stypes,
    preset_parser digit l = Ok p /\ make_parser (lex l) brackets splits unsplit stypes (terminates l) = Ok p /\
    no_empty (codec_of p) /\ newline_terminate p = terminates l /\
    (l = Python_preprocessor -> splitters p = [] /\ split_types p = []).
  Proof using digit_ascii.
    assert (B : Forall (fun ab => single_text (fst ab) /\ single_text (snd ab)) brackets).
    { unfold brackets. repeat constructor; cbn; eexists; reflexivity. }
    assert (S : Forall single_text [[59]]) by (repeat constructor; eexists; reflexivity).
    destruct l; cbn [preset_parser terminates].
    - destruct (make_parser_single Python_preprocessor brackets [] [([40], [41]); ([91], [93]); ([91], [93])] [] true) as [p [E [A [C [D F]]]]]; auto.
      { repeat constructor; cbn; eexists; reflexivity. }
      exists p, [], [([40], [41]); ([91], [93]); ([91], [93])], []. splits; auto.
    - destruct (make_parser_single Cpp brackets [[59]] [] [TCPreprocessor; TCommentSlashSlash; TCommentSlashStar] false) as [p [E [A [C [D F]]]]]; auto.
      do 4 eexists. splits; [exact E|exact E|auto|auto|discriminate].
    - destruct (make_parser_single Java brackets [[59]] [] [TCommentSlashSlash; TCommentSlashStar] false) as [p [E [A [C [D F]]]]]; auto.
      do 4 eexists. splits; [exact E|exact E|auto|auto|discriminate].
    - destruct (make_parser_single Javascript brackets [[59]] [] [TCommentSlashSlash; TCommentSlashStar] false) as [p [E [A [C [D F]]]]]; auto.
      do 4 eexists. splits; [exact E|exact E|auto|auto|discriminate].
    - destruct (make_parser_single Simple brackets [[59]] [([40], [41]); ([91], [93])] [] false) as [p [E [A [C [D F]]]]]; auto.
      { repeat constructor; cbn; eexists; reflexivity. }
      do 4 eexists. splits; [exact E|exact E|auto|auto|discriminate].
  Qed.

  Lemma proper_brackets : proper_pairs brackets.
  Proof.
    unfold proper_pairs, brackets, openers, closers. cbn [map fst snd]. splits.
    - repeat constructor; cbn; intuition discriminate.
    - repeat constructor; cbn; intuition discriminate.
    - cbn. intros t H C. intuition (subst; discriminate).
  Qed.

  (** The empty token never enters the codec of a preset. *)
  Lemma pseudo_parse_no_empty l p code r : pseudo_parse (lex l) p code = Ok r -> no_empty (codec_of p) -> no_empty (codec_after r).
  Proof using digit_ascii.
    intros E Hn. unfold pseudo_parse in E. apply bind_ok_inv in E as [[c1 toks] [E1 E]].
    destruct (error_correcting_prefix_and_suffix (match_pairs p) toks) as [pre suf].
    assert (N1 : no_empty c1) by (eapply encode_matches_no_empty; [apply (preset_nonempty digit digit_ascii l code)|exact E1|exact Hn]).
    apply bind_ok_inv in E as [[c2 suf2] [E2 E]]. assert (N2 : no_empty c2).
    { destruct (negb (length suf =? 0) && newline_terminate p); [|injection E2 as <- <-; exact N1].
      apply bind_ok_inv in E2 as [[c3 k] [E2 E3]]. cbn [fst snd] in E3. destruct k; [discriminate|]. injection E3 as <- _.
      eapply encode_matches_no_empty; [apply (preset_nonempty digit digit_ascii l newline_text)|exact E2|exact N1]. }
    repeat (apply bind_ok_inv in E as [? [_ E]]). destruct (negb (valid_parse_ranges x2 _)); [discriminate|].
    apply bind_ok_inv in E as [? [_ E]]. destruct (negb (valid_parse_ranges x3 _)); [discriminate|]. injection E as <-. exact N2.
  Qed.

  Theorem preset_parse_inside l code : exists p r,
    preset_parser digit l = Ok p /\ pseudo_parse (lex l) p code = Ok r /\
    parse_of (lex l) (ty l) brackets (terminates l) code r /\ inside (ty l) brackets p r /\ no_empty (codec_after r) /\
    (l = Python_preprocessor -> splitters p = [] /\ split_types p = []).
  Proof using digit_ascii.
    destruct (preset_parser_ok l) as [p [splits [unsplit [stypes [E1 [E2 [E3 [E4 E5]]]]]]]].
    destruct (pseudo_parse_inside (lex l) (ty l) (lex_typed l) (lex_newline l) brackets splits unsplit stypes (terminates l) p code E2) as [r [R1 [R2 R3]]].
    - intros s t Hs Ht. unfold token_of in Ht. cbn in Hs. intuition (subst; rewrite preset_single in Ht by auto; now injection Ht as <-).
    - apply proper_brackets.
    - cbn. intuition discriminate.
    - cbn. intuition discriminate.
    - exists p, r. splits; auto. eapply pseudo_parse_no_empty; eauto.
  Qed.
End Presets.

(** ** Raw texts *)
Lemma spread_ok {A} `{EqDec A} (special l : list A) : forall raw,
  length raw = length (filter (fun t => negb (mem t special)) l) ->
  exists r, spread special raw l = Ok r /\ length r = length l /\ concat r = concat raw /\
    (forall i t, nth_error l i = Some t -> In t special -> nth_error r i = Some []).
Proof.
  induction l as [|t l IH]; intros raw E; cbn [spread filter] in *.
  - destruct raw; [|discriminate]. exists []. splits; auto. intros [|i] t C; discriminate.
  - destruct (mem t special) eqn:Et; cbn [negb] in E.
    + destruct (IH raw E) as [r [R1 [R2 [R3 R4]]]]. rewrite R1. cbn [bind]. exists ([] :: r). cbn [length concat app]. splits; auto.
      intros [|i] u Hu Hs; cbn [nth_error] in *; auto. eauto.
    + cbn [length] in E. destruct raw as [|x raw]; [discriminate|]. cbn [length] in E.
      destruct (IH raw) as [r [R1 [R2 [R3 R4]]]]; [lia|]. rewrite R1. cbn [bind]. exists (x :: r). cbn [length concat]. splits; auto; [now rewrite R3|].
      intros [|i] u Hu Hs; cbn [nth_error] in *; eauto. injection Hu as <-. apply mem_false_iff in Et. contradiction.
Qed.
Lemma filter_split {A} (f : A -> bool) l : length (filter (fun t => negb (f t)) l) + length (filter f l) = length l.
Proof. induction l as [|x l IH]; cbn; auto. destruct (f x); cbn; lia. Qed.
Lemma raw_desugared_ok {A} `{EqDec A} (special l : list A) raw :
  length raw = length (filter (fun t => negb (mem t special)) l) ->
  exists r, raw_desugared special raw l = Ok r /\ length r = length l /\ concat r = concat raw /\
    (forall i t, nth_error l i = Some t -> In t special -> nth_error r i = Some []).
Proof.
  intros E. destruct (spread_ok special l raw E) as [r [R1 [R2 [R3 R4]]]]. exists r. splits; auto. unfold raw_desugared.
  pose proof (filter_split (fun t => mem t special) l) as S. rewrite E, S, Nat.eqb_refl, R1. cbn [bind]. now rewrite R2, Nat.eqb_refl.
Qed.
Lemma spread_at {A} `{EqDec A} (special l : list A) : forall raw r, spread special raw l = Ok r ->
  forall i t, nth_error l i = Some t -> ~ In t special ->
    let rank := length (filter (fun t => negb (mem t special)) (firstn i l)) in
    nth_error r i = nth_error raw rank /\ nth_error (filter (fun t => negb (mem t special)) l) rank = Some t.
Proof.
  induction l as [|u l IH]; intros raw r E i t Hi Ht; [destruct i; discriminate|]. cbn [spread filter] in *.
  destruct (mem u special) eqn:Eu; cbn [negb].
  - apply bind_ok_inv in E as [r' [E1 E2]]. injection E2 as <-. destruct i as [|i]; cbn [nth_error] in *.
    + injection Hi as ->. apply mem_true_iff in Eu. contradiction.
    + cbn [firstn filter]. rewrite Eu. cbn [negb]. exact (IH _ _ E1 i t Hi Ht).
  - destruct raw as [|x raw]; [discriminate|]. apply bind_ok_inv in E as [r' [E1 E2]]. injection E2 as <-. destruct i as [|i]; cbn [nth_error] in *.
    + injection Hi as ->. cbn. auto.
    + cbn [firstn filter]. rewrite Eu. cbn [negb length nth_error]. exact (IH _ _ E1 i t Hi Ht).
Qed.
Lemma rank_le {A} (f : A -> bool) l : forall i j, i <= j -> length (filter f (firstn i l)) <= length (filter f (firstn j l)).
Proof.
  induction l as [|x l IH]; intros i j Hij; [now rewrite !firstn_nil|]. destruct i as [|i]; [cbn; lia|]. destruct j as [|j]; [lia|].
  cbn [firstn filter]. specialize (IH i j ltac:(lia)). destruct (f x); cbn [length]; lia.
Qed.
Lemma raw_desugared_spread {A} `{EqDec A} (special l : list A) raw r : raw_desugared special raw l = Ok r -> spread special raw l = Ok r.
Proof.
  unfold raw_desugared. destruct (_ =? length l); [|discriminate]. intros E. apply bind_ok_inv in E as [r' [-> E]].
  destruct (length r' =? _); [|discriminate]. exact E.
Qed.
(** Texts without a source stand at the ends only. *)
Lemma empty_at_ends a b (ts : list text) y : Forall (fun t => t <> []) ts -> forall k,
  let R := repeat [] a ++ (ts ++ [y]) ++ repeat [] b in
  nth_error R k = Some [] -> (forall j, j <= k -> nth_error R j = Some []) \/ (forall j x, k <= j -> nth_error R j = Some x -> x = []).
Proof.
  intros Hts k R Hk. unfold R in *. clear R. destruct (Nat.lt_ge_cases k a) as [Hka|Hka].
  - left. intros j Hj. rewrite nth_error_app1 by (rewrite repeat_length; lia). apply nth_error_repeat. lia.
  - right. intros j x Hj Hx. rewrite nth_error_app2 in Hk, Hx by (rewrite repeat_length; lia). rewrite repeat_length in Hk, Hx.
    destruct (Nat.lt_ge_cases (k - a) (length ts)) as [H1|H1].
    { exfalso. rewrite nth_error_app1 in Hk by (rewrite app_length; cbn; lia). rewrite nth_error_app1 in Hk by auto.
      apply nth_error_In in Hk. rewrite Forall_forall in Hts. now apply (Hts _ Hk). }
    rewrite <- !app_assoc in Hk, Hx. rewrite nth_error_app2 in Hk, Hx by lia. cbn [app] in Hk, Hx.
    destruct (j - a - length ts) as [|j'] eqn:Ej; cbn [nth_error] in Hx.
    + replace (k - a - length ts) with 0 in Hk by lia. cbn in Hk. congruence.
    + apply nth_error_In, repeat_spec in Hx. exact Hx.
Qed.
Lemma blank_newline_ok (ts : list text) n_pre n_post :
  blank_newline (repeat [] n_pre ++ (ts ++ [newline_text]) ++ repeat [] n_post) n_post =
  Ok (repeat [] n_pre ++ (ts ++ [[]]) ++ repeat [] n_post).
Proof.
  unfold blank_newline, newline_text, text in *. rewrite <- !app_assoc. cbn [app]. rewrite !app_assoc.
  generalize (repeat (@nil nat) n_pre ++ ts) as a. intros a.
  assert (L : length (a ++ [10] :: repeat [] n_post) = length a + S n_post) by (rewrite app_length; cbn [length]; now rewrite repeat_length).
  rewrite L. replace (length a + S n_post <? n_post + 1) with false by (symmetry; apply Nat.ltb_ge; lia).
  replace (length a + S n_post - (n_post + 1)) with (length a) by lia.
  rewrite nth_error_app2, Nat.sub_diag by auto. cbn [nth_error]. rewrite eqb_refl. f_equal.
  rewrite firstn_app, Nat.sub_diag, firstn_all. cbn [firstn]. rewrite app_nil_r.
  rewrite skipn_app, skipn_all2 by lia. replace (S (length a) - length a) with 1 by lia. reflexivity.
Qed.
Lemma Ok_inj {A} (a b : A) : Ok a = Ok b -> a = b.
Proof. congruence. Qed.
Lemma concat_repeat_nil {A} n : concat (repeat (@nil A) n) = [].
Proof. induction n; cbn; auto. Qed.

(** ** What every language's parse gives. *)
Record outcome_of (code : text) (o : outcome) : Prop := {
  oc_text : concat (o_raws o) = code;
  oc_texts : length (o_texts o) = length (o_raws o);
  oc_types : length (o_types o) = length (o_raws o);
  oc_tree : valid_tree (o_tree o) (length (o_raws o));
  oc_root : p_ann (o_tree o) = ARoot;
  oc_leaves : filter nonempty_range (leaf_ranges (o_tree o)) = map single (seq 0 (length (o_raws o)));
  oc_wf : well_formed (length (o_raws o)) (o_tree o);
  oc_shape : shaped (fun a b =>
      (exists x y, nth_error (o_texts o) a = Some x /\ nth_error (o_texts o) b = Some y /\ In (x, y) brackets) \/
      (nth_error (o_types o) a = Some TPythonIndent /\ nth_error (o_types o) b = Some TPythonDedent)) (o_tree o);
  oc_markers : forall i, nth_error (o_types o) i = Some TPythonIndent \/ nth_error (o_types o) i = Some TPythonDedent ->
      nth_error (o_texts o) i = Some [] /\ nth_error (o_raws o) i = Some [] }.

(** What a Python parse gives besides. *)
Record python_lines (digit : nat -> bool) (o : outcome) : Prop := {
  pl_siblings : forall a b, next_sibling (o_tree o) a b ->
      p_hi a = Some (S (p_lo a)) \/ p_hi b = Some (S (p_lo b)) \/
      (exists h, p_hi a = Some h /\ 0 < h /\ nth_error (o_texts o) (h - 1) = Some newline_text) \/
      (exists x, nth_error (o_texts o) (p_lo b) = Some x /\ In x (openers brackets));
  pl_tokens : forall i x, nth_error (o_raws o) i = Some x -> x <> [] ->
      nth_error (o_texts o) i = Some x /\ exists full, In x (map fst (preset_lex digit Python_preprocessor full));
  pl_added : forall i t, nth_error (o_raws o) i = Some [] -> nth_error (o_texts o) i = Some t -> t <> [] ->
      (forall j, j <= i -> nth_error (o_raws o) j = Some []) \/
      (forall j x, i <= j -> nth_error (o_raws o) j = Some x -> x = []) }.

Section Markers.
  Variable ty : text -> ttype.
  Lemma two_markers c : codec_ok c -> types_by ty c -> no_empty c ->
    let n := length (token_to_index c) in
    exists c1 c2, add_token c [] TPythonIndent true = Ok (c1, n + 1) /\ add_token c1 [] TPythonDedent true = Ok (c2, n + 2) /\
      (forall t i, knows c t i -> knows c2 t i /\ has_type c2 i (ty t) /\ assoc i (index_to_token c2) = Some t /\ i <= n) /\
      assoc (n + 1) (index_to_token c2) = Some [] /\ assoc (n + 2) (index_to_token c2) = Some [] /\
      has_type c2 (n + 1) TPythonIndent /\ has_type c2 (n + 2) TPythonDedent.
  Proof.
    intros Hc Ht Hn n. unfold no_empty in Hn. eexists. eexists. split.
    { unfold add_token. rewrite Hn. fold n. reflexivity. }
    split.
    { unfold add_token. cbn [token_to_index]. rewrite assoc_dict_set, eqb_refl. rewrite dict_set_fresh by exact Hn. fold n.
      replace (S n + 1) with (n + 2) by lia. reflexivity. }
    cbn [index_to_token token_to_index index_to_type]. unfold has_type, knows. cbn [index_to_type token_to_index]. splits.
    - intros t i K. pose proof (ck_range _ Hc _ _ K) as R. fold n in R.
      assert (t <> []) by (intros ->; congruence). rewrite !assoc_dict_set, !neq_eqb by (auto; lia). splits; auto; try lia.
      + apply Ht, K.
      + now apply (ck_inv _ Hc).
    - rewrite !assoc_dict_set, neq_eqb, eqb_refl by lia. reflexivity.
    - rewrite !assoc_dict_set, eqb_refl. reflexivity.
    - rewrite !assoc_dict_set, neq_eqb, eqb_refl by lia. reflexivity.
    - rewrite !assoc_dict_set, eqb_refl. reflexivity.
  Qed.
End Markers.

Lemma mapM_total {A B} (f : A -> result B) l : Forall (fun a => exists b, f a = Ok b) l -> exists r, mapM f l = Ok r.
Proof.
  induction 1 as [|a l [b Hb] HF [r Hr]]; [exists []; reflexivity|]. exists (b :: r). cbn [mapM]. rewrite Hb. cbn [bind]. now rewrite Hr.
Qed.
Lemma mapM_nth {A B} (f : A -> result B) l r : mapM f l = Ok r ->
  length r = length l /\ forall i a, nth_error l i = Some a -> exists b, f a = Ok b /\ nth_error r i = Some b.
Proof.
  intros E. apply mapM_ok_iff in E. induction E as [|a b l r K F [IH1 IH2]]; [split; auto; intros [|i] a C; discriminate|].
  split; [cbn; auto|]. intros [|i] x Hx; cbn [nth_error] in *; [injection Hx as <-; eauto|eauto].
Qed.
Lemma filter_nil {A} (f : A -> bool) l : Forall (fun x => f x = true) l -> filter f l = l.
Proof. induction 1 as [|x l Hx HF IH]; cbn; auto. now rewrite Hx, IH. Qed.

Section PythonParse.
  Variables isspace digit : nat -> bool.
  Hypothesis digit_ascii : forall c, c < 128 -> digit c = (48 <=? c) && (c <=? 57).
  Hypothesis newline_space : isspace 10 = true.
  Notation lex := (preset_lex digit Python_preprocessor).
  Notation ty := (type_of digit Python_preprocessor).

  Lemma lone_texts ts : incl ts ([10] :: openers brackets ++ closers brackets) ->
    exists cs, ts = map (fun c => [c]) cs /\ Forall lone cs.
  Proof.
    induction ts as [|t ts IH]; intros Hi; [exists []; auto|].
    destruct IH as [cs [-> Hc]]; [intros x Hx; apply Hi; now right|].
    assert (Ht : exists c, t = [c] /\ lone c).
    { specialize (Hi t (or_introl eq_refl)). cbn in Hi. unfold lone. intuition (subst; eexists; split; [reflexivity|cbn; tauto]). }
    destruct Ht as [c [-> Hl]]. exists (c :: cs). auto.
  Qed.
  Lemma typed_lex s : lex s = map (fun t => (t, ty t)) (map fst (lex s)).
  Proof using digit_ascii.
    pose proof (preset_typed digit digit_ascii Python_preprocessor s) as F. induction F as [|[t k] ms E F IH]; auto.
    cbn [map fst snd] in *. now rewrite <- IH, E.
  Qed.
  Lemma encode_again c s l : Forall2 (fun t i => knows c t i /\ has_type c i (ty t)) (map fst (lex s)) l -> encode lex c s = Ok (c, l).
  Proof using digit_ascii.
    intros F. unfold encode. rewrite typed_lex. apply encode_known. revert F. generalize (map fst (lex s)) as ts. intros ts F.
    induction F as [|t i ts l K F IH]; cbn [map]; constructor; auto.
  Qed.
  Lemma concat_single cs : concat (map (fun c : nat => [c]) cs) = cs.
  Proof. induction cs as [|c cs IH]; cbn; auto. now rewrite IH. Qed.
  Lemma type_not_marker t : ty t <> TPythonIndent /\ ty t <> TPythonDedent.
  Proof.
    destruct t as [|c r]; cbn [type_of]; [split; discriminate|].
    destruct (quote c && negb (length r =? 0)); [split; discriminate|]. destruct (c =? 35); [split; discriminate|].
    unfold kind. repeat match goal with |- context [if ?b then _ else _] => destruct b end; split; discriminate.
  Qed.

  Theorem parse_python_ok spi code : 0 < spi -> code <> [] ->
    exists o, parse_python isspace digit spi code = Ok o /\ outcome_of code o /\ python_lines digit o.
  Proof using digit_ascii newline_space.
    intros Hspi Hcode. unfold parse_python.
    destruct (rev code) as [|z rc] eqn:Er; [apply (f_equal (@rev nat)) in Er; rewrite rev_involutive in Er; contradiction|].
    assert (Ez : code = rev rc ++ [z]) by (rewrite <- (rev_involutive code), Er; reflexivity).
    set (appended := negb (z =? 10)). set (full := if appended then code ++ newline_text else code).
    assert (Hfull : exists u, full = u ++ [10]).
    { unfold full, appended. destruct (z =? 10) eqn:E10; cbn [negb]; [|eauto]. apply Nat.eqb_eq in E10. subst z. rewrite Ez. eauto. }
    destruct Hfull as [u Eu].
    destruct (preset_parse_inside digit digit_ascii Python_preprocessor full) as [p [r [Ep [Er' [Hr [Hin [Hno Hsp]]]]]]].
    destruct (Hsp eq_refl) as [Hsp1 Hsp2]. rewrite Ep. cbn [bind]. rewrite Er'. cbn [bind].
    destruct (po_texts _ _ _ _ _ _ Hr) as [pre [post [Lpre [Lpost [Et [Ipre [Ipost [Hlast _]]]]]]]].
    destruct (last_token digit digit_ascii u) as [ts Ets]. rewrite <- Eu in Ets.
    pose proof (po_raws _ _ _ _ _ _ Hr) as Eraws. rewrite Ets in Eraws.
    assert (Hfl : concat ts ++ [10] = full).
    { rewrite <- (preset_lossless digit digit_ascii Python_preprocessor full), Ets, concat_app. reflexivity. }
    (* the raw texts *)
    assert (Hraw : exists raw, (if appended then blank_newline (raws r) (n_post r) else Ok (raws r)) = Ok raw /\
              length raw = length (texts r) /\ concat raw = code /\
              (forall k x, nth_error raw k = Some x -> x <> [] -> nth_error (texts r) k = Some x /\ In x (map fst (lex full))) /\
              (forall k, nth_error raw k = Some [] -> (forall j, j <= k -> nth_error raw j = Some []) \/
                                                       (forall j x, k <= j -> nth_error raw j = Some x -> x = []))).
    { assert (Nts : Forall (fun t => t <> []) ts).
      { pose proof (preset_nonempty digit digit_ascii Python_preprocessor full) as N. assert (N' : Forall (fun t : text => t <> []) (map fst (lex full))).
        { apply Forall_forall. intros t Hi. apply in_map_iff in Hi as [m [<- Hi]]. rewrite Forall_forall in N. auto. }
        rewrite Ets in N'. apply Forall_app in N'. apply N'. }
      assert (Tok : forall y k x, y = [] \/ y = newline_text ->
         nth_error (repeat [] (n_pre r) ++ (ts ++ [y]) ++ repeat [] (n_post r)) k = Some x -> x <> [] ->
         nth_error (texts r) k = Some x /\ In x (map fst (lex full))).
      { intros y k x Hy Hx Hne. rewrite Et, Ets. destruct (Nat.lt_ge_cases k (n_pre r)) as [H1|H1].
        { exfalso. rewrite nth_error_app1 in Hx by (rewrite repeat_length; lia). apply nth_error_In, repeat_spec in Hx. contradiction. }
        rewrite nth_error_app2 in Hx by (rewrite repeat_length; lia). rewrite repeat_length in Hx. rewrite nth_error_app2 by lia. rewrite Lpre.
        destruct (Nat.lt_ge_cases (k - n_pre r) (length ts + 1)) as [H2|H2].
        - rewrite nth_error_app1 in Hx by (rewrite app_length; cbn; lia).
          assert (G : nth_error (ts ++ [newline_text]) (k - n_pre r) = Some x).
          { destruct (Nat.lt_ge_cases (k - n_pre r) (length ts)) as [H3|H3].
            - rewrite nth_error_app1 in Hx |- * by auto. exact Hx.
            - rewrite nth_error_app2 in Hx |- * by auto. replace (k - n_pre r - length ts) with 0 in * by lia. cbn in *.
              injection Hx as <-. destruct Hy as [-> | ->]; [contradiction|reflexivity]. }
          split; [rewrite nth_error_app1 by (rewrite app_length; cbn; lia); exact G|]. now apply nth_error_In in G.
        - exfalso. rewrite nth_error_app2 in Hx by (rewrite app_length; cbn; lia). apply nth_error_In, repeat_spec in Hx. contradiction. }
      rewrite Eraws. assert (L : length (texts r) = n_pre r + (length ts + 1) + n_post r).
      { rewrite Et, Ets, !app_length. cbn [length]. lia. }
      destruct appended eqn:Ea.
      - rewrite blank_newline_ok. eexists. split; [reflexivity|]. rewrite !app_length, !repeat_length, !concat_app, !concat_repeat_nil. cbn [length concat app].
        rewrite !app_nil_r. splits; [unfold text in *; lia| | |]; [unfold full in Hfl; apply app_inj_tail in Hfl; apply Hfl|intros k x; apply Tok; auto|intros k; now apply empty_at_ends].
      - eexists. split; [reflexivity|]. rewrite !app_length, !repeat_length, !concat_app, !concat_repeat_nil. cbn [length concat app].
        rewrite app_nil_r. splits; [unfold text in *; lia| | |]; [exact Hfl|intros k x; apply Tok; auto|intros k; now apply empty_at_ends]. }
    destruct Hraw as [raw [Eraw [Lraw [Craw [Rtok Rend]]]]]. rewrite Eraw. cbn [bind]. rewrite Lraw, Nat.eqb_refl. cbn [negb].
    rewrite (valid_tree_accepted _ _ (po_tree _ _ _ _ _ _ Hr)). cbn [negb].
    pose proof (in_codec _ _ _ _ Hin) as Hcc. pose proof (in_types _ _ _ _ Hin) as Hct. pose proof (in_codes _ _ _ _ Hin) as Hck.
    (* the newline *)
    assert (Hnl : exists nl, knows (codec_after r) newline_text nl).
    { assert (Hi : In newline_text (texts r)) by (rewrite Et, Ets, !in_app_iff; cbn; tauto).
      destruct (F2_In_r _ _ _ newline_text (F2_flip _ _ _ Hck) Hi) as [nl [_ K]]. eauto. }
    destruct Hnl as [nl Knl].
    assert (Elx : map fst (lex newline_text) = [newline_text]) by (unfold newline_text; rewrite preset_single by auto; reflexivity).
    rewrite (encode_again (codec_after r) newline_text [nl]); [|rewrite Elx; repeat constructor; auto].
    cbn [bind fst snd].
    destruct (two_markers ty _ Hcc Hct Hno) as [c1 [c2 [A1 [A2 [A3 [A4 [A5 [A6 A7]]]]]]]].
    set (n := length (token_to_index (codec_after r))) in *. rewrite A1. cbn [bind fst snd]. rewrite A2. cbn [bind fst snd].
    set (I := n + 1) in *. set (D := n + 2) in *.
    (* encoding the tokens again *)
    assert (Htx : map fst (lex (concat (texts r))) = texts r).
    { destruct (lone_texts pre) as [cpre [-> Fpre]]; [intros x Hx; right; apply in_app_iff; left; auto|].
      destruct (lone_texts post) as [cpost [-> Fpost]].
      { intros x Hx. apply Ipost in Hx. destruct Hx as [<-|Hx]; [now left|]. right. apply in_app_iff. now right. }
      rewrite Et, !concat_app, !concat_single, preset_lossless by auto. rewrite Eu. rewrite relex by auto. reflexivity. }
    rewrite (encode_again c2 (concat (texts r)) (codes r)); cycle 1.
    { rewrite Htx. clear -Hck A3. induction Hck as [|t i l l' K F IH]; constructor; auto. destruct (A3 _ _ K) as [B1 [B2 _]]. auto. }
    cbn [bind fst snd].
    assert (Lcodes : length (codes r) = length (texts r)) by (symmetry; eapply F2_length; eauto).
    assert (Hcr : forall i, In i (codes r) -> i <= n).
    { intros i Hi. destruct (F2_In_r _ _ _ i Hck Hi) as [t [_ K]]. apply (A3 _ _ K). }
    assert (HID : I <> D) by (unfold I, D; lia).
    assert (HI : ~ In I (codes r)) by (intros C; apply Hcr in C; unfold I in C; lia).
    assert (HD : ~ In D (codes r)) by (intros C; apply Hcr in C; unfold D in C; lia).
    assert (Hnln : nl <= n) by apply (A3 _ _ Knl).
    assert (HnI : nl <> I) by (unfold I; lia). assert (HnD : nl <> D) by (unfold D; lia).
    pose proof (in_pairs _ _ _ _ Hin) as Hpp.
    assert (Hpm : forall o c, In (o, c) (match_pairs p) -> exists a b, In (a, b) brackets /\ knows (codec_after r) a o /\ knows (codec_after r) b c).
    { intros o c Hi. destruct (F2_In_r _ _ _ _ Hpp Hi) as [[a b] [Hab [K1 K2]]]. cbn [fst snd] in *. eauto. }
    assert (Hop : forall o, In o (openers (match_pairs p)) -> exists a, In a (openers brackets) /\ knows (codec_after r) a o).
    { intros o Ho. unfold openers in Ho. apply in_map_iff in Ho as [[o' c] [<- Ho]]. destruct (Hpm _ _ Ho) as [a [b [Hab [K _]]]]. exists a.
      split; auto. apply in_map_iff. now exists (a, b). }
    assert (Hcp : forall c, In c (closers (match_pairs p)) -> exists a, In a (closers brackets) /\ knows (codec_after r) a c).
    { intros c Hc. unfold closers in Hc. apply in_map_iff in Hc as [[o c'] [<- Hc]]. destruct (Hpm _ _ Hc) as [a [b [Hab [_ K]]]]. exists b.
      split; auto. apply in_map_iff. now exists (a, b). }
    assert (Hno' : ~ In nl (openers (match_pairs p))).
    { intros C. apply Hop in C as [a [Ha K]]. assert (a = newline_text) as -> by (eapply knows_inj; eauto). cbn in Ha. intuition discriminate. }
    assert (Hnc' : ~ In nl (closers (match_pairs p))).
    { intros C. apply Hcp in C as [a [Ha K]]. assert (a = newline_text) as -> by (eapply knows_inj; eauto). cbn in Ha. intuition discriminate. }
    assert (Hon : forall o, In o (openers (match_pairs p)) -> o <= n) by (intros o Ho; apply Hop in Ho as [a [_ K]]; apply (A3 _ _ K)).
    assert (Hcn : forall c, In c (closers (match_pairs p)) -> c <= n) by (intros c Hc; apply Hcp in Hc as [a [_ K]]; apply (A3 _ _ K)).
    destruct (in_tree _ _ _ _ Hin Hsp1 Hsp2) as [ns [Etree Hforest]]. rewrite Etree.
    assert (Hnt : codes r <> []).
    { intros C. assert (length (texts r) = 0) by (rewrite <- Lcodes, C; reflexivity). rewrite Et, Ets, !app_length in H. cbn [length] in H. lia. }
    assert (Hlt : nth_error (codes r) (length (codes r) - 1) = Some nl).
    { assert (Hl : exists l0, texts r = l0 ++ [newline_text]).
      { rewrite Et. destruct post as [|x post].
        - rewrite app_nil_r, Ets. exists (pre ++ ts). now rewrite app_assoc.
        - exists (pre ++ map fst (lex full) ++ removelast (x :: post)). rewrite <- !app_assoc. do 2 f_equal.
          rewrite <- (Hlast eq_refl); [|discriminate]. now apply app_removelast_last. }
      destruct Hl as [l0 El]. rewrite El in Hck. apply Forall2_app_inv_l in Hck as [k1 [k2 [F1 [F2 Ek]]]].
      inversion F2 as [|? i ? ? K F2' E1 E2]; subst. inversion F2'; subst. rewrite Ek, app_length. cbn [length].
      rewrite nth_error_app2 by lia. replace (length k1 + 1 - 1 - length k1) with 0 by lia. cbn [nth_error].
      f_equal. eapply knows_fun; eauto. }
    pose proof (forest_tiles _ _ _ _ _ Hforest) as Htl. cbn [Nat.add] in Htl.
    assert (Hne : Forall (fun c => forall h, p_hi c = Some h -> p_lo c < h) ns).
    { clear -Hforest. induction Hforest; constructor; auto; cbn; intros h E0; injection E0 as <-; try (unfold j); lia. }
    destruct (desugar_spec isspace (texts r) (codes r) I D nl spi HID HI HD (PNode 0 (Some (length (codes r))) ARoot ns) Hspi Htl Hne (fun _ => Hlt))
      as [ls [out [_ [Eout [Hwo _]]]]].
    rewrite Eout. cbn [bind].
    destruct (desugar_shape isspace (texts r) (codes r) I D nl spi (match_pairs p) HID HI HD HnI HnD Hno' Hnc') with (ns := ns) (out := out)
      as [Htidy Hbal]; auto.
    { intros i Hi. destruct (F2_nth _ _ _ Hck i nl Hi) as [t [Hn' K]]. assert (t = newline_text) as -> by (eapply knows_inj; eauto).
      exists newline_text. splits; auto; [discriminate|]. cbn. now rewrite newline_space. }
    (* every symbol of the result is known *)
    assert (Hout : forall i, In i out -> i = I \/ i = D \/ exists t, knows (codec_after r) t i).
    { intros i Hi. destruct (Nat.eq_dec i I) as [->|H1]; auto. destruct (Nat.eq_dec i D) as [->|H2]; auto. right. right.
      assert (Hc : In i (codes r)).
      { rewrite <- Hwo. unfold without_markers. apply filter_In. split; auto. rewrite !neq_eqb by auto. reflexivity. }
      destruct (F2_In_r _ _ _ i Hck Hc) as [t [_ K]]. eauto. }
    destruct (mapM_total (fun i => or_key (assoc i (index_to_token c2))) out) as [otx Eotx].
    { apply Forall_forall. intros i Hi. destruct (Hout i Hi) as [->|[->|[t K]]]; [rewrite A4|rewrite A5|rewrite (proj1 (proj2 (proj2 (A3 _ _ K))))]; eexists; reflexivity. }
    destruct (mapM_total (fun i => or_key (assoc i (index_to_type c2))) out) as [oty Eoty].
    { apply Forall_forall. intros i Hi. unfold has_type in *. destruct (Hout i Hi) as [->|[->|[t K]]]; [rewrite A6|rewrite A7|rewrite (proj1 (proj2 (A3 _ _ K)))]; eexists; reflexivity. }
    unfold decode_token, decode_type. rewrite Eotx. cbn [bind]. rewrite Eoty. cbn [bind].
    destruct (raw_desugared_ok [I; D] out raw) as [raw' [Eraw' [Lraw' [Craw' Mraw']]]].
    { rewrite Lraw, <- Lcodes, <- Hwo at 1. unfold without_markers. f_equal. apply filter_ext. intros x. unfold mem, existsb.
      rewrite orb_false_r, negb_orb. reflexivity. }
    rewrite Eraw'. cbn [bind].
    set (all := match_pairs p ++ [(I, D)]) in *.
    assert (Hopen : openers all = openers (match_pairs p) ++ [I]) by (unfold all, openers; now rewrite map_app).
    assert (Hclose : closers all = closers (match_pairs p) ++ [D]) by (unfold all, closers; now rewrite map_app).
    assert (Hpr : proper_pairs all).
    { pose proof (proper_codes _ _ _ Hcc Hpp proper_brackets) as [P1 [P2 P3]]. unfold proper_pairs. rewrite Hopen, Hclose. splits.
      - apply NoDup_app_snoc; auto. intros C. apply Hon in C. unfold I in C. lia.
      - apply NoDup_app_snoc; auto. intros C. apply Hcn in C. unfold D in C. lia.
      - intros t H1 H2. apply in_app_iff in H1, H2. destruct H1 as [H1|[<-|[]]], H2 as [H2|[H2|[]]].
        + now apply (P3 t).
        + apply Hon in H1. unfold D in *. lia.
        + apply Hcn in H2. unfold I in *. lia.
        + auto. }
    destruct (match_tree all Hpr true out Hbal (or_introl eq_refl)) as [ms [Hf2 Em]]. rewrite Em. cbn [bind].
    pose proof (forest_tiles _ _ _ _ _ Hf2) as Ht2. cbn [Nat.add] in Ht2.
    rewrite valid_tree_accepted; [|unfold valid_tree; eauto]. cbn [negb].
    destruct (mapM_nth _ _ _ Eotx) as [Lotx Notx]. destruct (mapM_nth _ _ _ Eoty) as [Loty Noty].
    set (P := fun a b : nat =>
      (exists x y, nth_error otx a = Some x /\ nth_error otx b = Some y /\ In (x, y) brackets) \/
      (nth_error oty a = Some TPythonIndent /\ nth_error oty b = Some TPythonDedent)).
    assert (HD' : In I (openers all)) by (rewrite Hopen, in_app_iff; cbn; tauto).
    destruct (nest_ok out I D nl all (unsplittable_pairs p) HID HnI HnD) with (P := P) (ns := ms) as [nt [En [Wn [Fn [Ln Sn]]]]]; auto.
    { rewrite Hopen, in_app_iff. cbn. intuition. }
    { rewrite Hclose, in_app_iff. cbn. intuition. }
    { intros C. destruct Hpr as [_ [_ P3]]. now apply (P3 I). }
    { intros C. destruct Hpr as [_ [_ P3]]. apply (P3 D C). rewrite Hclose, in_app_iff. cbn. tauto. }
    { intros o c Hi C. destruct Hpr as [_ [_ P3]]. apply (P3 c C). apply in_map_iff. now exists (o, c). }
    { intros a b o c Ha Hb Hi. unfold all in Hi. apply in_app_iff in Hi. destruct Hi as [Hi|[Hi|[]]].
      - left. destruct (Hpm _ _ Hi) as [x [y [Hxy [K1 K2]]]]. exists x, y.
        destruct (Notx _ _ Ha) as [x' [E1 E2]]. destruct (Notx _ _ Hb) as [y' [E3 E4]].
        rewrite (proj1 (proj2 (proj2 (A3 _ _ K1)))) in E1. rewrite (proj1 (proj2 (proj2 (A3 _ _ K2)))) in E3.
        injection E1 as <-. injection E3 as <-. auto.
      - right. injection Hi as <- <-. destruct (Noty _ _ Ha) as [x' [E1 E2]]. destruct (Noty _ _ Hb) as [y' [E3 E4]].
        unfold has_type in *. rewrite A6 in E1. rewrite A7 in E3. injection E1 as <-. injection E3 as <-. auto. }
    rewrite En. cbn [bind].
    assert (Hvt : valid_tree nt (length out)).
    { destruct nt as [lo hi ann cs]. destruct Fn as [F1 [F2 F3]]. cbn [p_lo p_hi p_ann] in F1, F2, F3. subst.
      inversion Wn; subst. exists ARoot, cs. auto. }
    rewrite valid_tree_accepted by auto. cbn [negb]. eexists. split; [reflexivity|].
    assert (Fout : filter (fun t => negb (mem t [I; D])) out = codes r).
    { rewrite <- Hwo. unfold without_markers. apply filter_ext. intros x. unfold mem, existsb. rewrite orb_false_r, negb_orb. reflexivity. }
    assert (Hat : forall i x, nth_error raw' i = Some x -> exists k, nth_error out i = Some k).
    { intros i x Hx. destruct (nth_error out i) as [k|] eqn:Ek; eauto. exfalso. apply nth_error_None in Ek.
      assert (nth_error raw' i = None) by (apply nth_error_None; lia). congruence. }
    pose proof (raw_desugared_spread _ _ _ _ Eraw') as Esp.
    assert (Hrank : forall i k, nth_error out i = Some k -> ~ In k [I; D] ->
      let rank := length (filter (fun t => negb (mem t [I; D])) (firstn i out)) in
      nth_error raw' i = nth_error raw rank /\ nth_error (codes r) rank = Some k).
    { intros i k Hk Hn. rewrite <- Fout. exact (spread_at _ _ _ _ Esp i k Hk Hn). }
    assert (PL : python_lines digit (mkOutcome nt otx oty raw' (n_pre r) (n_post r))).
    { constructor; cbn [o_tree o_texts o_types o_raws].
      - intros a b Hab.
        assert (Hl : lined out nl all nt).
        { eapply nest_lined; [exact Hf2| |exact En]. intros o c Hi C. destruct Hpr as [_ [_ P3]]. apply (P3 c C). apply in_map_iff. now exists (o, c). }
        destruct (lined_siblings out I D nl all HID HnI HnD) with (n := nt) (a := a) (b := b) as [G|[G|[G|G]]]; auto.
        { rewrite Hopen, in_app_iff. cbn. intuition. }
        { rewrite Hclose, in_app_iff. cbn. intuition. }
        { intros C. destruct Hpr as [_ [_ P3]]. now apply (P3 I). }
        { intros C. destruct Hpr as [_ [_ P3]]. apply (P3 D C). rewrite Hclose, in_app_iff. cbn. tauto. }
        + right. right. left. destruct G as [h [G1 [G2 G3]]]. exists h. splits; auto. destruct (Notx _ _ G3) as [t [E1 E2]].
          rewrite (proj1 (proj2 (proj2 (A3 _ _ Knl)))) in E1. injection E1 as <-. exact E2.
        + right. right. right. destruct G as [g [G1 [G2 G3]]]. rewrite Hopen, in_app_iff in G2. destruct G2 as [G2|[G2|[]]]; [|congruence].
          destruct (Hop _ G2) as [x [Hx K]]. exists x. split; auto. destruct (Notx _ _ G1) as [t [E1 E2]].
          rewrite (proj1 (proj2 (proj2 (A3 _ _ K)))) in E1. injection E1 as <-. exact E2.
      - intros i x Hx Hnx. destruct (Hat i x Hx) as [k Hk].
        assert (Hns : ~ In k [I; D]) by (intros C; rewrite (Mraw' _ _ Hk C) in Hx; congruence).
        destruct (Hrank i k Hk Hns) as [R1 R2]. rewrite R1 in Hx. destruct (Rtok _ _ Hx Hnx) as [T1 T2]. split; [|eauto].
        destruct (F2_nth _ _ _ Hck _ _ R2) as [t [T3 K]]. assert (t = x) as -> by congruence.
        destruct (Notx _ _ Hk) as [t [E1 E2]]. rewrite (proj1 (proj2 (proj2 (A3 _ _ K)))) in E1. injection E1 as <-. exact E2.
      - intros i t Hx Hti Hnt'. destruct (Hat i _ Hx) as [k Hk].
        assert (Hns : ~ In k [I; D]).
        { intros C. destruct (Notx _ _ Hk) as [t' [E1 E2]]. assert (t' = t) as -> by congruence.
          destruct C as [<-|[<-|[]]]; [rewrite A4 in E1|rewrite A5 in E1]; injection E1 as <-; auto. }
        destruct (Hrank i k Hk Hns) as [R1 R2]. rewrite R1 in Hx.
        assert (Lo : length out = length raw') by lia.
        destruct (Rend _ Hx) as [G|G]; [left|right].
        + intros j Hj. assert (Hj' : exists kj, nth_error out j = Some kj).
          { destruct (nth_error out j) as [kj|] eqn:Ej; eauto. exfalso. apply nth_error_None in Ej.
            assert (nth_error out i = None) by (apply nth_error_None; lia). congruence. }
          destruct Hj' as [kj Hkj]. destruct (in_dec Nat.eq_dec kj [I; D]) as [C|C]; [eapply Mraw'; eauto|].
          destruct (Hrank j kj Hkj C) as [-> _]. apply G. now apply rank_le.
        + intros j x Hj Hxj. destruct (Hat j x Hxj) as [kj Hkj]. destruct (in_dec Nat.eq_dec kj [I; D]) as [C|C].
          * rewrite (Mraw' _ _ Hkj C) in Hxj. congruence.
          * destruct (Hrank j kj Hkj C) as [E _]. rewrite E in Hxj. eapply G; [|exact Hxj]. now apply rank_le. }
    split; [|exact PL].
    rewrite <- Lraw' in *. constructor; cbn [o_tree o_texts o_types o_raws]; auto; try lia.
    - congruence.
    - destruct Fn as [_ [_ F3]]. exact F3.
    - rewrite Ln. cbn [leaf_ranges]. rewrite Lraw'. pose proof (forest_leaves _ _ _ _ _ Hf2) as FL. destruct ms as [|m ms]; auto.
      assert (out = []) as E0.
      { inversion Hf2. auto. }
      exfalso. rewrite E0 in Hwo. cbn in Hwo. auto.
    - intros i Hi.
      assert (Hi' : exists k, nth_error out i = Some k /\ In k [I; D]).
      { assert (Hk : exists k, nth_error out i = Some k).
        { destruct (nth_error out i) as [k|] eqn:Ek; eauto. exfalso. apply nth_error_None in Ek.
          assert (nth_error oty i = None) by (apply nth_error_None; lia). destruct Hi; congruence. }
        destruct Hk as [k Hk]. exists k. split; auto. destruct (Noty _ _ Hk) as [b [Eb Nb]].
        destruct (Hout k) as [->|[->|[t K]]]; [eapply nth_error_In; eauto|cbn; auto|cbn; auto|]. exfalso.
        unfold has_type in A3. rewrite (proj1 (proj2 (A3 _ _ K))) in Eb. apply Ok_inj in Eb. destruct (type_not_marker t) as [T1 T2].
        destruct Hi; congruence. }
      destruct Hi' as [k [Hk Hs]]. split; [|now apply Mraw' with (t := k)].
      destruct (Notx _ _ Hk) as [b [Eb Nb]]. destruct Hs as [<-|[<-|[]]]; [rewrite A4 in Eb|rewrite A5 in Eb]; injection Eb as <-; auto.
  Qed.
End PythonParse.

Section AllLanguages.
  Variables isspace digit : nat -> bool.
  Hypothesis digit_ascii : forall c, c < 128 -> digit c = (48 <=? c) && (c <=? 57).
  Hypothesis newline_space : isspace 10 = true.

  Lemma type_never_marker l t : type_of digit l t <> TPythonIndent /\ type_of digit l t <> TPythonDedent.
  Proof.
    assert (K : forall c, kind digit c <> TPythonIndent /\ kind digit c <> TPythonDedent).
    { intros c. unfold kind. repeat match goal with |- context [if ?b then _ else _] => destruct b end; split; discriminate. }
    unfold type_of. destruct l, t as [|c [|d r]]; try (split; discriminate); try apply K;
      repeat match goal with |- context [if ?b then _ else _] => destruct b end; try (split; discriminate); apply K.
  Qed.

  Lemma parse_direct_ok l code spi :
    exists o, parse_and_maybe_preprocess isspace digit (Direct l) code spi = Ok o /\ outcome_of code o.
  Proof using digit_ascii.
    destruct (preset_parse_inside digit digit_ascii l code) as [p [r [Ep [Er [Hr [_ _]]]]]].
    cbn [parse_and_maybe_preprocess]. rewrite Ep. cbn [bind]. rewrite Er. cbn [bind]. eexists. split; [reflexivity|].
    assert (L : length (raws r) = length (texts r)).
    { destruct (po_texts _ _ _ _ _ _ Hr) as [pre [post [L1 [L2 [Et _]]]]]. rewrite (po_raws _ _ _ _ _ _ Hr), Et.
      rewrite !app_length, !repeat_length. unfold text in *. lia. }
    constructor; cbn [o_tree o_texts o_types o_raws]; rewrite ?L; try apply Hr; auto.
    - rewrite (po_raws _ _ _ _ _ _ Hr), !concat_app, !concat_repeat_nil, app_nil_r. cbn [app]. now apply preset_lossless.
    - rewrite (po_types _ _ _ _ _ _ Hr). apply map_length.
    - eapply shaped_mono; [|apply (po_shape _ _ _ _ _ _ Hr)]. cbn beta. auto.
    - intros i Hi. exfalso. rewrite (po_types _ _ _ _ _ _ Hr) in Hi.
      destruct (nth_error (texts r) i) as [t|] eqn:Et.
      + rewrite (map_nth_error _ _ _ Et) in Hi. destruct (type_never_marker l t). destruct Hi as [Hi|Hi]; apply (f_equal (fun o => match o with Some x => x | None => TOther end)) in Hi; contradiction.
      + apply nth_error_None in Et. assert (nth_error (map (type_of digit l) (texts r)) i = None) by (apply nth_error_None; now rewrite map_length).
        destruct Hi; congruence.
  Qed.

  Theorem parse_ok l code spi : 0 < spi -> (l = Python -> code <> []) ->
    exists o, parse_and_maybe_preprocess isspace digit l code spi = Ok o /\ outcome_of code o.
  Proof using digit_ascii newline_space.
    intros Hs Hc. destruct l as [|l]; [|apply parse_direct_ok].
    destruct (parse_python_ok isspace digit digit_ascii newline_space spi code Hs (Hc eq_refl)) as [o [E [O _]]]. now exists o.
  Qed.
  Theorem parse_lines code spi o : 0 < spi -> code <> [] -> parse_and_maybe_preprocess isspace digit Python code spi = Ok o -> python_lines digit o.
  Proof using digit_ascii newline_space.
    intros Hs Hc E. destruct (parse_python_ok isspace digit digit_ascii newline_space spi code Hs Hc) as [o' [E' [_ P]]].
    assert (o = o') by (cbn in E; congruence). now subst.
  Qed.

  Lemma infer_candidates lengths : In (infer_from_lengths lengths [1; 2; 3; 4]) [1; 2; 3; 4].
  Proof.
    unfold infer_from_lengths. destruct lengths as [|x xs]; [cbn; tauto|]. cbn [fold_left].
    destruct (divides_all 4 _); [cbn; tauto|]. destruct (divides_all 3 _); [cbn; tauto|].
    destruct (divides_all 2 _); [cbn; tauto|]. destruct (divides_all 1 _); cbn; tauto.
  Qed.
  Lemma infer_ok code : exists n, infer_python_spaces_per_indent isspace digit code = Ok n /\ In n [1; 2; 3; 4].
  Proof using digit_ascii newline_space.
    unfold infer_python_spaces_per_indent. destruct code as [|c code]; [exists 1; cbn; auto|].
    destruct (parse_ok Python (c :: code) 1) as [o [E _]]; auto; [discriminate|]. rewrite E. cbn [bind]. eexists. split; [reflexivity|]. apply infer_candidates.
  Qed.
End AllLanguages.

(** ** Sequences *)
Section Nodes.
  Variables isupper islower isdigit isspace digit : nat -> bool.
  Hypothesis digit_ascii : forall c, c < 128 -> digit c = (48 <=? c) && (c <=? 57).
  Hypothesis newline_space : isspace 10 = true.

  Lemma subtokens_plain t : no_decisions (subtokenize_token isupper islower isdigit isspace t).
  Proof. unfold subtokenize_token. apply Forall_forall. intros x Hx. apply in_map_iff in Hx as [s [<- _]]. exact I. Qed.
  Lemma fold_plain (cs : list (node mtype)) : no_decisions cs -> no_decisions_node (Group cs (MNode NRoot)).
  Proof. intros H. cbn [no_decisions_node]. induction H; cbn; auto. Qed.
  Lemma to_nested_plain tokens tys deco subtok n : forall s,
    to_nested isupper islower isdigit isspace tokens tys deco subtok n = Ok s -> no_decisions_node s.
  Proof.
    induction n as [lo hi ann cs IH] using pnode_ind'. intros s E. rewrite convert_eq in E. cbn [p_children p_lo p_hi] in E.
    apply bind_ok_inv in E as [ty [_ E]]. destruct (mem ty deco); [injection E as <-; exact I|].
    destruct (mem ty subtok); [injection E as <-; apply (fold_plain _ (subtokens_plain _))|].
    destruct cs as [|c cs]; [injection E as <-; exact I|].
    destruct (eqb _ _); [|discriminate]. apply bind_ok_inv in E as [l [E1 E2]]. injection E2 as <-. apply (fold_plain l).
    apply mapM_ok_iff in E1. induction E1 as [|x y l1 l2 K F IHF]; [constructor|]. inversion IH; subst. constructor; auto. now apply IHF.
  Qed.
  Lemma flatten_plain (ns : list (node mtype)) : no_decisions ns -> no_decisions (flatten_groups ns).
  Proof.
    assert (G : forall n : node mtype, no_decisions_node n -> no_decisions (flatten_groups_node n)).
    { induction n as [t|t m| | | |cs m IH] using node_ind'; cbn [no_decisions_node flatten_groups_node]; try contradiction;
        try (intros; repeat constructor; fail).
      intros Hc. unfold no_decisions. induction IH as [|x l Hx F IHF]; cbn in *; [constructor|]. destruct Hc as [Hc1 Hc2].
      apply Forall_app. split; [now apply Hx|now apply IHF]. }
    intros H. unfold flatten_groups, no_decisions. induction H; cbn; [constructor|]. apply Forall_app. split; auto. now apply G.
  Qed.

  Theorem nodes_ok l flatten code : (l = Parsed Python -> code <> []) ->
    exists ns, parse_to_nodes isupper islower isdigit isspace digit l flatten code = Ok ns /\ render ns = code /\ no_decisions ns.
  Proof using digit_ascii newline_space.
    intros Hc. destruct l as [|l]; cbn [parse_to_nodes].
    - eexists. split; [reflexivity|]. split; [apply subtokenize_text|apply subtokens_plain].
    - assert (Hs : exists spi, match l with Python => infer_python_spaces_per_indent isspace digit code | Direct _ => Ok 1 end = Ok spi /\ 0 < spi).
      { destruct l; [|exists 1; auto]. destruct (infer_ok isspace digit digit_ascii newline_space code) as [n [E H]]. exists n. split; auto.
        cbn in H. lia. }
      destruct Hs as [spi [Es Hs]]. rewrite Es. cbn [bind].
      destruct (parse_ok isspace digit digit_ascii newline_space l code spi Hs) as [o [Eo Ho]]; [intros ->; now apply Hc|].
      rewrite Eo. cbn [bind].
      destruct (proj2 (convert_ok_iff isupper islower isdigit isspace (o_raws o) (o_types o) [NWhiteSpaceLeaf; NNonContentLeaf] [NStringLiteral] (o_tree o))) as [s Es'].
      { eapply shaped_convertible; [apply (oc_wf _ _ Ho)|apply (oc_shape _ _ Ho)]. }
      rewrite Es'. cbn [bind].
      assert (R : render [s] = code).
      { rewrite (convert_text _ _ _ _ _ _ _ _ _ s) with (2 := Es'); [|eapply well_formed_forward; apply (oc_wf _ _ Ho)].
        destruct (oc_tree _ _ Ho) as [ann [cs [E _]]]. unfold p_text. rewrite E. cbn [p_lo p_hi]. unfold py_slice. cbn [fst snd skipn].
        rewrite Nat.sub_0_r, firstn_all. apply (oc_text _ _ Ho). }
      assert (N : no_decisions [s]) by (constructor; [|constructor]; eapply to_nested_plain; eauto).
      eexists. split; [reflexivity|]. destruct flatten; auto. rewrite flatten_groups_text. split; auto. now apply flatten_plain.
  Qed.

  Lemma named_text (ns : list (node mtype)) : render (map named ns) = render ns.
  Proof.
    assert (G : forall n : node mtype, render_node (named n) = render_node n).
    { induction n as [t|t m| | | |cs m IH] using node_ind'; cbn [named render_node]; auto.
      rewrite map_map. f_equal. induction IH; cbn; auto. now rewrite H, IHIH. }
    unfold render. rewrite map_map. f_equal. apply map_ext. exact G.
  Qed.
  Lemma named_plain (ns : list (node mtype)) : no_decisions ns -> no_decisions (map named ns).
  Proof.
    assert (G : forall n : node mtype, no_decisions_node n -> no_decisions_node (named n)).
    { induction n as [t|t m| | | |cs m IH] using node_ind'; cbn [named no_decisions_node]; auto.
      intros H. induction IH as [|x l Hx F IHF]; cbn in *; auto. split; [apply Hx; tauto|apply IHF; tauto]. }
    intros H. unfold no_decisions. induction H; cbn; constructor; auto.
  Qed.
  Theorem named_nodes_ok l flatten code : (l = Parsed Python -> code <> []) ->
    exists ns, parse_to_named_nodes isupper islower isdigit isspace digit l flatten code = Ok ns /\ render ns = code /\ no_decisions ns.
  Proof using digit_ascii newline_space.
    intros H. destruct (nodes_ok l flatten code H) as [ns [E [R N]]]. exists (map named ns). unfold parse_to_named_nodes. rewrite E.
    cbn [bind]. splits; auto; [now rewrite named_text|now apply named_plain].
  Qed.
End Nodes.
