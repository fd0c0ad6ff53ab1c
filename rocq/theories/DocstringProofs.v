(** Proofs about [find_python_function_docstrings]. *)

From Coq Require Import String.
From Coq Require Import List Bool Arith Lia.
From Verif Require Import Base SeqNodes StackParser StackParserProofs ParseShape PseudoParse PseudoParseProofs ParserTools ParserToolsProofs Html Docstrings DocSpec Lexer LexerProofs LexerPython.
Import ListNotations.
Close Scope string_scope. Open Scope list_scope.

(** ** The patterns *)
Lemma leading_blanks_split t : t = blanks (leading_blanks t) ++ skipn (leading_blanks t) t.
Proof.
  induction t as [|c t IH]; cbn [leading_blanks]; [reflexivity|]. destruct (c =? 32) eqn:E; [|reflexivity].
  apply Nat.eqb_eq in E. subst c. cbn [skipn blanks repeat app]. f_equal. exact IH.
Qed.
Lemma leading_blanks_app n r : hd 0 r <> 32 -> leading_blanks (blanks n ++ r) = n.
Proof.
  intros Hr. induction n as [|n IH]; cbn [blanks repeat app leading_blanks].
  - destruct r as [|c r]; auto. cbn in Hr. cbn. apply Nat.eqb_neq in Hr. now rewrite Hr.
  - cbn. f_equal. exact IH.
Qed.
Lemma skip_blanks n (r : text) : skipn n (blanks n ++ r) = r.
Proof. induction n; cbn; auto. Qed.

Lemma match_after_blanks_iff words L t k :
  Forall (fun w => length w = L /\ hd 0 w <> 32 /\ w <> []) words ->
  (match_after_blanks words t = Some k <-> exists n w r, In w words /\ t = blanks n ++ w ++ r /\ k = n + L).
Proof.
  intros HF. rewrite Forall_forall in HF. unfold match_after_blanks. split.
  - match goal with |- context [List.find ?f words] => destruct (List.find f words) as [w|] eqn:E end; [|discriminate]. intros [= <-]. apply find_some in E as [Hi E].
    apply starts_with_iff in E as [r E]. exists (leading_blanks t), w, r. destruct (HF _ Hi) as [-> _]. splits; auto.
    rewrite <- E. apply leading_blanks_split.
  - intros [n [w [r [Hi [-> ->]]]]]. destruct (HF _ Hi) as [Hl [Hh Hn]]. rewrite leading_blanks_app by (destruct w; auto; contradiction).
    rewrite skip_blanks. match goal with |- context [List.find ?f words] => destruct (List.find f words) as [w'|] eqn:E end.
    + apply find_some in E as [Hi' _]. destruct (HF _ Hi') as [-> _]. reflexivity.
    + apply find_none with (x := w) in E; auto. assert (C : starts_with w (w ++ r) = true) by (apply starts_with_iff; eauto). congruence.
Qed.
Lemma function_words_iff t k : match_after_blanks function_words t = Some k <-> exists m r, t = blanks m ++ chars "def " ++ r /\ k = m + 4.
Proof.
  rewrite match_after_blanks_iff with (L := 4).
  - split.
    + intros [n [w [r [[<-|[]] [-> ->]]]]]. eauto.
    + intros [m [r [-> ->]]]. exists m, (chars "def "), r. splits; auto. now left.
  - constructor; [|constructor]. splits; auto; discriminate.
Qed.
Lemma docstring_words_iff t k : match_after_blanks docstring_words t = Some k <->
  exists n q r, triple_quote q /\ t = blanks n ++ q ++ r /\ k = n + 3.
Proof.
  rewrite match_after_blanks_iff with (L := 3).
  - split.
    + intros [n [w [r [Hi [-> ->]]]]]. exists n, w, r. splits; auto. cbn in Hi. unfold triple_quote. intuition auto.
    + intros [n [q [r [Hq [-> ->]]]]]. exists n, q, r. splits; auto. cbn. unfold triple_quote in Hq. intuition auto.
  - constructor; [|constructor; [|constructor]]; splits; auto; discriminate.
Qed.

(** ** Indentation *)
Section Indents.
  Variable isspace : nat -> bool.
  Hypothesis blank_space : isspace 32 = true.
  Lemma blanks_space n : forallb isspace (blanks n) = true.
  Proof using blank_space. induction n; cbn; auto. now rewrite blank_space. Qed.
  Lemma leading_indents_spec width c r : 0 < width -> isspace c = false -> forall limit n, n <= limit ->
    leading_indents isspace limit width (blanks n ++ c :: r) = n / width.
  Proof using blank_space.
    intros Hw Hc. induction limit as [|limit IH]; intros n Hn.
    - assert (n = 0) as -> by lia. symmetry. now apply Nat.div_small.
    - cbn [leading_indents]. destruct (Nat.le_gt_cases width n) as [Hle|Hlt].
      + assert (E : blanks n = blanks width ++ blanks (n - width)).
        { unfold blanks. rewrite <- repeat_app. f_equal. lia. }
        rewrite E, <- app_assoc. replace (width <? length _) with true.
        * assert (Lw : length (blanks width) = width) by apply repeat_length.
          rewrite firstn_app, Lw, Nat.sub_diag, firstn_O, app_nil_r. rewrite <- Lw at 1. rewrite firstn_all, blanks_space. cbn [andb].
          rewrite skip_blanks, IH by lia. replace n with ((n - width) + 1 * width) at 2 by lia. rewrite Nat.div_add by lia. lia.
        * symmetry. apply Nat.ltb_lt. rewrite !app_length. unfold blanks. rewrite !repeat_length. cbn [length]. lia.
      + rewrite (Nat.div_small n width) by lia. replace (forallb isspace _) with false; [now rewrite andb_false_r|].
        symmetry. apply not_true_is_false. rewrite forallb_forall. intros HF. assert (C : isspace c = true); [|congruence].
        apply HF. rewrite firstn_app. apply in_or_app. right. unfold blanks. rewrite repeat_length.
        destruct (width - n) eqn:E; [lia|]. now left.
  Qed.
  Lemma indents_spec width n c r : 0 < width -> isspace c = false -> indents isspace width (blanks n ++ c :: r) = n / width.
  Proof using blank_space.
    intros Hw Hc. unfold indents. apply leading_indents_spec; auto. rewrite app_length. unfold blanks. rewrite repeat_length. lia.
  Qed.
End Indents.

(** ** Siblings are told apart by their ranges *)
Lemma index_after_other earlier n : Forall (fun e => (p_lo e, p_hi e) <> (p_lo n, p_hi n)) earlier -> index_after earlier n = Ok (length earlier).
Proof.
  induction 1 as [|e earlier He HF IH]; cbn [index_after length]; auto.
  replace (sibling_eq e n) with (@Ok bool false); [cbn [bind]; now rewrite IH|]. unfold sibling_eq.
  destruct ((p_lo e =? p_lo n) && eqb (p_hi e) (p_hi n)) eqn:E; [|reflexivity].
  apply andb_true_iff in E as [E1 E2]. apply Nat.eqb_eq in E1. apply eqb_eq in E2. congruence.
Qed.
Lemma tiles_before l : forall lo hi c r, tiles lo hi (l ++ c :: r) -> Forall filled l -> Forall (fun e => p_lo e < p_lo c) l /\ lo <= p_lo c.
Proof.
  induction l as [|x l IH]; intros lo hi c r Ht HF; cbn [app] in Ht; inversion Ht; subst.
  - cbn. auto.
  - inversion HF as [|? ? [h [Eh Hh]] HF']; subst. cbn [p_hi p_lo] in *. injection Eh as <-.
    match goal with Hl : tiles _ _ (_ ++ _) |- _ => destruct (IH _ _ _ _ Hl HF') as [A B] end. split; [|lia].
    constructor; [cbn; lia|]. exact A.
Qed.
Lemma earlier_differ P lo hi ann l c r : shaped P (PNode lo (Some hi) ann (l ++ c :: r)) -> tiles lo hi (l ++ c :: r) ->
  Forall (fun e => (p_lo e, p_hi e) <> (p_lo c, p_hi c)) l.
Proof.
  intros Hs Ht. inversion Hs as [? ? ? ? S1 S2 S3 S4]; subst. destruct (eq_dec ann APaired) as [->|Hn].
  - destruct (S2 eq_refl) as [x [y [z [E [_ [_ [_ [Hx [Hz _]]]]]]]]]. rewrite E in Ht.
    inversion Ht as [|? mx ? ? ? ? T1 T2 T3]; subst. inversion T3 as [|? my ? ? ? ? T4 T5 T6]; subst.
    inversion T6 as [|? mz ? ? ? ? T7 T8 T9]; subst. inversion T9; subst. cbn [p_lo p_hi] in *.
    injection Hx as ->. injection Hz as ->.
    destruct l as [|a [|b [|d l]]]; cbn [app] in E.
    + constructor.
    + injection E as -> -> _. constructor; [|constructor]. cbn. intros C. injection C. lia.
    + injection E as -> -> -> _. constructor; [|constructor; [|constructor]]; cbn; intros C; injection C; lia.
    + injection E as _ _ _ C. destruct l; discriminate.
  - specialize (S3 Hn). apply Forall_app in S3 as [S3 _].
    destruct (tiles_before l lo hi c r Ht) as [HF _].
    { eapply Forall_impl; [|exact S3]. intros a [_ Ha]. exact Ha. }
    eapply Forall_impl; [|exact HF]. intros a Ha [= C _]. cbn in Ha. lia.
Qed.

(** ** The loop *)
Section Loop.
  Variable isspace : nat -> bool.
  Hypothesis blank_space : isspace 32 = true.
  Hypothesis quotes_not_space : isspace 34 = false /\ isspace 39 = false.
  Hypothesis d_not_space : isspace 100 = false.
  Variables (raws : list text) (width : nat).
  Hypothesis width_pos : 0 < width.
  Notation size := (length raws).
  Notation wf := (well_formed size).
  Definition offset (i : nat) : nat := length (concat (firstn i raws)).

  Definition pair_found (a b : pnode) (p : nat) : Prop :=
    exists k, documents width (p_text raws a) (p_text raws b) k /\ p = offset (p_lo b) + k.
  Lemma documents_iff A B k : documents width A B k <->
    (exists j, match_after_blanks function_words A = Some j) /\ match_after_blanks docstring_words B = Some k /\
    indents isspace width B = indents isspace width A + 1.
  Proof using blank_space quotes_not_space d_not_space width_pos.
    split.
    - intros [m [n [q [r [r' [-> [-> [Hq [Hd ->]]]]]]]]]. splits.
      + exists (m + 4). apply function_words_iff. eauto.
      + apply docstring_words_iff. exists n, q, r'. auto.
      + change (chars "def " ++ r) with (100 :: 101 :: 102 :: 32 :: r). rewrite indents_spec by auto.
        destruct Hq as [-> | ->]; cbn [app]; rewrite indents_spec by tauto; exact Hd.
    - intros [[j Ej] [Ek Hd]]. apply function_words_iff in Ej as [m [r [-> _]]]. apply docstring_words_iff in Ek as [n [q [r' [Hq [-> ->]]]]].
      change (chars "def " ++ r) with (100 :: 101 :: 102 :: 32 :: r) in Hd. rewrite indents_spec in Hd by auto.
      exists m, n, q, r, r'. splits; auto. destruct Hq as [-> | ->]; cbn [app] in Hd; rewrite indents_spec in Hd by tauto; exact Hd.
  Qed.

  Variable P : nat -> nat -> Prop.
  Lemma p_text_empty n : p_hi n = Some (p_lo n) -> p_text raws n = [].
  Proof. clear. intros E. unfold p_text, py_slice. rewrite E. cbn [fst snd]. now rewrite Nat.sub_diag. Qed.

  Definition opt_list {A} (o : option A) : list A := match o with Some a => [a] | None => [] end.
  (** One child of a node. *)
  Lemma docstring_after_spec lo hi ann l c r : wf (PNode lo (Some hi) ann (l ++ c :: r)) -> shaped P (PNode lo (Some hi) ann (l ++ c :: r)) ->
    exists x, docstring_after isspace raws width (PNode lo (Some hi) ann (l ++ c :: r)) l c = Ok x /\
      forall p, x = Some p <-> exists b r', r = b :: r' /\ pair_found c b p.
  Proof using blank_space quotes_not_space d_not_space width_pos.
    intros Hw Hs. inversion Hw as [? ? ? ? W1 W2 W3 W4 W5]; subst. destruct W3 as [C|Ht]; [destruct l; discriminate|].
    unfold docstring_after. cbn [p_len p_hi p_lo bind p_children]. destruct (hi - lo =? 0) eqn:El.
    - apply Nat.eqb_eq in El. exists None. split; auto. intros p. split; [discriminate|]. intros [b [r' [-> [k [D _]]]]].
      exfalso. apply tiles_app_inv in Ht as [m [T1 T2]]. inversion T2 as [|? m2 ? ann' cs' ? T3 T4 T5]; subst.
      apply tiles_le in T1, T5. assert (m2 = m) by lia. subst m2.
      rewrite (p_text_empty (PNode m (Some m) ann' cs') eq_refl) in D. destruct D as [m0 [? [? [rest [? [E _]]]]]].
      destruct m0; discriminate.
    - pose proof (earlier_differ P _ _ _ _ _ _ Hs Ht) as Hd. rewrite (index_after_other _ _ Hd). cbn [bind].
      rewrite nth_error_app2, Nat.add_comm by lia. replace (1 + length l - length l) with 1 by lia. cbn [nth_error].
      destruct r as [|b r]; cbn [nth_error].
      + exists None. split; auto. intros p. split; [discriminate|]. intros [b [r' [C _]]]. discriminate.
      + assert (Hfound : forall p, (exists b0 r', b :: r = b0 :: r' /\ pair_found c b0 p) <-> pair_found c b p).
        { intros p. split; [intros [b0 [r' [[= <- <-] D]]]; exact D|eauto]. }
        destruct (match_after_blanks function_words (p_text raws c)) as [j|] eqn:Ej.
        2:{ exists None. split; auto. intros p. rewrite Hfound. split; [discriminate|]. intros [k [D _]]. apply documents_iff in D as [[j D] _]. congruence. }
        destruct (match_after_blanks docstring_words (p_text raws b)) as [k|] eqn:Ek.
        2:{ exists None. split; auto. intros p. rewrite Hfound. split; [discriminate|]. intros [k [D _]]. apply documents_iff in D as [_ [D _]]. congruence. }
        destruct (indents isspace width (p_text raws b) =? _) eqn:Ei.
        * apply Nat.eqb_eq in Ei. eexists. split; [reflexivity|]. intros p. rewrite Hfound. split.
          -- intros [= <-]. exists k. split; auto. apply documents_iff. eauto.
          -- intros [k' [D ->]]. apply documents_iff in D as [_ [D _]]. unfold offset. congruence.
        * exists None. split; auto. intros p. rewrite Hfound. split; [discriminate|]. intros [k' [D _]].
          apply documents_iff in D as [_ [_ D]]. rewrite D, Nat.eqb_refl in Ei. discriminate.
  Qed.

  (** The children of a node from one of them on. *)
  Definition below_children (parent : pnode) : list pnode -> list pnode -> result (list nat) :=
    fix go (earlier l : list pnode) : result (list nat) :=
      match l with
      | [] => Ok []
      | c :: l' =>
          do x <- docstring_after isspace raws width parent earlier c;
          do inner <- docstrings_below isspace raws width c;
          do rest <- go (earlier ++ [c]) l';
          Ok (match x with Some k => [k] | None => [] end ++ inner ++ rest)
      end.
  Lemma docstrings_below_eq lo hi ann cs : docstrings_below isspace raws width (PNode lo hi ann cs) = below_children (PNode lo hi ann cs) [] cs.
  Proof. reflexivity. Qed.

  (** What one call returns, apart from the order. *)
  Inductive within (l : list pnode) : nat -> Prop :=
  | Pair l1 a b l2 p : l = l1 ++ a :: b :: l2 -> pair_found a b p -> within l p
  | Inside c p a b : In c l -> next_sibling c a b -> pair_found a b p -> within l p.

  Lemma within_cons c l p : within (c :: l) p <->
    (exists b r, l = b :: r /\ pair_found c b p) \/ (exists a b, next_sibling c a b /\ pair_found a b p) \/ within l p.
  Proof.
    clear. split.
    - intros [l1 a b l2 p' E D|c' p' a b Hi Hn D].
      + destruct l1 as [|x l1]; cbn [app] in E; injection E as -> E; subst; eauto 6.
        right. right. eapply Pair; eauto.
      + destruct Hi as [->|Hi]; [eauto 6|]. right. right. eapply Inside; eauto.
    - intros [[b [r [-> D]]]|[[a [b [Hn D]]]|Hw]].
      + apply (Pair _ [] c b r); auto.
      + eapply Inside; [now left|eauto|eauto].
      + destruct Hw as [l1 a b l2 p' -> D|c' p' a b Hi Hn D].
        * apply (Pair _ (c :: l1) a b l2); auto.
        * eapply Inside; [right; exact Hi|eauto|eauto].
  Qed.
  Lemma within_node lo hi ann cs p : within cs p <-> exists a b, next_sibling (PNode lo hi ann cs) a b /\ pair_found a b p.
  Proof.
    clear. split.
    - intros [l1 a b l2 p' -> D|c p' a b Hi Hn D]; exists a, b; split; auto; [apply Here|eapply Below; eauto].
    - intros [a [b [Hn D]]]. inversion Hn; subst; [eapply Pair; eauto|eapply Inside; eauto].
  Qed.

  Theorem docstrings_below_spec n : wf n -> shaped P n ->
    exists ps, docstrings_below isspace raws width n = Ok ps /\
      forall p, In p ps <-> exists a b, next_sibling n a b /\ pair_found a b p.
  Proof using blank_space quotes_not_space d_not_space width_pos.
    induction n as [lo h ann cs IH] using pnode_ind'. intros Hw Hs. inversion Hw as [? hi ? ? W1 W2 W3 W4 W5]; subst.
    rewrite docstrings_below_eq. cut (exists ps, below_children (PNode lo (Some hi) ann cs) [] cs = Ok ps /\ forall p, In p ps <-> within cs p).
    { intros [ps [E Hp]]. exists ps. split; auto. intros p. rewrite Hp. apply within_node. }
    assert (G : forall l earlier, cs = earlier ++ l -> exists ps, below_children (PNode lo (Some hi) ann cs) earlier l = Ok ps /\ forall p, In p ps <-> within l p).
    2:{ apply (G cs []). reflexivity. }
    induction l as [|c l IHl]; intros earlier E.
    - exists []. split; auto. intros p. split; [intros []|]. intros [l1 ? ? ? ? C|? ? ? ? []]; destruct l1; discriminate.
    - cbn [below_children]. pose proof Hw as Hw'. pose proof Hs as Hs'. rewrite E in Hw', Hs'.
      destruct (docstring_after_spec _ _ _ _ _ _ Hw' Hs') as [x [Ex Hx]]. rewrite <- E in Ex. rewrite Ex. cbn [bind].
      assert (Hc : In c cs) by (rewrite E; apply in_elt).
      inversion Hs as [? ? ? ? _ _ _ S4]; subst ann0 lo0 hi0 cs0. rewrite Forall_forall in IH, W4, S4.
      destruct (IH c Hc (W4 c Hc) (S4 c Hc)) as [inner [Ei Hi]]. rewrite Ei. cbn [bind].
      destruct (IHl (earlier ++ [c])) as [rest [Er Hr]]; [rewrite <- app_assoc; exact E|]. rewrite Er. cbn [bind].
      eexists. split; [reflexivity|]. intros p. rewrite !in_app_iff, within_cons, <- Hi, <- Hr, <- Hx.
      destruct x as [k|]; cbn [In]; intuition congruence.
  Qed.

  (** *** Where the positions are in the text *)
  Notation code := (concat raws).
  Lemma sibling_ranges n a b : wf n -> next_sibling n a b ->
    exists lo hi ha hb, p_lo n = lo /\ p_hi n = Some hi /\ p_hi a = Some ha /\ p_lo b = ha /\ p_hi b = Some hb /\
      lo <= p_lo a <= ha /\ ha <= hb <= hi /\ hi <= size.
  Proof.
    clear. intros Hw Hn. revert Hw. induction Hn as [lo h ann l a b r|lo h ann cs c a b Hi Hn IH]; intros Hw.
    - inversion Hw as [? hi ? ? W1 W2 W3 W4 W5]; subst. destruct W3 as [C|Ht]; [destruct l; discriminate|].
      apply tiles_app_inv in Ht as [m [T1 T2]]. inversion T2 as [|? ma ? ? ? ? T3 T4 T5]; subst. inversion T5 as [|? mb ? ? ? ? T6 T7 T8]; subst.
      apply tiles_le in T1, T8. exists lo, hi, ma, mb. cbn. splits; auto; lia.
    - inversion Hw as [? hi ? ? W1 W2 W3 W4 W5]; subst. destruct W3 as [->|Ht]; [destruct Hi|].
      rewrite Forall_forall in W4. destruct (IH (W4 _ Hi)) as [lo' [hi' [ha [hb [A1 [A2 [A3 [A4 [A5 [A6 [A7 A8]]]]]]]]]]].
      apply in_split in Hi as [l1 [l2 ->]]. apply tiles_app_inv in Ht as [m [T1 T2]].
      inversion T2 as [|? mc ? ? ? ? T3 T4 T5]; subst. cbn [p_lo p_hi] in *. injection A2 as <-. apply tiles_le in T1, T5.
      exists lo, hi, (p_lo b), hb. cbn. splits; auto; lia.
  Qed.
  Lemma skipn_more {A} (l : list A) : forall i j, skipn i (skipn j l) = skipn (j + i) l.
  Proof. clear. induction l as [|x l IH]; intros i j; [now rewrite !skipn_nil|]. destruct j; cbn [skipn Nat.add]; auto. Qed.
  Lemma offset_mono i j : i <= j -> offset i <= offset j.
  Proof.
    clear. intros Hij. unfold offset. replace j with (i + (j - i)) by lia. rewrite <- (firstn_skipn i (firstn (i + (j - i)) raws)).
    rewrite firstn_firstn, concat_app, app_length. replace (Nat.min i (i + (j - i))) with i by lia. lia.
  Qed.
  Lemma slice_text lo hi ann cs : lo <= hi -> code = concat (firstn lo raws) ++ p_text raws (PNode lo (Some hi) ann cs) ++ concat (skipn hi raws).
  Proof.
    clear. intros Hl. unfold p_text, py_slice. cbn [p_lo p_hi fst snd]. rewrite <- (firstn_skipn lo raws) at 1. rewrite concat_app. f_equal.
    rewrite <- (firstn_skipn (hi - lo) (skipn lo raws)) at 1. rewrite concat_app. f_equal. f_equal.
    rewrite skipn_more. f_equal. lia.
  Qed.
  Lemma offset_slice n hi : p_hi n = Some hi -> p_lo n <= hi -> offset hi = offset (p_lo n) + length (p_text raws n).
  Proof.
    clear. intros E Hl. unfold offset, p_text, py_slice. rewrite E. cbn [fst snd]. replace hi with (p_lo n + (hi - p_lo n)) at 1 by lia.
    generalize (hi - p_lo n). intros k. rewrite <- app_length, <- concat_app. f_equal. f_equal.
    generalize (p_lo n). intros j. clear. revert k. generalize raws. induction j as [|j IH]; intros l k; [reflexivity|].
    destruct l as [|x l]; cbn; [now rewrite firstn_nil|]. f_equal. apply IH.
  Qed.
  (** The two texts stand next to each other in the code. *)
  Lemma siblings_text n a b : wf n -> next_sibling n a b ->
    code = concat (firstn (p_lo a) raws) ++ p_text raws a ++ p_text raws b ++ concat (skipn (match p_hi b with Some h => h | None => 0 end) raws) /\
    offset (p_lo b) = offset (p_lo a) + length (p_text raws a).
  Proof.
    clear. intros Hw Hn. destruct (sibling_ranges n a b Hw Hn) as [lo [hi [ha [hb [A1 [A2 [A3 [A4 [A5 [A6 [A7 A8]]]]]]]]]]].
    split.
    - rewrite A5. destruct a as [la ? ? ?], b as [lb ? ? ?]. cbn [p_lo p_hi] in *. subst.
      rewrite (slice_text la ha ann children) at 1 by lia. f_equal. f_equal.
      assert (E : concat (firstn ha raws) ++ concat (skipn ha raws) = concat (firstn ha raws) ++ p_text raws (PNode ha (Some hb) ann0 children0) ++ concat (skipn hb raws)).
      { rewrite <- slice_text by lia. rewrite <- concat_app. now rewrite firstn_skipn. }
      now apply app_inv_head in E.
    - rewrite A4. apply offset_slice; auto. lia.
  Qed.
  Lemma found_text n a b p : wf n -> next_sibling n a b -> pair_found a b p ->
    exists m rest k q rest', code = concat (firstn (p_lo a) raws) ++ (blanks m ++ chars "def " ++ rest) ++ blanks k ++ q ++ rest' /\
      p_text raws a = blanks m ++ chars "def " ++ rest /\ triple_quote q /\ k / width = m / width + 1 /\
      offset (p_lo b) = offset (p_lo a) + length (p_text raws a) /\ p = offset (p_lo b) + k + 3 /\
      exists more, p_text raws b = blanks k ++ q ++ more.
  Proof.
    clear. intros Hw Hn [j [[m [k [q [r [r' [Ea [Eb [Hq [Hd ->]]]]]]]]] ->]]. destruct (siblings_text n a b Hw Hn) as [E1 E2].
    exists m, r, k, q, (r' ++ concat (skipn (match p_hi b with Some h => h | None => 0 end) raws)). splits; auto.
    - rewrite E1, Ea, Eb, <- !app_assoc. reflexivity.
    - lia.
    - eauto.
  Qed.
  Lemma found_after n a b p : wf n -> next_sibling n a b -> pair_found a b p ->
    exists hi d, p_hi n = Some hi /\ offset (p_lo n) <= d /\ d + 7 <= p /\ p <= offset hi /\ nth_error code d = Some 100.
  Proof.
    clear. intros Hw Hn Hp. destruct (sibling_ranges n a b Hw Hn) as [lo [hi [ha [hb [A1 [A2 [A3 [A4 [A5 [A6 [A7 A8]]]]]]]]]]].
    destruct (found_text n a b p Hw Hn Hp) as [m [rest [k [q [rest' [E [Ea [Hq [_ [Eo [Ep [more Eb]]]]]]]]]]]].
    exists hi, (offset (p_lo a) + m).
    assert (Lq : length q = 3) by (destruct Hq as [-> | ->]; reflexivity).
    assert (La : length (p_text raws a) = m + 4 + length rest) by (rewrite Ea; unfold blanks; rewrite !app_length, repeat_length; cbn; lia).
    splits; auto.
    - pose proof (offset_mono (p_lo n) (p_lo a)). lia.
    - lia.
    - pose proof (offset_slice b hb A5 ltac:(lia)) as Ob. rewrite Eb in Ob. unfold blanks in Ob. rewrite !app_length, repeat_length in Ob.
      pose proof (offset_mono hb hi). lia.
    - rewrite E. unfold offset. rewrite nth_error_app2 by lia. replace (_ + m - _) with m by lia. rewrite <- !app_assoc. unfold blanks.
      rewrite nth_error_app2; rewrite repeat_length; [|lia]. now rewrite Nat.sub_diag.
  Qed.

  Lemma NoDup_app {A} (l l' : list A) : NoDup l -> NoDup l' -> (forall x, In x l -> ~ In x l') -> NoDup (l ++ l').
  Proof.
    clear. induction 1 as [|x l Hx Hl IH]; intros Hl' Hd; cbn [app]; auto. constructor.
    - intros C. apply in_app_or in C as [C|C]; [contradiction|]. apply (Hd x); auto. now left.
    - apply IH; auto. intros y Hy. apply Hd. now right.
  Qed.
  Theorem docstrings_once n ps : wf n -> shaped P n -> docstrings_below isspace raws width n = Ok ps -> NoDup ps.
  Proof using blank_space quotes_not_space d_not_space width_pos.
    revert ps. induction n as [lo h ann cs IH] using pnode_ind'. intros ps Hw Hs E0. inversion Hw as [? hi ? ? W1 W2 W3 W4 W5]; subst.
    rewrite docstrings_below_eq in E0.
    assert (G : forall l earlier m ps, cs = earlier ++ l -> (l = [] \/ tiles m hi l) -> below_children (PNode lo (Some hi) ann cs) earlier l = Ok ps ->
      NoDup ps /\ forall p, In p ps -> within l p).
    2:{ apply (G cs [] lo ps); auto. }
    clear E0 ps. inversion Hs as [? ? ? ? _ _ _ S4]; subst.
    induction l as [|c l IHl]; intros earlier m ps E Ht E0; cbn [below_children] in E0.
    - injection E0 as <-. split; [constructor|intros p []].
    - pose proof Hw as Hw'. pose proof Hs as Hs'. rewrite E in Hw', Hs'.
      destruct (docstring_after_spec _ _ _ _ _ _ Hw' Hs') as [x [Ex Hx]]. rewrite <- E in Ex. rewrite Ex in E0. cbn [bind] in E0.
      apply bind_ok_inv in E0 as [inner [Ei E0]]. apply bind_ok_inv in E0 as [rest [Er E0]]. injection E0 as <-.
      assert (Hc : In c cs) by (rewrite E; apply in_elt). rewrite Forall_forall in IH, W4, S4.
      destruct (docstrings_below_spec c (W4 c Hc) (S4 c Hc)) as [inner' [Ei' Hi]]. rewrite Ei in Ei'. injection Ei' as <-.
      pose proof (IH c Hc inner (W4 c Hc) (S4 c Hc) Ei) as Ni.
      destruct Ht as [C|Ht]; [discriminate|]. inversion Ht as [|? mid ? anc csc ? T3 T4 T5]; subst c l0 m hi0.
      destruct (IHl (earlier ++ [PNode lo0 (Some mid) anc csc]) mid rest) as [Nr Hr]; [rewrite <- app_assoc; exact E|auto|exact Er|].
      assert (Wl : wf (PNode mid (Some hi) ARoot l)).
      { constructor; auto; [apply (tiles_le _ _ _ T5)| |discriminate]. apply Forall_forall. intros y Hy. apply W4. rewrite E. apply in_or_app. right. now right. }
      (* positions found after this child *)
      assert (After : forall p, In p rest -> exists d, offset mid <= d /\ d + 7 <= p /\ nth_error code d = Some 100).
      { intros p Hp. apply Hr, (within_node mid (Some hi) ARoot) in Hp as [a [b [Hn Hp]]].
        destruct (found_after _ a b p Wl Hn Hp) as [? [d [_ [D1 [D2 [_ D3]]]]]]. exists d. auto. }
      assert (Before : forall p, In p inner -> p <= offset mid).
      { intros p Hp. apply Hi in Hp as [a [b [Hn Hp]]]. destruct (found_after _ a b p (W4 _ Hc) Hn Hp) as [h' [d [E' [_ [_ [D _]]]]]].
        cbn [p_hi] in E'. injection E' as <-. exact D. }
      assert (This : forall p, x = Some p -> offset mid < p /\ forall d, offset mid <= d -> d + 7 <= p -> nth_error code d = Some 32).
      { intros p Hp. apply Hx in Hp as [b [r' [-> Hp]]].
        assert (Hn : next_sibling (PNode lo (Some hi) ann cs) (PNode lo0 (Some mid) anc csc) b) by (rewrite E; apply Here).
        destruct (found_text _ _ _ _ Hw Hn Hp) as [m [more [k [q [rest' [Et [Ea [Hq [_ [Eo [Ep _]]]]]]]]]]].
        assert (Eb : p_lo b = mid) by (inversion T5; reflexivity). rewrite Eb in *. cbn [p_lo] in *. split; [lia|]. intros d D1 D2.
        rewrite Et. rewrite Ea in Eo. rewrite app_assoc. rewrite nth_error_app2; [|rewrite app_length; unfold offset in *; lia].
        assert (Lk : length (blanks k) = k) by apply repeat_length. rewrite nth_error_app1; [|rewrite Lk, app_length; unfold offset in *; lia].
        unfold blanks at 1. apply nth_error_repeat. rewrite app_length. unfold offset in *. lia. }
      split.
      + apply NoDup_app; [destruct x; repeat constructor; intros []| |].
        * apply NoDup_app; auto. intros p H1 H2. apply Before in H1. apply After in H2 as [d [D1 [D2 _]]]. lia.
        * intros p Hp C. destruct x as [k|]; [|destruct Hp]. destruct Hp as [->|[]]. destruct (This p eq_refl) as [B1 B2].
          apply in_app_or in C as [C|C]; [apply Before in C; lia|]. apply After in C as [d [D1 [D2 D3]]]. rewrite B2 in D3 by lia. discriminate.
      + intros p Hp. rewrite within_cons. rewrite !in_app_iff in Hp. destruct Hp as [Hp|[Hp|Hp]]; auto.
        * left. apply Hx. destruct x; [destruct Hp as [->|[]]; reflexivity|destruct Hp].
        * right. left. now apply Hi.
  Qed.
End Loop.

(** ** A docstring begins a line *)
Section Line.
  Variable digit : nat -> bool.
  Hypothesis digit_ascii : forall c, c < 128 -> digit c = (48 <=? c) && (c <=? 57).
  Variable o : outcome.
  Notation raws := (o_raws o).
  Hypothesis Hwf : well_formed (length raws) (o_tree o).
  Hypothesis HL : python_lines digit o.

  Lemma slice_first k i (x : text) : 0 < k -> nth_error raws i = Some x -> exists y, concat (firstn k (skipn i raws)) = x ++ y.
  Proof.
    clear. intros Hk. generalize raws. induction i as [|i IH]; intros [|z l] E; try discriminate; cbn [skipn nth_error] in *.
    - injection E as ->. destruct k; [lia|]. cbn [firstn concat]. eauto.
    - auto.
  Qed.
  Lemma slice_last k i (x : text) : nth_error raws (i + k) = Some x -> exists y, concat (firstn (S k) (skipn i raws)) = y ++ x.
  Proof.
    clear. generalize raws. induction i as [|i IH]; intros l E; cbn [Nat.add skipn] in *.
    - revert k E. induction l as [|z l IH]; intros [|k] E; try discriminate; cbn [nth_error] in E.
      + injection E as ->. exists []. cbn. now rewrite app_nil_r.
      + destruct (IH k E) as [y Ey]. exists (z ++ y). cbn [firstn concat] in *. rewrite Ey. now rewrite app_assoc.
    - destruct l as [|z l]; [destruct (i + k); discriminate|]. cbn [nth_error] in E. auto.
  Qed.
  Lemma slice_empty k i : (forall j x, i <= j < i + k -> nth_error raws j = Some x -> x = []) -> concat (firstn k (skipn i raws)) = [].
  Proof.
    clear. generalize raws. induction i as [|i IH]; intros l Hx; cbn [skipn Nat.add] in *.
    - revert k Hx. induction l as [|z l IH]; intros [|k] Hx; auto. cbn [firstn concat]. rewrite (Hx 0 z) by (auto; lia). cbn [app]. apply IH.
      intros j x Hj. apply (Hx (S j)). lia.
    - destruct l as [|z l]; [now rewrite firstn_nil|]. apply IH. intros j x Hj. apply (Hx (S j)). lia.
  Qed.
  Lemma token_of_text x n c r : In c [34; 39; 100] -> x = blanks n ++ c :: r -> x <> [] -> (exists full, In x (map fst (preset_lex digit Python_preprocessor full))) ->
    n = 0 /\ (c = 100 -> ~ In 32 x).
  Proof using digit_ascii.
    intros Hc -> _ [full Hf]. rewrite tokens_of_lex in Hf by auto. destruct n as [|n].
    - split; auto. intros ->. now apply (tokens_of_blank digit digit_ascii full _ Hf 100 r).
    - exfalso. pose proof (proj1 (tokens_of_blank digit digit_ascii full _ Hf 32 _ eq_refl) eq_refl) as F. apply Forall_app in F as [_ F].
      inversion F; subst. cbn in Hc. intuition discriminate.
  Qed.

  Theorem docstring_line width a b k : 0 < width -> next_sibling (o_tree o) a b -> documents width (p_text raws a) (p_text raws b) k ->
    exists a', p_text raws a = a' ++ [10].
  Proof using digit_ascii Hwf HL.
    intros Hw Hn [m [n [q [r [r' [Ea [Eb [Hq [Hd Hk]]]]]]]]].
    destruct (sibling_ranges raws _ a b Hwf Hn) as [lo [hi [ha [hb [A1 [A2 [A3 [A4 [A5 [A6 [A7 A8]]]]]]]]]]].
    assert (Hn0 : n <> 0) by (intros ->; rewrite Nat.div_0_l in Hd by lia; lia).
    assert (Ta : p_text raws a = concat (firstn (ha - p_lo a) (skipn (p_lo a) raws))) by (unfold p_text, py_slice; now rewrite A3).
    assert (Tb : p_text raws b = concat (firstn (hb - ha) (skipn ha raws))) by (unfold p_text, py_slice; now rewrite A5, A4).
    assert (Na : p_text raws a <> []) by (rewrite Ea; destruct m; discriminate).
    assert (Nb : p_text raws b <> []) by (rewrite Eb; destruct n; [lia|discriminate]).
    assert (La : p_lo a < ha).
    { destruct (Nat.eq_dec (p_lo a) ha) as [E|E]; [|lia]. exfalso. apply Na. rewrite Ta, E, Nat.sub_diag. reflexivity. }
    assert (Lb : ha < hb).
    { destruct (Nat.eq_dec ha hb) as [E|E]; [|lia]. exfalso. apply Nb. rewrite Tb, E, Nat.sub_diag. reflexivity. }
    assert (Hx : forall i, i < length raws -> exists x, nth_error raws i = Some x).
    { intros i Hi. destruct (nth_error raws i) eqn:E; eauto. apply nth_error_None in E. lia. }
    assert (Nqr : exists c w, q ++ r' = c :: w /\ In c [34; 39; 100]) by (destruct Hq as [-> | ->]; cbn; eauto 6).
    destruct Nqr as [c [w [Ec Hc]]]. rewrite Ec in Eb.
    destruct (pl_siblings _ _ HL a b Hn) as [G|[G|[G|G]]].
    - exfalso. rewrite A3 in G. injection G as ->. destruct (Hx (p_lo a)) as [x Ex]; [lia|].
      destruct (slice_last 0 (p_lo a) x) as [y Ey]; [now rewrite Nat.add_0_r|].
      assert (E : p_text raws a = x).
      { rewrite Ta. replace (S (p_lo a) - p_lo a) with 1 by lia. clear -Ex. revert Ex. generalize raws. generalize (p_lo a) as i.
        induction i as [|i IH]; intros [|z l] E; try discriminate; cbn [skipn nth_error] in *; auto. injection E as ->. cbn. apply app_nil_r. }
      assert (Nx : x <> []) by congruence. destruct (pl_tokens _ _ HL _ _ Ex Nx) as [_ Hf].
      destruct (token_of_text x m 100 (chars "ef " ++ r)) as [_ T]; auto; [cbn; tauto|rewrite <- E, Ea; reflexivity|].
      apply (T eq_refl). rewrite <- E, Ea. apply in_or_app. right. cbn. tauto.
    - exfalso. rewrite A5 in G. rewrite A4 in G. injection G as ->. destruct (Hx ha) as [x Ex]; [lia|].
      assert (E : p_text raws b = x).
      { rewrite Tb. replace (S ha - ha) with 1 by lia. clear -Ex. revert Ex. generalize raws. generalize ha as i.
        induction i as [|i IH]; intros [|z l] E; try discriminate; cbn [skipn nth_error] in *; auto. injection E as ->. cbn. apply app_nil_r. }
      assert (Nx : x <> []) by congruence. destruct (pl_tokens _ _ HL _ _ Ex Nx) as [_ Hf].
      destruct (token_of_text x n c w) as [T _]; auto; congruence.
    - destruct G as [h [G1 [_ G3]]]. rewrite A3 in G1. injection G1 as <-. destruct (Hx (ha - 1)) as [x Ex]; [lia|].
      destruct (slice_last (ha - 1 - p_lo a) (p_lo a) x) as [y Ey]; [now replace (p_lo a + (ha - 1 - p_lo a)) with (ha - 1) by lia|].
      replace (S (ha - 1 - p_lo a)) with (ha - p_lo a) in Ey by lia. rewrite <- Ta in Ey.
      destruct x as [|x0 x].
      + exfalso. destruct (pl_added _ _ HL _ _ Ex G3) as [G|G]; [discriminate| |].
        * apply Na. rewrite Ta. apply slice_empty. intros j x Hj Hxj. rewrite (G j) in Hxj by lia. congruence.
        * apply Nb. rewrite Tb. apply slice_empty. intros j x Hj Hxj. eapply (G j); [lia|exact Hxj].
      + destruct (pl_tokens _ _ HL _ _ Ex) as [T _]; [discriminate|]. exists y. rewrite Ey. f_equal. rewrite G3 in T. injection T as <- <-. reflexivity.
    - exfalso. destruct G as [x' [G1 G2]]. rewrite A4 in G1. destruct (Hx ha) as [x Ex]; [lia|].
      destruct (slice_first (hb - ha) ha x) as [y Ey]; [lia|auto|]. rewrite <- Tb in Ey.
      destruct x as [|x0 x].
      + destruct (pl_added _ _ HL _ _ Ex G1) as [G|G]; [cbn in G2; intuition (subst; discriminate)| |].
        * apply Na. rewrite Ta. apply slice_empty. intros j x Hj Hxj. rewrite (G j) in Hxj by lia. congruence.
        * apply Nb. rewrite Tb. apply slice_empty. intros j x Hj Hxj. eapply (G j); [lia|exact Hxj].
      + destruct (pl_tokens _ _ HL _ _ Ex) as [T _]; [discriminate|]. rewrite G1 in T. injection T as ->.
        rewrite Eb in Ey. destruct n as [|n]; [lia|]. cbn in Ey. injection Ey as <- _. cbn in G2. intuition discriminate.
  Qed.
End Line.
