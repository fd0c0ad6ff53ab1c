(** Which decorations parse trees have: the leaves that spell nothing come after all
    brackets and texts.  For the languages that are parsed directly. *)

From Coq Require Import List Bool Arith Lia.
From Verif Require Import Base SeqNodes Transforms StackParser StackParserProofs ParseShape Subtokenizer PseudoParse PseudoParseProofs Lexer LexerProofs ParserTools ParserToolsProofs
  Html CallSequence CallSpec CallProofs CallTheorems.
Import ListNotations.

Section Tidy.
  Variable O : nat -> Prop.
  (** Single tokens are no opening brackets, pairs start with one, and split groups are
      not mixed with other nodes. *)
  Inductive tidy : pnode -> Prop :=
  | Tidy lo hi ann cs : (ann = ASibling -> ~ O lo) -> (ann = APaired -> O lo) ->
      (Forall (fun c => p_ann c = ASplit) cs \/ Forall (fun c => p_ann c <> ASplit) cs) -> Forall tidy cs -> tidy (PNode lo hi ann cs).

  Context {T : Type} `{EqDec T}.
  Lemma forest_tidy (pairs : list (T * T)) (tokens : list T) ctx i ts ns : forest pairs ctx i ts ns ->
    (forall t, In t (openers pairs) -> ~ In t (closers pairs)) ->
    (forall k o, nth_error tokens k = Some o -> (O k <-> In o (openers pairs))) ->
    (forall k, k < length ts -> nth_error tokens (i + k) = nth_error ts k) -> Forall tidy ns.
  Proof.
    intros F HP HO. induction F as [ctx i|ctx i t ts ns Ho Hc F IH|o i t ts ns Hc Hn F IH|ctx i o c inner ms ts ns j Hi F1 IH1 F2 IH2]; intros Hnth; constructor.
    - constructor; auto; try discriminate. intros _ C. apply (HO i t) in C; auto. specialize (Hnth 0). cbn in Hnth. rewrite Nat.add_0_r in Hnth. apply Hnth. lia.
    - apply IH. intros k Hk. specialize (Hnth (S k)). cbn [length nth_error] in Hnth. rewrite <- Hnth by lia. f_equal. lia.
    - constructor; auto; try discriminate. intros _ C. apply (HO i t) in C; [now apply HP in C|]. specialize (Hnth 0). cbn in Hnth. rewrite Nat.add_0_r in Hnth. apply Hnth. lia.
    - apply IH. intros k Hk. specialize (Hnth (S k)). cbn [length nth_error] in Hnth. rewrite <- Hnth by lia. f_equal. lia.
    - constructor; try discriminate.
      + intros _. apply (HO i o).
        * specialize (Hnth 0). cbn [length nth_error] in Hnth. rewrite Nat.add_0_r in Hnth. apply Hnth. lia.
        * apply in_map_iff. exists (o, c). auto.
      + right. repeat constructor; discriminate.
      + constructor; [constructor; auto; discriminate|]. constructor; [|constructor; [constructor; auto; discriminate|constructor]].
        constructor; try discriminate.
        * right. pose proof (forest_unsplit pairs _ _ _ _ F1) as U. eapply Forall_impl; [|exact U]. intros n Hu. inversion Hu; auto.
        * apply IH1. intros k Hk. specialize (Hnth (S k)). cbn [length nth_error] in Hnth. rewrite app_length in Hnth.
          rewrite nth_error_app1 in Hnth by lia. rewrite <- Hnth by lia. f_equal. lia.
    - apply IH2. intros k Hk. specialize (Hnth (S (length inner + S k))). cbn [length nth_error] in Hnth.
      rewrite app_length in Hnth. cbn [length] in Hnth. rewrite nth_error_app2 in Hnth by lia.
      replace (length inner + S k - length inner) with (S k) in Hnth by lia. cbn [nth_error] in Hnth.
      rewrite <- Hnth by lia. f_equal. unfold j. lia.
  Qed.

  Variables (tokens splits : list T) (quotes : list (T * T)).
  Lemma split_node_frame n n' : split_node tokens splits quotes n = Ok n' -> p_lo n' = p_lo n /\ p_ann n' = p_ann n.
  Proof.
    destruct n as [lo hi ann cs]. rewrite split_node_eq. intros E. apply bind_ok_inv in E as [b [_ E]]. destruct b; [injection E as <-; auto|].
    apply bind_ok_inv in E as [fl [_ E]]. apply bind_ok_inv in E as [cs' [_ E]]. injection E as <-. auto.
  Qed.
  Lemma split_node_tidy n : forall n', unsplit_tree n -> tidy n -> split_node tokens splits quotes n = Ok n' -> tidy n'.
  Proof.
    induction n as [lo hi ann cs IH] using pnode_ind'. intros n' Hu Ht E. rewrite split_node_eq in E.
    apply bind_ok_inv in E as [b [_ E]]. destruct b; [injection E as <-; auto|].
    apply bind_ok_inv in E as [fl [Ef E]]. apply bind_ok_inv in E as [cs' [Ec E]]. injection E as <-.
    inversion Hu as [? ? ? ? Ha Hus]; subst. inversion Ht as [? ? ? ? T1 T2 T3 T4]; subst.
    apply mapM_ok_iff in Ec. apply mapM_ok_iff in Ef.
    assert (F : Forall2 (fun c c' => tidy c' /\ p_ann c' = p_ann c) cs cs').
    { clear -IH Hus T4 Ec. induction Ec as [|c c' cs cs' E F IHF]; constructor; inversion IH; inversion Hus; inversion T4; subst; auto.
      unfold split_child in E. apply bind_ok_inv in E as [k [_ E]]. destruct (1 <? k).
      - split; [auto|]. now apply split_node_frame in E as [_ E].
      - injection E as <-. auto. }
    assert (Tc : Forall tidy cs') by (clear -F; induction F as [|? ? ? ? [? _]]; constructor; auto).
    assert (Nc : Forall (fun c => p_ann c <> ASplit) cs').
    { clear -F Hus. induction F as [|c c' l l' [_ E] F IHF]; constructor; inversion Hus as [|? ? U ?]; subst; auto. rewrite E. inversion U; auto. }
    assert (L : length cs' = length fl) by (rewrite <- (F2_len _ _ _ F); now apply F2_len in Ef).
    unfold regroup. destruct ((1 <? length (group_by (combine cs' fl))) && negb (eqb ann APaired)).
    - pose proof (proj1 (group_by_concat (combine cs' fl))) as Hcc. rewrite combine_fst in Hcc by auto. rewrite <- Hcc in Tc, Nc.
      clear -T1 T2 Tc Nc. constructor; auto.
      + left. induction (group_by (combine cs' fl)) as [|g gs IHg]; cbn [flat_map]; [constructor|]. cbn [concat] in Tc, Nc. apply Forall_app in Tc as [_ Tc]. apply Forall_app in Nc as [_ Nc].
        apply Forall_app. split; auto. destruct g; cbn [split_group]; repeat constructor.
      + induction (group_by (combine cs' fl)) as [|g gs IHg]; cbn [flat_map]; [constructor|]. cbn [concat] in Tc, Nc. apply Forall_app in Tc as [Tg Tc]. apply Forall_app in Nc as [Ng Nc].
        apply Forall_app. split; auto. destruct g as [|c0 g]; cbn [split_group]; constructor; [|constructor]. constructor; auto; discriminate.
    - rewrite combine_fst by auto. constructor; auto.
  Qed.
End Tidy.

(** ** From parse trees to nodes. *)
Lemma tokens_spaced isspace (l : list N) : Forall (fun n => match n with Token _ _ => True | _ => False end) l -> spaced isspace l.
Proof.
  intros F. rewrite Forall_forall in F. constructor.
  - intros a t b cs m c ->. destruct (F (Group cs m)). apply in_or_app. right. right. apply in_or_app. right. now left.
  - intros cs m Hi. destruct (F _ Hi).
Qed.
Lemma no_groups_spaced isspace (l : list N) : (forall cs m, ~ In (Group cs m) l) -> spaced isspace l.
Proof.
  intros F. constructor.
  - intros a t b cs m c ->. destruct (F cs m). apply in_or_app. right. right. apply in_or_app. right. now left.
  - intros cs m Hi. destruct (F _ _ Hi).
Qed.
Lemma tiles_order lo hi a x b y c : tiles lo hi (a ++ x :: b ++ y :: c) -> exists h, p_hi x = Some h /\ h <= p_lo y.
Proof.
  revert lo. induction a as [|n a IH]; cbn [app]; intros lo H.
  - inversion H as [|? mid ? ann cs l Hle Hcs Ht]; subst. exists mid. split; auto. clear -Ht.
    revert mid Ht. induction b as [|n b IH]; cbn [app]; intros mid Ht.
    + inversion Ht; subst. cbn. auto.
    + inversion Ht; subst. match goal with K : tiles _ hi (b ++ _) |- _ => apply IH in K end. lia.
  - inversion H; subst. eauto.
Qed.
Lemma slice_first {A} (l : list (list A)) lo hi : lo < hi -> hi <= length l -> concat (py_slice (lo, Some hi) l) = [] -> nth_error l lo = Some [].
Proof.
  intros H1 H2 E. unfold py_slice in E. cbn [fst snd] in E.
  destruct (nth_error l lo) as [t|] eqn:En; [|apply nth_error_None in En; lia].
  apply nth_error_split in En as [a [b [-> La]]]. rewrite <- La, skipn_app, skipn_all, Nat.sub_diag in E. cbn [app skipn] in E.
  replace (hi - length a) with (S (hi - length a - 1)) in E by lia. cbn [firstn concat] in E. apply app_eq_nil in E as [-> _]. reflexivity.
Qed.
Lemma slice_blank {A} (l : list (list A)) b lo hi : (forall k t, b <= k -> nth_error l k = Some t -> t = []) -> b <= lo -> concat (py_slice (lo, hi) l) = [].
Proof.
  intros H Hb.
  assert (F : Forall (fun t => t = []) (skipn lo l)).
  { apply Forall_forall. intros t Ht. apply In_nth_error in Ht as [k Ek]. apply (H (lo + k) t); [lia|]. clear -Ek. revert l Ek. induction lo as [|lo IH]; cbn; auto.
    intros [|x l] Ek; [destruct k; discriminate|]. cbn in *. auto. }
  assert (G : forall l' : list (list A), Forall (fun t => t = []) l' -> concat l' = []) by (induction 1 as [|x l' -> _ IH]; auto).
  unfold py_slice. cbn [fst snd]. destruct hi as [h|]; apply G; auto. clear -F. generalize dependent (skipn lo l). generalize (h - lo). intros n. induction n as [|n IH]; intros l' F; cbn; [constructor|].
  destruct F; constructor; auto.
Qed.
Lemma map_eq_mid {A B} (f : A -> B) l a x b : map f l = a ++ x :: b -> exists la y lb, l = la ++ y :: lb /\ map f la = a /\ f y = x /\ map f lb = b.
Proof.
  revert l. induction a as [|z a IH]; intros [|y l] E; cbn in E; try discriminate.
  - injection E as <- <-. exists [], y, l. auto.
  - injection E as <- E. destruct (IH _ E) as (la & y' & lb & -> & <- & <- & <-). exists (y :: la), y', lb. auto.
Qed.
Lemma F2_mid {A B} (R : A -> B -> Prop) l a x b : Forall2 R l (a ++ x :: b) -> exists la y lb, l = la ++ y :: lb /\ Forall2 R la a /\ R y x /\ Forall2 R lb b.
Proof.
  intros F. apply Forall2_app_inv_r in F as (la & l2 & F1 & F2 & ->). inversion F2 as [|y ? lb ? K F3]; subst. exists la, y, lb. auto.
Qed.

Section Blank.
  Variables isupper islower isdigit isspace : nat -> bool.
  Variables (raw : list text) (tys : list ttype) (O : nat -> Prop) (P : nat -> nat -> Prop) (b : nat).
  Hypothesis blank_late : forall k, nth_error raw k = Some [] -> ~ O k -> b <= k.
  Hypothesis late_blank : forall k t, b <= k -> nth_error raw k = Some t -> t = [].
  Hypothesis late_plain : forall k, b <= k -> ~ O k.
  Notation convert := (to_nested isupper islower isdigit isspace raw tys [NWhiteSpaceLeaf; NNonContentLeaf] [NStringLiteral]).
  Notation kind := (p_type isspace raw tys).

  Lemma converted_deco n t : convert n = Ok (Deco t) -> p_ann n = ASibling /\ t = p_text raw n /\ (t = [] \/ white isspace t).
  Proof.
    rewrite convert_eq. intros E. apply bind_ok_inv in E as [ty [Ek E]]. destruct (mem ty [NWhiteSpaceLeaf; NNonContentLeaf]) eqn:Em.
    - injection E as <-. unfold p_type in Ek. destruct (p_ann n); try (injection Ek as <-; discriminate). split; auto. split; auto.
      destruct (p_children n); [|discriminate]. destruct (p_text raw n) as [|c s]; [now left|right].
      destruct (forallb isspace (c :: s)) eqn:Ew.
      + split; [discriminate|]. apply Forall_forall. now apply forallb_forall.
      + destruct (forallb (eqb TString) _); injection Ek as <-; discriminate.
    - destruct (mem ty [NStringLiteral]); [discriminate|]. destruct (p_children n); [discriminate|]. cbn zeta in E. match type of E with (if ?x then _ else _) = _ => destruct x end; [|discriminate]. apply bind_ok_inv in E as [l' [_ E]]. discriminate.
  Qed.
  Lemma converted_sibling_group n cs m : convert n = Ok (Group cs m) -> p_ann n = ASibling -> p_text raw n <> [].
  Proof.
    rewrite convert_eq. intros E Ha Et. apply bind_ok_inv in E as [ty [Ek E]]. unfold p_type in Ek. rewrite Ha, Et in Ek.
    destruct (p_children n); [|discriminate]. injection Ek as <-. discriminate.
  Qed.
  Lemma converted_spaced n : forall s, well_formed (length raw) n -> shaped P n -> tidy O n -> convert n = Ok s ->
    match s with Group cs _ => spaced isspace (map named cs) | _ => True end.
  Proof.
    induction n as [lo hi ann cs IH] using pnode_ind'. intros s Hw Hs Ht E. rewrite convert_eq in E. cbn [p_children] in E.
    apply bind_ok_inv in E as [ty [Ek E]]. destruct (mem ty [NWhiteSpaceLeaf; NNonContentLeaf]); [injection E as <-; exact I|].
    destruct (mem ty [NStringLiteral]).
    { injection E as <-. apply tokens_spaced. unfold subtokenize_token. rewrite map_map. apply Forall_forall. intros x Hx. apply in_map_iff in Hx as [y [<- _]]. exact I. }
    destruct cs as [|c0 cs0] eqn:Ecs; [injection E as <-; exact I|]. rewrite <- Ecs in *. clear Ecs.
    destruct (eqb _ _); [|discriminate]. apply bind_ok_inv in E as [l [El E]]. injection E as <-. apply mapM_ok_iff in El.
    inversion Hw as [? h ? ? W1 W2 W3 W4 W5]; subst. inversion Hs as [? ? ? ? S1 S2 S3 S4]; subst. inversion Ht as [? ? ? ? T1 T2 T3 T4]; subst.
    rewrite Forall_forall in W4, S4, T4, IH. constructor.
    - intros a t b' gs m c E.
      apply map_eq_mid in E as (la & x & lr & -> & _ & Ex & E). symmetry in E. symmetry in E. apply map_eq_mid in E as (lb & y & lc & -> & _ & Ey & _).
      assert (x = Deco t) as -> by (destruct x; cbn in Ex; congruence).
      assert (exists gs' m', y = Group gs' m') as (gs' & m' & ->) by (destruct y; cbn in Ey; try discriminate; eauto).
      apply F2_mid in El as (ca & cx & cr & -> & _ & Kx & El). apply F2_mid in El as (cb & cy & cc & -> & _ & Ky & _).
      destruct (converted_deco _ _ Kx) as [Ax [Et D]]. destruct D as [Et0|D]; auto. exfalso. subst t. symmetry in Et0.
      assert (Ix : In cx (ca ++ cx :: cb ++ cy :: cc)) by (apply in_or_app; right; now left).
      assert (Iy : In cy (ca ++ cx :: cb ++ cy :: cc)) by (apply in_or_app; right; right; apply in_or_app; right; now left).
      destruct (eq_dec ann APaired) as [->|Na].
      { destruct (S2 eq_refl) as (l0 & m0 & r0 & E3 & A1 & A2 & A3 & _). rewrite E3 in Ix. destruct Ix as [<-|[<-|[<-|[]]]]; congruence. }
      specialize (S3 Na). rewrite Forall_forall in S3. destruct (S3 _ Ix) as [_ [hx [Ehx Lx]]]. destruct (S3 _ Iy) as [Ay _].
      assert (Tl : tiles lo h (ca ++ cx :: cb ++ cy :: cc)) by (destruct W3 as [W3|W3]; auto; destruct ca; discriminate).
      destruct (tiles_order _ _ _ _ _ _ _ Tl) as [hx' [Ehx' Hle]]. assert (hx' = hx) by congruence. subst hx'.
      assert (Hsz : hx <= length raw) by (pose proof (W4 _ Ix) as Wx; inversion Wx; subst; cbn in Ehx; injection Ehx as ->; auto).
      assert (Bx : nth_error raw (p_lo cx) = Some []).
      { apply (slice_first raw _ hx Lx Hsz). unfold p_text in Et0. rewrite Ehx in Et0. symmetry. exact Et0. }
      assert (Lb : b <= p_lo cx).
      { apply blank_late; auto. pose proof (T4 _ Ix) as Tx. inversion Tx; subst. cbn in *. auto. }
      destruct Ay as [Ay|[Ay|Ay]].
      + apply (converted_sibling_group _ _ _ Ky Ay). unfold p_text. apply (slice_blank raw b); auto. lia.
      + pose proof (T4 _ Iy) as Ty. inversion Ty as [? ? ? ? _ Hy _ _]; subst. cbn in Ay, Hle. apply (late_plain lo0); [lia|auto].
      + destruct T3 as [T3|T3]; rewrite Forall_forall in T3; [specialize (T3 _ Ix); congruence|now apply (T3 _ Iy)].
    - intros gs m Hi. apply in_map_iff in Hi as (y & Ey & Hy). destruct y as [| | | | |gs' m']; try discriminate. cbn [named] in Ey. injection Ey as <- _.
      apply in_split in Hy as (la & lb & ->). apply F2_mid in El as (ca & cy & cc & -> & _ & Ky & _).
      assert (Iy : In cy (ca ++ cy :: cc)) by (apply in_or_app; right; now left).
      exact (IH _ Iy _ (W4 _ Iy) (S4 _ Iy) (T4 _ Iy) Ky).
  Qed.
End Blank.

(** ** The languages that are parsed directly. *)
Lemma flatten_no_groups {M} (ns : list (node M)) cs m : ~ In (Group cs m) (flatten_groups ns).
Proof.
  assert (G : forall n : node M, ~ In (Group cs m) (flatten_groups_node n)).
  { induction n as [t|t m'| | | |ds m' IH] using node_ind'; cbn [flatten_groups_node]; try (intros [C|[]]; discriminate).
    induction IH as [|x l Hx F IHF]; cbn; auto. intros C. apply in_app_iff in C as [C|C]; auto. }
  unfold flatten_groups. induction ns as [|n ns IH]; cbn; auto. intros C. apply in_app_iff in C as [C|C]; auto. now apply (G n).
Qed.
Section Direct.
  Variables isupper islower isdigit isspace digit : nat -> bool.
  Hypothesis digit_ascii : forall c, c < 128 -> digit c = (48 <=? c) && (c <=? 57).
  Notation lex := (preset_lex digit).
  Notation ty := (type_of digit).

  (** The tree before groups are split off. *)
  Lemma parsed_from l p code r : pseudo_parse (lex l) p code = Ok r ->
    exists sps root, stack_based_bracket_match (match_pairs p) true (codes r) = Ok root /\ split_parse root (codes r) sps (unsplittable_pairs p) None = Ok (tree r).
  Proof.
    unfold pseudo_parse. intros E. apply bind_ok_inv in E as [[c1 toks] [E1 E]].
    destruct (error_correcting_prefix_and_suffix (match_pairs p) toks) as [pre suf0]. apply bind_ok_inv in E as [[c2 suf] [E2 E]].
    apply bind_ok_inv in E as [ts [E3 E]]. apply bind_ok_inv in E as [rw [E4 E]]. apply bind_ok_inv in E as [tys [E5 E]]. apply bind_ok_inv in E as [un [E6 E]].
    match type of E with (if ?x then _ else _) = _ => destruct x end; [discriminate|]. apply bind_ok_inv in E as [sp [E7 E]]. match type of E with (if ?x then _ else _) = _ => destruct x end; [discriminate|]. injection E as <-. cbn [codes tree]. eauto.
  Qed.
  Lemma direct_tidy l p code r : pseudo_parse (lex l) p code = Ok r -> parse_of (lex l) (ty l) brackets (terminates l) code r -> inside (ty l) brackets p r ->
    tidy (fun k => exists t, nth_error (texts r) k = Some t /\ In t (openers brackets)) (tree r).
  Proof.
    intros E Hp Hi. set (O := fun k => exists t, nth_error (texts r) k = Some t /\ In t (openers brackets)).
    destruct Hi as [I1 I2 I3 I4 _]. pose proof (proper_codes _ _ _ I1 I4 proper_brackets) as HP.
    assert (Hb : balanced (match_pairs p) None (codes r)) by (apply (balanced_transfer _ _ _ _ _ I1 I4 I3), (po_balanced _ _ _ _ _ _ Hp)).
    destruct (parsed_from l p code r E) as (sps & root & Er & Es). destruct (match_tree _ HP true _ Hb (or_introl eq_refl)) as [ns [Fo Em]].
    rewrite Er in Em. injection Em as ->.
    assert (Tn : Forall (tidy O) ns).
    { apply (forest_tidy O (match_pairs p) (codes r) None 0 (codes r) ns Fo); [apply HP| |reflexivity].
      intros k o Ek. destruct (F2_nth _ _ _ I3 _ _ Ek) as [t [Et Kt]]. unfold O. rewrite Et. split.
      - intros [t' [[= <-] Ht]]. unfold openers in *. apply in_map_iff in Ht as [[x y] [<- Hxy]].
        clear -I4 Hxy Kt. induction I4 as [|ab ij pt ps [K1 K2] F IH]; [destruct Hxy|]. cbn [map]. destruct Hxy as [->|Hxy]; [left|right; auto].
        cbn [fst] in *. eapply knows_fun; eauto.
      - intros Ho. exists t. split; auto. unfold openers in *. apply in_map_iff in Ho as [[x y] [<- Hxy]].
        destruct (F2_In_r _ _ _ _ I4 Hxy) as [ab [Hab [K1 _]]]. cbn [fst] in *. apply in_map_iff. exists ab. split; auto. eapply knows_inj; eauto. }
    pose proof (forest_unsplit _ _ _ _ _ Fo) as Un.
    assert (Tr : tidy O (PNode 0 (Some (length (codes r))) ARoot ns)).
    { constructor; auto; try discriminate. right. eapply Forall_impl; [|exact Un]. intros n Hu. inversion Hu; auto. }
    assert (Ur : unsplit_tree (PNode 0 (Some (length (codes r))) ARoot ns)) by (constructor; auto; discriminate).
    unfold split_parse in Es. destruct sps; [injection Es as <-; auto|]. apply bind_ok_inv in Es as [x [Ex Es]]. injection Es as <-.
    exact (split_node_tidy O _ _ _ _ _ Ur Tr Ex).
  Qed.

  Theorem direct_spaced l flatten code ns : l = RawSimpleTokens \/ (exists d, l = Parsed (Direct d)) ->
    parse_to_named_nodes isupper islower isdigit isspace digit l flatten code = Ok ns -> spaced isspace ns.
  Proof using digit_ascii.
    unfold parse_to_named_nodes. intros Hl E. apply bind_ok_inv in E as [ns0 [E E']]. injection E' as <-. destruct Hl as [->|[d ->]]; cbn [parse_to_nodes] in E.
    { injection E as <-. apply tokens_spaced. unfold subtokenize_token. rewrite map_map. apply Forall_forall. intros x Hx. apply in_map_iff in Hx as [y [<- _]]. exact I. }
    cbn [bind] in E. apply bind_ok_inv in E as [o [Eo E]]. apply bind_ok_inv in E as [root [En E]]. injection E as <-.
    assert (S1 : spaced isspace [named root]).
    2: { destruct flatten; [|exact S1]. apply no_groups_spaced. intros cs m C. apply in_map_iff in C as [x [Ex C]]. destruct x; try discriminate. exact (flatten_no_groups [root] _ _ C). }
    destruct (preset_parse_inside digit digit_ascii d code) as [p [r [Ep [Er [Hp [Hi _]]]]]].
    cbn [parse_and_maybe_preprocess] in Eo. rewrite Ep in Eo. cbn [bind] in Eo. rewrite Er in Eo. cbn [bind] in Eo. injection Eo as <-. cbn [o_tree o_texts o_types o_raws] in En.
    destruct (po_texts _ _ _ _ _ _ Hp) as (pre & post & L1 & L2 & Et & Ipre & Ipost & _).
    pose proof (po_raws _ _ _ _ _ _ Hp) as Hr. set (toks := map fst (lex d code)) in *.
    assert (Lr : length (raws r) = length (texts r)) by (rewrite Hr, Et, !app_length, !repeat_length; unfold text in *; lia).
    assert (Ne : Forall (fun t => t <> []) toks).
    { unfold toks. apply Forall_map. apply (preset_nonempty digit digit_ascii d code). }
    pose proof (converted_spaced isupper islower isdigit isspace (raws r) (types r) (fun k => exists t, nth_error (texts r) k = Some t /\ In t (openers brackets))
      (fun a b => exists o c, nth_error (texts r) a = Some o /\ nth_error (texts r) b = Some c /\ In (o, c) brackets) (n_pre r + length toks)) as K.
    specialize (fun A B C => K A B C (tree r) root).
    assert (G : match root with Group cs _ => spaced isspace (map named cs) | _ => True end).
    { apply K; auto.
      - intros k Ek No. destruct (le_lt_dec (n_pre r + length toks) k) as [|Lt]; auto. exfalso. destruct (le_lt_dec (n_pre r) k) as [Le|Lt'].
        + rewrite Hr, nth_error_app2, repeat_length in Ek by (rewrite repeat_length; lia). rewrite nth_error_app1 in Ek by lia. apply nth_error_In in Ek.
          rewrite Forall_forall in Ne. now apply (Ne _ Ek).
        + apply No. rewrite Et, nth_error_app1 by (unfold text in *; lia). destruct (nth_error pre k) as [t|] eqn:Ek'; [|apply nth_error_None in Ek'; unfold text in *; lia].
          exists t. split; auto. apply Ipre. now apply nth_error_In in Ek'.
      - intros k t Hk Ek. rewrite Hr, app_assoc, nth_error_app2 in Ek by (rewrite app_length, repeat_length; lia). apply nth_error_In, repeat_spec in Ek. exact Ek.
      - intros k Hk [t [Ek Ho]]. rewrite Et, app_assoc, nth_error_app2 in Ek by (rewrite app_length; unfold text in *; lia). apply nth_error_In in Ek. apply Ipost in Ek.
        destruct Ek as [<-|Ek]; [cbn in Ho; intuition discriminate|]. destruct proper_brackets as [_ [_ D]]. now apply (D t).
      - rewrite Lr. apply (po_wf _ _ _ _ _ _ Hp).
      - apply (po_shape _ _ _ _ _ _ Hp).
      - eapply direct_tidy; eauto. }
    constructor.
    - intros a t b cs m c C. exfalso. assert (L := f_equal (@length _) C). rewrite !app_length in L. cbn [length] in L. rewrite app_length in L. cbn [length] in L. lia.
    - intros cs m [C|[]]. destruct root; try discriminate. cbn [named] in C. injection C as <- _. exact G.
  Qed.
End Direct.
