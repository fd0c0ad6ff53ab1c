(** C79: the printed form of a pseudo-parse tree.  Specification: [PrintSpec.v]; [lines_of], the lines of a text, is of
    [DrawSpec.v]. *)

From Coq Require Import String DecimalString DecimalNat.
From Coq Require Import List Bool Arith Lia.
From Verif Require Import Base SeqNodes StackParser Drawing DrawSpec Html Show Properties_Debug TreePrint PrintSpec.
Import ListNotations.
Close Scope string_scope. Open Scope nat_scope. Open Scope list_scope.

(** ** Numbers *)
Lemma digit_chars d : Forall (fun c => 48 <= c <= 57) (chars (NilEmpty.string_of_uint d)).
Proof. induction d; cbn [NilEmpty.string_of_uint chars]; constructor; auto; cbv; lia. Qed.
Lemma number_chars i : Forall (fun c => 48 <= c <= 57) (number_text i).
Proof. unfold number_text, NilZero.string_of_uint. destruct (Nat.to_uint i); try apply digit_chars. cbn. constructor; [lia|constructor]. Qed.
Lemma chars_inj s : forall s', chars s = chars s' -> s = s'.
Proof.
  induction s as [|c s IH]; intros [|c' s'] E; cbn in E; try discriminate; auto. injection E as E1 E2. f_equal; auto.
  rewrite <- (Ascii.ascii_nat_embedding c), <- (Ascii.ascii_nat_embedding c'). now rewrite E1.
Qed.
Lemma uint_not_nil i : Nat.to_uint i <> Decimal.Nil.
Proof. intros E. pose proof (Unsigned.of_to i) as H. rewrite E in H. cbn in H. subst i. discriminate. Qed.
Lemma number_inj i j : number_text i = number_text j -> i = j.
Proof.
  intros E. apply chars_inj in E. apply Unsigned.to_uint_inj.
  assert (H : Some (Nat.to_uint i) = Some (Nat.to_uint j)); [|congruence].
  rewrite <- (NilZero.usu (Nat.to_uint i) (uint_not_nil i)), <- (NilZero.usu (Nat.to_uint j) (uint_not_nil j)). now rewrite E.
Qed.
Lemma number_without i c : c < 48 \/ 57 < c -> ~ In c (number_text i).
Proof. intros H I. pose proof (number_chars i) as F. rewrite Forall_forall in F. specialize (F c I). lia. Qed.
Lemma end_without h c : c < 48 -> ~ In c (optional_text h).
Proof. intros H. destruct h as [h|]; [apply number_without; auto|]. cbn. lia. Qed.
Lemma end_inj h h' : optional_text h = optional_text h' -> h = h'.
Proof.
  destruct h as [h|], h' as [h'|]; cbn [optional_text]; intros E; auto.
  - f_equal. now apply number_inj.
  - exfalso. apply (number_without h 78); [lia|]. rewrite E. now left.
  - exfalso. apply (number_without h' 78); [lia|]. rewrite <- E. now left.
Qed.

Section Printed.
  Variable unquoted : text -> text.
  Variable isspace : nat -> bool.
  Local Notation rows := (print_rows unquoted).
  Local Notation printed := (human_readable_string unquoted isspace).

  Lemma node_words n : node_text n = words_for n.
  Proof. unfold node_text, words_for. now destruct (p_ann n). Qed.
  Lemma indent d : concat (repeat (chars "   ") d) = repeat 32 (3 * d).
  Proof. induction d as [|d IH]; [reflexivity|]. cbn [repeat concat]. rewrite IH. replace (3 * S d) with (3 + 3 * d) by lia. reflexivity. Qed.
  Definition row (tokens : list text) (x : nat * pnode) : text * text := (mask_view unquoted tokens (snd x), repeat 32 (3 * fst x) ++ words_for (snd x)).
  Lemma rows_outline tokens n : forall d, rows tokens d n = map (row tokens) (outline d n).
  Proof.
    induction n as [lo hi a cs F] using pnode_ind'; intros d. cbn [print_rows outline map]. f_equal.
    - unfold row. cbn [fst snd]. now rewrite indent, node_words.
    - induction F as [|c cs Hc F IH]; [reflexivity|]. cbn [flat_map]. now rewrite map_app, Hc, IH.
  Qed.
  Lemma widest_in l t : In t l -> length t <= widest l.
  Proof. induction l as [|x l IH]; intros H; [destruct H|]. cbn [widest fold_right]. destruct H as [<-|I]; [|apply IH in I; unfold widest in I]; lia. Qed.

  Hypothesis space_blank : isspace 32 = true.
  Hypothesis space_newline : isspace 10 = true.
  Hypothesis space_bar : isspace 124 = false.
  Hypothesis space_close : isspace 41 = false.
  Hypothesis unquoted_line : forall t, ~ In 10 (unquoted t).

  (** A row as a line, before the blanks at its end. *)
  Definition line (tokens : list text) (w : nat) (x : nat * pnode) : text :=
    chars "| " ++ ljust (mask_view unquoted tokens (snd x)) w ++ chars " | " ++ repeat 32 (3 * fst x) ++ words_for (snd x).
  Lemma words_end n : exists t, words_for n = t ++ [41].
  Proof. unfold words_for. rewrite !app_assoc. change (chars ")") with [41]. eauto. Qed.
  Lemma line_end tokens w x : exists t, line tokens w x = t ++ [41].
  Proof. destruct (words_end (snd x)) as [t E]. unfold line. rewrite E, !app_assoc. eauto. Qed.
  Lemma lstrip_blanks k t : lstrip isspace (repeat 32 k ++ t) = lstrip isspace t.
  Proof using space_blank. induction k as [|k IH]; [reflexivity|]. cbn. now rewrite space_blank. Qed.
  Lemma rev_blanks k : rev (repeat 32 k) = repeat 32 k.
  Proof. clear. induction k as [|k IH]; [reflexivity|]. cbn [repeat rev]. rewrite IH. clear IH. induction k as [|k IH]; [reflexivity|]. cbn. now rewrite IH. Qed.
  Lemma strip_last t u k : strip isspace ((124 :: t) ++ u ++ [41] ++ repeat 32 k ++ newline) = (124 :: t) ++ u ++ [41].
  Proof using space_blank space_newline space_bar space_close.
    unfold strip. cbn [app lstrip]. rewrite space_bar.
    replace (rev (124 :: t ++ u ++ 41 :: repeat 32 k ++ newline)) with (10 :: repeat 32 k ++ 41 :: rev (124 :: t ++ u)).
    2:{ change (124 :: t ++ u ++ 41 :: repeat 32 k ++ newline) with ((124 :: t ++ u ++ 41 :: repeat 32 k ++ newline)).
        replace (124 :: t ++ u ++ 41 :: repeat 32 k ++ newline) with ((124 :: t ++ u) ++ [41] ++ repeat 32 k ++ [10]).
        2:{ cbn [app]. rewrite <- !app_assoc. reflexivity. }
        rewrite !rev_app_distr, rev_blanks. cbn [rev app]. now rewrite <- !app_assoc. }
    cbn [lstrip]. rewrite space_newline, lstrip_blanks. cbn [lstrip]. rewrite space_close. cbn [rev]. rewrite rev_app_distr, rev_involutive. cbn. now rewrite <- app_assoc.
  Qed.
  Lemma join_two a b s : join s [a; b] = a ++ s ++ b.
  Proof. reflexivity. Qed.
  Lemma printed_lines tokens n :
    exists w pad, (forall x, In x (outline 0 n) -> length (mask_view unquoted tokens (snd x)) <= w) /\
      printed tokens n = join newline (map (fun x => line tokens w x ++ repeat 32 (pad x)) (removelast (outline 0 n)) ++ map (line tokens w) [last (outline 0 n) (0, n)]).
  Proof using space_blank space_newline space_bar space_close.
    unfold human_readable_string. rewrite rows_outline. set (w := widest (map fst _)). set (w2 := widest (map snd _)).
    set (pad := fun x : nat * pnode => w2 - length (repeat 32 (3 * fst x) ++ words_for (snd x))).
    exists w, pad. split.
    { intros x I. apply widest_in. rewrite map_map. apply in_map_iff. exists x. auto. }
    rewrite map_map.
    replace (map _ (outline 0 n)) with (map (fun x => line tokens w x ++ repeat 32 (pad x) ++ newline) (outline 0 n)).
    2:{ apply map_ext. intros x. unfold line, row, pad, ljust. cbn [fst snd]. rewrite join_two. rewrite <- !app_assoc. reflexivity. }
    assert (N : outline 0 n <> []) by (destruct n; discriminate). clearbody pad w. clear w2.
    rewrite (app_removelast_last (0, n) N) at 1. set (l := removelast _). set (z := last _ _).
    rewrite map_app, concat_app. cbn [map concat]. rewrite app_nil_r.
    destruct (line_end tokens w z) as [t E].
    assert (J : forall l, concat (map (fun x => line tokens w x ++ repeat 32 (pad x) ++ newline) l) ++ line tokens w z =
       join newline (map (fun x => line tokens w x ++ repeat 32 (pad x)) l ++ [line tokens w z])).
    { induction l0 as [|x l0 IH]; [reflexivity|]. cbn [map concat app].
      replace (join newline ((line tokens w x ++ repeat 32 (pad x)) :: map (fun x0 => line tokens w x0 ++ repeat 32 (pad x0)) l0 ++ [line tokens w z]))
        with ((line tokens w x ++ repeat 32 (pad x)) ++ newline ++ join newline (map (fun x0 => line tokens w x0 ++ repeat 32 (pad x0)) l0 ++ [line tokens w z])).
      2:{ destruct (map (fun x0 => line tokens w x0 ++ repeat 32 (pad x0)) l0); reflexivity. }
      rewrite <- IH, <- !app_assoc. reflexivity. }
    rewrite <- J. destruct (line tokens w z) as [|c t'] eqn:Ez; [unfold line in Ez; discriminate|].
    rewrite E. rewrite <- !app_assoc.
    assert (B : exists b, concat (map (fun x => line tokens w x ++ repeat 32 (pad x) ++ newline) l) ++ t = 124 :: b).
    { destruct l as [|x l0]; cbn [map concat app].
      - destruct t as [|c1 t1]; [cbn in E; injection E as -> ->; unfold line in Ez; discriminate|]. cbn in E. injection E as -> _. unfold line in Ez. injection Ez as <- _. eauto.
      - unfold line. cbn [app chars]. eauto. }
    destruct B as [b B]. rewrite !app_assoc, B. rewrite <- !app_assoc. 
    exact (strip_last b [] (pad z)).
  Qed.
  Lemma row_line tokens w k x : ~ In 10 (line tokens w x ++ repeat 32 k).
  Proof using unquoted_line.
    assert (A : forall x y : text, ~ In 10 x -> ~ In 10 y -> ~ In 10 (x ++ y)) by (clear; intros a b Ha Hb I; apply in_app_or in I; tauto).
    assert (R : forall k, ~ In 10 (repeat 32 k)) by (clear; intros k I; apply repeat_spec in I; discriminate).
    assert (C : forall s, forallb (fun c => negb (c =? 10)) (chars s) = true -> ~ In 10 (chars s)) by (clear; intros s H I; rewrite forallb_forall in H; now specialize (H _ I)).
    unfold line, ljust, words_for, mask_view. repeat apply A; auto; try (apply C; reflexivity).
    - destruct tokens; [intros []|apply unquoted_line].
    - apply number_without. lia.
    - apply (end_without (p_hi (snd x))). lia.
    - destruct (p_ann (snd x)); apply C; reflexivity.
  Qed.
  Lemma printed_split tokens n : exists w pad,
    (forall x, In x (outline 0 n) -> length (mask_view unquoted tokens (snd x)) <= w) /\
    lines_of (printed tokens n) (map (fun x => line tokens w (fst x) ++ repeat 32 (snd x)) (combine (outline 0 n) pad)) /\ length pad = length (outline 0 n).
  Proof using space_blank space_newline space_bar space_close unquoted_line.
    destruct (printed_lines tokens n) as (w & pad & Hw & E). pose proof (app_removelast_last (0, n) (l := outline 0 n)) as Q0.
    set (l := removelast (outline 0 n)) in *. set (z := last (outline 0 n) (0, n)) in *. exists w, (map pad l ++ [0]). split; auto.
    assert (N : outline 0 n <> []) by (destruct n; discriminate).
    specialize (Q0 N). clearbody l z. rewrite Q0. split; [|rewrite !app_length, map_length; reflexivity].
    replace (map _ (combine (l ++ [z]) (map pad l ++ [0]))) with (map (fun x => line tokens w x ++ repeat 32 (pad x)) l ++ [line tokens w z]).
    2:{ clear. induction l as [|x l IH]; cbn [map app combine fst snd repeat]; [now rewrite app_nil_r|]. now rewrite IH. }
    rewrite E. cbn [map]. destruct (map (fun x => line tokens w x ++ repeat 32 (pad x)) l ++ [line tokens w z]) as [|y ys] eqn:Q; [destruct l; discriminate|].
    apply join_lines. rewrite <- Q. apply Forall_app. split.
    - apply Forall_forall. intros t I. apply in_map_iff in I as (x & <- & _). apply row_line.
    - constructor; [|constructor]. rewrite <- (app_nil_r (line tokens w z)). exact (row_line tokens w 0 z).
  Qed.
End Printed.

(** ** Highlighting *)
Section Highlight.
  Variable unquoted : text -> text.
  Variable plain : nat -> Prop.
  Hypothesis unquoted_plain : forall t, Forall plain t -> unquoted t = t.
  Hypothesis plain_underscore : plain 95.
  Lemma mask_pieces tokens : Forall (Forall plain) tokens -> forall lo hi i, lo <= hi ->
    mask unquoted lo hi i tokens = repeat 95 (length (concat (firstn (lo - i) tokens))) ++ concat (skipn (lo - i) (firstn (hi - i) tokens)) ++
      repeat 95 (length (concat (skipn (hi - i) tokens))).
  Proof using unquoted_plain.
    induction 1 as [|t tokens Ht F IH]; intros lo hi i L; [cbn; now rewrite !firstn_nil, !skipn_nil|].
    cbn [mask]. rewrite (IH lo hi (S i) L), (unquoted_plain t Ht).
    destruct (lo <=? i) eqn:A; [apply Nat.leb_le in A|apply Nat.leb_gt in A].
    - replace (lo - i) with 0 by lia. replace (lo - S i) with 0 by lia. cbn [firstn concat length repeat app skipn andb].
      destruct (i <? hi) eqn:B; [apply Nat.ltb_lt in B|apply Nat.ltb_ge in B].
      + replace (hi - i) with (S (hi - S i)) by lia. cbn [firstn skipn concat]. now rewrite app_assoc.
      + replace (hi - i) with 0 by lia. replace (hi - S i) with 0 by lia. cbn [firstn skipn concat app]. now rewrite app_length, repeat_app.
    - cbn [andb]. replace (lo - i) with (S (lo - S i)) by lia. replace (hi - i) with (S (hi - S i)) by lia. cbn [firstn skipn concat].
      now rewrite app_length, repeat_app, <- app_assoc.
  Qed.
  Lemma mask_plain tokens : Forall (Forall plain) tokens -> forall lo hi i, Forall plain (mask unquoted lo hi i tokens).
  Proof using unquoted_plain plain_underscore.
    induction 1 as [|t tokens Ht F IH]; intros lo hi i; [constructor|]. cbn [mask]. apply Forall_app. split; auto. rewrite (unquoted_plain t Ht).
    destruct ((lo <=? i) && (i <? hi)); auto. apply Forall_forall. intros c I. apply repeat_spec in I. now subst.
  Qed.
  Lemma view_highlights tokens n hi : Forall (Forall plain) tokens -> p_hi n = Some hi -> 0 < hi -> p_lo n <= hi ->
    highlights tokens (p_lo n) hi (mask_view unquoted tokens n).
  Proof using unquoted_plain plain_underscore.
    intros F E H L. unfold highlights, mask_view. rewrite E. destruct tokens as [|t tokens]; [now rewrite !firstn_nil, !skipn_nil|].
    destruct hi as [|h]; [lia|]. rewrite (unquoted_plain _ (mask_plain _ F _ _ _)), (mask_pieces _ F) by auto. now rewrite !Nat.sub_0_r.
  Qed.
End Highlight.

(** ** C79.  A printed tree has a line for every node, in reading order, in two columns of equal width: the second tells
    the node after three blanks for every ancestor; the first is made of the tokens of the node within the text, all
    others being underscores, if nothing in the tokens needs quoting and the node does not end at 0. *)
Theorem C79_printed_lines :
  forall (unquoted : text -> text) (isspace : nat -> bool) (plain : nat -> Prop) (tokens : list text) (tree : pnode),
    isspace 32 = true -> isspace 10 = true -> isspace 124 = false -> isspace 41 = false ->
    (forall t, ~ In 10 (unquoted t)) -> (forall t, Forall plain t -> unquoted t = t) -> plain 95 ->
    exists lines width, lines_of (human_readable_string unquoted isspace tokens tree) lines /\
      Forall2 (fun (x : nat * pnode) line => let '(depth, n) := x in
          exists view blanks blanks', line = chars "| " ++ (view ++ repeat 32 blanks) ++ chars " | " ++ repeat 32 (3 * depth) ++ words_for n ++ repeat 32 blanks' /\
            length (view ++ repeat 32 blanks) = width /\
            (forall hi, Forall (Forall plain) tokens -> p_hi n = Some hi -> 0 < hi -> p_lo n <= hi -> highlights tokens (p_lo n) hi view))
        (outline 0 tree) lines.
Proof.
  intros unquoted isspace plain tokens tree S1 S2 S3 S4 U1 U2 U3. destruct (printed_split unquoted isspace S1 S2 S3 S4 U1 tokens tree) as (w & pad & Hw & L & E).
  eexists _, w. split; [exact L|]. clear L. revert pad E Hw. generalize (outline 0 tree). induction l as [|[d n] l IH]; intros [|p pad] E Hw; try discriminate; [constructor|].
  cbn [combine map]. constructor; [|apply IH; [now injection E|intros x I; apply Hw; now right]].
  exists (mask_view unquoted tokens n), (w - length (mask_view unquoted tokens n)), p. splits.
  - unfold line, ljust. cbn [fst snd]. now rewrite <- !app_assoc.
  - rewrite app_length, repeat_length. specialize (Hw (d, n) (or_introl eq_refl)). cbn [snd] in Hw. lia.
  - intros hi F H1 H2 H3. now apply (view_highlights unquoted plain).
Qed.
Print Assumptions C79_printed_lines.

(** ** C79.  The printed form determines the tree, whatever the tokens and the way of quoting. *)
Lemma tail_inj x x' (a a' : text) k k' p p' :
  a ++ [124; 32] ++ repeat 32 k ++ words_for x ++ repeat 32 p = a' ++ [124; 32] ++ repeat 32 k' ++ words_for x' ++ repeat 32 p' ->
  k = k' /\ p_lo x = p_lo x' /\ p_hi x = p_hi x' /\ p_ann x = p_ann x'.
Proof.
  intros E.
  assert (W : forall n, exists t, words_for n = [78; 111; 100; 101; 40] ++ t ++ [41] /\ ~ In 40 t /\
    t = number_text (p_lo n) ++ 45 :: optional_text (p_hi n) ++ 44 :: 32 :: chars (annotation_word (p_ann n))).
  { intros n. eexists. splits; [|clear|reflexivity].
    - unfold words_for, optional_text. cbn [chars]. rewrite <- !app_assoc. cbn [app]. rewrite <- !app_assoc. reflexivity.
    - intros I. apply in_app_or in I as [I|[I|I]]; [revert I; apply number_without; lia|discriminate|].
      apply in_app_or in I as [I|[I|[I|I]]]; [revert I; apply end_without; lia|discriminate|discriminate|].
      destruct (p_ann n); cbn in I; lia. }
  destruct (W x) as (t & E1 & N1 & T1). destruct (W x') as (t' & E2 & N2 & T2). rewrite E1, E2 in E. clear W E1 E2.
  apply (f_equal (@rev nat)) in E. rewrite !rev_app_distr, !rev_blanks in E. cbn [rev app] in E. rewrite <- !app_assoc in E. cbn [app] in E.
  apply blanks_inj in E as [-> E]; [|discriminate|discriminate]. injection E as E. rewrite <- ?app_assoc in E. cbn [app] in E.
  assert (R : forall u, ~ In 40 u -> ~ In 40 (rev u)) by (intros u N I; now apply in_rev in I).
  apply closing in E as [Et E]; auto. injection E as E.
  assert (Et' : t = t') by (rewrite <- (rev_involutive t), <- (rev_involutive t'); congruence). clear Et. subst t. subst t'.
  assert (B : forall k (u : text), repeat 32 k ++ 32 :: u = repeat 32 (k + 1) ++ u) by (clear; intros k u; rewrite repeat_app, <- app_assoc; reflexivity).
  rewrite !B in E. apply (blanks_inj _ _ 124 124) in E as [Ed _]; [|discriminate|discriminate].
  apply closing in Et' as [E1 Et']; try (apply number_without; lia). apply closing in Et' as [E2 Et']; try (apply end_without; lia).
  apply number_inj in E1. apply end_inj in E2. splits; auto; [lia|]. destruct (p_ann x), (p_ann x'); cbn in Et'; auto; discriminate.
Qed.
Definition same (a b : list (nat * pnode)) : Prop :=
  Forall2 (fun x y => fst x = fst y /\ p_lo (snd x) = p_lo (snd y) /\ p_hi (snd x) = p_hi (snd y) /\ p_ann (snd x) = p_ann (snd y)) a b.
Definition outside (d : nat) (r : list (nat * pnode)) : Prop := match r with [] => True | x :: _ => fst x <= d end.
Lemma outline_inj n : forall d n' r r', outside d r -> outside d r' -> same (outline d n ++ r) (outline d n' ++ r') -> n = n' /\ same r r'.
Proof.
  induction n as [lo hi a cs F] using pnode_ind'. intros d [lo' hi' a' cs'] r r' O O' S. cbn [outline app] in S.
  inversion S as [|? ? ? ? (_ & A1 & A2 & A3) S']; subst. cbn in A1, A2, A3. subst lo' hi' a'. clear S.
  assert (G : cs = cs' /\ same r r'); [|destruct G as [-> G]; auto].
  revert cs' S'. induction F as [|c cs Hc F IH]; intros [|c1 cs1] S'; cbn [flat_map app] in S'.
  - auto.
  - exfalso. destruct c1 as [? ? ? ?]. cbn [outline app] in S'. destruct r as [|x r]; inversion S' as [|? ? ? ? [? _] _]. cbn in *. lia.
  - exfalso. destruct c as [? ? ? ?]. cbn [outline app] in S'. destruct r' as [|x r']; inversion S' as [|? ? ? ? [? _] _]. cbn in *. lia.
  - rewrite <- !app_assoc in S'.
    assert (P : forall l r0, outside d r0 -> outside (S d) (flat_map (outline (S d)) l ++ r0)).
    { intros l r0 Ho. destruct l as [|[? ? ? ?] l]; cbn; [destruct r0; cbn in *; auto|]. lia. }
    destruct (Hc (S d) c1 _ _ (P cs r O) (P cs1 r' O') S') as [-> S2]. destruct (IH cs1 S2) as [-> S3]. auto.
Qed.
Lemma cons_eq {A} (a b : A) l l' : a :: l = b :: l' -> a = b /\ l = l'.
Proof. intros E. now injection E. Qed.
Theorem C79_printed_form_determines_tree :
  forall (unquoted : text -> text) (isspace : nat -> bool) (tokens tokens' : list text) (tree tree' : pnode),
    isspace 32 = true -> isspace 10 = true -> isspace 124 = false -> isspace 41 = false -> (forall t, ~ In 10 (unquoted t)) ->
    human_readable_string unquoted isspace tokens tree = human_readable_string unquoted isspace tokens' tree' -> tree = tree'.
Proof.
  intros unquoted isspace tokens tokens' tree tree' S1 S2 S3 S4 U E.
  destruct (printed_split unquoted isspace S1 S2 S3 S4 U tokens tree) as (w & pad & _ & L & Ep).
  destruct (printed_split unquoted isspace S1 S2 S3 S4 U tokens' tree') as (w' & pad' & _ & L' & Ep'). rewrite E in L.
  pose proof (lines_of_unique _ _ _ L L') as K. clear L L' E.
  assert (G : same (outline 0 tree) (outline 0 tree')).
  { revert pad pad' Ep Ep' K. generalize (outline 0 tree) (outline 0 tree'). clear. induction l as [|[d n] l IH]; intros [|[d' n'] l'] [|p pad] [|p' pad'] Ep Ep' K; try discriminate; [constructor|].
    cbn [combine map fst snd] in K. apply cons_eq in K as [K1 K2]. constructor; [|apply (IH l' pad pad'); auto].
    assert (T : 3 * d = 3 * d' /\ p_lo n = p_lo n' /\ p_hi n = p_hi n' /\ p_ann n = p_ann n').
    { apply (tail_inj n n' (chars "| " ++ ljust (mask_view unquoted tokens n) w ++ [32]) (chars "| " ++ ljust (mask_view unquoted tokens' n') w' ++ [32]) _ _ p p').
      unfold line in K1. cbn [fst snd] in K1. rewrite <- !app_assoc. rewrite <- !app_assoc in K1. exact K1. }
    cbn [fst snd]. destruct T as (T1 & T2). split; [lia|exact T2]. }
  rewrite <- (app_nil_r (outline 0 tree)), <- (app_nil_r (outline 0 tree')) in G. now apply outline_inj in G.
Qed.
Print Assumptions C79_printed_form_determines_tree.

(** Finding: an end of 0 is taken for no end, so that an empty node at the start of the text is shown with the first
    token, as the node of the first token is. *)
Theorem C79_empty_node_refuted :
  forall (unquoted : text -> text) (first : text) (rest : list text) (plain : nat -> Prop),
    (forall t, Forall plain t -> unquoted t = t) -> plain 95 -> Forall (Forall plain) (first :: rest) -> first <> [] -> ~ In 95 first ->
    exists n, p_lo n = 0 /\ p_hi n = Some 0 /\ ~ highlights (first :: rest) 0 0 (mask_view unquoted (first :: rest) n) /\
      highlights (first :: rest) 0 1 (mask_view unquoted (first :: rest) n).
Proof.
  intros unquoted first rest plain U P F N H. exists (PNode 0 (Some 0) ASibling []). splits; auto.
  - change (mask_view unquoted (first :: rest) (PNode 0 (Some 0) ASibling [])) with (mask_view unquoted (first :: rest) (PNode 0 (Some 1) ASibling [])).
    rewrite (view_highlights unquoted plain U P (first :: rest) (PNode 0 (Some 1) ASibling []) 1 F eq_refl); [|lia|cbn; lia].
    unfold highlights. cbn [p_lo firstn skipn concat length repeat app]. rewrite app_nil_r, app_length, repeat_app. intros E.
    destruct first as [|c t]; [congruence|]. cbn in E. injection E as E _. apply H. now left.
  - change (mask_view unquoted (first :: rest) (PNode 0 (Some 0) ASibling [])) with (mask_view unquoted (first :: rest) (PNode 0 (Some 1) ASibling [])).
    apply (view_highlights unquoted plain U P); auto.
Qed.
Print Assumptions C79_empty_node_refuted.

(** Hypotheses met: a way of quoting, and the beginning of the first tree of stack_parser_test.py:60-82. *)
Definition ex_unquoted (t : text) : text := filter (fun c => negb (c =? 10)) t.
Definition ex_space (c : nat) : bool := (c =? 32) || (c =? 10).
Definition ex_tree : pnode :=
  PNode 0 (Some 6) ARoot [PNode 0 (Some 1) ASibling []; PNode 1 (Some 2) ASibling [];
    PNode 2 (Some 6) APaired [PNode 2 (Some 3) ALeft []; PNode 3 (Some 5) AMiddle [PNode 3 (Some 4) ASibling []; PNode 4 (Some 5) ASibling []]; PNode 5 (Some 6) ARight []]].
Example C79_hypotheses :
  ex_space 32 = true /\ ex_space 10 = true /\ ex_space 124 = false /\ ex_space 41 = false /\ (forall t, ~ In 10 (ex_unquoted t)) /\
  (forall t, Forall (fun c => c <> 10) t -> ex_unquoted t = t) /\
  human_readable_string ex_unquoted ex_space (map (fun c => [c]) (chars "ab{cd}")) ex_tree = chars "| ab{cd} | Node(0-6, root)            
| a_____ |    Node(0-1, sibling)      
| _b____ |    Node(1-2, sibling)      
| __{cd} |    Node(2-6, paired)       
| __{___ |       Node(2-3, left)      
| ___cd_ |       Node(3-5, middle)    
| ___c__ |          Node(3-4, sibling)
| ____d_ |          Node(4-5, sibling)
| _____} |       Node(5-6, right)".
Proof.
  splits; try reflexivity.
  - intros t I. apply filter_In in I as [_ I]. discriminate.
  - induction 1 as [|c t H F IH]; [reflexivity|]. cbn. apply Nat.eqb_neq in H. rewrite H. cbn. now f_equal.
Qed.
