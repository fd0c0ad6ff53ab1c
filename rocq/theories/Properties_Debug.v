(** C75: the debug view of sequence nodes.  Specification: [DebugSpec.v]; [lines_of], the lines of a text, is of [DrawSpec.v]. *)

From Coq Require Import String.
From Coq Require Import List Bool Arith Lia.
From Verif Require Import Base Drawing DrawSpec DrawingProofs SeqNodes Html DebugView DebugSpec.
Import ListNotations.
Close Scope string_scope. Open Scope nat_scope. Open Scope list_scope.

Lemma join_lines x l : Forall (fun t => ~ In 10 t) (x :: l) -> lines_of (join newline (x :: l)) (x :: l).
Proof.
  revert x. induction l as [|y l IH]; intros x F; inversion F; subst; [now constructor|].
  change (join newline (x :: y :: l)) with (x ++ 10 :: join newline (y :: l)). constructor; auto.
Qed.
Lemma closing k t t' (s s' : text) : ~ In k t -> ~ In k t' -> t ++ k :: s = t' ++ k :: s' -> t = t' /\ s = s'.
Proof.
  revert t'. induction t as [|c t IH]; intros [|c' t'] N N' E; cbn in E.
  - split; congruence.
  - destruct N'. left. congruence.
  - destruct N. left. congruence.
  - injection E as -> E. destruct (IH t' (fun K => N (or_intror K)) (fun K => N' (or_intror K)) E) as [-> ->]. auto.
Qed.
Lemma lines_of_unique t : forall ls ls', lines_of t ls -> lines_of t ls' -> ls = ls'.
Proof.
  intros ls ls' H. revert ls'. induction H as [t Ht|a b ls Ha Hb IH]; intros ls' H'; inversion H'; subst; auto.
  - exfalso. apply Ht. apply in_or_app. right. now left.
  - exfalso. apply H. apply in_or_app. right. now left.
  - match goal with E : _ = a ++ 10 :: b |- _ => apply closing in E as [-> ->]; auto end. f_equal. now apply IH.
Qed.

Section Debug.
  Context {M : Type} (repr : text -> text) (type_text : M -> option text).
  Local Notation helper := (render_debug_helper repr type_text).
  Local Notation view := (render_debug repr type_text).
  (** The heading of a node, without the indentation *)
  Definition heading (n : node M) : text :=
    match n with
    | Deco t => chars "DEC: " ++ summarize_contents repr t
    | Token t m => debug_header type_text (chars "TOK") m ++ summarize_contents repr t
    | Group cs m => debug_header type_text (chars "GROUP") m ++ summarize_contents repr (render_node (Group cs m))
    | RegionStart => chars "RegionStartNode()" | RegionEnd => chars "RegionEndNode()" | EarlyExit => chars "EarlyExitNode()"
    end.
  Definition indented (x : nat * node M) : text := repeat 32 (2 * fst x) ++ heading (snd x).
  Fixpoint below (l : list (node M)) : list text * list text :=
    match l with
    | [] => ([], [])
    | c :: l' => let '(t, v) := helper c in let '(ts, vs) := below l' in (t :: ts, v ++ vs)
    end.
  Lemma helper_unfold cs m : helper (Group cs m) =
    let '(texts, debugviews) := below cs in
    (concat texts, (debug_header type_text (chars "GROUP") m ++ summarize_contents repr (concat texts)) :: map (fun line => chars "  " ++ line) debugviews).
  Proof. reflexivity. Qed.
  Lemma helper_text n : fst (helper n) = render_node n.
  Proof.
    induction n as [t|t m| | | |cs m F] using node_ind'; try reflexivity. rewrite helper_unfold.
    assert (E : fst (below cs) = map render_node cs).
    { induction F as [|c l Hc F IH]; [reflexivity|]. cbn [below map]. rewrite <- IH, <- Hc. destruct (helper c), (below l). reflexivity. }
    destruct (below cs) as [ts vs]. cbn [fst] in *. now rewrite E.
  Qed.
  Lemma helper_group cs m : helper (Group cs m) =
    (render_node (Group cs m), heading (Group cs m) :: map (fun line => chars "  " ++ line) (flat_map (fun n => snd (helper n)) cs)).
  Proof.
    rewrite helper_unfold. assert (E : below cs = (map render_node cs, flat_map (fun n => snd (helper n)) cs)).
    { induction cs as [|c l IH]; [reflexivity|]. cbn [below map flat_map]. rewrite IH, <- helper_text. destruct (helper c). reflexivity. }
    rewrite E. reflexivity.
  Qed.
  Lemma helper_lines n : forall d, map (fun line => repeat 32 (2 * d) ++ line) (snd (helper n)) = map indented (outline d n).
  Proof.
    induction n as [t|t m'| | | |cs m F] using node_ind'; intros d; try reflexivity.
    rewrite helper_group. cbn [snd map outline]. f_equal.
    transitivity (map (fun line => repeat 32 (2 * S d) ++ line) (flat_map (fun n => snd (helper n)) cs)).
    - rewrite map_map. apply map_ext. intros line. replace (2 * S d) with (2 * d + 2) by lia. rewrite repeat_app, <- app_assoc. reflexivity.
    - induction F as [|c l Hc F IH]; [reflexivity|]. cbn [flat_map]. rewrite !map_app. f_equal; auto.
  Qed.
  Lemma view_lines ns : view ns = join newline (map indented (flat_map (outline 0) ns)).
  Proof.
    unfold render_debug. f_equal. induction ns as [|n ns IH]; [reflexivity|]. cbn [flat_map]. rewrite map_app, <- IH, <- helper_lines. f_equal.
    rewrite <- (map_id (snd (helper n))) at 1. apply map_ext. reflexivity.
  Qed.
  Lemma heading_describes n : describes repr type_text n (heading n).
  Proof.
    assert (S : forall t, (length t <= 80 -> summarize_contents repr t = repr t) /\ (80 < length t -> summarize_contents repr t = repr (firstn 77 t) ++ chars "...")).
    { intros t. unfold summarize_contents. destruct (80 <? length t) eqn:E; [apply Nat.ltb_lt in E|apply Nat.ltb_ge in E]; split; intros; auto; lia. }
    destruct n as [t|t m| | | |cs m].
    - destruct (S t). apply (describes_text repr type_text (Deco t) [] (summarize_contents repr t)); cbn; auto.
    - destruct (S t). unfold heading, debug_header.
      set (ty := match type_text m with Some x => chars "(" ++ x ++ chars ")" | None => [] end).
      replace (match type_text m with None => _ | Some _ => _ end ++ summarize_contents repr t) with (chars (kind_word (Token t m)) ++ ty ++ chars ": " ++ summarize_contents repr t).
      2:{ subst ty. destruct (type_text m); cbn [kind_word]; rewrite <- !app_assoc; reflexivity. }
      apply describes_text; cbn; auto. subst ty. destruct (type_text m); reflexivity.
    - apply (describes_decision repr type_text RegionStart). cbn. auto.
    - apply (describes_decision repr type_text RegionEnd). cbn. auto.
    - apply (describes_decision repr type_text EarlyExit). cbn. auto.
    - destruct (S (render_node (Group cs m))) as [S1 S2]. unfold heading, debug_header.
      set (ty := match type_text m with Some x => chars "(" ++ x ++ chars ")" | None => [] end).
      replace (match type_text m with None => _ | Some _ => _ end ++ summarize_contents repr (render_node (Group cs m)))
        with (chars (kind_word (Group cs m)) ++ ty ++ chars ": " ++ summarize_contents repr (render_node (Group cs m))).
      2:{ subst ty. destruct (type_text m); cbn [kind_word]; rewrite <- !app_assoc; reflexivity. }
      apply describes_text; auto; [exact I|]. cbn [match_type_of]. subst ty. destruct (type_text m); reflexivity.
  Qed.
  Hypothesis repr_line : forall t, ~ In 10 (repr t).
  Hypothesis type_line : forall m t, type_text m = Some t -> ~ In 10 t.
  Lemma no10 (s : string) : forallb (fun c => negb (c =? 10)) (chars s) = true -> ~ In 10 (chars s).
  Proof. intros H I. rewrite forallb_forall in H. now specialize (H _ I). Qed.
  Lemma heading_line n : ~ In 10 (heading n).
  Proof using repr_line type_line.
    assert (A : forall x y : text, ~ In 10 x -> ~ In 10 y -> ~ In 10 (x ++ y)) by (intros x y Hx Hy I; apply in_app_or in I; tauto).
    assert (S : forall t, ~ In 10 (summarize_contents repr t)).
    { intros t. unfold summarize_contents. destruct (80 <? length t); auto. apply A; auto. apply no10. reflexivity. }
    assert (H : forall k m, ~ In 10 k -> ~ In 10 (debug_header type_text k m)).
    { intros k m K. unfold debug_header. pose proof (type_line m) as L. destruct (type_text m) as [t|]; [specialize (L t eq_refl)|]; repeat apply A; auto; apply no10; reflexivity. }
    destruct n; cbn [heading]; try (apply no10; reflexivity); apply A; auto; try apply H; apply no10; reflexivity.
  Qed.
  Lemma indented_line x : ~ In 10 (indented x).
  Proof using repr_line type_line.
    intros I. apply in_app_or in I as [I|I]; [apply repeat_spec in I; discriminate|]. exact (heading_line _ I).
  Qed.
  Lemma view_split ns : ns <> [] -> lines_of (view ns) (map indented (flat_map (outline 0) ns)).
  Proof using repr_line type_line.
    intros N. rewrite view_lines. destruct ns as [|n ns]; [congruence|]. cbn [flat_map]. assert (exists x l, outline 0 n = x :: l) as (x & l & E) by (destruct n; cbn; eauto).
    rewrite E. cbn [app map]. apply join_lines. apply (Forall_forall _ (indented x :: _)). intros y [<-|I]; [apply indented_line|].
    apply in_map_iff in I as (z & <- & _). apply indented_line.
  Qed.

  (** Reading the nodes back *)
  Hypothesis repr_injective : forall t t', repr t = repr t' -> t = t'.
  Hypothesis type_injective : forall m m', type_text m = type_text m' -> m = m'.
  Hypothesis type_closed : forall m t, type_text m = Some t -> ~ In 41 t.
  Definition alike (n n' : node M) : Prop :=
    match n, n' with
    | Group _ m, Group _ m' => m = m'
    | Group _ _, _ | _, Group _ _ => False
    | _, _ => n = n'
    end.
  Lemma headers k m m' (s s' : text) : debug_header type_text k m ++ s = debug_header type_text k m' ++ s' -> m = m' /\ s = s'.
  Proof using repr_injective type_injective type_closed.
    unfold debug_header. pose proof (type_closed m) as C. pose proof (type_closed m') as C'.
    destruct (type_text m) as [t|] eqn:E, (type_text m') as [t'|] eqn:E'; rewrite <- !app_assoc; intros H; apply app_inv_head in H.
    - cbn in H. injection H as H. apply closing in H as [-> H]; auto. injection H as ->. split; auto. apply type_injective. congruence.
    - cbn in H. discriminate.
    - cbn in H. discriminate.
    - apply app_inv_head in H. split; auto. apply type_injective. congruence.
  Qed.
  Lemma headings n n' : short n -> short n' -> heading n = heading n' -> alike n n'.
  Proof using repr_injective type_injective type_closed.
    assert (D : forall m k, exists t, debug_header type_text k m = k ++ t) by (intros m k; unfold debug_header; destruct (type_text m); eauto).
    assert (S : forall t t', length t <= 80 -> length t' <= 80 -> summarize_contents repr t = summarize_contents repr t' -> t = t').
    { intros t t' L L'. unfold summarize_contents. rewrite (proj2 (Nat.ltb_ge 80 _) L), (proj2 (Nat.ltb_ge 80 _) L'). apply repr_injective. }
    intros H H' E.
    destruct n as [t|t m| | | |cs m], n' as [t'|t' m'| | | |cs' m']; cbn [heading] in E; cbn [alike]; auto;
      try (destruct (D m (chars "TOK")) as [u U]; rewrite U in E); try (destruct (D m (chars "GROUP")) as [u U]; rewrite U in E);
      try (destruct (D m' (chars "TOK")) as [u' U']; rewrite U' in E); try (destruct (D m' (chars "GROUP")) as [u' U']; rewrite U' in E);
      try (cbn in E; discriminate).
    - inversion H; inversion H'; subst. apply app_inv_head in E. f_equal. now apply S.
    - rewrite <- U, <- U' in E. apply headers in E as [-> E]. inversion H; inversion H'; subst. f_equal. now apply S.
    - rewrite <- U, <- U' in E. now apply headers in E as [-> E].
  Qed.
  Lemma heading_first n : exists c t, heading n = c :: t /\ c <> 32.
  Proof. destruct n; cbn [heading]; unfold debug_header; try destruct (type_text m); cbn; eexists _, _; split; try reflexivity; discriminate. Qed.
  Lemma blanks_inj a b c c' (t t' : text) : c <> 32 -> c' <> 32 -> repeat 32 a ++ c :: t = repeat 32 b ++ c' :: t' -> a = b /\ c :: t = c' :: t'.
  Proof.
    clear. revert b. induction a as [|a IH]; intros [|b] N N' E; cbn in E; auto; try (injection E as E1 E2; congruence).
    injection E as E. destruct (IH b N N' E) as [-> ?]. auto.
  Qed.
  Lemma indented_inj x x' : short (snd x) -> short (snd x') -> indented x = indented x' -> fst x = fst x' /\ alike (snd x) (snd x').
  Proof using repr_injective type_injective type_closed.
    intros S S' E. unfold indented in E. destruct (heading_first (snd x)) as (c & t & E1 & N1). destruct (heading_first (snd x')) as (c' & t' & E2 & N2).
    rewrite E1, E2 in E. apply blanks_inj in E as [A B]; auto. split; [lia|]. apply headings; auto. congruence.
  Qed.
  Definition rows := list (nat * node M).
  Definition same (a b : rows) : Prop := Forall2 (fun x y => fst x = fst y /\ alike (snd x) (snd y)) a b.
  Definition outside (d : nat) (r : rows) : Prop := match r with [] => True | x :: _ => fst x <= d end.
  Lemma outline_inj n : forall d n' r r', outside d r -> outside d r' -> same (outline d n ++ r) (outline d n' ++ r') -> n = n' /\ same r r'.
  Proof using.
    clear. induction n as [t|t m'| | | |cs m F] using node_ind'; intros d n' r r' O O' S;
      try (destruct n' as [t1|t1 m1| | | |cs1 m1]; cbn [outline app] in S; inversion S as [|? ? ? ? [? A] S']; subst; cbn in A; try contradiction; try discriminate; auto; fail).
    destruct n' as [t1|t1 m1| | | |cs1 m1]; cbn [outline app] in S; inversion S as [|? ? ? ? [_ A] S']; subst; cbn in A; try contradiction; try discriminate. subst m1.
    assert (G : cs = cs1 /\ same r r'); [|destruct G as [-> G]; auto].
    clear S. revert cs1 S'. induction F as [|c cs Hc F IH]; intros [|c1 cs1] S'; cbn [flat_map app] in S'.
    - auto.
    - exfalso. destruct r as [|x r]; [destruct c1; inversion S'|]. cbn in O. assert (exists l, outline (S d) c1 = (S d, c1) :: l) as [l E] by (destruct c1; cbn; eauto).
      rewrite E in S'. cbn in S'. inversion S' as [|? ? ? ? [? _] _]. cbn in *. lia.
    - exfalso. destruct r' as [|x r']; [destruct c; inversion S'|]. cbn in O'. assert (exists l, outline (S d) c = (S d, c) :: l) as [l E] by (destruct c; cbn; eauto).
      rewrite E in S'. cbn in S'. inversion S' as [|? ? ? ? [? _] _]. cbn in *. lia.
    - rewrite <- !app_assoc in S'.
      assert (P : forall l r0, outside d r0 -> outside (S d) (flat_map (outline (S d)) l ++ r0)).
      { intros l r0 Ho. destruct l as [|y l]; cbn; [destruct r0; cbn in *; auto|]. destruct y; cbn; lia. }
      destruct (Hc (S d) c1 _ _ (P cs r O) (P cs1 r' O') S') as [-> S2]. destruct (IH cs1 S2) as [-> S3]. auto.
  Qed.
  Lemma outlines_inj ns : forall ns', same (flat_map (outline 0) ns) (flat_map (outline 0) ns') -> ns = ns'.
  Proof using.
    clear. assert (P : forall l : list (node M), outside 0 (flat_map (outline 0) l)) by (intros [|[] l]; cbn; auto).
    induction ns as [|n ns IH]; intros [|n' ns'] S; cbn [flat_map] in S; auto.
    - destruct n'; inversion S.
    - destruct n; inversion S.
    - apply outline_inj in S as [-> S]; auto. f_equal. now apply IH.
  Qed.
  Lemma short_outline (n : node M) : short n -> forall d, Forall (fun x : nat * node M => short (snd x)) (outline d n).
  Proof using.
    clear. induction n as [t|t m'| | | |cs m F] using node_ind'; intros S d; cbn [outline]; constructor; auto. inversion S as [| | | | |? ? C]; subst.
    clear S. induction F as [|c cs Hc F IH]; cbn [flat_map]; [constructor|]. apply Forall_app. split; [apply Hc, C; now left|]. apply IH. intros x I. apply C. now right.
  Qed.
  Lemma short_outlines (ns : list (node M)) : Forall short ns -> Forall (fun x : nat * node M => short (snd x)) (flat_map (outline 0) ns).
  Proof using. clear. induction 1; cbn [flat_map]; [constructor|]. apply Forall_app. split; auto. now apply short_outline. Qed.
  Lemma view_inj ns ns' : Forall short ns -> Forall short ns' -> view ns = view ns' -> ns = ns'.
  Proof using repr_line type_line repr_injective type_injective type_closed.
    intros S S' E. apply outlines_inj.
    assert (N : forall l, l <> [] -> view l <> []).
    { intros l N E0. pose proof (view_split l N) as V. rewrite E0 in V. destruct l as [|n l]; [congruence|]. cbn [flat_map] in V.
      assert (exists x k, outline 0 n = x :: k) as (x & k & Ek) by (destruct n; cbn; eauto). rewrite Ek in V. cbn [app map] in V.
      inversion V as [t Ht E1 E2|t rest ls Ht V' E1 E2]; [|now destruct t]. destruct (heading_first (snd x)) as (c & t' & E3 & _).
      unfold indented in *. rewrite E3 in *. now destruct (repeat 32 (2 * fst x)). }
    destruct ns as [|n ns], ns' as [|n' ns'].
    - constructor.
    - exfalso. apply (N (n' :: ns')); [discriminate|]. now rewrite <- E.
    - exfalso. apply (N (n :: ns)); [discriminate|]. now rewrite E.
    - assert (V : lines_of (view (n :: ns)) (map indented (flat_map (outline 0) (n :: ns)))) by (apply view_split; discriminate).
      assert (V' : lines_of (view (n' :: ns')) (map indented (flat_map (outline 0) (n' :: ns')))) by (apply view_split; discriminate).
      rewrite E in V. pose proof (lines_of_unique _ _ _ V V') as K. apply short_outlines in S. apply short_outlines in S'.
      revert K S S'. generalize (flat_map (outline 0) (n :: ns)) (flat_map (outline 0) (n' :: ns')). clear - repr_injective type_injective type_closed.
      induction l as [|x l IH]; intros [|x' l'] K S S'; cbn in K; try discriminate; [constructor|]. injection K as K1 K2. inversion S; inversion S'; subst.
      constructor; [now apply indented_inj|]. now apply IH.
  Qed.
End Debug.

(** ** C75.  The debug view has a line for every node, in reading order, which describes the node after two blanks for
    every group around it. *)
Theorem C75_debug_lines :
  forall (M : Type) (repr : text -> text) (type_text : M -> option text) (nodes : list (node M)),
    (forall t, ~ In 10 (repr t)) -> (forall m t, type_text m = Some t -> ~ In 10 t) -> nodes <> [] ->
    exists lines, lines_of (render_debug repr type_text nodes) lines /\
      Forall2 (fun (x : nat * node M) line => let '(depth, n) := x in
          exists words, line = repeat 32 (2 * depth) ++ words /\ describes repr type_text n words)
        (flat_map (outline 0) nodes) lines.
Proof.
  intros M repr ty ns R T N. exists (map (indented repr ty) (flat_map (outline 0) ns)). split; [now apply view_split|].
  induction (flat_map (outline 0) ns) as [|[d n] l IH]; cbn [map]; constructor; auto.
  exists (heading repr ty n). split; [reflexivity|apply heading_describes].
Qed.
Print Assumptions C75_debug_lines.
(** ** C75.  The debug view determines the nodes, unless a text is too long to be shown. *)
Theorem C75_debug_view_determines_nodes :
  forall (M : Type) (repr : text -> text) (type_text : M -> option text) (nodes nodes' : list (node M)),
    (forall t, ~ In 10 (repr t)) -> (forall t t', repr t = repr t' -> t = t') ->
    (forall m t, type_text m = Some t -> ~ In 10 t /\ ~ In 41 t) -> (forall m m', type_text m = type_text m' -> m = m') ->
    Forall short nodes -> Forall short nodes' ->
    render_debug repr type_text nodes = render_debug repr type_text nodes' -> nodes = nodes'.
Proof. intros M repr ty ns ns' R1 R2 T1 T2. apply view_inj; auto; intros m t E; now destruct (T1 m t E). Qed.
Print Assumptions C75_debug_view_determines_nodes.
(** Finding: two texts of more than 80 characters that begin alike look alike. *)
Theorem C75_long_texts_refuted :
  forall (M : Type) (repr : text -> text) (type_text : M -> option text) (m : M),
    exists nodes nodes', nodes <> nodes' /\ render_debug repr type_text nodes = render_debug repr type_text nodes'.
Proof.
  intros M repr ty m. exists [Token (repeat 97 80 ++ [97]) m], [Token (repeat 97 80 ++ [98]) m]. split; [|reflexivity].
  intros E. vm_compute in E. discriminate E.
Qed.
Print Assumptions C75_long_texts_refuted.

(** Hypotheses met: a way of quoting, and nested nodes whose view is as in the comment of the tests. *)
Definition quoted_char (c : nat) : text := if c =? 10 then [92; 110] else if (c =? 92) || (c =? 39) then [92; c] else [c].
Definition quoted (t : text) : text := flat_map quoted_char t ++ [39].
Definition ex_type (m : nat) : option text := if m =? 0 then None else Some (repeat 65 m).
Definition ex_nodes : list (node nat) := [Deco [32]; Group [Token [97; 10] 1; Group [] 0; RegionStart; Group [EarlyExit; Token [98] 0] 2] 0; RegionEnd].
Lemma quoted_line t : ~ In 10 (quoted t).
Proof.
  intros I. apply in_app_or in I as [I|[I|[]]]; [|discriminate]. apply in_flat_map in I as (c & _ & I). unfold quoted_char in I.
  destruct (c =? 10) eqn:E; [destruct I as [I|[I|[]]]; discriminate|]. apply Nat.eqb_neq in E.
  destruct ((c =? 92) || (c =? 39)); cbn in I; intuition congruence.
Qed.
Lemma quoted_inj t : forall t', quoted t = quoted t' -> t = t'.
Proof.
  assert (P : forall c, quoted_char c = [92; 110] /\ c = 10 \/ quoted_char c = [92; c] /\ (c = 92 \/ c = 39) \/ quoted_char c = [c] /\ c <> 92 /\ c <> 39).
  { intros c. unfold quoted_char. destruct (c =? 10) eqn:A; [apply Nat.eqb_eq in A; auto|]. right.
    destruct (c =? 92) eqn:B; [apply Nat.eqb_eq in B; auto|]. apply Nat.eqb_neq in B. destruct (c =? 39) eqn:C; [apply Nat.eqb_eq in C; auto|]. apply Nat.eqb_neq in C. auto. }
  unfold quoted. induction t as [|c t IH]; intros [|c' t'] E; cbn [flat_map app] in E; auto.
  - exfalso. destruct (P c') as [[Q ?]|[[Q ?]|[Q ?]]]; rewrite Q in E; cbn in E; try discriminate. injection E as E _. lia.
  - exfalso. destruct (P c) as [[Q ?]|[[Q ?]|[Q ?]]]; rewrite Q in E; cbn in E; try discriminate. injection E as E _. lia.
  - destruct (P c) as [[Q H]|[[Q H]|[Q H]]], (P c') as [[Q' H']|[[Q' H']|[Q' H']]]; rewrite Q, Q' in E; cbn [app] in E;
      try (exfalso; injection E; intros; lia); injection E; intros K; intros; f_equal; try congruence; apply IH; exact K.
Qed.
Local Ltac short_all :=
  first [apply short_deco; cbn; lia|apply short_token; cbn; lia|apply short_start|apply short_end|apply short_exit
        |apply short_group; let c := fresh in let I := fresh in intros c I; cbn in I;
         repeat match goal with J : _ \/ _ |- _ => destruct J as [<-|J]; [short_all|] end; contradiction].
Example C75_hypotheses :
  (forall t, ~ In 10 (quoted t)) /\ (forall t t', quoted t = quoted t' -> t = t') /\
  (forall m t, ex_type m = Some t -> ~ In 10 t /\ ~ In 41 t) /\ (forall m m', ex_type m = ex_type m' -> m = m') /\
  Forall short ex_nodes /\
  render_debug quoted ex_type ex_nodes = chars "DEC:  '
GROUP: a\nb'
  TOK(A): a\n'
  GROUP: '
  RegionStartNode()
  GROUP(AA): b'
    EarlyExitNode()
    TOK: b'
RegionEndNode()".
Proof.
  splits.
  - apply quoted_line.
  - apply quoted_inj.
  - intros m t. unfold ex_type. destruct (m =? 0); [discriminate|]. intros E. injection E as <-. split; intros I; apply repeat_spec in I; discriminate.
  - intros m m'. unfold ex_type. destruct (m =? 0) eqn:A, (m' =? 0) eqn:B; try discriminate;
      repeat match goal with H : (_ =? _) = true |- _ => apply Nat.eqb_eq in H | H : (_ =? _) = false |- _ => apply Nat.eqb_neq in H end; try congruence.
    intros E. assert (H : length (repeat 65 m) = length (repeat 65 m')) by congruence. now rewrite !repeat_length in H.
  - repeat (apply Forall_cons; [short_all|]). apply Forall_nil.
  - vm_compute. reflexivity.
Qed.
