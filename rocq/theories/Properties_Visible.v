(** C89: decorations are white space.  What a suggestion shows for free is never visible:
    every visible character of a text belongs to a token.  Specification vocabulary:
    [leaves] in [SeqNodes.v], [reads] in [CombineSpec.v]; [visible] below. *)

From Coq Require Import String.
From Coq Require Import List Bool Arith Lia.
From Verif Require Import Base SeqNodes Transforms StackParser Subtokenizer PseudoParse PseudoParseProofs Lexer ParserTools ParserToolsProofs CombineSpec Html Properties_ParserTools.
Import ListNotations.
Close Scope string_scope. Open Scope nat_scope. Open Scope list_scope.

(** The characters of a text that are not white space, in order. *)
Definition visible (isspace : nat -> bool) (t : text) : text := filter (fun c => negb (isspace c)) t.
(** The text of a token; other nodes have none. *)
Definition token_text {M} (n : node M) : text := match n with Token t _ => t | _ => [] end.
(** The types of roots, brackets, what is between brackets, and statements. *)
Definition structural : list ntype := [NRoot; NMatch; NMatchLeft; NMatchRight; NMatchInner; NSplitGroup].
(** What is expected of a leaf. *)
Definition leaf_ok (isspace : nat -> bool) (n : node mtype) : Prop :=
  (forall t, n = Deco t -> Forall (fun c => isspace c = true) t) /\
  (forall t ty, n = Token t (MNode ty) -> In ty structural \/ ty = NContentLeaf /\ visible isspace t <> []).

Section Leaves.
  Variables isupper islower isdigit isspace : nat -> bool.
  Lemma visible_none t : forallb isspace t = true -> Forall (fun c => isspace c = true) t.
  Proof. rewrite forallb_forall, Forall_forall. auto. Qed.
  Lemma visible_some t : forallb isspace t = false -> visible isspace t <> [].
  Proof.
    unfold visible. induction t as [|c t IH]; cbn; [discriminate|]. destruct (isspace c); cbn [negb andb]; auto. discriminate.
  Qed.
  Lemma subtoken_leaf t : leaf_ok isspace (Token t MSubtoken).
  Proof. split; discriminate. Qed.
  Lemma subtokens_leaves t : Forall (leaf_ok isspace) (leaves (subtokenize_token isupper islower isdigit isspace t)).
  Proof.
    unfold subtokenize_token, leaves. induction (code_to_tokens isupper islower isdigit isspace t) as [|s l IH]; cbn; constructor; auto. apply subtoken_leaf.
  Qed.
  Lemma leaves_group {M} (cs : list (node M)) m : leaves [Group cs m] = leaves cs.
  Proof. unfold leaves at 1. cbn [flat_map]. rewrite app_nil_r. reflexivity. Qed.
  Lemma converted_leaves tokens tys n : forall s,
    to_nested isupper islower isdigit isspace tokens tys [NWhiteSpaceLeaf; NNonContentLeaf] [NStringLiteral] n = Ok s -> Forall (leaf_ok isspace) (leaves [s]).
  Proof.
    induction n as [lo hi ann cs IH] using pnode_ind'. intros s E. rewrite convert_eq in E. cbn [p_children p_lo p_hi] in E.
    apply bind_ok_inv in E as [ty [Ek E]].
    assert (K : match ty with NWhiteSpaceLeaf | NNonContentLeaf => forallb isspace (p_text tokens (PNode lo hi ann cs)) = true
                | NContentLeaf => forallb isspace (p_text tokens (PNode lo hi ann cs)) = false | _ => True end).
    { unfold p_type in Ek. cbn [p_ann p_children] in Ek. destruct ann; try (injection Ek as <-; exact I). destruct cs; [|discriminate].
      destruct (p_text tokens (PNode lo hi ASibling [])) as [|c t]; [injection Ek as <-; reflexivity|].
      destruct (forallb isspace (c :: t)) eqn:Ef; [injection Ek as <-; reflexivity|].
      match type of Ek with (if ?x then _ else _) = _ => destruct x end; injection Ek as <-; auto. }
    destruct (mem ty [NWhiteSpaceLeaf; NNonContentLeaf]) eqn:Em.
    { injection E as <-. constructor; [|constructor]. split; [|discriminate]. intros t Et. injection Et as <-. apply visible_none. destruct ty; try discriminate; exact K. }
    destruct (mem ty [NStringLiteral]) eqn:Es; [injection E as <-; rewrite leaves_group; apply subtokens_leaves|].
    destruct cs as [|c cs].
    { injection E as <-. constructor; [|constructor]. split; [discriminate|]. intros t ty' Et. injection Et as <- <-. destruct ty; try discriminate; try (left; cbn; tauto).
      right. split; auto. now apply visible_some. }
    match type of E with (if ?x then _ else _) = _ => destruct x end; [|discriminate]. apply bind_ok_inv in E as [l [E1 E2]]. injection E2 as <-. rewrite leaves_group.
    apply mapM_ok_iff in E1. clear K Em Ek. unfold leaves. induction E1 as [|x y l1 l2 K F IHF]; cbn [flat_map]; [constructor|]. inversion IH as [|? ? H1 H2]; subst.
    apply Forall_app. split; auto. specialize (H1 _ K). unfold leaves in H1. cbn [flat_map] in H1. now rewrite app_nil_r in H1.
  Qed.
End Leaves.

(** Every decoration consists of white space; every token is a piece of a string literal
    (of type [MSubtoken]), or a bracket or another structural node, or has a visible character. *)
Theorem C89_decorations_are_white_space :
  forall (isupper islower isdigit isspace digit : nat -> bool) (l : helper_language) (flatten : bool) (code : text) ns,
    parse_to_nodes isupper islower isdigit isspace digit l flatten code = Ok ns ->
    (forall t, In (Deco t) (leaves ns) -> Forall (fun c => isspace c = true) t) /\
    (forall t ty, In (Token t (MNode ty)) (leaves ns) -> In ty structural \/ ty = NContentLeaf /\ exists c, In c t /\ isspace c = false).
Proof.
  intros up lo d sp digit l f code ns E.
  assert (F : Forall (leaf_ok sp) (leaves ns)).
  { destruct l as [|l].
    - cbn [parse_to_nodes] in E. injection E as <-. apply subtokens_leaves.
    - unfold parse_to_nodes in E. apply bind_ok_inv in E as [spi [_ E]]. apply bind_ok_inv in E as [o [_ E]]. apply bind_ok_inv in E as [root [En E]]. injection E as <-.
      apply converted_leaves in En. destruct f; [|exact En]. 
      assert (G : forall k : list (node mtype), Forall (fun n => ~ is_group n) k -> leaves k = k).
      { unfold leaves. induction 1 as [|x k Hx Hk IH]; cbn [flat_map]; auto. rewrite IH. destruct x; auto. exfalso. apply Hx. exact I. }
      rewrite G by exact (flatten_groups_no_group [root]). exact En. }
  rewrite Forall_forall in F. split; [intros t Hi; apply F in Hi; now apply Hi|].
  intros t ty Hi. apply F in Hi. destruct Hi as [_ H2]. destruct (H2 _ _ eq_refl) as [|[-> Hv]]; [now left|right; split; auto]. destruct (visible sp t) as [|c v] eqn:Ev; [contradiction|]. exists c.
  assert (Hc : In c (visible sp t)) by (rewrite Ev; now left). apply filter_In in Hc as [A B]. split; auto. now apply negb_true_iff.
Qed.
(** So the visible characters of the text, in order, are those of its tokens. *)
Theorem C89_visible_text_is_in_tokens :
  forall (isupper islower isdigit isspace digit : nat -> bool) (l : helper_language) (flatten : bool) (code : text),
    ascii_digits digit -> isspace 10 = true -> (l = Parsed Python -> code <> []) ->
    exists ns, parse_to_nodes isupper islower isdigit isspace digit l flatten code = Ok ns /\
      visible isspace (concat (map token_text (leaves ns))) = visible isspace code.
Proof.
  intros up lo d sp digit l f code H1 H2 H3. destruct (C64_helper_reads_every_text up lo d sp digit l f code H1 H2 H3) as [ns [[E [R _]] _]].
  exists ns. split; auto. destruct (C89_decorations_are_white_space up lo d sp digit l f code ns E) as [W _]. rewrite <- R.
  assert (N : forall t, Forall (fun c => sp c = true) t -> visible sp t = []) by (unfold visible; induction 1 as [|c t Hc Ht IH]; cbn; auto; now rewrite Hc).
  rewrite <- (flatten_groups_text ns). change (flatten_groups ns) with (leaves ns).
  assert (G : Forall (fun n => ~ is_group n) (leaves ns)) by exact (flatten_groups_no_group ns).
  revert W G. unfold render, visible. induction (leaves ns) as [|n k IH]; intros W G; auto. inversion G as [|? ? G1 G2]; subst. cbn [map concat]. rewrite !filter_app, IH; auto.
  - f_equal. destruct n; cbn [token_text render_node]; auto.
    + symmetry. apply N, W. now left.
    + exfalso. apply G1. exact I.
  - intros t Ht. apply W. now right.
Qed.
(** Python, with an open bracket and a string that contains a space. *)
Example C89_example :
  match parse_to_nodes ex_up ex_low ex_dig ex_spc ex_dig (Parsed Python) false (chars "x = f('a b' ,") with
  | Ok ns => (filter (fun t => match t with [] => false | _ => true end) (map token_text (leaves ns)), visible ex_spc (chars "x = f('a b' ,"))
  | Err _ => ([], [])
  end = (map chars ["x"; "="; "f"; "("; "'"; "a"; " "; "b"; "'"; ","]%string, chars "x=f('ab',") /\
  ascii_digits ex_dig /\ ex_spc 10 = true.
Proof. split; [vm_compute; reflexivity|]. split; [apply classes_example|reflexivity]. Qed.
Print Assumptions C89_decorations_are_white_space.
Print Assumptions C89_visible_text_is_in_tokens.
