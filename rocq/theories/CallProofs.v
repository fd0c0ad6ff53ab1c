(** Proofs about the extraction of calls (CallSequence.v) against CallSpec.v. *)

From Coq Require Import String.
From Coq Require Import List Bool Arith Lia ZArith.
From Verif Require Import Base SeqNodes Transforms PackedSeq Decisions RegionDecisions PrefixBaselines Html CallSequence CallSpec.
Import ListNotations.
Close Scope string_scope. Close Scope Z_scope. Open Scope nat_scope. Open Scope list_scope.

Scheme finds_mut := Induction for finds Sort Prop with within_mut := Induction for finds_within Sort Prop.
Combined Scheme finds_mutind from finds_mut, within_mut.

Lemma deco_node_iff n : deco_node n = true <-> is_deco n.
Proof. unfold is_deco. destruct n; cbn; split; intros H; try discriminate; try (destruct H; discriminate); eauto. Qed.
Lemma deco_node_niff n : deco_node n = false <-> ~ is_deco n.
Proof. rewrite <- deco_node_iff. destruct (deco_node n); split; intros; auto; try discriminate. now destruct H. Qed.
Lemma group_node_niff n : group_node n = false <-> not_group n.
Proof. unfold not_group. destruct n; cbn; split; intros H; try discriminate; auto. now destruct (H cs m). Qed.
Lemma is_token_iff t m n : is_token t m n = true <-> n = Token t m.
Proof.
  destruct n; cbn; split; intros H; try discriminate.
  - apply andb_true_iff in H as [A B]. apply eqb_eq in A, B. now subst.
  - inversion H; subst. now rewrite !eqb_refl.
Qed.
Lemma is_paren_iff n : is_paren n = true <-> exists inner closing, n = parenthesis inner closing.
Proof.
  split.
  - destruct n; cbn; intros H; try discriminate. apply andb_true_iff in H as [H A]. apply andb_true_iff in H as [B C].
    apply eqb_eq in B. apply Nat.eqb_eq in C. destruct cs as [|c [|c' [|c'' [|? ?]]]]; cbn in C; try discriminate.
    apply is_token_iff in A. subst. unfold parenthesis. eauto.
  - intros (a & b & ->). reflexivity.
Qed.

Lemma split_spec {X} : forall (l : list (N * X)) started c a, split_candidate started l = (c, a) ->
  exists lead, l = lead ++ c ++ a /\ Forall (fun e => is_deco (fst e)) lead /\ (started = true -> lead = []) /\
    (started = false -> match c with e :: _ => ~ is_deco (fst e) | [] => True end) /\
    ((a = [] /\ Forall (fun e => not_group (fst e)) c) \/
     (exists c' g, c = c' ++ [g] /\ Forall (fun e => not_group (fst e)) c' /\ group_node (fst g) = true)).
Proof.
  induction l as [|[n x] l IH]; intros started c a H.
  - inversion H; subst. exists []. splits; auto.
  - cbn in H. destruct (group_node n) eqn:G.
    + assert (D : deco_node n = false) by (destruct n; auto; discriminate). rewrite D in H. cbn in H. inversion H; subst.
      exists []. splits; auto; [intros _; now apply deco_node_niff|]. right. exists [], (n, x). now splits.
    + destruct (split_candidate (if negb (deco_node n) then true else started) l) as [c1 a1] eqn:E.
      apply IH in E as (lead & El & Fl & H1 & H2 & H3). inversion H; subst. clear H.
      destruct (deco_node n) eqn:D; cbn in *.
      * destruct started.
        -- rewrite (H1 eq_refl) in *. exists []. splits; auto; [discriminate|]. destruct H3 as [[A B]|(c' & g & A & B & C)].
           ++ left. split; auto. constructor; auto. now apply group_node_niff.
           ++ right. exists ((n, x) :: c'), g. subst. splits; auto. constructor; auto. now apply group_node_niff.
        -- exists ((n, x) :: lead). splits; auto; try discriminate. constructor; auto. now apply deco_node_iff.
      * rewrite (H1 eq_refl) in *. exists []. splits; auto; [intros _; now apply deco_node_niff|]. destruct H3 as [[A B]|(c' & g & A & B & C)].
        ++ left. split; auto. constructor; auto. now apply group_node_niff.
        ++ right. exists ((n, x) :: c'), g. subst. splits; auto. constructor; auto. now apply group_node_niff.
Qed.
Lemma split_lead {X} (l : list (N * X)) : forall lead, Forall (fun e => is_deco (fst e)) lead ->
  split_candidate false (lead ++ l) = split_candidate false l.
Proof.
  induction 1 as [|[n x] lead H HF IH]; auto. cbn in *. apply deco_node_iff in H. rewrite H. cbn. rewrite IH.
  destruct n; try discriminate H. cbn. now destruct (split_candidate false l).
Qed.
Lemma split_body {X} (g : N * X) l : group_node (fst g) = true -> forall c, Forall (fun e => not_group (fst e)) c ->
  split_candidate true (c ++ g :: l) = (c ++ [g], l).
Proof.
  intros Hg. induction 1 as [|[n x] c H HF IH]; cbn.
  - destruct g as [n x]. cbn in Hg. rewrite Hg. destruct (negb (deco_node n)); auto.
  - cbn in H. apply group_node_niff in H. rewrite H.
    replace (if negb (deco_node n) then true else true) with true by (destruct (deco_node n); auto). now rewrite IH.
Qed.

Section Extract.
  Variables (isspace : nat -> bool) (expected : list text).
  Notation make_call := (make_call isspace).
  Notation assemble := (assemble isspace expected).
  Notation extract_node := (extract_node isspace expected).
  Notation extract_all_from := (extract_all_from isspace expected).

  Lemma is_call_spec c : is_call c = true <-> exists before t m inner closing,
    c = before ++ [Token t m] ++ [parenthesis inner closing] /\
    (forall n rest, c = n :: rest -> n <> keyword (chars "def") /\ n <> keyword (chars "class")).
  Proof.
    split.
    - unfold is_call. intros H. apply andb_true_iff in H as [L H]. destruct c as [|c0 c]; [discriminate|].
      destruct (rev (c0 :: c)) as [|last [|bef r]] eqn:E; try discriminate.
      apply andb_true_iff in H as [H T]. apply andb_true_iff in H as [H P]. apply andb_true_iff in H as [D C].
      apply (f_equal (@rev _)) in E. rewrite rev_involutive in E. cbn [rev] in E. rewrite <- app_assoc in E.
      apply is_paren_iff in P as (a & b & ->). destruct bef; try discriminate T.
      exists (rev r), t, m, a, b. split; auto. intros n rest Ec. inversion Ec; subst n rest. unfold keyword. split; intros ->.
      + vm_compute in D. discriminate D.
      + vm_compute in C. discriminate C.
    - intros (before & t & m & a & b & E & K). unfold is_call.
      assert (R : rev c = parenthesis a b :: Token t m :: rev before) by (rewrite E, !rev_app_distr; reflexivity).
      replace (2 <=? length c) with true by (symmetry; apply Nat.leb_le; rewrite E, !app_length; cbn; lia).
      destruct c as [|c0 c]; [destruct before; discriminate|]. rewrite R. destruct (K c0 c eq_refl) as [K1 K2]. cbn [andb token_node].
      rewrite (proj2 (is_paren_iff _)) by eauto. rewrite !andb_true_r.
      apply andb_true_iff. split; apply negb_true_iff.
      + destruct (is_token (chars "def") CONTENT_LEAF c0) eqn:X; auto. apply is_token_iff in X. now destruct K1.
      + destruct (is_token (chars "class") CONTENT_LEAF c0) eqn:X; auto. apply is_token_iff in X. now destruct K2.
  Qed.

  (** The candidate is a call exactly when the sequence has one. *)
  Lemma candidate_call {X} (l : list (N * X)) c a : split_candidate false l = (c, a) -> is_call (map fst c) = true ->
    exists k closing, call_in (map fst l) k (map fst a) /\ map fst c = callee k ++ [parenthesis (arguments k) closing].
  Proof.
    intros Hs Hc. apply is_call_spec in Hc as (before & t & m & inner & closing & E & K).
    apply split_spec in Hs as (lead & El & Fl & _ & H2 & H3). specialize (H2 eq_refl).
    exists (mkCall (before ++ [Token t m]) inner), closing. cbn [callee arguments]. rewrite <- app_assoc. split; auto.
    exists (map fst lead), before, t, m, closing. cbn [callee arguments].
    assert (Hn : Forall not_group (before ++ [Token t m])).
    { rewrite Forall_forall. destruct H3 as [[_ B]|(c' & g & A & B & C)].
      - intros n Hn. rewrite Forall_forall in B.
        assert (Hi : In (parenthesis inner closing) (map fst c)) by (rewrite E, !in_app_iff; cbn; auto).
        apply in_map_iff in Hi as (e & He & Hi). specialize (B e Hi). rewrite He in B. now destruct (B _ _ eq_refl).
      - subst c. rewrite map_app in E. cbn [map] in E. rewrite app_assoc in E. apply app_inj_tail in E as [E _].
        intros n Hn. rewrite <- E in Hn. apply in_map_iff in Hn as (e & <- & Hi). rewrite Forall_forall in B. auto. }
    splits; auto.
    - rewrite El, !map_app, E, <- !app_assoc. reflexivity.
    - apply Forall_forall. intros n Hn'. apply in_map_iff in Hn' as (e & <- & Hi). rewrite Forall_forall in Fl. auto.
    - intros n rest E0. assert (Ec : map fst c = n :: rest ++ [parenthesis inner closing]).
      { rewrite E, app_assoc, E0. reflexivity. }
      destruct (K _ _ Ec) as [K1 K2]. splits; auto. destruct c as [|e c]; [discriminate|]. inversion Ec; subst. auto.
  Qed.
  Lemma call_candidate {X} (l : list (N * X)) k after : call_in (map fst l) k after ->
    exists c a closing, split_candidate false l = (c, a) /\ is_call (map fst c) = true /\ map fst a = after /\
      map fst c = callee k ++ [parenthesis (arguments k) closing].
  Proof.
    intros (lead & before & t & m & closing & El & Ec & Fl & Fc & K).
    apply map_eq_app in El as (l1 & l2 & -> & E1 & El). apply map_eq_app in El as (l3 & l4 & -> & E3 & El).
    destruct l4 as [|g a]; [discriminate|]. cbn in El. inversion El as [[Eg Ea]].
    assert (F1 : Forall (fun e => is_deco (fst e)) l1).
    { apply Forall_forall. intros e He. rewrite Forall_forall in Fl. apply Fl. rewrite <- E1. now apply in_map. }
    assert (F3 : Forall (fun e => not_group (fst e)) l3).
    { apply Forall_forall. intros e He. rewrite Forall_forall in Fc. apply Fc. rewrite <- E3. now apply in_map. }
    assert (Hg : group_node (fst g) = true) by (rewrite Eg; reflexivity).
    exists (l3 ++ [g]), a, closing. splits; auto.
    - rewrite split_lead by auto. destruct l3 as [|[n x] l3].
      + rewrite <- E3 in Ec. cbn in Ec. now destruct before.
      + cbn in E3. destruct (K n (map fst l3) (eq_sym E3)) as (K1 & _). inversion F3 as [|? ? G1 G2]; subst.
        apply deco_node_niff in K1. apply group_node_niff in G1. cbn in *. rewrite K1, G1. cbn.
        now rewrite (split_body g a Hg l3 G2).
    - rewrite map_app. cbn [map]. rewrite E3, Eg. apply is_call_spec.
      exists before, t, m, (arguments k), closing. split.
      + rewrite Ec, <- app_assoc. reflexivity.
      + intros n rest E0. destruct (callee k) as [|n' r'] eqn:Ek; [now destruct before|]. inversion E0; subst.
        now destruct (K n r' eq_refl) as (_ & K1 & K2).
    - rewrite map_app. cbn [map]. now rewrite E3, Eg.
  Qed.

  (** ** The marked call. *)
  Definition mark_node (n : N) : list N :=
    match n with
    | Token t m => if is_token s_dot CONTENT_LEAF n then [RegionStart; Token s_dot ATTRIBUTE_DOT]
                   else if mem t expected then [Token t EXPECTED] else [Token t NOVEL]
    | Deco t => if all_space isspace t then [Deco t; RegionStart] else [Deco t]
    | _ => []
    end.
  Definition mark_up (k : call) : list N :=
    RegionStart :: flat_map mark_node (callee k) ++
      [Token s_open START_CALL; RegionEnd;
       match render_node (arguments k) with [] => Token [] EMPTY_ARGS | t => Token t ARGS end;
       Token s_close END_CALL; RegionEnd].
  Lemma rev_flat_map {A B} (f : A -> list B) l : rev (flat_map f (rev l)) = flat_map (fun x => rev (f x)) l.
  Proof. induction l as [|x l IH]; auto. cbn. now rewrite flat_map_app, rev_app_distr, IH; cbn; rewrite app_nil_r. Qed.
  Lemma make_call_mark k closing : make_call expected (callee k ++ [parenthesis (arguments k) closing]) = mark_up k.
  Proof.
    unfold CallSequence.make_call, mark_up. rewrite !rev_app_distr. cbn [rev app]. f_equal.
    cbn [flat_map reverse_out parenthesis app]. rewrite rev_flat_map. f_equal; [|now destruct (render_node (arguments k))].
    apply flat_map_ext. intros n. destruct n as [t|t m| | | |cs m]; auto; unfold reverse_out, mark_node.
    - destruct (all_space isspace t); auto.
    - destruct (is_token s_dot CONTENT_LEAF (Token t m)); auto. destruct (mem t expected); auto.
  Qed.
  Lemma all_space_white t : all_space isspace t = true <-> white isspace t.
  Proof.
    unfold all_space, white. destruct t as [|c t].
    - split; [discriminate|intros [H _]; now destruct H].
    - rewrite forallb_forall, Forall_forall. split; [intros H; split; [discriminate|auto]|intros [_ H]; auto].
  Qed.
  Lemma flat_map_marked l : Forall not_group l -> marked isspace expected l (flat_map mark_node l).
  Proof.
    induction 1 as [|n l Hn HF IH]; [constructor|]. destruct n as [t|t m| | | |cs m]; cbn [flat_map mark_node].
    - destruct (all_space isspace t) eqn:E; cbn [app].
      + constructor; auto. now apply all_space_white.
      + constructor; auto. rewrite <- all_space_white, E. discriminate.
    - destruct (is_token s_dot CONTENT_LEAF (Token t m)) eqn:E.
      + apply is_token_iff in E. inversion E; subst. now constructor.
      + assert (Token t m <> keyword (chars ".")) by (intros X; apply is_token_iff in X; unfold s_dot, CONTENT_LEAF in E; congruence).
        destruct (mem t expected) eqn:Em; cbn [app].
        * apply mem_true_iff in Em. now constructor.
        * apply mem_false_iff in Em. now constructor.
    - now constructor.
    - now constructor.
    - now constructor.
    - now destruct (Hn cs m).
  Qed.
  Lemma marked_fun l : forall o o', marked isspace expected l o -> marked isspace expected l o' -> o = o'.
  Proof.
    induction l as [|n l IH]; intros o o' H H'.
    - inversion H; inversion H'; auto.
    - inversion H; subst; inversion H'; subst; try congruence; try contradiction;
      repeat match goal with X : marked _ _ l _ |- _ => revert X end; intros X Y; now rewrite (IH _ _ X Y).
  Qed.
  Lemma mark_up_call k : Forall not_group (callee k) -> marked_call isspace expected k (mark_up k).
  Proof.
    intros H. exists (flat_map mark_node (callee k)), (match render_node (arguments k) with [] => EMPTY_ARGS | _ => ARGS end). splits.
    - now apply flat_map_marked.
    - unfold mark_up. now destruct (render_node (arguments k)) as [|? ?].
    - intros ->. reflexivity.
    - now destruct (render_node (arguments k)) as [|? ?].
  Qed.
  Lemma marked_call_fun k s s' : marked_call isspace expected k s -> marked_call isspace expected k s' -> s = s'.
  Proof.
    intros (b & a & A & B & C & D) (b' & a' & A' & B' & C' & D'). rewrite B, B', (marked_fun _ _ _ A A'). do 3 f_equal.
    destruct (render_node (arguments k)) as [|x t].
    - now rewrite (C eq_refl), (C' eq_refl).
    - rewrite D, D' by discriminate. reflexivity.
  Qed.

  (** ** The whole search. *)
  Definition found (ks : list call) : list (list N) := map mark_up ks.
  Definition finds_node (n : N) : Prop :=
    match n with Group cs _ => exists ks, finds cs ks /\ extract_node n = found ks | _ => True end.
  Notation ann l := (map (fun c => (c, extract_node c)) l).
  Lemma within_found l : Forall finds_node l -> exists ks, finds_within l ks /\ concat (map snd (ann l)) = found ks.
  Proof.
    induction 1 as [|n l Hn HF (ks & A & B)].
    - exists []. split; [constructor|auto].
    - assert (Leaf : not_group n -> extract_node n = [] -> exists ks0, finds_within (n :: l) ks0 /\ concat (map snd (ann (n :: l))) = found ks0).
      { intros G E. exists ks. split; [now constructor|]. cbn [map concat snd]. now rewrite E. }
      destruct n as [t|t m| | | |cs m]; try (apply Leaf; [intros ? ?; discriminate|reflexivity]).
      destruct Hn as (ks' & A' & B'). exists (ks' ++ ks). split; [now constructor|].
      change (extract_node (Group cs m) ++ concat (map snd (ann l)) = found (ks' ++ ks)).
      rewrite B', B. unfold found. now rewrite map_app.
  Qed.
  Lemma map_fst_ann l : map fst (ann l) = l.
  Proof. rewrite map_map. cbn. now rewrite map_id. Qed.
  Lemma concat_nil {A} (l : list (list A)) : (forall x, In x l -> x = []) -> concat l = [].
  Proof. induction l as [|x l IH]; intros H; auto. cbn. rewrite (H x) by now left. apply IH. intros; apply H; now right. Qed.
  Lemma assembled l : Forall finds_node l -> exists ks, finds l ks /\ assemble (ann l) = found ks.
  Proof.
    intros HF. unfold CallSequence.assemble. destruct (split_candidate false (ann l)) as [c a] eqn:E.
    destruct (is_call (map fst c)) eqn:Hc.
    - destruct (candidate_call _ _ _ E Hc) as (k & closing & Hk & Ek). rewrite Ek, make_call_mark.
      apply split_spec in E as (lead & El & _). rewrite map_fst_ann in Hk.
      assert (Ea : a = ann (map fst a) /\ incl (map fst a) l).
      { symmetry in El. assert (G : forall e, In e a -> In e (ann l)) by (intros e He; rewrite <- El, !in_app_iff; auto). split.
        - rewrite map_map. rewrite <- (map_id a) at 1. apply map_ext_in. intros e He. apply G, in_map_iff in He as (n & <- & _). reflexivity.
        - intros n Hn. apply in_map_iff in Hn as (e & <- & He). apply G, in_map_iff in He as (n' & <- & ?). auto. }
      destruct Ea as [Ea Hi]. destruct (within_found (map fst a)) as (ks & A & B).
      { rewrite Forall_forall in *. auto. }
      exists (k :: ks). split; [econstructor; eauto|]. rewrite Ea, B. reflexivity.
    - destruct (within_found l HF) as (ks & A & B). exists ks. split.
      + apply finds_none; auto. intros k after Hk. rewrite <- (map_fst_ann l) in Hk.
        apply call_candidate in Hk as (c' & a' & closing & E' & Hc' & _). rewrite E in E'. inversion E'; subst. congruence.
      + rewrite <- B. apply split_spec in E as (lead & El & Fl & _). rewrite El, !map_app, !concat_app.
        rewrite (concat_nil (map snd lead)); auto. intros x Hx. apply in_map_iff in Hx as (e & <- & He).
        rewrite Forall_forall in Fl. pose proof (Fl e He) as (t & Et).
        assert (Hin : In e (ann l)) by (rewrite El, in_app_iff; auto). apply in_map_iff in Hin as (n & <- & _). cbn in *. now subst n.
  Qed.
  Lemma every_node n : finds_node n.
  Proof.
    induction n as [t|t m| | | |cs m IH] using node_ind'; cbn [finds_node]; auto.
    destruct (assembled cs IH) as (ks & A & B). exists ks. split; auto.
  Qed.
  Theorem extract_finds ns : exists ks, finds ns ks /\ extract_all_from ns = found ks.
  Proof. apply assembled. apply Forall_forall. intros n _. apply every_node. Qed.

  (** A sequence has at most one call, and one list of calls. *)
  Lemma call_in_fun l k a k' a' : call_in l k a -> call_in l k' a' -> k = k' /\ a = a'.
  Proof.
    intros H H'. assert (El : exists l' : list (N * unit), map fst l' = l)
      by (exists (map (fun c => (c, tt)) l); rewrite map_map; cbn; apply map_id). destruct El as [l' El].
    rewrite <- El in H, H'. apply call_candidate in H as (c & b & cl & E & _ & Ea & Ec).
    apply call_candidate in H' as (c' & b' & cl' & E' & _ & Ea' & Ec'). rewrite E in E'. inversion E'; subst. split; auto.
    rewrite Ec in Ec'. apply app_inj_tail in Ec' as [E1 E2]. destruct k, k'; cbn in *. inversion E2; now subst.
  Qed.
  Lemma finds_fun : (forall l ks, finds l ks -> forall ks', finds l ks' -> ks = ks') /\
    (forall l ks, finds_within l ks -> forall ks', finds_within l ks' -> ks = ks').
  Proof.
    apply finds_mutind.
    - intros l k a ks Hk _ IH ks' H'. inversion H' as [? k' a' ks1 Hk' Hw|? ? Hn Hw]; subst.
      + destruct (call_in_fun _ _ _ _ _ Hk Hk') as [-> ->]. f_equal. now apply IH.
      + now destruct (Hn _ _ Hk).
    - intros l ks Hn _ IH ks' H'. inversion H' as [? k' a' ks1 Hk' Hw|? ? Hn' Hw]; subst; auto. now destruct (Hn _ _ Hk').
    - intros ks' H'. inversion H'; auto.
    - intros n l ks G _ IH ks' H'. inversion H'; subst; auto. now destruct (G kids m).
    - intros kids m l ks1 ks2 _ IH1 _ IH2 ks' H'. inversion H' as [|? ? ? G|]; subst; [now destruct (G kids m)|].
      f_equal; auto.
  Qed.
  Lemma finds_no_group : (forall l ks, finds l ks -> forall k, In k ks -> Forall not_group (callee k) /\ callee k <> []) /\
    (forall l ks, finds_within l ks -> forall k, In k ks -> Forall not_group (callee k) /\ callee k <> []).
  Proof.
    apply finds_mutind; cbn; auto; try contradiction.
    - intros l k a ks (le & be & t & m & cl & A & B & C & D & E) _ IH k' [<-|H]; auto. split; auto. rewrite B. now destruct be.
    - intros kids m l k1 k2 _ IH1 _ IH2 k H. apply in_app_iff in H as [H|H]; auto.
  Qed.
  Theorem extract_marked ns ks : finds ns ks -> Forall2 (marked_call isspace expected) ks (extract_all_from ns).
  Proof.
    intros H. destruct (extract_finds ns) as (ks' & A & B). rewrite (proj1 finds_fun _ _ H _ A), B.
    pose proof (proj1 finds_no_group _ _ A) as G. clear -G. induction ks' as [|k ks IH]; constructor.
    - apply mark_up_call, G. now left.
    - apply IH. intros k' Hk. apply G. now right.
  Qed.

  (** ** Text. *)
  Lemma render_app (a b : list N) : render (a ++ b) = render a ++ render b.
  Proof. unfold render. now rewrite map_app, concat_app. Qed.
  Lemma marked_render l o : marked isspace expected l o -> render o = render l.
  Proof. unfold render. induction 1; cbn in *; rewrite ?IHmarked; auto. Qed.
  Lemma marked_call_render k s : marked_call isspace expected k s -> render s = spelled k ++ chars ")".
  Proof.
    intros (b & a & A & B & _). rewrite B. unfold spelled. change (RegionStart :: ?x) with ([@RegionStart text] ++ x).
    rewrite !render_app, (marked_render _ _ A). rewrite <- !app_assoc. cbn. unfold s_close. now rewrite ?app_nil_r, <- ?app_assoc.
  Qed.
  Lemma in_order_gap gap ts rest : in_order ts rest -> in_order ts (gap ++ rest).
  Proof.
    destruct 1 as [|g t ts rest H]; [constructor|]. rewrite app_assoc. now constructor.
  Qed.
  Lemma in_order_app ts rest ts' rest' : in_order ts rest -> in_order ts' rest' -> in_order (ts ++ ts') (rest ++ rest').
  Proof.
    induction 1 as [t|g t ts rest H IH]; intros H'; cbn.
    - now apply in_order_gap.
    - rewrite <- !app_assoc. constructor. auto.
  Qed.
  Lemma finds_in_order : (forall l ks, finds l ks -> in_order (map spelled ks) (render l)) /\
    (forall l ks, finds_within l ks -> in_order (map spelled ks) (render l)).
  Proof.
    apply finds_mutind.
    - intros l k a ks (le & be & t & m & cl & A & _) _ IH. rewrite A. rewrite !render_app.
      change (render (?x :: ?y)) with (render_node x ++ render y). cbn [map].
      replace (render_node (parenthesis (arguments k) cl)) with (chars "(" ++ render_node (arguments k) ++ render_node cl)
        by (cbn; now rewrite app_nil_r).
      replace (render le ++ render (callee k) ++ (chars "(" ++ render_node (arguments k) ++ render_node cl) ++ render a)
        with (render le ++ spelled k ++ render_node cl ++ render a) by (unfold spelled; now rewrite <- !app_assoc).
      constructor. now apply in_order_gap.
    - auto.
    - constructor.
    - intros n l ks _ _ IH. change (render (?x :: ?y)) with (render_node x ++ render y). now apply in_order_gap.
    - intros kids m l k1 k2 _ IH1 _ IH2. change (render (?x :: ?y)) with (render_node x ++ render y). rewrite map_app. apply in_order_app; auto.
  Qed.
End Extract.
