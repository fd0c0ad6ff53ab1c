(** Indentation as brackets: the written stream is balanced, and where the
    markers stand in it. *)

From Coq Require Import List Bool Arith Lia.
From Verif Require Import Base StackParser StackParserProofs DesugarProofs.
Import ListNotations.

Section Stream.
  Context {T : Type} `{EqDec T}.
  Variables (indent dedent newline : T).

  (** A dedent is followed by a dedent or a newline; an indent is preceded by an
      indent or a newline, but not by a dedent and a newline. *)
  Record tidy_stream (l : list T) : Prop := {
    ts_dedent : forall i, nth_error l i = Some dedent ->
      nth_error l (S i) = Some dedent \/ nth_error l (S i) = Some newline;
    ts_indent : forall i, nth_error l (S i) = Some indent ->
      nth_error l i = Some indent \/ nth_error l i = Some newline;
    ts_between : forall i, nth_error l i = Some dedent -> nth_error l (S i) = Some newline ->
      nth_error l (S (S i)) <> Some indent }.

  (** The same, reading from left to right with the last two tokens at hand. *)
  Definition step_ok (p2 p1 : option T) (t : T) : Prop :=
    (p1 = Some dedent -> t = dedent \/ t = newline) /\
    (t = indent -> p1 = None \/ p1 = Some indent \/ p1 = Some newline) /\
    (p2 = Some dedent -> p1 = Some newline -> t <> indent).
  Fixpoint steps (p2 p1 : option T) (l : list T) : Prop :=
    match l with
    | [] => p1 <> Some dedent
    | t :: l' => step_ok p2 p1 t /\ steps p1 (Some t) l'
    end.
  Fixpoint runs (p2 p1 : option T) (l : list T) : Prop :=
    match l with
    | [] => True
    | t :: l' => step_ok p2 p1 t /\ runs p1 (Some t) l'
    end.
  Fixpoint after (p2 p1 : option T) (l : list T) : option T * option T :=
    match l with [] => (p2, p1) | t :: l' => after p1 (Some t) l' end.
  Lemma runs_app p2 p1 a b : runs p2 p1 (a ++ b) <-> runs p2 p1 a /\ runs (fst (after p2 p1 a)) (snd (after p2 p1 a)) b.
  Proof. revert p2 p1. induction a as [|t a IH]; intros p2 p1; cbn; [tauto|]. rewrite IH. tauto. Qed.
  Lemma after_app p2 p1 a b : after p2 p1 (a ++ b) = after (fst (after p2 p1 a)) (snd (after p2 p1 a)) b.
  Proof. revert p2 p1. induction a as [|t a IH]; intros p2 p1; cbn; auto. Qed.
  Lemma after_snoc p2 p1 a t : after p2 p1 (a ++ [t]) = (snd (after p2 p1 a), Some t).
  Proof. now rewrite after_app. Qed.

  Lemma runs_tidy l : forall p2 p1, runs p2 p1 l -> snd (after p2 p1 l) <> Some dedent ->
    tidy_stream l /\
    (p1 = Some dedent -> exists t l', l = t :: l' /\ (t = dedent \/ t = newline)) /\
    (forall l', l = indent :: l' -> p1 = None \/ p1 = Some indent \/ p1 = Some newline) /\
    (p1 = Some dedent -> forall l', l <> newline :: indent :: l') /\
    (p2 = Some dedent -> p1 = Some newline -> forall l', l <> indent :: l').
  Proof.
    induction l as [|t l IH]; intros p2 p1 HR HA.
    - cbn in HA. splits; try congruence. constructor; intros i E; destruct i; discriminate.
    - destruct HR as [[S1 [S2 S3]] HR]. cbn [after] in HA. destruct (IH _ _ HR HA) as [[T1 T2 T3] [A [B [C D]]]].
      splits.
      + constructor.
        * intros [|i] E; cbn [nth_error] in *.
          -- injection E as ->. destruct (A eq_refl) as [u [l' [-> [-> | -> ]]]]; auto.
          -- destruct l as [|u l]; [destruct i; discriminate|]. apply (T1 i E).
        * intros [|i] E; cbn [nth_error] in E.
          -- destruct l as [|u l]; [discriminate|]. cbn in E. injection E as ->. cbn.
             destruct (B l eq_refl) as [C1|[C1|C1]]; [discriminate|injection C1 as ->; auto..].
          -- apply (T2 i E).
        * intros [|i] E1 E2; cbn [nth_error] in E1, E2 |- *.
          -- injection E1 as ->. destruct l as [|u l]; [discriminate|]. cbn in E2. injection E2 as ->. cbn.
             destruct l as [|v l]; [discriminate|]. cbn. intros [= ->]. now apply (C eq_refl l).
          -- apply (T3 i E1 E2).
      + intros E. eauto.
      + intros l' [= -> <-]. now apply S2.
      + intros E l' [= -> ->]. eapply D; eauto.
      + intros E1 E2 l' [= -> <-]. now apply S3.
  Qed.

  (** *** Balance *)
  Variable pairs : list (T * T).
  Notation all := (pairs ++ [(indent, dedent)]).

  (** Well balanced but for [d] indents that are still open. *)
  Inductive bopen : nat -> list T -> Prop :=
  | bo_base x : balanced all None x -> bopen 0 x
  | bo_in d x y : bopen d x -> balanced all (Some indent) y -> bopen (S d) (x ++ indent :: y).
  Lemma balanced_app' ctx a b : balanced all ctx a -> balanced all ctx b -> balanced all ctx (a ++ b).
  Proof.
    induction 1 as [ctx|ctx t ts H1 H2 HB IH|o t ts H1 H2 HB IH|ctx o c inner ts H1 HB1 IH1 HB2 IH2]; intros Hb; cbn [app]; auto.
    - apply bal_plain; auto.
    - apply bal_stray; auto.
    - rewrite <- app_assoc. cbn [app]. apply bal_pair; auto.
  Qed.
  Lemma bopen_app d x y : bopen d x -> (forall ctx, balanced all ctx y) -> bopen d (x ++ y).
  Proof.
    intros HB Hy. inversion HB as [? H1|d' x' y' H1 H2]; subst.
    - constructor. apply balanced_app'; auto.
    - rewrite <- app_assoc. cbn [app]. constructor; auto. apply balanced_app'; auto.
  Qed.
  Lemma bopen_indents d x n : bopen d x -> bopen (d + n) (x ++ repeat indent n).
  Proof.
    intros HB. revert x d HB. induction n as [|n IH]; intros x d HB; cbn [repeat].
    - now rewrite app_nil_r, Nat.add_0_r.
    - replace (x ++ indent :: repeat indent n) with ((x ++ [indent]) ++ repeat indent n) by (now rewrite <- app_assoc).
      replace (d + S n) with (S d + n) by lia. apply IH. constructor; auto. constructor.
  Qed.
  Lemma pair_in : In (indent, dedent) all.
  Proof. apply in_app_iff. right. now left. Qed.
  Lemma bopen_close d x : bopen (S d) x -> bopen d (x ++ [dedent]).
  Proof.
    intros HB. inversion HB as [|d' x' y' H1 H2]; subst. rewrite <- app_assoc. cbn [app]. apply bopen_app; auto.
    intros ctx. apply bal_pair; [apply pair_in|auto|constructor].
  Qed.
  Lemma bopen_dedents d x n : n <= d -> bopen d x -> bopen (d - n) (x ++ repeat dedent n).
  Proof.
    intros Hn HB. revert x d Hn HB. induction n as [|n IH]; intros x d Hn HB; cbn [repeat].
    - now rewrite app_nil_r, Nat.sub_0_r.
    - replace (x ++ dedent :: repeat dedent n) with ((x ++ [dedent]) ++ repeat dedent n) by (now rewrite <- app_assoc).
      destruct d as [|d]; [lia|]. apply IH; [lia|]. now apply bopen_close.
  Qed.
  Lemma openers_all t : In t (openers all) <-> In t (openers pairs) \/ t = indent.
  Proof. unfold openers. rewrite map_app, in_app_iff. cbn. intuition. Qed.
  Lemma closers_all t : In t (closers all) <-> In t (closers pairs) \/ t = dedent.
  Proof. unfold closers. rewrite map_app, in_app_iff. cbn. intuition. Qed.
  Lemma balanced_all ctx x : balanced pairs ctx x -> ~ In indent x -> ~ In dedent x -> balanced all ctx x.
  Proof.
    induction 1 as [ctx|ctx t ts H1 H2 HB IH|o t ts H1 H2 HB IH|ctx o c inner ts H1 HB1 IH1 HB2 IH2]; intros Hi Hd.
    - constructor.
    - apply bal_plain; [intros C; apply openers_all in C as [C| ->]; auto; apply Hi; now left
                       |intros C; apply closers_all in C as [C| ->]; auto; apply Hd; now left|].
      apply IH; intros C; [apply Hi|apply Hd]; now right.
    - apply bal_stray; [apply closers_all; auto| |apply IH; intros C; [apply Hi|apply Hd]; now right].
      intros C. apply in_app_iff in C as [C|[C|[]]]; auto. injection C as _ ->. apply Hd. now left.
    - apply bal_pair; [apply in_app_iff; auto| |].
      + apply IH1; intros C; [apply Hi|apply Hd]; right; apply in_app_iff; auto.
      + apply IH2; intros C; [apply Hi|apply Hd]; right; apply in_app_iff; right; now right.
  Qed.
  Lemma balanced_any x : balanced pairs None x -> forall ctx, balanced pairs ctx x.
  Proof.
    remember None as c0 eqn:E. intros HB. induction HB as [ctx|ctx t ts H1 H2 HB IH|o t ts H1 H2 HB IH|ctx o c inner ts H1 HB1 IH1 HB2 IH2];
      intros ctx'; try discriminate.
    - constructor.
    - apply bal_plain; auto.
    - apply bal_pair; auto.
  Qed.

  (** The tokens of some of the trees of a forest. *)
  Lemma forest_app ns : forall ctx i ts ms, forest pairs ctx i ts (ns ++ ms) ->
    exists a b, ts = a ++ b /\ forest pairs ctx i a ns /\ forest pairs ctx (i + length a) b ms.
  Proof.
    induction ns as [|n ns IH]; intros ctx i ts ms HF.
    - exists [], ts. cbn [app length]. rewrite Nat.add_0_r. splits; auto. constructor.
    - cbn [app] in HF. inversion HF as [|? ? t ts' ? H1 H2 HF'|o ? t ts' ? H1 H2 HF'|? ? o c inner ms' ts' ? j H1 HF1 HF']; subst.
      + destruct (IH _ _ _ _ HF') as [a [b [-> [A B]]]]. exists (t :: a), b. cbn [app length]. splits; auto.
        * apply fo_plain; auto.
        * now replace (i + S (length a)) with (S i + length a) by lia.
      + destruct (IH _ _ _ _ HF') as [a [b [-> [A B]]]]. exists (t :: a), b. cbn [app length]. splits; auto.
        * apply fo_stray; auto.
        * now replace (i + S (length a)) with (S i + length a) by lia.
      + destruct (IH _ _ _ _ HF') as [a [b [-> [A B]]]]. exists (o :: inner ++ c :: a), b. splits.
        * cbn [app]. rewrite <- app_assoc. reflexivity.
        * apply fo_pair; auto.
        * cbn [length]. rewrite app_length. cbn [length]. unfold j in B.
          replace (i + S (length inner + S (length a))) with (S (S i + length inner) + length a) by lia. exact B.
  Qed.
  (** A tree that ends with a token that is no closer is this token. *)
  Lemma forest_single ctx i a n t : forest pairs ctx i (a ++ [t]) [n] -> ~ In t (closers pairs) -> a = [] /\ n = PNode i (Some (S i)) ASibling [].
  Proof.
    intros HF Ht. remember (a ++ [t]) as l eqn:El. remember [n] as ns eqn:En.
    destruct HF as [|? ? t' ts' ? H1 H2 HF'|o ? t' ts' ? H1 H2 HF'|? ? o c inner ms' ts' ? j H1 HF1 HF']; [discriminate| | |];
      injection En as <- ->; inversion HF'; subst.
    - destruct a as [|x a]; [auto|]. exfalso. injection El as _ El. now destruct a.
    - destruct a as [|x a]; [auto|]. exfalso. injection El as _ El. now destruct a.
    - exfalso. apply Ht. unfold closers.
      replace t with c; [now apply (in_map snd) in H1|].
      replace (o :: inner ++ [c]) with ((o :: inner) ++ [c]) in El by reflexivity. apply app_inj_tail in El. now destruct El.
  Qed.
End Stream.

Section Shape.
  Context {T : Type} `{EqDec T}.
  Variable is_space : nat -> bool.
  Variables (texts : list (list nat)) (tokens : list T) (indent dedent newline : T) (spi : nat).
  Variable pairs : list (T * T).
  Hypothesis Hid : indent <> dedent.
  Hypothesis Hi : ~ In indent tokens.
  Hypothesis Hd : ~ In dedent tokens.
  Hypothesis Hni : newline <> indent.
  Hypothesis Hnd : newline <> dedent.
  Hypothesis Hno : ~ In newline (openers pairs).
  Hypothesis Hnc : ~ In newline (closers pairs).
  (** A newline token reads as white space. *)
  Hypothesis Hspace : forall i, nth_error tokens i = Some newline ->
    exists t, nth_error texts i = Some t /\ t <> [] /\ forallb is_space t = true.
  Notation all := (pairs ++ [(indent, dedent)]).

  Record shape (cur : nat) (out : list T) : Prop := {
    sh_runs : runs indent dedent newline None None out;
    sh_open : exists out0, bopen indent dedent pairs cur out0 /\ (out = [] /\ out0 = [] /\ cur = 0 \/ out = out0 ++ [newline]);
    sh_last : out = [] \/ out = [newline] \/ exists o x, out = o ++ [x; newline] /\ x <> dedent }.

  Lemma newline_plain ctx : balanced all ctx [newline].
  Proof using Hni Hnd Hno Hnc.
    apply bal_plain; [|  |constructor].
    - intros C. apply openers_all in C as [C|C]; auto.
    - intros C. apply closers_all in C as [C|C]; auto.
  Qed.
  Lemma runs_plain l : ~ In indent l -> ~ In dedent l -> forall p2 p1, p1 <> Some dedent ->
    runs indent dedent newline p2 p1 l /\ (l = [] \/ exists l0 x, l = l0 ++ [x] /\ x <> dedent).
  Proof.
    clear. induction l as [|t l IH]; intros Hi Hd p2 p1 Hp; [split; [exact I|now left]|].
    destruct (IH) with (p2 := p1) (p1 := Some t) as [A B].
    - intros C; apply Hi; now right.
    - intros C; apply Hd; now right.
    - intros [= ->]. apply Hd. now left.
    - split.
      + split; auto. unfold step_ok. splits; [contradiction| |].
        * intros ->. exfalso. apply Hi. now left.
        * intros _ _ ->. apply Hi. now left.
      + right. destruct B as [->|[l0 [x [-> Hx]]]].
        * exists [], t. split; auto. intros ->. apply Hd. now left.
        * exists (t :: l0), x. auto.
  Qed.
  Lemma runs_indents n : forall p2 p1, (p1 = None \/ p1 = Some indent \/ p1 = Some newline) ->
    (p1 = Some newline -> p2 <> Some dedent) -> runs indent dedent newline p2 p1 (repeat indent n) /\
    (n = 0 \/ snd (after p2 p1 (repeat indent n)) = Some indent).
  Proof using Hid Hni Hnd.
    clear -Hid Hni Hnd. induction n as [|n IH]; intros p2 p1 Hp Hq; cbn [repeat]; [split; [exact I|now left]|].
    destruct (IH p1 (Some indent)) as [A B]; [auto|intros [= E]; congruence|]. split.
    - split; auto. unfold step_ok. splits; [intros ->; intuition congruence|auto|intros E1 E2; now apply Hq in E2].
    - right. cbn [after]. destruct B as [->|B]; auto.
  Qed.
  Lemma runs_dedents n : forall p2 p1, runs indent dedent newline p2 p1 (repeat dedent n ++ [newline]).
  Proof using Hid Hni.
    clear -Hid Hni. assert (G : forall n p2 p1, (p1 = Some dedent -> True) -> runs indent dedent newline p2 p1 (repeat dedent n ++ [newline])).
    { induction n0 as [|n0 IH]; intros p2 p1 _; cbn [repeat app runs].
      - splits; auto. unfold step_ok. splits; auto; try congruence.
      - split; [|apply IH; auto]. unfold step_ok. splits; auto; congruence. }
    intros. apply G. auto.
  Qed.

  Lemma span_split a b : a < b -> nth_error tokens (b - 1) = Some newline ->
    span tokens a b = span tokens a (b - 1) ++ [newline].
  Proof. exact (span_snoc tokens newline a b). Qed.
  Lemma span_length {A} (l : list A) a b : b <= length l -> length (span l a b) = b - a.
  Proof. intros Hb. unfold span. rewrite firstn_length, skipn_length. lia. Qed.

  Lemma shape_last cur out : shape cur out ->
    let p := after None None out in
    (snd p = None \/ snd p = Some newline) /\ (snd p = Some newline -> fst p <> Some dedent).
  Proof using Hnd.
    intros [_ _ [->|[->|[o [x [-> Hx]]]]]]; cbn [after fst snd].
    - split; [now left|discriminate].
    - split; [now right|discriminate].
    - replace (o ++ [x; newline]) with ((o ++ [x]) ++ [newline]) by (now rewrite <- app_assoc).
      rewrite !after_snoc. cbn [fst snd]. split; [now right|]. congruence.
  Qed.

  (** One line. *)
  Lemma write_shape a b cur out : shape cur out -> a < b -> b <= length tokens -> length texts = length tokens ->
    nth_error tokens (b - 1) = Some newline -> balanced pairs None (span tokens a (b - 1)) ->
    forall i, (line_indent is_space spi (concat (span texts a b)) = Some i \/
       line_indent is_space spi (concat (span texts a b)) = None /\ i = cur) ->
    exists out', write_change newline indent dedent cur i out = Ok out' /\ shape i (out' ++ span tokens a b).
  Proof using Hid Hi Hd Hni Hnd Hno Hnc Hspace.
    intros HS Hab Hb Hlt En Hbal i Hline. pose proof HS as [S1 [out0 [S2 S3]] S4].
    pose proof (span_split a b Hab En) as Sn. set (body := span tokens a (b - 1)) in *.
    assert (Bi : ~ In indent body) by (intros C; apply In_firstn in C; apply In_skipn in C; auto).
    assert (Bd : ~ In dedent body) by (intros C; apply In_firstn in C; apply In_skipn in C; auto).
    assert (Si : ~ In indent (span tokens a b)) by (intros C; apply In_firstn in C; apply In_skipn in C; auto).
    assert (Sd : ~ In dedent (span tokens a b)) by (intros C; apply In_firstn in C; apply In_skipn in C; auto).
    assert (Ball : forall ctx, balanced all ctx body).
    { intros ctx. apply balanced_all; auto. now apply balanced_any. }
    (* a line of a newline only is blank *)
    assert (Hbody : i = cur \/ body <> []).
    { destruct Hline as [El|[_ ->]]; [|now left]. right. intros C.
      assert (Lb : length body = 0) by now rewrite C. unfold body in Lb. rewrite span_length in Lb by lia.
      assert (b = S a) by lia. subst b. replace (S a - 1) with a in * by lia.
      destruct (Hspace a En) as [t [Et [Ht Hs]]]. unfold span in El. replace (S a - a) with 1 in El by lia.
      assert (Ek : firstn 1 (skipn a texts) = [t]).
      { pose proof (nth_skipn texts a 0) as Nk. rewrite Nat.add_0_r, Et in Nk. destruct (skipn a texts) as [|u l]; [discriminate|].
        cbn in Nk. injection Nk as ->. reflexivity. }
      rewrite Ek in El. cbn [concat] in El. rewrite app_nil_r in El. unfold line_indent in El. rewrite Hs in El.
      destruct t as [|z t]; [congruence|]. cbn in El. discriminate. }
    destruct (shape_last _ _ HS) as [L1 L2]. cbn zeta in L1, L2.
    (* what is left to show of the text written so far *)
    assert (Fin : forall out' x0, write_change newline indent dedent cur i out = Ok out' ->
              runs indent dedent newline None None out' -> snd (after None None out') <> Some dedent ->
              bopen indent dedent pairs i x0 -> (out' = x0 \/ out' = x0 ++ [newline]) ->
              (out' = [] \/ out' = [newline] \/ (exists o x, out' = o ++ [x; newline] /\ x <> dedent) \/ body <> []) ->
              exists out'', write_change newline indent dedent cur i out = Ok out'' /\ shape i (out'' ++ span tokens a b)).
    { intros out' x0 Ew R A B Bx Hl. exists out'. split; auto. constructor.
      - apply runs_app. split; auto. now apply runs_plain.
      - exists (out' ++ body). split.
        + apply bopen_app; auto. destruct Bx as [-> | ->]; auto. apply bopen_app; auto. intros ctx. apply newline_plain.
        + right. now rewrite Sn, app_assoc.
      - right. destruct (runs_plain body Bi Bd None None) as [_ [Hb0|[l0 [x [Hb0 Hx]]]]]; [discriminate| |].
        + rewrite Hb0 in Sn. rewrite Sn. cbn [app]. destruct Hl as [-> |[-> |[[o [x [-> Hx]]]|Hl]]].
          * now left.
          * right. exists [], newline. auto.
          * right. exists (o ++ [x]), newline. rewrite <- !app_assoc. auto.
          * contradiction.
        + right. exists (out' ++ l0), x. rewrite Sn, Hb0. rewrite <- !app_assoc. auto. }
    unfold write_change in Fin |- *. destruct (cur <? i) eqn:E1.
    - apply Nat.ltb_lt in E1. destruct (runs_indents (i - cur) (fst (after None None out)) (snd (after None None out))) as [R1 R2].
      { destruct L1; auto. } { auto. }
      assert (Bx : bopen indent dedent pairs i (out ++ repeat indent (i - cur))).
      { replace i with (cur + (i - cur)) at 1 by lia. apply bopen_indents.
        destruct S3 as [[-> [-> ->]]| ->]; auto. apply bopen_app; auto. intros ctx. apply newline_plain. }
      eapply Fin; [reflexivity| | |exact Bx|now left|].
      + apply runs_app. auto.
      + rewrite after_app. destruct R2 as [R2|R2]; [lia|]. rewrite R2. congruence.
      + right. right. right. destruct Hbody; [lia|auto].
    - apply Nat.ltb_ge in E1. destruct (i <? cur) eqn:E2.
      + apply Nat.ltb_lt in E2. destruct S3 as [[-> [-> ->]]| ->]; [lia|].
        rewrite rev_app_distr in Fin |- *. cbn [rev app] in Fin |- *. rewrite eqb_refl, rev_involutive in Fin |- *.
        assert (Bx : bopen indent dedent pairs i (out0 ++ repeat dedent (cur - i))).
        { replace i with (cur - (cur - i)) at 1 by lia. apply bopen_dedents; [lia|auto]. }
        eapply Fin; [reflexivity| | |exact Bx|right; now rewrite <- app_assoc|].
        * apply runs_app in S1 as [S1 _]. apply runs_app. split; auto. apply runs_dedents.
        * rewrite app_assoc, after_snoc. cbn. congruence.
        * right. right. right. destruct Hbody; [lia|auto].
      + apply Nat.ltb_ge in E2. assert (i = cur) by lia. subst i.
        eapply Fin; [reflexivity|auto| |exact S2| |].
        * destruct L1 as [-> | ->]; congruence.
        * destruct S3 as [[-> [-> _]]| ->]; auto.
        * destruct S4 as [->|[->|[o [x [-> Hx]]]]]; auto. right. right. left. eauto.
  Qed.

  Lemma lines_shape cs a ls : lines_of tokens newline a cs ls ->
    length texts = length tokens ->
    Forall (fun c => forall h, p_hi c = Some h -> p_lo c < h) cs ->
    (exists ts, forest pairs None a ts cs /\ ts = skipn a tokens /\ a + length ts = length tokens) ->
    forall cur out, shape cur out ->
    exists cur' out', desugar_loop is_space texts tokens indent dedent newline spi cur out
                        (map (fun r => (fst r, Some (snd r))) ls) = Ok (cur', out') /\ shape cur' out'.
  Proof using Hid Hi Hd Hni Hnd Hno Hnc Hspace.
    induction 1 as [a|a b cs rest ls Hn Ht Hq En Hr IH]; intros Hlt Hne [ts [HF [Ets Ela]]] cur out HS.
    - exists cur, out. auto.
    - apply Forall_app in Hne as [Hne1 Hne2].
      destruct (forest_app _ _ _ _ _ _ HF) as [x [y [E [F1 F2]]]].
      pose proof (forest_tiles _ _ _ _ _ F1) as T1.
      assert (Eb : b = a + length x).
      { destruct cs as [|c cs]; [congruence|]. destruct (tiles_check _ _ _ Ht ltac:(discriminate)) as [_ [Q1 _]].
        destruct (tiles_check _ _ _ T1 ltac:(discriminate)) as [_ [Q2 _]]. specialize (Q1 c). specialize (Q2 c). congruence. }
      assert (Hab : a < b).
      { destruct cs as [|c cs]; [congruence|]. inversion Ht as [|? mid ? ann ccs ? Hle Hc Hrr]; subst.
        inversion Hne1 as [|? ? Q ?]; subst. specialize (Q mid eq_refl). cbn in Q. apply tiles_le in Hrr. lia. }
      rewrite E in Ela. rewrite app_length in Ela.
      (* the last tree of the line is the newline *)
      assert (Ex : span tokens a b = x).
      { unfold span. rewrite <- Ets, E. rewrite Eb. replace (a + length x - a) with (length x) by lia.
        rewrite firstn_app, Nat.sub_diag, firstn_all. cbn. apply app_nil_r. }
      pose proof (span_split a b Hab En) as Sn. rewrite Ex in Sn.
      assert (Hbal : balanced pairs None (span tokens a (b - 1))).
      { destruct (exists_last Hn) as [cs0 [n0 Ecs]]. rewrite Ecs in F1.
        destruct (forest_app _ _ _ _ _ _ F1) as [u [v [Eu [G1 G2]]]].
        assert (Hv : v <> []) by (intros ->; inversion G2).
        destruct (exists_last Hv) as [v0 [t Ev]]. subst v. rewrite Eu, app_assoc in Sn. apply app_inj_tail in Sn as [Sn ->].
        destruct (forest_single _ _ _ _ _ _ G2 Hnc) as [-> _]. rewrite app_nil_r in Sn. rewrite <- Sn.
        eapply forest_balanced. exact G1. }
      cbn [map fst snd desugar_loop].
      assert (G : exists i out', (match line_indent is_space spi (concat (py_slice (a, Some b) texts)) with
                | None => Ok (cur, out)
                | Some i => do out' <- write_change newline indent dedent cur i out; Ok (i, out')
                end) = Ok (i, out') /\ shape i (out' ++ span tokens a b)).
      { change (py_slice (a, Some b) texts) with (span texts a b).
        destruct (line_indent is_space spi (concat (span texts a b))) as [i|] eqn:El.
        - destruct (write_shape a b cur out HS Hab ltac:(lia) Hlt En Hbal i (or_introl El)) as [out' [Ew HS']].
          rewrite Ew. cbn [bind]. eauto.
        - destruct (write_shape a b cur out HS Hab ltac:(lia) Hlt En Hbal cur (or_intror (conj El eq_refl))) as [out' [Ew HS']].
          unfold write_change in Ew. rewrite Nat.ltb_irrefl in Ew. injection Ew as <-. eauto. }
      destruct G as [i [out' [Eg HS']]]. rewrite Eg. cbn [bind fst snd].
      change (py_slice (a, Some b) tokens) with (span tokens a b).
      apply IH; auto. exists y. rewrite <- Eb in F2. splits; auto; [|lia].
      rewrite Eb. rewrite Nat.add_comm. clear -E Ets. revert E. rewrite Ets. clear. revert a. intros a E.
      assert (Z : forall (l : list T) n m, skipn (n + m) l = skipn n (skipn m l)).
      { clear. intros l n m. revert l. induction m as [|m IHm]; intros l; [now rewrite Nat.add_0_r|].
        rewrite Nat.add_succ_r. destruct l as [|z l]; [now destruct n|]. cbn [skipn]. apply IHm. }
      rewrite Z, E. rewrite skipn_app, skipn_all, Nat.sub_diag. reflexivity.
  Qed.

  Theorem desugar_shape ns out :
    forest pairs None 0 tokens ns -> length texts = length tokens -> tokens <> [] ->
    nth_error tokens (length tokens - 1) = Some newline ->
    python_indent_dedent_desugar is_space (PNode 0 (Some (length tokens)) ARoot ns) texts tokens indent dedent newline spi = Ok out ->
    tidy_stream indent dedent newline out /\ balanced all None out.
  Proof using Hid Hi Hd Hni Hnd Hno Hnc Hspace.
    intros HF Hlt Hnt Hl E. unfold python_indent_dedent_desugar in E. cbn [p_children] in E.
    pose proof (forest_tiles _ _ _ _ _ HF) as Ht. cbn [Nat.add] in Ht.
    assert (Hne : Forall (fun c => forall h, p_hi c = Some h -> p_lo c < h) ns).
    { clear -HF. induction HF; constructor; auto; cbn; intros h E0; injection E0 as <-; try (unfold j); lia. }
    destruct (line_slices_spec tokens newline ns 0 0 []) as [ls [L1 L2]]; [exact Ht|exact Hne|auto|auto|constructor|constructor|].
    cbn [app hd_error] in L1, L2. rewrite L2 in E. cbn [bind] in E.
    destruct (lines_shape _ _ _ L1 Hlt Hne) with (cur := 0) (out := @nil T) as [cur [out1 [E1 HS]]].
    - exists tokens. splits; auto.
    - constructor; auto; [exact I|]. exists []. split; [constructor; constructor|]. auto.
    - rewrite E1 in E. cbn [bind fst snd] in E. destruct (shape_last _ _ HS) as [M1 M2]. cbn zeta in M1, M2.
      pose proof HS as [S1 [out0 [S2 S3]] S4].
      assert (Fin : forall o, runs indent dedent newline None None o -> snd (after None None o) <> Some dedent ->
                bopen indent dedent pairs 0 o -> tidy_stream indent dedent newline o /\ balanced all None o).
      { intros o R A B. split; [now apply (runs_tidy indent dedent newline o None None)|]. now inversion B. }
      unfold write_change in E. replace (cur <? 0) with false in E by (symmetry; apply Nat.ltb_ge; lia).
      destruct (0 <? cur) eqn:E2.
      + apply Nat.ltb_lt in E2. destruct S3 as [[-> [-> ->]]| ->]; [lia|].
        rewrite rev_app_distr in E. cbn [rev app] in E. rewrite eqb_refl, rev_involutive in E. injection E as <-.
        apply Fin.
        * apply runs_app in S1 as [S1 _]. apply runs_app. split; auto. apply runs_dedents.
        * rewrite app_assoc, after_snoc. cbn. congruence.
        * rewrite app_assoc. apply bopen_app; [|intros ctx; apply newline_plain].
          replace 0 with (cur - (cur - 0)) at 1 by lia. apply bopen_dedents; [lia|auto].
      + apply Nat.ltb_ge in E2. assert (cur = 0) by lia. subst cur. injection E as <-.
        apply Fin; auto.
        * destruct M1 as [-> | ->]; congruence.
        * destruct S3 as [[-> [-> _]]| ->]; auto. apply bopen_app; auto. intros ctx. apply newline_plain.
  Qed.
End Shape.
