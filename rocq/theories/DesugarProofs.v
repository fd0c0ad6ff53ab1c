(** Python indentation as brackets: specification and proofs. *)

From Coq Require Import List Bool Arith Lia.
From Verif Require Import Base StackParser StackParserProofs.
Import ListNotations.

Section Spec.
  Context {T : Type} `{EqDec T}.

  Definition occurrences (t : T) (l : list T) : nat := length (filter (eqb t) l).
  Definition without_markers (indent dedent : T) (l : list T) : list T :=
    filter (fun t => negb (eqb t indent) && negb (eqb t dedent)) l.
  (** The top-level lines: runs of children, each run ending with the first child
      whose last token is a newline. *)
  Inductive lines_of (tokens : list T) (newline : T) : nat -> list pnode -> list (nat * nat) -> Prop :=
  | lines_nil a : lines_of tokens newline a [] []
  | lines_cons a b cs rest ls :
      cs <> [] -> tiles a b cs ->
      Forall (fun c => forall h, p_hi c = Some h -> nth_error tokens (h - 1) <> Some newline) (removelast cs) ->
      nth_error tokens (b - 1) = Some newline ->
      lines_of tokens newline b rest ls ->
      lines_of tokens newline a (cs ++ rest) ((a, b) :: ls).
  Definition span {A} (l : list A) (a b : nat) : list A := firstn (b - a) (skipn a l).

  Lemma occ_app t a b : occurrences t (a ++ b) = occurrences t a + occurrences t b.
  Proof. unfold occurrences. now rewrite filter_app, app_length. Qed.
  Lemma occ_repeat t n : occurrences t (repeat t n) = n.
  Proof. unfold occurrences. induction n; cbn; auto. rewrite eqb_refl. cbn. now rewrite IHn. Qed.
  Lemma occ_repeat_other t u n : t <> u -> occurrences t (repeat u n) = 0.
  Proof. intros Hn. unfold occurrences. induction n; cbn; auto. now rewrite neq_eqb. Qed.
  Lemma occ_none t l : ~ In t l -> occurrences t l = 0.
  Proof.
    intros Hn. unfold occurrences. induction l as [|x l IH]; auto. cbn [filter]. rewrite neq_eqb.
    - apply IH. intros C. apply Hn. now right.
    - intros ->. apply Hn. now left.
  Qed.
End Spec.

Section LineSlices.
  Context {T : Type} `{EqDec T}.
  Variables (tokens : list T) (newline : T).

  Lemma line_slices_spec l : forall a b pre,
    tiles b (length tokens) l -> Forall (fun c => forall h, p_hi c = Some h -> p_lo c < h) l ->
    (l = [] -> pre = []) -> (l <> [] -> nth_error tokens (length tokens - 1) = Some newline) ->
    tiles a b pre -> Forall (fun c => forall h, p_hi c = Some h -> nth_error tokens (h - 1) <> Some newline) pre ->
    exists ls, lines_of tokens newline a (pre ++ l) ls /\
      line_slices tokens newline (hd_error pre) l = Ok (map (fun r => (fst r, Some (snd r))) ls).
  Proof.
    induction l as [|c l IH]; intros a b pre Ht Hne Hp Hl Hpre Hq.
    - rewrite Hp by auto. exists []. split; [constructor|reflexivity].
    - inversion Ht as [|? mid ? ann cs ? Hle Hc Hr]; subst. clear Hp.
      inversion Hne as [|? ? Hc0 Hne']; subst. specialize (Hc0 mid eq_refl). cbn [p_lo] in Hc0.
      cbn [line_slices p_hi]. pose proof (tiles_le _ _ _ Hr).
      destruct (token_at_ok tokens (mid - 1)) as [t [Et En]]; [lia|]. rewrite Et. cbn [bind].
      set (c := PNode b (Some mid) ann cs) in *.
      assert (Tpc : tiles a mid (pre ++ [c])).
      { eapply tiles_app; [exact Hpre|]. constructor; auto. constructor. }
      assert (Hf : p_lo (match hd_error pre with None => c | Some f => f end) = a).
      { destruct pre as [|p0 pre]; cbn [hd_error].
        - inversion Hpre; subst. reflexivity.
        - inversion Hpre; subst. reflexivity. }
      destruct (eqb t newline) eqn:Eq.
      + apply eqb_eq in Eq. subst t.
        destruct (IH mid mid [] Hr Hne') as [ls [L1 L2]]; auto; try constructor.
        { intros Hn. apply Hl. discriminate. }
        cbn [app hd_error] in L1, L2. rewrite L2. cbn [bind].
        exists ((a, mid) :: ls). split; [|cbn [map fst snd]; now rewrite Hf].
        replace (pre ++ c :: l) with ((pre ++ [c]) ++ l) by (rewrite <- app_assoc; reflexivity).
        constructor; auto.
        * destruct pre; discriminate.
        * now rewrite removelast_last.
      + apply eqb_neq in Eq.
        destruct (IH a mid (pre ++ [c])) as [ls [L1 L2]]; auto.
        * intros ->. exfalso. inversion Hr; subst. specialize (Hl ltac:(discriminate)). congruence.
        * intros Hn. apply Hl. discriminate.
        * apply Forall_app. split; auto. constructor; auto. intros h [= <-]. congruence.
        * exists ls. rewrite <- app_assoc in L1. split; auto. rewrite <- L2. f_equal.
          destruct pre as [|p0 pre]; reflexivity.
  Qed.
End LineSlices.

Section DesugarProofs.
  Context {T : Type} `{EqDec T}.
  Variable is_space : nat -> bool.
  Variables (texts : list (list nat)) (tokens : list T) (indent dedent newline : T) (spi : nat).
  Hypothesis Hid : indent <> dedent.
  Hypothesis Hi : ~ In indent tokens.
  Hypothesis Hd : ~ In dedent tokens.

  Notation without := (without_markers indent dedent).
  Notation occ := occurrences.
  Lemma without_app a b : without (a ++ b) = without a ++ without b.
  Proof. apply filter_app. Qed.
  Lemma without_none l : ~ In indent l -> ~ In dedent l -> without l = l.
  Proof.
    clear. intros Hi Hd. unfold without_markers. induction l as [|x l IH]; auto. cbn [filter].
    rewrite !neq_eqb; [cbn; f_equal; apply IH; intros C; [apply Hi|apply Hd]; now right| |];
      intros ->; [apply Hd|apply Hi]; now left.
  Qed.
  Lemma without_indents n : without (repeat indent n) = [].
  Proof. clear. unfold without_markers. induction n; cbn; auto. now rewrite eqb_refl. Qed.
  Lemma without_dedents n : without (repeat dedent n) = [].
  Proof. clear. unfold without_markers. induction n; cbn; auto. rewrite eqb_refl. now rewrite andb_false_r. Qed.
  Lemma In_firstn {A} n (l : list A) x : In x (firstn n l) -> In x l.
  Proof. intros Hx. rewrite <- (firstn_skipn n l). apply in_or_app. now left. Qed.
  Lemma In_skipn {A} n (l : list A) x : In x (skipn n l) -> In x l.
  Proof. intros Hx. rewrite <- (firstn_skipn n l). apply in_or_app. now right. Qed.
  Lemma span_In a b t : In t (span tokens a b) -> In t tokens.
  Proof. intros Ht. apply In_firstn in Ht. now apply In_skipn in Ht. Qed.
  Lemma span_plain a b : without (span tokens a b) = span tokens a b /\ occ indent (span tokens a b) = 0 /\ occ dedent (span tokens a b) = 0.
  Proof using Hi Hd.
    splits; [apply without_none|apply occ_none|apply occ_none]; intros C; apply span_In in C; auto.
  Qed.
  Lemma firstn_span {A} (l : list A) a b : a <= b -> firstn a l ++ span l a b = firstn b l.
  Proof.
    intros Hab. unfold span. replace b with (a + (b - a)) at 2 by lia. revert l b Hab.
    induction a as [|a IH]; intros l b Hab; cbn [firstn skipn app]; [now rewrite Nat.sub_0_r|].
    destruct l as [|x l]; [now rewrite firstn_nil|]. cbn [app plus firstn]. f_equal.
    replace (b - S a) with ((b - 1) - a) by lia. apply IH. lia.
  Qed.
  Lemma firstn_snoc {A} (l : list A) k x : nth_error l k = Some x -> firstn (S k) l = firstn k l ++ [x].
  Proof.
    clear. revert l. induction k as [|k IH]; intros [|y l] E; try discriminate; cbn in E |- *.
    - now injection E as ->.
    - f_equal. now apply IH.
  Qed.
  Lemma nth_skipn {A} (l : list A) a k : nth_error (skipn a l) k = nth_error l (a + k).
  Proof.
    clear. revert l. induction a as [|a IH]; intros l; auto. destruct l as [|x l]; [now destruct k|]. cbn. apply IH.
  Qed.
  Lemma span_snoc a b : a < b -> nth_error tokens (b - 1) = Some newline ->
    span tokens a b = span tokens a (b - 1) ++ [newline].
  Proof.
    intros Hab En. unfold span. replace (b - a) with (S (b - 1 - a)) by lia. apply firstn_snoc.
    rewrite nth_skipn. rewrite <- En. f_equal. lia.
  Qed.

  (** Never more dedents than indents. *)
  Definition nested (out : list T) : Prop := forall A B, out = A ++ B -> occ dedent A <= occ indent A.
  (** Every line seen so far stands at its own depth. *)
  Definition line_placed (out : list T) (l : nat * nat) : Prop :=
    forall i, line_indent is_space spi (concat (span texts (fst l) (snd l))) = Some i ->
    exists A B, out = A ++ span tokens (fst l) (snd l - 1) ++ B ++ [newline] /\
      without A = firstn (fst l) tokens /\ occ indent A = occ dedent A + i.
  Record inv (done : list (nat * nat)) (at_ cur : nat) (out : list T) : Prop := mkInv {
    inv_without : without out = firstn at_ tokens;
    inv_depth : occ indent out = occ dedent out + cur;
    inv_nested : nested out;
    inv_last : out = [] /\ cur = 0 \/ exists out0, out = out0 ++ [newline];
    inv_lines : Forall (line_placed out) done }.

  Lemma nested_app a b : nested a -> (forall A B, b = A ++ B -> occ dedent a + occ dedent A <= occ indent a + occ indent A) ->
    nested (a ++ b).
  Proof.
    intros Ha Hb A B E. apply app_eq_app in E as [l [[-> ->]|[-> ->]]].
    - now apply (Ha A l).
    - rewrite !occ_app. now apply (Hb l B).
  Qed.
  Lemma occ_prefix t (a A B : list T) : a = A ++ B -> occ t A <= occ t a.
  Proof. intros ->. rewrite occ_app. lia. Qed.

  (** Writing a change of depth and then a whole line. *)
  Lemma write_line (done : list (nat * nat)) a b cur out l :
    inv done a cur out -> newline <> indent -> newline <> dedent -> a < b -> nth_error tokens (b - 1) = Some newline ->
    l = (a, b) -> forall i, (line_indent is_space spi (concat (span texts a b)) = Some i \/
       line_indent is_space spi (concat (span texts a b)) = None /\ i = cur) ->
    exists out', write_change newline indent dedent cur i out = Ok out' /\
      inv (l :: done) b i (out' ++ span tokens a b).
  Proof using Hid Hi Hd.
    intros [I1 I2 I3 I4 I5] Hni Hnd Hab En -> i Hline.
    destruct (span_plain a b) as [S1 [S2 S3]].
    pose proof (span_snoc a b Hab En) as Sn.
    assert (Fin : forall out', without out' = firstn a tokens -> occ indent out' = occ dedent out' + i -> nested out' ->
              (forall p, line_placed out p -> line_placed (out' ++ span tokens a b) p) ->
              inv ((a, b) :: done) b i (out' ++ span tokens a b)).
    { intros out' W D N L. constructor.
      - rewrite without_app, W, S1. apply firstn_span. lia.
      - rewrite !occ_app, S2, S3. lia.
      - apply nested_app; auto. intros A B E. pose proof (occ_prefix dedent _ _ _ E). lia.
      - right. exists (out' ++ span tokens a (b - 1)). now rewrite Sn, app_assoc.
      - constructor.
        + intros i' Ei'. cbn [fst snd] in *. assert (i' = i) by (destruct Hline as [E|[E _]]; congruence). subst i'.
          exists out', []. splits; auto. rewrite Sn. cbn [app]. reflexivity.
        + eapply Forall_impl; [|exact I5]. apply L. }
    assert (Keep : forall p, line_placed out p -> line_placed (out ++ span tokens a b) p).
    { intros p Hp i' Ei'. destruct (Hp i' Ei') as [A [B [-> [W D]]]].
      exists A, (B ++ [newline] ++ span tokens a (b - 1)). splits; auto. rewrite Sn.
      rewrite <- !app_assoc. cbn [app]. rewrite <- ?app_assoc. reflexivity. }
    unfold write_change. destruct (cur <? i) eqn:E1.
    - apply Nat.ltb_lt in E1. eexists. split; [reflexivity|]. apply Fin.
      + now rewrite without_app, without_indents, app_nil_r.
      + rewrite !occ_app, occ_repeat, occ_repeat_other by auto. lia.
      + apply nested_app; auto. intros A B E. pose proof (occ_prefix dedent _ _ _ E) as Hp.
        rewrite occ_repeat_other in Hp by auto. specialize (I3 out [] ltac:(now rewrite app_nil_r)). lia.
      + intros p Hp i' Ei'. destruct (Hp i' Ei') as [A [B [-> [W D]]]].
        exists A, (B ++ [newline] ++ repeat indent (i - cur) ++ span tokens a (b - 1)). splits; auto. rewrite Sn.
        rewrite <- !app_assoc. cbn [app]. rewrite <- ?app_assoc. reflexivity.
    - apply Nat.ltb_ge in E1. destruct (i <? cur) eqn:E2.
      + apply Nat.ltb_lt in E2. destruct I4 as [[-> ->]|[out0 ->]]; [lia|].
        rewrite rev_app_distr. cbn [rev app]. rewrite eqb_refl, rev_involutive. eexists. split; [reflexivity|].
        rewrite occ_app in I2. rewrite (occ_app dedent) in I2.
        assert (Z1 : occ indent [newline] = 0) by (apply occ_none; intros [C|[]]; auto).
        assert (Z2 : occ dedent [newline] = 0) by (apply occ_none; intros [C|[]]; auto).
        rewrite without_app in I1. apply Fin.
        * rewrite !without_app, without_dedents. cbn [app]. exact I1.
        * rewrite !occ_app, occ_repeat, occ_repeat_other by auto. lia.
        * apply nested_app; [intros A B ->; apply (I3 A (B ++ [newline])); now rewrite <- app_assoc|].
          intros A B E. pose proof (occ_prefix dedent _ _ _ E) as Hp. rewrite occ_app, occ_repeat in Hp. lia.
        * intros p Hp i' Ei'. destruct (Hp i' Ei') as [A [B [E [W D]]]].
          rewrite !app_assoc in E. apply app_inj_tail in E as [-> _].
          exists A, (B ++ repeat dedent (cur - i) ++ [newline] ++ span tokens a (b - 1)). splits; auto. rewrite Sn.
          rewrite <- !app_assoc. cbn [app]. rewrite <- ?app_assoc. reflexivity.
      + apply Nat.ltb_ge in E2. assert (i = cur) by lia. subst i. eexists. split; [reflexivity|]. apply Fin; auto.
  Qed.

  Lemma lines_of_bounds a cs ls : lines_of tokens newline a cs ls ->
    Forall (fun c => forall h, p_hi c = Some h -> p_lo c < h) cs -> forall n, tiles a n cs ->
    (forall b, tiles a b cs -> b = n).
  Proof.
    intros _ _ n Ht b Hb. destruct cs as [|c cs]; [inversion Ht; inversion Hb; subst; auto|].
    destruct (tiles_check _ _ _ Ht ltac:(discriminate)) as [_ [E1 _]].
    destruct (tiles_check _ _ _ Hb ltac:(discriminate)) as [_ [E2 _]]. specialize (E1 c). specialize (E2 c). congruence.
  Qed.
  Lemma desugar_loop_spec cs a ls : lines_of tokens newline a cs ls ->
    Forall (fun c => forall h, p_hi c = Some h -> p_lo c < h) cs -> newline <> indent -> newline <> dedent ->
    forall done cur out, inv done a cur out ->
    exists cur' out' a', desugar_loop is_space texts tokens indent dedent newline spi cur out
                        (map (fun r => (fst r, Some (snd r))) ls) = Ok (cur', out') /\
      tiles a a' cs /\ inv (rev ls ++ done) a' cur' out'.
  Proof using Hid Hi Hd.
    induction 1 as [a|a b cs rest ls Hn Ht Hq En Hr IH]; intros Hne Hni Hnd done cur out HI.
    - exists cur, out, a. splits; auto. constructor.
    - apply Forall_app in Hne as [Hne1 Hne2].
      assert (Hab : a < b).
      { destruct cs as [|c cs]; [congruence|]. inversion Ht as [|? mid ? ann ccs ? Hle Hc Hrr]; subst.
        inversion Hne1; subst. specialize (H2 mid eq_refl). cbn in H2. apply tiles_le in Hrr. lia. }
      cbn [map fst snd desugar_loop].
      assert (G : exists i out', (match line_indent is_space spi (concat (py_slice (a, Some b) texts)) with
                | None => Ok (cur, out)
                | Some i => do out' <- write_change newline indent dedent cur i out; Ok (i, out')
                end) = Ok (i, out') /\ inv ((a, b) :: done) b i (out' ++ span tokens a b)).
      { change (py_slice (a, Some b) texts) with (span texts a b).
        destruct (line_indent is_space spi (concat (span texts a b))) as [i|] eqn:El.
        - destruct (write_line done a b cur out (a, b) HI Hni Hnd Hab En eq_refl i (or_introl El)) as [out' [Ew HI']].
          rewrite Ew. cbn [bind]. eauto.
        - destruct (write_line done a b cur out (a, b) HI Hni Hnd Hab En eq_refl cur (or_intror (conj El eq_refl))) as [out' [Ew HI']].
          unfold write_change in Ew. rewrite Nat.ltb_irrefl in Ew. injection Ew as <-. eauto. }
      destruct G as [i [out' [E HI']]]. rewrite E. cbn [bind fst snd].
      change (py_slice (a, Some b) tokens) with (span tokens a b).
      destruct (IH Hne2 Hni Hnd _ _ _ HI') as [cur'' [out'' [a' [E' [Ht' HI'']]]]].
      exists cur'', out'', a'. splits; auto.
      + eapply tiles_app; eauto.
      + cbn [rev]. now rewrite <- app_assoc.
  Qed.

  Theorem desugar_spec root : 0 < spi ->
    tiles 0 (length tokens) (p_children root) ->
    Forall (fun c => forall h, p_hi c = Some h -> p_lo c < h) (p_children root) ->
    (tokens <> [] -> nth_error tokens (length tokens - 1) = Some newline) ->
    exists ls out, lines_of tokens newline 0 (p_children root) ls /\
      python_indent_dedent_desugar is_space root texts tokens indent dedent newline spi = Ok out /\
      without out = tokens /\ occ indent out = occ dedent out /\ nested out /\
      Forall (line_placed out) ls.
  Proof using Hid Hi Hd.
    intros Hs Ht Hne Hl. unfold python_indent_dedent_desugar.
    destruct (line_slices_spec tokens newline (p_children root) 0 0 []) as [ls [L1 L2]]; auto; try constructor.
    { intros Hn. apply Hl. intros E. rewrite E in Ht. cbn [length] in Ht. destruct (p_children root) as [|c cs]; [congruence|].
      inversion Ht as [|? mid ? ann ccs ? Hle Hc Hr]; subst. inversion Hne; subst. specialize (H2 mid eq_refl). cbn in H2.
      apply tiles_le in Hr. lia. }
    cbn [app hd_error] in L1, L2. rewrite L2. cbn [bind].
    destruct (list_eq_dec eq_dec tokens []) as [E|Hnt].
    { (* no tokens, no lines *)
      assert (p_children root = []).
      { rewrite E in Ht. destruct (p_children root) as [|c cs]; auto.
        inversion Ht as [|? mid ? ann ccs ? Hle Hc Hr]; subst. inversion Hne; subst. specialize (H2 mid eq_refl). cbn in H2.
        apply tiles_le in Hr. cbn [length] in Hr. lia. }
      rewrite H0 in L1. inversion L1 as [|? ? cs ? ? Hcs Htt Hq Hnn Hr Ecs]; [|destruct cs; [congruence|discriminate]].
      subst ls. exists [], []. cbn [map desugar_loop bind fst snd]. unfold write_change. cbn [Nat.ltb Nat.leb].
      splits; auto.
      - rewrite H0. constructor.
      - intros A B EA. symmetry in EA. apply app_eq_nil in EA as [-> ->]. reflexivity. }
    assert (Hnl : In newline tokens) by (eapply nth_error_In; eauto).
    assert (Hni : newline <> indent) by (intros C; subst; auto).
    assert (Hnd : newline <> dedent) by (intros C; subst; auto).
    assert (HI0 : inv [] 0 0 []).
    { constructor; auto. intros A B EA. symmetry in EA. apply app_eq_nil in EA as [-> ->]. reflexivity. }
    destruct (desugar_loop_spec _ _ _ L1 Hne Hni Hnd _ _ _ HI0) as [cur [out [a' [E [Ht' [I1 I2 I3 I4 I5]]]]]].
    rewrite E. cbn [bind fst snd]. rewrite app_nil_r in I5.
    assert (Ea : a' = length tokens) by (eapply lines_of_bounds; eauto). subst a'. rewrite firstn_all in I1.
    apply Forall_rev in I5. rewrite rev_involutive in I5.
    unfold write_change. replace (cur <? 0) with false by (symmetry; apply Nat.ltb_ge; lia). destruct (0 <? cur) eqn:E2.
    - apply Nat.ltb_lt in E2. destruct I4 as [[-> ->]|[out0 ->]]; [lia|].
      rewrite rev_app_distr. cbn [rev app]. rewrite eqb_refl, rev_involutive. rewrite Nat.sub_0_r.
      assert (Z1 : occ indent [newline] = 0) by (apply occ_none; intros [C|[]]; auto).
      assert (Z2 : occ dedent [newline] = 0) by (apply occ_none; intros [C|[]]; auto).
      rewrite !occ_app in I2. rewrite without_app in I1.
      eexists ls, _. splits; [exact L1|reflexivity| | | |].
      + rewrite !without_app, without_dedents. cbn [app]. exact I1.
      + rewrite !occ_app, occ_repeat, occ_repeat_other by auto. lia.
      + apply nested_app; [intros A B ->; apply (I3 A (B ++ [newline])); now rewrite <- app_assoc|].
        intros A B EA. pose proof (occ_prefix dedent _ _ _ EA) as Hp. rewrite occ_app, occ_repeat in Hp. lia.
      + eapply Forall_impl; [|exact I5]. intros p Hp i' Ei'. destruct (Hp i' Ei') as [A [B [EA [W D]]]].
        rewrite !app_assoc in EA. apply app_inj_tail in EA as [-> _].
        exists A, (B ++ repeat dedent cur). splits; auto. rewrite <- !app_assoc. reflexivity.
    - apply Nat.ltb_ge in E2. exists ls, out. splits; auto. lia.
  Qed.
End DesugarProofs.
