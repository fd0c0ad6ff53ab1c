(** In a Python parse tree the groups under a node are lines: where two groups stand
    next to each other, the first one ends with a newline. *)

From Coq Require Import List Bool Arith Lia.
From Verif Require Import Base StackParser StackParserProofs ParseShape DesugarProofs DesugarShape NestProofs DocSpec.
Import ListNotations.

Section Lines.
  Context {T : Type} `{EqDec T}.
  Variables (tokens : list T) (indent dedent newline : T).
  Variable pairs : list (T * T).
  Variable quotes : list (T * T).
  Notation wf := (well_formed (length tokens)).
  Notation splits := [newline].
  Notation is_split := (is_split_token tokens splits).
  Notation sub := (indent, dedent).
  Notation framed := (framed tokens pairs).
  Notation based := (based tokens pairs).

  Definition ends_line (n : pnode) : Prop := exists h, p_hi n = Some h /\ 0 < h /\ nth_error tokens (h - 1) = Some newline.
  Definition group (n : pnode) : Prop := p_ann n = ASplit.
  Inductive lined : pnode -> Prop :=
  | Lined lo hi ann cs :
      (ann <> APaired -> Forall framed cs \/ (Forall group cs /\ Forall ends_line (removelast cs))) ->
      Forall lined cs -> lined (PNode lo hi ann cs).

  Lemma split_ends_line n : is_split n -> ends_line n.
  Proof. intros [i [t [E1 [E2 [E3 [<-|[]]]]]]]. exists (S i). splits; auto; [lia|]. now replace (S i - 1) with i by lia. Qed.
  Lemma based_lined n : based n -> lined n.
  Proof.
    induction n as [lo hi ann cs IH] using pnode_ind'. intros HB. inversion HB as [? ? ? ? B1 B2 B3]; subst.
    constructor; auto. clear -IH B3. induction IH; inversion B3; subst; constructor; auto.
  Qed.
  Lemma groups_end gs : cut_after is_split gs -> Forall ends_line (removelast (flat_map split_group gs)).
  Proof.
    induction gs as [|g gs IH]; intros Hc; [constructor|]. destruct gs as [|g2 gs].
    - cbn [flat_map]. rewrite app_nil_r. destruct g; cbn; constructor.
    - destruct Hc as [[g0 [x [-> [Hx _]]]] Hc]. specialize (IH Hc). cbn [flat_map] in *. destruct g0 as [|c0 g0]; cbn [app split_group].
      + destruct (split_group g2 ++ flat_map split_group gs) eqn:E; [constructor|]. cbn [removelast]. constructor; auto.
        cbn. apply split_ends_line in Hx. exact Hx.
      + destruct (split_group g2 ++ flat_map split_group gs) eqn:E; [constructor|]. cbn [removelast]. constructor; auto.
        unfold ends_line. cbn [p_hi]. change (c0 :: g0 ++ [x]) with ((c0 :: g0) ++ [x]). rewrite last_last. now apply split_ends_line.
  Qed.
  Lemma groups_lined gs : Forall framed (concat gs) -> Forall lined (concat gs) ->
    Forall group (flat_map split_group gs) /\ Forall lined (flat_map split_group gs).
  Proof.
    induction gs as [|g gs IH]; intros F G; cbn [flat_map concat] in *; [split; constructor|].
    apply Forall_app in F as [F1 F2]. apply Forall_app in G as [G1 G2]. destruct (IH F2 G2) as [I1 I2].
    split; apply Forall_app; split; auto; destruct g as [|c g]; cbn [split_group]; constructor; auto; [reflexivity|]. constructor; auto.
  Qed.
  Lemma split_node_lined n : forall n', wf n -> based n -> split_node tokens splits quotes n = Ok n' -> lined n'.
  Proof.
    induction n as [lo hi ann cs IH] using pnode_ind'. intros n' Hw Hb E. rewrite split_node_eq in E.
    pose proof (based_unsplit _ _ _ Hb) as Hu. assert (Hus : Forall unsplit_tree cs) by (inversion Hu; auto).
    apply bind_ok_inv in E as [b [Eb E]]. destruct b; [injection E as <-; now apply based_lined|].
    apply bind_ok_inv in E as [flags [Ef E]]. apply bind_ok_inv in E as [cs' [Ec E]]. injection E as <-.
    inversion Hb as [? ? ? ? B1 B2 B3]; subst. pose proof (wf_children _ _ Hw) as Hcs. cbn [p_children] in Hcs.
    apply mapM_ok_iff in Ec. apply mapM_ok_iff in Ef.
    assert (Fc : Forall2 (fun c c' => same_frame c c' /\ lined c') cs cs').
    { clear -IH Hcs Hus B3 Ec. induction Ec as [|c c' cs cs' E F IHF]; constructor; inversion IH as [|? ? Hx IH']; inversion Hcs as [|? ? Wc ?];
        inversion B3 as [|? ? Bc ?]; inversion Hus as [|? ? Uc ?]; subst; auto.
      unfold split_child in E. apply bind_ok_inv in E as [k [Ek E]]. destruct (1 <? k).
      - destruct (split_node_spec tokens splits quotes c Wc Uc) as [m [Em [Wm [Fm _]]]]. rewrite Em in E. injection E as <-. split; auto.
      - injection E as <-. split; [repeat split|now apply based_lined]. }
    assert (Lf : length cs' = length flags) by (rewrite <- (F2_len _ _ _ Fc); now apply F2_len in Ef).
    assert (Gcs' : Forall lined cs') by (clear - Fc; induction Fc as [|? ? ? ? [? ?]]; constructor; auto).
    assert (Fr : Forall2 same_frame cs cs') by (clear - Fc; induction Fc as [|? ? ? ? [? ?]]; constructor; auto).
    assert (Fcs' : ann <> APaired -> Forall framed cs').
    { intros Hna. specialize (B2 Hna). clear -B2 Fr. induction Fr; inversion B2; subst; constructor; auto. eapply framed_same; eauto. }
    unfold regroup. destruct ((1 <? length (group_by (combine cs' flags))) && negb (eqb ann APaired)) eqn:Eg.
    - apply andb_true_iff in Eg as [_ Eg]. apply negb_true_iff, eqb_neq in Eg. specialize (Fcs' Eg).
      assert (Fl : Forall (fun p => snd p = true <-> is_split (fst p)) (combine cs' flags)).
      { clear - Ef Fr Hcs. revert flags Ef. induction Fr as [|c c' cs cs' E F IH]; intros flags Ff; inversion Ff; inversion Hcs as [|? ? Wc Wcs]; subst; constructor; auto.
        cbn [fst snd]. rewrite (same_frame_split tokens splits _ _ E). destruct (is_splitter_ok tokens splits c Wc) as [b [Eb Hb]].
        assert (b = y) by congruence. subst b. exact Hb. }
      pose proof (proj1 (group_by_concat (combine cs' flags))) as Hcc. rewrite combine_fst in Hcc by auto.
      destruct (groups_lined (group_by (combine cs' flags))) as [A1 A2]; [now rewrite Hcc..|].
      constructor; auto. intros _. right. split; auto. apply groups_end. now apply group_by_cut.
    - rewrite combine_fst by auto. constructor; auto.
  Qed.

  Lemma transplant_list_lined l0 : forall prev out, transplant_list prev l0 = Ok out ->
    Forall group (prev :: map fst l0) -> Forall ends_line (removelast (prev :: map fst l0)) -> Forall lined (prev :: map fst l0) ->
    out <> [] /\ Forall group out /\ Forall ends_line (removelast out) /\ Forall lined out.
  Proof.
    assert (K : forall n l prev out, length l <= n -> transplant_list prev l = Ok out ->
      Forall group (prev :: map fst l) -> Forall ends_line (removelast (prev :: map fst l)) -> Forall lined (prev :: map fst l) ->
      out <> [] /\ Forall group out /\ Forall ends_line (removelast out) /\ Forall lined out); [|intros; eapply K; eauto].
    induction n as [|n IH]; intros l prev out Hl E HG HE HL.
    - destruct l; [|cbn in Hl; lia]. cbn in E. injection E as <-. splits; auto. discriminate.
    - destruct l as [|[c k1] l]; cbn [transplant_list map fst] in *; [injection E as <-; splits; auto; discriminate|]. cbn [length] in Hl.
      inversion HG as [|? ? Gp HG']; subst. inversion HL as [|? ? Lp HL']; subst. inversion HG' as [|? ? Gc HG'']; subst. inversion HL' as [|? ? Lc HL'']; subst.
      assert (Ep : ends_line prev) by (cbn [removelast] in HE; inversion HE; auto).
      assert (HE' : Forall ends_line (removelast (c :: map fst l))) by (cbn [removelast] in HE; inversion HE; auto).
      destruct ((0 <? k1) && adjacent_splits prev c) eqn:Ea.
      + assert (Lt : lined (transplant prev c)).
        { destruct prev as [plo phi pann pcs]. unfold group in Gp. cbn [p_ann] in Gp. subst pann. unfold transplant. cbn [p_lo p_hi p_ann p_children].
          constructor; [|constructor; [exact Lp|constructor; auto]]. intros _. right. split; [constructor; [reflexivity|constructor; auto]|].
          cbn [removelast]. constructor; [exact Ep|constructor]. }
        assert (Gt : group (transplant prev c)) by (destruct prev; exact Gp).
        destruct (1 <? k1); [discriminate|]. destruct l as [|[c2 k2] l]; [injection E as <-; splits; [discriminate|auto|constructor|auto]|].
        destruct ((0 <? k2) && adjacent_splits c c2); [discriminate|]. apply bind_ok_inv in E as [r [Er E]]. injection E as <-.
        cbn [map fst] in *. assert (Ec : ends_line c) by (cbn [removelast] in HE'; inversion HE'; auto).
        assert (HE2 : Forall ends_line (removelast (c2 :: map fst l))) by (cbn [removelast] in HE'; inversion HE'; auto).
        destruct (IH l c2 r ltac:(cbn in Hl; lia) Er HG'' HE2 HL'') as [R1 [R2 [R3 R4]]]. splits; auto; [discriminate|].
        destruct r as [|x r]; [contradiction|]. cbn [removelast]. constructor; auto.
      + apply bind_ok_inv in E as [r [Er E]]. injection E as <-. destruct (IH l c r ltac:(lia) Er HG' HE' HL') as [R1 [R2 [R3 R4]]].
        splits; auto; [discriminate|]. destruct r as [|x r]; [contradiction|]. cbn [removelast]. constructor; auto.
  Qed.
  Lemma ends_frame a b : same_frame a b -> ends_line a -> ends_line b.
  Proof. intros [E1 [E2 E3]]. unfold ends_line. now rewrite E2. Qed.
  Lemma group_frame a b : same_frame a b -> group a -> group b.
  Proof. intros [E1 [E2 E3]]. unfold group. now rewrite E3. Qed.
  Lemma removelast_F2 {A} (R : A -> A -> Prop) l l' : Forall2 R l l' -> Forall2 R (removelast l) (removelast l').
  Proof.
    induction 1 as [|x y l l' Hxy F IH]; [constructor|]. destruct F; cbn [removelast] in *; [constructor|]. constructor; auto.
  Qed.
  Lemma F2_Forall {A} (R : A -> A -> Prop) (P Q : A -> Prop) l l' : (forall a b, R a b -> P a -> Q b) -> Forall2 R l l' -> Forall P l -> Forall Q l'.
  Proof. intros HR F. induction F; intros HP; inversion HP; subst; constructor; eauto. Qed.

  Lemma sub_match_lined n : forall n', wf n -> lined n -> sub_match tokens sub n = Ok n' -> lined n'.
  Proof.
    induction n as [lo hi ann cs IH] using pnode_ind'. intros n' Hw Hs E. rewrite sub_match_eq in E.
    apply bind_ok_inv in E as [counts [Ec E]]. apply bind_ok_inv in E as [cs' [Es E]].
    apply bind_ok_inv in E as [out [Eo E]]. injection E as <-.
    pose proof (wf_children _ _ Hw) as Hcs. cbn [p_children] in Hcs. inversion Hs as [? ? ? ? S1 S2]; subst.
    apply mapM_ok_iff in Ec, Es.
    assert (Lf : length cs' = length counts) by (rewrite <- (F2_len _ _ _ Es), <- (F2_len _ _ _ Ec); auto).
    assert (F : Forall2 (fun c c' => wf c' /\ same_frame c c' /\ lined c') cs cs').
    { clear - IH Hcs S2 Es. induction Es as [|c c' cs cs' Ec F IHf]; constructor; inversion IH; inversion Hcs; inversion S2; subst; auto.
      destruct (sub_match_spec tokens sub c c') as [A [B _]]; auto. }
    assert (Wcs' : Forall wf cs') by (clear - F; induction F as [|? ? ? ? [? _]]; constructor; auto).
    assert (Scs' : Forall lined cs') by (clear - F; induction F as [|? ? ? ? [? [? ?]]]; constructor; auto).
    assert (Fr : Forall2 same_frame cs cs') by (clear - F; induction F as [|? ? ? ? [? [? ?]]]; constructor; auto).
    destruct cs' as [|c' cs'].
    { inversion Fr; subst. cbn in Eo. injection Eo as <-. constructor; auto. }
    destruct counts as [|k counts]; [discriminate|]. cbn [combine transplant_children] in Eo. injection Lf as Lf.
    assert (Same : Forall (fun n => p_ann n <> ASplit) cs' -> out = c' :: cs').
    { intros HN. inversion Hw as [? h ? ? W1 W2 W3 W4 W5]; subst. destruct W3 as [C|W3]; [subst; inversion Fr|].
      pose proof (tiles_same _ _ _ _ _ W3 Fr Wcs') as Ht. rewrite <- (combine_fst cs' counts Lf) in Ht, Wcs'.
      destruct (transplant_list_spec tokens _ _ _ _ _ Eo Ht Wcs') as [_ [_ [_ [_ R5]]]]. rewrite combine_fst in R5 by auto. apply R5.
      clear -HN Lf. revert counts Lf. induction HN; intros [|k counts] Lf; cbn [combine]; constructor; auto. }
    destruct (eq_dec ann APaired) as [->|Hna].
    - inversion Hw as [? h ? ? W1 W2 W3 W4 W5]; subst. destruct (W5 eq_refl) as [l [m [r [-> [_ [_ [_ [A2 A3]]]]]]]].
      inversion Fr as [|? l' ? ? Fl' Fr']; subst. inversion Fr' as [|? m' ? ? Fm' Fr'']; subst.
      inversion Fr'' as [|? r' ? ? Frr Fn]; subst. inversion Fn; subst.
      rewrite Same; [constructor; auto; congruence|]. destruct Fm' as [_ [_ Em]], Frr as [_ [_ Er']]. repeat constructor; congruence.
    - destruct (S1 Hna) as [Ff|[Fg Fe]].
      + assert (Ff' : Forall framed (c' :: cs')) by (eapply F2_Forall; [|exact Fr|exact Ff]; intros; eapply framed_same; eauto).
        rewrite Same; [constructor; auto|]. inversion Ff' as [|? ? _ Ff'']; subst. eapply Forall_impl; [|exact Ff''].
        intros a0 [[-> _]|[-> _]]; discriminate.
      + assert (Fg' : Forall group (c' :: cs')) by (eapply F2_Forall; [|exact Fr|exact Fg]; apply group_frame).
        assert (Fe' : Forall ends_line (removelast (c' :: cs'))) by (eapply F2_Forall; [|exact (removelast_F2 _ _ _ Fr)|exact Fe]; apply ends_frame).
        rewrite <- (combine_fst cs' counts Lf) in Fg', Fe', Scs'. destruct (transplant_list_lined _ _ _ Eo Fg' Fe' Scs') as [_ [R2 [R3 R4]]].
        constructor; auto.
  Qed.

  (** What precedes a node among its siblings. *)
  Hypothesis Hid : indent <> dedent.
  Hypothesis Hni : newline <> indent.
  Hypothesis Hnd : newline <> dedent.
  Hypothesis Hno : ~ In newline (openers pairs).
  Hypothesis Hnc : ~ In newline (closers pairs).
  Hypothesis Hio : In indent (openers pairs).
  Hypothesis Hic : ~ In indent (closers pairs).
  Hypothesis Hdo : ~ In dedent (openers pairs).
  Hypothesis Htidy : tidy_stream indent dedent newline tokens.
  Lemma removelast_adjacent {A} (l : list A) a b r : In a (removelast (l ++ a :: b :: r)).
  Proof. clear. induction l as [|x l IH]; cbn [app]; [now left|]. cbn [removelast]. destruct (l ++ a :: b :: r) eqn:E; [destruct l; discriminate|]. now right. Qed.
  Theorem lined_siblings n a b : wf n -> lined n -> next_sibling n a b ->
    p_hi a = Some (S (p_lo a)) \/ p_hi b = Some (S (p_lo b)) \/ ends_line a \/
    exists o, nth_error tokens (p_lo b) = Some o /\ In o (openers pairs) /\ o <> indent.
  Proof using H Hid Hni Hnd Hno Hnc Hio Hic Hdo Htidy.
    intros Hw Hl Hn. revert Hw Hl. induction Hn as [lo h ann l a b r|lo h ann cs c a b Hi Hn IH]; intros Hw Hl.
    - inversion Hw as [? hi ? ? W1 W2 W3 W4 W5]; subst. inversion Hl as [? ? ? ? L1 L2]; subst.
      destruct W3 as [C|Ht]; [destruct l; discriminate|]. destruct (eq_dec ann APaired) as [->|Hna].
      + destruct (W5 eq_refl) as [x [y [z [E [Ex [Ez [_ [Ay Az]]]]]]]]. destruct l as [|x' [|y' [|z' l]]]; cbn [app] in E.
        * injection E as -> _ _. left. unfold p_len in Ex. destruct (p_hi x) as [hx|]; [|discriminate]. injection Ex as Ex. f_equal. lia.
        * injection E as _ _ -> _. right. left. unfold p_len in Ez. destruct (p_hi z) as [hz|]; [|discriminate]. injection Ez as Ez. f_equal. lia.
        * discriminate.
        * injection E as _ _ _ C. destruct l; discriminate.
      + destruct (L1 Hna) as [Ff|[Fg Fe]].
        * assert (Fa : framed a) by (rewrite Forall_forall in Ff; apply Ff, in_elt).
          assert (Fb : framed b) by (rewrite Forall_forall in Ff; apply Ff; apply in_or_app; right; right; now left).
          destruct Fb as [[_ [Eb _]]|[_ [hb [o [c [_ [_ [Eo [_ Hp]]]]]]]]]; [auto|].
          destruct (eq_dec o indent) as [->|Ho].
          -- right. right. left. apply split_ends_line.
             apply tiles_app_inv in Ht as [m [T1 T2]]. inversion T2 as [|? ma ? ? ? ? T3 T4 T5]; subst. inversion T5; subst. cbn [p_lo] in Eo.
             eapply before_indent; [exact Hid|exact Hni|exact Hnd|exact Hno|exact Hnc|exact Hio|exact Hic|exact Hdo|exact Htidy|exact Fa|reflexivity|exact Eo].
          -- right. right. right. exists o. splits; auto. unfold openers. now apply (in_map fst) in Hp.
        * right. right. left. rewrite Forall_forall in Fe. apply Fe, removelast_adjacent.
    - inversion Hw as [? hi ? ? W1 W2 W3 W4 W5]; subst. inversion Hl as [? ? ? ? L1 L2]; subst. rewrite Forall_forall in *. apply IH; auto.
  Qed.
  (** The whole. *)
  Theorem nest_lined ns n' : forest pairs None 0 tokens ns -> (forall o c, In (o, c) pairs -> ~ In c (openers pairs)) ->
    split_parse (PNode 0 (Some (length tokens)) ARoot ns) tokens splits quotes (Some sub) = Ok n' -> lined n'.
  Proof.
    clear. intros Fo HP E. set (root := PNode 0 (Some (length tokens)) ARoot ns) in *.
    pose proof (forest_tiles _ _ _ _ _ Fo) as Ft. cbn [Nat.add] in Ft.
    assert (Wr : wf root).
    { apply WF; auto with arith. - now apply (forest_well_formed _ _ 0 _ _ Fo). - discriminate. }
    assert (Ur : unsplit_tree root) by (constructor; [discriminate|apply (forest_unsplit _ _ _ _ _ Fo)]).
    assert (Hnb : Forall (fun n => based n /\ framed n) ns).
    { apply (forest_based tokens pairs None 0 tokens ns Fo HP). intros k Hk. reflexivity. }
    assert (Br : based root).
    { constructor; [discriminate| |]; [intros _|]; (eapply Forall_impl; [|exact Hnb]; intros a0 Ha0; apply Ha0). }
    unfold split_parse in E. destruct (split_node_spec tokens splits quotes root Wr Ur) as [m [Em [Wm [Fm [Lm _]]]]]. rewrite Em in E. cbn [bind] in E.
    exact (sub_match_lined m n' Wm (split_node_lined _ _ Wr Br Em) E).
  Qed.
End Lines.
