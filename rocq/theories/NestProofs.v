(** Nesting indented blocks under the line before them never fails on a tidy
    stream, and keeps the shape of the tree. *)

From Coq Require Import List Bool Arith Lia.
From Verif Require Import Base StackParser StackParserProofs ParseShape DesugarProofs DesugarShape.
Import ListNotations.

Section Nest.
  Context {T : Type} `{EqDec T}.
  Variables (tokens : list T) (indent dedent newline : T).
  Variable pairs : list (T * T).
  Variable quotes : list (T * T).
  Hypothesis Hid : indent <> dedent.
  Hypothesis Hni : newline <> indent.
  Hypothesis Hnd : newline <> dedent.
  Hypothesis Hno : ~ In newline (openers pairs).
  Hypothesis Hnc : ~ In newline (closers pairs).
  Hypothesis Hio : In indent (openers pairs).
  Hypothesis Hic : ~ In indent (closers pairs).
  Hypothesis Hdo : ~ In dedent (openers pairs).
  Hypothesis Htidy : tidy_stream indent dedent newline tokens.
  Notation wf := (well_formed (length tokens)).
  Notation splits := [newline].
  Notation is_split := (is_split_token tokens splits).
  Notation sub := (indent, dedent).

  (** A leaf that opens nothing, or a pair of brackets. *)
  Definition framed (n : pnode) : Prop :=
    (p_ann n = ASibling /\ p_hi n = Some (S (p_lo n)) /\ exists t, nth_error tokens (p_lo n) = Some t /\ ~ In t (openers pairs)) \/
    (p_ann n = APaired /\ exists h o c, p_hi n = Some h /\ p_lo n < h /\ nth_error tokens (p_lo n) = Some o /\
       nth_error tokens (h - 1) = Some c /\ In (o, c) pairs).
  Lemma framed_same a b : same_frame a b -> framed a -> framed b.
  Proof. clear. intros [E1 [E2 E3]]. unfold framed. now rewrite E1, E2, E3. Qed.
  Inductive based : pnode -> Prop :=
  | Based lo hi ann cs : ann <> ASplit -> (ann <> APaired -> Forall framed cs) -> Forall based cs -> based (PNode lo hi ann cs).
  Inductive grouped : pnode -> Prop :=
  | Grouped lo hi ann cs :
      (ann = ASplit -> Forall framed cs /\ Forall (fun c => ~ is_split c) (removelast cs)) ->
      Forall grouped cs -> grouped (PNode lo hi ann cs).
  Lemma based_grouped n : based n -> grouped n.
  Proof.
    clear. induction n as [lo hi ann cs IH] using pnode_ind'. intros HB. inversion HB as [? ? ? ? B1 B2 B3]; subst.
    constructor; [contradiction|]. clear -IH B3. induction IH; inversion B3; subst; constructor; auto.
  Qed.

  Lemma forest_based ctx i ts ns : forest pairs ctx i ts ns ->
    (forall o c, In (o, c) pairs -> ~ In c (openers pairs)) ->
    (forall k, k < length ts -> nth_error tokens (i + k) = nth_error ts k) ->
    Forall (fun n => based n /\ framed n) ns.
  Proof.
    clear. intros F HP. induction F as [ctx i|ctx i t ts ns Ho Hc F IH|o i t ts ns Hc Hn F IH|ctx i o c inner ms ts ns j Hi F1 IH1 F2 IH2];
      intros Hnth; constructor.
    - split; [constructor; auto; discriminate|]. left. cbn. splits; auto. exists t. split; auto.
      specialize (Hnth 0 ltac:(cbn; lia)). rewrite Nat.add_0_r in Hnth. exact Hnth.
    - apply IH. intros k Hk. specialize (Hnth (S k)). cbn [length nth_error] in Hnth. rewrite <- Hnth by lia. f_equal. lia.
    - split; [constructor; auto; discriminate|]. left. cbn. splits; auto. exists t. split.
      + specialize (Hnth 0 ltac:(cbn; lia)). rewrite Nat.add_0_r in Hnth. exact Hnth.
      + unfold closers in Hc. apply in_map_iff in Hc as [[a b] [<- Hab]]. now apply HP in Hab.
    - apply IH. intros k Hk. specialize (Hnth (S k)). cbn [length nth_error] in Hnth. rewrite <- Hnth by lia. f_equal. lia.
    - assert (Hj : nth_error tokens j = Some c).
      { unfold j. specialize (Hnth (S (length inner))). cbn [length nth_error] in Hnth. rewrite app_length in Hnth. cbn [length] in Hnth.
        rewrite nth_error_app2, Nat.sub_diag in Hnth by lia. cbn [nth_error] in Hnth. rewrite <- Hnth by lia. f_equal. lia. }
      assert (Hii : nth_error tokens i = Some o).
      { specialize (Hnth 0). cbn [length nth_error] in Hnth. rewrite Nat.add_0_r in Hnth. apply Hnth. lia. }
      assert (Hm : Forall (fun n => based n /\ framed n) ms).
      { apply IH1. intros k Hk. specialize (Hnth (S k)). cbn [length nth_error] in Hnth. rewrite app_length in Hnth.
        rewrite nth_error_app1 in Hnth by lia. rewrite <- Hnth by lia. f_equal. lia. }
      split.
      + constructor; [discriminate|congruence|].
        constructor; [constructor; auto; discriminate|]. constructor; [|constructor; [constructor; auto; discriminate|constructor]].
        constructor; [discriminate| |].
        * intros _. apply (Forall_impl framed (P := fun n => based n /\ framed n)); auto. tauto.
        * apply (Forall_impl based (P := fun n => based n /\ framed n)); auto. tauto.
      + right. cbn [p_ann p_hi p_lo]. split; auto. exists (S j), o, c. replace (S j - 1) with j by lia. splits; auto. unfold j. lia.
    - apply IH2. intros k Hk. specialize (Hnth (S (length inner + S k))). cbn [length nth_error] in Hnth.
      rewrite app_length in Hnth. cbn [length] in Hnth. rewrite nth_error_app2 in Hnth by lia.
      replace (length inner + S k - length inner) with (S k) in Hnth by lia. cbn [nth_error] in Hnth.
      rewrite <- Hnth by lia. f_equal. unfold j. lia.
  Qed.
  Lemma based_unsplit n : based n -> unsplit_tree n.
  Proof.
    clear. induction n as [lo hi ann cs IH] using pnode_ind'. intros HB. inversion HB as [? ? ? ? B1 B2 B3]; subst.
    constructor; auto. clear -IH B3. induction IH; inversion B3; subst; constructor; auto.
  Qed.

  Lemma cut_removelast {A} (f : A -> Prop) gs : cut_after f gs -> Forall (fun g => Forall (fun x => ~ f x) (removelast g)) gs.
  Proof.
    clear. induction gs as [|g gs IH]; intros Hc; constructor.
    - destruct gs as [|g2 gs]; cbn [cut_after] in Hc.
      + clear -Hc. rewrite Forall_forall in *. intros x Hx. apply Hc. revert x Hx.
        induction g as [|y g IH]; cbn [removelast]; [intros x []|]. destruct g as [|z g]; [intros x []|].
        intros x [<-|Hx]; [now left|]. right. apply IH; auto. intros u Hu. apply Hc. now right.
      + destruct Hc as [[g0 [x [-> [_ Hg]]]] _]. now rewrite removelast_last.
    - destruct gs as [|g2 gs]; [constructor|]. apply IH. cbn [cut_after] in Hc. apply Hc.
  Qed.
  Lemma split_groups_grouped gs : Forall framed (concat gs) -> Forall grouped (concat gs) ->
    Forall (fun g => Forall (fun x => ~ is_split x) (removelast g)) gs -> Forall grouped (flat_map split_group gs).
  Proof.
    clear. induction gs as [|g gs IH]; intros F G R; cbn [flat_map concat] in *; [constructor|].
    apply Forall_app in F as [F1 F2]. apply Forall_app in G as [G1 G2]. inversion R as [|? ? R1 R2]; subst. apply Forall_app. split; auto.
    destruct g as [|c g]; cbn [split_group]; constructor; auto. constructor; auto.
  Qed.
  Lemma split_node_grouped n : forall n', wf n -> based n -> split_node tokens splits quotes n = Ok n' -> grouped n'.
  Proof.
    clear. induction n as [lo hi ann cs IH] using pnode_ind'. intros n' Hw Hb E. rewrite split_node_eq in E.
    pose proof (based_unsplit _ Hb) as Hu. assert (Hus : Forall unsplit_tree cs) by (inversion Hu; auto).
    apply bind_ok_inv in E as [b [Eb E]]. destruct b; [injection E as <-; now apply based_grouped|].
    apply bind_ok_inv in E as [flags [Ef E]]. apply bind_ok_inv in E as [cs' [Ec E]]. injection E as <-.
    inversion Hb as [? ? ? ? B1 B2 B3]; subst. pose proof (wf_children _ _ Hw) as Hcs. cbn [p_children] in Hcs.
    apply mapM_ok_iff in Ec. apply mapM_ok_iff in Ef.
    assert (Fc : Forall2 (fun c c' => same_frame c c' /\ grouped c') cs cs').
    { clear -IH Hcs Hus B3 Ec. induction Ec as [|c c' cs cs' E F IHF]; constructor; inversion IH as [|? ? Hx IH']; inversion Hcs as [|? ? Wc ?];
        inversion B3 as [|? ? Bc ?]; inversion Hus as [|? ? Uc ?]; subst; auto.
      unfold split_child in E. apply bind_ok_inv in E as [k [Ek E]]. destruct (1 <? k).
      - destruct (split_node_spec tokens splits quotes c Wc Uc) as [m [Em [Wm [Fm _]]]]. rewrite Em in E. injection E as <-. split; auto.
      - injection E as <-. split; [repeat split|now apply based_grouped]. }
    assert (Lf : length cs' = length flags) by (rewrite <- (F2_len _ _ _ Fc); now apply F2_len in Ef).
    assert (Gcs' : Forall grouped cs') by (clear - Fc; induction Fc as [|? ? ? ? [? ?]]; constructor; auto).
    assert (Fr : Forall2 same_frame cs cs') by (clear - Fc; induction Fc as [|? ? ? ? [? ?]]; constructor; auto).
    unfold regroup. destruct ((1 <? length (group_by (combine cs' flags))) && negb (eqb ann APaired)) eqn:Eg.
    - apply andb_true_iff in Eg as [_ Eg]. apply negb_true_iff, eqb_neq in Eg. specialize (B2 Eg).
      assert (Fcs' : Forall framed cs').
      { clear -B2 Fr. induction Fr; inversion B2; subst; constructor; auto. eapply framed_same; eauto. }
      assert (Fl : Forall (fun p => snd p = true <-> is_split (fst p)) (combine cs' flags)).
      { clear - Ef Fr Hcs. revert flags Ef. induction Fr as [|c c' cs cs' E F IH]; intros flags Ff; inversion Ff; inversion Hcs as [|? ? Wc Wcs]; subst; constructor; auto.
        cbn [fst snd]. rewrite (same_frame_split tokens splits _ _ E). destruct (is_splitter_ok tokens splits c Wc) as [b [Eb Hb]].
        assert (b = y) by congruence. subst b. exact Hb. }
      pose proof (proj1 (group_by_concat (combine cs' flags))) as Hcc. rewrite combine_fst in Hcc by auto.
      constructor; [contradiction|]. apply split_groups_grouped; [now rewrite Hcc..|]. apply cut_removelast. now apply group_by_cut.
    - rewrite combine_fst by auto. constructor; auto. intros C. contradiction.
  Qed.

  (** *** Pairs of markers *)
  Definition marked (n : pnode) : Prop :=
    nth_error tokens (p_lo n) = Some indent /\ exists h, p_hi n = Some h /\ p_lo n < h /\ nth_error tokens (h - 1) = Some dedent.
  Lemma is_sub_pair_ok n : wf n -> exists b, is_sub_pair tokens sub n = Ok b /\ (b = true -> marked n).
  Proof.
    clear. intros Hw. unfold is_sub_pair. inversion Hw as [lo hi ann cs W1 W2 W3 W4 W5]; subst. cbn [p_ann p_children].
    destruct (eqb ann APaired) eqn:Ea; [|eexists; split; [reflexivity|discriminate]].
    apply eqb_eq in Ea. destruct (W5 Ea) as [l [m [r [-> [El [Er _]]]]]].
    inversion W4 as [|? ? Wl W4']; subst. inversion W4' as [|? ? Wm W4'']; subst. inversion W4'' as [|? ? Wr _]; subst.
    destruct W3 as [C|W3]; [discriminate|].
    destruct (wf_single tokens l Wl El) as [i [t [E1 [E2 E3]]]]. destruct (wf_single tokens r Wr Er) as [i' [t' [E4 [E5 E6]]]].
    rewrite E1, E3. cbn [bind]. rewrite E5. replace (S i' - 1) with i' by lia. rewrite E6. cbn [bind].
    eexists. split; [reflexivity|]. intros Hb. apply andb_true_iff in Hb as [B1 B2]. apply eqb_eq in B1, B2. cbn [fst snd] in *. subst t t'.
    destruct (tiles_check _ _ _ W3 ltac:(discriminate)) as [T1 [T2 _]]. specialize (T2 l). cbn [hd last] in T1, T2.
    rewrite E5 in T2. injection T2 as <-.
    unfold token_at in E3, E6. destruct (nth_error tokens i) as [a|] eqn:N1; [|discriminate]. destruct (nth_error tokens i') as [b|] eqn:N2; [|discriminate].
    injection E3 as ->. injection E6 as ->. unfold marked. cbn [p_lo p_hi]. assert (lo = i) by congruence. subst lo.
    split; [congruence|]. exists (S i'). replace (S i' - 1) with i' by lia. splits; auto. inversion W3 as [|? mid ? ? ? ? Hle ? Hr]; subst.
    apply tiles_le in Hr. assert (Em : p_hi l = Some mid) by (rewrite <- H4; reflexivity). assert (S (p_lo l) = mid) by congruence. cbn [p_lo] in *. lia.
  Qed.
  (** What stands before an indent is a newline. *)
  Lemma before_indent y h : framed y -> p_hi y = Some h -> nth_error tokens h = Some indent -> is_split y.
  Proof using Hid Hni Hnd Hno Hnc Hio Hic Hdo Htidy.
    intros Fy Eh En. destruct Fy as [[_ [E [t [Et Ht]]]]|[_ [h' [o [c [E [Hlt [_ [Ec Hp]]]]]]]]].
    - assert (h = S (p_lo y)) by congruence. subst h. destruct (ts_indent _ _ _ _ Htidy _ En) as [Q|Q].
      + assert (t = indent) by congruence. subst. contradiction.
      + exists (p_lo y), newline. splits; auto. now left.
    - assert (h' = h) by congruence. subst h'. destruct h as [|h]; [lia|]. replace (S h - 1) with h in Ec by lia.
      assert (Hcc : In c (closers pairs)) by (unfold closers; now apply (in_map snd) in Hp).
      exfalso. destruct (ts_indent _ _ _ _ Htidy _ En) as [Q|Q]; rewrite Ec in Q; injection Q as ->; contradiction.
  Qed.
  Lemma in_removelast {A} (l1 : list A) y x l2 : In y (removelast (l1 ++ y :: x :: l2)).
  Proof.
    clear. induction l1 as [|z l1 IH]; cbn [app].
    - cbn [removelast]. now left.
    - destruct (l1 ++ y :: x :: l2) eqn:E; [destruct l1; discriminate|]. cbn [removelast]. right. exact IH.
  Qed.
  (** In a group only the first child can be a pair of markers. *)
  Lemma tail_unmarked g lo hi : tiles lo hi g -> Forall framed g -> Forall (fun c => ~ is_split c) (removelast g) ->
    Forall (fun x => ~ marked x) (tl g).
  Proof using Hid Hni Hnd Hno Hnc Hio Hic Hdo Htidy.
    intros Ht Hf Hs. destruct g as [|c g]; [constructor|]. cbn [tl]. apply Forall_forall. intros x Hx [Mx _].
    apply in_split in Hx as [g1 [g2 ->]].
    assert (G : exists l1 y, c :: g1 ++ x :: g2 = l1 ++ y :: x :: g2).
    { destruct g1 as [|z g1 _] using rev_ind; [exists [], c; reflexivity|]. exists (c :: g1), z. now rewrite <- app_assoc. }
    destruct G as [l1 [y E]]. rewrite E in *.
    apply tiles_app_inv in Ht as [mid [_ Ht]]. inversion Ht as [|? mid' ? ann cs ? Hle Hc Hr]; subst.
    inversion Hr as [|? mid2 ? ann2 cs2 ? Hle2 Hc2 Hr2]; subst. cbn [p_lo] in Mx.
    rewrite Forall_forall in Hf, Hs. apply (Hs (PNode mid (Some mid') ann cs)).
    - apply in_removelast.
    - eapply before_indent; [apply Hf; apply in_app_iff; right; now left|reflexivity|exact Mx].
  Qed.
  (** After a dedent there is no indent in the next group. *)
  Lemma dedent_run rest : forall start hi, tiles start hi rest -> Forall framed rest -> Forall (fun c => ~ is_split c) (removelast rest) ->
    0 < start -> nth_error tokens (start - 1) = Some dedent -> nth_error tokens hi = Some indent -> False.
  Proof using Hid Hni Hnd Hno Hnc Hio Hic Hdo Htidy.
    induction rest as [|y rest IH]; intros start hi Ht Hf Hs Hst Ed Ei; (destruct start as [|s]; [lia|]); replace (S s - 1) with s in Ed by lia.
    - inversion Ht; subst. destruct (ts_indent _ _ _ _ Htidy _ Ei) as [Q|Q]; congruence.
    - inversion Ht as [|? mid ? ann cs ? Hle Hc Hr]; subst. inversion Hf as [|? ? Fy Fr]; subst.
      destruct Fy as [[_ [E [t [Et Hto]]]]|[_ [h' [o [c [E [Hlt [Eo [Ec Hp]]]]]]]]]; cbn [p_hi p_lo] in *.
      + injection E as ->. destruct (ts_dedent _ _ _ _ Htidy _ Ed) as [Q|Q].
        * apply (IH (S (S s)) hi); auto with arith.
          destruct rest as [|z rest]; [constructor|]. cbn [removelast] in Hs. now inversion Hs.
        * destruct rest as [|z rest].
          -- inversion Hr; subst. now apply (ts_between _ _ _ _ Htidy _ Ed Q).
          -- cbn [removelast] in Hs. inversion Hs as [|? ? N _]; subst. apply N. exists (S s), newline. cbn [p_lo p_hi]. splits; auto. now left.
      + assert (Ho : In o (openers pairs)) by (unfold openers; now apply (in_map fst) in Hp).
        destruct (ts_dedent _ _ _ _ Htidy _ Ed) as [Q|Q]; rewrite Eo in Q; injection Q as ->; contradiction.
  Qed.

  (** *** How many pairs a child holds *)
  Definition holds (c : pnode) (k : nat) : Prop :=
    count_sub_pairs tokens sub c = Ok k /\
    (p_ann c = ASplit -> k <= 1 /\ (0 < k -> exists x rest, p_children c = x :: rest /\ marked x)).
  Lemma count_ok c : wf c -> grouped c -> exists k, holds c k.
  Proof using Hid Hni Hnd Hno Hnc Hio Hic Hdo Htidy.
    intros Hw Hg. inversion Hg as [lo hi ann cs G1 G2]; subst. pose proof (wf_children _ _ Hw) as Wcs. cbn [p_children] in Wcs.
    destruct (mapM_Forall (is_sub_pair tokens sub) (fun n b => b = true -> marked n) cs) as [flags [Ef Ff]].
    { eapply Forall_impl; [|exact Wcs]. intros n. apply is_sub_pair_ok. }
    exists (length (filter (fun b => b) flags)). unfold holds, count_sub_pairs. cbn [p_children p_ann]. rewrite Ef. cbn [bind]. split; auto.
    intros ->. destruct (G1 eq_refl) as [F1 F2]. inversion Hw as [? h ? ? W1 W2 W3 W4 W5]; subst.
    destruct W3 as [->|W3]; [inversion Ff; subst; cbn; split; [lia|lia]|].
    pose proof (tail_unmarked _ _ _ W3 F1 F2) as Tm. destruct cs as [|c cs]; [inversion Ff; subst; cbn; split; lia|]. cbn [tl] in Tm.
    inversion Ff as [|? b ? bs Hb Fb]; subst.
    assert (Z : filter (fun b => b) bs = []).
    { clear -Fb Tm. induction Fb as [|x b cs bs Hx F IH]; auto. inversion Tm as [|? ? T1 T2]; subst. cbn [filter].
      destruct b; [exfalso; auto|auto]. }
    cbn [filter]. destruct b; rewrite Z; cbn [length]; split; try lia. intros _. exists c, cs. auto.
  Qed.
  (** Neighbouring children. *)
  Definition neighbours (a b : pnode * nat) : Prop :=
    adjacent_splits (fst a) (fst b) = true -> snd b <= 1 /\ (0 < snd a -> snd b = 0).
  Fixpoint chain {A} (R : A -> A -> Prop) (l : list A) : Prop :=
    match l with a :: ((b :: _) as l') => R a b /\ chain R l' | _ => True end.
  Lemma transplant_list_ok l0 : forall prev k, chain neighbours ((prev, k) :: l0) -> exists out, transplant_list prev l0 = Ok out.
  Proof.
    clear. assert (G : forall n l prev k, length l <= n -> chain neighbours ((prev, k) :: l) -> exists out, transplant_list prev l = Ok out);
      [|intros; eapply G; eauto].
    induction n as [|n IH]; intros l prev k Hl Hc.
    - destruct l; [cbn; eauto|cbn in Hl; lia].
    - destruct l as [|[c k1] l]; cbn [transplant_list]; [eauto|]. cbn [length] in Hl.
      destruct Hc as [Hn Hc]. unfold neighbours in Hn. cbn [fst snd] in Hn.
      destruct ((0 <? k1) && adjacent_splits prev c) eqn:E.
      + apply andb_true_iff in E as [E1 E2]. destruct (Hn E2) as [N1 _]. apply Nat.ltb_lt in E1.
        replace (1 <? k1) with false by (symmetry; apply Nat.ltb_ge; lia).
        destruct l as [|[c2 k2] l]; [eauto|]. destruct Hc as [Hn2 Hc]. unfold neighbours in Hn2. cbn [fst snd] in Hn2.
        destruct ((0 <? k2) && adjacent_splits c c2) eqn:E'.
        * apply andb_true_iff in E' as [E3 E4]. apply Nat.ltb_lt in E3. destruct (Hn2 E4) as [_ N2]. specialize (N2 E1). lia.
        * cbn [length] in Hl. destruct (IH l c2 k2 ltac:(lia) Hc) as [out ->]. cbn [bind]. eauto.
      + destruct (IH l c k1 ltac:(lia) Hc) as [out ->]. cbn [bind]. eauto.
  Qed.
  Lemma chain_neighbours cs : forall counts lo hi, tiles lo hi cs -> Forall wf cs -> Forall grouped cs -> Forall2 holds cs counts ->
    chain neighbours (combine cs counts).
  Proof using Hid Hni Hnd Hno Hnc Hio Hic Hdo Htidy.
    induction cs as [|a cs IH]; intros counts lo hi Ht Hw Hg Hh; inversion Hh as [|? ka ? counts' Ha Hh']; subst; [exact I|].
    inversion Ht as [|? mid ? ann acs ? Hle Hac Hr]; subst. inversion Hw as [|? ? Wa Wcs]; subst. inversion Hg as [|? ? Ga Gcs]; subst.
    specialize (IH _ _ _ Hr Wcs Gcs Hh'). cbn [combine]. destruct cs as [|b cs]; [inversion Hh'; subst; exact I|].
    inversion Hh' as [|? kb ? counts'' Hb Hh'']; subst. cbn [combine] in *. split; [|exact IH].
    intros Had. cbn [fst snd] in *. unfold adjacent_splits in Had. rewrite !andb_true_iff in Had. destruct Had as [[A1 A2] _].
    apply eqb_eq in A1, A2. cbn [p_ann] in A2. subst ann. destruct Ha as [_ Ha], Hb as [_ Hb]. specialize (Ha eq_refl). specialize (Hb A1).
    destruct Ha as [_ Ha], Hb as [Hb1 Hb]. split; auto. intros Hka. destruct kb as [|kb]; auto. exfalso.
    destruct (Ha Hka) as [x [rest [Ex [Mx1 [h [Mh [Mlt Md]]]]]]]. destruct (Hb ltac:(lia)) as [y [rest' [Ey [My _]]]].
    cbn [p_children] in Ex. subst acs. inversion Hr as [|? mid2 ? bann bcs ? Hle2 Hbc Hr2]; subst. cbn [p_children p_ann] in *. subst bann bcs.
    destruct Hac as [C|Hac]; [discriminate|]. destruct Hbc as [C|Hbc]; [discriminate|].
    assert (Ely : p_lo y = mid) by (inversion Hbc; reflexivity).
    inversion Ga as [? ? ? ? G1 _]; subst. destruct (G1 eq_refl) as [F1 F2].
    inversion Hac as [|? m ? xann xcs ? Hxl Hxc Hxr]; subst. cbn [p_hi p_lo] in *. injection Mh as ->.
    inversion F1 as [|? ? _ F1']; subst. eapply (dedent_run rest h (p_lo y)); eauto.
    - destruct rest as [|z rest]; [constructor|]. cbn [removelast] in F2. now inversion F2.
    - lia.
  Qed.

  Theorem sub_match_ok n : wf n -> grouped n -> exists n', sub_match tokens sub n = Ok n'.
  Proof using Hid Hni Hnd Hno Hnc Hio Hic Hdo Htidy.
    induction n as [lo hi ann cs IH] using pnode_ind'. intros Hw Hg. rewrite sub_match_eq.
    pose proof (wf_children _ _ Hw) as Wcs. cbn [p_children] in Wcs. inversion Hg as [? ? ? ? _ Gcs]; subst.
    destruct (mapM_Forall (count_sub_pairs tokens sub) (fun c k => holds c k) cs) as [counts [Ec Fc]].
    { clear IH. rewrite Forall_forall in *. intros c Hc. destruct (count_ok c (Wcs _ Hc) (Gcs _ Hc)) as [k Hk]. exists k. split; auto. apply Hk. }
    rewrite Ec. cbn [bind].
    destruct (mapM_Forall (sub_match tokens sub) (fun c c' => same_frame c c') cs) as [cs' [Es Fs]].
    { rewrite Forall_forall in *. intros c Hc. destruct (IH c Hc (Wcs _ Hc) (Gcs _ Hc)) as [c' E]. exists c'. split; auto.
      destruct (sub_match_spec tokens sub c c' (Wcs _ Hc) E) as [_ [F _]]. exact F. }
    rewrite Es. cbn [bind].
    assert (G : exists out, transplant_children (combine cs' counts) = Ok out).
    { inversion Hw as [? h ? ? W1 W2 W3 W4 W5]; subst. destruct W3 as [->|W3]; [inversion Fs; subst; cbn; eauto|].
      pose proof (chain_neighbours cs counts lo h W3 Wcs Gcs Fc) as Hch.
      assert (Hch' : chain neighbours (combine cs' counts)).
      { clear -Hch Fs Fc. revert counts Fc Hch. induction Fs as [|a a' cs cs' E F IH]; intros counts Fc Hch; [exact I|].
        inversion Fc as [|? ka ? counts' _ Fc']; subst. cbn [combine] in *.
        destruct F as [|b b' cs cs' Eb F]; [cbn; exact I|].
        inversion Fc' as [|? kb ? counts'' _ Fc'']; subst. cbn [combine] in *. destruct Hch as [Hn Hch]. split.
        - unfold neighbours, adjacent_splits in *. cbn [fst snd] in *. destruct E as [E1 [E2 E3]], Eb as [Eb1 [Eb2 Eb3]].
          now rewrite E2, E3, Eb1, Eb3.
        - apply (IH (kb :: counts'')); auto. }
      destruct cs' as [|c' cs']; [cbn; eauto|]. destruct counts as [|k counts]; [cbn; eauto|]. cbn [combine transplant_children] in *.
      eapply transplant_list_ok. exact Hch'. }
    destruct G as [out ->]. cbn [bind]. eauto.
  Qed.

  (** *** The shape is kept *)
  Variable P : nat -> nat -> Prop.
  Lemma transplant_shaped p c : adjacent_splits p c = true -> shaped P p -> item p -> shaped P c -> item c ->
    shaped P (transplant p c) /\ item (transplant p c).
  Proof.
    clear. intros Ha Sp Ip Sc Ic. unfold adjacent_splits in Ha. rewrite !andb_true_iff in Ha. destruct Ha as [[A1 A2] A3].
    apply eqb_eq in A1, A2, A3. destruct p as [plo phi pann pcs]. cbn [p_ann p_hi] in *. subst pann phi.
    unfold transplant. cbn [p_lo p_hi p_ann p_children].
    destruct Ip as [_ [h [Eh Hh]]]. cbn [p_hi p_lo] in *. injection Eh as <-. pose proof Ic as [_ [h' [Eh' Hh']]].
    split.
    - apply Shaped; try (intros [C|[C|C]]; discriminate); try discriminate.
      + intros _. constructor; [|constructor; auto]. split; [cbn; auto|]. exists (p_lo c). cbn. auto.
      + constructor; auto.
    - split; [cbn; auto|]. exists h'. cbn. split; auto. lia.
  Qed.
  Lemma transplant_list_shaped l0 : forall prev out, transplant_list prev l0 = Ok out ->
    Forall (fun n => shaped P n /\ item n) (prev :: map fst l0) -> Forall (fun n => shaped P n /\ item n) out.
  Proof.
    clear. assert (G : forall n l prev out, length l <= n -> transplant_list prev l = Ok out ->
      Forall (fun n => shaped P n /\ item n) (prev :: map fst l) -> Forall (fun n => shaped P n /\ item n) out); [|intros; eapply G; eauto].
    induction n as [|n IH]; intros l prev out Hl E HF.
    - destruct l; [|cbn in Hl; lia]. cbn in E. now injection E as <-.
    - destruct l as [|[c k1] l]; cbn [transplant_list map fst] in *; [now injection E as <-|]. cbn [length] in Hl.
      inversion HF as [|? ? [Sp Ip] HF']; subst. inversion HF' as [|? ? [Sc Ic] HF'']; subst.
      destruct ((0 <? k1) && adjacent_splits prev c) eqn:Ea.
      + apply andb_true_iff in Ea as [_ Ea]. pose proof (transplant_shaped _ _ Ea Sp Ip Sc Ic) as Ht.
        destruct (1 <? k1); [discriminate|]. destruct l as [|[c2 k2] l]; [injection E as <-; auto|].
        destruct ((0 <? k2) && adjacent_splits c c2); [discriminate|]. apply bind_ok_inv in E as [r [Er E]]. injection E as <-.
        constructor; auto. eapply IH; [|exact Er|exact HF'']. cbn [length] in Hl. lia.
      + apply bind_ok_inv in E as [r [Er E]]. injection E as <-. constructor; auto. eapply IH; [|exact Er|exact HF']. lia.
  Qed.
  Lemma sub_match_shaped n : forall n', wf n -> shaped P n -> sub_match tokens sub n = Ok n' -> shaped P n'.
  Proof.
    clear -H. induction n as [lo hi ann cs IH] using pnode_ind'. intros n' Hw Hs E. rewrite sub_match_eq in E.
    apply bind_ok_inv in E as [counts [Ec E]]. apply bind_ok_inv in E as [cs' [Es E]].
    apply bind_ok_inv in E as [out [Eo E]]. injection E as <-.
    pose proof (wf_children _ _ Hw) as Hcs. cbn [p_children] in Hcs. inversion Hs as [? ? ? ? S1 S2 S3 S4]; subst.
    apply mapM_ok_iff in Ec, Es.
    assert (Lf : length cs' = length counts) by (rewrite <- (F2_len _ _ _ Es), <- (F2_len _ _ _ Ec); auto).
    assert (F : Forall2 (fun c c' => wf c' /\ same_frame c c' /\ shaped P c') cs cs').
    { clear - IH Hcs S4 Es. induction Es as [|c c' cs cs' Ec F IHf]; constructor; inversion IH; inversion Hcs; inversion S4; subst; auto.
      destruct (sub_match_spec tokens sub c c') as [A [B _]]; auto. }
    assert (Wcs' : Forall wf cs') by (clear - F; induction F as [|? ? ? ? [? _]]; constructor; auto).
    assert (Scs' : Forall (shaped P) cs') by (clear - F; induction F as [|? ? ? ? [? [? ?]]]; constructor; auto).
    assert (Fr : Forall2 same_frame cs cs') by (clear - F; induction F as [|? ? ? ? [? [? ?]]]; constructor; auto).
    destruct cs' as [|c' cs'].
    { inversion Fr; subst. cbn in Eo. injection Eo as <-. apply Shaped; auto. }
    destruct counts as [|k counts]; [discriminate|]. cbn [combine transplant_children] in Eo. injection Lf as Lf.
    destruct (eq_dec ann APaired) as [->|Hna].
    - destruct (S2 eq_refl) as [l [m [r [-> [A1 [A2 [A3 [A4 [A5 A6]]]]]]]]].
      inversion Hw as [? h ? ? W1 W2 W3 W4 W5]; subst. destruct W3 as [C|W3]; [discriminate|].
      pose proof (tiles_same _ _ _ _ _ W3 Fr Wcs') as Ht.
      inversion Fr as [|? l' ? ? Fl' Fr']; subst. inversion Fr' as [|? m' ? ? Fm' Fr'']; subst.
      inversion Fr'' as [|? r' ? ? Frr Fn]; subst. inversion Fn; subst.
      assert (Eout : out = [c'; m'; r']).
      { rewrite <- (combine_fst [m'; r'] counts Lf) in Ht, Wcs'.
        destruct (transplant_list_spec tokens _ _ _ _ _ Eo Ht Wcs') as [_ [_ [_ [_ R5]]]]. rewrite combine_fst in R5 by auto. apply R5.
        destruct counts as [|k1 [|k2 [|]]]; try discriminate. destruct Fm' as [_ [_ Em]], Frr as [_ [_ Er']].
        repeat constructor; cbn [fst]; congruence. }
      subst out. apply Shaped; auto; try congruence; [intros [C|[C|C]]; discriminate|].
      intros _. exists c', m', r'. destruct Fl' as [B1 [B2 B3]], Fm' as [B4 [B5 B6]], Frr as [B7 [B8 B9]].
      rewrite B1, B2, B3, B6, B7, B8, B9. splits; auto.
    - assert (Hi : Forall item (c' :: cs')).
      { specialize (S3 Hna). clear -S3 Fr. induction Fr; inversion S3; subst; constructor; auto. eapply item_frame; eauto. }
      assert (Hout : Forall (fun n => shaped P n /\ item n) out).
      { eapply transplant_list_shaped; [exact Eo|]. rewrite combine_fst by auto. clear -Hi Scs'.
        induction Hi; inversion Scs'; subst; constructor; auto. }
      apply Shaped.
      + intros Hx. specialize (S1 Hx). subst cs. inversion Fr.
      + intros C. contradiction.
      + intros _. eapply Forall_impl; [|exact Hout]. intros a0 Ha0. apply Ha0.
      + eapply Forall_impl; [|exact Hout]. intros a0 Ha0. apply Ha0.
  Qed.

  (** *** The whole *)
  Theorem nest_ok ns : forest pairs None 0 tokens ns -> (forall o c, In (o, c) pairs -> ~ In c (openers pairs)) ->
    (forall a b o c, nth_error tokens a = Some o -> nth_error tokens b = Some c -> In (o, c) pairs -> P a b) ->
    exists n', split_parse (PNode 0 (Some (length tokens)) ARoot ns) tokens splits quotes (Some sub) = Ok n' /\
      wf n' /\ same_frame (PNode 0 (Some (length tokens)) ARoot ns) n' /\
      leaf_ranges n' = leaf_ranges (PNode 0 (Some (length tokens)) ARoot ns) /\ shaped P n'.
  Proof using Hid Hni Hnd Hno Hnc Hio Hic Hdo Htidy.
    intros Fo HP HPP. set (root := PNode 0 (Some (length tokens)) ARoot ns).
    pose proof (forest_tiles _ _ _ _ _ Fo) as Ft. cbn [Nat.add] in Ft.
    assert (Wr : wf root).
    { apply WF; auto with arith. - now apply (forest_well_formed _ _ 0 _ _ Fo). - discriminate. }
    assert (Ur : unsplit_tree root) by (constructor; [discriminate|apply (forest_unsplit _ _ _ _ _ Fo)]).
    assert (Hns : Forall (fun n => shaped P n /\ item n) ns).
    { apply (forest_shaped P pairs tokens None 0 tokens ns Fo HPP). intros k Hk. reflexivity. }
    assert (Hnb : Forall (fun n => based n /\ framed n) ns).
    { apply (forest_based None 0 tokens ns Fo HP). intros k Hk. reflexivity. }
    assert (Sr : shaped P root).
    { apply Shaped; try (intros C; discriminate); try (intros [C|[C|C]]; discriminate).
      - intros _. eapply Forall_impl; [|exact Hns]. intros a0 Ha0. apply Ha0.
      - eapply Forall_impl; [|exact Hns]. intros a0 Ha0. apply Ha0. }
    assert (Br : based root).
    { constructor; [discriminate| |]; [intros _|]; (eapply Forall_impl; [|exact Hnb]; intros a0 Ha0; apply Ha0). }
    unfold split_parse. destruct (split_node_spec tokens splits quotes root Wr Ur) as [m [Em [Wm [Fm [Lm _]]]]]. rewrite Em. cbn [bind].
    pose proof (split_node_grouped _ _ Wr Br Em) as Gm. pose proof (split_node_shaped P tokens splits quotes _ _ Wr Ur Sr Em) as Sm.
    destruct (sub_match_ok m Wm Gm) as [n' En]. exists n'. destruct (sub_match_spec tokens sub m n' Wm En) as [W' [F' L']].
    splits; auto; [|congruence|exact (sub_match_shaped m n' Wm Sm En)].
    destruct Fm as [A1 [A2 A3]], F' as [B1 [B2 B3]]. repeat split; congruence.
  Qed.
End Nest.
