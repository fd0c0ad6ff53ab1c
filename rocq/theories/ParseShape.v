(** The shape of parse trees: which annotations occur where. *)

From Coq Require Import List Bool Arith Lia.
From Verif Require Import Base StackParser StackParserProofs.
Import ListNotations.

Section Shape.
  (** What is known of the positions of an opening and its closing bracket. *)
  Variable P : nat -> nat -> Prop.

  Definition filled (n : pnode) : Prop := exists h, p_hi n = Some h /\ p_lo n < h.
  Definition item (n : pnode) : Prop :=
    (p_ann n = ASibling \/ p_ann n = APaired \/ p_ann n = ASplit) /\ filled n.
  Inductive shaped : pnode -> Prop :=
  | Shaped lo hi ann cs :
      (ann = ASibling \/ ann = ALeft \/ ann = ARight -> cs = []) ->
      (ann = APaired -> exists l m r, cs = [l; m; r] /\ p_ann l = ALeft /\ p_ann m = AMiddle /\ p_ann r = ARight /\
         p_hi l = Some (S (p_lo l)) /\ p_hi r = Some (S (p_lo r)) /\ P (p_lo l) (p_lo r)) ->
      (ann <> APaired -> Forall item cs) -> Forall shaped cs -> shaped (PNode lo hi ann cs).

  Lemma leaf_shaped lo hi ann : ann <> APaired -> shaped (PNode lo hi ann []).
  Proof. intros Hn. apply Shaped; auto. congruence. Qed.

  Context {T : Type} `{EqDec T}.
  Lemma forest_shaped (pairs : list (T * T)) (tokens : list T) ctx i ts ns : forest pairs ctx i ts ns ->
    (forall a b o c, nth_error tokens a = Some o -> nth_error tokens b = Some c -> In (o, c) pairs -> P a b) ->
    (forall k, k < length ts -> nth_error tokens (i + k) = nth_error ts k) ->
    Forall (fun n => shaped n /\ item n) ns.
  Proof.
    intros F HP. induction F as [ctx i|ctx i t ts ns Ho Hc F IH|o i t ts ns Hc Hn F IH|ctx i o c inner ms ts ns j Hi F1 IH1 F2 IH2];
      intros Hnth; constructor.
    - split; [apply leaf_shaped; discriminate|]. split; [cbn; auto|]. exists (S i). cbn. auto with arith.
    - apply IH. intros k Hk. specialize (Hnth (S k)). cbn [length nth_error] in Hnth. rewrite <- Hnth by lia. f_equal. lia.
    - split; [apply leaf_shaped; discriminate|]. split; [cbn; auto|]. exists (S i). cbn. auto with arith.
    - apply IH. intros k Hk. specialize (Hnth (S k)). cbn [length nth_error] in Hnth. rewrite <- Hnth by lia. f_equal. lia.
    - assert (Hj : nth_error tokens j = Some c).
      { unfold j. specialize (Hnth (S (length inner))). cbn [length nth_error] in Hnth. rewrite app_length in Hnth. cbn [length] in Hnth.
        rewrite nth_error_app2, Nat.sub_diag in Hnth by lia. cbn [nth_error] in Hnth. rewrite <- Hnth by lia. f_equal. lia. }
      assert (Hii : nth_error tokens i = Some o).
      { specialize (Hnth 0). cbn [length nth_error] in Hnth. rewrite Nat.add_0_r in Hnth. apply Hnth. lia. }
      split.
      + apply Shaped.
        * intros [C|[C|C]]; discriminate.
        * intros _. do 3 eexists. split; [reflexivity|]. cbn [p_ann p_hi p_lo]. splits; auto. eapply HP; eauto.
        * congruence.
        * assert (Hm : Forall (fun n => shaped n /\ item n) ms).
          { apply IH1. intros k Hk. specialize (Hnth (S k)). cbn [length nth_error] in Hnth. rewrite app_length in Hnth.
            rewrite nth_error_app1 in Hnth by lia. rewrite <- Hnth by lia. f_equal. lia. }
          constructor; [apply leaf_shaped; discriminate|]. constructor; [|constructor; [apply leaf_shaped; discriminate|constructor]].
          apply Shaped; try (intros C; discriminate); try (intros [C|[C|C]]; discriminate).
          -- intros _. apply (Forall_impl item (P := fun n => shaped n /\ item n)); auto. intros a Ha. apply Ha.
          -- apply (Forall_impl shaped (P := fun n => shaped n /\ item n)); auto. intros a Ha. apply Ha.
      + split; [cbn; auto|]. eexists. cbn. split; [reflexivity|]. unfold j. lia.
    - apply IH2. intros k Hk. specialize (Hnth (S (length inner + S k))). cbn [length nth_error] in Hnth.
      rewrite app_length in Hnth. cbn [length] in Hnth. rewrite nth_error_app2 in Hnth by lia.
      replace (length inner + S k - length inner) with (S k) in Hnth by lia. cbn [nth_error] in Hnth.
      rewrite <- Hnth by lia. f_equal. unfold j. lia.
  Qed.

  Variable tokens : list T.
  Notation wf := (well_formed (length tokens)).
  Lemma group_item g c0 : Forall item (c0 :: g) -> Forall wf (c0 :: g) -> (exists lo hi, tiles lo hi (c0 :: g)) ->
    item (PNode (p_lo c0) (p_hi (last (c0 :: g) c0)) ASplit (c0 :: g)).
  Proof.
    intros Hi Hw [lo [hi Ht]]. split; [cbn; auto|]. exists hi. cbn [p_hi p_lo].
    destruct (tiles_group _ _ _ Ht) as [c [E [El Er]]]; [discriminate|]. injection E as <-. split; auto.
    inversion Hi as [|? ? I1 I2]; subst. destruct I1 as [_ [h [Eh Hlt]]].
    inversion Ht as [|? mid ? ann cs ? Hle Hcs Hr]; subst. assert (h = mid) as -> by (destruct c0; cbn in *; congruence). apply tiles_le in Hr. cbn [p_lo]. lia.
  Qed.
  Lemma split_groups_shaped gs : forall lo hi, tiles lo hi (concat gs) -> Forall item (concat gs) -> Forall wf (concat gs) ->
    Forall shaped (concat gs) -> Forall item (flat_map split_group gs) /\ Forall shaped (flat_map split_group gs).
  Proof.
    induction gs as [|g gs IH]; intros lo hi Ht Hi Hw Hs; cbn [flat_map concat] in *; [auto|].
    apply tiles_app_inv in Ht as [mid [T1 T2]]. apply Forall_app in Hi as [I1 I2]. apply Forall_app in Hw as [W1 W2].
    apply Forall_app in Hs as [S1 S2]. destruct (IH _ _ T2 I2 W2 S2) as [A B].
    destruct g as [|c g]; [auto|]. cbn [split_group app]. split; constructor; auto.
    - apply group_item; eauto.
    - apply Shaped; auto; [intros [C|[C|C]]; discriminate|discriminate].
  Qed.

  Variables (splits : list T) (quotes : list (T * T)).
  Lemma item_frame a b : same_frame a b -> item a -> item b.
  Proof. intros [E1 [E2 E3]] [A [h [B C]]]. unfold item, filled. rewrite E1, E2, E3. eauto. Qed.
  Lemma split_node_shaped n : forall n', wf n -> unsplit_tree n -> shaped n -> split_node tokens splits quotes n = Ok n' -> shaped n'.
  Proof.
    induction n as [lo hi ann cs IH] using pnode_ind'. intros n' Hw Hu Hs E. pose proof E as E0. rewrite split_node_eq in E.
    assert (Hus : Forall unsplit_tree cs) by (inversion Hu; auto).
    apply bind_ok_inv in E as [b [Eb E]]. destruct b; [injection E as <-; auto|].
    apply bind_ok_inv in E as [flags [Ef E]]. apply bind_ok_inv in E as [cs' [Ec [= <-]]].
    inversion Hs as [? ? ? ? S1 S2 S3 S4]; subst. pose proof (wf_children _ _ Hw) as Hcs. cbn [p_children] in Hcs.
    apply mapM_ok_iff in Ec. apply mapM_ok_iff in Ef.
    assert (Fc : Forall2 (fun c c' => wf c' /\ same_frame c c' /\ shaped c') cs cs').
    { clear -IH Hcs Hus S4 Ec. induction Ec as [|c c' cs cs' E F IHF]; constructor; inversion IH; inversion Hcs as [|? ? Wc ?]; inversion S4; inversion Hus as [|? ? Uc ?]; subst; auto.
      unfold split_child in E. apply bind_ok_inv in E as [k [Ek E]]. destruct (1 <? k).
      - destruct (split_node_spec tokens splits quotes c Wc Uc) as [m [Em [Wm [Fm _]]]]. rewrite Em in E. injection E as <-. splits; auto.
      - injection E as <-. splits; auto. repeat split. }
    assert (Lf : length cs' = length flags) by (rewrite <- (F2_len _ _ _ Fc); now apply F2_len in Ef).
    assert (Wcs' : Forall wf cs') by (clear - Fc; induction Fc as [|? ? ? ? [? _]]; constructor; auto).
    assert (Scs' : Forall shaped cs') by (clear - Fc; induction Fc as [|? ? ? ? [? [? ?]]]; constructor; auto).
    assert (Fr : Forall2 same_frame cs cs') by (clear - Fc; induction Fc as [|? ? ? ? [? [? ?]]]; constructor; auto).
    assert (Hi : ann <> APaired -> Forall item cs').
    { intros Ha. specialize (S3 Ha). clear -S3 Fr. induction Fr; inversion S3; subst; constructor; auto. eapply item_frame; eauto. }
    unfold regroup. destruct ((1 <? length (group_by (combine cs' flags))) && negb (eqb ann APaired)) eqn:Eg.
    - apply andb_true_iff in Eg as [Eg1 Eg]. apply negb_true_iff, eqb_neq in Eg. specialize (Hi Eg).
      pose proof (proj1 (group_by_concat (combine cs' flags))) as Hcc. rewrite combine_fst in Hcc by auto.
      inversion Hw as [? h ? ? W1 W2 W3 W4 W5]; subst lo hi ann cs.
      assert (Ht : cs' = [] \/ tiles lo0 h cs') by (destruct W3 as [->|W3]; [inversion Fr; auto|right; eapply tiles_same; eauto]).
      destruct Ht as [->|Ht].
      { cbn in Eg1. discriminate. }
      rewrite <- Hcc in Ht, Hi, Wcs', Scs'. destruct (split_groups_shaped _ _ _ Ht Hi Wcs' Scs') as [A B].
      apply Shaped; auto.
      + intros Hx. specialize (S1 Hx). subst cs0. inversion Fr; subst. inversion Ef; subst. discriminate.
      + intros C. contradiction.
    - rewrite combine_fst by auto. apply Shaped; auto.
      + intros Hx. specialize (S1 Hx). subst. now inversion Fr.
      + intros Ha. destruct (S2 Ha) as [l [m [r [-> [A1 [A2 [A3 [A4 [A5 A6]]]]]]]]].
        inversion Fr as [|? l' ? ? Fl Fr1]; subst. inversion Fr1 as [|? m' ? ? Fm Fr2]; subst. inversion Fr2 as [|? r' ? ? Frr Fr3]; subst.
        inversion Fr3; subst. exists l', m', r'. destruct Fl as [B1 [B2 B3]], Fm as [B4 [B5 B6]], Frr as [B7 [B8 B9]].
        rewrite B1, B2, B3, B6, B7, B8, B9. splits; auto.
  Qed.
End Shape.
Lemma shaped_mono (P Q : nat -> nat -> Prop) n : (forall a b, P a b -> Q a b) -> shaped P n -> shaped Q n.
Proof.
  intros HPQ. induction n as [lo hi ann cs IH] using pnode_ind'. intros Hs.
  inversion Hs as [? ? ? ? S1 S2 S3 S4]; subst. apply Shaped; auto.
  - intros Ha. destruct (S2 Ha) as [l [m [r [-> [A1 [A2 [A3 [A4 [A5 A6]]]]]]]]]. exists l, m, r. splits; auto.
  - clear -IH S4. induction IH as [|x l Hx HF IHF]; inversion S4; subst; constructor; auto.
Qed.
Lemma forest_lows {T} `{EqDec T} (pairs : list (T * T)) ctx i ts ns : forest pairs ctx i ts ns ->
  Forall (fun r => fst r < i + length ts) (flat_map leaf_ranges ns).
Proof.
  induction 1 as [ctx i|ctx i t ts ns Ho Hc F IH|o i t ts ns Hc Hn F IH|ctx i o c inner ms ts ns j Hi F1 IH1 F2 IH2].
  - constructor.
  - cbn [flat_map leaf_ranges app length]. constructor; [cbn; lia|]. eapply Forall_impl; [|exact IH]. cbn. intros; lia.
  - cbn [flat_map leaf_ranges app length]. constructor; [cbn; lia|]. eapply Forall_impl; [|exact IH]. cbn. intros; lia.
  - cbn [flat_map length]. apply Forall_app. rewrite app_length. cbn [length]. split.
    + cbn [leaf_ranges flat_map app]. constructor; [cbn; lia|]. apply Forall_app. split.
      * destruct ms as [|m0 ms]; [constructor; [cbn; lia|constructor]|].
        eapply Forall_impl; [|exact IH1]. cbn beta. intros; lia.
      * constructor; [cbn; unfold j; lia|constructor].
    + eapply Forall_impl; [|exact IH2]. cbn beta. unfold j. intros; lia.
Qed.
