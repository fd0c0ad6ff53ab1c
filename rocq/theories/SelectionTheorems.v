(** What follows for the selection DAG: packing, choices, declining to end. *)

From Coq Require Import List Bool Arith ZArith Lia QArith Qcanon Sorting.Sorted.
From Verif Require Import Base Graph GatedDag SeqNodes PackedSeq PackedSeqProofs Numbered Decisions Convert BuilderPack
  ConstraintDag ConstraintSpec ConstraintProofs ConstraintPack EditSpec SelectionDag SelectionSpec SelectionProofs SelectionPaths.
Import ListNotations.
Close Scope Qc_scope. Close Scope Q_scope. Close Scope Z_scope. Open Scope nat_scope.

Section Theorems.
  Context {M : Type} {md : EqDec M} (U : text -> M -> utilities).
  Notation L := (lnode M).
  Notation step := (@step M).

  (** ** The decisions of a selection. *)
  Definition asked (w : step) : list dkey := map fst (left_out w).
  Lemma asked_taken (w : step) : map fst (taken w) = asked w.
  Proof. now destruct w. Qed.
  Lemma asked_takens (l : list step) : map fst (flat_map taken l) = flat_map asked l.
  Proof. induction l as [|w l IH]; [reflexivity|]. cbn [flat_map]. rewrite map_app. f_equal; [apply asked_taken|exact IH]. Qed.
  Lemma selection_asked from to k ds : selection U from to k ds -> map fst ds = flat_map asked from.
  Proof.
    induction 1 as [to|x from to k ds Hx Hs IH|i part j from gap run to k ds Hp Es Hs IH|i part j from to k ds Hp Hs IH]; [reflexivity| | |].
    - cbn [flat_map]. rewrite map_app. f_equal. exact IH.
    - cbn [map fst flat_map asked left_out app]. rewrite map_app, flat_map_app. f_equal. f_equal; [apply asked_takens|]. cbn. f_equal. exact IH.
    - cbn [map fst flat_map asked left_out app]. rewrite map_app, flat_map_app. f_equal. f_equal; [apply asked_takens|]. cbn. f_equal. exact IH.
  Qed.
  Lemma asked_within n : forall l : list L, lsizes l <= n -> forall p, numbered p l -> within p (p + lsizes l) (map fst (flat_map asked (walks l))).
  Proof.
    induction n as [|n IH]; intros [|x l] Hs p Hn; try apply within_nil; rewrite lsizes_cons in *; pose proof (lsize_pos x) as Px; [lia|].
    unfold walks. cbn [flat_map]. rewrite flat_map_app, map_app. fold (walks l).
    inversion Hn as [|? ? ? E1 E2 E3|? i cs m ? E1 E2 E3]; subst.
    - assert (H1 : lsize x = 1) by (destruct x; auto; now destruct (E2 i cs m)).
      apply IH in E3; [|lia]. apply (within_app _ (S (number x))); [|eapply within_mono; [exact E3|lia|lia]|lia].
      destruct x as [i t|i t m|i|i|i|i cs m]; cbn; try apply within_nil; try (split; repeat constructor; unfold number; cbn; lia).
      now destruct (E2 i cs m).
    - rewrite lsize_group in *. apply IH in E3; [|lia]. apply IH in E2; [|lia].
      apply (within_app _ (S (pre i + lsizes cs))); [|eapply within_mono; [exact E3|lia|lia]|lia].
      cbn [walk flat_map asked left_out map app fst]. rewrite flat_map_app. cbn [flat_map asked left_out map app fst]. rewrite app_nil_r.
      apply within_cons; [|lia]. eapply within_mono; [exact E2|lia|lia].
  Qed.
  Lemma selection_increasing (l : list L) to k ds : numbered 0 l -> selection U (walks l) to k ds -> StronglySorted lt (positions ds).
  Proof.
    intros Hn Hs. apply selection_asked in Hs. assert (E : positions ds = map fst (flat_map asked (walks l))) by (rewrite <- Hs; unfold positions; now rewrite map_map).
    rewrite E. apply (asked_within _ l (le_n _) 0 Hn).
  Qed.

  (** ** Exits. *)
  Lemma selection_no_exit from to k ds : selection U from to k ds -> Forall no_exit from.
  Proof.
    induction 1 as [to|x from to k ds Hx Hs IH|i part j from gap run to k ds Hp Es Hs IH|i part j from to k ds Hp Hs IH]; auto.
    all: constructor; [exact I|]; apply Forall_app; split; auto; constructor; auto; exact I.
  Qed.

  (** ** Region choices are selections. *)
  Lemma taken_inside (x : L) : Forall no_exit (walk x) -> flat_map taken (walk x) = inside x.
  Proof.
    induction x as [i t|i t m|i|i|i|i cs m IH] using lnode_ind'; cbn [walk]; intros F; try reflexivity.
    - inversion F as [|? ? C ?]; subst. destruct C.
    - cbn [flat_map taken inside app]. f_equal. inversion F as [|? ? _ F']; subst. apply Forall_app in F' as [F' _].
      rewrite flat_map_app. cbn [flat_map taken app]. rewrite app_nil_r. clear F.
      induction IH as [|c cs Hc IHcs IHc]; [reflexivity|]. cbn [flat_map] in *. apply Forall_app in F' as [F1 F2].
      rewrite flat_map_app, Hc, IHc by auto. reflexivity.
  Qed.
  Lemma takens_inside (l : list L) : Forall no_exit (walks l) -> flat_map taken (walks l) = flat_map inside l.
  Proof.
    induction l as [|x l IH]; [reflexivity|]. unfold walks. cbn [flat_map]. intros F. apply Forall_app in F as [F1 F2].
    rewrite flat_map_app. f_equal; [now apply taken_inside|exact (IH F2)].
  Qed.
  Lemma walks_cons (x : L) l : walks (x :: l) = walk x ++ walks l.
  Proof. reflexivity. Qed.
  Lemma walks_app (a b : list L) : walks (a ++ b) = walks a ++ walks b.
  Proof. apply flat_map_app. Qed.
  Lemma leave w from to k ds ds' : no_exit w -> selection U from to k ds -> ds' = left_out w ++ ds -> selection U (w :: from) to k ds'.
  Proof. intros H1 H2 ->. now constructor. Qed.
  Lemma chosen_selection (l : list L) a : chosen l a -> Forall no_exit (walks l) -> forall rest to k ds, selection U rest to k ds ->
    exists k', selection U (walks l ++ rest) to k' (a ++ ds).
  Proof.
    induction 1 as [|i t l a Hc IH|i t m l a Hc IH|i cs m l a b Hc IHc Hl IH|i l a Hc IH|i l a Hc IH|i l a Hc IH|i inner j l a Hc IH]; intros F rest to k ds Hs.
    - eexists. exact Hs.
    - exact (IH F _ _ _ _ Hs).
    - rewrite walks_cons in *. inversion F as [|? ? _ F']; subst. destruct (IH F' _ _ _ _ Hs) as [k' H]. exists k'. eapply leave; [|exact H|reflexivity]. exact I.
    - rewrite walks_cons in *. cbn [walk] in *. rewrite <- app_comm_cons in F. inversion F as [|? ? _ F']; subst.
      rewrite <- app_assoc in F'. apply Forall_app in F' as [F1 F2]. inversion F2 as [|? ? _ F3]; subst.
      destruct (IH F3 _ _ _ _ Hs) as [k1 H1].
      destruct (IHc F1 (WClose (pre i) m :: walks l ++ rest) to k1 (b ++ ds)) as [k2 H2].
      { eapply leave; [|exact H1|reflexivity]. exact I. }
      exists k2. rewrite <- !app_comm_cons, <- !app_assoc. cbn [app]. eapply leave; [|exact H2|reflexivity]. exact I.
    - rewrite walks_cons in *. inversion F as [|? ? _ F']; subst. destruct (IH F' _ _ _ _ Hs) as [k' H]. exists k'. eapply leave; [|exact H|reflexivity]. exact I.
    - rewrite walks_cons in *. inversion F as [|? ? _ F']; subst. destruct (IH F' _ _ _ _ Hs) as [k' H]. exists k'. eapply leave; [|exact H|reflexivity]. exact I.
    - rewrite walks_cons in F. inversion F as [|? ? C F']; subst. destruct C.
    - rewrite walks_cons, walks_app, walks_cons in *. inversion F as [|? ? _ F']; subst. apply Forall_app in F' as [F1 F2]. inversion F2 as [|? ? _ F3]; subst.
      destruct (IH F3 _ _ _ _ Hs) as [k' H]. eexists. cbn [walk app]. rewrite <- (takens_inside inner F1), <- !app_assoc. cbn [app]. apply sel_lost; [exact F1|exact H].
  Qed.
  Lemma exits_exit (l : list L) ds : exits l ds -> ~ Forall no_exit (walks l).
  Proof.
    assert (G : forall (l : list L) a, inside_exits l a -> ~ Forall no_exit (walks l)).
    { clear l ds. induction 1 as [i l|i cs m l a H IH|x l a H IH]; rewrite walks_cons; intros F; apply Forall_app in F as [F1 F2]; auto.
      - inversion F1 as [|? ? C ?]. destruct C.
      - cbn [walk] in F1. inversion F1 as [|? ? _ F3]; subst. apply Forall_app in F3 as [F3 _]. auto. }
    induction 1 as [i l|i cs m l a H IH|i l a H|l1 l2 a b H1 H IH]; intros F.
    - rewrite walks_cons in F. inversion F as [|? ? C ?]. destruct C.
    - rewrite walks_cons in F. apply Forall_app in F as [F1 F2]. cbn [walk] in F1. inversion F1 as [|? ? _ F3]; subst. apply Forall_app in F3 as [F3 _]. auto.
    - rewrite walks_cons in F. apply Forall_app in F as [F1 F2]. eapply G; eauto.
    - rewrite walks_app in F. apply Forall_app in F as [F1 F2]. auto.
  Qed.
  Lemma choice_selection (l : list L) to ds : Forall no_exit (walks l) -> region_choice l ds -> exists k, selection U (walks l) to k ds.
  Proof.
    intros F [H|H]; [|now apply exits_exit in H]. destruct (chosen_selection l ds H F [] to 0%Qc [] (sel_nothing U to)) as [k Hk].
    rewrite !app_nil_r in Hk. eauto.
  Qed.

  (** ** Targets of text only can be seen. *)
  Lemma text_seen (x : L) : text_only x -> Forall seen (walk x).
  Proof.
    induction x as [i t|i t m|i|i|i|i cs m IH] using lnode_ind'; cbn; intros H; try (now destruct H); try (repeat constructor; discriminate).
    constructor; [discriminate|]. apply Forall_app. split; [|repeat constructor; discriminate].
    induction IH as [|c cs Hc IHcs IHc]; [constructor|]. cbn in H |- *. destruct H as [H1 H2]. apply Forall_app. auto.
  Qed.
  Lemma texts_seen (l : list L) : Forall text_only l -> Forall seen (walks l).
  Proof. induction 1 as [|x l Hx F IH]; [constructor|]. rewrite walks_cons. apply Forall_app. split; auto. now apply text_seen. Qed.

  (** ** Packing. *)
  Definition SD := fun ws ts => mkDag (SAt SkipUnselected 0 0) (all_edges U ws ts) SFinal.
  Lemma all_finite ws ts e : In e (all_edges U ws ts) -> finite_edge e.
  Proof.
    intros He. apply edge_cases in He as [[n [w [m [t [_ [_ He]]]]]]|[j ->]]; [|unfold finite_edge; cbn; eauto].
    unfold blk in He. unfold finite_edge. repeat (apply in_app_or in He as [He|He]).
    - destruct w; cbn in He; repeat (destruct He as [<-|He]); try destruct He; cbn; eauto.
    - destruct w; cbn in He; repeat (destruct He as [<-|He]); try destruct He; cbn; eauto.
    - destruct (visible t); cbn in He; repeat (destruct He as [<-|He]); try destruct He; cbn; eauto.
    - destruct (alike U w t) as [[]|]; cbn in He; repeat (destruct He as [<-|He]); try destruct He; cbn; eauto.
    - destruct w; cbn in He; repeat (destruct He as [<-|He]); try destruct He; cbn; eauto.
    - destruct w; cbn in He; repeat (destruct He as [<-|He]); try destruct He; cbn; eauto.
  Qed.
  Lemma selection_packs ws ts : ~ begins_with_end ws -> Forall no_exit ws -> (forall q ds, selection U ws ts q ds -> StronglySorted lt (positions ds)) ->
    exists r, pack_selection_dag (prune_to_reachable (SD ws ts)) = Ok r.
  Proof.
    intros B F S. unfold pack_selection_dag. apply builder_packs; cbn [edges].
    - apply all_edges_topological.
    - assert (R : exists tr, srun U SkipUnselected ws ts tr).
      { clear -F. induction F as [|w ws Hw F [tr IH]]; eexists; [apply sr_done|apply sr_skip; eauto]. }
      destruct R as [tr R]. destruct (run_path U ws ts F _ _ _ _ R 0 0) as [p [Hp _]]; auto with arith.
      exists p. splits; [exact Hp| |].
      + apply Forall_forall. intros e He. eapply is_path_In in He; [|exact Hp]. now apply all_finite in He.
      + intros ->. apply is_path_nil_inv in Hp. discriminate.
    - intros p Hp. destruct (selection_path_finite U ws ts p Hp) as [q Hq]. eapply S. eapply selection_paths; eauto.
  Qed.

  (** ** Reached states. *)
  Definition sound_state (ws ts : list step) (s : sstate) : Prop :=
    match s with SAt c i j => Forall no_exit (firstn i ws) /\ j <= length ts | SFinal => True end.
  Lemma firstn_step (ws : list step) n w : skipn n ws = w :: skipn (S n) ws -> firstn (S n) ws = firstn n ws ++ [w].
  Proof. intros H. apply skipn_nth in H as [H _]. revert ws H. induction n as [|n IH]; intros [|x ws] H; cbn in H; try discriminate; [now injection H as ->|]. change (x :: firstn (S n) ws = x :: (firstn n ws ++ [w])). f_equal. exact (IH _ H). Qed.
  Lemma edge_sound ws ts e : In e (all_edges U ws ts) -> sound_state ws ts (source e) -> sound_state ws ts (dest e).
  Proof.
    intros He Hs. apply edge_cases in He as [[n [w [m [t [E1 [E2 He]]]]]]|[j ->]]; [|exact I].
    assert (Hn : forall c, Forall no_exit (firstn n ws) /\ m <= length ts -> no_exit w -> sound_state ws ts (SAt c (S n) m)).
    { intros c [A B] Hw. split; auto. rewrite (firstn_step _ _ _ E1). apply Forall_app. auto. }
    assert (Ht : t <> None -> m < length ts).
    { destruct t as [y|]; [|congruence]. intros _. cbn in E2. apply skipn_nth in E2 as [E2 _]. apply nth_error_Some. congruence. }
    destruct (blk_source U _ _ _ _ _ _ He) as [c0 Hc]. rewrite Hc in Hs. unfold blk in He.
    repeat (apply in_app_or in He as [He|He]).
    - destruct w; cbn in He; repeat (destruct He as [<-|He]); try destruct He; apply Hn; auto; exact I.
    - destruct w; cbn in He; repeat (destruct He as [<-|He]); try destruct He; apply Hn; auto; exact I.
    - destruct t as [y|]; [|destruct He]. specialize (Ht ltac:(discriminate)). destruct Hs.
      destruct y; cbn in He; repeat (destruct He as [<-|He]); try destruct He; cbn; auto.
    - destruct t as [y|]; [|destruct w; destruct He]. specialize (Ht ltac:(discriminate)). destruct (alike U w (Some y)) as [[k c]|] eqn:Ea; [|destruct He].
      destruct He as [<-|[]]. apply alike_spec in Ea as [Nw _]. destruct (Hn SelectMatched Hs Nw). split; auto.
    - destruct w; cbn in He; repeat (destruct He as [<-|He]); try destruct He; apply Hn; auto; exact I.
    - destruct w; cbn in He; repeat (destruct He as [<-|He]); try destruct He; apply Hn; auto; exact I.
  Qed.
  Lemma path_sound ws ts s p t : is_path (all_edges U ws ts) s p t -> sound_state ws ts s -> sound_state ws ts t.
  Proof. induction 1 as [|e p t He Hp IH]; auto. intros Hs. apply IH. eapply edge_sound; eauto. Qed.
  Lemma next_flags_true ws : forall b i xs, Forall no_exit xs -> exists es, rows U true i (xs ++ ws) b = es ++ rows U true (i + length xs) ws b.
  Proof.
    intros b i xs F. revert i. induction F as [|w xs Hw F IH]; intros i; [exists []; cbn; now rewrite Nat.add_0_r|].
    cbn [app rows length]. assert (N : next_flag true w = true) by (destruct w; auto; destruct Hw). rewrite N.
    destruct (IH (S i)) as [es E]. rewrite E. eexists (_ ++ es). rewrite <- app_assoc. now rewrite <- Nat.add_succ_comm.
  Qed.
  Lemma both_offered ws ts i j k p : is_path (all_edges U ws ts) (SAt SkipUnselected 0 0) p (SAt SelectUnmatched i j) -> nth_error ws i = Some (WEnd k) ->
    In (mkEdge (SAt SelectUnmatched i j) (SAt SkipUnselected (S i) j) (Fin 0) (Some ((k, RegionShouldEnd), DTrue)) None) (all_edges U ws ts) /\
    In (mkEdge (SAt SelectUnmatched i j) (SAt SelectUnmatched (S i) j) (Fin 0) (Some ((k, RegionShouldEnd), DFalse)) (Some (mkSInfo SelectUnmatched (Some k) None))) (all_edges U ws ts).
  Proof.
    intros Hp Hi. assert (Hi' := Hi). apply path_sound in Hp as [F Hj]; [|split; [constructor|lia]].
    apply nth_error_split in Hi as [xs [rest [-> Hx]]]. rewrite firstn_app in F. subst i. rewrite Nat.sub_diag, firstn_all in F.
    cbn [firstn] in F. rewrite app_nil_r in F.
    destruct (next_flags_true (WEnd k :: rest) (map Some ts ++ [None]) 0 xs F) as [es E]. cbn [Nat.add] in E.
    assert (G : forall e, In e (blk U true (length xs) j (WEnd k) (hd_error (skipn j ts))) -> In e (all_edges U (xs ++ WEnd k :: rest) ts)).
    { intros e He. unfold all_edges. apply in_or_app. left. rewrite E. apply in_or_app. right. cbn [rows next_flag]. apply in_or_app. left.
      apply row_In. exists j, (hd_error (skipn j ts)). split; [|exact He]. now apply target_at_back; [|apply here_at]. }
    split; apply G; unfold blk; do 5 (apply in_or_app; right); [right; now left|now left].
  Qed.
End Theorems.
