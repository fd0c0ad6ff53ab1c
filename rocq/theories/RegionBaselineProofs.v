(** The region baselines: which nodes they single out, and what solving for them
    yields. *)

From Coq Require Import List Bool Arith Lia ZArith QArith Qcanon Sorting.Sorted.
From Verif Require Import Base SeqNodes PackedSeq PackedSeqProofs Numbered Decisions TokenProb RegionDecisions ConvertLists PrefixBaselines PrefixProofs
  ConstraintSpec SelectionReportProofs RegionBaselines.
Import ListNotations.
Close Scope Qc_scope. Close Scope Q_scope. Close Scope Z_scope. Open Scope nat_scope.

Section Places.
  Context {M : Type}.
  Notation L := (lnode M).

  Lemma filtered_places (all : list L) (trig : L -> bool) (P : nat -> Prop) : StronglySorted (fun x y => number x < number y) all ->
    (forall k, (exists x, In x all /\ number x = k /\ trig x = true) <-> P k) -> lists_places P (map number (filter trig all)).
  Proof.
    intros Sd H. split.
    - clear H. induction Sd as [|x l S1 IH F]; cbn; [constructor|]. destruct (trig x); auto. cbn. constructor; auto.
      apply Forall_forall. intros k Hk. apply in_map_iff in Hk as [y [<- Hy]]. apply filter_In in Hy as [Hy _]. rewrite Forall_forall in F. auto.
    - intros k. rewrite <- H, in_map_iff. split.
      + intros [x [E Hx]]. apply filter_In in Hx as [H1 H2]. eauto.
      + intros [x [H1 [H2 H3]]]. exists x. split; auto. apply filter_In. auto.
  Qed.

  Section Prototype.
    Context (ns : list (node M)).
    Notation S := (pack ns).
    Notation all := (flat_map nodes (labelled ns)).
    Let Sd : StronglySorted (fun x y => number x < number y) all := nodes_sorted _ _ (labelled_numbered ns).
    Let Pl (x : L) : In x all -> placed S x.
    Proof. intros Hx. pose proof (nodes_all_placed ns) as F. rewrite Forall_forall in F. auto. Qed.

    (** *** Token probabilities. *)
    Section Probabilities.
      Context (aligned : list (nat * Qc)).
      Let entry (x : L) : list (nat * Qc) :=
        match x with LToken i _ _ => match assoc (pre i) aligned with Some p => [(pre i, p)] | None => [] end | _ => [] end.
      Let prob (x : L) : list Qc :=
        match x with LToken i _ _ => match assoc (pre i) aligned with Some p => [p] | None => [] end | _ => [] end.

      Lemma aligned_entries toks must : align_token_log_probs toks S must = Ok aligned ->
        aligned = flat_map entry all /\ forall i t m, In (LToken i t m) all -> exists p, assoc (pre i) aligned = Some p.
      Proof.
        unfold align_token_log_probs. intros E. apply bind_ok_inv in E as [[r st] [E1 E2]].
        assert (aligned = r) as Er by (destruct must; [apply bind_ok_inv in E2 as [? [_ E2]]|]; cbn in E2; congruence).
        rewrite preorder_labels, (align_loop_nodes S all _ (nodes_all_placed ns)) in E1.
        destruct (align_nodes_ok all (build_helper toks)) as [[r' [st' [E3 [_ Hk]]]]|[E3 _]]; [|congruence].
        assert (r' = aligned) by congruence. subst r'. clear r Er E1 E2 E3 st st'.
        assert (Hn : NoDup (map fst aligned)).
        { rewrite Hk. assert (G : forall l, StronglySorted (fun x y : L => number x < number y) l -> NoDup (map (fun x => pre (label x)) (filter (fun x => is_token (erase x)) l)));
            [|apply G, Sd]. clear. induction 1 as [|x l S1 IH F]; cbn; [constructor|]. destruct (is_token (erase x)); auto. cbn. constructor; auto.
          intros C. apply in_map_iff in C as [y [Ey Hy]]. apply filter_In in Hy as [Hy _]. rewrite Forall_forall in F. apply F in Hy. unfold number in Hy. lia. }
        assert (Ha : forall k p, In (k, p) aligned -> assoc k aligned = Some p).
        { clear -Hn. induction aligned as [|[k' p'] d IH]; intros k p H; [destruct H|]. inversion Hn as [|? ? N1 N2]; subst. cbn [assoc].
          destruct H as [H|H]; [injection H as -> ->; now rewrite eqb_refl|]. destruct (eqb k k') eqn:E; [|auto].
          apply eqb_eq in E. subst. destruct N1. change k' with (fst (k', p)). now apply in_map. }
        split.
        - transitivity (flat_map (fun k => match assoc k aligned with Some p => [(k, p)] | None => [] end) (map fst aligned)).
          + assert (G : forall d, incl d aligned -> d = flat_map (fun k => match assoc k aligned with Some p => [(k, p)] | None => [] end) (map fst d)).
            { induction d as [|[k p] d IH]; intros Hi; auto. cbn [map fst flat_map]. rewrite (Ha k p) by (apply Hi; now left). cbn [app]. f_equal.
              apply IH. intros z Hz. apply Hi. now right. }
            apply G, incl_refl.
          + rewrite Hk. clear. induction all as [|x l IH]; auto. cbn [filter flat_map]. destruct x; cbn [erase is_token]; auto.
            cbn [map flat_map entry label]. now rewrite IH.
        - intros i t m Hi. assert (Hin : In (pre i) (map fst aligned)).
          { rewrite Hk. apply in_map_iff. exists (LToken i t m). split; auto. apply filter_In. auto. }
          destruct (assoc (pre i) aligned) as [p|] eqn:E; eauto. apply assoc_None_iff in E. contradiction.
      Qed.

      Context (Ht : forall i t m, In (LToken i t m) all -> exists p, assoc (pre i) aligned = Some p).
      Context (low : Qc -> bool) (only_nonempty cumulative : bool).
      Definition improbable_node (x : L) : bool :=
        match x with
        | LToken i t _ => match assoc (pre i) aligned with
            | Some p => low (if cumulative then qsum (flat_map prob (through all (pre i))) else p) &&
                        (negb only_nonempty || match t with [] => false | _ :: _ => true end)
            | None => false
            end
        | _ => false
        end.
      Lemma low_run todo : forall done current, all = done ++ todo -> (cumulative = true -> current = qsum (flat_map prob done)) ->
        low_probability low only_nonempty cumulative S current (flat_map entry todo) = Ok (map number (filter improbable_node todo)).
      Proof.
        induction todo as [|x todo IH]; intros done current E Hc; [reflexivity|].
        assert (E' : all = (done ++ [x]) ++ todo) by (rewrite <- app_assoc; exact E).
        assert (Hx : In x all) by (rewrite E; apply in_or_app; right; now left).
        cbn [flat_map filter]. destruct x as [i t|i t m|i|i|i|i cs m]; cbn [entry improbable_node app];
          try (apply (IH _ _ E'); intros C; rewrite flat_map_app; cbn [flat_map prob]; rewrite !app_nil_r; auto; fail).
        destruct (Ht i t m Hx) as [p Hp]. rewrite Hp. cbn [app low_probability].
        pose proof (through_here all Sd _ _ _ E) as T. unfold number in T. cbn [label] in T. rewrite T.
        set (c' := if cumulative then (current + p)%Qc else p).
        assert (Ec' : (if cumulative then qsum (flat_map prob (done ++ [LToken i t m])) else p) = c').
        { unfold c'. destruct cumulative; auto. rewrite flat_map_app, qsum_app, <- (Hc eq_refl). cbn [flat_map prob]. rewrite Hp. cbn. ring. }
        rewrite Ec'. rewrite (IH _ c' E') by (intros C; rewrite <- Ec', C; reflexivity).
        destruct (node_at ns _ Hx) as [Hn Px]. unfold number in Hn. cbn [label] in Hn. apply placed_inv in Px as [Pc Pt].
        destruct (low c'); cbn [andb]; [|reflexivity]. destruct only_nonempty; cbn [negb orb].
        - rewrite Hn. cbn [Convert.or_err bind]. rewrite Pc, Pt. cbn [bind fst]. destruct t; reflexivity.
        - reflexivity.
      Qed.
      Lemma improbable_spec k : (exists x, In x all /\ number x = k /\ improbable_node x = true) <-> improbable all aligned low only_nonempty cumulative k.
      Proof.
        unfold improbable. split.
        - intros [x [Hx [<- T]]]. destruct x as [i t|i t m|i|i|i|i cs m]; try discriminate. cbn [improbable_node] in T.
          destruct (assoc (pre i) aligned) as [p|] eqn:Ep; [|discriminate]. apply andb_true_iff in T as [T1 T2]. unfold number. cbn [label]. split.
          + destruct only_nonempty; [|exists i, t, m; auto]. cbn [negb orb] in T2. exists i, t, m. splits; auto. destruct t; discriminate.
          + eexists. split; [|exact T1]. destruct cumulative; [reflexivity|exact Ep].
        - intros [Ta [p [Hp Hl]]].
          assert (X : exists i t m, In (LToken i t m) all /\ pre i = k /\ (negb only_nonempty || match t with [] => false | _ :: _ => true end) = true).
          { destruct only_nonempty; [destruct Ta as [i [t [m [H1 [H2 H3]]]]]|destruct Ta as [i [t [m [H1 H2]]]]]; exists i, t, m; splits; auto.
            destruct t; [congruence|reflexivity]. }
          destruct X as [i [t [m [Hi [<- Hne]]]]]. exists (LToken i t m). splits; auto. cbn [improbable_node].
          destruct (Ht i t m Hi) as [p' Hp']. rewrite Hp', Hne, andb_true_r. destruct cumulative; [rewrite Hp in Hl; exact Hl|].
          unfold own_log_prob in Hp. congruence.
      Qed.
    End Probabilities.
    Theorem probability_rule toks must aligned low only_nonempty cumulative : align_token_log_probs toks S must = Ok aligned ->
      exists l, places_from_token_probabilities low only_nonempty cumulative S aligned = Ok l /\
        lists_places (improbable all aligned low only_nonempty cumulative) l.
    Proof.
      intros E. destruct (aligned_entries aligned toks must E) as [E1 E2]. eexists. split.
      - unfold places_from_token_probabilities. rewrite E1 at 1. apply (low_run aligned E2 low only_nonempty cumulative all []); auto.
      - apply filtered_places; auto. intros k. apply improbable_spec; auto.
    Qed.

    (** *** Characters. *)
    Lemma written_app a b : written (M := M) (a ++ b) = written a + written b.
    Proof. unfold written. rewrite map_app, list_sum_app. reflexivity. Qed.
    Definition late_node (offset : Qc) (x : L) : bool :=
      match x with
      | LToken i (_ :: _) _ => qc_ltb offset (of_nat (written (through all (pre i))))
      | _ => false
      end.
    Lemma past_run offset todo : forall done, all = done ++ todo ->
      past_offset offset S (written done) (map label todo) = Ok (map number (filter (late_node offset) todo)).
    Proof.
      induction todo as [|x todo IH]; intros done E; [reflexivity|].
      assert (E' : all = (done ++ [x]) ++ todo) by (rewrite <- app_assoc; exact E).
      assert (Hx : In x all) by (rewrite E; apply in_or_app; right; now left).
      specialize (IH _ E'). rewrite written_app in IH. pose proof (Pl x Hx) as Px. apply placed_inv in Px.
      cbn [map filter]. destruct x as [i t|i t m|i|i|i|i cs m]; cbn [past_offset label late_node].
      - destruct Px as [-> ->]. cbn [bind]. unfold written at 2 in IH. cbn in IH. rewrite Nat.add_0_r in IH. exact IH.
      - destruct Px as [-> ->]. cbn [bind fst]. pose proof (through_here all Sd _ _ _ E) as T. unfold number in T. cbn [label] in T. rewrite T, written_app.
        assert (Ew : written [LToken i t m] = length t) by (unfold written; cbn; lia). rewrite Ew in *. rewrite IH. cbn [bind].
        destruct t as [|ch t]; [reflexivity|]. destruct (qc_ltb offset _); reflexivity.
      - rewrite Px. unfold written at 2 in IH. cbn in IH. rewrite Nat.add_0_r in IH. exact IH.
      - rewrite Px. unfold written at 2 in IH. cbn in IH. rewrite Nat.add_0_r in IH. exact IH.
      - rewrite Px. unfold written at 2 in IH. cbn in IH. rewrite Nat.add_0_r in IH. exact IH.
      - destruct Px as [-> _]. unfold written at 2 in IH. cbn in IH. rewrite Nat.add_0_r in IH. exact IH.
    Qed.
    Lemma late_spec offset k : (exists x, In x all /\ number x = k /\ late_node offset x = true) <-> ends_after all offset k.
    Proof.
      unfold ends_after. split.
      - intros [x [Hx [<- T]]]. destruct x as [i t|i t m|i|i|i|i cs m]; try discriminate. cbn [late_node] in T.
        destruct t as [|ch t]; [discriminate|]. unfold number. cbn [label]. split; [exists i, (ch :: t), m; splits; auto; discriminate|].
        unfold qc_ltb in T. destruct (Qclt_le_dec _ _) as [G|]; [exact G|discriminate].
      - intros [[i [t [m [Hi [<- Hne]]]]] Hl]. exists (LToken i t m). splits; auto. cbn [late_node]. destruct t; [congruence|].
        unfold qc_ltb. destruct (Qclt_le_dec _ _) as [|G]; auto. exfalso. exact (Qclt_not_le _ _ Hl G).
    Qed.
    Theorem offset_rule offset : exists l, places_from_character_offset offset S = Ok l /\ lists_places (ends_after all offset) l.
    Proof.
      eexists. split; [unfold places_from_character_offset; rewrite preorder_labels; exact (past_run offset all [] eq_refl)|].
      apply filtered_places; auto. apply late_spec.
    Qed.
    Lemma total_run l : Forall (placed S) l -> total_size S (map label l) = Ok (written l).
    Proof.
      induction 1 as [|x l Px F IH]; [reflexivity|]. apply placed_inv in Px. cbn [map total_size].
      assert (Ew : written (x :: l) = written [x] + written l) by (rewrite <- (written_app [x] l); reflexivity).
      destruct x as [i t|i t m|i|i|i|i cs m]; cbn [label].
      - destruct Px as [-> ->]. cbn [bind]. rewrite IH. cbn [bind]. rewrite Ew. unfold written at 3. cbn. do 2 f_equal. lia.
      - destruct Px as [-> ->]. cbn [bind]. rewrite IH. cbn [bind]. rewrite Ew. unfold written at 3. cbn. do 2 f_equal. lia.
      - now rewrite Px, IH.
      - now rewrite Px, IH.
      - now rewrite Px, IH.
      - destruct Px as [-> _]. now rewrite IH.
    Qed.
    Theorem fraction_rule fraction : exists l, places_from_example_fraction fraction S = Ok l /\
      lists_places (ends_after all (fraction * of_nat (written all))%Qc) l.
    Proof.
      destruct (offset_rule (fraction * of_nat (written all))%Qc) as [l [E H]]. exists l. split; auto.
      unfold places_from_example_fraction. rewrite preorder_labels, (total_run all (nodes_all_placed ns)). exact E.
    Qed.
  End Prototype.

  (** *** Depths. *)
  Fixpoint token_depths (d : nat) (x : L) : list (nat * nat) :=
    match x with
    | LToken i _ _ => [(pre i, d)]
    | LGroup _ cs _ => flat_map (token_depths (S d)) cs
    | _ => []
    end.
  Section Pick.
    Context (ancestor child : Z).
    Definition far (d0 d : nat) : bool := (Z.of_nat d <=? Z.of_nat d0 - ancestor)%Z || (Z.of_nat d0 + child <=? Z.of_nat d)%Z.
    Fixpoint pick (first : option nat) (l : list (nat * nat)) : list nat :=
      match l with
      | [] => []
      | (k, d) :: l' =>
          match first with
          | None => pick (Some d) l'
          | Some d0 => if far d0 d then k :: pick first l' else pick first l'
          end
      end.
    Definition then_first (first : option nat) (l : list (nat * nat)) : option nat :=
      match first with Some d => Some d | None => match l with (_, d) :: _ => Some d | [] => None end end.
    Lemma then_first_app f a b : then_first f (a ++ b) = then_first (then_first f a) b.
    Proof. destruct f, a as [|[? ?] ?]; reflexivity. Qed.
    Lemma pick_app a : forall f b, pick f (a ++ b) = pick f a ++ pick (then_first f a) b.
    Proof.
      induction a as [|[k d] a IH]; intros f b; [destruct f; reflexivity|]. cbn [app pick]. destruct f as [d0|].
      - rewrite !IH. cbn [then_first]. destruct (far d0 d); reflexivity.
      - rewrite IH. reflexivity.
    Qed.
    Lemma depth_run n : forall (l : list L), lsizes l <= n -> forall S, Forall (placed S) l -> forall d first rest,
      depth_loop ancestor child (Z.of_nat d) (option_map Z.of_nat first) (flat_map (lvisit true) l ++ rest) =
      pick first (flat_map (token_depths d) l) ++
      depth_loop ancestor child (Z.of_nat d) (option_map Z.of_nat (then_first first (flat_map (token_depths d) l))) rest.
    Proof.
      induction n as [|n IH]; intros [|x l] Hs S F d first rest; try (destruct first; reflexivity);
        rewrite lsizes_cons in Hs; pose proof (lsize_pos x) as Px; [lia|].
      inversion F as [|? ? Hx F']; subst. pose proof Hx as Hx'. apply placed_inv in Hx. cbn [flat_map]. rewrite <- app_assoc.
      assert (R : forall f, depth_loop ancestor child (Z.of_nat d) (option_map Z.of_nat f) (flat_map (lvisit true) l ++ rest) =
        pick f (flat_map (token_depths d) l) ++ depth_loop ancestor child (Z.of_nat d) (option_map Z.of_nat (then_first f (flat_map (token_depths d) l))) rest)
        by (intros f; apply (IH l ltac:(lia) S F')).
      destruct x as [i t|i t m|i|i|i|i cs m]; cbn [lvisit token_depths app depth_loop label].
      - apply R.
      - destruct Hx as [-> _]. destruct first as [d0|]; cbn [option_map pick then_first].
        + specialize (R (Some d0)). cbn [option_map then_first] in R. rewrite R. unfold far. destruct (_ || _); reflexivity.
        + apply (R (Some d)).
      - rewrite Hx. apply R.
      - rewrite Hx. apply R.
      - rewrite Hx. apply R.
      - destruct Hx as [_ [_ Fc]]. rewrite <- app_assoc. replace (Z.of_nat d + 1)%Z with (Z.of_nat (Datatypes.S d)) by lia.
        assert (Hcs : lsizes cs <= n) by (cbn [lsize] in Hs; unfold lsizes in *; lia).
        rewrite (IH cs Hcs S Fc (Datatypes.S d) first). cbn [app depth_loop].
        replace (Z.of_nat (Datatypes.S d) - 1)%Z with (Z.of_nat d) by lia.
        rewrite R, pick_app, then_first_app, app_assoc. reflexivity.
    Qed.
  End Pick.
  Lemma token_depths_at n : forall l : list L, lsizes l <= n -> forall d k e,
    In (k, e) (flat_map (token_depths d) l) <-> exists i t m e', at_depth l (LToken i t m) e' /\ pre i = k /\ e = d + e'.
  Proof.
    induction n as [|n IH]; intros [|x l] Hs d' k e.
    - split; [intros []|]. intros [i [t [m [e' [H _]]]]]. inversion H; subst; contradiction.
    - rewrite lsizes_cons in Hs. pose proof (lsize_pos x). lia.
    - split; [intros []|]. intros [i [t [m [e' [H _]]]]]. inversion H; subst; contradiction.
    - rewrite lsizes_cons in Hs. pose proof (lsize_pos x). cbn [flat_map]. rewrite in_app_iff.
      rewrite (IH l ltac:(lia)). split.
      + intros [Hx|[i [t [m [e' [H1 [H2 H3]]]]]]].
        * destruct x as [i t|i t m|i|i|i|i cs m]; cbn [token_depths] in Hx; try contradiction.
          -- destruct Hx as [Hx|[]]. injection Hx as <- <-. exists i, t, m, 0. splits; auto. constructor. now left.
          -- assert (Hcs : lsizes cs <= n) by (cbn [lsize] in Hs; unfold lsizes in *; lia).
             apply (IH cs Hcs) in Hx as [i' [t' [m' [e' [H1 [H2 H3]]]]]]. exists i', t', m', (S e'). splits; auto; [|lia].
             apply ad_inside with (i := i) (cs := cs) (m := m); auto. now left.
        * exists i, t, m, e'. splits; auto. inversion H1; subst; [constructor; now right|eapply ad_inside; [right; eauto|auto]].
      + intros [i [t [m [e' [H1 [H2 H3]]]]]]. inversion H1 as [l0 x0 Hin|l0 i0 cs m0 x0 d0 Hin Hd]; subst.
        * destruct Hin as [->|Hin]; [left; cbn; left; f_equal; lia|]. right. exists i, t, m, 0. splits; auto. now constructor.
        * destruct Hin as [->|Hin].
          -- left. cbn [token_depths]. assert (Hcs : lsizes cs <= n) by (cbn [lsize] in Hs; unfold lsizes in *; lia).
             apply (IH cs Hcs). exists i, t, m, d0. splits; auto. lia.
          -- right. exists i, t, m, (S d0). splits; auto. eapply ad_inside; eauto.
  Qed.
  Lemma token_depths_keys n : forall l : list L, lsizes l <= n -> forall d,
    map fst (flat_map (token_depths d) l) = map number (filter (fun x => match x with LToken _ _ _ => true | _ => false end) (flat_map nodes l)).
  Proof.
    induction n as [|n IH]; intros [|x l] Hs d; auto; rewrite lsizes_cons in Hs; pose proof (lsize_pos x); [lia|].
    cbn [flat_map]. rewrite map_app, filter_app, map_app, (IH l ltac:(lia)). f_equal.
    destruct x as [i t|i t m|i|i|i|i cs m]; cbn [token_depths nodes filter]; auto. apply IH. cbn [lsize] in Hs; unfold lsizes in *; lia.
  Qed.
  Theorem depth_rule (ns : list (node M)) ancestor child : (1 <= ancestor)%Z -> (1 <= child)%Z ->
    exists l, places_from_depth_cutoff ancestor child (pack ns) = Ok l /\ lists_places (far_from_first (labelled ns) ancestor child) l.
  Proof.
    intros Ha Hc. exists (pick ancestor child None (flat_map (token_depths 0) (labelled ns))). split.
    - unfold places_from_depth_cutoff. destruct (Z.ltb_spec child 1); [lia|]. destruct (Z.ltb_spec ancestor 1); [lia|].
      rewrite in_order_pack. cbn [bind]. f_equal.
      pose proof (depth_run ancestor child _ (labelled ns) (le_n _) (pack ns) (pack_placed ns) 0 None []) as R.
      rewrite app_nil_r in R. cbn [option_map] in R. change (Z.of_nat 0) with 0%Z in R. rewrite R. cbn [depth_loop]. now rewrite app_nil_r.
    - set (tree := labelled ns). pose proof (nodes_sorted _ _ (labelled_numbered ns)) as Sd. fold tree in Sd.
      assert (Sk : StronglySorted lt (map fst (flat_map (token_depths 0) tree))).
      { rewrite (token_depths_keys _ tree (le_n _)). apply (filtered_places (flat_map nodes tree) _ (fun k => exists x, In x (flat_map nodes tree) /\ number x = k /\
          (match x with LToken _ _ _ => true | _ => false end) = true) Sd). intros k. reflexivity. }
      assert (At : forall k e, In (k, e) (flat_map (token_depths 0) tree) <-> exists i t m, at_depth tree (LToken i t m) e /\ pre i = k).
      { intros k e. rewrite (token_depths_at _ tree (le_n _)). split.
        - intros [i [t [m [e' [H1 [H2 H3]]]]]]. cbn in H3. subst. eauto.
        - intros [i [t [m [H1 H2]]]]. exists i, t, m, e. auto. }
      assert (Tk : forall k, a_token_at (flat_map nodes tree) k <-> In k (map fst (flat_map (token_depths 0) tree))).
      { intros k. rewrite (token_depths_keys _ tree (le_n _)), in_map_iff. split.
        - intros [i [t [m [H1 H2]]]]. exists (LToken i t m). split; auto. apply filter_In. auto.
        - intros [x [H1 H2]]. apply filter_In in H2 as [H2 H3]. destruct x; try discriminate. eexists _, _, _. split; [exact H2|exact H1]. }
      destruct (flat_map (token_depths 0) tree) as [|[k0 d0] l] eqn:El.
      + split; [constructor|]. intros k. split; [intros []|]. intros [i0 [t0 [m0 [d0 [i [t [m [d [H1 _]]]]]]]]].
        assert (C : In (pre i0, d0) []) by (apply At; eauto). destruct C.
      + cbn [pick]. cbn [map fst] in *. apply StronglySorted_inv in Sk as [Sk F].
        assert (P : forall l, StronglySorted lt (map fst l) -> StronglySorted lt (pick ancestor child (Some d0) l) /\
                  forall k, In k (pick ancestor child (Some d0) l) <-> exists d, In (k, d) l /\ far ancestor child d0 d = true).
        { clear. induction l as [|[k d] l IH]; intros Sk; cbn [pick]; [split; [constructor|]; intros k; split; [intros []|intros [d [[] _]]]|].
          cbn [map fst] in Sk. apply StronglySorted_inv in Sk as [Sk F]. destruct (IH Sk) as [I1 I2]. split.
          - destruct (far ancestor child d0 d); auto. constructor; auto. apply Forall_forall. intros j Hj. apply I2 in Hj as [e [Hj _]].
            rewrite Forall_forall in F. apply F. change j with (fst (j, e)). now apply in_map.
          - intros j. destruct (far ancestor child d0 d) eqn:Ef; cbn [In]; rewrite I2; split.
            + intros [<-|[e [H1 H2]]]; eauto.
            + intros [e [[H1|H1] H2]]; [injection H1 as -> ->; auto|eauto].
            + intros [e [H1 H2]]; eauto.
            + intros [e [[H1|H1] H2]]; [injection H1 as -> ->; congruence|eauto]. }
        destruct (P l Sk) as [P1 P2]. split; auto. intros k. rewrite P2. clear P P1 P2.
        assert (Ff : forall d, far ancestor child d0 d = true <-> (Z.of_nat d <= Z.of_nat d0 - ancestor \/ Z.of_nat d0 + child <= Z.of_nat d)%Z).
        { intros d. unfold far. rewrite orb_true_iff, !Z.leb_le. reflexivity. }
        assert (First : exists i0 t0 m0, at_depth tree (LToken i0 t0 m0) d0 /\ pre i0 = k0) by (apply At; now left).
        assert (Least : forall j, a_token_at (flat_map nodes tree) j -> k0 <= j).
        { intros j Hj. apply Tk in Hj as [<-|Hj]; auto. rewrite Forall_forall in F. apply F in Hj. lia. }
        split.
        * intros [d [Hin Hf]]. apply Ff in Hf. destruct First as [i0 [t0 [m0 [F1 F2]]]]. assert (Hin' : In (k, d) ((k0, d0) :: l)) by now right.
          apply At in Hin' as [i [t [m [H1 H2]]]]. exists i0, t0, m0, d0, i, t, m, d. splits; auto. intros j Hj. rewrite F2. auto.
        * intros [i0 [t0 [m0 [d1 [i [t [m [d [H1 [H2 [H3 [H4 H5]]]]]]]]]]]].
          assert (I1 : In (pre i0, d1) ((k0, d0) :: l)) by (apply At; eauto).
          assert (I2 : In (k, d) ((k0, d0) :: l)) by (apply At; eauto).
          assert (pre i0 <= k0) by (apply H2, Tk; now left).
          assert (d1 = d0).
          { destruct I1 as [I1|I1]; [now injection I1|]. rewrite Forall_forall in F. assert (X : In (pre i0) (map fst l)) by (change (pre i0) with (fst (pre i0, d1)); now apply in_map).
            apply F in X. lia. }
          subst d1. exists d. split; [|now apply Ff]. destruct I2 as [I2|I2]; auto. injection I2 as <- <-. lia.
  Qed.
  Theorem cutoffs_rejected (ns : list (node M)) ancestor child : (ancestor < 1 \/ child < 1)%Z ->
    places_from_depth_cutoff ancestor child (pack ns) = Err ValueError.
  Proof.
    intros H. unfold places_from_depth_cutoff. destruct (Z.ltb_spec child 1); auto. destruct (Z.ltb_spec ancestor 1); auto. lia.
  Qed.
End Places.
