(** When [convert_dag_to_packed] succeeds. *)

From Coq Require Import List Bool Arith Lia ZArith Sorted Permutation QArith Qcanon.
From Verif Require Import Base Graph PackedDag PackedDagProofs PackedTables Convert ConvertLists ConvertProofs ConvertLayout ConvertPaths.
Import ListNotations.
Close Scope Qc_scope. Close Scope Q_scope. Open Scope nat_scope.

Lemma mapM_succeeds {A B} (f : A -> result B) l :
  (forall x, In x l -> exists y, f x = Ok y) -> exists ys, mapM f l = Ok ys.
Proof.
  induction l as [|x l IH]; intros Hf; [exists []; reflexivity|].
  destruct (Hf x (or_introl eq_refl)) as [y Hy].
  destruct IH as [ys Hys]; [intros; apply Hf; simpl; auto|].
  exists (y :: ys). cbn [mapM]. rewrite Hy. cbn [bind]. rewrite Hys. reflexivity.
Qed.

Section Success.
  Context {St Ky Vl In : Type} `{EqDec St} `{EqDec Ky} `{EqDec Vl}.
  Context (kle : Ky -> Ky -> bool) (vle : Vl -> Vl -> bool).
  Notation E := (edge St (Ky * Vl) In).
  Notation D := (dag St (Ky * Vl) In).
  Notation tedge := (edge (St * Z) (Ky * Vl) (option nat)).
  Context (d : D) (missing : Vl) (ordering : option (list Vl)).
  Notation es := (edges d).
  Notation init := (initial_state d).
  Notation final := (final_state d).

  (** Every edge is finite and lies on a path from the initial to the final state. *)
  Definition all_useful : Prop := forall e, List.In e es ->
    finite_edge e /\ (exists p, is_path es init p (source e)) /\ (exists p, is_path es (dest e) p final).
  Context (T : topological es) (Hne : es <> []) (U : all_useful) (Tk : total_order kle).

  Notation keys := (sort kle (keys_seen es)).
  Notation K := (length keys).

  Lemma sk_NoDup : NoDup keys.
  Proof. apply sort_NoDup, fold_add_new_NoDup. constructor. Qed.
  Lemma sk_index e k v : List.In e es -> assignment e = Some (k, v) ->
    exists i, key_index keys k = Ok (Z.of_nat i) /\ i < K.
  Proof.
    intros He Ea.
    assert (Hk : List.In k keys).
    { apply sort_In, fold_add_new_In. right. unfold edge_keys. apply in_map_iff. exists (k, v). split; auto.
      clear -He Ea. induction es as [|e0 l IH]; [destruct He|]. cbn [path_assignments].
      destruct He as [->|He]; [rewrite Ea; simpl; auto|]. destruct (assignment e0); simpl; auto. }
    destruct (index_of_In _ _ Hk) as [i Hi]. exists i. split; [|eapply index_of_lt; eauto].
    unfold key_index. now rewrite Hi.
  Qed.
  Lemma sk_range k u : key_index keys k = Ok u -> (0 <= u < Z.of_nat K)%Z.
  Proof. intros E1. apply key_index_ok in E1 as [i [-> E1]]. apply index_of_lt in E1. lia. Qed.

  (** Order of keys and order of indices. *)
  Definition before_key (a b : Ky) : Prop := kle a b = true /\ a <> b.
  Lemma before_key_index a b u w : key_index keys a = Ok u -> key_index keys b = Ok w ->
    (before_key a b <-> (u < w)%Z).
  Proof.
    intros Ha Hb. apply key_index_ok in Ha as [i [-> Ha]]. apply key_index_ok in Hb as [j [-> Hb]].
    apply index_of_Some in Ha. apply index_of_Some in Hb.
    pose proof (sort_sorted kle (keys_seen es) Tk) as Hs.
    split.
    - intros [Hle Hn]. destruct (lt_eq_lt_dec i j) as [[Hij|Hij]|Hij]; [lia|subst; congruence|].
      exfalso. apply Hn. pose proof (sorted_nth _ _ _ _ _ _ Hs Hij Hb Ha).
      apply (to_antisym _ Tk); auto.
    - intros Hij. split.
      + apply (sorted_nth _ _ i j _ _ Hs); auto. lia.
      + intros ->. assert (i = j); [|lia].
        eapply (proj1 (NoDup_nth_error keys)); [apply sk_NoDup|eapply nth_error_lt; eauto|congruence].
  Qed.

  (** *** The first edge leaves the initial state; the final state has no edge. *)
  Lemma useful_first : exists e0 es', es = e0 :: es' /\ source e0 = init.
  Proof.
    destruct es as [|e0 es'] eqn:Ee; [congruence|]. exists e0, es'. split; auto.
    destruct (U e0) as [_ [[p Hp] _]]; [rewrite Ee; simpl; auto|]. rewrite Ee in Hp.
    destruct p as [|e p]; [now apply is_path_nil_inv in Hp|].
    assert (Hn : e :: p <> []) by discriminate.
    destruct (path_last _ _ _ _ Hp Hn) as [e' [Hi Hd]].
    pose proof (is_path_In _ _ _ _ _ Hp Hi) as Hin. exfalso.
    destruct T as [To Tl]. cbn in To. destruct To as [To1 _]. destruct Hin as [<-|Hin].
    - apply (Tl e0); [simpl; auto|congruence].
    - eapply To1; eauto.
  Qed.
  Lemma useful_final e : List.In e es -> source e <> final.
  Proof.
    intros He C. destruct (U e He) as [_ [_ [p Hp]]].
    assert (Hc : is_path es (source e) (e :: p) (source e)) by (rewrite C at 2; constructor; auto).
    apply (topological_acyclic _ _ _ T) in Hc. discriminate.
  Qed.

  (** *** The folds. *)
  Lemma possible_succeeds l : forall dd,
    (forall e k v, List.In e l -> assignment e = Some (k, v) -> exists u, key_index keys k = Ok u) ->
    (forall l1 e l2, l = l1 ++ e :: l2 -> assignment e = None ->
       (exists t, assoc (source e) dd = Some t) \/ exists e', List.In e' l1 /\ dest e' = source e) ->
    exists P, foldM (possible_step keys) (l : list E) dd = Ok P.
  Proof.
    induction l as [|e l IH]; intros dd Hk Hs; [exists dd; reflexivity|].
    cbn [foldM]. unfold possible_step at 1.
    assert (Hu : exists u, match assignment e with
            | Some (k, _) => key_index keys k
            | None => or_err ValueError (assoc (source e) dd) end = Ok u).
    { destruct (assignment e) as [[k v]|] eqn:Ea.
      - eapply Hk; eauto. simpl; auto.
      - destruct (Hs [] e l eq_refl Ea) as [[t Ht]|[e' [[] _]]]. exists t. now apply or_err_ok. }
    destruct Hu as [u ->]. cbn [bind]. apply IH.
    - intros; eapply Hk; eauto. simpl; auto.
    - intros l1 e' l2 -> Ea. destruct (Hs (e :: l1) e' l2 eq_refl Ea) as [[t Ht]|[e2 [[<-|He2] Hd]]].
      + left. destruct (eq_dec (dest e) (source e')) as [Ee|Ee].
        * rewrite <- Ee. rewrite upd_with_same. eauto.
        * rewrite upd_with_other by auto. eauto.
      + left. rewrite <- Hd. rewrite upd_with_same. eauto.
      + right. eauto.
  Qed.
  Lemma guaranteed_succeeds P (l : list E) : forall dd,
    (forall e, List.In e l -> exists u, target keys P e u) ->
    exists G, foldM (guaranteed_step keys P) l dd = Ok G.
  Proof.
    induction l as [|e l IH]; intros dd Hu; [exists dd; reflexivity|].
    cbn [foldM]. unfold guaranteed_step at 1.
    destruct (Hu e (or_introl eq_refl)) as [u Ht]. unfold target in Ht.
    assert (Hx : match assignment e with
            | Some (k, _) => key_index keys k
            | None => or_err KeyError (assoc (source e) P) end = Ok u).
    { destruct (assignment e) as [[k v]|]; auto. now apply or_err_ok. }
    rewrite Hx. cbn [bind]. apply IH. intros; apply Hu; simpl; auto.
  Qed.
  Definition in_order (P : list (St * Z)) (e : E) : Prop :=
    forall k v u t, assignment e = Some (k, v) -> key_index keys k = Ok u -> assoc (source e) P = Some t -> (t < u)%Z.
  Lemma after_total P (l : list E) : forall dd,
    (forall e k v, List.In e l -> assignment e = Some (k, v) ->
       (exists u, key_index keys k = Ok u) /\ exists t, assoc (source e) P = Some t) ->
    ((forall e, List.In e l -> in_order P e) /\ exists A, foldM (after_step keys P) l dd = Ok A) \/
    ((exists e, List.In e l /\ ~ in_order P e) /\ foldM (after_step keys P) l dd = Err ValueError).
  Proof.
    induction l as [|e l IH]; intros dd Hl.
    - left. split; [intros e []|exists dd; reflexivity].
    - cbn [foldM]. unfold after_step at 1 3. destruct (assignment e) as [[k v]|] eqn:Ea.
      + destruct (Hl e k v (or_introl eq_refl) Ea) as [[u Hu] [t Ht]]. rewrite Hu, Ht. cbn [bind or_err].
        destruct (u <=? t)%Z eqn:Eut.
        * right. split; [|reflexivity]. exists e. split; [simpl; auto|].
          intros C. apply Z.leb_le in Eut. specialize (C k v u t Ea Hu Ht). lia.
        * apply Z.leb_gt in Eut. cbn [bind].
          destruct (IH (upd_with Z.max dd (source e) u)) as [[I1 I2]|[[e' [I1 I2]] I3]].
          { intros; apply (Hl e0 k0 v0); simpl; auto. }
          -- left. split; auto. intros e' [<-|He']; auto. intros k' v' u' t' Ea' Hu' Ht'. congruence.
          -- right. split; auto. exists e'. simpl; auto.
      + cbn [bind]. destruct (IH dd) as [[I1 I2]|[[e' [I1 I2]] I3]].
        { intros; apply (Hl e0 k v); simpl; auto. }
        * left. split; auto. intros e' [<-|He']; auto. intros k' v' u' t' Ea'. congruence.
        * right. split; auto. exists e'. simpl; auto.
  Qed.

  Lemma useful_possible : exists P, foldM (possible_step keys) es [(init, (-1)%Z)] = Ok P.
  Proof.
    apply possible_succeeds.
    - intros e k v He Ea. destruct (sk_index e k v He Ea) as [i [Hi _]]. eauto.
    - intros l1 e l2 Ee Ea. assert (He : List.In e es) by (rewrite Ee; apply in_or_app; simpl; auto).
      destruct (U e He) as [_ [[p Hp] _]]. destruct p as [|e1 p].
      + apply is_path_nil_inv in Hp. left. exists (-1)%Z. cbn. rewrite <- Hp. now rewrite eqb_refl.
      + right. assert (Hn : e1 :: p <> []) by discriminate.
        destruct (path_last _ _ _ _ Hp Hn) as [e' [Hi Hd]]. exists e'. split; auto.
        apply (is_path_In _ _ _ _ _ Hp) in Hi. destruct T as [To Tl]. rewrite Ee in Hi, To.
        apply in_app_or in Hi as [Hi|[Hi|Hi]]; auto; exfalso.
        * subst e'. apply (Tl e He). auto.
        * apply ordered_app in To as [_ [To _]]. cbn in To. destruct To as [To _].
          apply (To e' Hi). congruence.
  Qed.

  Section WithP.
    Context (P : list (St * Z)) (HP : foldM (possible_step keys) es [(init, (-1)%Z)] = Ok P).
    Notation PFs := (possible_fold _ _ _ _ T HP).

    Lemma u_init_not_dest e : List.In e es -> dest e <> init.
    Proof.
      destruct useful_first as [e0 [es' [Ee Es]]]. destruct T as [To Tl]. rewrite Ee in *.
      cbn in To. destruct To as [To1 To2]. intros [<-|He].
      - intros C. apply (Tl e0); [simpl; auto|congruence].
      - rewrite <- Es. auto.
    Qed.
    Lemma u_P_init : assoc init P = Some (-1)%Z.
    Proof. destruct PFs as [F1 _]. rewrite F1 by apply u_init_not_dest. cbn. now rewrite eqb_refl. Qed.
    Lemma u_P_source e : List.In e es -> exists t, assoc (source e) P = Some t.
    Proof.
      intros He. destruct (U e He) as [_ [[p Hp] _]]. destruct p as [|e1 p].
      - apply is_path_nil_inv in Hp. rewrite <- Hp. rewrite u_P_init. eauto.
      - assert (Hn : e1 :: p <> []) by discriminate.
        destruct (path_last _ _ _ _ Hp Hn) as [e' [Hi Hd]].
        apply (is_path_In _ _ _ _ _ Hp) in Hi. destruct PFs as [_ [_ [F3 _]]].
        destruct (F3 e' Hi) as [u [t [_ [Et _]]]]. rewrite <- Hd. eauto.
    Qed.
    Lemma u_target e : List.In e es -> exists u, target keys P e u.
    Proof. intros He. destruct PFs as [_ [_ [F3 _]]]. destruct (F3 e He) as [u [t [Hu _]]]. eauto. Qed.

    (** The recorded largest variable is one assigned on some path. *)
    Lemma possible_witness : forall i e t, nth_error es i = Some e -> target keys P e t ->
      exists p, is_path es init (p ++ [e]) (dest e) /\
        (t = (-1)%Z \/ exists k, List.In k (map fst (path_assignments (p ++ [e]))) /\ key_index keys k = Ok t).
    Proof.
      intros i. induction i as [i IH] using lt_wf_ind. intros e t Hi Ht.
      assert (He : List.In e es) by (eapply nth_error_In; eauto).
      unfold target in Ht. destruct (assignment e) as [[k v]|] eqn:Ea.
      - destruct (U e He) as [_ [[p Hp] _]]. exists p. split; [now apply is_path_snoc|].
        right. exists k. split; auto. rewrite path_assignments_app. cbn. rewrite Ea, map_app.
        apply in_or_app. simpl; auto.
      - destruct PFs as [_ [_ [_ F4]]]. destruct (F4 _ _ Ht) as [Ei|[e' [He' [Hd Ht']]]].
        + cbn in Ei. destruct (eqb (source e) init) eqn:Es; [|discriminate]. injection Ei as <-.
          apply eqb_eq in Es. exists []. split; [|auto]. cbn. rewrite <- Es. constructor; auto. constructor.
        + destruct (In_nth_error _ _ He') as [i' Hi'].
          assert (Hlt : i' < i).
          { destruct (lt_eq_lt_dec i' i) as [[Hl|Hl]|Hl]; auto; exfalso.
            - subst i'. assert (e = e') by congruence. subst e'. destruct T as [_ Tl]. apply (Tl e He). auto.
            - destruct T as [To _]. apply (FOP_nth _ _ _ _ _ _ (ordered_FOP _ To) Hl Hi Hi'). auto. }
          destruct (IH i' Hlt e' t Hi' Ht') as [p [Hp Hk]].
          exists (p ++ [e']). split.
          * apply is_path_snoc; auto. rewrite Hd in Hp. auto.
          * destruct Hk as [Hk|[k [Hk1 Hk2]]]; auto. right. exists k. split; auto.
            rewrite path_assignments_app, map_app. apply in_or_app. auto.
    Qed.

    (** If the order check passes, keys increase along every path. *)
    Lemma increasing_paths : (forall e, List.In e es -> in_order P e) ->
      forall p x, is_path es init p x ->
      StronglySorted before_key (map fst (path_assignments p)) /\
      exists t, assoc x P = Some t /\
        forall k u, List.In k (map fst (path_assignments p)) -> key_index keys k = Ok u -> (u <= t)%Z.
    Proof.
      intros Hio p. induction p as [|e p IH] using rev_ind; intros x Hp.
      - apply is_path_nil_inv in Hp. subst x. split; [constructor|]. rewrite u_P_init. eexists. split; eauto.
        intros k u [].
      - apply is_path_app_inv in Hp as [y [Hp He]]. apply is_path_cons_inv in He as [-> [He Hn]].
        apply is_path_nil_inv in Hn. subst x.
        destruct (IH _ Hp) as [I1 [t [Et I2]]].
        destruct PFs as [_ [_ [F3 _]]]. destruct (F3 e He) as [u [t' [Hu [Et' Hle]]]].
        rewrite path_assignments_app, map_app. cbn [path_assignments]. unfold target in Hu.
        destruct (assignment e) as [[k v]|] eqn:Ea.
        + pose proof (Hio e He k v u t Ea Hu Et) as Hlt. cbn [map fst]. split.
          * apply FOP_sorted, FOP_app.
            -- clear -I1. induction I1; constructor; auto.
            -- repeat constructor.
            -- intros a b Ha [<-|[]].
               assert (Hka : exists w, key_index keys a = Ok w).
               { apply in_map_iff in Ha as [[a' va] [Eq Ha]]. cbn in Eq. subst a'.
                 assert (Hex : exists e', List.In e' p /\ assignment e' = Some (a, va)).
                 { clear -Ha. induction p as [|e0 p IH]; [destruct Ha|]. cbn [path_assignments] in Ha.
                   destruct (assignment e0) eqn:E0.
                   - destruct Ha as [->|Ha]; [exists e0; simpl; auto|].
                     destruct (IH Ha) as [e' [H1 H2]]. exists e'; simpl; auto.
                   - destruct (IH Ha) as [e' [H1 H2]]. exists e'; simpl; auto. }
                 destruct Hex as [e' [He' Ea']]. apply (is_path_In _ _ _ _ _ Hp) in He'.
                 destruct (sk_index e' a va He' Ea') as [i [Hi _]]. eauto. }
               destruct Hka as [w Hw]. apply (before_key_index a k w u Hw Hu).
               specialize (I2 a w Ha Hw). lia.
          * exists t'. split; auto. intros a w Ha Hw. apply in_app_or in Ha as [Ha|[<-|[]]].
            -- specialize (I2 a w Ha Hw). lia.
            -- assert (w = u) by congruence. lia.
        + cbn [map]. rewrite app_nil_r. split; auto. exists t'. split; auto.
          intros a w Ha Hw. specialize (I2 a w Ha Hw). assert (u = t) by congruence. lia.
    Qed.

    (** Conversely a failing check shows on a path. *)
    Lemma violation_path e : List.In e es -> ~ in_order P e ->
      exists p, is_path es init p final /\ ~ StronglySorted before_key (map fst (path_assignments p)).
    Proof.
      intros He Hn. destruct (assignment e) as [[k v]|] eqn:Ea.
      2:{ exfalso. apply Hn. intros k v u t Ea'. congruence. }
      destruct (sk_index e k v He Ea) as [i [Hi _]]. destruct (u_P_source e He) as [t Ht].
      assert (Hle : (Z.of_nat i <= t)%Z).
      { destruct (Z_lt_le_dec t (Z.of_nat i)) as [Hlt|Hle]; auto. exfalso. apply Hn.
        intros k' v' u' t' Ea' Hu' Ht'. rewrite Ea in Ea'. injection Ea' as <- <-. 
        rewrite Hi in Hu'. injection Hu' as <-. congruence. }
      destruct PFs as [_ [_ [_ F4]]]. destruct (F4 _ _ Ht) as [Ei|[e' [He' [Hd Ht']]]].
      { cbn in Ei. destruct (eqb (source e) init); [|discriminate]. injection Ei as <-. lia. }
      destruct (In_nth_error _ _ He') as [i' Hi'].
      destruct (possible_witness i' e' t Hi' Ht') as [p [Hp [Hk|[k' [Hk1 Hk2]]]]]; [lia|].
      destruct (U e He) as [_ [_ [p2 Hp2]]].
      exists ((p ++ [e']) ++ e :: p2). split.
      - eapply is_path_app; [exact Hp|]. rewrite Hd. constructor; auto.
      - rewrite path_assignments_app, map_app. cbn [path_assignments]. rewrite Ea. cbn [map fst].
        intros Hs.
        assert (Hb : before_key k' k).
        { clear -Hs Hk1. induction (map fst (path_assignments (p ++ [e']))) as [|a l IH]; [destruct Hk1|].
          cbn in Hs. inversion Hs as [|? ? Hs1 Hs2]; subst. destruct Hk1 as [->|Hk1]; auto.
          rewrite Forall_forall in Hs2. apply Hs2. apply in_or_app. simpl; auto. }
        apply (before_key_index k' k _ _ Hk2 Hi) in Hb. lia.
    Qed.
    Lemma u_P_range x t : assoc x P = Some t -> (-1 <= t < Z.of_nat K)%Z.
    Proof.
      intros Ex. destruct PFs as [_ [_ [_ F4]]]. destruct (F4 _ _ Ex) as [Ei|[e' [He' [Hd Ht']]]].
      - cbn in Ei. destruct (eqb x init); [|discriminate]. injection Ei as <-. lia.
      - destruct (In_nth_error _ _ He') as [i' Hi'].
        destruct (possible_witness i' e' t Hi' Ht') as [p [Hp [Hk|[k' [Hk1 Hk2]]]]]; [lia|].
        apply sk_range in Hk2. lia.
    Qed.
  End WithP.

  (** *** Failure. *)
  Lemma convert_not_increasing :
    (exists p, complete_path d p /\ ~ StronglySorted before_key (map fst (path_assignments p))) ->
    convert_dag_to_packed kle vle d missing ordering = Err ValueError.
  Proof.
    intros [p [Hp Hns]]. destruct useful_possible as [P HP].
    destruct (guaranteed_succeeds P es [(init, (-1)%Z)]) as [G HG]; [apply u_target; auto|].
    destruct (after_total P es []) as [[Hio _]|[_ Herr]].
    - intros e k v He Ea. split; [destruct (sk_index e k v He Ea) as [i [Hi _]]; eauto|now apply u_P_source].
    - exfalso. apply Hns. destruct (increasing_paths P HP Hio p final Hp) as [Hs _]. auto.
    - unfold convert_dag_to_packed.
      destruct useful_first as [e0 [es' [Ee Es]]].
      assert (Hf : nth_error (source_states es) 0 = Some init).
      { unfold source_states. rewrite Ee. cbn [map fold_left]. unfold add_new at 2. cbn [mem existsb app].
        destruct (fold_add_new_prefix (map source es') [source e0]) as [r Hr]. rewrite Hr. cbn. congruence. }
      rewrite Hf. cbn [or_err bind]. rewrite eqb_refl. cbn [negb].
      assert (Hfin : mem final (source_states es) = false).
      { apply mem_false_iff. intros C. apply fold_add_new_In in C as [[]|C]. apply in_map_iff in C as [e [E1 He]].
        eapply useful_final; eauto. }
      rewrite Hfin. cbv zeta. rewrite HP. cbn [bind]. rewrite HG. cbn [bind]. rewrite Herr. reflexivity.
  Qed.

  (** *** Success. *)
  Definition values_listed : Prop :=
    match ordering with
    | None => True
    | Some l => List.In missing l /\
                forall e k v, List.In e es -> assignment e = Some (k, v) -> List.In v l
    end.
  Lemma vals_missing : values_listed -> List.In missing (p_vals vle d missing ordering).
  Proof.
    unfold values_listed, p_vals. destruct ordering as [l|]; [tauto|]. intros _.
    apply sort_In, fold_add_new_In. simpl; auto.
  Qed.
  Lemma vals_assigned e k v : values_listed -> List.In e es -> assignment e = Some (k, v) ->
    List.In v (p_vals vle d missing ordering).
  Proof.
    unfold values_listed, p_vals. destruct ordering as [l|].
    - intros [_ Hl] He Ea. eauto.
    - intros _ He Ea. apply sort_In, fold_add_new_In. right. unfold edge_vals. apply in_map_iff.
      exists (k, v). split; auto. clear -He Ea. induction es as [|e0 l IH]; [destruct He|]. cbn [path_assignments].
      destruct He as [->|He]; [rewrite Ea; simpl; auto|]. destruct (assignment e0); simpl; auto.
  Qed.

  Lemma useful_stage :
    (forall p, complete_path d p -> StronglySorted before_key (map fst (path_assignments p))) ->
    exists _ : stage kle d missing, True.
  Proof.
    intros Hinc. destruct useful_possible as [P HP].
    destruct (guaranteed_succeeds P es [(init, (-1)%Z)]) as [G HG]; [apply u_target; auto|].
    destruct (after_total P es []) as [[Hio [A HA]]|[[e [He Hv]] _]].
    - intros e k v He Ea. split; [destruct (sk_index e k v He Ea) as [i [Hi _]]; eauto|now apply u_P_source].
    - destruct useful_first as [e0 [es' [Ee Es]]].
      assert (Hf : nth_error (source_states es) 0 = Some init).
      { unfold source_states. rewrite Ee. cbn [map fold_left]. unfold add_new at 2. cbn [mem existsb app].
        destruct (fold_add_new_prefix (map source es') [source e0]) as [r Hr]. rewrite Hr. cbn. congruence. }
      assert (Hfin : ~ List.In final (source_states es)).
      { intros C. apply fold_add_new_In in C as [[]|C]. apply in_map_iff in C as [e [E1 He]].
        eapply useful_final; eauto. }
      assert (HPd : forall x, List.In x (source_states es ++ [final]) ->
         (exists t, assoc x P = Some t) /\ (exists t, assoc x G = Some t)).
      { intros x Hx.
        assert (Hor : x = init \/ exists e, List.In e es /\ dest e = x).
        { apply in_app_or in Hx as [Hx|[<-|[]]].
          - apply fold_add_new_In in Hx as [[]|Hx]. apply in_map_iff in Hx as [e [<- He]].
            destruct (U e He) as [_ [[p Hp] _]]. destruct p as [|e1 p].
            + apply is_path_nil_inv in Hp. auto.
            + right. assert (Hn : e1 :: p <> []) by discriminate.
              destruct (path_last _ _ _ _ Hp Hn) as [e' [Hi Hd]].
              apply (is_path_In _ _ _ _ _ Hp) in Hi. eauto.
          - right. assert (He0 : List.In e0 es) by (rewrite Ee; simpl; auto).
            destruct (U e0 He0) as [_ [_ [p Hp]]].
            assert (Hp' : is_path es (source e0) (e0 :: p) final) by (constructor; auto).
            assert (Hn : e0 :: p <> []) by discriminate.
            destruct (path_last _ _ _ _ Hp' Hn) as [e' [Hi Hd]].
            apply (is_path_In _ _ _ _ _ Hp') in Hi. eauto. }
        pose proof (guaranteed_fold _ _ _ _ _ HG) as [_ [F2 [F3 _]]].
        destruct Hor as [->|[e [He <-]]].
        - split; [rewrite u_P_init by auto; eauto|].
          assert (Ei : assoc init [(init, (-1)%Z)] = Some (-1)%Z) by (cbn; now rewrite eqb_refl).
          destruct (F2 init (-1)%Z Ei) as [t' [Et _]]. eauto.
        - destruct (possible_fold _ _ _ _ T HP) as [_ [_ [P3 _]]].
          destruct (P3 e He) as [u [t [_ [Et _]]]]. destruct (F3 e He) as [u' [t' [_ [Et' _]]]]. eauto. }
      destruct (mapM_succeeds (emit_state keys missing es (source_states es ++ [final]) P G A) (source_states es ++ [final]))
        as [em Hem].
      { intros x Hx. destruct (HPd x Hx) as [[t Ht] [g Hg]]. unfold emit_state. rewrite Hg. cbn [or_err bind].
        rewrite Ht. cbn [or_err bind].
        assert (Hhi : (match assoc x A with Some a => (a - 1)%Z | None => t end < Z.of_nat K)%Z).
        { destruct (assoc x A) as [a|] eqn:Ea.
          - destruct (after_fold _ _ _ _ _ HA) as [_ [_ A3]].
            destruct (A3 x a Ea) as [C|[e [k [v [_ [_ [_ Hk]]]]]]]; [discriminate|]. apply sk_range in Hk. lia.
          - apply (u_P_range P HP) in Ht. lia. }
        assert (Hlo : (-1 <= g)%Z).
        { destruct (guaranteed_fold _ _ _ _ _ HG) as [_ [_ [_ G4]]].
          destruct (G4 x g Hg) as [Ei|[e [_ [_ Hu]]]].
          - cbn in Ei. destruct (eqb x init); [|discriminate]. injection Ei as <-. lia.
          - unfold target in Hu. destruct (assignment e) as [[k v]|].
            + apply sk_range in Hu. lia.
            + apply (u_P_range P HP) in Hu. lia. }
        destruct (mapM_succeeds (chain_edge keys missing x)
          (zrange g match assoc x A with Some a => (a - 1)%Z | None => t end)) as [ch Hch].
        { intros tag Htag. apply zrange_In in Htag. unfold chain_edge.
          destruct (nth_error keys (Z.to_nat (tag + 1))) as [k|] eqn:Ek; [cbn; eauto|].
          apply nth_error_None in Ek. lia. }
        rewrite Hch. cbn [bind].
        destruct (mapM_succeeds (copy_edge keys (source_states es ++ [final]) t x) (edges_from es x)) as [cp Hcp].
        { intros [i e] Hie. apply filter_In in Hie as [Hie _]. apply enumerate_In in Hie.
          apply nth_error_In in Hie. unfold copy_edge. cbn [fst snd].
          destruct (negb (mem (dest e) (source_states es ++ [final]))); [eauto|].
          destruct (eqb (ecost e) Inf); [eauto|].
          destruct (assignment e) as [[k v]|] eqn:Ea; [|eauto].
          destruct (sk_index e k v Hie Ea) as [j [Hj _]]. rewrite Hj. cbn [bind]. eauto. }
        rewrite Hcp. cbn [bind]. eauto. }
      unshelve eexists; [|exact I]. exact (mkStage kle d missing P G A em Hf Hfin HP HG HA Hem).
    - exfalso. destruct (violation_path P HP e He Hv) as [p [Hp Hns]]. apply Hns, Hinc. exact Hp.
  Qed.

  Section WithStage.
    Context (R : stage kle d missing).
    Notation P := (p_possible kle _ _ R).
    Notation G := (p_guaranteed kle _ _ R).
    Notation Af := (p_after kle _ _ R).
    Notation sources := (p_sources kle _ _ R).
    Notation tagged := (tagged kle d missing R).
    Notation upper := (upper kle d missing R).
    Notation table := (p_table kle _ _ R).
    Notation tstates := (p_tstates kle _ _ R).
    Notation tedges := (p_tedges kle _ _ R).

    Lemma dest_in_sources e : List.In e es -> List.In (dest e) sources.
    Proof.
      intros He. apply (sources_In kle d missing R). destruct (U e He) as [_ [_ [p Hp]]].
      destruct p as [|e1 p]; [apply is_path_nil_inv in Hp; auto|].
      apply is_path_cons_inv in Hp as [E1 [Hi _]]. left. exists e1. auto.
    Qed.
    Lemma P_path_mono p : forall x y t, is_path es x p y -> assoc x P = Some t ->
      exists t', assoc y P = Some t' /\ (t <= t')%Z.
    Proof.
      induction p as [|e p IH]; intros x y t Hp Ht.
      - apply is_path_nil_inv in Hp. subst y. exists t. split; auto. lia.
      - apply is_path_cons_inv in Hp as [-> [He Hp]].
        destruct (PF kle d missing R T) as [_ [_ [F3 _]]]. destruct (F3 e He) as [u [t' [Hu [Et' Hle]]]].
        destruct (IH _ _ _ Hp Et') as [t2 [E2 L2]]. exists t2. split; auto.
        unfold target in Hu. destruct (assignment e) as [[k v]|] eqn:Ea.
        + destruct (AF kle d missing R) as [_ [A2 _]].
          destruct (A2 e k v He Ea) as [u' [t3 [a [Hu' [Et3 [Hlt _]]]]]].
          assert (u' = u) by congruence. assert (t3 = t) by congruence. lia.
        + assert (u = t) by congruence. lia.
    Qed.
    Lemma P_final : assoc final P = Some (Z.of_nat K - 1)%Z.
    Proof.
      assert (Hs : List.In final sources) by (apply (sources_In kle d missing R); auto).
      destruct (source_defined kle d missing R final Hs) as [_ [t [_ Ht]]].
      pose proof (P_range kle d missing R _ _ Ht) as Hr. change (p_K kle d missing R) with K in Hr.
      destruct (Nat.eq_dec K 0) as [E0|E0].
      - rewrite Ht. f_equal. lia.
      - destruct (nth_error keys (K - 1)) as [k|] eqn:Ek; [|apply nth_error_None in Ek; lia].
        pose proof (nth_error_In _ _ Ek) as Hk.
        destruct (keys_assigned kle d missing R k Hk) as [e [v [He Ea]]].
        destruct (PF kle d missing R T) as [_ [_ [F3 _]]]. destruct (F3 e He) as [u [t' [Hu [Et' Hle]]]].
        unfold target in Hu. rewrite Ea in Hu.
        assert (Hu' : key_index keys k = Ok (Z.of_nat (K - 1))).
        { apply key_index_ok. exists (K - 1). split; auto. apply index_of_nth; auto. apply sk_NoDup. }
        change (p_keys kle d missing R) with keys in Hu. rewrite Hu' in Hu. injection Hu as <-.
        destruct (U e He) as [_ [_ [p Hp]]].
        destruct (P_path_mono p _ _ _ Hp Et') as [t2 [E2 L2]]. rewrite Ht in E2. injection E2 as <-.
        rewrite Ht. f_equal. lia.
    Qed.
    Lemma upper_lt x h : upper x = Some h -> (h < Z.of_nat K)%Z.
    Proof.
      unfold ConvertLayout.upper. destruct (assoc x Af) as [a|] eqn:Ea.
      - intros [= <-]. apply (A_range kle d missing R) in Ea. change (p_K kle d missing R) with K in Ea. lia.
      - intros Hp. apply (P_range kle d missing R) in Hp. change (p_K kle d missing R) with K in Hp. lia.
    Qed.
    Lemma P_le_upper x t h : assoc x P = Some t -> upper x = Some h -> (t <= h)%Z.
    Proof.
      unfold ConvertLayout.upper. destruct (assoc x Af) as [a|] eqn:Ea; intros Ht Hh.
      - injection Hh as <-. pose proof (P_lt_A kle d missing R _ _ _ Ea Ht). lia.
      - rewrite Ht in Hh. injection Hh as <-. lia.
    Qed.
    Lemma upper_defined x : List.In x sources -> exists h, upper x = Some h.
    Proof.
      intros Hx. destruct (source_defined kle d missing R x Hx) as [_ [t [_ Ht]]].
      unfold ConvertLayout.upper. destruct (assoc x Af); eauto.
    Qed.
    Lemma chain_tagged x tag g h : List.In x sources -> assoc x G = Some g -> upper x = Some h -> (g <= tag < h)%Z ->
      exists n te, tagged n te /\ source te = (x, tag) /\ dest te = (x, (tag + 1)%Z).
    Proof.
      intros Hx Hg Hh Ht. destruct (nth_error keys (Z.to_nat (tag + 1))) as [k|] eqn:Ek.
      - do 2 eexists. split; [eapply tg_chain; eauto|]. auto.
      - apply nth_error_None in Ek. apply upper_lt in Hh. apply (G_range kle d missing R) in Hg. lia.
    Qed.
    Lemma copy_tagged i e u : nth_error es i = Some e -> target keys P e u ->
      exists n te, tagged n te /\ dest te = (dest e, u) /\
        source te = (source e, match assignment e with Some _ => (u - 1)%Z | None => u end).
    Proof.
      intros Hi Hu. pose proof (nth_error_In _ _ Hi) as He.
      assert (Hc : ecost e <> Inf).
      { destruct (U e He) as [[q Hq] _]. congruence. }
      pose proof (dest_in_sources e He) as Hd. unfold target in Hu.
      destruct (assignment e) as [[k v]|] eqn:Ea.
      - do 2 eexists. split; [eapply tg_assign; eauto|]. auto.
      - do 2 eexists. split; [eapply tg_free; eauto|]. auto.
    Qed.
    Lemma state_covered x tag g h : List.In x sources -> assoc x G = Some g -> upper x = Some h ->
      (g <= tag <= h)%Z -> List.In (x, tag) tstates.
    Proof.
      intros Hx Hg Hh Ht. unfold p_tstates. apply in_or_app.
      destruct (Z_lt_le_dec tag h) as [Hlt|Hge].
      { left. destruct (chain_tagged x tag g h) as [n [te [H3 [H4 _]]]]; auto; [lia|].
        apply (table_In kle d missing R). exists te. split; auto. apply (tedges_In kle d missing R). eauto. }
      assert (tag = h) by lia. subst tag. unfold ConvertLayout.upper in Hh.
      destruct (assoc x Af) as [a|] eqn:Ea.
      - injection Hh as <-. left.
        destruct (AF kle d missing R) as [_ [_ A3]].
        destruct (A3 x a Ea) as [C|[e [k [v [He [Es [Eas Hk]]]]]]]; [discriminate|].
        destruct (In_nth_error _ _ He) as [i Hi].
        assert (Hu : target keys P e a) by (unfold target; rewrite Eas; exact Hk).
        destruct (copy_tagged i e a Hi Hu) as [n [te [H3 [_ H4]]]].
        apply (table_In kle d missing R). exists te. rewrite Eas, Es in H4. split; auto.
        apply (tedges_In kle d missing R). eauto.
      - pose proof Hx as Hx'. apply (sources_In kle d missing R) in Hx as [[e [He Es]]| ->].
        + left. destruct (assignment e) as [[k v]|] eqn:Eas.
          { destruct (AF kle d missing R) as [_ [A2 _]].
            destruct (A2 e k v He Eas) as [u' [t3 [a [_ [_ [_ [Ea' _]]]]]]]. rewrite Es in Ea'. congruence. }
          destruct (In_nth_error _ _ He) as [i Hi].
          assert (Hu : target keys P e h) by (unfold target; rewrite Eas, Es; exact Hh).
          destruct (copy_tagged i e h Hi Hu) as [n [te [H3 [_ H4]]]].
          apply (table_In kle d missing R). exists te. rewrite Eas, Es in H4. split; auto.
          apply (tedges_In kle d missing R). eauto.
        + right. left. rewrite P_final in Hh. injection Hh as <-. reflexivity.
    Qed.
    Lemma tagged_bounds n te : tagged n te ->
      (exists g h, assoc (fst (source te)) G = Some g /\ upper (fst (source te)) = Some h /\
         (g <= snd (source te) <= h)%Z) /\
      (exists g h, assoc (fst (dest te)) G = Some g /\ upper (fst (dest te)) = Some h /\
         (g <= snd (dest te) <= h)%Z).
    Proof.
      intros Ht.
      assert (Hdest : forall i e u, nth_error es i = Some e -> target keys P e u ->
        exists g h, assoc (dest e) G = Some g /\ upper (dest e) = Some h /\ (g <= u <= h)%Z).
      { intros i e u Hi Hu. pose proof (nth_error_In _ _ Hi) as He.
        destruct (GF kle d missing R) as [_ [_ [G3 _]]]. destruct (G3 e He) as [u' [g [Hu' [Eg Hle]]]].
        destruct (PF kle d missing R T) as [_ [_ [F3 _]]]. destruct (F3 e He) as [u2 [t' [Hu2 [Et' Hle2]]]].
        destruct (upper_defined (dest e) (dest_in_sources e He)) as [h Hh].
        pose proof (P_le_upper _ _ _ Et' Hh).
        assert (u' = u) by (eapply (target_det kle d missing R); eauto).
        assert (u2 = u) by (eapply (target_det kle d missing R); eauto).
        exists g, h. splits; auto; lia. }
      assert (Hsrc : forall e, List.In e es -> exists g t h, assoc (source e) G = Some g /\ assoc (source e) P = Some t
         /\ upper (source e) = Some h /\ (g <= t <= h)%Z).
      { intros e He. assert (Hs : List.In (source e) sources) by (apply (sources_In kle d missing R); eauto).
        destruct (source_defined kle d missing R _ Hs) as [g [t [Eg Et]]].
        destruct (upper_defined _ Hs) as [h Hh]. pose proof (P_le_upper _ _ _ Et Hh).
        pose proof (G_le_P kle d missing R T _ _ _ Eg Et). exists g, t, h. splits; auto; lia. }
      destruct Ht as [s tag k lo hi Hs Elo Ehi Htag Hk|i e t Hi Hd Hc' Ha Ht'|i e k v u Hi Hd Hc' Ha Hu];
        cbn [source dest fst snd].
      - split; exists lo, hi; splits; auto; lia.
      - split.
        + destruct (Hsrc e (nth_error_In _ _ Hi)) as [g [t0 [h [E1 [E2 [E3 L]]]]]]. exists g, h.
          assert (t0 = t) by congruence. splits; auto; lia.
        + apply (Hdest i e t); auto. unfold target. now rewrite Ha.
      - split.
        + destruct (Hsrc e (nth_error_In _ _ Hi)) as [g [t0 [h [E1 [E2 [E3 L]]]]]]. exists g, h.
          destruct (AF kle d missing R) as [_ [A2 _]].
          destruct (A2 e k v (nth_error_In _ _ Hi) Ha) as [u' [t3 [a [Hu' [Et3 [Hlt [Ea Hle]]]]]]].
          assert (u' = u) by congruence. assert (t3 = t0) by congruence. subst.
          unfold ConvertLayout.upper in E3. rewrite Ea in E3. injection E3 as <-.
          splits; auto; try (unfold ConvertLayout.upper; now rewrite Ea); lia.
        + apply (Hdest i e u); auto. unfold target. now rewrite Ha.
    Qed.
    (** Every tagged state other than the first has an incoming edge. *)
    Lemma incoming x tag g h : List.In x sources -> assoc x G = Some g -> upper x = Some h -> (g <= tag <= h)%Z ->
      (x, tag) = (init, (-1)%Z) \/ exists te, List.In te tedges /\ dest te = (x, tag).
    Proof.
      intros Hx Hg Hh Ht. destruct (Z_lt_le_dec g tag) as [Hlt|Hle].
      - right. destruct (chain_tagged x (tag - 1)%Z g h) as [n [te [H3 [_ H4]]]]; auto; [lia|].
        exists te. split; [apply (tedges_In kle d missing R); eauto|]. rewrite H4. f_equal. lia.
      - assert (tag = g) by lia. subst tag. destruct (GF kle d missing R) as [_ [_ [_ G4]]].
        destruct (G4 x g Hg) as [Ei|[e [He [Hd Hu]]]].
        + left. cbn in Ei. destruct (eqb x init) eqn:Ex; [|discriminate]. apply eqb_eq in Ex. congruence.
        + right. destruct (In_nth_error _ _ He) as [i Hi].
          destruct (copy_tagged i e g Hi Hu) as [n [te [H3 [H4 _]]]]. exists te.
          split; [apply (tedges_In kle d missing R); eauto|]. congruence.
    Qed.
    Lemma table_first : nth_error table 0 = Some (init, (-1)%Z).
    Proof.
      destruct useful_first as [e0 [es' [Ee Es]]].
      assert (H0' : nth_error es 0 = Some e0) by (rewrite Ee; reflexivity).
      assert (He0 : List.In e0 es) by (rewrite Ee; simpl; auto).
      destruct (PF kle d missing R T) as [_ [_ [F3 _]]]. destruct (F3 e0 He0) as [u0 [_ [Hu0 _]]].
      destruct (copy_tagged 0 e0 u0 H0' Hu0) as [n0 [te0 [Ht0 _]]].
      assert (Hin : List.In te0 tedges) by (apply (tedges_In kle d missing R); eauto).
      pose proof (tedges_topological kle d missing R T) as [To Tl].
      pose proof (tedges_In kle d missing R) as HI.
      assert (Hinc : forall te, List.In te tedges -> source te = (init, (-1)%Z) \/
         exists te', List.In te' tedges /\ dest te' = source te).
      { intros te Hte. apply HI in Hte as [n Hn]. destruct (tagged_bounds n te Hn) as [[g [h [E1 [E2 L]]]] _].
        pose proof (tagged_source kle d missing R n te Hn) as Hs.
        destruct (incoming _ (snd (source te)) g h Hs E1 E2 L) as [Hx|Hx].
        - left. rewrite <- Hx. now destruct (source te).
        - right. destruct Hx as [te' [H3 H4]]. exists te'. split; auto. rewrite H4. now destruct (source te). }
      unfold p_table. clear Ht0 Hu0 F3. revert Hin To Tl Hinc. clear HI. generalize tedges. intros l Hin To Tl Hinc.
      destruct l as [|te1 l]; [destruct Hin|].
      cbn [map fold_left]. unfold add_new at 2. cbn [mem existsb app].
      destruct (fold_add_new_prefix (map source l) [source te1]) as [r Hr]. rewrite Hr. cbn.
      destruct (Hinc te1 (or_introl eq_refl)) as [->|[te' [Hte' Hd]]]; auto. exfalso.
      cbn in To. destruct To as [To1 _]. destruct Hte' as [<-|Hte'].
      - apply (Tl te1); [simpl; auto|congruence].
      - apply (To1 te' Hte'). auto.
    Qed.
    Lemma table_no_final : ~ List.In (p_final kle d missing R) table.
    Proof.
      intros C. apply (table_In kle d missing R) in C as [te [Hte Es]].
      apply (tedges_In kle d missing R) in Hte as [n Hn].
      destruct Hn as [s tag k lo hi Hs Elo Ehi Htag Hk|i e t Hi Hd Hc' Ha Ht'|i e k v u Hi Hd Hc' Ha Hu];
        cbn [source] in Es; unfold p_final in Es; injection Es as E1 E2.
      - subst s. apply upper_lt in Ehi. change (p_K kle d missing R) with K in E2. lia.
      - apply (useful_final e); [eapply nth_error_In; eauto|auto].
      - apply (useful_final e); [eapply nth_error_In; eauto|auto].
    Qed.
    Lemma pack_succeeds : values_listed ->
      exists ps, mapM (pack_edge (p_keys kle d missing R) (p_vals vle d missing ordering) tstates) tedges = Ok ps.
    Proof.
      intros Hv. apply mapM_succeeds. intros te Hte.
      pose proof Hte as Hte'. apply (tedges_In kle d missing R) in Hte as [n Hn].
      assert (Hsrc : List.In (source te) tstates).
      { unfold p_tstates. apply in_or_app. left. apply (table_In kle d missing R). eauto. }
      assert (Hdst : List.In (dest te) tstates).
      { destruct (tagged_bounds n te Hn) as [_ [g [h [E1 [E2 L]]]]].
        pose proof (tagged_dest kle d missing R n te Hn) as Hs.
        pose proof (state_covered _ _ g h Hs E1 E2 L) as Hc. now destruct (dest te). }
      assert (Ha : exists a, match assignment te with
            | Some (k, v) =>
                do i <- or_err KeyError (index_of (p_keys kle d missing R) k);
                do j <- or_err KeyError (index_of (p_vals vle d missing ordering) v);
                Ok (Some (i, j))
            | None => Ok None
            end = Ok a).
      { destruct Hn as [s tag k lo hi Hs Elo Ehi Htag Hk|i e t Hi Hd Hc' Ha Ht'|i e k v u Hi Hd Hc' Ha Hu];
          cbn [assignment]; [| |].
        - apply nth_error_In in Hk. destruct (index_of_In _ _ Hk) as [j Hj].
          destruct (index_of_In _ _ (vals_missing Hv)) as [j' Hj']. rewrite Hj. cbn [or_err bind]. rewrite Hj'.
          cbn. eauto.
        - eauto.
        - apply key_index_ok in Hu as [j [-> Hj]].
          destruct (index_of_In _ _ (vals_assigned e k v Hv (nth_error_In _ _ Hi) Ha)) as [j' Hj'].
          rewrite Hj. cbn [or_err bind]. rewrite Hj'. cbn. eauto. }
      destruct Ha as [a Ha]. unfold pack_edge. rewrite Ha. cbn [bind].
      destruct (index_of_In _ _ Hsrc) as [i Hi]. destruct (index_of_In _ _ Hdst) as [j Hj].
      rewrite Hi. cbn [or_err bind]. rewrite Hj. cbn. eauto.
    Qed.
  End WithStage.

  Lemma convert_increasing : values_listed ->
    (forall p, complete_path d p -> StronglySorted before_key (map fst (path_assignments p))) ->
    exists r, convert_dag_to_packed kle vle d missing ordering = Ok r.
  Proof.
    intros Hv Hinc. destruct (useful_stage Hinc) as [R _].
    destruct (pack_succeeds R Hv) as [ps Hps].
    exact (stage_convert kle vle d missing ordering R ps (table_first R) (table_no_final R) Hps).
  Qed.

  Lemma convert_order_dec :
    (forall p, complete_path d p -> StronglySorted before_key (map fst (path_assignments p))) \/
    convert_dag_to_packed kle vle d missing ordering = Err ValueError.
  Proof.
    destruct useful_possible as [P HP].
    destruct (after_total P es []) as [[Hio _]|[[e [He Hv]] _]].
    - intros e k v He Ea. split; [destruct (sk_index e k v He Ea) as [i [Hi _]]; eauto|now apply u_P_source].
    - left. intros p Hp. exact (proj1 (increasing_paths P HP Hio p final Hp)).
    - right. apply convert_not_increasing. destruct (violation_path P HP e He Hv) as [p [Hp Hs]]. exists p. auto.
  Qed.
End Success.
