(** Systems built from DAGs: [make_system], [constrain_system],
    [assignments_from_assignment_vector], and the correspondence between the
    solver's assignment vectors and agreeing paths of the original DAGs. *)

From Coq Require Import List Bool Arith Lia ZArith Sorted Permutation QArith Qcanon.
From Verif Require Import Base Graph PackedDag PackedDagProofs PackedTables Convert ConvertLists ConvertProofs
  ConvertLayout ConvertPaths ConvertApi DualSolver DualSpec DualLists DualPaths DualOps DualInvariant DualUpdates
  DualGreedy.
Import ListNotations.
Close Scope Qc_scope. Close Scope Q_scope. Open Scope nat_scope.

(** ** Sorted lists. *)
Lemma sorted_unique {A} (R : A -> A -> Prop) l1 : (forall a b, R a b -> R b a -> False) ->
  forall l2, StronglySorted R l1 -> StronglySorted R l2 -> (forall x, In x l1 <-> In x l2) -> l1 = l2.
Proof.
  intros Has. induction l1 as [|a l1 IH]; intros l2 S1 S2 Hi.
  - destruct l2 as [|b l2]; auto. exfalso. apply (proj2 (Hi b)). simpl; auto.
  - destruct l2 as [|b l2]; [exfalso; apply (proj1 (Hi a)); simpl; auto|].
    inversion S1 as [|? ? S1' F1]; subst. inversion S2 as [|? ? S2' F2]; subst.
    rewrite Forall_forall in F1, F2.
    assert (a = b).
    { destruct (proj1 (Hi a)) as [E|Ha]; [simpl; auto|auto|].
      destruct (proj2 (Hi b)) as [E|Hb]; [simpl; auto|auto|].
      exfalso. eapply Has; [apply F1; eauto|apply F2; eauto]. }
    subst b. f_equal. apply IH; auto. intros x. split; intros Hx.
    + destruct (proj1 (Hi x)) as [E|Hx2]; [simpl; auto| |auto]. subst. exfalso. eapply Has; apply F1; eauto.
    + destruct (proj2 (Hi x)) as [E|Hx2]; [simpl; auto| |auto]. subst. exfalso. eapply Has; apply F2; eauto.
Qed.
Lemma sorted_filter {A} (R : A -> A -> Prop) f l : StronglySorted R l -> StronglySorted R (filter f l).
Proof.
  induction 1 as [|a l S IH F]; cbn [filter]; [constructor|]. destruct (f a); auto. constructor; auto.
  rewrite Forall_forall in *. intros x Hx. apply filter_In in Hx as [Hx _]. auto.
Qed.
Lemma sorted_NoDup {A} (R : A -> A -> Prop) l : (forall a, ~ R a a) -> StronglySorted R l -> NoDup l.
Proof.
  intros Hir. induction 1 as [|a l S IH F]; constructor; auto. rewrite Forall_forall in F.
  intros C. now apply (Hir a), F.
Qed.

Section Keys.
  Context {Ky : Type} `{EqDec Ky} (kle : Ky -> Ky -> bool).
  Definition strictly (a b : Ky) : Prop := kle a b = true /\ a <> b.
  Lemma strictly_asym : total_order kle -> forall a b, strictly a b -> strictly b a -> False.
  Proof. intros T a b [H1 H2] [H3 _]. apply H2. now apply (to_antisym _ T). Qed.
  Lemma strictly_irrefl a : ~ strictly a a.
  Proof. intros [_ C]. now apply C. Qed.
  Lemma sorted_strictly l : total_order kle -> NoDup l -> StronglySorted strictly (sort kle l).
  Proof.
    intros T Hn. pose proof (sort_sorted kle l T) as Hs. pose proof (sort_NoDup kle l Hn) as Hn'.
    induction Hs as [|a l' Hs IH Ha]; constructor; inversion Hn'; subst; auto.
    rewrite Forall_forall in *. intros x Hx. split; auto. congruence.
  Qed.

  (** A DAG's own variables, numbered in order, read off the system's. *)
  Lemma column_seq ks keys : total_order kle -> StronglySorted strictly ks -> StronglySorted strictly keys ->
    (forall k, In k ks -> In k keys) ->
    flat_map (fun key => match index_of ks key with Some k => [k] | None => [] end) keys = seq 0 (length ks).
  Proof.
    intros T S1 S2 Hi.
    assert (Hn : NoDup ks) by (eapply sorted_NoDup; [apply strictly_irrefl|eauto]).
    assert (E : filter (fun k => mem k ks) keys = ks).
    { apply (sorted_unique strictly); auto.
      - now apply strictly_asym.
      - now apply sorted_filter.
      - intros x. rewrite filter_In, mem_true_iff. split; [tauto|]. auto. }
    transitivity (map (fun k => match index_of ks k with Some i => i | None => 0 end) (filter (fun k => mem k ks) keys)).
    - clear E S2 Hi. induction keys as [|k keys IH]; auto. cbn [flat_map filter].
      destruct (mem k ks) eqn:Em.
      + apply mem_true_iff in Em. destruct (index_of_In ks k Em) as [i Hi]. cbn [map]. rewrite Hi, IH. reflexivity.
      + apply mem_false_iff in Em. destruct (index_of ks k) as [i|] eqn:Ei.
        * exfalso. apply Em. apply index_of_Some in Ei. eapply nth_error_In; eauto.
        * exact IH.
    - rewrite E. apply nth_ext with (d := 0) (d' := 0); rewrite map_length; [now rewrite seq_length|].
      intros i Hi0. rewrite seq_nth by auto. cbn [plus].
      destruct (nth_error ks i) as [k|] eqn:Ek; [|apply nth_error_None in Ek; lia].
      erewrite nth_error_nth; [|rewrite nth_error_map, Ek; reflexivity].
      now rewrite (index_of_nth ks k i Hn Ek).
  Qed.
End Keys.

Lemma Forall2_nth {A B} (R : A -> B -> Prop) l1 l2 : Forall2 R l1 l2 -> forall j a b,
  nth_error l1 j = Some a -> nth_error l2 j = Some b -> R a b.
Proof.
  induction 1 as [|a b l1 l2 Hr F IH]; intros j x y E1 E2; destruct j; try discriminate.
  - cbn in E1, E2. congruence.
  - eapply IH; eauto.
Qed.
Lemma Forall2_nth_intro {A B} (R : A -> B -> Prop) l1 : forall l2, length l1 = length l2 ->
  (forall j a b, nth_error l1 j = Some a -> nth_error l2 j = Some b -> R a b) -> Forall2 R l1 l2.
Proof.
  induction l1 as [|a l1 IH]; intros [|b l2] Hl HR; try discriminate; constructor.
  - apply (HR 0); reflexivity.
  - apply IH; [now injection Hl|]. intros j x y E1 E2. now apply (HR (S j)).
Qed.
Lemma choose_list {A B} (P : nat -> A -> B -> Prop) (l : list A) : forall k,
  (forall j a, nth_error l j = Some a -> exists b, P (k + j) a b) ->
  exists bs, length bs = length l /\ forall j a b, nth_error l j = Some a -> nth_error bs j = Some b -> P (k + j) a b.
Proof.
  induction l as [|a l IH]; intros k H.
  - exists []. split; auto. intros [|j] a b E; discriminate.
  - destruct (H 0 a eq_refl) as [b Hb]. destruct (IH (S k)) as [bs [L Hbs]].
    + intros j a' E. destruct (H (S j) a' E) as [b' Hb']. exists b'. now replace (S k + j) with (k + S j) by lia.
    + exists (b :: bs). split; [simpl; congruence|]. intros [|j] a' b' E1 E2.
      * cbn in E1, E2. injection E1 as <-. injection E2 as <-. auto.
      * replace (k + S j) with (S k + j) by lia. eapply Hbs; eauto.
Qed.

Section Build.
  Context {St Ky Vl In : Type} `{EqDec St} `{EqDec Ky} `{EqDec Vl}.
  Context (kle : Ky -> Ky -> bool) (vle : Vl -> Vl -> bool).
  Notation E := (edge St (Ky * Vl) In).
  Notation D := (dag St (Ky * Vl) In).
  Notation conv := (@conversion St Ky Vl In).

  (** The DAG assigns [k] somewhere. *)
  Definition assigns (d : D) (k : Ky) : Prop :=
    exists e v, List.In e (edges d) /\ assignment e = Some (k, v).
  (** DAGs (each with its missing value) and their packed forms. *)
  Definition packed_input (ordering : option (list Vl)) (i : D * Vl) (c : pdag * conv) : Prop :=
    topological (edges (fst i)) /\ (forall e, List.In e (edges (fst i)) -> ecost e <> NaN) /\
    (exists k, assigns (fst i) k) /\
    convert_dag_to_packed kle vle (fst i) (snd i) ordering = Ok c.
  (** Complete paths, one per DAG, giving every key the value [A] says; a key
      that a path leaves out has its DAG's missing value. *)
  Definition agreeing (inputs : list (D * Vl)) (A : Ky -> option Vl) (qs : list (list E)) : Prop :=
    Forall2 (fun i q => complete_path (fst i) q /\
                        forall k, assigns (fst i) k -> A k = Some (value_of (path_assignments q) (snd i) k))
      inputs qs.
  Definition total_cost (qs : list (list E)) : cost := csum (map (fun q : list E => path_cost q) qs).

  Context (ordering : option (list Vl)) (inputs : list (D * Vl)) (converted : list (pdag * conv)).
  Context (HI : Forall2 (packed_input ordering) inputs converted).
  Context (HO : ordering <> Some []).
  Context (Tk : total_order kle).
  Context (proportions : option (list Qc)) (sy : @system St Ky Vl In).
  Context (HM : make_system kle converted proportions = Ok sy).
  Context (HW : match proportions with
                | Some w => length w = length converted /\ forall x, List.In x w -> (0 < x)%Qc
                | None => True end).

  Lemma conv_facts j i c : nth_error inputs j = Some i -> nth_error converted j = Some c ->
    layout (fst c) /\ n_keys (fst c) = length (variable_keys (snd c)) /\
    n_values (fst c) = length (variable_values (snd c)) /\
    (forall k, List.In k (variable_keys (snd c)) <-> assigns (fst i) k) /\
    StronglySorted (strictly kle) (variable_keys (snd c)) /\
    0 < n_keys (fst c).
  Proof.
    intros Ei Ec. destruct c as [pd cv]. cbn [fst snd].
    destruct (Forall2_nth _ _ _ HI j i (pd, cv) Ei Ec) as [T [NN [Hk Hc]]].
    destruct (convert_parts _ _ _ _ _ _ _ Hc) as [Q _].
    pose (R := p_stage kle vle (fst i) (snd i) ordering pd cv Q).
    assert (Ek : variable_keys cv = p_keys kle (fst i) (snd i) R) by apply (cv_keys kle vle _ _ _ _ _ Q).
    assert (Hin : forall k, List.In k (variable_keys cv) <-> assigns (fst i) k).
    { intros k. rewrite Ek. split.
      - apply (keys_assigned kle (fst i) (snd i) R).
      - intros [e [v [He Ea]]]. eapply (keys_In kle (fst i) (snd i) R); eauto. }
    assert (EN : n_keys pd = length (variable_keys cv)).
    { rewrite Ek. apply (pd_n_keys kle vle _ _ _ _ _ Q). }
    splits; auto.
    - apply (convert_layout kle vle _ _ _ _ _ Q T NN).
    - rewrite (cv_values kle vle _ _ _ _ _ Q). apply (pd_n_values kle vle _ _ _ _ _ Q).
    - rewrite Ek. change (p_keys kle (fst i) (snd i) R) with (sort kle (keys_seen (edges (fst i)))).
      apply sorted_strictly; auto. apply fold_add_new_NoDup. constructor.
    - rewrite EN. destruct Hk as [k Hk]. apply Hin in Hk. destruct (variable_keys cv); [destruct Hk|simpl; lia].
  Qed.

  Lemma made : exists c0 rest, converted = c0 :: rest /\
    (forall c, List.In c converted -> variable_values (snd c) = sys_values sy) /\
    sys_keys sy = sort kle (fold_left add_new (flat_map (fun c => variable_keys (snd c)) converted) []) /\
    conversion_data sy = map snd converted /\
    data sy = mkSys (map (fun c => empty_unpenalized_table (fst c)) converted)
                    (map (fun key => map (fun c : pdag * conv => index_of (variable_keys (snd c)) key) converted) (sys_keys sy))
                    (match proportions with Some w => w | None => map (fun _ => 1%Qc) converted end)
                    (map (fun _ => repeat (Fin 0%Qc) (length (sys_values sy))) (sys_keys sy))
                    (length (sys_keys sy)) (length (sys_values sy)).
  Proof using HM.
    clear HI HW HO. unfold make_system in HM. destruct converted as [|[pd0 cv0] rest] eqn:Econv; [discriminate|].
    destruct (forallb (fun c => eqb (variable_values (snd c)) (variable_values cv0)) rest) eqn:Ef; [|discriminate].
    exists (pd0, cv0), rest. split; auto. injection HM as <-. cbn [sys_keys sys_values conversion_data data]. splits; auto.
    intros c [<-|Hc]; auto. rewrite forallb_forall in Ef. specialize (Ef c Hc). now apply eqb_eq in Ef.
  Qed.
  Lemma system_keys_In k : List.In k (sys_keys sy) <-> exists i, List.In i inputs /\ assigns (fst i) k.
  Proof.
    destruct made as [c0 [rest [_ [_ [Ek _]]]]]. rewrite Ek, sort_In, fold_add_new_In, in_flat_map. split.
    - intros [[]|[c [Hc Hk]]]. apply In_nth_error in Hc as [j Ec].
      destruct (nth_error inputs j) as [i|] eqn:Ei.
      + exists i. split; [eapply nth_error_In; eauto|]. now apply (conv_facts j i c Ei Ec).
      + apply nth_error_None in Ei. pose proof (F2_length _ _ _ HI). apply nth_error_lt in Ec. lia.
    - intros [i [Hi Hk]]. right. apply In_nth_error in Hi as [j Ei].
      destruct (nth_error converted j) as [c|] eqn:Ec.
      + exists c. split; [eapply nth_error_In; eauto|]. now apply (conv_facts j i c Ei Ec).
      + apply nth_error_None in Ec. pose proof (F2_length _ _ _ HI). apply nth_error_lt in Ei. lia.
  Qed.
  Lemma system_keys_sorted : StronglySorted (strictly kle) (sys_keys sy).
  Proof.
    destruct made as [c0 [rest [_ [_ [Ek _]]]]]. rewrite Ek. apply sorted_strictly; auto.
    apply fold_add_new_NoDup. constructor.
  Qed.
  Lemma system_keys_NoDup : NoDup (sys_keys sy).
  Proof. eapply sorted_NoDup; [apply strictly_irrefl|apply system_keys_sorted]. Qed.
  Lemma system_shape : num_keys (data sy) = length (sys_keys sy) /\ num_values (data sy) = length (sys_values sy) /\
    num_dags (data sy) = length inputs /\ length inputs = length converted /\ 0 < num_keys (data sy).
  Proof.
    destruct made as [c0 [rest [Hc [_ [Ek [_ Ed]]]]]]. pose proof (F2_length _ _ _ HI) as Hl.
    rewrite Ed. cbn. unfold num_dags. cbn. rewrite map_length. splits; auto.
    assert (Hi : exists i, nth_error inputs 0 = Some i).
    { rewrite Hc in Hl. destruct inputs as [|i l]; [discriminate|]. exists i. reflexivity. }
    destruct Hi as [i Ei]. assert (Ec : nth_error converted 0 = Some c0) by now rewrite Hc.
    destruct (conv_facts 0 i c0 Ei Ec) as [_ [E1 [_ [E2 [_ E3]]]]].
    destruct (variable_keys (snd c0)) as [|k ks] eqn:Eks; [simpl in E1; lia|].
    assert (Hk : List.In k (sys_keys sy)).
    { apply system_keys_In. exists i. split; [eapply nth_error_In; eauto|]. apply E2. simpl; auto. }
    destruct (sys_keys sy); [destruct Hk|simpl; lia].
  Qed.
  Lemma system_table j c : nth_error converted j = Some c -> table (data sy) j = empty_unpenalized_table (fst c).
  Proof.
    intros Ec. destruct made as [c0 [rest [_ [_ [_ [_ Ed]]]]]]. unfold table. rewrite Ed. cbn [tables].
    apply nth_error_nth. rewrite nth_error_map, Ec. reflexivity.
  Qed.
  Lemma system_local v j key c : nth_error (sys_keys sy) v = Some key -> nth_error converted j = Some c ->
    local (data sy) v j = index_of (variable_keys (snd c)) key.
  Proof.
    intros Ev Ec. destruct made as [c0 [rest [_ [_ [_ [_ Ed]]]]]]. unfold local. rewrite Ed. cbn [imap].
    erewrite (nth_error_nth _ v); [|rewrite nth_error_map, Ev; reflexivity].
    apply nth_error_nth. rewrite nth_error_map, Ec. reflexivity.
  Qed.
  Lemma system_extra v a : v < num_keys (data sy) -> a < num_values (data sy) -> extra_at (data sy) v a = Fin 0%Qc.
  Proof.
    intros Hv Ha. destruct system_shape as [E1 [E2 _]]. rewrite E1 in Hv. rewrite E2 in Ha.
    destruct made as [c0 [rest [_ [_ [_ [_ Ed]]]]]]. unfold extra_at. rewrite Ed. cbn [extra].
    destruct (nth_error (sys_keys sy) v) as [k|] eqn:Ek; [|apply nth_error_None in Ek; lia].
    erewrite (nth_error_nth _ v); [|rewrite nth_error_map, Ek; reflexivity].
    rewrite (nth_indep _ NaN (Fin 0%Qc)) by now rewrite repeat_length. apply nth_repeat.
  Qed.
  Lemma values_nonempty : 0 < length (sys_values sy).
  Proof.
    destruct made as [c0 [rest [Hc [Hv _]]]]. pose proof (F2_length _ _ _ HI) as Hl.
    assert (Ec : nth_error converted 0 = Some c0) by now rewrite Hc.
    assert (Hi : exists i, nth_error inputs 0 = Some i).
    { rewrite Hc in Hl. destruct inputs as [|i l]; [discriminate|]. exists i. reflexivity. }
    destruct Hi as [i Ei]. destruct c0 as [pd cv].
    destruct (Forall2_nth _ _ _ HI 0 i (pd, cv) Ei Ec) as [T [NN [Hk Hcv]]].
    rewrite <- (Hv (pd, cv)) by (rewrite Hc; simpl; auto). cbn [fst snd] in *.
    destruct (convert_parts _ _ _ _ _ _ _ Hcv) as [Q _].
    rewrite (cv_values kle vle _ _ _ _ _ Q). unfold p_vals. destruct ordering as [[|v l]|].
    - now destruct HO.
    - simpl; lia.
    - rewrite <- (Permutation_length (sort_perm vle _)).
      assert (Hm : List.In (snd i) (values_seen (snd i) (edges (fst i)))).
      { unfold values_seen. apply fold_add_new_In. left. simpl; auto. }
      destruct (values_seen (snd i) (edges (fst i))); [destruct Hm|simpl; lia].
  Qed.

  Theorem make_system_ok : sys_ok (data sy) /\ forall v a, v < num_keys (data sy) -> a < num_values (data sy) ->
    conserved (data sy) v a.
  Proof.
    destruct system_shape as [EK [EV [EN [EL HK]]]].
    pose proof made as [c0 [rest [Hc [Hv [Ek [_ Ed]]]]]].
    assert (Hnth : forall j, j < num_dags (data sy) -> exists i c, nth_error inputs j = Some i /\ nth_error converted j = Some c).
    { intros j Hj. destruct (nth_error inputs j) as [i|] eqn:Ei; [|apply nth_error_None in Ei; lia].
      destruct (nth_error converted j) as [c|] eqn:Ec; [|apply nth_error_None in Ec; lia]. eauto. }
    assert (Hvals : forall j c, nth_error converted j = Some c -> length (variable_values (snd c)) = num_values (data sy)).
    { intros j c Ec. rewrite EV, (Hv c); auto. eapply nth_error_In; eauto. }
    split.
    - constructor.
      + rewrite Ed. cbn. now rewrite map_length.
      + intros v Hv0. rewrite EN, EL, Ed. rewrite EK in Hv0. cbn [imap].
        destruct (nth_error (sys_keys sy) v) as [k|] eqn:Ekk; [|apply nth_error_None in Ekk; lia].
        erewrite (nth_error_nth _ v); [|rewrite nth_error_map, Ekk; reflexivity]. apply map_length.
      + rewrite EN, EL, Ed. cbn. destruct proportions; [tauto|apply map_length].
      + rewrite Ed. cbn [weights]. destruct proportions as [w|]; [tauto|].
        intros w Hw. apply in_map_iff in Hw as [c [<- _]]. reflexivity.
      + rewrite EK, Ed. cbn [extra]. apply map_length.
      + intros v Hv0. rewrite EV, Ed. rewrite EK in Hv0. cbn [extra].
        destruct (nth_error (sys_keys sy) v) as [k|] eqn:Ekk; [|apply nth_error_None in Ekk; lia].
        erewrite (nth_error_nth _ v); [|rewrite nth_error_map, Ekk; reflexivity]. apply repeat_length.
      + intros v a Hv0 Ha. rewrite system_extra by auto. discriminate.
      + intros j Hj. destruct (Hnth j Hj) as [i [c [Ei Ec]]]. destruct (conv_facts j i c Ei Ec) as [L [E1 [E2 [_ [_ E3]]]]].
        unfold dag_of. rewrite (system_table j c Ec). splits; auto.
        * apply empty_table_inv; auto. apply zero_pens_ok.
        * cbn. rewrite E2. now apply (Hvals j).
      + intros j Hj. destruct (Hnth j Hj) as [i [c [Ei Ec]]]. destruct (conv_facts j i c Ei Ec) as [L [E1 [E2 [E4 [E5 E3]]]]].
        unfold dag_of. rewrite (system_table j c Ec). cbn [m_dag empty_unpenalized_table empty_table]. rewrite E1.
        rewrite <- (column_seq kle (variable_keys (snd c)) (sys_keys sy)); auto.
        * unfold column. rewrite Ed. cbn [imap]. rewrite flat_map_concat_map, map_map, <- flat_map_concat_map.
          apply flat_map_ext. intros key.
          rewrite (nth_error_nth _ j None (x := index_of (variable_keys (snd c)) key)); auto.
          now rewrite nth_error_map, Ec.
        * apply system_keys_sorted.
        * intros k Hk. apply system_keys_In. exists i. split; [eapply nth_error_In; eauto|]. now apply E4.
      + intros v Hv0. rewrite EK in Hv0.
        destruct (nth_error (sys_keys sy) v) as [k|] eqn:Ekk; [|apply nth_error_None in Ekk; lia].
        assert (Hk : List.In k (sys_keys sy)) by (eapply nth_error_In; eauto).
        apply system_keys_In in Hk as [i [Hi Hk]]. apply In_nth_error in Hi as [j Ei].
        assert (Hj : j < num_dags (data sy)) by (rewrite EN; eapply nth_error_lt; eauto).
        destruct (Hnth j Hj) as [i' [c [Ei' Ec]]]. assert (i' = i) by congruence. subst i'.
        exists j. split; auto. rewrite (system_local v j k c Ekk Ec).
        destruct (conv_facts j i c Ei Ec) as [_ [_ [_ [E4 _]]]].
        destruct (index_of_In (variable_keys (snd c)) k) as [x ->]; [now apply E4|discriminate].
      + rewrite EV. apply values_nonempty.
    - intros v a Hv0 Ha. unfold conserved. rewrite system_extra by auto. unfold pen_sum.
      unfold over. apply csum_zero. intros x Hx. apply in_map_iff in Hx as [j [<- Hj]]. apply in_seq in Hj.
      destruct (Hnth j) as [i [c [Ei Ec]]]; [lia|]. destruct (conv_facts j i c Ei Ec) as [L [E1 [E2 [_ [E5 _]]]]].
      unfold pen_at. rewrite EK in Hv0.
      destruct (nth_error (sys_keys sy) v) as [k|] eqn:Ekk; [|apply nth_error_None in Ekk; lia].
      rewrite (system_local v j k c Ekk Ec). destruct (index_of (variable_keys (snd c)) k) as [l|] eqn:El; auto.
      rewrite (system_table j c Ec). cbn [pens empty_unpenalized_table empty_table].
      apply index_of_lt in El.
      rewrite (nth_indep _ [] (repeat (Fin 0%Qc) (n_values (fst c)))) by (rewrite repeat_length; lia).
      rewrite nth_repeat. rewrite (nth_indep _ NaN (Fin 0%Qc)).
      + apply nth_repeat.
      + rewrite repeat_length, E2, (Hvals j c Ec). exact Ha.
  Qed.
End Build.

(** Systems with the same DAGs and variables. *)
Definition alike (s s' : sysdata) : Prop :=
  num_keys s' = num_keys s /\ num_values s' = num_values s /\ num_dags s' = num_dags s /\ imap s' = imap s /\
  forall j, j < num_dags s -> dag_of s' j = dag_of s j.
Lemma alike_refl s : alike s s.
Proof. unfold alike. splits; auto. Qed.
Lemma alike_trans s1 s2 s3 : alike s1 s2 -> alike s2 s3 -> alike s1 s3.
Proof.
  intros [A1 [A2 [A3 [A4 A5]]]] [B1 [B2 [B3 [B4 B5]]]]. unfold alike. splits; try congruence.
  intros j Hj. rewrite B5 by lia. auto.
Qed.
Lemma alike_solution s s' x ps : alike s s' -> (solution s' x ps <-> solution s x ps).
Proof.
  intros [A1 [A2 [A3 [A4 A5]]]]. unfold solution, chooses, local. rewrite A1, A3, A4.
  split; intros [H1 [H2 H3]]; splits; auto; intros j Hj; specialize (H3 j Hj); rewrite A5 in * by auto; auto.
Qed.

(** ** Constraints and assignments. *)
Section Constrain.
  Context {St Ky Vl In : Type} `{EqDec St} `{EqDec Ky} `{EqDec Vl}.
  Notation system := (@system St Ky Vl In).

  Record system_ok (sy : system) : Prop := {
    sk_ok : sys_ok (data sy);
    sk_keys : num_keys (data sy) = length (sys_keys sy);
    sk_values : num_values (data sy) = length (sys_values sy);
    sk_NoDup : NoDup (sys_keys sy)
  }.

  (** [x] gives [k] the value [v]. *)
  Definition gives (sy : system) (x : list nat) (k : Ky) (v : Vl) : Prop :=
    exists i, nth_error (sys_keys sy) i = Some k /\ nth_error (sys_values sy) (nth i x 0) = Some v.
  Lemma gives_fun sy x k v v' : NoDup (sys_keys sy) -> gives sy x k v -> gives sy x k v' -> v = v'.
  Proof.
    intros Hn [i [G1 G2]] [j [G3 G4]].
    assert (i = j).
    { eapply (proj1 (NoDup_nth_error (sys_keys sy))); auto; [eapply nth_error_lt; eauto|congruence]. }
    subst. congruence.
  Qed.

  Lemma assignments_spec sy x : NoDup (sys_keys sy) -> length x = length (sys_keys sy) ->
    Forall (fun a => a < length (sys_values sy)) x ->
    exists asg, assignments_from_assignment_vector sy x = Ok asg /\ map fst asg = sys_keys sy /\
      forall k v, assoc k asg = Some v <-> gives sy x k v.
  Proof.
    intros Hn Hl Hx. unfold assignments_from_assignment_vector, gives.
    assert (G : forall ks x n, (forall i, nth_error (sys_keys sy) (n + i) = nth_error ks i) -> NoDup ks -> length x = length ks ->
      Forall (fun a => a < length (sys_values sy)) x ->
      exists asg, mapM (fun kv : nat * nat =>
            do key <- or_err IndexError (nth_error (sys_keys sy) (fst kv));
            do value <- or_err IndexError (nth_error (sys_values sy) (snd kv));
            Ok (key, value)) (combine (seq n (length x)) x) = Ok asg /\ map fst asg = ks /\
      forall k v, assoc k asg = Some v <->
        exists i, nth_error ks i = Some k /\ nth_error (sys_values sy) (nth i x 0) = Some v).
    { clear Hn Hl Hx x. induction ks as [|k0 ks IH]; intros [|a x] n Hnth Hn Hl Hx; try discriminate.
      - exists []. cbn. splits; auto. intros k v. split; [discriminate|]. intros [[|i] [C _]]; discriminate.
      - inversion Hn as [|? ? Hn1 Hn2]; subst. inversion Hx as [|? ? Ha Hx2]; subst.
        destruct (IH x (S n)) as [asg [E1 [E2 E3]]]; auto.
        { intros i. replace (S n + i) with (n + S i) by lia. now rewrite Hnth. }
        destruct (nth_error (sys_values sy) a) as [v0|] eqn:Ev; [|apply nth_error_None in Ev; lia].
        exists ((k0, v0) :: asg). cbn [length seq combine mapM fst snd].
        replace (nth_error (sys_keys sy) n) with (Some k0).
        2:{ pose proof (Hnth 0) as E0. rewrite Nat.add_0_r in E0. now rewrite E0. }
        cbn [or_err bind]. rewrite Ev. cbn [or_err bind]. rewrite E1. cbn [bind map fst]. rewrite E2. splits; auto.
        intros k v. cbn [assoc]. destruct (eqb k k0) eqn:Ek.
        + apply eqb_eq in Ek. subst k0. split.
          * intros [= <-]. exists 0. cbn. auto.
          * intros [[|i] [C1 C2]]; cbn in C1, C2; [congruence|]. exfalso. apply Hn1. eapply nth_error_In; eauto.
        + apply eqb_neq in Ek. rewrite E3. split.
          * intros [i Hi]. exists (S i). exact Hi.
          * intros [[|i] [C1 C2]]; cbn in C1, C2; [congruence|]. exists i. auto. }
    destruct (G (sys_keys sy) x 0) as [asg [E1 [E2 E3]]]; auto.
    exists asg. splits; auto.
  Qed.

  (** What a solution with vector [x] pays for a constraint. *)
  Definition pays (sy : system) (penalty : cost) (x : list nat) (kv : Ky * Vl) : cost :=
    match index_of (sys_keys sy) (fst kv), index_of (sys_values sy) (snd kv) with
    | Some v, Some a => if nth v x 0 =? a then Fin 0%Qc else penalty
    | _, _ => NaN
    end.
  Lemma pays_gives sy penalty x k v : system_ok sy -> NoDup (sys_values sy) ->
    List.In k (sys_keys sy) -> List.In v (sys_values sy) ->
    (gives sy x k v -> pays sy penalty x (k, v) = Fin 0%Qc) /\
    (~ gives sy x k v -> pays sy penalty x (k, v) = penalty).
  Proof.
    intros O Hn Hk Hv. unfold pays. cbn [fst snd].
    destruct (index_of_In _ _ Hk) as [i Ei]. destruct (index_of_In _ _ Hv) as [a Ea]. rewrite Ei, Ea.
    pose proof (index_of_Some _ _ _ Ei) as Hi. pose proof (index_of_Some _ _ _ Ea) as Ha. split.
    - intros [j [H3 H4]].
      assert (j = i) by (eapply (proj1 (NoDup_nth_error (sys_keys sy))); [apply O|eapply nth_error_lt; eauto|congruence]).
      subst j.
      assert (nth i x 0 = a) as ->.
      { eapply (proj1 (NoDup_nth_error (sys_values sy))); auto; [eapply nth_error_lt; eauto|congruence]. }
      now rewrite Nat.eqb_refl.
    - intros Hg. destruct (Nat.eqb_spec (nth i x 0) a) as [E|E]; auto. exfalso. apply Hg. exists i. rewrite E. auto.
  Qed.

  Definition known (sy : system) (kv : Ky * Vl) : Prop :=
    List.In (fst kv) (sys_keys sy) /\ List.In (snd kv) (sys_values sy).

  Lemma constraint_vector_facts nv penalty a : a < nv -> penalty <> NaN ->
    length (constraint_vector nv penalty a) = nv /\ no_nans (constraint_vector nv penalty a) /\
    forall b, b < nv -> get (constraint_vector nv penalty a) b = if b =? a then Fin 0%Qc else penalty.
  Proof.
    intros Ha Hp. unfold constraint_vector.
    assert (G : forall b, b < nv -> get (updnth a (Fin 0%Qc) (repeat penalty nv)) b = if b =? a then Fin 0%Qc else penalty).
    { intros b Hb. unfold get. destruct (Nat.eqb_spec b a) as [->|Hne].
      - apply nth_updnth_same. now rewrite repeat_length.
      - rewrite nth_updnth_other by auto. rewrite (nth_indep _ NaN penalty) by now rewrite repeat_length. apply nth_repeat. }
    assert (L : length (updnth a (Fin 0%Qc) (repeat penalty nv)) = nv) by now rewrite updnth_length, repeat_length.
    splits; auto. unfold no_nans. rewrite Forall_forall. intros c Hc. apply In_nth with (d := NaN) in Hc as [b [Hb <-]].
    rewrite L in Hb. fold (get (updnth a (Fin 0%Qc) (repeat penalty nv)) b). rewrite G by auto.
    destruct (b =? a); [discriminate|auto].
  Qed.

  Lemma constrain_one_spec sy penalty kv : system_ok sy -> penalty <> NaN -> known sy kv ->
    exists sy', constrain_one sy penalty kv = Ok sy' /\ system_ok sy' /\ alike (data sy) (data sy') /\
      sys_keys sy' = sys_keys sy /\ sys_values sy' = sys_values sy /\ conversion_data sy' = conversion_data sy /\
      (nearly_conserved (data sy) -> nearly_conserved (data sy')) /\
      forall x ps, solution (data sy) x ps ->
        solution_cost (data sy') x ps = cadd (solution_cost (data sy) x ps) (pays sy penalty x kv).
  Proof.
    intros O Hp [Hk Hv]. unfold constrain_one, pays.
    destruct (index_of_In _ _ Hk) as [v Ev]. destruct (index_of_In _ _ Hv) as [a Ea]. rewrite Ev, Ea. cbn [or_err bind].
    assert (Hv' : v < num_keys (data sy)) by (rewrite (sk_keys _ O); eapply index_of_lt; eauto).
    assert (Ha' : a < num_values (data sy)) by (rewrite (sk_values _ O); eapply index_of_lt; eauto).
    destruct (constraint_vector_facts (num_values (data sy)) penalty a Ha' Hp) as [L [N G]].
    destruct (add_unary_spec (data sy) v _ (sk_ok _ O) Hv' L N) as [s' [E [O' [C NC]]]].
    rewrite E. cbn [bind]. eexists. split; [reflexivity|]. cbn [data sys_keys sys_values conversion_data].
    pose proof (charged_shape _ _ _ _ C) as A. splits; auto.
    - destruct A as [A1 [A2 _]]. constructor; cbn [data sys_keys sys_values]; auto; try apply O;
        rewrite ?A1, ?A2; apply O.
    - intros x ps HS. rewrite (charged_cost _ _ _ _ _ _ (sk_ok _ O) Hv' C HS). f_equal. apply G.
      eapply solution_values; eauto. apply O.
  Qed.

  Theorem constrain_system_spec cs penalty : penalty <> NaN -> forall sy, system_ok sy -> Forall (known sy) cs ->
    exists sy', constrain_system sy cs penalty = Ok sy' /\ system_ok sy' /\ alike (data sy) (data sy') /\
      sys_keys sy' = sys_keys sy /\ sys_values sy' = sys_values sy /\ conversion_data sy' = conversion_data sy /\
      (nearly_conserved (data sy) -> nearly_conserved (data sy')) /\
      forall x ps, solution (data sy) x ps ->
        solution_cost (data sy') x ps = cadd (solution_cost (data sy) x ps) (csum (map (pays sy penalty x) cs)).
  Proof.
    intros Hp. unfold constrain_system. induction cs as [|kv cs IH]; intros sy O Hk; cbn [foldM].
    - exists sy. splits; auto; [apply alike_refl|]. intros x ps HS. cbn [map csum fold_right]. now rewrite cadd_0_r.
    - inversion Hk as [|? ? Hk1 Hk2]; subst.
      destruct (constrain_one_spec sy penalty kv O Hp Hk1) as [s1 [E1 [O1 [A1 [K1 [V1 [C1 [NC1 S1]]]]]]]].
      rewrite E1. cbn [bind].
      destruct (IH s1 O1) as [s2 [E2 [O2 [A2 [K2 [V2 [C2 [NC2 S2]]]]]]]].
      { eapply Forall_impl; [|exact Hk2]. intros kv'. unfold known. now rewrite K1, V1. }
      exists s2. splits; auto; try congruence; [eapply alike_trans; eauto|].
      intros x ps HS. rewrite S2 by (apply (alike_solution _ _ _ _ A1); auto). rewrite S1 by auto.
      rewrite <- cadd_assoc. f_equal. cbn [map csum fold_right]. f_equal. unfold csum. f_equal.
      apply map_ext. intros kv'. unfold pays. now rewrite K1, V1.
  Qed.

  (** An unknown key or value raises. *)
  Theorem constrain_system_unknown cs penalty : penalty <> NaN -> forall sy, system_ok sy -> ~ Forall (known sy) cs ->
    constrain_system sy cs penalty = Err KeyError.
  Proof.
    intros Hp. unfold constrain_system. induction cs as [|kv cs IH]; intros sy O Hk; [destruct Hk; constructor|].
    cbn [foldM]. unfold constrain_one at 1.
    destruct (index_of (sys_keys sy) (fst kv)) as [v|] eqn:Ev; [|reflexivity].
    destruct (index_of (sys_values sy) (snd kv)) as [a|] eqn:Ea; [|reflexivity].
    assert (Hkv : known sy kv).
    { split; [apply index_of_Some in Ev|apply index_of_Some in Ea]; eapply nth_error_In; eauto. }
    destruct (constrain_one_spec sy penalty kv O Hp Hkv) as [s1 [E1 [O1 [A1 [K1 [V1 _]]]]]].
    unfold constrain_one in E1. rewrite Ev, Ea in E1. cbn [or_err bind] in E1 |- *. rewrite E1. cbn [bind].
    apply IH; auto. intros C. apply Hk. constructor; auto. eapply Forall_impl; [|exact C].
    intros kv'. unfold known. now rewrite K1, V1.
  Qed.

  (** Constraining with infinite penalties by the assignments of [x] leaves
      [x] as the only vector of finite cost. *)
  Theorem constrain_reproduces sy x asg sy' : system_ok sy -> NoDup (sys_values sy) ->
    length x = length (sys_keys sy) -> Forall (fun a => a < length (sys_values sy)) x ->
    assignments_from_assignment_vector sy x = Ok asg -> constrain_system sy asg Inf = Ok sy' ->
    (forall ps, solution (data sy) x ps -> solution_cost (data sy') x ps = solution_cost (data sy) x ps) /\
    (forall x' ps q, solution (data sy') x' ps -> solution_cost (data sy') x' ps = Fin q -> x' = x).
  Proof.
    intros O Hn Hl Hx Ea Ec. destruct (assignments_spec sy x (sk_NoDup _ O) Hl Hx) as [asg' [E1 [E2 E3]]].
    assert (asg' = asg) by congruence. subst asg'. clear E1.
    assert (HND : NoDup (map fst asg)) by (rewrite E2; apply O).
    assert (Has : forall k v, List.In (k, v) asg <-> gives sy x k v).
    { intros k v. rewrite <- E3. split; [|apply assoc_In]. intros Hin. revert HND Hin. clear.
      induction asg as [|[k0 v0] l IH]; [intros _ []|]. cbn [map fst assoc]. intros Hn Hin.
      inversion Hn as [|? ? G1 G2]; subst. destruct Hin as [E|Hin].
      - injection E as -> ->. now rewrite eqb_refl.
      - rewrite neq_eqb; [now apply IH|]. intros ->. apply G1. apply in_map_iff. exists (k0, v). auto. }
    assert (Hkn : Forall (known sy) asg).
    { rewrite Forall_forall. intros [k v] Hkv. apply Has in Hkv as [i [H3 H4]]. split; eapply nth_error_In; eauto. }
    destruct (constrain_system_spec asg Inf ltac:(discriminate) sy O Hkn) as [sy'' [E4 [O' [A [K [V [_ [_ HC]]]]]]]].
    assert (sy'' = sy') by congruence. subst sy''. split.
    - intros ps HS. rewrite HC by auto. replace (csum (map (pays sy Inf x) asg)) with (Fin 0%Qc); [apply cadd_0_r|].
      symmetry. apply csum_zero. intros c Hc. apply in_map_iff in Hc as [[k v] [<- Hkv]].
      pose proof Hkv as Hg. apply Has in Hg. rewrite Forall_forall in Hkn. destruct (Hkn _ Hkv) as [Hk1 Hk2].
      now apply pays_gives.
    - intros x' ps q HS HF. assert (HS0 : solution (data sy) x' ps) by now apply (alike_solution _ _ _ _ A).
      rewrite HC in HF by auto. apply cadd_fin_inv in HF as [_ [b [_ Eb]]].
      pose proof HS0 as [Hl' _]. rewrite (sk_keys _ O) in Hl'.
      apply nth_ext with (d := 0) (d' := 0); [congruence|]. intros i Hi. rewrite Hl' in Hi.
      destruct (nth_error (sys_keys sy) i) as [k|] eqn:Ek; [|apply nth_error_None in Ek; lia].
      assert (Hxi : nth i x 0 < length (sys_values sy)).
      { rewrite Forall_forall in Hx. apply Hx, nth_In. lia. }
      destruct (nth_error (sys_values sy) (nth i x 0)) as [v|] eqn:Ev; [|apply nth_error_None in Ev; lia].
      assert (Hkv : List.In (k, v) asg) by (apply Has; exists i; auto).
      assert (Hne : pays sy Inf x' (k, v) <> Inf).
      { eapply csum_fin; [exact Eb|]. apply in_map_iff. exists (k, v). auto. }
      unfold pays in Hne. cbn [fst snd] in Hne.
      rewrite (index_of_nth _ _ i (sk_NoDup _ O) Ek), (index_of_nth _ _ _ Hn Ev) in Hne.
      destruct (Nat.eqb_spec (nth i x' 0) (nth i x 0)); auto. congruence.
  Qed.
End Constrain.

(** ** Vectors and paths of the original DAGs. *)
Section Correspondence.
  Context {St Ky Vl In : Type} `{EqDec St} `{EqDec Ky} `{EqDec Vl}.
  Context (kle : Ky -> Ky -> bool) (vle : Vl -> Vl -> bool).
  Notation E := (edge St (Ky * Vl) In).
  Notation D := (dag St (Ky * Vl) In).
  Notation conv := (@conversion St Ky Vl In).
  Context (ordering : option (list Vl)) (inputs : list (D * Vl)) (converted : list (pdag * conv)).
  Context (HI : Forall2 (packed_input kle vle ordering) inputs converted).
  Context (HO : ordering <> Some []).
  Context (Tk : total_order kle).
  Context (proportions : option (list Qc)) (sy : @system St Ky Vl In).
  Context (HM : make_system kle converted proportions = Ok sy).
  Context (HW : match proportions with
                | Some w => length w = length converted /\ forall x, List.In x w -> (0 < x)%Qc
                | None => True end).
  Let SO := make_system_ok kle vle ordering inputs converted HI HO Tk proportions sy HM HW.
  Let shape := system_shape kle vle ordering inputs converted HI Tk proportions sy HM.

  Lemma made_system_ok : system_ok sy.
  Proof.
    constructor; [apply SO|apply shape|apply shape|].
    exact (system_keys_NoDup kle converted Tk proportions sy HM).
  Qed.

  (** Agreeing paths of finite cost are a solution of the system. *)
  Theorem agreeing_solution A qs y : agreeing inputs A qs -> total_cost qs = Fin y ->
    exists x ps, solution (data sy) x ps /\ csum (map (fun p : list pedge => path_cost p) ps) = Fin y /\
      forall k, List.In k (sys_keys sy) -> exists v, A k = Some v /\ gives sy x k v.
  Proof.
    intros HA Hy. destruct shape as [EK [EV [EN [EL HK]]]].
    destruct (made kle converted proportions sy HM) as [c0 [rest [_ [Hval _]]]].
    pose (idx := fun k => match A k with
                          | Some v => match index_of (sys_values sy) v with Some a => a | None => 0 end
                          | None => 0 end).
    pose (x := map idx (sys_keys sy)).
    pose proof (F2_length _ _ _ HA) as Lq.
    assert (Hx : forall v k, nth_error (sys_keys sy) v = Some k -> nth v x 0 = idx k).
    { intros v k Ev. apply nth_error_nth. unfold x. now rewrite nth_error_map, Ev. }
    (* a packed path for each DAG *)
    assert (Hp : forall j q, nth_error qs j = Some q -> exists p : list pedge, path_cost p = path_cost q /\
        chooses (data sy) x j p /\
        forall i k, nth_error inputs j = Some i -> assigns (fst i) k ->
          exists v a, A k = Some v /\ index_of (sys_values sy) v = Some a).
    { intros j q Eq.
      destruct (nth_error inputs j) as [i|] eqn:Ei; [|apply nth_error_None in Ei; apply nth_error_lt in Eq; lia].
      destruct (nth_error converted j) as [[pd cv]|] eqn:Ec; [|apply nth_error_None in Ec; apply nth_error_lt in Eq; lia].
      destruct (Forall2_nth _ _ _ HA j i q Ei Eq) as [Hq Hag].
      destruct (Forall2_nth _ _ _ HI j i (pd, cv) Ei Ec) as [T [NN [_ Hc]]].
      destruct (convert_parts _ _ _ _ _ _ _ Hc) as [Q _].
      assert (Hfin : exists c, path_cost q = Fin c).
      { unfold total_cost in Hy.
        assert (Hin : List.In (path_cost q) (map (fun q : list E => path_cost q) qs)).
        { apply in_map_iff. exists q. split; auto. eapply nth_error_In; eauto. }
        eapply csum_Fin_In; eauto. }
      destruct Hfin as [c Ecost].
      destruct (route_index (fst i) q Hq) as [is Hr].
      destruct (convert_complete kle vle (fst i) (snd i) ordering pd cv Q T is q c Hr Ecost) as [ks [[p Hpr] [Ho _]]].
      destruct (convert_sound kle vle (fst i) (snd i) ordering pd cv Q ks p Hpr) as [q' [Hq' [_ [Hcost Ha]]]].
      assert (q' = q) by (rewrite Ho in Hq'; eapply at_indices_fun; [apply Hq'|apply Hr]). subst q'.
      destruct (conv_facts kle vle ordering inputs converted HI Tk j i (pd, cv) Ei Ec) as [L [E1 [E2 [E3 [E4 E5]]]]].
      cbn [fst snd] in *.
      assert (Evv : variable_values cv = sys_values sy).
      { apply (Hval (pd, cv)). eapply nth_error_In; eauto. }
      assert (Hkey : forall k, assigns (fst i) k -> exists a l, A k = Some (value_of (path_assignments q) (snd i) k) /\
           index_of (sys_values sy) (value_of (path_assignments q) (snd i) k) = Some a /\
           index_of (variable_keys cv) k = Some l /\ List.In (l, a) (path_assignments p)).
      { intros k Hk. assert (Hin : List.In (k, value_of (path_assignments q) (snd i) k)
                              (full_assignment (variable_keys cv) (snd i) q)).
        { unfold full_assignment. apply in_map_iff. exists k. split; auto. now apply E3. }
        destruct (F2_In_l _ _ _ _ Ha Hin) as [[l a] [Hla [Hl1 Hl2]]]. cbn [fst snd] in *.
        exists a, l. rewrite <- Evv. splits; auto. }
      exists p. splits; [congruence| |].
      - split.
        + unfold dag_of. rewrite (system_table kle converted proportions sy HM j (pd, cv) Ec). apply Hpr.
        + intros v l Hv El. rewrite EK in Hv.
          destruct (nth_error (sys_keys sy) v) as [k|] eqn:Ek; [|apply nth_error_None in Ek; lia].
          rewrite (system_local kle converted proportions sy HM v j k (pd, cv) Ek Ec) in El. cbn [snd] in El.
          assert (Hk : assigns (fst i) k).
          { apply E3. apply index_of_Some in El. eapply nth_error_In; eauto. }
          destruct (Hkey k Hk) as [a [l' [HA1 [HA2 [HA3 HA4]]]]].
          assert (l' = l) by congruence. subst l'. rewrite (Hx v k Ek). unfold idx. now rewrite HA1, HA2.
      - intros i' k Ei' Hk. injection Ei' as <-. destruct (Hkey k Hk) as [a [l [HA1 [HA2 _]]]]. eauto. }
    assert (Hps : exists ps : list (list pedge), length ps = length qs /\ forall j q (p : list pedge), nth_error qs j = Some q -> nth_error ps j = Some p ->
              path_cost p = path_cost q /\ chooses (data sy) x j p).
    { destruct (choose_list (fun j q (p : list pedge) => path_cost p = path_cost q /\ chooses (data sy) x j p) qs 0) as [ps [L Hps]].
      - intros j q Eq. destruct (Hp j q Eq) as [p [H3 [H4 _]]]. exists p. auto.
      - exists ps. split; [exact L|]. intros j q p Eq Ep. apply (Hps j q p Eq Ep). }
    destruct Hps as [ps [Lp Hps]]. exists x, ps. splits.
    - split; [|split].
      + unfold x. rewrite map_length. lia.
      + lia.
      + intros j Hj.
        destruct (nth_error qs j) as [q|] eqn:Eq; [|apply nth_error_None in Eq; lia].
        destruct (nth_error ps j) as [p|] eqn:Ep; [|apply nth_error_None in Ep; lia].
        rewrite (nth_error_nth _ _ _ Ep). now apply (Hps j q p).
    - rewrite <- Hy. unfold total_cost. f_equal.
      apply nth_ext with (d := NaN) (d' := NaN); [now rewrite !map_length|]. intros j Hj. rewrite map_length in Hj.
      destruct (nth_error qs j) as [q|] eqn:Eq; [|apply nth_error_None in Eq; lia].
      destruct (nth_error ps j) as [p|] eqn:Ep; [|apply nth_error_None in Ep; lia].
      erewrite !nth_error_nth; [|rewrite nth_error_map, Eq; reflexivity|rewrite nth_error_map, Ep; reflexivity].
      now apply (Hps j q p).
    - intros k Hk. pose proof Hk as Hk'.
      apply (system_keys_In kle vle ordering inputs converted HI Tk proportions sy HM) in Hk as [i [Hi Ha]].
      apply In_nth_error in Hi as [j Ei].
      destruct (nth_error qs j) as [q|] eqn:Eq; [|apply nth_error_None in Eq; apply nth_error_lt in Ei; lia].
      destruct (Hp j q Eq) as [p [_ [_ HAk]]]. destruct (HAk i k Ei Ha) as [v [a [E1 E2]]]. exists v. split; auto.
      apply In_nth_error in Hk' as [n En]. exists n. split; auto. rewrite (Hx n k En). unfold idx. rewrite E1, E2.
      now apply index_of_Some.
  Qed.

  (** A solution of the system gives agreeing paths of the same costs. *)
  Theorem solution_agreeing x ps : solution (data sy) x ps ->
    exists asg qs, assignments_from_assignment_vector sy x = Ok asg /\ map fst asg = sys_keys sy /\
      agreeing inputs (fun k => assoc k asg) qs /\
      map (fun q : list E => path_cost q) qs = map (fun p : list pedge => path_cost p) ps.
  Proof.
    intros HS. destruct shape as [EK [EV [EN [EL HK]]]]. destruct SO as [O _].
    destruct (made kle converted proportions sy HM) as [c0 [rest [_ [Hval _]]]].
    pose proof HS as [Lx [Lps Hch]].
    destruct (assignments_spec sy x) as [asg [Ea [Ef Has]]].
    { exact (system_keys_NoDup kle converted Tk proportions sy HM). }
    { congruence. }
    { rewrite Forall_forall. intros a Ha. apply In_nth with (d := 0) in Ha as [v [Hv <-]]. rewrite <- EV.
      eapply solution_values; eauto. lia. }
    assert (Hq : forall j i, nth_error inputs j = Some i -> exists q,
        path_cost q = path_cost (nth j ps []) /\ complete_path (fst i) q /\
        forall k, assigns (fst i) k -> assoc k asg = Some (value_of (path_assignments q) (snd i) k)).
    { intros j i Ei. assert (Hj : j < num_dags (data sy)) by (rewrite EN; eapply nth_error_lt; eauto).
      destruct (nth_error converted j) as [[pd cv]|] eqn:Ec; [|apply nth_error_None in Ec; apply nth_error_lt in Ei; lia].
      destruct (Forall2_nth _ _ _ HI j i (pd, cv) Ei Ec) as [T [NN [_ Hc]]].
      destruct (convert_parts _ _ _ _ _ _ _ Hc) as [Q _].
      destruct (Hch j Hj) as [Hp Hal]. unfold dag_of in Hp.
      rewrite (system_table kle converted proportions sy HM j (pd, cv) Ec) in Hp.
      destruct (packed_index pd (nth j ps []) Hp) as [ks Hks].
      destruct (convert_sound kle vle (fst i) (snd i) ordering pd cv Q ks _ Hks) as [q [Hq [_ [Hcost Ha]]]].
      destruct (conv_facts kle vle ordering inputs converted HI Tk j i (pd, cv) Ei Ec) as [L [E1 [E2 [E3 [E4 E5]]]]].
      cbn [fst snd] in *.
      exists q. split; [exact Hcost|]. split; [apply Hq|]. intros k Hk. apply Has.
      assert (Hks' : List.In k (sys_keys sy)).
      { apply (system_keys_In kle vle ordering inputs converted HI Tk proportions sy HM). exists i. split; auto.
        eapply nth_error_In; eauto. }
      apply In_nth_error in Hks' as [v Ev]. exists v. split; auto.
      assert (Hin : List.In (k, value_of (path_assignments q) (snd i) k) (full_assignment (variable_keys cv) (snd i) q)).
      { unfold full_assignment. apply in_map_iff. exists k. split; auto. now apply E3. }
      destruct (F2_In_l _ _ _ _ Ha Hin) as [[l a] [Hla [Hl1 Hl2]]]. cbn [fst snd] in *.
      assert (Hv : v < num_keys (data sy)) by (rewrite EK; eapply nth_error_lt; eauto).
      assert (Hloc : local (data sy) v j = Some l).
      { rewrite (system_local kle converted proportions sy HM v j k (pd, cv) Ev Ec). exact Hl1. }
      assert (Eva : nth v x 0 = a).
      { eapply (complete_functional pd); [exact L|exact Hp|apply (Hal v l Hv Hloc)|exact Hla]. }
      assert (Evv : variable_values cv = sys_values sy).
      { apply (Hval (pd, cv)). eapply nth_error_In; eauto. }
      rewrite Eva, <- Evv. now apply index_of_Some. }
    destruct (choose_list (fun j (i : D * Vl) q => path_cost q = path_cost (nth j ps []) /\ complete_path (fst i) q /\
        forall k, assigns (fst i) k -> assoc k asg = Some (value_of (path_assignments q) (snd i) k)) inputs 0) as [qs [Lq Hqs]].
    { intros j i Ei. apply (Hq j i Ei). }
    exists asg, qs. splits; auto.
    - apply Forall2_nth_intro; [auto|]. intros j i q Ei Eq. apply (Hqs j i q Ei Eq).
    - apply nth_ext with (d := NaN) (d' := NaN); [rewrite !map_length; congruence|]. intros j Hj. rewrite map_length in Hj.
      destruct (nth_error inputs j) as [i|] eqn:Ei; [|apply nth_error_None in Ei; lia].
      destruct (nth_error qs j) as [q|] eqn:Eq; [|apply nth_error_None in Eq; lia].
      destruct (nth_error ps j) as [p|] eqn:Ep; [|apply nth_error_None in Ep; lia].
      erewrite !nth_error_nth; [|rewrite nth_error_map, Ep; reflexivity|rewrite nth_error_map, Eq; reflexivity].
      destruct (Hqs j i q Ei Eq) as [Hc _]. cbn [plus] in Hc. rewrite Hc. f_equal. now apply nth_error_nth.
  Qed.
End Correspondence.
