(** Conversion, extraction and constrained search stated on the original DAG. *)

From Coq Require Import List Bool Arith Lia ZArith Sorted Permutation QArith Qcanon.
From Verif Require Import Base Graph PackedDag PackedDagProofs PackedTables Convert ConvertLists ConvertProofs ConvertLayout ConvertPaths.
Import ListNotations.
Close Scope Qc_scope. Close Scope Q_scope. Open Scope nat_scope.

Lemma csum_fin l q : csum l = Fin q -> forall c, In c l -> c <> Inf.
Proof.
  revert q; induction l as [|x l IH]; intros q; simpl; [tauto|].
  intros E c [<-|Hc]; apply cadd_fin_inv in E as [a [b [Ea Eb]]].
  - congruence.
  - eapply IH; eauto.
Qed.

(** Specification vocabulary. *)
Section Vocabulary.
  Context {St Ky Vl In : Type} `{EqDec St} `{EqDec Ky} `{EqDec Vl}.
  Notation E := (edge St (Ky * Vl) In).
  Notation D := (dag St (Ky * Vl) In).

  (** The original edges, by position, that a list of packed edge positions stands for. *)
  Definition original_indices (cv : @conversion St Ky Vl In) (ks : list nat) : list nat :=
    flat_map (fun k => match nth_error (tagged_edges cv) k with
                       | Some te => match info te with Some i => [i] | None => [] end
                       | None => [] end) ks.
  (** A path given by positions, in the packed DAG. *)
  Definition packed_route (pd : pdag) (ks : list nat) (p : list pedge) : Prop :=
    at_indices (pedges pd) ks p /\ packed_complete pd p.
  (** A path given by positions, in the original DAG. *)
  Definition route (d : D) (qs : list nat) (q : list E) : Prop :=
    at_indices (edges d) qs q /\ complete_path d q.
  (** What a path assigns to all the variables: its own assignments, and the
      missing value elsewhere. *)
  Definition full_assignment (keys : list Ky) (missing : Vl) (q : list E) : list (Ky * Vl) :=
    map (fun k => (k, value_of (path_assignments q) missing k)) keys.
  (** The penalty of giving [v] to [k]. *)
  Definition penalty_at (cv : @conversion St Ky Vl In) (P : list (list cost)) (kv : Ky * Vl) : cost :=
    match index_of (variable_keys cv) (fst kv), index_of (variable_values cv) (snd kv) with
    | Some i, Some j => nth j (nth i P []) NaN
    | _, _ => NaN
    end.
  (** Cost of an original path plus the penalties of everything it assigns. *)
  Definition objective (cv : @conversion St Ky Vl In) (missing : Vl) (P : list (list cost)) (q : list E) : cost :=
    cadd (path_cost q) (csum (map (penalty_at cv P) (full_assignment (variable_keys cv) missing q))).
End Vocabulary.

(** ** Forcing values. *)
Lemma nth_force_row n j v : v < n -> j < n -> nth v (force_row n j) NaN = if v =? j then Fin 0%Qc else Inf.
Proof.
  intros Hv Hj. unfold force_row. destruct (v =? j) eqn:E.
  - apply Nat.eqb_eq in E. subst. apply nth_updnth_same. now rewrite repeat_length.
  - apply Nat.eqb_neq in E. rewrite nth_updnth_other by auto.
    rewrite (nth_indep _ NaN Inf) by now rewrite repeat_length. apply nth_repeat.
Qed.
Lemma force_row_ok n j : j < n -> length (force_row n j) = n /\ Forall (fun c => c <> NaN) (force_row n j).
Proof.
  intros Hj. unfold force_row. rewrite updnth_length, repeat_length. split; auto.
  apply Forall_forall. intros c Hc. apply In_nth with (d := NaN) in Hc as [v [Hv Ec]].
  rewrite updnth_length, repeat_length in Hv. fold (force_row n j) in Ec.
  rewrite nth_force_row in Ec by auto. subst c. destruct (v =? j); discriminate.
Qed.
Lemma constrain_spec cs : forall m, inv m ->
  (forall i j, In (i, j) cs -> i < n_keys (m_dag m) /\ j < n_values (m_dag m)) -> NoDup (map fst cs) ->
  inv (constrain m cs) /\ m_dag (constrain m cs) = m_dag m /\
  forall i, nth i (pens (constrain m cs)) [] =
    match assoc i cs with Some j => force_row (n_values (m_dag m)) j | None => nth i (pens m) [] end.
Proof.
  induction cs as [|[i0 j0] cs IH]; intros m Im Hcs Hn.
  - cbn. auto.
  - cbn [map fst] in Hn. inversion Hn as [|? ? Hn1 Hn2]; subst.
    destruct (Hcs i0 j0) as [Hi Hj]; [simpl; auto|].
    destruct (force_row_ok (n_values (m_dag m)) j0 Hj) as [Fr1 Fr2].
    pose proof (set_penalties_spec m i0 (force_row (n_values (m_dag m)) j0) Im Hi Fr1 Fr2) as I1.
    change (constrain m ((i0, j0) :: cs))
      with (constrain (set_penalties m i0 (force_row (n_values (m_dag m)) j0)) cs).
    destruct (IH _ I1) as [J1 [J2 J3]]; auto.
    { intros i j Hij. apply Hcs. simpl; auto. }
    splits; auto. intros i. rewrite J3. cbn [assoc set_penalties m_dag pens].
    destruct (assoc i cs) as [j|] eqn:Ea.
    + rewrite neq_eqb; auto. intros ->. apply Hn1. apply assoc_In in Ea. now apply (in_map fst) in Ea.
    + destruct (eqb i i0) eqn:Ei.
      * apply eqb_eq in Ei. subst i0. apply nth_updnth_same. pose proof (i_pens _ Im) as [Hp _]. lia.
      * apply eqb_neq in Ei. apply nth_updnth_other; auto.
Qed.
Lemma csum_zero l : (forall c, In c l -> c = Fin 0%Qc) -> csum l = Fin 0%Qc.
Proof.
  induction l as [|x l IH]; intros Hl; cbn; auto. fold (csum l). rewrite IH by (intros; apply Hl; simpl; auto).
  rewrite (Hl x) by (simpl; auto). apply cadd_0_l.
Qed.
Lemma csum_inf l : (forall c, In c l -> c <> NaN) -> In Inf l -> csum l = Inf.
Proof.
  induction l as [|x l IH]; intros Hl Hi; [destruct Hi|]. cbn. fold (csum l).
  assert (Hn : csum l <> NaN).
  { clear IH Hi. induction l as [|y l IHl]; [discriminate|]. cbn. fold (csum l).
    apply cadd_notnan; [apply Hl; simpl; auto|]. apply IHl. intros c [<-|Hc]; apply Hl; simpl; auto. }
  destruct Hi as [->|Hi].
  - destruct (csum l); cbn; congruence.
  - rewrite IH by (auto; intros; apply Hl; simpl; auto).
    pose proof (Hl x (or_introl eq_refl)). destruct x; cbn; congruence.
Qed.

Section Api.
  Context {St Ky Vl In : Type} `{EqDec St} `{EqDec Ky} `{EqDec Vl}.
  Context (kle : Ky -> Ky -> bool) (vle : Vl -> Vl -> bool).
  Notation E := (edge St (Ky * Vl) In).
  Notation D := (dag St (Ky * Vl) In).
  Notation tstate := (St * Z)%type.
  Notation tedge := (edge (St * Z) (Ky * Vl) (option nat)).
  Context (d : D) (missing : Vl) (ordering : option (list Vl)) (pd : pdag) (cv : @conversion St Ky Vl In).
  Context (Q : parts kle vle d missing ordering pd cv).
  Context (T : topological (edges d)).
  Context (NN : forall e, List.In e (edges d) -> ecost e <> NaN).
  Notation R := (p_stage kle vle _ _ _ _ _ Q).
  Notation es := (edges d).
  Notation keys := (p_keys kle _ _ R).
  Notation K := (p_K kle _ _ R).
  Notation vals := (p_vals vle d missing ordering).
  Notation sources := (p_sources kle _ _ R).
  Notation tedges := (p_tedges kle _ _ R).
  Notation table := (p_table kle _ _ R).
  Notation tstates := (p_tstates kle _ _ R).
  Notation tfinal := (p_final kle _ _ R).
  Notation tagged := (tagged kle d missing R).
  Notation packs := (packs kle vle d missing ordering pd cv Q).

  Lemma cv_keys : variable_keys cv = keys.
  Proof. exact (f_equal variable_keys (pp_cv kle vle _ _ _ _ _ Q)). Qed.
  Lemma cv_values : variable_values cv = vals.
  Proof. exact (f_equal variable_values (pp_cv kle vle _ _ _ _ _ Q)). Qed.
  Lemma cv_edges : original_edges cv = es.
  Proof. exact (f_equal original_edges (pp_cv kle vle _ _ _ _ _ Q)). Qed.
  Lemma cv_tagged : tagged_edges cv = tedges.
  Proof. exact (f_equal tagged_edges (pp_cv kle vle _ _ _ _ _ Q)). Qed.

  Lemma lift_indices ks p : at_indices (pedges pd) ks p ->
    exists tp, at_indices tedges ks tp /\ Forall2 packs tp p.
  Proof.
    induction 1 as [|k e ks p Hk Hf IH].
    - exists []. split; [apply Forall2_nil|constructor].
    - destruct IH as [tp [H2 H3]].
      destruct (packed_nth kle vle _ _ _ _ _ Q _ _ Hk) as [te [Ht Hp]].
      exists (te :: tp). split; constructor; auto.
  Qed.
  Lemma lower_indices ks tp : at_indices tedges ks tp ->
    exists p, at_indices (pedges pd) ks p /\ Forall2 packs tp p.
  Proof.
    induction 1 as [|k e ks p Hk Hf IH].
    - exists []. split; [apply Forall2_nil|constructor].
    - destruct IH as [tp [H2 H3]].
      destruct (tagged_nth kle vle _ _ _ _ _ Q _ _ Hk) as [te [Ht Hp]].
      exists (te :: tp). split; constructor; auto.
  Qed.
  Lemma lift_path tp p : Forall2 packs tp p -> forall ks s t x,
    at_indices tedges ks tp -> is_path (pedges pd) s p t -> nth_error tstates s = Some x ->
    exists y, nth_error tstates t = Some y /\ is_path tedges x tp y.
  Proof.
    induction 1 as [|te pe tp p Hp Hf IH]; intros ks s t x Hks Hpath Hx.
    - apply is_path_nil_inv in Hpath. subst t. exists x. split; auto. constructor.
    - apply is_path_cons_inv in Hpath as [-> [He Hpath]].
      inversion Hks as [|k ? ks' ? Hk Hks']; subst. destruct Hp as [Ps [Pd [Pc Pa]]].
      destruct (IH ks' _ _ (dest te) Hks' Hpath Pd) as [y [Hy Hty]]. exists y. split; auto.
      assert (Ex : x = source te) by congruence. rewrite Ex. constructor; auto.
      eapply nth_error_In; eauto.
  Qed.
  Lemma lower_path tp p : Forall2 packs tp p -> forall ks s t x y,
    at_indices (pedges pd) ks p -> is_path tedges x tp y -> nth_error tstates s = Some x ->
    nth_error tstates t = Some y -> is_path (pedges pd) s p t.
  Proof.
    induction 1 as [|te pe tp p Hp Hf IH]; intros ks s t x y Hks Hpath Hx Hy.
    - apply is_path_nil_inv in Hpath. subst y.
      rewrite (states_inj kle vle _ _ _ _ _ Q _ _ _ Hx Hy). constructor.
    - apply is_path_cons_inv in Hpath as [-> [He Hpath]].
      inversion Hks as [|k ? ks' ? Hk Hks']; subst. destruct Hp as [Ps [Pd [Pc Pa]]].
      rewrite (states_inj kle vle _ _ _ _ _ Q _ _ _ Hx Ps). constructor.
      + eapply nth_error_In; eauto.
      + eapply IH; eauto.
  Qed.
  Lemma lift_cost tp p : Forall2 packs tp p -> path_cost tp = path_cost p.
  Proof.
    induction 1 as [|te pe tp p Hp Hf IH]; auto.
    destruct Hp as [_ [_ [Ec _]]]. change (cadd (ecost te) (path_cost tp) = cadd (ecost pe) (path_cost p)).
    rewrite IH. f_equal. symmetry. exact Ec.
  Qed.
  Lemma lift_assignments tp p : Forall2 packs tp p ->
    Forall2 (fun a b => index_of keys (fst a) = Some (fst b) /\ index_of vals (snd a) = Some (snd b))
      (path_assignments tp) (path_assignments p).
  Proof.
    induction 1 as [|te pe tp p Hp Hf IH]; [constructor|]. cbn [path_assignments].
    destruct Hp as [_ [_ [_ Pa]]]. destruct (assignment te) as [[k v]|].
    - destruct Pa as [i [j [-> [Hi Hj]]]]. constructor; auto.
    - rewrite Pa. auto.
  Qed.
  Lemma lift_origins ks tp : at_indices tedges ks tp -> original_indices cv ks = origins tp.
  Proof.
    intros Hk. unfold original_indices. rewrite cv_tagged.
    induction Hk as [|k e ks p Hk Hf IH]; auto. cbn [flat_map]. rewrite Hk, IH. reflexivity.
  Qed.

  Lemma mapM_nth {X} (l : list X) ks p :
    mapM (fun k => or_err IndexError (nth_error l k)) ks = Ok p <-> at_indices l ks p.
  Proof.
    rewrite mapM_ok_iff. unfold at_indices. split; intros H2.
    - induction H2; constructor; auto. now apply or_err_ok in H2.
    - induction H2; constructor; auto. now apply or_err_ok.
  Qed.

  Theorem convert_sound ks p : packed_route pd ks p ->
    exists q, route d (original_indices cv ks) q /\
      read_path cv ks = Ok (q, full_assignment (variable_keys cv) missing q) /\
      path_cost q = path_cost p /\
      Forall2 (fun a b => index_of (variable_keys cv) (fst a) = Some (fst b) /\
                          index_of (variable_values cv) (snd a) = Some (snd b))
        (full_assignment (variable_keys cv) missing q) (path_assignments p).
  Proof.
    intros [Hks Hc]. destruct (lift_indices ks p Hks) as [tp [Htp Hpk]].
    destruct (lift_path tp p Hpk ks _ _ _ Htp Hc (initial_index kle vle _ _ _ _ _ Q)) as [y [Hy Hpath]].
    rewrite (final_index kle vle _ _ _ _ _ Q) in Hy. injection Hy as <-.
    destruct (tpath_sound kle _ _ R _ _ _ Hpath) as [q [S1 [S2 [S3 [S4 [S5 [S6 [S7 S8]]]]]]]].
    cbn [fst snd p_final] in S2, S6.
    assert (Ek : map fst (path_assignments tp) = keys).
    { rewrite S6. unfold p_final. cbn [fst snd].
      replace (Z.to_nat (Z.of_nat K - 1 - -1)) with K by lia.
      replace (Z.to_nat (-1 + 1)) with 0 by lia. cbn [skipn].
      unfold p_K. now rewrite firstn_all. }
    assert (Ea : path_assignments tp = full_assignment keys missing q).
    { rewrite S8; rewrite Ek; [reflexivity|apply keys_NoDup]. }
    exists q. rewrite (lift_origins ks tp Htp), cv_keys, cv_values. splits.
    - split; [exact S1|exact S2].
    - unfold read_path. rewrite cv_tagged, cv_edges.
      rewrite (proj2 (mapM_nth tedges ks tp) Htp). cbn [bind].
      change (flat_map _ tp) with (origins tp).
      rewrite (proj2 (mapM_nth es _ q) S1). cbn [bind]. now rewrite Ea.
    - rewrite <- S3. now apply lift_cost.
    - rewrite <- Ea. now apply lift_assignments.
  Qed.

  Lemma finite_path_edges (q : list E) c : path_cost q = Fin c -> forall e, List.In e q -> ecost e <> Inf.
  Proof.
    intros Hc e He. unfold path_cost in Hc. eapply csum_fin; eauto. now apply in_map.
  Qed.

  Theorem convert_complete qs q c : route d qs q -> path_cost q = Fin c ->
    exists ks, (exists p, packed_route pd ks p) /\ original_indices cv ks = qs /\
      forall ks' p', packed_route pd ks' p' -> original_indices cv ks' = qs -> ks' = ks.
  Proof.
    intros [Hqs Hq] Hc. unfold complete_path in Hq.
    destruct (tpath_complete kle _ _ R T _ _ Hq qs Hqs (finite_path_edges q c Hc) (-1) (-1) (-1))
      as [tp [tl [Etl [Hp [Ho Hl]]]]].
    { apply G_init; auto. } { apply P_init; auto. } { lia. }
    assert (Etl' : tl = (Z.of_nat K - 1)%Z).
    { assert (Hne : q <> []).
      { intros ->. apply is_path_nil_inv in Hq. eapply (init_not_final kle _ _ R); eauto. }
      destruct (Hl Hne) as [te [Hte Hd]].
      destruct (In_nth_error _ _ Hte) as [k Hk].
      destruct (tagged_nth kle vle _ _ _ _ _ Q _ _ Hk) as [pe [_ [_ [Pd _]]]].
      apply nth_error_In in Pd. rewrite Hd in Pd. unfold p_tstates in Pd.
      apply in_app_or in Pd as [Pd|[Pd|[]]].
      - exfalso. apply (table_In kle _ _ R) in Pd as [te' [Hte' Es]].
        apply (tedges_In kle _ _ R) in Hte' as [g Hg].
        assert (Hns : forall e, List.In e es -> source e <> final_state d).
        { intros e He C. apply (pp_final kle _ _ R). apply fold_add_new_In. right.
          rewrite <- C. now apply in_map. }
        destruct Hg as [s tag k' lo hi Hs Elo Ehi Htag Hk'|i e t Hi Hd' Hc' Ha Ht'|i e k' v u Hi Hd' Hc' Ha Hu];
          cbn in Es; injection Es as Es1 Es2.
        + subst s tag. unfold upper in Ehi.
          destruct (assoc (final_state d) (p_after kle _ _ R)) as [a|] eqn:Ea.
          * destruct (AF kle _ _ R) as [_ [_ F3]].
            destruct (F3 _ _ Ea) as [C|[e [k0 [v [He [Hse _]]]]]]; [discriminate|].
            eapply Hns; eauto.
          * rewrite Etl in Ehi. injection Ehi as <-. lia.
        + eapply Hns; eauto. eapply nth_error_In; eauto.
        + eapply Hns; eauto. eapply nth_error_In; eauto.
      - unfold p_final in Pd. congruence. }
    subst tl. assert (Hin : forall e, List.In e tp -> List.In e tedges) by (intros e; now apply (is_path_In _ _ _ _ _ Hp)).
    destruct (at_indices_ex tedges tp Hin) as [ks Hks].
    destruct (lower_indices ks tp Hks) as [p [Hpk Hf]].
    exists ks. splits.
    - exists p. split; auto.
      apply (lower_path tp p Hf ks _ _ _ _ Hpk Hp (initial_index kle vle _ _ _ _ _ Q) (final_index kle vle _ _ _ _ _ Q)).
    - rewrite (lift_origins ks tp Hks). auto.
    - intros ks' p' [Hks' Hc'] Ho'. destruct (lift_indices ks' p' Hks') as [tp' [Htp' Hf']].
      destruct (lift_path tp' p' Hf' ks' _ _ _ Htp' Hc' (initial_index kle vle _ _ _ _ _ Q)) as [y [Hy Hpath]].
      rewrite (final_index kle vle _ _ _ _ _ Q) in Hy. injection Hy as <-.
      rewrite (lift_origins ks' tp' Htp') in Ho'.
      assert (tp' = tp) by (eapply (tpath_unique kle _ _ R T); eauto; congruence). subst tp'.
      eapply at_indices_inj; eauto. apply tedges_NoDup.
  Qed.

  (** Penalised costs agree. *)
  Lemma objective_penalized P ks p q : packed_route pd ks p ->
    route d (original_indices cv ks) q -> objective cv missing P q = penalized_cost P p.
  Proof.
    intros Hr Hq. destruct (convert_sound ks p Hr) as [q' [Hq' [_ [Hc Ha]]]].
    assert (q' = q) by (eapply at_indices_fun; [apply Hq'|apply Hq]). subst q'.
    unfold objective, penalized_cost. rewrite Hc. f_equal. f_equal.
    induction Ha as [|a b l l' [H2 H3] Hf IH]; auto. cbn [map]. f_equal; auto.
    unfold penalty_at. now rewrite H2, H3.
  Qed.
  Lemma route_index q : complete_path d q -> exists qs, route d qs q.
  Proof.
    intros Hq. destruct (at_indices_ex es q) as [qs Hqs]; [intros e; now apply (is_path_In _ _ _ _ _ Hq)|].
    exists qs. split; auto.
  Qed.
  Lemma packed_index p : packed_complete pd p -> exists ks, packed_route pd ks p.
  Proof.
    intros Hp. destruct (at_indices_ex (pedges pd) p) as [ks Hks]; [intros e; now apply (is_path_In _ _ _ _ _ Hp)|].
    exists ks. split; auto.
  Qed.
  Lemma penalized_path_cost_fin P p q : penalized_cost P p = Fin q -> exists c, path_cost p = Fin c.
  Proof. unfold penalized_cost. intros E1. apply cadd_fin_inv in E1 as [a [b [Ea _]]]. eauto. Qed.

  (** The least packed cost is the least objective of the original's paths. *)
  Theorem convert_least P c : pens_ok pd P ->
    least (complete_costs pd P) c <-> 
    least (fun x => exists q, complete_path d q /\ (exists y, path_cost q = Fin y) /\ objective cv missing P q = x) c.
  Proof.
    intros HP.
    assert (Hiff : forall x, complete_costs pd P x <->
      exists q, complete_path d q /\ (exists y, path_cost q = Fin y) /\ objective cv missing P q = x).
    { intros x. split.
      - intros [p [Hp Ex]]. destruct (packed_index p Hp) as [ks Hr].
        destruct (convert_sound ks p Hr) as [q [Hq [_ [Hc _]]]]. exists q.
        assert (Hfin : exists y, path_cost q = Fin y).
        { destruct Hr as [Hks Hpc]. destruct (lift_indices ks p Hks) as [tp [Htp Hpk]].
          destruct (lift_path tp p Hpk ks _ _ _ Htp Hpc (initial_index kle vle _ _ _ _ _ Q)) as [y [Hy Hpath]].
          destruct (tpath_sound kle _ _ R _ _ _ Hpath) as [q' [S1 [S2 [S3 [S4 _]]]]].
          rewrite <- (lift_origins ks tp Htp) in S1.
          assert (q' = q) by (eapply at_indices_fun; [apply S1|apply Hq]). subst q'.
          assert (Hnn : forall e, List.In e q -> ecost e <> NaN).
          { intros e He. apply NN. eapply at_indices_In; eauto. }
          clear -S4 Hnn. induction q as [|e q IH]; [exists 0%Qc; reflexivity|].
          destruct IH as [y Hy]; [intros; apply S4; simpl; auto|intros; apply Hnn; simpl; auto|].
          rewrite path_cost_cons, Hy.
          pose proof (S4 e (or_introl eq_refl)). pose proof (Hnn e (or_introl eq_refl)).
          destruct (ecost e) as [z| |]; try congruence. cbn. eauto. }
        splits; auto; [apply Hq|]. rewrite <- Ex. eapply objective_penalized; eauto.
      - intros [q [Hq [[y Hy] Ex]]]. destruct (route_index q Hq) as [qs Hqs].
        destruct (convert_complete qs q y Hqs Hy) as [ks [[p Hp] [Ho _]]].
        exists p. split; [apply Hp|]. rewrite <- Ex. symmetry. eapply objective_penalized; eauto.
        rewrite Ho. auto. }
    unfold least. split; intros [L1 [L2 L3]]; splits; auto.
    - intros x Hx. apply L2. now apply Hiff.
    - destruct L3 as [L3|L3]; auto. left. now apply Hiff.
    - intros x Hx. apply L2. now apply Hiff.
    - destruct L3 as [L3|L3]; auto. left. now apply Hiff.
  Qed.

  (** Extraction returns an optimal original path, with its assignments. *)
  Theorem extract_api m c : inv m -> m_dag m = pd ->
    least (fun x => exists q, complete_path d q /\ (exists y, path_cost q = Fin y) /\ objective cv missing (pens m) q = x) (Fin c) ->
    exists q m', extract_minimal_cost_path_and_assignments m cv
                   = Ok ((q, full_assignment (variable_keys cv) missing q), m') /\
      inv m' /\ m_dag m' = m_dag m /\ pens m' = pens m /\
      complete_path d q /\ objective cv missing (pens m) q = Fin c.
  Proof.
    intros Im Ed Hl.
    assert (HP : pens_ok pd (pens m)) by (rewrite <- Ed; apply (i_pens _ Im)).
    apply (proj2 (convert_least (pens m) (Fin c) HP)) in Hl. rewrite <- Ed in Hl.
    destruct (extract_spec m (outgoing_indices cv) c Im) as [ks [p [m' [E1 [E2 [E3 [E4 [E5 [E6 E7]]]]]]]]]; auto.
    { rewrite Ed. apply (packed_outgoing kle vle _ _ _ _ _ Q). }
    rewrite Ed in E5, E6. assert (Hr : packed_route pd ks p) by (split; auto).
    destruct (convert_sound ks p Hr) as [q [Hq [Hrd [Hc Ha]]]].
    exists q, m'. unfold extract_minimal_cost_path_and_assignments. rewrite E1. cbn [bind fst snd].
    rewrite Hrd. cbn [bind]. splits; auto; [apply Hq|].
    rewrite <- E7. eapply objective_penalized; eauto.
  Qed.

  (** [constrained_best_path]. *)
  Definition satisfies (constraints : list (Ky * Vl)) (q : list E) : Prop :=
    forall k v, List.In (k, v) constraints -> value_of (path_assignments q) missing k = v.

  Lemma full_indices q y : complete_path d q -> path_cost q = Fin y ->
    forall k v, List.In (k, v) (full_assignment keys missing q) ->
    exists i j, index_of keys k = Some i /\ index_of vals v = Some j /\ i < n_keys pd /\ j < n_values pd.
  Proof.
    intros Hq Hy k v Hkv. destruct (route_index q Hq) as [qs Hqs].
    destruct (convert_complete qs q y Hqs Hy) as [ks [[p Hp] [Ho _]]].
    destruct (convert_sound ks p Hp) as [q' [Hq' [_ [_ Ha]]]].
    assert (q' = q) by (rewrite Ho in Hq'; eapply at_indices_fun; [apply Hq'|apply Hqs]). subst q'.
    rewrite cv_keys, cv_values in Ha.
    destruct (F2_In_l _ _ _ _ Ha Hkv) as [[i j] [_ [Hi Hj]]]. cbn in Hi, Hj. exists i, j.
    rewrite (pd_n_keys kle vle _ _ _ _ _ Q), (pd_n_values kle vle _ _ _ _ _ Q).
    splits; auto; eapply index_of_lt; eauto.
  Qed.

  Lemma constrained_objective m cs constraints q y :
    (forall i, i < n_keys pd -> nth i (pens m) [] =
       match assoc i cs with Some j => force_row (n_values pd) j | None => repeat (Fin 0%Qc) (n_values pd) end) ->
    Forall2 (fun kv ij => index_of keys (fst kv) = Some (fst ij) /\ index_of vals (snd kv) = Some (snd ij)) constraints cs ->
    NoDup (map fst constraints) ->
    complete_path d q -> path_cost q = Fin y ->
    (satisfies constraints q -> objective cv missing (pens m) q = Fin y) /\
    (~ satisfies constraints q -> objective cv missing (pens m) q = Inf).
  Proof.
    intros Hp Hcs Hn Hq Hy. unfold objective. rewrite cv_keys, Hy.
    pose proof (full_indices q y Hq Hy) as Hfi.
    (* the penalty of each assignment *)
    assert (Hpen : forall k v, List.In (k, v) (full_assignment keys missing q) ->
      penalty_at cv (pens m) (k, v) =
        match assoc k constraints with
        | Some v' => if eqb v v' then Fin 0%Qc else Inf
        | None => Fin 0%Qc
        end).
    { intros k v Hkv. destruct (Hfi k v Hkv) as [i [j [Hi [Hj [Li Lj]]]]].
      unfold penalty_at. cbn [fst snd]. rewrite cv_keys, cv_values, Hi, Hj, Hp by auto.
      assert (Hassoc : match assoc k constraints with
                       | Some v' => exists j', assoc i cs = Some j' /\ index_of vals v' = Some j'
                       | None => assoc i cs = None end).
      { clear -Hcs Hi Hn. induction Hcs as [|[k0 v0] [i0 j0] l l' [A1 A2] Hf IH]; cbn [assoc]; auto.
        cbn [fst snd] in A1, A2. cbn [map fst] in Hn. inversion Hn; subst.
        destruct (eqb k k0) eqn:Ek.
        - apply eqb_eq in Ek. subst k0. assert (i0 = i) by congruence. subst i0. rewrite eqb_refl. eauto.
        - apply eqb_neq in Ek. assert (Hne : i <> i0) by (intros ->; apply Ek; eapply index_of_inj; eauto).
          rewrite (neq_eqb i i0 Hne). apply IH; auto. }
      destruct (assoc k constraints) as [v'|].
      - destruct Hassoc as [j' [-> Hj']]. pose proof (index_of_lt _ _ _ Hj') as Lj'.
        rewrite (pd_n_values kle vle _ _ _ _ _ Q) in *.
        rewrite nth_force_row by auto. destruct (j =? j') eqn:Ej.
        + apply Nat.eqb_eq in Ej. subst j'. rewrite (index_of_inj _ _ _ _ Hj Hj'). now rewrite eqb_refl.
        + apply Nat.eqb_neq in Ej. rewrite neq_eqb; auto. congruence.
      - rewrite Hassoc. rewrite (nth_indep _ NaN (Fin 0%Qc)) by now rewrite repeat_length.
        apply nth_repeat. }
    split.
    - intros Hs. rewrite csum_zero; [apply cadd_0_r|].
      intros c Hc. apply in_map_iff in Hc as [[k v] [<- Hkv]]. rewrite Hpen by auto.
      destruct (assoc k constraints) as [v'|] eqn:Ea; auto.
      apply assoc_In in Ea. apply Hs in Ea. unfold full_assignment in Hkv.
      apply in_map_iff in Hkv as [k' [Ekv _]]. injection Ekv as -> <-. rewrite Ea. now rewrite eqb_refl.
    - intros Hns. rewrite csum_inf; [reflexivity| |].
      + intros c Hc. apply in_map_iff in Hc as [[k v] [<- Hkv]]. rewrite Hpen by auto.
        destruct (assoc k constraints) as [v'|]; [destruct (eqb v v')|]; discriminate.
      + assert (Hex : exists k v, List.In (k, v) constraints /\ value_of (path_assignments q) missing k <> v).
        { clear -Hns H1. unfold satisfies in Hns. induction constraints as [|[k v] l IH].
          - exfalso. apply Hns. intros k v [].
          - destruct (eq_dec (value_of (path_assignments q) missing k) v) as [Ev|Ev].
            + destruct IH as [k' [v' [Hi Hv]]].
              * intros C. apply Hns. intros k' v' [Ekv|Hi]; [injection Ekv as <- <-; auto|auto].
              * exists k', v'. simpl; auto.
            + exists k, v. simpl; auto. }
        destruct Hex as [k [v [Hkv Hv]]].
        destruct (F2_In_l _ _ _ _ Hcs Hkv) as [[i j] [_ [Hi _]]]. cbn in Hi.
        assert (Hk : List.In k keys) by (apply index_of_Some in Hi; eapply nth_error_In; eauto).
        apply in_map_iff. exists (k, value_of (path_assignments q) missing k).
        assert (Hin : List.In (k, value_of (path_assignments q) missing k) (full_assignment keys missing q)).
        { unfold full_assignment. apply in_map_iff. exists k. auto. }
        split; auto. rewrite Hpen by auto.
        assert (Ea : assoc k constraints = Some v).
        { clear -Hkv Hn. induction constraints as [|[k0 v0] l IH]; [destruct Hkv|].
          cbn [map fst] in Hn. inversion Hn as [|? ? Hn1 Hn2]; subst. cbn [assoc]. destruct Hkv as [E1|Hkv].
          - injection E1 as -> ->. now rewrite eqb_refl.
          - rewrite neq_eqb; auto. intros ->. apply Hn1. now apply (in_map fst) in Hkv. }
        rewrite Ea. now rewrite neq_eqb.
  Qed.

  Theorem constrained_best constraints q0 x0 :
    NoDup (map fst constraints) ->
    (forall k v, List.In (k, v) constraints -> List.In k (variable_keys cv) /\ List.In v (variable_values cv)) ->
    complete_path d q0 -> satisfies constraints q0 -> path_cost q0 = Fin x0 ->
    exists q x, constrained_best_path pd cv constraints = Ok (q, full_assignment (variable_keys cv) missing q) /\
      complete_path d q /\ satisfies constraints q /\ path_cost q = Fin x /\
      forall q', complete_path d q' -> satisfies constraints q' -> cle (Fin x) (path_cost q').
  Proof.
    intros Hn Hin Hq0 Hs0 Hx0. unfold constrained_best_path.
    assert (Hmap : exists cs, mapM (fun kv => do i <- or_err KeyError (index_of (variable_keys cv) (fst kv));
                             do j <- or_err KeyError (index_of (variable_values cv) (snd kv));
                             Ok (i, j)) constraints = Ok cs /\
      Forall2 (fun kv ij => index_of keys (fst kv) = Some (fst ij) /\ index_of vals (snd kv) = Some (snd ij)) constraints cs).
    { clear Hs0 Hn. rewrite cv_keys, cv_values in *. induction constraints as [|[k v] l IH].
      - exists []. split; auto.
      - destruct IH as [cs [Hcs Hf]]; [intros; apply Hin; simpl; auto|].
        destruct (Hin k v (or_introl eq_refl)) as [Hk Hv].
        destruct (index_of_In _ _ Hk) as [i Hi]. destruct (index_of_In _ _ Hv) as [j Hj].
        exists ((i, j) :: cs). cbn [mapM fst snd]. rewrite Hi, Hj. cbn [or_err bind]. rewrite Hcs. cbn [bind].
        split; auto. }
    destruct Hmap as [cs [Ecs Hcs]]. rewrite Ecs. cbn [bind].
    pose proof (convert_layout kle vle _ _ _ _ _ Q T NN) as L.
    assert (I0 : inv (empty_unpenalized_table pd)) by (apply empty_table_inv; auto; apply zero_pens_ok).
    assert (Hbnd : forall i j, List.In (i, j) cs -> i < n_keys pd /\ j < n_values pd).
    { intros i j Hij. destruct (F2_In_r _ _ _ _ Hcs Hij) as [[k v] [_ [Hi Hj]]]. cbn in Hi, Hj.
      rewrite (pd_n_keys kle vle _ _ _ _ _ Q), (pd_n_values kle vle _ _ _ _ _ Q).
      split; eapply index_of_lt; eauto. }
    assert (Hncs : NoDup (map fst cs)).
    { clear -Hcs Hn. induction Hcs as [|[k v] [i j] l l' [A1 A2] Hf IH]; cbn [map fst]; [constructor|].
      cbn [map fst] in Hn. inversion Hn as [|? ? Hn1 Hn2]; subst. constructor; auto. intros C.
      apply in_map_iff in C as [[i' j'] [E1 Hi']]. cbn in E1. subst i'.
      destruct (F2_In_r _ _ _ _ Hf Hi') as [[k' v'] [Hkv [B1 _]]]. cbn in A1, B1.
      apply Hn1. rewrite (index_of_inj _ _ _ _ A1 B1). now apply (in_map fst) in Hkv. }
    destruct (constrain_spec cs (empty_unpenalized_table pd) I0 Hbnd Hncs) as [I1 [D1 P1]].
    set (m := constrain (empty_unpenalized_table pd) cs) in *.
    assert (Hp : forall i, i < n_keys pd -> nth i (pens m) [] =
       match assoc i cs with Some j => force_row (n_values pd) j | None => repeat (Fin 0%Qc) (n_values pd) end).
    { intros i Hi. rewrite P1. cbn [m_dag empty_unpenalized_table empty_table pens].
      destruct (assoc i cs); auto.
      rewrite (nth_indep _ [] (repeat (Fin 0%Qc) (n_values pd))) by now rewrite repeat_length.
      apply nth_repeat. }
    assert (Hobj := fun q y => constrained_objective m cs constraints q y Hp Hcs Hn).
    assert (Hdec : forall q, satisfies constraints q \/ ~ satisfies constraints q).
    { intros q. unfold satisfies. clear -H1. induction constraints as [|[k v] l IH].
      - left. intros k v [].
      - destruct (eq_dec (value_of (path_assignments q) missing k) v) as [Ev|Ev].
        + destruct IH as [IH|IH].
          * left. intros k' v' [Ekv|Hi]; [injection Ekv as <- <-; auto|auto].
          * right. intros C. apply IH. intros; apply C; simpl; auto.
        + right. intros C. apply Ev. apply C. simpl; auto. }
    destruct (minimal_cost_spec m AT_END I1 I) as [x [m' [_ [_ [_ [_ Hl]]]]]]. rewrite D1 in Hl.
    change (m_dag (empty_unpenalized_table pd)) with pd in Hl.
    assert (Hpo : pens_ok pd (pens m)).
    { pose proof (i_pens m I1) as Hpo. rewrite D1 in Hpo. exact Hpo. }
    apply (convert_least (pens m) x Hpo) in Hl.
    assert (Hx : exists xq, x = Fin xq).
    { destruct Hl as [_ [Hm _]]. apply (cle_fin_r x x0). apply Hm. exists q0. splits; eauto. now apply (Hobj q0 x0). }
    destruct Hx as [xq ->].
    destruct (extract_api m xq I1 D1 Hl) as [q [m2 [Ex [_ [_ [_ [Hq Ho]]]]]]].
    assert (Hfin : exists y, path_cost q = Fin y).
    { unfold objective in Ho. apply cadd_fin_inv in Ho as [a [b [Ha _]]]. eauto. }
    destruct Hfin as [y Hy]. destruct (Hobj q y Hq Hy) as [O1 O2].
    destruct (Hdec q) as [Hs|Hs]; [|rewrite (O2 Hs) in Ho; discriminate].
    rewrite (O1 Hs) in Ho. injection Ho as ->.
    exists q, xq. rewrite Ex. cbn [bind fst]. splits; auto.
    intros q' Hq' Hs'. destruct (path_cost q') as [y'| |] eqn:Ey.
    - destruct Hl as [_ [Hm _]]. apply Hm. exists q'. splits; eauto. now apply (Hobj q' y').
    - exact I.
    - exfalso. assert (Hnn : path_cost q' <> NaN); [|auto]. clear Ey. unfold path_cost.
      assert (Hsub : forall e, List.In e q' -> List.In e es) by (intros e He; eapply is_path_In; eauto).
      clear -Hsub NN. induction q' as [|e q' IH]; cbn; [discriminate|]. apply cadd_notnan.
      + apply NN, Hsub. simpl; auto.
      + apply IH. intros; apply Hsub; simpl; auto.
  Qed.

  (** Unknown keys or values are reported. *)
  Theorem constrained_unknown constraints k v :
    List.In (k, v) constraints -> ~ (List.In k (variable_keys cv) /\ List.In v (variable_values cv)) ->
    constrained_best_path pd cv constraints = Err KeyError.
  Proof.
    intros Hi Hnk. unfold constrained_best_path.
    assert (Hx : mapM (fun kv => do i <- or_err KeyError (index_of (variable_keys cv) (fst kv));
                             do j <- or_err KeyError (index_of (variable_values cv) (snd kv));
                             Ok (i, j)) constraints = Err KeyError); [|now rewrite Hx].
    induction constraints as [|[k0 v0] l IH]; [destruct Hi|]. cbn [mapM fst snd].
    destruct Hi as [E1|Hi].
    - injection E1 as -> ->. destruct (index_of (variable_keys cv) k) as [i|] eqn:Ei; auto.
      destruct (index_of (variable_values cv) v) as [j|] eqn:Ej; auto.
      exfalso. apply Hnk. apply index_of_Some, nth_error_In in Ei. apply index_of_Some, nth_error_In in Ej. auto.
    - destruct (index_of (variable_keys cv) k0) as [i|]; auto.
      destruct (index_of (variable_values cv) v0) as [j|]; auto. cbn [or_err bind].
      rewrite IH; auto.
  Qed.
End Api.
