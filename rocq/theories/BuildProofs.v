(** [build_system]: it always succeeds on DAGs that share their keys, and solving
    the system it builds yields the decisions of an allowed choice together with
    its weighted cost. *)

From Coq Require Import List Bool Arith Lia ZArith Sorted QArith Qcanon.
From Verif Require Import Base Graph GatedDag PackedDag PackedDagProofs PackedTables PackedScale Convert ConvertLists ConvertProofs
  ConvertLayout ConvertPaths ConvertApi ConvertSuccess Decisions BuilderPack MapDag SystemSpec BuildSystem DualSolver DualSpec DualLists DualPaths
  DualOps DualInvariant DualSweeps DualUpdates DualGreedy DualApi DualRun DualFeasible Properties_Packed Properties_Dual Ensemble EditTheorems.
Import ListNotations.
Close Scope Qc_scope. Close Scope Q_scope. Close Scope Z_scope. Open Scope nat_scope.

Lemma decided_value ds k : decided ds k = value_of (Ky := dkey) ds DNA k.
Proof. reflexivity. Qed.

(** [d] allows the decisions [ds] at cost [k] exactly if [rel k ds]; all its
    decisions are about keys of [K]. *)
Record allows {S I} `{EqDec S} (rel : Qc -> list decision -> Prop) (K : list dkey) (d : dag S decision I) : Prop := {
  al_top : topological (edges d);
  al_packs : exists r, convert_dag_to_packed dkey_leb dvalue_leb (prune_to_reachable d) DNA (Some all_values) = Ok r;
  al_sound : forall p, complete_path d p -> exists k, path_cost p = Fin k /\ rel k (path_assignments p);
  al_complete : forall k ds, rel k ds -> exists p, complete_path d p /\ path_cost p = Fin k /\ path_assignments p = ds;
  al_keys : forall k ds, rel k ds -> incl (map fst ds) K
}.

Lemma path_assigns {S A I} (p : list (edge S A I)) a :
  List.In a (path_assignments p) <-> exists e, List.In e p /\ assignment e = Some a.
Proof.
  induction p as [|x p IH]; cbn [path_assignments]; [split; [intros []|intros [e [[] _]]]|].
  destruct (assignment x) as [b|] eqn:E; cbn [List.In]; rewrite ?IH; split.
  - intros [->|[e [H1 H2]]]; eauto.
  - intros [e [[<-|H1] H2]]; [left; congruence|eauto].
  - intros [e [H1 H2]]; eauto.
  - intros [e [[<-|H1] H2]]; [congruence|eauto].
Qed.

Section One.
  Context {S I : Type} {sd : EqDec S} (rel : Qc -> list decision -> Prop) (K : list dkey) (d : dag S decision I) (Ad : allows rel K d).
  Context (full : exists k ds, rel k ds /\ map fst ds = K).

  Lemma pruned_paths p : complete_path (prune_to_reachable d) p <-> complete_path d p.
  Proof.
    destruct (prune_spec d (proj1 (al_top _ _ _ Ad))) as [_ [_ [_ Hp]]]. rewrite Hp. split; [tauto|]. intros H. split; auto.
    destruct (al_sound _ _ _ Ad _ H) as [k [Hk _]]. apply csum_finite in Hk. rewrite Forall_map in Hk. exact Hk.
  Qed.
  Lemma pruned_edges e : List.In e (edges (prune_to_reachable d)) -> List.In e (edges d).
  Proof. intros He. unfold prune_to_reachable in He. cbn [edges] in He. now apply filter_In in He. Qed.
  Lemma pruned_topological : topological (edges (prune_to_reachable d)).
  Proof.
    destruct (al_top _ _ _ Ad) as [T1 T2]. split; [|intros e He; apply T2; now apply pruned_edges].
    unfold prune_to_reachable. cbn [edges]. now apply ordered_filter.
  Qed.
  Lemma pruned_assigns k : assigns (Ky := dkey) (Vl := dvalue) (prune_to_reachable d) k <-> List.In k K.
  Proof.
    split.
    - intros [e [v [He Ea]]]. destruct (prune_useful d (proj1 (al_top _ _ _ Ad)) e He) as [_ [[p1 H1] [p2 H2]]].
      assert (Hp : complete_path (prune_to_reachable d) (p1 ++ e :: p2)).
      { unfold complete_path. eapply is_path_app; [exact H1|]. constructor; auto. }
      apply pruned_paths in Hp. destruct (al_sound _ _ _ Ad _ Hp) as [c [_ Hr]]. apply (al_keys _ _ _ Ad _ _ Hr).
      apply in_map_iff. exists (k, v). split; auto. apply path_assigns. exists e. split; [|exact Ea]. apply in_or_app. simpl; auto.
    - intros Hk. destruct full as [c [ds [Hr Ek]]]. destruct (al_complete _ _ _ Ad _ _ Hr) as [p [Hp [_ Ea]]].
      apply pruned_paths in Hp. rewrite <- Ek, <- Ea in Hk. apply in_map_iff in Hk as [[k' v] [E Hin]]. cbn in E. subst k'.
      apply path_assigns in Hin as [e [He Ee]]. exists e, v. split; auto. eapply is_path_In; [exact Hp|exact He].
  Qed.
End One.

Lemma scale_map_costs pd f : scale_packed_dag_costs pd f = map_costs (cscale f) pd.
Proof. reflexivity. Qed.

Lemma packed_tables {S I} (sd : EqDec S) (d : dag S decision I) r :
  convert_dag_to_packed dkey_leb dvalue_leb d DNA (Some all_values) = Ok r ->
  (forall k, List.In k (variable_keys (snd r)) <-> assigns (Ky := dkey) (Vl := dvalue) d k) /\ variable_values (snd r) = all_values.
Proof.
  intros Hr. destruct r as [pd cv]. cbn [snd]. destruct (convert_parts _ _ _ _ _ _ _ Hr) as [Q _].
  pose (R := p_stage dkey_leb dvalue_leb d DNA (Some all_values) pd cv Q).
  assert (Ek : variable_keys cv = p_keys dkey_leb d DNA R) by apply (cv_keys dkey_leb dvalue_leb _ _ _ _ _ Q). split.
  - intros k. rewrite Ek. split; [apply (keys_assigned dkey_leb d DNA R)|].
    intros [e [v [He Ea]]]. eapply (keys_In dkey_leb d DNA R); eauto.
  - rewrite (cv_values dkey_leb dvalue_leb _ _ _ _ _ Q). reflexivity.
Qed.

Lemma assoc_once {A B} `{EqDec A} (l : list (A * B)) k v : NoDup (map fst l) -> List.In (k, v) l -> assoc k l = Some v.
Proof.
  induction l as [|[a b] l IH]; intros N Hin; [destruct Hin|]. destruct Hin as [E|Hi]; inversion N as [|? ? N1 N2]; subst; cbn [assoc].
  - injection E as -> ->. now rewrite eqb_refl.
  - rewrite neq_eqb; auto. intros C. subst a. apply N1. apply in_map_iff. exists (k, v). auto.
Qed.
Lemma Fin_inj (a b : Qc) : Fin a = Fin b -> a = b.
Proof. congruence. Qed.
Lemma times_inj (f a b : Qc) : (0 < f)%Qc -> (a * f)%Qc = (b * f)%Qc -> a = b.
Proof.
  intros Hf E. destruct (Qcle_antisym a b); auto; apply (Qcmult_lt_0_le_reg_r _ _ f Hf); rewrite E; apply Qcle_refl.
Qed.
Section Tagged.
  Context {S S' I I' : Type} {sd : EqDec S} {sd' : EqDec S'} (rel : Qc -> list decision -> Prop) (K : list dkey) (d : dag S decision I).
  Context (Ad : allows rel K d) (full : exists k ds, rel k ds /\ map fst ds = K).
  Context (fs : S -> S') (inj : forall x y, fs x = fs y -> x = y) (fi : I -> I') (f : Qc) (Hf : (0 < f)%Qc).
  (** The DAG that [add_dag] stands for. *)
  Definition tagged : dag S' (dkey * dvalue) I' := map_dag fs (cscale f) fi (prune_to_reachable d).

  Lemma scale_Inf c : cscale f c = Inf <-> c = Inf.
  Proof. destruct c; cbn; split; try discriminate; auto. intros _. now apply cscale_inf. Qed.
  Lemma scale_zero : cscale f (Fin 0%Qc) = Fin 0%Qc.
  Proof. cbn. f_equal. ring. Qed.

  Lemma tagged_sound q : complete_path tagged q ->
    exists k, path_cost q = Fin (k * f)%Qc /\ rel k (path_assignments q).
  Proof.
    intros Hq. unfold tagged in Hq. destruct (complete_unmap fs inj fi (cscale f) _ _ Hq) as [p [-> Hp]].
    apply (pruned_paths rel K d Ad) in Hp. destruct (al_sound _ _ _ Ad _ Hp) as [k [Hk Hr]]. exists k. split.
    - rewrite map_path_cost; [|apply scale_zero|intros; now apply cscale_add].
      transitivity (cscale f (Fin k)); [f_equal; exact Hk|reflexivity].
    - rewrite map_edge_assignments. exact Hr.
  Qed.
  Lemma tagged_complete k ds : rel k ds ->
    exists q, complete_path tagged q /\ path_cost q = Fin (k * f)%Qc /\ path_assignments q = ds.
  Proof.
    intros Hr. destruct (al_complete _ _ _ Ad _ _ Hr) as [p [Hp [Hc Ea]]]. apply (pruned_paths rel K d Ad) in Hp.
    exists (map (map_edge fs (cscale f) fi) p). splits.
    - now apply complete_map.
    - rewrite map_path_cost; [|apply scale_zero|intros; now apply cscale_add].
      transitivity (cscale f (Fin k)); [f_equal; exact Hc|reflexivity].
    - rewrite map_edge_assignments. exact Ea.
  Qed.
  Lemma tagged_assigns k : assigns tagged k <-> List.In k K.
  Proof.
    rewrite <- (pruned_assigns rel K d Ad full). unfold assigns, tagged. cbn [map_dag edges]. split.
    - intros [e' [v [He Ea]]]. apply in_map_iff in He as [e [<- He]]. exists e, v. auto.
    - intros [e [v [He Ea]]]. exists (map_edge fs (cscale f) fi e), v. split; auto. now apply in_map.
  Qed.
  Lemma tagged_packed : K <> [] -> exists r, add_dag fs fi d f = Ok (scale_packed_dag_costs (fst r) f, map_conversion fs (fun c => c) fi (snd r)) /\
    convert_dag_to_packed dkey_leb dvalue_leb (prune_to_reachable d) DNA (Some all_values) = Ok r /\
    packed_input dkey_leb dvalue_leb (Some all_values) (tagged, DNA)
      (scale_packed_dag_costs (fst r) f, map_conversion fs (cscale f) fi (snd r)).
  Proof.
    intros HK. destruct (al_packs _ _ _ Ad) as [r Hr]. exists r. unfold add_dag. rewrite Hr. cbn [bind]. splits; auto.
    unfold packed_input. cbn [fst snd]. splits.
    - apply map_topological; auto. now apply (pruned_topological rel K d Ad).
    - intros e' He. unfold tagged in He. cbn [map_dag edges] in He. apply in_map_iff in He as [e [<- He]]. cbn [map_edge ecost].
      apply cscale_notnan; auto. destruct (prune_useful d (proj1 (al_top _ _ _ Ad)) e He) as [[x Hx] _]. intros C. discriminate (eq_trans (eq_sym Hx) C).
    - assert (G : exists k, List.In k K) by (clear -HK; destruct K as [|k l]; [congruence|exists k; simpl; auto]).
      destruct G as [k Hk]. exists k. now apply tagged_assigns.
    - unfold tagged. pose proof (convert_map dkey_leb dvalue_leb fs inj fi (cscale f) scale_Inf scale_zero
        (prune_to_reachable d) DNA (Some all_values)) as E.
      replace (convert_dag_to_packed dkey_leb dvalue_leb (prune_to_reachable d) DNA (Some all_values)) with (Ok r) in E
        by (symmetry; exact Hr). exact E.
  Qed.
  (** The best path under given decisions costs what the decisions cost at least. *)
  Context (finj : forall x y, fi x = fi y -> x = y).
  Lemma scaled_edges_inj (p p' : list (edge S decision I)) :
    map (map_edge fs (cscale f) fi) p = map (map_edge fs (cscale f) fi) p' -> p = p'.
  Proof.
    revert p'. induction p as [|e p IH]; intros [|e' p'] E; try discriminate; auto. cbn [map] in E.
    assert (E1 : map_edge fs (cscale f) fi e = map_edge fs (cscale f) fi e') by congruence. f_equal; [|apply IH; congruence].
    destruct e as [a b c o i], e' as [a' b' c' o' i']. unfold map_edge in E1. cbn [source dest ecost assignment info] in E1.
    injection E1 as Ea Eb Ec Eo Ei. f_equal; auto. clear -Ec Hf.
    destruct c, c'; rewrite ?(cscale_inf f Hf) in Ec; try discriminate; auto.
    f_equal. apply (times_inj f); auto. apply Fin_inj. exact Ec.
  Qed.
  Lemma satisfies_same asg ds : NoDup (map fst asg) -> (forall k, List.In k (map fst asg) <-> List.In k K) -> incl (map fst ds) K ->
    (forall k v, List.In (k, v) asg -> value_of (Ky := dkey) ds DNA k = v) <-> same_decisions asg ds.
  Proof.
    intros N Ka Hi. split.
    - intros Hs k. destruct (assoc k asg) as [v|] eqn:E.
      + unfold decided at 1. rewrite E. symmetry. apply Hs. now apply assoc_In.
      + unfold decided. rewrite E. apply assoc_None_iff in E. rewrite (proj2 (assoc_None_iff k ds)); auto.
        intros C. apply E, Ka, Hi. exact C.
    - intros Hs k v Hin. rewrite <- decided_value, <- Hs. unfold decided. now rewrite (assoc_once asg k v N Hin).
  Qed.
  Lemma tagged_best r asg : convert_dag_to_packed dkey_leb dvalue_leb (prune_to_reachable d) DNA (Some all_values) = Ok r ->
    NoDup (map fst asg) -> (forall k, List.In k (map fst asg) <-> List.In k K) -> (exists k ds, rel k ds /\ same_decisions asg ds) ->
    exists p x k, constrained_best_path (scale_packed_dag_costs (fst r) f) (map_conversion fs (fun c => c) fi (snd r)) asg =
        Ok (map (map_edge fs (fun c => c) fi) p, x) /\
      complete_path d p /\ path_cost p = Fin k /\ least_cost rel asg k /\ same_decisions asg (path_assignments p).
  Proof.
    intros Hr N Ka [k0 [ds0 [Hrel Hsame]]]. pose proof (pruned_topological rel K d Ad) as PT.
    assert (T : topological (edges tagged)) by (apply map_topological; auto).
    assert (NN : no_nan tagged).
    { intros e' He. unfold tagged in He. cbn [map_dag edges] in He. apply in_map_iff in He as [e [<- He]]. cbn [map_edge ecost].
      apply cscale_notnan; auto. destruct (prune_useful d (proj1 (al_top _ _ _ Ad)) e He) as [[x Hx] _]. intros C. discriminate (eq_trans (eq_sym Hx) C). }
    assert (Hc : convert_dag_to_packed dkey_leb dvalue_leb tagged DNA (Some all_values) =
                 Ok (scale_packed_dag_costs (fst r) f, map_conversion fs (cscale f) fi (snd r))).
    { unfold tagged. pose proof (convert_map dkey_leb dvalue_leb fs inj fi (cscale f) scale_Inf scale_zero
        (prune_to_reachable d) DNA (Some all_values)) as E.
      replace (convert_dag_to_packed dkey_leb dvalue_leb (prune_to_reachable d) DNA (Some all_values)) with (Ok r) in E
        by (symmetry; exact Hr). exact E. }
    destruct (tagged_complete k0 ds0 Hrel) as [q0 [Q1 [Q2 Q3]]].
    destruct (packed_tables _ _ _ Hc) as [Hkeys Hvals]. cbn [snd] in Hkeys, Hvals.
    assert (Hkv : forall k v, List.In (k, v) asg -> List.In k (variable_keys (map_conversion fs (cscale f) fi (snd r))) /\
                    List.In v (variable_values (map_conversion fs (cscale f) fi (snd r)))).
    { intros k v Hin. split.
      - apply Hkeys, tagged_assigns, Ka. apply in_map_iff. exists (k, v). auto.
      - rewrite Hvals. destruct v; simpl; auto. }
    assert (Sat : forall (q : list (edge S' (dkey * dvalue) I')) k, rel k (path_assignments q) -> satisfies DNA asg q <-> same_decisions asg (path_assignments q)).
    { intros q k Hk. apply satisfies_same; auto. exact (al_keys _ _ _ Ad _ _ Hk). }
    destruct (C13_constrained_best_path S' dkey dvalue I' sd' _ _ dkey_leb dvalue_leb tagged DNA (Some all_values) _ _ asg T NN Hc N Hkv)
      as [q [x [B1 [B2 [B3 [B4 B5]]]]]].
    { exists q0, (k0 * f)%Qc. splits; auto. apply (Sat q0 k0); rewrite Q3; auto. }
    destruct (tagged_sound q B2) as [k [Hk Hrk]].
    rewrite best_path_map in B1 |- *.
    destruct (constrained_best_path (scale_packed_dag_costs (fst r) f) (snd r) asg) as [[p asg']|]; [|discriminate]. cbn [rmap fst snd] in *.
    injection B1 as Ep Ea.
    unfold tagged in B2. destruct (complete_unmap fs inj fi (cscale f) _ _ B2) as [p' [Ep' Hp']].
    assert (p = p') by (apply scaled_edges_inj; exact (eq_trans Ep Ep')). subst p'.
    apply (pruned_paths rel K d Ad) in Hp'.
    destruct (al_sound _ _ _ Ad _ Hp') as [k1 [Hk1 Hr1]].
    assert (k1 = k).
    { rewrite Ep', map_path_cost in Hk; [|apply scale_zero|intros; now apply cscale_add].
      assert (Fin (k1 * f)%Qc = Fin (k * f)%Qc) as E by (transitivity (cscale f (path_cost p)); [symmetry; exact (f_equal (cscale f) Hk1)|exact Hk]).
      apply (times_inj f); auto. apply Fin_inj. exact E. }
    subst k1. exists p, asg', k.
    assert (Eq : path_assignments q = path_assignments p) by (rewrite Ep'; apply map_edge_assignments).
    assert (Sq : same_decisions asg (path_assignments q)) by now apply (Sat q k).
    splits; [auto|auto|auto| |now rewrite <- Eq]. split.
    - exists (path_assignments q). split; auto.
    - intros k' ds' Hr' Hs'. destruct (tagged_complete k' ds' Hr') as [q' [P1 [P2 P3]]].
      assert (G : cle (Fin x) (path_cost q')).
      { apply B5; auto. apply (Sat q' k'); rewrite P3; auto. }
      rewrite P2 in G. rewrite B4 in Hk. injection Hk as ->. cbn in G. now apply (Qcmult_lt_0_le_reg_r k k' f).
  Qed.
End Tagged.

(** [make_system] looks only at the packed DAGs and the tables of keys and values. *)
Definition alike_item {S I} (c c' : pdag * @conversion S dkey dvalue I) : Prop :=
  fst c = fst c' /\ variable_keys (snd c) = variable_keys (snd c') /\ variable_values (snd c) = variable_values (snd c').
Lemma make_system_alike {S I} (l l' : list (pdag * @conversion S dkey dvalue I)) props sy :
  Forall2 alike_item l l' -> make_system dkey_leb l props = Ok sy ->
  exists sy', make_system dkey_leb l' props = Ok sy' /\ data sy' = data sy /\ sys_keys sy' = sys_keys sy /\ sys_values sy' = sys_values sy.
Proof.
  intros F E.
  assert (A1 : map fst l = map fst l') by (clear E; induction F as [|x y l l' [H1 _] F IH]; cbn; congruence).
  assert (A2 : map (fun c => variable_keys (snd c)) l = map (fun c => variable_keys (snd c)) l')
    by (clear E A1; induction F as [|x y l l' [_ [H1 _]] F IH]; cbn; congruence).
  assert (A3 : map (fun c => variable_values (snd c)) l = map (fun c => variable_values (snd c)) l')
    by (clear E A1 A2; induction F as [|x y l l' [_ [_ H1]] F IH]; cbn; congruence).
  assert (FM : forall (X : Type) (g : list dkey -> list X) (z : list (pdag * @conversion S dkey dvalue I)),
             flat_map (fun c => g (variable_keys (snd c))) z = flat_map g (map (fun c => variable_keys (snd c)) z)).
  { intros X g z. induction z; cbn; congruence. }
  assert (M1 : map (fun c => empty_unpenalized_table (fst c)) l = map (fun c => empty_unpenalized_table (fst c)) l').
  { rewrite <- !(map_map (fun c : pdag * @conversion S dkey dvalue I => fst c) empty_unpenalized_table).
    f_equal. exact A1. }
  assert (M2 : forall key, map (fun c => index_of (variable_keys (snd c)) key) l = map (fun c => index_of (variable_keys (snd c)) key) l').
  { intros key. rewrite <- !(map_map (fun c : pdag * @conversion S dkey dvalue I => variable_keys (snd c)) (fun z => index_of z key)).
    f_equal. exact A2. }
  assert (M3 : flat_map (fun c => variable_keys (snd c)) l = flat_map (fun c => variable_keys (snd c)) l').
  { rewrite !(FM dkey (fun z => z)). now rewrite A2. }
  assert (M4 : match props with Some w => w | None => map (fun _ => 1%Qc) l end = match props with Some w => w | None => map (fun _ => 1%Qc) l' end).
  { destruct props; auto. clear -F. induction F; cbn; congruence. }
  unfold make_system in *. destruct F as [|[p cv] [p' cv'] l l' [H1 [H2 H3]] F]; [discriminate|].
  destruct (forallb (fun c => eqb (variable_values (snd c)) (variable_values cv)) l) eqn:Ef; [|discriminate].
  assert (Ef' : forallb (fun c => eqb (variable_values (snd c)) (variable_values cv')) l' = true).
  { rewrite forallb_forall in *. intros c' Hc'. apply In_nth_error in Hc' as [j Hj].
    destruct (nth_error l j) as [c|] eqn:Ec.
    - destruct (Forall2_nth _ _ _ F j c c' Ec Hj) as [_ [_ G]]. rewrite <- G. cbn in H3. rewrite <- H3.
      apply Ef. eapply nth_error_In; eauto.
    - apply nth_error_None in Ec. pose proof (F2_length _ _ _ F). apply nth_error_lt in Hj. lia. }
  assert (EK : sort dkey_leb (fold_left add_new (flat_map (fun c => variable_keys (snd c)) ((p', cv') :: l')) []) =
               sort dkey_leb (fold_left add_new (flat_map (fun c => variable_keys (snd c)) ((p, cv) :: l)) [])).
  { f_equal. f_equal. symmetry. exact M3. }
  cbn [snd] in H3.
  rewrite Ef'. eexists. split; [reflexivity|]. injection E as <-. cbn [data sys_keys sys_values].
  splits; [|exact EK|congruence].
  f_equal; try congruence.
  - symmetry. exact M1.
  - transitivity (map (fun key => map (fun c => index_of (variable_keys (snd c)) key) ((p', cv') :: l'))
      (sort dkey_leb (fold_left add_new (flat_map (fun c => variable_keys (snd c)) ((p, cv) :: l)) []))); [f_equal; exact EK|].
    apply map_ext. intros key. symmetry. apply M2.
  - symmetry. exact M4.
  - transitivity (map (fun _ : dkey => repeat (Fin 0%Qc) (length (variable_values cv')))
      (sort dkey_leb (fold_left add_new (flat_map (fun c => variable_keys (snd c)) ((p, cv) :: l)) []))); [f_equal; exact EK|].
    now rewrite H3.
  - f_equal. exact EK.
Qed.

Lemma weighted_min {X} (P : X -> Qc -> Prop) (g : X -> Qc) xs ks :
  (forall x, List.In x xs -> (0 < g x)%Qc) -> Forall2 P xs ks ->
  (forall ks', Forall2 P xs ks' -> (weighted (map g xs) ks <= weighted (map g xs) ks')%Qc) ->
  Forall2 (fun x k => forall k', P x k' -> (k <= k')%Qc) xs ks.
Proof.
  intros Hg F. induction F as [|x k xs ks Hp F IH]; intros M; constructor.
  - intros k' Hk'. specialize (M (k' :: ks) (Forall2_cons _ _ Hk' F)). unfold weighted in M. cbn in M.
    assert (G : (0 < g x)%Qc) by (apply Hg; simpl; auto).
    assert (M' : (k * g x <= k' * g x)%Qc) by (clear -M; qc_lra).
    now apply (Qcmult_lt_0_le_reg_r k k' (g x)).
  - apply IH; [intros; apply Hg; simpl; auto|]. intros ks' F'. specialize (M (k :: ks') (Forall2_cons _ _ Hp F')).
    unfold weighted in M |- *. cbn in M. clear -M. qc_lra.
Qed.

(** Constraining a system only looks at its tables, keys and values. *)
Lemma constrain_alike {S I S' I'} `{EqDec S} `{EqDec S'} (cs : list decision) penalty :
  forall (sy : @system S dkey dvalue I) (sy' : @system S' dkey dvalue I') sy1',
  data sy' = data sy -> sys_keys sy' = sys_keys sy -> sys_values sy' = sys_values sy ->
  constrain_system sy' cs penalty = Ok sy1' -> exists sy1, constrain_system sy cs penalty = Ok sy1 /\
    data sy1 = data sy1' /\ sys_keys sy1 = sys_keys sy1' /\ sys_values sy1 = sys_values sy1' /\ conversion_data sy1 = conversion_data sy.
Proof.
  unfold constrain_system. induction cs as [|kv cs IH]; intros sy sy' sy1' Ed Ek Ev Hc; cbn [foldM] in *.
  - inversion Hc; subst. exists sy. splits; auto.
  - apply bind_ok_inv in Hc as [z [Hz Hc]]. unfold constrain_one in *.
    apply bind_ok_inv in Hz as [v [Hv Hz]]. apply bind_ok_inv in Hz as [a [Ha Hz]]. apply bind_ok_inv in Hz as [t [Ht Hz]]. inversion Hz; subst z; clear Hz.
    rewrite Ek in Hv. rewrite Ev in Ha. rewrite Ed in Ht. rewrite Hv. cbn [bind]. rewrite Ha. cbn [bind]. rewrite Ht. cbn [bind].
    destruct (IH (mkSystem t (sys_keys sy) (sys_values sy) (conversion_data sy)) (mkSystem t (sys_keys sy') (sys_values sy') (conversion_data sy')) sy1' eq_refl Ek Ev Hc) as [sy1 [E1 [E2 [E3 [E4 E5]]]]].
    exists sy1. splits; auto.
Qed.
Lemma fine_unmet penalty A ds (cs : list decision) : (forall kv, List.In kv cs -> A (fst kv) = Some (decided ds (fst kv))) ->
  fine penalty A cs = (penalty * Q2Qc (inject_Z (Z.of_nat (unmet ds cs))))%Qc.
Proof.
  intros HA. unfold fine, missed, unmet. do 5 f_equal. clear penalty. induction cs as [|kv cs IH]; [reflexivity|]. cbn [filter].
  rewrite (HA kv (or_introl eq_refl)), IH; [|intros; apply HA; simpl; auto].
  assert (E : eqb (Some (decided ds (fst kv))) (Some (snd kv)) = eqb (decided ds (fst kv)) (snd kv)).
  { destruct (eqb (decided ds (fst kv)) (snd kv)) eqn:E; [apply eqb_eq in E; rewrite E; apply eqb_refl|].
    destruct (eqb (Some (decided ds (fst kv))) (Some (snd kv))) eqn:E2; auto. apply eqb_eq in E2. injection E2 as E2. rewrite E2, eqb_refl in E. discriminate. }
  now rewrite E.
Qed.

Section Built.
  Context {S1 S2 I1 I2 T : Type} {d1 : EqDec S1} {d2 : EqDec S2}.
  Context (construct : T -> result (dag S1 decision I1)) (constraint : result (dag S2 decision I2)).
  Context (targets : list T) (factors : list Qc).
  Context (rels : T -> Qc -> list decision -> Prop) (choice : list decision -> Prop) (K : list dkey).
  Context (dc : dag S2 decision I2) (Ec : constraint = Ok dc) (Ac : allows (fun k ds => k = 0%Qc /\ choice ds) K dc).
  Context (Ht : forall t, List.In t targets -> exists d, construct t = Ok d /\ allows (rels t) K d).
  Context (full : exists ds, choice ds /\ map fst ds = K).
  Context (couple : forall t ds, List.In t targets -> choice ds -> exists k, rels t k ds).
  Context (Hpos : forall f, List.In f factors -> (0 < f)%Qc) (Hne : factors <> []).

  Let total := fold_right Qcplus 0%Qc factors.
  Let pairs := combine targets factors.
  Let item := ((T * Qc) * (dag S1 decision I1 * (pdag * @conversion S1 dkey dvalue I1)))%type.
  Let ok_item (x : item) : Prop :=
    construct (fst (fst x)) = Ok (fst (snd x)) /\ allows (rels (fst (fst x))) K (fst (snd x)) /\
    convert_dag_to_packed dkey_leb dvalue_leb (prune_to_reachable (fst (snd x))) DNA (Some all_values) = Ok (snd (snd x)).

  Lemma total_positive : (0 < total)%Qc.
  Proof.
    unfold total. clear -Hpos Hne. destruct factors as [|f l]; [congruence|]. clear Hne. revert f Hpos.
    induction l as [|g l IH]; intros f Hp; cbn [fold_right].
    - specialize (Hp f (or_introl eq_refl)). clear -Hp. qc_lra.
    - assert (A : (0 < fold_right Qcplus 0 (g :: l))%Qc) by (apply IH; intros z Hz; apply Hp; simpl in *; tauto).
      specialize (Hp f (or_introl eq_refl)). cbn [fold_right] in A. clear -A Hp. qc_lra.
  Qed.
  Lemma full_choice : exists k ds, (k = 0%Qc /\ choice ds) /\ map fst ds = K.
  Proof. destruct full as [ds [H1 H2]]. eauto. Qed.
  Lemma full_target t : List.In t targets -> exists k ds, rels t k ds /\ map fst ds = K.
  Proof. intros Hin. destruct full as [ds [H1 H2]]. destruct (couple t ds Hin H1) as [k Hk]. eauto. Qed.

  Lemma items_exist : exists tr : list item, map fst tr = pairs /\ Forall ok_item tr.
  Proof.
    assert (G : forall l, (forall x, List.In x l -> List.In (fst x) targets) -> exists tr : list item, map fst tr = l /\ Forall ok_item tr).
    { induction l as [|x l IH]; intros Hl; [exists []; split; auto|].
      destruct IH as [tr [E F]]; [intros; apply Hl; simpl; auto|].
      destruct (Ht (fst x) (Hl x (or_introl eq_refl))) as [d [Hd Ad]]. destruct (al_packs _ _ _ Ad) as [r Hr].
      exists ((x, (d, r)) :: tr). split; [cbn; congruence|]. constructor; auto. unfold ok_item. cbn. auto. }
    apply G. intros [t f] H. cbn. eapply in_combine_l. exact H.
  Qed.

  Section Items.
    Context (tr : list item) (Etr : map fst tr = pairs) (Ftr : Forall ok_item tr).
    Context (rc : pdag * @conversion S2 dkey dvalue I2)
      (Erc : convert_dag_to_packed dkey_leb dvalue_leb (prune_to_reachable dc) DNA (Some all_values) = Ok rc).

    Lemma tr_target x : List.In x tr -> List.In (fst (fst x)) targets.
    Proof.
      intros Hx. assert (A : List.In (fst x) pairs) by (rewrite <- Etr; now apply in_map). destruct (fst x) as [t f].
      cbn. eapply in_combine_l. exact A.
    Qed.
    Lemma tr_factor x : List.In x tr -> (0 < snd (fst x))%Qc.
    Proof.
      intros Hx. assert (A : List.In (fst x) pairs) by (rewrite <- Etr; now apply in_map). destruct (fst x) as [t f].
      cbn. apply Hpos. eapply in_combine_r. exact A.
    Qed.

    Let plain (x : item) : pdag * @conversion (S1 + S2) dkey dvalue (I1 + I2) :=
      (scale_packed_dag_costs (fst (snd (snd x))) (snd (fst x)), map_conversion inl (fun c => c) inl (snd (snd (snd x)))).
    Let scaled (x : item) : pdag * @conversion (S1 + S2) dkey dvalue (I1 + I2) :=
      (scale_packed_dag_costs (fst (snd (snd x))) (snd (fst x)), map_conversion inl (cscale (snd (fst x))) inl (snd (snd (snd x)))).
    Let cplain : pdag * @conversion (S1 + S2) dkey dvalue (I1 + I2) :=
      (scale_packed_dag_costs (fst rc) total, map_conversion inr (fun c => c) inr (snd rc)).
    Let cscaled : pdag * @conversion (S1 + S2) dkey dvalue (I1 + I2) :=
      (scale_packed_dag_costs (fst rc) total, map_conversion inr (cscale total) inr (snd rc)).
    Let weights := map (fun x : item => snd (fst x)) tr ++ [total].

    Lemma build_makes : build_system construct constraint targets (Some factors) = make_system dkey_leb (map plain tr ++ [cplain]) (Some weights).
    Proof.
      unfold build_system. cbn [bind]. fold pairs. rewrite <- Etr.
      assert (M : mapM (fun tf => do d <- construct (fst tf); add_dag inl inl d (snd tf)) (map fst tr) = Ok (map plain tr)).
      { clear Etr. revert Ftr. generalize tr as tr0. intros tr0 F0. induction F0 as [|x l [H1 [_ H2]] F IH]; [reflexivity|]. cbn [map mapM]. rewrite H1. cbn [bind].
        unfold add_dag at 1. rewrite H2. cbn [bind]. rewrite IH. reflexivity. }
      rewrite M. cbn [bind]. fold total. rewrite Ec. cbn [bind]. unfold add_dag. rewrite Erc. cbn [bind].
      rewrite map_map. reflexivity.
    Qed.
    Lemma values_plain c : List.In c (map plain tr ++ [cplain]) -> variable_values (snd c) = all_values.
    Proof.
      intros Hc. apply in_app_or in Hc as [Hc|[<-|[]]].
      - apply in_map_iff in Hc as [x [<- Hx]]. cbn. rewrite Forall_forall in Ftr. destruct (Ftr x Hx) as [_ [_ H]].
        exact (proj2 (packed_tables _ _ _ H)).
      - exact (proj2 (packed_tables _ _ _ Erc)).
    Qed.

    Lemma build_ok : exists sy, build_system construct constraint targets (Some factors) = Ok sy /\
      sys_values sy = all_values /\ (forall k, List.In k (sys_keys sy) <-> List.In k K) /\ NoDup (sys_keys sy) /\
      num_keys (data sy) = length (sys_keys sy).
    Proof.
      rewrite build_makes.
      assert (Hm : exists sy, make_system dkey_leb (map plain tr ++ [cplain]) (Some weights) = Ok sy).
      { pose proof values_plain as V. destruct (map plain tr ++ [cplain]) as [|[p cv] l] eqn:El; [destruct (map plain tr); discriminate|].
        unfold make_system. rewrite (proj2 (forallb_forall _ _)); [eauto|]. intros c Hc. apply eqb_eq.
        pose proof (V c (or_intror Hc)) as V1. pose proof (V (p, cv) (or_introl eq_refl)) as V2. cbn [snd] in V2. rewrite V1, V2. reflexivity. }
      destruct Hm as [sy Hm]. exists sy. split; auto.
      destruct (made dkey_leb _ _ sy Hm) as [c0 [rest [El [Hv [Ek [_ Ed]]]]]].
      assert (Hc0 : List.In cplain (map plain tr ++ [cplain])) by (apply in_or_app; simpl; auto).
      splits.
      - rewrite <- (Hv cplain); auto. now apply values_plain.
      - intros k. rewrite Ek, sort_In, fold_add_new_In, in_flat_map. split.
        + intros [[]|[c [Hc Hk]]]. apply in_app_or in Hc as [Hc|[<-|[]]].
          * apply in_map_iff in Hc as [x [<- Hx]]. cbn in Hk. pose proof Ftr as F. rewrite Forall_forall in F. destruct (F x Hx) as [_ [Ax H]].
            apply (proj1 (packed_tables _ _ _ H)) in Hk.
            apply (pruned_assigns _ _ _ Ax (full_target _ (tr_target _ Hx))). exact Hk.
          * cbn in Hk. apply (proj1 (packed_tables _ _ _ Erc)) in Hk.
            apply (pruned_assigns _ _ _ Ac full_choice). exact Hk.
        + intros Hk. right. exists cplain. split; auto. cbn. apply (proj1 (packed_tables _ _ _ Erc)).
          apply (pruned_assigns _ _ _ Ac full_choice). exact Hk.
      - exact (system_keys_NoDup dkey_leb _ dkey_order _ sy Hm).
      - rewrite Ed. reflexivity.
    Qed.

    (** The DAGs the system stands for. *)
    Let tg (x : item) : dag (S1 + S2) (dkey * dvalue) (I1 + I2) := tagged (fst (snd x)) inl inl (snd (fst x)).
    Let tgc : dag (S1 + S2) (dkey * dvalue) (I1 + I2) := tagged dc inr inr total.
    Let inputs := map (fun d => (d, DNA)) (map tg tr ++ [tgc]).
    Context (HK : K <> []).

    Lemma inl_inj : forall x y : S1, inl x = inl y :> S1 + S2 -> x = y.
    Proof. intros x y E. now injection E. Qed.
    Lemma inr_inj : forall x y : S2, inr x = inr y :> S1 + S2 -> x = y.
    Proof. intros x y E. now injection E. Qed.

    Lemma inputs_packed : Forall2 (packed_input dkey_leb dvalue_leb (Some all_values)) inputs (map scaled tr ++ [cscaled]).
    Proof.
      unfold inputs. rewrite map_app. apply Forall2_app.
      - assert (G : forall l, incl l tr -> Forall2 (packed_input dkey_leb dvalue_leb (Some all_values)) (map (fun d => (d, DNA)) (map tg l)) (map scaled l)).
        { induction l as [|x l IH]; intros Hl; cbn [map]; constructor; [|apply IH; intros z Hz; apply Hl; simpl; auto].
          assert (Hx : List.In x tr) by (apply Hl; simpl; auto). pose proof Ftr as F. rewrite Forall_forall in F. destruct (F x Hx) as [_ [Ax H]].
          destruct (tagged_packed _ _ _ Ax (full_target _ (tr_target _ Hx)) inl inl_inj (inl : I1 -> I1 + I2) _ (tr_factor _ Hx) HK) as [r [_ [Hr P]]].
          assert (r = snd (snd x)) by congruence. subst r. exact P. }
        apply G. apply incl_refl.
      - constructor; [|constructor].
        destruct (tagged_packed _ _ _ Ac full_choice inr inr_inj (inr : I2 -> I1 + I2) _ total_positive HK) as [r [_ [Hr P]]].
        assert (r = rc) by congruence. subst r. exact P.
    Qed.

    (** Agreeing paths are an allowed choice and, for each target, a cost at which
        it can be had. *)
    Let fits (A : dkey -> option dvalue) (ds : list decision) : Prop := forall k, List.In k K -> A k = Some (decided ds k).
    Lemma agreeing_fits A qs : agreeing inputs A qs -> exists ks,
      Forall2 (fun (x : item) k => exists ds, rels (fst (fst x)) k ds /\ fits A ds) tr ks /\
      (exists ds, choice ds /\ fits A ds) /\ total_cost qs = Fin (weighted (map (fun x : item => snd (fst x)) tr) ks).
    Proof.
      unfold agreeing, inputs. rewrite map_app. intros F. apply Forall2_app_inv_l in F as [qs1 [qs2 [F1 [F2 ->]]]].
      assert (G : forall l qs, incl l tr -> Forall2 (fun i q => complete_path (fst i) q /\
                forall k, assigns (fst i) k -> A k = Some (value_of (path_assignments q) (snd i) k)) (map (fun d => (d, DNA)) (map tg l)) qs ->
              exists ks, Forall2 (fun (x : item) k => exists ds, rels (fst (fst x)) k ds /\ fits A ds) l ks /\
                total_cost qs = Fin (weighted (map (fun x : item => snd (fst x)) l) ks)).
      { induction l as [|x l IH]; intros qs Hl F; cbn [map] in F.
        - inversion F; subst. exists []. split; [constructor|reflexivity].
        - inversion F as [|? q ? qs' [Hq Hv] F' E1 E2]; subst. cbn [fst snd] in *.
          destruct (IH qs' (fun z Hz => Hl z (or_intror Hz)) F') as [ks [G1 G2]].
          assert (Hx : List.In x tr) by (apply Hl; simpl; auto). pose proof Ftr as Fx. rewrite Forall_forall in Fx. destruct (Fx x Hx) as [_ [Ax H]].
          destruct (tagged_sound _ _ _ Ax inl inl_inj (inl : I1 -> I1 + I2) _ (tr_factor _ Hx) _ Hq) as [k [Hk Hr]].
          exists (k :: ks). split.
          + constructor; auto. eexists. split; [exact Hr|]. intros key Hkey. apply Hv.
            apply (tagged_assigns _ _ _ Ax (full_target _ (tr_target _ Hx))). exact Hkey.
          + unfold total_cost in *. cbn [map csum fold_right]. unfold csum in G2. rewrite G2, Hk. reflexivity. }
      destruct (G tr qs1 (incl_refl _) F1) as [ks [G1 G2]]. exists ks.
      cbn [map] in F2. inversion F2 as [|? q ? qs' [Hq Hv] F' E1 E2]; subst. inversion F'; subst. cbn [fst snd] in *.
      destruct (tagged_sound _ _ _ Ac inr inr_inj (inr : I2 -> I1 + I2) _ total_positive _ Hq) as [k [Hk [E0 Hr]]]. splits; auto.
      - eexists. split; [exact Hr|]. intros key Hkey. apply Hv. apply (tagged_assigns _ _ _ Ac full_choice). exact Hkey.
      - unfold total_cost in *. rewrite map_app, csum_app, G2. cbn [map csum fold_right]. rewrite Hk, E0. cbn. f_equal. ring.
    Qed.
    Lemma fits_agreeing A ks ds0 : Forall2 (fun (x : item) k => exists ds, rels (fst (fst x)) k ds /\ fits A ds) tr ks ->
      choice ds0 -> fits A ds0 -> exists qs, agreeing inputs A qs /\ total_cost qs = Fin (weighted (map (fun x : item => snd (fst x)) tr) ks).
    Proof.
      intros F Hc Hf.
      assert (G : forall l ks, incl l tr -> Forall2 (fun (x : item) k => exists ds, rels (fst (fst x)) k ds /\ fits A ds) l ks ->
              exists qs, Forall2 (fun i q => complete_path (fst i) q /\
                forall k, assigns (fst i) k -> A k = Some (value_of (path_assignments q) (snd i) k)) (map (fun d => (d, DNA)) (map tg l)) qs /\
              total_cost qs = Fin (weighted (map (fun x : item => snd (fst x)) l) ks)).
      { clear F. intros l ks' Hl F. induction F as [|x k l ks' [ds [Hr Hd]] F IH]; [exists []; split; [constructor|reflexivity]|].
        destruct IH as [qs [G1 G2]]; [intros z Hz; apply Hl; simpl; auto|].
        assert (Hx : List.In x tr) by (apply Hl; simpl; auto). pose proof Ftr as Fx. rewrite Forall_forall in Fx. destruct (Fx x Hx) as [_ [Ax H]].
        destruct (tagged_complete _ _ _ Ax (inl : S1 -> S1 + S2) (inl : I1 -> I1 + I2) (snd (fst x)) (tr_factor _ Hx) k ds Hr) as [q [Hq [Hcq Ha]]].
        exists (q :: qs). split.
        - constructor; auto. cbn [fst snd]. split; [exact Hq|]. intros key Hkey.
          apply (tagged_assigns _ _ _ Ax (full_target _ (tr_target _ Hx))) in Hkey. rewrite (Hd key Hkey), decided_value.
          do 2 f_equal. symmetry. exact Ha.
        - unfold total_cost in *. cbn [map csum fold_right]. unfold csum in G2. rewrite G2, Hcq. reflexivity. }
      destruct (G tr ks (incl_refl _) F) as [qs [G1 G2]].
      destruct (tagged_complete _ _ _ Ac (inr : S2 -> S1 + S2) (inr : I2 -> I1 + I2) total total_positive 0%Qc ds0 (conj eq_refl Hc)) as [q [Hq [Hcq Ha]]].
      exists (qs ++ [q]). split.
      - unfold agreeing, inputs. rewrite map_app. apply Forall2_app; [exact G1|]. constructor; [|constructor]. cbn [fst snd].
        split; [exact Hq|]. intros key Hkey. apply (tagged_assigns _ _ _ Ac full_choice) in Hkey. rewrite (Hf key Hkey), decided_value.
        do 2 f_equal. symmetry. exact Ha.
      - unfold total_cost in *. rewrite map_app, csum_app, G2. cbn [map csum fold_right]. rewrite Hcq. cbn. f_equal. ring.
    Qed.

    Lemma same_system sy : make_system dkey_leb (map plain tr ++ [cplain]) (Some weights) = Ok sy ->
      exists sy', make_system dkey_leb (map scaled tr ++ [cscaled]) (Some weights) = Ok sy' /\
        data sy' = data sy /\ sys_keys sy' = sys_keys sy /\ sys_values sy' = sys_values sy.
    Proof.
      apply make_system_alike. apply Forall2_app; [|constructor; [|constructor]; unfold alike_item; cbn; auto].
      generalize tr as l. induction l as [|x l IH]; cbn [map]; constructor; auto. unfold alike_item. cbn. auto.
    Qed.
    Lemma weights_fit (l : list (pdag * @conversion (S1 + S2) dkey dvalue (I1 + I2))) : length l = length tr ->
      forall c, length weights = length (l ++ [c]) /\ forall x, List.In x weights -> (0 < x)%Qc.
    Proof.
      intros El c. unfold weights. rewrite !app_length, map_length, El. cbn [length]. split; auto.
      intros x Hx. apply in_app_or in Hx as [Hx|[<-|[]]]; [|apply total_positive].
      apply in_map_iff in Hx as [y [<- Hy]]. now apply tr_factor.
    Qed.
    Lemma tagged_cover d k : List.In d (map tg tr) -> assigns d k -> assigns tgc k.
    Proof.
      intros Hd Hk. apply in_map_iff in Hd as [x [<- Hx]]. pose proof Ftr as Fx. rewrite Forall_forall in Fx. destruct (Fx x Hx) as [_ [Ax H]].
      apply (tagged_assigns _ _ _ Ax (full_target _ (tr_target _ Hx))) in Hk. apply (tagged_assigns _ _ _ Ac full_choice). exact Hk.
    Qed.
    Lemma tagged_follow p c : complete_path tgc p -> path_cost p = Fin c -> forall d, List.In d (map tg tr) ->
      exists q y, complete_path d q /\ path_cost q = Fin y /\ path_assignments q = path_assignments p.
    Proof.
      intros Hp _ d Hd. apply in_map_iff in Hd as [x [<- Hx]]. pose proof Ftr as Fx. rewrite Forall_forall in Fx. destruct (Fx x Hx) as [_ [Ax H]].
      destruct (tagged_sound _ _ _ Ac inr inr_inj (inr : I2 -> I1 + I2) _ total_positive _ Hp) as [k [Hk [E0 Hr]]].
      destruct (couple _ _ (tr_target _ Hx) Hr) as [k' Hk'].
      destruct (tagged_complete _ _ _ Ax (inl : S1 -> S1 + S2) (inl : I1 -> I1 + I2) (snd (fst x)) (tr_factor _ Hx) k' _ Hk') as [q [Hq [Hcq Ha]]].
      exists q, (k' * snd (fst x))%Qc. auto.
    Qed.
    Lemma tagged_some : exists p c, complete_path tgc p /\ path_cost p = Fin c.
    Proof.
      destruct full as [ds [H1 H2]].
      destruct (tagged_complete _ _ _ Ac (inr : S2 -> S1 + S2) (inr : I2 -> I1 + I2) total total_positive 0%Qc ds (conj eq_refl H1)) as [q [Hq [Hcq _]]].
      eauto.
    Qed.

    Lemma fits_same asg d0 : (forall k, List.In k (map fst asg) <-> List.In k K) -> incl (map fst d0) K ->
      fits (fun k => assoc k asg) d0 <-> same_decisions asg d0.
    Proof.
      intros Ka Hi. split.
      - intros F k. destruct (in_dec eq_dec k K) as [Hk|Hk].
        + specialize (F k Hk). unfold decided at 1. cbn in F. now rewrite F.
        + assert (H1 : assoc k asg = None) by (apply assoc_None_iff; intros H; apply Hk, Ka; exact H).
          assert (H2 : assoc k d0 = None) by (apply assoc_None_iff; intros H; apply Hk, Hi; exact H).
          unfold decided. now rewrite H1, H2.
      - intros F k Hk. specialize (F k). unfold decided at 1 in F. destruct (assoc k asg) as [v|] eqn:E.
        + rewrite <- F. reflexivity.
        + apply assoc_None_iff in E. destruct E. now apply Ka.
    Qed.
    Lemma items_same (P : T -> Qc -> Prop) ks : Forall2 (fun (x : item) k => P (fst (fst x)) k) tr ks <->
      Forall2 P (map fst pairs) ks.
    Proof.
      rewrite <- Etr, map_map. clear. revert ks. induction tr as [|x l IH]; intros ks; cbn [map].
      - split; intros H; inversion H; constructor.
      - split; intros H; inversion H; subst; constructor; auto; now apply IH.
    Qed.
    Lemma items_factors : map (fun x : item => snd (fst x)) tr = map snd pairs.
    Proof. rewrite <- Etr, map_map. reflexivity. Qed.

    Context (sy : @system (S1 + S2) dkey dvalue (I1 + I2)) (Hsy : build_system construct constraint targets (Some factors) = Ok sy).

    Lemma built_terminates_items clock tol : (0 < tol)%Qc ->
      exists fuel res s', forall more, solve_system_with_sweeps (fuel + more) clock tol (data sy) = Some (Ok (res, s')).
    Proof.
      intros Hpt. rewrite build_makes in Hsy. destruct (same_system sy Hsy) as [sy' [Hm [Ed [Ek Ev]]]]. rewrite <- Ed.
      assert (HN : NoDup (sys_values sy')).
      { destruct build_ok as [sy0 [E0 [V0 _]]]. rewrite build_makes in E0. assert (sy0 = sy) by congruence. subst sy0.
        rewrite Ev, V0. unfold all_values. repeat constructor; simpl; intuition discriminate. }
      apply (dominated_terminates dkey_leb dvalue_leb (Some all_values) inputs _ inputs_packed ltac:(discriminate) dkey_order
        (Some weights) sy' Hm (weights_fit (map scaled tr) (map_length _ _) cscaled) HN DNA (map tg tr) tgc eq_refl tagged_cover tagged_follow tagged_some clock tol Hpt).
    Qed.
    (** Cheapest agreeing paths give each target its least cost. *)
    Lemma items_least asg qs c : map fst asg = sys_keys sy -> agreeing inputs (fun k => assoc k asg) qs -> total_cost qs = Fin c ->
      (forall qs' y, agreeing inputs (fun k => assoc k asg) qs' -> total_cost qs' = Fin y -> (c <= y)%Qc) ->
      exists ks ds, choice ds /\ same_decisions asg ds /\
        Forall2 (fun t k => least_cost (rels t) asg k) (map fst pairs) ks /\ c = weighted (map snd pairs) ks.
    Proof.
      intros G3 G4 G5 G6. destruct build_ok as [sy0 [E0 [V0 [K0 [N0 _]]]]]. assert (sy0 = sy) by congruence. subst sy0.
      destruct (agreeing_fits _ _ G4) as [ks [F1 [[ds [F2 F2']] F3]]].
      assert (Ka : forall k, List.In k (map fst asg) <-> List.In k K) by (intros k; rewrite G3; apply K0).
      set (A := fun k => assoc k asg) in *.
      set (P := fun (x : item) k => exists ds, rels (fst (fst x)) k ds /\ fits A ds) in *.
      assert (Hmin : forall ks', Forall2 P tr ks' ->
                (weighted (map (fun x : item => snd (fst x)) tr) ks <= weighted (map (fun x : item => snd (fst x)) tr) ks')%Qc).
      { intros ks' F'. destruct (fits_agreeing A ks' ds F' F2 F2') as [qs' [A1 A2]]. specialize (G6 qs' _ A1 A2).
        rewrite F3 in G5. injection G5 as G5. rewrite G5. exact G6. }
      pose proof (weighted_min P _ tr ks tr_factor F1 Hmin) as Least.
      exists ks, ds. splits; auto.
      - apply (fits_same asg ds Ka (al_keys _ _ _ Ac 0%Qc ds (conj eq_refl F2))). exact F2'.
      - apply items_same. clear -F1 Least Ka Ftr. revert F1 Least. revert ks. revert Ftr. generalize tr as l.
        intros l Fl. induction Fl as [|y l [_ [Ay _]] Fl IH]; intros ks F1 Least; inversion F1 as [|? k0 ? ks0 Hk0 Hks0]; subst; constructor.
        * inversion Least as [|? ? ? ? Hl ?]; subst. destruct Hk0 as [d0 [Hr Hd]]. split.
          { exists d0. split; auto. apply (fits_same asg d0 Ka); [exact (al_keys _ _ _ Ay _ _ Hr)|exact Hd]. }
          intros k' ds' Hr' Hs'. apply Hl. exists ds'. split; auto. apply (fits_same asg ds' Ka); [exact (al_keys _ _ _ Ay _ _ Hr')|exact Hs'].
        * inversion Least; subst. apply IH; auto.
      - rewrite <- items_factors. congruence.
    Qed.
    (** A choice with a cost for every target gives agreeing paths. *)
    Lemma items_agree ds ks : choice ds ->
      Forall2 (fun t k => exists ds', rels t k ds' /\ same_decisions ds ds') (map fst pairs) ks ->
      exists qs, agreeing inputs (fun k => Some (decided ds k)) qs /\ total_cost qs = Fin (weighted (map snd pairs) ks).
    Proof.
      intros Hc Hks. destruct (fits_agreeing (fun k => Some (decided ds k)) ks ds) as [qs [A1 A2]].
      - apply items_same in Hks. clear -Hks. induction Hks as [|x k l ks [d' [H1 H2]] _ IH]; constructor; auto. exists d'. split; auto.
        intros key _. f_equal. apply H2.
      - exact Hc.
      - intros key _. reflexivity.
      - exists qs. split; auto. now rewrite <- items_factors.
    Qed.
    Lemma built_run_items fuel clock tol res s' : solve_system_with_sweeps fuel clock tol (data sy) = Some (Ok (res, s')) ->
      (forall dir, exists x q asg ks ds, greedy_extract s' dir = Ok (map Some x, Fin q) /\
        assignments_from_assignment_vector sy x = Ok asg /\ map fst asg = sys_keys sy /\
        choice ds /\ same_decisions asg ds /\
        Forall2 (fun t k => least_cost (rels t) asg k) (map fst pairs) ks /\ q = weighted (map snd pairs) ks) /\
      (forall b ds ks, List.In b (objective_at_step res) -> choice ds ->
        Forall2 (fun t k => exists ds', rels t k ds' /\ same_decisions ds ds') (map fst pairs) ks ->
        cle b (Fin (weighted (map snd pairs) ks))).
    Proof.
      intros E. pose proof Hsy as Hm0. rewrite build_makes in Hm0. destruct (same_system sy Hm0) as [sy' [Hm [Ed [Ek Ev]]]].
      destruct build_ok as [sy0 [E0 [V0 [K0 [N0 _]]]]]. assert (sy0 = sy) by congruence. subst sy0.
      assert (HN : NoDup (sys_values sy')).
      { rewrite Ev, V0. unfold all_values. repeat constructor; simpl; intuition discriminate. }
      rewrite <- Ed in E. split.
      - intros dir. destruct (dominated_run dkey_leb dvalue_leb (Some all_values) inputs _ inputs_packed ltac:(discriminate) dkey_order
          (Some weights) sy' Hm (weights_fit (map scaled tr) (map_length _ _) cscaled) HN DNA (map tg tr) tgc eq_refl tagged_cover tagged_follow tagged_some
          fuel clock tol res s' dir E) as [_ [x [q [asg [qs [G1 [G2 [G3 [G4 [G5 G6]]]]]]]]]].
        rewrite Ek in G3. destruct (items_least asg qs q G3 G4 G5 G6) as [ks [ds [L1 [L2 [L3 L4]]]]].
        exists x, q, asg, ks, ds. splits; auto. rewrite <- G2. unfold assignments_from_assignment_vector. now rewrite Ek, Ev.
      - intros b ds ks Hb Hc Hks. destruct (items_agree ds ks Hc Hks) as [qs [A1 A2]]. rewrite <- A2.
        apply (C14_lower_bounds_for_agreeing_paths _ _ _ _ _ _ _ dkey_leb dvalue_leb (Some all_values) inputs _ (Some weights) sy' dkey_order ltac:(discriminate)
            inputs_packed (weights_fit (map scaled tr) (map_length _ _) cscaled) Hm fuel clock tol res s' E _ qs b A1 Hb).
    Qed.
    Lemma built_constrained_items cs (penalty : Qc) : (forall kv, List.In kv cs -> List.In (fst kv) K) ->
      exists sy1, constrain_system sy cs (Fin penalty) = Ok sy1 /\ sys_keys sy1 = sys_keys sy /\
      (forall clock tol, (0 < tol)%Qc -> exists fuel res s', forall more, solve_system_with_sweeps (fuel + more) clock tol (data sy1) = Some (Ok (res, s'))) /\
      forall fuel clock tol res s', solve_system_with_sweeps fuel clock tol (data sy1) = Some (Ok (res, s')) ->
      (forall dir, exists x asg ks ds,
        greedy_extract s' dir = Ok (map Some x, Fin (weighted (map snd pairs) ks + penalty * Q2Qc (inject_Z (Z.of_nat (unmet asg cs))))%Qc) /\
        assignments_from_assignment_vector sy1 x = Ok asg /\ map fst asg = sys_keys sy /\
        choice ds /\ same_decisions asg ds /\
        Forall2 (fun t k => least_cost (rels t) asg k) (map fst pairs) ks) /\
      (forall b ds ks, List.In b (objective_at_step res) -> choice ds ->
        Forall2 (fun t k => exists ds', rels t k ds' /\ same_decisions ds ds') (map fst pairs) ks ->
        cle b (Fin (weighted (map snd pairs) ks + penalty * Q2Qc (inject_Z (Z.of_nat (unmet ds cs))))%Qc)).
    Proof.
      intros Hcs. pose proof Hsy as Hm0. rewrite build_makes in Hm0. destruct (same_system sy Hm0) as [sy' [Hm [Ed [Ek Ev]]]].
      destruct build_ok as [sy0 [E0 [V0 [K0 [N0 _]]]]]. assert (sy0 = sy) by congruence. subst sy0.
      assert (HN : NoDup (sys_values sy')).
      { rewrite Ev, V0. unfold all_values. repeat constructor; simpl; intuition discriminate. }
      assert (Hk : Forall (known sy') cs).
      { apply Forall_forall. intros kv Hkv. split; [rewrite Ek; apply K0, Hcs, Hkv|]. rewrite Ev, V0. unfold all_values. destruct (snd kv); simpl; auto. }
      destruct (constrained_run dkey_leb dvalue_leb (Some all_values) inputs _ inputs_packed ltac:(discriminate) dkey_order
          (Some weights) sy' Hm (weights_fit (map scaled tr) (map_length _ _) cscaled) HN DNA (map tg tr) tgc eq_refl tagged_cover tagged_follow tagged_some
          cs penalty Hk) as [sy1' [C1 [C2 [C3 [C4 [C5 [C6 C7]]]]]]].
      destruct (constrain_alike cs (Fin penalty) sy sy' sy1' Ed Ek Ev C1) as [sy1 [D1 [D2 [D3 [D4 D5]]]]].
      exists sy1. splits; auto; [congruence|rewrite D2; exact C6|]. rewrite D2. intros fuel clock tol res s' E. destruct (C7 _ _ _ _ _ E) as [W1 W2]. split.
      - intros dir. destruct (W1 dir) as [x [c [asg [qs [G1 [G2 [G3 [G4 [G5 G6]]]]]]]]].
        rewrite Ek in G3. destruct (items_least asg qs c G3 G4 G5 G6) as [ks [ds [L1 [L2 [L3 L4]]]]].
        exists x, asg, ks, ds. splits; auto.
        + rewrite G1, <- L4, (fine_unmet penalty _ asg cs); [reflexivity|]. intros kv Hkv.
          destruct (assoc (fst kv) asg) as [v|] eqn:Ea; [unfold decided; now rewrite Ea|].
          apply assoc_None_iff in Ea. destruct Ea. rewrite G3. apply K0, Hcs, Hkv.
        + unfold assignments_from_assignment_vector in *. rewrite D3, D4. exact G2.
      - intros b ds ks Hb Hc Hks. destruct (items_agree ds ks Hc Hks) as [qs [A1 A2]].
        pose proof (W2 _ qs _ b A1 A2 Hb) as W. rewrite (fine_unmet penalty _ ds cs) in W; auto.
    Qed.
    Lemma solved_tables fuel clock tol res s' : solve_system_with_sweeps fuel clock tol (data sy) = Some (Ok (res, s')) ->
      map m_dag (tables s') = map m_dag (tables (data sy)).
    Proof.
      intros E. pose proof Hsy as Hm0. rewrite build_makes in Hm0. destruct (same_system sy Hm0) as [sy' [Hm [Ed [Ek Ev]]]].
      destruct build_ok as [sy0 [E0 [V0 [K0 [N0 _]]]]]. assert (sy0 = sy) by congruence. subst sy0.
      assert (HN : NoDup (sys_values sy')).
      { rewrite Ev, V0. unfold all_values. repeat constructor; simpl; intuition discriminate. }
      rewrite <- Ed in E.
      destruct (dominated_run dkey_leb dvalue_leb (Some all_values) inputs _ inputs_packed ltac:(discriminate) dkey_order
          (Some weights) sy' Hm (weights_fit (map scaled tr) (map_length _ _) cscaled) HN DNA (map tg tr) tgc eq_refl tagged_cover tagged_follow tagged_some
          fuel clock tol res s' FORWARD E) as [[D1 D2] _].
      rewrite Ed in D1, D2.
      unfold num_dags in *. apply (nth_ext _ _ (m_dag no_table) (m_dag no_table)); [rewrite !map_length; auto|].
      intros n Hn. rewrite map_length in Hn. rewrite !map_nth. apply D2. unfold num_dags. lia.
    Qed.
    Lemma same_dags (s' : sysdata) : map m_dag (tables s') = map m_dag (tables (data sy)) ->
      combine (map m_dag (removelast (tables s'))) (conversion_data sy) = map plain tr /\
      combine (map m_dag (removelast (tables s'))) (removelast (conversion_data sy)) = map plain tr /\
      length (tables s') = S (length tr).
    Proof.
      intros Et0. pose proof Hsy as Hm0. rewrite build_makes in Hm0. destruct (made dkey_leb _ _ sy Hm0) as [c0 [rest [_ [_ [_ [Ecv Edata]]]]]].
      assert (Et : map m_dag (tables s') = map (fun x => fst (plain x)) tr ++ [fst cplain]).
      { rewrite Et0, Edata. cbn [tables]. rewrite map_map, map_app, map_map. reflexivity. }
      assert (Er : map m_dag (removelast (tables s')) = map (fun x => fst (plain x)) tr).
      { assert (G : forall (A B : Type) (g : A -> B) l l' b, map g l = l' ++ [b] -> map g (removelast l) = l').
        { clear. intros A B g l l' b Em. destruct l as [|x l] using rev_ind; [destruct l'; discriminate|]. clear IHl.
          rewrite removelast_last. rewrite map_app in Em. cbn in Em. now apply app_inj_tail in Em. }
        eapply G. exact Et. }
      rewrite Er, Ecv, map_app. cbn [map]. rewrite removelast_last, map_map. splits.
      - generalize tr as l. induction l as [|x l IH]; [reflexivity|]. cbn [map combine app]. f_equal. exact IH.
      - generalize tr as l. induction l as [|x l IH]; [reflexivity|]. cbn [map combine]. f_equal. exact IH.
      - rewrite <- (map_length m_dag), Et, app_length, map_length. cbn. lia.
    Qed.
    Lemma built_paths_items (s' : sysdata) asg : map m_dag (tables s') = map m_dag (tables (data sy)) ->
      NoDup (map fst asg) -> (forall k, List.In k (map fst asg) <-> List.In k K) -> (exists ds, choice ds /\ same_decisions asg ds) ->
      Forall2 (fun t (dc : pdag * conversion) => exists d p x k, construct t = Ok d /\ complete_path d p /\
          constrained_best_path (fst dc) (snd dc) asg = Ok (map (map_edge inl (fun c => c) inl) p, x) /\
          path_cost p = Fin k /\ least_cost (rels t) asg k /\ same_decisions asg (path_assignments p))
        (map fst pairs) (combine (map m_dag (removelast (tables s'))) (conversion_data sy)).
    Proof.
      intros E N Ka [ds [Hc Hs]]. rewrite (proj1 (same_dags _ E)), <- Etr, map_map.
      assert (G : forall l, incl l tr -> Forall2 (fun t (dc : pdag * conversion) => exists d p x k, construct t = Ok d /\ complete_path d p /\
          constrained_best_path (fst dc) (snd dc) asg = Ok (map (map_edge inl (fun c => c) inl) p, x) /\
          path_cost p = Fin k /\ least_cost (rels t) asg k /\ same_decisions asg (path_assignments p)) (map (fun x => fst (fst x)) l) (map plain l)).
      { induction l as [|x l IH]; intros Hl; cbn [map]; constructor; [|apply IH; intros z Hz; apply Hl; simpl; auto].
        assert (Hx : List.In x tr) by (apply Hl; simpl; auto). pose proof Ftr as Fx. rewrite Forall_forall in Fx. destruct (Fx x Hx) as [Hd [Ax Hp]].
        destruct (couple _ _ (tr_target _ Hx) Hc) as [k0 Hk0].
        destruct (tagged_best _ _ _ Ax (full_target _ (tr_target _ Hx)) inl inl_inj (inl : I1 -> I1 + I2) _ (tr_factor _ Hx)
          ltac:(intros a b Eab; now injection Eab) _ asg Hp N Ka (ex_intro _ k0 (ex_intro _ ds (conj Hk0 Hs)))) as [p [y [k [B1 [B2 [B3 [B4 B5]]]]]]].
        exists (fst (snd x)), p, y, k. splits; auto. }
      apply G, incl_refl.
    Qed.
    Lemma built_costs_items fuel clock tol res s' asg : solve_system_with_sweeps fuel clock tol (data sy) = Some (Ok (res, s')) ->
      NoDup (map fst asg) -> (forall k, List.In k (map fst asg) <-> List.In k K) -> (exists ds, choice ds /\ same_decisions asg ds) ->
      Forall2 (fun t (dc : pdag * conversion) => exists d p x k, construct t = Ok d /\ complete_path d p /\
          constrained_best_path (fst dc) (snd dc) asg = Ok (map (map_edge inl (fun c => c) inl) p, x) /\
          path_cost p = Fin k /\ least_cost (rels t) asg k)
        (map fst pairs) (combine (map m_dag (removelast (tables s'))) (removelast (conversion_data sy))).
    Proof.
      intros E. apply solved_tables in E. destruct (same_dags _ E) as [E1 [E2 _]]. rewrite E2, <- E1. intros N Ka Hc.
      pose proof (built_paths_items _ _ E N Ka Hc) as F. clear -F.
      induction F as [|t x ts xs [d [p [y [k [B1 [B2 [B3 [B4 [B5 _]]]]]]]]] F IH]; constructor; auto. exists d, p, y, k. auto.
    Qed.
  End Items.

  Theorem built : exists sy, build_system construct constraint targets (Some factors) = Ok sy /\
    sys_values sy = all_values /\ (forall k, List.In k (sys_keys sy) <-> List.In k K) /\ NoDup (sys_keys sy) /\
    num_keys (data sy) = length (sys_keys sy).
  Proof.
    destruct items_exist as [tr [E1 E2]]. destruct (al_packs _ _ _ Ac) as [rc Erc]. eapply build_ok; eauto.
  Qed.
  Theorem built_terminates sy clock tol : K <> [] -> build_system construct constraint targets (Some factors) = Ok sy -> (0 < tol)%Qc ->
    exists fuel res s', forall more, solve_system_with_sweeps (fuel + more) clock tol (data sy) = Some (Ok (res, s')).
  Proof.
    intros HK Hs Hp. destruct items_exist as [tr [E1 E2]]. destruct (al_packs _ _ _ Ac) as [rc Erc]. eapply built_terminates_items; eauto.
  Qed.
  Theorem built_run sy fuel clock tol res s' : K <> [] -> build_system construct constraint targets (Some factors) = Ok sy ->
    solve_system_with_sweeps fuel clock tol (data sy) = Some (Ok (res, s')) ->
    (forall dir, exists x q asg ks ds, greedy_extract s' dir = Ok (map Some x, Fin q) /\
      assignments_from_assignment_vector sy x = Ok asg /\ map fst asg = sys_keys sy /\
      choice ds /\ same_decisions asg ds /\
      Forall2 (fun t k => least_cost (rels t) asg k) (map fst (combine targets factors)) ks /\ q = weighted (map snd (combine targets factors)) ks) /\
    (forall b ds ks, List.In b (objective_at_step res) -> choice ds ->
      Forall2 (fun t k => exists ds', rels t k ds' /\ same_decisions ds ds') (map fst (combine targets factors)) ks ->
      cle b (Fin (weighted (map snd (combine targets factors)) ks))).
  Proof.
    intros HK Hs E. destruct items_exist as [tr [E1 E2]]. destruct (al_packs _ _ _ Ac) as [rc Erc]. eapply built_run_items; eauto.
  Qed.
  Theorem built_constrained sy cs (penalty : Qc) : K <> [] -> build_system construct constraint targets (Some factors) = Ok sy ->
    (forall kv, List.In kv cs -> List.In (fst kv) K) ->
    exists sy1, constrain_system sy cs (Fin penalty) = Ok sy1 /\ sys_keys sy1 = sys_keys sy /\
    (forall clock tol, (0 < tol)%Qc -> exists fuel res s', forall more, solve_system_with_sweeps (fuel + more) clock tol (data sy1) = Some (Ok (res, s'))) /\
    forall fuel clock tol res s', solve_system_with_sweeps fuel clock tol (data sy1) = Some (Ok (res, s')) ->
    (forall dir, exists x asg ks ds,
      greedy_extract s' dir = Ok (map Some x, Fin (weighted (map snd (combine targets factors)) ks + penalty * Q2Qc (inject_Z (Z.of_nat (unmet asg cs))))%Qc) /\
      assignments_from_assignment_vector sy1 x = Ok asg /\ map fst asg = sys_keys sy /\
      choice ds /\ same_decisions asg ds /\
      Forall2 (fun t k => least_cost (rels t) asg k) (map fst (combine targets factors)) ks) /\
    (forall b ds ks, List.In b (objective_at_step res) -> choice ds ->
      Forall2 (fun t k => exists ds', rels t k ds' /\ same_decisions ds ds') (map fst (combine targets factors)) ks ->
      cle b (Fin (weighted (map snd (combine targets factors)) ks + penalty * Q2Qc (inject_Z (Z.of_nat (unmet ds cs))))%Qc)).
  Proof.
    intros HK Hs Hcs. destruct items_exist as [tr [E1 E2]]. destruct (al_packs _ _ _ Ac) as [rc Erc]. eapply built_constrained_items; eauto.
  Qed.
  Theorem built_costs sy fuel clock tol res s' asg : K <> [] -> build_system construct constraint targets (Some factors) = Ok sy ->
    solve_system_with_sweeps fuel clock tol (data sy) = Some (Ok (res, s')) ->
    NoDup (map fst asg) -> (forall k, List.In k (map fst asg) <-> List.In k K) -> (exists ds, choice ds /\ same_decisions asg ds) ->
    Forall2 (fun t (dc : pdag * conversion) => exists d p x k, construct t = Ok d /\ complete_path d p /\
        constrained_best_path (fst dc) (snd dc) asg = Ok (map (map_edge inl (fun c => c) inl) p, x) /\
        path_cost p = Fin k /\ least_cost (rels t) asg k)
      (map fst (combine targets factors)) (combine (map m_dag (removelast (tables s'))) (removelast (conversion_data sy))).
  Proof.
    intros HK Hs E. destruct items_exist as [tr [E1 E2]]. destruct (al_packs _ _ _ Ac) as [rc Erc]. eapply built_costs_items; eauto.
  Qed.
  (** The DAGs of a built system, which solving does not change. *)
  Theorem built_solved sy fuel clock tol res s' : K <> [] -> build_system construct constraint targets (Some factors) = Ok sy ->
    solve_system_with_sweeps fuel clock tol (data sy) = Some (Ok (res, s')) -> map m_dag (tables s') = map m_dag (tables (data sy)).
  Proof.
    intros HK Hs E. destruct items_exist as [tr [E1 E2]]. destruct (al_packs _ _ _ Ac) as [rc Erc]. eapply solved_tables; eauto.
  Qed.
  Theorem built_dags sy (s' : sysdata) : K <> [] -> build_system construct constraint targets (Some factors) = Ok sy ->
    map m_dag (tables s') = map m_dag (tables (data sy)) ->
    exists items, combine (map m_dag (removelast (tables s'))) (conversion_data sy) = items /\
      combine (map m_dag (removelast (tables s'))) (removelast (conversion_data sy)) = items.
  Proof.
    intros HK Hs E. destruct items_exist as [tr [E1 E2]]. destruct (al_packs _ _ _ Ac) as [rc Erc]. eexists. split; [reflexivity|].
    destruct (same_dags tr E1 E2 rc Erc sy Hs s' E) as [-> [-> _]]. reflexivity.
  Qed.
  Theorem built_paths sy (s' : sysdata) asg : K <> [] -> build_system construct constraint targets (Some factors) = Ok sy ->
    map m_dag (tables s') = map m_dag (tables (data sy)) ->
    NoDup (map fst asg) -> (forall k, List.In k (map fst asg) <-> List.In k K) -> (exists ds, choice ds /\ same_decisions asg ds) ->
    Forall2 (fun t (dc : pdag * conversion) => exists d p x k, construct t = Ok d /\ complete_path d p /\
        constrained_best_path (fst dc) (snd dc) asg = Ok (map (map_edge inl (fun c => c) inl) p, x) /\
        path_cost p = Fin k /\ least_cost (rels t) asg k /\ same_decisions asg (path_assignments p))
      (map fst (combine targets factors)) (combine (map m_dag (removelast (tables s'))) (conversion_data sy)) /\
    length (tables s') = S (length (combine targets factors)).
  Proof.
    intros HK Hs E N Ka Hc. destruct items_exist as [tr [E1 E2]]. destruct (al_packs _ _ _ Ac) as [rc Erc]. split; [eapply built_paths_items; eauto|].
    fold pairs. rewrite <- E1, map_length. eapply same_dags; eauto.
  Qed.
End Built.

(** With at most one variable the solver makes no step at all. *)
Lemma solve_trivial s fuel clock tol : num_keys s <= 1 -> exists res,
  solve_system_with_sweeps (S fuel) clock tol s = Some (Ok (res, s)) /\ objective_at_step res = [].
Proof.
  intros Hk.
  assert (V1 : forall dir, sweep_variables dir (num_keys s) = []).
  { intros dir. destruct (num_keys s) as [|[|n]]; [destruct dir; reflexivity|destruct dir; reflexivity|lia]. }
  unfold solve_system_with_sweeps. cbn [run_rounds run_directions g_sys g_last g_objectives g_variables g_sweeps g_steps].
  rewrite V1. cbn [run_sweep bind end_sweep g_sys g_last g_changed g_objectives g_variables g_sweeps g_steps app length].
  destruct (clock 0).
  - cbn [g_changed g_sys g_objectives]. eexists. split; reflexivity.
  - rewrite V1. cbn [run_sweep bind end_sweep g_sys g_last g_changed g_objectives g_variables g_sweeps g_steps app length].
    destruct (clock 1); cbn [g_changed g_sys g_objectives]; eexists; split; reflexivity.
Qed.
