(** Pruning and packing the DAG of a builder always succeeds when its paths make
    their decisions in the order of the keys. *)

From Coq Require Import List Bool Arith Lia ZArith Sorting.Sorted QArith Qcanon.
From Verif Require Import Base Graph GatedDag Decisions ConvertLists Convert ConvertSuccess.
Import ListNotations.
Close Scope Qc_scope. Close Scope Q_scope. Close Scope Z_scope. Open Scope nat_scope.

Lemma dkey_order : total_order dkey_leb.
Proof.
  unfold dkey_leb. constructor.
  - intros [a c] [b c']. cbn [fst snd]. rewrite !orb_true_iff, !andb_true_iff, !Nat.ltb_lt, !Nat.eqb_eq, !Nat.leb_le. lia.
  - intros [a x] [b y] [c z]. cbn [fst snd]. rewrite !orb_true_iff, !andb_true_iff, !Nat.ltb_lt, !Nat.eqb_eq, !Nat.leb_le. lia.
  - intros [a x] [b y]. cbn [fst snd]. rewrite !orb_true_iff, !andb_true_iff, !Nat.ltb_lt, !Nat.eqb_eq, !Nat.leb_le.
    intros H1 H2. assert (a = b /\ category_value x = category_value y) as [-> E] by lia. f_equal.
    destruct x, y; auto; discriminate.
Qed.

Section Pack.
  Context {St In : Type} {sd : EqDec St}.
  Notation D := (dag St decision In).

  Lemma prune_useful (d : D) : ordered (edges d) -> all_useful (prune_to_reachable d).
  Proof.
    intros Ho. destruct (prune_spec d Ho) as [E1 [E2 [[keep [E3 Hk]] Hp]]]. intros e He.
    change (List.In e (edges (prune_to_reachable d))) in He. rewrite E3 in He. apply filter_In in He as [He Hke]. apply Hk in Hke; auto. destruct Hke as [p1 [p2 [Hc Hf]]].
    assert (Hc' : complete_path (prune_to_reachable d) (p1 ++ e :: p2)) by now apply Hp.
    unfold complete_path in Hc'. apply is_path_app_inv in Hc' as [u [H1 H2]]. apply is_path_cons_inv in H2 as [-> [_ H2]].
    apply Forall_app in Hf as [_ Hf]. inversion Hf; subst. splits; auto; eauto.
  Qed.

  Theorem builder_packs (d : D) (vle : dvalue -> dvalue -> bool) : topological (edges d) ->
    (exists p, complete_path d p /\ Forall finite_edge p /\ p <> []) ->
    (forall p, complete_path d p -> StronglySorted lt (map (fun a => fst (fst a)) (path_assignments p))) ->
    exists r, convert_dag_to_packed dkey_leb vle (prune_to_reachable d) DNA (Some all_values) = Ok r.
  Proof.
    intros T [p [Hp [Hf Hne]]] Hs. pose proof (proj1 T) as Ho.
    destruct (prune_spec d Ho) as [E1 [E2 [[keep [E3 Hk]] Hpr]]].
    assert (T' : topological (edges (prune_to_reachable d))).
    { destruct T as [T1 T2]. rewrite E3. split.
      - clear -T1. induction (edges d) as [|e l IH]; cbn in *; auto. destruct T1 as [T1 T3]. destruct (keep e); auto.
        cbn. split; auto. intros e' He'. apply filter_In in He' as [He' _]. auto.
      - intros e He. apply filter_In in He as [He _]. auto. }
    apply convert_increasing; auto.
    - intros E. assert (Hp' : complete_path (prune_to_reachable d) p) by now apply Hpr.
      destruct p as [|e p]; auto. unfold complete_path in Hp'. apply is_path_cons_inv in Hp' as [_ [He _]].
      change (edges (As := decision) (prune_to_reachable d) = []) in E. rewrite E in He. destruct He.
    - now apply prune_useful.
    - apply dkey_order.
    - split; [cbn; auto|]. intros e k v _ _. destruct v; cbn; auto.
    - intros q Hq. apply Hpr in Hq as [Hq _]. specialize (Hs q Hq). revert Hs.
      change (path_assignments q) with (path_assignments (As := decision) q). generalize (path_assignments (As := decision) q).
      intros ds. clear. induction ds as [|[[k c] v] ds IH]; cbn [map]; intros S0; [constructor|].
      inversion S0 as [|? ? S1 F]; subst. constructor; auto. rewrite Forall_forall in *. intros [k' c'] Hin.
      apply in_map_iff in Hin as [x [E Hx]]. assert (Hlt : k < k').
      { apply F. apply in_map_iff. exists x. split; auto. destruct x as [[a b] w]. cbn in *. congruence. }
      unfold before_key, dkey_leb. cbn. split; [apply orb_true_iff; left; now apply Nat.ltb_lt|]. intros C. injection C. lia.
  Qed.
End Pack.
