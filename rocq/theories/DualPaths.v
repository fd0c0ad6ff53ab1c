(** Path costs in a system of subproblems, as sums over the shared variables. *)

From Coq Require Import List Bool Arith Lia ZArith QArith Qcanon.
From Verif Require Import Base Graph PackedDag PackedDagProofs PackedTables
  DualSolver DualSpec DualLists.
Import ListNotations.
Close Scope Qc_scope. Close Scope Q_scope. Open Scope nat_scope.

Notation lookup P := (fun a => nth (snd a) (nth (fst a) P []) NaN).

Lemma csum_pick (h : nat * nat -> cost) k a l : NoDup (map fst l) -> In (k, a) l ->
  csum (map h l) = cadd (csum (map h (filter (fun b => negb (fst b =? k)) l))) (h (k, a)).
Proof.
  induction l as [|[k' b] l IH]; intros Hn Hi; [destruct Hi|].
  cbn [map] in Hn. inversion Hn as [|? ? Hn1 Hn2]; subst. cbn [fst] in *.
  cbn [map filter fst]. destruct Hi as [E|Hi].
  - injection E as -> ->. rewrite Nat.eqb_refl. cbn [negb].
    rewrite csum_cons, cadd_comm. f_equal. f_equal. f_equal. symmetry.
    clear IH. induction l as [|[k' b] l IHl]; auto. cbn [filter fst].
    destruct (Nat.eqb_spec k' k) as [->|Hne].
    + exfalso. apply Hn1. simpl; auto.
    + cbn [negb]. f_equal. apply IHl.
      * cbn [map] in Hn. inversion Hn as [|? ? H1 H2]; subst. inversion H2; subst.
        constructor; auto. intros C. apply H1. simpl; auto.
      * intros C. apply Hn1. simpl; auto.
      * inversion Hn2; auto.
  - destruct (Nat.eqb_spec k' k) as [->|Hne].
    + exfalso. apply Hn1. now apply (in_map fst) in Hi.
    + cbn [negb map]. rewrite !csum_cons, IH by auto. apply cadd_assoc.
Qed.

Lemma complete_NoDup d p : layout d -> packed_complete d p -> NoDup (map fst (path_assignments p)).
Proof. intros L Hp. rewrite (complete_keys d L p Hp). apply seq_NoDup. Qed.
Lemma complete_bounds d p k a : layout d -> packed_complete d p -> In (k, a) (path_assignments p) ->
  k < n_keys d /\ a < n_values d.
Proof.
  intros L Hp Hi. apply in_path_assignments in Hi as [e [He Ea]].
  assert (Hin : In e (pedges d)) by (eapply is_path_In; eauto).
  destruct (edge_cases d L e Hin) as [[i [_ [E _]]]|[i [v [Hi [E [Hv _]]]]]]; rewrite Ea in E;
    [discriminate|]. injection E as -> ->. auto.
Qed.
Lemma complete_assigns d p k : layout d -> packed_complete d p -> k < n_keys d ->
  exists a, a < n_values d /\ In (k, a) (path_assignments p).
Proof.
  intros L Hp Hk. assert (Hi : In k (map fst (path_assignments p))).
  { rewrite (complete_keys d L p Hp). apply in_seq; lia. }
  apply in_map_iff in Hi as [[k' a] [E Hi]]. cbn in E. subst k'. exists a. split; auto.
  now apply (complete_bounds d p k a L Hp).
Qed.
Lemma complete_functional d p k a b : layout d -> packed_complete d p ->
  In (k, a) (path_assignments p) -> In (k, b) (path_assignments p) -> a = b.
Proof.
  intros L Hp. pose proof (complete_NoDup d p L Hp) as Hn.
  induction (path_assignments p) as [|[k' c] l IH]; [intros []|].
  cbn [map fst] in Hn. inversion Hn as [|? ? H1 H2]; subst.
  intros [E1|H1'] [E2|H2'].
  - congruence.
  - injection E1 as -> ->. exfalso. apply H1. now apply (in_map fst) in H2'.
  - injection E2 as -> ->. exfalso. apply H1. now apply (in_map fst) in H1'.
  - auto.
Qed.
Lemma path_cost_notnan d s p t : layout d -> is_path (pedges d) s p t -> path_cost p <> NaN.
Proof.
  intros L Hp. apply csum_notnan. intros c Hc. apply in_map_iff in Hc as [e [<- He]].
  apply (l_costs d L). eapply is_path_In; eauto.
Qed.

(** ** The cost of a path without one variable's penalty. *)
Lemma rest_split_row d P k a row p : layout d -> packed_complete d p -> k < length P ->
  In (k, a) (path_assignments p) ->
  penalized_cost (updnth k row P) p = cadd (rest_cost P k p) (nth a row NaN).
Proof.
  intros L Hp Hk Hi. unfold penalized_cost, rest_cost.
  rewrite (csum_pick _ k a) by (auto; now apply (complete_NoDup d)).
  rewrite cadd_assoc. f_equal; [f_equal; f_equal; apply map_ext_in|].
  - intros [k' b] Hb. apply filter_In in Hb as [_ Hb]. cbn [fst snd] in *.
    apply negb_true_iff, Nat.eqb_neq in Hb. rewrite nth_updnth_other; auto.
  - cbn [fst snd]. now rewrite nth_updnth_same.
Qed.
Lemma rest_split d P k a p : layout d -> packed_complete d p ->
  In (k, a) (path_assignments p) ->
  penalized_cost P p = cadd (rest_cost P k p) (nth a (nth k P []) NaN).
Proof.
  intros L Hp Hi. unfold penalized_cost, rest_cost.
  rewrite (csum_pick _ k a) by (auto; now apply (complete_NoDup d)).
  now rewrite cadd_assoc.
Qed.
Lemma rest_cost_updnth P k row p : rest_cost (updnth k row P) k p = rest_cost P k p.
Proof.
  unfold rest_cost. f_equal. f_equal. apply map_ext_in. intros [k' b] Hb.
  apply filter_In in Hb as [_ Hb]. cbn [fst snd] in *.
  apply negb_true_iff, Nat.eqb_neq in Hb. rewrite nth_updnth_other; auto.
Qed.
Lemma rest_terms_notnan d P k p : layout d -> pens_ok d P -> packed_complete d p ->
  forall c, In c (map (lookup P) (filter (fun a => negb (fst a =? k)) (path_assignments p))) -> c <> NaN.
Proof.
  intros L HP Hp c Hc. apply in_map_iff in Hc as [[k' b] [<- Hb]]. apply filter_In in Hb as [Hb _].
  destruct (complete_bounds d p k' b L Hp Hb). cbn [fst snd]. now apply (pens_ok_notnan d).
Qed.
Lemma rest_cost_notnan d P k p : layout d -> pens_ok d P -> packed_complete d p -> rest_cost P k p <> NaN.
Proof.
  intros L HP Hp. apply cadd_notnan; [eapply path_cost_notnan; eauto|].
  apply csum_notnan. now apply (rest_terms_notnan d).
Qed.
Lemma rest_cost_inf d P k p : layout d -> pens_ok d P -> packed_complete d p ->
  (rest_cost P k p = Inf <->
   path_cost p = Inf \/
   exists k' b, k' <> k /\ In (k', b) (path_assignments p) /\ nth b (nth k' P []) NaN = Inf).
Proof.
  intros L HP Hp. unfold rest_cost. rewrite cadd_inf_iff.
  - rewrite csum_inf_iff by now apply (rest_terms_notnan d). rewrite in_map_iff.
    split; intros [H|H]; auto; right.
    + destruct H as [[k' b] [E Hb]]. apply filter_In in Hb as [Hb Hne]. cbn [fst snd] in *.
      apply negb_true_iff, Nat.eqb_neq in Hne. exists k', b. auto.
    + destruct H as [k' [b [Hne [Hb E]]]]. exists (k', b). split; auto. apply filter_In. split; auto.
      cbn [fst]. apply negb_true_iff, Nat.eqb_neq. auto.
  - eapply path_cost_notnan; eauto.
  - apply csum_notnan. now apply (rest_terms_notnan d).
Qed.

(** ** The index map. *)
Section Index.
  Context (s : sysdata) (O : sys_ok s).

  Lemma column_local j : column s j =
    flat_map (fun v => match local s v j with Some k => [k] | None => [] end) (seq 0 (num_keys s)).
  Proof.
    unfold column, local. rewrite <- (so_imap s O).
    generalize (imap s). intros l. clear O.
    induction l as [|row l IH]; [reflexivity|]. cbn [length seq flat_map nth]. f_equal.
    rewrite IH. rewrite <- seq_shift. rewrite !flat_map_concat_map, map_map. reflexivity.
  Qed.
  Lemma local_In v j k : v < num_keys s -> local s v j = Some k -> In k (column s j).
  Proof.
    intros Hv E. rewrite column_local. apply in_flat_map. exists v. split; [apply in_seq; lia|].
    rewrite E. simpl; auto.
  Qed.
  Lemma local_lt v j k : v < num_keys s -> j < num_dags s -> local s v j = Some k -> k < n_keys (dag_of s j).
  Proof.
    intros Hv Hj E. pose proof (local_In v j k Hv E) as Hi.
    rewrite (so_columns s O j Hj) in Hi. apply in_seq in Hi. lia.
  Qed.
  Lemma local_surj j k : j < num_dags s -> k < n_keys (dag_of s j) ->
    exists v, v < num_keys s /\ local s v j = Some k.
  Proof.
    intros Hj Hk. assert (Hi : In k (column s j)) by (rewrite (so_columns s O j Hj); apply in_seq; lia).
    rewrite column_local in Hi. apply in_flat_map in Hi as [v [Hv Hi]]. apply in_seq in Hv.
    exists v. split; [lia|]. destruct (local s v j) as [k'|]; [|destruct Hi].
    destruct Hi as [->|[]]. reflexivity.
  Qed.
  Lemma NoDup_flat_inj (f : nat -> option nat) l u v k :
    NoDup (flat_map (fun v => match f v with Some k => [k] | None => [] end) l) ->
    In u l -> In v l -> NoDup l -> f u = Some k -> f v = Some k -> u = v.
  Proof.
    induction l as [|w l IH]; intros Hn Hu Hv Hd Eu Ev; [destruct Hu|].
    inversion Hd as [|? ? Hd1 Hd2]; subst. cbn [flat_map] in Hn.
    assert (Hk : forall x, In x l -> f x = Some k ->
      In k (flat_map (fun v => match f v with Some k => [k] | None => [] end) l)).
    { intros x Hx Ex. apply in_flat_map. exists x. rewrite Ex. simpl; auto. }
    destruct Hu as [->|Hu], Hv as [->|Hv]; auto.
    - rewrite Eu in Hn. cbn [app] in Hn. inversion Hn; subst. exfalso; eauto.
    - rewrite Ev in Hn. cbn [app] in Hn. inversion Hn; subst. exfalso; eauto.
    - apply IH; auto. destruct (f w); auto. now inversion Hn.
  Qed.
  Lemma local_inj u v j k : u < num_keys s -> v < num_keys s -> j < num_dags s ->
    local s u j = Some k -> local s v j = Some k -> u = v.
  Proof.
    intros Hu Hv Hj Eu Ev. apply (NoDup_flat_inj (fun v => local s v j) (seq 0 (num_keys s)) u v k); auto.
    - rewrite <- column_local, (so_columns s O j Hj). apply seq_NoDup.
    - apply in_seq; lia.
    - apply in_seq; lia.
    - apply seq_NoDup.
  Qed.
  Lemma table_facts j : j < num_dags s ->
    layout (dag_of s j) /\ pens_ok (dag_of s j) (pens (table s j)) /\ inv (table s j) /\
    n_values (dag_of s j) = num_values s /\ 0 < n_keys (dag_of s j).
  Proof.
    intros Hj. destruct (so_tables s O j Hj) as [I [V K]].
    pose proof (i_layout _ I). pose proof (i_pens _ I). auto.
  Qed.
  Lemma pen_at_notnan j v a : j < num_dags s -> v < num_keys s -> a < num_values s -> pen_at s j v a <> NaN.
  Proof.
    intros Hj Hv Ha. unfold pen_at. destruct (local s v j) as [k|] eqn:E; [|discriminate].
    destruct (table_facts j Hj) as [L [HP [_ [V K]]]].
    apply (pens_ok_notnan (dag_of s j)); auto; [eapply local_lt; eauto|lia].
  Qed.

  (** ** Paths agreeing with an assignment vector. *)
  Lemma same_pairs (l1 l2 : list (nat * nat)) :
    map fst l1 = map fst l2 -> NoDup (map fst l1) -> (forall p, In p l2 -> In p l1) -> l1 = l2.
  Proof.
    revert l2; induction l1 as [|[k a] l1 IH]; intros [|[k' b] l2] E Hn Hi; try discriminate; auto.
    cbn [map fst] in *. injection E as -> E. inversion Hn as [|? ? H1 H2]; subst.
    assert (Ea : (k', b) = (k', a)).
    { destruct (Hi (k', b)) as [Ex|Hx]; [simpl; auto|auto|].
      exfalso. apply H1. now apply (in_map fst) in Hx. }
    rewrite Ea. f_equal. apply IH; auto.
    intros [k2 b2] Hp. destruct (Hi (k2, b2)) as [Ex|Hx]; [simpl; auto| |auto].
    injection Ex as -> ->. exfalso. apply H1. rewrite E. now apply (in_map fst) in Hp.
  Qed.
  Lemma chosen_pairs x j p : j < num_dags s -> chooses s x j p ->
    path_assignments p =
    flat_map (fun v => match local s v j with Some k => [(k, nth v x 0)] | None => [] end)
             (seq 0 (num_keys s)).
  Proof.
    intros Hj [Hp Hc]. destruct (table_facts j Hj) as [L _].
    apply same_pairs.
    - rewrite (complete_keys _ L p Hp), <- (so_columns s O j Hj), column_local.
      induction (seq 0 (num_keys s)) as [|v l IH]; [reflexivity|]. cbn [flat_map].
      rewrite map_app, <- IH. destruct (local s v j); reflexivity.
    - now apply (complete_NoDup (dag_of s j)).
    - intros [k a] Hi. apply in_flat_map in Hi as [v [Hv Hi]]. apply in_seq in Hv.
      destruct (local s v j) as [k'|] eqn:E; [|destruct Hi]. destruct Hi as [Ei|[]].
      injection Ei as <- <-. apply Hc; [lia|auto].
  Qed.
  Lemma chosen_penalized x j p : j < num_dags s -> chooses s x j p ->
    penalized_cost (pens (table s j)) p =
    cadd (path_cost p) (over (num_keys s) (fun v => pen_at s j v (nth v x 0))).
  Proof.
    intros Hj Hc. unfold penalized_cost. f_equal. rewrite (chosen_pairs x j p Hj Hc).
    unfold over, pen_at. induction (seq 0 (num_keys s)) as [|v l IH]; [reflexivity|].
    cbn [flat_map map]. rewrite map_app, csum_app, csum_cons, IH. f_equal.
    destruct (local s v j) as [k|]; [|reflexivity]. cbn [map]. rewrite csum_cons.
    cbn [csum fold_right fst snd]. apply cadd_0_r.
  Qed.

  (** The penalized costs of a solution sum to its paths' costs plus all penalties. *)
  Lemma solution_penalized x ps : solution s x ps ->
    over (num_dags s) (fun j => penalized_cost (pens (table s j)) (nth j ps [])) =
    cadd (csum (map (fun p : list pedge => path_cost p) ps))
         (over (num_keys s) (fun v => pen_sum s v (nth v x 0))).
  Proof.
    intros [Hx [Hp Hc]].
    rewrite (over_ext _ _ (fun j => cadd (path_cost (nth j ps []))
       (over (num_keys s) (fun v => pen_at s j v (nth v x 0))))) by (intros; apply chosen_penalized; auto).
    rewrite over_add, (csum_over (fun p : list pedge => path_cost p) [] ps), Hp, over_exchange.
    reflexivity.
  Qed.
  Lemma solution_values x ps v : solution s x ps -> v < num_keys s -> nth v x 0 < num_values s.
  Proof.
    intros [Hx [Hp Hc]] Hv. destruct (so_participant s O v Hv) as [j [Hj El]].
    destruct (local s v j) as [k|] eqn:E; [|congruence].
    destruct (table_facts j Hj) as [L [_ [_ [V _]]]]. destruct (Hc j Hj) as [Hcp Ha].
    pose proof (complete_bounds _ _ _ _ L Hcp (Ha v k Hv E)) as [_ Hb]. lia.
  Qed.
  Lemma solution_inf x ps : solution s x ps ->
    (solution_cost s x ps = Inf <->
     (exists j, j < num_dags s /\ path_cost (nth j ps []) = Inf) \/
     (exists v, v < num_keys s /\ extra_at s v (nth v x 0) = Inf)).
  Proof.
    intros HS. pose proof HS as [Hx [Hp Hc]]. unfold solution_cost.
    rewrite (csum_over (fun p : list pedge => path_cost p) [] ps), Hp.
    assert (N1 : forall j, j < num_dags s -> path_cost (nth j ps []) <> NaN).
    { intros j Hj. destruct (table_facts j Hj) as [L _]. destruct (Hc j Hj) as [Hcp _].
      eapply path_cost_notnan; eauto. }
    assert (N2 : forall v, v < num_keys s -> extra_at s v (nth v x 0) <> NaN).
    { intros v Hv. apply (so_extra_nn s O); auto. eapply solution_values; eauto. }
    rewrite cadd_inf_iff by now apply over_notnan.
    rewrite !over_inf_iff by auto. reflexivity.
  Qed.
End Index.

(** ** Weak duality. *)
Lemma weak_duality s x ps c : sys_ok s -> nearly_conserved s -> solution s x ps ->
  dual_objective s c -> cle c (solution_cost s x ps).
Proof.
  intros O NC HS [L [HL ->]]. pose proof HS as [Hx [Hp Hc]].
  assert (Dec : (forall v, v < num_keys s -> conserved s v (nth v x 0)) \/ solution_cost s x ps = Inf).
  { assert (G : forall n, n <= num_keys s ->
       (forall v, v < n -> conserved s v (nth v x 0)) \/ solution_cost s x ps = Inf).
    { induction n as [|n IH]; intros Hn; [left; lia|].
      destruct IH as [IH|IH]; [lia| |auto].
      destruct (NC n (nth n x 0)) as [C|[_ [_ C]]]; [lia|eapply solution_values; eauto; lia| |].
      - left. intros v Hv. destruct (Nat.eq_dec v n) as [->|]; auto. apply IH; lia.
      - right. now apply C. }
    apply G; lia. }
  destruct Dec as [D|D].
  - replace (solution_cost s x ps) with
      (over (num_dags s) (fun j => penalized_cost (pens (table s j)) (nth j ps []))).
    + apply over_le. intros j Hj. destruct (HL j Hj) as [_ [Hle _]]. apply Hle.
      destruct (Hc j Hj) as [Hcp _]. exists (nth j ps []). split; auto.
    + rewrite (solution_penalized s O x ps HS). unfold solution_cost. f_equal.
      apply over_ext. intros v Hv. now apply D.
  - rewrite D. apply cle_Inf. apply over_notnan. intros j Hj. now destruct (HL j Hj).
Qed.
