(** What the edit DAG of a prototype without regions takes from the parameters for regions: nothing that is left after
    pruning. *)

From Coq Require Import List Bool Arith ZArith Lia QArith Qcanon.
From Verif Require Import Base SeqNodes PackedSeq PackedSeqProofs Numbered Graph GatedDag Decisions EditDag CombineStats.
Import ListNotations.
Close Scope Qc_scope. Close Scope Q_scope. Close Scope Z_scope. Open Scope nat_scope.

(** The parameters for text outside regions are the same. *)
Definition same_outside_regions (P P' : parameters) : Prop :=
  high_match P = high_match P' /\ high_delete P = high_delete P' /\ insert_per_char P = insert_per_char P' /\ high_start P = high_start P'.

Definition is_low (s : estate) : bool := match s with EAt _ Low _ _ _ _ => true | _ => false end.
(** Edges that differ at most in the cost, and only inside regions; no edge enters a region. *)
Definition alike (e e' : eedge) : Prop :=
  source e = source e' /\ dest e = dest e' /\ assignment e = assignment e' /\ info e = info e' /\
  (exists k k', ecost e = Fin k /\ ecost e' = Fin k') /\
  (is_low (source e) = false -> ecost e = ecost e' /\ is_low (dest e) = false).

Section Alike.
  Context {M : Type} {md : EqDec M} (P P' : parameters) (S : same_outside_regions P P').
  Notation L := (lnode M).
  Notation "l ~~ l'" := (Forall2 alike l l') (at level 70).
  Let plain (x : L) : Prop := free is_start (erase x).
  Lemma alike_both f f' : (forall c, f c ~~ f' c) -> both f ~~ both f'.
  Proof. intros H. unfold both. now apply Forall2_app. Qed.
  Lemma alike_one e e' l l' : alike e e' -> l ~~ l' -> e :: l ~~ e' :: l'.
  Proof. now constructor. Qed.
  Ltac one := apply alike_one; [unfold alike; cbn [source dest assignment info ecost is_low]; splits; eauto;
    try (intros C; first [discriminate C | split; auto; fail])|].
  Lemma advance_alike a q i h j x : plain x -> advance P a q i h j x ~~ advance P' a q i h j x.
  Proof.
    unfold plain. destruct x; cbn [erase free is_start advance]; intros F; try discriminate F; try apply alike_both; try intros [|]; repeat one; constructor.
  Qed.
  Lemma delete_alike c t : c = High -> delete_cost P c t = delete_cost P' c t.
  Proof. intros ->. destruct S as (_ & E & _). unfold delete_cost. now rewrite E. Qed.
  Lemma match_alike c t : c = High -> match_utility P c t = match_utility P' c t.
  Proof. intros ->. destruct S as (E & _). unfold match_utility. now rewrite E. Qed.
  Lemma start_alike c : c = High -> start_cost P c = start_cost P' c.
  Proof. intros ->. destruct S as (_ & _ & _ & E). exact E. Qed.
  Ltac two := apply alike_one; [unfold alike; cbn [source dest assignment info ecost is_low]; splits; eauto; intros C;
    repeat match goal with c : conf |- _ => destruct c end; cbn [is_low] in *;
    first [discriminate C | split; auto; rewrite ?delete_alike, ?match_alike, ?start_alike by reflexivity; reflexivity]|].
  Lemma remove_alike x : plain x -> forall a q i h j, remove P a q i h j x ~~ remove P' a q i h j x.
  Proof.
    induction x as [p t|p t m|p|p|p|p cs m IH] using lnode_ind'; intros F a q i h j;
      try (apply (advance_alike a q i h j _ F)).
    - cbn [remove]. apply alike_both. intros c. two. constructor.
    - rewrite !remove_group. apply free_group in F. apply Forall2_app; [apply alike_both; intros c; two; constructor|].
      apply Forall2_app; [|apply alike_both; intros c; two; constructor].
      generalize 0. induction IH as [|c l Hc _ IHl]; intros k; cbn [remove_list]; [constructor|]. cbn [map] in F. inversion F as [|? ? F1 F2]; subst.
      apply Forall2_app; [now apply Hc|now apply IHl].
  Qed.
  Lemma skip_alike a q i h j (y : L) : skip a q i h j y ~~ skip a q i h j y.
  Proof. destruct y; cbn [skip]; try exact (Forall2_nil _). apply alike_both. intros c. two. constructor. Qed.
  Lemma insert_alike : insert_per_char P = insert_per_char P'.
  Proof. now destruct S as (_ & _ & E & _). Qed.
  Lemma add_alike (y : L) : forall a q i h j, add P a q i h j y ~~ add P' a q i h j y.
  Proof.
    induction y as [p t|p t m|p|p|p|p cs m IH] using lnode_ind'; intros a q i h j; try apply skip_alike.
    - cbn [add]. rewrite insert_alike. apply alike_both. intros c. two. constructor.
    - rewrite !add_group. apply Forall2_app; [apply alike_both; intros c; two; constructor|].
      apply Forall2_app; [|apply alike_both; intros c; two; constructor].
      generalize 0. induction IH as [|c l Hc _ IHl]; intros k; cbn [add_list]; [constructor|]. apply Forall2_app; auto.
  Qed.
  Lemma keep_alike q i h j (x y : L) : keep P q i h j x y ~~ keep P' q i h j x y.
  Proof.
    destruct x as [| p t m| | | | ]; try exact (Forall2_nil _). destruct y as [|p' t' m'| | | |]; try exact (Forall2_nil _). cbn [keep]. destruct (_ && _); [|constructor].
    apply alike_both. intros c. two. constructor.
  Qed.
  Definition plains (x : option L) : Prop := match x with Some x => plain x | None => True end.
  Lemma here_alike q i h j x y : plains x -> here P q i h j x y ~~ here P' q i h j x y.
  Proof.
    intros F. unfold here.
    apply Forall2_app; [destruct x; cbn [on]; [now apply advance_alike|constructor]|].
    apply Forall2_app; [apply alike_both; intros c; two; two; constructor|].
    apply Forall2_app; [destruct x; cbn [on]; [now apply remove_alike|constructor]|].
    apply Forall2_app; [apply alike_both; intros c; two; constructor|].
    apply Forall2_app; [destruct y; cbn [on]; [apply add_alike|constructor]|].
    apply Forall2_app; [apply alike_both; intros c; two; constructor|].
    apply Forall2_app; [destruct y; cbn [on]; [apply skip_alike|constructor]|].
    destruct x, y; try exact (Forall2_nil _). apply keep_alike.
  Qed.
  Lemma row_alike base base' sub sub' ts : (forall j y, base j y ~~ base' j y) -> (forall j y, sub j y ~~ sub' j y) -> forall j,
    row base sub j ts ~~ row (M := M) base' sub' j ts.
  Proof. intros H1 H2. induction ts as [|y ts IH]; intros j; cbn [row]; auto. repeat apply Forall2_app; auto. Qed.
  Lemma rows_alike_if ps : Forall (fun x => plain x -> forall q h i ts, node_row P x q h i ts ~~ node_row P' x q h i ts) ps -> Forall plain ps ->
    forall q h i ts, rows P q h i ps ts ~~ rows P' q h i ps ts.
  Proof.
    induction 1 as [|x l Hx _ IH]; intros F q h i ts; cbn [rows].
    - apply row_alike; [intros j y; now apply here_alike|constructor].
    - inversion F; subst. apply Forall2_app; auto.
  Qed.
  Lemma node_row_alike x : plain x -> forall q h i ts, node_row P x q h i ts ~~ node_row P' x q h i ts.
  Proof.
    induction x as [p t|p t m|p|p|p|p cs m IH] using lnode_ind'; intros F q h i ts; rewrite !node_row_eq;
      apply row_alike; try (intros j y; now apply here_alike); try (intros j y; exact (Forall2_nil _)).
    intros j y. destruct y as [| | | | |p' ds m']; try exact (Forall2_nil _). cbn [pair]. destruct (eqb m' m); [|constructor].
    apply Forall2_app; [apply alike_both; intros c; two; constructor|].
    apply Forall2_app; [|apply alike_both; intros c; two; constructor].
    apply rows_alike_if; auto. apply free_group in F. unfold plain. rewrite Forall_map in F. exact F.
  Qed.
  Lemma rows_alike ps : Forall (free is_start) (map erase ps) -> forall q h i ts, rows P q h i ps ts ~~ rows P' q h i ps ts.
  Proof.
    intros F. apply rows_alike_if; [apply Forall_forall; intros x _; apply node_row_alike|]. unfold plain. now rewrite Forall_map in F.
  Qed.
End Alike.

Section Prune.
  Notation "l ~~ l'" := (Forall2 alike l l') (at level 70).
  Notation D := (dag estate decision (option einfo)).
  (** DAGs that differ in the costs of edges in regions, with no way into a region. *)
  Definition alike_dags (d d' : D) : Prop := initial_state d = initial_state d' /\ final_state d = final_state d' /\ is_low (initial_state d) = false /\ edges d ~~ edges d'.
  Lemma add_edges_alike es es' : es ~~ es' -> forall d d', p_initial d = p_initial d' -> p_seen_outgoing d = p_seen_outgoing d' -> p_edges d ~~ p_edges d' ->
    match add_edges d es, add_edges d' es' with
    | Ok r, Ok r' => p_initial r = p_initial d /\ p_initial r = p_initial r' /\ p_edges r ~~ p_edges r'
    | Err x, Err x' => x = x' | _, _ => False
    end.
  Proof.
    induction 1 as [|e e' es es' A F IH]; intros d d' E1 E2 E3; cbn [add_edges]; auto.
    destruct A as (A1 & A2 & A3). unfold add_edge. rewrite <- A1, <- A2, <- E2.
    destruct (assoc (dest e) (p_seen_outgoing d)); cbn [bind].
    - destruct (assoc (source e) (p_seen_outgoing d)); cbn [bind]; auto.
    - match goal with |- context [add_edges ?x es] => match goal with |- context [add_edges ?y es'] =>
        specialize (IH x y); cbn [p_initial p_seen_outgoing p_edges] in IH end end.
      apply IH; auto. apply Forall2_app; auto. constructor; [|constructor]. unfold alike; auto.
  Qed.
  Lemma alike_finite e e' : alike e e' -> cltb (ecost e) Inf = true /\ cltb (ecost e') Inf = true.
  Proof. intros (_ & _ & _ & _ & (k & k' & -> & ->) & _). split; reflexivity. Qed.
  Lemma relevant_alike (d d' : D) : edges d ~~ edges d' -> relevant_edges d = edges d /\ relevant_edges d' = edges d'.
  Proof.
    unfold relevant_edges. induction 1 as [|e e' l l' A F [IH1 IH2]]; cbn [filter]; auto.
    destruct (alike_finite e e' A) as [-> ->]. now rewrite IH1, IH2.
  Qed.
  Lemma forward_alike (es es' : list eedge) : es ~~ es' -> forall r, fold_left forward_step es r = fold_left forward_step es' r.
  Proof. induction 1 as [|e e' es es' (A1 & A2 & _) F IH]; intros r; cbn [fold_left]; auto. unfold forward_step at 2 4. now rewrite A1, A2, IH. Qed.
  Lemma backward_alike (es es' : list eedge) : es ~~ es' -> forall r, fold_left backward_step es r = fold_left backward_step es' r.
  Proof. induction 1 as [|e e' es es' (A1 & A2 & _) F IH]; intros r; cbn [fold_left]; auto. unfold backward_step at 2 4. now rewrite A1, A2, IH. Qed.
  Lemma forward_outside (es es' : list eedge) : es ~~ es' -> forall r, Forall (fun s => is_low s = false) r -> Forall (fun s => is_low s = false) (fold_left forward_step es r).
  Proof.
    induction 1 as [|e e' es es' A F IH]; intros r R; cbn [fold_left]; auto. apply IH. unfold forward_step. destruct (mem (source e) r) eqn:E; auto.
    constructor; auto. destruct A as (_ & _ & _ & _ & _ & A). apply A. apply mem_true_iff in E. rewrite Forall_forall in R. auto.
  Qed.
  Lemma Forall2_reverse {A B} (R : A -> B -> Prop) l l' : Forall2 R l l' -> Forall2 R (rev l) (rev l').
  Proof. induction 1; cbn; auto. apply Forall2_app; auto. Qed.
  Lemma reachable_alike (d d' : D) : alike_dags d d' -> forward_reachable d = forward_reachable d' /\ backward_reachable d = backward_reachable d'.
  Proof.
    intros (E1 & E2 & _ & F). unfold forward_reachable, backward_reachable. destruct (relevant_alike d d' F) as [-> ->]. rewrite <- E1, <- E2.
    split; [now apply forward_alike|apply backward_alike; now apply Forall2_reverse].
  Qed.
  Lemma filter_alike (f : eedge -> bool) (es es' : list eedge) : es ~~ es' -> (forall e e', alike e e' -> f e = f e') ->
    (forall e, f e = true -> is_low (source e) = false) -> filter f es = filter f es'.
  Proof.
    intros F H1 H2. induction F as [|e e' es es' A F IH]; cbn [filter]; auto. rewrite <- (H1 e e' A). destruct (f e) eqn:E; auto. f_equal; auto.
    destruct A as (A1 & A2 & A3 & A4 & _ & A5). destruct (A5 (H2 e E)) as [A6 _]. destruct e, e'. cbn in *. now subst.
  Qed.
  Lemma forward_low (d d' : D) s : alike_dags d d' -> mem s (forward_reachable d) = true -> is_low s = false.
  Proof.
    intros (_ & _ & I & F) R. apply mem_true_iff in R. assert (G : Forall (fun s => is_low s = false) (forward_reachable d)).
    { unfold forward_reachable. destruct (relevant_alike d d' F) as [-> _]. eapply forward_outside; eauto. }
    rewrite Forall_forall in G. auto.
  Qed.
  Lemma prune_alike (d d' : D) : alike_dags d d' -> prune_to_reachable d = prune_to_reachable d'.
  Proof.
    intros A. pose proof (reachable_alike d d' A) as [R1 R2]. pose proof (fun s => forward_low d d' s A) as Lo. destruct A as (E1 & E2 & I & F).
    unfold prune_to_reachable. rewrite <- E1, <- E2. f_equal.
    assert (C : compute_reachable_states d = compute_reachable_states d') by (unfold compute_reachable_states; now rewrite <- R1, <- R2). rewrite <- C.
    apply filter_alike; auto.
    - intros e e' A. destruct (alike_finite e e' A) as [-> ->]. destruct A as (-> & -> & _). reflexivity.
    - intros e H. apply andb_true_iff in H as [H _]. apply andb_true_iff in H as [_ H]. apply Lo. apply mem_true_iff in H. apply mem_true_iff.
      unfold compute_reachable_states in H. now apply filter_In in H as [H _].
  Qed.
  Lemma prune_jit_alike (d d' : D) : alike_dags d d' -> prune_to_reachable_jit d = prune_to_reachable_jit d'.
  Proof.
    intros A. pose proof (reachable_alike d d' A) as [R1 R2]. pose proof (fun s => forward_low d d' s A) as Lo. destruct A as (E1 & E2 & I & F).
    unfold prune_to_reachable_jit. rewrite <- E1, <- E2, <- R1, <- R2. destruct (relevant_alike d d' F) as [-> ->]. f_equal.
    apply filter_alike; auto.
    - intros e e' A. destruct A as (-> & -> & _). reflexivity.
    - intros e H. apply andb_true_iff in H as [H _]. now apply Lo.
  Qed.
  Lemma construct_alike {M} {md : EqDec M} P P' (ns : list (node M)) (target : storage M) : same_outside_regions P P' -> Forall (free is_start) ns ->
    match construct_edit_dag P (pack ns) target, construct_edit_dag P' (pack ns) target with
    | Ok d, Ok d' => alike_dags d d' | Err x, Err x' => x = x' | _, _ => False
    end.
  Proof.
    intros S F. unfold construct_edit_dag. rewrite read_pack. cbn [bind]. destruct (read_tree target) as [ts|x]; cbn [bind]; auto.
    match goal with |- context [add_edges ?d (rows P ?q ?h ?i ?ps ?t ++ ?l)] =>
      assert (A : rows P q h i ps t ++ l ~~ rows P' q h i ps t ++ l);
      [|pose proof (add_edges_alike _ _ A d d eq_refl eq_refl ltac:(constructor)) as B] end.
    { apply Forall2_app; [apply rows_alike; auto; unfold labelled; now rewrite erase_labs|]. constructor; [|constructor].
      unfold alike. cbn [source dest assignment info ecost is_low]. splits; eauto. }
    destruct (add_edges _ _) as [r|x], (add_edges _ _) as [r'|x']; cbn [bind]; try contradiction; auto.
    destruct B as (B1 & B2 & B3). unfold alike_dags, partial_finish. cbn [initial_state final_state edges]. rewrite B1 in *. splits; auto.
  Qed.
End Prune.
