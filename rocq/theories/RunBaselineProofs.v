(** Facts about [build_baselines]: dictionaries, collected results, and the text
    before an exit. *)

From Coq Require Import List Bool Arith Lia ZArith QArith Qcanon Sorting.Sorted.
From Verif Require Import Base SeqNodes Transforms PackedSeq PackedSeqProofs Numbered Decisions TokenProb RegionDecisions RegionProofs PrefixBaselines PrefixTheorems
  PseudoParse Combine CombineSpec CombineStats CombineTheorems RunBaselines.
Import ListNotations.
Close Scope Qc_scope. Close Scope Q_scope. Close Scope Z_scope. Open Scope nat_scope.

Section Dict.
  Context {K V : Type} {ek : EqDec K}.
  Lemma dict_set_in (k : K) (v : V) d k' v' : In (k', v') (dict_set k v d) -> (k' = k /\ v' = v) \/ In (k', v') d.
  Proof.
    induction d as [|[k0 v0] d IH]; cbn [dict_set]; [intros [[= <- <-]|[]]; auto|]. destruct (eqb k k0) eqn:E; cbn [In].
    - intros [[= <- <-]|H]; auto.
    - intros [H|H]; auto. destruct (IH H); auto.
  Qed.
  Lemma dict_set_keys (k : K) (v : V) d k' : In k' (map fst (dict_set k v d)) <-> k' = k \/ In k' (map fst d).
  Proof.
    induction d as [|[k0 v0] d IH]; cbn [dict_set map fst In]; [intuition|]. destruct (eqb k k0) eqn:E; cbn [map fst In].
    - apply eqb_eq in E. subst k0. intuition.
    - rewrite IH. tauto.
  Qed.
  Lemma dict_set_nodup (k : K) (v : V) d : NoDup (map fst d) -> NoDup (map fst (dict_set k v d)).
  Proof.
    induction d as [|[k0 v0] d IH]; cbn [dict_set map fst]; intros H; [repeat constructor; auto|]. inversion H as [|? ? A B]; subst.
    destruct (eqb k k0) eqn:E; cbn [map fst].
    - apply eqb_eq in E. subst k0. now constructor.
    - apply eqb_neq in E. constructor; auto. rewrite dict_set_keys. intros [C|C]; auto.
  Qed.
  Lemma collect_ok (build : K -> result V) (todo : list K) : (forall k, In k todo -> exists v, build k = Ok v) -> forall acc,
    NoDup (map fst acc) -> (forall k v, In (k, v) acc -> build k = Ok v) ->
    exists results, collect build todo acc = Ok results /\ NoDup (map fst results) /\
      (forall k, In k (map fst results) <-> In k todo \/ In k (map fst acc)) /\ forall k v, In (k, v) results -> build k = Ok v.
  Proof.
    induction todo as [|k todo IH]; intros Hb acc N Ha; cbn [collect].
    - exists acc. splits; auto. intros k. cbn. tauto.
    - destruct (Hb k (or_introl eq_refl)) as [v Ev]. rewrite Ev. cbn [bind].
      destruct (IH (fun k' H => Hb k' (or_intror H)) (dict_set k v acc)) as [r [R1 [R2 [R3 R4]]]].
      + now apply dict_set_nodup.
      + intros k' v' Hi. destruct (dict_set_in _ _ _ _ _ Hi) as [[-> ->]|H]; auto.
      + exists r. splits; auto. intros k'. rewrite R3, dict_set_keys. cbn [In]. split; [intros [A|[A|A]]; auto|intros [[A|A]|A]; auto].
  Qed.
End Dict.

Section Results.
  Context {M K : Type}.
  Lemma collect_results_ok (info : option text) (S T : storage M) (l : list (K * assignments)) :
    (forall k asg, In (k, asg) l -> exists parts, extract_sequence_with_regions S asg [] = (parts, None)) ->
    exists results, collect_results info S T l = Ok results /\ map fst results = map fst l /\
      forall k r, In (k, r) results -> In (k, b_assignment_map r) l /\ b_context_info r = info /\ b_prototype r = S /\ b_prototype_as_target r = T /\
        extract_sequence_with_regions S (b_assignment_map r) [] = (b_extracted_parts r, None).
  Proof.
    induction l as [|[k asg] l IH]; intros H; cbn [collect_results]; [exists []; splits; auto; intros k r []|].
    destruct (H k asg (or_introl eq_refl)) as [parts E]. unfold extracted_only. rewrite E. cbn [bind].
    destruct IH as [r [R1 [R2 R3]]]; [intros; eapply H; right; eauto|]. rewrite R1. cbn [bind]. eexists. split; [reflexivity|].
    cbn [map fst]. split; [now rewrite R2|]. intros k' r' [[= <- <-]|Hi]; [cbn; splits; auto|]. destruct (R3 _ _ Hi) as [A B]. split; auto. now right.
  Qed.
End Results.

Section Before.
  Context {M : Type}.
  Notation L := (lnode M).
  Lemma filter_none {A} (f : A -> bool) l : Forall (fun x => f x = false) l -> filter f l = [].
  Proof. induction 1 as [|x l Hx HF IH]; cbn; auto. now rewrite Hx. Qed.
  Lemma before_prefix (all : list L) e : StronglySorted (fun x y => number x < number y) all -> exists after, all = before all e ++ after.
  Proof.
    unfold before. induction 1 as [|x l H [after IH] F]; [exists []; auto|]. cbn [filter]. destruct (Nat.ltb_spec (number x) e) as [C|C].
    - exists after. cbn [app]. now rewrite <- IH.
    - exists (x :: l). rewrite filter_none; auto. eapply Forall_impl; [|exact F]. cbn beta. intros y Hy. apply Nat.ltb_ge. lia.
  Qed.
  Definition shown_of (l : list L) : list (text * bool) := flat_map (fun x => match text_in x with Some t => [(t, false)] | None => [] end) l.
  Lemma shown_of_text l : concat (map fst (shown_of l)) = RegionProofs.texts l.
  Proof.
    induction l as [|x l IH]; auto. unfold shown_of in *. cbn [flat_map]. rewrite map_app, concat_app, IH, texts_cons. unfold ltext.
    destruct (text_in x); cbn; now rewrite ?app_nil_r.
  Qed.
  Lemma shown_of_flags l : Forall (fun p => snd p = false) (shown_of l).
  Proof. apply Forall_flat_map, Forall_forall. intros x _. destruct (text_in x); repeat constructor. Qed.

  Definition is_end (n : node M) : bool := match n with RegionEnd => true | _ => false end.
  Lemma early_free_end (ns : list (node M)) w s : Forall (free is_end) ns -> Forall (free is_end) (insert_early_exit ns w s).
  Proof.
    assert (G : forall n : node M, free is_end n -> Forall (free is_end) (early_exit_node w n)).
    { induction n as [t|t m| | | |cs m IH] using node_ind'; intros H; cbn [early_exit_node]; try (repeat constructor; auto; fail).
      apply free_group in H. destruct w; constructor; try (repeat constructor; fail); apply free_group; auto.
      apply Forall_flat_map. rewrite Forall_forall in *. intros c Hc. apply IH; auto. }
    intros F. unfold insert_early_exit. apply Forall_app. split; [destruct s; repeat constructor|]. apply Forall_flat_map. eapply Forall_impl; [|exact F]. exact G.
  Qed.
  Lemma free_ends (l : list L) i : Forall (free is_end) (map erase l) -> ~ In (LEnd i) (flat_map nodes l).
  Proof.
    assert (G : forall x : L, free is_end (erase x) -> ~ In (LEnd i) (nodes x)).
    { induction x as [j t|j t m|j|j|j|j cs m IH] using lnode_ind'; cbn [erase nodes]; intros H [C|C]; try discriminate; try contradiction.
      apply free_group in H. apply in_flat_map in C as [c [C1 C2]]. rewrite Forall_forall in IH, H. apply (IH c C1); auto. apply H. now apply in_map. }
    intros F C. apply in_flat_map in C as [x [C1 C2]]. rewrite Forall_forall in F. apply (G x); auto. apply F. now apply in_map.
  Qed.
End Before.

(** The prototype of the prefix wrapper. *)
Section Prototype.
  Context (ns : list (node mtype)) (context : text).
  Hypothesis plain : no_decisions ns.
  Lemma exits_only i : ~ In (LStart i) (flat_map nodes (labelled (annotate false true ns (length context)))) /\
    ~ In (LEnd i) (flat_map nodes (labelled (annotate false true ns (length context)))).
  Proof using plain.
    unfold annotate. split.
    - apply free_starts. unfold labelled. rewrite erase_labs. eapply suffix_free; [apply truncate_suffix|]. apply early_free. now apply no_decisions_free.
    - apply free_ends. unfold labelled. rewrite erase_labs. eapply suffix_free; [apply truncate_suffix|]. apply early_free_end. now apply no_decisions_free.
  Qed.
End Prototype.
