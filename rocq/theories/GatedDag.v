(** Model of r_u_sure/decision_diagrams/gated_state_dag.py: building DAGs edge
    by edge, reachability and pruning. *)

From Coq Require Import List Bool Arith Lia.
From Verif Require Import Base Graph.
Import ListNotations.

Section GatedDag.
  Context {St As In : Type} `{EqDec St}.
  Notation E := (edge St As In).
  Notation D := (dag St As In).

  (** gated_state_dag.py:83-106, [extract_state_list]. *)
  Definition extract_state_list (d : D) : list St :=
    fold_left
      (fun result e =>
         let result1 := if mem (source e) result then result else result ++ [source e] in
         if mem (dest e) result1 then result1 else result1 ++ [dest e])
      (edges d) [].

  (** gated_state_dag.py:124, the edges with [edge.cost < math.inf]. *)
  Definition relevant_edges (d : D) : list E :=
    filter (fun e => cltb (ecost e) Inf) (edges d).

  (** gated_state_dag.py:127-130: one forward pass. *)
  Definition forward_step (reach : list St) (e : E) : list St :=
    if mem (source e) reach then dest e :: reach else reach.
  Definition forward_reachable (d : D) : list St :=
    fold_left forward_step (relevant_edges d) [initial_state d].

  (** gated_state_dag.py:133-136: one backward pass over the reversed list. *)
  Definition backward_step (reach : list St) (e : E) : list St :=
    if mem (dest e) reach then source e :: reach else reach.
  Definition backward_reachable (d : D) : list St :=
    fold_left backward_step (rev (relevant_edges d)) [final_state d].

  (** gated_state_dag.py:138: the intersection of the two sets. *)
  Definition compute_reachable_states (d : D) : list St :=
    filter (fun s => mem s (backward_reachable d)) (forward_reachable d).

  (** gated_state_dag.py:141-158, the pure Python [prune_to_reachable]. *)
  Definition prune_to_reachable (d : D) : D :=
    let reachable := compute_reachable_states d in
    mkDag (initial_state d)
      (filter (fun e => cltb (ecost e) Inf
                        && mem (source e) reachable && mem (dest e) reachable)
              (edges d))
      (final_state d).

  (** gated_state_dag.py:161-197, the numba overload of [prune_to_reachable]. *)
  Definition prune_to_reachable_jit (d : D) : D :=
    mkDag (initial_state d)
      (filter (fun e => mem (source e) (forward_reachable d)
                        && mem (dest e) (backward_reachable d))
              (relevant_edges d))
      (final_state d).

  (** gated_state_dag.py:206-222, [PartialStateDAG]. *)
  Record partial_dag := mkPartial {
    p_initial : St;
    p_edges : list E;
    p_seen_outgoing : list (St * St)
  }.

  (** gated_state_dag.py:225-229. *)
  Definition partial_starting_from (s : St) : partial_dag := mkPartial s [] [].

  (** gated_state_dag.py:246-272, the pure Python [partial_state_dag_add_edge]
      (and its numba version with CHECK_ORDERING_UNDER_JIT, lines 285-305).
      Formatting the error message evaluates [dag.seen_outgoing[edge.source]]
      (line 252), which raises [KeyError] when the source has no outgoing edge
      yet.  EDGE_TRACEBACKS_ENABLED is off here (its
      default); Tracebacks.v has the function with the flag. *)
  Definition add_edge (d : partial_dag) (e : E) : result partial_dag :=
    match assoc (dest e) (p_seen_outgoing d) with
    | Some _ =>
        match assoc (source e) (p_seen_outgoing d) with
        | Some _ => Err ValueError
        | None => Err KeyError
        end
    | None =>
        Ok (mkPartial (p_initial d) (p_edges d ++ [e])
                      ((source e, dest e) :: p_seen_outgoing d))
    end.

  (** gated_state_dag.py:309-311, the numba version used by default, without
      the ordering check. *)
  Definition add_edge_unchecked (d : partial_dag) (e : E) : partial_dag :=
    mkPartial (p_initial d) (p_edges d ++ [e]) (p_seen_outgoing d).

  (** gated_state_dag.py:316-324. *)
  Definition partial_finish (d : partial_dag) (s : St) : D :=
    mkDag (p_initial d) (p_edges d) s.

  (** A history of calls by a caller that catches the exceptions: a failing
      call leaves the DAG as it was (the check precedes both mutations). *)
  Fixpoint add_edges_catching (d : partial_dag) (es : list E) : partial_dag :=
    match es with
    | [] => d
    | e :: es' =>
        match add_edge d e with
        | Ok d' => add_edges_catching d' es'
        | Err _ => add_edges_catching d es'
        end
    end.

  (** A history of calls by a caller that stops at the first exception. *)
  Fixpoint add_edges (d : partial_dag) (es : list E) : result partial_dag :=
    match es with
    | [] => Ok d
    | e :: es' => do d' <- add_edge d e; add_edges d' es'
    end.
End GatedDag.
Arguments partial_dag : clear implicits.

Section GatedDagProofs.
  Context {St As In : Type} `{EqDec St}.
  Notation E := (edge St As In).
  Notation D := (dag St As In).

  Lemma finite_edge_iff (e : E) : cltb (ecost e) Inf = true <-> finite_edge e.
  Proof. apply is_finite_iff. Qed.

  Lemma relevant_In (d : D) e :
    List.In e (relevant_edges d) <-> List.In e (edges d) /\ finite_edge e.
  Proof. unfold relevant_edges. rewrite filter_In, finite_edge_iff. tauto. Qed.

  Lemma relevant_ordered (d : D) : ordered (edges d) -> ordered (relevant_edges d).
  Proof. apply ordered_filter. Qed.

  (** *** The forward pass computes reachability. *)
  Lemma forward_mono (es : list E) S0 s :
    List.In s S0 -> List.In s (fold_left forward_step es S0).
  Proof.
    revert S0; induction es as [|e es IH]; simpl; auto. intros S0 Hs. apply IH.
    unfold forward_step. destruct (mem (source e) S0); simpl; auto.
  Qed.

  Lemma forward_sound (es : list E) i s :
    forall done S0,
    (forall x, List.In x S0 -> exists p, is_path (done ++ es) i p x) ->
    List.In s (fold_left forward_step es S0) ->
    exists p, is_path (done ++ es) i p s.
  Proof.
    induction es as [|e es IH]; simpl; intros done S0 HS Hs.
    - auto.
    - replace (done ++ e :: es) with ((done ++ [e]) ++ es) in *
        by (now rewrite <- app_assoc).
      apply (IH (done ++ [e]) (forward_step S0 e)); auto.
      intros x Hx. unfold forward_step in Hx.
      destruct (mem (source e) S0) eqn:M; auto.
      destruct Hx as [<-|Hx]; auto.
      apply mem_true_iff in M. destruct (HS _ M) as [p Hp].
      exists (p ++ [e]). apply is_path_snoc; auto.
      apply in_or_app; left. apply in_or_app; right. simpl; auto.
  Qed.

  (** What the pass adds while processing [es] are destinations of [es]. *)
  Lemma forward_added (es : list E) S0 s :
    List.In s (fold_left forward_step es S0) ->
    List.In s S0 \/ exists e, List.In e es /\ dest e = s.
  Proof.
    revert S0; induction es as [|e es IH]; simpl; intros S0 Hs; auto.
    apply IH in Hs as [Hs|[e' [He' <-]]]; [|eauto].
    unfold forward_step in Hs. destruct (mem (source e) S0); [|auto].
    destruct Hs as [<-|Hs]; eauto.
  Qed.

  Lemma forward_closed (es : list E) S0 e :
    ordered es -> List.In e es ->
    List.In (source e) (fold_left forward_step es S0) ->
    List.In (dest e) (fold_left forward_step es S0).
  Proof.
    intros Ho He Hs. apply in_split in He as [l1 [l2 ->]].
    rewrite fold_left_app_cons in *.
    apply ordered_app in Ho as [_ [[H2 _] _]].
    apply forward_added in Hs as [Hs|[e' [He' Heq]]].
    - apply forward_mono.
      unfold forward_step in *.
      destruct (mem (source e) (fold_left (fun reach e0 => if mem (source e0) reach then dest e0 :: reach else reach) l1 S0)) eqn:M.
      + simpl; auto.
      + apply mem_false_iff in M. contradiction.
    - exfalso. eapply H2; eauto.
  Qed.

  Lemma forward_complete (es : list E) i S0 :
    ordered es -> List.In i S0 ->
    forall p s, is_path es i p s -> List.In s (fold_left forward_step es S0).
  Proof.
    intros Ho Hi p s Hp.
    assert (Hgen : forall p s0 s, is_path es s0 p s ->
              List.In s0 (fold_left forward_step es S0) ->
              List.In s (fold_left forward_step es S0)).
    { clear p s Hp. induction 1 as [|e p t He Hp IH]; auto.
      intros Hs. apply IH. now apply forward_closed. }
    eapply Hgen; [exact Hp|]. now apply forward_mono.
  Qed.

  (** Paths over the relevant edges are finite paths. *)
  Lemma relevant_path (d : D) s p t :
    is_path (relevant_edges d) s p t <->
    is_path (edges d) s p t /\ Forall finite_edge p.
  Proof.
    split.
    - intros Hp. split.
      + eapply is_path_incl; [|exact Hp].
        intros e He. eapply is_path_In in He; [|exact Hp]. now apply relevant_In in He.
      + apply Forall_forall. intros e He. eapply is_path_In in He; [|exact Hp].
        now apply relevant_In in He.
    - intros [Hp Hf]. eapply is_path_incl; [|exact Hp].
      intros e He. apply relevant_In. split.
      + eapply is_path_In; eauto.
      + rewrite Forall_forall in Hf; auto.
  Qed.

  Lemma forward_reachable_iff (d : D) s :
    ordered (edges d) ->
    (List.In s (forward_reachable d) <->
     exists p, is_path (edges d) (initial_state d) p s /\ Forall finite_edge p).
  Proof.
    intros Ho. split.
    - intros Hs. unfold forward_reachable in Hs.
      apply (forward_sound (relevant_edges d) (initial_state d) s []) in Hs.
      + destruct Hs as [p Hp]. exists p. now apply relevant_path.
      + intros x [<-|[]]. exists []. constructor.
    - intros [p Hp]. apply relevant_path in Hp.
      eapply forward_complete; eauto.
      + now apply relevant_ordered.
      + simpl; auto.
  Qed.

  (** *** The backward pass. *)
  Lemma backward_mono (es : list E) S0 s :
    List.In s S0 -> List.In s (fold_left backward_step es S0).
  Proof.
    revert S0; induction es as [|e es IH]; simpl; auto. intros S0 Hs. apply IH.
    unfold backward_step. destruct (mem (dest e) S0); simpl; auto.
  Qed.
  Lemma backward_added (es : list E) S0 s :
    List.In s (fold_left backward_step es S0) ->
    List.In s S0 \/ exists e, List.In e es /\ source e = s.
  Proof.
    revert S0; induction es as [|e es IH]; simpl; intros S0 Hs; auto.
    apply IH in Hs as [Hs|[e' [He' <-]]]; [|eauto].
    unfold backward_step in Hs. destruct (mem (dest e) S0); [|auto].
    destruct Hs as [<-|Hs]; eauto.
  Qed.
  Lemma backward_sound (all es : list E) t s :
    (forall e, List.In e es -> List.In e all) ->
    forall S0,
    (forall x, List.In x S0 -> exists p, is_path all x p t) ->
    List.In s (fold_left backward_step es S0) ->
    exists p, is_path all s p t.
  Proof.
    induction es as [|e es IH]; simpl; intros Hin S0 HS Hs; auto.
    apply (IH (fun e0 Hi => Hin e0 (or_intror Hi)) (backward_step S0 e)); auto.
    intros x Hx. unfold backward_step in Hx.
    destruct (mem (dest e) S0) eqn:M; auto.
    destruct Hx as [<-|Hx]; auto.
    apply mem_true_iff in M. destruct (HS _ M) as [p Hp].
    exists (e :: p). constructor; auto.
  Qed.
  Lemma backward_closed (es : list E) S0 e :
    ordered es -> List.In e es ->
    List.In (dest e) (fold_left backward_step (rev es) S0) ->
    List.In (source e) (fold_left backward_step (rev es) S0).
  Proof.
    intros Ho He Hs. apply in_split in He as [l1 [l2 ->]].
    rewrite rev_app_distr in *. simpl in *. rewrite <- app_assoc in *. simpl in *.
    rewrite fold_left_app_cons in *.
    apply ordered_app in Ho as [_ [_ H3]].
    apply backward_added in Hs as [Hs|[e' [He' Heq]]].
    - apply backward_mono.
      unfold backward_step at 1. unfold backward_step at 1 in Hs.
      destruct (mem (dest e) (fold_left backward_step (rev l2) S0)) eqn:M.
      + simpl; auto.
      + apply mem_false_iff in M. contradiction.
    - exfalso. apply in_rev in He'. eapply (H3 e' e); simpl; eauto.
  Qed.
  Lemma backward_complete (es : list E) t S0 :
    ordered es -> List.In t S0 ->
    forall p s, is_path es s p t -> List.In s (fold_left backward_step (rev es) S0).
  Proof.
    intros Ho Hi p s Hp. revert Hi. induction Hp as [|e p t He Hp IH]; intros Hi.
    - now apply backward_mono.
    - apply backward_closed; auto.
  Qed.
  Lemma backward_reachable_iff (d : D) s :
    ordered (edges d) ->
    (List.In s (backward_reachable d) <->
     exists p, is_path (edges d) s p (final_state d) /\ Forall finite_edge p).
  Proof.
    intros Ho. split.
    - intros Hs. unfold backward_reachable in Hs.
      apply (backward_sound (relevant_edges d) _ (final_state d)) in Hs.
      + destruct Hs as [p Hp]. exists p. now apply relevant_path.
      + intros e He. now apply in_rev in He.
      + intros x [<-|[]]. exists []. constructor.
    - intros [p Hp]. apply relevant_path in Hp.
      eapply backward_complete; eauto.
      + now apply relevant_ordered.
      + simpl; auto.
  Qed.

  Lemma reachable_iff (d : D) s :
    List.In s (compute_reachable_states d) <->
    List.In s (forward_reachable d) /\ List.In s (backward_reachable d).
  Proof. unfold compute_reachable_states. rewrite filter_In, mem_true_iff. tauto. Qed.

  Definition keep_edge (d : D) (e : E) : bool :=
    cltb (ecost e) Inf && mem (source e) (compute_reachable_states d)
    && mem (dest e) (compute_reachable_states d).

  (** An edge survives iff it lies on a complete finite path. *)
  Definition on_finite_complete_path (d : D) (e : E) : Prop :=
    exists p1 p2, complete_path d (p1 ++ e :: p2) /\ Forall finite_edge (p1 ++ e :: p2).

  Lemma keep_edge_iff (d : D) e :
    ordered (edges d) -> List.In e (edges d) ->
    (keep_edge d e = true <-> on_finite_complete_path d e).
  Proof.
    intros Ho He. unfold keep_edge.
    rewrite !andb_true_iff, !mem_true_iff, !reachable_iff, finite_edge_iff.
    rewrite !forward_reachable_iff, !backward_reachable_iff by assumption.
    split.
    - intros [[Hf [[p1 [Hp1 Hf1]] _]] [_ [p2 [Hp2 Hf2]]]].
      exists p1, p2. split.
      + unfold complete_path. eapply is_path_app; [exact Hp1|]. constructor; auto.
      + apply Forall_app; split; auto.
    - intros [p1 [p2 [Hp Hf]]].
      apply Forall_app in Hf as [Hf1 Hf2]. inversion Hf2 as [|? ? Hfe Hf2']; subst.
      unfold complete_path in Hp. apply is_path_app_inv in Hp as [t [Hp1 Hp2]].
      apply is_path_cons_inv in Hp2 as [-> [_ Hp2]].
      split; [split; [assumption|split]|split].
      + eauto.
      + exists (e :: p2). split; [constructor; auto|assumption].
      + exists (p1 ++ [e]). split; [apply is_path_snoc; auto|apply Forall_app; split; auto].
      + eauto.
  Qed.

  Theorem prune_spec (d : D) :
    ordered (edges d) ->
    initial_state (prune_to_reachable d) = initial_state d /\
    final_state (prune_to_reachable d) = final_state d /\
    (exists keep : E -> bool,
        edges (prune_to_reachable d) = filter keep (edges d) /\
        (forall e, List.In e (edges d) ->
                   (keep e = true <-> on_finite_complete_path d e))) /\
    (forall p, complete_path (prune_to_reachable d) p <->
               complete_path d p /\ Forall finite_edge p).
  Proof.
    intros Ho. split; [reflexivity|split; [reflexivity|split]].
    - exists (keep_edge d). split; [reflexivity|]. intros e He. now apply keep_edge_iff.
    - intros p. unfold complete_path. simpl. fold (keep_edge d).
      split.
      + intros Hp. split.
        * eapply is_path_incl; [|exact Hp]. intros e He.
          eapply is_path_In in He; [|exact Hp]. now apply filter_In in He.
        * apply Forall_forall. intros e He.
          eapply is_path_In in He; [|exact Hp]. apply filter_In in He as [_ K].
          unfold keep_edge in K. rewrite !andb_true_iff in K.
          now apply finite_edge_iff.
      + intros [Hp Hf]. eapply is_path_incl; [|exact Hp].
        intros e He. apply filter_In. split; [eapply is_path_In; eauto|].
        change (keep_edge d e = true).
        apply keep_edge_iff; auto; [eapply is_path_In; eauto|].
        apply in_split in He as [p1 [p2 ->]]. exists p1, p2. split; assumption.
  Qed.

  Theorem prune_jit_agrees (d : D) :
    ordered (edges d) -> prune_to_reachable_jit d = prune_to_reachable d.
  Proof.
    intros Ho. unfold prune_to_reachable_jit, prune_to_reachable. f_equal.
    unfold relevant_edges. rewrite filter_filter. apply filter_ext_in.
    intros e He. apply eq_iff_eq_true.
    change (cltb (ecost e) Inf && mem (source e) (compute_reachable_states d) && mem (dest e) (compute_reachable_states d)) with (keep_edge d e).
    rewrite keep_edge_iff by assumption.
    rewrite !andb_true_iff, !mem_true_iff, finite_edge_iff.
    rewrite forward_reachable_iff, backward_reachable_iff by assumption.
    split.
      + intros [Hf [[p1 [Hp1 Hf1]] [p2 [Hp2 Hf2]]]].
        exists p1, p2. split; [|apply Forall_app; split; auto].
        eapply is_path_app; [exact Hp1|]. constructor; auto.
      + intros [p1 [p2 [Hp Hf]]]. apply Forall_app in Hf as [Hf1 Hf2].
        inversion Hf2; subst. apply is_path_app_inv in Hp as [t [Hp1 Hp2]].
        apply is_path_cons_inv in Hp2 as [-> [_ Hp2]]. eauto 8.
  Qed.

  (** *** add_edge histories. *)
  Definition partial_inv (d : partial_dag St As In) : Prop :=
    ordered (p_edges d) /\
    (forall s, List.In s (map fst (p_seen_outgoing d)) <->
               exists e, List.In e (p_edges d) /\ source e = s).

  Lemma partial_inv_start s : partial_inv (partial_starting_from s).
  Proof. split; simpl; [exact I|]. intros s'; split; [tauto|intros [e [[] _]]]. Qed.

  Lemma add_edge_inv d e d' :
    partial_inv d -> add_edge d e = Ok d' -> partial_inv d'.
  Proof.
    intros [Ho Hs]. unfold add_edge.
    destruct (assoc (dest e) (p_seen_outgoing d)) eqn:A.
    { destruct (assoc (source e) (p_seen_outgoing d)); discriminate. }
    intros [= <-]. apply assoc_None_iff in A. rewrite Hs in A. split; simpl.
    - apply ordered_app. split; [assumption|split; [simpl; tauto|]].
      intros a b Ha [<-|[]] Heq. apply A. exists a. split; auto.
    - intros s. rewrite Hs. split.
      + intros [<-|[a [Ha <-]]]; [exists e|exists a]; split; auto;
          apply in_or_app; simpl; auto.
      + intros [a [Ha <-]]. apply in_app_or in Ha as [Ha|[<-|[]]]; eauto.
  Qed.

  Lemma add_edge_ok_iff d e :
    partial_inv d ->
    ((exists d', add_edge d e = Ok d') <->
     (forall e', List.In e' (p_edges d) -> source e' <> dest e)).
  Proof.
    intros [Ho Hs]. unfold add_edge.
    destruct (assoc (dest e) (p_seen_outgoing d)) eqn:A.
    - split.
      + intros [d' Hd]. destruct (assoc (source e) (p_seen_outgoing d)); discriminate.
      + intros Hn. exfalso. apply assoc_In in A.
        apply (in_map fst) in A. simpl in A. apply Hs in A as [e' [He' Heq]].
        now apply (Hn e').
    - split; [|eauto]. intros _ e' He' Heq. apply assoc_None_iff in A.
      rewrite Hs in A. apply A. eauto.
  Qed.

  Lemma add_edge_ok_effect (d : partial_dag St As In) e d' :
    add_edge d e = Ok d' -> p_edges d' = p_edges d ++ [e] /\ p_initial d' = p_initial d.
  Proof.
    unfold add_edge.
    destruct (assoc (dest e) (p_seen_outgoing d));
      [destruct (assoc (source e) (p_seen_outgoing d)); discriminate|].
    intros [= <-]. auto.
  Qed.

  Lemma add_edges_catching_inv (es : list E) : forall (d : partial_dag St As In),
    partial_inv d -> partial_inv (add_edges_catching d es).
  Proof.
    induction es as [|e es IH]; simpl; auto. intros d Hd.
    destruct (add_edge d e) eqn:A; auto. apply IH. eapply add_edge_inv; eauto.
  Qed.

  Lemma add_edges_inv (es : list E) : forall (d : partial_dag St As In) d',
    partial_inv d -> add_edges d es = Ok d' ->
    partial_inv d' /\ p_edges d' = p_edges d ++ es /\ p_initial d' = p_initial d.
  Proof.
    induction es as [|e es IH]; simpl; intros d d' Hd Heq.
    - injection Heq as <-. rewrite app_nil_r. auto.
    - apply bind_ok_inv in Heq as [d1 [H1 H2]].
      pose proof (add_edge_inv _ _ _ Hd H1) as Hd1.
      apply IH in H2 as [H3 [H4 H5]]; auto.
      apply add_edge_ok_effect in H1 as [H6 H7].
      rewrite H4, H5, H6, H7, <- app_assoc. auto.
  Qed.

  (** Adding a whole list succeeds exactly when it is ordered and compatible
      with what is there. *)
  Lemma add_edges_ok_iff (es : list E) : forall (d : partial_dag St As In),
    partial_inv d ->
    ((exists d', add_edges d es = Ok d') <-> ordered (p_edges d ++ es)
     ) .
  Proof.
    induction es as [|e es IH]; simpl; intros d Hd.
    - rewrite app_nil_r. split; [intros _; apply Hd|eauto].
    - split.
      + intros [d' Heq]. apply bind_ok_inv in Heq as [d1 [H1 H2]].
        pose proof (add_edge_inv _ _ _ Hd H1) as Hd1.
        apply add_edge_ok_effect in H1 as [H6 H7].
        replace (p_edges d ++ e :: es) with (p_edges d1 ++ es)
          by (rewrite H6, <- app_assoc; reflexivity).
        apply IH; eauto.
      + intros Ho.
        assert (Hok : exists d1, add_edge d e = Ok d1).
        { apply add_edge_ok_iff; auto. intros e' He' Heq.
          apply ordered_app in Ho as [_ [_ Ho]].
          apply (Ho e' e); simpl; auto. }
        destruct Hok as [d1 H1]. rewrite H1. simpl. apply IH.
        * eapply add_edge_inv; eauto.
        * apply add_edge_ok_effect in H1 as [H6 H7].
          rewrite H6, <- app_assoc. exact Ho.
  Qed.
End GatedDagProofs.
