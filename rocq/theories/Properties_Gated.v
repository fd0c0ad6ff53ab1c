(** C01-C04: building, pruning and renumbering state DAGs.
    Specification vocabulary: [Graph.v] ([is_path], [complete_path],
    [finite_edge], [ordered], [topological], [states_of]). *)

From Coq Require Import List Bool Arith Lia QArith Qcanon.
From Verif Require Import Base Graph GatedDag GatedDagRewrite.
Import ListNotations.
Close Scope Qc_scope. Close Scope Q_scope. Open Scope nat_scope.

(** ** C01.  Whatever calls were made (failing ones caught), the recorded edges
    are ordered; a call is accepted iff no recorded edge leaves its destination;
    an accepted call appends exactly its edge and a rejected one raises. *)
Theorem C01_add_edge_history :
  forall (St As In : Type) (dec : EqDec St) (s : St) (history : list (edge St As In)),
    let d := add_edges_catching (partial_starting_from s) history in
    ordered (p_edges d) /\
    p_initial d = s /\
    (forall e, (exists d', add_edge d e = Ok d') <->
               (forall e', List.In e' (p_edges d) -> source e' <> dest e)) /\
    (forall e d', add_edge d e = Ok d' ->
                  p_edges d' = p_edges d ++ [e] /\ p_initial d' = p_initial d) /\
    (forall final, edges (partial_finish d final) = p_edges d /\
                   initial_state (partial_finish d final) = s /\
                   final_state (partial_finish d final) = final).
Proof.
  intros St As In dec s h d.
  assert (I : partial_inv d) by (apply add_edges_catching_inv, partial_inv_start).
  assert (P : p_initial d = s).
  { assert (G : forall p, p_initial (add_edges_catching p h) = p_initial p).
    { clear. induction h as [|e h IH]; simpl; auto.
      intros p. destruct (add_edge p e) eqn:A; auto. rewrite IH.
      now apply add_edge_ok_effect in A. }
    apply G. }
  splits; auto.
  - apply I.
  - intros e. now apply add_edge_ok_iff.
  - intros e d'. apply add_edge_ok_effect.
Qed.

(** A whole list of calls goes through without exception iff it is ordered. *)
Theorem C01_add_edges_accepts_exactly_ordered :
  forall (St As In : Type) (dec : EqDec St) (s : St) (es : list (edge St As In)),
    (exists d, add_edges (partial_starting_from s) es = Ok d /\ p_edges d = es) <-> ordered es.
Proof.
  intros St As In dec s es.
  pose proof (add_edges_ok_iff es _ (partial_inv_start (As:=As) (In:=In) s)) as K.
  simpl in K. rewrite <- K. split.
  - intros [d [Hd _]]. eauto.
  - intros [d Hd]. exists d. split; auto.
    apply add_edges_inv in Hd as [_ [Hd _]]; [exact Hd|apply partial_inv_start].
Qed.

(** Finding: the rejection is a [KeyError] rather than the documented
    [ValueError] when the source has no outgoing edge yet. *)
Definition ed (a b : nat) (c : cost) : edge nat nat nat := mkEdge a b c None 0.
Definition one : cost := Fin 1%Qc.

Theorem C01_rejection_is_ValueError_refuted :
  ~ (forall (h : list (edge nat nat nat)) e x,
       add_edge (add_edges_catching (partial_starting_from 0) h) e = Err x ->
       x = ValueError).
Proof. intros H. specialize (H [ed 0 1 one] (ed 2 0 one) KeyError eq_refl). discriminate. Qed.

(** Finding: a self-loop is accepted, so acceptance alone does not give a DAG. *)
Theorem C01_accepted_is_acyclic_refuted :
  ~ (forall (h : list (edge nat nat nat)),
       topological (p_edges (add_edges_catching (partial_starting_from 0) h))).
Proof.
  intros H. specialize (H [ed 0 0 one]). destruct H as [_ H].
  apply (H (ed 0 0 one)); simpl; auto.
Qed.

(** Without self-loops it does: no accepted history closes a cycle. *)
Theorem C01_no_self_loop_topological :
  forall (St As In : Type) (dec : EqDec St) (s : St) (history : list (edge St As In)),
    (forall e, List.In e history -> source e <> dest e) ->
    let d := add_edges_catching (partial_starting_from s) history in
    topological (p_edges d) /\
    forall x p, is_path (p_edges d) x p x -> p = [].
Proof.
  intros St As In dec s h Hl d.
  assert (I : partial_inv d) by (apply add_edges_catching_inv, partial_inv_start).
  assert (Hsub : forall e, List.In e (p_edges d) -> List.In e h).
  { unfold d. assert (G : forall p : partial_dag St As In,
      (forall e, List.In e (p_edges p) -> List.In e h) ->
      forall h', (forall e, List.In e h' -> List.In e h) ->
      forall e, List.In e (p_edges (add_edges_catching p h')) -> List.In e h).
    { intros p Hp h'. revert p Hp. induction h' as [|e h' IH]; simpl; auto.
      intros p Hp Hh'. destruct (add_edge p e) eqn:A.
      - apply IH; [|intros; apply Hh'; auto].
        apply add_edge_ok_effect in A as [-> _]. intros e' He'.
        apply in_app_or in He' as [?|[<-|[]]]; auto.
      - apply IH; auto. }
    apply G; [simpl; tauto|auto]. }
  assert (T : topological (p_edges d)).
  { split; [apply I|]. intros e He. apply Hl. auto. }
  split; [assumption|].
  intros x p. now apply topological_acyclic.
Qed.

(** Hypotheses met: a history with a rejected call in the middle. *)
Example C01_example :
  let h := [ed 0 1 one; ed 1 2 one; ed 2 0 one; ed 0 2 one; ed 1 3 one] in
  p_edges (add_edges_catching (partial_starting_from 0) h)
  = [ed 0 1 one; ed 1 2 one; ed 0 2 one; ed 1 3 one]
  /\ (forall e, List.In e h -> source e <> dest e).
Proof.
  split; [reflexivity|]. simpl. intros e He.
  repeat (destruct He as [<-|He]; [discriminate|]). contradiction.
Qed.

(** ** C02.  Pruning an ordered DAG keeps exactly the edges lying on a complete
    path of finite edges, in their order, and hence exactly those paths. *)
Theorem C02_prune_preserves_finite_paths :
  forall (St As In : Type) (dec : EqDec St) (d : dag St As In),
    ordered (edges d) ->
    let d' := prune_to_reachable d in
    initial_state d' = initial_state d /\
    final_state d' = final_state d /\
    (exists keep, edges d' = filter keep (edges d) /\
       forall e, List.In e (edges d) ->
         (keep e = true <->
          exists p1 p2, complete_path d (p1 ++ e :: p2) /\
                        Forall finite_edge (p1 ++ e :: p2))) /\
    (forall p, complete_path d' p <-> complete_path d p /\ Forall finite_edge p).
Proof. intros St As In dec d. apply prune_spec. Qed.

(** [compute_reachable_states] returns exactly the states on such paths. *)
Theorem C02_reachable_states :
  forall (St As In : Type) (dec : EqDec St) (d : dag St As In) (s : St),
    ordered (edges d) ->
    (List.In s (compute_reachable_states d) <->
     (exists p, is_path (edges d) (initial_state d) p s /\ Forall finite_edge p) /\
     (exists p, is_path (edges d) s p (final_state d) /\ Forall finite_edge p)).
Proof.
  intros St As In dec d s Ho.
  rewrite reachable_iff, forward_reachable_iff, backward_reachable_iff by assumption. tauto.
Qed.

(** The order hypothesis is needed: one pass over an unordered list loses paths. *)
Theorem C02_without_order_refuted :
  ~ (forall (d : dag nat nat nat) p,
       complete_path d p -> Forall finite_edge p -> complete_path (prune_to_reachable d) p).
Proof.
  intros H.
  specialize (H (mkDag 0 [ed 1 2 one; ed 0 1 one] 2) [ed 0 1 one; ed 1 2 one]).
  assert (C : complete_path (prune_to_reachable (mkDag 0 [ed 1 2 one; ed 0 1 one] 2))
                [ed 0 1 one; ed 1 2 one]).
  { apply H.
    - unfold complete_path; simpl. change 0 with (source (ed 0 1 one)).
      constructor; [simpl; auto|]. simpl. change 1 with (source (ed 1 2 one)).
      constructor; [simpl; auto|]. constructor.
    - repeat constructor; eexists; reflexivity. }
  unfold complete_path in C. simpl in C.
  apply is_path_cons_inv in C as [_ [C _]]. exact C.
Qed.

Definition example_dag : dag nat nat nat :=
  mkDag 0 [ed 0 1 one; ed 0 2 Inf; ed 1 3 one; ed 2 3 one; ed 1 4 one; ed 3 5 one] 5.
Example C02_example :
  ordered (edges example_dag) /\
  edges (prune_to_reachable example_dag) = [ed 0 1 one; ed 1 3 one; ed 3 5 one].
Proof.
  split; [|reflexivity]. simpl.
  repeat match goal with
  | |- _ /\ _ => split
  | |- True => exact I
  | |- forall e', _ -> _ => let H := fresh in intros ? H; repeat (destruct H as [<-|H]; [discriminate|]); contradiction
  end.
Qed.

(** ** C03.  The compiled version returns the same DAG. *)
Theorem C03_prune_jit_agrees :
  forall (St As In : Type) (dec : EqDec St) (d : dag St As In),
    ordered (edges d) -> prune_to_reachable_jit d = prune_to_reachable d.
Proof. intros St As In dec d. apply prune_jit_agrees. Qed.

(** Finding: on edge lists that are not ordered they differ (and the compiled
    [add_edge] does not check the order). *)
Theorem C03_without_order_refuted :
  ~ (forall d : dag nat nat nat, prune_to_reachable_jit d = prune_to_reachable d).
Proof.
  intros H.
  specialize (H (mkDag 0 [ed 0 1 one; ed 2 3 one; ed 1 2 one; ed 0 3 one] 3)).
  vm_compute in H. discriminate.
Qed.
Example C03_example : ordered (edges example_dag).
Proof. apply C02_example. Qed.

(** ** C04.  Pruning with renumbering.  [useful d s]: state [s] lies on a
    complete path of finite edges. *)
(** Without collisions among the DAG's own states, whatever the hash function,
    the table size and the previous contents of the scratch table, the result is
    the pruned DAG with its states renamed one-to-one onto 0..n-1. *)
Theorem C04_rewrite_isomorphic :
  forall (St As In : Type) (dec : EqDec St) (hash : St -> nat)
         (d : dag St As In) (scratch : list (option nat)),
    ordered (edges d) ->
    0 < length scratch ->
    (forall s s', List.In s (states_of d) -> List.In s' (states_of d) ->
       hash s mod length scratch = hash s' mod length scratch -> s = s') ->
    (exists p, complete_path d p /\ Forall finite_edge p) ->
    exists (f : St -> nat) (n : nat),
      prune_and_rewrite hash d scratch = Ok (rename_dag f (prune_to_reachable d)) /\
      (forall s, useful d s -> f s < n) /\
      (forall s s', useful d s -> useful d s' -> f s = f s' -> s = s') /\
      (forall k, k < n -> exists s, useful d s /\ f s = k).
Proof.
  intros St As In dec hash d scratch Ho Hl Hinj [p [Hp Hf]].
  apply (rewrite_exact_aux hash (states_of d) (length scratch)); auto.
  split; [exists []; split; constructor|eauto].
Qed.

(** Whatever the collisions, no path is invented: the result's edges are input
    edges under a consistent naming of states. *)
Theorem C04_rewrite_sound_under_collisions :
  forall (St As In : Type) (dec : EqDec St) (hash : St -> nat)
         (d : dag St As In) (scratch : list (option nat)) (d' : dag nat As In),
    0 < length scratch -> ordered (edges d) ->
    prune_and_rewrite hash d scratch = Ok d' ->
    exists name : nat -> option St,
      name (initial_state d') = Some (initial_state d) /\
      name (final_state d') = Some (final_state d) /\
      forall e', List.In e' (edges d') ->
        exists e, List.In e (edges d) /\ finite_edge e /\
          name (source e') = Some (source e) /\ name (dest e') = Some (dest e) /\
          ecost e' = ecost e /\ assignment e' = assignment e /\ info e' = info e.
Proof. intros St As In dec hash d scratch d'. apply rewrite_sound. Qed.

(** Finding: with a collision, an evicted state gets a second identifier and the
    paths that entered it before are lost.  States 0 -> 1 -> 2 with state 3
    sharing the slot of state 1. *)
Definition colliding_hash (s : nat) : nat := if s =? 3 then 1 else s.
Definition collision_dag : dag nat nat nat :=
  mkDag 0 [ed 0 1 (Fin 0%Qc); ed 0 3 one; mkEdge 0 1 one (Some 7) 0; ed 3 2 one; ed 1 2 one] 2.
Theorem C04_no_paths_lost_refuted :
  ~ (forall (hash : nat -> nat) (d : dag nat nat nat) scratch d',
       ordered (edges d) -> 0 < length scratch ->
       prune_and_rewrite hash d scratch = Ok d' ->
       forall p, complete_path d p -> Forall finite_edge p ->
       exists p', complete_path d' p' /\ path_cost p' = path_cost p).
Proof.
  intros H.
  set (r := prune_and_rewrite colliding_hash collision_dag (repeat None 8)).
  assert (Hr : r = Ok (mkDag 0 [ed 0 1 one; mkEdge 0 2 one (Some 7) 0; ed 1 3 one; ed 2 3 one] 3))
    by (vm_compute; reflexivity).
  destruct (H colliding_hash collision_dag (repeat None 8) _ ltac:(simpl;
    repeat match goal with
    | |- _ /\ _ => split
    | |- True => exact I
    | |- forall e', _ -> _ => let H := fresh in intros ? H; repeat (destruct H as [<-|H]; [discriminate|]); contradiction
    end) ltac:(simpl; lia) Hr [ed 0 1 (Fin 0%Qc); ed 1 2 one]) as [p' [Hp' Hc]].
  - unfold complete_path; simpl.
    refine (path_cons _ (ed 0 1 (Fin 0%Qc)) _ _ _ _); [simpl; auto|].
    refine (path_cons _ (ed 1 2 one) _ _ _ _); [simpl; tauto|]. constructor.
  - repeat constructor; eexists; reflexivity.
  - unfold complete_path in Hp'. simpl in Hp'.
    assert (E : path_cost [ed 0 1 (Fin 0%Qc); ed 1 2 one] = one) by (vm_compute; reflexivity).
    rewrite E in Hc. clear -Hp' Hc.
    (* every path of the result costs 2, by a potential argument *)
    pose (pot := fun s => match s with 0 => Fin 0%Qc | 3 => Fin (1 + 1)%Qc | _ => one end).
    assert (G : forall es, (forall e, List.In e es -> cadd (pot (source e)) (ecost e) = pot (dest e)) ->
              forall s p t, is_path (As:=nat) (In:=nat) es s p t ->
              cadd (pot s) (path_cost p) = pot t).
    { intros es Hes. induction 1 as [s|e p t He Hp IH].
      - apply cadd_0_r.
      - rewrite path_cost_cons, cadd_assoc, Hes by assumption. exact IH. }
    apply G in Hp'.
    + rewrite Hc in Hp'. vm_compute in Hp'. discriminate.
    + simpl. intros e He. repeat (destruct He as [<-|He]; [vm_compute; reflexivity|]). contradiction.
Qed.

(** Finding: when no finite path exists the documented "No path from start to
    end" error is never raised; the access of line 454 is out of bounds. *)
Theorem C04_no_path_is_out_of_bounds :
  forall (St As In : Type) (dec : EqDec St) (hash : St -> nat)
         (d : dag St As In) (scratch : list (option nat)),
    ordered (edges d) ->
    0 < length scratch ->
    (forall s s', List.In s (states_of d) -> List.In s' (states_of d) ->
       hash s mod length scratch = hash s' mod length scratch -> s = s') ->
    (~ exists p, complete_path d p /\ Forall finite_edge p) ->
    prune_and_rewrite hash d scratch = Err IndexError.
Proof.
  intros St As In dec hash d scratch Ho Hl Hinj Hno.
  apply (rewrite_exact_aux hash (states_of d) (length scratch)); auto.
  intros [_ [p [Hp Hf]]]. apply Hno. exists p. split; assumption.
Qed.

Example C04_example :
  (forall s s', List.In s (states_of example_dag) -> List.In s' (states_of example_dag) ->
     s mod length (repeat (@None nat) 16) = s' mod length (repeat (@None nat) 16) -> s = s') /\
  prune_and_rewrite (fun s => s) example_dag (repeat None 16)
  = Ok (mkDag 0 [ed 0 1 one; ed 1 2 one; ed 2 3 one] 3).
Proof.
  split; [|vm_compute; reflexivity]. intros s s' Hs Hs'. rewrite repeat_length.
  assert (B : forall x, List.In x (states_of example_dag) -> x < 16).
  { simpl. intros x Hx. repeat (destruct Hx as [<-|Hx]; [lia|]). contradiction. }
  apply B in Hs. apply B in Hs'. rewrite !Nat.mod_small by assumption. auto.
Qed.

Print Assumptions C01_add_edge_history.
Print Assumptions C01_add_edges_accepts_exactly_ordered.
Print Assumptions C01_rejection_is_ValueError_refuted.
Print Assumptions C01_accepted_is_acyclic_refuted.
Print Assumptions C01_no_self_loop_topological.
Print Assumptions C02_prune_preserves_finite_paths.
Print Assumptions C02_reachable_states.
Print Assumptions C02_without_order_refuted.
Print Assumptions C03_prune_jit_agrees.
Print Assumptions C03_without_order_refuted.
Print Assumptions C04_rewrite_isomorphic.
Print Assumptions C04_rewrite_sound_under_collisions.
Print Assumptions C04_no_paths_lost_refuted.
Print Assumptions C04_no_path_is_out_of_bounds.
