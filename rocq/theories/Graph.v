(** State DAGs as data, and what their paths are.

    The records are those of r_u_sure/decision_diagrams/gated_state_dag.py:58-80
    ([SharedVariableAssignment], [Edge], [CompleteStateDAG]).  Simplification:
    states, assignments and edge metadata are arbitrary types (Python [Any]).
    Everything after the records is specification: it mentions no function of
    the code. *)

From Coq Require Import List Bool Arith Lia QArith Qcanon.
From Verif Require Import Base.
Import ListNotations.
Close Scope Qc_scope. Close Scope Q_scope. Open Scope nat_scope.

(** gated_state_dag.py:65-72 *)
Record edge (St As In : Type) := mkEdge {
  source : St;
  dest : St;
  ecost : cost;
  assignment : option As;
  info : In
}.
Arguments mkEdge {St As In}. Arguments source {St As In}. Arguments dest {St As In}.
Arguments ecost {St As In}. Arguments assignment {St As In}. Arguments info {St As In}.

(** gated_state_dag.py:75-80 *)
Record dag (St As In : Type) := mkDag {
  initial_state : St;
  edges : list (edge St As In);
  final_state : St
}.
Arguments mkDag {St As In}. Arguments initial_state {St As In}.
Arguments edges {St As In}. Arguments final_state {St As In}.

Section Graph.
  Context {St As In : Type}.
  Notation E := (edge St As In).
  Notation D := (dag St As In).

  (** [is_path es s p t]: [p] is a sequence of edges of [es] leading from [s]
      to [t]. *)
  Inductive is_path (es : list E) : St -> list E -> St -> Prop :=
  | path_nil s : is_path es s [] s
  | path_cons e p t :
      List.In e es -> is_path es (dest e) p t -> is_path es (source e) (e :: p) t.

  Definition complete_path (d : D) (p : list E) : Prop :=
    is_path (edges d) (initial_state d) p (final_state d).

  Definition finite_edge (e : E) : Prop := exists q, ecost e = Fin q.

  Definition path_cost (p : list E) : cost := csum (map ecost p).

  (** The assignments required along a path, in order. *)
  Fixpoint path_assignments (p : list E) : list As :=
    match p with
    | [] => []
    | e :: p' =>
        match assignment e with
        | Some a => a :: path_assignments p'
        | None => path_assignments p'
        end
    end.

  (** No edge enters a state from which an earlier edge of the list leaves. *)
  Fixpoint ordered (es : list E) : Prop :=
    match es with
    | [] => True
    | e :: es' => (forall e', List.In e' es' -> dest e' <> source e) /\ ordered es'
    end.

  (** Same, and no edge is a self-loop: then [es] is a topological order. *)
  Definition topological (es : list E) : Prop :=
    ordered es /\ forall e, List.In e es -> source e <> dest e.

  (** States mentioned by a DAG. *)
  Definition states_of (d : D) : list St :=
    initial_state d :: final_state d ::
    flat_map (fun e => [source e; dest e]) (edges d).

  Lemma is_path_cons_inv es s e p t :
    is_path es s (e :: p) t ->
    s = source e /\ List.In e es /\ is_path es (dest e) p t.
  Proof. inversion 1; subst; auto. Qed.
  Lemma is_path_app es s p q t u :
    is_path es s p t -> is_path es t q u -> is_path es s (p ++ q) u.
  Proof.
    induction 1 as [|e p t He Hp IH]; simpl; auto. intros Hq. constructor; auto.
  Qed.
  Lemma is_path_app_inv es s p q u :
    is_path es s (p ++ q) u -> exists t, is_path es s p t /\ is_path es t q u.
  Proof.
    revert s; induction p as [|e p IH]; simpl; intros s H.
    - exists s; split; [constructor|assumption].
    - apply is_path_cons_inv in H as [-> [He H]]. apply IH in H as [t [H1 H2]].
      exists t; split; [constructor; auto|assumption].
  Qed.
  Lemma is_path_snoc es s p e :
    is_path es s p (source e) -> List.In e es -> is_path es s (p ++ [e]) (dest e).
  Proof. intros Hp He. eapply is_path_app; [exact Hp|]. constructor; [auto|constructor]. Qed.
  Lemma is_path_incl es es' s p t :
    (forall e, List.In e p -> List.In e es') -> is_path es s p t -> is_path es' s p t.
  Proof.
    intros Hi Hp. revert Hi. induction Hp as [|e p t He Hp IH]; intros Hi; constructor.
    - apply Hi; simpl; auto.
    - apply IH. intros; apply Hi; simpl; auto.
  Qed.
  Lemma is_path_In es s p t e : is_path es s p t -> List.In e p -> List.In e es.
  Proof. induction 1; simpl; [tauto|]. intros [<-|Hi]; auto. Qed.
  Lemma is_path_nil_inv es s t : is_path es s [] t -> s = t.
  Proof. inversion 1; reflexivity. Qed.
  Lemma is_path_det es s p t t' : is_path es s p t -> is_path es s p t' -> t = t'.
  Proof.
    induction 1; intros H'; inversion H'; subst; auto.
  Qed.
  Lemma path_cost_app p q : path_cost (p ++ q) = cadd (path_cost p) (path_cost q).
  Proof. unfold path_cost. rewrite map_app. apply csum_app. Qed.
  Lemma path_cost_cons e p : path_cost (e :: p) = cadd (ecost e) (path_cost p).
  Proof. reflexivity. Qed.
  Lemma path_assignments_app p q :
    path_assignments (p ++ q) = path_assignments p ++ path_assignments q.
  Proof.
    induction p as [|e p IH]; simpl; auto. destruct (assignment e); simpl; now rewrite IH.
  Qed.

  Lemma ordered_app l1 l2 :
    ordered (l1 ++ l2) <->
    ordered l1 /\ ordered l2 /\
    (forall e e', List.In e l1 -> List.In e' l2 -> dest e' <> source e).
  Proof.
    induction l1 as [|a l1 IH]; simpl.
    - intuition.
    - rewrite IH. split.
      + intros [H1 [H2 [H3 H4]]]. split; [split|split]; auto.
        * intros e' Hi. apply H1. apply in_or_app; auto.
        * intros e e' [<-|Hi] Hi'; auto. apply H1. apply in_or_app; auto.
      + intros [[H1 H2] [H3 H4]]. split; [|split; [|split]]; auto.
        intros e' Hi. apply in_app_or in Hi as [Hi|Hi]; auto.
  Qed.
  Lemma ordered_filter f l : ordered l -> ordered (filter f l).
  Proof.
    induction l as [|a l IH]; simpl; auto. intros [H1 H2].
    destruct (f a); simpl; auto. split; auto.
    intros e' Hi. apply filter_In in Hi as [Hi _]. auto.
  Qed.

  Lemma path_last es s p t :
    is_path es s p t -> p <> [] -> exists e, List.In e p /\ dest e = t.
  Proof.
    induction 1 as [|e p t He Hp IH]; intros Hn; [congruence|].
    destruct p as [|e' p].
    - apply is_path_nil_inv in Hp. exists e. simpl; auto.
    - destruct IH as [z [Hz1 Hz2]]; [discriminate|]. exists z. simpl in *; auto.
  Qed.
  Lemma cycle_pred es x p e :
    is_path es x p x -> List.In e p -> exists e', List.In e' p /\ dest e' = source e.
  Proof.
    intros Hp He. pose proof He as Hin. apply in_split in He as [p1 [p2 ->]].
    pose proof Hp as Hp0. apply is_path_app_inv in Hp as [t [Hp1 Hp2]].
    apply is_path_cons_inv in Hp2 as [-> [_ Hp2]].
    destruct p1 as [|a p1].
    - apply is_path_nil_inv in Hp1. subst x. apply path_last in Hp0; auto. discriminate.
    - apply path_last in Hp1 as [z [Hz1 Hz2]]; [|discriminate].
      exists z. split; auto. apply in_or_app; auto.
  Qed.
  Lemma topological_acyclic es x p : topological es -> is_path es x p x -> p = [].
  Proof.
    revert p. induction es as [|a es IH]; intros p [Ho Hns] Hp.
    - destruct p as [|e p]; auto. apply is_path_cons_inv in Hp as [_ [[] _]].
    - simpl in Ho. destruct Ho as [Ho1 Ho2].
      apply IH.
      + split; auto. intros; apply Hns; simpl; auto.
      + eapply is_path_incl; [|exact Hp]. intros e He.
        pose proof (is_path_In _ _ _ _ _ Hp He) as Hi. destruct Hi as [<-|Hi]; auto.
        exfalso. destruct (cycle_pred _ _ _ _ Hp He) as [e' [He' Hd]].
        pose proof (is_path_In _ _ _ _ _ Hp He') as [<-|Hi'].
        * symmetry in Hd. revert Hd. apply Hns. simpl; auto.
        * now apply (Ho1 e').
  Qed.
End Graph.
