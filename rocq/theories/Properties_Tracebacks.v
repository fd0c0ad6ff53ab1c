(** C76: edge tracebacks. *)

From Coq Require Import String.
From Coq Require Import List Bool Arith Lia.
From Verif Require Import Base SeqNodes Graph GatedDag Html Tracebacks.
Import ListNotations.
Close Scope string_scope. Open Scope nat_scope. Open Scope list_scope.

(** ** Specification *)
(** An [info] that does not look as if it had a traceback *)
Definition untraced {X F} (v : value X F) : Prop :=
  match v with
  | Dict d => ~ In (chars "traceback") (map fst d) /\ ~ In (chars "original_info") (map fst d)
  | _ => True
  end.
(** The calls in a program, whatever blocks they are in. *)
Fixpoint calls {St As X F} (s : step St As X F) : list (edge St As (value X F)) :=
  match s with Add e _ => [e] | Tracing body => flat_map calls body end.
(** Edges added one after the other without tracebacks, up to the first that is refused. *)
Fixpoint added {St As In} {dSt : EqDec St} (d : partial_dag St As In) (es : list (edge St As In)) : partial_dag St As In * option exn :=
  match es with
  | [] => (d, None)
  | e :: es' => match add_edge d e with Ok d' => added d' es' | Err x => (d, Some x) end
  end.

Section Tracebacks.
  Context {St As X Fr : Type} {dSt : EqDec St}.
  Notation V := (value X Fr).
  Notation E := (edge St As V).
  Notation P := (partial_dag St As V).
  Notation strip := strip_traceback_from_edge.
  Lemma set_fresh k v (d : list (text * V)) : ~ In k (map fst d) -> dict_set k v d = d ++ [(k, v)].
  Proof.
    induction d as [|[k' v'] d IH]; intros N; cbn [dict_set app]; auto. rewrite (neq_eqb k k'); [|intros ->; apply N; now left]. f_equal. apply IH. intros I. apply N. now right.
  Qed.
  Lemma del_fresh k (d : list (text * V)) : ~ In k (map fst d) -> dict_del k d = d.
  Proof.
    induction d as [|[k' v'] d IH]; intros N; cbn; auto. rewrite (neq_eqb k k'); [|intros ->; apply N; now left]. cbn. f_equal. apply IH. intros I. apply N. now right.
  Qed.
  Lemma assoc_fresh k (d : list (text * V)) : ~ In k (map fst d) -> assoc k d = None.
  Proof. intros N. apply assoc_None_iff. exact N. Qed.
  Lemma strip_untraced (e : E) : untraced (info e) -> strip e = e.
  Proof. unfold strip_traceback_from_edge. destruct (info e) as [d|f|x] eqn:I; auto. intros [N1 N2]. now rewrite (assoc_fresh _ d N1), (assoc_fresh _ d N2). Qed.
  Lemma strip_traced (e : E) f : untraced (info e) -> strip (with_traceback f e) = e.
  Proof.
    intros U. destruct e as [s t c a i]. unfold with_traceback. cbn [source dest ecost assignment info] in *.
    destruct i as [d|g|x]; try reflexivity.
    destruct U as [N1 N2]. unfold strip_traceback_from_edge. cbn [source dest ecost assignment info].
    assert (A : assoc (chars "original_info") (dict_set (chars "traceback") (Frame f) d) = None).
    { apply assoc_fresh. rewrite set_fresh by auto. rewrite map_app, in_app_iff. intros [K|[K|[]]]; [auto|]. vm_compute in K. discriminate K. }
    rewrite A. assert (B : exists v, assoc (chars "traceback") (dict_set (chars "traceback") (Frame f) d) = Some v).
    { destruct (assoc (chars "traceback") (dict_set (chars "traceback") (Frame f) d)) eqn:K; eauto. exfalso.
      apply assoc_None_iff in K. apply K. rewrite set_fresh by auto. rewrite map_app, in_app_iff. right. now left. }
    destruct B as [v ->]. f_equal. f_equal. rewrite set_fresh by auto. unfold dict_del. rewrite filter_app.
    change (filter _ d) with (dict_del (chars "traceback") d). rewrite del_fresh by auto. cbn [filter fst]. rewrite eqb_refl. cbn. now rewrite app_nil_r.
  Qed.
  (** Two partial DAGs that differ in tracebacks only *)
  Definition agree (d d' : P) : Prop := p_initial d = p_initial d' /\ p_seen_outgoing d = p_seen_outgoing d' /\ map strip (p_edges d) = p_edges d'.
  Lemma add_agree enabled (d d' : P) e f : untraced (info e) -> agree d d' ->
    match add_edge_traced enabled d e f, add_edge d' e with
    | Ok x, Ok y => agree x y | Err x, Err y => x = y | _, _ => False
    end.
  Proof.
    intros U (A1 & A2 & A3). unfold add_edge_traced, add_edge. rewrite A2. destruct (assoc (dest e) (p_seen_outgoing d')).
    - now destruct (assoc (source e) (p_seen_outgoing d')).
    - unfold agree. cbn [p_initial p_seen_outgoing p_edges]. splits; auto; [now destruct enabled|].
      rewrite map_app, A3. f_equal. cbn [map]. f_equal. destruct enabled; [now apply strip_traced|now apply strip_untraced].
  Qed.
  Lemma run_tracing enabled (d : P) body : run_step enabled d (Tracing body) = let '(_, d', x) := run true d body in (false, d', x).
  Proof. reflexivity. Qed.
  Lemma added_app (d : P) es es' : added d (es ++ es') = match added d es with (d', None) => added d' es' | r => r end.
  Proof. revert d. induction es as [|e es IH]; intros d; cbn [app added]; auto. destruct (add_edge d e); auto. Qed.
  (** An induction principle for programs *)
  Section Induction.
    Variable Q : step St As X Fr -> Prop.
    Hypothesis QA : forall e f, Q (Add e f).
    Hypothesis QT : forall body, Forall Q body -> Q (Tracing body).
    Fixpoint step_ind' (s : step St As X Fr) : Q s :=
      match s with
      | Add e f => QA e f
      | Tracing body => QT body ((fix go l := match l return Forall Q l with [] => Forall_nil Q | c :: l' => Forall_cons c (step_ind' c) (go l') end) body)
      end.
  End Induction.
  Definition good (s : step St As X Fr) : Prop :=
    (forall e, In e (calls s) -> untraced (info e)) -> forall enabled d d', agree d d' ->
      let '(_, r, x) := run_step enabled d s in let '(r', x') := added d' (calls s) in agree r r' /\ x = x'.
  Lemma good_list l : Forall good l -> (forall e, In e (flat_map calls l) -> untraced (info e)) -> forall enabled d d', agree d d' ->
      let '(_, r, x) := run enabled d l in let '(r', x') := added d' (flat_map calls l) in agree r r' /\ x = x'.
  Proof.
    induction 1 as [|s l Hs _ IH]; intros U enabled d d' A; cbn [run flat_map]; [cbn; auto|].
    assert (U1 : forall e, In e (calls s) -> untraced (info e)) by (intros e I; apply U; cbn; apply in_or_app; auto).
    assert (U2 : forall e, In e (flat_map calls l) -> untraced (info e)) by (intros e I; apply U; cbn; apply in_or_app; auto).
    rewrite added_app. pose proof (Hs U1 enabled d d' A) as K. destruct (run_step enabled d s) as [[b r] x]. destruct (added d' (calls s)) as [r' x'].
    destruct K as [K <-]. destruct x as [x|]; [auto|]. now apply IH.
  Qed.
  Lemma all_good s : good s.
  Proof.
    induction s as [e f|body F] using step_ind'; intros U enabled d d' A.
    - cbn [calls added run_step]. pose proof (add_agree enabled d d' e f (U e (or_introl eq_refl)) A) as K.
      destruct (add_edge_traced enabled d e f), (add_edge d' e); auto; try contradiction. now subst.
    - rewrite run_tracing. pose proof (good_list body F U true d d' A) as K. destruct (run true d body) as [[b r] x]. exact K.
  Qed.
End Tracebacks.

(** ** C76.  Stripping takes off what tracing put on. *)
Theorem C76_strip_restores_edge :
  forall (St As X Fr : Type) (e : edge St As (value X Fr)) (f : Fr),
    untraced (info e) -> strip_traceback_from_edge (with_traceback f e) = e /\ strip_traceback_from_edge e = e.
Proof. intros St As X Fr e f U. split; [now apply strip_traced|now apply strip_untraced]. Qed.
Print Assumptions C76_strip_restores_edge.
(** ** C76.  Whatever parts of a program run with tracebacks, it adds the same edges, once they are stripped, and ends in
    the same way as it does without. *)
Theorem C76_tracing_changes_only_info :
  forall (St As X Fr : Type) (dSt : EqDec St) (s : St) (program : list (step St As X Fr)) enabled enabled' d x,
    (forall e, In e (flat_map calls program) -> untraced (info e)) ->
    run enabled (partial_starting_from s) program = (enabled', d, x) ->
    exists d', added (partial_starting_from s) (flat_map calls program) = (d', x) /\
      p_initial d = p_initial d' /\ p_seen_outgoing d = p_seen_outgoing d' /\ map strip_traceback_from_edge (p_edges d) = p_edges d'.
Proof.
  intros St As X Fr dSt s program enabled enabled' d x U R.
  pose proof (good_list program ltac:(apply Forall_forall; intros; apply all_good) U enabled (partial_starting_from s) (partial_starting_from s) ltac:(repeat split; reflexivity)) as K.
  rewrite R in K. destruct (added (partial_starting_from s) (flat_map calls program)) as [d' x']. destruct K as [A ->]. exists d'. split; auto.
Qed.
Print Assumptions C76_tracing_changes_only_info.
(** ** C76.  Inside a block every edge added gets its own frame; after it tracing is off, also if the block raised. *)
Theorem C76_block :
  forall (St As X Fr : Type) (dSt : EqDec St) enabled (d : partial_dag St As (value X Fr)) (edges : list (edge St As (value X Fr) * Fr)) enabled' d' x,
    run_step enabled d (Tracing (map (fun p => Add (fst p) (snd p)) edges)) = (enabled', d', x) ->
    enabled' = false /\
    exists k, k <= length edges /\ (x = None -> k = length edges) /\
      p_edges d' = p_edges d ++ map (fun p => with_traceback (snd p) (fst p)) (firstn k edges).
Proof.
  intros St As X Fr dSt enabled d es enabled' d' x. rewrite run_tracing.
  destruct (run true d (map (fun p => Add (fst p) (snd p)) es)) as [[b r] y] eqn:R. intros E. injection E as <- <- <-. split; auto.
  revert d b r y R. induction es as [|[e f] es IH]; intros d b r y R; cbn [map run run_step fst snd] in R.
  - injection R as <- <- <-. exists 0. cbn. rewrite app_nil_r. splits; auto.
  - unfold add_edge_traced in R. destruct (assoc (dest e) (p_seen_outgoing d)) eqn:A.
    + exists 0. splits; [lia| |].
      * destruct (assoc (source e) (p_seen_outgoing d)); injection R as <- <- <-; discriminate.
      * cbn. rewrite app_nil_r. destruct (assoc (source e) (p_seen_outgoing d)); injection R as <- <- <-; reflexivity.
    + destruct (IH _ _ _ _ R) as (k & L & N & K). exists (S k). cbn [length firstn map fst snd]. splits; [lia|intros Y; rewrite (N Y); reflexivity|].
      rewrite K. cbn [p_edges]. rewrite <- app_assoc. reflexivity.
Qed.
Print Assumptions C76_block.
(** ** C76.  An edge with a traceback shows the frame of the call that added it, whatever its [info] was; other keys
    keep their values, and an [info] that is no dictionary is kept under its own key. *)
Theorem C76_traced_edge_shows_frame :
  forall (St As X Fr : Type) (e : edge St As (value X Fr)) (f : Fr),
    exists d, info (with_traceback f e) = Dict d /\ assoc (chars "traceback") d = Some (Frame f) /\
      (forall d0 k, info e = Dict d0 -> k <> chars "traceback" -> assoc k d = assoc k d0) /\
      ((forall d0, info e <> Dict d0) -> assoc (chars "original_info") d = Some (info e)) /\
      source (with_traceback f e) = source e /\ dest (with_traceback f e) = dest e /\ ecost (with_traceback f e) = ecost e /\
      assignment (with_traceback f e) = assignment e.
Proof.
  intros St As X Fr [s t c a i] f. unfold with_traceback. cbn [info source dest ecost assignment].
  assert (Same : forall k v (d : list (text * value X Fr)), assoc k (dict_set k v d) = Some v).
  { intros k v d. induction d as [|[k' v'] d IH]; cbn [dict_set assoc]; [now rewrite eqb_refl|].
    destruct (eqb k k') eqn:E; cbn [assoc]; rewrite E; auto. }
  assert (Rest : forall k v (d : list (text * value X Fr)) k0, k0 <> k -> assoc k0 (dict_set k v d) = assoc k0 d).
  { intros k v d k0 N. induction d as [|[k' v'] d IH]; cbn [dict_set assoc]; [now rewrite (neq_eqb k0 k)|].
    destruct (eqb k k') eqn:E; cbn [assoc]; [|now rewrite IH]. apply eqb_eq in E. subst k'. now rewrite (neq_eqb k0 k). }
  destruct i as [d|g|x]; eexists; (split; [reflexivity|]); splits; auto; try (intros; discriminate).
  - intros d0 k [= <-] N. now apply Rest.
  - intros N. destruct (N d eq_refl).
Qed.
Print Assumptions C76_traced_edge_shows_frame.

(** Hypotheses met: a program with a block in the middle, infos of both kinds, and an edge that is refused. *)
Definition ex_info : value nat nat := Dict [(chars "cost", Other 3)].
Definition ex_edge (s t : nat) (v : value nat nat) : edge nat unit (value nat nat) := mkEdge s t Inf None v.
Definition ex_program : list (step nat unit nat nat) :=
  [Add (ex_edge 0 1 ex_info) 10; Tracing [Add (ex_edge 0 2 (Other 7)) 11; Add (ex_edge 1 2 ex_info) 12]; Add (ex_edge 1 3 (Other 1)) 13;
   Tracing [Add (ex_edge 2 3 (Other 2)) 14; Add (ex_edge 2 1 (Other 3)) 15; Add (ex_edge 2 4 (Other 4)) 16]].
Example C76_hypotheses :
  Forall (fun e => untraced (info e)) (flat_map calls ex_program) /\
  exists d, run false (partial_starting_from 0) ex_program = (false, d, Some ValueError) /\ length (p_edges d) = 5 /\
    map info (p_edges d) =
      [ex_info; Dict [(chars "original_info", Other 7); (chars "traceback", Frame 11)];
       Dict [(chars "cost", Other 3); (chars "traceback", Frame 12)]; Other 1; Dict [(chars "original_info", Other 2); (chars "traceback", Frame 14)]].
Proof.
  split.
  - repeat (apply Forall_cons; [vm_compute; intuition discriminate|]). apply Forall_nil.
  - eexists. splits; vm_compute; reflexivity.
Qed.

(** Finding: the end of an inner block turns tracing off for the rest of the outer block. *)
Theorem C76_nested_refuted :
  exists d : partial_dag nat unit (value nat nat),
    run false (partial_starting_from 0) [Tracing [Tracing [Add (ex_edge 0 1 (Other 1)) 10]; Add (ex_edge 1 2 (Other 2)) 11]] = (false, d, None) /\
    map info (p_edges d) = [Dict [(chars "original_info", Other 1); (chars "traceback", Frame 10)]; Other 2].
Proof. eexists. split; vm_compute; reflexivity. Qed.
Print Assumptions C76_nested_refuted.
(** Finding: an [info] with the key [original_info] does not survive. *)
Theorem C76_original_info_refuted :
  exists e : edge nat unit (value nat nat), strip_traceback_from_edge (with_traceback 10 e) <> e /\ strip_traceback_from_edge e <> e.
Proof. exists (ex_edge 0 1 (Dict [(chars "original_info", Other 1); (chars "size", Other 2)])). split; vm_compute; discriminate. Qed.
Print Assumptions C76_original_info_refuted.
