(** C77: without regions, the parameters for regions do not matter. *)

From Coq Require Import String.
From Coq Require Import List Bool Arith ZArith Lia QArith Qcanon.
From Verif Require Import Base SeqNodes Transforms PackedSeq PackedSeqProofs Numbered Graph GatedDag PackedDag Convert Decisions ConstraintDag EditDag CombineSpec CombineStats
  DualSolver BuildSystem PseudoParse Combine CombineProofs CombineTheorems CostDerivation Html Subtokenizer ParserTools Properties_ParserTools RegionParameters.
Import ListNotations.
Close Scope string_scope. Close Scope Qc_scope. Close Scope Q_scope. Close Scope Z_scope. Open Scope nat_scope. Open Scope list_scope.

(** ** Specification.  A node that is a region start or has one inside. *)
Inductive has_region_start {M} : node M -> Prop :=
| hrs_here : has_region_start RegionStart
| hrs_inside : forall cs m c, In c cs -> has_region_start c -> has_region_start (Group cs m).
Definition without_regions {M} (ns : list (node M)) : Prop := forall n, In n ns -> ~ has_region_start n.

Lemma without_free {M} (ns : list (node M)) : without_regions ns <-> Forall (free is_start) ns.
Proof.
  assert (G : forall n : node M, ~ has_region_start n <-> free is_start n).
  { induction n as [t|t m| | | |cs m IH] using node_ind'; try (split; [intros _; exact I || reflexivity|intros _ C; inversion C]).
    - split; [intros C; destruct C; constructor|discriminate].
    - rewrite free_group. rewrite Forall_forall in *. split.
      + intros C c Hc. apply IH; auto. intros R. apply C. econstructor; eauto.
      + intros F C. inversion C as [|? ? c Hc R]; subst. now apply (IH c Hc) in R; [|apply F]. }
  unfold without_regions. rewrite Forall_forall. split; intros H n Hn; apply G; auto.
Qed.

(** ** C77.  The edit DAGs of a prototype without regions differ at most in edges that pruning takes away: for any two
    choices of the costs in regions the builder fails in the same way or the pruned DAGs are the same. *)
Theorem C77_pruned_dags :
  forall (M : Type) (md : EqDec M) (P P' : parameters) (prototype : list (node M)) (target : storage M),
    same_outside_regions P P' -> without_regions prototype ->
    match construct_edit_dag P (pack prototype) target, construct_edit_dag P' (pack prototype) target with
    | Ok d, Ok d' => prune_to_reachable d = prune_to_reachable d' /\ prune_to_reachable_jit d = prune_to_reachable_jit d'
    | Err x, Err x' => x = x'
    | _, _ => False
    end.
Proof.
  intros M md P P' ns t S W. apply without_free in W. pose proof (construct_alike P P' ns t S W) as A.
  destruct (construct_edit_dag P (pack ns) t), (construct_edit_dag P' (pack ns) t); auto. split; [now apply prune_alike|now apply prune_jit_alike].
Qed.
Print Assumptions C77_pruned_dags.

Lemma mapM_same {A B} (f g : A -> result B) l : (forall x, f x = g x) -> mapM f l = mapM g l.
Proof. intros E. induction l as [|x l IH]; cbn [mapM]; auto. now rewrite E, IH. Qed.
Lemma build_same {M} {md : EqDec M} P P' (ns : list (node M)) targets weights : same_outside_regions P P' -> Forall (free is_start) ns ->
  build_system (construct_edit_dag P (pack ns)) (construct_constraint_dag (pack ns)) targets weights =
  build_system (construct_edit_dag P' (pack ns)) (construct_constraint_dag (pack ns)) targets weights.
Proof.
  intros S W. unfold build_system. destruct (match weights with Some l => Ok l | None => uniform_weights targets end) as [fs|x]; cbn [bind]; auto.
  rewrite (mapM_same (fun tf => do d <- construct_edit_dag P (pack ns) (fst tf); add_dag inl inl d (snd tf))
                     (fun tf => do d <- construct_edit_dag P' (pack ns) (fst tf); add_dag inl inl d (snd tf))); auto.
  intros [t f]. cbn [fst snd]. pose proof (construct_alike P P' ns t S W) as A.
  destruct (construct_edit_dag P (pack ns) t), (construct_edit_dag P' (pack ns) t); cbn [bind]; try contradiction; [|now subst].
  unfold add_dag. now rewrite (prune_alike _ _ A).
Qed.
(** ** C77.  Combining without regions: everything returned (the system, the rounds of the solver, the bounds, the
    suggestion, its statistics), every exception and every run that does not end are the same. *)
Theorem C77_combine_ignores_region_costs :
  forall (P P' : parameters) (exit : bool) fuel clock parse (context : text) (samples : list text) (index : Z),
    same_outside_regions P P' ->
    (forall s ns, In s samples -> parse (context ++ s) = Ok ns -> without_regions ns) ->
    combine_samples fuel clock (edit_wrapper P false exit) parse context samples index =
    combine_samples fuel clock (edit_wrapper P' false exit) parse context samples index.
Proof.
  intros P P' exit fuel clock parse context samples index S W. unfold combine_samples.
  replace (prepare (edit_wrapper P' false exit) parse context samples index) with (prepare (edit_wrapper P false exit) parse context samples index); [reflexivity|].
  unfold prepare. destruct (py_index (map (fun sample => context ++ sample) samples) index) as [s|] eqn:I; cbn [bind]; auto.
  destruct (parse s) as [ns|] eqn:E; cbn [bind]; auto. cbn [w_prototype edit_wrapper w_target w_build].
  destruct (mapM _ _) as [targets|]; cbn [bind]; auto. rewrite (build_same P P'); auto.
  unfold annotate. eapply suffix_free; [apply truncate_suffix|].
  assert (F : Forall (free is_start) ns).
  { apply without_free. apply index_In, in_map_iff in I as (s' & <- & I). eauto. }
  destruct exit; [now apply early_free|exact F].
Qed.
Print Assumptions C77_combine_ignores_region_costs.
(** The prefix wrapper without regions, from raw text in any supported language: the precision and the sensitivity
    have no effect (prefix_truncation_wrapper.py:88-95 says so). *)
Theorem C77_prefix_parameters_raw_text :
  forall (isupper islower isdigit isspace digit : nat -> bool) (l : helper_language) (flatten : bool)
         (precision precision' sensitivity sensitivity' start : Qc) fuel clock (context : text) (samples : list text) (index : Z),
    ascii_digits digit -> isspace 10 = true -> parseable l context samples ->
    let parse := parse_to_nodes isupper islower isdigit isspace digit l flatten in
    combine_samples fuel clock (edit_wrapper (derive_uncertainty_region_costs precision start sensitivity) false true) parse context samples index =
    combine_samples fuel clock (edit_wrapper (derive_uncertainty_region_costs precision' start sensitivity') false true) parse context samples index.
Proof.
  intros u lo d sp digit l f p p' s s' start fuel clock context samples index H1 H2 H3 parse.
  apply C77_combine_ignores_region_costs; [repeat split|].
  intros x ns Hx E. destruct (parseable_reads u lo d sp digit H1 H2 l f context samples H3) as [trees Ht].
  destruct (Ht x Hx) as [[R1 [_ R2]] _]. fold parse in R1. rewrite E in R1. injection R1 as ->. apply without_free. now apply no_decisions_free.
Qed.
Print Assumptions C77_prefix_parameters_raw_text.

(** Hypotheses met, and needed: the unpruned DAGs do differ, and with a region the pruned ones differ too. *)
Definition ex_costs : parameters := derive_uncertainty_region_costs (Q2Qc (7 # 10)) (Q2Qc 5) (Q2Qc (1 # 2)).
Definition ex_costs' : parameters := derive_uncertainty_region_costs (Q2Qc (9 # 10)) (Q2Qc 5) (Q2Qc (1 # 4)).
Definition ex_tree : list (node nat) := [EarlyExit; Group [Token [97] 1; EarlyExit; RegionEnd] 0; EarlyExit].
Definition differ {A} (f : dag estate decision (option einfo) -> A) (ns : list (node nat)) : Prop :=
  exists d d', construct_edit_dag ex_costs (pack ns) (pack [Token [97] 1]) = Ok d /\ construct_edit_dag ex_costs' (pack ns) (pack [Token [97] 1]) = Ok d' /\ f d <> f d'.
Example C77_hypotheses :
  same_outside_regions ex_costs ex_costs' /\ without_regions ex_tree /\ differ (fun d => d) ex_tree /\
  differ prune_to_reachable (one_token [97] 1) /\ ~ without_regions (one_token [97] 1).
Proof.
  assert (X : forall (A : Type) (f : dag estate decision (option einfo) -> A) (g : A -> list cost) ns d d',
    construct_edit_dag ex_costs (pack ns) (pack [Token [97] 1]) = Ok d -> construct_edit_dag ex_costs' (pack ns) (pack [Token [97] 1]) = Ok d' ->
    g (f d) <> g (f d') -> differ f ns) by (intros A f g ns d d' E E' N; exists d, d'; splits; auto; congruence).
  splits.
  - repeat split.
  - apply without_free. repeat constructor.
  - eapply (X _ _ (fun d => map ecost (edges d))); [vm_compute; reflexivity|vm_compute; reflexivity|vm_compute; discriminate].
  - eapply (X _ _ (fun d => map ecost (edges d))); [vm_compute; reflexivity|vm_compute; reflexivity|vm_compute; discriminate].
  - intros W. apply (W RegionStart); [now left|constructor].
Qed.
