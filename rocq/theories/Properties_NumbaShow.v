(** C78, what is shown and evaluated: the pages and the evaluations made from the
    results of the compiled wrappers are those made from the results of the pure
    Python wrappers. *)

From Coq Require Import String.
From Coq Require Import List Bool Arith ZArith Lia QArith Qcanon.
From Verif Require Import Base SeqNodes Transforms PackedSeq PackedSeqProofs Numbered Graph GatedDag GatedDagRewrite PackedDag Convert MapDag Decisions ConstraintSpec ConstraintDag
  EditDag EditSpec EditTheorems EditReport SelectionDag SelectionSpec SelectionTheorems SelectionReport RegionDecisions RegionProofs CallSequence CallSpec CombineSpec CombineStats
  DualSolver SystemSpec BuildSystem BuildProofs BuildKeys PseudoParse Combine CombineProofs CombineTheorems Html Show ShowProofs
  NumbaBuild NumbaSpec NumbaProofs Properties_Numba.
Import ListNotations.
Close Scope string_scope. Close Scope Qc_scope. Close Scope Q_scope. Close Scope Z_scope. Open Scope nat_scope. Open Scope list_scope.

Lemma target_edges_moved {S S' I1 I2} (g : S -> S') (p : list (edge S decision (I1 + I2))) :
  mapM target_edge (map (map_edge g (fun c : cost => c) (fun i => i)) p) = rmap (map (map_edge g (fun c : cost => c) (fun i => i))) (mapM target_edge p).
Proof.
  induction p as [|e p IH]; [reflexivity|]. cbn [map mapM]. rewrite IH. unfold target_edge at 1 3. cbn [map_edge info].
  destruct e as [s t c a [i|i]]; cbn; [|reflexivity]. destruct (mapM target_edge p); reflexivity.
Qed.
Lemma each_same {A B} (R : A -> B -> Prop) (f : nat -> A -> result text) (f' : nat -> B -> result text) l l' :
  Forall2 R l l' -> (forall i x y, R x y -> f' i y = f i x) -> forall i, each f' i l' = each f i l.
Proof. intros F H. induction F as [|x y l l' Hx F IH]; intros i; [reflexivity|]. cbn [each]. now rewrite IH, (H i x y Hx). Qed.
Definition like {S S' I M} (x : pdag * @conversion S dkey dvalue I * M) (y : pdag * @conversion S' dkey dvalue I * M) : Prop :=
  fst (fst y) = fst (fst x) /\ renamed (snd (fst x)) (snd (fst y)) /\ snd y = snd x.
Lemma like_items {S S' I M} (cs : list (@conversion S dkey dvalue I)) (cs' : list (@conversion S' dkey dvalue I)) (ds : list pdag) (ts : list M) :
  Forall2 renamed cs cs' -> Forall2 like (combine (combine ds cs) ts) (combine (combine ds cs') ts).
Proof.
  intros F. revert ds ts. induction F as [|c c' cs cs' R F IH]; intros [|d ds] [|t ts]; try exact (Forall2_nil _). cbn [combine]. constructor; [|apply IH].
  unfold like. auto.
Qed.
(** What is made of the best path does not depend on the names of the states. *)
Lemma best_like {S S' I1 I2 B} (d : pdag) (c : @conversion S dkey dvalue (I1 + I2)) (c' : @conversion S' dkey dvalue (I1 + I2)) asg
    (k : list (edge S decision I1) -> result B) (k' : list (edge S' decision I1) -> result B) :
  renamed c c' -> (forall g p, k' (map (map_edge g (fun c : cost => c) (fun i => i)) p) = k p) ->
  (do r <- constrained_best_path d c' asg; do path <- mapM target_edge (fst r); k' path) =
  (do r <- constrained_best_path d c asg; do path <- mapM target_edge (fst r); k path).
Proof.
  intros R H. apply renamed_inv in R as [g ->]. rewrite best_path_map. destruct (constrained_best_path d c asg) as [[p a]|]; cbn [rmap bind fst]; [|reflexivity].
  rewrite target_edges_moved. destruct (mapM target_edge p) as [q|]; cbn [rmap bind]; auto.
Qed.

(** ** C78.  The pages of a result, for wrappers based on edits and for call sequences. *)
Theorem C78_same_edit_pages :
  forall (M St St' : Type) (marker : bool) (r : combine_result M St (option einfo + cinfo)) (r' : combine_result M St' (option einfo + cinfo)),
    same_result r r' ->
    show_suggestion render_solution_html (r_prototype r') (r_context_info r') (assignment_map r') =
      show_suggestion render_solution_html (r_prototype r) (r_context_info r) (assignment_map r) /\
    show_edits (render_pairwise_matching_html marker) r' = show_edits (render_pairwise_matching_html marker) r.
Proof.
  intros M St St' marker r r' (E1 & E2 & E3 & (D1 & D2 & D3 & D4) & _ & _ & _ & _ & E5 & _). unfold show_edits. rewrite E1, E2, E3, E5. split; [reflexivity|].
  destruct (assignment_map r) as [asg|]; [|reflexivity]. f_equal. unfold render_pairwise_matching_html. destruct (r_context_info r) as [prefix|]; [|reflexivity].
  rewrite D1. apply (each_same like); [now apply like_items|]. intros i [[d c] t] [[d' c'] t'] (F1 & F2 & F3). cbn [fst snd] in *. subst d' t'.
  apply (best_like d c c' asg (fun p => do html <- extract_edit_sequence_html p (r_prototype r) t [] (editing_marker marker) [];
    Ok (heading i ++ tag mono_span ++ escape prefix ++ chars "</span>" ++ html ++ chars "<br>"))
    (fun p => do html <- extract_edit_sequence_html p (r_prototype r) t [] (editing_marker marker) [];
    Ok (heading i ++ tag mono_span ++ escape prefix ++ chars "</span>" ++ html ++ chars "<br>"))); auto.
  intros g p. now rewrite edit_html_moved.
Qed.
Print Assumptions C78_same_edit_pages.
Theorem C78_same_call_pages :
  forall (St St' : Type) (r : combine_result text St (option sinfo + cinfo)) (r' : combine_result text St' (option sinfo + cinfo)),
    same_result r r' ->
    show_suggestion (fun p _ a => render_calls_html p a) (r_prototype r') (r_context_info r') (assignment_map r') =
      show_suggestion (fun p _ a => render_calls_html p a) (r_prototype r) (r_context_info r) (assignment_map r) /\
    show_edits (fun p ts _ sy a => render_pairwise_calls_html p ts sy a) r' = show_edits (fun p ts _ sy a => render_pairwise_calls_html p ts sy a) r.
Proof.
  intros St St' r r' (E1 & E2 & E3 & (D1 & D2 & D3 & D4) & _ & _ & _ & _ & E5 & _). unfold show_edits. rewrite E1, E2, E3, E5. split; [reflexivity|].
  destruct (assignment_map r) as [asg|]; [|reflexivity]. f_equal. unfold render_pairwise_calls_html.
  rewrite D1. apply (each_same like); [now apply like_items|]. intros i [[d c] t] [[d' c'] t'] (F1 & F2 & F3). cbn [fst snd] in *. subst d' t'.
  apply (best_like d c c' asg (fun p => do groups <- extract_match_groups p (r_prototype r) t;
    Ok (heading i ++ tag mono_span ++ concat (map show_group groups) ++ chars "</span><br>"))
    (fun p => do groups <- extract_match_groups p (r_prototype r) t;
    Ok (heading i ++ tag mono_span ++ concat (map show_group groups) ++ chars "</span><br>"))); auto.
  intros g p. now rewrite match_groups_moved.
Qed.
Print Assumptions C78_same_call_pages.

(** ** C78.  Evaluations against a known continuation, from the systems for the
    continuation and for the samples. *)
Lemma same_evaluation {M S S' I A} (evaluate evaluate' : assignments -> result (cost * A)) (prototype : storage M) asg
    (sy : @system S dkey dvalue I) (sy' : @system S' dkey dvalue I) : evaluate' asg = evaluate asg -> same_system sy sy' ->
  solution_info_evaluated evaluate' prototype asg sy' = solution_info_evaluated evaluate prototype asg sy.
Proof.
  intros E (D1 & D2 & D3 & D4). unfold solution_info_evaluated. destruct (extract_sequence_with_regions prototype asg []) as [parts [err|]]; [reflexivity|].
  rewrite E, D1. destruct (evaluate asg) as [x|]; cbn [bind]; [|reflexivity]. now rewrite (same_info _ _ _ asg _ (same_removelast _ _ _ D4)).
Qed.
Theorem C78_same_edit_evaluation :
  forall (M St St' : Type) (prototype target : storage M) asg (sy samples : @system St dkey dvalue (option einfo + cinfo)) (sy' samples' : @system St' dkey dvalue (option einfo + cinfo)),
    same_system sy sy' -> same_system samples samples' ->
    solution_info_evaluated (evaluate_edits prototype target sy') prototype asg samples' =
    solution_info_evaluated (evaluate_edits prototype target sy) prototype asg samples.
Proof.
  intros M St St' prototype target asg sy samples sy' samples' (D1 & D2 & D3 & D4) Hs. apply same_evaluation; auto. unfold evaluate_edits. rewrite D1.
  destruct (tables (data sy)) as [|m [|m2 [|m3 l]]]; try reflexivity. destruct D4 as [|c c' cs cs' R F]; [reflexivity|].
  apply (best_like (m_dag m) c c' asg (fun p => do metrics <- extract_edit_summary_metrics p prototype target; Ok (path_cost p, metrics))
    (fun p => do metrics <- extract_edit_summary_metrics p prototype target; Ok (path_cost p, metrics))); auto.
  intros g p. now rewrite metrics_moved, cost_moved.
Qed.
Print Assumptions C78_same_edit_evaluation.
Theorem C78_same_call_evaluation :
  forall (St St' : Type) (prototype : storage text) asg (sy samples : @system St dkey dvalue (option sinfo + cinfo)) (sy' samples' : @system St' dkey dvalue (option sinfo + cinfo)),
    same_system sy sy' -> same_system samples samples' ->
    solution_info_evaluated (evaluate_calls prototype sy') prototype asg samples' =
    solution_info_evaluated (evaluate_calls prototype sy) prototype asg samples.
Proof.
  intros St St' prototype asg sy samples sy' samples' (D1 & D2 & D3 & D4) Hs. apply same_evaluation; auto. unfold evaluate_calls. rewrite D1.
  destruct (tables (data sy)) as [|m [|m2 [|m3 l]]]; try reflexivity. destruct D4 as [|c c' cs cs' R F]; [reflexivity|].
  apply (best_like (m_dag m) c c' asg (fun p => do k <- count_path prototype no_counts p; Ok (path_cost p, k))
    (fun p => do k <- count_path prototype no_counts p; Ok (path_cost p, k))); auto.
  intros g p. now rewrite counts_moved, cost_moved.
Qed.
Print Assumptions C78_same_call_evaluation.

(** ** C78.  From the samples to the pages and to the evaluation of a known
    continuation. *)
Lemma combine_made {M S I} fuel clock (w : wrapper M S I) parse context samples index r :
  combine_samples fuel clock w parse context samples index = Some (Ok r) -> prototype_made w parse context samples index (r_prototype r).
Proof.
  unfold combine_samples, prepare. intros H. destruct (py_index _ index) as [s|] eqn:E1; cbn [bind] in H; [|discriminate].
  destruct (parse s) as [ns|] eqn:E2; cbn [bind] in H; [|discriminate]. destruct (w_prototype w ns (length context)) as [p ci] eqn:E3.
  destruct (mapM _ _) as [ts|]; cbn [bind] in H; [|discriminate]. destruct (w_build w p ts) as [sy|]; cbn [bind] in H; [|discriminate].
  destruct (solve_system_with_sweeps _ _ _ _) as [[[res s']|]|]; try discriminate.
  injection H as H. exists s, ns. splits; auto. rewrite E3. cbn [fst]. unfold finish in H.
  destruct (rev (objective_at_step res)); [now injection H as <-|]. apply bind_ok_inv in H as (g & _ & H). apply bind_ok_inv in H as (asg & _ & H).
  apply bind_ok_inv in H as (sol & _ & H). now injection H as <-.
Qed.
Lemma edit_builds (P : parameters) low exit hash hashc scratch parse context samples index p targets :
  let w := edit_wrapper P low exit in
  (forall s ns, In s samples -> parse (context ++ s) = Ok ns -> no_decisions ns) -> 0 < length scratch ->
  (forall t d, target_made w parse context samples t -> construct_edit_dag P p t = Ok d -> collision_free hash (length scratch) d) ->
  (forall d, construct_constraint_dag p = Ok d -> collision_free hashc (length scratch) d) ->
  (exists some, prototype_made w parse context some index p) -> (forall t, In t targets -> target_made w parse context samples t) ->
  rel_result same_system (w_build w p targets) (w_build (edit_wrapper_rewrite hash hashc scratch P low exit) p targets).
Proof.
  intros w D L C1 C2 (some & s & ns & _ & _ & Ep) Ht. cbn [w_build edit_wrapper edit_wrapper_rewrite w]. rewrite build_system_python.
  cbn [fst w_prototype edit_wrapper w] in Ep. apply same_build.
  - intros t T. destruct (edit_target_text P low exit parse context samples t D (Ht t T)) as (ts & Et & X).
    destruct (edit_fits P (annotate low exit ns (length context)) ts X) as (d & E1 & E2 & O & F).
    rewrite <- Ep, <- Et in E1, E2. exists d. splits; auto. apply add_inl; auto. apply (C1 t d); auto.
  - destruct (constraint_fits (annotate low exit ns (length context))) as (d & E1 & E2 & O & F). rewrite <- Ep in E1, E2.
    exists d. splits; auto. apply add_inr; auto.
Qed.
Theorem C78_edit_shown :
  forall (P : parameters) (low exit : bool) (hash : estate -> nat) (hashc : cstate -> nat) (scratch : list (option nat))
         fuel clock parse (context : text) (samples : list text) (index : Z) (truth : text),
    let w := edit_wrapper P low exit in
    let w' := edit_wrapper_rewrite hash hashc scratch P low exit in
    (forall s ns, In s (truth :: samples) -> parse (context ++ s) = Ok ns -> no_decisions ns) ->
    0 < length scratch ->
    (forall p t d, prototype_made w parse context samples index p -> target_made w parse context (truth :: samples) t ->
       construct_edit_dag P p t = Ok d -> collision_free hash (length scratch) d) ->
    (forall p d, prototype_made w parse context samples index p -> construct_constraint_dag p = Ok d -> collision_free hashc (length scratch) d) ->
    forall r, combine_samples fuel clock w parse context samples index = Some (Ok r) ->
    exists r', combine_samples fuel clock w' parse context samples index = Some (Ok r') /\
      show_suggestion render_solution_html (r_prototype r') (r_context_info r') (assignment_map r') =
        show_suggestion render_solution_html (r_prototype r) (r_context_info r) (assignment_map r) /\
      (forall marker, show_edits (render_pairwise_matching_html marker) r' = show_edits (render_pairwise_matching_html marker) r) /\
      (forall ns asg, parse (context ++ truth) = Ok ns ->
         let target := w_target w ns (length context) in
         (do sy <- w_build w' (r_prototype r') [target]; solution_info_evaluated (evaluate_edits (r_prototype r') target sy) (r_prototype r') asg (r_system r')) =
         (do sy <- w_build w (r_prototype r) [target]; solution_info_evaluated (evaluate_edits (r_prototype r) target sy) (r_prototype r) asg (r_system r))).
Proof.
  intros P low exit hash hashc scratch fuel clock parse context samples index truth w w' D L C1 C2 r Hr.
  pose proof (C78_edit_wrapper_rewrite P low exit hash hashc scratch fuel clock parse context samples index) as A. cbv zeta in A. fold w w' in A.
  assert (A' : same_outcome (combine_samples fuel clock w parse context samples index) (combine_samples fuel clock w' parse context samples index)).
  { apply A; auto; [intros s ns X; apply D; now right|]. intros p t d Hp (s & ns & X & Y). apply C1; auto. exists s, ns. split; [now right|auto]. }
  clear A. rewrite Hr in A'. cbn [same_outcome] in A'. destruct (combine_samples fuel clock w' parse context samples index) as [[r'|]|]; try contradiction.
  exists r'. split; [reflexivity|]. destruct (C78_same_edit_pages _ _ _ true r r' A') as [S1 _]. splits; auto.
  - intros marker. apply (C78_same_edit_pages _ _ _ marker r r' A').
  - intros ns asg Ens target. pose proof (combine_made _ _ _ _ _ _ _ _ Hr) as Hp.
    destruct A' as (_ & E2 & _ & E4 & _). rewrite E2.
    assert (B : rel_result same_system (w_build w (r_prototype r) [target]) (w_build w' (r_prototype r) [target])).
    { apply (edit_builds P low exit hash hashc scratch parse context (truth :: samples) index); eauto.
      intros t [<-|[]]. exists truth, ns. splits; auto. now left. }
    destruct (w_build w (r_prototype r) [target]) as [sy|], (w_build w' (r_prototype r) [target]) as [sy'|]; cbn [rel_result bind] in *; try contradiction; [|congruence].
    now apply C78_same_edit_evaluation.
Qed.
Print Assumptions C78_edit_shown.
Lemma call_builds isspace builtin (U : text -> text -> utilities) hash hashc scratch parse context samples index p targets :
  let w := call_wrapper isspace builtin U in
  0 < length scratch ->
  (forall t d, target_made w parse context samples t -> construct_selection_dag U p t = Ok d -> collision_free hash (length scratch) d) ->
  (forall d, construct_constraint_dag p = Ok d -> collision_free hashc (length scratch) d) ->
  (exists some, prototype_made w parse context some index p) -> (forall t, In t targets -> target_made w parse context samples t) ->
  rel_result same_system (w_build w p targets) (w_build (call_wrapper_rewrite hash hashc scratch isspace builtin U) p targets).
Proof.
  intros w L C1 C2 (some & s & ns & _ & _ & Ep) Ht. cbn [w_build call_wrapper call_wrapper_rewrite w]. rewrite build_system_python.
  apply same_build.
  - intros t T. pose proof (Ht t T) as (s' & ns' & _ & _ & Et). destruct (calls_fit isspace builtin ns ns' (length context)) as (H1 & H2 & H3).
    destruct (selection_fits U _ _ H1 H2 H3) as (d & E1 & E2 & O & F).
    exists d. splits; subst p t; auto. apply add_inl; auto. refine (C1 _ d (Ht _ T) E1).
  - destruct (constraint_fits (make_callseq_tree isspace builtin ns (length context))) as (d & E1 & E2 & O & F).
    exists d. splits; subst p; auto. apply add_inr; auto.
Qed.
Theorem C78_call_shown :
  forall (isspace : nat -> bool) (builtin : list text) (U : text -> text -> utilities) (hash : sstate -> nat) (hashc : cstate -> nat) (scratch : list (option nat))
         fuel clock parse (context : text) (samples : list text) (index : Z) (truth : text),
    let w := call_wrapper isspace builtin U in
    let w' := call_wrapper_rewrite hash hashc scratch isspace builtin U in
    0 < length scratch ->
    (forall p t d, prototype_made w parse context samples index p -> target_made w parse context (truth :: samples) t ->
       construct_selection_dag U p t = Ok d -> collision_free hash (length scratch) d) ->
    (forall p d, prototype_made w parse context samples index p -> construct_constraint_dag p = Ok d -> collision_free hashc (length scratch) d) ->
    forall r, combine_samples fuel clock w parse context samples index = Some (Ok r) ->
    exists r', combine_samples fuel clock w' parse context samples index = Some (Ok r') /\
      show_suggestion (fun p _ a => render_calls_html p a) (r_prototype r') (r_context_info r') (assignment_map r') =
        show_suggestion (fun p _ a => render_calls_html p a) (r_prototype r) (r_context_info r) (assignment_map r) /\
      show_edits (fun p ts _ sy a => render_pairwise_calls_html p ts sy a) r' = show_edits (fun p ts _ sy a => render_pairwise_calls_html p ts sy a) r /\
      (forall ns asg, parse (context ++ truth) = Ok ns ->
         let target := w_target w ns (length context) in
         (do sy <- w_build w' (r_prototype r') [target]; solution_info_evaluated (evaluate_calls (r_prototype r') sy) (r_prototype r') asg (r_system r')) =
         (do sy <- w_build w (r_prototype r) [target]; solution_info_evaluated (evaluate_calls (r_prototype r) sy) (r_prototype r) asg (r_system r))).
Proof.
  intros isspace builtin U hash hashc scratch fuel clock parse context samples index truth w w' L C1 C2 r Hr.
  pose proof (C78_call_wrapper_rewrite isspace builtin U hash hashc scratch fuel clock parse context samples index) as A. cbv zeta in A. fold w w' in A.
  assert (A' : same_outcome (combine_samples fuel clock w parse context samples index) (combine_samples fuel clock w' parse context samples index)).
  { apply A; auto. intros p t d Hp (s & ns & X & Y). apply C1; auto. exists s, ns. split; [now right|auto]. }
  clear A. rewrite Hr in A'. cbn [same_outcome] in A'. destruct (combine_samples fuel clock w' parse context samples index) as [[r'|]|]; try contradiction.
  exists r'. split; [reflexivity|]. destruct (C78_same_call_pages _ _ r r' A') as [S1 S2]. splits; auto.
  intros ns asg Ens target. pose proof (combine_made _ _ _ _ _ _ _ _ Hr) as Hp.
  destruct A' as (_ & E2 & _ & E4 & _). rewrite E2.
  assert (B : rel_result same_system (w_build w (r_prototype r) [target]) (w_build w' (r_prototype r) [target])).
  { apply (call_builds isspace builtin U hash hashc scratch parse context (truth :: samples) index); eauto.
    intros t [<-|[]]. exists truth, ns. splits; auto. now left. }
  destruct (w_build w (r_prototype r) [target]) as [sy|], (w_build w' (r_prototype r) [target]) as [sy'|]; cbn [rel_result bind] in *; try contradiction; [|congruence].
  now apply C78_same_call_evaluation.
Qed.
Print Assumptions C78_call_shown.

(** ** The hypotheses of [C78_edit_shown] hold in a concrete case. *)
Example C78_shown_hypotheses :
  let context := [97] in let samples := [[98]; [99]] in let truth := [99] in let scratch := repeat (Some 5) 1000 in
  (forall s ns, In s (truth :: samples) -> ex_parse (context ++ s) = Ok ns -> no_decisions ns) /\ 0 < length scratch /\
  (forall p t d, prototype_made ex_W ex_parse context samples 0 p -> target_made ex_W ex_parse context (truth :: samples) t ->
     construct_edit_dag ex_costs p t = Ok d -> collision_free (position ex_states) (length scratch) d) /\
  (forall p d, prototype_made ex_W ex_parse context samples 0 p -> construct_constraint_dag p = Ok d -> collision_free (position ex_cstates) (length scratch) d).
Proof.
  pose proof C78_hypotheses as H. cbv zeta in H |- *. destruct H as (H1 & H2 & H3 & H4 & _).
  assert (G : forall s : text, In s [[99]; [98]; [99]] -> In s [[98]; [99]]) by (intros s [<-|X]; [right; now left|exact X]).
  split; [|split; [exact H2|split; [|exact H4]]].
  - intros s ns X. apply H1. now apply G.
  - intros p t d Hp (s & ns & X & Y). apply (H3 p t d Hp). exists s, ns. split; [now apply G|exact Y].
Qed.
