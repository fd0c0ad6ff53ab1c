(** What the displays show of a sequence of calls. *)

From Coq Require Import String.
From Coq Require Import List Bool Arith Lia ZArith Sorted QArith Qcanon.
From Verif Require Import Base SeqNodes Transforms PackedSeq PackedSeqProofs Numbered Graph GatedDag PackedDag Convert MapDag Decisions ConstraintSpec ConstraintDag
  ConstraintPack EditSpec SelectionDag SelectionSpec SelectionProofs SelectionPaths SelectionTheorems SelectionReport SelectionReportProofs SelectionVerdicts RegionDecisions RegionProofs Html
  Properties_Regions SystemSpec BuildSystem BuildProofs BuildKeys EditReport Combine CombineSpec CombineProofs CombineStats CombinePaths CombineTheorems
  DualSolver PseudoParse CallSequence Show ShowSpec ShowProofs.
Import ListNotations.
Close Scope string_scope. Close Scope Qc_scope. Close Scope Q_scope. Close Scope Z_scope. Open Scope nat_scope. Open Scope list_scope.

Lemma scattered_app {A} (a a' b b' : list A) : scattered a a' -> scattered b b' -> scattered (a ++ b) (a' ++ b').
Proof. induction 1; intros Hb; cbn; auto; constructor; auto. Qed.
Lemma scattered_refl {A} (l : list A) : scattered l l.
Proof. induction l; constructor; auto. Qed.
Lemma scattered_nil {A} (l : list A) : scattered [] l.
Proof. induction l; constructor; auto. Qed.

(** The line shown for a group. *)
Definition group_line (g : sgroup) : list (nat * list text) :=
  match sg_category g with
  | Some SelectMatched => under [mono_span] (chars "MATCHED: " ++ joined (sg_tokens g)) ++ [(10, [mono_span])]
  | Some SelectUnmatched => under [mono_span] (chars "WRONG: " ++ joined (sg_tokens g)) ++ [(10, [mono_span])]
  | _ => []
  end.
Definition call_block (i : nat) (groups : list sgroup) : list (nat * list text) :=
  under [] (heading_line i) ++ line_break ++ flat_map group_line groups ++ line_break.
Lemma under_app stack a b : under stack (a ++ b) = under stack a ++ under stack b.
Proof. apply map_app. Qed.
Lemma group_piece g : piece [mono_span] (show_group g) (group_line g).
Proof.
  unfold show_group, group_line. destruct (sg_category g) as [[]|]; try apply piece_nil; rewrite under_app, <- app_assoc;
    (apply piece_app; [apply piece_plain; plain_text|]; apply piece_app; [apply piece_text|apply piece_break]).
Qed.
Lemma groups_piece gs : piece [mono_span] (concat (map show_group gs)) (flat_map group_line gs).
Proof. induction gs as [|g gs IH]; [apply piece_nil|]. cbn [map concat flat_map]. apply piece_app; [apply group_piece|exact IH]. Qed.
Lemma call_block_piece i gs : piece [] (heading i ++ tag mono_span ++ concat (map show_group gs) ++ chars "</span><br>") (call_block i gs).
Proof.
  change (chars "</span><br>") with (chars "</span>" ++ chars "<br>").
  replace (heading i ++ tag mono_span ++ concat (map show_group gs) ++ chars "</span>" ++ chars "<br>")
    with (heading i ++ (tag mono_span ++ concat (map show_group gs) ++ chars "</span>") ++ chars "<br>") by now rewrite <- !app_assoc.
  unfold call_block. rewrite (app_assoc (under [] _)). apply piece_app; [apply heading_piece|]. apply piece_app; [|apply piece_break].
  apply piece_span; [apply mono_plain|apply mono_opens|apply groups_piece].
Qed.

(** What the lines for a sample say. *)
Definition calls_told {M} `{EqDec M} (U : text -> M -> utilities) (asg : assignments) (prototype target : list (node M)) (k : Qc)
    (verdicts : list (nat * (text * M) * verdict)) : Prop :=
  map fst verdicts = flat_map token_nodes (labelled prototype) /\
  Forall (fun v => SystemSpec.decided asg (fst (fst v), NodeInRegion) = if is_verdict NotSelected (snd v) then DFalse else DTrue) verdicts /\
  k = fold_right (fun v q => (verdict_cost U v + q)%Qc) 0%Qc verdicts /\
  least_cost (selection U (walks (labelled prototype)) (walks (labelled target))) asg k /\
  scattered (verdict_texts Matched verdicts) (shown_tokens target).
Lemma selection_once {M} (U : text -> M -> utilities) (ns : list (node M)) to k ds : selection U (walks (labelled ns)) to k ds -> NoDup (map fst ds).
Proof.
  intros H. pose proof (selection_increasing U (labelled ns) to k ds (labelled_numbered ns) H) as St.
  assert (G : forall l, StronglySorted lt l -> NoDup l).
  { induction 1 as [|x l H0 IH F]; constructor; auto. intros C. rewrite Forall_forall in F. specialize (F x C). lia. }
  apply distinct_keys. exact (G _ St).
Qed.
Lemma calls_tell {M} {md : EqDec M} U asg (ns ts : list (node M)) d p k : construct_selection_dag U (pack ns) (pack ts) = Ok d -> complete_path d p ->
  path_cost p = Fin k -> selection U (walks (labelled ns)) (walks (labelled ts)) k (path_assignments p) ->
  least_cost (selection U (walks (labelled ns)) (walks (labelled ts))) asg k -> same_decisions asg (path_assignments p) ->
  exists groups ss, extract_match_groups p (pack ns) (pack ts) = Ok groups /\ calls_told U asg ns ts k (on_tokens ss) /\
    concat (map sg_tokens (matched_groups groups)) = verdict_texts Matched (on_tokens ss) /\
    concat (map sg_tokens (wrong_groups groups)) = verdict_texts Wrong (on_tokens ss) /\
    flat_map (fun e => effect_verdict (effect_of e)) p = map (fun x => (number_of (fst x), snd x)) ss /\ incl (map fst ss) (walks (labelled ns)).
Proof.
  intros Hd Hp Hk Hsel Hl Hs.
  destruct (path_verdicts U ns ts d p Hd Hp) as [gs [ss [E [F1 [F2 [F3 [F4 [F5 [F6 [F7 [rest F8]]]]]]]]]]].
  exists gs, ss. splits; auto. unfold calls_told. splits; auto.
  - eapply Forall_impl; [|exact F4]. cbn beta. intros v Hv. rewrite (Hs _). unfold SystemSpec.decided.
    now rewrite (assoc_once _ _ _ (selection_once U ns _ _ _ Hsel) Hv).
  - congruence.
  - rewrite <- F6, F8. rewrite <- (app_nil_r (concat _)). apply scattered_app; [|apply scattered_nil]. clear.
    induction gs as [|g gs IH]; [constructor|]. unfold matched_groups in *. cbn [filter]. destruct (sg_category g) as [[]|]; cbn [matched of_target map concat]; auto.
    + change (concat (map sg_tokens (filter (fun g => matched (sg_category g)) gs))) with ([] ++ concat (map sg_tokens (filter (fun g => matched (sg_category g)) gs))).
      apply scattered_app; [apply scattered_nil|exact IH].
    + apply scattered_app; [apply scattered_refl|exact IH].
Qed.

Section CallShown.
  Context (isspace : nat -> bool) (builtin : list text) (U : text -> text -> utilities) (parse : text -> result (list (node text))).
  Context (context : text) (samples : list text) (index : Z) (sample : text).
  Context (trees : text -> list (node text)) (Hread : forall s, In s samples -> reads parse (context ++ s) (trees s)).
  Context (Hsample : designates samples index sample).
  Let proto := calls_of isspace builtin context trees sample.
  Let target (s : text) := strip_decision_nodes (calls_of isspace builtin context trees s).
  Let rels (s : text) := selection U (walks (labelled proto)) (walks (labelled (target s))).

  Lemma call_paths fuel clock r asg : combine_samples fuel clock (call_wrapper isspace builtin U) parse context samples index = Some (Ok r) -> assignment_map r = Some asg ->
    Forall2 (fun s dc => exists p k, best_path (construct_selection_dag U (pack proto) (pack (target s))) (rels s) asg dc p k)
      samples (combine (map m_dag (removelast (tables (data (r_system r))))) (conversion_data (r_system r))).
  Proof.
    intros H Ha. destruct (calls_hyps isspace builtin context sample trees) as [H1 [H2 H3]].
    exact (proj1 (combine_paths (call_wrapper isspace builtin U) parse context samples index sample trees (fun s Hs => proj1 (Hread s Hs)) (designates_index _ _ _ Hsample)
             proto _ eq_refl (construct_selection_dag U) (fun _ _ => eq_refl) rels
             (fun s Hs => selection_allows U proto (target s) H1 H2 (H3 s))
             (fun s ds Hs Hc => choice_selection U (labelled proto) _ ds H1 Hc)
             fuel clock r asg H Ha)).
  Qed.
End CallShown.
