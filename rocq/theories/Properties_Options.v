(** C83: offering more kinds of decisions never hurts.  Specification vocabulary:
    [fewer_options] in [MoreOptions.v]; [region_choice] in [ConstraintSpec.v];
    [same_decisions] in [SystemSpec.v]; [prototype_of] is the parsed sample with the
    options inserted and the context cut off. *)

From Coq Require Import String.
From Coq Require Import List Bool Arith Lia ZArith Sorted Permutation QArith Qcanon.
From Verif Require Import Base SeqNodes Transforms PackedSeq PackedSeqProofs Numbered Graph GatedDag Convert Decisions ConstraintSpec ConstraintDag ConstraintPack Html
  PseudoParse EditDag EditSpec EditProofs EditTheorems CostDerivation Properties_Tree Properties_Edit SystemSpec BuildSystem BuildProofs Combine CombineSpec CombineProofs CombineStats CombineTheorems
  ShowProofs Properties_EndToEnd UtilityBounds Properties_Bounds MoreOptions.
Import ListNotations.
Close Scope string_scope. Close Scope Qc_scope. Close Scope Q_scope. Close Scope Z_scope. Open Scope nat_scope. Open Scope list_scope.

Lemma same_agrees (asg ds : list decision) : NoDup (map fst ds) -> same_decisions asg ds -> agrees (SystemSpec.decided asg) ds.
Proof.
  intros N S. apply Forall_forall. intros [k v] Hin. cbn [fst snd]. rewrite S. unfold SystemSpec.decided. now rewrite (assoc_once ds k v N Hin).
Qed.
Lemma edit_once {M} (md : EqDec M) (P : parameters) (ns ts : list (node M)) k ds : edit P (labelled ns) (labelled ts) k ds -> NoDup (map fst ds).
Proof.
  intros H. destruct (C44_edit_dag_exact M md P ns ts) as [d [E [_ X]]]. destruct (X k ds H) as [p [H1 [_ H3]]]. rewrite <- H3. eapply path_once; eauto.
Qed.
(** The decisions for the larger prototype depend only on those for the smaller one. *)
Lemma more_options {M} (md : EqDec M) (ns ns' : list (node M)) asg : fewer_options ns ns' -> exists ds',
  (forall ds, region_choice (labelled ns) ds -> same_decisions asg ds -> region_choice (labelled ns') ds') /\
  forall P ts k ds, edit P (labelled ns) (labelled ts) k ds -> same_decisions asg ds -> edit P (labelled ns') (labelled ts) k ds'.
Proof.
  intros F. destruct (joint_of ns ns' F 0 0 0 0 0 0 0 0) as [J [E1 E2]]. exists (fst (fill (SystemSpec.decided asg) J High)). unfold labelled in *. rewrite <- E2. split.
  - intros ds Hc Hs. apply (choice_joint _ J ds); [now rewrite E1|]. apply same_agrees; auto. eapply choice_once; [apply labelled_numbered|exact Hc].
  - intros P ts k ds He Hs. eapply edit_joint; [rewrite E1; exact He|]. apply same_agrees; auto. eapply edit_once; eauto.
Qed.

(** ** C83.  Whatever is chosen for a suggestion, the same is to be had when more regions
    could be started or ended and more exits could be taken: one choice for the larger
    prototype that every continuation can be edited to at the same cost. *)
Theorem C83_same_cost_with_more_options :
  forall (M : Type) (md : EqDec M) (fewer more : list (node M)) (choice : list decision),
    fewer_options fewer more -> region_choice (labelled fewer) choice ->
    strip_decision_nodes fewer = strip_decision_nodes more /\
    exists choice', region_choice (labelled more) choice' /\
      forall (P : parameters) (continuation : list (node M)) d d' p,
        construct_edit_dag P (pack fewer) (pack continuation) = Ok d -> construct_edit_dag P (pack more) (pack continuation) = Ok d' ->
        complete_path d p -> same_decisions choice (path_assignments p) ->
        exists p', complete_path d' p' /\ path_assignments p' = choice' /\ path_cost p' = path_cost p.
Proof.
  intros M md ns ns' ch F Hc. split.
  - clear Hc. induction F as [|n l l' H IH|cs cs' m l l' H1 IH1 H2 IH2|n l l' Hn H IH]; cbn [strip_decision_nodes strip_node flat_map] in *; unfold strip_decision_nodes in *; cbn [flat_map strip_node]; congruence || (destruct n; try destruct Hn; exact IH).
  - destruct (more_options md ns ns' ch F) as [ch' [H1 H2]]. exists ch'. split; [apply (H1 ch Hc); intros key; reflexivity|].
    intros P ts d d' p E E' Hp Hs. destruct (C44_edit_dag_exact M md P ns ts) as [d0 [E0 [X _]]]. assert (d0 = d) by congruence. subst d0.
    destruct (X p Hp) as [k [Hk He]]. specialize (H2 P ts k _ He Hs).
    destruct (C44_edit_dag_exact M md P ns' ts) as [d0 [E1 [_ Y]]]. assert (d0 = d') by congruence. subst d0.
    destruct (Y k ch' H2) as [p' [Z1 [Z2 Z3]]]. exists p'. splits; auto. congruence.
Qed.

(** Turning on regions or early exits adds options, also after the context is cut off. *)
Theorem C83_switches_add_options :
  forall (low low' exit exit' : bool) (parsed : list (node mtype)) (cursor : nat),
    (low = true -> low' = true) -> (exit = true -> exit' = true) ->
    fewer_options (annotate low exit parsed cursor) (annotate low' exit' parsed cursor).
Proof.
  intros low low' exit exit' ns k Hl He. unfold annotate. apply fewer_truncate.
  assert (A : fewer_options (if low then insert_regions ns true allow_regions else ns) (if low' then insert_regions ns true allow_regions else ns)).
  { destruct low, low'; try apply fewer_refl; [discriminate (Hl eq_refl)|apply fewer_regions]. }
  destruct exit, exit'; auto; [now apply fewer_both|discriminate (He eq_refl)|]. eapply fewer_trans; [apply fewer_exit|exact A].
Qed.

(** So the utility reported with fewer kinds of decisions is never above the bound
    reported with more; if the second result is optimal, it is at least as good. *)
Theorem C83_reported_utility :
  forall (P : parameters) (low low' exit exit' : bool) parse (context : text) (samples : list text) (index : Z) (sample : text) trees fuel fuel' clock clock' r r' asg asg',
    (forall s, In s samples -> reads parse (context ++ s) (trees s)) -> designates samples index sample ->
    (low = true -> low' = true) -> (exit = true -> exit' = true) ->
    combine_samples fuel clock (edit_wrapper P low exit) parse context samples index = Some (Ok r) -> assignment_map r = Some asg ->
    combine_samples fuel' clock' (edit_wrapper P low' exit') parse context samples index = Some (Ok r') -> assignment_map r' = Some asg' ->
    exists v v' u', solution_utility r = Fin v /\ solution_utility r' = Fin v' /\ utility_dual_bound r' = Fin u' /\ (v <= u')%Qc /\
      (v' = u' -> (v <= v')%Qc).
Proof.
  intros P low low' exit exit' parse context samples index sample trees fuel fuel' clock clock' r r' asg asg' Hread Hsample Hl He H Ha H' Ha'.
  destruct (C60_edit_utility P low exit parse context samples index sample trees fuel clock r Hread Hsample H) as [W _].
  destruct (W asg Ha) as [[ds [Hc Hs]] [ks [u [F [Hv _]]]]].
  destruct (C60_edit_utility P low' exit' parse context samples index sample trees fuel' clock' r' Hread Hsample H') as [W' _].
  destruct (W' asg' Ha') as [_ [ks' [u' [_ [Hv' [Hu' [_ Ho]]]]]]].
  exists (- average ks)%Qc, (- average ks')%Qc, u'.
  assert (B : (- average ks <= u')%Qc).
  { pose proof (C83_switches_add_options low low' exit exit' (trees sample) (length context) Hl He) as Fo.
    destruct (more_options _ _ _ asg Fo) as [ds' [M1 M2]]. apply (Ho ds'); [exact (M1 ds Hc Hs)|].
    clear -F M2. induction F as [|s k l l' Hk F IH]; [exact (Forall2_nil _)|]. apply Forall2_cons; [|exact IH].
    destruct Hk as [[d [Hk Hd]] _]. exists ds'. split; [|intros key; reflexivity]. eapply M2; eauto. }
  splits; auto. intros ->. exact B.
Qed.

(** Two samples that differ in their second letter: being able to stop after the first
    raises the utility from -3/2 to 1. *)
Example C83_example :
  let run exit := match combine_samples 100 (fun _ => false) (edit_wrapper ex_derived false exit) letters (chars "x") [chars "ab"; chars "ac"] 0 with
    | Some (Ok r) => match assignment_map r with Some _ => Some (solution_utility r, utility_dual_bound r) | None => None end | _ => None end in
  run false = Some (Fin (Q2Qc (-3 # 2)), Fin (Q2Qc (-3 # 2))) /\ run true = Some (Fin 1%Qc, Fin 1%Qc).
Proof. vm_compute. split; reflexivity. Qed.
Example C83_hypotheses :
  (forall s, In s [chars "ab"; chars "ac"] -> reads letters (chars "x" ++ s) (letter_tree (chars "x") s)) /\ designates [chars "ab"; chars "ac"] 0 (chars "ab") /\
  fewer_options (letter_tree [] (chars "ab")) (insert_early_exit (letter_tree [] (chars "ab")) true true) /\
  region_choice (labelled (letter_tree [] (chars "ab"))) (flat_map no_regions (labelled (letter_tree [] (chars "ab")))).
Proof.
  splits.
  - intros s Hs. destruct C55_hypotheses as [_ _]. cbn in Hs. destruct Hs as [<-|[<-|[]]]; repeat split; repeat constructor.
  - exists 0. split; auto.
  - apply fewer_exit.
  - left. apply no_regions_chosen.
Qed.
Print Assumptions C83_same_cost_with_more_options.
Print Assumptions C83_switches_add_options.
Print Assumptions C83_reported_utility.
