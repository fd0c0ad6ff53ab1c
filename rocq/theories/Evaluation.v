(** Evaluating a combined result on a continuation that was not among the samples. *)

From Coq Require Import String.
From Coq Require Import List Bool Arith Lia ZArith Sorted QArith Qcanon.
From Verif Require Import Base SeqNodes Transforms PackedSeq PackedSeqProofs Numbered Graph GatedDag PackedDag Convert MapDag Decisions ConstraintSpec ConstraintDag
  EditDag EditSpec EditReport EditReportProofs SelectionDag SelectionSpec SelectionProofs SelectionPaths SelectionTheorems SelectionReport SelectionReportProofs SelectionVerdicts RegionDecisions RegionProofs Html
  Properties_Tree Properties_Edit Properties_Report SystemSpec BuildSystem BuildProofs BuildKeys Combine CombineSpec CombineProofs CombineStats CombinePaths CombineTheorems
  DualSolver PseudoParse CallSequence CallTheorems Properties_EndToEnd Show ShowSpec ShowProofs ShowCalls.
Import ListNotations.
Close Scope string_scope. Close Scope Qc_scope. Close Scope Q_scope. Close Scope Z_scope. Open Scope nat_scope. Open Scope list_scope.

(** ** The costs of the samples and the rank. *)
Section Generic.
  Context {M S1 I1 : Type} {d1 : EqDec S1}.
  Context (w : wrapper M (S1 + cstate) (I1 + cinfo)) (parse : text -> result (list (node M))).
  Context (context : text) (samples : list text) (index : Z) (sample : text).
  Context (trees : text -> list (node M)) (Hparse : forall s, In s samples -> parse (context ++ s) = Ok (trees s)).
  Context (Hsample : py_index samples index = Ok sample).
  Context (proto : list (node M)) (ci : option text) (Hproto : w_prototype w (trees sample) (length context) = (pack proto, ci)).
  Context (construct : storage M -> storage M -> result (dag S1 decision I1)).
  Context (Hbuild : forall p ts, w_build w p ts = build_system (construct p) (construct_constraint_dag p) ts None).
  Context (rels : text -> Qc -> list decision -> Prop).
  Let tgt (s : text) : storage M := w_target w (trees s) (length context).
  Let K := questions (labelled proto).
  Let choice := region_choice (labelled proto).
  Context (Ht : forall s, In s samples -> exists d, construct (pack proto) (tgt s) = Ok d /\ allows (rels s) K d).
  Context (couple : forall s ds, In s samples -> choice ds -> exists k, rels s k ds).

  (** What an evaluation comes to, for a target with the given costs. *)
  Theorem evaluated fuel clock r asg (t : storage M) rel : combine_samples fuel clock w parse context samples index = Some (Ok r) -> assignment_map r = Some asg ->
    (exists d, construct (pack proto) t = Ok d /\ allows rel K d) -> (forall ds, choice ds -> exists k, rel k ds) ->
    r_prototype r = pack proto /\ NoDup (map fst asg) /\
    exists sy m m' c cs p k sol, w_build w (pack proto) [t] = Ok sy /\ tables (data sy) = [m; m'] /\ conversion_data sy = c :: cs /\
      best_path (construct (pack proto) t) rel asg (m_dag m, c) p k /\
      r_solution_info r = Some sol /\ extract_sequence_with_regions (pack proto) asg [] = (extracted_parts sol, None) /\
      exists ks info, Forall2 (fun s k => least_cost (rels s) asg k) samples ks /\ costs_unsorted (s_sample sol) = map Fin ks /\
        compute_sample_system_info (map m_dag (removelast (tables (data (r_system r))))) (removelast (conversion_data (r_system r))) asg (Some (Fin k)) = Ok info /\
        costs_unsorted info = map Fin ks /\
        cost_rank info = Some (length (filter (fun x => if Qclt_le_dec x k then true else false) ks)).
  Proof.
    intros H Ha Hd Hc.
    destruct (combine_spec w parse context samples index sample trees Hparse Hsample proto ci Hproto construct Hbuild rels Ht couple fuel clock r H) as [_ [Hp [_ S]]].
    destruct S as [[_ [Ha' _]]|(Hq & asg' & ds & sol & ks & u & Ha' & Hs & Na & Ka & Hch & Hsame & _ & Hx & Hk & _ & Hi & _)]; [congruence|].
    assert (asg' = asg) by congruence. subst asg'. splits; auto.
    assert (HK : K <> []) by (intros C; unfold K in C; rewrite C in Hq; cbn in Hq; lia).
    destruct (single_path w proto construct Hbuild t rel asg ds HK Hd Hc Na Ka Hch Hsame) as [sy [m [m' [c [cs [E1 [E2 [E3 [p [k B]]]]]]]]]].
    exists sy, m, m', c, cs, p, k, sol. splits; auto. exists ks.
    destruct (combine_paths w parse context samples index sample trees Hparse Hsample proto ci Hproto construct Hbuild rels Ht couple fuel clock r asg H Ha) as [F [_ L]].
    assert (G : mapM (fun dc => do r <- constrained_best_path (fst dc) (snd dc) asg; Ok (path_cost (fst r)))
                  (combine (map m_dag (removelast (tables (data (r_system r))))) (removelast (conversion_data (r_system r)))) = Ok (map Fin ks)).
    { rewrite L. clear -F Hk. revert ks Hk. induction F as [|s dc l l' [q [k' [d [y [B1 [B2 [B3 [B4 [B5 B6]]]]]]]]] F IH]; intros ks Hk; inversion Hk as [|? k0 ? ks0 K1 K2]; subst; [reflexivity|].
      cbn [mapM map]. rewrite B3. cbn [bind fst]. rewrite (IH ks0 K2). cbn [bind].
      do 2 f_equal. rewrite map_path_cost by auto. cbv beta. etransitivity; [exact B4|]. f_equal. eapply least_unique; eauto. }
    unfold compute_sample_system_info. rewrite G. cbn [bind]. eexists. splits; [exact Hk|now rewrite Hi|reflexivity|reflexivity|].
    cbn [cost_rank option_map]. destruct (sorted_fin ks) as [ks' [E [Hpm So]]]. rewrite E, bisect_rank by assumption. f_equal. symmetry. now apply below_perm.
  Qed.
End Generic.

(** ** The metrics: characters. *)
Definition measured (actions : list action) (metrics : list (text * cost)) : cost :=
  csum (map (fun kind => value (metric (fst kind) (snd kind) "chars") metrics) (list_prod actions all_confs)).
Definition size_of (tx : einfo -> text) (e : eedge) : nat := length (match info e with Some f => tx f | None => [] end).
Definition acts (actions : list action) (e : eedge) : bool := match info e with Some f => if in_dec eq_dec (act f) actions then true else false | None => false end.
Lemma count_add a b : cadd (count a) (count b) = count (a + b).
Proof.
  unfold count. cbn [cadd]. f_equal. apply Qc_is_canon. unfold Qcplus. cbn [this Q2Qc]. rewrite Nat2Z.inj_add, inject_Z_plus. now rewrite !Qred_correct.
Qed.
Lemma csum_count (l : list nat) : csum (map count l) = count (list_sum l).
Proof. induction l as [|x l IH]; [reflexivity|]. cbn [map]. unfold csum in *. cbn [fold_right list_sum]. rewrite IH. apply count_add. Qed.
Lemma sum_kinds (f : eedge -> nat) (p : list eedge) actions : NoDup actions ->
  list_sum (map (fun kind => list_sum (map f (filter (of_kind (fst kind) (snd kind)) p))) (list_prod actions all_confs)) = list_sum (map f (filter (acts actions) p)).
Proof.
  intros N. induction p as [|e p IH].
  - cbn [filter map]. induction (list_prod actions all_confs); auto.
  - assert (G : forall (l : list (action * option conf)), list_sum (map (fun kind => list_sum (map f (filter (of_kind (fst kind) (snd kind)) (e :: p)))) l) =
        list_sum (map (fun kind => if of_kind (fst kind) (snd kind) e then f e else 0) l) +
        list_sum (map (fun kind => list_sum (map f (filter (of_kind (fst kind) (snd kind)) p))) l)).
    { induction l as [|k l IHl]; [reflexivity|]. cbn [map list_sum filter]. cbn [filter] in IHl. fold list_sum. unfold list_sum in *. cbn [fold_right]. rewrite IHl.
      destruct (of_kind (fst k) (snd k) e); cbn [map fold_right]; lia. }
    rewrite G, IH. cbn [filter].
    assert (Z : list_sum (map (fun kind => if of_kind (fst kind) (snd kind) e then f e else 0) (list_prod actions all_confs)) = if acts actions e then f e else 0).
    { clear G IH. unfold acts. destruct (info e) as [g|] eqn:Eg.
      - assert (O : forall a c, of_kind a c e = (if eq_dec (act g) a then true else false) && (if eq_dec (at_conf g) c then true else false)).
        { intros a c. unfold of_kind. rewrite Eg. f_equal. destruct (eq_dec (Some (at_conf g)) (Some c)), (eq_dec (at_conf g) c); congruence. }
        induction N as [|a l Ha N IHl]; [reflexivity|]. change (list_prod (a :: l) all_confs) with (map (fun y => (a, y)) all_confs ++ list_prod l all_confs).
        rewrite map_app, list_sum_app, IHl, map_map. cbn [fst snd].
        assert (X : list_sum (map (fun c => if of_kind a c e then f e else 0) all_confs) = if eq_dec (act g) a then f e else 0).
        { cbn [map all_confs]. rewrite !O. destruct (eq_dec (act g) a); cbn [andb]; [|reflexivity].
          destruct (at_conf g) as [[]|]; repeat match goal with |- context [eq_dec ?x ?y] => destruct (eq_dec x y); try congruence end; cbn; lia. }
        rewrite X. destruct (in_dec eq_dec (act g) (a :: l)) as [I|I], (in_dec eq_dec (act g) l) as [J|J], (eq_dec (act g) a) as [Q|Q]; subst; cbn in *; try lia;
          try (exfalso; tauto); try (exfalso; apply I; auto; fail). exfalso. destruct I; congruence.
      - clear N. induction (list_prod actions all_confs) as [|k l IHl]; [reflexivity|]. unfold list_sum in *. cbn [map fold_right]. rewrite IHl. unfold of_kind. now rewrite Eg. }
    rewrite Z. unfold list_sum. destruct (acts actions e); cbn [map fold_right]; lia.
Qed.
Section Sizes.
  Context {M : Type} {md : EqDec M} (P : parameters) (ns ts : list (node M)) (d : dag estate decision (option einfo)) (p : list eedge).
  Context (Hd : construct_edit_dag P (pack ns) (pack ts) = Ok d) (Hp : complete_path d p).
  Let tx := info_text (labelled ns) (labelled ts).
  Lemma measured_size actions metrics : NoDup actions -> extract_edit_summary_metrics p (pack ns) (pack ts) = Ok metrics ->
    measured actions metrics = count (list_sum (map (size_of tx) (filter (acts actions) p))).
  Proof.
    intros N E. destruct (C52_metrics_account_for_the_path M md P ns ts d p Hd Hp) as [m [E' [H _]]]. assert (m = metrics) by congruence. subst m.
    rewrite <- (sum_kinds (size_of tx) p actions N), <- csum_count, map_map. unfold measured. f_equal. apply map_ext. intros [a c]. cbn [fst snd].
    destruct (H a c) as [H1 H2]. unfold value. destruct (filter (of_kind a c) p) as [|e l] eqn:El.
    - destruct (H1 eq_refl) as [_ [-> _]]. reflexivity.
    - destruct H2 as [_ [-> _]]; [discriminate|]. rewrite <- csum_count, map_map. reflexivity.
  Qed.
  Lemma path_honest_edges : Forall (fun e => honest (flat_map nodes (labelled ns)) (flat_map nodes (labelled ts)) (EditScript.effect_of e)) p.
  Proof. pose proof (path_honest P ns ts d p Hd Hp) as H. unfold EditScript.effects in H. now rewrite Forall_map in H. Qed.
  Lemma prototype_size :
    list_sum (map (size_of tx) (filter (acts [Keep; Delete; PrototypeDecoration]) p)) = length (concat (map (text_at (labelled ns)) (prototype_side (map info p)))).
  Proof.
    pose proof path_honest_edges as F. clear Hd Hp. induction F as [|e q He Hq IH]; [reflexivity|].
    cbn [map]. change (info e :: map info q) with ([info e] ++ map info q). rewrite EditTheorems.psides_app, map_app, concat_app, app_length, <- IH.
    cbn [filter]. unfold acts at 1. unfold honest, EditScript.effect_of in *. cbn [fst snd] in He. destruct (info e) as [f|] eqn:Ef; [|cbn; reflexivity].
    destruct (in_dec eq_dec (act f) [Keep; Delete; PrototypeDecoration]) as [I|I].
    - cbn [map]. unfold list_sum. cbn [fold_right]. f_equal. unfold size_of, tx, info_text. rewrite Ef. cbn [prototype_side flat_map].
      destruct (act f); try (exfalso; cbn in I; intuition discriminate); destruct He as [x [_ [_ ->]]]; cbn; now rewrite app_nil_r.
    - cbn [prototype_side flat_map]. destruct (act f); try (exfalso; apply I; cbn; tauto); destruct (proto_node f); reflexivity.
  Qed.
  Lemma token_node (l : list (node M)) i t m : In (i, (t, m)) (flat_map token_nodes (labelled l)) -> text_at (labelled l) i = t.
  Proof.
    intros H. assert (G : exists j, pre j = i /\ In (LToken j t m) (flat_map nodes (labelled l))).
    { apply in_flat_map in H as [x [Hx H]]. assert (Q : exists j, pre j = i /\ In (LToken j t m) (nodes x)).
      { clear Hx. induction x as [j t'|j t' m'|j|j|j|j cs m' IH] using lnode_ind'; try (now destruct H).
        - destruct H as [H|[]]. injection H as <- <- <-. exists j. split; auto. now left.
        - cbn [token_nodes] in H. apply in_flat_map in H as [c [Hc H]]. rewrite Forall_forall in IH. destruct (IH c Hc H) as [j' [E I]].
          exists j'. split; auto. cbn [nodes]. right. apply in_flat_map. eauto. }
      destruct Q as [j [E I]]. exists j. split; auto. apply in_flat_map. eauto. }
    destruct G as [j [<- I]]. exact (text_at_node l (LToken j t m) I).
  Qed.
  Lemma target_size :
    list_sum (map (size_of tx) (filter (acts [Keep; Insert; TargetDecoration]) p)) = length (concat (map (text_at (labelled ts)) (target_side (map info p)))).
  Proof.
    destruct (C43_edit_paths_are_scripts M md P ns ts d p Hd Hp) as [_ HK].
    assert (T : forall a b, target_side (a ++ b) = target_side a ++ target_side b) by (intros; apply flat_map_app).
    pose proof path_honest_edges as F.
    assert (G : forall q, (forall e, In e q -> In e p) -> Forall (fun e => honest (flat_map nodes (labelled ns)) (flat_map nodes (labelled ts)) (EditScript.effect_of e)) q ->
      list_sum (map (size_of tx) (filter (acts [Keep; Insert; TargetDecoration]) q)) = length (concat (map (text_at (labelled ts)) (target_side (map info q))))).
    2:{ apply G; auto. }
    induction q as [|e q IH]; intros Hi Hh; [reflexivity|]. inversion Hh as [|? ? He Hq]; subst. specialize (IH (fun x Hx => Hi x (or_intror Hx)) Hq).
    cbn [map]. change (info e :: map info q) with ([info e] ++ map info q). rewrite T, map_app, concat_app, app_length, <- IH.
    cbn [filter]. unfold acts at 1. unfold honest, EditScript.effect_of in *. cbn [fst snd] in He. destruct (info e) as [f|] eqn:Ef; [|cbn; reflexivity].
    destruct (in_dec eq_dec (act f) [Keep; Insert; TargetDecoration]) as [I|I].
    - cbn [map]. unfold list_sum. cbn [fold_right]. f_equal. unfold size_of, tx, info_text. rewrite Ef. cbn [target_side flat_map].
      destruct (act f) eqn:Ea; try (exfalso; cbn in I; intuition discriminate).
      + destruct (HK f) as [i [j [[t m] [E1 [E2 [T1 T2]]]]]]; auto. { rewrite <- Ef. apply in_map. apply Hi. now left. }
        rewrite E1, E2. cbn [map concat app]. now rewrite app_nil_r, (token_node ns i t m T1), (token_node ts j t m T2).
      + destruct He as [[y [_ [_ [-> ->]]]] _]. cbn. now rewrite app_nil_r.
      + destruct He as [[y [_ [_ [-> ->]]]] _]. cbn. now rewrite app_nil_r.
    - cbn [target_side flat_map]. destruct (act f); try (exfalso; apply I; cbn; tauto); destruct (target_node f); reflexivity.
  Qed.
  (** All characters are accounted for, up to an early exit. *)
  Theorem measured_text metrics : extract_edit_summary_metrics p (pack ns) (pack ts) = Ok metrics ->
    exists from to from' to', render ns = from ++ from' /\ render ts = to ++ to' /\
      measured [Keep; Delete; PrototypeDecoration] metrics = count (length from) /\ measured [Keep; Insert; TargetDecoration] metrics = count (length to) /\
      (~ (exists k, In ((k, ShouldEarlyExit), DTrue) (path_assignments p)) -> from' = [] /\ to' = []).
  Proof.
    intros E. assert (D : forall a b c : action, a <> b -> a <> c -> b <> c -> NoDup [a; b; c]) by (intros; repeat constructor; cbn; intuition congruence).
    rewrite (measured_size [Keep; Delete; PrototypeDecoration] metrics), (measured_size [Keep; Insert; TargetDecoration] metrics) by (auto; apply D; discriminate).
    rewrite prototype_size, target_size, <- !text_nodes_render.
    destruct (C43_edit_paths_are_scripts M md P ns ts d p Hd Hp) as [[[F [E1 E2]]|[b [x [E1 [S [F [[r E2] [r' E3]]]]]]]] _].
    - rewrite <- E1, <- E2. do 2 eexists. exists [], []. rewrite !app_nil_r. splits; auto.
    - rewrite E2, E3, !map_app, !concat_app. do 4 eexists. splits; [reflexivity|reflexivity|reflexivity|reflexivity|].
      intros C. exfalso. apply C. apply (path_stops P ns ts d p x Hd Hp); auto. rewrite E1. apply in_or_app. right. now left.
  Qed.
End Sizes.

(** ** The counters. *)
(** How many tokens of a type got a verdict. *)
Definition tally (m : text) (v : verdict) (verdicts : list (nat * (text * text) * verdict)) : nat :=
  length (filter (fun x => eqb (snd (snd (fst x))) m && is_verdict v (snd x)) verdicts).
Definition tallies (verdicts : list (nat * (text * text) * verdict)) : counters :=
  mkCounters (tally NOVEL Matched verdicts) (tally EXPECTED Matched verdicts) (tally ARGS Matched verdicts)
    (tally NOVEL Wrong verdicts) (tally EXPECTED Wrong verdicts) (tally ARGS Wrong verdicts).
Definition plus (a b : counters) : counters :=
  mkCounters (correct_novel a + correct_novel b) (correct_not_novel a + correct_not_novel b) (correct_args a + correct_args b)
    (deleted_novel a + deleted_novel b) (deleted_not_novel a + deleted_not_novel b) (deleted_args a + deleted_args b).
Section Counts.
  Context (ns : list (node text)).
  Lemma walk_token (x : lnode text) w : In w (walk x) -> exists y, In y (nodes x) /\ number y = number_of w /\ step_token w = match y with LToken i t m => [(pre i, (t, m))] | _ => [] end.
  Proof.
    induction x as [i t|i t m|i|i|i|i cs m IH] using lnode_ind'; cbn [walk]; intros Hw.
    - destruct Hw.
    - destruct Hw as [<-|[]]. exists (LToken i t m). splits; auto. now left.
    - destruct Hw as [<-|[]]. exists (LStart i). splits; auto. now left.
    - destruct Hw as [<-|[]]. exists (LEnd i). splits; auto. now left.
    - destruct Hw as [<-|[]]. exists (LExit i). splits; auto. now left.
    - destruct Hw as [<-|Hw]; [exists (LGroup i cs m); splits; auto; now left|]. apply in_app_or in Hw as [Hw|[<-|[]]]; [|exists (LGroup i cs m); splits; auto; now left].
      apply in_flat_map in Hw as [c [Hc Hw]]. rewrite Forall_forall in IH. destruct (IH c Hc Hw) as [y [H1 H2]]. exists y. split; auto.
      cbn [nodes]. right. apply in_flat_map. eauto.
  Qed.
  Lemma token_found w : In w (walks (labelled ns)) -> exists x, lookup (preorder_traversal (pack ns)) (Some (number_of w)) = Ok x /\
    ((cat x <> CToken /\ step_token w = []) \/ (cat x = CToken /\ exists i t m, step_token w = [(i, (t, m))] /\ lookup (tokens (pack ns)) (idx x) = Ok (t, m))).
  Proof.
    intros Hw. unfold walks in Hw. apply in_flat_map in Hw as [x [Hx Hw]]. apply walk_token in Hw as [y [Hy [<- ->]]].
    destruct (node_at ns y) as [N P]; [apply in_flat_map; eauto|]. exists (label y). unfold lookup at 1. rewrite N. split; [reflexivity|].
    apply placed_inv in P. destruct y as [i t|i t m|i|i|i|i cs m]; cbn [label].
    - destruct P as [-> _]. left. split; [discriminate|reflexivity].
    - destruct P as [-> P]. right. split; [reflexivity|]. eauto 6.
    - rewrite P. left. split; [discriminate|reflexivity].
    - rewrite P. left. split; [discriminate|reflexivity].
    - rewrite P. left. split; [discriminate|reflexivity].
    - destruct P as [-> _]. left. split; [discriminate|reflexivity].
  Qed.
  Lemma tallies_app a b : tallies (a ++ b) = plus (tallies a) (tallies b).
  Proof. unfold tallies, plus, tally. cbn. f_equal; rewrite filter_app, app_length; reflexivity. Qed.
  Lemma plus_assoc a b c : plus a (plus b c) = plus (plus a b) c.
  Proof. unfold plus. cbn. f_equal; lia. Qed.
  Lemma count_token_tally c (i : nat) (t m : text) k : count_token c m k = plus k (tallies [((i, (t, m)), verdict_of c)]).
  Proof.
    assert (E1 : eqb NOVEL EXPECTED = false) by reflexivity. assert (E2 : eqb NOVEL ARGS = false) by reflexivity. assert (E3 : eqb EXPECTED ARGS = false) by reflexivity.
    assert (E1' : eqb EXPECTED NOVEL = false) by reflexivity. assert (E2' : eqb ARGS NOVEL = false) by reflexivity. assert (E3' : eqb ARGS EXPECTED = false) by reflexivity.
    destruct k as [a b c0 d e f]. unfold count_token, tallies, tally, plus. cbn [filter fst snd length].
    destruct (eqb m NOVEL) eqn:H1; [apply eqb_eq in H1; subst m; rewrite E1, E2; destruct c; cbn; f_equal; lia|].
    destruct (eqb m EXPECTED) eqn:H2; [apply eqb_eq in H2; subst m; rewrite E3; destruct c; cbn; f_equal; lia|].
    destruct (eqb m ARGS) eqn:H3; destruct c; cbn; f_equal; lia.
  Qed.
  Lemma count_verdicts (p : list sedge) : forall ss k, flat_map (fun e => effect_verdict (effect_of e)) p = map (fun x => (number_of (fst x), snd x)) ss ->
    incl (map fst ss) (walks (labelled ns)) -> count_path (pack ns) k p = Ok (plus k (tallies (on_tokens ss))).
  Proof.
    induction p as [|e p IH]; intros ss k H Hi.
    - destruct ss; [|discriminate]. cbn. destruct k. unfold plus. cbn. do 2 f_equal; lia.
    - cbn [flat_map] in H. unfold effect_verdict in H at 1. cbn [effect_of snd] in H. cbn [count_path]. destruct (info e) as [[c [i|] j]|]; cbn [s_proto s_category] in *.
      + destruct ss as [|[w c'] ss]; [discriminate|]. cbn [map app fst snd] in H. injection H as E1 E2 H. subst i c'.
        destruct (token_found w (Hi w (or_introl eq_refl))) as [x [El Hx]]. rewrite El. cbn [bind].
        assert (Hi' : incl (map fst ss) (walks (labelled ns))) by (intros y Hy; apply Hi; now right).
        change (on_tokens ((w, c) :: ss)) with (map (fun t => (t, verdict_of c)) (step_token w) ++ on_tokens ss).
        destruct Hx as [[Hx ->]|[Hx [i [t [m [-> Em]]]]]].
        * cbn [map app]. destruct (cat x); try (now destruct Hx); cbn [bind]; auto.
        * rewrite Hx, Em. cbn [bind snd map]. rewrite (count_token_tally c i t m k), (IH ss _ H Hi'), tallies_app, plus_assoc. reflexivity.
      + cbn [bind]. apply IH; auto.
      + cbn [bind]. apply IH; auto.
  Qed.
End Counts.
