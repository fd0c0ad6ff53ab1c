(** The decisions of constraints, edits and selections are about the same keys, so
    the DAGs of a wrapper fit together. *)

From Coq Require Import List Bool Arith Lia ZArith Sorted QArith Qcanon.
From Verif Require Import Base SeqNodes PackedSeq PackedSeqProofs Numbered Graph GatedDag Convert Decisions BuilderPack ConstraintSpec ConstraintDag ConstraintProofs
  ConstraintPack EditDag EditSpec EditTheorems SelectionDag SelectionSpec SelectionPaths SelectionTheorems SystemSpec BuildSystem BuildProofs
  Properties_Regions Properties_Edit Properties_Selection.
Import ListNotations.
Close Scope Qc_scope. Close Scope Q_scope. Close Scope Z_scope. Open Scope nat_scope.

Section Keys.
  Context {M : Type}.
  Notation L := (lnode M).

  Lemma no_regions_keys_upto n : forall l : list L, lsizes l <= n -> map fst (flat_map no_regions l) = questions l.
  Proof.
    induction n as [|n IH]; intros [|x l] Hs; auto; rewrite lsizes_cons in Hs; pose proof (lsize_pos x) as Px; [lia|].
    unfold questions. cbn [flat_map]. rewrite map_app. f_equal; [|apply IH; lia].
    destruct x as [i t|i t m|i|i|i|i cs m]; cbn [no_regions asked map]; auto. f_equal. rewrite lsize_group in Hs. apply IH. lia.
  Qed.
  Lemma no_regions_keys (l : list L) : map fst (flat_map no_regions l) = questions l.
  Proof. now apply (no_regions_keys_upto (lsizes l)). Qed.
  Lemma inside_keys_upto n : forall l : list L, lsizes l <= n -> map fst (flat_map inside l) = questions l.
  Proof.
    induction n as [|n IH]; intros [|x l] Hs; auto; rewrite lsizes_cons in Hs; pose proof (lsize_pos x) as Px; [lia|].
    unfold questions. cbn [flat_map]. rewrite map_app. f_equal; [|apply IH; lia].
    destruct x as [i t|i t m|i|i|i|i cs m]; cbn [inside asked map]; auto. f_equal. rewrite lsize_group in Hs. apply IH. lia.
  Qed.
  Lemma inside_keys (l : list L) : map fst (flat_map inside l) = questions l.
  Proof. now apply (inside_keys_upto (lsizes l)). Qed.
  Lemma questions_app (a b : list L) : questions (a ++ b) = questions a ++ questions b.
  Proof. apply flat_map_app. Qed.
  Lemma questions_cons (x : L) l : questions (x :: l) = asked x ++ questions l.
  Proof. reflexivity. Qed.

  Lemma incl_cons2 {A} (x : A) l l' : incl l l' -> incl (x :: l) (x :: l').
  Proof. intros H y [->|Hy]; simpl; auto. Qed.
  Lemma incl_app2 {A} (a a' b b' : list A) : incl a a' -> incl b b' -> incl (a ++ b) (a' ++ b').
  Proof. intros H1 H2 x Hx. apply in_app_or in Hx as [Hx|Hx]; apply in_or_app; auto. Qed.
  Lemma incl_eq {A} (a b : list A) : a = b -> incl a b.
  Proof. intros ->. apply incl_refl. Qed.
  Lemma incl_nil {A} (l : list A) : incl [] l.
  Proof. intros x []. Qed.

  Ltac keys := cbn [map fst asked app]; rewrite ?map_app; cbn [map fst];
    repeat first [apply incl_refl | assumption | apply incl_nil | apply incl_cons2 | apply incl_app2 | rewrite <- app_assoc].

  Lemma inside_exits_keys (l : list L) a : inside_exits l a -> incl (map fst a) (questions l).
  Proof.
    induction 1 as [i l|i cs m l a H IH|x l a H IH]; rewrite questions_cons.
    - keys.
    - cbn [asked map fst app]. apply incl_cons2. apply incl_appl. exact IH.
    - rewrite map_app. apply incl_app2; auto. pose proof (inside_keys [x]) as E. unfold questions in E. cbn [flat_map] in E.
      rewrite !app_nil_r in E. intros y Hy. rewrite <- E. exact Hy.
  Qed.
  Lemma chosen_keys (l : list L) a : chosen l a -> map fst a = questions l.
  Proof.
    induction 1 as [|i t l a H IH|i t m l a H IH|i cs m l a b H1 IH1 H2 IH2|i l a H IH|i l a H IH|i l a H IH|i inner j l a H IH];
      rewrite ?questions_cons; cbn [asked map fst app]; auto; try (f_equal; exact IH).
    - f_equal. rewrite map_app. f_equal; auto.
    - f_equal. rewrite map_app, questions_app, questions_cons. f_equal; [apply inside_keys|]. cbn [map fst asked app]. f_equal. exact IH.
  Qed.
  Lemma exits_keys (l : list L) a : exits l a -> incl (map fst a) (questions l).
  Proof.
    induction 1 as [i l|i cs m l a H IH|i l a H|l1 l2 a b H1 H2 IH]; rewrite ?questions_cons.
    - keys.
    - cbn [asked map fst app]. apply incl_cons2. apply incl_appl. exact IH.
    - cbn [asked map fst app]. apply incl_cons2. now apply inside_exits_keys.
    - rewrite map_app, questions_app. apply incl_app2; auto. apply incl_eq. exact (chosen_keys _ _ H1).
  Qed.
  Lemma choice_keys (l : list L) a : region_choice l a -> incl (map fst a) (questions l).
  Proof. intros [H|H]; [apply incl_eq; exact (chosen_keys _ _ H)|now apply exits_keys]. Qed.

  Section Edits.
    Context (P : parameters).
    Lemma passes_keys c (x : L) k ds c' : passes P c x k ds c' -> map fst ds = asked x.
    Proof. destruct 1; reflexivity. Qed.
    Lemma removed_keys c (l : list L) k ds r : removed P c l k ds r -> incl (map fst ds) (questions l).
    Proof.
      induction 1 as [c|c x k ds c' l k' ds' r Hp Hr IH|c i l|c i t m l k ds r Hr IH|c i cs m l k ds c' k' ds' r H1 IH1 H2 IH2|c i cs m l k ds H1 IH1];
        rewrite ?questions_cons; cbn [asked map fst app]; rewrite ?map_app.
      - apply incl_nil.
      - apply incl_app2; [apply incl_eq; exact (passes_keys _ _ _ _ _ Hp)|exact IH].
      - apply incl_cons2, incl_nil.
      - apply incl_cons2. exact IH.
      - apply incl_cons2. now apply incl_app2.
      - apply incl_cons2. now apply incl_appl.
    Qed.
    Lemma edited_keys g c (ps ts : list L) k ds r : edited P g c ps ts k ds r -> incl (map fst ds) (questions ps).
    Proof.
      assert (One : forall c (x : L) k ds r, removed P c [x] k ds r -> incl (map fst ds) (asked x)).
      { intros c0 x k0 ds0 r0 H. apply removed_keys in H. unfold questions in H. cbn [flat_map] in H. now rewrite app_nil_r in H. }
      induction 1; rewrite ?questions_cons; cbn [asked map fst app]; rewrite ?map_app; auto.
      - apply incl_nil.
      - apply incl_app2; [apply incl_eq; exact (passes_keys _ _ _ _ _ H0)|auto].
      - apply incl_cons2, incl_nil.
      - apply incl_app2; eauto.
      - apply incl_appl. eauto.
      - apply incl_cons2. auto.
      - apply incl_cons2. apply incl_app2; auto.
      - apply incl_cons2. apply incl_appl. auto.
    Qed.
    Lemma edit_keys (ps ts : list L) k ds : edit P ps ts k ds -> incl (map fst ds) (questions ps).
    Proof. intros [H|H]; now apply edited_keys in H. Qed.
  End Edits.

  Section Selections.
    Context (U : text -> M -> utilities).
    (** The keys of a walk. *)
    Definition step_keys (w : step (M := M)) : list dkey :=
      match w with
      | WToken k _ _ | WOpen k _ => [(k, NodeInRegion)]
      | WClose _ _ => []
      | WStart k => [(k, RegionShouldStart)]
      | WEnd k => [(k, RegionShouldEnd)]
      | WExit k => [(k, ShouldEarlyExit)]
      end.
    Lemma walks_keys_upto n : forall l : list L, lsizes l <= n -> flat_map step_keys (walks l) = questions l.
    Proof.
      induction n as [|n IH]; intros [|x l] Hs; auto; rewrite lsizes_cons in Hs; pose proof (lsize_pos x) as Px; [lia|].
      unfold walks in *. cbn [flat_map]. rewrite flat_map_app, questions_cons. f_equal; [|apply IH; lia].
      destruct x as [i t|i t m|i|i|i|i cs m]; cbn [walk asked flat_map step_keys app]; auto. f_equal. rewrite lsize_group in Hs.
      rewrite flat_map_app. cbn [flat_map step_keys app]. rewrite app_nil_r. apply IH. lia.
    Qed.
    Lemma walks_keys (l : list L) : flat_map step_keys (walks l) = questions l.
    Proof. now apply (walks_keys_upto (lsizes l)). Qed.
    Lemma left_out_keys (w : step (M := M)) : incl (map fst (left_out w)) (step_keys w).
    Proof. destruct w; cbn; try apply incl_refl; apply incl_nil. Qed.
    Lemma taken_keys (l : list (step (M := M))) : incl (map fst (flat_map taken l)) (flat_map step_keys l).
    Proof.
      induction l as [|w l IH]; [apply incl_nil|]. cbn [flat_map]. rewrite map_app. apply incl_app2; auto.
      destruct w; cbn; try apply incl_refl; apply incl_nil.
    Qed.
    Lemma selection_keys from to k ds : selection U from to k ds -> incl (map fst ds) (flat_map step_keys from).
    Proof.
      induction 1 as [to|x from to k ds Hx H IH|i part j from gap run to k ds Hp Hs H IH|i part j from to k ds Hp H IH]; cbn [flat_map].
      - apply incl_nil.
      - rewrite map_app. apply incl_app2; auto. apply left_out_keys.
      - cbn [map fst step_keys app]. apply incl_cons2. rewrite map_app, flat_map_app. apply incl_app2; [apply taken_keys|].
        cbn [map fst flat_map step_keys app]. now apply incl_cons2.
      - cbn [map fst step_keys app]. apply incl_cons2. rewrite map_app, flat_map_app. apply incl_app2; [apply taken_keys|].
        cbn [map fst flat_map step_keys app]. now apply incl_cons2.
    Qed.
  End Selections.
End Keys.

(** ** The DAGs allow what their specifications say. *)
Lemma constraint_allows {M} (ns : list (node M)) : exists dc, construct_constraint_dag (pack ns) = Ok dc /\
  allows (fun k ds => k = 0%Qc /\ region_choice (labelled ns) ds) (questions (labelled ns)) dc.
Proof.
  destruct (C41_constraint_dag_exact M ns) as [d [E [H1 [H2 _]]]]. exists d. split; auto.
  constructor.
  - destruct (C42_constraint_dag_ordered M ns) as [d' [E' T]]. congruence.
  - destruct (constraint_packs ns d E) as [r Hr]. exists r. exact Hr.
  - intros p Hp. destruct (H1 p Hp) as [G1 G2]. exists 0%Qc. auto.
  - intros k ds [-> Hc]. destruct (H2 ds Hc) as [p [Hp Ep]]. exists p. splits; auto. now apply H1.
  - intros k ds [_ Hc]. now apply choice_keys.
Qed.
Lemma edit_allows {M} {md : EqDec M} (P : parameters) (ns ts : list (node M)) : Forall text_only (labelled ts) ->
  exists d, construct_edit_dag P (pack ns) (pack ts) = Ok d /\
    allows (fun k ds => edit P (labelled ns) (labelled ts) k ds) (questions (labelled ns)) d.
Proof.
  intros Ht. destruct (C44_edit_dag_exact M md P ns ts) as [d [E [H1 H2]]]. exists d. split; auto. constructor.
  - destruct (C42_edit_dag_ordered M md P ns ts) as [d' [E' T]]. congruence.
  - destruct (edit_packs P ns ts d Ht E) as [r Hr]. exists r. exact Hr.
  - exact H1.
  - exact H2.
  - intros k ds. apply edit_keys.
Qed.
Lemma selection_allows {M} {md : EqDec M} (U : text -> M -> utilities) (ns ts : list (node M)) :
  Forall no_exit (walks (labelled ns)) -> ~ begins_with_end (walks (labelled ns)) -> Forall text_only (labelled ts) ->
  exists d, construct_selection_dag U (pack ns) (pack ts) = Ok d /\
    allows (fun k ds => selection U (walks (labelled ns)) (walks (labelled ts)) k ds) (questions (labelled ns)) d.
Proof.
  intros F B Ht. destruct (C45_selection_dag_exact M md U ns ts F B Ht) as [d [E H]]. exists d. split; auto. constructor.
  - destruct (C42_selection_dag_ordered M md U ns ts) as [T _]. destruct (T B) as [d' [E' T']]. congruence.
  - destruct (C58_selection_dag_packs M md U ns ts F B) as [d' [r [E' Hr]]]. assert (d' = d) by congruence. subst d'. exists r. exact Hr.
  - intros p Hp. destruct (C45_selection_paths_credit_occurrences M md U ns ts d p E Hp) as [k [H1 H2]]. eauto.
  - intros k ds Hk. now apply H.
  - intros k ds Hk. rewrite <- walks_keys. eapply selection_keys. exact Hk.
Qed.
Lemma choice_full {M} (ns : list (node M)) : exists ds, region_choice (labelled ns) ds /\ map fst ds = questions (labelled ns).
Proof. exists (flat_map no_regions (labelled ns)). split; [left; apply no_regions_chosen|apply no_regions_keys]. Qed.
Lemma distinct_keys {A B C} (l : list (A * B * C)) : NoDup (map (fun d => fst (fst d)) l) -> NoDup (map fst l).
Proof. rewrite <- (map_map fst fst). apply NoDup_map_inv. Qed.
Lemma questions_distinct {M} (ns : list (node M)) : NoDup (questions (labelled ns)).
Proof.
  rewrite <- no_regions_keys. pose proof (choice_increasing (labelled ns) (flat_map no_regions (labelled ns)) (labelled_numbered ns) (or_introl (no_regions_chosen _))) as S.
  assert (N : NoDup (map (fun d : decision => fst (fst d)) (flat_map no_regions (labelled ns)))).
  { assert (G : forall l, StronglySorted lt l -> NoDup l).
    { induction 1 as [|x l H IH F]; constructor; auto. intros C. rewrite Forall_forall in F. specialize (F x C). lia. }
    apply G. exact S. }
  exact (distinct_keys _ N).
Qed.
