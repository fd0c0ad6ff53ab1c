(** C90: the white space of a target does not matter.  Two targets that differ in their
    decorations only can be edited into, or searched, at the same costs with the same
    decisions.  Specification vocabulary: [bare] below; [edit] in [EditSpec.v],
    [selection] in [SelectionSpec.v]. *)

From Coq Require Import String.
From Coq Require Import List Bool Arith Lia ZArith QArith Qcanon.
From Verif Require Import Base Graph GatedDag SeqNodes PackedSeq PackedSeqProofs Numbered Decisions Convert
  ConstraintDag ConstraintSpec EditDag EditSpec EditTheorems SelectionDag SelectionSpec SelectionTheorems Properties_Edit Properties_Selection Html.
Import ListNotations.
Close Scope string_scope. Close Scope Qc_scope. Close Scope Q_scope. Close Scope Z_scope. Open Scope nat_scope. Open Scope list_scope.

(** A sequence without its decorations, at every depth. *)
Fixpoint bare_node {M} (n : node M) : list (node M) :=
  match n with
  | Deco _ => []
  | Group cs m => [Group (flat_map bare_node cs) m]
  | _ => [n]
  end.
Definition bare {M} (ns : list (node M)) : list (node M) := flat_map bare_node ns.

Section Reformat.
  Context {M : Type} `{EqDec M} (P : parameters).
  Notation L := (lnode M).
  Definition stripped (l : list L) : list (node M) := bare (map erase l).
  Definition is_ldeco (x : L) : Prop := match x with LDeco _ _ => True | _ => False end.

  Lemma stripped_cons x l : stripped (x :: l) = bare_node (erase x) ++ stripped l.
  Proof. reflexivity. Qed.
  Lemma stripped_nil l : stripped l = [] -> Forall is_ldeco l.
  Proof.
    induction l as [|x l IH]; [constructor|]. rewrite stripped_cons. destruct x; cbn [erase bare_node app]; intros E; try discriminate. constructor; [exact I|auto].
  Qed.
  Lemma stripped_head l n rest : stripped l = n :: rest -> exists before y after, l = before ++ y :: after /\ Forall is_ldeco before /\ bare_node (erase y) = [n] /\ stripped after = rest.
  Proof.
    induction l as [|x l IH]; [discriminate|]. rewrite stripped_cons. intros E.
    assert (C : bare_node (erase x) = [] /\ is_ldeco x \/ exists n', bare_node (erase x) = [n']) by (destruct x; cbn [erase bare_node is_ldeco]; eauto).
    destruct C as [[C1 C2]|[n' C]].
    - rewrite C1 in E. destruct (IH E) as (a & y & b & -> & Fa & Ey & Eb). exists (x :: a), y, b. split; [reflexivity|]. split; [apply Forall_cons; assumption|auto].
    - rewrite C in E. cbn [app] in E. injection E as <- <-. exists [], x, l. split; [reflexivity|]. split; [apply Forall_nil|auto].
  Qed.
  Lemma skip_decos before g c ps ts k ds r : Forall is_ldeco before -> edited P g c ps ts k ds r -> edited P g c ps (before ++ ts) k ds r.
  Proof. induction 1 as [|x l Hx F IH]; cbn [app]; auto. destruct x; try contradiction. intros E. apply ed_deco. auto. Qed.
  Lemma adding_removing c (ps ts : list L) k ds r : edited P Adding c ps ts k ds r -> edited P Removing c ps ts k ds r.
  Proof.
    intros E. remember Adding as g eqn:Eg. induction E; try discriminate; try (exfalso; congruence).
    - apply ed_end.
    - apply ed_add; auto; discriminate.
    - apply ed_deco; auto.
    - apply ed_keep; auto.
    - eapply ed_group; eauto.
    - apply ed_group_exit; auto.
  Qed.
  (** What is inserted is paid by its tokens. *)
  Fixpoint node_total (n : node M) : Qc :=
    match n with
    | Token t _ => (insert_per_char P * characters t)%Qc
    | Group cs _ => fold_right (fun c k => (node_total c + k)%Qc) 0%Qc cs
    | _ => 0%Qc
    end.
  Definition nodes_total (l : list (node M)) : Qc := fold_right (fun c k => (node_total c + k)%Qc) 0%Qc l.
  Lemma nodes_total_app a b : nodes_total (a ++ b) = (nodes_total a + nodes_total b)%Qc.
  Proof. unfold nodes_total. induction a as [|x a IH]; cbn [app fold_right]; [ring|]. rewrite IH. ring. Qed.
  Lemma insert_bare (x : L) : insert_total P x = nodes_total (bare_node (erase x)).
  Proof.
    induction x as [i t|i t m|i|i|i|i cs m IH] using lnode_ind'; cbn [insert_total erase bare_node]; unfold nodes_total; cbn [fold_right node_total]; try ring.
    assert (G : fold_right (fun c k => (insert_total P c + k)%Qc) 0%Qc cs = nodes_total (flat_map bare_node (map erase cs))).
    { induction IH as [|x l Hx F IHF]; auto. cbn [fold_right map flat_map]. rewrite nodes_total_app, <- Hx, IHF. reflexivity. }
    rewrite G. unfold nodes_total. ring.
  Qed.
  Fixpoint plain (n : node M) : Prop :=
    match n with Deco _ | Token _ _ => True | Group cs _ => fold_right (fun c Q => plain c /\ Q) True cs | _ => False end.
  Definition plains (l : list (node M)) : Prop := fold_right (fun c Q => plain c /\ Q) True l.
  Lemma plains_app a b : plains (a ++ b) <-> plains a /\ plains b.
  Proof. unfold plains. induction a as [|x a IH]; cbn [app fold_right]; tauto. Qed.
  Lemma text_only_bare (x : L) : text_only x <-> plains (bare_node (erase x)).
  Proof.
    induction x as [i t|i t m|i|i|i|i cs m IH] using lnode_ind'; cbn [text_only erase bare_node]; unfold plains; cbn [fold_right plain]; try tauto.
    assert (G : fold_right (fun c Q => text_only c /\ Q) True cs <-> plains (flat_map bare_node (map erase cs))).
    { induction IH as [|x l Hx F IHF]; [reflexivity|]. cbn [fold_right map flat_map]. rewrite plains_app, <- Hx, IHF. reflexivity. }
    rewrite G. unfold plains. tauto.
  Qed.
  Theorem reformatted g c (ps ts : list L) k ds r : edited P g c ps ts k ds r -> forall ts', stripped ts = stripped ts' -> edited P g c ps ts' k ds r.
  Proof.
    intros E. induction E as [g c|g c x k ds c' ps ts k' ds' r Hg Hp E IH|g c i ps ts Hg|c ps ts k ds r E IH|c x ps ts k ds c' k' ds' r Hr E IH|c x ps ts k ds Hr
      |g c y ps ts k ds r Hg Hy E IH|g c ps i t ts k ds r E IH|g c i i' t m ps ts k ds r E IH|g c i cs i' cs' m ps ts k ds c' k' ds' r E1 IH1 E2 IH2|g c i cs i' cs' m ps ts k ds E1 IH1];
      intros ts' Es.
    - symmetry in Es. apply stripped_nil in Es. rewrite <- (app_nil_r ts'). apply skip_decos; auto. apply ed_end.
    - eapply ed_pass; eauto.
    - now apply ed_exit.
    - apply ed_begin; auto.
    - eapply ed_remove; eauto.
    - now apply ed_remove_exit.
    - rewrite stripped_cons in Es. destruct (bare_node (erase y)) as [|n l] eqn:Ey.
      + rewrite insert_bare, Ey. cbn [nodes_total fold_right app] in *. replace (0 + k)%Qc with k by ring. specialize (IH _ Es).
        destruct g; [contradiction|now apply adding_removing|exact IH].
      + assert (l = []) as -> by (destruct y; cbn in Ey; try discriminate; now injection Ey as _ <-).
        cbn [app] in Es. symmetry in Es. apply stripped_head in Es as (before & y' & after & -> & Fb & Ey' & Ea). apply skip_decos; auto.
        rewrite insert_bare, Ey, <- Ey', <- insert_bare. apply ed_add; auto. apply text_only_bare. rewrite Ey', <- Ey. now apply text_only_bare.
    - apply IH. exact Es.
    - rewrite stripped_cons in Es. cbn [erase bare_node app] in Es. symmetry in Es. apply stripped_head in Es as (before & y' & after & -> & Fb & Ey' & Ea). apply skip_decos; auto.
      destruct y'; cbn [erase bare_node] in Ey'; try discriminate. injection Ey' as -> ->. apply ed_keep. auto.
    - rewrite stripped_cons in Es. cbn [erase bare_node app] in Es. symmetry in Es. apply stripped_head in Es as (before & y' & after & -> & Fb & Ey' & Ea). apply skip_decos; auto.
      destruct y'; cbn [erase bare_node] in Ey'; try discriminate. injection Ey' as Ec ->. eapply ed_group; [apply IH1; symmetry; exact Ec|auto].
    - rewrite stripped_cons in Es. cbn [erase bare_node app] in Es. symmetry in Es. apply stripped_head in Es as (before & y' & after & -> & Fb & Ey' & Ea). apply skip_decos; auto.
      destruct y'; cbn [erase bare_node] in Ey'; try discriminate. injection Ey' as Ec ->. apply ed_group_exit. apply IH1. symmetry. exact Ec.
  Qed.

  (** Walks over the target. *)
  Fixpoint seen (n : node M) : list (list (sight (M := M))) :=
    match n with
    | Deco _ => []
    | Token t m => [[Text t m]]
    | Group cs m => [Open m] :: flat_map seen cs ++ [[Close m]]
    | _ => [[]]
    end.
  Lemma seen_bare_node n : flat_map seen (bare_node n) = seen n.
  Proof.
    induction n as [| | | | |cs m IH] using node_ind'; cbn [bare_node flat_map seen app]; rewrite ?app_nil_r; auto. do 2 f_equal.
    induction IH as [|x l Hx F IHF]; auto. cbn [flat_map]. rewrite flat_map_app, Hx, IHF. reflexivity.
  Qed.
  Lemma walk_seen (x : L) : map sights (walk x) = seen (erase x).
  Proof.
    induction x as [i t|i t m|i|i|i|i cs m IH] using lnode_ind'; cbn [walk erase seen map sights]; auto. rewrite map_app. cbn [map sights]. do 2 f_equal.
    induction IH as [|x l Hx F IHF]; auto. cbn [flat_map map]. rewrite map_app, Hx, IHF. reflexivity.
  Qed.
  Lemma walks_seen (l : list L) : map sights (walks l) = flat_map seen (stripped l).
  Proof.
    unfold walks, stripped, bare. induction l as [|x l IH]; auto. cbn [flat_map map]. rewrite map_app, flat_map_app, walk_seen, IH, seen_bare_node. reflexivity.
  Qed.
  Lemma map_split {A B} (f : A -> B) l a b : map f l = a ++ b -> exists la lb, l = la ++ lb /\ map f la = a /\ map f lb = b.
  Proof.
    revert l. induction a as [|x a IH]; intros l E; [exists [], l; auto|]. destruct l as [|y l]; [discriminate|]. cbn in E. injection E as <- E.
    destruct (IH _ E) as (la & lb & -> & <- & <-). exists (y :: la), lb. auto.
  Qed.
  Lemma sighted (U : text -> M -> utilities) (from to : list (step (M := M))) k ds : selection U from to k ds -> forall to', map sights to = map sights to' -> selection U from to' k ds.
  Proof.
    intros E. induction E as [to|x from to k ds Hn E IH|i part j from gap run to k ds Hp Hs E IH|i part j from to k ds Hp E IH]; intros to' Es.
    - constructor.
    - apply sel_leave; auto.
    - rewrite !map_app in Es. symmetry in Es. apply map_split in Es as (gap' & rest & -> & _ & Er). apply map_split in Er as (run' & to'' & -> & Er & Et).
      apply sel_found; auto. rewrite Hs. rewrite !flat_map_concat_map. now rewrite Er.
    - apply sel_lost; auto.
  Qed.
End Reformat.

(** Both ways of scoring: the costs and decisions of the paths are the same. *)
Theorem C90_edits_ignore_white_space :
  forall (M : Type) (md : EqDec M) (costs : parameters) (prototype target target' : list (node M)),
    bare target = bare target' ->
    exists d d', construct_edit_dag costs (pack prototype) (pack target) = Ok d /\ construct_edit_dag costs (pack prototype) (pack target') = Ok d' /\
      forall cost decisions,
        (exists p, complete_path d p /\ path_cost p = cost /\ path_assignments p = decisions) <->
        (exists p, complete_path d' p /\ path_cost p = cost /\ path_assignments p = decisions).
Proof.
  intros M md P ns ts ts' Eb.
  destruct (C44_edit_dag_exact M md P ns ts) as (d & E1 & A1 & B1). destruct (C44_edit_dag_exact M md P ns ts') as (d' & E2 & A2 & B2).
  assert (Es : stripped (labelled ts) = stripped (labelled ts')) by (unfold stripped, labelled; rewrite !erase_labs; exact Eb).
  exists d, d'. splits; auto. intros cost decisions. split; intros (p & Hp & <- & <-).
  - destruct (A1 p Hp) as (k & -> & He). apply B2. destruct He as [He|He]; [left|right]; eapply reformatted; eauto.
  - destruct (A2 p Hp) as (k & -> & He). apply B1. destruct He as [He|He]; [left|right]; eapply reformatted; eauto.
Qed.
Theorem C90_selections_ignore_white_space :
  forall (M : Type) (md : EqDec M) (U : text -> M -> utilities) (prototype target target' : list (node M)),
    bare target = bare target' ->
    Forall no_exit (walks (labelled prototype)) -> ~ begins_with_end (walks (labelled prototype)) -> Forall text_only (labelled target) ->
    exists d d', construct_selection_dag U (pack prototype) (pack target) = Ok d /\ construct_selection_dag U (pack prototype) (pack target') = Ok d' /\
      forall cost decisions,
        (exists p, complete_path d p /\ path_cost p = Fin cost /\ path_assignments p = decisions) <->
        (exists p, complete_path d' p /\ path_cost p = Fin cost /\ path_assignments p = decisions).
Proof.
  intros M md U ns ts ts' Eb F B T.
  assert (Es : stripped (labelled ts) = stripped (labelled ts')) by (unfold stripped, labelled; rewrite !erase_labs; exact Eb).
  assert (T' : Forall text_only (labelled ts')).
  { clear -T Es. assert (G : forall l : list (lnode M), Forall text_only l <-> plains (stripped l)).
    { induction l as [|x l IH]; [split; constructor|]. rewrite stripped_cons, plains_app, <- text_only_bare, <- IH. split; [inversion 1; auto|intros [? ?]; constructor; auto]. }
    apply G. rewrite <- Es. now apply G. }
  destruct (C45_selection_dag_exact M md U ns ts F B T) as (d & E1 & A1). destruct (C45_selection_dag_exact M md U ns ts' F B T') as (d' & E2 & A2).
  exists d, d'. splits; auto. intros cost decisions. rewrite <- A1, <- A2.
  split; intros Hs; eapply sighted; eauto; rewrite !walks_seen; congruence.
Qed.
(** "y (b)" and the same over two lines, with spaces inside the parentheses. *)
Definition ex_reformatted : list (node nat) := [Deco [10]; Token [121] 0; Deco [10; 32]; Group [Token [40] 1; Deco [32]; Token [98] 0; Deco [32]; Token [41] 1] 2; Deco [10]].
Example C90_example : bare Properties_Edit.ex_target = bare ex_reformatted /\ render Properties_Edit.ex_target <> render ex_reformatted /\
  let proto := [RegionStart; Token [121] 0; RegionEnd] in
  Forall no_exit (walks (labelled proto)) /\ ~ begins_with_end (walks (labelled proto)) /\ Forall text_only (labelled Properties_Edit.ex_target).
Proof. split; [reflexivity|]. split; [discriminate|]. cbn zeta. split; [repeat constructor|]. split; [intros C; exact C|repeat constructor]. Qed.
Print Assumptions C90_edits_ignore_white_space.
Print Assumptions C90_selections_ignore_white_space.
