(** Model of r_u_sure/tree_structure/transforms.py. *)

From Coq Require Import List Bool Arith Lia ZArith.
From Verif Require Import Base SeqNodes.
Import ListNotations.

Section Transforms.
  Context {M : Type}.
  Notation N := (node M).

  (** transforms.py:29-47, [flatten_groups]. *)
  Fixpoint flatten_groups_node (n : N) : list N :=
    match n with
    | Group cs _ => flat_map flatten_groups_node cs
    | _ => [n]
    end.
  Definition flatten_groups (ns : list N) : list N := flat_map flatten_groups_node ns.

  (** transforms.py:94-96: [dataclasses.replace(processed, match_type=(m,) +
      processed.match_type)] on a token or group. *)
  Definition splice (m : M) (n : node (list M)) : node (list M) :=
    match n with
    | Token t ms => Token t (m :: ms)
    | Group cs ms => Group cs (m :: ms)
    | other => other
    end.

  (** transforms.py:70-110, [flatten_singleton_groups_for_node].  Match types
      become tuples, here lists. *)
  Fixpoint flatten_singleton_node (n : N) : node (list M) :=
    match n with
    | Group [(Group _ _) as c] m => splice m (flatten_singleton_node c)
    | Group [(Token _ _) as c] m => splice m (flatten_singleton_node c)
    | Group cs m => Group (map flatten_singleton_node cs) [m]
    | Token t m => Token t [m]
    | Deco t => Deco t
    | RegionStart => RegionStart
    | RegionEnd => RegionEnd
    | EarlyExit => EarlyExit
    end.
  (** transforms.py:50-67. *)
  Definition flatten_singleton_groups (ns : list N) : list (node (list M)) :=
    map flatten_singleton_node ns.

  (** transforms.py:137-155, the loop body of [insert_early_exit]; recursive
      calls have [allowed_within_group=True, allowed_at_start=False] (144). *)
  Fixpoint early_exit_node (within : bool) (n : N) : list N :=
    match n with
    | Group cs m =>
        if within then [Group (flat_map (early_exit_node true) cs) m; EarlyExit]
        else [Group cs m; EarlyExit]
    | Token t m => [Token t m; EarlyExit]
    | other => [other]
    end.
  (** transforms.py:113-157. *)
  Definition insert_early_exit (ns : list N) (within at_start : bool) : list N :=
    (if at_start then [EarlyExit] else []) ++ flat_map (early_exit_node within) ns.

  (** transforms.py:214-216: the trailing empty region of every sequence. *)
  Definition trailing (allow_empty : bool) : list N :=
    if allow_empty then [RegionStart; RegionEnd] else [].
  (** transforms.py:201-208: the options around an eligible node. *)
  Definition around (allow_empty eligible : bool) (processed : N) : list N :=
    if eligible
    then RegionStart :: (if allow_empty then [RegionEnd] else []) ++ [processed; RegionEnd]
    else [processed].
  (** transforms.py:185-212, the loop body. *)
  Fixpoint region_subseq_node (allow_empty : bool) (filt : N -> bool) (n : N) : list N :=
    match n with
    | Group cs m =>
        around allow_empty (filt n)
          (Group (flat_map (region_subseq_node allow_empty filt) cs ++ trailing allow_empty) m)
    | Token _ _ => around allow_empty (filt n) n
    | other => [other]
    end.
  (** transforms.py:160-218, [insert_region_options_around_subsequences]. *)
  Definition insert_regions (ns : list N) (allow_empty : bool) (filt : N -> bool) : list N :=
    flat_map (region_subseq_node allow_empty filt) ns ++ trailing allow_empty.

  (** transforms.py:221-271, [insert_region_options_around_single_nodes]; [scope]
      is the match type ["region_scope"] (263). *)
  Fixpoint single_node (scope : M) (n : N) : N :=
    match n with
    | Group cs m =>
        Group [RegionStart; Group (map (single_node scope) cs) m; RegionEnd] scope
    | Token _ _ => Group [RegionStart; n; RegionEnd] scope
    | other => other
    end.
  Definition insert_single (scope : M) (ns : list N) : list N := map (single_node scope) ns.

  (** transforms.py:353-383, [strip_decision_nodes]. *)
  Fixpoint strip_node (n : N) : list N :=
    match n with
    | Group cs m => [Group (flat_map strip_node cs) m]
    | Token _ _ => [n]
    | Deco _ => [n]
    | _ => []
    end.
  Definition strip_decision_nodes (ns : list N) : list N := flat_map strip_node ns.

  (** Python [s[o:]] for a possibly negative [o] (line 326). *)
  Definition py_from (o : Z) (t : text) : text :=
    if (o <? 0)%Z then skipn (Z.to_nat (Z.of_nat (length t) + o)) t
    else skipn (Z.to_nat o) t.

  (** transforms.py:293-295: [Some seen] while before the start point with [seen]
      characters so far; [None] once [past_start_point]. *)
  Definition tstate := option nat.

  (** transforms.py:315-335: a token or decoration with text [t]; the result is
      the new state and the text to yield, if any. *)
  Definition trunc_text (off : Z) (st : tstate) (t : text) : tstate * option text :=
    match st with
    | None => (None, Some t)
    | Some seen =>
        let into := (off - Z.of_nat seen)%Z in
        if (into <? Z.of_nat (length t))%Z then (None, Some (py_from into t))
        else if (into =? Z.of_nat (length t))%Z then (None, None)
        else (Some (seen + length t), None)
    end.

  (** transforms.py:297-348, [process_subsequence] on one node.  The assertion
      of line 313 is proved never to fail ([trunc_before_nil]). *)
  Fixpoint trunc_node (off : Z) (st : tstate) (n : N) {struct n} : tstate * list N :=
    match n with
    | Group cs m =>
        let '(st', cs') :=
          (fix go (st : tstate) (l : list N) : tstate * list N :=
             match l with
             | [] => (st, [])
             | c :: l' =>
                 let '(st1, o1) := trunc_node off st c in
                 let '(st2, o2) := go st1 l' in (st2, o1 ++ o2)
             end) st cs in
        match st' with
        | None => (st', [Group cs' m])
        | Some _ => (st', [])
        end
    | Token t m =>
        match trunc_text off st t with
        | (st', Some t') => (st', [Token t' m])
        | (st', None) => (st', [])
        end
    | Deco t =>
        match trunc_text off st t with
        | (st', Some t') => (st', [Deco t'])
        | (st', None) => (st', [])
        end
    | other => match st with None => (st, [other]) | Some _ => (st, []) end
    end.
  Fixpoint trunc_list (off : Z) (st : tstate) (l : list N) : tstate * list N :=
    match l with
    | [] => (st, [])
    | c :: l' =>
        let '(st1, o1) := trunc_node off st c in
        let '(st2, o2) := trunc_list off st1 l' in (st2, o1 ++ o2)
    end.
  (** transforms.py:274-350. *)
  Definition truncate_prefix_at_offset (ns : list N) (off : Z) : list N :=
    snd (trunc_list off (Some 0) ns).

  Lemma trunc_node_group off st cs m :
    trunc_node off st (Group cs m) =
    let '(st', cs') := trunc_list off st cs in
    match st' with None => (st', [Group cs' m]) | Some _ => (st', []) end.
  Proof.
    cbn [trunc_node].
    assert (E : forall l st,
      (fix go (st : tstate) (l : list N) : tstate * list N :=
             match l with
             | [] => (st, [])
             | c :: l' =>
                 let '(st1, o1) := trunc_node off st c in
                 let '(st2, o2) := go st1 l' in (st2, o1 ++ o2)
             end) st l = trunc_list off st l).
    { induction l as [|c l IH]; intros s; auto. cbn [trunc_list].
      destruct (trunc_node off s c). now rewrite IH. }
    now rewrite E.
  Qed.
End Transforms.

(** ** Specification vocabulary. *)
Section Spec.
  Context {M : Type}.
  Notation N := (node M).

  Fixpoint no_decisions_node (n : N) : Prop :=
    match n with
    | Group cs _ => fold_right (fun c P => no_decisions_node c /\ P) True cs
    | Token _ _ | Deco _ => True
    | _ => False
    end.
  Definition no_decisions (ns : list N) : Prop := Forall no_decisions_node ns.

  (** The visible content of a tree in reading order: each character with the
      kind of node it is in, each decision node, all with the match types of the
      enclosing groups (outermost first). *)
  Inductive event :=
  | Char (ctx : list M) (kind : option M) (c : nat)   (* kind None: decoration *)
  | Decision (ctx : list M) (d : N).
  Fixpoint events_node (ctx : list M) (n : N) : list event :=
    match n with
    | Deco t => map (Char ctx None) t
    | Token t m => map (Char ctx (Some m)) t
    | Group cs m => flat_map (events_node (ctx ++ [m])) cs
    | d => [Decision ctx d]
    end.
  Definition events (ns : list N) : list event := flat_map (events_node []) ns.
  Definition is_char (e : event) : bool := match e with Char _ _ _ => true | _ => false end.

  (** What remains after the k-th character event ([k >= 1]). *)
  Fixpoint after_chars (k : nat) (l : list event) : list event :=
    match k with
    | 0 => l
    | S k' =>
        match l with
        | [] => []
        | Char _ _ _ :: l' => after_chars k' l'
        | Decision _ _ :: l' => after_chars k l'
        end
    end.

  (** The insertion transforms, as operations to compose. *)
  Inductive insertion :=
  | InsertExit (within at_start : bool)
  | InsertRegions (allow_empty : bool) (filt : N -> bool).
  Definition apply_insertion (op : insertion) (ns : list N) : list N :=
    match op with
    | InsertExit w s => insert_early_exit ns w s
    | InsertRegions a f => insert_regions ns a f
    end.

  (** Undo the grouping done by [flatten_singleton_groups]. *)
  Fixpoint wrap (ms : list M) (inner : M -> N) : option N :=
    match ms with
    | [] => None
    | [m] => Some (inner m)
    | m :: ms' => match wrap ms' inner with
                  | Some n => Some (Group [n] m)
                  | None => None
                  end
    end.
  Fixpoint expand (n : node (list M)) : option N :=
    match n with
    | Deco t => Some (Deco t)
    | Token t ms => wrap ms (Token t)
    | RegionStart => Some RegionStart
    | RegionEnd => Some RegionEnd
    | EarlyExit => Some EarlyExit
    | Group cs ms =>
        match (fix go l := match l with
                           | [] => Some []
                           | c :: l' => match expand c, go l' with
                                        | Some c', Some r => Some (c' :: r)
                                        | _, _ => None
                                        end
                           end) cs with
        | Some cs' => wrap ms (Group cs')
        | None => None
        end
    end.

  (** No group has a single child that is a token or a group. *)
  Fixpoint no_singletons {M'} (n : node M') : Prop :=
    match n with
    | Group cs _ =>
        match cs with
        | [Token _ _] | [Group _ _] => False
        | _ => True
        end /\ fold_right (fun c P => no_singletons c /\ P) True cs
    | _ => True
    end.

  (** Remove ["region_scope"] groups around a single node. *)
  Fixpoint unscope `{EqDec M} (scope : M) (n : N) : N :=
    match n with
    | Group [c] m => if eqb m scope then unscope scope c else Group [unscope scope c] m
    | Group cs m => Group (map (unscope scope) cs) m
    | other => other
    end.
  Fixpoint no_scope (scope : M) (n : N) : Prop :=
    match n with
    | Group cs m => m <> scope /\ fold_right (fun c P => no_scope scope c /\ P) True cs
    | _ => True
    end.
End Spec.

Lemma fold_right_and_Forall {A} (P : A -> Prop) l :
  fold_right (fun c Q => P c /\ Q) True l <-> Forall P l.
Proof.
  induction l as [|a l IH]; simpl; [split; auto|].
  rewrite IH. split; [intros [? ?]; constructor; auto|intros F; inversion F; auto].
Qed.

Section Proofs.
  Context {M : Type}.
  Notation N := (node M).

  Lemma render_group (cs : list N) m : render_node (Group cs m) = render cs.
  Proof. reflexivity. Qed.
  Lemma render_flat_map (f : N -> list N) ns :
    (forall n, In n ns -> render (f n) = render_node n) -> render (flat_map f ns) = render ns.
  Proof.
    intros Hf. induction ns as [|n ns IH]; auto. cbn [flat_map].
    rewrite render_app, render_cons, Hf by (simpl; auto). f_equal. apply IH.
    intros; apply Hf; simpl; auto.
  Qed.
  Lemma render_single (n : N) : render [n] = render_node n.
  Proof. unfold render; simpl. apply app_nil_r. Qed.

  Lemma flatten_groups_text (ns : list N) : render (flatten_groups ns) = render ns.
  Proof.
    apply render_flat_map. intros n _. induction n as [| | | | |cs m IH] using node_ind';
      try apply render_single.
    cbn [flatten_groups_node]. rewrite render_group. apply render_flat_map.
    now rewrite <- Forall_forall.
  Qed.
  Lemma flatten_groups_leaves (ns : list N) : flatten_groups ns = leaves ns.
  Proof. reflexivity. Qed.
  Lemma flatten_groups_no_group (ns : list N) : Forall (fun n => ~ is_group n) (flatten_groups ns).
  Proof.
    apply Forall_flat_map. apply Forall_forall. intros n _.
    induction n as [| | | | |cs m IH] using node_ind';
      try (simpl; constructor; [simpl; tauto|constructor]).
    cbn [flatten_groups_node]. now apply Forall_flat_map.
  Qed.

  Lemma insert_early_exit_text (ns : list N) w s : render (insert_early_exit ns w s) = render ns.
  Proof.
    unfold insert_early_exit. rewrite render_app.
    replace (render (if s then [EarlyExit] else [])) with (@nil nat) by (destruct s; reflexivity).
    cbn [app]. apply render_flat_map. intros n _.
    revert w. induction n as [| | | | |cs m IH] using node_ind'; intros w;
      try apply render_single.
    cbn [early_exit_node]. destruct w.
    - rewrite render_cons. change (render [EarlyExit]) with (@nil nat). rewrite app_nil_r.
      rewrite !render_group. apply render_flat_map.
      rewrite Forall_forall in IH. auto.
    - rewrite render_cons. change (render [EarlyExit]) with (@nil nat). apply app_nil_r.
  Qed.

  Lemma render_trailing a : render (@trailing M a) = [].
  Proof. destruct a; reflexivity. Qed.
  Lemma render_around a e (n : N) : render (around a e n) = render_node n.
  Proof.
    unfold around. destruct e; [|apply render_single].
    destruct a; cbn [app]; rewrite !render_cons; simpl; now rewrite app_nil_r.
  Qed.
  Lemma insert_regions_text (ns : list N) a f : render (insert_regions ns a f) = render ns.
  Proof.
    unfold insert_regions. rewrite render_app, render_trailing, app_nil_r.
    apply render_flat_map. intros n _.
    induction n as [| | | | |cs m IH] using node_ind'; try apply render_single.
    - cbn [region_subseq_node]. apply render_around.
    - cbn [region_subseq_node]. rewrite render_around, !render_group.
      rewrite render_app, render_trailing, app_nil_r. apply render_flat_map.
      now rewrite <- Forall_forall.
  Qed.
  Lemma render_map (f : N -> N) ns :
    (forall n, In n ns -> render_node (f n) = render_node n) -> render (map f ns) = render ns.
  Proof.
    intros Hf. induction ns as [|n ns IH]; auto. cbn [map].
    rewrite !render_cons, Hf by (simpl; auto). f_equal. apply IH.
    intros; apply Hf; simpl; auto.
  Qed.
  Lemma insert_single_text scope (ns : list N) : render (insert_single scope ns) = render ns.
  Proof.
    apply render_map. intros n _.
    induction n as [| | | | |cs m IH] using node_ind'; try reflexivity.
    - cbn. now rewrite app_nil_r.
    - cbn [single_node]. rewrite render_group. rewrite !render_cons.
      rewrite !render_group. change (render_node (@RegionStart M)) with (@nil nat).
      change (render_node (@RegionEnd M)) with (@nil nat). change (render (@nil N)) with (@nil nat).
      cbn [app]. rewrite app_nil_r. apply render_map.
      now rewrite <- Forall_forall.
  Qed.
  Lemma strip_text (ns : list N) : render (strip_decision_nodes ns) = render ns.
  Proof.
    apply render_flat_map. intros n _.
    induction n as [| | | | |cs m IH] using node_ind'; try reflexivity; try apply render_single.
    cbn [strip_node]. rewrite render_single, !render_group. apply render_flat_map.
    now rewrite <- Forall_forall.
  Qed.

  Lemma flatten_singleton_other cs m :
    (match cs with [Token _ _] | [Group _ _] => False | _ => True end) ->
    flatten_singleton_node (Group cs m : N) = Group (map flatten_singleton_node cs) [m].
  Proof. destruct cs as [|[] [|]]; simpl; tauto || reflexivity. Qed.
  Lemma flatten_singleton_token t m' m :
    flatten_singleton_node (Group [Token t m'] m : N) = Token t [m; m'].
  Proof. reflexivity. Qed.
  Lemma flatten_singleton_group cs m' m :
    flatten_singleton_node (Group [Group cs m'] m : N) =
    splice m (flatten_singleton_node (Group cs m')).
  Proof. reflexivity. Qed.

  (** Case analysis used for singleton groups. *)
  Lemma singleton_cases (cs : list N) :
    (exists t m, cs = [Token t m]) \/ (exists ds m, cs = [Group ds m]) \/
    (match cs with [Token _ _] | [Group _ _] => False | _ => True end).
  Proof. destruct cs as [|[] [|]]; eauto 6. Qed.

  Lemma render_splice m (n : node (list M)) : render_node (splice m n) = render_node n.
  Proof. destruct n; reflexivity. Qed.

  Lemma flatten_singleton_text (ns : list N) :
    render (flatten_singleton_groups ns) = render ns.
  Proof.
    unfold flatten_singleton_groups, render. rewrite map_map. f_equal.
    apply map_ext_in. intros n _. induction n as [| | | | |cs m IH] using node_ind'; try reflexivity.
    destruct (singleton_cases cs) as [[t [m' ->]]|[[ds [m' ->]]|Ho]].
    - simpl. now rewrite app_nil_r.
    - rewrite flatten_singleton_group, render_splice.
      inversion IH as [|? ? H1 _]; subst. rewrite H1.
      change (render_node (Group [Group ds m'] m)) with (render [Group ds m']).
      now rewrite render_single.
    - rewrite flatten_singleton_other by assumption. simpl. rewrite map_map. f_equal.
      apply map_ext_in. now rewrite <- Forall_forall.
  Qed.

  (** *** strip undoes insertions. *)
  Lemma flat_map_flat_map {A B C} (f : A -> list B) (g : B -> list C) l :
    flat_map g (flat_map f l) = flat_map (fun x => flat_map g (f x)) l.
  Proof.
    induction l as [|a l IH]; simpl; auto. now rewrite flat_map_app, IH.
  Qed.
  Lemma flat_map_ext_in {A B} (f g : A -> list B) l :
    (forall a, In a l -> f a = g a) -> flat_map f l = flat_map g l.
  Proof.
    intros Hf. induction l as [|a l IH]; simpl; auto. rewrite Hf by (simpl; auto).
    f_equal. apply IH. intros; apply Hf; simpl; auto.
  Qed.

  Lemma strip_early_exit_node w (n : N) :
    strip_decision_nodes (early_exit_node w n) = strip_node n.
  Proof.
    revert w. induction n as [| | | | |cs m IH] using node_ind'; intros w; try reflexivity.
    cbn [early_exit_node]. destruct w; [|reflexivity].
    cbn. do 2 f_equal. rewrite flat_map_flat_map. apply flat_map_ext_in.
    rewrite Forall_forall in IH. intros c Hc. apply (IH c Hc true).
  Qed.
  Lemma strip_insert_early_exit (ns : list N) w s :
    strip_decision_nodes (insert_early_exit ns w s) = strip_decision_nodes ns.
  Proof.
    unfold strip_decision_nodes, insert_early_exit. rewrite flat_map_app.
    replace (flat_map strip_node (if s then [EarlyExit] else [])) with (@nil N)
      by (destruct s; reflexivity). cbn [app].
    rewrite flat_map_flat_map. apply flat_map_ext_in. intros n _. apply strip_early_exit_node.
  Qed.
  Lemma strip_trailing a : flat_map strip_node (@trailing M a) = [].
  Proof. destruct a; reflexivity. Qed.
  Lemma strip_around a e (n : N) : flat_map strip_node (around a e n) = strip_node n.
  Proof. unfold around. destruct e, a; simpl; rewrite ?app_nil_r; reflexivity. Qed.
  Lemma strip_region_node a f (n : N) :
    flat_map strip_node (region_subseq_node a f n) = strip_node n.
  Proof.
    induction n as [| | | | |cs m IH] using node_ind'; try reflexivity.
    - cbn [region_subseq_node]. now rewrite strip_around.
    - cbn [region_subseq_node]. rewrite strip_around. cbn [strip_node].
      rewrite flat_map_app, strip_trailing, app_nil_r, flat_map_flat_map.
      do 2 f_equal. apply flat_map_ext_in. now rewrite <- Forall_forall.
  Qed.
  Lemma strip_insert_regions (ns : list N) a f :
    strip_decision_nodes (insert_regions ns a f) = strip_decision_nodes ns.
  Proof.
    unfold strip_decision_nodes, insert_regions.
    rewrite flat_map_app, strip_trailing, app_nil_r, flat_map_flat_map.
    apply flat_map_ext_in. intros; apply strip_region_node.
  Qed.
  Lemma strip_insertions (ops : list (insertion (M:=M))) (ns : list N) :
    strip_decision_nodes (fold_left (fun s op => apply_insertion op s) ops ns)
    = strip_decision_nodes ns.
  Proof.
    revert ns. induction ops as [|op ops IH]; intros ns; simpl; auto. rewrite IH.
    destruct op; [apply strip_insert_early_exit|apply strip_insert_regions].
  Qed.
  Lemma strip_no_decisions_id (ns : list N) : no_decisions ns -> strip_decision_nodes ns = ns.
  Proof.
    unfold no_decisions, strip_decision_nodes.
    assert (Hn : forall n : N, no_decisions_node n -> strip_node n = [n]).
    { induction n as [| | | | |cs m IH] using node_ind'; simpl; try tauto; auto.
      rewrite fold_right_and_Forall. intros Hc. do 2 f_equal.
      induction cs as [|c cs IHc]; simpl; auto.
      inversion IH; subst. inversion Hc; subst. rewrite H1 by assumption. simpl.
      now rewrite IHc. }
    induction 1 as [|n ns Hn1 Hns IH]; simpl; auto. now rewrite Hn, IH.
  Qed.
  Lemma strip_output_no_decisions (ns : list N) : no_decisions (strip_decision_nodes ns).
  Proof.
    apply Forall_flat_map, Forall_forall. intros n _.
    induction n as [| | | | |cs m IH] using node_ind'; simpl; repeat constructor.
    simpl. apply fold_right_and_Forall. now apply Forall_flat_map.
  Qed.

  Lemma unscope_strip_single `{EqDec M} scope (n : N) :
    no_scope scope n -> no_decisions_node n ->
    exists x, strip_node (single_node scope n) = [x] /\ unscope scope x = n.
  Proof.
    induction n as [| | | | |cs m IH] using node_ind'; simpl; try tauto; eauto.
    - intros _ _. exists (Group [Token t m] scope). simpl. now rewrite eqb_refl.
    - rewrite !fold_right_and_Forall. intros [Hm Hs] Hd.
      eexists. split; [reflexivity|]. cbn [app].
      assert (Hu : forall x, unscope scope (Group [x] scope) = unscope scope x)
        by (intros x; cbn [unscope]; now rewrite eqb_refl).
      rewrite Hu.
      assert (E : map (unscope scope) (flat_map strip_node (map (single_node scope) cs)) = cs).
      { clear Hm. induction cs as [|c cs IHc]; simpl; auto.
        inversion IH; subst. inversion Hs; subst. inversion Hd; subst.
        destruct H2 as [x [Hx1 Hx2]]; auto. rewrite Hx1. simpl. rewrite Hx2. f_equal. auto. }
      assert (Hf : forall l, unscope scope (Group l m) = Group (map (unscope scope) l) m).
      { intros [|x [|y l]]; simpl; auto. apply neq_eqb in Hm. now rewrite Hm. }
      rewrite Hf. now rewrite E.
  Qed.

  (** *** Regions can surround runs of siblings. *)
  Definition eligible (filt : N -> bool) (n : N) : bool :=
    match n with Token _ _ | Group _ _ => filt n | _ => false end.

  Lemma region_node_eligible a f n :
    eligible f n = true ->
    exists n', region_subseq_node a f n =
               RegionStart :: (if a then [RegionEnd] else []) ++ [n'; RegionEnd] /\
               flat_map strip_node [n'] = strip_node n.
  Proof.
    intros He. pose proof (strip_region_node a f n) as Hs.
    destruct n; simpl in He; try discriminate.
    - cbn [region_subseq_node] in *. unfold around in *. rewrite He in *.
      exists (Token t m). auto.
    - cbn [region_subseq_node] in *. unfold around in *. rewrite He in *.
      eexists. split; [reflexivity|]. destruct a; exact Hs.
  Qed.

  Lemma insert_regions_surround (ns1 run ns2 : list N) x y mid a f :
    (run = [x] /\ x = y \/ run = x :: mid ++ [y]) ->
    eligible f x = true -> eligible f y = true ->
    exists A R B,
      insert_regions (ns1 ++ run ++ ns2) a f = A ++ RegionStart :: R ++ RegionEnd :: B /\
      strip_decision_nodes A = strip_decision_nodes ns1 /\
      strip_decision_nodes R = strip_decision_nodes run /\
      strip_decision_nodes B = strip_decision_nodes ns2.
  Proof.
    intros Hrun Hx Hy. unfold insert_regions, strip_decision_nodes.
    set (g := region_subseq_node a f).
    assert (G : forall l, flat_map strip_node (flat_map g l) = flat_map strip_node l).
    { intros l. rewrite flat_map_flat_map. apply flat_map_ext_in.
      intros; apply strip_region_node. }
    destruct (region_node_eligible a f x Hx) as [x' [Ex Sx]].
    destruct (region_node_eligible a f y Hy) as [y' [Ey Sy]].
    rewrite !flat_map_app.
    destruct Hrun as [[-> ->]| ->].
    - exists (flat_map g ns1), ((if a then [RegionEnd] else []) ++ [y']),
        (flat_map g ns2 ++ trailing a).
      splits.
      + cbn [flat_map]. rewrite app_nil_r. change (g y) with (region_subseq_node a f y).
        rewrite Ey. repeat (rewrite <- app_assoc; cbn [app]). reflexivity.
      + apply G.
      + rewrite flat_map_app.
        replace (flat_map strip_node (if a then [RegionEnd] else [])) with (@nil N)
          by (destruct a; reflexivity).
        cbn [app]. rewrite Sy. simpl. now rewrite app_nil_r.
      + rewrite flat_map_app, strip_trailing, app_nil_r. apply G.
    - exists (flat_map g ns1),
        ((if a then [RegionEnd] else []) ++ [x'; RegionEnd] ++ flat_map g mid ++
         RegionStart :: (if a then [RegionEnd] else []) ++ [y']),
        (flat_map g ns2 ++ trailing a).
      splits.
      + cbn [flat_map]. rewrite flat_map_app. cbn [flat_map]. rewrite app_nil_r.
        change (g y) with (region_subseq_node a f y).
        change (g x) with (region_subseq_node a f x).
        rewrite Ey, Ex. repeat (rewrite <- app_assoc; cbn [app]). reflexivity.
      + apply G.
      + assert (E0 : flat_map strip_node (if a then [RegionEnd] else []) = @nil N)
          by (destruct a; reflexivity).
        assert (Ex' : flat_map strip_node [x'; RegionEnd] = strip_node x)
          by (rewrite <- Sx; reflexivity).
        rewrite !flat_map_app, E0, Ex', G. cbn [flat_map app].
        change (strip_node RegionStart) with (@nil N). cbn [app].
        rewrite flat_map_app, E0, Sy, !flat_map_app. cbn [flat_map app]. now rewrite app_nil_r.
      + rewrite flat_map_app, strip_trailing, app_nil_r. apply G.
  Qed.

  (** Recursion into groups is the same insertion on the children. *)
  Lemma insert_regions_children (ns : list N) cs m a f :
    In (Group cs m) ns -> In (Group (insert_regions cs a f) m) (insert_regions ns a f).
  Proof.
    intros Hin. unfold insert_regions at 2. apply in_or_app; left.
    apply in_flat_map. exists (Group cs m). split; auto.
    cbn [region_subseq_node]. fold (insert_regions cs a f). unfold around.
    destruct (f (Group cs m)); [|simpl; auto].
    right. apply in_or_app; right; simpl; auto.
  Qed.

  (** A start can always be closed at the same level. *)
  Definition closable (l : list N) : Prop :=
    forall l1 l2, l = l1 ++ RegionStart :: l2 -> In RegionEnd l2.
  Fixpoint everywhere (P : list N -> Prop) (n : N) : Prop :=
    match n with
    | Group cs _ => P cs /\ fold_right (fun c Q => everywhere P c /\ Q) True cs
    | _ => True
    end.

  Lemma closable_app_end l1 l2 :
    closable l2 -> (In RegionEnd l1 \/ closable l1) -> closable l1 -> closable (l1 ++ l2).
  Proof.
    intros H2 _ H1 a b E. revert a E. induction l1 as [|x l1 IH]; intros a E; simpl in *.
    - eapply H2; eauto.
    - destruct a as [|y a]; simpl in E.
      + injection E as -> <-. apply in_or_app. left. apply (H1 [] l1 eq_refl).
      + injection E as -> E. eapply IH; [|exact E].
        intros c d Ecd. apply (H1 (y :: c) d). simpl. now rewrite Ecd.
  Qed.
  Lemma closable_flat_map (f : N -> list N) l :
    (forall n, In n l -> closable (f n)) -> closable (flat_map f l).
  Proof.
    induction l as [|n l IH]; simpl; intros Hf.
    - intros [|? ?] ? E; discriminate.
    - apply closable_app_end; auto.
  Qed.
  Lemma closable_trailing a : closable (@trailing M a).
  Proof.
    destruct a; intros [|x [|y [|]]] l2 E; simpl in E; try discriminate.
    injection E as <-. simpl; auto.
  Qed.
  Lemma closable_region_node a f n : n <> RegionStart -> closable (region_subseq_node a f n).
  Proof.
    intros Hn.
    assert (A : forall e (x : N), x <> RegionStart -> closable (around a e x)).
    { intros e x Hx. unfold around. destruct e.
      - destruct a; cbn [app]; intros [|? [|? [|? [|? [|? ?]]]]] l2 E; simpl in E;
          injection E; intros; subst; try discriminate; try congruence; simpl; auto.
      - intros [|? [|? ?]] l2 E; simpl in E; injection E; intros; subst; congruence || discriminate. }
    destruct n; cbn [region_subseq_node]; try (apply A; discriminate); try congruence;
      intros [|? [|? ?]] l2 E; simpl in E; injection E; intros; subst; congruence || discriminate.
  Qed.
  Lemma insert_regions_closable (ns : list N) a f :
    no_decisions ns -> closable (insert_regions ns a f).
  Proof.
    intros Hd. unfold insert_regions. apply closable_app_end; auto using closable_trailing.
    - right. apply closable_flat_map. intros n Hn. apply closable_region_node.
      unfold no_decisions in Hd. rewrite Forall_forall in Hd. specialize (Hd _ Hn).
      intros ->. exact Hd.
    - apply closable_flat_map. intros n Hn. apply closable_region_node.
      unfold no_decisions in Hd. rewrite Forall_forall in Hd. specialize (Hd _ Hn).
      intros ->. exact Hd.
  Qed.
  Lemma region_node_everywhere a f (n : N) :
    no_decisions_node n -> Forall (everywhere closable) (region_subseq_node a f n).
  Proof.
    assert (A : forall e x, everywhere closable x -> Forall (everywhere closable) (around a e x)).
    { intros e x Hx. unfold around. destruct e; [|auto].
      destruct a; repeat constructor; auto. }
    induction n as [| | | | |cs m IH] using node_ind'; intros Hd;
      try (simpl; repeat constructor; fail); cbn [region_subseq_node]; apply A.
    - exact I.
    - cbn [everywhere]. rewrite fold_right_and_Forall.
      cbn [no_decisions_node] in Hd. rewrite fold_right_and_Forall in Hd. split.
      + fold (insert_regions cs a f). now apply insert_regions_closable.
      + apply Forall_app; split.
        * apply Forall_flat_map, Forall_forall. intros c Hc.
          rewrite Forall_forall in IH, Hd. auto.
        * destruct a; repeat constructor.
  Qed.
  Lemma insert_regions_everywhere (ns : list N) a f :
    no_decisions ns -> Forall (everywhere closable) (insert_regions ns a f).
  Proof.
    intros Hd. unfold insert_regions. apply Forall_app; split.
    - apply Forall_flat_map, Forall_forall. intros c Hc. apply region_node_everywhere.
      unfold no_decisions in Hd. rewrite Forall_forall in Hd. auto.
    - destruct a; repeat constructor.
  Qed.

  (** *** flatten_singleton_groups. *)
  Definition last_is_tuple (n : node (list M)) : Prop :=
    match n with Token _ ms | Group _ ms => ms <> [] | _ => True end.
  Lemma expand_group (cs : list (node (list M))) ms cs' :
    Forall2 (fun c c' => expand c = Some c') cs cs' ->
    expand (Group cs ms) = wrap ms (Group cs').
  Proof.
    intros F. cbn [expand].
    assert (E : (fix go l := match l with
                           | [] => Some []
                           | c :: l' => match expand c, go l' with
                                        | Some c', Some r => Some (c' :: r)
                                        | _, _ => None
                                        end
                           end) cs = Some cs').
    { induction F as [|c c' cs cs' Hc F IH]; auto. now rewrite Hc, IH. }
    now rewrite E.
  Qed.
  Lemma expand_splice m (n : node (list M)) n' :
    last_is_tuple n -> (match n with Token _ _ | Group _ _ => True | _ => False end) ->
    expand n = Some n' -> expand (splice m n) = Some (Group [n'] m).
  Proof.
    destruct n as [|t ms| | | |cs ms]; simpl; try tauto.
    - intros Hms _ E. destruct ms as [|m1 ms]; [congruence|].
      cbn [wrap]. destruct ms; simpl in *; rewrite ?E; injection E as <- || idtac; auto.
    - intros Hms _ E.
      destruct ((fix go (l : list (node (list M))) : option (list (node M)) := match l with
                           | [] => Some []
                           | c :: l' => match expand c, go l' with
                                        | Some c', Some r => Some (c' :: r)
                                        | _, _ => None
                                        end
                           end) cs) as [cs'|]; [|discriminate].
      destruct ms as [|m1 ms]; [congruence|].
      change (match wrap (m1 :: ms) (Group cs') with Some n => Some (Group [n] m) | None => None end = Some (Group [n'] m)).
      now rewrite E.
  Qed.
  Lemma flatten_singleton_shape (n : N) :
    last_is_tuple (flatten_singleton_node n) /\
    (match n with Token _ _ | Group _ _ =>
       match flatten_singleton_node n with Token _ _ | Group _ _ => True | _ => False end
     | _ => True end).
  Proof.
    induction n as [| | | | |cs m IH] using node_ind'; try (split; simpl; auto; discriminate).
    destruct (singleton_cases cs) as [[t [m' ->]]|[[ds [m' ->]]|Ho]].
    - simpl. split; auto; discriminate.
    - rewrite flatten_singleton_group. inversion IH as [|? ? [H1 H2] _]; subst.
      destruct (flatten_singleton_node (Group ds m')); simpl; try contradiction; split; auto; discriminate.
    - rewrite flatten_singleton_other by assumption. simpl. split; auto; discriminate.
  Qed.
  Lemma expand_flatten_singleton (n : N) : expand (flatten_singleton_node n) = Some n.
  Proof.
    induction n as [| | | | |cs m IH] using node_ind'; try reflexivity.
    destruct (singleton_cases cs) as [[t [m' ->]]|[[ds [m' ->]]|Ho]].
    - reflexivity.
    - rewrite flatten_singleton_group. inversion IH as [|? ? H1 _]; subst.
      destruct (flatten_singleton_shape (Group ds m')) as [S1 S2].
      now apply expand_splice.
    - rewrite flatten_singleton_other by assumption.
      rewrite (expand_group _ _ cs); [reflexivity|].
      clear Ho. induction IH; simpl; constructor; auto.
  Qed.
  Lemma flatten_singleton_none (n : N) : no_singletons (flatten_singleton_node n).
  Proof.
    induction n as [| | | | |cs m IH] using node_ind'; try exact I.
    destruct (singleton_cases cs) as [[t [m' ->]]|[[ds [m' ->]]|Ho]].
    - exact I.
    - rewrite flatten_singleton_group. inversion IH as [|? ? H1 _]; subst.
      destruct (flatten_singleton_node (Group ds m')); simpl in *; auto.
    - rewrite flatten_singleton_other by assumption. cbn [no_singletons]. split.
      + destruct cs as [|c [|c2 cs]]; [exact I| |].
        * destruct c; try contradiction; exact I.
        * simpl. destruct (flatten_singleton_node c); exact I.
      + apply fold_right_and_Forall. clear Ho. induction IH; simpl; constructor; auto.
  Qed.

  (** *** Truncation. *)
  (** Characters consumed while before the start point. *)
  Lemma trunc_past_id off (n : N) : trunc_node off None n = (None, [n]).
  Proof.
    induction n as [| | | | |cs m IH] using node_ind'; try reflexivity.
    rewrite trunc_node_group.
    assert (E : trunc_list off None cs = (None, cs)).
    { induction cs as [|c cs IHc]; auto. cbn [trunc_list].
      inversion IH as [|? ? H1 H2]; subst. rewrite H1, IHc; auto. }
    now rewrite E.
  Qed.
  Lemma trunc_past_list off (l : list N) : trunc_list off None l = (None, l).
  Proof.
    induction l as [|c l IH]; auto. cbn [trunc_list]. now rewrite trunc_past_id, IH.
  Qed.

  (** Line 313: before the start point nothing has been yielded. *)
  Lemma trunc_node_before_nil off (n : N) : forall st k o,
    trunc_node off st n = (Some k, o) -> o = [].
  Proof.
    destruct n as [t|t m| | | |cs m]; intros st k o.
    - cbn [trunc_node]. destruct (trunc_text off st t) as [st' [t'|]] eqn:E.
      + intros [= -> <-]. unfold trunc_text in E. destruct st as [seen|]; [|discriminate].
        destruct (_ <? _)%Z; [discriminate|]. destruct (_ =? _)%Z; discriminate.
      + intros [= _ <-]. reflexivity.
    - cbn [trunc_node]. destruct (trunc_text off st t) as [st' [t'|]] eqn:E.
      + intros [= -> <-]. unfold trunc_text in E. destruct st as [seen|]; [|discriminate].
        destruct (_ <? _)%Z; [discriminate|]. destruct (_ =? _)%Z; discriminate.
      + intros [= _ <-]. reflexivity.
    - destruct st; simpl; intros [= <- <-]; reflexivity.
    - destruct st; simpl; intros [= <- <-]; reflexivity.
    - destruct st; simpl; intros [= <- <-]; reflexivity.
    - rewrite trunc_node_group. destruct (trunc_list off st cs) as [[k'|] cs'];
        intros [= <- <-]; reflexivity.
  Qed.
  Lemma trunc_before_nil off (l : list N) : forall st k o,
    trunc_list off st l = (Some k, o) -> o = [].
  Proof.
    induction l as [|c l IH]; intros st k o; cbn [trunc_list].
    - intros [= _ <-]. reflexivity.
    - destruct (trunc_node off st c) as [st1 o1] eqn:E1.
      destruct (trunc_list off st1 l) as [st2 o2] eqn:E2. intros [= -> <-].
      destruct st1 as [k1|].
      + apply trunc_node_before_nil in E1. apply IH in E2. now subst.
      + rewrite trunc_past_list in E2. discriminate.
  Qed.

  (** Trees obtained by cutting a prefix: drop leading siblings, cut into the
      first remaining group or text node, keep everything after. *)
  Inductive tree_suffix : list N -> list N -> Prop :=
  | TS_here l : tree_suffix l l
  | TS_skip n l l' : tree_suffix l l' -> tree_suffix (n :: l) l'
  | TS_group cs cs' m l : tree_suffix cs cs' -> tree_suffix (Group cs m :: l) (Group cs' m :: l)
  | TS_token t m i l : tree_suffix (Token t m :: l) (Token (skipn i t) m :: l)
  | TS_deco t i l : tree_suffix (Deco t :: l) (Deco (skipn i t) :: l).

  Lemma tree_suffix_app l l' r : tree_suffix l l' -> tree_suffix (l ++ r) (l' ++ r).
  Proof. induction 1; simpl.
    - apply TS_here.
    - now apply TS_skip.
    - now apply TS_group.
    - apply TS_token.
    - apply TS_deco.
  Qed.
  Lemma tree_suffix_nil l : tree_suffix l [].
  Proof. induction l; [apply TS_here|now apply TS_skip]. Qed.

  Definition nchars (l : list (event (M:=M))) : nat := length (filter is_char l).
  Lemma nchars_app l1 l2 : nchars (l1 ++ l2) = nchars l1 + nchars l2.
  Proof. unfold nchars. rewrite filter_app. apply app_length. Qed.
  Lemma after_chars_0 (l : list (event (M:=M))) : after_chars 0 l = l.
  Proof. destruct l; reflexivity. Qed.
  Lemma after_chars_app k (l1 l2 : list (event (M:=M))) :
    after_chars k (l1 ++ l2) =
    if nchars l1 <? k then after_chars (k - nchars l1) l2 else after_chars k l1 ++ l2.
  Proof.
    revert k. induction l1 as [|e l1 IH]; intros k.
    - change (nchars []) with 0. cbn [app]. destruct k as [|k].
      { rewrite after_chars_0. reflexivity. }
      cbn [Nat.ltb Nat.leb]. now rewrite Nat.sub_0_r.
    - destruct k as [|k]; [rewrite !after_chars_0; reflexivity|].
      destruct e as [c kd x|c d]; cbn [after_chars app].
      + rewrite IH. change (nchars (Char c kd x :: l1)) with (S (nchars l1)).
        replace (S (nchars l1) <? S k) with (nchars l1 <? k) by reflexivity.
        reflexivity.
      + rewrite IH. reflexivity.
  Qed.
  Definition events_at (ctx : list M) (ns : list N) : list event := flat_map (events_node ctx) ns.
  Lemma events_at_cons ctx n ns : events_at ctx (n :: ns) = events_node ctx n ++ events_at ctx ns.
  Proof. reflexivity. Qed.
  Lemma events_at_app ctx a b : events_at ctx (a ++ b) = events_at ctx a ++ events_at ctx b.
  Proof. apply flat_map_app. Qed.
  Lemma events_group ctx cs m : events_node ctx (Group cs m) = events_at (ctx ++ [m]) cs.
  Proof. reflexivity. Qed.
  Lemma nchars_map (ctx : list M) kd t : nchars (map (Char ctx kd) t) = length t.
  Proof. unfold nchars. induction t; simpl; auto. Qed.
  Lemma after_chars_map (ctx : list M) kd i t :
    i <= length t -> after_chars i (map (Char ctx kd) t) = map (Char ctx kd) (skipn i t).
  Proof.
    revert t; induction i as [|i IH]; intros t Hi; [apply after_chars_0|].
    destruct t as [|c t]; simpl in *; [lia|]. apply IH. lia.
  Qed.
  Lemma py_from_nat i t : py_from (Z.of_nat i) t = skipn i t.
  Proof.
    unfold py_from. destruct (Z.ltb_spec (Z.of_nat i) 0); [lia|]. now rewrite Nat2Z.id.
  Qed.

  (** What has been processed when [l] is done, [seen < k] before it. *)
  Definition trunc_ok (k seen : nat) (ctx : list M) (l : list N) (st' : tstate) (out : list N) :=
    match st' with
    | Some seen' => out = [] /\ seen' = seen + nchars (events_at ctx l) /\ seen' < k
    | None => k - seen <= nchars (events_at ctx l) /\
              events_at ctx out = after_chars (k - seen) (events_at ctx l) /\
              tree_suffix l out
    end.

  Lemma trunc_text_ok k seen t st' o :
    seen < k -> trunc_text (Z.of_nat k) (Some seen) t = (st', o) ->
    match st' with
    | Some seen' => o = None /\ seen' = seen + length t /\ seen' < k
    | None => k - seen <= length t /\
              match o with
              | Some t' => t' = skipn (k - seen) t
              | None => k - seen = length t
              end
    end.
  Proof.
    intros Hs. unfold trunc_text.
    replace (Z.of_nat k - Z.of_nat seen)%Z with (Z.of_nat (k - seen)) by lia.
    destruct (Z.ltb_spec (Z.of_nat (k - seen)) (Z.of_nat (length t))).
    - intros [= <- <-]. rewrite py_from_nat. split; [lia|reflexivity].
    - destruct (Z.eqb_spec (Z.of_nat (k - seen)) (Z.of_nat (length t))).
      + intros [= <- <-]. split; lia.
      + intros [= <- <-]. splits; auto; lia.
  Qed.

  Lemma trunc_node_ok k (n : N) : forall seen ctx st' out,
    seen < k -> trunc_node (Z.of_nat k) (Some seen) n = (st', out) ->
    trunc_ok k seen ctx [n] st' out.
  Proof.
    assert (EN : forall ctx (n : N), events_at ctx [n] = events_node ctx n)
      by (intros; unfold events_at; simpl; apply app_nil_r).
    induction n as [t|t m| | | |cs m IH] using node_ind'; intros seen ctx st' out Hs E.
    - cbn [trunc_node] in E.
      destruct (trunc_text (Z.of_nat k) (Some seen) t) as [s [t'|]] eqn:Et;
        injection E as <- <-; apply trunc_text_ok in Et; auto; unfold trunc_ok;
        rewrite EN; cbn [events_node]; rewrite nchars_map; destruct s as [s|].
      + destruct Et as [? _]; discriminate.
      + destruct Et as [Hl ->]. split; [exact Hl|split; [|apply TS_deco || apply TS_token]].
        rewrite EN. cbn [events_node]. now rewrite after_chars_map.
      + tauto.
      + destruct Et as [Hl He]. split; [exact Hl|split; [|apply tree_suffix_nil]].
        rewrite after_chars_map, He, skipn_all by lia. reflexivity.
    - cbn [trunc_node] in E.
      destruct (trunc_text (Z.of_nat k) (Some seen) t) as [s [t'|]] eqn:Et;
        injection E as <- <-; apply trunc_text_ok in Et; auto; unfold trunc_ok;
        rewrite EN; cbn [events_node]; rewrite nchars_map; destruct s as [s|].
      + destruct Et as [? _]; discriminate.
      + destruct Et as [Hl ->]. split; [exact Hl|split; [|apply TS_deco || apply TS_token]].
        rewrite EN. cbn [events_node]. now rewrite after_chars_map.
      + tauto.
      + destruct Et as [Hl He]. split; [exact Hl|split; [|apply tree_suffix_nil]].
        rewrite after_chars_map, He, skipn_all by lia. reflexivity.
    - injection E as <- <-. cbn. change (nchars [Decision ctx RegionStart]) with 0. splits; auto; lia.
    - injection E as <- <-. cbn. change (nchars [Decision ctx RegionEnd]) with 0. splits; auto; lia.
    - injection E as <- <-. cbn. change (nchars [Decision ctx EarlyExit]) with 0. splits; auto; lia.
    - rewrite trunc_node_group in E.
      assert (L : forall l, Forall (fun n => forall seen ctx st' out, seen < k ->
                    trunc_node (Z.of_nat k) (Some seen) n = (st', out) ->
                    trunc_ok k seen ctx [n] st' out) l ->
                  forall seen ctx st' out, seen < k ->
                  trunc_list (Z.of_nat k) (Some seen) l = (st', out) ->
                  trunc_ok k seen ctx l st' out).
      { clear. intros l HF. induction HF as [|c l Hc HF IHl]; intros seen ctx st' out Hs E.
        - injection E as <- <-. cbn. splits; auto; lia.
        - cbn [trunc_list] in E.
          destruct (trunc_node (Z.of_nat k) (Some seen) c) as [st1 o1] eqn:E1.
          destruct (trunc_list (Z.of_nat k) st1 l) as [st2 o2] eqn:E2.
          injection E as <- <-. specialize (Hc _ ctx _ _ Hs E1).
          assert (EC : events_at ctx [c] = events_node ctx c)
            by (unfold events_at; simpl; apply app_nil_r).
          destruct st1 as [s1|]; unfold trunc_ok in Hc; rewrite EC in Hc.
          + destruct Hc as [-> [-> Hs1]]. specialize (IHl _ ctx _ _ Hs1 E2).
            destruct st2 as [s2|]; cbn [app]; unfold trunc_ok in *; rewrite events_at_cons, nchars_app.
            * destruct IHl as [-> [-> ?]]. splits; auto; lia.
            * destruct IHl as [Ha [Hb Hc]]. splits; [lia| |now apply TS_skip].
              rewrite Hb, after_chars_app.
              destruct (Nat.ltb_spec (nchars (events_node ctx c)) (k - seen)); [|lia].
              f_equal. lia.
          + destruct Hc as [Ha [Hb Hc]]. rewrite trunc_past_list in E2. injection E2 as <- <-.
            unfold trunc_ok. rewrite events_at_cons, nchars_app. splits; [lia| |].
            * rewrite events_at_app, Hb, after_chars_app.
              destruct (Nat.ltb_spec (nchars (events_node ctx c)) (k - seen)); [lia|reflexivity].
            * apply (tree_suffix_app [c] o1 l Hc). }
      destruct (trunc_list (Z.of_nat k) (Some seen) cs) as [s cs'] eqn:El.
      apply (L cs IH seen (ctx ++ [m]) _ _ Hs) in El. unfold trunc_ok in *.
      rewrite EN, events_group. destruct s as [s|]; injection E as <- <-.
      + splits; tauto.
      + destruct El as [Ha [Hb Hc]]. splits; auto.
        * now rewrite EN, events_group.
        * now apply TS_group.
  Qed.
  Lemma trunc_list_ok k (l : list N) : forall seen ctx st' out,
    seen < k -> trunc_list (Z.of_nat k) (Some seen) l = (st', out) ->
    trunc_ok k seen ctx l st' out.
  Proof.
    induction l as [|c l IHl]; intros seen ctx st' out Hs E.
    - injection E as <- <-. cbn. splits; auto; lia.
    - cbn [trunc_list] in E.
      destruct (trunc_node (Z.of_nat k) (Some seen) c) as [st1 o1] eqn:E1.
      destruct (trunc_list (Z.of_nat k) st1 l) as [st2 o2] eqn:E2.
      injection E as <- <-. apply (trunc_node_ok k c seen ctx) in E1; auto.
      assert (EC : events_at ctx [c] = events_node ctx c)
        by (unfold events_at; simpl; apply app_nil_r).
      destruct st1 as [s1|]; unfold trunc_ok in E1; rewrite EC in E1.
      + destruct E1 as [-> [-> Hs1]]. specialize (IHl _ ctx _ _ Hs1 E2).
        destruct st2 as [s2|]; cbn [app]; unfold trunc_ok in *; rewrite events_at_cons, nchars_app.
        * destruct IHl as [-> [-> ?]]. splits; auto; lia.
        * destruct IHl as [Ha [Hb Hc]]. splits; [lia| |now apply TS_skip].
          rewrite Hb, after_chars_app.
          destruct (Nat.ltb_spec (nchars (events_node ctx c)) (k - seen)); [|lia].
          f_equal. lia.
      + destruct E1 as [Ha [Hb Hc]]. rewrite trunc_past_list in E2. injection E2 as <- <-.
        unfold trunc_ok. rewrite events_at_cons, nchars_app. splits; [lia| |].
        * rewrite events_at_app, Hb, after_chars_app.
          destruct (Nat.ltb_spec (nchars (events_node ctx c)) (k - seen)); [lia|reflexivity].
        * apply (tree_suffix_app [c] o1 l Hc).
  Qed.

  Lemma after_chars_too_many k (l : list (event (M:=M))) : nchars l < k -> after_chars k l = [].
  Proof.
    revert k; induction l as [|e l IH]; intros [|k] Hk; try reflexivity; try lia.
    destruct e as [? ? ?|? ?]; cbn [after_chars].
    - apply IH. change (S (nchars l) < S k) in Hk. lia.
    - apply IH. exact Hk.
  Qed.

  Lemma truncate_events (ns : list N) k : 1 <= k ->
    events (truncate_prefix_at_offset ns (Z.of_nat k)) = after_chars k (events ns) /\
    tree_suffix ns (truncate_prefix_at_offset ns (Z.of_nat k)).
  Proof.
    intros Hk. unfold truncate_prefix_at_offset.
    destruct (trunc_list (Z.of_nat k) (Some 0) ns) as [st' out] eqn:E. cbn [snd].
    apply (trunc_list_ok k ns 0 []) in E; [|lia]. unfold trunc_ok in E.
    change (events_at []) with (@events M) in E. destruct st' as [s|].
    - destruct E as [-> [-> Hl]]. split; [|apply tree_suffix_nil].
      rewrite after_chars_too_many by (simpl in Hl; lia). reflexivity.
    - rewrite Nat.sub_0_r in E. tauto.
  Qed.

  (** Offset 0 keeps every character (decision nodes before the first text node
      are dropped). *)
  Definition chars_of (l : list (event (M:=M))) := filter is_char l.
  Lemma trunc0_node (n : N) : forall ctx st' out,
    trunc_node 0%Z (Some 0) n = (st', out) ->
    match st' with
    | Some s => s = 0 /\ out = [] /\ chars_of (events_node ctx n) = []
    | None => chars_of (events_at ctx out) = chars_of (events_node ctx n) /\ tree_suffix [n] out
    end.
  Proof.
    assert (EN : forall ctx (n : N), events_at ctx [n] = events_node ctx n)
      by (intros; unfold events_at; simpl; apply app_nil_r).
    induction n as [t|t m| | | |cs m IH] using node_ind'; intros ctx st' out E.
    - cbn [trunc_node] in E. unfold trunc_text in E. destruct t as [|x t].
      + simpl in E. injection E as <- <-. split; [reflexivity|apply tree_suffix_nil].
      + cbn in E. injection E as <- <-. rewrite EN. split; [reflexivity|apply TS_here].
    - cbn [trunc_node] in E. unfold trunc_text in E. destruct t as [|x t].
      + simpl in E. injection E as <- <-. split; [reflexivity|apply tree_suffix_nil].
      + cbn in E. injection E as <- <-. rewrite EN. split; [reflexivity|apply TS_here].
    - injection E as <- <-. auto.
    - injection E as <- <-. auto.
    - injection E as <- <-. auto.
    - rewrite trunc_node_group in E.
      destruct (trunc_list 0%Z (Some 0) cs) as [s cs'] eqn:El.
      assert (L : match s with
                  | Some s => s = 0 /\ cs' = [] /\ chars_of (events_at (ctx ++ [m]) cs) = []
                  | None => chars_of (events_at (ctx ++ [m]) cs') = chars_of (events_at (ctx ++ [m]) cs)
                            /\ tree_suffix cs cs'
                  end).
      { clear E. generalize (ctx ++ [m]) as c0. intros c0. revert s cs' El.
        induction IH as [|c l Hc HF IHl]; intros s cs' El.
        - injection El as <- <-. auto.
        - cbn [trunc_list] in El.
          destruct (trunc_node 0%Z (Some 0) c) as [st1 o1] eqn:E1.
          destruct (trunc_list 0%Z st1 l) as [st2 o2] eqn:E2.
          injection El as <- <-. specialize (Hc c0 _ _ eq_refl). rewrite events_at_cons.
          unfold chars_of in *. rewrite filter_app.
          destruct st1 as [s1|].
          + destruct Hc as [-> [-> Hc]]. rewrite Hc. cbn [app]. specialize (IHl _ _ E2).
            destruct st2; auto. destruct IHl; split; auto. now apply TS_skip.
          + rewrite trunc_past_list in E2. injection E2 as <- <-.
            rewrite events_at_app, filter_app. destruct Hc as [-> Hc]. split; auto.
            apply (tree_suffix_app [c] o1 l Hc). }
      destruct s as [s|]; injection E as <- <-.
      + destruct L as [-> [_ L]]. rewrite events_group. auto.
      + destruct L as [L1 L2]. rewrite EN, !events_group. split; auto. now apply TS_group.
  Qed.
  Lemma truncate0_chars (ns : list N) :
    chars_of (events (truncate_prefix_at_offset ns 0)) = chars_of (events ns) /\
    tree_suffix ns (truncate_prefix_at_offset ns 0).
  Proof.
    unfold truncate_prefix_at_offset, events. fold (@events_at []).
    induction ns as [|n ns IH]; [split; constructor|].
    cbn [trunc_list]. destruct (trunc_node 0%Z (Some 0) n) as [st1 o1] eqn:E1.
    apply (trunc0_node n []) in E1.
    cbn [flat_map]. unfold chars_of in *. rewrite filter_app.
    destruct st1 as [s1|].
    - destruct E1 as [-> [-> E1]]. rewrite E1.
      destruct (trunc_list 0%Z (Some 0) ns) as [st2 o2]. cbn [snd app] in *.
      destruct IH. split; auto. now apply TS_skip.
    - rewrite trunc_past_list. cbn [snd]. destruct E1 as [E1 E2].
      unfold events_at in E1. rewrite flat_map_app, filter_app, E1. split; auto.
      apply (tree_suffix_app [n] o1 ns E2).
  Qed.

  Definition char_code (e : event (M:=M)) : list nat :=
    match e with Char _ _ c => [c] | _ => [] end.
  Lemma render_events_at ctx (ns : list N) : render ns = flat_map char_code (events_at ctx ns).
  Proof.
    assert (T : forall (ctx : list M) kd t, t = flat_map char_code (map (Char ctx kd) t)).
    { intros c kd t. induction t; simpl; f_equal; auto. }
    assert (Hn : forall (n : N) ctx, render_node n = flat_map char_code (events_node ctx n)).
    { induction n as [t|t m| | | |cs m IH] using node_ind'; intros c; try reflexivity; try apply T.
      rewrite render_group, events_group. induction IH as [|x l Hx HF IHl]; auto.
      rewrite render_cons, events_at_cons, flat_map_app. now rewrite (Hx (c ++ [m])), IHl. }
    induction ns as [|n ns IH]; auto.
    rewrite render_cons, events_at_cons, flat_map_app. now rewrite (Hn n ctx), IH.
  Qed.
  Lemma char_codes_filter (l : list (event (M:=M))) :
    flat_map char_code (filter is_char l) = flat_map char_code l.
  Proof. induction l as [|[]]; simpl; auto. now rewrite IHl. Qed.
  Lemma char_codes_after k (l : list (event (M:=M))) :
    flat_map char_code (after_chars k l) = skipn k (flat_map char_code l).
  Proof.
    revert k; induction l as [|[? ? ?|? ?] l IH]; intros [|k]; rewrite ?after_chars_0; try reflexivity.
    - cbn [after_chars]. rewrite IH. reflexivity.
    - cbn [after_chars]. rewrite IH. reflexivity.
  Qed.
  Lemma truncate_text (ns : list N) k :
    render (truncate_prefix_at_offset ns (Z.of_nat k)) = skipn k (render ns).
  Proof.
    rewrite !(render_events_at []). change (events_at []) with (@events M).
    destruct k as [|k].
    - rewrite <- (char_codes_filter (events ns)). simpl skipn.
      rewrite <- char_codes_filter.
      destruct (truncate0_chars ns) as [E _]. unfold chars_of in E. simpl Z.of_nat. now rewrite E.
    - destruct (truncate_events ns (S k)) as [E _]; [lia|]. now rewrite E, char_codes_after.
  Qed.
End Proofs.
