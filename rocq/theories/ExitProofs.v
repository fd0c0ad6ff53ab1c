(** Where the annotated suggestion can be cut off before any of its text. *)

From Coq Require Import List Bool Arith ZArith Lia.
From Verif Require Import Base SeqNodes Transforms.
Import ListNotations.
Close Scope Z_scope. Open Scope nat_scope.

(** ** Specification. *)
Section Spec.
  Context {M : Type}.
  Notation N := (node M).
  (** A token or a group ends after [k] characters. *)
  Inductive ends_at : list N -> nat -> Prop :=
  | en_token before t m after : ends_at (before ++ Token t m :: after) (length (render (before ++ [Token t m])))
  | en_group before cs m after : ends_at (before ++ Group cs m :: after) (length (render (before ++ [Group cs m])))
  | en_inside before cs m after k : ends_at cs k -> ends_at (before ++ Group cs m :: after) (length (render before) + k).
  (** In reading order, an exit comes before any text. *)
  Definition exit_first (ns : list N) : Prop :=
    exists a ctx b, events ns = a ++ Decision ctx EarlyExit :: b /\ forall e, In e a -> is_char e = false.
  (** Every text node has text. *)
  Fixpoint texts_nonempty (n : N) : Prop :=
    match n with
    | Deco t | Token t _ => t <> []
    | Group cs _ => fold_right (fun c Q => texts_nonempty c /\ Q) True cs
    | _ => True
    end.
End Spec.

(** ** Characters and exits, in reading order. *)
Section Stream.
  Context {M : Type}.
  Notation N := (node M).
  Notation E := (event (M := M)).
  Definition seen (e : E) : list (option nat) :=
    match e with Char _ _ c => [Some c] | Decision _ EarlyExit => [None] | _ => [] end.
  Definition stream (ns : list N) : list (option nat) := flat_map seen (events ns).
  Fixpoint after (k : nat) (l : list (option nat)) : list (option nat) :=
    match k with
    | 0 => l
    | S k' => match l with [] => [] | Some _ :: l' => after k' l' | None :: l' => after k l' end
    end.
  Lemma after_0 l : after 0 l = l.
  Proof. destruct l; reflexivity. Qed.
  Definition count_chars (l : list (option nat)) : nat := length (filter (fun o => match o with Some _ => true | None => false end) l).
  Lemma count_app a b : count_chars (a ++ b) = count_chars a + count_chars b.
  Proof. unfold count_chars. rewrite filter_app. apply app_length. Qed.
  Lemma count_some t : count_chars (map Some t) = length t.
  Proof. unfold count_chars. induction t; cbn; auto. Qed.
  Lemma seen_after k (l : list E) : flat_map seen (after_chars k l) = after k (flat_map seen l).
  Proof.
    pose proof after_0 as Z. revert k. induction l as [|e l IH]; intros [|k]; try (now rewrite after_chars_0, Z); try reflexivity.
    destruct e as [c kd x|c d]; cbn [after_chars flat_map seen app after]; [apply IH|].
    destruct d; cbn [seen app after]; apply IH.
  Qed.
  Lemma exit_first_stream (ns : list N) : exit_first ns <-> exists b, stream ns = None :: b.
  Proof.
    unfold exit_first, stream. generalize (events ns). intros l. split.
    - intros (a & ctx & b & -> & H). rewrite flat_map_app. cbn [flat_map seen app].
      induction a as [|e a IH]; [cbn; eauto|]. destruct e as [c kd x|c d].
      + specialize (H _ (or_introl eq_refl)). discriminate.
      + cbn [flat_map]. destruct d; cbn [seen app]; try (apply IH; intros; apply H; now right). eauto.
    - intros [b H]. revert b H. induction l as [|e l IH]; intros b H; [discriminate|]. destruct e as [c kd x|c d]; [discriminate|].
      assert (D : d = EarlyExit \/ flat_map seen l = None :: b) by (destruct d; auto).
      destruct D as [-> |D]; [exists [], c, l; split; [reflexivity|intros e []]|].
      destruct (IH _ D) as (a & ctx & b' & -> & H'). exists (Decision c d :: a), ctx, b'. split; auto.
      intros e [<-|He]; auto.
  Qed.
  (** The next mark after [k >= 1] characters is an exit iff an exit stands there. *)
  Lemma after_exit k l : 1 <= k -> (exists b, after k l = None :: b) <-> exists a b, l = a ++ None :: b /\ count_chars a = k.
  Proof.
    revert k. induction l as [|o l IH]; intros k Hk.
    - split; [intros [b H]; destruct k; [lia|discriminate]|]. intros ([|x a] & b & H & _); discriminate.
    - destruct k as [|k]; [lia|]. destruct o as [c|]; cbn [after].
      + destruct k as [|k].
        * rewrite after_0. split.
          -- intros [b ->]. exists [Some c], b. split; reflexivity.
          -- intros ([|x a] & b & H & C); [discriminate|]. injection H as <- ->. cbn in C.
             assert (Ha : count_chars a = 0) by (unfold count_chars; lia). destruct a as [|[y|] a]; cbn [app]; eauto. discriminate Ha.
        * rewrite IH by lia. split.
          -- intros (a & b & -> & C). exists (Some c :: a), b. split; auto. cbn. unfold count_chars in *. lia.
          -- intros ([|x a] & b & H & C); [discriminate|]. injection H as <- ->. exists a, b. split; auto; cbn in C; unfold count_chars; lia.
      + rewrite IH by lia. split.
        * intros (a & b & -> & C). exists (None :: a), b. split; auto.
        * intros ([|x a] & b & H & C); [discriminate|]. injection H as <- ->. exists a, b. split; auto.
  Qed.

  (** What the insertions make of a tree. *)
  Fixpoint marks (n : N) : list (option nat) :=
    match n with
    | Token t _ => map Some t ++ [None]
    | Deco t => map Some t
    | Group cs _ => flat_map marks cs ++ [None]
    | EarlyExit => [None]
    | _ => []
    end.
  Lemma seen_chars ctx kd t : flat_map seen (map (Char ctx kd) t) = map Some t.
  Proof. induction t; cbn; congruence. Qed.
  Lemma marks_early (n : N) : forall ctx, flat_map seen (events_at ctx (early_exit_node true n)) = marks n.
  Proof.
    induction n as [t|t m| | | |cs m IH] using node_ind'; intros ctx; cbn [early_exit_node]; unfold events_at; cbn [flat_map events_node];
      rewrite ?app_nil_r; try reflexivity.
    - apply seen_chars.
    - rewrite flat_map_app, seen_chars. reflexivity.
    - rewrite flat_map_app. cbn [marks]. f_equal. induction IH as [|c cs Hc Hcs IH]; auto.
      cbn [flat_map]. rewrite flat_map_app, flat_map_app. f_equal; [|exact IH]. apply Hc.
  Qed.
  Lemma marks_early_list (ns : list N) ctx : flat_map seen (events_at ctx (flat_map (early_exit_node true) ns)) = flat_map marks ns.
  Proof.
    induction ns as [|n ns IH]; auto. cbn [flat_map]. rewrite events_at_app, flat_map_app, IH. f_equal. apply marks_early.
  Qed.
  Lemma marks_regions allow filt (n : N) : flat_map marks (region_subseq_node allow filt n) = marks n.
  Proof.
    assert (A : forall e (x : N), flat_map marks (around allow e x) = marks x).
    { intros e x. unfold around. destruct e, allow; cbn [flat_map app marks]; now rewrite ?app_nil_r. }
    induction n as [t|t m| | | |cs m IH] using node_ind'; cbn [region_subseq_node]; try reflexivity.
    - cbn [flat_map]. now rewrite app_nil_r.
    - apply A.
    - rewrite A. cbn [marks]. f_equal. rewrite flat_map_app.
      assert (T : flat_map marks (trailing allow) = []) by (destruct allow; reflexivity). rewrite T, app_nil_r.
      induction IH as [|c cs Hc Hcs IH]; auto. cbn [flat_map]. now rewrite flat_map_app, Hc, IH.
  Qed.
  Lemma marks_insert_regions allow filt (ns : list N) : flat_map marks (insert_regions ns allow filt) = flat_map marks ns.
  Proof.
    unfold insert_regions. rewrite flat_map_app.
    assert (T : flat_map marks (trailing allow) = []) by (destruct allow; reflexivity). rewrite T, app_nil_r.
    induction ns as [|n ns IH]; auto. cbn [flat_map]. now rewrite flat_map_app, marks_regions, IH.
  Qed.

  (** ** Exits stand where tokens and groups end. *)
  Lemma count_marks_list (ns : list N) : Forall (fun n => count_chars (marks n) = length (render_node n)) ns -> count_chars (flat_map marks ns) = length (render ns).
  Proof. induction 1 as [|n ns Hn Hns IH]; auto. cbn [flat_map]. now rewrite count_app, SeqNodes.render_cons, app_length, Hn, IH. Qed.
  Lemma count_marks (n : N) : count_chars (marks n) = length (render_node n).
  Proof.
    induction n as [t|t m| | | |cs m IH] using node_ind'; cbn [marks]; try reflexivity.
    - apply count_some.
    - rewrite count_app, count_some. cbn. apply Nat.add_0_r.
    - rewrite count_app, (count_marks_list cs IH). cbn [count_chars filter length]. rewrite Nat.add_0_r. reflexivity.
  Qed.
  Lemma count_marks_all (ns : list N) : count_chars (flat_map marks ns) = length (render ns).
  Proof. apply count_marks_list, Forall_forall. intros n _. apply count_marks. Qed.
  Lemma split_at_none (x y a b : list (option nat)) : x ++ y = a ++ None :: b ->
    (exists b', x = a ++ None :: b') \/ exists a', y = a' ++ None :: b /\ a = x ++ a'.
  Proof.
    revert a. induction x as [|o x IH]; intros a H; [right; exists a; auto|].
    destruct a as [|o' a].
    - left. injection H as -> _. exists x. reflexivity.
    - injection H as <- H. apply IH in H as [[b' ->]|[a' [-> ->]]]; [left; exists b'; reflexivity|right; exists a'; split; reflexivity].
  Qed.
  Lemma no_none t (a b : list (option nat)) : map Some t <> a ++ None :: b.
  Proof. intros H. assert (X : In None (map (@Some nat) t)) by (rewrite H; apply in_or_app; right; now left). apply in_map_iff in X as [c [C _]]. discriminate. Qed.

  Lemma ends_cons n (ns : list N) k : ends_at ns k -> ends_at (n :: ns) (length (render_node n) + k).
  Proof.
    intros [before t m rest|before cs m rest|before cs m rest k' H].
    - pose proof (en_token (n :: before) t m rest) as X. cbn [app] in X. rewrite SeqNodes.render_cons, app_length in X. exact X.
    - pose proof (en_group (n :: before) cs m rest) as X. cbn [app] in X. rewrite SeqNodes.render_cons, app_length in X. exact X.
    - pose proof (en_inside (n :: before) cs m rest k' H) as X. cbn [app] in X. rewrite SeqNodes.render_cons, app_length in X. now rewrite Nat.add_assoc.
  Qed.
  Lemma marks_end_list (ns : list N) :
    Forall (fun n => no_decisions_node n -> forall a b, marks n = a ++ None :: b -> ends_at [n] (count_chars a)) ns ->
    Forall no_decisions_node ns -> forall a b, flat_map marks ns = a ++ None :: b -> ends_at ns (count_chars a).
  Proof.
    induction 1 as [|n ns Hn Hns IH]; intros D a b H; [destruct a; discriminate|]. apply Forall_cons_iff in D as [Dn D].
    cbn [flat_map] in H. apply split_at_none in H as [[b' H]|[a' [H ->]]].
    - specialize (Hn Dn a b' H). clear -Hn. inversion Hn as [before t m rest E|before cs m rest E|before cs m rest k' Hk E].
      + destruct before as [|x [|y before]]; try discriminate. injection E as <- ->. exact (en_token [] t m ns).
      + destruct before as [|x [|y before]]; try discriminate. injection E as <- ->. exact (en_group [] cs m ns).
      + destruct before as [|x [|y before]]; try discriminate. injection E as <- ->. exact (en_inside [] cs m ns k' Hk).
    - rewrite count_app, count_marks. apply ends_cons. eapply IH; eauto.
  Qed.
  Lemma marks_end (n : N) : no_decisions_node n -> forall a b, marks n = a ++ None :: b -> ends_at [n] (count_chars a).
  Proof.
    induction n as [t|t m| | | |cs m IH] using node_ind'; intros D a b H; cbn [marks] in H; try (now destruct D); try (destruct a; discriminate).
    - now apply no_none in H.
    - apply split_at_none in H as [[b' H]|[a' [H ->]]]; [now apply no_none in H|].
      assert (a' = []) by (destruct a' as [|x [|y a']]; auto; discriminate). subst a'. rewrite app_nil_r, count_some.
      pose proof (en_token [] t m []) as X. cbn [app] in X. unfold render in X. cbn [map concat render_node] in X. rewrite app_nil_r in X. exact X.
    - cbn [no_decisions_node] in D. apply split_at_none in H as [[b' H]|[a' [H ->]]].
      + assert (F : Forall no_decisions_node cs) by (clear -D; induction cs as [|c cs IH]; constructor; destruct D; auto).
        exact (en_inside [] cs m [] _ (marks_end_list cs IH F a b' H)).
      + assert (a' = []) by (destruct a' as [|x [|y a']]; auto; discriminate). subst a'. rewrite app_nil_r, count_marks_all.
        pose proof (en_group [] cs m []) as X. cbn [app] in X. rewrite SeqNodes.render_cons, Transforms.render_group, app_nil_r in X. exact X.
  Qed.
  Lemma end_marks (ns : list N) k : ends_at ns k -> exists a b, flat_map marks ns = a ++ None :: b /\ count_chars a = k.
  Proof.
    induction 1 as [before t m rest|before cs m rest|before cs m rest k H IH].
    - exists (flat_map marks before ++ map Some t), (flat_map marks rest). split.
      + rewrite flat_map_app. cbn [flat_map marks]. now rewrite <- !app_assoc.
      + rewrite count_app, count_some, count_marks_all, SeqNodes.render_app, app_length. f_equal. unfold render. cbn [map concat render_node]. now rewrite app_nil_r.
    - exists (flat_map marks before ++ flat_map marks cs), (flat_map marks rest). split.
      + rewrite flat_map_app. cbn [flat_map marks]. now rewrite <- !app_assoc.
      + rewrite count_app, !count_marks_all, SeqNodes.render_app, app_length. f_equal. rewrite SeqNodes.render_cons, Transforms.render_group, app_nil_r. reflexivity.
    - destruct IH as (a & b & E & C). exists (flat_map marks before ++ a), (b ++ [None] ++ flat_map marks rest). split.
      + rewrite flat_map_app. cbn [flat_map marks]. rewrite E, <- !app_assoc. reflexivity.
      + now rewrite count_app, count_marks_all, C.
  Qed.
End Stream.
