(** Cutting off the whole suggestion: what the exits left by truncation allow. *)

From Coq Require Import List Bool Arith ZArith Lia Sorted QArith Qcanon.
From Verif Require Import Base SeqNodes Transforms PackedSeq PackedSeqProofs Numbered Decisions ConstraintSpec ConstraintDag PseudoParse EditDag EditSpec RegionDecisions RegionProofs Html Combine ExitProofs.
Import ListNotations.
Close Scope Qc_scope. Close Scope Q_scope. Close Scope Z_scope. Open Scope nat_scope.

(** ** After at least one character. *)
Lemma annotate_stream low (ns : list (node mtype)) k : 1 <= k -> stream (annotate low true ns k) = after k (flat_map marks ns).
Proof.
  intros Hk. unfold annotate, stream. rewrite (proj1 (truncate_events _ k Hk)), seen_after.
  unfold insert_early_exit. cbn [app]. change (@events mtype) with (events_at (M := mtype) []).
  rewrite events_at_cons, flat_map_app, marks_early_list. cbn [events_node flat_map seen app]. destruct k as [|k]; [lia|]. cbn [after].
  destruct low; [now rewrite marks_insert_regions|reflexivity].
Qed.
Lemma exit_first_iff low (ns : list (node mtype)) k : no_decisions ns -> 1 <= k -> exit_first (annotate low true ns k) <-> ends_at ns k.
Proof.
  intros D Hk. rewrite exit_first_stream, (annotate_stream low ns k Hk), (after_exit k _ Hk). split.
  - intros (a & b & E & <-). eapply marks_end_list; eauto. apply Forall_forall. intros n _. apply marks_end.
  - apply end_marks.
Qed.

(** ** At the very beginning. *)
Section Start.
  Context {M : Type}.
  Notation N := (node M).
  Lemma texts_list (cs : list N) : fold_right (fun c Q => texts_nonempty c /\ Q) True cs <-> Forall texts_nonempty cs.
  Proof. induction cs as [|c cs IH]; cbn; [split; constructor|]. rewrite IH, Forall_cons_iff. reflexivity. Qed.
  Lemma texts_flat (f : N -> list N) (cs : list N) : Forall (fun c => texts_nonempty c -> Forall texts_nonempty (f c)) cs -> Forall texts_nonempty cs -> Forall texts_nonempty (flat_map f cs).
  Proof.
    induction 1 as [|c cs Hc Hcs IH]; intros F; [constructor|]. apply Forall_cons_iff in F as [F1 F2]. cbn. apply Forall_app. auto.
  Qed.
  Lemma texts_early (n : N) : texts_nonempty n -> Forall texts_nonempty (early_exit_node true n).
  Proof.
    induction n as [t|t m| | | |cs m IH] using node_ind'; intros H; cbn [early_exit_node]; try (repeat constructor; exact H).
    constructor; [|repeat constructor]. cbn [texts_nonempty] in *. rewrite texts_list in *. now apply texts_flat.
  Qed.
  Lemma texts_regions allow filt (n : N) : texts_nonempty n -> Forall texts_nonempty (region_subseq_node allow filt n).
  Proof.
    assert (A : forall e (x : N), texts_nonempty x -> Forall texts_nonempty (around allow e x)).
    { intros e x H. unfold around. destruct e, allow; cbn [app]; repeat (apply Forall_cons; [first [exact H|exact I]|]); apply Forall_nil. }
    induction n as [t|t m| | | |cs m IH] using node_ind'; intros H; cbn [region_subseq_node]; try (repeat constructor; exact H); try now apply A.
    apply A. cbn [texts_nonempty] in *. rewrite texts_list in *. apply Forall_app. split; [now apply texts_flat|]. destruct allow; repeat constructor.
  Qed.
  (** Nothing was kept and the state is the first one, or a character comes first. *)
  Definition started (ctx : list M) (r : tstate * list N) : Prop :=
    r = (Some 0, []) \/ exists c b, fst r = None /\ flat_map seen (events_at ctx (snd r)) = Some c :: b.
  Lemma started_list (l : list N) : Forall (fun n => texts_nonempty n -> forall ctx, started ctx (trunc_node 0 (Some 0) n)) l -> Forall texts_nonempty l ->
    forall ctx, started ctx (trunc_list 0 (Some 0) l).
  Proof.
    induction 1 as [|n l Hn Hl IH]; intros F ctx; [now left|]. apply Forall_cons_iff in F as [F1 F2]. cbn [trunc_list].
    destruct (Hn F1 ctx) as [-> |(c & b & H1 & H2)].
    - specialize (IH F2 ctx). destruct (trunc_list 0 (Some 0) l) as [s o]. exact IH.
    - destruct (trunc_node 0 (Some 0) n) as [s o]. cbn [fst snd] in *. subst s. rewrite trunc_past_list. right.
      exists c, (b ++ flat_map seen (events_at ctx l)). split; auto. cbn [snd]. rewrite events_at_app, flat_map_app, H2. reflexivity.
  Qed.
  Lemma started_node (n : N) : texts_nonempty n -> forall ctx, started ctx (trunc_node 0 (Some 0) n).
  Proof.
    induction n as [t|t m| | | |cs m IH] using node_ind'; intros H ctx; try (now left).
    - destruct t as [|c t]; [destruct (H eq_refl)|]. right. exists c, (map Some t). split; [reflexivity|]. cbn. rewrite app_nil_r. f_equal. apply seen_chars.
    - destruct t as [|c t]; [destruct (H eq_refl)|]. right. exists c, (map Some t). split; [reflexivity|]. cbn. rewrite app_nil_r. f_equal. apply seen_chars.
    - rewrite trunc_node_group. cbn [texts_nonempty] in H. rewrite texts_list in H.
      destruct (started_list cs IH H (ctx ++ [m])) as [-> |(c & b & H1 & H2)]; [now left|].
      destruct (trunc_list 0 (Some 0) cs) as [s o]. cbn [fst snd] in *. subst s. right. exists c, b. split; [reflexivity|].
      cbn [snd]. unfold events_at at 1. cbn [flat_map events_node]. rewrite app_nil_r. exact H2.
  Qed.
End Start.
Lemma no_exit_at_the_start low (ns : list (node mtype)) : Forall texts_nonempty ns -> ~ exit_first (annotate low true ns 0).
Proof.
  intros F. rewrite exit_first_stream. intros [b H]. unfold annotate, stream, truncate_prefix_at_offset in H.
  set (l := insert_early_exit _ true true) in H.
  assert (Fl : Forall texts_nonempty l).
  { unfold l, insert_early_exit. apply Forall_app. split; [repeat constructor|]. apply texts_flat.
    - apply Forall_forall. intros n _. apply texts_early.
    - destruct low; auto. unfold insert_regions. apply Forall_app. split; [|repeat constructor]. apply texts_flat; auto.
      apply Forall_forall. intros n _. apply texts_regions. }
  clearbody l. change (@events mtype) with (events_at (M := mtype) []) in H.
  destruct (started_list l (proj2 (Forall_forall _ _) (fun n _ => started_node n)) Fl []) as [E|(c & b' & _ & E)]; change (Z.of_nat 0) with 0%Z in H.
  - rewrite E in H. discriminate.
  - rewrite E in H. discriminate.
Qed.

(** ** What is shown. *)
Section Shown.
  Context {M : Type}.
  Notation L := (lnode M).
  Definition lseen (x : L) : list (option nat) :=
    match x with LDeco _ t | LToken _ t _ => map Some t | LExit _ => [None] | _ => [] end.
  Lemma lseen_nodes (x : L) : forall ctx, flat_map lseen (nodes x) = flat_map seen (events_node ctx (erase x)).
  Proof.
    induction x as [i t|i t m|i|i|i|i cs m IH] using lnode_ind'; intros ctx; cbn [nodes erase events_node flat_map lseen app]; rewrite ?app_nil_r, ?seen_chars; try reflexivity.
    induction IH as [|c cs Hc Hcs IH]; auto. cbn [flat_map map]. rewrite !flat_map_app. f_equal; [apply Hc|exact IH].
  Qed.
  Lemma lseen_all (ns : list (node M)) : flat_map lseen (flat_map nodes (labelled ns)) = stream ns.
  Proof.
    unfold stream, events. rewrite <- (erase_labs ns 0 0 0 0) at 2. fold (labelled ns). induction (labelled ns) as [|x l IH]; auto.
    cbn [flat_map map]. rewrite !flat_map_app. f_equal; [apply lseen_nodes|exact IH].
  Qed.
  Lemma first_char (l : list L) c b : flat_map lseen l = Some c :: b ->
    exists l1 x l2 t, l = l1 ++ x :: l2 /\ text_in x = Some t /\ t <> [] /\ forall i, ~ In (LExit i) l1.
  Proof.
    induction l as [|x l IH]; intros H; [discriminate|]. cbn [flat_map] in H. destruct (lseen x) as [|o s] eqn:E.
    - destruct (IH H) as (l1 & y & l2 & t & -> & H1 & H2 & H3). exists (x :: l1), y, l2, t. splits; auto.
      intros i [-> |Hi]; [discriminate E|now apply (H3 i)].
    - injection H as -> _. destruct x as [i t|i t m|i|i|i|i cs m]; try discriminate.
      + exists [], (LDeco i t), l, t. splits; auto. intros ->. discriminate.
      + exists [], (LToken i t m), l, t. splits; auto. intros ->. discriminate.
  Qed.
  Lemma shown_has all asg (l1 : list L) x l2 t raw : text_in x = Some t -> before_exit all asg (number x) -> shown all asg [] (l1 ++ x :: l2) raw ->
    exists f, In (t, f) raw.
  Proof.
    intros Hx Hb. revert raw. induction l1 as [|y l1 IH]; intros raw H; cbn [app] in H.
    - inversion H as [|y t' f l out H1 H2 H3 H4|j l out H1 H2 H3 H4|y l out H1 H2 H3]; subst.
      + rewrite Hx in H1. injection H1 as <-. exists f. now left.
      + discriminate.
      + destruct (H1 t Hx Hb).
    - inversion H as [|z t' f l out H1 H2 H3 H4|j l out H1 H2 H3 H4|z l out H1 H2 H3]; subst.
      + destruct (IH _ H4) as [f' Hf]. exists f'. now right.
      + destruct (IH _ H4) as [f' Hf]. exists f'. now right.
      + exact (IH _ H3).
  Qed.
  Lemma shown_something (ns : list (node M)) asg raw : ~ exit_first ns -> render ns <> [] ->
    let all := flat_map nodes (labelled ns) in shown all asg [] all raw -> concat (map fst raw) <> [].
  Proof.
    intros He Hr all Sh. rewrite exit_first_stream in He. unfold all in *.
    destruct (stream ns) as [|[c|] b] eqn:E.
    - exfalso. apply Hr. clear -E.
      assert (X : flat_map lseen (flat_map nodes (labelled ns)) = []) by now rewrite lseen_all.
      rewrite <- (nodes_render ns). induction (flat_map nodes (labelled ns)) as [|x l IH]; auto.
      cbn [flat_map] in X. apply app_eq_nil in X as [X1 X2]. rewrite texts_cons, (IH X2), app_nil_r.
      destruct x as [i t|i t m|i|i|i|i cs m]; auto; destruct t; auto; discriminate.
    - rewrite <- lseen_all in E. destruct (first_char _ _ _ E) as (l1 & x & l2 & t & Ea & Hx & Ht & Hn).
      pose proof (nodes_sorted (labelled ns) 0 (labelled_numbered ns)) as So. rewrite Ea in So.
      assert (Hb : before_exit (flat_map nodes (labelled ns)) asg (number x)).
      { intros i Hi _. rewrite Ea in Hi. apply in_app_or in Hi as [Hi|[-> |Hi]]; [destruct (Hn i Hi)|discriminate|].
        clear -So Hi. induction l1 as [|y l1 IH]; cbn [app] in So.
        - apply StronglySorted_inv in So as [_ F]. rewrite Forall_forall in F. exact (F _ Hi).
        - apply StronglySorted_inv in So as [So _]. auto. }
      rewrite Ea in Sh at 2. destruct (shown_has _ _ _ _ _ _ _ Hx Hb Sh) as [f Hf]. intros C.
      apply in_split in Hf as (r1 & r2 & ->). rewrite map_app, concat_app in C. cbn [map concat fst] in C.
      apply app_eq_nil in C as [_ C]. apply app_eq_nil in C as [C _]. contradiction.
    - exfalso. apply He. eauto.
  Qed.
End Shown.

(** ** A token that ends at the cursor at top level: the exit is the first node. *)
Section Top.
  Context {M : Type}.
  Lemma trunc_short k (l : list (node M)) : forall seen, seen + length (render l) < k -> trunc_list (Z.of_nat k) (Some seen) l = (Some (seen + length (render l)), []).
  Proof.
    intros seen H. destruct (trunc_list (Z.of_nat k) (Some seen) l) as [s o] eqn:E.
    assert (Ek : nchars (events_at [] l) = length (render l)).
    { clear. assert (N : forall (n : node M) ctx, nchars (events_node ctx n) = length (render_node n)).
      { induction n as [t|t m| | | |cs m IH] using node_ind'; intros ctx; cbn [events_node]; try reflexivity; try apply nchars_map.
        rewrite Transforms.render_group. induction IH as [|c cs Hc Hcs IH]; auto. cbn [flat_map]. now rewrite nchars_app, Hc, IH, SeqNodes.render_cons, app_length. }
      induction l as [|n l IH]; auto. now rewrite events_at_cons, nchars_app, N, IH, SeqNodes.render_cons, app_length. }
    apply (trunc_list_ok k l seen []) in E; [|lia]. unfold trunc_ok in E. rewrite Ek in E. destruct s as [s|].
    - destruct E as [-> [-> _]]. reflexivity.
    - destruct E as [E _]. lia.
  Qed.
  Lemma trunc_at_token (a b : list (node M)) t m : t <> [] ->
    truncate_prefix_at_offset (a ++ Token t m :: b) (Z.of_nat (length (render a) + length t)) = b.
  Proof.
    intros Ht. unfold truncate_prefix_at_offset.
    assert (A : forall (x y : list (node M)) off st, trunc_list off st (x ++ y) = let '(s1, o1) := trunc_list off st x in let '(s2, o2) := trunc_list off s1 y in (s2, o1 ++ o2)).
    { induction x as [|n x IH]; intros y off st; cbn [app trunc_list]; [now destruct (trunc_list off st y)|].
      destruct (trunc_node off st n) as [s1 o1]. rewrite IH. destruct (trunc_list off s1 x) as [s2 o2]. destruct (trunc_list off s2 y) as [s3 o3]. now rewrite app_assoc. }
    assert (Lt : 0 < length t) by (destruct t; [congruence|cbn; lia]).
    rewrite A, trunc_short by lia. cbn [trunc_list trunc_node trunc_text]. rewrite Nat.add_0_l.
    destruct (Z.ltb_spec (Z.of_nat (length (render a) + length t) - Z.of_nat (length (render a))) (Z.of_nat (length t))); [lia|].
    destruct (Z.eqb_spec (Z.of_nat (length (render a) + length t) - Z.of_nat (length (render a))) (Z.of_nat (length t))); [|lia].
    now rewrite trunc_past_list.
  Qed.
End Top.
Lemma annotate_at_token low (before rest : list (node mtype)) t m : t <> [] ->
  exists l, annotate low true (before ++ Token t m :: rest) (length (render before) + length t) = EarlyExit :: l.
Proof.
  intros Ht. unfold annotate.
  assert (S : exists a b, (if low then insert_regions (before ++ Token t m :: rest) true allow_regions else before ++ Token t m :: rest) = a ++ Token t m :: b /\ render a = render before).
  { destruct low; [|exists before, rest; auto]. unfold insert_regions. rewrite flat_map_app. cbn [flat_map region_subseq_node]. unfold around.
    assert (R : render (flat_map (region_subseq_node true allow_regions) before) = render before).
    { rewrite <- (insert_regions_text before true allow_regions). unfold insert_regions. rewrite SeqNodes.render_app. cbn. now rewrite app_nil_r. }
    destruct (allow_regions (Token t m)).
    - exists (flat_map (region_subseq_node true allow_regions) before ++ [RegionStart; RegionEnd]). eexists. split.
      + rewrite <- !app_assoc. cbn [app]. reflexivity.
      + rewrite SeqNodes.render_app, R. cbn. now rewrite app_nil_r.
    - exists (flat_map (region_subseq_node true allow_regions) before). eexists. split; [|exact R]. rewrite <- !app_assoc. cbn [app]. reflexivity. }
  destruct S as (a & b & -> & R). unfold insert_early_exit. rewrite flat_map_app. cbn [flat_map early_exit_node app].
  exists (flat_map (early_exit_node true) b). rewrite <- R.
  replace (length (render a)) with (length (render (EarlyExit :: flat_map (early_exit_node true) a))).
  - exact (trunc_at_token (EarlyExit :: flat_map (early_exit_node true) a) (EarlyExit :: flat_map (early_exit_node true) b) t m Ht).
  - f_equal. exact (insert_early_exit_text a true true).
Qed.
