(** The statistics of [compute_sample_system_info], the grouping of parts, and trees
    without exits. *)

From Coq Require Import List Bool Arith Lia ZArith Sorted Permutation QArith Qcanon.
From Verif Require Import Base SeqNodes Transforms PackedSeq PackedSeqProofs Convert Decisions ConstraintSpec RegionDecisions EditSpec SystemSpec Combine CombineSpec.
Import ListNotations.
Close Scope Qc_scope. Close Scope Q_scope. Close Scope Z_scope. Open Scope nat_scope.

Notation cost_le := (fun a b : cost => negb (cltb b a)).
Lemma cost_le_fin a b : negb (cltb (Fin b) (Fin a)) = true <-> (a <= b)%Qc.
Proof.
  cbn. unfold qc_ltb. destruct (Qclt_le_dec b a) as [H|H]; cbn; split; try discriminate; auto. intros C. exfalso. now apply (Qclt_not_le b a).
Qed.
Lemma insert_fin k ks : StronglySorted Qcle ks -> exists ks',
  insert_sorted cost_le (Fin k) (map Fin ks) = map Fin ks' /\ Permutation (k :: ks) ks' /\ StronglySorted Qcle ks'.
Proof.
  induction 1 as [|x l S IH F]; [exists [k]; splits; auto; repeat constructor|]. cbn [map insert_sorted].
  destruct (negb (cltb (Fin x) (Fin k))) eqn:E.
  - apply cost_le_fin in E. exists (k :: x :: l). splits; auto. constructor; [constructor; auto|]. constructor; auto.
    eapply Forall_impl; [|exact F]. cbn. intros y Hy. eapply Qcle_trans; eauto.
  - destruct IH as [ks' [E1 [E2 E3]]]. rewrite E1. exists (x :: ks'). splits; auto.
    + rewrite perm_swap. now constructor.
    + constructor; auto. assert (Hx : (x <= k)%Qc).
      { destruct (Qclt_le_dec x k) as [H|H]; [now apply Qclt_le_weak|]. apply cost_le_fin in H. rewrite E in H. discriminate. }
      eapply Permutation_Forall; [exact E2|]. constructor; auto.
Qed.
Lemma sorted_fin ks : exists ks', sort_costs (map Fin ks) = map Fin ks' /\ Permutation ks ks' /\ StronglySorted Qcle ks'.
Proof.
  induction ks as [|k ks [ks' [E1 [E2 E3]]]]; [exists []; splits; auto; constructor|]. unfold sort_costs, sort in *. cbn [map fold_right]. rewrite E1.
  destruct (insert_fin k ks' E3) as [ks'' [G1 [G2 G3]]]. exists ks''. splits; auto. rewrite <- G2. now constructor.
Qed.
Lemma csum_fin ks : csum (map Fin ks) = Fin (fold_right Qcplus 0%Qc ks).
Proof. induction ks as [|k ks IH]; auto. unfold csum in *. cbn [map fold_right]. rewrite IH. reflexivity. Qed.
Lemma total_perm ks ks' : Permutation ks ks' -> fold_right Qcplus 0%Qc ks = fold_right Qcplus 0%Qc ks'.
Proof. induction 1; cbn [fold_right]; try congruence. ring. Qed.
Lemma average_perm ks ks' : Permutation ks ks' -> average ks = average ks'.
Proof. intros H. unfold average. rewrite (total_perm _ _ H), (Permutation_length H). reflexivity. Qed.
Lemma variance_perm ks ks' : Permutation ks ks' -> sample_variance ks = sample_variance ks'.
Proof.
  intros H. unfold sample_variance. rewrite (average_perm _ _ H), (Permutation_length H). f_equal. apply total_perm. now apply Permutation_map.
Qed.
Lemma mean_fin ks : ks <> [] -> mean (map Fin ks) = Fin (average ks).
Proof.
  intros Hn. destruct ks as [|k ks]; [congruence|]. unfold mean. change (Fin k :: map Fin ks) with (map Fin (k :: ks)).
  cbn [map]. cbv iota. change (Fin k :: map Fin ks) with (map Fin (k :: ks)). rewrite csum_fin. unfold of_len. rewrite map_length. reflexivity.
Qed.
Lemma variance_fin ks : 2 <= length ks -> var_ddof1 (map Fin ks) = Fin (sample_variance ks).
Proof.
  intros Hn. destruct ks as [|k [|k' ks]]; cbn in Hn; try lia. unfold var_ddof1. cbn [map]. cbv iota.
  change (Fin k :: Fin k' :: map Fin ks) with (map Fin (k :: k' :: ks)). rewrite mean_fin by discriminate. cbv iota.
  set (a := average (k :: k' :: ks)). rewrite map_map.
  match goal with |- context [csum ?l] => replace l with (map Fin (map (fun x => ((x - a) * (x - a))%Qc) (k :: k' :: ks))) by apply map_map end.
  rewrite csum_fin. unfold of_len. rewrite map_length. reflexivity.
Qed.

(** [bisect_left] finds how many values are smaller. *)
Lemma bisect_spec ks x fuel : StronglySorted Qcle ks -> forall lo hi, lo <= hi <= length ks -> hi - lo <= fuel ->
  (forall i, i < lo -> (nth i ks 0 < x)%Qc) -> (forall i, hi <= i < length ks -> (x <= nth i ks 0)%Qc) ->
  let r := bisect_loop fuel (map Fin ks) (Fin x) lo hi in
  r <= length ks /\ (forall i, i < r -> (nth i ks 0 < x)%Qc) /\ (forall i, r <= i < length ks -> (x <= nth i ks 0)%Qc).
Proof.
  intros S. assert (Mono : forall i j, i <= j < length ks -> (nth i ks 0 <= nth j ks 0)%Qc).
  { clear -S. induction S as [|k ks S IH F]; intros i j Hj; [cbn in Hj; lia|].
    destruct i as [|i], j as [|j]; cbn in *; try lia; try apply Qcle_refl.
    - rewrite Forall_forall in F. apply F. apply nth_In. lia.
    - apply IH. lia. }
  induction fuel as [|f IH]; intros lo hi Hr Hf Hlo Hhi; cbn [bisect_loop].
  - cbv zeta. splits; [lia|auto|]. intros i Hi. apply Hhi. lia.
  - destruct (lo <? hi) eqn:E.
    + apply Nat.ltb_lt in E. set (mid := Nat.div2 (lo + hi)).
      assert (Hm : lo <= mid < hi).
      { unfold mid. rewrite Nat.div2_div. split; [apply Nat.div_le_lower_bound; lia|apply Nat.div_lt_upper_bound; lia]. }
      assert (En : nth mid (map Fin ks) NaN = Fin (nth mid ks 0%Qc)).
      { rewrite (nth_indep _ NaN (Fin 0%Qc)) by (rewrite map_length; lia). apply (map_nth Fin). }
      cbv zeta. rewrite En. cbn [cltb]. unfold qc_ltb. destruct (Qclt_le_dec (nth mid ks 0%Qc) x) as [Hc|Hc].
      * apply IH; try lia; auto. intros i Hi. eapply Qcle_lt_trans; [|exact Hc]. apply Mono. lia.
      * apply IH; try lia; auto. intros i Hi. eapply Qcle_trans; [exact Hc|]. apply Mono. lia.
    + apply Nat.ltb_ge in E. cbv zeta. splits; [lia|auto|]. intros i Hi. apply Hhi. lia.
Qed.
Definition below (x : Qc) (ks : list Qc) : list Qc := filter (fun k => if Qclt_le_dec k x then true else false) ks.
Lemma below_prefix x ks : forall r, r <= length ks -> (forall i, i < r -> (nth i ks 0 < x)%Qc) -> (forall i, r <= i < length ks -> (x <= nth i ks 0)%Qc) ->
  length (below x ks) = r.
Proof.
  induction ks as [|k ks IH]; intros r Hr H1 H2; [cbn in *; lia|]. unfold below in *. cbn [filter]. destruct r as [|r].
  - destruct (Qclt_le_dec k x) as [C|C].
    + exfalso. apply (Qclt_not_le k x C). apply (H2 0). cbn. lia.
    + apply (IH 0); [lia|intros; lia|]. intros i Hi. apply (H2 (S i)). cbn. lia.
  - destruct (Qclt_le_dec k x) as [C|C].
    + cbn [length]. f_equal. apply IH; [cbn in Hr; lia|intros i Hi; apply (H1 (S i)); lia|]. intros i Hi. apply (H2 (S i)). cbn. lia.
    + exfalso. apply (Qcle_not_lt x k C). apply (H1 0). lia.
Qed.
Lemma below_perm x ks ks' : Permutation ks ks' -> length (below x ks) = length (below x ks').
Proof.
  induction 1; unfold below in *; cbn [filter]; auto; try congruence.
  - destruct (Qclt_le_dec x0 x); cbn; auto.
  - destruct (Qclt_le_dec x0 x), (Qclt_le_dec y x); auto.
Qed.
Lemma bisect_rank ks x : StronglySorted Qcle ks -> bisect_left (map Fin ks) (Fin x) = length (below x ks).
Proof.
  intros S. unfold bisect_left. rewrite map_length.
  destruct (bisect_spec ks x (length ks) S 0 (length ks)) as [H1 [H2 H3]]; [lia|lia|lia|lia|].
  symmetry. now apply below_prefix.
Qed.

(** ** Grouping. *)
Lemma grouped_same l : annotated (grouped l) = annotated l /\ alternating (grouped l).
Proof.
  induction l as [|[t b] l [IH1 IH2]]; [split; reflexivity|]. cbn [grouped]. destruct (grouped l) as [|[t' b'] r] eqn:E.
  - unfold annotated in *. cbn [flat_map] in *. rewrite <- IH1. split; cbn; auto.
  - destruct (eqb b b') eqn:Eb.
    + apply eqb_eq in Eb. subst b'. unfold annotated in *. cbn [flat_map fst snd] in *. rewrite <- IH1, map_app, app_assoc. split; auto.
    + apply eqb_neq in Eb. unfold annotated in *. cbn [flat_map fst snd] in *. rewrite <- IH1. split; auto. cbn [alternating snd]. split; auto.
Qed.
Lemma annotated_text l : map fst (annotated l) = concat (map fst l).
Proof.
  unfold annotated. induction l as [|[t b] l IH]; auto. cbn [flat_map map concat fst snd]. rewrite map_app, IH, map_map. cbn. now rewrite map_id.
Qed.

(** ** Trees without exits, or without region starts. *)
Section Free.
  Context {M : Type}.
  Notation N := (node M).
  Fixpoint free (bad : N -> bool) (n : N) : Prop :=
    match n with
    | Group cs _ => fold_right (fun c P => free bad c /\ P) True cs
    | Token _ _ | Deco _ => True
    | n => bad n = false
    end.
  Definition is_exit (n : N) : bool := match n with EarlyExit => true | _ => false end.
  Definition is_start (n : N) : bool := match n with RegionStart => true | _ => false end.
  Lemma free_group bad cs m : free bad (Group cs m) <-> Forall (free bad) cs.
  Proof.
    cbn [free]. induction cs as [|c cs IH]; cbn; [split; constructor|]. rewrite IH. split.
    - intros [A B]. now constructor.
    - intros H. inversion H; auto.
  Qed.
  Lemma suffix_free bad (s t : list N) : tree_suffix s t -> Forall (free bad) s -> Forall (free bad) t.
  Proof.
    induction 1 as [l|n l l' H IH|cs cs' m l H IH|tx m i l|tx i l]; intros F; auto.
    - inversion F; auto.
    - inversion F as [|? ? A B]; subst. constructor; auto. apply free_group. apply IH. now apply free_group in A.
    - inversion F; constructor; auto; exact I.
    - inversion F; constructor; auto; exact I.
  Qed.
  Lemma truncate_suffix (ns : list N) k : tree_suffix ns (truncate_prefix_at_offset ns (Z.of_nat k)).
  Proof. destruct k as [|k]; [apply (truncate0_chars ns)|apply (truncate_events ns (S k)); lia]. Qed.
  Lemma no_decisions_free bad (ns : list N) : no_decisions ns -> Forall (free bad) ns.
  Proof.
    unfold no_decisions. intros F. eapply Forall_impl; [|exact F].
    assert (G : forall n : N, no_decisions_node n -> free bad n).
    { induction n as [t|t m| | | |cs m IH] using node_ind'; cbn [no_decisions_node]; try tauto; try (intros; exact I).
      intros H. apply free_group. rewrite Forall_forall in IH |- *. intros c Hc. apply IH; auto.
      clear -H Hc. induction cs as [|d cs IHc]; [destruct Hc|]. cbn in H. destruct H as [A B]. destruct Hc as [<-|Hc]; auto. }
    exact G.
  Qed.
  Lemma regions_free (ns : list N) a f : Forall (free is_exit) ns -> Forall (free is_exit) (insert_regions ns a f).
  Proof.
    assert (T : Forall (free is_exit) (@trailing M a)) by (destruct a; repeat constructor).
    assert (A : forall e (n : N), free is_exit n -> Forall (free is_exit) (around a e n)).
    { intros e n Hn. unfold around. destruct e; [|repeat constructor; auto]. destruct a; repeat constructor; auto. }
    assert (G : forall n : N, free is_exit n -> Forall (free is_exit) (region_subseq_node a f n)).
    { induction n as [t|t m| | | |cs m IH] using node_ind'; intros H; cbn [region_subseq_node]; try (constructor; [exact H|constructor]).
      - apply A. exact I.
      - apply A. apply free_group in H. apply free_group. apply Forall_app. split; auto. apply Forall_flat_map.
        rewrite Forall_forall in *. intros c Hc. apply IH; auto. }
    intros F. unfold insert_regions. apply Forall_app. split; auto. apply Forall_flat_map. eapply Forall_impl; [|exact F]. exact G.
  Qed.
  Lemma early_free (ns : list N) w s : Forall (free is_start) ns -> Forall (free is_start) (insert_early_exit ns w s).
  Proof.
    assert (G : forall n : N, free is_start n -> Forall (free is_start) (early_exit_node w n)).
    { induction n as [t|t m| | | |cs m IH] using node_ind'; intros H; cbn [early_exit_node]; try (repeat constructor; auto; fail).
      apply free_group in H. destruct w; constructor; try (repeat constructor; fail); apply free_group; auto.
      apply Forall_flat_map. rewrite Forall_forall in *. intros c Hc. apply IH; auto. }
    intros F. unfold insert_early_exit. apply Forall_app. split; [destruct s; repeat constructor|]. apply Forall_flat_map. eapply Forall_impl; [|exact F]. exact G.
  Qed.
  (** An exit that is taken is an exit of the tree. *)
  Lemma inside_exits_taken (l : list (lnode M)) a : inside_exits l a ->
    (exists k, In ((k, ShouldEarlyExit), DTrue) a) /\ ~ Forall (free is_exit) (map erase l).
  Proof.
    induction 1 as [i l|i cs m l a H [[k IH] IH2]|x l a H [[k IH] IH2]].
    - split; [eexists; left; reflexivity|]. intros F. inversion F as [|? ? A B]. discriminate A.
    - split; [exists k; right; auto|]. intros F. inversion F as [|? ? A B]. apply free_group in A. auto.
    - split; [exists k; apply in_or_app; auto|]. intros F. inversion F; auto.
  Qed.
  Lemma exits_taken (l : list (lnode M)) a : exits l a ->
    (exists k, In ((k, ShouldEarlyExit), DTrue) a) /\ ~ Forall (free is_exit) (map erase l).
  Proof.
    induction 1 as [i l|i cs m l a H [[k IH] IH2]|i l a H|l1 l2 a b H1 H2 [[k IH] IH2]].
    - split; [eexists; left; reflexivity|]. intros F. inversion F as [|? ? A B]. discriminate A.
    - split; [exists k; right; auto|]. intros F. inversion F as [|? ? A B]. apply free_group in A. auto.
    - destruct (inside_exits_taken l a H) as [[k Hk] Hn]. split; [exists k; right; auto|]. intros F. inversion F; auto.
    - split; [exists k; apply in_or_app; auto|]. intros F. rewrite map_app in F. apply Forall_app in F as [_ F]. auto.
  Qed.
  (** Without region starts, nothing is in a region. *)
  Lemma free_starts (l : list (lnode M)) i : Forall (free is_start) (map erase l) -> ~ In (LStart i) (flat_map nodes l).
  Proof.
    assert (G : forall x : lnode M, free is_start (erase x) -> ~ In (LStart i) (nodes x)).
    { induction x as [j t|j t m|j|j|j|j cs m IH] using lnode_ind'; cbn [erase nodes]; intros H [C|C]; try discriminate; try contradiction.
      apply free_group in H. apply in_flat_map in C as [c [C1 C2]]. rewrite Forall_forall in IH, H. apply (IH c C1); auto. apply H. now apply in_map. }
    intros F C. apply in_flat_map in C as [x [C1 C2]]. rewrite Forall_forall in F. apply (G x); auto. apply F. now apply in_map.
  Qed.
  Lemma shown_no_start (all : list (lnode M)) asg l out : (forall i, ~ In (LStart i) all) -> shown all asg [] l out ->
    Forall (fun p => snd p = false) out.
  Proof.
    intros Hn. induction 1 as [|x t b l out Ht Hb Hr H IH|j l out Hb Ht He H IH|x l out H1 H2 H IH]; auto.
    - constructor; auto. cbn. destruct b; auto. destruct (proj1 Hr eq_refl) as [i [Hi _]]. now apply Hn in Hi.
    - destruct He as [i [Hi _]]. now apply Hn in Hi.
  Qed.
  Lemma no_decisions_only (T : list (lnode M)) : no_decisions (map erase T) -> Forall text_only T.
  Proof.
    assert (H : forall x : lnode M, no_decisions_node (erase x) -> text_only x).
    { induction x as [i t|i t m|i|i|i|i cs m IH] using lnode_ind'; cbn [erase no_decisions_node text_only]; auto.
      induction IH as [|c cs Hc HF IHc]; cbn; auto. intros [A B]. auto. }
    unfold no_decisions. intros HT. rewrite Forall_forall in *. intros x Hx. apply H, HT. now apply in_map.
  Qed.
  Lemma suffix_no_decisions (s t : list N) : tree_suffix s t -> no_decisions s -> no_decisions t.
  Proof.
    unfold no_decisions. induction 1 as [l|n l l' H IH|cs cs' m l H IH|tx m i l|tx i l]; intros F; auto.
    - inversion F; auto.
    - inversion F as [|? ? A B]; subst. constructor; auto. cbn [no_decisions_node] in *.
      assert (G : forall cs : list N, fold_right (fun c P => no_decisions_node c /\ P) True cs <-> Forall no_decisions_node cs).
      { induction cs0 as [|c l0 IHc]; cbn; [split; constructor|]. rewrite IHc. split; [intros [? ?]; constructor; auto|intros Q; inversion Q; auto]. }
      apply G. apply IH. now apply G.
    - inversion F; constructor; auto; exact I.
    - inversion F; constructor; auto; exact I.
  Qed.
  (** What follows enough text survives truncation. *)
  Lemma trunc_list_app off (a b : list N) : forall st, trunc_list off st (a ++ b) =
    let '(s1, o1) := trunc_list off st a in let '(s2, o2) := trunc_list off s1 b in (s2, o1 ++ o2).
  Proof.
    induction a as [|x a IH]; intros st; cbn [app trunc_list]; [destruct (trunc_list off st b); reflexivity|].
    destruct (trunc_node off st x) as [s1 o1]. rewrite IH. destruct (trunc_list off s1 a) as [s2 o2]. destruct (trunc_list off s2 b) as [s3 o3].
    now rewrite app_assoc.
  Qed.
  Lemma no_chars_render ctx (n : N) : chars_of (events_node ctx n) = [] -> render_node n = [].
  Proof.
    intros H. assert (E : render [n] = flat_map char_code (events_at ctx [n])) by apply render_events_at.
    unfold events_at in E. cbn [flat_map] in E. rewrite app_nil_r in E. rewrite render_cons in E. change (@render M []) with (@nil nat) in E. rewrite app_nil_r in E. rewrite E.
    unfold chars_of in H. induction (events_node ctx n) as [|e l IH]; auto. cbn [filter] in H. destruct e; cbn in *; [discriminate|auto].
  Qed.
  Lemma trunc0_nothing (ns : list N) : forall s o, trunc_list 0%Z (Some 0) ns = (Some s, o) -> render ns = [].
  Proof.
    induction ns as [|n ns IH]; intros s o; auto. cbn [trunc_list]. destruct (trunc_node 0%Z (Some 0) n) as [st1 o1] eqn:E1.
    apply (trunc0_node n []) in E1. destruct st1 as [s1|].
    - destruct E1 as [-> [-> E1]]. destruct (trunc_list 0%Z (Some 0) ns) as [st2 o2]. intros H. injection H as -> _.
      rewrite render_cons, (no_chars_render [] n E1). now rewrite (IH s o2 eq_refl).
    - rewrite trunc_past_list. discriminate.
  Qed.
  Lemma truncate_keeps_end (ns r : list N) k : k <= length (render ns) -> render ns <> [] ->
    truncate_prefix_at_offset (ns ++ r) (Z.of_nat k) = truncate_prefix_at_offset ns (Z.of_nat k) ++ r.
  Proof.
    intros Hk Hn. unfold truncate_prefix_at_offset. rewrite trunc_list_app. destruct (trunc_list (Z.of_nat k) (Some 0) ns) as [[s|] o] eqn:E.
    - exfalso. destruct k as [|k].
      + apply trunc0_nothing in E. auto.
      + apply (trunc_list_ok (S k) ns 0 []) in E; [|lia]. destruct E as [_ [E1 E2]].
        assert (L : nchars (events_at [] ns) = length (render ns)).
        { rewrite (render_events_at [] ns). generalize (events_at [] ns) as l. induction l as [|e l IH]; auto. destruct e as [c x y|c d].
          - change (nchars (Char c x y :: l)) with (S (nchars l)). rewrite IH. reflexivity.
          - change (nchars (Decision c d :: l)) with (nchars l). rewrite IH. reflexivity. }
        lia.
    - rewrite trunc_past_list. reflexivity.
  Qed.
  (** The number of questions. *)
  Fixpoint weight (n : N) : nat :=
    match n with Deco _ => 0 | Group cs _ => S (list_sum (map weight cs)) | _ => 1 end.
  Lemma questions_weight (l : list (lnode M)) : length (questions l) = list_sum (map weight (map erase l)).
  Proof.
    assert (G : forall x : lnode M, length (asked x) = weight (erase x)).
    { induction x as [i t|i t m|i|i|i|i cs m IH] using lnode_ind'; cbn [asked erase weight]; auto. cbn [length]. f_equal.
      induction IH as [|c cs Hc HF IHc]; auto. cbn [flat_map map]. rewrite app_length, Hc, IHc. reflexivity. }
    unfold questions. induction l as [|x l IH]; auto. cbn [flat_map map]. rewrite app_length, G, IH. reflexivity.
  Qed.
  Lemma grouped_flags l : Forall (fun p : text * bool => snd p = false) l -> Forall (fun p => snd p = false) (grouped l).
  Proof.
    induction 1 as [|[t b] l H F IH]; [constructor|]. cbn [grouped]. cbn in H. subst b. destruct (grouped l) as [|[t' b'] r]; [repeat constructor|].
    inversion IH as [|? ? A B]; subst. cbn in A. subst b'. rewrite eqb_refl. constructor; auto.
  Qed.
End Free.
