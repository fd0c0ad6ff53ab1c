(** Order of complete walks, and exactness of region insertion. *)

From Coq Require Import List Bool Arith Lia Sorting.Sorted.
From Verif Require Import Base SeqNodes Transforms.
Import ListNotations.

Section WalkOrder.
  Context {M : Type}.
  Notation N := (node M).
  Notation item := (N * path * walk_tag)%type.

  (** Reading order of walk items: a common prefix and then a smaller index, or
      a group's first visit before everything inside it (and before its second
      visit), or everything inside a group before its second visit. *)
  Definition item_lt (x y : item) : Prop :=
    (exists c i j q r, item_path x = c ++ i :: q /\ item_path y = c ++ j :: r /\ i < j) \/
    (item_tag x = GROUP_BEFORE_CHILDREN /\
     exists r, item_path y = item_path x ++ r /\ (r <> [] \/ item_tag y = GROUP_AFTER_CHILDREN)) \/
    (item_tag y = GROUP_AFTER_CHILDREN /\
     exists r, item_path x = item_path y ++ r /\ (r <> [] \/ item_tag x = GROUP_BEFORE_CHILDREN)).

  Lemma sorted_app {A} (R : A -> A -> Prop) l1 l2 :
    StronglySorted R l1 -> StronglySorted R l2 -> (forall a b, In a l1 -> In b l2 -> R a b) ->
    StronglySorted R (l1 ++ l2).
  Proof.
    induction l1 as [|a l1 IH]; simpl; auto. intros H1 H2 H3. inversion H1; subst.
    constructor; [apply IH; auto|]. apply Forall_app; split; auto. apply Forall_forall. auto.
  Qed.

  Lemma walk_list_sorted before after (l : list N) :
    (forall c, In c l -> forall p, StronglySorted item_lt (walk_node before after p c)) ->
    forall p i, StronglySorted item_lt (walk_list before after p i l).
  Proof.
    induction l as [|c l IH]; intros Hc p i; cbn [walk_list]; [constructor|].
    apply sorted_app.
    - apply Hc; simpl; auto.
    - apply IH. intros; apply Hc; simpl; auto.
    - intros x y Hx Hy. left.
      pose proof (walk_node_extends before after c (p ++ [i])) as E1.
      rewrite Forall_forall in E1. destruct (E1 _ Hx) as [q Hq].
      pose proof (walk_list_extends before after l p (S i)) as E2.
      rewrite Forall_forall in E2. destruct (E2 _ Hy) as [j [r [Hj Hr]]].
      exists p, i, j, q, r. splits; auto. rewrite Hq. now rewrite <- app_assoc.
  Qed.
  Lemma walk_node_sorted before after (n : N) : forall p,
    StronglySorted item_lt (walk_node before after p n).
  Proof.
    induction n as [| | | | |cs m IH] using node_ind'; intros p;
      try (simpl; repeat constructor; fail).
    rewrite walk_node_group. rewrite Forall_forall in IH.
    pose proof (walk_list_extends before after cs p 0) as E2. rewrite Forall_forall in E2.
    apply sorted_app; [|apply sorted_app|].
    - destruct before; repeat constructor.
    - apply walk_list_sorted. auto.
    - destruct after; repeat constructor.
    - intros x y Hx Hy. destruct after; [|destruct Hy]. destruct Hy as [<-|[]].
      right; right. split; auto. destruct (E2 _ Hx) as [j [r [_ Hr]]].
      exists (j :: r). split; auto. left. discriminate.
    - intros x y Hx Hy. destruct before; [|destruct Hx]. destruct Hx as [<-|[]].
      right; left. split; auto. apply in_app_or in Hy as [Hy|Hy].
      + destruct (E2 _ Hy) as [j [r [_ Hr]]]. exists (j :: r). split; auto. left. discriminate.
      + destruct after; [|destruct Hy]. destruct Hy as [<-|[]]. exists []. split; auto.
        unfold item_path. simpl. now rewrite app_nil_r.
  Qed.
  Lemma walk_sorted (ns : list N) before after prefix :
    StronglySorted item_lt (walk_with_paths ns before after prefix).
  Proof. apply walk_list_sorted. intros. apply walk_node_sorted. Qed.

  (** The order is strict: no two items of a walk can be exchanged. *)
  Lemma item_lt_irrefl x : ~ item_lt x x.
  Proof.
    intros [[c [i [j [q [r [E1 [E2 Hl]]]]]]]|[[Ht [r [E [Hr|Hr]]]]|[Ht [r [E [Hr|Hr]]]]]].
    - rewrite E1 in E2. apply app_inv_head in E2. injection E2 as -> _. lia.
    - apply Hr. rewrite <- (app_nil_r (item_path x)) in E at 1. now apply app_inv_head in E.
    - congruence.
    - apply Hr. rewrite <- (app_nil_r (item_path x)) in E at 1. now apply app_inv_head in E.
    - congruence.
  Qed.

  (** *** Region options appear only where they may. *)
  Lemma app_split_cases {A} (l1 l2 a b : list A) (x : A) :
    l1 ++ l2 = a ++ x :: b ->
    (exists b1, l1 = a ++ x :: b1 /\ b = b1 ++ l2) \/
    (exists a2, l2 = a2 ++ x :: b /\ a = l1 ++ a2).
  Proof.
    revert a. induction l1 as [|y l1 IH]; intros a E; simpl in E.
    - right. exists a. auto.
    - destruct a as [|z a]; simpl in E; injection E as -> E.
      + left. exists l1. split; auto.
      + destruct (IH a E) as [[b1 [E1 E2]]|[a2 [E1 E2]]].
        * left. exists b1. simpl. now rewrite E1.
        * right. exists a2. simpl. now rewrite E2.
  Qed.

  Lemma region_node_ineligible a f (n : N) :
    no_decisions_node n -> eligible f n = false ->
    exists n', region_subseq_node a f n = [n'] /\ n' <> RegionStart /\ n' <> RegionEnd.
  Proof.
    intros Hd He. destruct n; simpl in He; cbn [region_subseq_node]; try contradiction.
    - eexists. splits; [reflexivity|discriminate|discriminate].
    - unfold around. rewrite He. eexists. splits; [reflexivity|discriminate|discriminate].
    - unfold around. rewrite He. eexists. splits; [reflexivity|discriminate|discriminate].
  Qed.
  Lemma region_node_eligible' a f (n : N) :
    no_decisions_node n -> eligible f n = true ->
    exists n', region_subseq_node a f n =
               RegionStart :: (if a then [RegionEnd] else []) ++ [n'; RegionEnd] /\
               strip_node n' = [n] /\ n' <> RegionStart /\ n' <> RegionEnd.
  Proof.
    intros Hd He. destruct (region_node_eligible a f n He) as [n' [E S]]. exists n'.
    cbn [flat_map] in S. rewrite app_nil_r in S.
    assert (Hn : strip_node n = [n]).
    { pose proof (strip_no_decisions_id [n]) as K. unfold strip_decision_nodes in K.
      cbn [flat_map] in K. rewrite app_nil_r in K. apply K. constructor; auto. }
    rewrite Hn in S. splits; auto; intros ->; discriminate.
  Qed.

  Lemma regions_start_flat a f (ns : list N) : no_decisions ns ->
    forall A B, flat_map (region_subseq_node a f) ns = A ++ RegionStart :: B ->
    exists n n' B', In n ns /\ eligible f n = true /\ strip_node n' = [n] /\
      B = (if a then [RegionEnd] else []) ++ n' :: RegionEnd :: B'.
  Proof.
    induction 1 as [|n ns Hn HF IH]; intros A B E; simpl in E; [destruct A; discriminate|].
    apply app_split_cases in E as [[b1 [E ->]]|[a2 [E ->]]].
    - destruct (eligible f n) eqn:He.
      + destruct (region_node_eligible' a f n Hn He) as [n' [E' [S [N1 N2]]]].
        rewrite E' in E. destruct A as [|x A]; cbn [app] in E.
        * injection E as <-. exists n, n', (flat_map (region_subseq_node a f) ns). splits; simpl; auto.
          destruct a; reflexivity.
        * injection E as _ E. exfalso. destruct a; simpl in E.
          -- destruct A as [|? [|? [|? A]]]; simpl in E; try discriminate; injection E; intros;
               try congruence; destruct A; discriminate.
          -- destruct A as [|? [|? A]]; simpl in E; try discriminate; injection E; intros;
               try congruence; destruct A; discriminate.
      + destruct (region_node_ineligible a f n Hn He) as [n' [E' [N1 N2]]].
        rewrite E' in E. destruct A as [|? [|]]; simpl in E; try discriminate.
        injection E; congruence.
    - destruct (IH _ _ E) as [x [n' [B' [H1 H2]]]]. exists x, n', B'. split; simpl; auto.
  Qed.
  Lemma regions_end_flat a f (ns : list N) : no_decisions ns ->
    forall A B, flat_map (region_subseq_node a f) ns = A ++ RegionEnd :: B ->
    (a = true /\ exists A' n n' B', In n ns /\ eligible f n = true /\ strip_node n' = [n] /\
       A = A' ++ [RegionStart] /\ B = n' :: RegionEnd :: B') \/
    exists n n' A', In n ns /\ eligible f n = true /\ strip_node n' = [n] /\ A = A' ++ [n'].
  Proof.
    induction 1 as [|n ns Hn HF IH]; intros A B E; simpl in E; [destruct A; discriminate|].
    apply app_split_cases in E as [[b1 [E ->]]|[a2 [E ->]]].
    - destruct (eligible f n) eqn:He.
      + destruct (region_node_eligible' a f n Hn He) as [n' [E' [S [N1 N2]]]].
        rewrite E' in E. destruct a; simpl in E.
        * destruct A as [|x0 [|x1 [|x2 [|x3 A]]]]; simpl in E; injection E; intros; subst;
            try discriminate; try congruence.
          -- left. split; auto. exists [], n, n', (flat_map (region_subseq_node true f) ns).
             splits; simpl; auto.
          -- right. exists n, x2, [RegionStart; RegionEnd]. splits; simpl; auto.
          -- destruct A; discriminate.
        * destruct A as [|x0 [|x1 [|x2 A]]]; simpl in E; injection E; intros; subst;
            try discriminate; try congruence.
          -- right. exists n, x1, [RegionStart]. splits; simpl; auto.
          -- destruct A; discriminate.
      + destruct (region_node_ineligible a f n Hn He) as [n' [E' [N1 N2]]].
        rewrite E' in E. destruct A as [|? [|]]; simpl in E; try discriminate.
        injection E; congruence.
    - destruct (IH _ _ E) as [[Ha [A' [x [n' [B' [H1 [H2 [H3 [-> HB]]]]]]]]]|[x [n' [A' [H1 [H2 [H3 ->]]]]]]].
      + left. split; auto. exists (region_subseq_node a f n ++ A'), x, n', B'.
        splits; simpl; auto. now rewrite app_assoc.
      + right. exists x, n', (region_subseq_node a f n ++ A'). splits; simpl; auto.
        now rewrite app_assoc.
  Qed.

  Lemma insert_regions_starts (ns : list N) a f A B : no_decisions ns ->
    insert_regions ns a f = A ++ RegionStart :: B ->
    (a = true /\ B = [RegionEnd]) \/
    exists n n' B', In n ns /\ eligible f n = true /\ strip_node n' = [n] /\
      B = (if a then [RegionEnd] else []) ++ n' :: RegionEnd :: B'.
  Proof.
    intros Hd E. unfold insert_regions in E.
    apply app_split_cases in E as [[b1 [E ->]]|[a2 [E ->]]].
    - right. destruct (regions_start_flat a f ns Hd _ _ E) as [n [n' [B' [H1 [H2 [H3 ->]]]]]].
      exists n, n', (B' ++ trailing a). splits; auto. rewrite <- app_assoc. reflexivity.
    - left. destruct a; simpl in E; [|destruct a2; discriminate].
      split; auto. destruct a2 as [|? [|? [|]]]; simpl in E; injection E; intros; subst; auto; discriminate.
  Qed.
  Lemma insert_regions_ends (ns : list N) a f A B : no_decisions ns ->
    insert_regions ns a f = A ++ RegionEnd :: B ->
    (a = true /\ exists A', A = A' ++ [RegionStart]) \/
    exists n n' A', In n ns /\ eligible f n = true /\ strip_node n' = [n] /\ A = A' ++ [n'].
  Proof.
    intros Hd E. unfold insert_regions in E.
    apply app_split_cases in E as [[b1 [E ->]]|[a2 [E ->]]].
    - destruct (regions_end_flat a f ns Hd _ _ E)
        as [[Ha [A' [_ [_ [_ [_ [_ [_ [-> _]]]]]]]]]|H]; [left; eauto|right; exact H].
    - left. destruct a; simpl in E; [|destruct a2; discriminate].
      split; auto. destruct a2 as [|? [|? [|]]]; simpl in E; injection E; intros; subst; try discriminate.
      eexists. reflexivity.
  Qed.
End WalkOrder.
