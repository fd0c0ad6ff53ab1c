(** What the groups, the HTML and the metrics of an edit path say. *)

From Coq Require Import String List Bool Arith ZArith Lia QArith Qcanon Sorting.Sorted.
From Verif Require Import Base Graph GatedDag Blocks SeqNodes PackedSeq PackedSeqProofs Numbered Decisions
  RegionDecisions RegionProofs Html EditDag EditScript EditSpec EditProofs EditTheorems EditReport.
Import ListNotations.
Close Scope Qc_scope. Close Scope Q_scope. Close Scope Z_scope. Open Scope nat_scope.

(** ** Grouping, once the texts are known. *)
(** A line: text, action, confidence, cost. *)
Definition line : Type := ((text * option action) * option (option conf)) * cost.
Definition l_text (x : line) : text := fst (fst (fst x)).
Definition l_action (x : line) : option action := snd (fst (fst x)).
Definition l_conf (x : line) : option (option conf) := snd (fst x).
Definition l_cost (x : line) : cost := snd x.

(** One edge with its text, or nothing. *)
Definition raw (tx : einfo -> text) (e : eedge) : option line :=
  match info e with
  | Some f => Some (tx f, Some (act f), Some (at_conf f), ecost e)
  | None => if eqb (ecost e) (Fin 0) then None else Some ([], None, None, ecost e)
  end.
(** Decorations follow the last action. *)
Definition retell (last : option action) (x : line) : option line :=
  match l_action x with
  | Some PrototypeDecoration => Some (l_text x, Some (if eqb last (Some Delete) then Delete else Keep), l_conf x, l_cost x)
  | Some TargetDecoration => if eqb last (Some Keep) then None else Some (l_text x, Some Insert, Some None, l_cost x)
  | _ => Some x
  end.
Definition remember (last : option action) (x : line) : option action :=
  match l_action x with None | Some StartLowConfidence | Some StartEditing => last | a => a end.
Fixpoint retold (last : option action) (l : list line) : list line :=
  match l with
  | [] => []
  | x :: l' => match retell last x with
               | Some y => y :: retold (remember last y) l'
               | None => retold last l'
               end
  end.
Fixpoint merge (a : option action) (c : option (option conf)) (parts : list text) (k : cost) (l : list line) : list group :=
  match l with
  | [] => flush a c parts k
  | x :: l' =>
      if negb (eqb (l_action x) a) || negb (eqb (l_conf x) c)
      then flush a c parts k ++ merge (l_action x) (l_conf x) [l_text x] (cadd (Fin 0) (l_cost x)) l'
      else merge a c (parts ++ [l_text x]) (cadd k (l_cost x)) l'
  end.
Fixpoint raws (tx : einfo -> text) (p : list eedge) : list line :=
  match p with
  | e :: p' => match raw tx e with Some x => x :: raws tx p' | None => raws tx p' end
  | [] => []
  end.
Section Merge.
  Context {M : Type} (S T : storage M).
  Definition told (tx : einfo -> text) (e : eedge) : Prop := match info e with Some f => content S T f = Ok (tx f) | None => True end.
  Lemma group_from_merge tx p : Forall (told tx) p -> forall a c parts k last,
    group_from S T a c parts k last p = Ok (merge a c parts k (retold last (raws tx p))).
  Proof.
    induction 1 as [|e p Ht Hp IH]; intros a c parts k last; [reflexivity|].
    cbn [group_from raws]. unfold told in Ht. unfold raw. destruct (info e) as [f|] eqn:Ef.
    - rewrite Ht. cbn [bind retold]. unfold retell. cbn [l_action l_text l_conf l_cost fst snd].
      destruct (act f) eqn:Ea; cbn [merge retold remember l_action l_text l_conf l_cost fst snd];
        try (match goal with |- (if ?b then _ else _) = _ => destruct b end; rewrite ?IH; reflexivity).
      + destruct (eqb last (Some Delete)); (match goal with |- (if ?b then _ else _) = _ => destruct b end; rewrite ?IH; reflexivity).
      + destruct (eqb last (Some Keep)); [apply IH|]. cbn [merge retold remember l_action l_text l_conf l_cost fst snd].
        match goal with |- (if ?b then _ else _) = _ => destruct b end; rewrite ?IH; reflexivity.
    - destruct (eqb (ecost e) (Fin 0)); cbn [negb]; [apply IH|]. cbn [retold retell l_action l_text l_conf l_cost fst snd merge remember].
      match goal with |- (if ?b then _ else _) = _ => destruct b end; rewrite ?IH; reflexivity.
  Qed.
End Merge.
Definition g_costs (gs : list group) : cost := csum (map g_cost gs).
Lemma flush_cost a c parts k : g_costs (flush a c parts k) = k.
Proof.
  unfold flush, g_costs. destruct (negb (eqb a None)) eqn:E1; cbn [orb].
  - cbn. apply cadd_0_r.
  - destruct (eqb k (Fin 0)) eqn:E2; cbn; [|apply cadd_0_r]. apply eqb_eq in E2. now subst.
Qed.
Lemma g_costs_app a b : g_costs (a ++ b) = cadd (g_costs a) (g_costs b).
Proof. unfold g_costs. now rewrite map_app, csum_app. Qed.
Lemma merge_cost l : forall a c parts k, g_costs (merge a c parts k l) = cadd k (csum (map l_cost l)).
Proof.
  induction l as [|x l IH]; intros a c parts k; cbn [merge map csum fold_right].
  - rewrite flush_cost. symmetry. apply cadd_0_r.
  - fold (csum (map l_cost l)).
    match goal with |- context [if ?b then _ else _] => destruct b end.
    + rewrite g_costs_app, flush_cost, IH, cadd_0_l. reflexivity.
    + rewrite IH. symmetry. apply cadd_assoc.
Qed.
(** The texts of the groups with certain actions. *)
Definition picked (f : action -> bool) (a : option action) : bool := match a with Some a => f a | None => false end.
Definition g_texts (f : action -> bool) (gs : list group) : text :=
  concat (map g_text (filter (fun g => picked f (g_action g)) gs)).
Definition l_texts (f : action -> bool) (l : list line) : text :=
  concat (map l_text (filter (fun x => picked f (l_action x)) l)).
Lemma g_texts_app f a b : g_texts f (a ++ b) = g_texts f a ++ g_texts f b.
Proof. unfold g_texts. now rewrite filter_app, map_app, concat_app. Qed.
Lemma flush_texts f a c parts k : g_texts f (flush a c parts k) = if picked f a then concat parts else [].
Proof.
  unfold flush. destruct a as [a|]; cbn [picked].
  - replace (eqb (Some a) None) with false by (symmetry; now apply neq_eqb). cbn [negb orb].
    unfold g_texts. cbn. destruct (f a); cbn; auto. apply app_nil_r.
  - rewrite eqb_refl. cbn [negb orb]. destruct (negb (eqb k (Fin 0))); reflexivity.
Qed.
Lemma merge_texts f l : forall a c parts k,
  g_texts f (merge a c parts k l) = (if picked f a then concat parts else []) ++ l_texts f l.
Proof.
  induction l as [|x l IH]; intros a c parts k; cbn [merge].
  - rewrite flush_texts. unfold l_texts. cbn. now rewrite app_nil_r.
  - unfold l_texts. cbn [filter]. destruct (eqb (l_action x) a) eqn:Ea, (eqb (l_conf x) c) eqn:Ec; cbn [negb orb];
      rewrite ?g_texts_app, ?flush_texts, IH; unfold l_texts; try apply eqb_eq in Ea;
      (destruct (picked f (l_action x)) eqn:Ex; cbn [map concat]; rewrite ?Ea in *; rewrite ?Ex); cbn [concat app];
      rewrite ?concat_app; cbn [concat]; rewrite ?app_nil_r, <- ?app_assoc; auto.
Qed.
(** Neighbouring groups differ. *)
Definition g_key (g : group) : option action * option (option conf) := (g_action g, g_conf g).
Fixpoint differ (gs : list group) : Prop :=
  match gs with
  | g :: ((h :: _) as gs') => g_key g <> g_key h /\ differ gs'
  | _ => True
  end.
Lemma merge_differ l : Forall (fun x => l_action x <> None) l -> forall a c parts k,
  (a <> None \/ (k = Fin 0)) ->
  differ (merge a c parts k l) /\
  match merge a c parts k l with g :: _ => a <> None -> g_key g = (a, c) | [] => True end.
Proof.
  induction 1 as [|x l Hx Hl IH]; intros a c parts k Ha; cbn [merge].
  - unfold flush. destruct (negb (eqb a None) || negb (eqb k (Fin 0))); cbn; auto.
  - destruct (negb (eqb (l_action x) a) || negb (eqb (l_conf x) c)) eqn:E.
    + destruct (IH (l_action x) (l_conf x) [l_text x] (cadd (Fin 0) (l_cost x)) (or_introl Hx)) as [D Hd].
      unfold flush. destruct a as [a|].
      * replace (eqb (Some a) None) with false by (symmetry; now apply neq_eqb). cbn [negb orb app].
        destruct (merge (l_action x) (l_conf x) [l_text x] (cadd (Fin 0) (l_cost x)) l) as [|g gs]; [split; cbn; auto|].
        split; [|reflexivity]. split; auto. rewrite (Hd Hx). intros C. injection C as C1 C2. rewrite <- C1, <- C2, !eqb_refl in E. discriminate.
      * destruct Ha as [Ha| ->]; [now destruct Ha|]. rewrite !eqb_refl. cbn [negb orb app]. split; auto.
        destruct (merge (l_action x) (l_conf x) [l_text x] (cadd (Fin 0) (l_cost x)) l); auto. intros C. now destruct C.
    + apply IH. apply orb_false_elim in E as [E _]. apply negb_false_iff, eqb_eq in E. left. congruence.
Qed.

(** ** Decorations. *)
Lemma retold_cost l : Forall (fun x => l_action x = Some TargetDecoration -> l_cost x = Fin 0) l -> forall last,
  csum (map l_cost (retold last l)) = csum (map l_cost l).
Proof.
  induction 1 as [|x l Hx Hl IH]; intros last; [reflexivity|]. cbn [retold map csum fold_right]. fold (csum (map l_cost l)).
  unfold retell. destruct (l_action x) as [a|] eqn:Ea.
  - destruct a; try (cbn [map csum fold_right l_cost snd]; fold (csum (map l_cost l)); rewrite <- (IH (remember last x)); reflexivity).
    + cbn [map]. unfold csum at 1. cbn [fold_right]. f_equal. apply IH.
    + destruct (eqb last (Some Keep)).
      * rewrite (Hx eq_refl), cadd_0_l. apply IH.
      * cbn [map]. unfold csum at 1. cbn [fold_right]. f_equal. apply IH.
  - cbn [map]. unfold csum at 1. cbn [fold_right]. f_equal. apply IH.
Qed.
Definition on_prototype (a : action) : bool := match a with Keep | Delete | PrototypeDecoration => true | _ => false end.
Definition stays_or_goes (a : action) : bool := match a with Keep | Delete => true | _ => false end.
Lemma l_texts_cons f x l : l_texts f (x :: l) = (if picked f (l_action x) then l_text x else []) ++ l_texts f l.
Proof. unfold l_texts. cbn [filter]. now destruct (picked f (l_action x)). Qed.
Lemma retold_prototype l : forall last, l_texts stays_or_goes (retold last l) = l_texts on_prototype l.
Proof.
  induction l as [|x l IH]; intros last; [reflexivity|]. cbn [retold]. rewrite (l_texts_cons on_prototype). unfold retell.
  destruct (l_action x) as [a|] eqn:Ea.
  - destruct a; try (rewrite l_texts_cons, IH, ?Ea; cbn; reflexivity).
    + rewrite l_texts_cons, IH. cbn [l_action l_text fst snd picked]. now destruct (eqb last (Some Delete)).
    + destruct (eqb last (Some Keep)); [apply IH|]. rewrite l_texts_cons, IH. reflexivity.
  - rewrite l_texts_cons, IH, Ea. reflexivity.
Qed.
(** The text of a group of kind [a]: the nodes reported with that action, and
    possibly decorations. *)
Definition side_of (a b : action) : bool :=
  match a, b with
  | (Keep | Delete), PrototypeDecoration => true
  | Insert, TargetDecoration => true
  | _, _ => false
  end.
Inductive spelled (a : action) : list line -> text -> Prop :=
| sp_nil : spelled a [] []
| sp_here x l t : l_action x = Some a -> spelled a l t -> spelled a (x :: l) (l_text x ++ t)
| sp_deco x b l t : l_action x = Some b -> side_of a b = true -> spelled a l t -> spelled a (x :: l) (l_text x ++ t)
| sp_other x l t : l_action x <> Some a -> spelled a l t -> spelled a (x :: l) t.
Definition is (a b : action) : bool := eqb a b.
Lemma retold_spelled a l : a = Keep \/ a = Delete \/ a = Insert -> forall last, spelled a l (l_texts (is a) (retold last l)).
Proof.
  intros Ha. induction l as [|x l IH]; intros last; [constructor|]. cbn [retold]. unfold retell.
  destruct (l_action x) as [b|] eqn:Eb.
  - assert (G : forall last', b <> PrototypeDecoration -> b <> TargetDecoration -> spelled a (x :: l) (l_texts (is a) (x :: retold last' l))).
    { intros last' N1 N2. rewrite l_texts_cons, Eb. cbn [picked]. unfold is at 1. destruct (eqb a b) eqn:E.
      - apply eqb_eq in E. subst b. now apply sp_here.
      - cbn [app]. apply sp_other; auto. intros C. rewrite Eb in C. injection C as ->. rewrite eqb_refl in E. discriminate. }
    destruct b; try (apply G; discriminate).
    + rewrite l_texts_cons. cbn [l_action l_text fst snd picked].
      destruct Ha as [->|[->| ->]]; destruct (eqb last (Some Delete)); cbn;
        first [solve [apply (sp_deco _ _ PrototypeDecoration); auto]|solve [apply sp_other; [rewrite Eb; discriminate|auto]]].
    + destruct (eqb last (Some Keep)); [apply sp_other; [rewrite Eb; destruct Ha as [->|[->| ->]]; discriminate|auto]|].
      rewrite l_texts_cons. cbn [l_action l_text fst snd picked].
      destruct Ha as [->|[->| ->]]; cbn;
        first [solve [apply (sp_deco _ _ TargetDecoration); auto]|solve [apply sp_other; [rewrite Eb; discriminate|auto]]].
  - rewrite l_texts_cons, Eb. cbn [picked app]. apply sp_other; auto. rewrite Eb. discriminate.
Qed.

(** The same, in terms of what the edges report. *)
Inductive spells (a : action) (tx : einfo -> text) : list (option einfo) -> text -> Prop :=
| ss_nil : spells a tx [] []
| ss_here f l t : act f = a -> spells a tx l t -> spells a tx (Some f :: l) (tx f ++ t)
| ss_deco f l t : side_of a (act f) = true -> spells a tx l t -> spells a tx (Some f :: l) (tx f ++ t)
| ss_other x l t : (forall f, x = Some f -> act f <> a) -> spells a tx l t -> spells a tx (x :: l) t.
Lemma spelled_spells a tx (p : list eedge) : forall t, spelled a (raws tx p) t -> spells a tx (map info p) t.
Proof.
  induction p as [|e p IH]; intros t H; cbn [raws map] in *; [inversion H; constructor|].
  unfold raw in H. destruct (info e) as [f|].
  - inversion H as [|x l t' Hx Hs|x b l t' Hx Hb Hs|x l t' Hx Hs]; subst; cbn in Hx.
    + injection Hx as Hx. apply ss_here; auto.
    + injection Hx as <-. apply ss_deco; auto.
    + apply ss_other; auto. intros f0 E. injection E as <-. congruence.
  - destruct (eqb (ecost e) (Fin 0)); [apply ss_other; auto; discriminate|].
    inversion H as [|x l t' Hx Hs|x b l t' Hx Hb Hs|x l t' Hx Hs]; subst; cbn in Hx; try discriminate.
    apply ss_other; auto. discriminate.
Qed.

(** ** The texts of nodes. *)
Section Texts.
  Context {M : Type} {md : EqDec M} (P : parameters).
  Notation L := (lnode M).
  Definition text_at (tree : list L) (i : nat) : text :=
    match find (fun x => number x =? i) (flat_map nodes tree) with Some x => ltext x | None => [] end.
  Definition info_text (tree ttree : list L) (f : einfo) : text :=
    match proto_node f with
    | Some i => text_at tree i
    | None => match target_node f with Some j => text_at ttree j | None => [] end
    end.
  Lemma find_sorted (l : list L) : StronglySorted (fun x y => number x < number y) l -> forall x, In x l ->
    find (fun y => number y =? number x) l = Some x.
  Proof.
    induction 1 as [|y l S IH F]; intros x []; cbn [find].
    - subst y. now rewrite Nat.eqb_refl.
    - rewrite Forall_forall in F. specialize (F x H). rewrite (proj2 (Nat.eqb_neq _ _)) by lia. auto.
  Qed.
  Lemma text_at_node (ns : list (node M)) x : In x (flat_map nodes (labelled ns)) -> text_at (labelled ns) (number x) = ltext x.
  Proof. intros H. unfold text_at. rewrite (find_sorted _ (nodes_sorted _ 0 (labelled_numbered ns)) x H). reflexivity. Qed.
  Definition leaf (x : L) : Prop := forall i cs m, x <> LGroup i cs m.
  Lemma content_node (ns : list (node M)) x : In x (flat_map nodes (labelled ns)) -> leaf x ->
    (do y <- lookup (preorder_traversal (pack ns)) (Some (number x)); render_id (fuel_of (pack ns)) (pack ns) y) = Ok (text_at (labelled ns) (number x)).
  Proof.
    intros Hx Hl. rewrite (text_at_node ns x Hx).
    assert (E : preorder_traversal (pack ns) = map label (flat_map nodes (labelled ns))) by now rewrite nodes_pres, pack_labelled.
    assert (N : nth_error (map label (flat_map nodes (labelled ns))) (number x) = Some (label x)).
    { apply In_nth_error in Hx as [k Hk]. pose proof (pre_of_seqs ns 0 0 0 0) as Hs. rewrite <- nodes_pres in Hs.
      fold (labelled ns) in Hs. assert (Hk' : nth_error (map pre (map label (flat_map nodes (labelled ns)))) k = Some (number x))
        by (rewrite map_map; exact (map_nth_error _ _ _ Hk)).
      rewrite Hs in Hk'.
      assert (Hlt : k < list_sum (map size ns)) by (rewrite <- (seq_length (list_sum (map size ns)) 0); apply nth_error_Some; congruence).
      rewrite (nth_error_nth' _ 0) in Hk' by (now rewrite seq_length). rewrite seq_nth in Hk' by auto. injection Hk' as Hk'. cbn in Hk'. subst k.
      exact (map_nth_error _ _ _ Hk). }
    unfold lookup. rewrite E, N. cbn [bind].
    assert (Hp : placed (pack ns) x).
    { apply in_flat_map in Hx as [c [Hc Hx]]. pose proof (pack_placed ns) as F. rewrite Forall_forall in F.
      pose proof (nodes_placed _ _ (F c Hc)) as G. rewrite Forall_forall in G. auto. }
    unfold fuel_of. rewrite (render_placed (pack ns) x _ Hp).
    - destruct x as [i t|i t m|i|i|i|i cs m]; try reflexivity. now destruct (Hl i cs m).
    - destruct x as [i t|i t m|i|i|i|i cs m]; try (cbn; lia). now destruct (Hl i cs m).
  Qed.

  (** What every step reports. *)
  Definition honest (A B : list L) (e : effect) : Prop :=
    match snd e with
    | None => fst (fst e) = Fin 0
    | Some f =>
        match act f with
        | Keep | Delete | PrototypeDecoration => exists x, In x A /\ leaf x /\ proto_node f = Some (number x)
        | Insert | TargetDecoration =>
            (exists y, In y B /\ leaf y /\ proto_node f = None /\ target_node f = Some (number y)) /\
            (act f = TargetDecoration -> fst (fst e) = Fin 0)
        | StartLowConfidence | ActEarlyExit => exists x, In x A /\ leaf x /\ text_in x = None /\ proto_node f = Some (number x)
        | StartEditing => proto_node f = None /\ target_node f = None
        end
    end.
  Lemma leaf_deco i t : leaf (LDeco i t). Proof. discriminate. Qed.
  Lemma quiet_honest A B c (x : L) e c' : quiet P c x e c' -> In x A -> honest A B e.
  Proof.
    intros H Hx; destruct H; cbn; auto.
    - exists (LDeco p t). splits; auto. discriminate.
    - exists (LStart p). splits; auto. discriminate.
  Qed.
  Lemma nodes_here (x : L) : In x (nodes x).
  Proof. destruct x; now left. Qed.
  Lemma incl_cons_nodes (x : L) l A : incl (flat_map nodes (x :: l)) A -> In x A /\ incl (flat_map nodes l) A.
  Proof.
    intros H. split; [apply H; cbn; apply in_or_app; left; apply nodes_here|].
    intros y Hy. apply H. cbn. apply in_or_app. now right.
  Qed.
  Lemma incl_kids i (cs : list L) m l A : incl (flat_map nodes (LGroup i cs m :: l)) A -> incl (flat_map nodes cs) A.
  Proof. intros H y Hy. apply H. cbn. right. apply in_or_app. now left. Qed.
  Lemma dels_honest A B c (l : list L) tr r : dels P c l tr r -> incl (flat_map nodes l) A -> Forall (honest A B) tr.
  Proof.
    induction 1 as [c|c x e c' l tr r Hq Hd IH|c p l|c p t m l tr r Hd IH|c p cs m l tr c' tr' r Hd IH Hd' IH'|c p cs m l tr Hd IH]; intros HA;
      [constructor|..]; pose proof (incl_cons_nodes _ _ _ HA) as [Hx HA'].
    - constructor; auto. eapply quiet_honest; eauto.
    - constructor; [|constructor]. cbn. exists (LExit p). splits; auto. discriminate.
    - constructor; auto. cbn. exists (LToken p t m). splits; auto. discriminate.
    - constructor; [reflexivity|]. apply incl_kids in HA. apply Forall_app. split; auto. constructor; auto. reflexivity.
    - constructor; [reflexivity|]. apply incl_kids in HA. auto.
  Qed.
  Lemma inserts_honest A B c (l : list L) tr : inserts P c l tr -> incl (flat_map nodes l) B -> Forall (honest A B) tr.
  Proof.
    induction 1 as [c|c p t l tr Hd IH|c p t m l tr Hd IH|c p ds m l tr tr' Hd IH Hd' IH']; intros HB;
      [constructor|..]; pose proof (incl_cons_nodes _ _ _ HB) as [Hx HB'].
    - constructor; auto. cbn. split; auto. exists (LDeco p t). splits; auto. discriminate.
    - constructor; auto. cbn. split; [|discriminate]. exists (LToken p t m). splits; auto. discriminate.
    - constructor; [reflexivity|]. apply incl_kids in HB. apply Forall_app. split; auto. constructor; auto. reflexivity.
  Qed.
  Lemma sc_honest A B a c (ps ts : list L) tr r : sc P a c ps ts tr r -> incl (flat_map nodes ps) A -> incl (flat_map nodes ts) B ->
    Forall (honest A B) tr.
  Proof.
    induction 1; intros HA HB;
      try (match type of HA with incl (flat_map nodes (_ :: _)) _ => pose proof (incl_cons_nodes _ _ _ HA) as [Hx HA'] end);
      try (match type of HB with incl (flat_map nodes (_ :: _)) _ => pose proof (incl_cons_nodes _ _ _ HB) as [Hy HB'] end).
    - constructor.
    - constructor; auto. eapply quiet_honest; eauto.
    - constructor; [|constructor]. cbn. exists (LExit p). splits; auto. discriminate.
    - constructor; auto. cbn. auto.
    - constructor; auto. reflexivity.
    - constructor; auto. cbn. exists (LToken p t m). splits; auto. discriminate.
    - constructor; [reflexivity|]. apply incl_kids in HA. apply Forall_app. split; [eapply dels_honest; eauto|]. constructor; auto. reflexivity.
    - constructor; [reflexivity|]. apply incl_kids in HA. eapply dels_honest; eauto.
    - constructor; auto. reflexivity.
    - constructor; auto. cbn. split; auto. exists (LDeco p t). splits; auto. discriminate.
    - constructor; auto. cbn. split; [|discriminate]. exists (LToken p t m). splits; auto. discriminate.
    - constructor; [reflexivity|]. apply incl_kids in HB. apply Forall_app. split; [eapply inserts_honest; eauto|]. constructor; auto. reflexivity.
    - constructor; auto. reflexivity.
    - constructor; auto. cbn. exists (LToken p t m). splits; auto. discriminate.
    - constructor; [reflexivity|]. apply incl_kids in HA, HB. apply Forall_app. split; auto. constructor; auto. reflexivity.
    - constructor; [reflexivity|]. apply incl_kids in HA, HB. auto.
  Qed.

  Theorem path_honest (ns ts : list (node M)) d p : construct_edit_dag P (pack ns) (pack ts) = Ok d -> complete_path d p ->
    Forall (honest (flat_map nodes (labelled ns)) (flat_map nodes (labelled ts))) (effects p).
  Proof.
    intros Hd Hp. rewrite construct_edit_ok in Hd. injection Hd as <-. unfold complete_path in Hp. cbn [edges initial_state final_state] in Hp.
    apply EditView.path_script in Hp as [Hs|[tr [E Hs]]]; try apply labelled_numbered.
    - eapply sc_honest; [exact Hs|intros x; auto|intros x; auto].
    - rewrite E. apply Forall_app. split; [eapply sc_honest; [exact Hs|intros x; auto|intros x; auto]|]. repeat constructor.
  Qed.
  Section Path.
    Context (ns ts : list (node M)) (p : list eedge).
    Hypothesis H : Forall (honest (flat_map nodes (labelled ns)) (flat_map nodes (labelled ts))) (effects p).
    Let tx := info_text (labelled ns) (labelled ts).
    Lemma path_told : Forall (told (pack ns) (pack ts) tx) p.
    Proof.
      unfold effects in H. rewrite Forall_map in H. eapply Forall_impl; [|exact H]. intros e He. unfold told, honest, tx, info_text, content in *.
      cbn [effect_of snd fst] in He. destruct (info e) as [f|]; auto.
      destruct (act f).
      - destruct He as [x [Hx [Hl ->]]]. now apply content_node.
      - destruct He as [x [Hx [Hl ->]]]. now apply content_node.
      - destruct He as [[y [Hy [Hl [-> ->]]]] _]. now apply content_node.
      - destruct He as [x [Hx [Hl ->]]]. now apply content_node.
      - destruct He as [[y [Hy [Hl [-> ->]]]] _]. now apply content_node.
      - destruct He as [x [Hx [Hl [_ ->]]]]. now apply content_node.
      - destruct He as [-> ->]. reflexivity.
      - destruct He as [x [Hx [Hl [_ ->]]]]. now apply content_node.
    Qed.
    Lemma groups_ok : group_edit_sequence p (pack ns) (pack ts) = Ok (merge None None [] (Fin 0) (retold None (raws tx p))).
    Proof. apply group_from_merge, path_told. Qed.
    Lemma raws_cost : csum (map l_cost (raws tx p)) = path_cost p.
    Proof.
      clear H. unfold path_cost. induction p as [|e q IH]; auto. cbn [raws map]. unfold raw. unfold csum at 2. cbn [fold_right]. fold (csum (map ecost q)).
      destruct (info e) as [f|].
      - cbn [map]. unfold csum at 1. cbn [fold_right]. fold (csum (map l_cost (raws tx q))). now rewrite IH.
      - destruct (eqb (ecost e) (Fin 0)) eqn:E.
        + apply eqb_eq in E. rewrite E, cadd_0_l. exact IH.
        + cbn [map]. unfold csum at 1. cbn [fold_right]. fold (csum (map l_cost (raws tx q))). now rewrite IH.
    Qed.
    Lemma raws_plain : Forall (fun x => l_action x <> None /\ (l_action x = Some TargetDecoration -> l_cost x = Fin 0)) (raws tx p).
    Proof.
      induction p as [|e q IH]; [constructor|]. cbn [raws]. inversion H as [|? ? He Hq]; subst. specialize (IH Hq). unfold raw.
      unfold honest in He. cbn [effect_of snd fst] in He. destruct (info e) as [f|].
      - constructor; auto. cbn [l_action l_cost fst snd]. split; [discriminate|]. intros E. injection E as E. rewrite E in He. now apply He.
      - rewrite He, eqb_refl. exact IH.
    Qed.
    Lemma groups_total gs : group_edit_sequence p (pack ns) (pack ts) = Ok gs -> g_costs gs = path_cost p.
    Proof.
      rewrite groups_ok. intros E. injection E as <-. rewrite merge_cost, cadd_0_l, retold_cost, raws_cost; auto.
      eapply Forall_impl; [|exact raws_plain]. cbn. tauto.
    Qed.
    Lemma groups_differ gs : group_edit_sequence p (pack ns) (pack ts) = Ok gs -> differ gs.
    Proof.
      rewrite groups_ok. intros E. injection E as <-. apply merge_differ; auto.
      assert (G : forall l, Forall (fun x => l_action x <> None /\ (l_action x = Some TargetDecoration -> l_cost x = Fin 0)) l ->
        forall last, Forall (fun x => l_action x <> None) (retold last l)); [|apply G, raws_plain].
      clear. induction l as [|x l IH]; intros F last; [constructor|].
      inversion F as [|? ? [F1 _] F2]; subst. cbn [retold]. unfold retell. destruct (l_action x) as [a|] eqn:Ea; [|now destruct F1].
      destruct a; try (constructor; [rewrite ?Ea; discriminate|auto]). destruct (eqb last (Some Keep)); auto. constructor; [discriminate|auto].
    Qed.
    Lemma groups_spell gs a : group_edit_sequence p (pack ns) (pack ts) = Ok gs -> a = Keep \/ a = Delete \/ a = Insert ->
      spells a tx (map info p) (g_texts (is a) gs).
    Proof.
      rewrite groups_ok. intros E Ha. injection E as <-. rewrite merge_texts. cbn [picked app]. apply spelled_spells. now apply retold_spelled.
    Qed.
    Lemma groups_prototype gs : group_edit_sequence p (pack ns) (pack ts) = Ok gs ->
      g_texts stays_or_goes gs = concat (map (text_at (labelled ns)) (prototype_side (map info p))).
    Proof.
      rewrite groups_ok. intros E. injection E as <-. rewrite merge_texts. cbn [picked app]. rewrite retold_prototype.
      induction p as [|e q IH]; [reflexivity|]. inversion H as [|? ? He Hq]; subst. specialize (IH Hq). cbn [raws map].
      change (info e :: map info q) with ([info e] ++ map info q). rewrite psides_app, map_app, concat_app, <- IH.
      unfold raw. unfold honest in He. cbn [effect_of snd fst] in He. destruct (info e) as [f|].
      - rewrite l_texts_cons. f_equal. cbn [l_action l_text fst snd picked]. unfold tx, info_text. cbn. rewrite app_nil_r.
        destruct (act f) eqn:Ea; cbn [on_prototype]; try reflexivity;
          try (destruct He as [x [Hx [Hl ->]]]; cbn; now rewrite app_nil_r).
      - rewrite He, eqb_refl. reflexivity.
    Qed.
  End Path.
  Lemma text_nodes_nodes (x : L) : text_nodes x = map number (filter (fun y => if text_in y then true else false) (nodes x)).
  Proof.
    induction x as [i t|i t m|i|i|i|i cs m IH] using lnode_ind'; try reflexivity.
    cbn [text_nodes nodes filter text_in]. induction IH as [|c l Hc HF IHl]; auto. cbn [flat_map]. rewrite filter_app, map_app, Hc. f_equal. exact IHl.
  Qed.
  Lemma text_nodes_render (ns : list (node M)) :
    concat (map (text_at (labelled ns)) (flat_map text_nodes (labelled ns))) = render ns.
  Proof.
    rewrite <- nodes_render. unfold texts.
    replace (flat_map text_nodes (labelled ns)) with (map number (filter (fun y => if text_in y then true else false) (flat_map nodes (labelled ns)))).
    - rewrite map_map.
      assert (G : forall l, incl l (flat_map nodes (labelled ns)) ->
        concat (map (fun x => text_at (labelled ns) (number x)) (filter (fun y => if text_in y then true else false) l)) = concat (map ltext l)).
      { induction l as [|x l IH]; intros Hi; auto. cbn [filter]. rewrite map_cons. cbn [concat].
        assert (Hl : incl l (flat_map nodes (labelled ns))) by (intros y Hy; apply Hi; now right).
        specialize (IH Hl). destruct (text_in x) eqn:Et.
        - cbn [map concat]. rewrite text_at_node by (apply Hi; now left). now rewrite IH.
        - unfold ltext at 1. rewrite Et. exact IH. }
      apply G. intros x; auto.
    - generalize (labelled ns). intros l. induction l as [|x l IH]; auto. cbn [flat_map]. now rewrite filter_app, map_app, IH, text_nodes_nodes.
  Qed.
End Texts.

(** ** HTML. *)
Definition edit_root_span : text := chars "span class=""edit_sequence_root""".
Definition prefix_span : text := chars "span class=""prefix""".
Definition class_span (names : list text) : text := chars "span class=""" ++ joined names ++ chars """".
Definition shown_text (marker : text) (g : group) : text := if eqb (g_action g) (Some StartEditing) then marker else g_text g.
(** The class names say what the group is. *)
Definition describes (g : group) (names : list text) : Prop :=
  (In (chars "keep") names <-> g_action g = Some Keep) /\
  (In (chars "delete") names <-> g_action g = Some Delete) /\
  (In (chars "insert") names <-> g_action g = Some Insert) /\
  (In (chars "start_editing") names <-> g_action g = Some StartEditing) /\
  (In (chars "high_confidence") names <-> g_conf g = Some (Some High)) /\
  (In (chars "low_confidence") names <-> g_conf g = Some (Some Low)).
Lemma class_names_describe last g : describes g (class_names last (g_action g) (g_conf g)).
Proof.
  unfold describes.
  destruct (g_action g) as [[]|], last as [[[]|]|], (g_conf g) as [[[]|]|]; cbn [class_names app]; splits;
    (split; [intros X; cbn in X; repeat (destruct X as [X|X]; [discriminate X || reflexivity|]); now destruct X
            |intros X; first [discriminate X|cbn; tauto]]).
Qed.
Lemma class_names_plain last a c : Forall (Forall (fun c => c <> 60 /\ c <> 62)) (class_names last a c).
Proof.
  destruct a as [[]|], last as [[[]|]|], c as [[[]|]|]; cbn [class_names app];
    repeat (apply Forall_cons; [plain_tag|]); apply Forall_nil.
Qed.
Lemma joined_plain l : Forall (Forall (fun c => c <> 60 /\ c <> 62)) l -> Forall (fun c => c <> 60 /\ c <> 62) (joined l).
Proof.
  induction 1 as [|x l Hx Hl IH]; [constructor|]. cbn [joined]. destruct l; auto. apply Forall_app. split; auto. cbn [app]. constructor; auto. split; discriminate.
Qed.
Lemma opening_class n : opening (class_span n) = true.
Proof. reflexivity. Qed.
Lemma closing_class n : closing (class_span n) = false.
Proof. unfold closing, class_span. apply neq_eqb. cbn. discriminate. Qed.
Lemma edit_parts_read marker gs : forall last stack rest r,
  (exists l, read InText rest = Some l /\ nested stack l = Some r) ->
  exists names, Forall2 describes gs names /\
    exists i, read InText (edit_parts marker last gs ++ rest) = Some i /\
      nested stack i = Some (flat_map (fun x => under (class_span (snd x) :: stack) (shown_text marker (fst x))) (combine gs names) ++ r).
Proof.
  induction gs as [|g gs IH]; intros last stack rest r Hr.
  - exists []. split; [constructor|]. exact Hr.
  - assert (G : forall t, shown_text marker g = t -> exists names, Forall2 describes (g :: gs) names /\
      exists i, read InText ((chars "<span class=""" ++ joined (class_names last (g_action g) (g_conf g)) ++ chars """>" ++
          escape t ++ chars "</span>" ++ edit_parts marker (g_conf g) gs) ++ rest) = Some i /\
        nested stack i = Some (flat_map (fun x => under (class_span (snd x) :: stack) (shown_text marker (fst x))) (combine (g :: gs) names) ++ r)).
    { intros t Et. destruct (IH (g_conf g) stack rest r Hr) as [names [D N]].
      exists (class_names last (g_action g) (g_conf g) :: names). split; [constructor; auto; apply class_names_describe|].
      set (ns := class_names last (g_action g) (g_conf g)).
      replace ((chars "<span class=""" ++ joined ns ++ chars """>" ++ escape t ++ chars "</span>" ++ edit_parts marker (g_conf g) gs) ++ rest)
        with (tag (class_span ns) ++ (escape t ++ (tag (chars "/span") ++ (edit_parts marker (g_conf g) gs ++ rest)))).
      2: { unfold tag, class_span. cbn [app]. rewrite <- !app_assoc. reflexivity. }
      apply read_nested_tag; [unfold class_span; apply Forall_app; split; [plain_tag|apply Forall_app; split; [apply joined_plain, class_names_plain|plain_tag]]|].
      rewrite closing_class, opening_class. cbn [combine flat_map fst snd]. rewrite Et, <- app_assoc.
      apply read_nested_text. apply read_nested_tag; [plain_tag|]. exact N. }
    cbn [edit_parts]. unfold shown_text in G. destruct (eqb (g_action g) (Some StartEditing)) eqn:Es; [now apply G|].
    destruct (g_text g) as [|ch t] eqn:Et; [|now apply G].
    destruct (IH last stack rest r Hr) as [names [D N]]. exists (class_names None (g_action g) (g_conf g) :: names).
    split; [constructor; auto; apply class_names_describe|]. cbn [combine flat_map fst snd]. unfold shown_text at 1. rewrite Es, Et. exact N.
Qed.
Theorem edit_html {M St} (prototype target : storage M) (p : list (edge St decision (option einfo))) prefix marker style gs :
  group_edit_sequence p prototype target = Ok gs ->
  exists body names, extract_edit_sequence_html p prototype target prefix marker style = Ok ((if eqb style [] then edit_style else style) ++ body) /\
    Forall2 describes gs names /\
    document body = Some (under [prefix_span; edit_root_span] prefix ++
      flat_map (fun x => under [class_span (snd x); edit_root_span] (shown_text marker (fst x))) (combine gs names)).
Proof.
  intros E. unfold extract_edit_sequence_html. rewrite E. cbn [bind].
  destruct (edit_parts_read marker gs (Some None) [edit_root_span] (chars "</span>") []) as [names [D [i [R1 R2]]]].
  { eexists. split; reflexivity. }
  eexists. exists names. split; [|split; [exact D|]].
  - f_equal. f_equal. destruct style as [|ch style]; [reflexivity|]. symmetry. replace (eqb (ch :: style) []) with false by (symmetry; now apply neq_eqb). reflexivity.
  - unfold document.
    destruct (read_nested_tag edit_root_span [] (tag prefix_span ++ (escape prefix ++ (tag (chars "/span") ++ (edit_parts marker (Some None) gs ++ chars "</span>"))))
       (under [prefix_span; edit_root_span] prefix ++
        flat_map (fun x => under [class_span (snd x); edit_root_span] (shown_text marker (fst x))) (combine gs names))) as [j [J1 J2]]; [plain_tag| |].
    + cbn [closing opening]. apply (read_nested_tag prefix_span); [plain_tag|]. cbn [closing opening].
      apply read_nested_text. apply (read_nested_tag (chars "/span")); [plain_tag|]. exists i. split; [exact R1|]. rewrite app_nil_r in R2. exact R2.
    + match goal with |- match read InText ?x with _ => _ end = _ => change x with (tag edit_root_span ++ (tag prefix_span ++ (escape prefix ++ (tag (chars "/span") ++ (edit_parts marker (Some None) gs ++ chars "</span>"))))) end.
      now rewrite J1.
Qed.

(** ** Metrics. *)
Definition value (n : text) (d : list (text * cost)) : cost := match assoc n d with Some v => v | None => Fin 0 end.
Lemma assoc_increase n name k d : assoc n (increase name k d) = if eqb n name then Some (cadd (value name d) k) else assoc n d.
Proof.
  unfold value. induction d as [|[n' v] d IH]; cbn [increase assoc].
  - destruct (eqb n name) eqn:E; auto.
  - destruct (eqb n' name) eqn:E1.
    + apply eqb_eq in E1. subst n'. cbn [assoc]. rewrite (eqb_refl name). destruct (eqb n name) eqn:E; auto.
    + cbn [assoc]. rewrite IH. destruct (eqb n n') eqn:E2.
      * apply eqb_eq in E2. subst n'. rewrite E1. reflexivity.
      * destruct (eqb n name) eqn:E; auto. destruct (eqb name n') eqn:E3; auto. apply eqb_eq in E3. subst. rewrite eqb_refl in E1. discriminate.
Qed.
Inductive quantity := QCost | QChars | QEdges.
Definition quantity_name (w : quantity) : string := match w with QCost => "cost" | QChars => "chars" | QEdges => "edges" end.
Definition metric_of (m : action * option conf * quantity) : text := metric (fst (fst m)) (snd (fst m)) (quantity_name (snd m)).
Definition all_actions : list action := [Keep; Delete; Insert; PrototypeDecoration; TargetDecoration; StartLowConfidence; StartEditing; ActEarlyExit].
Definition all_confs : list (option conf) := [Some High; Some Low; None].
Definition all_kinds : list (action * option conf) := list_prod all_actions all_confs.
Definition all_metrics : list (action * option conf * quantity) := list_prod all_kinds [QCost; QChars; QEdges].
#[local] Instance metric_eqdec : EqDec (action * option conf * quantity).
Proof. intros x y. repeat decide equality. Defined.
Lemma all_kinds_In a c : In (a, c) all_kinds.
Proof. destruct a, c as [[]|]; cbn; tauto. Qed.
Lemma all_metrics_In m : In m all_metrics.
Proof. destruct m as [[a c] w]. apply in_prod; [apply all_kinds_In|]. destruct w; cbn; tauto. Qed.
(** Different metrics have different names. *)
Lemma metric_injective m m' : metric_of m = metric_of m' -> m = m'.
Proof.
  assert (G : forallb (fun x => forallb (fun y => implb (eqb (metric_of x) (metric_of y)) (eqb x y)) all_metrics) all_metrics = true) by (vm_compute; reflexivity).
  intros E. rewrite forallb_forall in G. specialize (G m (all_metrics_In m)). rewrite forallb_forall in G. specialize (G m' (all_metrics_In m')).
  rewrite E, eqb_refl in G. cbn in G. now apply eqb_eq in G.
Qed.
(** The edges of a kind. *)
Definition of_kind (a : action) (c : option conf) (e : eedge) : bool :=
  match info e with
  | Some f => (if eq_dec (act f) a then true else false) && (if eq_dec (Some (at_conf f)) (Some c) then true else false)
  | None => false
  end.
Definition amount (tx : einfo -> text) (w : quantity) (e : eedge) : cost :=
  match w with
  | QCost => ecost e
  | QChars => match info e with Some f => count (List.length (tx f)) | None => Fin 0 end
  | QEdges => count 1
  end.
Definition summed (tx : einfo -> text) (w : quantity) (es : list eedge) : cost := csum (map (amount tx w) es).
Definition same (w w' : quantity) : bool := match w, w' with QCost, QCost | QChars, QChars | QEdges, QEdges => true | _, _ => false end.
Lemma metric_same a c w w' : eqb (metric_of (a, c, w)) (metric_of (a, c, w')) = same w w'.
Proof. destruct w, w'; try apply eqb_refl; apply neq_eqb; intros C; apply metric_injective in C; discriminate. Qed.
Lemma of_kind_inv a c e f : info e = Some f -> of_kind a c e = true -> act f = a /\ at_conf f = c.
Proof.
  intros Ef Ek. unfold of_kind in Ek. rewrite Ef in Ek. apply andb_prop in Ek as [X Y].
  destruct (eq_dec (act f) a); [|discriminate]. destruct (eq_dec (Some (at_conf f)) (Some c)) as [Z|]; [|discriminate]. split; congruence.
Qed.
Lemma of_kind_not a c e f w w' : info e = Some f -> of_kind a c e = false -> eqb (metric_of (a, c, w)) (metric_of (act f, at_conf f, w')) = false.
Proof.
  intros Ef Ek. apply neq_eqb. intros C. apply metric_injective in C. injection C as C1 C2 C3. unfold of_kind in Ek. rewrite Ef in Ek.
  destruct (eq_dec (act f) a); [|congruence]. destruct (eq_dec (Some (at_conf f)) (Some c)); [discriminate|congruence].
Qed.
Section Metrics.
  Context {M : Type} (S T : storage M) (tx : einfo -> text).
  Lemma metrics_values p : Forall (told S T tx) p -> forall d, exists d', metrics_from S T d p = Ok d' /\
    forall a c w, assoc (metric_of (a, c, w)) d' =
      match filter (of_kind a c) p with
      | [] => assoc (metric_of (a, c, w)) d
      | es => Some (cadd (value (metric_of (a, c, w)) d) (summed tx w es))
      end.
  Proof.
    induction 1 as [|e p He Hp IH]; intros d; [eexists; split; reflexivity|]. cbn [metrics_from]. unfold told in He.
    destruct (info e) as [f|] eqn:Ef.
    - rewrite He. cbn [bind].
      set (d3 := increase _ _ (increase _ _ (increase _ _ d))). destruct (IH d3) as [d' [E Hd]]. exists d'. split; auto.
      intros a c w. rewrite Hd. cbn [filter].
      assert (D3 : assoc (metric_of (a, c, w)) d3 = if of_kind a c e then Some (cadd (value (metric_of (a, c, w)) d) (amount tx w e)) else assoc (metric_of (a, c, w)) d).
      { unfold d3.
        change (metric (act f) (at_conf f) "edges") with (metric_of (act f, at_conf f, QEdges)).
        change (metric (act f) (at_conf f) "chars") with (metric_of (act f, at_conf f, QChars)).
        change (metric (act f) (at_conf f) "cost") with (metric_of (act f, at_conf f, QCost)).
        rewrite !assoc_increase. destruct (of_kind a c e) eqn:Ek.
        - destruct (of_kind_inv _ _ _ _ Ef Ek) as [-> ->]. unfold value. rewrite !assoc_increase, !metric_same.
          unfold value. destruct w; cbn [same amount]; now rewrite ?Ef.
        - rewrite !(of_kind_not _ _ _ _ _ _ Ef Ek). reflexivity. }
      unfold value. rewrite D3. destruct (of_kind a c e) eqn:Ek; [|reflexivity].
      unfold summed. cbn [map]. destruct (filter (of_kind a c) p) as [|e' es]; cbn [map].
      + unfold csum. cbn [fold_right]. now rewrite cadd_0_r.
      + f_equal. symmetry. apply cadd_assoc.
    - destruct (IH d) as [d' [E Hd]]. exists d'. split; auto. intros a c w. rewrite Hd. cbn [filter].
      replace (of_kind a c e) with false; [reflexivity|]. unfold of_kind. now rewrite Ef.
  Qed.
  Lemma increase_keys name k d : incl (map fst (increase name k d)) (name :: map fst d).
  Proof.
    induction d as [|[n v] d IH]; cbn [increase map fst]; [intros x; auto|]. destruct (eqb n name); cbn [map fst].
    - intros x [H|H]; [right; now left|right; now right].
    - intros x [H|H]; [right; now left|]. apply IH in H as [H|H]; [now left|right; now right].
  Qed.
  Lemma metrics_keys (p : list eedge) : forall d d', metrics_from S T d p = Ok d' -> (forall n, In n (map fst d) -> exists m, n = metric_of m) ->
    forall n, In n (map fst d') -> exists m, n = metric_of m.
  Proof.
    induction p as [|e p IH]; intros d d' E Hd; cbn [metrics_from] in E; [injection E as <-; auto|].
    destruct (info e) as [f|]; [|eauto]. apply bind_ok_inv in E as [t [_ E]]. eapply IH; [exact E|].
    intros n Hn. apply increase_keys in Hn as [<-|Hn]; [now exists (act f, at_conf f, QEdges)|].
    apply increase_keys in Hn as [<-|Hn]; [now exists (act f, at_conf f, QChars)|].
    apply increase_keys in Hn as [<-|Hn]; [now exists (act f, at_conf f, QCost)|]. auto.
  Qed.
End Metrics.
(** The costs of all kinds add up. *)
Lemma of_kind_one e f : info e = Some f -> csum (map (fun m => if of_kind (fst m) (snd m) e then ecost e else Fin 0) all_kinds) = ecost e.
Proof.
  intros Ef. unfold of_kind. rewrite Ef. destruct f as [pn tn a c]. cbn [act at_conf]. generalize (ecost e). intros k.
  destruct a, c as [[]|]; cbn -[cadd]; rewrite ?cadd_0_l, ?cadd_0_r; reflexivity.
Qed.
Lemma csum_map_add {A} (f g : A -> cost) l : csum (map (fun x => cadd (f x) (g x)) l) = cadd (csum (map f l)) (csum (map g l)).
Proof.
  induction l as [|x l IH]; cbn [map]; [symmetry; apply cadd_0_l|].
  change (cadd (cadd (f x) (g x)) (csum (map (fun x => cadd (f x) (g x)) l)) = cadd (cadd (f x) (csum (map f l))) (cadd (g x) (csum (map g l)))).
  rewrite IH, <- !cadd_assoc. f_equal. rewrite !cadd_assoc. f_equal. apply cadd_comm.
Qed.
Lemma kinds_total tx p : Forall (fun e : eedge => info e = None -> ecost e = Fin 0) p ->
  csum (map (fun m => summed tx QCost (filter (of_kind (fst m) (snd m)) p)) all_kinds) = path_cost p.
Proof.
  induction 1 as [|e p He Hp IH].
  - reflexivity.
  - transitivity (cadd (ecost e) (path_cost p)); [|reflexivity]. rewrite <- IH.
    transitivity (csum (map (fun m => cadd (if of_kind (fst m) (snd m) e then ecost e else Fin 0)
      (summed tx QCost (filter (of_kind (fst m) (snd m)) p))) all_kinds)).
    + f_equal. apply map_ext. intros m. cbn [filter]. destruct (of_kind (fst m) (snd m) e); [reflexivity|symmetry; apply cadd_0_l].
    + rewrite csum_map_add. f_equal. destruct (info e) as [f|] eqn:Ef; [exact (of_kind_one e f Ef)|].
      rewrite (He eq_refl). unfold of_kind. rewrite Ef. reflexivity.
Qed.
Lemma summed_edges tx es : summed tx QEdges es = count (List.length es).
Proof.
  unfold summed. induction es as [|e es IH]; [reflexivity|]. cbn [map List.length]. unfold csum. cbn [fold_right]. fold (csum (map (amount tx QEdges) es)).
  rewrite IH. cbn [amount]. unfold count. cbn [cadd]. f_equal. apply Qc_is_canon. cbn [Qcplus this Q2Qc]. rewrite !Qred_correct.
  unfold Qeq, Qplus, inject_Z. cbn [Qnum Qden]. lia.
Qed.
Lemma increase_nodup name k d : NoDup (map fst d) -> NoDup (map fst (increase name k d)).
Proof.
  induction d as [|[n v] d IH]; cbn [increase map fst]; intros H; [repeat constructor; auto|]. inversion H as [|? ? H1 H2]; subst.
  destruct (eqb n name) eqn:E; cbn [map fst]; constructor; auto.
  intros C. apply increase_keys in C as [C|C]; [|contradiction]. subst. rewrite eqb_refl in E. discriminate.
Qed.
Lemma metrics_nodup {M} (S T : storage M) (p : list eedge) : forall d d', metrics_from S T d p = Ok d' -> NoDup (map fst d) -> NoDup (map fst d').
Proof.
  induction p as [|e p IH]; intros d d' E Hd; cbn [metrics_from] in E; [injection E as <-; auto|].
  destruct (info e) as [f|]; [|eauto]. apply bind_ok_inv in E as [t [_ E]]. eapply IH; [exact E|]. now do 3 apply increase_nodup.
Qed.
Lemma fold_left_costs gs : forall k, fold_left (fun k g => cadd k (g_cost g)) gs k = cadd k (g_costs gs).
Proof.
  unfold g_costs. induction gs as [|g gs IH]; intros k; cbn [fold_left map]; [symmetry; apply cadd_0_r|].
  rewrite IH. symmetry. apply cadd_assoc.
Qed.
