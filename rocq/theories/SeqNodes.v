(** Model of r_u_sure/tree_structure/sequence_nodes.py and
    sequence_node_helpers.py: node trees, rendering, depth and walks. *)

From Coq Require Import List Bool Arith Lia.
From Verif Require Import Base.
Import ListNotations.

(** Python [str]: a list of code points. *)
Definition text := list nat.

(** sequence_nodes.py:39-121.  [M] is the type of [match_type] (Python [Any]). *)
Inductive node (M : Type) :=
| Deco (t : text)                       (* TextDecorationNode, 39-56 *)
| Token (t : text) (m : M)              (* TextTokenNode, 59-76 *)
| RegionStart                           (* RegionStartNode, 79-81 *)
| RegionEnd                             (* RegionEndNode, 84-86 *)
| EarlyExit                             (* EarlyExitNode, 89-91 *)
| Group (cs : list (node M)) (m : M).   (* GroupNode, 94-117 *)
Arguments Deco {M}. Arguments Token {M}. Arguments RegionStart {M}.
Arguments RegionEnd {M}. Arguments EarlyExit {M}. Arguments Group {M}.

Section NodeInd.
  Context {M : Type} (P : node M -> Prop).
  Hypothesis HDeco : forall t, P (Deco t).
  Hypothesis HToken : forall t m, P (Token t m).
  Hypothesis HStart : P RegionStart.
  Hypothesis HEnd : P RegionEnd.
  Hypothesis HExit : P EarlyExit.
  Hypothesis HGroup : forall cs m, Forall P cs -> P (Group cs m).
  Fixpoint node_ind' (n : node M) : P n :=
    match n with
    | Deco t => HDeco t
    | Token t m => HToken t m
    | RegionStart => HStart
    | RegionEnd => HEnd
    | EarlyExit => HExit
    | Group cs m =>
        HGroup cs m ((fix go l := match l return Forall P l with
                                  | [] => Forall_nil P
                                  | c :: l' => Forall_cons c (node_ind' c) (go l')
                                  end) cs)
    end.
End NodeInd.

Section Helpers.
  Context {M : Type}.
  Notation N := (node M).

  (** sequence_node_helpers.py:44-62, [render_text_contents] on one node. *)
  Fixpoint render_node (n : N) : text :=
    match n with
    | Deco t => t
    | Token t _ => t
    | Group cs _ => concat (map render_node cs)
    | _ => []
    end.
  (** ... and on a list (line 55). *)
  Definition render (ns : list N) : text := concat (map render_node ns).

  (** sequence_node_helpers.py:27-41, [compute_depth]: the loop body per node
      (1 for anything but a group) ... *)
  Fixpoint depth_node (n : N) : nat :=
    match n with
    | Group cs _ => 1 + fold_left (fun d c => Nat.max d (depth_node c)) cs 1
    | _ => 1
    end.
  (** ... and the loop. *)
  Definition compute_depth (ns : list N) : nat :=
    fold_left (fun d c => Nat.max d (depth_node c)) ns 1.

  (** sequence_node_helpers.py:135-139, [WalkTag]. *)
  Inductive walk_tag := LEAF | GROUP_BEFORE_CHILDREN | GROUP_AFTER_CHILDREN.

  (** sequence_nodes.py:125-144: [NestedNodePath] as the list of its indices;
      [extended_with] is [path ++ [i]]. *)
  Definition path := list nat.

  (** sequence_node_helpers.py:142-183, [walk_with_paths].  The generator is the
      list of what it yields. *)
  Fixpoint walk_node (before after : bool) (p : path) (n : N) {struct n}
    : list (N * path * walk_tag) :=
    match n with
    | Group cs m =>
        (if before then [(n, p, GROUP_BEFORE_CHILDREN)] else [])
        ++ (fix go (i : nat) (l : list N) :=
              match l with
              | [] => []
              | c :: l' => walk_node before after (p ++ [i]) c ++ go (S i) l'
              end) 0 cs
        ++ (if after then [(n, p, GROUP_AFTER_CHILDREN)] else [])
    | _ => [(n, p, LEAF)]
    end.
  Fixpoint walk_list (before after : bool) (prefix : path) (i : nat) (l : list N)
    : list (N * path * walk_tag) :=
    match l with
    | [] => []
    | c :: l' => walk_node before after (prefix ++ [i]) c
                 ++ walk_list before after prefix (S i) l'
    end.
  Definition walk_with_paths (ns : list N) (before after : bool) (prefix : path) :=
    walk_list before after prefix 0 ns.

  Lemma walk_node_group before after p cs m :
    walk_node before after p (Group cs m) =
    (if before then [(Group cs m, p, GROUP_BEFORE_CHILDREN)] else [])
    ++ walk_list before after p 0 cs
    ++ (if after then [(Group cs m, p, GROUP_AFTER_CHILDREN)] else []).
  Proof.
    cbn [walk_node]. do 2 f_equal. generalize 0. induction cs as [|c cs IH]; intros i; auto.
    cbn [walk_list]. now rewrite IH.
  Qed.

  (** *** Specification: nodes by path, and the order of paths. *)
  (** The node at a path, if any. *)
  Fixpoint node_at (ns : list N) (p : path) : option N :=
    match p with
    | [] => None
    | [i] => nth_error ns i
    | i :: p' => match nth_error ns i with
                 | Some (Group cs _) => node_at cs p'
                 | _ => None
                 end
    end.

  (** Python's lexicographic order on tuples. *)
  Inductive path_lt : path -> path -> Prop :=
  | plt_nil i p : path_lt [] (i :: p)
  | plt_head i j p q : i < j -> path_lt (i :: p) (j :: q)
  | plt_tail i p q : path_lt p q -> path_lt (i :: p) (i :: q).

  Fixpoint increasing (l : list path) : Prop :=
    match l with
    | [] => True
    | p :: l' => Forall (path_lt p) l' /\ increasing l'
    end.

  (** Leaves of a sequence, in text order. *)
  Fixpoint leaves_node (n : N) : list N :=
    match n with
    | Group cs _ => flat_map leaves_node cs
    | _ => [n]
    end.
  Definition leaves (ns : list N) : list N := flat_map leaves_node ns.

  Definition is_group (n : N) : Prop := match n with Group _ _ => True | _ => False end.

  (** Depth, specified by paths: the longest path to a group or other node. *)
  Lemma depth_fold_max (l : list N) : forall d,
    fold_left (fun d c => Nat.max d (depth_node c)) l d =
    Nat.max d (fold_left (fun d c => Nat.max d (depth_node c)) l 0).
  Proof.
    induction l as [|c l IH]; intros d; simpl; [lia|].
    rewrite IH, (IH (depth_node c)). lia.
  Qed.
  Lemma compute_depth_cons c l :
    compute_depth (c :: l) = Nat.max (depth_node c) (compute_depth l).
  Proof.
    unfold compute_depth. cbn [fold_left]. rewrite depth_fold_max.
    rewrite (depth_fold_max l 1). assert (1 <= depth_node c) by (destruct c; simpl; lia). lia.
  Qed.
  Lemma depth_node_group cs m : depth_node (Group cs m) = S (compute_depth cs).
  Proof. reflexivity. Qed.
  Lemma compute_depth_pos ns : 1 <= compute_depth ns.
  Proof. unfold compute_depth. rewrite depth_fold_max. lia. Qed.

  Lemma node_at_cons_group ns i p cs m :
    nth_error ns i = Some (Group cs m) -> p <> [] ->
    node_at ns (i :: p) = node_at cs p.
  Proof. intros Hn Hp. destruct p; [congruence|]. simpl. now rewrite Hn. Qed.

  (** A nesting chain of [k] groups: [ns] contains a group containing ... *)
  Inductive nested_groups : list N -> nat -> Prop :=
  | ng_zero ns : nested_groups ns 0
  | ng_succ ns cs m k :
      In (Group cs m) ns -> nested_groups cs k -> nested_groups ns (S k).

  Lemma depth_upper k ns : nested_groups ns k -> S k <= compute_depth ns.
  Proof.
    intros H. induction H as [ns|ns cs m k Hin H IH]; [apply compute_depth_pos|].
    apply in_split in Hin as [l1 [l2 ->]].
    assert (G : S (compute_depth cs) <= compute_depth (l1 ++ Group cs m :: l2)).
    { clear. induction l1 as [|a l1 IHl]; cbn [app]; rewrite compute_depth_cons.
      - rewrite depth_node_group. lia.
      - lia. }
    lia.
  Qed.
  Lemma depth_attained_list (cs : list N) :
    (forall c, In c cs -> forall ns, In c ns -> nested_groups ns (depth_node c - 1)) ->
    nested_groups cs (compute_depth cs - 1).
  Proof.
    intros IH.
    assert (Gl : forall l, (forall c, In c l -> In c cs) ->
              compute_depth l = 1 \/ nested_groups cs (compute_depth l - 1)).
    { induction l as [|c l IHl]; intros Hsub; [left; reflexivity|].
      rewrite compute_depth_cons.
      assert (Hc : In c cs) by (apply Hsub; simpl; auto).
      specialize (IH c Hc cs Hc).
      destruct IHl as [Hl|Hl]; [intros; apply Hsub; simpl; auto| |].
      - assert (1 <= depth_node c) by (destruct c; simpl; lia).
        right. rewrite Hl. now replace (Nat.max (depth_node c) 1) with (depth_node c) by lia.
      - destruct (Nat.max_spec (depth_node c) (compute_depth l)) as [[_ ->]|[_ ->]]; auto. }
    destruct (Gl cs (fun c H => H)) as [E|E]; [rewrite E; constructor|exact E].
  Qed.
  Lemma depth_attained_node n : forall ns, In n ns -> nested_groups ns (depth_node n - 1).
  Proof.
    induction n as [| | | | |cs m IH] using node_ind'; intros ns Hin;
      try (simpl; constructor).
    rewrite depth_node_group. replace (S (compute_depth cs) - 1) with (compute_depth cs) by lia.
    pose proof (compute_depth_pos cs).
    replace (compute_depth cs) with (S (compute_depth cs - 1)) by lia.
    eapply ng_succ; eauto. apply depth_attained_list.
    rewrite Forall_forall in IH. exact IH.
  Qed.
  Lemma depth_attained ns : nested_groups ns (compute_depth ns - 1).
  Proof. apply depth_attained_list. intros. now apply depth_attained_node. Qed.

  (** *** Walks. *)
  Definition item_path (x : N * path * walk_tag) : path := snd (fst x).
  Definition item_node (x : N * path * walk_tag) : N := fst (fst x).
  Definition item_tag (x : N * path * walk_tag) : walk_tag := snd x.

  Lemma path_lt_app p q r : path_lt q r -> path_lt (p ++ q) (p ++ r).
  Proof. induction p; simpl; auto. intros; apply plt_tail; auto. Qed.

  (** Every emitted path extends the path of the node being walked. *)
  Lemma walk_node_extends before after n : forall p,
    Forall (fun x => exists q, item_path x = p ++ q) (walk_node before after p n).
  Proof.
    induction n as [| | | | |cs m IH] using node_ind'; intros p;
      try (simpl; constructor; [exists []; unfold item_path; simpl; now rewrite app_nil_r|constructor]).
    rewrite walk_node_group. apply Forall_app; split; [|apply Forall_app; split].
    - destruct before; constructor; [|constructor].
      exists []. unfold item_path; simpl. now rewrite app_nil_r.
    - generalize 0. induction cs as [|c cs IHc]; intros i; simpl; [constructor|].
      inversion IH as [|? ? Hc Hcs]; subst. apply Forall_app; split; [|auto].
      eapply Forall_impl; [|apply Hc]. simpl. intros x [q Hq].
      exists (i :: q). rewrite Hq. now rewrite <- app_assoc.
    - destruct after; constructor; [|constructor].
      exists []. unfold item_path; simpl. now rewrite app_nil_r.
  Qed.
  Lemma walk_list_extends before after l : forall p i,
    Forall (fun x => exists j q, i <= j /\ item_path x = p ++ j :: q)
           (walk_list before after p i l).
  Proof.
    induction l as [|c l IH]; intros p i; simpl; [constructor|].
    apply Forall_app; split.
    - eapply Forall_impl; [|apply walk_node_extends]. simpl. intros x [q Hq].
      exists i, q. split; auto. rewrite Hq. now rewrite <- app_assoc.
    - eapply Forall_impl; [|apply IH]. simpl. intros x [j [q [Hj Hq]]].
      exists j, q. split; [lia|assumption].
  Qed.

  Lemma increasing_app l1 l2 :
    increasing l1 -> increasing l2 -> (forall a b, In a l1 -> In b l2 -> path_lt a b) ->
    increasing (l1 ++ l2).
  Proof.
    induction l1 as [|a l1 IH]; simpl; auto. intros [H1 H2] H3 H4. split.
    - apply Forall_app; split; auto. apply Forall_forall. auto.
    - apply IH; auto.
  Qed.

  Lemma walk_node_increasing before n : forall p,
    increasing (map item_path (walk_node before false p n)).
  Proof.
    induction n as [| | | | |cs m IH] using node_ind'; intros p;
      try (simpl; split; [constructor|exact I]).
    rewrite walk_node_group, app_nil_r, map_app.
    assert (Hl : forall i, increasing (map item_path (walk_list before false p i cs))).
    { revert IH. induction cs as [|c cs IHc]; intros IH i; simpl; [exact I|].
      inversion IH as [|? ? Hc Hcs]; subst. rewrite map_app. apply increasing_app; auto.
      intros a b Ha Hb. apply in_map_iff in Ha as [x [<- Hx]].
      apply in_map_iff in Hb as [y [<- Hy]].
      pose proof (walk_node_extends before false c (p ++ [i])) as E1.
      rewrite Forall_forall in E1. destruct (E1 _ Hx) as [q ->].
      pose proof (walk_list_extends before false cs p (S i)) as E2.
      rewrite Forall_forall in E2. destruct (E2 _ Hy) as [j [r [Hj ->]]].
      rewrite <- app_assoc. apply path_lt_app. simpl. constructor. lia. }
    apply increasing_app; auto.
    - destruct before; simpl; auto.
    - intros a b Ha Hb. apply in_map_iff in Hb as [y [<- Hy]].
      pose proof (walk_list_extends before false cs p 0) as E2.
      rewrite Forall_forall in E2. destruct (E2 _ Hy) as [j [r [Hj ->]]].
      destruct before; simpl in Ha; [|tauto]. destruct Ha as [<-|[]].
      unfold item_path; simpl. rewrite <- (app_nil_r p) at 1. apply path_lt_app. constructor.
  Qed.
  Lemma walk_list_increasing before l : forall p i,
    increasing (map item_path (walk_list before false p i l)).
  Proof.
    induction l as [|c l IH]; intros p i; simpl; [exact I|].
    rewrite map_app. apply increasing_app; auto using walk_node_increasing.
    intros a b Ha Hb. apply in_map_iff in Ha as [x [<- Hx]].
    apply in_map_iff in Hb as [y [<- Hy]].
    pose proof (walk_node_extends before false c (p ++ [i])) as E1.
    rewrite Forall_forall in E1. destruct (E1 _ Hx) as [q ->].
    pose proof (walk_list_extends before false l p (S i)) as E2.
    rewrite Forall_forall in E2. destruct (E2 _ Hy) as [j [r [Hj ->]]].
    rewrite <- app_assoc. apply path_lt_app. simpl. constructor. lia.
  Qed.

  (** What a walk emits, characterised by [node_at]: exactly the leaves, the
      groups before (if asked) and the groups after (if asked). *)
  Definition wanted (before after : bool) (n : N) (tg : walk_tag) : Prop :=
    match tg with
    | LEAF => ~ is_group n
    | GROUP_BEFORE_CHILDREN => is_group n /\ before = true
    | GROUP_AFTER_CHILDREN => is_group n /\ after = true
    end.

  (** Relative paths: [sub_at n q] is the node reached from [n] by [q]. *)
  Definition sub_at (n : N) (q : path) : option N :=
    match q with
    | [] => Some n
    | _ => match n with Group cs _ => node_at cs q | _ => None end
    end.
  Lemma node_at_cons ns i q :
    node_at ns (i :: q) = match nth_error ns i with Some n => sub_at n q | None => None end.
  Proof.
    destruct q as [|j q]; simpl; destruct (nth_error ns i) as [[]|]; reflexivity.
  Qed.

  Lemma walk_node_spec before after n : forall p x q tg,
    In (x, p ++ q, tg) (walk_node before after p n) <->
    sub_at n q = Some x /\ wanted before after x tg.
  Proof.
    assert (Hinv : forall (p q : path), p = p ++ q -> q = []).
    { intros p q E. rewrite <- (app_nil_r p) in E at 1. now apply app_inv_head in E. }
    induction n as [| | | | |cs m IH] using node_ind'; intros p x q tg.
    1-5: simpl; split;
      [intros [E|[]]; injection E as <- Ep <-; apply Hinv in Ep; subst q; simpl; auto
      |intros [E W]; destruct q; [|discriminate]; injection E as <-;
       destruct tg; simpl in W; try (destruct W as [[] _]); left; now rewrite app_nil_r].
    rewrite walk_node_group, !in_app_iff.
    assert (Hl : forall i, In (x, p ++ q, tg) (walk_list before after p i cs) <->
              exists j q', q = (i + j) :: q' /\
                (match nth_error cs j with Some c => sub_at c q' | None => None end) = Some x
                /\ wanted before after x tg).
    { induction cs as [|c cs IHc]; intros i; simpl.
      - split; [tauto|]. intros [j [q' [_ [E _]]]]. destruct j; discriminate.
      - inversion IH as [|? ? Hc Hcs]; subst. rewrite in_app_iff. rewrite (IHc Hcs). split.
        + intros [Hi|[j [q' [-> [E W]]]]].
          * pose proof (walk_node_extends before after c (p ++ [i])) as E1.
            rewrite Forall_forall in E1. destruct (E1 _ Hi) as [q' Hq'].
            unfold item_path in Hq'; simpl in Hq'. rewrite <- app_assoc in Hq'.
            apply app_inv_head in Hq'. simpl in Hq'. subst q.
            replace (p ++ i :: q') with ((p ++ [i]) ++ q') in Hi by (now rewrite <- app_assoc).
            apply Hc in Hi. exists 0, q'. split; [f_equal; lia|exact Hi].
          * exists (S j), q'. split; [f_equal; lia|auto].
        + intros [[|j] [q' [-> [E W]]]].
          * left. simpl in E. rewrite Nat.add_0_r.
            replace (p ++ i :: q') with ((p ++ [i]) ++ q') by (now rewrite <- app_assoc).
            apply Hc. auto.
          * right. exists j, q'. split; [f_equal; lia|auto]. }
    rewrite Hl. clear Hl IH. split.
    - intros [Hb|[[j [q' [-> [E W]]]]|Ha]].
      + destruct before; [|destruct Hb]. destruct Hb as [E|[]].
        injection E as <- Ep <-. apply Hinv in Ep; subst q. simpl; auto.
      + split; auto. cbn [sub_at plus]. now rewrite node_at_cons.
      + destruct after; [|destruct Ha]. destruct Ha as [E|[]].
        injection E as <- Ep <-. apply Hinv in Ep; subst q. simpl; auto.
    - intros [E W]. destruct q as [|j q'].
      + simpl in E. injection E as <-. rewrite app_nil_r. destruct tg; simpl in W.
        * tauto.
        * destruct W as [_ ->]. left; simpl; auto.
        * destruct W as [_ ->]. right; right; simpl; auto.
      + right; left. exists j, q'. cbn [sub_at] in E. rewrite node_at_cons in E. auto.
  Qed.

  Lemma walk_spec before after ns prefix x q tg :
    In (x, prefix ++ q, tg) (walk_with_paths ns before after prefix) <->
    node_at ns q = Some x /\ wanted before after x tg.
  Proof.
    unfold walk_with_paths.
    assert (Hl : forall l i, In (x, prefix ++ q, tg) (walk_list before after prefix i l) <->
              exists j q', q = (i + j) :: q' /\
                (match nth_error l j with Some c => sub_at c q' | None => None end) = Some x
                /\ wanted before after x tg).
    { induction l as [|c cs IHc]; intros i; simpl.
      - split; [tauto|]. intros [j [q' [_ [E _]]]]. destruct j; discriminate.
      - rewrite in_app_iff. rewrite IHc. split.
        + intros [Hi|[j [q' [-> [E W]]]]].
          * pose proof (walk_node_extends before after c (prefix ++ [i])) as E1.
            rewrite Forall_forall in E1. destruct (E1 _ Hi) as [q' Hq'].
            unfold item_path in Hq'; simpl in Hq'. rewrite <- app_assoc in Hq'.
            apply app_inv_head in Hq'. simpl in Hq'. subst q.
            replace (prefix ++ i :: q') with ((prefix ++ [i]) ++ q') in Hi
              by (now rewrite <- app_assoc).
            apply walk_node_spec in Hi. exists 0, q'. split; [f_equal; lia|exact Hi].
          * exists (S j), q'. split; [f_equal; lia|auto].
        + intros [[|j] [q' [-> [E W]]]].
          * left. simpl in E. rewrite Nat.add_0_r.
            replace (prefix ++ i :: q') with ((prefix ++ [i]) ++ q') by (now rewrite <- app_assoc).
            apply walk_node_spec. auto.
          * right. exists j, q'. split; [f_equal; lia|auto]. }
    rewrite Hl. split.
    - intros [j [q' [-> [E W]]]]. rewrite node_at_cons. auto.
    - intros [E W]. destruct q as [|j q']; [discriminate|].
      rewrite node_at_cons in E. exists j, q'. auto.
  Qed.

  (** Leaf walks list the leaves in order. *)
  Lemma walk_leaves ns prefix i :
    map item_node (walk_list false false prefix i ns) = leaves ns.
  Proof.
    assert (Hn : forall n p, map item_node (walk_node false false p n) = leaves_node n).
    { induction n as [| | | | |cs m IH] using node_ind'; intros p; try reflexivity.
      rewrite walk_node_group. cbn [app]. rewrite app_nil_r. cbn [leaves_node].
      generalize 0. induction cs as [|c cs IHc]; intros k; simpl; auto.
      inversion IH as [|? ? Hc Hcs]; subst. rewrite map_app, Hc, IHc; auto. }
    revert i. induction ns as [|n ns IH]; intros i; simpl; auto.
    rewrite map_app, Hn, IH. reflexivity.
  Qed.

  Lemma render_leaves ns : render (leaves ns) = render ns.
  Proof.
    assert (Hn : forall n, render (leaves_node n) = render_node n).
    { induction n as [| | | | |cs m IH] using node_ind'; unfold render; simpl;
        rewrite ?app_nil_r; auto.
      induction cs as [|c cs IHc]; simpl; auto.
      inversion IH as [|? ? Hc Hcs]; subst.
      rewrite map_app, concat_app, IHc by assumption. unfold render in Hc. now rewrite Hc. }
    unfold render, leaves in *. induction ns as [|n ns IH]; simpl; auto.
    rewrite map_app, concat_app, IH. now rewrite Hn.
  Qed.
  Lemma render_app l1 l2 : render (l1 ++ l2) = render l1 ++ render l2.
  Proof. unfold render. now rewrite map_app, concat_app. Qed.
  Lemma render_cons n l : render (n :: l) = render_node n ++ render l.
  Proof. reflexivity. Qed.
End Helpers.
