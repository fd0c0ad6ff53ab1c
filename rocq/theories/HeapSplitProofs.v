(** Proofs that splitting linked nodes in place gives the tree of the functional model. *)

From Coq Require Import List Bool Arith Lia Permutation.
From Verif Require Import Base StackParser StackParserProofs HeapTree LinkSpec HeapProofs.
Import ListNotations.

Definition l_lo (t : ltree) := let 'LNode _ lo _ _ _ := t in lo.
Definition l_hi (t : ltree) := let 'LNode _ _ hi _ _ := t in hi.
Definition l_ann (t : ltree) := let 'LNode _ _ _ ann _ := t in ann.
Definition l_kids (t : ltree) := let 'LNode _ _ _ _ kids := t in kids.
Definition cell_of (p : option nat) (t : ltree) : cell := mkCell (l_lo t) (l_hi t) p (l_ann t) (map addr (l_kids t)).
Definition same_root (t t' : ltree) : Prop := addr t' = addr t /\ l_lo t' = l_lo t /\ l_hi t' = l_hi t.

Lemma shape_lo t : p_lo (shape t) = l_lo t. Proof. now destruct t. Qed.
Lemma shape_hi t : p_hi (shape t) = l_hi t. Proof. now destruct t. Qed.
Lemma shape_ann t : p_ann (shape t) = l_ann t. Proof. now destruct t. Qed.
Lemma holds_cell h p t : holds h p t -> nth_error h (addr t) = Some (cell_of p t).
Proof. destruct t. intros S. now apply holds_eq in S as [E _]. Qed.
Lemma holds_node h p t : holds h p t -> node_at h (addr t) = Some (Ok (cell_of p t)).
Proof. intros S. unfold node_at. now rewrite (holds_cell h p t S). Qed.

(** * Groups *)
Lemma group_by_concat {A} (l : list (A * bool)) : concat (group_by l) = map fst l.
Proof.
  induction l as [|[x b] l IH]; cbn; auto. destruct b; cbn; [now rewrite IH|].
  destruct (group_by l) as [|g gs] eqn:E; cbn in *; now rewrite <- IH.
Qed.
Lemma group_by_map {A B} (f : A -> B) (l : list (A * bool)) :
  group_by (map (fun x => (f (fst x), snd x)) l) = map (map f) (group_by l).
Proof.
  induction l as [|[x b] l IH]; cbn; auto. destruct b; cbn; rewrite IH; auto. destruct (group_by l); cbn; auto.
Qed.
Lemma combine_map_l {A B C} (f : A -> B) (l : list A) (m : list C) : combine (map f l) m = map (fun x => (f (fst x), snd x)) (combine l m).
Proof. revert m. induction l as [|x l IH]; intros [|y m]; cbn; auto. now rewrite IH. Qed.
Lemma map_fst_combine {A B} (l : list A) (m : list B) : length l = length m -> map fst (combine l m) = l.
Proof. revert m. induction l as [|x l IH]; intros [|y m] E; cbn in *; try discriminate; auto. rewrite IH; auto. Qed.

Fixpoint lgroups (n : nat) (gs : list (list ltree)) : list ltree :=
  match gs with
  | [] => []
  | [] :: gs' => lgroups n gs'
  | (t :: g) :: gs' => LNode n (l_lo t) (l_hi (last (t :: g) t)) ASplit (t :: g) :: lgroups (S n) gs'
  end.
Fixpoint owners (n : nat) (gs : list (list ltree)) : list (option nat) :=
  match gs with
  | [] => []
  | [] :: gs' => owners n gs'
  | g :: gs' => repeat (Some n) (length g) ++ owners (S n) gs'
  end.
Lemma lgroups_addr n gs : map addr (lgroups n gs) = seq n (length (lgroups n gs)).
Proof. revert n. induction gs as [|[|t g] gs IH]; intros n; cbn; auto. now rewrite IH. Qed.
Lemma last_map {A B} (f : A -> B) l d : last (map f l) (f d) = f (last l d).
Proof. induction l as [|x [|y l] IH]; cbn in *; auto. Qed.
Lemma lgroups_shape n gs : map shape (lgroups n gs) = flat_map split_group (map (map shape) gs).
Proof.
  revert n. induction gs as [|[|t g] gs IH]; intros n; [reflexivity|exact (IH n)|]. cbn [lgroups map flat_map split_group app shape]. rewrite IH.
  change (shape t :: map shape g) with (map shape (t :: g)). rewrite last_map, shape_lo, shape_hi. reflexivity.
Qed.
Lemma lgroups_addrs n gs : Permutation (flat_map addrs (lgroups n gs)) (flat_map addrs (concat gs) ++ seq n (length (lgroups n gs))).
Proof.
  revert n. induction gs as [|[|t g] gs IH]; intros n; [reflexivity|exact (IH n)|].
  change (Permutation ((n :: flat_map addrs (t :: g)) ++ flat_map addrs (lgroups (S n) gs)) (flat_map addrs ((t :: g) ++ concat gs) ++ n :: seq (S n) (length (lgroups (S n) gs)))). rewrite flat_map_app. specialize (IH (S n)).
  generalize dependent (flat_map addrs (lgroups (S n) gs)). generalize (flat_map addrs (t :: g)) (flat_map addrs (concat gs)).
  intros A B C IH. rewrite <- app_comm_cons. rewrite IH. rewrite app_assoc. apply Permutation_middle.
Qed.
Lemma last_In {A} (l : list A) d : l <> [] -> In (last l d) l.
Proof. induction l as [|x [|y l] IH]; intros N; [congruence|now left|]. right. apply IH. discriminate. Qed.

Lemma Forall_repeat {A B} (P : A -> B -> Prop) x l : Forall (P x) l -> Forall2 P (repeat x (length l)) l.
Proof. induction 1; cbn; constructor; auto. Qed.

Lemma group_nodes_spec a gs : forall h, Forall (fun t => exists p, holds h p t) (concat gs) -> NoDup (flat_map addrs (concat gs)) ->
  exists h1, group_nodes a (map (map addr) gs) h = Some (Ok (h1, map addr (lgroups (length h) gs))) /\
    length h1 = length h + length (lgroups (length h) gs) /\
    Forall2 (holds h1) (owners (length h) gs) (concat gs) /\
    Forall (fun g => nth_error h1 (addr g) = Some (cell_of (Some a) g)) (lgroups (length h) gs) /\
    (forall x, x < length h -> ~ In x (map addr (concat gs)) -> nth_error h1 x = nth_error h x).
Proof.
  induction gs as [|[|t g] gs IH]; intros h K N.
  - exists h. cbn. splits; auto.
  - destruct (IH h K N) as [h1 R]. exists h1. exact R.
  - cbn [concat] in K, N. apply Forall_app in K as [Kg K]. rewrite flat_map_app in N.
    pose proof (NoDup_left _ _ N) as Ng. pose proof (NoDup_right _ _ N) as Nr.
    set (n := length h). set (cl := mkCell (l_lo t) (l_hi (last (t :: g) t)) (Some a) ASplit (map addr (t :: g))).
    set (h0 := adopt n (map addr (t :: g)) (h ++ [cl])).
    assert (L0 : length h0 = S n) by (unfold h0; rewrite adopt_length, app_length; cbn; subst n; lia).
    assert (B : forall u x, In u ((t :: g) ++ concat gs) -> In x (addrs u) -> x < n).
    { intros u x I J. assert (Q : exists p, holds h p u).
      { apply in_app_iff in I as [I|I]; [rewrite Forall_forall in Kg; exact (Kg u I)|rewrite Forall_forall in K; exact (K u I)]. }
      destruct Q as [p Q]. exact (holds_bound u h p x Q J). }
    assert (Hg : Forall (holds h0 (Some n)) (t :: g)).
    { apply adopt_forest; auto. rewrite Forall_forall in *. intros u I. destruct (Kg u I) as [p Q]. exists p. apply (holds_frame u h); auto.
      intros x J. apply nth_error_app1. apply (B u); auto. apply in_app_iff. auto. }
    assert (Kr : Forall (fun u => exists p, holds h0 p u) (concat gs)).
    { rewrite Forall_forall in *. intros u I. destruct (K u I) as [p Q]. exists p. apply (holds_frame u h); auto. intros x J.
      unfold h0. rewrite adopt_other.
      - apply nth_error_app1. apply (B u); auto. apply in_app_iff. auto.
      - intros M. apply in_map_iff in M as [v [<- Iv]]. apply (NoDup_app_disjoint _ _ (addr v) N).
        + apply in_flat_map. exists v. split; auto. apply addr_in.
        + apply in_flat_map. eauto. }
    destruct (IH h0 Kr Nr) as (h1 & E1 & L1 & O1 & C1 & F1). rewrite L0 in *. exists h1.
    cbn [map group_nodes lgroups owners concat length]. fold n.
    assert (Rt : exists p, node_at h (addr t) = Some (Ok (cell_of p t))).
    { apply Forall_cons_iff in Kg as [[p Q] _]. exists p. now apply holds_node. }
    assert (Rl : exists p, node_at h (last (addr t :: map addr g) (addr t)) = Some (Ok (cell_of p (last (t :: g) t)))).
    { change (addr t :: map addr g) with (map addr (t :: g)). rewrite last_map. rewrite Forall_forall in Kg.
      destruct (Kg (last (t :: g) t)) as [p Q]; [now apply last_In|]. exists p. now apply holds_node. }
    destruct Rt as [p1 ->], Rl as [p2 ->]. cbn [obind].
    change (mkCell (c_lo (cell_of p1 t)) (c_hi (cell_of p2 (last (t :: g) t))) (Some a) ASplit (addr t :: map addr g)) with cl.
    change (addr t :: map addr g) with (map addr (t :: g)). fold h0. rewrite E1. cbn [obind fst snd].
    assert (Fn : nth_error h1 n = Some cl).
    { rewrite F1.
      - unfold h0. rewrite adopt_other.
        + unfold n. apply nth_error_new.
        + intros M. apply in_map_iff in M as [v [Ev Iv]]. assert (addr v < n) by (apply (B v); [apply in_app_iff; auto|apply addr_in]). lia.
      - lia.
      - intros M. apply in_map_iff in M as [v [Ev Iv]]. assert (addr v < n) by (apply (B v); [apply in_app_iff; auto|apply addr_in]). lia. }
    splits; auto.
    + rewrite L1. lia.
    + apply Forall2_app; auto. clear -Hg F1 B N L0.
      assert (Q : Forall (holds h1 (Some n)) (t :: g)).
      { rewrite Forall_forall in *. intros u I. apply (holds_frame u h0); auto. intros x J. apply F1.
        - assert (x < n) by (apply (B u); auto; apply in_app_iff; auto). lia.
        - intros M. apply in_map_iff in M as [v [<- Iv]]. apply (NoDup_app_disjoint _ _ (addr v) N).
          + apply in_flat_map. eauto.
          + apply in_flat_map. exists v. split; auto. apply addr_in. }
      exact (Forall_repeat (holds h1) (Some n) (t :: g) Q).
    + intros x I J. rewrite F1; [|lia|].
      * unfold h0. rewrite adopt_other; [now apply nth_error_app1|]. intros M. apply J. rewrite map_app. apply in_app_iff. auto.
      * intros M. apply J. rewrite map_app. apply in_app_iff. auto.
Qed.

Lemma NoDup_app_intro {A} (l m : list A) : NoDup l -> NoDup m -> (forall x, In x l -> ~ In x m) -> NoDup (l ++ m).
Proof.
  induction l as [|x l IH]; cbn; intros N M D; auto. inversion N; subst. constructor.
  - intros I. apply in_app_iff in I as [I|I]; auto. exact (D x (or_introl eq_refl) I).
  - apply IH; auto.
Qed.
Lemma Forall2_len {A B} (R : A -> B -> Prop) l m : Forall2 R l m -> length l = length m.
Proof. induction 1; cbn; auto. Qed.
(** The groups after their members were changed in place. *)
Lemma same_last (g g' : list ltree) d d' : same_root d d' -> Forall2 same_root g g' -> same_root (last g d) (last g' d').
Proof.
  intros Sd S. revert d d' Sd. induction S as [|x x' g g' Sx S IH]; intros d d' Sd; auto. cbn [last]. destruct S; auto. 
Qed.
Lemma same_addrs g g' : Forall2 same_root g g' -> map addr g' = map addr g.
Proof. induction 1 as [|x x' g g' [E _] _ IH]; cbn; auto. now rewrite E, IH. Qed.
Lemma lgroups_rebuilt a h' gs gs' : Forall2 (Forall2 same_root) gs gs' -> forall n,
  Forall2 (holds h') (owners n gs) (concat gs') ->
  Forall (fun g => nth_error h' (addr g) = Some (cell_of (Some a) g)) (lgroups n gs) ->
  map addr (lgroups n gs') = map addr (lgroups n gs) /\ Forall (holds h' (Some a)) (lgroups n gs').
Proof.
  induction 1 as [|g g' gs gs' Sg _ IH]; intros n O C.
  - cbn. auto.
  - destruct Sg as [|t t' g g' St Sg]; [exact (IH n O C)|]. cbn [lgroups owners concat map] in *. apply Forall_cons_iff in C as [Cn C].
    assert (Lg : length (t :: g) = length (t' :: g')) by (cbn; f_equal; clear -Sg; induction Sg; cbn; auto).
    assert (Q : exists a1 a2, repeat (Some n) (length (t :: g)) ++ owners (S n) gs = a1 ++ a2 /\ Forall2 (holds h') a1 (t' :: g') /\ Forall2 (holds h') a2 (concat gs')).
    { apply Forall2_app_inv_r in O as (a1 & a2 & O1 & O2 & E). exists a1, a2. auto. }
    destruct Q as (a1 & a2 & E & O1 & O2). pose proof (Forall2_len _ _ _ O1) as L1.
    assert (E' : repeat (Some n) (length (t :: g)) = a1 /\ owners (S n) gs = a2).
    { assert (L2 : length (repeat (Some n) (length (t :: g))) = length a1) by (rewrite repeat_length; congruence).
      revert L2 E. generalize (repeat (Some n) (length (t :: g))) (owners (S n) gs). clear. intros l m. revert a1. induction l as [|x l IH]; intros [|y a1] L E; cbn in *; try discriminate; auto.
      injection E as -> E. injection L as L. destruct (IH a1 L E). subst. auto. }
    destruct E' as [<- <-]. destruct (IH (S n) O2 C) as [Ea Ho]. split.
    + cbn. now rewrite Ea.
    + constructor; auto. apply holds_eq. split.
      * cbn [addr] in Cn. rewrite Cn. unfold cell_of. cbn [l_lo l_hi l_ann l_kids]. f_equal.
        pose proof St as [_ [El Eh]]. destruct (same_last (t :: g) (t' :: g') t t') as [_ [_ Eh']]; [exact St| |].
        -- constructor; auto. 
        -- rewrite El, Eh'. rewrite (same_addrs (t :: g) (t' :: g')); auto.
      * clear -O1 Lg. rewrite Lg in O1. revert O1. generalize (t' :: g'). intros l. induction l as [|x l IH]; intros O; constructor; cbn in O; inversion O; subst; auto.
Qed.

Lemma Forall2_Forall_repeat {A B} (P : A -> B -> Prop) x l : Forall2 P (repeat x (length l)) l -> Forall (P x) l.
Proof. induction l as [|y l IH]; cbn; intros O; constructor; inversion O; subst; auto. Qed.
Lemma group_by_zip (l l' : list ltree) flags : Forall2 same_root l l' ->
  Forall2 (Forall2 same_root) (group_by (combine l flags)) (group_by (combine l' flags)).
Proof.
  intros S. revert flags. induction S as [|x x' l l' Sx S IH]; intros flags; [repeat constructor|].
  assert (S1 : Forall2 same_root [x] [x']) by (apply Forall2_cons; [exact Sx|exact (Forall2_nil _)]).
  destruct flags as [|b flags]; cbn; [apply Forall2_cons; exact (Forall2_nil _)|]. specialize (IH flags). destruct b; [now apply Forall2_cons|].
  destruct IH as [|g g' gs gs' Sg Sgs]; cbn; [apply Forall2_cons; [exact S1|exact (Forall2_nil _)]|].
  apply Forall2_cons; [apply Forall2_cons|]; auto.
Qed.

Section Splitting.
  Context {T : Type} `{EqDec T}.
  Variables (tokens splits : list T) (pairs : list (T * T)).

  Lemma omapM_map {A B C} (f : A -> option (result B)) (g : C -> result B) (k : C -> A) l :
    Forall (fun x => f (k x) = Some (g x)) l -> omapM f (map k l) = Some (mapM g l).
  Proof.
    induction 1 as [|x l E _ IH]; auto. cbn [map omapM mapM]. rewrite E. destruct (g x); cbn [obind bind]; auto. rewrite IH.
    destruct (mapM g l); cbn [obind bind]; auto.
  Qed.
  Lemma mapM_map' {A B C} (g : B -> result C) (k : A -> B) l : mapM g (map k l) = mapM (fun x => g (k x)) l.
  Proof. induction l as [|x l IH]; auto. cbn [map mapM]. now rewrite IH. Qed.
  Lemma heap_splitter_shape h p t : holds h p t -> heap_splitter tokens splits h (addr t) = Some (is_splitter tokens splits (shape t)).
  Proof.
    intros S. unfold heap_splitter. rewrite (holds_node h p t S). cbn [obind]. unfold is_splitter, c_len, p_len. now destruct t.
  Qed.
  Lemma heap_unsplittable_shape h p t : holds h p t -> heap_unsplittable tokens pairs h (cell_of p t) = Some (unsplittable tokens pairs (shape t)).
  Proof.
    destruct t as [a lo hi ann kids]. intros S. apply holds_eq in S as [_ K]. unfold heap_unsplittable, unsplittable, cell_of. cbn [c_ann c_children l_ann l_kids shape p_ann p_children].
    destruct (eqb ann APaired); auto. destruct kids as [|t1 [|t2 [|t3 [|t4 kids]]]]; cbn [map]; auto.
    apply Forall_cons_iff in K as [K1 K]. apply Forall_cons_iff in K as [_ K]. apply Forall_cons_iff in K as [K3 _].
    rewrite (holds_node h _ t1 K1), (holds_node h _ t3 K3). cbn [obind]. now destruct t1, t3.
  Qed.

  Fixpoint each (limit : nat) (h : heap) (l : list nat) : option (result heap) :=
    match l with
    | [] => Some (Ok h)
    | x :: l' =>
        let? cx := node_at h x in
        let? len := Some (c_len cx) in
        let? h' := (if 1 <? len then heap_split tokens splits pairs limit h x else Some (Ok h)) in
        each limit h' l'
    end.
  Lemma heap_split_eq limit h a : heap_split tokens splits pairs (S limit) h a =
    let? c := node_at h a in
    let? stop := heap_unsplittable tokens pairs h c in
    if stop then Some (Ok h)
    else
      let? flags := omapM (heap_splitter tokens splits h) (c_children c) in
      let? h1 := heap_regroup h a c flags in
      each limit h1 (c_children c).
  Proof.
    cbn [heap_split]. destruct (node_at h a) as [[c|]|]; cbn [obind]; auto.
    destruct (heap_unsplittable tokens pairs h c) as [[[]|]|]; cbn [obind]; auto.
    destruct (omapM (heap_splitter tokens splits h) (c_children c)) as [[flags|]|]; cbn [obind]; auto.
    destruct (heap_regroup h a c flags) as [[h1|]|]; cbn [obind]; auto.
    match goal with |- ?f _ _ = _ => assert (E : forall l h2, f h2 l = each limit h2 l) end; [|apply E].
    intros l. induction l as [|x l IH]; intros h2; cbn [each]; auto. destruct (node_at h2 x) as [[cx|]|]; cbn [obind]; auto.
    destruct (c_len cx) as [len|]; cbn [obind]; auto.
    destruct (if 1 <? len then heap_split tokens splits pairs limit h2 x else Some (Ok h2)) as [[h3|]|]; cbn [obind]; auto.
  Qed.

  Definition grown (h h' : heap) (old new : list nat) : Prop :=
    length h <= length h' /\ NoDup new /\ incl old new /\
    (forall x, In x new -> In x old \/ length h <= x) /\
    (forall x, x < length h -> ~ In x old -> nth_error h' x = nth_error h x).
  Definition split_ok (limit : nat) (t : ltree) : Prop := forall h p, lsize t <= limit -> holds h p t -> NoDup (addrs t) ->
    match split_node tokens splits pairs (shape t) with
    | Err e => heap_split tokens splits pairs limit h (addr t) = Some (Err e)
    | Ok n => exists h' t', heap_split tokens splits pairs limit h (addr t) = Some (Ok h') /\ shape t' = n /\ same_root t t' /\
        holds h' p t' /\ grown h h' (addrs t) (addrs t')
    end.

  Lemma each_spec limit kids : Forall (split_ok limit) kids -> forall h qs, list_sum (map lsize kids) <= limit ->
    Forall2 (holds h) qs kids -> NoDup (flat_map addrs kids) ->
    match mapM (split_child tokens splits pairs) (map shape kids) with
    | Err e => each limit h (map addr kids) = Some (Err e)
    | Ok ns => exists h' kids', each limit h (map addr kids) = Some (Ok h') /\ map shape kids' = ns /\ Forall2 same_root kids kids' /\
        Forall2 (holds h') qs kids' /\ grown h h' (flat_map addrs kids) (flat_map addrs kids')
    end.
  Proof.
    induction kids as [|t kids IHl]; intros IH h qs L K N.
    - inversion K; subst. cbn. exists h, []. unfold grown. splits; auto; try constructor. intros x [].
    - apply Forall_cons_iff in IH as [It IH]. inversion K as [|q t0 qs' kids0 Kt Kk]; subst. clear K.
      cbn [map list_sum fold_right] in L. change (fold_right Nat.add 0 (map lsize kids)) with (list_sum (map lsize kids)) in L.
      cbn [flat_map] in N. pose proof (NoDup_left _ _ N) as Nt. pose proof (NoDup_right _ _ N) as Nk.
      cbn [map mapM each]. rewrite (holds_node h q t Kt). cbn [obind].
      replace (c_len (cell_of q t)) with (p_len (shape t)) by (now destruct t). unfold split_child at 1.
      destruct (p_len (shape t)) as [len|e]; cbn [bind obind]; auto.
      set (first := if 1 <? len then heap_split tokens splits pairs limit h (addr t) else Some (Ok h)).
      assert (R : match (if 1 <? len then split_node tokens splits pairs (shape t) else Ok (shape t)) with
                  | Err e => first = Some (Err e)
                  | Ok n => exists h' t', first = Some (Ok h') /\ shape t' = n /\ same_root t t' /\ holds h' q t' /\ grown h h' (addrs t) (addrs t')
                  end).
      { unfold first. destruct (1 <? len).
        - exact (It h q ltac:(lia) Kt Nt).
        - exists h, t. unfold grown, same_root. splits; auto. intros x I. exact I. }
      destruct (if 1 <? len then split_node tokens splits pairs (shape t) else Ok (shape t)) as [n|e]; cbn [bind]; [|now rewrite R].
      destruct R as (h1 & t1 & -> & Sh1 & Sr1 & Ho1 & L1 & N1 & Inc1 & New1 & Fr1). cbn [obind].
      assert (Bt : forall x, In x (addrs t) -> x < length h) by (intros x; exact (holds_bound t h q x Kt)).
      assert (Bk : forall x, In x (flat_map addrs kids) -> x < length h).
      { intros x I. apply in_flat_map in I as [u [Iu J]]. clear -Kk Iu J. induction Kk as [|q0 u0 qs kids E _ IHk]; [destruct Iu|]. destruct Iu as [->|Iu]; auto. eapply holds_bound; eauto. }
      assert (Kk1 : Forall2 (holds h1) qs' kids).
      { assert (Fk : forall x, In x (flat_map addrs kids) -> nth_error h1 x = nth_error h x).
        { intros x I. apply Fr1; auto. intros J. exact (NoDup_app_disjoint _ _ x N J I). }
        clear -Kk Fk. induction Kk as [|q0 u0 qs kids E _ IHk]; constructor.
        - apply (holds_frame u0 h); auto. intros x I. apply Fk. cbn. apply in_app_iff. auto.
        - apply IHk. intros x I. apply Fk. cbn. apply in_app_iff. auto. }
      specialize (IHl IH h1 qs' ltac:(lia) Kk1 Nk). destruct (mapM (split_child tokens splits pairs) (map shape kids)) as [ns|e]; cbn [bind]; auto.
      destruct IHl as (h2 & kids2 & -> & Sh2 & Sr2 & Ho2 & L2 & N2 & Inc2 & New2 & Fr2).
      assert (B1 : forall x, In x (addrs t1) -> x < length h1) by (intros x; exact (holds_bound t1 h1 q x Ho1)).
      assert (D : forall x, In x (addrs t1) -> ~ In x (flat_map addrs kids)).
      { intros x I J. destruct (New1 x I) as [I'|I']; [exact (NoDup_app_disjoint _ _ x N I' J)|]. specialize (Bk x J). lia. }
      exists h2, (t1 :: kids2). unfold grown. splits; auto.
      + cbn. now rewrite Sh1, Sh2.
      + constructor; auto. apply (holds_frame t1 h1); auto.
      + lia.
      + cbn [flat_map]. apply NoDup_app_intro; auto. intros x I J. destruct (New2 x J) as [J'|J']; [exact (D x I J')|]. specialize (B1 x I). lia.
      + cbn [flat_map]. intros x I. apply in_app_iff in I as [I|I]; apply in_app_iff; auto.
      + cbn [flat_map]. intros x I. apply in_app_iff in I as [I|I].
        * destruct (New1 x I); auto. left. apply in_app_iff. auto.
        * destruct (New2 x I) as [J|J]; [left; apply in_app_iff; auto|right; lia].
      + cbn [flat_map]. intros x I J. rewrite Fr2, Fr1; auto; try lia; intros M; apply J, in_app_iff; auto.
  Qed.

  Lemma heap_regroup_spec h p a lo hi ann kids flags : holds h p (LNode a lo hi ann kids) -> NoDup (addrs (LNode a lo hi ann kids)) ->
    length kids = length flags ->
    exists h1 qs, heap_regroup h a (mkCell lo hi p ann (map addr kids)) flags = Some (Ok h1) /\ Forall2 (holds h1) qs kids /\
      length h <= length h1 /\ (forall x, x < length h -> ~ In x (a :: flat_map addrs kids) -> nth_error h1 x = nth_error h x) /\
      (forall h' kids', Forall2 same_root kids kids' -> Forall2 (holds h') qs kids' -> nth_error h' a = nth_error h1 a ->
         (forall x, length h <= x < length h1 -> nth_error h' x = nth_error h1 x) ->
         exists out, map shape out = regroup ann (combine (map shape kids') flags) /\
           holds h' p (LNode a lo hi ann out) /\
           Permutation (flat_map addrs out) (flat_map addrs kids' ++ seq (length h) (length h1 - length h))).
  Proof.
    intros S N Lf. apply holds_eq in S as [E K]. cbn [addrs] in N. inversion N as [|a0 l NI ND]; subst.
    unfold heap_regroup, regroup. cbn [c_children c_ann].
    rewrite combine_map_l, group_by_map, map_length.
    assert (Lg : forall kids', Forall2 same_root kids kids' -> length (group_by (combine (map shape kids') flags)) = length (group_by (combine kids flags))).
    { intros kids' Sr. rewrite combine_map_l, group_by_map, map_length. symmetry. exact (Forall2_len _ _ _ (group_by_zip _ _ flags Sr)). }
    destruct ((1 <? length (group_by (combine kids flags))) && negb (eqb ann APaired)) eqn:Eb.
    - set (gs := group_by (combine kids flags)) in *.
      assert (Ck : concat gs = kids) by (unfold gs; rewrite group_by_concat; now apply map_fst_combine).
      destruct (group_nodes_spec a gs h) as (h1 & E1 & L1 & O1 & C1 & F1); rewrite ?Ck; auto.
      { rewrite Forall_forall in *. eauto. }
      rewrite E1. cbn [obind fst snd]. rewrite Ck in *.
      assert (La : a < length h) by (eapply nth_error_lt; eauto).
      assert (NA : ~ In a (map addr kids)).
      { intros I. apply in_map_iff in I as [u [Eu Iu]]. apply NI. apply in_flat_map. exists u. split; auto. rewrite <- Eu. apply addr_in. }
      assert (Ea : nth_error h1 a = Some (mkCell lo hi p ann (map addr kids))) by (rewrite F1; auto).
      exists (update a (set_children (map addr (lgroups (length h) gs))) h1), (owners (length h) gs). splits; auto.
      + generalize (set_children (map addr (lgroups (length h) gs))). intros f. clear -O1 NI.
        induction O1 as [|q t qs l Q _ IH]; constructor.
        * apply (holds_frame t h1); auto. intros x I. apply update_other. intros ->. apply NI. cbn. apply in_app_iff. auto.
        * apply IH. intros I. apply NI. cbn. apply in_app_iff. auto.
      + rewrite update_length. lia.
      + intros x Lx J. rewrite update_other by (intros ->; apply J; now left). apply F1; auto. intros I. apply J. right.
        apply in_map_iff in I as [u [<- Iu]]. apply in_flat_map. exists u. split; auto. apply addr_in.
      + intros h' kids' Sr Ho Fa Fn. rewrite update_length in Fn. rewrite (Lg kids' Sr). fold gs. rewrite Eb.
        set (gs' := group_by (combine kids' flags)).
        assert (Lk : length kids' = length flags) by (rewrite <- (Forall2_len _ _ _ Sr); auto).
        assert (Ck' : concat gs' = kids') by (unfold gs'; rewrite group_by_concat; now apply map_fst_combine).
        assert (Cn : Forall (fun g => nth_error h' (addr g) = Some (cell_of (Some a) g)) (lgroups (length h) gs)).
        { rewrite Forall_forall in *. intros g I. rewrite <- (C1 g I). assert (J : In (addr g) (map addr (lgroups (length h) gs))) by now apply in_map.
          rewrite lgroups_addr in J. apply in_seq in J. rewrite Fn by lia. apply update_other. lia. }
        destruct (lgroups_rebuilt a h' gs gs' (group_by_zip _ _ flags Sr) (length h)) as [Ea' Ho']; auto; [now rewrite Ck'|].
        exists (lgroups (length h) gs'). splits.
        * rewrite lgroups_shape. rewrite combine_map_l, group_by_map. reflexivity.
        * apply holds_eq. split; auto. rewrite Fa, Ea'. now rewrite (update_same _ _ _ _ Ea).
        * rewrite lgroups_addrs, Ck', update_length, L1.
          replace (length (lgroups (length h) gs')) with (length (lgroups (length h) gs)) by (rewrite <- (map_length addr (lgroups _ gs)), <- Ea', map_length; auto).
          replace (length h + length (lgroups (length h) gs) - length h) with (length (lgroups (length h) gs)) by lia. reflexivity.
    - exists h, (repeat (Some a) (length kids)). splits; auto.
      + now apply Forall_repeat.
      + intros h' kids' Sr Ho Fa Fn. exists kids'. rewrite (Lg kids' Sr), Eb. rewrite (Forall2_len _ _ _ Sr) in Ho.
        apply Forall2_Forall_repeat in Ho. splits.
        * rewrite map_fst_combine; auto. rewrite map_length. now rewrite <- (Forall2_len _ _ _ Sr).
        * apply holds_eq. split; auto. rewrite Fa, E. now rewrite (same_addrs _ _ Sr).
        * rewrite Nat.sub_diag. cbn. now rewrite app_nil_r.
  Qed.

  Theorem heap_split_spec limit t : split_ok limit t.
  Proof.
    revert t. induction limit as [|limit IHn]; intros [a lo hi ann kids] h p L S N; [cbn in L; lia|].
    cbn [addr shape]. rewrite split_node_eq, heap_split_eq. pose proof (holds_node h p (LNode a lo hi ann kids) S) as Er. cbn [addr] in Er. rewrite Er. cbn [obind].
    rewrite (heap_unsplittable_shape h p (LNode a lo hi ann kids) S). cbn [shape].
    destruct (unsplittable tokens pairs (PNode lo hi ann (map shape kids))) as [[]|e]; cbn [bind obind]; auto.
    { exists h, (LNode a lo hi ann kids). unfold grown, same_root. splits; auto. intros x I. exact I. }
    change (c_children (cell_of p (LNode a lo hi ann kids))) with (map addr kids).
    pose proof S as S0. apply holds_eq in S0 as [E K].
    rewrite (omapM_map (heap_splitter tokens splits h) (fun t => is_splitter tokens splits (shape t)) addr).
    2: { rewrite Forall_forall in *. intros t I. eapply heap_splitter_shape; eauto. }
    rewrite <- (mapM_map' (is_splitter tokens splits) shape kids). destruct (mapM (is_splitter tokens splits) (map shape kids)) as [flags|e] eqn:Ef; cbn [bind obind]; auto.
    assert (Lf : length kids = length flags).
    { rewrite <- (map_length shape kids). revert flags Ef. generalize (map shape kids). clear. intros l. induction l as [|x l IH]; intros flags Ef; cbn [mapM] in Ef.
      - now injection Ef as <-.
      - apply bind_ok_inv in Ef as [y [_ Ef]]. apply bind_ok_inv in Ef as [ys [Ey [= <-]]]. cbn. now rewrite (IH ys Ey). }
    destruct (heap_regroup_spec h p a lo hi ann kids flags S N Lf) as (h1 & qs & E1 & Q1 & L1 & F1 & Re).
    change (cell_of p (LNode a lo hi ann kids)) with (mkCell lo hi p ann (map addr kids)). rewrite E1. cbn [obind].
    cbn [addrs] in N. inversion N as [|a0 l NI ND]; subst. cbn [lsize] in L.
    assert (Hk : Forall (split_ok limit) kids) by (rewrite Forall_forall; auto).
    pose proof (each_spec limit kids Hk h1 qs ltac:(lia) Q1 ND) as Ea.
    destruct (mapM (split_child tokens splits pairs) (map shape kids)) as [ns|e]; cbn [bind]; auto.
    destruct Ea as (h2 & kids2 & Eh & Sh & Sr & Ho & L2 & N2 & Inc2 & New2 & Fr2).
    assert (La : a < length h) by (eapply nth_error_lt; eauto).
    assert (Bk : forall x, In x (flat_map addrs kids) -> x < length h).
    { intros x I. apply in_flat_map in I as [u [Iu J]]. rewrite Forall_forall in K. exact (holds_bound u h _ x (K u Iu) J). }
    destruct (Re h2 kids2 Sr Ho) as (out & So & Hh & Pm).
    { apply Fr2; auto. lia. }
    { intros x I. apply Fr2; [lia|]. intros J. specialize (Bk x J). lia. }
    exists h2, (LNode a lo hi ann out). rewrite Eh. unfold same_root, grown. cbn [shape addr l_lo l_hi addrs]. splits; auto.
    - rewrite So, Sh. reflexivity.
    - lia.
    - apply (Permutation_NoDup (l := a :: flat_map addrs kids2 ++ seq (length h) (length h1 - length h))); [now rewrite Pm|]. constructor.
      + intros I. apply in_app_iff in I as [I|I]; [|apply in_seq in I; lia]. destruct (New2 a I) as [J|J]; [auto|lia].
      + apply NoDup_app_intro; [auto|apply seq_NoDup|]. intros x I J. apply in_seq in J. destruct (New2 x I) as [J'|J']; [specialize (Bk x J')|]; lia.
    - intros x [->|I]; [now left|]. right. apply (Permutation_in x (Permutation_sym Pm)). apply in_app_iff. auto.
    - intros x [->|I]; [left; now left|]. apply (Permutation_in x Pm) in I. apply in_app_iff in I as [I|I].
      + destruct (New2 x I) as [J|J]; [left; now right|right; lia].
      + apply in_seq in I. right. lia.
    - intros x Lx J. rewrite Fr2, F1; auto; [lia|]. intros I. apply J. now right.
  Qed.
End Splitting.
