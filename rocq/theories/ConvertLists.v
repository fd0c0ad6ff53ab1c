(** List lemmas for [Convert.v]: sorting, insertion-ordered sets, positions,
    group boundaries and tag boundaries. *)

From Coq Require Import List Bool Arith Lia ZArith Sorted Permutation.
From Verif Require Import Base Graph PackedDag PackedDagProofs PackedTables Convert.
Import ListNotations.
Open Scope nat_scope.

(** ** Sorting. *)
Lemma insert_sorted_perm {A} (le : A -> A -> bool) x l : Permutation (x :: l) (insert_sorted le x l).
Proof.
  induction l as [|y l IH]; simpl; auto. destruct (le x y); auto.
  eapply perm_trans; [apply perm_swap|]. now constructor.
Qed.
Lemma sort_perm {A} (le : A -> A -> bool) l : Permutation l (sort le l).
Proof.
  induction l as [|x l IH]; simpl; auto.
  eapply perm_trans; [apply perm_skip, IH|apply insert_sorted_perm].
Qed.
Lemma sort_In {A} (le : A -> A -> bool) l x : In x (sort le l) <-> In x l.
Proof.
  split; apply Permutation_in; [apply Permutation_sym|]; apply sort_perm.
Qed.
Lemma sort_NoDup {A} (le : A -> A -> bool) l : NoDup l -> NoDup (sort le l).
Proof. apply Permutation_NoDup, sort_perm. Qed.

Record total_order {A} (le : A -> A -> bool) : Prop := {
  to_total : forall x y, le x y = true \/ le y x = true;
  to_trans : forall x y z, le x y = true -> le y z = true -> le x z = true;
  to_antisym : forall x y, le x y = true -> le y x = true -> x = y
}.
Lemma insert_sorted_sorted {A} (le : A -> A -> bool) x l : total_order le ->
  StronglySorted (fun a b => le a b = true) l -> StronglySorted (fun a b => le a b = true) (insert_sorted le x l).
Proof.
  intros T. induction 1 as [|y l Hs IH Hy]; simpl; [repeat constructor|].
  destruct (le x y) eqn:E.
  - constructor; [constructor; auto|]. constructor; auto.
    rewrite Forall_forall in *. intros z Hz. eapply (to_trans _ T); eauto.
  - constructor; auto. rewrite Forall_forall in *. intros z Hz.
    apply (Permutation_in z (Permutation_sym (insert_sorted_perm le x l))) in Hz.
    destruct Hz as [<-|Hz]; auto. destruct (to_total _ T x y); congruence.
Qed.
Lemma sort_sorted {A} (le : A -> A -> bool) l : total_order le ->
  StronglySorted (fun a b => le a b = true) (sort le l).
Proof.
  intros T. induction l as [|x l IH]; simpl; [constructor|]. now apply insert_sorted_sorted.
Qed.
Lemma sorted_nth {A} (R : A -> A -> Prop) l i j x y :
  StronglySorted R l -> i < j -> nth_error l i = Some x -> nth_error l j = Some y -> R x y.
Proof.
  intros Hs. revert i j. induction Hs as [|z l Hs IH Hz]; intros i j Hij Hx Hy; [destruct i; discriminate|].
  destruct j as [|j]; [lia|]. destruct i as [|i]; cbn in Hx, Hy.
  - injection Hx as ->. rewrite Forall_forall in Hz. apply Hz. eapply nth_error_In; eauto.
  - apply (IH i j); auto. lia.
Qed.

Lemma filter_length_le' {A} (f : A -> bool) l : length (filter f l) <= length l.
Proof. induction l as [|x l IH]; simpl; auto. destruct (f x); simpl; lia. Qed.

(** ** Insertion-ordered sets. *)
Lemma add_new_In {A} `{EqDec A} l x y : In y (add_new l x) <-> In y l \/ y = x.
Proof.
  unfold add_new. destruct (mem x l) eqn:E.
  - apply mem_true_iff in E. split; auto. intros [Hy| ->]; auto.
  - rewrite in_app_iff. simpl. intuition.
Qed.
Lemma add_new_NoDup {A} `{EqDec A} l x : NoDup l -> NoDup (add_new l x).
Proof.
  intros Hn. unfold add_new. destruct (mem x l) eqn:E; auto. apply mem_false_iff in E.
  now apply NoDup_app_snoc.
Qed.
Lemma fold_add_new_In {A} `{EqDec A} xs l y : In y (fold_left add_new xs l) <-> In y l \/ In y xs.
Proof.
  revert l; induction xs as [|x xs IH]; intros l; simpl; [tauto|].
  rewrite IH, add_new_In. intuition.
Qed.
Lemma fold_add_new_NoDup {A} `{EqDec A} xs l : NoDup l -> NoDup (fold_left add_new xs l).
Proof. revert l; induction xs as [|x xs IH]; intros l Hn; simpl; auto. apply IH, add_new_NoDup, Hn. Qed.
Lemma fold_add_new_prefix {A} `{EqDec A} xs l : exists r, fold_left add_new xs l = l ++ r.
Proof.
  revert l; induction xs as [|x xs IH]; intros l; simpl.
  - exists []. now rewrite app_nil_r.
  - destruct (IH (add_new l x)) as [r Hr]. unfold add_new in *. destruct (mem x l); [eauto|].
    exists (x :: r). rewrite Hr, <- app_assoc. reflexivity.
Qed.
(** First occurrences: an element precedes another whenever its first
    occurrence does. *)
Lemma fold_add_new_app {A} `{EqDec A} xs ys l :
  fold_left add_new (xs ++ ys) l = fold_left add_new ys (fold_left add_new xs l).
Proof. apply fold_left_app. Qed.

Definition before {A} (l : list A) (x y : A) : Prop :=
  exists i j, i < j /\ nth_error l i = Some x /\ nth_error l j = Some y.
Lemma before_asym {A} (l : list A) x y : NoDup l -> before l x y -> ~ before l y x.
Proof.
  intros Hn [i [j [Hij [Hi Hj]]]] [i' [j' [Hij' [Hi' Hj']]]].
  assert (i = j') by (eapply (proj1 (NoDup_nth_error l)); [exact Hn|eapply nth_error_lt; eauto|congruence]).
  assert (j = i') by (eapply (proj1 (NoDup_nth_error l)); [exact Hn|eapply nth_error_lt; eauto|congruence]).
  lia.
Qed.
Lemma before_irrefl {A} (l : list A) x : NoDup l -> ~ before l x x.
Proof. intros Hn Hb. now apply (before_asym l x x). Qed.
Lemma first_occurrence_before {A} `{EqDec A} xs1 x xs2 y :
  ~ In y xs1 -> x <> y -> In y xs2 ->
  before (fold_left add_new (xs1 ++ x :: xs2) []) x y.
Proof.
  intros Hn Hne Hy. rewrite fold_add_new_app. simpl.
  set (l1 := add_new (fold_left add_new xs1 []) x).
  assert (Hx : In x l1) by (apply add_new_In; auto).
  assert (Hyn : ~ In y l1).
  { intros C. apply add_new_In in C as [C| ->]; [|congruence].
    apply fold_add_new_In in C as [[]|C]. auto. }
  destruct (fold_add_new_prefix xs2 l1) as [r Hr].
  assert (Hyi : In y (fold_left add_new xs2 l1)) by (apply fold_add_new_In; auto).
  rewrite Hr in *. apply in_app_or in Hyi as [C|Hyr]; [tauto|].
  apply In_nth_error in Hx as [i Hi]. apply In_nth_error in Hyr as [j Hj].
  pose proof (nth_error_lt _ _ _ Hi).
  exists i, (length l1 + j). splits; [lia| |].
  - now rewrite nth_error_app1.
  - rewrite nth_error_app2 by lia. now replace (length l1 + j - length l1) with j by lia.
Qed.

(** ** Positions. *)
Lemma enumerate_from {A} (l : list A) n i x :
  In (i, x) (combine (seq n (length l)) l) <-> n <= i /\ nth_error l (i - n) = Some x.
Proof.
  revert n i; induction l as [|y l IH]; intros n i; simpl.
  - split; [tauto|]. intros [_ C]. destruct (i - n); discriminate.
  - rewrite IH. split.
    + intros [E|[H1 H2]].
      * injection E as -> ->. split; [lia|]. now rewrite Nat.sub_diag.
      * split; [lia|]. replace (i - n) with (S (i - S n)) by lia. auto.
    + intros [H1 H2]. destruct (Nat.eq_dec i n) as [->|Hne].
      * rewrite Nat.sub_diag in H2. cbn in H2. left. congruence.
      * right. split; [lia|]. replace (i - n) with (S (i - S n)) in H2 by lia. auto.
Qed.
Lemma enumerate_In {A} (l : list A) i x : In (i, x) (enumerate l) <-> nth_error l i = Some x.
Proof.
  unfold enumerate. rewrite enumerate_from, Nat.sub_0_r. intuition lia.
Qed.
Lemma index_of_Some {A} `{EqDec A} l x i : index_of l x = Some i -> nth_error l i = Some x.
Proof.
  unfold index_of. intros E. apply assoc_In in E. apply in_rev in E.
  apply in_map_iff in E as [[j y] [Ej Hi]]. cbn in Ej. injection Ej as -> ->.
  now apply enumerate_In.
Qed.
Lemma index_of_In {A} `{EqDec A} (l : list A) x : In x l -> exists i, index_of l x = Some i.
Proof.
  intros Hi. unfold index_of. destruct (assoc x _) as [i|] eqn:E; [eauto|].
  apply assoc_None_iff in E. exfalso. apply E.
  apply In_nth_error in Hi as [i Hi]. apply enumerate_In in Hi.
  rewrite map_rev. apply -> in_rev. rewrite map_map. cbn.
  apply in_map_iff. exists (i, x). auto.
Qed.
Lemma index_of_nth {A} `{EqDec A} (l : list A) x i :
  NoDup l -> nth_error l i = Some x -> index_of l x = Some i.
Proof.
  intros Hn Hi. destruct (index_of_In l x) as [j Hj]; [eapply nth_error_In; eauto|].
  rewrite Hj. f_equal. apply index_of_Some in Hj.
  eapply (proj1 (NoDup_nth_error l)); auto; [eapply nth_error_lt; eauto|congruence].
Qed.
Lemma index_of_lt {A} `{EqDec A} (l : list A) x i : index_of l x = Some i -> i < length l.
Proof. intros E. apply index_of_Some in E. eapply nth_error_lt; eauto. Qed.
Lemma index_of_inj {A} `{EqDec A} (l : list A) x y i :
  index_of l x = Some i -> index_of l y = Some i -> x = y.
Proof. intros E1 E2. apply index_of_Some in E1. apply index_of_Some in E2. congruence. Qed.

(** ** Concatenated groups. *)
Lemma running_length n ls : length (running n ls) = S (length ls).
Proof. revert n; induction ls as [|l ls IH]; intros n; simpl; auto. Qed.
Lemma running_nth n ls j : j <= length ls ->
  nth j (running n ls) 0 = n + list_sum (firstn j ls).
Proof.
  revert n j; induction ls as [|l ls IH]; intros n [|j] Hj; simpl in *; try lia.
  rewrite IH by lia. lia.
Qed.
Lemma list_sum_firstn_mono ls i j : i <= j -> list_sum (firstn i ls) <= list_sum (firstn j ls).
Proof.
  revert i j; induction ls as [|l ls IH]; intros [|i] [|j] Hij; simpl; try lia.
  specialize (IH i j). lia.
Qed.
Lemma concat_length {A} (gs : list (list A)) : length (concat gs) = list_sum (map (@length A) gs).
Proof. induction gs as [|g gs IH]; simpl; auto. rewrite app_length. lia. Qed.
Lemma concat_group {A} (gs : list (list A)) j k x :
  list_sum (firstn j (map (@length A) gs)) <= k < list_sum (firstn (S j) (map (@length A) gs)) ->
  nth_error (concat gs) k = Some x -> In x (nth j gs []).
Proof.
  revert j k; induction gs as [|g gs IH]; intros j k Hk Hx; [destruct k; discriminate|].
  destruct j as [|j].
  - cbn [map firstn list_sum fold_right] in Hk. cbn in Hx.
    rewrite nth_error_app1 in Hx by (cbn in Hk; lia). cbn. eapply nth_error_In; eauto.
  - cbn [concat] in Hx. cbn [map firstn] in Hk.
    change (list_sum (length g :: ?l)) with (length g + list_sum l) in Hk.
    rewrite nth_error_app2 in Hx.
    + cbn [nth]. eapply IH; [|exact Hx].
      cbn [map firstn] in *. cbn [list_sum fold_right] in *. fold (list_sum) in *. unfold list_sum in *. lia.
    + cbn [list_sum fold_right] in Hk. unfold list_sum in Hk. lia.
Qed.

(** ** Order within concatenated groups. *)
Lemma in_concat_map {A B} (f : A -> list B) l x :
  In x (concat (map f l)) <-> exists a, In a l /\ In x (f a).
Proof.
  rewrite in_concat. split.
  - intros [y [Hy Hx]]. apply in_map_iff in Hy as [a [<- Ha]]. eauto.
  - intros [a [Ha Hx]]. exists (f a). split; auto. now apply in_map.
Qed.

(** ** Boundaries between tags. *)
Section Svb.
  Context {St : Type}.
  Notation tst := (St * Z)%type.
  Definition tagn (s : tst) : nat := Z.to_nat (snd s + 1).
  Definition count_below (j : nat) (l : list tst) : nat := length (filter (fun s => tagn s <? j) l).

  Lemma zrange_fill a b x arr : (-1 <= a)%Z -> (a <= b)%Z ->
    let arr' := fold_left (fun arr f => updnth (Z.to_nat (f + 2)) x arr) (zrange a b) arr in
    length arr' = length arr /\
    (forall j, j < length arr -> Z.to_nat (a + 2) <= j < Z.to_nat (b + 2) -> nth j arr' 0 = x) /\
    (forall j, ~ (Z.to_nat (a + 2) <= j < Z.to_nat (b + 2)) -> nth j arr' 0 = nth j arr 0).
  Proof.
    intros Ha Hab. unfold zrange.
    remember (Z.to_nat (b - a)) as n eqn:En.
    assert (Eb : b = (a + Z.of_nat n)%Z) by lia. subst b. clear En Hab.
    induction n as [|n IH]; cbn zeta.
    - splits; auto; intros; lia.
    - rewrite seq_S, map_app, fold_left_app. cbn [map fold_left plus].
      cbn zeta in IH. set (arr1 := fold_left _ _ arr) in *. destruct IH as [L1 [I1 O1]].
      replace (Z.to_nat (a + Z.of_nat n + 2)) with (Z.to_nat (a + 2) + n) in * by lia.
      replace (Z.to_nat (a + Z.of_nat (S n) + 2)) with (Z.to_nat (a + 2) + S n) by lia.
      splits.
      + now rewrite updnth_length.
      + intros j Hj Hr. destruct (Nat.eq_dec j (Z.to_nat (a + 2) + n)) as [->|Hne].
        * apply nth_updnth_same. now rewrite L1.
        * rewrite nth_updnth_other by auto. apply I1; auto. lia.
      + intros j Hr. rewrite nth_updnth_other by lia. apply O1. lia.
  Qed.

  Definition tags_sorted (l : list tst) : Prop := StronglySorted (fun a b => (snd a <= snd b)%Z) l.

  Lemma count_below_app j l1 l2 : count_below j (l1 ++ l2) = count_below j l1 + count_below j l2.
  Proof. unfold count_below. now rewrite filter_app, app_length. Qed.
  Lemma count_below_all j l : (forall s, In s l -> tagn s < j) -> count_below j l = length l.
  Proof.
    unfold count_below. intros Hl. f_equal. induction l as [|s l IH]; simpl; auto.
    replace (tagn s <? j) with true by (symmetry; apply Nat.ltb_lt, Hl; simpl; auto).
    f_equal. apply IH. intros; apply Hl; simpl; auto.
  Qed.
  Lemma count_below_none j l : (forall s, In s l -> j <= tagn s) -> count_below j l = 0.
  Proof.
    unfold count_below. intros Hl. induction l as [|s l IH]; simpl; auto.
    replace (tagn s <? j) with false by (symmetry; apply Nat.ltb_ge, Hl; simpl; auto).
    apply IH. intros; apply Hl; simpl; auto.
  Qed.

  Lemma compute_svb_spec K (ts : list tst) :
    tags_sorted ts -> (forall s, In s ts -> (-1 <= snd s < Z.of_nat K)%Z) ->
    length (compute_svb K ts) = K + 2 /\
    forall j, j <= K + 1 -> nth j (compute_svb K ts) 0 = count_below j ts.
  Proof.
    intros Hs Hr. unfold compute_svb.
    assert (G : forall l done T arr,
      ts = done ++ l ->
      (-1 <= T < Z.of_nat K \/ T = -1)%Z -> length arr = K + 2 ->
      (forall s, In s done -> (snd s <= T)%Z) -> (forall s, In s l -> (T <= snd s)%Z) ->
      (forall j, j <= Z.to_nat (T + 1) -> nth j arr 0 = count_below j done) ->
      exists T' arr', fold_left svb_step (combine (seq (length done) (length l)) l) (T, arr) = (T', arr') /\
        (-1 <= T' < Z.of_nat K \/ T' = -1)%Z /\ length arr' = K + 2 /\
        (forall s, In s ts -> (snd s <= T')%Z) /\
        (forall j, j <= Z.to_nat (T' + 1) -> nth j arr' 0 = count_below j ts)).
    { induction l as [|s l IH]; intros done T arr E HT HL H1 H2 H3.
      - rewrite app_nil_r in E. subst done. exists T, arr. splits; auto.
      - cbn [length seq combine fold_left].
        assert (Hsr : (-1 <= snd s < Z.of_nat K)%Z) by (apply Hr; rewrite E; apply in_or_app; simpl; auto).
        assert (HTs : (T <= snd s)%Z) by (apply H2; simpl; auto).
        assert (HT1 : (-1 <= T)%Z) by lia.
        unfold svb_step at 2. cbn [fst snd].
        pose proof (zrange_fill T (snd s) (length done) arr HT1 HTs) as Z. cbn zeta in Z.
        set (arr1 := fold_left _ _ arr) in *. destruct Z as [Z1 [Z2 Z3]].
        replace (S (length done)) with (length (done ++ [s])) by (rewrite app_length; simpl; lia).
        apply IH.
        + rewrite E, <- app_assoc. reflexivity.
        + lia.
        + lia.
        + intros x Hx. apply in_app_or in Hx as [Hx|[<-|[]]]; [|lia]. apply H1 in Hx. lia.
        + intros x Hx. unfold tags_sorted in Hs. rewrite E in Hs.
          apply In_nth_error in Hx as [i Hi].
          refine (sorted_nth _ _ (length done) (length done + S i) s x Hs _ _ _); [lia| |].
          * rewrite nth_error_app2, Nat.sub_diag by lia. reflexivity.
          * rewrite nth_error_app2 by lia. replace (length done + S i - length done) with (S i) by lia. exact Hi.
        + intros j Hj. rewrite count_below_app.
          rewrite (count_below_none j [s]).
          2:{ intros x [<-|[]]. exact Hj. }
          rewrite Nat.add_0_r.
          destruct (le_lt_dec j (Z.to_nat (T + 1))) as [Hle|Hgt].
          * rewrite Z3 by lia. now apply H3.
          * rewrite Z2 by lia. symmetry. apply count_below_all.
            intros x Hx. unfold tagn. pose proof (H1 x Hx).
            assert (Hin : In x ts) by (rewrite E; apply in_or_app; auto). apply Hr in Hin. lia. }
    destruct (G ts [] (-1)%Z (repeat 0 (K + 2))) as [T' [arr' [E [HT [HL [H1 H2]]]]]]; auto.
    - rewrite repeat_length. auto.
    - intros s [].
    - intros s Hi. apply Hr in Hi. lia.
    - intros j Hj. replace j with 0 by lia. simpl. destruct (K + 2); reflexivity.
    - cbn [length] in E. unfold enumerate. rewrite E.
      assert (HTK : (-1 <= T')%Z /\ (T' <= Z.of_nat K)%Z) by lia.
      pose proof (zrange_fill T' (Z.of_nat K) (length ts) arr' (proj1 HTK) (proj2 HTK)) as Z. cbn zeta in Z.
      set (arr1 := fold_left _ _ arr') in *. destruct Z as [Z1 [Z2 Z3]].
      split; [lia|]. intros j Hj.
      destruct (le_lt_dec j (Z.to_nat (T' + 1))) as [Hle|Hgt].
      + rewrite Z3 by lia. auto.
      + rewrite Z2 by lia. symmetry. apply count_below_all.
        intros x Hx. pose proof (H1 x Hx). apply Hr in Hx. unfold tagn. lia.
  Qed.

  Lemma count_below_mono i j l : i <= j -> count_below i l <= count_below j l.
  Proof.
    intros Hij. unfold count_below. induction l as [|s l IH]; simpl; auto.
    destruct (tagn s <? i) eqn:E1.
    - replace (tagn s <? j) with true by (apply Nat.ltb_lt in E1; symmetry; apply Nat.ltb_lt; lia). simpl. lia.
    - destruct (tagn s <? j); simpl; lia.
  Qed.

  (** A state lies between the boundaries of its tag. *)
  Lemma tag_position ts i s :
    tags_sorted ts -> (forall x, In x ts -> (-1 <= snd x)%Z) -> nth_error ts i = Some s ->
    count_below (tagn s) ts <= i < count_below (tagn s + 1) ts.
  Proof.
    intros Hs Hr Hi.
    assert (E : ts = firstn i ts ++ skipn i ts) by now rewrite firstn_skipn.
    pose proof (nth_error_lt _ _ _ Hi) as Hlt.
    assert (Hlen : length (firstn i ts) = i) by (rewrite firstn_length; lia).
    split.
    - rewrite E at 1. rewrite count_below_app.
      rewrite (count_below_none _ (skipn i ts)).
      + unfold count_below. pose proof (filter_length_le' (fun s0 => tagn s0 <? tagn s) (firstn i ts)). lia.
      + intros x Hx. apply skipn_In in Hx as [k [Hk Hx]].
        destruct (Nat.eq_dec k i) as [->|Hne].
        * assert (x = s) by congruence. subst. auto.
        * assert (HR : (snd s <= snd x)%Z) by (refine (sorted_nth _ _ i k s x Hs _ Hi Hx); lia). unfold tagn. lia.
    - assert (Hn : forall x, In x (firstn (S i) ts) -> tagn x < tagn s + 1).
      { intros x Hx. apply firstn_In_nth in Hx as [k [Hk Hx]].
        destruct (Nat.eq_dec k i) as [->|Hne].
        - assert (x = s) by congruence. subst. lia.
        - assert (HR : (snd x <= snd s)%Z) by (refine (sorted_nth _ _ k i x s Hs _ Hx Hi); lia). unfold tagn. lia. }
      rewrite <- (firstn_skipn (S i) ts) at 1. rewrite count_below_app, (count_below_all _ (firstn (S i) ts) Hn).
      rewrite firstn_length. lia.
  Qed.
End Svb.
