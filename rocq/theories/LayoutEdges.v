(** Where the edges of the three builders' DAGs go. *)

From Coq Require Import List Bool Arith ZArith Lia QArith Qcanon Lqa.
From Verif Require Import Base SeqNodes Graph GatedDag PackedSeq PackedSeqProofs Numbered Decisions ConstraintDag ConstraintProofs EditDag SelectionDag
  Drawing DrawSpec Layouts LayoutSpec LayoutProofs LayoutFrames.
Import ListNotations.
Close Scope Qc_scope. Close Scope Q_scope. Close Scope Z_scope. Open Scope nat_scope. Open Scope list_scope.

Lemma built_edges {St As In} (dSt : EqDec St) (s t : St) (es : list (edge St As In)) d :
  (do p <- add_edges (partial_starting_from s) es; Ok (partial_finish p t)) = Ok d -> edges d = es.
Proof.
  intros H. apply bind_ok_inv in H as [p [H E]]. apply add_edges_inv in H as [_ [H _]]; [|apply partial_inv_start].
  injection E as <-. exact H.
Qed.

Ltac each := repeat first [apply Forall_nil | apply Forall_cons].

Section Constraint.
  Context {M : Type}.
  Notation L := (lnode M).
  Variable T : list L.
  (** A state of the tree [T]. *)
  Definition c_state (s : cstate) : Prop :=
    match s with
    | CFinal => True
    | CAt c q i lvl => exists d l, seq_in T q d l /\ i <= length l /\ match c with Forced => lvl < d | _ => lvl = d end
    end.
  Definition c_edge (e : cedge) : Prop :=
    c_state (source e) /\ c_state (dest e) /\
    match source e, dest e with
    | CAt _ q i _, CAt _ q' i' _ => hop T q i q' i' /\ info e = NoInfo
    | CAt _ _ _ _, CFinal => True
    | CFinal, _ => False
    end.
  Lemma nth_length {A} (l : list A) k x : nth_error l k = Some x -> k < length l.
  Proof. intros H. apply nth_error_Some. congruence. Qed.
  Lemma inside_edges n : forall x, lsize x <= n -> forall q d l k lvl, seq_in T q d l -> nth_error l k = Some x -> lvl < d ->
    Forall c_edge (inside_node q lvl k x).
  Proof.
    induction n as [|n IH]; intros x Hn q d l k lvl Hs Hk Hd; [pose proof (lsize_pos x); lia|].
    pose proof (nth_length _ _ _ Hk) as Hl.
    assert (St : forall i, i <= length l -> c_state (CAt Forced q i lvl)) by (intros i Hi; exists d, l; splits; auto; lia).
    assert (Go : forall e : cedge, source e = CAt Forced q k lvl -> dest e = CAt Forced q (S k) lvl -> info e = NoInfo -> c_edge e).
    { intros e E1 E2 E3. unfold c_edge. rewrite E1, E2. splits; try (apply St; lia); auto. eapply hop_next; eauto. }
    destruct x as [i t|i t m|i|i|i|i cs m]; try (each; apply Go; reflexivity).
    - each; [unfold c_edge; cbn [source dest info deciding free exiting]; splits; try exact I; apply St; lia|now apply Go].
    - rewrite inside_group. rewrite lsize_group in Hn.
      assert (Hg : seq_in T (Z.of_nat (pre i)) (S d) cs) by (eapply seq_group; [exact Hs|eapply nth_error_In; exact Hk]).
      assert (Sg : forall j, j <= length cs -> c_state (CAt Forced (Z.of_nat (pre i)) j lvl)) by (intros j Hj; exists (S d), cs; splits; auto; lia).
      constructor; [|apply Forall_app; split].
      + unfold c_edge; cbn [source dest info deciding free exiting]. splits; [apply St; lia|apply Sg; lia|eapply hop_enter; eauto|reflexivity].
      + assert (G : forall l1 l2, cs = l1 ++ l2 -> Forall c_edge (inside_list (Z.of_nat (pre i)) lvl (length l1) l2)).
        { intros l1 l2. revert l1. induction l2 as [|c l2 IH2]; intros l1 E; [constructor|]. cbn [inside_list]. apply Forall_app. split.
          - apply (IH c) with (d := S d) (l := cs); auto; try lia.
            + subst cs. rewrite lsizes_app, lsizes_cons in Hn. lia.
            + subst cs. rewrite nth_error_app2, Nat.sub_diag by lia. reflexivity.
          - specialize (IH2 (l1 ++ [c])). rewrite app_length, Nat.add_1_r in IH2. apply IH2. rewrite <- app_assoc. exact E. }
        exact (G [] cs eq_refl).
      + constructor; [|constructor]. unfold c_edge; cbn [source dest info deciding free exiting]. splits; [apply Sg; lia|apply St; lia|eapply hop_leave; eauto|reflexivity].
  Qed.
  Lemma inside_list_edges q d l lvl : seq_in T q d l -> lvl < d -> Forall c_edge (inside_list q lvl 0 l).
  Proof.
    intros Hs Hd. assert (G : forall l1 l2, l = l1 ++ l2 -> Forall c_edge (inside_list q lvl (length l1) l2)).
    { intros l1 l2. revert l1. induction l2 as [|c l2 IH2]; intros l1 E; [constructor|]. cbn [inside_list]. apply Forall_app. split.
      - eapply inside_edges; eauto. subst l. rewrite nth_error_app2, Nat.sub_diag by lia. reflexivity.
      - specialize (IH2 (l1 ++ [c])). rewrite app_length, Nat.add_1_r in IH2. apply IH2. rewrite <- app_assoc. exact E. }
    exact (G [] l eq_refl).
  Qed.
  Lemma outside_edges n : forall x, lsize x <= n -> forall q d l k, seq_in T q d l -> nth_error l k = Some x ->
    Forall c_edge (outside_node q d k x).
  Proof.
    induction n as [|n IH]; intros x Hn q d l k Hs Hk; [pose proof (lsize_pos x); lia|].
    pose proof (nth_length _ _ _ Hk) as Hl.
    assert (St : forall c i, i <= length l -> c <> Forced -> c_state (CAt c q i d)) by (intros c i Hi Hc; exists d, l; splits; auto; destruct c; congruence).
    assert (Go : forall (e : cedge) c c', source e = CAt c q k d -> dest e = CAt c' q (S k) d -> info e = NoInfo -> c <> Forced -> c' <> Forced -> c_edge e).
    { intros e c c' E1 E2 E3 C C'. unfold c_edge. rewrite E1, E2. splits; try (apply St; auto; lia); auto. eapply hop_next; eauto. }
    assert (Ex : forall (e : cedge) c, source e = CAt c q k d -> dest e = CFinal -> c <> Forced -> c_edge e).
    { intros e c E1 E2 C. unfold c_edge. rewrite E1, E2. splits; auto; [apply St; auto; lia|exact I]. }
    destruct x as [i t|i t m|i|i|i|i cs m];
      try (each; first [eapply Go; [reflexivity|reflexivity|reflexivity|discriminate|discriminate]|eapply Ex; [reflexivity|reflexivity|discriminate]]).
    - rewrite outside_group. rewrite lsize_group in Hn.
      assert (Hg : seq_in T (Z.of_nat (pre i)) (S d) cs) by (eapply seq_group; [exact Hs|eapply nth_error_In; exact Hk]).
      assert (Sg : forall c j lvl, j <= length cs -> match c with Forced => lvl < S d | _ => lvl = S d end -> c_state (CAt c (Z.of_nat (pre i)) j lvl))
        by (intros c j lvl Hj Hc; exists (S d), cs; splits; auto).
      apply Forall_app. split; (constructor; [|apply Forall_app; split]).
      + unfold c_edge; cbn [source dest info deciding free exiting]. splits; [apply St; [lia|discriminate]|apply Sg; [lia|reflexivity]|eapply hop_enter; eauto|reflexivity].
      + assert (G : forall l1 l2, cs = l1 ++ l2 -> Forall c_edge (outside_list (Z.of_nat (pre i)) (S d) (length l1) l2)).
        { intros l1 l2. revert l1. induction l2 as [|c l2 IH2]; intros l1 E; [constructor|]. cbn [outside_list]. apply Forall_app. split.
          - apply (IH c) with (l := cs); auto.
            + subst cs. rewrite lsizes_app, lsizes_cons in Hn. lia.
            + subst cs. rewrite nth_error_app2, Nat.sub_diag by lia. reflexivity.
          - specialize (IH2 (l1 ++ [c])). rewrite app_length, Nat.add_1_r in IH2. apply IH2. rewrite <- app_assoc. exact E. }
        exact (G [] cs eq_refl).
      + constructor; [|constructor]. unfold c_edge; cbn [source dest info deciding free exiting]. splits; [apply Sg; [lia|reflexivity]|apply St; [lia|discriminate]|eapply hop_leave; eauto|reflexivity].
      + unfold c_edge; cbn [source dest info deciding free exiting]. splits; [apply St; [lia|discriminate]|apply Sg; lia|eapply hop_enter; eauto|reflexivity].
      + eapply inside_list_edges; [exact Hg|lia].
      + constructor; [|constructor]. unfold c_edge; cbn [source dest info deciding free exiting]. splits; [apply Sg; lia|apply St; [lia|discriminate]|eapply hop_leave; eauto|reflexivity].
  Qed.
  Lemma constraint_edges : Forall c_edge (outside_list ROOT 0 0 T ++ [free (CAt Outside ROOT (length T) 0) CFinal]).
  Proof.
    apply Forall_app. split.
    - assert (G : forall l1 l2, T = l1 ++ l2 -> Forall c_edge (outside_list ROOT 0 (length l1) l2)).
      { intros l1 l2. revert l1. induction l2 as [|c l2 IH2]; intros l1 E; [constructor|]. cbn [outside_list]. apply Forall_app. split.
        - eapply outside_edges; [apply le_n|apply seq_root|]. rewrite E. rewrite nth_error_app2, Nat.sub_diag by lia. reflexivity.
        - specialize (IH2 (l1 ++ [c])). rewrite app_length, Nat.add_1_r in IH2. apply IH2. rewrite <- app_assoc. exact E. }
      exact (G [] T eq_refl).
    - constructor; [|constructor]. unfold c_edge; cbn [source dest info deciding free exiting]; splits; try exact I. exists 0, T. splits; auto. apply seq_root.
  Qed.
End Constraint.

Section Edit.
  Context {M : Type} {md : EqDec M}.
  Notation L := (lnode M).
  Variable P : parameters.
  Variable T T' : list L.
  Definition depths (q h : Z) (l l' : list L) (a : align) (d d' : nat) : Prop :=
    match a with RDELETE => d' < d | RINSERT => d < d' | _ => d = d' /\ matched T T' q h l l' end.
  Definition e_state (s : estate) : Prop :=
    match s with
    | EFinal => True
    | EAt a c q i h j => exists d l d' l', seq_in T q d l /\ i <= length l /\ seq_in T' h d' l' /\ j <= length l' /\ depths q h l l' a d d'
    end.
  Definition exits (e : eedge) : Prop := match info e with Some f => act f = ActEarlyExit | None => False end.
  Definition e_edge (e : eedge) : Prop :=
    e_state (source e) /\ e_state (dest e) /\
    match source e, dest e with
    | EAt a c q i h j, EAt a' c' q' i' h' j' =>
        (hop T q i q' i' \/ q = q' /\ i = i' /\ (hop T' h j h' j' \/ h = h' /\ j = j' /\ e_row_of a c < e_row_of a' c')) /\ ~ exits e
    | EAt _ _ _ _ _ _, EFinal => True
    | EFinal, _ => False
    end.
  Lemma both_forall (R : eedge -> Prop) f : (forall c, Forall R (f c)) -> Forall R (both f).
  Proof. intros H. unfold both. apply Forall_app. split; apply H. Qed.
  Lemma in_seq_forall {A} (l : list A) (R : nat -> A -> Prop) (f : nat -> list A -> list eedge) (Q : eedge -> Prop) :
    (forall k, f k [] = []) -> (forall k x l', nth_error l k = Some x -> Forall Q (f (S k) l') -> Forall Q (f k (x :: l'))) ->
    Forall Q (f 0 l).
  Proof.
    intros H0 H1. assert (G : forall l1 l2, l = l1 ++ l2 -> Forall Q (f (length l1) l2)).
    { intros l1 l2. revert l1. induction l2 as [|c l2 IH2]; intros l1 E; [rewrite H0; constructor|]. apply H1.
      - subst l. rewrite nth_error_app2, Nat.sub_diag by lia. reflexivity.
      - specialize (IH2 (l1 ++ [c])). rewrite app_length, Nat.add_1_r in IH2. apply IH2. rewrite <- app_assoc. exact E. }
    exact (G [] l eq_refl).
  Qed.
  Section At.
    Variable q h : Z.
    Variable d d' : nat.
    Variable l l' : list L.
    Hypothesis Hq : seq_in T q d l.
    Hypothesis Hh : seq_in T' h d' l'.
    Lemma at_state a c i j : i <= length l -> j <= length l' -> depths q h l l' a d d' -> e_state (EAt a c q i h j).
    Proof using Hq Hh. intros. exists d, l, d', l'. splits; auto. Qed.
    Lemma across (e : eedge) a c a' c' i j : source e = EAt a c q i h j -> dest e = EAt a' c' q (S i) h j -> i < length l -> j <= length l' ->
      depths q h l l' a d d' -> depths q h l l' a' d d' -> ~ exits e -> e_edge e.
    Proof using Hq Hh.
      intros E1 E2 Hi Hj A A' X. unfold e_edge. rewrite E1, E2. splits; auto; try (apply at_state; auto; lia). left. eapply hop_next; eauto.
    Qed.
    Lemma slant (e : eedge) a c a' c' i j : source e = EAt a c q i h j -> dest e = EAt a' c' q (S i) h (S j) -> i < length l -> j < length l' ->
      depths q h l l' a d d' -> depths q h l l' a' d d' -> ~ exits e -> e_edge e.
    Proof using Hq Hh.
      intros E1 E2 Hi Hj A A' X. unfold e_edge. rewrite E1, E2. splits; auto; try (apply at_state; auto; lia). left. eapply hop_next; eauto.
    Qed.
    Lemma down (e : eedge) a c i j : source e = EAt a c q i h j -> dest e = EAt a c q i h (S j) -> i <= length l -> j < length l' ->
      depths q h l l' a d d' -> ~ exits e -> e_edge e.
    Proof using Hq Hh.
      intros E1 E2 Hi Hj A X. unfold e_edge. rewrite E1, E2. splits; auto; try (apply at_state; auto; lia). right. splits; auto. left. eapply hop_next; eauto.
    Qed.
    Lemma within (e : eedge) a c a' c' i j : source e = EAt a c q i h j -> dest e = EAt a' c' q i h j -> i <= length l -> j <= length l' ->
      depths q h l l' a d d' -> depths q h l l' a' d d' -> e_row_of a c < e_row_of a' c' -> ~ exits e -> e_edge e.
    Proof using Hq Hh.
      intros E1 E2 Hi Hj A A' R X. unfold e_edge. rewrite E1, E2. splits; auto; try (apply at_state; auto; lia). right. splits; auto.
    Qed.
    Lemma out (e : eedge) a c i j : source e = EAt a c q i h j -> dest e = EFinal -> i <= length l -> j <= length l' -> depths q h l l' a d d' -> e_edge e.
    Proof using Hq Hh. intros E1 E2 Hi Hj A. unfold e_edge. rewrite E1, E2. splits; try exact I. now apply at_state. Qed.
    Lemma no_exit (s t : estate) c a i : (match i with Some f => act f <> ActEarlyExit | None => True end) -> ~ exits (mkEdge s t c a i : eedge).
    Proof. unfold exits. cbn. destruct i; auto. Qed.
    Lemma advance_edges a i j x : nth_error l i = Some x -> j <= length l' -> depths q h l l' a d d' -> Forall e_edge (advance P a q i h j x).
    Proof using Hq Hh.
      intros Hx Hj A. pose proof (nth_length _ _ _ Hx) as Hi.
      destruct x as [p t|p t m|p|p|p|p cs m]; cbn [advance]; try exact (Forall_nil _); try (apply both_forall; intros c); each;
        first [eapply out; [reflexivity|reflexivity|lia|exact Hj|exact A]
              |eapply across; [reflexivity|reflexivity|exact Hi|exact Hj|exact A|exact A|apply no_exit; cbn; try discriminate; exact I]].
    Qed.
    Lemma skip_edges a i j y : nth_error l' j = Some y -> i <= length l -> depths q h l l' a d d' -> Forall e_edge (skip a q i h j y).
    Proof using Hq Hh.
      intros Hy Hi A. pose proof (nth_length _ _ _ Hy) as Hj. destruct y; cbn [skip]; try exact (Forall_nil _). apply both_forall; intros c; each.
      eapply down; [reflexivity|reflexivity|exact Hi|exact Hj|exact A|apply no_exit; discriminate].
    Qed.
  End At.
  Lemma remove_edges n : forall x, lsize x <= n -> forall a q h d d' l l' i j, seq_in T q d l -> seq_in T' h d' l' -> nth_error l i = Some x -> j <= length l' ->
    depths q h l l' a d d' -> d' <= d -> Forall e_edge (remove P a q i h j x).
  Proof.
    induction n as [|n IH]; intros x Hn a q h d d' l l' i j Hq Hh Hx Hj A D; [pose proof (lsize_pos x); lia|].
    pose proof (nth_length _ _ _ Hx) as Hi.
    destruct x as [p t|p t m|p|p|p|p cs m]; try (eapply (advance_edges q h d d' l l'); eauto).
    - cbn [remove]. apply both_forall; intros c; each.
      eapply (across q h d d' l l' Hq Hh); [reflexivity|reflexivity|exact Hi|exact Hj|exact A|exact A|apply no_exit; discriminate].
    - rewrite remove_group. rewrite lsize_group in Hn.
      assert (Hg : seq_in T (Z.of_nat (pre p)) (S d) cs) by (eapply seq_group; [exact Hq|eapply nth_error_In; exact Hx]).
      apply Forall_app. split; [|apply Forall_app; split].
      + apply both_forall; intros c; each. unfold e_edge; cbn [source dest]. splits; [eapply at_state; eauto; lia|eapply at_state; eauto; cbn; lia| |apply no_exit; exact I].
        left. eapply hop_enter; eauto.
      + apply (in_seq_forall cs (fun _ _ => True) (fun k s => remove_list P (Z.of_nat (pre p)) k h j s)); [reflexivity|].
        intros k x s Hk F. cbn [remove_list]. apply Forall_app. split; [|exact F].
        eapply IH; [| | |exact Hk|exact Hj| |]; [|exact Hg|exact Hh|cbn; lia|lia].
        apply nth_error_split in Hk as (l1 & l2 & -> & _). rewrite lsizes_app, lsizes_cons in Hn. lia.
      + apply both_forall; intros c; each. unfold e_edge; cbn [source dest]. splits; [eapply at_state; eauto; cbn; lia|eapply at_state; eauto; lia| |apply no_exit; exact I].
        left. eapply hop_leave; eauto.
  Qed.
  Lemma add_edges_good n : forall y, lsize y <= n -> forall a q h d d' l l' i j, seq_in T q d l -> seq_in T' h d' l' -> nth_error l' j = Some y -> i <= length l ->
    depths q h l l' a d d' -> d <= d' -> Forall e_edge (add P a q i h j y).
  Proof.
    induction n as [|n IH]; intros y Hn a q h d d' l l' i j Hq Hh Hy Hi A D; [pose proof (lsize_pos y); lia|].
    pose proof (nth_length _ _ _ Hy) as Hj.
    destruct y as [p t|p t m|p|p|p|p ds m]; try (eapply (skip_edges q h d d' l l'); eauto).
    - cbn [add]. apply both_forall; intros c; each.
      eapply (down q h d d' l l' Hq Hh); [reflexivity|reflexivity|exact Hi|exact Hj|exact A|apply no_exit; discriminate].
    - rewrite add_group. rewrite lsize_group in Hn.
      assert (Hg : seq_in T' (Z.of_nat (pre p)) (S d') ds) by (eapply seq_group; [exact Hh|eapply nth_error_In; exact Hy]).
      apply Forall_app. split; [|apply Forall_app; split].
      + apply both_forall; intros c; each. unfold e_edge; cbn [source dest]. splits; [eapply at_state; eauto; lia|eapply at_state; eauto; cbn; lia| |apply no_exit; exact I].
        right. splits; auto. left. eapply hop_enter; eauto.
      + apply (in_seq_forall ds (fun _ _ => True) (fun k s => add_list P q i (Z.of_nat (pre p)) k s)); [reflexivity|].
        intros k x s Hk F. cbn [add_list]. apply Forall_app. split; [|exact F].
        eapply IH; [| | |exact Hk|exact Hi| |]; [|exact Hq|exact Hg|cbn; lia|lia].
        apply nth_error_split in Hk as (l1 & l2 & -> & _). rewrite lsizes_app, lsizes_cons in Hn. lia.
      + apply both_forall; intros c; each. unfold e_edge; cbn [source dest]. splits; [eapply at_state; eauto; cbn; lia|eapply at_state; eauto; lia| |apply no_exit; exact I].
        right. splits; auto. left. eapply hop_leave; eauto.
  Qed.
  Lemma on_forall (f : L -> list eedge) x : (forall y, x = Some y -> Forall e_edge (f y)) -> Forall e_edge (on f x).
  Proof. intros H. destruct x; cbn; auto. Qed.
  Opaque both.
  Lemma here_edges q h d l l' i j x y : matched T T' q h l l' -> seq_in T q d l -> seq_in T' h d l' -> i <= length l -> j <= length l' ->
    (x = None \/ nth_error l i = x) -> (y = None \/ nth_error l' j = y) -> Forall e_edge (here P q i h j x y).
  Proof.
    intros Hm Hq Hh Hi Hj Hx Hy. unfold here.
    assert (D : depths q h l l' PROCESS d d) by (split; auto).
    assert (X : forall x0, x = Some x0 -> nth_error l i = Some x0) by (intros x0 E; destruct Hx; congruence).
    assert (Y : forall y0, y = Some y0 -> nth_error l' j = Some y0) by (intros y0 E; destruct Hy; congruence).
    repeat (apply Forall_app; split).
    - apply on_forall. intros x0 E. eapply advance_edges; eauto.
    - apply both_forall; intros c; each; (eapply (within q h d d l l' Hq Hh); [reflexivity|reflexivity|exact Hi|exact Hj|exact D|exact D|destruct c; cbn; lia|apply no_exit; cbn; try discriminate; exact I]).
    - apply on_forall. intros x0 E. eapply remove_edges; eauto.
    - apply both_forall; intros c; each; (eapply (within q h d d l l' Hq Hh); [reflexivity|reflexivity|exact Hi|exact Hj|exact D|exact D|destruct c; cbn; lia|apply no_exit; cbn; try discriminate; exact I]).
    - apply on_forall. intros y0 E. eapply add_edges_good; eauto.
    - apply both_forall; intros c; each; (eapply (within q h d d l l' Hq Hh); [reflexivity|reflexivity|exact Hi|exact Hj|exact D|exact D|destruct c; cbn; lia|apply no_exit; cbn; try discriminate; exact I]).
    - apply on_forall. intros y0 E. eapply skip_edges; eauto.
    - destruct x as [x|], y as [y|]; try exact (Forall_nil _). specialize (X x eq_refl). specialize (Y y eq_refl).
      apply nth_length in X, Y. unfold keep. destruct x, y; try exact (Forall_nil _). destruct (_ && _); [|constructor]. apply both_forall; intros c; each.
      eapply (slant q h d d l l' Hq Hh); [reflexivity|reflexivity|exact X|exact Y|exact D|exact D|apply no_exit; discriminate].
  Qed.
  Lemma row_forall base sub (ts : list L) : (forall j, j <= length ts -> Forall e_edge (base j (nth_error ts j))) ->
    (forall j y, nth_error ts j = Some y -> Forall e_edge (sub j y)) -> Forall e_edge (row base sub 0 ts).
  Proof.
    intros H1 H2. assert (G : forall l1 l2, ts = l1 ++ l2 -> Forall e_edge (row base sub (length l1) l2)).
    { intros l1 l2. revert l1. induction l2 as [|y l2 IH]; intros l1 E; cbn [row].
      - specialize (H1 (length l1)). rewrite E, app_nil_r in H1. replace (nth_error l1 (length l1)) with (@None L) in H1 by (symmetry; apply nth_error_None; lia). apply H1. lia.
      - assert (N : nth_error ts (length l1) = Some y) by (rewrite E, nth_error_app2, Nat.sub_diag by lia; reflexivity).
        repeat (apply Forall_app; split).
        + specialize (H1 (length l1)). rewrite N in H1. apply H1. rewrite E, app_length. cbn. lia.
        + now apply H2.
        + specialize (IH (l1 ++ [y])). rewrite app_length, Nat.add_1_r in IH. apply IH. rewrite <- app_assoc. exact E. }
    exact (G [] ts eq_refl).
  Qed.
  Lemma rows_edges n : forall l, lsizes l <= n -> forall q h d l', matched T T' q h l l' -> seq_in T q d l -> seq_in T' h d l' -> Forall e_edge (rows P q h 0 l l').
  Proof.
    induction n as [n IH] using lt_wf_ind. intros l Hn q h d l' Hm Hq Hh.
    assert (G : forall l1 l2, l = l1 ++ l2 -> Forall e_edge (rows P q h (length l1) l2 l')).
    { intros l1 l2. revert l1. induction l2 as [|x l2 IH2]; intros l1 E; cbn [rows].
      - unfold last_row. apply row_forall; [|constructor]. intros j Hj. eapply here_edges; eauto. rewrite E, app_length. lia.
      - assert (Nx : nth_error l (length l1) = Some x) by (rewrite E, nth_error_app2, Nat.sub_diag by lia; reflexivity).
        pose proof (nth_length _ _ _ Nx) as Hi. apply Forall_app. split.
        + rewrite node_row_eq. apply row_forall.
          * intros j Hj. eapply here_edges; eauto. lia.
          * intros j y Hy. pose proof (nth_length _ _ _ Hy) as Hj. unfold pair. destruct x as [| | | | |p cs m], y as [| | | | |p' ds m']; try exact (Forall_nil _).
            destruct (eqb m' m) eqn:Em; [|constructor]. cbv zeta.
            assert (Hg : seq_in T (Z.of_nat (pre p)) (S d) cs) by (eapply seq_group; [exact Hq|eapply nth_error_In; exact Nx]).
            assert (Hg' : seq_in T' (Z.of_nat (pre p')) (S d) ds) by (eapply seq_group; [exact Hh|eapply nth_error_In; exact Hy]).
            assert (Eqm : m' = m) by (now apply eqb_eq). subst m'.
            assert (Hm' : matched T T' (Z.of_nat (pre p)) (Z.of_nat (pre p')) cs ds) by (eapply matched_groups; [exact Hm|eapply nth_error_In; exact Nx|eapply nth_error_In; exact Hy]).
            repeat (apply Forall_app; split).
            -- apply both_forall; intros c; each. unfold e_edge; cbn [source dest].
               splits; [eapply at_state; eauto; try lia; split; auto|eapply at_state; eauto; try lia; split; auto| |apply no_exit; exact I]. left. eapply hop_enter; eauto.
            -- eapply (IH (lsizes cs)); eauto. rewrite E, lsizes_app, lsizes_cons, lsize_group in Hn. lia.
            -- apply both_forall; intros c; each. unfold e_edge; cbn [source dest].
               splits; [eapply at_state; eauto; try lia; split; auto|eapply at_state; eauto; try lia; split; auto| |apply no_exit; exact I]. left. eapply hop_leave; eauto.
        + specialize (IH2 (l1 ++ [x])). rewrite app_length, Nat.add_1_r in IH2. apply IH2. rewrite <- app_assoc. exact E. }
    exact (G [] l eq_refl).
  Qed.
  Transparent both.
  Lemma edit_edges : Forall e_edge (rows P ROOT_SEQ ROOT_SEQ 0 T T' ++ [mkEdge (EAt MATCH High ROOT_SEQ (length T) ROOT_SEQ (length T')) EFinal (Fin 0) None None]).
  Proof.
    apply Forall_app. split.
    - eapply rows_edges; [apply le_n|apply matched_root|apply seq_root|apply seq_root].
    - each. eapply (out ROOT_SEQ ROOT_SEQ 0 0 T T'); try reflexivity; try apply seq_root. split; [reflexivity|apply matched_root].
  Qed.
End Edit.

Section Selection.
  Context {M : Type} {md : EqDec M}.
  Variable n m : nat.
  Definition s_state (s : sstate) : Prop := match s with SFinal => True | SAt c i j => i <= n /\ j <= m end.
  Definition s_edge (e : sedge) : Prop :=
    s_state (source e) /\ s_state (dest e) /\
    match source e, dest e with
    | SAt c i j, SAt c' i' j' => i' = S i \/ i = i' /\ (j' = S j \/ j = j' /\ s_row_of c < s_row_of c')
    | SAt _ _ _, SFinal => True
    | SFinal, _ => False
    end.
  Section Round.
    Context (U : text -> M -> utilities) (S' T' : storage M) (flag : option bool) (i j : nat) (p : item) (t : option item).
    Hypothesis Hi : i < n.
    Hypothesis Hj : j <= m.
    Hypothesis Ht : t <> None -> j < m.
    Ltac ok := unfold s_edge; cbn [source dest s_state]; splits; first [lia | left; reflexivity | right; split; [reflexivity|]; first [left; reflexivity|right; split; [reflexivity|cbn; lia]]].
    Lemma round_edges es f : round U S' T' flag i j p t = Ok (es, f) -> Forall s_edge es.
    Proof using Hi Hj Ht.
      unfold round. intros H.
      repeat (let x := fresh "e" in let E := fresh "E" in apply bind_ok_inv in H as [x [E H]]). injection H as <- _.
      assert (T0 : forall y, is_text_or_group t = Some y -> j < m) by (intros y Y; apply Ht; intros N; rewrite N in Y; discriminate).
      repeat (apply Forall_app; split).
      - unfold skipping in E. destruct (cat (snd p)); try (injection E as <-; each; fail);
          apply bind_ok_inv in E as [? [_ E]]; injection E as <-; each; ok.
      - unfold starting in E0. destruct (cat (snd p)); try (injection E0 as <-; each; fail).
        apply bind_ok_inv in E0 as [? [_ E0]]. injection E0 as <-. each; ok.
      - unfold skipping_target. destruct (is_text_or_group t) eqn:Y; each. specialize (T0 _ eq_refl). ok.
      - unfold starting_to_match. destruct (is_text_or_group t) eqn:Y; each. ok.
      - unfold matching_tokens in E1. destruct t as [[w y]|]; [|injection E1 as <-; each]. assert (J : j < m) by (apply Ht; discriminate).
        destruct (cat (snd p)), (cat y); try (injection E1 as <-; each; fail).
        repeat (apply bind_ok_inv in E1 as [? [_ E1]]). injection E1 as <-. destruct (_ && _); each. unfold matching_edge. ok.
      - unfold matching_groups in E2. destruct t as [[w y]|]; [|injection E2 as <-; each]. assert (J : j < m) by (apply Ht; discriminate).
        destruct (cat (snd p)), (cat y); try (injection E2 as <-; each; fail).
        destruct (match fst p with VBefore => _ | _ => _ end); [|injection E2 as <-; each].
        repeat (apply bind_ok_inv in E2 as [? [_ E2]]). injection E2 as <-. destruct (eqb _ _); each. unfold matching_edge. ok.
      - unfold matched_start in E3. destruct (cat (snd p)); try (injection E3 as <-; each; fail).
        apply bind_ok_inv in E3 as [? [_ E3]]. injection E3 as <-. each. unfold staying_matched. ok.
      - unfold matched_end in E4. destruct (cat (snd p)); try (injection E4 as <-; each; fail).
        apply bind_ok_inv in E4 as [? [_ E4]]. injection E4 as <-. each; unfold staying_matched; ok.
      - unfold unmatched in E5. destruct (cat (snd p)); try (injection E5 as <-; each; fail);
          repeat (apply bind_ok_inv in E5 as [? [_ E5]]).
        all: try (injection E5 as <-; cbn [fst]; each; ok).
        destruct flag as [[|]|]; try discriminate; injection E5 as <-; cbn [fst]; each; ok.
      - unfold unmatched_end in E6. destruct (cat (snd p)); try (injection E6 as <-; each; fail).
        apply bind_ok_inv in E6 as [? [_ E6]]. injection E6 as <-. each; ok.
    Qed.
  End Round.
  Context (U : text -> M -> utilities) (S' T' : storage M).
  Lemma targets_edges i p (Hi : i < n) : forall ts flag j es f,
    (forall k, nth_error ts k <> None -> j + k <= m) -> (forall k x, nth_error ts k = Some (Some x) -> j + k < m) ->
    targets_loop U S' T' flag i j p ts = Ok (es, f) -> Forall s_edge es.
  Proof.
    induction ts as [|t ts IH]; intros flag j es f H1 H2 H; cbn [targets_loop] in H.
    - injection H as <- _. constructor.
    - apply bind_ok_inv in H as [[e1 f1] [E1 H]]. apply bind_ok_inv in H as [[e2 f2] [E2 H]]. injection H as <- _. apply Forall_app. split.
      + eapply round_edges; [exact Hi| | |exact E1].
        * specialize (H1 0). cbn in H1. rewrite Nat.add_0_r in H1. apply H1. discriminate.
        * intros Ht. destruct t as [x|]; [|congruence]. specialize (H2 0 x eq_refl). lia.
      + eapply IH; [| |exact E2].
        * intros k Hk. specialize (H1 (S k) Hk). lia.
        * intros k x Hk. specialize (H2 (S k) x Hk). lia.
  Qed.
  Lemma prototypes_edges ts : length ts = m -> forall ps flag i es, i + length ps = n ->
    prototypes_loop U S' T' flag i ps (map Some ts ++ [None]) = Ok es -> Forall s_edge es.
  Proof.
    intros Hm. induction ps as [|p ps IH]; intros flag i es Hn H; cbn [prototypes_loop] in H.
    - injection H as <-. constructor.
    - cbn in Hn. apply bind_ok_inv in H as [[e1 f1] [E1 H]]. apply bind_ok_inv in H as [e2 [E2 H]]. injection H as <-. apply Forall_app. split.
      + eapply targets_edges; [| | |exact E1]; [lia| |].
        * intros k Hk. apply nth_error_Some in Hk. rewrite app_length, map_length in Hk. cbn in *. lia.
        * intros k x Hk. destruct (Nat.lt_ge_cases k m) as [L|L]; [lia|]. rewrite nth_error_app2 in Hk by (rewrite map_length; lia).
          destruct (k - length (map Some ts)) as [|[|k']]; discriminate.
      + eapply IH; [|exact E2]. lia.
  Qed.
  Lemma finishing_edges : Forall s_edge (finishing n (S m)).
  Proof. unfold finishing. apply Forall_forall. intros e H. apply in_map_iff in H as (j & <- & H). apply in_seq in H. unfold s_edge. cbn. splits; auto; lia. Qed.
End Selection.
