(** Model of [prune_unreachable_and_rewrite_states],
    r_u_sure/decision_diagrams/gated_state_dag.py:348-490. *)

From Coq Require Import List Bool Arith Lia.
From Verif Require Import Base Graph GatedDag.
Import ListNotations.

Section Rewrite.
  Context {St As In : Type} `{EqDec St}.
  Notation E := (edge St As In).
  Notation D := (dag St As In).

  (** Python's [hash], an arbitrary function (line 395). *)
  Variable hash : St -> nat.

  (** The closure variables of lines 382-387.  [None] is the table's -1. *)
  Record ren := mkRen {
    tbl : list (option nat);       (* state_lookup_table *)
    by_index : list St;            (* states_by_index *)
    fallback : list (St * nat)     (* fallback_lookup_table *)
  }.

  (** Line 396: [hash(state) % scratch_space_size]. *)
  Definition slot (r : ren) (s : St) : nat := hash s mod length (tbl r).

  (** Lines 394-410, [lookup_id_for_state]. *)
  Definition lookup_id (r : ren) (s : St) : option nat :=
    match nth (slot r s) (tbl r) None with
    | None => None
    | Some i =>
        match nth_error (by_index r) i with
        | Some s' => if eqb s s' then Some i else assoc s (fallback r)
        | None => None
        end
    end.

  (** Lines 412-434, [lookup_or_create_id_for_state]. *)
  Definition lookup_or_create (r : ren) (s : St) : ren * nat :=
    match nth (slot r s) (tbl r) None with
    | None =>
        let next := length (by_index r) in
        (mkRen (updnth (slot r s) (Some next) (tbl r)) (by_index r ++ [s]) (fallback r),
         next)
    | Some i =>
        match nth_error (by_index r) i with
        | Some s' =>
            if eqb s s' then (r, i)
            else
              let next := length (by_index r) in
              (mkRen (updnth (slot r s) (Some next) (tbl r)) (by_index r ++ [s])
                     ((s', i) :: fallback r), next)
        | None => (r, i)
        end
    end.

  (** Lines 438-449, first pass.  Simplification: the rewritten triple keeps the
      original edge itself instead of its index in [dag.edges]. *)
  Fixpoint first_pass (r : ren) (es : list E) : ren * list (nat * nat * E) :=
    match es with
    | [] => (r, [])
    | e :: es' =>
        if negb (cltb (ecost e) Inf) then first_pass r es'
        else
          match lookup_id r (source e) with
          | None => first_pass r es'
          | Some i =>
              let (r1, j) := lookup_or_create r (dest e) in
              let (r2, ts) := first_pass r1 es' in
              (r2, (i, j, e) :: ts)
          end
    end.

  (** Lines 455-458, second pass over the reversed triples. *)
  Definition second_step (reach : list bool) (t : nat * nat * E) : list bool :=
    let '(i, j, _) := t in
    if nth j reach false then updnth i true reach else reach.
  Definition second_pass (ts : list (nat * nat * E)) (reach : list bool) : list bool :=
    fold_left second_step (rev ts) reach.

  (** Line 467: [np.cumsum(reachable_from_end) - 1], at one index. *)
  Definition compact (reach : list bool) (i : nat) : nat :=
    length (filter (fun b => b) (firstn (S i) reach)) - 1.

  (** Lines 468-480, third pass. *)
  Definition third_pass (reach : list bool) (ts : list (nat * nat * E))
    : list (edge nat As In) :=
    flat_map (fun '(i, j, e) =>
                if nth j reach false
                then [mkEdge (compact reach i) (compact reach j)
                             (ecost e) (assignment e) (info e)]
                else []) ts.

  (** The whole function.  [IndexError] stands for the out-of-bounds access of
      line 454: under numba it is undefined behaviour, not an exception. *)
  Definition prune_and_rewrite (d : D) (scratch : list (option nat))
    : result (dag nat As In) :=
    let r0 := mkRen (map (fun _ => None) scratch) [] [] in
    let (r1, _) := lookup_or_create r0 (initial_state d) in
    let (r2, ts) := first_pass r1 (edges d) in
    let n := length (by_index r2) in
    let (r3, f) := lookup_or_create r2 (final_state d) in
    if n <=? f then Err IndexError
    else
      let reach := second_pass ts (updnth f true (repeat false n)) in
      match lookup_id r3 (initial_state d) with
      | None => Err IndexError
      | Some i0 =>
          if negb (nth i0 reach false) then Err ValueError
          else
            match lookup_id r3 (final_state d) with
            | None => Err IndexError
            | Some f' =>
                Ok (mkDag (compact reach i0) (third_pass reach ts) (compact reach f'))
            end
      end.
End Rewrite.
Arguments ren : clear implicits.

(** Renaming the states of a DAG. *)
Definition rename_edge {S T A I} (f : S -> T) (e : edge S A I) : edge T A I :=
  mkEdge (f (source e)) (f (dest e)) (ecost e) (assignment e) (info e).
Definition rename_dag {S T A I} (f : S -> T) (d : dag S A I) : dag T A I :=
  mkDag (f (initial_state d)) (map (rename_edge f) (edges d)) (f (final_state d)).

Section RewriteProofs.
  Context {St As In : Type} `{EqDec St}.
  Notation E := (edge St As In).
  Notation D := (dag St As In).
  Variable hash : St -> nat.

  (** Ranks in a list of booleans. *)
  Definition rank (l : list bool) (i : nat) : nat :=
    length (filter (fun b => b) (firstn i l)).

  Lemma rank_S l i : i < length l ->
    rank l (S i) = rank l i + (if nth i l false then 1 else 0).
  Proof.
    revert i; induction l as [|b l IH]; intros i Hi; simpl in Hi; [lia|].
    destruct i as [|i].
    - unfold rank; simpl. destruct b; reflexivity.
    - assert (Hi' : i < length l) by lia. specialize (IH i Hi').
      unfold rank in *. cbn [firstn filter nth]. destruct b; cbn [length]; cbn [firstn] in IH; rewrite IH; lia.
  Qed.
  Lemma rank_mono l i j : i <= j -> rank l i <= rank l j.
  Proof.
    induction 1 as [|j Hj IH]; [lia|].
    destruct (Nat.lt_ge_cases j (length l)) as [L|L].
    - rewrite rank_S by assumption. lia.
    - unfold rank in *. rewrite (firstn_all2 (n:=S j)) by lia.
      rewrite (firstn_all2 (n:=j)) in IH by lia. assumption.
  Qed.
  Lemma nth_true_lt (l : list bool) i : nth i l false = true -> i < length l.
  Proof.
    intros Hn. destruct (Nat.lt_ge_cases i (length l)); auto.
    rewrite nth_overflow in Hn by assumption. discriminate.
  Qed.
  Lemma compact_rank l i : nth i l false = true -> compact l i = rank l i.
  Proof.
    intros Hn. pose proof (nth_true_lt _ _ Hn). unfold compact.
    change (length (filter (fun b => b) (firstn (S i) l))) with (rank l (S i)).
    rewrite rank_S, Hn by assumption. lia.
  Qed.
  Lemma compact_inj l i j :
    nth i l false = true -> nth j l false = true -> compact l i = compact l j -> i = j.
  Proof.
    intros Hi Hj. rewrite !compact_rank by assumption. intros Heq.
    pose proof (nth_true_lt _ _ Hi) as Li. pose proof (nth_true_lt _ _ Hj) as Lj.
    pose proof (rank_S l i Li) as Ri. pose proof (rank_S l j Lj) as Rj.
    rewrite Hi in Ri. rewrite Hj in Rj.
    destruct (Nat.lt_trichotomy i j) as [L|[L|L]]; auto.
    - pose proof (rank_mono l (S i) j L). lia.
    - pose proof (rank_mono l (S j) i L). lia.
  Qed.
  Lemma compact_lt l i :
    nth i l false = true -> compact l i < length (filter (fun b => b) l).
  Proof.
    intros Hi. rewrite compact_rank by assumption.
    pose proof (nth_true_lt _ _ Hi) as Li. pose proof (rank_S l i Li) as Ri.
    rewrite Hi in Ri. pose proof (rank_mono l (S i) (length l) Li) as M.
    unfold rank in M at 2. rewrite firstn_all in M. lia.
  Qed.
  Lemma compact_surj l : forall k, k < length (filter (fun b => b) l) ->
    exists i, nth i l false = true /\ compact l i = k.
  Proof.
    intros k Hk.
    assert (G : forall n, n <= length l -> k < rank l n ->
              exists i, nth i l false = true /\ rank l i = k).
    { induction n as [|n IH]; intros Hn Hr; [unfold rank in Hr; simpl in Hr; lia|].
      rewrite rank_S in Hr by lia.
      destruct (Nat.lt_ge_cases k (rank l n)) as [L|L]; [apply IH; lia|].
      destruct (nth n l false) eqn:Hnth; [|lia].
      exists n. split; [assumption|lia]. }
    destruct (G (length l)) as [i [Hi Hr]]; auto.
    { unfold rank. now rewrite firstn_all. }
    exists i. split; auto. now rewrite compact_rank.
  Qed.

  (** *** What holds whatever the collisions: identifiers denote states. *)
  Definition ren_sound (r : ren St) : Prop :=
    (forall s i, List.In (s, i) (fallback r) -> nth_error (by_index r) i = Some s).

  Lemma nth_error_app_stable {A} (l1 l2 : list A) i x :
    nth_error l1 i = Some x -> nth_error (l1 ++ l2) i = Some x.
  Proof.
    intros Hn. rewrite nth_error_app1; auto. apply nth_error_Some. congruence.
  Qed.

  Lemma lookup_id_sound r s i :
    ren_sound r -> lookup_id hash r s = Some i -> nth_error (by_index r) i = Some s.
  Proof.
    intros Hr. unfold lookup_id.
    destruct (nth (slot hash r s) (tbl r) None) as [k|]; [|discriminate].
    destruct (nth_error (by_index r) k) as [s'|] eqn:N; [|discriminate].
    destruct (eqb s s') eqn:Q.
    - apply eqb_eq in Q. subst. intros [= <-]. assumption.
    - intros A. apply Hr. now apply assoc_In.
  Qed.

  (** Table entries point inside the state list. *)
  Definition tbl_bounded (r : ren St) : Prop :=
    forall k i, nth k (tbl r) None = Some i -> i < length (by_index r).

  Lemma lookup_or_create_spec r s r' i :
    0 < length (tbl r) -> ren_sound r -> tbl_bounded r ->
    lookup_or_create hash r s = (r', i) ->
    ren_sound r' /\ tbl_bounded r' /\ length (tbl r') = length (tbl r) /\
    (exists l, by_index r' = by_index r ++ l) /\
    nth_error (by_index r') i = Some s /\ lookup_id hash r' s = Some i /\
    i < length (by_index r').
  Proof.
    intros Hlen Hr Hb. unfold lookup_or_create.
    assert (Hslot : slot hash r s < length (tbl r)) by (apply Nat.mod_upper_bound; lia).
    assert (Hnew : forall fb,
      (forall s i, List.In (s, i) fb -> nth_error (by_index r) i = Some s) ->
      forall r1, r1 = mkRen (updnth (slot hash r s) (Some (length (by_index r))) (tbl r))
                       (by_index r ++ [s]) fb ->
      ren_sound r1 /\ tbl_bounded r1 /\ length (tbl r1) = length (tbl r) /\
      (exists l, by_index r1 = by_index r ++ l) /\
      nth_error (by_index r1) (length (by_index r)) = Some s /\
      lookup_id hash r1 s = Some (length (by_index r)) /\
      length (by_index r) < length (by_index r1)).
    { intros fb Hfb r1 ->. repeat split; simpl.
      - intros s0 i0 Hi0. simpl in *. apply nth_error_app_stable. auto.
      - intros k j. simpl. rewrite app_length; simpl.
        destruct (Nat.eq_dec k (slot hash r s)) as [->|Hk].
        + rewrite nth_updnth_same by assumption. intros [= <-]. lia.
        + rewrite nth_updnth_other by congruence. intros Hj. apply Hb in Hj. lia.
      - apply updnth_length.
      - eauto.
      - rewrite nth_error_app2, Nat.sub_diag by lia. reflexivity.
      - unfold lookup_id. simpl.
        replace (slot hash _ s) with (slot hash r s)
          by (unfold slot; simpl; now rewrite updnth_length).
        rewrite nth_updnth_same by assumption.
        rewrite nth_error_app2, Nat.sub_diag by lia. simpl. now rewrite eqb_refl.
      - rewrite app_length; simpl; lia. }
    destruct (nth (slot hash r s) (tbl r) None) as [k|] eqn:Hk.
    - pose proof (Hb _ _ Hk) as Hkl.
      destruct (nth_error (by_index r) k) as [s'|] eqn:N;
        [|apply nth_error_None in N; lia].
      destruct (eqb s s') eqn:Q.
      + apply eqb_eq in Q. subst s'. intros [= <- <-].
        repeat split; auto.
        * exists []. now rewrite app_nil_r.
        * unfold lookup_id. rewrite Hk, N, eqb_refl. reflexivity.
      + intros [= <- <-]. eapply Hnew; [|reflexivity].
        intros s0 i0 [[= <- <-]|Hi0]; auto.
    - intros [= <- <-]. eapply Hnew; [|reflexivity]. apply Hr.
  Qed.

  Definition triples_ok (states : list St) (ts : list (nat * nat * E)) : Prop :=
    forall i j e, List.In (i, j, e) ts ->
      nth_error states i = Some (source e) /\ nth_error states j = Some (dest e).

  Lemma first_pass_sound (es : list E) : forall r r' ts,
    0 < length (tbl r) -> ren_sound r -> tbl_bounded r ->
    first_pass hash r es = (r', ts) ->
    ren_sound r' /\ tbl_bounded r' /\ length (tbl r') = length (tbl r) /\
    (exists l, by_index r' = by_index r ++ l) /\
    triples_ok (by_index r') ts /\
    (forall i j e, List.In (i, j, e) ts -> List.In e es /\ finite_edge e).
  Proof.
    induction es as [|e es IH]; simpl; intros r r' ts Hlen Hr Hb Heq.
    - injection Heq as <- <-. splits; auto.
      + exists []. now rewrite app_nil_r.
      + intros i j e [].
      + intros i j e [].
    - destruct (cltb (ecost e) Inf) eqn:Hc; simpl in Heq.
      + destruct (lookup_id hash r (source e)) as [i|] eqn:Hl.
        * destruct (lookup_or_create hash r (dest e)) as [r1 j] eqn:Hj.
          destruct (first_pass hash r1 es) as [r2 ts'] eqn:Hf.
          injection Heq as <- <-.
          destruct (lookup_or_create_spec _ _ _ _ Hlen Hr Hb Hj)
            as [Hr1 [Hb1 [Hlen1 [[l1 Hl1] [Hn1 [_ _]]]]]].
          assert (Hlen' : 0 < length (tbl r1)) by lia.
          destruct (IH _ _ _ Hlen' Hr1 Hb1 Hf)
            as [Hr2 [Hb2 [Hlen2 [[l2 Hl2] [Ht Hin]]]]].
          split; [assumption|split; [assumption|split; [lia|split; [|split]]]].
          -- exists (l1 ++ l2). rewrite Hl2, Hl1. now rewrite app_assoc.
          -- intros a b e' [[= <- <- <-]|Hi]; [|now apply Ht].
             rewrite Hl2. split; apply nth_error_app_stable.
             ++ rewrite Hl1. apply nth_error_app_stable.
                eapply lookup_id_sound; eauto.
             ++ assumption.
          -- intros a b e' [[= <- <- <-]|Hi].
             ++ split; auto. now apply finite_edge_iff.
             ++ apply Hin in Hi as [? ?]; auto.
        * destruct (IH _ _ _ Hlen Hr Hb Heq) as (?&?&?&?&?&Hin).
          splits; auto. intros a b e' Hi; apply Hin in Hi; tauto.
      + destruct (IH _ _ _ Hlen Hr Hb Heq) as (?&?&?&?&?&Hin).
        splits; auto. intros a b e' Hi; apply Hin in Hi; tauto.
  Qed.

  Lemma second_pass_length (ts : list (nat * nat * E)) reach :
    length (second_pass ts reach) = length reach.
  Proof.
    unfold second_pass. generalize (rev ts). clear ts. intros ts. revert reach.
    induction ts as [|[[i j] e] ts IH]; simpl; auto. intros reach. rewrite IH.
    destruct (nth j reach false); auto. apply updnth_length.
  Qed.

  Lemma second_step_mono t reach k :
    nth k reach false = true -> nth k (second_step (St:=St) (As:=As) (In:=In) reach t) false = true.
  Proof.
    destruct t as [[i j] e]. simpl. intros Hk.
    destruct (nth j reach false); auto.
    destruct (Nat.eq_dec i k) as [->|n].
    - apply nth_updnth_same. now apply nth_true_lt.
    - now rewrite nth_updnth_other.
  Qed.
  Lemma second_fold_mono ts : forall reach k,
    nth k reach false = true ->
    nth k (fold_left (second_step (St:=St) (As:=As) (In:=In)) ts reach) false = true.
  Proof.
    induction ts as [|t ts IH]; simpl; auto. intros reach k Hk.
    apply IH. now apply second_step_mono.
  Qed.

  Lemma second_fold_added ts : forall reach k,
    nth k (fold_left (second_step (St:=St) (As:=As) (In:=In)) ts reach) false = true ->
    nth k reach false = true \/ exists j e, List.In (k, j, e) ts.
  Proof.
    induction ts as [|[[i j] e] ts IH]; simpl; auto. intros reach k Hk.
    apply IH in Hk as [Hk|[j' [e' Hi]]]; [|eauto].
    unfold second_step in Hk. destruct (nth j reach false); auto.
    destruct (Nat.eq_dec i k) as [->|n]; [eauto|].
    rewrite nth_updnth_other in Hk by assumption. auto.
  Qed.

  Inductive sublist {A} : list A -> list A -> Prop :=
  | sub_nil l : sublist [] l
  | sub_skip x l1 l2 : sublist l1 l2 -> sublist l1 (x :: l2)
  | sub_keep x l1 l2 : sublist l1 l2 -> sublist (x :: l1) (x :: l2).
  Lemma sublist_In {A} (l1 l2 : list A) x : sublist l1 l2 -> List.In x l1 -> List.In x l2.
  Proof. induction 1; simpl; intuition. Qed.
  Lemma sublist_ordered (l1 l2 : list E) : sublist l1 l2 -> ordered l2 -> ordered l1.
  Proof.
    induction 1 as [|x l1 l2 Hs IH|x l1 l2 Hs IH]; simpl; auto; intros [Ha Hb]; auto.
    split; auto. intros e' Hi. apply Ha. eapply sublist_In; eauto.
  Qed.
  Lemma first_pass_sublist (es : list E) : forall r r' ts,
    first_pass hash r es = (r', ts) -> sublist (map snd ts) es.
  Proof.
    induction es as [|e es IH]; simpl; intros r r' ts Heq.
    - injection Heq as <- <-. constructor.
    - destruct (negb (cltb (ecost e) Inf)); [apply sub_skip; eauto|].
      destruct (lookup_id hash r (source e)); [|apply sub_skip; eauto].
      destruct (lookup_or_create hash r (dest e)) as [r1 j].
      destruct (first_pass hash r1 es) as [r2 ts'] eqn:Hf.
      injection Heq as <- <-. simpl. apply sub_keep. eauto.
  Qed.

  Lemma second_pass_closed states ts reach i j e :
    triples_ok states ts -> ordered (map snd ts) -> length reach = length states ->
    List.In (i, j, e) ts ->
    nth j (second_pass ts reach) false = true ->
    nth i (second_pass ts reach) false = true.
  Proof.
    intros Hok Ho Hlen Hi Hj. unfold second_pass in *.
    pose proof Hi as Hin.
    apply in_split in Hi as [l1 [l2 ->]].
    rewrite rev_app_distr in *. simpl in *. rewrite <- app_assoc in *. simpl in *.
    rewrite fold_left_app_cons in *.
    apply second_fold_added in Hj as [Hj|[k [e' Hi']]].
    - apply second_fold_mono.
      remember (fold_left (second_step (St:=St) (As:=As) (In:=In)) (rev l2) reach) as R.
      assert (HlenR : length R = length states).
      { subst R. rewrite <- Hlen. clear. generalize (rev l2). intros l. revert reach.
        induction l as [|[[a b] c] l IH]; simpl; auto. intros. rewrite IH.
        destruct (nth b reach false); auto. apply updnth_length. }
      unfold second_step in *. destruct (nth j R false) eqn:M.
      + apply nth_updnth_same. rewrite HlenR.
        destruct (Hok _ _ _ Hin) as [N _]. apply nth_error_Some. congruence.
      + congruence.
    - exfalso. apply in_rev in Hi'.
      rewrite map_app in Ho. simpl in Ho. apply ordered_app in Ho as [_ [_ Ho]].
      apply (Ho e' e).
      + apply in_map_iff. exists (j, k, e'). auto.
      + simpl; auto.
      + destruct (Hok j k e') as [N1 _]; [apply in_or_app; auto|].
        destruct (Hok i j e) as [_ N2]; [apply in_or_app; simpl; auto|]. congruence.
  Qed.

  (** Soundness under arbitrary collisions: every edge of the result is an edge
      of the input, with its states named consistently by [name]. *)
  Theorem rewrite_sound (d : D) scratch d' :
    0 < length scratch -> ordered (edges d) ->
    prune_and_rewrite hash d scratch = Ok d' ->
    exists name : nat -> option St,
      name (initial_state d') = Some (initial_state d) /\
      name (final_state d') = Some (final_state d) /\
      forall e', List.In e' (edges d') ->
        exists e, List.In e (edges d) /\ finite_edge e /\
          name (source e') = Some (source e) /\ name (dest e') = Some (dest e) /\
          ecost e' = ecost e /\ assignment e' = assignment e /\ info e' = info e.
  Proof.
    intros Hs Ho. unfold prune_and_rewrite.
    set (r0 := mkRen (map (fun _ => None) scratch) [] []).
    assert (L0 : 0 < length (tbl r0)) by (simpl; now rewrite map_length).
    assert (S0 : ren_sound r0) by (intros s i []).
    assert (B0 : tbl_bounded r0).
    { intros k i. simpl. intros Hk. exfalso.
      assert (forall l, nth k (map (fun _ : option nat => @None nat) l) None = None).
      { clear. induction k as [|k IH]; intros [|x l]; simpl; auto. }
      congruence. }
    destruct (lookup_or_create hash r0 (initial_state d)) as [r1 i1] eqn:E1.
    destruct (lookup_or_create_spec _ _ _ _ L0 S0 B0 E1) as (S1&B1&L1&[l1 P1]&N1&K1&_).
    destruct (first_pass hash r1 (edges d)) as [r2 ts] eqn:E2.
    assert (L1' : 0 < length (tbl r1)) by lia.
    destruct (first_pass_sound _ _ _ _ L1' S1 B1 E2) as (S2&B2&L2&[l2 P2]&T2&F2).
    destruct (lookup_or_create hash r2 (final_state d)) as [r3 f] eqn:E3.
    assert (L2' : 0 < length (tbl r2)) by lia.
    destruct (lookup_or_create_spec _ _ _ _ L2' S2 B2 E3) as (S3&B3&L3&[l3 P3]&N3&K3&_).
    destruct (length (by_index r2) <=? f) eqn:Hf; [discriminate|].
    apply Nat.leb_gt in Hf.
    set (reach := second_pass ts (updnth f true (repeat false (length (by_index r2))))).
    destruct (lookup_id hash r3 (initial_state d)) as [i0|] eqn:Hi0; [|discriminate].
    destruct (nth i0 reach false) eqn:Hr0; simpl; [|discriminate].
    rewrite K3. intros [= <-]. simpl.
    assert (Hlr : length reach = length (by_index r2)).
    { unfold reach. rewrite second_pass_length, updnth_length. apply repeat_length. }
    set (name := fun k =>
           match find (fun i => nth i reach false && (compact reach i =? k))
                      (seq 0 (length reach)) with
           | Some i => nth_error (by_index r2) i
           | None => None
           end).
    assert (Hname : forall i, nth i reach false = true ->
              name (compact reach i) = nth_error (by_index r2) i).
    { intros i Hi. unfold name.
      destruct (find _ _) as [i'|] eqn:Hfind.
      - apply find_some in Hfind as [_ Hq]. apply andb_true_iff in Hq as [Hq1 Hq2].
        apply Nat.eqb_eq in Hq2. f_equal. now apply (compact_inj reach).
      - exfalso. apply (find_none _ _) with (x:=i) in Hfind.
        + rewrite Hi, Nat.eqb_refl in Hfind. discriminate.
        + apply in_seq. apply nth_true_lt in Hi. lia. }
    assert (Hnf : nth f reach false = true).
    { unfold reach, second_pass. apply second_fold_mono. apply nth_updnth_same.
      now rewrite repeat_length. }
    assert (Hstates : forall i x, i < length (by_index r2) ->
              nth_error (by_index r3) i = Some x -> nth_error (by_index r2) i = Some x).
    { intros i x Hi. rewrite P3. now rewrite nth_error_app1. }
    exists name. splits.
    - rewrite Hname by assumption. apply Hstates.
      + rewrite <- Hlr. now apply nth_true_lt.
      + eapply lookup_id_sound; eauto.
    - rewrite Hname by assumption. apply Hstates; auto.
    - intros e' He'. unfold third_pass in He'. apply in_flat_map in He' as [[[i j] e] [Hi He']].
      destruct (nth j reach false) eqn:Hj; [|contradiction].
      destruct He' as [<-|[]].
      destruct (F2 _ _ _ Hi) as [Hin Hfin]. destruct (T2 _ _ _ Hi) as [Ns Nd].
      exists e. simpl. splits; auto.
      + rewrite Hname; auto. unfold reach.
        eapply second_pass_closed; eauto.
        * eapply sublist_ordered; [eapply first_pass_sublist; eauto|assumption].
        * rewrite updnth_length. apply repeat_length.
      + now rewrite Hname.
  Qed.

  (** *** Without collisions the result is exactly the pruned DAG, renamed. *)
  Fixpoint index_of (s : St) (l : list St) : nat :=
    match l with
    | [] => 0
    | x :: l' => if eqb s x then 0 else S (index_of s l')
    end.
  Lemma index_of_In s l : List.In s l -> nth_error l (index_of s l) = Some s.
  Proof.
    induction l as [|x l IH]; simpl; [tauto|]. intros Hi.
    destruct (eqb s x) eqn:Q; [apply eqb_eq in Q; now subst|].
    apply eqb_neq in Q. destruct Hi as [<-|Hi]; [congruence|]. simpl. auto.
  Qed.
  Lemma NoDup_nth_error_inj {A} (l : list A) i j x :
    NoDup l -> nth_error l i = Some x -> nth_error l j = Some x -> i = j.
  Proof.
    intros Hn Hi Hj. eapply NoDup_nth_error; eauto; [|congruence].
    apply nth_error_Some. congruence.
  Qed.

  Variable U : list St.
  Variable N : nat.
  Hypothesis N_pos : 0 < N.
  Hypothesis slots_injective : forall s s',
    List.In s U -> List.In s' U -> hash s mod N = hash s' mod N -> s = s'.

  Definition ren_exact (r : ren St) : Prop :=
    length (tbl r) = N /\ NoDup (by_index r) /\
    (forall s, List.In s (by_index r) -> List.In s U) /\
    (forall s i, List.In s U ->
       (nth (hash s mod N) (tbl r) None = Some i <-> nth_error (by_index r) i = Some s)).

  Lemma lookup_id_exact r s i :
    ren_exact r -> List.In s U ->
    (lookup_id hash r s = Some i <-> nth_error (by_index r) i = Some s).
  Proof.
    intros (HN&Hnd&Hsub&Hx) Hs. unfold lookup_id, slot. rewrite HN.
    destruct (nth (hash s mod N) (tbl r) None) as [k|] eqn:Hk.
    - apply Hx in Hk; auto. rewrite Hk, eqb_refl. split.
      + intros [= <-]. assumption.
      + intros Hi. f_equal. eapply NoDup_nth_error_inj; eauto.
    - split; [discriminate|]. intros Hi. apply Hx in Hi; auto. congruence.
  Qed.

  Lemma lookup_or_create_exact r s r' i :
    ren_exact r -> List.In s U -> lookup_or_create hash r s = (r', i) ->
    ren_exact r' /\ nth_error (by_index r') i = Some s /\
    (if mem s (by_index r) then r' = r
     else by_index r' = by_index r ++ [s] /\ i = length (by_index r)).
  Proof.
    intros Hr Hs. pose proof Hr as (HN&Hnd&Hsub&Hx).
    unfold lookup_or_create, slot. rewrite HN.
    destruct (nth (hash s mod N) (tbl r) None) as [k|] eqn:Hk.
    - apply Hx in Hk; auto. rewrite Hk, eqb_refl. intros [= <- <-].
      splits; auto. assert (M : mem s (by_index r) = true).
      { apply mem_true_iff. eapply nth_error_In; eauto. }
      now rewrite M.
    - intros [= <- <-].
      assert (Hnot : ~ List.In s (by_index r)).
      { intros Hi. apply In_nth_error in Hi as [i Hi]. apply Hx in Hi; auto. congruence. }
      assert (M : mem s (by_index r) = false) by now apply mem_false_iff.
      assert (Hlt : hash s mod N < N) by (apply Nat.mod_upper_bound; lia).
      rewrite M. simpl. splits; auto.
      + unfold ren_exact; simpl. splits.
        * now rewrite updnth_length.
        * apply NoDup_app_snoc; auto.
        * intros s' Hi. apply in_app_or in Hi as [Hi|[<-|[]]]; auto.
        * intros s' i' Hs'.
          destruct (Nat.eq_dec (hash s mod N) (hash s' mod N)) as [Heq|Hne].
          -- apply slots_injective in Heq; auto. subst s'.
             rewrite nth_updnth_same by lia. split.
             ++ intros [= <-]. rewrite nth_error_app2, Nat.sub_diag by lia. reflexivity.
             ++ intros Hi'. f_equal.
                destruct (Nat.lt_ge_cases i' (length (by_index r))) as [L|L].
                ** rewrite nth_error_app1 in Hi' by assumption.
                   apply nth_error_In in Hi'. contradiction.
                ** rewrite nth_error_app2 in Hi' by assumption.
                   destruct (i' - length (by_index r)) as [|m] eqn:D; [lia|].
                   simpl in Hi'. destruct m; discriminate.
          -- rewrite nth_updnth_other by assumption. rewrite Hx by assumption.
             assert (s <> s') by congruence. split.
             ++ apply nth_error_app_stable.
             ++ intros Hi'.
                destruct (Nat.lt_ge_cases i' (length (by_index r))) as [L|L].
                ** now rewrite nth_error_app1 in Hi' by assumption.
                ** rewrite nth_error_app2 in Hi' by assumption.
                   destruct (i' - length (by_index r)) as [|m] eqn:D.
                   --- simpl in Hi'. congruence.
                   --- simpl in Hi'. destruct m; discriminate.
      + rewrite nth_error_app2, Nat.sub_diag by lia. reflexivity.
  Qed.

  Definition fin_edges (es : list E) : list E := filter (fun e => cltb (ecost e) Inf) es.

  Lemma forward_fold_ext (es : list E) : forall S0 S1,
    (forall s, List.In s S0 <-> List.In s S1) ->
    forall s, List.In s (fold_left forward_step es S0) <->
              List.In s (fold_left forward_step es S1).
  Proof.
    induction es as [|e es IH]; simpl; auto. intros S0 S1 Hext. apply IH.
    intros s. unfold forward_step.
    assert (M : mem (source e) S0 = mem (source e) S1).
    { apply eq_iff_eq_true. rewrite !mem_true_iff. apply Hext. }
    rewrite M. destruct (mem (source e) S1); simpl; rewrite Hext; tauto.
  Qed.

  Lemma first_pass_exact (es : list E) : forall r r' ts,
    ren_exact r -> ordered es ->
    (forall e, List.In e es -> List.In (source e) U /\ List.In (dest e) U) ->
    first_pass hash r es = (r', ts) ->
    ren_exact r' /\
    (forall s, List.In s (by_index r') <->
               List.In s (fold_left forward_step (fin_edges es) (by_index r))) /\
    map snd ts = filter (fun e => mem (source e) (by_index r')) (fin_edges es).
  Proof.
    induction es as [|e es IH]; intros r r' ts Hr Ho HU Heq.
    - simpl in Heq. injection Heq as <- <-. simpl. splits; auto. tauto.
    - destruct Ho as [Ho1 Ho2].
      assert (HU' : forall e', List.In e' es -> List.In (source e') U /\ List.In (dest e') U)
        by (intros; apply HU; simpl; auto).
      destruct (HU e) as [HUs HUd]; [simpl; auto|].
      cbn [first_pass] in Heq. cbn [fin_edges filter].
      destruct (cltb (ecost e) Inf) eqn:Hc; cbn [negb] in Heq.
      + destruct (lookup_id hash r (source e)) as [i|] eqn:Hl.
        * destruct (lookup_or_create hash r (dest e)) as [r1 j] eqn:Hj.
          destruct (first_pass hash r1 es) as [r2 ts'] eqn:Hf.
          injection Heq as <- <-.
          destruct (lookup_or_create_exact _ _ _ _ Hr HUd Hj) as [Hr1 [Hn Hm]].
          apply lookup_id_exact in Hl; auto. apply nth_error_In in Hl.
          destruct (IH _ _ _ Hr1 Ho2 HU' Hf) as [Hr2 [Hset Hts]].
          assert (Hstep : forall s, List.In s (by_index r1) <->
                     List.In s (forward_step (by_index r) e)).
          { intros s. unfold forward_step.
            assert (M : mem (source e) (by_index r) = true) by now apply mem_true_iff.
            rewrite M. destruct (mem (dest e) (by_index r)) eqn:M2.
            - subst r1. apply mem_true_iff in M2. simpl.
              split; [tauto|intros [<-|?]; auto].
            - destruct Hm as [-> _]. rewrite in_app_iff. simpl. tauto. }
          splits; auto.
          -- intros s. rewrite Hset. cbn [fold_left]. now apply forward_fold_ext.
          -- cbn [map snd]. cbn [filter]. fold (fin_edges es).
             assert (M : mem (source e) (by_index r2) = true).
             { apply mem_true_iff. apply Hset. apply forward_mono. apply Hstep.
               unfold forward_step.
               destruct (mem (source e) (by_index r)); simpl; auto. }
             rewrite M. now rewrite Hts.
        * destruct (IH _ _ _ Hr Ho2 HU' Heq) as [Hr2 [Hset Hts]].
          assert (Hnot : ~ List.In (source e) (by_index r)).
          { intros Hi. apply In_nth_error in Hi as [i Hi].
            apply lookup_id_exact in Hi; auto. congruence. }
          assert (M : mem (source e) (by_index r) = false) by now apply mem_false_iff.
          splits; auto.
          -- intros s. rewrite Hset. cbn [fold_left]. unfold forward_step at 3.
             rewrite M. reflexivity.
          -- cbn [filter].
             assert (M2 : mem (source e) (by_index r') = false).
             { apply mem_false_iff. rewrite Hset. intros Hi.
               apply forward_added in Hi as [Hi|[e' [Hi Hd]]]; [contradiction|].
               apply filter_In in Hi as [Hi _]. now apply (Ho1 e'). }
             rewrite M2. exact Hts.
      + apply IH; auto.
  Qed.

  Lemma second_fold_exact states (ts : list (nat * nat * E)) : forall reach B,
    NoDup states -> length reach = length states ->
    triples_ok states ts ->
    (forall i s, nth_error states i = Some s -> (nth i reach false = true <-> List.In s B)) ->
    forall i s, nth_error states i = Some s ->
      (nth i (fold_left (second_step (St:=St) (As:=As) (In:=In)) ts reach) false = true <->
       List.In s (fold_left backward_step (map snd ts) B)).
  Proof.
    induction ts as [|[[a b] e] ts IH]; intros reach B Hnd Hlen Hok Hinv; [exact Hinv|].
    cbn [fold_left map snd].
    destruct (Hok a b e) as [Ha Hb]; [simpl; auto|].
    assert (Hok' : triples_ok states ts) by (intros x y z Hi; apply Hok; simpl; auto).
    apply IH; auto.
    - simpl. destruct (nth b reach false); auto. now rewrite updnth_length.
    - intros i s Hi. unfold second_step, backward_step.
      destruct (nth b reach false) eqn:Hr.
      + apply (Hinv _ _ Hb) in Hr. apply mem_true_iff in Hr. rewrite Hr.
        destruct (Nat.eq_dec a i) as [->|Hne].
        * rewrite Ha in Hi. injection Hi as <-. split; [simpl; auto|].
          intros _. apply nth_updnth_same. rewrite Hlen. apply nth_error_Some. congruence.
        * rewrite nth_updnth_other by assumption. rewrite (Hinv _ _ Hi). simpl.
          split; [auto|]. intros [<-|?]; auto. exfalso. apply Hne.
          eapply NoDup_nth_error_inj; eauto.
      + assert (M : mem (dest e) B = false).
        { apply mem_false_iff. intros Hc. apply (Hinv _ _ Hb) in Hc. congruence. }
        rewrite M. auto.
  Qed.

  (** A state is useful if it lies on a complete path of finite edges. *)
  Definition useful (d : D) (s : St) : Prop :=
    (exists p, is_path (edges d) (initial_state d) p s /\ Forall finite_edge p) /\
    (exists p, is_path (edges d) s p (final_state d) /\ Forall finite_edge p).

  Theorem rewrite_exact_aux (d : D) scratch :
    length scratch = N -> U = states_of d -> ordered (edges d) ->
    (useful d (initial_state d) ->
     exists (f : St -> nat) (n : nat),
      prune_and_rewrite hash d scratch = Ok (rename_dag f (prune_to_reachable d)) /\
      (forall s, useful d s -> f s < n) /\
      (forall s s', useful d s -> useful d s' -> f s = f s' -> s = s') /\
      (forall k, k < n -> exists s, useful d s /\ f s = k)) /\
    (~ useful d (initial_state d) -> prune_and_rewrite hash d scratch = Err IndexError).
  Proof.
    intros HN HU Ho.
    assert (HUi : List.In (initial_state d) U) by (subst U; simpl; auto).
    assert (HUf : List.In (final_state d) U) by (subst U; simpl; auto).
    assert (HUe : forall e, List.In e (edges d) -> List.In (source e) U /\ List.In (dest e) U).
    { intros e He. subst U. split; simpl; right; right; apply in_flat_map; exists e;
        split; simpl; auto. }
    unfold prune_and_rewrite.
    set (r0 := mkRen (map (fun _ => None) scratch) [] []).
    assert (X0 : ren_exact r0).
    { unfold ren_exact; simpl. splits.
      - now rewrite map_length.
      - constructor.
      - tauto.
      - intros s i Hs. split.
        + intros Hk. exfalso.
          assert (forall k l, nth k (map (fun _ : option nat => @None nat) l) None = None)
            by (clear; induction k as [|k IH]; intros [|x l]; simpl; auto).
          congruence.
        + destruct i; discriminate. }
    assert (L0 : 0 < length (tbl r0)) by (simpl; rewrite map_length; lia).
    assert (S0 : ren_sound r0) by (intros s i []).
    assert (B0 : tbl_bounded r0).
    { intros k i. simpl. intros Hk. exfalso.
      assert (forall l, nth k (map (fun _ : option nat => @None nat) l) None = None)
        by (clear; induction k as [|k IH]; intros [|x l]; simpl; auto).
      congruence. }
    destruct (lookup_or_create hash r0 (initial_state d)) as [r1 i1] eqn:E1.
    destruct (lookup_or_create_spec _ _ _ _ L0 S0 B0 E1) as (S1&B1&L1&_&N1&_&_).
    destruct (lookup_or_create_exact _ _ _ _ X0 HUi E1) as [X1 [_ P1]].
    simpl in P1. destruct P1 as [P1 _].
    destruct (first_pass hash r1 (edges d)) as [r2 ts] eqn:E2.
    assert (L1' : 0 < length (tbl r1)) by lia.
    destruct (first_pass_sound _ _ _ _ L1' S1 B1 E2) as (S2&B2&L2&_&T2&F2).
    destruct (first_pass_exact _ _ _ _ X1 Ho HUe E2) as [X2 [Set2 Ts2]].
    assert (HF : forall s, List.In s (by_index r2) <-> List.In s (forward_reachable d)).
    { intros s. rewrite Set2, P1. reflexivity. }
    pose proof X2 as (_&ND2&_&_).
    destruct (lookup_or_create hash r2 (final_state d)) as [r3 f] eqn:E3.
    assert (L2' : 0 < length (tbl r2)) by lia.
    destruct (lookup_or_create_spec _ _ _ _ L2' S2 B2 E3) as (S3&B3&L3&_&N3&K3&_).
    destruct (lookup_or_create_exact _ _ _ _ X2 HUf E3) as [X3 [Nf P3]].
    assert (Huse : useful d (initial_state d) <-> List.In (final_state d) (by_index r2)).
    { rewrite HF, forward_reachable_iff by assumption. split.
      - intros [_ Hp]. exact Hp.
      - intros Hp. split; [exists []; split; constructor|exact Hp]. }
    destruct (mem (final_state d) (by_index r2)) eqn:Mf.
    2:{ destruct P3 as [_ ->]. rewrite Nat.leb_refl. apply mem_false_iff in Mf.
        split; [tauto|reflexivity]. }
    subst r3. apply mem_true_iff in Mf. split; [intros _|tauto].
    assert (Hf : f < length (by_index r2)) by (apply nth_error_Some; congruence).
    assert (Hfb : (length (by_index r2) <=? f) = false) by (apply Nat.leb_gt; assumption).
    rewrite Hfb.
    set (reach := second_pass ts (updnth f true (repeat false (length (by_index r2))))).
    assert (Hlr : length reach = length (by_index r2)).
    { unfold reach. rewrite second_pass_length, updnth_length. apply repeat_length. }
    assert (Hreach : forall i s, nth_error (by_index r2) i = Some s ->
              (nth i reach false = true <-> useful d s)).
    { intros i s Hi. unfold reach, second_pass.
      rewrite (second_fold_exact (by_index r2) (rev ts) _ [final_state d]).
      - rewrite map_rev, Ts2. change (fin_edges (edges d)) with (relevant_edges d).
        assert (HFs : List.In s (forward_reachable d))
          by (apply HF; eapply nth_error_In; eauto).
        pose proof HFs as HFs'. rewrite forward_reachable_iff in HFs' by assumption.
        set (FE := filter (fun e => mem (source e) (by_index r2)) (relevant_edges d)).
        assert (HFE : ordered FE)
          by (apply ordered_filter, relevant_ordered; assumption).
        split.
        + intros Hb. apply (backward_sound FE (rev FE) (final_state d)) in Hb.
          * destruct Hb as [p Hp]. split; [exact HFs'|]. exists p.
            apply relevant_path. eapply is_path_incl; [|exact Hp].
            intros e He. eapply is_path_In in He; [|exact Hp].
            now apply filter_In in He.
          * intros e He. now apply in_rev in He.
          * intros x [<-|[]]. exists []. constructor.
        + intros [_ [p Hp]]. apply relevant_path in Hp.
          apply (backward_complete FE (final_state d) [final_state d]) with (p:=p); simpl; auto.
          clear -Hp HFs HF Ho. revert HFs.
          remember (final_state d) as t eqn:Ht. clear Ht.
          induction Hp as [|e p t He Hp IH]; intros HFs; constructor.
          * apply filter_In. split; auto. apply mem_true_iff. now apply HF.
          * apply IH. apply forward_closed; auto. now apply relevant_ordered.
      - assumption.
      - rewrite updnth_length, repeat_length. reflexivity.
      - intros a b e Hi'. apply in_rev in Hi'. now apply T2.
      - intros i' s' Hi'. destruct (Nat.eq_dec f i') as [->|Hne].
        + rewrite nth_updnth_same by (rewrite repeat_length; assumption).
          rewrite Nf in Hi'. injection Hi' as <-. simpl. tauto.
        + rewrite nth_updnth_other by assumption. rewrite nth_repeat.
          split; [discriminate|]. intros [<-|[]]. exfalso. apply Hne.
          eapply NoDup_nth_error_inj; eauto.
      - assumption. }
    pose (name := fun s => compact reach (index_of s (by_index r2))).
    assert (Hin_use : forall s, useful d s -> List.In s (by_index r2)).
    { intros s [Hp _]. apply HF. now apply forward_reachable_iff. }
    assert (Huse_reach : forall s, useful d s ->
              nth (index_of s (by_index r2)) reach false = true).
    { intros s Hs. eapply Hreach; [|exact Hs]. apply index_of_In. auto. }
    assert (Hui : useful d (initial_state d)) by now apply Huse.
    assert (Hidx : forall i s, nth_error (by_index r2) i = Some s -> i = index_of s (by_index r2)).
    { intros i s Hi. eapply NoDup_nth_error_inj; eauto. apply index_of_In.
      eapply nth_error_In; eauto. }
    destruct (lookup_id hash r2 (initial_state d)) as [i0|] eqn:Hi0.
    2:{ exfalso. pose proof (index_of_In _ _ (Hin_use _ Hui)) as Hn.
        apply lookup_id_exact in Hn; auto. congruence. }
    apply lookup_id_exact in Hi0; auto.
    assert (Hr0 : nth i0 reach false = true) by (apply (Hreach _ _ Hi0); assumption).
    rewrite Hr0. simpl. rewrite K3.
    exists name, (length (filter (fun b => b) reach)). splits.
    - f_equal. unfold rename_dag. simpl. f_equal.
      + unfold name. now rewrite <- (Hidx _ _ Hi0).
      + (* the edges *)

        assert (Hedges : edges (prune_to_reachable d) =
                  filter (fun e => mem (dest e) (backward_reachable d))
                         (filter (fun e => mem (source e) (by_index r2)) (relevant_edges d))).
        { rewrite <- prune_jit_agrees by assumption. simpl. rewrite filter_filter.
          apply filter_ext. intros e. f_equal.
          apply eq_iff_eq_true. rewrite !mem_true_iff. symmetry. apply HF. }
        change (filter _ (edges d)) with (edges (prune_to_reachable d)).
        rewrite Hedges. change (relevant_edges d) with (fin_edges (edges d)).
        rewrite <- Ts2.
        assert (Hall : forall i j e, List.In (i, j, e) ts ->
                  nth_error (by_index r2) i = Some (source e) /\
                  nth_error (by_index r2) j = Some (dest e)) by exact T2.
        clearbody reach. clear -Hall Hidx Hreach HF Ho.
        induction ts as [|[[i j] e] ts IH]; [reflexivity|].
        destruct (Hall i j e) as [Ha Hb]; [simpl; auto|].
        cbn [third_pass flat_map map snd filter].
        fold (third_pass reach ts).
        rewrite IH by (intros; apply Hall; simpl; auto).
        assert (M : nth j reach false = mem (dest e) (backward_reachable d)).
        { apply eq_iff_eq_true. rewrite (Hreach _ _ Hb), mem_true_iff.
          rewrite backward_reachable_iff by assumption.
          split; [intros [_ Hx]; exact Hx|]. intros Hx. split; auto.
          apply forward_reachable_iff; auto. apply HF. eapply nth_error_In; eauto. }
        rewrite M. destruct (mem (dest e) (backward_reachable d)); [|reflexivity].
        cbn [app map]. f_equal. unfold rename_edge, name. f_equal; f_equal; auto.
      + unfold name. now rewrite <- (Hidx _ _ Nf).
    - intros s Hs. apply compact_lt. auto.
    - intros s s' Hs Hs' Heq. apply compact_inj in Heq; auto.
      pose proof (index_of_In _ _ (Hin_use _ Hs)) as A1.
      pose proof (index_of_In _ _ (Hin_use _ Hs')) as A2.
      rewrite Heq in A1. congruence.
    - intros k Hk. apply compact_surj in Hk as [i [Hi Hc]].
      destruct (nth_error (by_index r2) i) as [s|] eqn:Hn.
      + exists s. split; [now apply (Hreach _ _ Hn)|].
        unfold name. now rewrite <- (Hidx _ _ Hn).
      + apply nth_error_None in Hn. apply nth_true_lt in Hi. lia.
  Qed.
End RewriteProofs.
