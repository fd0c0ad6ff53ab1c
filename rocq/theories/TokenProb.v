(** Model of r_u_sure/tree_structure/token_prob_align.py.  Log probabilities are
    exact rationals (float rounding is not modelled). *)

From Coq Require Import List Bool Arith Lia QArith Qcanon.
From Verif Require Import Base SeqNodes Transforms PackedSeq PackedSeqProofs.
Import ListNotations.
Close Scope Qc_scope. Close Scope Q_scope. Open Scope nat_scope.

#[export] Instance EqDec_text : EqDec text.
Proof. intros x y. decide equality. apply Nat.eq_dec. Defined.

(** The stack of the helper (58): model tokens and log probs, rightmost token
    first; [pop()] takes the last element. *)
Definition stack := list (text * Qc).

(** token_prob_align.py:63-68, [build]. *)
Definition build_helper (toks : list (text * Qc)) : stack := rev toks.

(** token_prob_align.py:93-111: the loop, on the stack read from its top. *)
Fixpoint consume (top : list (text * Qc)) (remaining : nat)
  : text * Qc * list (text * Qc) :=
  match top with
  | [] => ([], 0%Qc, [])
  | (tok, lp) :: top' =>
      if length tok <=? remaining then
        if remaining - length tok =? 0 then (tok, lp, top')
        else let '(o, p, r) := consume top' (remaining - length tok) in
             (tok ++ o, (lp + p)%Qc, r)
      else (firstn remaining tok, lp, (skipn remaining tok, lp) :: top')
  end.
(** token_prob_align.py:70-111, [advance_by_length]. *)
Definition advance_by_length (st : stack) (n : nat) : text * Qc * stack :=
  let '(o, p, r) := consume (rev st) n in (o, p, rev r).

(** token_prob_align.py:113-142. *)
Definition advance_and_get_log_prob_for (st : stack) (external : text) : result (Qc * stack) :=
  let '(tok, p, st') := advance_by_length st (length external) in
  if eqb tok external then Ok (p, st') else Err ValueError.

(** token_prob_align.py:144-148. *)
Definition assert_consumed (st : stack) : result unit :=
  if forallb (fun x => match fst x with [] => true | _ => false end) st
  then Ok tt else Err ValueError.

Section Align.
  Context {M : Type}.
  Notation storage := (storage M).

  (** token_prob_align.py:178-190: the loop; the dict as the list of its entries
      in insertion order (keys are distinct preorder indices). *)
  Fixpoint align_loop (S : storage) (st : stack) (ids : list node_id)
    : result (list (nat * Qc) * stack) :=
    match ids with
    | [] => Ok ([], st)
    | i :: ids' =>
        match cat i with
        | CToken =>
            do x <- lookup (tokens S) (idx i);
            do r <- advance_and_get_log_prob_for st (fst x);
            do k <- align_loop S (snd r) ids';
            Ok ((pre i, fst r) :: fst k, snd k)
        | CDeco =>
            do t <- lookup (decos S) (idx i);
            do r <- advance_and_get_log_prob_for st t;
            align_loop S (snd r) ids'
        | _ => align_loop S st ids'
        end
    end.
  (** token_prob_align.py:151-195, [align_token_log_probs]. *)
  Definition align_token_log_probs (toks : list (text * Qc)) (S : storage) (must : bool)
    : result (list (nat * Qc)) :=
    do r <- align_loop S (build_helper toks) (preorder_traversal S);
    if must then do _ <- assert_consumed (snd r); Ok (fst r) else Ok (fst r).

  (** token_prob_align.py:198-227; the generator is the list of what it yields. *)
  Fixpoint flatten_loop (S : storage) (d : list (nat * Qc)) (ids : list node_id)
    : result (list (text * Qc)) :=
    match ids with
    | [] => Ok []
    | i :: ids' =>
        match cat i with
        | CToken =>
            do x <- lookup (tokens S) (idx i);
            match assoc (pre i) d with
            | None => Err KeyError
            | Some p => do r <- flatten_loop S d ids'; Ok ((fst x, p) :: r)
            end
        | CDeco =>
            do t <- lookup (decos S) (idx i);
            do r <- flatten_loop S d ids'; Ok ((t, 0%Qc) :: r)
        | _ => flatten_loop S d ids'
        end
    end.
  Definition flatten_token_log_probs_from_parsed (S : storage) (d : list (nat * Qc)) :=
    flatten_loop S d (preorder_traversal S).
End Align.

(** ** Specification vocabulary. *)
Definition text_of (toks : list (text * Qc)) : text := concat (map fst toks).
Definition qsum (l : list Qc) : Qc := fold_right Qcplus 0%Qc l.

(** Model tokens with the character positions they occupy. *)
Record span := mkSpan { s_start : nat; s_len : nat; s_lp : Qc }.
Fixpoint spans (start : nat) (toks : list (text * Qc)) : list span :=
  match toks with
  | [] => []
  | (t, p) :: toks' => mkSpan start (length t) p :: spans (start + length t) toks'
  end.
(** The characters [a, a+n) include one of the token's (an empty token counts
    when it sits inside). *)
Definition touches (a n : nat) (x : span) : bool :=
  (s_start x <? a + n) &&
  (if s_len x =? 0 then a <=? s_start x else a <? s_start x + s_len x).
Definition touching (toks : list (text * Qc)) (a n : nat) : Qc :=
  qsum (map s_lp (filter (touches a n) (spans 0 toks))).

(** A run of the helper. *)
Fixpoint advance_all (st : stack) (ns : list nat) : list (text * Qc) * stack :=
  match ns with
  | [] => ([], st)
  | n :: ns' => let '(o, p, st') := advance_by_length st n in
                let '(r, st'') := advance_all st' ns' in ((o, p) :: r, st'')
  end.

(** ** Proofs about the helper. *)
Lemma consume_text top : forall n, let '(o, _, r) := consume top n in
  o = firstn n (text_of top) /\ text_of r = skipn n (text_of top).
Proof.
  induction top as [|[t p] top IH]; intros n; cbn [consume].
  - destruct n; auto.
  - change (text_of ((t, p) :: top)) with (t ++ text_of top).
    destruct (Nat.leb_spec (length t) n) as [Hle|Hgt].
    + destruct (Nat.eqb_spec (n - length t) 0) as [E|E].
      * rewrite firstn_app, skipn_app, E. assert (n = length t) as -> by lia.
        rewrite firstn_all, skipn_all. cbn. now rewrite app_nil_r.
      * specialize (IH (n - length t)). destruct (consume top (n - length t)) as [[o q] r].
        destruct IH as [-> ->]. rewrite firstn_app, skipn_app.
        rewrite (firstn_all2 t), (skipn_all2 t) by lia. auto.
    + change (text_of ((skipn n t, p) :: top)) with (skipn n t ++ text_of top).
      rewrite firstn_app, skipn_app. replace (n - length t) with 0 by lia.
      cbn. now rewrite app_nil_r.
Qed.

Lemma advance_text st n : let '(o, _, st') := advance_by_length st n in
  o = firstn n (text_of (rev st)) /\ text_of (rev st') = skipn n (text_of (rev st)).
Proof.
  unfold advance_by_length. pose proof (consume_text (rev st) n) as Hc.
  destruct (consume (rev st) n) as [[o p] r]. now rewrite rev_involutive.
Qed.

Lemma firstn_skipn_plus {A} a n (l : list A) :
  firstn (a + n) l = firstn a l ++ firstn n (skipn a l).
Proof.
  revert l; induction a as [|a IH]; intros l; auto. destruct l as [|x l]; simpl.
  - now destruct n.
  - now rewrite IH.
Qed.
Lemma skipn_skipn_plus {A} a n (l : list A) : skipn n (skipn a l) = skipn (a + n) l.
Proof.
  revert l; induction a as [|a IH]; intros l; auto. destruct l as [|x l]; simpl; auto.
  now destruct n.
Qed.

Lemma advance_all_text ns : forall st, let '(r, st') := advance_all st ns in
  length r = length ns /\
  concat (map fst r) = firstn (list_sum ns) (text_of (rev st)) /\
  text_of (rev st') = skipn (list_sum ns) (text_of (rev st)) /\
  (forall i n o p, nth_error ns i = Some n -> nth_error r i = Some (o, p) ->
     o = firstn n (skipn (list_sum (firstn i ns)) (text_of (rev st)))).
Proof.
  induction ns as [|n ns IH]; intros st; cbn [advance_all].
  - splits; auto. intros [|i] ? ? ? E; discriminate.
  - pose proof (advance_text st n) as Ha. destruct (advance_by_length st n) as [[o p] st1].
    specialize (IH st1). destruct (advance_all st1 ns) as [r st2].
    destruct Ha as [-> Ha]. destruct IH as [H1 [H2 [H3 H4]]].
    cbn [length map concat fst list_sum fold_right].
    change (fold_right Nat.add 0 ns) with (list_sum ns).
    splits.
    + now rewrite H1.
    + rewrite H2, Ha. now rewrite firstn_skipn_plus.
    + rewrite H3, Ha. apply skipn_skipn_plus.
    + intros [|i] n' o' p' En Er; simpl in En, Er.
      * injection En as <-. injection Er as <- <-. reflexivity.
      * rewrite (H4 i n' o' p' En Er), Ha. cbn [firstn list_sum fold_right].
        rewrite skipn_skipn_plus. reflexivity.
Qed.

(** The unread part after [a] characters. *)
Fixpoint trim (a : nat) (toks : list (text * Qc)) : list (text * Qc) :=
  match a with
  | 0 => toks
  | _ => match toks with
         | [] => []
         | (t, p) :: toks' =>
             if length t <=? a then trim (a - length t) toks' else (skipn a t, p) :: toks'
         end
  end.
Lemma trim_0 toks : trim 0 toks = toks.
Proof. destruct toks; reflexivity. Qed.
Lemma trim_nil a : trim a [] = [].
Proof. destruct a; reflexivity. Qed.
Lemma trim_cons a t p toks : 0 < a ->
  trim a ((t, p) :: toks) =
  if length t <=? a then trim (a - length t) toks else (skipn a t, p) :: toks.
Proof. destruct a; [lia|reflexivity]. Qed.

Lemma trim_trim toks : forall a n, trim n (trim a toks) = trim (a + n) toks.
Proof.
  induction toks as [|[t p] toks IH]; intros a n; [now rewrite !trim_nil|].
  destruct (Nat.eq_dec a 0) as [->|Ha]; [now rewrite trim_0|].
  destruct (Nat.eq_dec n 0) as [->|Hn]; [now rewrite trim_0, Nat.add_0_r|].
  rewrite !(trim_cons) by lia.
  destruct (Nat.leb_spec (length t) a), (Nat.leb_spec (length t) (a + n)); try lia.
  - rewrite IH. f_equal. lia.
  - rewrite trim_cons by lia. rewrite skipn_length.
    destruct (Nat.leb_spec (length t - a) n); [|lia]. f_equal. lia.
  - rewrite trim_cons by lia. rewrite skipn_length.
    destruct (Nat.leb_spec (length t - a) n); [lia|]. now rewrite skipn_skipn_plus.
Qed.

Lemma consume_trim top : forall n, 0 < n -> let '(_, p, r) := consume top n in
  r = trim n top /\ forall s, p = qsum (map s_lp (filter (fun x => s_start x <? s + n) (spans s top))).
Proof.
  induction top as [|[t lp] top IH]; intros n Hn; cbn [consume].
  - rewrite trim_nil. auto.
  - rewrite trim_cons by assumption. cbn [spans filter s_start].
    assert (Hs : forall s, (s <? s + n) = true) by (intros; apply Nat.ltb_lt; lia).
    assert (Hge : forall k s, n <= k ->
              filter (fun x => s_start x <? s + n) (spans (s + k) top) = []).
    { clear -Hn. intros k s Hk. assert (G : forall b, s + n <= b ->
          filter (fun x => s_start x <? s + n) (spans b top) = []).
      { induction top as [|[t p] top IHt]; intros b Hb; auto. cbn [spans filter s_start].
        destruct (Nat.ltb_spec b (s + n)); [lia|]. apply IHt. lia. }
      apply G. lia. }
    destruct (Nat.leb_spec (length t) n) as [Hle|Hgt].
    + destruct (Nat.eqb_spec (n - length t) 0) as [E|E].
      * rewrite E, trim_0. split; auto. intros s. rewrite Hs, Hge by lia.
        cbn. ring.
      * specialize (IH (n - length t) ltac:(lia)).
        destruct (consume top (n - length t)) as [[o q] r]. destruct IH as [-> Hq].
        split; auto. intros s. rewrite Hs. cbn [map qsum fold_right s_lp]. f_equal.
        rewrite (Hq (s + length t)).
        replace (s + length t + (n - length t)) with (s + n) by lia. reflexivity.
    + split; auto. intros s. rewrite Hs, Hge by lia. cbn. ring.
Qed.

Lemma touches_from s a n toks : a = s ->
  filter (touches a n) (spans s toks) = filter (fun x => s_start x <? s + n) (spans s toks).
Proof.
  intros ->. assert (G : forall b, s <= b ->
     filter (touches s n) (spans b toks) = filter (fun x => s_start x <? s + n) (spans b toks)).
  { induction toks as [|[t p] toks IH]; intros b Hb; auto. cbn [spans filter].
    replace (touches s n (mkSpan b (length t) p)) with (b <? s + n).
    - cbn [s_start]. rewrite IH by lia. reflexivity.
    - unfold touches. cbn [s_start s_len]. destruct (Nat.eqb_spec (length t) 0).
      + destruct (Nat.leb_spec s b); [|lia]. now rewrite andb_true_r.
      + destruct (Nat.ltb_spec s (b + length t)); [|lia]. now rewrite andb_true_r. }
  apply G. lia.
Qed.
Lemma touches_trim toks : forall s a n, 0 < n ->
  qsum (map s_lp (filter (touches (s + a) n) (spans s toks))) =
  qsum (map s_lp (filter (fun x => s_start x <? (s + a) + n) (spans (s + a) (trim a toks)))).
Proof.
  induction toks as [|[t p] toks IH]; intros s a n Hn; [now rewrite trim_nil|].
  destruct (Nat.eq_dec a 0) as [->|Ha].
  - rewrite trim_0, Nat.add_0_r. now rewrite touches_from.
  - rewrite trim_cons by lia. cbn [spans filter].
    destruct (Nat.leb_spec (length t) a) as [Hle|Hgt].
    + replace (touches (s + a) n (mkSpan s (length t) p)) with false.
      * specialize (IH (s + length t) (a - length t) n Hn).
        replace (s + length t + (a - length t)) with (s + a) in IH by lia. exact IH.
      * unfold touches. cbn [s_start s_len]. symmetry.
        destruct (Nat.eqb_spec (length t) 0).
        -- destruct (Nat.leb_spec (s + a) s); [lia|]. apply andb_false_r.
        -- destruct (Nat.ltb_spec (s + a) (s + length t)); [lia|]. apply andb_false_r.
    + replace (touches (s + a) n (mkSpan s (length t) p)) with true.
      2:{ unfold touches. cbn [s_start s_len]. destruct (Nat.eqb_spec (length t) 0); [lia|].
          destruct (Nat.ltb_spec s (s + a + n)); [|lia].
          destruct (Nat.ltb_spec (s + a) (s + length t)); [reflexivity|lia]. }
      cbn [spans filter s_start map s_lp].
      destruct (Nat.ltb_spec (s + a) (s + a + n)); [|lia]. cbn [map s_lp qsum fold_right].
      f_equal. rewrite skipn_length.
      replace (s + a + (length t - a)) with (s + length t) by lia.
      assert (G : forall b, s + a <= b ->
        filter (touches (s + a) n) (spans b toks) =
        filter (fun x => s_start x <? s + a + n) (spans b toks)).
      { clear -Ha. induction toks as [|[t p] toks IH]; intros b Hb; auto. cbn [spans filter].
        replace (touches (s + a) n (mkSpan b (length t) p)) with (b <? s + a + n).
        - cbn [s_start]. rewrite IH by lia. reflexivity.
        - unfold touches. cbn [s_start s_len]. destruct (Nat.eqb_spec (length t) 0).
          + destruct (Nat.leb_spec (s + a) b); [|lia]. now rewrite andb_true_r.
          + destruct (Nat.ltb_spec (s + a) (b + length t)); [|lia]. now rewrite andb_true_r. }
      now rewrite G by lia.
Qed.

(** One advance from the state reached after [a] characters. *)
Lemma advance_trim toks a n st :
  0 < n -> rev st = trim a toks ->
  let '(o, p, st') := advance_by_length st n in
  p = touching toks a n /\ rev st' = trim (a + n) toks.
Proof.
  intros Hn Hst. unfold advance_by_length. rewrite Hst.
  pose proof (consume_trim (trim a toks) n Hn) as Hc.
  destruct (consume (trim a toks) n) as [[o p] r]. destruct Hc as [-> Hp].
  rewrite rev_involutive, trim_trim. split; auto.
  unfold touching. pose proof (touches_trim toks 0 a n Hn) as Ht. cbn [plus] in Ht.
  rewrite Ht. apply Hp.
Qed.

Lemma advance_all_log_probs toks ns : forall a st,
  Forall (fun n => 0 < n) ns -> rev st = trim a toks ->
  forall i n o p, nth_error ns i = Some n -> nth_error (fst (advance_all st ns)) i = Some (o, p) ->
    p = touching toks (a + list_sum (firstn i ns)) n.
Proof.
  induction ns as [|n0 ns IH]; intros a st HF Hst i n o p En Er; [destruct i; discriminate|].
  inversion HF as [|? ? Hn0 HF']; subst. cbn [advance_all] in Er.
  pose proof (advance_trim toks a n0 st Hn0 Hst) as Ha.
  destruct (advance_by_length st n0) as [[o1 p1] st1]. destruct Ha as [-> Ha].
  destruct (advance_all st1 ns) as [r st2] eqn:E. cbn [fst] in Er.
  destruct i as [|i]; simpl in En, Er.
  - injection En as <-. injection Er as <- <-.
    change (list_sum (firstn 0 (n0 :: ns))) with 0. rewrite Nat.add_0_r. reflexivity.
  - cbn [firstn list_sum fold_right].
    change (fold_right Nat.add 0 (firstn i ns)) with (list_sum (firstn i ns)).
    rewrite Nat.add_assoc. eapply IH; eauto. rewrite E. exact Er.
Qed.

(** A zero-length advance reports the next token and reads nothing. *)
Lemma advance_zero st t p rest : rev st = (t, p) :: rest ->
  let '(o, q, st') := advance_by_length st 0 in
  o = [] /\ q = p /\ text_of (rev st') = text_of (rev st).
Proof.
  intros E. unfold advance_by_length. rewrite E. cbn [consume].
  destruct t as [|c t]; cbn.
  - now rewrite rev_involutive.
  - rewrite rev_app_distr, rev_involutive. auto.
Qed.

Section AlignProofs.
  Context {M : Type}.
  Notation N := (node M).
  Notation L := (lnode M).
  Notation storage := (storage M).

  (** Text belonging to a node itself. *)
  Definition own_text (n : N) : text :=
    match n with Deco t | Token t _ => t | _ => [] end.
  Definition is_token (n : N) : bool := match n with Token _ _ => true | _ => false end.
  Definition is_text (n : N) : bool := match n with Token _ _ | Deco _ => true | _ => false end.

  (** The nodes of a tree in preorder. *)
  Definition nodes_of (ns : list N) : list N := map item_node (walk_with_paths ns true false []).

  Lemma nodes_own_text (ns : list N) : concat (map own_text (nodes_of ns)) = render ns.
  Proof.
    unfold nodes_of, walk_with_paths.
    assert (Hn : forall (n : N) p, concat (map own_text (map item_node (walk_node true false p n)))
                                   = render_node n).
    { induction n as [x|x mm| | | |cs m IH] using node_ind'; intros p; try reflexivity;
        try (cbn; now rewrite app_nil_r).
      rewrite walk_node_group, app_nil_r. cbn [app map concat item_node own_text fst].
      change (own_text (item_node (Group cs m, p, GROUP_BEFORE_CHILDREN))) with (@nil nat).
      cbn [app]. rewrite render_group. generalize 0. induction IH as [|c l Hc HF IHl]; intros k; auto.
      cbn [walk_list]. rewrite !map_app, concat_app, Hc, IHl. now rewrite render_cons. }
    generalize 0. induction ns as [|n ns IH]; intros k; auto.
    cbn [walk_list]. rewrite !map_app, concat_app, Hn, IH. now rewrite render_cons.
  Qed.

  (** The stored preorder as labelled nodes. *)
  Definition subs (ns : list N) : list L := map snd (lwalks [] 0 (labelled ns)).
  Lemma subs_pre (ns : list N) : map label (subs ns) = preorder_traversal (pack ns).
  Proof.
    unfold subs. rewrite map_map. rewrite pack_labelled. cbn zeta. cbn [preorder_traversal].
    rewrite <- (lwalks_pre (labelled ns) [] 0). reflexivity.
  Qed.
  Lemma subs_nodes (ns : list N) : map erase (subs ns) = nodes_of ns.
  Proof.
    unfold subs, nodes_of, walk_with_paths. rewrite map_map.
    transitivity (map fst (map node_of (lwalks [] 0 (labelled ns)))).
    { rewrite map_map. reflexivity. }
    rewrite lwalks_walk. unfold labelled. rewrite erase_labs, map_map. reflexivity.
  Qed.
  Lemma subs_placed (ns : list N) : Forall (placed (pack ns)) (subs ns).
  Proof.
    apply Forall_forall. intros x Hx. apply in_map_iff in Hx as [[q y] [<- He]].
    apply lwalks_sub in He as [j [y0 [r [Hj [_ Hs]]]]]. simpl in Hs.
    eapply placed_sub; [|exact Hs]. pose proof (pack_placed ns) as F. rewrite Forall_forall in F.
    apply F. eapply nth_error_In; eauto.
  Qed.
  Lemma subs_index (ns : list N) : map (fun x => pre (label x)) (subs ns) = seq 0 (length (subs ns)).
  Proof.
    rewrite <- (map_map label pre), subs_pre. rewrite <- (map_length label (subs ns)), subs_pre.
    rewrite pack_labelled. cbn zeta. cbn [preorder_traversal]. unfold labelled.
    rewrite pre_of_seqs. f_equal.
    rewrite <- (map_length pre), pre_of_seqs. now rewrite seq_length.
  Qed.

  (** The loop, on labelled nodes. *)
  Fixpoint align_nodes (st : stack) (xs : list L) : result (list (nat * Qc) * stack) :=
    match xs with
    | [] => Ok ([], st)
    | LToken i t _ :: xs' =>
        do r <- advance_and_get_log_prob_for st t;
        do k <- align_nodes (snd r) xs';
        Ok ((pre i, fst r) :: fst k, snd k)
    | LDeco _ t :: xs' =>
        do r <- advance_and_get_log_prob_for st t; align_nodes (snd r) xs'
    | _ :: xs' => align_nodes st xs'
    end.
  Lemma align_loop_nodes S (xs : list L) : forall st, Forall (placed S) xs ->
    align_loop S st (map label xs) = align_nodes st xs.
  Proof.
    induction xs as [|x xs IH]; intros st F; auto. inversion F as [|? ? Hx F']; subst.
    apply placed_inv in Hx. destruct x as [i t|i t m|i|i|i|i cs m]; cbn [map label align_loop align_nodes].
    - destruct Hx as [-> ->]. cbn [bind]. destruct (advance_and_get_log_prob_for st t); cbn [bind]; auto.
    - destruct Hx as [-> ->]. cbn [bind fst].
      destruct (advance_and_get_log_prob_for st t); cbn [bind]; auto. now rewrite IH.
    - rewrite Hx. auto.
    - rewrite Hx. auto.
    - rewrite Hx. auto.
    - destruct Hx as [-> _]. auto.
  Qed.

  Lemma advance_get_ok st t :
    (exists p st', advance_and_get_log_prob_for st t = Ok (p, st') /\
       advance_by_length st (length t) = (t, p, st') /\
       text_of (rev st') = skipn (length t) (text_of (rev st)) /\
       text_of (rev st) = t ++ skipn (length t) (text_of (rev st)))
    \/ (advance_and_get_log_prob_for st t = Err ValueError /\
        forall rest, text_of (rev st) <> t ++ rest).
  Proof.
    unfold advance_and_get_log_prob_for. pose proof (advance_text st (length t)) as Ha.
    destruct (advance_by_length st (length t)) as [[o p] st'] eqn:E. destruct Ha as [Ho Hr].
    destruct (eqb o t) eqn:Eo.
    - apply eqb_eq in Eo. rewrite Eo in Ho. rewrite Eo. left. exists p, st'. splits; auto.
      rewrite <- (firstn_skipn (length t) (text_of (rev st))) at 1. now rewrite <- Ho.
    - right. split; auto. intros rest Er. apply eqb_neq in Eo. apply Eo.
      rewrite Ho, Er, firstn_app, Nat.sub_diag, firstn_all. cbn. apply app_nil_r.
  Qed.

  Lemma align_nodes_ok (xs : list L) : forall st,
    (exists r st', align_nodes st xs = Ok (r, st') /\
       text_of (rev st) = concat (map own_text (map erase xs)) ++ text_of (rev st') /\
       map fst r = map (fun x => pre (label x)) (filter (fun x => is_token (erase x)) xs))
    \/ (align_nodes st xs = Err ValueError /\
        forall rest, text_of (rev st) <> concat (map own_text (map erase xs)) ++ rest).
  Proof.
    induction xs as [|x xs IH]; intros st.
    - left. exists [], st. auto.
    - destruct x as [i t|i t m|i|i|i|i cs m]; cbn [align_nodes map erase own_text concat filter is_token];
        try (rewrite app_nil_l; apply IH).
      + destruct (advance_get_ok st t) as [[p [st1 [E [_ [Hs Ht]]]]]|[E Hn]]; rewrite E; cbn [bind snd].
        * destruct (IH st1) as [[r [st' [E2 [Ht2 Hk]]]]|[E2 Hn2]]; [left|right].
          -- exists r, st'. splits; auto. rewrite Ht, <- Hs, Ht2 at 1. now rewrite <- app_assoc.
          -- split; auto. intros rest Er. apply (Hn2 rest). rewrite Hs, Er.
             rewrite <- app_assoc, skipn_app, skipn_all, Nat.sub_diag. reflexivity.
        * right. split; auto. intros rest. rewrite <- app_assoc. apply Hn.
      + destruct (advance_get_ok st t) as [[p [st1 [E [_ [Hs Ht]]]]]|[E Hn]]; rewrite E; cbn [bind snd].
        * destruct (IH st1) as [[r [st' [E2 [Ht2 Hk]]]]|[E2 Hn2]]; rewrite E2; cbn [bind fst snd]; [left|right].
          -- exists ((pre i, p) :: r), st'. splits; auto.
             ++ rewrite Ht, <- Hs, Ht2 at 1. now rewrite <- app_assoc.
             ++ cbn [map fst label]. now rewrite Hk.
          -- split; auto. intros rest Er. apply (Hn2 rest). rewrite Hs, Er.
             rewrite <- app_assoc, skipn_app, skipn_all, Nat.sub_diag. reflexivity.
        * right. split; auto. intros rest. rewrite <- app_assoc. apply Hn.
  Qed.

  Lemma assert_consumed_ok st : assert_consumed st = Ok tt <-> text_of (rev st) = [].
  Proof.
    unfold assert_consumed, text_of.
    assert (G : forall l : stack, concat (map fst l) = [] <-> Forall (fun x => fst x = []) l).
    { induction l as [|[t p] l IH]; simpl; [split; auto|].
      rewrite Forall_cons_iff, <- IH. simpl. split.
      - intros E. now apply app_eq_nil in E.
      - intros [-> ->]. reflexivity. }
    rewrite G. match goal with |- context[forallb ?f st] => destruct (forallb f st) eqn:E end.
    - split; auto. intros _. rewrite forallb_forall in E. apply Forall_forall. intros x Hx.
      apply in_rev in Hx. specialize (E x Hx). destruct (fst x); [reflexivity|discriminate].
    - split; [discriminate|]. intros Ht. exfalso. rewrite Forall_forall in Ht.
      apply not_true_iff_false in E. apply E. apply forallb_forall. intros x Hx.
      apply in_rev in Hx. now rewrite (Ht x Hx).
  Qed.

  Lemma align_success (toks : list (text * Qc)) (ns : list N) (must : bool) :
    is_ok (align_token_log_probs toks (pack ns) must) = true <->
    exists rest, text_of toks = render ns ++ rest /\ (must = true -> rest = []).
  Proof.
    unfold align_token_log_probs, build_helper.
    rewrite <- subs_pre, align_loop_nodes by apply subs_placed.
    destruct (align_nodes_ok (subs ns) (rev toks)) as [[r [st' [E [Ht _]]]]|[E Hn]]; rewrite E; cbn [bind].
    - rewrite rev_involutive, subs_nodes, nodes_own_text in Ht. destruct must; cbn [fst snd].
      + destruct (assert_consumed st') as [[]|] eqn:Ea; cbn [bind is_ok].
        * apply assert_consumed_ok in Ea. split; auto. intros _. exists []. split; auto.
          now rewrite Ht, Ea.
        * split; [discriminate|]. intros [rest [Hr Hn]]. rewrite (Hn eq_refl) in Hr.
          rewrite Ht in Hr. apply app_inv_head in Hr. apply assert_consumed_ok in Hr. congruence.
      + cbn [is_ok]. split; auto. intros _. exists (text_of (rev st')). split; auto. discriminate.
    - cbn [is_ok]. split; [discriminate|]. intros [rest [Hr _]]. exfalso. apply (Hn rest).
      now rewrite rev_involutive, subs_nodes, nodes_own_text.
  Qed.

  Lemma align_result (toks : list (text * Qc)) (ns : list N) (must : bool) r :
    align_token_log_probs toks (pack ns) must = Ok r ->
    exists st', align_nodes (rev toks) (subs ns) = Ok (r, st').
  Proof.
    unfold align_token_log_probs, build_helper.
    rewrite <- subs_pre, align_loop_nodes by apply subs_placed.
    destruct (align_nodes (rev toks) (subs ns)) as [[r' st']|]; [|discriminate].
    cbn [bind fst snd]. destruct must.
    - destruct (assert_consumed st'); [|discriminate]. cbn. intros [= <-]. eauto.
    - intros [= <-]. eauto.
  Qed.

  (** Keys: the preorder indices of the token nodes. *)
  Lemma filter_index {A} (f : A -> bool) (g : A -> nat) (l : list A) : forall k,
    map g l = seq k (length l) ->
    map g (filter f l) = filter (fun j => match nth_error l (j - k) with Some x => f x | None => false end)
                                (seq k (length l)).
  Proof.
    induction l as [|x l IH]; intros k E; auto. cbn [map length seq] in E. injection E as Ek El.
    cbn [length seq filter]. rewrite Nat.sub_diag. cbn [nth_error].
    assert (G : filter (fun j => match nth_error (x :: l) (j - k) with Some x => f x | None => false end)
                  (seq (S k) (length l)) =
                filter (fun j => match nth_error l (j - S k) with Some x => f x | None => false end)
                  (seq (S k) (length l))).
    { apply filter_ext_in. intros j Hj. apply in_seq in Hj.
      replace (j - k) with (S (j - S k)) by lia. reflexivity. }
    rewrite G, <- IH by assumption. destruct (f x); cbn [map]; congruence.
  Qed.

  Definition token_indices (ns : list N) : list nat :=
    filter (fun k => match nth_error (nodes_of ns) k with Some n => is_token n | None => false end)
      (seq 0 (length (nodes_of ns))).

  Lemma align_keys (toks : list (text * Qc)) (ns : list N) (must : bool) r :
    align_token_log_probs toks (pack ns) must = Ok r -> map fst r = token_indices ns.
  Proof.
    intros E. apply align_result in E as [st' E].
    destruct (align_nodes_ok (subs ns) (rev toks)) as [[r' [st'' [E' [_ Hk]]]]|[E' _]];
      rewrite E in E'; [injection E' as <- <-|discriminate].
    rewrite Hk, (filter_index _ _ _ 0) by apply subs_index.
    unfold token_indices. rewrite <- subs_nodes, map_length. apply filter_ext. intros k.
    rewrite Nat.sub_0_r, nth_error_map. destruct (nth_error (subs ns) k); reflexivity.
  Qed.

  (** Values, when no text node is empty. *)
  Lemma align_values_nodes toks (xs : list L) : forall st a r st',
    rev st = trim a toks ->
    Forall (fun x => is_text (erase x) = true -> own_text (erase x) <> []) xs ->
    align_nodes st xs = Ok (r, st') ->
    forall j x, nth_error xs j = Some x -> is_token (erase x) = true ->
      In (pre (label x), touching toks (a + length (concat (map own_text (map erase (firstn j xs)))))
                           (length (own_text (erase x)))) r.
  Proof.
    induction xs as [|y xs IH]; intros st a r st' Hst HF E j x Hj Hx; [destruct j; discriminate|].
    inversion HF as [|? ? Hy HF']; subst.
    destruct y as [i t|i t m|i|i|i|i cs m]; cbn [align_nodes] in E.
    - cbn in Hy. specialize (Hy eq_refl).
      destruct j as [|j]; [simpl in Hj; injection Hj as <-; discriminate|]. simpl in Hj.
      destruct (advance_get_ok st t) as [[p [st1 [E1 [Ea _]]]]|[E1 _]]; rewrite E1 in E; [|discriminate].
      cbn [bind snd] in E. pose proof (advance_trim toks a (length t) st) as Ht. rewrite Ea in Ht.
      destruct Ht as [_ Ht]; auto; [destruct t; [congruence|simpl; lia]|].
      specialize (IH _ _ _ _ Ht HF' E j x Hj Hx).
      cbn [firstn map erase own_text concat]. rewrite app_length, Nat.add_assoc. exact IH.
    - cbn in Hy. specialize (Hy eq_refl).
      destruct (advance_get_ok st t) as [[p [st1 [E1 [Ea _]]]]|[E1 _]]; rewrite E1 in E; [|discriminate].
      cbn [bind snd fst] in E. pose proof (advance_trim toks a (length t) st) as Ht. rewrite Ea in Ht.
      destruct Ht as [Hp Ht]; auto; [destruct t; [congruence|simpl; lia]|].
      destruct (align_nodes st1 xs) as [[r' st'']|] eqn:E2; [|discriminate].
      cbn [bind fst snd] in E. injection E as <- <-.
      destruct j as [|j]; simpl in Hj.
      + injection Hj as <-. left. cbn. rewrite Nat.add_0_r. now rewrite Hp.
      + right. specialize (IH _ _ _ _ Ht HF' E2 j x Hj Hx).
        cbn [firstn map erase own_text concat]. rewrite app_length, Nat.add_assoc. exact IH.
    - destruct j as [|j]; [simpl in Hj; injection Hj as <-; discriminate|]. simpl in Hj.
      specialize (IH _ _ _ _ Hst HF' E j x Hj Hx). exact IH.
    - destruct j as [|j]; [simpl in Hj; injection Hj as <-; discriminate|]. simpl in Hj.
      specialize (IH _ _ _ _ Hst HF' E j x Hj Hx). exact IH.
    - destruct j as [|j]; [simpl in Hj; injection Hj as <-; discriminate|]. simpl in Hj.
      specialize (IH _ _ _ _ Hst HF' E j x Hj Hx). exact IH.
    - destruct j as [|j]; [simpl in Hj; injection Hj as <-; discriminate|]. simpl in Hj.
      specialize (IH _ _ _ _ Hst HF' E j x Hj Hx). exact IH.
  Qed.

  (** Characters before the [k]-th node in preorder. *)
  Definition chars_before (ns : list N) (k : nat) : nat :=
    length (concat (map own_text (firstn k (nodes_of ns)))).

  Lemma align_values (toks : list (text * Qc)) (ns : list N) (must : bool) r k t m :
    Forall (fun n => is_text n = true -> own_text n <> []) (nodes_of ns) ->
    align_token_log_probs toks (pack ns) must = Ok r ->
    nth_error (nodes_of ns) k = Some (Token t m) ->
    In (k, touching toks (chars_before ns k) (length t)) r.
  Proof.
    intros Hne E Hk. apply align_result in E as [st' E].
    rewrite <- subs_nodes in Hk. rewrite nth_error_map in Hk.
    destruct (nth_error (subs ns) k) as [x|] eqn:Ex; [|discriminate]. simpl in Hk.
    injection Hk as Ek.
    pose proof (align_values_nodes toks (subs ns) (rev toks) 0 r st') as G.
    specialize (G ltac:(now rewrite rev_involutive, trim_0)).
    assert (HF : Forall (fun x => is_text (erase x) = true -> own_text (erase x) <> []) (subs ns)).
    { rewrite <- subs_nodes in Hne. rewrite Forall_map in Hne. exact Hne. }
    specialize (G HF E k x Ex). rewrite Ek in G. specialize (G eq_refl). cbn [own_text plus] in G.
    assert (Hp : pre (label x) = k).
    { pose proof (subs_index ns) as Hi. apply (map_nth_error (fun x => pre (label x))) in Ex as Ex'.
      rewrite Hi in Ex'. assert (k < length (subs ns)) by (apply nth_error_Some; congruence).
      apply (nth_error_nth _ _ 0) in Ex'. rewrite seq_nth in Ex'; auto. }
    rewrite Hp in G. unfold chars_before. rewrite <- subs_nodes, firstn_map. exact G.
  Qed.

  (** Flattening. *)
  Definition entry (d : list (nat * Qc)) (x : L) : list (text * Qc) :=
    match x with
    | LToken i t _ => match assoc (pre i) d with Some p => [(t, p)] | None => [] end
    | LDeco _ t => [(t, 0%Qc)]
    | _ => []
    end.
  Lemma flatten_nodes S d (xs : list L) : Forall (placed S) xs ->
    (forall x, In x xs -> is_token (erase x) = true -> exists p, assoc (pre (label x)) d = Some p) ->
    flatten_loop S d (map label xs) = Ok (flat_map (entry d) xs).
  Proof.
    induction xs as [|x xs IH]; intros F Hd; auto. inversion F as [|? ? Hx F']; subst.
    specialize (IH F' ltac:(intros; apply Hd; simpl; auto)).
    apply placed_inv in Hx. destruct x as [i t|i t m|i|i|i|i cs m];
      cbn [map label flatten_loop flat_map entry].
    - destruct Hx as [-> ->]. cbn [bind]. now rewrite IH.
    - destruct Hx as [-> ->]. cbn [bind fst].
      destruct (Hd (LToken i t m) (or_introl eq_refl) eq_refl) as [p Hp]. cbn [label] in Hp.
      rewrite Hp, IH. reflexivity.
    - rewrite Hx. auto.
    - rewrite Hx. auto.
    - rewrite Hx. auto.
    - destruct Hx as [-> _]. auto.
  Qed.
  Lemma assoc_key_some {K V} `{EqDec K} (k : K) (d : list (K * V)) :
    In k (map fst d) -> exists v, assoc k d = Some v.
  Proof.
    intros Hin. destruct (assoc k d) as [v|] eqn:E; eauto.
    apply assoc_None_iff in E. contradiction.
  Qed.
  Lemma flatten_ok (toks : list (text * Qc)) (ns : list N) (must : bool) r :
    align_token_log_probs toks (pack ns) must = Ok r ->
    exists l, flatten_token_log_probs_from_parsed (pack ns) r = Ok l /\
      map fst l = map own_text (filter is_text (nodes_of ns)) /\
      text_of l = render ns.
  Proof.
    intros E. pose proof (align_keys _ _ _ _ E) as Hk0. apply align_result in E as [st' E].
    destruct (align_nodes_ok (subs ns) (rev toks)) as [[r' [st'' [E' [_ Hk]]]]|[E' _]];
      rewrite E in E'; [injection E' as <- <-|discriminate].
    assert (Hd : forall x, In x (subs ns) -> is_token (erase x) = true ->
                 exists p, assoc (pre (label x)) r = Some p).
    { intros x Hx Ht. apply assoc_key_some. rewrite Hk.
      apply (in_map (fun x => pre (label x))). apply filter_In. auto. }
    exists (flat_map (entry r) (subs ns)). unfold flatten_token_log_probs_from_parsed.
    rewrite <- subs_pre. split; [apply flatten_nodes; auto using subs_placed|].
    assert (G : map fst (flat_map (entry r) (subs ns)) = map own_text (filter is_text (map erase (subs ns)))).
    { clear E Hk Hk0. induction (subs ns) as [|x xs IH]; auto.
      assert (Hd' := fun x Hx => Hd x (or_intror Hx)). specialize (IH Hd').
      cbn [flat_map map]. rewrite map_app, IH.
      destruct x as [i t|i t m|i|i|i|i cs m]; cbn [entry erase filter is_text map own_text]; try reflexivity.
      destruct (Hd (LToken i t m) (or_introl eq_refl) eq_refl) as [p Hp]. cbn [label] in Hp.
      now rewrite Hp. }
    rewrite subs_nodes in G. split; auto.
    unfold text_of. rewrite G, <- nodes_own_text. clear.
    induction (nodes_of ns) as [|n l IH]; auto. cbn [filter map concat].
    destruct n; cbn [is_text own_text map concat]; rewrite IH; reflexivity.
  Qed.
End AlignProofs.
