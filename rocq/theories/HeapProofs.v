(** Proofs about linked trees in memory. *)

From Coq Require Import List Bool Arith Lia Permutation.
From Verif Require Import Base StackParser StackParserProofs HeapTree LinkSpec.
Import ListNotations.

Section Ind.
  Context (P : ltree -> Prop).
  Hypothesis HN : forall a lo hi ann kids, Forall P kids -> P (LNode a lo hi ann kids).
  Fixpoint ltree_ind' (t : ltree) : P t :=
    match t with
    | LNode a lo hi ann kids =>
        HN a lo hi ann kids ((fix go l := match l return Forall P l with
                                          | [] => Forall_nil P
                                          | c :: l' => Forall_cons c (ltree_ind' c) (go l')
                                          end) kids)
    end.
End Ind.

Lemma shows_eq h a lo hi ann kids : shows h (LNode a lo hi ann kids) <->
  (exists p, nth_error h a = Some (mkCell lo hi p ann (map addr kids))) /\ Forall (shows h) kids.
Proof.
  cbn [shows]. split; intros [A B]; split; auto; clear A.
  - induction kids as [|k l IH]; [constructor|]. destruct B. constructor; auto.
  - induction B; cbn; auto.
Qed.
Lemma holds_eq h p a lo hi ann kids : holds h p (LNode a lo hi ann kids) <->
  nth_error h a = Some (mkCell lo hi p ann (map addr kids)) /\ Forall (holds h (Some a)) kids.
Proof.
  cbn [holds]. split; intros [A B]; split; auto; clear A.
  - induction kids as [|k l IH]; [constructor|]. destruct B. constructor; auto.
  - induction B; cbn; auto.
Qed.

(** * Memory *)
Lemma update_length a f h : length (update a f h) = length h.
Proof. revert a. induction h as [|c h IH]; intros [|a]; cbn; auto. Qed.
Lemma update_same a f h c : nth_error h a = Some c -> nth_error (update a f h) a = Some (f c).
Proof. revert a. induction h as [|x h IH]; intros [|a] E; cbn in *; try discriminate; auto. now injection E as ->. Qed.
Lemma update_other a b f h : a <> b -> nth_error (update a f h) b = nth_error h b.
Proof. revert a b. induction h as [|x h IH]; intros [|a] [|b] N; cbn; auto; try congruence. Qed.
Lemma adopt_length n l h : length (adopt n l h) = length h.
Proof. revert h. induction l as [|x l IH]; intros h; cbn; auto. unfold adopt in IH. rewrite IH. apply update_length. Qed.
Lemma adopt_other n l h b : ~ In b l -> nth_error (adopt n l h) b = nth_error h b.
Proof.
  revert h. induction l as [|x l IH]; intros h N; cbn; auto. unfold adopt in IH. rewrite IH by (intros I; apply N; now right).
  apply update_other. intros ->. apply N. now left.
Qed.
Lemma adopt_in n l h b c : In b l -> nth_error h b = Some c -> nth_error (adopt n l h) b = Some (set_parent (Some n) c).
Proof.
  revert h c. induction l as [|x l IH]; intros h c I E; [destruct I|]. destruct I as [->|I]; cbn.
  - destruct (in_dec Nat.eq_dec b l) as [J|J].
    + unfold adopt in IH. rewrite (IH (update b (set_parent (Some n)) h) (set_parent (Some n) c) J); [reflexivity|]. now apply update_same.
    + pose proof (adopt_other n l (update b (set_parent (Some n)) h) b J) as O. unfold adopt in O. rewrite O. now apply update_same.
  - unfold adopt in IH. destruct (Nat.eq_dec x b) as [->|N].
    + rewrite (IH _ (set_parent (Some n) c) I); [reflexivity|]. now apply update_same.
    + rewrite (IH _ c I); auto. now rewrite update_other.
Qed.
Lemma nth_error_lt {A} (l : list A) a x : nth_error l a = Some x -> a < length l.
Proof. intros E. apply nth_error_Some. congruence. Qed.
Lemma nth_error_new {A} (l : list A) x : nth_error (l ++ [x]) (length l) = Some x.
Proof. rewrite nth_error_app2 by lia. now rewrite Nat.sub_diag. Qed.

(** * The frame *)
Lemma shows_frame t : forall h h', (forall a, In a (addrs t) -> nth_error h' a = nth_error h a) -> shows h t -> shows h' t.
Proof.
  induction t as [a lo hi ann kids IH] using ltree_ind'. intros h h' F S. apply shows_eq in S as [[p E] K]. apply shows_eq. split.
  - exists p. rewrite F; auto. cbn. auto.
  - rewrite Forall_forall in *. intros k I. apply (IH k I h); auto. intros b J. apply F. cbn. right. apply in_flat_map. eauto.
Qed.
Lemma holds_frame t : forall h h' p, (forall a, In a (addrs t) -> nth_error h' a = nth_error h a) -> holds h p t -> holds h' p t.
Proof.
  induction t as [a lo hi ann kids IH] using ltree_ind'. intros h h' p F S. apply holds_eq in S as [E K]. apply holds_eq. split.
  - rewrite F; auto. cbn. auto.
  - rewrite Forall_forall in *. intros k I. apply (IH k I h); auto. intros b J. apply F. cbn. right. apply in_flat_map. eauto.
Qed.
Lemma holds_shows t : forall h p, holds h p t -> shows h t.
Proof.
  induction t as [a lo hi ann kids IH] using ltree_ind'. intros h p S. apply holds_eq in S as [E K]. apply shows_eq. split; [eauto|].
  rewrite Forall_forall in *. intros k I. eapply IH; eauto.
Qed.
Lemma shows_bound t : forall h a, shows h t -> In a (addrs t) -> a < length h.
Proof.
  induction t as [a lo hi ann kids IH] using ltree_ind'. intros h b S I. apply shows_eq in S as [[p E] K]. destruct I as [<-|I].
  - eapply nth_error_lt; eauto.
  - apply in_flat_map in I as [k [Ik I]]. rewrite Forall_forall in *. eapply IH; eauto.
Qed.
Lemma holds_bound t h p a : holds h p t -> In a (addrs t) -> a < length h.
Proof. intros S. apply holds_shows in S. now apply shows_bound. Qed.
Lemma addr_in t : In (addr t) (addrs t).
Proof. destruct t; cbn; auto. Qed.
(** A tree gets another parent. *)
Lemma holds_adopted t h h' p n : holds h p t -> NoDup (addrs t) ->
  (forall c, nth_error h (addr t) = Some c -> nth_error h' (addr t) = Some (set_parent (Some n) c)) ->
  (forall a, In a (addrs t) -> a <> addr t -> nth_error h' a = nth_error h a) -> holds h' (Some n) t.
Proof.
  destruct t as [a lo hi ann kids]. intros S ND A F. apply holds_eq in S as [E K]. apply holds_eq. cbn [addr] in *. split.
  - now rewrite (A _ E).
  - rewrite Forall_forall in *. intros k I. apply (holds_frame k h); auto. intros b J. cbn in ND. inversion ND; subst.
    assert (In b (flat_map addrs kids)) by (apply in_flat_map; eauto). apply F; [cbn; auto|]. intros ->. auto.
Qed.

Fixpoint lsize (t : ltree) : nat := let 'LNode _ _ _ _ kids := t in S (list_sum (map lsize kids)).
Lemma lsize_addrs t : length (addrs t) = lsize t.
Proof.
  induction t as [a lo hi ann kids IH] using ltree_ind'. cbn. f_equal. induction IH as [|t l E _ IHl]; cbn; auto. rewrite app_length, E, IHl. reflexivity.
Qed.

(** * Copying *)
Fixpoint copies (limit : nat) (h : heap) (l : list nat) : option (heap * list nat) :=
  match l with
  | [] => Some (h, [])
  | x :: l' =>
      match copy limit h x with
      | None => None
      | Some (h1, y) => match copies limit h1 l' with None => None | Some (h2, ys) => Some (h2, y :: ys) end
      end
  end.
Lemma copy_eq limit h a : copy (S limit) h a =
  match nth_error h a with
  | None => None
  | Some c =>
      match copies limit (h ++ [mkCell (c_lo c) (c_hi c) (c_parent c) (c_ann c) []]) (c_children c) with
      | None => None
      | Some (h', ys) => Some (adopt (length h) ys (update (length h) (set_children ys) h'), length h)
      end
  end.
Proof.
  cbn [copy]. destruct (nth_error h a) as [c|]; auto.
  match goal with |- match ?f _ _ with _ => _ end = _ => assert (E : forall l h1, f h1 l = copies limit h1 l) end.
  { intros l. induction l as [|x l IH]; intros h1; cbn [copies]; auto. destruct (copy limit h1 x) as [[h2 y]|]; auto. now rewrite IH. }
  now rewrite E.
Qed.

Definition copied (h h' : heap) (p : option nat) (t t' : ltree) : Prop :=
  shape t' = shape t /\ holds h' p t' /\ addrs t' = seq (length h) (lsize t) /\
  length h' = length h + lsize t /\ (forall a, a < length h -> nth_error h' a = nth_error h a).

Lemma copies_spec limit ts : Forall (fun t => forall h, lsize t <= limit -> shows h t ->
    exists h' t' c, nth_error h (addr t) = Some c /\ copy limit h (addr t) = Some (h', addr t') /\ copied h h' (c_parent c) t t') ts ->
  forall h, list_sum (map lsize ts) <= limit -> Forall (shows h) ts ->
  exists h' ts', copies limit h (map addr ts) = Some (h', map addr ts') /\ map shape ts' = map shape ts /\
    Forall (fun t' => exists p, holds h' p t') ts' /\ flat_map addrs ts' = seq (length h) (list_sum (map lsize ts)) /\
    length h' = length h + list_sum (map lsize ts) /\ (forall a, a < length h -> nth_error h' a = nth_error h a).
Proof.
  induction ts as [|t ts IHl]; intros IH h L S.
  - exists h, []. cbn. splits; auto.
  - apply Forall_cons_iff in IH as [It IH]. apply Forall_cons_iff in S as [St S]. cbn [map list_sum fold_right] in L.
    change (fold_right Nat.add 0 (map lsize ts)) with (list_sum (map lsize ts)) in L.
    destruct (It h ltac:(lia) St) as (h1 & t1 & c & Ec & Et & Sh & Ho & Ad & Le & Fr).
    destruct (IHl IH h1 ltac:(lia)) as (h2 & ts1 & Es & Shs & Hos & Ads & Les & Frs).
    { rewrite Forall_forall in S. rewrite Forall_forall. intros u I. pose proof (S u I) as Su. apply (shows_frame u h); auto. intros a J. apply Fr. exact (shows_bound u h a Su J). }
    exists h2, (t1 :: ts1). cbn [map copies]. rewrite Et, Es. splits; auto.
    + now rewrite Sh, Shs.
    + constructor; auto. exists (c_parent c). apply (holds_frame t1 h1); auto. intros a J. apply Frs. rewrite Ad in J. apply in_seq in J. lia.
    + cbn [flat_map map list_sum fold_right]. rewrite Ad, Ads, Le. change (fold_right Nat.add 0 (map lsize ts)) with (list_sum (map lsize ts)). now rewrite seq_app.
    + cbn. change (fold_right Nat.add 0 (map lsize ts)) with (list_sum (map lsize ts)). lia.
    + intros a J. rewrite Frs, Fr; auto. lia.
Qed.
Lemma NoDup_left {A} (l m : list A) : NoDup (l ++ m) -> NoDup l.
Proof. induction l; cbn; intros N; [constructor|]. inversion N; subst. constructor; auto. intros I. apply H1, in_app_iff. auto. Qed.
Lemma NoDup_right {A} (l m : list A) : NoDup (l ++ m) -> NoDup m.
Proof. induction l; cbn; intros N; auto. inversion N; auto. Qed.
Lemma NoDup_flat_map_in {A B} (f : A -> list B) l x : NoDup (flat_map f l) -> In x l -> NoDup (f x).
Proof.
  induction l as [|y l IH]; cbn; intros N []; subst.
  - now apply NoDup_left in N.
  - apply NoDup_right in N. auto.
Qed.
Lemma NoDup_app_disjoint {A} (l m : list A) x : NoDup (l ++ m) -> In x l -> ~ In x m.
Proof. induction l as [|y l IH]; cbn; intros N [] J; subst; inversion N; subst; [apply H1, in_app_iff; auto|]. eapply IH; eauto. Qed.
(** Two trees of a forest without shared nodes. *)
Lemma flat_map_apart (ts : list ltree) t u a : NoDup (flat_map addrs ts) -> In t ts -> In u ts -> In a (addrs t) -> In a (addrs u) -> t = u.
Proof.
  induction ts as [|x l IH]; cbn; intros N It Iu Ja Ka; [tauto|].
  assert (D : forall z, In z l -> In a (addrs z) -> In a (addrs x) -> False).
  { intros z Iz Az Ax. apply (NoDup_app_disjoint _ _ a N Ax). apply in_flat_map. eauto. }
  destruct It as [->|It], Iu as [->|Iu]; auto.
  - exfalso. eauto.
  - exfalso. eauto.
  - apply IH; auto. now apply NoDup_right in N.
Qed.
Lemma adopt_forest n ts h : Forall (fun t => exists p, holds h p t) ts -> NoDup (flat_map addrs ts) ->
  Forall (holds (adopt n (map addr ts) h) (Some n)) ts.
Proof.
  intros S N. rewrite Forall_forall in *. intros t I. destruct (S t I) as [p Hp]. apply (holds_adopted t h _ p); auto.
  - eapply NoDup_flat_map_in; eauto.
  - intros c E. apply adopt_in; auto. now apply in_map.
  - intros a J D. apply adopt_other. intros K. apply in_map_iff in K as [u [<- Iu]].
    apply D. f_equal. symmetry. eapply (flat_map_apart ts); eauto. apply addr_in.
Qed.
Theorem copy_spec limit t : forall h, lsize t <= limit -> shows h t ->
  exists h' t' c, nth_error h (addr t) = Some c /\ copy limit h (addr t) = Some (h', addr t') /\ copied h h' (c_parent c) t t'.
Proof.
  revert t. induction limit as [|limit IHn]; intros [a lo hi ann kids] h L S; [cbn in L; lia|].
  apply shows_eq in S as [[p E] K]. cbn [addr lsize] in *. rewrite copy_eq, E. cbn [c_lo c_hi c_parent c_ann c_children].
  set (n := length h). set (h0 := h ++ [mkCell lo hi p ann []]).
  assert (L0 : length h0 = S n) by (unfold h0; rewrite app_length; cbn; subst n; lia).
  assert (F0 : forall b, b < n -> nth_error h0 b = nth_error h b) by (intros b I; unfold h0; now rewrite nth_error_app1).
  destruct (copies_spec limit kids) with (h := h0) as (h' & ts' & Es & Shs & Hos & Ads & Les & Frs).
  - rewrite Forall_forall. intros k I h1 L1 S1. now apply IHn.
  - lia.
  - rewrite Forall_forall in *. intros k I. apply (shows_frame k h); auto. intros b J. apply F0. eapply shows_bound; eauto.
  - rewrite Es.
    assert (En : nth_error h' n = Some (mkCell lo hi p ann [])).
    { rewrite Frs by lia. unfold h0, n. apply nth_error_new. }
    assert (NI : ~ In n (flat_map addrs ts')) by (rewrite Ads, in_seq; lia).
    assert (NA : ~ In n (map addr ts')).
    { intros I. apply in_map_iff in I as [u [Eu Iu]]. apply NI. apply in_flat_map. exists u. split; auto. rewrite <- Eu. apply addr_in. }
    exists (adopt n (map addr ts') (update n (set_children (map addr ts')) h')), (LNode n lo hi ann ts'), (mkCell lo hi p ann (map addr kids)).
    splits; auto. unfold copied. splits.
    + cbn [shape]. now rewrite Shs.
    + apply holds_eq. split.
      * rewrite adopt_other by auto. now rewrite (update_same _ _ _ _ En).
      * apply adopt_forest.
        -- rewrite Forall_forall in *. intros t I. destruct (Hos t I) as [q Hq]. exists q. apply (holds_frame t h'); auto.
           intros b J. apply update_other. intros ->. apply NI. apply in_flat_map. eauto.
        -- rewrite Ads. apply seq_NoDup.
    + cbn [addrs lsize seq]. now rewrite Ads, L0.
    + rewrite adopt_length, update_length. cbn [lsize]. rewrite Les, L0. fold n. lia.
    + intros b I. fold n in I. rewrite adopt_other, update_other by (try lia; intros J; apply in_map_iff in J as [u [Eu Iu]];
        assert (J : In b (flat_map addrs ts')) by (apply in_flat_map; exists u; split; auto; rewrite <- Eu; apply addr_in);
        rewrite Ads, in_seq in J; lia).
      rewrite Frs, F0; auto. lia.
Qed.
