(** Laying a tree out along an axis: the places are in reading order. *)

From Coq Require Import List Bool Arith ZArith Lia QArith Qcanon Lqa Sorting.
From Verif Require Import Base SeqNodes Graph GatedDag PackedSeq PackedSeqProofs Numbered Drawing DrawSpec Layouts LayoutSpec.
Import ListNotations.
Close Scope Qc_scope. Close Scope Q_scope. Close Scope Z_scope. Open Scope nat_scope. Open Scope list_scope.

Definition before {A} (l : list A) (a b : A) : Prop := exists l1 l2, l = l1 ++ l2 /\ In a l1 /\ In b l2.
Lemma before_right {A} (l l' : list A) a b : before l a b -> before (l ++ l') a b.
Proof. intros (l1 & l2 & -> & H1 & H2). exists l1, (l2 ++ l'). rewrite app_assoc. splits; auto. apply in_or_app. auto. Qed.
Lemma before_left {A} (l l' : list A) a b : before l a b -> before (l' ++ l) a b.
Proof. intros (l1 & l2 & -> & H1 & H2). exists (l' ++ l1), l2. rewrite app_assoc. splits; auto. apply in_or_app. auto. Qed.
Lemma before_app {A} (l l' : list A) a b : In a l -> In b l' -> before (l ++ l') a b.
Proof. intros. now exists l, l'. Qed.
Lemma before_total {A} (l : list A) a b : In a l -> In b l -> a <> b -> before l a b \/ before l b a.
Proof.
  intros Ha Hb N. apply in_split in Ha as (l1 & l2 & ->). apply in_app_or in Hb as [H|[H|H]]; [right|now destruct N|left].
  - apply before_app; [exact H|now left].
  - apply before_left. exists [a], l2. splits; auto. now left.
Qed.
Lemma sorted_before {A} (R : A -> A -> Prop) l a b : StronglySorted R l -> before l a b -> R a b.
Proof.
  intros S (l1 & l2 & -> & H1 & H2). induction l1 as [|x l1 IH]; [contradiction|]. cbn in S. inversion S; subst.
  destruct H1 as [<-|H1]; auto. rewrite Forall_forall in H4. apply H4. apply in_or_app. auto.
Qed.
Lemma sorted_app {A} (R : A -> A -> Prop) l l' : StronglySorted R l -> StronglySorted R l' ->
  (forall a b, In a l -> In b l' -> R a b) -> StronglySorted R (l ++ l').
Proof.
  intros S S' C. induction S as [|x l S IH F]; auto. cbn. constructor.
  - apply IH. intros a b Ha. apply C. now right.
  - apply Forall_app. split; auto. apply Forall_forall. intros b Hb. apply C; auto. now left.
Qed.
Lemma before_map {A B} (f : A -> B) l a b : before (map f l) a b -> exists x y, before l x y /\ f x = a /\ f y = b.
Proof.
  intros (l1 & l2 & E & H1 & H2). apply map_eq_app in E as (k1 & k2 & -> & <- & <-).
  apply in_map_iff in H1 as (x & <- & H1). apply in_map_iff in H2 as (y & <- & H2).
  exists x, y. splits; auto. now exists k1, k2.
Qed.
Lemma before_flat {A B} (f : A -> list B) l a b x y : before l a b -> In x (f a) -> In y (f b) -> before (flat_map f l) x y.
Proof.
  intros (l1 & l2 & -> & H1 & H2) Hx Hy. exists (flat_map f l1), (flat_map f l2). rewrite flat_map_app.
  splits; auto; apply in_flat_map; eauto.
Qed.
Lemma assoc_nodup {K V} `{EqDec K} (d : list (K * V)) k v : NoDup (map fst d) -> In (k, v) d -> assoc k d = Some v.
Proof.
  intros N I. destruct (assoc k d) as [w|] eqn:E.
  - apply assoc_In in E. f_equal. clear H. induction d as [|[a b] d IH]; [contradiction|]. cbn in N. inversion N; subst.
    destruct I as [I|I], E as [E|E]; auto.
    + injection I as <- <-. injection E as <-. reflexivity.
    + injection I as <- <-. destruct H1. now apply in_map_iff; exists (a, w).
    + injection E as <- <-. destruct H1. now apply in_map_iff; exists (a, v).
  - apply assoc_None_iff in E. destruct E. now apply in_map_iff; exists (k, v).
Qed.

Lemma last_app_ne {A} (l l' : list A) d : l' <> [] -> last (l ++ l') d = last l' d.
Proof.
  intros H. induction l as [|x l IH]; auto. rewrite <- app_comm_cons. destruct (l ++ l') eqn:E; [|exact IH].
  apply app_eq_nil in E as [_ ->]. now destruct H.
Qed.
Lemma nodup_app {A} (l l' : list A) : NoDup l -> NoDup l' -> (forall x, In x l -> ~ In x l') -> NoDup (l ++ l').
Proof.
  induction 1 as [|x l Hx Hl IH]; intros Hl' Hd; cbn [app]; auto. constructor.
  - intros C. apply in_app_or in C as [C|C]; [contradiction|]. apply (Hd x); auto. now left.
  - apply IH; auto. intros y Hy. apply Hd. now right.
Qed.

(** ** Positions of a tree in reading order *)
Section Slots.
  Context {M : Type}.
  Notation L := (lnode M).
  Fixpoint leaves_of (x : L) : list L := match x with LGroup _ cs _ => flat_map leaves_of cs | _ => [x] end.
  Fixpoint kid_slots (x : L) : list (Z * nat) :=
    match x with
    | LGroup p cs _ =>
        (fix go (k : nat) (l : list L) : list (Z * nat) :=
           match l with [] => [(Z.of_nat (pre p), k)] | c :: l' => (Z.of_nat (pre p), k) :: kid_slots c ++ go (S k) l' end) 0 cs
    | _ => []
    end.
  Fixpoint slots (q : Z) (k : nat) (l : list L) : list (Z * nat) :=
    match l with [] => [(q, k)] | c :: l' => (q, k) :: kid_slots c ++ slots q (S k) l' end.
  Lemma kid_group p (cs : list L) m : kid_slots (LGroup p cs m) = slots (Z.of_nat (pre p)) 0 cs.
  Proof. cbn [kid_slots]. generalize 0. induction cs as [|c l IH]; intros k; auto. cbn [slots]. now rewrite IH. Qed.

  Lemma slots_split q (l1 : list L) x l2 : forall k, exists A,
    slots q k (l1 ++ x :: l2) = A ++ (q, k + length l1) :: kid_slots x ++ slots q (S (k + length l1)) l2.
  Proof.
    induction l1 as [|y l1 IH]; intros k; cbn [app slots length].
    - exists []. rewrite Nat.add_0_r. reflexivity.
    - destruct (IH (S k)) as [A E]. exists ((q, k) :: kid_slots y ++ A). rewrite E. rewrite Nat.add_succ_r. cbn. now rewrite <- app_assoc.
  Qed.
  Lemma slots_nil q k (l : list L) : slots q k l <> [].
  Proof. destruct l; discriminate. Qed.
  Lemma slots_last_at q (l : list L) d : forall k, last (slots q k l) d = (q, k + length l).
  Proof.
    induction l as [|x l IH]; intros k; [cbn; f_equal; lia|]. cbn [slots length].
    change ((q, k) :: kid_slots x ++ slots q (S k) l) with (((q, k) :: kid_slots x) ++ slots q (S k) l).
    rewrite last_app_ne by apply slots_nil. rewrite IH. f_equal. lia.
  Qed.
  Lemma slots_last q (l : list L) : slots q 0 l = removelast (slots q 0 l) ++ [(q, length l)].
  Proof. rewrite (app_removelast_last (0%Z, 0) (slots_nil q 0 l)) at 1. now rewrite slots_last_at. Qed.
  Lemma slots_position q (l : list L) i k : i <= length l -> In (q, k + i) (slots q k l).
  Proof.
    revert i k. induction l as [|x l IH]; intros i k H; cbn in *.
    - left. f_equal. lia.
    - destruct i as [|i]; [left; f_equal; lia|]. right. apply in_or_app. right. rewrite Nat.add_succ_r. apply (IH i (S k)). lia.
  Qed.
  Lemma slots_next q (l : list L) i k : i < length l -> before (slots q k l) (q, k + i) (q, S (k + i)).
  Proof.
    revert i k. induction l as [|x l IH]; intros i k H; cbn in *; [lia|]. destruct i as [|i].
    - rewrite Nat.add_0_r. change ((q, k) :: kid_slots x ++ slots q (S k) l) with ([(q, k)] ++ kid_slots x ++ slots q (S k) l).
      apply before_app; [now left|]. apply in_or_app. right. replace (S k) with (S k + 0) at 1 by lia. apply slots_position. lia.
    - apply (before_left _ [(q, k)]). apply before_left. rewrite Nat.add_succ_r. apply (IH i (S k)). lia.
  Qed.
  Lemma seq_slots (T : list L) q d l : seq_in T q d l -> exists A B, slots (-1)%Z 0 T = A ++ slots q 0 l ++ B.
  Proof.
    induction 1 as [|q d l p cs m H IH I].
    - exists [], []. now rewrite app_nil_r.
    - destruct IH as (A & B & ->). apply in_split in I as (l1 & l2 & ->). destruct (slots_split q l1 (LGroup p cs m) l2 0) as [C ->].
      rewrite kid_group. exists (A ++ C ++ [(q, 0 + length l1)]), (slots q (S (0 + length l1)) l2 ++ B). rewrite <- !app_assoc. cbn. now rewrite <- !app_assoc.
  Qed.
  (** From one position of a sequence to the next; into a group; out of a group. *)
  Inductive hop (T : list L) : Z -> nat -> Z -> nat -> Prop :=
  | hop_next q d l i : seq_in T q d l -> i < length l -> hop T q i q (S i)
  | hop_enter q d l i p cs m : seq_in T q d l -> nth_error l i = Some (LGroup p cs m) -> hop T q i (Z.of_nat (pre p)) 0
  | hop_leave q d l i p cs m : seq_in T q d l -> nth_error l i = Some (LGroup p cs m) -> hop T (Z.of_nat (pre p)) (length cs) q (S i).
  Lemma hop_before (T : list L) q i q' i' : hop T q i q' i' -> before (slots (-1)%Z 0 T) (q, i) (q', i').
  Proof.
    intros [q0 d l k H K|q0 d l k p cs m H K|q0 d l k p cs m H K]; destruct (seq_slots T q0 d l H) as (A & B & ->); apply before_left, before_right.
    - apply (slots_next q0 l k 0 K).
    - apply nth_error_split in K as (l1 & l2 & -> & <-). destruct (slots_split q0 l1 (LGroup p cs m) l2 0) as [C ->].
      apply before_left. rewrite kid_group. apply (before_app [(q0, 0 + length l1)]); [now left|].
      apply in_or_app. left. apply (slots_position (Z.of_nat (pre p)) cs 0 0). lia.
    - apply nth_error_split in K as (l1 & l2 & -> & <-). destruct (slots_split q0 l1 (LGroup p cs m) l2 0) as [C ->].
      apply before_left. rewrite kid_group. apply (before_left _ [(q0, 0 + length l1)]). apply before_app.
      + apply (slots_position (Z.of_nat (pre p)) cs (length cs) 0). lia.
      + replace (S (length l1)) with (S (0 + length l1) + 0) by lia. apply slots_position. lia.
  Qed.
  Lemma seq_slot (T : list L) q d l i : seq_in T q d l -> i <= length l -> In (q, i) (slots (-1)%Z 0 T).
  Proof.
    intros H K. destruct (seq_slots T q d l H) as (A & B & ->). apply in_or_app. right. apply in_or_app. left.
    now apply (slots_position q l i 0).
  Qed.

  Lemma numbered_tail p (x : L) l : numbered p (x :: l) -> numbered (p + lsize x) l.
  Proof.
    intros N. inversion N as [|? ? ? E1 E2 E3|? ? ? ? ? E1 E2 E3]; subst.
    - replace (lsize x) with 1; [now rewrite Nat.add_1_r|]. destruct x as [| | | | |i cs m]; auto. now destruct (E2 i cs m).
    - rewrite lsize_group. now rewrite Nat.add_succ_r.
  Qed.
  Lemma numbered_group p i (cs : list L) m l : numbered p (LGroup i cs m :: l) -> p = pre i /\ numbered (S p) cs.
  Proof. intros N. inversion N as [|? ? ? E1 E2 E3|? ? ? ? ? E1 E2 E3]; subst; [now destruct (E2 i cs m)|auto]. Qed.
  (** *** Every position once *)
  Lemma slots_range n : forall (l : list L), lsizes l <= n -> forall p q k, numbered p l ->
    forall r i, In (r, i) (slots q k l) -> (r = q /\ k <= i <= k + length l) \/ (Z.of_nat p <= r < Z.of_nat (p + lsizes l))%Z.
  Proof.
    induction n as [|n IH]; intros [|x l] Hn p q k N r i H; cbn [slots] in H.
    - destruct H as [H|[]]. injection H as <- <-. cbn. left. split; [reflexivity|lia].
    - rewrite lsizes_cons in Hn. pose proof (lsize_pos x). lia.
    - destruct H as [H|[]]. injection H as <- <-. cbn. left. split; [reflexivity|lia].
    - rewrite lsizes_cons in *. pose proof (lsize_pos x). destruct H as [H|H].
      + injection H as <- <-. left. split; [reflexivity|cbn; lia].
      + apply in_app_or in H as [H|H].
        * right. destruct x as [| | | | |p0 cs m]; try contradiction. rewrite kid_group in H.
          inversion N as [|? ? ? E1 E2 E3|? ? ? ? ? E1 E2 E3]; subst; [now destruct (E2 p0 cs m)|].
          rewrite lsize_group in *. apply IH with (p := S (pre p0)) in H as [[-> H]|H]; auto; lia.
        * pose proof (numbered_tail p x l N) as N'.
          apply (IH l ltac:(lia) _ _ _ N') in H as [[-> H]|H]; [left; split; [reflexivity|cbn; lia]|right; lia].
  Qed.
  Lemma slots_nodup n : forall (l : list L), lsizes l <= n -> forall p q k, numbered p l -> (q < Z.of_nat p)%Z -> NoDup (slots q k l).
  Proof.
    induction n as [|n IH]; intros [|x l] Hn p q k N Hq; cbn [slots]; try (constructor; [intros []|constructor]).
    - rewrite lsizes_cons in Hn. pose proof (lsize_pos x). lia.
    - rewrite lsizes_cons in Hn. pose proof (lsize_pos x) as Hx. pose proof (numbered_tail p x l N) as N'.
      assert (R : forall r i, In (r, i) (kid_slots x) -> (Z.of_nat p <= r < Z.of_nat (p + lsize x))%Z).
      { intros r i H. destruct x as [| | | | |p0 cs m]; try contradiction. rewrite kid_group in H.
        apply numbered_group in N as [-> N]. rewrite lsize_group in *.
        apply (slots_range _ cs (le_n _) _ _ _ N) in H as [[-> H]|H]; lia. }
      constructor.
      + intros H. apply in_app_or in H as [H|H].
        * apply R in H. lia.
        * apply (slots_range _ l (le_n _) _ _ _ N') in H as [[_ H]|H]; lia.
      + apply nodup_app.
        * destruct x as [| | | | |p0 cs m]; try constructor. rewrite kid_group.
          apply numbered_group in N as [-> N]. rewrite lsize_group in *. apply IH with (p := S (pre p0)); auto; lia.
        * apply IH with (p := p + lsize x); auto; lia.
        * intros [r i] H1 H2. apply R in H1. apply (slots_range _ l (le_n _) _ _ _ N') in H2 as [[-> H]|H]; lia.
  Qed.
End Slots.

(** ** The walk *)
Section Walk.
  Context {M : Type}.
  Notation L := (lnode M).
  Variable rows : nat.
  Variable size sep gap m : Qc.
  Variable note : L -> Qc -> Qc -> extra_annotation.
  Variable with_final : bool.
  Hypothesis Hrows : 0 < rows.
  Hypothesis Hsize : (0 < size)%Qc.
  Hypothesis Hm : (0 < m)%Qc.
  Hypothesis Hgap : (m <= gap)%Qc.
  Hypothesis Hsep : 1 < rows -> (m <= sep)%Qc.
  Notation place := ((Z * nat * nat) * (Qc * Qc))%type.
  Definition lo (e : place) : Qc := fst (snd e).
  Definition hi (e : place) : Qc := snd (snd e).
  Definition rowed (ks : list (Z * nat)) : list (Z * nat * nat) :=
    flat_map (fun k => map (fun r => (fst k, snd k, r)) (seq 0 rows)) ks.
  Lemma rowed_app a b : rowed (a ++ b) = rowed a ++ rowed b.
  Proof. apply flat_map_app. Qed.
  Definition followed (c c' : Qc) (l : list place) : Prop :=
    (c <= c')%Qc /\ Forall (fun e => (c <= lo e /\ hi e = lo e + size /\ hi e + m <= c')%Qc) l /\
    StronglySorted (fun e f => (hi e + m <= lo f)%Qc) l.
  Definition spread (c c' : Qc) (l : list (L * (Qc * Qc))) : Prop :=
    Forall (fun e => (c <= fst (snd e) /\ snd (snd e) = fst (snd e) + gap /\ snd (snd e) <= c')%Qc) l /\
    StronglySorted (fun e f => (snd (snd e) <= fst (snd f))%Qc) l.
  Lemma followed_nil c c' : (c <= c')%Qc -> followed c c' [].
  Proof. intros. unfold followed. splits; auto; constructor. Qed.
  Lemma followed_app c c1 c' l l' : followed c c1 l -> followed c1 c' l' -> followed c c' (l ++ l').
  Proof.
    intros (A1 & A2 & A3) (B1 & B2 & B3). unfold followed. splits.
    - qc_lra.
    - apply Forall_app. split; eapply Forall_impl; eauto; cbn; intros e (E1 & E2 & E3); splits; auto; qc_lra.
    - apply sorted_app; auto. intros e f He Hf. rewrite Forall_forall in A2, B2.
      destruct (A2 e He) as (_ & _ & E). destruct (B2 f Hf) as (F & _). qc_lra.
  Qed.
  Lemma spread_nil c c' : spread c c' [].
  Proof. split; constructor. Qed.
  Lemma spread_app c c1 c' l l' : (c <= c1)%Qc -> (c1 <= c')%Qc -> spread c c1 l -> spread c1 c' l' -> spread c c' (l ++ l').
  Proof.
    intros H1 H2 (A2 & A3) (B2 & B3). split.
    - apply Forall_app. split; eapply Forall_impl; eauto; cbn; intros e (E1 & E2 & E3); splits; auto; qc_lra.
    - apply sorted_app; auto. intros e f He Hf. rewrite Forall_forall in A2, B2.
      destruct (A2 e He) as (_ & _ & E). destruct (B2 f Hf) as (F & _). qc_lra.
  Qed.
  (** From [a] to [b] the positions [ks] and the leaves [ls] are laid out. *)
  Definition step (a b : axis) (ks : list (Z * nat)) (ls : list L) : Prop :=
    exists new ivs, places b = rev new ++ places a /\ map fst new = rowed ks /\ followed (cursor a) (cursor b) new /\
      notes b = notes a ++ map (fun e => note (fst e) (fst (snd e)) (snd (snd e))) ivs /\ map fst ivs = ls /\
      spread (cursor a) (cursor b) ivs.
  Lemma step_trans a b c k1 k2 l1 l2 : step a b k1 l1 -> step b c k2 l2 -> step a c (k1 ++ k2) (l1 ++ l2).
  Proof.
    intros (n1 & i1 & A1 & A2 & A3 & A4 & A5 & A6) (n2 & i2 & B1 & B2 & B3 & B4 & B5 & B6).
    exists (n1 ++ n2), (i1 ++ i2). splits.
    - rewrite B1, A1, rev_app_distr. now rewrite app_assoc.
    - now rewrite map_app, rowed_app, A2, B2.
    - eapply followed_app; eauto.
    - rewrite B4, A4, map_app. now rewrite app_assoc.
    - rewrite map_app. congruence.
    - eapply spread_app; eauto; [apply A3|apply B3].
  Qed.
  (** Steps that place nothing. *)
  Lemma step_still a b : places b = places a -> notes b = notes a -> (cursor a <= cursor b)%Qc -> step a b [] [].
  Proof. intros E1 E2 E3. exists [], []. splits; auto; [now apply followed_nil|now rewrite app_nil_r|apply spread_nil]. Qed.

  (** [position], then a gap *)
  Lemma put_rows_spec q i : forall n row a, exists new,
    places (put_rows size sep q i row n a) = rev new ++ places a /\ map fst new = map (fun r => (q, i, r)) (seq row n) /\
    notes (put_rows size sep q i row n a) = notes a /\
    opened (put_rows size sep q i row n a) = opened a /\ closed (put_rows size sep q i row n a) = closed a /\
    ((1 < n -> (m <= sep)%Qc) ->
     (n = 0 -> cursor (put_rows size sep q i row n a) = cursor a) /\
     (0 < n -> (cursor a + size + sep <= cursor (put_rows size sep q i row n a))%Qc) /\
     Forall (fun e => (cursor a <= lo e /\ hi e = lo e + size /\ hi e + sep <= cursor (put_rows size sep q i row n a))%Qc) new /\
     StronglySorted (fun e f => (hi e + m <= lo f)%Qc) new).
  Proof using Hm Hrows Hsep Hsize.
    induction n as [|n IH]; intros row a; cbn [put_rows].
    - exists []. splits; auto. intros _. splits; auto; try lia; constructor.
    - destruct (IH (S row) (mkAxis (cursor a + size + sep)%Qc (((q, i, row), (cursor a, (cursor a + size)%Qc)) :: places a)
             (opened a) (closed a) (final a) (notes a))) as (new & E1 & E2 & E3 & E5 & E6 & E7). cbn [cursor places notes opened closed] in *.
      exists (((q, i, row), (cursor a, (cursor a + size)%Qc)) :: new). splits; auto.
      + rewrite E1. cbn. now rewrite <- app_assoc.
      + cbn. now rewrite E2.
      + intros Hs. destruct E7 as (F0 & F1 & F & S); [intros; apply Hs; lia|].
        remember (cursor (put_rows size sep q i (Datatypes.S row) n _)) as c' eqn:Ec. clear Ec.
        destruct n as [|n].
        * rewrite (F0 eq_refl). destruct new; [|apply (f_equal (@length _)) in E2; discriminate]. splits; [discriminate| | |].
          { intros _. apply Qcle_refl. }
          { constructor; [|constructor]. unfold lo, hi. cbn. splits; try reflexivity; apply Qcle_refl. }
          { constructor; constructor. }
        * assert (X : (m <= sep)%Qc) by (apply Hs; lia). assert (Y : (cursor a + size + sep + size + sep <= c')%Qc) by (apply F1; lia). splits; [discriminate| | |].
          { intros _. qc_lra. }
          { constructor; [unfold lo, hi; cbn; splits; try reflexivity; [apply Qcle_refl|qc_lra]|].
            eapply Forall_impl; [|exact F]. cbn. intros e (G1 & G2 & G3). splits; auto. qc_lra. }
          { constructor; auto. eapply Forall_impl; [|exact F]. cbn. intros e (G1 & _). unfold hi. cbn. qc_lra. }
  Qed.
  (** A position and what comes after it. *)
  Lemma position_spec q i a b : places b = places (position rows size sep q i a) ->
    notes b = notes (position rows size sep q i a) -> (cursor (position rows size sep q i a) + gap <= cursor b)%Qc ->
    step a b [(q, i)] [].
  Proof using Hgap Hm Hrows Hsep Hsize.
    intros E1 E2 E3. unfold position in *. cbn [move places notes cursor] in *.
    destruct (put_rows_spec q i rows 0 a) as (new & F1 & F2 & F3 & _ & _ & F4). destruct (F4 Hsep) as (_ & F5 & F6 & F7). specialize (F5 Hrows).
    exists new, []. splits.
    - congruence.
    - rewrite F2. unfold rowed. cbn. now rewrite app_nil_r.
    - unfold followed. splits; auto; [qc_lra|]. eapply Forall_impl; [|exact F6]. cbn. intros e (G1 & G2 & G3). splits; auto. qc_lra.
    - rewrite E2, F3. now rewrite app_nil_r.
    - reflexivity.
    - apply spread_nil.
  Qed.
  Lemma position_cursor q i a : (cursor a <= cursor (position rows size sep q i a))%Qc.
  Proof using Hm Hrows Hsep Hsize.
    unfold position. cbn. destruct (put_rows_spec q i rows 0 a) as (new & _ & _ & _ & _ & _ & F4). destruct (F4 Hsep) as (_ & F5 & _).
    specialize (F5 Hrows). qc_lra.
  Qed.
  Lemma leave_spec q i a : step a (leave rows size sep gap with_final q i a) [(q, i)] [].
  Proof using Hgap Hm Hrows Hsep Hsize.
    unfold leave. destruct with_final; apply position_spec; cbn; auto; try apply Qcle_refl. qc_lra.
  Qed.
  Lemma leaf_spec q i x a : step a (leaf_gap gap note x (position rows size sep q i a)) [(q, i)] [x].
  Proof using Hgap Hm Hrows Hsep Hsize.
    destruct (position_spec q i a (move gap (position rows size sep q i a)) eq_refl eq_refl (Qcle_refl _)) as (new & ivs & E1 & E2 & E3 & E4 & E5 & E6).
    exists new, [(x, (cursor (position rows size sep q i a), (cursor (position rows size sep q i a) + gap)%Qc))]. splits; auto.
    - cbn in *. rewrite E4. destruct ivs; [|discriminate]. now rewrite app_nil_r.
    - split; [|constructor; constructor]. constructor; [|constructor]. cbn. splits; auto; [|apply Qcle_refl].
      apply position_cursor.
  Qed.
  Lemma walk_of_list q l : (forall k a, step a (walk_list rows size sep gap note with_final q k l a) (removelast (slots q k l)) (flat_map leaves_of l)) ->
    forall a, step a (walk rows size sep gap note with_final q l a) (slots q 0 l) (flat_map leaves_of l).
  Proof using Hgap Hm Hrows Hsep Hsize.
    intros H a. unfold walk.
    assert (S1 : step a (enter gap q a) [] []) by (apply step_still; auto; cbn; qc_lra).
    pose proof (step_trans _ _ _ _ _ _ _ (step_trans _ _ _ _ _ _ _ S1 (H 0 (enter gap q a))) (leave_spec q (length l) _)) as S.
    rewrite app_nil_r in S. cbn [app] in S. rewrite <- slots_last in S. exact S.
  Qed.
  Lemma walk_spec n : forall l, lsizes l <= n -> forall q k a,
    step a (walk_list rows size sep gap note with_final q k l a) (removelast (slots q k l)) (flat_map leaves_of l).
  Proof using Hgap Hm Hrows Hsep Hsize.
    induction n as [|n IH]; intros [|x l] Hn q k a; cbn [walk_list flat_map].
    - now apply step_still; try apply Qcle_refl.
    - rewrite lsizes_cons in Hn. pose proof (lsize_pos x). lia.
    - now apply step_still; try apply Qcle_refl.
    - rewrite lsizes_cons in Hn. pose proof (lsize_pos x).
      assert (E : removelast (slots q k (x :: l)) = ((q, k) :: kid_slots x) ++ removelast (slots q (S k) l)).
      { cbn [slots]. change ((q, k) :: kid_slots x ++ slots q (S k) l) with (((q, k) :: kid_slots x) ++ slots q (S k) l). apply removelast_app. apply slots_nil. }
      rewrite E. eapply step_trans; [|apply IH; lia].
      destruct x as [p t|p t mm|p|p|p|p cs mm]; try apply leaf_spec.
      rewrite walk_group, kid_group. rewrite lsize_group in Hn. cbn [leaves_of].
      change ((q, k) :: slots (Z.of_nat (pre p)) 0 cs) with ([(q, k)] ++ slots (Z.of_nat (pre p)) 0 cs).
      assert (S1 := position_spec q k a (move gap (position rows size sep q k a)) eq_refl eq_refl (Qcle_refl _)).
      assert (S2 := walk_of_list (Z.of_nat (pre p)) cs (IH cs ltac:(lia) _) (move gap (position rows size sep q k a))).
      assert (S3 := step_trans _ _ _ _ _ _ _ S1 S2).
      assert (S4 : forall b, step b (move gap b) [] []) by (intros b; apply step_still; auto; cbn; qc_lra).
      pose proof (step_trans _ _ _ _ _ _ _ S3 (S4 _)) as S5. rewrite !app_nil_r in S5. exact S5.
  Qed.
  Theorem walk_step q l a : step a (walk rows size sep gap note with_final q l a) (slots q 0 l) (flat_map leaves_of l).
  Proof using Hgap Hm Hrows Hsep Hsize. apply walk_of_list. intros k b. now apply (walk_spec (lsizes l)). Qed.
End Walk.
