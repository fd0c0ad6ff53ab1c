(** Sequences of a tree have one depth each; the walk frames every sequence. *)

From Coq Require Import List Bool Arith ZArith Lia QArith Qcanon Lqa Sorting FinFun.
From Verif Require Import Base SeqNodes Graph GatedDag PackedSeq PackedSeqProofs Numbered Drawing DrawSpec Layouts LayoutSpec LayoutProofs.
Import ListNotations.
Close Scope Qc_scope. Close Scope Q_scope. Close Scope Z_scope. Open Scope nat_scope. Open Scope list_scope.

Section Seqs.
  Context {M : Type}.
  Notation L := (lnode M).
  Fixpoint kid_seqs (d : nat) (x : L) : list (Z * nat * list L) :=
    match x with LGroup p cs _ => (Z.of_nat (pre p), d, cs) :: flat_map (kid_seqs (S d)) cs | _ => [] end.
  Lemma kid_seqs_group n : forall (l : list L), lsizes l <= n -> forall e q d s p cs m,
    In (q, d, s) (flat_map (kid_seqs e) l) -> In (LGroup p cs m) s -> In (Z.of_nat (pre p), S d, cs) (flat_map (kid_seqs e) l).
  Proof.
    induction n as [|n IH]; intros [|x l] Hn e q d s p cs m H K; try contradiction.
    - rewrite lsizes_cons in Hn. pose proof (lsize_pos x). lia.
    - rewrite lsizes_cons in Hn. pose proof (lsize_pos x). cbn [flat_map] in *. apply in_app_or in H as [H|H]; apply in_or_app; [left|right; eapply IH; eauto; lia].
      destruct x as [| | | | |p0 cs0 m0]; try contradiction. rewrite lsize_group in Hn. cbn [kid_seqs] in *. right.
      destruct H as [H|H].
      + injection H as <- <- <-. apply in_flat_map. exists (LGroup p cs m). split; [exact K|now left].
      + eapply IH; eauto. lia.
  Qed.
  Lemma seq_in_list (T : list L) q d l : seq_in T q d l -> (q = (-1)%Z /\ d = 0 /\ l = T) \/ In (q, d, l) (flat_map (kid_seqs 1) T).
  Proof.
    induction 1 as [|q d l p cs m H [(-> & -> & ->)|IH] I]; auto; right.
    - apply in_flat_map. exists (LGroup p cs m). split; [exact I|now left].
    - eapply kid_seqs_group; eauto.
  Qed.
  Lemma kid_seqs_range n : forall (l : list L), lsizes l <= n -> forall p e q d s, numbered p l -> In (q, d, s) (flat_map (kid_seqs e) l) ->
    exists r, q = Z.of_nat r /\ p <= r /\ S r + lsizes s <= p + lsizes l /\ numbered (S r) s.
  Proof.
    induction n as [|n IH]; intros [|x l] Hn p e q d s N H; try contradiction.
    - rewrite lsizes_cons in Hn. pose proof (lsize_pos x). lia.
    - rewrite lsizes_cons in *. pose proof (lsize_pos x). cbn [flat_map] in H. apply in_app_or in H as [H|H].
      + destruct x as [| | | | |p0 cs0 m0]; try contradiction. rewrite lsize_group in *. cbn [kid_seqs] in H. apply numbered_group in N as [-> N].
        destruct H as [H|H].
        * injection H as <- <- <-. exists (pre p0). splits; auto. lia.
        * apply (IH cs0 ltac:(lia) _ _ _ _ _ N) in H as (r & -> & A & B & C). exists r. splits; auto; lia.
      + apply numbered_tail in N. apply (IH l ltac:(lia) _ _ _ _ _ N) in H as (r & -> & A & B & C). exists r. splits; auto; lia.
  Qed.
  Lemma kid_seqs_unique n : forall (l : list L), lsizes l <= n -> forall p e q d s d' s', numbered p l ->
    In (q, d, s) (flat_map (kid_seqs e) l) -> In (q, d', s') (flat_map (kid_seqs e) l) -> d = d' /\ s = s'.
  Proof.
    induction n as [|n IH]; intros [|x l] Hn p e q d s d' s' N H H'; try contradiction.
    - rewrite lsizes_cons in Hn. pose proof (lsize_pos x). lia.
    - rewrite lsizes_cons in *. pose proof (lsize_pos x). cbn [flat_map] in H, H'. pose proof (numbered_tail _ _ _ N) as N'.
      assert (R : forall d s, In (q, d, s) (kid_seqs e x) -> (Z.of_nat p <= q < Z.of_nat (p + lsize x))%Z).
      { intros d0 s0 K. destruct (kid_seqs_range _ [x] (le_n _) p e q d0 s0) as (r & -> & A & B & _).
        - inversion N; subst; constructor; auto; constructor.
        - cbn. now rewrite app_nil_r.
        - rewrite lsizes_cons in B. change (lsizes (@nil L)) with 0 in B. lia. }
      assert (R' : forall d s, In (q, d, s) (flat_map (kid_seqs e) l) -> (Z.of_nat (p + lsize x) <= q)%Z).
      { intros d0 s0 K. apply (kid_seqs_range _ l (le_n _) _ _ _ _ _ N') in K as (r & -> & A & _). lia. }
      apply in_app_or in H, H'. destruct H as [H|H], H' as [H'|H'].
      + destruct x as [| | | | |p0 cs0 m0]; try contradiction. rewrite lsize_group in *. cbn [kid_seqs] in *. apply numbered_group in N as [-> N].
        assert (R2 : forall d s, In (q, d, s) (flat_map (kid_seqs (S e)) cs0) -> (Z.of_nat (pre p0) < q)%Z).
        { intros d0 s0 K. apply (kid_seqs_range _ cs0 (le_n _) _ _ _ _ _ N) in K as (r & -> & A & _). lia. }
        destruct H as [H|H], H' as [H'|H'].
        * split; congruence.
        * injection H as <- <- <-. apply R2 in H'. lia.
        * injection H' as <- <- <-. apply R2 in H. lia.
        * exact (IH cs0 ltac:(lia) _ _ _ _ _ _ _ N H H').
      + apply R in H. apply R' in H'. lia.
      + apply R' in H. apply R in H'. lia.
      + exact (IH l ltac:(lia) _ _ _ _ _ _ _ N' H H').
  Qed.
  Lemma seq_in_unique (T : list L) q d l d' l' : numbered 0 T -> seq_in T q d l -> seq_in T q d' l' -> d = d' /\ l = l'.
  Proof.
    intros N H H'. apply seq_in_list in H, H'. destruct H as [(-> & -> & ->)|H], H' as [(E & -> & ->)|H']; auto.
    - apply (kid_seqs_range _ T (le_n _) _ _ _ _ _ N) in H' as (r & E & _). lia.
    - subst q. apply (kid_seqs_range _ T (le_n _) _ _ _ _ _ N) in H as (r & E & _). lia.
    - eapply kid_seqs_unique; eauto.
  Qed.
End Seqs.

Section Frames.
  Context {M : Type}.
  Notation L := (lnode M).
  Variable rows : nat.
  Variable size sep gap m : Qc.
  Variable note : L -> Qc -> Qc -> extra_annotation.
  Hypothesis Hrows : 0 < rows.
  Hypothesis Hsize : (0 < size)%Qc.
  Hypothesis Hm : (0 < m)%Qc.
  Hypothesis Hgap : (m <= gap)%Qc.
  Hypothesis Hsep : 1 < rows -> (m <= sep)%Qc.
  Notation walk_list := (walk_list rows size sep gap note false).
  Notation walk_node := (walk_node rows size sep gap note false).
  Notation walk := (walk rows size sep gap note false).

  (** The interval of sequence [q] holds the places of its positions and of those below it. *)
  Definition framed (b : axis) (q : Z) (s : list L) : Prop :=
    exists o c, assoc q (opened b) = Some o /\ assoc q (closed b) = Some c /\
      forall key pl, In (key, pl) (places b) -> In (fst key) (slots q 0 s) -> (o <= fst pl /\ snd pl <= c)%Qc.
  Lemma framed_keep a b q s : framed a q s -> assoc q (opened b) = assoc q (opened a) -> assoc q (closed b) = assoc q (closed a) ->
    (exists new, places b = new ++ places a /\ forall key pl, In (key, pl) new -> ~ In (fst key) (slots q 0 s)) -> framed b q s.
  Proof.
    intros (o & c & E1 & E2 & E3) F1 F2 (new & F3 & F4). exists o, c. splits; try congruence.
    intros key pl H K. rewrite F3 in H. apply in_app_or in H as [H|H]; [now destruct (F4 key pl H)|eauto].
  Qed.
  Lemma step_keys a b ks ls : step rows size gap m note a b ks ls ->
    exists new, places b = new ++ places a /\ forall key pl, In (key, pl) new ->
      In (fst key) ks /\ (cursor a <= fst pl /\ snd pl + m <= cursor b)%Qc.
  Proof.
    intros (new & ivs & E1 & E2 & (_ & E3 & _) & _). exists (rev new). split; [exact E1|]. intros key pl H. apply in_rev in H.
    split; [|rewrite Forall_forall in E3; now destruct (E3 _ H) as (A & _ & B)].
    assert (K : In key (rowed rows ks)) by (rewrite <- E2; now apply (in_map fst) in H).
    apply in_flat_map in K as ([q i] & K1 & K2). apply in_map_iff in K2 as (r & <- & _). exact K1.
  Qed.
  Definition fresh (a : axis) (p n : nat) : Prop :=
    forall key pl, In (key, pl) (places a) -> ~ (Z.of_nat p <= fst (fst key) < Z.of_nat (p + n))%Z.
  Lemma position_fields q i a : opened (position rows size sep q i a) = opened a /\ closed (position rows size sep q i a) = closed a.
  Proof using Hm Hrows Hsep Hsize.
    unfold position. cbn. now destruct (put_rows_spec rows size sep m Hrows Hsize Hm Hsep q i rows 0 a) as (new & _ & _ & _ & E1 & E2 & _).
  Qed.
  Lemma walk_list_step q k l a : step rows size gap m note a (walk_list q k l a) (removelast (slots q k l)) (flat_map leaves_of l).
  Proof using Hgap Hm Hrows Hsep Hsize. eapply walk_spec; eauto. Qed.

  Lemma removelast_incl {A} (l : list A) x : In x (removelast l) -> In x l.
  Proof. induction l as [|y l IH]; auto. cbn. destruct l; [contradiction|]. intros [H|H]; [now left|right; auto]. Qed.

  Lemma walk_frames n : forall l, lsizes l <= n -> forall p q k a, numbered p l -> (q < Z.of_nat p)%Z -> fresh a p (lsizes l) ->
    (forall r, ~ (Z.of_nat p <= r < Z.of_nat (p + lsizes l))%Z ->
       assoc r (opened (walk_list q k l a)) = assoc r (opened a) /\ assoc r (closed (walk_list q k l a)) = assoc r (closed a)) /\
    (forall e r d s, In (r, d, s) (flat_map (kid_seqs e) l) -> framed (walk_list q k l a) r s).
  Proof using Hgap Hm Hrows Hsep Hsize.
    induction n as [|n IH]; intros [|x l] Hn p q k a N Hq Fr.
    - split; [intros; split; reflexivity|contradiction].
    - rewrite lsizes_cons in Hn. pose proof (lsize_pos x). lia.
    - split; [intros; split; reflexivity|contradiction].
    - rewrite lsizes_cons in *. pose proof (lsize_pos x) as Px. pose proof (numbered_tail _ _ _ N) as N'.
      cbn [Layouts.walk_list]. set (b := walk_node q k x a).
      (* the node *)
      assert (B : (exists new, places b = new ++ places a /\ forall key pl, In (key, pl) new -> fst key = (q, k) \/ (Z.of_nat p <= fst (fst key) < Z.of_nat (p + lsize x))%Z) /\
                  (forall r, ~ (Z.of_nat p <= r < Z.of_nat (p + lsize x))%Z -> assoc r (opened b) = assoc r (opened a) /\ assoc r (closed b) = assoc r (closed a)) /\
                  (forall e r d s, In (r, d, s) (kid_seqs e x) -> framed b r s)).
      { assert (S1 : step rows size gap m note a b ([(q, k)] ++ kid_slots x) (leaves_of x)).
        { pose proof (walk_list_step q k [x] a) as S1. cbn [Layouts.walk_list flat_map] in S1. rewrite app_nil_r in S1.
          assert (E : removelast (slots q k [x]) = [(q, k)] ++ kid_slots x).
          { cbn [slots]. change ((q, k) :: kid_slots x ++ [(q, S k)]) with (((q, k) :: kid_slots x) ++ [(q, S k)]). apply removelast_last. }
          rewrite E in S1. exact S1. }
        assert (SR : forall r i, In (r, i) (kid_slots x) -> (Z.of_nat p <= r < Z.of_nat (p + lsize x))%Z).
        { intros r i H. destruct x as [| | | | |p0 cs m0]; try contradiction. rewrite kid_group in H.
          apply numbered_group in N as [-> N]. rewrite lsize_group in *.
          apply (slots_range _ cs (le_n _) _ _ _ N) in H as [[-> H]|H]; lia. }
        split.
        { destruct (step_keys _ _ _ _ S1) as (new & E1 & E2). exists new. split; [exact E1|]. intros [[r i] w] pl H.
          destruct (E2 _ _ H) as [K _]. cbn in K |- *. destruct K as [K|K]; [now left|right; now apply SR in K]. }
        subst b. destruct x as [i t|i t mm|i|i|i|i cs mm];
          try (cbn [Layouts.walk_node leaf_gap opened closed]; destruct (position_fields q k a) as [-> ->]; split; [intros; split; reflexivity|contradiction]).
        rewrite walk_group in *. rewrite lsize_group in *. cbn [kid_seqs]. pose proof N as N0. apply numbered_group in N0 as [-> N0].
        set (g := Z.of_nat (pre i)) in *. set (a1 := move gap (position rows size sep q k a)) in *. unfold Layouts.walk in *.
        set (a2 := enter gap g a1) in *. set (a3 := walk_list g 0 cs a2) in *.
        assert (F1 : opened a1 = opened a /\ closed a1 = closed a) by apply position_fields.
        assert (P1 : exists new, places a1 = new ++ places a /\ forall key pl, In (key, pl) new -> fst key = (q, k)).
        { destruct (step_keys a a1 [(q, k)] []) as (new & E1 & E2); [eapply position_spec; eauto; apply Qcle_refl|].
          exists new. split; [exact E1|]. intros key pl H. now destruct (E2 _ _ H) as [[K|[]] _]. }
        assert (Fr2 : forall key pl, In (key, pl) (places a2) -> ~ (Z.of_nat (pre i) <= fst (fst key) < Z.of_nat (pre i + S (lsizes cs)))%Z).
        { intros key pl H. cbn [a2 enter places] in H. destruct P1 as (new & P1 & P2). rewrite P1 in H. apply in_app_or in H as [H|H].
          - rewrite (P2 _ _ H). cbn. lia.
          - apply Fr in H. lia. }
        destruct (IH cs ltac:(lia) (S (pre i)) g 0 a2 N0 ltac:(lia)) as [I1 I2].
        { intros key pl H. apply Fr2 in H. lia. }
        fold a3 in I1, I2.
        assert (S3 : step rows size gap m note a2 a3 (removelast (slots g 0 cs)) (flat_map leaves_of cs)) by apply walk_list_step.
        set (a4 := leave rows size sep gap false g (length cs) a3) in *.
        assert (S4 : step rows size gap m note a3 a4 [(g, length cs)] []) by (eapply leave_spec; eauto).
        assert (F4 : opened a4 = opened a3 /\ closed a4 = (g, cursor a4) :: closed a3).
        { unfold a4, leave. cbn [opened closed cursor move]. destruct (position_fields g (length cs) a3) as [-> ->]. auto. }
        change (opened (move gap a4)) with (opened a4). change (closed (move gap a4)) with (closed a4).
        destruct F4 as [F4 F5], F1 as [F1 F2]. rewrite F4, F5.
        assert (O2 : opened a2 = (g, cursor a1) :: opened a1) by reflexivity. assert (C2 : closed a2 = closed a1) by reflexivity.
        split.
        + intros r Hr. rewrite assoc_cons_other by lia. destruct (I1 r ltac:(lia)) as [-> ->]. rewrite O2, C2, F1, F2, assoc_cons_other by lia. auto.
        + intros e r d s [H|H].
          * injection H as <- <- <-. fold g. exists (cursor a1), (cursor a4). cbn [move opened closed places]. rewrite F4, F5.
            destruct (I1 g ltac:(lia)) as [-> _]. rewrite O2, !assoc_cons_same. splits; auto. intros key pl H K.
            assert (K' : (Z.of_nat (pre i) <= fst (fst key) < Z.of_nat (pre i + S (lsizes cs)))%Z).
            { destruct key as [[r i'] w]. cbn in K |- *. apply (slots_range _ cs (le_n _) _ _ _ N0) in K as [[-> K]|K]; lia. }
            destruct (step_keys _ _ _ _ S4) as (n4 & E4 & E4'). destruct (step_keys _ _ _ _ S3) as (n3 & E3 & E3').
            assert (C1 : (cursor a1 <= cursor a2)%Qc) by (cbn; qc_lra).
            assert (C3 : (cursor a2 <= cursor a3)%Qc) by (destruct S3 as (? & ? & ? & ? & (? & _) & _); auto).
            assert (C4 : (cursor a3 <= cursor a4)%Qc) by (destruct S4 as (? & ? & ? & ? & (? & _) & _); auto).
            rewrite E4, E3 in H. apply in_app_or in H as [H|H]; [|apply in_app_or in H as [H|H]].
            -- destruct (E4' _ _ H) as [_ [A B]]. split; qc_lra.
            -- destruct (E3' _ _ H) as [_ [A B]]. split; qc_lra.
            -- now destruct (Fr2 _ _ H).
          * pose proof H as H0. apply (kid_seqs_range _ cs (le_n _) _ _ _ _ _ N0) in H0 as (r0 & -> & A & B & Ns).
            apply I2 in H. eapply framed_keep; [exact H| | |]; cbn [move opened closed places].
            -- now rewrite F4.
            -- rewrite F5, assoc_cons_other by lia. reflexivity.
            -- destruct (step_keys _ _ _ _ S4) as (n4 & E4 & E4'). exists n4. split; [exact E4|]. intros key pl H' K.
               destruct (E4' _ _ H') as [[E|[]] _]. rewrite <- E in K. apply (slots_range _ s (le_n _) _ _ _ Ns) in K as [[K _]|K]; lia. }
      destruct B as [(new & B1 & B2) [B3 B4]].
      destruct (IH l ltac:(lia) (p + lsize x) q (S k) b N' ltac:(lia)) as [I1 I2].
      { intros key pl H. rewrite B1 in H. apply in_app_or in H as [H|H].
        - destruct (B2 _ _ H) as [-> |K]; cbn; lia.
        - apply Fr in H. lia. }
      split.
      + intros r Hr. destruct (I1 r ltac:(lia)) as [-> ->]. apply B3. lia.
      + intros e r d s H. cbn [flat_map] in H. apply in_app_or in H as [H|H]; [|eauto].
        assert (R : exists r0, r = Z.of_nat r0 /\ p <= r0 /\ S r0 + lsizes s <= p + lsize x /\ numbered (S r0) s).
        { destruct (kid_seqs_range _ [x] (le_n _) p e r d s) as (r0 & A & B & C & D).
          - inversion N; subst; constructor; auto; constructor.
          - cbn. now rewrite app_nil_r.
          - exists r0. splits; auto. rewrite lsizes_cons in C. change (lsizes (@nil L)) with 0 in C. lia. }
        destruct R as (r0 & -> & R1 & R2 & R3). destruct (I1 (Z.of_nat r0) ltac:(lia)) as [J1 J2].
        eapply framed_keep; [eapply B4; exact H|exact J1|exact J2|].
        destruct (step_keys _ _ _ _ (walk_list_step q (S k) l b)) as (n2 & E2 & E2'). exists n2. split; [exact E2|]. intros [[r i] w] pl H' K.
        destruct (E2' _ _ H') as [K' _]. cbn in K, K'. apply removelast_incl in K'.
        apply (slots_range _ l (le_n _) _ _ _ N') in K' as [[-> _]|K']; apply (slots_range _ s (le_n _) _ _ _ R3) in K as [[K _]|K]; lia.
  Qed.
  Theorem walk_framed T a : numbered 0 T -> places a = [] -> forall q d s, seq_in T q d s -> framed (walk (-1)%Z T a) q s.
  Proof using Hgap Hm Hrows Hsep Hsize.
    intros N Ea q d s H. unfold Layouts.walk. set (a2 := enter gap (-1)%Z a). set (a3 := walk_list (-1)%Z 0 T a2).
    destruct (walk_frames _ T (le_n _) 0 (-1)%Z 0 a2 N ltac:(lia)) as [I1 I2].
    { intros key pl K. cbn [a2 enter places] in K. rewrite Ea in K. contradiction. }
    fold a3 in I1, I2. set (a4 := leave rows size sep gap false (-1)%Z (length T) a3).
    assert (S3 : step rows size gap m note a2 a3 (removelast (slots (-1)%Z 0 T)) (flat_map leaves_of T)) by apply walk_list_step.
    assert (S4 : step rows size gap m note a3 a4 [((-1)%Z, length T)] []) by (eapply leave_spec; eauto).
    assert (F4 : opened a4 = opened a3 /\ closed a4 = ((-1)%Z, cursor a4) :: closed a3).
    { unfold a4, leave. cbn [opened closed cursor move]. destruct (position_fields (-1)%Z (length T) a3) as [-> ->]. auto. }
    destruct F4 as [F4 F5]. destruct (step_keys _ _ _ _ S4) as (n4 & E4 & E4').
    apply seq_in_list in H as [(-> & -> & ->)|H].
    - exists (cursor a), (cursor a4). rewrite F4, F5. destruct (I1 (-1)%Z ltac:(lia)) as [-> _].
      change (opened a2) with (((-1)%Z, cursor a) :: opened a). rewrite !assoc_cons_same. splits; auto. intros key pl H K.
      destruct (step_keys _ _ _ _ S3) as (n3 & E3 & E3').
      assert (C1 : (cursor a <= cursor a2)%Qc) by (cbn; qc_lra).
      assert (C3 : (cursor a2 <= cursor a3)%Qc) by (destruct S3 as (? & ? & ? & ? & (? & _) & _); auto).
      assert (C4 : (cursor a3 <= cursor a4)%Qc) by (destruct S4 as (? & ? & ? & ? & (? & _) & _); auto).
      rewrite E4, E3 in H. apply in_app_or in H as [H|H]; [|apply in_app_or in H as [H|H]].
      + destruct (E4' _ _ H) as [_ [A B]]. split; qc_lra.
      + destruct (E3' _ _ H) as [_ [A B]]. split; qc_lra.
      + cbn [a2 enter places] in H. rewrite Ea in H. contradiction.
    - pose proof H as H0. apply (kid_seqs_range _ T (le_n _) _ _ _ _ _ N) in H0 as (r0 & -> & A & B & Ns).
      eapply framed_keep; [eapply I2; exact H| | |].
      + now rewrite F4.
      + rewrite F5, assoc_cons_other by lia. reflexivity.
      + exists n4. split; [exact E4|]. intros key pl H' K. destruct (E4' _ _ H') as [[E|[]] _]. rewrite <- E in K.
        apply (slots_range _ s (le_n _) _ _ _ Ns) in K as [[K _]|K]; lia.
  Qed.
End Frames.

(** The gaps of the leaves are those between the positions. *)
Section Gaps.
  Context {M : Type}.
  Notation L := (lnode M).
  Variable rows : nat.
  Variable size sep gap m : Qc.
  Variable note : L -> Qc -> Qc -> extra_annotation.
  Variable with_final : bool.
  Hypothesis Hrows : 0 < rows.
  Hypothesis Hsize : (0 < size)%Qc.
  Hypothesis Hm : (0 < m)%Qc.
  Hypothesis Hgap : (m <= gap)%Qc.
  Hypothesis Hsep : 1 < rows -> (m <= sep)%Qc.
  Notation walk_list := (walk_list rows size sep gap note with_final).
  Notation leave := (leave rows size sep gap with_final).
  Notation position := (position rows size sep).
  Lemma leaves_group q i p (cs : list L) mm : leaves_at q i (LGroup p cs mm) = leaves_from (Z.of_nat (pre p)) 0 cs.
  Proof. cbn [leaves_at]. generalize 0. induction cs as [|c cs IH]; intros k; auto. cbn [leaves_from]. now rewrite IH. Qed.
  Lemma put_rows_grow q i : forall n row a e, In e (places a) -> In e (places (put_rows size sep q i row n a)).
  Proof. induction n as [|n IH]; intros row a e H; auto. cbn [put_rows]. apply IH. now right. Qed.
  Lemma put_rows_last q i : forall n row a, exists y,
    In ((q, i, row + n), (y, cursor (put_rows size sep q i row (S n) a) - sep)%Qc) (places (put_rows size sep q i row (S n) a)).
  Proof.
    induction n as [|n IH]; intros row a.
    - exists (cursor a). cbn. left. rewrite Nat.add_0_r. f_equal. f_equal. ring.
    - destruct (IH (S row) (mkAxis (cursor a + size + sep)%Qc (((q, i, row), (cursor a, (cursor a + size)%Qc)) :: places a)
             (opened a) (closed a) (final a) (notes a))) as [y H]. exists y. rewrite Nat.add_succ_r. exact H.
  Qed.
  Lemma position_last q i a : exists y, In ((q, i, rows - 1), (y, cursor (position q i a))) (places (position q i a)).
  Proof using Hrows.
    clear - Hrows. unfold Layouts.position. destruct rows as [|n]; [lia|]. destruct (put_rows_last q i n 0 a) as [y H]. exists y.
    cbn [move places cursor]. replace (S n - 1) with (0 + n) by lia. exact H.
  Qed.
  Lemma position_first q i a : In ((q, i, 0), (cursor a, (cursor a + size)%Qc)) (places (position q i a)).
  Proof using Hrows.
    clear - Hrows. unfold Layouts.position. destruct rows as [|n]; [lia|]. cbn [move places put_rows]. apply put_rows_grow. now left.
  Qed.
  Lemma position_notes q i a : notes (position q i a) = notes a.
  Proof. clear. unfold Layouts.position. cbn. generalize rows at 1, 0. intros n. revert a. induction n as [|n IH]; intros a k; auto. cbn [put_rows]. now rewrite IH. Qed.
  Lemma leave_places q i a : places (leave q i a) = places (position q i a) /\ notes (leave q i a) = notes a.
  Proof. clear. unfold Layouts.leave. pose proof (position_notes q i a) as E. destruct with_final; auto. Qed.
  Definition in_gap (b : axis) (e : (Z * nat * L) * (Qc * Qc)) : Prop :=
    let '(q, k, x) := fst e in
    (exists y, In ((q, k, rows - 1), (y, fst (snd e))) (places b)) /\
    (exists y, In ((q, S k, 0), (snd (snd e), y)) (places b)).
  Definition grows (a b : axis) : Prop := forall e, In e (places a) -> In e (places b).
  Lemma in_gap_grow a b e : grows a b -> in_gap a e -> in_gap b e.
  Proof. destruct e as [[[q k] x] [c c']]. intros G [[y H] [y' H']]. split; eauto. Qed.
  Lemma step_grows a b ks ls : step rows size gap m note a b ks ls -> grows a b.
  Proof. intros (new & ivs & E & _) e H. rewrite E. apply in_or_app. auto. Qed.
  Lemma list_grows q k l a : grows a (walk_list q k l a).
  Proof using Hgap Hm Hrows Hsep Hsize. eapply step_grows. eapply walk_spec; eauto. Qed.
  Lemma position_grows q i a : grows a (position q i a).
  Proof. intros e H. unfold Layouts.position. cbn. now apply put_rows_grow. Qed.
  Lemma gaps n : forall l, lsizes l <= n -> forall q k a last, last = k + length l ->
    let b := leave q last (walk_list q k l a) in
    In ((q, k, 0), (cursor a, (cursor a + size)%Qc)) (places b) /\
    exists ivs, notes b = notes a ++ map (fun e => note (snd (fst e)) (fst (snd e)) (snd (snd e))) ivs /\
      map fst ivs = leaves_from q k l /\ Forall (in_gap b) ivs.
  Proof using Hgap Hm Hrows Hsep Hsize.
    assert (LG : forall q i a, grows a (leave q i a)).
    { intros q i a e H. destruct (leave_places q i a) as [-> _]. now apply position_grows. }
    induction n as [|n IH]; intros [|x l] Hn q k a last E b.
    - subst b last. cbn [length Layouts.walk_list]. rewrite Nat.add_0_r. destruct (leave_places q k a) as [-> ->]. split; [apply position_first|]. exists []. splits; auto. now rewrite app_nil_r.
    - rewrite lsizes_cons in Hn. pose proof (lsize_pos x). lia.
    - subst b last. cbn [length Layouts.walk_list]. rewrite Nat.add_0_r. destruct (leave_places q k a) as [-> ->]. split; [apply position_first|]. exists []. splits; auto. now rewrite app_nil_r.
    - rewrite lsizes_cons in Hn. pose proof (lsize_pos x) as Px. cbn [Layouts.walk_list] in b.
      set (a1 := walk_node rows size sep gap note with_final q k x a) in *.
      destruct (IH l ltac:(lia) q (S k) a1 last ltac:(cbn in E; lia)) as [F (ivs & N1 & N2 & N3)].
      fold b in F, N1, N3.
      assert (G1 : grows a1 b) by (intros e H; apply LG, list_grows; exact H).
      destruct (position_last q k a) as [y PL]. pose proof (position_first q k a) as PF.
      cbn [leaves_from].
      destruct x as [i t|i t mm|i|i|i|i cs mm];
        try (split; [apply G1; exact PF|];
             eexists (((q, k, _), (cursor (position q k a), (cursor (position q k a) + gap)%Qc)) :: ivs);
             cbn [map fst snd]; splits;
             [rewrite N1; subst a1; cbn [Layouts.walk_node leaf_gap notes]; rewrite position_notes, <- app_assoc; reflexivity
             |cbn [leaves_at app]; now rewrite N2
             |constructor; [|exact N3]; split; cbn [fst snd]; [exists y; apply G1; exact PL|eexists; exact F]]).
      rewrite leaves_group. rewrite lsize_group in Hn. subst a1. rewrite walk_group in *. unfold walk in *.
      set (g := Z.of_nat (pre i)) in *. set (a2 := enter gap g (move gap (position q k a))) in *.
      destruct (IH cs ltac:(lia) g 0 a2 (length cs) eq_refl) as [_ (ivs' & K1 & K2 & K3)].
      assert (G2 : grows a2 b) by (intros e H; apply G1; cbn [move places]; apply LG, list_grows; exact H).
      split; [apply G2; exact PF|]. exists (ivs' ++ ivs). splits.
      + rewrite N1. cbn [move notes]. rewrite K1. subst a2. cbn [enter move notes]. rewrite position_notes, map_app. now rewrite app_assoc.
      + rewrite map_app. congruence.
      + apply Forall_app. split; [|exact N3]. eapply Forall_impl; [|exact K3]. intros e. apply in_gap_grow. exact G1.
  Qed.
End Gaps.

(** ** What is used later: an interval for every position and row. *)
Section Intervals.
  Context {M : Type}.
  Notation L := (lnode M).
  Variable rows : nat.
  Variable size sep gap m : Qc.
  Variable note : L -> Qc -> Qc -> extra_annotation.
  Variable with_final : bool.
  Hypothesis Hrows : 0 < rows.
  Hypothesis Hsize : (0 < size)%Qc.
  Hypothesis Hm : (0 < m)%Qc.
  Hypothesis Hgap : (m <= gap)%Qc.
  Hypothesis Hsep : 1 < rows -> (m <= sep)%Qc.
  Variable T : list L.
  Variable a : axis.
  Hypothesis HT : numbered 0 T.
  Hypothesis Ha : places a = [].
  Hypothesis Hn : notes a = [].
  Let b := walk rows size sep gap note with_final (-1)%Z T a.
  Definition interval (b : axis) (k : Z * nat * nat) : Qc * Qc := match assoc k (places b) with Some p => p | None => (0, 0)%Qc end.
  Notation S := (slots (-1)%Z 0 T).
  Lemma rowed_nodup (ks : list (Z * nat)) : NoDup ks -> NoDup (rowed rows ks).
  Proof.
    clear. induction 1 as [|[q i] ks H N IH]; [constructor|]. cbn. apply nodup_app; auto.
    - apply FinFun.Injective_map_NoDup; [intros r r' E; now injection E|apply seq_NoDup].
    - intros x Hx C. apply in_map_iff in Hx as (r & <- & _). apply in_flat_map in C as ([q' i'] & C1 & C2).
      apply in_map_iff in C2 as (r' & E & _). cbn in E. injection E as -> -> _. contradiction.
  Qed.
  Lemma rowed_in (ks : list (Z * nat)) q i r : In (q, i) ks -> r < rows -> In (q, i, r) (rowed rows ks).
  Proof. clear. intros H R. apply in_flat_map. exists (q, i). split; auto. apply in_map_iff. exists r. split; auto. apply in_seq. lia. Qed.
  Lemma places_spec : exists new, places b = rev new /\ map fst new = rowed rows S /\ followed size m (cursor a) (cursor b) new.
  Proof using Ha Hgap Hm Hrows Hsep Hsize.
    destruct (walk_step rows size sep gap m note with_final Hrows Hsize Hm Hgap Hsep (-1)%Z T a) as (new & ivs & E1 & E2 & E3 & _).
    exists new. rewrite Ha, app_nil_r in E1. auto.
  Qed.
  Lemma interval_in q i r p : In (q, i, r, p) (places b) -> interval b (q, i, r) = p.
  Proof using Ha HT Hgap Hm Hrows Hsep Hsize.
    destruct places_spec as (new & E1 & E2 & _). intros H. unfold interval. erewrite assoc_nodup; [reflexivity| |exact H].
    rewrite E1, map_rev. apply NoDup_rev. rewrite E2. apply rowed_nodup. eapply slots_nodup; [apply le_n|exact HT|lia].
  Qed.
  Lemma interval_at q i r : In (q, i) S -> r < rows ->
    at_key (q, i, r) (places b) = Ok (interval b (q, i, r)) /\
    (cursor a <= fst (interval b (q, i, r)) /\ snd (interval b (q, i, r)) = fst (interval b (q, i, r)) + size /\
     snd (interval b (q, i, r)) + m <= cursor b)%Qc.
  Proof using Ha HT Hgap Hm Hrows Hsep Hsize.
    intros H R. destruct places_spec as (new & E1 & E2 & (_ & E3 & _)). apply (rowed_in _ _ _ r) in H; auto. rewrite <- E2 in H.
    apply in_map_iff in H as ([k p] & E & H). cbn in E. subst k.
    assert (I : In (q, i, r, p) (places b)) by (rewrite E1; now apply -> in_rev).
    pose proof (interval_in _ _ _ _ I) as EI. rewrite EI. rewrite Forall_forall in E3. split; [|exact (E3 _ H)].
    unfold interval in EI. unfold at_key. destruct (assoc (q, i, r) (places b)) eqn:A; [congruence|].
    apply assoc_None_iff in A. destruct A. apply in_map_iff. now exists (q, i, r, p).
  Qed.
  Lemma interval_order x y : before (rowed rows S) x y -> (snd (interval b x) + m <= fst (interval b y))%Qc.
  Proof using Ha HT Hgap Hm Hrows Hsep Hsize.
    destruct places_spec as (new & E1 & E2 & (_ & _ & E3)). rewrite <- E2. intros B. apply before_map in B as ([[[q i] r] p] & [[[q' i'] r'] p'] & B & <- & <-).
    pose proof (sorted_before _ _ _ _ E3 B) as R. destruct B as (l1 & l2 & E & H1 & H2). cbn [fst].
    rewrite (interval_in q i r p), (interval_in q' i' r' p'); [exact R| |]; rewrite E1; apply -> in_rev; rewrite E; apply in_or_app; auto.
  Qed.
  Lemma interval_before k k' r r' : before S k k' -> r < rows -> r' < rows -> (snd (interval b (k, r)) + m <= fst (interval b (k', r')))%Qc.
  Proof using Ha HT Hgap Hm Hrows Hsep Hsize.
    intros B R R'. apply interval_order. destruct k as [q i], k' as [q' i'].
    eapply before_flat; [exact B| |]; apply in_map_iff; [exists r|exists r']; (split; [reflexivity|apply in_seq; lia]).
  Qed.
  Lemma interval_rows k r r' : In k S -> r < r' -> r' < rows -> (snd (interval b (k, r)) + m <= fst (interval b (k, r')))%Qc.
  Proof using Ha HT Hgap Hm Hrows Hsep Hsize.
    intros H R R'. apply interval_order. apply in_split in H as (l1 & l2 & ->). rewrite rowed_app. apply before_left. destruct k as [q i]. cbn. apply before_right.
    replace rows with (r + (1 + (rows - r - 1))) by lia. rewrite seq_app, map_app. apply before_left. rewrite seq_app, map_app. apply before_app.
    - now left.
    - apply in_map_iff. exists r'. split; [reflexivity|]. apply in_seq. lia.
  Qed.
  Lemma interval_apart x y : In x (rowed rows S) -> In y (rowed rows S) -> x <> y ->
    (snd (interval b x) + m <= fst (interval b y))%Qc \/ (snd (interval b y) + m <= fst (interval b x))%Qc.
  Proof using Ha HT Hgap Hm Hrows Hsep Hsize.
    intros H H' N. destruct (before_total _ x y H H' N) as [B|B]; [left|right]; now apply interval_order.
  Qed.
  Lemma interval_notes : exists ivs, notes b = map (fun e => note (snd (fst e)) (fst (snd e)) (snd (snd e))) ivs /\
    map fst ivs = leaves_from (-1)%Z 0 T /\
    Forall (fun e => let '(q, k, _) := fst e in
              fst (snd e) = snd (interval b (q, k, rows - 1)) /\ snd (snd e) = fst (interval b (q, Datatypes.S k, 0))) ivs.
  Proof using Ha HT Hn Hgap Hm Hrows Hsep Hsize.
    destruct (gaps rows size sep gap m note with_final Hrows Hsize Hm Hgap Hsep _ T (le_n _) (-1)%Z 0 (enter gap (-1)%Z a) (length T) eq_refl) as [_ (ivs & E1 & E2 & E3)].
    change (leave rows size sep gap with_final (-1) (length T) (walk_list rows size sep gap note with_final (-1) 0 T (enter gap (-1) a))) with b in *.
    exists ivs. splits; auto.
    - rewrite E1. cbn [enter notes]. now rewrite Hn.
    - eapply Forall_impl; [|exact E3]. intros [[[q k] x] [c c']] [[y H] [y' H']]. cbn [fst snd] in *.
      now rewrite (interval_in _ _ _ _ H), (interval_in _ _ _ _ H').
  Qed.
End Intervals.
