(** The edges of the edit DAG come in topological order. *)

From Coq Require Import List Bool Arith ZArith Lia QArith Qcanon.
From Verif Require Import Base Graph GatedDag Blocks SeqNodes PackedSeq Numbered Decisions ConstraintProofs EditDag.
Import ListNotations.
Close Scope Qc_scope. Close Scope Q_scope. Close Scope Z_scope. Open Scope nat_scope.

Section Order.
  Context {M : Type} {md : EqDec M} (P : parameters).
  Notation L := (lnode M).

  (** ** Where edges start and end. *)
  Definition span (lo hi : nat) (q : Z) : Prop := (Z.of_nat lo <= q < Z.of_nat hi)%Z.
  Definition rsrc a q i h j lo hi (s : estate) : Prop :=
    match s with
    | EAt a' _ q' i' h' j' => h' = h /\ j' = j /\ ((a' = a /\ q' = q /\ i' = i) \/ (a' = RDELETE /\ span lo hi q'))
    | EFinal => False
    end.
  Definition rdst a q i h j lo hi (s : estate) : Prop :=
    match s with
    | EAt a' _ q' i' h' j' => h' = h /\ j' = j /\ ((a' = a /\ q' = q /\ i' = S i) \/ (a' = RDELETE /\ span lo hi q'))
    | EFinal => True
    end.
  Definition rsrcs q k n h j lo hi (s : estate) : Prop :=
    match s with
    | EAt a' _ q' i' h' j' => h' = h /\ j' = j /\ a' = RDELETE /\ ((q' = q /\ k <= i' < n) \/ span lo hi q')
    | EFinal => False
    end.
  Definition rdsts q k n h j lo hi (s : estate) : Prop :=
    match s with
    | EAt a' _ q' i' h' j' => h' = h /\ j' = j /\ a' = RDELETE /\ ((q' = q /\ k < i' <= n) \/ span lo hi q')
    | EFinal => True
    end.
  Definition asrc a q i h j lo hi (s : estate) : Prop :=
    match s with
    | EAt a' _ q' i' h' j' => q' = q /\ i' = i /\ ((a' = a /\ h' = h /\ j' = j) \/ (a' = RINSERT /\ span lo hi h'))
    | EFinal => False
    end.
  Definition adst a q i h j lo hi (s : estate) : Prop :=
    match s with
    | EAt a' _ q' i' h' j' => q' = q /\ i' = i /\ ((a' = a /\ h' = h /\ j' = S j) \/ (a' = RINSERT /\ span lo hi h'))
    | EFinal => False
    end.
  Definition asrcs q i h k n lo hi (s : estate) : Prop :=
    match s with
    | EAt a' _ q' i' h' j' => q' = q /\ i' = i /\ a' = RINSERT /\ ((h' = h /\ k <= j' < n) \/ span lo hi h')
    | EFinal => False
    end.
  Definition adsts q i h k n lo hi (s : estate) : Prop :=
    match s with
    | EAt a' _ q' i' h' j' => q' = q /\ i' = i /\ a' = RINSERT /\ ((h' = h /\ k < j' <= n) \/ span lo hi h')
    | EFinal => False
    end.
  Definition joins (S D : estate -> Prop) (e : eedge) : Prop := S (source e) /\ D (dest e).

  Lemma numbered_number p (x : L) l : numbered p (x :: l) -> number x = p.
  Proof. intros Hn. inversion Hn; subst; reflexivity. Qed.
  Ltac low := unfold joins, rsrc, rdst, rsrcs, rdsts, asrc, adst, asrcs, adsts, span in *.
  Ltac crush := low; cbn in *; repeat match goal with H : False |- _ => destruct H | H : _ /\ _ |- _ => destruct H | H : _ \/ _ |- _ => destruct H end;
    subst; try discriminate; try congruence; try (exfalso; lia); try lia; auto.
  Ltac edges := repeat (apply Forall_cons; [split; cbn; auto; low; intuition (auto; lia)|]); apply Forall_nil.

  Lemma Forall_both (Q : eedge -> Prop) f : Forall Q (f High) -> Forall Q (f Low) -> Forall Q (both f).
  Proof. intros A B. unfold both. apply Forall_app. auto. Qed.
  Lemma advance_joins a q i h j (x : L) lo hi :
    Forall (joins (rsrc a q i h j lo hi) (rdst a q i h j lo hi)) (advance P a q i h j x).
  Proof. destruct x; cbn [advance both app]; edges. Qed.
  Lemma skip_joins a q i h j (y : L) lo hi :
    Forall (joins (asrc a q i h j lo hi) (adst a q i h j lo hi)) (skip a q i h j y).
  Proof. destruct y; cbn [skip both app]; edges. Qed.

  Lemma remove_joins_upto n : forall (x : L), lsize x <= n -> forall a q i h j p, numbered p [x] ->
    Forall (joins (rsrc a q i h j p (p + lsize x)) (rdst a q i h j p (p + lsize x))) (remove P a q i h j x).
  Proof.
    induction n as [|n IH]; intros x Hs a q i h j p Hn; [pose proof (lsize_pos x); lia|].
    destruct x as [p0 t|p0 t m|p0|p0|p0|p0 cs m]; try apply advance_joins; [cbn [remove both app]; edges|].
    rewrite remove_group. pose proof Hn as Hn0. apply numbered_kids in Hn as [-> Hc]. rewrite lsize_group in *.
    apply Forall_app. split; [apply Forall_both; edges|]. apply Forall_app. split; [|apply Forall_both; edges].
    assert (G : forall (l : list L) lo, numbered lo l -> pre p0 < lo -> lo + lsizes l <= pre p0 + S (lsizes cs) -> lsizes l <= lsizes cs -> forall k,
      Forall (joins (rsrc a q i h j (pre p0) (pre p0 + S (lsizes cs))) (rdst a q i h j (pre p0) (pre p0 + S (lsizes cs))))
        (remove_list P (Z.of_nat (pre p0)) k h j l)).
    { induction l as [|c l IHl]; intros lo Nl H1 H2 H3 k; [apply Forall_nil|]. cbn [remove_list]. rewrite lsizes_cons in *.
      destruct (numbered_one _ _ _ Nl) as [N1 N2]. apply Forall_app. split; [|apply (IHl (lo + lsize c)); auto; lia].
      eapply Forall_impl; [|apply (IH c) with (p := lo); auto; lia].
      intros e [S D]. low. split; [destruct (source e)|destruct (dest e)]; auto; intuition (subst; lia). }
    apply (G cs (S (pre p0))); auto; lia.
  Qed.
  Lemma remove_joins (x : L) a q i h j p : numbered p [x] ->
    Forall (joins (rsrc a q i h j p (p + lsize x)) (rdst a q i h j p (p + lsize x))) (remove P a q i h j x).
  Proof. apply (remove_joins_upto (lsize x)). lia. Qed.
  Lemma remove_list_joins (l : list L) : forall q k h j p, numbered p l ->
    Forall (joins (rsrcs q k (k + length l) h j p (p + lsizes l)) (rdsts q k (k + length l) h j p (p + lsizes l)))
      (remove_list P q k h j l).
  Proof.
    induction l as [|c l IH]; intros q k h j p Nl; [apply Forall_nil|]. cbn [remove_list length]. rewrite lsizes_cons.
    destruct (numbered_one _ _ _ Nl) as [N1 N2]. apply Forall_app. split.
    - eapply Forall_impl; [|apply remove_joins; exact N1].
      intros e [S D]. low. split; [destruct (source e)|destruct (dest e)]; auto; intuition (subst; lia).
    - eapply Forall_impl; [|apply IH; exact N2].
      intros e [S D]. low. split; [destruct (source e)|destruct (dest e)]; auto; intuition (subst; lia).
  Qed.
  Lemma add_joins_upto n : forall (x : L), lsize x <= n -> forall a q i h j p, numbered p [x] ->
    Forall (joins (asrc a q i h j p (p + lsize x)) (adst a q i h j p (p + lsize x))) (add P a q i h j x).
  Proof.
    induction n as [|n IH]; intros x Hs a q i h j p Hn; [pose proof (lsize_pos x); lia|].
    destruct x as [p0 t|p0 t m|p0|p0|p0|p0 cs m]; try apply skip_joins; [cbn [add both app]; edges|].
    rewrite add_group. pose proof Hn as Hn0. apply numbered_kids in Hn as [-> Hc]. rewrite lsize_group in *.
    apply Forall_app. split; [apply Forall_both; edges|]. apply Forall_app. split; [|apply Forall_both; edges].
    assert (G : forall (l : list L) lo, numbered lo l -> pre p0 < lo -> lo + lsizes l <= pre p0 + S (lsizes cs) -> lsizes l <= lsizes cs -> forall k,
      Forall (joins (asrc a q i h j (pre p0) (pre p0 + S (lsizes cs))) (adst a q i h j (pre p0) (pre p0 + S (lsizes cs))))
        (add_list P q i (Z.of_nat (pre p0)) k l)).
    { induction l as [|c l IHl]; intros lo Nl H1 H2 H3 k; [apply Forall_nil|]. cbn [add_list]. rewrite lsizes_cons in *.
      destruct (numbered_one _ _ _ Nl) as [N1 N2]. apply Forall_app. split; [|apply (IHl (lo + lsize c)); auto; lia].
      eapply Forall_impl; [|apply (IH c) with (p := lo); auto; lia].
      intros e [S D]. low. split; [destruct (source e)|destruct (dest e)]; auto; intuition (subst; lia). }
    apply (G cs (S (pre p0))); auto; lia.
  Qed.
  Lemma add_joins (x : L) a q i h j p : numbered p [x] ->
    Forall (joins (asrc a q i h j p (p + lsize x)) (adst a q i h j p (p + lsize x))) (add P a q i h j x).
  Proof. apply (add_joins_upto (lsize x)). lia. Qed.
  Lemma add_list_joins (l : list L) : forall q i h k p, numbered p l ->
    Forall (joins (asrcs q i h k (k + length l) p (p + lsizes l)) (adsts q i h k (k + length l) p (p + lsizes l)))
      (add_list P q i h k l).
  Proof.
    induction l as [|c l IH]; intros q i h k p Nl; [apply Forall_nil|]. cbn [add_list length]. rewrite lsizes_cons.
    destruct (numbered_one _ _ _ Nl) as [N1 N2]. apply Forall_app. split.
    - eapply Forall_impl; [|apply add_joins; exact N1].
      intros e [S D]. low. split; [destruct (source e)|destruct (dest e)]; auto; intuition (subst; lia).
    - eapply Forall_impl; [|apply IH; exact N2].
      intros e [S D]. low. split; [destruct (source e)|destruct (dest e)]; auto; intuition (subst; lia).
  Qed.

  (** ** Topological order of the pieces. *)
  (** A convenient way of using the places: the ends of later edges differ from the starts of earlier ones. *)
  Lemma separate (A B : list eedge) SA DA SB DB : Forall (joins SA DA) A -> Forall (joins SB DB) B ->
    topological A -> topological B -> (forall s, SA s -> DB s -> False) -> topological (A ++ B).
  Proof.
    intros FA FB TA TB X. rewrite Forall_forall in FA, FB. apply topological_app; auto.
    intros e e' He He' E. destruct (FA e He) as [S _]. destruct (FB e' He') as [_ D]. apply (X (source e)); auto.
    now rewrite <- E.
  Qed.
  Lemma stepwise (A : list eedge) S D : Forall (joins S D) A -> (forall s, S s -> D s -> False) -> topological A.
  Proof.
    intros F X. induction F as [|e A [H1 H2] F IH]; [apply topological_nil|]. apply topological_cons; auto.
    - intros E. apply (X (source e)); auto. now rewrite E.
    - intros e' He'. rewrite Forall_forall in F. destruct (F e' He') as [_ D']. intros E. apply (X (source e)); auto. now rewrite <- E.
  Qed.
  Definition exactly a q i h j (s : estate) : Prop := exists c, s = EAt a c q i h j.
  Lemma advance_exact a q i h j (x : L) :
    Forall (joins (exactly a q i h j) (fun s => s = EFinal \/ exactly a q (S i) h j s)) (advance P a q i h j x).
  Proof.
    destruct x; cbn [advance both app];
      repeat (apply Forall_cons; [split; cbn; [eexists; reflexivity|solve [now left|right; eexists; reflexivity]]|]); apply Forall_nil.
  Qed.
  Lemma skip_exact a q i h j (y : L) : Forall (joins (exactly a q i h j) (exactly a q i h (S j))) (skip a q i h j y).
  Proof.
    destruct y; cbn [skip both app]; repeat (apply Forall_cons; [split; cbn; eexists; reflexivity|]); apply Forall_nil.
  Qed.
  Lemma advance_topological a q i h j (x : L) : topological (advance P a q i h j x).
  Proof.
    eapply stepwise; [apply advance_exact|]. intros s [c ->] [E|[c' E]]; [discriminate|]. injection E; intros; lia.
  Qed.
  Lemma skip_topological a q i h j (y : L) : topological (skip a q i h j y).
  Proof. eapply stepwise; [apply skip_exact|]. intros s [c ->] [c' E]. injection E; intros; lia. Qed.

  Lemma remove_topological_upto n : forall (x : L), lsize x <= n -> forall a q i h j p, numbered p [x] -> (q < Z.of_nat p)%Z ->
    topological (remove P a q i h j x).
  Proof.
    induction n as [|n IH]; intros x Hs a q i h j p Hn Hq; [pose proof (lsize_pos x); lia|].
    destruct x as [p0 t|p0 t m|p0|p0|p0|p0 cs m]; try apply advance_topological.
    - apply (stepwise _ (exactly a q i h j) (exactly a q (S i) h j)).
      + cbn [remove both app]. repeat (apply Forall_cons; [split; cbn; eexists; reflexivity|]); apply Forall_nil.
      + intros s [c ->] [c' E]. injection E; intros; lia.
    - rewrite remove_group. apply numbered_kids in Hn as [-> Hc]. rewrite lsize_group in *. set (g := Z.of_nat (pre p0)).
      pose proof (remove_list_joins cs g 0 h j _ Hc) as J.
      apply (separate _ _ (exactly a q i h j) (exactly RDELETE g 0 h j)
        (fun s => True) (fun s => s = EFinal \/ match s with EAt a' _ q' i' _ _ => (a' = RDELETE /\ (Z.of_nat (pre p0) <= q')%Z /\ (q' = g -> 0 < i')) \/ (a' = a /\ q' = q /\ i' = S i) | EFinal => False end)).
      + apply Forall_both; (apply Forall_cons; [split; cbn; eexists; reflexivity|apply Forall_nil]).
      + apply Forall_app. split.
        * eapply Forall_impl; [|exact J]. intros e [S D]. split; auto. destruct (dest e); [right|now left]. low. intuition (subst; try lia).
        * apply Forall_both; (apply Forall_cons; [split; cbn; auto|apply Forall_nil]).
      + apply (stepwise _ (exactly a q i h j) (exactly RDELETE g 0 h j)).
        * apply Forall_both; (apply Forall_cons; [split; cbn; eexists; reflexivity|apply Forall_nil]).
        * intros s [c ->] [c' E]. injection E; intros; subst. unfold g in *. lia.
      + apply (separate _ _ (rsrcs g 0 (0 + length cs) h j (S (pre p0)) (S (pre p0) + lsizes cs))
                 (rdsts g 0 (0 + length cs) h j (S (pre p0)) (S (pre p0) + lsizes cs))
                 (exactly RDELETE g (length cs) h j) (exactly a q (S i) h j)); auto.
        * apply Forall_both; (apply Forall_cons; [split; cbn; eexists; reflexivity|apply Forall_nil]).
        * assert (G : forall (l : list L) lo, numbered lo l -> pre p0 < lo -> lsizes l <= lsizes cs -> forall k, topological (remove_list P g k h j l)).
          { induction l as [|c l IHl]; intros lo Nl Hlo Hl k; [apply topological_nil|]. cbn [remove_list].
            destruct (numbered_one _ _ _ Nl) as [N1 N2]. rewrite lsizes_cons in *.
            eapply separate; [apply remove_joins; exact N1|apply remove_list_joins; exact N2|..].
            - apply (IH c) with (p := lo); auto; unfold g; lia.
            - apply (IHl (lo + lsize c)); auto; lia.
            - intros [a' c' q' i' h' j'|]; [|now intros []]. unfold g in *. intros A B. crush. }
          apply (G cs (S (pre p0))); auto.
        * apply (stepwise _ (exactly RDELETE g (length cs) h j) (exactly a q (S i) h j)).
          -- apply Forall_both; (apply Forall_cons; [split; cbn; eexists; reflexivity|apply Forall_nil]).
          -- intros s [c ->] [c' E]. injection E; intros; subst. unfold g in *. lia.
        * intros s A [c ->]. low. unfold g in *. intuition (subst; try lia).
      + intros s [c ->] [E|[[_ [A B]]|[_ [A B]]]]; [discriminate|unfold g in *; lia|lia].
  Qed.
  Lemma remove_topological (x : L) a q i h j p : numbered p [x] -> (q < Z.of_nat p)%Z -> topological (remove P a q i h j x).
  Proof. apply (remove_topological_upto (lsize x)). lia. Qed.
  Lemma add_topological_upto n : forall (x : L), lsize x <= n -> forall a q i h j p, numbered p [x] -> (h < Z.of_nat p)%Z ->
    topological (add P a q i h j x).
  Proof.
    induction n as [|n IH]; intros x Hs a q i h j p Hn Hq; [pose proof (lsize_pos x); lia|].
    destruct x as [p0 t|p0 t m|p0|p0|p0|p0 cs m]; try apply skip_topological.
    - apply (stepwise _ (exactly a q i h j) (exactly a q i h (S j))).
      + cbn [add both app]. repeat (apply Forall_cons; [split; cbn; eexists; reflexivity|]); apply Forall_nil.
      + intros s [c ->] [c' E]. injection E; intros; lia.
    - rewrite add_group. apply numbered_kids in Hn as [-> Hc]. rewrite lsize_group in *. set (g := Z.of_nat (pre p0)).
      pose proof (add_list_joins cs q i g 0 _ Hc) as J.
      apply (separate _ _ (exactly a q i h j) (exactly RINSERT q i g 0)
        (fun s => True) (fun s => match s with EAt a' _ _ _ h' j' => (a' = RINSERT /\ (Z.of_nat (pre p0) <= h')%Z /\ (h' = g -> 0 < j')) \/ (a' = a /\ h' = h /\ j' = S j) | EFinal => False end)).
      + apply Forall_both; (apply Forall_cons; [split; cbn; eexists; reflexivity|apply Forall_nil]).
      + apply Forall_app. split.
        * eapply Forall_impl; [|exact J]. intros e [S D]. split; auto. destruct (dest e); low; intuition (subst; try lia).
        * apply Forall_both; (apply Forall_cons; [split; cbn; auto|apply Forall_nil]).
      + apply (stepwise _ (exactly a q i h j) (exactly RINSERT q i g 0)).
        * apply Forall_both; (apply Forall_cons; [split; cbn; eexists; reflexivity|apply Forall_nil]).
        * intros s [c ->] [c' E]. injection E; intros; subst. unfold g in *. lia.
      + apply (separate _ _ (asrcs q i g 0 (0 + length cs) (S (pre p0)) (S (pre p0) + lsizes cs))
                 (adsts q i g 0 (0 + length cs) (S (pre p0)) (S (pre p0) + lsizes cs))
                 (exactly RINSERT q i g (length cs)) (exactly a q i h (S j))); auto.
        * apply Forall_both; (apply Forall_cons; [split; cbn; eexists; reflexivity|apply Forall_nil]).
        * assert (G : forall (l : list L) lo, numbered lo l -> pre p0 < lo -> lsizes l <= lsizes cs -> forall k, topological (add_list P q i g k l)).
          { induction l as [|c l IHl]; intros lo Nl Hlo Hl k; [apply topological_nil|]. cbn [add_list].
            destruct (numbered_one _ _ _ Nl) as [N1 N2]. rewrite lsizes_cons in *.
            eapply separate; [apply add_joins; exact N1|apply add_list_joins; exact N2|..].
            - apply (IH c) with (p := lo); auto; unfold g; lia.
            - apply (IHl (lo + lsize c)); auto; lia.
            - intros [a' c' q' i' h' j'|]; [|now intros []]. unfold g in *. intros A B. crush. }
          apply (G cs (S (pre p0))); auto.
        * apply (stepwise _ (exactly RINSERT q i g (length cs)) (exactly a q i h (S j))).
          -- apply Forall_both; (apply Forall_cons; [split; cbn; eexists; reflexivity|apply Forall_nil]).
          -- intros s [c ->] [c' E]. injection E; intros; subst. unfold g in *. lia.
        * intros s A [c ->]. low. unfold g in *. intuition (subst; try lia).
      + intros s [c ->] [[_ [A B]]|[_ [A B]]]; [unfold g in *; lia|lia].
  Qed.
  Lemma add_topological (x : L) a q i h j p : numbered p [x] -> (h < Z.of_nat p)%Z -> topological (add P a q i h j x).
  Proof. apply (add_topological_upto (lsize x)). lia. Qed.

  (** ** One pair of positions. *)
  Definition csrc q i h j lo hi lo' hi' (s : estate) : Prop :=
    match s with
    | EAt _ _ q' i' h' j' => ((q' = q /\ i' = i) \/ span lo hi q') /\ ((h' = h /\ j' = j) \/ span lo' hi' h')
    | EFinal => False
    end.
  Definition cdst q i h j lo hi lo' hi' (s : estate) : Prop :=
    match s with
    | EAt _ _ q' i' h' j' =>
        ((q' = q /\ (i' = i \/ i' = S i)) \/ span lo hi q') /\ ((h' = h /\ (j' = j \/ j' = S j)) \/ span lo' hi' h')
    | EFinal => True
    end.
  Definition deep lo hi lo' hi' (s : estate) : Prop :=
    match s with EAt _ _ q' _ h' _ => span lo hi q' /\ span lo' hi' h' | EFinal => False end.
  Definition fits (p : nat) (x : option L) : Prop := match x with Some x => numbered p [x] | None => True end.
  Definition osize (x : option L) : nat := match x with Some x => lsize x | None => 0 end.

  Lemma here_parts q i h j x y p p' : fits p x -> fits p' y ->
    let hi := p + osize x in let hi' := p' + osize y in
    exists B1 B2 B3 B4 B5 B6 B7 B8,
      here P q i h j x y = B1 ++ B2 ++ B3 ++ B4 ++ B5 ++ B6 ++ B7 ++ B8 /\
      Forall (joins (exactly PROCESS q i h j) (fun s => s = EFinal \/ exactly PROCESS q (S i) h j s)) B1 /\
      Forall (joins (exactly PROCESS q i h j) (fun s => exactly DELETE q i h j s \/ exactly MATCH q i h j s)) B2 /\
      Forall (joins (rsrc DELETE q i h j p hi) (rdst DELETE q i h j p hi)) B3 /\
      Forall (joins (exactly DELETE q i h j) (exactly INSERT q i h j)) B4 /\
      Forall (joins (asrc INSERT q i h j p' hi') (adst INSERT q i h j p' hi')) B5 /\
      Forall (joins (exactly INSERT q i h j) (exactly MATCH q i h j)) B6 /\
      Forall (joins (exactly MATCH q i h j) (exactly MATCH q i h (S j))) B7 /\
      Forall (joins (exactly MATCH q i h j) (exactly PROCESS q (S i) h (S j))) B8 /\
      ((q < Z.of_nat p)%Z -> topological B3) /\ ((h < Z.of_nat p')%Z -> topological B5).
  Proof.
    intros Fx Fy. cbn zeta. eexists _, _, _, _, _, _, _, _. split; [reflexivity|]. splits.
    - destruct x; [apply advance_exact|apply Forall_nil].
    - apply Forall_both; (apply Forall_cons; [split; cbn; [eexists; reflexivity|left; eexists; reflexivity]|]);
        (apply Forall_cons; [split; cbn; [eexists; reflexivity|right; eexists; reflexivity]|apply Forall_nil]).
    - destruct x; [now apply remove_joins|apply Forall_nil].
    - apply Forall_both; (apply Forall_cons; [split; cbn; eexists; reflexivity|apply Forall_nil]).
    - destruct y; [now apply add_joins|apply Forall_nil].
    - apply Forall_both; (apply Forall_cons; [split; cbn; eexists; reflexivity|apply Forall_nil]).
    - destruct y; [apply skip_exact|apply Forall_nil].
    - destruct x as [x|]; [|apply Forall_nil]. destruct y as [y|]; [|apply Forall_nil].
      destruct x as [|p0 t m| | | |]; try apply Forall_nil. destruct y as [|p0' t' m'| | | |]; try apply Forall_nil. cbn [keep].
      destruct (eqb t' t && eqb m' m); [|apply Forall_nil].
      apply Forall_both; (apply Forall_cons; [split; cbn; eexists; reflexivity|apply Forall_nil]).
    - intros Hq. destruct x; [now apply remove_topological with (p := p)|apply topological_nil].
    - intros Hq. destruct y; [now apply add_topological with (p := p')|apply topological_nil].
  Qed.
  Ltac place := unfold joins, rsrc, rdst, asrc, adst, csrc, cdst, deep, exactly, span in *.
  Ltac locate := place; repeat match goal with
    | H : exists _, _ |- _ => destruct H
    | H : _ \/ _ |- _ => destruct H
    | H : _ /\ _ |- _ => destruct H
    end.
  Lemma here_joins q i h j x y p p' : fits p x -> fits p' y ->
    Forall (joins (csrc q i h j p (p + osize x) p' (p' + osize y)) (cdst q i h j p (p + osize x) p' (p' + osize y)))
      (here P q i h j x y).
  Proof.
    intros Fx Fy. destruct (here_parts q i h j x y p p' Fx Fy) as (B1&B2&B3&B4&B5&B6&B7&B8&->&J1&J2&J3&J4&J5&J6&J7&J8&_).
    repeat (apply Forall_app; split);
      match goal with J : Forall _ ?B |- Forall _ ?B => eapply Forall_impl; [|exact J] end;
      intros e [S D]; (split; [destruct (source e)|destruct (dest e)]); locate; try discriminate; auto;
      try match goal with H : EAt _ _ _ _ _ _ = EAt _ _ _ _ _ _ |- _ => injection H; intros; subst; clear H end; intuition (subst; auto).
  Qed.
  Lemma here_topological q i h j x y p p' : fits p x -> fits p' y -> (q < Z.of_nat p)%Z -> (h < Z.of_nat p')%Z ->
    topological (here P q i h j x y).
  Proof.
    intros Fx Fy Hq Hh.
    destruct (here_parts q i h j x y p p' Fx Fy) as (B1&B2&B3&B4&B5&B6&B7&B8&->&J1&J2&J3&J4&J5&J6&J7&J8&T3&T5).
    specialize (T3 Hq). specialize (T5 Hh).
    assert (T1 : topological B1).
    { eapply stepwise; [exact J1|]. intros s [c ->] [E|[c' E]]; [discriminate|]. injection E; intros; lia. }
    assert (T2 : topological B2).
    { eapply stepwise; [exact J2|]. intros s [c ->] [[c' E]|[c' E]]; discriminate. }
    assert (T4 : topological B4) by (eapply stepwise; [exact J4|]; intros s [c ->] [c' E]; discriminate).
    assert (T6 : topological B6) by (eapply stepwise; [exact J6|]; intros s [c ->] [c' E]; discriminate).
    assert (T7 : topological B7) by (eapply stepwise; [exact J7|]; intros s [c ->] [c' E]; injection E; intros; lia).
    assert (T8 : topological B8) by (eapply stepwise; [exact J8|]; intros s [c ->] [c' E]; injection E; intros; lia).
    rewrite Forall_forall in J1, J2, J3, J4, J5, J6, J7, J8.
    repeat (apply topological_app; auto);
      intros e e' He He' E; repeat (apply in_app_or in He' as [He'|He']);
      match goal with
      | H1 : In e ?A, J1 : forall x, In x ?A -> _, H2 : In e' ?B, J2 : forall x, In x ?B -> _ |- _ =>
          destruct (J1 e H1) as [S _]; destruct (J2 e' H2) as [_ D]; clear - S D E Hq Hh
      end;
      rewrite E in D; clear E; destruct (source e) as [a c q' i' h' j'|]; locate; try discriminate; try contradiction;
      repeat match goal with H : EAt _ _ _ _ _ _ = EAt _ _ _ _ _ _ |- _ => injection H; intros; subst; clear H end; subst; try discriminate; try lia.
  Qed.

  (** ** Matched groups and the two loops. *)
  Definition wsrc q h i n m lo hi lo' hi' (s : estate) : Prop :=
    match s with
    | EAt _ _ q' i' h' j' => ((q' = q /\ i <= i' < n) \/ span lo hi q') /\ ((h' = h /\ m <= j') \/ span lo' hi' h')
    | EFinal => False
    end.
  Definition wdst q h i n m lo hi lo' hi' (s : estate) : Prop :=
    match s with
    | EAt _ _ q' i' h' j' => ((q' = q /\ i <= i' <= n) \/ span lo hi q') /\ ((h' = h /\ m <= j') \/ span lo' hi' h')
    | EFinal => True
    end.
  (** A row. *)
  Lemma row_joins base sub i q h (x : option L) lo lo' :
    (forall j y p', fits p' y -> Forall (joins (csrc q i h j lo (lo + osize x) p' (p' + osize y)) (cdst q i h j lo (lo + osize x) p' (p' + osize y))) (base j y)) ->
    (forall j y p', numbered p' [y] -> lo' <= p' -> Forall (joins (csrc q i h j lo (lo + osize x) p' (p' + lsize y)) (cdst q i h j lo (lo + osize x) p' (p' + lsize y))) (sub j y)) ->
    forall ts j p', numbered p' ts -> lo' <= p' ->
    Forall (joins (wsrc q h i (S i) j lo (lo + osize x) p' (p' + lsizes ts)) (wdst q h i (S i) j lo (lo + osize x) p' (p' + lsizes ts)))
      (row base sub j ts).
  Proof.
    intros Hb Hs. induction ts as [|y ts IH]; intros j p' Nt Hp; cbn [row].
    - eapply Forall_impl; [|apply (Hb j None p' I)]. intros e [S D]. cbn [osize] in *. unfold lsizes. cbn [map list_sum fold_right].
      split; [destruct (source e)|destruct (dest e)]; auto; place; unfold wsrc, wdst, span; intuition (subst; auto; lia).
    - destruct (numbered_one _ _ _ Nt) as [N1 N2]. rewrite lsizes_cons.
      assert (C : forall e : eedge, joins (csrc q i h j lo (lo + osize x) p' (p' + lsize y)) (cdst q i h j lo (lo + osize x) p' (p' + lsize y)) e ->
        joins (wsrc q h i (S i) j lo (lo + osize x) p' (p' + (lsize y + lsizes ts))) (wdst q h i (S i) j lo (lo + osize x) p' (p' + (lsize y + lsizes ts))) e).
      { intros e [S D]. split; [destruct (source e)|destruct (dest e)]; auto; place; unfold wsrc, wdst, span;
          intuition (subst; auto; lia). }
      apply Forall_app. split; [|apply Forall_app; split].
      + eapply Forall_impl; [|apply (Hb j (Some y) p' N1)]. exact C.
      + eapply Forall_impl; [|apply (Hs j y p' N1 Hp)]. exact C.
      + eapply Forall_impl; [|apply (IH (S j) (p' + lsize y) N2)]; [|lia].
        intros e [S D]. split; [destruct (source e)|destruct (dest e)]; auto; unfold wsrc, wdst, span in *;
          intuition (subst; auto; lia).
  Qed.
  Lemma row_topological base sub i q h (x : option L) lo lo' : (h < Z.of_nat lo')%Z ->
    (forall j y p', fits p' y -> Forall (joins (csrc q i h j lo (lo + osize x) p' (p' + osize y)) (cdst q i h j lo (lo + osize x) p' (p' + osize y))) (base j y)) ->
    (forall j y p', numbered p' [y] -> lo' <= p' -> Forall (joins (csrc q i h j lo (lo + osize x) p' (p' + lsize y)) (cdst q i h j lo (lo + osize x) p' (p' + lsize y))) (sub j y)) ->
    (forall j y p', fits p' y -> lo' <= p' -> topological (base j y)) ->
    (forall j y p', numbered p' [y] -> lo' <= p' -> topological (base j (Some y) ++ sub j y)) ->
    forall ts j p', numbered p' ts -> lo' <= p' -> topological (row base sub j ts).
  Proof.
    intros Hh Hb Hs Tb Ts. induction ts as [|y ts IH]; intros j p' Nt Hp; cbn [row].
    - now apply (Tb j None p').
    - destruct (numbered_one _ _ _ Nt) as [N1 N2]. rewrite app_assoc.
      eapply (separate _ _ (csrc q i h j lo (lo + osize x) p' (p' + lsize y)) (cdst q i h j lo (lo + osize x) p' (p' + lsize y))).
      + apply Forall_app. split; [apply (Hb j (Some y) p' N1)|apply (Hs j y p' N1 Hp)].
      + apply (row_joins _ _ _ _ _ _ _ _ Hb Hs ts (S j) (p' + lsize y) N2). lia.
      + now apply (Ts j y p').
      + apply (IH (S j) (p' + lsize y) N2). lia.
      + intros [a c q' i' h' j'|] A B; [|destruct A]. place. unfold wdst, span in *. intuition (subst; lia).
  Qed.

  Definition loops := fun (q h : Z) (i : nat) (ps ts : list L) lo lo' =>
    joins (wsrc q h i (S (i + length ps)) 0 lo (lo + lsizes ps) lo' (lo' + lsizes ts))
          (wdst q h i (S (i + length ps)) 0 lo (lo + lsizes ps) lo' (lo' + lsizes ts)).
  Lemma pair_joins_upto n : forall (x : L), lsize x <= n -> forall q i h j y p p', numbered p [x] -> numbered p' [y] ->
    Forall (joins (csrc q i h j p (p + lsize x) p' (p' + lsize y)) (cdst q i h j p (p + lsize x) p' (p' + lsize y)))
      (pair P q i h j x y).
  Proof.
    induction n as [|n IH]; intros x Hs q i h j y p p' Nx Ny; [pose proof (lsize_pos x); lia|].
    destruct x as [p0 t|p0 t m|p0|p0|p0|p0 cs m]; try apply Forall_nil.
    destruct y as [p1 t'|p1 t' m'|p1|p1|p1|p1 ds m']; try apply Forall_nil. cbn [pair].
    destruct (eqb m' m); [|apply Forall_nil].
    apply numbered_kids in Nx as [-> Nc]. apply numbered_kids in Ny as [-> Nd]. rewrite !lsize_group in *.
    apply Forall_app. split; [|apply Forall_app; split].
    - apply Forall_both; (apply Forall_cons; [split; cbn; place; lia|apply Forall_nil]).
    - assert (G : forall (l : list L) lo k, numbered lo l -> pre p0 < lo -> lo + lsizes l <= pre p0 + S (lsizes cs) -> lsizes l <= lsizes cs ->
        Forall (joins (deep (pre p0) (pre p0 + S (lsizes cs)) (pre p1) (pre p1 + S (lsizes ds)))
                  (fun s => s = EFinal \/ deep (pre p0) (pre p0 + S (lsizes cs)) (pre p1) (pre p1 + S (lsizes ds)) s))
          (rows P (Z.of_nat (pre p0)) (Z.of_nat (pre p1)) k l ds)).
      { induction l as [|c l IHl]; intros lo k Nl H1 H2 H3; cbn [rows].
        - unfold last_row. eapply Forall_impl; [|apply (row_joins _ _ k (Z.of_nat (pre p0)) (Z.of_nat (pre p1)) None (S (pre p0)) (S (pre p1)))].
          4: exact Nd. 4: lia.
          + intros e [S D]. cbn [osize] in *. split; [destruct (source e)|destruct (dest e)]; auto; unfold wsrc, wdst, deep, span in *;
              try (right; intuition (subst; lia)); intuition (subst; lia).
          + intros. now apply here_joins.
          + intros. apply Forall_nil.
        - rewrite lsizes_cons in *. destruct (numbered_one _ _ _ Nl) as [N1 N2]. apply Forall_app. split; [|apply (IHl (lo + lsize c)); auto; lia].
          rewrite node_row_eq. eapply Forall_impl; [|apply (row_joins _ _ k (Z.of_nat (pre p0)) (Z.of_nat (pre p1)) (Some c) lo (S (pre p1)))].
          4: exact Nd. 4: lia.
          + intros e [S D]. cbn [osize] in *. split; [destruct (source e)|destruct (dest e)]; auto; unfold wsrc, wdst, deep, span in *;
              try (right; intuition (subst; lia)); intuition (subst; lia).
          + intros. now apply here_joins.
          + intros j0 y0 p'0 Hy0 _. apply (IH c); auto; lia. }
      eapply Forall_impl; [|apply (G cs (S (pre p0)) 0); auto; lia].
      intros e [S D]. split; [destruct (source e)|destruct (dest e)]; auto; place; intuition (try discriminate).
    - apply Forall_both; (apply Forall_cons; [split; cbn; place; lia|apply Forall_nil]).
  Qed.
  Lemma pair_joins (x : L) q i h j y p p' : numbered p [x] -> numbered p' [y] ->
    Forall (joins (csrc q i h j p (p + lsize x) p' (p' + lsize y)) (cdst q i h j p (p + lsize x) p' (p' + lsize y)))
      (pair P q i h j x y).
  Proof. apply (pair_joins_upto (lsize x)). lia. Qed.
  Lemma rows_joins (ps : list L) : forall q h i ts p p', numbered p ps -> numbered p' ts ->
    Forall (loops q h i ps ts p p') (rows P q h i ps ts).
  Proof.
    unfold loops. induction ps as [|x ps IH]; intros q h i ts p p' Np Nt; cbn [rows length].
    - unfold last_row. eapply Forall_impl; [|apply (row_joins _ _ i q h None p p')]. 4: exact Nt. 4: lia.
      + intros e [S D]. cbn [osize] in *. split; [destruct (source e)|destruct (dest e)]; auto; unfold wsrc, wdst, span in *;
          cbn [lsizes map list_sum fold_right]; intuition (subst; auto; lia).
      + intros. now apply here_joins.
      + intros. apply Forall_nil.
    - rewrite lsizes_cons. destruct (numbered_one _ _ _ Np) as [N1 N2]. apply Forall_app. split.
      + rewrite node_row_eq. eapply Forall_impl; [|apply (row_joins _ _ i q h (Some x) p p')]. 4: exact Nt. 4: lia.
        * intros e [S D]. cbn [osize] in *. split; [destruct (source e)|destruct (dest e)]; auto; unfold wsrc, wdst, span in *;
            intuition (subst; auto; lia).
        * intros. now apply here_joins.
        * intros j0 y0 p'0 Hy0 _. now apply pair_joins.
      + eapply Forall_impl; [|apply (IH q h (S i) ts (p + lsize x) p' N2 Nt)].
        intros e [S D]. split; [destruct (source e)|destruct (dest e)]; auto; unfold wsrc, wdst, span in *;
            intuition (subst; auto; lia).
  Qed.
  Lemma rows_deep (l ds : list L) q h k p p' lo hi lo' hi' : numbered p l -> numbered p' ds ->
    span lo hi q -> span lo' hi' h -> lo <= p -> p + lsizes l <= hi -> lo' <= p' -> p' + lsizes ds <= hi' ->
    Forall (joins (deep lo hi lo' hi') (fun s => s = EFinal \/ deep lo hi lo' hi' s)) (rows P q h k l ds).
  Proof.
    intros Nl Nd Sq Sh A1 A2 A3 A4. eapply Forall_impl; [|apply (rows_joins l q h k ds p p' Nl Nd)].
    intros e [S D]. split; [destruct (source e)|destruct (dest e)]; auto; unfold wsrc, wdst, deep, span in *;
      try (right; intuition (subst; lia)); intuition (subst; lia).
  Qed.
  Lemma rows_topological_upto n : forall (ps : list L), lsizes ps <= n -> forall q h i ts p p', numbered p ps -> numbered p' ts ->
    (q < Z.of_nat p)%Z -> (h < Z.of_nat p')%Z -> topological (rows P q h i ps ts).
  Proof.
    assert (Hlast : forall q h i (ts : list L) p p', numbered p' ts -> (q < Z.of_nat p)%Z -> (h < Z.of_nat p')%Z -> topological (last_row P q h i ts)).
    { intros q h i ts p p' Nt Hq Hh. unfold last_row.
      apply (row_topological _ _ i q h None p p') with (p' := p'); auto.
      - intros. now apply here_joins.
      - intros j y p'0 Fy Hp. apply (here_topological _ _ _ _ _ _ p p'0); cbn; auto. lia.
      - intros j y p'0 Fy Hp. rewrite app_nil_r. apply (here_topological _ _ _ _ _ _ p p'0); cbn; auto. lia. }
    induction n as [|n IH]; intros [|x ps] Hs q h i ts p p' Np Nt Hq Hh; cbn [rows];
      [now apply (Hlast q h i ts p p')|pose proof (lsize_pos x); rewrite lsizes_cons in Hs; lia|now apply (Hlast q h i ts p p')|].
    rewrite lsizes_cons in Hs. pose proof (lsize_pos x) as Px. destruct (numbered_one _ _ _ Np) as [N1 N2].
    pose proof (rows_joins [x] q h i ts p p' N1 Nt) as J1. pose proof (rows_joins ps q h (S i) ts _ p' N2 Nt) as J2.
    cbn [rows] in J1. apply Forall_app in J1 as [_ _].
    assert (J1 : Forall (joins (wsrc q h i (S i) 0 p (p + lsize x) p' (p' + lsizes ts)) (wdst q h i (S i) 0 p (p + lsize x) p' (p' + lsizes ts))) (node_row P x q h i ts)).
    { rewrite node_row_eq. apply (row_joins _ _ i q h (Some x) p p'); auto.
      - intros. now apply here_joins.
      - intros j0 y0 p'0 Hy0 _. now apply pair_joins. }
    eapply separate; [exact J1|exact J2|..].
    - rewrite node_row_eq. apply (row_topological _ _ i q h (Some x) p p') with (p' := p'); auto.
      + intros. now apply here_joins.
      + intros j0 y0 p'0 Hy0 _. now apply pair_joins.
      + intros j y p'0 Fy Hp. apply (here_topological _ _ _ _ _ _ p p'0); cbn; auto. lia.
      + intros j y p'0 Fy Hp.
        assert (Th : topological (here P q i h j (Some x) (Some y))) by (apply (here_topological _ _ _ _ _ _ p p'0); cbn; auto; lia).
        destruct x as [p0 t|p0 t m|p0|p0|p0|p0 cs m]; try (cbn [pair]; rewrite app_nil_r; exact Th).
        destruct y as [p1 t'|p1 t' m'|p1|p1|p1|p1 ds m']; try (cbn [pair]; rewrite app_nil_r; exact Th).
        cbn [pair]. destruct (eqb m' m); [|rewrite app_nil_r; exact Th].
        apply numbered_kids in N1 as [-> Nc]. apply numbered_kids in Fy as [-> Nd]. rewrite !lsize_group in *.
        set (x := LGroup p0 cs m) in *. set (y := LGroup p1 ds m') in *.
        assert (J : Forall (joins (deep (pre p0) (S (pre p0 + lsizes cs)) (pre p1) (S (pre p1 + lsizes ds)))
           (fun s => s = EFinal \/ deep (pre p0) (S (pre p0 + lsizes cs)) (pre p1) (S (pre p1 + lsizes ds)) s))
           (rows P (Z.of_nat (pre p0)) (Z.of_nat (pre p1)) 0 cs ds)).
        { apply rows_deep with (p := S (pre p0)) (p' := S (pre p1)); auto; unfold span; lia. }
        assert (Tr : topological (rows P (Z.of_nat (pre p0)) (Z.of_nat (pre p1)) 0 cs ds)).
        { apply (IH cs) with (p := S (pre p0)) (p' := S (pre p1)); auto; lia. }
        assert (Ji : forall f, (forall c, exists e, f c = [e] /\ exactly MATCH q i h j (source e) /\ deep (pre p0) (S (pre p0 + lsizes cs)) (pre p1) (S (pre p1 + lsizes ds)) (dest e)) ->
            Forall (joins (exactly MATCH q i h j) (deep (pre p0) (S (pre p0 + lsizes cs)) (pre p1) (S (pre p1 + lsizes ds)))) (both f)).
        { intros f Hf. destruct (Hf High) as [e [E1 [E2 E3]]]. destruct (Hf Low) as [e' [E1' [E2' E3']]]. unfold both. rewrite E1, E1'.
          repeat (apply Forall_cons; [split; auto|]). apply Forall_nil. }
        eapply (separate _ _ (fun s => rsrc DELETE q i h j (pre p0) (S (pre p0 + lsizes cs)) s \/ asrc INSERT q i h j (pre p1) (S (pre p1 + lsizes ds)) s \/ exactly PROCESS q i h j s \/ exactly MATCH q i h j s)
                  (fun _ => True) (fun _ => True)
                  (fun s => s = EFinal \/ deep (pre p0) (S (pre p0 + lsizes cs)) (pre p1) (S (pre p1 + lsizes ds)) s \/ exactly PROCESS q (S i) h (S j) s)).
        * destruct (here_parts q i h j (Some x) (Some y) (pre p0) (pre p1)) as (B1&B2&B3&B4&B5&B6&B7&B8&->&J1'&J2'&J3'&J4'&J5'&J6'&J7'&J8'&_).
          -- cbn. apply nm_group; auto. constructor.
          -- cbn. apply nm_group; auto. constructor.
          -- unfold x, y in *. cbn [osize] in *. rewrite !lsize_group in *.
             repeat (apply Forall_app; split);
             match goal with J : Forall _ ?B |- Forall _ ?B => eapply Forall_impl; [|exact J] end;
             intros e [S D]; split; auto; rewrite ?Nat.add_succ_r in S;
             first [left; exact S|right; left; exact S|right; right; left; exact S|right; right; right; exact S
                   |left; destruct S as [c ->]; cbn; solve [auto 6]|right; left; destruct S as [c ->]; cbn; solve [auto 6]].
        * apply Forall_app. split; [|apply Forall_app; split].
          -- apply Forall_both; (apply Forall_cons; [split; cbn; auto; right; left; place; lia|apply Forall_nil]).
          -- eapply Forall_impl; [|exact J]. intros e [S D]. split; auto. destruct D; auto.
          -- apply Forall_both; (apply Forall_cons; [split; cbn; auto; right; right; eexists; reflexivity|apply Forall_nil]).
        * exact Th.
        * eapply (separate _ _ (exactly MATCH q i h j) _ (fun _ => True)
            (fun s => (s = EFinal \/ deep (pre p0) (S (pre p0 + lsizes cs)) (pre p1) (S (pre p1 + lsizes ds)) s) \/ exactly PROCESS q (S i) h (S j) s));
            [apply Ji; intros c; eexists; split; [reflexivity|split; [eexists; reflexivity|cbn; place; lia]]|
            apply Forall_app; split; [eapply Forall_impl; [|exact J]|]|..].
          -- intros e [S D]. split; [exact I|]. exact (or_introl D).
          -- apply Forall_both; (apply Forall_cons; [split; cbn; [exact I|right; eexists; reflexivity]|apply Forall_nil]).
          -- eapply stepwise; [apply Ji; intros c; eexists; split; [reflexivity|split; [eexists; reflexivity|cbn; place; lia]]|].
             intros s [c ->] A. place. lia.
          -- eapply separate; [exact J| |exact Tr|..].
             ++ apply (Forall_both (joins (exactly MATCH (Z.of_nat (pre p0)) (length cs) (Z.of_nat (pre p1)) (length ds)) (exactly PROCESS q (S i) h (S j))));
                  (apply Forall_cons; [split; cbn; eexists; reflexivity|apply Forall_nil]).
             ++ eapply stepwise with (S := exactly MATCH (Z.of_nat (pre p0)) (length cs) (Z.of_nat (pre p1)) (length ds)) (D := exactly PROCESS q (S i) h (S j)).
                ** apply Forall_both; (apply Forall_cons; [split; cbn; eexists; reflexivity|apply Forall_nil]).
                ** intros s [c ->] [c' E]. discriminate.
             ++ intros s A [c ->]. place. lia.
          -- intros s [c ->] [[E|A]|[c' E]]; [discriminate|place; lia|discriminate].
        * intros [a c q' i' h' j'|] A B; locate; try discriminate; try contradiction;
            repeat match goal with H : EAt _ _ _ _ _ _ = EAt _ _ _ _ _ _ |- _ => injection H; intros; subst; clear H end; subst; try discriminate; try lia.
    - apply (IH ps) with (p := p + lsize x) (p' := p'); auto; lia.
    - intros [a c q' i' h' j'|] A B; [|destruct A]. unfold wsrc, wdst, span in *. intuition (subst; lia).
  Qed.
  Theorem rows_topological (ps ts : list L) q h i p p' : numbered p ps -> numbered p' ts ->
    (q < Z.of_nat p)%Z -> (h < Z.of_nat p')%Z -> topological (rows P q h i ps ts).
  Proof. apply (rows_topological_upto (lsizes ps)). lia. Qed.
End Order.
