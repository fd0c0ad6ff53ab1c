(** Proofs that splitting a tree leaves alone the nodes that were there before. *)

From Coq Require Import List Bool Arith Lia.
From Verif Require Import Base StackParser HeapTree LinkSpec HeapProofs HeapSplitProofs.
Import ListNotations.

(** The nodes from address [n] on refer only to nodes from [n] on. *)
Definition good (n : nat) (c : cell) : Prop := Forall (le n) (c_children c) /\ match c_parent c with Some p => n <= p | None => True end.
Definition region (n : nat) (h : heap) : Prop := n <= length h /\ forall a c, n <= a -> nth_error h a = Some c -> good n c.
Definition safe (n : nat) (h h' : heap) : Prop := region n h' /\ forall x, x < n -> nth_error h' x = nth_error h x.

Lemma safe_refl n h : region n h -> safe n h h.
Proof. intros R. split; auto. Qed.
Lemma safe_trans n h1 h2 h3 : safe n h1 h2 -> safe n h2 h3 -> safe n h1 h3.
Proof. intros [_ F] [R F']. split; auto. intros x L. now rewrite F', F. Qed.
Lemma safe_update n h a f : region n h -> n <= a -> (forall c, nth_error h a = Some c -> good n c -> good n (f c)) -> safe n h (update a f h).
Proof.
  intros [L R] La G. split; [split|].
  - now rewrite update_length.
  - intros b c Lb E. destruct (Nat.eq_dec a b) as [<-|N].
    + destruct (nth_error h a) as [c0|] eqn:E0.
      * rewrite (update_same _ _ _ _ E0) in E. injection E as <-. eauto.
      * apply nth_error_None in E0. apply nth_error_lt in E. rewrite update_length in E. lia.
    + rewrite update_other in E by auto. eauto.
  - intros x Lx. apply update_other. lia.
Qed.
Lemma safe_alloc n h c : region n h -> good n c -> safe n h (h ++ [c]).
Proof.
  intros [L R] G. split; [split|].
  - rewrite app_length. lia.
  - intros b c' Lb E. destruct (lt_dec b (length h)) as [Lt|Lt].
    + rewrite nth_error_app1 in E by auto. eauto.
    + rewrite nth_error_app2 in E by lia. destruct (b - length h) as [|k]; cbn in E; [now injection E as <-|]. destruct k; discriminate.
  - intros x Lx. apply nth_error_app1. lia.
Qed.
Lemma safe_adopt n m l : n <= m -> Forall (le n) l -> forall h, region n h -> safe n h (adopt m l h).
Proof.
  intros Lm. induction 1 as [|x l Lx _ IH]; intros h R; [now apply safe_refl|]. unfold adopt. cbn [fold_left].
  assert (S1 : safe n h (update x (set_parent (Some m)) h)).
  { apply safe_update; auto. intros c _ [G _]. split; auto. }
  eapply safe_trans; [exact S1|]. apply IH. apply S1.
Qed.

(** * Copying *)
Definition fresh (h h' : heap) : Prop := length h <= length h' /\ forall x, x < length h -> nth_error h' x = nth_error h x.
Lemma copies_frame limit : (forall h a h' r, copy limit h a = Some (h', r) ->
    r = length h /\ fresh h h' /\ length h < length h' /\ (forall x c, length h < x -> nth_error h' x = Some c -> good (length h) c) /\
    exists c0 c1, nth_error h a = Some c0 /\ nth_error h' r = Some c1 /\ c_parent c1 = c_parent c0 /\ Forall (le (length h)) (c_children c1)) ->
  forall l h h' ys, copies limit h l = Some (h', ys) ->
  fresh h h' /\ Forall (fun y => length h <= y < length h') ys /\
  forall x c, length h <= x -> nth_error h' x = Some c -> Forall (le (length h)) (c_children c) /\ (~ In x ys -> good (length h) c).
Proof.
  intros IH. induction l as [|a l IHl]; intros h h' ys E; cbn [copies] in E.
  - injection E as <- <-. split; [split; auto|]. split; [constructor|]. intros x c Lx Ex. apply nth_error_lt in Ex. lia.
  - destruct (copy limit h a) as [[h1 y]|] eqn:E1; [|discriminate]. destruct (copies limit h1 l) as [[h2 ys2]|] eqn:E2; [|discriminate].
    injection E as <- <-. destruct (IH _ _ _ _ E1) as (-> & [L1 F1] & L1' & G1 & c0 & c1 & _ & Ec1 & _ & K1).
    destruct (IHl _ _ _ E2) as ([L2 F2] & Y2 & G2). splits.
    + split; [lia|]. intros x Lx. rewrite F2, F1; auto. lia.
    + constructor; [lia|]. revert Y2. apply Forall_impl. intros y. lia.
    + intros x c Lx Ex. destruct (lt_dec x (length h1)) as [Lt|Lt].
      * rewrite F2 in Ex by auto. destruct (Nat.eq_dec x (length h)) as [->|N].
        -- assert (c = c1) by congruence. subst c. split; auto. intros NI. exfalso. apply NI. now left.
        -- assert (G : good (length h) c) by (apply (G1 x); auto; lia). split; auto. apply G.
      * destruct (G2 x c ltac:(lia) Ex) as [K Gx]. assert (W : forall z, length h1 <= z -> length h <= z) by (intros; lia). split.
        -- revert K. apply Forall_impl. exact W.
        -- intros NI. destruct Gx as [K' P']; [intros I; apply NI; now right|]. split; [revert K'; apply Forall_impl; exact W|].
           destruct (c_parent c); auto.
Qed.
Lemma copy_frame limit : forall h a h' r, copy limit h a = Some (h', r) ->
  r = length h /\ fresh h h' /\ length h < length h' /\ (forall x c, length h < x -> nth_error h' x = Some c -> good (length h) c) /\
  exists c0 c1, nth_error h a = Some c0 /\ nth_error h' r = Some c1 /\ c_parent c1 = c_parent c0 /\ Forall (le (length h)) (c_children c1).
Proof.
  induction limit as [|limit IH]; intros h a h' r E; [discriminate|]. rewrite copy_eq in E. destruct (nth_error h a) as [c0|] eqn:E0; [|discriminate].
  set (n := length h) in *. set (h0 := h ++ [mkCell (c_lo c0) (c_hi c0) (c_parent c0) (c_ann c0) []]) in *.
  assert (L0 : length h0 = S n) by (unfold h0; rewrite app_length; cbn; subst n; lia).
  destruct (copies limit h0 (c_children c0)) as [[h1 ys]|] eqn:E1; [|discriminate]. injection E as <- <-.
  destruct (copies_frame limit IH _ _ _ _ E1) as ([L1 F1] & Y1 & G1). rewrite L0 in *. set (h2 := update n (set_children ys) h1).
  assert (NY : ~ In n ys) by (intros I; rewrite Forall_forall in Y1; specialize (Y1 n I); lia).
  assert (Yn : Forall (le n) ys) by (revert Y1; apply Forall_impl; intros; lia).
  assert (En : nth_error h1 n = Some (mkCell (c_lo c0) (c_hi c0) (c_parent c0) (c_ann c0) [])).
  { rewrite F1 by lia. unfold h0, n. apply nth_error_new. }
  assert (L2 : length (adopt n ys h2) = length h1) by (unfold h2; now rewrite adopt_length, update_length).
  splits; auto.
  - split; [lia|]. intros x Lx. rewrite adopt_other; [unfold h2; rewrite update_other by lia; rewrite F1 by lia; unfold h0; now apply nth_error_app1|].
    intros I. rewrite Forall_forall in Y1. specialize (Y1 x I). lia.
  - lia.
  - intros x c Lx Ex. destruct (in_dec Nat.eq_dec x ys) as [I|I].
    + destruct (nth_error h1 x) as [cx|] eqn:Ecx.
      * rewrite (adopt_in n ys h2 x cx) in Ex; auto; [|unfold h2; now rewrite update_other by lia]. injection Ex as <-.
        destruct (G1 x cx ltac:(lia) Ecx) as [K _]. split; cbn; auto. revert K. apply Forall_impl. intros; lia.
      * apply nth_error_None in Ecx. apply nth_error_lt in Ex. lia.
    + rewrite adopt_other in Ex by auto. unfold h2 in Ex. rewrite update_other in Ex by lia.
      destruct (G1 x c ltac:(lia) Ex) as [_ G]. destruct (G I) as [K P]. split; [revert K; apply Forall_impl; intros; lia|]. destruct (c_parent c); auto. lia.
  - exists c0, (mkCell (c_lo c0) (c_hi c0) (c_parent c0) (c_ann c0) ys). splits; auto.
    rewrite adopt_other by auto. unfold h2. now rewrite (update_same _ _ _ _ En).
Qed.
Lemma copy_region limit h a h' r c : copy limit h a = Some (h', r) -> nth_error h a = Some c -> c_parent c = None ->
  r = length h /\ safe (length h) h h'.
Proof.
  intros E Ec P. destruct (copy_frame _ _ _ _ _ E) as (-> & [L F] & L' & G & c0 & c1 & E0 & E1 & P1 & K). assert (c0 = c) by congruence. subst c0.
  split; auto. split; auto. split; auto. intros x cx Lx Ex. destruct (Nat.eq_dec x (length h)) as [->|N].
  - assert (cx = c1) by congruence. subst cx. split; auto. now rewrite P1, P.
  - apply (G x); auto. lia.
Qed.

(** * Splitting *)
Lemma obind_ok {A B} (m : option (result A)) (k : A -> option (result B)) y : obind m k = Some (Ok y) -> exists x, m = Some (Ok x) /\ k x = Some (Ok y).
Proof. destruct m as [[x|]|]; cbn; try discriminate. eauto. Qed.
Lemma node_at_ok h a c : node_at h a = Some (Ok c) -> nth_error h a = Some c.
Proof. unfold node_at. destruct (nth_error h a); [now intros [= ->]|discriminate]. Qed.
Lemma safe_groups n a : n <= a -> forall gs h r, Forall (Forall (le n)) gs -> region n h -> group_nodes a gs h = Some (Ok r) ->
  safe n h (fst r) /\ Forall (le n) (snd r).
Proof.
  intros La. induction gs as [|[|x g] gs IH]; intros h r Lg R E; cbn [group_nodes] in E.
  - injection E as <-. split; [now apply safe_refl|constructor].
  - inversion Lg; subst. apply IH; auto.
  - inversion Lg as [|g0 gs0 Lx Lgs]; subst. apply obind_ok in E as [c1 [_ E]]. apply obind_ok in E as [c2 [_ E]]. apply obind_ok in E as [[h' ns] [E E']].
    injection E' as <-. cbn [fst snd] in *. assert (Ln : n <= length h) by apply R.
    assert (S1 : safe n h (h ++ [mkCell (c_lo c1) (c_hi c2) (Some a) ASplit (x :: g)])) by (apply safe_alloc; [auto|split; auto]).
    assert (S2 := safe_trans _ _ _ _ S1 (safe_adopt n (length h) (x :: g) Ln Lx _ (proj1 S1))).
    destruct (IH _ _ Lgs (proj1 S2) E) as [S3 N3]. split; [exact (safe_trans _ _ _ _ S2 S3)|]. constructor; auto.
Qed.
Section Safe.
  Context {T : Type} `{EqDec T}.
  Variables (tokens splits : list T) (pairs : list (T * T)).

  Lemma group_by_in {A} (P : A -> Prop) (l : list (A * bool)) : Forall P (map fst l) -> Forall (Forall P) (group_by l).
  Proof.
    intros F. rewrite <- group_by_concat in F. revert F. generalize (group_by l). intros gs. induction gs as [|g gs IH]; intros F; [constructor|].
    cbn in F. apply Forall_app in F as [Fg F]. constructor; auto.
  Qed.
  Lemma safe_regroup n h a c flags h' : n <= a -> region n h -> nth_error h a = Some c -> heap_regroup h a c flags = Some (Ok h') -> safe n h h'.
  Proof.
    intros La R Ec E. unfold heap_regroup in E. destruct ((1 <? _) && _); [|injection E as <-; now apply safe_refl].
    apply obind_ok in E as [[h1 ns] [E E']]. injection E' as <-. cbn [fst snd].
    assert (Fg : Forall (Forall (le n)) (group_by (combine (c_children c) flags))).
    { apply group_by_in. assert (G : Forall (le n) (c_children c)) by (destruct R as [_ R]; exact (proj1 (R a c La Ec))).
      clear -G. revert flags. induction G; intros [|b flags]; cbn; constructor; auto. }
    destruct (safe_groups n a La _ _ _ Fg R E) as [S1 N1]. cbn [fst snd] in *.
    eapply safe_trans; [exact S1|]. apply safe_update; [apply S1|auto|]. intros c1 _ [_ P]. split; auto.
  Qed.
  Lemma safe_split n limit : forall h a h', n <= a -> region n h -> heap_split tokens splits pairs limit h a = Some (Ok h') -> safe n h h'.
  Proof.
    induction limit as [|limit IH]; intros h a h' La R E; [discriminate|]. rewrite heap_split_eq in E.
    apply obind_ok in E as [c [Ec E]]. apply node_at_ok in Ec. apply obind_ok in E as [stop [_ E]]. destruct stop; [injection E as <-; now apply safe_refl|].
    apply obind_ok in E as [flags [_ E]]. apply obind_ok in E as [h1 [E1 E]]. pose proof (safe_regroup n _ _ _ _ _ La R Ec E1) as S1.
    eapply safe_trans; [exact S1|]. assert (G : Forall (le n) (c_children c)) by (destruct R as [_ R]; exact (proj1 (R a c La Ec))).
    apply proj1 in S1. clear -IH G E S1. revert h1 S1 E. induction G as [|x l Lx _ IHl]; intros h1 R E; cbn [each] in E.
    - injection E as <-. now apply safe_refl.
    - apply obind_ok in E as [cx [_ E]]. apply obind_ok in E as [len [_ E]]. apply obind_ok in E as [h2 [E2 E]].
      assert (S2 : safe n h1 h2) by (destruct (1 <? len); [exact (IH _ _ _ Lx R E2)|injection E2 as <-; now apply safe_refl]).
      eapply safe_trans; [exact S2|]. apply IHl; auto. apply S2.
  Qed.
  Lemma before_in l i x : before l i = Some x -> In x l.
  Proof. unfold before. apply nth_error_In. Qed.
  Lemma remove_incl x l l' : remove_first x l = Some l' -> incl l' l.
  Proof.
    revert l'. induction l as [|y l IH]; intros l' E; cbn in E; [discriminate|]. destruct (x =? y); [injection E as <-; intros z; now right|].
    destruct (remove_first x l) as [l0|]; [|discriminate]. injection E as <-. intros z [->|I]; [now left|]. right. exact (IH l0 eq_refl z I).
  Qed.
  Lemma safe_sub_match n sub limit : forall h a l, n <= a -> region n h -> heap_sub_match tokens sub limit h a = Some (Ok l) ->
    Forall (fun x => n <= fst x /\ n <= snd x) l.
  Proof.
    induction limit as [|limit IH]; intros h a l La R E; [discriminate|]. cbn [heap_sub_match] in E.
    apply obind_ok in E as [c [Ec E]]. apply node_at_ok in Ec. apply obind_ok in E as [here [Eh E]]. apply obind_ok in E as [below [Eb E]]. injection E as <-.
    pose proof R as [Ln Rc]. destruct (Rc a c La Ec) as [K P]. apply Forall_app. split.
    - unfold heap_yield in Eh. destruct (eqb (c_ann c) APaired); [|injection Eh as <-; constructor].
      destruct (c_children c) as [|x [|y [|z [|]]]]; try discriminate. apply obind_ok in Eh as [cl [_ Eh]]. apply obind_ok in Eh as [cr [_ Eh]].
      apply obind_ok in Eh as [found [_ Eh]]. destruct found; [|injection Eh as <-; constructor].
      destruct (c_parent c) as [nc|]; [|injection Eh as <-; constructor]. apply obind_ok in Eh as [cn [En Eh]]. apply node_at_ok in En.
      destruct (Rc nc cn P En) as [_ Pn]. destruct (c_parent cn) as [gp|]; [|injection Eh as <-; constructor].
      apply obind_ok in Eh as [cg [Eg Eh]]. apply node_at_ok in Eg. destruct (Rc gp cg Pn Eg) as [Kg _].
      destruct (index_of nc (c_children cg)) as [i|]; [|discriminate]. destruct (before (c_children cg) i) as [np|] eqn:Eb'; [|discriminate].
      apply obind_ok in Eh as [cp [_ Eh]]. injection Eh as <-. apply before_in in Eb'. rewrite Forall_forall in Kg. specialize (Kg _ Eb').
      destruct (_ && _); repeat constructor; auto.
    - revert below Eb. clear P. induction K as [|x l Lx _ IHl]; intros below Eb; cbn [omapM] in Eb.
      + injection Eb as <-. constructor.
      + apply obind_ok in Eb as [b [E1 Eb]]. apply obind_ok in Eb as [bs [E2 Eb]]. injection Eb as <-. cbn. apply Forall_app. split; eauto.
  Qed.
  Lemma safe_transplant n h nc np h' : n <= nc -> n <= np -> region n h -> heap_transplant h nc np = Some (Ok h') -> safe n h h'.
  Proof.
    intros Lc Lp R E. unfold heap_transplant in E. apply obind_ok in E as [cp [Ep E]]. apply node_at_ok in Ep.
    assert (K : Forall (le n) (c_children cp)) by (destruct R as [_ R]; exact (proj1 (R np cp Lp Ep))).
    assert (Ln : n <= length h) by apply R.
    assert (S0 : safe n h (h ++ [mkCell (c_lo cp) (c_hi cp) (Some np) ASplit []])) by (apply safe_alloc; [auto|split; cbn; auto]).
    assert (S1 := safe_trans _ _ _ _ S0 (safe_adopt n (length h) _ Ln K _ (proj1 S0))). set (h1 := adopt _ _ _) in *.
    assert (S2 : safe n h (update (length h) (set_children (c_children cp)) h1)).
    { eapply safe_trans; [exact S1|]. apply safe_update; [apply S1|auto|]. intros c _ [_ P]. split; auto. }
    set (h2 := update (length h) _ h1) in *.
    assert (S3 : safe n h (update np (set_children [length h; nc]) h2)).
    { eapply safe_trans; [exact S2|]. apply safe_update; [apply S2|auto|]. intros c _ [_ P]. split; cbn; auto. }
    set (h3 := update np _ h2) in *. apply obind_ok in E as [c3 [E3 E]]. apply node_at_ok in E3.
    assert (P3 : good n c3) by (destruct S3 as [[_ R3] _]; eauto). destruct P3 as [_ P3]. destruct (c_parent c3) as [q|]; [|discriminate].
    apply obind_ok in E as [cq [Eq E]]. apply node_at_ok in Eq. destruct (remove_first nc (c_children cq)) as [l|] eqn:El; [|discriminate].
    assert (S4 : safe n h (update q (set_children l) h3)).
    { eapply safe_trans; [exact S3|]. apply safe_update; [apply S3|auto|]. intros c Ec [Kc P]. assert (c = cq) by congruence. subst c. split; auto.
      cbn. rewrite Forall_forall in *. intros x I. apply Kc. exact (remove_incl _ _ _ El x I). }
    set (h4 := update q _ h3) in *.
    assert (S5 : safe n h (update nc (set_parent (Some np)) h4)).
    { eapply safe_trans; [exact S4|]. apply safe_update; [apply S4|auto|]. intros c _ [Kc _]. split; auto. }
    apply obind_ok in E as [cn [_ E]]. injection E as <-. eapply safe_trans; [exact S5|]. apply safe_update; [apply S5|auto|]. intros c _ [Kc P]. split; auto.
  Qed.
  Lemma safe_transplants n l : Forall (fun x => n <= fst x /\ n <= snd x) l -> forall h h', region n h -> heap_transplants l h = Some (Ok h') -> safe n h h'.
  Proof.
    induction 1 as [|[nc np] l [Lc Lp] _ IH]; intros h h' R E; cbn [heap_transplants] in E; [injection E as <-; now apply safe_refl|].
    apply obind_ok in E as [h1 [E1 E]]. pose proof (safe_transplant n _ _ _ _ Lc Lp R E1) as S1. eapply safe_trans; [exact S1|]. apply IH; auto. apply S1.
  Qed.
  Theorem split_parse_safe sub limit h root c h' r : nth_error h root = Some c -> c_parent c = None ->
    heap_split_parse tokens splits pairs sub limit h root = Some (Ok (h', r)) -> r = length h /\ safe (length h) h h'.
  Proof.
    intros Ec P E. unfold heap_split_parse in E. destruct (copy limit h root) as [[h1 r1]|] eqn:E1; [|discriminate].
    destruct (copy_region _ _ _ _ _ _ E1 Ec P) as [-> S1].
    assert (Z : (let? h2 := heap_split tokens splits pairs limit h1 (length h) in
            match sub with
            | None => Some (Ok (h2, length h))
            | Some s =>
                let? l := heap_sub_match tokens s limit h2 (length h) in
                let? h3 := heap_transplants l h2 in
                Some (Ok (h3, length h))
            end) = Some (Ok (h', r)) -> r = length h /\ safe (length h) h h').
    { intros E'. apply obind_ok in E' as [h2 [E2 E']]. pose proof (safe_trans _ _ _ _ S1 (safe_split _ _ _ _ _ (le_n _) (proj1 S1) E2)) as S2.
      destruct sub as [s|]; [|injection E' as <- <-; auto]. apply obind_ok in E' as [l [El E']]. apply obind_ok in E' as [h3 [E3 E']]. injection E' as <- <-.
      split; auto. eapply safe_trans; [exact S2|]. apply (safe_transplants _ l); auto; [|apply S2].
      exact (safe_sub_match _ _ _ _ _ _ (le_n _) (proj1 S2) El). }
    destruct splits; auto. injection E as <- <-. auto.
  Qed.
End Safe.
