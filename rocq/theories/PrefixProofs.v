(** Proofs about the prefix baselines. *)

From Coq Require Import List Bool Arith Lia QArith Qcanon Sorting.Sorted.
From Verif Require Import Base SeqNodes PackedSeq PackedSeqProofs Numbered Decisions TokenProb ConstraintSpec ConstraintProofs
  RegionDecisions RegionProofs PrefixBaselines.
Import ListNotations.
Close Scope Qc_scope. Close Scope Q_scope. Open Scope nat_scope.

Section Proofs.
  Context {M : Type}.
  Notation L := (lnode M).

  Lemma eqb_false_iff {A} `{EqDec A} (x y : A) : eqb x y = false <-> x <> y.
  Proof.
    split.
    - intros E ->. now rewrite eqb_refl in E.
    - intros N. destruct (eqb x y) eqn:E; auto. apply eqb_eq in E. congruence.
  Qed.

  (** ** The dict. *)
  Lemma put_new k v d : ~ In k (map fst d) -> put k v d = d ++ [(k, v)].
  Proof.
    induction d as [|[k' v'] d IH]; intros H; auto. cbn [put app]. cbn in H.
    destruct (eqb k k') eqn:E; [apply eqb_eq in E; subst; tauto|]. now rewrite IH by tauto.
  Qed.

  (** ** [_assignment_from_exit_point]. *)
  Definition entry (o : option nat) (x : L) : assignments :=
    match x with
    | LExit i => [((pre i, ShouldEarlyExit), exit_value o (pre i))]
    | LStart i => [((pre i, RegionShouldStart), DFalse)]
    | _ => []
    end.
  Lemma entry_key o x k : In k (map fst (entry o x)) -> fst k = number x.
  Proof. destruct x; cbn; intros [<-|[]] || intros []; reflexivity. Qed.
  Lemma entries_keys o l k : In k (map fst (flat_map (entry o) l)) -> exists x, In x l /\ fst k = number x.
  Proof.
    intros H. apply in_map_iff in H as [[k' v] [<- H]]. apply in_flat_map in H as [x [Hx H]]. exists x. split; auto.
    apply (entry_key o x). now apply (in_map fst) in H.
  Qed.
  Definition has_exit (e : nat) (l : list L) : bool := existsb (fun x => match x with LExit i => pre i =? e | _ => false end) l.
  (** The values the loop gives, while no exit taken lies behind. *)
  Lemma exit_loop_spec all o : StronglySorted (fun x y : L => number x < number y) all ->
    (match o with Some e => has_exit e all = true | None => True end) ->
    forall todo done S, all = done ++ todo -> Forall (placed S) todo ->
    exit_loop o (match o with Some e => has_exit e done | None => false end) (flat_map (entry o) done) (map label todo) =
    Ok (flat_map (entry o) all, match o with Some e => true | None => false end).
  Proof.
    intros Sd He todo. induction todo as [|x todo IH]; intros done S E F.
    - rewrite app_nil_r in E. subst done. cbn [map exit_loop]. destruct o as [e|]; [now rewrite He|reflexivity].
    - pose proof (sorted_here all Sd _ _ _ E) as [A [B C]]. inversion F as [|? ? Px F']; subst. 
      specialize (IH (done ++ [x]) S). rewrite <- app_assoc in IH. specialize (IH eq_refl F').
      assert (Hnew : forall c, ~ In (number x, c) (map fst (flat_map (entry o) done))).
      { intros c Hc. apply entries_keys in Hc as [y [Hy Ey]]. cbn in Ey. apply B in Hy. lia. }
      assert (Hkeep : (forall i, x <> LExit i) -> forall o', match o' with Some e => has_exit e (done ++ [x]) | None => false end = match o' with Some e => has_exit e done | None => false end).
      { intros Hx [e|]; auto. unfold has_exit. rewrite existsb_app. cbn [existsb]. destruct x; try (now rewrite orb_false_r); now destruct (Hx i). }
      rewrite flat_map_app in IH. cbn [flat_map] in IH. rewrite app_nil_r in IH.
      apply placed_inv in Px. destruct x as [i t|i t m|i|i|i|i cs m]; cbn [map label exit_loop].
      + destruct Px as [-> _]. rewrite Hkeep in IH by discriminate. cbn [entry] in IH. now rewrite app_nil_r in IH.
      + destruct Px as [-> _]. rewrite Hkeep in IH by discriminate. cbn [entry] in IH. now rewrite app_nil_r in IH.
      + rewrite Px. rewrite Hkeep in IH by discriminate. rewrite put_new by (apply (Hnew RegionShouldStart)). exact IH.
      + rewrite Px. rewrite Hkeep in IH by discriminate. cbn [entry] in IH. now rewrite app_nil_r in IH.
      + rewrite Px. cbn [entry number label] in *. rewrite put_new by (apply (Hnew ShouldEarlyExit)).
        rewrite put_new by (apply (Hnew ShouldEarlyExit)).
        destruct o as [e|].
        * destruct (eqb (Some (pre i)) (Some e)) eqn:Ei.
          -- apply eqb_eq in Ei. injection Ei as Ei. subst e.
             assert (N : has_exit (pre i) done = false).
             { unfold has_exit. apply not_true_is_false. intros H. apply existsb_exists in H as [y [Hy Hy']].
               destruct y; try discriminate. apply Nat.eqb_eq in Hy'. apply B in Hy. unfold number in Hy. cbn in Hy. lia. }
             rewrite N. assert (T : has_exit (pre i) (done ++ [LExit i]) = true).
             { unfold has_exit. rewrite existsb_app. cbn. rewrite Nat.eqb_refl. now rewrite orb_true_r. }
             rewrite T in IH. unfold exit_value in IH. rewrite Nat.ltb_irrefl, Nat.eqb_refl in IH. exact IH.
          -- apply eqb_false_iff in Ei. assert (Ne : pre i <> e) by congruence.
             assert (T : has_exit e (done ++ [LExit i]) = has_exit e done).
             { unfold has_exit. rewrite existsb_app. cbn. apply Nat.eqb_neq in Ne. rewrite Ne. now rewrite !orb_false_r. }
             rewrite T in IH. unfold exit_value in IH. apply Nat.eqb_neq in Ne. rewrite Ne in IH. apply Nat.eqb_neq in Ne.
             assert (V : (if has_exit e done then DNA else DFalse) = (if pre i <? e then DFalse else DNA)).
             { destruct (has_exit e done) eqn:Hd.
               - unfold has_exit in Hd. apply existsb_exists in Hd as [y [Hy Hy']]. destruct y; try discriminate.
                 apply Nat.eqb_eq in Hy'. apply B in Hy. unfold number in Hy. cbn in Hy. destruct (Nat.ltb_spec (pre i) e); auto. lia.
               - unfold has_exit in He. rewrite existsb_app in He. apply orb_true_iff in He as [He|He]; [unfold has_exit in Hd; congruence|].
                 apply existsb_exists in He as [y [[<-|Hy] Hy']].
                 + apply Nat.eqb_eq in Hy'. congruence.
                 + destruct y; try discriminate. apply Nat.eqb_eq in Hy'. apply C in Hy. unfold number in Hy. cbn in Hy.
                   destruct (Nat.ltb_spec (pre i) e); auto. lia. }
             rewrite V. exact IH.
        * exact IH.
      + destruct Px as [-> _]. rewrite Hkeep in IH by discriminate. cbn [entry] in IH. now rewrite app_nil_r in IH.
  Qed.
  Lemma preorder_labels (ns : list (node M)) : preorder_traversal (pack ns) = map label (flat_map nodes (labelled ns)).
  Proof. now rewrite nodes_pres, pack_labelled. Qed.
  Lemma nodes_all_placed (ns : list (node M)) : Forall (placed (pack ns)) (flat_map nodes (labelled ns)).
  Proof.
    apply Forall_forall. intros y Hy. apply in_flat_map in Hy as [c [Hc Hy]].
    pose proof (pack_placed ns) as F. rewrite Forall_forall in F.
    pose proof (nodes_placed _ _ (F c Hc)) as G. rewrite Forall_forall in G. auto.
  Qed.
  Lemma entries_mark all o : StronglySorted (fun x y : L => number x < number y) all -> marks all o (flat_map (entry o) all).
  Proof.
    intros Sd. split.
    - induction Sd as [|x l S1 IH F]; [constructor|]. cbn [flat_map]. rewrite map_app.
      assert (N : forall k, In k (map fst (entry o x)) -> ~ In k (map fst (flat_map (entry o) l))).
      { intros k H1 H2. apply entry_key in H1. apply entries_keys in H2 as [y [Hy E]]. rewrite Forall_forall in F. apply F in Hy. lia. }
      destruct x; cbn [entry map fst app] in *; auto; (constructor; auto; apply N; now left).
    - intros key v. rewrite in_flat_map. split.
      + intros [x [Hx H]]. destruct x; cbn [entry] in H; try contradiction; destruct H as [H|[]]; injection H as <- <-.
        * right. eauto.
        * left. eauto.
      + intros [[i [Hi [-> ->]]]|[i [Hi [-> ->]]]]; eexists; (split; [exact Hi|]); now left.
  Qed.
  Theorem assignment_marks (ns : list (node M)) o : (forall e, o = Some e -> exit_at (flat_map nodes (labelled ns)) e) ->
    exists c, assignment_from_exit_point (pack ns) o = Ok c /\ marks (flat_map nodes (labelled ns)) o c.
  Proof.
    intros He. pose proof (nodes_sorted _ _ (labelled_numbered ns)) as Sd. eexists. split; [|apply entries_mark, Sd].
    unfold assignment_from_exit_point. rewrite preorder_labels.
    assert (H : match o with Some e => has_exit e (flat_map nodes (labelled ns)) = true | None => True end).
    { destruct o as [e|]; auto. destruct (He e eq_refl) as [i [Hi <-]]. unfold has_exit. apply existsb_exists. exists (LExit i).
      split; auto. apply Nat.eqb_refl. }
    pose proof (exit_loop_spec _ o Sd H _ [] (pack ns) eq_refl (nodes_all_placed ns)) as E. cbn [flat_map has_exit existsb] in E.
    replace (match o with Some _ => false | None => false end) with false in E by now destruct o.
    rewrite E. cbn [bind fst snd]. now destruct o.
  Qed.

  (** ** The two ways of stopping, with the limit as a test on nodes. *)
  Fixpoint before_loop (trig : L -> bool) (last : option nat) (next : bool) (l : list L) : option nat :=
    match l with
    | [] => None
    | LExit i :: l' => if next then Some (pre i) else before_loop trig (Some (pre i)) next l'
    | x :: l' =>
        if trig x then match last with Some e => Some e | None => before_loop trig None true l' end
        else before_loop trig last next l'
    end.
  Fixpoint after_loop (trig : L -> bool) (next : bool) (l : list L) : option nat :=
    match l with
    | [] => None
    | LExit i :: l' => if next then Some (pre i) else after_loop trig next l'
    | x :: l' => after_loop trig (if trig x then true else next) l'
    end.
  Section Loops.
    Context (all : list L) (Sd : StronglySorted (fun x y => number x < number y) all).
    Context (trig : L -> bool) (Ht : forall i, trig (LExit i) = false).
    Definition at_limit (k : nat) : Prop := exists x, In x all /\ number x = k /\ trig x = true.

    Lemma in_done done x todo y : all = done ++ x :: todo -> In y all -> number y < number x -> In y done.
    Proof. intros E. now apply (sorted_here all Sd _ _ _ E). Qed.
    Lemma split_in done (x : L) todo y : all = done ++ x :: todo -> In y all ->
      (In y done /\ number y < number x) \/ y = x \/ (In y todo /\ number x < number y).
    Proof.
      intros E Hy. destruct (sorted_here all Sd _ _ _ E) as [A [B C]]. rewrite E in Hy. apply in_app_or in Hy as [Hy|[<-|Hy]]; auto.
    Qed.
    Lemma through_here done (x : L) todo : all = done ++ x :: todo -> through all (number x) = done ++ [x].
    Proof.
      intros E. destruct (sorted_here all Sd _ _ _ E) as [A [B C]]. unfold through. rewrite E at 1. rewrite filter_app. cbn [filter].
      rewrite Nat.leb_refl. f_equal; [|f_equal].
      - clear -B. induction done as [|d done IH]; auto. cbn [filter]. specialize (B d (or_introl eq_refl)) as Bd.
        destruct (Nat.leb_spec (number d) (number x)); [|lia]. f_equal. apply IH. intros y Hy. apply B. now right.
      - clear -C. induction todo as [|d todo IH]; auto. cbn [filter]. specialize (C d (or_introl eq_refl)) as Cd.
        destruct (Nat.leb_spec (number d) (number x)); [lia|]. apply IH. intros y Hy. apply C. now right.
    Qed.
    Lemma before_here done (x : L) todo : all = done ++ x :: todo -> before all (number x) = done.
    Proof.
      intros E. destruct (sorted_here all Sd _ _ _ E) as [A [B C]]. unfold before. rewrite E at 1. rewrite filter_app. cbn [filter].
      rewrite Nat.ltb_irrefl. rewrite <- (app_nil_r done) at 2. f_equal.
      - clear -B. induction done as [|d done IH]; auto. cbn [filter]. specialize (B d (or_introl eq_refl)) as Bd.
        destruct (Nat.ltb_spec (number d) (number x)); [|lia]. f_equal. apply IH. intros y Hy. apply B. now right.
      - clear -C. induction todo as [|d todo IH]; auto. cbn [filter]. specialize (C d (or_introl eq_refl)) as Cd.
        destruct (Nat.ltb_spec (number d) (number x)); [lia|]. apply IH. intros y Hy. apply C. now right.
    Qed.

    Lemma before_loop_spec : forall todo done (last : option nat) (next : bool), all = done ++ todo ->
      match last with
      | Some e => (exists i, In (LExit i) done /\ pre i = e) /\ forall i, In (LExit i) done -> pre i <= e
      | None => forall i, ~ In (LExit i) done
      end ->
      (if next then last = None /\ exists k, first at_limit k /\ exists x, In x done /\ number x = k
       else forall x, In x done -> trig x = false) ->
      stops_before all at_limit (before_loop trig last next todo).
    Proof.
      induction todo as [|x todo IH]; intros done last next E Hl Hn.
      - rewrite app_nil_r in E. subst done. cbn [before_loop]. destruct next.
        + right. intros e [i [Hi _]]. destruct Hn as [-> _]. now apply (Hl i).
        + left. intros k [x [Hx [_ Tx]]]. rewrite Hn in Tx by auto. discriminate.
      - assert (E' : all = (done ++ [x]) ++ todo) by now rewrite <- app_assoc.
        destruct (sorted_here all Sd _ _ _ E) as [A [B C]].
        assert (Hx : In x all) by (rewrite E; apply in_or_app; right; now left).
        destruct (match x with LExit _ => true | _ => false end) eqn:Ex.
        + destruct x as [i t|i t m|i|i|i|i cs m]; try discriminate. cbn [before_loop]. destruct next.
          * destruct Hn as [-> [k [Hk [y [Hy Ey]]]]]. cbn. split; [now exists i|]. exists k. split; auto. right.
            split; [apply B in Hy; unfold number in *; cbn in *; lia|].
            intros e' [j [Hj <-]]. destruct (split_in _ _ _ _ E Hj) as [[H _]|[H|[_ H]]].
            -- now apply Hl in H.
            -- injection H as ->. auto.
            -- unfold number in H. cbn in H. lia.
          * apply (IH (done ++ [LExit i])); auto.
            -- split; [exists i; split; auto; apply in_or_app; right; now left|].
               intros j Hj. apply in_app_or in Hj as [Hj|[[= ->]|[]]]; auto. apply B in Hj. unfold number in Hj. cbn in Hj. lia.
            -- intros y Hy. apply in_app_or in Hy as [Hy|[<-|[]]]; auto.
        + assert (Eq : before_loop trig last next (x :: todo) =
                       if trig x then match last with Some e => Some e | None => before_loop trig None true todo end
                       else before_loop trig last next todo) by (destruct x; try discriminate; reflexivity).
          rewrite Eq. clear Eq.
          assert (Hex : forall i, In (LExit i) (done ++ [x]) -> In (LExit i) done).
          { intros i Hi. apply in_app_or in Hi as [Hi|[->|[]]]; auto. discriminate. }
          assert (Hl' : match last with
                        | Some e => (exists i, In (LExit i) (done ++ [x]) /\ pre i = e) /\ forall i, In (LExit i) (done ++ [x]) -> pre i <= e
                        | None => forall i, ~ In (LExit i) (done ++ [x])
                        end).
          { destruct last as [e|]; [destruct Hl as [[i [Hi Ei]] Hl]; split|]; [exists i; split; auto; apply in_or_app; now left|..];
            intros j Hj; apply Hex in Hj; [now apply Hl|now apply (Hl j)]. }
          destruct (trig x) eqn:Tx.
          * destruct last as [e|].
            -- destruct next; [now destruct Hn|]. destruct Hl as [[i [Hi Ei]] Hl]. cbn. split.
               { exists i. split; auto. rewrite E. apply in_or_app. now left. }
               exists (number x). split; [split|left].
               ++ now exists x.
               ++ intros j [y [Hy [<- Ty]]]. destruct (split_in _ _ _ _ E Hy) as [[H _]|[->|[_ H]]]; [rewrite Hn in Ty by auto; discriminate|auto|lia].
               ++ split; [subst e; now apply (B (LExit i))|]. intros e' [j [Hj <-]] Hlt. apply Hl. now apply (A (LExit j)).
            -- apply (IH (done ++ [x])); auto. split; auto. destruct next.
               ++ destruct Hn as [_ [k [Hk [y [Hy Ey]]]]]. exists k. split; auto. exists y. split; auto. apply in_or_app. now left.
               ++ exists (number x). split; [split|].
                  ** now exists x.
                  ** intros j [y [Hy [<- Ty]]]. destruct (split_in _ _ _ _ E Hy) as [[H _]|[->|[_ H]]]; [rewrite Hn in Ty by auto; discriminate|auto|lia].
                  ** exists x. split; auto. apply in_or_app. right. now left.
          * apply (IH (done ++ [x])); auto. destruct next.
            -- destruct Hn as [-> [k [Hk [y [Hy Ey]]]]]. split; auto. exists k. split; auto. exists y. split; auto. apply in_or_app. now left.
            -- intros y Hy. apply in_app_or in Hy as [Hy|[<-|[]]]; auto.
    Qed.
    Lemma after_loop_spec : forall todo done (next : bool), all = done ++ todo ->
      (if next then exists k, first at_limit k /\ (exists x, In x done /\ number x = k) /\ (forall i, In (LExit i) done -> pre i < k)
       else forall x, In x done -> trig x = false) ->
      stops_after all at_limit (after_loop trig next todo).
    Proof.
      induction todo as [|x todo IH]; intros done next E Hn.
      - rewrite app_nil_r in E. subst done. cbn [after_loop stops_after]. intros k e Hk [i [Hi <-]]. destruct next.
        + destruct Hn as [k0 [[_ Hf] [_ Hlt]]]. apply Hf in Hk. apply Hlt in Hi. lia.
        + destruct Hk as [x [Hx [_ Tx]]]. rewrite Hn in Tx by auto. discriminate.
      - assert (E' : all = (done ++ [x]) ++ todo) by now rewrite <- app_assoc.
        destruct (sorted_here all Sd _ _ _ E) as [A [B C]].
        assert (Hx : In x all) by (rewrite E; apply in_or_app; right; now left).
        destruct (match x with LExit _ => true | _ => false end) eqn:Ex.
        + destruct x as [i t|i t m|i|i|i|i cs m]; try discriminate. cbn [after_loop]. destruct next.
          * destruct Hn as [k [Hk [[y [Hy Ey]] Hlt]]]. cbn. split; [now exists i|]. exists k. splits; auto.
            -- apply B in Hy. unfold number in *. cbn in *. lia.
            -- intros e' [j [Hj <-]] Hke. destruct (split_in _ _ _ _ E Hj) as [[H _]|[H|[_ H]]].
               ++ apply Hlt in H. lia.
               ++ injection H as ->. auto.
               ++ unfold number in H. cbn in H. lia.
          * apply (IH (done ++ [LExit i])); auto. intros y Hy. apply in_app_or in Hy as [Hy|[<-|[]]]; auto.
        + assert (Eq : after_loop trig next (x :: todo) = after_loop trig (if trig x then true else next) todo)
            by (destruct x; try discriminate; reflexivity).
          rewrite Eq. clear Eq. apply (IH (done ++ [x])); auto.
          assert (Hex : forall i, In (LExit i) (done ++ [x]) -> In (LExit i) done).
          { intros i Hi. apply in_app_or in Hi as [Hi|[->|[]]]; auto. discriminate. }
          assert (Hkeep : (exists k, first at_limit k /\ (exists x, In x done /\ number x = k) /\ (forall i, In (LExit i) done -> pre i < k)) ->
                          exists k, first at_limit k /\ (exists y, In y (done ++ [x]) /\ number y = k) /\ (forall i, In (LExit i) (done ++ [x]) -> pre i < k)).
          { intros [k [Hk [[y [Hy Ey]] Hlt]]]. exists k. splits; auto. exists y. split; auto. apply in_or_app. now left. }
          destruct (trig x) eqn:Tx.
          * destruct next; auto. exists (number x). splits; [split|..].
            -- now exists x.
            -- intros j [y [Hy [<- Ty]]]. destruct (split_in _ _ _ _ E Hy) as [[H _]|[->|[_ H]]]; [rewrite Hn in Ty by auto; discriminate|auto|lia].
            -- exists x. split; auto. apply in_or_app. right. now left.
            -- intros i Hi. apply Hex in Hi. now apply (B (LExit i)).
          * destruct next; auto. intros y Hy. apply in_app_or in Hy as [Hy|[<-|[]]]; auto.
    Qed.
  End Loops.

  Lemma stops_before_ext all (P Q : nat -> Prop) o : (forall k, P k <-> Q k) -> stops_before (M := M) all P o -> stops_before all Q o.
  Proof.
    intros H. destruct o as [e|]; cbn.
    - intros [He [k [[Hk Hf] Hc]]]. split; auto. exists k. split; auto. split; [now apply H|]. intros j Hj. now apply Hf, H.
    - intros [Hn|Hn]; [left|right; auto]. intros k Hk. apply (Hn k). now apply H.
  Qed.
  Lemma stops_after_ext all (P Q : nat -> Prop) o : (forall k, P k <-> Q k) -> stops_after (M := M) all P o -> stops_after all Q o.
  Proof.
    intros H. destruct o as [e|]; cbn.
    - intros [He [k [[Hk Hf] Hc]]]. split; auto. exists k. split; auto. split; [now apply H|]. intros j Hj. now apply Hf, H.
    - intros Hn k e Hk. apply Hn. now apply H.
  Qed.
  Lemma stops_before_exit all (P : nat -> Prop) e : stops_before (M := M) all P (Some e) -> exit_at all e.
  Proof. now intros [H _]. Qed.
  Lemma stops_after_exit all (P : nat -> Prop) e : stops_after (M := M) all P (Some e) -> exit_at all e.
  Proof. now intros [H _]. Qed.

  Lemma qsum_app a b : qsum (a ++ b) = (qsum a + qsum b)%Qc.
  Proof. induction a as [|x a IH]; cbn [app]; [change (qsum []) with 0%Qc; ring|].
    change (qsum (x :: a ++ b)) with (x + qsum (a ++ b))%Qc. change (qsum (x :: a)) with (x + qsum a)%Qc. rewrite IH. ring. Qed.
  Lemma log_probs_app al (a b : list L) : log_probs al (a ++ b) = log_probs al a ++ log_probs al b.
  Proof. unfold log_probs. apply flat_map_app. Qed.

  (** ** The loops of the baselines. *)
  Section Prototype.
    Context (ns : list (node M)) (aligned : list (nat * Qc)).
    Notation S := (pack ns).
    Notation all := (flat_map nodes (labelled ns)).
    Let Sd : StronglySorted (fun x y => number x < number y) all := nodes_sorted _ _ (labelled_numbered ns).
    Context (Hal : forall i t m, In (LToken i t m) all -> t <> [] -> exists p, assoc (pre i) aligned = Some p).

    Definition prob_trig (low : Qc -> bool) (cumulative : bool) (x : L) : bool :=
      match x with
      | LToken i (_ :: _) _ =>
          match assoc (pre i) aligned with
          | Some p => low (if cumulative then qsum (log_probs aligned (through all (pre i))) else p)
          | None => false
          end
      | _ => false
      end.
    Ltac here := match goal with Px : placed _ _ |- _ => apply placed_inv in Px end.
    Lemma token_prob_run low cumulative : forall todo done current last next, all = done ++ todo -> Forall (placed S) todo ->
      (cumulative = true -> current = qsum (log_probs aligned done)) ->
      token_prob_loop low cumulative S aligned current last next (map label todo) =
      Ok (before_loop (prob_trig low cumulative) last next todo).
    Proof.
      induction todo as [|x todo IH]; intros done current last next E F Hc; auto.
      inversion F as [|? ? Px F']; subst. here.
      assert (E' : all = (done ++ [x]) ++ todo) by now rewrite <- app_assoc.
      assert (Hskip : log_probs aligned [x] = [] -> cumulative = true -> current = qsum (log_probs aligned (done ++ [x]))).
      { intros H1 H2. rewrite log_probs_app, H1, app_nil_r. auto. }
      destruct x as [i t|i t m|i|i|i|i cs m]; cbn [map label token_prob_loop before_loop prob_trig].
      - destruct Px as [-> _]. apply (IH (done ++ [LDeco i t])); auto.
      - destruct Px as [-> Et]. rewrite Et. cbn [bind fst]. destruct t as [|c t].
        + apply (IH (done ++ [LToken i [] m])); auto.
        + destruct (Hal i (c :: t) m) as [p Hp]; [rewrite E; apply in_or_app; right; now left|discriminate|].
          rewrite Hp. pose proof (through_here all Sd _ _ _ E) as T. unfold number in T. cbn [label] in T. rewrite T, log_probs_app.
          assert (Lp : log_probs aligned [LToken i (c :: t) m] = [p]) by (cbn; now rewrite Hp). rewrite Lp, qsum_app. cbn [qsum fold_right].
          assert (Es : (if cumulative then (current + p)%Qc else p) = (if cumulative then (qsum (log_probs aligned done) + (p + 0))%Qc else p)).
          { destruct cumulative; auto. rewrite Hc by auto. ring. }
          assert (Hc' : cumulative = true -> (if cumulative then (current + p)%Qc else p) = qsum (log_probs aligned (done ++ [LToken i (c :: t) m]))).
          { intros ->. rewrite Es, log_probs_app, Lp, qsum_app. reflexivity. }
          rewrite <- Es. destruct (low (if cumulative then (current + p)%Qc else p)).
          * destruct last as [e|]; auto. now apply (IH (done ++ [LToken i (c :: t) m])).
          * now apply (IH (done ++ [LToken i (c :: t) m])).
      - rewrite Px. apply (IH (done ++ [LStart i])); auto.
      - rewrite Px. apply (IH (done ++ [LEnd i])); auto.
      - rewrite Px. destruct next; auto. apply (IH (done ++ [LExit i])); auto.
      - destruct Px as [-> _]. apply (IH (done ++ [LGroup i cs m])); auto.
    Qed.
    Definition position_trig (low : nat -> Qc -> bool) (x : L) : bool :=
      match x with
      | LToken i (_ :: _) _ =>
          match assoc (pre i) aligned with
          | Some p => low (length (log_probs aligned (before all (pre i)))) p
          | None => false
          end
      | _ => false
      end.
    Lemma intellicode_run low : forall todo done seen last next, all = done ++ todo -> Forall (placed S) todo ->
      seen = length (log_probs aligned done) ->
      intellicode_loop low S aligned seen last next (map label todo) = Ok (before_loop (position_trig low) last next todo).
    Proof.
      induction todo as [|x todo IH]; intros done seen last next E F Hc; auto.
      inversion F as [|? ? Px F']; subst seen. here.
      assert (E' : all = (done ++ [x]) ++ todo) by now rewrite <- app_assoc.
      assert (Hskip : log_probs aligned [x] = [] -> length (log_probs aligned done) = length (log_probs aligned (done ++ [x]))).
      { intros H1. rewrite log_probs_app, H1, app_nil_r. auto. }
      destruct x as [i t|i t m|i|i|i|i cs m]; cbn [map label intellicode_loop before_loop position_trig].
      - destruct Px as [-> _]. apply (IH (done ++ [LDeco i t])); auto.
      - destruct Px as [-> Et]. rewrite Et. cbn [bind fst]. destruct t as [|c t].
        + apply (IH (done ++ [LToken i [] m])); auto.
        + destruct (Hal i (c :: t) m) as [p Hp]; [rewrite E; apply in_or_app; right; now left|discriminate|].
          rewrite Hp. pose proof (before_here all Sd _ _ _ E) as T. unfold number in T. cbn [label] in T. rewrite T.
          assert (Hc' : length (log_probs aligned done) + 1 = length (log_probs aligned (done ++ [LToken i (c :: t) m]))).
          { rewrite log_probs_app, app_length. cbn. rewrite Hp. reflexivity. }
          destruct (low (length (log_probs aligned done)) p).
          * destruct last as [e|]; auto. now apply (IH (done ++ [LToken i (c :: t) m])).
          * now apply (IH (done ++ [LToken i (c :: t) m])).
      - rewrite Px. apply (IH (done ++ [LStart i])); auto.
      - rewrite Px. apply (IH (done ++ [LEnd i])); auto.
      - rewrite Px. destruct next; auto. apply (IH (done ++ [LExit i])); auto.
      - destruct Px as [-> _]. apply (IH (done ++ [LGroup i cs m])); auto.
    Qed.
    Definition characters_trig (most : nat) (x : L) : bool :=
      match x with LToken i _ _ => most <=? total_characters (through all (pre i)) | _ => false end.
    Lemma total_app (a b : list L) : total_characters (a ++ b) = total_characters a + total_characters b.
    Proof. unfold total_characters. now rewrite map_app, list_sum_app. Qed.
    Lemma characters_run most : forall todo done so_far next, all = done ++ todo -> Forall (placed S) todo ->
      so_far = total_characters done ->
      characters_loop most S so_far next (map label todo) = Ok (after_loop (characters_trig most) next todo).
    Proof.
      induction todo as [|x todo IH]; intros done so_far next E F Hc; auto.
      inversion F as [|? ? Px F']; subst so_far. here.
      assert (E' : all = (done ++ [x]) ++ todo) by now rewrite <- app_assoc.
      assert (Hskip : total_characters [x] = 0 -> total_characters done = total_characters (done ++ [x])).
      { intros H1. rewrite total_app, H1. auto. }
      destruct x as [i t|i t m|i|i|i|i cs m]; cbn [map label characters_loop after_loop characters_trig].
      - destruct Px as [-> _]. apply (IH (done ++ [LDeco i t])); auto.
      - destruct Px as [-> Et]. rewrite Et. cbn [bind fst].
        pose proof (through_here all Sd _ _ _ E) as T. unfold number in T. cbn [label] in T. rewrite T.
        assert (Hc' : total_characters done + length t = total_characters (done ++ [LToken i t m])).
        { rewrite total_app. cbn. lia. }
        rewrite Hc'. now apply (IH (done ++ [LToken i t m])).
      - rewrite Px. apply (IH (done ++ [LStart i])); auto.
      - rewrite Px. apply (IH (done ++ [LEnd i])); auto.
      - rewrite Px. destruct next; auto. apply (IH (done ++ [LExit i])); auto.
      - destruct Px as [-> _]. apply (IH (done ++ [LGroup i cs m])); auto.
    Qed.
    Definition lines_trig (most : nat) (x : L) : bool :=
      breaks_line x && (most <=? length (filter breaks_line (through all (number x)))).
    Lemma lines_run most : forall todo done so_far next, all = done ++ todo -> Forall (placed S) todo ->
      so_far = length (filter breaks_line done) ->
      lines_loop most S so_far next (map label todo) = Ok (after_loop (lines_trig most) next todo).
    Proof.
      induction todo as [|x todo IH]; intros done so_far next E F Hc; auto.
      inversion F as [|? ? Px F']; subst so_far. here.
      assert (E' : all = (done ++ [x]) ++ todo) by now rewrite <- app_assoc.
      assert (Hskip : breaks_line x = false -> length (filter breaks_line done) = length (filter breaks_line (done ++ [x]))).
      { intros H1. rewrite filter_app. cbn [filter]. now rewrite H1, app_nil_r. }
      destruct x as [i t|i t m|i|i|i|i cs m]; cbn [map label lines_loop after_loop].
      - destruct Px as [-> Et]. rewrite Et. cbn [bind]. unfold lines_trig. cbn [breaks_line].
        destruct (mem newline t) eqn:Em; cbn [andb].
        + pose proof (through_here all Sd _ _ _ E) as T. rewrite T.
          assert (Hc' : length (filter breaks_line done) + 1 = length (filter breaks_line (done ++ [LDeco i t]))).
          { rewrite filter_app, app_length. cbn [filter breaks_line]. rewrite Em. reflexivity. }
          rewrite Hc'. now apply (IH (done ++ [LDeco i t])).
        + apply (IH (done ++ [LDeco i t])); auto.
      - destruct Px as [-> _]. apply (IH (done ++ [LToken i t m])); auto.
      - rewrite Px. apply (IH (done ++ [LStart i])); auto.
      - rewrite Px. apply (IH (done ++ [LEnd i])); auto.
      - rewrite Px. destruct next; auto. apply (IH (done ++ [LExit i])); auto.
      - destruct Px as [-> _]. apply (IH (done ++ [LGroup i cs m])); auto.
    Qed.

    (** ** The best average. *)
    Definition seen_best (done : list L) (best : option Qc) (best_exit : option nat) : Prop :=
      match best, best_exit with
      | Some a, Some e => (exists i, In (LExit i) done /\ pre i = e) /\ average_before all aligned e a /\
          forall i a', In (LExit i) done -> average_before all aligned (pre i) a' -> (a' <= a)%Qc /\ (pre i < e -> (a' < a)%Qc)
      | None, None => forall i a', In (LExit i) done -> ~ average_before all aligned (pre i) a'
      | _, _ => False
      end.
    Lemma average_fun e a a' : average_before all aligned e a -> average_before all aligned e a' -> a = a'.
    Proof. intros [_ ->] [_ ->]. reflexivity. Qed.
    Lemma max_average_run : forall todo done current count best best_exit, all = done ++ todo -> Forall (placed S) todo ->
      current = qsum (log_probs aligned done) -> count = length (log_probs aligned done) -> seen_best done best best_exit ->
      exists o, max_average_loop S aligned current count best best_exit (map label todo) = Ok o /\ stops_at_best all aligned o.
    Proof.
      induction todo as [|x todo IH]; intros done current count best best_exit E F Hc Hn Hb.
      - rewrite app_nil_r in E. subst done. exists best_exit. split; auto. destruct best as [a|], best_exit as [e|]; cbn in Hb; try contradiction.
        + destruct Hb as [He [Ha Hm]]. split; [exact He|]. exists a. split; auto. intros e' a' [i [Hi <-]]. auto.
        + intros e a [i [Hi <-]]. auto.
      - inversion F as [|? ? Px F']. here. subst x0 l.
        assert (E' : all = (done ++ [x]) ++ todo) by now rewrite <- app_assoc.
        assert (Hs1 : log_probs aligned [x] = [] -> current = qsum (log_probs aligned (done ++ [x]))).
        { intros H1. rewrite log_probs_app, H1, app_nil_r. auto. }
        assert (Hs2 : log_probs aligned [x] = [] -> count = length (log_probs aligned (done ++ [x]))).
        { intros H1. rewrite log_probs_app, H1, app_nil_r. auto. }
        assert (Hs3 : (forall i, x <> LExit i) -> seen_best (done ++ [x]) best best_exit).
        { intros Hx. assert (Hex : forall i, In (LExit i) (done ++ [x]) -> In (LExit i) done).
          { intros i Hi. apply in_app_or in Hi as [Hi|[->|[]]]; auto. now destruct (Hx i). }
          destruct best as [a|], best_exit as [e|]; cbn in Hb |- *; try contradiction.
          - destruct Hb as [[i [Hi Ei]] [Ha Hm]]. splits; auto. exists i. split; auto. apply in_or_app. now left.
          - intros i a' Hi. auto. }
        destruct x as [i t|i t m|i|i|i|i cs m]; cbn [map label max_average_loop].
        + destruct Px as [-> _]. apply (IH (done ++ [LDeco i t])); auto. apply Hs3. discriminate.
        + destruct Px as [-> Et]. rewrite Et. cbn [bind fst]. destruct t as [|c t].
          * apply (IH (done ++ [LToken i [] m])); auto. apply Hs3. discriminate.
          * destruct (Hal i (c :: t) m) as [p Hp]; [rewrite E; apply in_or_app; right; now left|discriminate|]. rewrite Hp.
            apply (IH (done ++ [LToken i (c :: t) m])); auto.
            -- rewrite log_probs_app, qsum_app, Hc. cbn. rewrite Hp. cbn. ring.
            -- rewrite log_probs_app, app_length, Hn. cbn. rewrite Hp. reflexivity.
            -- apply Hs3. discriminate.
        + rewrite Px. apply (IH (done ++ [LStart i])); auto. apply Hs3. discriminate.
        + rewrite Px. apply (IH (done ++ [LEnd i])); auto. apply Hs3. discriminate.
        + rewrite Px. pose proof (before_here all Sd _ _ _ E) as T. unfold number in T. cbn [label] in T.
          destruct (sorted_here all Sd _ _ _ E) as [_ [B _]].
          assert (Bl : forall j, In (LExit j) done -> pre j < pre i) by (intros j Hj; now apply (B (LExit j))).
          assert (Av : forall a, average_before all aligned (pre i) a <-> 0 < count /\ a = (current / of_nat count)%Qc).
          { intros a. unfold average_before. rewrite T. cbv zeta. rewrite Hc, Hn.
            destruct (log_probs aligned done) as [|q0 qs]; cbn [length]; split; intros [H1 H2]; split; auto; try lia; try congruence. }
          destruct (0 <? count) eqn:Ec; cbn [andb].
          * apply Nat.ltb_lt in Ec. assert (Ai : average_before all aligned (pre i) (current / of_nat count)%Qc) by (apply Av; auto).
            destruct (above best (current / of_nat count)%Qc) eqn:Ea.
            -- apply (IH (done ++ [LExit i])); auto. cbn. splits.
               ++ exists i. split; auto. apply in_or_app. right. now left.
               ++ exact Ai.
               ++ intros j a' Hj Ha'. apply in_app_or in Hj as [Hj|[[= <-]|[]]].
                  ** assert (Hlt : (a' < current / of_nat count)%Qc).
                     { unfold above in Ea. destruct best as [b|], best_exit as [e|]; cbn in Hb; try contradiction.
                       - unfold qc_ltb in Ea. destruct (Qclt_le_dec b (current / of_nat count)%Qc) as [Hlt|]; [|discriminate].
                         destruct Hb as [_ [_ Hm]]. destruct (Hm j a' Hj Ha') as [Hle _]. eapply Qcle_lt_trans; eauto.
                       - now destruct (Hb j a' Hj). }
                     split; [now apply Qclt_le_weak|auto].
                  ** rewrite (average_fun _ _ _ Ha' Ai). split; [apply Qcle_refl|lia].
            -- apply (IH (done ++ [LExit i])); auto. unfold above in Ea.
               destruct best as [b|]; [|discriminate]. destruct best_exit as [e|]; [|contradiction].
               unfold qc_ltb in Ea. destruct (Qclt_le_dec b (current / of_nat count)%Qc) as [|Hle]; [discriminate|].
               cbn in Hb |- *. destruct Hb as [[j [Hj Ej]] [Ha Hm]]. splits; auto.
               ++ exists j. split; auto. apply in_or_app. now left.
               ++ intros j' a' Hj' Ha'. apply in_app_or in Hj' as [Hj'|[[= <-]|[]]]; auto.
                  rewrite (average_fun _ _ _ Ha' Ai). split; auto. intros Hlt. subst e. apply Bl in Hj. lia.
          * apply Nat.ltb_ge in Ec. apply (IH (done ++ [LExit i])); auto.
            destruct best as [b|], best_exit as [e|]; cbn in Hb |- *; try contradiction.
            -- destruct Hb as [[j [Hj Ej]] [Ha Hm]]. splits; auto.
               ++ exists j. split; auto. apply in_or_app. now left.
               ++ intros j' a' Hj' Ha'. apply in_app_or in Hj' as [Hj'|[[= <-]|[]]]; auto. apply Av in Ha'. lia.
            -- intros j a' Hj. apply in_app_or in Hj as [Hj|[[= <-]|[]]]; auto. rewrite Av. lia.
        + destruct Px as [-> _]. apply (IH (done ++ [LGroup i cs m])); auto. apply Hs3. discriminate.
    Qed.
  End Prototype.
End Proofs.
