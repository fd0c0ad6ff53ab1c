(** Model of r_u_sure/tree_structure/subtokenizer.py.  Python's character
    predicates [str.isupper], [islower], [isdigit], [isspace] are parameters. *)

From Coq Require Import List Bool Arith Lia.
From Verif Require Import Base SeqNodes.
Import ListNotations.

(** subtokenizer.py:31-36, [StateType]. *)
Inductive state_type := INITIAL | UPPER | LOWER | NUMBER | SPECIAL.
#[export] Instance EqDec_state_type : EqDec state_type.
Proof. intros x y. decide equality. Defined.

Section Sub.
  Variables isupper islower isdigit isspace : nat -> bool.

  (** subtokenizer.py:92-99. *)
  Definition classify (c : nat) : state_type :=
    if isupper c then UPPER else if islower c then LOWER
    else if isdigit c then NUMBER else SPECIAL.

  (** subtokenizer.py:73-85. *)
  Definition normal_transitions : list (state_type * state_type) :=
    [(UPPER, NUMBER); (UPPER, SPECIAL);
     (LOWER, UPPER); (LOWER, NUMBER); (LOWER, SPECIAL);
     (NUMBER, UPPER); (NUMBER, LOWER); (NUMBER, SPECIAL);
     (SPECIAL, UPPER); (SPECIAL, LOWER); (SPECIAL, NUMBER)].

  (** ' ' and '\t'. *)
  Definition SPACE := 32.
  Definition TAB := 9.
  Definition blank (c : nat) : bool := (c =? SPACE) || (c =? TAB).

  (** Loop state: tokens so far, automaton state, memory, and the character
      before the current one ([code[i - 1]]; only read when there is one). *)
  Record st := mkSt { toks : list text; state : state_type; memory : text; prev : nat }.

  (** subtokenizer.py:101-126: one iteration. *)
  Definition step (s : st) (c : nat) : st :=
    let next := classify c in
    let '(toks', memory') :=
      if mem (state s, next) normal_transitions then (toks s ++ [memory s], [])
      else if eqb (state s, next) (UPPER, LOWER) && (1 <? length (memory s))
      then (toks s ++ [removelast (memory s)], [last (memory s) 0])
      else if eqb (state s, next) (SPECIAL, SPECIAL) then
        if blank c && (c =? prev s) then
          if 20 <=? length (memory s) then (toks s ++ [memory s], []) else (toks s, memory s)
        else if isspace c || isspace (prev s) then (toks s ++ [memory s], [])
        else (toks s, memory s)
      else (toks s, memory s) in
    mkSt toks' next (memory' ++ [c]) c.

  (** subtokenizer.py:39-128, [code_to_tokens_simple_lossless]. *)
  Definition code_to_tokens (code : text) : list text :=
    let s := fold_left step code (mkSt [] INITIAL [] 0) in
    match memory s with [] => toks s | _ => toks s ++ [memory s] end.

  (** ** Specification: where the text is cut. *)
  (** Number of consecutive [c] at the end of a text. *)
  Fixpoint run_rev (c : nat) (r : text) : nat :=
    match r with [] => 0 | x :: r' => if x =? c then S (run_rev c r') else 0 end.
  Definition trailing (c : nat) (l : text) : nat := run_rev c (rev l).

  (** A cut between [code[i-1]] and [code[i]]. *)
  Definition cut (code : text) (i : nat) : bool :=
    match nth_error code (i - 1), nth_error code i with
    | Some a, Some b =>
        match classify a, classify b with
        | UPPER, LOWER => false
        | UPPER, UPPER =>
            match nth_error code (i + 1) with
            | Some d => eqb (classify d) LOWER
            | None => false
            end
        | SPECIAL, SPECIAL =>
            if blank b && (b =? a) then trailing a (firstn i code) mod 20 =? 0
            else isspace b || isspace a
        | ca, cb => negb (eqb ca cb)
        end
    | _, _ => false
    end.

  (** The text cut before every index [j] with [p j]; its first character has index [i]. *)
  Fixpoint pieces (p : nat -> bool) (i : nat) (l : text) : list text :=
    match l with
    | [] => []
    | c :: l' =>
        match pieces p (S i) l' with
        | [] => [[c]]
        | q :: qs => if p (S i) then [c] :: q :: qs else (c :: q) :: qs
        end
    end.

  (** ** Proofs. *)
  Lemma pieces_nil p i l : pieces p i l = [] <-> l = [].
  Proof.
    destruct l as [|c l]; simpl; [tauto|]. destruct (pieces p (S i) l); [split; discriminate|].
    destruct (p (S i)); split; discriminate.
  Qed.
  Lemma pieces_concat p l : forall i, concat (pieces p i l) = l.
  Proof.
    induction l as [|c l IH]; intros i; simpl; auto. specialize (IH (S i)).
    destruct (pieces p (S i) l) as [|q qs]; simpl in *; [now rewrite <- IH|].
    destruct (p (S i)); simpl; now rewrite IH.
  Qed.
  Lemma pieces_nonempty p l : forall i, Forall (fun q => q <> []) (pieces p i l).
  Proof.
    induction l as [|c l IH]; intros i; simpl; auto. specialize (IH (S i)).
    destruct (pieces p (S i) l) as [|q qs]; [repeat constructor; discriminate|].
    inversion IH; subst. destruct (p (S i)); repeat constructor; auto; discriminate.
  Qed.
  Lemma pieces_ext p p' l : forall i, (forall j, i < j < i + length l -> p j = p' j) ->
    pieces p i l = pieces p' i l.
  Proof.
    induction l as [|c l IH]; intros i Hp; simpl; auto.
    rewrite (IH (S i)) by (intros; apply Hp; simpl; lia).
    destruct l as [|d l]; auto. rewrite (Hp (S i)) by (simpl; lia). reflexivity.
  Qed.
  Lemma pieces_snoc p c l : forall i qs q, pieces p i l = qs ++ [q] ->
    pieces p i (l ++ [c]) = if p (i + length l) then qs ++ [q] ++ [[c]] else qs ++ [q ++ [c]].
  Proof.
    induction l as [|x l IH]; intros i qs q E; simpl in E.
    - symmetry in E. now apply app_eq_nil in E as [_ E].
    - cbn [app pieces length].
      destruct (pieces p (S i) l) as [|r rs] eqn:Er.
      + apply pieces_nil in Er. subst l. cbn [app pieces length].
        replace (i + 1) with (S i) by lia.
        destruct qs as [|? qs]; simpl in E; [|now destruct qs].
        injection E as <-. destruct (p (S i)); reflexivity.
      + replace (i + S (length l)) with (S i + length l) by lia.
        destruct (exists_last (l:=r :: rs) ltac:(discriminate)) as [rs' [r' Hr]].
        rewrite Hr in Er. specialize (IH (S i) rs' r' Er).
        rewrite IH. destruct (p (S i)) eqn:Ep.
        * assert (qs = [x] :: rs' /\ q = r') as [-> ->].
          { rewrite Hr in E. apply (app_inj_tail ([x] :: rs') qs r' q) in E. destruct E; auto. }
          destruct (p (S i + length l)).
          -- destruct rs'; reflexivity.
          -- destruct rs'; reflexivity.
        * destruct rs' as [|r0 rs'].
          -- injection Hr as -> ->. destruct qs as [|? qs]; simpl in E; [|now destruct qs].
             injection E as <-. destruct (p (S i + length l)); reflexivity.
          -- injection Hr as -> ->.
             assert (qs = (x :: r0) :: rs' /\ q = r') as [-> ->].
             { apply (app_inj_tail ((x :: r0) :: rs') qs r' q) in E. destruct E; auto. }
             destruct (p (S i + length l)); reflexivity.
  Qed.

  Hypothesis space_ok : isspace SPACE = true.
  Hypothesis tab_ok : isspace TAB = true.

  Lemma blank_space c : blank c = true -> isspace c = true.
  Proof.
    unfold blank. rewrite orb_true_iff. intros [E|E]; apply Nat.eqb_eq in E; now subst.
  Qed.

  (** Cuts of a text and of its extension by one character. *)
  Lemma cut_snoc_old l c i : 0 < i -> i < length l ->
    cut (l ++ [c]) i = cut l i \/
    (i = length l - 1 /\ classify c = LOWER /\
     match nth_error l (i - 1), nth_error l i with
     | Some a, Some b => classify a = UPPER /\ classify b = UPPER | _, _ => False end).
  Proof.
    intros H0 Hi. unfold cut. rewrite !nth_error_app1 by lia.
    destruct (nth_error l (i - 1)) as [a|] eqn:Ea; [|auto].
    destruct (nth_error l i) as [b|] eqn:Eb; [|auto].
    destruct (classify a) eqn:Ca, (classify b) eqn:Cb; auto.
    - destruct (Nat.eq_dec i (length l - 1)) as [->|Hne].
      + replace (length l - 1 + 1) with (length l) by lia.
        rewrite nth_error_app2, Nat.sub_diag by lia. cbn [nth_error].
        assert (nth_error l (length l) = None) as -> by (apply nth_error_None; lia).
        destruct (eqb (classify c) LOWER) eqn:E; auto. right. apply eqb_eq in E. auto.
      + rewrite nth_error_app1 by lia. auto.
    - left. rewrite firstn_app. replace (i - length l) with 0 by lia.
      cbn [firstn]. now rewrite app_nil_r.
  Qed.

  Lemma cut_snoc_new l a c :
    cut ((l ++ [a]) ++ [c]) (length (l ++ [a])) =
    match classify a, classify c with
    | UPPER, LOWER => false
    | UPPER, UPPER => false
    | SPECIAL, SPECIAL =>
        if blank c && (c =? a) then trailing a (l ++ [a]) mod 20 =? 0
        else isspace c || isspace a
    | ca, cb => negb (eqb ca cb)
    end.
  Proof.
    unfold cut.
    assert (nth_error ((l ++ [a]) ++ [c]) (length (l ++ [a]) - 1) = Some a) as ->.
    { rewrite nth_error_app1 by (rewrite app_length; simpl; lia).
      rewrite app_length; simpl. rewrite nth_error_app2 by lia.
      replace (length l + 1 - 1 - length l) with 0 by lia. reflexivity. }
    rewrite nth_error_app2, Nat.sub_diag by lia. cbn [nth_error].
    assert (nth_error ((l ++ [a]) ++ [c]) (length (l ++ [a]) + 1) = None) as ->.
    { apply nth_error_None. rewrite !app_length. simpl. lia. }
    rewrite firstn_app, firstn_all, Nat.sub_diag. cbn [firstn]. rewrite app_nil_r. reflexivity.
  Qed.

  Lemma trailing_pos a l : 0 < trailing a (l ++ [a]).
  Proof. unfold trailing. rewrite rev_unit. simpl. rewrite Nat.eqb_refl. lia. Qed.
  Lemma trailing_snoc a l : trailing a (l ++ [a]) = S (trailing a l).
  Proof. unfold trailing. rewrite rev_unit. simpl. now rewrite Nat.eqb_refl. Qed.
  Lemma trailing_other a b l : a <> b -> trailing a (l ++ [b]) = 0.
  Proof.
    intros Hn. unfold trailing. rewrite rev_unit. simpl.
    destruct (Nat.eqb_spec b a); congruence.
  Qed.

  (** The last piece within a run of one blank. *)
  Lemma last_piece_blank l : forall a qs q,
    blank a = true -> classify a = SPECIAL ->
    pieces (cut (l ++ [a])) 0 (l ++ [a]) = qs ++ [q] ->
    length q = (trailing a (l ++ [a]) - 1) mod 20 + 1.
  Proof.
    induction l as [|b l IH] using rev_ind; intros a qs q Hb Hc E.
    - simpl in E. destruct qs as [|? qs]; simpl in E; [|now destruct qs].
      injection E as <-. rewrite trailing_snoc. reflexivity.
    - destruct (exists_last (l:=pieces (cut (l ++ [b])) 0 (l ++ [b]))) as [qs0 [q0 E0]].
      { intros N. apply pieces_nil in N. now destruct l. }
      assert (Hext : pieces (cut ((l ++ [b]) ++ [a])) 0 (l ++ [b])
                     = pieces (cut (l ++ [b])) 0 (l ++ [b])).
      { apply pieces_ext. intros j Hj. destruct (cut_snoc_old (l ++ [b]) a j) as [H|[_ [H _]]];
          try lia; auto. congruence. }
      rewrite <- Hext in E0. pose proof (pieces_snoc _ a _ _ _ _ E0) as Es.
      rewrite Nat.add_0_l, cut_snoc_new in Es. rewrite Es in E. clear Es.
      rewrite Hext in E0. rewrite Hc in E.
      destruct (Nat.eq_dec a b) as [<-|Hne].
      + specialize (IH a qs0 q0 Hb Hc E0). rewrite Hc, Hb, Nat.eqb_refl in E. cbn [andb] in E.
        rewrite (trailing_snoc a (l ++ [a])). rewrite Nat.sub_succ, Nat.sub_0_r.
        pose proof (trailing_pos a l) as Hp.
        remember (trailing a (l ++ [a])) as t.
        assert (Hm : t mod 20 = (if (t - 1) mod 20 =? 19 then 0 else (t - 1) mod 20 + 1)).
        { replace t with ((t - 1) + 1) at 1 by lia. rewrite Nat.add_mod by lia.
          change (1 mod 20) with 1. pose proof (Nat.mod_upper_bound (t - 1) 20 ltac:(lia)).
          destruct (Nat.eqb_spec ((t - 1) mod 20) 19) as [->|]; [reflexivity|].
          rewrite Nat.mod_small; lia. }
        destruct (Nat.eqb_spec (t mod 20) 0) as [Ez|Enz].
        * rewrite Ez. change (qs0 ++ [q0] ++ [[a]]) with (qs0 ++ ([q0] ++ [[a]])) in E.
          rewrite app_assoc in E. apply app_inj_tail in E as [_ <-]. reflexivity.
        * apply app_inj_tail in E as [_ <-]. rewrite app_length, IH, Hm. simpl length.
          destruct (Nat.eqb_spec ((t - 1) mod 20) 19); lia.
      + rewrite trailing_snoc, (trailing_other a b) by auto. cbn [Nat.sub].
        replace (match classify b with
                 | SPECIAL => if blank a && (a =? b) then trailing b (l ++ [b]) mod 20 =? 0
                              else isspace a || isspace b
                 | c => negb (eqb c SPECIAL) end) with true in E.
        * rewrite app_assoc in E. apply app_inj_tail in E as [_ <-]. reflexivity.
        * destruct (classify b); try reflexivity.
          destruct (Nat.eqb_spec a b); [congruence|]. rewrite andb_false_r.
          now rewrite (blank_space a Hb).
  Qed.

  (** Loop invariant: the tokens and the memory are the pieces of what was read. *)
  Definition run (l : text) : st := fold_left step l (mkSt [] INITIAL [] 0).

  Lemma classify_not_initial c : classify c <> INITIAL.
  Proof. unfold classify. destruct (isupper c), (islower c), (isdigit c); discriminate. Qed.

  Lemma step_state s c : state (step s c) = classify c.
  Proof.
    unfold step. match goal with |- state (let '(_, _) := ?e in _) = _ => destruct e end. reflexivity.
  Qed.
  Lemma step_prev s c : prev (step s c) = c.
  Proof.
    unfold step. match goal with |- prev (let '(_, _) := ?e in _) = _ => destruct e end. reflexivity.
  Qed.
  Lemma run_inv l a :
    pieces (cut (l ++ [a])) 0 (l ++ [a]) = toks (run (l ++ [a])) ++ [memory (run (l ++ [a]))] /\
    state (run (l ++ [a])) = classify a /\ prev (run (l ++ [a])) = a.
  Proof.
    revert a. induction l as [|b l IH] using rev_ind; intros a.
    - unfold run. cbn [app fold_left step toks state memory prev pieces]. unfold step.
      cbn [toks state memory prev].
      assert (mem (INITIAL, classify a) normal_transitions = false) as ->.
      { apply mem_false_iff. simpl. intuition congruence. }
      assert (eqb (INITIAL, classify a) (UPPER, LOWER) = false) as -> by (apply neq_eqb; congruence).
      assert (eqb (INITIAL, classify a) (SPECIAL, SPECIAL) = false) as -> by (apply neq_eqb; congruence).
      cbn. auto.
    - specialize (IH b). destruct IH as [E0 [Hs Hp]].
      set (s := run (l ++ [b])) in *.
      assert (Hrun : run ((l ++ [b]) ++ [a]) = step s a).
      { unfold s, run. now rewrite fold_left_app. }
      rewrite Hrun. clear Hrun. clearbody s. split; [|split; [apply step_state|apply step_prev]].
      assert (Hlen : length (l ++ [b]) = S (length l)) by (rewrite app_length; simpl; lia).
      unfold step. rewrite Hs, Hp.
      (* does the extension change an earlier cut? *)
      destruct (eqb (classify b, classify a) (UPPER, LOWER)) eqn:EUL.
      + apply eqb_eq in EUL. injection EUL as Hb Ha.
        assert (mem (classify b, classify a) normal_transitions = false) as ->.
        { apply mem_false_iff. rewrite Hb, Ha. simpl. intuition congruence. }
        cbn [andb].
        assert (Hlast : cut ((l ++ [b]) ++ [a]) (length (l ++ [b])) = false).
        { rewrite cut_snoc_new, Hb, Ha. reflexivity. }
        destruct l as [|d0 l0] using rev_ind.
        * (* a single character so far *)
          change ([[b]] = toks s ++ [memory s]) in E0.
          assert (toks s = [] /\ memory s = [b]) as [Ht Hm].
          { apply (app_inj_tail [] (toks s) [b] (memory s)) in E0. destruct E0; auto. }
          rewrite Ht, Hm. cbn [length Nat.ltb Nat.leb].
          assert (eqb (classify b, classify a) (SPECIAL, SPECIAL) = false) as ->.
          { apply neq_eqb. congruence. }
          cbn [toks memory app pieces].
          change (cut ([b] ++ [a]) 1 = false) in Hlast.
          change ([b; a]) with ([b] ++ [a]). rewrite Hlast. reflexivity.
        * clear IHl0. rename l0 into l1. set (l := l1 ++ [d0]) in *.
          (* pieces before [b] *)
          destruct (exists_last (l:=pieces (cut (l ++ [b])) 0 l)) as [qs [q E1]].
          { intros N. apply pieces_nil in N. now destruct l1. }
          pose proof (pieces_snoc _ b _ _ _ _ E1) as E2. rewrite Nat.add_0_l in E2.
          rewrite E0 in E2.
          assert (Hcut : cut (l ++ [b]) (length l) =
                    match classify d0 with UPPER => false | _ => true end).
          { unfold l. rewrite cut_snoc_new, Hb.
            pose proof (classify_not_initial d0). destruct (classify d0); try reflexivity. }
          assert (Hcut' : cut ((l ++ [b]) ++ [a]) (length l) = true).
          { unfold cut. rewrite !nth_error_app1 by (rewrite ?app_length; unfold l; rewrite ?app_length; simpl; lia).
            rewrite (nth_error_app2 l [b]) by lia. rewrite Nat.sub_diag. cbn [nth_error].
            assert (nth_error l (length l - 1) = Some d0) as ->.
            { unfold l. rewrite app_length. simpl. rewrite nth_error_app2 by lia.
              replace (length l1 + 1 - 1 - length l1) with 0 by lia. reflexivity. }
            replace (length l + 1) with (length (l ++ [b])) by lia.
            rewrite nth_error_app2, Nat.sub_diag by lia. cbn [nth_error].
            rewrite Hb, Ha, eqb_refl. destruct (classify d0); reflexivity. }
          assert (Hext : pieces (cut ((l ++ [b]) ++ [a])) 0 l = pieces (cut (l ++ [b])) 0 l).
          { apply pieces_ext. intros j Hj.
            destruct (cut_snoc_old (l ++ [b]) a j) as [H|[H _]]; try lia; auto. }
          assert (Ht1 := E1). rewrite <- Hext in Ht1.
          assert (Ht2 := pieces_snoc _ b _ _ _ _ Ht1). rewrite Nat.add_0_l, Hcut' in Ht2.
          rewrite app_assoc in Ht2.
          assert (Ht3 := pieces_snoc _ a _ _ _ _ Ht2). rewrite Nat.add_0_l, Hlast in Ht3.
          rewrite Ht3. rewrite Hcut in E2.
          assert (Hq : q <> []).
          { pose proof (pieces_nonempty (cut (l ++ [b])) l 0) as HF. rewrite E1 in HF.
            apply Forall_app in HF as [_ HF]. now inversion HF. }
          assert (eqb (classify b, classify a) (SPECIAL, SPECIAL) = false) as ->.
          { apply neq_eqb. congruence. }
          destruct (classify d0) eqn:Ed; try (rewrite app_assoc in E2);
            apply app_inj_tail in E2 as [Et Em]; rewrite Et, Em; cbn [length];
            try reflexivity.
          rewrite app_length. cbn [length].
          destruct (Nat.ltb_spec 1 (length q + 1)); [|destruct q; [congruence|simpl in *; lia]].
          cbn [toks memory app]. rewrite removelast_last, last_last. reflexivity.
      + assert (Hext : pieces (cut ((l ++ [b]) ++ [a])) 0 (l ++ [b])
                       = pieces (cut (l ++ [b])) 0 (l ++ [b])).
        { apply pieces_ext. intros j Hj.
          destruct (cut_snoc_old (l ++ [b]) a j) as [H|[Hj' [H1 H2]]]; try lia; auto.
          exfalso. rewrite Hj', Hlen in H2. rewrite Nat.sub_succ, Nat.sub_0_r in H2.
          rewrite (nth_error_app2 l [b] (n:=length l)) in H2 by lia.
          rewrite Nat.sub_diag in H2. cbn [nth_error] in H2.
          destruct (nth_error (l ++ [b]) (length l - 1)); [|contradiction].
          destruct H2 as [_ H2]. rewrite H1, H2 in EUL. discriminate. }
        assert (E1 := E0). rewrite <- Hext in E1.
        pose proof (pieces_snoc _ a _ _ _ _ E1) as E2. rewrite Nat.add_0_l, cut_snoc_new in E2.
        rewrite E2. clear E2. cbn [andb].
        destruct (eqb (classify b, classify a) (SPECIAL, SPECIAL)) eqn:ES.
        * apply eqb_eq in ES. injection ES as Hb Ha.
          assert (mem (classify b, classify a) normal_transitions = false) as ->.
          { apply mem_false_iff. rewrite Hb, Ha. simpl. intuition congruence. }
          rewrite Hb, Ha. destruct (blank a && (a =? b)) eqn:Eb.
          -- apply andb_true_iff in Eb as [Eb Eab]. apply Nat.eqb_eq in Eab. clear Hp. subst b.
             pose proof (last_piece_blank l a _ _ Eb Ha E0) as Hl. rewrite Hl.
             pose proof (trailing_pos a l) as Hpos. remember (trailing a (l ++ [a])) as t.
             assert (Hm : (t mod 20 =? 0) = (20 <=? (t - 1) mod 20 + 1)).
             { replace t with ((t - 1) + 1) at 1 by lia. rewrite Nat.add_mod by lia.
               change (1 mod 20) with 1.
               pose proof (Nat.mod_upper_bound (t - 1) 20 ltac:(lia)) as Hu.
               destruct (Nat.eq_dec ((t - 1) mod 20) 19) as [->|Hn]; [reflexivity|].
               rewrite Nat.mod_small by lia.
               destruct (Nat.eqb_spec ((t - 1) mod 20 + 1) 0), (Nat.leb_spec 20 ((t - 1) mod 20 + 1)); lia. }
             rewrite Hm. destruct (20 <=? (t - 1) mod 20 + 1); cbn [toks memory app];
               [now rewrite <- app_assoc|reflexivity].
          -- destruct (isspace a || isspace b); cbn [toks memory app];
               [now rewrite <- app_assoc|reflexivity].
        * pose proof (classify_not_initial a) as Na. pose proof (classify_not_initial b) as Nb.
          destruct (classify b), (classify a); try congruence; try discriminate;
            cbn [toks memory app]; try reflexivity;
            change (mem _ normal_transitions) with true; cbv iota; cbn [toks memory app];
            now rewrite <- app_assoc.
  Qed.

  Lemma tokens_pieces code : code_to_tokens code = pieces (cut code) 0 code.
  Proof.
    destruct code as [|a l] using rev_ind; [reflexivity|]. clear IHl.
    destruct (run_inv l a) as [E [_ _]]. unfold code_to_tokens. fold (run (l ++ [a])).
    destruct (memory (run (l ++ [a]))) eqn:Em; [|now rewrite E].
    exfalso. pose proof (pieces_nonempty (cut (l ++ [a])) (l ++ [a]) 0) as HF. rewrite E in HF.
    apply Forall_app in HF as [_ HF]. now inversion HF.
  Qed.

End Sub.

(** The tokens spell the text and none is empty, whatever the predicates say. *)
Lemma tokens_concat isupper islower isdigit isspace code :
  concat (code_to_tokens isupper islower isdigit isspace code) = code.
Proof.
  unfold code_to_tokens.
  assert (G : forall l s, (memory s <> [] \/ state s = INITIAL) ->
     let s' := fold_left (step isupper islower isdigit isspace) l s in
     concat (toks s') ++ memory s' = concat (toks s) ++ memory s ++ l).
  { induction l as [|c l IH]; intros s Hs; simpl; [now rewrite app_nil_r|].
    set (s1 := step isupper islower isdigit isspace s c).
    assert (H1 : memory s1 <> [] /\ concat (toks s1) ++ memory s1 = concat (toks s) ++ memory s ++ [c]).
    { unfold s1, step. destruct (mem _ _) eqn:Em.
      - cbn [toks memory app]. split; [discriminate|]. rewrite concat_app. cbn [concat]. now rewrite app_nil_r, <- !app_assoc.
      - destruct (_ && _) eqn:Eu.
        + cbn [toks memory app]. split; [discriminate|]. rewrite concat_app, <- !app_assoc.
          cbn [concat app]. rewrite app_nil_r. f_equal.
          change [last (memory s) 0; c] with ([last (memory s) 0] ++ [c]). rewrite app_assoc.
          rewrite <- app_removelast_last; auto. intros N. rewrite N in Eu.
          rewrite andb_false_r in Eu. discriminate.
        + assert (Hsplit : forall (b : bool), let '(t', m') := (if b then (toks s ++ [memory s], []) else (toks s, memory s)) in
             m' ++ [c] <> [] /\ concat t' ++ m' ++ [c] = concat (toks s) ++ memory s ++ [c]).
          { intros [|]; cbn [app]; split; try discriminate; try reflexivity.
            - rewrite concat_app. cbn [concat]. now rewrite app_nil_r, <- !app_assoc.
            - now destruct (memory s). }
          assert (Hkeep := Hsplit false). cbv iota in Hkeep.
          repeat match goal with |- context[if ?x then _ else _] => destruct x end;
            cbn [toks memory]; try exact Hkeep; exact (Hsplit true). }
    destruct H1 as [Hn He]. rewrite IH by auto.
    rewrite app_assoc, He, <- !app_assoc. reflexivity. }
  specialize (G code (mkSt [] INITIAL [] 0) ltac:(right; reflexivity)). cbv zeta in G. cbn [toks memory concat app] in G.
  destruct (memory _) eqn:Em in |- *.
  - rewrite Em, app_nil_r in G. exact G.
  - rewrite concat_app. cbn [concat]. rewrite app_nil_r, <- Em. exact G.
Qed.
