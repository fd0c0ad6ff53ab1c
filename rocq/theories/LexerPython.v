(** Lexing Python text again after brackets were put around it gives the same
    tokens: what [parse_and_maybe_preprocess] relies on when it encodes the
    joined tokens a second time (stack_parser.py:1057-1058). *)

From Coq Require Import List Bool Arith Lia.
From Verif Require Import Base SeqNodes Subtokenizer StackParser PseudoParse Lexer LexerProofs.
Import ListNotations.

Lemma run_stop p u w : p 10 = false -> run p (u ++ 10 :: w) = run p u.
Proof.
  intros H. induction u as [|c u IH]; cbn [app run]; [now rewrite H|]. now destruct (p c); rewrite ?IH.
Qed.
Lemma starts_with_stop q u w : ~ In 10 q -> starts_with q (u ++ 10 :: w) = starts_with q u.
Proof.
  revert u. induction q as [|x q IH]; intros u H; auto. cbn [starts_with]. destruct u as [|y u]; cbn [app].
  - rewrite (proj2 (Nat.eqb_neq x 10)); auto. intros ->. apply H. now left.
  - rewrite IH; auto. intros C. apply H. now right.
Qed.
Lemma skipn_stop n (u w : text) : n <= length u -> skipn n (u ++ w) = skipn n u ++ w.
Proof. intros H. rewrite skipn_app. replace (n - length u) with 0 by lia. reflexivity. Qed.

(** Without a closing quote there is no string. *)
Lemma close_none q l : q <> [] -> (forall c, In c q -> ~ In c l) -> forall n prev, close q n prev l = None.
Proof.
  intros Hq Hl n. revert l Hl. induction n as [|n IH]; intros l Hl prev; auto. cbn [close].
  destruct q as [|x q]; [contradiction|].
  assert (Hs : forall l, (forall c, In c (x :: q) -> ~ In c l) -> starts_with (x :: q) l = false).
  { intros l' H'. destruct (starts_with (x :: q) l') eqn:E; auto. apply starts_with_iff in E as [r ->]. exfalso. apply (H' x); now left. }
  rewrite Hs by auto. destruct l as [|c l]; auto.
  assert (Hl' : forall c, In c (x :: q) -> ~ In c l) by (intros d Hd C; apply (Hl d Hd); now right).
  rewrite (Hs l) by auto. rewrite andb_false_r. rewrite IH by auto. reflexivity.
Qed.
Lemma close_nil q n prev : q <> [] -> close q n prev [] = None.
Proof. intros H. apply close_none; auto. Qed.
Lemma close_fuel q n : forall n' prev l, length l < n -> length l < n' -> q <> [] -> close q n prev l = close q n' prev l.
Proof.
  induction n as [|n IH]; intros n' prev l H1 H2 Hq; [lia|]. destruct n' as [|n']; [lia|]. cbn [close].
  destruct (starts_with q l); auto. destruct l as [|c l]; auto. cbn [length] in *. rewrite (IH n' c l) by (auto; lia).
  rewrite (IH n' (last q 0) (skipn (length q) l)) by (auto; rewrite skipn_length; lia). reflexivity.
Qed.
Lemma close_stop q w : q <> [] -> ~ In 10 q -> (forall c, In c q -> ~ In c w) ->
  forall n u prev, length (u ++ 10 :: w) < n -> close q n prev (u ++ 10 :: w) = close q n prev (u ++ [10]).
Proof.
  intros Hq H10 Hw. induction n as [|n IH]; intros u prev Hn; [lia|]. cbn [close].
  rewrite !starts_with_stop by auto. destruct (starts_with q u); auto. destruct u as [|c u]; cbn [app].
  - destruct q as [|x q]; [contradiction|].
    rewrite (close_none (x :: q) w Hq Hw), close_nil by exact Hq.
    assert (Hs : starts_with (x :: q) w = false).
    { destruct (starts_with (x :: q) w) eqn:E; auto. apply starts_with_iff in E as [r ->]. exfalso. apply (Hw x); now left. }
    rewrite Hs. change (starts_with (x :: q) []) with false. rewrite !andb_false_r. now rewrite ?close_nil by exact Hq.
  - rewrite !starts_with_stop by auto. rewrite IH by (cbn [length app] in Hn; lia).
    destruct (starts_with q u) eqn:Hs; [|now rewrite !andb_false_r]. apply starts_with_iff in Hs as [v ->].
    assert (Hz : forall z, skipn (length q) ((q ++ v) ++ z) = v ++ z)
      by (intros z; now rewrite <- app_assoc, skipn_app, Nat.sub_diag, skipn_all).
    rewrite !Hz.
    rewrite IH by (rewrite !app_length in *; cbn [length] in *; rewrite ?app_length in *; lia). reflexivity.
Qed.
Lemma close_short q : q <> [] -> ~ In 10 q -> forall n u prev x, close q n prev (u ++ [10]) = Some x -> x <= length u.
Proof.
  intros Hq H10. induction n as [|n IH]; intros u prev x; cbn [close]; [discriminate|].
  rewrite starts_with_stop by auto. destruct (starts_with q u) eqn:Hs.
  { intros [= <-]. apply starts_with_iff in Hs as [v ->]. rewrite app_length. lia. }
  destruct u as [|c u]; cbn [app].
  - rewrite close_nil by auto. destruct q; [contradiction|]. cbn [starts_with]. now rewrite andb_false_r.
  - rewrite starts_with_stop by auto. cbn [length].
    match goal with |- match ?X with _ => _ end = _ -> _ => destruct X as [y|] eqn:Ey end.
    + intros [= <-]. destruct (negb _ && _ && starts_with q u) eqn:Hc; [|discriminate].
      apply andb_prop in Hc as [_ Hc]. apply starts_with_iff in Hc as [w ->]. rewrite skipn_stop in Ey by (rewrite app_length; lia).
      rewrite skipn_app, Nat.sub_diag, skipn_all in Ey. cbn [app skipn] in Ey.
      destruct (close q n _ _) as [z|] eqn:Ez; [|discriminate]. injection Ey as <-. apply IH in Ez. rewrite app_length. lia.
    + destruct (close q n c _) as [z|] eqn:Ez; [|discriminate]. intros [= <-]. apply IH in Ez. lia.
Qed.
Lemma opening_stop q u w : q <> [] -> ~ In 10 q -> (forall c, In c q -> ~ In c w) ->
  opening q (u ++ 10 :: w) = opening q (u ++ [10]).
Proof.
  intros Hq H10 Hw. unfold opening. rewrite !starts_with_stop by auto. destruct (starts_with q u) eqn:Hs; auto.
  apply starts_with_iff in Hs as [v ->]. 
  assert (Hz : forall z, skipn (length q) ((q ++ v) ++ z) = v ++ z)
    by (intros z; now rewrite <- app_assoc, skipn_app, Nat.sub_diag, skipn_all).
  rewrite !Hz. rewrite close_stop by auto.
  rewrite (close_fuel q _ (S (length (v ++ [10])))); auto. rewrite !app_length. cbn [length]. lia.
Qed.
Lemma string_length_stop u w : Forall (fun c => quote c = false) w -> string_length (u ++ 10 :: w) = string_length (u ++ [10]).
Proof.
  intros Hw. assert (G : forall q, q <> [] -> Forall (fun c => quote c = true) q -> opening q (u ++ 10 :: w) = opening q (u ++ [10])).
  { intros q Hq HF. rewrite Forall_forall in HF, Hw. apply opening_stop; auto.
    - intros C. apply HF in C. discriminate.
    - intros c Hc C. apply HF in Hc. apply Hw in C. congruence. }
  unfold string_length. rewrite !G; auto; try discriminate; repeat constructor.
Qed.

Section Relex.
  Variable digit : nat -> bool.
  Hypothesis digit_ascii : forall c, c < 128 -> digit c = (48 <=? c) && (c <=? 57).

  Lemma basic_length_stop u w : basic_length digit (u ++ 10 :: w) = basic_length digit (u ++ [10]).
  Proof.
    assert (Hd : digit 10 = false) by (rewrite digit_ascii by lia; reflexivity).
    unfold basic_length. destruct u as [|c u]; cbn [app]; [now rewrite Hd|].
    change (c :: u ++ 10 :: w) with ((c :: u) ++ 10 :: w). change (c :: u ++ [10]) with ((c :: u) ++ [10]).
    rewrite !(run_stop digit), !(run_stop ident), !(run_stop (Nat.eqb 32)) by auto.
    destruct (digit c); auto. cbv zeta. rewrite !skipn_stop by apply run_length.
    destruct (skipn _ (c :: u)) as [|d v]; cbn [app]; auto. rewrite !(run_stop digit) by auto. reflexivity.
  Qed.
  Lemma python_length_stop u w : Forall (fun c => quote c = false) w ->
    python_length digit (u ++ 10 :: w) = python_length digit (u ++ [10]).
  Proof.
    intros Hw. unfold python_length. rewrite string_length_stop by auto. destruct (string_length _); auto.
    rewrite basic_length_stop. destruct u as [|c u]; cbn [app]; auto. rewrite !run_stop by auto. reflexivity.
  Qed.

  Lemma python_length_short c u : python_length digit (c :: u ++ [10]) <= length (c :: u).
  Proof.
    assert (Hd : digit 10 = false) by (rewrite digit_ascii by lia; reflexivity).
    unfold python_length. destruct (string_length (c :: u ++ [10])) as [x|] eqn:E.
    - assert (G : forall q, q <> [] -> ~ In 10 q -> opening q ((c :: u) ++ [10]) = Some x -> x <= length (c :: u)).
      { intros q Hq H10. unfold opening. rewrite starts_with_stop by auto. destruct (starts_with q (c :: u)) eqn:Hs; [|discriminate].
        apply starts_with_iff in Hs as [v ->]. rewrite skipn_stop by (rewrite app_length; lia). rewrite skipn_app, Nat.sub_diag, skipn_all. cbn [app skipn].
        destruct (close _ _ _ _) as [y|] eqn:Ey; [|discriminate]. intros [= <-]. apply close_short in Ey; auto. rewrite app_length. lia. }
      unfold string_length in E. change (c :: u ++ [10]) with ((c :: u) ++ [10]) in E.
      destruct (opening [34; 34; 34] _) as [y|] eqn:E1; [injection E as ->; eapply G; [| |exact E1]; cbn; [discriminate|lia]|].
      destruct (opening [39; 39; 39] _) as [y|] eqn:E2; [injection E as ->; eapply G; [| |exact E2]; cbn; [discriminate|lia]|].
      destruct (opening [34] _) as [y|] eqn:E3; [injection E as ->; eapply G; [| |exact E3]; cbn; [discriminate|lia]|].
      eapply G; [| |exact E]; cbn; [discriminate|lia].
    - destruct (c =? 35); [rewrite run_stop by auto; pose proof (run_length (fun x => negb (existsb (Nat.eqb x) [10])) u); cbn [length]; lia|].
      unfold basic_length. change (c :: u ++ [10]) with ((c :: u) ++ [10]).
      rewrite !(run_stop digit), !(run_stop ident), !(run_stop (Nat.eqb 32)) by auto.
      pose proof (run_length digit (c :: u)) as R. rewrite skipn_stop by auto. cbv zeta.
      destruct (digit c); [|destruct (ident c); [apply run_length|destruct (c =? 32); [apply run_length|cbn [length]; lia]]].
      destruct (skipn _ (c :: u)) as [|d v] eqn:Es; cbn [app]; [exact R|].
      destruct (d =? 46); auto. rewrite run_stop by auto. pose proof (run_length digit v) as Rv.
      assert (L : length (skipn (length (run digit (c :: u))) (c :: u)) = S (length v)) by now rewrite Es.
      rewrite skipn_length in L. lia.
  Qed.

  (** The token texts. *)
  Fixpoint cut (fuel : nat) (l : text) : list text :=
    match fuel, l with
    | S fuel', _ :: _ => firstn (python_length digit l) l :: cut fuel' (skipn (python_length digit l) l)
    | _, _ => []
    end.
  Lemma python_length_bound c r : 1 <= python_length digit (c :: r) <= length (c :: r).
  Proof. now destruct (python_match digit digit_ascii (mkSpot [] (c :: r) []) c r eq_refl) as [s' [_ [_ H]]]. Qed.
  Lemma find_all_cut fuel : forall before l, length l <= fuel ->
    map fst (find_all (number_spec (specification digit Python_preprocessor) 1) fuel before l) = cut fuel l.
  Proof.
    induction fuel as [|fuel IH]; intros before l Hf; auto. cbn [find_all cut]. destruct l as [|c r]; auto.
    destruct (python_match digit digit_ascii (mkSpot before (c :: r) []) c r eq_refl) as [s' [E [[P1 P2] B]]].
    rewrite E. unfold advance in P2. cbn [ahead] in P2.
    set (n := python_length digit (c :: r)) in *. assert (La : length (ahead s') = length (c :: r) - n) by (rewrite P2; apply skipn_length).
    rewrite (proj2 (Nat.ltb_lt _ _)) by lia. replace (length (c :: r) - length (ahead s')) with n by lia.
    cbn [map fst]. rewrite IH by lia. now rewrite P2.
  Qed.
  Lemma cut_fuel f : forall f' l, length l <= f -> length l <= f' -> cut f l = cut f' l.
  Proof.
    induction f as [|f IH]; intros f' l H1 H2.
    - destruct l; [|cbn in H1; lia]. now destruct f'.
    - destruct f' as [|f']; [destruct l; [auto|cbn in H2; lia]|]. cbn [cut]. destruct l as [|c r]; auto. f_equal.
      pose proof (python_length_bound c r). apply IH; rewrite skipn_length; lia.
  Qed.
  Definition tokens_of (l : text) : list text := cut (length l) l.
  Lemma tokens_of_lex code : map fst (preset_lex digit Python_preprocessor code) = tokens_of code.
  Proof. unfold preset_lex, finditer. now apply find_all_cut. Qed.
  Lemma tokens_of_cons c r : tokens_of (c :: r) =
    firstn (python_length digit (c :: r)) (c :: r) :: tokens_of (skipn (python_length digit (c :: r)) (c :: r)).
  Proof.
    unfold tokens_of. cbn [length cut]. f_equal. pose proof (python_length_bound c r).
    apply cut_fuel; rewrite skipn_length; cbn [length] in *; lia.
  Qed.

  Lemma tokens_of_stop n : forall u w, length u < n -> Forall (fun c => quote c = false) w ->
    tokens_of (u ++ 10 :: w) = tokens_of (u ++ [10]) ++ tokens_of w.
  Proof.
    induction n as [|n IH]; intros u w Hn Hw; [lia|].
    destruct u as [|c u].
    - cbn [app]. rewrite !tokens_of_cons. pose proof (python_length_stop [] w Hw) as E. cbn [app] in E. rewrite E.
      pose proof (python_length_bound 10 []) as B. cbn [length] in B. replace (python_length digit [10]) with 1 by lia. reflexivity.
    - change ((c :: u) ++ 10 :: w) with (c :: u ++ 10 :: w). change ((c :: u) ++ [10]) with (c :: u ++ [10]).
      rewrite !tokens_of_cons. change (c :: u ++ 10 :: w) with ((c :: u) ++ 10 :: w). change (c :: u ++ [10]) with ((c :: u) ++ [10]).
      rewrite python_length_stop by auto. pose proof (python_length_bound c (u ++ [10])) as B. change (c :: u ++ [10]) with ((c :: u) ++ [10]) in B.
      set (k := python_length digit ((c :: u) ++ [10])) in *. rewrite app_length in B. cbn [length] in B, Hn.
      destruct (le_lt_dec k (length (c :: u))) as [Hk|Hk].
      + rewrite !skipn_stop by auto. rewrite IH by (auto; rewrite skipn_length; cbn [length]; lia).
        rewrite !firstn_app. replace (k - length (c :: u)) with 0 by lia. reflexivity.
      + cbn [length] in Hk. replace k with (length ((c :: u) ++ [10])) by (rewrite app_length; cbn [length]; lia).
        replace ((c :: u) ++ 10 :: w) with (((c :: u) ++ [10]) ++ w) by now rewrite <- app_assoc.
        rewrite skipn_app, Nat.sub_diag, skipn_all, firstn_all.
        rewrite <- (Nat.add_0_r (length _)), firstn_app_2, firstn_O, app_nil_r. reflexivity.
  Qed.

  (** A token that begins with a blank is all blanks; one that begins with the letter d
      has none. *)
  Lemma tokens_of_blank l : forall t, In t (tokens_of l) -> forall c t', t = c :: t' ->
    (c = 32 -> Forall (fun x => x = 32) t) /\ (c = 100 -> ~ In 32 t).
  Proof.
    assert (K : forall n l, length l <= n -> forall t, In t (tokens_of l) -> forall c t', t = c :: t' ->
      (c = 32 -> Forall (fun x => x = 32) t) /\ (c = 100 -> ~ In 32 t)); [|intros; eapply (K (length l)); eauto].
    induction n as [|n IH]; intros l0 Hl t Hi c t' Et.
    - destruct l0; [destruct Hi|cbn in Hl; lia].
    - destruct l0 as [|x r]; [destruct Hi|]. rewrite tokens_of_cons in Hi. pose proof (python_length_bound x r) as B. cbn [length] in Hl.
      destruct Hi as [<-|Hi]; [|eapply IH; [|exact Hi|exact Et]; rewrite skipn_length; cbn [length]; lia].
      destruct (python_length digit (x :: r)) as [|k] eqn:El; [lia|]. cbn [firstn] in Et. injection Et as -> Et.
      assert (Run : forall p, p c = true -> python_length digit (c :: r) = length (run p (c :: r)) -> Forall (fun y => p y = true) (firstn (S k) (c :: r))).
      { intros p Hp E. rewrite <- El, E, run_firstn. clear. generalize (c :: r) as w. induction w as [|y w IHw]; cbn [run]; [constructor|].
        destruct (p y) eqn:Ep; constructor; auto. }
      split; intros ->.
      + specialize (Run (Nat.eqb 32) eq_refl). assert (Forall (fun y => Nat.eqb 32 y = true) (firstn (S k) (32 :: r))) as F.
        { apply Run. unfold python_length. destruct (string_length (32 :: r)) as [y|] eqn:E; [apply string_length_bound in E as [_ E]; discriminate|].
          change (32 =? 35) with false. cbv iota. unfold basic_length. rewrite digit_ascii by lia. reflexivity. }
        eapply Forall_impl; [|exact F]. cbn beta. intros y Hy. apply Nat.eqb_eq in Hy. auto.
      + specialize (Run ident eq_refl). assert (Forall (fun y => ident y = true) (firstn (S k) (100 :: r))) as F.
        { apply Run. unfold python_length. destruct (string_length (100 :: r)) as [y|] eqn:E; [apply string_length_bound in E as [_ E]; discriminate|].
          change (100 =? 35) with false. cbv iota. unfold basic_length. rewrite digit_ascii by lia. reflexivity. }
        intros C. rewrite Forall_forall in F. specialize (F _ C). discriminate.
  Qed.

  (** Brackets and newlines are tokens of their own. *)
  Definition lone (c : nat) : Prop := In c [40; 41; 91; 93; 123; 125; 10].
  Lemma lone_length c r : lone c -> python_length digit (c :: r) = 1.
  Proof.
    intros H. assert (Hq : quote c = false) by (unfold lone in H; cbn in H; intuition (subst; reflexivity)).
    unfold python_length. destruct (string_length (c :: r)) as [x|] eqn:E.
    - apply string_length_bound in E as [_ E]. congruence.
    - unfold basic_length. assert (c < 128) by (unfold lone in H; cbn in H; lia). rewrite digit_ascii by auto.
      unfold lone in H; cbn in H. decompose [or] H; subst; try contradiction; reflexivity.
  Qed.
  Lemma tokens_of_lone l r : Forall lone l -> tokens_of (l ++ r) = map (fun c => [c]) l ++ tokens_of r.
  Proof.
    induction l as [|c l IH]; intros H; auto. inversion H; subst. cbn [app]. rewrite tokens_of_cons, lone_length by auto.
    cbn [firstn skipn map app]. f_equal. auto.
  Qed.
  Theorem relex pre u suf : Forall lone pre -> Forall lone suf ->
    map fst (preset_lex digit Python_preprocessor (pre ++ (u ++ [10]) ++ suf)) =
    map (fun c => [c]) pre ++ map fst (preset_lex digit Python_preprocessor (u ++ [10])) ++ map (fun c => [c]) suf.
  Proof.
    intros Hp Hs. rewrite !tokens_of_lex, tokens_of_lone by auto. f_equal.
    rewrite <- app_assoc. cbn [app]. rewrite (tokens_of_stop (S (length u))); auto.
    - f_equal. rewrite <- (app_nil_r suf) at 1. rewrite tokens_of_lone by auto. now rewrite app_nil_r.
    - eapply Forall_impl; [|exact Hs]. unfold lone. intros c H. cbn in H. intuition (subst; reflexivity).
  Qed.
  (** The final newline is the last token. *)
  Theorem last_token u : exists ts, map fst (preset_lex digit Python_preprocessor (u ++ [10])) = ts ++ [[10]].
  Proof.
    rewrite tokens_of_lex. assert (G : forall n u, length u < n -> exists ts, tokens_of (u ++ [10]) = ts ++ [[10]]).
    { clear u. induction n as [|n IH]; intros u Hn; [lia|]. destruct u as [|c u].
      - exists []. cbn [app]. change [10] with ([10] ++ []) at 1. rewrite tokens_of_lone; [reflexivity|]. constructor; [unfold lone; cbn; tauto|constructor].
      - change ((c :: u) ++ [10]) with (c :: u ++ [10]). rewrite tokens_of_cons. pose proof (python_length_bound c (u ++ [10])) as B.
        set (k := python_length digit (c :: u ++ [10])) in *.
        destruct (le_lt_dec k (length (c :: u))) as [Hk|Hk].
        + change (c :: u ++ [10]) with ((c :: u) ++ [10]). rewrite skipn_stop by auto.
          destruct (IH (skipn k (c :: u))) as [ts ->]; [rewrite skipn_length; cbn [length] in *; lia|].
          exists (firstn k ((c :: u) ++ [10]) :: ts). reflexivity.
        + exfalso. pose proof (python_length_short c u). subst k. lia. }
    destruct (G (S (length u)) u) as [ts ->]; eauto.
  Qed.
End Relex.
