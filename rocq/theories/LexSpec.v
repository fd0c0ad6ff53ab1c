(** How the plain presets cut a text into tokens, said without regular
    expressions. *)

From Coq Require Import List Bool Arith Lia.
From Verif Require Import Base SeqNodes Subtokenizer StackParser PseudoParse Lexer LexerProofs.
Import ListNotations.

(** [A-Za-z0-9_] *)
Definition name_char (c : nat) : Prop :=
  65 <= c <= 90 \/ 97 <= c <= 122 \/ 48 <= c <= 57 \/ c = 95.
(** The tokens of one character. *)
Inductive symbol : nat -> ttype -> Prop :=
| sy_op c : In c [43; 45; 42; 47] -> symbol c TOp
| sy_punc c : In c [44; 46; 59; 58; 61; 62; 60] -> symbol c TPunc
| sy_brace c : In c [40; 41; 91; 93; 123; 125] -> symbol c TBrace
| sy_newline : symbol 10 TNewline
| sy_tab : symbol 9 TTab.
(** [r] does not begin with a character of the class. *)
Definition stops (p : nat -> Prop) (r : text) : Prop := match r with [] => True | c :: _ => ~ p c end.

Section Scan.
  Variable decimal : nat -> Prop.  (** decimal digits of Unicode *)

  (** [scanned code ts]: from left to right, always the longest number, name or run
      of blanks; every other character by itself. *)
  Inductive scanned : text -> list (text * ttype) -> Prop :=
  | sc_end : scanned [] []
  | sc_whole ds r ts : ds <> [] -> Forall decimal ds -> stops decimal r -> stops (eq 46) r ->
      scanned r ts -> scanned (ds ++ r) ((ds, TNumber) :: ts)
  | sc_fraction ds fs r ts : ds <> [] -> Forall decimal ds -> Forall decimal fs -> stops decimal r ->
      scanned r ts -> scanned ((ds ++ 46 :: fs) ++ r) ((ds ++ 46 :: fs, TNumber) :: ts)
  | sc_name c w r ts : ~ decimal c -> name_char c -> Forall name_char w -> stops name_char r ->
      scanned r ts -> scanned ((c :: w) ++ r) ((c :: w, TId) :: ts)
  | sc_blanks c w r ts : c = 32 -> Forall (eq 32) w -> stops (eq 32) r ->
      scanned r ts -> scanned ((c :: w) ++ r) ((c :: w, TWhiteSpace) :: ts)
  | sc_symbol c k r ts : symbol c k -> scanned r ts -> scanned ([c] ++ r) (([c], k) :: ts)
  | sc_other c r ts : ~ decimal c -> ~ name_char c -> c <> 32 -> (forall k, ~ symbol c k) ->
      scanned r ts -> scanned ([c] ++ r) (([c], TOther) :: ts).
End Scan.

Section Proofs.
  Variable digit : nat -> bool.
  Hypothesis digit_ascii : forall c, c < 128 -> digit c = (48 <=? c) && (c <=? 57).
  Definition decimal_of (c : nat) : Prop := digit c = true.
  Notation dec := decimal_of.

  Lemma ident_iff c : ident c = true <-> name_char c.
  Proof.
    unfold ident, name_char. rewrite !orb_true_iff, !andb_true_iff, !Nat.leb_le, Nat.eqb_eq. tauto.
  Qed.
  Lemma existsb_In c l : existsb (Nat.eqb c) l = true <-> In c l.
  Proof.
    rewrite existsb_exists. split; [intros [x [Hx E]]; apply Nat.eqb_eq in E; now subst|intros H; exists c; split; auto; apply Nat.eqb_refl].
  Qed.
  Lemma symbol_small c k : symbol c k -> c < 128 /\ ~ name_char c /\ c <> 32 /\ digit c = false.
  Proof using digit_ascii.
    intros H. assert (S : In c [43; 45; 42; 47; 44; 46; 59; 58; 61; 62; 60; 40; 41; 91; 93; 123; 125; 10; 9]) by (inversion H; subst; cbn in *; tauto).
    assert (B : c < 128) by (cbn in S; lia). unfold name_char. rewrite digit_ascii by auto. splits; auto; cbn in S.
    - intuition lia.
    - lia.
    - intuition (subst; reflexivity).
  Qed.
  Lemma symbol_kind c k : symbol c k -> kind digit c = k.
  Proof using digit_ascii.
    intros H. pose proof (symbol_small c k H) as [_ [Hn [_ Hd]]]. unfold kind. rewrite Hd.
    destruct (ident c) eqn:Ei; [apply ident_iff in Ei; contradiction|].
    inversion H; subst; try reflexivity; cbn in H0; intuition (subst; reflexivity).
  Qed.
  Lemma kind_symbol c : digit c = false -> ident c = false -> c <> 32 ->
    symbol c (kind digit c) \/ (kind digit c = TOther /\ forall k, ~ symbol c k).
  Proof.
    intros Hd Hi Hs. unfold kind. rewrite Hd, Hi.
    destruct (existsb _ [43; 45; 42; 47]) eqn:E1; [left; constructor; now apply existsb_In|].
    destruct (existsb _ [44; 46; 59; 58; 61; 62; 60]) eqn:E2; [left; constructor; now apply existsb_In|].
    destruct (existsb _ [40; 41; 91; 93; 123; 125]) eqn:E3; [left; constructor; now apply existsb_In|].
    destruct (c =? 10) eqn:E4; [apply Nat.eqb_eq in E4; subst; left; constructor|].
    destruct (c =? 9) eqn:E5; [apply Nat.eqb_eq in E5; subst; left; constructor|].
    destruct (c =? 32) eqn:E6; [apply Nat.eqb_eq in E6; contradiction|]. right. split; auto. intros k K.
    inversion K; subst; try (apply existsb_In in H; congruence); discriminate.
  Qed.

  Lemma run_all (p : nat -> bool) t r : Forall (fun c => p c = true) t -> stops (fun c => p c = true) r -> run p (t ++ r) = t.
  Proof.
    induction 1 as [|c t Hc F IH]; cbn [app run].
    - destruct r as [|d r]; auto. cbn. intros H. destruct (p d); [contradiction|auto].
    - intros H. now rewrite Hc, IH.
  Qed.
  Lemma run_sat (p : nat -> bool) l : Forall (fun c => p c = true) (run p l).
  Proof. induction l as [|c l IH]; cbn [run]; [constructor|]. destruct (p c) eqn:E; constructor; auto. Qed.
  Lemma run_stops (p : nat -> bool) l : stops (fun c => p c = true) (skipn (length (run p l)) l).
  Proof.
    induction l as [|c l IH]; cbn [run]; [exact I|]. destruct (p c) eqn:E; cbn [length skipn]; auto. cbn. congruence.
  Qed.
  Lemma stops_ext (p q : nat -> Prop) r : (forall c, p c <-> q c) -> stops p r -> stops q r.
  Proof. intros H. destruct r as [|c r]; auto. cbn. rewrite H. auto. Qed.

  (** One token of the basic expressions. *)
  Lemma one_token (t : text) k r ts : t <> [] ->
    (forall c w, t ++ r = c :: w -> kind digit c = k /\ basic_length digit (t ++ r) = length t) ->
    (forall fuel before, length r <= fuel -> find_all (number_spec (specification digit Simple) 1) fuel before r = ts) ->
    forall fuel before, length (t ++ r) <= fuel ->
      find_all (number_spec (specification digit Simple) 1) fuel before (t ++ r) = (t, k) :: ts.
  Proof using digit_ascii.
    intros Ht Hk IH fuel before Hf. destruct t as [|c t]; [contradiction|]. cbn [app length] in *.
    destruct fuel as [|fuel]; [lia|]. cbn [find_all specification].
    destruct (basic_match digit 1 c (t ++ r) (mkSpot before (c :: t ++ r) []) eq_refl) as [s' [E [P1 P2]]].
    destruct (Hk c (t ++ r) eq_refl) as [Hk1 Hk2]. rewrite E, Hk1. unfold advance in P2. cbn [ahead] in P2. rewrite Hk2 in P2.
    cbn [skipn] in P2. rewrite skipn_app, skipn_all, Nat.sub_diag in P2. cbn [app skipn] in P2. rewrite P2.
    cbn [length]. rewrite app_length in *. rewrite (proj2 (Nat.ltb_lt _ _)) by lia.
    replace (S (length t + length r) - length r) with (S (length t)) by lia. cbn [firstn].
    rewrite firstn_app, firstn_all, Nat.sub_diag, app_nil_r. f_equal. apply IH. lia.
  Qed.

  Theorem scanned_lex code ts : scanned dec code ts ->
    forall fuel before, length code <= fuel -> find_all (number_spec (specification digit Simple) 1) fuel before code = ts.
  Proof using digit_ascii.
    induction 1 as [|ds r ts H1 H2 H3 H4 H5 IH|ds fs r ts H1 H2 H2' H3 H5 IH|c w r ts H1 H2 H3 H4 H5 IH|c w r ts H1 H2 H3 H5 IH|c k r ts H1 H5 IH|c r ts H1 H2 H3 H4 H5 IH].
    - intros [|fuel] before _; reflexivity.
    - apply one_token; auto. intros c w E. destruct ds as [|d ds]; [contradiction|]. cbn [app] in E. injection E as <- <-.
      inversion H2 as [|? ? D1 D2]; subst. unfold dec in D1. split; [unfold kind; now rewrite D1|].
      unfold basic_length. cbn [app]. rewrite D1. change (d :: ds ++ r) with ((d :: ds) ++ r).
      rewrite run_all by auto. rewrite skipn_app, skipn_all, Nat.sub_diag. cbn [app skipn]. destruct r as [|x r]; auto.
      cbn [stops] in H4. rewrite (proj2 (Nat.eqb_neq x 46)) by auto. reflexivity.
    - apply one_token; auto; [intros C; apply app_eq_nil in C as [C _]; contradiction|].
      intros c w E. destruct ds as [|d ds]; [contradiction|]. cbn [app] in E. injection E as <- <-.
      inversion H2 as [|? ? D1 D2]; subst. unfold dec in D1. split; [unfold kind; now rewrite D1|].
      unfold basic_length. cbn [app]. rewrite D1. change (d :: (ds ++ 46 :: fs) ++ r) with (((d :: ds) ++ 46 :: fs) ++ r).
      rewrite <- app_assoc. cbn [app]. change (d :: ds ++ 46 :: fs ++ r) with ((d :: ds) ++ 46 :: fs ++ r).
      rewrite run_all; [|auto|cbn; rewrite digit_ascii by lia; discriminate].
      rewrite skipn_app, skipn_all, Nat.sub_diag. cbn [app skipn]. rewrite Nat.eqb_refl, run_all by auto.
      cbn [length]. rewrite app_length. cbn [length]. lia.
    - apply one_token; auto; [discriminate|]. intros c' w' E. cbn [app] in E. injection E as <- <-.
      assert (Hd : digit c = false) by (destruct (digit c) eqn:E; auto; exfalso; now apply H1). apply ident_iff in H2.
      split; [unfold kind; now rewrite Hd, H2|]. unfold basic_length. cbn [app]. rewrite Hd, H2.
      change (c :: w ++ r) with ((c :: w) ++ r). rewrite run_all; auto.
      + constructor; auto. eapply Forall_impl; [|exact H3]. intros a. apply ident_iff.
      + eapply stops_ext; [|exact H4]. intros a. symmetry. apply ident_iff.
    - subst c. apply one_token; auto; [discriminate|]. intros c' w' E. cbn [app] in E. injection E as <- <-.
      assert (Hd : digit 32 = false) by (now rewrite digit_ascii by lia).
      split; [unfold kind; now rewrite Hd|]. unfold basic_length. cbn [app]. rewrite Hd.
      change (ident 32) with false. cbn iota. change (32 =? 32) with true. cbn iota. change (32 :: w ++ r) with ((32 :: w) ++ r). rewrite run_all; auto.
      + constructor; auto. eapply Forall_impl; [|exact H2]. intros a <-. reflexivity.
      + eapply stops_ext; [|exact H3]. intros a. rewrite Nat.eqb_eq. tauto.
    - apply one_token; auto; [discriminate|]. intros c' w' E. cbn [app] in E. injection E as <- <-.
      split; [now apply symbol_kind|]. destruct (symbol_small _ _ H1) as [_ [Hn [Hs Hd]]]. unfold basic_length. cbn [app]. rewrite Hd.
      destruct (ident c) eqn:Ei; [apply ident_iff in Ei; contradiction|]. rewrite (proj2 (Nat.eqb_neq c 32)) by auto. reflexivity.
    - apply one_token; auto; [discriminate|]. intros c' w' E. cbn [app] in E. injection E as <- <-.
      assert (Hd : digit c = false) by (destruct (digit c) eqn:E; auto; exfalso; now apply H1).
      assert (Hi : ident c = false) by (destruct (ident c) eqn:E; auto; apply ident_iff in E; contradiction). split.
      + destruct (kind_symbol c Hd Hi H3) as [K|[K _]]; auto. destruct (H4 _ K).
      + unfold basic_length. cbn [app]. rewrite Hd, Hi. rewrite (proj2 (Nat.eqb_neq c 32)) by auto. reflexivity.
  Qed.

  Lemma scanned_total n : forall code, length code < n -> exists ts, scanned dec code ts.
  Proof using digit_ascii.
    induction n as [|n IH]; intros code Hn; [lia|]. destruct code as [|c r]; [exists []; constructor|].
    destruct (digit c) eqn:Hd.
    - set (t := run digit (c :: r)). set (rest := skipn (length t) (c :: r)).
      assert (Et : c :: r = t ++ rest) by apply run_prefix. assert (Ht : t <> []) by (unfold t; cbn [run]; rewrite Hd; discriminate).
      assert (Hs : stops dec rest) by apply (run_stops digit). assert (Fs : Forall dec t) by apply (run_sat digit).
      assert (L : length rest < length (c :: r)) by (rewrite Et, app_length; destruct t; [contradiction|cbn; lia]).
      destruct rest as [|x rest'] eqn:Er.
      + destruct (IH []) as [ts Hts]; [cbn in *; lia|]. exists ((t, TNumber) :: ts). rewrite Et. apply sc_whole; auto.
      + destruct (Nat.eq_dec x 46) as [->|Hx].
        * set (f := run digit rest'). set (q := skipn (length f) rest'). assert (Eq : rest' = f ++ q) by apply run_prefix.
          destruct (IH q) as [ts Hts]; [assert (length rest' = length f + length q) by (rewrite Eq at 1; apply app_length); cbn [length] in *; lia|].
          exists ((t ++ 46 :: f, TNumber) :: ts). rewrite Et, Eq. replace (t ++ 46 :: f ++ q) with ((t ++ 46 :: f) ++ q) by now rewrite <- app_assoc.
          apply sc_fraction; auto; [apply (run_sat digit)|apply (run_stops digit)].
        * destruct (IH (x :: rest')) as [ts Hts]; [cbn [length] in *; lia|]. exists ((t, TNumber) :: ts). rewrite Et. apply sc_whole; auto. cbn. auto.
    - assert (Hnd : ~ dec c) by (unfold dec; congruence). destruct (ident c) eqn:Hi.
      + set (t := run ident r). set (rest := skipn (length t) r). assert (Et : r = t ++ rest) by apply run_prefix.
        destruct (IH rest) as [ts Hts]; [assert (length r = length t + length rest) by (rewrite Et at 1; apply app_length); cbn [length] in *; lia|].
        exists ((c :: t, TId) :: ts). rewrite Et. change (c :: t ++ rest) with ((c :: t) ++ rest). apply sc_name; auto.
        * now apply ident_iff.
        * eapply Forall_impl; [|apply (run_sat ident)]. intros a. apply ident_iff.
        * eapply stops_ext; [|apply (run_stops ident)]. intros a. apply ident_iff.
      + assert (Hni : ~ name_char c) by (intros C; apply ident_iff in C; congruence). destruct (Nat.eq_dec c 32) as [->|Hs].
        * set (t := run (Nat.eqb 32) r). set (rest := skipn (length t) r). assert (Et : r = t ++ rest) by apply run_prefix.
          destruct (IH rest) as [ts Hts]; [assert (length r = length t + length rest) by (rewrite Et at 1; apply app_length); cbn [length] in *; lia|].
          exists ((32 :: t, TWhiteSpace) :: ts). rewrite Et. change (32 :: t ++ rest) with ((32 :: t) ++ rest). apply sc_blanks; auto.
          -- eapply Forall_impl; [|apply (run_sat (Nat.eqb 32))]. intros a E. now apply Nat.eqb_eq in E.
          -- eapply stops_ext; [|apply (run_stops (Nat.eqb 32))]. intros a. rewrite Nat.eqb_eq. tauto.
        * destruct (IH r) as [ts Hts]; [cbn [length] in *; lia|]. destruct (kind_symbol c Hd Hi Hs) as [K|[_ K]].
          -- exists (([c], kind digit c) :: ts). change (c :: r) with ([c] ++ r). apply sc_symbol; auto.
          -- exists (([c], TOther) :: ts). change (c :: r) with ([c] ++ r). apply sc_other; auto.
  Qed.

  Theorem simple_scans code ts : scanned dec code ts <-> preset_lex digit Simple code = ts.
  Proof using digit_ascii.
    unfold preset_lex, finditer. split.
    - intros H. now apply scanned_lex.
    - intros <-. destruct (scanned_total (S (length code)) code) as [ts Hts]; [lia|]. rewrite (scanned_lex code ts); auto.
  Qed.
End Proofs.
