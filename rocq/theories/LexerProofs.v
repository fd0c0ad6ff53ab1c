(** What the matcher of [Lexer.v] returns, and what that means for the presets:
    every character of the text is in exactly one token, and the type of a token
    is a function of its text. *)

From Coq Require Import List Bool Arith Lia.
From Verif Require Import Base SeqNodes Subtokenizer StackParser PseudoParse Lexer.
Import ListNotations.

(** ** Soundness of the matcher *)
(** The texts an expression can consume, with back references and assertions
    left open. *)
Inductive lang : re -> text -> Prop :=
| L_cls p c : p c = true -> lang (Cls p) [c]
| L_eps : lang Eps []
| L_cat a b t u : lang a t -> lang b u -> lang (Cat a b) (t ++ u)
| L_altl a b t : lang a t -> lang (Alt a b) t
| L_altr a b t : lang b t -> lang (Alt a b) t
| L_star0 g a : lang (Star g a) []
| L_star g a t u : lang a t -> lang (Star g a) u -> lang (Star g a) (t ++ u)
| L_cap n a t : lang a t -> lang (Cap n a) t
| L_back n t : lang (Back n) t
| L_behind c : lang (NotBehind c) []
| L_end : lang AtEnd [].

Fixpoint groups (r : re) : list nat :=
  match r with
  | Cat a b | Alt a b => groups a ++ groups b
  | Star _ a => groups a
  | Cap n a => n :: groups a
  | _ => []
  end.

Inductive step (r : re) (s s' : spot) : Prop :=
| mkStep (t : text) : ahead s = t ++ ahead s' -> behind s' = rev t ++ behind s -> lang r t ->
    (forall g, ~ In g (groups r) -> assoc g (caps s') = assoc g (caps s)) -> step r s s'.

Lemma starts_with_iff p l : starts_with p l = true <-> exists r, l = p ++ r.
Proof.
  revert l. induction p as [|x p IH]; intros l; cbn [starts_with].
  - split; auto. intros _. now exists l.
  - destruct l as [|y l]; [split; [discriminate|intros [r [=]]]|]. rewrite andb_true_iff, Nat.eqb_eq, IH. split.
    + intros [-> [r ->]]. exists r. reflexivity.
    + intros [r [= -> ->]]. eauto.
Qed.

Lemma firstn_diff {A} (t r : list A) : firstn (length (t ++ r) - length r) (t ++ r) = t.
Proof. rewrite app_length. replace (length t + length r - length r) with (length t + 0) by lia. rewrite firstn_app_2, firstn_O. apply app_nil_r. Qed.

Lemma m_sound r : forall s k f, m r s k = Some f -> exists s', step r s s' /\ k s' = Some f.
Proof.
  induction r as [p| |a IHa b IHb|a IHa b IHb|g a IHa|n a IHa|n|c|]; intros s k f E; cbn [m] in E.
  - destruct s as [bh [|c r] cp]; cbn [ahead] in E; [discriminate|]. destruct (p c) eqn:Hp; [|discriminate].
    eexists. split; [|exact E]. exists [c]; cbn; auto. now apply L_cls.
  - exists s. split; auto. exists []; cbn; auto. constructor.
  - apply IHa in E as [s1 [[t A1 B1 L1 C1] E]]. apply IHb in E as [s2 [[u A2 B2 L2 C2] E]].
    exists s2. split; auto. exists (t ++ u).
    + now rewrite A1, A2, app_assoc.
    + now rewrite B2, B1, rev_app_distr, app_assoc.
    + now constructor.
    + cbn [groups]. intros x Hx. rewrite in_app_iff in Hx. rewrite C2, C1; auto.
  - destruct (m a s k) as [x|] eqn:Ea.
    + injection E as <-. apply IHa in Ea as [s1 [[t A1 B1 L1 C1] E]]. exists s1. split; auto. exists t; auto; [now apply L_altl|]. cbn [groups]. intros x' Hx. rewrite in_app_iff in Hx. apply C1; auto.
    + apply IHb in E as [s1 [[t A1 B1 L1 C1] E]]. exists s1. split; auto. exists t; auto; [now apply L_altr|]. cbn [groups]. intros x' Hx. rewrite in_app_iff in Hx. apply C1; auto.
  - revert E. generalize (S (length (ahead s))) as n. intros n. revert s f. induction n as [|n IHn]; intros s f E; [discriminate|].
    assert (Hk : k s = Some f -> exists s', step (Star g a) s s' /\ k s' = Some f).
    { intros Hk. exists s. split; auto. exists []; cbn; auto. constructor. }
    assert (Ha : m a s (fun s' => if length (ahead s') <? length (ahead s) then loop (m a) g k n s' else None) = Some f ->
              exists s', step (Star g a) s s' /\ k s' = Some f).
    { intros E1. apply IHa in E1 as [s1 [[t A1 B1 L1 C1] E1]]. destruct (_ <? _); [|discriminate].
      apply IHn in E1 as [s2 [[u A2 B2 L2 C2] E1]].
      exists s2. split; auto. exists (t ++ u).
      + now rewrite A1, A2, app_assoc.
      + now rewrite B2, B1, rev_app_distr, app_assoc.
      + now constructor.
      + cbn [groups] in *. intros x Hx. rewrite C2, C1; auto. }
    cbn [loop] in E. destruct g.
    + destruct (m a s _) as [x|] eqn:E1 in E; [|auto]. injection E as <-. auto.
    + destruct (k s) as [x|] eqn:E1; [injection E as <-; auto|]. auto.
  - apply IHa in E as [s1 [[t A1 B1 L1 C1] E]]. eexists. split; [|exact E]. exists t; cbn; auto.
    + now constructor.
    + cbn [groups]. intros x Hx. rewrite neq_eqb by (intros ->; apply Hx; now left). apply C1. intros Hi. apply Hx. now right.
  - destruct (assoc n (caps s)) as [t|] eqn:Et; [|discriminate]. destruct (starts_with t (ahead s)) eqn:Es; [|discriminate].
    apply starts_with_iff in Es as [r Er]. eexists. split; [|exact E]. exists t; cbn.
    + rewrite Er. rewrite skipn_app, Nat.sub_diag, skipn_all. reflexivity.
    + rewrite Er. rewrite <- (Nat.add_0_r (length t)), firstn_app_2, firstn_O, app_nil_r. reflexivity.
    + constructor.
    + auto.
  - exists s. assert (step (NotBehind c) s s) by (exists []; cbn; auto; constructor).
    split; auto. destruct (behind s) as [|d r]; auto. destruct (d =? c); [discriminate|auto].
  - exists s. assert (step AtEnd s s) by (exists []; cbn; auto; constructor).
    split; auto. destruct (ahead s) as [|d [|? ?]]; auto; [destruct (d =? 10); [auto|discriminate]|discriminate].
Qed.

(** ** Exact results for the simple expressions *)
Fixpoint run (p : nat -> bool) (l : text) : text :=
  match l with c :: l' => if p c then c :: run p l' else [] | [] => [] end.
Lemma run_prefix p l : l = run p l ++ skipn (length (run p l)) l.
Proof. induction l as [|c l IH]; auto. cbn [run]. destruct (p c); auto. cbn [length skipn app]. now rewrite <- IH. Qed.
Lemma run_firstn p l : firstn (length (run p l)) l = run p l.
Proof. induction l as [|c l IH]; auto. cbn [run]. destruct (p c); auto. cbn [length firstn]. now rewrite IH. Qed.
Lemma skipn_skipn_add {A} a n (l : list A) : skipn n (skipn a l) = skipn (a + n) l.
Proof. revert l. induction a as [|a IH]; intros l; auto. destruct l as [|x l]; cbn [skipn Nat.add]; auto. now rewrite skipn_nil. Qed.
Lemma advance_advance a b s : advance b (advance a s) = advance (a + b) s.
Proof.
  unfold advance. cbn [ahead behind caps]. rewrite skipn_skipn_add. f_equal.
  rewrite app_assoc, <- rev_app_distr. f_equal. f_equal.
  rewrite <- (firstn_skipn a (firstn (a + b) (ahead s))). rewrite firstn_firstn, Nat.min_l by lia.
  f_equal. now rewrite <- firstn_skipn_comm.
Qed.
Lemma advance_0 s : advance 0 s = s.
Proof. now destruct s. Qed.

(** [advance_0] for repetition of a class, greedy, when what follows never fails. *)
Definition never_fails (k : spot -> option spot) := forall s, k s <> None.
Lemma star_cls p s k : never_fails k ->
  m (Star true (Cls p)) s k = k (advance (length (run p (ahead s))) s).
Proof.
  intros Hk. cbn [m]. assert (G : forall n s, length (ahead s) < n -> loop (m (Cls p)) true k n s = k (advance (length (run p (ahead s))) s)).
  { clear s. induction n as [|n IH]; intros s Hn; [lia|]. cbn [loop m]. destruct (ahead s) as [|c r] eqn:E.
    - cbn [run length]. now rewrite advance_0.
    - cbn [run]. destruct (p c) eqn:Hp.
      + assert (Ea : ahead (advance 1 s) = r) by (unfold advance; cbn [ahead]; now rewrite E).
        rewrite Ea. cbn [length] in *. rewrite (proj2 (Nat.ltb_lt _ _)) by lia.
        rewrite IH by (rewrite Ea; lia). rewrite Ea, advance_advance. cbn [Nat.add].
        destruct (k _) eqn:Ek; auto. now apply Hk in Ek.
      + cbn [length]. now rewrite advance_0. }
  apply G. lia.
Qed.
Lemma m_plus_cls p s k : never_fails k ->
  m (plus (Cls p)) s k = match ahead s with
                        | c :: _ => if p c then k (advance (length (run p (ahead s))) s) else None
                        | [] => None
                        end.
Proof.
  intros Hk.
  change (m (plus (Cls p)) s k) with
    (match ahead s with c :: _ => if p c then m (Star true (Cls p)) (advance 1 s) k else None | [] => None end).
  destruct (ahead s) as [|c r] eqn:E; auto. destruct (p c) eqn:Hp; auto.
  rewrite star_cls by auto. rewrite advance_advance. cbn [run]. rewrite Hp. cbn [length]. unfold advance at 2. cbn [ahead]. rewrite E. reflexivity.
Qed.
Lemma m_word t s k : m (word t) s k = if starts_with t (ahead s) then k (advance (length t) s) else None.
Proof.
  revert s. induction t as [|c t IH]; intros s; [now rewrite advance_0|].
  destruct t as [|d t].
  - cbn. destruct (ahead s) as [|x r]; auto. rewrite andb_true_r. now destruct (c =? x).
  - change (word (c :: d :: t)) with (Cat (chr c) (word (d :: t))). cbn [m].
    unfold chr. cbn [m]. destruct (ahead s) as [|x r] eqn:E; auto.
    change (starts_with (c :: d :: t) (x :: r)) with ((c =? x) && starts_with (d :: t) r).
    destruct (c =? x) eqn:Ec; auto. cbn [andb]. rewrite IH, advance_advance.
    assert (Ea : ahead (advance 1 s) = r) by (unfold advance; cbn [ahead]; now rewrite E). rewrite Ea. reflexivity.
Qed.


Lemma match_at_cons ty r spec s : match_at ((ty, r) :: spec) s =
  match m r s Some with Some s' => Some (ty, s') | None => match_at spec s end.
Proof. reflexivity. Qed.
Lemma number_spec_cons ty r spec n : number_spec ((ty, r) :: spec) n =
  (ty, Cap n (fst (number r (S n)))) :: number_spec spec (snd (number r (S n))).
Proof. cbn [number_spec number]. now destruct (number r (S n)). Qed.
Lemma m_cap n a s k : m (Cap n a) s k = m a s (fun s' => k (capture n s s')).
Proof. reflexivity. Qed.

(** Two spots that differ in their captures only. *)
Definition same_place (s s' : spot) : Prop := behind s = behind s' /\ ahead s = ahead s'.
Lemma same_place_advance s s1 s2 x y : same_place s1 (advance y s) -> same_place s2 (advance x s1) -> same_place s2 (advance (y + x) s).
Proof.
  intros [A B] [C D]. rewrite <- advance_advance. unfold advance in *. cbn [behind ahead] in *. rewrite A, B in C. rewrite B in D. now split.
Qed.

(** ** Python strings *)
(** [close q n prev l]: the length of the text up to and including the closing
    quote [q], if there is one, when [prev] precedes [l]. *)
Fixpoint close (q : text) (n : nat) (prev : nat) (l : text) : option nat :=
  match n with
  | 0 => None
  | S n' =>
      if starts_with q l then Some (length q)
      else match l with
           | [] => None
           | c :: l' =>
               match (if negb (prev =? 92) && (92 =? c) && starts_with q l'
                      then option_map (Nat.add (S (length q))) (close q n' (last q 0) (skipn (length q) l')) else None) with
               | Some x => Some x
               | None => option_map S (close q n' c l')
               end
           end
  end.
Definition opening (q l : text) : option nat :=
  if starts_with q l
  then option_map (Nat.add (length q)) (close q (S (length (skipn (length q) l))) (last q 0) (skipn (length q) l))
  else None.
Definition string_length (l : text) : option nat :=
  match opening [34; 34; 34] l with
  | Some x => Some x
  | None => match opening [39; 39; 39] l with
            | Some x => Some x
            | None => match opening [34] l with Some x => Some x | None => opening [39] l end
            end
  end.

Lemma last_rev {A} (q : list A) d : q <> [] -> exists r, rev q = last q d :: r.
Proof. intros Hq. destruct (exists_last Hq) as [a [x ->]]. rewrite last_last, rev_app_distr. cbn. eauto. Qed.

Definition result_at (o : option nat) (s : spot) (r : option spot) : Prop :=
  match o, r with
  | None, None => True
  | Some n, Some s' => same_place s' (advance n s)
  | _, _ => False
  end.

Lemma close_match q s0 j : q <> [] -> forall n s prev bh, behind s = prev :: bh -> assoc 2 (caps s) = Some q ->
  result_at (close q n prev (ahead s)) s
    (loop (m (Cap 3 (Alt (Cat (NotBehind 92) (Cat (chr 92) (Back 2))) dot))) false
       (fun s' => m (Back 2) s' (fun s'' => Some (capture j s0 s''))) n s).
Proof.
  intros Hq. induction n as [|n IH]; intros s prev bh Hb Hc; [exact I|].
  cbn [close loop]. change (m (Back 2) s ?k) with
    (match assoc 2 (caps s) with Some t => if starts_with t (ahead s) then k (advance (length t) s) else None | None => None end).
  rewrite Hc. destruct (starts_with q (ahead s)) eqn:Hs; [split; reflexivity|].
  match goal with |- result_at _ _ (m (Cap 3 _) s ?K) => set (k := K) end.
  change (m (Cap 3 (Alt (Cat (NotBehind 92) (Cat (chr 92) (Back 2))) dot)) s k) with
    (match (match behind s with
            | d :: _ => if d =? 92 then None else
                 match ahead s with
                 | c :: _ => if 92 =? c then
                     match assoc 2 (caps s) with
                     | Some t => if starts_with t (ahead (advance 1 s)) then k (capture 3 s (advance (length t) (advance 1 s))) else None
                     | None => None
                     end else None
                 | [] => None
                 end
            | [] => match ahead s with
                 | c :: _ => if 92 =? c then
                     match assoc 2 (caps s) with
                     | Some t => if starts_with t (ahead (advance 1 s)) then k (capture 3 s (advance (length t) (advance 1 s))) else None
                     | None => None
                     end else None
                 | [] => None
                 end
            end) with
     | Some x => Some x
     | None => match ahead s with _ :: _ => k (capture 3 s (advance 1 s)) | [] => None end
     end).
  rewrite Hb, Hc. destruct (ahead s) as [|c l] eqn:Ea; [destruct (prev =? 92); exact I|].
  assert (E1 : ahead (advance 1 s) = l) by (unfold advance; cbn [ahead]; now rewrite Ea).
  assert (B1 : behind (advance 1 s) = c :: behind s) by (unfold advance; cbn [behind]; now rewrite Ea).
  (* the step over one character *)
  assert (G1 : result_at (option_map S (close q n c l)) s (k (capture 3 s (advance 1 s)))).
  { subst k. cbv beta. cbn [capture ahead]. rewrite E1. cbn [length]. rewrite (proj2 (Nat.ltb_lt _ _)) by lia.
    specialize (IH (capture 3 s (advance 1 s)) c (behind s)). cbn [capture behind ahead caps] in IH.
    rewrite E1 in IH. specialize (IH B1 Hc). destruct (close q n c l) as [x|]; cbn [option_map result_at] in *;
      destruct (loop _ _ _ _ _); auto. apply (same_place_advance s _ _ x 1) in IH; [exact IH|split; reflexivity]. }
  (* the step over an escaped quote *)
  assert (G2 : starts_with q l = true ->
     result_at (option_map (Nat.add (S (length q))) (close q n (last q 0) (skipn (length q) l))) s
       (k (capture 3 s (advance (length q) (advance 1 s))))).
  { intros Hl. apply starts_with_iff in Hl as [w Ew]. subst k. cbv beta.
    assert (E2 : ahead (advance (length q) (advance 1 s)) = w).
    { unfold advance at 1. cbn [ahead]. rewrite E1, Ew, skipn_app, Nat.sub_diag, skipn_all. reflexivity. }
    assert (B2 : behind (advance (length q) (advance 1 s)) = rev q ++ c :: behind s).
    { unfold advance at 1. cbn [behind]. rewrite E1, B1, Ew, <- (Nat.add_0_r (length q)), firstn_app_2, firstn_O, app_nil_r. reflexivity. }
    destruct (last_rev q 0 Hq) as [rq Erq]. rewrite Erq in B2. cbn [app] in B2.
    cbn [capture ahead]. rewrite E2. rewrite (proj2 (Nat.ltb_lt _ _)) by (rewrite Ew; cbn [length]; rewrite app_length; lia).
    specialize (IH (capture 3 s (advance (length q) (advance 1 s))) (last q 0) (rq ++ c :: behind s)).
    cbn [capture behind ahead caps] in IH. rewrite E2 in IH. specialize (IH B2 Hc).
    assert (Ew' : skipn (length q) l = w) by (rewrite Ew, skipn_app, Nat.sub_diag, skipn_all; reflexivity). rewrite Ew'.
    destruct (close q n (last q 0) w) as [x|]; cbn [option_map result_at] in *; destruct (loop _ _ _ _ _); auto.
    apply (same_place_advance s _ _ x (S (length q))) in IH; [exact IH|]. rewrite <- (advance_advance 1 (length q)). split; reflexivity. }
  rewrite E1. clearbody k. destruct (prev =? 92); cbn [negb andb]; [exact G1|]. destruct (92 =? c); cbn [andb]; [|exact G1].
  destruct (starts_with q l) eqn:Hl; [|exact G1]. specialize (G2 eq_refl).
  destruct (option_map _ (close q n (last q 0) (skipn (length q) l))) as [x|]; cbn [result_at] in G2;
    destruct (k (capture 3 s (advance (length q) (advance 1 s)))); try contradiction; auto.
Qed.

Lemma string_match s : result_at (string_length (ahead s)) s (m (fst (number (Cap 0 python_string) 1)) s Some).
Proof.
  cbn [number fst python_string alts word chr dot].
  set (f := fun s' => Some (capture 1 s s')).
  set (K := fun s1 : spot => m (Star false (Cap 3 (Alt (Cat (NotBehind 92) (Cat (chr 92) (Back 2))) dot))) (capture 2 s s1)
                (fun s' => m (Back 2) s' f)).
  assert (G : forall q, q <> [] -> result_at (opening q (ahead s)) s (m (word q) s K)).
  { intros q Hq. rewrite m_word. unfold opening. destruct (starts_with q (ahead s)) eqn:Hs; [|exact I].
    apply starts_with_iff in Hs as [w Ew]. subst K. cbv beta.
    assert (E1 : ahead (advance (length q) s) = w).
    { unfold advance. cbn [ahead]. rewrite Ew, skipn_app, Nat.sub_diag, skipn_all. reflexivity. }
    assert (B1 : behind (advance (length q) s) = rev q ++ behind s).
    { unfold advance. cbn [behind]. rewrite Ew, <- (Nat.add_0_r (length q)), firstn_app_2, firstn_O, app_nil_r. reflexivity. }
    assert (Ew' : skipn (length q) (ahead s) = w) by (rewrite Ew, skipn_app, Nat.sub_diag, skipn_all; reflexivity). rewrite Ew'.
    destruct (last_rev q 0 Hq) as [rq Erq]. rewrite Erq in B1. cbn [app] in B1.
    pose proof (close_match q s 1 Hq (S (length w)) (capture 2 s (advance (length q) s)) (last q 0) (rq ++ behind s)) as H.
    cbn [capture behind ahead caps] in H. rewrite E1 in H.
    specialize (H B1). assert (Hc : assoc 2 ((2, firstn (length (ahead s) - length w) (ahead s)) :: caps (advance (length q) s)) = Some q).
    { cbn [assoc]. rewrite eqb_refl, Ew, firstn_diff. reflexivity. }
    specialize (H Hc).
    change (m (Star false (Cap 3 (Alt (Cat (NotBehind 92) (Cat (chr 92) (Back 2))) dot))) (capture 2 s (advance (length q) s)) (fun s' => m (Back 2) s' f))
      with (loop (m (Cap 3 (Alt (Cat (NotBehind 92) (Cat (chr 92) (Back 2))) dot))) false (fun s' => m (Back 2) s' (fun s'' => Some (capture 1 s s'')))
              (S (length (ahead (advance (length q) s)))) (capture 2 s (advance (length q) s))).
    rewrite E1. match type of H with result_at _ _ ?X => set (res := X) in * end. clearbody res.
    unfold result_at in *. destruct (close _ _ _ _) as [n|]; cbn [option_map]; destruct res; auto.
    apply (same_place_advance s _ _ n (length q)) in H; [exact H|split; reflexivity]. }
  pose proof (G [34; 34; 34] ltac:(discriminate)) as G1. pose proof (G [39; 39; 39] ltac:(discriminate)) as G2.
  pose proof (G [34] ltac:(discriminate)) as G3. pose proof (G [39] ltac:(discriminate)) as G4. clear G.
  match goal with |- result_at _ _ ?X => change X with
    (match m (word [34; 34; 34]) s K with Some x => Some x | None =>
       match m (word [39; 39; 39]) s K with Some x => Some x | None =>
         match m (word [34]) s K with Some x => Some x | None => m (word [39]) s K end end end) end.
  clearbody K. unfold string_length.
  destruct (opening [34; 34; 34] _), (m (word [34; 34; 34]) s K); try contradiction; auto.
  destruct (opening [39; 39; 39] _), (m (word [39; 39; 39]) s K); try contradiction; auto.
  destruct (opening [34] _), (m (word [34]) s K); try contradiction; auto.
Qed.

Section Facts.
  Variable digit : nat -> bool.
  Hypothesis digit_ascii : forall c, c < 128 -> digit c = (48 <=? c) && (c <=? 57).

  (** The type of a token of the basic expressions, by its first character. *)
  Definition kind (c : nat) : ttype :=
    if digit c then TNumber else if ident c then TId
    else if existsb (Nat.eqb c) [43; 45; 42; 47] then TOp
    else if existsb (Nat.eqb c) [44; 46; 59; 58; 61; 62; 60] then TPunc
    else if existsb (Nat.eqb c) [40; 41; 91; 93; 123; 125] then TBrace
    else if c =? 10 then TNewline else if c =? 9 then TTab else if c =? 32 then TWhiteSpace else TOther.
  Definition basic_length (l : text) : nat :=
    match l with
    | [] => 0
    | c :: _ =>
        if digit c then
          let n := length (run digit l) in
          match skipn n l with
          | d :: r => if d =? 46 then n + S (length (run digit r)) else n
          | [] => n
          end
        else if ident c then length (run ident l)
        else if c =? 32 then length (run (Nat.eqb 32) l)
        else 1
    end.

  Lemma basic_match n c r s : ahead s = c :: r ->
    exists s', match_at (number_spec (basic digit) n) s = Some (kind c, s') /\
      same_place s' (advance (basic_length (c :: r)) s).
  Proof.
    intros E. unfold basic.
    assert (Hcls : forall j p, m (Cap j (Cls p)) s Some = if p c then Some (capture j s (advance 1 s)) else None).
    { intros j p. cbn [m]. rewrite E. now destruct (p c). }
    repeat rewrite number_spec_cons, match_at_cons. cbn [number_spec].
    unfold kind, basic_length.
    (* NUMBER *)
    assert (Hn : m (Cap n (fst (number (Cat (plus (Cls digit)) (opt (Cap 0 (Cat (chr 46) (Star true (Cls digit)))))) (S n)))) s Some =
      if digit c then
        let k := length (run digit (c :: r)) in
        Some (capture n s (match skipn k (c :: r) with
              | d :: r' => if d =? 46 then capture (S n) (advance k s) (advance (k + S (length (run digit r'))) s) else advance k s
              | [] => advance k s
              end))
      else None).
    { set (K := fun s' => m (Alt (Cap (S n) (Cat (chr 46) (Star true (Cls digit)))) Eps) s' (fun s'' => Some (capture n s s''))).
      change (m (plus (Cls digit)) s K =
        if digit c then
        let k := length (run digit (c :: r)) in
        Some (capture n s (match skipn k (c :: r) with
              | d :: r' => if d =? 46 then capture (S n) (advance k s) (advance (k + S (length (run digit r'))) s) else advance k s
              | [] => advance k s
              end))
        else None).
      assert (HK : never_fails K). { intros s'. subst K. cbv beta. change (m (Alt ?a Eps) s' ?k) with (match m a s' k with Some x => Some x | None => k s' end). now destruct (m _ s' _). }
      rewrite m_plus_cls by auto. rewrite E. destruct (digit c) eqn:Hd; auto. cbv zeta.
      set (k := length (run digit (c :: r))). subst K. cbv beta.
      set (f := fun s'' => Some (capture n s s'')).
      change (m (Alt ?a Eps) (advance k s) f) with (match m a (advance k s) f with Some x => Some x | None => f (advance k s) end).
      change (m (Cap (S n) (Cat (chr 46) (Star true (Cls digit)))) (advance k s) f) with
        (match ahead (advance k s) with
         | d :: _ => if 46 =? d then m (Star true (Cls digit)) (advance 1 (advance k s)) (fun s' => f (capture (S n) (advance k s) s')) else None
         | [] => None end).
      assert (Ek : ahead (advance k s) = skipn k (c :: r)) by (unfold advance; cbn [ahead]; now rewrite E).
      rewrite Ek. destruct (skipn k (c :: r)) as [|d r'] eqn:Es; auto. rewrite (Nat.eqb_sym 46 d). destruct (d =? 46) eqn:Ed; auto.
      rewrite star_cls by (intros x; discriminate).
      assert (E1 : ahead (advance 1 (advance k s)) = r').
      { unfold advance at 1. cbn [ahead]. rewrite Ek. reflexivity. }
      rewrite E1, !advance_advance. subst f. cbv beta. reflexivity. }
    rewrite Hn. clear Hn. destruct (digit c) eqn:Hd.
    { eexists. split; [reflexivity|]. cbv zeta. destruct (skipn _ _) as [|d r']; [split; reflexivity|].
      destruct (d =? 46); split; reflexivity. }
    (* ID *)
    assert (Hplus : forall j p, m (Cap j (plus (Cls p))) s Some = if p c then Some (capture j s (advance (length (run p (c :: r))) s)) else None).
    { intros j p. rewrite m_cap, m_plus_cls by (intros x; discriminate). rewrite E. now destruct (p c). }
    cbn [fst snd number plus chr one_of dot].
    change (Cat (Cls ident) (Star true (Cls ident))) with (plus (Cls ident)).
    change (Cat (Cls (Nat.eqb 32)) (Star true (Cls (Nat.eqb 32)))) with (plus (Cls (Nat.eqb 32))).
    rewrite !Hplus, !Hcls. rewrite (Nat.eqb_sym 10 c), (Nat.eqb_sym 9 c), (Nat.eqb_sym 32 c).
    destruct (ident c) eqn:Hi; [eexists; split; [reflexivity|split; reflexivity]|].
    assert (H32 : forall l, existsb (Nat.eqb c) l = true -> ~ In 32 l -> (c =? 32) = false).
    { intros l Hl Hn. apply Nat.eqb_neq. intros ->. apply existsb_exists in Hl as [x [Hx Ex]]. apply Nat.eqb_eq in Ex as <-. auto. }
    destruct (existsb _ [43; 45; 42; 47]) eqn:H1; [rewrite (H32 _ H1) by (cbn; lia); eexists; split; [reflexivity|split; reflexivity]|].
    destruct (existsb _ [44; 46; 59; 58; 61; 62; 60]) eqn:H2; [rewrite (H32 _ H2) by (cbn; lia); eexists; split; [reflexivity|split; reflexivity]|].
    destruct (existsb _ [40; 41; 91; 93; 123; 125]) eqn:H3; [rewrite (H32 _ H3) by (cbn; lia); eexists; split; [reflexivity|split; reflexivity]|].
    destruct (c =? 10) eqn:H4; [apply Nat.eqb_eq in H4 as ->; eexists; split; [reflexivity|split; reflexivity]|].
    destruct (c =? 9) eqn:H5; [apply Nat.eqb_eq in H5 as ->; eexists; split; [reflexivity|split; reflexivity]|].
    destruct (c =? 32) eqn:H6; eexists; (split; [reflexivity|split; reflexivity]).
  Qed.

  Lemma run_length p l : length (run p l) <= length l.
  Proof. induction l as [|c l IH]; cbn [run length]; [lia|]. destruct (p c); cbn [length]; lia. Qed.
  Lemma basic_length_bound c r : 1 <= basic_length (c :: r) <= length (c :: r).
  Proof.
    unfold basic_length. destruct (digit c) eqn:Hd.
    - cbv zeta. pose proof (run_length digit (c :: r)) as H. assert (1 <= length (run digit (c :: r))) by (cbn [run]; rewrite Hd; cbn; lia).
      destruct (skipn _ _) as [|d r'] eqn:Es; [lia|]. destruct (d =? 46); [|lia].
      assert (L : length (skipn (length (run digit (c :: r))) (c :: r)) = S (length r')) by now rewrite Es.
      rewrite skipn_length in L. pose proof (run_length digit r'). lia.
    - destruct (ident c) eqn:Hi; [|destruct (c =? 32) eqn:Hs; [|cbn; lia]].
      + pose proof (run_length ident (c :: r)). cbn [run] in *. rewrite Hi in *. cbn [length] in *. lia.
      + pose proof (run_length (Nat.eqb 32) (c :: r)). cbn [run] in *. apply Nat.eqb_eq in Hs as ->. cbn [Nat.eqb length] in *. lia.
  Qed.
  Lemma close_bound q n p l x : close q n p l = Some x -> length q <= x <= length l.
  Proof.
    revert p l x. induction n as [|n IH]; intros p l x; cbn [close]; [discriminate|].
    destruct (starts_with q l) eqn:Hs.
    - intros [= <-]. apply starts_with_iff in Hs as [w ->]. rewrite app_length. lia.
    - destruct l as [|c l']; [discriminate|]. cbn [length].
      match goal with |- match ?X with _ => _ end = _ -> _ => destruct X as [y|] eqn:Ey end.
      + intros [= <-]. destruct (negb _ && _ && starts_with q l') eqn:Hc; [|discriminate].
        apply andb_prop in Hc as [_ Hc]. apply starts_with_iff in Hc as [w ->].
        destruct (close q n _ _) as [z|] eqn:Ez; [|discriminate]. injection Ey as <-. apply IH in Ez.
        rewrite skipn_app, Nat.sub_diag, skipn_all in Ez. cbn [app skipn] in Ez. rewrite app_length. lia.
      + destruct (close q n c l') as [z|] eqn:Ez; [|discriminate]. intros [= <-]. apply IH in Ez. lia.
  Qed.
  Lemma opening_bound q l x : opening q l = Some x -> 2 * length q <= x <= length l /\ exists w, l = q ++ w.
  Proof.
    unfold opening. destruct (starts_with q l) eqn:Hs; [|discriminate]. apply starts_with_iff in Hs as [w ->].
    rewrite skipn_app, Nat.sub_diag, skipn_all. cbn [app skipn]. destruct (close _ _ _ _) as [y|] eqn:Ey; [|discriminate].
    intros [= <-]. apply close_bound in Ey. rewrite app_length. split; [lia|eauto].
  Qed.
  Definition quote (c : nat) : bool := (c =? 34) || (c =? 39).
  Lemma string_length_bound c r x : string_length (c :: r) = Some x -> 2 <= x <= length (c :: r) /\ quote c = true.
  Proof.
    unfold string_length. intros E.
    assert (G : forall q d w, q = d :: w -> quote d = true -> opening q (c :: r) = Some x -> 2 <= x <= length (c :: r) /\ quote c = true).
    { intros q d w -> Hq E'. apply opening_bound in E' as [B [v [= -> _]]]. cbn [length] in *. split; [lia|auto]. }
    destruct (opening [34; 34; 34] _) as [y|] eqn:E1; [injection E as ->; eapply G; [| |exact E1]; reflexivity|].
    destruct (opening [39; 39; 39] _) as [y|] eqn:E2; [injection E as ->; eapply G; [| |exact E2]; reflexivity|].
    destruct (opening [34] _) as [y|] eqn:E3; [injection E as ->; eapply G; [| |exact E3]; reflexivity|].
    eapply G; [| |exact E]; reflexivity.
  Qed.

  (** The type of a token of a preset, by its text. *)
  Definition type_of (l : preset) (t : text) : ttype :=
    match l, t with
    | _, [] => TOther
    | Simple, c :: _ => kind c
    | Python_preprocessor, c :: r =>
        if quote c && negb (length r =? 0) then TString else if c =? 35 then TCommentHash else kind c
    | _, [c] => kind c
    | _, c :: d :: _ =>
        if c =? 35 then TCPreprocessor
        else if c =? 47 then (if d =? 47 then TCommentSlashSlash else TCommentSlashStar)
        else if quote c then TCommentSlashStar
        else kind c
    end.

  (** *** Python *)
  Definition python_length (l : text) : nat :=
    match string_length l with
    | Some n => n
    | None => match l with
              | c :: r => if c =? 35 then S (length (run (fun x => negb (existsb (Nat.eqb x) [10])) r)) else basic_length l
              | [] => 0
              end
    end.
  Lemma python_match s c r : ahead s = c :: r ->
    exists s', match_at (number_spec (specification digit Python_preprocessor) 1) s =
                 Some (type_of Python_preprocessor (firstn (python_length (c :: r)) (c :: r)), s') /\
      same_place s' (advance (python_length (c :: r)) s) /\ 1 <= python_length (c :: r) <= length (c :: r).
  Proof.
    intros E. unfold specification, python_strings_and_comments. cbn [app].
    rewrite number_spec_cons, match_at_cons. pose proof (string_match s) as Hs. rewrite E in Hs.
    change (fst (number (Cap 0 python_string) 1)) with (Cap 1 (fst (number python_string 2))) in Hs.
    unfold python_length at 1 2 3 4. destruct (string_length (c :: r)) as [x|] eqn:Ex.
    - destruct (string_length_bound _ _ _ Ex) as [Bx Hq]. cbn [result_at] in Hs. destruct (m (Cap 1 _) s Some) as [s'|]; [|contradiction].
      exists s'. splits; try lia; auto. f_equal. f_equal. destruct x as [|[|x]]; try lia. destruct r as [|d r]; [cbn in Bx; lia|].
      cbn [firstn type_of length Nat.eqb negb andb]. now rewrite Hq.
    - cbn [result_at] in Hs. destruct (m (Cap 1 _) s Some) as [s'|]; [contradiction|].
      rewrite number_spec_cons, match_at_cons. set (p := fun x : nat => negb (existsb (Nat.eqb x) [10])).
      assert (Hnum : forall n, fst (number (Cat (Cap 0 (chr 35)) (Star true (none_of [10]))) n) = Cat (Cap n (chr 35)) (Star true (Cls p))) by reflexivity.
      rewrite Hnum. clear Hnum.
      match goal with |- context [m (Cap ?a (Cat (Cap ?b (chr 35)) (Star true (Cls p)))) s Some] =>
        change (m (Cap a (Cat (Cap b (chr 35)) (Star true (Cls p)))) s Some) with
          (match ahead s with d :: _ => if 35 =? d then m (Star true (Cls p)) (capture b s (advance 1 s)) (fun s' => Some (capture a s s')) else None | [] => None end);
        set (ca := a) end.
      rewrite E, (Nat.eqb_sym 35 c). destruct (c =? 35) eqn:H35.
      + rewrite star_cls by (intros x; discriminate).
        assert (E1 : ahead (capture (S ca) s (advance 1 s)) = r) by (unfold capture, advance; cbn [ahead]; now rewrite E).
        rewrite E1. eexists. split; [f_equal; f_equal|].
        * apply Nat.eqb_eq in H35 as ->. reflexivity.
        * split; [|pose proof (run_length p r); cbn [length]; lia].
          change (S (length (run p r))) with (1 + length (run p r)). apply (same_place_advance s (capture (S ca) s (advance 1 s))); split; reflexivity.
      + match goal with |- context [match_at (number_spec (basic digit) ?n) s] => destruct (basic_match n c r s E) as [s' [E' P]] end.
        exists s'. rewrite E'. pose proof (basic_length_bound c r). splits; auto; try lia. f_equal. f_equal.
        destruct (basic_length (c :: r)) as [|k] eqn:Ek; [lia|]. cbn [firstn type_of].
        assert (Hq : quote c = true -> k = 0).
        { unfold quote. intros Hq. apply orb_prop in Hq as [Hq|Hq]; apply Nat.eqb_eq in Hq as ->; cbn [basic_length] in Ek; rewrite digit_ascii in Ek by lia; cbn in Ek; lia. }
        destruct (quote c); [rewrite Hq by auto|]; cbn [andb firstn length Nat.eqb negb]; now rewrite H35.
  Qed.

  (** *** The C family *)
  Lemma lang_word w t : lang (word w) t -> t = w.
  Proof.
    revert t. induction w as [|c w IH]; intros t H; [now inversion H|]. destruct w as [|d w].
    - cbn [word chr] in H. inversion H as [p x Hx| | | | | | | | | |]; subst. apply Nat.eqb_eq in Hx as <-. reflexivity.
    - change (word (c :: d :: w)) with (Cat (chr c) (word (d :: w))) in H. inversion H as [| |a b u v Hu Hv| | | | | | | |]; subst.
      apply IH in Hv as ->. inversion Hu as [p x Hx| | | | | | | | | |]; subst. apply Nat.eqb_eq in Hx as <-. reflexivity.
  Qed.
  Lemma lang_cat a b t : lang (Cat a b) t -> exists u v, t = u ++ v /\ lang a u /\ lang b v.
  Proof. intros H. inversion H; subst. eauto. Qed.
  Lemma lang_alt a b t : lang (Alt a b) t -> lang a t \/ lang b t.
  Proof. intros H. inversion H; subst; auto. Qed.
  Lemma lang_cap n a t : lang (Cap n a) t -> lang a t.
  Proof. intros H. now inversion H; subst. Qed.

  Lemma step_place s s' t : ahead s = t ++ ahead s' -> behind s' = rev t ++ behind s -> same_place s' (advance (length t) s).
  Proof.
    intros A B. unfold advance, same_place. cbn [behind ahead]. rewrite A, B, skipn_app, Nat.sub_diag, skipn_all.
    rewrite <- (Nat.add_0_r (length t)), firstn_app_2, firstn_O, app_nil_r. auto.
  Qed.

  (** A match at a nonempty rest: a nonempty prefix with the type of its text. *)
  Definition good_match (l : preset) (s : spot) (o : option (ttype * spot)) : Prop :=
    exists n s', o = Some (type_of l (firstn n (ahead s)), s') /\ same_place s' (advance n s) /\ 1 <= n <= length (ahead s).

  Lemma macros_match l n spec c r s : ahead s = c :: r -> l <> Python_preprocessor -> l <> Simple ->
    good_match l s (match_at (number_spec spec (n + 3)) s) -> good_match l s (match_at (number_spec (c_macros ++ spec) n) s).
  Proof.
    intros E H1 H2 H. unfold c_macros. cbn [app]. rewrite number_spec_cons, match_at_cons.
    destruct (m _ s Some) as [s'|] eqn:Em.
    - apply m_sound in Em as [s1 [[t A B L C] [= <-]]]. apply lang_cap in L. cbn [number fst] in L.
      apply lang_cat in L as [u [v [Et [L _]]]]. apply lang_cap in L.
      assert (Hu : exists d u', u = 35 :: d :: u').
      { cbn [c_directives map alts word chr number] in L.
        repeat (apply lang_alt in L as [L|L]); 
          match type of L with lang (Cat (Cls (Nat.eqb ?a)) (Cat (Cls (Nat.eqb ?b)) ?rest)) u =>
            apply lang_cat in L as [u1 [u2 [-> [L1 L2]]]]; apply lang_cat in L2 as [u3 [u4 [-> [L2 _]]]];
            apply (lang_word [a]) in L1 as ->; apply (lang_word [b]) in L2 as ->; cbn [app]; eauto end. }
      destruct Hu as [d [u' ->]]. subst t. exists (length ((35 :: d :: u') ++ v)), s1. splits.
      + f_equal. f_equal. rewrite A, <- (Nat.add_0_r (length _)), firstn_app_2, firstn_O, app_nil_r. destruct l; try contradiction; reflexivity.
      + now apply step_place.
      + cbn. lia.
      + rewrite A, !app_length. lia.
    - replace (n + 3) with (snd (number (Cat (Cap 0 (alts (map word c_directives)))
        (Star true (Cap 0 (Alt (Cat (chr 92) (chr 10)) (none_of [40; 10; 124; 47; 42; 41]))))) (S n))) in H; auto.
      change (S (S (S n)) = n + 3). lia.
  Qed.

  Lemma lang_c_quoted q t : lang (c_quoted q) t -> exists d r, t = q :: d :: r.
  Proof.
    unfold c_quoted. intros L. apply lang_cat in L as [u [v [-> [L1 L2]]]]. apply (lang_word [q]) in L1 as ->.
    apply lang_cat in L2 as [w [x [-> [_ L2]]]]. apply (lang_word [q]) in L2 as ->. destruct w as [|d w]; cbn; eauto.
  Qed.

  Lemma comments_match l n spec c r s : ahead s = c :: r -> l <> Python_preprocessor -> l <> Simple ->
    good_match l s (match_at (number_spec spec (n + 3)) s) -> good_match l s (match_at (number_spec (c_comments ++ spec) n) s).
  Proof.
    intros E H1 H2 H. unfold c_comments. cbn [app]. rewrite number_spec_cons, match_at_cons.
    destruct (m _ s Some) as [s'|] eqn:Em.
    - apply m_sound in Em as [s1 [[t A B L C] [= <-]]]. apply lang_cap in L. cbn [number fst] in L.
      apply lang_cat in L as [u [v [Et [L _]]]]. apply lang_cap in L. apply (lang_word [47; 47]) in L as ->. subst t.
      exists (length ([47; 47] ++ v)), s1. splits.
      + f_equal. f_equal. rewrite A, <- (Nat.add_0_r (length _)), firstn_app_2, firstn_O, app_nil_r. destruct l; try contradiction; reflexivity.
      + now apply step_place.
      + cbn. lia.
      + rewrite A, !app_length. lia.
    - (* a text that starts with two slashes is matched by the first expression *)
      assert (Hss : forall w, ahead s <> [47; 47] ++ w).
      { intros w Ew. revert Em. cbn [number fst word chr].
        match goal with |- m ?X s Some = None -> _ => 
          change X with (Cap n (Cat (Cap (S n) (word [47; 47])) (Star true (none_of [10])))) end.
        rewrite m_cap. match goal with |- m (Cat (Cap ?b ?w) ?r0) s ?k = None -> _ =>
          change (m (Cat (Cap b w) r0) s k) with (m w s (fun s' => m r0 (capture b s s') k)) end.
        rewrite m_word. rewrite (proj2 (starts_with_iff _ _)) by eauto. unfold none_of. rewrite star_cls by (intros x; discriminate). discriminate. }
      clear Em. rewrite number_spec_cons, match_at_cons. destruct (m _ s Some) as [s'|] eqn:Em.
      + apply m_sound in Em as [s1 [[t A B L C] [= <-]]]. apply lang_cap in L. cbn [number fst snd alts word chr dot] in L.
        assert (Ht : (exists d t', t = 39 :: d :: t') \/ (exists d t', t = 34 :: d :: t') \/ (exists t', t = 47 :: 42 :: t')).
        { repeat (apply lang_alt in L as [L|L]).
          - exfalso. apply lang_cat in L as [u [v [-> [L _]]]]. apply (lang_word [47; 47]) in L as ->. apply (Hss (v ++ ahead s1)). now rewrite A, app_assoc.
          - apply lang_cat in L as [u [v [-> [L _]]]]. apply (lang_word [47; 42]) in L as ->. cbn [app]. eauto.
          - left. now apply (lang_c_quoted 39).
          - right. left. now apply (lang_c_quoted 34). }
        exists (length t), s1. splits.
        * f_equal. f_equal. rewrite A, <- (Nat.add_0_r (length _)), firstn_app_2, firstn_O, app_nil_r.
          destruct Ht as [[d [t' ->]]|[[d [t' ->]]|[t' ->]]]; destruct l; try contradiction; reflexivity.
        * now apply step_place.
        * destruct Ht as [[d [t' ->]]|[[d [t' ->]]|[t' ->]]]; cbn; lia.
        * rewrite A, !app_length. lia.
      + match goal with |- good_match l s (match_at (number_spec spec ?k) s) => replace k with (n + 3); auto end.
        change (n + 3 = S (S (S n))). lia.
  Qed.

  (** The string expression of the C family refers to a group of another
      expression and never matches. *)
  Lemma c_strings_match n spec s : 2 < n -> caps s = [] ->
    match_at (number_spec (c_strings ++ spec) n) s = match_at (number_spec spec (n + 3)) s.
  Proof.
    intros Hn Hc. unfold c_strings. cbn [app]. rewrite number_spec_cons, match_at_cons.
    destruct (m _ s Some) as [s'|] eqn:Em.
    - exfalso.
      change (m (Cap (S n) (chr 34)) s (fun s1 =>
                m (Star false (Cap (S (S n)) (Alt (Cat (NotBehind 92) (Cat (chr 92) (Back 2))) dot))) s1
                  (fun s2 => m (Back 2) s2 (fun s3 => Some (capture n s s3)))) = Some s') in Em.
      apply m_sound in Em as [s1 [[t1 _ _ _ C1] Em]]. apply m_sound in Em as [s2 [[t2 _ _ _ C2] Em]].
      cbn [m] in Em. rewrite C2, C1, Hc in Em; [discriminate| |]; cbn; lia.
    - match goal with |- match_at (number_spec spec ?k) s = _ => replace k with (n + 3); auto end.
      change (n + 3 = S (S (S n))). lia.
  Qed.
  Lemma basic_c_match l n c r s : ahead s = c :: r -> l <> Python_preprocessor -> good_match l s (match_at (number_spec (basic digit) n) s).
  Proof.
    intros E H1. destruct (basic_match n c r s E) as [s' [E' P]]. pose proof (basic_length_bound c r) as Hb.
    exists (basic_length (c :: r)), s'. rewrite E', E. splits; auto; try lia. f_equal. f_equal.
    destruct (basic_length (c :: r)) as [|k] eqn:Ek; [lia|]. cbn [firstn].
    assert (Hq : c = 35 \/ c = 47 \/ quote c = true -> k = 0).
    { intros Hq. assert (c = 35 \/ c = 47 \/ c = 34 \/ c = 39) as [-> | [-> | [-> | -> ]]].
      { unfold quote in Hq. rewrite orb_true_iff, !Nat.eqb_eq in Hq. tauto. }
      all: cbn [basic_length] in Ek; rewrite digit_ascii in Ek by lia; cbn in Ek; lia. }
    destruct l; try contradiction; cbn [type_of]; auto; destruct (firstn k r) as [|d w] eqn:Ew; auto.
    all: assert (k <> 0) by (intros ->; discriminate).
    all: rewrite (proj2 (Nat.eqb_neq c 35)) by (intros ->; auto);
         rewrite (proj2 (Nat.eqb_neq c 47)) by (intros ->; auto);
         destruct (quote c); auto; exfalso; auto.
  Qed.

  Theorem preset_match l c r s : ahead s = c :: r -> caps s = [] ->
    good_match l s (match_at (number_spec (specification digit l) 1) s).
  Proof.
    intros E Hc. destruct l; cbn [specification].
    - destruct (python_match s c r E) as [s' [A [B C]]]. exists (python_length (c :: r)), s'. rewrite E. auto.
    - eapply macros_match; eauto; try discriminate. eapply comments_match; eauto; try discriminate.
      rewrite c_strings_match by (auto; lia). eapply basic_c_match; eauto; discriminate.
    - eapply comments_match; eauto; try discriminate. rewrite c_strings_match by (auto; lia). eapply basic_c_match; eauto; discriminate.
    - eapply comments_match; eauto; try discriminate. rewrite c_strings_match by (auto; lia). eapply basic_c_match; eauto; discriminate.
    - eapply basic_c_match; eauto; discriminate.
  Qed.

  (** ** The presets *)
  Lemma find_all_good l fuel : forall before rest, length rest <= fuel ->
    let ms := find_all (number_spec (specification digit l) 1) fuel before rest in
    concat (map fst ms) = rest /\ Forall (fun x => fst x <> [] /\ snd x = type_of l (fst x)) ms.
  Proof.
    induction fuel as [|fuel IH]; intros before rest Hf ms; subst ms.
    - destruct rest; [|cbn in Hf; lia]. split; [reflexivity|constructor].
    - cbn [find_all]. destruct rest as [|c rest]; [split; [reflexivity|constructor]|].
      destruct (preset_match l c rest (mkSpot before (c :: rest) []) eq_refl eq_refl) as [n [s' [E [[P1 P2] [N1 N2]]]]].
      rewrite E. cbn [ahead] in *. unfold advance in P1, P2. cbn [behind ahead] in P1, P2.
      assert (La : length (ahead s') = length (c :: rest) - n) by (rewrite P2; apply skipn_length).
      rewrite (proj2 (Nat.ltb_lt _ _)) by lia. replace (length (c :: rest) - length (ahead s')) with n by lia.
      destruct (IH (behind s') (ahead s')) as [A B]; [cbn [length] in *; lia|]. cbn [map fst concat]. rewrite A, P2. split.
      + apply firstn_skipn.
      + rewrite <- P2. constructor; [split; [destruct n; [lia|discriminate]|reflexivity]|exact B].
  Qed.
  (** Every character of the text is in exactly one token, tokens are not empty
      and their types are determined by their texts. *)
  Theorem preset_lossless l code : concat (map fst (preset_lex digit l code)) = code.
  Proof. unfold preset_lex, finditer. now apply find_all_good. Qed.
  Theorem preset_typed l code : Forall (fun x => snd x = type_of l (fst x)) (preset_lex digit l code).
  Proof. unfold preset_lex, finditer. eapply Forall_impl; [|now apply find_all_good]. cbn. intros x [_ H]. exact H. Qed.
  Theorem preset_nonempty l code : Forall (fun x => fst x <> []) (preset_lex digit l code).
  Proof. unfold preset_lex, finditer. eapply Forall_impl; [|now apply find_all_good]. cbn. intros x [H _]. exact H. Qed.
  Theorem preset_single l c : preset_lex digit l [c] = [([c], type_of l [c])].
  Proof.
    pose proof (preset_lossless l [c]) as A. pose proof (preset_typed l [c]) as B. pose proof (preset_nonempty l [c]) as C.
    destruct (preset_lex digit l [c]) as [|[t ty] ms]; [discriminate|]. inversion B as [|? ? B1 B2]; inversion C as [|? ? C1 C2]; subst. cbn [fst snd map concat] in *.
    destruct t as [|x t]; [contradiction|]. injection A as -> A. apply app_eq_nil in A as [-> A].
    destruct ms as [|[u uy] ms]; [now subst|]. inversion C2; subst. cbn [map fst concat] in *. apply app_eq_nil in A as [-> _]. contradiction.
  Qed.
End Facts.
