(** Proofs about the linked nodes of the bracket matcher. *)

From Coq Require Import List Bool Arith Lia Permutation.
From Verif Require Import Base StackParser StackParserProofs HeapTree LinkSpec HeapProofs HeapSplitProofs HeapNestProofs HeapMatch.
Import ListNotations.

Fixpoint kcomp (k k' : ctx) : ctx :=
  match k with Hole => k' | CNode a lo hi ann pre k0 post => CNode a lo hi ann pre (kcomp k0 k') post end.
Lemma fill_kcomp k k' t : fill (kcomp k k') t = fill k (fill k' t).
Proof. induction k as [|a lo hi ann pre k IH post]; cbn [kcomp fill]; auto. now rewrite IH. Qed.
Lemma fill_addr k S S' : addr S' = addr S -> addr (fill k S') = addr (fill k S).
Proof. now destruct k. Qed.

(** New children at the end of a node's children. *)
Lemma grow_kids h h' p a lo hi ann kids new :
  holds h p (LNode a lo hi ann kids) -> NoDup (addrs (LNode a lo hi ann kids)) ->
  length h <= length h' -> (forall x, x < length h -> x <> a -> nth_error h' x = nth_error h x) ->
  nth_error h' a = Some (mkCell lo hi p ann (map addr (kids ++ new))) -> Forall (holds h' (Some a)) new ->
  NoDup (flat_map addrs new) -> (forall x, In x (flat_map addrs new) -> length h <= x) ->
  holds h' p (LNode a lo hi ann (kids ++ new)) /\ grown h h' (addrs (LNode a lo hi ann kids)) (addrs (LNode a lo hi ann (kids ++ new))).
Proof.
  intros Hh N L Fr Ea Hn Nn Bn. pose proof (holds_bound _ _ _ a Hh ltac:(cbn; auto)) as Ba.
  assert (Bk : forall x, In x (flat_map addrs kids) -> x < length h) by (intros x I; apply (holds_bound _ _ _ x Hh); cbn; auto).
  cbn [addrs] in *. inversion N as [|x l Na Nk]; subst. split.
  - apply holds_eq in Hh as [_ K]. apply holds_eq. split; auto. apply Forall_app. split; auto. apply (Forall_holds_frame h); auto.
    intros u I x J. assert (I' : In x (flat_map addrs kids)) by (apply in_flat_map; eauto). apply Fr; auto. intros ->. auto.
  - rewrite flat_map_app. unfold grown. splits; auto.
    + constructor; [|apply NoDup_app_intro; auto; intros x I J; specialize (Bk x I); specialize (Bn x J); lia].
      intros I. apply in_app_iff in I as [I|I]; auto. specialize (Bn a I). lia.
    + intros x [<-|I]; [now left|right]. apply in_app_iff; auto.
    + intros x [<-|I]; [left; now left|]. apply in_app_iff in I as [I|I]; [left; now right|right; auto].
    + intros x Lx Nx. apply Fr; auto. intros ->. apply Nx. now left.
Qed.

Section Match.
  Context {T : Type} `{EqDec T}.
  Variables (pairs : list (T * T)) (tolerant : bool) (size : nat).

  Inductive opened : list (T * nat * list pnode) -> ctx -> nat -> option nat -> annotation_kind -> Prop :=
  | op_nil : opened [] Hole 0 (Some size) ARoot
  | op_cons o j bef st k lo hi ann pa pre n l : opened st k lo hi ann -> map shape pre = bef -> shape l = PNode j (Some (j + 1)) ALeft [] ->
      opened ((o, j, bef) :: st) (kcomp k (CNode pa lo hi ann pre (CNode n j None APaired [l] Hole []) [])) (j + 1) None AMiddle.
  Lemma opened_shape st k lo hi ann : opened st k lo hi ann -> forall a kids,
    shape (fill k (LNode a lo hi ann kids)) = PNode 0 (Some size) ARoot (close_all (mkMatching (map shape kids) st)).
  Proof.
    unfold close_all. cbn [stack current].
    induction 1 as [|o j bef st k lo hi ann pa pre n l Ho IH Eb El]; intros a kids; [reflexivity|].
    rewrite fill_kcomp. cbn [fill app]. rewrite IH. cbn [fold_left]. f_equal. f_equal. rewrite map_app. cbn [map shape]. rewrite Eb, El. reflexivity.
  Qed.

  Definition top (f : T * nat * list pnode) : T := fst (fst f).
  (** The nodes and the variables of the loop stand for the state of the functional model. *)
  Definition stands (h0 : heap) (m : @matching T) (s : heap * nat * list T) : Prop :=
    let '(h, parent, ops) := s in
    exists k lo hi ann kids, opened (stack m) k lo hi ann /\ map shape kids = current m /\ ops = map top (stack m) /\
      holds h None (fill k (LNode parent lo hi ann kids)) /\ NoDup (addrs (fill k (LNode parent lo hi ann kids))) /\
      addr (fill k (LNode parent lo hi ann kids)) = length h0 /\ length h0 <= length h /\ kept h0 h /\
      (forall x, In x (addrs (fill k (LNode parent lo hi ann kids))) -> length h0 <= x).

  Lemma kept_step h0 h h' o n : kept h0 h -> (forall x, In x o -> length h0 <= x) -> grown h h' o n ->
    kept h0 h' /\ (forall x, In x n -> length h0 <= x) /\ length h <= length h'.
  Proof.
    intros K B (L & _ & _ & W & F). splits; auto.
    - intros a c E. pose proof (K a c E) as E'. rewrite F; auto; [exact (nth_error_lt _ _ _ E')|]. intros I. specialize (B a I). apply nth_error_lt in E. lia.
    - intros x I. destruct (W x I) as [J|J]; auto. destruct (Nat.le_gt_cases (length h0) (length h)); [lia|].
      destruct h0 as [|c0 h0]; [cbn; lia|]. destruct (nth_error (c0 :: h0) (length h)) as [c|] eqn:E; [|apply nth_error_None in E; lia].
      apply K in E. apply nth_error_lt in E. lia.
  Qed.
  Lemma nth_error_append (h : heap) l x : x < length h -> nth_error (h ++ l) x = nth_error h x.
  Proof. apply nth_error_app1. Qed.
  Lemma nth_error_append0 (h : heap) l i : nth_error (h ++ l) (length h + i) = nth_error l i.
  Proof. rewrite nth_error_app2 by lia. f_equal. lia. Qed.

  (** A leaf at the end. *)
  Lemma stands_plain h0 m h par ops i : stands h0 m (h, par, ops) ->
    stands h0 (mkMatching (current m ++ [sibling i]) (stack m))
      (update par (append_child (length h)) (h ++ [mkCell i (Some (i + 1)) (Some par) ASibling []]), par, ops).
  Proof.
    intros (k & lo & hi & ann & kids & Ho & Ek & Eo & Hh & N & Ea & L & K & B).
    destruct (fill_step k _ _ _ Hh N) as [NS [p [Hp Re]]].
    set (new := LNode (length h) i (Some (i + 1)) ASibling []).
    set (h' := update par _ _).
    pose proof (holds_bound _ _ _ par Hp ltac:(cbn; auto)) as Bp. pose proof Hp as Hp0. apply holds_eq in Hp0 as [Ep _].
    assert (Lh : length h' = length h + 1) by (unfold h'; rewrite update_length, app_length; reflexivity).
    destruct (grow_kids h h' p par lo hi ann kids [new] Hp NS) as [Hn Gn].
    - lia.
    - intros x Lx Nx. unfold h'. rewrite update_other by auto. now apply nth_error_append.
    - unfold h'. erewrite update_same; [|rewrite nth_error_append by auto; exact Ep]. rewrite map_app. reflexivity.
    - constructor; [|constructor]. apply holds_eq. split; [|constructor]. unfold h'. rewrite update_other by lia. apply nth_error_new.
    - cbn. constructor; [auto|constructor].
    - cbn. intros x [<-|[]]. lia.
    - destruct (Re h' (LNode par lo hi ann (kids ++ [new])) eq_refl Hn Gn) as [Hf Gf]. destruct (kept_step _ _ _ _ _ K B Gf) as [K' [B' L']].
      exists k, lo, hi, ann, (kids ++ [new]). cbn [stack current]. splits; auto; [rewrite map_app, Ek; reflexivity|apply Gf|rewrite <- Ea; now apply fill_addr|lia].
  Qed.
  Lemma stands_open h0 m h par ops i token :
    stands h0 m (h, par, ops) -> mem token (openers pairs) = true -> forall s', heap_match_step pairs tolerant i token (h, par, ops) = s' ->
    exists t, s' = Some (Ok t) /\ stands h0 (mkMatching [] ((token, i, current m) :: stack m)) t.
  Proof.
    intros (k & lo & hi & ann & kids & Ho & Ek & Eo & Hh & N & Ea & L & K & B) Em s' <-. unfold heap_match_step. rewrite Em.
    destruct (fill_step k _ _ _ Hh N) as [NS [p [Hp Re]]].
    pose proof (holds_bound _ _ _ par Hp ltac:(cbn; auto)) as Bp. pose proof Hp as Hp0. apply holds_eq in Hp0 as [Ep _].
    set (n := length h). set (h1 := h ++ [mkCell i None (Some par) APaired []]). set (h2 := update n _ (h1 ++ _)).
    set (h3 := update par _ h2). set (h4 := update n _ (h3 ++ _)).
    assert (L1 : length h1 = n + 1) by (unfold h1; rewrite app_length; reflexivity).
    assert (L2 : length h2 = n + 2) by (unfold h2; rewrite update_length, app_length, L1; cbn; lia).
    assert (L3 : length h3 = n + 2) by (unfold h3; now rewrite update_length).
    assert (L4 : length h4 = n + 3) by (unfold h4; rewrite update_length, app_length, L3; cbn; lia).
    assert (E1n : nth_error h1 n = Some (mkCell i None (Some par) APaired [])) by apply nth_error_new.
    assert (E2n : nth_error h2 n = Some (mkCell i None (Some par) APaired [n + 1])).
    { unfold h2. erewrite update_same; [|rewrite nth_error_append by lia; exact E1n]. rewrite L1. reflexivity. }
    assert (E2l : nth_error h2 (n + 1) = Some (mkCell i (Some (i + 1)) (Some n) ALeft [])).
    { unfold h2. rewrite update_other by lia. rewrite <- L1. apply nth_error_new. }
    assert (E3n : nth_error h3 n = Some (mkCell i None (Some par) APaired [n + 1])) by (unfold h3; rewrite update_other by lia; exact E2n).
    assert (E4n : nth_error h4 n = Some (mkCell i None (Some par) APaired [n + 1; n + 2])).
    { unfold h4. erewrite update_same; [|rewrite nth_error_append by lia; exact E3n]. rewrite L3. reflexivity. }
    assert (E4l : nth_error h4 (n + 1) = Some (mkCell i (Some (i + 1)) (Some n) ALeft [])).
    { unfold h4. rewrite update_other by lia. rewrite nth_error_append by lia. unfold h3. rewrite update_other by lia. exact E2l. }
    assert (E4c : nth_error h4 (n + 2) = Some (mkCell (i + 1) None (Some n) AMiddle [])).
    { unfold h4. rewrite update_other by lia. rewrite <- L3. apply nth_error_new. }
    set (left_ := LNode (n + 1) i (Some (i + 1)) ALeft []). set (contents := LNode (n + 2) (i + 1) None AMiddle []).
    set (new := LNode n i None APaired [left_; contents]).
    destruct (grow_kids h h4 p par lo hi ann kids [new] Hp NS) as [Hn Gn].
    - fold n. lia.
    - intros x Lx Nx. fold n in Lx. unfold h4. rewrite update_other by lia. rewrite nth_error_append by lia. unfold h3. rewrite update_other by auto.
      unfold h2. rewrite update_other by lia. rewrite nth_error_append by lia. unfold h1. now apply nth_error_append.
    - fold n in Bp. unfold h4. rewrite update_other by lia. rewrite nth_error_append by lia. unfold h3.
      erewrite update_same; [|unfold h2; rewrite update_other by lia; rewrite nth_error_append by lia; unfold h1; rewrite nth_error_append by auto; exact Ep].
      rewrite map_app. reflexivity.
    - constructor; [|constructor]. apply holds_eq. split; [exact E4n|]. constructor; [|constructor; [|constructor]]; apply holds_eq; split; auto.
    - cbn. repeat (apply NoDup_cons; [cbn; lia|]). apply NoDup_nil.
    - cbn. fold n. lia.
    - destruct (Re h4 (LNode par lo hi ann (kids ++ [new])) eq_refl Hn Gn) as [Hf Gf]. destruct (kept_step _ _ _ _ _ K B Gf) as [K' [B' L']].
      eexists. split; [reflexivity|]. rewrite L3.
      assert (Q : fill (kcomp k (CNode par lo hi ann kids (CNode n i None APaired [left_] Hole []) [])) (LNode (n + 2) (i + 1) None AMiddle []) =
              fill k (LNode par lo hi ann (kids ++ [new]))) by (rewrite fill_kcomp; reflexivity).
      unfold stands. exists (kcomp k (CNode par lo hi ann kids (CNode n i None APaired [left_] Hole []) [])), (i + 1), None, AMiddle, [].
      rewrite Q. cbn [stack current]. splits; auto; [now apply op_cons|cbn; now rewrite Eo|apply Gf|rewrite <- Ea; now apply fill_addr|fold n in L; lia].
  Qed.
  Lemma stands_close h0 m h par ops i token o j bef rest :
    stands h0 m (h, par, ops) -> mem token (openers pairs) = false -> mem token (closers pairs) = true -> stack m = (o, j, bef) :: rest ->
    eqb (closer_to_opener pairs token) (Some o) = true -> forall s', heap_match_step pairs tolerant i token (h, par, ops) = s' ->
    exists t, s' = Some (Ok t) /\ stands h0 (mkMatching (bef ++ [paired j i (current m)]) rest) t.
  Proof.
    intros (k & lo & hi & ann & kids & Ho & Ek & Eo & Hh & N & Ea & L & K & B) Em1 Em2 Es Ec s' <-. unfold heap_match_step. rewrite Em1, Em2.
    rewrite Es in Ho, Eo. cbn [map top fst] in Eo. subst ops. rewrite Ec.
    inversion Ho as [|o' j' bef' st' k0 lo0 hi0 ann0 pa pre n l Ho0 Eb El]; subst.
    rewrite fill_kcomp in Hh, N, Ea, B. cbn [fill app] in Hh, N, Ea, B.
    set (S := LNode par (j + 1) None AMiddle kids) in *. set (N0 := LNode n j None APaired [l; S]) in *.
    destruct (fill_step k0 _ _ _ Hh N) as [NP [p [Hp Re]]].
    destruct (fill_step (CNode pa lo0 hi0 ann0 pre Hole []) h p N0 Hp NP) as [NN [p' [Hn Rn]]].
    assert (p' = Some pa).
    { pose proof Hp as Hp0. apply holds_eq in Hp0 as [_ Kp]. apply Forall_app in Kp as [_ Kp]. apply Forall_cons_iff in Kp as [Kp _].
      apply holds_cell in Kp. pose proof (holds_cell _ _ _ Hn) as Q. rewrite Q in Kp. injection Kp as Kp. exact Kp. } subst p'.
    pose proof Hn as Hn0. apply holds_eq in Hn0 as [En Kn]. apply Forall_cons_iff in Kn as [Kl Kn]. apply Forall_cons_iff in Kn as [KS _].
    pose proof KS as KS0. apply holds_eq in KS0 as [ES KK].
    unfold node_at. rewrite ES. cbn [obind c_parent]. rewrite En. cbn [obind c_children map].
    change (addr S) with par.
    set (h1 := update par _ h). set (r := length h1). set (h2 := update n _ (h1 ++ _)). set (h3 := update n _ h2).
    assert (Bn : n < length h) by (exact (nth_error_lt _ _ _ En)). assert (Bp : par < length h) by (exact (nth_error_lt _ _ _ ES)).
    unfold N0 in NN. cbn [addrs flat_map] in NN. rewrite app_nil_r in NN. inversion NN as [|x0 l0 Nn NN']; subst x0 l0.
    assert (Dnp : par <> n) by (intros ->; apply Nn; apply in_app_iff; right; unfold S; cbn; auto).
    assert (Er : r = length h) by (unfold r, h1; now rewrite update_length).
    assert (L3 : length h3 = length h + 1) by (unfold h3, h2; rewrite !update_length, app_length; fold r; rewrite Er; reflexivity).
    assert (Old : forall x, x < length h -> x <> n -> x <> par -> nth_error h3 x = nth_error h x).
    { intros x Lx D1 D2. unfold h3, h2. rewrite !update_other by auto. rewrite nth_error_append by (fold r; lia). unfold h1. now rewrite update_other by auto. }
    assert (E3p : nth_error h3 par = Some (mkCell (j + 1) (Some i) (Some n) AMiddle (map addr kids))).
    { unfold h3, h2. rewrite !update_other by auto. rewrite nth_error_append by (fold r; lia). unfold h1. erewrite update_same; [|exact ES]. reflexivity. }
    assert (E3n : nth_error h3 n = Some (mkCell j (Some (i + 1)) (Some pa) APaired [addr l; par; r])).
    { unfold h3. erewrite update_same; [|unfold h2; erewrite update_same; [reflexivity|]; rewrite nth_error_append by (fold r; lia); unfold h1; rewrite update_other by auto; exact En].
      reflexivity. }
    assert (E3r : nth_error h3 r = Some (mkCell i (Some (i + 1)) (Some n) ARight [])).
    { unfold h3, h2. rewrite !update_other by lia. apply nth_error_new. }
    rewrite E3n. cbn [obind c_parent].
    set (S' := LNode par (j + 1) (Some i) AMiddle kids). set (R := LNode r i (Some (i + 1)) ARight []).
    set (N1 := LNode n j (Some (i + 1)) APaired [l; S'; R]).
    assert (Bl : forall x, In x (addrs l) -> x < length h) by (intros x I; exact (holds_bound _ _ _ x Kl I)).
    assert (Bk : forall x, In x (flat_map addrs kids) -> x < length h) by (intros x I; apply (holds_bound _ _ _ x KS); cbn; auto).
    assert (Nl : ~ In n (addrs l) /\ ~ In par (addrs l)).
    { split; intros I; [apply Nn; apply in_app_iff; auto|]. apply (NoDup_app_disjoint _ _ par NN' I). unfold S. cbn. auto. }
    assert (Nk : ~ In n (flat_map addrs kids) /\ ~ In par (flat_map addrs kids)).
    { split; intros I; [apply Nn; apply in_app_iff; right; cbn; auto|]. apply NoDup_right in NN'. unfold S in NN'. cbn [addrs] in NN'. inversion NN'; auto. }
    assert (H1 : holds h3 (Some pa) N1).
    { apply holds_eq. split; [exact E3n|]. constructor; [|constructor; [|constructor; [|constructor]]].
      - apply (holds_frame l h); auto. intros x I. apply Old; auto; intros ->; tauto.
      - apply holds_eq. split; [exact E3p|]. apply (Forall_holds_frame h); auto. intros u I x J.
        assert (Q : In x (flat_map addrs kids)) by (apply in_flat_map; eauto). apply Old; auto; intros ->; tauto.
      - apply holds_eq. split; auto. }
    assert (PA : Permutation (addrs N1) (r :: addrs N0)).
    { unfold N1, N0, S', S, R. cbn [addrs flat_map app]. rewrite !app_nil_r. by_counting. }
    assert (Fresh : ~ In r (addrs N0)).
    { intros I. pose proof (holds_bound _ _ _ r Hn I). lia. }
    assert (G1 : grown h h3 (addrs N0) (addrs N1)).
    { unfold grown. splits.
      - lia.
      - apply (Permutation_NoDup (Permutation_sym PA)). constructor; auto. unfold N0. cbn [addrs flat_map]. rewrite app_nil_r. exact NN.
      - intros x I. apply (Permutation_in x (Permutation_sym PA)). now right.
      - intros x I. apply (Permutation_in x PA) in I. destruct I as [<-|I]; auto. right. lia.
      - intros x Lx Nx. apply Old; auto; intros ->; apply Nx; unfold N0, S; cbn; auto. right. apply in_app_iff. right. cbn. auto. }
    destruct (Rn h3 N1 eq_refl H1 G1) as [H2 G2]. cbn [fill] in H2, G2.
    destruct (Re h3 (LNode pa lo0 hi0 ann0 (pre ++ [N1])) eq_refl H2 G2) as [H3 G3]. destruct (kept_step _ _ _ _ _ K B G3) as [K' [B' L']].
    eexists. split; [reflexivity|]. unfold stands. exists k0, lo0, hi0, ann0, (pre ++ [N1]). cbn [stack current].
    splits; auto; [|apply G3|rewrite <- Ea; now apply fill_addr|lia].
    rewrite map_app. cbn [map]. f_equal. unfold N1, S', R. cbn [shape map]. rewrite El, Ek. reflexivity.
  Qed.
  Lemma stands_step h0 m s i token : stands h0 m s ->
    match match_step pairs tolerant i token m with
    | Err e => heap_match_step pairs tolerant i token s = Some (Err e)
    | Ok m' => exists s', heap_match_step pairs tolerant i token s = Some (Ok s') /\ stands h0 m' s'
    end.
  Proof.
    destruct s as [[h par] ops]. intros St. unfold match_step. destruct (mem token (openers pairs)) eqn:Em1.
    { destruct (stands_open h0 m h par ops i token St Em1 _ eq_refl) as [t [E Q]]. eauto. }
    destruct (mem token (closers pairs)) eqn:Em2.
    - destruct (stack m) as [|[[o j] bef] rest] eqn:Es.
      + exists (h, par, ops). split; auto. unfold heap_match_step. rewrite Em1, Em2.
        destruct St as (k & lo & hi & ann & kids & _ & _ & Eo & _). rewrite Es in Eo. cbn in Eo. now subst ops.
      + destruct (eqb (closer_to_opener pairs token) (Some o)) eqn:Ec.
        * destruct (stands_close h0 m h par ops i token o j bef rest St Em1 Em2 Es Ec _ eq_refl) as [t [E Q]]. eauto.
        * assert (Eo : exists ops', ops = o :: ops').
          { destruct St as (k & lo & hi & ann & kids & _ & _ & Eo & _). rewrite Es in Eo. cbn in Eo. eauto. }
          destruct Eo as [ops' ->].
          destruct tolerant eqn:Et; unfold heap_match_step; rewrite Em1, Em2, Ec; auto.
          eexists. split; [reflexivity|]. rewrite <- Es. now apply stands_plain.
    - eexists. unfold heap_match_step. rewrite Em1, Em2. split; [reflexivity|]. now apply stands_plain.
  Qed.
  Lemma stands_loop h0 tokens : forall i m s, stands h0 m s ->
    match match_loop pairs tolerant i tokens m with
    | Err e => heap_match_loop pairs tolerant i tokens s = Some (Err e)
    | Ok m' => exists s', heap_match_loop pairs tolerant i tokens s = Some (Ok s') /\ stands h0 m' s'
    end.
  Proof.
    induction tokens as [|t ts IH]; intros i m s St; cbn [match_loop heap_match_loop]; [eauto|].
    pose proof (stands_step h0 m s i t St) as Q. destruct (match_step pairs tolerant i t m) as [m'|e]; cbn [bind].
    - destruct Q as [s' [-> St']]. cbn [obind]. now apply IH.
    - rewrite Q. reflexivity.
  Qed.
End Match.

Theorem heap_match_spec {T} `{EqDec T} (pairs : list (T * T)) tolerant tokens h :
  match stack_based_bracket_match pairs tolerant tokens with
  | Err e => heap_match pairs tolerant tokens h = Some (Err e)
  | Ok n => exists h' t, heap_match pairs tolerant tokens h = Some (Ok (h', addr t)) /\ shape t = n /\ holds h' None t /\ NoDup (addrs t) /\
      kept h h' /\ (forall x, In x (addrs t) -> length h <= x)
  end.
Proof.
  unfold stack_based_bracket_match, heap_match. set (h1 := h ++ _).
  assert (St : stands (T := T) (length tokens) h (mkMatching [] []) (h1, length h, [])).
  { exists Hole, 0, (Some (length tokens)), ARoot, []. cbn [stack current map fill addr]. splits; auto.
    - apply op_nil.
    - apply holds_eq. split; [apply nth_error_new|constructor].
    - cbn. constructor; [auto|constructor].
    - unfold h1. rewrite app_length. lia.
    - intros a c E. unfold h1. rewrite nth_error_app1; auto. exact (nth_error_lt _ _ _ E).
    - cbn. intros x [<-|[]]. lia. }
  pose proof (stands_loop pairs tolerant (length tokens) h tokens 0 _ _ St) as Q.
  destruct (match_loop pairs tolerant 0 tokens (mkMatching [] [])) as [m|e]; cbn [bind]; [|now rewrite Q].
  destruct Q as [[[h' par] ops] [-> (k & lo & hi & ann & kids & Ho & Ek & Eo & Hh & N & Ea & L & K & B)]]. cbn [obind snd fst]. subst ops.
  pose proof (opened_shape _ _ _ _ _ _ Ho par kids) as Sh. rewrite Ek in Sh. destruct m as [cur st]. cbn [stack current] in *.
  assert (Fin : exists h2 t, Some (Ok (h', length h)) = Some (Ok (h2, addr t)) /\ shape t = PNode 0 (Some (length tokens)) ARoot (close_all (mkMatching cur st)) /\
     holds h2 None t /\ NoDup (addrs t) /\ kept h h2 /\ (forall x, In x (addrs t) -> length h <= x)).
  { exists h', (fill k (LNode par lo hi ann kids)). rewrite Ea. splits; auto. }
  destruct st as [|f st]; cbn [map]; auto. destruct tolerant; auto.
Qed.

(** * The check *)
Lemma cells_map h p kids : Forall (holds h p) kids -> cells h (map addr kids) = Some (map (cell_of p) kids).
Proof. induction 1 as [|t l Ht _ IH]; cbn [cells map]; auto. now rewrite (holds_cell _ _ _ Ht), IH. Qed.
Theorem heap_check_spec t : forall limit h p, lsize t <= limit -> holds h p t -> heap_check limit h (addr t) = Some (check_ranges (shape t)).
Proof.
  induction t as [a lo hi ann kids IH] using ltree_ind'. intros limit h p L Hh. destruct limit as [|limit]; [cbn in L; lia|].
  pose proof Hh as Hh0. apply holds_eq in Hh0 as [E K]. cbn [heap_check addr]. rewrite E. cbn [c_children]. rewrite (cells_map _ _ _ K).
  destruct kids as [|t0 l]; [reflexivity|]. cbn [map]. cbn [c_lo c_hi].
  assert (Al : forall ts, Forall (fun t => forall limit h p, lsize t <= limit -> holds h p t -> heap_check limit h (addr t) = Some (check_ranges (shape t))) ts ->
     list_sum (map lsize ts) <= limit -> Forall (holds h (Some a)) ts ->
     all_true (fun x => match nth_error h x with None => None | Some cx => if negb (eqb (c_parent cx) (Some a)) then Some false else heap_check limit h x end) (map addr ts)
     = Some (forallb check_ranges (map shape ts))).
  { induction 1 as [|t ts Ht _ IHt]; intros Lt Kt; cbn [map all_true forallb]; auto. apply Forall_cons_iff in Kt as [K1 K2].
    rewrite (holds_cell _ _ _ K1). change (c_parent (cell_of (Some a) t)) with (Some a). rewrite eqb_refl. cbn [negb].
    change (map lsize (t :: ts)) with (lsize t :: map lsize ts) in Lt. unfold list_sum in *. cbn [fold_right] in Lt.
    rewrite (Ht limit h (Some a)) by (auto; lia). destruct (check_ranges (shape t)); cbn [andb]; auto. apply IHt; auto. lia. }
  assert (El : c_hi (last (map (cell_of (Some a)) (t0 :: l)) (cell_of (Some a) t0)) = p_hi (last (map shape (t0 :: l)) (shape t0))).
  { rewrite (last_map (cell_of (Some a))), (last_map shape), shape_hi. reflexivity. }
  assert (Ec : map (fun c => Some (c_lo c)) (map (cell_of (Some a)) l) = map (fun c => Some (p_lo c)) (map shape l)).
  { rewrite !map_map. apply map_ext. intros u. now rewrite shape_lo. }
  assert (Er : map c_hi (removelast (map (cell_of (Some a)) (t0 :: l))) = map p_hi (removelast (map shape (t0 :: l)))).
  { assert (RM : forall A B (f : A -> B) (x : list A), removelast (map f x) = map f (removelast x)).
    { clear. induction x as [|y [|z x] IHx]; auto. cbn [map removelast] in *. now rewrite IHx. }
    rewrite !RM, !map_map. apply map_ext. intros u. now rewrite shape_hi. }
  change (check_ranges (shape (LNode a lo hi ann (t0 :: l)))) with
    ((lo =? p_lo (shape t0)) && eqb hi (p_hi (last (map shape (t0 :: l)) (shape t0))) && (match hi with Some _ => true | None => false end)
      && eqb (map (fun c => Some (p_lo c)) (map shape l)) (map p_hi (removelast (map shape (t0 :: l)))) && forallb check_ranges (map shape (t0 :: l))).
  cbn [map] in El, Er |- *. rewrite El, Ec, Er. change (c_lo (cell_of (Some a) t0)) with (l_lo t0). rewrite shape_lo.
  destruct (lo =? l_lo t0); cbn [negb andb]; auto. destruct (eqb hi _); cbn [negb andb]; auto.
  destruct hi as [e|]; [|now rewrite eqb_refl]. replace (eqb (Some e) None) with false by (destruct (eqb (Some e) None) eqn:Q; auto; apply eqb_eq in Q; discriminate).
  destruct (eqb (map _ _) _); cbn [negb andb]; auto. apply (Al (t0 :: l)); auto. cbn [lsize] in L. lia.
Qed.
Theorem heap_valid_spec t limit h p size : lsize t <= limit -> holds h p t -> heap_valid limit h (addr t) size = Some (valid_parse_ranges (shape t) size).
Proof.
  intros L Hh. unfold heap_valid, valid_parse_ranges. rewrite (holds_cell _ _ _ Hh). change (c_lo (cell_of p t)) with (l_lo t). change (c_hi (cell_of p t)) with (l_hi t).
  rewrite shape_lo, shape_hi. destruct (_ && _); cbn [andb]; auto. eapply heap_check_spec; eauto.
Qed.

Lemma cells_shows h kids : Forall (shows h) kids -> exists cs, cells h (map addr kids) = Some cs /\
  Forall2 (fun c t => exists p, c = cell_of p t) cs kids.
Proof.
  induction 1 as [|t l Ht _ [cs [E F]]]; cbn [cells map]; [exists []; split; auto; exact (Forall2_nil _)|].
  destruct t as [a lo hi ann kids]. apply shows_eq in Ht as [[p Et] _]. cbn [addr]. rewrite Et, E. eexists. split; [reflexivity|].
  apply Forall2_cons; auto. exists p. reflexivity.
Qed.
(** The check accepts only trees that are linked both ways. *)
Theorem heap_check_links t : forall limit h c, shows h t -> nth_error h (addr t) = Some c -> heap_check limit h (addr t) = Some true -> holds h (c_parent c) t.
Proof.
  induction t as [a lo hi ann kids IH] using ltree_ind'. intros limit h c S Ec E. destruct limit as [|limit]; [discriminate|].
  apply shows_eq in S as [[p Ep] K]. cbn [addr] in *. assert (c = mkCell lo hi p ann (map addr kids)) by congruence. subst c. cbn [c_parent].
  apply holds_eq. split; auto. cbn [heap_check] in E. rewrite Ep in E. cbn [c_children c_lo c_hi] in E.
  destruct (cells_shows h kids K) as [cs [Es F]]. rewrite Es in E. destruct cs as [|c0 cs]; [inversion F; constructor|].
  destruct (negb (lo =? c_lo c0)); [discriminate|]. destruct (negb (eqb hi _)); [discriminate|]. destruct (eqb hi None); [discriminate|].
  destruct (negb (eqb (map _ cs) _)); [discriminate|]. clear F Es c0 cs Ep Ec.
  induction kids as [|t l IHl]; [constructor|]. apply Forall_cons_iff in K as [K1 K2]. apply Forall_cons_iff in IH as [I1 I2]. cbn [map all_true] in E.
  destruct (nth_error h (addr t)) as [ct|] eqn:Et; [|discriminate]. destruct (negb (eqb (c_parent ct) (Some a))) eqn:Eq; [discriminate|].
  destruct (heap_check limit h (addr t)) as [[|]|] eqn:Eh; try discriminate. constructor; [|now apply IHl].
  apply negb_false_iff, eqb_eq in Eq. rewrite <- Eq. now apply (I1 limit h ct).
Qed.
