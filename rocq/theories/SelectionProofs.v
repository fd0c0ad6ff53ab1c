(** The edges, the order and the paths of the selection DAG. *)

From Coq Require Import List Bool Arith ZArith Lia QArith Qcanon Sorting.Sorted.
From Verif Require Import Base Graph GatedDag SeqNodes PackedSeq PackedSeqProofs Numbered Decisions SelectionDag SelectionSpec.
Import ListNotations.
Close Scope Qc_scope. Close Scope Q_scope. Close Scope Z_scope. Open Scope nat_scope.

(** ** A rank that grows along all edges and in list order. *)
Section Rank.
  Context {St As In : Type} (f : St -> nat).
  Notation E := (edge St As In).
  Definition ranked (lo hi : nat) (es : list E) : Prop :=
    StronglySorted (fun e e' => f (source e) <= f (source e')) es /\ Forall (fun e => lo <= f (source e) < hi) es.
  Lemma ranked_nil lo hi : ranked lo hi [].
  Proof. split; constructor. Qed.
  Lemma ranked_app lo mid hi a b : ranked lo mid a -> ranked mid hi b -> lo <= mid <= hi -> ranked lo hi (a ++ b).
  Proof.
    intros [S1 F1] [S2 F2] H. split.
    - clear -S1 F1 S2 F2. induction S1 as [|e a S1 IH F]; cbn [app]; auto. inversion F1; subst. constructor; auto.
      apply Forall_app. split; auto. eapply Forall_impl; [|exact F2]. cbn. intros e' ?. lia.
    - apply Forall_app. split; (eapply Forall_impl; [|eassumption]); cbn; intros; lia.
  Qed.
  Lemma ranked_mono lo hi lo' hi' es : ranked lo hi es -> lo' <= lo -> hi <= hi' -> ranked lo' hi' es.
  Proof. intros [S F] H1 H2. split; auto. eapply Forall_impl; [|exact F]. cbn. intros; lia. Qed.
  Lemma ranked_same r es : Forall (fun e => f (source e) = r) es -> ranked r (S r) es.
  Proof.
    intros F. split.
    - induction F as [|e es He F IH]; constructor; auto. eapply Forall_impl; [|exact F]. cbn. intros; lia.
    - eapply Forall_impl; [|exact F]. cbn. intros; lia.
  Qed.
  Lemma ranked_topological lo hi es : ranked lo hi es -> Forall (fun e => f (source e) < f (dest e)) es -> topological es.
  Proof.
    intros [S _] F. split.
    - induction S as [|e es S IH G]; cbn; auto. inversion F; subst. split; auto.
      intros e' He' C. rewrite Forall_forall in G, H2. specialize (G e' He'). specialize (H2 e' He'). rewrite C in H2. lia.
    - rewrite Forall_forall in F. intros e He C. specialize (F e He). rewrite C in F. lia.
  Qed.
End Rank.

Section Selection.
  Context {M : Type} {md : EqDec M} (U : text -> M -> utilities).
  Notation L := (lnode M).
  Notation step := (@step M).

  (** ** The edges of a round, by the steps of the walks. *)
  Definition number_of (w : step) : nat :=
    match w with WToken k _ _ | WOpen k _ | WClose k _ | WStart k | WEnd k | WExit k => k end.
  Definition visible (t : option step) : option nat :=
    match t with Some (WToken k _ _) | Some (WOpen k _) | Some (WClose k _) => Some k | _ => None end.
  Definition opt {A} (l : list A) : option A := match l with x :: _ => Some x | [] => None end.
  Definition alike (w : step) (t : option step) : option (nat * Qc) :=
    match w, t with
    | WToken _ x m, Some (WToken k' x' m') => if eqb x x' && eqb m m' then Some (k', (- match_utility (U x m))%Qc) else None
    | WOpen _ m, Some (WOpen k' m') => if eqb m m' then Some (k', 0%Qc) else None
    | WClose _ m, Some (WClose k' m') => if eqb m m' then Some (k', 0%Qc) else None
    | _, _ => None
    end.
  Definition blk (adv : bool) (i j : nat) (w : step) (t : option step) : list sedge :=
    let k := number_of w in
    match w with
    | WExit _ => []
    | _ => [mkEdge (SAt SkipUnselected i j) (SAt SkipUnselected (S i) j) (Fin 0) (opt (left_out w)) (Some (mkSInfo SkipUnselected (Some k) None))]
    end ++
    match w with
    | WStart _ =>
        [mkEdge (SAt SkipUnselected i j) (SAt SkipInTarget (S i) j) (Fin 0) (Some ((k, RegionShouldStart), DTrue)) None;
         mkEdge (SAt SkipUnselected i j) (SAt SelectUnmatched (S i) j) (Fin 0) (Some ((k, RegionShouldStart), DTrue)) None]
    | _ => []
    end ++
    match visible t with
    | Some y => [mkEdge (SAt SkipInTarget i j) (SAt SkipInTarget i (S j)) (Fin 0) None (Some (mkSInfo SkipInTarget None (Some y)));
                 mkEdge (SAt SkipInTarget i j) (SAt SelectMatched i j) (Fin 0) None None]
    | None => []
    end ++
    match alike w t with
    | Some (y, c) => [mkEdge (SAt SelectMatched i j) (SAt SelectMatched (S i) (S j)) (Fin c) (opt (taken w)) (Some (mkSInfo SelectMatched (Some k) (Some y)))]
    | None => []
    end ++
    match w with
    | WStart _ => [mkEdge (SAt SelectMatched i j) (SAt SelectMatched (S i) j) (Fin 0) (opt (taken w)) (Some (mkSInfo SelectMatched (Some k) None))]
    | WEnd _ =>
        [mkEdge (SAt SelectMatched i j) (SAt SkipUnselected (S i) j) (Fin 0) (Some ((k, RegionShouldEnd), DTrue)) None;
         mkEdge (SAt SelectMatched i j) (SAt SelectMatched (S i) j) (Fin 0) (opt (taken w)) (Some (mkSInfo SelectMatched (Some k) None))]
    | _ => []
    end ++
    match w with
    | WExit _ => []
    | WEnd _ =>
        (if adv then [mkEdge (SAt SelectUnmatched i j) (SAt SelectUnmatched (S i) j) (Fin (penalty U w)) (opt (taken w)) (Some (mkSInfo SelectUnmatched (Some k) None))] else []) ++
        [mkEdge (SAt SelectUnmatched i j) (SAt SkipUnselected (S i) j) (Fin 0) (Some ((k, RegionShouldEnd), DTrue)) None]
    | _ => [mkEdge (SAt SelectUnmatched i j) (SAt SelectUnmatched (S i) j) (Fin (penalty U w)) (opt (taken w)) (Some (mkSInfo SelectUnmatched (Some k) None))]
    end.
  Definition next_flag (b : bool) (w : step) : bool := match w with WEnd _ => b | WExit _ => false | _ => true end.
  Fixpoint row (adv : bool) (i j : nat) (w : step) (ts : list (option step)) : list sedge :=
    match ts with [] => [] | t :: ts' => blk adv i j w t ++ row adv i (S j) w ts' end.
  Fixpoint rows (b : bool) (i : nat) (ws : list step) (ts : list (option step)) : list sedge :=
    match ws with
    | [] => []
    | w :: ws' => row (next_flag b w) i 0 w ts ++ rows (next_flag b w) (S i) ws' ts
    end.

  (** ** The model makes these edges. *)
  Definition reads (S : storage M) (x : item) (w : step) : Prop :=
    match w with
    | WToken k t m => fst x = VLeaf /\ cat (snd x) = CToken /\ pre (snd x) = k /\ lookup (tokens S) (idx (snd x)) = Ok (t, m)
    | WOpen k m => fst x = VBefore /\ cat (snd x) = CGroup /\ pre (snd x) = k /\ exists c, lookup (groups S) (idx (snd x)) = Ok (c, m)
    | WClose k m => fst x = VAfter /\ cat (snd x) = CGroup /\ pre (snd x) = k /\ exists c, lookup (groups S) (idx (snd x)) = Ok (c, m)
    | WStart k => fst x = VLeaf /\ cat (snd x) = CStart /\ pre (snd x) = k
    | WEnd k => fst x = VLeaf /\ cat (snd x) = CEnd /\ pre (snd x) = k
    | WExit k => fst x = VLeaf /\ cat (snd x) = CExit /\ pre (snd x) = k
    end.
  Lemma placed_reads S (x : L) : placed S x -> Forall2 (reads S) (lvisit true x) (walk x).
  Proof.
    induction x as [i t|i t m|i|i|i|i cs m IH] using lnode_ind'; intros Hp; apply placed_inv in Hp; cbn [lvisit walk label].
    - constructor.
    - destruct Hp. repeat constructor; auto.
    - repeat constructor; auto.
    - repeat constructor; auto.
    - repeat constructor; auto.
    - destruct Hp as [Hc [Hl F]]. constructor; [cbn; eauto 10|]. apply Forall2_app.
      + clear -IH F. induction F as [|c cs Hc F IHf]; [constructor|]. inversion IH; subst. cbn [flat_map]. apply Forall2_app; auto.
      + constructor; [cbn; eauto 10|constructor].
  Qed.
  Lemma pack_reads (ns : list (node M)) :
    exists l, in_order_traversal (pack ns) true = Ok l /\ Forall2 (reads (pack ns)) l (walks (labelled ns)).
  Proof.
    eexists. split; [apply in_order_pack|]. pose proof (pack_placed ns) as F. unfold walks.
    induction F as [|x l Hx F IH]; [constructor|]. cbn [flat_map]. apply Forall2_app; auto. now apply placed_reads.
  Qed.
  Definition reads_option (S : storage M) (x : option item) (w : option step) : Prop :=
    match x, w with Some x, Some w => reads S x w | None, None => True | _, _ => False end.
  Ltac known := repeat match goal with H : ?a = _ |- context [?a] => rewrite H end.
  Lemma round_reads Sp St flag i j x w t y : reads Sp x w -> reads_option St t y ->
    round U Sp St flag i j x t =
      match w, flag with
      | WEnd _, None => Err UnboundLocalError
      | _, None => Ok (blk (next_flag true w) i j w y, Some (next_flag true w))
      | _, Some b => Ok (blk (next_flag b w) i j w y, Some (next_flag b w))
      end.
  Proof.
    destruct x as [v x]. unfold reads. intros Hx Ht. unfold round, skipping, starting, matching_tokens, matching_groups, matched_start, matched_end,
      unmatched, unmatched_end, skipping_target, starting_to_match, is_text_or_group, matching_edge, staying_matched.
    destruct t as [[v' y']|], y as [y|]; cbn in Ht; try contradiction.
    - destruct w as [k tx m|k m|k m|k|k|k]; cbn [fst snd] in Hx |- *; unfold blk; cbn [number_of fst snd];
        repeat match goal with H : _ /\ _ |- _ => destruct H end;
        repeat match goal with H : exists _, _ |- _ => destruct H end; subst; known; cbn [assert_leaf group_assignment bind fst snd];
      destruct y as [k' tx' m'|k' m'|k' m'|k'|k'|k']; cbn [fst snd reads] in Ht;
        repeat match goal with H : _ /\ _ |- _ => destruct H end;
        repeat match goal with H : exists _, _ |- _ => destruct H end; subst; known; cbn [assert_leaf group_assignment bind fst snd visible alike];
      known; cbn [bind fst snd];
      try (destruct flag as [[]|]; reflexivity);
      try (destruct (_ && _); destruct flag as [[]|]; reflexivity);
      try (match goal with |- context [if ?b then _ else _] => destruct b end; destruct flag as [[]|]; reflexivity).
    - destruct w as [k tx m|k m|k m|k|k|k]; cbn [fst snd] in Hx |- *; unfold blk; cbn [number_of fst snd];
        repeat match goal with H : _ /\ _ |- _ => destruct H end;
        repeat match goal with H : exists _, _ |- _ => destruct H end; subst; known; cbn [assert_leaf group_assignment bind fst snd visible alike];
      known; cbn [bind fst snd]; (destruct flag as [[]|]; reflexivity).
  Qed.

  Lemma targets_reads Sp St i x w : reads Sp x w -> forall ts ys, Forall2 (reads_option St) ts ys -> forall flag j,
    targets_loop U Sp St flag i j x ts =
      match ts with
      | [] => Ok ([], flag)
      | _ => match w, flag with
             | WEnd _, None => Err UnboundLocalError
             | _, None => Ok (row (next_flag true w) i j w ys, Some (next_flag true w))
             | _, Some b => Ok (row (next_flag b w) i j w ys, Some (next_flag b w))
             end
      end.
  Proof.
    intros Hx ts ys F. induction F as [|t y ts ys Ht F IH]; intros flag j; [reflexivity|]. cbn [targets_loop row].
    rewrite (round_reads Sp St flag i j x w t y Hx Ht).
    destruct w, flag as [b|]; cbn [next_flag bind fst snd]; try reflexivity; rewrite IH; destruct ts as [|t' ts]; inversion F; subst; cbn [row bind fst snd next_flag]; rewrite ?app_nil_r; reflexivity.
  Qed.
  Lemma prototypes_reads Sp St ts ys : ts <> [] -> Forall2 (reads_option St) ts ys -> forall xs ws, Forall2 (reads Sp) xs ws -> forall b i,
    prototypes_loop U Sp St (Some b) i xs ts = Ok (rows b i ws ys).
  Proof.
    intros N F xs ws G. induction G as [|x w xs ws Hx G IH]; intros b i; [reflexivity|]. cbn [prototypes_loop rows].
    rewrite (targets_reads Sp St i x w Hx ts ys F). destruct ts as [|t ts]; [now destruct N|].
    destruct w; cbn [next_flag bind fst snd]; rewrite IH; reflexivity.
  Qed.
  Lemma prototypes_start Sp St ts ys xs ws : ts <> [] -> Forall2 (reads_option St) ts ys -> Forall2 (reads Sp) xs ws -> ~ begins_with_end ws ->
    prototypes_loop U Sp St None 0 xs ts = Ok (rows true 0 ws ys).
  Proof.
    intros N F G B. destruct G as [|x w xs ws Hx G]; [reflexivity|]. cbn [prototypes_loop rows].
    rewrite (targets_reads Sp St 0 x w Hx ts ys F). destruct ts as [|t ts]; [now destruct N|].
    destruct w; cbn [next_flag bind fst snd]; try (rewrite (prototypes_reads Sp St (t :: ts) ys N F _ _ G); reflexivity). now destruct B.
  Qed.
  Lemma prototypes_fail Sp St ts ys xs ws : ts <> [] -> Forall2 (reads_option St) ts ys -> Forall2 (reads Sp) xs ws -> begins_with_end ws ->
    prototypes_loop U Sp St None 0 xs ts = Err UnboundLocalError.
  Proof.
    intros N F G B. destruct G as [|x w xs ws Hx G]; [destruct B|]. cbn [prototypes_loop].
    rewrite (targets_reads Sp St 0 x w Hx ts ys F). destruct ts as [|t ts]; [now destruct N|]. destruct w; destruct B. reflexivity.
  Qed.

  (** ** Order. *)
  Section Order.
    Context (n m : nat).
    Definition code (c : scategory) : nat := match c with SkipUnselected => 0 | SkipInTarget => 1 | SelectMatched => 2 | SelectUnmatched => 3 end.
    Definition rank (s : sstate) : nat := match s with SAt c i j => (i * m + j) * 4 + code c | SFinal => S (n * m + m) * 4 end.
    Lemma blk_ranked b i j w t : ranked rank ((i * m + j) * 4) ((i * m + S j) * 4) (blk b i j w t).
    Proof.
      unfold blk.
      assert (G : forall c (es : list sedge), Forall (fun e => source e = SAt c i j) es -> ranked rank ((i * m + j) * 4 + code c) ((i * m + j) * 4 + S (code c)) es).
      { intros c es F. eapply ranked_mono; [apply (ranked_same _ ((i * m + j) * 4 + code c))| |]; try lia.
        eapply Forall_impl; [|exact F]. cbn. now intros e ->. }
      set (r := (i * m + j) * 4) in *.
      match goal with |- ranked _ _ _ (?a ++ ?b' ++ ?c ++ ?d ++ ?e ++ ?f) =>
        replace (a ++ b' ++ c ++ d ++ e ++ f) with ((a ++ b') ++ c ++ (d ++ e) ++ f) by (rewrite <- !app_assoc; reflexivity) end.
      apply (ranked_app _ _ (r + 1)); [| |lia].
      { specialize (G SkipUnselected). cbn [code] in G. rewrite Nat.add_0_r in G. eapply ranked_mono; [apply G| |]; try lia. destruct w; repeat constructor. }
      apply (ranked_app _ _ (r + 2)); [| |lia].
      { specialize (G SkipInTarget). cbn [code] in G. eapply ranked_mono; [apply G| |]; try lia. destruct (visible t); repeat constructor. }
      apply (ranked_app _ _ (r + 3)); [| |lia].
      { specialize (G SelectMatched). cbn [code] in G. eapply ranked_mono; [apply G| |]; try lia. apply Forall_app. split; [destruct (alike w t) as [[]|]|destruct w]; repeat constructor. }
      { specialize (G SelectUnmatched). cbn [code] in G. eapply ranked_mono; [apply G| |]; try lia. destruct w; try destruct b; repeat constructor. }
    Qed.
    Lemma blk_grows b i j w t : i < n -> j < m -> Forall (fun e => rank (source e) < rank (dest e)) (blk b i j w t).
    Proof.
      intros Hi Hj. unfold blk.
      assert (G : forall c c', rank (SAt c i j) < rank (SAt c' (S i) j)) by (intros [] []; cbn; nia).
      assert (G' : forall c c', rank (SAt c i j) < rank (SAt c' (S i) (S j))) by (intros [] []; cbn; nia).
      repeat (apply Forall_app; split).
      - destruct w; repeat constructor; apply G.
      - destruct w; repeat constructor; apply G.
      - destruct (visible t); repeat constructor; cbn; lia.
      - destruct (alike w t) as [[]|]; repeat constructor; apply G'.
      - destruct w; repeat constructor; apply G.
      - destruct w; try destruct b; repeat constructor; apply G.
    Qed.
    Lemma row_ranked b i w ts : forall j, ranked rank ((i * m + j) * 4) ((i * m + (j + length ts)) * 4) (row b i j w ts).
    Proof.
      induction ts as [|t ts IH]; intros j; cbn [row length]; [apply ranked_nil|].
      eapply ranked_app; [apply blk_ranked|eapply ranked_mono; [apply IH| |]|]; lia.
    Qed.
    Lemma row_grows b i w ts : i < n -> forall j, j + length ts <= m -> Forall (fun e => rank (source e) < rank (dest e)) (row b i j w ts).
    Proof.
      intros Hi. induction ts as [|t ts IH]; intros j Hj; cbn [row length] in *; [constructor|]. apply Forall_app. split; [apply blk_grows; lia|apply IH; lia].
    Qed.
    Lemma rows_ranked ts ws : length ts = m -> forall b i, ranked rank (i * m * 4) ((i + length ws) * m * 4) (rows b i ws ts).
    Proof.
      intros Hm. induction ws as [|w ws IH]; intros b i; cbn [rows length]; [apply ranked_nil|].
      eapply (ranked_app _ _ (S i * m * 4)); [eapply ranked_mono; [apply row_ranked| |]|eapply ranked_mono; [apply IH| |]|]; try nia; rewrite ?Hm; nia.
    Qed.
    Lemma rows_grow ts ws : length ts = m -> forall b i, i + length ws <= n -> Forall (fun e => rank (source e) < rank (dest e)) (rows b i ws ts).
    Proof.
      intros Hm. induction ws as [|w ws IH]; intros b i Hi; cbn [rows length] in *; [constructor|]. apply Forall_app. split; [apply row_grows; lia|apply IH; lia].
    Qed.
    Lemma finishing_ranked a l : ranked rank ((n * m + a) * 4) ((n * m + a + l) * 4)
      (map (fun j => mkEdge (SAt SkipUnselected n j) SFinal (Fin 0) None None : sedge) (seq a l)).
    Proof.
      revert a. induction l as [|l IH]; intros a; cbn [seq map]; [apply ranked_nil|].
      match goal with |- ranked _ _ _ (?x :: ?y) => change (x :: y) with ([x] ++ y) end.
      eapply (ranked_app _ _ ((n * m + S a) * 4)); [eapply ranked_mono; [apply (ranked_same _ ((n * m + a) * 4))| |]|eapply ranked_mono; [apply (IH (S a))| |]|]; try lia.
      constructor; [cbn; lia|constructor].
    Qed.
  End Order.
  Definition all_edges (ws ts : list step) : list sedge :=
    rows true 0 ws (map Some ts ++ [None]) ++ finishing (length ws) (S (length ts)).
  Lemma ends_len (ts : list step) : length (map Some ts ++ [@None step]) = S (length ts).
  Proof. rewrite app_length, map_length. cbn. lia. Qed.
  Lemma all_edges_topological ws ts : topological (all_edges ws ts).
  Proof.
    unfold all_edges. set (m := S (length ts)).
    apply (ranked_topological (rank (length ws) m) 0 (S (length ws * m + m) * 4)).
    - eapply (ranked_app _ _ (length ws * m * 4)); [eapply ranked_mono; [apply (rows_ranked (length ws) m); apply ends_len| |]|eapply ranked_mono; [apply (finishing_ranked (length ws) m 0)| |]|]; lia.
    - apply Forall_app. split; [apply rows_grow; [apply ends_len|lia]|]. unfold finishing. apply Forall_forall. intros e He.
      apply in_map_iff in He as [j [<- Hj]]. apply in_seq in Hj. cbn. lia.
  Qed.

  Theorem construct_selection_ok (ns ts : list (node M)) : ~ begins_with_end (walks (labelled ns)) ->
    construct_selection_dag U (pack ns) (pack ts) =
      Ok (mkDag (SAt SkipUnselected 0 0) (all_edges (walks (labelled ns)) (walks (labelled ts))) SFinal).
  Proof.
    intros B. unfold construct_selection_dag. destruct (pack_reads ns) as [xs [E1 F1]]. destruct (pack_reads ts) as [ys [E2 F2]].
    rewrite E1, E2. cbn [bind]. cbv zeta.
    assert (F : Forall2 (reads_option (pack ts)) (map Some ys ++ [None]) (map Some (walks (labelled ts)) ++ [None])).
    { apply Forall2_app; [|repeat constructor]. clear -F2. induction F2; cbn [map]; constructor; auto. }
    match goal with |- context [prototypes_loop ?u ?p ?q ?r ?v ?w ?z] =>
      replace (prototypes_loop u p q r v w z) with (Ok (rows true 0 (walks (labelled ns)) (map Some (walks (labelled ts)) ++ [None])))
        by (symmetry; exact (prototypes_start _ _ _ _ _ _ (fun C => app_cons_not_nil _ _ _ (eq_sym C)) F F1 B)) end. cbn [bind].
    assert (Ln : length xs = length (walks (labelled ns))) by (clear -F1; induction F1; cbn; congruence).
    assert (Lm : length (map Some ys ++ [@None item]) = S (length (walks (labelled ts)))).
    { rewrite app_length, map_length. cbn. replace (length ys) with (length (walks (labelled ts))) by (clear -F2; induction F2; cbn; congruence). lia. }
    match goal with |- context [finishing ?a ?b] => replace (finishing a b) with (finishing (length (walks (labelled ns))) (S (length (walks (labelled ts)))))
      by (f_equal; [exact (eq_sym Ln)|exact (eq_sym Lm)]) end.
    fold (all_edges (walks (labelled ns)) (walks (labelled ts))).
    pose proof (proj2 (add_edges_ok_iff (all_edges (walks (labelled ns)) (walks (labelled ts))) (partial_starting_from (SAt SkipUnselected 0 0))
      (partial_inv_start _)) (proj1 (all_edges_topological _ _))) as [d' Hd].
    rewrite Hd. cbn [bind]. destruct (add_edges_inv _ _ _ (partial_inv_start _) Hd) as [_ [E3 E4]].
    unfold partial_finish. rewrite E3, E4. reflexivity.
  Qed.
  Theorem construct_selection_fails (ns ts : list (node M)) : begins_with_end (walks (labelled ns)) ->
    construct_selection_dag U (pack ns) (pack ts) = Err UnboundLocalError.
  Proof.
    intros B. unfold construct_selection_dag. destruct (pack_reads ns) as [xs [E1 F1]]. destruct (pack_reads ts) as [ys [E2 F2]].
    rewrite E1, E2. cbn [bind]. cbv zeta.
    assert (F : Forall2 (reads_option (pack ts)) (map Some ys ++ [None]) (map Some (walks (labelled ts)) ++ [None])).
    { apply Forall2_app; [|repeat constructor]. clear -F2. induction F2; cbn [map]; constructor; auto. }
    match goal with |- context [prototypes_loop ?u ?p ?q ?r ?v ?w ?z] =>
      replace (prototypes_loop u p q r v w z) with (@Err (list sedge) UnboundLocalError)
        by (symmetry; exact (prototypes_fail _ _ _ _ _ _ (fun C => app_cons_not_nil _ _ _ (eq_sym C)) F F1 B)) end. reflexivity.
  Qed.
End Selection.
