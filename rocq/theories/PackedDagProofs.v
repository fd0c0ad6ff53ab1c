(** Proofs about the packed DAG's cost tables (model in [PackedDag.v]). *)

From Coq Require Import List Bool Arith Lia ZArith QArith Qcanon.
From Verif Require Import Base Graph PackedDag.
Import ListNotations.
Close Scope Qc_scope. Close Scope Q_scope. Open Scope nat_scope.

(** ** Least elements. *)
Lemma least_unique S a b : least S a -> least S b -> a = b.
Proof.
  intros [Na [La Ea]] [Nb [Lb Eb]]. apply cle_antisym.
  - destruct Eb as [Eb| ->]; [auto|now apply cle_Inf].
  - destruct Ea as [Ea| ->]; [auto|now apply cle_Inf].
Qed.
Lemma least_ext (S S' : cost -> Prop) a : (forall c, S c <-> S' c) -> least S a -> least S' a.
Proof.
  intros H [N [L E]]. unfold least; splits; auto.
  - intros x Hx. apply L. now apply H.
  - destruct E as [E|E]; [left; now apply H|auto].
Qed.
Lemma least_union S1 S2 a b :
  least S1 a -> least S2 b -> least (fun c => S1 c \/ S2 c) (cmin a b).
Proof.
  intros [Na [La Ea]] [Nb [Lb Eb]]. unfold least; splits.
  - now apply cmin_notnan.
  - intros x [Hx|Hx].
    + eapply cle_trans; [apply cmin_le_l; auto|auto].
    + eapply cle_trans; [apply cmin_le_r; auto|auto].
  - destruct (cmin_cases a b) as [->| ->]; tauto.
Qed.
Lemma least_add S a w :
  w <> NaN -> least S a -> least (fun c => exists x, S x /\ c = cadd x w) (cadd a w).
Proof.
  intros Nw [Na [La Ea]]. unfold least; splits.
  - now apply cadd_notnan.
  - intros c [x [Hx ->]]. apply cadd_le; [auto|now apply cle_refl].
  - destruct Ea as [Ea| ->]; [left; eauto|right]. destruct w; simpl; congruence.
Qed.
Lemma least_add2 S1 S2 a b :
  least S1 a -> least S2 b ->
  least (fun c => exists x y, S1 x /\ S2 y /\ c = cadd x y) (cadd a b).
Proof.
  intros [Na [La Ea]] [Nb [Lb Eb]]. unfold least; splits.
  - now apply cadd_notnan.
  - intros c [x [y [Hx [Hy ->]]]]. apply cadd_le; auto.
  - destruct Ea as [Ea| ->].
    + destruct Eb as [Eb| ->]; [left; eauto 6|right; destruct a; simpl; congruence].
    + right; destruct b; simpl; congruence.
Qed.
Lemma least_empty (S : cost -> Prop) : (forall c, ~ S c) -> least S Inf.
Proof. intros H. unfold least; splits; [discriminate| |now right]. intros x Hx; now apply H in Hx. Qed.
Lemma least_Inf_only S a : least S a -> (forall c, S c -> c = Inf) -> a = Inf.
Proof. intros [N [L E]] H. destruct E as [E|E]; auto. Qed.

(** ** Weighted paths. *)
Definition weight (P : list (list cost)) (e : pedge) : cost := cadd (ecost e) (penalty P e).
Definition wcost (w : pedge -> cost) (p : list pedge) : cost := csum (map w p).
Lemma wcost_app w p q : wcost w (p ++ q) = cadd (wcost w p) (wcost w q).
Proof. unfold wcost. rewrite map_app. apply csum_app. Qed.
Lemma wcost_cons w e p : wcost w (e :: p) = cadd (w e) (wcost w p).
Proof. reflexivity. Qed.

Lemma cadd_swap a b c d : cadd (cadd a b) (cadd c d) = cadd (cadd a c) (cadd b d).
Proof.
  rewrite <- !cadd_assoc. f_equal. rewrite !cadd_assoc. f_equal. apply cadd_comm.
Qed.

Lemma penalized_wcost P p : penalized_cost P p = wcost (weight P) p.
Proof.
  unfold penalized_cost. induction p as [|e p IH].
  - reflexivity.
  - rewrite wcost_cons, <- IH. clear IH. change (path_cost (e :: p)) with (cadd (ecost e) (path_cost p)). unfold weight, penalty.
    cbn [path_assignments]. destruct (assignment e) as [[k v]|].
    + cbn [map csum fold_right fst snd]. fold (csum (map (fun a => nth (snd a) (nth (fst a) P []) NaN) (path_assignments p))).
      apply cadd_swap.
    + rewrite cadd_0_r. symmetry. apply cadd_assoc.
Qed.

Definition pcosts (w : pedge -> cost) (es : list pedge) s t (c : cost) : Prop :=
  exists p, is_path es s p t /\ wcost w p = c.

Lemma wcost_notnan w es s p t :
  (forall e, In e es -> w e <> NaN) -> is_path es s p t -> wcost w p <> NaN.
Proof.
  intros H. induction 1 as [|e p t He Hp IH]; [discriminate|].
  rewrite wcost_cons. apply cadd_notnan; auto.
Qed.

(** A path through [es ++ [e]] not using [e] except as its last edge. *)
Lemma path_snoc_split (es : list pedge) (e : pedge) s p t :
  topological (es ++ [e]) -> is_path (es ++ [e]) s p t ->
  is_path es s p t \/ (exists q, p = q ++ [e] /\ is_path es s q (source e) /\ t = dest e).
Proof.
  intros [Ho Hl] Hp.
  apply ordered_app in Ho as [Ho1 [_ Ho2]].
  assert (Hd : forall e', In e' (es ++ [e]) -> source e' <> dest e).
  { intros e' Hi. apply in_app_or in Hi as [Hi|[<-|[]]].
    - intros E. apply (Ho2 e' e Hi); simpl; auto.
    - apply Hl, in_or_app; right; simpl; auto. }
  induction Hp as [s|e' p t He Hp IH].
  - left; constructor.
  - apply in_app_or in He as [He|[<-|[]]].
    + destruct IH as [IH|[q [-> [IH ->]]]].
      * left; constructor; auto.
      * right. exists (e' :: q). splits; auto. constructor; auto.
    + destruct p as [|e2 p].
      * apply is_path_nil_inv in Hp. right. exists []. splits; auto. constructor.
      * apply is_path_cons_inv in Hp as [E [Hi _]]. exfalso. apply (Hd e2 Hi). now rewrite E.
Qed.

Lemma topological_app_l (l1 l2 : list pedge) : topological (l1 ++ l2) -> topological l1.
Proof.
  intros [Ho Hl]. apply ordered_app in Ho as [Ho _]. split; auto.
  intros e He. apply Hl. apply in_or_app; auto.
Qed.

(** Generic forward relaxation. *)
Definition relax (w : pedge -> cost) (T : list cost) (e : pedge) : list cost :=
  updnth (dest e) (cmin (get T (dest e)) (cadd (get T (source e)) (w e))) T.

Lemma relax_length w T e : length (relax w T e) = length T.
Proof. apply updnth_length. Qed.
Lemma relax_fold_length w es T : length (fold_left (relax w) es T) = length T.
Proof.
  revert T; induction es as [|e es IH]; intros T; simpl; auto.
  rewrite IH. apply relax_length.
Qed.
Lemma relax_get_other w T e i : i <> dest e -> get (relax w T e) i = get T i.
Proof. intros H. unfold get, relax. apply nth_updnth_other. congruence. Qed.
Lemma relax_fold_get_other w es T i :
  (forall e, In e es -> dest e <> i) -> get (fold_left (relax w) es T) i = get T i.
Proof.
  revert T; induction es as [|e es IH]; intros T H; simpl; auto.
  rewrite IH by (intros; apply H; simpl; auto). apply relax_get_other.
  intros ->. apply (H e); simpl; auto.
Qed.

Lemma relax_step w es e s0 T (ok : nat -> Prop) :
  topological (es ++ [e]) -> (forall x, In x (es ++ [e]) -> w x <> NaN) ->
  ok (source e) -> ok (dest e) -> dest e < length T ->
  (forall s, ok s -> least (pcosts w es s0 s) (get T s)) ->
  (forall s, ok s -> least (pcosts w (es ++ [e]) s0 s) (get (relax w T e) s)).
Proof.
  intros Ht Hn Hs Hd Hl H s Hok.
  destruct (Nat.eq_dec s (dest e)) as [->|Hne].
  - unfold relax, get at 1. rewrite nth_updnth_same by auto.
    eapply least_ext; [|apply least_union; [apply (H _ Hd)|apply least_add; [|apply (H _ Hs)]]].
    + intros c. split.
      * intros [[p [Hp E]]|[x [[p [Hp E]] ->]]].
        -- exists p. split; auto. eapply is_path_incl; [|exact Hp].
           intros e' He'. apply in_or_app; left. eapply is_path_In; eauto.
        -- exists (p ++ [e]). split.
           ++ apply is_path_snoc; [|apply in_or_app; simpl; auto].
              eapply is_path_incl; [|exact Hp].
              intros e' He'. apply in_or_app; left. eapply is_path_In; eauto.
           ++ rewrite wcost_app, E. f_equal. unfold wcost. simpl. apply cadd_0_r.
      * intros [p [Hp E]]. apply path_snoc_split in Hp as [Hp|[q [-> [Hq _]]]]; auto.
        -- left. exists p; auto.
        -- right. exists (wcost w q). split; [exists q; auto|].
           rewrite <- E, wcost_app. f_equal. unfold wcost. simpl. apply cadd_0_r.
    + apply Hn. apply in_or_app; simpl; auto.
  - rewrite relax_get_other by auto. eapply least_ext; [|apply (H _ Hok)].
    intros c. split.
    + intros [p [Hp E]]. exists p. split; auto. eapply is_path_incl; [|exact Hp].
      intros e' He'. apply in_or_app; left. eapply is_path_In; eauto.
    + intros [p [Hp E]]. apply path_snoc_split in Hp as [Hp|[q [-> [Hq E2]]]]; auto; [|congruence].
      exists p; auto.
Qed.

Lemma relax_segment w seg : forall es s0 T (ok : nat -> Prop),
  topological (es ++ seg) -> (forall x, In x (es ++ seg) -> w x <> NaN) ->
  (forall e, In e seg -> ok (source e) /\ ok (dest e) /\ dest e < length T) ->
  (forall s, ok s -> least (pcosts w es s0 s) (get T s)) ->
  (forall s, ok s -> least (pcosts w (es ++ seg) s0 s) (get (fold_left (relax w) seg T) s)).
Proof.
  induction seg as [|e seg IH]; intros es s0 T ok Ht Hn Hseg H s Hok.
  - rewrite app_nil_r. simpl. auto.
  - replace (es ++ e :: seg) with ((es ++ [e]) ++ seg) in * by now rewrite <- app_assoc.
    simpl. apply IH with (ok := ok); auto.
    + intros e' He'. rewrite relax_length. apply Hseg; simpl; auto.
    + destruct (Hseg e) as [A [B C]]; [simpl; auto|].
      apply relax_step; auto.
      * eapply topological_app_l; eauto.
      * intros x Hx. apply Hn. apply in_or_app; auto.
Qed.

(** Paths to [t] are unaffected by later edges that do not lead back to where
    [t] can be reached from. *)
Lemma path_no_later (es later : list pedge) (ok : nat -> Prop) s p t :
  (forall e, In e later -> ~ ok (dest e)) ->
  (forall e, In e es -> ok (dest e) -> ok (source e)) ->
  ok t -> is_path (es ++ later) s p t -> is_path es s p t.
Proof.
  intros Hl Hc Ht Hp.
  assert (H : is_path es s p t /\ ok s); [|tauto].
  induction Hp as [s|e p t He Hp IH].
  - split; [constructor|auto].
  - destruct (IH Ht) as [IH1 IH2]. apply in_app_or in He as [He|He].
    + split; [constructor; auto|eauto].
    + exfalso. eapply Hl; eauto.
Qed.

(** ** Reversal. *)
Definition flip (e : pedge) : pedge :=
  mkEdge (dest e) (source e) (ecost e) (assignment e) (info e).
Lemma flip_flip e : flip (flip e) = e.
Proof. destruct e; reflexivity. Qed.
Definition rflip (es : list pedge) : list pedge := map flip (rev es).
Lemma rflip_app l1 l2 : rflip (l1 ++ l2) = rflip l2 ++ rflip l1.
Proof. unfold rflip. rewrite rev_app_distr, map_app. reflexivity. Qed.
Lemma rflip_In e es : In e (rflip es) <-> In (flip e) es.
Proof.
  unfold rflip. rewrite in_map_iff. split.
  - intros [x [<- Hx]]. rewrite flip_flip. now apply in_rev.
  - intros H. exists (flip e). rewrite flip_flip. split; auto. now apply -> in_rev.
Qed.
Lemma rflip_rflip es : rflip (rflip es) = es.
Proof.
  unfold rflip. rewrite <- map_rev, rev_involutive, map_map.
  rewrite <- (map_id es) at 2. apply map_ext. apply flip_flip.
Qed.
Lemma rflip_topological es : topological es -> topological (rflip es).
Proof.
  intros [Ho Hl]. split.
  - induction es as [|e es IH]; [exact I|].
    cbn in Ho. destruct Ho as [Ho1 Ho2].
    change (e :: es) with ([e] ++ es). rewrite rflip_app. apply ordered_app. splits.
    + apply IH; auto. intros; apply Hl; simpl; auto.
    + simpl. split; [intros ? []|exact I].
    + intros x y Hx [<-|[]] E. apply rflip_In in Hx. apply (Ho1 _ Hx).
      simpl in *. symmetry; assumption.
  - intros e He E. apply rflip_In in He. apply (Hl _ He). simpl. auto.
Qed.
Lemma rflip_path (es : list pedge) s p t : is_path es s p t -> is_path (rflip es) t (rflip p) s.
Proof.
  induction 1 as [|e p t He Hp IH]; [constructor|].
  change (e :: p) with ([e] ++ p). rewrite rflip_app.
  eapply is_path_app; [exact IH|]. cbn.
  apply (path_cons _ (flip e)); [|constructor]. apply rflip_In. now rewrite flip_flip.
Qed.
Lemma csum_rev l : csum (rev l) = csum l.
Proof.
  induction l as [|x l IH]; auto. simpl rev. rewrite csum_app, IH.
  cbn [csum fold_right]. rewrite cadd_0_r. apply cadd_comm.
Qed.
Lemma rflip_wcost w p : wcost w (rflip p) = wcost (fun e => w (flip e)) p.
Proof. unfold wcost, rflip. rewrite map_map, map_rev. apply csum_rev. Qed.
Lemma rflip_pcosts w es s t c :
  (forall e, w (flip e) = w e) -> pcosts w (rflip es) t s c <-> pcosts w es s t c.
Proof.
  intros Hw. split.
  - intros [p [Hp E]]. exists (rflip p). split.
    + apply rflip_path in Hp. now rewrite rflip_rflip in Hp.
    + rewrite rflip_wcost. rewrite <- E. unfold wcost. f_equal. now apply map_ext.
  - intros [p [Hp E]]. exists (rflip p). split.
    + now apply rflip_path.
    + rewrite rflip_wcost. rewrite <- E. unfold wcost. f_equal. now apply map_ext.
Qed.

(** The model's loop bodies are instances of [relax]. *)
Lemma relax_fwd_eq P T e : relax_fwd P T e = relax (weight P) T e.
Proof. unfold relax_fwd, relax, weight. now rewrite cadd_assoc. Qed.
Lemma relax_bwd_eq P T e : relax_bwd P T e = relax (weight P) T (flip e).
Proof. unfold relax_bwd, relax, weight. cbn. now rewrite cadd_assoc. Qed.
Lemma weight_flip P e : weight P (flip e) = weight P e.
Proof. reflexivity. Qed.
Lemma fold_fwd P es T : fold_left (relax_fwd P) es T = fold_left (relax (weight P)) es T.
Proof. revert T; induction es as [|e es IH]; intros T; simpl; auto. now rewrite IH, relax_fwd_eq. Qed.
Lemma fold_bwd P es T :
  fold_left (relax_bwd P) (rev es) T = fold_left (relax (weight P)) (rflip es) T.
Proof.
  unfold rflip. generalize (rev es). clear es. intros es.
  revert T; induction es as [|e es IH]; intros T; simpl; auto. now rewrite IH, relax_bwd_eq.
Qed.

(** ** Arrays. *)
Lemma fill_length a b x l : length (fill a b x l) = length l.
Proof. unfold fill. rewrite map_length, combine_length, seq_length. lia. Qed.
Lemma fill_get a b x l i :
  i < length l -> get (fill a b x l) i = if (a <=? i) && (i <? b) then x else get l i.
Proof.
  intros Hi. unfold get, fill.
  assert (Hc : nth_error (combine (seq 0 (length l)) l) i = Some (i, nth i l NaN)).
  { assert (G : forall k l i, i < length l -> nth_error (combine (seq k (length l)) l) i = Some (k + i, nth i l NaN)).
    { clear. intros k l; revert k; induction l as [|y l IH]; intros k [|i] H; cbn in *; try lia.
      - now rewrite Nat.add_0_r.
      - rewrite IH by lia. do 2 f_equal. lia. }
    now rewrite G. }
  apply nth_error_nth. rewrite nth_error_map, Hc. reflexivity.
Qed.

Lemma slice_In {A} a b (l : list A) x :
  In x (slice a b l) -> exists k, a <= k < b /\ nth_error l k = Some x.
Proof.
  unfold slice. intros H. apply In_nth_error in H as [k H].
  assert (Hk : k < b - a).
  { assert (k < length (firstn (b - a) (skipn a l))) by (apply nth_error_Some; congruence).
    rewrite firstn_length in H0. lia. }
  exists (a + k). split; [lia|].
  rewrite <- H. clear H. revert k Hk. generalize (b - a). intros n.
  revert l. induction a as [|a IH]; intros l k Hk.
  - simpl. revert l n Hk. induction k as [|k IHk]; intros [|y l] [|n] Hk; simpl; try lia; auto.
    apply IHk. lia.
  - destruct l as [|y l]; simpl.
    + destruct n; destruct k; reflexivity.
    + now apply IH.
Qed.
Lemma skipn_In {A} a (l : list A) x :
  In x (skipn a l) -> exists k, a <= k < length l /\ nth_error l k = Some x.
Proof.
  intros H. assert (H' : In x (slice a (length l) l)).
  { unfold slice. rewrite firstn_all2; auto. rewrite skipn_length. lia. }
  now apply slice_In in H'.
Qed.
Lemma firstn_In_nth {A} a (l : list A) x :
  In x (firstn a l) -> exists k, k < a /\ nth_error l k = Some x.
Proof.
  intros H. assert (H' : In x (slice 0 a l)) by (unfold slice; now rewrite Nat.sub_0_r).
  apply slice_In in H' as [k [Hk E]]. exists k; split; [lia|auto].
Qed.
Lemma skipn_skipn' {A} a n (l : list A) : skipn n (skipn a l) = skipn (a + n) l.
Proof.
  revert l; induction a as [|a IH]; intros l; simpl; auto.
  destruct l as [|x l]; [now rewrite skipn_nil|apply IH].
Qed.
Lemma slice_decompose {A} a b (l : list A) :
  a <= b -> l = firstn a l ++ slice a b l ++ skipn b l.
Proof.
  intros H. unfold slice. rewrite <- (firstn_skipn a l) at 1. f_equal.
  rewrite <- (firstn_skipn (b - a) (skipn a l)) at 1. f_equal.
  rewrite skipn_skipn'. f_equal. lia.
Qed.
Lemma firstn_slice {A} a b (l : list A) :
  a <= b -> firstn b l = firstn a l ++ slice a b l.
Proof.
  intros H. unfold slice. replace b with (a + (b - a)) at 1 by lia.
  generalize (b - a). intros n. clear. revert l.
  induction a as [|a IH]; intros [|x l]; simpl; auto.
  - now rewrite firstn_nil.
  - f_equal. apply IH.
Qed.
Lemma skipn_slice {A} a b (l : list A) :
  a <= b -> skipn a l = slice a b l ++ skipn b l.
Proof.
  intros H. unfold slice. rewrite <- (firstn_skipn (b - a) (skipn a l)) at 1. f_equal.
  rewrite skipn_skipn'. f_equal. lia.
Qed.

(** ** Locating an edge in the layout. *)
Section Layout.
  Context (d : pdag) (L : layout d).
  Notation K := (n_keys d).
  Notation B i := (nth i (svb d) 0).
  Notation G i := (nth i (egb d) 0).

  (** Which group an edge index falls into. *)
  Lemma find_group k : k < length (pedges d) ->
    (exists i, i <= K /\ G (2 * i) <= k < G (2 * i + 1)) \/
    (exists i, i < K /\ G (2 * i + 1) <= k < G (2 * i + 2)).
  Proof.
    intros Hk.
    assert (H : forall n, n <= 2 * K + 1 -> k < G n -> exists j, j < n /\ G j <= k < G (j + 1)).
    { induction n as [|n IH]; intros Hn Hlt.
      - rewrite (l_egb_0 _ L) in Hlt. lia.
      - destruct (le_lt_dec (G n) k) as [H|H].
        + exists n. split; [lia|]. split; [auto|]. now rewrite Nat.add_1_r.
        + destruct IH as [j [Hj H']]; [lia|auto|]. exists j. split; [lia|auto]. }
    destruct (H (2 * K + 1)) as [j [Hj Hb]]; [lia|now rewrite (l_egb_end _ L)|].
    destruct (Nat.Even_or_Odd j) as [[i ->]|[i ->]].
    - left. exists i. split; [lia|auto].
    - right. exists i. split; [lia|]. replace (2 * i + 2) with (2 * i + 1 + 1) by lia. auto.
  Qed.

  (** The facts about every edge: it stays in its tag or assigns the next. *)
  Lemma edge_cases e : In e (pedges d) ->
    (exists i, i <= K /\ assignment e = None /\
       B i <= source e < B (i + 1) /\ B i <= dest e < B (i + 1)) \/
    (exists i v, i < K /\ assignment e = Some (i, v) /\ v < n_values d /\
       B i <= source e < B (i + 1) /\ B (i + 1) <= dest e < B (i + 2)).
  Proof.
    intros He. apply In_nth_error in He as [k Hk].
    assert (Hlt : k < length (pedges d)) by (apply nth_error_Some; congruence).
    destruct (find_group k Hlt) as [[i [Hi Hb]]|[i [Hi Hb]]].
    - left. exists i. destruct (l_between _ L i k e) as [A [C D]]; auto.
    - right. destruct (l_assign _ L i k e) as [[v [A V]] [C D]]; auto. exists i, v. splits; auto; lia.
  Qed.
  Lemma B_le i : i <= K + 1 -> B i <= n_states d.
  Proof. intros H. rewrite <- (l_svb_end _ L). apply (l_svb_mono _ L). lia. Qed.
  Lemma edge_bound e : In e (pedges d) -> source e < n_states d /\ dest e < n_states d.
  Proof.
    intros He. destruct (edge_cases e He) as [[i [Hi [_ [A C]]]]|[i [v [Hi [_ [_ [A C]]]]]]].
    - pose proof (B_le (i + 1)). lia.
    - pose proof (B_le (i + 1)). pose proof (B_le (i + 2)). lia.
  Qed.
  Lemma n_pos : 0 < n_states d.
  Proof. pose proof (l_final _ L). lia. Qed.

  (** Edges never decrease the tag. *)
  Lemma edge_tag_mono i e : i <= K + 1 -> In e (pedges d) -> dest e < B i -> source e < B i.
  Proof.
    intros Hi He Hd. destruct (edge_cases e He) as [[j [Hj [_ [A C]]]]|[j [v [Hj [_ [_ [A C]]]]]]].
    - destruct (le_lt_dec (j + 1) i).
      + pose proof (l_svb_mono _ L (j + 1) i). lia.
      + pose proof (l_svb_mono _ L i j). lia.
    - destruct (le_lt_dec (j + 1) i).
      + pose proof (l_svb_mono _ L (j + 1) i). lia.
      + pose proof (l_svb_mono _ L i (j + 1)). lia.
  Qed.

  (** Edges up to [G (2 i + 1)], i.e. before those assigning variable [i],
      lead to states of [B (i + 1)]; later ones lead beyond. *)
  Lemma early_dest i k e : i <= K -> k < G (2 * i + 1) -> nth_error (pedges d) k = Some e ->
    dest e < B (i + 1).
  Proof.
    intros Hi Hk He.
    assert (Hlt : k < length (pedges d)) by (apply nth_error_Some; congruence).
    destruct (find_group k Hlt) as [[j [Hj Hb]]|[j [Hj Hb]]].
    - destruct (l_between _ L j k e) as [_ [_ D]]; auto.
      assert (j <= i). { destruct (le_lt_dec j i); auto. pose proof (l_egb_mono _ L (2 * i + 1) (2 * j)). lia. }
      pose proof (l_svb_mono _ L (j + 1) (i + 1)). lia.
    - destruct (l_assign _ L j k e) as [_ [_ D]]; auto.
      assert (j + 1 <= i). { destruct (le_lt_dec (j + 1) i); auto. pose proof (l_egb_mono _ L (2 * i + 1) (2 * j + 1)). lia. }
      pose proof (l_svb_mono _ L (j + 2) (i + 1)). lia.
  Qed.
  Lemma late_dest i k e : i <= K -> G (2 * i + 1) <= k -> nth_error (pedges d) k = Some e ->
    B (i + 1) <= dest e.
  Proof.
    intros Hi Hk He.
    assert (Hlt : k < length (pedges d)) by (apply nth_error_Some; congruence).
    destruct (find_group k Hlt) as [[j [Hj Hb]]|[j [Hj Hb]]].
    - destruct (l_between _ L j k e) as [_ [_ D]]; auto.
      assert (i + 1 <= j). { destruct (le_lt_dec (i + 1) j); auto. pose proof (l_egb_mono _ L (2 * j + 1) (2 * i + 1)). lia. }
      pose proof (l_svb_mono _ L (i + 1) j). lia.
    - destruct (l_assign _ L j k e) as [_ [_ D]]; auto.
      assert (i <= j). { destruct (le_lt_dec i j); auto. pose proof (l_egb_mono _ L (2 * j + 2) (2 * i + 1)). lia. }
      pose proof (l_svb_mono _ L (i + 1) (j + 1)). lia.
  Qed.
  (** Symmetrically for sources and the end of the group assigning [i]. *)
  Lemma early_source i k e : i <= K -> k < G (2 * i) -> nth_error (pedges d) k = Some e ->
    source e < B i.
  Proof.
    intros Hi Hk He.
    assert (Hlt : k < length (pedges d)) by (apply nth_error_Some; congruence).
    destruct (find_group k Hlt) as [[j [Hj Hb]]|[j [Hj Hb]]].
    - destruct (l_between _ L j k e) as [_ [D _]]; auto.
      assert (j + 1 <= i). { destruct (le_lt_dec (j + 1) i); auto. pose proof (l_egb_mono _ L (2 * i) (2 * j)). lia. }
      pose proof (l_svb_mono _ L (j + 1) i). lia.
    - destruct (l_assign _ L j k e) as [_ [D _]]; auto.
      assert (j + 1 <= i). { destruct (le_lt_dec (j + 1) i); auto. pose proof (l_egb_mono _ L (2 * i) (2 * j + 1)). lia. }
      pose proof (l_svb_mono _ L (j + 1) i). lia.
  Qed.
  Lemma late_source i k e : i <= K -> G (2 * i) <= k -> nth_error (pedges d) k = Some e ->
    B i <= source e.
  Proof.
    intros Hi Hk He.
    assert (Hlt : k < length (pedges d)) by (apply nth_error_Some; congruence).
    destruct (find_group k Hlt) as [[j [Hj Hb]]|[j [Hj Hb]]].
    - destruct (l_between _ L j k e) as [_ [D _]]; auto.
      assert (i <= j). { destruct (le_lt_dec i j); auto. pose proof (l_egb_mono _ L (2 * j + 1) (2 * i)). lia. }
      pose proof (l_svb_mono _ L i j). lia.
    - destruct (l_assign _ L j k e) as [_ [D _]]; auto.
      assert (i <= j). { destruct (le_lt_dec i j); auto. pose proof (l_egb_mono _ L (2 * j + 2) (2 * i)). lia. }
      pose proof (l_svb_mono _ L i j). lia.
  Qed.

  (** Every path assigns consecutive variables. *)
  Lemma path_keys s p t : is_path (pedges d) s p t ->
    forall i j, i <= K -> j <= K -> B i <= s < B (i + 1) -> B j <= t < B (j + 1) ->
    i <= j /\ map fst (path_assignments p) = seq i (j - i).
  Proof.
    induction 1 as [s|e p t He Hp IH]; intros i j Hi Hj Hs Ht.
    - assert (i = j).
      { destruct (lt_eq_lt_dec i j) as [[H|H]|H]; auto.
        - pose proof (l_svb_mono _ L (i + 1) j). lia.
        - pose proof (l_svb_mono _ L (j + 1) i). lia. }
      subst j. split; auto. now rewrite Nat.sub_diag.
    - destruct (edge_cases e He) as [[k [Hk [E [A C]]]]|[k [v [Hk [E [V [A C]]]]]]].
      + assert (k = i).
        { destruct (lt_eq_lt_dec i k) as [[H|H]|H]; auto.
          - pose proof (l_svb_mono _ L (i + 1) k). lia.
          - pose proof (l_svb_mono _ L (k + 1) i). lia. }
        subst k. cbn [path_assignments]. rewrite E. apply IH; auto.
      + assert (k = i).
        { destruct (lt_eq_lt_dec i k) as [[H|H]|H]; auto.
          - pose proof (l_svb_mono _ L (i + 1) k). lia.
          - pose proof (l_svb_mono _ L (k + 1) i). lia. }
        subst k. cbn [path_assignments]. rewrite E.
        destruct (IH (i + 1) j) as [H1 H2]; auto; try lia.
        { replace (i + 1 + 1) with (i + 2) by lia. lia. }
        split; [lia|]. cbn [map fst]. rewrite H2.
        replace (j - i) with (S (j - (i + 1))) by lia. simpl. now rewrite Nat.add_1_r.
  Qed.

  Lemma complete_keys p : packed_complete d p -> map fst (path_assignments p) = seq 0 K.
  Proof.
    intros Hp. destruct (path_keys _ _ _ Hp 0 K) as [_ H]; try lia.
    - rewrite (l_svb_0 _ L). pose proof (l_initial _ L). simpl. lia.
    - pose proof (l_final _ L). rewrite (l_svb_end _ L). lia.
    - now rewrite Nat.sub_0_r in H.
  Qed.
  Lemma path_values s p t : is_path (pedges d) s p t ->
    Forall (fun a => fst a < K /\ snd a < n_values d) (path_assignments p).
  Proof.
    induction 1 as [s|e p t He Hp IH]; cbn [path_assignments]; auto.
    destruct (edge_cases e He) as [[k [Hk [E [A C]]]]|[k [v [Hk [E [V [A C]]]]]]]; rewrite E; auto.
  Qed.
End Layout.
