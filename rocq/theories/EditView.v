(** What the states of the edit DAG stand for, and what its edges do. *)

From Coq Require Import List Bool Arith ZArith Lia QArith Qcanon.
From Verif Require Import Base Graph GatedDag SeqNodes PackedSeq Numbered Decisions ConstraintProofs EditDag EditScript EditSound.
Import ListNotations.
Close Scope Qc_scope. Close Scope Q_scope. Close Scope Z_scope. Open Scope nat_scope.

Section View.
  Context {M : Type} {md : EqDec M} (P : parameters).
  Notation L := (lnode M).

  (** ** Sequences by number. *)
  Fixpoint frames_of (x : L) (K : list (list L)) : list (nat * (list L * list (list L))) :=
    match x with
    | LGroup p cs _ =>
        (pre p, (cs, K)) ::
        (fix go (l : list L) := match l with [] => [] | c :: l' => frames_of c (l' :: K) ++ go l' end) cs
    | _ => []
    end.
  Fixpoint frames (l : list L) (K : list (list L)) : list (nat * (list L * list (list L))) :=
    match l with [] => [] | c :: l' => frames_of c (l' :: K) ++ frames l' K end.
  Lemma frames_group p cs m K : frames_of (LGroup p cs m) K = (pre p, (cs, K)) :: frames cs K.
  Proof. cbn [frames_of]. f_equal. induction cs as [|c cs IH]; auto. cbn [frames]. now rewrite IH. Qed.
  Lemma frames_range_upto n : forall (l : list L), lsizes l <= n -> forall p K f, numbered p l -> In f (frames l K) ->
    p <= fst f < p + lsizes l.
  Proof.
    induction n as [|n IH]; intros [|x l] Hs p K f Hn Hf; try (now destruct Hf); rewrite lsizes_cons in *; pose proof (lsize_pos x); [lia|].
    cbn [frames] in Hf. destruct (numbered_one _ _ _ Hn) as [N1 N2]. apply in_app_or in Hf as [Hf|Hf].
    - destruct x as [p0 t|p0 t m|p0|p0|p0|p0 cs m]; try (now destruct Hf). rewrite frames_group in Hf.
      destruct (numbered_kids _ _ _ _ _ Hn) as [-> Nc]. rewrite lsize_group in *. destruct Hf as [<-|Hf]; cbn [fst]; [lia|].
      apply (IH cs) with (p := S (pre p0)) in Hf; auto; lia.
    - apply (IH l) with (p := p + lsize x) in Hf; auto; lia.
  Qed.
  Lemma frames_unique_upto n : forall (l : list L), lsizes l <= n -> forall p K, numbered p l -> NoDup (map fst (frames l K)).
  Proof.
    induction n as [|n IH]; intros [|x l] Hs p K Hn; try (now constructor); rewrite lsizes_cons in *; pose proof (lsize_pos x); [lia|].
    cbn [frames]. destruct (numbered_one _ _ _ Hn) as [N1 N2].
    pose proof (IH l ltac:(lia) (p + lsize x) K N2) as U2.
    destruct x as [p0 t|p0 t m|p0|p0|p0|p0 cs m]; try exact U2. rewrite frames_group. cbn [app map fst].
    destruct (numbered_kids _ _ _ _ _ Hn) as [-> Nc]. rewrite lsize_group in *. rewrite map_app.
    pose proof (IH cs ltac:(lia) (S (pre p0)) (l :: K) Nc) as U1.
    assert (R1 : forall k, In k (map fst (frames cs (l :: K))) -> S (pre p0) <= k < S (pre p0) + lsizes cs).
    { intros k Hk. apply in_map_iff in Hk as [f [<- Hf]]. eapply frames_range_upto; eauto. }
    assert (R2 : forall k, In k (map fst (frames l K)) -> pre p0 + S (lsizes cs) <= k).
    { intros k Hk. apply in_map_iff in Hk as [f [<- Hf]]. eapply frames_range_upto in Hf; eauto. lia. }
    constructor.
    - intros Hi. apply in_app_or in Hi as [Hi|Hi]; [apply R1 in Hi|apply R2 in Hi]; lia.
    - assert (R : forall k, In k (map fst (frames cs (l :: K))) -> ~ In k (map fst (frames l K))).
      { intros k H1 H2. apply R1 in H1. apply R2 in H2. lia. }
      clear - U1 U2 R. induction (map fst (frames cs (l :: K))) as [|a b IHb]; auto.
      inversion U1; subst. cbn [app]. constructor.
      + intros Hi. apply in_app_or in Hi as [Hi|Hi]; auto. apply (R a); auto. now left.
      + apply IHb; auto. intros k Hk. apply R. now right.
  Qed.
  Lemma frames_closed_upto n : forall (l : list L), lsizes l <= n -> forall K q ls K' a p cs m b,
    In (q, (ls, K')) (frames l K) -> ls = a ++ LGroup p cs m :: b -> In (pre p, (cs, b :: K')) (frames l K).
  Proof.
    assert (G : forall a p cs m b (K : list (list L)), In (pre p, (cs, b :: K)) (frames (a ++ LGroup p cs m :: b) K)).
    { induction a as [|x a IH]; intros p cs m b K; cbn [app frames]; apply in_or_app; [left|right; apply IH].
      rewrite frames_group. now left. }
    induction n as [|n IH]; intros [|x l] Hs K q ls K' a p cs m b Hi E; try (now destruct Hi); rewrite lsizes_cons in *; pose proof (lsize_pos x); [lia|].
    cbn [frames] in *. apply in_app_or in Hi as [Hi|Hi]; apply in_or_app.
    - left. destruct x as [p0 t|p0 t m0|p0|p0|p0|p0 cs0 m0]; try (now destruct Hi). rewrite frames_group in *. rewrite lsize_group in *.
      destruct Hi as [Hi|Hi]; right.
      + injection Hi as <- -> <-. subst ls. apply G.
      + eapply (IH cs0); eauto. lia.
    - right. eapply (IH l); eauto. lia.
  Qed.
  Lemma frames_top (l : list L) K a p cs m b : l = a ++ LGroup p cs m :: b -> In (pre p, (cs, b :: K)) (frames l K).
  Proof.
    intros ->. revert K. induction a as [|x a IH]; intros K; cbn [app frames]; apply in_or_app; [left|right; apply IH].
    rewrite frames_group. now left.
  Qed.

  (** What is left at a position. *)
  Definition rest (root : list L) (q : Z) (i : nat) : list (list L) :=
    if (q =? ROOT_SEQ)%Z then [skipn i root]
    else match assoc (Z.to_nat q) (frames root []) with Some (ls, K) => skipn i ls :: K | None => [] end.
  Definition known (root : list L) (q : Z) (ls : list L) (K : list (list L)) : Prop :=
    (q = ROOT_SEQ /\ ls = root /\ K = []) \/ exists n, q = Z.of_nat n /\ In (n, (ls, K)) (frames root []).
  Lemma assoc_unique {A B} `{EqDec A} (l : list (A * B)) k v : NoDup (map fst l) -> In (k, v) l -> assoc k l = Some v.
  Proof.
    induction l as [|[a b] l IH]; intros Hd Hi; [destruct Hi|]. cbn [map fst] in Hd. inversion Hd; subst. cbn [assoc].
    destruct Hi as [[= -> ->]|Hi]; [now rewrite eqb_refl|].
    destruct (eqb k a) eqn:E; auto. apply eqb_eq in E. subst. exfalso. apply H2. apply in_map_iff. now exists (a, v).
  Qed.
  Lemma known_rest root q ls K i : numbered 0 root -> known root q ls K -> rest root q i = skipn i ls :: K.
  Proof.
    intros Hn [[-> [-> ->]]|[n [-> Hi]]]; unfold rest; [reflexivity|].
    destruct (Z.eqb_spec (Z.of_nat n) ROOT_SEQ) as [E|E]; [unfold ROOT_SEQ in E; lia|]. rewrite Nat2Z.id.
    rewrite (assoc_unique _ n (ls, K)); auto. eapply frames_unique_upto; eauto.
  Qed.
  Lemma known_child root q ls K a p cs m b : known root q ls K -> ls = a ++ LGroup p cs m :: b ->
    known root (Z.of_nat (pre p)) cs (b :: K).
  Proof.
    intros [[-> [-> ->]]|[n [-> Hi]]] E; right; exists (pre p); split; auto.
    - eapply frames_top; eauto.
    - eapply frames_closed_upto; eauto.
  Qed.
  Lemma skipn_split {A} i (ls : list A) x l : skipn i ls = x :: l -> exists a, ls = a ++ x :: l.
  Proof. intros E. exists (firstn i ls). now rewrite <- E, firstn_skipn. Qed.
  Lemma skipn_next {A} i (ls : list A) x l : skipn i ls = x :: l -> skipn (S i) ls = l.
  Proof. revert ls. induction i as [|i IH]; intros [|y ls] E; try discriminate; [cbn in E; now injection E|]. now apply (IH ls). Qed.
  Lemma known_into root q ls K i p cs m l : known root q ls K -> skipn i ls = LGroup p cs m :: l ->
    known root (Z.of_nat (pre p)) cs (l :: K).
  Proof. intros Hk E. apply skipn_split in E as [a E]. eapply known_child; eauto. Qed.

  (** ** What the edges do. *)
  Section Trees.
    Variables (root troot : list L).
    Hypotheses (Hp : numbered 0 root) (Ht : numbered 0 troot).
    Definition view (s : estate) : cfg :=
      match s with EAt a c q i h j => At a c (rest root q i) (rest troot h j) | EFinal => Done end.
    Definition good (e : eedge) : Prop := step P (view (source e)) (effect_of e) (view (dest e)).

    Lemma good_both f : Forall good (f High) -> Forall good (f Low) -> Forall good (both f).
    Proof. intros A B. unfold both. apply Forall_app. auto. Qed.
    Ltac one := apply Forall_cons; [unfold good; cbn [view source dest]|].
    Lemma advance_good a q ls K i h j x l : walks a -> known root q ls K -> skipn i ls = x :: l ->
      Forall good (advance P a q i h j x).
    Proof.
      intros Ha Hk E. pose proof (known_rest _ _ _ _ i Hp Hk) as R. pose proof (known_rest _ _ _ _ (S i) Hp Hk) as R'.
      rewrite E in R. rewrite (skipn_next _ _ _ _ E) in R'.
      destruct x as [p t|p t m|p|p|p|p cs m]; cbn [advance both app];
        repeat (one; [rewrite R, ?R'; first [apply st_quiet; [exact Ha|constructor]|apply st_exit; exact Ha]|]); apply Forall_nil.
    Qed.
    Lemma skip_good a q i h j ls K y l : skips a -> known troot h ls K -> skipn j ls = y :: l ->
      Forall good (skip a q i h j y).
    Proof.
      intros Ha Hk E. pose proof (known_rest _ _ _ _ j Ht Hk) as R. pose proof (known_rest _ _ _ _ (S j) Ht Hk) as R'.
      rewrite E in R. rewrite (skipn_next _ _ _ _ E) in R'.
      destruct y as [p t|p t m|p|p|p|p cs m]; cbn [skip both app];
        repeat (one; [rewrite R, ?R'; now apply st_skip|]); apply Forall_nil.
    Qed.
    Lemma out_deep {A B} (K : list A) (K' : list B) d f : length K' < length K -> out_mode K K' d f = d.
    Proof. intros H. unfold out_mode. destruct (Nat.eqb_spec (length K) (length K')); auto. lia. Qed.
    Lemma cuts_out {A B} (K : list A) (K' : list B) : cuts (out_mode K K' RDELETE DELETE).
    Proof. unfold out_mode, cuts. destruct (_ =? _); auto. Qed.
    Lemma puts_out {A B} (K : list A) (K' : list B) : puts (out_mode K K' RINSERT INSERT).
    Proof. unfold out_mode, puts. destruct (_ =? _); auto. Qed.
    Lemma cuts_walks a : cuts a -> walks a.
    Proof. intros [|]; unfold walks; auto. Qed.
    Lemma puts_skips a : puts a -> skips a.
    Proof. intros [|]; unfold skips; auto. Qed.
    Lemma remove_good_upto n : forall (x : L), lsize x <= n -> forall q ls K i h j l, known root q ls K -> skipn i ls = x :: l ->
      length (rest troot h j) <= S (length K) ->
      Forall good (remove P (out_mode (l :: K) (rest troot h j) RDELETE DELETE) q i h j x).
    Proof.
      induction n as [|n IH]; intros x Hs q ls K i h j l Hk E HT; [pose proof (lsize_pos x); lia|].
      pose proof (known_rest _ _ _ _ i Hp Hk) as R. pose proof (known_rest _ _ _ _ (S i) Hp Hk) as R'.
      rewrite E in R. rewrite (skipn_next _ _ _ _ E) in R'. pose proof (cuts_out (l :: K) (rest troot h j)) as Ca.
      destruct x as [p t|p t m|p|p|p|p cs m];
        try (eapply advance_good; eauto; now apply cuts_walks).
      - cbn [remove both app]. repeat (one; [rewrite R, ?R'; now apply st_delete|]); apply Forall_nil.
      - rewrite remove_group. pose proof (known_into _ _ _ _ _ _ _ _ _ Hk E) as Kc.
        pose proof (known_rest _ _ _ _ 0 Hp Kc) as R0. pose proof (known_rest _ _ _ _ (length cs) Hp Kc) as R1.
        rewrite skipn_O in R0. rewrite skipn_all in R1.
        apply Forall_app. split; [|apply Forall_app; split].
        + apply good_both; (one; [rewrite R, R0; apply st_delete_group; exact Ca|apply Forall_nil]).
        + assert (G : forall (l0 : list L) k, skipn k cs = l0 -> lsizes l0 <= lsizes cs -> Forall good (remove_list P (Z.of_nat (pre p)) k h j l0)).
          { induction l0 as [|c l0 IHl]; intros k Ek Hl; [apply Forall_nil|]. cbn [remove_list]. rewrite lsizes_cons in Hl. rewrite lsize_group in Hs.
            apply Forall_app. split; [|apply IHl; [eapply skipn_next; eauto|lia]].
            replace RDELETE with (out_mode (l0 :: l :: K) (rest troot h j) RDELETE DELETE) by (apply out_deep; cbn; lia).
            eapply IH; eauto; cbn; lia. }
          apply (G cs 0); auto.
        + apply good_both; (one; [rewrite R1, R'; apply st_delete_out|apply Forall_nil]).
    Qed.
    Lemma add_good_upto n : forall (y : L), lsize y <= n -> forall q i h ls K j l, known troot h ls K -> skipn j ls = y :: l ->
      length (rest root q i) <= S (length K) ->
      Forall good (add P (out_mode (l :: K) (rest root q i) RINSERT INSERT) q i h j y).
    Proof.
      induction n as [|n IH]; intros y Hs q i h ls K j l Hk E HT; [pose proof (lsize_pos y); lia|].
      pose proof (known_rest _ _ _ _ j Ht Hk) as R. pose proof (known_rest _ _ _ _ (S j) Ht Hk) as R'.
      rewrite E in R. rewrite (skipn_next _ _ _ _ E) in R'. pose proof (puts_out (l :: K) (rest root q i)) as Ca.
      destruct y as [p t|p t m|p|p|p|p cs m];
        try (eapply skip_good; eauto; now apply puts_skips).
      - cbn [add both app]. repeat (one; [rewrite R, ?R'; now apply st_insert|]); apply Forall_nil.
      - rewrite add_group. pose proof (known_into _ _ _ _ _ _ _ _ _ Hk E) as Kc.
        pose proof (known_rest _ _ _ _ 0 Ht Kc) as R0. pose proof (known_rest _ _ _ _ (length cs) Ht Kc) as R1.
        rewrite skipn_O in R0. rewrite skipn_all in R1.
        apply Forall_app. split; [|apply Forall_app; split].
        + apply good_both; (one; [rewrite R, R0; apply st_insert_group; exact Ca|apply Forall_nil]).
        + assert (G : forall (l0 : list L) k, skipn k cs = l0 -> lsizes l0 <= lsizes cs -> Forall good (add_list P q i (Z.of_nat (pre p)) k l0)).
          { induction l0 as [|c l0 IHl]; intros k Ek Hl; [apply Forall_nil|]. cbn [add_list]. rewrite lsizes_cons in Hl. rewrite lsize_group in Hs.
            apply Forall_app. split; [|apply IHl; [eapply skipn_next; eauto|lia]].
            replace RINSERT with (out_mode (l0 :: l :: K) (rest root q i) RINSERT INSERT) by (apply out_deep; cbn; lia).
            eapply IH; eauto; cbn; lia. }
          apply (G cs 0); auto.
        + apply good_both; (one; [rewrite R1, R'; apply st_insert_out|apply Forall_nil]).
    Qed.
    Lemma out_flat {A B} (K : list A) (K' : list B) d f : length K = length K' -> out_mode K K' d f = f.
    Proof. intros H. unfold out_mode. now rewrite H, Nat.eqb_refl. Qed.
    Definition at_pos (ls : list L) (i : nat) (x : option L) : Prop :=
      match x with Some x => exists l, skipn i ls = x :: l | None => skipn i ls = [] end.
    Lemma here_good q i h j x y ps K ts K' : known root q ps K -> known troot h ts K' -> length K = length K' ->
      at_pos ps i x -> at_pos ts j y -> Forall good (here P q i h j x y).
    Proof.
      intros Kp Kt HK Ax Ay. unfold here.
      pose proof (known_rest _ _ _ _ i Hp Kp) as Rp. pose proof (known_rest _ _ _ _ j Ht Kt) as Rt.
      pose proof (known_rest _ _ _ _ (S i) Hp Kp) as Rp'. pose proof (known_rest _ _ _ _ (S j) Ht Kt) as Rt'.
      apply Forall_app; split; [|apply Forall_app; split; [|apply Forall_app; split; [|apply Forall_app; split; [|apply Forall_app; split; [|apply Forall_app; split; [|apply Forall_app; split]]]]]].
      - destruct x as [x|]; [|apply Forall_nil]. destruct Ax as [l E]. eapply advance_good; eauto. now left.
      - apply good_both; (one; [apply st_begin|]; one; [apply st_ready|apply Forall_nil]).
      - destruct x as [x|]; [|apply Forall_nil]. destruct Ax as [l E]. cbn [on].
        replace DELETE with (out_mode (l :: K) (rest troot h j) RDELETE DELETE) by (apply out_flat; rewrite Rt; cbn; lia).
        eapply remove_good_upto; eauto. rewrite Rt. cbn. lia.
      - apply good_both; (one; [apply st_deleted|apply Forall_nil]).
      - destruct y as [y|]; [|apply Forall_nil]. destruct Ay as [l E]. cbn [on].
        replace INSERT with (out_mode (l :: K') (rest root q i) RINSERT INSERT) by (apply out_flat; rewrite Rp; cbn; lia).
        eapply add_good_upto; eauto. rewrite Rp. cbn. lia.
      - apply good_both; (one; [apply st_inserted|apply Forall_nil]).
      - destruct y as [y|]; [|apply Forall_nil]. destruct Ay as [l E]. cbn [on]. eapply skip_good; eauto. unfold skips. auto.
      - destruct x as [x|]; [|apply Forall_nil]. destruct y as [y|]; [|apply Forall_nil]. destruct Ax as [l E]. destruct Ay as [l' E'].
        rewrite (skipn_next _ _ _ _ E) in Rp'. rewrite (skipn_next _ _ _ _ E') in Rt'. rewrite E in Rp. rewrite E' in Rt.
        destruct x as [|p t m| | | |]; try apply Forall_nil. destruct y as [|p' t' m'| | | |]; try apply Forall_nil. cbn [keep].
        destruct (eqb t' t) eqn:E1; [|apply Forall_nil]. destruct (eqb m' m) eqn:E2; [|apply Forall_nil].
        apply eqb_eq in E1, E2. subst t' m'. cbn [andb].
        apply good_both; (one; [rewrite Rp, Rt, Rp', Rt'; apply st_keep|apply Forall_nil]).
    Qed.
    Lemma row_good base sub ts K' h (j : nat) : known troot h ts K' ->
      (forall j y, at_pos ts j y -> Forall good (base j y)) ->
      (forall j y, at_pos ts j (Some y) -> Forall good (sub j y)) ->
      forall l j, skipn j ts = l -> Forall good (row base sub j l).
    Proof.
      intros Kt Hb Hs. induction l as [|y l IH]; intros j0 E; cbn [row].
      - apply Hb. exact E.
      - apply Forall_app. split; [apply Hb; cbn; eauto|]. apply Forall_app. split; [apply Hs; cbn; eauto|].
        apply IH. eapply skipn_next; eauto.
    Qed.
    Lemma rows_good_upto n : forall (l : list L), lsizes l <= n -> forall q h i ps K ts K', known root q ps K -> known troot h ts K' ->
      length K = length K' -> skipn i ps = l -> Forall good (rows P q h i l ts).
    Proof.
      assert (Hlast : forall q h i ps K ts K', known root q ps K -> known troot h ts K' ->
        length K = length K' -> skipn i ps = [] -> Forall good (last_row P q h i ts)).
      { intros q h i ps K ts K' Kp Kt HK E. unfold last_row. eapply (row_good _ _ ts K' h 0); eauto.
        intros j y Ay. eapply here_good; eauto. }
      induction n as [|n IH]; intros [|x l] Hs q h i ps K ts K' Kp Kt HK E; cbn [rows]; rewrite ?lsizes_cons in *;
        [eapply Hlast; eauto|pose proof (lsize_pos x); lia|eapply Hlast; eauto|].
      pose proof (lsize_pos x).
      apply Forall_app. split; [|eapply (IH l); eauto; [lia|eapply skipn_next; eauto]].
      rewrite node_row_eq. eapply (row_good _ _ ts K' h 0); eauto.
      - intros j y Ay. eapply here_good; eauto. cbn. eauto.
      - intros j y [l' E']. destruct x as [p t|p t m|p|p|p|p cs m]; try apply Forall_nil.
        destruct y as [p' t'|p' t' m'|p'|p'|p'|p' ds m']; try apply Forall_nil. cbn [pair].
        destruct (eqb m' m) eqn:Em; [|apply Forall_nil]. apply eqb_eq in Em. subst m'.
        pose proof (known_into _ _ _ _ _ _ _ _ _ Kp E) as Kc. pose proof (known_into _ _ _ _ _ _ _ _ _ Kt E') as Kd.
        pose proof (known_rest _ _ _ _ i Hp Kp) as Rp. pose proof (known_rest _ _ _ _ j Ht Kt) as Rt.
        pose proof (known_rest _ _ _ _ (S i) Hp Kp) as Rp'. pose proof (known_rest _ _ _ _ (S j) Ht Kt) as Rt'.
        rewrite (skipn_next _ _ _ _ E) in Rp'. rewrite (skipn_next _ _ _ _ E') in Rt'. rewrite E in Rp. rewrite E' in Rt.
        pose proof (known_rest _ _ _ _ 0 Hp Kc) as Rc. pose proof (known_rest _ _ _ _ 0 Ht Kd) as Rd.
        pose proof (known_rest _ _ _ _ (length cs) Hp Kc) as Rc'. pose proof (known_rest _ _ _ _ (length ds) Ht Kd) as Rd'.
        rewrite skipn_O in Rc, Rd. rewrite skipn_all in Rc', Rd'.
        apply Forall_app. split; [|apply Forall_app; split].
        + apply good_both; (one; [rewrite Rp, Rt, Rc, Rd; apply st_match|apply Forall_nil]).
        + rewrite lsize_group in Hs. eapply (IH cs); eauto; cbn; lia.
        + apply good_both; (one; [rewrite Rp', Rt', Rc', Rd'; apply st_match_out|apply Forall_nil]).
    Qed.
    Definition all_edges : list eedge :=
      rows P ROOT_SEQ ROOT_SEQ 0 root troot ++
      [mkEdge (EAt MATCH High ROOT_SEQ (length root) ROOT_SEQ (length troot)) EFinal (Fin 0) None None].
    Theorem all_good : Forall good all_edges.
    Proof.
      unfold all_edges. apply Forall_app. split.
      - eapply (rows_good_upto (lsizes root)); auto; try (now left); auto.
      - one; [|apply Forall_nil]. unfold rest. cbn. rewrite !skipn_all. apply st_done.
    Qed.
    Theorem path_steps s p t : is_path all_edges s p t -> steps P (view s) (effects p) (view t).
    Proof.
      pose proof all_good as G. rewrite Forall_forall in G.
      revert s. induction p as [|e p IH]; intros s Hp0.
      - apply is_path_nil_inv in Hp0 as ->. constructor.
      - apply is_path_cons_inv in Hp0 as [-> [He Hp0]]. cbn [effects map]. econstructor; [apply (G e He)|]. now apply IH.
    Qed.
    Theorem path_script p : is_path all_edges (EAt PROCESS High ROOT_SEQ 0 ROOT_SEQ 0) p EFinal ->
      sc P PROCESS High root troot (effects p) None \/
      exists tr, effects p = tr ++ [silent] /\ sc P PROCESS High root troot tr (Some High).
    Proof.
      intros Hp0. apply path_steps in Hp0. cbn in Hp0. unfold rest in Hp0. cbn in Hp0. now apply steps_scripts.
    Qed.
  End Trees.
End View.
