(** Region extraction shows what [RegionDecisions.v] says it should, and never
    fails on choices the constraint DAG allows. *)

From Coq Require Import List Bool Arith Lia Sorting.Sorted.
From Verif Require Import Base SeqNodes PackedSeq PackedSeqProofs Numbered Decisions ConstraintSpec ConstraintProofs
  RegionDecisions.
Import ListNotations.

Section Proofs.
  Context {M : Type}.
  Notation L := (lnode M).

  Section Shown.
    Context (all : list L) (asg : assignments) (marker : text)
      (Sd : StronglySorted (fun x y => number x < number y) all).
    Notation taken := (taken asg).
    Notation before_exit := (before_exit all asg).
    Notation in_region_at := (in_region_at all asg).
    Notation empty_region_at := (empty_region_at all asg).
    Notation shown := (shown all asg marker).

    Lemma sorted_here done x todo : all = done ++ x :: todo ->
      (forall y, In y all -> number y < number x -> In y done) /\ (forall y, In y done -> number y < number x) /\
      (forall y, In y todo -> number x < number y).
    Proof.
      intros E. revert Sd. rewrite E. clear E. induction done as [|d done IH]; cbn [app]; intros S0.
      - inversion S0 as [|? ? S1 F]; subst. rewrite Forall_forall in F. splits.
        + intros y [<-|Hy] Hlt; [lia|]. apply F in Hy. lia.
        + intros y [].
        + auto.
      - inversion S0 as [|? ? S1 F]; subst. rewrite Forall_forall in F. apply IH in S1 as [A [B C]]. splits.
        + intros y [<-|Hy] Hlt; [now left|right; auto].
        + intros y [<-|Hy]; auto. apply F, in_or_app. right. now left.
        + auto.
    Qed.
    Lemma shown_after l : (forall x, In x l -> ~ before_exit (number x)) -> shown l [].
    Proof.
      induction l as [|x l IH]; intros H; [constructor|]. apply sh_none.
      - intros t _. apply H. now left.
      - intros j -> [C _]. apply (H (LEnd j)); [now left|exact C].
      - apply IH. intros y Hy. apply H. now right.
    Qed.

    (** What the loop knows after the nodes [done]. *)
    Definition knows (done : list L) (inr emp : bool) : Prop :=
      (inr = true <-> exists i, In (LStart i) done /\ taken RegionShouldStart i /\
         forall j, In (LEnd j) done -> pre i < pre j -> ~ taken RegionShouldEnd j) /\
      (emp = true <-> exists i, In (LStart i) done /\ taken RegionShouldStart i /\
         (forall j, In (LEnd j) done -> pre i < pre j -> ~ taken RegionShouldEnd j) /\
         (forall x t, In x done -> text_in x = Some t -> ~ pre i < number x)) /\
      (forall i, In (LExit i) done -> ~ taken ShouldEarlyExit i).
    Lemma knows_here done x todo inr emp : all = done ++ x :: todo -> knows done inr emp ->
      (inr = true <-> in_region_at (number x)) /\ (emp = true <-> empty_region_at (number x)).
    Proof.
      intros E [K1 [K2 _]]. destruct (sorted_here _ _ _ E) as [A [B _]]. split.
      - rewrite K1. split; intros [i [H1 [H2 H3]]].
        + exists i. splits; auto; [rewrite E; apply in_or_app; now left|now apply (B (LStart i))|].
          intros j Hj [L1 L2]. apply H3; auto; now apply (A (LEnd j)).
        + destruct H3 as [H3 H4]. exists i. splits; auto.
          intros j Hj L1. apply H4; [rewrite E; apply in_or_app; now left|]. split; auto; now apply (B (LEnd j)).
      - rewrite K2. split.
        + intros [i [H1 [H2 [H3 H4]]]].
          exists i. splits; auto; [rewrite E; apply in_or_app; now left|now apply (B (LStart i))| |].
          * intros j Hj [L1 L2]. apply H3; auto; now apply (A (LEnd j)).
          * intros y t Hy Ht [L1 L2]. apply (H4 y t); auto.
        + intros [i [H1 [H2 [H3 [H4 H5]]]]]. exists i. splits; auto.
          * intros j Hj L1. apply H4; [rewrite E; apply in_or_app; now left|]. split; auto; now apply (B (LEnd j)).
          * intros y t Hy Ht L1. apply (H5 y t); auto. rewrite E. apply in_or_app. now left.
    Qed.
    Lemma knows_before done x todo inr emp : all = done ++ x :: todo -> knows done inr emp ->
      (forall i, x <> LExit i) \/ (exists i, x = LExit i /\ ~ taken ShouldEarlyExit i) -> before_exit (number x).
    Proof.
      intros E [_ [_ K3]] Hx i Hi Ht. destruct (sorted_here _ _ _ E) as [_ [_ C]].
      rewrite E in Hi. apply in_app_or in Hi as [Hi|[Hi|Hi]].
      - now destruct (K3 i).
      - destruct Hx as [Hx|[j [-> Hx]]]; [now destruct (Hx i)|]. injection Hi as ->. now destruct Hx.
      - now apply (C (LExit i)).
    Qed.
    (** Nodes that change nothing the loop remembers. *)
    Lemma knows_quiet done x todo inr emp : all = done ++ x :: todo -> knows done inr emp ->
      text_in x = None -> (forall i, x = LStart i -> ~ taken RegionShouldStart i) ->
      (forall i, x = LEnd i -> ~ taken RegionShouldEnd i) -> (forall i, x = LExit i -> ~ taken ShouldEarlyExit i) ->
      knows (done ++ [x]) inr emp.
    Proof.
      intros E [K1 [K2 K3]] Ht Hs He Hx. split; [|split].
      - rewrite K1. split; intros [i [H1 [H2 H3]]]; exists i.
        + splits; auto; [apply in_or_app; now left|]. intros j Hj. apply in_app_or in Hj as [Hj|[Hj|[]]]; auto.
        + apply in_app_or in H1 as [H1|[H1|[]]]; [|exfalso; now apply (Hs i)]. splits; auto.
          intros j Hj. apply H3. apply in_or_app. now left.
      - rewrite K2. split; intros [i [H1 [H2 [H3 H4]]]]; exists i.
        + splits; auto; [apply in_or_app; now left| |].
          * intros j Hj. apply in_app_or in Hj as [Hj|[Hj|[]]]; auto.
          * intros y t Hy Ey. apply in_app_or in Hy as [Hy|[<-|[]]]; [eauto|congruence].
        + apply in_app_or in H1 as [H1|[H1|[]]]; [|exfalso; now apply (Hs i)]. splits; auto.
          * intros j Hj. apply H3. apply in_or_app. now left.
          * intros y t Hy. apply (H4 y t). apply in_or_app. now left.
      - intros i Hi. apply in_app_or in Hi as [Hi|[Hi|[]]]; [now apply K3|now apply Hx].
    Qed.
    Lemma knows_text done x t todo inr emp : all = done ++ x :: todo -> knows done inr emp ->
      text_in x = Some t -> knows (done ++ [x]) inr false.
    Proof.
      intros E [K1 [K2 K3]] Ht. destruct (sorted_here _ _ _ E) as [_ [B _]].
      assert (N1 : forall i, x <> LStart i) by (intros i ->; discriminate).
      assert (N2 : forall i, x <> LEnd i) by (intros i ->; discriminate).
      assert (N3 : forall i, x <> LExit i) by (intros i ->; discriminate). split; [|split].
      - rewrite K1. split; intros [i [H1 [H2 H3]]]; exists i.
        + splits; auto; [apply in_or_app; now left|]. intros j Hj. apply in_app_or in Hj as [Hj|[Hj|[]]]; auto. now destruct (N2 j).
        + apply in_app_or in H1 as [H1|[H1|[]]]; [|now destruct (N1 i)]. splits; auto.
          intros j Hj. apply H3. apply in_or_app. now left.
      - split; [discriminate|]. intros [i [H1 [H2 [H3 H4]]]]. exfalso.
        apply in_app_or in H1 as [H1|[H1|[]]]; [|now destruct (N1 i)]. apply (H4 x t); auto; [apply in_or_app; right; now left|].
        now apply (B (LStart i)).
      - intros i Hi. apply in_app_or in Hi as [Hi|[Hi|[]]]; [now apply K3|now destruct (N3 i)].
    Qed.
    Lemma knows_start done i todo inr emp : all = done ++ LStart i :: todo -> knows done inr emp ->
      taken RegionShouldStart i -> knows (done ++ [LStart i]) true true.
    Proof.
      intros E [K1 [K2 K3]] Ht. destruct (sorted_here _ _ _ E) as [_ [B _]]. split; [|split].
      - split; auto. intros _. exists i. splits; auto; [apply in_or_app; right; now left|].
        intros j Hj Hl. apply in_app_or in Hj as [Hj|[Hj|[]]]; [|discriminate]. apply B in Hj. unfold number in Hj. cbn in Hj. lia.
      - split; auto. intros _. exists i. splits; auto; [apply in_or_app; right; now left| |].
        + intros j Hj Hl. apply in_app_or in Hj as [Hj|[Hj|[]]]; [|discriminate]. apply B in Hj. unfold number in Hj. cbn in Hj. lia.
        + intros y t Hy Ey Hl. apply in_app_or in Hy as [Hy|[<-|[]]]; [|discriminate]. apply B in Hy.
          change (number (LStart i)) with (pre i) in Hy. lia.
      - intros j Hj. apply in_app_or in Hj as [Hj|[Hj|[]]]; [now apply K3|discriminate].
    Qed.
    Lemma knows_end done i todo inr emp : all = done ++ LEnd i :: todo -> knows done inr emp ->
      taken RegionShouldEnd i -> knows (done ++ [LEnd i]) false false.
    Proof.
      intros E [K1 [K2 K3]] Ht. destruct (sorted_here _ _ _ E) as [_ [B _]].
      assert (Hno : forall k, In (LStart k) (done ++ [LEnd i]) ->
        ~ (forall j, In (LEnd j) (done ++ [LEnd i]) -> pre k < pre j -> ~ taken RegionShouldEnd j)).
      { intros k Hk C. apply (C i); auto; [apply in_or_app; right; now left|].
        apply in_app_or in Hk as [Hk|[Hk|[]]]; [|discriminate]. now apply (B (LStart k)). }
      split; [|split].
      - split; [discriminate|]. intros [k [H1 [H2 H3]]]. now destruct (Hno k).
      - split; [discriminate|]. intros [k [H1 [H2 [H3 _]]]]. now destruct (Hno k).
      - intros j Hj. apply in_app_or in Hj as [Hj|[Hj|[]]]; [now apply K3|discriminate].
    Qed.

    Lemma go_shown : forall todo done inr emp out, all = done ++ todo -> knows done inr emp ->
      go asg marker inr emp todo = (out, None) -> shown todo out.
    Proof.
      induction todo as [|x todo IH]; intros done inr emp out E K G; cbn [go] in G.
      { injection G as <-. constructor. }
      assert (E' : all = (done ++ [x]) ++ todo) by now rewrite <- app_assoc.
      destruct (knows_here _ _ _ _ _ E K) as [Hin Hemp].
      destruct x as [i t|i t m|i|i|i|i cs m].
      - unfold prepend in G. destruct (go asg marker inr false todo) as [o e] eqn:G'. injection G as <- ->. cbn [app].
        apply sh_text; auto; [eapply knows_before; eauto; left; discriminate|].
        eapply IH; eauto. now apply (knows_text done _ t todo inr emp).
      - unfold prepend in G. destruct (go asg marker inr false todo) as [o e] eqn:G'. injection G as <- ->. cbn [app].
        apply sh_text; auto; [eapply knows_before; eauto; left; discriminate|].
        eapply IH; eauto. now apply (knows_text done _ t todo inr emp).
      - apply sh_none; try discriminate.
        destruct (assoc (pre i, RegionShouldStart) asg) as [[| |]|] eqn:A; try discriminate.
        2: { eapply IH; eauto. eapply knows_start; eauto. }
        all: eapply IH; eauto; eapply knows_quiet; eauto; try discriminate; intros ? H; injection H as <-; unfold RegionDecisions.taken; congruence.
      - destruct (assoc (pre i, RegionShouldEnd) asg) as [[| |]|] eqn:A; try discriminate.
        2: { destruct inr; [|discriminate]. cbn [negb] in G. unfold prepend in G.
             destruct (go asg marker false false todo) as [o e] eqn:G'. injection G as <- ->. cbn [fst snd] in *.
             assert (Ho : shown todo o) by (eapply IH; eauto; eapply knows_end; eauto).
             assert (Hb : before_exit (number (LEnd i))) by (eapply knows_before; eauto; left; discriminate).
             destruct emp.
             - cbn [app]. apply sh_empty; auto. now apply Hemp.
             - cbn [app]. apply sh_none; auto; [discriminate|]. intros j H [_ [_ C]]. injection H as <-. apply Hemp in C. discriminate. }
        all: apply sh_none; [discriminate|intros ? H [_ [C _]]; injection H as <-; unfold RegionDecisions.taken in C; congruence|];
          eapply IH; eauto; eapply knows_quiet; eauto; try discriminate; intros ? H; injection H as <-; unfold RegionDecisions.taken; congruence.
      - destruct (assoc (pre i, ShouldEarlyExit) asg) as [[| |]|] eqn:A; try discriminate.
        2: { injection G as <-. apply shown_after. intros y Hy C. assert (Hlt : number y < pre i).
             { apply C; auto. rewrite E. apply in_or_app. right. now left. }
             destruct (sorted_here _ _ _ E) as [_ [_ Hc]]. destruct Hy as [<-|Hy]; [cbn in Hlt; unfold number in Hlt; cbn in Hlt; lia|].
             apply Hc in Hy. unfold number at 1 in Hy. cbn in Hy. lia. }
        all: apply sh_none; [discriminate|discriminate|];
          eapply IH; eauto; eapply knows_quiet; eauto; try discriminate; intros ? H; injection H as <-; unfold RegionDecisions.taken; congruence.
      - apply sh_none; try discriminate. eapply IH; eauto. eapply knows_quiet; eauto; discriminate.
    Qed.

    (** The decisions about single tokens agree with the regions. *)
    Fixpoint agree (inr : bool) (l : list L) : Prop :=
      match l with
      | [] => True
      | LToken i _ _ :: l' => assoc (pre i, NodeInRegion) asg = Some (if inr then DTrue else DFalse) /\ agree inr l'
      | LStart i :: l' => match assoc (pre i, RegionShouldStart) asg with Some DTrue => agree true l' | _ => agree inr l' end
      | LEnd i :: l' => match assoc (pre i, RegionShouldEnd) asg with Some DTrue => agree false l' | _ => agree inr l' end
      | LExit i :: l' => match assoc (pre i, ShouldEarlyExit) asg with Some DTrue => True | _ => agree inr l' end
      | _ :: l' => agree inr l'
      end.
    Lemma agree_tokens : forall todo done inr emp, all = done ++ todo -> knows done inr emp -> agree inr todo ->
      forall i t m, In (LToken i t m) todo -> before_exit (pre i) ->
        exists v, assoc (pre i, NodeInRegion) asg = Some v /\ v <> DNA /\ (v = DTrue <-> in_region_at (pre i)).
    Proof.
      induction todo as [|x todo IH]; intros done inr emp E K G i0 t0 m0 Hi Hb; [destruct Hi|].
      assert (E' : all = (done ++ [x]) ++ todo) by now rewrite <- app_assoc.
      destruct (knows_here _ _ _ _ _ E K) as [Hin Hemp].
      destruct x as [i t|i t m|i|i|i|i cs m]; cbn [agree] in G.
      - destruct Hi as [Hi|Hi]; [discriminate|]. eapply IH; eauto. now apply (knows_text done _ t todo inr emp).
      - destruct G as [G1 G]. destruct Hi as [Hi|Hi].
        + injection Hi as -> -> ->. change (number (LToken i0 t0 m0)) with (pre i0) in Hin.
          eexists. split; [exact G1|]. destruct inr; split; try discriminate; (split; [try discriminate; intros _; now apply Hin|]); auto.
          intros C. apply Hin in C. discriminate.
        + eapply IH; eauto. now apply (knows_text done _ t todo inr emp).
      - destruct Hi as [Hi|Hi]; [discriminate|].
        destruct (assoc (pre i, RegionShouldStart) asg) as [[| |]|] eqn:A.
        2: { eapply (IH _ true true); eauto. eapply knows_start; eauto. }
        all: eapply IH; eauto; eapply knows_quiet; eauto; try discriminate; intros ? H; injection H as <-; unfold RegionDecisions.taken; congruence.
      - destruct Hi as [Hi|Hi]; [discriminate|].
        destruct (assoc (pre i, RegionShouldEnd) asg) as [[| |]|] eqn:A.
        2: { eapply (IH _ false false); eauto. eapply knows_end; eauto. }
        all: eapply IH; eauto; eapply knows_quiet; eauto; try discriminate; intros ? H; injection H as <-; unfold RegionDecisions.taken; congruence.
      - destruct Hi as [Hi|Hi]; [discriminate|].
        destruct (assoc (pre i, ShouldEarlyExit) asg) as [[| |]|] eqn:A.
        2: { exfalso. assert (Hlt : pre i0 < pre i).
             { apply Hb; auto. rewrite E. apply in_or_app. right. now left. }
             destruct (sorted_here _ _ _ E) as [_ [_ Hc]]. apply Hc in Hi. unfold number in Hi. cbn in Hi. lia. }
        all: eapply IH; eauto; eapply knows_quiet; eauto; try discriminate; intros ? H; injection H as <-; unfold RegionDecisions.taken; congruence.
      - destruct Hi as [Hi|Hi]; [discriminate|]. eapply IH; eauto. eapply knows_quiet; eauto; discriminate.
    Qed.
    Lemma knows_nil : knows [] false false.
    Proof. split; [|split]; try (split; [discriminate|intros [i [[] _]]]). intros i []. Qed.
  End Shown.

  (** ** Allowed choices never make the loop fail. *)
  Definition respects (asg : assignments) (ds : list decision) : Prop :=
    forall k v, In (k, v) ds -> assoc k asg = Some v.
  Lemma respects_cons asg k v ds : respects asg ((k, v) :: ds) -> assoc k asg = Some v /\ respects asg ds.
  Proof. intros H. split; [apply H; now left|intros k' v' Hi; apply H; now right]. Qed.
  Lemma respects_app asg a b : respects asg (a ++ b) -> respects asg a /\ respects asg b.
  Proof. intros H. split; intros k v Hi; apply H, in_or_app; auto. Qed.

  Context (asg : assignments) (marker : text).
  Notation go := (RegionDecisions.go asg marker).
  Notation agrees := (agree asg).

  (** The loop passes a list of nodes, or stops in it. *)
  Definition passes (b : bool) (l : list L) (b' : bool) : Prop :=
    (forall emp rest, exists out emp', go b emp (l ++ rest) = prepend out (go b' emp' rest)) /\
    (forall rest, agrees b' rest -> agrees b (l ++ rest)).
  Definition stops (b : bool) (l : list L) : Prop :=
    (forall emp rest, exists out, go b emp (l ++ rest) = (out, None)) /\ (forall rest, agrees b (l ++ rest)).
  Lemma prepend_prepend a b r : prepend a (prepend b r) = prepend (a ++ b) r.
  Proof. unfold prepend. cbn. now rewrite app_assoc. Qed.
  Lemma prepend_nil r : prepend [] r = r.
  Proof. now destruct r. Qed.
  Lemma passes_nil b : passes b [] b.
  Proof. split; auto. intros emp rest. exists [], emp. now rewrite prepend_nil. Qed.
  Lemma passes_app b b' b'' l l' : passes b l b' -> passes b' l' b'' -> passes b (l ++ l') b''.
  Proof.
    intros [A1 A2] [B1 B2]. split.
    - intros emp rest. rewrite <- app_assoc. destruct (A1 emp (l' ++ rest)) as [o [e ->]].
      destruct (B1 e rest) as [o' [e' ->]]. exists (o ++ o'), e'. apply prepend_prepend.
    - intros rest H. rewrite <- app_assoc. auto.
  Qed.
  Lemma passes_stops b b' l l' : passes b l b' -> stops b' l' -> stops b (l ++ l').
  Proof.
    intros [A1 A2] [B1 B2]. split.
    - intros emp rest. rewrite <- app_assoc. destruct (A1 emp (l' ++ rest)) as [o [e ->]].
      destruct (B1 e rest) as [o' ->]. now eexists.
    - intros rest. rewrite <- app_assoc. auto.
  Qed.
  Lemma stops_app b l l' : stops b l -> stops b (l ++ l').
  Proof.
    intros [A1 A2]. split; intros; rewrite <- app_assoc; auto.
  Qed.
  Lemma passes_one b (x : L) b' : (forall emp, exists out emp', forall rest, go b emp (x :: rest) = prepend out (go b' emp' rest)) ->
    (forall rest, agrees b' rest -> agrees b (x :: rest)) -> passes b [x] b'.
  Proof. intros H1 H2. split; auto. intros emp rest. destruct (H1 emp) as [o [e H]]. exists o, e. apply H. Qed.

  Lemma passes_deco b i t : passes b [LDeco i t] b.
  Proof. apply passes_one; auto. intros emp. now exists [(t, b)], false. Qed.
  Lemma passes_token (b : bool) i t (m : M) : assoc (pre i, NodeInRegion) asg = Some (if b then DTrue else DFalse) ->
    passes b [LToken i t m] b.
  Proof. intros A. apply passes_one; [|cbn; auto]. intros emp. now exists [(t, b)], false. Qed.
  Lemma passes_group b i (cs : list L) m b' : passes b (flat_map nodes cs) b' -> passes b (nodes (LGroup i cs m)) b'.
  Proof.
    intros H. cbn [nodes]. change (LGroup i cs m :: flat_map nodes cs) with ([LGroup i cs m] ++ flat_map nodes cs).
    eapply passes_app; [|exact H]. apply passes_one; auto. intros emp. exists [], emp. intros rest. now rewrite prepend_nil.
  Qed.
  Lemma stops_group b i (cs : list L) m : stops b (flat_map nodes cs) -> stops b (nodes (LGroup i cs m)).
  Proof.
    intros H. cbn [nodes]. change (LGroup i cs m :: flat_map nodes cs) with ([LGroup i cs m] ++ flat_map nodes cs).
    eapply passes_stops; [|exact H]. apply passes_one; auto. intros emp. exists [], emp. intros rest. now rewrite prepend_nil.
  Qed.
  Lemma passes_start (b : bool) i v : assoc (pre i, RegionShouldStart) asg = Some v -> passes b [LStart i] (match v with DTrue => true | _ => b end).
  Proof.
    intros A. apply passes_one.
    - intros emp. cbn [RegionDecisions.go]. rewrite A. destruct v; [exists [], emp|exists [], true|exists [], emp]; intros; now rewrite prepend_nil.
    - intros rest. cbn [agree]. rewrite A. now destruct v.
  Qed.
  Lemma passes_end (b : bool) i v : assoc (pre i, RegionShouldEnd) asg = Some v -> (v = DTrue -> b = true) ->
    passes b [LEnd i] (match v with DTrue => false | _ => b end).
  Proof.
    intros A H. apply passes_one.
    - intros emp. cbn [RegionDecisions.go]. rewrite A. destruct v; [exists [], emp; intros; now rewrite prepend_nil|
        rewrite H by auto; cbn [negb]; eexists; exists false; reflexivity|exists [], emp; intros; now rewrite prepend_nil].
    - intros rest. cbn [agree]. rewrite A. now destruct v.
  Qed.
  Lemma passes_exit b i : assoc (pre i, ShouldEarlyExit) asg = Some DFalse -> passes b [LExit i] b.
  Proof.
    intros A. apply passes_one; [|cbn; now rewrite A]. intros emp. cbn. rewrite A. exists [], emp. intros. now rewrite prepend_nil.
  Qed.
  Lemma stops_exit b i : assoc (pre i, ShouldEarlyExit) asg = Some DTrue -> stops b [LExit i].
  Proof. intros A. split; intros; cbn; rewrite A; eauto. Qed.

  Lemma inside_passes (x : L) : respects asg (inside x) -> passes true (nodes x) true.
  Proof.
    induction x as [i t|i t m|i|i|i|i cs m IH] using lnode_ind'; cbn [inside nodes]; intros R; try apply respects_cons in R as [A R].
    - apply passes_deco.
    - now apply passes_token.
    - now apply (passes_start true i DNA).
    - now apply (passes_end true i DFalse).
    - now apply passes_exit.
    - apply passes_group. clear A. revert R. induction IH as [|c l Hc HF IHl]; intros R; [apply passes_nil|].
      cbn [flat_map] in *. apply respects_app in R as [R1 R2]. eapply passes_app; eauto.
  Qed.
  Lemma insides_passes (l : list L) : respects asg (flat_map inside l) -> passes true (flat_map nodes l) true.
  Proof.
    induction l as [|c l IH]; intros R; [apply passes_nil|].
    cbn [flat_map] in *. apply respects_app in R as [R1 R2]. eapply passes_app; [now apply inside_passes|auto].
  Qed.
  Lemma inside_exits_stops (l : list L) a : inside_exits l a -> respects asg a -> stops true (flat_map nodes l).
  Proof.
    induction 1 as [i l|i cs m l a Hi IH|x l a Hi IH]; intros R; cbn [flat_map].
    - apply respects_cons in R as [A _]. now apply stops_app, stops_exit.
    - apply respects_cons in R as [A R]. apply stops_app, stops_group. auto.
    - apply respects_app in R as [R1 R2]. eapply passes_stops; [now apply inside_passes|auto].
  Qed.
  Lemma crun_walk b (l : list L) a r : crun b l a r -> respects asg a ->
    match r with Some b' => passes b (flat_map nodes l) b' | None => stops b (flat_map nodes l) end.
  Proof.
    assert (P : forall b (x : L) l b' (r : option bool), passes b (nodes x) b' ->
      match r with Some b'' => passes b' (flat_map nodes l) b'' | None => stops b' (flat_map nodes l) end ->
      match r with Some b'' => passes b (flat_map nodes (x :: l)) b'' | None => stops b (flat_map nodes (x :: l)) end).
    { intros b0 x l0 b' [b''|] H1 H2; cbn [flat_map]; [eapply passes_app; eauto|eapply passes_stops; eauto]. }
    induction 1; intros R; try apply respects_cons in R as [A R]; try specialize (IHcrun R);
      try (eapply P; [|exact IHcrun]).
    - apply passes_nil.
    - apply passes_deco.
    - now apply passes_token.
    - apply respects_app in R as [R1 R2]. eapply P; [|now apply IHcrun2]. apply passes_group. now apply IHcrun1.
    - cbn [flat_map]. apply stops_app, stops_group. auto.
    - apply respects_app in R as [R1 R2]. eapply P; [|now apply IHcrun]. apply passes_group. now apply insides_passes.
    - cbn [flat_map]. apply stops_app, stops_group. eapply inside_exits_stops; eauto.
    - now apply (passes_start false i DFalse).
    - now apply (passes_start false i DTrue).
    - now apply (passes_start true i DNA).
    - now apply (passes_end true i DFalse).
    - now apply (passes_end true i DTrue).
    - now apply (passes_end false i DNA).
    - cbn [flat_map]. now apply stops_app, stops_exit.
    - now apply passes_exit.
  Qed.
  Lemma choice_walk (l : list L) ds : region_choice l ds -> respects asg ds ->
    (exists out, go false false (flat_map nodes l) = (out, None)) /\ agrees false (flat_map nodes l).
  Proof.
    intros Hc R. apply crun_region_choice in Hc as [Hc|Hc]; apply crun_walk in Hc; auto; destruct Hc as [A B].
    - split; [destruct (A false []) as [o [e E]]; rewrite app_nil_r in E; rewrite E; now eexists|].
      specialize (B [] I). now rewrite app_nil_r in B.
    - split; [destruct (A false []) as [o E]; rewrite app_nil_r in E; rewrite E; now eexists|].
      specialize (B []). now rewrite app_nil_r in B.
  Qed.
End Proofs.

(** ** The text that is shown. *)
Section Text.
  Context {M : Type}.
  Notation L := (lnode M).
  Definition ltext (x : L) : text := match text_in x with Some t => t | None => [] end.
  Definition texts (l : list L) : text := concat (map ltext l).
  Lemma texts_cons x l : texts (x :: l) = ltext x ++ texts l.
  Proof. reflexivity. Qed.
  Lemma texts_app l l' : texts (l ++ l') = texts l ++ texts l'.
  Proof. unfold texts. now rewrite map_app, concat_app. Qed.
  Lemma nodes_text (x : L) : texts (nodes x) = render_node (erase x).
  Proof.
    induction x as [i t|i t m|i|i|i|i cs m IH] using lnode_ind'; try (cbn; now rewrite ?app_nil_r).
    cbn [nodes erase render_node]. rewrite texts_cons. cbn [ltext text_in app].
    induction IH as [|c l Hc HF IHl]; auto. cbn [flat_map map concat]. now rewrite texts_app, Hc, IHl.
  Qed.
  Lemma nodes_render (ns : list (node M)) : texts (flat_map nodes (labelled ns)) = render ns.
  Proof.
    unfold render. rewrite <- (erase_labs ns 0 0 0 0) at 2. fold (labelled ns). rewrite map_map.
    induction (labelled ns) as [|c l IH]; auto. cbn [flat_map map concat]. now rewrite texts_app, nodes_text, IH.
  Qed.
  Lemma shown_all_text all asg (l : list L) out : shown all asg [] l out ->
    (forall x, In x l -> before_exit all asg (number x)) -> concat (map fst out) = texts l.
  Proof.
    induction 1 as [|x t b l out Ht Hb Hr Hs IH|j l out Hb Ht He Hs IH|x l out Ht He Hs IH]; intros H; auto; rewrite texts_cons.
    - cbn [map concat fst]. rewrite IH by (intros; apply H; now right). unfold ltext. now rewrite Ht.
    - cbn. rewrite IH by (intros; apply H; now right). reflexivity.
    - rewrite IH by (intros; apply H; now right). unfold ltext. destruct (text_in x) as [t|] eqn:E; auto.
      destruct (Ht t eq_refl). apply H. now left.
  Qed.
  Lemma shown_nothing all asg marker (l : list L) out : shown all asg marker l out ->
    (forall x, In x l -> ~ before_exit all asg (number x)) -> out = [].
  Proof.
    induction 1 as [|x t b l out Ht Hb Hr Hs IH|j l out Hb Ht He Hs IH|x l out Ht He Hs IH]; intros H; auto.
    - exfalso. apply (H x); auto. now left.
    - exfalso. apply (H (LEnd j)); auto. now left.
    - apply IH. intros; apply H; now right.
  Qed.
  Lemma shown_prefix all asg (l : list L) out : StronglySorted (fun x y => number x < number y) l ->
    shown all asg [] l out -> exists rest, texts l = concat (map fst out) ++ rest.
  Proof.
    intros Sd. induction 1 as [|x t b l out Ht Hb Hr Hs IH|j l out Hb Ht He Hs IH|x l out Ht He Hs IH].
    - now exists [].
    - inversion Sd; subst. destruct IH as [rest E]; auto. exists rest. rewrite texts_cons, E. unfold ltext. rewrite Ht. cbn. now rewrite app_assoc.
    - inversion Sd; subst. destruct IH as [rest E]; auto. exists rest. rewrite texts_cons, E. reflexivity.
    - inversion Sd as [|? ? S1 F]; subst. destruct IH as [rest E]; auto. rewrite texts_cons. unfold ltext.
      destruct (text_in x) as [t|] eqn:Ex; [|exists rest; exact E].
      rewrite (shown_nothing _ _ _ _ _ Hs); [eexists; reflexivity|]. intros y Hy C. apply (Ht t); auto.
      intros i Hi Hk. specialize (C i Hi Hk). rewrite Forall_forall in F. apply F in Hy. lia.
  Qed.
  (** A choice without early exit declines every exit. *)
  Lemma inside_declines (x : L) i : In (LExit i) (nodes x) -> In ((pre i, ShouldEarlyExit), DFalse) (inside x).
  Proof.
    induction x as [j t|j t m|j|j|j|j cs m IH] using lnode_ind'; cbn [nodes inside]; intros [H|H]; try discriminate; try (now destruct H).
    - injection H as <-. now left.
    - right. apply in_flat_map in H as [c [Hc H]]. apply in_flat_map. exists c. split; auto. rewrite Forall_forall in IH. auto.
  Qed.
  Lemma crun_declines b (l : list L) a r : crun b l a r -> r <> None -> forall i, In (LExit i) (flat_map nodes l) ->
    In ((pre i, ShouldEarlyExit), DFalse) a.
  Proof.
    induction 1; intros Hr k Hk; cbn [flat_map] in Hk; try (apply in_app_or in Hk as [Hk|Hk]); try (now destruct Hr);
      try (cbn [nodes] in Hk; destruct Hk as [Hk|Hk]; [try discriminate|try (now destruct Hk)]); try (right; apply in_or_app); try (right; now auto); auto.
    - left. apply IHcrun1; [discriminate|auto].
    - left. apply in_flat_map in Hk as [c [Hc Hk]]. apply in_flat_map. exists c. split; auto. now apply inside_declines.
    - injection Hk as <-. now left.
  Qed.
  Lemma chosen_declines (l : list L) ds asg i : chosen l ds -> respects asg ds -> In (LExit i) (flat_map nodes l) ->
    assoc (pre i, ShouldEarlyExit) asg = Some DFalse.
  Proof. intros Hc R Hi. apply R. apply chosen_crun in Hc. eapply crun_declines; eauto. discriminate. Qed.
End Text.
