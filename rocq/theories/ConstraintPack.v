(** Region choices list their decisions in preorder, so the constraint DAG can
    always be packed. *)

From Coq Require Import List Bool Arith Lia ZArith Sorting.Sorted QArith Qcanon.
From Verif Require Import Base Graph GatedDag SeqNodes PackedSeq PackedSeqProofs Numbered Decisions Convert
  ConstraintDag ConstraintSpec ConstraintProofs BuilderPack.
Import ListNotations.
Close Scope Qc_scope. Close Scope Q_scope. Close Scope Z_scope. Open Scope nat_scope.

Definition positions (ds : list decision) : list nat := map (fun a => fst (fst a)) ds.
Definition within (lo hi : nat) (l : list nat) : Prop := StronglySorted lt l /\ Forall (fun k => lo <= k < hi) l.
Lemma within_nil lo hi : within lo hi [].
Proof. split; constructor. Qed.
Lemma within_app lo m hi a b : within lo m a -> within m hi b -> lo <= m <= hi -> within lo hi (a ++ b).
Proof.
  intros [A1 A2] [B1 B2] Hm. split.
  - induction A1 as [|x a A1 IH F]; auto. inversion A2 as [|? ? C1 C2]; subst. cbn [app]. constructor; auto.
    apply Forall_app. split; auto. eapply Forall_impl; [|exact B2]. cbn. intros; lia.
  - apply Forall_app. split; [eapply Forall_impl; [|exact A2]|eapply Forall_impl; [|exact B2]]; cbn; intros; lia.
Qed.
Lemma within_mono lo hi lo' hi' l : within lo hi l -> lo' <= lo -> hi <= hi' -> within lo' hi' l.
Proof. intros [A B] H1 H2. split; auto. eapply Forall_impl; [|exact B]. cbn. intros; lia. Qed.
Lemma within_cons lo k hi l : within (S k) hi l -> lo <= k < hi -> within lo hi (k :: l).
Proof.
  intros H Hk. change (k :: l) with ([k] ++ l). apply (within_app lo (S k)); auto; [|lia].
  split; repeat constructor; lia.
Qed.
Lemma positions_app a b : positions (a ++ b) = positions a ++ positions b.
Proof. apply map_app. Qed.

Section Keys.
  Context {M : Type}.
  Notation L := (lnode M).
  Lemma insides_within n : forall l : list L, lsizes l <= n -> forall p, numbered p l ->
    within p (p + lsizes l) (positions (flat_map inside l)).
  Proof.
    induction n as [|n IH]; intros [|x l] Hs p Hn; try apply within_nil; rewrite lsizes_cons in Hs; pose proof (lsize_pos x) as Px; [lia|].
    cbn [flat_map]. rewrite positions_app, lsizes_cons.
    inversion Hn as [|? ? ? E1 E2 E3|? i cs m ? E1 E2 E3]; subst.
    - assert (H1 : lsize x = 1) by (destruct x; auto; now destruct (E2 i cs m)).
      apply IH in E3; [|lia]. apply (within_app _ (S (number x))); [|eapply within_mono; [exact E3|lia|lia]|lia].
      destruct x as [i t|i t m|i|i|i|i cs m]; cbn; try apply within_nil; try (split; repeat constructor; unfold number; cbn; lia).
      now destruct (E2 i cs m).
    - rewrite lsize_group in *. apply IH in E3; [|lia]. apply IH in E2; [|lia].
      apply (within_app _ (S (pre i + lsizes cs))); [|eapply within_mono; [exact E3|lia|lia]|lia].
      cbn [inside positions map fst]. apply within_cons; [|lia]. exact E2.
  Qed.
  Lemma inside_exits_within (l : list L) a : inside_exits l a -> forall p, numbered p l -> within p (p + lsizes l) (positions a).
  Proof.
    induction 1 as [i l|i cs m l a Hi IH|x l a Hi IH]; intros p Hn; rewrite lsizes_cons.
    - inversion Hn as [|? ? ? E1 E2 E3|]; subst. cbn. split; repeat constructor; unfold number; cbn; lia.
    - apply numbered_kids in Hn as [-> Hn]. apply IH in Hn. rewrite lsize_group. cbn [positions map fst].
      apply within_cons; [eapply within_mono; [exact Hn|lia|lia]|lia].
    - apply numbered_one in Hn as [N1 N2]. pose proof (lsize_pos x). rewrite positions_app. apply (within_app _ (p + lsize x)); [| |lia].
      + pose proof (insides_within (lsizes [x]) [x] (le_n _) p N1) as W. cbn [flat_map] in W. rewrite app_nil_r in W.
        eapply within_mono; [exact W|lia|]. unfold lsizes. cbn. lia.
      + apply IH in N2. eapply within_mono; [exact N2|lia|lia].
  Qed.
  Lemma crun_within b (l : list L) a r : crun b l a r -> forall p, numbered p l -> within p (p + lsizes l) (positions a).
  Proof.
    induction 1 as [| | | i cs m l a a' r H1 IH1 H2 IH2|i cs m l a H1 IH1|i cs m l a r H1 IH1|i cs m l a H1| | | | | | | |];
      intros p Hn; try apply within_nil; rewrite lsizes_cons;
      try (inversion Hn as [|? ? ? E1 E2 E3|]; subst; cbn [number label lsize] in *;
           cbn [positions map fst]; unfold number in *; cbn [label] in *; pose proof I;
           match goal with IH : forall p, numbered p _ -> within _ _ _ |- _ => apply IH in E3 end;
           first [apply within_cons; [eapply within_mono; [exact E3|lia|lia]|lia]|eapply within_mono; [exact E3|lia|lia]]).
    - pose proof (numbered_kids _ _ _ _ _ Hn) as [-> Hk]. apply numbered_one in Hn as [_ Hn].
      cbn [positions map fst]. fold (positions (a ++ a')). rewrite positions_app. rewrite lsize_group in *.
      apply IH1 in Hk. apply IH2 in Hn. apply within_cons; [|lia].
      apply (within_app _ (S (pre i) + lsizes cs)); [exact Hk|eapply within_mono; [exact Hn|lia|lia]|lia].
    - pose proof (numbered_kids _ _ _ _ _ Hn) as [-> Hk]. rewrite lsize_group. cbn [positions map fst].
      apply IH1 in Hk. apply within_cons; [|lia]. eapply within_mono; [exact Hk|lia|lia].
    - pose proof (numbered_kids _ _ _ _ _ Hn) as [-> Hk]. apply numbered_one in Hn as [_ Hn].
      cbn [positions map fst]. fold (positions (flat_map inside cs ++ a)). rewrite positions_app. rewrite lsize_group in *.
      apply (insides_within _ _ (le_n _)) in Hk. apply IH1 in Hn. apply within_cons; [|lia].
      apply (within_app _ (S (pre i) + lsizes cs)); [exact Hk|eapply within_mono; [exact Hn|lia|lia]|lia].
    - pose proof (numbered_kids _ _ _ _ _ Hn) as [-> Hk]. rewrite lsize_group. cbn [positions map fst].
      apply (inside_exits_within _ _ H1) in Hk. apply within_cons; [|lia]. eapply within_mono; [exact Hk|lia|lia].
    - inversion Hn as [|? ? ? E1 E2 E3|]; subst. cbn. split; repeat constructor; unfold number; cbn; lia.
  Qed.
  Lemma choice_increasing (l : list L) ds : numbered 0 l -> region_choice l ds -> StronglySorted lt (positions ds).
  Proof.
    intros Hn Hc. apply crun_region_choice in Hc as [Hc|Hc]; apply crun_within with (p := 0) in Hc; auto; apply Hc.
  Qed.
  (** There is always a choice: no region at all. *)
  Fixpoint no_regions (x : L) : list decision :=
    match x with
    | LDeco _ _ => []
    | LToken i _ _ => [((pre i, NodeInRegion), DFalse)]
    | LGroup i cs _ => ((pre i, NodeInRegion), DFalse) :: flat_map no_regions cs
    | LStart i => [((pre i, RegionShouldStart), DFalse)]
    | LEnd i => [((pre i, RegionShouldEnd), DNA)]
    | LExit i => [((pre i, ShouldEarlyExit), DFalse)]
    end.
  Lemma no_regions_upto n : forall l : list L, lsizes l <= n -> chosen l (flat_map no_regions l).
  Proof.
    induction n as [|n IH]; intros [|x l] Hs; try constructor; rewrite lsizes_cons in Hs; pose proof (lsize_pos x) as Px; [lia|].
    cbn [flat_map]. destruct x as [i t|i t m|i|i|i|i cs m]; cbn [no_regions app]; try (constructor; apply IH; lia).
    rewrite lsize_group in Hs. constructor; apply IH; lia.
  Qed.
  Lemma no_regions_chosen (l : list L) : chosen l (flat_map no_regions l).
  Proof. now apply (no_regions_upto (lsizes l)). Qed.

  Theorem constraint_packs (ns : list (node M)) d : construct_constraint_dag (pack ns) = Ok d ->
    exists r, pack_constraint_dag (prune_to_reachable d) = Ok r.
  Proof.
    rewrite construct_ok. intros E. injection E as <-. unfold pack_constraint_dag.
    assert (HF : forall p s t, is_path (constraint_edges (labelled ns)) s p t -> Forall plain p).
    { intros p s t Hp. apply Forall_forall. intros e He. eapply is_path_In in He; [|exact Hp].
      pose proof (constraint_plain (labelled ns)) as F. rewrite Forall_forall in F. auto. }
    apply builder_packs; cbn [edges].
    - apply constraint_topological, labelled_numbered.
    - destruct (constraint_choices (labelled ns) _ (or_introl (no_regions_chosen (labelled ns)))) as [p [Hp Ep]].
      exists p. splits; auto.
      + apply HF in Hp. eapply Forall_impl; [|exact Hp]. intros e [C _]. unfold finite_edge. rewrite C. cbn. eauto.
      + intros ->. apply is_path_nil_inv in Hp. discriminate.
    - intros p Hp. apply (choice_increasing (labelled ns)); [apply labelled_numbered|].
      apply constraint_paths; [apply labelled_numbered|exact Hp].
  Qed.
End Keys.
