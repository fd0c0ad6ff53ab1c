(** The paths of the edit DAG are the edits of [EditSpec.v]. *)

From Coq Require Import List Bool Arith ZArith Lia QArith Qcanon Sorting.Sorted.
From Verif Require Import Base Graph GatedDag Blocks SeqNodes PackedSeq PackedSeqProofs Numbered Decisions Convert
  ConstraintDag ConstraintSpec ConstraintProofs BuilderPack ConstraintPack EditDag EditOrder EditScript EditSound EditView EditComplete EditSpec.
Import ListNotations.
Close Scope Qc_scope. Close Scope Q_scope. Close Scope Z_scope. Open Scope nat_scope.

Section Edits.
  Context {M : Type} {md : EqDec M} (P : parameters).
  Notation L := (lnode M).

  Definition total (tr : list effect) : cost := csum (map (fun e => fst (fst e)) tr).
  Definition decided (tr : list effect) : list decision :=
    flat_map (fun e => match snd (fst e) with Some d => [d] | None => [] end) tr.
  Definition reports (tr : list effect) : list (option einfo) := map snd tr.
  Lemma total_cons e tr : total (e :: tr) = cadd (fst (fst e)) (total tr).
  Proof. reflexivity. Qed.
  Lemma total_app a b : total (a ++ b) = cadd (total a) (total b).
  Proof. unfold total. now rewrite map_app, csum_app. Qed.
  Lemma decided_cons e tr : decided (e :: tr) = match snd (fst e) with Some d => [d] | None => [] end ++ decided tr.
  Proof. reflexivity. Qed.
  Lemma decided_app a b : decided (a ++ b) = decided a ++ decided b.
  Proof. apply flat_map_app. Qed.
  Lemma fin_add a b : cadd (Fin a) (Fin b) = Fin (a + b)%Qc.
  Proof. reflexivity. Qed.
  Lemma effects_total (p : list eedge) : total (effects p) = path_cost p.
  Proof. unfold total, effects, path_cost. now rewrite map_map. Qed.
  Lemma effects_decided (p : list eedge) : decided (effects p) = path_assignments p.
  Proof.
    unfold decided, effects. induction p as [|e p IH]; auto. cbn [map flat_map path_assignments]. rewrite IH.
    cbn [effect_of fst snd]. now destruct (assignment e).
  Qed.
  Lemma effects_reports (p : list eedge) : reports (effects p) = map info p.
  Proof. unfold reports, effects. now rewrite map_map. Qed.

  Lemma in_low_marked c : in_low c = marked c.
  Proof. now destruct c. Qed.
  Lemma delete_cost_price c t : delete_cost P c t = delete_price P c t.
  Proof. now destruct c. Qed.
  Lemma match_utility_gain c t : match_utility P c t = keep_gain P c t.
  Proof. now destruct c. Qed.
  Lemma start_cost_price c : start_cost P c = begin_price P c.
  Proof. now destruct c. Qed.

  (** ** From scripts to edits. *)
  Ltac qc := rewrite ?fin_add; f_equal; ring.
  Lemma quiet_passes c (x : L) e c' : quiet P c x e c' ->
    exists k, passes P c x k (match snd (fst e) with Some d => [d] | None => [] end) c' /\ fst (fst e) = Fin k.
  Proof. intros H. destruct H; eexists; (split; [constructor|reflexivity]). Qed.
  Lemma passes_quiet c (x : L) k ds c' : passes P c x k ds c' ->
    exists e, quiet P c x e c' /\ fst (fst e) = Fin k /\ ds = match snd (fst e) with Some d => [d] | None => [] end.
  Proof. intros H. destruct H; eexists; (split; [constructor|split; reflexivity]). Qed.
  Lemma dels_removed c (l : list L) tr r : dels P c l tr r -> exists k, removed P c l k (decided tr) r /\ total tr = Fin k.
  Proof.
    induction 1 as [c|c x e c' l tr r Hq Hd [k [IH Ek]]|c p l|c p t m l tr r Hd [k [IH Ek]]
                   |c p cs m l tr c' tr' r Hd [k [IH Ek]] Hd' [k' [IH' Ek']]|c p cs m l tr Hd [k [IH Ek]]].
    - exists 0%Qc. split; [constructor|reflexivity].
    - apply quiet_passes in Hq as [k0 [Hq E0]]. exists (k0 + k)%Qc. split.
      + rewrite decided_cons. now apply rm_pass with c'.
      + rewrite total_cons, E0, Ek. reflexivity.
    - exists 0%Qc. split; [apply rm_exit|reflexivity].
    - exists (delete_price P c t + k)%Qc. rewrite decided_cons, total_cons. cbn [fst snd deleting app].
      rewrite in_low_marked, delete_cost_price, Ek. split; [now apply rm_token|reflexivity].
    - exists (k + k')%Qc. rewrite decided_cons, total_cons, decided_app, total_app, decided_cons, total_cons. cbn [fst snd entering EditScript.deciding silent app].
      rewrite in_low_marked, Ek, Ek'. split; [now apply rm_group with c'|qc].
    - exists k. rewrite decided_cons, total_cons. cbn [fst snd entering EditScript.deciding app].
      rewrite in_low_marked, Ek. split; [now apply rm_group_exit|qc].
  Qed.
  Lemma text_only_list (cs : list L) : fold_right (fun c Q => text_only c /\ Q) True cs <-> Forall text_only cs.
  Proof.
    induction cs as [|c cs IH]; cbn; [split; auto; constructor|]. rewrite IH. split; [intros [A B]; now constructor|].
    intros H. inversion H; auto.
  Qed.
  Definition insert_totals (l : list L) : Qc := fold_right (fun c k => (insert_total P c + k)%Qc) 0%Qc l.
  Lemma inserts_added c (l : list L) tr : inserts P c l tr -> Forall text_only l /\ total tr = Fin (insert_totals l) /\ decided tr = [].
  Proof.
    induction 1 as [c|c p t l tr Hd [H1 [H2 H3]]|c p t m l tr Hd [H1 [H2 H3]]|c p ds m l tr tr' Hd [H1 [H2 H3]] Hd' [H1' [H2' H3']]].
    - splits; auto.
    - splits; [constructor; cbn; auto| |auto]. rewrite total_cons, H2. cbn [fst decorating insert_totals fold_right insert_total]. qc.
    - splits; [constructor; cbn; auto| |auto]. rewrite total_cons, H2. reflexivity.
    - splits; [constructor; auto; now apply text_only_list| |].
      + rewrite total_cons, total_app, total_cons, H2, H2'. cbn [fst silent insert_totals fold_right insert_total]. fold (insert_totals ds) (insert_totals l). qc.
      + rewrite decided_cons, decided_app, decided_cons, H3, H3'. reflexivity.
  Qed.
  Lemma added_inserts_upto n : forall c (l : list L), lsizes l <= n -> Forall text_only l -> exists tr, inserts P c l tr.
  Proof.
    induction n as [|n IH]; intros c [|x l] Hn F; try (eexists; apply i_nil); rewrite lsizes_cons in Hn; pose proof (lsize_pos x); [lia|].
    inversion F as [|? ? F1 F2]; subst. destruct (IH c l ltac:(lia) F2) as [tr Htr].
    destruct x as [p t|p t m|p|p|p|p ds m]; try (solve [destruct F1]); [eexists; apply i_deco; exact Htr|eexists; apply i_token; exact Htr|].
    cbn in F1. apply text_only_list in F1. rewrite lsize_group in Hn. destruct (IH c ds ltac:(lia) F1) as [tr' Htr'].
    eexists; apply i_group; eassumption.
  Qed.
  Lemma added_inserts c (l : list L) : Forall text_only l -> exists tr, inserts P c l tr.
  Proof. now apply (added_inserts_upto (lsizes l)). Qed.
  Lemma removed_dels c (l : list L) k ds r : removed P c l k ds r -> exists tr, dels P c l tr r /\ total tr = Fin k /\ decided tr = ds.
  Proof.
    induction 1 as [c|c x k ds c' l k' ds' r Hq Hd [tr [IH [E1 E2]]]|c p l|c p t m l k ds r Hd [tr [IH [E1 E2]]]
                   |c p cs m l k ds c' k' ds' r Hd [tr [IH [E1 E2]]] Hd' [tr' [IH' [E1' E2']]]|c p cs m l k ds Hd [tr [IH [E1 E2]]]].
    - exists []. splits; auto. constructor.
    - apply passes_quiet in Hq as [e [Hq [E0 ->]]]. exists (e :: tr). splits; [now apply d_quiet with c'| |].
      + now rewrite total_cons, E0, E1.
      + now rewrite decided_cons, E2.
    - exists [leaving p c]. splits; auto. apply d_exit.
    - exists (deleting P p t c :: tr). splits; [now apply d_token| |].
      + rewrite total_cons, E1. cbn [fst deleting]. now rewrite delete_cost_price.
      + rewrite decided_cons, E2. cbn. now rewrite in_low_marked.
    - exists (entering p c :: tr ++ silent :: tr'). splits; [now apply d_group with c'| |].
      + rewrite total_cons, total_app, total_cons, E1, E1'. cbn [fst entering EditScript.deciding silent]. qc.
      + rewrite decided_cons, decided_app, decided_cons, E2, E2'. cbn. now rewrite in_low_marked.
    - exists (entering p c :: tr). splits; [now apply d_group_exit| |].
      + rewrite total_cons, E1. cbn [fst entering EditScript.deciding]. qc.
      + rewrite decided_cons, E2. cbn. now rewrite in_low_marked.
  Qed.
  Definition gap_of (a : align) (g : gap) : Prop :=
    match a with DELETE => g = Removing | INSERT => g = Removing \/ g = Adding | PROCESS => g = Untouched | _ => True end.
  Lemma sc_edited a c (ps ts : list L) tr r : sc P a c ps ts tr r -> forall g, gap_of a g ->
    exists k, edited P g c ps ts k (decided tr) r /\ total tr = Fin k.
  Proof.
    induction 1; intros g Hg.
    - exists 0%Qc. split; [constructor|reflexivity].
    - destruct (IHsc g Hg) as [k [IH Ek]]. match goal with H : quiet _ _ _ _ _ |- _ => apply quiet_passes in H as [k0 [Hq E0]] end.
      exists (k0 + k)%Qc. rewrite decided_cons, total_cons, E0, Ek. split; [|reflexivity]. apply ed_pass with c'; auto.
      destruct H as [->| ->]; cbn in Hg; subst; discriminate.
    - exists 0%Qc. split; [|reflexivity]. apply ed_exit. destruct H as [->| ->]; cbn in Hg; subst; discriminate.
    - cbn in Hg. subst g. destruct (IHsc Removing eq_refl) as [k [IH Ek]]. exists (begin_price P c + k)%Qc.
      rewrite decided_cons, total_cons, Ek. cbn [fst snd beginning app]. split; [now apply ed_begin|reflexivity].
    - cbn in Hg. subst g. destruct (IHsc Untouched I) as [k [IH Ek]]. exists k. rewrite decided_cons, total_cons, Ek. split; [exact IH|cbn; qc].
    - cbn in Hg. subst g. destruct (IHsc Removing eq_refl) as [k [IH Ek]]. exists (delete_price P c t + k)%Qc.
      rewrite decided_cons, total_cons, Ek. cbn [fst snd deleting app]. rewrite in_low_marked, delete_cost_price. split; [|reflexivity].
      apply (ed_remove P c (LToken p t m) ps ts (delete_price P c t) [((pre p, NodeInRegion), marked c)] c); auto.
      replace (delete_price P c t) with (delete_price P c t + 0)%Qc by ring. apply rm_token. constructor.
    - cbn in Hg. subst g. destruct (IHsc Removing eq_refl) as [k [IH Ek]].
      match goal with H : dels _ _ _ _ _ |- _ => apply dels_removed in H as [k0 [Hd E0]] end. exists (k0 + k)%Qc.
      rewrite decided_cons, total_cons, decided_app, total_app, decided_cons, total_cons, Ek, E0. cbn [fst snd entering EditScript.deciding silent app].
      rewrite in_low_marked. split; [|qc].
      apply (ed_remove P c (LGroup p cs m) ps ts k0 (((pre p, NodeInRegion), marked c) :: decided tr) c'); auto.
      replace k0 with (k0 + 0)%Qc by ring. rewrite <- (app_nil_r (decided tr)). apply rm_group with c'; auto. constructor.
    - cbn in Hg. subst g. match goal with H : dels _ _ _ _ _ |- _ => apply dels_removed in H as [k0 [Hd E0]] end. exists k0.
      rewrite decided_cons, total_cons, E0. cbn [fst snd entering EditScript.deciding app]. rewrite in_low_marked. split; [|qc].
      apply ed_remove_exit. now apply rm_group_exit.
    - cbn in Hg. subst g. destruct (IHsc Removing (or_introl eq_refl)) as [k [IH Ek]]. exists k. rewrite decided_cons, total_cons, Ek. split; [exact IH|cbn; qc].
    - destruct (IHsc g Hg) as [k [IH Ek]]. exists k. rewrite decided_cons, total_cons, Ek. split; [|cbn; qc]. now apply ed_deco.
    - destruct (IHsc Adding (or_intror eq_refl)) as [k [IH Ek]]. exists (insert_total P (LToken p t m : L) + k)%Qc.
      rewrite decided_cons, total_cons, Ek. cbn [fst snd inserting app]. split; [|reflexivity]. apply ed_add; cbn; auto.
      cbn in Hg. destruct Hg; subst; discriminate.
    - destruct (IHsc Adding (or_intror eq_refl)) as [k [IH Ek]].
      match goal with H : inserts _ _ _ _ |- _ => apply inserts_added in H as [F [E1 E2]] end.
      exists (insert_total P (LGroup p ds m) + k)%Qc.
      rewrite decided_cons, total_cons, decided_app, total_app, decided_cons, total_cons, Ek, E1, E2. cbn [fst snd silent app insert_total].
      fold (insert_totals ds). split; [|qc]. change (insert_totals ds) with (insert_total P (LGroup p ds m)). apply ed_add; auto; [cbn in Hg; destruct Hg; subst; discriminate|]. now apply text_only_list.
    - destruct (IHsc g I) as [k [IH Ek]]. exists k. rewrite decided_cons, total_cons, Ek. split; [exact IH|cbn; qc].
    - destruct (IHsc Untouched eq_refl) as [k [IH Ek]]. exists (- keep_gain P c t + k)%Qc.
      rewrite decided_cons, total_cons, Ek. cbn [fst snd keeping app]. rewrite in_low_marked, match_utility_gain. split; [now apply ed_keep|reflexivity].
    - destruct (IHsc1 Untouched eq_refl) as [k [IH Ek]]. destruct (IHsc2 Untouched eq_refl) as [k' [IH' Ek']]. exists (k + k')%Qc.
      rewrite decided_cons, total_cons, decided_app, total_app, decided_cons, total_cons, Ek, Ek'. cbn [fst snd entering EditScript.deciding silent app].
      rewrite in_low_marked. split; [|qc]. now apply ed_group with c'.
    - destruct (IHsc Untouched eq_refl) as [k [IH Ek]]. exists k.
      rewrite decided_cons, total_cons, Ek. cbn [fst snd entering EditScript.deciding app]. rewrite in_low_marked. split; [|qc]. now apply ed_group_exit.
  Qed.

  (** ** From edits to scripts: target decorations wait until nodes are added or
      matched. *)
  Inductive waiting : list L -> Prop := w_nil : waiting [] | w_deco i t l : waiting l -> waiting (LDeco i t :: l).
  Lemma waiting_snoc l i t : waiting l -> waiting (l ++ [LDeco i t]).
  Proof. induction 1; cbn [app]; repeat constructor; auto. Qed.
  Definition made (a : align) c (ps ts : list L) k ds r : Prop :=
    exists tr, sc P a c ps ts tr r /\ total tr = Fin k /\ decided tr = ds.
  Lemma made_eq a c (ps ts : list L) k k' ds r : made a c ps ts k ds r -> k = k' -> made a c ps ts k' ds r.
  Proof. now intros H <-. Qed.
  Lemma made_silent a c (ps ts : list L) k ds r a' : made a c ps ts k ds r ->
    (forall tr, sc P a c ps ts tr r -> sc P a' c ps ts (silent :: tr) r) -> made a' c ps ts k ds r.
  Proof.
    intros [tr [H1 [H2 H3]]] H. exists (silent :: tr). splits; [now apply H|rewrite total_cons, H2; cbn; qc|now rewrite decided_cons, H3].
  Qed.
  Lemma made_waiting a c (ps : list L) As ts k ds r : a = INSERT \/ a = MATCH -> waiting As ->
    made a c ps ts k ds r -> made a c ps (As ++ ts) k ds r.
  Proof.
    intros Ha W H. induction W as [|i t l W IH]; auto. destruct IH as [tr [H1 [H2 H3]]]. cbn [app].
    exists (decorating i c :: tr). splits; [now apply sc_skip|rewrite total_cons, H2; cbn; qc|now rewrite decided_cons, H3].
  Qed.
  Definition phase (g : gap) : align := match g with Untouched => PROCESS | Removing => DELETE | Adding => INSERT end.
  Lemma to_match g c (ps : list L) As ts k ds r : waiting As -> made MATCH c ps ts k ds r -> made (phase g) c ps (As ++ ts) k ds r.
  Proof.
    intros W H. destruct g; cbn [phase].
    - eapply made_silent; [apply made_waiting; [right; reflexivity|exact W|exact H]|]. intros. now apply sc_ready.
    - eapply made_silent; [eapply made_silent; [apply made_waiting; [right; reflexivity|exact W|exact H]|]|].
      + intros. now apply sc_inserted.
      + intros. now apply sc_deleted.
    - eapply made_silent; [apply made_waiting; [right; reflexivity|exact W|exact H]|]. intros. now apply sc_inserted.
  Qed.
  Lemma edited_made g c (ps ts : list L) k ds r : edited P g c ps ts k ds r ->
    forall As, waiting As -> (g = Adding -> As = []) -> made (phase g) c ps (As ++ ts) k ds r.
  Proof.
    induction 1; intros As W HA.
    - apply to_match; auto. exists []. splits; auto. constructor.
    - match goal with H : passes _ _ _ _ _ _ |- _ => apply passes_quiet in H as [e [Hq [E0 ->]]] end.
      destruct (IHedited As W HA) as [tr [H1' [H2' H3']]]. exists (e :: tr). splits.
      + apply sc_quiet with c'; auto. destruct g; cbn; auto. now destruct H.
      + now rewrite total_cons, E0, H2'.
      + now rewrite decided_cons, H3'.
    - exists [leaving i c]. splits; auto. apply sc_exit. destruct g; cbn; auto. now destruct H.
    - destruct (IHedited As W) as [tr [H1' [H2' H3']]]; [discriminate|]. exists (beginning P c :: tr). splits.
      + now apply sc_begin.
      + rewrite total_cons, H2'. cbn [fst beginning]. now rewrite start_cost_price.
      + now rewrite decided_cons, H3'.
    - assert (IH := IHedited As W ltac:(discriminate)). clear IHedited. cbn [phase] in *.
      match goal with H : removed _ _ _ _ _ _ |- _ => rename H into R end.
      inversion R; subst.
      + match goal with H : removed _ _ [] _ _ _ |- _ => inversion H; subst end.
        match goal with H : passes _ _ _ _ _ _ |- _ => apply passes_quiet in H as [e [Hq [E0 ->]]] end.
        destruct IH as [tr [H1' [H2' H3']]]. exists (e :: tr). splits; [eapply sc_quiet; eauto| |].
        * rewrite total_cons, E0, H2'. rewrite fin_add. f_equal. ring.
        * rewrite decided_cons, app_nil_r. now rewrite H3'.
      + match goal with H : removed _ _ [] _ _ _ |- _ => inversion H; subst end.
        destruct IH as [tr [H1' [H2' H3']]]. exists (deleting P i t c' :: tr). splits; [now apply sc_delete| |].
        * rewrite total_cons, H2'. cbn [fst deleting]. rewrite delete_cost_price, fin_add. f_equal. ring.
        * rewrite decided_cons, H3'. cbn. now rewrite in_low_marked.
      + match goal with H : removed _ _ [] _ _ _ |- _ => inversion H; subst end.
        match goal with H : removed _ _ cs _ _ _ |- _ => apply removed_dels in H as [tr0 [D [E1 E2]]] end.
        destruct IH as [tr [H1' [H2' H3']]]. exists (entering i c :: tr0 ++ silent :: tr). splits; [now apply sc_delete_group with c'| |].
        * rewrite total_cons, total_app, total_cons, E1, H2'. cbn [fst entering EditScript.deciding silent]. rewrite !fin_add. f_equal. ring.
        * rewrite decided_cons, decided_app, decided_cons, E2, H3', app_nil_r. cbn. now rewrite in_low_marked.
    - cbn [phase]. match goal with H : removed _ _ _ _ _ _ |- _ => rename H into R end. inversion R; subst.
      + match goal with H : removed _ _ [] _ _ _ |- _ => inversion H end.
      + exists [leaving i c]. splits; auto. apply sc_exit; auto.
      + match goal with H : removed _ _ [] _ _ _ |- _ => inversion H end.
      + match goal with H : removed _ _ [] _ _ _ |- _ => inversion H end.
      + match goal with H : removed _ _ cs _ _ _ |- _ => apply removed_dels in H as [tr0 [D [E1 E2]]] end.
        exists (entering i c :: tr0). splits; [now apply sc_delete_exit| |].
        * rewrite total_cons, E1. cbn [fst entering EditScript.deciding]. qc.
        * rewrite decided_cons, E2. cbn. now rewrite in_low_marked.
    - destruct (IHedited [] w_nil (fun _ => eq_refl)) as [tr [H1' [H2' H3']]]. cbn [phase app] in *.
      assert (G : made INSERT c ps (y :: ts) (insert_total P y + k)%Qc ds r).
      { destruct (added_inserts c [y]) as [tr0 Hi]; [constructor; auto|].
        pose proof (inserts_added _ _ _ Hi) as [_ [E1 E2]]. cbn [insert_totals fold_right] in E1.
        inversion Hi; subst.
        - exists (decorating p c :: tr). splits; [now apply sc_skip; auto| |now rewrite decided_cons].
          rewrite total_cons, H2'. cbn [insert_total]. cbn. qc.
        - exists (inserting P p t :: tr). splits; [now apply sc_insert| |now rewrite decided_cons].
          rewrite total_cons, H2'. reflexivity.
        - match goal with H : inserts _ _ [] _ |- _ => inversion H; subst end.
          match goal with H : inserts _ _ ds0 ?t |- _ => pose proof (inserts_added _ _ _ H) as [_ [E1' E2']]; exists (silent :: t ++ silent :: tr) end.
          splits; [now apply sc_insert_group| |].
          + rewrite total_cons, total_app, total_cons, H2', E1'. cbn [fst silent insert_total]. fold (insert_totals ds0). qc.
          + rewrite decided_cons, decided_app, decided_cons, E2'. reflexivity. }
      destruct g; cbn [phase]; [now destruct H| |].
      + eapply made_silent; [apply made_waiting; [left; reflexivity|exact W|exact G]|]. intros. now apply sc_deleted.
      + rewrite (HA eq_refl). exact G.
    - destruct g.
      + replace (As ++ LDeco i t :: ts) with ((As ++ [LDeco i t]) ++ ts) by now rewrite <- app_assoc.
        apply IHedited; [now apply waiting_snoc|discriminate].
      + replace (As ++ LDeco i t :: ts) with ((As ++ [LDeco i t]) ++ ts) by now rewrite <- app_assoc.
        apply IHedited; [now apply waiting_snoc|discriminate].
      + rewrite (HA eq_refl). cbn [phase app]. apply (made_waiting INSERT c ps [LDeco i t] ts); auto; [repeat constructor|].
        apply (IHedited [] w_nil (fun _ => eq_refl)).
    - apply to_match; auto. destruct (IHedited [] w_nil (fun _ => eq_refl)) as [tr [H1' [H2' H3']]]. cbn [phase app] in *.
      exists (keeping P i i' t c :: tr). splits; [now apply sc_keep| |].
      + rewrite total_cons, H2'. cbn [fst keeping]. now rewrite match_utility_gain.
      + rewrite decided_cons, H3'. cbn. now rewrite in_low_marked.
    - apply to_match; auto. destruct (IHedited1 [] w_nil (fun _ => eq_refl)) as [tr [H1' [H2' H3']]]. cbn [phase app] in *.
      destruct (IHedited2 [] w_nil (fun _ => eq_refl)) as [tr' [H1'' [H2'' H3'']]]. cbn [phase app] in *.
      exists (entering i c :: tr ++ silent :: tr'). splits; [now apply sc_match with c'| |].
      + rewrite total_cons, total_app, total_cons, H2', H2''. cbn [fst entering EditScript.deciding silent]. qc.
      + rewrite decided_cons, decided_app, decided_cons, H3', H3''. cbn. now rewrite in_low_marked.
    - apply to_match; auto. destruct (IHedited [] w_nil (fun _ => eq_refl)) as [tr [H1' [H2' H3']]]. cbn [phase app] in *.
      exists (entering i c :: tr). splits; [now apply sc_match_exit| |].
      + rewrite total_cons, H2'. cbn [fst entering EditScript.deciding]. qc.
      + rewrite decided_cons, H3'. cbn. now rewrite in_low_marked.
  Qed.

  Theorem paths_are_edits (root troot : list L) p : numbered 0 root -> numbered 0 troot ->
    is_path (all_edges P root troot) (EAt PROCESS High ROOT_SEQ 0 ROOT_SEQ 0) p EFinal ->
    exists k, path_cost p = Fin k /\ edit P root troot k (path_assignments p).
  Proof.
    intros N1 N2 Hp. rewrite <- effects_total, <- effects_decided.
    apply path_script in Hp as [Hs|[tr [E Hs]]]; auto.
    - destruct (sc_edited _ _ _ _ _ _ Hs Untouched eq_refl) as [k [He Ek]]. exists k. split; auto. now right.
    - destruct (sc_edited _ _ _ _ _ _ Hs Untouched eq_refl) as [k [He Ek]]. exists k. rewrite E, total_app, decided_app, Ek. split; [cbn; qc|].
      left. cbn. now rewrite app_nil_r.
  Qed.
  Theorem edits_are_paths (root troot : list L) k ds : edit P root troot k ds ->
    exists p, is_path (all_edges P root troot) (EAt PROCESS High ROOT_SEQ 0 ROOT_SEQ 0) p EFinal /\
      path_cost p = Fin k /\ path_assignments p = ds.
  Proof.
    intros [He|He]; apply edited_made with (As := []) in He as [tr [Hs [E1 E2]]]; try constructor; try discriminate; cbn [phase app] in Hs.
    - destruct (script_path _ _ _ _ _ Hs (or_intror eq_refl)) as [p [Hp E]]. exists p. splits; auto.
      + rewrite <- effects_total, E, total_app, E1. cbn. qc.
      + rewrite <- effects_decided, E, decided_app, E2. cbn. apply app_nil_r.
    - destruct (script_path _ _ _ _ _ Hs (or_introl eq_refl)) as [p [Hp E]]. exists p. splits; auto.
      + now rewrite <- effects_total, E.
      + now rewrite <- effects_decided, E.
  Qed.
End Edits.
