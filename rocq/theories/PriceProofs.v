(** How the prices act on edits: the same edits are possible at all prices; they cost no
    less when everything is dearer, and in proportion when everything is scaled. *)

From Coq Require Import List Bool Arith ZArith Lia QArith Qcanon.
From Verif Require Import Base SeqNodes PackedSeq Numbered Decisions EditDag EditSpec UtilityBounds.
Import ListNotations.
Close Scope Qc_scope. Close Scope Q_scope. Close Scope Z_scope. Open Scope nat_scope.

(** ** Specification.  [P'] pays no more for any match and asks no less for anything. *)
Record dearer (P P' : parameters) : Prop := {
  d_high_match : (high_match P' <= high_match P)%Qc;
  d_low_match : (low_match P' <= low_match P)%Qc;
  d_high_delete : (high_delete P <= high_delete P')%Qc;
  d_low_delete : (low_delete P <= low_delete P')%Qc;
  d_insert : (insert_per_char P <= insert_per_char P')%Qc;
  d_region : (region_cost P <= region_cost P')%Qc;
  d_high_start : (high_start P <= high_start P')%Qc;
  d_low_start : (low_start P <= low_start P')%Qc }.
(** All prices multiplied by the same number. *)
Definition scaled (q : Qc) (P : parameters) : parameters :=
  mkParams (q * high_match P)%Qc (q * high_delete P)%Qc (q * low_match P)%Qc (q * low_delete P)%Qc (q * insert_per_char P)%Qc (q * region_cost P)%Qc (q * high_start P)%Qc (q * low_start P)%Qc.

Section Prices.
  Context {M : Type}.
  Notation L := (lnode M).
  Local Open Scope Qc_scope.
  Lemma characters_nonneg t : 0 <= characters t.
  Proof. apply (number_nonneg (length t)). Qed.

  Section Dearer.
    Context (P P' : parameters) (D : dearer P P').
    Lemma passes_dearer c (x : L) k ds c' : passes P' c x k ds c' -> exists k0, passes P c x k0 ds c' /\ k0 <= k.
    Proof. destruct 1; eexists; (split; [constructor|]); try apply Qcle_refl. apply D. Qed.
    Lemma delete_dearer c t : delete_price P c t <= delete_price P' c t.
    Proof. destruct c; cbn; (apply qc_scale; [apply D|apply characters_nonneg]). Qed.
    Lemma keep_dearer c t : keep_gain P' c t <= keep_gain P c t.
    Proof. destruct c; cbn; (apply qc_scale; [apply D|apply characters_nonneg]). Qed.
    Lemma begin_dearer c : begin_price P c <= begin_price P' c.
    Proof. destruct c; apply D. Qed.
    Lemma insert_dearer_upto n : forall x : L, (lsize x <= n)%nat -> insert_total P x <= insert_total P' x.
    Proof.
      induction n as [|n IH]; intros x Hx; [destruct x; cbn in Hx; lia|]. destruct x as [i t|i t m|i|i|i|i cs m]; cbn [insert_total]; try apply Qcle_refl.
      - apply qc_scale; [apply D|apply characters_nonneg].
      - rewrite lsize_group in Hx. assert (Hs : (lsizes cs <= n)%nat) by lia. clear Hx.
        induction cs as [|c cs IHc]; cbn [fold_right]; [apply Qcle_refl|]. rewrite lsizes_cons in Hs.
        assert (H1 : insert_total P c <= insert_total P' c) by (apply IH; lia).
        assert (H2 := IHc ltac:(lia)). qc_lra.
    Qed.
    Lemma removed_dearer c (l : list L) k ds r : removed P' c l k ds r -> exists k0, removed P c l k0 ds r /\ k0 <= k.
    Proof.
      induction 1 as [c|c x k ds c' l k' ds' r Hp H [k1 [IH1 IH2]]|c i l|c i t m l k ds r H [k1 [IH1 IH2]]|c i cs m l k ds c' k' ds' r H1 [k1 [A1 A2]] H2 [k2 [B1 B2]]|c i cs m l k ds H [k1 [IH1 IH2]]].
      - exists 0. split; [apply rm_nil|apply Qcle_refl].
      - destruct (passes_dearer _ _ _ _ _ Hp) as [k0 [P1 P2]]. exists (k0 + k1). split; [eapply rm_pass; eauto|qc_lra].
      - exists 0. split; [apply rm_exit|apply Qcle_refl].
      - exists (delete_price P c t + k1). split; [now apply rm_token|]. pose proof (delete_dearer c t). qc_lra.
      - exists (k1 + k2). split; [eapply rm_group; eauto|qc_lra].
      - exists k1. split; [now apply rm_group_exit|auto].
    Qed.
    Lemma edited_dearer g c (ps ts : list L) k ds r : edited P' g c ps ts k ds r -> exists k0, edited P g c ps ts k0 ds r /\ k0 <= k.
    Proof.
      induction 1 as [g c|g c x k ds c' ps ts k' ds' r Hg Hp H [k1 [IH1 IH2]]|g c i ps ts Hg|c ps ts k ds r H [k1 [IH1 IH2]]|c x ps ts k ds c' k' ds' r Hr H [k1 [IH1 IH2]]|c x ps ts k ds Hr|g c y ps ts k ds r Hg Ht H [k1 [IH1 IH2]]|g c ps i t ts k ds r H [k1 [IH1 IH2]]|g c i i' t m ps ts k ds r H [k1 [IH1 IH2]]|g c i cs i' cs' m ps ts k ds c' k' ds' r H1 [k1 [A1 A2]] H2 [k2 [B1 B2]]|g c i cs i' cs' m ps ts k ds H [k1 [IH1 IH2]]].
      - exists 0. split; [apply ed_end|apply Qcle_refl].
      - destruct (passes_dearer _ _ _ _ _ Hp) as [k0 [P1 P2]]. exists (k0 + k1). split; [eapply ed_pass; eauto|qc_lra].
      - exists 0. split; [now apply ed_exit|apply Qcle_refl].
      - exists (begin_price P c + k1). split; [now apply ed_begin|]. pose proof (begin_dearer c). qc_lra.
      - destruct (removed_dearer _ _ _ _ _ Hr) as [k0 [P1 P2]]. exists (k0 + k1). split; [eapply ed_remove; eauto|qc_lra].
      - destruct (removed_dearer _ _ _ _ _ Hr) as [k0 [P1 P2]]. exists k0. split; [now apply ed_remove_exit|auto].
      - exists (insert_total P y + k1). split; [now apply ed_add|]. pose proof (insert_dearer_upto _ y (le_n _)). qc_lra.
      - exists k1. split; [now apply ed_deco|auto].
      - exists (- keep_gain P c t + k1). split; [now apply ed_keep|]. pose proof (keep_dearer c t). qc_lra.
      - exists (k1 + k2). split; [eapply ed_group; eauto|qc_lra].
      - exists k1. split; [now apply ed_group_exit|auto].
    Qed.
    Lemma edit_dearer (ps ts : list L) k ds : edit P' ps ts k ds -> exists k0, edit P ps ts k0 ds /\ k0 <= k.
    Proof. intros [H|H]; apply edited_dearer in H as [k0 [H1 H2]]; exists k0; (split; [|exact H2]); [left|right]; exact H1. Qed.
  End Dearer.

  Section Scaled.
    Context (P : parameters) (q : Qc).
    Lemma passes_scaled c (x : L) k ds c' : passes P c x k ds c' -> passes (scaled q P) c x (q * k) ds c'.
    Proof. destruct 1; try replace (q * 0) with 0 by ring; constructor. Qed.
    Lemma insert_scaled_upto n : forall x : L, (lsize x <= n)%nat -> insert_total (scaled q P) x = q * insert_total P x.
    Proof.
      induction n as [|n IH]; intros x Hx; [destruct x; cbn in Hx; lia|]. destruct x as [i t|i t m|i|i|i|i cs m]; cbn [insert_total]; try ring.
      - cbn. ring.
      - rewrite lsize_group in Hx. assert (Hs : (lsizes cs <= n)%nat) by lia. clear Hx.
        induction cs as [|c cs IHc]; cbn [fold_right]; [ring|]. rewrite lsizes_cons in Hs. rewrite (IH c) by lia. rewrite IHc by lia. ring.
    Qed.
    Lemma removed_scaled c (l : list L) k ds r : removed P c l k ds r -> removed (scaled q P) c l (q * k) ds r.
    Proof.
      induction 1 as [c|c x k ds c' l k' ds' r Hp H IH|c i l|c i t m l k ds r H IH|c i cs m l k ds c' k' ds' r H1 IH1 H2 IH2|c i cs m l k ds H IH].
      - replace (q * 0) with 0 by ring. apply rm_nil.
      - replace (q * (k + k')) with (q * k + q * k') by ring. eapply rm_pass; eauto. now apply passes_scaled.
      - replace (q * 0) with 0 by ring. apply rm_exit.
      - replace (q * (delete_price P c t + k)) with (delete_price (scaled q P) c t + q * k) by (destruct c; cbn; ring). now apply rm_token.
      - replace (q * (k + k')) with (q * k + q * k') by ring. eapply rm_group; eauto.
      - now apply rm_group_exit.
    Qed.
    Lemma edited_scaled g c (ps ts : list L) k ds r : edited P g c ps ts k ds r -> edited (scaled q P) g c ps ts (q * k) ds r.
    Proof.
      induction 1 as [g c|g c x k ds c' ps ts k' ds' r Hg Hp H IH|g c i ps ts Hg|c ps ts k ds r H IH|c x ps ts k ds c' k' ds' r Hr H IH|c x ps ts k ds Hr|g c y ps ts k ds r Hg Ht H IH|g c ps i t ts k ds r H IH|g c i i' t m ps ts k ds r H IH|g c i cs i' cs' m ps ts k ds c' k' ds' r H1 IH1 H2 IH2|g c i cs i' cs' m ps ts k ds H IH].
      - replace (q * 0) with 0 by ring. apply ed_end.
      - replace (q * (k + k')) with (q * k + q * k') by ring. eapply ed_pass; eauto. now apply passes_scaled.
      - replace (q * 0) with 0 by ring. now apply ed_exit.
      - replace (q * (begin_price P c + k)) with (begin_price (scaled q P) c + q * k) by (destruct c; cbn; ring). now apply ed_begin.
      - replace (q * (k + k')) with (q * k + q * k') by ring. eapply ed_remove; eauto. now apply removed_scaled.
      - apply ed_remove_exit. now apply removed_scaled.
      - replace (q * (insert_total P y + k)) with (insert_total (scaled q P) y + q * k) by (rewrite (insert_scaled_upto _ y (le_n _)); ring). now apply ed_add.
      - now apply ed_deco.
      - replace (q * (- keep_gain P c t + k)) with (- keep_gain (scaled q P) c t + q * k) by (destruct c; cbn; ring). now apply ed_keep.
      - replace (q * (k + k')) with (q * k + q * k') by ring. eapply ed_group; eauto.
      - now apply ed_group_exit.
    Qed.
    Lemma edit_scaled (ps ts : list L) k ds : edit P ps ts k ds -> edit (scaled q P) ps ts (q * k) ds.
    Proof. intros [H|H]; [left|right]; now apply edited_scaled. Qed.
  End Scaled.
End Prices.
