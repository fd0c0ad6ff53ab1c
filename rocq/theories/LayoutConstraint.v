(** The layout of constraint DAGs. *)

From Coq Require Import String.
From Coq Require Import List Bool Arith ZArith Lia QArith Qcanon Lqa.
From Verif Require Import Base SeqNodes Graph GatedDag PackedSeq PackedSeqProofs Numbered Decisions Html ConstraintDag EditDag SelectionDag
  Drawing DrawSpec Layouts LayoutSpec LayoutProofs LayoutFrames LayoutEdges LayoutBoxes DrawingProofs.
Import ListNotations.
Close Scope string_scope. Close Scope Qc_scope. Close Scope Q_scope. Close Scope Z_scope. Open Scope nat_scope. Open Scope list_scope.

Lemma leaves_no_group {M} n : forall (l : list (lnode M)), lsizes l <= n -> forall q k r i x, In (r, i, x) (leaves_from q k l) -> forall p cs m, x <> LGroup p cs m.
Proof.
  induction n as [|n IH]; intros [|y l] Hn q k r i x H; try contradiction.
  - rewrite lsizes_cons in Hn. pose proof (lsize_pos y). lia.
  - rewrite lsizes_cons in Hn. pose proof (lsize_pos y). cbn [leaves_from] in H. apply in_app_or in H as [H|H]; [|eapply IH; [|exact H]; lia].
    destruct y as [| | | | |p0 cs0 m0]; try (destruct H as [H|[]]; injection H as <- <- <-; discriminate).
    rewrite leaves_group in H. rewrite lsize_group in Hn. eapply IH; [|exact H]. lia.
Qed.
Lemma leaves_in {M} (T : list (lnode M)) n : forall l, lsizes l <= n -> forall q d s k, seq_in T q d s -> (exists s0, s = s0 ++ l /\ length s0 = k) ->
  forall r i x, In (r, i, x) (leaves_from q k l) -> exists d' l', seq_in T r d' l' /\ nth_error l' i = Some x.
Proof.
  induction n as [|n IH]; intros [|y l] Hn q d s k Hs (s0 & E & K) r i x H; try contradiction.
  - rewrite lsizes_cons in Hn. pose proof (lsize_pos y). lia.
  - rewrite lsizes_cons in Hn. pose proof (lsize_pos y). cbn [leaves_from] in H.
    assert (Ny : nth_error s k = Some y) by (subst; rewrite nth_error_app2, Nat.sub_diag by lia; reflexivity).
    apply in_app_or in H as [H|H].
    + destruct y as [| | | | |p0 cs0 m0]; try (destruct H as [H|[]]; injection H as <- <- <-; eauto).
      rewrite leaves_group in H. rewrite lsize_group in Hn. eapply (IH cs0); [lia| |exists []; split; reflexivity|exact H].
      eapply seq_group; [exact Hs|]. eapply nth_error_In; exact Ny.
    + eapply (IH l); [lia|exact Hs| |exact H]. exists (s0 ++ [y]). rewrite <- app_assoc, app_length. subst. cbn. split; [reflexivity|lia].
Qed.

Section Constraint.
  Context {M : Type} {md : EqDec M}.
  Notation L := (lnode M).
  Variable z : sizes.
  Variable repr_text : text -> text.
  Variable repr_id : node_id -> text.
  Variable repr_node : L -> text.
  Variable str_cost : cost -> text.
  Variable repr_cstate : cstate -> text.
  Variable repr_cedge : cedge -> text.
  Hypothesis R : roomy z.
  Variable T : list L.
  Hypothesis HT : numbered 0 T.
  Notation w := (state_width z).
  Notation h := (state_height z).
  Notation gx := (gap_horizontal z).
  Notation gy := (gap_vertical z).
  Notation sp := (state_separation z).
  Notation note := (prototype_note z repr_text repr_id repr_node (- c_shift z - h)%Qc (- c_shift z)%Qc).
  Let a0 := mkAxis (w + gx)%Qc [] [] [] None [].
  Let b := constraint_layout z repr_text repr_id repr_node T.
  Notation iv q i := (interval b (q, i, 0)).
  Notation SL := (slots (-1)%Z 0 T).
  Let R1 : (0 < w)%Qc. Proof. apply R. Qed.
  Let R2 : (0 < h)%Qc. Proof. apply R. Qed.
  Let R3 : (0 < gx)%Qc. Proof. apply R. Qed.
  Let R4 : (0 < sp)%Qc. Proof. apply R. Qed.
  Let R5 : (sp <= gy)%Qc. Proof. apply R. Qed.
  Let no_sep : 1 < 1 -> (gx <= 0)%Qc. Proof. lia. Qed.
  Lemma c_at q i : In (q, i) SL -> at_key (q, i, 0) (places b) = Ok (iv q i) /\ snd (iv q i) = (fst (iv q i) + w)%Qc.
  Proof using HT R.
    intros H. destruct (interval_at 1 w 0%Qc gx gx note true Nat.lt_0_1 R1 R3 (Qcle_refl _) no_sep T a0 HT eq_refl q i 0 H Nat.lt_0_1) as (A & _ & B & _). auto.
  Qed.
  Lemma c_before q i q' i' : before SL (q, i) (q', i') -> (snd (iv q i) + gx <= fst (iv q' i'))%Qc.
  Proof using HT R.
    intros B. exact (interval_before 1 w 0%Qc gx gx note true Nat.lt_0_1 R1 R3 (Qcle_refl _) no_sep T a0 HT eq_refl _ _ 0 0 B Nat.lt_0_1 Nat.lt_0_1).
  Qed.
  Lemma c_final : exists x, final b = Some (x, x + w)%Qc /\ forall q i, In (q, i) SL -> (snd (iv q i) + gx <= x)%Qc.
  Proof using HT R.
    set (a3 := walk_list 1 w 0%Qc gx note true ROOT 0 T (enter gx ROOT a0)).
    set (b0 := move gx (position 1 w 0%Qc ROOT (length T) a3)).
    exists (cursor b0). split; [reflexivity|]. intros q i H.
    assert (St : step 1 w gx gx note a0 b0 SL (flat_map leaves_of T)).
    { assert (S1 : step 1 w gx gx note a0 (enter gx ROOT a0) [] []) by (apply step_still; auto; cbn; qc_lra).
      pose proof (walk_spec 1 w 0%Qc gx gx note true Nat.lt_0_1 R1 R3 (Qcle_refl _) no_sep _ T (le_n _) ROOT 0 (enter gx ROOT a0)) as S2.
      pose proof (position_spec 1 w 0%Qc gx gx note Nat.lt_0_1 R1 R3 (Qcle_refl _) no_sep ROOT (length T) a3 b0 eq_refl eq_refl (Qcle_refl _)) as S3.
      pose proof (step_trans _ _ _ _ _ _ _ _ _ _ _ _ (step_trans _ _ _ _ _ _ _ _ _ _ _ _ S1 S2) S3) as S4.
      rewrite app_nil_r in S4. cbn [app] in S4. unfold ROOT in S4 at 1 2. rewrite <- slots_last in S4. exact S4. }
    destruct St as (new & ivs & E1 & E2 & (_ & E3 & _) & _). cbn [a0 places] in E1. rewrite app_nil_r in E1.
    assert (I : In (q, i, 0) (map fst new)) by (rewrite E2; apply rowed_in; [exact H|lia]).
    apply in_map_iff in I as ([k p] & E & I). cbn in E. subst k. rewrite Forall_forall in E3. destruct (E3 _ I) as (_ & _ & E4).
    assert (E5 : iv q i = p).
    { apply (interval_in 1 w 0%Qc gx gx note true Nat.lt_0_1 R1 R3 (Qcle_refl _) no_sep T a0 HT eq_refl q i 0 p).
      change (In (q, i, 0, p) (places b0)). rewrite E1. now apply -> in_rev. }
    rewrite E5. exact E4.
  Qed.
  (** The boxes. *)
  Definition c_top (s : cstate) : Qc :=
    match s with
    | CFinal => (- gy - h)%Qc
    | CAt _ _ _ lvl => ((of_nat 2 * h + sp + gy) * of_nat lvl + of_nat (c_row s) * (h + sp))%Qc
    end.
  Lemma c_boxes s : c_state T s -> exists n, c_annotate_state z repr_cstate b s = Ok n /\
    b_width (s_bounds n) = w /\ b_height (s_bounds n) = h /\ s_text n = constraint_name s /\ b_top (s_bounds n) = c_top s /\
    match s with
    | CAt _ q i _ => In (q, i) SL /\ b_left (s_bounds n) = fst (iv q i)
    | CFinal => forall q i, In (q, i) SL -> (snd (iv q i) + gx <= b_left (s_bounds n))%Qc
    end.
  Proof using HT R.
    destruct s as [c q i lvl|]; cbn [c_state].
    - intros (d & l & Hs & Hi & _). pose proof (seq_slot T q d l i Hs Hi) as I. destruct (c_at q i I) as [E1 E2].
      unfold c_annotate_state. rewrite E1. cbn [bind]. eexists. split; [reflexivity|]. cbn [s_bounds s_text].
      destruct (boundary (fst (iv q i)) (c_top (CAt c q i lvl)) (snd (iv q i)) (c_top (CAt c q i lvl) + h)%Qc) as (B1 & B2 & B3 & B4).
      splits; auto.
      + cbn [c_top] in B3. rewrite B3, E2. ring.
      + cbn [c_top] in B4. rewrite B4. ring.
      + destruct c; reflexivity.
    - intros _. destruct c_final as (x & F1 & F2). unfold c_annotate_state. rewrite F1. cbn [found bind fst snd]. eexists. split; [reflexivity|].
      cbn [s_bounds s_text]. unfold from_boundary. cbn [b_width b_height b_left b_top c_top]. splits; auto; ring.
  Qed.
  Lemma c_top_levels l l' r r' : l < l' -> r <= 1 -> r' <= 1 ->
    ((of_nat 2 * h + sp + gy) * of_nat l + of_nat r * (h + sp) + h + sp <= (of_nat 2 * h + sp + gy) * of_nat l' + of_nat r' * (h + sp))%Qc.
  Proof using R.
    intros H Hr Hr'. replace l' with (l + 1 + (l' - l - 1)) by lia. rewrite !of_nat_plus, of_nat_1.
    assert (E2 : of_nat 2 = (1 + 1)%Qc) by (rewrite <- of_nat_1, <- of_nat_plus; reflexivity).
    assert (K : (0 <= (of_nat 2 * h + sp + gy) * of_nat (l' - l - 1))%Qc).
    { replace 0%Qc with ((of_nat 2 * h + sp + gy) * 0)%Qc by ring. rewrite !(Qcmult_comm (of_nat 2 * h + sp + gy)). apply Qcmult_le_compat_r; [apply of_nat_nonneg|].
      rewrite E2. replace ((1 + 1) * h)%Qc with (h + h)%Qc by ring. clear - R1 R2 R4 R5. qc_lra. }
    assert (B : (of_nat r * (h + sp) <= h + sp)%Qc).
    { destruct r as [|[|r]]; [| |lia]; [replace (of_nat 0) with 0%Qc by reflexivity|rewrite of_nat_1]; [replace (0 * (h + sp))%Qc with 0%Qc by ring|replace (1 * (h + sp))%Qc with (h + sp)%Qc by ring]; clear - R2 R4; qc_lra. }
    assert (B' : (0 <= of_nat r' * (h + sp))%Qc).
    { destruct r' as [|[|r']]; [| |lia]; [replace (of_nat 0) with 0%Qc by reflexivity|rewrite of_nat_1]; [replace (0 * (h + sp))%Qc with 0%Qc by ring|replace (1 * (h + sp))%Qc with (h + sp)%Qc by ring]; clear - R2 R4; qc_lra. }
    replace ((of_nat 2 * h + sp + gy) * (of_nat l + 1 + of_nat (l' - l - 1)))%Qc
      with ((of_nat 2 * h + sp + gy) * of_nat l + (of_nat 2 * h + sp + gy) + (of_nat 2 * h + sp + gy) * of_nat (l' - l - 1))%Qc by ring.
    remember ((of_nat 2 * h + sp + gy) * of_nat l)%Qc as u. remember ((of_nat 2 * h + sp + gy) * of_nat (l' - l - 1))%Qc as v.
    remember (of_nat r * (h + sp))%Qc as x. remember (of_nat r' * (h + sp))%Qc as y.
    assert (E3 : (of_nat 2 * h)%Qc = (h + h)%Qc) by (rewrite E2; ring). rewrite E3. clear - K B B' R2 R4 R5. qc_lra.
  Qed.
  Lemma c_apart s s' n n' : c_state T s -> c_state T s' -> s <> s' -> c_annotate_state z repr_cstate b s = Ok n -> c_annotate_state z repr_cstate b s' = Ok n' ->
    apart gx sp (s_bounds n) (s_bounds n').
  Proof using HT R.
    intros Hs Hs' N E E'. destruct (c_boxes s Hs) as (m & F & W & H & _ & Tp & P). rewrite E in F. injection F as <-.
    destruct (c_boxes s' Hs') as (m' & F & W' & H' & _ & Tp' & P'). rewrite E' in F. injection F as <-.
    unfold apart, left_of, above. rewrite W, W', H, H', Tp, Tp'.
    destruct s as [c q i lvl|], s' as [c' q' i' lvl'|]; [| | |congruence].
    - destruct P as [I P], P' as [I' P']. rewrite P, P'. destruct (c_at q i I) as [_ X], (c_at q' i' I') as [_ X'].
      destruct (eq_dec (q, i) (q', i')) as [Eq|Ne].
      + injection Eq as <- <-. right. right. clear P P' X X'.
        assert (V : lvl < lvl' \/ lvl' < lvl \/ lvl = lvl') by lia. cbn [c_top].
        assert (Rw : forall c q i l, c_row (CAt c q i l) <= 1) by (intros [] ? ? ?; cbn; lia).
        destruct V as [V|[V|V]].
        * left. now apply c_top_levels.
        * right. now apply c_top_levels.
        * subst lvl'. destruct Hs as (d & l & S & _ & D), Hs' as (d' & l' & S' & _ & D'). destruct (seq_in_unique T q d l d' l' HT S S') as [<- <-].
          assert (Z0 : of_nat 0 = 0%Qc) by reflexivity. pose proof of_nat_1 as Z1.
          destruct c, c'; try lia; try congruence; cbn [c_row]; rewrite ?Z0, ?Z1;
            replace (0 * (h + sp))%Qc with 0%Qc by ring; replace (1 * (h + sp))%Qc with (h + sp)%Qc by ring;
            remember ((of_nat 2 * h + sp + gy) * of_nat lvl)%Qc as u; (left; clear; qc_lra) || (right; clear; qc_lra).
      + destruct (before_total SL (q, i) (q', i') I I' Ne) as [B|B]; apply c_before in B; [left|right; left]; [rewrite <- X|rewrite <- X']; exact B.
    - left. destruct P as [I P]. rewrite P. destruct (c_at q i I) as [_ X]. rewrite <- X. now apply P'.
    - right. left. destruct P' as [I P']. rewrite P'. destruct (c_at q' i' I) as [_ X]. rewrite <- X. now apply P.
  Qed.
  Lemma c_flows e : c_edge T e -> exists ns nd, c_annotate_state z repr_cstate b (source e) = Ok ns /\ c_annotate_state z repr_cstate b (dest e) = Ok nd /\
    flows gx sp (c_annotate_edge z str_cost repr_cedge e) (s_bounds ns) (s_bounds nd).
  Proof using HT R.
    intros (Hs & Hd & H). destruct (c_boxes _ Hs) as (ns & E1 & W1 & H1 & _ & _ & P1). destruct (c_boxes _ Hd) as (nd & E2 & W2 & H2 & _ & _ & P2).
    exists ns, nd. splits; auto.
    assert (Lf : left_of gx (s_bounds ns) (s_bounds nd)).
    { unfold left_of. rewrite W1. destruct (source e) as [c q i lvl|]; [|contradiction]. destruct P1 as [I P1]. rewrite P1. destruct (c_at q i I) as [_ X]. rewrite <- X.
      destruct (dest e) as [c' q' i' lvl'|]; [|now apply P2]. destruct P2 as [_ P2]. rewrite P2. apply c_before. apply hop_before. apply H. }
    assert (G : (0 <= gx)%Qc) by (apply Qclt_le_weak; exact R3).
    assert (Row : forall s, unit_interval (row_alignment (c_row s) c_rows)) by (intros s; apply row_alignment_unit; destruct s as [[] ? ? ?|]; unfold c_rows; cbn; lia).
    apply flows_right; auto; unfold c_annotate_edge; destruct (info e); cbn [e_axis start_alignment end_alignment elbow_distance elbow_distance_adjust]; auto.
    - rewrite W1, W2, H1, H2. splits; apply Qclt_le_weak; auto.
    - rewrite W1, W2, H1, H2. splits; apply Qclt_le_weak; auto.
    - left. split; [|reflexivity]. destruct (assignment e) as [[[? ?] v]|]; [destruct v|]; split; vm_compute; discriminate.
    - right. split; [reflexivity|]. assert (P : (0 <= percent 20 /\ percent 20 <= 1)%Qc) by (split; vm_compute; discriminate).
      destruct (scaled _ _ P G) as [A B]. rewrite Qcmult_comm. auto.
  Qed.
  Lemma c_notes : Forall2 (fun (x : Z * nat * L) t => exists bx tx hover tags, t = TextAnnotation bx tx (font z) hover tags /\ leaf_words repr_text (snd x) tx /\
      Forall plain tags /\
      b_left bx = snd (iv (fst (fst x)) (snd (fst x))) /\ (b_left bx + b_width bx)%Qc = fst (iv (fst (fst x)) (S (snd (fst x)))) /\
      b_top bx = (- c_shift z - h)%Qc /\ b_height bx = h) (leaves_from (-1)%Z 0 T) (notes b).
  Proof using HT R.
    destruct (interval_notes 1 w 0%Qc gx gx note true Nat.lt_0_1 R1 R3 (Qcle_refl _) no_sep T a0 HT eq_refl eq_refl) as (ivs & E1 & E2 & E3).
    change (walk 1 w 0%Qc gx note true (-1) T a0) with b in *. rewrite E1.
    assert (NG : forall e, In e (map fst ivs) -> forall p cs m, snd e <> LGroup p cs m).
    { intros [[r i] x] He. rewrite E2 in He. exact (leaves_no_group _ T (le_n _) _ _ _ _ _ He). }
    rewrite <- E2. clear E1 E2. induction ivs as [|e ivs IH]; [constructor|].
    inversion E3; subst. cbn [map]. constructor; [|apply IH; auto; intros; apply NG; now right].
    specialize (NG _ (or_introl eq_refl)). destruct e as [[[q i] x] [c c']]. cbn [fst snd] in *. destruct H1 as [-> ->].
    change (1 - 1) with 0. generalize (iv q i), (iv q (S i)). intros [u u'] [v v']. cbn [fst snd].
    unfold prototype_note. destruct x; try (now destruct (NG _ _ _ eq_refl)); (eexists _, _, _, _; split; [reflexivity|]); unfold from_boundary; cbn [b_left b_width b_top b_height leaf_words];
      splits; try reflexivity; try ring; (apply Forall_cons; [apply plainb_plain; reflexivity|apply Forall_nil]).
  Qed.
End Constraint.
