(** The layout of edit DAGs. *)

From Coq Require Import String.
From Coq Require Import List Bool Arith ZArith Lia QArith Qcanon Lqa.
From Verif Require Import Base SeqNodes Graph GatedDag PackedSeq PackedSeqProofs Numbered Decisions Html ConstraintDag EditDag SelectionDag
  Drawing DrawSpec Layouts LayoutSpec LayoutProofs LayoutFrames LayoutEdges LayoutBoxes LayoutConstraint DrawingProofs.
Import ListNotations.
Close Scope string_scope. Close Scope Qc_scope. Close Scope Q_scope. Close Scope Z_scope. Open Scope nat_scope. Open Scope list_scope.

(** ** The render data *)
Section Subproblems.
  Context {M : Type} {md : EqDec M}.
  Notation L := (lnode M).
  Lemma node_subproblems_in (x : L) ts e : In e (node_subproblems x ts) <->
    exists p cs m p' ds, x = LGroup p cs m /\ In (LGroup p' ds m) ts /\
      (e = (Z.of_nat (pre p), Z.of_nat (pre p')) \/ exists c, In c cs /\ In e (node_subproblems c ds)).
  Proof.
    assert (G : forall cs (ds : list L), In e ((fix go (l : list L) : list (Z * Z) :=
                 match l with [] => [] | c :: l' => node_subproblems c ds ++ go l' end) cs) <-> exists c, In c cs /\ In e (node_subproblems c ds)).
    { induction cs as [|c cs IH]; intros ds; cbn [In].
      - split; [intros []|intros (c & [] & _)].
      - rewrite in_app_iff, IH. split.
        + intros [H|(c' & H1 & H2)]; [exists c; auto|exists c'; auto].
        + intros (c' & [<-|H1] & H2); [auto|right; eauto]. }
    split.
    - destruct x as [| | | | |p cs m]; cbn [node_subproblems]; intros H; apply in_flat_map in H as (y & Hy & H); try (destruct y; contradiction).
      destruct y as [| | | | |p' ds m']; try contradiction. destruct (eqb m' m) eqn:E; [|contradiction]. apply eqb_eq in E. subst m'.
      exists p, cs, m, p', ds. splits; auto. destruct H as [H|H]; [now left|right; now apply G].
    - intros (p & cs & m & p' & ds & -> & Hy & H). cbn [node_subproblems]. apply in_flat_map. exists (LGroup p' ds m). split; auto.
      rewrite eqb_refl. destruct H as [H|H]; [now left|right; now apply G].
  Qed.
  Lemma matched_seqs (T T' : list L) q h l l' : matched T T' q h l l' -> exists d, seq_in T q d l /\ seq_in T' h d l'.
  Proof.
    induction 1 as [|q h l l' p cs m p' ds _ (d & I1 & I2) H1 H2]; [exists 0; split; apply seq_root|].
    exists (S d). split; eapply seq_group; eauto.
  Qed.
  Theorem subproblems_matched (T T' : list L) q h : In (q, h) (subproblems T T') <-> exists l l', matched T T' q h l l'.
  Proof.
    unfold subproblems. split.
    - intros [E|H]; [injection E as <- <-; exists T, T'; apply matched_root|]. apply in_flat_map in H as (x & Hx & H).
      assert (G : forall n x, lsize x <= n -> forall q0 h0 l l', matched T T' q0 h0 l l' -> In x l -> In (q, h) (node_subproblems x l') ->
                    exists l l', matched T T' q h l l').
      { induction n as [|n IH]; intros x0 Hn q0 h0 l l' Ma Hx0 H0; [pose proof (lsize_pos x0); lia|].
        apply node_subproblems_in in H0 as (p & cs & m & p' & ds & -> & Hy & [E|(c & Hc & Hi)]).
        - injection E as -> ->. exists cs, ds. eapply matched_groups; eauto.
        - eapply (IH c); [|eapply matched_groups; eauto|exact Hc|exact Hi]. rewrite lsize_group in Hn.
          apply in_split in Hc as (c1 & c2 & ->). assert (A : forall a b : list L, lsizes (a ++ b) = lsizes a + lsizes b).
          { induction a; intros; [reflexivity|]. cbn [app]. rewrite !lsizes_cons, IHa. lia. }
          rewrite A, lsizes_cons in Hn. lia. }
      eapply (G _ x (le_n _)); [apply matched_root|exact Hx|exact H].
    - intros (l & l' & H).
      assert (G : In (q, h) (subproblems T T') /\ forall x, In x l -> incl (node_subproblems x l') (subproblems T T')).
      { induction H as [|q h l l' p cs m p' ds _ [_ I] H1 H2].
        - split; [now left|]. intros x Hx e He. right. apply in_flat_map. eauto.
        - split.
          + apply (I _ H1). apply node_subproblems_in. exists p, cs, m, p', ds. auto.
          + intros c Hc e He. apply (I _ H1). apply node_subproblems_in. exists p, cs, m, p', ds. splits; auto. right. eauto. }
      exact (proj1 G).
  Qed.
End Subproblems.

Lemma mix_unit r r' : r < 8 -> r' < 8 -> unit_interval (percent 63 * row_alignment r 8 + percent 37 * row_alignment r' 8)%Qc.
Proof.
  intros H H'. do 8 (destruct r as [|r]; [do 8 (destruct r' as [|r']; [split; vm_compute; discriminate|]); lia|]). lia.
Qed.
Lemma complement q : unit_interval q -> unit_interval (1 - q)%Qc.
Proof. intros [A B]. split; qc_lra. Qed.

Section Edit.
  Context {M : Type} {md : EqDec M}.
  Notation L := (lnode M).
  Variable z : sizes.
  Variable repr_text : text -> text.
  Variable repr_id : node_id -> text.
  Variable repr_node : L -> text.
  Variable str_cost : cost -> text.
  Variable repr_estate : estate -> text.
  Variable repr_eedge : eedge -> text.
  Hypothesis R : roomy z.
  Variable T T' : list L.
  Hypothesis HT : numbered 0 T.
  Hypothesis HT' : numbered 0 T'.
  Notation w := (state_width z).
  Notation h := (state_height z).
  Notation gx := (gap_horizontal z).
  Notation gy := (gap_vertical z).
  Notation sp := (state_separation z).
  Notation xnote := (prototype_note z repr_text repr_id repr_node (- gy - h)%Qc (- gy)%Qc).
  Notation ynote := (target_note z repr_text repr_id repr_node).
  Let a0 := mkAxis (w + gx)%Qc [] [] [] None [].
  Let a1 := mkAxis 0%Qc [] [] [] None [].
  Let X := edit_x z repr_text repr_id repr_node T.
  Let Y := edit_y z repr_text repr_id repr_node T'.
  Notation ix q i := (interval X (q, i, 0)).
  Notation iy q i r := (interval Y (q, i, r)).
  Notation SX := (slots (-1)%Z 0 T).
  Notation SY := (slots (-1)%Z 0 T').
  Let R1 : (0 < w)%Qc. Proof. apply R. Qed.
  Let R2 : (0 < h)%Qc. Proof. apply R. Qed.
  Let R3 : (0 < gx)%Qc. Proof. apply R. Qed.
  Let R4 : (0 < sp)%Qc. Proof. apply R. Qed.
  Let R5 : (sp <= gy)%Qc. Proof. apply R. Qed.
  Let no_sep : 1 < 1 -> (gx <= 0)%Qc. Proof. lia. Qed.
  Let all_sep : 1 < e_rows -> (sp <= sp)%Qc. Proof. intros _. apply Qcle_refl. Qed.
  Let eight : 0 < e_rows. Proof. unfold e_rows. lia. Qed.
  Lemma ex_at q i : In (q, i) SX -> at_key (q, i, 0) (places X) = Ok (ix q i) /\
    (w + gx <= fst (ix q i) /\ snd (ix q i) = fst (ix q i) + w /\ snd (ix q i) + gx <= cursor X)%Qc.
  Proof using HT R. intros H. exact (interval_at 1 w 0%Qc gx gx xnote false Nat.lt_0_1 R1 R3 (Qcle_refl _) no_sep T a0 HT eq_refl q i 0 H Nat.lt_0_1). Qed.
  Lemma ex_before q i q' i' : before SX (q, i) (q', i') -> (snd (ix q i) + gx <= fst (ix q' i'))%Qc.
  Proof using HT R.
    intros B. exact (interval_before 1 w 0%Qc gx gx xnote false Nat.lt_0_1 R1 R3 (Qcle_refl _) no_sep T a0 HT eq_refl _ _ 0 0 B Nat.lt_0_1 Nat.lt_0_1).
  Qed.
  Lemma ey_at q i r : In (q, i) SY -> r < 8 -> at_key (q, i, r) (places Y) = Ok (iy q i r) /\
    (0 <= fst (iy q i r) /\ snd (iy q i r) = fst (iy q i r) + h /\ snd (iy q i r) + sp <= cursor Y)%Qc.
  Proof using HT' R. intros H H8. exact (interval_at e_rows h sp gy sp ynote false eight R2 R4 R5 all_sep T' a1 HT' eq_refl q i r H H8). Qed.
  Lemma ey_before q i q' i' r r' : before SY (q, i) (q', i') -> r < 8 -> r' < 8 -> (snd (iy q i r) + sp <= fst (iy q' i' r'))%Qc.
  Proof using HT' R. intros B. exact (interval_before e_rows h sp gy sp ynote false eight R2 R4 R5 all_sep T' a1 HT' eq_refl (q, i) (q', i') r r' B). Qed.
  Lemma ey_rows q i r r' : In (q, i) SY -> r < r' -> r' < 8 -> (snd (iy q i r) + sp <= fst (iy q i r'))%Qc.
  Proof using HT' R. exact (interval_rows e_rows h sp gy sp ynote false eight R2 R4 R5 all_sep T' a1 HT' eq_refl (q, i) r r'). Qed.
  Local Opaque edit_x edit_y interval.
  Lemma row_bound a c : e_row_of a c < 8.
  Proof. destruct a, c; cbn; lia. Qed.
  Lemma e_row_bound s : e_row s < 8.
  Proof. destruct s as [a c q i g j|]; [apply row_bound|cbn; lia]. Qed.

  Lemma e_boxes s : e_state T T' s -> exists n, e_annotate_state z repr_estate X Y s = Ok n /\
    b_width (s_bounds n) = w /\ b_height (s_bounds n) = h /\ s_text n = edit_name s /\
    match s with
    | EAt a c q i g j => In (q, i) SX /\ In (g, j) SY /\ b_left (s_bounds n) = fst (ix q i) /\ b_top (s_bounds n) = fst (iy g j (e_row_of a c))
    | EFinal => b_left (s_bounds n) = (cursor X + gx)%Qc /\ b_top (s_bounds n) = (cursor Y + gy)%Qc
    end.
  Proof using HT HT' R.
    destruct s as [a c q i g j|]; cbn [e_state].
    - intros (d & l & d' & l' & Hs & Hi & Hs' & Hj & _). pose proof (seq_slot T q d l i Hs Hi) as I. pose proof (seq_slot T' g d' l' j Hs' Hj) as I'.
      destruct (ex_at q i I) as (E1 & _ & E2 & _). destruct (ey_at g j (e_row_of a c) I' (row_bound a c)) as (F1 & _ & F2 & _).
      unfold e_annotate_state, e_bounds. rewrite E1. cbn [bind]. rewrite F1. cbn [bind]. eexists. split; [reflexivity|].
      cbn [s_bounds s_text]. unfold from_boundary. cbn [b_width b_height b_left b_top]. splits; auto.
      + revert E2. generalize (ix q i). intros [u v] E2. cbn [fst snd] in *. rewrite E2. ring.
      + revert F2. generalize (iy g j (e_row_of a c)). intros [u v] F2. cbn [fst snd] in *. rewrite F2. ring.
      + destruct a, c; reflexivity.
    - intros _. unfold e_annotate_state, e_bounds. cbn [bind]. eexists. split; [reflexivity|].
      cbn [s_bounds s_text]. unfold from_boundary. cbn [b_width b_height b_left b_top]. generalize (cursor X), (cursor Y). intros u v. splits; auto; ring.
  Qed.
  Lemma same_row a c a' c' q i g j : e_state T T' (EAt a c q i g j) -> e_state T T' (EAt a' c' q i g j) -> e_row_of a c = e_row_of a' c' -> a = a' /\ c = c'.
  Proof using HT HT'.
    intros (d & l & e & l' & S1 & _ & S2 & _ & D) (d2 & l2 & e2 & l2' & S3 & _ & S4 & _ & D').
    destruct (seq_in_unique T q d l d2 l2 HT S1 S3) as [<- <-]. destruct (seq_in_unique T' g e l' e2 l2' HT' S2 S4) as [<- <-].
    clear - D D'. assert (N : d = e -> ~ d < e /\ ~ e < d) by (intros ->; split; apply Nat.lt_irrefl).
    destruct a, a'; cbn [depths] in D, D'; destruct c, c'; intros E; try discriminate E; try (split; reflexivity); exfalso; tauto.
  Qed.
  Lemma e_apart s s' n n' : e_state T T' s -> e_state T T' s' -> s <> s' ->
    e_annotate_state z repr_estate X Y s = Ok n -> e_annotate_state z repr_estate X Y s' = Ok n' -> apart gx sp (s_bounds n) (s_bounds n').
  Proof using HT HT' R.
    intros Hs Hs' N E E'. destruct (e_boxes s Hs) as (m & F & W & H & _ & P). rewrite E in F. injection F as <-.
    destruct (e_boxes s' Hs') as (m' & F & W' & H' & _ & P'). rewrite E' in F. injection F as <-.
    unfold apart, left_of, above. rewrite W, W', H, H'.
    destruct s as [a c q i g j|], s' as [a' c' q' i' g' j'|]; [| | |congruence].
    - destruct P as (I & J & Pl & Pt), P' as (I' & J' & Pl' & Pt'). rewrite Pl, Pl', Pt, Pt'.
      destruct (ex_at q i I) as (_ & _ & X1 & _), (ex_at q' i' I') as (_ & _ & X2 & _).
      destruct (ey_at g j _ J (row_bound a c)) as (_ & _ & Y1 & _), (ey_at g' j' _ J' (row_bound a' c')) as (_ & _ & Y2 & _).
      rewrite <- X1, <- X2, <- Y1, <- Y2.
      destruct (eq_dec (q, i) (q', i')) as [Eq|Ne].
      + injection Eq as <- <-. right. right. destruct (eq_dec (g, j) (g', j')) as [Eq|Ne].
        * injection Eq as <- <-. assert (V : e_row_of a c < e_row_of a' c' \/ e_row_of a' c' < e_row_of a c \/ e_row_of a c = e_row_of a' c') by lia.
          destruct V as [V|[V|V]]; [left|right|].
          -- now apply ey_rows; [|exact V|apply row_bound].
          -- now apply ey_rows; [|exact V|apply row_bound].
          -- destruct (same_row _ _ _ _ _ _ _ _ Hs Hs' V) as [<- <-]. congruence.
        * destruct (before_total SY (g, j) (g', j') J J' Ne) as [B|B]; [left|right]; apply ey_before; auto; apply row_bound.
      + destruct (before_total SX (q, i) (q', i') I I' Ne) as [B|B]; apply ex_before in B; auto.
    - left. destruct P as (I & _ & P & _), P' as [P' _]. rewrite P, P'. destruct (ex_at q i I) as (_ & _ & X1 & X2). rewrite <- X1. clear - X2 R3. qc_lra.
    - right. left. destruct P' as (I & _ & P' & _), P as [P _]. rewrite P, P'. destruct (ex_at q' i' I) as (_ & _ & X1 & X2). rewrite <- X1. clear - X2 R3. qc_lra.
  Qed.
  Definition vlo (s t : estate) : Qc :=
    match known_offset s t with
    | Some n =>
        let v := (of_nat n / of_nat 6)%Qc in
        match t with EAt _ High _ _ _ _ => (v - percent 10 / of_nat 6)%Qc | _ => (v + percent 10 / of_nat 6)%Qc end
    | None => (percent 63 * row_alignment (e_row t) e_rows + percent 37 * row_alignment (e_row s) e_rows)%Qc
    end.
  Lemma vlo_unit s t : unit_interval (vlo s t).
  Proof.
    unfold vlo. destruct (known_offset s t) as [n|] eqn:K; [|apply mix_unit; apply e_row_bound].
    destruct s as [a c q i g j|], t as [a' c' q' i' g' j'|]; try (destruct a; discriminate); try discriminate.
    destruct a, a'; try discriminate; injection K as <-; destruct c'; split; vm_compute; discriminate.
  Qed.
  Lemma share y n : (0 <= y)%Qc -> unit_interval (percent n) -> (0 <= y * percent n /\ y * percent n <= y)%Qc.
  Proof. intros H U. rewrite Qcmult_comm. now apply scaled. Qed.
  Lemma e_flows e : e_edge T T' e -> exists n ns nd, e_annotate_edge z str_cost repr_estate repr_eedge X Y e = Ok n /\
    e_annotate_state z repr_estate X Y (source e) = Ok ns /\ e_annotate_state z repr_estate X Y (dest e) = Ok nd /\
    flows gx sp n (s_bounds ns) (s_bounds nd) /\ e_text n = str_cost (ecost e) ++ assignment_summary (assignment e).
  Proof using HT HT' R.
    intros (Hs & Hd & H). destruct (e_boxes _ Hs) as (ns & E1 & W1 & H1 & _ & P1). destruct (e_boxes _ Hd) as (nd & E2 & W2 & H2 & _ & P2).
    assert (G : (0 <= gx)%Qc) by (apply Qclt_le_weak; exact R3). assert (G' : (0 <= sp)%Qc) by (apply Qclt_le_weak; exact R4).
    assert (G1 : (0 <= w)%Qc) by (apply Qclt_le_weak; exact R1). assert (G2 : (0 <= h)%Qc) by (apply Qclt_le_weak; exact R2).
    assert (U20 : unit_interval (percent 20)) by (split; vm_compute; discriminate).
    assert (U25 : unit_interval (percent 25)) by (split; vm_compute; discriminate).
    assert (Row : forall s, unit_interval (row_alignment (e_row s) e_rows)) by (intros s; apply row_alignment_unit; apply e_row_bound).
    assert (Pos : left_of gx (s_bounds ns) (s_bounds nd) \/
                  b_left (s_bounds ns) = b_left (s_bounds nd) /\ above sp (s_bounds ns) (s_bounds nd) /\ ~ exits e).
    { unfold left_of, above. rewrite W1, H1. destruct (source e) as [a c q i g j|]; [|contradiction]. destruct P1 as (I & J & Pl & Pt).
      destruct (ex_at q i I) as (_ & _ & X1 & X2). destruct (ey_at g j _ J (row_bound a c)) as (_ & _ & Y1 & Y2).
      destruct (dest e) as [a' c' q' i' g' j'|].
      - destruct P2 as (I' & J' & Pl' & Pt'). rewrite Pl, Pl', Pt, Pt'. rewrite <- X1, <- Y1. destruct H as [[H|(-> & -> & H)] NE].
        + left. apply ex_before. now apply hop_before.
        + right. splits; auto. destruct H as [H|(-> & -> & H)].
          * apply ey_before; try apply row_bound. now apply hop_before.
          * apply ey_rows; auto. apply row_bound.
      - left. destruct P2 as [P2 _]. rewrite Pl, P2, <- X1. clear - X2 R3. qc_lra. }
    unfold e_annotate_edge. cbv zeta. rewrite E1, E2. cbn [bind]. fold (vlo (source e) (dest e)).
    pose proof (vlo_unit (source e) (dest e)) as V. set (v := vlo (source e) (dest e)) in *. clearbody v.
    destruct Pos as [Lf|(El & Ab & NE)].
    - assert (Ne : eqb (b_left (s_bounds ns)) (b_left (s_bounds nd)) = false).
      { destruct (eqb (b_left (s_bounds ns)) (b_left (s_bounds nd))) eqn:Q; auto. apply eqb_eq in Q. unfold left_of in Lf. rewrite Q, W1 in Lf. clear - Lf R1 R3. exfalso.
        remember (b_left (s_bounds nd)) as u. clear Hequ. assert (K : (u < u)%Qc) by qc_lra. exact (Qclt_not_eq _ _ K eq_refl). }
      rewrite Ne. destruct (info e) as [[? ? ac ?]|]; [destruct ac|]; (eexists _, ns, nd; split; [reflexivity|]); splits; auto;
        (apply flows_right; cbn [e_axis start_alignment end_alignment elbow_distance elbow_distance_adjust]; auto;
         [rewrite W1, W2, H1, H2; splits; auto|first [left; split; [now apply complement|reflexivity]|right; split; [reflexivity|now apply share]]]).
    - rewrite El, eqb_refl. unfold exits in NE.
      destruct (info e) as [[? ? ac ?]|]; [destruct ac; cbn [act] in NE; try congruence|]; (eexists _, ns, nd; split; [reflexivity|]); splits; auto;
        (apply flows_down; cbn [e_axis start_alignment end_alignment elbow_distance elbow_distance_adjust]; auto;
         [congruence|rewrite W1, H1, H2; splits; auto|now apply share]).
  Qed.
  Local Transparent edit_x edit_y interval.
  Lemma e_regions q g l l' : matched T T' q g l l' -> exists bx, region_of X Y (q, g) = Ok (RegionAnnotation bx []) /\
    forall a c i j n, e_state T T' (EAt a c q i g j) -> e_annotate_state z repr_estate X Y (EAt a c q i g j) = Ok n -> encloses bx (s_bounds n).
  Proof using HT HT' R.
    intros H. destruct (matched_seqs _ _ _ _ _ _ H) as (d & S1 & S2).
    destruct (walk_framed 1 w 0%Qc gx gx xnote Nat.lt_0_1 R1 R3 (Qcle_refl _) no_sep T a0 HT eq_refl q d l S1) as (xo & xc & A1 & A2 & A3).
    destruct (walk_framed e_rows h sp gy sp ynote eight R2 R4 R5 all_sep T' a1 HT' eq_refl g d l' S2) as (yo & yc & B1 & B2 & B3).
    change (walk 1 w 0%Qc gx xnote false (-1)%Z T a0) with X in *. change (walk e_rows h sp gy ynote false (-1)%Z T' a1) with Y in *.
    exists (from_boundary xo yo xc yc). split.
    - unfold region_of, at_key. cbn [fst snd]. rewrite A1, A2, B1, B2. reflexivity.
    - intros a c i j n Hs E. destruct (e_boxes _ Hs) as (n' & F & W & Hh & _ & I & J & Pl & Pt). rewrite E in F. injection F as <-.
      destruct Hs as (d1 & l1 & d1' & l1' & Q1 & Hi & Q2 & Hj & _).
      destruct (seq_in_unique T q d l d1 l1 HT S1 Q1) as [<- <-]. destruct (seq_in_unique T' g d l' d1' l1' HT' S2 Q2) as [<- <-].
      destruct (ex_at q i I) as (K1 & _ & X1 & _). destruct (ey_at g j _ J (row_bound a c)) as (K2 & _ & Y1 & _).
      assert (At : forall k (m : list (Z * nat * nat * (Qc * Qc))) p, at_key k m = Ok p -> In (k, p) m).
      { intros k m p K. unfold at_key in K. destruct (assoc k m) eqn:Q; [|discriminate]. injection K as <-. now apply assoc_In. }
      destruct (A3 _ _ (At _ _ _ K1)) as [C1 C2]; [cbn [fst]; apply (slots_position _ _ _ 0); assumption|].
      destruct (B3 _ _ (At _ _ _ K2)) as [D1 D2]; [cbn [fst]; apply (slots_position _ _ _ 0); assumption|].
      unfold encloses, from_boundary. cbn [b_left b_top b_width b_height]. rewrite Pl, Pt, W, Hh, <- X1, <- Y1.
      splits; auto; [replace (xo + (xc - xo))%Qc with xc by ring|replace (yo + (yc - yo))%Qc with yc by ring]; auto.
  Qed.
  Lemma e_xnotes : Forall2 (fun (x : Z * nat * L) t => exists bx tx hover tags, t = TextAnnotation bx tx (font z) hover tags /\ leaf_words repr_text (snd x) tx /\
      Forall plain tags /\
      b_left bx = snd (ix (fst (fst x)) (snd (fst x))) /\ (b_left bx + b_width bx)%Qc = fst (ix (fst (fst x)) (S (snd (fst x)))) /\
      b_top bx = (- gy - h)%Qc /\ b_height bx = h) (leaves_from (-1)%Z 0 T) (notes X).
  Proof using HT R.
    destruct (interval_notes 1 w 0%Qc gx gx xnote false Nat.lt_0_1 R1 R3 (Qcle_refl _) no_sep T a0 HT eq_refl eq_refl) as (ivs & E1 & E2 & E3).
    change (walk 1 w 0%Qc gx xnote false (-1) T a0) with X in *. rewrite E1.
    assert (NG : forall e, In e (map fst ivs) -> forall p cs m, snd e <> LGroup p cs m).
    { intros [[r i] x] He. rewrite E2 in He. exact (leaves_no_group _ T (le_n _) _ _ _ _ _ He). }
    rewrite <- E2. clear E1 E2. induction ivs as [|e ivs IH]; [constructor|].
    inversion E3; subst. cbn [map]. constructor; [|apply IH; auto; intros; apply NG; now right].
    specialize (NG _ (or_introl eq_refl)). destruct e as [[[q i] x] [c c']]. cbn [fst snd] in *. destruct H1 as [-> ->]. change (1 - 1) with 0. generalize (ix q i), (ix q (S i)). intros [u u'] [v v']. cbn [fst snd].
    unfold prototype_note. destruct x; try (now destruct (NG _ _ _ eq_refl)); (eexists _, _, _, _; split; [reflexivity|]); unfold from_boundary; cbn [b_left b_width b_top b_height leaf_words];
      splits; try reflexivity; try ring; (apply Forall_cons; [apply plainb_plain; reflexivity|apply Forall_nil]).
  Qed.
  Lemma e_ynotes : Forall2 (fun (x : Z * nat * L) t => exists bx tx hover tags, t = TextAnnotation bx tx (font z) hover tags /\ target_words repr_text repr_id (snd x) tx /\
      Forall plain tags /\
      b_top bx = snd (iy (fst (fst x)) (snd (fst x)) 7) /\ (b_top bx + b_height bx)%Qc = fst (iy (fst (fst x)) (S (snd (fst x))) 0) /\
      b_left bx = (- w)%Qc /\ b_width bx = w) (leaves_from (-1)%Z 0 T') (notes Y).
  Proof using HT' R.
    destruct (interval_notes e_rows h sp gy sp ynote false eight R2 R4 R5 all_sep T' a1 HT' eq_refl eq_refl) as (ivs & E1 & E2 & E3).
    change (walk e_rows h sp gy ynote false (-1) T' a1) with Y in *. rewrite E1, <- E2. clear E1 E2. induction ivs as [|e ivs IH]; [constructor|].
    inversion E3; subst. cbn [map]. constructor; [|now apply IH]. destruct e as [[[q i] x] [c c']]. cbn [fst snd] in *. destruct H1 as [-> ->].
    change (e_rows - 1) with 7. generalize (iy q i 7), (iy q (S i) 0). intros [u u'] [v v']. cbn [fst snd].
    unfold target_note. destruct x; (eexists _, _, _, _; split; [reflexivity|]); unfold from_boundary; cbn [b_left b_width b_top b_height target_words];
      splits; try reflexivity; try ring; (apply Forall_cons; [apply plainb_plain; reflexivity|apply Forall_nil]).
  Qed.
End Edit.
