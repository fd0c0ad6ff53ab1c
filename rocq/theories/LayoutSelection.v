(** The layout of part-selection DAGs. *)

From Coq Require Import String.
From Coq Require Import List Bool Arith ZArith Lia QArith Qcanon Lqa.
From Verif Require Import Base SeqNodes Graph GatedDag PackedSeq PackedSeqProofs Numbered Decisions Html ConstraintDag EditDag SelectionDag
  Drawing DrawSpec Layouts LayoutSpec LayoutProofs LayoutFrames LayoutEdges LayoutBoxes LayoutConstraint DrawingProofs LayoutEdit.
Import ListNotations.
Close Scope string_scope. Close Scope Qc_scope. Close Scope Q_scope. Close Scope Z_scope. Open Scope nat_scope. Open Scope list_scope.

Lemma assoc_app {K V} `{EqDec K} (k : K) (l l' : list (K * V)) :
  assoc k (l ++ l') = match assoc k l with Some v => Some v | None => assoc k l' end.
Proof.
  induction l as [|[k0 v] l IH]; auto. cbn [app]. destruct (eq_dec k k0) as [<-|N].
  - now rewrite !assoc_cons_same.
  - now rewrite !assoc_cons_other.
Qed.
Lemma of_nat_S n : of_nat (S n) = (of_nat n + 1)%Qc.
Proof. rewrite <- Nat.add_1_r, of_nat_plus, of_nat_1. reflexivity. Qed.
Lemma of_nat_0 : of_nat 0 = 0%Qc.
Proof. apply Qc_is_canon. reflexivity. Qed.
Lemma of_nat_scale n y : (0 <= y)%Qc -> (0 <= of_nat n * y)%Qc.
Proof. intros Y. replace 0%Qc with (0 * y)%Qc by ring. apply Qcmult_le_compat_r; auto. apply of_nat_nonneg. Qed.
Lemma mix4_unit r r' : r < 4 -> r' < 4 -> unit_interval (percent 63 * row_alignment r 4 + percent 37 * row_alignment r' 4)%Qc.
Proof.
  intros H H'. do 4 (destruct r as [|r]; [do 4 (destruct r' as [|r']; [split; vm_compute; discriminate|]); lia|]). lia.
Qed.

Section Selection.
  Context {M : Type} {md : EqDec M}.
  Notation L := (lnode M).
  Variable z : sizes.
  Variable repr_text : text -> text.
  Variable str_cost : cost -> text.
  Variable repr_sstate : sstate -> text.
  Variable repr_sedge : sedge -> text.
  Variable repr_visit : item -> text.
  Variable repr_visited : item -> text -> M -> text.
  Hypothesis R : roomy z.
  Notation w := (state_width z).
  Notation h := (state_height z).
  Notation gx := (gap_horizontal z).
  Notation gy := (gap_vertical z).
  Notation sp := (state_separation z).
  Let R1 : (0 < w)%Qc. Proof. apply R. Qed.
  Let R2 : (0 < h)%Qc. Proof. apply R. Qed.
  Let R3 : (0 < gx)%Qc. Proof. apply R. Qed.
  Let R4 : (0 < sp)%Qc. Proof. apply R. Qed.
  Let R5 : (sp <= gy)%Qc. Proof. apply R. Qed.
  (** The texts *)
  Definition noted (S : storage M) (tg : bool) (v : item) (wd : text) : Prop :=
    forall b, exists hover tags, visit_note z repr_text repr_visit repr_visited S tg b v = Ok (TextAnnotation b wd (font z) hover tags) /\ Forall plain tags.
  Ltac show := intros b; unfold visit_note; cbn [fst snd]; (eexists _, _; split; [reflexivity|]); (apply Forall_cons; [apply plainb_plain; reflexivity|apply Forall_nil]).
  Lemma visit_noted S tg (x : L) : placed S x -> Forall2 (noted S tg) (lvisit true x) (visit_words tg repr_text repr_visit x).
  Proof using.
    clear. induction x as [i t|i t m|i|i|i|i cs m IH] using lnode_ind'; intros Hp; apply placed_inv in Hp; cbn [lvisit visit_words label].
    - constructor.
    - destruct Hp as [C E]. constructor; [|constructor]. intros b. unfold visit_note. cbn [fst snd]. rewrite C, E. cbn [bind fst snd].
      eexists _, _; split; [reflexivity|]. apply Forall_cons; [apply plainb_plain; reflexivity|apply Forall_nil].
    - constructor; [|constructor]. destruct tg; intros b; unfold visit_note; cbn [fst snd]; rewrite Hp; (eexists _, _; split; [reflexivity|]); (apply Forall_cons; [apply plainb_plain; reflexivity|apply Forall_nil]).
    - constructor; [|constructor]. destruct tg; intros b; unfold visit_note; cbn [fst snd]; rewrite Hp; (eexists _, _; split; [reflexivity|]); (apply Forall_cons; [apply plainb_plain; reflexivity|apply Forall_nil]).
    - constructor; [|constructor]. intros b; unfold visit_note; cbn [fst snd]; rewrite Hp; (eexists _, _; split; [reflexivity|]); (apply Forall_cons; [apply plainb_plain; reflexivity|apply Forall_nil]).
    - destruct Hp as (C & _ & F). constructor; [|apply Forall2_app].
      + intros b; unfold visit_note; cbn [fst snd]; rewrite C; (eexists _, _; split; [reflexivity|]); (apply Forall_cons; [apply plainb_plain; reflexivity|apply Forall_nil]).
      + clear C. induction cs as [|c cs IHc]; [constructor|]. inversion IH; inversion F; subst. cbn [flat_map]. apply Forall2_app; auto.
      + constructor; [|constructor]. intros b; unfold visit_note; cbn [fst snd]; rewrite C; (eexists _, _; split; [reflexivity|]); (apply Forall_cons; [apply plainb_plain; reflexivity|apply Forall_nil]).
  Qed.
  Lemma visits_noted tg (ns : list (node M)) : Forall2 (noted (pack ns) tg) (flat_map (lvisit true) (labelled ns)) (flat_map (visit_words tg repr_text repr_visit) (labelled ns)).
  Proof using.
    clear. pose proof (pack_placed ns) as F. induction F as [|x l H _ IH]; [constructor|]. cbn [flat_map]. apply Forall2_app; auto. now apply visit_noted.
  Qed.
  (** The columns *)
  Definition column (i : nat) : Qc := (of_nat i * (w + gx))%Qc.
  Lemma column_S i : column (S i) = (column i + w + gx)%Qc.
  Proof. unfold column. rewrite of_nat_S. ring. Qed.
  Lemma column_lt i i' : i < i' -> (column i + w + gx <= column i')%Qc.
  Proof using R.
    intros H. replace i' with (S i + (i' - S i)) by lia. unfold column. rewrite of_nat_plus, of_nat_S.
    pose proof (of_nat_scale (i' - S i) (w + gx)%Qc ltac:(clear - R1 R3; qc_lra)) as K.
    replace ((of_nat i + 1 + of_nat (i' - S i)) * (w + gx))%Qc with (of_nat i * (w + gx) + (w + gx) + of_nat (i' - S i) * (w + gx))%Qc by ring.
    remember (of_nat (i' - S i) * (w + gx))%Qc as u. remember (of_nat i * (w + gx))%Qc as v. clear - K. qc_lra.
  Qed.
  Lemma columns_spec S : forall l words i, Forall2 (noted S false) l words -> exists cols ns,
    s_columns z repr_text repr_visit repr_visited S i l (column i) = Ok (cols, ns) /\
    (forall k, assoc k cols = if (i <=? k) && (k <=? i + 1 + length l) then Some (column k, column k + w)%Qc else None) /\
    Forall2 (fun e t => exists hover tags, t = TextAnnotation (mkBox (column (fst e) + w)%Qc 0%Qc gx h) (snd e) (font z) hover tags /\ Forall plain tags)
      (combine (seq i (length words)) words) ns.
  Proof using.
    clear. intros l words i F. revert i. induction F as [|v wd l words H F IH]; intros i; cbn [s_columns].
    - eexists _, _. split; [reflexivity|]. split; [|constructor]. intros k. replace (column i + w + gx)%Qc with (column (Datatypes.S i)) by apply column_S.
      destruct (eq_dec k (Datatypes.S i)) as [->|N].
      + rewrite assoc_cons_same. rewrite (proj2 (Nat.leb_le i (Datatypes.S i))), (proj2 (Nat.leb_le (Datatypes.S i) _)) by (cbn; lia). reflexivity.
      + rewrite assoc_cons_other by auto. destruct (eq_dec k i) as [->|N'].
        * rewrite assoc_cons_same. rewrite (proj2 (Nat.leb_le i i)), (proj2 (Nat.leb_le i _)) by (cbn; lia). reflexivity.
        * rewrite assoc_cons_other by auto. destruct (i <=? k) eqn:A; [|reflexivity]. apply Nat.leb_le in A.
          destruct (k <=? i + 1 + length (@nil item)) eqn:B; [|reflexivity]. apply Nat.leb_le in B. cbn in B. lia.
    - destruct (H (mkBox (column i + w)%Qc 0%Qc (column i + w + gx - (column i + w))%Qc h)) as (hv & tags & E & P). rewrite E. cbn [bind].
      replace (column i + w + gx)%Qc with (column (Datatypes.S i)) by apply column_S. destruct (IH (Datatypes.S i)) as (cols & ns & E1 & E2 & E3). rewrite E1. cbn [bind fst snd].
      eexists _, _. split; [reflexivity|]. split.
      + intros k. rewrite assoc_app, E2. destruct (eq_dec k i) as [->|N].
        * rewrite assoc_cons_same. replace (Datatypes.S i <=? i) with false by (symmetry; apply Nat.leb_gt; lia). cbn [andb].
          rewrite (proj2 (Nat.leb_le i i)), (proj2 (Nat.leb_le i _)) by (cbn; lia). reflexivity.
        * rewrite assoc_cons_other by auto. cbn [assoc]. cbn [length]. replace (Datatypes.S i + 1 + length l) with (i + 1 + Datatypes.S (length l)) by lia.
          replace (Datatypes.S i <=? k) with (i <=? k); [destruct (_ && _); reflexivity|].
          destruct (i <=? k) eqn:A, (Datatypes.S i <=? k) eqn:B; auto; rewrite ?Nat.leb_le, ?Nat.leb_gt in *; lia.
      + cbn [length seq combine]. constructor; auto. exists hv, tags. split; auto. cbn [fst snd]. f_equal. rewrite column_S. f_equal. ring.
  Qed.
  (** The lines *)
  Definition line_step : Qc := (of_nat 4 * (h + sp) - sp + gy)%Qc.
  Definition line (j r : nat) : Qc := (h + gy + of_nat j * line_step + of_nat r * (h + sp))%Qc.
  Lemma put_rows_spec j : forall n row y, y = line j row -> exists here, s_put_rows z j row n y = (here, line j (row + n)) /\
    forall k r, assoc (k, r) here = if eqb k j && ((row <=? r) && (r <? row + n)) then Some (line k r, line k r + h)%Qc else None.
  Proof using.
    clear. induction n as [|n IH]; intros row y E; cbn [s_put_rows].
    - exists []. rewrite Nat.add_0_r, E. split; [reflexivity|]. intros k r. destruct (row <=? r) eqn:A; [|now rewrite andb_false_r].
      replace (r <? row) with false; [now rewrite andb_false_r|]. symmetry. rewrite Nat.leb_le in A. apply Nat.ltb_ge. lia.
    - destruct (IH (S row) (y + h + sp)%Qc) as (here & E1 & E2); [rewrite E; unfold line; rewrite of_nat_S; ring|]. rewrite E1.
      eexists. split; [f_equal; f_equal; lia|]. intros k r. rewrite assoc_app, E2. destruct (eq_dec (k, r) (j, row)) as [Q|N].
      + injection Q as -> ->. rewrite assoc_cons_same, eqb_refl. replace (S row <=? row) with false by (symmetry; apply Nat.leb_gt; lia). cbn [andb].
        rewrite (proj2 (Nat.leb_le row row)), (proj2 (Nat.ltb_lt row _)) by lia. now rewrite E.
      + rewrite assoc_cons_other by auto. cbn [assoc]. destruct (eqb k j) eqn:K; [|reflexivity]. apply eqb_eq in K. subst k. cbn [andb].
        replace (S row + n) with (row + S n) by lia. assert (r <> row) by congruence.
        replace (S row <=? r) with (row <=? r); [destruct (_ && _); reflexivity|].
        destruct (row <=? r) eqn:A, (S row <=? r) eqn:B; auto; rewrite ?Nat.leb_le, ?Nat.leb_gt in *; lia.
  Qed.
  Lemma line_S j : line (S j) 0 = (line j 4 - sp + gy)%Qc.
  Proof. unfold line, line_step. rewrite of_nat_S, of_nat_0. ring. Qed.
  Lemma lines_spec S : forall l words j, Forall2 (noted S true) l words -> exists lines ns,
    s_lines z repr_text repr_visit repr_visited S j l (line j 0) = Ok (lines, ns) /\
    (forall k r, assoc (k, r) lines = if ((j <=? k) && (k <=? j + length l)) && (r <? 4) then Some (line k r, line k r + h)%Qc else None) /\
    Forall2 (fun e t => exists hover tags, t = TextAnnotation (mkBox (- (w + gx))%Qc (line (fst e) 4 - sp)%Qc w gy) (snd e) (font z) hover tags /\ Forall plain tags)
      (combine (seq j (length words)) words) ns.
  Proof using.
    clear. intros l words j F. revert j. induction F as [|v wd l words H F IH]; intros j; cbn [s_lines].
    - destruct (put_rows_spec j s_rows 0 (line j 0) eq_refl) as (here & E1 & E2). rewrite E1. eexists _, _. split; [reflexivity|]. split; [|constructor].
      intros k r. rewrite E2. cbn [length]. rewrite Nat.add_0_r. cbn [Nat.leb andb]. change (0 + s_rows) with 4.
      destruct (eqb k j) eqn:K.
      + apply eqb_eq in K. subst k. rewrite Nat.leb_refl. reflexivity.
      + apply eqb_neq in K. replace ((j <=? k) && (k <=? j)) with false; [reflexivity|]. symmetry. apply andb_false_iff.
        destruct (Nat.leb_spec j k), (Nat.leb_spec k j); auto. lia.
    - destruct (put_rows_spec j s_rows 0 (line j 0) eq_refl) as (here & E1 & E2). rewrite E1. change (0 + s_rows) with 4 in *.
      destruct (H (mkBox (- (w + gx))%Qc (line j 4 - sp)%Qc w (line j 4 - sp + gy - (line j 4 - sp))%Qc)) as (hv & tags & E & P). rewrite E. cbn [bind].
      rewrite <- line_S. destruct (IH (Datatypes.S j)) as (lines & ns & F1 & F2 & F3). rewrite F1. cbn [bind fst snd].
      eexists _, _. split; [reflexivity|]. split.
      + intros k r. rewrite assoc_app, F2, E2. change (0 <=? r) with true. cbn [length andb].
        destruct (r <? 4); [rewrite !andb_true_r|rewrite !andb_false_r; reflexivity].
        destruct (eqb k j) eqn:K.
        * apply eqb_eq in K. subst k. replace (Datatypes.S j <=? j) with false by (symmetry; apply Nat.leb_gt; lia). cbn [andb].
          rewrite Nat.leb_refl, (proj2 (Nat.leb_le j _)) by lia. reflexivity.
        * apply eqb_neq in K. replace (Datatypes.S j + length l) with (j + Datatypes.S (length l)) by lia.
          replace (Datatypes.S j <=? k) with (j <=? k); [destruct (_ && _); reflexivity|].
          destruct (Nat.leb_spec j k), (Nat.leb_spec (Datatypes.S j) k); auto; lia.
      + cbn [length seq combine]. constructor; auto. exists hv, tags. split; auto. cbn [fst snd]. f_equal. f_equal. rewrite line_S. ring.
  Qed.
  Lemma line_rows j r r' : r < r' -> (line j r + h + sp <= line j r')%Qc.
  Proof using R.
    intros H. replace r' with (S r + (r' - S r)) by lia. unfold line. rewrite (of_nat_plus (S r)), of_nat_S.
    pose proof (of_nat_scale (r' - S r) (h + sp)%Qc ltac:(clear - R2 R4; qc_lra)) as K.
    replace ((of_nat r + 1 + of_nat (r' - S r)) * (h + sp))%Qc with (of_nat r * (h + sp) + (h + sp) + of_nat (r' - S r) * (h + sp))%Qc by ring.
    remember (of_nat (r' - S r) * (h + sp))%Qc as u. remember (of_nat r * (h + sp))%Qc as v. remember (of_nat j * line_step)%Qc as x. clear - K. qc_lra.
  Qed.
  Lemma line_next j r : r < 4 -> (line j r + h + gy <= line (S j) 0)%Qc.
  Proof using R.
    intros H. rewrite line_S. pose proof (line_rows j r 4 H) as K. remember (line j r) as u. remember (line j 4) as v. clear - K. qc_lra.
  Qed.
  Lemma line_step_pos : (0 <= line_step)%Qc.
  Proof using R.
    unfold line_step. pose proof (of_nat_scale 4 (h + sp)%Qc ltac:(clear - R2 R4; qc_lra)) as K. remember (of_nat 4 * (h + sp))%Qc as u. clear - K R5. qc_lra.
  Qed.
  Lemma line_mono j j' : j <= j' -> (line j 0 <= line j' 0)%Qc.
  Proof using R.
    intros H. replace j' with (j + (j' - j)) by lia. unfold line. rewrite of_nat_plus.
    pose proof (of_nat_scale (j' - j) line_step line_step_pos) as K.
    replace ((of_nat j + of_nat (j' - j)) * line_step)%Qc with (of_nat j * line_step + of_nat (j' - j) * line_step)%Qc by ring.
    remember (of_nat (j' - j) * line_step)%Qc as u. remember (of_nat j * line_step)%Qc as v. remember (of_nat 0 * (h + sp))%Qc as x. clear - K. qc_lra.
  Qed.
  Lemma line_row j r : (line j 0 <= line j r)%Qc.
  Proof using R.
    destruct r as [|r]; [apply Qcle_refl|]. pose proof (line_rows j 0 (S r) (Nat.lt_0_succ _)) as K. remember (line j 0) as u. remember (line j (S r)) as v. clear - K R2 R4. qc_lra.
  Qed.
  Lemma line_before j r j' r' : r < 4 -> j < j' \/ j = j' /\ r < r' -> (line j r + h + sp <= line j' r')%Qc.
  Proof using R.
    intros H [J|[<- J]]; [|now apply line_rows]. pose proof (line_next j r H) as A. pose proof (line_mono (S j) j' J) as B. pose proof (line_row j' r') as C.
    remember (line j r) as u. remember (line (S j) 0) as v. remember (line j' 0) as x. remember (line j' r') as y. clear - A B C R5. qc_lra.
  Qed.
  Lemma line_top j r : (h + gy <= line j r)%Qc.
  Proof using R.
    pose proof (line_mono 0 j (Nat.le_0_l _)) as A. pose proof (line_row j r) as B. unfold line in A at 1. rewrite of_nat_0 in A.
    replace (h + gy + 0 * line_step + 0 * (h + sp))%Qc with (h + gy)%Qc in A by ring. remember (line j 0) as x. remember (line j r) as y. clear - A B. qc_lra.
  Qed.

  Section Placed.
    Variable n m : nat.
    Variable xs : list (nat * (Qc * Qc)).
    Variable ys : list ((nat * nat) * (Qc * Qc)).
    Hypothesis Hx : forall k, k <= n + 1 -> assoc k xs = Some (column k, column k + w)%Qc.
    Hypothesis Hy : forall j r, j <= m -> r < 4 -> assoc (j, r) ys = Some (line j r, line j r + h)%Qc.
    Lemma s_row_bound c : s_row_of c < 4.
    Proof using. destruct c; cbn; lia. Qed.
    Definition s_place (s : sstate) : nat * (nat * nat) := match s with SAt c i j => (i, (j, s_row_of c)) | SFinal => (n + 1, (0, 0)) end.
    Lemma s_boxes s : s_state n m s -> exists a, s_annotate_state z repr_sstate n xs ys s = Ok a /\
      b_width (s_bounds a) = w /\ b_height (s_bounds a) = h /\ s_text a = selection_name s /\
      b_left (s_bounds a) = column (fst (s_place s)) /\ b_top (s_bounds a) = line (fst (snd (s_place s))) (snd (snd (s_place s))).
    Proof using Hx Hy.
      intros H. unfold s_annotate_state, at_key. destruct s as [c i j|]; cbn [s_state] in H.
      - rewrite Hx by lia. cbn [bind]. rewrite Hy by (try apply s_row_bound; lia). cbn [bind fst snd]. eexists. split; [reflexivity|].
        cbn [s_bounds s_text]. unfold from_boundary. cbn [b_width b_height b_left b_top s_place fst snd].
        remember (line j (s_row_of c)) as u. remember (column i) as v. splits; try ring; auto. destruct c; reflexivity.
      - rewrite Hx by lia. cbn [bind]. rewrite Hy by lia. cbn [bind fst snd]. eexists. split; [reflexivity|].
        cbn [s_bounds s_text]. unfold from_boundary. cbn [b_width b_height b_left b_top s_place fst snd].
        remember (line 0 0) as u. remember (column (n + 1)) as v. splits; try ring; auto.
    Qed.
    Lemma s_apart s s' a a' : s_state n m s -> s_state n m s' -> s <> s' ->
      s_annotate_state z repr_sstate n xs ys s = Ok a -> s_annotate_state z repr_sstate n xs ys s' = Ok a' -> apart gx sp (s_bounds a) (s_bounds a').
    Proof using Hx Hy R.
      intros Hs Hs' N E E'. destruct (s_boxes s Hs) as (b & F & W & H & _ & Pl & Pt). rewrite E in F. injection F as <-.
      destruct (s_boxes s' Hs') as (b' & F & W' & H' & _ & Pl' & Pt'). rewrite E' in F. injection F as <-.
      unfold apart, left_of, above. rewrite W, W', H, H', Pl, Pl', Pt, Pt'.
      assert (D : fst (s_place s) < fst (s_place s') \/ fst (s_place s') < fst (s_place s) \/ fst (s_place s) = fst (s_place s')) by lia.
      destruct D as [D|[D|D]]; [left; now apply column_lt|right; left; now apply column_lt|]. right. right.
      destruct s as [c i j|], s' as [c' i' j'|]; cbn [s_place fst snd s_state] in *; try lia; [|congruence]. subst i'.
      assert (V : (j < j' \/ j = j' /\ s_row_of c < s_row_of c') \/ (j' < j \/ j' = j /\ s_row_of c' < s_row_of c) \/ j = j' /\ s_row_of c = s_row_of c') by lia.
      destruct V as [V|[V|[<- V]]]; [left|right|].
      - apply line_before; auto. apply s_row_bound.
      - apply line_before; auto. apply s_row_bound.
      - destruct c, c'; try discriminate; congruence.
    Qed.
    Lemma s_flows e : s_edge n m e -> exists a ns nd, s_annotate_edge z str_cost repr_sstate repr_sedge n xs ys e = Ok a /\
      s_annotate_state z repr_sstate n xs ys (source e) = Ok ns /\ s_annotate_state z repr_sstate n xs ys (dest e) = Ok nd /\
      flows gx sp a (s_bounds ns) (s_bounds nd) /\ e_text a = str_cost (ecost e) ++ assignment_summary (assignment e).
    Proof using Hx Hy R.
      intros (Hs & Hd & H). destruct (s_boxes _ Hs) as (ns & E1 & W1 & H1 & _ & Pl1 & Pt1). destruct (s_boxes _ Hd) as (nd & E2 & W2 & H2 & _ & Pl2 & Pt2).
      assert (G : (0 <= gx)%Qc) by (apply Qclt_le_weak; exact R3). assert (G' : (0 <= sp)%Qc) by (apply Qclt_le_weak; exact R4).
      assert (G1 : (0 <= w)%Qc) by (apply Qclt_le_weak; exact R1). assert (G2 : (0 <= h)%Qc) by (apply Qclt_le_weak; exact R2).
      assert (U25 : unit_interval (percent 25)) by (split; vm_compute; discriminate).
      assert (RB : forall s, s_row s < s_rows) by (intros [[] ? ?|]; unfold s_rows; cbn; lia).
      assert (Row : forall s, unit_interval (row_alignment (s_row s) s_rows)) by (intros s; apply row_alignment_unit; apply RB).
      assert (Pos : left_of gx (s_bounds ns) (s_bounds nd) \/
                    b_left (s_bounds ns) = b_left (s_bounds nd) /\ above sp (s_bounds ns) (s_bounds nd)).
      { unfold left_of, above. rewrite W1, H1, Pl1, Pl2, Pt1, Pt2. destruct (source e) as [c i j|]; [|contradiction].
        destruct (dest e) as [c' i' j'|]; cbn [s_place fst snd s_state] in *; [|left; apply column_lt; lia].
        destruct H as [->|[<- H]]; [left; apply column_lt; lia|right]. split; auto. apply line_before; [apply s_row_bound|]. destruct H as [->|[<- H]]; [left; lia|now right]. }
      unfold s_annotate_edge. cbv zeta. rewrite E1, E2. cbn [bind].
      match goal with |- context [(1 - ?q)%Qc] => assert (V : unit_interval q); [|set (v := q) in *; clearbody v] end.
      { pose proof (mix4_unit (s_row (dest e)) (s_row (source e)) (RB _) (RB _)) as Mx.
        destruct (source e) as [[] i j|]; try exact Mx; destruct (dest e) as [[] i' j'|]; try exact Mx; split; vm_compute; discriminate. }
      destruct Pos as [Lf|(El & Ab)].
      - assert (Ne : eqb (b_left (s_bounds ns)) (b_left (s_bounds nd)) = false).
        { destruct (eqb (b_left (s_bounds ns)) (b_left (s_bounds nd))) eqn:Q; auto. apply eqb_eq in Q. unfold left_of in Lf. rewrite Q, W1 in Lf. clear - Lf R1 R3. exfalso.
          remember (b_left (s_bounds nd)) as u. clear Hequ. assert (K : (u < u)%Qc) by qc_lra. exact (Qclt_not_eq _ _ K eq_refl). }
        rewrite Ne. eexists _, ns, nd. split; [reflexivity|]. splits; auto.
        apply flows_right; cbn [e_axis start_alignment end_alignment elbow_distance elbow_distance_adjust]; auto.
        + rewrite W1, W2, H1, H2. splits; auto.
        + left. split; [now apply complement|reflexivity].
      - rewrite El, eqb_refl. eexists _, ns, nd. split; [reflexivity|]. splits; auto.
        apply flows_down; cbn [e_axis start_alignment end_alignment elbow_distance elbow_distance_adjust]; auto.
        + congruence.
        + rewrite W1, H1, H2. splits; auto.
        + now apply share.
    Qed.
  End Placed.
End Selection.
