(** C73-C74: the layouts of the three kinds of DAG.
    Specification vocabulary: [LayoutSpec.v] ([well_laid]: boxes that do not touch and edges that run
    forward; [between_columns], [between_lines], [encloses]; [leaves_from], [matched]; the words shown),
    [LayoutBoxes.v] ([roomy]: the sizes are positive and the states' separation is at most the vertical gap),
    [DrawSpec.v] ([drawing], [shows_all]: what an SVG shows). *)

From Coq Require Import String.
From Coq Require Import List Bool Arith ZArith Lia QArith Qcanon Lqa.
From Verif Require Import Base SeqNodes Graph GatedDag PackedSeq PackedSeqProofs Numbered Decisions Html ConstraintDag EditDag SelectionDag
  Drawing DrawSpec DrawBounds DrawingProofs Layouts LayoutSpec LayoutProofs LayoutFrames LayoutEdges LayoutBoxes LayoutConstraint LayoutEdit LayoutSelection
  Properties_Drawing Properties_Edit Properties_Selection.
Import ListNotations.
Close Scope string_scope. Close Scope Qc_scope. Close Scope Q_scope. Close Scope Z_scope. Open Scope nat_scope. Open Scope list_scope.

(** The DAG can be drawn to SVG, and the SVG shows all that is drawn, whatever edges are emphasised. *)
Definition drawn_to_svg {St In} (dSt : EqDec St) (d : dag St decision In) (a : annotator St decision In) : Prop :=
  forall (num : Qc -> text) (emphasized : option (list (edge St decision In))) (with_default_styles with_hover_text : bool) (padding : Qc),
    (forall q, number_text (num q)) ->
    exists calls r ms, render_dag d a true emphasized = Ok calls /\
      perform_all num (new_renderer with_default_styles with_hover_text) calls = Ok r /\
      shows_all num with_hover_text [el "g" []; svg_element num (viewbox r padding)] calls ms /\
      drawing (to_html num r padding) = Some (map (inside [svg_element num (viewbox r padding)]) arrow_marks ++ ms).

Lemma drawn {St In} (dSt : EqDec St) (d : dag St decision In) a width height dx dy name str_cost :
  well_laid str_cost d a width height dx dy name -> (exists xs, extra_annotations a = Ok xs) ->
  (forall s n, annotate_state a s = Ok n -> Forall plain (s_tags n)) ->
  (forall e n, annotate_edge a e = Ok n -> Forall plain (e_tags n)) ->
  (forall xs, extra_annotations a = Ok xs ->
     Forall (fun x => match x with RegionAnnotation _ tags | TextAnnotation _ _ _ _ tags => Forall plain tags end) xs) ->
  Forall plain_call (a_setup a true) -> ordered (edges d) -> drawn_to_svg dSt d a.
Proof.
  intros (_ & _ & W) X Hs He Hx Ha O num emphasized styles hov padding N.
  destruct (proj2 (C70_render_dag_succeeds St decision In dSt _ d a true emphasized)) as [calls K].
  { split; [exact X|]. intros e I. destruct (W e I) as (n & ns & nd & E1 & E2 & E3 & _). splits; eauto. }
  destruct (C71_dag_to_svg St decision In dSt _ num d a emphasized calls styles hov padding N Hs He Hx Ha O K) as (r & ms & R).
  exists calls, r, ms. auto.
Qed.
Lemma words_edge {St In} str_cost (e : edge St decision In) : edge_words str_cost e = str_cost (ecost e) ++ assignment_summary (assignment e).
Proof. unfold edge_words. f_equal. destruct (assignment e) as [[[i c] v]|]; [|reflexivity]. destruct c, v; reflexivity. Qed.
Lemma plain_assignment a : Forall plain (assignment_tags a).
Proof. destruct a as [[[i c] v]|]; [|constructor]. cbn [assignment_tags]. each; [destruct c|destruct v]; apply plainb_plain; vm_compute; reflexivity. Qed.
Lemma plain_setup t : mildb t = true -> Forall plain_call [Css t].
Proof.
  intros H. constructor; [|constructor]. constructor. apply mildb_mild in H. unfold mild, plain_css in *. eapply Forall_impl; [|exact H]. cbn. tauto.
Qed.
Lemma built_ordered {St As In} (dSt : EqDec St) (s t : St) (es : list (edge St As In)) d :
  (do p <- add_edges (partial_starting_from s) es; Ok (partial_finish p t)) = Ok d -> ordered (edges d).
Proof.
  intros H. apply bind_ok_inv in H as [p [H E]]. apply add_edges_inv in H as [[H _] _]; [|apply partial_inv_start]. injection E as <-. exact H.
Qed.
Lemma Forall2_impl {A B} (P Q : A -> B -> Prop) l l' : (forall x y, In x l -> P x y -> Q x y) -> Forall2 P l l' -> Forall2 Q l l'.
Proof. intros H F. induction F; constructor; [apply H; auto; now left|]. apply IHF. intros. apply H; auto. now right. Qed.
Lemma Forall2_right {A B} (Q : B -> Prop) (P : A -> B -> Prop) l l' : (forall x y, P x y -> Q y) -> Forall2 P l l' -> Forall Q l'.
Proof. intros H F. induction F; constructor; eauto. Qed.

(** ** Constraint DAGs *)
Section Constraint.
  Context {M : Type} {md : EqDec M}.
  Context (z : sizes) (repr_text : text -> text) (repr_id : node_id -> text) (repr_node : lnode M -> text) (str_cost : cost -> text)
          (repr_cstate : cstate -> text) (repr_cedge : cedge -> text).
  Context (R : roomy z) (ns : list (node M)) (d : dag cstate decision cinfo) (Hd : construct_constraint_dag (pack ns) = Ok d).
  Let T := labelled ns.
  Let HT : numbered 0 T. Proof. apply labelled_numbered. Qed.
  Let b := constraint_layout z repr_text repr_id repr_node T.
  Let a : annotator cstate decision cinfo :=
    mkAnnotator (c_annotate_state z repr_cstate b) (fun e => Ok (c_annotate_edge z str_cost repr_cedge e)) (Ok (notes b)) (fun svg => if svg then [Css c_css] else []).
  Lemma constraint_annotator_ok : constraint_annotator z repr_text repr_id repr_node str_cost repr_cstate repr_cedge (pack ns) = Ok a.
  Proof using. unfold constraint_annotator. rewrite read_pack. reflexivity. Qed.
  Lemma constraint_dag_edges : Forall (c_edge T) (edges d) /\ ordered (edges d).
  Proof using Hd.
    clear R. unfold construct_constraint_dag in Hd. rewrite read_pack in Hd. cbn [bind] in Hd.
    replace (length (root_sequence (pack ns))) with (length T) in Hd by (unfold T; rewrite pack_labelled; cbn; now rewrite map_length).
    split; [|exact (built_ordered _ _ _ _ _ Hd)]. rewrite (built_edges _ _ _ _ _ Hd). apply LayoutEdges.constraint_edges.
  Qed.
  Lemma constraint_has s : has_edge d s -> c_state T s.
  Proof using Hd. intros (e & I & E). destruct constraint_dag_edges as [F _]. rewrite Forall_forall in F. destruct (F e I) as (H1 & H2 & _). destruct E as [->| ->]; auto. Qed.
  Lemma constraint_laid : well_laid str_cost d a (state_width z) (state_height z) (gap_horizontal z) (state_separation z) constraint_name.
  Proof using Hd R.
    unfold well_laid. splits.
    - intros s H. destruct (c_boxes z repr_text repr_id repr_node repr_cstate R T HT s (constraint_has s H)) as (n & E & W & Hh & Tx & _). exists n. auto.
    - intros s s' n n' H H' N E E'. exact (c_apart z repr_text repr_id repr_node repr_cstate R T HT s s' n n' (constraint_has s H) (constraint_has s' H') N E E').
    - intros e I. destruct constraint_dag_edges as [F _]. rewrite Forall_forall in F.
      destruct (c_flows z repr_text repr_id repr_node str_cost repr_cstate repr_cedge R T HT e (F e I)) as (n1 & n2 & E1 & E2 & Fl).
      exists (c_annotate_edge z str_cost repr_cedge e), n1, n2. splits; auto. rewrite words_edge. unfold c_annotate_edge. destruct (info e); reflexivity.
  Qed.
  Lemma constraint_texts : Forall2 (fun (x : Z * nat * lnode M) t => exists bx tx hover tags, t = TextAnnotation bx tx (font z) hover tags /\ leaf_words repr_text (snd x) tx /\
      Forall plain tags /\
      between_columns d a (state_separation z) (fun s => exists c lvl, s = CAt c (fst (fst x)) (snd (fst x)) lvl)
        (fun s => exists c lvl, s = CAt c (fst (fst x)) (S (snd (fst x))) lvl) bx) (leaves_from (-1)%Z 0 T) (notes b).
  Proof using Hd R.
    eapply Forall2_impl; [|exact (c_notes z repr_text repr_id repr_node R T HT)]. intros x t _ (bx & tx & hover & tags & -> & W & P & B1 & B2 & B3 & B4).
    exists bx, tx, hover, tags. splits; auto. intros s n H E. cbn [a annotate_state] in E.
    destruct (c_boxes z repr_text repr_id repr_node repr_cstate R T HT s (constraint_has s H)) as (n' & E' & W1 & H1 & _ & T1 & L1).
    fold b in E'. rewrite E in E'. injection E' as <-. destruct R as (R1 & R2 & R3 & R4 & R5). splits.
    - unfold above. rewrite B3, B4, T1. unfold c_shift, c_top. destruct s as [c q i lvl|]; [|clear; qc_lra].
      assert (K1 : (0 <= (of_nat 2 * state_height z + state_separation z + gap_vertical z) * of_nat lvl)%Qc).
      { rewrite Qcmult_comm. apply of_nat_scale. pose proof (of_nat_scale 2 (state_height z) ltac:(clear - R2; qc_lra)) as K. remember (of_nat 2 * state_height z)%Qc as u. clear - K R4 R5. qc_lra. }
      assert (K2 : (0 <= of_nat (c_row (CAt c q i lvl)) * (state_height z + state_separation z))%Qc) by (apply of_nat_scale; clear - R2 R4; qc_lra).
      remember ((of_nat 2 * state_height z + state_separation z + gap_vertical z) * of_nat lvl)%Qc as u.
      remember (of_nat (c_row (CAt c q i lvl)) * (state_height z + state_separation z))%Qc as v. clear - K1 K2 R2 R4 R5. qc_lra.
    - intros (c & lvl & ->). destruct L1 as [I L1]. rewrite B1, L1, W1. apply (c_at z repr_text repr_id repr_node). { unfold roomy; auto. } { exact HT. } exact I.
    - intros (c & lvl & ->). destruct L1 as [I L1]. now rewrite B2, L1.
  Qed.
  Lemma constraint_drawn : drawn_to_svg _ d a.
  Proof using Hd R.
    apply (drawn _ d a _ _ _ _ _ _ constraint_laid); cbn [a extra_annotations annotate_state annotate_edge a_setup].
    - eauto.
    - intros s n E. unfold c_annotate_state in E. apply bind_ok_inv in E as [bx [_ E]]. apply Ok_injective in E. subst n. constructor.
    - intros e n E. apply Ok_injective in E. subst n. unfold c_annotate_edge. destruct (info e); cbn [e_tags]; apply plain_assignment.
    - intros xs E. apply Ok_injective in E. subst xs. eapply Forall2_right; [|exact constraint_texts]. intros x t (bx & tx & hover & tags & -> & _ & P & _). exact P.
    - apply plain_setup. vm_compute. reflexivity.
    - apply constraint_dag_edges.
  Qed.
End Constraint.

(** ** C73 (constraint DAG). *)
Theorem C73_constraint_layout :
  forall (M : Type) (md : EqDec M) (z : sizes) (repr_text : text -> text) (repr_id : node_id -> text) (repr_node : lnode M -> text)
         (str_cost : cost -> text) (repr_state : cstate -> text) (repr_edge : cedge -> text) (prototype : list (node M)) d,
    roomy z -> construct_constraint_dag (pack prototype) = Ok d ->
    exists a, constraint_annotator z repr_text repr_id repr_node str_cost repr_state repr_edge (pack prototype) = Ok a /\
      well_laid str_cost d a (state_width z) (state_height z) (gap_horizontal z) (state_separation z) constraint_name /\
      drawn_to_svg _ d a.
Proof.
  intros M md z rt ri rn sc rs re ns d R Hd. eexists. splits; [apply constraint_annotator_ok|now apply constraint_laid|now apply constraint_drawn].
Qed.
Print Assumptions C73_constraint_layout.
(** ** C74 (constraint DAG).  One text for every leaf of the prototype, in reading order, above all states and
    exactly between the columns of the two positions around the leaf. *)
Theorem C74_constraint_texts :
  forall (M : Type) (md : EqDec M) (z : sizes) (repr_text : text -> text) (repr_id : node_id -> text) (repr_node : lnode M -> text)
         (str_cost : cost -> text) (repr_state : cstate -> text) (repr_edge : cedge -> text) (prototype : list (node M)) d a,
    roomy z -> construct_constraint_dag (pack prototype) = Ok d ->
    constraint_annotator z repr_text repr_id repr_node str_cost repr_state repr_edge (pack prototype) = Ok a ->
    exists texts, extra_annotations a = Ok texts /\
      Forall2 (fun (x : Z * nat * lnode M) t => let '(q, i, leaf) := x in
          exists bx words hover tags, t = TextAnnotation bx words (font z) hover tags /\ leaf_words repr_text leaf words /\
            between_columns d a (state_separation z) (fun s => exists c lvl, s = CAt c q i lvl) (fun s => exists c lvl, s = CAt c q (S i) lvl) bx)
        (leaves_from (-1)%Z 0 (labelled prototype)) texts.
Proof.
  intros M md z rt ri rn sc rs re ns d a R Hd Ha. rewrite constraint_annotator_ok in Ha. apply Ok_injective in Ha. subst a.
  eexists. split; [reflexivity|]. eapply Forall2_impl; [|apply (constraint_texts z rt ri rn sc rs re R ns d Hd)].
  intros [[q i] x] t _ (bx & tx & hover & tags & E & W & _ & B). exists bx, tx, hover, tags. auto.
Qed.
Print Assumptions C74_constraint_texts.

(** ** Edit DAGs *)
Section Edit.
  Context {M : Type} {md : EqDec M}.
  Context (z : sizes) (repr_text : text -> text) (repr_id : node_id -> text) (repr_node : lnode M -> text) (str_cost : cost -> text)
          (repr_estate : estate -> text) (repr_eedge : eedge -> text) (P : parameters).
  Context (R : roomy z) (ns ts : list (node M)) (d : dag estate decision (option einfo)) (Hd : construct_edit_dag P (pack ns) (pack ts) = Ok d).
  Let T := labelled ns.
  Let T' := labelled ts.
  Let HT : numbered 0 T. Proof. apply labelled_numbered. Qed.
  Let HT' : numbered 0 T'. Proof. apply labelled_numbered. Qed.
  Let X := edit_x z repr_text repr_id repr_node T.
  Let Y := edit_y z repr_text repr_id repr_node T'.
  Let a : annotator estate decision (option einfo) :=
    mkAnnotator (e_annotate_state z repr_estate X Y) (e_annotate_edge z str_cost repr_estate repr_eedge X Y) (e_extra X Y (subproblems T T'))
      (fun svg => if svg then [Css e_css] else []).
  Lemma edit_render_data_ok : edit_render_data (pack ns) (pack ts) = Ok (subproblems T T').
  Proof using. unfold edit_render_data. rewrite !read_pack. reflexivity. Qed.
  Lemma edit_annotator_ok : edit_annotator z repr_text repr_id repr_node str_cost repr_estate repr_eedge (pack ns) (pack ts) (subproblems T T') = Ok a.
  Proof using. unfold edit_annotator. rewrite !read_pack. reflexivity. Qed.
  Lemma edit_dag_edges : Forall (e_edge T T') (edges d) /\ ordered (edges d).
  Proof using Hd.
    clear R. unfold construct_edit_dag in Hd. rewrite !read_pack in Hd. cbn [bind] in Hd.
    replace (length (root_sequence (pack ns))) with (length T) in Hd by (unfold T; rewrite pack_labelled; cbn; now rewrite map_length).
    replace (length (root_sequence (pack ts))) with (length T') in Hd by (unfold T'; rewrite pack_labelled; cbn; now rewrite map_length).
    split; [|exact (built_ordered _ _ _ _ _ Hd)]. rewrite (built_edges _ _ _ _ _ Hd). apply LayoutEdges.edit_edges.
  Qed.
  Lemma edit_has s : has_edge d s -> e_state T T' s.
  Proof using Hd. intros (e & I & E). destruct edit_dag_edges as [F _]. rewrite Forall_forall in F. destruct (F e I) as (H1 & H2 & _). destruct E as [->| ->]; auto. Qed.
  Lemma edit_laid : well_laid str_cost d a (state_width z) (state_height z) (gap_horizontal z) (state_separation z) edit_name.
  Proof using Hd R.
    unfold well_laid. splits.
    - intros s H. destruct (e_boxes z repr_text repr_id repr_node repr_estate R T T' HT HT' s (edit_has s H)) as (n & E & W & Hh & Tx & _). exists n. auto.
    - intros s s' n n' H H' N E E'. exact (e_apart z repr_text repr_id repr_node repr_estate R T T' HT HT' s s' n n' (edit_has s H) (edit_has s' H') N E E').
    - intros e I. destruct edit_dag_edges as [F _]. rewrite Forall_forall in F.
      destruct (e_flows z repr_text repr_id repr_node str_cost repr_estate repr_eedge R T T' HT HT' e (F e I)) as (n & n1 & n2 & E & E1 & E2 & Fl & Tx).
      exists n, n1, n2. splits; auto. now rewrite words_edge.
  Qed.
  Definition holds (q h : Z) (bx : box) : Prop :=
    forall c1 c2 i j n, has_edge d (EAt c1 c2 q i h j) -> annotate_state a (EAt c1 c2 q i h j) = Ok n -> encloses bx (s_bounds n).
  Lemma edit_regions : exists regions, mapM (region_of X Y) (subproblems T T') = Ok regions /\
    Forall2 (fun (s : Z * Z) r => exists bx, r = RegionAnnotation bx [] /\ holds (fst s) (snd s) bx) (subproblems T T') regions.
  Proof using Hd R.
    assert (G : forall l, incl l (subproblems T T') -> exists regions, mapM (region_of X Y) l = Ok regions /\
      Forall2 (fun (s : Z * Z) r => exists bx, r = RegionAnnotation bx [] /\ holds (fst s) (snd s) bx) l regions); [|apply G; apply incl_refl].
    induction l as [|[q h] l IH]; intros I; cbn [mapM]; [exists []; split; auto; constructor|].
    destruct (proj1 (subproblems_matched T T' q h) (I _ (or_introl eq_refl))) as (l1 & l2 & Ma).
    destruct (e_regions z repr_text repr_id repr_node repr_estate R T T' HT HT' q h l1 l2 Ma) as (bx & E & H).
    fold X Y in E. rewrite E. cbn [bind]. destruct IH as (rs & E2 & F); [intros x Hx; apply I; now right|]. rewrite E2. cbn [bind].
    eexists. split; [reflexivity|]. constructor; auto. exists bx. split; auto. intros c1 c2 i j n He En. eapply H; [apply edit_has; exact He|exact En].
  Qed.
  Lemma edit_xtexts : Forall2 (fun (x : Z * nat * lnode M) t => exists bx tx hover tags, t = TextAnnotation bx tx (font z) hover tags /\ leaf_words repr_text (snd x) tx /\
      Forall plain tags /\
      between_columns d a (gap_vertical z) (fun s => exists c1 c2 h j, s = EAt c1 c2 (fst (fst x)) (snd (fst x)) h j)
        (fun s => exists c1 c2 h j, s = EAt c1 c2 (fst (fst x)) (S (snd (fst x))) h j) bx) (leaves_from (-1)%Z 0 T) (notes X).
  Proof using Hd R.
    eapply Forall2_impl; [|exact (e_xnotes z repr_text repr_id repr_node R T HT)]. intros x t _ (bx & tx & hover & tags & -> & W & Pl & B1 & B2 & B3 & B4).
    fold X in B1, B2. exists bx, tx, hover, tags. splits; auto. intros s n H E. cbn [a annotate_state] in E.
    destruct (e_boxes z repr_text repr_id repr_node repr_estate R T T' HT HT' s (edit_has s H)) as (n' & E' & W1 & H1 & _ & L1).
    fold X Y in E', L1. rewrite E in E'. injection E' as <-. assert (R' := R). destruct R' as (R1 & R2 & R3 & R4 & R5).
    assert (Top : (0 <= b_top (s_bounds n))%Qc).
    { destruct s as [c1 c2 q i g j|].
      - destruct L1 as (_ & J & _ & ->). apply (ey_at z repr_text repr_id repr_node R T' HT' g j _ J (row_bound z _ _)).
      - destruct L1 as [_ ->]. destruct (ey_at z repr_text repr_id repr_node R T' HT' (-1)%Z 0 0) as (_ & K1 & K2 & K3).
        { apply (seq_slot T' (-1)%Z 0 T' 0 (seq_root T')). lia. } { lia. } fold Y in K1, K2, K3.
        rewrite K2 in K3. remember (fst (interval Y ((-1)%Z, 0, 0))) as u. remember (cursor Y) as v. clear - K1 K3 R2 R4 R5. qc_lra. }
    splits.
    - unfold above. rewrite B3, B4. remember (b_top (s_bounds n)) as u. clear - Top. qc_lra.
    - intros (c1 & c2 & g & j & ->). destruct L1 as (I & _ & L1 & _). rewrite B1, L1, W1. apply (ex_at z repr_text repr_id repr_node R T HT _ _ I).
    - intros (c1 & c2 & g & j & ->). destruct L1 as (I & _ & L1 & _). now rewrite B2, L1.
  Qed.
  Lemma edit_ytexts : Forall2 (fun (x : Z * nat * lnode M) t => exists bx tx hover tags, t = TextAnnotation bx tx (font z) hover tags /\ target_words repr_text repr_id (snd x) tx /\
      Forall plain tags /\
      between_lines d a (gap_horizontal z) (fun s => exists c1 c2 q i, s = EAt c1 c2 q i (fst (fst x)) (snd (fst x)))
        (fun s => exists c1 c2 q i, s = EAt c1 c2 q i (fst (fst x)) (S (snd (fst x)))) bx) (leaves_from (-1)%Z 0 T') (notes Y).
  Proof using Hd R.
    eapply Forall2_impl; [|exact (e_ynotes z repr_text repr_id repr_node R T' HT')]. intros x t _ (bx & tx & hover & tags & -> & W & Pl & B1 & B2 & B3 & B4).
    fold Y in B1, B2. exists bx, tx, hover, tags. splits; auto. intros s n H E. cbn [a annotate_state] in E.
    destruct (e_boxes z repr_text repr_id repr_node repr_estate R T T' HT HT' s (edit_has s H)) as (n' & E' & W1 & H1 & _ & L1).
    fold X Y in E', L1. rewrite E in E'. injection E' as <-. assert (R' := R). destruct R' as (R1 & R2 & R3 & R4 & R5).
    assert (Left : (gap_horizontal z <= b_left (s_bounds n))%Qc).
    { destruct s as [c1 c2 q i g j|].
      - destruct L1 as (I & _ & -> & _). destruct (ex_at z repr_text repr_id repr_node R T HT q i I) as (_ & K & _). fold X in K.
        remember (fst (interval X (q, i, 0))) as u. clear - K R1. qc_lra.
      - destruct L1 as [-> _]. destruct (ex_at z repr_text repr_id repr_node R T HT (-1)%Z 0) as (_ & K1 & K2 & K3).
        { apply (seq_slot T (-1)%Z 0 T 0 (seq_root T)). lia. } fold X in K1, K2, K3.
        rewrite K2 in K3. remember (fst (interval X ((-1)%Z, 0, 0))) as u. remember (cursor X) as v. clear - K1 K3 R1 R3. qc_lra. }
    splits.
    - unfold left_of. rewrite B3, B4. remember (b_left (s_bounds n)) as u. clear - Left. qc_lra.
    - intros (c1 & c2 & q & i & ->). destruct L1 as (_ & J & _ & L1). unfold above. rewrite B1, L1, H1. set (r := e_row_of c1 c2).
      destruct (ey_at z repr_text repr_id repr_node R T' HT' _ _ r J (row_bound z _ _)) as (_ & _ & K & _). fold Y in K.
      destruct (Nat.eq_dec r 7) as [E7|N7].
      + rewrite <- E7. rewrite K. remember (fst (interval Y (fst (fst x), snd (fst x), r))) as u. clear. qc_lra.
      + assert (r < 7) by (pose proof (row_bound z c1 c2); subst r; lia).
        pose proof (ey_rows z repr_text repr_id repr_node R T' HT' _ _ r 7 J H0 ltac:(lia)) as K2. fold Y in K2.
        destruct (ey_at z repr_text repr_id repr_node R T' HT' _ _ 7 J ltac:(lia)) as (_ & _ & K3 & _). fold Y in K3. rewrite K3. rewrite K in K2.
        remember (fst (interval Y (fst (fst x), snd (fst x), 7))) as u. remember (fst (interval Y (fst (fst x), snd (fst x), r))) as v. clear - K2 R2 R4. qc_lra.
    - intros (c1 & c2 & q & i & ->). destruct L1 as (_ & J & _ & L1). unfold above. rewrite L1. set (r := e_row_of c1 c2). rewrite B2.
      destruct (Nat.eq_dec r 0) as [->|N0]; [remember (fst (interval Y (fst (fst x), S (snd (fst x)), 0))) as u; clear; qc_lra|].
      pose proof (ey_rows z repr_text repr_id repr_node R T' HT' _ _ 0 r J ltac:(lia) (row_bound z _ _)) as K2. fold Y in K2.
      destruct (ey_at z repr_text repr_id repr_node R T' HT' _ _ 0 J ltac:(lia)) as (_ & _ & K3 & _). fold Y in K3. rewrite K3 in K2.
      remember (fst (interval Y (fst (fst x), S (snd (fst x)), 0))) as u. remember (fst (interval Y (fst (fst x), S (snd (fst x)), r))) as v. clear - K2 R2 R4. qc_lra.
  Qed.
  Lemma edit_drawn : drawn_to_svg _ d a.
  Proof using Hd R.
    destruct edit_regions as (regions & E1 & F1).
    apply (drawn _ d a _ _ _ _ _ _ edit_laid); cbn [a extra_annotations annotate_state annotate_edge a_setup].
    - unfold e_extra. rewrite E1. cbn [bind]. eauto.
    - intros s n E. unfold e_annotate_state in E. apply bind_ok_inv in E as [bx [_ E]]. apply Ok_injective in E. subst n. constructor.
    - intros e n E. unfold e_annotate_edge in E. cbv zeta in E. apply bind_ok_inv in E as [n1 [_ E]]. apply bind_ok_inv in E as [n2 [_ E]].
      assert (G : e_tags n = [chars "from_" ++ align_name (source e); chars "to_" ++ align_name (dest e); chars "from_" ++ conf_name (source e); chars "to_" ++ conf_name (dest e)] ++
        match info e with Some f => [action_name (act f)] | None => [] end ++ assignment_tags (assignment e)).
      { destruct (eqb _ _) in E; destruct (info e) as [[? ? [] ?]|]; apply Ok_injective in E; subst n; reflexivity. }
      rewrite G. clear. repeat (apply Forall_app; split).
      + assert (A : forall t, plain (align_name t)) by (intros [[] [] ? ? ? ?|]; apply plainb_plain; vm_compute; reflexivity).
        assert (C : forall t, plain (conf_name t)) by (intros [[] [] ? ? ? ?|]; apply plainb_plain; vm_compute; reflexivity).
        assert (F : plain (chars "from_") /\ plain (chars "to_")) by (split; apply plainb_plain; vm_compute; reflexivity). destruct F as [F1 F2].
        apply Forall_cons; [|apply Forall_cons; [|apply Forall_cons; [|apply Forall_cons; [|apply Forall_nil]]]]; apply plain_app; auto.
      + destruct (info e) as [[? ? c ?]|]; [|apply Forall_nil]. apply Forall_cons; [|apply Forall_nil]. destruct c; apply plainb_plain; vm_compute; reflexivity.
      + apply plain_assignment.
    - intros xs E. unfold e_extra in E. rewrite E1 in E. cbn [bind] in E. apply Ok_injective in E. subst xs. repeat (apply Forall_app; split).
      + eapply Forall2_right; [|exact F1]. intros x t (bx & -> & _). constructor.
      + eapply Forall2_right; [|exact edit_xtexts]. intros x t (bx & tx & hover & tags & -> & _ & Pl & _). exact Pl.
      + eapply Forall2_right; [|exact edit_ytexts]. intros x t (bx & tx & hover & tags & -> & _ & Pl & _). exact Pl.
    - apply plain_setup. vm_compute. reflexivity.
    - apply edit_dag_edges.
  Qed.
End Edit.

(** ** C73 (edit DAG). *)
Theorem C73_edit_layout :
  forall (M : Type) (md : EqDec M) (z : sizes) (repr_text : text -> text) (repr_id : node_id -> text) (repr_node : lnode M -> text)
         (str_cost : cost -> text) (repr_state : estate -> text) (repr_edge : eedge -> text) (costs : parameters) (prototype target : list (node M)) d,
    roomy z -> construct_edit_dag costs (pack prototype) (pack target) = Ok d ->
    exists render_data a, edit_render_data (pack prototype) (pack target) = Ok render_data /\
      edit_annotator z repr_text repr_id repr_node str_cost repr_state repr_edge (pack prototype) (pack target) render_data = Ok a /\
      well_laid str_cost d a (state_width z) (state_height z) (gap_horizontal z) (state_separation z) edit_name /\
      drawn_to_svg _ d a.
Proof.
  intros M md z rt ri rn sc rs re P ns ts d R Hd. eexists _, _.
  splits; [apply edit_render_data_ok|apply edit_annotator_ok|eapply edit_laid; eassumption|eapply edit_drawn; eassumption].
Qed.
Print Assumptions C73_edit_layout.
(** The render data: the pairs of sequences that are aligned with each other. *)
Theorem C74_edit_render_data :
  forall (M : Type) (md : EqDec M) (prototype target : list (node M)),
    exists render_data, edit_render_data (pack prototype) (pack target) = Ok render_data /\
      forall q h, In (q, h) render_data <-> exists l l', matched (labelled prototype) (labelled target) q h l l'.
Proof. intros M md ns ts. eexists. split; [apply edit_render_data_ok|]. intros q h. apply subproblems_matched. Qed.
Print Assumptions C74_edit_render_data.
(** ** C74 (edit DAG).  First a region for every pair of aligned sequences, which encloses all its states; then one
    text for every leaf of the prototype, above all states and between the columns of its two positions; then
    one for every leaf of the target, to the left of all states and between the lines of its two positions. *)
Theorem C74_edit_extras :
  forall (M : Type) (md : EqDec M) (z : sizes) (repr_text : text -> text) (repr_id : node_id -> text) (repr_node : lnode M -> text)
         (str_cost : cost -> text) (repr_state : estate -> text) (repr_edge : eedge -> text) (costs : parameters) (prototype target : list (node M)) d render_data a,
    roomy z -> construct_edit_dag costs (pack prototype) (pack target) = Ok d ->
    edit_render_data (pack prototype) (pack target) = Ok render_data ->
    edit_annotator z repr_text repr_id repr_node str_cost repr_state repr_edge (pack prototype) (pack target) render_data = Ok a ->
    exists regions texts texts', extra_annotations a = Ok (regions ++ texts ++ texts') /\
      Forall2 (fun (s : Z * Z) r => let '(q, h) := s in exists bx, r = RegionAnnotation bx [] /\
          forall c1 c2 i j n, has_edge d (EAt c1 c2 q i h j) -> annotate_state a (EAt c1 c2 q i h j) = Ok n -> encloses bx (s_bounds n))
        render_data regions /\
      Forall2 (fun (x : Z * nat * lnode M) t => let '(q, i, leaf) := x in
          exists bx words hover tags, t = TextAnnotation bx words (font z) hover tags /\ leaf_words repr_text leaf words /\
            between_columns d a (gap_vertical z) (fun s => exists c1 c2 h j, s = EAt c1 c2 q i h j) (fun s => exists c1 c2 h j, s = EAt c1 c2 q (S i) h j) bx)
        (leaves_from (-1)%Z 0 (labelled prototype)) texts /\
      Forall2 (fun (x : Z * nat * lnode M) t => let '(h, j, leaf) := x in
          exists bx words hover tags, t = TextAnnotation bx words (font z) hover tags /\ target_words repr_text repr_id leaf words /\
            between_lines d a (gap_horizontal z) (fun s => exists c1 c2 q i, s = EAt c1 c2 q i h j) (fun s => exists c1 c2 q i, s = EAt c1 c2 q i h (S j)) bx)
        (leaves_from (-1)%Z 0 (labelled target)) texts'.
Proof.
  intros M md z rt ri rn sc rs re P ns ts d rd a R Hd Hr Ha. rewrite edit_render_data_ok in Hr. apply Ok_injective in Hr. subst rd.
  rewrite edit_annotator_ok in Ha. apply Ok_injective in Ha. subst a.
  destruct (edit_regions z rt ri rn sc rs re P R ns ts d Hd) as (regions & E1 & F1).
  eexists regions, _, _. splits.
  - cbn [extra_annotations]. unfold e_extra. rewrite E1. reflexivity.
  - eapply Forall2_impl; [|exact F1]. intros [q h] r _ (bx & E & H). exists bx. split; [exact E|exact H].
  - eapply Forall2_impl; [|apply (edit_xtexts z rt ri rn sc rs re P R ns ts d Hd)].
    intros [[q i] x] t _ (bx & tx & hover & tags & E & W & _ & B). exists bx, tx, hover, tags. auto.
  - eapply Forall2_impl; [|apply (edit_ytexts z rt ri rn sc rs re P R ns ts d Hd)].
    intros [[q i] x] t _ (bx & tx & hover & tags & E & W & _ & B). exists bx, tx, hover, tags. auto.
Qed.
Print Assumptions C74_edit_extras.

(** ** Selection DAGs *)
Section Selection.
  Context {M : Type} {md : EqDec M}.
  Context (z : sizes) (repr_text : text -> text) (str_cost : cost -> text)
          (repr_sstate : sstate -> text) (repr_sedge : sedge -> text) (repr_visit : item -> text) (repr_visited : item -> text -> M -> text)
          (U : text -> M -> utilities).
  Context (R : roomy z) (ns ts : list (node M)) (d : dag sstate decision (option sinfo)) (Hd : construct_selection_dag U (pack ns) (pack ts) = Ok d).
  Let ps := flat_map (lvisit true) (labelled ns).
  Let qs := flat_map (lvisit true) (labelled ts).
  Let n := length ps.
  Let m := length qs.
  Let words := flat_map (visit_words false repr_text repr_visit) (labelled ns).
  Let words' := flat_map (visit_words true repr_text repr_visit) (labelled ts).
  Lemma selection_annotator_ok : exists xs ys tx ty,
    selection_annotator z repr_text str_cost repr_sstate repr_sedge repr_visit repr_visited (pack ns) (pack ts) =
      Ok (mkAnnotator (s_annotate_state z repr_sstate n xs ys) (s_annotate_edge z str_cost repr_sstate repr_sedge n xs ys) (Ok (tx ++ ty)) (fun svg => if svg then [Css s_css] else [])) /\
    (forall k, k <= n + 1 -> assoc k xs = Some (column z k, column z k + state_width z)%Qc) /\
    (forall j r, j <= m -> r < 4 -> assoc (j, r) ys = Some (line z j r, line z j r + state_height z)%Qc) /\
    Forall2 (fun e t => exists hover tags, t = TextAnnotation (mkBox (column z (fst e) + state_width z)%Qc 0%Qc (gap_horizontal z) (state_height z)) (snd e) (font z) hover tags /\ Forall plain tags)
      (counted words) tx /\
    Forall2 (fun e t => exists hover tags, t = TextAnnotation (mkBox (- (state_width z + gap_horizontal z))%Qc (line z (fst e) 4 - state_separation z)%Qc (state_width z) (gap_vertical z)) (snd e) (font z) hover tags /\ Forall plain tags)
      (counted words') ty.
  Proof using.
    clear. destruct (columns_spec z repr_text repr_visit repr_visited (pack ns) ps words 0 (visits_noted z repr_text repr_visit repr_visited false ns)) as (xs & tx & E1 & E2 & E3).
    destruct (lines_spec z repr_text repr_visit repr_visited (pack ts) qs words' 0 (visits_noted z repr_text repr_visit repr_visited true ts)) as (ys & ty & F1 & F2 & F3).
    exists xs, ys, tx, ty. splits; auto.
    - unfold selection_annotator. rewrite !in_order_pack. cbn [bind]. fold ps qs.
      replace 0%Qc with (column z 0) by (unfold column; rewrite of_nat_0; ring). rewrite E1. cbn [bind].
      replace (y_offset_matching z) with (line z 0 0) by (unfold line, y_offset_matching; rewrite of_nat_0; ring). rewrite F1. reflexivity.
    - intros k K. rewrite E2. match goal with |- (if (0 <=? k) && ?c then _ else _) = _ => assert (L : c = true) by (apply Nat.leb_le; unfold n in K; unfold item in *; lia); rewrite L end. reflexivity.
    - intros j r J Hr. rewrite F2. match goal with |- (if (0 <=? j) && ?c && _ then _ else _) = _ => assert (L : c = true) by (apply Nat.leb_le; unfold m in J; unfold item in *; lia); rewrite L end.
      rewrite (proj2 (Nat.ltb_lt r 4) Hr). reflexivity.
  Qed.
  Lemma selection_dag_edges : Forall (s_edge n m) (edges d) /\ ordered (edges d).
  Proof using Hd.
    clear R. unfold construct_selection_dag in Hd. rewrite !in_order_pack in Hd. cbn [bind] in Hd. fold ps qs in Hd.
    apply bind_ok_inv in Hd as [es [E Hd']]. split; [|exact (built_ordered _ _ _ _ _ Hd')]. rewrite (built_edges _ _ _ _ _ Hd').
    apply Forall_app. split.
    - refine (prototypes_edges _ _ _ _ _ qs eq_refl ps None 0 es eq_refl E).
    - rewrite app_length, map_length, Nat.add_1_r. apply finishing_edges.
  Qed.
  Lemma selection_has s : has_edge d s -> s_state n m s.
  Proof using Hd. intros (e & I & E). destruct selection_dag_edges as [F _]. rewrite Forall_forall in F. destruct (F e I) as (H1 & H2 & _). destruct E as [->| ->]; auto. Qed.
  Section Placed.
    Context (xs : list (nat * (Qc * Qc))) (ys : list ((nat * nat) * (Qc * Qc))) (tx ty : list extra_annotation).
    Let a : annotator sstate decision (option sinfo) :=
      mkAnnotator (s_annotate_state z repr_sstate n xs ys) (s_annotate_edge z str_cost repr_sstate repr_sedge n xs ys) (Ok (tx ++ ty)) (fun svg => if svg then [Css s_css] else []).
    Hypothesis Hx : forall k, k <= n + 1 -> assoc k xs = Some (column z k, column z k + state_width z)%Qc.
    Hypothesis Hy : forall j r, j <= m -> r < 4 -> assoc (j, r) ys = Some (line z j r, line z j r + state_height z)%Qc.
    Hypothesis Ht : Forall2 (fun e t => exists hover tags, t = TextAnnotation (mkBox (column z (fst e) + state_width z)%Qc 0%Qc (gap_horizontal z) (state_height z)) (snd e) (font z) hover tags /\ Forall plain tags)
      (counted words) tx.
    Hypothesis Ht' : Forall2 (fun e t => exists hover tags, t = TextAnnotation (mkBox (- (state_width z + gap_horizontal z))%Qc (line z (fst e) 4 - state_separation z)%Qc (state_width z) (gap_vertical z)) (snd e) (font z) hover tags /\ Forall plain tags)
      (counted words') ty.
    Lemma selection_laid : well_laid str_cost d a (state_width z) (state_height z) (gap_horizontal z) (state_separation z) selection_name.
    Proof using Hd R Hx Hy.
      unfold well_laid. splits.
      - intros s H. destruct (s_boxes z repr_sstate n m xs ys Hx Hy s (selection_has s H)) as (x & E & W & Hh & Tx & _). exists x. auto.
      - intros s s' x x' H H' N E E'. exact (s_apart z repr_sstate R n m xs ys Hx Hy s s' x x' (selection_has s H) (selection_has s' H') N E E').
      - intros e I. destruct selection_dag_edges as [F _]. rewrite Forall_forall in F.
        destruct (s_flows z str_cost repr_sstate repr_sedge R n m xs ys Hx Hy e (F e I)) as (x & n1 & n2 & E & E1 & E2 & Fl & Tx).
        exists x, n1, n2. splits; auto. now rewrite words_edge.
    Qed.
    Lemma selection_xtexts : Forall2 (fun (x : nat * text) t => let '(k, words) := x in
        exists bx hover tags, t = TextAnnotation bx words (font z) hover tags /\
          between_columns d a (gap_vertical z) (fun s => exists c j, s = SAt c k j) (fun s => exists c j, s = SAt c (S k) j) bx) (counted words) tx.
    Proof using Hd R Hx Hy Ht.
      eapply Forall2_impl; [|exact Ht]. intros [k wd] t _ (hover & tags & -> & _). cbn [fst snd]. eexists _, hover, tags. split; [reflexivity|].
      intros s x H E. cbn [a annotate_state] in E. destruct (s_boxes z repr_sstate n m xs ys Hx Hy s (selection_has s H)) as (x' & E' & W1 & H1 & _ & L1 & T1).
      rewrite E in E'. injection E' as <-. cbn [b_left b_width]. splits.
      - unfold above. cbn [b_top b_height]. rewrite T1. pose proof (line_top z R (fst (snd (s_place n s))) (snd (snd (s_place n s)))) as K.
        remember (line z (fst (snd (s_place n s))) (snd (snd (s_place n s)))) as u. clear - K. qc_lra.
      - intros (c & j & ->). now rewrite L1, W1.
      - intros (c & j & ->). rewrite L1. cbn [s_place fst]. apply column_S.
    Qed.
    Lemma selection_ytexts : Forall2 (fun (x : nat * text) t => let '(k, words) := x in
        exists bx hover tags, t = TextAnnotation bx words (font z) hover tags /\
          between_lines d a (gap_horizontal z) (fun s => exists c i, s = SAt c i k) (fun s => exists c i, s = SAt c i (S k)) bx) (counted words') ty.
    Proof using Hd R Hx Hy Ht'.
      eapply Forall2_impl; [|exact Ht']. intros [k wd] t _ (hover & tags & -> & _). cbn [fst snd]. eexists _, hover, tags. split; [reflexivity|].
      intros s x H E. cbn [a annotate_state] in E. destruct (s_boxes z repr_sstate n m xs ys Hx Hy s (selection_has s H)) as (x' & E' & W1 & H1 & _ & L1 & T1).
      rewrite E in E'. injection E' as <-. assert (R' := R). destruct R' as (R1 & R2 & R3 & R4 & R5). splits.
      - unfold left_of. cbn [b_left b_width]. rewrite L1. pose proof (of_nat_scale (fst (s_place n s)) (state_width z + gap_horizontal z)%Qc ltac:(clear - R1 R3; qc_lra)) as K.
        fold (column z (fst (s_place n s))) in K. remember (column z (fst (s_place n s))) as u. clear - K. qc_lra.
      - intros (c & i & ->). unfold above. cbn [b_top b_height]. rewrite T1, H1. cbn [s_place fst snd].
        pose proof (line_rows z R k (s_row_of c) 4 (s_row_bound c)) as K. remember (line z k (s_row_of c)) as u. remember (line z k 4) as v. clear - K. qc_lra.
      - intros (c & i & ->). unfold above. cbn [b_top b_height]. rewrite T1. cbn [s_place fst snd].
        pose proof (line_row z R (S k) (s_row_of c)) as K. rewrite line_S in K. remember (line z (S k) (s_row_of c)) as u. remember (line z k 4) as v. clear - K. qc_lra.
    Qed.
    Lemma selection_drawn : drawn_to_svg _ d a.
    Proof using Hd R Hx Hy Ht Ht'.
      apply (drawn _ d a _ _ _ _ _ _ selection_laid); cbn [a extra_annotations annotate_state annotate_edge a_setup].
      - eauto.
      - intros s x E. unfold s_annotate_state in E. apply bind_ok_inv in E as [bx [_ E]]. apply Ok_injective in E. subst x. constructor.
      - intros e x E. unfold s_annotate_edge in E. cbv zeta in E. apply bind_ok_inv in E as [n1 [_ E]]. apply bind_ok_inv in E as [n2 [_ E]].
        assert (G : e_tags x = [chars "from_" ++ s_name (source e); chars "to_" ++ s_name (dest e)] ++ assignment_tags (assignment e)).
        { destruct (eqb _ _) in E; apply Ok_injective in E; subst x; reflexivity. }
        rewrite G. clear. apply Forall_app. split; [|apply plain_assignment].
        assert (A : forall t, plain (s_name t)) by (intros [[] ? ?|]; apply plainb_plain; vm_compute; reflexivity).
        assert (F : plain (chars "from_") /\ plain (chars "to_")) by (split; apply plainb_plain; vm_compute; reflexivity). destruct F as [F1 F2].
        apply Forall_cons; [|apply Forall_cons; [|apply Forall_nil]]; apply plain_app; auto.
      - intros zs E. apply Ok_injective in E. subst zs. apply Forall_app. split.
        + eapply Forall2_right; [|exact Ht]. intros x t (hover & tags & -> & Pl). exact Pl.
        + eapply Forall2_right; [|exact Ht']. intros x t (hover & tags & -> & Pl). exact Pl.
      - apply plain_setup. vm_compute. reflexivity.
      - apply selection_dag_edges.
    Qed.
  End Placed.
End Selection.

(** ** C73 (selection DAG). *)
Theorem C73_selection_layout :
  forall (M : Type) (md : EqDec M) (z : sizes) (repr_text : text -> text) (str_cost : cost -> text) (repr_state : sstate -> text)
         (repr_edge : sedge -> text) (repr_visit : item -> text) (repr_visited : item -> text -> M -> text)
         (U : text -> M -> utilities) (prototype target : list (node M)) d,
    roomy z -> construct_selection_dag U (pack prototype) (pack target) = Ok d ->
    exists a, selection_annotator z repr_text str_cost repr_state repr_edge repr_visit repr_visited (pack prototype) (pack target) = Ok a /\
      well_laid str_cost d a (state_width z) (state_height z) (gap_horizontal z) (state_separation z) selection_name /\
      drawn_to_svg _ d a.
Proof.
  intros M md z rt sc rs re rv rvd U ns ts d R Hd.
  destruct (selection_annotator_ok z rt sc rs re rv rvd ns ts) as (xs & ys & tx & ty & E & Hx & Hy & Ht & Ht').
  eexists. splits; [exact E|eapply selection_laid; eassumption|eapply selection_drawn; eassumption].
Qed.
Print Assumptions C73_selection_layout.
(** ** C74 (selection DAG).  One text for every visit of the prototype, above all states and between its two columns; then
    one for every visit of the target, to the left of all states and between its two groups of lines. *)
Theorem C74_selection_texts :
  forall (M : Type) (md : EqDec M) (z : sizes) (repr_text : text -> text) (str_cost : cost -> text) (repr_state : sstate -> text)
         (repr_edge : sedge -> text) (repr_visit : item -> text) (repr_visited : item -> text -> M -> text)
         (U : text -> M -> utilities) (prototype target : list (node M)) d a,
    roomy z -> construct_selection_dag U (pack prototype) (pack target) = Ok d ->
    selection_annotator z repr_text str_cost repr_state repr_edge repr_visit repr_visited (pack prototype) (pack target) = Ok a ->
    exists texts texts', extra_annotations a = Ok (texts ++ texts') /\
      Forall2 (fun (x : nat * text) t => let '(k, words) := x in
          exists bx hover tags, t = TextAnnotation bx words (font z) hover tags /\
            between_columns d a (gap_vertical z) (fun s => exists c j, s = SAt c k j) (fun s => exists c j, s = SAt c (S k) j) bx)
        (counted (flat_map (visit_words false repr_text repr_visit) (labelled prototype))) texts /\
      Forall2 (fun (x : nat * text) t => let '(k, words) := x in
          exists bx hover tags, t = TextAnnotation bx words (font z) hover tags /\
            between_lines d a (gap_horizontal z) (fun s => exists c i, s = SAt c i k) (fun s => exists c i, s = SAt c i (S k)) bx)
        (counted (flat_map (visit_words true repr_text repr_visit) (labelled target))) texts'.
Proof.
  intros M md z rt sc rs re rv rvd U ns ts d a R Hd Ha.
  destruct (selection_annotator_ok z rt sc rs re rv rvd ns ts) as (xs & ys & tx & ty & E & Hx & Hy & Ht & Ht').
  rewrite E in Ha. apply Ok_injective in Ha. subst a. exists tx, ty. splits; [reflexivity| |].
  - eapply selection_xtexts; eassumption.
  - eapply selection_ytexts; eassumption.
Qed.
Print Assumptions C74_selection_texts.

(** Hypotheses met: the default sizes are roomy; the example prototypes and targets give DAGs with many states. *)
Example C73_C74_hypotheses :
  roomy default_sizes /\
  (exists d, construct_constraint_dag (pack Properties_Edit.ex_prototype) = Ok d /\ 20 <? List.length (edges d) = true) /\
  (exists d, construct_edit_dag ex_costs (pack Properties_Edit.ex_prototype) (pack Properties_Edit.ex_target) = Ok d /\ 100 <? List.length (edges d) = true) /\
  (exists d, construct_selection_dag ex_utilities (pack Properties_Selection.ex_prototype) (pack Properties_Selection.ex_target) = Ok d /\ 50 <? List.length (edges d) = true) /\
  edit_render_data (pack Properties_Edit.ex_prototype) (pack Properties_Edit.ex_target) = Ok [((-1)%Z, (-1)%Z); (3%Z, 2%Z)] /\
  List.length (leaves_from (-1)%Z 0 (labelled Properties_Edit.ex_prototype)) = 7 /\
  List.length (flat_map (visit_words true (fun t => t) (fun _ => [])) (labelled Properties_Edit.ex_target)) = 6.
Proof.
  splits; try (vm_compute; reflexivity).
  - unfold roomy. splits; vm_compute; (reflexivity || discriminate).
  - destruct (construct_constraint_dag (pack Properties_Edit.ex_prototype)) as [d|] eqn:E; [|vm_compute in E; discriminate].
    exists d. split; [reflexivity|]. vm_compute in E. apply Ok_injective in E. subst d. reflexivity.
  - destruct (construct_edit_dag ex_costs (pack Properties_Edit.ex_prototype) (pack Properties_Edit.ex_target)) as [d|] eqn:E; [|vm_compute in E; discriminate].
    exists d. split; [reflexivity|]. vm_compute in E. apply Ok_injective in E. subst d. reflexivity.
  - destruct (construct_selection_dag ex_utilities (pack Properties_Selection.ex_prototype) (pack Properties_Selection.ex_target)) as [d|] eqn:E; [|vm_compute in E; discriminate].
    exists d. split; [reflexivity|]. vm_compute in E. apply Ok_injective in E. subst d. reflexivity.
Qed.
