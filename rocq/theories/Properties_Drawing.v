(** C70-C71: drawing a state DAG, and what the SVG of a drawing shows.
    Specification vocabulary: [Graph.v] (paths) and [DrawSpec.v] ([state_call], [edge_call],
    [connects], [lit]; [drawing], [shows_all], [covers], [in_box]). *)

From Coq Require Import String.
From Coq Require Import List Bool Arith Lia QArith Qcanon Lqa.
From Verif Require Import Base SeqNodes Graph GatedDag Html Drawing DrawSpec DrawingProofs DrawBounds.
Import ListNotations.
Close Scope string_scope. Close Scope Qc_scope. Close Scope Q_scope. Open Scope nat_scope. Open Scope list_scope.

(** ** C70.  The calls made on the renderer: first what the annotator sets up, then its extra
    annotations, then one label for every state that has an edge, then one group for every edge, in
    the order of the edges.  The annotation of the state or edge is drawn, tagged with whether the
    state (both ends of the edge) can be on a complete path of finite cost, and with whether the edge
    is emphasised; [connects] says where its line runs. *)
Theorem C70_render_dag_calls :
  forall (St As In : Type) (dSt : EqDec St) (dAs : EqDec As) (d : dag St As In) (a : annotator St As In) (svg : bool)
         (emphasized : option (list (edge St As In))) (calls : list command),
    ordered (edges d) -> render_dag d a svg emphasized = Ok calls ->
    exists states extras setup_calls extra_calls state_calls edge_calls,
      calls = setup_calls ++ extra_calls ++ state_calls ++ edge_calls /\
      setup_calls = a_setup a svg ++ (if svg then [Css default_svg_style_css; Custom hover_filter] else []) /\
      extra_annotations a = Ok extras /\ Forall2 extra_call extras extra_calls /\
      NoDup states /\ (forall s, List.In s states <-> exists e, List.In e (edges d) /\ (s = source e \/ s = dest e)) /\
      Forall2 (state_call d a) states state_calls /\
      Forall2 (edge_call d a emphasized) (edges d) edge_calls.
Proof. intros St As In dSt dAs d a svg emphasized calls. apply render_calls. Qed.
Print Assumptions C70_render_dag_calls.

Lemma mapM_total {A B} (f : A -> result B) l : (exists l', mapM f l = Ok l') <-> forall x, In x l -> exists y, f x = Ok y.
Proof.
  induction l as [|x l IH]; cbn.
  - split; [intros _ y []|intros _; now exists []].
  - split.
    + intros [l' K]. apply bind_ok_inv in K as [y [K1 K]]. apply bind_ok_inv in K as [ys [K2 _]].
      intros z [<-|Hz]; [now exists y|]. apply (proj1 IH); [now exists ys|exact Hz].
    + intros K. destruct (K x (or_introl eq_refl)) as [y Ey]. destruct (proj2 IH) as [ys Eys]; [auto|]. rewrite Ey. cbn. rewrite Eys. now exists (y :: ys).
Qed.
(** It succeeds exactly when the annotator does on everything it is asked for. *)
Theorem C70_render_dag_succeeds :
  forall (St As In : Type) (dSt : EqDec St) (dAs : EqDec As) (d : dag St As In) (a : annotator St As In) (svg : bool)
         (emphasized : option (list (edge St As In))),
    (exists calls, render_dag d a svg emphasized = Ok calls) <->
    (exists extras, extra_annotations a = Ok extras) /\
    (forall e, List.In e (edges d) -> (exists n, annotate_edge a e = Ok n) /\
       (exists n, annotate_state a (source e) = Ok n) /\ (exists n, annotate_state a (dest e) = Ok n)).
Proof.
  intros St As In dSt dAs d a svg emphasized. unfold render_dag. destruct (state_list_spec d) as [_ I]. split.
  - intros [calls K]. apply bind_ok_inv in K as [xs [K1 K]]. apply bind_ok_inv in K as [ss [K2 K]]. apply bind_ok_inv in K as [es [K3 _]].
    split; [eauto|]. intros e He. destruct (proj1 (mapM_total _ _) (ex_intro _ es K3) e He) as [c Ec]. unfold draw_edge in Ec.
    apply bind_ok_inv in Ec as [n [E1 Ec]]. apply bind_ok_inv in Ec as [ns [E2 Ec]]. apply bind_ok_inv in Ec as [nd [E3 _]]. splits; eauto.
  - intros [[xs K1] K2]. rewrite K1. cbn [bind].
    destruct (proj2 (mapM_total (draw_state a (compute_reachable_states d)) (extract_state_list d))) as [ss E2].
    { intros s Hs. apply I in Hs as [e [He Hse]]. destruct (K2 e He) as [_ [[n1 E1] [n2 E2]]]. unfold draw_state.
      destruct Hse as [-> | ->]; [rewrite E1|rewrite E2]; cbn; eauto. }
    rewrite E2. cbn [bind].
    destruct (proj2 (mapM_total (draw_edge a (compute_reachable_states d) emphasized) (edges d))) as [es E3].
    { intros e He. destruct (K2 e He) as [[n E] [[n1 E1] [n2 E2']]]. unfold draw_edge. rewrite E, E1, E2'. cbn [bind].
      destruct (lights emphasized e), (elbow n (s_bounds n1) (s_bounds n2)) as [[[? ?] ?] ?]. eauto. }
    rewrite E3. cbn [bind]. eauto.
Qed.
Print Assumptions C70_render_dag_succeeds.

(** For an edge of finite cost, both ends being in use is the same as the edge being in use. *)
Theorem C70_reachable_edges :
  forall (St As In : Type) (d : dag St As In) (e : edge St As In),
    List.In e (edges d) -> finite_edge e ->
    (state_in_use d (source e) /\ state_in_use d (dest e) <-> edge_in_use d e).
Proof.
  intros St As In d e He Fe. split.
  - intros [(p1 & p1' & P1 & P1' & F1) (p2 & p2' & P2 & P2' & F2)]. exists p1, p2'.
    apply Forall_app in F1 as [F1 _]. apply Forall_app in F2 as [_ F2]. split.
    + unfold complete_path. apply is_path_app with (source e); [exact P1|]. now constructor.
    + apply Forall_app. split; [exact F1|]. now constructor.
  - intros (p1 & p2 & P & F). unfold complete_path in P. apply is_path_app_inv in P as [m [P1 P2]].
    apply is_path_cons_inv in P2 as [E [_ P2]]. subst m.
    apply Forall_app in F as [F1 F2]. inversion F2; subst. split.
    + exists p1, (e :: p2). splits; [exact P1| |apply Forall_app; split; auto]. now constructor.
    + exists (p1 ++ [e]), p2. splits; [|exact P2|].
      * apply is_path_app with (source e); [exact P1|]. constructor; [exact He|constructor].
      * repeat (apply Forall_app; split); auto.
Qed.
Print Assumptions C70_reachable_edges.

(** Finding: an edge of infinite cost, which no path of finite cost has, is drawn as reachable when
    both its ends are in use. *)
Theorem C70_infinite_edge_refuted :
  ~ (forall (d : dag nat nat nat) (a : annotator nat nat nat) calls hover tags body,
       ordered (edges d) -> render_dag d a false None = Ok calls ->
       List.In (Group hover tags body) calls -> List.In (chars "reachable-edge") tags ->
       exists e, List.In e (edges d) /\ edge_in_use d e /\ annotate_edge a e = Ok (mkEdgeAnnotation Horizontal 0 0 0 0 (chars "x") 0 hover [] 0 0)%Qc).
Proof.
  intros H.
  set (free := mkEdge 0 1 (Fin 0%Qc) None 0 : edge nat nat nat). set (inf := mkEdge 0 1 Inf None 1 : edge nat nat nat).
  set (sn := mkStateAnnotation (mkBox 0 0 0 0)%Qc [] 0%Qc None []).
  set (a := @mkAnnotator nat nat nat (fun _ => Ok sn)
        (fun e => Ok (mkEdgeAnnotation Horizontal 0 0 0 0 (chars "x") 0 (Some [info e]) [] 0 0)%Qc) (Ok []) (fun _ => [])).
  destruct (render_dag (mkDag 0 [free; inf] 1) a false None) as [calls|] eqn:E; [|discriminate].
  assert (K : exists body, List.In (Group (Some [1]) [chars "edge-annotation"; chars "reachable-edge"; chars "hover_to_top"] body) calls).
  { apply Ok_injective in E. subst calls. eexists. right. right. right. left. reflexivity. }
  destruct K as [body K].
  assert (Ho : ordered [free; inf]) by (split; [intros e' [<-|[]]; discriminate|split; [intros e' []|exact I]]).
  destruct (H (mkDag 0 [free; inf] 1) a calls _ _ body Ho E K) as [e [E1 [E2 E3]]].
  - right. now left.
  - destruct E1 as [<-|[<-|[]]].
    + cbn in E3. injection E3 as E3. discriminate.
    + destruct E2 as (p1 & p2 & P & F). apply Forall_app in F as [_ F]. inversion F as [|? ? [q Fq]]; subst. discriminate.
Qed.
Print Assumptions C70_infinite_edge_refuted.

(** Finding: a DAG without edges is drawn without its states. *)
Theorem C70_lonely_state_refuted :
  ~ (forall (d : dag nat nat nat) (a : annotator nat nat nat) calls,
       ordered (edges d) -> render_dag d a false None = Ok calls ->
       exists c, List.In c calls /\ state_call d a (initial_state d) c).
Proof.
  intros H.
  set (sn := mkStateAnnotation (mkBox 0 0 0 0)%Qc [] 0%Qc None []).
  destruct (H (mkDag 0 [] 0) (@mkAnnotator nat nat nat (fun _ => Ok sn) (fun _ => Err ValueError) (Ok []) (fun _ => [])) [] I eq_refl) as [c [[] _]].
Qed.
Print Assumptions C70_lonely_state_refuted.

(** When the alignments are between 0 and 1, the line starts and ends on the sides of the two boxes
    and the dot lies on its middle segment; when the elbow is too, and is not adjusted, the line does not
    run back. *)
Theorem C70_line_within :
  forall n src dst p0 p1 p2 p3 dot text dir,
    connects n src dst p0 p1 p2 p3 dot text dir ->
    let unit q := (0 <= q /\ q <= 1)%Qc in
    (unit (start_alignment n) -> (0 <= b_width src)%Qc -> (0 <= b_height src)%Qc -> in_box src p0) /\
    (unit (end_alignment n) -> (0 <= b_width dst)%Qc -> (0 <= b_height dst)%Qc -> in_box dst p3) /\
    (unit (text_alignment n) -> between (px p1) (px dot) (px p2) /\ between (py p1) (py dot) (py p2)) /\
    (unit (elbow_distance n) -> elbow_distance_adjust n = 0%Qc ->
       between (px p0) (px p1) (px p3) /\ between (py p0) (py p1) (py p3) /\
       between (px p0) (px p2) (px p3) /\ between (py p0) (py p2) (py p3)).
Proof.
  intros n src dst p0 p1 p2 p3 dt tx dir C unit.
  assert (W : forall x y t : Qc, (0 <= t -> t <= 1 -> 0 <= y -> x <= x + t * y /\ x + t * y <= x + y)%Qc).
  { intros x y t T0 T1 Y. split.
    - rewrite <- (Qcplus_0_r x) at 1. apply Qcplus_le_compat; [apply Qcle_refl|].
      replace 0%Qc with (0 * y)%Qc by ring. now apply Qcmult_le_compat_r.
    - apply Qcplus_le_compat; [apply Qcle_refl|]. replace y with (1 * y)%Qc at 2 by ring. now apply Qcmult_le_compat_r. }
  assert (V : forall x z t : Qc, (0 <= t -> t <= 1 -> between x (x + t * (z - x)) z)%Qc).
  { intros x z t T0 T1. unfold between. destruct (Qclt_le_dec x z) as [L|L].
    - left. destruct (W x (z - x)%Qc t T0 T1) as [W1 W2]; [apply Qclt_le_weak in L; clear -L; qc_lra|]. split; [exact W1|].
      replace z with (x + (z - x))%Qc at 2 by ring. exact W2.
    - right. destruct (W z (x - z)%Qc (1 - t)%Qc) as [W1 W2]; [clear -T1; qc_lra|clear -T0; qc_lra|clear -L; qc_lra|].
      replace (x + t * (z - x))%Qc with (z + (1 - t) * (x - z))%Qc by ring. split; [exact W1|].
      replace x with (z + (x - z))%Qc at 2 by ring. exact W2. }
  assert (B0 : forall x z, between x x z) by (intros x z; unfold between; destruct (Qclt_le_dec x z) as [L|L]; [left|right]; split; auto using Qcle_refl, Qclt_le_weak).
  assert (B1 : forall x z, between x z z) by (intros x z; unfold between; destruct (Qclt_le_dec x z) as [L|L]; [left|right]; split; auto using Qcle_refl, Qclt_le_weak).
  assert (X0 : forall x y : Qc, (0 <= y -> x <= x + y)%Qc) by (intros x y Y; clear -Y; qc_lra).
  unfold connects in C. destruct (e_axis n).
  - destruct C as (C1 & C2 & C3 & C4 & C5 & C6 & C7 & C8 & C9 & C10 & C11 & C12). splits.
    + intros [U0 U1] Hw Hh. unfold in_box. rewrite C1, C2. destruct (W (b_top src) (b_height src) _ U0 U1 Hh). splits; auto using Qcle_refl.
    + intros [U0 U1] Hw Hh. unfold in_box. rewrite C3, C4. destruct (W (b_top dst) (b_height dst) _ U0 U1 Hh). splits; auto using Qcle_refl.
    + intros [U0 U1]. rewrite C9, C8, C5, C6. split; [apply B0|]. destruct C10 as [(_ & -> & _)|(_ & _ & -> & _)]; auto.
    + intros [U0 U1] A. rewrite C8, C7, A, Qcplus_0_r, C5, C6. splits; auto.
  - destruct C as (C1 & C2 & C3 & C4 & C5 & C6 & C7 & C8 & C9 & C10 & C11 & C12 & C13). splits.
    + intros [U0 U1] Hw Hh. unfold in_box. rewrite C1, C2. destruct (W (b_left src) (b_width src) _ U0 U1 Hw). splits; auto using Qcle_refl.
    + intros [U0 U1] Hw Hh. unfold in_box. rewrite C3, C4. destruct (W (b_left dst) (b_width dst) _ U0 U1 Hw). splits; auto using Qcle_refl.
    + intros [U0 U1]. rewrite C9, C8, C5, C6, C10. split; auto.
    + intros [U0 U1] A. rewrite C8, C7, A, Qcplus_0_r, C5, C6. splits; auto.
Qed.
Print Assumptions C70_line_within.

(** ** C71.  Whatever is drawn on an SVG renderer, the markup it returns is well-formed and shows, after
    the heads of the arrows, exactly what the calls asked for, in their order: each in its group, each line of each
    label as given (read back through the escaping), hover texts if they are wanted.  (Numbers are printed
    by [num], tags and styles have no quotes or angle brackets, and lines have points.) *)
Theorem C71_svg_shows :
  forall (num : Qc -> text) (calls : list command) (with_default_styles with_hover_text : bool) (padding : Qc),
    (forall q, number_text (num q)) -> Forall plain_call calls ->
    exists r ms, perform_all num (new_renderer with_default_styles with_hover_text) calls = Ok r /\
      shows_all num with_hover_text [el "g" []; svg_element num (viewbox r padding)] calls ms /\
      drawing (to_html num r padding) = Some (map (inside [svg_element num (viewbox r padding)]) arrow_marks ++ ms).
Proof. intros num calls styles hov padding N P. now apply svg_shows. Qed.
Print Assumptions C71_svg_shows.

(** The view box is the smallest box around all boxes, lines and anchors drawn, widened by the padding
    on all sides; when nothing is drawn it is the square of side 10 at the origin, so widened. *)
Theorem C71_view_box :
  forall (num : Qc -> text) (calls : list command) (with_default_styles with_hover_text : bool) r (padding : Qc),
    perform_all num (new_renderer with_default_styles with_hover_text) calls = Ok r ->
    let v := viewbox r padding in
    (forall c p, List.In c calls -> covers c p ->
       (b_left v + padding <= px p /\ px p <= b_left v + b_width v - padding /\
        b_top v + padding <= py p /\ py p <= b_top v + b_height v - padding)%Qc) /\
    (Forall upright calls -> (exists c p, List.In c calls /\ covers c p) ->
     forall b, (forall c p, List.In c calls -> covers c p -> in_box b p) ->
       (b_left b <= b_left v + padding /\ b_left v + b_width v - padding <= b_left b + b_width b /\
        b_top b <= b_top v + padding /\ b_top v + b_height v - padding <= b_top b + b_height b)%Qc) /\
    ((forall c p, List.In c calls -> ~ covers c p) -> Forall upright calls ->
     v = mkBox (- padding)%Qc (- padding)%Qc (of_nat 10 + padding + padding)%Qc (of_nat 10 + padding + padding)%Qc).
Proof. intros num calls styles hov r padding H. now apply (view_box num calls r styles hov padding). Qed.
Print Assumptions C71_view_box.

(** So every DAG can be drawn to SVG when the annotator's tags and set-up calls are plain. *)
Theorem C71_dag_to_svg :
  forall (St As In : Type) (dSt : EqDec St) (dAs : EqDec As) (num : Qc -> text) (d : dag St As In) (a : annotator St As In)
         (emphasized : option (list (edge St As In))) calls with_default_styles with_hover_text (padding : Qc),
    (forall q, number_text (num q)) ->
    (forall s n, annotate_state a s = Ok n -> Forall plain (s_tags n)) ->
    (forall e n, annotate_edge a e = Ok n -> Forall plain (e_tags n)) ->
    (forall xs, extra_annotations a = Ok xs ->
       Forall (fun x => match x with RegionAnnotation _ tags | TextAnnotation _ _ _ _ tags => Forall plain tags end) xs) ->
    Forall plain_call (a_setup a true) ->
    ordered (edges d) -> render_dag d a true emphasized = Ok calls ->
    exists r ms, perform_all num (new_renderer with_default_styles with_hover_text) calls = Ok r /\
      shows_all num with_hover_text [el "g" []; svg_element num (viewbox r padding)] calls ms /\
      drawing (to_html num r padding) = Some (map (inside [svg_element num (viewbox r padding)]) arrow_marks ++ ms).
Proof.
  intros St As In dSt dAs num d a emphasized calls styles hov padding N Hs He Hx Ha O K. apply C71_svg_shows; [exact N|].
  destruct (render_calls d a true emphasized calls O K) as (states & extras & c1 & c2 & c3 & c4 & -> & -> & X & F2 & _ & _ & F3 & F4).
  clear K. repeat (apply Forall_app; split); auto.
  - constructor; [|constructor; [|constructor]].
    + constructor. assert (M : mild default_svg_style_css) by (apply mildb_mild; vm_compute; reflexivity).
      unfold mild, plain_css in *. eapply Forall_impl; [|exact M]. cbn. tauto.
    + destruct (drawing hover_filter) as [ms|] eqn:E; [now apply (plain_custom _ ms)|]. vm_compute in E. discriminate.
  - specialize (Hx _ X). clear X. induction F2 as [|x c xs cs E F IH]; constructor; inversion Hx; subst; auto.
    destruct x; cbn in E; subst c; constructor; (apply Forall_app; split; [assumption|]); repeat constructor; discriminate.
  - induction F3 as [|s c ss cs E F IH]; constructor; auto. destruct E as (n & reach & E1 & -> & E2). constructor.
    apply Forall_app. split; [exact (Hs _ _ E1)|]. constructor; [repeat constructor; discriminate|].
    destruct E2 as [[_ ->]|[_ ->]]; repeat constructor; discriminate.
  - clear O. revert F4. generalize (edges d). intros es0 F4. induction F4 as [|e c es cs E F IH]; constructor; auto.
    destruct E as (n & ns & nd & p0 & p1 & p2 & p3 & dt & tx & dir & li & reach & E1 & E2 & E3 & -> & _ & L & R).
    constructor; [|repeat constructor; discriminate].
    apply Forall_app. split; [exact (He _ _ E1)|]. constructor; [repeat constructor; discriminate|]. apply Forall_app. split.
    + unfold lit in L. destruct emphasized as [[|x l]|]; [subst li; constructor| |subst li; constructor].
      destruct L as [[_ ->]|[_ ->]]; repeat constructor; discriminate.
    + destruct R as [[_ [_ ->]]|[_ ->]]; repeat constructor; discriminate.
Qed.
Print Assumptions C71_dag_to_svg.

(** Finding: a label that should go above a point is put below it. *)
Theorem C71_label_up_refuted :
  ~ (forall (num : Qc -> text) hov around p t size ms, (0 < size)%Qc ->
       shows num hov around (LabelAt p t size Up None half []) ms ->
       forall c a st y, List.In (Shown c ((chars "text", a) :: st)) ms -> List.In (chars "y", num y) a -> (y <= py p)%Qc).
Proof.
  intros H.
  set (num := fun q : Qc => if Qc_eq_dec q 1%Qc then [49] else if Qc_eq_dec q 0%Qc then [48] else [50]).
  assert (L : lines_of [65] [[65]]) by (constructor; cbn; intuition discriminate).
  specialize (H num false [] (mkPoint 0 0)%Qc [65] 1%Qc _ eq_refl (shows_label_at num false [] _ _ _ _ _ _ _ _ L)).
  specialize (H 65 _ _ 1%Qc (or_introl eq_refl)).
  assert (K : (1 <= 0)%Qc); [|revert K; vm_compute; auto].
  apply H. right. right. left. reflexivity.
Qed.
Print Assumptions C71_label_up_refuted.

(** Finding: a label of several lines beside a point is not centred on it: all lines are at or below it. *)
Theorem C71_label_beside_refuted :
  ~ (forall (n : nat) (padding : Qc), 1 < n -> exists i, i < n /\ (below ToRight n padding i < 0)%Qc).
Proof.
  intros H. destruct (H 2 0%Qc) as [i [Hi L]]; [lia|]. destruct i as [|[|i]]; [| |lia]; vm_compute in L; discriminate.
Qed.
Print Assumptions C71_label_beside_refuted.

(** A DAG with three edges, one not on a path of finite cost, and its calls. *)
Definition picture_dag : dag nat nat nat :=
  mkDag 0 [mkEdge 0 1 (Fin 1%Qc) None 0; mkEdge 1 2 (Fin 1%Qc) None 0; mkEdge 1 3 (Fin 1%Qc) (Some 5) 0] 2.
Definition picture_annotator : annotator nat nat nat :=
  mkAnnotator (fun s => Ok (mkStateAnnotation (mkBox (of_nat (2 * s)) 0 1 1)%Qc [48 + s] 1%Qc (Some [60]) []))
    (fun e => Ok (mkEdgeAnnotation Horizontal half half half half (chars "a<b") 1%Qc None [chars "thin"] 0%Qc 0%Qc))
    (Ok [RegionAnnotation (mkBox 0 0 (of_nat 8) 1)%Qc []]) (fun _ => []).
Example C70_C71_hypotheses :
  ordered (edges picture_dag) /\
  (exists calls, render_dag picture_dag picture_annotator true (Some [mkEdge 0 1 (Fin 1%Qc) None 7]) = Ok calls /\
     List.length calls = 2 + 1 + 4 + 3) /\
  (forall s n, annotate_state picture_annotator s = Ok n -> Forall plain (s_tags n)) /\
  (forall e n, annotate_edge picture_annotator e = Ok n -> Forall plain (e_tags n)) /\
  number_text (chars "12.5").
Proof.
  splits.
  - cbn. splits; auto; intros e' K; repeat (destruct K as [<-|K]; [discriminate|]); contradiction.
  - destruct (render_dag picture_dag picture_annotator true (Some [mkEdge 0 1 (Fin 1%Qc) None 7])) as [calls|] eqn:E; [|discriminate].
    exists calls. split; [reflexivity|]. apply Ok_injective in E. subst calls. reflexivity.
  - intros s n E. injection E as <-. constructor.
  - intros e n E. injection E as <-. repeat constructor; discriminate.
  - split; [discriminate|]. repeat constructor; discriminate.
Qed.
